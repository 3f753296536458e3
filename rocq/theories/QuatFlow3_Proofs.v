From Coq Require Import Reals ZArith List Bool Ascii Lra Lia.
From Verif Require Import Grid_Model Grid_Spec Grid_Proofs Functions_Model Quat_Model Quat_Spec Quat_Proofs Trap3_Model.
From Verif Require QuatFlow_Model QuatFlow_Spec.
From Verif Require Import QuatFlow_Proofs.
From Verif Require Import QuatFlow3_Model QuatFlow3_Spec.
Import ListNotations.
Open Scope R_scope.

(** * Loops *)
Lemma inbT : forall lo hi i, (lo <= i <= hi)%Z -> inb lo hi i = true.
Proof. intros. destruct (inb_spec lo hi i); auto; lia. Qed.
Lemma put3_val : forall d i j k g s a b c m,
  put3 d i j k g s a b c m = if ((a =? i)%Z && (b =? j)%Z && (c =? k)%Z && inb 1 d m)%bool then g m (s a b c m) else s a b c m.
Proof.
  intros d i j k g s a b c m. unfold put3.
  assert (G : forall lo hi, do_loop lo hi (fun m s => upd4 s i j k m (g m (s i j k m))) s a b c m =
    if ((a =? i)%Z && (b =? j)%Z && (c =? k)%Z && inb lo hi m)%bool then g m (s a b c m) else s a b c m); [| apply G].
  apply Zinterval_ind.
  - intros lo hi H. rewrite do_loop_empty by auto. destruct (inb_spec lo hi m); [lia |]. rewrite andb_false_r. reflexivity.
  - intros lo hi H IH. rewrite do_loop_snoc by auto. unfold upd4 at 1.
    destruct (Z.eqb_spec a i) as [-> |]; cbn [andb]; [| rewrite IH; reflexivity].
    destruct (Z.eqb_spec b j) as [-> |]; cbn [andb]; [| rewrite IH; reflexivity].
    destruct (Z.eqb_spec c k) as [-> |]; cbn [andb]; [| rewrite IH; reflexivity].
    destruct (Z.eqb_spec m hi) as [-> |].
    + rewrite IH. destruct (inb_spec lo (hi - 1) hi); [lia |]. destruct (inb_spec lo hi hi); [reflexivity | lia].
    + rewrite IH. destruct (inb_spec lo (hi - 1) m); destruct (inb_spec lo hi m); try lia; reflexivity.
Qed.
Lemma cells4_val : forall l0 u0 l1 u1 l2 u2 m (g : Z -> Z -> Z -> R -> R) (s : arr4) a b c n,
  do_cells3 l0 u0 l1 u1 l2 u2 (fun i j k s => upd4 s i j k m (g i j k (s i j k m))) s a b c n =
  if (inb l0 u0 a && inb l1 u1 b && inb l2 u2 c && (n =? m)%Z)%bool then g a b c (s a b c m) else s a b c n.
Proof.
  intros l0 u0 l1 u1 l2 u2 m g s a b c n.
  destruct (inb_spec l0 u0 a) as [Ha |]; cbn [andb].
  1: destruct (inb_spec l1 u1 b) as [Hb |]; cbn [andb].
  1: destruct (inb_spec l2 u2 c) as [Hc |]; cbn [andb].
  1: { destruct (cells3_once _ (fun s s' : arr4 => forall n, s' a b c n = s a b c n) l0 u0 l1 u1 l2 u2 a b c
         (fun i j k s => upd4 s i j k m (g i j k (s i j k m))) s) as (s0 & H0 & H1); auto.
       - intros x y z H1 H2 p. rewrite H2. apply H1.
       - unfold in_box3. lia.
       - intros i j k s' Hij Hne p. unfold upd4. destruct (Z.eqb_spec a i); destruct (Z.eqb_spec b j); destruct (Z.eqb_spec c k); cbn [andb]; auto. lia.
       - cbn beta in H1. rewrite H1. unfold upd4. rewrite !Z.eqb_refl, !H0. cbn [andb]. destruct (n =? m)%Z; reflexivity. }
  all: apply (cells3_never _ (fun s s' : arr4 => s' a b c n = s a b c n)); auto; try congruence;
    intros i j k s' (Hi & Hj & Hk); unfold upd4; destruct (Z.eqb_spec a i); destruct (Z.eqb_spec b j); destruct (Z.eqb_spec c k); cbn [andb]; auto; lia.
Qed.
Lemma mcells3_val : forall d l0 u0 l1 u1 l2 u2 g s a b c m,
  mcells3 d l0 u0 l1 u1 l2 u2 g s a b c m =
  if (inb l0 u0 a && inb l1 u1 b && inb l2 u2 c && inb 1 d m)%bool then g a b c m (s a b c m) else s a b c m.
Proof.
  intros d l0 u0 l1 u1 l2 u2 g s a b c m. unfold mcells3.
  assert (G : forall lo hi, do_loop lo hi (fun m => do_cells3 l0 u0 l1 u1 l2 u2 (fun i j k s => upd4 s i j k m (g i j k m (s i j k m)))) s a b c m =
    if (inb l0 u0 a && inb l1 u1 b && inb l2 u2 c && inb lo hi m)%bool then g a b c m (s a b c m) else s a b c m); [| apply G].
  apply Zinterval_ind.
  - intros lo hi H. rewrite do_loop_empty by auto. destruct (inb_spec lo hi m); [lia |]. rewrite andb_false_r. reflexivity.
  - intros lo hi H IH. rewrite do_loop_snoc by auto. rewrite (cells4_val l0 u0 l1 u1 l2 u2 hi (fun i j k => g i j k hi)).
    destruct (inb l0 u0 a); cbn [andb] in *; [| exact IH]. destruct (inb l1 u1 b); cbn [andb] in *; [| exact IH].
    destruct (inb l2 u2 c); cbn [andb] in *; [| exact IH].
    destruct (Z.eqb_spec m hi) as [-> |].
    + rewrite IH. destruct (inb_spec lo (hi - 1) hi); [lia |]. destruct (inb_spec lo hi hi); [reflexivity | lia].
    + rewrite IH. destruct (inb_spec lo (hi - 1) m); destruct (inb_spec lo hi m); try lia; reflexivity.
Qed.

Lemma ocells3_some : forall S l0 u0 l1 u1 l2 u2 (body : Z -> Z -> Z -> S -> option S) (f : Z -> Z -> Z -> S -> S) s,
  (forall i j k s, in_box3 l0 u0 l1 u1 l2 u2 i j k -> body i j k s = Some (f i j k s)) ->
  ocells3 l0 u0 l1 u1 l2 u2 body s = Some (do_cells3 l0 u0 l1 u1 l2 u2 f s).
Proof.
  intros S l0 u0 l1 u1 l2 u2 body f s H. unfold ocells3, do_cells3.
  assert (N : forall A lo hi (bd : Z -> A -> option A), do_loop lo hi (fun i os => match os with None => None | Some s => bd i s end) None = None).
  { intros A lo hi bd. revert lo hi. apply Zinterval_ind; intros; [apply do_loop_empty; auto |]. rewrite do_loop_snoc by auto. rewrite H1. reflexivity. }
  rewrite (do_loop_ext _ l2 u2 _ (fun k os => match os with None => None
    | Some s => Some (do_loop l1 u1 (fun j => do_loop l0 u0 (fun i => f i j k)) s) end)).
  - apply (oloop_some _ _ _ (fun k s => Some (do_loop l1 u1 (fun j => do_loop l0 u0 (fun i => f i j k)) s))). reflexivity.
  - intros k os Hk.
    rewrite (do_loop_ext _ l1 u1 _ (fun j os => match os with None => None | Some s => Some (do_loop l0 u0 (fun i => f i j k) s) end)).
    + destruct os as [s' |]; [| apply (N S l1 u1 (fun j s => Some (do_loop l0 u0 (fun i => f i j k) s)))].
      apply (oloop_some _ _ _ (fun j s => Some (do_loop l0 u0 (fun i => f i j k) s))). reflexivity.
    + intros j [s' |] Hj; [| apply (N S l0 u0 (fun i s => body i j k s))].
      apply (oloop_some _ _ _ (fun i s => body i j k s)). intros i s0 Hi. apply H. unfold in_box3. lia.
Qed.
Lemma put3_cells_val : forall d l0 u0 l1 u1 l2 u2 (g : Z -> Z -> Z -> Z -> R -> R) s a b c m,
  do_cells3 l0 u0 l1 u1 l2 u2 (fun i j k s => put3 d i j k (g i j k) s) s a b c m =
  if (inb l0 u0 a && inb l1 u1 b && inb l2 u2 c && inb 1 d m)%bool then g a b c m (s a b c m) else s a b c m.
Proof.
  intros d l0 u0 l1 u1 l2 u2 g s a b c m.
  destruct (inb_spec l0 u0 a) as [Ha |]; cbn [andb].
  1: destruct (inb_spec l1 u1 b) as [Hb |]; cbn [andb].
  1: destruct (inb_spec l2 u2 c) as [Hc |]; cbn [andb].
  1: { destruct (cells3_once _ (fun s s' : arr4 => forall n, s' a b c n = s a b c n) l0 u0 l1 u1 l2 u2 a b c
         (fun i j k s => put3 d i j k (g i j k) s) s) as (s0 & H0 & H1); auto.
       - intros x y z H1 H2 p. rewrite H2. apply H1.
       - unfold in_box3. lia.
       - intros i j k s' Hij Hne p. rewrite put3_val. destruct (Z.eqb_spec a i); destruct (Z.eqb_spec b j); destruct (Z.eqb_spec c k); cbn [andb]; auto. lia.
       - cbn beta in H1. rewrite H1, put3_val, !Z.eqb_refl, H0. reflexivity. }
  all: apply (cells3_never _ (fun s s' : arr4 => s' a b c m = s a b c m)); auto; try congruence;
    intros i j k s' (Hi & Hj & Hk); rewrite put3_val; destruct (Z.eqb_spec a i); destruct (Z.eqb_spec b j); destruct (Z.eqb_spec c k); cbn [andb]; auto; lia.
Qed.
Lemma ocells3_put : forall d l0 u0 l1 u1 l2 u2 body (g : Z -> Z -> Z -> Z -> R -> R) s,
  (forall i j k s, in_box3 l0 u0 l1 u1 l2 u2 i j k -> body i j k s = Some (put3 d i j k (g i j k) s)) ->
  exists s', ocells3 l0 u0 l1 u1 l2 u2 body s = Some s' /\ forall a b c m, s' a b c m =
  if (inb l0 u0 a && inb l1 u1 b && inb l2 u2 c && inb 1 d m)%bool then g a b c m (s a b c m) else s a b c m.
Proof.
  intros d l0 u0 l1 u1 l2 u2 body g s H.
  exists (do_cells3 l0 u0 l1 u1 l2 u2 (fun i j k s => put3 d i j k (g i j k) s) s). split; [apply ocells3_some; auto |].
  intros. apply put3_cells_val.
Qed.
Lemma ocells3_upd3 : forall l0 u0 l1 u1 l2 u2 body (g : Z -> Z -> Z -> R) s,
  (forall i j k s, in_box3 l0 u0 l1 u1 l2 u2 i j k -> body i j k s = Some (upd3 s i j k (g i j k))) ->
  exists s', ocells3 l0 u0 l1 u1 l2 u2 body s = Some s' /\ forall a b c, s' a b c =
  if (inb l0 u0 a && inb l1 u1 b && inb l2 u2 c)%bool then g a b c else s a b c.
Proof.
  intros l0 u0 l1 u1 l2 u2 body g s H.
  exists (do_cells3 l0 u0 l1 u1 l2 u2 (fun i j k s => upd3 s i j k (g i j k)) s). split; [apply ocells3_some; auto |].
  intros. apply (cells3_loop l0 u0 l1 u1 l2 u2 (fun i j k _ => g i j k)).
Qed.
Lemma ocells3_iupd : forall l0 u0 l1 u1 l2 u2 body (P : Z -> Z -> Z -> Z -> Prop) (s : iarr3),
  (forall i j k s, in_box3 l0 u0 l1 u1 l2 u2 i j k -> exists n, body i j k s = Some (iupd3 s i j k n) /\ P i j k n) ->
  exists s', ocells3 l0 u0 l1 u1 l2 u2 body s = Some s' /\ forall a b c, in_box3 l0 u0 l1 u1 l2 u2 a b c -> P a b c (s' a b c).
Proof.
  intros l0 u0 l1 u1 l2 u2 body P s H.
  set (f := fun i j k s => match body i j k s with Some s' => s' | None => s end).
  exists (do_cells3 l0 u0 l1 u1 l2 u2 f s). split.
  - apply ocells3_some. intros i j k s' Hij. destruct (H i j k s' Hij) as (n & E & _). unfold f. rewrite E. reflexivity.
  - intros a b c Hab.
    destruct (cells3_once _ (fun s s' : iarr3 => s' a b c = s a b c) l0 u0 l1 u1 l2 u2 a b c f s) as (s0 & H0 & H1); auto; try congruence.
    + intros i j k s' Hij Hne. destruct (H i j k s' Hij) as (n & E & _). unfold f. rewrite E. unfold iupd3.
      destruct (Z.eqb_spec a i); destruct (Z.eqb_spec b j); destruct (Z.eqb_spec c k); cbn [andb]; auto; lia.
    + rewrite H1. destruct (H a b c s0 Hab) as (n & E & HP). unfold f. rewrite E. unfold iupd3. rewrite !Z.eqb_refl. exact HP.
Qed.

(** * What the kernels compute *)
Ltac box := unfold on_side, on_face, in_ghosts, in_cells, in_box3 in *; lia.
Lemma face_side : forall b a i j k, on_face b a i j k -> on_side b a i j k.
Proof. intros b [] i j k H; box. Qed.
Lemma cell_face : forall b a i j k, in_cells b i j k -> on_face b a i j k.
Proof. intros b [] i j k H; box. Qed.
Lemma cell_next : forall b a i j k (P : Z -> Z -> Z -> Prop), in_cells b i j k -> (forall i j k, on_face b a i j k -> P i j k) -> after a P i j k.
Proof. intros b [] i j k P H F; apply F; box. Qed.
Lemma face_prev : forall b a c i j k (P : Z -> Z -> Z -> Prop), a <> c -> on_face b a i j k -> (forall i j k, on_side b c i j k -> P i j k) ->
  before a P i j k /\ after c P i j k /\ before a (after c P) i j k /\ P i j k.
Proof. intros b [] [] i j k P N H F; try congruence; cbn [before after]; repeat split; apply F; box. Qed.
Lemma side_ghost : forall b a i j k (P : Z -> Z -> Z -> Prop), on_side b a i j k -> (forall i j k, in_ghosts b i j k -> P i j k) ->
  P i j k /\ before a P i j k.
Proof. intros b [] i j k P H F; split; apply F; box. Qed.
Lemma before_after : forall {B : Type} a (f : Z -> Z -> Z -> B) i j k, after a (before a f) i j k = f i j k.
Proof. intros B [] f i j k; cbn [after before]; f_equal; lia. Qed.

(** symmetry-aware and plain differences *)
Definition sdiff (d : Z) (q : arr4) (r : iarr3x3) (a : axis) : arr4 :=
  fun i j k m => q i j k m - image d (pick a r i j k) (before a q i j k) m.
Definition pdiff (q : arr4) (a : axis) : arr4 := fun i j k m => q i j k m - before a q i j k m.

Lemma symm_diffs3 : forall b d q r old, multi d \/ d = 1%Z -> rotations_ok b d r ->
  exists s, quatdiffs_symm3 b d q r old = Some s /\
    forall a i j k, on_side b a i j k -> same d (pick a s i j k) (sdiff d q r a i j k).
Proof.
  intros b d q [[rx ry] rz] [[ox oy] oz] Hd Hr. unfold quatdiffs_symm3.
  pose proof (fun i j k => Hr AX i j k) as Hx. pose proof (fun i j k => Hr AY i j k) as Hy. pose proof (fun i j k => Hr AZ i j k) as Hz.
  cbn [pick fst snd on_side] in Hx, Hy, Hz.
  destruct (ocells3_put d (xl b) (xu b + 1) (yl b - 1) (yu b + 1) (zl b - 1) (zu b + 1)
    (fun i j k s => match symmrotate d (q (i - 1)%Z j k) (rx i j k) with
      | None => None | Some q2 => Some (put3 d i j k (fun m _ => q i j k m - q2 m) s) end)
    (fun i j k m _ => q i j k m - rotd d (q (i - 1)%Z j k) (rx i j k) m) ox) as (sx & Ex & Vx).
  { intros i j k s H. rewrite (proj1 (rotd_pos d (q (i - 1)%Z j k) (rx i j k) Hd (Hx i j k H))). reflexivity. }
  destruct (ocells3_put d (xl b - 1) (xu b + 1) (yl b) (yu b + 1) (zl b - 1) (zu b + 1)
    (fun i j k s => match symmrotate d (q i (j - 1)%Z k) (ry i j k) with
      | None => None | Some q2 => Some (put3 d i j k (fun m _ => q i j k m - q2 m) s) end)
    (fun i j k m _ => q i j k m - rotd d (q i (j - 1)%Z k) (ry i j k) m) oy) as (sy & Ey & Vy).
  { intros i j k s H. rewrite (proj1 (rotd_pos d (q i (j - 1)%Z k) (ry i j k) Hd (Hy i j k H))). reflexivity. }
  destruct (ocells3_put d (xl b - 1) (xu b + 1) (yl b - 1) (yu b + 1) (zl b) (zu b + 1)
    (fun i j k s => match symmrotate d (q i j (k - 1)%Z) (rz i j k) with
      | None => None | Some q2 => Some (put3 d i j k (fun m _ => q i j k m - q2 m) s) end)
    (fun i j k m _ => q i j k m - rotd d (q i j (k - 1)%Z) (rz i j k) m) oz) as (sz & Ez & Vz).
  { intros i j k s H. rewrite (proj1 (rotd_pos d (q i j (k - 1)%Z) (rz i j k) Hd (Hz i j k H))). reflexivity. }
  rewrite Ex, Ey, Ez. exists (sx, sy, sz). split; [reflexivity |].
  intros [] i j k H m Hm; cbn [pick fst snd]; [rewrite Vx | rewrite Vy | rewrite Vz]; rewrite !inbT by box; cbn [andb]; unfold sdiff; cbn [pick fst snd before].
  - rewrite (proj2 (rotd_pos d (q (i - 1)%Z j k) (rx i j k) Hd (Hx i j k H)) m Hm). reflexivity.
  - rewrite (proj2 (rotd_pos d (q i (j - 1)%Z k) (ry i j k) Hd (Hy i j k H)) m Hm). reflexivity.
  - rewrite (proj2 (rotd_pos d (q i j (k - 1)%Z) (rz i j k) Hd (Hz i j k H)) m Hm). reflexivity.
Qed.
Lemma plain_diffs3 : forall b d q old a i j k, on_side b a i j k -> same d (pick a (quatdiffs3 b d q old) i j k) (pdiff q a i j k).
Proof.
  intros b d q [[ox oy] oz] [] i j k H m Hm; cbn [pick fst snd quatdiffs3]; rewrite mcells3_val, !inbT by box; reflexivity.
Qed.

(** gradients in the cells, with and without symmetry *)
Lemma cell_grad3 : forall b d diff old a i j k, in_cells b i j k ->
  same d (pick a (quatgrad_cell3 b d diff old) i j k) (fun m => (after a (pick a diff) i j k m + pick a diff i j k m) * ((1 / 2) / spacing b a)).
Proof.
  intros b d [[dx dy] dz] [[ox oy] oz] [] i j k H m Hm; cbn [pick fst snd quatgrad_cell3]; unfold mpatch3; rewrite mcells3_val, !inbT by box; reflexivity.
Qed.
Lemma cell_grad_symm3 : forall b d diff r old, multi d -> rotations_ok b d r ->
  exists g, quatgrad_cell_symm3 b d diff r old = Some g /\ forall a i j k, in_cells b i j k ->
    same d (pick a g i j k) (fun m => (image d (inv_index d (after a (pick a r) i j k)) (after a (pick a diff) i j k) m + pick a diff i j k m) * ((1 / 2) / spacing b a)).
Proof.
  intros b d [[dx dy] dz] [[rx ry] rz] [[ox oy] oz] Hd Hr. unfold quatgrad_cell_symm3, opatch3.
  assert (Nx : forall i j k, in_cells b i j k -> rotation_index d (rx (i + 1)%Z j k)) by (intros; apply (Hr AX); box).
  assert (Ny : forall i j k, in_cells b i j k -> rotation_index d (ry i (j + 1)%Z k)) by (intros; apply (Hr AY); box).
  assert (Nz : forall i j k, in_cells b i j k -> rotation_index d (rz i j (k + 1)%Z)) by (intros; apply (Hr AZ); box).
  destruct (ocells3_put d (xl b) (xu b) (yl b) (yu b) (zl b) (zu b) (fun i j k s =>
      match rot_back d (dx (i + 1)%Z j k) (rx (i + 1)%Z j k) with
      | None => None
      | Some p => Some (put3 d i j k (fun m _ => (p m + dx i j k m) * ((1 / 2) / hx b)) s) end)
    (fun i j k m _ => (rotd d (dx (i + 1)%Z j k) (-1 * rx (i + 1)%Z j k) m + dx i j k m) * ((1 / 2) / hx b)) ox) as (gx & Ex & Vx).
  { intros i j k s H. rewrite (proj1 (rot_back_multi d _ _ Hd (Nx i j k H))). reflexivity. }
  destruct (ocells3_put d (xl b) (xu b) (yl b) (yu b) (zl b) (zu b) (fun i j k s =>
      match rot_back d (dy i (j + 1)%Z k) (ry i (j + 1)%Z k) with
      | None => None
      | Some p => Some (put3 d i j k (fun m _ => (p m + dy i j k m) * ((1 / 2) / hy b)) s) end)
    (fun i j k m _ => (rotd d (dy i (j + 1)%Z k) (-1 * ry i (j + 1)%Z k) m + dy i j k m) * ((1 / 2) / hy b)) oy) as (gy & Ey & Vy).
  { intros i j k s H. rewrite (proj1 (rot_back_multi d _ _ Hd (Ny i j k H))). reflexivity. }
  destruct (ocells3_put d (xl b) (xu b) (yl b) (yu b) (zl b) (zu b) (fun i j k s =>
      match rot_back d (dz i j (k + 1)%Z) (rz i j (k + 1)%Z) with
      | None => None
      | Some p => Some (put3 d i j k (fun m _ => (p m + dz i j k m) * ((1 / 2) / hz b)) s) end)
    (fun i j k m _ => (rotd d (dz i j (k + 1)%Z) (-1 * rz i j (k + 1)%Z) m + dz i j k m) * ((1 / 2) / hz b)) oz) as (gz & Ez & Vz).
  { intros i j k s H. rewrite (proj1 (rot_back_multi d _ _ Hd (Nz i j k H))). reflexivity. }
  rewrite Ex, Ey, Ez. exists (gx, gy, gz). split; [reflexivity |].
  intros [] i j k H m Hm; cbn [pick fst snd after spacing]; [rewrite Vx | rewrite Vy | rewrite Vz]; rewrite !inbT by box; cbn [andb].
  - rewrite (proj2 (rot_back_multi d (dx (i + 1)%Z j k) _ Hd (Nx i j k H)) m Hm). reflexivity.
  - rewrite (proj2 (rot_back_multi d (dy i (j + 1)%Z k) _ Hd (Ny i j k H)) m Hm). reflexivity.
  - rewrite (proj2 (rot_back_multi d (dz i j (k + 1)%Z) _ Hd (Nz i j k H)) m Hm). reflexivity.
Qed.

(** gradients on the sides: the normal component, then the others *)
Lemma side_normal3 : forall b d diff old a i j k, on_face b a i j k ->
  same d (pick a (pick a (quatgrad_side3 b d diff old)) i j k) (fun m => 1 / spacing b a * pick a diff i j k m).
Proof.
  intros b d [[dx dy] dz] [[[[oxx oyx] ozx] [[oxy oyy] ozy]] [[oxz oyz] ozz]] [] i j k H m Hm; cbn [pick fst snd quatgrad_side3 spacing];
    unfold mxfaces3, myfaces3, mzfaces3; rewrite mcells3_val, !inbT by box; reflexivity.
Qed.
Lemma side_other3 : forall b d diff old a c i j k, a <> c -> on_face b a i j k ->
  same d (pick c (pick a (quatgrad_side3 b d diff old)) i j k)
    (fun m => 1 / 4 * (1 / spacing b c) * (before a (after c (pick c diff)) i j k m + before a (pick c diff) i j k m
                                           + after c (pick c diff) i j k m + pick c diff i j k m)).
Proof.
  intros b d [[dx dy] dz] [[[[oxx oyx] ozx] [[oxy oyy] ozy]] [[oxz oyz] ozz]] [] [] i j k N H m Hm; try congruence;
    cbn [pick fst snd quatgrad_side3 spacing before after];
    unfold mxfaces3, myfaces3, mzfaces3; rewrite mcells3_val, !inbT by box; cbn [andb]; ring.
Qed.
Definition tang_side (d : Z) (c : R) (d0 d1 d2 d3 : vec) (r1 r2 r : Z) : vec := fun m =>
  c * (image d r (fun m => image d (inv_index d r2) d2 m + d3 m) m + image d (inv_index d r1) d1 m + d0 m).
Lemma tangential_val : forall d c d0 d1 d2 d3 r1 r2 r, multi d -> rotation_index d r1 -> rotation_index d r2 -> rotation_index d r ->
  exists v, tangential d c d0 d1 d2 d3 r1 r2 r = Some v /\ same d v (tang_side d c d0 d1 d2 d3 r1 r2 r).
Proof.
  intros d c d0 d1 d2 d3 r1 r2 r Hd H1 H2 H. unfold tangential, tang_side.
  destruct (rot_back_multi d d1 r1 Hd H1) as [E1 V1]. destruct (rot_back_multi d d2 r2 Hd H2) as [E2 V2]. rewrite E1, E2.
  unfold QuatFlow_Model.rot_fwd. rewrite (proj1 (multi_gt1 d Hd)).
  destruct (rotd_pos d (fun m => rotd d d2 (-1 * r2) m + d3 m) r (or_introl Hd) H) as [E V]. rewrite E.
  eexists. split; [reflexivity |]. intros m Hm. cbv beta. rewrite V, V1 by auto. do 3 f_equal. apply image_ext; auto.
  intros l Hl. cbv beta. rewrite V2 by auto. reflexivity.
Qed.
Lemma oput_cells : forall d l0 u0 l1 u1 l2 u2 (F : Z -> Z -> Z -> option vec) (G : Z -> Z -> Z -> vec) old,
  (forall i j k, in_box3 l0 u0 l1 u1 l2 u2 i j k -> exists v, F i j k = Some v /\ same d v (G i j k)) ->
  exists s, ocells3 l0 u0 l1 u1 l2 u2 (fun i j k => oput d i j k (F i j k)) old = Some s /\
    forall i j k, in_box3 l0 u0 l1 u1 l2 u2 i j k -> same d (s i j k) (G i j k).
Proof.
  intros d l0 u0 l1 u1 l2 u2 F G old H.
  set (W := fun i j k => match F i j k with Some v => v | None => G i j k end).
  destruct (ocells3_put d l0 u0 l1 u1 l2 u2 (fun i j k => oput d i j k (F i j k)) (fun i j k m _ => W i j k m) old) as (s & E & V).
  - intros i j k s Hb. unfold oput, W. destruct (H i j k Hb) as (v & Ev & _). rewrite Ev. reflexivity.
  - exists s. split; [exact E |]. intros i j k Hb m Hm. rewrite V. pose proof Hb as (B1 & B2 & B3). rewrite !inbT by lia. cbn [andb].
    unfold W. destruct (H i j k Hb) as (v & Ev & Hv). rewrite Ev. apply Hv. exact Hm.
Qed.
Lemma side_symm3 : forall b d diff r old, multi d -> rotations_ok b d r ->
  exists g, quatgrad_side_symm3 b d diff r old = Some g /\
    (forall a i j k, on_face b a i j k -> same d (pick a (pick a g) i j k) (fun m => 1 / spacing b a * pick a diff i j k m)) /\
    (forall a c i j k, a <> c -> on_face b a i j k -> same d (pick c (pick a g) i j k)
      (tang_side d (1 / 4 * (1 / spacing b c)) (pick c diff i j k) (after c (pick c diff) i j k) (before a (after c (pick c diff)) i j k)
        (before a (pick c diff) i j k) (after c (pick c r) i j k) (before a (after c (pick c r)) i j k) (pick a r i j k))).
Proof.
  intros b d [[dx dy] dz] [[rx ry] rz] [[[[oxx oyx] ozx] [[oxy oyy] ozy]] [[oxz oyz] ozz]] Hd Hr. unfold quatgrad_side_symm3, oxfaces3, oyfaces3, ozfaces3.
  pose proof (fun i j k => Hr AX i j k) as Hx. pose proof (fun i j k => Hr AY i j k) as Hy. pose proof (fun i j k => Hr AZ i j k) as Hz.
  cbn [pick fst snd on_side] in Hx, Hy, Hz.
  destruct (oput_cells d (xl b) (xu b + 1) (yl b) (yu b) (zl b) (zu b) (fun i j k => tangential d (1 / 4 * (1 / hy b)) (dy i j k) (dy i (j + 1)%Z k) (dy (i - 1)%Z (j + 1)%Z k) (dy (i - 1)%Z j k)
      (ry i (j + 1)%Z k) (ry (i - 1)%Z (j + 1)%Z k) (rx i j k))
     (fun i j k => tang_side d (1 / 4 * (1 / hy b)) (dy i j k) (dy i (j + 1)%Z k) (dy (i - 1)%Z (j + 1)%Z k) (dy (i - 1)%Z j k)
      (ry i (j + 1)%Z k) (ry (i - 1)%Z (j + 1)%Z k) (rx i j k)) oyx) as (gyx & E1 & V1); [intros; apply tangential_val; auto; [apply Hy | apply Hy | apply Hx]; box |].
  destruct (oput_cells d (xl b) (xu b + 1) (yl b) (yu b) (zl b) (zu b) (fun i j k => tangential d (1 / 4 * (1 / hz b)) (dz i j k) (dz i j (k + 1)%Z) (dz (i - 1)%Z j (k + 1)%Z) (dz (i - 1)%Z j k)
      (rz i j (k + 1)%Z) (rz (i - 1)%Z j (k + 1)%Z) (rx i j k))
     (fun i j k => tang_side d (1 / 4 * (1 / hz b)) (dz i j k) (dz i j (k + 1)%Z) (dz (i - 1)%Z j (k + 1)%Z) (dz (i - 1)%Z j k)
      (rz i j (k + 1)%Z) (rz (i - 1)%Z j (k + 1)%Z) (rx i j k)) ozx) as (gzx & E2 & V2); [intros; apply tangential_val; auto; [apply Hz | apply Hz | apply Hx]; box |].
  destruct (oput_cells d (xl b) (xu b) (yl b) (yu b + 1) (zl b) (zu b) (fun i j k => tangential d (1 / 4 * (1 / hx b)) (dx i j k) (dx (i + 1)%Z j k) (dx (i + 1)%Z (j - 1)%Z k) (dx i (j - 1)%Z k)
      (rx (i + 1)%Z j k) (rx (i + 1)%Z (j - 1)%Z k) (ry i j k))
     (fun i j k => tang_side d (1 / 4 * (1 / hx b)) (dx i j k) (dx (i + 1)%Z j k) (dx (i + 1)%Z (j - 1)%Z k) (dx i (j - 1)%Z k)
      (rx (i + 1)%Z j k) (rx (i + 1)%Z (j - 1)%Z k) (ry i j k)) oxy) as (gxy & E3 & V3); [intros; apply tangential_val; auto; [apply Hx | apply Hx | apply Hy]; box |].
  destruct (oput_cells d (xl b) (xu b) (yl b) (yu b + 1) (zl b) (zu b) (fun i j k => tangential d (1 / 4 * (1 / hz b)) (dz i j k) (dz i j (k + 1)%Z) (dz i (j - 1)%Z (k + 1)%Z) (dz i (j - 1)%Z k)
      (rz i j (k + 1)%Z) (rz i (j - 1)%Z (k + 1)%Z) (ry i j k))
     (fun i j k => tang_side d (1 / 4 * (1 / hz b)) (dz i j k) (dz i j (k + 1)%Z) (dz i (j - 1)%Z (k + 1)%Z) (dz i (j - 1)%Z k)
      (rz i j (k + 1)%Z) (rz i (j - 1)%Z (k + 1)%Z) (ry i j k)) ozy) as (gzy & E4 & V4); [intros; apply tangential_val; auto; [apply Hz | apply Hz | apply Hy]; box |].
  destruct (oput_cells d (xl b) (xu b) (yl b) (yu b) (zl b) (zu b + 1) (fun i j k => tangential d (1 / 4 * (1 / hx b)) (dx i j k) (dx (i + 1)%Z j k) (dx (i + 1)%Z j (k - 1)%Z) (dx i j (k - 1)%Z)
      (rx (i + 1)%Z j k) (rx (i + 1)%Z j (k - 1)%Z) (rz i j k))
     (fun i j k => tang_side d (1 / 4 * (1 / hx b)) (dx i j k) (dx (i + 1)%Z j k) (dx (i + 1)%Z j (k - 1)%Z) (dx i j (k - 1)%Z)
      (rx (i + 1)%Z j k) (rx (i + 1)%Z j (k - 1)%Z) (rz i j k)) oxz) as (gxz & E5 & V5); [intros; apply tangential_val; auto; [apply Hx | apply Hx | apply Hz]; box |].
  destruct (oput_cells d (xl b) (xu b) (yl b) (yu b) (zl b) (zu b + 1) (fun i j k => tangential d (1 / 4 * (1 / hy b)) (dy i j k) (dy i (j + 1)%Z k) (dy i (j + 1)%Z (k - 1)%Z) (dy i j (k - 1)%Z)
      (ry i (j + 1)%Z k) (ry i (j + 1)%Z (k - 1)%Z) (rz i j k))
     (fun i j k => tang_side d (1 / 4 * (1 / hy b)) (dy i j k) (dy i (j + 1)%Z k) (dy i (j + 1)%Z (k - 1)%Z) (dy i j (k - 1)%Z)
      (ry i (j + 1)%Z k) (ry i (j + 1)%Z (k - 1)%Z) (rz i j k)) oyz) as (gyz & E6 & V6); [intros; apply tangential_val; auto; [apply Hy | apply Hy | apply Hz]; box |].
  cbv zeta. rewrite E1, E2, E3, E4, E5, E6. eexists. split; [reflexivity |]. split.
  - intros [] i j k H m Hm; cbn [pick fst snd spacing]; unfold mxfaces3, myfaces3, mzfaces3; rewrite mcells3_val, !inbT by box; reflexivity.
  - intros [] [] i j k N H; try congruence; cbn [pick fst snd spacing before after];
      [apply V1 | apply V2 | apply V3 | apply V4 | apply V5 | apply V6]; exact H.
Qed.

(** * The right-hand side *)
Definition diverg3 (b : box3) (fc : arr3x3) (up dn : axis -> vec) (i j k : Z) : vec := fun m =>
  (after AX (pick AX fc) i j k * up AX m - pick AX fc i j k * dn AX m) * (/ hx b * / hx b)
  + (after AY (pick AY fc) i j k * up AY m - pick AY fc i j k * dn AY m) * (/ hy b * / hy b)
  + (after AZ (pick AZ fc) i j k * up AZ m - pick AZ fc i j k * dn AZ m) * (/ hz b * / hz b).
Definition div_plain3 (b : box3) (fc : arr3x3) (q : arr4) (i j k : Z) : vec :=
  diverg3 b fc (fun a => after a (pdiff q a) i j k) (fun a => pdiff q a i j k) i j k.
Definition div_mixed3 (b : box3) (d : Z) (fc : arr3x3) (q : arr4) (r : iarr3x3) (i j k : Z) : vec :=
  diverg3 b fc (fun a => after a (sdiff d q r a) i j k) (fun a => sdiff d q r a i j k) i j k.
Definition div_symm3 (b : box3) (d : Z) (fc : arr3x3) (q : arr4) (r : iarr3x3) (i j k : Z) : vec :=
  diverg3 b fc (fun a => image d (inv_index d (after a (pick a r) i j k)) (after a (sdiff d q r a) i j k)) (fun a => sdiff d q r a i j k) i j k.
Lemma diverg3_ext : forall b d fc u v u' v' i j k, (forall a, same d (u a) (u' a)) -> (forall a, same d (v a) (v' a)) ->
  same d (diverg3 b fc u v i j k) (diverg3 b fc u' v' i j k).
Proof.
  intros b d fc u v u' v' i j k H1 H2 m Hm. unfold diverg3. rewrite (H1 AX m Hm), (H1 AY m Hm), (H1 AZ m Hm), (H2 AX m Hm), (H2 AY m Hm), (H2 AZ m Hm). reflexivity.
Qed.

Lemma flux3_val : forall b d fc g old a i j k, on_face b a i j k ->
  same d (pick a (flux3_from_gradq b d fc g old) i j k) (fun m => pick a fc i j k * pick a (pick a g) i j k m).
Proof.
  intros b d [[fx fy] fz] [[[[gxx gyx] gzx] [[gxy gyy] gzy]] [[gxz gyz] gzz]] [[ox oy] oz] [] i j k H m Hm; cbn [pick fst snd flux3_from_gradq];
    unfold mxfaces3, myfaces3, mzfaces3; rewrite mcells3_val, !inbT by box; reflexivity.
Qed.
Definition div_flux (b : box3) (f : arr4x3) (i j k : Z) : vec := fun m =>
  (after AX (pick AX f) i j k m - pick AX f i j k m) * (1 / hx b) + (after AY (pick AY f) i j k m - pick AY f i j k m) * (1 / hy b)
  + (after AZ (pick AZ f) i j k m - pick AZ f i j k m) * (1 / hz b).
Lemma plain_op3_val : forall b d mob f rhs i j k m, (1 <= m <= d)%Z ->
  add_quat_op3 b d mob f rhs i j k m =
  if (inb (xl b) (xu b) i && inb (yl b) (yu b) j && inb (zl b) (zu b) k)%bool then rhs i j k m - mob i j k * div_flux b f i j k m else rhs i j k m.
Proof.
  intros b d mob [[fx fy] fz] rhs i j k m Hm. unfold add_quat_op3, mpatch3. rewrite mcells3_val, (inbT 1 d m) by auto. rewrite andb_true_r. reflexivity.
Qed.
Lemma proj_op3_val : forall b d mob f q old rhs i j k m, (1 <= m <= d)%Z ->
  add_quat_proj_op3 b d mob f q (compute_lambda3 b d f q old) rhs i j k m =
  if (inb (xl b) (xu b) i && inb (yl b) (yu b) j && inb (zl b) (zu b) k)%bool then rhs i j k m - mob i j k * tang d (q i j k) (div_flux b f i j k) m else rhs i j k m.
Proof.
  intros b d mob [[fx fy] fz] q old rhs i j k m Hm. unfold add_quat_proj_op3, mpatch3. rewrite mcells3_val, (inbT 1 d m) by auto. rewrite andb_true_r.
  destruct (inb (xl b) (xu b) i && inb (yl b) (yu b) j && inb (zl b) (zu b) k)%bool eqn:B; [| reflexivity].
  unfold compute_lambda3. rewrite (cells3_loop (xl b) (xu b) (yl b) (yu b) (zl b) (zu b) (fun i j k _ => _)), B.
  rewrite <- lambda_tang. unfold div_flux. cbn [pick fst snd after]. do 5 f_equal. apply do_loop_ext. intros l x Hl. unfold Rdiv. ring.
Qed.
Lemma cells_in : forall b i j k, in_cells b i j k -> (inb (xl b) (xu b) i && inb (yl b) (yu b) j && inb (zl b) (zu b) k)%bool = true.
Proof. intros b i j k H. rewrite !inbT by box. reflexivity. Qed.
Lemma cells_out : forall b i j k, ~ in_cells b i j k -> (inb (xl b) (xu b) i && inb (yl b) (yu b) j && inb (zl b) (zu b) k)%bool = false.
Proof.
  intros b i j k H. destruct (inb_spec (xl b) (xu b) i); destruct (inb_spec (yl b) (yu b) j); destruct (inb_spec (zl b) (zu b) k); cbn [andb]; auto.
  destruct H. box.
Qed.
(** divergence of the fluxes made from side gradients whose normal components come from the differences D *)
Lemma flux3_div : forall b d fc g old D i j k, in_cells b i j k ->
  (forall a i j k, on_face b a i j k -> same d (pick a (pick a g) i j k) (fun m => 1 / spacing b a * D a i j k m)) ->
  same d (div_flux b (flux3_from_gradq b d fc g old) i j k) (diverg3 b fc (fun a => after a (D a) i j k) (fun a => D a i j k) i j k).
Proof.
  intros b d fc g old D i j k H N m Hm. unfold div_flux, diverg3. cbn [after].
  rewrite (flux3_val b d fc g old AX (i + 1)%Z j k) by (auto; box). rewrite (flux3_val b d fc g old AX i j k) by (auto; box).
  rewrite (flux3_val b d fc g old AY i (j + 1)%Z k) by (auto; box). rewrite (flux3_val b d fc g old AY i j k) by (auto; box).
  rewrite (flux3_val b d fc g old AZ i j (k + 1)%Z) by (auto; box). rewrite (flux3_val b d fc g old AZ i j k) by (auto; box).
  rewrite !N by (auto; box). cbn [spacing]. unfold Rdiv. ring.
Qed.

Lemma rhs_plain3 : forall asserts use_gradq b d fc mob q r old9 old4 old3,
  exists rhs, evaluateQuatRHS3 asserts false use_gradq false b d fc mob q r old9 old4 old3 = Some rhs /\
    (forall i j k m, in_cells b i j k -> (1 <= m <= d)%Z -> rhs i j k m =
      - mob i j k * (if (d =? 1)%Z then div_plain3 b fc q i j k m else tang d (q i j k) (div_plain3 b fc q i j k) m)) /\
    (forall i j k m, (1 <= m <= d)%Z -> ~ in_cells b i j k -> rhs i j k m = 0).
Proof.
  intros asserts use_gradq b d fc mob q r old9 old4 old3. unfold evaluateQuatRHS3, evaluateRHS3. cbn [andb]. rewrite andb_false_r.
  set (g := quatgrad_side3 b d (quatdiffs3 b d q old4) old9).
  assert (D : forall i j k, in_cells b i j k -> same d (div_flux b (flux3_from_gradq b d fc g old4) i j k) (div_plain3 b fc q i j k)).
  { intros i j k H. apply flux3_div; auto. intros a x y z Hf m Hm. unfold g. rewrite side_normal3 by auto. rewrite plain_diffs3 by (auto; apply face_side; auto). reflexivity. }
  destruct (d =? 1)%Z eqn:E1; eexists; (split; [reflexivity |]); split.
  - intros i j k m H Hm. rewrite plain_op3_val by auto. rewrite cells_in by auto. rewrite D by auto. ring.
  - intros i j k m Hm H. rewrite plain_op3_val by auto. rewrite cells_out by auto. reflexivity.
  - intros i j k m H Hm. rewrite proj_op3_val by auto. rewrite cells_in by auto. rewrite (tang_ext d (q i j k) _ _ (D i j k H) m Hm). ring.
  - intros i j k m Hm H. rewrite proj_op3_val by auto. rewrite cells_out by auto. reflexivity.
Qed.

(** with symmetry the fluxes through the faces after the cell are not turned back *)
Lemma rhs_mixed3 : forall b d fc mob q r old9 old4 old3, multi d -> rotations_ok b d r ->
  exists rhs, evaluateQuatRHS3 false true true false b d fc mob q r old9 old4 old3 = Some rhs /\
    (forall i j k m, in_cells b i j k -> (1 <= m <= d)%Z -> rhs i j k m = - mob i j k * tang d (q i j k) (div_mixed3 b d fc q r i j k) m) /\
    (forall i j k m, (1 <= m <= d)%Z -> ~ in_cells b i j k -> rhs i j k m = 0).
Proof.
  intros b d fc mob q r old9 old4 old3 Hd Hr. unfold evaluateQuatRHS3, evaluateRHS3. cbn [andb negb].
  destruct (symm_diffs3 b d q r old4 (or_introl Hd) Hr) as (s & Es & Vs). rewrite Es.
  destruct (side_symm3 b d s r old9 Hd Hr) as (g & Eg & Vg & _). rewrite Eg, (proj2 (multi_gt1 _ Hd)).
  assert (D : forall i j k, in_cells b i j k -> same d (div_flux b (flux3_from_gradq b d fc g old4) i j k) (div_mixed3 b d fc q r i j k)).
  { intros i j k H. apply flux3_div; auto. intros a x y z Hf m Hm. rewrite Vg by auto. rewrite Vs by (auto; apply face_side; auto). reflexivity. }
  eexists. split; [reflexivity |]. split.
  - intros i j k m H Hm. rewrite proj_op3_val by auto. rewrite cells_in by auto. rewrite (tang_ext d (q i j k) _ _ (D i j k H) m Hm). ring.
  - intros i j k m Hm H. rewrite proj_op3_val by auto. rewrite cells_out by auto. reflexivity.
Qed.

Lemma rhs_default3 : forall b d fc mob q r old9 old4 old3, multi d -> rotations_ok b d r ->
  exists rhs, evaluateQuatRHS3 false true false false b d fc mob q r old9 old4 old3 = Some rhs /\
    (forall i j k m, in_cells b i j k -> (1 <= m <= d)%Z -> rhs i j k m = - mob i j k * tang d (q i j k)
      (fun m => div_symm3 b d fc q r i j k m + div_mixed3 b d fc q r i j k m - div_plain3 b fc q i j k m) m) /\
    (forall i j k m, (1 <= m <= d)%Z -> ~ in_cells b i j k -> rhs i j k m = 0).
Proof.
  intros b d fc mob q r old9 old4 old3 Hd Hr. unfold evaluateQuatRHS3, evaluateRHS3. cbn [andb negb].
  destruct (symm_diffs3 b d q r old4 (or_introl Hd) Hr) as (s & Es & Vs). rewrite Es.
  destruct (side_symm3 b d s r old9 Hd Hr) as (g & Eg & Vg & _). rewrite Eg, (proj2 (multi_gt1 _ Hd)).
  assert (D : forall i j k, in_cells b i j k -> same d (div_flux b (flux3_from_gradq b d fc g old4) i j k) (div_mixed3 b d fc q r i j k)).
  { intros i j k H. apply flux3_div; auto. intros a x y z Hf m Hm. rewrite Vg by auto. rewrite Vs by (auto; apply face_side; auto). reflexivity. }
  set (rhs0 := add_quat_proj_op3 b d mob (flux3_from_gradq b d fc g old4) q _ _).
  assert (V0 : forall i j k m, (1 <= m <= d)%Z -> rhs0 i j k m = if (inb (xl b) (xu b) i && inb (yl b) (yu b) j && inb (zl b) (zu b) k)%bool
     then 0 - mob i j k * tang d (q i j k) (div_flux b (flux3_from_gradq b d fc g old4) i j k) m else 0).
  { intros i j k m Hm. unfold rhs0. rewrite proj_op3_val by auto. reflexivity. }
  pose proof (plain_diffs3 b d q old4) as Vn. revert Vn. generalize (quatdiffs3 b d q old4). intros n Vn. clearbody rhs0. clear Es Eg Vg.
  destruct n as [[nx ny] nz]. destruct s as [[sx sy] sz]. destruct fc as [[fcx fcy] fcz]. destruct r as [[rx ry] rz].
  assert (Nx : forall i j k, in_cells b i j k -> rotation_index d (rx (i + 1)%Z j k)) by (intros; apply (Hr AX); box).
  assert (Ny : forall i j k, in_cells b i j k -> rotation_index d (ry i (j + 1)%Z k)) by (intros; apply (Hr AY); box).
  assert (Nz : forall i j k, in_cells b i j k -> rotation_index d (rz i j (k + 1)%Z)) by (intros; apply (Hr AZ); box).
  set (px := fun i j k => rotd d (sx (i + 1)%Z j k) (-1 * rx (i + 1)%Z j k)).
  set (py := fun i j k => rotd d (sy i (j + 1)%Z k) (-1 * ry i (j + 1)%Z k)).
  set (pz := fun i j k => rotd d (sz i j (k + 1)%Z) (-1 * rz i j (k + 1)%Z)).
  set (T := fun i j k m =>
          (1 / (hx b * hx b)) * (fcx (i + 1)%Z j k * (nx (i + 1)%Z j k m - px i j k m) - fcx i j k * (nx i j k m - sx i j k m))
          + (1 / (hy b * hy b)) * (fcy i (j + 1)%Z k * (ny i (j + 1)%Z k m - py i j k m) - fcy i j k * (ny i j k m - sy i j k m))
          + (1 / (hz b * hz b)) * (fcz i j (k + 1)%Z * (nz i j (k + 1)%Z m - pz i j k m) - fcz i j k * (nz i j k m - sz i j k m))).
  unfold correct_rhs3, opatch3.
  match goal with |- context [ocells3 _ _ _ _ _ _ ?body rhs0] =>
    destruct (ocells3_put d (xl b) (xu b) (yl b) (yu b) (zl b) (zu b) body
      (fun i j k m x => x + mob i j k * (T i j k m - accum_m d (fun m => q i j k m * T i j k m) / accum_m d (fun m => q i j k m * q i j k m) * q i j k m)) rhs0) as (rhs & E & V) end.
  { intros i j k a H. rewrite (proj1 (rot_back_multi d (sx (i + 1)%Z j k) _ Hd (Nx i j k H))), (proj1 (rot_back_multi d (sy i (j + 1)%Z k) _ Hd (Ny i j k H))),
      (proj1 (rot_back_multi d (sz i j (k + 1)%Z) _ Hd (Nz i j k H))). rewrite (proj1 (multi_gt1 _ Hd)). reflexivity. }
  exists rhs. split; [exact E |]. split.
  - intros i j k m H Hm. rewrite V, V0 by auto. rewrite (inbT 1 d m) by auto. rewrite andb_true_r, cells_in by auto. rewrite !accum_sum.
    change (T i j k m - sumZ 1 d (fun m => q i j k m * T i j k m) / sumZ 1 d (fun m => q i j k m * q i j k m) * q i j k m) with (tang d (q i j k) (T i j k) m).
    rewrite (tang_ext d (q i j k) _ _ (D i j k H) m Hm). set (D0 := div_mixed3 b d (fcx, fcy, fcz) q (rx, ry, rz) i j k).
    transitivity (- mob i j k * (tang d (q i j k) D0 m - tang d (q i j k) (T i j k) m)); [ring |].
    rewrite (tang_minus d (q i j k) D0 (T i j k) m Hm). f_equal. apply tang_ext; [| exact Hm]. clear m Hm. intros m Hm.
    assert (PX : px i j k m = image d (inv_index d (rx (i + 1)%Z j k)) (sdiff d q (rx, ry, rz) AX (i + 1)%Z j k) m).
    { unfold px. rewrite (proj2 (rotd_neg d (sx (i + 1)%Z j k) _ Hd (Nx i j k H)) m Hm). apply image_ext; auto. apply (Vs AX). box. }
    assert (PY : py i j k m = image d (inv_index d (ry i (j + 1)%Z k)) (sdiff d q (rx, ry, rz) AY i (j + 1)%Z k) m).
    { unfold py. rewrite (proj2 (rotd_neg d (sy i (j + 1)%Z k) _ Hd (Ny i j k H)) m Hm). apply image_ext; auto. apply (Vs AY). box. }
    assert (PZ : pz i j k m = image d (inv_index d (rz i j (k + 1)%Z)) (sdiff d q (rx, ry, rz) AZ i j (k + 1)%Z) m).
    { unfold pz. rewrite (proj2 (rotd_neg d (sz i j (k + 1)%Z) _ Hd (Nz i j k H)) m Hm). apply image_ext; auto. apply (Vs AZ). box. }
    assert (SX : sx i j k m = sdiff d q (rx, ry, rz) AX i j k m) by (apply (Vs AX); auto; box).
    assert (SY : sy i j k m = sdiff d q (rx, ry, rz) AY i j k m) by (apply (Vs AY); auto; box).
    assert (SZ : sz i j k m = sdiff d q (rx, ry, rz) AZ i j k m) by (apply (Vs AZ); auto; box).
    assert (QX : nx i j k m = pdiff q AX i j k m) by (apply (Vn AX); auto; box).
    assert (QY : ny i j k m = pdiff q AY i j k m) by (apply (Vn AY); auto; box).
    assert (QZ : nz i j k m = pdiff q AZ i j k m) by (apply (Vn AZ); auto; box).
    assert (RX : nx (i + 1)%Z j k m = pdiff q AX (i + 1)%Z j k m) by (apply (Vn AX); auto; box).
    assert (RY : ny i (j + 1)%Z k m = pdiff q AY i (j + 1)%Z k m) by (apply (Vn AY); auto; box).
    assert (RZ : nz i j (k + 1)%Z m = pdiff q AZ i j (k + 1)%Z m) by (apply (Vn AZ); auto; box).
    unfold T. rewrite PX, PY, PZ, SX, SY, SZ, QX, QY, QZ, RX, RY, RZ. unfold D0, div_symm3, div_mixed3, div_plain3, diverg3. cbn [pick fst snd after].
    unfold Rdiv. rewrite !Rinv_mult. ring.
  - intros i j k m Hm H. rewrite V, V0 by auto. rewrite (inbT 1 d m) by auto. rewrite andb_true_r, cells_out by auto. reflexivity.
Qed.

(** * Rotations found *)
Lemma found3 : forall b d q old, multi d \/ d = 1%Z -> (multi d -> unit_field b d q) ->
  exists r, quat_symm_rotation3 b d q old = Some r /\
    forall a i j k, on_side b a i j k -> closest d (q i j k) (before a q i j k) (pick a r i j k).
Proof.
  intros b d q [[ox oy] oz] Hd Hu. unfold quat_symm_rotation3.
  destruct (ocells3_iupd (xl b) (xu b + 1) (yl b - 1) (yu b + 1) (zl b - 1) (zu b + 1) (fun i j k s =>
      match findsymm d (q i j k) (q (i - 1)%Z j k) (s i j k) with
      | None => None | Some n => Some (iupd3 s i j k n) end) (fun i j k n => closest d (q i j k) (q (i - 1)%Z j k) n) ox) as (rx & Ex & Vx).
  { intros i j k s H. destruct (findsymm_ok d (q i j k) (q (i - 1)%Z j k) (s i j k) Hd) as (n & En & Hn); [intro Hm; split; apply Hu; auto; box |].
    exists n. rewrite En. split; [reflexivity | exact Hn]. }
  destruct (ocells3_iupd (xl b - 1) (xu b + 1) (yl b) (yu b + 1) (zl b - 1) (zu b + 1) (fun i j k s =>
      match findsymm d (q i j k) (q i (j - 1)%Z k) (s i j k) with
      | None => None | Some n => Some (iupd3 s i j k n) end) (fun i j k n => closest d (q i j k) (q i (j - 1)%Z k) n) oy) as (ry & Ey & Vy).
  { intros i j k s H. destruct (findsymm_ok d (q i j k) (q i (j - 1)%Z k) (s i j k) Hd) as (n & En & Hn); [intro Hm; split; apply Hu; auto; box |].
    exists n. rewrite En. split; [reflexivity | exact Hn]. }
  destruct (ocells3_iupd (xl b - 1) (xu b + 1) (yl b - 1) (yu b + 1) (zl b) (zu b + 1) (fun i j k s =>
      match findsymm d (q i j k) (q i j (k - 1)%Z) (s i j k) with
      | None => None | Some n => Some (iupd3 s i j k n) end) (fun i j k n => closest d (q i j k) (q i j (k - 1)%Z) n) oz) as (rz & Ez & Vz).
  { intros i j k s H. destruct (findsymm_ok d (q i j k) (q i j (k - 1)%Z) (s i j k) Hd) as (n & En & Hn); [intro Hm; split; apply Hu; auto; box |].
    exists n. rewrite En. split; [reflexivity | exact Hn]. }
  unfold iarr3 in *. rewrite Ex, Ey, Ez. exists (rx, ry, rz). split; [reflexivity |]. intros [] i j k H; [apply Vx | apply Vy | apply Vz]; exact H.
Qed.
Lemma closest3 : forall b d q old r, multi d \/ d = 1%Z -> (multi d -> unit_field b d q) -> quat_symm_rotation3 b d q old = Some r ->
  (forall a i j k, on_side b a i j k -> closest d (q i j k) (before a q i j k) (pick a r i j k)) /\ rotations_ok b d r.
Proof.
  intros b d q old r Hd Hu E. destruct (found3 b d q old Hd Hu) as (r' & E' & H). rewrite E in E'. injection E' as <-.
  split; [exact H |]. intros a i j k Hs. apply (H a i j k Hs).
Qed.
Lemma rotations_found3 : forall b d q old, multi d \/ d = 1%Z -> (multi d -> unit_field b d q) ->
  exists r, quat_symm_rotation3 b d q old = Some r /\ rotations_ok b d r.
Proof. intros b d q old Hd Hu. destruct (found3 b d q old Hd Hu) as (r & E & H). exists r. split; [exact E |]. intros a i j k Hs. apply (H a i j k Hs). Qed.
Lemma diffs_minimal3 : forall b d q g r old, multi d \/ d = 1%Z -> (multi d -> unit_field b d q) ->
  quat_symm_rotation3 b d q g = Some r ->
  exists s, quatdiffs_symm3 b d q r old = Some s /\ forall a i j k, on_side b a i j k ->
    let v := pick a s i j k in
    (exists n, rotation_index d n /\ same d v (fun m => q i j k m - image d n (before a q i j k) m)) /\
    (forall n, rotation_index d n -> dotv d v v <= dotv d (fun m => q i j k m - image d n (before a q i j k) m)
                                                          (fun m => q i j k m - image d n (before a q i j k) m)) /\
    (same d v (fun _ => 0) <-> equivalent d (q i j k) (before a q i j k)).
Proof.
  intros b d q g r old Hd Hu E. destruct (closest3 b d q g r Hd Hu E) as [C Hr].
  destruct (symm_diffs3 b d q r old Hd Hr) as (s & Es & Vs). exists s. split; [exact Es |]. intros a i j k Hs v.
  pose proof (C a i j k Hs) as Ca. pose proof (Vs a i j k Hs) as V. pose proof Ca as [Hn Hc]. fold v in V. split; [| split].
  - exists (pick a r i j k). split; [exact Hn | exact V].
  - intros n Hn'. rewrite (dotv_ext _ _ _ _ _ V V). apply Hc; auto.
  - rewrite <- (closest_zero _ _ _ _ Ca). split; intros H m Hm.
    + transitivity (v m); [symmetry; apply V; auto | apply H; auto].
    + transitivity (q i j k m - image d (pick a r i j k) (before a q i j k) m); [apply V; auto | apply H; auto].
Qed.

(** * Changing the representative of every cell *)
Definition squares3 (b : box3) (d : Z) (S : iarr3) (r r' : iarr3x3) : Prop :=
  forall a i j k, on_side b a i j k -> commute d (before a S i j k) (pick a r' i j k) (pick a r i j k) (S i j k).
Lemma regauged_unit3 : forall b d S q q', multi d -> regauged b d S q q' -> unit_field b d q -> unit_field b d q'.
Proof.
  intros b d S q q' Hd H Hu i j k Hi. destruct (H i j k Hi) as [Hs E]. rewrite (dotv_ext _ _ _ _ _ E E), image_dot by auto. apply Hu; auto.
Qed.
Lemma regauge_squares3 : forall b d S q q' g g' r r', multi d -> unit_field b d q -> regauged b d S q q' -> no_ties b d q ->
  quat_symm_rotation3 b d q g = Some r -> quat_symm_rotation3 b d q' g' = Some r' ->
  rotations_ok b d r /\ rotations_ok b d r' /\ squares3 b d S r r'.
Proof.
  intros b d S q q' g g' r r' Hd Hu Hg Ht E E'. pose proof (regauged_unit3 b d S q q' Hd Hg Hu) as Hu'.
  destruct (closest3 b d q g r (or_introl Hd) (fun _ => Hu) E) as [C Hr].
  destruct (closest3 b d q' g' r' (or_introl Hd) (fun _ => Hu') E') as [C' Hr'].
  split; [exact Hr |]. split; [exact Hr' |]. intros a i j k Hs.
  assert (G1 : rotation_index d (S i j k) /\ same d (q' i j k) (image d (S i j k) (q i j k))) by (apply Hg; destruct a; box).
  assert (G2 : rotation_index d (before a S i j k) /\ same d (before a q' i j k) (image d (before a S i j k) (before a q i j k)))
    by (destruct a; apply Hg; box).
  destruct G1 as [H1 A1]. destruct G2 as [H2 A2].
  apply (unique_commute d (q i j k) (before a q i j k) (q' i j k) (before a q' i j k)); auto.
Qed.

Section Regauge.
Variables (b : box3) (d : Z) (S : iarr3) (r r' : iarr3x3) (q q' : arr4).
Hypothesis Hd : multi d.
Hypothesis Hg : regauged b d S q q'.
Hypothesis Hr : rotations_ok b d r.
Hypothesis Hr' : rotations_ok b d r'.
Hypothesis Hq : squares3 b d S r r'.
Lemma rg3_diff : forall a i j k, on_side b a i j k -> same d (sdiff d q' r' a i j k) (image d (S i j k) (sdiff d q r a i j k)).
Proof.
  intros a i j k Hs m Hm. unfold sdiff.
  rewrite (image_minus d (S i j k) (q i j k) (image d (pick a r i j k) (before a q i j k)) Hd m Hm).
  assert (G1 : same d (q' i j k) (image d (S i j k) (q i j k))) by (apply Hg; destruct a; box).
  assert (G2 : same d (before a q' i j k) (image d (before a S i j k) (before a q i j k))) by (destruct a; apply Hg; box).
  rewrite (G1 m Hm), (image_ext d (pick a r' i j k) _ _ Hd G2 m Hm), (Hq a i j k Hs _ m Hm). reflexivity.
Qed.
Lemma rg3_back : forall a i j k, after a (on_side b a) i j k -> forall v v', same d v' (image d (after a S i j k) v) ->
  same d (image d (inv_index d (after a (pick a r') i j k)) v') (image d (S i j k) (image d (inv_index d (after a (pick a r) i j k)) v)).
Proof.
  intros a i j k Hs v v' H m Hm. rewrite (image_ext d _ _ _ Hd H m Hm).
  rewrite <- (before_after a S i j k).
  apply commute_inv; auto.
  - destruct a; apply Hg; cbn [after] in Hs; box.
  - destruct a; apply (fun a => Hr' a); exact Hs.
  - destruct a; apply (fun a => Hr a); exact Hs.
  - destruct a; apply Hg; cbn [after] in Hs; box.
  - destruct a; apply (fun a => Hq a); exact Hs.
Qed.
End Regauge.

Lemma regauge_diffs3 : forall b d S q q' g g' r r' old s s', multi d -> unit_field b d q -> regauged b d S q q' -> no_ties b d q ->
  quat_symm_rotation3 b d q g = Some r -> quat_symm_rotation3 b d q' g' = Some r' ->
  quatdiffs_symm3 b d q r old = Some s -> quatdiffs_symm3 b d q' r' old = Some s' ->
  forall a i j k, on_side b a i j k -> same d (pick a s' i j k) (image d (S i j k) (pick a s i j k)).
Proof.
  intros b d S q q' g g' r r' old s s' Hd Hu Hg Ht E E' X X' a i j k Hs m Hm.
  destruct (regauge_squares3 b d S q q' g g' r r' Hd Hu Hg Ht E E') as (Hr & Hr' & Hq).
  destruct (symm_diffs3 b d q r old (or_introl Hd) Hr) as (t & A & V). rewrite X in A. injection A as <-.
  destruct (symm_diffs3 b d q' r' old (or_introl Hd) Hr') as (t & A & V'). rewrite X' in A. injection A as <-.
  rewrite V' by auto. rewrite (rg3_diff b d S r r' q q' Hd Hg Hq a i j k Hs m Hm). apply image_ext; auto. intros l Hl. symmetry. apply V; auto.
Qed.
Lemma regauge_gradients3 : forall b d S q q' g g' r r' old9 old s s' c c' n n', multi d -> unit_field b d q -> regauged b d S q q' -> no_ties b d q ->
  quat_symm_rotation3 b d q g = Some r -> quat_symm_rotation3 b d q' g' = Some r' ->
  quatdiffs_symm3 b d q r old = Some s -> quatdiffs_symm3 b d q' r' old = Some s' ->
  quatgrad_cell_symm3 b d s r old = Some c -> quatgrad_cell_symm3 b d s' r' old = Some c' ->
  quatgrad_side_symm3 b d s r old9 = Some n -> quatgrad_side_symm3 b d s' r' old9 = Some n' ->
  (forall a i j k, in_cells b i j k -> same d (pick a c' i j k) (image d (S i j k) (pick a c i j k))) /\
  (forall a e i j k, on_face b a i j k -> same d (pick e (pick a n') i j k) (image d (S i j k) (pick e (pick a n) i j k))).
Proof.
  intros b d S q q' g g' r r' old9 old s s' c c' n n' Hd Hu Hg Ht E E' X X' C C' N N'.
  pose proof (regauge_diffs3 b d S q q' g g' r r' old s s' Hd Hu Hg Ht E E' X X') as D.
  destruct (regauge_squares3 b d S q q' g g' r r' Hd Hu Hg Ht E E') as (Hr & Hr' & Hq). clear E E' X X' Ht Hu.
  pose proof (rg3_back b d S r r' q q' Hd Hg Hr Hr' Hq) as B.
  destruct (cell_grad_symm3 b d s r old Hd Hr) as (t & A & V). rewrite C in A. injection A as <-.
  destruct (cell_grad_symm3 b d s' r' old Hd Hr') as (t & A & V'). rewrite C' in A. injection A as <-.
  destruct (side_symm3 b d s r old9 Hd Hr) as (t & A & W1 & W2). rewrite N in A. injection A as <-.
  destruct (side_symm3 b d s' r' old9 Hd Hr') as (t & A & W1' & W2'). rewrite N' in A. injection A as <-.
  clear C C' N N'. split.
  - intros a i j k H m Hm. rewrite (V' a i j k H m Hm), (image_ext d (S i j k) _ _ Hd (V a i j k H) m Hm).
    set (P := image d (inv_index d (after a (pick a r) i j k)) (after a (pick a s) i j k)).
    rewrite (image_ext d (S i j k) _ (fun m => (1 / 2) / spacing b a * (P m + pick a s i j k m)) Hd) by (auto; intros l Hl; cbv beta; ring).
    rewrite (image_scal d (S i j k) _ (fun m => P m + pick a s i j k m) Hd m Hm), (image_plus d (S i j k) P (pick a s i j k) Hd m Hm).
    rewrite (D a i j k ltac:(destruct a; box) m Hm). rewrite (Rmult_comm (_ + _)). f_equal. f_equal. unfold P.
    apply B; auto; [destruct a; cbn [after]; box |]. destruct a; apply (fun a => D a); box.
  - intros a e i j k H m Hm.
    assert (Hae : a = e \/ a <> e) by (destruct a; destruct e; auto; right; discriminate).
    destruct Hae as [<- | Hne].
    + rewrite (W1' a i j k H m Hm), (image_ext d (S i j k) _ _ Hd (W1 a i j k H) m Hm), image_scal by auto. f_equal. apply D; auto. apply face_side; auto.
    + rewrite (W2' a e i j k Hne H m Hm), (image_ext d (S i j k) _ _ Hd (W2 a e i j k Hne H) m Hm). unfold tang_side.
      set (P1 := image d (pick a r i j k) (fun m => image d (inv_index d (before a (after e (pick e r)) i j k)) (before a (after e (pick e s)) i j k) m + before a (pick e s) i j k m)).
      set (P2 := image d (inv_index d (after e (pick e r) i j k)) (after e (pick e s) i j k)).
      rewrite (image_scal d (S i j k) _ (fun m => P1 m + P2 m + pick e s i j k m) Hd m Hm). f_equal.
      rewrite (image_plus d (S i j k) (fun m => P1 m + P2 m) (pick e s i j k) Hd m Hm), (image_plus d (S i j k) P1 P2 Hd m Hm).
      f_equal; [f_equal |].
      * unfold P1. set (U := fun m => image d (inv_index d (before a (after e (pick e r)) i j k)) (before a (after e (pick e s)) i j k) m + before a (pick e s) i j k m).
        set (U' := fun m => image d (inv_index d (before a (after e (pick e r')) i j k)) (before a (after e (pick e s')) i j k) m + before a (pick e s') i j k m).
        assert (EU : same d U' (image d (before a S i j k) U)).
        { intros l Hl. unfold U, U'. rewrite (image_plus d (before a S i j k) _ _ Hd l Hl). f_equal.
          - clear - B D H Hl Hne. destruct a; cbn [before]; (apply (B e); [destruct e; try congruence; cbn [after]; box | | exact Hl]);
              destruct e; try congruence; cbn [after]; apply (fun a => D a); box.
          - clear - D H Hl Hne. destruct a; destruct e; try congruence; cbn [before]; apply (fun a => D a); auto; box. }
        rewrite (image_ext d (pick a r' i j k) _ _ Hd EU m Hm). apply Hq; auto. apply face_side; auto.
      * unfold P2. apply B; auto; [clear - H Hne; destruct a; destruct e; try congruence; cbn [after]; box |].
        clear - D H Hne. destruct a; destruct e; try congruence; cbn [after]; apply (fun a => D a); box.
      * apply D; auto. clear - H Hne. destruct a; destruct e; try congruence; box.
Qed.

(** * Moduli *)
Lemma cell_modulus3 : forall b d g old i j k, in_cells b i j k -> quatgrad_modulus3 b d g old i j k = sqrt (norm3 d g i j k).
Proof.
  intros b d [[gx gy] gz] old i j k H. unfold quatgrad_modulus3, norm3. cbn [pick fst snd].
  rewrite (cells3_loop (xl b) (xu b) (yl b) (yu b) (zl b) (zu b) (fun i j k _ => _)), cells_in by auto.
  f_equal. rewrite accum_sum. unfold QuatFlow_Spec.dotv. rewrite <- !sumZ_plus. reflexivity.
Qed.
Lemma sides_modulus3 : forall b d g old i j k, in_cells b i j k -> quatgrad_modulus_from_sides3 b d g old i j k =
  sqrt (1 / 2 * (dotv d (pick AX (pick AX g) i j k) (pick AX (pick AX g) i j k) + dotv d (pick AX (pick AX g) (i + 1)%Z j k) (pick AX (pick AX g) (i + 1)%Z j k)
    + (dotv d (pick AY (pick AY g) i j k) (pick AY (pick AY g) i j k) + dotv d (pick AY (pick AY g) i (j + 1)%Z k) (pick AY (pick AY g) i (j + 1)%Z k))
    + (dotv d (pick AZ (pick AZ g) i j k) (pick AZ (pick AZ g) i j k) + dotv d (pick AZ (pick AZ g) i j (k + 1)%Z) (pick AZ (pick AZ g) i j (k + 1)%Z)))).
Proof.
  intros b d [[[[gxx gyx] gzx] [[gxy gyy] gzy]] [[gxz gyz] gzz]] old i j k H. unfold quatgrad_modulus_from_sides3. cbn [pick fst snd].
  rewrite (cells3_loop (xl b) (xu b) (yl b) (yu b) (zl b) (zu b) (fun i j k _ => _)), cells_in by auto.
  rewrite !sq_loop. f_equal. ring.
Qed.
Lemma regauge_moduli3 : forall b d S q q' g g' r r' old9 old4 old3 s s' c c' n n', multi d -> unit_field b d q -> regauged b d S q q' -> no_ties b d q ->
  quat_symm_rotation3 b d q g = Some r -> quat_symm_rotation3 b d q' g' = Some r' ->
  quatdiffs_symm3 b d q r old4 = Some s -> quatdiffs_symm3 b d q' r' old4 = Some s' ->
  quatgrad_cell_symm3 b d s r old4 = Some c -> quatgrad_cell_symm3 b d s' r' old4 = Some c' ->
  quatgrad_side_symm3 b d s r old9 = Some n -> quatgrad_side_symm3 b d s' r' old9 = Some n' ->
  (forall i j k, in_cells b i j k ->
    quatgrad_modulus3 b d c' old3 i j k = quatgrad_modulus3 b d c old3 i j k /\
    quatgrad_modulus_from_sides3 b d n' old3 i j k = quatgrad_modulus_from_sides3 b d n old3 i j k) /\
  (forall a i j k, on_face b a i j k -> norm3 d (pick a n') i j k = norm3 d (pick a n) i j k).
Proof.
  intros b d S q q' g g' r r' old9 old4 old3 s s' c c' n n' Hd Hu Hg Ht E E' X X' C C' N N'.
  destruct (regauge_gradients3 b d S q q' g g' r r' old9 old4 s s' c c' n n' Hd Hu Hg Ht E E' X X' C C' N N') as [Gc Gn].
  assert (HS : forall i j k, in_ghosts b i j k -> rotation_index d (S i j k)) by (intros i j k H; apply (Hg i j k H)).
  assert (F : forall a e i j k, on_face b a i j k -> dotv d (pick e (pick a n') i j k) (pick e (pick a n') i j k) = dotv d (pick e (pick a n) i j k) (pick e (pick a n) i j k)).
  { intros a e i j k H. apply (norm_image d (S i j k)); auto. apply HS. destruct a; box. }
  split; [intros i j k H; split |].
  - rewrite !cell_modulus3 by auto. f_equal. unfold norm3.
    assert (G : forall a, dotv d (pick a c' i j k) (pick a c' i j k) = dotv d (pick a c i j k) (pick a c i j k)).
    { intro a. apply (norm_image d (S i j k)); auto. apply HS. box. }
    rewrite !G. reflexivity.
  - rewrite !sides_modulus3 by auto. rewrite !(F AX AX), !(F AY AY), !(F AZ AZ) by box. reflexivity.
  - intros a i j k H. unfold norm3. rewrite !(F a) by auto. reflexivity.
Qed.

(** * Length, identity, equivalent neighbours *)
Lemma aborts3 : forall use_gradq b d fc mob q r old9 old4 old3, multi d ->
  evaluateQuatRHS3 true true use_gradq false b d fc mob q r old9 old4 old3 = None.
Proof.
  intros use_gradq b d fc mob q r old9 old4 old3 Hd. unfold evaluateQuatRHS3, evaluateRHS3. rewrite (proj2 (multi_gt1 _ Hd)).
  destruct quatdiffs_symm3; [| reflexivity]. destruct quatgrad_side_symm3; [| reflexivity]. destruct use_gradq; reflexivity.
Qed.
Lemma isotropic3 : forall asserts symm use_gradq b d fc mob q r old9 old4 old3,
  evaluateQuatRHS3 asserts symm use_gradq true b d fc mob q r old9 old4 old3 = None.
Proof. intros. unfold evaluateQuatRHS3. destruct (if symm then _ else _); reflexivity. Qed.
Lemma rhs_orthogonal3 : forall asserts symm use_gradq isotropic b d fc mob q r old9 old4 old3 rhs i j k,
  (symm = true -> multi d /\ rotations_ok b d r) -> d <> 1%Z ->
  evaluateQuatRHS3 asserts symm use_gradq isotropic b d fc mob q r old9 old4 old3 = Some rhs ->
  in_cells b i j k -> dotv d (q i j k) (q i j k) <> 0 -> dotv d (q i j k) (rhs i j k) = 0.
Proof.
  intros asserts symm use_gradq isotropic b d fc mob q r old9 old4 old3 rhs i j k Hs Hd E Hij Hq.
  assert (G : forall v, same d (rhs i j k) (fun m => - mob i j k * tang d (q i j k) v m) -> dotv d (q i j k) (rhs i j k) = 0).
  { intros v H. rewrite (dotv_ext d (q i j k) (q i j k) _ _ (fun _ _ => eq_refl) H), dotv_scal, tang_orth by auto. ring. }
  destruct isotropic; [rewrite isotropic3 in E; discriminate |].
  destruct symm.
  - destruct (Hs eq_refl) as [Hm Hr]. destruct asserts; [rewrite aborts3 in E by auto; discriminate |]. destruct use_gradq.
    + destruct (rhs_mixed3 b d fc mob q r old9 old4 old3 Hm Hr) as (rhs' & E' & V & _). rewrite E in E'. injection E' as <-.
      apply (G (div_mixed3 b d fc q r i j k)). intros m Hm'. apply V; auto.
    + destruct (rhs_default3 b d fc mob q r old9 old4 old3 Hm Hr) as (rhs' & E' & V & _). rewrite E in E'. injection E' as <-.
      apply (G (fun m => div_symm3 b d fc q r i j k m + div_mixed3 b d fc q r i j k m - div_plain3 b fc q i j k m)). intros m Hm'. apply V; auto.
  - destruct (rhs_plain3 asserts use_gradq b d fc mob q r old9 old4 old3) as (rhs' & E' & V & _). rewrite E in E'. injection E' as <-.
    apply (G (div_plain3 b fc q i j k)). intros m Hm'. rewrite V by auto. destruct (Z.eqb_spec d 1); [contradiction | reflexivity].
Qed.
Lemma after_ext : forall {B} a (f g : Z -> Z -> Z -> B) i j k, (forall i j k, f i j k = g i j k) -> after a f i j k = after a g i j k.
Proof. intros B [] f g i j k H; apply H. Qed.
Lemma rhs_identity3 : forall asserts asserts' use_gradq use_gradq' b d fc mob q r old9 old4 old3 rhs rhs0, multi d ->
  (forall a i j k, on_side b a i j k -> pick a r i j k = 1%Z) ->
  evaluateQuatRHS3 asserts true use_gradq false b d fc mob q r old9 old4 old3 = Some rhs ->
  evaluateQuatRHS3 asserts' false use_gradq' false b d fc mob q r old9 old4 old3 = Some rhs0 ->
  forall i j k, in_cells b i j k -> same d (rhs i j k) (rhs0 i j k).
Proof.
  intros asserts asserts' use_gradq use_gradq' b d fc mob q r old9 old4 old3 rhs rhs0 Hd H1 E E0 i j k Hij m Hm.
  assert (Hr : rotations_ok b d r) by (intros a x y z Hs; rewrite H1 by auto; apply one_valid; auto).
  destruct asserts; [rewrite aborts3 in E by auto; discriminate |].
  destruct (rhs_plain3 asserts' use_gradq' b d fc mob q r old9 old4 old3) as (t & E' & V & _). rewrite E0 in E'. injection E' as <-.
  rewrite V by auto. rewrite (proj2 (multi_gt1 _ Hd)).
  assert (S1 : forall a i j k, on_side b a i j k -> same d (sdiff d q r a i j k) (pdiff q a i j k)).
  { intros a x y z Hs l Hl. unfold sdiff, pdiff. rewrite H1, image_one by auto. reflexivity. }
  assert (S2 : forall a, same d (after a (sdiff d q r a) i j k) (after a (pdiff q a) i j k)).
  { intros []; cbn [after]; apply S1; box. }
  assert (S3 : forall a, after a (pick a r) i j k = 1%Z) by (intros []; cbn [after]; apply (fun a => H1 a); box).
  assert (D2 : same d (div_mixed3 b d fc q r i j k) (div_plain3 b fc q i j k)).
  { apply diverg3_ext; intro a; [apply S2 | apply S1; destruct a; box]. }
  assert (D1 : same d (div_symm3 b d fc q r i j k) (div_plain3 b fc q i j k)).
  { apply diverg3_ext; intro a; [| apply S1; destruct a; box]. intros l Hl. rewrite S3, inv_one, image_one by auto. apply S2; auto. }
  destruct use_gradq.
  - destruct (rhs_mixed3 b d fc mob q r old9 old4 old3 Hd Hr) as (t & E' & W & _). rewrite E in E'. injection E' as <-.
    rewrite W by auto. f_equal. apply tang_ext; auto.
  - destruct (rhs_default3 b d fc mob q r old9 old4 old3 Hd Hr) as (t & E' & W & _). rewrite E in E'. injection E' as <-.
    rewrite W by auto. f_equal. apply tang_ext; auto. intros l Hl. rewrite D1, D2 by auto. ring.
Qed.
Lemma equivalent_rhs3 : forall b d fc mob q g r old9 old4 old3 rhs rhs1 rhs0 i j k, multi d -> unit_field b d q ->
  quat_symm_rotation3 b d q g = Some r ->
  evaluateQuatRHS3 false true true false b d fc mob q r old9 old4 old3 = Some rhs ->
  evaluateQuatRHS3 false true false false b d fc mob q r old9 old4 old3 = Some rhs1 ->
  evaluateQuatRHS3 false false false false b d fc mob q r old9 old4 old3 = Some rhs0 -> in_cells b i j k ->
  equivalent_around d q i j k ->
  same d (rhs i j k) (fun _ => 0) /\ same d (rhs1 i j k) (fun m => - rhs0 i j k m).
Proof.
  intros b d fc mob q g r old9 old4 old3 rhs rhs1 rhs0 i j k Hd Hu Er E E1 E0 Hij Heq.
  destruct (closest3 b d q g r (or_introl Hd) (fun _ => Hu) Er) as [C Hr].
  destruct (rhs_mixed3 b d fc mob q r old9 old4 old3 Hd Hr) as (t & E' & W & _). rewrite E in E'. injection E' as <-.
  destruct (rhs_default3 b d fc mob q r old9 old4 old3 Hd Hr) as (t & E' & W1 & _). rewrite E1 in E'. injection E' as <-.
  destruct (rhs_plain3 false false b d fc mob q r old9 old4 old3) as (t & E' & W0 & _). rewrite E0 in E'. injection E' as <-.
  assert (Z0 : forall n v, same d v (fun _ => 0) -> same d (image d n v) (fun _ => 0)).
  { intros n v H l Hl. rewrite (image_ext _ _ _ _ Hd H l Hl). destruct Hd as [Hd | Hd]; rewrite Hd in *; cbn [image].
    - idx2 l Hl; cbn [comp2 quatmult2 ca cb]; ring.
    - idx4 l Hl; cbn [comp quatmult4 qa qb qc qd]; ring. }
  assert (A1 : forall a, same d (sdiff d q r a i j k) (fun _ => 0)).
  { intro a. apply (closest_zero d (q i j k) (before a q i j k) (pick a r i j k)); [apply C; destruct a; box | apply Heq]. }
  assert (A2 : forall a, same d (after a (sdiff d q r a) i j k) (fun _ => 0)).
  { intro a. pose proof (proj2 (Heq a)) as Ha. rewrite <- (before_after a q i j k) in Ha.
    destruct a; cbn [after] in *; [apply (closest_zero _ _ _ _ (C AX (i + 1)%Z j k ltac:(box))) | apply (closest_zero _ _ _ _ (C AY i (j + 1)%Z k ltac:(box)))
      | apply (closest_zero _ _ _ _ (C AZ i j (k + 1)%Z ltac:(box)))]; exact Ha. }
  assert (G : forall u v l, (1 <= l <= d)%Z -> (forall a, same d (u a) (fun _ => 0)) -> (forall a, same d (v a) (fun _ => 0)) -> diverg3 b fc u v i j k l = 0).
  { intros u v l Hl U V. unfold diverg3. rewrite !U, !V by auto. ring. }
  assert (D2 : forall l, (1 <= l <= d)%Z -> div_mixed3 b d fc q r i j k l = 0) by (intros l Hl; apply G; auto).
  assert (D1 : forall l, (1 <= l <= d)%Z -> div_symm3 b d fc q r i j k l = 0) by (intros l Hl; apply G; auto).
  assert (T0 : dotv d (q i j k) (fun _ => 0) = 0).
  { unfold QuatFlow_Spec.dotv. rewrite (sumZ_ext _ _ _ (fun _ => 0)); [apply sumZ_zero | intros; ring]. }
  split; intros m Hm.
  - rewrite W by auto. rewrite (tang_ext d (q i j k) _ (fun _ => 0) D2 m Hm). unfold tang. rewrite T0. unfold Rdiv. ring.
  - rewrite W1, W0 by auto. rewrite (proj2 (multi_gt1 _ Hd)).
    rewrite (tang_ext d (q i j k) _ (fun m => 0 - div_plain3 b fc q i j k m)) by (auto; intros l Hl; cbv beta; rewrite D1, D2 by auto; ring).
    unfold tang. rewrite dotv_minus, T0. unfold Rdiv. ring.
Qed.

(** * Moduli without symmetry *)
Lemma dot_scaled : forall d (v : vec) h w, same d w (fun m => / h * v m) -> dotv d w w = dotv d v v / (h * h).
Proof.
  intros d v h w Hw. rewrite (dotv_ext _ _ _ _ _ Hw Hw). unfold QuatFlow_Spec.dotv, Rdiv. rewrite Rmult_comm, <- sumZ_scal.
  apply sumZ_ext. intros m Hm. rewrite Rinv_mult. ring.
Qed.
Lemma dot_zero : forall d (v : vec), dotv d v v = 0 <-> same d v (fun _ => 0).
Proof. intros d v. apply dotv_self_zero. Qed.
Lemma moduli_linear3 : forall b d q u v w c old9 old4 old3 i j k,
  (forall i j k, in_ghosts b i j k -> same d (q i j k) (fun m => c m + IZR i * u m + IZR j * v m + IZR k * w m)) -> in_cells b i j k ->
  let s := quatdiffs3 b d q old4 in
  let exact := sqrt (dotv d u u / (hx b * hx b) + dotv d v v / (hy b * hy b) + dotv d w w / (hz b * hz b)) in
  quatgrad_modulus3 b d (quatgrad_cell3 b d s old4) old3 i j k = exact /\
  quatgrad_modulus_from_sides3 b d (quatgrad_side3 b d s old9) old3 i j k = exact /\
  (forall a i j k, on_face b a i j k -> sqrt (norm3 d (pick a (quatgrad_side3 b d s old9)) i j k) = exact).
Proof.
  intros b d q u v w c old9 old4 old3 i j k Hq Hij s exact.
  set (t := fun a => match a with AX => u | AY => v | AZ => w end).
  assert (D : forall a i j k, on_side b a i j k -> same d (pick a s i j k) (t a)).
  { intros a x y z H m Hm. unfold s. rewrite plain_diffs3 by auto. unfold pdiff.
    destruct a; cbn [before t]; rewrite (Hq x y z) by (auto; box); [rewrite (Hq (x - 1)%Z y z) by (auto; box) | rewrite (Hq x (y - 1)%Z z) by (auto; box) | rewrite (Hq x y (z - 1)%Z) by (auto; box)];
      rewrite minus_IZR; ring. }
  assert (N : forall a i j k, on_face b a i j k -> same d (pick a (pick a (quatgrad_side3 b d s old9)) i j k) (fun m => / spacing b a * t a m)).
  { intros a x y z H m Hm. rewrite side_normal3 by auto. rewrite D by (auto; apply face_side; auto). unfold Rdiv. ring. }
  assert (T : forall a i j k, on_face b a i j k -> dotv d (pick a (pick a (quatgrad_side3 b d s old9)) i j k) (pick a (pick a (quatgrad_side3 b d s old9)) i j k)
     = dotv d (t a) (t a) / (spacing b a * spacing b a)) by (intros a x y z H; apply dot_scaled; apply N; auto).
  split; [| split].
  - rewrite cell_modulus3 by auto. unfold norm3, exact.
    assert (C : forall a, dotv d (pick a (quatgrad_cell3 b d s old4) i j k) (pick a (quatgrad_cell3 b d s old4) i j k) = dotv d (t a) (t a) / (spacing b a * spacing b a)).
    { intro a. apply dot_scaled. intros m Hm. rewrite cell_grad3 by auto. rewrite D by (auto; destruct a; box).
      replace (after a (pick a s) i j k m) with (t a m) by (destruct a; cbn [after]; symmetry; apply (fun a => D a); auto; box).
      unfold Rdiv. generalize (/ spacing b a). intro z. field. }
    rewrite !C. reflexivity.
  - rewrite sides_modulus3 by auto. rewrite !(T AX), !(T AY), !(T AZ) by box. unfold exact. f_equal. cbn [t spacing].
    generalize (dotv d u u / (hx b * hx b)) (dotv d v v / (hy b * hy b)) (dotv d w w / (hz b * hz b)). intros x y z. field.
  - intros a x y z H. unfold norm3, exact. f_equal.
    assert (C : forall e, dotv d (pick e (pick a (quatgrad_side3 b d s old9)) x y z) (pick e (pick a (quatgrad_side3 b d s old9)) x y z) = dotv d (t e) (t e) / (spacing b e * spacing b e)).
    { intro e. assert (Hae : a = e \/ a <> e) by (destruct a; destruct e; auto; right; discriminate). destruct Hae as [<- | Hne]; [apply T; auto |].
      apply dot_scaled. intros m Hm. rewrite side_other3 by auto.
      replace (before a (after e (pick e s)) x y z m) with (t e m) by (destruct a; destruct e; try congruence; cbn [after before]; symmetry; apply (fun a => D a); auto; box).
      replace (before a (pick e s) x y z m) with (t e m) by (destruct a; destruct e; try congruence; cbn [after before]; symmetry; apply (fun a => D a); auto; box).
      replace (after e (pick e s) x y z m) with (t e m) by (destruct a; destruct e; try congruence; cbn [after before]; symmetry; apply (fun a => D a); auto; box).
      rewrite D by (auto; destruct a; destruct e; try congruence; box). unfold Rdiv. generalize (/ spacing b e). intro z'. field. }
    rewrite !C. reflexivity.
Qed.
Lemma zero_scaled : forall d h (v w : vec), 0 < h -> (same d (fun m => / h * (v m - w m)) (fun _ => 0) <-> same d w v).
Proof.
  intros d h v w Hh. assert (I : 0 < / h) by (apply Rinv_0_lt_compat; auto). split; intros H m Hm; specialize (H m Hm); cbv beta in *.
  - apply Rmult_integral in H. lra.
  - rewrite H. ring.
Qed.
Lemma sides_zero3 : forall b d q old9 old4 old3 i j k, 0 < hx b -> 0 < hy b -> 0 < hz b -> in_cells b i j k ->
  (quatgrad_modulus_from_sides3 b d (quatgrad_side3 b d (quatdiffs3 b d q old4) old9) old3 i j k = 0 <->
   forall a, same d (before a q i j k) (q i j k) /\ same d (after a q i j k) (q i j k)).
Proof.
  intros b d q old9 old4 old3 i j k H1 H2 H3 Hij. rewrite sides_modulus3 by auto. set (g := quatgrad_side3 b d (quatdiffs3 b d q old4) old9).
  assert (HS : forall a, 0 < spacing b a) by (intros []; auto).
  assert (N : forall a i j k, on_face b a i j k -> same d (pick a (pick a g) i j k) (fun m => / spacing b a * (q i j k m - before a q i j k m))).
  { intros a x y z H m Hm. unfold g. rewrite side_normal3 by auto. rewrite plain_diffs3 by (auto; apply face_side; auto). unfold pdiff, Rdiv. ring. }
  assert (Zr : forall a i j k, on_face b a i j k -> (dotv d (pick a (pick a g) i j k) (pick a (pick a g) i j k) = 0 <-> same d (before a q i j k) (q i j k))).
  { intros a x y z H. rewrite (dotv_ext _ _ _ _ _ (N a x y z H) (N a x y z H)), dot_zero. apply zero_scaled. apply HS. }
  pose proof (Zr AX i j k ltac:(box)) as X0. pose proof (Zr AX (i + 1)%Z j k ltac:(box)) as X1.
  pose proof (Zr AY i j k ltac:(box)) as Y0. pose proof (Zr AY i (j + 1)%Z k ltac:(box)) as Y1.
  pose proof (Zr AZ i j k ltac:(box)) as Z0. pose proof (Zr AZ i j (k + 1)%Z ltac:(box)) as Z1.
  cbn [before] in X1, Y1, Z1. rewrite shift_plus in X1, Y1, Z1.
  match goal with |- sqrt (1 / 2 * (?a + ?b + (?c + ?d) + (?e + ?f))) = 0 <-> _ => set (x0 := a) in *; set (x1 := b) in *; set (y0 := c) in *; set (y1 := d) in *; set (z0 := e) in *; set (z1 := f) in * end.
  assert (P0 : 0 <= x0) by apply dotv_self_nonneg. assert (P1 : 0 <= x1) by apply dotv_self_nonneg. assert (P2 : 0 <= y0) by apply dotv_self_nonneg.
  assert (P3 : 0 <= y1) by apply dotv_self_nonneg. assert (P4 : 0 <= z0) by apply dotv_self_nonneg. assert (P5 : 0 <= z1) by apply dotv_self_nonneg.
  clearbody x0 x1 y0 y1 z0 z1. split.
  - intros E. apply sqrt_eq_0 in E; [| lra]. intros []; cbn [before after]; split; intros m Hm.
    + apply X0; auto; lra.
    + symmetry; apply X1; auto; lra.
    + apply Y0; auto; lra.
    + symmetry; apply Y1; auto; lra.
    + apply Z0; auto; lra.
    + symmetry; apply Z1; auto; lra.
  - intros A. destruct (A AX) as [A1 A2]. destruct (A AY) as [A3 A4]. destruct (A AZ) as [A5 A6]. cbn [before after] in *.
    rewrite (proj2 X0), (proj2 X1), (proj2 Y0), (proj2 Y1), (proj2 Z0), (proj2 Z1); auto; try (intros m Hm; symmetry; auto; fail).
    etransitivity; [| exact sqrt_0]. f_equal. ring.
Qed.
Lemma cells_zero3 : forall b d q old4 old3 i j k, 0 < hx b -> 0 < hy b -> 0 < hz b -> in_cells b i j k ->
  (quatgrad_modulus3 b d (quatgrad_cell3 b d (quatdiffs3 b d q old4) old4) old3 i j k = 0 <-> forall a, same d (before a q i j k) (after a q i j k)).
Proof.
  intros b d q old4 old3 i j k H1 H2 H3 Hij. rewrite cell_modulus3 by auto. unfold norm3. set (g := quatgrad_cell3 b d (quatdiffs3 b d q old4) old4).
  assert (HS : forall a, 0 < 2 * spacing b a) by (intros []; cbn [spacing]; lra).
  assert (N : forall a, same d (pick a g i j k) (fun m => / (2 * spacing b a) * (after a q i j k m - before a q i j k m))).
  { intros a m Hm. unfold g. rewrite cell_grad3 by auto. rewrite plain_diffs3 by (auto; destruct a; box).
    replace (after a (pick a (quatdiffs3 b d q old4)) i j k m) with (after a (pdiff q a) i j k m)
      by (destruct a; cbn [after]; symmetry; apply (plain_diffs3 b d q old4); auto; box).
    unfold pdiff. replace (after a (fun i j k m => q i j k m - before a q i j k m) i j k m) with (after a q i j k m - q i j k m)
      by (destruct a; cbn [after before]; rewrite shift_plus; reflexivity).
    unfold Rdiv. rewrite Rinv_mult. ring. }
  assert (Zr : forall a, (dotv d (pick a g i j k) (pick a g i j k) = 0 <-> same d (before a q i j k) (after a q i j k))).
  { intros a. rewrite (dotv_ext _ _ _ _ _ (N a) (N a)), dot_zero. apply zero_scaled. apply HS. }
  pose proof (dotv_self_nonneg d (pick AX g i j k)) as P0. pose proof (dotv_self_nonneg d (pick AY g i j k)) as P1. pose proof (dotv_self_nonneg d (pick AZ g i j k)) as P2.
  split.
  - intros E. apply sqrt_eq_0 in E; [| lra]. intros []; apply Zr; lra.
  - intros A. rewrite (proj2 (Zr AX)), (proj2 (Zr AY)), (proj2 (Zr AZ)) by auto. etransitivity; [| exact sqrt_0]. f_equal. ring.
Qed.
Lemma cells_blind3 : exists (b : box3) (q : arr4) (i j k : Z), 0 < hx b /\ 0 < hy b /\ 0 < hz b /\ in_cells b i j k /\
  (forall old4 old3, quatgrad_modulus3 b 1 (quatgrad_cell3 b 1 (quatdiffs3 b 1 q old4) old4) old3 i j k = 0) /\
  forall a, before a q i j k 1%Z <> q i j k 1%Z.
Proof.
  exists (mk_box3 0 0 0 0 0 0 1 1 1), (fun i j k _ => if Z.even (i + j + k) then 1 else 0), 0%Z, 0%Z, 0%Z. cbn [hx hy hz]. split; [lra |]. split; [lra |]. split; [lra |].
  split; [unfold in_cells, in_box3; cbn; lia |]. split; [| intros []; cbn; lra].
  intros. apply cells_zero3; try (cbn; lra); [unfold in_cells, in_box3; cbn; lia |]. intros [] m Hm; reflexivity.
Qed.

(** * Descent of the interface energy *)
Definition in_if (b : box3) (i j k : Z) : bool := ((xl b <=? i) && (i <=? xu b) && (yl b <=? j) && (j <=? yu b) && (zl b <=? k) && (k <=? zu b))%bool%Z.
Lemma in_if_false : forall b i j k, ~ in_cells b i j k -> in_if b i j k = false.
Proof.
  intros b i j k H. unfold in_if. rewrite !andb_false_iff, !Z.leb_gt. unfold in_cells, in_box3 in H. lia.
Qed.
Lemma in_if_true : forall b i j k, in_cells b i j k -> in_if b i j k = true.
Proof.
  intros b i j k H. unfold in_if. rewrite !andb_true_iff, !Z.leb_le. unfold in_cells, in_box3 in H. lia.
Qed.
Definition face_sum (b : box3) (a : axis) (f : Z -> Z -> Z -> R) : R :=
  match a with
  | AX => sum_box3 (xl b) (xu b + 1) (yl b) (yu b) (zl b) (zu b) f
  | AY => sum_box3 (xl b) (xu b) (yl b) (yu b + 1) (zl b) (zu b) f
  | AZ => sum_box3 (xl b) (xu b) (yl b) (yu b) (zl b) (zu b + 1) f
  end.
Lemma face_sum_ext : forall b a f g, (forall i j k, on_face b a i j k -> f i j k = g i j k) -> face_sum b a f = face_sum b a g.
Proof. intros b [] f g H; apply sum_box3_ext; intros i j k Hb; apply H; exact Hb. Qed.
Lemma box3_limit : forall l0 u0 l1 u1 l2 u2 (f : Z -> Z -> Z -> R -> R) (l : Z -> Z -> Z -> R) x,
  (forall i j k, in_box3 l0 u0 l1 u1 l2 u2 i j k -> derivable_pt_lim (f i j k) x (l i j k)) ->
  derivable_pt_lim (fun t => sum_box3 l0 u0 l1 u1 l2 u2 (fun i j k => f i j k t)) x (sum_box3 l0 u0 l1 u1 l2 u2 l).
Proof.
  intros l0 u0 l1 u1 l2 u2 f l x H. unfold sum_box3.
  apply (sum_limit l2 u2 (fun k t => sumZ l1 u1 (fun j => sumZ l0 u0 (fun i => f i j k t))) (fun k => sumZ l1 u1 (fun j => sumZ l0 u0 (fun i => l i j k)))). intros k Hk.
  apply (sum_limit l1 u1 (fun j t => sumZ l0 u0 (fun i => f i j k t)) (fun j => sumZ l0 u0 (fun i => l i j k))). intros j Hj.
  apply (sum_limit l0 u0 (fun i t => f i j k t) (fun i => l i j k)). intros i Hi. apply H. repeat split; lia.
Qed.
Lemma face_limit : forall b a (f : Z -> Z -> Z -> R -> R) (l : Z -> Z -> Z -> R) x,
  (forall i j k, on_face b a i j k -> derivable_pt_lim (f i j k) x (l i j k)) ->
  derivable_pt_lim (fun t => face_sum b a (fun i j k => f i j k t)) x (face_sum b a l).
Proof. intros b [] f l x H; apply box3_limit; intros i j k Hb; apply H; exact Hb. Qed.
Lemma swap3 : forall l0 u0 l1 u1 l2 u2 (f : Z -> Z -> Z -> R), sum_box3 l0 u0 l1 u1 l2 u2 f = sumZ l1 u1 (fun j => sumZ l0 u0 (fun i => sumZ l2 u2 (fun k => f i j k))).
Proof.
  intros. unfold sum_box3. rewrite (sumZ_swap l1 u1 l2 u2 (fun j k => sumZ l0 u0 (fun i => f i j k))). apply sumZ_ext. intros j _.
  apply (sumZ_swap l0 u0 l2 u2 (fun i k => f i j k)).
Qed.
Lemma parts3 : forall b a (A B : Z -> Z -> Z -> R), (xl b <= xu b)%Z -> (yl b <= yu b)%Z -> (zl b <= zu b)%Z ->
  (forall i j k, ~ in_cells b i j k -> A i j k = 0) -> (forall i j k, before a (fun i j k => ~ in_cells b i j k) i j k -> B i j k = 0) ->
  face_sum b a (fun i j k => A i j k - B i j k) = sum_box3 (xl b) (xu b) (yl b) (yu b) (zl b) (zu b) (fun i j k => A i j k - after a B i j k).
Proof.
  intros b [] A B Hx Hy Hz HA HB; cbn [face_sum after before] in *.
  - unfold sum_box3. apply sumZ_ext. intros k Hk. apply sumZ_ext. intros j Hj.
    apply (sum_by_parts (xl b) (xu b) (fun i => A i j k) (fun i => B i j k)); [lia | apply HA; box | apply HB; box].
  - unfold sum_box3. apply sumZ_ext. intros k Hk. rewrite !(sumZ_swap (xl b) (xu b)). apply sumZ_ext. intros i Hi.
    apply (sum_by_parts (yl b) (yu b) (fun j => A i j k) (fun j => B i j k)); [lia | apply HA; box | apply HB; box].
  - rewrite !swap3. apply sumZ_ext. intros j Hj. apply sumZ_ext. intros i Hi.
    apply (sum_by_parts (zl b) (zu b) (fun k => A i j k) (fun k => B i j k)); [lia | apply HA; box | apply HB; box].
Qed.
Lemma plain_descent3 : forall asserts use_gradq b d fc mob q r old9 old4 old3 rhs,
  (xl b <= xu b)%Z -> (yl b <= yu b)%Z -> (zl b <= zu b)%Z ->
  (forall i j k, in_cells b i j k -> 0 < mob i j k /\ (d <> 1%Z -> dotv d (q i j k) (q i j k) <> 0)) ->
  evaluateQuatRHS3 asserts false use_gradq false b d fc mob q r old9 old4 old3 = Some rhs ->
  derivable_pt_lim (fun t => face_energy b fc (plain_gap d (moved b q rhs t))) 0
    (- sum_box3 (xl b) (xu b) (yl b) (yu b) (zl b) (zu b) (fun i j k => dotv d (rhs i j k) (rhs i j k) / mob i j k)).
Proof.
  intros asserts use_gradq b d fc mob q r old9 old4 old3 rhs Bx By Bz Hm E.
  destruct (rhs_plain3 asserts use_gradq b d fc mob q r old9 old4 old3) as (t & E' & W & _). rewrite E in E'. injection E' as <-.
  set (V := fun i j k m => if in_if b i j k then rhs i j k m else 0).
  assert (MV : forall t i j k m, moved b q rhs t i j k m = q i j k m + t * V i j k m).
  { intros t i j k m. unfold moved, V, in_if. destruct (_ && _)%bool; ring. }
  assert (V0 : forall v i j k, ~ in_cells b i j k -> dotv d v (V i j k) = 0).
  { intros v i j k H. unfold QuatFlow_Spec.dotv. rewrite (sumZ_ext _ _ _ (fun _ => 0)); [apply sumZ_zero |]. intros m _. unfold V. rewrite in_if_false by auto. ring. }
  set (c := fun a i j k => - pick a fc i j k * (/ spacing b a * / spacing b a)).
  assert (F : forall a, derivable_pt_lim (fun t => face_sum b a (fun i j k => - pick a fc i j k / 2 * (plain_gap d (moved b q rhs t) a i j k / (spacing b a * spacing b a)))) 0
    (sum_box3 (xl b) (xu b) (yl b) (yu b) (zl b) (zu b) (fun i j k => c a i j k * dotv d (pdiff q a i j k) (V i j k) - after a (fun i j k => c a i j k * dotv d (pdiff q a i j k) (before a V i j k)) i j k))).
  { intro a. rewrite <- (parts3 b a (fun i j k => c a i j k * dotv d (pdiff q a i j k) (V i j k)) (fun i j k => c a i j k * dotv d (pdiff q a i j k) (before a V i j k))); auto.
    - apply (face_limit b a (fun i j k t => - pick a fc i j k / 2 * (plain_gap d (moved b q rhs t) a i j k / (spacing b a * spacing b a)))). intros i j k Hf.
      set (w := fun m => V i j k m - before a V i j k m).
      apply (derivable_pt_lim_ext (fun t => - pick a fc i j k / 2 * ((dotv d (pdiff q a i j k) (pdiff q a i j k) + 2 * t * dotv d (pdiff q a i j k) w + t * t * dotv d w w) / (spacing b a * spacing b a)))).
      + intro t. rewrite <- dotv_quad. unfold plain_gap. do 2 f_equal.
        assert (S1 : same d (fun m => pdiff q a i j k m + t * w m) (fun m => moved b q rhs t i j k m - before a (moved b q rhs t) i j k m)).
        { intros m Hm'. unfold pdiff, w. destruct a; cbn [before]; rewrite !MV; ring. }
        apply dotv_ext; exact S1.
      + replace (c a i j k * dotv d (pdiff q a i j k) (V i j k) - c a i j k * dotv d (pdiff q a i j k) (before a V i j k))
          with (2 * (- pick a fc i j k / 2) * dotv d (pdiff q a i j k) w / (spacing b a * spacing b a)).
        * apply quad_limit.
        * unfold c, w. rewrite dotv_minus. unfold Rdiv. rewrite Rinv_mult. generalize (/ spacing b a). intro z. field.
    - intros i j k H. rewrite V0 by auto. ring.
    - intros i j k H. destruct a; cbn [before] in *; rewrite V0 by auto; ring. }
  change (derivable_pt_lim (fun t => face_sum b AX (fun i j k => - pick AX fc i j k / 2 * (plain_gap d (moved b q rhs t) AX i j k / (spacing b AX * spacing b AX)))
    + face_sum b AY (fun i j k => - pick AY fc i j k / 2 * (plain_gap d (moved b q rhs t) AY i j k / (spacing b AY * spacing b AY)))
    + face_sum b AZ (fun i j k => - pick AZ fc i j k / 2 * (plain_gap d (moved b q rhs t) AZ i j k / (spacing b AZ * spacing b AZ)))) 0
    (- sum_box3 (xl b) (xu b) (yl b) (yu b) (zl b) (zu b) (fun i j k => dotv d (rhs i j k) (rhs i j k) / mob i j k))).
  eapply eq_ind; [apply (derivable_pt_lim_plus _ _ 0 _ _ (derivable_pt_lim_plus _ _ 0 _ _ (F AX) (F AY)) (F AZ)) |].
  rewrite <- !sum_box3_plus. rewrite <- (Rmult_1_l (sum_box3 _ _ _ _ _ _ (fun i j k => dotv d (rhs i j k) (rhs i j k) / mob i j k))), Ropp_mult_distr_l.
  rewrite <- sum_box3_scal. apply sum_box3_ext. intros i j k Hij. destruct (Hm i j k Hij) as [HM HQ].
  assert (HV : forall m, V i j k m = rhs i j k m) by (intro m; unfold V; rewrite in_if_true by exact Hij; reflexivity).
  assert (HD : forall v, dotv d v (V i j k) = dotv d (rhs i j k) v).
  { intro v. rewrite dotv_sym. apply dotv_ext; intros m _; [apply HV | reflexivity]. }
  assert (R : dotv d (rhs i j k) (div_plain3 b fc q i j k) = - (dotv d (rhs i j k) (rhs i j k) / mob i j k)).
  { apply (rate_cell d (mob i j k) (q i j k) _ (rhs i j k)); auto. intros m Hm'. apply W; auto. }
  transitivity (dotv d (rhs i j k) (div_plain3 b fc q i j k)); [| rewrite R; ring].
  cbn [after before]. rewrite !shift_plus, !HD. unfold div_plain3, diverg3. cbn [after].
  set (X := fun m => (pick AX fc (i + 1)%Z j k * pdiff q AX (i + 1)%Z j k m - pick AX fc i j k * pdiff q AX i j k m) * (/ hx b * / hx b)).
  set (Y := fun m => (pick AY fc i (j + 1)%Z k * pdiff q AY i (j + 1)%Z k m - pick AY fc i j k * pdiff q AY i j k m) * (/ hy b * / hy b)).
  set (Zv := fun m => (pick AZ fc i j (k + 1)%Z * pdiff q AZ i j (k + 1)%Z m - pick AZ fc i j k * pdiff q AZ i j k m) * (/ hz b * / hz b)).
  transitivity (dotv d (rhs i j k) (fun m => (X m + Y m) + Zv m)); [| reflexivity].
  rewrite (dotv_plus d (rhs i j k) (fun m => X m + Y m) Zv), (dotv_plus d (rhs i j k) X Y).
  assert (P : forall al be ga (u v : vec), dotv d (rhs i j k) (fun m => (al * u m - be * v m) * ga) = ga * al * dotv d (rhs i j k) u - ga * be * dotv d (rhs i j k) v).
  { intros al be ga u v. rewrite (dotv_ext d (rhs i j k) (rhs i j k) _ (fun m => (ga * al) * u m - (ga * be) * v m)) by (intros m _; try reflexivity; ring).
    rewrite (dotv_minus d (rhs i j k) (fun m => (ga * al) * u m) (fun m => (ga * be) * v m)), !dotv_scal. reflexivity. }
  unfold X, Y, Zv. rewrite !P. unfold c. cbn [spacing]. ring.
Qed.

(** * Counterexamples on one cell *)
Notation vec2 := QuatFlow_Model.vec2.
Definition ex3_box : box3 := mk_box3 0 0 0 0 0 0 1 1 1.
Definition ex3_q (u : q2) : arr4 := fun i _ _ m => if (1 <=? i)%Z then vec2 u m else vec2 (Q2 1 0) m.
Definition ex3_u := Q2 (4 / 5) (3 / 5).
Definition ex3_w := Q2 (-3 / 5) (4 / 5).
Definition ex3_S : iarr3 := fun i _ _ => if (1 <=? i)%Z then 2%Z else 1%Z.
Definition ones : arr3x3 := (fun _ _ _ => -1, fun _ _ _ => -1, fun _ _ _ => -1).
Definition guess1 : iarr3x3 := (fun _ _ _ => 1%Z, fun _ _ _ => 1%Z, fun _ _ _ => 1%Z).
Definition zero4 : arr4x3 := (fun _ _ _ _ => 0, fun _ _ _ _ => 0, fun _ _ _ _ => 0).
Definition zero9 : sides3 := (zero4, zero4, zero4).
Lemma ex3_unit : forall u, ca u * ca u + cb u * cb u = 1 -> unit_field ex3_box 2 (ex3_q u).
Proof.
  intros u H i j k _. unfold ex3_q, QuatFlow_Spec.dotv. rewrite sum2. destruct (1 <=? i)%Z; cbn [vec2 ca cb]; lra.
Qed.
Lemma near_u : forall n, closest 2 (vec2 ex3_u) (vec2 (Q2 1 0)) n -> n = 1%Z.
Proof.
  intros n [Hn H]. specialize (H 1%Z ltac:(split; cbn; lia)). revert H. destruct qr2_val as (E1 & E2 & E3 & E4). unfold QuatFlow_Spec.dotv, ex3_u. rewrite !sum2. cbn [image].
  destruct (tab4 n Hn) as [-> | [-> | [-> | ->]]]; auto; rewrite ?E1, ?E2, ?E3, ?E4; cbn [comp2 quatmult2 ca cb vec2]; lra.
Qed.
Lemma near_w : forall n, closest 2 (vec2 ex3_w) (vec2 (Q2 1 0)) n -> n = 2%Z.
Proof.
  intros n [Hn H]. specialize (H 2%Z ltac:(split; cbn; lia)). revert H. destruct qr2_val as (E1 & E2 & E3 & E4). unfold QuatFlow_Spec.dotv, ex3_w. rewrite !sum2. cbn [image].
  destruct (tab4 n Hn) as [-> | [-> | [-> | ->]]]; auto; rewrite ?E1, ?E2, ?E3, ?E4; cbn [comp2 quatmult2 ca cb vec2]; lra.
Qed.
Lemma near_one : forall n, closest 2 (vec2 (Q2 1 0)) (vec2 (Q2 1 0)) n -> n = 1%Z.
Proof.
  intros n [Hn H]. specialize (H 1%Z ltac:(split; cbn; lia)). revert H. destruct qr2_val as (E1 & E2 & E3 & E4). unfold QuatFlow_Spec.dotv. rewrite !sum2. cbn [image].
  destruct (tab4 n Hn) as [-> | [-> | [-> | ->]]]; auto; rewrite ?E1, ?E2, ?E3, ?E4; cbn [comp2 quatmult2 ca cb vec2]; lra.
Qed.
Lemma unique2 : forall a b a' b' n, in_table 4 n ->
  (forall k, in_table 4 k -> k <> n -> dotv 2 (fun m => vec2 (Q2 a b) m - image 2 n (vec2 (Q2 a' b')) m) (fun m => vec2 (Q2 a b) m - image 2 n (vec2 (Q2 a' b')) m)
     < dotv 2 (fun m => vec2 (Q2 a b) m - image 2 k (vec2 (Q2 a' b')) m) (fun m => vec2 (Q2 a b) m - image 2 k (vec2 (Q2 a' b')) m)) ->
  closest_unique 2 (vec2 (Q2 a b)) (vec2 (Q2 a' b')).
Proof. intros a b a' b' n Hn H. exists n. split; [exact Hn | exact H]. Qed.
Lemma ex3_ties : forall u, u = ex3_u \/ u = ex3_w -> no_ties ex3_box 2 (ex3_q u).
Proof.
  assert (T : forall a b, a ^ 2 + b ^ 2 = 1 -> closest_unique 2 (vec2 (Q2 a b)) (vec2 (Q2 a b))).
  { intros a b H. apply (unique2 a b a b 1); [split; cbn; lia |]. intros k Hk Hne. destruct qr2_val as (E1 & E2 & E3 & E4). unfold QuatFlow_Spec.dotv. rewrite !sum2. cbn [image].
    destruct (tab4 k Hk) as [-> | [-> | [-> | ->]]]; try lia; rewrite ?E1, ?E2, ?E3, ?E4; cbn [comp2 quatmult2 ca cb vec2]; lra. }
  assert (T1 : closest_unique 2 (vec2 ex3_u) (vec2 (Q2 1 0))).
  { apply (unique2 _ _ 1 0 1); [split; cbn; lia |]. intros k Hk Hne. destruct qr2_val as (E1 & E2 & E3 & E4). unfold QuatFlow_Spec.dotv. rewrite !sum2. cbn [image].
    destruct (tab4 k Hk) as [-> | [-> | [-> | ->]]]; try lia; rewrite ?E1, ?E2, ?E3, ?E4; cbn [comp2 quatmult2 ca cb vec2]; lra. }
  assert (T2 : closest_unique 2 (vec2 ex3_w) (vec2 (Q2 1 0))).
  { apply (unique2 _ _ 1 0 2); [split; cbn; lia |]. intros k Hk Hne. destruct qr2_val as (E1 & E2 & E3 & E4). unfold QuatFlow_Spec.dotv. rewrite !sum2. cbn [image].
    destruct (tab4 k Hk) as [-> | [-> | [-> | ->]]]; try lia; rewrite ?E1, ?E2, ?E3, ?E4; cbn [comp2 quatmult2 ca cb vec2]; lra. }
  intros u Hu a i j k Hs.
  assert (Hself : forall x, closest_unique 2 (fun m => if (1 <=? x)%Z then vec2 u m else vec2 (Q2 1 0) m) (fun m => if (1 <=? x)%Z then vec2 u m else vec2 (Q2 1 0) m)).
  { intro x. destruct (1 <=? x)%Z; [destruct Hu as [-> | ->]; [apply (T (4 / 5) (3 / 5)) | apply (T (-3 / 5) (4 / 5))]; lra | apply (T 1 0); lra]. }
  unfold ex3_q. destruct a; cbn [before].
  - assert (Ei : (i = 0 \/ i = 1)%Z) by (cbn [xl xu ex3_box] in *; unfold on_side, in_box3, ex3_box in Hs; cbn in Hs; lia).
    destruct Ei as [-> | ->]; cbn [Z.leb Z.compare Z.sub Z.add Z.opp Z.pos_sub Pos.compare Pos.compare_cont].
    + apply (T 1 0); lra.
    + destruct Hu as [-> | ->]; [exact T1 | exact T2].
  - apply Hself.
  - apply Hself.
Qed.
Lemma ex3_regauged : regauged ex3_box 2 ex3_S (ex3_q ex3_u) (ex3_q ex3_w).
Proof.
  intros i j k _. unfold ex3_S, ex3_q. destruct qr2_val as (E1 & E2 & _).
  destruct (1 <=? i)%Z; (split; [split; cbn; lia |]); intros m Hm; cbn [image]; rewrite ?E1, ?E2; idx2 m Hm; unfold ex3_u, ex3_w; cbn [comp2 quatmult2 ca cb vec2]; lra.
Qed.
(** the rotations on the faces of the cell *)
Lemma ex3_rot : forall u n g r, ca u * ca u + cb u * cb u = 1 -> (forall k, closest 2 (vec2 u) (vec2 (Q2 1 0)) k -> k = n) ->
  quat_symm_rotation3 ex3_box 2 (ex3_q u) g = Some r ->
  pick AX r 0%Z 0%Z 0%Z = 1%Z /\ pick AX r 1%Z 0%Z 0%Z = n /\ pick AY r 0%Z 0%Z 0%Z = 1%Z /\ pick AY r 0%Z 1%Z 0%Z = 1%Z /\
  pick AZ r 0%Z 0%Z 0%Z = 1%Z /\ pick AZ r 0%Z 0%Z 1%Z = 1%Z /\ rotations_ok ex3_box 2 r.
Proof.
  intros u n g r Hu Hn E. destruct (closest3 ex3_box 2 (ex3_q u) g r (or_introl (or_introl eq_refl)) (fun _ => ex3_unit u Hu) E) as [C Hr].
  split; [apply near_one; apply (C AX 0 0 0)%Z; unfold on_side, in_box3; cbn; lia |].
  split; [apply Hn; apply (C AX 1 0 0)%Z; unfold on_side, in_box3; cbn; lia |].
  split; [apply near_one; apply (C AY 0 0 0)%Z; unfold on_side, in_box3; cbn; lia |].
  split; [apply near_one; apply (C AY 0 1 0)%Z; unfold on_side, in_box3; cbn; lia |].
  split; [apply near_one; apply (C AZ 0 0 0)%Z; unfold on_side, in_box3; cbn; lia |].
  split; [apply near_one; apply (C AZ 0 0 1)%Z; unfold on_side, in_box3; cbn; lia | exact Hr].
Qed.
Lemma ex3_cell : in_cells ex3_box 0 0 0.
Proof. unfold in_cells, in_box3; cbn; lia. Qed.
Lemma ex3_rhs : forall u n g r, ca u * ca u + cb u * cb u = 1 -> (forall k, closest 2 (vec2 u) (vec2 (Q2 1 0)) k -> k = n) ->
  quat_symm_rotation3 ex3_box 2 (ex3_q u) g = Some r ->
  exists rhs, evaluateQuatRHS3 false true true false ex3_box 2 ones (fun _ _ _ => 1) (ex3_q u) r zero9 zero4 (fun _ _ _ => 0) = Some rhs /\
    rhs 0%Z 0%Z 0%Z 1%Z = 0 /\ rhs 0%Z 0%Z 0%Z 2%Z = vec2 u 2%Z - image 2 n (vec2 (Q2 1 0)) 2%Z.
Proof.
  intros u n g r Hu Hn E. destruct (ex3_rot u n g r Hu Hn E) as (R1 & R2 & R3 & R4 & R5 & R6 & Hr).
  assert (Hd : multi 2) by (left; reflexivity).
  destruct (rhs_mixed3 ex3_box 2 ones (fun _ _ _ => 1) (ex3_q u) r zero9 zero4 (fun _ _ _ => 0) Hd Hr) as (rhs & E' & V & _).
  exists rhs. split; [exact E' |].
  assert (I1 : forall v m, (1 <= m <= 2)%Z -> image 2 1 v m = v m) by (intros; apply image_one; auto).
  assert (D : forall m, (1 <= m <= 2)%Z -> div_mixed3 ex3_box 2 ones (ex3_q u) r 0 0 0 m = - (vec2 u m - image 2 n (vec2 (Q2 1 0)) m)).
  { intros m Hm. unfold div_mixed3, diverg3, sdiff. cbn [after Z.add Pos.add]. rewrite R1, R2, R3, R4, R5, R6. cbn [before Z.sub Z.add Z.opp Z.pos_sub].
    rewrite !I1 by auto. unfold ex3_q, ones. cbn [pick fst snd hx hy hz ex3_box Z.leb Z.compare Pos.compare Pos.compare_cont after].
    change (image 2 n (fun m => vec2 (Q2 1 0) m)) with (image 2 n (vec2 (Q2 1 0))). field. }
  assert (Q1 : dotv 2 (ex3_q u 0%Z 0%Z 0%Z) (ex3_q u 0%Z 0%Z 0%Z) = 1) by (unfold QuatFlow_Spec.dotv, ex3_q; rewrite sum2; cbn; ring).
  split; rewrite V by (first [exact ex3_cell | lia]); unfold tang; rewrite Q1; unfold QuatFlow_Spec.dotv; rewrite sum2, !D by lia;
    unfold ex3_q; cbn [Z.leb Z.compare vec2 ca cb]; field.
Qed.
Lemma motion_refuted3 : exists b d S q q' g r r' fc mob old9 old4 old3 rhs rhs', multi d /\ unit_field b d q /\ regauged b d S q q' /\ no_ties b d q /\
  quat_symm_rotation3 b d q g = Some r /\ quat_symm_rotation3 b d q' g = Some r' /\
  evaluateQuatRHS3 false true true false b d fc mob q r old9 old4 old3 = Some rhs /\
  evaluateQuatRHS3 false true true false b d fc mob q' r' old9 old4 old3 = Some rhs' /\
  exists i j k, in_cells b i j k /\ ~ same d (rhs' i j k) (image d (S i j k) (rhs i j k)).
Proof.
  assert (Hu : ca ex3_u * ca ex3_u + cb ex3_u * cb ex3_u = 1) by (unfold ex3_u; cbn [ca cb]; lra).
  assert (Hw : ca ex3_w * ca ex3_w + cb ex3_w * cb ex3_w = 1) by (unfold ex3_w; cbn [ca cb]; lra).
  assert (Hd : multi 2) by (left; reflexivity).
  destruct (rotations_found3 ex3_box 2 (ex3_q ex3_u) guess1 (or_introl Hd) (fun _ => ex3_unit _ Hu)) as (r & E & _).
  destruct (rotations_found3 ex3_box 2 (ex3_q ex3_w) guess1 (or_introl Hd) (fun _ => ex3_unit _ Hw)) as (r' & E' & _).
  destruct (ex3_rhs ex3_u 1 guess1 r Hu near_u E) as (rhs & F & A1 & A2).
  destruct (ex3_rhs ex3_w 2 guess1 r' Hw near_w E') as (rhs' & F' & A1' & A2').
  exists ex3_box, 2%Z, ex3_S, (ex3_q ex3_u), (ex3_q ex3_w), guess1, r, r', ones, (fun _ _ _ => 1), zero9, zero4, (fun _ _ _ => 0), rhs, rhs'.
  split; [exact Hd |]. split; [apply ex3_unit; exact Hu |]. split; [exact ex3_regauged |]. split; [apply ex3_ties; auto |].
  split; [exact E |]. split; [exact E' |]. split; [exact F |]. split; [exact F' |]. exists 0%Z, 0%Z, 0%Z. split; [exact ex3_cell |].
  intro H. specialize (H 2%Z ltac:(lia)). unfold ex3_S in H. cbn [Z.leb Z.compare] in H. rewrite image_one in H by (auto; lia).
  rewrite A2, A2' in H. revert H. destruct qr2_val as (E1 & E2 & _). cbn [image]. rewrite E1, E2. unfold ex3_u, ex3_w. cbn [comp2 quatmult2 ca cb vec2]. lra.
Qed.
Lemma sum00 : forall f, sumZ 0 0 f = f 0%Z.
Proof. intro f. transitivity (f 0%Z + 0); [reflexivity | ring]. Qed.
Lemma sum01 : forall f, sumZ 0 (0 + 1) f = f 0%Z + f 1%Z.
Proof. intro f. transitivity (f 0%Z + (f 1%Z + 0)); [reflexivity | ring]. Qed.
Lemma symm_descent_refuted3 : exists b d q g r fc mob old9 old4 old3 rhs l, multi d /\ unit_field b d q /\ no_ties b d q /\
  (forall a i j k, pick a fc i j k < 0) /\ (forall i j k, 0 < mob i j k) /\
  quat_symm_rotation3 b d q g = Some r /\ evaluateQuatRHS3 false true true false b d fc mob q r old9 old4 old3 = Some rhs /\
  derivable_pt_lim (fun t => face_energy b fc (image_gap d r (moved b q rhs t))) 0 l /\ 0 < l.
Proof.
  assert (Hw : ca ex3_w * ca ex3_w + cb ex3_w * cb ex3_w = 1) by (unfold ex3_w; cbn [ca cb]; lra).
  assert (Hd : multi 2) by (left; reflexivity).
  destruct (rotations_found3 ex3_box 2 (ex3_q ex3_w) guess1 (or_introl Hd) (fun _ => ex3_unit _ Hw)) as (r & E & _).
  destruct (ex3_rhs ex3_w 2 guess1 r Hw near_w E) as (rhs & F & A1 & A2).
  destruct (ex3_rot ex3_w 2 guess1 r Hw near_w E) as (R1 & R2 & R3 & R4 & R5 & R6 & Hr).
  exists ex3_box, 2%Z, (ex3_q ex3_w), guess1, r, ones, (fun _ _ _ => 1), zero9, zero4, (fun _ _ _ => 0), rhs, (3 / 25).
  split; [exact Hd |]. split; [apply ex3_unit; exact Hw |]. split; [apply ex3_ties; auto |]. split; [intros []; cbn; intros; lra |]. split; [intros; lra |].
  split; [exact E |]. split; [exact F |]. split; [| lra].
  assert (A2'' : rhs 0%Z 0%Z 0%Z 2%Z = - 1 / 5).
  { rewrite A2. destruct qr2_val as (_ & E2 & _). cbn [image]. rewrite E2. unfold ex3_w. cbn [comp2 quatmult2 ca cb vec2]. lra. }
  apply (derivable_pt_lim_ext (fun t => 1 / 2 * ((2 / 5 + 2 * t * (3 / 25) + t * t * (6 / 25)) / 1))).
  - intro t. assert (M0 : forall m, (1 <= m <= 2)%Z -> moved ex3_box (ex3_q ex3_w) rhs t 0%Z 0%Z 0%Z m = vec2 (Q2 1 (- t / 5)) m).
    { intros m Hm. unfold moved, ex3_q. cbn [xl xu yl yu zl zu ex3_box Z.leb Z.compare andb]. idx2 m Hm; rewrite ?A1, ?A2''; cbn [vec2 ca cb]; field. }
    assert (MB : forall i j k, (i <> 0 \/ j <> 0 \/ k <> 0)%Z -> moved ex3_box (ex3_q ex3_w) rhs t i j k = ex3_q ex3_w i j k).
    { intros i j k H. unfold moved. cbn [xl xu yl yu zl zu ex3_box]. destruct (_ && _)%bool eqn:Eb; [| reflexivity]. rewrite !andb_true_iff, !Z.leb_le in Eb. lia. }
    assert (G : forall n v w m m' x y, same 2 v (vec2 (Q2 m m')) -> same 2 w (vec2 (Q2 x y)) -> (n = 1%Z \/ n = 2%Z) ->
       dotv 2 (fun l => v l - image 2 n w l) (fun l => v l - image 2 n w l) = if (n =? 1)%Z then (m - x) ^ 2 + (m' - y) ^ 2 else (m + y) ^ 2 + (m' - x) ^ 2).
    { intros n v w m m' x y Hv Hw' Hn. unfold QuatFlow_Spec.dotv. rewrite sum2. rewrite !(Hv 1%Z), !(Hv 2%Z) by lia. rewrite !(image_ext 2 n w _ Hd Hw') by lia.
      destruct qr2_val as (E1 & E2 & _). cbn [image]. destruct Hn as [-> | ->]; rewrite ?E1, ?E2; cbn [comp2 quatmult2 ca cb vec2 Z.eqb Pos.eqb]; ring. }
    assert (One : forall i j k, (i < 1)%Z -> (i <> 0 \/ j <> 0 \/ k <> 0)%Z -> same 2 (moved ex3_box (ex3_q ex3_w) rhs t i j k) (vec2 (Q2 1 0))).
    { intros i j k Hi H m Hm. rewrite MB by auto. unfold ex3_q. destruct (Z.leb_spec 1 i); [lia | reflexivity]. }
    assert (W1 : same 2 (moved ex3_box (ex3_q ex3_w) rhs t 1%Z 0%Z 0%Z) (vec2 ex3_w)) by (intros m Hm; rewrite MB by lia; reflexivity).
    unfold face_energy, sum_box3. cbn [xl xu yl yu zl zu hx hy hz ex3_box]. rewrite !sum00, !sum01, !sum00. unfold image_gap. rewrite ?R1, ?R2, ?R3, ?R4, ?R5, ?R6.
    rewrite (G 1%Z (moved _ _ rhs t 0%Z 0%Z 0%Z) (before AX (moved ex3_box (ex3_q ex3_w) rhs t) 0%Z 0%Z 0%Z) 1 (- t / 5) 1 0) by (auto; intros m Hm; first [apply M0; auto | apply One; auto; lia]).
    rewrite (G 2%Z (moved _ _ rhs t 1%Z 0%Z 0%Z) (before AX (moved ex3_box (ex3_q ex3_w) rhs t) 1%Z 0%Z 0%Z) (-3 / 5) (4 / 5) 1 (- t / 5)) by (auto; intros m Hm; first [apply M0; auto | apply W1; auto]).
    rewrite (G 1%Z (moved _ _ rhs t 0%Z 0%Z 0%Z) (before AY (moved ex3_box (ex3_q ex3_w) rhs t) 0%Z 0%Z 0%Z) 1 (- t / 5) 1 0) by (auto; intros m Hm; first [apply M0; auto | apply One; auto; lia]).
    rewrite (G 1%Z (moved _ _ rhs t 0%Z 1%Z 0%Z) (before AY (moved ex3_box (ex3_q ex3_w) rhs t) 0%Z 1%Z 0%Z) 1 0 1 (- t / 5)) by (auto; intros m Hm; first [apply One; auto; lia | apply M0; auto]).
    rewrite (G 1%Z (moved _ _ rhs t 0%Z 0%Z 0%Z) (before AZ (moved ex3_box (ex3_q ex3_w) rhs t) 0%Z 0%Z 0%Z) 1 (- t / 5) 1 0) by (auto; intros m Hm; first [apply M0; auto | apply One; auto; lia]).
    rewrite (G 1%Z (moved _ _ rhs t 0%Z 0%Z 1%Z) (before AZ (moved ex3_box (ex3_q ex3_w) rhs t) 0%Z 0%Z 1%Z) 1 0 1 (- t / 5)) by (auto; intros m Hm; first [apply One; auto; lia | apply M0; auto]).
    cbn [Z.eqb Pos.eqb pick ones fst snd]. field.
  - eapply eq_ind; [apply (quad_limit (1 / 2) (2 / 5) (3 / 25) (6 / 25) 1) | field].
Qed.
(** a field of equivalent orientations moved by the default option *)
Definition ex3_e := Q2 0 1.
Lemma ex3_e_unit : ca ex3_e * ca ex3_e + cb ex3_e * cb ex3_e = 1.
Proof. unfold ex3_e; cbn [ca cb]; lra. Qed.
Lemma ex3_around : equivalent_around 2 (ex3_q ex3_e) 0 0 0.
Proof. intros []; split; first [exact ex_equiv | apply ex_equiv_self]. Qed.
Lemma default_drift3 : exists b d q g r fc mob old9 old4 old3 rhs, multi d /\ unit_field b d q /\ quat_symm_rotation3 b d q g = Some r /\
  (forall i j k, in_ghosts b i j k -> equivalent d (q i j k) (q 0%Z 0%Z 0%Z)) /\
  evaluateQuatRHS3 false true false false b d fc mob q r old9 old4 old3 = Some rhs /\
  exists i j k, in_cells b i j k /\ ~ same d (rhs i j k) (fun _ => 0).
Proof.
  assert (Hd : multi 2) by (left; reflexivity).
  destruct (rotations_found3 ex3_box 2 (ex3_q ex3_e) guess1 (or_introl Hd) (fun _ => ex3_unit _ ex3_e_unit)) as (r & E & Hr).
  destruct (rhs_default3 ex3_box 2 ones (fun _ _ _ => 1) (ex3_q ex3_e) r zero9 zero4 (fun _ _ _ => 0) Hd Hr) as (rhs & F & _).
  destruct (rhs_mixed3 ex3_box 2 ones (fun _ _ _ => 1) (ex3_q ex3_e) r zero9 zero4 (fun _ _ _ => 0) Hd Hr) as (rhs1 & F1 & _).
  destruct (rhs_plain3 false false ex3_box 2 ones (fun _ _ _ => 1) (ex3_q ex3_e) r zero9 zero4 (fun _ _ _ => 0)) as (rhs0 & F0 & V0 & _).
  exists ex3_box, 2%Z, (ex3_q ex3_e), guess1, r, ones, (fun _ _ _ => 1), zero9, zero4, (fun _ _ _ => 0), rhs.
  split; [exact Hd |]. split; [apply ex3_unit; exact ex3_e_unit |]. split; [exact E |]. split; [| split; [exact F |]].
  - intros i j k _. unfold ex3_q. cbn [Z.leb Z.compare]. destruct (1 <=? i)%Z; [exact ex_equiv | apply ex_equiv_self].
  - exists 0%Z, 0%Z, 0%Z. split; [exact ex3_cell |]. intro S1.
    destruct (equivalent_rhs3 ex3_box 2 _ _ _ _ r _ _ _ rhs1 rhs rhs0 0%Z 0%Z 0%Z Hd (ex3_unit _ ex3_e_unit) E F1 F F0 ex3_cell ex3_around) as [_ R].
    specialize (R 2%Z ltac:(lia)). rewrite (S1 2%Z ltac:(lia)) in R. rewrite V0 in R by (first [exact ex3_cell | lia]). cbn [Z.eqb Pos.eqb] in R.
    revert R. unfold tang, QuatFlow_Spec.dotv, div_plain3, diverg3, pdiff. rewrite !sum2. unfold ex3_q, ones, ex3_e.
    cbn [after before pick fst snd hx hy hz ex3_box Z.leb Z.compare Z.add Z.sub Z.opp Z.pos_sub Pos.add Pos.compare Pos.compare_cont vec2 ca cb].
    intro R. match type of R with 0 = ?x => replace x with (-1) in R by (field; lra) end. lra.
Qed.

(** * Fields uniform along z *)
Lemma slab3 : forall asserts asserts' symm use_gradq b d fcx fcy fz mob q rx ry rz old9 old4 old3 o3 o2 rhs rhs2,
  (symm = true -> multi d /\ use_gradq = false /\ rotations_ok b d (flat2 rx, flat2 ry, rz) /\ forall i j k, on_side b AZ i j k -> rz i j k = 1%Z) ->
  evaluateQuatRHS3 asserts symm use_gradq false b d (flat2 fcx, flat2 fcy, fz) (flat2 mob) (flat q) (flat2 rx, flat2 ry, rz) old9 old4 old3 = Some rhs ->
  QuatFlow_Model.evaluateQuatRHS asserts' symm use_gradq (slab_patch b d) fcx fcy mob q rx ry o3 o2 = Some rhs2 ->
  forall i j k, in_cells b i j k -> same d (rhs i j k) (rhs2 i j).
Proof.
  intros asserts asserts' symm use_gradq b d fcx fcy fz mob q rx ry rz old9 old4 old3 o3 o2 rhs rhs2 Hs E E2 i j k Hij m Hm.
  set (fc := (flat2 fcx, flat2 fcy, fz)) in *. set (r := (flat2 rx, flat2 ry, rz)) in *.
  assert (P : QuatFlow_Spec.in_patch (slab_patch b d) i j) by (split; cbn [slab_patch QuatFlow_Model.lo0 QuatFlow_Model.hi0 QuatFlow_Model.lo1 QuatFlow_Model.hi1]; box).
  assert (DP : forall l, div_plain3 b fc (flat q) i j k l = div_plain (slab_patch b d) fcx fcy q i j l).
  { intro l. unfold div_plain3, diverg3, div_plain, diverg, pdiff. cbn [after before pick fst snd fc]. unfold flat2, flat. rewrite !shift_plus.
    cbn [slab_patch QuatFlow_Model.h1 QuatFlow_Model.h2]. ring. }
  destruct symm.
  - destruct (Hs eq_refl) as (Hd & -> & Hr & Hz). clear Hs. destruct asserts; [rewrite aborts3 in E by auto; discriminate |].
    destruct asserts'; [rewrite default_aborts in E2 by exact Hd; discriminate |].
    assert (Hr2 : QuatFlow_Spec.rotations_ok (slab_patch b d) rx ry).
    { split; intros x y [H1 H2]; cbn [slab_patch QuatFlow_Model.lo0 QuatFlow_Model.hi0 QuatFlow_Model.lo1 QuatFlow_Model.hi1 QuatFlow_Model.depth] in *;
        [apply (Hr AX x y k) | apply (Hr AY x y k)]; box. }
    destruct (rhs_default3 b d fc (flat2 mob) (flat q) r old9 old4 old3 Hd Hr) as (t & E' & V & _). rewrite E in E'. injection E' as <-.
    destruct (rhs_default (slab_patch b d) fcx fcy mob q rx ry o3 o2 Hd Hr2) as (t & E' & V2 & _). rewrite E2 in E'. injection E' as <-.
    rewrite V, V2 by (auto; exact Hm). change (flat q i j k) with (q i j). change (flat2 mob i j k) with (mob i j). cbn [slab_patch QuatFlow_Model.depth]. f_equal.
    apply (tang_ext d (q i j)); [| exact Hm]. intros l Hl. rewrite DP.
    assert (Zr : forall k, on_side b AZ i j k -> sdiff d (flat q) r AZ i j k l = 0).
    { intros z H. unfold sdiff. cbn [pick snd r before]. rewrite Hz by exact H. rewrite image_one by auto. unfold flat. ring. }
    assert (Z0 : forall n v, same d v (fun _ => 0) -> same d (image d n v) (fun _ => 0)).
    { intros n v H l' Hl'. rewrite (image_ext _ _ _ _ Hd H l' Hl'). destruct Hd as [Hd | Hd]; rewrite Hd in *; cbn [image].
      - idx2 l' Hl'; cbn [comp2 quatmult2 ca cb]; ring.
      - idx4 l' Hl'; cbn [comp quatmult4 qa qb qc qd]; ring. }
    assert (Zr' : same d (sdiff d (flat q) r AZ i j (k + 1)%Z) (fun _ => 0)).
    { intros l' Hl'. unfold sdiff. cbn [pick snd r before]. rewrite Hz by box. rewrite image_one by auto. unfold flat. ring. }
    assert (DM : div_mixed3 b d fc (flat q) r i j k l = div_mixed (slab_patch b d) fcx fcy q rx ry i j l).
    { unfold div_mixed3, diverg3, div_mixed, diverg. cbn [after]. rewrite !Zr by box. unfold sdiff, sdx, sdy. cbn [before pick fst snd fc r].
      cbn [slab_patch QuatFlow_Model.h1 QuatFlow_Model.h2 QuatFlow_Model.depth]. repeat match goal with |- context [flat q ?x ?y ?z] => change (flat q x y z) with (q x y) end. unfold flat2. ring. }
    assert (DS : div_symm3 b d fc (flat q) r i j k l = div_symm (slab_patch b d) fcx fcy q rx ry i j l).
    { unfold div_symm3, diverg3, div_symm, diverg. cbn [after]. rewrite Zr by box. rewrite (Z0 _ _ Zr' l Hl). unfold sdiff, sdx, sdy. cbn [before pick fst snd fc r].
      cbn [slab_patch QuatFlow_Model.h1 QuatFlow_Model.h2 QuatFlow_Model.depth].
      repeat match goal with |- context [flat q ?x ?y ?z] => change (flat q x y z) with (q x y) end. unfold flat2. ring. }
    rewrite DM, DS. reflexivity.
  - destruct (rhs_plain3 asserts use_gradq b d fc (flat2 mob) (flat q) r old9 old4 old3) as (t & E' & V & _). rewrite E in E'. injection E' as <-.
    destruct (rhs_plain asserts' use_gradq (slab_patch b d) fcx fcy mob q rx ry o3 o2) as (t & E' & V2 & _). rewrite E2 in E'. injection E' as <-.
    rewrite V, V2 by (auto; exact Hm). change (flat q i j k) with (q i j). change (flat2 mob i j k) with (mob i j). cbn [slab_patch QuatFlow_Model.depth].
    destruct (d =? 1)%Z; [rewrite DP; reflexivity |]. f_equal. apply (tang_ext d (q i j)); [| exact Hm]. intros l Hl. apply DP.
Qed.

Lemma slab_refuted3 : exists b d q g gx gy r rx ry fcx fcy fz mob old9 old4 old3 o3 o2 rhs rhs2, multi d /\ unit_field b d (flat q) /\ no_ties b d (flat q) /\
  quat_symm_rotation3 b d (flat q) g = Some r /\
  QuatFlow_Model.quat_symm_rotation_x (slab_patch b d) q gx = Some rx /\ QuatFlow_Model.quat_symm_rotation_y (slab_patch b d) q gy = Some ry /\
  evaluateQuatRHS3 false true true false b d (flat2 fcx, flat2 fcy, fz) (flat2 mob) (flat q) r old9 old4 old3 = Some rhs /\
  QuatFlow_Model.evaluateQuatRHS false true true (slab_patch b d) fcx fcy mob q rx ry o3 o2 = Some rhs2 /\
  exists i j k, in_cells b i j k /\ ~ same d (rhs i j k) (rhs2 i j).
Proof.
  assert (Hw : ca ex3_w * ca ex3_w + cb ex3_w * cb ex3_w = 1) by (unfold ex3_w; cbn [ca cb]; lra).
  assert (Hd : multi 2) by (left; reflexivity).
  set (q := (fun i _ m => if (1 <=? i)%Z then vec2 ex3_w m else vec2 (Q2 1 0) m) : arr3).
  set (p := slab_patch ex3_box 2).
  assert (Hu : QuatFlow_Spec.unit_field p q) by (intros i j [H1 H2]; apply (ex3_unit ex3_w Hw i j 0%Z); cbn in H1, H2; unfold in_ghosts, in_box3; cbn; lia).
  destruct (rotations_found3 ex3_box 2 (ex3_q ex3_w) guess1 (or_introl Hd) (fun _ => ex3_unit _ Hw)) as (r & E & _).
  destruct (ex3_rhs ex3_w 2 guess1 r Hw near_w E) as (rhs & F & A1 & A2).
  destruct (rotations_found p q (fun _ _ => 1%Z) (or_introl Hd) (fun _ => Hu)) as [[rx Ex] [ry Ey]].
  pose proof (rotation_x_closest p q _ rx (or_introl Hd) (fun _ => Hu) Ex) as Cx.
  pose proof (rotation_y_closest p q _ ry (or_introl Hd) (fun _ => Hu) Ey) as Cy.
  assert (Hr : QuatFlow_Spec.rotations_ok p rx ry) by (split; intros a b Hab; [apply (Cx a b Hab) | apply (Cy a b Hab)]).
  assert (X0 : rx 0%Z 0%Z = 1%Z) by (apply near_one; apply (Cx 0 0)%Z; split; cbn; lia).
  assert (X1 : rx 1%Z 0%Z = 2%Z) by (apply near_w; apply (Cx 1 0)%Z; split; cbn; lia).
  assert (Y0 : ry 0%Z 0%Z = 1%Z) by (apply near_one; apply (Cy 0 0)%Z; split; cbn; lia).
  assert (Y1 : ry 0%Z 1%Z = 1%Z) by (apply near_one; apply (Cy 0 1)%Z; split; cbn; lia).
  destruct (rhs_symm false p (fun _ _ => -1) (fun _ _ => -1) (fun _ _ => 1) q rx ry (fun _ _ _ => 0) (fun _ _ => 0) Hd Hr) as (rhs2 & F2 & V2 & _).
  exists ex3_box, 2%Z, q, guess1, (fun _ _ => 1%Z), (fun _ _ => 1%Z), r, rx, ry, (fun _ _ => -1), (fun _ _ => -1), (fun _ _ _ => -1), (fun _ _ => 1), zero9, zero4,
    (fun _ _ _ => 0), (fun _ _ _ => 0), (fun _ _ => 0), rhs, rhs2.
  split; [exact Hd |]. split; [apply (ex3_unit ex3_w); exact Hw |]. split; [apply (ex3_ties ex3_w); auto |]. split; [exact E |]. split; [exact Ex |]. split; [exact Ey |].
  split; [exact F |]. split; [exact F2 |]. exists 0%Z, 0%Z, 0%Z. split; [exact ex3_cell |]. intro H. specialize (H 2%Z ltac:(lia)). rewrite A2 in H.
  rewrite V2 in H by (first [split; cbn; lia | cbn; lia]). revert H. change (QuatFlow_Model.depth p) with 2%Z.
  assert (Dv : forall m, (1 <= m <= 2)%Z -> div_symm p (fun _ _ => -1) (fun _ _ => -1) q rx ry 0 0 m = - comp2 (quatmult2 (Q2 (-3 / 5) (-1 / 5)) (Q2 0 (-1))) m).
  { intros m Hm. unfold div_symm, diverg, sdx, sdy. change (QuatFlow_Model.depth p) with 2%Z. cbn [Z.add Pos.add]. rewrite X0, X1, Y0, Y1.
    change (QuatFlow_Model.h1 p) with 1. change (QuatFlow_Model.h2 p) with 1. change (inv_index 2 2) with 4%Z. change (inv_index 2 1) with 1%Z.
    rewrite !(image_one 2) by auto. cbn [Z.sub Z.add Z.opp Z.pos_sub]. destruct qr2_val as (_ & E2 & _ & E4). cbn [image]. rewrite E2, E4. unfold q, ex3_w.
    cbn [Z.leb Z.compare Pos.compare Pos.compare_cont vec2 ca cb quatmult2]. idx2 m Hm; cbn [comp2 ca cb quatmult2 vec2]; field. }
  unfold tang, QuatFlow_Spec.dotv. rewrite !sum2, !Dv by lia. unfold q. cbn [Z.leb Z.compare vec2 ca cb comp2 quatmult2].
  destruct qr2_val as (_ & E2 & _). cbn [image]. rewrite E2. unfold ex3_w. cbn [vec2 ca cb comp2 quatmult2].
  intro H. match type of H with ?x = ?y => replace x with (-1 / 5) in H by field; replace y with (3 / 5) in H by (field; lra) end. lra.
Qed.

(** * Axes renamed in cycle *)
Definition turned (a : axis) : axis := match a with AX => AY | AY => AZ | AZ => AX end.
Lemma turn_diverg : forall b fc u v U V i j k m, (forall a, U a = u (turned a)) -> (forall a, V a = v (turned a)) ->
  diverg3 (turn_box b) (turn_triple fc) U V i j k m = diverg3 b fc u v k i j m.
Proof.
  intros b [[fx fy] fz] u v U V i j k m HU HV. unfold diverg3. rewrite !HU, !HV. cbn [turned turn_triple turn_box pick fst snd after turn3 hx hy hz]. unfold turn3. ring.
Qed.
Lemma turn_sdiff : forall d q r a i j k, sdiff d (turn4 q) (turn_triple r) a i j k = sdiff d q r (turned a) k i j.
Proof. intros d q [[rx ry] rz] [] i j k; reflexivity. Qed.
Lemma turn_rot : forall b d r, rotations_ok b d r -> rotations_ok (turn_box b) d (turn_triple r).
Proof.
  intros b d [[rx ry] rz] H [] i j k Hs; cbn [turn_triple pick fst snd]; unfold turn3;
    [apply (H AY k i j) | apply (H AZ k i j) | apply (H AX k i j)]; unfold on_side, in_box3, turn_box in *; cbn [xl xu yl yu zl zu] in Hs; lia.
Qed.
Lemma turn_cells : forall b i j k, in_cells (turn_box b) i j k -> in_cells b k i j.
Proof. intros b i j k H. unfold in_cells, in_box3, turn_box in *. cbn [xl xu yl yu zl zu] in H. lia. Qed.
Lemma turn_rhs3 : forall asserts symm use_gradq b d fc mob q r old9 old4 old3 old9' old4' old3' rhs,
  (symm = true -> multi d /\ rotations_ok b d r) ->
  evaluateQuatRHS3 asserts symm use_gradq false b d fc mob q r old9 old4 old3 = Some rhs ->
  exists rhs', evaluateQuatRHS3 asserts symm use_gradq false (turn_box b) d (turn_triple fc) (turn3 mob) (turn4 q) (turn_triple r) old9' old4' old3' = Some rhs' /\
    forall i j k, in_cells (turn_box b) i j k -> same d (rhs' i j k) (turn4 rhs i j k).
Proof.
  intros asserts symm use_gradq b d fc mob q r old9 old4 old3 old9' old4' old3' rhs Hs E.
  assert (DP : forall i j k m, div_plain3 (turn_box b) (turn_triple fc) (turn4 q) i j k m = div_plain3 b fc q k i j m).
  { intros i j k m. apply turn_diverg; intros []; reflexivity. }
  destruct symm.
  - destruct (Hs eq_refl) as [Hd Hr]. clear Hs. pose proof (turn_rot b d r Hr) as Hr'. destruct asserts; [rewrite aborts3 in E by auto; discriminate |].
    assert (DM : forall i j k m, div_mixed3 (turn_box b) d (turn_triple fc) (turn4 q) (turn_triple r) i j k m = div_mixed3 b d fc q r k i j m).
    { intros i j k m. apply turn_diverg; intros []; cbn [after turned]; rewrite ?turn_sdiff; reflexivity. }
    assert (DS : forall i j k m, div_symm3 (turn_box b) d (turn_triple fc) (turn4 q) (turn_triple r) i j k m = div_symm3 b d fc q r k i j m).
    { intros i j k m. apply turn_diverg; intros []; cbn [after turned]; rewrite ?turn_sdiff; reflexivity. }
    destruct use_gradq.
    + destruct (rhs_mixed3 b d fc mob q r old9 old4 old3 Hd Hr) as (t & E' & V & _). rewrite E in E'. injection E' as <-.
      destruct (rhs_mixed3 (turn_box b) d (turn_triple fc) (turn3 mob) (turn4 q) (turn_triple r) old9' old4' old3' Hd Hr') as (rhs' & E' & V' & _).
      exists rhs'. split; [exact E' |]. intros i j k H m Hm. unfold turn4 at 1. rewrite V', V by (auto; apply turn_cells; auto).
      unfold turn3. f_equal. apply (tang_ext d (q k i j)); [intros l Hl; apply DM | exact Hm].
    + destruct (rhs_default3 b d fc mob q r old9 old4 old3 Hd Hr) as (t & E' & V & _). rewrite E in E'. injection E' as <-.
      destruct (rhs_default3 (turn_box b) d (turn_triple fc) (turn3 mob) (turn4 q) (turn_triple r) old9' old4' old3' Hd Hr') as (rhs' & E' & V' & _).
      exists rhs'. split; [exact E' |]. intros i j k H m Hm. unfold turn4 at 1. rewrite V', V by (auto; apply turn_cells; auto).
      unfold turn3. f_equal. apply (tang_ext d (q k i j)); [intros l Hl; rewrite DM, DS, DP; reflexivity | exact Hm].
  - destruct (rhs_plain3 asserts use_gradq b d fc mob q r old9 old4 old3) as (t & E' & V & _). rewrite E in E'. injection E' as <-.
    destruct (rhs_plain3 asserts use_gradq (turn_box b) d (turn_triple fc) (turn3 mob) (turn4 q) (turn_triple r) old9' old4' old3') as (rhs' & E' & V' & _).
    exists rhs'. split; [exact E' |]. intros i j k H m Hm. unfold turn4 at 1. rewrite V', V by (auto; apply turn_cells; auto).
    destruct (d =? 1)%Z; unfold turn3; f_equal; [apply DP |]. apply (tang_ext d (q k i j)); [intros l Hl; apply DP | exact Hm].
Qed.

(** * Face coefficients *)
Lemma grad_norm2_val : forall d g i j k, grad_norm2 d g i j k = norm3 d g i j k.
Proof.
  intros d [[gx gy] gz] i j k. unfold grad_norm2, norm3. cbn [pick fst snd]. rewrite !loop_sum. unfold QuatFlow_Spec.dotv.
  rewrite (sumZ_ext 1 d (fun m => gx i j k m ^ 2) (fun m => gx i j k m * gx i j k m)) by (intros; ring).
  rewrite (sumZ_ext 1 d (fun m => gy i j k m ^ 2) (fun m => gy i j k m * gy i j k m)) by (intros; ring).
  rewrite (sumZ_ext 1 d (fun m => gz i j k m ^ 2) (fun m => gz i j k m * gz i j k m)) by (intros; ring). ring.
Qed.
Lemma coef_val3 : forall b d eps factor floor ft i1 i2 avg phi temp g old (C : axis -> Z -> Z -> Z -> R),
  (forall a i j k, on_face b a i j k -> face_coef eps factor floor ft i1 i2 avg (before a phi i j k) (phi i j k) (before a temp i j k) (temp i j k)
     (norm3 d (pick a g) i j k) = Some (C a i j k)) ->
  exists f, compute_face_coef3 b d eps factor floor ft i1 i2 avg phi temp g old = Some f /\
    forall a i j k, on_face b a i j k -> pick a f i j k = C a i j k.
Proof.
  intros b d eps factor floor ft i1 i2 avg phi temp [[gx gy] gz] [[ox oy] oz] C H. unfold compute_face_coef3.
  pose proof (fun i j k => H AX i j k) as HX. pose proof (fun i j k => H AY i j k) as HY. pose proof (fun i j k => H AZ i j k) as HZ. cbn [before pick fst snd] in HX, HY, HZ.
  unfold oxfaces3, oyfaces3, ozfaces3.
  match goal with |- context [ocells3 ?l0 ?u0 ?l1 ?u1 ?l2 ?u2 ?body ox] => destruct (ocells3_upd3 l0 u0 l1 u1 l2 u2 body (C AX) ox) as (sx & Ex & Vx) end;
    [intros i j k s Hf; rewrite grad_norm2_val, HX by exact Hf; reflexivity |].
  match goal with |- context [ocells3 ?l0 ?u0 ?l1 ?u1 ?l2 ?u2 ?body oy] => destruct (ocells3_upd3 l0 u0 l1 u1 l2 u2 body (C AY) oy) as (sy & Ey & Vy) end;
    [intros i j k s Hf; rewrite grad_norm2_val, HY by exact Hf; reflexivity |].
  match goal with |- context [ocells3 ?l0 ?u0 ?l1 ?u1 ?l2 ?u2 ?body oz] => destruct (ocells3_upd3 l0 u0 l1 u1 l2 u2 body (C AZ) oz) as (sz & Ez & Vz) end;
    [intros i j k s Hf; rewrite grad_norm2_val, HZ by exact Hf; reflexivity |].
  rewrite Ex, Ey, Ez. exists (sx, sy, sz). split; [reflexivity |]. intros [] i j k Hf; cbn [pick fst snd];
    [rewrite Vx | rewrite Vy | rewrite Vz]; rewrite !inbT by box; reflexivity.
Qed.
Lemma face_coefs3 : forall b d eps factor floor ft i1 i2 avg phi temp g old, coef_ok ft i1 i2 avg -> 0 <= factor -> 0 < floor ->
  (forall i j k, in_ghosts b i j k -> 0 <= phi i j k <= 1 /\ 0 <= temp i j k) ->
  exists f, compute_face_coef3 b d eps factor floor ft i1 i2 avg phi temp g old = Some f /\
    forall a i j k, on_face b a i j k ->
      let t := (before a temp i j k + temp i j k) / 2 in let n := sqrt (norm3 d (pick a g) i j k) in
      pick a f i j k <= 0 /\ - pick a f i j k <= factor * t / floor + eps * eps /\ - pick a f i j k * n <= factor * t + eps * eps * n.
Proof.
  intros b d eps factor floor ft i1 i2 avg phi temp g old (H1 & H2 & H3 & H4) Hf Hfl Hp.
  assert (B : forall a i j k, on_face b a i j k -> exists c, face_coef eps factor floor ft i1 i2 avg (before a phi i j k) (phi i j k) (before a temp i j k) (temp i j k)
     (norm3 d (pick a g) i j k) = Some c /\ c <= 0 /\ - c <= factor * ((before a temp i j k + temp i j k) / 2) / floor + eps * eps /\
     - c * sqrt (norm3 d (pick a g) i j k) <= factor * ((before a temp i j k + temp i j k) / 2) + eps * eps * sqrt (norm3 d (pick a g) i j k)).
  { intros a i j k H. assert (G1 : in_ghosts b i j k) by (destruct a; box). destruct (Hp i j k G1) as [A1 A2].
    assert (G2 : 0 <= before a phi i j k <= 1 /\ 0 <= before a temp i j k) by (destruct a; cbn [before]; apply Hp; box). destruct G2 as [A3 A4].
    apply face_coef_bounds; auto. unfold norm3. repeat apply Rplus_le_le_0_compat; apply dotv_self_nonneg. }
  set (C := fun a i j k => match face_coef eps factor floor ft i1 i2 avg (before a phi i j k) (phi i j k) (before a temp i j k) (temp i j k)
     (norm3 d (pick a g) i j k) with Some c => c | None => 0 end).
  destruct (coef_val3 b d eps factor floor ft i1 i2 avg phi temp g old C) as (f & E & V).
  { intros a i j k H. unfold C. destruct (B a i j k H) as (c & -> & _). reflexivity. }
  exists f. split; [exact E |]. intros a i j k H. rewrite V by auto. unfold C. destruct (B a i j k H) as (c & -> & H'). exact H'.
Qed.
Lemma regauge_coefs3 : forall b d S q q' g g' r r' old9 old4 s s' n n' eps factor floor ft i1 i2 avg phi temp old f f',
  multi d -> unit_field b d q -> regauged b d S q q' -> no_ties b d q ->
  coef_ok ft i1 i2 avg -> 0 <= factor -> 0 < floor -> (forall i j k, in_ghosts b i j k -> 0 <= phi i j k <= 1 /\ 0 <= temp i j k) ->
  quat_symm_rotation3 b d q g = Some r -> quat_symm_rotation3 b d q' g' = Some r' ->
  quatdiffs_symm3 b d q r old4 = Some s -> quatdiffs_symm3 b d q' r' old4 = Some s' ->
  quatgrad_side_symm3 b d s r old9 = Some n -> quatgrad_side_symm3 b d s' r' old9 = Some n' ->
  compute_face_coef3 b d eps factor floor ft i1 i2 avg phi temp n old = Some f ->
  compute_face_coef3 b d eps factor floor ft i1 i2 avg phi temp n' old = Some f' ->
  forall a i j k, on_face b a i j k -> pick a f' i j k = pick a f i j k.
Proof.
  intros b d S q q' g g' r r' old9 old4 s s' n n' eps factor floor ft i1 i2 avg phi temp old f f' Hd Hu Hg Ht (H1 & H2 & H3 & H4) Hf Hfl Hp E E' X X' N N' F F' a i j k H.
  destruct (regauge_squares3 b d S q q' g g' r r' Hd Hu Hg Ht E E') as (Hr & Hr' & _).
  destruct (cell_grad_symm3 b d s r old4 Hd Hr) as (c & C1 & _). destruct (cell_grad_symm3 b d s' r' old4 Hd Hr') as (c' & C2 & _).
  destruct (regauge_moduli3 b d S q q' g g' r r' old9 old4 (fun _ _ _ => 0) s s' c c' n n' Hd Hu Hg Ht E E' X X' C1 C2 N N') as [_ M].
  assert (B : forall (n : sides3) a i j k, on_face b a i j k -> exists c, face_coef eps factor floor ft i1 i2 avg (before a phi i j k) (phi i j k) (before a temp i j k) (temp i j k)
     (norm3 d (pick a n) i j k) = Some c).
  { intros n0 a0 x y z H0. assert (G1 : in_ghosts b x y z) by (destruct a0; box). destruct (Hp x y z G1) as [A1 A2].
    assert (G2 : 0 <= before a0 phi x y z <= 1 /\ 0 <= before a0 temp x y z) by (destruct a0; cbn [before]; apply Hp; box). destruct G2 as [A3 A4].
    destruct (face_coef_bounds eps factor floor ft i1 i2 avg (before a0 phi x y z) (phi x y z) (before a0 temp x y z) (temp x y z) (norm3 d (pick a0 n0) x y z)) as (c0 & E0 & _); auto.
    - unfold norm3. repeat apply Rplus_le_le_0_compat; apply dotv_self_nonneg.
    - exists c0. exact E0. }
  set (C := fun (n : sides3) a i j k => match face_coef eps factor floor ft i1 i2 avg (before a phi i j k) (phi i j k) (before a temp i j k) (temp i j k)
     (norm3 d (pick a n) i j k) with Some c => c | None => 0 end).
  assert (CV : forall n f, compute_face_coef3 b d eps factor floor ft i1 i2 avg phi temp n old = Some f -> pick a f i j k = C n a i j k).
  { intros n0 f0 F0. destruct (coef_val3 b d eps factor floor ft i1 i2 avg phi temp n0 old (C n0)) as (f1 & E1 & V).
    - intros a0 x y z H0. unfold C. destruct (B n0 a0 x y z H0) as (c0 & ->). reflexivity.
    - rewrite F0 in E1. injection E1 as <-. apply V; auto. }
  rewrite (CV n f F), (CV n' f' F'). unfold C. rewrite M by auto. reflexivity.
Qed.

(** * Projection *)
Lemma cell_step3 : forall b (body : Z -> Z -> Z -> arr4 -> arr4) s i j k m, in_cells b i j k ->
  (forall x y z s, (x <> i \/ y <> j \/ z <> k)%Z -> forall l, body x y z s i j k l = s i j k l) ->
  exists s0, (forall l, s0 i j k l = s i j k l) /\ do_cells3 (xl b) (xu b) (yl b) (yu b) (zl b) (zu b) body s i j k m = body i j k s0 i j k m.
Proof.
  intros b body s i j k m Hij H.
  destruct (cells3_once _ (fun s s' : arr4 => forall l, s' i j k l = s i j k l) (xl b) (xu b) (yl b) (yu b) (zl b) (zu b) i j k body s
    (fun _ _ => eq_refl) (fun a b c A B l => eq_trans (B l) (A l)) Hij) as (s0 & H0 & H1).
  - intros x y z s' _ Hne l. apply H. lia.
  - exists s0. split; [exact H0 | apply H1].
Qed.
Lemma put3_far : forall d x y z g s i j k l, (x <> i \/ y <> j \/ z <> k)%Z -> put3 d x y z g s i j k l = s i j k l.
Proof.
  intros d x y z g s i j k l H. rewrite put3_val. destruct (Z.eqb_spec i x); destruct (Z.eqb_spec j y); destruct (Z.eqb_spec k z); cbn [andb]; auto; lia.
Qed.
Lemma project_ok3 : forall b d q corr err i j k, in_cells b i j k -> ~ same d (q i j k) (fun _ => 0) ->
  let corr' := project_corr3 b d q corr in let err' := project_err3 b d q err in
  dotv d (fun m => q i j k m + corr' i j k m) (fun m => q i j k m + corr' i j k m) = 1 /\
  (exists s, 0 < s /\ same d (fun m => q i j k m + corr' i j k m) (fun m => s * q i j k m)) /\
  dotv d (q i j k) (err' i j k) = 0 /\
  (exists s, same d (err' i j k) (fun m => err i j k m - s * q i j k m)) /\
  (dotv d (q i j k) (err i j k) = 0 -> same d (err' i j k) (err i j k)).
Proof.
  intros b d q corr err i j k Hij Hq corr' err'.
  assert (Hpos : 0 < dotv d (q i j k) (q i j k)).
  { destruct (dotv_self_nonneg d (q i j k)) as [| E]; auto. exfalso. apply Hq. apply dotv_self_zero. auto. }
  destruct (scale_val d (q i j k) Hpos) as (_ & Hs & Hs1). set (s := project_scale d (q i j k)) in *.
  assert (VC : same d (fun m => q i j k m + corr' i j k m) (fun m => s * q i j k m)).
  { intros m Hm. unfold corr', project_corr3.
    match goal with |- context [do_cells3 _ _ _ _ _ _ ?body corr i j k m] =>
      destruct (cell_step3 b body corr i j k m Hij) as (s0 & _ & E0); [| etransitivity; [apply (f_equal (Rplus (q i j k m))); exact E0 |]] end.
    - intros x y z s' Hne l. cbv zeta. rewrite !put3_far by auto. reflexivity.
    - cbv zeta. rewrite !put3_val, !Z.eqb_refl, inbT by auto. cbn [andb]. fold s. ring. }
  assert (VE : same d (err' i j k) (fun m => err i j k m - s * s * dotv d (q i j k) (err i j k) * q i j k m)).
  { intros m Hm. unfold err', project_err3.
    match goal with |- context [do_cells3 _ _ _ _ _ _ ?body err i j k m] =>
      destruct (cell_step3 b body err i j k m Hij) as (s0 & H0 & E0); [| etransitivity; [exact E0 |]] end.
    - intros x y z s' Hne l. cbv zeta. apply put3_far; auto.
    - cbv zeta. rewrite put3_val, !Z.eqb_refl, inbT by auto. cbn [andb]. rewrite H0, accum_sum. fold s.
      rewrite (sumZ_ext 1 d _ (fun m => s * (q i j k m * err i j k m))) by (intros; rewrite H0; ring). rewrite sumZ_scal. unfold QuatFlow_Spec.dotv. ring. }
  split; [| split; [| split; [| split]]].
  - rewrite (dotv_ext _ _ _ _ _ VC VC), dotv_scal, dotv_sym, dotv_scal. lra.
  - exists s. split; auto.
  - rewrite (dotv_ext _ (q i j k) (q i j k) _ _ (fun _ _ => eq_refl) VE), dotv_minus, dotv_scal.
    transitivity ((1 - s * s * dotv d (q i j k) (q i j k)) * dotv d (q i j k) (err i j k)); [ring | rewrite Hs1; ring].
  - exists (s * s * dotv d (q i j k) (err i j k)). exact VE.
  - intros E m Hm. rewrite VE by auto. rewrite E. ring.
Qed.
