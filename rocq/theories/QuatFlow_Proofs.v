From Coq Require Import Reals ZArith List Bool Ascii Lra Lia.
From Verif Require Import Grid_Model Grid_Spec Grid_Proofs Functions_Model Functions_Proofs Quat_Model Quat_Spec Quat_Proofs Quat_DerivProofs
  QuatFlow_Model QuatFlow_Spec.
Import ListNotations.
Open Scope R_scope.

(** * Loops *)
Lemma put_val : forall d i j g s a b c,
  put d i j g s a b c = if ((a =? i)%Z && (b =? j)%Z && inb 1 d c)%bool then g c (s a b c) else s a b c.
Proof.
  intros d i j g s a b c. unfold put.
  assert (G : forall lo hi, do_loop lo hi (fun m s => upd3 s i j m (g m (s i j m))) s a b c =
    if ((a =? i)%Z && (b =? j)%Z && inb lo hi c)%bool then g c (s a b c) else s a b c); [| apply G].
  apply Zinterval_ind.
  - intros lo hi H. rewrite do_loop_empty by auto. destruct (inb_spec lo hi c); [lia |]. rewrite andb_false_r. reflexivity.
  - intros lo hi H IH. rewrite do_loop_snoc by auto. unfold upd3 at 1.
    destruct (Z.eqb_spec a i) as [-> |]; cbn [andb]; [| rewrite IH; reflexivity].
    destruct (Z.eqb_spec b j) as [-> |]; cbn [andb]; [| rewrite IH; reflexivity].
    destruct (Z.eqb_spec c hi) as [-> |].
    + rewrite IH. destruct (inb_spec lo (hi - 1) hi); [lia |]. destruct (inb_spec lo hi hi); [reflexivity | lia].
    + rewrite IH. destruct (inb_spec lo (hi - 1) c); destruct (inb_spec lo hi c); try lia; reflexivity.
Qed.

Lemma mcells_val : forall d lo0 hi0 lo1 hi1 g s a b c,
  mcells d lo0 hi0 lo1 hi1 g s a b c =
  if (inb lo0 hi0 a && inb lo1 hi1 b && inb 1 d c)%bool then g a b c (s a b c) else s a b c.
Proof.
  intros d lo0 hi0 lo1 hi1 g s a b c. unfold mcells.
  assert (G : forall lo hi, do_loop lo hi (fun m => do_cells lo0 hi0 lo1 hi1 (fun i j s => upd3 s i j m (g i j m (s i j m)))) s a b c =
    if (inb lo0 hi0 a && inb lo1 hi1 b && inb lo hi c)%bool then g a b c (s a b c) else s a b c); [| apply G].
  apply Zinterval_ind.
  - intros lo hi H. rewrite do_loop_empty by auto. destruct (inb_spec lo hi c); [lia |]. rewrite andb_false_r. reflexivity.
  - intros lo hi H IH. rewrite do_loop_snoc by auto. rewrite (plane_loop3 lo0 hi0 lo1 hi1 hi (fun i j => g i j hi)).
    rewrite IH. destruct (inb lo0 hi0 a); cbn [andb]; [| reflexivity]. destruct (inb lo1 hi1 b); cbn [andb]; [| reflexivity].
    destruct (Z.eqb_spec c hi) as [-> |].
    + destruct (inb_spec lo (hi - 1) hi); [lia |]. destruct (inb_spec lo hi hi); [reflexivity | lia].
    + destruct (inb_spec lo (hi - 1) c); destruct (inb_spec lo hi c); try lia; reflexivity.
Qed.

(** a loop none of whose bodies stops is the loop without stops *)
Lemma oloop_some : forall S lo hi (body : Z -> S -> option S) (f : Z -> S -> S) s,
  (forall i s, (lo <= i <= hi)%Z -> body i s = Some (f i s)) ->
  do_loop lo hi (fun i os => match os with None => None | Some s => body i s end) (Some s) = Some (do_loop lo hi f s).
Proof.
  intros S lo hi body f s. revert lo hi.
  apply (Zinterval_ind (fun lo hi => (forall i s, (lo <= i <= hi)%Z -> body i s = Some (f i s)) ->
    do_loop lo hi (fun i os => match os with None => None | Some s => body i s end) (Some s) = Some (do_loop lo hi f s))).
  - intros lo hi H _. rewrite !do_loop_empty by auto. reflexivity.
  - intros lo hi H IH Hb. rewrite (do_loop_snoc (option S) lo hi), (do_loop_snoc S lo hi) by auto. rewrite IH by (intros; apply Hb; lia). apply Hb. lia.
Qed.
Lemma ocells_some : forall S lo0 hi0 lo1 hi1 (body : Z -> Z -> S -> option S) (f : Z -> Z -> S -> S) s,
  (forall i j s, in_box lo0 hi0 lo1 hi1 i j -> body i j s = Some (f i j s)) ->
  ocells lo0 hi0 lo1 hi1 body s = Some (do_cells lo0 hi0 lo1 hi1 f s).
Proof.
  intros S lo0 hi0 lo1 hi1 body f s H. unfold ocells, do_cells.
  rewrite (do_loop_ext _ lo1 hi1 _ (fun j os => match os with None => None | Some s => Some (do_loop lo0 hi0 (fun i => f i j) s) end)).
  - apply (oloop_some _ _ _ (fun j s => Some (do_loop lo0 hi0 (fun i => f i j) s))). reflexivity.
  - intros j [s' |] Hj.
    + apply (oloop_some _ _ _ (fun i s => body i j s)). intros i s0 Hi. apply H. split; auto.
    + clear H. revert lo0 hi0. apply Zinterval_ind; intros; [apply do_loop_empty; auto |].
      rewrite do_loop_snoc by auto. rewrite H0. reflexivity.
Qed.
Lemma put_cells_val : forall d lo0 hi0 lo1 hi1 (g : Z -> Z -> Z -> R -> R) s a b c,
  do_cells lo0 hi0 lo1 hi1 (fun i j s => put d i j (g i j) s) s a b c =
  if (inb lo0 hi0 a && inb lo1 hi1 b && inb 1 d c)%bool then g a b c (s a b c) else s a b c.
Proof.
  intros d lo0 hi0 lo1 hi1 g s a b c.
  destruct (inb_spec lo0 hi0 a) as [Ha |]; cbn [andb].
  1: destruct (inb_spec lo1 hi1 b) as [Hb |]; cbn [andb].
  1: { destruct (cells_once _ (fun s s' : arr3 => forall c, s' a b c = s a b c) lo0 hi0 lo1 hi1 a b (fun i j s => put d i j (g i j) s) s)
         as (s0 & H0 & H1); auto.
       - intros x y z H1 H2 k. rewrite H2. apply H1.
       - split; auto.
       - intros i j s' Hij Hne k. rewrite put_val. destruct (Z.eqb_spec a i); destruct (Z.eqb_spec b j); cbn [andb]; auto. lia.
       - cbn beta in H1. rewrite H1, put_val, !Z.eqb_refl, H0. reflexivity. }
  all: apply (cells_never _ (fun s s' : arr3 => s' a b c = s a b c)); auto; try congruence;
    intros i j s' [Hi Hj]; rewrite put_val; destruct (Z.eqb_spec a i); destruct (Z.eqb_spec b j); cbn [andb]; auto; lia.
Qed.
Lemma ocells_put : forall d lo0 hi0 lo1 hi1 body (g : Z -> Z -> Z -> R -> R) s,
  (forall i j s, in_box lo0 hi0 lo1 hi1 i j -> body i j s = Some (put d i j (g i j) s)) ->
  exists s', ocells lo0 hi0 lo1 hi1 body s = Some s' /\ forall a b c, s' a b c =
  if (inb lo0 hi0 a && inb lo1 hi1 b && inb 1 d c)%bool then g a b c (s a b c) else s a b c.
Proof.
  intros d lo0 hi0 lo1 hi1 body g s H.
  exists (do_cells lo0 hi0 lo1 hi1 (fun i j s => put d i j (g i j) s) s). split; [apply ocells_some; auto |].
  intros. apply put_cells_val.
Qed.
Lemma ocells_upd2 : forall lo0 hi0 lo1 hi1 body (g : Z -> Z -> R) s,
  (forall i j s, in_box lo0 hi0 lo1 hi1 i j -> body i j s = Some (upd2 s i j (g i j))) ->
  exists s', ocells lo0 hi0 lo1 hi1 body s = Some s' /\ forall a b, s' a b =
  if (inb lo0 hi0 a && inb lo1 hi1 b)%bool then g a b else s a b.
Proof.
  intros lo0 hi0 lo1 hi1 body g s H.
  exists (do_cells lo0 hi0 lo1 hi1 (fun i j s => upd2 s i j (g i j)) s). split; [apply ocells_some; auto |].
  intros. apply (cells_loop lo0 hi0 lo1 hi1 (fun i j _ => g i j)).
Qed.
Lemma ocells_iupd : forall lo0 hi0 lo1 hi1 body (P : Z -> Z -> Z -> Prop) (s : iarr),
  (forall i j s, in_box lo0 hi0 lo1 hi1 i j -> exists n, body i j s = Some (iupd s i j n) /\ P i j n) ->
  exists s', ocells lo0 hi0 lo1 hi1 body s = Some s' /\ forall a b, in_box lo0 hi0 lo1 hi1 a b -> P a b (s' a b).
Proof.
  intros lo0 hi0 lo1 hi1 body P s H.
  set (f := fun i j s => match body i j s with Some s' => s' | None => s end).
  exists (do_cells lo0 hi0 lo1 hi1 f s). split.
  - apply ocells_some. intros i j s' Hij. destruct (H i j s' Hij) as (n & E & _). unfold f. rewrite E. reflexivity.
  - intros a b Hab.
    destruct (cells_once _ (fun s s' : iarr => s' a b = s a b) lo0 hi0 lo1 hi1 a b f s) as (s0 & H0 & H1); auto; try congruence.
    + intros i j s' Hij Hne. destruct (H i j s' Hij) as (n & E & _). unfold f. rewrite E. unfold iupd.
      destruct (Z.eqb_spec a i); destruct (Z.eqb_spec b j); cbn [andb]; auto; lia.
    + rewrite H1. destruct (H a b s0 Hab) as (n & E & HP). unfold f. rewrite E. unfold iupd. rewrite !Z.eqb_refl. exact HP.
Qed.
Lemma inb_true : forall lo hi i, (lo <= i <= hi)%Z -> inb lo hi i = true.
Proof. intros lo hi i H. destruct (inb_spec lo hi i); auto; lia. Qed.
Lemma inb_false : forall lo hi i, ~ (lo <= i <= hi)%Z -> inb lo hi i = false.
Proof. intros lo hi i H. destruct (inb_spec lo hi i); auto; lia. Qed.

(** * Scalar products *)
Lemma dotv_ext : forall d v v' w w', same d v v' -> same d w w' -> dotv d v w = dotv d v' w'.
Proof. intros d v v' w w' H1 H2. apply sumZ_ext. intros m Hm. rewrite H1, H2 by auto. reflexivity. Qed.
Lemma dotv_sym : forall d v w, dotv d v w = dotv d w v.
Proof. intros. apply sumZ_ext. intros; ring. Qed.
Lemma dotv_plus : forall d v w x, dotv d v (fun m => w m + x m) = dotv d v w + dotv d v x.
Proof. intros. unfold dotv. rewrite <- sumZ_plus. apply sumZ_ext. intros; ring. Qed.
Lemma dotv_minus : forall d v w x, dotv d v (fun m => w m - x m) = dotv d v w - dotv d v x.
Proof. intros. unfold dotv. rewrite <- sumZ_minus. apply sumZ_ext. intros; ring. Qed.
Lemma dotv_scal : forall d v c w, dotv d v (fun m => c * w m) = c * dotv d v w.
Proof. intros. unfold dotv. rewrite <- sumZ_scal. apply sumZ_ext. intros; ring. Qed.
Lemma sumZ_nonneg : forall lo hi f, (forall i, (lo <= i <= hi)%Z -> 0 <= f i) -> 0 <= sumZ lo hi f.
Proof.
  intros lo hi f. revert lo hi.
  apply (Zinterval_ind (fun lo hi => (forall i, (lo <= i <= hi)%Z -> 0 <= f i) -> 0 <= sumZ lo hi f)).
  - intros lo hi H _. rewrite sumZ_empty by auto. lra.
  - intros lo hi H IH Hf. rewrite sumZ_snoc by auto.
    assert (0 <= sumZ lo (hi - 1) f) by (apply IH; intros; apply Hf; lia). assert (0 <= f hi) by (apply Hf; lia). lra.
Qed.
Lemma sumZ_zero_inv : forall lo hi f, (forall i, (lo <= i <= hi)%Z -> 0 <= f i) -> sumZ lo hi f = 0 ->
  forall i, (lo <= i <= hi)%Z -> f i = 0.
Proof.
  intros lo hi f. revert lo hi.
  apply (Zinterval_ind (fun lo hi => (forall i, (lo <= i <= hi)%Z -> 0 <= f i) -> sumZ lo hi f = 0 -> forall i, (lo <= i <= hi)%Z -> f i = 0)).
  - intros; lia.
  - intros lo hi H IH Hf E i Hi. rewrite sumZ_snoc in E by auto.
    assert (G : forall i, (lo <= i <= hi - 1)%Z -> 0 <= f i) by (intros; apply Hf; lia).
    pose proof (sumZ_nonneg lo (hi - 1) f G) as Hs. pose proof (Hf hi ltac:(lia)) as Hh.
    destruct (Z.eq_dec i hi) as [-> |]; [lra |]. apply IH; auto; [lra | lia].
Qed.
Lemma dotv_self_nonneg : forall d v, 0 <= dotv d v v.
Proof. intros. apply sumZ_nonneg. intros. apply Rle_0_sqr. Qed.
Lemma dotv_self_zero : forall d v, dotv d v v = 0 <-> same d v (fun _ => 0).
Proof.
  intros d v. split.
  - intros E m Hm. apply Rsqr_0_uniq. unfold Rsqr.
    apply (sumZ_zero_inv 1 d (fun m => v m * v m)); auto. intros; apply Rle_0_sqr.
  - intros H. unfold dotv. rewrite (sumZ_ext _ _ _ (fun _ => 0)); [apply sumZ_zero |]. intros m Hm. rewrite H by auto. ring.
Qed.
Lemma sum1 : forall f, sumZ 1 1 f = f 1%Z.
Proof. intro f. transitivity (f 1%Z + 0); [reflexivity | ring]. Qed.
Lemma sum2 : forall f, sumZ 1 2 f = f 1%Z + f 2%Z.
Proof. intro f. transitivity (f 1%Z + (f 2%Z + 0)); [reflexivity | ring]. Qed.
Lemma sum4 : forall f, sumZ 1 4 f = f 1%Z + f 2%Z + f 3%Z + f 4%Z.
Proof. intro f. transitivity (f 1%Z + (f 2%Z + (f 3%Z + (f 4%Z + 0)))); [reflexivity | ring]. Qed.
Lemma accum_sum : forall d f, accum_m d f = sumZ 1 d f.
Proof. intros. unfold accum_m. rewrite loop_sum. ring. Qed.

(** * Images *)
Ltac idx2 m H := let E := fresh "E" in assert (E : (m = 1 \/ m = 2)%Z) by lia; destruct E as [E | E]; subst m; clear H.
Ltac idx4 m H := let E := fresh "E" in assert (E : (m = 1 \/ m = 2 \/ m = 3 \/ m = 4)%Z) by lia;
  destruct E as [E | [E | [E | E]]]; subst m; clear H.
Definition inv_index (d n : Z) : Z := match d with 4 => conj4 n | 2 => conj2 n | _ => conj1 n end%Z.

Lemma inv_index_ok : forall d n, rotation_index d n -> rotation_index d (inv_index d n).
Proof.
  intros d n H. unfold rotation_index, group_size, inv_index in *. destruct d as [| d |]; try (apply conj1_range; auto).
  repeat (destruct d as [d | d |]; try (apply conj1_range; auto; fail)); first [apply conj4_range; auto | apply conj2_range; auto].
Qed.
Lemma rotation_pos : forall d n, rotation_index d n -> (1 <= n)%Z.
Proof. intros d n [H _]. exact H. Qed.
Lemma qr2_unit : forall n, in_table 4 n -> unit2 (qr2 n).
Proof.
  intros n H. destruct qr2_val as (E1 & E2 & E3 & E4). unfold unit2.
  destruct (tab4 n H) as [-> | [-> | [-> | ->]]]; rewrite ?E1, ?E2, ?E3, ?E4; cbn [ca cb]; ring.
Qed.

Lemma symmrotate_pos : forall d v n, multi d \/ d = 1%Z -> rotation_index d n ->
  exists w, symmrotate d v n = Some w /\ same d w (image d n v).
Proof.
  intros d v n [[-> | ->] | ->] H; unfold rotation_index in H; cbn [group_size] in H; unfold symmrotate.
  - unfold quatsymmrotate2. rewrite rot_index_pos by auto. eexists. split; [reflexivity |].
    intros m Hm. rewrite cand2_eq. idx2 m Hm; reflexivity.
  - unfold quatsymmrotate4. rewrite rot_index_pos by auto. eexists. split; [reflexivity |].
    intros m Hm. rewrite cand4_eq. idx4 m Hm; reflexivity.
  - unfold quatsymmrotate1. rewrite rot_index_pos by auto. eexists. split; [reflexivity |].
    intros m Hm. assert (m = 1%Z) by lia. subst m. reflexivity.
Qed.
Lemma symmrotate_neg : forall d v n, multi d -> rotation_index d n ->
  exists w, symmrotate d v (-1 * n) = Some w /\ same d w (image d (inv_index d n) v).
Proof.
  intros d v n [-> | ->] H; unfold rotation_index in H; cbn [group_size] in H; unfold symmrotate;
    replace (-1 * n)%Z with (- n)%Z by lia.
  - unfold quatsymmrotate2. rewrite rot_index_neg by auto. eexists. split; [reflexivity |].
    intros m Hm. rewrite cand2_eq. idx2 m Hm; reflexivity.
  - unfold quatsymmrotate4. rewrite rot_index_neg by auto. eexists. split; [reflexivity |].
    intros m Hm. rewrite cand4_eq. idx4 m Hm; reflexivity.
Qed.

Lemma image_ext : forall d n v w, multi d -> same d v w -> same d (image d n v) (image d n w).
Proof.
  intros d n v w [-> | ->] H m Hm; cbn [image].
  - rewrite (H 1%Z), (H 2%Z) by lia. reflexivity.
  - rewrite (H 1%Z), (H 2%Z), (H 3%Z), (H 4%Z) by lia. reflexivity.
Qed.
Lemma image_lin : forall d n a v b w, multi d ->
  same d (image d n (fun m => a * v m + b * w m)) (fun m => a * image d n v m + b * image d n w m).
Proof.
  intros d n a v b w [-> | ->] m Hm; cbn [image].
  - idx2 m Hm; cbn [comp2 quatmult2 ca cb]; ring.
  - idx4 m Hm; cbn [comp quatmult4 qa qb qc qd]; ring.
Qed.
Lemma image_minus : forall d n v w, multi d ->
  same d (image d n (fun m => v m - w m)) (fun m => image d n v m - image d n w m).
Proof.
  intros d n v w [-> | ->] m Hm; cbn [image].
  - idx2 m Hm; cbn [comp2 quatmult2 ca cb]; ring.
  - idx4 m Hm; cbn [comp quatmult4 qa qb qc qd]; ring.
Qed.
Lemma image_plus : forall d n v w, multi d ->
  same d (image d n (fun m => v m + w m)) (fun m => image d n v m + image d n w m).
Proof.
  intros d n v w [-> | ->] m Hm; cbn [image].
  - idx2 m Hm; cbn [comp2 quatmult2 ca cb]; ring.
  - idx4 m Hm; cbn [comp quatmult4 qa qb qc qd]; ring.
Qed.
Lemma image_scal : forall d n c v, multi d ->
  same d (image d n (fun m => c * v m)) (fun m => c * image d n v m).
Proof.
  intros d n c v [-> | ->] m Hm; cbn [image].
  - idx2 m Hm; cbn [comp2 quatmult2 ca cb]; ring.
  - idx4 m Hm; cbn [comp quatmult4 qa qb qc qd]; ring.
Qed.
Lemma image_dot : forall d n v w, multi d -> rotation_index d n -> dotv d (image d n v) (image d n w) = dotv d v w.
Proof.
  intros d n v w [-> | ->] H; unfold dotv; cbn [image]; unfold rotation_index in H; cbn [group_size] in H.
  - pose proof (qr2_unit n H) as U. unfold unit2 in U. rewrite !sum2. cbn [comp2 quatmult2 ca cb].
    transitivity ((ca (qr2 n) ^ 2 + cb (qr2 n) ^ 2) * (v 1%Z * w 1%Z + v 2%Z * w 2%Z)); [ring | rewrite U; ring].
  - pose proof (qr4_unit n H) as U. unfold unit4 in U. rewrite !sum4. cbn [comp quatmult4 qa qb qc qd].
    transitivity ((qa (qr4 n) ^ 2 + qb (qr4 n) ^ 2 + qc (qr4 n) ^ 2 + qd (qr4 n) ^ 2) *
                  (v 1%Z * w 1%Z + v 2%Z * w 2%Z + v 3%Z * w 3%Z + v 4%Z * w 4%Z)); [ring | rewrite U; ring].
Qed.
Lemma image_image : forall d n k, multi d -> rotation_index d n -> rotation_index d k ->
  exists l, rotation_index d l /\ forall v, same d (image d n (image d k v)) (image d l v).
Proof.
  intros d n k [-> | ->] Hn Hk; unfold rotation_index in *; cbn [group_size] in *.
  - assert (G : exists l, in_table 4 l /\ quatmult2 (qr2 k) (qr2 n) = qr2 l).
    { destruct qr2_val as (E1 & E2 & E3 & E4).
      destruct (tab4 k Hk) as [-> | [-> | [-> | ->]]]; destruct (tab4 n Hn) as [-> | [-> | [-> | ->]]];
        rewrite ?E1, ?E2, ?E3, ?E4; unfold quatmult2; cbn [ca cb];
        first [exists 1%Z; split; [split; lia |]; rewrite E1; apply q2_ext; cbn [ca cb]; ring
              |exists 2%Z; split; [split; lia |]; rewrite E2; apply q2_ext; cbn [ca cb]; ring
              |exists 3%Z; split; [split; lia |]; rewrite E3; apply q2_ext; cbn [ca cb]; ring
              |exists 4%Z; split; [split; lia |]; rewrite E4; apply q2_ext; cbn [ca cb]; ring]. }
    destruct G as (l & Hl & E). exists l. split; [exact Hl |]. intros w m Hm. cbn [image].
    rewrite <- E. idx2 m Hm; cbn [comp2 quatmult2 ca cb]; ring.
  - destruct (group_closed k n Hk Hn) as (l & Hl & E). exists l. split; [exact Hl |]. intros w m Hm. cbn [image].
    rewrite <- E. idx4 m Hm; cbn [comp quatmult4 qa qb qc qd]; ring.
Qed.
Lemma image_inv : forall d n v, multi d -> rotation_index d n ->
  same d (image d (inv_index d n) (image d n v)) v /\ same d (image d n (image d (inv_index d n) v)) v.
Proof.
  intros d n v [-> | ->] H; unfold rotation_index in H; cbn [group_size] in H; cbn [inv_index].
  - pose proof (conj2_inverse n H) as E. pose proof (f_equal ca E) as E1. pose proof (f_equal cb E) as E2.
    cbn [quatmult2 ca cb] in E1, E2.
    split; intros m Hm; cbn [image]; idx2 m Hm; cbn [comp2 quatmult2 ca cb].
    + transitivity (v 1%Z * (ca (qr2 n) * ca (qr2 (conj2 n)) - cb (qr2 n) * cb (qr2 (conj2 n)))
        - v 2%Z * (ca (qr2 n) * cb (qr2 (conj2 n)) + cb (qr2 n) * ca (qr2 (conj2 n)))); [ring | rewrite E1, E2; ring].
    + transitivity (v 2%Z * (ca (qr2 n) * ca (qr2 (conj2 n)) - cb (qr2 n) * cb (qr2 (conj2 n)))
        + v 1%Z * (ca (qr2 n) * cb (qr2 (conj2 n)) + cb (qr2 n) * ca (qr2 (conj2 n)))); [ring | rewrite E1, E2; ring].
    + transitivity (v 1%Z * (ca (qr2 n) * ca (qr2 (conj2 n)) - cb (qr2 n) * cb (qr2 (conj2 n)))
        - v 2%Z * (ca (qr2 n) * cb (qr2 (conj2 n)) + cb (qr2 n) * ca (qr2 (conj2 n)))); [ring | rewrite E1, E2; ring].
    + transitivity (v 2%Z * (ca (qr2 n) * ca (qr2 (conj2 n)) - cb (qr2 n) * cb (qr2 (conj2 n)))
        + v 1%Z * (ca (qr2 n) * cb (qr2 (conj2 n)) + cb (qr2 n) * ca (qr2 (conj2 n)))); [ring | rewrite E1, E2; ring].
  - destruct (conj4_inverse n H) as [E1 E2].
    assert (G : forall x y, quatmult4 x y = Q4 1 0 0 0 -> same 4 (fun m => comp (quatmult4 (quatmult4 (Q4 (v 1) (v 2) (v 3) (v 4))%Z x) y) m) v).
    { intros x y E m Hm. rewrite mult4_assoc, E. idx4 m Hm; cbn [comp quatmult4 qa qb qc qd]; ring. }
    split; intros m Hm; [rewrite <- (G _ _ E1 m Hm) | rewrite <- (G _ _ E2 m Hm)]; cbn [image]; idx4 m Hm; cbn [comp quatmult4 qa qb qc qd]; ring.
Qed.
(** the inverse image is the adjoint *)
Lemma image_adj : forall d n v w, multi d -> rotation_index d n ->
  dotv d v (image d n w) = dotv d (image d (inv_index d n) v) w.
Proof.
  intros d n v w Hd Hn. rewrite <- (image_dot d n (image d (inv_index d n) v) w) by auto.
  apply dotv_ext; [| intros m _; reflexivity]. intros m Hm. symmetry. apply image_inv; auto.
Qed.

(** * What the kernels compute *)
Definition rotd (d : Z) (v : vec) (n : Z) : vec := match symmrotate d v n with Some w => w | None => v end.
Lemma rotd_pos : forall d v n, multi d \/ d = 1%Z -> rotation_index d n ->
  symmrotate d v n = Some (rotd d v n) /\ same d (rotd d v n) (image d n v).
Proof. intros d v n Hd Hn. destruct (symmrotate_pos d v n Hd Hn) as (w & E & H). unfold rotd. rewrite E. auto. Qed.
Lemma rotd_neg : forall d v n, multi d -> rotation_index d n ->
  symmrotate d v (-1 * n) = Some (rotd d v (-1 * n)) /\ same d (rotd d v (-1 * n)) (image d (inv_index d n) v).
Proof. intros d v n Hd Hn. destruct (symmrotate_neg d v n Hd Hn) as (w & E & H). unfold rotd. rewrite E. auto. Qed.
Lemma multi_gt1 : forall d, multi d -> (1 <? d)%Z = true /\ (d =? 1)%Z = false.
Proof. intros d [-> | ->]; auto. Qed.
Lemma rot_back_multi : forall d v n, multi d -> rotation_index d n ->
  rot_back d v n = Some (rotd d v (-1 * n)) /\ same d (rotd d v (-1 * n)) (image d (inv_index d n) v).
Proof. intros d v n Hd Hn. unfold rot_back. rewrite (proj1 (multi_gt1 d Hd)). apply rotd_neg; auto. Qed.

Definition sdx (p : patch) (q : arr3) (rx : iarr) : arr3 :=
  fun i j m => q i j m - image (depth p) (rx i j) (q (i - 1)%Z j) m.
Definition sdy (p : patch) (q : arr3) (ry : iarr) : arr3 :=
  fun i j m => q i j m - image (depth p) (ry i j) (q i (j - 1)%Z) m.

Lemma symm_diffs_x : forall p q rx old, multi (depth p) \/ depth p = 1%Z ->
  (forall i j, x_side p i j -> rotation_index (depth p) (rx i j)) ->
  exists sx, quatdiffs_symm_x p q rx old = Some sx /\
    forall i j, x_side p i j -> same (depth p) (sx i j) (sdx p q rx i j).
Proof.
  intros p q rx old Hd H.
  destruct (ocells_put (depth p) (lo0 p) (hi0 p + 1) (lo1 p - 1) (hi1 p + 1)
    (fun i j s => match symmrotate (depth p) (q (i - 1)%Z j) (rx i j) with
      | None => None | Some q2' => Some (put (depth p) i j (fun m _ => q i j m - q2' m) s) end)
    (fun i j m _ => q i j m - rotd (depth p) (q (i - 1)%Z j) (rx i j) m) old) as (s & E & V).
  - intros i j s Hij. destruct (rotd_pos (depth p) (q (i - 1)%Z j) (rx i j) Hd (H i j Hij)) as [E _]. rewrite E. reflexivity.
  - exists s. split; [exact E |]. intros i j Hij m Hm. rewrite V. pose proof Hij as [Hi Hj]. rewrite !inb_true by lia.
    cbn [andb]. unfold sdx. rewrite (proj2 (rotd_pos (depth p) (q (i - 1)%Z j) (rx i j) Hd (H i j Hij)) m Hm). reflexivity.
Qed.
Lemma symm_diffs_y : forall p q ry old, multi (depth p) \/ depth p = 1%Z ->
  (forall i j, y_side p i j -> rotation_index (depth p) (ry i j)) ->
  exists sy, quatdiffs_symm_y p q ry old = Some sy /\
    forall i j, y_side p i j -> same (depth p) (sy i j) (sdy p q ry i j).
Proof.
  intros p q ry old Hd H.
  destruct (ocells_put (depth p) (lo0 p - 1) (hi0 p + 1) (lo1 p) (hi1 p + 1)
    (fun i j s => match symmrotate (depth p) (q i (j - 1)%Z) (ry i j) with
      | None => None | Some q2' => Some (put (depth p) i j (fun m _ => q i j m - q2' m) s) end)
    (fun i j m _ => q i j m - rotd (depth p) (q i (j - 1)%Z) (ry i j) m) old) as (s & E & V).
  - intros i j s Hij. destruct (rotd_pos (depth p) (q i (j - 1)%Z) (ry i j) Hd (H i j Hij)) as [E _]. rewrite E. reflexivity.
  - exists s. split; [exact E |]. intros i j Hij m Hm. rewrite V. pose proof Hij as [Hi Hj]. rewrite !inb_true by lia.
    cbn [andb]. unfold sdy. rewrite (proj2 (rotd_pos (depth p) (q i (j - 1)%Z) (ry i j) Hd (H i j Hij)) m Hm). reflexivity.
Qed.
Lemma plain_diffs_x : forall p q old i j, x_side p i j ->
  same (depth p) (quatdiffs_x p q old i j) (fun m => q i j m - q (i - 1)%Z j m).
Proof.
  intros p q old i j [Hi Hj] m Hm. unfold quatdiffs_x. rewrite mcells_val. rewrite !inb_true by lia. reflexivity.
Qed.
Lemma plain_diffs_y : forall p q old i j, y_side p i j ->
  same (depth p) (quatdiffs_y p q old i j) (fun m => q i j m - q i (j - 1)%Z m).
Proof.
  intros p q old i j [Hi Hj] m Hm. unfold quatdiffs_y. rewrite mcells_val. rewrite !inb_true by lia. reflexivity.
Qed.
Lemma flux_x_val : forall p fcx dx old i j, x_face p i j ->
  same (depth p) (flux_x p fcx (quatgrad_side_x_xside p dx old) old i j) (fun m => fcx i j * ((1 / h1 p) * dx i j m)).
Proof.
  intros p fcx dx old i j [Hi Hj] m Hm. unfold flux_x, quatgrad_side_x_xside. rewrite !mcells_val. rewrite !inb_true by lia. reflexivity.
Qed.
Lemma flux_y_val : forall p fcy dy old i j, y_face p i j ->
  same (depth p) (flux_y p fcy (quatgrad_side_y_yside p dy old) old i j) (fun m => fcy i j * ((1 / h2 p) * dy i j m)).
Proof.
  intros p fcy dy old i j [Hi Hj] m Hm. unfold flux_y, quatgrad_side_y_yside. rewrite !mcells_val. rewrite !inb_true by lia. reflexivity.
Qed.

(** part of v orthogonal to q *)
Definition tang (d : Z) (q v : vec) : vec := fun m => v m - dotv d q v / dotv d q q * q m.
(** divergence of the fluxes with coefficients fc of the differences left/right, down/up *)
Definition diverg (p : patch) (cr cl cu cd : R) (r l u d : vec) : vec :=
  fun m => (cr * r m - cl * l m) * (/ h1 p * / h1 p) + (cu * u m - cd * d m) * (/ h2 p * / h2 p).

Lemma tang_ext : forall d q v w, same d v w -> same d (tang d q v) (tang d q w).
Proof.
  intros d q v w H m Hm. unfold tang. rewrite (H m Hm), (dotv_ext d q q v w); [reflexivity | | exact H]. intros k _; reflexivity.
Qed.
Lemma diverg_ext : forall p cr cl cu cd r l u d r' l' u' d', same (depth p) r r' -> same (depth p) l l' ->
  same (depth p) u u' -> same (depth p) d d' ->
  same (depth p) (diverg p cr cl cu cd r l u d) (diverg p cr cl cu cd r' l' u' d').
Proof. intros p cr cl cu cd r l u d r' l' u' d' H1 H2 H3 H4 m Hm. unfold diverg. rewrite H1, H2, H3, H4 by auto. reflexivity. Qed.
Lemma lambda_tang : forall d q v m r M, 
  r - M * (v m + 2 * q m * (do_loop 1 d (fun m l => l - q m * (v m * (1 / 2))) 0 / accum_m d (fun m => q m * q m)))
  = r - M * tang d q v m.
Proof.
  intros d q v m r M.
  assert (E : do_loop 1 d (fun m l => l - q m * (v m * (1 / 2))) 0 = - (1 / 2) * dotv d q v).
  { rewrite (do_loop_ext _ _ _ _ (fun m s => s + (- (1 / 2)) * (q m * v m))) by (intros; ring).
    rewrite loop_sum. unfold dotv. rewrite <- sumZ_scal. ring. }
  rewrite E, accum_sum. unfold tang. change (sumZ 1 d (fun m => q m * q m)) with (dotv d q q).
  unfold Rdiv. generalize (/ dotv d q q). intro z. field.
Qed.

(** the plain right-hand side *)
Lemma plain_op_val : forall p mob fx fy rhs i j m, in_patch p i j -> (1 <= m <= depth p)%Z ->
  add_quat_op p mob fx fy rhs i j m =
  rhs i j m - mob i j * ((fx (i + 1)%Z j m - fx i j m) * (1 / h1 p) + (fy i (j + 1)%Z m - fy i j m) * (1 / h2 p)).
Proof.
  intros p mob fx fy rhs i j m [Hi Hj] Hm. unfold add_quat_op. rewrite mcells_val, !inb_true by lia. reflexivity.
Qed.
Lemma proj_op_val : forall p mob fx fy q old rhs i j m, in_patch p i j -> (1 <= m <= depth p)%Z ->
  add_quat_proj_op p mob fx fy q (compute_lambda p fx fy q old) rhs i j m =
  rhs i j m - mob i j * tang (depth p) (q i j)
    (fun m => (fx (i + 1)%Z j m - fx i j m) * (1 / h1 p) + (fy i (j + 1)%Z m - fy i j m) * (1 / h2 p)) m.
Proof.
  intros p mob fx fy q old rhs i j m [Hi Hj] Hm. unfold add_quat_proj_op. rewrite mcells_val, !inb_true by lia. cbn [andb].
  unfold compute_lambda. rewrite (cells_loop (lo0 p) (hi0 p) (lo1 p) (hi1 p) (fun i j _ => _)), !inb_true by lia. cbn [andb].
  rewrite <- lambda_tang. do 5 f_equal. apply do_loop_ext. intros k l Hk. unfold Rdiv. ring.
Qed.
Lemma proj_op_symm_val : forall p mob fx fy q rx ry old rhs, multi (depth p) -> rotations_ok p rx ry ->
  exists lambda rhs', compute_lambda_symm p fx fy q rx ry old = Some lambda /\
    add_quat_proj_op_symm p mob fx fy q lambda rx ry rhs = Some rhs' /\
    (forall i j m, in_patch p i j -> (1 <= m <= depth p)%Z ->
      rhs' i j m = rhs i j m - mob i j * tang (depth p) (q i j)
        (fun m => (image (depth p) (inv_index (depth p) (rx (i + 1)%Z j)) (fx (i + 1)%Z j) m - fx i j m) * (1 / h1 p)
                + (image (depth p) (inv_index (depth p) (ry i (j + 1)%Z)) (fy i (j + 1)%Z) m - fy i j m) * (1 / h2 p)) m) /\
    (forall i j m, ~ in_patch p i j -> rhs' i j m = rhs i j m).
Proof.
  intros p mob fx fy q rx ry old rhs Hd [Hrx Hry].
  assert (Bx : forall i j, in_patch p i j -> rotation_index (depth p) (rx (i + 1)%Z j)).
  { intros i j [Hi Hj]. apply Hrx. split; lia. }
  assert (By : forall i j, in_patch p i j -> rotation_index (depth p) (ry i (j + 1)%Z)).
  { intros i j [Hi Hj]. apply Hry. split; lia. }
  set (R := fun i j => rotd (depth p) (fx (i + 1)%Z j) (-1 * rx (i + 1)%Z j)).
  set (U := fun i j => rotd (depth p) (fy i (j + 1)%Z) (-1 * ry i (j + 1)%Z)).
  set (D := fun i j m => (R i j m - fx i j m) * (1 / h1 p) + (U i j m - fy i j m) * (1 / h2 p)).
  destruct (ocells_upd2 (lo0 p) (hi0 p) (lo1 p) (hi1 p) (fun i j s =>
    match symmrotate (depth p) (fx (i + 1)%Z j) (-1 * rx (i + 1)%Z j),
          symmrotate (depth p) (fy i (j + 1)%Z) (-1 * ry i (j + 1)%Z) with
    | Some fr, Some fu =>
        Some (upd2 s i j
          (do_loop 1 (depth p) (fun m l => l - q i j m *
             ((fr m - fx i j m) * ((1 / 2) / h1 p) + (fu m - fy i j m) * ((1 / 2) / h2 p))) 0
           / accum_m (depth p) (fun m => q i j m * q i j m)))
    | _, _ => None end)
    (fun i j => do_loop 1 (depth p) (fun m l => l - q i j m * (D i j m * (1 / 2))) 0 / accum_m (depth p) (fun m => q i j m * q i j m))
    old) as (lam & E1 & V1).
  { intros i j s Hij. rewrite (proj1 (rotd_neg _ (fx (i + 1)%Z j) _ Hd (Bx i j Hij))), (proj1 (rotd_neg _ (fy i (j + 1)%Z) _ Hd (By i j Hij))).
    do 3 f_equal. apply do_loop_ext. intros k l Hk. unfold D, R, U, Rdiv. ring. }
  destruct (ocells_put (depth p) (lo0 p) (hi0 p) (lo1 p) (hi1 p) (fun i j s =>
    match symmrotate (depth p) (fx (i + 1)%Z j) (-1 * rx (i + 1)%Z j),
          symmrotate (depth p) (fy i (j + 1)%Z) (-1 * ry i (j + 1)%Z) with
    | Some fr, Some fu =>
        Some (put (depth p) i j (fun m r =>
          let divergence := (fr m - fx i j m) * (1 / h1 p) + (fu m - fy i j m) * (1 / h2 p) in
          r - mob i j * (divergence + 2 * q i j m * lam i j)) s)
    | _, _ => None end)
    (fun i j m r => r - mob i j * (D i j m + 2 * q i j m * lam i j)) rhs) as (rhs' & E2 & V2).
  { intros i j s Hij. rewrite (proj1 (rotd_neg _ (fx (i + 1)%Z j) _ Hd (Bx i j Hij))), (proj1 (rotd_neg _ (fy i (j + 1)%Z) _ Hd (By i j Hij))).
    reflexivity. }
  exists lam, rhs'. split; [exact E1 |]. split; [exact E2 |]. split.
  - intros i j m Hij Hm. rewrite V2, V1. pose proof Hij as [Hi Hj]. rewrite !inb_true by lia. cbn [andb].
    rewrite lambda_tang. do 2 f_equal. apply tang_ext; [| exact Hm]. intros k Hk. unfold D, R, U.
    rewrite (proj2 (rotd_neg _ (fx (i + 1)%Z j) _ Hd (Bx i j Hij)) k Hk), (proj2 (rotd_neg _ (fy i (j + 1)%Z) _ Hd (By i j Hij)) k Hk).
    reflexivity.
  - intros i j m Hij. rewrite V2. destruct (inb_spec (lo0 p) (hi0 p) i); destruct (inb_spec (lo1 p) (hi1 p) j); cbn [andb]; auto.
    destruct Hij. split; auto.
Qed.

(** the three ways the right-hand side is computed for a field with several components *)
Definition div_plain (p : patch) (fcx fcy : arr2) (q : arr3) (i j : Z) : vec :=
  diverg p (fcx (i + 1)%Z j) (fcx i j) (fcy i (j + 1)%Z) (fcy i j)
    (fun m => q (i + 1)%Z j m - q i j m) (fun m => q i j m - q (i - 1)%Z j m)
    (fun m => q i (j + 1)%Z m - q i j m) (fun m => q i j m - q i (j - 1)%Z m).
Definition div_symm (p : patch) (fcx fcy : arr2) (q : arr3) (rx ry : iarr) (i j : Z) : vec :=
  diverg p (fcx (i + 1)%Z j) (fcx i j) (fcy i (j + 1)%Z) (fcy i j)
    (image (depth p) (inv_index (depth p) (rx (i + 1)%Z j)) (sdx p q rx (i + 1)%Z j)) (sdx p q rx i j)
    (image (depth p) (inv_index (depth p) (ry i (j + 1)%Z)) (sdy p q ry i (j + 1)%Z)) (sdy p q ry i j).
Definition div_mixed (p : patch) (fcx fcy : arr2) (q : arr3) (rx ry : iarr) (i j : Z) : vec :=
  diverg p (fcx (i + 1)%Z j) (fcx i j) (fcy i (j + 1)%Z) (fcy i j)
    (sdx p q rx (i + 1)%Z j) (sdx p q rx i j) (sdy p q ry i (j + 1)%Z) (sdy p q ry i j).

Lemma shift_plus : forall i, (i + 1 - 1)%Z = i.
Proof. intro; lia. Qed.

Lemma rhs_plain : forall asserts use_gradq p fcx fcy mob q rx ry old3 old2,
  exists rhs, evaluateQuatRHS asserts false use_gradq p fcx fcy mob q rx ry old3 old2 = Some rhs /\
    (forall i j m, in_patch p i j -> (1 <= m <= depth p)%Z -> rhs i j m =
      - mob i j * (if (depth p =? 1)%Z then div_plain p fcx fcy q i j m else tang (depth p) (q i j) (div_plain p fcx fcy q i j) m)) /\
    (forall i j m, ~ in_patch p i j -> rhs i j m = 0).
Proof.
  intros asserts use_gradq p fcx fcy mob q rx ry old3 old2. unfold evaluateQuatRHS, evaluateRHS. cbn [andb].
  set (dx := quatdiffs_x p q old3). set (dy := quatdiffs_y p q old3).
  set (fx := flux_x p fcx (quatgrad_side_x_xside p dx old3) old3). set (fy := flux_y p fcy (quatgrad_side_y_yside p dy old3) old3).
  assert (D : forall i j, in_patch p i j -> same (depth p)
    (fun m => (fx (i + 1)%Z j m - fx i j m) * (1 / h1 p) + (fy i (j + 1)%Z m - fy i j m) * (1 / h2 p)) (div_plain p fcx fcy q i j)).
  { intros i j [Hi Hj] m Hm. unfold fx, fy, div_plain, diverg.
    rewrite (flux_x_val p fcx dx old3 (i + 1)), (flux_x_val p fcx dx old3 i) by (auto; split; lia).
    rewrite (flux_y_val p fcy dy old3 i (j + 1)), (flux_y_val p fcy dy old3 i j) by (auto; split; lia).
    unfold dx, dy. rewrite !plain_diffs_x, !plain_diffs_y by (auto; split; lia). rewrite !shift_plus. unfold Rdiv. ring. }
  destruct (depth p =? 1)%Z eqn:E1; rewrite ?andb_false_r; eexists; (split; [reflexivity |]); split.
  - intros i j m Hij Hm. rewrite plain_op_val, <- D by auto. ring.
  - intros i j m Hij. unfold add_quat_op. rewrite mcells_val.
    destruct (inb_spec (lo0 p) (hi0 p) i); destruct (inb_spec (lo1 p) (hi1 p) j); cbn [andb]; auto. destruct Hij. split; auto.
  - intros i j m Hij Hm. rewrite proj_op_val by auto. rewrite (tang_ext (depth p) (q i j) _ _ (D i j Hij) m Hm). ring.
  - intros i j m Hij. unfold add_quat_proj_op. rewrite mcells_val.
    destruct (inb_spec (lo0 p) (hi0 p) i); destruct (inb_spec (lo1 p) (hi1 p) j); cbn [andb]; auto. destruct Hij. split; auto.
Qed.

Lemma rhs_symm : forall asserts p fcx fcy mob q rx ry old3 old2, multi (depth p) -> rotations_ok p rx ry ->
  exists rhs, evaluateQuatRHS asserts true true p fcx fcy mob q rx ry old3 old2 = Some rhs /\
    (forall i j m, in_patch p i j -> (1 <= m <= depth p)%Z -> rhs i j m =
      - mob i j * tang (depth p) (q i j) (div_symm p fcx fcy q rx ry i j) m) /\
    (forall i j m, ~ in_patch p i j -> rhs i j m = 0).
Proof.
  intros asserts p fcx fcy mob q rx ry old3 old2 Hd Hr. unfold evaluateQuatRHS, evaluateRHS. cbn [andb negb].
  pose proof Hr as [Hrx Hry].
  destruct (symm_diffs_x p q rx old3 (or_introl Hd) Hrx) as (sx & Ex & Vx). rewrite Ex.
  destruct (symm_diffs_y p q ry old3 (or_introl Hd) Hry) as (sy & Ey & Vy). rewrite Ey.
  rewrite (proj2 (multi_gt1 _ Hd)).
  set (fx := flux_x p fcx (quatgrad_side_x_xside p sx old3) old3). set (fy := flux_y p fcy (quatgrad_side_y_yside p sy old3) old3).
  destruct (proj_op_symm_val p mob fx fy q rx ry old2 (fun _ _ _ => 0) Hd Hr) as (lam & rhs & E1 & E2 & V & W).
  rewrite E1, E2. exists rhs. split; [reflexivity |]. split; [| intros; rewrite W; auto].
  intros i j m Hij Hm. rewrite V by auto. rewrite Rminus_0_l, <- Ropp_mult_distr_l. f_equal. f_equal.
  apply tang_ext; [| exact Hm]. clear m Hm. intros m Hm. destruct Hij as [Hi Hj].
  assert (Fx : forall i j, x_face p i j -> same (depth p) (fx i j) (fun m => fcx i j * (1 / h1 p) * sdx p q rx i j m)).
  { intros a b Hab k Hk. unfold fx. rewrite flux_x_val by auto. rewrite Vx by (auto; destruct Hab; split; lia). ring. }
  assert (Fy : forall i j, y_face p i j -> same (depth p) (fy i j) (fun m => fcy i j * (1 / h2 p) * sdy p q ry i j m)).
  { intros a b Hab k Hk. unfold fy. rewrite flux_y_val by auto. rewrite Vy by (auto; destruct Hab; split; lia). ring. }
  rewrite (image_ext _ _ _ _ Hd (Fx (i + 1)%Z j ltac:(split; lia)) m Hm), (Fx i j ltac:(split; lia) m Hm).
  rewrite (image_ext _ _ _ _ Hd (Fy i (j + 1)%Z ltac:(split; lia)) m Hm), (Fy i j ltac:(split; lia) m Hm).
  rewrite !image_scal by auto. unfold div_symm, diverg, Rdiv. ring.
Qed.

Lemma tang_minus : forall d q v w, same d (fun m => tang d q v m - tang d q w m) (tang d q (fun m => v m - w m)).
Proof. intros d q v w m Hm. unfold tang. rewrite dotv_minus. unfold Rdiv. ring. Qed.

(** default path: right-hand side with the unrotated symmetric fluxes, then the correction *)
Lemma rhs_default : forall p fcx fcy mob q rx ry old3 old2, multi (depth p) -> rotations_ok p rx ry ->
  exists rhs, evaluateQuatRHS false true false p fcx fcy mob q rx ry old3 old2 = Some rhs /\
    (forall i j m, in_patch p i j -> (1 <= m <= depth p)%Z -> rhs i j m =
      - mob i j * tang (depth p) (q i j) (fun m => div_symm p fcx fcy q rx ry i j m + div_mixed p fcx fcy q rx ry i j m
                                                   - div_plain p fcx fcy q i j m) m) /\
    (forall i j m, ~ in_patch p i j -> rhs i j m = 0).
Proof.
  intros p fcx fcy mob q rx ry old3 old2 Hd Hr. unfold evaluateQuatRHS, evaluateRHS. cbn [andb negb].
  pose proof Hr as [Hrx Hry].
  destruct (symm_diffs_x p q rx old3 (or_introl Hd) Hrx) as (sx & Ex & Vx). rewrite Ex.
  destruct (symm_diffs_y p q ry old3 (or_introl Hd) Hry) as (sy & Ey & Vy). rewrite Ey.
  rewrite (proj2 (multi_gt1 _ Hd)).
  set (fx := flux_x p fcx (quatgrad_side_x_xside p sx old3) old3). set (fy := flux_y p fcy (quatgrad_side_y_yside p sy old3) old3).
  set (rhs0 := add_quat_proj_op p mob fx fy q (compute_lambda p fx fy q old2) (fun _ _ _ => 0)).
  set (nx := quatdiffs_x p q old3). set (ny := quatdiffs_y p q old3).
  assert (Bx : forall i j, in_patch p i j -> rotation_index (depth p) (rx (i + 1)%Z j)).
  { intros i j [Hi Hj]. apply Hrx. split; lia. }
  assert (By : forall i j, in_patch p i j -> rotation_index (depth p) (ry i (j + 1)%Z)).
  { intros i j [Hi Hj]. apply Hry. split; lia. }
  set (T := fun i j m =>
     (1 / (h1 p * h1 p)) * (fcx (i + 1)%Z j * (nx (i + 1)%Z j m - rotd (depth p) (sx (i + 1)%Z j) (-1 * rx (i + 1)%Z j) m)
                            - fcx i j * (nx i j m - sx i j m))
     + (1 / (h2 p * h2 p)) * (fcy i (j + 1)%Z * (ny i (j + 1)%Z m - rotd (depth p) (sy i (j + 1)%Z) (-1 * ry i (j + 1)%Z) m)
                            - fcy i j * (ny i j m - sy i j m))).
  destruct (ocells_put (depth p) (lo0 p) (hi0 p) (lo1 p) (hi1 p) (fun i j s =>
    match rot_back (depth p) (sx (i + 1)%Z j) (rx (i + 1)%Z j), rot_back (depth p) (sy i (j + 1)%Z) (ry i (j + 1)%Z) with
    | Some px, Some py =>
        let tmp := fun m =>
          (1 / (h1 p * h1 p)) * (fcx (i + 1)%Z j * (nx (i + 1)%Z j m - px m) - fcx i j * (nx i j m - sx i j m))
          + (1 / (h2 p * h2 p)) * (fcy i (j + 1)%Z * (ny i (j + 1)%Z m - py m) - fcy i j * (ny i j m - sy i j m)) in
        if (1 <? depth p)%Z then
          let lambda := accum_m (depth p) (fun m => q i j m * tmp m) / accum_m (depth p) (fun m => q i j m * q i j m) in
          Some (put (depth p) i j (fun m r => r + mob i j * (tmp m - lambda * q i j m)) s)
        else Some (upd3 s i j 1%Z (s i j 1%Z + mob i j * tmp 1%Z))
    | _, _ => None end)
    (fun i j m r => r + mob i j * (T i j m - accum_m (depth p) (fun m => q i j m * T i j m) / accum_m (depth p) (fun m => q i j m * q i j m) * q i j m))
    rhs0) as (rhs & E & V).
  { intros i j s Hij. rewrite (proj1 (rot_back_multi _ (sx (i + 1)%Z j) _ Hd (Bx i j Hij))), (proj1 (rot_back_multi _ (sy i (j + 1)%Z) _ Hd (By i j Hij))).
    rewrite (proj1 (multi_gt1 _ Hd)). reflexivity. }
  exists rhs. split; [exact E |]. split.
  - intros i j m Hij Hm. rewrite V. pose proof Hij as [Hi Hj]. rewrite !inb_true by lia. cbn [andb].
    unfold rhs0. rewrite proj_op_val by auto. rewrite !accum_sum.
    change (T i j m - sumZ 1 (depth p) (fun m => q i j m * T i j m) / sumZ 1 (depth p) (fun m => q i j m * q i j m) * q i j m)
      with (tang (depth p) (q i j) (T i j) m).
    set (D0 := fun m => (fx (i + 1)%Z j m - fx i j m) * (1 / h1 p) + (fy i (j + 1)%Z m - fy i j m) * (1 / h2 p)).
    transitivity (- mob i j * (tang (depth p) (q i j) D0 m - tang (depth p) (q i j) (T i j) m)); [ring |].
    rewrite (tang_minus (depth p) (q i j) D0 (T i j) m Hm). f_equal. apply tang_ext; [| exact Hm]. clear m Hm. intros m Hm.
    unfold D0, T, fx, fy.
    rewrite (flux_x_val p fcx sx old3 (i + 1)), (flux_x_val p fcx sx old3 i) by (auto; split; lia).
    rewrite (flux_y_val p fcy sy old3 i (j + 1)), (flux_y_val p fcy sy old3 i j) by (auto; split; lia).
    rewrite (proj2 (rotd_neg _ (sx (i + 1)%Z j) _ Hd (Bx i j Hij)) m Hm), (proj2 (rotd_neg _ (sy i (j + 1)%Z) _ Hd (By i j Hij)) m Hm).
    rewrite (image_ext _ _ _ _ Hd (Vx (i + 1)%Z j ltac:(split; lia)) m Hm), (image_ext _ _ _ _ Hd (Vy i (j + 1)%Z ltac:(split; lia)) m Hm).
    rewrite !Vx, !Vy by (auto; split; lia). unfold nx, ny. rewrite !plain_diffs_x, !plain_diffs_y by (auto; split; lia).
    rewrite !shift_plus. unfold div_symm, div_mixed, div_plain, diverg, Rdiv. rewrite !Rinv_mult. ring.
  - intros i j m Hij. rewrite V. unfold rhs0, add_quat_proj_op. rewrite mcells_val.
    destruct (inb_spec (lo0 p) (hi0 p) i); destruct (inb_spec (lo1 p) (hi1 p) j); cbn [andb]; auto. destruct Hij. split; auto.
Qed.

(** * Length of the orientations *)
Lemma tang_orth : forall d q v, dotv d q q <> 0 -> dotv d q (tang d q v) = 0.
Proof. intros d q v H. unfold tang. rewrite dotv_minus, dotv_scal. field. exact H. Qed.

Lemma rhs_orthogonal : forall asserts symm use_gradq p fcx fcy mob q rx ry old3 old2 rhs i j,
  (symm = true -> multi (depth p) /\ rotations_ok p rx ry) -> depth p <> 1%Z ->
  evaluateQuatRHS asserts symm use_gradq p fcx fcy mob q rx ry old3 old2 = Some rhs ->
  in_patch p i j -> dotv (depth p) (q i j) (q i j) <> 0 -> dotv (depth p) (q i j) (rhs i j) = 0.
Proof.
  intros asserts symm use_gradq p fcx fcy mob q rx ry old3 old2 rhs i j Hs Hd E Hij Hq.
  assert (G : forall v, same (depth p) (rhs i j) (fun m => - mob i j * tang (depth p) (q i j) v m) -> dotv (depth p) (q i j) (rhs i j) = 0).
  { intros v H. rewrite (dotv_ext (depth p) (q i j) (q i j) _ _ (fun _ _ => eq_refl) H), dotv_scal, tang_orth by auto. ring. }
  destruct symm.
  - destruct (Hs eq_refl) as [Hm Hr]. destruct use_gradq.
    + destruct (rhs_symm asserts p fcx fcy mob q rx ry old3 old2 Hm Hr) as (rhs' & E' & V & _). rewrite E in E'. injection E' as <-.
      apply (G (div_symm p fcx fcy q rx ry i j)). intros m Hm'. apply V; auto.
    + destruct asserts.
      * exfalso. revert E. unfold evaluateQuatRHS. cbn [andb negb]. rewrite (proj2 (multi_gt1 _ Hm)). cbn [negb].
        destruct quatdiffs_symm_x; [| discriminate]. destruct quatdiffs_symm_y; [| discriminate].
        destruct evaluateRHS; discriminate.
      * destruct (rhs_default p fcx fcy mob q rx ry old3 old2 Hm Hr) as (rhs' & E' & V & _). rewrite E in E'. injection E' as <-.
        apply (G (fun m => div_symm p fcx fcy q rx ry i j m + div_mixed p fcx fcy q rx ry i j m - div_plain p fcx fcy q i j m)).
        intros m Hm'. apply V; auto.
  - destruct (rhs_plain asserts use_gradq p fcx fcy mob q rx ry old3 old2) as (rhs' & E' & V & _). rewrite E in E'. injection E' as <-.
    apply (G (div_plain p fcx fcy q i j)). intros m Hm'. rewrite V by auto. destruct (Z.eqb_spec (depth p) 1); [contradiction | reflexivity].
Qed.

(** * Identity rotations *)
Lemma image_one : forall d v, multi d -> same d (image d 1 v) v.
Proof.
  intros d v [-> | ->] m Hm; cbn [image].
  - rewrite (proj1 qr2_val). idx2 m Hm; cbn [comp2 quatmult2 ca cb]; ring.
  - rewrite qr4_one. idx4 m Hm; cbn [comp quatmult4 qa qb qc qd]; ring.
Qed.
Lemma inv_one : forall d, multi d -> inv_index d 1 = 1%Z.
Proof. intros d [-> | ->]; reflexivity. Qed.
Lemma one_valid : forall d, multi d -> rotation_index d 1.
Proof. intros d [-> | ->]; split; cbn [group_size]; lia. Qed.

Lemma rhs_identity : forall asserts asserts' use_gradq use_gradq' p fcx fcy mob q rx ry old3 old2 rhs rhs0,
  multi (depth p) -> (forall i j, x_side p i j -> rx i j = 1%Z) -> (forall i j, y_side p i j -> ry i j = 1%Z) ->
  evaluateQuatRHS asserts true use_gradq p fcx fcy mob q rx ry old3 old2 = Some rhs ->
  evaluateQuatRHS asserts' false use_gradq' p fcx fcy mob q rx ry old3 old2 = Some rhs0 ->
  forall i j, in_patch p i j -> same (depth p) (rhs i j) (rhs0 i j).
Proof.
  intros asserts asserts' use_gradq use_gradq' p fcx fcy mob q rx ry old3 old2 rhs rhs0 Hd Hx Hy E E0 i j Hij m Hm.
  assert (Hr : rotations_ok p rx ry).
  { split; intros a b Hab; [rewrite Hx by auto | rewrite Hy by auto]; apply one_valid; auto. }
  destruct (rhs_plain asserts' use_gradq' p fcx fcy mob q rx ry old3 old2) as (r & E' & V & _). rewrite E0 in E'. injection E' as <-.
  rewrite V by auto. rewrite (proj2 (multi_gt1 _ Hd)).
  assert (Sx : forall i j, x_side p i j -> same (depth p) (sdx p q rx i j) (fun m => q i j m - q (i - 1)%Z j m)).
  { intros a b Hab k Hk. unfold sdx. rewrite Hx, image_one by auto. reflexivity. }
  assert (Sy : forall i j, y_side p i j -> same (depth p) (sdy p q ry i j) (fun m => q i j m - q i (j - 1)%Z m)).
  { intros a b Hab k Hk. unfold sdy. rewrite Hy, image_one by auto. reflexivity. }
  pose proof Hij as [Hi Hj].
  assert (D1 : same (depth p) (div_symm p fcx fcy q rx ry i j) (div_plain p fcx fcy q i j)).
  { apply diverg_ext.
    - rewrite Hx, inv_one by (auto; split; lia). intros k Hk. rewrite image_one by auto. rewrite Sx by (auto; split; lia).
      rewrite shift_plus. reflexivity.
    - apply Sx. split; lia.
    - rewrite Hy, inv_one by (auto; split; lia). intros k Hk. rewrite image_one by auto. rewrite Sy by (auto; split; lia).
      rewrite shift_plus. reflexivity.
    - apply Sy. split; lia. }
  destruct use_gradq.
  - destruct (rhs_symm asserts p fcx fcy mob q rx ry old3 old2 Hd Hr) as (r & E' & W & _). rewrite E in E'. injection E' as <-.
    rewrite W by auto. f_equal. apply tang_ext; auto.
  - destruct asserts.
    + exfalso. revert E. unfold evaluateQuatRHS. cbn [andb negb]. rewrite (proj2 (multi_gt1 _ Hd)). cbn [negb].
      destruct quatdiffs_symm_x; [| discriminate]. destruct quatdiffs_symm_y; [| discriminate].
      destruct evaluateRHS; discriminate.
    + destruct (rhs_default p fcx fcy mob q rx ry old3 old2 Hd Hr) as (r & E' & W & _). rewrite E in E'. injection E' as <-.
      rewrite W by auto. f_equal. apply tang_ext; auto. intros k Hk. rewrite D1 by auto.
      assert (D2 : same (depth p) (div_mixed p fcx fcy q rx ry i j) (div_plain p fcx fcy q i j)).
      { apply diverg_ext.
        - intros l Hl. rewrite Sx by (auto; split; lia). rewrite shift_plus. reflexivity.
        - apply Sx. split; lia.
        - intros l Hl. rewrite Sy by (auto; split; lia). rewrite shift_plus. reflexivity.
        - apply Sy. split; lia. }
      rewrite D2 by auto. ring.
Qed.

(** * The rotations found are the closest ones *)
Lemma findsymm_ok : forall d v w g, multi d \/ d = 1%Z -> (multi d -> dotv d v v = 1 /\ dotv d w w = 1) ->
  exists n, findsymm d v w g = Some n /\ rotation_index d n /\
    forall k, rotation_index d k -> dotv d (fun m => v m - image d n w m) (fun m => v m - image d n w m) <=
                                    dotv d (fun m => v m - image d k w m) (fun m => v m - image d k w m).
Proof.
  intros d v w g Hd Hu. destruct Hd as [[-> | ->] | ->]; unfold findsymm, rotation_index; cbn [group_size].
  - destruct (Hu (or_introl eq_refl)) as [Hv Hw]. unfold dotv in Hv, Hw. rewrite sum2 in Hv, Hw.
    pose proof (findsymm2_unit (Q2 (v 1) (v 2))%Z (Q2 (w 1) (w 2))%Z g) as H.
    destruct (quatfindsymm2 (Q2 (v 1) (v 2))%Z (Q2 (w 1) (w 2))%Z g) as [n q'].
    destruct H as (H1 & -> & H2); [unfold unit2; cbn [ca cb]; lra | unfold unit2; cbn [ca cb]; lra |].
    exists n. split; [reflexivity |]. split; [exact H1 |]. intros k Hk. specialize (H2 k Hk). unfold dist2 in H2. cbn [ca cb] in H2.
    unfold dotv. rewrite !sum2. cbn [image comp2]. lra.
  - destruct (Hu (or_intror eq_refl)) as [Hv Hw]. unfold dotv in Hv, Hw. rewrite sum4 in Hv, Hw.
    pose proof (findsymm4_unit (Q4 (v 1) (v 2) (v 3) (v 4))%Z (Q4 (w 1) (w 2) (w 3) (w 4))%Z g) as H.
    destruct (quatfindsymm4 (Q4 (v 1) (v 2) (v 3) (v 4))%Z (Q4 (w 1) (w 2) (w 3) (w 4))%Z g) as [n q'].
    destruct H as (H1 & -> & H2); [unfold unit4; cbn [qa qb qc qd]; lra | unfold unit4; cbn [qa qb qc qd]; lra |].
    exists n. split; [reflexivity |]. split; [exact H1 |]. intros k Hk. specialize (H2 k Hk). unfold dist4 in H2. cbn [qa qb qc qd] in H2.
    unfold dotv. rewrite !sum4. cbn [image comp]. lra.
  - pose proof (findsymm1_ok (v 1%Z) (w 1%Z) g) as H. destruct (quatfindsymm1 (v 1%Z) (w 1%Z) g) as [n q'].
    destruct H as (H1 & -> & H2). exists n. split; [reflexivity |]. split; [exact H1 |]. intros k Hk. specialize (H2 k Hk).
    unfold dotv. rewrite !sum1. cbn [image]. apply Rsqr_le_abs_1 in H2. unfold Rsqr in H2. lra.
Qed.

Definition closest (d : Z) (v w : vec) (n : Z) : Prop := rotation_index d n /\
  forall k, rotation_index d k -> dotv d (fun m => v m - image d n w m) (fun m => v m - image d n w m) <=
                                  dotv d (fun m => v m - image d k w m) (fun m => v m - image d k w m).
Lemma rotation_x_closest : forall p q g rx, multi (depth p) \/ depth p = 1%Z -> (multi (depth p) -> unit_field p q) ->
  quat_symm_rotation_x p q g = Some rx -> forall i j, x_side p i j -> closest (depth p) (q i j) (q (i - 1)%Z j) (rx i j).
Proof.
  intros p q g rx Hd Hu E.
  destruct (ocells_iupd (lo0 p) (hi0 p + 1) (lo1 p - 1) (hi1 p + 1) (fun i j s =>
    match findsymm (depth p) (q i j) (q (i - 1)%Z j) (s i j) with
    | None => None | Some n => Some (iupd s i j n) end) (fun i j n => closest (depth p) (q i j) (q (i - 1)%Z j) n) g) as (s & E' & H).
  - intros i j s [Hi Hj]. destruct (findsymm_ok (depth p) (q i j) (q (i - 1)%Z j) (s i j) Hd) as (n & En & Hn).
    + intro Hm. split; apply Hu; auto; split; lia.
    + exists n. rewrite En. split; [reflexivity | exact Hn].
  - change (quat_symm_rotation_x p q g = Some s) in E'. rewrite E in E'. injection E' as <-. exact H.
Qed.
Lemma rotation_y_closest : forall p q g ry, multi (depth p) \/ depth p = 1%Z -> (multi (depth p) -> unit_field p q) ->
  quat_symm_rotation_y p q g = Some ry -> forall i j, y_side p i j -> closest (depth p) (q i j) (q i (j - 1)%Z) (ry i j).
Proof.
  intros p q g ry Hd Hu E.
  destruct (ocells_iupd (lo0 p - 1) (hi0 p + 1) (lo1 p) (hi1 p + 1) (fun i j s =>
    match findsymm (depth p) (q i j) (q i (j - 1)%Z) (s i j) with
    | None => None | Some n => Some (iupd s i j n) end) (fun i j n => closest (depth p) (q i j) (q i (j - 1)%Z) n) g) as (s & E' & H).
  - intros i j s [Hi Hj]. destruct (findsymm_ok (depth p) (q i j) (q i (j - 1)%Z) (s i j) Hd) as (n & En & Hn).
    + intro Hm. split; apply Hu; auto; split; lia.
    + exists n. rewrite En. split; [reflexivity | exact Hn].
  - change (quat_symm_rotation_y p q g = Some s) in E'. rewrite E in E'. injection E' as <-. exact H.
Qed.
Lemma rotations_found : forall p q g, multi (depth p) \/ depth p = 1%Z -> (multi (depth p) -> unit_field p q) ->
  (exists rx, quat_symm_rotation_x p q g = Some rx) /\ (exists ry, quat_symm_rotation_y p q g = Some ry).
Proof.
  intros p q g Hd Hu. split.
  - destruct (ocells_iupd (lo0 p) (hi0 p + 1) (lo1 p - 1) (hi1 p + 1) (fun i j s =>
      match findsymm (depth p) (q i j) (q (i - 1)%Z j) (s i j) with
      | None => None | Some n => Some (iupd s i j n) end) (fun i j n => True) g) as (s & E' & H); [| exists s; exact E'].
    intros i j s [Hi Hj]. destruct (findsymm_ok (depth p) (q i j) (q (i - 1)%Z j) (s i j) Hd) as (n & En & Hn);
      [intro Hm; split; apply Hu; auto; split; lia |]. exists n. rewrite En. auto.
  - destruct (ocells_iupd (lo0 p - 1) (hi0 p + 1) (lo1 p) (hi1 p + 1) (fun i j s =>
      match findsymm (depth p) (q i j) (q i (j - 1)%Z) (s i j) with
      | None => None | Some n => Some (iupd s i j n) end) (fun i j n => True) g) as (s & E' & H); [| exists s; exact E'].
    intros i j s [Hi Hj]. destruct (findsymm_ok (depth p) (q i j) (q i (j - 1)%Z) (s i j) Hd) as (n & En & Hn);
      [intro Hm; split; apply Hu; auto; split; lia |]. exists n. rewrite En. auto.
Qed.

Lemma closest_zero : forall d v w n, closest d v w n ->
  (same d (fun m => v m - image d n w m) (fun _ => 0) <-> equivalent d v w).
Proof.
  intros d v w n [Hn H]. split.
  - intro E. exists n. split; [exact Hn |]. intros m Hm. specialize (E m Hm). cbn beta in E. lra.
  - intros (k & Hk & E). apply dotv_self_zero. apply Rle_antisym; [| apply dotv_self_nonneg].
    eapply Rle_trans; [apply (H k Hk) |]. right. apply dotv_self_zero. intros m Hm. cbn beta. rewrite (E m Hm). ring.
Qed.

Lemma diffs_minimal : forall p q g g' rx ry old, multi (depth p) \/ depth p = 1%Z -> (multi (depth p) -> unit_field p q) ->
  quat_symm_rotation_x p q g = Some rx -> quat_symm_rotation_y p q g' = Some ry ->
  exists sx sy, quatdiffs_symm_x p q rx old = Some sx /\ quatdiffs_symm_y p q ry old = Some sy /\
    (forall i j, x_side p i j ->
      (exists n, rotation_index (depth p) n /\ same (depth p) (sx i j) (fun m => q i j m - image (depth p) n (q (i - 1)%Z j) m)) /\
      (forall k, rotation_index (depth p) k ->
        dotv (depth p) (sx i j) (sx i j) <= dotv (depth p) (fun m => q i j m - image (depth p) k (q (i - 1)%Z j) m)
                                                           (fun m => q i j m - image (depth p) k (q (i - 1)%Z j) m)) /\
      (same (depth p) (sx i j) (fun _ => 0) <-> equivalent (depth p) (q i j) (q (i - 1)%Z j))) /\
    (forall i j, y_side p i j ->
      (exists n, rotation_index (depth p) n /\ same (depth p) (sy i j) (fun m => q i j m - image (depth p) n (q i (j - 1)%Z) m)) /\
      (forall k, rotation_index (depth p) k ->
        dotv (depth p) (sy i j) (sy i j) <= dotv (depth p) (fun m => q i j m - image (depth p) k (q i (j - 1)%Z) m)
                                                           (fun m => q i j m - image (depth p) k (q i (j - 1)%Z) m)) /\
      (same (depth p) (sy i j) (fun _ => 0) <-> equivalent (depth p) (q i j) (q i (j - 1)%Z))).
Proof.
  intros p q g g' rx ry old Hd Hu Ex Ey.
  pose proof (rotation_x_closest p q g rx Hd Hu Ex) as Cx. pose proof (rotation_y_closest p q g' ry Hd Hu Ey) as Cy.
  destruct (symm_diffs_x p q rx old Hd (fun i j H => proj1 (Cx i j H))) as (sx & Sx & Vx).
  destruct (symm_diffs_y p q ry old Hd (fun i j H => proj1 (Cy i j H))) as (sy & Sy & Vy).
  exists sx, sy. split; [exact Sx |]. split; [exact Sy |]. split; intros i j Hij.
  - pose proof (Cx i j Hij) as C. pose proof (Vx i j Hij) as V. pose proof C as [Hn Hc]. split; [| split].
    + exists (rx i j). split; [exact Hn | exact V].
    + intros k Hk. rewrite (dotv_ext _ _ _ _ _ V V). apply Hc; auto.
    + rewrite <- (closest_zero _ _ _ _ C). unfold sdx in V. split; intros H m Hm.
      * transitivity (sx i j m); [symmetry; apply V; auto | apply H; auto].
      * transitivity (q i j m - image (depth p) (rx i j) (q (i - 1)%Z j) m); [apply V; auto | apply H; auto].
  - pose proof (Cy i j Hij) as C. pose proof (Vy i j Hij) as V. pose proof C as [Hn Hc]. split; [| split].
    + exists (ry i j). split; [exact Hn | exact V].
    + intros k Hk. rewrite (dotv_ext _ _ _ _ _ V V). apply Hc; auto.
    + rewrite <- (closest_zero _ _ _ _ C). unfold sdy in V. split; intros H m Hm.
      * transitivity (sy i j m); [symmetry; apply V; auto | apply H; auto].
      * transitivity (q i j m - image (depth p) (ry i j) (q i (j - 1)%Z) m); [apply V; auto | apply H; auto].
Qed.

(** * No motion where all neighbours are equivalent *)
Lemma rhs_equivalent : forall asserts p fcx fcy mob q g g' rx ry old3 old2 rhs i j, multi (depth p) -> unit_field p q ->
  quat_symm_rotation_x p q g = Some rx -> quat_symm_rotation_y p q g' = Some ry ->
  evaluateQuatRHS asserts true true p fcx fcy mob q rx ry old3 old2 = Some rhs -> in_patch p i j ->
  equivalent (depth p) (q i j) (q (i - 1)%Z j) -> equivalent (depth p) (q (i + 1)%Z j) (q i j) ->
  equivalent (depth p) (q i j) (q i (j - 1)%Z) -> equivalent (depth p) (q i (j + 1)%Z) (q i j) ->
  same (depth p) (rhs i j) (fun _ => 0).
Proof.
  intros asserts p fcx fcy mob q g g' rx ry old3 old2 rhs i j Hd Hu Ex Ey E Hij H1 H2 H3 H4 m Hm.
  pose proof (rotation_x_closest p q g rx (or_introl Hd) (fun _ => Hu) Ex) as Cx.
  pose proof (rotation_y_closest p q g' ry (or_introl Hd) (fun _ => Hu) Ey) as Cy.
  assert (Hr : rotations_ok p rx ry) by (split; intros a b Hab; [apply (Cx a b Hab) | apply (Cy a b Hab)]).
  destruct (rhs_symm asserts p fcx fcy mob q rx ry old3 old2 Hd Hr) as (r & E' & W & _). rewrite E in E'. injection E' as <-.
  rewrite W by auto. pose proof Hij as [Hi Hj].
  assert (Z0 : forall n v, same (depth p) v (fun _ => 0) -> same (depth p) (image (depth p) n v) (fun _ => 0)).
  { intros n v H k Hk. rewrite (image_ext _ _ _ _ Hd H k Hk). destruct Hd as [Hd | Hd]; rewrite Hd in *; cbn [image].
    - idx2 k Hk; cbn [comp2 quatmult2 ca cb]; ring.
    - idx4 k Hk; cbn [comp quatmult4 qa qb qc qd]; ring. }
  assert (D : same (depth p) (div_symm p fcx fcy q rx ry i j) (fun _ => 0)).
  { intros k Hk. unfold div_symm.
    rewrite (diverg_ext p _ _ _ _ _ _ _ _ (fun _ => 0) (fun _ => 0) (fun _ => 0) (fun _ => 0)); auto.
    - unfold diverg. ring.
    - apply Z0. apply (closest_zero _ _ _ _ (Cx (i + 1)%Z j ltac:(split; lia))). rewrite shift_plus. exact H2.
    - apply (closest_zero _ _ _ _ (Cx i j ltac:(split; lia))). exact H1.
    - apply Z0. apply (closest_zero _ _ _ _ (Cy i (j + 1)%Z ltac:(split; lia))). rewrite shift_plus. exact H4.
    - apply (closest_zero _ _ _ _ (Cy i j ltac:(split; lia))). exact H3. }
  rewrite (tang_ext _ (q i j) _ _ D m Hm). unfold tang.
  replace (dotv (depth p) (q i j) (fun _ => 0)) with 0; [unfold Rdiv; ring |].
  symmetry. unfold dotv. rewrite (sumZ_ext _ _ _ (fun _ => 0)); [apply sumZ_zero | intros; ring].
Qed.

(** * Changing the representative of every cell *)
Definition commute (d s' r' r s : Z) : Prop := forall v, same d (image d r' (image d s' v)) (image d s (image d r v)).
Lemma commute_inv : forall d s' r' r s, multi d -> rotation_index d s' -> rotation_index d r' -> rotation_index d r -> rotation_index d s ->
  commute d s' r' r s -> forall v, same d (image d (inv_index d r') (image d s v)) (image d s' (image d (inv_index d r) v)).
Proof.
  intros d s' r' r s Hd H1 H2 H3 H4 C v m Hm.
  assert (A : same d (image d s v) (image d r' (image d s' (image d (inv_index d r) v)))).
  { intros k Hk. rewrite (C (image d (inv_index d r) v) k Hk). apply image_ext; auto. intros l Hl. symmetry. apply image_inv; auto. }
  rewrite (image_ext d (inv_index d r') _ _ Hd A m Hm). apply image_inv; auto.
Qed.
Lemma dist_image : forall d n v w, multi d -> rotation_index d n ->
  dotv d (fun m => image d n v m - image d n w m) (fun m => image d n v m - image d n w m) = dotv d (fun m => v m - w m) (fun m => v m - w m).
Proof.
  intros d n v w Hd Hn. rewrite <- (image_dot d n (fun m => v m - w m) (fun m => v m - w m)) by auto.
  apply dotv_ext; intros m Hm; symmetry; apply image_minus; auto.
Qed.
Lemma unique_commute : forall d v w v' w' s s' r r', multi d -> rotation_index d s -> rotation_index d s' ->
  same d v' (image d s v) -> same d w' (image d s' w) -> closest_unique d v w -> closest d v w r -> closest d v' w' r' ->
  commute d s' r' r s.
Proof.
  intros d v w v' w' s s' r r' Hd Hs Hs' Ev Ew (n & Hn & Hu) [Hr Cr] [Hr' Cr'].
  assert (Er : r = n).
  { destruct (Z.eq_dec r n) as [| Hne]; auto. specialize (Hu r Hr Hne). specialize (Cr n Hn). lra. }
  subst n.
  (* e = s'; r'; inverse of s *)
  destruct (image_image d r' s' Hd Hr' Hs') as (e1 & He1 & E1).
  destruct (image_image d (inv_index d s) e1 Hd (inv_index_ok d s Hs) He1) as (e & He & E).
  assert (Ee : forall x, same d (image d r' (image d s' x)) (image d s (image d e x))).
  { intros x m Hm. rewrite (E1 x m Hm). rewrite <- (image_ext d s _ _ Hd (E x) m Hm). symmetry. apply image_inv; auto. }
  (* f = conjugate of r *)
  destruct (image_image d r (inv_index d s') Hd Hr (inv_index_ok d s' Hs')) as (f1 & Hf1 & F1).
  destruct (image_image d s f1 Hd Hs Hf1) as (f & Hf & F).
  assert (Ff : same d (image d f w') (image d s (image d r w))).
  { intros m Hm. rewrite <- (F w' m Hm). apply image_ext; auto. intros k Hk. rewrite <- (F1 w' k Hk).
    apply image_ext; auto. intros l Hl. rewrite (image_ext d (inv_index d s') _ _ Hd Ew l Hl). apply image_inv; auto. }
  assert (De : dotv d (fun m => v m - image d e w m) (fun m => v m - image d e w m) =
               dotv d (fun m => v' m - image d r' w' m) (fun m => v' m - image d r' w' m)).
  { rewrite <- (dist_image d s v (image d e w)) by auto.
    apply dotv_ext; intros m Hm; rewrite (Ev m Hm), (image_ext d r' _ _ Hd Ew m Hm), (Ee w m Hm); reflexivity. }
  assert (Dr : dotv d (fun m => v m - image d r w m) (fun m => v m - image d r w m) =
               dotv d (fun m => v' m - image d f w' m) (fun m => v' m - image d f w' m)).
  { rewrite <- (dist_image d s v (image d r w)) by auto.
    apply dotv_ext; intros m Hm; rewrite (Ev m Hm), (Ff m Hm); reflexivity. }
  assert (X : e = r).
  { destruct (Z.eq_dec e r) as [| Hne]; auto. specialize (Hu e He Hne). specialize (Cr' f Hf). lra. }
  subst e. exact Ee.
Qed.

Definition squares (p : patch) (S rx ry rx' ry' : iarr) : Prop :=
  (forall i j, x_side p i j -> commute (depth p) (S (i - 1)%Z j) (rx' i j) (rx i j) (S i j)) /\
  (forall i j, y_side p i j -> commute (depth p) (S i (j - 1)%Z) (ry' i j) (ry i j) (S i j)).
Lemma regauged_unit : forall p S q q', multi (depth p) -> regauged p S q q' -> unit_field p q -> unit_field p q'.
Proof.
  intros p S q q' Hd H Hu i j Hij. destruct (H i j Hij) as [Hs E]. rewrite (dotv_ext _ _ _ _ _ E E), image_dot by auto. apply Hu; auto.
Qed.
Lemma regauge_squares : forall p S q q' g1 g2 g3 g4 rx ry rx' ry', multi (depth p) -> unit_field p q -> regauged p S q q' -> no_ties p q ->
  quat_symm_rotation_x p q g1 = Some rx -> quat_symm_rotation_y p q g2 = Some ry ->
  quat_symm_rotation_x p q' g3 = Some rx' -> quat_symm_rotation_y p q' g4 = Some ry' ->
  rotations_ok p rx ry /\ rotations_ok p rx' ry' /\ squares p S rx ry rx' ry'.
Proof.
  intros p S q q' g1 g2 g3 g4 rx ry rx' ry' Hd Hu Hg [Tx Ty] E1 E2 E3 E4.
  pose proof (regauged_unit p S q q' Hd Hg Hu) as Hu'.
  pose proof (rotation_x_closest p q g1 rx (or_introl Hd) (fun _ => Hu) E1) as C1.
  pose proof (rotation_y_closest p q g2 ry (or_introl Hd) (fun _ => Hu) E2) as C2.
  pose proof (rotation_x_closest p q' g3 rx' (or_introl Hd) (fun _ => Hu') E3) as C3.
  pose proof (rotation_y_closest p q' g4 ry' (or_introl Hd) (fun _ => Hu') E4) as C4.
  split; [split; intros i j H; [apply (C1 i j H) | apply (C2 i j H)] |].
  split; [split; intros i j H; [apply (C3 i j H) | apply (C4 i j H)] |].
  split; intros i j Hij.
  - assert (G1 : in_ghosts p i j) by (destruct Hij; split; lia). assert (G2 : in_ghosts p (i - 1) j) by (destruct Hij; split; lia).
    destruct (Hg _ _ G1) as [H1 A1]. destruct (Hg _ _ G2) as [H2 A2].
    apply (unique_commute (depth p) (q i j) (q (i - 1)%Z j) (q' i j) (q' (i - 1)%Z j)); auto.
  - assert (G1 : in_ghosts p i j) by (destruct Hij; split; lia). assert (G2 : in_ghosts p i (j - 1)) by (destruct Hij; split; lia).
    destruct (Hg _ _ G1) as [H1 A1]. destruct (Hg _ _ G2) as [H2 A2].
    apply (unique_commute (depth p) (q i j) (q i (j - 1)%Z) (q' i j) (q' i (j - 1)%Z)); auto.
Qed.

Section Regauge.
Variables (p : patch) (S rx ry rx' ry' : iarr) (q q' : arr3).
Hypothesis Hd : multi (depth p).
Hypothesis Hg : regauged p S q q'.
Hypothesis Hr : rotations_ok p rx ry.
Hypothesis Hr' : rotations_ok p rx' ry'.
Hypothesis Hq : squares p S rx ry rx' ry'.
Local Notation d := (depth p).

Lemma rg_S : forall i j, in_ghosts p i j -> rotation_index d (S i j).
Proof. intros i j H. apply (Hg i j H). Qed.
Lemma rg_sdx : forall i j, x_side p i j -> same d (sdx p q' rx' i j) (image d (S i j) (sdx p q rx i j)).
Proof.
  intros i j Hij m Hm. destruct Hij as [Hi Hj]. unfold sdx.
  rewrite (image_minus d (S i j) (q i j) (image d (rx i j) (q (i - 1)%Z j)) Hd m Hm).
  rewrite (proj2 (Hg i j ltac:(split; lia)) m Hm).
  rewrite (image_ext d (rx' i j) _ _ Hd (proj2 (Hg (i - 1)%Z j ltac:(split; lia))) m Hm).
  rewrite (proj1 Hq i j ltac:(split; lia) _ m Hm). reflexivity.
Qed.
Lemma rg_sdy : forall i j, y_side p i j -> same d (sdy p q' ry' i j) (image d (S i j) (sdy p q ry i j)).
Proof.
  intros i j Hij m Hm. destruct Hij as [Hi Hj]. unfold sdy.
  rewrite (image_minus d (S i j) (q i j) (image d (ry i j) (q i (j - 1)%Z)) Hd m Hm).
  rewrite (proj2 (Hg i j ltac:(split; lia)) m Hm).
  rewrite (image_ext d (ry' i j) _ _ Hd (proj2 (Hg i (j - 1)%Z ltac:(split; lia))) m Hm).
  rewrite (proj2 Hq i j ltac:(split; lia) _ m Hm). reflexivity.
Qed.
(** difference across the right (upper) side, seen from the cell *)
Lemma rg_back_x : forall i j, x_side p (i + 1) j -> forall v v', same d v' (image d (S (i + 1)%Z j) v) ->
  same d (image d (inv_index d (rx' (i + 1)%Z j)) v') (image d (S i j) (image d (inv_index d (rx (i + 1)%Z j)) v)).
Proof.
  intros i j Hij v v' H m Hm. pose proof Hij as [Hi Hj]. rewrite (image_ext d _ _ _ Hd H m Hm).
  replace (S i j) with (S (i + 1 - 1)%Z j) by (rewrite shift_plus; reflexivity).
  apply commute_inv; auto; try (apply rg_S; split; lia); try (apply Hr; auto); try (apply Hr'; auto). apply Hq; auto.
Qed.
Lemma rg_back_y : forall i j, y_side p i (j + 1) -> forall v v', same d v' (image d (S i (j + 1)%Z) v) ->
  same d (image d (inv_index d (ry' i (j + 1)%Z)) v') (image d (S i j) (image d (inv_index d (ry i (j + 1)%Z)) v)).
Proof.
  intros i j Hij v v' H m Hm. pose proof Hij as [Hi Hj]. rewrite (image_ext d _ _ _ Hd H m Hm).
  replace (S i j) with (S i (j + 1 - 1)%Z) by (rewrite shift_plus; reflexivity).
  apply commute_inv; auto; try (apply rg_S; split; lia); try (apply Hr; auto); try (apply Hr'; auto). apply Hq; auto.
Qed.

Lemma tang_image : forall n x v, rotation_index d n -> same d (tang d (image d n x) (image d n v)) (image d n (tang d x v)).
Proof.
  intros n x v Hn m Hm. unfold tang.
  rewrite (image_minus d n v (fun m => dotv d x v / dotv d x x * x m) Hd m Hm), (image_scal d n _ x Hd m Hm), !image_dot by auto.
  reflexivity.
Qed.
Lemma diverg_image : forall n cr cl cu cd r l u b, same d
  (diverg p cr cl cu cd (image d n r) (image d n l) (image d n u) (image d n b)) (image d n (diverg p cr cl cu cd r l u b)).
Proof.
  intros n cr cl cu cd r l u b m Hm. unfold diverg.
  rewrite (image_ext d n (fun m => (cr * r m - cl * l m) * (/ h1 p * / h1 p) + (cu * u m - cd * b m) * (/ h2 p * / h2 p))
    (fun m => (/ h1 p * / h1 p) * (cr * r m + - cl * l m) + (/ h2 p * / h2 p) * (cu * u m + - cd * b m)) Hd) by (auto; intros k _; ring).
  rewrite (image_lin d n (/ h1 p * / h1 p) (fun m => cr * r m + - cl * l m) (/ h2 p * / h2 p) (fun m => cu * u m + - cd * b m) Hd m Hm).
  rewrite (image_lin d n cr r (- cl) l Hd m Hm), (image_lin d n cu u (- cd) b Hd m Hm). ring.
Qed.

Lemma rg_rhs : forall asserts asserts' fcx fcy mob old3 old2 rhs rhs',
  evaluateQuatRHS asserts true true p fcx fcy mob q rx ry old3 old2 = Some rhs ->
  evaluateQuatRHS asserts' true true p fcx fcy mob q' rx' ry' old3 old2 = Some rhs' ->
  forall i j, in_patch p i j -> same d (rhs' i j) (image d (S i j) (rhs i j)).
Proof.
  intros asserts asserts' fcx fcy mob old3 old2 rhs rhs' E E' i j Hij m Hm.
  destruct (rhs_symm asserts p fcx fcy mob q rx ry old3 old2 Hd Hr) as (r & E1 & V & _). rewrite E in E1. injection E1 as <-.
  destruct (rhs_symm asserts' p fcx fcy mob q' rx' ry' old3 old2 Hd Hr') as (r & E2 & V' & _). rewrite E' in E2. injection E2 as <-.
  pose proof Hij as [Hi Hj].
  assert (HS : rotation_index d (S i j)) by (apply rg_S; split; lia).
  rewrite V' by auto.
  rewrite (image_ext d (S i j) (rhs i j) (fun m => - mob i j * tang d (q i j) (div_symm p fcx fcy q rx ry i j) m) Hd) by (auto; intros k Hk; apply V; auto).
  rewrite image_scal by auto. f_equal. rewrite <- (tang_image (S i j) (q i j) (div_symm p fcx fcy q rx ry i j) HS m Hm).
  assert (D : same d (div_symm p fcx fcy q' rx' ry' i j) (image d (S i j) (div_symm p fcx fcy q rx ry i j))).
  { intros k Hk. unfold div_symm. rewrite <- (diverg_image (S i j) _ _ _ _ _ _ _ _ k Hk). apply diverg_ext; [| | | | exact Hk].
    - apply rg_back_x; [split; lia |]. apply rg_sdx. split; lia.
    - apply rg_sdx. split; lia.
    - apply rg_back_y; [split; lia |]. apply rg_sdy. split; lia.
    - apply rg_sdy. split; lia. }
  unfold tang. pose proof (proj2 (Hg i j ltac:(split; lia))) as Q.
  rewrite (D m Hm), (Q m Hm), (dotv_ext d _ _ _ _ Q D), (dotv_ext d _ _ _ _ Q Q). reflexivity.
Qed.

(** gradients in the cell and on the sides *)
Lemma cell_grad_x : forall dx rx (Hrx : forall i j, x_side p i j -> rotation_index d (rx i j)) old,
  exists g, quatgrad_cell_symm_x p dx rx old = Some g /\ forall i j, in_patch p i j ->
    same d (g i j) (fun m => (1 / 2) / h1 p * (image d (inv_index d (rx (i + 1)%Z j)) (dx (i + 1)%Z j) m + dx i j m)).
Proof.
  intros dx r Hrx old.
  destruct (ocells_put d (lo0 p) (hi0 p) (lo1 p) (hi1 p) (fun i j s => match rot_back d (dx (i + 1)%Z j) (r (i + 1)%Z j) with
    | None => None | Some d' => Some (put d i j (fun m _ => (d' m + dx i j m) * ((1 / 2) / h1 p)) s) end)
    (fun i j m _ => (rotd d (dx (i + 1)%Z j) (-1 * r (i + 1)%Z j) m + dx i j m) * ((1 / 2) / h1 p)) old) as (g & E & V).
  - intros i j s [Hi Hj]. rewrite (proj1 (rot_back_multi d (dx (i + 1)%Z j) (r (i + 1)%Z j) Hd (Hrx (i + 1)%Z j ltac:(split; lia)))). reflexivity.
  - exists g. split; [exact E |]. intros i j [Hi Hj] m Hm. rewrite V, !inb_true by lia. cbn [andb].
    rewrite (proj2 (rot_back_multi d (dx (i + 1)%Z j) (r (i + 1)%Z j) Hd (Hrx (i + 1)%Z j ltac:(split; lia))) m Hm). ring.
Qed.
Lemma cell_grad_y : forall dy ry (Hry : forall i j, y_side p i j -> rotation_index d (ry i j)) old,
  exists g, quatgrad_cell_symm_y p dy ry old = Some g /\ forall i j, in_patch p i j ->
    same d (g i j) (fun m => (1 / 2) / h2 p * (image d (inv_index d (ry i (j + 1)%Z)) (dy i (j + 1)%Z) m + dy i j m)).
Proof.
  intros dy r Hry old.
  destruct (ocells_put d (lo0 p) (hi0 p) (lo1 p) (hi1 p) (fun i j s => match rot_back d (dy i (j + 1)%Z) (r i (j + 1)%Z) with
    | None => None | Some d' => Some (put d i j (fun m _ => (d' m + dy i j m) * ((1 / 2) / h2 p)) s) end)
    (fun i j m _ => (rotd d (dy i (j + 1)%Z) (-1 * r i (j + 1)%Z) m + dy i j m) * ((1 / 2) / h2 p)) old) as (g & E & V).
  - intros i j s [Hi Hj]. rewrite (proj1 (rot_back_multi d (dy i (j + 1)%Z) (r i (j + 1)%Z) Hd (Hry i (j + 1)%Z ltac:(split; lia)))). reflexivity.
  - exists g. split; [exact E |]. intros i j [Hi Hj] m Hm. rewrite V, !inb_true by lia. cbn [andb].
    rewrite (proj2 (rot_back_multi d (dy i (j + 1)%Z) (r i (j + 1)%Z) Hd (Hry i (j + 1)%Z ltac:(split; lia))) m Hm). ring.
Qed.
Definition avg_y_xside (dy : arr3) (rx ry : iarr) (i j : Z) : vec := fun m => ((1 / 4) * (1 / h2 p)) *
  (image d (rx i j) (fun m => image d (inv_index d (ry (i - 1)%Z (j + 1)%Z)) (dy (i - 1)%Z (j + 1)%Z) m + dy (i - 1)%Z j m) m
   + image d (inv_index d (ry i (j + 1)%Z)) (dy i (j + 1)%Z) m + dy i j m).
Definition avg_x_yside (dx : arr3) (rx ry : iarr) (i j : Z) : vec := fun m => ((1 / 4) * (1 / h1 p)) *
  (image d (ry i j) (fun m => image d (inv_index d (rx (i + 1)%Z (j - 1)%Z)) (dx (i + 1)%Z (j - 1)%Z) m + dx i (j - 1)%Z m) m
   + image d (inv_index d (rx (i + 1)%Z j)) (dx (i + 1)%Z j) m + dx i j m).
Lemma rot_fwd_multi : forall v n, rotation_index d n -> rot_fwd d v n = Some (rotd d v n) /\ same d (rotd d v n) (image d n v).
Proof. intros v n Hn. unfold rot_fwd. rewrite (proj1 (multi_gt1 d Hd)). apply rotd_pos; auto. Qed.
Lemma side_grad_y : forall dy rx ry (Hr : rotations_ok p rx ry) old,
  exists g, quatgrad_side_symm_y_xside p dy rx ry old = Some g /\ forall i j, x_face p i j -> same d (g i j) (avg_y_xside dy rx ry i j).
Proof.
  intros dy r s [H1 H2] old.
  set (D2 := fun i j => rotd d (dy (i - 1)%Z (j + 1)%Z) (-1 * s (i - 1)%Z (j + 1)%Z)).
  set (D1 := fun i j => rotd d (dy i (j + 1)%Z) (-1 * s i (j + 1)%Z)).
  set (D4 := fun i j => rotd d (fun m => D2 i j m + dy (i - 1)%Z j m) (r i j)).
  destruct (ocells_put d (lo0 p) (hi0 p + 1) (lo1 p) (hi1 p) (fun i j st =>
    match rot_back (depth p) (dy i (j + 1)%Z) (s i (j + 1)%Z),
          rot_back (depth p) (dy (i - 1)%Z (j + 1)%Z) (s (i - 1)%Z (j + 1)%Z) with
    | Some d1', Some d2' =>
        match rot_fwd (depth p) (fun m => d2' m + dy (i - 1)%Z j m) (r i j) with
        | None => None
        | Some d4' => Some (put (depth p) i j (fun m _ => ((1 / 4) * (1 / h2 p)) * (d4' m + d1' m + dy i j m)) st)
        end
    | _, _ => None end) (fun i j m _ => ((1 / 4) * (1 / h2 p)) * (D4 i j m + D1 i j m + dy i j m)) old) as (g & E & V).
  - intros i j st [Hi Hj].
    rewrite (proj1 (rot_back_multi d (dy i (j + 1)%Z) _ Hd (H2 i (j + 1)%Z ltac:(split; lia)))).
    rewrite (proj1 (rot_back_multi d (dy (i - 1)%Z (j + 1)%Z) _ Hd (H2 (i - 1)%Z (j + 1)%Z ltac:(split; lia)))).
    rewrite (proj1 (rot_fwd_multi _ _ (H1 i j ltac:(split; lia)))). reflexivity.
  - exists g. split; [exact E |]. intros i j [Hi Hj] m Hm. rewrite V, !inb_true by lia. cbn [andb]. unfold avg_y_xside. f_equal. f_equal. f_equal.
    + unfold D4. rewrite (proj2 (rot_fwd_multi _ _ (H1 i j ltac:(split; lia))) m Hm). apply image_ext; auto. intros k Hk. f_equal.
      apply (proj2 (rot_back_multi d (dy (i - 1)%Z (j + 1)%Z) _ Hd (H2 (i - 1)%Z (j + 1)%Z ltac:(split; lia)))); auto.
    + apply (proj2 (rot_back_multi d (dy i (j + 1)%Z) _ Hd (H2 i (j + 1)%Z ltac:(split; lia)))); auto.
Qed.
Lemma side_grad_x : forall dx rx ry (Hr : rotations_ok p rx ry) old,
  exists g, quatgrad_side_symm_x_yside p dx rx ry old = Some g /\ forall i j, y_face p i j -> same d (g i j) (avg_x_yside dx rx ry i j).
Proof.
  intros dx r s [H1 H2] old.
  set (D2 := fun i j => rotd d (dx (i + 1)%Z (j - 1)%Z) (-1 * r (i + 1)%Z (j - 1)%Z)).
  set (D1 := fun i j => rotd d (dx (i + 1)%Z j) (-1 * r (i + 1)%Z j)).
  set (D4 := fun i j => rotd d (fun m => D2 i j m + dx i (j - 1)%Z m) (s i j)).
  destruct (ocells_put d (lo0 p) (hi0 p) (lo1 p) (hi1 p + 1) (fun i j st =>
    match rot_back (depth p) (dx (i + 1)%Z j) (r (i + 1)%Z j),
          rot_back (depth p) (dx (i + 1)%Z (j - 1)%Z) (r (i + 1)%Z (j - 1)%Z) with
    | Some d1', Some d2' =>
        match rot_fwd (depth p) (fun m => d2' m + dx i (j - 1)%Z m) (s i j) with
        | None => None
        | Some d4' => Some (put (depth p) i j (fun m _ => ((1 / 4) * (1 / h1 p)) * (d4' m + d1' m + dx i j m)) st)
        end
    | _, _ => None end) (fun i j m _ => ((1 / 4) * (1 / h1 p)) * (D4 i j m + D1 i j m + dx i j m)) old) as (g & E & V).
  - intros i j st [Hi Hj].
    rewrite (proj1 (rot_back_multi d (dx (i + 1)%Z j) _ Hd (H1 (i + 1)%Z j ltac:(split; lia)))).
    rewrite (proj1 (rot_back_multi d (dx (i + 1)%Z (j - 1)%Z) _ Hd (H1 (i + 1)%Z (j - 1)%Z ltac:(split; lia)))).
    rewrite (proj1 (rot_fwd_multi _ _ (H2 i j ltac:(split; lia)))). reflexivity.
  - exists g. split; [exact E |]. intros i j [Hi Hj] m Hm. rewrite V, !inb_true by lia. cbn [andb]. unfold avg_x_yside. f_equal. f_equal. f_equal.
    + unfold D4. rewrite (proj2 (rot_fwd_multi _ _ (H2 i j ltac:(split; lia))) m Hm). apply image_ext; auto. intros k Hk. f_equal.
      apply (proj2 (rot_back_multi d (dx (i + 1)%Z (j - 1)%Z) _ Hd (H1 (i + 1)%Z (j - 1)%Z ltac:(split; lia)))); auto.
    + apply (proj2 (rot_back_multi d (dx (i + 1)%Z j) _ Hd (H1 (i + 1)%Z j ltac:(split; lia)))); auto.
Qed.
End Regauge.

Lemma regauge_diffs : forall p S q q' g1 g2 g3 g4 rx ry rx' ry' old sx sy sx' sy',
  multi (depth p) -> unit_field p q -> regauged p S q q' -> no_ties p q ->
  quat_symm_rotation_x p q g1 = Some rx -> quat_symm_rotation_y p q g2 = Some ry ->
  quat_symm_rotation_x p q' g3 = Some rx' -> quat_symm_rotation_y p q' g4 = Some ry' ->
  quatdiffs_symm_x p q rx old = Some sx -> quatdiffs_symm_y p q ry old = Some sy ->
  quatdiffs_symm_x p q' rx' old = Some sx' -> quatdiffs_symm_y p q' ry' old = Some sy' ->
  (forall i j, x_side p i j -> same (depth p) (sx' i j) (image (depth p) (S i j) (sx i j))) /\
  (forall i j, y_side p i j -> same (depth p) (sy' i j) (image (depth p) (S i j) (sy i j))).
Proof.
  intros p S q q' g1 g2 g3 g4 rx ry rx' ry' old sx sy sx' sy' Hd Hu Hg Ht E1 E2 E3 E4 X Y X' Y'.
  destruct (regauge_squares p S q q' g1 g2 g3 g4 rx ry rx' ry' Hd Hu Hg Ht E1 E2 E3 E4) as (Hr & Hr' & Hq).
  destruct (symm_diffs_x p q rx old (or_introl Hd) (proj1 Hr)) as (a & A & VA). rewrite X in A. injection A as <-.
  destruct (symm_diffs_y p q ry old (or_introl Hd) (proj2 Hr)) as (b & B & VB). rewrite Y in B. injection B as <-.
  destruct (symm_diffs_x p q' rx' old (or_introl Hd) (proj1 Hr')) as (a' & A' & VA'). rewrite X' in A'. injection A' as <-.
  destruct (symm_diffs_y p q' ry' old (or_introl Hd) (proj2 Hr')) as (b' & B' & VB'). rewrite Y' in B'. injection B' as <-.
  split; intros i j Hij m Hm.
  - rewrite VA' by auto. rewrite (rg_sdx p S rx ry rx' ry' q q' Hd Hg Hq i j Hij m Hm). apply image_ext; auto.
    intros k Hk. symmetry. apply VA; auto.
  - rewrite VB' by auto. rewrite (rg_sdy p S rx ry rx' ry' q q' Hd Hg Hq i j Hij m Hm). apply image_ext; auto.
    intros k Hk. symmetry. apply VB; auto.
Qed.

Lemma regauge_rhs : forall asserts asserts' p S q q' g1 g2 g3 g4 rx ry rx' ry' fcx fcy mob old3 old2 rhs rhs',
  multi (depth p) -> unit_field p q -> regauged p S q q' -> no_ties p q ->
  quat_symm_rotation_x p q g1 = Some rx -> quat_symm_rotation_y p q g2 = Some ry ->
  quat_symm_rotation_x p q' g3 = Some rx' -> quat_symm_rotation_y p q' g4 = Some ry' ->
  evaluateQuatRHS asserts true true p fcx fcy mob q rx ry old3 old2 = Some rhs ->
  evaluateQuatRHS asserts' true true p fcx fcy mob q' rx' ry' old3 old2 = Some rhs' ->
  forall i j, in_patch p i j -> same (depth p) (rhs' i j) (image (depth p) (S i j) (rhs i j)).
Proof.
  intros asserts asserts' p S q q' g1 g2 g3 g4 rx ry rx' ry' fcx fcy mob old3 old2 rhs rhs' Hd Hu Hg Ht E1 E2 E3 E4 E E'.
  destruct (regauge_squares p S q q' g1 g2 g3 g4 rx ry rx' ry' Hd Hu Hg Ht E1 E2 E3 E4) as (Hr & Hr' & Hq).
  apply (rg_rhs p S rx ry rx' ry' q q' Hd Hg Hr Hr' Hq asserts asserts' fcx fcy mob old3 old2 rhs rhs' E E').
Qed.

Lemma accum_plus : forall d (a b : vec), accum_m d (fun m => a m * a m + b m * b m) = dotv d a a + dotv d b b.
Proof. intros. rewrite accum_sum, sumZ_plus. reflexivity. Qed.
Lemma norm_image : forall d n v w, multi d -> rotation_index d n -> same d w (image d n v) -> dotv d w w = dotv d v v.
Proof. intros d n v w Hd Hn H. rewrite (dotv_ext _ _ _ _ _ H H). apply image_dot; auto. Qed.

Lemma sq_loop : forall d (g : vec) s, do_loop 1 d (fun m s => s + g m * g m) s = s + dotv d g g.
Proof. intros. rewrite loop_sum. reflexivity. Qed.
Lemma compact_val : forall p gxx gyy old2 i j, in_patch p i j ->
  quatgrad_modulus_from_sides_compact p gxx gyy old2 i j =
  sqrt (1 / 2 * (dotv (depth p) (gxx i j) (gxx i j) + dotv (depth p) (gxx (i + 1)%Z j) (gxx (i + 1)%Z j) +
                 (dotv (depth p) (gyy i j) (gyy i j) + dotv (depth p) (gyy i (j + 1)%Z) (gyy i (j + 1)%Z)))).
Proof.
  intros p gxx gyy old2 i j [Hi Hj]. unfold quatgrad_modulus_from_sides_compact.
  rewrite (cells_loop (lo0 p) (hi0 p) (lo1 p) (hi1 p) (fun i j _ => _)), !inb_true by lia. cbn [andb].
  rewrite !sq_loop. f_equal. ring.
Qed.

Lemma regauge_moduli : forall p S q q' g1 g2 g3 g4 rx ry rx' ry' old old2 sx sy sx' sy'
    gx gy gx' gy' gyx gxy gyx' gxy',
  multi (depth p) -> unit_field p q -> regauged p S q q' -> no_ties p q ->
  quat_symm_rotation_x p q g1 = Some rx -> quat_symm_rotation_y p q g2 = Some ry ->
  quat_symm_rotation_x p q' g3 = Some rx' -> quat_symm_rotation_y p q' g4 = Some ry' ->
  quatdiffs_symm_x p q rx old = Some sx -> quatdiffs_symm_y p q ry old = Some sy ->
  quatdiffs_symm_x p q' rx' old = Some sx' -> quatdiffs_symm_y p q' ry' old = Some sy' ->
  quatgrad_cell_symm_x p sx rx old = Some gx -> quatgrad_cell_symm_y p sy ry old = Some gy ->
  quatgrad_cell_symm_x p sx' rx' old = Some gx' -> quatgrad_cell_symm_y p sy' ry' old = Some gy' ->
  quatgrad_side_symm_y_xside p sy rx ry old = Some gyx -> quatgrad_side_symm_x_yside p sx rx ry old = Some gxy ->
  quatgrad_side_symm_y_xside p sy' rx' ry' old = Some gyx' -> quatgrad_side_symm_x_yside p sx' rx' ry' old = Some gxy' ->
  forall i j, in_patch p i j ->
    quatgrad_modulus p gx' gy' old2 i j = quatgrad_modulus p gx gy old2 i j /\
    quatgrad_modulus_from_sides_compact p (quatgrad_side_x_xside p sx' old) (quatgrad_side_y_yside p sy' old) old2 i j =
    quatgrad_modulus_from_sides_compact p (quatgrad_side_x_xside p sx old) (quatgrad_side_y_yside p sy old) old2 i j /\
    (forall k l, x_face p k l -> side_square (depth p) (quatgrad_side_x_xside p sx' old) gyx' k l =
                                 side_square (depth p) (quatgrad_side_x_xside p sx old) gyx k l) /\
    (forall k l, y_face p k l -> side_square (depth p) gxy' (quatgrad_side_y_yside p sy' old) k l =
                                 side_square (depth p) gxy (quatgrad_side_y_yside p sy old) k l).
Proof.
  intros p S q q' g1 g2 g3 g4 rx ry rx' ry' old old2 sx sy sx' sy' gx gy gx' gy' gyx gxy gyx' gxy'
    Hd Hu Hg Ht E1 E2 E3 E4 X Y X' Y' A B A' B' C D C' D' i j Hij.
  destruct (regauge_diffs p S q q' g1 g2 g3 g4 rx ry rx' ry' old sx sy sx' sy' Hd Hu Hg Ht E1 E2 E3 E4 X Y X' Y') as [Dx Dy].
  destruct (regauge_squares p S q q' g1 g2 g3 g4 rx ry rx' ry' Hd Hu Hg Ht E1 E2 E3 E4) as (Hr & Hr' & Hq).
  clear E1 E2 E3 E4 X Y X' Y' Ht Hu. pose proof Hij as [Hi Hj].
  assert (HS : forall i j, in_ghosts p i j -> rotation_index (depth p) (S i j)) by (intros a b H; apply (Hg a b H)).
  pose proof (rg_back_x p S rx ry rx' ry' q q' Hd Hg Hr Hr' Hq) as Bx. pose proof (rg_back_y p S rx ry rx' ry' q q' Hd Hg Hr Hr' Hq) as By.
  split.
  - destruct (cell_grad_x p Hd sx rx (proj1 Hr) old) as (a & Ea & Va). rewrite A in Ea. injection Ea as <-.
    destruct (cell_grad_y p Hd sy ry (proj2 Hr) old) as (b & Eb & Vb). rewrite B in Eb. injection Eb as <-.
    destruct (cell_grad_x p Hd sx' rx' (proj1 Hr') old) as (a & Ea & Va'). rewrite A' in Ea. injection Ea as <-.
    destruct (cell_grad_y p Hd sy' ry' (proj2 Hr') old) as (b & Eb & Vb'). rewrite B' in Eb. injection Eb as <-.
    unfold quatgrad_modulus. rewrite !(cells_loop (lo0 p) (hi0 p) (lo1 p) (hi1 p) (fun i j _ => _)), !inb_true by lia. cbn [andb].
    f_equal. rewrite !accum_plus. f_equal; apply (norm_image _ (S i j)); auto; try (apply HS; split; lia).
    + intros m Hm. rewrite (Va' i j Hij m Hm), (image_ext _ _ _ _ Hd (Va i j Hij) m Hm).
      rewrite (image_scal _ (S i j) _ (fun m => image (depth p) (inv_index (depth p) (rx (i + 1)%Z j)) (sx (i + 1)%Z j) m + sx i j m) Hd m Hm).
      f_equal. rewrite image_plus by auto. f_equal.
      * apply Bx; auto; [split; lia |]. apply Dx. split; lia.
      * apply Dx; auto. split; lia.
    + intros m Hm. rewrite (Vb' i j Hij m Hm), (image_ext _ _ _ _ Hd (Vb i j Hij) m Hm).
      rewrite (image_scal _ (S i j) _ (fun m => image (depth p) (inv_index (depth p) (ry i (j + 1)%Z)) (sy i (j + 1)%Z) m + sy i j m) Hd m Hm).
      f_equal. rewrite image_plus by auto. f_equal.
      * apply By; auto; [split; lia |]. apply Dy. split; lia.
      * apply Dy; auto. split; lia.
  - clear A B A' B'. assert (Vx : forall s i j, x_face p i j -> same (depth p) (quatgrad_side_x_xside p s old i j) (fun m => (1 / h1 p) * s i j m)).
    { intros s a b [Ha Hb] m Hm. unfold quatgrad_side_x_xside. rewrite mcells_val, !inb_true by lia. reflexivity. }
    assert (Vy : forall s i j, y_face p i j -> same (depth p) (quatgrad_side_y_yside p s old i j) (fun m => (1 / h2 p) * s i j m)).
    { intros s a b [Ha Hb] m Hm. unfold quatgrad_side_y_yside. rewrite mcells_val, !inb_true by lia. reflexivity. }
    assert (Nx : forall i j, x_face p i j -> dotv (depth p) (quatgrad_side_x_xside p sx' old i j) (quatgrad_side_x_xside p sx' old i j) =
      dotv (depth p) (quatgrad_side_x_xside p sx old i j) (quatgrad_side_x_xside p sx old i j)).
    { intros a b Hab. apply (norm_image _ (S a b)); auto; [apply HS; destruct Hab; split; lia |].
      intros m Hm. rewrite (Vx sx' a b Hab m Hm), (image_ext _ _ _ _ Hd (Vx sx a b Hab) m Hm), image_scal by auto. f_equal. apply Dx; auto. destruct Hab; split; lia. }
    assert (Ny : forall i j, y_face p i j -> dotv (depth p) (quatgrad_side_y_yside p sy' old i j) (quatgrad_side_y_yside p sy' old i j) =
      dotv (depth p) (quatgrad_side_y_yside p sy old i j) (quatgrad_side_y_yside p sy old i j)).
    { intros a b Hab. apply (norm_image _ (S a b)); auto; [apply HS; destruct Hab; split; lia |].
      intros m Hm. rewrite (Vy sy' a b Hab m Hm), (image_ext _ _ _ _ Hd (Vy sy a b Hab) m Hm), image_scal by auto. f_equal. apply Dy; auto. destruct Hab; split; lia. }
    split.
    { rewrite !compact_val by auto. rewrite !Nx, !Ny by (split; lia). reflexivity. }
    destruct (side_grad_y p Hd sy rx ry Hr old) as (a & Ea & Va). rewrite C in Ea. injection Ea as <-.
    destruct (side_grad_x p Hd sx rx ry Hr old) as (b & Eb & Vb). rewrite D in Eb. injection Eb as <-.
    destruct (side_grad_y p Hd sy' rx' ry' Hr' old) as (a & Ea & Va'). rewrite C' in Ea. injection Ea as <-.
    destruct (side_grad_x p Hd sx' rx' ry' Hr' old) as (b & Eb & Vb'). rewrite D' in Eb. injection Eb as <-.
    assert (Gx : forall i j, x_face p i j ->
      side_square (depth p) (quatgrad_side_x_xside p sx' old) gyx' i j = side_square (depth p) (quatgrad_side_x_xside p sx old) gyx i j).
    { clear i j Hij Hi Hj. intros i j Hij. pose proof Hij as [Hi Hj]. unfold side_square.
      f_equal; apply (norm_image _ (S i j)); auto; try (apply HS; split; lia).
      - assert (V : forall s, same (depth p) (quatgrad_side_x_xside p s old i j) (fun m => (1 / h1 p) * s i j m)).
        { intros s m Hm. unfold quatgrad_side_x_xside. rewrite mcells_val, !inb_true by lia. reflexivity. }
        intros m Hm. rewrite (V sx' m Hm), (image_ext _ _ _ _ Hd (V sx) m Hm), image_scal by auto. f_equal. apply Dx; auto. split; lia.
      - intros m Hm. rewrite (Va' i j Hij m Hm), (image_ext _ _ _ _ Hd (Va i j Hij) m Hm). unfold avg_y_xside.
        set (P1 := image (depth p) (rx i j) (fun m => image (depth p) (inv_index (depth p) (ry (i - 1)%Z (j + 1)%Z)) (sy (i - 1)%Z (j + 1)%Z) m + sy (i - 1)%Z j m)).
        set (P2 := image (depth p) (inv_index (depth p) (ry i (j + 1)%Z)) (sy i (j + 1)%Z)).
        rewrite (image_scal _ (S i j) _ (fun m => P1 m + P2 m + sy i j m) Hd m Hm). f_equal.
        rewrite (image_plus _ (S i j) (fun m => P1 m + P2 m) (sy i j) Hd m Hm), (image_plus _ (S i j) P1 P2 Hd m Hm). unfold P1, P2. clear P1 P2.
        f_equal; [f_equal |].
        + set (U' := fun m => image (depth p) (inv_index (depth p) (ry' (i - 1)%Z (j + 1)%Z)) (sy' (i - 1)%Z (j + 1)%Z) m + sy' (i - 1)%Z j m).
          set (U := fun m => image (depth p) (inv_index (depth p) (ry (i - 1)%Z (j + 1)%Z)) (sy (i - 1)%Z (j + 1)%Z) m + sy (i - 1)%Z j m).
          assert (EU : same (depth p) U' (image (depth p) (S (i - 1)%Z j) U)).
          { intros k Hk. unfold U, U'. rewrite image_plus by auto. f_equal.
            - apply By; auto; [split; lia |]. apply Dy. split; lia.
            - apply Dy; auto. split; lia. }
          rewrite (image_ext _ (rx' i j) _ _ Hd EU m Hm). apply (proj1 Hq i j ltac:(split; lia)). exact Hm.
        + apply By; auto; [split; lia |]. apply Dy. split; lia.
        + apply Dy; auto. split; lia. }
    assert (Gy : forall i j, y_face p i j ->
      side_square (depth p) gxy' (quatgrad_side_y_yside p sy' old) i j = side_square (depth p) gxy (quatgrad_side_y_yside p sy old) i j).
    { clear i j Hij Hi Hj. intros i j Hij. pose proof Hij as [Hi Hj]. unfold side_square.
      f_equal; apply (norm_image _ (S i j)); auto; try (apply HS; split; lia).
      - intros m Hm. rewrite (Vb' i j Hij m Hm), (image_ext _ _ _ _ Hd (Vb i j Hij) m Hm). unfold avg_x_yside.
        set (P1 := image (depth p) (ry i j) (fun m => image (depth p) (inv_index (depth p) (rx (i + 1)%Z (j - 1)%Z)) (sx (i + 1)%Z (j - 1)%Z) m + sx i (j - 1)%Z m)).
        set (P2 := image (depth p) (inv_index (depth p) (rx (i + 1)%Z j)) (sx (i + 1)%Z j)).
        rewrite (image_scal _ (S i j) _ (fun m => P1 m + P2 m + sx i j m) Hd m Hm). f_equal.
        rewrite (image_plus _ (S i j) (fun m => P1 m + P2 m) (sx i j) Hd m Hm), (image_plus _ (S i j) P1 P2 Hd m Hm). unfold P1, P2. clear P1 P2.
        f_equal; [f_equal |].
        + set (U' := fun m => image (depth p) (inv_index (depth p) (rx' (i + 1)%Z (j - 1)%Z)) (sx' (i + 1)%Z (j - 1)%Z) m + sx' i (j - 1)%Z m).
          set (U := fun m => image (depth p) (inv_index (depth p) (rx (i + 1)%Z (j - 1)%Z)) (sx (i + 1)%Z (j - 1)%Z) m + sx i (j - 1)%Z m).
          assert (EU : same (depth p) U' (image (depth p) (S i (j - 1)%Z) U)).
          { intros k Hk. unfold U, U'. rewrite image_plus by auto. f_equal.
            - apply Bx; auto; [split; lia |]. apply Dx. split; lia.
            - apply Dx; auto. split; lia. }
          rewrite (image_ext _ (ry' i j) _ _ Hd EU m Hm). apply (proj2 Hq i j ltac:(split; lia)). exact Hm.
        + apply Bx; auto; [split; lia |]. apply Dx. split; lia.
        + apply Dx; auto. split; lia.
      - assert (V : forall s, same (depth p) (quatgrad_side_y_yside p s old i j) (fun m => (1 / h2 p) * s i j m)).
        { intros s m Hm. unfold quatgrad_side_y_yside. rewrite mcells_val, !inb_true by lia. reflexivity. }
        intros m Hm. rewrite (V sy' m Hm), (image_ext _ _ _ _ Hd (V sy) m Hm), image_scal by auto. f_equal. apply Dy; auto. split; lia. }
    split; assumption.
Qed.

(** * Gradient modulus *)
Lemma cell_modulus_val : forall p gx gy old2 i j, in_patch p i j ->
  quatgrad_modulus p gx gy old2 i j = sqrt (dotv (depth p) (gx i j) (gx i j) + dotv (depth p) (gy i j) (gy i j)).
Proof.
  intros p gx gy old2 i j [Hi Hj]. unfold quatgrad_modulus.
  rewrite (cells_loop (lo0 p) (hi0 p) (lo1 p) (hi1 p) (fun i j _ => _)), !inb_true by lia. cbn [andb]. rewrite accum_plus. reflexivity.
Qed.
Lemma moduli_linear : forall p q a b c old old2 i j,
  (forall k l, in_ghosts p k l -> same (depth p) (q k l) (fun m => c m + IZR k * a m + IZR l * b m)) -> in_patch p i j ->
  let dx := quatdiffs_x p q old in let dy := quatdiffs_y p q old in
  let exact := sqrt (dotv (depth p) a a / (h1 p * h1 p) + dotv (depth p) b b / (h2 p * h2 p)) in
  quatgrad_modulus p (quatgrad_cell_x p dx old) (quatgrad_cell_y p dy old) old2 i j = exact /\
  quatgrad_modulus_from_sides_compact p (quatgrad_side_x_xside p dx old) (quatgrad_side_y_yside p dy old) old2 i j = exact.
Proof.
  intros p q a b c old old2 i j Hq Hij dx dy exact. pose proof Hij as [Hi Hj].
  assert (Dx : forall k l, x_side p k l -> same (depth p) (dx k l) a).
  { intros k l [Hk Hl] m Hm. unfold dx, quatdiffs_x. rewrite mcells_val, !inb_true by lia. cbn [andb].
    rewrite (Hq k l ltac:(split; lia) m Hm), (Hq (k - 1)%Z l ltac:(split; lia) m Hm), minus_IZR. ring. }
  assert (Dy : forall k l, y_side p k l -> same (depth p) (dy k l) b).
  { intros k l [Hk Hl] m Hm. unfold dy, quatdiffs_y. rewrite mcells_val, !inb_true by lia. cbn [andb].
    rewrite (Hq k l ltac:(split; lia) m Hm), (Hq k (l - 1)%Z ltac:(split; lia) m Hm), minus_IZR. ring. }
  assert (SC : forall (v : vec) h w, same (depth p) w (fun m => / h * v m) -> dotv (depth p) w w = dotv (depth p) v v / (h * h)).
  { intros v h w Hw. rewrite (dotv_ext _ _ _ _ _ Hw Hw). unfold dotv, Rdiv. rewrite <- sumZ_scal_r || rewrite Rmult_comm, <- sumZ_scal.
    apply sumZ_ext. intros m Hm. rewrite Rinv_mult. ring. }
  split.
  - rewrite cell_modulus_val by auto. unfold exact. f_equal. f_equal; apply SC; intros m Hm.
    + unfold quatgrad_cell_x. rewrite mcells_val, !inb_true by lia. cbn [andb].
      rewrite (Dx i j ltac:(split; lia) m Hm), (Dx (i + 1)%Z j ltac:(split; lia) m Hm). unfold Rdiv. generalize (/ h1 p). intro z. field.
    + unfold quatgrad_cell_y. rewrite mcells_val, !inb_true by lia. cbn [andb].
      rewrite (Dy i j ltac:(split; lia) m Hm), (Dy i (j + 1)%Z ltac:(split; lia) m Hm). unfold Rdiv. generalize (/ h2 p). intro z. field.
  - rewrite compact_val by auto. unfold exact. f_equal.
    rewrite (SC a (h1 p) (quatgrad_side_x_xside p dx old i j)), (SC a (h1 p) (quatgrad_side_x_xside p dx old (i + 1)%Z j)),
      (SC b (h2 p) (quatgrad_side_y_yside p dy old i j)), (SC b (h2 p) (quatgrad_side_y_yside p dy old i (j + 1)%Z)).
    { generalize (dotv (depth p) a a / (h1 p * h1 p)) (dotv (depth p) b b / (h2 p * h2 p)). intros u v. field. }
    all: intros m Hm; unfold quatgrad_side_x_xside, quatgrad_side_y_yside; rewrite mcells_val, !inb_true by lia; cbn [andb].
    + rewrite (Dy i (j + 1)%Z ltac:(split; lia) m Hm). unfold Rdiv. ring.
    + rewrite (Dy i j ltac:(split; lia) m Hm). unfold Rdiv. ring.
    + rewrite (Dx (i + 1)%Z j ltac:(split; lia) m Hm). unfold Rdiv. ring.
    + rewrite (Dx i j ltac:(split; lia) m Hm). unfold Rdiv. ring.
Qed.
Lemma compact_zero : forall p q old old2 i j, 0 < h1 p -> 0 < h2 p -> in_patch p i j ->
  (quatgrad_modulus_from_sides_compact p (quatgrad_side_x_xside p (quatdiffs_x p q old) old)
     (quatgrad_side_y_yside p (quatdiffs_y p q old) old) old2 i j = 0 <->
   same (depth p) (q (i - 1)%Z j) (q i j) /\ same (depth p) (q (i + 1)%Z j) (q i j) /\
   same (depth p) (q i (j - 1)%Z) (q i j) /\ same (depth p) (q i (j + 1)%Z) (q i j)).
Proof.
  intros p q old old2 i j H1 H2 Hij. pose proof Hij as [Hi Hj]. rewrite compact_val by auto.
  set (gx := quatgrad_side_x_xside p (quatdiffs_x p q old) old). set (gy := quatgrad_side_y_yside p (quatdiffs_y p q old) old).
  assert (Dx : forall k, (i <= k <= i + 1)%Z -> forall m, (1 <= m <= depth p)%Z -> gx k j m = / h1 p * (q k j m - q (k - 1)%Z j m)).
  { intros k Hk m Hm. unfold gx, quatgrad_side_x_xside, quatdiffs_x. rewrite mcells_val, !inb_true by lia. cbn [andb].
    rewrite mcells_val, !inb_true by lia. cbn [andb]. unfold Rdiv. ring. }
  assert (Dy : forall l, (j <= l <= j + 1)%Z -> forall m, (1 <= m <= depth p)%Z -> gy i l m = / h2 p * (q i l m - q i (l - 1)%Z m)).
  { intros k Hk m Hm. unfold gy, quatgrad_side_y_yside, quatdiffs_y. rewrite mcells_val, !inb_true by lia. cbn [andb].
    rewrite mcells_val, !inb_true by lia. cbn [andb]. unfold Rdiv. ring. }
  assert (NN : forall v : vec, 0 <= dotv (depth p) v v) by (intro v; apply sumZ_nonneg; intros; nra).
  assert (Z0 : forall v : vec, dotv (depth p) v v = 0 <-> same (depth p) v (fun _ => 0)).
  { intro v. split.
    - intros E m Hm. assert (E' : v m * v m = 0) by (apply (sumZ_zero_inv 1 (depth p) (fun m => v m * v m)); auto; intros; nra). nra.
    - intros E. rewrite (dotv_ext _ _ _ _ _ E E). unfold dotv. rewrite (sumZ_scal 1 (depth p) 0 (fun _ => 0)). ring. }
  pose proof (NN (gx i j)) as N1. pose proof (NN (gx (i + 1)%Z j)) as N2. pose proof (NN (gy i j)) as N3. pose proof (NN (gy i (j + 1)%Z)) as N4.
  assert (I1 : 0 < / h1 p) by (apply Rinv_0_lt_compat; auto). assert (I2 : 0 < / h2 p) by (apply Rinv_0_lt_compat; auto).
  assert (Q : forall z x y, 0 < z -> z * (x - y) = 0 <-> x = y).
  { intros z x y Hz. split; [intros E; apply Rmult_integral in E; lra | intros ->; ring]. }
  split.
  - intros E. apply sqrt_eq_0 in E; [|lra].
    assert (A1 := proj1 (Z0 (gx i j)) ltac:(lra)). assert (A2 := proj1 (Z0 (gx (i + 1)%Z j)) ltac:(lra)).
    assert (A3 := proj1 (Z0 (gy i j)) ltac:(lra)). assert (A4 := proj1 (Z0 (gy i (j + 1)%Z)) ltac:(lra)).
    split; [|split; [|split]]; intros m Hm.
    + specialize (A1 m Hm). rewrite Dx in A1 by lia. apply Q in A1; auto.
    + specialize (A2 m Hm). rewrite Dx in A2 by lia. apply Q in A2; auto. rewrite A2. f_equal. lia.
    + specialize (A3 m Hm). rewrite Dy in A3 by lia. apply Q in A3; auto.
    + specialize (A4 m Hm). rewrite Dy in A4 by lia. apply Q in A4; auto. rewrite A4. f_equal. lia.
  - intros (A1 & A2 & A3 & A4).
    rewrite (proj2 (Z0 (gx i j))), (proj2 (Z0 (gx (i + 1)%Z j))), (proj2 (Z0 (gy i j))), (proj2 (Z0 (gy i (j + 1)%Z))).
    + etransitivity; [|exact sqrt_0]. f_equal. ring.
    + intros m Hm. rewrite Dy by lia. apply Q; auto. rewrite A4 by auto. f_equal. lia.
    + intros m Hm. rewrite Dy by lia. apply Q; auto. rewrite A3 by auto. reflexivity.
    + intros m Hm. rewrite Dx by lia. apply Q; auto. rewrite A2 by auto. f_equal. lia.
    + intros m Hm. rewrite Dx by lia. apply Q; auto. rewrite A1 by auto. reflexivity.
Qed.
Lemma cells_zero : forall p q old old2 i j, 0 < h1 p -> 0 < h2 p -> in_patch p i j ->
  (quatgrad_modulus p (quatgrad_cell_x p (quatdiffs_x p q old) old) (quatgrad_cell_y p (quatdiffs_y p q old) old) old2 i j = 0 <->
   same (depth p) (q (i - 1)%Z j) (q (i + 1)%Z j) /\ same (depth p) (q i (j - 1)%Z) (q i (j + 1)%Z)).
Proof.
  intros p q old old2 i j H1 H2 Hij. pose proof Hij as [Hi Hj]. rewrite cell_modulus_val by auto.
  set (gx := quatgrad_cell_x p (quatdiffs_x p q old) old). set (gy := quatgrad_cell_y p (quatdiffs_y p q old) old).
  assert (Dx : forall m, (1 <= m <= depth p)%Z -> gx i j m = 1 / 2 * / h1 p * (q (i + 1)%Z j m - q (i - 1)%Z j m)).
  { intros m Hm. unfold gx, quatgrad_cell_x, quatdiffs_x. rewrite mcells_val, !inb_true by lia. cbn [andb].
    rewrite !mcells_val, !inb_true by lia. cbn [andb]. replace (i + 1 - 1)%Z with i by lia. unfold Rdiv. ring. }
  assert (Dy : forall m, (1 <= m <= depth p)%Z -> gy i j m = 1 / 2 * / h2 p * (q i (j + 1)%Z m - q i (j - 1)%Z m)).
  { intros m Hm. unfold gy, quatgrad_cell_y, quatdiffs_y. rewrite mcells_val, !inb_true by lia. cbn [andb].
    rewrite !mcells_val, !inb_true by lia. cbn [andb]. replace (j + 1 - 1)%Z with j by lia. unfold Rdiv. ring. }
  assert (NN : forall v : vec, 0 <= dotv (depth p) v v) by (intro v; apply sumZ_nonneg; intros; nra).
  assert (Z0 : forall v : vec, dotv (depth p) v v = 0 <-> same (depth p) v (fun _ => 0)).
  { intro v. split.
    - intros E m Hm. assert (E' : v m * v m = 0) by (apply (sumZ_zero_inv 1 (depth p) (fun m => v m * v m)); auto; intros; nra). nra.
    - intros E. rewrite (dotv_ext _ _ _ _ _ E E). unfold dotv. rewrite (sumZ_scal 1 (depth p) 0 (fun _ => 0)). ring. }
  pose proof (NN (gx i j)) as N1. pose proof (NN (gy i j)) as N3.
  assert (I1 : 0 < / h1 p) by (apply Rinv_0_lt_compat; auto). assert (I2 : 0 < / h2 p) by (apply Rinv_0_lt_compat; auto).
  assert (Q : forall z x y, 0 < z -> 1 / 2 * z * (x - y) = 0 <-> y = x).
  { intros z x y Hz. split; [intros E; apply Rmult_integral in E; lra | intros ->; ring]. }
  split.
  - intros E. apply sqrt_eq_0 in E; [|lra].
    assert (A1 := proj1 (Z0 (gx i j)) ltac:(lra)). assert (A3 := proj1 (Z0 (gy i j)) ltac:(lra)).
    split; intros m Hm.
    + specialize (A1 m Hm). rewrite Dx in A1 by lia. apply Q in A1; auto.
    + specialize (A3 m Hm). rewrite Dy in A3 by lia. apply Q in A3; auto.
  - intros (A1 & A3). rewrite (proj2 (Z0 (gx i j))), (proj2 (Z0 (gy i j))).
    + etransitivity; [|exact sqrt_0]. f_equal. ring.
    + intros m Hm. rewrite Dy by lia. apply Q; auto.
    + intros m Hm. rewrite Dx by lia. apply Q; auto.
Qed.

Lemma cells_blind : exists (p : patch) (q : arr3) (i j : Z), 0 < h1 p /\ 0 < h2 p /\ in_patch p i j /\
  (forall old old2, quatgrad_modulus p (quatgrad_cell_x p (quatdiffs_x p q old) old) (quatgrad_cell_y p (quatdiffs_y p q old) old) old2 i j = 0) /\
  q (i - 1)%Z j 1%Z <> q i j 1%Z.
Proof.
  exists (mk_patch 0 0 0 0 1 1 1), (fun i _ _ => if Z.even i then 1 else 0), 0%Z, 0%Z. split; [cbn; lra |]. split; [cbn; lra |]. split; [split; cbn; lia |].
  split; [| cbn; lra]. intros. apply cells_zero; try (cbn; lra); [split; cbn; lia |]. split; intros m Hm; reflexivity.
Qed.

(** * Descent of the interface energy *)
Lemma sum_limit : forall lo hi (f : Z -> R -> R) (l : Z -> R) x,
  (forall i, (lo <= i <= hi)%Z -> derivable_pt_lim (f i) x (l i)) ->
  derivable_pt_lim (fun t => sumZ lo hi (fun i => f i t)) x (sumZ lo hi l).
Proof.
  intros lo hi f l x. revert lo hi.
  apply (Zinterval_ind (fun lo hi => (forall i, (lo <= i <= hi)%Z -> derivable_pt_lim (f i) x (l i)) ->
    derivable_pt_lim (fun t => sumZ lo hi (fun i => f i t)) x (sumZ lo hi l))).
  - intros lo hi H _. rewrite sumZ_empty by auto.
    apply (derivable_pt_lim_ext (fun _ => 0)); [intro t; rewrite sumZ_empty by auto; reflexivity | apply derivable_pt_lim_const].
  - intros lo hi H IH Hf. rewrite sumZ_snoc by auto.
    apply (derivable_pt_lim_ext (fun t => sumZ lo (hi - 1) (fun i => f i t) + f hi t)); [intro t; rewrite (sumZ_snoc lo hi) by auto; reflexivity |].
    apply derivable_pt_lim_plus; [apply IH; intros; apply Hf; lia | apply Hf; lia].
Qed.
Lemma box_limit : forall lo0 hi0 lo1 hi1 (f : Z -> Z -> R -> R) (l : Z -> Z -> R) x,
  (forall i j, in_box lo0 hi0 lo1 hi1 i j -> derivable_pt_lim (f i j) x (l i j)) ->
  derivable_pt_lim (fun t => sum_box lo0 hi0 lo1 hi1 (fun i j => f i j t)) x (sum_box lo0 hi0 lo1 hi1 l).
Proof.
  intros lo0 hi0 lo1 hi1 f l x H. unfold sum_box.
  apply (sum_limit lo1 hi1 (fun j t => sumZ lo0 hi0 (fun i => f i j t)) (fun j => sumZ lo0 hi0 (fun i => l i j))). intros j Hj.
  apply (sum_limit lo0 hi0 (fun i t => f i j t) (fun i => l i j)). intros i Hi. apply H. split; auto.
Qed.
Lemma quad_limit : forall c A B C k, derivable_pt_lim (fun t => c * ((A + 2 * t * B + t * t * C) / k)) 0 (2 * c * B / k).
Proof.
  intros c A B C k. apply (derivable_pt_lim_ext (fun t => c * / k * (A + 2 * t * B + t * t * C))); [intro t; unfold Rdiv; ring |].
  replace (2 * c * B / k) with (c * / k * (2 * B)) by (unfold Rdiv; ring).
  apply derivable_pt_lim_scal. intros e He. exists (mkposreal (e / (Rabs C + 1)) ltac:(apply Rdiv_lt_0_compat; [auto | pose proof (Rabs_pos C); lra])).
  intros t Ht Hlt'. assert (Hlt : Rabs t < e / (Rabs C + 1)) by exact Hlt'.
  replace ((A + 2 * (0 + t) * B + (0 + t) * (0 + t) * C - (A + 2 * 0 * B + 0 * 0 * C)) / t - 2 * B) with (t * C) by (field; auto).
  rewrite Rabs_mult. pose proof (Rabs_pos C) as HC. pose proof (Rabs_pos t) as HT.
  apply Rle_lt_trans with (Rabs t * (Rabs C + 1)); [apply Rmult_le_compat_l; lra |].
  apply (Rmult_lt_compat_r (Rabs C + 1)) in Hlt; [| lra]. replace (e / (Rabs C + 1) * (Rabs C + 1)) with e in Hlt by (field; lra). lra.
Qed.
Lemma dotv_quad : forall d a b t, dotv d (fun m => a m + t * b m) (fun m => a m + t * b m) = dotv d a a + 2 * t * dotv d a b + t * t * dotv d b b.
Proof.
  intros. unfold dotv. rewrite <- !sumZ_scal, <- !sumZ_plus. apply sumZ_ext. intros; ring.
Qed.
Lemma sum_by_parts : forall lo hi (A B : Z -> R), (lo <= hi + 1)%Z -> A (hi + 1)%Z = 0 -> B lo = 0 ->
  sumZ lo (hi + 1) (fun i => A i - B i) = sumZ lo hi (fun i => A i - B (i + 1)%Z).
Proof.
  intros lo hi A B H HA HB. rewrite !sumZ_minus.
  rewrite (sumZ_snoc lo (hi + 1) A) by lia. rewrite HA, shift_plus.
  rewrite (sumZ_cons lo (hi + 1) B) by lia. rewrite HB.
  assert (E : forall lo hi, sumZ (lo + 1) (hi + 1) B = sumZ lo hi (fun i => B (i + 1)%Z)).
  { apply Zinterval_ind; clear.
    - intros lo hi H. rewrite !sumZ_empty by lia. reflexivity.
    - intros lo hi H IH. rewrite (sumZ_snoc (lo + 1) (hi + 1)), (sumZ_snoc lo hi) by lia.
      replace (hi + 1 - 1)%Z with (hi - 1 + 1)%Z by lia. rewrite IH. reflexivity. }
  rewrite E. ring.
Qed.

Section Descent.
Variables (p : patch) (Lx Ly Lx' Ly' : Z -> Z -> vec -> vec) (fcx fcy : arr2) (q V : arr3).
Local Notation d := (depth p).
Hypothesis Hbox : (lo0 p <= hi0 p + 1)%Z /\ (lo1 p <= hi1 p + 1)%Z.
Hypothesis linx : forall i j, x_face p i j -> forall v w t, same d (Lx i j (fun m => v m + t * w m)) (fun m => Lx i j v m + t * Lx i j w m).
Hypothesis liny : forall i j, y_face p i j -> forall v w t, same d (Ly i j (fun m => v m + t * w m)) (fun m => Ly i j v m + t * Ly i j w m).
Hypothesis adjx : forall i j, x_face p i j -> forall v w, dotv d v (Lx i j w) = dotv d (Lx' i j v) w.
Hypothesis adjy : forall i j, y_face p i j -> forall v w, dotv d v (Ly i j w) = dotv d (Ly' i j v) w.
Hypothesis Vout : forall i j m, ~ in_patch p i j -> V i j m = 0.

Definition energyL (q : arr3) : R :=
  sum_box (lo0 p) (hi0 p + 1) (lo1 p) (hi1 p) (fun i j =>
    - fcx i j / 2 * (dotv d (fun m => q i j m - Lx i j (q (i - 1)%Z j) m) (fun m => q i j m - Lx i j (q (i - 1)%Z j) m) / (h1 p * h1 p)))
  + sum_box (lo0 p) (hi0 p) (lo1 p) (hi1 p + 1) (fun i j =>
    - fcy i j / 2 * (dotv d (fun m => q i j m - Ly i j (q i (j - 1)%Z) m) (fun m => q i j m - Ly i j (q i (j - 1)%Z) m) / (h2 p * h2 p))).
Definition ex (i j : Z) : vec := fun m => q i j m - Lx i j (q (i - 1)%Z j) m.
Definition ey (i j : Z) : vec := fun m => q i j m - Ly i j (q i (j - 1)%Z) m.

Lemma zero_dot : forall v i j, ~ in_patch p i j -> dotv d v (V i j) = 0.
Proof.
  intros v i j H. unfold dotv. rewrite (sumZ_ext _ _ _ (fun _ => 0)); [apply sumZ_zero |]. intros m _. rewrite Vout by auto. ring.
Qed.

Lemma descent : derivable_pt_lim (fun t => energyL (fun i j m => q i j m + t * V i j m)) 0
  (sum_box (lo0 p) (hi0 p) (lo1 p) (hi1 p) (fun i j => dotv d (V i j)
     (diverg p (fcx (i + 1)%Z j) (fcx i j) (fcy i (j + 1)%Z) (fcy i j)
        (Lx' (i + 1)%Z j (ex (i + 1)%Z j)) (ex i j) (Ly' i (j + 1)%Z (ey i (j + 1)%Z)) (ey i j)))).
Proof.
  destruct Hbox as [Hb0 Hb1].
  set (bx := fun i j m => V i j m - Lx i j (V (i - 1)%Z j) m). set (by' := fun i j m => V i j m - Ly i j (V i (j - 1)%Z) m).
  assert (L : derivable_pt_lim (fun t => energyL (fun i j m => q i j m + t * V i j m)) 0
    (sum_box (lo0 p) (hi0 p + 1) (lo1 p) (hi1 p) (fun i j => - fcx i j * dotv d (ex i j) (bx i j) * (/ h1 p * / h1 p))
     + sum_box (lo0 p) (hi0 p) (lo1 p) (hi1 p + 1) (fun i j => - fcy i j * dotv d (ey i j) (by' i j) * (/ h2 p * / h2 p)))).
  { unfold energyL. apply derivable_pt_lim_plus.
    - apply (box_limit (lo0 p) (hi0 p + 1) (lo1 p) (hi1 p) (fun i j t => - fcx i j / 2 *
        (dotv d (fun m => (q i j m + t * V i j m) - Lx i j (fun m => q (i - 1)%Z j m + t * V (i - 1)%Z j m) m)
                (fun m => (q i j m + t * V i j m) - Lx i j (fun m => q (i - 1)%Z j m + t * V (i - 1)%Z j m) m) / (h1 p * h1 p)))).
      intros i j Hij. apply (derivable_pt_lim_ext (fun t => - fcx i j / 2 *
        ((dotv d (ex i j) (ex i j) + 2 * t * dotv d (ex i j) (bx i j) + t * t * dotv d (bx i j) (bx i j)) / (h1 p * h1 p)))).
      + intro t. rewrite <- dotv_quad. do 2 f_equal.
        assert (E : same d (fun m => ex i j m + t * bx i j m) (fun m => (q i j m + t * V i j m) - Lx i j (fun m => q (i - 1)%Z j m + t * V (i - 1)%Z j m) m)).
        { intros m Hm. rewrite (linx i j Hij (q (i - 1)%Z j) (V (i - 1)%Z j) t m Hm). unfold ex, bx. ring. }
        apply dotv_ext; exact E.
      + replace (- fcx i j * dotv d (ex i j) (bx i j) * (/ h1 p * / h1 p)) with (2 * (- fcx i j / 2) * dotv d (ex i j) (bx i j) / (h1 p * h1 p)).
        * apply quad_limit.
        * unfold Rdiv. rewrite Rinv_mult. generalize (/ h1 p). intro z. field.
    - apply (box_limit (lo0 p) (hi0 p) (lo1 p) (hi1 p + 1) (fun i j t => - fcy i j / 2 *
        (dotv d (fun m => (q i j m + t * V i j m) - Ly i j (fun m => q i (j - 1)%Z m + t * V i (j - 1)%Z m) m)
                (fun m => (q i j m + t * V i j m) - Ly i j (fun m => q i (j - 1)%Z m + t * V i (j - 1)%Z m) m) / (h2 p * h2 p)))).
      intros i j Hij. apply (derivable_pt_lim_ext (fun t => - fcy i j / 2 *
        ((dotv d (ey i j) (ey i j) + 2 * t * dotv d (ey i j) (by' i j) + t * t * dotv d (by' i j) (by' i j)) / (h2 p * h2 p)))).
      + intro t. rewrite <- dotv_quad. do 2 f_equal.
        assert (E : same d (fun m => ey i j m + t * by' i j m) (fun m => (q i j m + t * V i j m) - Ly i j (fun m => q i (j - 1)%Z m + t * V i (j - 1)%Z m) m)).
        { intros m Hm. rewrite (liny i j Hij (q i (j - 1)%Z) (V i (j - 1)%Z) t m Hm). unfold ey, by'. ring. }
        apply dotv_ext; exact E.
      + replace (- fcy i j * dotv d (ey i j) (by' i j) * (/ h2 p * / h2 p)) with (2 * (- fcy i j / 2) * dotv d (ey i j) (by' i j) / (h2 p * h2 p)).
        * apply quad_limit.
        * unfold Rdiv. rewrite Rinv_mult. generalize (/ h2 p). intro z. field. }
  eapply eq_ind; [exact L |].
  (* summation by parts *)
  assert (PX : sum_box (lo0 p) (hi0 p + 1) (lo1 p) (hi1 p) (fun i j => - fcx i j * dotv d (ex i j) (bx i j) * (/ h1 p * / h1 p)) =
    sum_box (lo0 p) (hi0 p) (lo1 p) (hi1 p) (fun i j => dotv d (V i j) (fun m => (fcx (i + 1)%Z j * Lx' (i + 1)%Z j (ex (i + 1)%Z j) m - fcx i j * ex i j m) * (/ h1 p * / h1 p)))).
  { unfold sum_box. apply sumZ_ext. intros j Hj.
    rewrite (sumZ_ext (lo0 p) (hi0 p + 1) _ (fun i => (- fcx i j * (/ h1 p * / h1 p)) * dotv d (ex i j) (V i j)
       - (- fcx i j * (/ h1 p * / h1 p)) * dotv d (Lx' i j (ex i j)) (V (i - 1)%Z j))).
    - rewrite (sum_by_parts (lo0 p) (hi0 p) (fun i => (- fcx i j * (/ h1 p * / h1 p)) * dotv d (ex i j) (V i j))
        (fun i => (- fcx i j * (/ h1 p * / h1 p)) * dotv d (Lx' i j (ex i j)) (V (i - 1)%Z j))); auto.
      + apply sumZ_ext. intros i Hi. rewrite shift_plus. rewrite !(dotv_sym d _ (V i j)).
        rewrite (dotv_ext d (V i j) (V i j) (fun m => (fcx (i + 1)%Z j * Lx' (i + 1)%Z j (ex (i + 1)%Z j) m - fcx i j * ex i j m) * (/ h1 p * / h1 p))
           (fun m => (/ h1 p * / h1 p) * (fcx (i + 1)%Z j * Lx' (i + 1)%Z j (ex (i + 1)%Z j) m) - (/ h1 p * / h1 p) * (fcx i j * ex i j m)))
          by (intros m _; ring).
        rewrite dotv_minus, !dotv_scal. ring.
      + cbn beta. rewrite zero_dot; [ring |]. intros [H _]. lia.
      + cbn beta. rewrite zero_dot; [ring |]. intros [H _]. lia.
    - intros i Hi. unfold bx. rewrite dotv_minus, adjx by (split; auto). ring. }
  assert (PY : sum_box (lo0 p) (hi0 p) (lo1 p) (hi1 p + 1) (fun i j => - fcy i j * dotv d (ey i j) (by' i j) * (/ h2 p * / h2 p)) =
    sum_box (lo0 p) (hi0 p) (lo1 p) (hi1 p) (fun i j => dotv d (V i j) (fun m => (fcy i (j + 1)%Z * Ly' i (j + 1)%Z (ey i (j + 1)%Z) m - fcy i j * ey i j m) * (/ h2 p * / h2 p)))).
  { unfold sum_box. rewrite !(sumZ_swap (lo0 p) (hi0 p)). apply sumZ_ext. intros i Hi.
    rewrite (sumZ_ext (lo1 p) (hi1 p + 1) _ (fun j => (- fcy i j * (/ h2 p * / h2 p)) * dotv d (ey i j) (V i j)
       - (- fcy i j * (/ h2 p * / h2 p)) * dotv d (Ly' i j (ey i j)) (V i (j - 1)%Z))).
    - rewrite (sum_by_parts (lo1 p) (hi1 p) (fun j => (- fcy i j * (/ h2 p * / h2 p)) * dotv d (ey i j) (V i j))
        (fun j => (- fcy i j * (/ h2 p * / h2 p)) * dotv d (Ly' i j (ey i j)) (V i (j - 1)%Z))); auto.
      + apply sumZ_ext. intros j Hj. rewrite shift_plus. rewrite !(dotv_sym d _ (V i j)).
        rewrite (dotv_ext d (V i j) (V i j) (fun m => (fcy i (j + 1)%Z * Ly' i (j + 1)%Z (ey i (j + 1)%Z) m - fcy i j * ey i j m) * (/ h2 p * / h2 p))
           (fun m => (/ h2 p * / h2 p) * (fcy i (j + 1)%Z * Ly' i (j + 1)%Z (ey i (j + 1)%Z) m) - (/ h2 p * / h2 p) * (fcy i j * ey i j m)))
          by (intros m _; ring).
        rewrite dotv_minus, !dotv_scal. ring.
      + cbn beta. rewrite zero_dot; [ring |]. intros [_ H]. lia.
      + cbn beta. rewrite zero_dot; [ring |]. intros [_ H]. lia.
    - intros j Hj. unfold by'. rewrite dotv_minus, adjy by (split; auto). ring. }
  rewrite PX, PY, <- sum_box_plus. apply sum_box_ext. intros i j Hij. rewrite <- dotv_plus. reflexivity.
Qed.
End Descent.

Lemma tang_self : forall d q v, dotv d q q <> 0 -> dotv d (tang d q v) v = dotv d (tang d q v) (tang d q v).
Proof.
  intros d q v H. assert (E : dotv d (tang d q v) (tang d q v) = dotv d (tang d q v) v - dotv d q v / dotv d q q * dotv d (tang d q v) q).
  { unfold tang at 2. rewrite dotv_minus, dotv_scal. reflexivity. }
  rewrite E, (dotv_sym d (tang d q v) q), tang_orth by auto. ring.
Qed.
Lemma moved_eq : forall p q r t, (forall i j m, ~ in_patch p i j -> r i j m = 0) ->
  forall i j m, moved p q r t i j m = q i j m + t * r i j m.
Proof.
  intros p q r t H i j m. unfold moved.
  destruct ((lo0 p <=? i) && (i <=? hi0 p) && (lo1 p <=? j) && (j <=? hi1 p))%bool%Z eqn:E; [reflexivity |].
  rewrite H; [ring |]. intros [H1 H2]. rewrite !andb_false_iff, !Z.leb_gt in E. lia.
Qed.
(** rate of change of the energy given the form of the right-hand side *)
Lemma rate_cell : forall d M q v r, 0 < M -> (d <> 1%Z -> dotv d q q <> 0) ->
  same d r (fun m => - M * (if (d =? 1)%Z then v m else tang d q v m)) -> dotv d r v = - (dotv d r r / M).
Proof.
  intros d M q v r HM Hq H. destruct (Z.eqb_spec d 1) as [E | Hne].
  - rewrite (dotv_ext _ _ _ _ _ H H). rewrite dotv_scal, (dotv_sym _ (fun m => - M * v m) v), dotv_scal.
    rewrite (dotv_ext d r _ v v H (fun _ _ => eq_refl)), (dotv_sym _ (fun m => - M * v m) v), dotv_scal. field. lra.
  - rewrite (dotv_ext _ _ _ _ _ H H). rewrite dotv_scal, (dotv_sym _ (fun m => - M * tang d q v m) (tang d q v)), dotv_scal.
    rewrite (dotv_ext d r _ v v H (fun _ _ => eq_refl)), (dotv_sym _ (fun m => - M * tang d q v m) v), dotv_scal.
    rewrite (dotv_sym d v), tang_self by auto. field. lra.
Qed.

Lemma symm_descent : forall asserts p fcx fcy mob q rx ry old3 old2 rhs, multi (depth p) -> rotations_ok p rx ry ->
  (lo0 p <= hi0 p)%Z -> (lo1 p <= hi1 p)%Z ->
  (forall i j, in_patch p i j -> 0 < mob i j /\ dotv (depth p) (q i j) (q i j) <> 0) ->
  evaluateQuatRHS asserts true true p fcx fcy mob q rx ry old3 old2 = Some rhs ->
  derivable_pt_lim (fun t => flow_energy p fcx fcy rx ry (moved p q rhs t)) 0
    (- sum_box (lo0 p) (hi0 p) (lo1 p) (hi1 p) (fun i j => dotv (depth p) (rhs i j) (rhs i j) / mob i j)).
Proof.
  intros asserts p fcx fcy mob q rx ry old3 old2 rhs Hd Hr B0 B1 Hm E.
  destruct (rhs_symm asserts p fcx fcy mob q rx ry old3 old2 Hd Hr) as (r & E' & W & Z0). rewrite E in E'. injection E' as <-.
  destruct Hr as [Hrx Hry].
  pose proof (descent p (fun i j => image (depth p) (rx i j)) (fun i j => image (depth p) (ry i j))
    (fun i j => image (depth p) (inv_index (depth p) (rx i j))) (fun i j => image (depth p) (inv_index (depth p) (ry i j)))
    fcx fcy q rhs ltac:(lia)) as D.
  assert (A1 : forall i j, x_face p i j -> rotation_index (depth p) (rx i j)) by (intros i j [Hi Hj]; apply Hrx; split; lia).
  assert (A2 : forall i j, y_face p i j -> rotation_index (depth p) (ry i j)) by (intros i j [Hi Hj]; apply Hry; split; lia).
  assert (Lin : forall n v w t, same (depth p) (image (depth p) n (fun m => v m + t * w m)) (fun m => image (depth p) n v m + t * image (depth p) n w m)).
  { intros n v w t m Hm'. rewrite (image_plus _ n v (fun m => t * w m) Hd m Hm'), (image_scal _ n t w Hd m Hm'). reflexivity. }
  specialize (D (fun i j _ => Lin (rx i j)) (fun i j _ => Lin (ry i j))
    (fun i j H v w => image_adj _ _ v w Hd (A1 i j H)) (fun i j H v w => image_adj _ _ v w Hd (A2 i j H)) Z0).
  apply (derivable_pt_lim_ext (fun t => energyL p (fun i j => image (depth p) (rx i j)) (fun i j => image (depth p) (ry i j)) fcx fcy
     (fun i j m => q i j m + t * rhs i j m))).
  - intro t. unfold energyL, flow_energy. f_equal; apply sum_box_ext; intros i j Hij; do 2 f_equal.
    + assert (S : same (depth p) (fun m => q i j m + t * rhs i j m - image (depth p) (rx i j) (fun m0 => q (i - 1)%Z j m0 + t * rhs (i - 1)%Z j m0) m)
        (fun m => moved p q rhs t i j m - image (depth p) (rx i j) (moved p q rhs t (i - 1)%Z j) m)).
      { intros m Hm'. rewrite moved_eq by exact Z0. f_equal. apply image_ext; auto. intros k Hk. rewrite moved_eq by exact Z0. reflexivity. }
      apply dotv_ext; exact S.
    + assert (S : same (depth p) (fun m => q i j m + t * rhs i j m - image (depth p) (ry i j) (fun m0 => q i (j - 1)%Z m0 + t * rhs i (j - 1)%Z m0) m)
        (fun m => moved p q rhs t i j m - image (depth p) (ry i j) (moved p q rhs t i (j - 1)%Z) m)).
      { intros m Hm'. rewrite moved_eq by exact Z0. f_equal. apply image_ext; auto. intros k Hk. rewrite moved_eq by exact Z0. reflexivity. }
      apply dotv_ext; exact S.
  - eapply eq_ind; [exact D |]. rewrite <- (Rmult_1_l (sum_box _ _ _ _ (fun i j => dotv (depth p) (rhs i j) (rhs i j) / mob i j))), Ropp_mult_distr_l.
    rewrite <- sum_box_scal. apply sum_box_ext. intros i j Hij. destruct (Hm i j Hij) as [HM HQ].
    rewrite (rate_cell (depth p) (mob i j) (q i j) _ (rhs i j)); auto; [ring |].
    intros m Hm'. rewrite (proj2 (multi_gt1 _ Hd)). rewrite W by auto. reflexivity.
Qed.

Lemma plain_descent : forall asserts use_gradq p fcx fcy mob q rx ry old3 old2 rhs,
  (lo0 p <= hi0 p)%Z -> (lo1 p <= hi1 p)%Z ->
  (forall i j, in_patch p i j -> 0 < mob i j /\ (depth p <> 1%Z -> dotv (depth p) (q i j) (q i j) <> 0)) ->
  evaluateQuatRHS asserts false use_gradq p fcx fcy mob q rx ry old3 old2 = Some rhs ->
  derivable_pt_lim (fun t => plain_energy p fcx fcy (moved p q rhs t)) 0
    (- sum_box (lo0 p) (hi0 p) (lo1 p) (hi1 p) (fun i j => dotv (depth p) (rhs i j) (rhs i j) / mob i j)).
Proof.
  intros asserts use_gradq p fcx fcy mob q rx ry old3 old2 rhs B0 B1 Hm E.
  destruct (rhs_plain asserts use_gradq p fcx fcy mob q rx ry old3 old2) as (r & E' & W & Z0). rewrite E in E'. injection E' as <-.
  pose proof (descent p (fun i j v => v) (fun i j v => v) (fun i j v => v) (fun i j v => v) fcx fcy q rhs ltac:(lia)
    (fun i j _ v w t m _ => eq_refl) (fun i j _ v w t m _ => eq_refl) (fun i j _ v w => eq_refl) (fun i j _ v w => eq_refl) Z0) as D.
  apply (derivable_pt_lim_ext (fun t => energyL p (fun i j v => v) (fun i j v => v) fcx fcy (fun i j m => q i j m + t * rhs i j m))).
  - intro t. unfold energyL, plain_energy. f_equal; apply sum_box_ext; intros i j Hij; do 2 f_equal; apply dotv_ext; intros m Hm';
      rewrite !moved_eq by exact Z0; reflexivity.
  - eapply eq_ind; [exact D |]. rewrite <- (Rmult_1_l (sum_box _ _ _ _ (fun i j => dotv (depth p) (rhs i j) (rhs i j) / mob i j))), Ropp_mult_distr_l.
    rewrite <- sum_box_scal. apply sum_box_ext. intros i j Hij. destruct (Hm i j Hij) as [HM HQ].
    rewrite (rate_cell (depth p) (mob i j) (q i j) _ (rhs i j)); auto; [ring |].
    intros m Hm'. rewrite W by auto. unfold div_plain, diverg, ex, ey. rewrite !shift_plus. reflexivity.
Qed.

(** * The default path *)
Lemma default_reverses : forall p fcx fcy mob q g g' rx ry old3 old2 rhs rhs0 i j, multi (depth p) -> unit_field p q ->
  quat_symm_rotation_x p q g = Some rx -> quat_symm_rotation_y p q g' = Some ry ->
  evaluateQuatRHS false true false p fcx fcy mob q rx ry old3 old2 = Some rhs ->
  evaluateQuatRHS false false false p fcx fcy mob q rx ry old3 old2 = Some rhs0 -> in_patch p i j ->
  equivalent (depth p) (q i j) (q (i - 1)%Z j) -> equivalent (depth p) (q (i + 1)%Z j) (q i j) ->
  equivalent (depth p) (q i j) (q i (j - 1)%Z) -> equivalent (depth p) (q i (j + 1)%Z) (q i j) ->
  same (depth p) (rhs i j) (fun m => - rhs0 i j m).
Proof.
  intros p fcx fcy mob q g g' rx ry old3 old2 rhs rhs0 i j Hd Hu Ex Ey E E0 Hij H1 H2 H3 H4 m Hm.
  pose proof (rotation_x_closest p q g rx (or_introl Hd) (fun _ => Hu) Ex) as Cx.
  pose proof (rotation_y_closest p q g' ry (or_introl Hd) (fun _ => Hu) Ey) as Cy.
  assert (Hr : rotations_ok p rx ry) by (split; intros a b Hab; [apply (Cx a b Hab) | apply (Cy a b Hab)]).
  destruct (rhs_default p fcx fcy mob q rx ry old3 old2 Hd Hr) as (r & E' & W & _). rewrite E in E'. injection E' as <-.
  destruct (rhs_plain false false p fcx fcy mob q rx ry old3 old2) as (r & E' & W0 & _). rewrite E0 in E'. injection E' as <-.
  rewrite W, W0 by auto. rewrite (proj2 (multi_gt1 _ Hd)). pose proof Hij as [Hi Hj].
  assert (Z0 : forall n v, same (depth p) v (fun _ => 0) -> same (depth p) (image (depth p) n v) (fun _ => 0)).
  { intros n v H k Hk. rewrite (image_ext _ _ _ _ Hd H k Hk). destruct Hd as [Hd | Hd]; rewrite Hd in *; cbn [image].
    - idx2 k Hk; cbn [comp2 quatmult2 ca cb]; ring.
    - idx4 k Hk; cbn [comp quatmult4 qa qb qc qd]; ring. }
  assert (A1 : same (depth p) (sdx p q rx (i + 1)%Z j) (fun _ => 0)).
  { apply (closest_zero _ _ _ _ (Cx (i + 1)%Z j ltac:(split; lia))). rewrite shift_plus. exact H2. }
  assert (A2 : same (depth p) (sdx p q rx i j) (fun _ => 0)) by (apply (closest_zero _ _ _ _ (Cx i j ltac:(split; lia))); exact H1).
  assert (A3 : same (depth p) (sdy p q ry i (j + 1)%Z) (fun _ => 0)).
  { apply (closest_zero _ _ _ _ (Cy i (j + 1)%Z ltac:(split; lia))). rewrite shift_plus. exact H4. }
  assert (A4 : same (depth p) (sdy p q ry i j) (fun _ => 0)) by (apply (closest_zero _ _ _ _ (Cy i j ltac:(split; lia))); exact H3).
  assert (D : same (depth p) (fun m => div_symm p fcx fcy q rx ry i j m + div_mixed p fcx fcy q rx ry i j m - div_plain p fcx fcy q i j m)
                             (fun m => 0 - div_plain p fcx fcy q i j m)).
  { intros k Hk.
    assert (G : forall cr cl cu cd r l u b, same (depth p) r (fun _ => 0) -> same (depth p) l (fun _ => 0) -> same (depth p) u (fun _ => 0) ->
      same (depth p) b (fun _ => 0) -> diverg p cr cl cu cd r l u b k = 0).
    { intros cr cl cu cd r l u b G1 G2 G3 G4. unfold diverg. rewrite G1, G2, G3, G4 by auto. ring. }
    unfold div_symm, div_mixed. rewrite !G by auto. ring. }
  rewrite (tang_ext _ (q i j) _ _ D m Hm). unfold tang. rewrite dotv_minus.
  replace (dotv (depth p) (q i j) (fun _ => 0)) with 0; [unfold Rdiv; ring |].
  symmetry. unfold dotv. rewrite (sumZ_ext _ _ _ (fun _ => 0)); [apply sumZ_zero | intros; ring].
Qed.

Definition ex_patch : patch := mk_patch 0 0 0 0 2 1 1.
Definition ex_q : arr3 := fun i j m => if (1 <=? i)%Z then vec2 (Q2 0 1) m else vec2 (Q2 1 0) m.
Lemma ex_q_unit : unit_field ex_patch ex_q.
Proof.
  intros i j _. unfold ex_q, dotv. cbn [depth ex_patch]. rewrite sum2. destruct (1 <=? i)%Z; cbn [vec2 ca cb]; ring.
Qed.
Lemma ex_equiv_self : forall v, equivalent 2 v v.
Proof. intro v. exists 1%Z. split; [split; cbn [group_size]; lia |]. intros m Hm. symmetry. apply image_one; [left; reflexivity | exact Hm]. Qed.
Lemma ex_equiv : equivalent 2 (vec2 (Q2 0 1)) (vec2 (Q2 1 0)).
Proof.
  exists 2%Z. split; [split; cbn [group_size]; lia |]. intros m Hm. cbn [image]. destruct qr2_val as (_ & E & _). rewrite E.
  idx2 m Hm; cbn [comp2 quatmult2 ca cb vec2]; ring.
Qed.
Lemma default_drift : exists p q g rx ry rhs,
  multi (depth p) /\ unit_field p q /\ quat_symm_rotation_x p q g = Some rx /\ quat_symm_rotation_y p q g = Some ry /\
  (forall i j, in_ghosts p i j -> equivalent (depth p) (q i j) (q 0%Z 0%Z)) /\
  evaluateQuatRHS false true false p (fun _ _ => -1) (fun _ _ => -1) (fun _ _ => 1) q rx ry (fun _ _ _ => 0) (fun _ _ => 0) = Some rhs /\
  ~ same (depth p) (rhs 0%Z 0%Z) (fun _ => 0).
Proof.
  assert (Hd : multi (depth ex_patch)) by (left; reflexivity).
  destruct (rotations_found ex_patch ex_q (fun _ _ => 1%Z) (or_introl Hd) (fun _ => ex_q_unit)) as [[rx Ex] [ry Ey]].
  pose proof (rotation_x_closest ex_patch ex_q _ rx (or_introl Hd) (fun _ => ex_q_unit) Ex) as Cx.
  pose proof (rotation_y_closest ex_patch ex_q _ ry (or_introl Hd) (fun _ => ex_q_unit) Ey) as Cy.
  assert (Hr : rotations_ok ex_patch rx ry) by (split; intros a b Hab; [apply (Cx a b Hab) | apply (Cy a b Hab)]).
  destruct (rhs_default ex_patch (fun _ _ => -1) (fun _ _ => -1) (fun _ _ => 1) ex_q rx ry (fun _ _ _ => 0) (fun _ _ => 0) Hd Hr) as (rhs & E & _).
  destruct (rhs_plain false false ex_patch (fun _ _ => -1) (fun _ _ => -1) (fun _ _ => 1) ex_q rx ry (fun _ _ _ => 0) (fun _ _ => 0)) as (rhs0 & E0 & V0 & _).
  exists ex_patch, ex_q, (fun _ _ => 1%Z), rx, ry, rhs. split; [exact Hd |]. split; [exact ex_q_unit |]. split; [exact Ex |]. split; [exact Ey |].
  split; [| split; [exact E |]].
  - intros i j _. unfold ex_q. cbn [depth ex_patch]. change ((1 <=? 0)%Z) with false. cbn iota. destruct (1 <=? i)%Z; [apply ex_equiv | apply ex_equiv_self].
  - pose proof (default_reverses ex_patch _ _ _ ex_q _ _ rx ry _ _ rhs rhs0 0%Z 0%Z Hd ex_q_unit Ex Ey E E0) as R.
    assert (P : in_patch ex_patch 0 0) by (split; cbn [lo0 hi0 lo1 hi1 ex_patch]; lia).
    specialize (R P (ex_equiv_self _) ex_equiv (ex_equiv_self _) (ex_equiv_self _)).
    intro S. specialize (R 2%Z ltac:(cbn [depth ex_patch]; lia)). rewrite (S 2%Z ltac:(cbn [depth ex_patch]; lia)) in R.
    rewrite (V0 0%Z 0%Z 2%Z P ltac:(cbn [depth ex_patch]; lia)) in R. cbn [depth ex_patch Z.eqb Pos.eqb] in R.
    revert R. unfold tang, dotv, div_plain, diverg. rewrite !sum2. unfold ex_q. cbn [h1 h2 ex_patch Z.leb Z.compare Z.add Z.sub Z.opp Z.pos_sub Pos.add Pos.compare Pos.compare_cont vec2 ca cb].
    intro R. match type of R with 0 = ?x => replace x with (-1) in R by (field; lra) end. lra.
Qed.
Lemma default_aborts : forall p fcx fcy mob q rx ry old3 old2, multi (depth p) ->
  evaluateQuatRHS true true false p fcx fcy mob q rx ry old3 old2 = None.
Proof.
  intros p fcx fcy mob q rx ry old3 old2 Hd. unfold evaluateQuatRHS. cbn [andb negb]. rewrite (proj2 (multi_gt1 _ Hd)). cbn [negb].
  destruct quatdiffs_symm_x; [| reflexivity]. destruct quatdiffs_symm_y; [| reflexivity]. destruct evaluateRHS; reflexivity.
Qed.

(** * Projection *)
Lemma scale_val : forall d v, 0 < dotv d v v -> project_scale d v = / sqrt (dotv d v v) /\ 0 < project_scale d v /\
  project_scale d v * project_scale d v * dotv d v v = 1.
Proof.
  intros d v H. unfold project_scale. rewrite accum_sum. change (sumZ 1 d (fun m => v m * v m)) with (dotv d v v).
  pose proof (sqrt_lt_R0 _ H) as Hs. split; [unfold Rdiv; ring |]. split; [apply Rdiv_lt_0_compat; lra |].
  pose proof (sqrt_sqrt _ (Rlt_le _ _ H)) as Hq. rewrite <- Hq at 3. field. lra.
Qed.
Lemma cell_step : forall p (body : Z -> Z -> arr3 -> arr3) s i j m, in_patch p i j ->
  (forall a b s, (a <> i \/ b <> j)%Z -> forall k, body a b s i j k = s i j k) ->
  exists s0, (forall k, s0 i j k = s i j k) /\ do_cells (lo0 p) (hi0 p) (lo1 p) (hi1 p) body s i j m = body i j s0 i j m.
Proof.
  intros p body s i j m Hij H.
  destruct (cells_once _ (fun s s' : arr3 => forall k, s' i j k = s i j k) (lo0 p) (hi0 p) (lo1 p) (hi1 p) i j body s
    (fun _ _ => eq_refl) (fun a b c A B k => eq_trans (B k) (A k)) Hij) as (s0 & H0 & H1).
  - intros a b s' _ Hne k. apply H. lia.
  - exists s0. split; [exact H0 | apply H1].
Qed.
Lemma put_far : forall d a b g s i j k, (a <> i \/ b <> j)%Z -> put d a b g s i j k = s i j k.
Proof.
  intros d a b g s i j k H. rewrite put_val. destruct (Z.eqb_spec i a); destruct (Z.eqb_spec j b); cbn [andb]; auto; lia.
Qed.
Lemma do_cells_put2 : forall p (f g : arr3) s i j m, in_patch p i j -> (1 <= m <= depth p)%Z ->
  do_cells (lo0 p) (hi0 p) (lo1 p) (hi1 p) (fun i j s =>
    let s1 := put (depth p) i j (fun m _ => f i j m) s in put (depth p) i j (fun m c => c - g i j m) s1) s i j m = f i j m - g i j m.
Proof.
  intros p f g s i j m Hij Hm.
  destruct (cell_step p (fun i j s => let s1 := put (depth p) i j (fun m _ => f i j m) s in put (depth p) i j (fun m c => c - g i j m) s1) s i j m Hij)
    as (s0 & _ & ->).
  - intros a b s' Hne k. cbv zeta. rewrite !put_far by auto. reflexivity.
  - cbv zeta. rewrite !put_val, !Z.eqb_refl, inb_true by auto. reflexivity.
Qed.
Lemma project_err_val : forall p q err i j m, in_patch p i j -> (1 <= m <= depth p)%Z ->
  project_err p q err i j m = err i j m - q i j m * project_scale (depth p) (q i j) *
    sumZ 1 (depth p) (fun m => q i j m * project_scale (depth p) (q i j) * err i j m).
Proof.
  intros p q err i j m Hij Hm. unfold project_err.
  destruct (cell_step p (fun i j s =>
    let c := fun m => q i j m * project_scale (depth p) (q i j) in
    let fac := accum_m (depth p) (fun m => c m * s i j m) in
    put (depth p) i j (fun m e => e - c m * fac) s) err i j m Hij) as (s0 & H0 & E).
  - intros a b s' Hne k. cbv zeta. apply put_far; auto.
  - etransitivity; [exact E |]. cbv zeta. rewrite put_val, !Z.eqb_refl, inb_true by auto. cbn [andb]. rewrite H0, accum_sum. f_equal. f_equal. apply sumZ_ext.
    intros k _. rewrite H0. reflexivity.
Qed.
Lemma project_ok : forall p q corr err i j, in_patch p i j -> ~ same (depth p) (q i j) (fun _ => 0) ->
  let corr' := project_corr p q corr in let err' := project_err p q err in
  dotv (depth p) (fun m => q i j m + corr' i j m) (fun m => q i j m + corr' i j m) = 1 /\
  (exists s, 0 < s /\ same (depth p) (fun m => q i j m + corr' i j m) (fun m => s * q i j m)) /\
  dotv (depth p) (q i j) (err' i j) = 0 /\
  (exists s, same (depth p) (err' i j) (fun m => err i j m - s * q i j m)) /\
  (dotv (depth p) (q i j) (err i j) = 0 -> same (depth p) (err' i j) (err i j)).
Proof.
  intros p q corr err i j Hij Hq corr' err'. pose proof Hij as [Hi Hj].
  assert (Hpos : 0 < dotv (depth p) (q i j) (q i j)).
  { destruct (dotv_self_nonneg (depth p) (q i j)) as [| E]; auto. exfalso. apply Hq. apply dotv_self_zero. auto. }
  destruct (scale_val (depth p) (q i j) Hpos) as (_ & Hs & Hs1). set (s := project_scale (depth p) (q i j)) in *.
  assert (VC : same (depth p) (fun m => q i j m + corr' i j m) (fun m => s * q i j m)).
  { intros m Hm. unfold corr', project_corr.
    rewrite (do_cells_put2 p (fun i j m => q i j m * project_scale (depth p) (q i j)) (fun i j m => q i j m)) by auto.
    fold s. ring. }
  assert (VE : same (depth p) (err' i j) (fun m => err i j m - s * s * dotv (depth p) (q i j) (err i j) * q i j m)).
  { intros m Hm. unfold err'. rewrite project_err_val by auto. fold s.
    rewrite (sumZ_ext 1 (depth p) _ (fun m => s * (q i j m * err i j m))) by (intros; ring). rewrite sumZ_scal.
    unfold dotv. ring. }
  split; [| split; [| split; [| split]]].
  - rewrite (dotv_ext _ _ _ _ _ VC VC), dotv_scal, dotv_sym, dotv_scal. lra.
  - exists s. split; auto.
  - rewrite (dotv_ext _ (q i j) (q i j) _ _ (fun _ _ => eq_refl) VE), dotv_minus, dotv_scal.
    transitivity ((1 - s * s * dotv (depth p) (q i j) (q i j)) * dotv (depth p) (q i j) (err i j)); [ring | rewrite Hs1; ring].
  - exists (s * s * dotv (depth p) (q i j) (err i j)). exact VE.
  - intros E m Hm. rewrite VE by auto. rewrite E. ring.
Qed.

(** * Face coefficients *)
Lemma interp_unit : forall type phi, In type ["p"; "h"; "l"; "m"; "q"; "w"; "3"; "c"]%char -> 0 <= phi <= 1 ->
  exists v, interp_func phi type = Some v /\ 0 <= v <= 1.
Proof.
  intros type phi Ht Hphi.
  assert (A : In type ["p"; "h"; "l"; "m"]%char \/ In type ["q"; "w"; "3"]%char \/ type = "c"%char).
  { cbn [In] in *. intuition auto. }
  destruct A as [A | [A | ->]].
  - destruct (Functions_Proofs.interp_clamped type A) as (f & Hv & (H0 & H1 & Hr & Hm) & _). exists (f phi). split; [apply Hv | apply Hr].
  - destruct (Functions_Proofs.interp_half_clamped type A) as (f & Hv & H). exists (f phi). split; [apply Hv |].
    destruct H as (H0 & H1 & Hr & Hm). apply Hr. lra.
  - exists 1. split; [reflexivity | lra].
Qed.
Lemma average_unit : forall type a b, In type ["a"; "h"]%char -> 0 <= a <= 1 -> 0 <= b <= 1 ->
  exists v, average_func a b type = Some v /\ 0 <= v <= 1.
Proof.
  intros type a b Ht Ha Hb. cbn [In] in Ht. destruct Ht as [<- | [<- | []]].
  - exists (/ 2 * (a + b)). split; [reflexivity | lra].
  - destruct (Functions_Proofs.average_harm a b ltac:(lra) ltac:(lra)) as (v & E & [H0 H1] & _). exists v. split; [exact E |].
    split; [exact H0 |]. eapply Rle_trans; [exact H1 |]. apply Rmax_lub; lra.
Qed.
Lemma face_coef_bounds : forall eps factor floor ft i1 i2 avg phi1 phi2 t1 t2 g2,
  In ft ["m"; "t"; "s"]%char -> In i1 ["p"; "h"; "l"; "m"; "q"; "w"; "3"; "c"]%char -> In i2 ["p"; "h"; "l"; "m"; "q"; "w"; "3"; "c"]%char ->
  In avg ["a"; "h"]%char -> 0 <= phi1 <= 1 -> 0 <= phi2 <= 1 -> 0 <= t1 -> 0 <= t2 -> 0 <= factor -> 0 < floor -> 0 <= g2 ->
  exists fc, face_coef eps factor floor ft i1 i2 avg phi1 phi2 t1 t2 g2 = Some fc /\ fc <= 0 /\
    - fc <= factor * ((t1 + t2) / 2) / floor + eps * eps /\
    - fc * sqrt g2 <= factor * ((t1 + t2) / 2) + eps * eps * sqrt g2.
Proof.
  intros eps factor floor ft i1 i2 avg phi1 phi2 t1 t2 g2 Hf H1 H2 Ha P1 P2 T1 T2 HF Hfl Hg. unfold face_coef.
  destruct (average_unit avg phi1 phi2 Ha P1 P2) as (phia & -> & Hphi).
  destruct (interp_unit i1 phia H1 Hphi) as (v1 & -> & [V1 V1']). destruct (interp_unit i2 phia H2 Hphi) as (v2 & -> & [V2 V2']).
  destruct (grad_normi_bounds ft g2 floor Hf Hfl Hg) as (r & -> & [R1 R2] & R3).
  eexists. split; [reflexivity |]. set (K := factor * ((t1 + t2) / 2)).
  assert (HK : 0 <= K) by (unfold K; apply Rmult_le_pos; lra).
  assert (HE : 0 <= eps * eps) by apply Rle_0_sqr. pose proof (sqrt_pos g2) as HS.
  replace (- r * (factor * ((1 / 2) * (t1 + t2)) * v1) - eps * eps * v2) with (- (r * K * v1 + eps * eps * v2)) by (unfold K; field).
  assert (B1 : 0 <= r * K * v1) by (apply Rmult_le_pos; [apply Rmult_le_pos; lra | lra]).
  assert (B2 : 0 <= eps * eps * v2) by (apply Rmult_le_pos; lra).
  assert (B3 : K * v1 <= K) by (rewrite <- (Rmult_1_r K) at 2; apply Rmult_le_compat_l; lra).
  assert (B4 : eps * eps * v2 <= eps * eps) by (rewrite <- (Rmult_1_r (eps * eps)) at 2; apply Rmult_le_compat_l; lra).
  assert (B5 : 0 <= K * v1) by (apply Rmult_le_pos; lra).
  split; [lra |]. rewrite Ropp_involutive. split.
  - apply Rplus_le_compat; [| exact B4].
    replace (K / floor) with ((1 / floor) * K) by (field; lra). rewrite Rmult_assoc. apply Rmult_le_compat; lra.
  - rewrite Rmult_plus_distr_r. apply Rplus_le_compat; [| apply Rmult_le_compat_r; auto].
    replace (r * K * v1 * sqrt g2) with ((K * v1) * (r * sqrt g2)) by ring.
    apply Rle_trans with ((K * v1) * 1); [apply Rmult_le_compat_l; lra | lra].
Qed.
