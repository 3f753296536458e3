From Coq Require Import Reals ZArith List Bool Lra Lia Permutation.
From Verif Require Import Grid_Model Grid_Spec Grid_Proofs PhaseFlow_Model PhaseFlow_Spec PhaseFlow_Proofs QuatSolver_Model QuatSolver_Spec.
Import ListNotations.
Open Scope R_scope.

(** * One boundary box *)
Ltac dz := repeat match goal with
  | |- context [(?a =? ?b)%Z] => destruct (Z.eqb_spec a b); try subst
  | |- context [(?a <=? ?b)%Z] => destruct (Z.leb_spec a b)
  end; cbn [andb orb]; try lia; try reflexivity.

Lemma edge_x_loop : forall o hh bb g c f lo hi m,
  let m' := do_loop lo hi (edge_x o hh bb g c f) m in
  (forall a b, diag m' a b = if (a =? c)%Z && inb lo hi b then diag m c b + k1 hh (acoef bb f b) * offx m f b else diag m a b) /\
  (forall a b, offx m' a b = if (a =? f)%Z && inb lo hi b then 0 else offx m a b) /\
  (forall a b, offy m' a b = offy m a b) /\
  (forall l a b, ak m' l a b = if (l =? loc bb)%Z && (a =? f)%Z && inb lo hi b
                               then uk0 hh (acoef bb f b) * offx m f b * sm o g b * gam o * sm o c b else ak m l a b).
Proof.
  intros o hh bb g c f lo hi m m'.
  pose (P := fun (k : Z) (m' : mat) =>
    (forall a b, diag m' a b = if (a =? c)%Z && inb lo k b then diag m c b + k1 hh (acoef bb f b) * offx m f b else diag m a b) /\
    (forall a b, offx m' a b = if (a =? f)%Z && inb lo k b then 0 else offx m a b) /\
    (forall a b, offy m' a b = offy m a b) /\
    (forall l a b, ak m' l a b = if (l =? loc bb)%Z && (a =? f)%Z && inb lo k b
                               then uk0 hh (acoef bb f b) * offx m f b * sm o g b * gam o * sm o c b else ak m l a b)).
  assert (H : P (Z.max (lo - 1) hi) m').
  { apply do_loop_ind; unfold P; clear P m'.
    - repeat split; intros; unfold inb; dz.
    - intros k s Hk (D & X & Y & A). unfold edge_x. cbn [diag offx offy ak]. split; [| split; [| split]].
      + intros a b. unfold upd2, inb. rewrite !D, X. unfold inb. dz.
      + intros a b. unfold upd2, inb. rewrite X. unfold inb. dz.
      + intros. apply Y.
      + intros l a b. unfold upd_ak. destruct (Z.eqb_spec l (loc bb)) as [-> | N]; cbn [andb].
        * unfold upd2. rewrite X, A, Z.eqb_refl. cbn [andb]. unfold inb. dz.
        * rewrite A. apply Z.eqb_neq in N. rewrite N. reflexivity. }
  unfold P in H. unfold inb in *.
  destruct (Z_lt_le_dec hi lo).
  - destruct H as (D & X & Y & A). split; [| split; [| split]]; intros; rewrite ?D, ?X, ?Y, ?A; dz.
  - replace (Z.max (lo - 1) hi) with hi in H by lia. exact H.
Qed.
Lemma edge_y_loop : forall o hh bb g c f lo hi m,
  let m' := do_loop lo hi (edge_y o hh bb g c f) m in
  (forall a b, diag m' a b = if (b =? c)%Z && inb lo hi a then diag m a c + k1 hh (acoef bb a f) * offy m a f else diag m a b) /\
  (forall a b, offy m' a b = if (b =? f)%Z && inb lo hi a then 0 else offy m a b) /\
  (forall a b, offx m' a b = offx m a b) /\
  (forall l a b, ak m' l a b = if (l =? loc bb)%Z && (b =? f)%Z && inb lo hi a
                               then uk0 hh (acoef bb a f) * offy m a f * sm o a g * gam o * sm o a c else ak m l a b).
Proof.
  intros o hh bb g c f lo hi m m'.
  pose (P := fun (k : Z) (m' : mat) =>
    (forall a b, diag m' a b = if (b =? c)%Z && inb lo k a then diag m a c + k1 hh (acoef bb a f) * offy m a f else diag m a b) /\
    (forall a b, offy m' a b = if (b =? f)%Z && inb lo k a then 0 else offy m a b) /\
    (forall a b, offx m' a b = offx m a b) /\
    (forall l a b, ak m' l a b = if (l =? loc bb)%Z && (b =? f)%Z && inb lo k a
                               then uk0 hh (acoef bb a f) * offy m a f * sm o a g * gam o * sm o a c else ak m l a b)).
  assert (H : P (Z.max (lo - 1) hi) m').
  { apply do_loop_ind; unfold P; clear P m'.
    - repeat split; intros; unfold inb; dz.
    - intros k s Hk (D & X & Y & A). unfold edge_y. cbn [diag offx offy ak]. split; [| split; [| split]].
      + intros a b. unfold upd2, inb. rewrite !D, X. unfold inb. dz.
      + intros a b. unfold upd2, inb. rewrite X. unfold inb. dz.
      + intros. apply Y.
      + intros l a b. unfold upd_ak. destruct (Z.eqb_spec l (loc bb)) as [-> | N]; cbn [andb].
        * unfold upd2. rewrite X, A, Z.eqb_refl. cbn [andb]. unfold inb. dz.
        * rewrite A. apply Z.eqb_neq in N. rewrite N. reflexivity. }
  unfold P in H. unfold inb in *.
  destruct (Z_lt_le_dec hi lo).
  - destruct H as (D & X & Y & A). split; [| split; [| split]]; intros; rewrite ?D, ?X, ?Y, ?A; dz.
  - replace (Z.max (lo - 1) hi) with hi in H by lia. exact H.
Qed.

Definition off (m : mat) (s : side) (i j : Z) : R :=
  match s with West | East => offx m (face0 s i) (face1 s j) | _ => offy m (face0 s i) (face1 s j) end.
Definition opp (s : side) : side := match s with West => East | East => West | South => North | North => South end.
Definition when (b : bool) (v : R) : R := if b then v else 0.
Definition ka (lv : qlevel) (bb : bdry) (s : side) (i j : Z) : R := k1 (spacing lv s) (acoef bb (face0 s i) (face1 s j)).
Definition ua (lv : qlevel) (bb : bdry) (s : side) (i j : Z) : R := uk0 (spacing lv s) (acoef bb (face0 s i) (face1 s j)).
Definition sum_sides (f : side -> R) : R := f West + f East + f South + f North.

Lemma adjust_at : forall lv o m bb i j,
  diag (adjust_bdry lv o m bb) i j = diag m i j + sum_sides (fun s => when (covers bb s i j) (ka lv bb s i j * off m s i j)) /\
  (forall s, covers bb (opp s) (out0 s i) (out1 s j) = false ->
     off (adjust_bdry lv o m bb) s i j = if covers bb s i j then 0 else off m s i j) /\
  (forall s, ak (adjust_bdry lv o m bb) (side_loc s) (face0 s i) (face1 s j) =
     if covers bb s i j then ua lv bb s i j * off m s i j * sm o (out0 s i) (out1 s j) * gam o * sm o i j
     else ak m (side_loc s) (face0 s i) (face1 s j)).
Proof.
  intros lv o m bb i j. unfold adjust_bdry.
  destruct (Z.eqb_spec (loc bb) 0) as [E0 | N0].
  { destruct (edge_x_loop o (hx lv) bb (bu0 bb) (bu0 bb + 1) (bu0 bb + 1) (bl1 bb) (bu1 bb) m) as (D & X & Y & A).
    split; [| split].
    - rewrite D. unfold sum_sides, covers, ka, off, when, inb. rewrite E0. cbn [side_loc face0 face1 spacing Z.eqb andb].
      dz; cbn; lra.
    - intros s. unfold covers, off. rewrite E0. destruct s; cbn [opp side_loc face0 face1 out0 out1 Z.eqb andb]; rewrite ?X, ?Y; unfold inb; dz; try discriminate.
    - intros s. rewrite A. unfold covers, ua, off, inb. rewrite E0. destruct s; cbn [side_loc face0 face1 out0 out1 spacing Z.eqb andb]; dz.
      all: try (replace (bu0 bb + 1 - 1)%Z with (bu0 bb) by lia; reflexivity). }
  destruct (Z.eqb_spec (loc bb) 1) as [E1 | N1].
  { destruct (edge_x_loop o (hx lv) bb (bl0 bb) (bl0 bb - 1) (bl0 bb) (bl1 bb) (bu1 bb) m) as (D & X & Y & A).
    split; [| split].
    - rewrite D. unfold sum_sides, covers, ka, off, when, inb. rewrite E1. cbn [side_loc face0 face1 spacing Z.eqb andb].
      dz; cbn; try lra. all: try (replace (bl0 bb - 1 + 1)%Z with (bl0 bb) by lia; lra).
    - intros s. unfold covers, off. rewrite E1. destruct s; cbn [opp side_loc face0 face1 out0 out1 Z.eqb andb]; rewrite ?X, ?Y; unfold inb; dz; try discriminate.
    - intros s. rewrite A. unfold covers, ua, off, inb. rewrite E1. destruct s; cbn [side_loc face0 face1 out0 out1 spacing Z.eqb Pos.eqb andb]; dz.
      all: try (replace (bl0 bb - 1 + 1)%Z with (bl0 bb) by lia; reflexivity).
      all: try (replace (bl0 bb - 1)%Z with i by lia; replace (i + 1)%Z with (bl0 bb) by lia; reflexivity). }
  destruct (Z.eqb_spec (loc bb) 2) as [E2 | N2].
  { destruct (edge_y_loop o (hy lv) bb (bu1 bb) (bu1 bb + 1) (bu1 bb + 1) (bl0 bb) (bu0 bb) m) as (D & X & Y & A).
    split; [| split].
    - rewrite D. unfold sum_sides, covers, ka, off, when, inb. rewrite E2. cbn [side_loc face0 face1 spacing Z.eqb Pos.eqb andb].
      dz; cbn; lra.
    - intros s. unfold covers, off. rewrite E2. destruct s; cbn [opp side_loc face0 face1 out0 out1 Z.eqb Pos.eqb andb]; rewrite ?X, ?Y; unfold inb; dz; try discriminate.
    - intros s. rewrite A. unfold covers, ua, off, inb. rewrite E2. destruct s; cbn [side_loc face0 face1 out0 out1 spacing Z.eqb Pos.eqb andb]; dz.
      all: try (replace (bu1 bb + 1 - 1)%Z with (bu1 bb) by lia; reflexivity). }
  destruct (Z.eqb_spec (loc bb) 3) as [E3 | N3].
  { destruct (edge_y_loop o (hy lv) bb (bl1 bb) (bl1 bb - 1) (bl1 bb) (bl0 bb) (bu0 bb) m) as (D & X & Y & A).
    split; [| split].
    - rewrite D. unfold sum_sides, covers, ka, off, when, inb. rewrite E3. cbn [side_loc face0 face1 spacing Z.eqb Pos.eqb andb].
      dz; cbn; try lra. all: try (replace (bl1 bb - 1 + 1)%Z with (bl1 bb) by lia; lra).
    - intros s. unfold covers, off. rewrite E3. destruct s; cbn [opp side_loc face0 face1 out0 out1 Z.eqb Pos.eqb andb]; rewrite ?X, ?Y; unfold inb; dz; try discriminate.
    - intros s. rewrite A. unfold covers, ua, off, inb. rewrite E3. destruct s; cbn [side_loc face0 face1 out0 out1 spacing Z.eqb Pos.eqb andb]; dz.
      all: try (replace (bl1 bb - 1 + 1)%Z with (bl1 bb) by lia; reflexivity).
      all: try (replace (bl1 bb - 1)%Z with j by lia; replace (j + 1)%Z with (bl1 bb) by lia; reflexivity). }
  assert (F : forall s i j, covers bb s i j = false) by (intros s ? ?; unfold covers; destruct s; cbn [side_loc]; dz).
  split; [| split].
  - unfold sum_sides. rewrite !F. cbn [when]. lra.
  - intros s _. rewrite F. reflexivity.
  - intros s. rewrite F. reflexivity.
Qed.

(** * The entries of a patch *)
Definition bbox_at (L : list bdry) (s : side) (i j : Z) : option bdry := find (fun bb => covers bb s i j) L.
Definition count (L : list bdry) (s : side) (i j : Z) : nat := length (filter (fun bb => covers bb s i j) L).
Lemma count_cons : forall bb L s i j, count (bb :: L) s i j = ((if covers bb s i j then 1 else 0) + count L s i j)%nat.
Proof. intros. unfold count. cbn [filter]. destruct (covers bb s i j); reflexivity. Qed.
Lemma count_zero : forall L s i j, count L s i j = 0%nat -> bbox_at L s i j = None.
Proof.
  intros L s i j. induction L as [| bb L IH]; intro H; [reflexivity |]. rewrite count_cons in H. unfold bbox_at. cbn [find].
  destruct (covers bb s i j); [discriminate | apply IH; exact H].
Qed.
Lemma count_one : forall L s i j, count L s i j = 1%nat -> exists bb, bbox_at L s i j = Some bb /\ In bb L /\ covers bb s i j = true.
Proof.
  intros L s i j. induction L as [| bb L IH]; intro H; [discriminate |]. rewrite count_cons in H. unfold bbox_at. cbn [find].
  destruct (covers bb s i j) eqn:E.
  - exists bb. split; [reflexivity |]. split; [left |]; auto.
  - destruct (IH H) as (c & F & I & C). exists c. split; [exact F |]. split; [right |]; auto.
Qed.

Lemma fold_adjust : forall lv o L m i j,
  (forall bb s, In bb L -> covers bb (opp s) (out0 s i) (out1 s j) = false) -> (forall s, (count L s i j <= 1)%nat) ->
  let m' := fold_left (adjust_bdry lv o) L m in
  diag m' i j = diag m i j + sum_sides (fun s => match bbox_at L s i j with Some bb => ka lv bb s i j * off m s i j | None => 0 end) /\
  (forall s, off m' s i j = match bbox_at L s i j with Some _ => 0 | None => off m s i j end) /\
  (forall s, ak m' (side_loc s) (face0 s i) (face1 s j) =
     match bbox_at L s i j with
     | Some bb => ua lv bb s i j * off m s i j * sm o (out0 s i) (out1 s j) * gam o * sm o i j
     | None => ak m (side_loc s) (face0 s i) (face1 s j) end).
Proof.
  intros lv o L. induction L as [| bb L IH]; intros m i j N C.
  - cbn. split; [unfold sum_sides; lra |]. split; reflexivity.
  - cbn zeta. cbn [fold_left]. destruct (adjust_at lv o m bb i j) as (D & X & A).
    destruct (IH (adjust_bdry lv o m bb) i j) as (D' & X' & A').
    { intros c s Hc. apply N. right; auto. }
    { intro s. specialize (C s). rewrite count_cons in C. lia. }
    assert (Z : forall s, covers bb s i j = true -> bbox_at L s i j = None).
    { intros s Hs. apply count_zero. specialize (C s). rewrite count_cons, Hs in C. lia. }
    split; [| split].
    + rewrite D', D. unfold sum_sides.
      assert (G : forall s, when (covers bb s i j) (ka lv bb s i j * off m s i j) +
                match bbox_at L s i j with Some c => ka lv c s i j * off (adjust_bdry lv o m bb) s i j | None => 0 end
              = match bbox_at (bb :: L) s i j with Some c => ka lv c s i j * off m s i j | None => 0 end).
      { intro s. rewrite X by (apply N; left; auto). unfold bbox_at. cbn [find]. fold (bbox_at L s i j). destruct (covers bb s i j) eqn:E; cbn [when].
        - rewrite (Z s E). lra.
        - destruct (bbox_at L s i j); lra. }
      rewrite <- !G. lra.
    + intro s. rewrite X', X by (apply N; left; auto). unfold bbox_at. cbn [find]. fold (bbox_at L s i j).
      destruct (covers bb s i j) eqn:E; [rewrite (Z s E) |]; reflexivity.
    + intro s. rewrite A', A, X by (apply N; left; auto). unfold bbox_at. cbn [find]. fold (bbox_at L s i j).
      destruct (covers bb s i j) eqn:E; [rewrite (Z s E) |]; reflexivity.
Qed.

(** * The array of stencil values *)
Definition sten_body (f : Z -> Z -> Z -> R) (i j : Z) (s : Z * (Z -> R)) : Z * (Z -> R) :=
  ((fst s + 3)%Z, upd1 (upd1 (upd1 (snd s) (fst s + 3) (f i j 0)) (fst s + 3 + 1) (f i j 1)) (fst s + 3 + 2) (f i j 2))%Z.
Lemma row_fill : forall f lo hi j s, let s' := do_loop lo hi (fun i => sten_body f i j) s in
  fst s' = (fst s + 3 * Z.max 0 (hi - lo + 1))%Z /\
  (forall n, (n < fst s + 3)%Z -> snd s' n = snd s n) /\
  (forall i e, (lo <= i <= hi)%Z -> (0 <= e <= 2)%Z -> snd s' (fst s + 3 + 3 * (i - lo) + e)%Z = f i j e).
Proof.
  intros f lo hi j s s'.
  pose (P := fun (k : Z) (t : Z * (Z -> R)) => fst t = (fst s + 3 * (k - lo + 1))%Z /\
    (forall n, (n < fst s + 3)%Z -> snd t n = snd s n) /\
    (forall i e, (lo <= i <= k)%Z -> (0 <= e <= 2)%Z -> snd t (fst s + 3 + 3 * (i - lo) + e)%Z = f i j e)).
  assert (H : P (Z.max (lo - 1) hi) s').
  { apply do_loop_ind; unfold P; clear P s'.
    - split; [lia |]. split; [reflexivity | intros; lia].
    - intros k t Hk (F & U & V). unfold sten_body. cbn [fst snd]. split; [lia |]. split.
      + intros n Hn. unfold upd1. dz. apply U; auto.
      + intros i e Hi He. unfold upd1. rewrite F.
        destruct (Z.eq_dec i k) as [-> | Hik].
        * assert (e = 0 \/ e = 1 \/ e = 2)%Z as [-> | [-> | ->]] by lia; dz.
        * dz. rewrite <- F in *. replace (fst t) with (fst s + 3 * (k - 1 - lo + 1))%Z in * by lia. apply V; lia. }
  destruct H as (F & U & V). split; [rewrite F; lia |]. split; [exact U |].
  intros i e Hi He. apply V; lia.
Qed.
Lemma box_fill : forall f l0 u0 l1 u1 s i j e, (l0 <= i <= u0)%Z -> (l1 <= j <= u1)%Z -> (0 <= e <= 2)%Z ->
  snd (do_cells l0 u0 l1 u1 (sten_body f) s) (fst s + 3 + 3 * ((j - l1) * (u0 - l0 + 1) + (i - l0)) + e)%Z = f i j e.
Proof.
  intros f l0 u0 l1 u1 s i j e Hi Hj He. unfold do_cells.
  pose (P := fun (k : Z) (t : Z * (Z -> R)) => fst t = (fst s + 3 * ((k - l1 + 1) * (u0 - l0 + 1)))%Z /\
    ((j <= k)%Z -> snd t (fst s + 3 + 3 * ((j - l1) * (u0 - l0 + 1) + (i - l0)) + e)%Z = f i j e)).
  assert (H : P (Z.max (l1 - 1) u1) (do_loop l1 u1 (fun j => do_loop l0 u0 (fun i => sten_body f i j)) s)).
  { apply do_loop_ind; unfold P; clear P.
    - split; [nia | intros; lia].
    - intros k t Hk (F & V). destruct (row_fill f l0 u0 k t) as (F' & U & W). split.
      + rewrite F', F. rewrite Z.max_r by lia. nia.
      + intro Hjk. destruct (Z.eq_dec j k) as [-> | Hne].
        * replace (fst s + 3 + 3 * ((k - l1) * (u0 - l0 + 1) + (i - l0)) + e)%Z with (fst t + 3 + 3 * (i - l0) + e)%Z by (rewrite F; nia).
          apply W; lia.
        * rewrite U; [apply V; lia |]. rewrite F. nia. }
  apply H. lia.
Qed.
Definition entry (o : qop) (m : mat) (i j e : Z) : R :=
  if (e =? 0)%Z then gam o * sm o i j * diag m i j * sm o i j + 1
  else if (e =? 1)%Z then gam o * sm o i j * offx m i j * sm o (i - 1)%Z j else gam o * sm o i j * offy m i j * sm o i (j - 1)%Z.
Lemma in_qpatch_box : forall p i j, in_qpatch p i j = true <-> (qlo0 p <= i <= qhi0 p /\ qlo1 p <= j <= qhi1 p)%Z.
Proof. intros. unfold in_qpatch. rewrite !andb_true_iff, !Z.leb_le. lia. Qed.
Lemma stencil_at : forall lv p o m v0 i j e, in_qpatch p i j = true -> (0 <= e <= 2)%Z ->
  set_symmetric_stencil (box_of lv p) o m v0 (position p i j e) = entry o m i j e.
Proof.
  intros lv p o m v0 i j e H He. apply in_qpatch_box in H. unfold set_symmetric_stencil, box_of. cbn [lo0 hi0 lo1 hi1].
  change (fun i0 j0 s => _) with (sten_body (entry o m)).
  unfold position. pose proof (box_fill (entry o m) (qlo0 p) (qhi0 p) (qlo1 p) (qhi1 p) ((-2)%Z, v0) i j e) as B. cbn [fst] in B.
  replace (1 + 3 * ((j - qlo1 p) * (qhi0 p - qlo0 p + 1) + (i - qlo0 p)) + e)%Z with (-2 + 3 + 3 * ((j - qlo1 p) * (qhi0 p - qlo0 p + 1) + (i - qlo0 p)) + e)%Z by lia.
  apply B; lia.
Qed.

(** * The assembled matrix *)
Lemma fold_patches : forall (A : Type) (f : (Z -> Z -> A) -> qpatch -> Z -> Z -> A) (v : qpatch -> Z -> Z -> A) L st p i j,
  (forall st p i j, f st p i j = if in_qpatch p i j then v p i j else st i j) ->
  ForallOrdPairs (fun p p' => forall i j, in_qpatch p i j = true -> in_qpatch p' i j = false) L ->
  In p L -> in_qpatch p i j = true -> fold_left f L st i j = v p i j.
Proof.
  intros A f v L st p i j Hf D Hp Hi.
  assert (K : forall L st, (forall p', In p' L -> in_qpatch p' i j = false) -> fold_left f L st i j = st i j).
  { clear - Hf. induction L as [| q L IH]; intros st H; [reflexivity |]. cbn [fold_left]. rewrite IH by (intros; apply H; right; auto).
    rewrite Hf, H by (left; auto). reflexivity. }
  revert st. induction D as [| q L Q D IH]; intro st; [contradiction |]. cbn [fold_left]. destruct Hp as [-> | Hp].
  - rewrite K; [rewrite Hf, Hi; reflexivity |]. intros p' Hp'. rewrite Forall_forall in Q. apply (Q p' Hp' i j Hi).
  - apply IH. exact Hp.
Qed.
Lemma stored_at : forall lv o m0 v0 p i j e, good_level lv -> In p (qpatches lv) -> in_qpatch p i j = true -> (0 <= e <= 2)%Z ->
  stored lv o m0 v0 i j e = entry o (patch_entries lv o m0 p) i j e.
Proof.
  intros lv o m0 v0 p i j e (_ & _ & D & _) Hp Hi He. unfold stored.
  rewrite (fold_patches (Z -> R) (set_box_values lv o m0 v0)
    (fun p i j e => set_symmetric_stencil (box_of lv p) o (patch_entries lv o m0 p) v0 (position p i j e)) _ _ p i j); auto.
  - apply stencil_at; auto.
  - intros st q k l. unfold set_box_values. destruct (in_qpatch q k l) eqn:E; reflexivity.
Qed.
Definition off0 (lv : qlevel) (o : qop) (s : side) (i j : Z) : R := face_coef o s i j * (1 / (spacing lv s * spacing lv s)).
Definition bnd (lv : qlevel) (p : qpatch) (s : side) (i j : Z) : option bdry := bbox_at (matrix_boundaries lv p) s i j.
Lemma in_level_intro : forall lv p i j, In p (qpatches lv) -> in_qpatch p i j = true -> in_qlevel lv i j = true.
Proof. intros lv p i j Hp Hi. unfold in_qlevel. apply existsb_exists. exists p. auto. Qed.
Lemma in_level_elim : forall lv i j, in_qlevel lv i j = true -> exists p, In p (qpatches lv) /\ in_qpatch p i j = true.
Proof. intros lv i j H. apply existsb_exists in H. destruct H as (p & Hp & Hi). eauto. Qed.
Lemma bnd_cases : forall lv p s i j, good_level lv -> In p (qpatches lv) -> in_qpatch p i j = true ->
  (in_qlevel lv (out0 s i) (out1 s j) = true /\ bnd lv p s i j = None) \/
  (in_qlevel lv (out0 s i) (out1 s j) = false /\ exists bb, bnd lv p s i j = Some bb /\ In bb (matrix_boundaries lv p) /\ covers bb s i j = true).
Proof.
  intros lv p s i j (_ & _ & _ & G) Hp Hi. destruct (G p Hp) as ((_ & C) & _). specialize (C i j s Hi).
  destruct (in_qlevel lv (out0 s i) (out1 s j)).
  - left. split; [reflexivity |]. apply count_zero. exact C.
  - right. split; [reflexivity |]. apply count_one. exact C.
Qed.
Lemma no_opposite : forall lv p bb s i j, good_level lv -> In p (qpatches lv) -> in_qpatch p i j = true ->
  In bb (matrix_boundaries lv p) -> covers bb (opp s) (out0 s i) (out1 s j) = false.
Proof.
  intros lv p bb s i j G Hp Hi Hb. destruct (covers bb (opp s) (out0 s i) (out1 s j)) eqn:E; [exfalso | reflexivity].
  destruct G as (_ & _ & _ & G). destruct (G p Hp) as ((Q & C) & _). pose proof (Q _ _ _ _ Hb E) as Ho.
  specialize (C _ _ (opp s) Ho). assert (X : in_qlevel lv (out0 (opp s) (out0 s i)) (out1 (opp s) (out1 s j)) = true).
  { apply (in_level_intro lv p); auto. replace (out0 (opp s) (out0 s i)) with i by (destruct s; cbn; lia).
    replace (out1 (opp s) (out1 s j)) with j by (destruct s; cbn; lia). exact Hi. }
  rewrite X in C. apply length_zero_iff_nil in C. assert (I : In bb (filter (fun b => covers b (opp s) (out0 s i) (out1 s j)) (matrix_boundaries lv p))) by (apply filter_In; auto).
  rewrite C in I. contradiction.
Qed.
Lemma set_j_at : forall lv p o m0 i j, in_qpatch p i j = true ->
  diag (set_j_ij (box_of lv p) o m0) i j = - sum_sides (fun s => off0 lv o s i j) /\
  (forall s, off (set_j_ij (box_of lv p) o m0) s i j = off0 lv o s i j) /\ ak (set_j_ij (box_of lv p) o m0) = fun _ _ _ => 0.
Proof.
  intros lv p o m0 i j Hi. apply in_qpatch_box in Hi. unfold set_j_ij.
  assert (O : forall s, off (mk_mat (diag m0) (xfaces (box_of lv p) (fun i j => fcx o i j * (1 / (h1 (box_of lv p) * h1 (box_of lv p)))) (offx m0))
                    (yfaces (box_of lv p) (fun i j => fcy o i j * (1 / (h2 (box_of lv p) * h2 (box_of lv p)))) (offy m0)) (ak m0)) s i j = off0 lv o s i j).
  { intro s. unfold off, off0, face_coef. destruct s; cbn [offx offy face0 face1 spacing];
      (rewrite xfaces_val || rewrite yfaces_val); try reflexivity; unfold x_face, y_face, in_box, box_of; cbn [lo0 hi0 lo1 hi1]; lia. }
  split; [| split; [| reflexivity]].
  - cbn [diag]. rewrite cells_val by (unfold in_cells, in_box, box_of; cbn [lo0 hi0 lo1 hi1]; lia).
    unfold sum_sides. rewrite <- !O. cbn [off offx offy face0 face1]. ring.
  - exact O.
Qed.
Lemma entries_at : forall lv p o m0 i j, good_level lv -> In p (qpatches lv) -> in_qpatch p i j = true ->
  let m := patch_entries lv o m0 p in
  diag m i j = sum_sides (fun s => - off0 lv o s i j + match bnd lv p s i j with Some bb => ka lv bb s i j * off0 lv o s i j | None => 0 end) /\
  (forall s, off m s i j = match bnd lv p s i j with Some _ => 0 | None => off0 lv o s i j end) /\
  (forall s, ak m (side_loc s) (face0 s i) (face1 s j) =
     match bnd lv p s i j with
     | Some bb => ua lv bb s i j * off0 lv o s i j * sm o (out0 s i) (out1 s j) * gam o * sm o i j | None => 0 end).
Proof.
  intros lv p o m0 i j G Hp Hi. cbn zeta. unfold patch_entries, bnd.
  destruct (set_j_at lv p o m0 i j Hi) as (D & X & A).
  destruct (fold_adjust lv o (matrix_boundaries lv p) (set_j_ij (box_of lv p) o m0) i j) as (D' & X' & A').
  { intros bb s Hb. apply (no_opposite lv p); auto. }
  { intro s. destruct G as (_ & _ & _ & G). destruct (G p Hp) as ((_ & C) & _). specialize (C i j s Hi). unfold count. rewrite C.
    destruct (in_qlevel _ _ _); lia. }
  split; [| split].
  - rewrite D', D. unfold sum_sides. rewrite !X. ring.
  - intro s. rewrite X', X. reflexivity.
  - intro s. rewrite A', X, A. reflexivity.
Qed.

(** a row of the matrix *)
Definition nb (f : arr2) (s : side) (i j : Z) : R := f (out0 s i) (out1 s j).
Lemma matvec_at : forall lv p o m0 v0 x i j, good_level lv -> In p (qpatches lv) -> in_qpatch p i j = true ->
  matvec lv o m0 v0 x i j = x i j + gam o * sm o i j * sum_sides (fun s =>
    off0 lv o s i j * match bnd lv p s i j with
                      | Some bb => ka lv bb s i j * (sm o i j * x i j) - sm o i j * x i j
                      | None => nb (sm o) s i j * nb x s i j - sm o i j * x i j end).
Proof.
  intros lv p o m0 v0 x i j G Hp Hi. unfold matvec. cbn zeta.
  destruct (entries_at lv p o m0 i j G Hp Hi) as (D & X & _).
  rewrite !(stored_at lv o m0 v0 p i j) by (auto; lia). unfold entry. change (0 =? 0)%Z with true. change (1 =? 1)%Z with true. change (1 =? 0)%Z with false. change (2 =? 0)%Z with false. change (2 =? 1)%Z with false. cbn iota.
  rewrite D. pose proof (X West) as XW. pose proof (X South) as XS. cbn [off face0 face1] in XW, XS. rewrite XW, XS.
  assert (E : (if in_qlevel lv (i + 1) j then stored lv o m0 v0 (i + 1)%Z j 1%Z * x (i + 1)%Z j else 0)
              = match bnd lv p East i j with Some _ => 0 | None => gam o * sm o (i + 1)%Z j * off0 lv o East i j * sm o i j * x (i + 1)%Z j end).
  { destruct (bnd_cases lv p East i j G Hp Hi) as [[L B] | [L (bb & B & _)]]; cbn [out0 out1] in L; rewrite L, B; [| reflexivity].
    destruct (in_level_elim _ _ _ L) as (p' & Hp' & Hi'). rewrite (stored_at lv o m0 v0 p') by (auto; lia).
    destruct (entries_at lv p' o m0 (i + 1) j G Hp' Hi') as (_ & X' & _). specialize (X' West). cbn [off face0 face1] in X'.
    unfold entry. change (1 =? 0)%Z with false. change (1 =? 1)%Z with true. cbn iota. rewrite X'. replace (i + 1 - 1)%Z with i by lia.
    destruct (bnd_cases lv p' West (i + 1) j G Hp' Hi') as [[L' B'] | [L' _]]; cbn [out0 out1] in L'; replace (i + 1 - 1)%Z with i in L' by lia.
    - rewrite B'. unfold off0, face_coef. cbn [face0 face1 spacing]. reflexivity.
    - rewrite (in_level_intro lv p i j Hp Hi) in L'. discriminate. }
  assert (F : (if in_qlevel lv i (j + 1) then stored lv o m0 v0 i (j + 1)%Z 2%Z * x i (j + 1)%Z else 0)
              = match bnd lv p North i j with Some _ => 0 | None => gam o * sm o i (j + 1)%Z * off0 lv o North i j * sm o i j * x i (j + 1)%Z end).
  { destruct (bnd_cases lv p North i j G Hp Hi) as [[L B] | [L (bb & B & _)]]; cbn [out0 out1] in L; rewrite L, B; [| reflexivity].
    destruct (in_level_elim _ _ _ L) as (p' & Hp' & Hi'). rewrite (stored_at lv o m0 v0 p') by (auto; lia).
    destruct (entries_at lv p' o m0 i (j + 1) G Hp' Hi') as (_ & X' & _). specialize (X' South). cbn [off face0 face1] in X'.
    unfold entry. change (2 =? 0)%Z with false. change (2 =? 1)%Z with false. cbn iota. rewrite X'. replace (j + 1 - 1)%Z with j by lia.
    destruct (bnd_cases lv p' South i (j + 1) G Hp' Hi') as [[L' B'] | [L' _]]; cbn [out0 out1] in L'; replace (j + 1 - 1)%Z with j in L' by lia.
    - rewrite B'. unfold off0, face_coef. cbn [face0 face1 spacing]. reflexivity.
    - rewrite (in_level_intro lv p i j Hp Hi) in L'. discriminate. }
  rewrite E, F. clear E F.
  assert (W : (if in_qlevel lv (i - 1) j then gam o * sm o i j * match bnd lv p West i j with Some _ => 0 | None => off0 lv o West i j end * sm o (i - 1)%Z j * x (i - 1)%Z j else 0)
            = match bnd lv p West i j with Some _ => 0 | None => gam o * sm o i j * off0 lv o West i j * sm o (i - 1)%Z j * x (i - 1)%Z j end).
  { destruct (bnd_cases lv p West i j G Hp Hi) as [[L B] | [L (bb & B & _)]]; cbn [out0 out1] in L; rewrite L, B; reflexivity. }
  assert (S : (if in_qlevel lv i (j - 1) then gam o * sm o i j * match bnd lv p South i j with Some _ => 0 | None => off0 lv o South i j end * sm o i (j - 1)%Z * x i (j - 1)%Z else 0)
            = match bnd lv p South i j with Some _ => 0 | None => gam o * sm o i j * off0 lv o South i j * sm o i (j - 1)%Z * x i (j - 1)%Z end).
  { destruct (bnd_cases lv p South i j G Hp Hi) as [[L B] | [L (bb & B & _)]]; cbn [out0 out1] in L; rewrite L, B; reflexivity. }
  rewrite W, S. unfold sum_sides, nb. cbn [out0 out1].
  destruct (bnd lv p West i j), (bnd lv p East i j), (bnd lv p South i j), (bnd lv p North i j); ring.
Qed.

(** the right hand side of the system *)
Lemma rhs_adjust_at : forall k rhs bb i j,
  adjust_qrhs k rhs bb i j = rhs i j - sum_sides (fun s => when (covers bb s i j) (k (side_loc s) (face0 s i) (face1 s j) * gcoef bb (face0 s i) (face1 s j))).
Proof.
  intros k rhs bb i j. unfold adjust_qrhs.
  assert (RX : forall (c f lo hi : Z) (k g rhs : arr2) a b, do_loop lo hi (rhs_x k g c f) rhs a b
             = if (a =? c)%Z && inb lo hi b then rhs c b - k f b * g f b else rhs a b).
  { clear. intros c f lo hi k g rhs a b.
    pose (P := fun (n : Z) (s : arr2) => forall a b, s a b = if (a =? c)%Z && inb lo n b then rhs c b - k f b * g f b else rhs a b).
    assert (H : P (Z.max (lo - 1) hi) (do_loop lo hi (rhs_x k g c f) rhs)).
    { apply do_loop_ind; unfold P; clear.
      - intros a b. unfold inb. dz.
      - intros n s Hn IH a b. unfold rhs_x, upd2. rewrite !IH. unfold inb. dz. }
    rewrite H. unfold inb. dz. }
  assert (RY : forall (c f lo hi : Z) (k g rhs : arr2) a b, do_loop lo hi (rhs_y k g c f) rhs a b
             = if (b =? c)%Z && inb lo hi a then rhs a c - k a f * g a f else rhs a b).
  { clear. intros c f lo hi k g rhs a b.
    pose (P := fun (n : Z) (s : arr2) => forall a b, s a b = if (b =? c)%Z && inb lo n a then rhs a c - k a f * g a f else rhs a b).
    assert (H : P (Z.max (lo - 1) hi) (do_loop lo hi (rhs_y k g c f) rhs)).
    { apply do_loop_ind; unfold P; clear.
      - intros a b. unfold inb. dz.
      - intros n s Hn IH a b. unfold rhs_y, upd2. rewrite !IH. unfold inb. dz. }
    rewrite H. unfold inb. dz. }
  destruct (Z.eqb_spec (loc bb) 0) as [E0 | N0].
  { rewrite RX. unfold sum_sides, covers, when, inb. rewrite E0. cbn [side_loc face0 face1 Z.eqb Pos.eqb andb]. dz; cbn; lra. }
  destruct (Z.eqb_spec (loc bb) 1) as [E1 | N1].
  { rewrite RX. unfold sum_sides, covers, when, inb. rewrite E1. cbn [side_loc face0 face1 Z.eqb Pos.eqb andb]. dz; cbn; try lra.
    all: try (replace (bl0 bb - 1 + 1)%Z with (bl0 bb) by lia; lra). }
  destruct (Z.eqb_spec (loc bb) 2) as [E2 | N2].
  { rewrite RY. unfold sum_sides, covers, when, inb. rewrite E2. cbn [side_loc face0 face1 Z.eqb Pos.eqb andb]. dz; cbn; lra. }
  destruct (Z.eqb_spec (loc bb) 3) as [E3 | N3].
  { rewrite RY. unfold sum_sides, covers, when, inb. rewrite E3. cbn [side_loc face0 face1 Z.eqb Pos.eqb andb]. dz; cbn; try lra.
    all: try (replace (bl1 bb - 1 + 1)%Z with (bl1 bb) by lia; lra). }
  assert (F : forall s, covers bb s i j = false) by (intros s; unfold covers; destruct s; cbn [side_loc]; dz).
  unfold sum_sides. rewrite !F. cbn [when]. lra.
Qed.
Lemma rhs_fold_at : forall k L rhs i j, (forall s, (count L s i j <= 1)%nat) ->
  fold_left (adjust_qrhs k) L rhs i j = rhs i j - sum_sides (fun s =>
    match bbox_at L s i j with Some bb => k (side_loc s) (face0 s i) (face1 s j) * gcoef bb (face0 s i) (face1 s j) | None => 0 end).
Proof.
  intros k L. induction L as [| bb L IH]; intros rhs i j C; [cbn; unfold sum_sides; lra |]. cbn [fold_left].
  rewrite IH by (intro s; specialize (C s); rewrite count_cons in C; lia). rewrite rhs_adjust_at. unfold sum_sides.
  assert (G : forall s, match bbox_at (bb :: L) s i j with Some c => k (side_loc s) (face0 s i) (face1 s j) * gcoef c (face0 s i) (face1 s j) | None => 0 end
     = when (covers bb s i j) (k (side_loc s) (face0 s i) (face1 s j) * gcoef bb (face0 s i) (face1 s j))
       + match bbox_at L s i j with Some c => k (side_loc s) (face0 s i) (face1 s j) * gcoef c (face0 s i) (face1 s j) | None => 0 end).
  { intro s. unfold bbox_at. cbn [find]. fold (bbox_at L s i j). destruct (covers bb s i j) eqn:E; cbn [when]; [| lra].
    rewrite count_zero; [lra |]. specialize (C s). rewrite count_cons, E in C. lia. }
  rewrite !G. lra.
Qed.
Lemma system_rhs_at : forall lv p o m0 rhs i j, good_level lv -> In p (qpatches lv) -> in_qpatch p i j = true ->
  system_rhs lv o m0 false rhs i j = rhs i j - gam o * sm o i j * sum_sides (fun s =>
    off0 lv o s i j * match bnd lv p s i j with
                      | Some bb => nb (sm o) s i j * (ua lv bb s i j * gcoef bb (face0 s i) (face1 s j)) | None => 0 end).
Proof.
  intros lv p o m0 rhs i j G Hp Hi. unfold system_rhs.
  rewrite (fold_patches R _ (fun p i j => fold_left (adjust_qrhs (ak (patch_entries lv o m0 p))) (coarse_fine p)
             (fold_left (adjust_qrhs (ak (patch_entries lv o m0 p))) (physical p) rhs) i j) _ _ p i j); auto; [| apply G].
  rewrite <- fold_left_app.
  assert (E : physical p ++ coarse_fine p = matrix_boundaries lv p).
  { unfold matrix_boundaries. destruct G as (_ & _ & _ & G). destruct (G p Hp) as (_ & [L | ->]).
    - apply Z.ltb_lt in L. rewrite L. reflexivity.
    - destruct (0 <? ln lv)%Z; reflexivity. }
  rewrite E, rhs_fold_at.
  2:{ intro s. destruct G as (_ & _ & _ & G). destruct (G p Hp) as ((_ & C) & _). specialize (C i j s Hi). unfold count. rewrite C.
      destruct (in_qlevel _ _ _); lia. }
  destruct (entries_at lv p o m0 i j G Hp Hi) as (_ & _ & A). unfold sum_sides. rewrite !A. fold (bnd lv p West i j) (bnd lv p East i j) (bnd lv p South i j) (bnd lv p North i j). unfold nb.
  destruct (bnd lv p West i j), (bnd lv p East i j), (bnd lv p South i j), (bnd lv p North i j); ring.
Qed.
(** the residual kernel *)
Lemma residual_at : forall lv p o fl q rhs old i j, good_level lv -> in_qpatch p i j = true ->
  q_residual (box_of lv p) o fl q rhs old i j = rhs i j - q i j - gam o * sm o i j * sum_sides (fun s =>
    off0 lv o s i j * (nb (sm o) s i j * nb q s i j - sm o i j * q i j)).
Proof.
  intros lv p o fl q rhs old i j (Hx & Hy & _) Hi. apply in_qpatch_box in Hi. unfold q_residual.
  rewrite cells_val by (unfold in_cells, in_box, box_of; cbn [lo0 hi0 lo1 hi1]; lia).
  unfold sym_flux_x, sym_flux_y.
  rewrite !xfaces_val by (unfold x_face, in_box, box_of; cbn [lo0 hi0 lo1 hi1]; lia).
  rewrite !yfaces_val by (unfold y_face, in_box, box_of; cbn [lo0 hi0 lo1 hi1]; lia).
  unfold box_of. cbn [h1 h2]. unfold sum_sides, nb, off0, face_coef. cbn [out0 out1 face0 face1 spacing].
  replace (i + 1 - 1)%Z with i by lia. replace (j + 1 - 1)%Z with j by lia. field. split; apply Rgt_not_eq; auto.
Qed.

(** * C93 *)
Lemma robin_den : forall a h, 0 < h -> 0 <= a <= 1 -> 0 < 1 - a * (1 - 1 / 2 * h).
Proof. intros a h Hh Ha. destruct (Req_dec a 0) as [-> | N]; [lra |]. assert (0 < a * h) by (apply Rmult_lt_0_compat; lra). nra. Qed.
Lemma spacing_pos : forall lv s, good_level lv -> 0 < spacing lv s.
Proof. intros lv s (Hx & Hy & _). destruct s; assumption. Qed.
Lemma robin_value : forall lv q bb s i j, good_level lv -> a_between bb s i j -> robin lv q bb s i j ->
  nb q s i j = ua lv bb s i j * gcoef bb (face0 s i) (face1 s j) + ka lv bb s i j * q i j.
Proof.
  intros lv q bb s i j G A E. unfold robin in E. cbn zeta in E. unfold nb, ua, ka, uk0, k1.
  pose proof (spacing_pos lv s G) as Hh. unfold a_between in A. pose proof (robin_den _ _ Hh A) as Hd. rewrite <- E.
  set (a := acoef _ _ _) in *. set (h := spacing lv s) in *. field. split; apply Rgt_not_eq; lra.
Qed.
Lemma hypre_row : forall lv o m0 v0 p fl q rhs old i j, good_level lv -> In p (qpatches lv) -> in_qpatch p i j = true ->
  on_boundary lv a_between -> on_boundary lv (robin lv q) -> on_boundary lv (mobility_ok lv o) ->
  q_residual (box_of lv p) o fl q rhs old i j = system_rhs lv o m0 false rhs i j - matvec lv o m0 v0 q i j.
Proof.
  intros lv o m0 v0 p fl q rhs old i j G Hp Hi A B M.
  rewrite (residual_at lv p), (system_rhs_at lv p), (matvec_at lv p) by auto.
  assert (T : forall s, off0 lv o s i j * (nb (sm o) s i j * nb q s i j - sm o i j * q i j)
    = off0 lv o s i j * match bnd lv p s i j with Some bb => nb (sm o) s i j * (ua lv bb s i j * gcoef bb (face0 s i) (face1 s j)) | None => 0 end
      + off0 lv o s i j * match bnd lv p s i j with
                      | Some bb => ka lv bb s i j * (sm o i j * q i j) - sm o i j * q i j
                      | None => nb (sm o) s i j * nb q s i j - sm o i j * q i j end).
  { intro s. destruct (bnd_cases lv p s i j G Hp Hi) as [[_ E] | [_ (bb & E & I & C)]]; rewrite E; [lra |].
    rewrite (robin_value lv q bb s i j G (A _ _ _ _ _ Hp I C) (B _ _ _ _ _ Hp I C)).
    destruct (M _ _ _ _ _ Hp I C) as [Em | Ea]; [unfold nb; rewrite Em; ring |].
    assert (K : ka lv bb s i j = 0).
    { pose proof (spacing_pos lv s G). unfold ka, k1. rewrite Ea. field. lra. }
    rewrite K. ring. }
  unfold sum_sides. rewrite !T. ring.
Qed.

(** * C94 *)
Lemma sum_over_cons : forall i j l f, sum_over ((i, j) :: l) f = f i j + sum_over l f.
Proof. reflexivity. Qed.
Lemma sum_over_ext : forall l f g, (forall i j, In (i, j) l -> f i j = g i j) -> sum_over l f = sum_over l g.
Proof. induction l as [| [i j] l IH]; intros f g H; [reflexivity |]. rewrite !sum_over_cons, H by (left; auto). rewrite (IH f g); [reflexivity |]. intros; apply H; right; auto. Qed.
Lemma sum_over_add : forall l f g, sum_over l (fun i j => f i j + g i j) = sum_over l f + sum_over l g.
Proof. induction l as [| [i j] l IH]; intros f g; [cbn; lra |]. rewrite !sum_over_cons, IH. lra. Qed.
Lemma sum_over_scal : forall l c f, sum_over l (fun i j => c * f i j) = c * sum_over l f.
Proof. induction l as [| [i j] l IH]; intros c f; [cbn; lra |]. rewrite !sum_over_cons, IH. lra. Qed.
Lemma sum_over_nonneg : forall l f, (forall i j, In (i, j) l -> 0 <= f i j) -> 0 <= sum_over l f.
Proof. induction l as [| [i j] l IH]; intros f H; [cbn; lra |]. rewrite sum_over_cons. pose proof (H i j (or_introl eq_refl)). specialize (IH f (fun a b I => H a b (or_intror I))). lra. Qed.
Lemma sum_over_perm : forall l l' f, Permutation l l' -> sum_over l f = sum_over l' f.
Proof. intros l l' f P. induction P as [| [i j] l l' P IH | [i j] [k n] l | l l' l'' P IH P' IH']; rewrite ?sum_over_cons; auto; try lra. Qed.
Lemma sum_over_filter : forall l b f, sum_over l (fun i j => when (b i j) (f i j)) = sum_over (filter (fun c => b (fst c) (snd c)) l) f.
Proof.
  induction l as [| [i j] l IH]; intros b f; [reflexivity |]. rewrite sum_over_cons, IH. cbn [filter fst snd].
  destruct (b i j); [rewrite sum_over_cons |]; cbn [when]; lra.
Qed.
Lemma sum_over_map : forall l g f, sum_over (map g l) f = sum_over l (fun i j => f (fst (g (i, j))) (snd (g (i, j)))).
Proof. induction l as [| [i j] l IH]; intros g f; [reflexivity |]. cbn [map]. rewrite sum_over_cons. rewrite <- IH. reflexivity. Qed.

Lemma in_level_cells : forall lv i j, In (i, j) (level_cells lv) <-> in_qlevel lv i j = true.
Proof.
  intros lv i j. unfold level_cells, in_qlevel. rewrite in_flat_map, existsb_exists.
  assert (K : forall p, In (i, j) (patch_cells p) <-> in_qpatch p i j = true).
  { intro p. rewrite in_qpatch_box. unfold patch_cells. rewrite in_flat_map. split.
    - intros (k & Hk & H). apply in_map_iff in H. destruct H as (n & E & Hn). injection E as -> ->. apply in_range in Hk. apply in_range in Hn. auto.
    - intros [Ha Hb]. exists i. split; [apply in_range; auto |]. apply in_map_iff. exists j. split; [reflexivity | apply in_range; auto]. }
  split; intros (p & Hp & H); exists p; split; auto; apply K; auto.
Qed.
Lemma nodup_app : forall (A : Type) (l l' : list A), NoDup l -> NoDup l' -> (forall x, In x l -> ~ In x l') -> NoDup (l ++ l').
Proof.
  intros A l l' N N' D. induction N as [| a l Ha N IH]; [exact N' |]. cbn. constructor.
  - intro H. apply in_app_or in H. destruct H as [H | H]; [auto | exact (D a (or_introl eq_refl) H)].
  - apply IH. intros x Hx. apply D. right; auto.
Qed.
Lemma nodup_flat_map : forall (A B : Type) (f : A -> list B) l, (forall a, In a l -> NoDup (f a)) ->
  ForallOrdPairs (fun a b => forall x, In x (f a) -> ~ In x (f b)) l -> NoDup (flat_map f l).
Proof.
  intros A B f l N D. induction D as [| a l Q D IH]; [constructor |]. cbn [flat_map]. apply nodup_app.
  - apply N. left; auto.
  - apply IH. intros; apply N; right; auto.
  - intros x Hx Hy. apply in_flat_map in Hy. destruct Hy as (b & Hb & Hxb). rewrite Forall_forall in Q. exact (Q b Hb x Hx Hxb).
Qed.
Lemma in_patch_cells : forall p i j, In (i, j) (patch_cells p) <-> in_qpatch p i j = true.
Proof.
  intros p i j. rewrite in_qpatch_box. unfold patch_cells. rewrite in_flat_map. split.
  - intros (k & Hk & H). apply in_map_iff in H. destruct H as (n & E & Hn). injection E as -> ->. apply in_range in Hk. apply in_range in Hn. auto.
  - intros [Ha Hb]. exists i. split; [apply in_range; auto |]. apply in_map_iff. exists j. split; [reflexivity | apply in_range; auto].
Qed.
Lemma fop_impl : forall (A : Type) (P Q : A -> A -> Prop) l, (forall a b, P a b -> Q a b) -> ForallOrdPairs P l -> ForallOrdPairs Q l.
Proof. intros A P Q l H F. induction F; constructor; auto. eapply Forall_impl; [| exact H0]. intros; apply H; auto. Qed.
Lemma fop_nodup : forall (A : Type) (P : A -> A -> Prop) l, (forall a b, a <> b -> P a b) -> NoDup l -> ForallOrdPairs P l.
Proof.
  intros A P l H N. induction N as [| a l Ha N IH]; constructor; auto. apply Forall_forall. intros b Hb. apply H. intro; subst; auto.
Qed.
Lemma nodup_level : forall lv, good_level lv -> NoDup (level_cells lv).
Proof.
  intros lv (_ & _ & D & _). unfold level_cells. apply nodup_flat_map.
  - intros p _. unfold patch_cells. apply nodup_flat_map.
    + intros i _. apply FinFun.Injective_map_NoDup; [intros a b E; injection E as ->; reflexivity | apply range_nodup].
    + apply fop_nodup; [| apply range_nodup]. intros a b N [k l] H H'. apply in_map_iff in H, H'.
      destruct H as (n & E & _), H' as (n' & E' & _). congruence.
  - eapply fop_impl; [| exact D]. intros p p' H [k l] Hk Hk'. apply in_patch_cells in Hk, Hk'. rewrite (H k l Hk) in Hk'. discriminate.
Qed.

(** each pair of neighbours seen from both ends *)
Lemma shift_sum : forall lv d0 d1 f, good_level lv ->
  sum_over (level_cells lv) (fun i j => when (in_qlevel lv (i + d0) (j + d1)) (f (i + d0)%Z (j + d1)%Z))
  = sum_over (level_cells lv) (fun i j => when (in_qlevel lv (i - d0) (j - d1)) (f i j)).
Proof.
  intros lv d0 d1 f G. rewrite (sum_over_filter _ (fun i j => in_qlevel lv (i + d0) (j + d1)) (fun i j => f (i + d0)%Z (j + d1)%Z)).
  rewrite (sum_over_filter _ (fun i j => in_qlevel lv (i - d0) (j - d1)) f).
  pose (g := fun c : Z * Z => ((fst c + d0)%Z, (snd c + d1)%Z)).
  change (fun i j => f (i + d0)%Z (j + d1)%Z) with (fun i j => f (fst (g (i, j))) (snd (g (i, j)))). rewrite <- sum_over_map.
  apply sum_over_perm. pose proof (nodup_level lv G) as N. apply NoDup_Permutation.
  - apply FinFun.Injective_map_NoDup; [intros [a b] [c d] E; injection E; intros; f_equal; lia |]. apply NoDup_filter. exact N.
  - apply NoDup_filter. exact N.
  - intros [i j]. rewrite in_map_iff, filter_In. cbn [fst snd]. rewrite in_level_cells. split.
    + intros ([k l] & E & H). apply filter_In in H. cbn [fst snd] in H. rewrite in_level_cells in H. injection E as <- <-.
      replace (k + d0 - d0)%Z with k by lia. replace (l + d1 - d1)%Z with l by lia. tauto.
    + intros [H H']. exists ((i - d0)%Z, (j - d1)%Z). split; [unfold g; cbn; f_equal; lia |]. apply filter_In. cbn [fst snd]. rewrite in_level_cells.
      replace (i - d0 + d0)%Z with i by lia. replace (j - d1 + d1)%Z with j by lia. tauto.
Qed.

(** the contribution of a side to a row *)
Definition inl (lv : qlevel) (s : side) (i j : Z) : bool := in_qlevel lv (out0 s i) (out1 s j).
Definition bcoef (lv : qlevel) (s : side) (i j : Z) : R :=
  match find (fun p => in_qpatch p i j) (qpatches lv) with
  | Some p => match bnd lv p s i j with Some bb => 1 - ka lv bb s i j | None => 0 end
  | None => 0 end.
Lemma row_form : forall lv o m0 v0 x i j, good_level lv -> in_qlevel lv i j = true ->
  matvec lv o m0 v0 x i j = x i j + gam o * sm o i j * sum_sides (fun s =>
    off0 lv o s i j * (when (inl lv s i j) (nb (sm o) s i j * nb x s i j - sm o i j * x i j) - bcoef lv s i j * (sm o i j * x i j))).
Proof.
  intros lv o m0 v0 x i j G Hi. unfold bcoef.
  destruct (find (fun p => in_qpatch p i j) (qpatches lv)) as [p |] eqn:F.
  - apply find_some in F. destruct F as [Hp Hpi]. rewrite (matvec_at lv p) by auto.
    assert (T : forall s, match bnd lv p s i j with Some bb => ka lv bb s i j * (sm o i j * x i j) - sm o i j * x i j | None => nb (sm o) s i j * nb x s i j - sm o i j * x i j end
      = when (inl lv s i j) (nb (sm o) s i j * nb x s i j - sm o i j * x i j)
        - match bnd lv p s i j with Some bb => 1 - ka lv bb s i j | None => 0 end * (sm o i j * x i j)).
    { intro s. unfold inl. destruct (bnd_cases lv p s i j G Hp Hpi) as [[L ->] | [L (bb & -> & _)]]; rewrite L; cbn [when]; ring. }
    unfold sum_sides. rewrite !T. reflexivity.
  - exfalso. destruct (in_level_elim _ _ _ Hi) as (p & Hp & Hpi). rewrite (find_none _ _ F p Hp) in Hpi. discriminate.
Qed.

Section Form.
Variables (lv : qlevel) (o : qop) (m0 : mat) (v0 : Z -> R).
Hypothesis G : good_level lv.
(** half of the faces: the ones to the west and to the south *)
Definition half_form (x y : arr2) (s : side) (i j : Z) : R :=
  when (inl lv s i j) (- off0 lv o s i j * (x i j - nb x s i j) * (y i j - nb y s i j)).
Lemma half_w : forall x y, sum_over (level_cells lv) (fun i j =>
    x i j * (off0 lv o West i j * when (inl lv West i j) (nb y West i j - y i j)) + x i j * (off0 lv o East i j * when (inl lv East i j) (nb y East i j - y i j)))
  = sum_over (level_cells lv) (half_form x y West).
Proof.
  intros x y. rewrite sum_over_add.
  pose (f := fun i j => x (i - 1)%Z j * (off0 lv o West i j * (y i j - y (i - 1)%Z j))).
  rewrite (sum_over_ext _ (fun i j => x i j * (off0 lv o East i j * when (inl lv East i j) (nb y East i j - y i j)))
             (fun i j => when (in_qlevel lv (i + 1) (j + 0)) (f (i + 1)%Z (j + 0)%Z))).
  2:{ intros i j _. unfold f, inl, nb. cbn [out0 out1]. replace (j + 0)%Z with j by lia. replace (i + 1 - 1)%Z with i by lia.
      replace (off0 lv o East i j) with (off0 lv o West (i + 1) j) by reflexivity. destruct (in_qlevel lv (i + 1) j); cbn [when]; ring. }
  rewrite shift_sum by exact G. rewrite <- sum_over_add.
  apply sum_over_ext. intros i j _.
  unfold half_form, inl, nb, f. cbn [out0 out1]. replace (j - 0)%Z with j by lia. destruct (in_qlevel lv (i - 1) j); cbn [when]; ring.
Qed.
Lemma half_s : forall x y, sum_over (level_cells lv) (fun i j =>
    x i j * (off0 lv o South i j * when (inl lv South i j) (nb y South i j - y i j)) + x i j * (off0 lv o North i j * when (inl lv North i j) (nb y North i j - y i j)))
  = sum_over (level_cells lv) (half_form x y South).
Proof.
  intros x y. rewrite sum_over_add.
  pose (f := fun i j => x i (j - 1)%Z * (off0 lv o South i j * (y i j - y i (j - 1)%Z))).
  rewrite (sum_over_ext _ (fun i j => x i j * (off0 lv o North i j * when (inl lv North i j) (nb y North i j - y i j)))
             (fun i j => when (in_qlevel lv (i + 0) (j + 1)) (f (i + 0)%Z (j + 1)%Z))).
  2:{ intros i j _. unfold f, inl, nb. cbn [out0 out1]. replace (i + 0)%Z with i by lia. replace (j + 1 - 1)%Z with j by lia.
      replace (off0 lv o North i j) with (off0 lv o South i (j + 1)) by reflexivity. destruct (in_qlevel lv i (j + 1)); cbn [when]; ring. }
  rewrite shift_sum by exact G. rewrite <- sum_over_add.
  apply sum_over_ext. intros i j _.
  unfold half_form, inl, nb, f. cbn [out0 out1]. replace (i - 0)%Z with i by lia. destruct (in_qlevel lv i (j - 1)); cbn [when]; ring.
Qed.
Definition sx (x : arr2) : arr2 := fun i j => sm o i j * x i j.
Lemma inner_form : forall x y, inner lv x (matvec lv o m0 v0 y) =
  inner lv x y + gam o * (sum_over (level_cells lv) (half_form (sx x) (sx y) West) + sum_over (level_cells lv) (half_form (sx x) (sx y) South)
    - sum_over (level_cells lv) (fun i j => sum_sides (fun s => off0 lv o s i j * bcoef lv s i j) * (sx x i j * sx y i j))).
Proof.
  intros x y. unfold inner. rewrite <- half_w, <- half_s. unfold Rminus.
  rewrite <- (Rmult_1_l (sum_over _ (fun i j => sum_sides _ * _))), Ropp_mult_distr_l, <- sum_over_scal.
  rewrite <- !sum_over_add, <- sum_over_scal, <- sum_over_add. apply sum_over_ext. intros i j Hi. apply in_level_cells in Hi.
  rewrite row_form by auto. unfold sum_sides, sx, nb. 
  destruct (inl lv West i j), (inl lv East i j), (inl lv South i j), (inl lv North i j); cbn [when]; ring.
Qed.
Lemma matrix_symmetric : forall x y, inner lv x (matvec lv o m0 v0 y) = inner lv y (matvec lv o m0 v0 x).
Proof.
  intros x y. rewrite !inner_form. unfold inner.
  rewrite (sum_over_ext _ (fun i j => y i j * x i j) (fun i j => x i j * y i j)) by (intros; ring).
  rewrite (sum_over_ext _ (half_form (sx y) (sx x) West) (half_form (sx x) (sx y) West)) by (intros; unfold half_form; f_equal; ring).
  rewrite (sum_over_ext _ (half_form (sx y) (sx x) South) (half_form (sx x) (sx y) South)) by (intros; unfold half_form; f_equal; ring).
  rewrite (sum_over_ext _ (fun i j => sum_sides _ * (sx y i j * sx x i j)) (fun i j => sum_sides (fun s => off0 lv o s i j * bcoef lv s i j) * (sx x i j * sx y i j))) by (intros; ring).
  reflexivity.
Qed.
Hypothesis Hg : 0 <= gam o.
Hypothesis Hf : forall i j, in_qlevel lv i j = true -> forall s, face_coef o s i j <= 0.
Hypothesis Ha : on_boundary lv a_between.
Lemma off_nonpos : forall s i j, in_qlevel lv i j = true -> off0 lv o s i j <= 0.
Proof.
  intros s i j Hi. unfold off0. pose proof (Hf i j Hi s). pose proof (spacing_pos lv s G) as Hh.
  assert (0 < 1 / (spacing lv s * spacing lv s)) by (apply Rdiv_lt_0_compat; [lra | apply Rmult_lt_0_compat; auto]). nra.
Qed.
Lemma bcoef_nonneg : forall s i j, 0 <= bcoef lv s i j.
Proof.
  intros s i j. unfold bcoef. destruct (find (fun p => in_qpatch p i j) (qpatches lv)) as [p |] eqn:F; [| lra].
  apply find_some in F. destruct F as [Hp Hpi].
  destruct (bnd_cases lv p s i j G Hp Hpi) as [[_ ->] | [_ (bb & -> & I & C)]]; [lra |].
  unfold ka, k1. pose proof (spacing_pos lv s G) as Hh. pose proof (Ha _ _ _ _ _ Hp I C) as A. unfold a_between in A.
  pose proof (robin_den _ _ Hh A) as Hd. set (a := acoef _ _ _) in *. set (h := spacing lv s) in *.
  replace (1 - (1 - a * (1 + 1 / 2 * h)) / (1 - a * (1 - 1 / 2 * h))) with (a * h / (1 - a * (1 - 1 / 2 * h))) by (field; lra).
  apply Rmult_le_pos; [apply Rmult_le_pos; lra | left; apply Rinv_0_lt_compat; exact Hd].
Qed.
Lemma matrix_coercive : forall x, inner lv x x <= inner lv x (matvec lv o m0 v0 x).
Proof.
  intro x. rewrite inner_form.
  assert (P1 : forall s, 0 <= sum_over (level_cells lv) (half_form (sx x) (sx x) s)).
  { intro s. apply sum_over_nonneg. intros i j Hi. apply in_level_cells in Hi. unfold half_form. destruct (inl lv s i j); cbn [when]; [| lra].
    pose proof (off_nonpos s i j Hi). rewrite Rmult_assoc. apply Rmult_le_pos; [lra | apply Rle_0_sqr]. }
  assert (P2 : sum_over (level_cells lv) (fun i j => sum_sides (fun s => off0 lv o s i j * bcoef lv s i j) * (sx x i j * sx x i j)) <= 0).
  { enough (0 <= sum_over (level_cells lv) (fun i j => - 1 * (sum_sides (fun s => off0 lv o s i j * bcoef lv s i j) * (sx x i j * sx x i j))))
      by (rewrite sum_over_scal in H; lra).
    apply sum_over_nonneg. intros i j Hi. apply in_level_cells in Hi.
    assert (S : sum_sides (fun s => off0 lv o s i j * bcoef lv s i j) <= 0).
    { assert (K : forall s, off0 lv o s i j * bcoef lv s i j <= 0) by (intro s; pose proof (off_nonpos s i j Hi); pose proof (bcoef_nonneg s i j); nra).
      unfold sum_sides. pose proof (K West). pose proof (K East). pose proof (K South). pose proof (K North). lra. }
    pose proof (Rle_0_sqr (sx x i j)) as Q. unfold Rsqr in Q. nra. }
  pose proof (P1 West). pose proof (P1 South).
  match goal with |- _ <= _ + gam o * ?e => assert (0 <= e) by lra; pose proof (Rmult_le_pos (gam o) e Hg H1) end. lra.
Qed.
Lemma matvec_sub : forall x y i j, in_qlevel lv i j = true ->
  matvec lv o m0 v0 (fun a b => x a b - y a b) i j = matvec lv o m0 v0 x i j - matvec lv o m0 v0 y i j.
Proof.
  intros x y i j Hi. rewrite !row_form by auto. unfold sum_sides, nb.
  destruct (inl lv West i j), (inl lv East i j), (inl lv South i j), (inl lv North i j); cbn [when]; ring.
Qed.
Lemma sum_zero : forall l f, (forall i j, In (i, j) l -> 0 <= f i j) -> sum_over l f <= 0 -> forall i j, In (i, j) l -> f i j = 0.
Proof.
  induction l as [| [a b] l IH]; intros f H S i j Hi; [contradiction |]. rewrite sum_over_cons in S.
  pose proof (H a b (or_introl eq_refl)). pose proof (sum_over_nonneg l f (fun k n I => H k n (or_intror I))).
  destruct Hi as [E | Hi]; [injection E as <- <-; lra |]. apply IH; auto; [intros; apply H; right; auto | lra].
Qed.
Lemma solution_unique : forall x y, (forall i j, in_qlevel lv i j = true -> matvec lv o m0 v0 x i j = matvec lv o m0 v0 y i j) ->
  forall i j, in_qlevel lv i j = true -> x i j = y i j.
Proof.
  intros x y E i j Hi. pose (d := fun a b => x a b - y a b).
  assert (Z : inner lv d (matvec lv o m0 v0 d) = 0).
  { unfold inner. rewrite (sum_over_ext _ _ (fun _ _ => 0 * 0)); [rewrite sum_over_scal; ring |].
    intros a b H. apply in_level_cells in H. unfold d at 2. rewrite matvec_sub, E by auto. ring. }
  pose proof (matrix_coercive d) as C. rewrite Z in C. unfold inner in C.
  assert (D : d i j * d i j = 0).
  { apply (sum_zero (level_cells lv) (fun a b => d a b * d a b)); auto; [intros; apply Rle_0_sqr | apply in_level_cells; auto]. }
  apply Rmult_integral in D. unfold d in D. lra.
Qed.
End Form.

(** * C95 *)
Lemma change_of_variables : forall lv p gamma M Dx Dy fl rhs old z i j, good_level lv -> in_qpatch p i j = true ->
  (forall a b, 0 < M a b) ->
  let o := mk_qop gamma (sqrt_mobility M) (fun a b => - Dx a b) (fun a b => - Dy a b) in
  implicit_operator gamma (hx lv) (hy lv) M Dx Dy (multiplyMobilitySqrt o z) i j
  = rhs i j - sqrt (M i j) * q_residual (box_of lv p) o fl z (divideMobilitySqrt o rhs) old i j.
Proof.
  intros lv p gamma M Dx Dy fl rhs old z i j G Hi HM o. rewrite residual_at by auto.
  destruct G as (Hx & Hy & _). unfold implicit_operator, multiplyMobilitySqrt, divideMobilitySqrt, o. cbn [gam sm fcx fcy].
  unfold sum_sides, nb, off0, face_coef, sqrt_mobility. cbn [fcx fcy sm gam out0 out1 face0 face1 spacing].
  assert (S : sqrt (M i j) * sqrt (M i j) = M i j) by (apply sqrt_sqrt; left; auto).
  assert (P : 0 < sqrt (M i j)) by (apply sqrt_lt_R0; auto). set (s0 := sqrt (M i j)) in *. rewrite <- S. field. repeat split; apply Rgt_not_eq; auto.
Qed.
Lemma solve_system_solves : forall lv p gamma M Dx Dy fl rhs old fac_solver i j, good_level lv -> in_qpatch p i j = true ->
  (forall a b, 0 < M a b) ->
  let o := mk_qop gamma (sqrt_mobility M) (fun a b => - Dx a b) (fun a b => - Dy a b) in
  q_residual (box_of lv p) o fl (fac_solver (divideMobilitySqrt o rhs)) (divideMobilitySqrt o rhs) old i j = 0 ->
  implicit_operator gamma (hx lv) (hy lv) M Dx Dy (solve_system o fac_solver rhs) i j = rhs i j.
Proof.
  intros lv p gamma M Dx Dy fl rhs old fac_solver i j G Hi HM o E. unfold solve_system.
  pose proof (change_of_variables lv p gamma M Dx Dy fl rhs old (fac_solver (divideMobilitySqrt o rhs)) i j G Hi HM) as C.
  cbn zeta in C. fold o in C. rewrite C, E. ring.
Qed.

(** * C97 *)
Lemma fold_max_spec : forall L m, let r := fold_left (fun m x => if Rlt_dec m x then x else m) L m in
  forall tol, r <= tol <-> m <= tol /\ Forall (fun x => x <= tol) L.
Proof.
  induction L as [| x L IH]; intros m r tol; unfold r; cbn [fold_left].
  - split; [auto | tauto].
  - rewrite (IH _ tol). rewrite Forall_cons_iff. destruct (Rlt_dec m x); split; intros; intuition lra.
Qed.
Lemma all_components : forall t tol rs, t = 0%Z \/ t = 1%Z -> 0 <= tol ->
  exists r ok, level_solve t tol rs = Some (map (fun _ => true) rs, r, ok) /\ (ok = true <-> Forall (fun x => x <= tol) rs).
Proof.
  intros t tol rs Ht H0. unfold level_solve.
  assert (E : ((t =? 0) || (t =? 1))%Z = true) by (destruct Ht; subst; reflexivity). rewrite E.
  do 2 eexists. split; [reflexivity |]. pose proof (fold_max_spec rs 0 tol) as F. cbn zeta in F.
  destruct (Rle_dec _ tol) as [L | L]; split; intro K; auto; try discriminate.
  - apply F in L. tauto.
  - exfalso. apply L. apply F. auto.
Qed.
Lemma first_only : exists rs tol b r, 0 < tol /\ level_solve 2 tol rs = Some (b, r, true) /\ level_solve 3 tol rs = Some (b, r, true) /\
  b <> map (fun _ => true) rs /\ ~ Forall (fun x => x <= tol) rs.
Proof.
  exists [0; 1], (1 / 2), [true; false], 0. split; [lra |].
  unfold level_solve. cbn [Z.eqb Pos.eqb orb map]. destruct (Rle_dec 0 (1 / 2)); [| lra].
  split; [reflexivity |]. split; [reflexivity |]. split; [discriminate |].
  intro F. inversion F as [| ? ? _ F']. inversion F'. lra.
Qed.

(** * Levels for the examples *)
(** no-flux conditions around a box of cells i0..i1, j = 0; [w] and [e] tell whether the west and the east end are boundaries *)
Definition no_flux (l a b c d : Z) : bdry := mk_bdry l a b c d (fun _ _ => 0) (fun _ _ => 0).
Definition strip (i0 i1 : Z) (w e : bool) : qpatch :=
  mk_qpatch i0 i1 0 0 ((if w then [no_flux 0 (i0 - 1) 0 (i0 - 1) 0] else []) ++ (if e then [no_flux 1 (i1 + 1) 0 (i1 + 1) 0] else [])
                       ++ [no_flux 2 i0 (-1) i1 (-1); no_flux 3 i0 1 i1 1]) nil.
Definition one_cell : qlevel := mk_qlevel [strip 0 0 true true] 1 1 0.
Definition two_patches : qlevel := mk_qlevel [strip 0 0 true false; strip 1 2 false true] 1 1 0.
Lemma one_cell_good : good_level one_cell.
Proof.
  split; [cbn; lra |]. split; [cbn; lra |]. split; [repeat constructor |].
  intros p [<- | []]. split; [| right; reflexivity]. split.
  - intros bb s i j Hb C. cbn in Hb. apply in_qpatch_box. cbn [strip qlo0 qhi0 qlo1 qhi1].
    destruct Hb as [<- | [<- | [<- | [<- | []]]]]; unfold covers in C; destruct s; cbn in C; try discriminate; revert C; dz; try discriminate.
  - intros i j s H. apply in_qpatch_box in H. cbn [strip qlo0 qhi0 qlo1 qhi1] in H. assert (i = 0 /\ j = 0)%Z as [-> ->] by lia. destruct s; reflexivity.
Qed.
Lemma two_patches_good : good_level two_patches.
Proof.
  split; [cbn; lra |]. split; [cbn; lra |]. split.
  { repeat constructor. intros i j H. apply in_qpatch_box in H. cbn [strip qlo0 qhi0 qlo1 qhi1] in H. destruct (in_qpatch _ i j) eqn:E; [| reflexivity].
    apply in_qpatch_box in E. cbn [strip qlo0 qhi0 qlo1 qhi1] in E. lia. }
  intros p [<- | [<- | []]]; (split; [| right; reflexivity]); split.
  - intros bb s i j Hb C. cbn in Hb. apply in_qpatch_box. cbn [strip qlo0 qhi0 qlo1 qhi1].
    destruct Hb as [<- | [<- | [<- | []]]]; unfold covers in C; destruct s; cbn in C; try discriminate; revert C; dz; try discriminate.
  - intros i j s H. apply in_qpatch_box in H. cbn [strip qlo0 qhi0 qlo1 qhi1] in H. assert (i = 0 /\ j = 0)%Z as [-> ->] by lia. destruct s; reflexivity.
  - intros bb s i j Hb C. cbn in Hb. apply in_qpatch_box. cbn [strip qlo0 qhi0 qlo1 qhi1].
    destruct Hb as [<- | [<- | [<- | []]]]; unfold covers in C; destruct s; cbn in C; try discriminate; revert C; dz; try discriminate.
  - intros i j s H. apply in_qpatch_box in H. cbn [strip qlo0 qhi0 qlo1 qhi1] in H. assert (j = 0 /\ (i = 1 \/ i = 2))%Z as [-> [-> | ->]] by lia; destruct s; reflexivity.
Qed.
Lemma flat_conditions : forall lv q, good_level lv -> (forall p bb, In p (qpatches lv) -> In bb (matrix_boundaries lv p) -> acoef bb = (fun _ _ => 0) /\ gcoef bb = fun _ _ => 0) ->
  (forall i j k l, q i j = q k l) -> on_boundary lv a_between /\ on_boundary lv (robin lv q).
Proof.
  intros lv q G H Q. split; intros p bb s i j Hp Hb _; destruct (H p bb Hp Hb) as [Ea Eg].
  - unfold a_between. rewrite Ea. lra.
  - unfold robin. rewrite Ea, Eg. rewrite (Q (out0 s i) (out1 s j) i j). field. apply Rgt_not_eq. apply (spacing_pos lv s G).
Qed.
Lemma strip_flat : forall lv p bb, lv = one_cell \/ lv = two_patches -> In p (qpatches lv) -> In bb (matrix_boundaries lv p) ->
  acoef bb = (fun _ _ => 0) /\ gcoef bb = fun _ _ => 0.
Proof.
  intros lv p bb [-> | ->] Hp Hb; cbn in Hp.
  - destruct Hp as [<- | []]. cbn in Hb. destruct Hb as [<- | [<- | [<- | [<- | []]]]]; split; reflexivity.
  - destruct Hp as [<- | [<- | []]]; cbn in Hb; destruct Hb as [<- | [<- | [<- | []]]]; split; reflexivity.
Qed.
(** the mobility jumps from 1 to 4 behind the boundary *)
Lemma ghost_mobility : exists lv o m0 v0 p fl q rhs old i j, good_level lv /\ In p (qpatches lv) /\ in_qpatch p i j = true /\
  on_boundary lv a_between /\ on_boundary lv (robin lv q) /\ (forall a b, 0 < sm o a b) /\ 0 < gam o /\ (forall a b, fcx o a b < 0 /\ fcy o a b < 0) /\
  q_residual (box_of lv p) o fl q rhs old i j <> system_rhs lv o m0 false rhs i j - matvec lv o m0 v0 q i j.
Proof.
  set (o := mk_qop 1 (fun i j => if (i =? 0)%Z && (j =? 0)%Z then 1 else 2) (fun _ _ => -1) (fun _ _ => -1)).
  exists one_cell, o, (mk_mat (fun _ _ => 0) (fun _ _ => 0) (fun _ _ => 0) (fun _ _ _ => 0)), (fun _ => 0), (strip 0 0 true true), (fun _ _ => 0, fun _ _ => 0),
    (fun _ _ => 1), (fun _ _ => 1), (fun _ _ => 0), 0%Z, 0%Z.
  pose proof one_cell_good as G. split; [exact G |]. split; [left; reflexivity |]. split; [reflexivity |].
  destruct (flat_conditions one_cell (fun _ _ => 1) G (fun p bb => strip_flat one_cell p bb (or_introl eq_refl)) (fun _ _ _ _ => eq_refl)) as [A B].
  split; [exact A |]. split; [exact B |]. split; [intros a b; unfold o; cbn [sm]; destruct (_ && _); lra |]. split; [cbn; lra |]. split; [intros; cbn; lra |].
  rewrite (residual_at one_cell) by (auto; reflexivity).
  rewrite (system_rhs_at one_cell (strip 0 0 true true)), (matvec_at one_cell (strip 0 0 true true)) by (auto; try reflexivity; left; reflexivity).
  unfold sum_sides, nb, off0, face_coef. cbn [out0 out1 face0 face1 spacing one_cell hx hy o gam sm fcx fcy].
  change (bnd one_cell (strip 0 0 true true) West 0 0) with (Some (no_flux 0 (-1) 0 (-1) 0)).
  change (bnd one_cell (strip 0 0 true true) East 0 0) with (Some (no_flux 1 1 0 1 0)).
  change (bnd one_cell (strip 0 0 true true) South 0 0) with (Some (no_flux 2 0 (-1) 0 (-1))).
  change (bnd one_cell (strip 0 0 true true) North 0 0) with (Some (no_flux 3 0 1 0 1)).
  cbn [no_flux gcoef]. unfold ka, k1. cbn [no_flux acoef spacing one_cell hx hy].
  cbn [Z.eqb Z.sub Z.add Z.opp andb]. lra.
Qed.
Lemma symmetric_closed : forall lv o m0 v0 x y, good_level lv -> inner lv x (matvec lv o m0 v0 y) = inner lv y (matvec lv o m0 v0 x).
Proof. intros. apply matrix_symmetric; auto. Qed.
Lemma coercive_closed : forall lv o m0 v0 x, good_level lv -> 0 <= gam o -> (forall i j, in_qlevel lv i j = true -> forall s, face_coef o s i j <= 0) ->
  on_boundary lv a_between -> inner lv x x <= inner lv x (matvec lv o m0 v0 x).
Proof. intros. apply matrix_coercive; auto. Qed.
Lemma unique_closed : forall lv o m0 v0 x y, good_level lv -> 0 <= gam o -> (forall i j, in_qlevel lv i j = true -> forall s, face_coef o s i j <= 0) ->
  on_boundary lv a_between ->
  (forall i j, in_qlevel lv i j = true -> matvec lv o m0 v0 x i j = matvec lv o m0 v0 y i j) ->
  forall i j, in_qlevel lv i j = true -> x i j = y i j.
Proof. intros lv o m0 v0 x y G Hg Hf Ha E i j Hi. exact (solution_unique lv o m0 v0 G Hg Hf Ha x y E i j Hi). Qed.
