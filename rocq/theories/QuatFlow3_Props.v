(** C168-C175: motion of the orientation field in three dimensions. *)
From Coq Require Import Reals ZArith List Bool Ascii Lra Lia.
From Verif Require Import Grid_Model Grid_Spec Grid_Proofs Functions_Model Quat_Model Quat_Spec Quat_Proofs Trap3_Model.
From Verif Require QuatFlow_Model QuatFlow_Spec.
From Verif Require Import QuatFlow_Proofs.
From Verif Require Import QuatFlow3_Model QuatFlow3_Spec QuatFlow3_Proofs.
Import ListNotations.
Open Scope R_scope.

(** C168: for every field of unit orientations (angles may be any) the search finds rotations on all sides. *)
Theorem C168_rotations_found : forall b d q old, multi d \/ d = 1%Z -> (multi d -> unit_field b d q) ->
  exists r, quat_symm_rotation3 b d q old = Some r /\ rotations_ok b d r.
Proof. exact rotations_found3. Qed.
Print Assumptions C168_rotations_found.

(** C168: the symmetry-aware difference across every side is a difference with an image of the neighbour, no image gives a smaller one, and it vanishes exactly for equivalent orientations. *)
Theorem C168_differences : forall b d q g r old, multi d \/ d = 1%Z -> (multi d -> unit_field b d q) ->
  quat_symm_rotation3 b d q g = Some r ->
  exists s, quatdiffs_symm3 b d q r old = Some s /\ forall a i j k, on_side b a i j k ->
    let v := pick a s i j k in
    (exists n, rotation_index d n /\ same d v (fun m => q i j k m - image d n (before a q i j k) m)) /\
    (forall n, rotation_index d n -> dotv d v v <= dotv d (fun m => q i j k m - image d n (before a q i j k) m)
                                                          (fun m => q i j k m - image d n (before a q i j k) m)) /\
    (same d v (fun _ => 0) <-> equivalent d (q i j k) (before a q i j k)).
Proof. exact diffs_minimal3. Qed.
Print Assumptions C168_differences.

Example C168_ex : (* the neighbour (1,0) of (0,1): plain difference (-1,1), symmetry-aware difference zero *)
  exists r s, quat_symm_rotation3 ex3_box 2 (ex3_q ex3_e) guess1 = Some r /\ quatdiffs_symm3 ex3_box 2 (ex3_q ex3_e) r zero4 = Some s /\
  pick AX s 1%Z 0%Z 0%Z 1%Z = 0 /\ pick AX (quatdiffs3 ex3_box 2 (ex3_q ex3_e) zero4) 1%Z 0%Z 0%Z 1%Z = -1.
Proof.
  assert (Hd : multi 2) by (left; reflexivity). pose proof (ex3_unit _ ex3_e_unit) as Hu.
  destruct (C168_rotations_found ex3_box 2 (ex3_q ex3_e) guess1 (or_introl Hd) (fun _ => Hu)) as (r & Er & _).
  destruct (C168_differences ex3_box 2 (ex3_q ex3_e) guess1 r zero4 (or_introl Hd) (fun _ => Hu) Er) as (s & Es & Hs).
  assert (P : on_side ex3_box AX 1 0 0) by (unfold on_side, in_box3; cbn; lia).
  exists r, s. split; [exact Er |]. split; [exact Es |]. split.
  - destruct (Hs AX 1%Z 0%Z 0%Z P) as (_ & _ & Hz). apply Hz; [exact ex_equiv | lia].
  - rewrite plain_diffs3 by (first [exact P | lia]). unfold pdiff, ex3_q, ex3_e. cbn. ring.
Qed.

(** C169: choosing another image as representative in every cell turns every symmetry-aware difference into the corresponding image, provided no neighbour has two equally close images. *)
Theorem C169_differences : forall b d S q q' g g' r r' old s s', multi d -> unit_field b d q -> regauged b d S q q' -> no_ties b d q ->
  quat_symm_rotation3 b d q g = Some r -> quat_symm_rotation3 b d q' g' = Some r' ->
  quatdiffs_symm3 b d q r old = Some s -> quatdiffs_symm3 b d q' r' old = Some s' ->
  forall a i j k, on_side b a i j k -> same d (pick a s' i j k) (image d (S i j k) (pick a s i j k)).
Proof. exact regauge_diffs3. Qed.
Print Assumptions C169_differences.

(** C169: the gradients in the cells and all nine gradient components on the faces turn with the representative. *)
Theorem C169_gradients : forall b d S q q' g g' r r' old9 old s s' c c' n n', multi d -> unit_field b d q -> regauged b d S q q' -> no_ties b d q ->
  quat_symm_rotation3 b d q g = Some r -> quat_symm_rotation3 b d q' g' = Some r' ->
  quatdiffs_symm3 b d q r old = Some s -> quatdiffs_symm3 b d q' r' old = Some s' ->
  quatgrad_cell_symm3 b d s r old = Some c -> quatgrad_cell_symm3 b d s' r' old = Some c' ->
  quatgrad_side_symm3 b d s r old9 = Some n -> quatgrad_side_symm3 b d s' r' old9 = Some n' ->
  (forall a i j k, in_cells b i j k -> same d (pick a c' i j k) (image d (S i j k) (pick a c i j k))) /\
  (forall a e i j k, on_face b a i j k -> same d (pick e (pick a n') i j k) (image d (S i j k) (pick e (pick a n) i j k))).
Proof. exact regauge_gradients3. Qed.
Print Assumptions C169_gradients.

(** C169: the gradient moduli and the norms of the gradients on the faces do not change. *)
Theorem C169_moduli : forall b d S q q' g g' r r' old9 old4 old3 s s' c c' n n', multi d -> unit_field b d q -> regauged b d S q q' -> no_ties b d q ->
  quat_symm_rotation3 b d q g = Some r -> quat_symm_rotation3 b d q' g' = Some r' ->
  quatdiffs_symm3 b d q r old4 = Some s -> quatdiffs_symm3 b d q' r' old4 = Some s' ->
  quatgrad_cell_symm3 b d s r old4 = Some c -> quatgrad_cell_symm3 b d s' r' old4 = Some c' ->
  quatgrad_side_symm3 b d s r old9 = Some n -> quatgrad_side_symm3 b d s' r' old9 = Some n' ->
  (forall i j k, in_cells b i j k ->
    quatgrad_modulus3 b d c' old3 i j k = quatgrad_modulus3 b d c old3 i j k /\
    quatgrad_modulus_from_sides3 b d n' old3 i j k = quatgrad_modulus_from_sides3 b d n old3 i j k) /\
  (forall a i j k, on_face b a i j k -> norm3 d (pick a n') i j k = norm3 d (pick a n) i j k).
Proof. exact regauge_moduli3. Qed.
Print Assumptions C169_moduli.

(** C169: hence neither do the face coefficients. *)
Theorem C169_coefficients : forall b d S q q' g g' r r' old9 old4 s s' n n' eps factor floor ft i1 i2 avg phi temp old f f',
  multi d -> unit_field b d q -> regauged b d S q q' -> no_ties b d q ->
  coef_ok ft i1 i2 avg -> 0 <= factor -> 0 < floor -> (forall i j k, in_ghosts b i j k -> 0 <= phi i j k <= 1 /\ 0 <= temp i j k) ->
  quat_symm_rotation3 b d q g = Some r -> quat_symm_rotation3 b d q' g' = Some r' ->
  quatdiffs_symm3 b d q r old4 = Some s -> quatdiffs_symm3 b d q' r' old4 = Some s' ->
  quatgrad_side_symm3 b d s r old9 = Some n -> quatgrad_side_symm3 b d s' r' old9 = Some n' ->
  compute_face_coef3 b d eps factor floor ft i1 i2 avg phi temp n old = Some f ->
  compute_face_coef3 b d eps factor floor ft i1 i2 avg phi temp n' old = Some f' ->
  forall a i j k, on_face b a i j k -> pick a f' i j k = pick a f i j k.
Proof. exact regauge_coefs3. Qed.
Print Assumptions C169_coefficients.

(** C169 fails for the motion: with use_diffs_to_compute_flux the fluxes through the upper faces are not turned back, and two fields describing the same grains move differently. *)
Theorem C169_motion_refuted : exists b d S q q' g r r' fc mob old9 old4 old3 rhs rhs', multi d /\ unit_field b d q /\ regauged b d S q q' /\ no_ties b d q /\
  quat_symm_rotation3 b d q g = Some r /\ quat_symm_rotation3 b d q' g = Some r' /\
  evaluateQuatRHS3 false true true false b d fc mob q r old9 old4 old3 = Some rhs /\
  evaluateQuatRHS3 false true true false b d fc mob q' r' old9 old4 old3 = Some rhs' /\
  exists i j k, in_cells b i j k /\ ~ same d (rhs' i j k) (image d (S i j k) (rhs i j k)).
Proof. exact motion_refuted3. Qed.
Print Assumptions C169_motion_refuted.

(** C169: builds with asserts abort on every symmetry-aware run with several components. *)
Theorem C169_aborts_refuted : forall use_gradq b d fc mob q r old9 old4 old3, multi d ->
  evaluateQuatRHS3 true true use_gradq false b d fc mob q r old9 old4 old3 = None.
Proof. exact aborts3. Qed.
Print Assumptions C169_aborts_refuted.

Example C169_ex : (* (4/5,3/5) and its image (-3/5,4/5) beside (1,0): the same modulus from the sides *)
  forall r r' s s' n n', quat_symm_rotation3 ex3_box 2 (ex3_q ex3_u) guess1 = Some r -> quat_symm_rotation3 ex3_box 2 (ex3_q ex3_w) guess1 = Some r' ->
  quatdiffs_symm3 ex3_box 2 (ex3_q ex3_u) r zero4 = Some s -> quatdiffs_symm3 ex3_box 2 (ex3_q ex3_w) r' zero4 = Some s' ->
  quatgrad_side_symm3 ex3_box 2 s r zero9 = Some n -> quatgrad_side_symm3 ex3_box 2 s' r' zero9 = Some n' ->
  quatgrad_modulus_from_sides3 ex3_box 2 n' (fun _ _ _ => 0) 0%Z 0%Z 0%Z = quatgrad_modulus_from_sides3 ex3_box 2 n (fun _ _ _ => 0) 0%Z 0%Z 0%Z /\
  quatgrad_modulus_from_sides3 ex3_box 2 n (fun _ _ _ => 0) 0%Z 0%Z 0%Z = sqrt (1 / 5).
Proof.
  intros r r' s s' n n' E E' X X' N N'. assert (Hd : multi 2) by (left; reflexivity).
  assert (Hu : ca ex3_u * ca ex3_u + cb ex3_u * cb ex3_u = 1) by (unfold ex3_u; cbn [ca cb]; lra).
  assert (Hw : ca ex3_w * ca ex3_w + cb ex3_w * cb ex3_w = 1) by (unfold ex3_w; cbn [ca cb]; lra).
  destruct (ex3_rot ex3_u 1 guess1 r Hu near_u E) as (R1 & R2 & R3 & R4 & R5 & R6 & Hr).
  destruct (ex3_rot ex3_w 2 guess1 r' Hw near_w E') as (_ & _ & _ & _ & _ & _ & Hr').
  destruct (cell_grad_symm3 ex3_box 2 s r zero4 Hd Hr) as (c & C1 & _). destruct (cell_grad_symm3 ex3_box 2 s' r' zero4 Hd Hr') as (c' & C2 & _).
  destruct (C169_moduli ex3_box 2 ex3_S (ex3_q ex3_u) (ex3_q ex3_w) guess1 guess1 r r' zero9 zero4 (fun _ _ _ => 0) s s' c c' n n'
    Hd (ex3_unit _ Hu) ex3_regauged (ex3_ties _ (or_introl eq_refl)) E E' X X' C1 C2 N N') as [M _].
  split; [apply (M 0 0 0)%Z; exact ex3_cell |].
  destruct (symm_diffs3 ex3_box 2 (ex3_q ex3_u) r zero4 (or_introl Hd) Hr) as (t & A & V). rewrite X in A. injection A as <-.
  destruct (side_symm3 ex3_box 2 s r zero9 Hd Hr) as (t & A & W & _). rewrite N in A. injection A as <-.
  rewrite sides_modulus3 by exact ex3_cell. f_equal. unfold QuatFlow_Spec.dotv. rewrite !sum2.
  rewrite !W by (first [lia | unfold on_face, in_box3; cbn; lia]).
  rewrite !V by (first [lia | unfold on_side, in_box3; cbn; lia]). unfold sdiff. rewrite R1. cbn [Z.add Pos.add]. rewrite R2, R3, R4, R5, R6.
  rewrite !(image_one 2) by (first [exact Hd | lia]). unfold ex3_q, ex3_u.
  cbn [spacing before hx hy hz ex3_box Z.leb Z.compare Z.add Z.sub Z.opp Z.pos_sub Pos.compare Pos.compare_cont QuatFlow_Model.vec2 ca cb]. field.
Qed.

(** C170: whatever the options, the right-hand side is orthogonal to the orientation of the cell: its length does not change. *)
Theorem C170_length : forall asserts symm use_gradq isotropic b d fc mob q r old9 old4 old3 rhs i j k,
  (symm = true -> multi d /\ rotations_ok b d r) -> d <> 1%Z ->
  evaluateQuatRHS3 asserts symm use_gradq isotropic b d fc mob q r old9 old4 old3 = Some rhs ->
  in_cells b i j k -> dotv d (q i j k) (q i j k) <> 0 -> dotv d (q i j k) (rhs i j k) = 0.
Proof. exact rhs_orthogonal3. Qed.
Print Assumptions C170_length.

(** C170: projection. Orientation plus correction has length one and the direction of the orientation; the projected error is orthogonal to the orientation, differs from the given one only along it, and an orthogonal error is kept. *)
Theorem C170_projection : forall b d q corr err i j k, in_cells b i j k -> ~ same d (q i j k) (fun _ => 0) ->
  let corr' := project_corr3 b d q corr in let err' := project_err3 b d q err in
  dotv d (fun m => q i j k m + corr' i j k m) (fun m => q i j k m + corr' i j k m) = 1 /\
  (exists s, 0 < s /\ same d (fun m => q i j k m + corr' i j k m) (fun m => s * q i j k m)) /\
  dotv d (q i j k) (err' i j k) = 0 /\
  (exists s, same d (err' i j k) (fun m => err i j k m - s * q i j k m)) /\
  (dotv d (q i j k) (err i j k) = 0 -> same d (err' i j k) (err i j k)).
Proof. exact project_ok3. Qed.
Print Assumptions C170_projection.

Example C170_ex : let q := fun (_ _ _ m : Z) => match m with 1%Z => 3 | 2%Z => 4 | _ => 0 end in
  3 + project_corr3 ex3_box 2 q (fun _ _ _ _ => 9) 0%Z 0%Z 0%Z 1%Z = 3 / 5.
Proof.
  intro q. destruct (C170_projection ex3_box 2 q (fun _ _ _ _ => 9) (fun _ _ _ _ => 0) 0%Z 0%Z 0%Z ex3_cell) as (H1 & (s & Hs & H2) & _).
  - intro H. specialize (H 1%Z ltac:(lia)). unfold q in H. lra.
  - rewrite (dotv_ext _ _ _ _ _ H2 H2) in H1. unfold QuatFlow_Spec.dotv in H1. rewrite sum2 in H1. unfold q in H1.
    assert (E : s = 1 / 5).
    { assert (F : (s - 1 / 5) * (s + 1 / 5) = 0) by lra. apply Rmult_integral in F. lra. }
    specialize (H2 1%Z ltac:(lia)). cbn beta in H2. change (q 0%Z 0%Z 0%Z 1%Z) with 3 in H2. rewrite H2, E. field.
Qed.

(** C171: where no rotation is needed, the symmetry-aware right-hand side is the plain one. *)
Theorem C171_identity : forall asserts asserts' use_gradq use_gradq' b d fc mob q r old9 old4 old3 rhs rhs0, multi d ->
  (forall a i j k, on_side b a i j k -> pick a r i j k = 1%Z) ->
  evaluateQuatRHS3 asserts true use_gradq false b d fc mob q r old9 old4 old3 = Some rhs ->
  evaluateQuatRHS3 asserts' false use_gradq' false b d fc mob q r old9 old4 old3 = Some rhs0 ->
  forall i j k, in_cells b i j k -> same d (rhs i j k) (rhs0 i j k).
Proof. exact rhs_identity3. Qed.
Print Assumptions C171_identity.

(** C171: a cell whose six neighbours are equivalent to it does not move with use_diffs_to_compute_flux; with the default option it moves with the opposite of the plain right-hand side. *)
Theorem C171_equivalent_neighbours_partial : forall b d fc mob q g r old9 old4 old3 rhs rhs1 rhs0 i j k, multi d -> unit_field b d q ->
  quat_symm_rotation3 b d q g = Some r ->
  evaluateQuatRHS3 false true true false b d fc mob q r old9 old4 old3 = Some rhs ->
  evaluateQuatRHS3 false true false false b d fc mob q r old9 old4 old3 = Some rhs1 ->
  evaluateQuatRHS3 false false false false b d fc mob q r old9 old4 old3 = Some rhs0 -> in_cells b i j k ->
  equivalent_around d q i j k ->
  same d (rhs i j k) (fun _ => 0) /\ same d (rhs1 i j k) (fun m => - rhs0 i j k m).
Proof. exact equivalent_rhs3. Qed.
Print Assumptions C171_equivalent_neighbours_partial.

(** C171 fails with the default option: there is a field of equivalent orientations that it moves. *)
Theorem C171_default_refuted : exists b d q g r fc mob old9 old4 old3 rhs, multi d /\ unit_field b d q /\ quat_symm_rotation3 b d q g = Some r /\
  (forall i j k, in_ghosts b i j k -> equivalent d (q i j k) (q 0%Z 0%Z 0%Z)) /\
  evaluateQuatRHS3 false true false false b d fc mob q r old9 old4 old3 = Some rhs /\
  exists i j k, in_cells b i j k /\ ~ same d (rhs i j k) (fun _ => 0).
Proof. exact default_drift3. Qed.
Print Assumptions C171_default_refuted.

Example C171_ex : (* (0,1) beside (1,0): the plain right-hand side pulls with 1, the symmetry-aware one not at all *)
  forall r rhs rhs1 rhs0, quat_symm_rotation3 ex3_box 2 (ex3_q ex3_e) guess1 = Some r ->
  evaluateQuatRHS3 false true true false ex3_box 2 ones (fun _ _ _ => 1) (ex3_q ex3_e) r zero9 zero4 (fun _ _ _ => 0) = Some rhs ->
  evaluateQuatRHS3 false true false false ex3_box 2 ones (fun _ _ _ => 1) (ex3_q ex3_e) r zero9 zero4 (fun _ _ _ => 0) = Some rhs1 ->
  evaluateQuatRHS3 false false false false ex3_box 2 ones (fun _ _ _ => 1) (ex3_q ex3_e) r zero9 zero4 (fun _ _ _ => 0) = Some rhs0 ->
  rhs 0%Z 0%Z 0%Z 2%Z = 0 /\ rhs0 0%Z 0%Z 0%Z 2%Z = 1 /\ rhs1 0%Z 0%Z 0%Z 2%Z = -1.
Proof.
  intros r rhs rhs1 rhs0 E F F1 F0. assert (Hd : multi 2) by (left; reflexivity).
  destruct (C171_equivalent_neighbours_partial ex3_box 2 _ _ _ _ r _ _ _ rhs rhs1 rhs0 0%Z 0%Z 0%Z Hd (ex3_unit _ ex3_e_unit) E F F1 F0 ex3_cell ex3_around) as [A B].
  destruct (rhs_plain3 false false ex3_box 2 ones (fun _ _ _ => 1) (ex3_q ex3_e) r zero9 zero4 (fun _ _ _ => 0)) as (t & F' & V0 & _). rewrite F0 in F'. injection F' as <-.
  assert (P : rhs0 0%Z 0%Z 0%Z 2%Z = 1).
  { rewrite V0 by (first [exact ex3_cell | lia]). cbn [Z.eqb Pos.eqb]. unfold tang, QuatFlow_Spec.dotv, div_plain3, diverg3, pdiff. rewrite !sum2. unfold ex3_q, ones, ex3_e.
    cbn [after before pick fst snd hx hy hz ex3_box Z.leb Z.compare Z.add Z.sub Z.opp Z.pos_sub Pos.add Pos.compare Pos.compare_cont QuatFlow_Model.vec2 ca cb]. field; lra. }
  split; [apply A; lia |]. split; [exact P |]. rewrite (B 2%Z ltac:(lia)), P. ring.
Qed.

(** C172: without symmetry the interface energy with frozen coefficients decreases along the right-hand side, at the rate sum |rhs|^2/mobility. *)
Theorem C172_descent_plain : forall asserts use_gradq b d fc mob q r old9 old4 old3 rhs,
  (xl b <= xu b)%Z -> (yl b <= yu b)%Z -> (zl b <= zu b)%Z ->
  (forall i j k, in_cells b i j k -> 0 < mob i j k /\ (d <> 1%Z -> dotv d (q i j k) (q i j k) <> 0)) ->
  evaluateQuatRHS3 asserts false use_gradq false b d fc mob q r old9 old4 old3 = Some rhs ->
  derivable_pt_lim (fun t => face_energy b fc (plain_gap d (moved b q rhs t))) 0
    (- sum_box3 (xl b) (xu b) (yl b) (yu b) (zl b) (zu b) (fun i j k => dotv d (rhs i j k) (rhs i j k) / mob i j k)).
Proof. exact plain_descent3. Qed.
Print Assumptions C172_descent_plain.

(** C172 fails with symmetry-aware fluxes: the energy of the symmetry-aware differences can increase. *)
Theorem C172_descent_refuted : exists b d q g r fc mob old9 old4 old3 rhs l, multi d /\ unit_field b d q /\ no_ties b d q /\
  (forall a i j k, pick a fc i j k < 0) /\ (forall i j k, 0 < mob i j k) /\
  quat_symm_rotation3 b d q g = Some r /\ evaluateQuatRHS3 false true true false b d fc mob q r old9 old4 old3 = Some rhs /\
  derivable_pt_lim (fun t => face_energy b fc (image_gap d r (moved b q rhs t))) 0 l /\ 0 < l.
Proof. exact symm_descent_refuted3. Qed.
Print Assumptions C172_descent_refuted.

Example C172_ex : (* mobility 2, the neighbour pulls with 2: the energy decreases at the rate 2 *)
  exists rhs, evaluateQuatRHS3 true false false false ex3_box 2 ones (fun _ _ _ => 2) (ex3_q ex3_e) guess1 zero9 zero4 (fun _ _ _ => 0) = Some rhs /\
  derivable_pt_lim (fun t => face_energy ex3_box ones (plain_gap 2 (moved ex3_box (ex3_q ex3_e) rhs t))) 0 (-2).
Proof.
  destruct (rhs_plain3 true false ex3_box 2 ones (fun _ _ _ => 2) (ex3_q ex3_e) guess1 zero9 zero4 (fun _ _ _ => 0)) as (rhs & E & V & _).
  exists rhs. split; [exact E |].
  assert (R : rhs 0%Z 0%Z 0%Z 1%Z = 0 /\ rhs 0%Z 0%Z 0%Z 2%Z = 2).
  { split; rewrite V by (first [exact ex3_cell | lia]); cbn [Z.eqb Pos.eqb]; unfold tang, QuatFlow_Spec.dotv, div_plain3, diverg3, pdiff; rewrite !sum2; unfold ex3_q, ones, ex3_e;
    cbn [after before pick fst snd hx hy hz ex3_box Z.leb Z.compare Z.add Z.sub Z.opp Z.pos_sub Pos.add Pos.compare Pos.compare_cont QuatFlow_Model.vec2 ca cb]; field; lra. }
  destruct R as [R1 R2].
  assert (S1 : - sum_box3 (xl ex3_box) (xu ex3_box) (yl ex3_box) (yu ex3_box) (zl ex3_box) (zu ex3_box) (fun i j k => dotv 2 (rhs i j k) (rhs i j k) / 2) = -2).
  { cbn [xl xu yl yu zl zu ex3_box]. unfold sum_box3. rewrite !sum00. unfold QuatFlow_Spec.dotv. rewrite sum2, R1, R2. field. }
  rewrite <- S1. eapply C172_descent_plain; [cbn; lia | cbn; lia | cbn; lia | | exact E].
  intros i j k Hij. split; [lra |]. intros _. rewrite (ex3_unit _ ex3_e_unit); [lra |]. unfold in_cells, in_ghosts, in_box3 in *; cbn in *; lia.
Qed.

(** C173: on orientation fields varying linearly the moduli and the norms on the faces are the exact norm of the gradient. *)
Theorem C173_linear : forall b d q u v w c old9 old4 old3 i j k,
  (forall i j k, in_ghosts b i j k -> same d (q i j k) (fun m => c m + IZR i * u m + IZR j * v m + IZR k * w m)) -> in_cells b i j k ->
  let s := quatdiffs3 b d q old4 in
  let exact := sqrt (dotv d u u / (hx b * hx b) + dotv d v v / (hy b * hy b) + dotv d w w / (hz b * hz b)) in
  quatgrad_modulus3 b d (quatgrad_cell3 b d s old4) old3 i j k = exact /\
  quatgrad_modulus_from_sides3 b d (quatgrad_side3 b d s old9) old3 i j k = exact /\
  (forall a i j k, on_face b a i j k -> sqrt (norm3 d (pick a (quatgrad_side3 b d s old9)) i j k) = exact).
Proof. exact moduli_linear3. Qed.
Print Assumptions C173_linear.

(** C173: the modulus from the sides vanishes exactly where the six neighbours agree with the cell. *)
Theorem C173_sides_zero : forall b d q old9 old4 old3 i j k, 0 < hx b -> 0 < hy b -> 0 < hz b -> in_cells b i j k ->
  (quatgrad_modulus_from_sides3 b d (quatgrad_side3 b d (quatdiffs3 b d q old4) old9) old3 i j k = 0 <->
   forall a, same d (before a q i j k) (q i j k) /\ same d (after a q i j k) (q i j k)).
Proof. exact sides_zero3. Qed.
Print Assumptions C173_sides_zero.

(** C173: the modulus from the cells (the default) vanishes exactly where opposite neighbours agree with each other. *)
Theorem C173_cells_zero_partial : forall b d q old4 old3 i j k, 0 < hx b -> 0 < hy b -> 0 < hz b -> in_cells b i j k ->
  (quatgrad_modulus3 b d (quatgrad_cell3 b d (quatdiffs3 b d q old4) old4) old3 i j k = 0 <-> forall a, same d (before a q i j k) (after a q i j k)).
Proof. exact cells_zero3. Qed.
Print Assumptions C173_cells_zero_partial.

(** C173 fails for the default modulus: it is zero in a cell that differs from all its neighbours. *)
Theorem C173_cells_refuted : exists (b : box3) (q : arr4) (i j k : Z), 0 < hx b /\ 0 < hy b /\ 0 < hz b /\ in_cells b i j k /\
  (forall old4 old3, quatgrad_modulus3 b 1 (quatgrad_cell3 b 1 (quatdiffs3 b 1 q old4) old4) old3 i j k = 0) /\
  forall a, before a q i j k 1%Z <> q i j k 1%Z.
Proof. exact cells_blind3. Qed.
Print Assumptions C173_cells_refuted.

Example C173_ex : let q := (fun i j k m => 1 + IZR i * IZR m + IZR j * 2 + IZR k * 3) : arr4 in
  quatgrad_modulus3 ex3_box 2 (quatgrad_cell3 ex3_box 2 (quatdiffs3 ex3_box 2 q zero4) zero4) (fun _ _ _ => 9) 0%Z 0%Z 0%Z = sqrt 31.
Proof.
  intro q. destruct (C173_linear ex3_box 2 q IZR (fun _ => 2) (fun _ => 3) (fun _ => 1) zero9 zero4 (fun _ _ _ => 9) 0%Z 0%Z 0%Z) as [H _];
    [intros i j k _ m _; reflexivity | exact ex3_cell |]. etransitivity; [exact H |]. unfold QuatFlow_Spec.dotv. cbn [hx hy hz ex3_box]. rewrite !sum2. f_equal. field.
Qed.

(** C174: renaming the axes in cycle renames the right-hand side, for all options that run. *)
Theorem C174_axes : forall asserts symm use_gradq b d fc mob q r old9 old4 old3 old9' old4' old3' rhs,
  (symm = true -> multi d /\ rotations_ok b d r) ->
  evaluateQuatRHS3 asserts symm use_gradq false b d fc mob q r old9 old4 old3 = Some rhs ->
  exists rhs', evaluateQuatRHS3 asserts symm use_gradq false (turn_box b) d (turn_triple fc) (turn3 mob) (turn4 q) (turn_triple r) old9' old4' old3' = Some rhs' /\
    forall i j k, in_cells (turn_box b) i j k -> same d (rhs' i j k) (turn4 rhs i j k).
Proof. exact turn_rhs3. Qed.
Print Assumptions C174_axes.

(** C174: a field uniform along z moves as in two dimensions, without symmetry and with the default option. *)
Theorem C174_slab_partial : forall asserts asserts' symm use_gradq b d fcx fcy fz mob q rx ry rz old9 old4 old3 o3 o2 rhs rhs2,
  (symm = true -> multi d /\ use_gradq = false /\ rotations_ok b d (flat2 rx, flat2 ry, rz) /\ forall i j k, on_side b AZ i j k -> rz i j k = 1%Z) ->
  evaluateQuatRHS3 asserts symm use_gradq false b d (flat2 fcx, flat2 fcy, fz) (flat2 mob) (flat q) (flat2 rx, flat2 ry, rz) old9 old4 old3 = Some rhs ->
  QuatFlow_Model.evaluateQuatRHS asserts' symm use_gradq (slab_patch b d) fcx fcy mob q rx ry o3 o2 = Some rhs2 ->
  forall i j k, in_cells b i j k -> same d (rhs i j k) (rhs2 i j).
Proof. exact slab3. Qed.
Print Assumptions C174_slab_partial.

(** C174 fails with use_diffs_to_compute_flux and symmetry: the same field moves differently in two and in three dimensions. *)
Theorem C174_slab_refuted : exists b d q g gx gy r rx ry fcx fcy fz mob old9 old4 old3 o3 o2 rhs rhs2, multi d /\ unit_field b d (flat q) /\ no_ties b d (flat q) /\
  quat_symm_rotation3 b d (flat q) g = Some r /\
  QuatFlow_Model.quat_symm_rotation_x (slab_patch b d) q gx = Some rx /\ QuatFlow_Model.quat_symm_rotation_y (slab_patch b d) q gy = Some ry /\
  evaluateQuatRHS3 false true true false b d (flat2 fcx, flat2 fcy, fz) (flat2 mob) (flat q) r old9 old4 old3 = Some rhs /\
  QuatFlow_Model.evaluateQuatRHS false true true (slab_patch b d) fcx fcy mob q rx ry o3 o2 = Some rhs2 /\
  exists i j k, in_cells b i j k /\ ~ same d (rhs i j k) (rhs2 i j).
Proof. exact slab_refuted3. Qed.
Print Assumptions C174_slab_refuted.

Example C174_ex : (* the neighbour (0,1) along x, in the turned program along z: the same pull *)
  exists rhs rhs', evaluateQuatRHS3 true false false false ex3_box 2 ones (fun _ _ _ => 1) (ex3_q ex3_e) guess1 zero9 zero4 (fun _ _ _ => 0) = Some rhs /\
  evaluateQuatRHS3 true false false false (turn_box ex3_box) 2 (turn_triple ones) (turn3 (fun _ _ _ => 1)) (turn4 (ex3_q ex3_e)) (turn_triple guess1) zero9 zero4 (fun _ _ _ => 0) = Some rhs' /\
  rhs 0%Z 0%Z 0%Z 2%Z = 1 /\ rhs' 0%Z 0%Z 0%Z 2%Z = 1 /\ turn4 (ex3_q ex3_e) 0%Z 0%Z 1%Z 2%Z = 1 /\ turn4 (ex3_q ex3_e) 1%Z 0%Z 0%Z 2%Z = 0.
Proof.
  destruct (rhs_plain3 true false ex3_box 2 ones (fun _ _ _ => 1) (ex3_q ex3_e) guess1 zero9 zero4 (fun _ _ _ => 0)) as (rhs & E & V & _).
  destruct (C174_axes true false false ex3_box 2 ones (fun _ _ _ => 1) (ex3_q ex3_e) guess1 zero9 zero4 (fun _ _ _ => 0) zero9 zero4 (fun _ _ _ => 0) rhs ltac:(discriminate) E)
    as (rhs' & E' & W).
  assert (P : rhs 0%Z 0%Z 0%Z 2%Z = 1).
  { rewrite V by (first [exact ex3_cell | lia]). cbn [Z.eqb Pos.eqb]. unfold tang, QuatFlow_Spec.dotv, div_plain3, diverg3, pdiff. rewrite !sum2. unfold ex3_q, ones, ex3_e.
    cbn [after before pick fst snd hx hy hz ex3_box Z.leb Z.compare Z.add Z.sub Z.opp Z.pos_sub Pos.add Pos.compare Pos.compare_cont QuatFlow_Model.vec2 ca cb]. field; lra. }
  exists rhs, rhs'. split; [exact E |]. split; [exact E' |]. split; [exact P |]. split; [| split; reflexivity].
  rewrite W; [exact P | unfold in_cells, in_box3; cbn; lia | lia].
Qed.

(** C175: the coefficients of all faces exist, have the sign of diffusion, are bounded by the gradient floor, and the singular part of the flux is bounded whatever the gradient. *)
Theorem C175_face_coefficients : forall b d eps factor floor ft i1 i2 avg phi temp g old, coef_ok ft i1 i2 avg -> 0 <= factor -> 0 < floor ->
  (forall i j k, in_ghosts b i j k -> 0 <= phi i j k <= 1 /\ 0 <= temp i j k) ->
  exists f, compute_face_coef3 b d eps factor floor ft i1 i2 avg phi temp g old = Some f /\
    forall a i j k, on_face b a i j k ->
      let t := (before a temp i j k + temp i j k) / 2 in let n := sqrt (norm3 d (pick a g) i j k) in
      pick a f i j k <= 0 /\ - pick a f i j k <= factor * t / floor + eps * eps /\ - pick a f i j k * n <= factor * t + eps * eps * n.
Proof. exact face_coefs3. Qed.
Print Assumptions C175_face_coefficients.

(** C175 fails for the isotropic stencil: the right-hand side cannot be computed with it in three dimensions. *)
Theorem C175_isotropic_refuted : forall asserts symm use_gradq b d fc mob q r old9 old4 old3,
  evaluateQuatRHS3 asserts symm use_gradq true b d fc mob q r old9 old4 old3 = None.
Proof. exact isotropic3. Qed.
Print Assumptions C175_isotropic_refuted.

Example C175_ex : exists f, compute_face_coef3 ex3_box 2 (1 / 2) 2 (1 / 10) "s" "p" "q" "a" (fun _ _ _ => 1 / 2) (fun _ _ _ => 3) zero9 ones = Some f /\
  -61 <= pick AZ f 0%Z 0%Z 1%Z <= 0.
Proof.
  destruct (C175_face_coefficients ex3_box 2 (1 / 2) 2 (1 / 10) "s" "p" "q" "a" (fun _ _ _ => 1 / 2) (fun _ _ _ => 3) zero9 ones) as (f & E & B);
    try lra; [unfold coef_ok; cbn; tauto | intros; lra |].
  exists f. split; [exact E |]. destruct (B AZ 0%Z 0%Z 1%Z) as (B1 & B2 & _); [unfold on_face, in_box3; cbn; lia |]. cbn [before] in B2. lra.
Qed.
