(** C61-C68: motion of the orientation field. *)
From Coq Require Import Reals ZArith List Bool Ascii Lra Lia.
From Verif Require Import Grid_Model Grid_Spec Grid_Proofs Functions_Model Quat_Model Quat_Spec Quat_Proofs
  QuatFlow_Model QuatFlow_Spec QuatFlow_Proofs.
Import ListNotations.
Open Scope R_scope.

(** C61: for every field of unit orientations (angles may be any) the search finds rotations on all sides. *)
Theorem C61_rotations_found : forall p q g, multi (depth p) \/ depth p = 1%Z -> (multi (depth p) -> unit_field p q) ->
  (exists rx, quat_symm_rotation_x p q g = Some rx) /\ (exists ry, quat_symm_rotation_y p q g = Some ry).
Proof. exact rotations_found. Qed.
Print Assumptions C61_rotations_found.

(** C61: with the rotations found for a field of unit orientations, the symmetry-aware difference across every side is a difference with one of the images of the neighbour, no image gives a smaller one, and it vanishes exactly for equivalent orientations. *)
Theorem C61_differences : forall p q g g' rx ry old, multi (depth p) \/ depth p = 1%Z -> (multi (depth p) -> unit_field p q) ->
  quat_symm_rotation_x p q g = Some rx -> quat_symm_rotation_y p q g' = Some ry ->
  exists sx sy, quatdiffs_symm_x p q rx old = Some sx /\ quatdiffs_symm_y p q ry old = Some sy /\
    (forall i j, x_side p i j ->
      (exists n, rotation_index (depth p) n /\ same (depth p) (sx i j) (fun m => q i j m - image (depth p) n (q (i - 1)%Z j) m)) /\
      (forall k, rotation_index (depth p) k ->
        dotv (depth p) (sx i j) (sx i j) <= dotv (depth p) (fun m => q i j m - image (depth p) k (q (i - 1)%Z j) m)
                                                           (fun m => q i j m - image (depth p) k (q (i - 1)%Z j) m)) /\
      (same (depth p) (sx i j) (fun _ => 0) <-> equivalent (depth p) (q i j) (q (i - 1)%Z j))) /\
    (forall i j, y_side p i j ->
      (exists n, rotation_index (depth p) n /\ same (depth p) (sy i j) (fun m => q i j m - image (depth p) n (q i (j - 1)%Z) m)) /\
      (forall k, rotation_index (depth p) k ->
        dotv (depth p) (sy i j) (sy i j) <= dotv (depth p) (fun m => q i j m - image (depth p) k (q i (j - 1)%Z) m)
                                                           (fun m => q i j m - image (depth p) k (q i (j - 1)%Z) m)) /\
      (same (depth p) (sy i j) (fun _ => 0) <-> equivalent (depth p) (q i j) (q i (j - 1)%Z))).
Proof. exact diffs_minimal. Qed.
Print Assumptions C61_differences.

Example C61_ex : exists rx ry sx, quat_symm_rotation_x ex_patch ex_q (fun _ _ => 3%Z) = Some rx /\ quat_symm_rotation_y ex_patch ex_q (fun _ _ => 3%Z) = Some ry /\
  quatdiffs_symm_x ex_patch ex_q rx (fun _ _ _ => 7) = Some sx /\ sx 1%Z 0%Z 1%Z = 0 /\ ex_q 1%Z 0%Z 1%Z - ex_q 0%Z 0%Z 1%Z = -1.
Proof.
  assert (Hd : multi (depth ex_patch)) by (left; reflexivity).
  destruct (rotations_found ex_patch ex_q (fun _ _ => 3%Z) (or_introl Hd) (fun _ => ex_q_unit)) as [[rx Ex] [ry Ey]].
  destruct (diffs_minimal ex_patch ex_q _ _ rx ry (fun _ _ _ => 7) (or_introl Hd) (fun _ => ex_q_unit) Ex Ey) as (sx & sy & Sx & _ & H & _).
  exists rx, ry, sx. split; [exact Ex |]. split; [exact Ey |]. split; [exact Sx |]. split.
  - destruct (H 1%Z 0%Z) as (_ & _ & Hz); [split; cbn; lia |]. apply Hz; [exact ex_equiv | cbn; lia].
  - unfold ex_q. cbn. ring.
Qed.

(** C62: choosing another image as representative in every cell turns every symmetry-aware difference into the corresponding image, provided no neighbour has two equally close images. *)
Theorem C62_differences : forall p S q q' g1 g2 g3 g4 rx ry rx' ry' old sx sy sx' sy',
  multi (depth p) -> unit_field p q -> regauged p S q q' -> no_ties p q ->
  quat_symm_rotation_x p q g1 = Some rx -> quat_symm_rotation_y p q g2 = Some ry ->
  quat_symm_rotation_x p q' g3 = Some rx' -> quat_symm_rotation_y p q' g4 = Some ry' ->
  quatdiffs_symm_x p q rx old = Some sx -> quatdiffs_symm_y p q ry old = Some sy ->
  quatdiffs_symm_x p q' rx' old = Some sx' -> quatdiffs_symm_y p q' ry' old = Some sy' ->
  (forall i j, x_side p i j -> same (depth p) (sx' i j) (image (depth p) (S i j) (sx i j))) /\
  (forall i j, y_side p i j -> same (depth p) (sy' i j) (image (depth p) (S i j) (sy i j))).
Proof. exact regauge_diffs. Qed.
Print Assumptions C62_differences.

(** C62: the gradient moduli, from the cells and from the sides, do not change, and neither does the norm of the gradient on each side. *)
Theorem C62_moduli : forall p S q q' g1 g2 g3 g4 rx ry rx' ry' old old2 sx sy sx' sy'
    gx gy gx' gy' gyx gxy gyx' gxy',
  multi (depth p) -> unit_field p q -> regauged p S q q' -> no_ties p q ->
  quat_symm_rotation_x p q g1 = Some rx -> quat_symm_rotation_y p q g2 = Some ry ->
  quat_symm_rotation_x p q' g3 = Some rx' -> quat_symm_rotation_y p q' g4 = Some ry' ->
  quatdiffs_symm_x p q rx old = Some sx -> quatdiffs_symm_y p q ry old = Some sy ->
  quatdiffs_symm_x p q' rx' old = Some sx' -> quatdiffs_symm_y p q' ry' old = Some sy' ->
  quatgrad_cell_symm_x p sx rx old = Some gx -> quatgrad_cell_symm_y p sy ry old = Some gy ->
  quatgrad_cell_symm_x p sx' rx' old = Some gx' -> quatgrad_cell_symm_y p sy' ry' old = Some gy' ->
  quatgrad_side_symm_y_xside p sy rx ry old = Some gyx -> quatgrad_side_symm_x_yside p sx rx ry old = Some gxy ->
  quatgrad_side_symm_y_xside p sy' rx' ry' old = Some gyx' -> quatgrad_side_symm_x_yside p sx' rx' ry' old = Some gxy' ->
  forall i j, in_patch p i j ->
    quatgrad_modulus p gx' gy' old2 i j = quatgrad_modulus p gx gy old2 i j /\
    quatgrad_modulus_from_sides_compact p (quatgrad_side_x_xside p sx' old) (quatgrad_side_y_yside p sy' old) old2 i j =
    quatgrad_modulus_from_sides_compact p (quatgrad_side_x_xside p sx old) (quatgrad_side_y_yside p sy old) old2 i j /\
    (forall k l, x_face p k l -> side_square (depth p) (quatgrad_side_x_xside p sx' old) gyx' k l =
                                 side_square (depth p) (quatgrad_side_x_xside p sx old) gyx k l) /\
    (forall k l, y_face p k l -> side_square (depth p) gxy' (quatgrad_side_y_yside p sy' old) k l =
                                 side_square (depth p) gxy (quatgrad_side_y_yside p sy old) k l).
Proof. exact regauge_moduli. Qed.
Print Assumptions C62_moduli.

(** C62: the right-hand side with symmetry-aware fluxes (use_diffs_to_compute_flux) turns with the representative, so the motion is the same. *)
Theorem C62_motion : forall asserts asserts' p S q q' g1 g2 g3 g4 rx ry rx' ry' fcx fcy mob old3 old2 rhs rhs',
  multi (depth p) -> unit_field p q -> regauged p S q q' -> no_ties p q ->
  quat_symm_rotation_x p q g1 = Some rx -> quat_symm_rotation_y p q g2 = Some ry ->
  quat_symm_rotation_x p q' g3 = Some rx' -> quat_symm_rotation_y p q' g4 = Some ry' ->
  evaluateQuatRHS asserts true true p fcx fcy mob q rx ry old3 old2 = Some rhs ->
  evaluateQuatRHS asserts' true true p fcx fcy mob q' rx' ry' old3 old2 = Some rhs' ->
  forall i j, in_patch p i j -> same (depth p) (rhs' i j) (image (depth p) (S i j) (rhs i j)).
Proof. exact regauge_rhs. Qed.
Print Assumptions C62_motion.

Definition C62_q : arr3 := fun i j m => if (1 <=? i)%Z then vec2 (Q2 (3 / 5) (4 / 5)) m else vec2 (Q2 1 0) m.
Definition C62_q' : arr3 := fun i j m => - C62_q i j m.
Lemma C62_unique : closest_unique 2 (vec2 (Q2 (3 / 5) (4 / 5))) (vec2 (Q2 1 0)).
Proof.
  exists 2%Z. split; [split; cbn; lia |]. intros k Hk Hne. destruct qr2_val as (E1 & E2 & E3 & E4). unfold dotv. rewrite !sum2. cbn [image].
  destruct (tab4 k Hk) as [-> | [-> | [-> | ->]]]; try lia; rewrite ?E1, ?E2, ?E3, ?E4; cbn [comp2 quatmult2 ca cb vec2]; lra.
Qed.
Lemma C62_unique_self : forall a b, a ^ 2 + b ^ 2 = 1 -> closest_unique 2 (vec2 (Q2 a b)) (vec2 (Q2 a b)).
Proof.
  intros a b H. exists 1%Z. split; [split; cbn; lia |]. intros k Hk Hne. destruct qr2_val as (E1 & E2 & E3 & E4). unfold dotv. rewrite !sum2. cbn [image].
  destruct (tab4 k Hk) as [-> | [-> | [-> | ->]]]; try lia; rewrite ?E1, ?E2, ?E3, ?E4; cbn [comp2 quatmult2 ca cb vec2]; lra.
Qed.
Example C62_ex : exists rhs rhs' : arr3, rhs' 0%Z 0%Z 2%Z = - rhs 0%Z 0%Z 2%Z /\
  (exists rx ry, quat_symm_rotation_x ex_patch C62_q (fun _ _ => 0%Z) = Some rx /\ quat_symm_rotation_y ex_patch C62_q (fun _ _ => 0%Z) = Some ry /\
    evaluateQuatRHS true true true ex_patch (fun _ _ => -1) (fun _ _ => -2) (fun _ _ => 1) C62_q rx ry (fun _ _ _ => 0) (fun _ _ => 0) = Some rhs) /\
  (exists rx ry, quat_symm_rotation_x ex_patch C62_q' (fun _ _ => 4%Z) = Some rx /\ quat_symm_rotation_y ex_patch C62_q' (fun _ _ => 0%Z) = Some ry /\
    evaluateQuatRHS true true true ex_patch (fun _ _ => -1) (fun _ _ => -2) (fun _ _ => 1) C62_q' rx ry (fun _ _ _ => 0) (fun _ _ => 0) = Some rhs').
Proof.
  assert (Hd : multi (depth ex_patch)) by (left; reflexivity).
  assert (Hu : unit_field ex_patch C62_q).
  { intros i j _. unfold dotv, C62_q. cbn [depth ex_patch]. rewrite sum2. destruct (1 <=? i)%Z; cbn [vec2 ca cb]; lra. }
  assert (Hg : regauged ex_patch (fun _ _ => 3%Z) C62_q C62_q').
  { intros i j _. split; [split; cbn; lia |]. intros m Hm. cbn [depth ex_patch] in *. cbn [image]. destruct qr2_val as (_ & _ & E3 & _). rewrite E3.
    unfold C62_q'. idx2 m Hm; cbn [comp2 quatmult2 ca cb]; ring. }
  assert (Hu' : unit_field ex_patch C62_q') by (apply (regauged_unit ex_patch (fun _ _ => 3%Z) C62_q); auto).
  assert (Ht : no_ties ex_patch C62_q).
  { split; intros i j [Hi Hj]; cbn [lo0 hi0 lo1 hi1 ex_patch] in Hi, Hj; unfold C62_q; cbn [depth ex_patch].
    - assert (Ei : (i = 0 \/ i = 1)%Z) by lia. destruct Ei as [-> | ->]; [apply (C62_unique_self 1 0); lra | apply C62_unique].
    - destruct (1 <=? i)%Z; [apply (C62_unique_self (3 / 5) (4 / 5)); lra | apply (C62_unique_self 1 0); lra]. }
  destruct (rotations_found ex_patch C62_q (fun _ _ => 0%Z) (or_introl Hd) (fun _ => Hu)) as [[rx E1] [ry E2]].
  destruct (rotations_found ex_patch C62_q' (fun _ _ => 4%Z) (or_introl Hd) (fun _ => Hu')) as [[rx' E3] _].
  destruct (rotations_found ex_patch C62_q' (fun _ _ => 0%Z) (or_introl Hd) (fun _ => Hu')) as [_ [ry' E4]].
  destruct (regauge_squares ex_patch _ C62_q C62_q' _ _ _ _ rx ry rx' ry' Hd Hu Hg Ht E1 E2 E3 E4) as (Hr & Hr' & _).
  destruct (rhs_symm true ex_patch (fun _ _ => -1) (fun _ _ => -2) (fun _ _ => 1) C62_q rx ry (fun _ _ _ => 0) (fun _ _ => 0) Hd Hr) as (rhs & E & _).
  destruct (rhs_symm true ex_patch (fun _ _ => -1) (fun _ _ => -2) (fun _ _ => 1) C62_q' rx' ry' (fun _ _ _ => 0) (fun _ _ => 0) Hd Hr') as (rhs' & E' & _).
  exists rhs, rhs'. split; [| split; [exists rx, ry; auto | exists rx', ry'; auto]].
  rewrite (C62_motion true true ex_patch _ C62_q C62_q' _ _ _ _ rx ry rx' ry' _ _ _ _ _ rhs rhs' Hd Hu Hg Ht E1 E2 E3 E4 E E' 0%Z 0%Z);
    [| split; cbn; lia | cbn; lia].
  cbn [depth ex_patch image]. destruct qr2_val as (_ & _ & V3 & _). rewrite V3. cbn [comp2 quatmult2 ca cb]. ring.
Qed.

(** C63: whatever the options, the right-hand side is orthogonal to the orientation of the cell: its length does not change. *)
Theorem C63_length : forall asserts symm use_gradq p fcx fcy mob q rx ry old3 old2 rhs i j,
  (symm = true -> multi (depth p) /\ rotations_ok p rx ry) -> depth p <> 1%Z ->
  evaluateQuatRHS asserts symm use_gradq p fcx fcy mob q rx ry old3 old2 = Some rhs ->
  in_patch p i j -> dotv (depth p) (q i j) (q i j) <> 0 -> dotv (depth p) (q i j) (rhs i j) = 0.
Proof. exact rhs_orthogonal. Qed.
Print Assumptions C63_length.

Example C63_ex : exists rhs, evaluateQuatRHS true false false ex_patch (fun _ _ => -1) (fun _ _ => -1) (fun _ _ => 1) ex_q (fun _ _ => 1%Z) (fun _ _ => 1%Z) (fun _ _ _ => 0) (fun _ _ => 0) = Some rhs /\
  rhs 0%Z 0%Z 1%Z = 0 /\ rhs 0%Z 0%Z 2%Z = 1.
Proof.
  destruct (rhs_plain true false ex_patch (fun _ _ => -1) (fun _ _ => -1) (fun _ _ => 1) ex_q (fun _ _ => 1%Z) (fun _ _ => 1%Z) (fun _ _ _ => 0) (fun _ _ => 0)) as (rhs & E & V & _).
  exists rhs. split; [exact E |].
  assert (P : in_patch ex_patch 0 0) by (split; cbn; lia).
  split; rewrite V by (auto; cbn; lia); cbn [depth ex_patch Z.eqb Pos.eqb]; unfold tang, dotv, div_plain, diverg; rewrite !sum2; unfold ex_q;
    cbn [h1 h2 ex_patch Z.leb Z.compare Z.add Z.sub Z.opp Z.pos_sub Pos.add Pos.compare Pos.compare_cont vec2 ca cb]; field; lra.
Qed.

(** C64: where no rotation is needed, the symmetry-aware right-hand side is the plain one. *)
Theorem C64_identity : forall asserts asserts' use_gradq use_gradq' p fcx fcy mob q rx ry old3 old2 rhs rhs0,
  multi (depth p) -> (forall i j, x_side p i j -> rx i j = 1%Z) -> (forall i j, y_side p i j -> ry i j = 1%Z) ->
  evaluateQuatRHS asserts true use_gradq p fcx fcy mob q rx ry old3 old2 = Some rhs ->
  evaluateQuatRHS asserts' false use_gradq' p fcx fcy mob q rx ry old3 old2 = Some rhs0 ->
  forall i j, in_patch p i j -> same (depth p) (rhs i j) (rhs0 i j).
Proof. exact rhs_identity. Qed.
Print Assumptions C64_identity.

(** C64: with symmetry-aware fluxes (use_diffs_to_compute_flux), a cell whose four neighbours are equivalent to it does not move. *)
Theorem C64_equivalent_neighbours : forall asserts p fcx fcy mob q g g' rx ry old3 old2 rhs i j, multi (depth p) -> unit_field p q ->
  quat_symm_rotation_x p q g = Some rx -> quat_symm_rotation_y p q g' = Some ry ->
  evaluateQuatRHS asserts true true p fcx fcy mob q rx ry old3 old2 = Some rhs -> in_patch p i j ->
  equivalent (depth p) (q i j) (q (i - 1)%Z j) -> equivalent (depth p) (q (i + 1)%Z j) (q i j) ->
  equivalent (depth p) (q i j) (q i (j - 1)%Z) -> equivalent (depth p) (q i (j + 1)%Z) (q i j) ->
  same (depth p) (rhs i j) (fun _ => 0).
Proof. exact rhs_equivalent. Qed.
Print Assumptions C64_equivalent_neighbours.

(** C64: with the default option the same cell moves with the opposite of the plain right-hand side, as if orientations repelled each other. *)
Theorem C64_default_reversed : forall p fcx fcy mob q g g' rx ry old3 old2 rhs rhs0 i j, multi (depth p) -> unit_field p q ->
  quat_symm_rotation_x p q g = Some rx -> quat_symm_rotation_y p q g' = Some ry ->
  evaluateQuatRHS false true false p fcx fcy mob q rx ry old3 old2 = Some rhs ->
  evaluateQuatRHS false false false p fcx fcy mob q rx ry old3 old2 = Some rhs0 -> in_patch p i j ->
  equivalent (depth p) (q i j) (q (i - 1)%Z j) -> equivalent (depth p) (q (i + 1)%Z j) (q i j) ->
  equivalent (depth p) (q i j) (q i (j - 1)%Z) -> equivalent (depth p) (q i (j + 1)%Z) (q i j) ->
  same (depth p) (rhs i j) (fun m => - rhs0 i j m).
Proof. exact default_reverses. Qed.
Print Assumptions C64_default_reversed.

(** C64: there is a field of equivalent orientations that the default option moves. *)
Theorem C64_default_refuted : exists p q g rx ry rhs,
  multi (depth p) /\ unit_field p q /\ quat_symm_rotation_x p q g = Some rx /\ quat_symm_rotation_y p q g = Some ry /\
  (forall i j, in_ghosts p i j -> equivalent (depth p) (q i j) (q 0%Z 0%Z)) /\
  evaluateQuatRHS false true false p (fun _ _ => -1) (fun _ _ => -1) (fun _ _ => 1) q rx ry (fun _ _ _ => 0) (fun _ _ => 0) = Some rhs /\
  ~ same (depth p) (rhs 0%Z 0%Z) (fun _ => 0).
Proof. exact default_drift. Qed.
Print Assumptions C64_default_refuted.

(** C64: builds with asserts always abort on the default option when orientations have several components. *)
Theorem C64_default_aborts_refuted : forall p fcx fcy mob q rx ry old3 old2, multi (depth p) ->
  evaluateQuatRHS true true false p fcx fcy mob q rx ry old3 old2 = None.
Proof. exact default_aborts. Qed.
Print Assumptions C64_default_aborts_refuted.

Example C64_ex : exists rx ry rhs, quat_symm_rotation_x ex_patch ex_q (fun _ _ => 1%Z) = Some rx /\ quat_symm_rotation_y ex_patch ex_q (fun _ _ => 1%Z) = Some ry /\
  evaluateQuatRHS true true true ex_patch (fun _ _ => -1) (fun _ _ => -1) (fun _ _ => 1) ex_q rx ry (fun _ _ _ => 0) (fun _ _ => 0) = Some rhs /\ rhs 0%Z 0%Z 2%Z = 0.
Proof.
  assert (Hd : multi (depth ex_patch)) by (left; reflexivity).
  destruct (rotations_found ex_patch ex_q (fun _ _ => 1%Z) (or_introl Hd) (fun _ => ex_q_unit)) as [[rx Ex] [ry Ey]].
  pose proof (rotation_x_closest ex_patch ex_q _ rx (or_introl Hd) (fun _ => ex_q_unit) Ex) as Cx.
  pose proof (rotation_y_closest ex_patch ex_q _ ry (or_introl Hd) (fun _ => ex_q_unit) Ey) as Cy.
  assert (Hr : rotations_ok ex_patch rx ry) by (split; intros a b Hab; [apply (Cx a b Hab) | apply (Cy a b Hab)]).
  destruct (rhs_symm true ex_patch (fun _ _ => -1) (fun _ _ => -1) (fun _ _ => 1) ex_q rx ry (fun _ _ _ => 0) (fun _ _ => 0) Hd Hr) as (rhs & E & _).
  exists rx, ry, rhs. split; [exact Ex |]. split; [exact Ey |]. split; [exact E |].
  apply (C64_equivalent_neighbours true ex_patch _ _ _ ex_q _ _ rx ry _ _ rhs 0%Z 0%Z Hd ex_q_unit Ex Ey E);
    [split; cbn; lia | apply ex_equiv_self | exact ex_equiv | apply ex_equiv_self | apply ex_equiv_self | cbn; lia].
Qed.

(** C65: projection. Orientation plus correction has length one and the direction of the orientation; the projected error is orthogonal to the orientation, differs from the given one only along it, and an orthogonal error is kept. *)
Theorem C65_projection : forall p q corr err i j, in_patch p i j -> ~ same (depth p) (q i j) (fun _ => 0) ->
  let corr' := project_corr p q corr in let err' := project_err p q err in
  dotv (depth p) (fun m => q i j m + corr' i j m) (fun m => q i j m + corr' i j m) = 1 /\
  (exists s, 0 < s /\ same (depth p) (fun m => q i j m + corr' i j m) (fun m => s * q i j m)) /\
  dotv (depth p) (q i j) (err' i j) = 0 /\
  (exists s, same (depth p) (err' i j) (fun m => err i j m - s * q i j m)) /\
  (dotv (depth p) (q i j) (err i j) = 0 -> same (depth p) (err' i j) (err i j)).
Proof. exact project_ok. Qed.
Print Assumptions C65_projection.

Example C65_ex : let q := fun (_ _ m : Z) => match m with 1%Z => 3 | 2%Z => 4 | _ => 0 end in
  3 + project_corr ex_patch q (fun _ _ _ => 9) 0%Z 0%Z 1%Z = 3 / 5.
Proof.
  intro q. destruct (project_ok ex_patch q (fun _ _ _ => 9) (fun _ _ _ => 0) 0%Z 0%Z) as (H1 & (s & Hs & H2) & _).
  - split; cbn; lia.
  - intro H. specialize (H 1%Z ltac:(cbn; lia)). unfold q in H. lra.
  - rewrite (dotv_ext _ _ _ _ _ H2 H2) in H1. unfold dotv in H1. cbn [depth ex_patch] in H1. rewrite sum2 in H1. unfold q in H1.
    assert (E : s = 1 / 5).
    { assert (F : (s - 1 / 5) * (s + 1 / 5) = 0) by lra. apply Rmult_integral in F. lra. }
    specialize (H2 1%Z ltac:(cbn; lia)). cbn beta in H2. change (q 0%Z 0%Z 1%Z) with 3 in H2. rewrite H2, E. field.
Qed.

(** C66: without symmetry the interface energy with frozen coefficients decreases along the right-hand side, at the rate sum |rhs|^2/mobility (in particular not at all only at rest). *)
Theorem C66_descent_plain : forall asserts use_gradq p fcx fcy mob q rx ry old3 old2 rhs,
  (lo0 p <= hi0 p)%Z -> (lo1 p <= hi1 p)%Z ->
  (forall i j, in_patch p i j -> 0 < mob i j /\ (depth p <> 1%Z -> dotv (depth p) (q i j) (q i j) <> 0)) ->
  evaluateQuatRHS asserts false use_gradq p fcx fcy mob q rx ry old3 old2 = Some rhs ->
  derivable_pt_lim (fun t => plain_energy p fcx fcy (moved p q rhs t)) 0
    (- sum_box (lo0 p) (hi0 p) (lo1 p) (hi1 p) (fun i j => dotv (depth p) (rhs i j) (rhs i j) / mob i j)).
Proof. exact plain_descent. Qed.
Print Assumptions C66_descent_plain.

(** C66: with symmetry-aware fluxes the same holds for the energy of the symmetry-aware differences. *)
Theorem C66_descent_symmetric : forall asserts p fcx fcy mob q rx ry old3 old2 rhs, multi (depth p) -> rotations_ok p rx ry ->
  (lo0 p <= hi0 p)%Z -> (lo1 p <= hi1 p)%Z ->
  (forall i j, in_patch p i j -> 0 < mob i j /\ dotv (depth p) (q i j) (q i j) <> 0) ->
  evaluateQuatRHS asserts true true p fcx fcy mob q rx ry old3 old2 = Some rhs ->
  derivable_pt_lim (fun t => flow_energy p fcx fcy rx ry (moved p q rhs t)) 0
    (- sum_box (lo0 p) (hi0 p) (lo1 p) (hi1 p) (fun i j => dotv (depth p) (rhs i j) (rhs i j) / mob i j)).
Proof. exact symm_descent. Qed.
Print Assumptions C66_descent_symmetric.

Example C66_ex : exists rhs, evaluateQuatRHS true false false ex_patch (fun _ _ => -1) (fun _ _ => -1) (fun _ _ => 2) ex_q (fun _ _ => 1%Z) (fun _ _ => 1%Z) (fun _ _ _ => 0) (fun _ _ => 0) = Some rhs /\
  derivable_pt_lim (fun t => plain_energy ex_patch (fun _ _ => -1) (fun _ _ => -1) (moved ex_patch ex_q rhs t)) 0 (-2).
Proof.
  destruct (rhs_plain true false ex_patch (fun _ _ => -1) (fun _ _ => -1) (fun _ _ => 2) ex_q (fun _ _ => 1%Z) (fun _ _ => 1%Z) (fun _ _ _ => 0) (fun _ _ => 0)) as (rhs & E & V & _).
  exists rhs. split; [exact E |].
  assert (P : in_patch ex_patch 0 0) by (split; cbn; lia).
  assert (R1 : rhs 0%Z 0%Z 1%Z = 0).
  { rewrite V by (auto; cbn; lia); cbn [depth ex_patch Z.eqb Pos.eqb]; unfold tang, dotv, div_plain, diverg; rewrite !sum2; unfold ex_q;
    cbn [h1 h2 ex_patch Z.leb Z.compare Z.add Z.sub Z.opp Z.pos_sub Pos.add Pos.compare Pos.compare_cont vec2 ca cb]; field; lra. }
  assert (R2 : rhs 0%Z 0%Z 2%Z = 2).
  { rewrite V by (auto; cbn; lia); cbn [depth ex_patch Z.eqb Pos.eqb]; unfold tang, dotv, div_plain, diverg; rewrite !sum2; unfold ex_q;
    cbn [h1 h2 ex_patch Z.leb Z.compare Z.add Z.sub Z.opp Z.pos_sub Pos.add Pos.compare Pos.compare_cont vec2 ca cb]; field; lra. }
  assert (S : - sum_box (lo0 ex_patch) (hi0 ex_patch) (lo1 ex_patch) (hi1 ex_patch) (fun i j => dotv (depth ex_patch) (rhs i j) (rhs i j) / 2) = -2).
  { cbn [lo0 hi0 lo1 hi1 depth ex_patch]. unfold sum_box. rewrite (sumZ_cons 0 0), (sumZ_empty (0 + 1) 0) by lia.
    rewrite (sumZ_cons 0 0), (sumZ_empty (0 + 1) 0) by lia. unfold dotv. rewrite sum2, R1, R2. field. }
  rewrite <- S. eapply C66_descent_plain; [cbn; lia | cbn; lia | | exact E].
  intros i j _. split; [lra |]. intros _. unfold dotv, ex_q. cbn [depth ex_patch]. rewrite sum2. destruct (1 <=? i)%Z; cbn [vec2 ca cb]; lra.
Qed.

(** C67: the diffusion coefficient of a face exists, has the sign of diffusion, is bounded by the gradient floor, and the singular part of the flux is bounded whatever the gradient. *)
Theorem C67_face_coefficients : forall eps factor floor ft i1 i2 avg phi1 phi2 t1 t2 g2,
  In ft ["m"; "t"; "s"]%char -> In i1 ["p"; "h"; "l"; "m"; "q"; "w"; "3"; "c"]%char -> In i2 ["p"; "h"; "l"; "m"; "q"; "w"; "3"; "c"]%char ->
  In avg ["a"; "h"]%char -> 0 <= phi1 <= 1 -> 0 <= phi2 <= 1 -> 0 <= t1 -> 0 <= t2 -> 0 <= factor -> 0 < floor -> 0 <= g2 ->
  exists fc, face_coef eps factor floor ft i1 i2 avg phi1 phi2 t1 t2 g2 = Some fc /\ fc <= 0 /\
    - fc <= factor * ((t1 + t2) / 2) / floor + eps * eps /\
    - fc * sqrt g2 <= factor * ((t1 + t2) / 2) + eps * eps * sqrt g2.
Proof. exact face_coef_bounds. Qed.
Print Assumptions C67_face_coefficients.

Example C67_ex : exists fc, face_coef (1 / 2) 2 (1 / 10) "s" "p" "q" "a" 1 0 3 3 0 = Some fc /\ -61 <= fc <= 0.
Proof.
  destruct (C67_face_coefficients (1 / 2) 2 (1 / 10) "s" "p" "q" "a" 1 0 3 3 0) as (fc & E & H1 & H2 & _); try lra; try (cbn; tauto).
  exists fc. split; [exact E |]. split; lra.
Qed.

(** C68: on orientation fields varying linearly both moduli are the exact norm of the gradient. *)
Theorem C68_linear : forall p q a b c old old2 i j,
  (forall k l, in_ghosts p k l -> same (depth p) (q k l) (fun m => c m + IZR k * a m + IZR l * b m)) -> in_patch p i j ->
  let dx := quatdiffs_x p q old in let dy := quatdiffs_y p q old in
  let exact := sqrt (dotv (depth p) a a / (h1 p * h1 p) + dotv (depth p) b b / (h2 p * h2 p)) in
  quatgrad_modulus p (quatgrad_cell_x p dx old) (quatgrad_cell_y p dy old) old2 i j = exact /\
  quatgrad_modulus_from_sides_compact p (quatgrad_side_x_xside p dx old) (quatgrad_side_y_yside p dy old) old2 i j = exact.
Proof. exact moduli_linear. Qed.
Print Assumptions C68_linear.

(** C68: the modulus from the sides vanishes exactly where the four neighbours agree with the cell. *)
Theorem C68_sides_zero : forall p q old old2 i j, 0 < h1 p -> 0 < h2 p -> in_patch p i j ->
  (quatgrad_modulus_from_sides_compact p (quatgrad_side_x_xside p (quatdiffs_x p q old) old)
     (quatgrad_side_y_yside p (quatdiffs_y p q old) old) old2 i j = 0 <->
   same (depth p) (q (i - 1)%Z j) (q i j) /\ same (depth p) (q (i + 1)%Z j) (q i j) /\
   same (depth p) (q i (j - 1)%Z) (q i j) /\ same (depth p) (q i (j + 1)%Z) (q i j)).
Proof. exact compact_zero. Qed.
Print Assumptions C68_sides_zero.

(** C68: the modulus from the cells (the default) vanishes exactly where opposite neighbours agree with each other. *)
Theorem C68_cells_zero : forall p q old old2 i j, 0 < h1 p -> 0 < h2 p -> in_patch p i j ->
  (quatgrad_modulus p (quatgrad_cell_x p (quatdiffs_x p q old) old) (quatgrad_cell_y p (quatdiffs_y p q old) old) old2 i j = 0 <->
   same (depth p) (q (i - 1)%Z j) (q (i + 1)%Z j) /\ same (depth p) (q i (j - 1)%Z) (q i (j + 1)%Z)).
Proof. exact cells_zero. Qed.
Print Assumptions C68_cells_zero.

(** C68: hence the default modulus is zero in a cell that differs from its neighbours. *)
Theorem C68_cells_refuted : exists (p : patch) (q : arr3) (i j : Z), 0 < h1 p /\ 0 < h2 p /\ in_patch p i j /\
  (forall old old2, quatgrad_modulus p (quatgrad_cell_x p (quatdiffs_x p q old) old) (quatgrad_cell_y p (quatdiffs_y p q old) old) old2 i j = 0) /\
  q (i - 1)%Z j 1%Z <> q i j 1%Z.
Proof. exact cells_blind. Qed.
Print Assumptions C68_cells_refuted.

Example C68_ex : quatgrad_modulus_from_sides_compact ex_patch (quatgrad_side_x_xside ex_patch (quatdiffs_x ex_patch ex_q (fun _ _ _ => 7)) (fun _ _ _ => 7))
  (quatgrad_side_y_yside ex_patch (quatdiffs_y ex_patch ex_q (fun _ _ _ => 7)) (fun _ _ _ => 7)) (fun _ _ => 9) 0%Z 0%Z <> 0.
Proof.
  intro H. apply C68_sides_zero in H; [| cbn; lra | cbn; lra | split; cbn; lia]. destruct H as (_ & H & _). specialize (H 1%Z ltac:(cbn; lia)).
  unfold ex_q in H. cbn in H. lra.
Qed.
Example C68_ex_linear : let q := (fun i j m => 1 + IZR i * IZR m + IZR j * 2) : arr3 in
  quatgrad_modulus ex_patch (quatgrad_cell_x ex_patch (quatdiffs_x ex_patch q (fun _ _ _ => 7)) (fun _ _ _ => 7))
  (quatgrad_cell_y ex_patch (quatdiffs_y ex_patch q (fun _ _ _ => 7)) (fun _ _ _ => 7)) (fun _ _ => 9) 0%Z 0%Z = sqrt 13.
Proof.
  intro q. destruct (C68_linear ex_patch q IZR (fun _ => 2) (fun _ => 1) (fun _ _ _ => 7) (fun _ _ => 9) 0%Z 0%Z) as [H _];
    [intros k l _ m _; reflexivity | split; cbn; lia |]. etransitivity; [exact H |]. unfold dotv. cbn [depth ex_patch h1 h2]. rewrite !sum2. f_equal. field.
Qed.
