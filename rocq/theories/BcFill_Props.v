(** C103-C105: ghost cells outside the physical boundary. *)
From Coq Require Import Reals ZArith List Bool Lra Lia Permutation.
From Verif Require Import Grid_Model Grid_Spec Grid_Proofs Transport_Model Transport_Spec Stencils_Model Stencils_Proofs.
From Verif Require Import PhaseFlow_Model PhaseFlow_Spec PhaseFlow_Proofs Sintering_Model Sintering_Spec Sintering_Proofs.
From Verif Require Import BcFill_Model BcFill_Spec BcFill_Proofs.
Import ListNotations.
Open Scope R_scope.
Set Bullet Behavior "Strict Subproofs".

(** C103: after the fill the configured condition holds on every face of the physical boundary, with the interior value unchanged, for every depth of the data. *)
Theorem C103_condition : forall b ng0 ng1 req0 req1 co hom depth sides nodes u, nonempty_box b -> sides_ok b sides -> nodes_ok b nodes ->
  (1 <= ng0)%Z -> (1 <= ng1)%Z -> (1 <= req0)%Z -> (1 <= req1)%Z ->
  exists u', setBoundaryValuesInCells b ng0 ng1 req0 req1 co hom depth sides nodes u = Some u' /\
  forall l t d, is_loc l -> along_patch b l t -> covers sides l t -> (0 <= d < depth)%Z ->
    let at_face f := at_cell l (side_face b l) t f in
    spacing b l <> 0 -> at_face (bcf co l) + at_face (acf co l) * (spacing b l / 2) <> 0 ->
    condition (at_face (acf co l)) (at_face (bcf co l)) (if hom then 0 else at_face (gcf co l)) (spacing b l)
      (at_cell l (outer b l) t (plane u' d)) (at_cell l (inner b l) t (plane u' d)) /\
    at_cell l (inner b l) t (plane u' d) = at_cell l (inner b l) t (plane u d).
Proof. exact fill_condition. Qed.
Print Assumptions C103_condition.

(** C103: nothing else is written: not the patch, not cells outside the boundary boxes, no other depth. *)
Theorem C103_rest_untouched : forall b ng0 ng1 req0 req1 co hom depth sides nodes u u', nonempty_box b -> sides_ok b sides -> nodes_ok b nodes ->
  setBoundaryValuesInCells b ng0 ng1 req0 req1 co hom depth sides nodes u = Some u' ->
  forall i j d, in_cells b i j \/ ~ (0 <= d < depth)%Z \/
    ((forall s, In s sides -> ~ in_bbox s i j) /\ (forall n, In n nodes -> ~ in_bbox n i j)) -> u' i j d = u i j d.
Proof. exact fill_inside. Qed.
Print Assumptions C103_rest_untouched.

(** C103: corner cells continue the field linearly. *)
Theorem C103_corners : forall b ng0 ng1 req0 req1 co hom depth sides nodes u u', nonempty_box b -> sides_ok b sides -> nodes_ok b nodes ->
  (1 <= ng0)%Z -> (1 <= ng1)%Z -> (1 <= req0)%Z -> (1 <= req1)%Z ->
  setBoundaryValuesInCells b ng0 ng1 req0 req1 co hom depth sides nodes u = Some u' ->
  forall k d, has_corner nodes k -> (0 <= d < depth)%Z ->
    u' (corner_x b k) (corner_y b k) d + u' (inner_x b k) (inner_y b k) d =
    u' (inner_x b k) (corner_y b k) d + u' (corner_x b k) (inner_y b k) d.
Proof. exact fill_corner. Qed.
Print Assumptions C103_corners.

(** C103: the order in which SAMRAI lists the boundary boxes does not matter. *)
Theorem C103_order : forall b ng0 ng1 req0 req1 co hom depth sides nodes sides' nodes' u, nonempty_box b -> sides_ok b sides -> nodes_ok b nodes ->
  (1 <= ng0)%Z -> (1 <= ng1)%Z -> (1 <= req0)%Z -> (1 <= req1)%Z -> ends_in_corners b sides nodes ->
  Permutation sides sides' -> Permutation nodes nodes' ->
  setBoundaryValuesInCells b ng0 ng1 req0 req1 co hom depth sides nodes u = setBoundaryValuesInCells b ng0 ng1 req0 req1 co hom depth sides' nodes' u.
Proof. exact fill_order. Qed.
Print Assumptions C103_order.

(** value 3 on the left, outward slope 1 on the right, no flux below, mixed above; 5 in the only cell *)
Definition tiny : pbox := mk_pbox 0 0 0 0 1 1.
Definition four_conditions : bcoefs := location_coefs (fun l => if (l =? 0)%Z then 1 else if (l =? 3)%Z then 1 else 0)
  (fun l => if (l =? 0)%Z then 0 else 1) (fun l => if (l =? 0)%Z then 3 else if (l =? 1)%Z then 1 else if (l =? 2)%Z then 0 else 4) 1.
Lemma tiny_ok : nonempty_box tiny.
Proof. split; cbn; lia. Qed.
Example C103_ex : exists v, refill tiny 1 four_conditions false 1 (all_sides tiny) (all_corners tiny) (fun _ _ _ => 5) v /\
  v (-1)%Z 0%Z 0%Z = 1 /\ v 1%Z 0%Z 0%Z = 6 /\ v 0%Z (-1)%Z 0%Z = 5 /\ v 0%Z 1%Z 0%Z = 13 / 3 /\ v (-1)%Z (-1)%Z 0%Z = 1 /\ v 0%Z 0%Z 0%Z = 5 /\ v 0%Z 0%Z 1%Z = 5.
Proof.
  pose proof (all_whole tiny tiny_ok) as (S & K & Cv & Hc).
  destruct (C103_condition tiny 1 1 1 1 four_conditions false 1 (all_sides tiny) (all_corners tiny) (fun _ _ _ => 5) tiny_ok S K ltac:(lia) ltac:(lia) ltac:(lia) ltac:(lia)) as (v & E & C).
  exists v. split; [exact E |].
  assert (L : forall l, is_loc l -> along_patch tiny l 0) by (intros l _; unfold along_patch; destruct (l / 2 =? 0)%Z; cbn; lia).
  pose proof (C103_rest_untouched _ _ _ _ _ _ _ _ _ _ _ _ tiny_ok S K E) as I.
  assert (I0 : v 0%Z 0%Z 0%Z = 5) by (apply I; left; split; cbn; lia).
  assert (V : forall l, is_loc l -> bcf four_conditions l 0%Z 0%Z + acf four_conditions l 0%Z 0%Z * (1 / 2) <> 0 ->
     condition (acf four_conditions l 0%Z 0%Z) (bcf four_conditions l 0%Z 0%Z) (gcf four_conditions l 0%Z 0%Z) 1 (at_cell l (outer tiny l) 0 (plane v 0)) (at_cell l (inner tiny l) 0 (plane v 0))).
  { intros l Hl Hd. destruct (C l 0%Z 0%Z Hl (L l Hl) (Cv l 0%Z Hl (L l Hl)) ltac:(lia)) as [D _];
      unfold at_cell, spacing in *; destruct (l / 2 =? 0)%Z; cbn [tiny h1 h2 four_conditions location_coefs acf bcf gcf] in *; auto; lra. }
  pose proof (V 0%Z ltac:(unfold is_loc; auto)) as V0. pose proof (V 1%Z ltac:(unfold is_loc; auto)) as V1.
  pose proof (V 2%Z ltac:(unfold is_loc; auto)) as V2. pose proof (V 3%Z ltac:(unfold is_loc; auto)) as V3.
  pose proof (C103_corners tiny 1 1 1 1 _ _ 1 _ _ _ _ tiny_ok S K ltac:(lia) ltac:(lia) ltac:(lia) ltac:(lia) E 0%Z 0%Z (Hc 0%Z ltac:(unfold is_loc; auto)) ltac:(lia)) as Q.
  unfold condition, at_cell, outer, inner, plane, corner_x, corner_y, inner_x, inner_y, outer, inner in *.
  cbn [four_conditions location_coefs acf bcf gcf tiny lo0 hi0 lo1 hi1 Z.eqb Pos.eqb Z.even Z.ltb Z.compare Z.div Z.div_eucl Z.pos_div_eucl Z.leb Z.geb fst snd Z.sub Z.add Z.opp Pos.add Z.pos_sub] in *.
  repeat match goal with H : _ <> 0 -> _ |- _ => specialize (H ltac:(lra)) end.
  change (1 / 2 =? 0)%Z with true in V1. change (2 / 2 =? 0)%Z with false in V2. change (3 / 2 =? 0)%Z with false in V3. cbv iota in V1, V2, V3. clear V.
  assert (I1 : v 0%Z 0%Z 1%Z = 5) by (apply I; right; left; lia).
  repeat split; lra.
Qed.

(** C104: no-flux conditions mirror the cells next to the boundary, so the rates computed from the filled data are those of the mirrored field. *)
Theorem C104_no_flux_mirrors : forall b ng0 ng1 req0 req1 co hom depth sides nodes u u' d, nonempty_box b -> whole_boundary b sides nodes ->
  (1 <= ng0)%Z -> (1 <= ng1)%Z -> (1 <= req0)%Z -> (1 <= req1)%Z -> (0 <= d < depth)%Z -> no_flux co ->
  setBoundaryValuesInCells b ng0 ng1 req0 req1 co hom depth sides nodes u = Some u' ->
  (forall i j, in_first_layer b i j -> u' i j d = u (clamp (lo0 b) (hi0 b) i) (clamp (lo1 b) (hi1 b) j) d) /\
  filled ZeroFlux ZeroFlux b (plane u' d).
Proof. exact fill_mirror. Qed.
Print Assumptions C104_no_flux_mirrors.

(** C104: with conditions that an affine field satisfies, the filled ghost cells continue the affine field exactly, corners included. *)
Theorem C104_affine_exact : forall b ng0 ng1 req0 req1 co depth sides nodes u u' d c0 c1 c2, nonempty_box b -> whole_boundary b sides nodes ->
  (1 <= ng0)%Z -> (1 <= ng1)%Z -> (1 <= req0)%Z -> (1 <= req1)%Z -> (0 <= d < depth)%Z ->
  (forall l t, is_loc l -> along_patch b l t -> let on_face f := at_cell l (side_face b l) t f in
    on_face (bcf co l) + on_face (acf co l) * (spacing b l / 2) <> 0 /\
    on_face (gcf co l) = on_face (acf co l) * on_face (affine_face b c0 c1 c2 l) + on_face (bcf co l) * affine_slope c1 c2 l) ->
  (forall i j, in_cells b i j -> u i j d = affine b c0 c1 c2 i j) ->
  setBoundaryValuesInCells b ng0 ng1 req0 req1 co false depth sides nodes u = Some u' ->
  forall i j, in_first_layer b i j -> u' i j d = affine b c0 c1 c2 i j.
Proof. exact fill_affine. Qed.
Print Assumptions C104_affine_exact.

(** C104: scaling the temperature unit commutes with the fill. *)
Theorem C104_rescaled_units : forall b ng0 ng1 req0 req1 a be g n c hom depth sides nodes u u', nonempty_box b -> sides_ok b sides -> 0 < c ->
  setBoundaryValuesInCells b ng0 ng1 req0 req1 (location_coefs a be g n) hom depth sides nodes u = Some u' ->
  exists v, setBoundaryValuesInCells b ng0 ng1 req0 req1 (location_coefs a be (rescaled_g c g) n) hom depth sides nodes (fun i j d => c * u i j d) = Some v /\
    forall i j d, v i j d = c * u' i j d.
Proof. exact fill_rescaled. Qed.
Print Assumptions C104_rescaled_units.

(** 1 + 2 x on two cells, Dirichlet on the left, slope 2 on the right, no flux below and above *)
Definition strip : pbox := mk_pbox 0 1 0 0 1 1.
Definition strip_conditions : bcoefs := location_coefs (fun l => if (l =? 0)%Z then 1 else 0) (fun l => if (l =? 0)%Z then 0 else 1)
  (fun l => if (l =? 0)%Z then 1 else if (l =? 1)%Z then 2 else 0) 1.
Lemma strip_ok : nonempty_box strip.
Proof. split; cbn; lia. Qed.
Example C104_ex : forall u v, (forall i j, in_cells strip i j -> u i j 0%Z = 1 + 2 * (IZR i + / 2)) ->
  refill (strip) 1 strip_conditions false 1 (all_sides strip) (all_corners strip) u v ->
  v (-1)%Z 0%Z 0%Z = 0 /\ v 2%Z 1%Z 0%Z = 6 /\ (forall u' v', (forall i j, in_cells strip i j -> u' i j 0%Z = 1 + 2 * (IZR i + / 2)) ->
  refill strip 1 (location_coefs (fun _ => 0) (fun _ => 1) (fun _ => 0) 1) true 1 (all_sides strip) (all_corners strip) u' v' -> v' 2%Z (-1)%Z 0%Z = 4).
Proof.
  intros u v U E. pose proof (all_whole strip strip_ok) as W.
  assert (A : forall i j, in_first_layer strip i j -> v i j 0%Z = affine strip 1 2 0 i j).
  { refine (C104_affine_exact strip 1 1 1 1 strip_conditions 1 _ _ u v 0%Z 1 2 0 strip_ok W _ _ _ _ _ _ _ E); try lia.
    - intros l t L A. unfold along_patch in A. unfold at_cell, spacing, side_face, outer, inner, affine_face, affine_slope, strip_conditions, location_coefs.
      cbn [acf bcf gcf strip h1 h2 lo0 hi0 lo1 hi1].
      destruct L as [-> | [-> | [-> | ->]]]; rewrite ?(eq_refl : (1 / 2 = 0)%Z), ?(eq_refl : (2 / 2 = 1)%Z), ?(eq_refl : (3 / 2 = 1)%Z); cbn [Z.eqb Pos.eqb Z.div Z.div_eucl Z.pos_div_eucl Z.leb Z.geb Z.compare fst Z.max Z.sub Z.add Z.opp Z.pos_sub Pos.add]; split; lra.
    - intros i j Hij. rewrite U by auto. unfold affine. cbn [strip h1 h2]. lra. }
  split; [| split].
  - rewrite A by (unfold in_first_layer, in_box; cbn; lia). unfold affine. cbn [strip h1 h2]. lra.
  - rewrite A by (unfold in_first_layer, in_box; cbn; lia). unfold affine. cbn [strip h1 h2]. lra.
  - intros u' v' U' E'.
    destruct (C104_no_flux_mirrors strip 1 1 1 1 (location_coefs (fun _ => 0) (fun _ => 1) (fun _ => 0) 1) true 1 _ _ u' v' 0%Z strip_ok W ltac:(lia) ltac:(lia) ltac:(lia) ltac:(lia) ltac:(lia)
      ltac:(intros l i j _; cbn; repeat split; reflexivity) E') as [M _].
    rewrite M by (unfold in_first_layer, in_box; cbn; lia). unfold clamp. cbn [strip lo0 hi0 lo1 hi1 Z.max Z.min Z.compare Pos.compare Pos.compare_cont].
    rewrite U' by (split; cbn; lia). lra.
Qed.
(** a fixed boundary temperature of 3 in units twice as small *)
Example C104_rescaled_ex : rescaled_g 2 (fun _ => 3) 0 = 6 /\ rescaled_g (Ropp 1) (fun _ => 3) 0 = 3.
Proof.
  split; [rewrite rescaled_g_val; [lra | lra | unfold is_loc; auto] |]. unfold rescaled_g. destruct (Rlt_dec 0 (Ropp 1)); [lra | reflexivity].
Qed.

(** C105: the rate of the phase at a patch inside the physical boundary does not depend on what the ghost cells held before the fill. *)
Theorem C105_phase : forall p n co hom depth sides nodes u1 u2 v1 v2 d fold rold r1 r2, let b := pb p in
  nonempty_box b -> whole_boundary b sides nodes -> (1 <= n)%Z -> (0 <= d < depth)%Z -> same_patch b depth u1 u2 ->
  refill b n co hom depth sides nodes u1 v1 -> refill b n co hom depth sides nodes u2 v2 ->
  evaluatePhaseRHS p (plane v1 d) fold rold = Some r1 -> evaluatePhaseRHS p (plane v2 d) fold rold = Some r2 ->
  forall i j, in_cells b i j -> r1 i j = r2 i j.
Proof. exact phase_rate_determined. Qed.
Print Assumptions C105_phase.

(** C105: nor does the rate of the temperature. *)
Theorem C105_temperature : forall b n co hom depth sides nodes u1 u2 v1 v2 d D L cp pr old,
  nonempty_box b -> whole_boundary b sides nodes -> (1 <= n)%Z -> (0 <= d < depth)%Z -> same_patch b depth u1 u2 ->
  refill b n co hom depth sides nodes u1 v1 -> refill b n co hom depth sides nodes u2 v2 ->
  forall i j, in_cells b i j -> computerhstemp b D L (plane v1 d) cp pr old i j = computerhstemp b D L (plane v2 d) cp pr old i j.
Proof. exact temp_rate_determined. Qed.
Print Assumptions C105_temperature.

(** C105: nor the advection of a moving frame, with either scheme. *)
Theorem C105_moving_frame : forall b n co hom depth sides nodes u1 u2 v1 v2 up vel rhs,
  nonempty_box b -> whole_boundary b sides nodes -> (1 <= n)%Z -> same_patch b depth u1 u2 ->
  refill b n co hom depth sides nodes u1 v1 -> refill b n co hom depth sides nodes u2 v2 ->
  forall f i j, in_cells b i j ->
  advect_fields up (lo0 b) (hi0 b) (lo1 b) (hi1 b) (h1 b) vel true depth (plane v1) rhs f i j =
  advect_fields up (lo0 b) (hi0 b) (lo1 b) (hi1 b) (h1 b) vel true depth (plane v2) rhs f i j.
Proof. exact advection_determined. Qed.
Print Assumptions C105_moving_frame.

(** C105: nor the fourth-order diffusion fluxes. *)
Theorem C105_fourth_order : forall b n co hom depth sides nodes u1 u2 v1 v2 d0 d1 physb flux,
  nonempty_box b -> whole_boundary b sides nodes -> (1 <= n)%Z -> same_patch b depth u1 u2 -> (forall k, (1 <= k <= 4)%Z -> physb k = 1%Z) ->
  refill b n co hom depth sides nodes u1 v1 -> refill b n co hom depth sides nodes u2 v2 ->
  let go (v : arr3) := add_flux_4th (lo0 b) (hi0 b) (lo1 b) (hi1 b) depth (h1 b) (h2 b) (fun i j m => v i j (m - 1)%Z) d0 d1 physb flux in
  forall i j p, fst (go v1) i j p = fst (go v2) i j p /\ snd (go v1) i j p = snd (go v2) i j p.
Proof. exact fourth_order_determined. Qed.
Print Assumptions C105_fourth_order.

(** C105: the rate of a Cahn-Hilliard composition in the corner cell of the domain can be made to have any value by what the second ghost layer happened to hold, for every composition and every boundary condition. *)
Theorem C105_cahn_hilliard_refuted : forall b n co hom m ca cb kappa ws c rhs r, nonempty_box b -> (1 <= n)%Z -> h1 b <> 0 -> h2 b <> 0 -> m <> 0 -> kappa <> 0 ->
  exists u v, (forall i j, in_cells b i j -> u i j 0%Z = c i j) /\
    refill b n co hom 1 (all_sides b) (all_corners b) u v /\
    cahn_hilliard_rhs b m ca cb kappa ws (plane v 0) rhs (lo0 b) (lo1 b) = r.
Proof. exact ch_stale. Qed.
Print Assumptions C105_cahn_hilliard_refuted.

(** C105: the same for the composition of a sintering run. *)
Theorem C105_sintering_refuted : forall p n co hom c phi w rhs r, let b := sb p in nonempty_box b -> (1 <= n)%Z -> (1 <= sn p)%Z -> h1 b <> 0 -> h2 b <> 0 ->
  scm p <> 0 -> skappa p <> 0 -> sd0 p (lo0 b) (lo1 b) <> 0 ->
  exists u v, (forall i j, in_cells b i j -> u i j 0%Z = c i j) /\
    refill b n co hom 1 (all_sides b) (all_corners b) u v /\
    wang_conc_rhs p (plane v 0) phi w rhs (lo0 b) (lo1 b) = r.
Proof. exact wang_stale. Qed.
Print Assumptions C105_sintering_refuted.

(** composition 0 in the only cell, no flux: the filled rate can be 7 instead of 0 *)
Example C105_ex : exists u v, (forall i j, in_cells tiny i j -> u i j 0%Z = 0) /\
  refill tiny 2 (location_coefs (fun _ => 0) (fun _ => 1) (fun _ => 0) 1) false 1 (all_sides tiny) (all_corners tiny) u v /\
  sum_cells tiny (cahn_hilliard_rhs tiny 1 0 1 1 1 (plane v 0) (fun _ _ => 0)) = 7.
Proof.
  destruct (C105_cahn_hilliard_refuted tiny 2 (location_coefs (fun _ => 0) (fun _ => 1) (fun _ => 0) 1) false 1 0 1 1 1 (fun _ _ => 0) (fun _ _ => 0) 7
    tiny_ok ltac:(lia)) as (u & v & U & E & Q); try (cbn; lra).
  exists u, v. split; [exact U | split; [exact E |]]. unfold sum_cells, sum_box. cbn [tiny lo0 hi0 lo1 hi1].
  repeat (first [rewrite sumZ_cons by lia | rewrite sumZ_empty by lia]). cbn [tiny lo0 lo1] in Q. rewrite Q. lra.
Qed.
(** heat conduction on the strip: two different garbage values in the ghost cells, one rate *)
Example C105_heat_ex : forall w1 w2 v1 v2, let u w i (j : Z) (_ : Z) := if inb 0 1 i && inb 0 0 j then IZR i else w in
  refill strip 1 strip_conditions false 1 (all_sides strip) (all_corners strip) (u w1) v1 -> refill strip 1 strip_conditions false 1 (all_sides strip) (all_corners strip) (u w2) v2 ->
  computerhstemp strip 1 1 (plane v1 0) (fun _ _ => 1) None (fun _ _ => 0) 1%Z 0%Z = computerhstemp strip 1 1 (plane v2 0) (fun _ _ => 1) None (fun _ _ => 0) 1%Z 0%Z.
Proof.
  intros w1 w2 v1 v2 u E1 E2. refine (C105_temperature strip 1 _ _ 1 _ _ _ _ v1 v2 0%Z _ _ _ _ _ strip_ok (all_whole strip strip_ok) _ _ _ E1 E2 1%Z 0%Z _); try lia.
  - intros i j d [Hi Hj] _. cbn in Hi, Hj. unfold u. destruct (inb_spec 0 1 i); [| lia]. destruct (inb_spec 0 0 j); [reflexivity | lia].
  - split; cbn; lia.
Qed.
