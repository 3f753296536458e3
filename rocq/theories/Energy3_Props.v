(** C161-C167: the energies reported in three dimensions. *)
From Coq Require Import Reals ZArith List Lra Lia Bool Ascii.
From Verif Require Import Grid_Model Grid_Spec Grid_Proofs Functions_Model Functions_Proofs Quat_Model Quat_Spec Quat_Proofs.
From Verif Require Import Trap3_Model Trap3_Spec Trap3_Proofs Energy_Model Energy3_Model Energy3_Spec Energy3_Proofs.
From Verif Require Flow3_Model Flow3_Spec Flow3_Proofs Energy_Spec Energy_Proofs.
Import ListNotations.
Open Scope R_scope.

(** C161: the total and the interface energy are the weighted sums of the densities over all cells of all patches and ranks. *)
Theorem C161_sums : forall pr rs t, regular pr -> evaluateEnergy3 pr rs = Some t ->
  t_energy t = over_ranks3 (density3 pr) rs /\ t_phase t = over_ranks3 (fun b => all_phases3 pr (phase_density3 pr b)) rs.
Proof. exact energy3_sums. Qed.
Print Assumptions C161_sums.

(** C161: they do not depend on how a box is cut into patches and ranks. *)
Theorem C161_cuts_partial : forall pr b rs t, regular pr -> cuts3 b rs -> evaluateEnergy3 pr rs = Some t ->
  t_energy t = over3 b (density3 pr b) /\ t_phase t = over3 b (all_phases3 pr (phase_density3 pr b)).
Proof. exact energy3_cuts. Qed.
Print Assumptions C161_cuts_partial.

(** C161: the other parts count the last patch of each rank only. *)
Theorem C161_lasts : forall pr rs t, regular pr -> evaluateEnergy3 pr rs = Some t ->
  t_orient t = over_lasts3 (orient_density3 0 pr) rs /\ t_qint t = over_lasts3 (qint_density3 pr) rs /\
  t_well t = over_lasts3 (fun b => all_phases3 pr (well_density3 pr b)) rs /\ t_free t = over_lasts3 (bulk_density3 pr) rs.
Proof. exact energy3_lasts. Qed.
Print Assumptions C161_lasts.

(** C161: with one patch per rank all parts are right and add up to the total. *)
Theorem C161_single_partial : forall pr b rs t, regular pr -> cuts3 b rs -> Forall (fun r => (length r <= 1)%nat) rs -> evaluateEnergy3 pr rs = Some t ->
  t_orient t = over3 b (orient_density3 0 pr b) /\ t_qint t = over3 b (qint_density3 pr b) /\
  t_well t = over3 b (all_phases3 pr (well_density3 pr b)) /\ t_free t = over3 b (bulk_density3 pr b) /\
  t_energy t = t_phase t + t_orient t + t_qint t + t_well t + t_free t.
Proof. exact energy3_single. Qed.
Print Assumptions C161_single_partial.

(** C161 fails for the parts: two patches on one rank halve four of them, the total stays. *)
Theorem C161_parts_refuted : exists pr b rs rs' t t', regular pr /\ cuts3 b rs /\ cuts3 b rs' /\ evaluateEnergy3 pr rs = Some t /\ evaluateEnergy3 pr rs' = Some t' /\
  t_energy t = 18 /\ t_energy t' = 18 /\ t_orient t = 12 /\ t_orient t' = 6 /\ t_qint t = 2 /\ t_qint t' = 1 /\
  t_well t = 2 /\ t_well t' = 1 /\ t_free t = 2 /\ t_free t' = 1.
Proof. exact parts3_lost. Qed.
Print Assumptions C161_parts_refuted.

(** C161: the map of the energy holds the density of the cells of the patch, when asked for. *)
Theorem C161_map : forall pr b t en i j k, regular pr -> snd (evaluate_patch3 pr b t en) i j k =
  if (per_cell pr && holds_cell3 i j k b)%bool then density3 pr b i j k else en i j k.
Proof. exact energy3_map. Qed.
Print Assumptions C161_map.

(** C161: the names accepted. *)
Theorem C161_names : forall pr rs, (exists t, evaluateEnergy3 pr rs = Some t) <->
  In (phi_interp pr) ["q"; "p"; "h"; "w"; "l"; "m"; "3"; "s"; "c"]%char /\ In (orient1 pr) ["q"; "p"; "h"; "w"; "l"; "m"; "3"; "s"; "c"]%char /\
  In (orient2 pr) ["q"; "p"; "h"; "w"; "l"; "m"; "3"; "s"; "c"]%char /\ In (phi_well pr) ["d"; "s"]%char /\ In (avg_type pr) ["a"; "h"]%char.
Proof. exact energy3_names. Qed.
Print Assumptions C161_names.

Example C161_ex : (* the two cells, each of density 9: orientation 6, its gradient 1, double well 1, bulk 1 *)
  forall t, evaluateEnergy3 (pr3_ex 0) two_patches3 = Some t -> t_energy t = 18 /\ t_well t = 1.
Proof.
  intros t H. destruct parts3_lost as (pr & b & rs & rs' & _). clear pr b rs rs'.
  destruct (C161_cuts_partial _ _ _ _ (regular_ex 0) cuts3_two H) as (-> & _). destruct (C161_lasts _ _ _ (regular_ex 0) H) as (_ & _ & -> & _).
  cbn [over_lasts3 two_patches3]. unfold over_last3. cbn [rev app fst]. unfold cell_ex. rewrite over3_two, over3_one. unfold density3.
  rewrite !phase_ex, !orient_ex, !qint_ex, !well3_ex, !bulk3_ex by lra.
  replace (1 ^ 2 + 0 ^ 2) with 1 by ring. replace (1 ^ 2 + 0) with 1 by ring. rewrite sqrt_1. split; field.
Qed.

(** C162: without a floor inside the square root, renaming the axes and turning the crystals with them changes no energy. *)
Theorem C162_axes_partial : forall pr rs rs', regular pr -> floor_sq pr = 0 ->
  Forall2 (Forall2 (fun p p' => turned_patch (depth pr) (fst p) (fst p'))) rs rs' -> evaluateEnergy3 pr rs' = evaluateEnergy3 pr rs.
Proof. exact energy3_axes. Qed.
Print Assumptions C162_axes_partial.

(** C162 fails with one: it is not added on the upper y-side. *)
Theorem C162_floor_refuted : exists pr b c t t', regular pr /\ turned_patch (depth pr) b c /\
  evaluateEnergy3 pr [[(b, none3)]] = Some t /\ evaluateEnergy3 pr [[(c, none3)]] = Some t' /\ t_orient t = 5 + sqrt 2 /\ t_orient t' = 3 + 2 * sqrt 2.
Proof. exact floor_axes. Qed.
Print Assumptions C162_floor_refuted.

(** C162: of a crystal without gradients five sixths of the floor are counted. *)
Theorem C162_uniform : forall pr rs t, regular pr -> Forall (Forall (fun p => uniform_patch (depth pr) (fst p))) rs -> evaluateEnergy3 pr rs = Some t ->
  t_orient t = 5 / 6 * over_lasts3 (orient_density3 (floor_sq pr) pr) rs.
Proof. exact uniform_floor. Qed.
Print Assumptions C162_uniform.

(** C162 fails against the plane program: the orientation energy of the second phase is not counted. *)
Theorem C162_phases_refuted : exists pr b e t t2, slab_of b e /\ hz (zbox b) * IZR (layers b) = 1 /\ regular pr /\
  (forall i j k, sq_grad3 (depth pr) (zgx (zf b)) i j k = 1 /\ sq_grad3 (depth pr) (zgy (zf b)) i j k = 1 /\ sq_grad3 (depth pr) (zgz (zf b)) i j k = 1 /\
    Energy_Spec.sq_grad (depth pr) (egx e) i j = 1 /\ Energy_Spec.sq_grad (depth pr) (egy e) i j = 1) /\
  evaluateEnergy3 pr [[(b, none3)]] = Some t /\ evaluateEnergy pr [[(e, fun _ _ => 0)]] = Some t2 /\ t_orient t = 6 /\ t_orient t2 = 12.
Proof. exact second_phase. Qed.
Print Assumptions C162_phases_refuted.

Example C162_ex : (* a uniform patch of one cell, floor 1, misorientation 12: 5 instead of 6 *)
  forall t, evaluateEnergy3 (pr3_ex 1) [[(b3_ex 0 0 0 0 0 unit_q, none3)]] = Some t -> t_orient t = 5 /\ over3 (b3_ex 0 0 0 0 0 unit_q) (orient_density3 (floor_sq (pr3_ex 1)) (pr3_ex 1) (b3_ex 0 0 0 0 0 unit_q)) = 6.
Proof.
  intros t H. assert (F : floor_sq (pr3_ex 1) = 1) by (cbn; ring).
  assert (V : over3 (b3_ex 0 0 0 0 0 unit_q) (orient_density3 (floor_sq (pr3_ex 1)) (pr3_ex 1) (b3_ex 0 0 0 0 0 unit_q)) = 6).
  { rewrite over3_one, orient_ex, F by lra. replace (0 ^ 2 + 1 ^ 2) with 1 by ring. replace (0 ^ 2 + 1) with 1 by ring. rewrite sqrt_1. ring. }
  split; [| exact V]. rewrite (C162_uniform _ _ _ (regular_ex 1)) with (2 := H).
  - cbn [over_lasts3]. unfold over_last3. cbn [rev app fst]. rewrite V. field.
  - repeat constructor; try (cbn [depth pr3_ex fst b3_ex zf zgx zgy zgz]; rewrite grads_sq; ring). exists (1 / 2). reflexivity.
Qed.
Example C162_ex_axes : (* the isotropic cells of C161, without a floor: the two patches may be turned *)
  forall c, turned_patch 1 (cell_ex 0 1) c -> evaluateEnergy3 (pr3_ex 0) [[(c, none3)]] = evaluateEnergy3 (pr3_ex 0) one_patch3.
Proof. intros c Hc. apply C162_axes_partial; [apply regular_ex | cbn; ring |]. repeat constructor; exact (proj1 Hc) || apply Hc. Qed.

(** C163: the interface energy lies between those of two round crystals. *)
Theorem C163_bounds : forall pr rs t, 0 < anisotropy pr < 1 / 3 ->
  Forall (Forall (fun p => weighted (fst p) /\ unit_quats (fst p))) rs -> evaluateEnergy3 pr rs = Some t ->
  over_ranks3 (round_density pr (1 - 3 * anisotropy pr)) rs <= t_phase t <= over_ranks3 (round_density pr (1 + anisotropy pr)) rs.
Proof. exact phase_bounds. Qed.
Print Assumptions C163_bounds.

(** C163: the lower one is that of the softest direction if no slope is small. *)
Theorem C163_soft_partial : forall pr rs t, 0 < anisotropy pr < 1 / 3 ->
  Forall (Forall (fun p => weighted (fst p) /\ unit_quats (fst p) /\ steep (nphases pr) (fst p))) rs -> evaluateEnergy3 pr rs = Some t ->
  over_ranks3 (round_density pr (1 - 5 / 3 * anisotropy pr)) rs <= t_phase t.
Proof. exact phase_bounds_steep. Qed.
Print Assumptions C163_soft_partial.

(** C163 fails on small slopes: the energy is less than in the softest direction. *)
Theorem C163_small_refuted : forall pr b en t, 0 < anisotropy pr < 3 / 7 -> anisotropy pr <> 1 / 3 -> epsilon_phi pr <> 0 -> nphases pr = 1%Z -> weighted b ->
  (exists i j k, in_patch3 b i j k /\ 0 < zweight (zf b) i j k) ->
  (forall i j k, in_patch3 b i j k -> 0 < slope_sq b 1 i j k <= 1 / 10 ^ 12) -> evaluateEnergy3 pr [[(b, en)]] = Some t ->
  t_phase t < over3 b (round_density pr (1 - 5 / 3 * anisotropy pr) b).
Proof. exact small_slopes. Qed.
Print Assumptions C163_small_refuted.

(** C163: the sign of the orientations and symmetries from the left do not matter. *)
Theorem C163_symmetry_partial : forall pr rs rs', regular pr ->
  Forall2 (Forall2 (fun p p' => reoriented (fun q q' => q' = q \/ q' = Flow3_Spec.opposite q \/ exists n, in_table 48 n /\ q' = quatmult4 (qr4 n) q) (fst p) (fst p'))) rs rs' ->
  evaluateEnergy3 pr rs' = evaluateEnergy3 pr rs.
Proof. exact energy3_symmetry. Qed.
Print Assumptions C163_symmetry_partial.

(** C163 fails for the equivalence the code uses, symmetries from the right. *)
Theorem C163_symmetry_refuted : exists n q q' t t', in_table 48 n /\ unit4 q /\ quatsymmrotate4 q n = Some (n, q') /\
  evaluateEnergy3 pr3_cubic [[(steady3 q, none3)]] = Some t /\ evaluateEnergy3 pr3_cubic [[(steady3 q', none3)]] = Some t' /\ t_phase t' < t_phase t.
Proof. exact right_symmetry. Qed.
Print Assumptions C163_symmetry_refuted.

(** C163: for constant slopes the fluxes of the phase equation are the derivatives of the reported interface energy. *)
Theorem C163_fluxes_partial : forall pr b q gx gy gz en old i j k, Flow3_Spec.spaced (zbox b) -> 0 < anisotropy pr -> 3 * anisotropy pr <> 1 -> nphases pr = 1%Z -> unit4 q ->
  1 / 10 ^ 12 < gx ^ 2 + gy ^ 2 + gz ^ 2 ->
  let F := Flow3_Model.anisotropic_flux3 (zbox b) (epsilon_phi pr) (anisotropy pr) (linear (zbox b) gx gy gz) (fun _ _ _ => q) old in
  let volume := over3 b (fun _ _ _ => 1) in
  (forall T, on_x (zbox b) i j k -> (forall g, evaluateEnergy3 pr [[(linear_patch b q g gy gz, en)]] = Some (T g)) ->
    derivable_pt_lim (fun g => t_phase (T g)) gx (flux0 F i j k * volume)) /\
  (forall T, on_y (zbox b) i j k -> (forall g, evaluateEnergy3 pr [[(linear_patch b q gx g gz, en)]] = Some (T g)) ->
    derivable_pt_lim (fun g => t_phase (T g)) gy (flux1 F i j k * volume)) /\
  (forall T, on_z (zbox b) i j k -> (forall g, evaluateEnergy3 pr [[(linear_patch b q gx gy g, en)]] = Some (T g)) ->
    derivable_pt_lim (fun g => t_phase (T g)) gz (flux2 F i j k * volume)).
Proof. exact linear_fluxes. Qed.
Print Assumptions C163_fluxes_partial.

Example C163_ex : (* a crystal at rest, slope 1 along z: (1 + 1/10)^2 / 2 *)
  forall t, evaluateEnergy3 pr3_cubic [[(steady3 unit_q, none3)]] = Some t -> t_phase t = 121 / 200.
Proof.
  intros t H. unfold steady3 in H. rewrite (linear_total pr3_cubic (b3_ex 0 0 0 0 0 unit_q) _ _ _ _ _ _ ltac:(cbn; lra) ltac:(cbn; lra) ltac:(cbn; lra) ltac:(cbn; lra) ltac:(cbn; lra) eq_refl H).
  rewrite over3_one. cbn [epsilon_phi anisotropy pr3_cubic]. unfold crystal_density.
  assert (L : 1 / 10 ^ 12 < 0 ^ 2 + 0 ^ 2 + 1 ^ 2).
  { replace (0 ^ 2 + 0 ^ 2 + 1 ^ 2) with 1 by ring. apply (Rmult_lt_reg_r (10 ^ 12)); [lra |]. unfold Rdiv. rewrite Rmult_assoc, Rinv_l by lra. lra. }
  destruct (Rlt_dec _ _); [| contradiction]. unfold Flow3_Spec.cubic_density, Flow3_Spec.cubic_gamma, Flow3_Spec.turned, unit_q. cbn. field.
Qed.
Example C163_ex_small : (* a slope of 1/1000000 along z: (1 - 3/10)^2 / 2 times its square *)
  crystal_density 1 (1 / 10) unit_q 0 0 (1 / 10 ^ 6) = 49 / 200 * (1 / 10 ^ 12) /\ 49 / 200 < (1 - 5 / 3 * (1 / 10)) ^ 2 / 2.
Proof.
  split; [| lra]. unfold crystal_density. replace (0 ^ 2 + 0 ^ 2 + (1 / 10 ^ 6) ^ 2) with (1 / 10 ^ 12) by field. destruct (Rlt_dec _ _); [lra |]. field.
Qed.

(** C164: a slab has the energies of the plane problem times its height. *)
Theorem C164_slab_partial : forall pr b e en en2 t t2, slab_of b e -> (zl (zbox b) <= zu (zbox b) + 1)%Z -> hz (zbox b) <> 0 -> misorientation pr <= 0 ->
  regular pr -> anisotropy pr <= 0 \/ (knumber pr = 4 /\ depth pr = 4%Z /\ slab_slopes (nphases pr) e /\ exists alpha, turned_about_z alpha b e) ->
  evaluateEnergy3 pr [[(b, en)]] = Some t -> evaluateEnergy pr [[(e, en2)]] = Some t2 ->
  let c := hz (zbox b) * IZR (layers b) in
  t_energy t = c * t_energy t2 /\ t_phase t = c * t_phase t2 /\ t_orient t = c * t_orient t2 /\ t_qint t = c * t_qint t2 /\
  t_well t = c * t_well t2 /\ t_free t = c * t_free t2.
Proof. exact slab_totals. Qed.
Print Assumptions C164_slab_partial.

(** C164 fails for crystals given by the same quaternion: the plane program means the mirror image. *)
Theorem C164_mirror_refuted : exists pr b e t t2, slab_of b e /\ knumber pr = 4 /\ depth pr = 4%Z /\ misorientation pr <= 0 /\ 0 < anisotropy pr /\ regular pr /\
  slab_slopes (nphases pr) e /\ (exists alpha, 0 <= alpha <= 2 * PI /\ forall i j k, equat e i j 1%Z = cos (alpha / 2) /\ zquat (zf b) i j k = Flow3_Spec.about_z alpha) /\
  evaluateEnergy3 pr [[(b, none3)]] = Some t /\ evaluateEnergy pr [[(e, fun _ _ => 0)]] = Some t2 /\ hz (zbox b) * IZR (layers b) = 1 /\ t_phase t < t_phase t2.
Proof. exact mirror_crystal. Qed.
Print Assumptions C164_mirror_refuted.

Example C164_ex : (* the oblique crystal, 22.5 degrees: gamma = 1 + 24/250 in both programs *)
  forall t, evaluateEnergy3 pr3_mirror [[(oblique_patch (- (PI / 8)), none3)]] = Some t -> t_phase t = (274 / 250) ^ 2 / 2 * 5.
Proof.
  intros t H. rewrite (oblique_total _ _ H). replace (4 * (PI / 8)) with (PI / 2) by field. rewrite cos_minus, cos_PI2, sin_PI2, oblique_angle. field.
Qed.

(** C165: pushing the phase in an inner cell changes the reported energy at the rate of minus the right-hand side of the phase equation over the mobility, times the volume of the cell. *)
Theorem C165_descent_partial : forall pr b phi en T w p fold rold rhs a c d, plain_energy pr -> plain_problem pr b p -> Flow3_Spec.spaced (zbox b) -> inner_cell (zbox b) a c d ->
  (forall i j k, in_patch3 b i j k -> zweight (zf b) i j k = w) -> (forall t, evaluateEnergy3 pr [[(with_phase b (pushed phi a c d t), en)]] = Some (T t)) ->
  Flow3_Model.pdrive3 p = Flow3_Model.FreeEnergies3 (zfl (zf b)) (zfa (zf b)) (phi_interp pr) ->
  Flow3_Model.evaluatePhaseRHS3 p phi fold rold = Some rhs ->
  exists slope, derivable_pt_lim (fun t => t_energy (T t)) 0 slope /\ w * rhs a c d = - Flow3_Model.pmob3 p a c d * slope.
Proof. exact phase_slope. Qed.
Print Assumptions C165_descent_partial.

Example C165_ex : (* phase 1/2, undercooled by 1: the rate is the slope 15/8 of the interpolation times the latent heat 1 *)
  forall fold rold rhs, Flow3_Model.evaluatePhaseRHS3 (cold_problem (Flow3_Model.FreeEnergies3 (deltaFreeEnergyLiquid3 cube_ex none3 1 1 none3) (deltaFreeEnergySolid3 cube_ex none3 1 1 none3) "p") none3) half3 fold rold = Some rhs ->
  derivable_pt_lim (fun t => t_energy (cold_totals none3 t)) 0 (- (15 / 8)) /\ rhs 1%Z 1%Z 1%Z = 15 / 8.
Proof.
  intros fold rold rhs H. set (d := Flow3_Model.FreeEnergies3 _ _ _) in H. destruct (cold_setup d none3) as (P & S & I & U).
  destruct (C165_descent_partial pr3_plain (cold_ex none3) half3 none3 (cold_totals none3) 1 (cold_problem d none3) fold rold rhs 1%Z 1%Z 1%Z cold_plain P S I
    ltac:(intros; reflexivity) (cold_defined none3) eq_refl H) as (sl & D & E).
  assert (V : rhs 1%Z 1%Z 1%Z = 15 / 8).
  { rewrite (Flow3_Proofs.rhs3_simple (cold_problem d none3) half3 fold rold rhs 1%Z 1%Z 1%Z S eq_refl H); auto; [| repeat split; cbn; lia].
    cbn [Flow3_Model.pmob3 Flow3_Model.peps3 Flow3_Model.pwell3 Flow3_Model.pdrive3 Flow3_Model.pb3 cold_problem]. unfold d. cbn [Flow3_Spec.local_drive].
    destruct (delta_energies cube_ex none3 1 1 none3 1%Z 1%Z 1%Z ltac:(repeat split; cbn; lia)) as (-> & ->).
    unfold laplace3, half3, none3. cbn [hx hy hz cube_ex deriv_interp_func PhaseFlow_Model.val]. unfold clamp01, Rmax, Rmin. repeat destruct (Rle_dec _ _); try lra; field. }
  rewrite V in E. cbn [Flow3_Model.pmob3 cold_problem] in E. replace sl with (- (15 / 8)) in D by lra. split; [exact D | exact V].
Qed.

(** C166: the free energies by undercooling. *)
Theorem C166_energies : forall b temp tm l f0 i j k, Flow3_Spec.in_cells3 b i j k ->
  deltaFreeEnergyLiquid3 b temp tm l f0 i j k = l / (2 * tm) * (tm - temp i j k) /\
  deltaFreeEnergySolid3 b temp tm l f0 i j k = - (l / (2 * tm)) * (tm - temp i j k).
Proof. exact delta_energies. Qed.
Print Assumptions C166_energies.

(** C166: nothing is written outside the cells. *)
Theorem C166_outside : forall b temp tm l f0 i j k, ~ Flow3_Spec.in_cells3 b i j k ->
  deltaFreeEnergyLiquid3 b temp tm l f0 i j k = f0 i j k /\ deltaFreeEnergySolid3 b temp tm l f0 i j k = f0 i j k.
Proof. exact delta_outside. Qed.
Print Assumptions C166_outside.

(** C166: where the temperature has no curvature, the driving force by undercooling is minus the derivative of the reported energy. *)
Theorem C166_descent_partial : forall pr b phi en T w p tm lh fold rold rhs a c d, plain_energy pr -> plain_problem pr b p -> Flow3_Spec.spaced (zbox b) -> inner_cell (zbox b) a c d -> tm <> 0 ->
  (forall i j k, in_patch3 b i j k -> zweight (zf b) i j k = w) -> (forall t, evaluateEnergy3 pr [[(with_phase b (pushed phi a c d t), en)]] = Some (T t)) ->
  undercooled b tm lh -> flat_spot (ztemp (zf b)) a c d -> Flow3_Model.pdrive3 p = Flow3_Model.DeltaTemperature3 tm lh (phi_interp pr) ->
  Flow3_Model.evaluatePhaseRHS3 p phi fold rold = Some rhs ->
  exists slope, derivable_pt_lim (fun t => t_energy (T t)) 0 slope /\ w * rhs a c d = - Flow3_Model.pmob3 p a c d * slope.
Proof. exact undercooling_slope. Qed.
Print Assumptions C166_descent_partial.

(** C166 fails everywhere else. *)
Theorem C166_curvature_refuted : forall pr b phi en T w p tm lh fold rold rhs a c d slope, plain_energy pr -> plain_problem pr b p -> Flow3_Spec.spaced (zbox b) -> inner_cell (zbox b) a c d -> tm <> 0 ->
  (forall i j k, in_patch3 b i j k -> zweight (zf b) i j k = w) -> (forall t, evaluateEnergy3 pr [[(with_phase b (pushed phi a c d t), en)]] = Some (T t)) ->
  undercooled b tm lh -> ~ flat_spot (ztemp (zf b)) a c d -> Flow3_Model.pdrive3 p = Flow3_Model.DeltaTemperature3 tm lh (phi_interp pr) ->
  Flow3_Model.evaluatePhaseRHS3 p phi fold rold = Some rhs -> w <> 0 -> lh <> 0 -> Flow3_Model.pmob3 p a c d <> 0 -> val (deriv_interp_func (phi a c d) (phi_interp pr)) <> 0 ->
  derivable_pt_lim (fun t => t_energy (T t)) 0 slope -> w * rhs a c d <> - Flow3_Model.pmob3 p a c d * slope.
Proof. exact undercooling_uphill. Qed.
Print Assumptions C166_curvature_refuted.

Example C166_ex : (* the temperature i^2: not flat; the equation and the energy disagree *)
  forall fold rold rhs slope, Flow3_Model.evaluatePhaseRHS3 (cold_problem (Flow3_Model.DeltaTemperature3 1 1 "p") (fun i _ _ => IZR i * IZR i)) half3 fold rold = Some rhs ->
  derivable_pt_lim (fun t => t_energy (cold_totals (fun i _ _ => IZR i * IZR i) t)) 0 slope -> rhs 1%Z 1%Z 1%Z <> - slope.
Proof.
  intros fold rold rhs slope H D E. set (temp := fun i _ _ : Z => IZR i * IZR i) in *. set (d := Flow3_Model.DeltaTemperature3 1 1 "p") in H.
  destruct (cold_setup d temp) as (P & S & I & U).
  apply (C166_curvature_refuted pr3_plain (cold_ex temp) half3 none3 (cold_totals temp) 1 (cold_problem d temp) 1 1 fold rold rhs 1%Z 1%Z 1%Z slope cold_plain P S I ltac:(lra)
    ltac:(intros; reflexivity) (cold_defined temp) U); auto; try lra.
  - unfold flat_spot, temp. cbn [cold_ex zf ztemp]. cbn. lra.
  - cbn. lra.
  - cbn [phi_interp pr3_plain deriv_interp_func val half3]. unfold clamp01, half3, Rmax, Rmin. repeat destruct (Rle_dec _ _); lra.
  - rewrite E. cbn [Flow3_Model.pmob3 cold_problem]. ring.
Qed.

(** C167: a pair energy is the weighted sum over the last patch of the rank. *)
Theorem C167_lasts : forall gamma m pc n ps p1 p2, (1 <= p1 <= n)%Z -> (1 <= p2 <= n)%Z ->
  evaluatePairEnergy3 gamma m pc n ps (n * (p1 - 1) + p2)%Z = over_last3 (pair_density3 gamma m p1 p2) ps.
Proof. exact pair_lasts3. Qed.
Print Assumptions C167_lasts.

(** C167: the pair energies are symmetric. *)
Theorem C167_symmetric : forall gamma m pc n ps p1 p2, (1 <= p1 <= n)%Z -> (1 <= p2 <= n)%Z ->
  evaluatePairEnergy3 gamma m pc n ps (n * (p1 - 1) + p2)%Z = evaluatePairEnergy3 gamma m pc n ps (n * (p2 - 1) + p1)%Z.
Proof. exact pair_symmetric3. Qed.
Print Assumptions C167_symmetric.

(** C167 fails for the sum over the patches of a rank. *)
Theorem C167_patches_refuted : exists b ps ps', cuts3 b [ps] /\ cuts3 b [ps'] /\
  evaluatePairEnergy3 32 1 false 2 ps 2%Z = 2 /\ evaluatePairEnergy3 32 1 false 2 ps' 2%Z = 1.
Proof. exact pair_lost3. Qed.
Print Assumptions C167_patches_refuted.

(** C167: the map holds the density of the last pair. *)
Theorem C167_map_partial : forall gamma m n b s i j k, (1 <= n)%Z -> in_patch3 b i j k ->
  snd (phiphi_interfacialenergy3 gamma m true n b s) i j k = pair_density3 gamma m n n b i j k.
Proof. exact pair_map3. Qed.
Print Assumptions C167_map_partial.

(** C167 fails for the map as the sum over the pairs. *)
Theorem C167_map_refuted : exists b i j k, in_patch3 b i j k /\
  forall s, snd (phiphi_interfacialenergy3 32 1 true 2 b s) i j k = 1 /\ pair_sum3 32 1 2 b i j k = 4.
Proof. exact pair_map_lost3. Qed.
Print Assumptions C167_map_refuted.

Example C167_ex : (* two cells, both phases 1/2, gamma 32, m 1: 1 in each cell *)
  evaluatePairEnergy3 32 1 false 2 [(cell_ex 0 1, none3)] 3%Z = 2.
Proof.
  change 3%Z with (2 * (2 - 1) + 1)%Z. rewrite (C167_lasts 32 1 false 2 [(cell_ex 0 1, none3)] 2 1 ltac:(lia) ltac:(lia)). unfold over_last3. cbn [rev app fst]. unfold cell_ex at 1. rewrite over3_two, !pair_value3. ring.
Qed.
