(** C69-C75: motion of the phase field and of the temperature. *)
From Coq Require Import Reals ZArith List Bool Ascii Lra Lia.
From Coquelicot Require Import Coquelicot.
From Verif Require Import Grid_Model Grid_Spec Grid_Proofs Functions_Model Functions_Spec Functions_Proofs Stencils_Model
  PhaseFlow_Model PhaseFlow_Spec PhaseFlow_Proofs.
From Verif Require Energy_Model.
Import ListNotations.
Open Scope R_scope.

(** C69: with the simple flux and the double well, the right-hand side over the mobility is minus the gradient of the total energy the code reports, in every direction compatible with the boundary conditions. *)
Theorem C69_gradient : forall cx cy p fl fa it an w pc phi v fold rold rhs,
  (lo0 (pb p) <= hi0 (pb p))%Z -> (lo1 (pb p) <= hi1 (pb p))%Z -> an <= 0 ->
  pflux p = FluxSimple -> porient p = None -> pthird p = None -> pdrive p = FreeEnergies fl fa it ->
  (forall i j, in_cells (pb p) i j -> pmob p i j <> 0) ->
  In it ["p"; "h"]%char \/ it = "l"%char /\ (forall i j, in_cells (pb p) i j -> 0 < phi i j < 1) ->
  filled cx cy (pb p) phi -> filled cx cy (pb p) v ->
  evaluatePhaseRHS p phi fold rold = Some rhs ->
  derivable_pt_lim (fun t => reported_energy (pb p) (peps p) an (pwell p) w pc it "d" (ptemp p) fl fa (moved phi v t)) 0
    (- w * sum_cells (pb p) (fun i j => rhs i j / pmob p i j * v i j)).
Proof. exact phase_gradient. Qed.
Print Assumptions C69_gradient.

(** C69: so along the motion the reported energy changes at the rate -w sum rhs^2/M, never up. *)
Theorem C69_descent : forall cx cy p fl fa it an w pc phi v fold rold rhs,
  (lo0 (pb p) <= hi0 (pb p))%Z -> (lo1 (pb p) <= hi1 (pb p))%Z -> an <= 0 -> 0 <= w ->
  pflux p = FluxSimple -> porient p = None -> pthird p = None -> pdrive p = FreeEnergies fl fa it ->
  (forall i j, in_cells (pb p) i j -> 0 < pmob p i j) ->
  In it ["p"; "h"]%char \/ it = "l"%char /\ (forall i j, in_cells (pb p) i j -> 0 < phi i j < 1) ->
  filled cx cy (pb p) phi -> filled cx cy (pb p) v ->
  evaluatePhaseRHS p phi fold rold = Some rhs -> (forall i j, in_cells (pb p) i j -> v i j = rhs i j) ->
  exists rate, rate = - (w * sum_cells (pb p) (fun i j => rhs i j ^ 2 / pmob p i j)) /\ rate <= 0 /\
  derivable_pt_lim (fun t => reported_energy (pb p) (peps p) an (pwell p) w pc it "d" (ptemp p) fl fa (moved phi v t)) 0 rate.
Proof. exact phase_descent. Qed.
Print Assumptions C69_descent.

(** C69: the driving force of the undercooling strategy uses the temperature averaged over the neighbours, while its energies use the cell's: the difference is a quarter of the distance to the neighbours' mean. *)
Theorem C69_delta_temperature : forall b tm lh it temp phi rhs o1 o2 r1 r2 i j,
  addDrivingForce (DeltaTemperature tm lh it) b phi temp rhs = Some r1 ->
  addDrivingForce (FreeEnergies (delta_fl b temp tm lh o1) (delta_fa b temp tm lh o2) it) b phi temp rhs = Some r2 ->
  in_cells b i j ->
  r1 i j - r2 i j = - (lh / tm) * val (deriv_interp_func (phi i j) it) *
    ((temp (i + 1)%Z j + temp (i - 1)%Z j + temp i (j + 1)%Z + temp i (j - 1)%Z) / 4 - temp i j) / 4.
Proof. exact delta_vs_energy. Qed.
Print Assumptions C69_delta_temperature.

Definition C69_problem : phase_problem := mk_problem unit_box FluxSimple 1 1 zero2 None None (FreeEnergies zero2 zero2 "p") one2.
Example C69_ex : exists rhs, evaluatePhaseRHS C69_problem (fun _ _ => 1 / 4) zero2 zero2 = Some rhs /\ rhs 0%Z 0%Z = - 3 /\
  derivable_pt_lim (fun t => reported_energy unit_box 1 (-1) 1 1 false "p" "d" zero2 zero2 zero2 (moved (fun _ _ => 1 / 4) (fun _ _ => - 3) t)) 0 (- 9).
Proof.
  pose proof (rhs_value C69_problem (fun _ _ => 1 / 4) zero2 zero2) as V. change (types_known C69_problem) with true in V. cbv iota in V.
  destruct V as (rhs & E & V). exists rhs. split; [exact E |].
  assert (R0 : rhs 0%Z 0%Z = - 3).
  { rewrite V by (split; cbn; lia). unfold force. rewrite div_simple by (auto; split; cbn; lia).
    unfold lap, third_term, orient_term, C69_problem, one2, zero2. cbn [pmob pwell peps pb pthird porient pdrive drive_term]. field. cbn. lra. }
  split; [exact R0 |].
  assert (F : forall c, filled Periodic Periodic unit_box (fun _ _ => c)) by (intro c; split; intros; split; reflexivity).
  destruct (phase_descent Periodic Periodic C69_problem zero2 zero2 "p" (-1) 1 false (fun _ _ => 1 / 4) (fun _ _ => - 3) zero2 zero2 rhs)
    as (rate & Er & _ & D); auto; try lra; try (cbn; lia); try (cbn; intros; unfold one2; lra).
  - left. cbn. auto.
  - intros i j [Hi Hj]. cbn in Hi, Hj. replace i with 0%Z by lia. replace j with 0%Z by lia. lra.
  - replace (- 9) with rate; [exact D |]. rewrite Er. change (pb C69_problem) with unit_box. rewrite sum_unit, R0. cbn. unfold one2. field.
Qed.

(** C69, negative: the right-hand side always uses the double well. With the single-well type 's' the reported energy can increase along the motion. *)
Theorem C69_single_well_refuted : exists p fl fa phi v rhs,
  pflux p = FluxSimple /\ porient p = None /\ pthird p = None /\ pdrive p = FreeEnergies fl fa "p" /\
  (forall i j, in_cells (pb p) i j -> 0 < pmob p i j) /\ filled Periodic Periodic (pb p) phi /\ filled Periodic Periodic (pb p) v /\
  evaluatePhaseRHS p phi zero2 zero2 = Some rhs /\ (forall i j, in_cells (pb p) i j -> v i j = rhs i j) /\
  exists rate, 0 < rate /\
  derivable_pt_lim (fun t => reported_energy (pb p) (peps p) (-1) (pwell p) 1 false "p" "s" (ptemp p) fl fa (moved phi v t)) 0 rate.
Proof. exact single_well_wrong. Qed.
Print Assumptions C69_single_well_refuted.

(** C69, negative: with the isotropic flux the reported energy, which keeps the five point stencil, can increase along the motion. *)
Theorem C69_isotropic_refuted : exists p fl fa phi v rhs,
  pflux p = FluxIsotropic /\ porient p = None /\ pthird p = None /\ pdrive p = FreeEnergies fl fa "p" /\
  (forall i j, in_cells (pb p) i j -> 0 < pmob p i j) /\ filled Periodic Periodic (pb p) phi /\ filled Periodic Periodic (pb p) v /\
  evaluatePhaseRHS p phi zero2 zero2 = Some rhs /\ (forall i j, in_cells (pb p) i j -> v i j = rhs i j) /\
  exists rate, 0 < rate /\
  derivable_pt_lim (fun t => reported_energy (pb p) (peps p) (-1) (pwell p) 1 false "p" "d" (ptemp p) fl fa (moved phi v t)) 0 rate.
Proof. exact isotropic_wrong. Qed.
Print Assumptions C69_isotropic_refuted.

(** C70: every trajectory starting between 0 and 1 stays there, on boundaries that reflect, are periodic, or give values in [0,1], for simple fluxes and isotropic ones on cells no longer than sqrt 5 times their width, with clamped interpolation in the driving force. *)
Theorem C70_bounds : forall b B T (p : R -> phase_problem) fold rold phi, 0 <= B ->
  (forall t, 0 <= t <= T -> pb (p t) = b /\ keeps_bounds B (p t)) ->
  solution b 0 1 T (fun t f => evaluatePhaseRHS (p t) f (fold t) (rold t)) phi ->
  (forall i j, in_cells b i j -> 0 <= phi 0 i j <= 1) ->
  forall t i j, 0 <= t <= T -> in_cells b i j -> 0 <= phi t i j <= 1.
Proof. exact phase_bounds. Qed.
Print Assumptions C70_bounds.

(** a solid growing by the Beckermann bias: the logistic curve *)
Definition C70_problem : phase_problem := mk_problem unit_box FluxSimple 1 0 zero2 None None (BiasBeckermann 1 one2) one2.
Definition C70_curve : R -> arr2 := fun t _ _ => / (1 + exp (- t)).
Example C70_ex : keeps_bounds 1 C70_problem /\ solution unit_box 0 1 5 (fun _ f => evaluatePhaseRHS C70_problem f zero2 zero2) C70_curve /\
  (forall t, 0 <= t <= 5 -> 0 <= C70_curve t 0%Z 0%Z <= 1).
Proof.
  assert (K : keeps_bounds 1 C70_problem).
  { unfold keeps_bounds, C70_problem. cbn [pb pwell pmob pflux porient pthird pdrive ptemp unit_box h1 h2]. unfold one2, zero2.
    split; [lra |]. split; [lra |]. split; [lra |]. split; [intros; lra |]. do 3 (split; [exact I |]).
    intros i j _. rewrite Rabs_right; lra. }
  assert (S : solution unit_box 0 1 5 (fun _ f => evaluatePhaseRHS C70_problem f zero2 zero2) C70_curve).
  { split.
    - intros t i j Ht Hij. pose proof (rhs_value C70_problem (C70_curve t) zero2 zero2) as V. change (types_known C70_problem) with true in V. cbv iota in V.
      destruct V as (r & E & V). exists r. split; [exact E |]. rewrite V by auto. unfold force. rewrite div_simple by auto.
      assert (P : 0 < 1 + exp (- t)) by (pose proof (exp_pos (- t)); lra).
      unfold lap, third_term, orient_term, C70_problem, one2, zero2, C70_curve. cbn [pmob pwell peps pb pthird porient pdrive drive_term ptemp unit_box h1 h2].
      apply is_derive_Reals. auto_derive; [lra |]. field. lra.
    - intros t i j k l _ Hij _. left. exists i, j. split; auto. }
  split; [exact K |]. split; [exact S |]. intros t Ht.
  apply (phase_bounds unit_box 1 5 (fun _ => C70_problem) (fun _ => zero2) (fun _ => zero2) C70_curve); auto; [lra | | split; cbn; lia].
  intros i j _. unfold C70_curve. rewrite Ropp_0, exp_0. lra.
Qed.

(** C70, negative: with the linear interpolation 'l' a liquid cell with lower liquid energy is pushed below 0. *)
Theorem C70_linear_refuted : forall p fl fa fold rold phi T i j,
  pflux p = FluxSimple -> porient p = None -> pthird p = None -> pdrive p = FreeEnergies fl fa "l" ->
  in_cells (pb p) i j -> 0 < pmob p i j -> fl i j < fa i j -> (forall k l, near i j k l -> phi 0 k l = 0) -> 0 < T ->
  solution (pb p) 0 1 T (fun _ f => evaluatePhaseRHS p f fold rold) phi -> exists t, 0 < t <= T /\ phi t i j < 0.
Proof. exact linear_leaves. Qed.
Print Assumptions C70_linear_refuted.

(** C70, negative: the isotropic flux on cells longer than sqrt 5 times their width pushes a cell next to a solid one below 0. *)
Theorem C70_stretched_refuted : forall p fold rold phi T i j,
  pflux p = FluxIsotropic -> porient p = None -> pthird p = None -> pdrive p = NoDrive ->
  0 < h1 (pb p) -> 0 < h2 (pb p) -> 5 * h2 (pb p) ^ 2 < h1 (pb p) ^ 2 -> peps p <> 0 -> 0 < pmob p i j ->
  in_cells (pb p) i j -> phi 0 (i + 1)%Z j = 1 -> (forall k l, near i j k l -> (k, l) <> (i + 1, j)%Z -> phi 0 k l = 0) -> 0 < T ->
  solution (pb p) 0 1 T (fun _ f => evaluatePhaseRHS p f fold rold) phi -> exists t, 0 < t <= T /\ phi t i j < 0.
Proof. exact stretched_leaves. Qed.
Print Assumptions C70_stretched_refuted.

(** C70, negative: the anisotropic flux of strength above 1/15 pushes below 0 from some state within [0,1]. *)
Theorem C70_anisotropic_refuted : forall nu p fold rold T i j, 1 / 15 < nu -> pflux p = FluxAnisotropic nu 4 4 one2 ->
  porient p = None -> pthird p = None -> pdrive p = NoDrive -> peps p <> 0 -> h1 (pb p) = 1 -> h2 (pb p) = 1 -> in_cells (pb p) i j -> 0 < pmob p i j -> 0 < T ->
  exists start : arr2, (forall k l, 0 <= start k l <= 1) /\ forall phi, (forall k l, near i j k l -> phi 0 k l = start k l) ->
      solution (pb p) 0 1 T (fun _ f => evaluatePhaseRHS p f fold rold) phi -> exists t, 0 < t <= T /\ phi t i j < 0.
Proof. exact anisotropic_leaves. Qed.
Print Assumptions C70_anisotropic_refuted.

(** C71: at x faces the anisotropic flux is the derivative of the interface energy density of the crystal's orientation with respect to the x slope. *)
Theorem C71_x : forall b eps nu k qlen phi quat old alpha i j, h1 b <> 0 -> h2 b <> 0 -> x_face b i j ->
  1 / 10 ^ 12 < Rabs (face_x_dx b phi i j) ->
  (qlen = 4%Z /\ 0 <= alpha <= 2 * PI) \/ (qlen = 2%Z /\ 0 <= alpha <= PI) ->
  quat (i - 1)%Z j = first_component qlen alpha -> quat i j = first_component qlen alpha ->
  derivable_pt_lim (fun g => interface_density eps nu k alpha g (face_x_dy b phi i j)) (face_x_dx b phi i j)
    (flux_x (FluxAnisotropic nu k qlen quat) b eps phi old i j).
Proof. exact anisotropic_x. Qed.
Print Assumptions C71_x.

(** C71: the same at y faces. *)
Theorem C71_y : forall b eps nu k qlen phi quat old alpha i j, h1 b <> 0 -> h2 b <> 0 -> y_face b i j ->
  1 / 10 ^ 12 < Rabs (face_y_dx b phi i j) ->
  (qlen = 4%Z /\ 0 <= alpha <= 2 * PI) \/ (qlen = 2%Z /\ 0 <= alpha <= PI) ->
  quat i (j - 1)%Z = first_component qlen alpha -> quat i j = first_component qlen alpha ->
  derivable_pt_lim (fun g => interface_density eps nu k alpha (face_y_dx b phi i j) g) (face_y_dy b phi i j)
    (flux_y (FluxAnisotropic nu k qlen quat) b eps phi old i j).
Proof. exact anisotropic_y. Qed.
Print Assumptions C71_y.

(** C71: without anisotropy it is the simple flux. *)
Theorem C71_none : forall b eps k qlen phi quat old i j, h1 b <> 0 -> h2 b <> 0 ->
  (x_face b i j -> flux_x (FluxAnisotropic 0 k qlen quat) b eps phi old i j = flux_x FluxSimple b eps phi old i j) /\
  (y_face b i j -> flux_y (FluxAnisotropic 0 k qlen quat) b eps phi old i j = flux_y FluxSimple b eps phi old i j).
Proof. exact anisotropic_none. Qed.
Print Assumptions C71_none.

Example C71_ex : flux_y (FluxAnisotropic (1 / 4) 4 4 (fun _ _ => first_component 4 (PI / 8))) unit_box 1 slope_state zero2 0%Z 0%Z = 1 /\
  face_y_dx unit_box slope_state 0 0 = 1.
Proof.
  split; [| apply slope_face]. pose proof PI_RGT_0. rewrite slope_flux_y, crystal_angle_val by (left; split; [auto | lra]).
  replace (4 * (0 - PI / 8)) with (- (PI / 2)) by field. rewrite cos_neg, sin_neg, cos_PI2, sin_PI2. field.
Qed.

(** C71, negative: a crystal turned the other way has the same first component, and gets the flux of its mirror image. *)
Theorem C71_mirror_refuted : exists alpha d, - PI <= alpha < 0 /\
  derivable_pt_lim (fun g => interface_density 1 (1 / 4) 4 alpha (face_y_dx unit_box slope_state 0%Z 0%Z) g) (face_y_dy unit_box slope_state 0%Z 0%Z) d /\
  forall old, flux_y (FluxAnisotropic (1 / 4) 4 4 (fun _ _ => first_component 4 alpha)) unit_box 1 slope_state old 0%Z 0%Z <> d.
Proof. exact anisotropic_mirror. Qed.
Print Assumptions C71_mirror_refuted.

(** C71, negative: the two signs of a quaternion are one orientation but give different fluxes. *)
Theorem C71_sign_refuted : exists q, -1 <= q <= 1 /\ forall old,
  flux_y (FluxAnisotropic (1 / 4) 4 4 (fun _ _ => - q)) unit_box 1 slope_state old 0%Z 0%Z <>
  flux_y (FluxAnisotropic (1 / 4) 4 4 (fun _ _ => q)) unit_box 1 slope_state old 0%Z 0%Z.
Proof. exact anisotropic_sign. Qed.
Print Assumptions C71_sign_refuted.

(** C71, negative: an orientation stored as an angle (one component) is read as a cosine. *)
Theorem C71_angle_refuted : exists alpha d, 0 <= alpha <= PI /\
  derivable_pt_lim (fun g => interface_density 1 (1 / 4) 4 alpha (face_y_dx unit_box slope_state 0%Z 0%Z) g) (face_y_dy unit_box slope_state 0%Z 0%Z) d /\
  forall old, flux_y (FluxAnisotropic (1 / 4) 4 1 (fun _ _ => first_component 1 alpha)) unit_box 1 slope_state old 0%Z 0%Z <> d.
Proof. exact anisotropic_angle. Qed.
Print Assumptions C71_angle_refuted.

(** C72: on square cells and polynomials up to degree 5 the isotropic flux gives the Laplacian plus h^2/12 times the Laplacian of the Laplacian: the leading error has no preferred direction. *)
Theorem C72_isotropic : forall p c x0 y0 h phi fold rold rhs i j, pflux p = FluxIsotropic -> h1 (pb p) = h -> h2 (pb p) = h -> h <> 0 ->
  plain p -> pdrive p = NoDrive -> pwell p = 0 ->
  in_cells (pb p) i j -> deg5 c -> sampled c x0 y0 h phi i j -> evaluatePhaseRHS p phi fold rold = Some rhs ->
  let x := x0 + IZR i * h in let y := y0 + IZR j * h in
  rhs i j = pmob p i j * peps p ^ 2 * (eval (plap c) x y + h ^ 2 / 12 * eval (plap (plap c)) x y).
Proof. exact isotropic_rhs. Qed.
Print Assumptions C72_isotropic.

(** C72: the simple flux has the fourth derivatives along the axes instead. *)
Theorem C72_simple : forall p c x0 y0 h phi fold rold rhs i j, pflux p = FluxSimple -> h1 (pb p) = h -> h2 (pb p) = h -> h <> 0 ->
  plain p -> pdrive p = NoDrive -> pwell p = 0 ->
  in_cells (pb p) i j -> deg5 c -> sampled c x0 y0 h phi i j -> evaluatePhaseRHS p phi fold rold = Some rhs ->
  let x := x0 + IZR i * h in let y := y0 + IZR j * h in
  rhs i j = pmob p i j * peps p ^ 2 * (eval (plap c) x y + h ^ 2 / 12 * (eval (pdx (pdx (pdx (pdx c)))) x y + eval (pdy (pdy (pdy (pdy c)))) x y)).
Proof. exact simple_rhs. Qed.
Print Assumptions C72_simple.

(** x^2 y^2 around the origin *)
Definition C72_poly : poly := fun m n => if (Nat.eqb m 2 && Nat.eqb n 2)%bool then 1 else 0.
Example C72_ex : exists rhs, evaluatePhaseRHS (mk_problem unit_box FluxIsotropic 1 0 zero2 None None NoDrive one2) (fun i j => IZR i ^ 2 * IZR j ^ 2) zero2 zero2 = Some rhs /\
  rhs 0%Z 0%Z = 2 / 3.
Proof.
  set (p := mk_problem unit_box FluxIsotropic 1 0 zero2 None None NoDrive one2).
  pose proof (rhs_value p (fun i j => IZR i ^ 2 * IZR j ^ 2) zero2 zero2) as V. change (types_known p) with true in V. cbv iota in V.
  destruct V as (rhs & E & _). exists rhs. split; [exact E |].
  rewrite (isotropic_rhs p C72_poly 0 0 1 (fun i j => IZR i ^ 2 * IZR j ^ 2) zero2 zero2 rhs 0 0); auto; try lra.
  - unfold eval, plap, pdx, pdy, C72_poly. cbn [sum_f_R0 Nat.sub INR pow Nat.eqb andb p peps pmob]. unfold one2. field.
  - split; reflexivity.
  - split; cbn; lia.
  - intros m n H. unfold C72_poly. destruct (Nat.eqb_spec m 2); destruct (Nat.eqb_spec n 2); cbn [andb]; auto. subst. lia.
  - intros k l _. unfold eval, C72_poly. cbn [sum_f_R0 Nat.sub Nat.eqb andb]. ring.
Qed.

(** C73: with a uniform specific heat and closed or periodic boundaries, every trajectory of temperature and phase conserves the heat content: sum of cp T - L phi. *)
Theorem C73_heat_conserved : forall cx cy b D L c0 cp T (temp phi dphi : R -> arr2) old, (lo0 b <= hi0 b)%Z -> (lo1 b <= hi1 b)%Z -> c0 <> 0 ->
  (forall i j, in_cells b i j -> cp i j = c0) ->
  (forall t, 0 <= t <= T -> filled cx cy b (temp t)) ->
  (forall t i j, 0 <= t <= T -> in_cells b i j -> derivable_pt_lim (fun s => phi s i j) t (dphi t i j)) ->
  (forall t i j, 0 <= t <= T -> in_cells b i j ->
     derivable_pt_lim (fun s => temp s i j) t (computerhstemp b D L (temp t) cp (Some (dphi t)) (old t) i j)) ->
  forall t, 0 <= t <= T -> heat_content b L cp (temp t) (phi t) = heat_content b L cp (temp 0) (phi 0).
Proof. exact heat_conserved. Qed.
Print Assumptions C73_heat_conserved.

(** C73: without phase change the temperature of every trajectory stays between the bounds of its initial and boundary values. *)
Theorem C73_temperature_bounds : forall b D L cp lb ub T old temp, 0 <= D -> 0 < h1 b -> 0 < h2 b ->
  solution b lb ub T (fun t f => Some (computerhstemp b D L f cp None (old t))) temp ->
  (forall i j, in_cells b i j -> lb <= temp 0 i j <= ub) ->
  forall t i j, 0 <= t <= T -> in_cells b i j -> lb <= temp t i j <= ub.
Proof. exact temp_bounds. Qed.
Print Assumptions C73_temperature_bounds.

(** two cells reaching the mean temperature *)
Definition C73_box : pbox := mk_pbox 0 1 0 0 1 1.
Definition C73_curve : R -> arr2 := fun t i _ => if (i <=? 0)%Z then 1 / 2 + exp (- (2 * t)) / 2 else 1 / 2 - exp (- (2 * t)) / 2.
Example C73_ex : solution C73_box 0 1 3 (fun _ f => Some (computerhstemp C73_box 1 0 f one2 None zero2)) C73_curve /\
  (forall t, 0 <= t <= 3 -> heat_content C73_box 0 one2 (C73_curve t) zero2 = 1).
Proof.
  assert (N : forall t i j k l, in_cells C73_box i j -> near i j k l -> exists a, in_cells C73_box a 0 /\ C73_curve t k l = C73_curve t a 0%Z).
  { intros t i j k l [Hi Hj] [Hk Hl]. cbn in Hi, Hj. exists (if (k <=? 0)%Z then 0 else 1)%Z. unfold C73_curve.
    destruct (Z.leb_spec k 0); split; try (split; cbn; lia); reflexivity. }
  split.
  - split.
    + intros t i j Ht Hij. eexists. split; [reflexivity |]. rewrite temp_val by auto. destruct Hij as [Hi Hj]. cbn in Hi, Hj.
      unfold lap, C73_curve. cbn [C73_box h1 h2]. assert (i = 0 \/ i = 1)%Z as [-> | ->] by lia; cbn [Z.leb Z.compare Z.add Z.sub Z.opp Pos.add Z.pos_sub];
        apply is_derive_Reals; auto_derive; auto; field.
    + intros t i j k l Ht Hij Hn. left. destruct (N t i j k l Hij Hn) as (a & Ha & E). exists a, 0%Z. auto.
  - intros t Ht. unfold heat_content, sum_cells, sum_box, C73_box. cbn [lo0 hi0 lo1 hi1]. rewrite (sumZ_cons 0 0), (sumZ_empty (0 + 1) 0) by lia.
    rewrite (sumZ_cons 0 1), (sumZ_cons (0 + 1) 1), (sumZ_empty (0 + 1 + 1) 1) by lia. unfold one2, zero2, C73_curve. cbn [Z.leb Z.compare Z.add Pos.add]. field.
Qed.

(** C73, negative: with a specific heat that varies in space, conduction alone changes the heat content. *)
Theorem C73_varying_refuted : exists b cp temp, filled ZeroFlux ZeroFlux b temp /\ forall old,
  sum_cells b (fun i j => cp i j * computerhstemp b 1 0 temp cp None old i j) <> 0.
Proof. exact heat_not_conserved. Qed.
Print Assumptions C73_varying_refuted.

(** C74: as long as the bias stays below 32 W both phases are stable: there is a threshold below which a uniform phase fraction decreases and above which it increases. *)
Theorem C74_metastable : forall p i j m, plain p -> biased (pdrive p) ->
  match pflux p with FluxAnisotropic _ _ _ _ => False | _ => True end ->
  in_cells (pb p) i j -> 0 < pmob p i j -> 0 < pwell p -> bias (pdrive p) (ptemp p) i j = m -> Rabs m < 32 * pwell p ->
  let s := 1 / 2 - m / (64 * pwell p) in 0 < s < 1 /\
  forall phi fold rold rhs x, uniform_near phi i j x -> evaluatePhaseRHS p phi fold rold = Some rhs ->
    (0 < x < s -> rhs i j < 0) /\ (s < x < 1 -> 0 < rhs i j) /\ (x = 0 \/ x = s \/ x = 1 -> rhs i j = 0).
Proof. exact bias_metastable. Qed.
Print Assumptions C74_metastable.

(** C74: from a bias of 32 W on, one phase takes over from every fraction. *)
Theorem C74_runaway : forall p i j phi fold rold rhs x, plain p -> biased (pdrive p) ->
  match pflux p with FluxAnisotropic _ _ _ _ => False | _ => True end ->
  in_cells (pb p) i j -> 0 < pmob p i j -> 0 < pwell p -> 0 < x < 1 -> uniform_near phi i j x -> evaluatePhaseRHS p phi fold rold = Some rhs ->
  (32 * pwell p <= bias (pdrive p) (ptemp p) i j -> 0 < rhs i j) /\ (bias (pdrive p) (ptemp p) i j <= - (32 * pwell p) -> rhs i j < 0).
Proof. exact bias_runaway. Qed.
Print Assumptions C74_runaway.

(** C74: the arctangent bias never reaches 32 W if alpha <= 64 W, whatever the undercooling. *)
Theorem C74_utrc_bounded : forall alpha g te temp i j W, 0 < alpha -> alpha <= 64 * W -> Rabs (bias (BiasUTRC alpha g te) temp i j) < 32 * W.
Proof. exact utrc_bounded. Qed.
Print Assumptions C74_utrc_bounded.

(** C74: the bias is towards the solid below the equilibrium temperature, towards the liquid above, and vanishes at it. *)
Theorem C74_sign : forall d temp i j, biased d ->
  match d with BiasUTRC a g _ => 0 < a /\ 0 < g | BiasBeckermann a _ => 0 < a | _ => True end ->
  let te := match d with BiasUTRC _ _ te => te i j | BiasBeckermann _ te => te i j | _ => 0 end in
  (temp i j < te -> 0 < bias d temp i j) /\ (temp i j = te -> bias d temp i j = 0) /\ (te < temp i j -> bias d temp i j < 0).
Proof. exact bias_sign. Qed.
Print Assumptions C74_sign.

Example C74_ex : exists rhs, evaluatePhaseRHS (mk_problem unit_box FluxSimple 1 1 zero2 None None (BiasBeckermann 40 one2) one2) (fun _ _ => 1 / 4) zero2 zero2 = Some rhs /\
  0 < rhs 0%Z 0%Z /\
  exists rhs, evaluatePhaseRHS (mk_problem unit_box FluxSimple 1 1 zero2 None None (BiasUTRC 40 1 one2) one2) (fun _ _ => 1 / 4) zero2 zero2 = Some rhs /\
  rhs 0%Z 0%Z < 0.
Proof.
  set (p := mk_problem unit_box FluxSimple 1 1 zero2 None None (BiasBeckermann 40 one2) one2).
  set (p' := mk_problem unit_box FluxSimple 1 1 zero2 None None (BiasUTRC 40 1 one2) one2).
  pose proof (rhs_value p (fun _ _ => 1 / 4) zero2 zero2) as V. change (types_known p) with true in V. cbv iota in V. destruct V as (r & E & _).
  pose proof (rhs_value p' (fun _ _ => 1 / 4) zero2 zero2) as V. change (types_known p') with true in V. cbv iota in V. destruct V as (r' & E' & _).
  assert (Hu : uniform_near (fun _ _ => 1 / 4) 0 0 (1 / 4)) by (intros k l _; reflexivity).
  exists r. split; [exact E |]. split.
  - apply (bias_runaway p 0 0 (fun _ _ => 1 / 4) zero2 zero2 r (1 / 4) (conj eq_refl eq_refl) I I); auto; try (split; cbn; lia); cbn; unfold one2, zero2; lra.
  - exists r'. split; [exact E' |]. rewrite (biased_rhs p' (fun _ _ => 1 / 4) zero2 zero2 r' 0 0 (1 / 4) (conj eq_refl eq_refl) I I) by (auto; split; cbn; lia).
    cbn [p' pmob pdrive ptemp bias pwell]. unfold one2, zero2. replace (1 * (1 - 0)) with 1 by ring. rewrite atan_1. pose proof PI_RGT_0.
    replace (40 / PI * (PI / 4)) with 10 by (field; lra). lra.
Qed.

(** C75: the driving force on several order parameters is minus the gradient of the bulk energy density shared in proportion to their squares. *)
Theorem C75_gradient : forall b n fl fa phi rhs i j p, (1 <= p <= n)%Z -> in_cells b i j -> squares n (phi i j) <> 0 ->
  derivable_pt_lim (fun x => multi_density n (fl i j) (fa i j) (with_component (phi i j) p x)) (phi i j p)
    (- (phaserhs_fenergy_multiorderp b n fl fa phi rhs i j p - rhs i j p)).
Proof. exact multi_gradient. Qed.
Print Assumptions C75_gradient.

(** C75: the forces weighted by the order parameters add up to zero, so the driving force leaves the sum of their squares unchanged. *)
Theorem C75_balance : forall b n fl fa phi rhs i j, (1 <= n)%Z -> in_cells b i j -> squares n (phi i j) <> 0 ->
  sumZ 1 n (fun p => phi i j p * (phaserhs_fenergy_multiorderp b n fl fa phi rhs i j p - rhs i j p)) = 0.
Proof. exact multi_balance. Qed.
Print Assumptions C75_balance.

(** C75: nothing else is written. *)
Theorem C75_only : forall b n fl fa phi rhs i j p, ~ (in_cells b i j /\ (1 <= p <= n)%Z) -> (1 <= n)%Z ->
  phaserhs_fenergy_multiorderp b n fl fa phi rhs i j p = rhs i j p.
Proof. exact multi_others. Qed.
Print Assumptions C75_only.

Example C75_ex : phaserhs_fenergy_multiorderp unit_box 2 one2 zero2 (fun _ _ _ => 1) (fun _ _ _ => 0) 0%Z 0%Z 1%Z = 1 / 2 /\
  phaserhs_fenergy_multiorderp unit_box 2 one2 zero2 (fun _ _ _ => 1) (fun _ _ _ => 0) 0%Z 0%Z 2%Z = - (1 / 2) /\ multi_density 2 1 0 (fun _ => 1) = 1 / 2.
Proof.
  assert (S1 : squares 1 (fun _ => 1) = 1) by (unfold squares; rewrite sum_one; ring).
  assert (S2 : squares 2 (fun _ => 1) = 2) by (rewrite squares_split by lia; change (2 - 1)%Z with 1%Z; rewrite S1; ring).
  split; [| split].
  - rewrite multi_val by (try lia; try (split; cbn; lia); rewrite S2; lra). unfold multi_force. cbn [Z.eqb Pos.eqb]. rewrite S2. unfold one2, zero2. field.
  - rewrite multi_val by (try lia; try (split; cbn; lia); rewrite S2; lra). unfold multi_force. cbn [Z.eqb Pos.eqb]. change (2 - 1)%Z with 1%Z. rewrite S1, S2. unfold one2, zero2. field.
  - unfold multi_density. change (2 - 1)%Z with 1%Z. rewrite S1, S2. field.
Qed.
