(** Cahn-Hilliard, sintering (Wang 2006) and multi-order-parameter rates in three dimensions and the rigid motion of the
    grains (one patch).  Order parameters are numbered from 1, they are the fourth index.  Fields are total functions,
    ghost widths are not modelled; exact reals.  The fluxes of the composition are those of Trap3_Model.v
    (3d/concentrationrhs.m4), of the order parameters gradient_flux3 of Flow3_Model.v (3d/quatrhs.m4:12-64). *)
From Coq Require Import Reals ZArith List Bool.
From Verif Require Import Grid_Model Transport_Model Trap3_Model.
From Verif Require PhaseFlow_Model Flow3_Model.
Open Scope R_scope.

(** 3d/concentrationrhs.m4:437-454 on the box of a patch *)
Definition conc_rhs3 (b : box3) (flux : arr3x3) (mobility : R) (rhs : arr3) : arr3 :=
  let '(flux0, flux1, flux2) := flux in
  computerhsconcentration3 (xl b) (xu b) (yl b) (yu b) (zl b) (zu b) (hx b) (hy b) (hz b) flux0 flux1 flux2 mobility rhs.
(** flux->fillAll(0.), CahnHilliardDoubleWell.cc:95, WangSinteringCompositionRHSStrategy.cc:120 *)
Definition no_flux : arr3x3 := (fun _ _ _ => 0, fun _ _ _ => 0, fun _ _ _ => 0).

(** CompositionRHSStrategyFactory.h:82-88 (the flux strategy gets mobility 1); CahnHilliardDoubleWell.cc:67-109 computeFluxOnPatch;
    QuatIntegrator.cc:2653-2668 *)
Definition cahn_hilliard_rhs3 (b : box3) (mobility ca cb kappa well_scale : R) (c rhs : arr3) : arr3 :=
  conc_rhs3 b (add_cahnhilliard_flux3 b c 1 ca cb well_scale kappa no_flux) mobility rhs.

(** a sintering problem *)
Record sinter3 := mk_sinter3 {
  tb : box3; tn : Z;             (* box, number of order parameters *)
  teps : R;                      (* epsilon_phi *)
  tA : R; tB : R; tkappa : R;    (* WangSintering A, B, beta *)
  tcm : R;                       (* mobility of the composition *)
  tpm : arr3;                    (* mobility of the order parameters *)
  tdiff : arr3x3 }.              (* diffusion coefficients on the faces *)

(** 3d/sintering.m4:62-84 (3d/multiorder.m4:64-86): sum of squares in each cell of the box *)
Definition phi2sum_box3 (b : box3) (norder : Z) (phi : arr4) (phi2sum : arr3) : arr3 :=
  let s := do_cells3 (xl b) (xu b) (yl b) (yu b) (zl b) (zu b) (fun i j k s => upd3 s i j k (phi i j k 1%Z * phi i j k 1%Z)) phi2sum in
  do_loop 2 norder (fun ip => do_cells3 (xl b) (xu b) (yl b) (yu b) (zl b) (zu b) (fun i j k s =>
    upd3 s i j k (s i j k + phi i j k ip * phi i j k ip))) s.

(** 3d/sintering.m4:57-112 computerhs_wang_sintering; the fluxes have the order parameter as fourth index *)
Definition computerhs_wang_sintering3 (b : box3) (norder : Z) (flux : arr4x3) (beta parameter_b : R) (phi : arr4)
  (conc phi2sum : arr3) (rhs : arr4) : arr4 :=
  let '(flux0, flux1, flux2) := flux in
  let dxinv := 1 / hx b in
  let dyinv := 1 / hy b in
  let dzinv := 1 / hz b in
  let phi2sum := phi2sum_box3 b norder phi phi2sum in
  do_loop 1 norder (fun ip => do_cells3 (xl b) (xu b) (yl b) (yu b) (zl b) (zu b) (fun i j k r =>
    let diff_term_x := (flux0 (i + 1)%Z j k ip - flux0 i j k ip) * dxinv in
    let diff_term_y := (flux1 i (j + 1)%Z k ip - flux1 i j k ip) * dyinv in
    let diff_term_z := (flux2 i j (k + 1)%Z ip - flux2 i j k ip) * dzinv in
    let diff_term := diff_term_x + diff_term_y + diff_term_z in
    let g_prime := (1 - conc i j k) * phi i j k ip - (2 - conc i j k) * phi i j k ip * phi i j k ip
                   + phi2sum i j k * phi i j k ip in
    upd4 r i j k ip (beta * diff_term - 12 * parameter_b * g_prime))) rhs.

(** 3d/multiorder.m4:59-117 computerhsmultiorder *)
Definition computerhsmultiorder3 (b : box3) (norder : Z) (flux : arr4x3) (dgamma m : R) (phi : arr4) (phi2sum : arr3) (rhs : arr4) : arr4 :=
  let '(flux0, flux1, flux2) := flux in
  let dxinv := 1 / hx b in
  let dyinv := 1 / hy b in
  let dzinv := 1 / hz b in
  let phi2sum := phi2sum_box3 b norder phi phi2sum in
  do_loop 1 norder (fun ip => do_cells3 (xl b) (xu b) (yl b) (yu b) (zl b) (zu b) (fun i j k r =>
    let diff_term_x := dxinv * (flux0 (i + 1)%Z j k ip - flux0 i j k ip) in
    let diff_term_y := dyinv * (flux1 i (j + 1)%Z k ip - flux1 i j k ip) in
    let diff_term_z := dzinv * (flux2 i j (k + 1)%Z ip - flux2 i j k ip) in
    let diff_term := diff_term_x + diff_term_y + diff_term_z in
    let r := upd4 r i j k ip diff_term in
    let g_prime := phi i j k ip * (phi i j k ip * phi i j k ip - 1) in
    let dsum := phi2sum i j k - phi i j k ip in
    let g_prime := g_prime + 2 * phi i j k ip * dgamma * dsum in
    upd4 r i j k ip (r i j k ip - m * g_prime))) rhs.

(** MultiplyOperation applied to each depth on the box, SinteringUWangRHSStrategy.cc:222-238, MultiOrderRHSStrategy.cc:246-258 *)
Definition times_mobility3 (b : box3) (n : Z) (mob : arr3) (rhs : arr4) : arr4 :=
  do_loop 1 n (fun ip => do_cells3 (xl b) (xu b) (yl b) (yu b) (zl b) (zu b) (fun i j k r => upd4 r i j k ip (r i j k ip * mob i j k))) rhs.
(** PhaseFluxStrategySimple.cc:50-66: gradient_flux for one component after the other *)
Definition component (a : arr4) (p : Z) : arr3 := fun i j k => a i j k p.
Definition gradient_fluxes (b : box3) (n : Z) (eps : R) (phi : arr4) (old : arr4x3) : arr4x3 :=
  let '(o0, o1, o2) := old in
  let f := fun p => Flow3_Model.gradient_flux3 b eps (component phi p) (component o0 p, component o1 p, component o2 p) in
  let pick := fun (a : arr4) (g : arr3x3 -> arr3) i j k p => if ((1 <=? p) && (p <=? n))%Z then g (f p) i j k else a i j k p in
  (pick o0 (fun s => fst (fst s)), pick o1 (fun s => snd (fst s)), pick o2 (fun s => snd s)).
(** SinteringUWangRHSStrategy::evaluateRHS on a patch, SinteringUWangRHSStrategy.cc:79-239, with d_beta = epsilon_phase
    (line 29) and the simple fluxes of PhaseFluxStrategyFactory.h:16-37 *)
Definition wang_phase_rhs3 (p : sinter3) (c : arr3) (phi : arr4) (old : arr4x3) (work : arr3) (rhs : arr4) : arr4 :=
  let b := tb p in
  let f := gradient_fluxes b (tn p) (PhaseFlow_Model.flux_epsilon (teps p) (tn p) false) phi old in
  times_mobility3 b (tn p) (tpm p) (computerhs_wang_sintering3 b (tn p) f (teps p) (tB p) phi c work rhs).
(** CompositionRHSStrategyFactory.h:89-97; WangSinteringCompositionRHSStrategy.cc:82-147; QuatIntegrator.cc:2653-2668 *)
Definition wang_conc_rhs3 (p : sinter3) (c : arr3) (phi : arr4) (work : arr3 * arr3) (rhs : arr3) : arr3 :=
  conc_rhs3 (tb p) (add_wang_sintering_flux3 (tb p) c (tdiff p) (tn p) phi (tcm p) (tA p) (tB p) (tkappa p) work no_flux) (tcm p) rhs.

(** 3d/rbmotion.m4:37-59 addrbmotion *)
Definition addrbmotion3 (b : box3) (phase : arr3) (v : Z -> R) (rhs : arr3) : arr3 :=
  let dxinv := 1 / 2 * v 0%Z / hx b in
  let dyinv := 1 / 2 * v 1%Z / hy b in
  let dzinv := 1 / 2 * v 2%Z / hz b in
  do_cells3 (xl b) (xu b) (yl b) (yu b) (zl b) (zu b) (fun i j k r =>
    let diff_x := dxinv * (phase (i + 1)%Z j k - phase (i - 1)%Z j k) in
    let diff_y := dyinv * (phase i (j + 1)%Z k - phase i (j - 1)%Z k) in
    let diff_z := dzinv * (phase i j (k + 1)%Z - phase i j (k - 1)%Z) in
    upd3 r i j k (r i j k - diff_x - diff_y - diff_z)) rhs.
(** RigidBodyMotionRHS.cc:85-97: the first depth - 1 fields *)
Definition rb_phase3 (b : box3) (norderp : Z) (v : Z -> Z -> R) (phi rhs : arr4) : arr4 :=
  do_loop 1 (norderp - 1) (fun p r => fun i j k q =>
    if (q =? p)%Z then addrbmotion3 b (component phi p) (v p) (component r p) i j k else r i j k q) rhs.
(** RigidBodyMotionConcRHS.cc:85-101: the same fields, summed into the composition *)
Definition rb_conc3 (b : box3) (norderp : Z) (v : Z -> Z -> R) (phi : arr4) (rhs : arr3) : arr3 :=
  do_loop 1 (norderp - 1) (fun p r => addrbmotion3 b (component phi p) (v p) r) rhs.
