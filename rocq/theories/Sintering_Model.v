(** Whole right-hand sides of the Cahn-Hilliard and of the sintering (Wang 2006) equations (2D, one patch), from the input
    parameters to the rates given to the time integrator, and the rigid motion of the grains.  Order parameters are
    numbered from 1.  Fields are total functions of the cell index; exact reals. *)
From Coq Require Import Reals ZArith List Bool.
From Verif Require Import Grid_Model Transport_Model Forces_Model PhaseFlow_Model.
Import ListNotations.
Open Scope R_scope.

(** ** Composition of a Cahn-Hilliard run *)
(** CompositionRHSStrategyFactory.h:82-88: the flux strategy gets mobility 1; CahnHilliardDoubleWell.cc:70-117
    computeFluxOnPatch (fillAll(0.), then add_cahnhilliarddoublewell_flux); QuatIntegrator.cc:2653-2668: computerhsconcentration
    with the mobility *)
Definition cahn_hilliard_rhs (b : pbox) (mobility ca cb kappa well_scale : R) (c rhs : arr2) : arr2 :=
  let flux := add_cahnhilliard_flux (lo0 b) (hi0 b) (lo1 b) (hi1 b) (h1 b) (h2 b) c 1 ca cb well_scale kappa
                (fun _ _ => 0, fun _ _ => 0) in
  computerhsconcentration (lo0 b) (hi0 b) (lo1 b) (hi1 b) (h1 b) (h2 b) (fst flux) (snd flux) mobility rhs.

(** ** Input parameters *)
(** QuatModelParameters.cc:836-848: interface energy sigma and width delta *)
Definition interface_epsilon (sigma delta : R) : R := sqrt (6 * sigma * delta).
(** QuatModelParameters.cc:437-457 readWangSintering: (A, B, beta_rho) *)
Definition read_wang (sigma delta a_in b_in beta_in : R) : R * R * R :=
  if Rlt_dec 0 sigma then if Rlt_dec 0 delta then (5 * sigma / (4 * delta), sigma / (4 * delta), 3 * delta * sigma)
                          else (a_in, b_in, beta_in)
  else (a_in, b_in, beta_in).
(** QuatModelParameters.cc:818-828: (norderp_A, norderp_B) of norderp and the optional norderp_A *)
Definition read_norder (norderp : Z) (a_in : option Z) : Z * Z :=
  let def := if (norderp =? 1)%Z then 1%Z else (norderp - 1)%Z in
  let na := match a_in with Some a => a | None => def end in
  if (0 <? na)%Z then (na, let nb := (norderp - na - 1)%Z in if (nb <? 0)%Z then 0%Z else nb) else (na, (-1)%Z).

(** ** Sintering *)
Record sinter := mk_sinter {
  sb : pbox; sn : Z;             (* box, number of order parameters *)
  seps : R;                      (* epsilon_phi *)
  sA : R; sB : R; skappa : R;    (* WangSintering A, B, beta *)
  scm : R;                       (* mobility of the composition *)
  spm : arr2;                    (* mobility of the order parameters *)
  sd0 : arr2; sd1 : arr2;        (* diffusion coefficients on the faces *)
  skind : flux_kind }.

(** PhaseFluxStrategySimple.cc:50-66 (same loop in the other strategies): one component after the other *)
Definition components (n : Z) (f : arr2 -> arr2 -> arr2) (phi old : arr3) : arr3 :=
  fun i j p => if ((1 <=? p) && (p <=? n))%Z then f (fun k l => phi k l p) (fun k l => old k l p) i j else old i j p.
(** MultiplyOperation applied to each depth on the box, SinteringUWangRHSStrategy.cc:222-238 *)
Definition times_mobility (b : pbox) (n : Z) (mob : arr2) (rhs : arr3) : arr3 :=
  do_loop 1 n (fun ip => do_cells (lo0 b) (hi0 b) (lo1 b) (hi1 b) (fun i j r => upd3 r i j ip (r i j ip * mob i j))) rhs.
(** SinteringUWangRHSStrategy::evaluateRHS on a patch, SinteringUWangRHSStrategy.cc:79-239, with d_beta = epsilon_phase
    (line 29) and the fluxes of PhaseFluxStrategyFactory.h:16-37 *)
Definition wang_phase_rhs (p : sinter) (c : arr2) (phi fx_old fy_old : arr3) (work : arr2) (rhs : arr3) : arr3 :=
  let b := sb p in
  let eps := flux_epsilon (seps p) (sn p) false in
  let fx := components (sn p) (flux_x (skind p) b eps) phi fx_old in
  let fy := components (sn p) (flux_y (skind p) b eps) phi fy_old in
  let r := computerhs_wang_sintering (lo0 b) (hi0 b) (lo1 b) (hi1 b) (sn p) (h1 b) (h2 b) fx fy (seps p) (sB p) phi c work rhs in
  times_mobility b (sn p) (spm p) r.
(** CompositionRHSStrategyFactory.h:89-97: the flux strategy gets the mobility of the composition;
    WangSinteringCompositionRHSStrategy.cc:82-147 computeFluxOnPatch; QuatIntegrator.cc:2653-2668 *)
Definition wang_conc_rhs (p : sinter) (c : arr2) (phi : arr3) (work : arr2 * arr2) (rhs : arr2) : arr2 :=
  let b := sb p in
  let flux := add_wang_sintering_flux (lo0 b) (hi0 b) (lo1 b) (hi1 b) (h1 b) (h2 b) c (sd0 p) (sd1 p) (sn p) phi
                (scm p) (sA p) (sB p) (skappa p) work (fun _ _ => 0, fun _ _ => 0) in
  computerhsconcentration (lo0 b) (hi0 b) (lo1 b) (hi1 b) (h1 b) (h2 b) (fst flux) (snd flux) (scm p) rhs.

(** ** Rigid motion of the grains *)
(** QuatIntegrator.cc:2496-2517: force on grain i (from 1); pair i j d is the pair force, ext the external force;
    nop = norderp_A + norderp_B; the pair forces are summed for the first norderp - 1 grains only *)
Definition rb_force (norderp nop : Z) (ext : Z -> R) (pair : Z -> Z -> Z -> R) (i d : Z) : R :=
  if (i <=? norderp - 1)%Z then do_loop 1 nop (fun j f => if (j =? i)%Z then f else f + pair i j d) (ext d) else ext d.
(** RigidBodyMotionRHS.cc:24-50 (integralDepthCellData, velocities); volume of grain i *)
Definition grain_volume (b : pbox) (weight : arr2) (phi : arr3) (i : Z) : R :=
  do_loop (lo1 b) (hi1 b) (fun l s => do_loop (lo0 b) (hi0 b) (fun k s => s + phi k l i * weight k l) s) 0.
Definition rb_velocity (norderp nop : Z) (mobility : R) (b : pbox) (weight : arr2) (phi : arr3) (ext : Z -> R)
    (pair : Z -> Z -> Z -> R) (i d : Z) : R :=
  rb_force norderp nop ext pair i d * (mobility / grain_volume b weight phi i).
(** RigidBodyMotionRHS.cc:76-92: the first depth - 1 fields *)
Definition rb_phase (b : pbox) (norderp : Z) (v : Z -> Z -> R) (phi rhs : arr3) : arr3 :=
  do_loop 1 (norderp - 1) (fun p r => fun i j q =>
    if (q =? p)%Z then addrbmotion (lo0 b) (hi0 b) (lo1 b) (hi1 b) (h1 b) (h2 b) (fun k l => phi k l p) (v p 0%Z) (v p 1%Z)
                         (fun k l => r k l p) i j
    else r i j q) rhs.
(** RigidBodyMotionConcRHS.cc:35-101: the same fields, summed into the composition *)
Definition rb_conc (b : pbox) (norderp : Z) (v : Z -> Z -> R) (phi : arr3) (rhs : arr2) : arr2 :=
  do_loop 1 (norderp - 1) (fun p r =>
    addrbmotion (lo0 b) (hi0 b) (lo1 b) (hi1 b) (h1 b) (h2 b) (fun k l => phi k l p) (v p 0%Z) (v p 1%Z) r) rhs.
