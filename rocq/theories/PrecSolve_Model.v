(** The preconditioner that CVODE calls: which options of the input file select
    its blocks, the multigrid driver that solves one block, and the callback
    CVSpgmrPrecondSolve that puts the blocks together.
    Models source/QuatIntegrator.cc lines 426-553 (setupPreconditioners),
    3391-3905 (the block solves and the callback), source/samrai/FACPreconditioner.cc
    lines 267-465, 580-675 (the FAC driver), the part of source/QuatSysSolver.cc
    lines 296-348 and source/DeltaTemperatureFreeEnergyStrategy.cc lines 143-182
    with source/fortran/2d/quatrhs.m4 lines 944-982.
    Simplifications: doubles are reals; an array on the hierarchy is a function
    of the level and of the position in the level's array (cells and, for the
    concentration and the quaternion, components); ghost cells are not
    represented, so that the two refine schedules of lines 3799-3817 and
    3856-3876 are copies.  The operations on one level (residual, smoothing,
    coarsest solve, restriction, prolongation, norm) are parameters.  The
    coarsest level is level 0, as at all calls in QuatIntegrator.cc.  A failed
    assertion gives [None]; timers, printing and convergence factors are left out. *)
From Coq Require Import Reals List Bool Arith ZArith.
Import ListNotations.
Open Scope R_scope.

(** an array of one level, and an array on all levels *)
Definition field := nat -> R.
Definition vec := nat -> field.

(** solv::SAMRAIVectorReal::setToScalar(0.0), math::HierarchyCellDataOpsReal::setToScalar(id, 0.) *)
Definition zero : vec := fun _ _ => 0.
(** data of one level replaced (all the operations of FACOperatorStrategy that write one level) *)
Definition on_level (v : vec) (ln : nat) (x : field) : vec := fun k => if k =? ln then x else v k.
(** math::HierarchyDataOpsReal::add (FACPreconditioner.cc:357) *)
Definition vadd (a b : vec) : vec := fun k i => a k i + b k i.
(** cellops.axpy(dst, alpha, x, y): alpha x + y (QuatIntegrator.cc:3420, 3505, 3617) *)
Definition axpy (alpha : R) (x y : vec) : vec := fun k i => alpha * x k i + y k i.

(** What FACPreconditioner asks from its FACOperatorStrategy (EllipticFACOps.cc).
    [resid ln u f]: computeCompositeResidualOnLevel(.., u, f, ln, false), lines 1593-1752;
    [err_resid]: the same with homogeneous boundary conditions (true);
    [smooth sweeps ln e r]: smoothError; [coarsest e r]: solveCoarsestLevel, both give e on their level;
    [prolong ln e]: prolongErrorAndCorrect, gives e on level ln;
    [restrict_sol fine coarse], [restrict_res fine coarse]: restrictSolution, restrictResidual, lines 948-984;
    [norm]: computeResidualNorm, lines 1760-1787. *)
Record facops := {
  resid : nat -> vec -> vec -> field;
  err_resid : nat -> vec -> vec -> field;
  smooth : nat -> nat -> vec -> vec -> field;
  coarsest : vec -> vec -> field;
  prolong : nat -> vec -> field;
  restrict_sol : field -> field -> field;
  restrict_res : field -> field -> field;
  norm : vec -> R }.

(** Settings of one FACPreconditioner: finest level number, max_cycles,
    relative_residual_tol, num_pre_sweeps, num_post_sweeps (FACPreconditioner.cc:75-109). *)
Record settings := { finest : nat; max_cycles : nat; relative_tol : R; pre_sweeps : nat; post_sweeps : nat }.

(** The three arrays of one cycle: d_error_vector, d_residual_vector, d_tmp_residual. *)
Record arrays := { err : vec; res : vec; tmp_res : vec }.

(** one step down: FACPreconditioner.cc:454-458 and 612-625 *)
Definition descend (o : facops) (s : settings) (ln : nat) (a : arrays) : arrays :=
  let e := on_level (err a) ln (smooth o (pre_sweeps s) ln (err a) (res a)) in
  let t := on_level (tmp_res a) ln (err_resid o ln e (res a)) in
  let r := on_level (res a) (ln - 1) (restrict_res o (t ln) (res a (ln - 1)%nat)) in
  {| err := e; res := r; tmp_res := t |}.
(** the coarsest level: FACPreconditioner.cc:450 and 641 *)
Definition bottom (o : facops) (a : arrays) : arrays :=
  {| err := on_level (err a) 0 (coarsest o (err a) (res a)); res := res a; tmp_res := tmp_res a |}.
(** one step up: FACPreconditioner.cc:460-462 and 646-656 *)
Definition ascend (o : facops) (s : settings) (ln : nat) (a : arrays) : arrays :=
  let e := on_level (err a) ln (prolong o ln (err a)) in
  let e' := on_level e ln (smooth o (post_sweeps s) ln e (res a)) in
  {| err := e'; res := res a; tmp_res := tmp_res a |}.

(** facCycle_Recursive, FACPreconditioner.cc:431-465, called with ln = lmax *)
Fixpoint facCycle_Recursive (o : facops) (s : settings) (ln : nat) (a : arrays) : arrays :=
  match ln with
  | O => bottom o a
  | S l => ascend o s ln (facCycle_Recursive o s l (descend o s ln a))
  end.

(** the descent loop of facCycle, FACPreconditioner.cc:608-626 *)
Fixpoint descent (o : facops) (s : settings) (ln : nat) (a : arrays) : arrays :=
  match ln with O => a | S l => descent o s l (descend o s ln a) end.
(** the ascent loop of facCycle, FACPreconditioner.cc:631-658: [todo] levels from [ln] on *)
Fixpoint ascent (o : facops) (s : settings) (todo ln : nat) (a : arrays) : arrays :=
  match todo with
  | O => a
  | S t => ascent o s t (S ln) (if ln =? 0 then bottom o a else ascend o s ln a)
  end.
(** facCycle, FACPreconditioner.cc:596-659 (d_algorithm_choice == "pernice") *)
Definition facCycle (o : facops) (s : settings) (a : arrays) : arrays :=
  ascent o s (S (finest s)) 0 (descent o s (finest s) a).

(** the loop of computeFullCompositeResidual over levels ln-1, ..., 0, FACPreconditioner.cc:677-687 *)
Fixpoint residual_down (o : facops) (f : vec) (ln : nat) (ur : vec * vec) : vec * vec :=
  match ln with
  | O => ur
  | S l =>
    let (u, r) := ur in
    let u1 := on_level u l (restrict_sol o (u (S l)) (u l)) in
    let r1 := on_level r l (resid o l u1 f) in
    let r2 := on_level r1 l (restrict_res o (r1 (S l)) (r1 l)) in
    residual_down o f l (u1, r2)
  end.
(** computeFullCompositeResidual, FACPreconditioner.cc:670-693; also changes u *)
Definition full_residual (o : facops) (s : settings) (u f r : vec) : vec * vec :=
  residual_down o f (finest s) (u, on_level r (finest s) (resid o (finest s) u f)).

(** "Synchronize solution across levels", FACPreconditioner.cc:364-366 *)
Fixpoint synchronize (o : facops) (ln : nat) (u : vec) : vec :=
  match ln with O => u | S l => synchronize o l (on_level u l (restrict_sol o (u (S l)) (u l))) end.

(** State of the do loop of solveSystem: u, d_residual_vector, d_tmp_residual, d_residual_norm, d_number_iterations. *)
Record loop_state := { sol_u : vec; sol_r : vec; sol_tmp : vec; sol_norm : R; cycles : nat }.

(** one pass of the do loop, FACPreconditioner.cc:331-395, d_algorithm_choice == "default" *)
Definition one_cycle (o : facops) (s : settings) (f : vec) (st : loop_state) : loop_state :=
  let a := facCycle_Recursive o s (finest s) {| err := zero; res := sol_r st; tmp_res := sol_tmp st |} in
  let u1 := synchronize o (finest s) (vadd (sol_u st) (err a)) in
  let ur := full_residual o s u1 f (res a) in
  {| sol_u := fst ur; sol_r := snd ur; sol_tmp := tmp_res a; sol_norm := norm o (snd ur); cycles := S (cycles st) |}.

(** the do loop, FACPreconditioner.cc:323-410; [left] is d_max_iterations minus the number of cycles done *)
Fixpoint do_loop (o : facops) (s : settings) (f : vec) (tol : R) (left : nat) (st : loop_state) : loop_state :=
  let st' := one_cycle o s f st in
  match left with
  | O => st'
  | S l =>
    if Rlt_dec tol (sol_norm st') then
      match l with O => st' | S _ => do_loop o s f tol l st' end
    else st'
  end.

(** effective_residual_tolerance, FACPreconditioner.cc:305-312 *)
Definition effective_tolerance (o : facops) (s : settings) (tol : R) (f : vec) : R :=
  if Rle_dec 0 (relative_tol s) then
    let t := norm o f * relative_tol s in
    if Rlt_dec tol t then t else tol
  else tol.

(** FACPreconditioner::solveSystem, FACPreconditioner.cc:267-422, with residual
    tolerance [tol], guess [u], right-hand side [f] and old content [t] of
    d_tmp_residual; gives the last state and the returned boolean (line 421). *)
Definition solveSystem (o : facops) (s : settings) (tol : R) (u f t : vec) : loop_state * bool :=
  let ur := full_residual o s u f zero in
  let st0 := {| sol_u := fst ur; sol_r := snd ur; sol_tmp := t; sol_norm := norm o (snd ur); cycles := 0 |} in
  let st := do_loop o s f (effective_tolerance o s tol f) (max_cycles s) st0 in
  (st, if Rlt_dec (sol_norm st) (effective_tolerance o s tol f) then true else false).

(** The blocks: phase, third phase, quaternion, temperature, concentration. *)
Inductive block := Phase | Eta | Quat | Temp | Conc.
Definition block_eqb (a b : block) : bool :=
  match a, b with
  | Phase, Phase | Eta, Eta | Quat, Quat | Temp, Temp | Conc, Conc => true
  | _, _ => false
  end.

(** Members of QuatIntegrator that the callback looks at.  The four [.._solver]
    tell whether d_phase_sys_solver, ... exist; [delta_temperature]: the free
    energy is a DeltaTemperatureFreeEnergyStrategy. *)
Record config := {
  with_phase : bool; with_third_phase : bool; evolve_quat : bool; with_unsteady_temperature : bool; with_concentration : bool;
  norderp : nat; use_gradq_for_flux : bool; delta_temperature : bool;
  use_preconditioner : bool;
  phase_solver : bool; eta_solver : bool; temperature_solver : bool; conc_solver : bool; precondition_quat : bool;
  has_dquatdphi : bool; has_dTdphi : bool; has_dPhidT : bool }.

(** The operators set up by CVSpgmrPrecondSet: one FAC solver for each block,
    multiplyDTDPhiBlock (PhaseTemperatureFACOps.cc:174-178), multiplyDQuatDPhiBlock,
    the square root of the quaternion mobility (QuatFACOps divideMobilitySqrt,
    multiplyMobilitySqrt), and for the block dPhi/dT the derivative of the energy
    interpolation function and alpha = mobility*latentheat/tm (quatrhs.m4:968). *)
Record kernels := {
  ops : block -> facops; set : block -> settings;
  mulT : vec -> vec; mulQ : vec -> vec; sqrtM : vec;
  deriv_interp : R -> R; alpha : R }.

(** Patch data used by the callback: d_..._sol, d_..._rhs, the temporary of each
    FAC solver, and the output vector z ([z b d] is depth d of its component b). *)
Record mem := { sol : block -> vec; rhs : block -> vec; tmp : block -> vec; z : block -> nat -> vec }.
(** The input vector r. *)
Definition vector := block -> nat -> vec.

(** writing one of the arrays (copyData, axpy, setToScalar, copyDepthCellData) *)
Definition set_sol (m : mem) (b : block) (v : vec) : mem :=
  {| sol := fun c => if block_eqb c b then v else sol m c; rhs := rhs m; tmp := tmp m; z := z m |}.
Definition set_rhs (m : mem) (b : block) (v : vec) : mem :=
  {| sol := sol m; rhs := fun c => if block_eqb c b then v else rhs m c; tmp := tmp m; z := z m |}.
Definition set_tmp (m : mem) (b : block) (v : vec) : mem :=
  {| sol := sol m; rhs := rhs m; tmp := fun c => if block_eqb c b then v else tmp m c; z := z m |}.
Definition set_z (m : mem) (b : block) (d : nat) (v : vec) : mem :=
  {| sol := sol m; rhs := rhs m; tmp := tmp m;
     z := fun c e => if block_eqb c b && (e =? d)%nat then v else z m c e |}.

(** EllipticFACSolver::solveSystem(sol, rhs), EllipticFACSolver.cc:218-266, after
    setToScalar(sol, 0.) and setResidualTolerance(delta) *)
Definition solve_block (K : kernels) (delta : R) (b : block) (m : mem) : mem * bool :=
  let m0 := set_sol m b zero in
  let sc := solveSystem (ops K b) (set K b) delta (sol m0 b) (rhs m0 b) (tmp m0 b) in
  (set_tmp (set_sol m0 b (sol_u (fst sc))) b (sol_tmp (fst sc)), snd sc).

(** "retcode = (converged == 0 && retcode == 0) ? 0 : 1", e.g. QuatIntegrator.cc:3699 *)
Definition merge (converged retcode : Z) : Z := if ((converged =? 0) && (retcode =? 0))%Z then 0%Z else 1%Z.
(** "converged ? 0 : 1", e.g. QuatIntegrator.cc:3474 *)
Definition code (converged : bool) : Z := if converged then 0%Z else 1%Z.

(** applydPhidTBlock, DeltaTemperatureFreeEnergyStrategy.cc:143-182 and
    quatrhs.m4:970-979; the temperature array is not passed to the Fortran routine *)
Definition applydPhidTBlock (K : kernels) (temperature phase : vec) : vec :=
  fun ln i => alpha K * deriv_interp K (phase ln i).

(** the loop over depths, QuatIntegrator.cc:3428-3444: depths [d], ..., [d + todo - 1]; also counts nconverged *)
Fixpoint phase_depths (c : config) (K : kernels) (r : vector) (delta : R) (todo d : nat) (m : mem) (n : nat) : mem * nat :=
  match todo with
  | O => (m, n)
  | S t =>
    let m1 := if has_dPhidT c then m else set_rhs m Phase (r Phase d) in
    let mb := solve_block K delta Phase m1 in
    phase_depths c K r delta t (S d) (set_z (fst mb) Phase d (sol (fst mb) Phase)) (if snd mb then S n else n)
  end.

(** PhasePrecondSolve, QuatIntegrator.cc:3391-3448 *)
Definition PhasePrecondSolve (c : config) (K : kernels) (r : vector) (delta gamma : R) (m : mem) : option (mem * Z) :=
  let start :=
    if has_dPhidT c then
      if (norderp c =? 1)%nat && delta_temperature c then
        Some (set_rhs m Phase (axpy (-1 * gamma) (applydPhidTBlock K (sol m Temp) (z m Phase 0%nat)) (r Phase 0%nat)))
      else None
    else Some m in
  match start with
  | None => None
  | Some m0 =>
    let mn := phase_depths c K r delta (norderp c) 0 m0 0 in
    Some (fst mn, if (snd mn =? norderp c)%nat then 0%Z else 1%Z)
  end.

(** applyPhasePreconditioner, QuatIntegrator.cc:3774-3829.  Line 3803 copies all
    depths of z into an array of depth 1; only one depth is modelled. *)
Definition applyPhasePreconditioner (c : config) (K : kernels) (r : vector) (delta gamma : R) (m : mem) : option (mem * Z) :=
  if phase_solver c then
    match PhasePrecondSolve c K r delta gamma m with
    | Some (m', converged) => Some (m', merge converged 0)
    | None => None
    end
  else
    let m1 := {| sol := sol m; rhs := rhs m; tmp := tmp m; z := fun b => if block_eqb b Phase then r Phase else z m b |} in
    if has_dquatdphi c || has_dTdphi c then
      if (norderp c =? 1)%nat then Some (set_sol m1 Phase (z m1 Phase 0%nat), 0%Z) else None
    else Some (m1, 0%Z).

(** EtaPrecondSolve, QuatIntegrator.cc:3452-3480 *)
Definition EtaPrecondSolve (K : kernels) (r : vector) (delta : R) (m : mem) : mem * Z :=
  let mb := solve_block K delta Eta (set_rhs m Eta (r Eta 0%nat)) in
  (set_z (fst mb) Eta 0 (sol (fst mb) Eta), code (snd mb)).

(** TemperaturePrecondSolve, QuatIntegrator.cc:3484-3544; without a phase the
    arrays d_phase_sol do not exist *)
Definition TemperaturePrecondSolve (c : config) (K : kernels) (r : vector) (delta gamma : R) (m : mem) : option (mem * Z) :=
  let start :=
    if has_dTdphi c then
      if with_phase c then Some (set_rhs m Temp (axpy gamma (mulT K (sol m Phase)) (r Temp 0%nat))) else None
    else Some (set_rhs m Temp (r Temp 0%nat)) in
  match start with
  | None => None
  | Some m0 =>
    let mb := solve_block K delta Temp m0 in
    Some (set_z (fst mb) Temp 0 (sol (fst mb) Temp), code (snd mb))
  end.

(** applyTemperaturePreconditioner, QuatIntegrator.cc:3833-3879 *)
Definition applyTemperaturePreconditioner (c : config) (K : kernels) (r : vector) (delta gamma : R) (m : mem) : option (mem * Z) :=
  if temperature_solver c then
    match TemperaturePrecondSolve c K r delta gamma m with
    | Some (m', converged) => Some (m', merge converged 0)
    | None => None
    end
  else
    let m1 := set_z m Temp 0 (r Temp 0%nat) in
    Some (if has_dPhidT c then set_sol m1 Temp (z m1 Temp 0%nat) else m1, 0%Z).

(** ConcentrationPrecondSolve, applyConcentrationPreconditioner, QuatIntegrator.cc:3548-3592, 3883-3905 *)
Definition applyConcentrationPreconditioner (c : config) (K : kernels) (r : vector) (delta : R) (m : mem) : mem * Z :=
  if conc_solver c then
    let mb := solve_block K delta Conc (set_rhs m Conc (r Conc 0%nat)) in
    (set_z (fst mb) Conc 0 (sol (fst mb) Conc), code (snd mb))
  else (set_z m Conc 0 (r Conc 0%nat), 0%Z).

(** QuatFACOps::divideMobilitySqrt and multiplyMobilitySqrt (QuatSysSolver.cc:308, 328) *)
Definition divide (a b : vec) : vec := fun k i => a k i / b k i.
Definition multiply (a b : vec) : vec := fun k i => a k i * b k i.

(** QuatPrecondSolve, QuatIntegrator.cc:3596-3647, with QuatSysSolver::solveSystem, QuatSysSolver.cc:296-348 *)
Definition QuatPrecondSolve (c : config) (K : kernels) (r : vector) (delta gamma : R) (m : mem) : option (mem * Z) :=
  let start :=
    if has_dquatdphi c then
      if use_gradq_for_flux c then None
      else Some (set_rhs m Quat (axpy gamma (mulQ K (sol m Phase)) (r Quat 0%nat)))
    else Some (set_rhs m Quat (r Quat 0%nat)) in
  match start with
  | None => None
  | Some m0 =>
    let m1 := set_rhs m0 Quat (divide (rhs m0 Quat) (sqrtM K)) in
    let mb := solve_block K delta Quat m1 in
    let m2 := set_sol (fst mb) Quat (multiply (sol (fst mb) Quat) (sqrtM K)) in
    Some (set_z m2 Quat 0 (sol m2 Quat), code (snd mb))
  end.

(** one block of the callback: the new return code is merged with the old one *)
Definition then_ (x : option (mem * Z)) (f : mem -> option (mem * Z)) : option (mem * Z) :=
  match x with
  | None => None
  | Some (m, retcode) =>
    match f m with None => None | Some (m', converged) => Some (m', merge converged retcode) end
  end.

(** CVSpgmrPrecondSolve, QuatIntegrator.cc:3668-3770 *)
Definition CVSpgmrPrecondSolve (c : config) (K : kernels) (r : vector) (gamma delta : R) (lr : Z) (m : mem) : option (mem * Z) :=
  if negb (use_preconditioner c) then None
  else if ((lr =? 1) || (lr =? 2))%Z then
    let x0 := Some (m, 0%Z) in
    let x1 := if with_unsteady_temperature c && has_dPhidT c
              then then_ x0 (applyTemperaturePreconditioner c K r delta gamma) else x0 in
    let x2 := if with_phase c then then_ x1 (applyPhasePreconditioner c K r delta gamma) else x1 in
    let x3 := if with_third_phase c then
                then_ x2 (fun m => Some (if eta_solver c then EtaPrecondSolve K r delta m else (set_z m Eta 0 (r Eta 0%nat), 0%Z)))
              else x2 in
    let x4 := if evolve_quat c then
                then_ x3 (fun m => if precondition_quat c then QuatPrecondSolve c K r delta gamma m
                                   else Some (set_z m Quat 0 (r Quat 0%nat), 0%Z))
              else x3 in
    let x5 := if with_unsteady_temperature c && negb (has_dPhidT c)
              then then_ x4 (applyTemperaturePreconditioner c K r delta gamma) else x4 in
    if with_concentration c then then_ x5 (fun m => Some (applyConcentrationPreconditioner c K r delta m)) else x5
  else Some ({| sol := sol m; rhs := rhs m; tmp := tmp m; z := r |}, 0%Z).

(** ** The input file *)

(** Section Preconditioner of the integrator's input, QuatIntegrator.cc:439-482; [None]: the entry is not there. *)
Record section := {
  in_enabled : option bool; in_phase : option bool; in_quat : option bool; in_eta : option bool;
  in_conc : option bool; in_temperature : option bool;
  in_dquatdphi : option bool; in_dTdphi : option bool; in_dPhidT : option bool }.

(** tbox::Database::getBoolWithDefault *)
Definition getBool (x : option bool) (default : bool) : bool := match x with Some b => b | None => default end.

(** What the model evolves (constructor of QuatIntegrator, lines 227-246) and
    concRHSstrategyIsKKS. *)
Record physics := {
  p_phase : bool; p_third_phase : bool; p_quat : bool; p_heat : bool; p_steady : bool; p_conc : bool;
  p_norderp : nat; p_gradq_for_flux : bool; p_delta_temperature : bool; p_kks : bool }.

(** Flags as setupPreconditioners leaves them before creating the solvers, lines 432-485. *)
Record flags := {
  f_use : bool; f_phase : bool; f_quat : bool; f_eta : bool; f_conc : bool; f_temperature : bool;
  f_dquatdphi : bool; f_dTdphi : bool; f_dPhidT : bool }.

(** QuatIntegrator.cc:114-116 and 432-485 *)
Definition read_flags (p : physics) (inp : option section) : flags :=
  let t0 := negb (p_steady p) in
  let f := match inp with
    | None => {| f_use := true; f_phase := true; f_quat := true; f_eta := true; f_conc := true; f_temperature := t0;
                 f_dquatdphi := true; f_dTdphi := false; f_dPhidT := false |}
    | Some s =>
      if getBool (in_enabled s) true then
        {| f_use := true;
           f_phase := getBool (in_phase s) true; f_quat := getBool (in_quat s) true; f_eta := getBool (in_eta s) true;
           f_conc := getBool (in_conc s) true; f_temperature := getBool (in_temperature s) t0;
           f_dquatdphi := getBool (in_dquatdphi s) (p_kks p);
           f_dTdphi := getBool (in_dTdphi s) false; f_dPhidT := getBool (in_dPhidT s) false |}
      else
        {| f_use := false; f_phase := false; f_quat := false; f_eta := false; f_conc := false; f_temperature := false;
           f_dquatdphi := true; f_dTdphi := false; f_dPhidT := false |}
    end in
  if p_phase p then f
  else {| f_use := f_use f; f_phase := f_phase f; f_quat := f_quat f; f_eta := f_eta f; f_conc := f_conc f;
          f_temperature := f_temperature f; f_dquatdphi := false; f_dTdphi := f_dTdphi f; f_dPhidT := f_dPhidT f |}.

(** setupPreconditioners, QuatIntegrator.cc:426-553 *)
Definition setupPreconditioners (p : physics) (inp : option section) : config :=
  let f := read_flags p inp in
  let unsteady := p_heat p && negb (p_steady p) in
  {| with_phase := p_phase p; with_third_phase := p_third_phase p; evolve_quat := p_quat p;
     with_unsteady_temperature := unsteady; with_concentration := p_conc p;
     norderp := p_norderp p; use_gradq_for_flux := p_gradq_for_flux p; delta_temperature := p_delta_temperature p;
     use_preconditioner := f_use f;
     phase_solver := f_use f && (p_phase p && f_phase f);
     eta_solver := f_use f && (p_third_phase p && f_eta f);
     temperature_solver := f_use f && (unsteady && f_temperature f);
     conc_solver := f_use f && (p_conc p && f_conc f);
     precondition_quat := f_quat f;
     has_dquatdphi := f_dquatdphi f; has_dTdphi := f_dTdphi f; has_dPhidT := f_dPhidT f |}.
