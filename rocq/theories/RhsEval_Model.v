(** Model of one evaluation of the right-hand side: the order in which QuatIntegrator fills and
    reuses its arrays.

    Source: QuatIntegrator.cc:2396-2478, 2482-2806, 2992-3128, 3140-3291, 3297-3316;
    QuatIntegrator.h:274-328; QuatModel.cc:3630-3640, 3813-3827, 5302-5369;
    fortran/2d/grad.m4:209-264, fortran/3d/grad.m4:193-241; QuatModelParameters.cc:325-331, 414-423.

    Simplifications.  Doubles are reals, except in the array of front velocities the integrator owns,
    which is allocated and never assigned and so may hold NaN ([None]).  An array over the whole
    hierarchy is the list of its entries.  The formulas behind each array (modelled in the other files)
    are arbitrary functions in the record [kernels]: this file is about which arrays they are given.
    The Sundials vector is averaged to the coarse levels in place before use; that belongs to [k_fill].
    Noise is off ([Noise_Model] covers it), the moving-frame velocity is constant, and the third phase,
    which no input can switch on (QuatModelParameters.cc:120), is left out. *)

From Coq Require Import Reals ZArith List Bool.
Import ListNotations.
Local Open Scope R_scope.

Definition field := list R.

(** The components of a Sundials vector (QuatIntegrator.cc:3160-3167). *)
Record vec := mkVec { y_phase : field; y_quat : field; y_conc : field; y_temp : field }.

(** Switches of a run (QuatIntegrator.cc:208-243, 285-298; QuatIntegrator.h:274-279). *)
Record config := mkConfig {
  with_phase : bool;
  evolve_quat : bool;
  with_conc : bool;
  phase_concs : bool;      (* concentrationModelNeedsPhaseConcentrations() *)
  unsteady : bool;
  with_part : bool;
  aziz : bool;
  vel_flag : bool;         (* QuatModelParameters::with_velocity() *)
  lag : bool;
  antitrap : bool;
  moving : bool;
  heat : bool;
  rb : bool;
  rhs_visit : bool;
  unif_time : R;           (* uniform_diffusion_time_threshold *)
  qlen : Z;
  ndim : Z }.

(** QuatIntegrator.cc:238-241 *)
Definition compute_velocity (c : config) : bool := (with_part c && aziz c) || vel_flag c.

(** QuatIntegrator.h:274-279 *)
Definition need_dphidt (c : config) : bool := with_phase c && (antitrap c || moving c || heat c).

(** What with_velocity() is after reading the ModelParameters block, where the Aziz coefficient sets it
    (QuatModelParameters.cc:132, 325-331), and the Visit block, which overrides it when it has the key
    (QuatModelParameters.cc:414-423, read when visit output is active, QuatModel.cc:550-557). *)
Definition read_vel_flag (is_aziz visit_active : bool) (velocity_output : option bool) : bool :=
  if visit_active then match velocity_output with Some b => b | None => is_aziz end else is_aziz.

(** The formulas: each is what one strategy computes from the arrays it is given. *)
Record kernels := mkKernels {
  k_temp : R -> field;                                             (* setCurrentTemperature *)
  k_fill : R -> vec -> vec;                                        (* coarsenData and fillScratch *)
  k_gside : field -> field;                                        (* quaternion gradient on sides *)
  k_gmod : field -> field;                                         (* its modulus at cells *)
  k_pgrad : field -> field;                                        (* phase gradient at cells *)
  k_uniform : field -> field;                                      (* uniform partition coefficient of T *)
  k_aziz : field -> field -> field;                                (* Aziz coefficient of velocity and T *)
  k_pc : field -> option field -> field -> option field -> field -> field;
                                     (* phase concentrations of T, phase, conc, k and initial guess *)
  k_mob : R -> field -> option field -> option field -> option field -> field;
                                     (* mobilities of t, T, phase, conc, phase concentrations *)
  k_phase : R -> field -> field -> option field -> option field -> option field -> field -> option field -> field;
                                     (* phase rhs of t, T, phase, quat, conc, phase conc, mobility, modulus *)
  k_forces : field -> field;                                       (* rigid body forces of the phases *)
  k_move : field -> option field -> field -> field;                (* rigid body and moving frame terms *)
  k_dphi : R -> field -> field;                                    (* ghost filling of the phase rhs *)
  k_vel : field -> field -> field;                                 (* velocity of phase gradient, phase rhs *)
  k_quat : field -> option field -> field -> field -> field -> field -> field;
                                     (* quaternion rhs of T, phase, grad side, its copy, mobility, quat *)
  k_dconc : R -> field -> option field -> field -> option field -> field;
                                     (* composition diffusion of t, T, phase, conc, phase conc *)
  k_conc : field -> option field -> field -> option field -> field -> option field -> option field -> field;
                                     (* composition rhs of T, phase, conc, phase conc, D, dphidt, forces *)
  k_heat : field -> option field -> option field -> option field -> field
                                     (* temperature rhs of T, phase, conc, dphidt *) }.

(** The arrays that outlive a call. *)
Record mem := mkMem {
  m_temp : field; m_phase : field; m_quat : field; m_conc : field;   (* scratch arrays *)
  m_gside : field; m_gcopy : field; m_gmod : field;                  (* d_quat_grad_side(_copy), modulus *)
  m_pgrad : field;                                                   (* QuatModel::d_phase_grad_cell_id *)
  m_ptime : option R;                                                (* static old_time; None = NaN *)
  m_vel : field;                                                     (* QuatModel::d_velocity_id *)
  m_ivel : list (option R);                                          (* QuatIntegrator::d_velocity_id *)
  m_kpart : field; m_pc : field; m_mob : field;
  m_dphi : field; m_forces : field; m_dconc : field;
  m_vquat : field; m_vconc : field; m_vtemp : field                  (* *_rhs_visit arrays *) }.

Definition opt (b : bool) (f : field) : option field := if b then Some f else None.

Definition set_scratch (m : mem) (t p q cc : field) : mem :=
  mkMem t p q cc (m_gside m) (m_gcopy m) (m_gmod m) (m_pgrad m) (m_ptime m) (m_vel m) (m_ivel m)
    (m_kpart m) (m_pc m) (m_mob m) (m_dphi m) (m_forces m) (m_dconc m) (m_vquat m) (m_vconc m) (m_vtemp m).
Definition set_grad (m : mem) (gs gc gm : field) : mem :=
  mkMem (m_temp m) (m_phase m) (m_quat m) (m_conc m) gs gc gm (m_pgrad m) (m_ptime m) (m_vel m) (m_ivel m)
    (m_kpart m) (m_pc m) (m_mob m) (m_dphi m) (m_forces m) (m_dconc m) (m_vquat m) (m_vconc m) (m_vtemp m).
Definition set_pgrad (m : mem) (g : field) (t : option R) : mem :=
  mkMem (m_temp m) (m_phase m) (m_quat m) (m_conc m) (m_gside m) (m_gcopy m) (m_gmod m) g t (m_vel m) (m_ivel m)
    (m_kpart m) (m_pc m) (m_mob m) (m_dphi m) (m_forces m) (m_dconc m) (m_vquat m) (m_vconc m) (m_vtemp m).
Definition set_vel (m : mem) (v : field) : mem :=
  mkMem (m_temp m) (m_phase m) (m_quat m) (m_conc m) (m_gside m) (m_gcopy m) (m_gmod m) (m_pgrad m) (m_ptime m) v (m_ivel m)
    (m_kpart m) (m_pc m) (m_mob m) (m_dphi m) (m_forces m) (m_dconc m) (m_vquat m) (m_vconc m) (m_vtemp m).
Definition set_pc (m : mem) (k pc : field) : mem :=
  mkMem (m_temp m) (m_phase m) (m_quat m) (m_conc m) (m_gside m) (m_gcopy m) (m_gmod m) (m_pgrad m) (m_ptime m) (m_vel m) (m_ivel m)
    k pc (m_mob m) (m_dphi m) (m_forces m) (m_dconc m) (m_vquat m) (m_vconc m) (m_vtemp m).
Definition set_mob (m : mem) (mo : field) : mem :=
  mkMem (m_temp m) (m_phase m) (m_quat m) (m_conc m) (m_gside m) (m_gcopy m) (m_gmod m) (m_pgrad m) (m_ptime m) (m_vel m) (m_ivel m)
    (m_kpart m) (m_pc m) mo (m_dphi m) (m_forces m) (m_dconc m) (m_vquat m) (m_vconc m) (m_vtemp m).
Definition set_dphi (m : mem) (d f : field) : mem :=
  mkMem (m_temp m) (m_phase m) (m_quat m) (m_conc m) (m_gside m) (m_gcopy m) (m_gmod m) (m_pgrad m) (m_ptime m) (m_vel m) (m_ivel m)
    (m_kpart m) (m_pc m) (m_mob m) d f (m_dconc m) (m_vquat m) (m_vconc m) (m_vtemp m).
Definition set_dconc (m : mem) (d : field) : mem :=
  mkMem (m_temp m) (m_phase m) (m_quat m) (m_conc m) (m_gside m) (m_gcopy m) (m_gmod m) (m_pgrad m) (m_ptime m) (m_vel m) (m_ivel m)
    (m_kpart m) (m_pc m) (m_mob m) (m_dphi m) (m_forces m) d (m_vquat m) (m_vconc m) (m_vtemp m).
Definition set_visit (m : mem) (q cc t : field) : mem :=
  mkMem (m_temp m) (m_phase m) (m_quat m) (m_conc m) (m_gside m) (m_gcopy m) (m_gmod m) (m_pgrad m) (m_ptime m) (m_vel m) (m_ivel m)
    (m_kpart m) (m_pc m) (m_mob m) (m_dphi m) (m_forces m) (m_dconc m) q cc t.

Definition is_some_eq (o : option R) (t : R) : bool :=
  match o with Some s => if Req_EM_T t s then true else false | None => false end.

Definition is_lt (a b : R) : bool := if Rlt_dec a b then true else false.

(** QuatIntegrator.h:321-328 *)
Definition setTemperatureField (c : config) (K : kernels) (t : R) (m : mem) : mem :=
  if unsteady c then m else set_scratch m (k_temp K t) (m_phase m) (m_quat m) (m_conc m).

(** coarsenData and fillScratch: only the components the run has are copied
    (QuatIntegrator.cc:2874-2954, called at 3040-3041). *)
Definition fillScratch (c : config) (K : kernels) (t : R) (y : vec) (m : mem) : mem :=
  let f := k_fill K t y in
  set_scratch m
    (if unsteady c then y_temp f else m_temp m)
    (if with_phase c then y_phase f else m_phase m)
    (if evolve_quat c then y_quat f else m_quat m)
    (if with_conc c then y_conc f else m_conc m).

(** QuatIntegrator.cc:2783-2823 *)
Definition computeQuatGradients (K : kernels) (recompute : bool) (m : mem) : mem :=
  let gs := k_gside K (m_quat m) in
  set_grad m gs (if recompute then gs else m_gcopy m) (k_gmod K gs).

(** QuatModel.cc:3630-3646 and 3813-3827, called together at QuatIntegrator.cc:3049-3056: both return
    at once when the time is the one of the previous call. *)
Definition computePhaseGrad (K : kernels) (t : R) (m : mem) : mem :=
  if is_some_eq (m_ptime m) t then m else set_pgrad m (k_pgrad K (m_phase m)) (Some t).

(** QuatIntegrator.cc:2442-2478 *)
Definition uniform_side (c : config) : R := (1 / 10) / sqrt (IZR (qlen c * ndim c)).
Definition setUniformDiffusionCoeffForQuat (c : config) (m : mem) : mem :=
  set_grad m (m_gside m) (map (fun _ => uniform_side c) (m_gcopy m)) (m_gmod m).

(** QuatIntegrator.cc:3085-3128.  The Aziz coefficient dereferences QuatModel's velocity array, which is
    registered only when with_velocity() holds (QuatModel.cc:1495-1501;
    AzizPartitionCoefficientStrategy.cc:124-150): [None] otherwise. *)
Definition computePhaseConcentrations (c : config) (K : kernels) (m : mem) : option mem :=
  let solve k := Some (set_pc m k (k_pc K (m_temp m) (opt (with_phase c) (m_phase m)) (m_conc m)
                                     (opt (with_part c) k) (m_pc m))) in
  if with_part c then
    if aziz c then
      if vel_flag c then solve (k_aziz K (m_vel m) (m_temp m)) else None
    else solve (k_uniform K (m_temp m))
  else solve (m_kpart m).

(** QuatIntegrator.cc:2958-2990 *)
Definition computeMobilities (c : config) (K : kernels) (t : R) (m : mem) : mem :=
  set_mob m (k_mob K t (m_temp m) (opt (with_phase c) (m_phase m)) (opt (with_conc c) (m_conc m))
               (opt (with_conc c && phase_concs c) (m_pc m))).

(** QuatIntegrator.cc:2994-3083 *)
Definition setCoefficients (c : config) (K : kernels) (t : R) (y : vec) (recompute : bool) (m : mem) : option mem :=
  let m := fillScratch c K t y m in
  let m := if evolve_quat c then computeQuatGradients K recompute m else m in
  let m := if with_phase c && compute_velocity c then computePhaseGrad K t m else m in
  let m := if evolve_quat c && is_lt t (unif_time c) then setUniformDiffusionCoeffForQuat c m else m in
  match (if with_conc c && phase_concs c then computePhaseConcentrations c K m else Some m) with
  | Some m => Some (computeMobilities c K t m)
  | None => None
  end.

(** QuatIntegrator.cc:2482-2546: the phase right-hand side; dphidt is saved before the rigid body and
    moving frame terms are added. *)
Definition evaluatePhaseRHS (c : config) (K : kernels) (t : R) (m : mem) : field * mem :=
  let raw := k_phase K t (m_temp m) (m_phase m) (opt (evolve_quat c) (m_quat m)) (opt (with_conc c) (m_conc m))
               (opt (with_conc c && phase_concs c) (m_pc m)) (m_mob m) (opt (evolve_quat c) (m_gmod m)) in
  let m := set_dphi m (if need_dphidt c then k_dphi K t raw else m_dphi m)
             (if rb c then k_forces K (m_phase m) else m_forces m) in
  (k_move K (m_phase m) (opt (rb c) (m_forces m)) raw, m).

(** L1Norm and subtract of an array with itself, over doubles that may be NaN. *)
Definition osub (a b : option R) : option R :=
  match a, b with Some x, Some y => Some (x - y) | _, _ => None end.
Fixpoint zip_sub (a b : list (option R)) : list (option R) :=
  match a, b with x :: a', y :: b' => osub x y :: zip_sub a' b' | _, _ => [] end.
Fixpoint l1norm (a : list (option R)) : option R :=
  match a with
  | [] => Some 0
  | x :: a' => match x, l1norm a' with Some x, Some s => Some (Rabs x + s) | _, _ => None end
  end.
Definition small (n : option R) : bool :=
  match n with Some n => is_lt n (1 / 10 ^ 8) | None => false end.

(** One turn of the do loop of QuatIntegrator.cc:3208-3248: the phase rhs, whether another turn is
    needed, and the memory after it.  The arrays compared are the integrator's own d_velocity_id
    (QuatIntegrator.cc:919-925) before and after QuatModel writes another array (QuatModel.cc:1496-1500,
    5302-5350).  computeVelocity asserts that QuatModel's array exists. *)
Definition phase_turn (c : config) (K : kernels) (t : R) (fd : Z) (m : mem) : option (field * bool * mem) :=
  let '(ydot, m) := evaluatePhaseRHS c K t m in
  let tmp1 := m_ivel m in
  let vel := compute_velocity c && (fd =? 0)%Z in
  if vel && negb (vel_flag c) then None
  else
    let m := if vel then set_vel m (k_vel K (m_pgrad m) ydot) else m in
    if with_part c && aziz c then
      match computePhaseConcentrations c K m with
      | Some m' => Some (ydot, negb (small (l1norm (zip_sub tmp1 (m_ivel m)))), m')
      | None => None
      end
    else Some (ydot, false, m).

(** The loop: [phase_loop c K t fd m ydot m' n] when it ends after [n] turns. *)
Inductive phase_loop (c : config) (K : kernels) (t : R) (fd : Z) : mem -> field -> mem -> nat -> Prop :=
| loop_last : forall m ydot m', phase_turn c K t fd m = Some (ydot, false, m') -> phase_loop c K t fd m ydot m' 1
| loop_again : forall m y0 m1 ydot m' n, phase_turn c K t fd m = Some (y0, true, m1) ->
    phase_loop c K t fd m1 ydot m' n -> phase_loop c K t fd m ydot m' (S n).

(** The vector of time derivatives: one entry for each component of the solution. *)
Record dots := mkDots { d_phase : option field; d_quat : option field; d_conc : option field; d_temp : option field }.

(** QuatIntegrator.cc:3256-3291: quaternion, composition and temperature. *)
Definition rest (c : config) (K : kernels) (t : R) (fd : Z) (pdot : option field) (m : mem) : dots * mem :=
  let recompute := (fd =? 0)%Z || negb (lag c) in
  let ph := opt (with_phase c) (m_phase m) in
  let cc := opt (with_conc c) (m_conc m) in
  let pc := opt (with_conc c && phase_concs c) (m_pc m) in
  let dp := opt (need_dphidt c) (m_dphi m) in
  let qdot := k_quat K (m_temp m) ph (m_gside m) (m_gcopy m) (m_mob m) (m_quat m) in
  let m := if with_conc c && recompute then set_dconc m (k_dconc K t (m_temp m) ph (m_conc m) pc) else m in
  let cdot := k_conc K (m_temp m) ph (m_conc m) pc (m_dconc m) dp (opt (with_phase c && rb c) (m_forces m)) in
  let tdot := k_heat K (m_temp m) ph cc dp in
  let show := rhs_visit c && (fd =? 0)%Z in
  let m := set_visit m (if evolve_quat c && show then qdot else m_vquat m)
                       (if with_conc c && show then cdot else m_vconc m)
                       (if unsteady c && show then tdot else m_vtemp m) in
  (mkDots pdot (opt (evolve_quat c) qdot) (opt (with_conc c) cdot) (opt (unsteady c) tdot), m).

(** QuatIntegrator.cc:3140-3291: a call of evaluateRHSFunction returns [out] and leaves the memory [m']. *)
Definition evaluates (c : config) (K : kernels) (m : mem) (t : R) (y : vec) (fd : Z) (out : dots) (m' : mem) : Prop :=
  exists m1, setCoefficients c K t y ((fd =? 0)%Z || negb (lag c)) (setTemperatureField c K t m) = Some m1 /\
    if with_phase c then
      exists ydot m2 n, phase_loop c K t fd m1 ydot m2 n /\ rest c K t fd (Some ydot) m2 = (out, m')
    else rest c K t fd None m1 = (out, m').

(** QuatIntegrator.cc:3297-3316: the preconditioner setup, as far as it changes these arrays. *)
Definition precond_set (c : config) (K : kernels) (m : mem) (t : R) (y : vec) (m' : mem) : Prop :=
  setCoefficients c K t y true m = Some m'.

(** What the solver may do between two calls: CVODE calls the two functions above, and after a regrid all
    arrays are new, those of QuatModel zero (QuatModel.cc:3236-3250 through 2912) while the static times of
    QuatModel.cc:3636 and 3817 survive. *)
Inductive op := Rhs (t : R) (y : vec) (fd : Z) | Prec (t : R) (y : vec) | Regrid.
Definition all_zero (f : field) : Prop := Forall (fun x => x = 0) f.
Inductive step (c : config) (K : kernels) : mem -> op -> mem -> Prop :=
| step_rhs : forall m t y fd out m', evaluates c K m t y fd out m' -> step c K m (Rhs t y fd) m'
| step_prec : forall m t y m', precond_set c K m t y m' -> step c K m (Prec t y) m'
| step_regrid : forall m m', m_ptime m' = m_ptime m -> all_zero (m_pgrad m') -> all_zero (m_vel m') ->
    step c K m Regrid m'.
Inductive steps (c : config) (K : kernels) : mem -> list op -> mem -> Prop :=
| steps_nil : forall m, steps c K m [] m
| steps_cons : forall m o m1 os m2, step c K m o m1 -> steps c K m1 os m2 -> steps c K m (o :: os) m2.

(** The velocity kernel: fortran/2d/grad.m4:209-264 and fortran/3d/grad.m4:193-241 at one cell, with the
    threshold of QuatModel.cc:5334.  [g] holds the NDIM components of the gradient. *)
Definition grad2 (g : list R) : R := fold_left (fun s x => s + x * x) g 0.
Definition velocity_cell (dx0 : R) (g : list R) (phi_dot : R) : R :=
  let threshold := (2 / 100) / dx0 in phi_dot / sqrt (grad2 g + threshold * threshold).
(** All cells of a patch, in the order of the Fortran loops. *)
Fixpoint velocity (dx0 : R) (gs : list (list R)) (phi_dot : field) : field :=
  match gs, phi_dot with g :: gs', p :: ps' => velocity_cell dx0 g p :: velocity dx0 gs' ps' | _, _ => [] end.
