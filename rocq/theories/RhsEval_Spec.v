(** What a right-hand side evaluation should return, written as a function of time and solution. *)

From Coq Require Import Reals ZArith List Bool.
From Verif Require Import RhsEval_Model.
Import ListNotations.
Local Open Scope R_scope.

(** The solver for the phase concentrations does not depend on its starting point. *)
Definition guess_free (K : kernels) : Prop :=
  forall T p cc k g g', k_pc K T p cc k g = k_pc K T p cc k g'.

(** The fields at time [t] for the solution [y]. *)
Definition temp_of (c : config) (K : kernels) (t : R) (y : vec) : field :=
  if unsteady c then y_temp (k_fill K t y) else k_temp K t.
Definition phase_of (K : kernels) (t : R) (y : vec) : field := y_phase (k_fill K t y).
Definition quat_of (K : kernels) (t : R) (y : vec) : field := y_quat (k_fill K t y).
Definition conc_of (K : kernels) (t : R) (y : vec) : field := y_conc (k_fill K t y).

(** Phase concentrations, if the run has them, for a given partition coefficient. *)
Definition pc_of (c : config) (K : kernels) (t : R) (y : vec) (k : field) : option field :=
  opt (with_conc c && phase_concs c)
    (k_pc K (temp_of c K t y) (opt (with_phase c) (phase_of K t y)) (conc_of K t y) (opt (with_part c) k) []).

Definition mob_of (c : config) (K : kernels) (t : R) (y : vec) (k : field) : field :=
  k_mob K t (temp_of c K t y) (opt (with_phase c) (phase_of K t y)) (opt (with_conc c) (conc_of K t y)) (pc_of c K t y k).

Definition raw_of (c : config) (K : kernels) (t : R) (y : vec) (k : field) : field :=
  k_phase K t (temp_of c K t y) (phase_of K t y) (opt (evolve_quat c) (quat_of K t y)) (opt (with_conc c) (conc_of K t y))
    (pc_of c K t y k) (mob_of c K t y k) (opt (evolve_quat c) (k_gmod K (k_gside K (quat_of K t y)))).

Definition pdot_of (c : config) (K : kernels) (t : R) (y : vec) (k : field) : field :=
  k_move K (phase_of K t y) (opt (rb c) (k_forces K (phase_of K t y))) (raw_of c K t y k).

Definition dconc_of (c : config) (K : kernels) (t : R) (y : vec) (k : field) : field :=
  k_dconc K t (temp_of c K t y) (opt (with_phase c) (phase_of K t y)) (conc_of K t y) (pc_of c K t y k).

(** The time derivatives of [y] at [t], when the phase equation uses the partition coefficient [k], the
    composition equation [k'], the quaternion equation divides by the modulus of the gradient [side] and the
    composition equation uses the diffusion coefficient [D]. *)
Definition dots_with (c : config) (K : kernels) (t : R) (y : vec) (k k' side D : field) : dots :=
  let T := temp_of c K t y in
  let ph := opt (with_phase c) (phase_of K t y) in
  let dp := opt (need_dphidt c) (k_dphi K t (raw_of c K t y k)) in
  mkDots
    (opt (with_phase c) (pdot_of c K t y k))
    (opt (evolve_quat c) (k_quat K T ph (k_gside K (quat_of K t y)) side (mob_of c K t y k) (quat_of K t y)))
    (opt (with_conc c) (k_conc K T ph (conc_of K t y) (pc_of c K t y k') D dp
                          (opt (with_phase c && rb c) (k_forces K (phase_of K t y)))))
    (opt (unsteady c) (k_heat K T ph (opt (with_conc c) (conc_of K t y)) dp)).

(** The gradient in the denominator of the quaternion diffusion: uniform at early times. *)
Definition levelled (c : config) (t : R) (side : field) : field :=
  if Rlt_dec t (unif_time c) then map (fun _ => 1 / 10 / sqrt (IZR (qlen c * ndim c))) side else side.

(** The right-hand side as a function of time and solution, the partition coefficient, if any, being a
    function of temperature only. *)
Definition rhs_of (c : config) (K : kernels) (t : R) (y : vec) : dots :=
  let k := k_uniform K (temp_of c K t y) in
  dots_with c K t y k k (levelled c t (k_gside K (quat_of K t y))) (dconc_of c K t y k).

(** The partition coefficient does not depend on the front velocity. *)
Definition steady_k (c : config) : Prop := with_part c = true -> aziz c = false.

(** The run has what it needs to compute velocities. *)
Definition has_velocity (c : config) : Prop := compute_velocity c = true -> vel_flag c = true.

(** A call that sets the copy of the side gradient / any call of the integrator at time at least [t0]. *)
Definition sets_side (o : op) (t : R) (y : vec) : Prop := o = Rhs t y 0 \/ o = Prec t y.
Definition perturbed (c : config) (o : op) : Prop :=
  exists t y fd, o = Rhs t y fd /\ fd <> 0%Z /\ unif_time c <= t.
Definition no_new_D (o : op) : Prop := (exists t y fd, o = Rhs t y fd /\ fd <> 0%Z) \/ (exists t y, o = Prec t y).

(** No entry of an array is NaN. *)
Definition no_nan (a : list (option R)) : Prop := Forall (fun x => x <> None) a.
(** Some entry is. *)
Definition some_nan (a : list (option R)) : Prop := Exists (fun x => x = None) a.

(** A call at time [t]. *)
Definition at_time (t : R) (o : op) : Prop := (exists y fd, o = Rhs t y fd) \/ (exists y, o = Prec t y).
