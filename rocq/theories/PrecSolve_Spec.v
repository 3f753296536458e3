(** Vocabulary of the statements about the preconditioner. *)
From Coq Require Import Reals List Bool Arith ZArith.
From Verif Require Import PrecSolve_Model.
Import ListNotations.
Open Scope R_scope.

(** [r] is the composite residual of [u] for the right-hand side [f]: on the
    finest level the residual of that level; on the other levels the residual of
    the level, replaced below the finer level by the average of the finer one. *)
Definition is_residual (o : facops) (n : nat) (u f r : vec) : Prop :=
  r n = resid o n u f /\
  (forall l, (l < n)%nat -> r l = restrict_res o (r (S l)) (resid o l u f)) /\
  (forall l, (n < l)%nat -> r l = fun _ => 0).

(** Below a finer level [u] is already the average of the finer one. *)
Definition synchronized (o : facops) (n : nat) (u : vec) : Prop :=
  forall l, (l < n)%nat -> u l = restrict_sol o (u (S l)) (u l).

(** Restricting the same fine data a second time changes nothing. *)
Definition keeps (o : facops) : Prop :=
  forall a b, restrict_sol o a (restrict_sol o a b) = restrict_sol o a b.

(** [u] solves the block for the right-hand side [f] to within the tolerance
    asked by CVODE, or, with relative_residual_tol, to within that fraction of f. *)
Definition within (o : facops) (s : settings) (tol : R) (u f : vec) : Prop :=
  exists r, is_residual o (finest s) u f r /\
    (norm o r < tol \/ (0 <= relative_tol s /\ norm o r < norm o f * relative_tol s)).

(** A block whose operator on level 0 is the linear operator [A], whose coarsest
    level solver is exact, and whose norm of nothing is zero. *)
Definition exact_block (o : facops) (A : field -> field) : Prop :=
  (forall u f, resid o 0 u f = fun i => f 0%nat i - A (u 0%nat) i) /\
  (forall x y, A (fun i => x i + y i) = fun i => A x i + A y i) /\
  (forall e r, (e 0%nat = fun _ => 0) -> A (coarsest o e r) = r 0%nat) /\
  (forall r, (forall l i, r l i = 0) -> norm o r = 0).

(** The components of the solution vector. *)
Definition active (p : physics) (b : block) : bool :=
  match b with
  | Phase => p_phase p | Eta => p_third_phase p | Quat => p_quat p
  | Temp => p_heat p && negb (p_steady p) | Conc => p_conc p
  end.
(** depth of a component: the order parameters; the components of the other
    variables are kept in one array *)
Definition depth (p : physics) (b : block) : nat := match b with Phase => p_norderp p | _ => 1%nat end.
(** is the block preconditioned? *)
Definition solved (c : config) (b : block) : bool :=
  match b with
  | Phase => phase_solver c | Eta => eta_solver c | Quat => precondition_quat c
  | Temp => temperature_solver c | Conc => conc_solver c
  end.

(** Right-hand side of block [b]: r plus gamma times the off-diagonal block of
    the Jacobian applied to the phase correction [phi]. *)
Definition coupled (c : config) (K : kernels) (gamma : R) (phi : vec) (b : block) (f : vec) : vec :=
  match b with
  | Temp => if has_dTdphi c then fun k i => f k i + gamma * mulT K phi k i else f
  | Quat => if has_dquatdphi c then fun k i => f k i + gamma * mulQ K phi k i else f
  | _ => f
  end.
(** The quaternion block is solved for the unknown divided by the square root of the mobility. *)
Definition scaled (K : kernels) (b : block) (x : vec) : vec :=
  match b with Quat => fun k i => x k i / sqrtM K k i | _ => x end.

(** the off-diagonal blocks that are in use *)
Definition couples (p : physics) (c : config) : bool :=
  (active p Temp && temperature_solver c && has_dTdphi c) || (active p Quat && precondition_quat c && has_dquatdphi c).

Definition good_kernels (K : kernels) : Prop :=
  (forall b, keeps (ops K b)) /\ (forall k i, sqrtM K k i <> 0).

(** two vectors with the same components, as far as they are components of the solution vector *)
Definition same_components (p : physics) (x y : vector) : Prop :=
  forall b d, active p b = true -> (d < depth p b)%nat -> x b d = y b d.

(** [u] leaves a residual that is exactly as large as the tolerance. *)
Definition on_edge (o : facops) (s : settings) (tol : R) (u f : vec) : Prop :=
  exists r, is_residual o (finest s) u f r /\
    norm o r = (if Rle_dec 0 (relative_tol s) then Rmax tol (norm o f * relative_tol s) else tol).

(** When no assertion of the callback fails. *)
Definition runs (c : config) : Prop :=
  use_preconditioner c = true /\
  (evolve_quat c = true -> precondition_quat c = true -> has_dquatdphi c = true -> use_gradq_for_flux c = false) /\
  (with_unsteady_temperature c = true -> temperature_solver c = true -> has_dTdphi c = true -> with_phase c = true) /\
  (with_phase c = true -> phase_solver c = false -> has_dquatdphi c || has_dTdphi c = true -> norderp c = 1%nat) /\
  (with_phase c = true -> phase_solver c = true -> has_dPhidT c = true -> norderp c = 1%nat /\ delta_temperature c = true).

(** a section Preconditioner without entries *)
Definition empty_section : section :=
  {| in_enabled := None; in_phase := None; in_quat := None; in_eta := None; in_conc := None; in_temperature := None;
     in_dquatdphi := None; in_dTdphi := None; in_dPhidT := None |}.
(** the entry that switches off a block *)
Definition entry_of (s : section) (b : block) : option bool :=
  match b with Phase => in_phase s | Eta => in_eta s | Quat => in_quat s | Temp => in_temperature s | Conc => in_conc s end.
