(** What a user expects of the mobility of the order parameter. *)
From Coq Require Import Reals ZArith Ascii String List.
From Coquelicot Require Import Coquelicot.
From Verif Require Import Functions_Model Noise_Model Noise_Spec PhaseMob_Model.
Open Scope R_scope.

(** u (time, place) solves the equation of the order parameter for a driving force G per volume:
    u_t = M (eps^2 u_xx - w W'(u) + G h'(u)) *)
Definition solves (M eps well G : R) (interp : ascii) (u : R -> R -> R) : Prop :=
  forall t x, exists (ut : R) (ux : R -> R) (uxx dW dh : R),
    is_derive (fun s => u s x) t ut /\
    (forall y, is_derive (fun z => u t z) y (ux y)) /\ is_derive ux x uxx /\
    deriv_well_func (u t x) "d"%char = Some dW /\ deriv_interp_func (u t x) interp = Some dh /\
    ut = M * (eps * eps * uxx - well * dW + G * dh).
(** a front: solid (1) on the left, liquid (0) on the right, that moves to the right with speed v and keeps its shape *)
Definition front (v : R) (u : R -> R -> R) : Prop :=
  (forall t x s, u (t + s) (x + v * s) = u t x) /\ (forall t x, 0 < u t x < 1) /\
  (forall t x y, x < y -> u t y < u t x) /\
  (forall t, is_lim (u t) m_infty 1) /\ (forall t, is_lim (u t) p_infty 0).

(** the quadratic form of a Hessian stored row by row for n components *)
Fixpoint sum_to (n : nat) (f : Z -> R) : R := match n with O => 0 | S m => sum_to m f + f (Z.of_nat m) end.
Definition second_variation (n : nat) (H : Z -> R) (d : Z -> R) : R :=
  sum_to n (fun i => sum_to n (fun j => d i * H (Z.of_nat n * i + j)%Z * d j)).
(** inputs: the type of mobility is Kim's; positive parameters *)
Definition kim_type (db : mob_db) : Prop := db_type db = Some "kim"%string \/ db_type db = Some "Kim"%string.
Definition physical (r : run_par) (temp : R) : Prop := 0 < r_eps r /\ 0 < r_well r /\ 0 < r_mv r /\ 0 < r_DL r /\ 0 < temp.
