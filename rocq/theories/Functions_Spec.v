(** What is claimed of the pointwise functions, independent of their formulas. *)
From Coq Require Import Reals ZArith Ascii List.
Import ListNotations.
Open Scope R_scope.

(** [f] is a total function (never stops) with properties of an interpolation:
    0 for x<=0, 1 for x>=1, between 0 and 1, non-decreasing. *)
Definition value_of (o : R -> option R) (f : R -> R) : Prop := forall x, o x = Some (f x).

Definition interpolation (f : R -> R) : Prop :=
  (forall x, x <= 0 -> f x = 0) /\ (forall x, 1 <= x -> f x = 1) /\
  (forall x, 0 <= f x <= 1) /\ (forall x y, x <= y -> f x <= f y).

(** same but only guaranteed up to x = 1 *)
Definition interpolation_upto1 (f : R -> R) : Prop :=
  (forall x, x <= 0 -> f x = 0) /\ f 1 = 1 /\
  (forall x, x <= 1 -> 0 <= f x <= 1) /\ (forall x y, x <= y -> y <= 1 -> f x <= f y).

Definition symmetric01 (f : R -> R) : Prop := forall x, f x + f (1 - x) = 1.

(** [df] gives the derivative of [f] at [x] *)
Definition derivative_at (f df : R -> option R) (x : R) : Prop :=
  exists F d, (forall y, f y = Some (F y)) /\ df x = Some d /\ derivable_pt_lim F x d.

(** the double-well energy density of three phases, sum_i 16 p_i^2 (1-p_i)^2 *)
Definition triple_well (p0 p1 p2 : R) : R :=
  16 * (p0 * (1 - p0)) ^ 2 + 16 * (p1 * (1 - p1)) ^ 2 + 16 * (p2 * (1 - p2)) ^ 2.
