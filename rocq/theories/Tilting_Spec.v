(** Vocabulary: phase fractions, derivatives under the constraint of constant sum. *)
From Coq Require Import Reals.
Open Scope R_scope.

Definition on_simplex (p0 p1 p2 : R) : Prop := p0 + p1 + p2 = 1 /\ 0 <= p0 /\ 0 <= p1 /\ 0 <= p2.

(** (d0,d1,d2) is the gradient of F at (p0,p1,p2) along the plane of constant sum:
    it lies in that plane and gives the derivative of F in each direction of that plane *)
Definition constrained_gradient (F : R -> R -> R -> R) (p0 p1 p2 d0 d1 d2 : R) : Prop :=
  d0 + d1 + d2 = 0 /\
  forall v0 v1 v2, v0 + v1 + v2 = 0 ->
    derivable_pt_lim (fun t => F (p0 + t * v0) (p1 + t * v1) (p2 + t * v2)) 0 (d0 * v0 + d1 * v1 + d2 * v2).

(** triple well *)
Definition triple_well (p0 p1 p2 : R) : R :=
  16 * (p0 ^ 2 * (1 - p0) ^ 2 + p1 ^ 2 * (1 - p1) ^ 2 + p2 ^ 2 * (1 - p2) ^ 2).
