(** Vocabulary for partition coefficients and pair weights. *)
From Coq Require Import Reals List.
Open Scope R_scope.

(** (cl, ca) are phase compositions of a mixture of composition c with phase weight h *)
Definition mixture (h c cl ca : R) : Prop := (1 - h) * cl + h * ca = c.

(** phase fractions *)
Definition fractions (p0 p1 p2 : R) : Prop := 0 <= p0 /\ 0 <= p1 /\ 0 <= p2 /\ p0 + p1 + p2 = 1.
(** weights of the pairs (01), (02), (12) *)
Definition pair_weights (w01 w02 w12 : R) : Prop :=
  0 <= w01 <= 1 /\ 0 <= w02 <= 1 /\ 0 <= w12 <= 1 /\ w01 + w02 + w12 = 1.
(** the weights after exchanging phases 0 and 1, and phases 1 and 2 *)
Definition swap01 (w : R * R * R) : R * R * R := let '(a, b, c) := w in (a, c, b).
Definition swap12 (w : R * R * R) : R * R * R := let '(a, b, c) := w in (b, a, c).
