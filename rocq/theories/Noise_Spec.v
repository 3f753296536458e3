(** Vocabulary for C36: where a cell is stored. *)
From Coq Require Import Reals ZArith.
From Verif Require Import Noise_Model.
Open Scope R_scope.

Definition in_pbox (b : pbox) (i j k : Z) : Prop := (lo0 b <= i <= hi0 b /\ lo1 b <= j <= hi1 b /\ lo2 b <= k <= hi2 b)%Z.
(** position of cell (i,j,k) in an array over the box b, first index fastest *)
Definition stored_at (b : pbox) (i j k : Z) : Z :=
  ((i - lo0 b) + (hi0 b - lo0 b + 1) * ((j - lo1 b) + (hi1 b - lo1 b + 1) * (k - lo2 b)))%Z.
(** a non-empty box; in 2D one plane, with index 0 *)
Definition box_ok (three_d : bool) (b : pbox) : Prop :=
  (lo0 b <= hi0 b /\ lo1 b <= hi1 b /\ lo2 b <= hi2 b)%Z /\ (three_d = false -> lo2 b = 0%Z /\ hi2 b = 0%Z).
Definition ghosts_ok (three_d : bool) (g : gwidth) : Prop := (0 <= gw0 g /\ 0 <= gw1 g /\ 0 <= gw2 g)%Z /\ (three_d = false -> gw2 g = 0%Z).
Definition at_least (g g' : gwidth) : Prop := (gw0 g' <= gw0 g /\ gw1 g' <= gw1 g /\ gw2 g' <= gw2 g)%Z.
