(** Vocabulary for the smoothing of orientations. *)
From Coq Require Import Reals ZArith.
From Verif Require Import Grid_Model Grid_Spec Quat_Model Quat_Spec QuatFlow_Model QuatFlow_Spec Smooth_Model.
Open Scope R_scope.

(** the four face neighbours of a cell *)
Definition four (i j : Z) (P : Z -> Z -> Prop) : Prop := P (i - 1)%Z j /\ P (i + 1)%Z j /\ P i (j - 1)%Z /\ P i (j + 1)%Z.
(** rotation indices that take the neighbour closest to the cell *)
Definition best_rotations (p : patch) (q : arr3) (rx ry : iarr) : Prop :=
  let d := depth p in
  let best (v w : vec) n := rotation_index d n /\ forall k, rotation_index d k ->
    dotv d (fun m => v m - image d n w m) (fun m => v m - image d n w m) <= dotv d (fun m => v m - image d k w m) (fun m => v m - image d k w m) in
  (forall i j, x_side p i j -> best (q i j) (q (i - 1)%Z j) (rx i j)) /\ (forall i j, y_side p i j -> best (q i j) (q i (j - 1)%Z) (ry i j)).
(** alternating in all directions *)
Definition alternating (a : Z -> R) (i j : Z) : vec := fun m => if Z.even (i + j) then a m else - a m.
Definition in_patch3 (p : patch3) (i j k : Z) : Prop := (l0 p <= i <= u0 p /\ l1 p <= j <= u1 p /\ l2 p <= k <= u2 p)%Z.
(** sum over all faces of the squared difference across them *)
Definition roughness (p : patch) (q : arr3) : R :=
  sum_box (lo0 p) (hi0 p + 1) (lo1 p) (hi1 p) (fun i j => dotv (depth p) (fun m => q i j m - q (i - 1)%Z j m) (fun m => q i j m - q (i - 1)%Z j m)) +
  sum_box (lo0 p) (hi0 p) (lo1 p) (hi1 p + 1) (fun i j => dotv (depth p) (fun m => q i j m - q i (j - 1)%Z m) (fun m => q i j m - q i (j - 1)%Z m)).
