(** Vocabulary of the orientation-dynamics properties. *)
From Coq Require Import Reals ZArith.
From Verif Require Import Grid_Model Grid_Spec Quat_Model Quat_Spec QuatFlow_Model.
Open Scope R_scope.

(** scalar product and squared length of orientations with d components *)
Definition dotv (d : Z) (v w : vec) : R := sumZ 1 d (fun m => v m * w m).
(** orientations with more than one component: unit vectors of the plane, unit quaternions *)
Definition multi (d : Z) : Prop := d = 2%Z \/ d = 4%Z.
Definition same (d : Z) (v w : vec) : Prop := forall m, (1 <= m <= d)%Z -> v m = w m.

(** the n-th symmetric image of an orientation, and the number of images *)
Definition image (d n : Z) (v : vec) : vec :=
  match d with
  | 4 => fun m => comp (quatmult4 (Q4 (v 1) (v 2) (v 3) (v 4)) (qr4 n)) m
  | 2 => fun m => comp2 (quatmult2 (Q2 (v 1) (v 2)) (qr2 n)) m
  | _ => fun _ => (v 1%Z + qr1 n)%R
  end%Z.
Definition group_size (d : Z) : Z := match d with 4 => 48 | 2 => 4 | _ => 9 end%Z.
Definition rotation_index (d n : Z) : Prop := in_table (group_size d) n.
Definition equivalent (d : Z) (v w : vec) : Prop := exists n, rotation_index d n /\ same d v (image d n w).

(** the cells a patch and its one layer of ghost cells contain; the sides between them *)
Definition in_patch (p : patch) (i j : Z) : Prop := in_box (lo0 p) (hi0 p) (lo1 p) (hi1 p) i j.
Definition in_ghosts (p : patch) (i j : Z) : Prop := in_box (lo0 p - 1) (hi0 p + 1) (lo1 p - 1) (hi1 p + 1) i j.
Definition x_side (p : patch) (i j : Z) : Prop := in_box (lo0 p) (hi0 p + 1) (lo1 p - 1) (hi1 p + 1) i j.
Definition y_side (p : patch) (i j : Z) : Prop := in_box (lo0 p - 1) (hi0 p + 1) (lo1 p) (hi1 p + 1) i j.
(** sides of the cells of the patch itself *)
Definition x_face (p : patch) (i j : Z) : Prop := in_box (lo0 p) (hi0 p + 1) (lo1 p) (hi1 p) i j.
Definition y_face (p : patch) (i j : Z) : Prop := in_box (lo0 p) (hi0 p) (lo1 p) (hi1 p + 1) i j.

Definition unit_field (p : patch) (q : arr3) : Prop := forall i j, in_ghosts p i j -> dotv (depth p) (q i j) (q i j) = 1.
Definition rotations_ok (p : patch) (rx ry : iarr) : Prop :=
  (forall i j, x_side p i j -> rotation_index (depth p) (rx i j)) /\
  (forall i j, y_side p i j -> rotation_index (depth p) (ry i j)).

(** the field q' is q with every cell replaced by a symmetric image, S telling which one *)
Definition regauged (p : patch) (S : iarr) (q q' : arr3) : Prop :=
  forall i j, in_ghosts p i j -> rotation_index (depth p) (S i j) /\ same (depth p) (q' i j) (image (depth p) (S i j) (q i j)).
(** no two different images of the neighbour are equally close to the orientation of the cell *)
Definition closest_unique (d : Z) (v w : vec) : Prop :=
  exists n, rotation_index d n /\ forall k, rotation_index d k -> k <> n ->
    dotv d (fun m => v m - image d n w m) (fun m => v m - image d n w m) <
    dotv d (fun m => v m - image d k w m) (fun m => v m - image d k w m).
Definition no_ties (p : patch) (q : arr3) : Prop :=
  (forall i j, x_side p i j -> closest_unique (depth p) (q i j) (q (i - 1)%Z j)) /\
  (forall i j, y_side p i j -> closest_unique (depth p) (q i j) (q i (j - 1)%Z)).

(** interface energy with the face coefficients held fixed; the orientation on the left of
    (below) a face enters as its image given by rx (ry) *)
Definition flow_energy (p : patch) (fcx fcy : arr2) (rx ry : iarr) (q : arr3) : R :=
  sum_box (lo0 p) (hi0 p + 1) (lo1 p) (hi1 p) (fun i j =>
    - fcx i j / 2 * (dotv (depth p) (fun m => q i j m - image (depth p) (rx i j) (q (i - 1)%Z j) m)
                                    (fun m => q i j m - image (depth p) (rx i j) (q (i - 1)%Z j) m) / (h1 p * h1 p)))
  + sum_box (lo0 p) (hi0 p) (lo1 p) (hi1 p + 1) (fun i j =>
    - fcy i j / 2 * (dotv (depth p) (fun m => q i j m - image (depth p) (ry i j) (q i (j - 1)%Z) m)
                                    (fun m => q i j m - image (depth p) (ry i j) (q i (j - 1)%Z) m) / (h2 p * h2 p))).
Definition plain_energy (p : patch) (fcx fcy : arr2) (q : arr3) : R :=
  sum_box (lo0 p) (hi0 p + 1) (lo1 p) (hi1 p) (fun i j =>
    - fcx i j / 2 * (dotv (depth p) (fun m => q i j m - q (i - 1)%Z j m) (fun m => q i j m - q (i - 1)%Z j m) / (h1 p * h1 p)))
  + sum_box (lo0 p) (hi0 p) (lo1 p) (hi1 p + 1) (fun i j =>
    - fcy i j / 2 * (dotv (depth p) (fun m => q i j m - q i (j - 1)%Z m) (fun m => q i j m - q i (j - 1)%Z m) / (h2 p * h2 p))).
(** q moved by t along r inside the patch, ghost cells unchanged *)
Definition moved (p : patch) (q r : arr3) (t : R) : arr3 :=
  fun i j m => if ((lo0 p <=? i) && (i <=? hi0 p) && (lo1 p <=? j) && (j <=? hi1 p))%bool%Z
               then q i j m + t * r i j m else q i j m.
(** squared norm of the gradient on a side: component along x, component along y *)
Definition side_square (d : Z) (gx gy : arr3) (i j : Z) : R := dotv d (gx i j) (gx i j) + dotv d (gy i j) (gy i j).
