(** Vocabulary for the accuracy of difference kernels. *)
From Coq Require Import Reals ZArith List.
From Verif Require Import Grid_Model Grid_Spec.
Import ListNotations.
Open Scope R_scope.

(** the polynomial with coefficients a, lowest degree first *)
Fixpoint poly (a : list R) (x : R) : R := match a with [] => 0 | c :: r => c + x * poly r x end.
Definition degree_le (d : nat) (a : list R) : Prop := (length a <= S d)%nat.

(** positions of cell centres and of lower cell faces on a uniform mesh *)
Definition centre (h : R) (i : Z) : R := (IZR i + 1 / 2) * h.
Definition face (h : R) (i : Z) : R := IZR i * h.

(** the cells lo..hi of a line hold the values of u at the cell centres *)
Definition holds_values (h : R) (u : R -> R) (lo hi : Z) (line : Z -> R) : Prop :=
  forall k, (lo <= k <= hi)%Z -> line k = u (centre h k).
(** ... or the averages of u over the cells *)
Definition holds_averages (h : R) (u : R -> R) (lo hi : Z) (line : Z -> R) : Prop :=
  exists U, (forall x, derivable_pt_lim U x (u x)) /\
    forall k, (lo <= k <= hi)%Z -> line k = (U (face h (k + 1)) - U (face h k)) / h.

(** the total of D_m times the gradient of species m, m = 1..n *)
Definition fick (n : Z) (d s : Z -> R) : R := sumZ 1 n (fun m => d m * s m).

(** weighted averages over a face and its transverse neighbours: (1,10,1)/12 in 2D,
    8/12 for the face and 1/12 for each of the four neighbours in 3D *)
Definition row_average (F : Z -> R) (j : Z) : R := (F (j - 1)%Z + 10 * F j + F (j + 1)%Z) / 12.
Definition cross_average (F : Z -> Z -> R) (b c : Z) : R :=
  (8 * F b c + F (b - 1)%Z c + F (b + 1)%Z c + F b (c - 1)%Z + F b (c + 1)%Z) / 12.
(** y,z is one of the five faces of the cross around b,c *)
Definition in_cross (b c y z : Z) : Prop := (Z.abs (y - b) + Z.abs (z - c) <= 1)%Z.

(** line data u (values or averages) with slope s at the face i of the line *)
Definition line_data (deg : nat) (h : R) (lo hi i : Z) (u : list R) (line : Z -> R) (s : R) : Prop :=
  degree_le deg u /\ (holds_values h (poly u) lo hi line \/ holds_averages h (poly u) lo hi line) /\ derivable_pt_lim (poly u) (face h i) s.
Definition line_averages (deg : nat) (h : R) (lo hi i : Z) (u : list R) (line : Z -> R) (s : R) : Prop :=
  degree_le deg u /\ holds_averages h (poly u) lo hi line /\ derivable_pt_lim (poly u) (face h i) s.

(** around the x-face (i,j) the species of a phase (concentrations conc, coefficients d of
    the faces in that direction) vary along the line only, like u_m with slope s_m, and
    the coefficients are the same on the neighbouring lines *)
Definition uniform_x (n p i j : Z) (deg : nat) (dx : R) (conc d : arr3) (u : Z -> list R) (s : Z -> R) : Prop :=
  forall m e, (1 <= m <= n)%Z -> (j - 1 <= e <= j + 1)%Z ->
    line_averages deg dx (i - 2) (i + 1) i (u m) (fun k => conc k e m) (s m) /\
    d i e (p + (m - 1) * n)%Z = d i j (p + (m - 1) * n)%Z.
Definition uniform_y (n p i j : Z) (deg : nat) (dx : R) (conc d : arr3) (u : Z -> list R) (s : Z -> R) : Prop :=
  forall m e, (1 <= m <= n)%Z -> (i - 1 <= e <= i + 1)%Z ->
    line_averages deg dx (j - 2) (j + 1) j (u m) (fun k => conc e k m) (s m) /\
    d e j (p + (m - 1) * n)%Z = d i j (p + (m - 1) * n)%Z.
(** same, without reference to the neighbouring lines *)
Definition along_x (n i j : Z) (deg : nat) (dx : R) (conc : arr3) (u : Z -> list R) (s : Z -> R) : Prop :=
  forall m, (1 <= m <= n)%Z -> line_averages deg dx (i - 2) (i + 1) i (u m) (fun k => conc k j m) (s m).
Definition along_y (n i j : Z) (deg : nat) (dx : R) (conc : arr3) (u : Z -> list R) (s : Z -> R) : Prop :=
  forall m, (1 <= m <= n)%Z -> line_averages deg dx (j - 2) (j + 1) j (u m) (fun k => conc i k m) (s m).
