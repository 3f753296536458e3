(** What users expect of plotted diffusion coefficients. *)
From Coq Require Import Reals ZArith List Bool.
From Verif Require Import Grid_Model Grid_Spec DiffVisit_Model.
Import ListNotations.
Open Scope R_scope.

Definition average (l : list R) : R := fold_right Rplus 0 l / INR (length l).
(** values on the sides of a cell *)
Definition sides2 (s : Z -> arr2) (i j : Z) : list R := [s 0%Z i j; s 0%Z (i + 1)%Z j; s 1%Z i j; s 1%Z i (j + 1)%Z].
Definition sides3 (s : Z -> arr3) (i j k : Z) : list R :=
  [s 0%Z i j k; s 0%Z (i + 1)%Z j k; s 1%Z i j k; s 1%Z i (j + 1)%Z k; s 2%Z i j k; s 2%Z i j (k + 1)%Z].
Definition inside2 (b : ibox2) (i j : Z) : Prop := in_box (p0 b) (q0 b) (p1 b) (q1 b) i j.
Definition inside3 (b : ibox3) (i j k : Z) : Prop := in_box3 (lo0 b) (hi0 b) (lo1 b) (hi1 b) (lo2 b) (hi2 b) i j k.
(** coefficients that are plotted *)
Definition shown (extra ebs has_b : bool) (c : coef) : bool :=
  extra && match c with CL | CA => ebs | CB => ebs && has_b | CD => negb ebs end.
(** the coefficients of the chosen strategy exist *)
Definition allocated (ebs : bool) (alloc : coef -> bool) : Prop := if ebs then alloc CL = true /\ alloc CA = true else alloc CD = true.
(** side data that sample an affine function of the position at the centers of the sides; cell (i, j, k) has center (i + 1/2, ...) in units of the spacings *)
Definition affine (a b c d x y z : R) : R := a + b * x + c * y + d * z.
Definition samples2 (a b c : R) (s : Z -> arr2) : Prop := forall i j,
  s 0%Z i j = affine a b c 0 (IZR i) (IZR j + 1 / 2) 0 /\ s 1%Z i j = affine a b c 0 (IZR i + 1 / 2) (IZR j) 0.
Definition samples3 (a b c d : R) (s : Z -> arr3) : Prop := forall i j k,
  s 0%Z i j k = affine a b c d (IZR i) (IZR j + 1 / 2) (IZR k + 1 / 2) /\
  s 1%Z i j k = affine a b c d (IZR i + 1 / 2) (IZR j) (IZR k + 1 / 2) /\
  s 2%Z i j k = affine a b c d (IZR i + 1 / 2) (IZR j + 1 / 2) (IZR k).
