(** Vocabulary for orientation transfer. *)
From Coq Require Import Reals ZArith List.
From Verif Require Import Quat_Model Quat_Spec QuatCoarsen_Model.
Import ListNotations.
Open Scope R_scope.

(** sum of g over the r0 x r1 fine cells of coarse cell (ic0,ic1) *)
Fixpoint sumn (n : nat) (g : Z -> R) : R :=
  match n with O => 0 | S m => sumn m g + g (Z.of_nat m) end.
Definition sum_covered (r0 r1 ic0 ic1 : Z) (g : Z -> Z -> R) : R :=
  sumn (Z.to_nat r1) (fun j => sumn (Z.to_nat r0) (fun i => g (ic0 * r0 + i)%Z (ic1 * r1 + j)%Z)).
Definition average (r0 r1 ic0 ic1 : Z) (g : Z -> Z -> R) : R :=
  sum_covered r0 r1 ic0 ic1 g / (IZR r0 * IZR r1).

(** fine cell (i0,i1) is covered by coarse cell (ic0,ic1) *)
Definition covered (r0 r1 ic0 ic1 i0 i1 : Z) : Prop :=
  (ic0 * r0 <= i0 < ic0 * r0 + r0 /\ ic1 * r1 <= i1 < ic1 * r1 + r1)%Z.

(** the components stored in a cell *)
Definition lst4 (q : q4) : list R := [qa q; qb q; qc q; qd q].
Definition lst2 (q : q2) : list R := [ca q; cb q].
