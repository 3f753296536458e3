(** Vocabulary of the orientation properties. *)
From Coq Require Import Reals ZArith List.
From Verif Require Import Quat_Model.
Open Scope R_scope.

(** unit orientations *)
Definition unit4 (q : q4) : Prop := qa q ^ 2 + qb q ^ 2 + qc q ^ 2 + qd q ^ 2 = 1.
Definition unit2 (q : q2) : Prop := ca q ^ 2 + cb q ^ 2 = 1.

(** squared Euclidean distance *)
Definition dist4 (p q : q4) : R :=
  (qa p - qa q) ^ 2 + (qb p - qb q) ^ 2 + (qc p - qc q) ^ 2 + (qd p - qd q) ^ 2.
Definition dist2 (p q : q2) : R := (ca p - ca q) ^ 2 + (cb p - cb q) ^ 2.

Definition scale4 (s : R) (q : q4) : q4 := Q4 (s * qa q) (s * qb q) (s * qc q) (s * qd q).
Definition scale2 (s : R) (q : q2) : q2 := Q2 (s * ca q) (s * cb q).
Definition add4 (p q : q4) : q4 := Q4 (qa p + qa q) (qb p + qb q) (qc p + qc q) (qd p + qd q).

Definition in_table (N i : Z) : Prop := (1 <= i <= N)%Z.

(** 3x3 matrices indexed 1..3 *)
Definition idx3 (i : Z) : Prop := (1 <= i <= 3)%Z.
Definition delta (i j : Z) : R := if (i =? j)%Z then 1 else 0.
Definition mmul (A B : Z -> Z -> R) (i j : Z) : R :=
  A i 1%Z * B 1%Z j + A i 2%Z * B 2%Z j + A i 3%Z * B 3%Z j.
Definition transpose (A : Z -> Z -> R) (i j : Z) : R := A j i.
Definition det3 (A : Z -> Z -> R) : R :=
  A 1%Z 1%Z * (A 2%Z 2%Z * A 3%Z 3%Z - A 2%Z 3%Z * A 3%Z 2%Z)
  - A 1%Z 2%Z * (A 2%Z 1%Z * A 3%Z 3%Z - A 2%Z 3%Z * A 3%Z 1%Z)
  + A 1%Z 3%Z * (A 2%Z 1%Z * A 3%Z 2%Z - A 2%Z 2%Z * A 3%Z 1%Z).
Definition proper_rotation (A : Z -> Z -> R) : Prop :=
  (forall i j, idx3 i -> idx3 j -> mmul A (transpose A) i j = delta i j) /\ det3 A = 1.

(** component k (1..4) of a quaternion replaced *)
Definition set_comp (q : q4) (k : Z) (x : R) : q4 :=
  match k with
  | 1%Z => Q4 x (qb q) (qc q) (qd q)
  | 2%Z => Q4 (qa q) x (qc q) (qd q)
  | 3%Z => Q4 (qa q) (qb q) x (qd q)
  | _ => Q4 (qa q) (qb q) (qc q) x
  end.
Definition comp (q : q4) (k : Z) : R :=
  match k with 1%Z => qa q | 2%Z => qb q | 3%Z => qc q | _ => qd q end.
Definition set_comp2 (q : q2) (k : Z) (x : R) : q2 :=
  match k with 1%Z => Q2 x (cb q) | _ => Q2 (ca q) x end.
Definition comp2 (q : q2) (k : Z) : R := match k with 1%Z => ca q | _ => cb q end.
