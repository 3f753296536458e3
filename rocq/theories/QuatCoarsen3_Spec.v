(** Vocabulary for the transfer of orientations in three dimensions. *)
From Coq Require Import Reals ZArith List.
From Verif Require Import Quat_Model Quat_Spec QuatCoarsen_Model QuatCoarsen_Spec QuatCoarsen3_Model.
Open Scope R_scope.

Definition within (b : ibox) (i j k : Z) : Prop := (lo0 b <= i <= hi0 b /\ lo1 b <= j <= hi1 b /\ lo2 b <= k <= hi2 b)%Z.
(** fine cell (i,j,k) is covered by coarse cell (c0,c1,c2) *)
Definition covered3 (r0 r1 r2 c0 c1 c2 i j k : Z) : Prop :=
  (c0 * r0 <= i < c0 * r0 + r0 /\ c1 * r1 <= j < c1 * r1 + r1 /\ c2 * r2 <= k < c2 * r2 + r2)%Z.
(** mean of g over the fine cells of a coarse cell *)
Definition average3 (r0 r1 r2 c0 c1 c2 : Z) (g : Z -> Z -> Z -> R) : R :=
  sumn (Z.to_nat r2) (fun k => sumn (Z.to_nat r1) (fun j => sumn (Z.to_nat r0) (fun i => g (c0 * r0 + i)%Z (c1 * r1 + j)%Z (c2 * r2 + k)%Z)))
  / (IZR r0 * IZR r1 * IZR r2).
Definition mean4 (r0 r1 r2 c0 c1 c2 : Z) (F : Z -> Z -> Z -> q4) : q4 :=
  let m g := average3 r0 r1 r2 c0 c1 c2 (fun i j k => g (F i j k)) in Q4 (m qa) (m qb) (m qc) (m qd).
Definition mean2 (r0 r1 r2 c0 c1 c2 : Z) (F : Z -> Z -> Z -> q2) : q2 :=
  let m g := average3 r0 r1 r2 c0 c1 c2 (fun i j k => g (F i j k)) in Q2 (m ca) (m cb).
(** p is the unit vector along m; zero if m has practically no length *)
Definition unit_along4 (m p : q4) : Prop :=
  (tiny <= quatmagn4 m -> exists s, 0 < s /\ p = scale4 s m /\ unit4 p) /\ (quatmagn4 m < tiny -> p = Q4 0 0 0 0).
Definition unit_along2 (m p : q2) : Prop :=
  (tiny <= quatmagn2 m -> exists s, 0 < s /\ p = scale2 s m /\ unit2 p) /\ (quatmagn2 m < tiny -> p = Q2 0 0).
(** a box at least two cells wide along every axis *)
Definition thick (nd3 : bool) (b : ibox) : Prop :=
  (lo0 b < hi0 b /\ lo1 b < hi1 b /\ if nd3 then lo2 b < hi2 b else lo2 b <= hi2 b)%Z.
