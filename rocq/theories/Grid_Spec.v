(** Vocabulary for statements about arrays on boxes. *)
From Coq Require Import Reals ZArith List.
From Verif Require Import Grid_Model.
Import ListNotations.
Open Scope R_scope.

(** sum of f over lo..hi *)
Fixpoint sum_from (lo : Z) (n : nat) (f : Z -> R) : R :=
  match n with O => 0 | S m => f lo + sum_from (lo + 1)%Z m f end.
Definition sumZ (lo hi : Z) (f : Z -> R) : R := sum_from lo (Z.to_nat (hi - lo + 1)) f.
Definition sum_box (lo0 hi0 lo1 hi1 : Z) (f : Z -> Z -> R) : R :=
  sumZ lo1 hi1 (fun j => sumZ lo0 hi0 (fun i => f i j)).
Definition sum_box3 (lo0 hi0 lo1 hi1 lo2 hi2 : Z) (f : Z -> Z -> Z -> R) : R :=
  sumZ lo2 hi2 (fun k => sumZ lo1 hi1 (fun j => sumZ lo0 hi0 (fun i => f i j k))).

Definition in_box (lo0 hi0 lo1 hi1 i j : Z) : Prop := (lo0 <= i <= hi0 /\ lo1 <= j <= hi1)%Z.
Definition in_box3 (lo0 hi0 lo1 hi1 lo2 hi2 i j k : Z) : Prop :=
  (lo0 <= i <= hi0 /\ lo1 <= j <= hi1 /\ lo2 <= k <= hi2)%Z.

(** a' differs from a exactly on the box, where it has the values v *)
Definition sets_box (lo0 hi0 lo1 hi1 : Z) (a a' v : arr2) : Prop :=
  forall i j, (in_box lo0 hi0 lo1 hi1 i j -> a' i j = v i j) /\ (~ in_box lo0 hi0 lo1 hi1 i j -> a' i j = a i j).
Definition sets_box3 (lo0 hi0 lo1 hi1 lo2 hi2 : Z) (a a' v : arr3) : Prop :=
  forall i j k, (in_box3 lo0 hi0 lo1 hi1 lo2 hi2 i j k -> a' i j k = v i j k) /\
    (~ in_box3 lo0 hi0 lo1 hi1 lo2 hi2 i j k -> a' i j k = a i j k).
