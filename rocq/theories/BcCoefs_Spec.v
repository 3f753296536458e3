(** Vocabulary for C37-C39. *)
From Coq Require Import Reals ZArith List.
From Verif Require Import BcCoefs_Model.
Import ListNotations.
Open Scope R_scope.

(** strictly increasing *)
Fixpoint increasing (l : list R) : Prop := match l with x :: ((y :: _) as r) => x < y /\ increasing r | _ => True end.
(** first <= x < last *)
Definition covers (l : list R) (x : R) : Prop := exists a, nth_error l 0 = Some a /\ a <= x /\ exists b, In b l /\ x < b.
(** x is in [l_p, l_{p+1}) *)
Definition slot_of (l : list R) (x : R) (p : nat) : Prop := exists a b, nth_error l p = Some a /\ nth_error l (S p) = Some b /\ a <= x < b.
(** linear interpolation between the two entries around x *)
Definition interpolated (ts vs : list R) (x v : R) : Prop :=
  exists p tp tn vp vn, nth_error ts p = Some tp /\ nth_error ts (S p) = Some tn /\ nth_error vs p = Some vp /\ nth_error vs (S p) = Some vn /\
    tp <= x < tn /\ v = vp + (vn - vp) * ((x - tp) / (tn - tp)).
(** one entry of every coefficient per time *)
Definition full (c : coefs) (i : Z) : Prop :=
  length (a_map c i) = length (t_map c i) /\ length (b_map c i) = length (t_map c i) /\ length (g_map c i) = length (t_map c i).
(** the times asked for on each face never go back (m = last time per face) *)
Fixpoint nondecreasing_from (m : Z -> option R) (l : list (Z * R)) : Prop :=
  match l with
  | [] => True
  | (i, x) :: l => match m i with Some y => y <= x | None => True end /\ nondecreasing_from (fun j => if (j =? i)%Z then Some x else m j) l
  end.
