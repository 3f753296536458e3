(** Vocabulary for C41: successive times. *)
From Coq Require Import Reals List.
From Verif Require Import BcCoefs_Spec.
Import ListNotations.
Open Scope R_scope.
Definition in_order (l : list (R * R)) : Prop := increasing (map fst l).
