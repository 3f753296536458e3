(** Vocabulary for the anti-trapping flux. *)
From Coq Require Import Reals ZArith List.
From Verif Require Import Grid_Model Grid_Spec.
Open Scope R_scope.

(** solid fraction and its rate when order parameters 1..n are the solid grains *)
Definition total (n : Z) (a : arr3) : arr2 := fun i j => sumZ 1 n (fun p => a i j p).
(** a single field as a one-component array *)
Definition as_comp (a : arr2) : arr3 := fun i j _ => a i j.
Definition mean (a b : R) : R := (a + b) / 2.
