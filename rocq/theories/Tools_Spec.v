(** Maps as finite functions. *)
From Coq Require Import Reals ZArith List Sorted.
From Verif Require Import Tools_Model.
Import ListNotations.
Open Scope R_scope.

(** a map: strictly increasing keys *)
Definition is_map (m : imap) : Prop := StronglySorted Z.lt (map fst m).
(** value of a key, zero if absent *)
Fixpoint get (m : imap) (k : Z) : R := match m with [] => 0 | (k', v) :: m => (if (k' =? k)%Z then v else 0) + get m k end.
Definition has_key (m : imap) (k : Z) : Prop := In k (map fst m).
(** contributions of all ranks to a key, and total of all values *)
Definition contributions (ms : list imap) (k : Z) : R := fold_right (fun m v => get m k + v) 0 ms.
Definition total (m : imap) : R := fold_right (fun kv v => snd kv + v) 0 m.
Definition grand_total (ms : list imap) : R := fold_right (fun m v => total m + v) 0 ms.
