(** Parallel reductions of keyed values (tools.cc).  All ranks are modelled at once: a list with one entry per
    rank.  int is Z, double is R.  MPI_Allgather, MPI_Allgatherv and MPI_SUM are modelled by their meaning. *)
From Coq Require Import Reals ZArith List Bool.
Import ListNotations.
Open Scope R_scope.

(** std::map<int,double>: bindings in increasing order of the keys *)
Definition imap := list (Z * R).
(** m[k] += v : operator[] creates a missing entry with value 0 *)
Fixpoint add_to (m : imap) (k : Z) (v : R) : imap :=
  match m with
  | [] => [(k, 0 + v)]
  | (k', v') :: m' => if (k <? k')%Z then (k, 0 + v) :: m else if (k =? k')%Z then (k', v' + v) :: m' else (k', v') :: add_to m' k v
  end.
(** sumReduction(int), tools.cc:66-72: what every rank gets *)
Definition sumReduction (xs : list nat) : nat := fold_right Nat.add 0%nat xs.
(** allGatherSetup, tools.cc:75-102: displacements; None = TBOX_ERROR *)
Fixpoint displacements (d : nat) (rcounts : list nat) : list nat :=
  match rcounts with [] => [] | c :: cs => d :: displacements (d + c) cs end.
Definition allGatherSetup (rcounts : list nat) (size_out : nat) : option (list nat) :=
  if Nat.eqb (fold_left (fun c x => (c + x)%nat) rcounts 0%nat) size_out then Some (displacements 0 rcounts) else None.
(** new T[n] is not initialised: buffers of optional values; a store outside is None *)
Fixpoint store {A} (buf : list (option A)) (i : nat) (x : A) : option (list (option A)) :=
  match buf, i with
  | [], _ => None
  | _ :: b, O => Some (Some x :: b)
  | a :: b, S i => match store b i x with Some b' => Some (a :: b') | None => None end
  end.
Fixpoint store_block {A} (buf : list (option A)) (d : nat) (xs : list A) : option (list (option A)) :=
  match xs with [] => Some buf | x :: xs => match store buf d x with Some b => store_block b (S d) xs | None => None end end.
(** MPI_Allgatherv puts the data of rank p at displacement p of the receive buffer *)
Fixpoint place {A} (buf : list (option A)) (disps : list nat) (xss : list (list A)) : option (list (option A)) :=
  match disps, xss with
  | d :: ds, xs :: xss => match store_block buf d xs with Some b => place b ds xss | None => None end
  | _, _ => Some buf
  end.
(** allGatherv, tools.cc:104-138; xss: the x_in of all ranks *)
Definition allGatherv {A} (xss : list (list A)) (size_out : nat) : option (list (option A)) :=
  match allGatherSetup (map (@length A) xss) size_out with
  | Some disps => place (repeat None size_out) disps xss
  | None => None
  end.
(** listLocalToGlobal, tools.cc:20-50: what rank with gbl_map gbl holds afterwards; None = error, or use of
    uninitialised or out-of-bounds storage *)
Definition add_entry (gbl_n : list (option Z)) (gbl_v : list (option R)) (acc : option imap) (ii : nat) : option imap :=
  match acc, nth_error gbl_n ii, nth_error gbl_v ii with
  | Some m, Some (Some k), Some (Some v) => Some (add_to m k v)
  | _, _, _ => None
  end.
Definition listLocalToGlobal (lcls : list imap) (gbl : imap) : option imap :=
  let size_out := sumReduction (map (@length _) lcls) in
  match allGatherv (map (map fst) lcls) size_out, allGatherv (map (map snd) lcls) size_out with
  | Some gbl_n, Some gbl_v => fold_left (add_entry gbl_n gbl_v) (seq 0 size_out) (Some gbl)
  | _, _ => None
  end.
