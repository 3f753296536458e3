(** Default run name (AMPE.cc:43-54).  std::string is a list of bytes; size_t arithmetic is modulo 2^64, npos is the
    largest size_t; substr throws (None) when the start lies beyond the end. *)
From Coq Require Import ZArith List Bool Ascii.
Import ListNotations.
Open Scope Z_scope.

Definition npos : Z := 2 ^ 64 - 1.
(** rfind(c), and find_last_of with a one-character set: position of the last c, npos without *)
Fixpoint last_pos (c : ascii) (s : list ascii) : option nat :=
  match s with
  | [] => None
  | x :: s => match last_pos c s with Some n => Some (S n) | None => if Ascii.eqb x c then Some 0%nat else None end
  end.
Definition rfind (c : ascii) (s : list ascii) : Z := match last_pos c s with Some n => Z.of_nat n | None => npos end.
Definition substr (s : list ascii) (a n : Z) : option (list ascii) :=
  if Z.of_nat (length s) <? a then None else Some (firstn (Z.to_nat (Z.min n (Z.of_nat (length s) - a))) (skipn (Z.to_nat a) s)).

Definition slash : ascii := "/"%char.
Definition dot : ascii := "."%char.
(** explicit = the run_name of the input database *)
Definition run_name (explicit : option (list ascii)) (input_filename : list ascii) : option (list ascii) :=
  match explicit with
  | Some name => Some name
  | None =>
      let a := rfind slash input_filename in
      let a := if a =? npos then 0 else a in
      let a := if 0 <? a then a + 1 else a in
      let b := rfind dot input_filename in
      substr input_filename a ((b - a) mod 2 ^ 64)
  end.
