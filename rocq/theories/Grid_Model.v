(** Fortran [do] loops over index boxes and array stores, shared by the kernel models.
    Arrays are total functions from indices to exact reals; array bounds and
    aliasing are not modelled. *)
From Coq Require Import Reals ZArith List Bool.
Import ListNotations.
Open Scope Z_scope.

(** [do i = lo, hi] : the values of i in order *)
Definition range (lo hi : Z) : list Z := map (fun k => lo + Z.of_nat k) (seq 0 (Z.to_nat (hi - lo + 1))).

(** cell- or side-indexed arrays *)
Definition arr2 := Z -> Z -> R.
Definition arr3 := Z -> Z -> Z -> R.
Definition arr4 := Z -> Z -> Z -> Z -> R.

Definition upd2 (f : arr2) (i j : Z) (v : R) : arr2 :=
  fun a b => if (a =? i) && (b =? j) then v else f a b.
Definition upd3 (f : arr3) (i j k : Z) (v : R) : arr3 :=
  fun a b c => if (a =? i) && (b =? j) && (c =? k) then v else f a b c.
Definition upd4 (f : arr4) (i j k l : Z) (v : R) : arr4 :=
  fun a b c d => if (a =? i) && (b =? j) && (c =? k) && (d =? l) then v else f a b c d.

(** a single loop, state threaded in order *)
Definition do_loop {S : Type} (lo hi : Z) (body : Z -> S -> S) (s : S) : S :=
  fold_left (fun s i => body i s) (range lo hi) s.
(** [do j = lo1, hi1; do i = lo0, hi0] *)
Definition do_cells {S : Type} (lo0 hi0 lo1 hi1 : Z) (body : Z -> Z -> S -> S) (s : S) : S :=
  do_loop lo1 hi1 (fun j => do_loop lo0 hi0 (fun i => body i j)) s.
(** [do k = lo2, hi2; do j = lo1, hi1; do i = lo0, hi0] *)
Definition do_cells3 {S : Type} (lo0 hi0 lo1 hi1 lo2 hi2 : Z) (body : Z -> Z -> Z -> S -> S) (s : S) : S :=
  do_loop lo2 hi2 (fun k => do_loop lo1 hi1 (fun j => do_loop lo0 hi0 (fun i => body i j k))) s.
