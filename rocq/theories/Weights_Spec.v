(** Vocabulary for integrals over an AMR hierarchy. *)
From Coq Require Import Reals ZArith List.
From Verif Require Import Grid_Model Grid_Spec Weights_Model.
Import ListNotations.
Open Scope R_scope.

Fixpoint sumL {A} (f : A -> R) (l : list A) : R := match l with [] => 0 | a :: l => f a + sumL f l end.
Definition in_iv (a : iv) (i : Z) : Prop := (fst a <= i <= snd a)%Z.
Definition inside (b : box) (i j k : Z) : Prop := let '(a0, a1, a2) := b in in_iv a0 i /\ in_iv a1 j /\ in_iv a2 k.
Definition sum_cells (b : box) (f : arr3) : R :=
  let '(a0, a1, a2) := b in sum_box3 (fst a0) (snd a0) (fst a1) (snd a1) (fst a2) (snd a2) f.
(** refinement ratio between consecutive levels *)
Definition refines (r : ratio3) (l f : level) : Prop :=
  let '(r0, r1, r2) := r in let '(a0, a1, a2) := lratio l in
  (1 <= r0 /\ 1 <= r1 /\ 1 <= r2)%Z /\ lratio f = (a0 * r0, a1 * r1, a2 * r2)%Z.
(** the fine cells (i r0 + a, j r1 + b, k r2 + c) subdivide the cell (i,j,k); it is covered if one of them
    belongs to the finer level *)
Definition child (r i a : Z) (fi : Z) : Prop := (0 <= a < r /\ fi = i * r + a)%Z.
Definition covered (r : ratio3) (f : level) (i j k : Z) : Prop :=
  let '(r0, r1, r2) := r in
  exists p fi fj fk a b c, In p (patches f) /\ inside (pbox p) fi fj fk /\ child r0 i a fi /\ child r1 j b fj /\ child r2 k c fk.

(** what SAMRAI guarantees: non-empty disjoint boxes; boxes of the finer level start and end at coarse cell
    boundaries and lie over the coarser level *)
Definition disjoint_boxes (ps : list patch) : Prop :=
  forall n m i j k p q, nth_error ps n = Some p -> nth_error ps m = Some q ->
    inside (pbox p) i j k -> inside (pbox q) i j k -> n = m.
Definition nonempty_iv (a : iv) : Prop := (fst a <= snd a)%Z.
Definition nonempty (b : box) : Prop := let '(a0, a1, a2) := b in nonempty_iv a0 /\ nonempty_iv a1 /\ nonempty_iv a2.
Definition aligned_iv (r : Z) (a : iv) : Prop := (Z.divide r (fst a) /\ Z.divide r (snd a + 1))%Z.
Definition aligned (r : ratio3) (b : box) : Prop :=
  let '(r0, r1, r2) := r in let '(a0, a1, a2) := b in aligned_iv r0 a0 /\ aligned_iv r1 a1 /\ aligned_iv r2 a2.
Definition positive3 (r : ratio3) : Prop := let '(a, b, c) := r in (0 < a /\ 0 < b /\ 0 < c)%Z.
Definition level_ok (l : level) : Prop :=
  positive3 (lratio l) /\ disjoint_boxes (patches l) /\ forall p, In p (patches l) -> nonempty (pbox p).
Definition nested (l f : level) : Prop := exists r, refines r l f /\
  (forall p, In p (patches f) -> aligned r (pbox p)) /\
  (forall i j k, covered r f i j k -> exists p, In p (patches l) /\ inside (pbox p) i j k).
Fixpoint chain (ls : list level) : Prop :=
  match ls with [] => True | l :: rest => level_ok l /\ match rest with [] => True | f :: _ => nested l f end /\ chain rest end.
Definition well_formed (h : hierarchy) : Prop := chain (levels h).

(** weighted sum of a field given per level (math::HierarchyCellDataOpsReal::integral) *)
Definition level_sum (l : level) (g : patch -> arr3) : R :=
  sumL (fun p => sum_cells (pbox p) (g p)) (patches l).
Fixpoint integral (wt : patch -> arr3) (u : nat -> arr3) (n : nat) (ls : list level) : R :=
  match ls with
  | [] => 0
  | l :: rest => level_sum l (fun p i j k => wt p i j k * u n i j k) + integral wt u (S n) rest
  end.
Definition hier_integral (wt : patch -> arr3) (u : nat -> arr3) (h : hierarchy) : R := integral wt u 0 (levels h).
(** coarse values are averages of the fine ones where there are any *)
Definition averaged (r : ratio3) (f : level) (u v : arr3) : Prop :=
  let '(r0, r1, r2) := r in
  forall i j k, covered r f i j k ->
    IZR r0 * IZR r1 * IZR r2 * u i j k =
    sum_box3 (i * r0) (i * r0 + r0 - 1) (j * r1) (j * r1 + r1 - 1) (k * r2) (k * r2 + r2 - 1) v.
Fixpoint coarsened (u : nat -> arr3) (n : nat) (ls : list level) : Prop :=
  match ls with
  | [] => True
  | l :: rest => match rest with [] => True | f :: _ => forall r, refines r l f -> averaged r f (u n) (u (S n)) end /\ coarsened u (S n) rest
  end.
(** the level tiles the box *)
Definition tiles (l : level) (b : box) : Prop :=
  forall i j k, inside b i j k <-> exists p, In p (patches l) /\ inside (pbox p) i j k.

(** the lower corner of a cell lies in the central part (a fraction fr of the length) of the domain *)
Definition in_sub (low up fr dx : R) (i : Z) : Prop :=
  low + (up - low) * (1 - fr) / 2 <= low + IZR i * dx <= up - (up - low) * (1 - fr) / 2.
Definition in_subdomain (h : hierarchy) (fr : R * R * R) (l : level) (i j k : Z) : Prop :=
  let '(l0, l1, l2) := xlower h in let '(u0, u1, u2) := xupper h in let '(f0, f1, f2) := fr in
  let '(d0, d1, d2) := dx_level (dx0 h) l in
  in_sub l0 u0 f0 d0 i /\ in_sub l1 u1 f1 d1 j /\ in_sub l2 u2 f2 d2 k.
Definition same_weights (p q : patch) : Prop := pbox p = pbox q /\ forall i j k, weight p i j k = weight q i j k.
