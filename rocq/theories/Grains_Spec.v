(** Vocabulary for the grain numbering properties: domains, face neighbours, connectedness. *)
From Coq Require Import ZArith List Bool.
From Verif Require Import Weights_Model Grains_Model.
Import ListNotations.
Open Scope Z_scope.

(** c lies in the box b *)
Definition inside (b : box) (c : cell) : Prop := forall d, (d < 3)%nat -> fst (side d b) <= coord d c <= snd (side d b).
(** fine cell f lies in coarse cell c *)
Definition covers (r : ratio3) (c f : cell) : Prop :=
  let '(a, b, d) := r in
  coord 0 c * a <= coord 0 f < (coord 0 c + 1) * a /\ coord 1 c * b <= coord 1 f < (coord 1 c + 1) * b /\ coord 2 c * d <= coord 2 f < (coord 2 c + 1) * d.
Definition positive3 (r : ratio3) : Prop := let '(a, b, d) := r in 0 < a /\ 0 < b /\ 0 < d.
(** v is the smallest non-negative value of f on the set P, or -1 if f has none *)
Definition smallest_label (P : cell -> Prop) (f : field) (v : Z) : Prop :=
  (v = -1 /\ forall c, P c -> f c < 0) \/
  (0 <= v /\ (exists c, P c /\ f c = v) /\ forall c, P c -> 0 <= f c -> v <= f c).

(** c and c' share a face in one of the ndim directions, possibly across a periodic boundary *)
Definition neighbour (h : ghier) (l : glevel) (c c' : cell) : Prop :=
  exists d, (d < ndim h)%nat /\ (forall e, (e < 3)%nat -> e <> d -> coord e c' = coord e c) /\
  (coord d c' = coord d c + 1 \/ coord d c = coord d c' + 1 \/
   (periodic h d = true /\ ((coord d c = fst (side d (gdom l)) /\ coord d c' = snd (side d (gdom l))) \/
                            (coord d c' = fst (side d (gdom l)) /\ coord d c = snd (side d (gdom l)))))).
Definition grain_cell (l : glevel) (c : cell) : Prop := inside (gdom l) c /\ solid l c = true.
(** same connected grain of a level *)
Inductive linked (h : ghier) (l : glevel) (c : cell) : cell -> Prop :=
| linked_refl : grain_cell l c -> linked h l c c
| linked_step : forall a b, linked h l c a -> neighbour h l a b -> grain_cell l b -> linked h l c b.

(** a 2D domain is one cell thick *)
Definition dim_ok (h : ghier) (l : glevel) : Prop :=
  ndim h = 3%nat \/ (ndim h = 2%nat /\ fst (side 2 (gdom l)) = snd (side 2 (gdom l))).
(** a run with one level: patches tile the domain, indices start at or above 0, every cell has a positive weight *)
Definition one_level (h : ghier) (l : glevel) : Prop :=
  glevels h = [l] /\ dim_ok h l /\ (forall d, (d < 3)%nat -> 0 <= fst (side d (gdom l))) /\
  (forall b c, In b (gpatches l) -> inside b c -> inside (gdom l) c) /\
  (forall c, inside (gdom l) c -> exists b, In b (gpatches l) /\ inside b c) /\
  (forall c, inside (gdom l) c -> wpos l c = true).
(** [num] numbers the connected grains of l with 0 .. n-1 *)
Definition numbers_grains (h : ghier) (l : glevel) (num : field) (n : Z) : Prop :=
  (forall c, grain_cell l c -> 0 <= num c < n) /\
  (forall c, inside (gdom l) c -> solid l c = false -> num c = -1) /\
  (forall c c', grain_cell l c -> grain_cell l c' -> (num c = num c' <-> linked h l c c')) /\
  (forall k, 0 <= k < n -> exists c, grain_cell l c /\ num c = k).
(** no patch of the next finer level lies over cell c *)
Definition uncovered (h : ghier) (ln : nat) (c : cell) : Prop :=
  (S ln < length (glevels h))%nat -> forall f, In f (gpatches (lev h (S ln))) -> ~ inside (box_coarsen (gratio (lev h (S ln))) f) c.
(** cells that carry labels of their own: in a patch, of positive weight, not covered *)
Definition visible (h : ghier) (ln : nat) (c : cell) : Prop :=
  (exists b, In b (gpatches (lev h ln)) /\ inside b c) /\ wpos (lev h ln) c = true /\ uncovered h ln c.
Definition levels_ok (h : ghier) : Prop := (ndim h = 2 \/ ndim h = 3)%nat /\
  forall ln, (ln < length (glevels h))%nat -> positive3 (gratio (lev h ln)) /\ forall b c, In b (gpatches (lev h ln)) -> inside b c -> inside (gdom (lev h ln)) c.
