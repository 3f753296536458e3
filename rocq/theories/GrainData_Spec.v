(** Vocabulary for grain volumes, grain concentrations and the extension of orientations. *)
From Coq Require Import Reals ZArith List Bool.
From Verif Require Import Weights_Model Grains_Model Grains_Spec Tools_Model Tools_Spec GrainData_Model.
Import ListNotations.
Open Scope Z_scope.

(** the cells of all patches of all processes, with their level *)
Definition all_cells (ps : list process) : list (nat * cell) :=
  flat_map (flat_map (fun lb => map (pair (fst lb)) (cells (snd lb)))) ps.
(** sum of f over those cells of the list that belong to grain n and count (those under a finer level have weight zero) *)
Fixpoint grain_sum (num : fields) (wgt : data) (n : Z) (f : nat -> cell -> R) (l : list (nat * cell)) : R :=
  match l with
  | [] => 0%R
  | (ln, c) :: l => ((if num ln c =? n then if Rlt_dec 0 (wgt ln c) then f ln c else 0 else 0) + grain_sum num wgt n f l)%R
  end.
(** sum of f over the cells of all grains *)
Fixpoint grains_sum (num : fields) (wgt : data) (f : nat -> cell -> R) (l : list (nat * cell)) : R :=
  match l with
  | [] => 0%R
  | (ln, c) :: l => ((if 0 <=? num ln c then if Rlt_dec 0 (wgt ln c) then f ln c else 0 else 0) + grains_sum num wgt f l)%R
  end.
(** grain n has a cell that counts *)
Definition present (num : fields) (wgt : data) (ps : list process) (n : Z) : Prop :=
  0 <= n /\ exists ln c, In (ln, c) (all_cells ps) /\ num ln c = n /\ (0 < wgt ln c)%R.

(** walks of n steps between face neighbours inside the domain of a level *)
Inductive steps (h : ghier) (l : glevel) : nat -> cell -> cell -> Prop :=
| steps_O : forall c, inside (gdom l) c -> steps h l 0 c c
| steps_S : forall n a b c, steps h l n a b -> neighbour h l b c -> inside (gdom l) c -> steps h l (S n) a c.
(** k is the distance of c from the nearest grain cell, g is one of the nearest *)
Definition nearest (h : ghier) (l : glevel) (k : nat) (g c : cell) : Prop :=
  grain_cell l g /\ steps h l k g c /\ forall j g', (j < k)%nat -> grain_cell l g' -> ~ steps h l j g' c.
(** no grain cell within k steps *)
Definition far (h : ghier) (l : glevel) (k : nat) (c : cell) : Prop := forall j g, (j <= k)%nat -> grain_cell l g -> ~ steps h l j g c.
(** a run with one level: patches tile the domain *)
Definition tiled (h : ghier) (l : glevel) : Prop :=
  glevels h = [l] /\ dim_ok h l /\ (forall b c, In b (gpatches l) -> inside b c -> inside (gdom l) c) /\
  (forall c, inside (gdom l) c -> exists b, In b (gpatches l) /\ inside b c).
(** no ghost cell outside the domain happens to hold the tag of a grain cell; in directions that are periodic there are none *)
Definition clean_ghosts (junk : nat -> cell -> Z) : Prop := forall ln c, junk ln c <> 1.
