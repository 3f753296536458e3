From Coq Require Import Reals ZArith List Bool.
From Verif Require Import Grid_Model Grid_Spec PhaseFlow_Model QuatSolver_Model.
Import ListNotations.
Open Scope R_scope.

(** the sides of a cell, the cell behind a side, the face of a side, spacing across it *)
Inductive side := West | East | South | North.
Definition side_loc (s : side) : Z := match s with West => 0 | East => 1 | South => 2 | North => 3 end%Z.
Definition out0 (s : side) (i : Z) : Z := match s with West => i - 1 | East => i + 1 | _ => i end%Z.
Definition out1 (s : side) (j : Z) : Z := match s with South => j - 1 | North => j + 1 | _ => j end%Z.
Definition face0 (s : side) (i : Z) : Z := match s with East => i + 1 | _ => i end%Z.
Definition face1 (s : side) (j : Z) : Z := match s with North => j + 1 | _ => j end%Z.
Definition spacing (lv : qlevel) (s : side) : R := match s with West | East => hx lv | _ => hy lv end.
Definition face_coef (o : qop) (s : side) (i j : Z) : R :=
  match s with West | East => fcx o (face0 s i) (face1 s j) | _ => fcy o (face0 s i) (face1 s j) end.

(** the boundary box lies behind this side of the cell *)
Definition covers (bb : bdry) (s : side) (i j : Z) : bool :=
  ((loc bb =? side_loc s) &&
   match s with
   | West => (i =? bu0 bb + 1) && (bl1 bb <=? j) && (j <=? bu1 bb)
   | East => (i =? bl0 bb - 1) && (bl1 bb <=? j) && (j <=? bu1 bb)
   | South => (j =? bu1 bb + 1) && (bl0 bb <=? i) && (i <=? bu0 bb)
   | North => (j =? bl1 bb - 1) && (bl0 bb <=? i) && (i <=? bu0 bb)
   end)%Z.

(** the boundary boxes of a patch lie behind sides of its cells; exactly one behind a side that leaves the level, none
    behind the others *)
Definition bdry_ok (lv : qlevel) (p : qpatch) : Prop :=
  (forall bb s i j, In bb (matrix_boundaries lv p) -> covers bb s i j = true -> in_qpatch p i j = true) /\
  (forall i j s, in_qpatch p i j = true ->
     length (filter (fun bb => covers bb s i j) (matrix_boundaries lv p)) = if in_qlevel lv (out0 s i) (out1 s j) then 0%nat else 1%nat).
Definition good_level (lv : qlevel) : Prop :=
  0 < hx lv /\ 0 < hy lv /\
  ForallOrdPairs (fun p p' => forall i j, in_qpatch p i j = true -> in_qpatch p' i j = false) (qpatches lv) /\
  (forall p, In p (qpatches lv) -> bdry_ok lv p /\ ((0 < ln lv)%Z \/ coarse_fine p = nil)).
(** a property of the boundary conditions: of the box, the side and the cell inside *)
Definition on_boundary (lv : qlevel) (P : bdry -> side -> Z -> Z -> Prop) : Prop :=
  forall p bb s i j, In p (qpatches lv) -> In bb (matrix_boundaries lv p) -> covers bb s i j = true -> P bb s i j.
Definition a_between (bb : bdry) (s : side) (i j : Z) : Prop := 0 <= acoef bb (face0 s i) (face1 s j) <= 1.
(** the Robin condition, with the mean and the difference of the two cells *)
Definition robin (lv : qlevel) (q : arr2) (bb : bdry) (s : side) (i j : Z) : Prop :=
  let a := acoef bb (face0 s i) (face1 s j) in
  a * ((q (out0 s i) (out1 s j) + q i j) / 2) + (1 - a) * ((q (out0 s i) (out1 s j) - q i j) / spacing lv s)
  = gcoef bb (face0 s i) (face1 s j).
(** the mobility is the same on both sides of the boundary, or the condition prescribes the value of the ghost cell: this
    is what SAMRAI's GhostCellRobinBcCoefs does at a coarse-fine boundary, a = 1 / (1 + h / 2) *)
Definition mobility_ok (lv : qlevel) (o : qop) (bb : bdry) (s : side) (i j : Z) : Prop :=
  sm o (out0 s i) (out1 s j) = sm o i j \/ acoef bb (face0 s i) (face1 s j) = 1 / (1 + spacing lv s / 2).

(** all cells of a level, sums over them *)
Definition patch_cells (p : qpatch) : list (Z * Z) := flat_map (fun i => map (fun j => (i, j)) (range (qlo1 p) (qhi1 p))) (range (qlo0 p) (qhi0 p)).
Definition level_cells (lv : qlevel) : list (Z * Z) := flat_map patch_cells (qpatches lv).
Definition sum_over (l : list (Z * Z)) (f : Z -> Z -> R) : R := fold_right (fun c s => f (fst c) (snd c) + s) 0 l.
Definition inner (lv : qlevel) (x y : arr2) : R := sum_over (level_cells lv) (fun i j => x i j * y i j).

(** the orientation equation linearised with frozen coefficients: q - gamma M div(D grad q) *)
Definition implicit_operator (gamma dx dy : R) (M Dx Dy q : arr2) (i j : Z) : R :=
  q i j - gamma * M i j *
    ((Dx (i + 1)%Z j * (q (i + 1)%Z j - q i j) / dx - Dx i j * (q i j - q (i - 1)%Z j) / dx) / dx
     + (Dy i (j + 1)%Z * (q i (j + 1)%Z - q i j) / dy - Dy i j * (q i j - q i (j - 1)%Z) / dy) / dy).
