(** Grain numbering (Grains.cc, MinIntCoarsen.cc).
    A cell index is a triple; in 2D the third index is constant and only the first two directions are used.
    int is Z (no overflow).  A level carries its physical domain (one bounding box and the number of boxes it is
    made of), its patches, and two predicates on cells: phase >= threshold and weight > 0; these comparisons are
    all the code does with the two arrays.  The value of a label field outside all patches is irrelevant.
    Data of all ranks are modelled together: fillData, coarsenData, Allreduce and allGatherv act on the union. *)
From Coq Require Import ZArith List Bool.
From Verif Require Import Weights_Model.
Import ListNotations.
Open Scope Z_scope.

Definition cell := (Z * Z * Z)%type.
Definition cell_in (b : box) (c : cell) : bool := let '(i, j, k) := c in box_in b i j k.
Definition coord (d : nat) (c : cell) : Z := let '(i, j, k) := c in match d with O => i | 1%nat => j | _ => k end.
Definition cell_eqb (a b : cell) : bool := (coord 0 a =? coord 0 b) && (coord 1 a =? coord 1 b) && (coord 2 a =? coord 2 b).
Definition side (d : nat) (b : box) : iv := let '(x, y, z) := b in match d with O => x | 1%nat => y | _ => z end.
(** Box::numberCells(d) *)
Definition width (d : nat) (b : box) : Z := snd (side d b) - fst (side d b) + 1.
Definition field := cell -> Z.
Definition set (g : field) (c : cell) (v : Z) : field := fun a => if cell_eqb a c then v else g a.
(** pdat::CellIterator: first index fastest *)
Definition zrange (lo hi : Z) : list Z := map (fun n => lo + Z.of_nat n) (seq 0 (Z.to_nat (hi - lo + 1))).
Definition cells (b : box) : list cell :=
  flat_map (fun k => flat_map (fun j => map (fun i => (i, j, k)) (zrange (fst (side 0 b)) (snd (side 0 b))))
    (zrange (fst (side 1 b)) (snd (side 1 b)))) (zrange (fst (side 2 b)) (snd (side 2 b))).

Record glevel := mk_glevel { gdom : box; nboxes : Z; gratio : ratio3; gpatches : list box; solid : cell -> bool; wpos : cell -> bool }.
(** NDIM, periodic directions, levels (coarsest first); gratio = ratio to the next coarser level *)
Record ghier := mk_ghier { ndim : nat; periodic : nat -> bool; glevels : list glevel }.
Definition empty_level : glevel := mk_glevel ((0, -1), (0, -1), (0, -1)) 0 (1, 1, 1) [] (fun _ => false) (fun _ => false).
Definition lev (h : ghier) (ln : nat) : glevel := nth ln (glevels h) empty_level.

(** MinIntCoarsen::coarsen, MinIntCoarsen.cc:63-106, depth 0 (the only component written) *)
Definition fine_box (r : ratio3) (c : cell) : box :=
  let '(i, j, k) := c in let '(a, b, d) := r in ((i * a, i * a + a - 1), (j * b, j * b + b - 1), (k * d, k * d + d - 1)).
Definition min_int (coarse_val fine_val : Z) : Z :=
  if 0 <=? fine_val then if (coarse_val <? 0) || (fine_val <? coarse_val) then fine_val else coarse_val else coarse_val.
Definition min_coarsen (fine : field) (coarse_box : box) (r : ratio3) (coarse : field) : field :=
  fold_left (fun cd c => fold_left (fun cd f => set cd c (min_int (cd c) (fine f))) (cells (fine_box r c)) (set cd c (-1))) (cells coarse_box) coarse.

(** tables of Grains.cc:288-321: the strides, the indices written outside the array of NDIM*nlevels entries, the offsets *)
Definition write (size : Z) (t : (Z -> Z) * list Z) (i v : Z) : (Z -> Z) * list Z :=
  (fun a => if a =? i then v else fst t a, if (0 <=? i) && (i <? size) then snd t else snd t ++ [i]).
Definition stride_level (nd : nat) (size : Z) (t : (Z -> Z) * list Z) (lnl : nat * glevel) : (Z -> Z) * list Z :=
  let '(ln, l) := lnl in
  let nn := Z.of_nat nd * Z.of_nat ln in
  fold_left (fun t dd => write size t (nn + Z.of_nat dd + 1) (fst t (nn + Z.of_nat dd) * width dd (gdom l))) (seq 0 nd) (write size t nn 1).
Definition numbered (h : ghier) : list (nat * glevel) := combine (seq 0 (length (glevels h))) (glevels h).
Definition level_stride (h : ghier) : (Z -> Z) * list Z :=
  fold_left (stride_level (ndim h) (Z.of_nat (length (glevels h)) * Z.of_nat (ndim h))) (numbered h) (fun _ => 0, []).
Definition level_offset (h : ghier) (ln : nat) : Z := fold_left (fun o l => o + nboxes l) (firstn ln (glevels h)) 0.
(** max_iteration_count, Grains.cc:283,314-324 *)
Definition max_iteration_count (h : ghier) : Z :=
  2 * fold_left (fun m l => fold_left (fun m dd => let w := width dd (gdom l) in if m <? w then 2 * w else m) (seq 0 (ndim h)) m) (glevels h) 0.
(** label of a cell and initial field, Grains.cc:346-362 *)
Definition label (h : ghier) (ln : nat) (c : cell) : Z :=
  fold_left (fun nn dd => nn + fst (level_stride h) (Z.of_nat (ndim h) * Z.of_nat ln + Z.of_nat dd) * coord dd c) (seq 0 (ndim h)) (level_offset h ln).
Definition in_patches (l : glevel) (c : cell) : bool := existsb (fun b => cell_in b c) (gpatches l).
Definition initial (h : ghier) (ln : nat) : field := fun c => if in_patches (lev h ln) c && solid (lev h ln) c then label h ln c else -1.
Definition fields := nat -> field.
Definition set_level (g : fields) (ln : nat) (f : field) : fields := fun m => if Nat.eqb m ln then f else g m.
(** coarsenData of level ln+1 into ln *)
Definition coarsen_data (h : ghier) (ln : nat) (g : fields) : fields :=
  let l := lev h (S ln) in
  set_level g ln (fold_left (fun cd f => min_coarsen (g (S ln)) (box_coarsen (gratio l) f) (gratio l) cd) (gpatches l) (g ln)).
(** for (ln = maxln - 1; ln >= 0; ln--) coarsenData, Grains.cc:375-377,635-637 *)
Definition coarsen_all (h : ghier) (g : fields) : fields :=
  fold_left (fun g ln => coarsen_data h ln g) (rev (seq 0 (length (glevels h) - 1))) g.

(** ghost values after fillData without physical boundary fill, Grains.cc:392-394: the (periodic image of the) cell on the
    same level, else CONSTANT_REFINE from the coarser level, else the initial -1 *)
Definition wrap (per : bool) (s : iv) (i : Z) : Z := if per then fst s + (i - fst s) mod (snd s - fst s + 1) else i.
Definition image (h : ghier) (l : glevel) (c : cell) : cell :=
  (wrap (periodic h 0) (side 0 (gdom l)) (coord 0 c), wrap (periodic h 1) (side 1 (gdom l)) (coord 1 c), wrap (periodic h 2) (side 2 (gdom l)) (coord 2 c)).
Definition coarse_cell (r : ratio3) (c : cell) : cell := let '(i, j, k) := c in let '(a, b, d) := r in (i / a, j / b, k / d).
Definition ghost (h : ghier) (g : fields) (ln : nat) : field := fun c =>
  let l := lev h ln in
  let c' := image h l c in
  if cell_in (gdom l) c' then
    if in_patches l c' then g ln c'
    else match ln with O => -1 | S m => g m (coarse_cell (gratio l) c') end
  else -1.

(** one cell of the bucket fill, Grains.cc:480-504; the state is the label field of the patch and [changed] *)
Definition shift (d : nat) (s : Z) (c : cell) : cell :=
  let '(i, j, k) := c in match d with O => (i + s, j, k) | 1%nat => (i, j + s, k) | _ => (i, j, k + s) end.
Definition gstate := (field * bool)%type.
Definition see (b : box) (gh g : field) (c : cell) : Z := if cell_in b c then g c else gh c.
Definition take (n v : Z) (c : cell) (s : gstate) : gstate := if (0 <=? v) && (v <? n) then (set (fst s) c v, true) else s.
Definition relax_dir (b : box) (gh : field) (n : Z) (c : cell) (s : gstate) (d : nat) : gstate :=
  let s := take n (see b gh (fst s) (shift d (-1) c)) c s in
  take n (see b gh (fst s) (shift d 1 c)) c s.
Definition relax (nd : nat) (wp : cell -> bool) (b : box) (gh : field) (s : gstate) (c : cell) : gstate :=
  let n := fst s c in if (0 <=? n) && wp c then fold_left (relax_dir b gh n c) (seq 0 nd) s else s.
Definition sweep_patch (nd : nat) (wp : cell -> bool) (gh : field) (s : gstate) (b : box) : gstate :=
  fold_left (relax nd wp b gh) (cells b) s.
(** one level, then coarsenData if it is not the coarsest, Grains.cc:386-511 *)
Definition sweep_level (h : ghier) (s : fields * bool) (ln : nat) : fields * bool :=
  let l := lev h ln in
  let r := fold_left (sweep_patch (ndim h) (wpos l) (ghost h (fst s) ln)) (gpatches l) (fst s ln, snd s) in
  let g := set_level (fst s) ln (fst r) in
  (match ln with O => g | S m => coarsen_data h m g end, snd r).
Definition sweep (h : ghier) (g : fields) : fields * bool := fold_left (sweep_level h) (seq 0 (length (glevels h))) (g, false).
(** the while loop, Grains.cc:383-520; second component: left by the break *)
Fixpoint bucket_fill (h : ghier) (fuel : nat) (g : fields) : fields * bool :=
  match fuel with
  | O => (g, false)
  | S fuel => let r := sweep h g in if snd r then bucket_fill h fuel (fst r) else (fst r, true)
  end.

(** sorted set of the labels in use, Grains.cc:536-593 *)
Fixpoint insert (n : Z) (l : list Z) : list Z :=
  match l with [] => [n] | m :: l' => if n <? m then n :: l else if n =? m then l else m :: insert n l' end.
Definition grain_list (h : ghier) (g : fields) : list Z :=
  fold_left (fun s lnl => let '(ln, l) := lnl in fold_left (fun s b => fold_left (fun s c =>
    if (0 <=? g ln c) && wpos l c then insert (g ln c) s else s) (cells b) s) (gpatches l) s) (numbered h) [].
(** grain_number_map[n]: position in the list; 0 for a missing key *)
Fixpoint position (n : Z) (l : list Z) (ii : Z) : option Z :=
  match l with [] => None | m :: l => if m =? n then Some ii else position n l (ii + 1) end.
Definition grain_number (l : list Z) (n : Z) : Z := match position n l 0 with Some ii => ii | None => 0 end.
(** renumbering, Grains.cc:608-637 *)
Definition renumber (h : ghier) (g : fields) : fields :=
  let nums := grain_list h g in
  coarsen_all h (fun ln c => let n := g ln c in if (0 <=? n) && in_patches (lev h ln) c then grain_number nums n else n).
(** findAndNumberGrains, Grains.cc:263-640: numbers, d_number_of_grains, and whether the loop was left by the break *)
Definition find_grains (h : ghier) (fuel : nat) : fields * Z * bool :=
  let r := bucket_fill h fuel (coarsen_all h (initial h)) in
  (renumber h (fst r), Z.of_nat (length (grain_list h (fst r))), snd r).
Definition findAndNumberGrains (h : ghier) : fields * Z * bool := find_grains h (Z.to_nat (max_iteration_count h)).
