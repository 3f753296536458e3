(** Control-volume weights on an AMR hierarchy.
    Index space is three-dimensional; a 2D run is the case of boxes one cell thick with
    dx = 1 and ratio 1 in the third direction.  A patch carries the two arrays d_weight_id
    and d_weight_diagnostics_id as total functions of the cell index (ghost cells and
    allocation are not modelled); SAMRAI's boxes are triples of index intervals. *)
From Coq Require Import Reals ZArith List Bool.
From Verif Require Import Grid_Model.
Import ListNotations.
Open Scope Z_scope.

Definition iv := (Z * Z)%type.
Definition box := (iv * iv * iv)%type.
Definition ratio3 := (Z * Z * Z)%type.
Record patch := mk_patch { pbox : box; weight : arr3; weight_diag : arr3 }.
(** ratio = getRatioToLevelZero *)
Record level := mk_level { lratio : ratio3; patches : list patch }.
(** levels, coarsest first; dx on level zero; getXLower, getXUpper *)
Record hierarchy := mk_hier { dx0 : R * R * R; xlower : R * R * R; xupper : R * R * R; levels : list level }.

(** SAMRAI Box operations: intersection, empty, coarsen (floor division of both corners) *)
Definition iv_inter (a b : iv) : iv := (Z.max (fst a) (fst b), Z.min (snd a) (snd b)).
Definition box_inter (a b : box) : box :=
  let '(a0, a1, a2) := a in let '(b0, b1, b2) := b in (iv_inter a0 b0, iv_inter a1 b1, iv_inter a2 b2).
Definition iv_in (a : iv) (i : Z) : bool := (fst a <=? i) && (i <=? snd a).
Definition box_in (a : box) (i j k : Z) : bool := let '(a0, a1, a2) := a in iv_in a0 i && iv_in a1 j && iv_in a2 k.
Definition iv_empty (a : iv) : bool := snd a <? fst a.
Definition box_empty (a : box) : bool := let '(a0, a1, a2) := a in iv_empty a0 || iv_empty a1 || iv_empty a2.
Definition iv_coarsen (r : Z) (a : iv) : iv := (fst a / r, snd a / r).
Definition box_coarsen (r : ratio3) (a : box) : box :=
  let '(r0, r1, r2) := r in let '(a0, a1, a2) := a in (iv_coarsen r0 a0, iv_coarsen r1 a1, iv_coarsen r2 a2).
Definition ratio_div (a b : ratio3) : ratio3 :=
  let '(a0, a1, a2) := a in let '(b0, b1, b2) := b in (a0 / b0, a1 / b1, a2 / b2).
(** CellData::fillAll(v, box) *)
Definition fill_box (v : R) (b : box) (w : arr3) : arr3 := fun i j k => if box_in b i j k then v else w i j k.

(** mesh spacing and cell volume of a level (patch_geometry->getDx(), QuatModel.cc:4731-4738) *)
Definition dx_level (d : R * R * R) (l : level) : R * R * R :=
  let '(d0, d1, d2) := d in let '(r0, r1, r2) := lratio l in (d0 / IZR r0, d1 / IZR r1, d2 / IZR r2)%R.
Definition cell_vol (d : R * R * R) (l : level) : R := let '(a, b, c) := dx_level d l in (a * b * c)%R.

Definition set_weight (w : arr3 -> arr3) (p : patch) : patch := mk_patch (pbox p) (w (weight p)) (weight_diag p).
Definition set_diag (w : arr3 -> arr3) (p : patch) : patch := mk_patch (pbox p) (weight p) (w (weight_diag p)).
Definition on_patches (f : patch -> patch) (l : level) : level := mk_level (lratio l) (map f (patches l)).
Definition on_levels (f : list level -> list level) (h : hierarchy) : hierarchy :=
  mk_hier (dx0 h) (xlower h) (xupper h) (f (levels h)).

(** QuatModel::zeroOutLowerLevelWeights, QuatModel.cc:4839-4886: one level against the next finer one.
    The loop over levels touches every level once and reads only boxes of the finer level. *)
Definition zero_patch (coarsened_boxes : list box) (p : patch) : patch :=
  fold_left (fun p coarse_box =>
    let intersection := box_inter coarse_box (pbox p) in
    if box_empty intersection then p else set_weight (fill_box 0%R intersection) p) coarsened_boxes p.
Definition zero_level (l finer : level) : level :=
  let coarsened_boxes := map (fun p => box_coarsen (ratio_div (lratio finer) (lratio l)) (pbox p)) (patches finer) in
  on_patches (zero_patch coarsened_boxes) l.
Fixpoint zero_levels (ls : list level) : list level :=
  match ls with
  | [] => []
  | l :: rest => match rest with [] => [l] | f :: _ => zero_level l f :: zero_levels rest end
  end.
Definition zeroOutLowerLevelWeights (h : hierarchy) : hierarchy := on_levels zero_levels h.

(** QuatModel::computeVectorWeights, QuatModel.cc:4710-4750 *)
Definition computeVectorWeights (h : hierarchy) : hierarchy :=
  zeroOutLowerLevelWeights
    (on_levels (map (fun l => on_patches (set_weight (fun _ _ _ _ => cell_vol (dx0 h) l)) l)) h).

(** EllipticFACOps::computeVectorWeights, EllipticFACOps.cc:1796-1891, on the levels coarsest_ln..finest_ln
    (-1 = default); None = TBOX_ERROR; other levels are not touched.
    The weight array of this call is [weight]. *)
Definition fac_levels (d : R * R * R) (ls : list level) : list level :=
  zero_levels (map (fun l => on_patches (set_weight (fun _ _ _ _ => cell_vol d l)) l) ls).
Definition fac_computeVectorWeights (h : hierarchy) (coarsest_ln finest_ln : Z) : option hierarchy :=
  let coarsest_ln := if coarsest_ln =? -1 then 0 else coarsest_ln in
  let finest_ln := if finest_ln =? -1 then Z.of_nat (length (levels h)) - 1 else finest_ln in
  if finest_ln <? coarsest_ln then None
  else
    let c := Z.to_nat coarsest_ln in let f := Z.to_nat finest_ln in
    let ls := levels h in
    Some (on_levels (fun _ => firstn c ls ++ fac_levels (dx0 h) (firstn (S f - c) (skipn c ls)) ++ skipn (S f) ls) h).

(** QuatModel::computeVectorWeightsDiagnostics, QuatModel.cc:4752-4837; fr = d_subdomain_diagnostics *)
Definition diag_bounds (low up fr : R) : R * R :=
  let dd := ((up - low) * (1 - fr))%R in ((low + 1 / 2 * dd)%R, (up - 1 / 2 * dd)%R).
Definition diag_cell (low up fr dx : R) (i : Z) (w : R) : R :=
  let '(dlow, dup) := diag_bounds low up fr in
  let x := (low + IZR i * dx)%R in
  let w := if Rlt_dec x dlow then 0%R else w in
  if Rlt_dec dup x then 0%R else w.
Definition diag_fill (h : hierarchy) (fr : R * R * R) (l : level) : level :=
  let '(l0, l1, l2) := xlower h in let '(u0, u1, u2) := xupper h in let '(f0, f1, f2) := fr in
  let '(d0, d1, d2) := dx_level (dx0 h) l in
  on_patches (fun p => set_diag (fun _ i j k =>
    if box_in (pbox p) i j k
    then diag_cell l2 u2 f2 d2 k (diag_cell l1 u1 f1 d1 j (diag_cell l0 u0 f0 d0 i (cell_vol (dx0 h) l)))
    else cell_vol (dx0 h) l) p) l.
Definition computeVectorWeightsDiagnostics (fr : R * R * R) (h : hierarchy) : hierarchy :=
  zeroOutLowerLevelWeights (on_levels (map (diag_fill h fr)) h).
