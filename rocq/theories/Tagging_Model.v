(** Refinement tagging: differences, cell gradients, tags (2D and 3D kernels and their driver).
    Ghost values of the fields are inputs (copyCurrentToScratch fills them).  Orientation differences are those
    without symmetry rotation.  Arrays with depth are functions of the component index; the Fortran loops over the
    component repeat the scalar loops on each component. *)
From Coq Require Import Reals ZArith List Bool.
From Verif Require Import Grid_Model.
Import ListNotations.
Open Scope R_scope.

(** integer arrays *)
Definition iarr2 := Z -> Z -> Z.
Definition iarr3 := Z -> Z -> Z -> Z.
Definition iupd2 (f : iarr2) (i j v : Z) : iarr2 := fun a b => if ((a =? i) && (b =? j))%Z then v else f a b.
Definition iupd3 (f : iarr3) (i j k v : Z) : iarr3 := fun a b c => if ((a =? i) && (b =? j) && (c =? k))%Z then v else f a b c.

(** ** 2D *)
(** diffs, 2d/quatdiffs.m4:14-48 *)
Definition diffs2_x (lo0 hi0 lo1 hi1 : Z) (v diff_x : arr2) : arr2 :=
  do_cells lo0 (hi0 + 1) (lo1 - 1) (hi1 + 1) (fun i j d => upd2 d i j (v i j - v (i - 1)%Z j)) diff_x.
Definition diffs2_y (lo0 hi0 lo1 hi1 : Z) (v diff_y : arr2) : arr2 :=
  do_cells (lo0 - 1) (hi0 + 1) lo1 (hi1 + 1) (fun i j d => upd2 d i j (v i j - v i (j - 1)%Z)) diff_y.
(** grad_cell, 2d/grad.m4:11-52 *)
Definition grad_cell2_x (lo0 hi0 lo1 hi1 : Z) (diff_x : arr2) (h1 : R) (grad_x : arr2) : arr2 :=
  let p5dxinv := (1 / 2) / h1 in
  do_cells lo0 hi0 lo1 hi1 (fun i j g => upd2 g i j ((diff_x (i + 1)%Z j + diff_x i j) * p5dxinv)) grad_x.
Definition grad_cell2_y (lo0 hi0 lo1 hi1 : Z) (diff_y : arr2) (h2 : R) (grad_y : arr2) : arr2 :=
  let p5dyinv := (1 / 2) / h2 in
  do_cells lo0 hi0 lo1 hi1 (fun i j g => upd2 g i j ((diff_y i (j + 1)%Z + diff_y i j) * p5dyinv)) grad_y.
(** tagfromgrads, 2d/quattag.m4:9-54 *)
Definition tagfromgrads2 (lo0 hi0 lo1 hi1 : Z) (gradx grady : arr2) (h : R * R) (tags : iarr2) (refine_tag_val : Z) (tolerance : R) : iarr2 :=
  let tol_sq := tolerance * tolerance in
  do_cells lo0 hi0 lo1 hi1 (fun ii jj tags =>
    let gx := gradx ii jj * fst h in
    let gy := grady ii jj * snd h in
    let g := gx * gx + gy * gy in
    if Rge_dec g tol_sq then iupd2 tags ii jj refine_tag_val else tags) tags.
(** tagfromquatgrads, 2d/quattag.m4:58-110 *)
Definition tagfromquatgrads2 (lo0 hi0 lo1 hi1 : Z) (qgradx qgrady : Z -> arr2) (depth : Z) (h : R * R) (tags : iarr2) (refine_tag_val : Z)
    (tolerance : R) : iarr2 :=
  let tol_sq := tolerance * tolerance in
  do_cells lo0 hi0 lo1 hi1 (fun ii jj tags =>
    let g := do_loop 1 depth (fun m g =>
      let gx := qgradx m ii jj * fst h in
      let g := g + gx * gx in
      let gy := qgrady m ii jj * snd h in
      g + gy * gy) 0 in
    if Rge_dec g tol_sq then iupd2 tags ii jj refine_tag_val else tags) tags.

(** ** 3D *)
(** diffs, 3d/quatdiffs.m4:14-65 *)
Definition diffs3_x (lo0 hi0 lo1 hi1 lo2 hi2 : Z) (v diff_x : arr3) : arr3 :=
  do_cells3 lo0 (hi0 + 1) (lo1 - 1) (hi1 + 1) (lo2 - 1) (hi2 + 1) (fun i j k d => upd3 d i j k (v i j k - v (i - 1)%Z j k)) diff_x.
Definition diffs3_y (lo0 hi0 lo1 hi1 lo2 hi2 : Z) (v diff_y : arr3) : arr3 :=
  do_cells3 (lo0 - 1) (hi0 + 1) lo1 (hi1 + 1) (lo2 - 1) (hi2 + 1) (fun i j k d => upd3 d i j k (v i j k - v i (j - 1)%Z k)) diff_y.
Definition diffs3_z (lo0 hi0 lo1 hi1 lo2 hi2 : Z) (v diff_z : arr3) : arr3 :=
  do_cells3 (lo0 - 1) (hi0 + 1) (lo1 - 1) (hi1 + 1) lo2 (hi2 + 1) (fun i j k d => upd3 d i j k (v i j k - v i j (k - 1)%Z)) diff_z.
(** grad_cell, 3d/grad.m4:11-68 *)
Definition grad_cell3_x (lo0 hi0 lo1 hi1 lo2 hi2 : Z) (diff_x : arr3) (h1 : R) (grad_x : arr3) : arr3 :=
  let p5dxinv := (1 / 2) / h1 in
  do_cells3 lo0 hi0 lo1 hi1 lo2 hi2 (fun i j k g => upd3 g i j k ((diff_x (i + 1)%Z j k + diff_x i j k) * p5dxinv)) grad_x.
Definition grad_cell3_y (lo0 hi0 lo1 hi1 lo2 hi2 : Z) (diff_y : arr3) (h2 : R) (grad_y : arr3) : arr3 :=
  let p5dyinv := (1 / 2) / h2 in
  do_cells3 lo0 hi0 lo1 hi1 lo2 hi2 (fun i j k g => upd3 g i j k ((diff_y i (j + 1)%Z k + diff_y i j k) * p5dyinv)) grad_y.
Definition grad_cell3_z (lo0 hi0 lo1 hi1 lo2 hi2 : Z) (diff_z : arr3) (h3 : R) (grad_z : arr3) : arr3 :=
  let p5dzinv := (1 / 2) / h3 in
  do_cells3 lo0 hi0 lo1 hi1 lo2 hi2 (fun i j k g => upd3 g i j k ((diff_z i j (k + 1)%Z + diff_z i j k) * p5dzinv)) grad_z.
(** tagfromgrads, 3d/quattag.m4:9-59 *)
Definition tagfromgrads3 (lo0 hi0 lo1 hi1 lo2 hi2 : Z) (gradx grady gradz : arr3) (h : R * R * R) (tags : iarr3) (refine_tag_val : Z)
    (tolerance : R) : iarr3 :=
  let '(h1, h2, h3) := h in
  let tol_sq := tolerance * tolerance in
  do_cells3 lo0 hi0 lo1 hi1 lo2 hi2 (fun ii jj kk tags =>
    let gx := gradx ii jj kk * h1 in
    let gy := grady ii jj kk * h2 in
    let gz := gradz ii jj kk * h3 in
    let g := gx * gx + gy * gy + gz * gz in
    if Rge_dec g tol_sq then iupd3 tags ii jj kk refine_tag_val else tags) tags.
(** tagfromquatgrads, 3d/quattag.m4:63-123 *)
Definition tagfromquatgrads3 (lo0 hi0 lo1 hi1 lo2 hi2 : Z) (qgradx qgrady qgradz : Z -> arr3) (depth : Z) (h : R * R * R) (tags : iarr3)
    (refine_tag_val : Z) (tolerance : R) : iarr3 :=
  let '(h1, h2, h3) := h in
  let tol_sq := tolerance * tolerance in
  do_cells3 lo0 hi0 lo1 hi1 lo2 hi2 (fun ii jj kk tags =>
    let g := do_loop 1 depth (fun m g =>
      let gx := qgradx m ii jj kk * h1 in
      let g := g + gx * gx in
      let gy := qgrady m ii jj kk * h2 in
      let g := g + gy * gy in
      let gz := qgradz m ii jj kk * h3 in
      g + gz * gz) 0 in
    if Rge_dec g tol_sq then iupd3 tags ii jj kk refine_tag_val else tags) tags.

(** ** driver *)
(** d_tag_phase / d_phase_threshold_untagged etc. (QuatModel.cc:244-281): threshold of each monitored field *)
Record monitors := mk_monitors { mon_phase : option R; mon_eta : option R; mon_quat : option R }.
(** fields of a patch with ghosts: order parameters 0 .. norderp-1, eta, orientation components 1 .. qlen *)
Record fields2 := mk_fields2 { f2_phase : Z -> arr2; f2_eta : arr2; f2_quat : Z -> arr2; f2_qlen : Z }.
Record fields3 := mk_fields3 { f3_phase : Z -> arr3; f3_eta : arr3; f3_quat : Z -> arr3; f3_qlen : Z }.
Definition zero2 : arr2 := fun _ _ => 0.
Definition zero3 : arr3 := fun _ _ _ => 0.

(** QuatModel::applyGradientDetector and tagGradientDetectorCells on a patch (QuatModel.cc:3438-3600);
    computeDiffs and computeGradCell (HierarchyStencilOps.cc:127-222) use var_data->getPointer(), the first
    component.  The difference and gradient arrays are allocated zero (QuatModel.cc:3249). *)
Definition gradx2 (lo0 hi0 lo1 hi1 : Z) (h : R * R) (v : arr2) : arr2 :=
  grad_cell2_x lo0 hi0 lo1 hi1 (diffs2_x lo0 hi0 lo1 hi1 v zero2) (fst h) zero2.
Definition grady2 (lo0 hi0 lo1 hi1 : Z) (h : R * R) (v : arr2) : arr2 :=
  grad_cell2_y lo0 hi0 lo1 hi1 (diffs2_y lo0 hi0 lo1 hi1 v zero2) (snd h) zero2.
Definition detector2 (m : monitors) (lo0 hi0 lo1 hi1 : Z) (h : R * R) (f : fields2) : iarr2 :=
  let gx := gradx2 lo0 hi0 lo1 hi1 h in
  let gy := grady2 lo0 hi0 lo1 hi1 h in
  let tags : iarr2 := fun _ _ => 0%Z in
  let tags := match mon_phase m with
    | Some t => tagfromgrads2 lo0 hi0 lo1 hi1 (gx (f2_phase f 0%Z)) (gy (f2_phase f 0%Z)) h tags 1 t | None => tags end in
  let tags := match mon_eta m with
    | Some t => tagfromgrads2 lo0 hi0 lo1 hi1 (gx (f2_eta f)) (gy (f2_eta f)) h tags 1 t | None => tags end in
  match mon_quat m with
  | Some t => tagfromquatgrads2 lo0 hi0 lo1 hi1 (fun q => gx (f2_quat f q)) (fun q => gy (f2_quat f q)) (f2_qlen f) h tags 1 t | None => tags end.
Definition gradx3 (lo0 hi0 lo1 hi1 lo2 hi2 : Z) (h : R * R * R) (v : arr3) : arr3 :=
  let '(h1, _, _) := h in grad_cell3_x lo0 hi0 lo1 hi1 lo2 hi2 (diffs3_x lo0 hi0 lo1 hi1 lo2 hi2 v zero3) h1 zero3.
Definition grady3 (lo0 hi0 lo1 hi1 lo2 hi2 : Z) (h : R * R * R) (v : arr3) : arr3 :=
  let '(_, h2, _) := h in grad_cell3_y lo0 hi0 lo1 hi1 lo2 hi2 (diffs3_y lo0 hi0 lo1 hi1 lo2 hi2 v zero3) h2 zero3.
Definition gradz3 (lo0 hi0 lo1 hi1 lo2 hi2 : Z) (h : R * R * R) (v : arr3) : arr3 :=
  let '(_, _, h3) := h in grad_cell3_z lo0 hi0 lo1 hi1 lo2 hi2 (diffs3_z lo0 hi0 lo1 hi1 lo2 hi2 v zero3) h3 zero3.
Definition detector3 (m : monitors) (lo0 hi0 lo1 hi1 lo2 hi2 : Z) (h : R * R * R) (f : fields3) : iarr3 :=
  let gx := gradx3 lo0 hi0 lo1 hi1 lo2 hi2 h in
  let gy := grady3 lo0 hi0 lo1 hi1 lo2 hi2 h in
  let gz := gradz3 lo0 hi0 lo1 hi1 lo2 hi2 h in
  let tags : iarr3 := fun _ _ _ => 0%Z in
  let tags := match mon_phase m with
    | Some t => tagfromgrads3 lo0 hi0 lo1 hi1 lo2 hi2 (gx (f3_phase f 0%Z)) (gy (f3_phase f 0%Z)) (gz (f3_phase f 0%Z)) h tags 1 t | None => tags end in
  let tags := match mon_eta m with
    | Some t => tagfromgrads3 lo0 hi0 lo1 hi1 lo2 hi2 (gx (f3_eta f)) (gy (f3_eta f)) (gz (f3_eta f)) h tags 1 t | None => tags end in
  match mon_quat m with
  | Some t => tagfromquatgrads3 lo0 hi0 lo1 hi1 lo2 hi2 (fun q => gx (f3_quat f q)) (fun q => gy (f3_quat f q)) (fun q => gz (f3_quat f q))
                (f3_qlen f) h tags 1 t | None => tags end.
