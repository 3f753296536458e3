(** The elliptic solver of EllipticFACOps on one level of a 3D hierarchy, NDIM 3: equation m div(D grad u) + C u = f.
    One component (depth 0) unless stated; all patches on one process, so the reduction over processes is the identity.
    The kernels for variable and constant D and C have the same text with an array replaced by a scalar: they are
    modelled once, on arrays.  The residual of efo_compres*3d is declared with the ghost widths of the right-hand side
    (3d/ellipticfacops.m4:490-492): the model takes the two widths to be equal. *)
From Coq Require Import Reals ZArith List Bool Ascii.
From Verif Require Import Grid_Model Functions_Model.
From Verif Require Elliptic_Model.
Import ListNotations.
Open Scope R_scope.

(** do k = lo, hi, step *)
Notation do_step := Elliptic_Model.do_step.

(** d_poisson_spec and d_m_id, EllipticFACOps.h: D on the sides normal to x, y and z, C, M *)
Record coefs := mk_coefs { xdc : arr3; ydc : arr3; zdc : arr3; sfield : arr3; mob : arr3 }.
(** side data: the fluxes through the sides normal to x, y and z *)
Record sides := mk_sides { fx : arr3; fy : arr3; fz : arr3 }.

(** a boundary box of type 1 (a face) of the coarse-fine boundary: location index and corners, EllipticFACOps.cc:1276-1282 *)
Record bbox := mk_bbox { location : Z; blo0 : Z; blo1 : Z; blo2 : Z; bhi0 : Z; bhi1 : Z; bhi2 : Z }.
Record patch := mk_patch { ilo : Z; ihi : Z; jlo : Z; jhi : Z; klo : Z; khi : Z; cf_boundary : list bbox }.

(** What the ghost fill puts in a cell outside of the level: factor * u(source) + offset.  A periodic image and a
    no-flux boundary copy (factor 1), a homogeneous Dirichlet boundary reflects (factor -1), a Robin boundary scales,
    and a value interpolated from the coarser level stays fixed during smoothing (factor 0). *)
Record ghost := mk_ghost { factor : R; src0 : Z; src1 : Z; src2 : Z; offset_value : R }.

(** a level: its patches; the spacing of the grid geometry, d_hierarchy->getGridGeometry()->getDx(), used by
    computeFluxOnPatch (1966) and ewingFixFlux (1254); the spacing of its patches, patch.getPatchGeometry()->getDx(), used
    by the residual and the smoother (2309); ratio to the coarser level; whether ln > d_ln_min; whether
    d_cf_discretization is "Ewing" (its default, EllipticFACOps.cc:283) *)
Record level := mk_level {
  patches : list patch; gdx : R; gdy : R; gdz : R; pdx : R; pdy : R; pdz : R;
  ratio0 : Z; ratio1 : Z; ratio2 : Z; finer : bool; ewing : bool }.

Definition in_patch (p : patch) (i j k : Z) : bool :=
  ((ilo p <=? i) && (i <=? ihi p) && (jlo p <=? j) && (j <=? jhi p) && (klo p <=? k) && (k <=? khi p))%Z.
Definition in_level (lv : level) (i j k : Z) : bool := existsb (fun p => in_patch p i j k) (patches lv).

(** xeqScheduleGhostFillNoCoarse and xeqScheduleGhostFill, EllipticFACOps.cc:1089-1099: cells of the level keep their
    value, the others get the value of the boundary rule *)
Definition fill (lv : level) (gh : Z -> Z -> Z -> ghost) (u : arr3) : arr3 :=
  fun i j k => if in_level lv i j k then u i j k
               else factor (gh i j k) * u (src0 (gh i j k)) (src1 (gh i j k)) (src2 (gh i j k)) + offset_value (gh i j k).

(** efo_compfluxvardc3d, fortran/3d/ellipticfacops.m4:16-80; SAMRAI's compfluxcondc3d is the same with constant D *)
Definition compflux_x (p : patch) (dx : R) (dc soln xflux : arr3) : arr3 :=
  do_cells3 (ilo p) (ihi p + 1) (jlo p) (jhi p) (klo p) (khi p)
    (fun i j k s => upd3 s i j k (1 / dx * dc i j k * (soln i j k - soln (i - 1)%Z j k))) xflux.
Definition compflux_y (p : patch) (dy : R) (dc soln yflux : arr3) : arr3 :=
  do_cells3 (ilo p) (ihi p) (jlo p) (jhi p + 1) (klo p) (khi p)
    (fun i j k s => upd3 s i j k (1 / dy * dc i j k * (soln i j k - soln i (j - 1)%Z k))) yflux.
Definition compflux_z (p : patch) (dz : R) (dc soln zflux : arr3) : arr3 :=
  do_cells3 (ilo p) (ihi p) (jlo p) (jhi p) (klo p) (khi p + 1)
    (fun i j k s => upd3 s i j k (1 / dz * dc i j k * (soln i j k - soln i j (k - 1)%Z))) zflux.

(** the four nested loops of a face of efo_ewingfixflux*3d: coarse cells (u, v), fine cells (up, vp) in them;
    [body] gets the fine cell and the cell opposite to it in the coarse cell *)
Definition do_blocks (ub ue ru vb ve rv : Z) (body : Z -> Z -> Z -> Z -> arr3 -> arr3) (f : arr3) : arr3 :=
  do_step ub ue ru (fun u => do_step vb ve rv (fun v =>
    do_loop 0%Z (ru - 1)%Z (fun up => do_loop 0%Z (rv - 1)%Z (fun vp =>
      body (u + up)%Z (v + vp)%Z (u + (ru - up - 1))%Z (v + (rv - vp - 1))%Z)))) f.

(** efo_ewingfixfluxvardc3d, ellipticfacops.m4:697-901 (condc: 906-1103): one boundary box, sides normal to x (750-799:
    k before j), y (800-849: i before k) and z (850-899: i before j) *)
Definition ewing_x (p : patch) (bb : bbox) (r0 r1 r2 : Z) (dx : R) (dc soln xflux : arr3) : arr3 :=
  let tranwt := 1 / (1 + IZR r0) in
  let longwt := 2 * tranwt in
  let jbeg := Z.max (blo1 bb) (jlo p) in
  let jend := Z.min (bhi1 bb) (jhi p) in
  let kbeg := Z.max (blo2 bb) (klo p) in
  let kend := Z.min (bhi2 bb) (khi p) in
  if (location bb =? 0)%Z then
    let i := (bhi0 bb + 1)%Z in
    let ibnd := (bhi0 bb + 1)%Z in
    do_blocks kbeg kend r2 jbeg jend r1 (fun k j kq jq s =>
      upd3 s ibnd j k (longwt * s ibnd j k + tranwt * dc ibnd j k * (soln i jq kq - soln i j k) / dx)) xflux
  else if (location bb =? 1)%Z then
    let i := (blo0 bb - 1)%Z in
    let ibnd := blo0 bb in
    do_blocks kbeg kend r2 jbeg jend r1 (fun k j kq jq s =>
      upd3 s ibnd j k (longwt * s ibnd j k - tranwt * dc ibnd j k * (soln i jq kq - soln i j k) / dx)) xflux
  else xflux.
Definition ewing_y (p : patch) (bb : bbox) (r0 r1 r2 : Z) (dy : R) (dc soln yflux : arr3) : arr3 :=
  let tranwt := 1 / (1 + IZR r1) in
  let longwt := 2 * tranwt in
  let ibeg := Z.max (blo0 bb) (ilo p) in
  let iend := Z.min (bhi0 bb) (ihi p) in
  let kbeg := Z.max (blo2 bb) (klo p) in
  let kend := Z.min (bhi2 bb) (khi p) in
  if (location bb =? 2)%Z then
    let j := (bhi1 bb + 1)%Z in
    let jbnd := (bhi1 bb + 1)%Z in
    do_blocks ibeg iend r0 kbeg kend r2 (fun i k iq kq s =>
      upd3 s i jbnd k (longwt * s i jbnd k + tranwt * dc i jbnd k * (soln iq j kq - soln i j k) / dy)) yflux
  else if (location bb =? 3)%Z then
    let j := (blo1 bb - 1)%Z in
    let jbnd := blo1 bb in
    do_blocks ibeg iend r0 kbeg kend r2 (fun i k iq kq s =>
      upd3 s i jbnd k (longwt * s i jbnd k - tranwt * dc i jbnd k * (soln iq j kq - soln i j k) / dy)) yflux
  else yflux.
Definition ewing_z (p : patch) (bb : bbox) (r0 r1 r2 : Z) (dz : R) (dc soln zflux : arr3) : arr3 :=
  let tranwt := 1 / (1 + IZR r2) in
  let longwt := 2 * tranwt in
  let ibeg := Z.max (blo0 bb) (ilo p) in
  let iend := Z.min (bhi0 bb) (ihi p) in
  let jbeg := Z.max (blo1 bb) (jlo p) in
  let jend := Z.min (bhi1 bb) (jhi p) in
  if (location bb =? 4)%Z then
    let k := (bhi2 bb + 1)%Z in
    let kbnd := (bhi2 bb + 1)%Z in
    do_blocks ibeg iend r0 jbeg jend r1 (fun i j iq jq s =>
      upd3 s i j kbnd (longwt * s i j kbnd + tranwt * dc i j kbnd * (soln iq jq k - soln i j k) / dz)) zflux
  else if (location bb =? 5)%Z then
    let k := (blo2 bb - 1)%Z in
    let kbnd := blo2 bb in
    do_blocks ibeg iend r0 jbeg jend r1 (fun i j iq jq s =>
      upd3 s i j kbnd (longwt * s i j kbnd - tranwt * dc i j kbnd * (soln iq jq k - soln i j k) / dz)) zflux
  else zflux.

(** computeFluxOnPatch, EllipticFACOps.cc:1947-2024, and ewingFixFlux, 1239-1346.  [o] are the coefficients of the
    component, [o0] those of component 0, which ewingFixFlux uses for every component (1271, 1312). *)
Definition flux_on_patch (lv : level) (p : patch) (o o0 : coefs) (w : arr3) (fl : sides) : sides :=
  let gx := compflux_x p (gdx lv) (xdc o) w (fx fl) in
  let gy := compflux_y p (gdy lv) (ydc o) w (fy fl) in
  let gz := compflux_z p (gdz lv) (zdc o) w (fz fl) in
  if ewing lv && finer lv
  then mk_sides
    (fold_left (fun f bb => ewing_x p bb (ratio0 lv) (ratio1 lv) (ratio2 lv) (gdx lv) (xdc o0) w f) (cf_boundary p) gx)
    (fold_left (fun f bb => ewing_y p bb (ratio0 lv) (ratio1 lv) (ratio2 lv) (gdy lv) (ydc o0) w f) (cf_boundary p) gy)
    (fold_left (fun f bb => ewing_z p bb (ratio0 lv) (ratio1 lv) (ratio2 lv) (gdz lv) (zdc o0) w f) (cf_boundary p) gz)
  else mk_sides gx gy gz.

(** the residual of one cell, 3d/ellipticfacops.m4:159-164, 247-252, 341-346, 427-432, 502-507 and 566-571 *)
Definition residual_cell (dx dy dz : R) (o : coefs) (fl : sides) (rhs soln : arr3) (i j k : Z) : R :=
  rhs i j k - mob o i j k * (1 / dx * (fx fl (i + 1)%Z j k - fx fl i j k) + 1 / dy * (fy fl i (j + 1)%Z k - fy fl i j k)
                             + 1 / dz * (fz fl i j (k + 1)%Z - fz fl i j k))
  - sfield o i j k * soln i j k.
(** dudr, 3d/ellipticfacops.m4:165-168, 253-256, 347-350, 433-436 *)
Definition dudr (dx dy dz : R) (o : coefs) (i j k : Z) : R :=
  1 / (mob o i j k * (1 / dx * (1 / dx) * (xdc o (i + 1)%Z j k + xdc o i j k) + 1 / dy * (1 / dy) * (ydc o i (j + 1)%Z k + ydc o i j k)
                      + 1 / dz * (1 / dz) * (zdc o i j (k + 1)%Z + zdc o i j k))
       - sfield o i j k).

(** efo_rbgswithfluxmax{vardc,condc}{varsf,consf}3d, ellipticfacops.m4:83-444: the solution and the largest residual *)
Definition rbgs_row_start (p : patch) (offset j k : Z) : Z :=
  if ((ilo p + j + k) - Z.quot (ilo p + j + k) 2 * 2 =? offset)%Z then ilo p else (ilo p + 1)%Z.
Definition rbgs (p : patch) (dx dy dz : R) (o : coefs) (fl : sides) (rhs : arr3) (offset : Z) (soln : arr3) : arr3 * R :=
  do_loop (klo p) (khi p) (fun k => do_loop (jlo p) (jhi p) (fun j => do_step (rbgs_row_start p offset j k) (ihi p) 2%Z (fun i s =>
    let residual := residual_cell dx dy dz o fl rhs (fst s) i j k in
    let du := - residual * dudr dx dy dz o i j k in
    (upd3 (fst s) i j k (fst s i j k + du),
     if Rlt_dec (snd s) (Rabs residual) then Rabs residual else snd s)))) (soln, 0).

(** one colour of smoothErrorByRedBlack, EllipticFACOps.cc:1119-1162 and 1166-1206: the ghost fill comes first, so every
    patch reads the values of its neighbours from before the pass; redOrBlackSmoothingOnPatch, 2294-2515, overwrites the
    largest residual with that of the patch (2514) *)
Definition store_patch (p : patch) (s u : arr3) : arr3 := fun i j k => if in_patch p i j k then s i j k else u i j k.
Definition color_pass (lv : level) (gh : Z -> Z -> Z -> ghost) (o : coefs) (rhs : arr3) (fl : sides) (offset : Z) (u : arr3) : arr3 * R :=
  let w := fill lv gh u in
  fold_left (fun (s : arr3 * R) p =>
    let f := flux_on_patch lv p o o w fl in
    let r := rbgs p (pdx lv) (pdy lv) (pdz lv) o f rhs offset w in
    (store_patch p (fst r) (fst s), snd r)) (patches lv) (u, 0).

(** smoothErrorByRedBlack, EllipticFACOps.cc:1067-1230: at most [num_sweeps] red-black sweeps; [fl] is whatever the
    flux scratch data holds (it is overwritten before it is read) *)
Fixpoint smoothErrorByRedBlack (lv : level) (gh : Z -> Z -> Z -> ghost) (o : coefs) (rhs : arr3) (fl : sides)
  (num_sweeps : nat) (tol : R) (u : arr3) : arr3 :=
  match num_sweeps with
  | O => u
  | S n =>
      let red := color_pass lv gh o rhs fl 0%Z u in
      let blk := color_pass lv gh o rhs fl 1%Z (fst red) in
      if Rle_dec 0 tol then
        if Rlt_dec tol (Rmax (snd red) (snd blk)) then smoothErrorByRedBlack lv gh o rhs fl n tol (fst blk) else fst blk
      else smoothErrorByRedBlack lv gh o rhs fl n tol (fst blk)
  end.

(** efo_compresvarsca3d/consca3d, ellipticfacops.m4:448-575, over a patch *)
Definition compres (p : patch) (dx dy dz : R) (o : coefs) (fl : sides) (rhs soln res : arr3) : arr3 :=
  do_cells3 (ilo p) (ihi p) (jlo p) (jhi p) (klo p) (khi p)
    (fun i j k s => upd3 s i j k (residual_cell dx dy dz o fl rhs soln i j k)) res.
(** computeCompositeResidualOnLevel, EllipticFACOps.cc:1593-1750, on the finest level (no flux comes from a finer one) *)
Definition level_residual (lv : level) (gh : Z -> Z -> Z -> ghost) (o : coefs) (rhs : arr3) (fl : sides) (u res : arr3) : arr3 :=
  let w := fill lv gh u in
  fold_left (fun r p => compres p (pdx lv) (pdy lv) (pdz lv) o (flux_on_patch lv p o o w fl) rhs w r) (patches lv) res.

(** accumopvarsca3d/consca3d, ellipticfacops.m4:577-695, over a patch *)
Definition accumop (p : patch) (dx dy dz : R) (o : coefs) (fl : sides) (soln accum : arr3) : arr3 :=
  do_cells3 (ilo p) (ihi p) (jlo p) (jhi p) (klo p) (khi p) (fun i j k s => upd3 s i j k (
    s i j k - mob o i j k * (1 / dx * (fx fl (i + 1)%Z j k - fx fl i j k) + 1 / dy * (fy fl i (j + 1)%Z k - fy fl i j k)
                             + 1 / dz * (fz fl i j (k + 1)%Z - fz fl i j k))
    - sfield o i j k * soln i j k)) accum.

(** the phase block: PhaseFACOps::setOperatorCoefficients and setCOnPatchPrivate, PhaseFACOps.cc:33-54, 99-183, NDIM 3
    (setc3d, ellipticfacops.m4:1107-1146, has the same formula and is not called) *)
Definition phase_coefs (p : patch) (phi mobility : arr3) (eps gamma well_scale : R) (wtype : ascii) (cold : arr3) : option coefs :=
  match second_deriv_well_func 0 wtype with
  | None => None
  | Some _ =>
      Some (mk_coefs (fun _ _ _ => - gamma * eps * eps) (fun _ _ _ => - gamma * eps * eps) (fun _ _ _ => - gamma * eps * eps)
        (do_cells3 (ilo p) (ihi p) (jlo p) (jhi p) (klo p) (khi p) (fun i j k s =>
           match second_deriv_well_func (phi i j k) wtype with
           | Some g => upd3 s i j k (1 + gamma * mobility i j k * well_scale * g) | None => s end) cold) mobility)
  end.
