(** The elliptic solver of EllipticFACOps (preconditioner blocks and steady temperature), equation
    m div(D grad u) + C u = f on one level of a 2D hierarchy.  One component (depth 0) unless stated; all patches on one
    process, so the reduction over processes is the identity.  The kernels for variable and constant D and C have the
    same text with an array replaced by a scalar: they are modelled once, on arrays. *)
From Coq Require Import Reals ZArith List Bool Ascii.
From Verif Require Import Grid_Model Functions_Model.
Import ListNotations.
Open Scope R_scope.

(** do k = lo, hi, step *)
Definition do_step {S : Type} (lo hi step : Z) (body : Z -> S -> S) (s : S) : S :=
  do_loop 0%Z ((hi - lo) / step)%Z (fun k => body (lo + k * step)%Z) s.

(** d_poisson_spec and d_m_id, EllipticFACOps.h: D on the sides normal to x and y, C, M *)
Record coefs := mk_coefs { xdc : arr2; ydc : arr2; sfield : arr2; mob : arr2 }.

(** a boundary box of type 1 of the coarse-fine boundary: location index and corners, EllipticFACOps.cc:1276-1282 *)
Record bbox := mk_bbox { location : Z; blo0 : Z; blo1 : Z; bhi0 : Z; bhi1 : Z }.
Record patch := mk_patch { ilo : Z; ihi : Z; jlo : Z; jhi : Z; cf_boundary : list bbox }.

(** What the ghost fill puts in a cell outside of the level: factor * u(source) + offset.  A periodic image and a
    no-flux boundary copy (factor 1), a homogeneous Dirichlet boundary reflects (factor -1), a Robin boundary scales,
    and a value interpolated from the coarser level stays fixed during smoothing (factor 0). *)
Record ghost := mk_ghost { factor : R; src0 : Z; src1 : Z; offset_value : R }.

(** a level: its patches; the spacing of the grid geometry, d_hierarchy->getGridGeometry()->getDx(), used by
    computeFluxOnPatch and ewingFixFlux; the spacing of its patches, patch.getPatchGeometry()->getDx(), used by the
    residual and the smoother; ratio to the coarser level; whether ln > d_ln_min; whether d_cf_discretization is
    "Ewing" (its default, EllipticFACOps.cc:283) *)
Record level := mk_level {
  patches : list patch; gdx : R; gdy : R; pdx : R; pdy : R; ratio0 : Z; ratio1 : Z; finer : bool; ewing : bool }.

Definition in_patch (p : patch) (i j : Z) : bool :=
  ((ilo p <=? i) && (i <=? ihi p) && (jlo p <=? j) && (j <=? jhi p))%Z.
Definition in_level (lv : level) (i j : Z) : bool := existsb (fun p => in_patch p i j) (patches lv).

(** xeqScheduleGhostFillNoCoarse and xeqScheduleGhostFill, EllipticFACOps.cc:1089-1099: cells of the level keep their
    value, the others get the value of the boundary rule *)
Definition fill (lv : level) (gh : Z -> Z -> ghost) (u : arr2) : arr2 :=
  fun i j => if in_level lv i j then u i j
             else factor (gh i j) * u (src0 (gh i j)) (src1 (gh i j)) + offset_value (gh i j).

(** efo_compfluxvardc2d, fortran/2d/ellipticfacops.m4:16-57; SAMRAI's compfluxcondc2d is the same with constant D *)
Definition compflux_x (p : patch) (dx : R) (dc soln xflux : arr2) : arr2 :=
  do_cells (ilo p) (ihi p + 1) (jlo p) (jhi p)
    (fun i j s => upd2 s i j (1 / dx * dc i j * (soln i j - soln (i - 1)%Z j))) xflux.
Definition compflux_y (p : patch) (dy : R) (dc soln yflux : arr2) : arr2 :=
  do_cells (ilo p) (ihi p) (jlo p) (jhi p + 1)
    (fun i j s => upd2 s i j (1 / dy * dc i j * (soln i j - soln i (j - 1)%Z))) yflux.

(** efo_ewingfixfluxvardc2d, ellipticfacops.m4:543-657 (condc: 661-769): one boundary box *)
Definition ewing_x (p : patch) (bb : bbox) (r0 r1 : Z) (dx : R) (dc soln xflux : arr2) : arr2 :=
  let tranwt := 1 / (1 + IZR r0) in
  let longwt := 2 * tranwt in
  let jbeg := Z.max (blo1 bb) (jlo p) in
  let jend := Z.min (bhi1 bb) (jhi p) in
  if (location bb =? 0)%Z then
    let i := (bhi0 bb + 1)%Z in
    do_step jbeg jend r1 (fun j => do_loop 0%Z (r1 - 1)%Z (fun jp s =>
      let jq := (r1 - jp - 1)%Z in
      upd2 s i (j + jp)%Z (longwt * s i (j + jp)%Z + tranwt * dc i (j + jp)%Z * (soln i (j + jq)%Z - soln i (j + jp)%Z) / dx)))
      xflux
  else if (location bb =? 1)%Z then
    let igho := blo0 bb in
    let i := (igho - 1)%Z in
    do_step jbeg jend r1 (fun j => do_loop 0%Z (r1 - 1)%Z (fun jp s =>
      let jq := (r1 - jp - 1)%Z in
      upd2 s igho (j + jp)%Z
        (longwt * s igho (j + jp)%Z - tranwt * dc igho (j + jp)%Z * (soln i (j + jq)%Z - soln i (j + jp)%Z) / dx))) xflux
  else xflux.
Definition ewing_y (p : patch) (bb : bbox) (r0 r1 : Z) (dy : R) (dc soln yflux : arr2) : arr2 :=
  let tranwt := 1 / (1 + IZR r1) in
  let longwt := 2 * tranwt in
  let ibeg := Z.max (blo0 bb) (ilo p) in
  let iend := Z.min (bhi0 bb) (ihi p) in
  if (location bb =? 2)%Z then
    let j := (bhi1 bb + 1)%Z in
    do_step ibeg iend r0 (fun i => do_loop 0%Z (r0 - 1)%Z (fun ip s =>
      let iq := (r0 - ip - 1)%Z in
      upd2 s (i + ip)%Z j (longwt * s (i + ip)%Z j + tranwt * dc (i + ip)%Z j * (soln (i + iq)%Z j - soln (i + ip)%Z j) / dy)))
      yflux
  else if (location bb =? 3)%Z then
    let jgho := blo1 bb in
    let j := (jgho - 1)%Z in
    do_step ibeg iend r0 (fun i => do_loop 0%Z (r0 - 1)%Z (fun ip s =>
      let iq := (r0 - ip - 1)%Z in
      upd2 s (i + ip)%Z jgho
        (longwt * s (i + ip)%Z jgho - tranwt * dc (i + ip)%Z jgho * (soln (i + iq)%Z j - soln (i + ip)%Z j) / dy))) yflux
  else yflux.

(** computeFluxOnPatch, EllipticFACOps.cc:1947-2024, and ewingFixFlux, 1239-1346.  [o] are the coefficients of the
    component, [o0] those of component 0, which ewingFixFlux uses for every component (1270, 1312). *)
Definition flux_on_patch (lv : level) (p : patch) (o o0 : coefs) (w : arr2) (fl : arr2 * arr2) : arr2 * arr2 :=
  let fx := compflux_x p (gdx lv) (xdc o) w (fst fl) in
  let fy := compflux_y p (gdy lv) (ydc o) w (snd fl) in
  if ewing lv && finer lv
  then (fold_left (fun f bb => ewing_x p bb (ratio0 lv) (ratio1 lv) (gdx lv) (xdc o0) w f) (cf_boundary p) fx,
        fold_left (fun f bb => ewing_y p bb (ratio0 lv) (ratio1 lv) (gdy lv) (ydc o0) w f) (cf_boundary p) fy)
  else (fx, fy).

(** the residual of one cell, ellipticfacops.m4:113-117, 186-190, 259-263, 330-334 and 388-392 *)
Definition residual_cell (dx dy : R) (o : coefs) (fl : arr2 * arr2) (rhs soln : arr2) (i j : Z) : R :=
  rhs i j - mob o i j * (1 / dx * (fst fl (i + 1)%Z j - fst fl i j) + 1 / dy * (snd fl i (j + 1)%Z - snd fl i j))
  - sfield o i j * soln i j.
(** dudr, ellipticfacops.m4:118-120, 191-193, 264-266, 335-337 *)
Definition dudr (dx dy : R) (o : coefs) (i j : Z) : R :=
  1 / (mob o i j * (1 / dx * (1 / dx) * (xdc o (i + 1)%Z j + xdc o i j) + 1 / dy * (1 / dy) * (ydc o i (j + 1)%Z + ydc o i j))
       - sfield o i j).

(** efo_rbgswithfluxmax{vardc,condc}{varsf,consf}2d, ellipticfacops.m4:60-342: the solution and the largest residual *)
Definition rbgs_row_start (p : patch) (offset j : Z) : Z :=
  if ((jlo p + j) - Z.quot (jlo p + j) 2 * 2 =? offset)%Z then ilo p else (ilo p + 1)%Z.
Definition rbgs (p : patch) (dx dy : R) (o : coefs) (fl : arr2 * arr2) (rhs : arr2) (offset : Z) (soln : arr2) : arr2 * R :=
  do_loop (jlo p) (jhi p) (fun j => do_step (rbgs_row_start p offset j) (ihi p) 2%Z (fun i s =>
    let residual := residual_cell dx dy o fl rhs (fst s) i j in
    let du := - residual * dudr dx dy o i j in
    (upd2 (fst s) i j (fst s i j + du),
     if Rlt_dec (snd s) (Rabs residual) then Rabs residual else snd s))) (soln, 0).

(** one colour of smoothErrorByRedBlack, EllipticFACOps.cc:1122-1162 and 1167-1206: the ghost fill comes first, so every
    patch reads the values of its neighbours from before the pass; redOrBlackSmoothingOnPatch, 2294-2515, overwrites the
    largest residual with that of the patch (2514) *)
Definition store_patch (p : patch) (s u : arr2) : arr2 := fun i j => if in_patch p i j then s i j else u i j.
Definition color_pass (lv : level) (gh : Z -> Z -> ghost) (o : coefs) (rhs : arr2) (fl : arr2 * arr2) (offset : Z) (u : arr2) : arr2 * R :=
  let w := fill lv gh u in
  fold_left (fun (s : arr2 * R) p =>
    let f := flux_on_patch lv p o o w fl in
    let r := rbgs p (pdx lv) (pdy lv) o f rhs offset w in
    (store_patch p (fst r) (fst s), snd r)) (patches lv) (u, 0).

(** smoothErrorByRedBlack, EllipticFACOps.cc:1067-1230: at most [num_sweeps] red-black sweeps; [fl] is whatever the
    flux scratch data holds (it is overwritten before it is read) *)
Fixpoint smoothErrorByRedBlack (lv : level) (gh : Z -> Z -> ghost) (o : coefs) (rhs : arr2) (fl : arr2 * arr2)
  (num_sweeps : nat) (tol : R) (u : arr2) : arr2 :=
  match num_sweeps with
  | O => u
  | S n =>
      let red := color_pass lv gh o rhs fl 0%Z u in
      let blk := color_pass lv gh o rhs fl 1%Z (fst red) in
      if Rle_dec 0 tol then
        if Rlt_dec tol (Rmax (snd red) (snd blk)) then smoothErrorByRedBlack lv gh o rhs fl n tol (fst blk) else fst blk
      else smoothErrorByRedBlack lv gh o rhs fl n tol (fst blk)
  end.

(** efo_compresvarsca2d/consca2d, ellipticfacops.m4:346-446, over a patch *)
Definition compres (p : patch) (dx dy : R) (o : coefs) (fl : arr2 * arr2) (rhs soln res : arr2) : arr2 :=
  do_cells (ilo p) (ihi p) (jlo p) (jhi p) (fun i j s => upd2 s i j (residual_cell dx dy o fl rhs soln i j)) res.
(** computeCompositeResidualOnLevel, EllipticFACOps.cc:1593-1750, on the finest level (no flux comes from a finer one) *)
Definition level_residual (lv : level) (gh : Z -> Z -> ghost) (o : coefs) (rhs : arr2) (fl : arr2 * arr2) (u res : arr2) : arr2 :=
  let w := fill lv gh u in
  fold_left (fun r p => compres p (pdx lv) (pdy lv) o (flux_on_patch lv p o o w fl) rhs w r) (patches lv) res.

(** accumopvarsca2d/consca2d, ellipticfacops.m4:448-541, over a patch *)
Definition accumop (p : patch) (dx dy : R) (o : coefs) (fl : arr2 * arr2) (soln accum : arr2) : arr2 :=
  do_cells (ilo p) (ihi p) (jlo p) (jhi p) (fun i j s => upd2 s i j (
    s i j - mob o i j * (1 / dx * (fst fl (i + 1)%Z j - fst fl i j) + 1 / dy * (snd fl i (j + 1)%Z - snd fl i j))
    - sfield o i j * soln i j)) accum.

(** PhaseFACOps::setOperatorCoefficients and setCOnPatchPrivate, PhaseFACOps.cc:33-54, 99-183 *)
Definition phase_coefs (p : patch) (phi mobility : arr2) (eps gamma well_scale : R) (wtype : ascii) (cold : arr2) : option coefs :=
  match second_deriv_well_func 0 wtype with
  | None => None
  | Some _ =>
      Some (mk_coefs (fun _ _ => - gamma * eps * eps) (fun _ _ => - gamma * eps * eps)
        (do_cells (ilo p) (ihi p) (jlo p) (jhi p) (fun i j s =>
           match second_deriv_well_func (phi i j) wtype with
           | Some g => upd2 s i j (1 + gamma * mobility i j * well_scale * g) | None => s end) cold) mobility)
  end.
(** the temperature block: QuatIntegrator.cc:3339-3344 and TemperatureFACOps.cc:32-45 *)
Definition temperature_coefs (gamma diffusivity : R) : coefs :=
  mk_coefs (fun _ _ => - gamma * diffusivity) (fun _ _ => - gamma * diffusivity) (fun _ _ => 1) (fun _ _ => 1).
(** the composition block: ConcFACOps.cc:26-61, QuatIntegrator.cc:3373-3386 *)
Definition conc_coefs (gamma : R) (dcx dcy : arr2) (mobility : R) : coefs :=
  mk_coefs (fun i j => - gamma * dcx i j) (fun i j => - gamma * dcy i j) (fun _ _ => 1) (fun _ _ => mobility).
