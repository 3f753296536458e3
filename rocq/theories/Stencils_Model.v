(** Finite-difference kernels of the composition and moving-frame equations:
    the three flux schemes, the Laplacian and the frame-advection terms.
    Doubles are exact reals; ghost widths and array bounds are not modelled.
    physb is the Fortran integer array of "this side touches a physical boundary"
    flags, indexed from 1. *)
From Coq Require Import Reals ZArith Bool.
From Verif Require Import Grid_Model.
Open Scope R_scope.

(** ijc = ic + (jc-1)*ncomp, 2d/flux.m4:47 *)
Definition comp_index (n i j : Z) : Z := (i + (j - 1) * n)%Z.

(** add_flux, 2d/flux.m4:11-64 *)
Definition add_flux (if0 il0 if1 il1 n : Z) (dx0 dx1 : R) (conc d0 d1 : arr3) (flux : arr3 * arr3) : arr3 * arr3 :=
  let dxinv := 1 / dx0 in
  let dyinv := 1 / dx1 in
  do_loop 1 n (fun ic => do_loop 1 n (fun jc (s : arr3 * arr3) =>
    let ijc := comp_index n ic jc in
    let f0 := do_cells if0 (il0 + 1) if1 il1 (fun i0 i1 f =>
      upd3 f i0 i1 ic (f i0 i1 ic + dxinv * (d0 i0 i1 ijc * (conc i0 i1 jc - conc (i0 - 1)%Z i1 jc)))) (fst s) in
    let f1 := do_cells if0 il0 if1 (il1 + 1) (fun i0 i1 f =>
      upd3 f i0 i1 ic (f i0 i1 ic + dyinv * (d1 i0 i1 ijc * (conc i0 i1 jc - conc i0 (i1 - 1)%Z jc)))) (snd s) in
    (f0, f1))) flux.

(** add_flux_iso, 2d/flux.m4:69-133 *)
Definition add_flux_iso (if0 il0 if1 il1 n : Z) (dx0 dx1 : R) (conc d0 d1 : arr3) (flux : arr3 * arr3) : arr3 * arr3 :=
  let x10 := 10 / (12 * dx0) in
  let x1 := 1 / (12 * dx0) in
  let y10 := 10 / (12 * dx1) in
  let y1 := 1 / (12 * dx1) in
  do_loop 1 n (fun ic => do_loop 1 n (fun jc (s : arr3 * arr3) =>
    let ijc := comp_index n ic jc in
    let f0 := do_cells if0 (il0 + 1) if1 il1 (fun i0 i1 f =>
      upd3 f i0 i1 ic (f i0 i1 ic
        + x1 * (d0 i0 (i1 + 1)%Z ijc * (conc i0 (i1 + 1)%Z jc - conc (i0 - 1)%Z (i1 + 1)%Z jc))
        + x10 * (d0 i0 i1 ijc * (conc i0 i1 jc - conc (i0 - 1)%Z i1 jc))
        + x1 * (d0 i0 (i1 - 1)%Z ijc * (conc i0 (i1 - 1)%Z jc - conc (i0 - 1)%Z (i1 - 1)%Z jc)))) (fst s) in
    let f1 := do_cells if0 il0 if1 (il1 + 1) (fun i0 i1 f =>
      upd3 f i0 i1 ic (f i0 i1 ic
        + y1 * (d1 (i0 + 1)%Z i1 ijc * (conc (i0 + 1)%Z i1 jc - conc (i0 + 1)%Z (i1 - 1)%Z jc))
        + y10 * (d1 i0 i1 ijc * (conc i0 i1 jc - conc i0 (i1 - 1)%Z jc))
        + y1 * (d1 (i0 - 1)%Z i1 ijc * (conc (i0 - 1)%Z i1 jc - conc (i0 - 1)%Z (i1 - 1)%Z jc)))) (snd s) in
    (f0, f1))) flux.

(** add_flux_4th, 2d/flux.m4:139-240: second order on physical boundary sides,
    fourth order elsewhere *)
Definition add_flux_4th (if0 il0 if1 il1 n : Z) (dx0 dx1 : R) (data d0 d1 : arr3) (physb : Z -> Z)
    (flux : arr3 * arr3) : arr3 * arr3 :=
  let dxi := 1 / dx0 in
  let dyi := 1 / dx1 in
  let x15 := 15 / (12 * dx0) in
  let x1 := 1 / (12 * dx0) in
  let y15 := 15 / (12 * dx1) in
  let y1 := 1 / (12 * dx1) in
  do_loop 1 n (fun i => do_loop 1 n (fun j (s : arr3 * arr3) =>
    let ij := comp_index n i j in
    let low0 i0 i1 (f : arr3) := upd3 f i0 i1 i (f i0 i1 i + d0 i0 i1 ij * dxi * (data i0 i1 j - data (i0 - 1)%Z i1 j)) in
    let low1 i0 i1 (f : arr3) := upd3 f i0 i1 i (f i0 i1 i + d1 i0 i1 ij * dyi * (data i0 i1 j - data i0 (i1 - 1)%Z j)) in
    let f0 := do_loop if1 il1 (fun i1 f =>
      let fa := if (physb 1 =? 1)%Z then low0 if0 i1 f else f in
      let ifx := if (physb 1 =? 1)%Z then (if0 + 1)%Z else if0 in
      let fb := if (physb 2 =? 1)%Z then low0 (il0 + 1)%Z i1 fa else fa in
      let ilx := if (physb 2 =? 1)%Z then il0 else (il0 + 1)%Z in
      do_loop ifx ilx (fun i0 f =>
        upd3 f i0 i1 i (f i0 i1 i + d0 i0 i1 ij * (x15 * (data i0 i1 j - data (i0 - 1)%Z i1 j)
          - x1 * (data (i0 + 1)%Z i1 j - data (i0 - 2)%Z i1 j)))) fb) (fst s) in
    let ga := if (physb 3 =? 1)%Z then do_loop if0 il0 (fun i0 f => low1 i0 if1 f) (snd s) else snd s in
    let ify := if (physb 3 =? 1)%Z then (if1 + 1)%Z else if1 in
    let gb := if (physb 4 =? 1)%Z then do_loop if0 il0 (fun i0 f => low1 i0 (il1 + 1)%Z f) ga else ga in
    let ily := if (physb 4 =? 1)%Z then il1 else (il1 + 1)%Z in
    let f1 := do_cells if0 il0 ify ily (fun i0 i1 f =>
      upd3 f i0 i1 i (f i0 i1 i + d1 i0 i1 ij * (y15 * (data i0 i1 j - data i0 (i1 - 1)%Z j)
        - y1 * (data i0 (i1 + 1)%Z j - data i0 (i1 - 2)%Z j)))) gb in
    (f0, f1))) flux.

(** add_flux_iso in three dimensions, 3d/flux.m4:103-236 *)
Definition add_flux_iso3 (if0 il0 if1 il1 if2 il2 n : Z) (dx0 dx1 dx2 : R) (conc d0 d1 d2 : arr4)
    (flux : arr4 * arr4 * arr4) : arr4 * arr4 * arr4 :=
  let x1 := 1 / (12 * dx0) in
  let x8 := 8 / (12 * dx0) in
  let y1 := 1 / (12 * dx1) in
  let y8 := 8 / (12 * dx1) in
  let z1 := 1 / (12 * dx2) in
  let z8 := 8 / (12 * dx2) in
  do_loop 1 n (fun ic => do_loop 1 n (fun jc (s : arr4 * arr4 * arr4) =>
    let ijc := comp_index n ic jc in
    let f0 := do_cells3 if0 (il0 + 1) if1 il1 if2 il2 (fun i j k f =>
      upd4 f i j k ic (f i j k ic
        + x1 * (d0 i (j - 1)%Z k ijc * (conc i (j - 1)%Z k jc - conc (i - 1)%Z (j - 1)%Z k jc))
        + x1 * (d0 i j (k - 1)%Z ijc * (conc i j (k - 1)%Z jc - conc (i - 1)%Z j (k - 1)%Z jc))
        + x1 * (d0 i (j + 1)%Z k ijc * (conc i (j + 1)%Z k jc - conc (i - 1)%Z (j + 1)%Z k jc))
        + x1 * (d0 i j (k + 1)%Z ijc * (conc i j (k + 1)%Z jc - conc (i - 1)%Z j (k + 1)%Z jc))
        + x8 * (d0 i j k ijc * (conc i j k jc - conc (i - 1)%Z j k jc)))) (fst (fst s)) in
    let f1 := do_cells3 if0 il0 if1 (il1 + 1) if2 il2 (fun i j k f =>
      upd4 f i j k ic (f i j k ic
        + y1 * (d1 (i - 1)%Z j k ijc * (conc (i - 1)%Z j k jc - conc (i - 1)%Z (j - 1)%Z k jc))
        + y1 * (d1 (i + 1)%Z j k ijc * (conc (i + 1)%Z j k jc - conc (i + 1)%Z (j - 1)%Z k jc))
        + y1 * (d1 i j (k - 1)%Z ijc * (conc i j (k - 1)%Z jc - conc i (j - 1)%Z (k - 1)%Z jc))
        + y1 * (d1 i j (k + 1)%Z ijc * (conc i j (k + 1)%Z jc - conc i (j - 1)%Z (k + 1)%Z jc))
        + y8 * (d1 i j k ijc * (conc i j k jc - conc i (j - 1)%Z k jc)))) (snd (fst s)) in
    let f2 := do_cells3 if0 il0 if1 il1 if2 (il2 + 1) (fun i j k f =>
      upd4 f i j k ic (f i j k ic
        + z1 * (d2 (i - 1)%Z j k ijc * (conc (i - 1)%Z j k jc - conc (i - 1)%Z j (k - 1)%Z jc))
        + z1 * (d2 (i + 1)%Z j k ijc * (conc (i + 1)%Z j k jc - conc (i + 1)%Z j (k - 1)%Z jc))
        + z1 * (d2 i (j - 1)%Z k ijc * (conc i (j - 1)%Z k jc - conc i (j - 1)%Z (k - 1)%Z jc))
        + z1 * (d2 i (j + 1)%Z k ijc * (conc i (j + 1)%Z k jc - conc i (j + 1)%Z (k - 1)%Z jc))
        + z8 * (d2 i j k ijc * (conc i j k jc - conc i j (k - 1)%Z jc)))) (snd s) in
    (f0, f1, f2))) flux.

(** laplacian, 2d/laplacian.m4:12-58 *)
Definition laplacian (if0 il0 if1 il1 : Z) (dx0 dx1 coeff : R) (field rhs : arr2) : arr2 :=
  let dxinv2 := 1 / (dx0 * dx0) in
  let dyinv2 := 1 / (dx1 * dx1) in
  do_cells if0 il0 if1 il1 (fun i j rhs =>
    let tx := field (i - 1)%Z j - 2 * field i j + field (i + 1)%Z j in
    let ty := field i (j - 1)%Z - 2 * field i j + field i (j + 1)%Z in
    upd2 rhs i j (coeff * (tx * dxinv2 + ty * dyinv2))) rhs.

(** addvdphidx, 2d/quatrhs.m4:986-1026 *)
Definition addvdphidx (if0 il0 if1 il1 : Z) (dx1 : R) (phase : arr2) (vel : R) (rhs : arr2) : arr2 :=
  let dxinv := 1 / 2 * vel / dx1 in
  do_cells if0 il0 if1 il1 (fun i j rhs =>
    upd2 rhs i j (rhs i j + dxinv * (phase (i + 1)%Z j - phase (i - 1)%Z j))) rhs.

(** addvdphidx_upwind3, 2d/quatrhs.m4:1029-1085 *)
Definition addvdphidx_upwind3 (if0 il0 if1 il1 : Z) (dx1 : R) (phase : arr2) (vel : R) (rhs : arr2) (physb : Z) : arr2 :=
  let dxinv := vel / (6 * dx1) in
  do_loop if1 il1 (fun j rhs =>
    let imax := if (physb =? 1)%Z then (il0 - 1)%Z else il0 in
    let rhs := if (physb =? 1)%Z
      then upd2 rhs il0 j (rhs il0 j + 3 * dxinv * (phase (il0 + 1)%Z j - phase (il0 - 1)%Z j)) else rhs in
    do_loop if0 imax (fun i rhs =>
      upd2 rhs i j (rhs i j + dxinv * (-2 * phase (i - 1)%Z j - 3 * phase i j + 6 * phase (i + 1)%Z j - phase (i + 2)%Z j))) rhs) rhs.

(** MovingFrameRHS::addRHS, MovingFrameRHS.cc:62-127: every depth component of the
    field is advected; the frame moves in the first coordinate. [upwind] is the choice
    made in the constructor (MovingFrameRHS.cc:64-75); the field and its rhs carry the
    depth as last index (0-based in C++). *)
Definition advect_fields (upwind : bool) (if0 il0 if1 il1 : Z) (dx1 vel : R) (touches_right : bool) (nfield : Z)
    (data rhs : Z -> arr2) : Z -> arr2 :=
  do_loop 0 (nfield - 1) (fun f (s : Z -> arr2) => fun g =>
    if (g =? f)%Z then
      (if upwind then addvdphidx_upwind3 if0 il0 if1 il1 dx1 (data f) vel (s f) (if touches_right then 1%Z else 0%Z)
       else addvdphidx if0 il0 if1 il1 dx1 (data f) vel (s f))
    else s g) rhs.

(** the flux scheme selected by EBSCompositionRHSStrategy, EBSCompositionRHSStrategy.cc:28-113,148-155 *)
Inductive flux_type := FluxIsotropic | FluxFourth | FluxDefault.
Definition d_add_flux (t : flux_type) (if0 il0 if1 il1 n : Z) (dx0 dx1 : R) (physb : Z -> Z)
    (conc d0 d1 : arr3) (flux : arr3 * arr3) : arr3 * arr3 :=
  match t with
  | FluxIsotropic => add_flux_iso if0 il0 if1 il1 n dx0 dx1 conc d0 d1 flux
  | FluxFourth => add_flux_4th if0 il0 if1 il1 n dx0 dx1 conc d0 d1 physb flux
  | FluxDefault => add_flux if0 il0 if1 il1 n dx0 dx1 conc d0 d1 flux
  end.
(** EBSCompositionRHSStrategy::computeFluxOnPatch, EBSCompositionRHSStrategy.cc:184-330:
    the flux is reset and the phases are added one at a time; the third phase only if
    d_conc_b_scratch_id >= 0. touches a s = getTouchesRegularBoundary(axis, side). *)
Definition ebs_flux (t : flux_type) (if0 il0 if1 il1 n : Z) (dx0 dx1 : R) (touches : Z -> Z -> bool)
    (l a : arr3 * arr3 * arr3) (b : option (arr3 * arr3 * arr3)) (flux : arr3 * arr3) : arr3 * arr3 :=
  let flag x := if (x : bool) then 1%Z else 0%Z in
  let physb k := if (k =? 1)%Z then flag (touches 0 0)%Z else if (k =? 2)%Z then flag (touches 0 1)%Z
    else if (k =? 3)%Z then flag (touches 1 0)%Z else if (k =? 4)%Z then flag (touches 1 1)%Z else 0%Z in
  let add (ph : arr3 * arr3 * arr3) := d_add_flux t if0 il0 if1 il1 n dx0 dx1 physb (fst (fst ph)) (snd (fst ph)) (snd ph) in
  let f0 := (fun _ _ _ => 0, fun _ _ _ => 0) : arr3 * arr3 in
  let f2 := add a (add l f0) in
  match b with Some ph => add ph f2 | None => f2 end.
