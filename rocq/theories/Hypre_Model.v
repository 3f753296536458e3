(** The direct solve on the coarsest level, the default of EllipticFACOps (d_coarse_solver_choice "hypre",
    EllipticFACOps.cc:282, 1371): samrai/CellPoissonHypreSolver.cc builds a symmetric matrix for
    m div(D grad u) + C u = f, scaled by the root of m when m is a field, and hands it to the HYPRE library.
    Two dimensions, level 0 (no coarse-fine boundary: d_ln = 0); the packing of the entries also in three.
    Not in /repo and assumed: SAMRAI's compdiag*, adjbdry2d and adjustrhs2d, as the comments of
    CellPoissonHypreSolver.cc:810-820, 845-849, 1041-1053 and 1226-1240 describe them, and HYPRE's symmetric storage (the
    entry of a cell and the next one along an axis is the one stored for the next one, across periodic boundaries too;
    entries towards cells outside of the grid are dropped).  The multigrid iteration of HYPRE is not modelled: a solution
    is any vector that satisfies the equations. *)
From Coq Require Import Reals ZArith List Bool.
From Verif Require Import Grid_Model Elliptic_Model.
Import ListNotations.
Open Scope R_scope.

(** M of PoissonSpecifications, constant or a field (with ghost values), PoissonSpecifications.h:234-277 *)
Inductive mspec := ConstantM (m : R) | VariableM (m : arr2).
Definition mvalue (ms : mspec) : arr2 := match ms with ConstantM m => fun _ _ => m | VariableM m => m end.
(** msqrt, CellPoissonHypreSolver.cc:143-224, 921-931; 1 stands for no transform *)
Definition msqrt (ms : mspec) : arr2 := match ms with ConstantM _ => fun _ _ => 1 | VariableM m => fun i j => sqrt (m i j) end.

(** a trimmed box of the physical boundary: location index, extent along the side of the patch, and the Robin coefficients
    a u + b u_n = g on its faces, CellPoissonHypreSolver.cc:1058-1085 *)
Record bface := mk_bface { bloc : Z; bbeg : Z; bend : Z; acoef : Z -> R; bcoef : Z -> R; gcoef : Z -> R }.
Record hpatch := mk_hpatch { box : patch; faces : list bface }.
(** off_diagonal (two sides), diagonal, and Ak0 by location index and place along the side *)
Record hdata := mk_hdata { offx : arr2; offy : arr2; diag : arr2; ak0 : arr2 }.

(** off-diagonal entries, CellPoissonHypreSolver.cc:878-900, and SAMRAI's compdiag, 905-913 *)
Definition off_diagonals (p : patch) (hx hy : R) (dx dy c : arr2) : hdata :=
  let ox := do_cells (ilo p) (ihi p + 1) (jlo p) (jhi p) (fun i j s => upd2 s i j (1 / (hx * hx) * dx i j)) (fun _ _ => 0) in
  let oy := do_cells (ilo p) (ihi p) (jlo p) (jhi p + 1) (fun i j s => upd2 s i j (1 / (hy * hy) * dy i j)) (fun _ _ => 0) in
  mk_hdata ox oy
    (do_cells (ilo p) (ihi p) (jlo p) (jhi p) (fun i j s => upd2 s i j
       (1 * c i j - 1 * (ox i j + ox (i + 1)%Z j + oy i j + oy i (j + 1)%Z))) (fun _ _ => 0)) (fun _ _ => 0).
(** the entries times M, the C term left out, CellPoissonHypreSolver.cc:935-1039, and multiplyoffdiagbym,
    fortran/2d/hyprepoisson.m4:4-35 *)
Definition times_m (p : patch) (ms : mspec) (c : arr2) (d : hdata) : hdata :=
  let dg := do_cells (ilo p) (ihi p) (jlo p) (jhi p) (fun i j s => upd2 s i j ((s i j - c i j) * mvalue ms i j + c i j)) (diag d) in
  match ms with
  | ConstantM m =>
      mk_hdata (do_cells (ilo p) (ihi p + 1) (jlo p) (jhi p) (fun i j s => upd2 s i j (m * s i j)) (offx d))
               (do_cells (ilo p) (ihi p) (jlo p) (jhi p + 1) (fun i j s => upd2 s i j (m * s i j)) (offy d)) dg (ak0 d)
  | VariableM _ =>
      mk_hdata (do_cells (ilo p) (ihi p + 1) (jlo p) (jhi p) (fun i j s => upd2 s i j (s i j * msqrt ms (i - 1)%Z j * msqrt ms i j)) (offx d))
               (do_cells (ilo p) (ihi p) (jlo p) (jhi p + 1) (fun i j s => upd2 s i j (s i j * msqrt ms i (j - 1)%Z * msqrt ms i j)) (offy d)) dg (ak0 d)
  end.

(** k0 (for g = 1) and k1, CellPoissonHypreSolver.cc:1044-1048 *)
Definition k0 (h : R) (f : bface) (t : Z) : R := h / (bcoef f t + h * acoef f t / 2).
Definition k1 (h : R) (f : bface) (t : Z) : R := (bcoef f t - h * acoef f t / 2) / (bcoef f t + h * acoef f t / 2).
(** adjbdry2d for one box: side [si] (resp. [sj]) of the first cells [ci] (resp. [cj]) *)
Definition adjust_x (h : R) (f : bface) (si ci : Z) (d : hdata) : hdata :=
  do_loop (bbeg f) (bend f) (fun t s => mk_hdata (upd2 (offx s) si t 0) (offy s)
    (upd2 (diag s) ci t (diag s ci t + k1 h f t * offx s si t)) (upd2 (ak0 s) (bloc f) t (- (k0 h f t * offx s si t)))) d.
Definition adjust_y (h : R) (f : bface) (sj cj : Z) (d : hdata) : hdata :=
  do_loop (bbeg f) (bend f) (fun t s => mk_hdata (offx s) (upd2 (offy s) t sj 0)
    (upd2 (diag s) t cj (diag s t cj + k1 h f t * offy s t sj)) (upd2 (ak0 s) (bloc f) t (- (k0 h f t * offy s t sj)))) d.
Definition adjust (p : patch) (hx hy : R) (d : hdata) (f : bface) : hdata :=
  if (bloc f =? 0)%Z then adjust_x hx f (ilo p) (ilo p) d
  else if (bloc f =? 1)%Z then adjust_x hx f (ihi p + 1)%Z (ihi p) d
  else if (bloc f =? 2)%Z then adjust_y hy f (jlo p) (jlo p) d
  else if (bloc f =? 3)%Z then adjust_y hy f (jhi p + 1)%Z (jhi p) d
  else d.
(** the data of a patch before packing, CellPoissonHypreSolver.cc:861-1087 *)
Definition patch_matrix (hp : hpatch) (hx hy : R) (dx dy c : arr2) (ms : mspec) : hdata :=
  fold_left (adjust (box hp) hx hy) (faces hp) (times_m (box hp) ms c (off_diagonals (box hp) hx hy dx dy c)).

(** d_actual_dim: the number of axes along which the level has more than one cell, CellPoissonHypreSolver.cc:412-424 *)
Definition actual_dim (extents : list (Z * Z)) : Z :=
  fold_left (fun n (e : Z * Z) => if (fst e <? snd e)%Z then (n + 1)%Z else n) extents 0%Z.
(** Packing the entries for HYPRE, CellPoissonHypreSolver.cc:1152-1199: buffer, its write position, the read positions of
    the diagonal and of the sides, and whether every write was inside of the buffer *)
Record pstate := mk_pstate { buf : Z -> R; pos : Z; cnt : Z; px : Z; py : Z; pz : Z; fits : bool }.
Definition put (len : Z) (v : R) (s : pstate) : pstate :=
  mk_pstate (fun n => if (n =? pos s)%Z then v else buf s n) (pos s + 1) (cnt s) (px s) (py s) (pz s) (fits s && (pos s <? len)%Z).
Definition pack_cell (ndim actual len : Z) (fx fy fz fd : Z -> R) (s : pstate) : pstate :=
  let s := put len (fx (px s)) s in
  let s := mk_pstate (buf s) (pos s) (cnt s) (px s + 1) (py s) (pz s) (fits s) in
  let s := if (1 <? actual)%Z then let s := put len (fy (py s)) s in mk_pstate (buf s) (pos s) (cnt s) (px s) (py s + 1) (pz s) (fits s) else s in
  let s := if (2 <? ndim)%Z then let s := put len (fz (pz s)) s in mk_pstate (buf s) (pos s) (cnt s) (px s) (py s) (pz s + 1) (fits s) else s in
  let s := put len (fd (cnt s)) s in
  mk_pstate (buf s) (pos s) (cnt s + 1) (px s) (py s) (pz s) (fits s).
Definition pack (ndim actual nx ny nz : Z) (fx fy fz fd : Z -> R) : pstate :=
  let len := ((actual + 1) * (nx * ny * nz))%Z in
  do_loop 0%Z (nz - 1)%Z (fun _ s =>
    let s := do_loop 0%Z (ny - 1)%Z (fun _ s =>
      let s := do_loop 0%Z (nx - 1)%Z (fun _ s => pack_cell ndim actual len fx fy fz fd s) s in
      mk_pstate (buf s) (pos s) (cnt s) (px s + 1) (py s) (pz s) (fits s)) s in
    if (2 <? ndim)%Z then mk_pstate (buf s) (pos s) (cnt s) (px s) (py s + nx) (pz s) (fits s) else s)
  (mk_pstate (fun _ => 0) 0 0 0 0 0 true).
(** HYPRE_StructMatrixSetBoxValues: [actual + 1] values per cell, first index fastest; the entries of the stencil, in the
    order of CellPoissonHypreSolver.cc:543-571 *)
Definition flat_x (p : patch) (a : arr2) : Z -> R := fun n => a (ilo p + n mod (ihi p - ilo p + 2))%Z (jlo p + n / (ihi p - ilo p + 2))%Z.
Definition flat_d (p : patch) (a : arr2) : Z -> R := fun n => a (ilo p + n mod (ihi p - ilo p + 1))%Z (jlo p + n / (ihi p - ilo p + 1))%Z.
Definition box_values (p : patch) (actual : Z) (d : hdata) : Z -> R :=
  buf (pack 2 actual (ihi p - ilo p + 1) (jhi p - jlo p + 1) 1 (flat_x p (offx d)) (flat_d p (offy d)) (fun _ => 0) (flat_d p (diag d))).
Definition stencil_value (p : patch) (actual : Z) (d : hdata) (entry i j : Z) : R :=
  box_values p actual d ((actual + 1) * ((j - jlo p) * (ihi p - ilo p + 1) + (i - ilo p)) + entry)%Z.
Record hmatrix := mk_hmatrix { mx : arr2; my : arr2; md : arr2 }.
Definition level_matrix (hps : list hpatch) (actual : Z) (hx hy : R) (dx dy c : arr2) (ms : mspec) : hmatrix :=
  fold_left (fun A hp => let d := patch_matrix hp hx hy dx dy c ms in
    mk_hmatrix
      (fun i j => if in_patch (box hp) i j then stencil_value (box hp) actual d 0 i j else mx A i j)
      (fun i j => if in_patch (box hp) i j && (1 <? actual)%Z then stencil_value (box hp) actual d 1 i j else my A i j)
      (fun i j => if in_patch (box hp) i j then stencil_value (box hp) actual d actual i j else md A i j))
    hps (mk_hmatrix (fun _ _ => 0) (fun _ _ => 0) (fun _ _ => 0)).

(** the neighbour along an axis on the grid of HYPRE: a cell, a periodic image (shift [per], 0 for none) or nothing *)
Definition image_x (lv : level) (per i j : Z) : option Z :=
  if in_level lv i j then Some i
  else if (negb (per =? 0) && in_level lv (i + per) j)%Z%bool then Some (i + per)%Z
  else if (negb (per =? 0) && in_level lv (i - per) j)%Z%bool then Some (i - per)%Z
  else None.
Definition image_y (lv : level) (per i j : Z) : option Z :=
  if in_level lv i j then Some j
  else if (negb (per =? 0) && in_level lv i (j + per))%Z%bool then Some (j + per)%Z
  else if (negb (per =? 0) && in_level lv i (j - per))%Z%bool then Some (j - per)%Z
  else None.
(** the product of the matrix of HYPRE with a vector *)
Definition hypre_apply (lv : level) (per0 per1 actual : Z) (A : hmatrix) (v : arr2) (i j : Z) : R :=
  md A i j * v i j
  + match image_x lv per0 (i - 1)%Z j with Some a => mx A i j * v a j | None => 0 end
  + match image_x lv per0 (i + 1)%Z j with Some a => mx A a j * v a j | None => 0 end
  + (if (1 <? actual)%Z then
       match image_y lv per1 i (j - 1)%Z with Some b => my A i j * v i b | None => 0 end
       + match image_y lv per1 i (j + 1)%Z with Some b => my A i b * v i b | None => 0 end
     else 0).

(** adjustrhs2d for one box, CellPoissonHypreSolver.cc:1226-1305 *)
Definition adjust_rhs (p : patch) (a0 : arr2) (rhs : arr2) (f : bface) : arr2 :=
  if (bloc f =? 0)%Z then do_loop (bbeg f) (bend f) (fun t s => upd2 s (ilo p) t (s (ilo p) t + a0 0%Z t * gcoef f t)) rhs
  else if (bloc f =? 1)%Z then do_loop (bbeg f) (bend f) (fun t s => upd2 s (ihi p) t (s (ihi p) t + a0 1%Z t * gcoef f t)) rhs
  else if (bloc f =? 2)%Z then do_loop (bbeg f) (bend f) (fun t s => upd2 s t (jlo p) (s t (jlo p) + a0 2%Z t * gcoef f t)) rhs
  else if (bloc f =? 3)%Z then do_loop (bbeg f) (bend f) (fun t s => upd2 s t (jhi p) (s t (jhi p) + a0 3%Z t * gcoef f t)) rhs
  else rhs.
(** the right-hand side given to HYPRE, CellPoissonHypreSolver.cc:1440-1497 *)
Definition patch_rhs (hp : hpatch) (hx hy : R) (dx dy c : arr2) (ms : mspec) (homogeneous : bool) (f : arr2) : arr2 :=
  let r := match ms with
           | ConstantM _ => f
           | VariableM _ => do_cells (ilo (box hp)) (ihi (box hp)) (jlo (box hp)) (jhi (box hp)) (fun i j s => upd2 s i j (s i j / msqrt ms i j)) f
           end in
  if homogeneous then r
  else fold_left (adjust_rhs (box hp) (ak0 (patch_matrix hp hx hy dx dy c ms))) (faces hp) r.
Definition level_rhs (hps : list hpatch) (hx hy : R) (dx dy c : arr2) (ms : mspec) (homogeneous : bool) (f : arr2) : arr2 :=
  fold_left (fun b hp i j => if in_patch (box hp) i j then patch_rhs hp hx hy dx dy c ms homogeneous f i j else b i j) hps (fun _ _ => 0).
(** the result from the vector of HYPRE, CellPoissonHypreSolver.cc:1550-1583 *)
Definition result_of (ms : mspec) (v : arr2) : arr2 :=
  match ms with ConstantM _ => v | VariableM _ => fun i j => v i j * msqrt ms i j end.
(** what solveSystem, CellPoissonHypreSolver.cc:1373-1591, and copyToHypre start HYPRE with, 1455-1459 *)
Definition initial_vector (initial_zero : bool) (u : arr2) : arr2 := if initial_zero then fun _ _ => 0 else u.

(** the extents given to HYPRE_StructGridSetExtents: the first [actual] axes, CellPoissonHypreSolver.cc:487-497; the grid
    point of a cell *)
Definition grid_point (actual : Z) (i j : Z) : list Z := if (1 <? actual)%Z then [i; j] else [i].

(** solveCoarsestLevel_HYPRE, EllipticFACOps.cc:1392-1434: 0 when the solves of all components converged; a solve converged
    when its relative residual is at most the tolerance, CellPoissonHypreSolver.cc:1587-1589 *)
Definition converged (residual_norm tol : R) : Z := if Rle_dec residual_norm tol then 1%Z else 0%Z.
Definition solve_coarsest (norms : list R) (tol : R) : Z :=
  let solver_ret := fold_left (fun r n => if (0 <? converged n tol)%Z then r else 0%Z) norms 1%Z in
  if (solver_ret =? 0)%Z then 1%Z else 0%Z.
