(** The linear solver of the orientation block of the preconditioner: QuatLevelSolver, QuatFACOps, QuatSysSolver (2D).
    The kernels treat the components of q one after the other with the same coefficients: one component is modelled.
    Periodic directions and 3D are not modelled.  hypre's semantics assumed: with HYPRE_SStructMatrixSetSymmetric
    (QuatLevelSolver.cc:543) an entry of the stencil also stands for its transpose, and entries that couple to a cell
    outside of the grid are dropped. *)
From Coq Require Import Reals ZArith List Bool.
From Verif Require Import Grid_Model PhaseFlow_Model.
Import ListNotations.
Open Scope R_scope.

(** a boundary box of codimension 1: location index, corners after trimBoundaryBox, the coefficient a of the Robin
    condition a u + (1 - a) du/dn = g, and g, both on the faces; physical or coarse-fine,
    QuatLevelSolver.cc:884-911, 924-965 *)
Record bdry := mk_bdry { loc : Z; bl0 : Z; bl1 : Z; bu0 : Z; bu1 : Z; acoef : arr2; gcoef : arr2 }.
(** a patch: its box, its physical and its coarse-fine boundary boxes *)
Record qpatch := mk_qpatch { qlo0 : Z; qhi0 : Z; qlo1 : Z; qhi1 : Z; physical : list bdry; coarse_fine : list bdry }.
(** a level: patches, mesh spacing, level number d_ln *)
Record qlevel := mk_qlevel { qpatches : list qpatch; hx : R; hy : R; ln : Z }.
(** gamma, square root of the mobility, diffusion coefficients on the x and y faces *)
Record qop := mk_qop { gam : R; sm : arr2; fcx : arr2; fcy : arr2 }.

Definition box_of (lv : qlevel) (p : qpatch) : pbox := mk_pbox (qlo0 p) (qhi0 p) (qlo1 p) (qhi1 p) (hx lv) (hy lv).
Definition in_qpatch (p : qpatch) (i j : Z) : bool := ((qlo0 p <=? i) && (i <=? qhi0 p) && (qlo1 p <=? j) && (j <=? qhi1 p))%Z.
Definition in_qlevel (lv : qlevel) (i j : Z) : bool := existsb (fun p => in_qpatch p i j) (qpatches lv).

(** the matrix entries of a patch before scaling, and Ak0 (OutersideData: one array per side) *)
Record mat := mk_mat { diag : arr2; offx : arr2; offy : arr2; ak : Z -> arr2 }.

(** set_j_ij2d, 2d/quatlevelsolver.m4:9-62; Ak0->fillAll(0.0), QuatLevelSolver.cc:815 *)
Definition set_j_ij (b : pbox) (o : qop) (m : mat) : mat :=
  let fac := 1 / (h1 b * h1 b) in
  let ox := xfaces b (fun i j => fcx o i j * fac) (offx m) in
  let fac := 1 / (h2 b * h2 b) in
  let oy := yfaces b (fun i j => fcy o i j * fac) (offy m) in
  mk_mat (cells b (fun i j _ => - ox i j - ox (i + 1)%Z j - oy i j - oy i (j + 1)%Z) (diag m)) ox oy (fun _ _ _ => 0).

(** uk0 and k1 of adjust_bdry2d, 2d/quatlevelsolver.m4:220-223 *)
Definition uk0 (hh a : R) : R := hh / (1 - a * (1 - 1 / 2 * hh)).
Definition k1 (hh a : R) : R := (1 - a * (1 + 1 / 2 * hh)) / (1 - a * (1 - 1 / 2 * hh)).
Definition upd_ak (f : Z -> arr2) (l i j : Z) (v : R) : Z -> arr2 := fun l' => if (l' =? l)%Z then upd2 (f l) i j v else f l'.
(** bodies of the loops of adjust_bdry2d, 2d/quatlevelsolver.m4:219-228 and 252-261 *)
Definition edge_x (o : qop) (hh : R) (bb : bdry) (igho iint ifac j : Z) (m : mat) : mat :=
  let a := acoef bb ifac j in
  mk_mat (upd2 (diag m) iint j (diag m iint j + k1 hh a * offx m ifac j))
         (upd2 (offx m) ifac j 0) (offy m)
         (upd_ak (ak m) (loc bb) ifac j (uk0 hh a * offx m ifac j * sm o igho j * gam o * sm o iint j)).
Definition edge_y (o : qop) (hh : R) (bb : bdry) (jgho jint jfac i : Z) (m : mat) : mat :=
  let a := acoef bb i jfac in
  mk_mat (upd2 (diag m) i jint (diag m i jint + k1 hh a * offy m i jfac))
         (offx m) (upd2 (offy m) i jfac 0)
         (upd_ak (ak m) (loc bb) i jfac (uk0 hh a * offy m i jfac * sm o i jgho * gam o * sm o i jint)).
(** adjust_bdry2d, 2d/quatlevelsolver.m4:177-285; adjustBoundaryEntries, QuatLevelSolver.cc:1623-1700 *)
Definition adjust_bdry (lv : qlevel) (o : qop) (m : mat) (bb : bdry) : mat :=
  (if loc bb =? 0 then do_loop (bl1 bb) (bu1 bb) (edge_x o (hx lv) bb (bu0 bb) (bu0 bb + 1) (bu0 bb + 1)) m
   else if loc bb =? 1 then do_loop (bl1 bb) (bu1 bb) (edge_x o (hx lv) bb (bl0 bb) (bl0 bb - 1) (bl0 bb)) m
   else if loc bb =? 2 then do_loop (bl0 bb) (bu0 bb) (edge_y o (hy lv) bb (bu1 bb) (bu1 bb + 1) (bu1 bb + 1)) m
   else if loc bb =? 3 then do_loop (bl0 bb) (bu0 bb) (edge_y o (hy lv) bb (bl1 bb) (bl1 bb - 1) (bl1 bb)) m
   else m)%Z.

(** the boundary boxes walked by setMatrixCoefficients: the coarse-fine ones only if d_ln > 0,
    QuatLevelSolver.cc:884-967 *)
Definition matrix_boundaries (lv : qlevel) (p : qpatch) : list bdry :=
  physical p ++ (if (0 <? ln lv)%Z then coarse_fine p else nil).
(** the entries of one patch, QuatLevelSolver.cc:790-967; [m0] is what the new arrays hold *)
Definition patch_entries (lv : qlevel) (o : qop) (m0 : mat) (p : qpatch) : mat :=
  fold_left (adjust_bdry lv o) (matrix_boundaries lv p) (set_j_ij (box_of lv p) o m0).

(** set_symmetric_stencil2d, 2d/quatlevelsolver.m4:122-173: values, entry number starting with 1 *)
Definition upd1 (f : Z -> R) (k : Z) (v : R) : Z -> R := fun n => if (n =? k)%Z then v else f n.
Definition set_symmetric_stencil (b : pbox) (o : qop) (m : mat) (values : Z -> R) : Z -> R :=
  snd (do_cells (lo0 b) (hi0 b) (lo1 b) (hi1 b) (fun i j (s : Z * (Z -> R)) =>
    let fac := gam o * sm o i j in
    let index := (fst s + 3)%Z in
    let v := upd1 (snd s) index (fac * diag m i j * sm o i j + 1) in
    let v := upd1 v (index + 1)%Z (fac * offx m i j * sm o (i - 1)%Z j) in
    (index, upd1 v (index + 2)%Z (fac * offy m i j * sm o i (j - 1)%Z))) ((-2)%Z, values)).

(** HYPRE_SStructMatrixSetBoxValues on the box of each patch, QuatLevelSolver.cc:1034-1041: the cells in the order of
    the first index first, the entries of a cell next to each other, entry e of the stencil
    {0,0}, {-1,0}, {0,-1} (QuatLevelSolver.cc:478-500).  [m0], [v0]: what the new arrays hold. *)
Definition position (p : qpatch) (i j e : Z) : Z := (1 + 3 * ((j - qlo1 p) * (qhi0 p - qlo0 p + 1) + (i - qlo0 p)) + e)%Z.
Definition set_box_values (lv : qlevel) (o : qop) (m0 : mat) (v0 : Z -> R) (st : Z -> Z -> Z -> R) (p : qpatch) : Z -> Z -> Z -> R :=
  let v := set_symmetric_stencil (box_of lv p) o (patch_entries lv o m0 p) v0 in
  fun i j e => if in_qpatch p i j then v (position p i j e) else st i j e.
Definition stored (lv : qlevel) (o : qop) (m0 : mat) (v0 : Z -> R) : Z -> Z -> Z -> R :=
  fold_left (set_box_values lv o m0 v0) (qpatches lv) (fun _ _ _ => 0).

(** the product with the assembled matrix *)
Definition matvec (lv : qlevel) (o : qop) (m0 : mat) (v0 : Z -> R) (x : arr2) : arr2 := fun i j =>
  let st := stored lv o m0 v0 in
  let inside (k l : Z) (v : R) := if in_qlevel lv k l then v else 0 in
  st i j 0%Z * x i j
  + inside (i - 1)%Z j (st i j 1%Z * x (i - 1)%Z j) + inside i (j - 1)%Z (st i j 2%Z * x i (j - 1)%Z)
  + inside (i + 1)%Z j (st (i + 1)%Z j 1%Z * x (i + 1)%Z j) + inside i (j + 1)%Z (st i (j + 1)%Z 2%Z * x i (j + 1)%Z).

(** adjust_qrhs2d, 2d/quatlevelsolver.m4:300-361 *)
Definition rhs_x (k g : arr2) (iint ifac j : Z) (s : arr2) : arr2 := upd2 s iint j (s iint j - k ifac j * g ifac j).
Definition rhs_y (k g : arr2) (jint jfac i : Z) (s : arr2) : arr2 := upd2 s i jint (s i jint - k i jfac * g i jfac).
Definition adjust_qrhs (auk0 : Z -> arr2) (rhs : arr2) (bb : bdry) : arr2 :=
  let k := auk0 (loc bb) in
  (if loc bb =? 0 then do_loop (bl1 bb) (bu1 bb) (rhs_x k (gcoef bb) (bu0 bb + 1) (bu0 bb + 1)) rhs
   else if loc bb =? 1 then do_loop (bl1 bb) (bu1 bb) (rhs_x k (gcoef bb) (bl0 bb - 1) (bl0 bb)) rhs
   else if loc bb =? 2 then do_loop (bl0 bb) (bu0 bb) (rhs_y k (gcoef bb) (bu1 bb + 1) (bu1 bb + 1)) rhs
   else if loc bb =? 3 then do_loop (bl0 bb) (bu0 bb) (rhs_y k (gcoef bb) (bl1 bb - 1) (bl1 bb)) rhs
   else rhs)%Z.
(** the right hand side given to hypre, QuatLevelSolver.cc:1430-1471: with boundary values unless homogeneous_bc (its
    default is false, QuatLevelSolver.h:180); add_gAk0_toRhs, 1081-1197, walks all coarse-fine boundary boxes *)
Definition system_rhs (lv : qlevel) (o : qop) (m0 : mat) (homogeneous_bc : bool) (rhs : arr2) : arr2 :=
  fold_left (fun s p =>
    let k := ak (patch_entries lv o m0 p) in
    let r := if homogeneous_bc then rhs
             else fold_left (adjust_qrhs k) (coarse_fine p) (fold_left (adjust_qrhs k) (physical p) rhs) in
    fun i j => if in_qpatch p i j then r i j else s i j) (qpatches lv) rhs.

(** compute_sym_flux2d, 2d/quatfacops.m4:284-344 *)
Definition sym_flux_x (b : pbox) (o : qop) (q old : arr2) : arr2 :=
  let hinv := 1 / h1 b in xfaces b (fun i j => fcx o i j * hinv * (sm o i j * q i j - sm o (i - 1)%Z j * q (i - 1)%Z j)) old.
Definition sym_flux_y (b : pbox) (o : qop) (q old : arr2) : arr2 :=
  let hinv := 1 / h2 b in yfaces b (fun i j => fcy o i j * hinv * (sm o i j * q i j - sm o i (j - 1)%Z * q i (j - 1)%Z)) old.
(** compute_q_residual2d, 2d/quatfacops.m4:346-406; [fl]: the flux arrays before the call *)
Definition q_residual (b : pbox) (o : qop) (fl : arr2 * arr2) (q rhs residual : arr2) : arr2 :=
  let fx := sym_flux_x b o q (fst fl) in
  let fy := sym_flux_y b o q (snd fl) in
  let dxinv := 1 / h1 b in let dyinv := 1 / h2 b in
  cells b (fun i j _ => rhs i j - q i j - gam o * sm o i j * ((fx (i + 1)%Z j - fx i j) * dxinv + (fy i (j + 1)%Z - fy i j) * dyinv)) residual.

(** setOperatorCoefficients, QuatFACOps.cc:735-820: an error unless the mobility is positive, then its square root *)
Definition sqrt_mobility (mobility : arr2) : arr2 := fun i j => sqrt (mobility i j).
(** QuatSysSolver::solveSystem, QuatSysSolver.cc:296-345: the right hand side divided by the square root of the mobility
    (divideMobilitySqrt), the solver, the solution multiplied by it (multiplyMobilitySqrt) *)
Definition divideMobilitySqrt (o : qop) (f : arr2) : arr2 := fun i j => f i j / sm o i j.
Definition multiplyMobilitySqrt (o : qop) (f : arr2) : arr2 := fun i j => f i j * sm o i j.
Definition solve_system (o : qop) (fac_solver : arr2 -> arr2) (rhs : arr2) : arr2 :=
  multiplyMobilitySqrt o (fac_solver (divideMobilitySqrt o rhs)).

(** solveSystem, QuatLevelSolver.cc:1492-1569 and 1609-1618: d_solver_type, the relative residual hypre reports for each component,
    the components that were solved, and the value returned.  None: TBOX_ERROR *)
Definition level_solve (solver_type : Z) (tol : R) (residuals : list R) : option (list bool * R * bool) :=
  if ((solver_type =? 0) || (solver_type =? 1))%Z then
    let r := fold_left (fun m x => if Rlt_dec m x then x else m) residuals 0 in
    Some (map (fun _ => true) residuals, r, if Rle_dec r tol then true else false)
  else if ((solver_type =? 2) || (solver_type =? 3))%Z then
    match residuals with
    | r :: rest => Some (true :: map (fun _ => false) rest, r, if Rle_dec r tol then true else false)
    | nil => None
    end
  else None.
