(** Model of the two-dimensional orientation dynamics: differences, gradients and fluxes of
    the orientation field with and without crystal symmetry, the projected
    right-hand side, its symmetry correction and the projection onto unit orientations
    (fortran/2d/quatdiffs.m4, quatrotation.m4, quatgrad.m4, quatfacops.m4,
    correctrhsquatforsymmetry.m4; QuatFACOps.cc, QuatIntegrator.cc).
    One patch of one level: ghost values are in the arrays, no coarse-fine flux fix.
    Doubles are exact reals; array bounds are not modelled.  A Fortran loop that fills
    several independent arrays is written as one loop per array.  The quatsymmrotate
    argument iq is in/out, but it is only changed when negative, and the arrays of rotation
    indices that are passed directly hold the positive indices of quatfindsymm, so they are
    not threaded.  [None] is the Fortran [stop] or a failed assert. *)
From Coq Require Import Reals ZArith List Bool Ascii.
From Verif Require Import Grid_Model Functions_Model Quat_Model.
Open Scope R_scope.

(** the [depth] components of an orientation, of a difference or of a flux *)
Definition vec := Z -> R.
Definition vec4 (p : q4) : vec :=
  fun m => match m with 1%Z => qa p | 2%Z => qb p | 3%Z => qc p | 4%Z => qd p | _ => 0 end.
Definition vec2 (p : q2) : vec := fun m => match m with 1%Z => ca p | 2%Z => cb p | _ => 0 end.
Definition vec1 (x : R) : vec := fun m => match m with 1%Z => x | _ => 0 end.

(** quat.f:41-70 quatsymmrotate, dispatch on depth *)
Definition symmrotate (depth : Z) (v : vec) (iq : Z) : option vec :=
  match depth with
  | 4 => match quatsymmrotate4 (Q4 (v 1) (v 2) (v 3) (v 4))%Z iq with Some (_, p) => Some (vec4 p) | None => None end
  | 2 => match quatsymmrotate2 (Q2 (v 1) (v 2))%Z iq with Some (_, p) => Some (vec2 p) | None => None end
  | 1 => match quatsymmrotate1 (v 1%Z) iq with Some (_, p) => Some (vec1 p) | None => None end
  | _ => None
  end%Z.
(** quat.f:9-38 quatfindsymm, dispatch on depth: the new iq *)
Definition findsymm (depth : Z) (v w : vec) (iq : Z) : option Z :=
  match depth with
  | 4 => Some (fst (quatfindsymm4 (Q4 (v 1) (v 2) (v 3) (v 4)) (Q4 (w 1) (w 2) (w 3) (w 4)) iq))
  | 2 => Some (fst (quatfindsymm2 (Q2 (v 1) (v 2)) (Q2 (w 1) (w 2)) iq))
  | 1 => Some (fst (quatfindsymm1 (v 1) (w 1) iq))
  | _ => None
  end%Z.

(** a loop over cells whose body may stop *)
Definition ocells {S : Type} (lo0 hi0 lo1 hi1 : Z) (body : Z -> Z -> S -> option S) (s : S) : option S :=
  do_cells lo0 hi0 lo1 hi1 (fun i j os => match os with None => None | Some s => body i j s end) (Some s).
(** [do m = 1, depth] over the components of one cell *)
Definition put (depth i j : Z) (g : Z -> R -> R) (s : arr3) : arr3 :=
  do_loop 1 depth (fun m s => upd3 s i j m (g m (s i j m))) s.
(** the nest m, j, i of the kernels that treat the components one by one *)
Definition mcells (depth lo0 hi0 lo1 hi1 : Z) (g : Z -> Z -> Z -> R -> R) (s : arr3) : arr3 :=
  do_loop 1 depth (fun m => do_cells lo0 hi0 lo1 hi1 (fun i j s => upd3 s i j m (g i j m (s i j m)))) s.

(** the patch box, the number of components and the mesh spacing *)
Record patch := mk_patch { lo0 : Z; hi0 : Z; lo1 : Z; hi1 : Z; depth : Z; h1 : R; h2 : R }.
Definition iarr := Z -> Z -> Z.

(** 2d/quatrotation.m4:12-65; [old] holds the guesses *)
Definition iupd (f : iarr) (i j v : Z) : iarr := fun a b => if ((a =? i) && (b =? j))%Z then v else f a b.
Definition quat_symm_rotation_x (p : patch) (q : arr3) (old : iarr) : option iarr :=
  ocells (lo0 p) (hi0 p + 1) (lo1 p - 1) (hi1 p + 1) (fun i j s =>
    match findsymm (depth p) (q i j) (q (i - 1)%Z j) (s i j) with
    | None => None | Some n => Some (iupd s i j n) end) old.
Definition quat_symm_rotation_y (p : patch) (q : arr3) (old : iarr) : option iarr :=
  ocells (lo0 p - 1) (hi0 p + 1) (lo1 p) (hi1 p + 1) (fun i j s =>
    match findsymm (depth p) (q i j) (q i (j - 1)%Z) (s i j) with
    | None => None | Some n => Some (iupd s i j n) end) old.

(** 2d/quatdiffs.m4:56-95 *)
Definition quatdiffs_x (p : patch) (q old : arr3) : arr3 :=
  mcells (depth p) (lo0 p) (hi0 p + 1) (lo1 p - 1) (hi1 p + 1) (fun i j m _ => q i j m - q (i - 1)%Z j m) old.
Definition quatdiffs_y (p : patch) (q old : arr3) : arr3 :=
  mcells (depth p) (lo0 p - 1) (hi0 p + 1) (lo1 p) (hi1 p + 1) (fun i j m _ => q i j m - q i (j - 1)%Z m) old.
(** 2d/quatdiffs.m4:103-160 *)
Definition quatdiffs_symm_x (p : patch) (q : arr3) (rx : iarr) (old : arr3) : option arr3 :=
  ocells (lo0 p) (hi0 p + 1) (lo1 p - 1) (hi1 p + 1) (fun i j s =>
    match symmrotate (depth p) (q (i - 1)%Z j) (rx i j) with
    | None => None
    | Some q2' => Some (put (depth p) i j (fun m _ => q i j m - q2' m) s) end) old.
Definition quatdiffs_symm_y (p : patch) (q : arr3) (ry : iarr) (old : arr3) : option arr3 :=
  ocells (lo0 p - 1) (hi0 p + 1) (lo1 p) (hi1 p + 1) (fun i j s =>
    match symmrotate (depth p) (q i (j - 1)%Z) (ry i j) with
    | None => None
    | Some q2' => Some (put (depth p) i j (fun m _ => q i j m - q2' m) s) end) old.

(** [if (depth > 1) call quatsymmrotate(v,-iq) else copy], e.g. 2d/quatgrad.m4:91-109 *)
Definition rot_back (depth : Z) (v : vec) (iq : Z) : option vec :=
  if (1 <? depth)%Z then symmrotate depth v (-1 * iq) else Some v.
(** [if (depth > 1) call quatsymmrotate(v,iq) else copy], 2d/quatgrad.m4:352-375 *)
Definition rot_fwd (depth : Z) (v : vec) (iq : Z) : option vec :=
  if (1 <? depth)%Z then symmrotate depth v iq else Some v.

(** 2d/quatgrad.m4:60-154 *)
Definition quatgrad_cell_symm_x (p : patch) (dx : arr3) (rx : iarr) (old : arr3) : option arr3 :=
  ocells (lo0 p) (hi0 p) (lo1 p) (hi1 p) (fun i j s =>
    match rot_back (depth p) (dx (i + 1)%Z j) (rx (i + 1)%Z j) with
    | None => None
    | Some d => Some (put (depth p) i j (fun m _ => (d m + dx i j m) * ((1 / 2) / h1 p)) s) end) old.
Definition quatgrad_cell_symm_y (p : patch) (dy : arr3) (ry : iarr) (old : arr3) : option arr3 :=
  ocells (lo0 p) (hi0 p) (lo1 p) (hi1 p) (fun i j s =>
    match rot_back (depth p) (dy i (j + 1)%Z) (ry i (j + 1)%Z) with
    | None => None
    | Some d => Some (put (depth p) i j (fun m _ => (d m + dy i j m) * ((1 / 2) / h2 p)) s) end) old.

(** 2d/quatgrad.m4:311-446; normal components, then tangential ones *)
Definition quatgrad_side_x_xside (p : patch) (dx old : arr3) : arr3 :=
  mcells (depth p) (lo0 p) (hi0 p + 1) (lo1 p) (hi1 p) (fun i j m _ => (1 / h1 p) * dx i j m) old.
Definition quatgrad_side_y_yside (p : patch) (dy old : arr3) : arr3 :=
  mcells (depth p) (lo0 p) (hi0 p) (lo1 p) (hi1 p + 1) (fun i j m _ => (1 / h2 p) * dy i j m) old.
Definition quatgrad_side_symm_y_xside (p : patch) (dy : arr3) (rx ry : iarr) (old : arr3) : option arr3 :=
  ocells (lo0 p) (hi0 p + 1) (lo1 p) (hi1 p) (fun i j s =>
    match rot_back (depth p) (dy i (j + 1)%Z) (ry i (j + 1)%Z),
          rot_back (depth p) (dy (i - 1)%Z (j + 1)%Z) (ry (i - 1)%Z (j + 1)%Z) with
    | Some d1', Some d2' =>
        match rot_fwd (depth p) (fun m => d2' m + dy (i - 1)%Z j m) (rx i j) with
        | None => None
        | Some d4' => Some (put (depth p) i j (fun m _ => ((1 / 4) * (1 / h2 p)) * (d4' m + d1' m + dy i j m)) s)
        end
    | _, _ => None end) old.
Definition quatgrad_side_symm_x_yside (p : patch) (dx : arr3) (rx ry : iarr) (old : arr3) : option arr3 :=
  ocells (lo0 p) (hi0 p) (lo1 p) (hi1 p + 1) (fun i j s =>
    match rot_back (depth p) (dx (i + 1)%Z j) (rx (i + 1)%Z j),
          rot_back (depth p) (dx (i + 1)%Z (j - 1)%Z) (rx (i + 1)%Z (j - 1)%Z) with
    | Some d1', Some d2' =>
        match rot_fwd (depth p) (fun m => d2' m + dx i (j - 1)%Z m) (ry i j) with
        | None => None
        | Some d4' => Some (put (depth p) i j (fun m _ => ((1 / 4) * (1 / h1 p)) * (d4' m + d1' m + dx i j m)) s)
        end
    | _, _ => None end) old.

(** [do m: s = s + v(m)] *)
Definition accum_m (depth : Z) (f : Z -> R) : R := do_loop 1 depth (fun m s => s + f m) 0.
(** 2d/quatgrad.m4:882-920 quatgrad_modulus *)
Definition quatgrad_modulus (p : patch) (gx gy : arr3) (old : arr2) : arr2 :=
  do_cells (lo0 p) (hi0 p) (lo1 p) (hi1 p) (fun i j s =>
    upd2 s i j (sqrt (accum_m (depth p) (fun m => gx i j m * gx i j m + gy i j m * gy i j m)))) old.
(** 2d/quatgrad.m4:825-880 quatgrad_modulus_from_sides_compact, the one QuatGradModulusStrategy.cc:94
    calls; only the normal components of the side gradients enter *)
Definition quatgrad_modulus_from_sides_compact (p : patch) (gxx gyy : arr3) (old : arr2) : arr2 :=
  let sq (g : arr3) i j s := do_loop 1 (depth p) (fun m s => s + g i j m * g i j m) s in
  do_cells (lo0 p) (hi0 p) (lo1 p) (hi1 p) (fun i j s =>
    upd2 s i j (sqrt ((1 / 2) * sq gyy i (j + 1)%Z (sq gyy i j (sq gxx (i + 1)%Z j (sq gxx i j 0)))))) old.
(** 2d/quatgrad.m4:12-57 quatgrad_cell *)
Definition quatgrad_cell_x (p : patch) (dx old : arr3) : arr3 :=
  mcells (depth p) (lo0 p) (hi0 p) (lo1 p) (hi1 p) (fun i j m _ => (dx (i + 1)%Z j m + dx i j m) * ((1 / 2) / h1 p)) old.
Definition quatgrad_cell_y (p : patch) (dy old : arr3) : arr3 :=
  mcells (depth p) (lo0 p) (hi0 p) (lo1 p) (hi1 p) (fun i j m _ => (dy i (j + 1)%Z m + dy i j m) * ((1 / 2) / h2 p)) old.

(** 2d/quatfacops.m4:14-119 compute_face_coef2d, value on one face between phases phi1,
    phi2 and temperatures t1, t2, with squared gradient norm g2 *)
Definition face_coef (eps_q factor gradient_floor : R) (floor_type interp1 interp2 avg : ascii)
  (phi1 phi2 t1 t2 g2 : R) : option R :=
  match average_func phi1 phi2 avg with
  | None => None
  | Some phia =>
      match interp_func phia interp1, interp_func phia interp2,
            eval_grad_normi g2 floor_type (gradient_floor * gradient_floor) (1 / gradient_floor) with
      | Some i1, Some i2, Some gi =>
          let tempa := (1 / 2) * (t1 + t2) in
          Some (- gi * (factor * tempa * i1) - (eps_q * eps_q) * i2)
      | _, _, _ => None
      end
  end.

(** 2d/quatfacops.m4:232-282 compute_flux2d_from_gradq *)
Definition flux_x (p : patch) (fcx : arr2) (gxx old : arr3) : arr3 :=
  mcells (depth p) (lo0 p) (hi0 p + 1) (lo1 p) (hi1 p) (fun i j m _ => fcx i j * gxx i j m) old.
Definition flux_y (p : patch) (fcy : arr2) (gyy old : arr3) : arr3 :=
  mcells (depth p) (lo0 p) (hi0 p) (lo1 p) (hi1 p + 1) (fun i j m _ => fcy i j * gyy i j m) old.

(** 2d/quatfacops.m4:487-540 add_quat_op2d *)
Definition add_quat_op (p : patch) (mob : arr2) (fx fy rhs : arr3) : arr3 :=
  mcells (depth p) (lo0 p) (hi0 p) (lo1 p) (hi1 p) (fun i j m r =>
    let divergence := (fx (i + 1)%Z j m - fx i j m) * (1 / h1 p) + (fy i (j + 1)%Z m - fy i j m) * (1 / h2 p) in
    r - mob i j * divergence) rhs.
(** 2d/quatfacops.m4:683-736 compute_lambda_flux2d; a zero sumq2 is Coq's division by 0 *)
Definition compute_lambda (p : patch) (fx fy q : arr3) (old : arr2) : arr2 :=
  do_cells (lo0 p) (hi0 p) (lo1 p) (hi1 p) (fun i j s =>
    upd2 s i j
      (do_loop 1 (depth p) (fun m l => l - q i j m *
         ((fx (i + 1)%Z j m - fx i j m) * ((1 / 2) / h1 p) + (fy i (j + 1)%Z m - fy i j m) * ((1 / 2) / h2 p))) 0
       / accum_m (depth p) (fun m => q i j m * q i j m))) old.
(** 2d/quatfacops.m4:738-806 compute_lambda_flux2d_symm *)
Definition compute_lambda_symm (p : patch) (fx fy q : arr3) (rx ry : iarr) (old : arr2) : option arr2 :=
  ocells (lo0 p) (hi0 p) (lo1 p) (hi1 p) (fun i j s =>
    match symmrotate (depth p) (fx (i + 1)%Z j) (-1 * rx (i + 1)%Z j),
          symmrotate (depth p) (fy i (j + 1)%Z) (-1 * ry i (j + 1)%Z) with
    | Some fr, Some fu =>
        Some (upd2 s i j
          (do_loop 1 (depth p) (fun m l => l - q i j m *
             ((fr m - fx i j m) * ((1 / 2) / h1 p) + (fu m - fy i j m) * ((1 / 2) / h2 p))) 0
           / accum_m (depth p) (fun m => q i j m * q i j m)))
    | _, _ => None end) old.
(** 2d/quatfacops.m4:542-602 add_quat_proj_op2d *)
Definition add_quat_proj_op (p : patch) (mob : arr2) (fx fy q : arr3) (lambda : arr2) (rhs : arr3) : arr3 :=
  mcells (depth p) (lo0 p) (hi0 p) (lo1 p) (hi1 p) (fun i j m r =>
    let divergence := (fx (i + 1)%Z j m - fx i j m) * (1 / h1 p) + (fy i (j + 1)%Z m - fy i j m) * (1 / h2 p) in
    r - mob i j * (divergence + 2 * q i j m * lambda i j)) rhs.
(** 2d/quatfacops.m4:604-681 add_quat_proj_op2d_symm *)
Definition add_quat_proj_op_symm (p : patch) (mob : arr2) (fx fy q : arr3) (lambda : arr2) (rx ry : iarr)
  (rhs : arr3) : option arr3 :=
  ocells (lo0 p) (hi0 p) (lo1 p) (hi1 p) (fun i j s =>
    match symmrotate (depth p) (fx (i + 1)%Z j) (-1 * rx (i + 1)%Z j),
          symmrotate (depth p) (fy i (j + 1)%Z) (-1 * ry i (j + 1)%Z) with
    | Some fr, Some fu =>
        Some (put (depth p) i j (fun m r =>
          let divergence := (fr m - fx i j m) * (1 / h1 p) + (fu m - fy i j m) * (1 / h2 p) in
          r - mob i j * (divergence + 2 * q i j m * lambda i j)) s)
    | _, _ => None end) rhs.

(** 2d/correctrhsquatforsymmetry.m4:15-165 *)
Definition correct_rhs (p : patch) (nx ny sx sy q : arr3) (fcx fcy mob : arr2) (rx ry : iarr) (rhs : arr3)
  : option arr3 :=
  ocells (lo0 p) (hi0 p) (lo1 p) (hi1 p) (fun i j s =>
    match rot_back (depth p) (sx (i + 1)%Z j) (rx (i + 1)%Z j), rot_back (depth p) (sy i (j + 1)%Z) (ry i (j + 1)%Z) with
    | Some px, Some py =>
        let tmp := fun m =>
          (1 / (h1 p * h1 p)) * (fcx (i + 1)%Z j * (nx (i + 1)%Z j m - px m) - fcx i j * (nx i j m - sx i j m))
          + (1 / (h2 p * h2 p)) * (fcy i (j + 1)%Z * (ny i (j + 1)%Z m - py m) - fcy i j * (ny i j m - sy i j m)) in
        if (1 <? depth p)%Z then
          let lambda := accum_m (depth p) (fun m => q i j m * tmp m) / accum_m (depth p) (fun m => q i j m * q i j m) in
          Some (put (depth p) i j (fun m r => r + mob i j * (tmp m - lambda * q i j m)) s)
        else Some (upd3 s i j 1%Z (s i j 1%Z + mob i j * tmp 1%Z))
    | _, _ => None end) rhs.

(** QuatFACOps.cc:1861-1889 evaluateRHS with use_gradq_for_flux = true, 1959-2132
    accumulateOperatorOnLevel, 1228-1296, 2139-2274, for one patch: [rot] is
    d_rotation_index_id >= 0.  The right-hand side starts at 0 (line 1877).  [asserts]
    tells whether assert() is active (2144). *)
Definition evaluateRHS (asserts rot : bool) (p : patch) (fcx fcy mob : arr2) (gxx gyy q : arr3) (rx ry : iarr)
  (old3 : arr3) (old2 : arr2) : option arr3 :=
  let fx := flux_x p fcx gxx old3 in
  let fy := flux_y p fcy gyy old3 in
  let rhs := fun _ _ _ => 0 in
  if (depth p =? 1)%Z then
    if asserts && rot then None else Some (add_quat_op p mob fx fy rhs)
  else if rot then
    match compute_lambda_symm p fx fy q rx ry old2 with
    | None => None
    | Some lambda => add_quat_proj_op_symm p mob fx fy q lambda rx ry rhs
    end
  else Some (add_quat_proj_op p mob fx fy q (compute_lambda p fx fy q old2) rhs).

(** QuatIntegrator.cc:2785-2803 computeQuatGradients (computeQDiffs.cc:17-110, 226-290, normal
    stencil), 2694-2745 evaluateQuatRHS, 3967-4070 correctRhsForSymmetry, for one patch.
    [symm] is d_symmetry_aware (input Symmetry), [use_gradq] is d_use_gradq_for_flux (input
    use_diffs_to_compute_flux).  The assert of line 4007 compares the depth of the face
    coefficients, 1 (QuatFACOps.cc:146-148), with d_qlen. *)
Definition evaluateQuatRHS (asserts symm use_gradq : bool) (p : patch) (fcx fcy mob : arr2) (q : arr3)
  (rx ry : iarr) (old3 : arr3) (old2 : arr2) : option arr3 :=
  let nx := quatdiffs_x p q old3 in
  let ny := quatdiffs_y p q old3 in
  match (if symm then quatdiffs_symm_x p q rx old3 else Some nx),
        (if symm then quatdiffs_symm_y p q ry old3 else Some ny) with
  | Some sx, Some sy =>
      let gxx := quatgrad_side_x_xside p sx old3 in
      let gyy := quatgrad_side_y_yside p sy old3 in
      let rot := symm && use_gradq in
      match evaluateRHS asserts rot p fcx fcy mob gxx gyy q rx ry old3 old2 with
      | None => None
      | Some rhs =>
          if symm && negb use_gradq then
            if asserts && negb (depth p =? 1)%Z then None
            else correct_rhs p nx ny sx sy q fcx fcy mob rx ry rhs
          else Some rhs
      end
  | _, _ => None
  end.

(** 2d/quatfacops.m4:940-997 project2d: the new corr and err *)
Definition project_scale (depth : Z) (v : vec) : R := 1 / sqrt (accum_m depth (fun m => v m * v m)).
Definition project_corr (p : patch) (q old : arr3) : arr3 :=
  do_cells (lo0 p) (hi0 p) (lo1 p) (hi1 p) (fun i j s =>
    let s1 := put (depth p) i j (fun m _ => q i j m * project_scale (depth p) (q i j)) s in
    put (depth p) i j (fun m c => c - q i j m) s1) old.
Definition project_err (p : patch) (q err : arr3) : arr3 :=
  do_cells (lo0 p) (hi0 p) (lo1 p) (hi1 p) (fun i j s =>
    let c := fun m => q i j m * project_scale (depth p) (q i j) in
    let fac := accum_m (depth p) (fun m => c m * s i j m) in
    put (depth p) i j (fun m e => e - c m * fac) s) err.
