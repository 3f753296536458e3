(** Model of the orientation dynamics in three dimensions: rotations, differences, gradients, moduli, face
    coefficients, the projected right-hand side, its symmetry correction and the projection onto unit orientations
    (fortran/3d/quatrotation.m4, quatdiffs.m4, quatgrad.m4, quatfacops.m4, correctrhsquatforsymmetry.m4;
    QuatFACOps.cc, QuatIntegrator.cc).  One patch of one level: ghost values are in the arrays, no coarse-fine flux
    fix.  Exact reals, array bounds are not modelled.  A Fortran loop that fills several independent arrays is
    written as one loop per array.  The in/out argument iq of quatsymmrotate is not threaded: the arrays passed
    hold positive indices, which it leaves alone.  [None] is the Fortran [stop] or a failed assert. *)
From Coq Require Import Reals ZArith List Bool Ascii.
From Verif Require Import Grid_Model Functions_Model Quat_Model Trap3_Model.
From Verif Require QuatFlow_Model.
Open Scope R_scope.

Notation vec := QuatFlow_Model.vec.
Notation symmrotate := QuatFlow_Model.symmrotate.
Notation findsymm := QuatFlow_Model.findsymm.
Notation rot_back := QuatFlow_Model.rot_back.
Notation rot_fwd := QuatFlow_Model.rot_fwd.
Notation accum_m := QuatFlow_Model.accum_m.
Notation face_coef := QuatFlow_Model.face_coef.
Notation project_scale := QuatFlow_Model.project_scale.

(** a loop over cells whose body may stop *)
Definition ocells3 {S : Type} (l0 u0 l1 u1 l2 u2 : Z) (body : Z -> Z -> Z -> S -> option S) (s : S) : option S :=
  do_cells3 l0 u0 l1 u1 l2 u2 (fun i j k os => match os with None => None | Some s => body i j k s end) (Some s).
(** [do m = 1, depth] over the components of one cell *)
Definition put3 (d i j k : Z) (g : Z -> R -> R) (s : arr4) : arr4 :=
  do_loop 1 d (fun m s => upd4 s i j k m (g m (s i j k m))) s.
(** the nest m, k, j, i of the kernels that treat the components one by one *)
Definition mcells3 (d l0 u0 l1 u1 l2 u2 : Z) (g : Z -> Z -> Z -> Z -> R -> R) (s : arr4) : arr4 :=
  do_loop 1 d (fun m => do_cells3 l0 u0 l1 u1 l2 u2 (fun i j k s => upd4 s i j k m (g i j k m (s i j k m)))) s.

(** rotation indices on the sides normal to x, y, z *)
Definition iarr3 := Z -> Z -> Z -> Z.
Definition iarr3x3 : Type := iarr3 * iarr3 * iarr3.
Definition iupd3 (f : iarr3) (i j k v : Z) : iarr3 :=
  fun a b c => if ((a =? i) && (b =? j) && (c =? k))%Z then v else f a b c.

(** 3d/quatrotation.m4:12-89 quat_symm_rotation; [old] holds the guesses; the depth is [d] *)
Definition quat_symm_rotation3 (b : box3) (d : Z) (q : arr4) (old : iarr3x3) : option iarr3x3 :=
  let '(old_x, old_y, old_z) := old in
  match
    ocells3 (xl b) (xu b + 1) (yl b - 1) (yu b + 1) (zl b - 1) (zu b + 1) (fun i j k s =>
      match findsymm d (q i j k) (q (i - 1)%Z j k) (s i j k) with
      | None => None | Some n => Some (iupd3 s i j k n) end) old_x,
    ocells3 (xl b - 1) (xu b + 1) (yl b) (yu b + 1) (zl b - 1) (zu b + 1) (fun i j k s =>
      match findsymm d (q i j k) (q i (j - 1)%Z k) (s i j k) with
      | None => None | Some n => Some (iupd3 s i j k n) end) old_y,
    ocells3 (xl b - 1) (xu b + 1) (yl b - 1) (yu b + 1) (zl b) (zu b + 1) (fun i j k s =>
      match findsymm d (q i j k) (q i j (k - 1)%Z) (s i j k) with
      | None => None | Some n => Some (iupd3 s i j k n) end) old_z
  with
  | Some rx, Some ry, Some rz => Some (rx, ry, rz)
  | _, _, _ => None
  end.

(** 3d/quatdiffs.m4:70-124 quatdiffs *)
Definition quatdiffs3 (b : box3) (d : Z) (q : arr4) (old : arr4x3) : arr4x3 :=
  let '(old_x, old_y, old_z) := old in
  (mcells3 d (xl b) (xu b + 1) (yl b - 1) (yu b + 1) (zl b - 1) (zu b + 1)
     (fun i j k m _ => q i j k m - q (i - 1)%Z j k m) old_x,
   mcells3 d (xl b - 1) (xu b + 1) (yl b) (yu b + 1) (zl b - 1) (zu b + 1)
     (fun i j k m _ => q i j k m - q i (j - 1)%Z k m) old_y,
   mcells3 d (xl b - 1) (xu b + 1) (yl b - 1) (yu b + 1) (zl b) (zu b + 1)
     (fun i j k m _ => q i j k m - q i j (k - 1)%Z m) old_z).
(** 3d/quatdiffs.m4:131-218 quatdiffs_symm *)
Definition quatdiffs_symm3 (b : box3) (d : Z) (q : arr4) (r : iarr3x3) (old : arr4x3) : option arr4x3 :=
  let '(old_x, old_y, old_z) := old in
  let '(rx, ry, rz) := r in
  match
    ocells3 (xl b) (xu b + 1) (yl b - 1) (yu b + 1) (zl b - 1) (zu b + 1) (fun i j k s =>
      match symmrotate d (q (i - 1)%Z j k) (rx i j k) with
      | None => None
      | Some q2 => Some (put3 d i j k (fun m _ => q i j k m - q2 m) s) end) old_x,
    ocells3 (xl b - 1) (xu b + 1) (yl b) (yu b + 1) (zl b - 1) (zu b + 1) (fun i j k s =>
      match symmrotate d (q i (j - 1)%Z k) (ry i j k) with
      | None => None
      | Some q2 => Some (put3 d i j k (fun m _ => q i j k m - q2 m) s) end) old_y,
    ocells3 (xl b - 1) (xu b + 1) (yl b - 1) (yu b + 1) (zl b) (zu b + 1) (fun i j k s =>
      match symmrotate d (q i j (k - 1)%Z) (rz i j k) with
      | None => None
      | Some q2 => Some (put3 d i j k (fun m _ => q i j k m - q2 m) s) end) old_z
  with
  | Some sx, Some sy, Some sz => Some (sx, sy, sz)
  | _, _, _ => None
  end.

(** loops over the cells of the patch *)
Definition mpatch3 (b : box3) (d : Z) := mcells3 d (xl b) (xu b) (yl b) (yu b) (zl b) (zu b).
Definition opatch3 {S : Type} (b : box3) := @ocells3 S (xl b) (xu b) (yl b) (yu b) (zl b) (zu b).
Definition mxfaces3 (b : box3) (d : Z) := mcells3 d (xl b) (xu b + 1) (yl b) (yu b) (zl b) (zu b).
Definition myfaces3 (b : box3) (d : Z) := mcells3 d (xl b) (xu b) (yl b) (yu b + 1) (zl b) (zu b).
Definition mzfaces3 (b : box3) (d : Z) := mcells3 d (xl b) (xu b) (yl b) (yu b) (zl b) (zu b + 1).
Definition oxfaces3 {S : Type} (b : box3) := @ocells3 S (xl b) (xu b + 1) (yl b) (yu b) (zl b) (zu b).
Definition oyfaces3 {S : Type} (b : box3) := @ocells3 S (xl b) (xu b) (yl b) (yu b + 1) (zl b) (zu b).
Definition ozfaces3 {S : Type} (b : box3) := @ocells3 S (xl b) (xu b) (yl b) (yu b) (zl b) (zu b + 1).

(** 3d/quatgrad.m4:11-73 quatgrad_cell *)
Definition quatgrad_cell3 (b : box3) (d : Z) (diff old : arr4x3) : arr4x3 :=
  let '(dx, dy, dz) := diff in
  let '(old_x, old_y, old_z) := old in
  (mpatch3 b d (fun i j k m _ => (dx (i + 1)%Z j k m + dx i j k m) * ((1 / 2) / hx b)) old_x,
   mpatch3 b d (fun i j k m _ => (dy i (j + 1)%Z k m + dy i j k m) * ((1 / 2) / hy b)) old_y,
   mpatch3 b d (fun i j k m _ => (dz i j (k + 1)%Z m + dz i j k m) * ((1 / 2) / hz b)) old_z).
(** 3d/quatgrad.m4:77-209 quatgrad_cell_symm *)
Definition quatgrad_cell_symm3 (b : box3) (d : Z) (diff : arr4x3) (r : iarr3x3) (old : arr4x3) : option arr4x3 :=
  let '(dx, dy, dz) := diff in
  let '(rx, ry, rz) := r in
  let '(old_x, old_y, old_z) := old in
  match
    opatch3 b (fun i j k s =>
      match rot_back d (dx (i + 1)%Z j k) (rx (i + 1)%Z j k) with
      | None => None
      | Some p => Some (put3 d i j k (fun m _ => (p m + dx i j k m) * ((1 / 2) / hx b)) s) end) old_x,
    opatch3 b (fun i j k s =>
      match rot_back d (dy i (j + 1)%Z k) (ry i (j + 1)%Z k) with
      | None => None
      | Some p => Some (put3 d i j k (fun m _ => (p m + dy i j k m) * ((1 / 2) / hy b)) s) end) old_y,
    opatch3 b (fun i j k s =>
      match rot_back d (dz i j (k + 1)%Z) (rz i j (k + 1)%Z) with
      | None => None
      | Some p => Some (put3 d i j k (fun m _ => (p m + dz i j k m) * ((1 / 2) / hz b)) s) end) old_z
  with
  | Some gx, Some gy, Some gz => Some (gx, gy, gz)
  | _, _, _ => None
  end.

(** components x, y, z of the gradients on the sides normal to x, then y, then z *)
Definition sides3 : Type := arr4x3 * arr4x3 * arr4x3.
(** 3d/quatgrad.m4:213-333 quatgrad_side *)
Definition quatgrad_side3 (b : box3) (d : Z) (diff : arr4x3) (old : sides3) : sides3 :=
  let '(dx, dy, dz) := diff in
  let '((oxx, oyx, ozx), (oxy, oyy, ozy), (oxz, oyz, ozz)) := old in
  let dxinv := 1 / hx b in
  let dyinv := 1 / hy b in
  let dzinv := 1 / hz b in
  let p25_dxinv := 1 / 4 * dxinv in
  let p25_dyinv := 1 / 4 * dyinv in
  let p25_dzinv := 1 / 4 * dzinv in
  ((mxfaces3 b d (fun i j k m _ => dxinv * dx i j k m) oxx,
    mxfaces3 b d (fun i j k m _ => p25_dyinv * (dy (i - 1)%Z (j + 1)%Z k m + dy (i - 1)%Z j k m + dy i (j + 1)%Z k m + dy i j k m)) oyx,
    mxfaces3 b d (fun i j k m _ => p25_dzinv * (dz (i - 1)%Z j (k + 1)%Z m + dz (i - 1)%Z j k m + dz i j (k + 1)%Z m + dz i j k m)) ozx),
   (myfaces3 b d (fun i j k m _ => p25_dxinv * (dx (i + 1)%Z (j - 1)%Z k m + dx i (j - 1)%Z k m + dx (i + 1)%Z j k m + dx i j k m)) oxy,
    myfaces3 b d (fun i j k m _ => dyinv * dy i j k m) oyy,
    myfaces3 b d (fun i j k m _ => p25_dzinv * (dz i (j - 1)%Z (k + 1)%Z m + dz i (j - 1)%Z k m + dz i j (k + 1)%Z m + dz i j k m)) ozy),
   (mzfaces3 b d (fun i j k m _ => p25_dxinv * (dx (i + 1)%Z j (k - 1)%Z m + dx i j (k - 1)%Z m + dx (i + 1)%Z j k m + dx i j k m)) oxz,
    mzfaces3 b d (fun i j k m _ => p25_dyinv * (dy i (j + 1)%Z (k - 1)%Z m + dy i j (k - 1)%Z m + dy i (j + 1)%Z k m + dy i j k m)) oyz,
    mzfaces3 b d (fun i j k m _ => dzinv * dz i j k m) ozz)).

(** 3d/quatgrad.m4:445-475 and the five other blocks of quatgrad_side_symm: differences [d1], [d2] above the side's two
    cells turned back, those of the cell before the side turned by the rotation [r] of the side; [c] is 0.25/h *)
Definition tangential (d : Z) (c : R) (d0 d1 d2 d3 : vec) (r1 r2 r : Z) : option vec :=
  match rot_back d d1 r1, rot_back d d2 r2 with
  | Some d1prime, Some d2prime =>
      match rot_fwd d (fun m => d2prime m + d3 m) r with
      | None => None
      | Some d4prime => Some (fun m => c * (d4prime m + d1prime m + d0 m))
      end
  | _, _ => None
  end.
Definition oput (d i j k : Z) (v : option vec) (s : arr4) : option arr4 :=
  match v with None => None | Some g => Some (put3 d i j k (fun m _ => g m) s) end.
(** 3d/quatgrad.m4:376-677 quatgrad_side_symm *)
Definition quatgrad_side_symm3 (b : box3) (d : Z) (diff : arr4x3) (r : iarr3x3) (old : sides3) : option sides3 :=
  let '(dx, dy, dz) := diff in
  let '(rx, ry, rz) := r in
  let '((oxx, oyx, ozx), (oxy, oyy, ozy), (oxz, oyz, ozz)) := old in
  let dxinv := 1 / hx b in
  let dyinv := 1 / hy b in
  let dzinv := 1 / hz b in
  let p25_dxinv := 1 / 4 * dxinv in
  let p25_dyinv := 1 / 4 * dyinv in
  let p25_dzinv := 1 / 4 * dzinv in
  match
    oxfaces3 b (fun i j k => oput d i j k (tangential d p25_dyinv
      (dy i j k) (dy i (j + 1)%Z k) (dy (i - 1)%Z (j + 1)%Z k) (dy (i - 1)%Z j k)
      (ry i (j + 1)%Z k) (ry (i - 1)%Z (j + 1)%Z k) (rx i j k))) oyx,
    oxfaces3 b (fun i j k => oput d i j k (tangential d p25_dzinv
      (dz i j k) (dz i j (k + 1)%Z) (dz (i - 1)%Z j (k + 1)%Z) (dz (i - 1)%Z j k)
      (rz i j (k + 1)%Z) (rz (i - 1)%Z j (k + 1)%Z) (rx i j k))) ozx,
    oyfaces3 b (fun i j k => oput d i j k (tangential d p25_dxinv
      (dx i j k) (dx (i + 1)%Z j k) (dx (i + 1)%Z (j - 1)%Z k) (dx i (j - 1)%Z k)
      (rx (i + 1)%Z j k) (rx (i + 1)%Z (j - 1)%Z k) (ry i j k))) oxy,
    oyfaces3 b (fun i j k => oput d i j k (tangential d p25_dzinv
      (dz i j k) (dz i j (k + 1)%Z) (dz i (j - 1)%Z (k + 1)%Z) (dz i (j - 1)%Z k)
      (rz i j (k + 1)%Z) (rz i (j - 1)%Z (k + 1)%Z) (ry i j k))) ozy,
    ozfaces3 b (fun i j k => oput d i j k (tangential d p25_dxinv
      (dx i j k) (dx (i + 1)%Z j k) (dx (i + 1)%Z j (k - 1)%Z) (dx i j (k - 1)%Z)
      (rx (i + 1)%Z j k) (rx (i + 1)%Z j (k - 1)%Z) (rz i j k))) oxz,
    ozfaces3 b (fun i j k => oput d i j k (tangential d p25_dyinv
      (dy i j k) (dy i (j + 1)%Z k) (dy i (j + 1)%Z (k - 1)%Z) (dy i j (k - 1)%Z)
      (ry i (j + 1)%Z k) (ry i (j + 1)%Z (k - 1)%Z) (rz i j k))) oyz
  with
  | Some gyx, Some gzx, Some gxy, Some gzy, Some gxz, Some gyz =>
      Some ((mxfaces3 b d (fun i j k m _ => dxinv * dx i j k m) oxx, gyx, gzx),
            (gxy, myfaces3 b d (fun i j k m _ => dyinv * dy i j k m) oyy, gzy),
            (gxz, gyz, mzfaces3 b d (fun i j k m _ => dzinv * dz i j k m) ozz))
  | _, _, _, _, _, _ => None
  end.

(** 3d/quatgrad.m4:793-833 quatgrad_modulus *)
Definition quatgrad_modulus3 (b : box3) (d : Z) (g : arr4x3) (old : arr3) : arr3 :=
  let '(gx, gy, gz) := g in
  do_cells3 (xl b) (xu b) (yl b) (yu b) (zl b) (zu b) (fun i j k s =>
    upd3 s i j k (sqrt (accum_m d (fun m =>
      gx i j k m * gx i j k m + gy i j k m * gy i j k m + gz i j k m * gz i j k m)))) old.
(** 3d/quatgrad.m4:725-788 quatgrad_modulus_from_sides_compact: only the normal components enter *)
Definition quatgrad_modulus_from_sides3 (b : box3) (d : Z) (g : sides3) (old : arr3) : arr3 :=
  let '((gxx, _, _), (_, gyy, _), (_, _, gzz)) := g in
  let sq (g : arr4) i j k s := do_loop 1 d (fun m s => s + g i j k m * g i j k m) s in
  do_cells3 (xl b) (xu b) (yl b) (yu b) (zl b) (zu b) (fun i j k s =>
    upd3 s i j k (sqrt ((1 / 2) *
      sq gzz i j (k + 1)%Z (sq gzz i j k (sq gyy i (j + 1)%Z k (sq gyy i j k (sq gxx (i + 1)%Z j k (sq gxx i j k 0)))))))) old.

(** 3d/quatfacops.m4:14-155 compute_face_coef3d; the squared norm of the gradient has all three components *)
Definition grad_norm2 (d : Z) (g : arr4x3) (i j k : Z) : R :=
  let '(gx, gy, gz) := g in
  do_loop 1 d (fun m s => s + gz i j k m ^ 2) (do_loop 1 d (fun m s => s + gy i j k m ^ 2) (do_loop 1 d (fun m s => s + gx i j k m ^ 2) 0)).
Definition compute_face_coef3 (b : box3) (d : Z) (eps_q factor floor : R) (floor_type interp1 interp2 avg : ascii)
  (phi temp : arr3) (g : sides3) (old : arr3x3) : option arr3x3 :=
  let '(gqx, gqy, gqz) := g in
  let '(ox, oy, oz) := old in
  let fc phi1 phi2 t1 t2 g2 := face_coef eps_q factor floor floor_type interp1 interp2 avg phi1 phi2 t1 t2 g2 in
  let set i j k (v : option R) (s : arr3) := match v with None => None | Some c => Some (upd3 s i j k c) end in
  match
    oxfaces3 b (fun i j k => set i j k (fc (phi (i - 1)%Z j k) (phi i j k) (temp (i - 1)%Z j k) (temp i j k) (grad_norm2 d gqx i j k))) ox,
    oyfaces3 b (fun i j k => set i j k (fc (phi i (j - 1)%Z k) (phi i j k) (temp i (j - 1)%Z k) (temp i j k) (grad_norm2 d gqy i j k))) oy,
    ozfaces3 b (fun i j k => set i j k (fc (phi i j (k - 1)%Z) (phi i j k) (temp i j (k - 1)%Z) (temp i j k) (grad_norm2 d gqz i j k))) oz
  with
  | Some fcx, Some fcy, Some fcz => Some (fcx, fcy, fcz)
  | _, _, _ => None
  end.

(** 3d/quatfacops.m4:313-390 compute_flux3d_from_gradq *)
Definition flux3_from_gradq (b : box3) (d : Z) (fc : arr3x3) (g : sides3) (old : arr4x3) : arr4x3 :=
  let '(fcx, fcy, fcz) := fc in
  let '((gxx, _, _), (_, gyy, _), (_, _, gzz)) := g in
  let '(ox, oy, oz) := old in
  (mxfaces3 b d (fun i j k m _ => fcx i j k * gxx i j k m) ox,
   myfaces3 b d (fun i j k m _ => fcy i j k * gyy i j k m) oy,
   mzfaces3 b d (fun i j k m _ => fcz i j k * gzz i j k m) oz).
(** 3d/quatfacops.m4:596-657 add_quat_op3d *)
Definition add_quat_op3 (b : box3) (d : Z) (mob : arr3) (f : arr4x3) (rhs : arr4) : arr4 :=
  let '(fx, fy, fz) := f in
  mpatch3 b d (fun i j k m r =>
    let divergence := (fx (i + 1)%Z j k m - fx i j k m) * (1 / hx b) + (fy i (j + 1)%Z k m - fy i j k m) * (1 / hy b)
                      + (fz i j (k + 1)%Z m - fz i j k m) * (1 / hz b) in
    r - mob i j k * divergence) rhs.
(** 3d/quatfacops.m4:729-791 compute_lambda_flux3d; a zero sumq2 is Coq's division by 0 *)
Definition compute_lambda3 (b : box3) (d : Z) (f : arr4x3) (q : arr4) (old : arr3) : arr3 :=
  let '(fx, fy, fz) := f in
  do_cells3 (xl b) (xu b) (yl b) (yu b) (zl b) (zu b) (fun i j k s =>
    upd3 s i j k
      (do_loop 1 d (fun m l => l - q i j k m *
         ((fx (i + 1)%Z j k m - fx i j k m) * ((1 / 2) / hx b) + (fy i (j + 1)%Z k m - fy i j k m) * ((1 / 2) / hy b)
          + (fz i j (k + 1)%Z m - fz i j k m) * ((1 / 2) / hz b))) 0
       / accum_m d (fun m => q i j k m * q i j k m))) old.
(** 3d/quatfacops.m4:659-727 add_quat_proj_op3d *)
Definition add_quat_proj_op3 (b : box3) (d : Z) (mob : arr3) (f : arr4x3) (q : arr4) (lambda : arr3) (rhs : arr4) : arr4 :=
  let '(fx, fy, fz) := f in
  mpatch3 b d (fun i j k m r =>
    let divergence := (fx (i + 1)%Z j k m - fx i j k m) * (1 / hx b) + (fy i (j + 1)%Z k m - fy i j k m) * (1 / hy b)
                      + (fz i j (k + 1)%Z m - fz i j k m) * (1 / hz b) in
    r - mob i j k * (divergence + 2 * q i j k m * lambda i j k)) rhs.

(** 3d/correctrhsquatforsymmetry.m4:15-165 *)
Definition correct_rhs3 (b : box3) (d : Z) (n s : arr4x3) (q : arr4) (fc : arr3x3) (mob : arr3) (r : iarr3x3) (rhs : arr4)
  : option arr4 :=
  let '(nx, ny, nz) := n in
  let '(sx, sy, sz) := s in
  let '(fcx, fcy, fcz) := fc in
  let '(rx, ry, rz) := r in
  opatch3 b (fun i j k a =>
    match rot_back d (sx (i + 1)%Z j k) (rx (i + 1)%Z j k), rot_back d (sy i (j + 1)%Z k) (ry i (j + 1)%Z k),
          rot_back d (sz i j (k + 1)%Z) (rz i j (k + 1)%Z) with
    | Some px, Some py, Some pz =>
        let tmp := fun m =>
          (1 / (hx b * hx b)) * (fcx (i + 1)%Z j k * (nx (i + 1)%Z j k m - px m) - fcx i j k * (nx i j k m - sx i j k m))
          + (1 / (hy b * hy b)) * (fcy i (j + 1)%Z k * (ny i (j + 1)%Z k m - py m) - fcy i j k * (ny i j k m - sy i j k m))
          + (1 / (hz b * hz b)) * (fcz i j (k + 1)%Z * (nz i j (k + 1)%Z m - pz m) - fcz i j k * (nz i j k m - sz i j k m)) in
        if (1 <? d)%Z then
          let lambda := accum_m d (fun m => q i j k m * tmp m) / accum_m d (fun m => q i j k m * q i j k m) in
          Some (put3 d i j k (fun m x => x + mob i j k * (tmp m - lambda * q i j k m)) a)
        else Some (put3 d i j k (fun m x => x + mob i j k * tmp m) a)
    | _, _, _ => None end) rhs.

(** QuatFACOps.cc:1861-1889 evaluateRHS with use_gradq_for_flux = true, 1959-2132 accumulateOperatorOnLevel, 1228-1296,
    2139-2274, NDIM 3, for one patch: [rot] is d_rotation_index_id >= 0, which lines 2144, 1281 and 2257 assert not to
    be the case; without asserts the indices are ignored.  The right-hand side starts at 0 (line 1877). *)
Definition evaluateRHS3 (asserts rot : bool) (b : box3) (d : Z) (fc : arr3x3) (mob : arr3) (g : sides3) (q : arr4)
  (old4 : arr4x3) (old3 : arr3) : option arr4 :=
  let f := flux3_from_gradq b d fc g old4 in
  let rhs := fun _ _ _ _ => 0 in
  if asserts && rot then None
  else if (d =? 1)%Z then Some (add_quat_op3 b d mob f rhs)
  else Some (add_quat_proj_op3 b d mob f q (compute_lambda3 b d f q old3) rhs).

(** QuatIntegrator.cc:2785-2803 computeQuatGradients (computeQDiffs.cc:17-110, 226-290), 2694-2745 evaluateQuatRHS,
    3967-4070 correctRhsForSymmetry, NDIM 3, for one patch.  [symm] is d_symmetry_aware (input Symmetry), [use_gradq]
    d_use_gradq_for_flux (input use_diffs_to_compute_flux), [isotropic] the isotropic stencil of the side gradients,
    which stops in three dimensions with and without symmetry (3d/quatgrad.m4:337-372, 681-721).  The assert of line
    4007 compares the depth of the face coefficients, 1 (QuatFACOps.cc:146-148), with d_qlen. *)
Definition evaluateQuatRHS3 (asserts symm use_gradq isotropic : bool) (b : box3) (d : Z) (fc : arr3x3) (mob : arr3)
  (q : arr4) (r : iarr3x3) (old9 : sides3) (old4 : arr4x3) (old3 : arr3) : option arr4 :=
  let n := quatdiffs3 b d q old4 in
  match (if symm then quatdiffs_symm3 b d q r old4 else Some n) with
  | None => None
  | Some s =>
      match (if isotropic then None
             else if symm then quatgrad_side_symm3 b d s r old9 else Some (quatgrad_side3 b d s old9)) with
      | None => None
      | Some g =>
          match evaluateRHS3 asserts (symm && use_gradq) b d fc mob g q old4 old3 with
          | None => None
          | Some rhs =>
              if symm && negb use_gradq then
                if asserts && negb (d =? 1)%Z then None else correct_rhs3 b d n s q fc mob r rhs
              else Some rhs
          end
      end
  end.

(** 3d/quatfacops.m4:1022-1081 project3d: the new corr and err *)
Definition project_corr3 (b : box3) (d : Z) (q old : arr4) : arr4 :=
  do_cells3 (xl b) (xu b) (yl b) (yu b) (zl b) (zu b) (fun i j k s =>
    let s1 := put3 d i j k (fun m _ => q i j k m * project_scale d (q i j k)) s in
    put3 d i j k (fun m c => c - q i j k m) s1) old.
Definition project_err3 (b : box3) (d : Z) (q err : arr4) : arr4 :=
  do_cells3 (xl b) (xu b) (yl b) (yu b) (zl b) (zu b) (fun i j k s =>
    let c := fun m => q i j k m * project_scale d (q i j k) in
    let fac := accum_m d (fun m => c m * s i j k m) in
    put3 d i j k (fun m e => e - c m * fac) s) err.
