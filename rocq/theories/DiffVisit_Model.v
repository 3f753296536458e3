(** Diffusion coefficients written for visualization: QuatModel::setDiffusionVisit (QuatModel.cc:5401-5422), sideToCell
    (toolsSAMRAI.cc:112-154) and the kernels side2cell in two and three dimensions.  Exact reals; None = failed assertion. *)
From Coq Require Import Reals ZArith List Bool.
From Verif Require Import Grid_Model.
Import ListNotations.
Open Scope R_scope.

(** index boxes of a patch *)
Record ibox2 := mk_ibox2 { p0 : Z; q0 : Z; p1 : Z; q1 : Z }.
Record ibox3 := mk_ibox3 { lo0 : Z; hi0 : Z; lo1 : Z; hi1 : Z; lo2 : Z; hi2 : Z }.
(** fortran/2d/side2cell.m4:14-45; s d = data of the sides normal to axis d *)
Definition side2cell2 (b : ibox2) (s : Z -> arr2) (cdata : arr2) : arr2 :=
  do_cells (p0 b) (q0 b) (p1 b) (q1 b) (fun i j c =>
    upd2 c i j (25 / 100 * (s 0%Z i j + s 0%Z (i + 1)%Z j + s 1%Z i j + s 1%Z i (j + 1)%Z))) cdata.
(** fortran/3d/side2cell.m4:14-54 *)
Definition side2cell3 (b : ibox3) (s : Z -> arr3) (cdata : arr3) : arr3 :=
  let onesixth := 1 / 6 in
  do_cells3 (lo0 b) (hi0 b) (lo1 b) (hi1 b) (lo2 b) (hi2 b) (fun i j k c =>
    upd3 c i j k (onesixth * (s 0%Z i j k + s 0%Z (i + 1)%Z j k + s 1%Z i j k + s 1%Z i (j + 1)%Z k + s 2%Z i j k + s 2%Z i j (k + 1)%Z))) cdata.

(** the coefficients of the liquid, of the phases A and B (EBS strategy) and of the other strategies (d_conc_pfm_diffusion_id[0]) *)
Inductive coef := CL | CA | CB | CD.
Definition same_coef (a b : coef) : bool := match a, b with CL, CL | CA, CA | CB, CB | CD, CD => true | _, _ => false end.
(** a patch: box, side data of the coefficients by depth and axis, cell data for visualization (depth one) *)
Record patch (B A : Type) := mk_patch { pbox : B; diff : coef -> Z -> Z -> A; visit : coef -> A }.
Arguments mk_patch {B A}. Arguments pbox {B A}. Arguments diff {B A}. Arguments visit {B A}.

(** toolsSAMRAI.cc:112-154 with cdepth = 0; all patches of all levels *)
Definition sideToCell {B A : Type} (kernel : B -> (Z -> A) -> A -> A) (c : coef) (sdepth : Z) (h : list (patch B A)) : list (patch B A) :=
  map (fun p => mk_patch (pbox p) (diff p) (fun c' => if same_coef c' c then kernel (pbox p) (diff p c sdepth) (visit p c) else visit p c')) h.
(** QuatModel.cc:5401-5422; alloc c: the data of that coefficient are allocated *)
Definition setDiffusionVisit {B A : Type} (kernel : B -> (Z -> A) -> A -> A) (extra ebs : bool) (alloc : coef -> bool) (h : list (patch B A)) : option (list (patch B A)) :=
  if negb extra then Some h
  else if ebs then
    if alloc CL && alloc CA then
      let h := sideToCell kernel CL 0 h in
      let h := sideToCell kernel CA 0 h in
      Some (if alloc CB then sideToCell kernel CB 0 h else h)
    else None
  else if alloc CD then Some (sideToCell kernel CD 0 h) else None.
