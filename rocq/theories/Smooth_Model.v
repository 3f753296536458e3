(** Smoothing of the orientations after grains have been extended: QuatModel::smoothQuat (QuatModel.cc:3740-3803) and its
    kernels fortran/2d/smoothquat.m4, fortran/3d/smoothquat.m4.  2D: one patch with its ghost cells filled (the scratch
    array), as in QuatFlow_Model; the current array starts with the same values in the patch (copyCurrentToScratch). *)
From Coq Require Import Reals ZArith Bool.
From Verif Require Import Grid_Model Quat_Model QuatFlow_Model.
Open Scope R_scope.

(** 2d/smoothquat.m4:11-58 *)
Definition smoothquat (p : patch) (phase_threshold : R) (phase : arr2) (quat dx dy quat_out : arr3) : arr3 :=
  do_cells (lo0 p) (hi0 p) (lo1 p) (hi1 p) (fun i j s =>
    if Rlt_dec (phase i j) phase_threshold then
      put (depth p) i j (fun m _ => quat i j m - 1 / 8 * dx i j m + 1 / 8 * dx (i + 1)%Z j m - 1 / 8 * dy i j m + 1 / 8 * dy i (j + 1)%Z m) s
    else s) quat_out.
(** QuatModel.cc:3787-3803 with computeQuatDiffs (3912-3940, computeQDiffs.cc:227-282) for one patch; [rot] = the rotation indices
    if the run is symmetry aware; [old] = previous contents of the difference arrays *)
Definition smoothQuat (rot : option (iarr * iarr)) (p : patch) (phase_threshold : R) (phase : arr2) (quat old : arr3) : option arr3 :=
  match rot with
  | None => Some (smoothquat p phase_threshold phase quat (quatdiffs_x p quat old) (quatdiffs_y p quat old) quat)
  | Some (rx, ry) =>
      match quatdiffs_symm_x p quat rx old, quatdiffs_symm_y p quat ry old with
      | Some sx, Some sy => Some (smoothquat p phase_threshold phase quat sx sy quat)
      | _, _ => None
      end
  end.

(** 3d/smoothquat.m4:14-62 without symmetry (differences of 3d/quatdiffs.m4); every cell is written once from arrays that the
    kernel does not write, so the loops are a pointwise function *)
Definition arr4 := Z -> Z -> Z -> Z -> R.
Record patch3 := mk_patch3 { l0 : Z; u0 : Z; l1 : Z; u1 : Z; l2 : Z; u2 : Z; depth3 : Z }.
Definition smoothquat3 (p : patch3) (phase_threshold : R) (phase : Z -> Z -> Z -> R) (quat dx dy dz quat_out : arr4) : arr4 := fun i j k m =>
  if ((l0 p <=? i) && (i <=? u0 p) && (l1 p <=? j) && (j <=? u1 p) && (l2 p <=? k) && (k <=? u2 p) && (1 <=? m) && (m <=? depth3 p))%Z%bool then
    if Rlt_dec (phase i j k) phase_threshold then
      let fac := 1 / 6 in
      quat i j k m - fac * dx i j k m + fac * dx (i + 1)%Z j k m - fac * dy i j k m + fac * dy i (j + 1)%Z k m
                   - fac * dz i j k m + fac * dz i j (k + 1)%Z m
    else quat_out i j k m
  else quat_out i j k m.
Definition smoothQuat3 (p : patch3) (phase_threshold : R) (phase : Z -> Z -> Z -> R) (quat : arr4) : arr4 :=
  smoothquat3 p phase_threshold phase quat
    (fun i j k m => quat i j k m - quat (i - 1)%Z j k m) (fun i j k m => quat i j k m - quat i (j - 1)%Z k m)
    (fun i j k m => quat i j k m - quat i j (k - 1)%Z m) quat.
