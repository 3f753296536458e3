(** Model of the rigid-body pair forces: source/fortran/{2d,3d}/forces.m4, source/RigidBodyForces.cc,
    source/WangRigidBodyForces.cc, source/PhaseRigidBodyForces.cc, source/QuatIntegrator.cc:2495-2520,
    and of the motion they cause: source/RigidBodyMotionRHS.cc, source/fortran/2d/rbmotion.m4.
    Exact reals; the array [forces] is a total function of its Fortran index (first index 1). *)
From Coq Require Import Reals ZArith List Ascii.
From Verif Require Import Grid_Model Functions_Model.
Import ListNotations.
Open Scope R_scope.

Definition arr1 := Z -> R.
Definition upd1 (f : arr1) (i : Z) (v : R) : arr1 := fun a => if (a =? i)%Z then v else f a.
Definition add1 (f : arr1) (i : Z) (v : R) : arr1 := upd1 f i (f i + v).

(** a patch: box, mesh spacing, order parameters and compositions (last index: component), volume weight *)
Record patch2 := Patch2 { plo0 : Z; pup0 : Z; plo1 : Z; pup1 : Z; pdx0 : R; pdx1 : R;
  pphi : arr3; pconc : arr3; pweight : arr2 }.
Record patch3 := Patch3 { qlo0 : Z; qup0 : Z; qlo1 : Z; qup1 : Z; qlo2 : Z; qup2 : Z; qdx0 : R; qdx1 : R; qdx2 : R;
  qphi : arr4; qconc : arr4; qweight : arr3 }.

Definition interp_p (x : R) : R := match interp_func x "p"%char with Some v => v | None => 0 end.

(** 2d/forces.m4:77-160 wang_forces *)
Definition wang_forces2 (nphases nc : Z) (rhoe cthreshold : R) (p : patch2) (forces : arr1) : arr1 :=
  let phi := pphi p in
  let conc := pconc p in
  let cutoff_slope := 10 in
  let dxinv := 1 / 2 / pdx0 p in
  let dyinv := 1 / 2 / pdx1 p in
  do_loop 1 nphases (fun p1 => do_loop 1 (p1 - 1) (fun p2 forces =>
    let offset1 := (2 * (nphases * (p1 - 1) + (p2 - 1)))%Z in
    let offset2 := (2 * (nphases * (p2 - 1) + (p1 - 1)))%Z in
    do_cells (plo0 p) (pup0 p) (plo1 p) (pup1 p) (fun i j forces =>
      let pp := 1 / 2 + (phi i j p1 * phi i j p2 - cthreshold) * cutoff_slope in
      if Rlt_dec 0 pp then
        let cfactor := interp_p pp in
        let cdiff := do_loop 1 nc (fun ic cdiff => cdiff + conc i j ic) 0 in
        let cdiff := Rmin cdiff 1 in
        let cdiff := cdiff - rhoe in
        let diffx1 := dxinv * (phi (i + 1)%Z j p1 - phi (i - 1)%Z j p1) in
        let diffy1 := dyinv * (phi i (j + 1)%Z p1 - phi i (j - 1)%Z p1) in
        let diffx2 := dxinv * (phi (i + 1)%Z j p2 - phi (i - 1)%Z j p2) in
        let diffy2 := dyinv * (phi i (j + 1)%Z p2 - phi i (j - 1)%Z p2) in
        let fx := cdiff * cfactor * (diffx1 - diffx2) in
        let fy := cdiff * cfactor * (diffy1 - diffy2) in
        let w := pweight p i j in
        let forces := add1 forces (offset1 + 1) (fx * w) in
        let forces := add1 forces (offset1 + 2) (fy * w) in
        let forces := add1 forces (offset2 + 1) (- (fx * w)) in
        add1 forces (offset2 + 2) (- (fy * w))
      else forces) forces)) forces.

(** 3d/forces.m4:83-180 wang_forces *)
Definition wang_forces3 (nphases nc : Z) (rhoe cthreshold : R) (p : patch3) (forces : arr1) : arr1 :=
  let phi := qphi p in
  let conc := qconc p in
  let cutoff_slope := 10 in
  let dxinv := 1 / 2 / qdx0 p in
  let dyinv := 1 / 2 / qdx1 p in
  let dzinv := 1 / 2 / qdx2 p in
  do_loop 1 nphases (fun p1 => do_loop 1 (p1 - 1) (fun p2 forces =>
    let offset1 := (3 * (nphases * (p1 - 1) + (p2 - 1)))%Z in
    let offset2 := (3 * (nphases * (p2 - 1) + (p1 - 1)))%Z in
    do_cells3 (qlo0 p) (qup0 p) (qlo1 p) (qup1 p) (qlo2 p) (qup2 p) (fun i j k forces =>
      let pp := 1 / 2 + (phi i j k p1 * phi i j k p2 - cthreshold) * cutoff_slope in
      if Rlt_dec 0 pp then
        let cfactor := interp_p pp in
        let cdiff := do_loop 1 nc (fun ic cdiff => cdiff + conc i j k ic) 0 in
        let cdiff := Rmin cdiff 1 in
        let cdiff := cdiff - rhoe in
        let diffx1 := dxinv * (phi (i + 1)%Z j k p1 - phi (i - 1)%Z j k p1) in
        let diffy1 := dyinv * (phi i (j + 1)%Z k p1 - phi i (j - 1)%Z k p1) in
        let diffz1 := dzinv * (phi i j (k + 1)%Z p1 - phi i j (k - 1)%Z p1) in
        let diffx2 := dxinv * (phi (i + 1)%Z j k p2 - phi (i - 1)%Z j k p2) in
        let diffy2 := dyinv * (phi i (j + 1)%Z k p2 - phi i (j - 1)%Z k p2) in
        let diffz2 := dzinv * (phi i j (k + 1)%Z p2 - phi i j (k - 1)%Z p2) in
        let fx := cdiff * cfactor * (diffx1 - diffx2) in
        let fy := cdiff * cfactor * (diffy1 - diffy2) in
        let fz := cdiff * cfactor * (diffz1 - diffz2) in
        let w := qweight p i j k in
        let forces := add1 forces (offset1 + 1) (fx * w) in
        let forces := add1 forces (offset1 + 2) (fy * w) in
        let forces := add1 forces (offset1 + 3) (fz * w) in
        let forces := add1 forces (offset2 + 1) (- (fx * w)) in
        let forces := add1 forces (offset2 + 2) (- (fy * w)) in
        add1 forces (offset2 + 3) (- (fz * w))
      else forces) forces)) forces.

(** 2d/forces.m4:18-73 phiphi_forces *)
Definition phiphi_forces2 (nphases : Z) (dgamma m : R) (p : patch2) (forces : arr1) : arr1 :=
  let phi := pphi p in
  let dxinv := 1 / pdx0 p in
  let dyinv := 1 / pdx1 p in
  let factor := 1 / 2 * dgamma * m in
  do_loop 1 nphases (fun p1 => do_loop 1 nphases (fun p2 forces =>
    if (p1 =? p2)%Z then forces else
    let offset := (2 * nphases * (p1 - 1) + p2 * 2 - 1)%Z in
    do_cells (plo0 p) (pup0 p) (plo1 p) (pup1 p) (fun i j forces =>
      let diffx := dxinv * (phi (i + 1)%Z j p2 - phi (i - 1)%Z j p2) in
      let diffy := dyinv * (phi i (j + 1)%Z p2 - phi i (j - 1)%Z p2) in
      let f := phi i j p1 * phi i j p1 * phi i j p2 * factor in
      let fx := f * diffx in
      let fy := f * diffy in
      let forces := add1 forces offset (fx * pweight p i j) in
      add1 forces (offset + 1) (fy * pweight p i j)) forces)) forces.

(** 3d/forces.m4:18-78 phiphi_forces: same offset formula as in 2D, no weight *)
Definition phiphi_forces3 (nphases : Z) (dgamma m : R) (p : patch3) (forces : arr1) : arr1 :=
  let phi := qphi p in
  let dxinv := 1 / qdx0 p in
  let dyinv := 1 / qdx1 p in
  let dzinv := 1 / qdx2 p in
  let factor := 1 / 2 * dgamma * m in
  do_loop 1 nphases (fun p1 => do_loop 1 nphases (fun p2 forces =>
    if (p1 =? p2)%Z then forces else
    let offset := (3 * nphases * (p1 - 1) + p2 * 2 - 1)%Z in
    do_cells3 (qlo0 p) (qup0 p) (qlo1 p) (qup1 p) (qlo2 p) (qup2 p) (fun i j k forces =>
      let diffx := dxinv * (phi (i + 1)%Z j k p2 - phi (i - 1)%Z j k p2) in
      let diffy := dyinv * (phi i (j + 1)%Z k p2 - phi i (j - 1)%Z k p2) in
      let diffz := dzinv * (phi i j (k + 1)%Z p2 - phi i j (k - 1)%Z p2) in
      let f := phi i j k p1 * phi i j k p1 * phi i j k p2 * factor in
      let forces := add1 forces offset (f * diffx) in
      let forces := add1 forces (offset + 1) (f * diffy) in
      add1 forces (offset + 2) (f * diffz)) forces)) forces.

(** RigidBodyForces.cc:39-91 evaluatePairForces on one rank: zero the array, visit every patch of every
    level, multiply by the stiffness and copy entry [count] (counting i, then j, then the direction d) *)
Definition local_force {P : Type} (kernel : P -> arr1 -> arr1) (ndim n : Z) (stiffness : R) (patches : list P)
  (i j d : Z) : R :=
  let forces := fold_left (fun f p => kernel p f) patches (fun _ => 0) in
  forces ((i * n + j) * ndim + d + 1)%Z * stiffness.

Fixpoint sum_list (l : list R) : R := match l with [] => 0 | x :: l => x + sum_list l end.

(** ... and sumReduction over the ranks; getPairForce(i,j) component d (indices from 0) *)
Definition pair_force {P : Type} (kernel : P -> arr1 -> arr1) (ndim n : Z) (stiffness : R) (ranks : list (list P))
  (i j d : Z) : R :=
  sum_list (map (fun patches => local_force kernel ndim n stiffness patches i j d) ranks).

(** QuatIntegrator.cc:2496-2517: external force plus the pair forces of all others (n = norderpA, norderpB = 0) *)
Definition grain_force (n : Z) (ext : Z -> R) (pair : Z -> Z -> Z -> R) (i d : Z) : R :=
  do_loop 0 (n - 1) (fun j f => if (j =? i)%Z then f else f + pair i j d) (ext d).

(** RigidBodyMotionRHS.cc:47-50: velocity of a grain *)
Definition grain_velocity (mobility : R) (volume : Z -> R) (force : Z -> Z -> R) (i d : Z) : R :=
  force i d * (mobility / volume i).

(** 2d/rbmotion.m4:33-54 addrbmotion *)
Definition addrbmotion (lo0 hi0 lo1 hi1 : Z) (dx0 dx1 : R) (phase : arr2) (v0 v1 : R) (rhs : arr2) : arr2 :=
  let dxinv := 1 / 2 * v0 / dx0 in
  let dyinv := 1 / 2 * v1 / dx1 in
  do_cells lo0 hi0 lo1 hi1 (fun i j rhs =>
    let diff_x := dxinv * (phase (i + 1)%Z j - phase (i - 1)%Z j) in
    let diff_y := dyinv * (phase i (j + 1)%Z - phase i (j - 1)%Z) in
    upd2 rhs i j (rhs i j - diff_x - diff_y)) rhs.
