(** Model of the three-phase right-hand side and of the projection of phase fractions:
    source/fortran/2d/quatrhs.m4 and 3d/quatrhs.m4 (computerhsthreephases),
    source/CALPHADFreeEnergyStrategyBinaryThreePhase.cc (addDrivingForceOnPatch),
    source/ThreePhasesRHSStrategy.cc, source/fortran/2d/phase.m4 and 3d/phase.m4,
    source/QuatIntegrator.cc (applyProjection).
    The three phases are components 1..3 of an array (depths 0..2 in C++).
    Free energies, compositions and the chemical potential computed by the CALPHAD
    library are arbitrary fields.  Exact reals. *)
From Coq Require Import Reals ZArith List Bool.
From Verif Require Import Grid_Model Tilting_Model.
Import ListNotations.
Open Scope R_scope.

(** 2d/quatrhs.m4:453-480 first part of computerhsthreephases *)
Definition rhs_threephases_raw (lo0 hi0 lo1 hi1 : Z) (dx0 dx1 : R) (flux0 flux1 : arr3)
  (phi_well_scale : R) (phi rhs : arr3) : arr3 :=
  let dxinv := 1 / dx0 in
  let dyinv := 1 / dx1 in
  do_loop 1 3 (fun ip =>
    let ip1 := (ip mod 3 + 1)%Z in
    let ip2 := ((ip + 1) mod 3 + 1)%Z in
    do_cells lo0 hi0 lo1 hi1 (fun i j r =>
      let diff_term_x := (flux0 (i + 1)%Z j ip - flux0 i j ip) * dxinv in
      let diff_term_y := (flux1 i (j + 1)%Z ip - flux1 i j ip) * dyinv in
      let r := upd3 r i j ip (diff_term_x + diff_term_y) in
      let g_prime := deriv_triple_well_func (phi i j ip) (phi i j ip1) (phi i j ip2) in
      upd3 r i j ip (r i j ip - phi_well_scale * g_prime))) rhs.

(** 2d/quatrhs.m4:482-495 second part: subtract the mean over the phases *)
Definition sum_to_zero (lo0 hi0 lo1 hi1 : Z) (rhs : arr3) : arr3 :=
  do_cells lo0 hi0 lo1 hi1 (fun i j r =>
    let dsum := do_loop 1 3 (fun jp s => s + r i j jp) 0 in
    let dsum := dsum * (1 / 3) in
    do_loop 1 3 (fun jp r => upd3 r i j jp (r i j jp - dsum)) r) rhs.

(** 2d/quatrhs.m4:411-496 computerhsthreephases *)
Definition computerhsthreephases (lo0 hi0 lo1 hi1 : Z) (dx0 dx1 : R) (flux0 flux1 : arr3)
  (phi_well_scale : R) (phi rhs : arr3) : arr3 :=
  sum_to_zero lo0 hi0 lo1 hi1 (rhs_threephases_raw lo0 hi0 lo1 hi1 dx0 dx1 flux0 flux1 phi_well_scale phi rhs).

(** the same in 3D: 3d/quatrhs.m4:515-617 *)
Definition computerhsthreephases3 (lo0 hi0 lo1 hi1 lo2 hi2 : Z) (dx0 dx1 dx2 : R) (flux0 flux1 flux2 : arr4)
  (phi_well_scale : R) (phi rhs : arr4) : arr4 :=
  let dxinv := 1 / dx0 in
  let dyinv := 1 / dx1 in
  let dzinv := 1 / dx2 in
  let rhs := do_loop 1 3 (fun ip =>
    let ip1 := (ip mod 3 + 1)%Z in
    let ip2 := ((ip + 1) mod 3 + 1)%Z in
    do_cells3 lo0 hi0 lo1 hi1 lo2 hi2 (fun i j k r =>
      let diff_term_x := (flux0 (i + 1)%Z j k ip - flux0 i j k ip) * dxinv in
      let diff_term_y := (flux1 i (j + 1)%Z k ip - flux1 i j k ip) * dyinv in
      let diff_term_z := (flux2 i j (k + 1)%Z ip - flux2 i j k ip) * dzinv in
      let r := upd4 r i j k ip (diff_term_x + diff_term_y + diff_term_z) in
      let g_prime := deriv_triple_well_func (phi i j k ip) (phi i j k ip1) (phi i j k ip2) in
      upd4 r i j k ip (r i j k ip - phi_well_scale * g_prime))) rhs in
  do_cells3 lo0 hi0 lo1 hi1 lo2 hi2 (fun i j k r =>
    let dsum := do_loop 1 3 (fun jp s => s + r i j k jp) 0 in
    let dsum := dsum * (1 / 3) in
    do_loop 1 3 (fun jp r => upd4 r i j k jp (r i j k jp - dsum)) r) rhs.

(** CALPHADFreeEnergyStrategyBinaryThreePhase.cc:643-661: values subtracted from the
    right-hand sides of liquid, solid A and solid B in one cell *)
Definition driving_force_cell (T : tilting) (phi0 phi1 phi2 fl fa fb cl ca cb mu : R) : R * R * R :=
  let rhs0 := dg0dp0 T phi0 phi1 phi2 * (fl - mu * cl) + dg0dp1 T phi1 phi0 phi2 * (fa - mu * ca)
              + dg0dp1 T phi2 phi0 phi1 * (fb - mu * cb) in
  let rhs1 := dg0dp0 T phi1 phi0 phi2 * (fa - mu * ca) + dg0dp1 T phi0 phi1 phi2 * (fl - mu * cl)
              + dg0dp1 T phi2 phi1 phi0 * (fb - mu * cb) in
  let rhs2 := dg0dp0 T phi2 phi1 phi0 * (fb - mu * cb) + dg0dp1 T phi1 phi2 phi0 * (fa - mu * ca)
              + dg0dp1 T phi0 phi2 phi1 * (fl - mu * cl) in
  let corr := (rhs0 + rhs1 + rhs2) / 3 in
  (rhs0 - corr, rhs1 - corr, rhs2 - corr).

(** chemistry of a patch: free energies and compositions of liquid, A, B and the chemical potential *)
Record chem2 := mkChem2 { ch_fl : arr2; ch_fa : arr2; ch_fb : arr2; ch_cl : arr2; ch_ca : arr2; ch_cb : arr2; ch_mu : arr2 }.
(** CALPHADFreeEnergyStrategyBinaryThreePhase.cc:594-664; the index arithmetic of
    CellData is array indexing *)
Definition add_driving_force (T : tilting) (lo0 hi0 lo1 hi1 : Z) (phi : arr3) (c : chem2) (rhs : arr3) : arr3 :=
  do_cells lo0 hi0 lo1 hi1 (fun i j r =>
    let '(d0, d1, d2) := driving_force_cell T (phi i j 1%Z) (phi i j 2%Z) (phi i j 3%Z)
      (ch_fl c i j) (ch_fa c i j) (ch_fb c i j) (ch_cl c i j) (ch_ca c i j) (ch_cb c i j) (ch_mu c i j) in
    let r := upd3 r i j 1%Z (r i j 1%Z - d0) in
    let r := upd3 r i j 2%Z (r i j 2%Z - d1) in
    upd3 r i j 3%Z (r i j 3%Z - d2)) rhs.

(** ThreePhasesRHSStrategy.cc:247-261: multiply every component by the mobility *)
Definition times_mobility (lo0 hi0 lo1 hi1 : Z) (mobility : arr2) (rhs : arr3) : arr3 :=
  do_loop 1 3 (fun depth => do_cells lo0 hi0 lo1 hi1 (fun i j r =>
    upd3 r i j depth (r i j depth * mobility i j))) rhs.

(** ThreePhasesRHSStrategy.cc:147-262 evaluateRHS on a 2D patch; [chem = None] when
    there is no free energy strategy *)
Definition evaluate_rhs (T : tilting) (lo0 hi0 lo1 hi1 : Z) (dx0 dx1 : R) (flux0 flux1 : arr3)
  (phi_well_scale : R) (phi : arr3) (chem : option chem2) (mobility : arr2) (rhs : arr3) : arr3 :=
  let rhs := computerhsthreephases lo0 hi0 lo1 hi1 dx0 dx1 flux0 flux1 phi_well_scale phi rhs in
  let rhs := match chem with Some c => add_driving_force T lo0 hi0 lo1 hi1 phi c rhs | None => rhs end in
  times_mobility lo0 hi0 lo1 hi1 mobility rhs.

(** 2d/phase.m4:52-118 projectphi2d: returns (corr, err) *)
Definition projectphi (lo0 hi0 lo1 hi1 depth : Z) (phi : arr3) (s : arr3 * arr3) : arr3 * arr3 :=
  let avg := 1 / IZR depth in
  do_cells lo0 hi0 lo1 hi1 (fun i j (s : arr3 * arr3) =>
    let (corr, err) := s in
    let fac := do_loop 1 depth (fun m f => f + phi i j m) 0 in
    let fac := (fac - 1) * avg in
    let corr := do_loop 1 depth (fun m c => upd3 c i j m (phi i j m - fac)) corr in
    let fac := do_loop 1 depth (fun m f => f + err i j m) 0 in
    let fac := fac * avg in
    let err := do_loop 1 depth (fun m e => upd3 e i j m (err i j m - fac)) err in
    let corr := do_loop 1 depth (fun m c => upd3 c i j m (c i j m - phi i j m)) corr in
    (corr, err)) s.

(** 3d/phase.m4:53-114 projectphi3d *)
Definition projectphi3 (lo0 hi0 lo1 hi1 lo2 hi2 depth : Z) (phi : arr4) (s : arr4 * arr4) : arr4 * arr4 :=
  let avg := 1 / IZR depth in
  do_cells3 lo0 hi0 lo1 hi1 lo2 hi2 (fun i j k (s : arr4 * arr4) =>
    let (corr, err) := s in
    let fac := do_loop 1 depth (fun m f => f + phi i j k m) 0 in
    let fac := (fac - 1) * avg in
    let corr := do_loop 1 depth (fun m c => upd4 c i j k m (phi i j k m - fac)) corr in
    let fac := do_loop 1 depth (fun m f => f + err i j k m) 0 in
    let fac := fac * avg in
    let err := do_loop 1 depth (fun m e => upd4 e i j k m (err i j k m - fac)) err in
    let corr := do_loop 1 depth (fun m c => upd4 c i j k m (c i j k m - phi i j k m)) corr in
    (corr, err)) s.

(** a patch of a level: box, phase fractions, correction, error *)
Record ppatch := mkPP { pp_lo0 : Z; pp_hi0 : Z; pp_lo1 : Z; pp_hi1 : Z; pp_phi : arr3; pp_corr : arr3; pp_err : arr3 }.

(** ThreePhasesRHSStrategy.cc:270-290: one patch *)
Definition project_patch (p : ppatch) : ppatch :=
  let (c, e) := projectphi (pp_lo0 p) (pp_hi0 p) (pp_lo1 p) (pp_hi1 p) 3 (pp_phi p) (pp_corr p, pp_err p) in
  mkPP (pp_lo0 p) (pp_hi0 p) (pp_lo1 p) (pp_hi1 p) (pp_phi p) c e.

(** ThreePhasesRHSStrategy.cc:264-303 projectPhases: loops over the patches of level 0 *)
Definition project_phases (levels : list (list ppatch)) : list (list ppatch) :=
  match levels with
  | [] => []
  | level0 :: finer => map project_patch level0 :: finer
  end.

(** QuatIntegrator.cc:3911-3962 applyProjection with three phases and no
    quaternion: the correction is set to zero everywhere first *)
Definition zero_corr (p : ppatch) : ppatch :=
  mkPP (pp_lo0 p) (pp_hi0 p) (pp_lo1 p) (pp_hi1 p) (pp_phi p) (fun _ _ _ => 0) (pp_err p).
Definition apply_projection (levels : list (list ppatch)) : list (list ppatch) :=
  project_phases (map (map zero_corr) levels).
