(** Model of source/fortran/2d/concentrationrhs.m4 (and 3d/): composition fluxes and
    right-hand side; and of source/fortran/2d/sintering.m4.
    Loops and stores as in Grid_Model; [dx0 dx1] is dx(0:1).  Exact reals. *)
From Coq Require Import Reals ZArith List.
From Verif Require Import Grid_Model.
Open Scope R_scope.

(** 2d/concentrationrhs.m4:51-81 concentrationflux *)
Definition concentrationflux (lo0 hi0 lo1 hi1 : Z) (dx0 dx1 : R) (conc phi : arr2)
  (diff0 diff1 coupl0 coupl1 flux0 flux1 : arr2) : arr2 * arr2 :=
  let dxinv := 1 / dx0 in
  let f0 := do_cells lo0 (hi0 + 1) lo1 hi1 (fun i j f =>
    upd2 f i j (dxinv * (diff0 i j * (conc i j - conc (i - 1)%Z j)
                         + coupl0 i j * (phi i j - phi (i - 1)%Z j)))) flux0 in
  let dyinv := 1 / dx1 in
  let f1 := do_cells lo0 hi0 lo1 (hi1 + 1) (fun i j f =>
    upd2 f i j (dyinv * (diff1 i j * (conc i j - conc i (j - 1)%Z)
                         + coupl1 i j * (phi i j - phi i (j - 1)%Z)))) flux1 in
  (f0, f1).

(** 2d/concentrationrhs.m4:345-363 computerhsconcentration *)
Definition computerhsconcentration (lo0 hi0 lo1 hi1 : Z) (dx0 dx1 : R) (flux0 flux1 : arr2) (mobility : R)
  (rhs : arr2) : arr2 :=
  let dxinv := 1 / dx0 in
  let dyinv := 1 / dx1 in
  do_cells lo0 hi0 lo1 hi1 (fun i j r =>
    upd2 r i j (mobility * (dxinv * (flux0 (i + 1)%Z j - flux0 i j)
                            + dyinv * (flux1 i (j + 1)%Z - flux1 i j)))) rhs.

(** 3d/concentrationrhs.m4:437-454 computerhsconcentration *)
Definition computerhsconcentration3 (lo0 hi0 lo1 hi1 lo2 hi2 : Z) (dx0 dx1 dx2 : R)
  (flux0 flux1 flux2 : arr3) (mobility : R) (rhs : arr3) : arr3 :=
  let dxinv := 1 / dx0 in
  let dyinv := 1 / dx1 in
  let dzinv := 1 / dx2 in
  do_cells3 lo0 hi0 lo1 hi1 lo2 hi2 (fun i j k r =>
    upd3 r i j k (mobility * (dxinv * (flux0 (i + 1)%Z j k - flux0 i j k)
                              + dyinv * (flux1 i (j + 1)%Z k - flux1 i j k)
                              + dzinv * (flux2 i j (k + 1)%Z - flux2 i j k)))) rhs.

(** 2d/concentrationrhs.m4:117-121 (and 204-208): five point Laplacian *)
Definition lap5 (dx0 dx1 : R) (conc : arr2) (i j : Z) : R :=
  let dxinv := 1 / dx0 in
  let dyinv := 1 / dx1 in
  let dxinv2 := dxinv * dxinv in
  let dyinv2 := dyinv * dyinv in
  dxinv2 * (- 2 * conc i j + conc (i - 1)%Z j + conc (i + 1)%Z j)
  + dyinv2 * (- 2 * conc i j + conc i (j - 1)%Z + conc i (j + 1)%Z).

(** 2d/concentrationrhs.m4:115-137 add_cahnhilliarddoublewell_flux *)
Definition add_cahnhilliard_flux (lo0 hi0 lo1 hi1 : Z) (dx0 dx1 : R) (conc : arr2)
  (mobility ca cb well_scale kappa : R) (flux : arr2 * arr2) : arr2 * arr2 :=
  let dxinv := 1 / dx0 in
  let dyinv := 1 / dx1 in
  do_cells (lo0 - 1) (hi0 + 1) (lo1 - 1) (hi1 + 1) (fun i j (s : arr2 * arr2) =>
    let (flux0, flux1) := s in
    let lap := lap5 dx0 dx1 conc i j in
    let c := conc i j in
    let mu := 2 * well_scale * (c - ca) * (cb - c) * (cb + ca - 2 * c) - kappa * lap in
    let flux0 := upd2 flux0 i j (flux0 i j + mobility * dxinv * mu) in
    let flux0 := upd2 flux0 (i + 1)%Z j (flux0 (i + 1)%Z j - mobility * dxinv * mu) in
    let flux1 := upd2 flux1 i j (flux1 i j + mobility * dyinv * mu) in
    let flux1 := upd2 flux1 i (j + 1)%Z (flux1 i (j + 1)%Z - mobility * dyinv * mu) in
    (flux0, flux1)) flux.

(** 2d/concentrationrhs.m4:180-200: the two work arrays of powers of the order parameters *)
Definition phi_powers (lo0 hi0 lo1 hi1 norder : Z) (phi : arr3) (s : arr2 * arr2) : arr2 * arr2 :=
  let s := do_cells (lo0 - 1) (hi0 + 1) (lo1 - 1) (hi1 + 1) (fun i j (s : arr2 * arr2) =>
    let (phi2sum, phi3sum) := s in
    (upd2 phi2sum i j (phi i j 1%Z * phi i j 1%Z),
     upd2 phi3sum i j (phi i j 1%Z * phi i j 1%Z * phi i j 1%Z))) s in
  do_loop 2 norder (fun ip => do_cells (lo0 - 1) (hi0 + 1) (lo1 - 1) (hi1 + 1) (fun i j (s : arr2 * arr2) =>
    let (phi2sum, phi3sum) := s in
    (upd2 phi2sum i j (phi2sum i j + phi i j ip * phi i j ip),
     upd2 phi3sum i j (phi3sum i j + phi i j ip * phi i j ip * phi i j ip)))) s.

(** 2d/concentrationrhs.m4:143-224 add_wang_sintering_flux *)
Definition add_wang_sintering_flux (lo0 hi0 lo1 hi1 : Z) (dx0 dx1 : R) (conc diff0 diff1 : arr2)
  (norder : Z) (phi : arr3) (mobility parameter_a parameter_b kappa : R)
  (work flux : arr2 * arr2) : arr2 * arr2 :=
  let dxinv := 1 / dx0 in
  let dyinv := 1 / dx1 in
  let (phi2sum, phi3sum) := phi_powers lo0 hi0 lo1 hi1 norder phi work in
  do_cells (lo0 - 1) (hi0 + 1) (lo1 - 1) (hi1 + 1) (fun i j (s : arr2 * arr2) =>
    let (flux0, flux1) := s in
    let lap := lap5 dx0 dx1 conc i j in
    let c := conc i j in
    let mu := 2 * parameter_a * c * (1 - c) * (1 - 2 * c)
              + 2 * parameter_b * (c - 3 * phi2sum i j + 2 * phi3sum i j) - kappa * lap in
    let flux0 := upd2 flux0 i j (flux0 i j + mobility * diff0 i j * dxinv * mu) in
    let flux0 := upd2 flux0 (i + 1)%Z j (flux0 (i + 1)%Z j - mobility * diff0 (i + 1)%Z j * dxinv * mu) in
    let flux1 := upd2 flux1 i j (flux1 i j + mobility * diff1 i j * dyinv * mu) in
    let flux1 := upd2 flux1 i (j + 1)%Z (flux1 i (j + 1)%Z - mobility * diff1 i (j + 1)%Z * dyinv * mu) in
    (flux0, flux1)) flux.

(** 2d/sintering.m4:61-76: sum of squares in each cell of the box *)
Definition phi2sum_box (lo0 hi0 lo1 hi1 norder : Z) (phi : arr3) (phi2sum : arr2) : arr2 :=
  let s := do_cells lo0 hi0 lo1 hi1 (fun i j s => upd2 s i j (phi i j 1%Z * phi i j 1%Z)) phi2sum in
  do_loop 2 norder (fun ip => do_cells lo0 hi0 lo1 hi1 (fun i j s =>
    upd2 s i j (s i j + phi i j ip * phi i j ip))) s.

(** 2d/sintering.m4:57-99 computerhs_wang_sintering; fluxes and rhs have the order
    parameter as third index *)
Definition computerhs_wang_sintering (lo0 hi0 lo1 hi1 norder : Z) (dx0 dx1 : R) (flux0 flux1 : arr3)
  (beta parameter_b : R) (phi : arr3) (conc phi2sum : arr2) (rhs : arr3) : arr3 :=
  let dxinv := 1 / dx0 in
  let dyinv := 1 / dx1 in
  let phi2sum := phi2sum_box lo0 hi0 lo1 hi1 norder phi phi2sum in
  do_loop 1 norder (fun ip => do_cells lo0 hi0 lo1 hi1 (fun i j r =>
    let diff_term_x := (flux0 (i + 1)%Z j ip - flux0 i j ip) * dxinv in
    let diff_term_y := (flux1 i (j + 1)%Z ip - flux1 i j ip) * dyinv in
    let diff_term := diff_term_x + diff_term_y in
    let g_prime := (1 - conc i j) * phi i j ip - (2 - conc i j) * phi i j ip * phi i j ip
                   + phi2sum i j * phi i j ip in
    upd3 r i j ip (beta * diff_term - 12 * parameter_b * g_prime))) rhs.

(** 2d/multiorder.m4:55-102 computerhsmultiorder *)
Definition computerhsmultiorder (lo0 hi0 lo1 hi1 norder : Z) (dx0 dx1 : R) (flux0 flux1 : arr3)
  (dgamma m : R) (phi : arr3) (phi2sum : arr2) (rhs : arr3) : arr3 :=
  let dxinv := 1 / dx0 in
  let dyinv := 1 / dx1 in
  let phi2sum := phi2sum_box lo0 hi0 lo1 hi1 norder phi phi2sum in
  do_loop 1 norder (fun ip => do_cells lo0 hi0 lo1 hi1 (fun i j r =>
    let diff_term_x := (flux0 (i + 1)%Z j ip - flux0 i j ip) * dxinv in
    let diff_term_y := (flux1 i (j + 1)%Z ip - flux1 i j ip) * dyinv in
    let diff_term := diff_term_x + diff_term_y in
    let r := upd3 r i j ip diff_term in
    let g_prime := phi i j ip * phi i j ip * phi i j ip - phi i j ip in
    let dsum := phi2sum i j - phi i j ip in
    let g_prime := g_prime + 2 * phi i j ip * dgamma * dsum in
    upd3 r i j ip (r i j ip - m * g_prime))) rhs.
