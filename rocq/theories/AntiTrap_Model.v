(** Model of the anti-trapping fluxes, source/fortran/2d/concentrationrhs.m4:433-801.
    Exact reals; the single-precision constant 1.e-8 is taken as 10^-8; ghost widths are
    not modelled (arrays are total).  Face (i,j) of flux0 is between cells i-1 and i. *)
From Coq Require Import Reals ZArith List.
From Verif Require Import Grid_Model.
Open Scope R_scope.

(** :475-476, :576-577, :717-718 *)
Definition at_tol : R := / 10 ^ 8.
Definition at_tol2 : R := at_tol * at_tol.

Definition gtb (a b : R) : bool := if Rlt_dec b a then true else false.

(** :483-486 gradient at an x-face *)
Definition xface_dx (dx0 : R) (phase : arr2) (i j : Z) : R := 1 / dx0 * (phase i j - phase (i - 1)%Z j).
Definition xface_dy (dx1 : R) (phase : arr2) (i j : Z) : R :=
  1 / dx1 * (1 / 4) * (phase (i - 1)%Z (j + 1)%Z - phase (i - 1)%Z (j - 1)%Z
                       + phase i (j + 1)%Z - phase i (j - 1)%Z).
(** :506-509 gradient at a y-face *)
Definition yface_dy (dx1 : R) (phase : arr2) (i j : Z) : R := 1 / dx1 * (phase i j - phase i (j - 1)%Z).
Definition yface_dx (dx0 : R) (phase : arr2) (i j : Z) : R :=
  1 / dx0 * (1 / 4) * (phase (i + 1)%Z (j - 1)%Z - phase (i - 1)%Z (j - 1)%Z
                       + phase (i + 1)%Z j - phase (i - 1)%Z j).

(** component k (third index) of a field *)
Definition comp (a : arr3) (k : Z) : arr2 := fun i j => a i j k.

(** :439-522 addconcentrationfluxfromantitrapping; third index of cl, ca, flux: component *)
Definition antitrapping (lo0 hi0 lo1 hi1 : Z) (dx0 dx1 : R) (phase : arr2) (cl ca : arr3) (ncomp : Z)
  (dphidt : arr2) (alpha : R) (flux : arr3 * arr3) : arr3 * arr3 :=
  let (flux0, flux1) := flux in
  let flux0 := do_cells lo0 (hi0 + 1) lo1 hi1 (fun i j flux0 =>
    let dphix := xface_dx dx0 phase i j in
    let dphiy := xface_dy dx1 phase i j in
    let dphi2 := dphix * dphix + dphiy * dphiy in
    if gtb (Rabs dphi2) at_tol2 then
      let dphin := sqrt dphi2 in
      let dpdt := 1 / 2 * (dphidt (i - 1)%Z j + dphidt i j) in
      do_loop 1 ncomp (fun ic flux0 =>
        let acl := 1 / 2 * (cl (i - 1)%Z j ic + cl i j ic) in
        let aca := 1 / 2 * (ca (i - 1)%Z j ic + ca i j ic) in
        upd3 flux0 i j ic (flux0 i j ic + alpha * (dphix / dphin) * (acl - aca) * dpdt)) flux0
    else flux0) flux0 in
  let flux1 := do_cells lo0 hi0 lo1 (hi1 + 1) (fun i j flux1 =>
    let dphiy := yface_dy dx1 phase i j in
    let dphix := yface_dx dx0 phase i j in
    let dphi2 := dphix * dphix + dphiy * dphiy in
    if gtb (Rabs dphi2) at_tol2 then
      let dphin := sqrt dphi2 in
      let dpdt := 1 / 2 * (dphidt i (j - 1)%Z + dphidt i j) in
      do_loop 1 ncomp (fun ic flux1 =>
        let acl := 1 / 2 * (cl i (j - 1)%Z ic + cl i j ic) in
        let aca := 1 / 2 * (ca i (j - 1)%Z ic + ca i j ic) in
        upd3 flux1 i j ic (flux1 i j ic + alpha * (dphiy / dphin) * (acl - aca) * dpdt)) flux1
    else flux1) flux1 in
  (flux0, flux1).

(** local array ac(1:3) of :555,:596-598 *)
Definition ac3 (a1 a2 a3 : R) (ip : Z) : R := if (ip =? 1)%Z then a1 else if (ip =? 2)%Z then a2 else a3.

(** :529-665 addconcentrationfluxfromantitrapping3phases; third index of phase, dphidt: phase *)
Definition antitrapping3 (lo0 hi0 lo1 hi1 : Z) (dx0 dx1 : R) (phase : arr3) (cl ca cb : arr2)
  (dphidt : arr3) (alpha : R) (flux : arr2 * arr2) : arr2 * arr2 :=
  let (flux0, flux1) := flux in
  let flux0 := do_cells lo0 (hi0 + 1) lo1 hi1 (fun i j flux0 =>
    let dphix := xface_dx dx0 (comp phase 1) i j in
    let dphiy := xface_dy dx1 (comp phase 1) i j in
    let dphi2 := dphix * dphix + dphiy * dphiy in
    if gtb (Rabs dphi2) at_tol2 then
      let dphin := sqrt dphi2 in
      let ac := ac3 (1 / 2 * (cl (i - 1)%Z j + cl i j)) (1 / 2 * (ca (i - 1)%Z j + ca i j))
                    (1 / 2 * (cb (i - 1)%Z j + cb i j)) in
      do_loop 2 3 (fun ip flux0 =>
        let dphipx := xface_dx dx0 (comp phase ip) i j in
        let dphipy := xface_dy dx1 (comp phase ip) i j in
        let dphip2 := dphipx * dphipx + dphipy * dphipy in
        if gtb (Rabs dphip2) at_tol2 then
          let dpdt := 1 / 2 * (dphidt (i - 1)%Z j ip + dphidt i j ip) in
          let dphipn := sqrt dphip2 in
          let factor := - 1 * (dphipx * dphix + dphipy * dphiy) / (dphipn * dphin) in
          upd2 flux0 i j (flux0 i j + alpha * factor * (dphix / dphin) * (ac 1%Z - ac ip) * dpdt)
        else flux0) flux0
    else flux0) flux0 in
  let flux1 := do_cells lo0 hi0 lo1 (hi1 + 1) (fun i j flux1 =>
    let dphiy := yface_dy dx1 (comp phase 1) i j in
    let dphix := yface_dx dx0 (comp phase 1) i j in
    let dphi2 := dphix * dphix + dphiy * dphiy in
    if gtb (Rabs dphi2) at_tol2 then
      let dphin := sqrt dphi2 in
      let ac := ac3 (1 / 2 * (cl i (j - 1)%Z + cl i j)) (1 / 2 * (ca i (j - 1)%Z + ca i j))
                    (1 / 2 * (cb i (j - 1)%Z + cb i j)) in
      do_loop 2 3 (fun ip flux1 =>
        let dphipy := yface_dy dx1 (comp phase ip) i j in
        let dphipx := yface_dx dx0 (comp phase ip) i j in
        let dphip2 := dphipx * dphipx + dphipy * dphipy in
        if gtb (Rabs dphip2) at_tol2 then
          let dpdt := 1 / 2 * (dphidt i (j - 1)%Z ip + dphidt i j ip) in
          let dphipn := sqrt dphip2 in
          let factor := - 1 * (dphipx * dphix + dphipy * dphiy) / (dphipn * dphin) in
          upd2 flux1 i j (flux1 i j + alpha * (factor * dphiy / dphin) * (ac 1%Z - ac ip) * dpdt)
        else flux1) flux1
    else flux1) flux1 in
  (flux0, flux1).

(** :727-738 / :766-777: accumulation over the solid order parameters 1..norderp-1 *)
Definition acc3 (lo hi : Z) (a b c : Z -> R) : R * R * R :=
  do_loop lo hi (fun ip (s : R * R * R) =>
    let '(x, y, t) := s in (x + a ip, y + b ip, t + c ip)) (0, 0, 0).

(** :670-801 addconcentrationfluxfromantitrappingmultiorderp; the last order parameter is the liquid *)
Definition antitrapping_multi (lo0 hi0 lo1 hi1 : Z) (dx0 dx1 : R) (phase : arr3) (norderp : Z) (cl ca : arr2)
  (dphidt : arr3) (alpha : R) (flux : arr2 * arr2) : arr2 * arr2 :=
  let (flux0, flux1) := flux in
  let flux0 := do_cells lo0 (hi0 + 1) lo1 hi1 (fun i j flux0 =>
    let dphix := xface_dx dx0 (comp phase norderp) i j in
    let dphiy := xface_dy dx1 (comp phase norderp) i j in
    let dphi2 := dphix * dphix + dphiy * dphiy in
    if gtb dphi2 at_tol2 then
      let dphin := sqrt dphi2 in
      let ac1 := 1 / 2 * (cl (i - 1)%Z j + cl i j) in
      let ac2 := 1 / 2 * (ca (i - 1)%Z j + ca i j) in
      let '(dphipx, dphipy, dpdt) := acc3 1 (norderp - 1)
        (fun ip => xface_dx dx0 (comp phase ip) i j) (fun ip => xface_dy dx1 (comp phase ip) i j)
        (fun ip => 1 / 2 * (dphidt (i - 1)%Z j ip + dphidt i j ip)) in
      let dphip2 := dphipx * dphipx + dphipy * dphipy in
      if gtb dphip2 at_tol2 then
        upd2 flux0 i j (flux0 i j - alpha * (dphix / dphin) * (ac1 - ac2) * dpdt)
      else flux0
    else flux0) flux0 in
  let flux1 := do_cells lo0 hi0 lo1 (hi1 + 1) (fun i j flux1 =>
    let dphiy := yface_dy dx1 (comp phase norderp) i j in
    let dphix := yface_dx dx0 (comp phase norderp) i j in
    let dphi2 := dphix * dphix + dphiy * dphiy in
    if gtb dphi2 at_tol2 then
      let dphin := sqrt dphi2 in
      let ac1 := 1 / 2 * (cl i (j - 1)%Z + cl i j) in
      let ac2 := 1 / 2 * (ca i (j - 1)%Z + ca i j) in
      let '(dphipx, dphipy, dpdt) := acc3 1 (norderp - 1)
        (fun ip => yface_dx dx0 (comp phase ip) i j) (fun ip => yface_dy dx1 (comp phase ip) i j)
        (fun ip => 1 / 2 * (dphidt i (j - 1)%Z ip + dphidt i j ip)) in
      let dphip2 := dphipx * dphipx + dphipy * dphipy in
      if gtb dphip2 at_tol2 then
        upd2 flux1 i j (flux1 i j - alpha * (dphiy / dphin) * (ac1 - ac2) * dpdt)
      else flux1
    else flux1) flux1 in
  (flux0, flux1).
