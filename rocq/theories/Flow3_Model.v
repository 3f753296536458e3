(** Motion of the phase field and of the temperature in three dimensions, source/fortran/3d/quatrhs.m4.  Exact reals, the
    single-precision constants 0.25, 1.e-12, 0.25/6. are exact; arrays are total functions, ghost widths are not modelled;
    None is Fortran's stop.  Orientations have the four components the kernel reads. *)
From Coq Require Import Reals ZArith List Bool Ascii.
From Verif Require Import Grid_Model Functions_Model Quat_Model Trap3_Model.
From Verif Require PhaseFlow_Model.
Open Scope R_scope.

Notation val := PhaseFlow_Model.val.
Notation deriv_known := PhaseFlow_Model.deriv_known.
Notation well_known := PhaseFlow_Model.well_known.
(** loop over the cells of the patch; [f] gets the old value *)
Definition cells3 (b : box3) (f : Z -> Z -> Z -> R -> R) (a : arr3) : arr3 :=
  do_cells3 (xl b) (xu b) (yl b) (yu b) (zl b) (zu b) (fun i j k s => upd3 s i j k (f i j k (s i j k))) a.

(** :12-64 gradient_flux *)
Definition gradient_flux3 (b : box3) (eps : R) (phase : arr3) (flux : arr3x3) : arr3x3 :=
  let '(flux0, flux1, flux2) := flux in
  let epsilon2 := eps * eps in
  let dxinv := epsilon2 / hx b in
  let dyinv := epsilon2 / hy b in
  let dzinv := epsilon2 / hz b in
  (xfaces3 b (fun i j k _ => (phase i j k - phase (i - 1)%Z j k) * dxinv) flux0,
   yfaces3 b (fun i j k _ => (phase i j k - phase i (j - 1)%Z k) * dyinv) flux1,
   zfaces3 b (fun i j k _ => (phase i j k - phase i j (k - 1)%Z) * dzinv) flux2).

(** :68-145 compute_flux_isotropic stops (line 91) before its loops *)
Definition isotropic_flux3 (b : box3) (eps : R) (phase : arr3) (flux : arr3x3) : option arr3x3 := None.

(** :149-176 compute_dgamma: dgamma and n4 *)
Definition compute_dgamma (quat n : q4) : q4 * R :=
  let qp := quatconj quat in
  let qtmp := quatmult4 n qp in
  let np := quatmult4 quat qtmp in
  let n4 := qb np ^ 4 + qc np ^ 4 + qd np ^ 4 in
  let dgamma := Q4 0 (qb np * (qb np * qb np - n4)) (qc np * (qc np * qc np - n4)) (qd np * (qd np * qd np - n4)) in
  let qtmp := quatmult4 dgamma quat in
  (quatmult4 qp qtmp, n4).
(** :228-232 and the other loops: mean of the orientations of the two cells, not normalised *)
Definition mean_quat (p q : q4) : q4 :=
  Q4 (1 / 2 * (qa p + qa q)) (1 / 2 * (qb p + qb q)) (1 / 2 * (qc p + qc q)) (1 / 2 * (qd p + qd q)).
(** :219-242 and the other loops: dgamma and n4 on a face; [fallback] is dgamma where the gradient is small *)
Definition face_dgamma (dphidx dphidy dphidz : R) (p q fallback : q4) : q4 * R :=
  let gphi2 := dphidx * dphidx + dphidy * dphidy + dphidz * dphidz in
  if Rlt_dec (1 / 10 ^ 12) (Rabs gphi2) then
    let nni := 1 / sqrt gphi2 in
    let n := Q4 0 (dphidx * nni) (dphidy * nni) (dphidz * nni) in
    compute_dgamma (mean_quat p q) n
  else (fallback, 0).
(** :244-247: flux from the slope [d] normal to the face and the component [dg] of dgamma *)
Definition face_flux (eps eps4 gphi2 d dg n4 : R) : R :=
  let factor := 4 * eps4 / (1 - 3 * eps4) in
  let gamma := eps * (1 - 3 * eps4) * (1 + factor * n4) in
  gamma * gamma * d + 16 * eps * gamma * eps4 * sqrt gphi2 * dg.
(** :180-350 anisotropic_gradient_flux; knumber is not used *)
Definition anisotropic_flux3 (b : box3) (eps eps4 : R) (phase : arr3) (quat : Z -> Z -> Z -> q4) (flux : arr3x3) : arr3x3 :=
  let '(flux0, flux1, flux2) := flux in
  let dxinv := 1 / hx b in
  let dyinv := 1 / hy b in
  let dzinv := 1 / hz b in
  let flux0 := xfaces3 b (fun i j k _ =>
    let dphidx := (phase i j k - phase (i - 1)%Z j k) * dxinv in
    let dphidy := 1 / 4 * (phase (i - 1)%Z (j + 1)%Z k - phase (i - 1)%Z (j - 1)%Z k
                           + phase i (j + 1)%Z k - phase i (j - 1)%Z k) * dyinv in
    let dphidz := 1 / 4 * (phase (i - 1)%Z j (k + 1)%Z - phase (i - 1)%Z j (k - 1)%Z
                           + phase i j (k + 1)%Z - phase i j (k - 1)%Z) * dzinv in
    let gphi2 := dphidx * dphidx + dphidy * dphidy + dphidz * dphidz in
    let (dgamma, n4) := face_dgamma dphidx dphidy dphidz (quat (i - 1)%Z j k) (quat i j k) (Q4 0 0 0 1) in
    face_flux eps eps4 gphi2 dphidx (qb dgamma) n4) flux0 in
  let flux1 := yfaces3 b (fun i j k _ =>
    let dphidx := 1 / 4 * (phase (i + 1)%Z (j - 1)%Z k - phase (i - 1)%Z (j - 1)%Z k
                           + phase (i + 1)%Z j k - phase (i - 1)%Z j k) * dxinv in
    let dphidy := (phase i j k - phase i (j - 1)%Z k) * dyinv in
    let dphidz := 1 / 4 * (phase i (j - 1)%Z (k + 1)%Z - phase i (j - 1)%Z (k - 1)%Z
                           + phase i j (k + 1)%Z - phase i j (k - 1)%Z) * dzinv in
    let gphi2 := dphidx * dphidx + dphidy * dphidy + dphidz * dphidz in
    let (dgamma, n4) := face_dgamma dphidx dphidy dphidz (quat i (j - 1)%Z k) (quat i j k) (Q4 0 0 0 1) in
    face_flux eps eps4 gphi2 dphidy (qc dgamma) n4) flux1 in
  let flux2 := zfaces3 b (fun i j k _ =>
    let dphidx := 1 / 4 * (phase (i + 1)%Z j (k - 1)%Z - phase (i - 1)%Z j (k - 1)%Z
                           + phase (i + 1)%Z j k - phase (i - 1)%Z j k) * dxinv in
    let dphidy := 1 / 4 * (phase i (j + 1)%Z (k - 1)%Z - phase i (j - 1)%Z (k - 1)%Z
                           + phase i (j + 1)%Z k - phase i (j - 1)%Z k) * dyinv in
    let dphidz := (phase i j k - phase i j (k - 1)%Z) * dzinv in
    let gphi2 := dphidx * dphidx + dphidy * dphidy + dphidz * dphidz in
    let (dgamma, n4) := face_dgamma dphidx dphidy dphidz (quat i j (k - 1)%Z) (quat i j k) (Q4 0 0 1 0) in
    face_flux eps eps4 gphi2 dphidz (qd dgamma) n4) flux2 in
  (flux0, flux1, flux2).

(** PhaseFluxStrategySimple/Isotropic/Anisotropy::computeFluxes on a patch (created as in PhaseFlow_Model.create_flux) *)
Inductive flux_kind3 := Simple3 | Isotropic3 | Anisotropic3 (eps4 : R) (quat : Z -> Z -> Z -> q4).
Definition compute_flux3 (k : flux_kind3) (b : box3) (eps : R) (phase : arr3) (flux : arr3x3) : option arr3x3 :=
  match k with
  | Simple3 => Some (gradient_flux3 b eps phase flux)
  | Isotropic3 => isotropic_flux3 b eps phase flux
  | Anisotropic3 eps4 quat => Some (anisotropic_flux3 b eps eps4 phase quat flux)
  end.

(** orientation arguments and third phase arguments of computerhspbg *)
Record orient3 := mk_orient3 { ogm3 : arr3; otype1 : ascii; otype2 : ascii; misorientation : R; epsilonq : R }.
Record third3 := mk_third3 { eta3 : arr3; eta_well_scale : R; eta_well : ascii; eta_interp : ascii }.
(** :357-512 computerhspbg *)
Definition computerhspbg3 (b : box3) (flux : arr3x3) (temp : arr3) (well_scale : R) (phi : arr3) (wtype : ascii)
    (o : option orient3) (e3 : option third3) (rhs : arr3) : option arr3 :=
  let '(flux0, flux1, flux2) := flux in
  let dxinv := 1 / hx b in
  let dyinv := 1 / hy b in
  let dzinv := 1 / hz b in
  if (well_known wtype
      && match e3 with Some e => deriv_known (eta_interp e) && well_known (eta_well e) | None => true end
      && match o with Some o => deriv_known (otype1 o) && deriv_known (otype2 o) | None => true end)%bool then
    let rhs := cells3 b (fun i j k _ =>
      let diff_term_x := (flux0 (i + 1)%Z j k - flux0 i j k) * dxinv in
      let diff_term_y := (flux1 i (j + 1)%Z k - flux1 i j k) * dyinv in
      let diff_term_z := (flux2 i j (k + 1)%Z - flux2 i j k) * dzinv in
      let diff_term := diff_term_x + diff_term_y + diff_term_z in
      diff_term - well_scale * val (deriv_well_func (phi i j k) wtype)) rhs in
    let rhs := match e3 with
      | Some e => cells3 b (fun i j k r =>
          r - eta_well_scale e * val (deriv_interp_func (phi i j k) (eta_interp e)) * val (well_func (eta3 e i j k) (eta_well e))) rhs
      | None => rhs end in
    let rhs := match o with
      | Some o =>
        let epsilonq2 := 1 / 2 * epsilonq o * epsilonq o in
        cells3 b (fun i j k r => r - misorientation o * temp i j k * val (deriv_interp_func (phi i j k) (otype1 o)) * ogm3 o i j k
          - val (deriv_interp_func (phi i j k) (otype2 o)) * epsilonq2 * ogm3 o i j k * ogm3 o i j k) rhs
      | None => rhs end in
    Some rhs
  else None.

(** :714-760 phaserhs_fenergy *)
Definition phaserhs_fenergy3 (b : box3) (fl fa phi : arr3) (itype : ascii) (rhs : arr3) : option arr3 :=
  if deriv_known itype then
    Some (cells3 b (fun i j k r => r + val (deriv_interp_func (phi i j k) itype) * (fl i j k - fa i j k)) rhs)
  else None.
(** :947-988 computerhsbiaswell *)
Definition computerhsbiaswell3 (b : box3) (phi temp : arr3) (alpha gamma : R) (te rhs : arr3) : arr3 :=
  let pi := 4 * atan 1 in
  let coeff := alpha / pi in
  cells3 b (fun i j k r => let m := coeff * atan (gamma * (te i j k - temp i j k)) in r + m * phi i j k * (1 - phi i j k)) rhs.
(** :993-1031 computerhsbiaswellbeckermann *)
Definition computerhsbiaswellbeckermann3 (b : box3) (phi temp : arr3) (alpha : R) (te rhs : arr3) : arr3 :=
  cells3 b (fun i j k r => let m := alpha * (te i j k - temp i j k) in r + m * phi i j k * (1 - phi i j k)) rhs.
(** :1036-1086 computerhsdeltatemperature *)
Definition computerhsdeltatemperature3 (b : box3) (phi temp : arr3) (tm latentheat : R) (itype : ascii) (rhs : arr3) : option arr3 :=
  let alpha := latentheat / tm in
  let woff := 1 / 4 / 6 in
  if deriv_known itype then
    Some (cells3 b (fun i j k r =>
      let wtemp := 3 / 4 * temp i j k
        + woff * (temp (i - 1)%Z j k + temp i (j - 1)%Z k + temp (i + 1)%Z j k + temp i (j + 1)%Z k
                  + temp i j (k - 1)%Z + temp i j (k + 1)%Z) in
      let m := alpha * (tm - wtemp) in r + m * val (deriv_interp_func (phi i j k) itype)) rhs)
  else None.
(** addDrivingForce of the free energy strategies for one phase field *)
Inductive drive3 :=
  | NoDrive3
  | FreeEnergies3 (fl fa : arr3) (itype : ascii)          (* PhaseFreeEnergyStrategy::addDrivingForce *)
  | DeltaTemperature3 (tm latentheat : R) (itype : ascii) (* DeltaTemperatureFreeEnergyStrategy.cc:84-140 *)
  | BiasUTRC3 (alpha gamma : R) (te : arr3)               (* BiasDoubleWellUTRCFreeEnergyStrategy *)
  | BiasBeckermann3 (alpha : R) (te : arr3).              (* BiasDoubleWellBeckermannFreeEnergyStrategy *)
Definition addDrivingForce3 (d : drive3) (b : box3) (phi temp rhs : arr3) : option arr3 :=
  match d with
  | NoDrive3 => Some rhs
  | FreeEnergies3 fl fa itype => phaserhs_fenergy3 b fl fa phi itype rhs
  | DeltaTemperature3 tm lh itype => computerhsdeltatemperature3 b phi temp tm lh itype rhs
  | BiasUTRC3 alpha gamma te => Some (computerhsbiaswell3 b phi temp alpha gamma te rhs)
  | BiasBeckermann3 alpha te => Some (computerhsbiaswellbeckermann3 b phi temp alpha te rhs)
  end.
(** PhaseRHSStrategyWithQ::evaluateRHS on a patch, PhaseRHSStrategyWithQ.cc:150-314, without noise, NDIM 3; [fold], [rold]
    are the previous contents of the flux and right-hand side arrays *)
Record phase_problem3 := mk_problem3 {
  pb3 : box3; pflux3 : flux_kind3; peps3 : R; pwell3 : R; ptemp3 : arr3; porient3 : option orient3; pthird3 : option third3;
  pdrive3 : drive3; pmob3 : arr3 }.
Definition evaluatePhaseRHS3 (p : phase_problem3) (phi : arr3) (fold : arr3x3) (rold : arr3) : option arr3 :=
  let b := pb3 p in
  match compute_flux3 (pflux3 p) b (peps3 p) phi fold with
  | Some flux =>
    match computerhspbg3 b flux (ptemp3 p) (pwell3 p) phi "d" (porient3 p) (pthird3 p) rold with
    | Some rhs =>
      match addDrivingForce3 (pdrive3 p) b phi (ptemp3 p) rhs with
      | Some rhs => Some (cells3 b (fun i j k r => r * pmob3 p i j k) rhs)
      | None => None
      end
    | None => None
    end
  | None => None
  end.

(** 3d/laplacian.m4:12-66 laplacian *)
Definition laplacian3 (b : box3) (coeff : R) (field rhs : arr3) : arr3 :=
  let dxinv2 := 1 / (hx b * hx b) in
  let dyinv2 := 1 / (hy b * hy b) in
  let dzinv2 := 1 / (hz b * hz b) in
  cells3 b (fun i j k _ =>
    let diff_term_x := field (i - 1)%Z j k - 2 * field i j k + field (i + 1)%Z j k in
    let diff_term_y := field i (j - 1)%Z k - 2 * field i j k + field i (j + 1)%Z k in
    let diff_term_z := field i j (k - 1)%Z - 2 * field i j k + field i j (k + 1)%Z in
    coeff * (diff_term_x * dxinv2 + diff_term_y * dyinv2 + diff_term_z * dzinv2)) rhs.
(** :887-942 computerhstemp *)
Definition computerhstemp3 (b : box3) (diffusivity latent_heat : R) (temp cp : arr3) (phi_rhs : option arr3) (rhs : arr3) : arr3 :=
  let rhs := laplacian3 b diffusivity temp rhs in
  match phi_rhs with
  | Some f => cells3 b (fun i j k r => let gamma := latent_heat / cp i j k in r + gamma * f i j k) rhs
  | None => rhs
  end.
(** :766-822 phaserhs_fenergy_multiorderp; division by zero where all order parameters vanish is not modelled *)
Definition phaserhs_fenergy_multiorderp3 (b : box3) (nphi : Z) (fl fa : arr3) (phi rhs : arr4) : arr4 :=
  do_cells3 (xl b) (xu b) (yl b) (yu b) (zl b) (zu b) (fun i j k s =>
    let hphis := do_loop 1 (nphi - 1) (fun ip acc => acc + phi i j k ip * phi i j k ip) 0 in
    let hphil := phi i j k nphi * phi i j k nphi in
    let suminv2 := 1 / (hphis + hphil) in
    let hphis := hphis * suminv2 in
    let hphil := hphil * suminv2 in
    let s := do_loop 1 (nphi - 1) (fun ip s =>
      upd4 s i j k ip (s i j k ip + 2 * phi i j k ip * hphil * suminv2 * (fl i j k - fa i j k))) s in
    upd4 s i j k nphi (s i j k nphi + 2 * phi i j k nphi * hphis * suminv2 * (fa i j k - fl i j k))) rhs.
(** :1135-1175 addvdphidx *)
Definition addvdphidx3 (b : box3) (phase : arr3) (vel : R) (rhs : arr3) : arr3 :=
  let dxinv := 1 / 2 * vel / hx b in
  cells3 b (fun i j k r => let diff_term_x := dxinv * (phase (i + 1)%Z j k - phase (i - 1)%Z j k) in r + diff_term_x) rhs.
(** :1180-1233 addvdphidx_upwind3 *)
Definition addvdphidx_upwind33 (b : box3) (phase : arr3) (vel : R) (rhs : arr3) (physb : Z) : arr3 :=
  let dxinv := vel / (6 * hx b) in
  do_loop (zl b) (zu b) (fun k => do_loop (yl b) (yu b) (fun j rhs =>
    let rhs := if (physb =? 1)%Z then
        let diff_term_x := 3 * dxinv * (phase (xu b + 1)%Z j k - phase (xu b - 1)%Z j k) in
        upd3 rhs (xu b) j k (rhs (xu b) j k + diff_term_x)
      else rhs in
    let imax0 := if (physb =? 1)%Z then (xu b - 1)%Z else xu b in
    do_loop (xl b) imax0 (fun i rhs =>
      let diff_term_x := dxinv * (-2 * phase (i - 1)%Z j k - 3 * phase i j k + 6 * phase (i + 1)%Z j k - phase (i + 2)%Z j k) in
      upd3 rhs i j k (rhs i j k + diff_term_x)) rhs)) rhs.
