(** Motion of the phase field and of the temperature (2D).  Fields are total functions of the cell index, exact reals
    (single precision constants such as 0.25, 4.*atan(1.) are exact); a missing function type is Fortran's stop. *)
From Coq Require Import Reals ZArith List Bool Ascii.
From Verif Require Import Grid_Model Functions_Model Stencils_Model.
From Verif Require Energy_Model.
Import ListNotations.
Open Scope R_scope.

(** box of a patch and mesh spacing *)
Record pbox := mk_pbox { lo0 : Z; hi0 : Z; lo1 : Z; hi1 : Z; h1 : R; h2 : R }.
Notation val := Energy_Model.val.
Definition cells (b : pbox) (f : Z -> Z -> R -> R) (a : arr2) : arr2 :=
  do_cells (lo0 b) (hi0 b) (lo1 b) (hi1 b) (fun i j s => upd2 s i j (f i j (s i j))) a.
Definition xfaces (b : pbox) (f : Z -> Z -> R) (a : arr2) : arr2 :=
  do_cells (lo0 b) (hi0 b + 1) (lo1 b) (hi1 b) (fun i j s => upd2 s i j (f i j)) a.
Definition yfaces (b : pbox) (f : Z -> Z -> R) (a : arr2) : arr2 :=
  do_cells (lo0 b) (hi0 b) (lo1 b) (hi1 b + 1) (fun i j s => upd2 s i j (f i j)) a.

(** gradient_flux, 2d/quatrhs.m4:12-52 *)
Definition gradient_flux_x (b : pbox) (eps : R) (phi old : arr2) : arr2 :=
  let dxinv := eps * eps / h1 b in xfaces b (fun i j => (phi i j - phi (i - 1)%Z j) * dxinv) old.
Definition gradient_flux_y (b : pbox) (eps : R) (phi old : arr2) : arr2 :=
  let dyinv := eps * eps / h2 b in yfaces b (fun i j => (phi i j - phi i (j - 1)%Z) * dyinv) old.
(** compute_flux_isotropic, 2d/quatrhs.m4:106-151 *)
Definition isotropic_flux_x (b : pbox) (eps : R) (phi old : arr2) : arr2 :=
  let dxinv := 1 / 12 * (eps * eps) / h1 b in
  xfaces b (fun i j => dxinv * ((phi i (j - 1)%Z - phi (i - 1)%Z (j - 1)%Z) + (phi i j - phi (i - 1)%Z j) * 10
                                + (phi i (j + 1)%Z - phi (i - 1)%Z (j + 1)%Z))) old.
Definition isotropic_flux_y (b : pbox) (eps : R) (phi old : arr2) : arr2 :=
  let dyinv := 1 / 12 * (eps * eps) / h2 b in
  yfaces b (fun i j => dyinv * ((phi (i - 1)%Z j - phi (i - 1)%Z (j - 1)%Z) + (phi i j - phi i (j - 1)%Z) * 10
                                + (phi (i + 1)%Z j - phi (i + 1)%Z (j - 1)%Z))) old.
(** anisotropic_gradient_flux, 2d/quatrhs.m4:154-255: angle of the gradient, angle of the crystal, epstheta, depsdtheta *)
Definition grad_angle (dphidx dphidy : R) : R := if Rlt_dec (1 / 10 ^ 12) (Rabs dphidx) then atan (dphidy / dphidx) else 1 / 2 * PI.
Definition crystal_angle (qlen : Z) (qa qb : R) : R :=
  let q := 1 / 2 * (qa + qb) in
  let q := if Rlt_dec 1 q then 1 else q in
  let q := if Rlt_dec q (-1) then -1 else q in
  if (qlen =? 4)%Z then 2 * acos q else acos q.
Definition epstheta (eps nu : R) (k : Z) (theta phi : R) : R := eps * (1 + nu * cos (IZR k * (theta - phi))).
Definition depsdtheta (eps nu : R) (k : Z) (theta phi : R) : R := - IZR k * eps * nu * sin (IZR k * (theta - phi)).
Definition anisotropic_flux_x (b : pbox) (eps nu : R) (k qlen : Z) (phi quat old : arr2) : arr2 :=
  let dxinv := 1 / h1 b in let dyinv := 1 / h2 b in
  xfaces b (fun i j =>
    let dphidx := (phi i j - phi (i - 1)%Z j) * dxinv in
    let dphidy := 1 / 4 * (phi (i - 1)%Z (j + 1)%Z - phi (i - 1)%Z (j - 1)%Z + phi i (j + 1)%Z - phi i (j - 1)%Z) * dyinv in
    let theta := grad_angle dphidx dphidy in
    let ang := crystal_angle qlen (quat (i - 1)%Z j) (quat i j) in
    let e := epstheta eps nu k theta ang in
    e * e * dphidx - e * depsdtheta eps nu k theta ang * dphidy) old.
Definition anisotropic_flux_y (b : pbox) (eps nu : R) (k qlen : Z) (phi quat old : arr2) : arr2 :=
  let dxinv := 1 / h1 b in let dyinv := 1 / h2 b in
  yfaces b (fun i j =>
    let dphidx := 1 / 4 * (phi (i + 1)%Z (j - 1)%Z - phi (i - 1)%Z (j - 1)%Z + phi (i + 1)%Z j - phi (i - 1)%Z j) * dxinv in
    let dphidy := (phi i j - phi i (j - 1)%Z) * dyinv in
    let theta := grad_angle dphidx dphidy in
    let ang := crystal_angle qlen (quat i (j - 1)%Z) (quat i j) in
    let e := epstheta eps nu k theta ang in
    e * e * dphidy + e * depsdtheta eps nu k theta ang * dphidx) old.
(** PhaseFluxStrategyFactory::create, PhaseFluxStrategyFactory.h:11-37; None: TBOX_ERROR *)
Inductive flux_kind := FluxSimple | FluxIsotropic | FluxAnisotropic (nu : R) (k qlen : Z) (quat : arr2).
Definition create_flux (anisotropy : R) (with_orientation use_isotropic : bool) (qlen : Z) (quat : arr2) : option flux_kind :=
  if Rle_dec 0 anisotropy then if with_orientation then Some (FluxAnisotropic anisotropy 4 qlen quat) else None
  else if use_isotropic then Some FluxIsotropic else Some FluxSimple.
(** epsilon of the flux, PhaseFluxStrategyFactory.h:16-22 *)
Definition flux_epsilon (eps : R) (norderp : Z) (three_phases : bool) : R :=
  if ((1 <? norderp)%Z && negb three_phases)%bool then eps / sqrt 2 else eps.
(** PhaseFluxStrategySimple/Isotropic/Anisotropy::computeFluxes on a patch *)
Definition flux_x (k : flux_kind) (b : pbox) (eps : R) (phi old : arr2) : arr2 :=
  match k with
  | FluxSimple => gradient_flux_x b eps phi old
  | FluxIsotropic => isotropic_flux_x b eps phi old
  | FluxAnisotropic nu kn qlen quat => anisotropic_flux_x b eps nu kn qlen phi quat old
  end.
Definition flux_y (k : flux_kind) (b : pbox) (eps : R) (phi old : arr2) : arr2 :=
  match k with
  | FluxSimple => gradient_flux_y b eps phi old
  | FluxIsotropic => isotropic_flux_y b eps phi old
  | FluxAnisotropic nu kn qlen quat => anisotropic_flux_y b eps nu kn qlen phi quat old
  end.

(** orientation arguments of computerhspbg: gradient modulus and function types; third phase arguments: eta, its well *)
Record orient := mk_orient { ogm : arr2; otype1 : ascii; otype2 : ascii; misorientation : R; epsilonq : R }.
Record third := mk_third { eta : arr2; eta_well_scale : R; eta_well : ascii; eta_interp : ascii }.
Definition deriv_known (t : ascii) : bool := match deriv_interp_func 0 t with Some _ => true | None => false end.
Definition well_known (t : ascii) : bool := match deriv_well_func 0 t with Some _ => true | None => false end.
(** computerhspbg, 2d/quatrhs.m4:264-403 *)
Definition computerhspbg (b : pbox) (fx fy temp : arr2) (well_scale : R) (phi : arr2) (wtype : ascii)
    (o : option orient) (e3 : option third) (rhs : arr2) : option arr2 :=
  let dxinv := 1 / h1 b in let dyinv := 1 / h2 b in
  if (well_known wtype
      && match e3 with Some e => deriv_known (eta_interp e) && well_known (eta_well e) | None => true end
      && match o with Some o => deriv_known (otype1 o) && deriv_known (otype2 o) | None => true end)%bool then
    let rhs := cells b (fun i j _ =>
      let diff_term := (fx (i + 1)%Z j - fx i j) * dxinv + (fy i (j + 1)%Z - fy i j) * dyinv in
      diff_term - well_scale * val (deriv_well_func (phi i j) wtype)) rhs in
    let rhs := match e3 with
      | Some e => cells b (fun i j r => r - eta_well_scale e * val (deriv_interp_func (phi i j) (eta_interp e)) * val (well_func (eta e i j) (eta_well e))) rhs
      | None => rhs end in
    let rhs := match o with
      | Some o =>
        let epsilonq2 := 1 / 2 * epsilonq o * epsilonq o in
        cells b (fun i j r => r - misorientation o * temp i j * val (deriv_interp_func (phi i j) (otype1 o)) * ogm o i j
          - val (deriv_interp_func (phi i j) (otype2 o)) * epsilonq2 * ogm o i j * ogm o i j) rhs
      | None => rhs end in
    Some rhs
  else None.

(** phaserhs_fenergy, 2d/quatrhs.m4:587-630 *)
Definition phaserhs_fenergy (b : pbox) (fl fa phi : arr2) (itype : ascii) (rhs : arr2) : option arr2 :=
  if deriv_known itype then
    Some (cells b (fun i j r => r + val (deriv_interp_func (phi i j) itype) * (fl i j - fa i j)) rhs)
  else None.
(** computerhsbiaswell, 2d/quatrhs.m4:810-848 *)
Definition computerhsbiaswell (b : pbox) (phi temp : arr2) (alpha gamma : R) (te rhs : arr2) : arr2 :=
  let pi := 4 * atan 1 in let coeff := alpha / pi in
  cells b (fun i j r => let m := coeff * atan (gamma * (te i j - temp i j)) in r + m * phi i j * (1 - phi i j)) rhs.
(** computerhsbiaswellbeckermann, 2d/quatrhs.m4:853-888 *)
Definition computerhsbiaswellbeckermann (b : pbox) (phi temp : arr2) (alpha : R) (te rhs : arr2) : arr2 :=
  cells b (fun i j r => let m := alpha * (te i j - temp i j) in r + m * phi i j * (1 - phi i j)) rhs.
(** computerhsdeltatemperature, 2d/quatrhs.m4:893-939 *)
Definition computerhsdeltatemperature (b : pbox) (phi temp : arr2) (tm latentheat : R) (itype : ascii) (rhs : arr2) : option arr2 :=
  let alpha := latentheat / tm in
  if deriv_known itype then
    Some (cells b (fun i j r =>
      let wtemp := 3 / 4 * temp i j + 1 / 16 * (temp (i - 1)%Z j + temp i (j - 1)%Z + temp (i + 1)%Z j + temp i (j + 1)%Z) in
      let m := alpha * (tm - wtemp) in r + m * val (deriv_interp_func (phi i j) itype)) rhs)
  else None.
(** temperature_energy, 2d/quatenergy.m4:463-494 *)
Definition temperature_energy (b : pbox) (temp : arr2) (tm la : R) (fl : arr2) : arr2 :=
  let factor := la / tm in cells b (fun i j _ => factor * (tm - temp i j)) fl.
(** DeltaTemperatureFreeEnergyStrategy::computeFreeEnergyLiquid/SolidA, DeltaTemperatureFreeEnergyStrategy.cc:180-240 *)
Definition delta_fl (b : pbox) (temp : arr2) (tm lh : R) (old : arr2) : arr2 := temperature_energy b temp tm (1 / 2 * lh) old.
Definition delta_fa (b : pbox) (temp : arr2) (tm lh : R) (old : arr2) : arr2 := temperature_energy b temp tm (- (1 / 2) * lh) old.
(** LinearMeltingTemperatureStrategy::evaluate, LinearMeltingTemperatureStrategy.cc:34-69, linearmeltingline,
    2d/temperature.m4:211-244 *)
Definition linear_melting (b : pbox) (tref c0 slope : R) (conc old : arr2) : arr2 :=
  cells b (fun i j _ => tref + slope * (conc i j - c0)) old.

(** addDrivingForce of the free energy strategies for one phase field *)
Inductive drive :=
  | NoDrive
  | FreeEnergies (fl fa : arr2) (itype : ascii)          (* PhaseFreeEnergyStrategy::addDrivingForce *)
  | DeltaTemperature (tm latentheat : R) (itype : ascii) (* DeltaTemperatureFreeEnergyStrategy.cc:84-140 *)
  | BiasUTRC (alpha gamma : R) (te : arr2)               (* BiasDoubleWellUTRCFreeEnergyStrategy *)
  | BiasBeckermann (alpha : R) (te : arr2).              (* BiasDoubleWellBeckermannFreeEnergyStrategy *)
Definition addDrivingForce (d : drive) (b : pbox) (phi temp rhs : arr2) : option arr2 :=
  match d with
  | NoDrive => Some rhs
  | FreeEnergies fl fa itype => phaserhs_fenergy b fl fa phi itype rhs
  | DeltaTemperature tm lh itype => computerhsdeltatemperature b phi temp tm lh itype rhs
  | BiasUTRC alpha gamma te => Some (computerhsbiaswell b phi temp alpha gamma te rhs)
  | BiasBeckermann alpha te => Some (computerhsbiaswellbeckermann b phi temp alpha te rhs)
  end.
(** PhaseRHSStrategyWithQ::evaluateRHS on a patch, PhaseRHSStrategyWithQ.cc:150-314, without noise; the well type is
    hard-coded (line 243); the previous contents of flux and rhs arrays are the arguments fold, rold *)
Record phase_problem := mk_problem {
  pb : pbox; pflux : flux_kind; peps : R; pwell : R; ptemp : arr2; porient : option orient; pthird : option third;
  pdrive : drive; pmob : arr2 }.
Definition evaluatePhaseRHS (p : phase_problem) (phi fold rold : arr2) : option arr2 :=
  let b := pb p in
  let fx := flux_x (pflux p) b (peps p) phi fold in
  let fy := flux_y (pflux p) b (peps p) phi fold in
  match computerhspbg b fx fy (ptemp p) (pwell p) phi "d" (porient p) (pthird p) rold with
  | Some rhs =>
    match addDrivingForce (pdrive p) b phi (ptemp p) rhs with
    | Some rhs => Some (cells b (fun i j r => pmob p i j * r) rhs)
    | None => None
    end
  | None => None
  end.

(** computerhstemp, 2d/quatrhs.m4:749-804 *)
Definition computerhstemp (b : pbox) (diffusivity latent_heat : R) (temp cp : arr2) (phi_rhs : option arr2) (rhs : arr2) : arr2 :=
  let rhs := laplacian (lo0 b) (hi0 b) (lo1 b) (hi1 b) (h1 b) (h2 b) diffusivity temp rhs in
  match phi_rhs with
  | Some f => cells b (fun i j r => let gamma := latent_heat / cp i j in r + gamma * f i j) rhs
  | None => rhs
  end.

(** phaserhs_fenergy_multiorderp, 2d/quatrhs.m4:636-689; the last order parameter is the liquid; division by zero where all
    order parameters vanish is not modelled (x/0 = 0 in Coq), so statements exclude it *)
Definition phaserhs_fenergy_multiorderp (b : pbox) (nphi : Z) (fl fa : arr2) (phi : arr3) (rhs : arr3) : arr3 :=
  do_cells (lo0 b) (hi0 b) (lo1 b) (hi1 b) (fun i j s =>
    let hphis := do_loop 1 (nphi - 1) (fun ip acc => acc + phi i j ip * phi i j ip) 0 in
    let hphil := phi i j nphi * phi i j nphi in
    let suminv2 := 1 / (hphis + hphil) in
    let hphis := hphis * suminv2 in let hphil := hphil * suminv2 in
    let s := do_loop 1 (nphi - 1) (fun ip s => upd3 s i j ip (s i j ip + 2 * phi i j ip * hphil * suminv2 * (fl i j - fa i j))) s in
    upd3 s i j nphi (s i j nphi + 2 * phi i j nphi * hphis * suminv2 * (fa i j - fl i j))) rhs.
