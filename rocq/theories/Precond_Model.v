(** The coefficients of the off-diagonal blocks of the preconditioner of the time integrator; the diagonal blocks are in
    Elliptic_Model (phase_coefs, temperature_coefs, conc_coefs). *)
From Coq Require Import Reals ZArith List Bool Ascii.
From Verif Require Import Grid_Model Functions_Model PhaseFlow_Model Elliptic_Model.
Open Scope R_scope.

(** QuatMobilityStrategy::computePhaseTemperatureMobility, QuatMobilityStrategy.cc:16-27 *)
Definition phase_temperature_mobility (mobility cp : arr2) : arr2 := fun i j => mobility i j / cp i j.
(** PhaseTemperatureFACOps::setOperatorCoefficients, setC, PhaseTemperatureFACOps.cc:30-160, called with the mobility
    above, QuatIntegrator.cc:3348-3352 *)
Definition phase_temperature_coefs (p : patch) (phi m : arr2) (eps latent_heat well_scale : R) (wtype : ascii) (cold : arr2) : option coefs :=
  match second_deriv_well_func 0 wtype with
  | None => None
  | Some _ =>
      Some (mk_coefs (fun _ _ => - latent_heat * eps * eps) (fun _ _ => - latent_heat * eps * eps)
        (do_cells (ilo p) (ihi p) (jlo p) (jhi p) (fun i j s =>
           match second_deriv_well_func (phi i j) wtype with
           | Some g => upd2 s i j (latent_heat * m i j * well_scale * g) | None => s end) cold) m)
  end.
(** multiplyDTDPhiBlock, PhaseTemperatureFACOps.cc:163-167: evaluateRHS, EllipticFACOps.cc:2279-2292, of a level without
    a finer one, one patch; [w] is the phase correction with ghost values *)
Definition multiplyDTDPhiBlock (lv : level) (p : patch) (o : coefs) (fl : arr2 * arr2) (w : arr2) : arr2 :=
  accumop p (pdx lv) (pdy lv) o (flux_on_patch lv p o o w fl) w (fun _ _ => 0).
(** TemperaturePrecondSolve, QuatIntegrator.cc:3500-3504: the right-hand side of the temperature block *)
Definition temperature_precond_rhs (gamma : R) (prod r : arr2) : arr2 := fun i j => gamma * prod i j + r i j.
(** computedphidtemperaturedeltatemperature, 2d/quatrhs.m4:944-982 *)
Definition computedphidtemperature (b : pbox) (phi : arr2) (tm latentheat mobility : R) (itype : ascii) (rhs : arr2) : option arr2 :=
  let alpha := mobility * latentheat / tm in
  if deriv_known itype then Some (cells b (fun i j _ => alpha * val (deriv_interp_func (phi i j) itype)) rhs) else None.
(** PhasePrecondSolve, QuatIntegrator.cc:3408-3420, and applydPhidTBlock, DeltaTemperatureFreeEnergyStrategy.cc:143-182: the
    right-hand side of the phase block; temperature_sol (argument temperature_id) is fetched and not used, z_phase (the
    output array of the solve) is passed as the phase *)
Definition phase_precond_rhs (b : pbox) (gamma tm latentheat mobility : R) (itype : ascii) (temperature_sol z_phase r old : arr2) : option arr2 :=
  match computedphidtemperature b z_phase tm latentheat mobility itype old with
  | Some prod => Some (fun i j => -1 * gamma * prod i j + r i j)
  | None => None
  end.
