(** Driving force of the phase field in alloys: free energies of the phases, splitting of the composition between the
    phases, force (2D).  The energy functions and the solver for the phase compositions belong to the external library
    Thermo4PFM; they enter as the record [library] and as compositions that satisfy the solver's equations. *)
From Coq Require Import Reals ZArith List Bool Ascii.
From Verif Require Import Grid_Model Functions_Model Tilting_Model ThreePhase_Model.
From Verif Require Import PhaseFlow_Model.
Import ListNotations.
Open Scope R_scope.

(** Thermo4PFM::PhaseIndex *)
Inductive phase := PhL | PhA | PhB.
(** computeFreeEnergy(temperature, conc, phase) and computeDerivFreeEnergy of the library, in J/mol; one composition *)
Record library := mk_library { molar : phase -> R -> R -> R; dmolar : phase -> R -> R -> R }.
(** the same for two compositions *)
Record library2 := mk_library2 { molar2 : phase -> R -> R -> R -> R; dmolar2 : phase -> R -> R -> R -> R * R }.

(** ConstantMolarVolumeStrategy, ConstantMolarVolumeStrategy.h:19-42; d_energy_conv_factor_*,
    QuadraticFreeEnergyStrategy.cc:45-46 *)
Definition inv_vm (vm : R) : R := / 10 ^ 6 / vm.

(** computeFreeEnergy on a patch: CALPHADFreeEnergyStrategyBinary.cc:250-330, KKSdiluteBinary.cc:262-338,
    QuadraticFreeEnergyStrategy.cc:171-249, QuadraticFreeEnergyStrategyMultiOrder.cc:147-225 *)
Definition computeFreeEnergy (lib : library) (ph : phase) (vm : R) (b : pbox) (temp c f : arr2) : arr2 :=
  cells b (fun i j _ => molar lib ph (temp i j) (c i j) * inv_vm vm) f.
(** CALPHADFreeEnergyStrategyTernary.cc:211-300, QuadraticFreeEnergyStrategyMultiOrderTernaryThreePhase.cc:152-232 *)
Definition computeFreeEnergy2 (lib : library2) (ph : phase) (vm : R) (b : pbox) (temp c0 c1 f : arr2) : arr2 :=
  cells b (fun i j _ => molar2 lib ph (temp i j) (c0 i j) (c1 i j) * inv_vm vm) f.

(** computeMuA/computeMuL/computeMuB: CALPHADFreeEnergyStrategyBinary.cc:672-712, KKSdiluteBinary.cc:626-655,
    QuadraticFreeEnergyStrategy.cc:520-530, QuadraticFreeEnergyStrategyMultiOrder.cc:544-554 *)
Definition computeMu (lib : library) (ph : phase) (vm t c : R) : R := dmolar lib ph t c * inv_vm vm.
(** CALPHADFreeEnergyStrategyTernary.cc:574-610, QuadraticFreeEnergyStrategyMultiOrderTernaryThreePhase.cc:521-556 *)
Definition computeMu2 (lib : library2) (ph : phase) (vm t c0 c1 : R) : R * R :=
  let mu := dmolar2 lib ph t c0 c1 in (fst mu * inv_vm vm, snd mu * inv_vm vm).

(** the three binary two-phase strategies; the phase whose chemical potential enters the force: phase A for
    CALPHADFreeEnergyStrategyBinary.cc:647 and KKSdiluteBinary.cc:611, liquid for QuadraticFreeEnergyStrategy.cc:507 *)
Inductive two_phase_strategy := Calphad | Dilute | Quadratic.
Definition mu_phase (s : two_phase_strategy) : phase := match s with Quadratic => PhL | _ => PhA end.
(** addDrivingForce on a patch: CALPHADFreeEnergyStrategyBinary.cc:521-667 (d_with_third_phase is false,
    QuatModelParameters.cc:120), KKSdiluteBinary.cc:510-622, QuadraticFreeEnergyStrategy.cc:392-517 *)
Definition addDrivingForce2 (s : two_phase_strategy) (lib : library) (vml vma : R) (itype : ascii) (b : pbox)
    (temp phi fl fa cl ca rhs : arr2) : option arr2 :=
  if deriv_known itype then
    Some (cells b (fun i j r =>
      let mu := match mu_phase s with
        | PhL => computeMu lib PhL vml (temp i j) (cl i j) | _ => computeMu lib PhA vma (temp i j) (ca i j) end in
      r + val (deriv_interp_func (phi i j) itype) * ((fl i j - fa i j) - mu * (cl i j - ca i j))) rhs)
  else None.
(** the calls of PhaseRHSStrategyWithQ::evaluateRHS, PhaseRHSStrategyWithQ.cc:159-166 and 272 *)
Definition kks_rhs (s : two_phase_strategy) (lib : library) (vml vma : R) (itype : ascii) (b : pbox)
    (temp phi cl ca fl fa rhs : arr2) : option arr2 :=
  let fl := computeFreeEnergy lib PhL vml b temp cl fl in
  let fa := computeFreeEnergy lib PhA vma b temp ca fa in
  addDrivingForce2 s lib vml vma itype b temp phi fl fa cl ca rhs.

(** CALPHADFreeEnergyStrategyTernary::addDrivingForceOnPatch, CALPHADFreeEnergyStrategyTernary.cc:440-570; the assert
    on equal potentials (debug builds) is not modelled *)
Definition kks_rhs_ternary (lib : library2) (vml vma : R) (itype : ascii) (b : pbox)
    (temp phi cl0 cl1 ca0 ca1 fl fa rhs : arr2) : option arr2 :=
  let fl := computeFreeEnergy2 lib PhL vml b temp cl0 cl1 fl in
  let fa := computeFreeEnergy2 lib PhA vma b temp ca0 ca1 fa in
  if deriv_known itype then
    Some (cells b (fun i j r =>
      let mu := computeMu2 lib PhA vma (temp i j) (ca0 i j) (ca1 i j) in
      r + val (deriv_interp_func (phi i j) itype)
          * ((fl i j - fa i j) - fst mu * (cl0 i j - ca0 i j) - snd mu * (cl1 i j - ca1 i j))) rhs)
  else None.

(** weights of the phases in the solver's equation sum_k w_k c_k = c, one phase field:
    QuadraticEquilibriumPhaseConcentrationsStrategy.cc:131-135, CALPHADequilibriumPhaseConcentrationsStrategy.cc:357-388 *)
Definition split2 (ctype : ascii) (phi : R) (ph : phase) : R :=
  let h := val (interp_func phi ctype) in match ph with PhL => 1 - h | PhA => h | PhB => 0 end.
(** three phase fields, CALPHADequilibriumPhaseConcentrationsStrategy.cc:350-388 *)
Definition split3 (ctype : ascii) (p0 p1 p2 : R) (ph : phase) : R :=
  val (interp_func (match ph with PhL => p0 | PhA => p1 | PhB => p2 end) ctype).
(** several order parameters 0..n-1, the last one liquid, one solid phase:
    EquilibriumPhaseConcentrationsBinaryMultiOrder.cc:124-134 *)
Definition split_multi2 (ctype : ascii) (n : Z) (u : Z -> R) (ph : phase) : R :=
  let phi := do_loop 0 (n - 2) (fun i acc => acc + u i) 0 in
  let h := val (interp_func phi ctype) in match ph with PhL => 1 - h | PhA => h | PhB => 0 end.
(** several order parameters, two solid phases: EquilibriumPhaseConcentrationsBinaryMultiOrderThreePhases.cc:125-146,
    QuadraticEquilibriumThreePhasesTernaryStrategyMultiOrder.cc:147-159 *)
Definition group (lo hi : Z) (u : Z -> R) : R := do_loop lo hi (fun i acc => acc + u i * u i) 0.
Definition split_multi3 (nA n : Z) (u : Z -> R) (ph : phase) : R :=
  let hl := u (n - 1)%Z * u (n - 1)%Z in
  let hA := group 0 (nA - 1) u in let hB := group nA (n - 2) u in
  let sum2inv := 1 / (hl + hA + hB) in
  match ph with PhL => hl * sum2inv | PhA => hA * sum2inv | PhB => hB * sum2inv end.

(** one store of the local vector rhs[] *)
Definition store (v : Z -> R) (k : Z) (x : R) : Z -> R := fun q => if (q =? k)%Z then x else v q.
(** forces on the order parameters of one cell, CALPHADFreeEnergyStrategyMultiOrder.cc:200-241,
    QuadraticFreeEnergyStrategyMultiOrderTernaryThreePhase.cc:468-509; the assert sum2 > 0 is not modelled *)
Definition multi_forces3 (nA n : Z) (u : Z -> R) (dfl dfa dfb : R) (rhs : Z -> R) : Z -> R :=
  let hphiA := group 0 (nA - 1) u in let hphiB := group nA (n - 2) u in
  let hphil := u (n - 1)%Z * u (n - 1)%Z in
  let sum2 := hphil + hphiA + hphiB in let sum2inv := 1 / sum2 in
  let hphil := hphil * sum2inv in let hphiA := hphiA * sum2inv in let hphiB := hphiB * sum2inv in
  let rhs := do_loop 0 (nA - 1) (fun i v => store v i (2 * u i * ((1 - hphiA) * dfa - hphil * dfl - hphiB * dfb) * sum2inv)) rhs in
  let rhs := do_loop nA (n - 2) (fun i v => store v i (2 * u i * ((1 - hphiB) * dfb - hphil * dfl - hphiA * dfa) * sum2inv)) rhs in
  store rhs (n - 1) (2 * u (n - 1)%Z * ((1 - hphil) * dfl - hphiA * dfa - hphiB * dfb) * sum2inv).
(** QuadraticFreeEnergyStrategyMultiOrder.cc:507-533 *)
Definition multi_forces2 (n : Z) (u : Z -> R) (dfl dfs : R) (rhs : Z -> R) : Z -> R :=
  let hphis := group 0 (n - 2) u in let hphil := u (n - 1)%Z * u (n - 1)%Z in
  let sum2 := hphil + hphis in let sum2inv := 1 / sum2 in
  let hphis := hphis * sum2inv in let hphil := hphil * sum2inv in
  let rhs := do_loop 0 (n - 2) (fun i v => store v i (2 * u i * (hphil * dfs - hphil * dfl) * sum2inv)) rhs in
  store rhs (n - 1) (2 * u (n - 1)%Z * (hphis * dfl - hphis * dfs) * sum2inv).
(** the cell loop common to the three strategies; the local vector starts at zero (std::vector) *)
Definition multi_cells (b : pbox) (n : Z) (forces : Z -> Z -> Z -> R) (rhs : arr3) : arr3 :=
  do_cells (lo0 b) (hi0 b) (lo1 b) (hi1 b) (fun i j s =>
    let v := forces i j in do_loop 0 (n - 1) (fun p s => upd3 s i j p (s i j p - v p)) s) rhs.

(** CALPHADFreeEnergyStrategyMultiOrder::addDrivingForce, CALPHADFreeEnergyStrategyMultiOrder.cc:46-252, after the
    energies of MultiOrderRHSStrategy.cc:218-231; [Some (vmb, cb, fb)] is with_phaseB *)
Definition calphad_multi (lib : library) (vml vma : R) (b : pbox) (nA n : Z) (temp : arr2) (phi : arr3)
    (cl ca : arr2) (B : option (R * arr2 * arr2)) (fl fa : arr2) (rhs : arr3) : arr3 :=
  let fl := computeFreeEnergy lib PhL vml b temp cl fl in
  let fa := computeFreeEnergy lib PhA vma b temp ca fa in
  multi_cells b n (fun i j =>
    let mu := computeMu lib PhL vml (temp i j) (cl i j) in
    let dfa := fa i j - mu * ca i j in let dfl := fl i j - mu * cl i j in
    let dfb := match B with
      | Some (vmb, cb, fb) => computeFreeEnergy lib PhB vmb b temp cb fb i j - mu * cb i j | None => 0 end in
    multi_forces3 nA n (phi i j) dfl dfa dfb (fun _ => 0)) rhs.
(** QuadraticFreeEnergyStrategyMultiOrder::addDrivingForceOnPatch, QuadraticFreeEnergyStrategyMultiOrder.cc:371-540 *)
Definition quadratic_multi (lib : library) (vml vma : R) (b : pbox) (n : Z) (temp : arr2) (phi : arr3)
    (cl ca fl fa : arr2) (rhs : arr3) : arr3 :=
  let fl := computeFreeEnergy lib PhL vml b temp cl fl in
  let fa := computeFreeEnergy lib PhA vma b temp ca fa in
  multi_cells b n (fun i j =>
    let mu := computeMu lib PhL vml (temp i j) (cl i j) in
    let dfs := fa i j - mu * ca i j in let dfl := fl i j - mu * cl i j in
    multi_forces2 n (phi i j) dfl dfs (fun _ => 0)) rhs.
(** QuadraticFreeEnergyStrategyMultiOrderTernaryThreePhase::addDrivingForceOnPatch,
    QuadraticFreeEnergyStrategyMultiOrderTernaryThreePhase.cc:312-517; compositions c ph component *)
Definition ternary_multi (lib : library2) (vm : phase -> R) (b : pbox) (nA n : Z) (temp : arr2) (phi : arr3)
    (c0 c1 : phase -> arr2) (f : phase -> arr2) (rhs : arr3) : arr3 :=
  multi_cells b n (fun i j =>
    let df := fun ph => let mu := computeMu2 lib ph (vm ph) (temp i j) (c0 ph i j) (c1 ph i j) in
      computeFreeEnergy2 lib ph (vm ph) b temp (c0 ph) (c1 ph) (f ph) i j - fst mu * c0 ph i j - snd mu * c1 ph i j in
    multi_forces3 nA n (phi i j) (df PhL) (df PhA) (df PhB) (fun _ => 0)) rhs.

(** CALPHADFreeEnergyStrategyBinaryThreePhase::addDrivingForceOnPatch,
    CALPHADFreeEnergyStrategyBinaryThreePhase.cc:498-665, after the energies of ThreePhasesRHSStrategy.cc:219-233; the
    loop is ThreePhase_Model.add_driving_force, the potential is that of phase A (computeMuA, 629) *)
Definition calphad_three (T : tilting) (lib : library) (vm : phase -> R) (b : pbox) (temp : arr2) (phi : arr3)
    (c f : phase -> arr2) (rhs : arr3) : arr3 :=
  let f := fun ph => computeFreeEnergy lib ph (vm ph) b temp (c ph) (f ph) in
  add_driving_force T (lo0 b) (hi0 b) (lo1 b) (hi1 b) phi
    (mkChem2 (f PhL) (f PhA) (f PhB) (c PhL) (c PhA) (c PhB)
       (fun i j => computeMu lib PhA (vm PhA) (temp i j) (c PhA i j))) rhs.

(** ** which library class serves the energies and which the phase compositions *)
Inductive conc_model := CALPHAD | KKSDILUTE | QUADRATIC.
Inductive library_class := Binary | Binary2Ph1Sl | BinaryThreePhase | Binary3Ph2Sl | Ternary | DiluteBinary
  | QuadraticBinary | QuadraticTernaryThreePhase.
(** QuatModelParameters: d_norderp, norderp_A of the input, with_three_phases, number of compositions, and
    checkSublattice of the database *)
Record alloy_input := mk_alloy { norderp_in : Z; norderp_A_in : option Z; three_phases : bool; ncompositions : Z;
  model : conc_model; sublattice : bool }.
(** QuatModelParameters.cc:818-827 *)
Definition d_norderp_A (p : alloy_input) : Z :=
  match norderp_A_in p with Some a => a | None => if (norderp_in p =? 1)%Z then 1 else norderp_in p - 1 end%Z.
Definition d_norderp_B (p : alloy_input) : Z :=
  if (0 <? d_norderp_A p)%Z then Z.max 0 (norderp_in p - d_norderp_A p - 1) else (-1)%Z.
(** QuatModelParameters.h:82-87; conc_b_scratch_id >= 0 iff withPhaseB, QuatModel.cc:1207-1257 *)
Definition norderp (p : alloy_input) : Z := if three_phases p then 3 else norderp_in p.
Definition withPhaseB (p : alloy_input) : bool := three_phases p || (0 <? d_norderp_B p)%Z.
Definition withMultipleOrderP (p : alloy_input) : bool := (1 <? norderp_in p)%Z.
(** FreeEnergyStrategyFactory.h:47-218; QuadraticFreeEnergyStrategy.cc:64, ...MultiOrder.h; with_concentration, free energy
    type other than 'l' *)
Definition energy_class (p : alloy_input) : library_class :=
  match model p with
  | CALPHAD =>
    if (ncompositions p =? 1)%Z then
      if withMultipleOrderP p then if withPhaseB p then BinaryThreePhase else Binary2Ph1Sl
      else if withPhaseB p then if sublattice p then Binary3Ph2Sl else BinaryThreePhase
      else if sublattice p then Binary2Ph1Sl else Binary
    else Ternary
  | KKSDILUTE => DiluteBinary
  | QUADRATIC => if (1 <? norderp p)%Z then if withPhaseB p then QuadraticTernaryThreePhase else QuadraticBinary
                 else QuadraticBinary
  end.
(** PhaseConcentrationsStrategyFactory.h:65-208 with kks_phase_concentration;
    CALPHADequilibriumPhaseConcentrationsStrategyMultiOrder.cc:49 *)
Definition composition_class (p : alloy_input) : library_class :=
  match model p with
  | CALPHAD =>
    if (ncompositions p =? 1)%Z then
      if withPhaseB p then if sublattice p then Binary3Ph2Sl else BinaryThreePhase
      else if (1 <? norderp p)%Z then Binary
      else if sublattice p then Binary2Ph1Sl else Binary
    else Ternary
  | KKSDILUTE => DiluteBinary
  | QUADRATIC => if (1 <? norderp p)%Z then if withPhaseB p then QuadraticTernaryThreePhase else QuadraticBinary
                 else QuadraticBinary
  end.
