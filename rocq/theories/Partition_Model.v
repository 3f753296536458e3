(** Phase compositions from a partition coefficient, the velocity-dependent partition
    coefficient, and the pair weights of the three-phase mobility.
    None stands for a failed assert (or, in the partition, a division by zero);
    doubles are exact reals and M_PI is the exact number pi. *)
From Coq Require Import Reals List Ascii.
From Verif Require Import Functions_Model.
Import ListNotations.
Open Scope R_scope.

(** PartitionPhaseConcentrationsStrategy::computePhaseConcentrationsOnPatch at one cell,
    PartitionPhaseConcentrationsStrategy.cc:96-145: partition coefficient k, phase phi,
    compositions cs of the species; returns (c_l, c_a) of each species *)
Definition partition_cell (interp : ascii) (k phi : R) (cs : list R) : option (list (R * R)) :=
  if Rlt_dec k 0 then None else if Rlt_dec 1 k then None else
  match interp_func phi interp with
  | None => None
  | Some hphi =>
    if Rlt_dec hphi 0 then None else if Rlt_dec (1 + 1 / 100000000) hphi then None else
    let den := 1 - hphi + k * hphi in
    if Req_EM_T den 0 then None else
    let factor := 1 / den in
    Some (map (fun c => (c * factor, k * c * factor)) cs)
  end.

(** AzizPartitionCoefficientStrategy::computeKeq, AzizPartitionCoefficientStrategy.cc:152-167;
    ceq = result of computeCeqT of the thermodynamic library *)
Definition computeKeq (keq : R) (ceq : R -> option (R * R)) (temperature : R) : option R :=
  if Rlt_dec 0 keq then Some keq
  else match ceq temperature with Some (c0, c1) => Some (c1 / c0) | None => None end.

(** AzizPartitionCoefficientStrategy::evaluate at one cell, AzizPartitionCoefficientStrategy.cc:124-149
    (d_inv_vd = 1/vd, line 35) *)
Definition aziz_cell (vd keq : R) (ceq : R -> option (R * R)) (temperature velocity : R) : option R :=
  let vel := Rabs velocity in
  match computeKeq keq ceq temperature with
  | None => None
  | Some ke =>
    let scaledv := vel * (1 / vd) in
    let k := if Rlt_dec ke 1 then (ke + scaledv) / (1 + scaledv) else (1 + scaledv) / (1 / ke + scaledv) in
    if Rlt_dec 0 k then Some k else None
  end.
(** QuatIntegrator evaluates the coefficient, then the phase compositions with it *)
Definition aziz_partition (interp : ascii) (vd keq : R) (ceq : R -> option (R * R)) (temperature velocity phi : R)
    (cs : list R) : option (list (R * R)) :=
  match aziz_cell vd keq ceq temperature velocity with None => None | Some k => partition_cell interp k phi cs end.

(** computeWeights3Pairs, computeWeights3Pairs.cc:17-95 *)
Definition maxp := 99 / 100.
(** step 1, lines 22-32: the loop stops at the first fraction above maxp *)
Definition cap3 (p0 p1 p2 : R) : R * R * R :=
  if Rlt_dec maxp p0 then let delta := 1 - maxp - p1 - p2 in (maxp, p1 + 1 / 2 * delta, p2 + 1 / 2 * delta)
  else if Rlt_dec maxp p1 then let delta := 1 - p0 - maxp - p2 in (p0 + 1 / 2 * delta, maxp, p2 + 1 / 2 * delta)
  else if Rlt_dec maxp p2 then let delta := 1 - p0 - p1 - maxp in (p0 + 1 / 2 * delta, p1 + 1 / 2 * delta, maxp)
  else (p0, p1, p2).
Definition norm3 (x y z : R) : R := sqrt (x * x + y * y + z * z).
Definition clip1 (a : R) : R := let a := if Rlt_dec a (-1) then -1 else a in if Rlt_dec 1 a then 1 else a.
Definition tiny := 1 / 10 ^ 32.
(** lines 38-79 *)
Definition angles (pp0 pp1 pp2 : R) : option (R * R * R) :=
  let d0 := norm3 (pp0 / (pp0 + pp2) - pp0 / (pp0 + pp1)) (0 - pp1 / (pp0 + pp1)) (pp2 / (pp0 + pp2) - 0) in
  let d1 := norm3 (0 - pp0 / (pp0 + pp1)) (pp1 / (pp1 + pp2) - pp1 / (pp0 + pp1)) (pp2 / (pp1 + pp2) - 0) in
  let d2 := norm3 (0 - pp0 / (pp0 + pp2)) (pp1 / (pp1 + pp2) - 0) (pp2 / (pp1 + pp2) - pp2 / (pp0 + pp2)) in
  if Rlt_dec tiny d0 then if Rlt_dec tiny d1 then if Rlt_dec tiny d2 then
    let piinv := 1 / PI in
    Some (piinv * acos (clip1 ((d0 * d0 + d1 * d1 - d2 * d2) / (2 * d0 * d1))),
          piinv * acos (clip1 ((d0 * d0 + d2 * d2 - d1 * d1) / (2 * d0 * d2))),
          piinv * acos (clip1 ((d2 * d2 + d1 * d1 - d0 * d0) / (2 * d1 * d2))))
  else None else None else None.
Definition computeWeights3Pairs (p0 p1 p2 : R) : option (R * R * R) :=
  let '(pp0, pp1, pp2) := cap3 p0 p1 p2 in
  if Rlt_dec 0 (pp0 + pp1) then if Rlt_dec 0 (pp0 + pp2) then if Rlt_dec 0 (pp1 + pp2) then angles pp0 pp1 pp2
  else None else None else None.

(** QuatModelParameters::zetaFactorLA/LB, QuatModelParameters.h:476-492 *)
Definition zetaFactor (tref z0 z1 z2 temp : R) : R :=
  if Rlt_dec tref 0 then -1 else let dT := temp - tref in z0 + z1 * dT + z2 * dT * dT.
(** KimMobilityStrategyInfMob3Phases::evaluateMobility,
    KimMobilityStrategyInfMob3Phases.cc:66-111; zLA, zLB = the two zeta factors *)
Definition inf_mobility (factor mv zLA zLB phiL phiA phiB : R) : option R :=
  if Rlt_dec 0 zLA then if Rlt_dec 0 zLB then
    let mobLA := factor / (zLA * (1 / 1000000 / mv)) in
    let mobLB := factor / (zLB * (1 / 1000000 / mv)) in
    let mobAB := 1 / 2 * (mobLA + mobLB) in
    match computeWeights3Pairs phiL phiA phiB with
    | Some (wLA, wLB, wAB) =>
      if Rlt_dec 1 wLA then None else if Rlt_dec 1 wLB then None else if Rlt_dec 1 wAB then None
      else Some (wLA * mobLA + wLB * mobLB + wAB * mobAB)
    | None => None
    end
  else None else None.
