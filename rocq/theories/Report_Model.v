(** Scalar diagnostics that a run prints: QuatModel::printScalarDiagnostics (QuatModel.cc:2598-2677, without energies and extreme
    temperatures and mobilities), the integrals it uses and the thermal energy.  The hierarchy is the list of the cells of all
    patches, levels and processes (SAMRAI's hierarchy operations sum over them); a cell carries its two control volumes
    (Weights_Model.v) and its data, vectors are lists.  Exact reals; None = failed assertion or index out of range. *)
From Coq Require Import Reals ZArith List Bool.
Import ListNotations.
Open Scope R_scope.

(** weight = d_weight_id, weight_diag = d_weight_diagnostics_id *)
Record cell := mk_cell { weight : R; weight_diag : R; phase : list R; eta : R; conc : list R; cp : R; temperature : R }.
Definition hier := list cell.

(** input: three_phases, norderp, norderp_A (QuatModelParameters.cc:811-829), phase, third phase, number of compositions (0 = without
    concentration), d_subdomain_diagnostics[0] (QuatModel.cc:521-535), latent heat *)
Record params := mk_params {
  with_phase : bool; three_phases : bool; in_norderp : Z; in_norderp_A : option Z; with_third_phase : bool;
  ncompositions : nat; subdomain : R; latent_heat : R }.
(** QuatModelParameters.h:82 *)
Definition norderp (p : params) : Z := if three_phases p then 3 else in_norderp p.
(** QuatModelParameters.cc:36-37 and 821-828; def_norderp_A *)
Definition norderpA (p : params) : Z :=
  match in_norderp_A p with Some a => a | None => if (in_norderp p =? 1)%Z then 1 else (in_norderp p - 1)%Z end.
Definition norderpB (p : params) : Z :=
  if (0 <? norderpA p)%Z then let b := (in_norderp p - norderpA p - 1)%Z in if (b <? 0)%Z then 0%Z else b else (-1)%Z.

(** toolsSAMRAI.cc:48-71 copyDepthCellData into d_work_id; CellData::copyDepth asserts that the depth exists *)
Fixpoint copy_depth (f : cell -> list R) (depth : Z) (h : hier) : option (list R) :=
  match h with
  | [] => Some []
  | c :: r =>
      if (depth <? 0)%Z then None else
      match nth_error (f c) (Z.to_nat depth), copy_depth f depth r with Some v, Some vs => Some (v :: vs) | _, _ => None end
  end.
(** math::HierarchyCellDataOpsReal integral, L1Norm and max for data of depth one *)
Fixpoint integral (w : cell -> R) (vals : list R) (h : hier) : R :=
  match vals, h with v :: vs, c :: r => v * w c + integral w vs r | _, _ => 0 end.
Definition l1norm (w : cell -> R) (vals : list R) (h : hier) : R := integral w (map Rabs vals) h.
Definition maximum (vals : list R) : option R := match vals with [] => None | v :: vs => Some (fold_left Rmax vs v) end.

(** QuatModel.cc:5153-5165 evaluatePhaseFraction *)
Definition evaluatePhaseFraction (h : hier) (depth : Z) : option R :=
  match copy_depth phase depth h with Some v => Some (integral weight v h) | None => None end.
(** QuatModel.cc:5169-5178 evaluateVolumeSolid, of the only order parameter *)
Definition evaluateVolumeSolid (h : hier) : option R :=
  match copy_depth phase 0 h with Some v => Some (l1norm weight v h) | None => None end.
(** QuatModel.cc:5106-5126 evaluateIntegralConcentration; with one composition its data are used directly *)
Definition evaluateIntegralConcentration (p : params) (h : hier) (component : Z) : option R :=
  match copy_depth conc (if (1 <? ncompositions p)%nat then component else 0%Z) h with Some v => Some (integral weight v h) | None => None end.
(** QuatModel.cc:5130-5149 evaluateIntegralPhaseConcentration *)
Definition evaluateIntegralPhaseConcentration (p : params) (h : hier) (component : Z) : option R :=
  match copy_depth conc (if (1 <? ncompositions p)%nat then component else 0%Z) h, copy_depth phase 0 h with
  | Some v, Some ph => Some (l1norm weight (map (fun cp => fst cp * snd cp) (combine v ph)) h)
  | _, _ => None
  end.
(** QuatModel.cc:2707-2729 computeDensityDiagnostics; sumControlVolumes is the integral of one *)
Definition computeDensityDiagnostics (p : params) (h : hier) : option R :=
  let depth_void := (norderpA p + norderpB p)%Z in
  let volume := integral weight_diag (map (fun _ => 1) h) h in
  match copy_depth phase depth_void h with
  | Some v => if Rlt_dec 0 volume then Some (1 - integral weight_diag v h / volume) else None
  | None => None
  end.

(** printed lines *)
Inductive line :=
| Fraction (i : Z) (v : R) | Solid (v : R) | Eta (v : R)
| Integral (ic : Z) (v : R) | MaxConc (ic : Z) (v : R) | Cex (ic : Z) (v : R) | Density (v : R).
Fixpoint traverse {A B : Type} (f : A -> option B) (l : list A) : option (list B) :=
  match l with [] => Some [] | a :: r => match f a, traverse f r with Some b, Some bs => Some (b :: bs) | _, _ => None end end.
Definition upto (n : nat) : list Z := map Z.of_nat (seq 0 n).
(** QuatModel.cc:2605-2631; also the last volume vphi *)
Definition print_phase (p : params) (vol : R) (h : hier) : option (list line * R) :=
  if with_phase p then
    if three_phases p || (1 <? norderp p)%Z then
      match traverse (evaluatePhaseFraction h) (upto (Z.to_nat (norderp p))) with
      | Some vs => Some (map (fun iv => Fraction (fst iv) (snd iv / vol)) (combine (upto (Z.to_nat (norderp p))) vs), last vs vol)
      | None => None
      end
    else match evaluateVolumeSolid h with Some v => Some ([Solid (v / vol)], v) | None => None end
  else Some ([], vol).
(** QuatModel.cc:2638-2642 *)
Definition print_eta (p : params) (vol : R) (h : hier) : list line :=
  if with_third_phase p then [Eta (l1norm weight (map eta h) h / vol)] else [].
(** QuatModel.cc:2649-2670 *)
Definition print_component (p : params) (vol vphi : R) (h : hier) (ic : Z) : option (list line) :=
  match evaluateIntegralConcentration p h ic, copy_depth conc ic h with
  | Some c0V0, Some work =>
      match maximum work with
      | Some cmax =>
          if (norderp p <? 1)%Z then
            let c0 := c0V0 / vol in
            match evaluateIntegralPhaseConcentration p h ic with
            | Some cphi => Some [Integral ic c0V0; MaxConc ic cmax; Cex ic ((cphi - c0 * vphi) / c0V0)]
            | None => None
            end
          else Some [Integral ic c0V0; MaxConc ic cmax]
      | None => None
      end
  | _, _ => None
  end.
(** QuatModel.cc:2673-2676 *)
Definition print_density (p : params) (h : hier) : option (list line) :=
  if (1 <? norderp p)%Z then
    if Rgt_dec (subdomain p) 0 then match computeDensityDiagnostics p h with Some d => Some [Density d] | None => None end else Some []
  else Some [].
(** QuatModel.cc:2598-2677; low and up are the corners of the domain *)
Definition print_scalars (p : params) (low up : list R) (h : hier) : option (list line) :=
  let vol := fold_left (fun v d => v * (snd d - fst d)) (combine low up) 1 in
  match print_phase p vol h with
  | Some (l1, vphi) =>
      match traverse (print_component p vol vphi h) (upto (ncompositions p)), print_density p h with
      | Some l2, Some l3 => Some (l1 ++ print_eta p vol h ++ concat l2 ++ l3)
      | _, _ => None
      end
  | None => None
  end.

(** QuatModel.cc:5372-5396 computeThermalEnergy, with one order parameter *)
Definition computeThermalEnergy (p : params) (h : hier) : option R :=
  let cenergy := integral weight (map (fun c => cp c * temperature c) h) h in
  if with_phase p then
    match copy_depth phase 0 h with Some v => Some (integral weight v h * (-1 * latent_heat p) + cenergy) | None => None end
  else Some (0 + cenergy).
