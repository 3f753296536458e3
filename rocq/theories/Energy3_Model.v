(** Energy evaluation in three dimensions, source/fortran/3d/quatenergy.m4.  Exact reals, the single-precision constants 1.,
    1.e-12 are exact; fields are total functions of the cell index, ghost widths are not modelled; the type strings on which
    the Fortran functions stop are rejected at the entry, as in Energy_Model.  Orientations have the four components the
    kernel reads.  Parameters and totals are those of Energy_Model: TwoPhasesEnergyEvaluationStrategy passes the same
    arguments in two and three dimensions. *)
From Coq Require Import Reals ZArith List Bool Ascii.
From Verif Require Import Grid_Model Functions_Model Quat_Model Trap3_Model Energy_Model.
Import ListNotations.
Open Scope R_scope.

(** side gradients gqx, gqy, gqz (i,j,k,m,n), :266-268 *)
Definition arr5 : Type := Z -> Z -> Z -> Z -> Z -> R.
(** fields of a patch; zfl, zfa: bulk free energies *)
Record efields3 := mk_efields3 {
  zphi : arr4; zquat : Z -> Z -> Z -> q4; zgx : arr5; zgy : arr5; zgz : arr5; ztemp : arr3; zweight : arr3; zfl : arr3; zfa : arr3 }.
Record epatch3 := mk_epatch3 { zbox : box3; zf : efields3 }.
Definition est3 := (totals * arr3)%type.

(** loop over the cells of a patch *)
Definition patch_cells {S : Type} (b : epatch3) (body : Z -> Z -> Z -> S -> S) (s : S) : S :=
  do_cells3 (xl (zbox b)) (xu (zbox b)) (yl (zbox b)) (yu (zbox b)) (zl (zbox b)) (zu (zbox b)) body s.
(** if ( eval_per_cell /= 0 ) energy(i,j,k) = energy(i,j,k) + e *)
Definition put3 (pc : bool) (energy : arr3) (i j k : Z) (e : R) : arr3 := if pc then upd3 energy i j k (energy i j k + e) else energy.
Definition clear_energy3 (pc : bool) (b : epatch3) (energy : arr3) : arr3 :=
  if pc then patch_cells b (fun i j k en => upd3 en i j k 0) energy else energy.

(** :15-34 compute_n4 *)
Definition compute_n4 (quat n : q4) : R :=
  let qp := quatconj quat in
  let qtmp := quatmult4 n qp in
  let np := quatmult4 quat qtmp in
  qb np ^ 4 + qc np ^ 4 + qd np ^ 4.
(** :38-139 interface_anisotropic_energy, the density of phase p; eps4 is the argument anisotropy, knumber is not used *)
Definition aniso_e3 (pr : eparams) (b : epatch3) (p i j k : Z) : R :=
  let dxinv := 1 / 2 / hx (zbox b) in
  let dyinv := 1 / 2 / hy (zbox b) in
  let dzinv := 1 / 2 / hz (zbox b) in
  let eps4 := anisotropy pr in
  let factor := 4 * eps4 / (1 - 3 * eps4) in
  let phi := zphi (zf b) in
  let dphidx := (phi (i + 1)%Z j k p - phi (i - 1)%Z j k p) * dxinv in
  let dphidy := (phi i (j + 1)%Z k p - phi i (j - 1)%Z k p) * dyinv in
  let dphidz := (phi i j (k + 1)%Z p - phi i j (k - 1)%Z p) * dzinv in
  let diff_term := dphidx * dphidx + dphidy * dphidy + dphidz * dphidz in
  let n4 := if Rlt_dec (1 / 10 ^ 12) (Rabs diff_term) then
      let nni := 1 / sqrt diff_term in
      compute_n4 (zquat (zf b) i j k) (Q4 0 (dphidx * nni) (dphidy * nni) (dphidz * nni))
    else 0 in
  let epstheta := epsilon_phi pr * (1 - 3 * eps4) * (1 + factor * n4) in
  1 / 2 * epstheta * epstheta * diff_term.
(** :143-224 phi_interface_energy, the density of phase p *)
Definition iso_e3 (pr : eparams) (b : epatch3) (p i j k : Z) : R :=
  let dx2inv := 1 / hx (zbox b) ^ 2 in
  let dy2inv := 1 / hy (zbox b) ^ 2 in
  let dz2inv := 1 / hz (zbox b) ^ 2 in
  let epsilonphi2 := 1 / 2 * epsilon_phi pr * epsilon_phi pr in
  let phi := zphi (zf b) in
  let diff_term_x := dx2inv * (- phi (i + 1)%Z j k p + 2 * phi i j k p - phi (i - 1)%Z j k p) in
  let diff_term_y := dy2inv * (- phi i (j + 1)%Z k p + 2 * phi i j k p - phi i (j - 1)%Z k p) in
  let diff_term_z := dz2inv * (- phi i j (k + 1)%Z p + 2 * phi i j k p - phi i j (k - 1)%Z p) in
  let diff_term := diff_term_x + diff_term_y + diff_term_z in
  epsilonphi2 * diff_term * phi i j k p.
(** the loops of the two subroutines: phi_e and the energy array *)
Definition interface_energy3 (e_of : Z -> Z -> Z -> Z -> R) (pr : eparams) (b : epatch3) (energy : arr3) : R * arr3 :=
  do_loop 1 (nphases pr) (fun p (s : R * arr3) =>
    patch_cells b (fun i j k (s : R * arr3) =>
      let e := e_of p i j k in
      (fst s + e * zweight (zf b) i j k, put3 (per_cell pr) (snd s) i j k e)) s)
    (0, clear_energy3 (per_cell pr) b energy).

(** :344-349 and the other sides: sum of squares of a side gradient *)
Definition grad3 (pr : eparams) (g : arr5) (i j k : Z) : R :=
  do_loop 1 (depth pr) (fun m o => do_loop 1 3 (fun n o => o + g i j k m n * g i j k m n) o) 0.
(** :331-425 orientational energy: the first phase only; on the upper y-side the floor is added after the root is taken *)
Definition orient_e3 (pr : eparams) (b : epatch3) (i j k : Z) : R :=
  let floor2 := if Ascii.eqb (floor_type pr) "s" then gradient_floor pr * gradient_floor pr else 0 in
  let f := zf b in
  let phi := fun i j k => zphi f i j k 1%Z in
  let p_phi f1 f2 := val (interp_func (val (average_func f1 f2 (avg_type pr))) (orient1 pr)) in
  let e := 0 in
  let o2 := grad3 pr (zgx f) i j k + floor2 in
  let e := e + sqrt o2 * p_phi (phi (i - 1)%Z j k) (phi i j k) in
  let o2 := grad3 pr (zgx f) (i + 1)%Z j k + floor2 in
  let e := e + sqrt o2 * p_phi (phi i j k) (phi (i + 1)%Z j k) in
  let o2 := grad3 pr (zgy f) i j k + floor2 in
  let e := e + sqrt o2 * p_phi (phi i (j - 1)%Z k) (phi i j k) in
  let o2 := grad3 pr (zgy f) i (j + 1)%Z k in
  let e := e + sqrt o2 * p_phi (phi i j k) (phi i (j + 1)%Z k) in
  let o2 := grad3 pr (zgz f) i j k + floor2 in
  let e := e + sqrt o2 * p_phi (phi i j k) (phi i j (k - 1)%Z) in
  let o2 := grad3 pr (zgz f) i j (k + 1)%Z + floor2 in
  let e := e + sqrt o2 * p_phi (phi i j k) (phi i j (k + 1)%Z) in
  let e := e * ztemp f i j k in
  e * misorientation pr / 6.
(** :427-460 q interface energy: the first phase only *)
Definition qint_e3 (pr : eparams) (b : epatch3) (i j k : Z) : R :=
  let epsilonq2 := 1 / 2 * epsilon_q pr * epsilon_q pr in
  let gqx := zgx (zf b) in let gqy := zgy (zf b) in let gqz := zgz (zf b) in
  let p_phi := val (interp_func (zphi (zf b) i j k 1%Z) (orient2 pr)) in
  let e := do_loop 1 (depth pr) (fun m e => do_loop 1 3 (fun n e => e +
    (gqx i j k m n * gqx i j k m n + gqx (i + 1)%Z j k m n * gqx (i + 1)%Z j k m n
     + gqy i j k m n * gqy i j k m n + gqy i (j + 1)%Z k m n * gqy i (j + 1)%Z k m n
     + gqz i j k m n * gqz i j k m n + gqz i j (k + 1)%Z m n * gqz i j (k + 1)%Z m n)) e) 0 in
  e * p_phi * epsilonq2 / 6.
Definition well_e3 (pr : eparams) (b : epatch3) (p i j k : Z) : R :=
  well_scale pr * val (well_func (zphi (zf b) i j k p) (phi_well pr)).

(** one loop over the cells of the patch *)
Definition cell_pass3 (add : R -> R -> totals -> totals) (e_of : Z -> Z -> Z -> R) (pr : eparams) (b : epatch3) (s : est3) : est3 :=
  patch_cells b (fun i j k (s : est3) =>
    let e := e_of i j k in (add (zweight (zf b) i j k) e (fst s), put3 (per_cell pr) (snd s) i j k e)) s.
(** :226-488 quatenergy; lines 334, 429 and 465 reset the orientation, q interface and well energies *)
Definition quatenergy3 (pr : eparams) (b : epatch3) (s : est3) : est3 :=
  let r := if Rlt_dec 0 (anisotropy pr) then interface_energy3 (aniso_e3 pr b) pr b (snd s)
           else interface_energy3 (iso_e3 pr b) pr b (snd s) in
  let t := fst s in
  let s : est3 := (mk_totals (t_energy t + fst r) (t_phase t + fst r) (t_orient t) (t_qint t) (t_well t) (t_free t), snd r) in
  let s := if Rlt_dec 0 (misorientation pr) then
      let t := fst s in
      let s : est3 := (mk_totals (t_energy t) (t_phase t) 0 (t_qint t) (t_well t) (t_free t), snd s) in
      let s := cell_pass3 add_orient (orient_e3 pr b) pr b s in
      let t := fst s in
      let s : est3 := (mk_totals (t_energy t) (t_phase t) (t_orient t) 0 (t_well t) (t_free t), snd s) in
      cell_pass3 add_qint (qint_e3 pr b) pr b s
    else s in
  let t := fst s in
  let s : est3 := (mk_totals (t_energy t) (t_phase t) (t_orient t) (t_qint t) 0 (t_free t), snd s) in
  do_loop 1 (nphases pr) (fun p (s : est3) => cell_pass3 add_well (well_e3 pr b p) pr b s) s.
(** :493-550 bulkenergy; it receives the first phase component *)
Definition bulk_e3 (pr : eparams) (b : epatch3) (i j k : Z) : R :=
  let h := val (interp_func (zphi (zf b) i j k 1%Z) (phi_interp pr)) in (1 - h) * zfl (zf b) i j k + h * zfa (zf b) i j k.
Definition bulkenergy3 (pr : eparams) (b : epatch3) (s : est3) : est3 :=
  let t := fst s in
  cell_pass3 add_free (bulk_e3 pr b) pr b (mk_totals (t_energy t) (t_phase t) (t_orient t) (t_qint t) (t_well t) 0, snd s).

(** TwoPhasesEnergyEvaluationStrategy::evaluateEnergy on a patch, TwoPhasesEnergyEvaluationStrategy.cc:41-177, NDIM 3 *)
Definition evaluate_patch3 (pr : eparams) (b : epatch3) (t : totals) (energy : arr3) : est3 :=
  bulkenergy3 pr b (quatenergy3 pr b (t, energy)).
(** EnergyEvaluationStrategy::evaluateEnergy, EnergyEvaluationStrategy.cc:15-58: a rank goes over its patches, level
    by level, then sumReduction over the ranks *)
Definition evaluate_rank3 (pr : eparams) (ps : list (epatch3 * arr3)) : totals :=
  fold_left (fun t p => fst (evaluate_patch3 pr (fst p) t (snd p))) ps zero_totals.
Definition evaluateEnergy3 (pr : eparams) (ranks : list (list (epatch3 * arr3))) : option totals :=
  if supported pr then Some (fold_right (fun ps t => plus_totals (evaluate_rank3 pr ps) t) zero_totals ranks) else None.

(** :555-588 temperature_energy *)
Definition temperature_energy3 (b : box3) (temperature : arr3) (t_m l_a : R) (fs : arr3) : arr3 :=
  let factor := l_a / t_m in
  do_cells3 (xl b) (xu b) (yl b) (yu b) (zl b) (zu b) (fun i j k fs => upd3 fs i j k (factor * (t_m - temperature i j k))) fs.
(** DeltaTemperatureFreeEnergyStrategy::computeFreeEnergyLiquid, computeFreeEnergySolidA,
    DeltaTemperatureFreeEnergyStrategy.cc:186-241, NDIM 3 *)
Definition deltaFreeEnergyLiquid3 (b : box3) (temperature : arr3) (tm l : R) (fl : arr3) : arr3 :=
  temperature_energy3 b temperature tm (1 / 2 * l) fl.
Definition deltaFreeEnergySolid3 (b : box3) (temperature : arr3) (tm l : R) (fa : arr3) : arr3 :=
  temperature_energy3 b temperature tm (- (1 / 2) * l) fa.

(** :592-650 phiphi_interfacialenergy: state = (total_energy, edensity) *)
Definition pair_state3 := ((Z -> R) * arr3)%type.
Definition pair_e3 (gamma m : R) (b : epatch3) (p1 p2 i j k : Z) : R :=
  let factor := 1 / 2 * gamma * m in
  let phi := zphi (zf b) in
  let e := phi i j k p1 * phi i j k p1 * phi i j k p2 * phi i j k p2 in
  e * factor.
Definition phiphi_interfacialenergy3 (gamma m : R) (pc : bool) (n : Z) (b : epatch3) (s : pair_state3) : pair_state3 :=
  do_loop 1 n (fun p1 (s : pair_state3) => do_loop 1 n (fun p2 (s : pair_state3) =>
    let ix := (n * (p1 - 1) + p2)%Z in
    patch_cells b (fun i j k (s : pair_state3) =>
      let e := pair_e3 gamma m b p1 p2 i j k in
      (set1 (fst s) ix (fst s ix + e * zweight (zf b) i j k), if pc then upd3 (snd s) i j k e else snd s))
    (set1 (fst s) ix 0, snd s)) s) (fst s, clear_energy3 pc b (snd s)).
(** MultiOrderPEnergyEvaluationStrategy::evaluatePairEnergy on one rank, MultiOrderPEnergyEvaluationStrategy.cc:28-46 *)
Definition evaluatePairEnergy3 (gamma m : R) (pc : bool) (n : Z) (ps : list (epatch3 * arr3)) : Z -> R :=
  fold_left (fun t p => fst (phiphi_interfacialenergy3 gamma m pc n (fst p) (t, snd p))) ps (fun _ => 0).
