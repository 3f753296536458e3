(** Energy evaluation (2D).  Fields are total functions of the cell index, exact reals; the unsupported
    type strings on which the Fortran functions stop are rejected at the entry (stopping depends on the
    string only). *)
From Coq Require Import Reals ZArith List Bool Ascii.
From Verif Require Import Grid_Model Functions_Model.
Import ListNotations.
Open Scope R_scope.

Definition val (o : option R) : R := match o with Some v => v | None => 0 end.
(** arguments of QUATENERGY that do not depend on the patch, TwoPhasesEnergyEvaluationStrategy.cc:143-167 *)
Record eparams := mk_eparams {
  depth : Z; nphases : Z; epsilon_phi : R; epsilon_q : R; anisotropy : R; knumber : R; misorientation : R;
  well_scale : R; per_cell : bool; phi_interp : ascii; phi_well : ascii; orient1 : ascii; orient2 : ascii;
  avg_type : ascii; floor_type : ascii; gradient_floor : R }.
(** box and fields of a patch; gx, gy: side gradients (i,j,m,n); fl, fa: bulk free energies *)
Record epatch := mk_epatch {
  elo0 : Z; ehi0 : Z; elo1 : Z; ehi1 : Z; edx : R; edy : R;
  ephi : arr3; equat : arr3; egx : arr4; egy : arr4; etemp : arr2; eweight : arr2; efl : arr2; efa : arr2 }.
Record totals := mk_totals { t_energy : R; t_phase : R; t_orient : R; t_qint : R; t_well : R; t_free : R }.
Definition est := (totals * arr2)%type.

(** if ( eval_per_cell /= 0 ) energy(i,j) = energy(i,j) + e *)
Definition put (pc : bool) (energy : arr2) (i j : Z) (e : R) : arr2 := if pc then upd2 energy i j (energy i j + e) else energy.
Definition clear_energy (pc : bool) (b : epatch) (energy : arr2) : arr2 :=
  if pc then do_cells (elo0 b) (ehi0 b) (elo1 b) (ehi1 b) (fun i j en => upd2 en i j 0) energy else energy.

(** interface_anisotropic_energy, quatenergy.m4:12-101 *)
Definition aniso_e (pr : eparams) (b : epatch) (p i j : Z) : R :=
  let dxinv := 1 / 2 / edx b in let dyinv := 1 / 2 / edy b in
  let phi := ephi b in
  let dphidx := (phi (i + 1)%Z j p - phi (i - 1)%Z j p) * dxinv in
  let dphidy := (phi i (j + 1)%Z p - phi i (j - 1)%Z p) * dyinv in
  let theta := if Rlt_dec (1 / 10 ^ 12) (Rabs dphidx) then atan (dphidy / dphidx) else 1 / 2 * PI in
  let q := equat b i j 1%Z in
  let q := if Rlt_dec 1 q then 1 else q in
  let q := if Rlt_dec q (-1) then -1 else q in
  let refangle := if (depth pr =? 4)%Z then 2 * acos q else acos q in
  let epstheta := epsilon_phi pr * (1 + anisotropy pr * cos (knumber pr * (theta - refangle))) in
  1 / 2 * epstheta * epstheta * (dphidx * dphidx + dphidy * dphidy).
(** phi_interface_energy, quatenergy.m4:105-176 *)
Definition iso_e (pr : eparams) (b : epatch) (p i j : Z) : R :=
  let dx2inv := 1 / (edx b * edx b) in let dy2inv := 1 / (edy b * edy b) in
  let phi := ephi b in
  let tx := dx2inv * (- phi (i + 1)%Z j p + 2 * phi i j p - phi (i - 1)%Z j p) in
  let ty := dy2inv * (- phi i (j + 1)%Z p + 2 * phi i j p - phi i (j - 1)%Z p) in
  1 / 2 * epsilon_phi pr * epsilon_phi pr * (tx + ty) * phi i j p.
Definition interface_energy (e_of : Z -> Z -> Z -> R) (pr : eparams) (b : epatch) (energy : arr2) : R * arr2 :=
  do_loop 1 (nphases pr) (fun p (s : R * arr2) =>
    do_cells (elo0 b) (ehi0 b) (elo1 b) (ehi1 b) (fun i j (s : R * arr2) =>
      let e := e_of p i j in
      (fst s + e * eweight b i j, put (per_cell pr) (snd s) i j e)) s)
    (0, clear_energy (per_cell pr) b energy).

(** sum of squares of the side gradient, quatenergy.m4:287-292 *)
Definition grad2 (pr : eparams) (g : arr4) (i j : Z) : R :=
  do_loop 1 2 (fun n o => do_loop 1 (depth pr) (fun m o => o + g i j m n * g i j m n) o) 0.
(** orientational energy, quatenergy.m4:276-338 *)
Definition orient_e (pr : eparams) (b : epatch) (p i j : Z) : R :=
  let floor2 := if Ascii.eqb (floor_type pr) "s" then gradient_floor pr * gradient_floor pr else 0 in
  let phi := ephi b in
  let side f1 f2 g i j := sqrt (grad2 pr g i j + floor2) * val (interp_func (val (average_func f1 f2 (avg_type pr))) (orient1 pr)) in
  let e := 0 + side (phi (i - 1)%Z j p) (phi i j p) (egx b) i j in
  let e := e + side (phi i j p) (phi (i + 1)%Z j p) (egx b) (i + 1)%Z j in
  let e := e + side (phi i (j - 1)%Z p) (phi i j p) (egy b) i j in
  let e := e + side (phi i j p) (phi i (j + 1)%Z p) (egy b) i (j + 1)%Z in
  let e := e * etemp b i j in
  e * (1 / 4) * misorientation pr.
(** q interface energy, quatenergy.m4:342-370 *)
Definition qint_e (pr : eparams) (b : epatch) (p i j : Z) : R :=
  let epsilonq2 := 1 / 2 * epsilon_q pr * epsilon_q pr in
  let e := do_loop 1 2 (fun n e => do_loop 1 (depth pr) (fun m e => e +
    (egx b i j m n * egx b i j m n + egx b (i + 1)%Z j m n * egx b (i + 1)%Z j m n
     + egy b i j m n * egy b i j m n + egy b i (j + 1)%Z m n * egy b i (j + 1)%Z m n)) e) 0 in
  e * (1 / 4) * epsilonq2 * val (interp_func (ephi b i j p) (orient2 pr)).
Definition well_e (pr : eparams) (b : epatch) (p i j : Z) : R := well_scale pr * val (well_func (ephi b i j p) (phi_well pr)).

Definition add_orient (w e : R) (t : totals) : totals :=
  mk_totals (t_energy t + e * w) (t_phase t) (t_orient t + e * w) (t_qint t) (t_well t) (t_free t).
Definition add_qint (w e : R) (t : totals) : totals :=
  mk_totals (t_energy t + e * w) (t_phase t) (t_orient t) (t_qint t + e * w) (t_well t) (t_free t).
Definition add_well (w e : R) (t : totals) : totals :=
  mk_totals (t_energy t + e * w) (t_phase t) (t_orient t) (t_qint t) (t_well t + e * w) (t_free t).
Definition add_free (w e : R) (t : totals) : totals :=
  mk_totals (t_energy t + e * w) (t_phase t) (t_orient t) (t_qint t) (t_well t) (t_free t + e * w).
(** one loop over the cells of the patch *)
Definition cell_pass (add : R -> R -> totals -> totals) (e_of : Z -> Z -> R) (pr : eparams) (b : epatch) (s : est) : est :=
  do_cells (elo0 b) (ehi0 b) (elo1 b) (ehi1 b) (fun i j (s : est) =>
    let e := e_of i j in (add (eweight b i j) e (fst s), put (per_cell pr) (snd s) i j e)) s.
(** quatenergy, quatenergy.m4:178-399 *)
Definition quatenergy (pr : eparams) (b : epatch) (s : est) : est :=
  let r := if Rlt_dec 0 (anisotropy pr) then interface_energy (aniso_e pr b) pr b (snd s) else interface_energy (iso_e pr b) pr b (snd s) in
  let t := fst s in
  let t := mk_totals (t_energy t + fst r) (t_phase t + fst r) (t_orient t) (t_qint t) (t_well t) (t_free t) in
  let s : est := (t, snd r) in
  let s := if Rlt_dec 0 (misorientation pr) then
      do_loop 1 (nphases pr) (fun p (s : est) =>
        cell_pass add_qint (qint_e pr b p) pr b (cell_pass add_orient (orient_e pr b p) pr b s)) s
    else s in
  let t := fst s in
  let s : est := (mk_totals (t_energy t) (t_phase t) (t_orient t) (t_qint t) 0 (t_free t), snd s) in
  do_loop 1 (nphases pr) (fun p (s : est) => cell_pass add_well (well_e pr b p) pr b s) s.
(** bulkenergy, quatenergy.m4:404-458; it receives the first phase component *)
Definition bulk_e (pr : eparams) (b : epatch) (i j : Z) : R :=
  let h := val (interp_func (ephi b i j 1%Z) (phi_interp pr)) in (1 - h) * efl b i j + h * efa b i j.
Definition bulkenergy (pr : eparams) (b : epatch) (s : est) : est :=
  let t := fst s in
  cell_pass add_free (bulk_e pr b) pr b (mk_totals (t_energy t) (t_phase t) (t_orient t) (t_qint t) (t_well t) 0, snd s).

(** TwoPhasesEnergyEvaluationStrategy::evaluateEnergy on a patch, TwoPhasesEnergyEvaluationStrategy.cc:41-177;
    the energy array of the patch is the second component of the result *)
Definition evaluate_patch (pr : eparams) (b : epatch) (t : totals) (energy : arr2) : est :=
  bulkenergy pr b (quatenergy pr b (t, energy)).
(** EnergyEvaluationStrategy::evaluateEnergy, EnergyEvaluationStrategy.cc:15-58: a rank goes over its patches, level
    by level, then sumReduction over the ranks *)
Definition zero_totals : totals := mk_totals 0 0 0 0 0 0.
Definition evaluate_rank (pr : eparams) (ps : list (epatch * arr2)) : totals :=
  fold_left (fun t p => fst (evaluate_patch pr (fst p) t (snd p))) ps zero_totals.
Definition plus_totals (a b : totals) : totals :=
  mk_totals (t_energy a + t_energy b) (t_phase a + t_phase b) (t_orient a + t_orient b) (t_qint a + t_qint b)
            (t_well a + t_well b) (t_free a + t_free b).
Definition supported (pr : eparams) : bool :=
  match interp_func 0 (phi_interp pr), well_func 0 (phi_well pr), interp_func 0 (orient1 pr), interp_func 0 (orient2 pr), average_func 0 0 (avg_type pr) with
  | Some _, Some _, Some _, Some _, Some _ => true | _, _, _, _, _ => false end.
Definition evaluateEnergy (pr : eparams) (ranks : list (list (epatch * arr2))) : option totals :=
  if supported pr then Some (fold_right (fun ps t => plus_totals (evaluate_rank pr ps) t) zero_totals ranks) else None.

(** phiphi_interfacialenergy, quatenergy.m4:498-552: state = (total_energy, edensity) *)
Definition pair_state := ((Z -> R) * arr2)%type.
Definition pair_e (gamma m : R) (b : epatch) (p1 p2 i j : Z) : R :=
  ephi b i j p1 * ephi b i j p1 * ephi b i j p2 * ephi b i j p2 * (1 / 2 * gamma * m).
Definition set1 (f : Z -> R) (n : Z) (v : R) : Z -> R := fun k => if (k =? n)%Z then v else f k.
Definition phiphi_interfacialenergy (gamma m : R) (pc : bool) (n : Z) (b : epatch) (s : pair_state) : pair_state :=
  do_loop 1 n (fun p1 (s : pair_state) => do_loop 1 n (fun p2 (s : pair_state) =>
    let ix := (n * (p1 - 1) + p2)%Z in
    do_cells (elo0 b) (ehi0 b) (elo1 b) (ehi1 b) (fun i j (s : pair_state) =>
      let e := pair_e gamma m b p1 p2 i j in
      (set1 (fst s) ix (fst s ix + e * eweight b i j), if pc then upd2 (snd s) i j e else snd s))
    (set1 (fst s) ix 0, snd s)) s) (fst s, clear_energy pc b (snd s)).
(** MultiOrderPEnergyEvaluationStrategy::evaluatePairEnergy on one rank, MultiOrderPEnergyEvaluationStrategy.cc:28-46 *)
Definition evaluatePairEnergy (gamma m : R) (pc : bool) (n : Z) (ps : list (epatch * arr2)) : Z -> R :=
  fold_left (fun t p => fst (phiphi_interfacialenergy gamma m pc n (fst p) (t, snd p))) ps (fun _ => 0).
