(** Energy densities in three dimensions. *)
From Coq Require Import Reals ZArith List Ascii Bool.
From Verif Require Import Grid_Model Grid_Spec Functions_Model Quat_Model Quat_Spec Trap3_Model Trap3_Spec Energy_Model Energy3_Model.
From Verif Require Flow3_Model Flow3_Spec Energy_Spec.
Import ListNotations.
Open Scope R_scope.

(** phase p of a patch *)
Definition phase_of (b : epatch3) (p : Z) : arr3 := fun i j k => zphi (zf b) i j k p.
Definition in_patch3 (b : epatch3) (i j k : Z) : Prop := Flow3_Spec.in_cells3 (zbox b) i j k.
(** the anisotropic energy divides by 1 - 3 eps4 *)
Definition regular (pr : eparams) : Prop := 0 < anisotropy pr -> 3 * anisotropy pr <> 1.

(** interface energy: that of a cubic crystal where the slope is not small, of a round one with eps (1 - 3 eps4) elsewhere *)
Definition crystal_density (eps eps4 : R) (q : q4) (gx gy gz : R) : R :=
  if Rlt_dec (1 / 10 ^ 12) (gx ^ 2 + gy ^ 2 + gz ^ 2) then Flow3_Spec.cubic_density eps eps4 q gx gy gz
  else (eps * (1 - 3 * eps4)) ^ 2 / 2 * (gx ^ 2 + gy ^ 2 + gz ^ 2).
Definition phase_density3 (pr : eparams) (b : epatch3) (p i j k : Z) : R :=
  let f := phase_of b p in
  if Rlt_dec 0 (anisotropy pr) then
    crystal_density (epsilon_phi pr) (anisotropy pr) (zquat (zf b) i j k)
      (Flow3_Spec.cdx (zbox b) f i j k) (Flow3_Spec.cdy (zbox b) f i j k) (Flow3_Spec.cdz (zbox b) f i j k)
  else - (epsilon_phi pr ^ 2 / 2) * f i j k * laplace3 (zbox b) f i j k.
(** squared norm of a side gradient *)
Definition sq_grad3 (n : Z) (g : arr5) (i j k : Z) : R := sumZ 1 3 (fun d => sumZ 1 n (fun m => g i j k m d ^ 2)).
Definition side_p3 (pr : eparams) (f1 f2 : R) : R := val (interp_func (val (average_func f1 f2 (avg_type pr))) (orient1 pr)).
Definition floor_sq (pr : eparams) : R := if Ascii.eqb (floor_type pr) "s" then gradient_floor pr ^ 2 else 0.
(** orientation energy of the first phase, the mean over the six sides; [fy]: the squared floor on the upper y-side *)
Definition orient_density3 (fy : R) (pr : eparams) (b : epatch3) (i j k : Z) : R :=
  if Rlt_dec 0 (misorientation pr) then
    let f := phase_of b 1%Z in
    let fl := floor_sq pr in
    let nrm := fun fl g i j k => sqrt (sq_grad3 (depth pr) g i j k + fl) in
    let P := side_p3 pr (f i j k) in
    misorientation pr / 6 * ztemp (zf b) i j k *
      (nrm fl (zgx (zf b)) i j k * P (f (i - 1)%Z j k) + nrm fl (zgx (zf b)) (i + 1)%Z j k * P (f (i + 1)%Z j k) +
       nrm fl (zgy (zf b)) i j k * P (f i (j - 1)%Z k) + nrm fy (zgy (zf b)) i (j + 1)%Z k * P (f i (j + 1)%Z k) +
       nrm fl (zgz (zf b)) i j k * P (f i j (k - 1)%Z) + nrm fl (zgz (zf b)) i j (k + 1)%Z * P (f i j (k + 1)%Z))
  else 0.
Definition qint_density3 (pr : eparams) (b : epatch3) (i j k : Z) : R :=
  if Rlt_dec 0 (misorientation pr) then
    let n := depth pr in
    epsilon_q pr ^ 2 / 12 * val (interp_func (phase_of b 1%Z i j k) (orient2 pr)) *
      (sq_grad3 n (zgx (zf b)) i j k + sq_grad3 n (zgx (zf b)) (i + 1)%Z j k + sq_grad3 n (zgy (zf b)) i j k +
       sq_grad3 n (zgy (zf b)) i (j + 1)%Z k + sq_grad3 n (zgz (zf b)) i j k + sq_grad3 n (zgz (zf b)) i j (k + 1)%Z)
  else 0.
Definition well_density3 (pr : eparams) (b : epatch3) (p i j k : Z) : R := well_scale pr * val (well_func (phase_of b p i j k) (phi_well pr)).
Definition bulk_density3 (pr : eparams) (b : epatch3) (i j k : Z) : R :=
  let h := val (interp_func (phase_of b 1%Z i j k) (phi_interp pr)) in (1 - h) * zfl (zf b) i j k + h * zfa (zf b) i j k.
Definition all_phases3 (pr : eparams) (f : Z -> Z -> Z -> Z -> R) (i j k : Z) : R := sumZ 1 (nphases pr) (fun p => f p i j k).
(** what is counted: no floor on the upper y-side *)
Definition density3 (pr : eparams) (b : epatch3) (i j k : Z) : R :=
  all_phases3 pr (phase_density3 pr b) i j k + orient_density3 0 pr b i j k + qint_density3 pr b i j k +
  all_phases3 pr (well_density3 pr b) i j k + bulk_density3 pr b i j k.

(** weighted sum of a density over the cells of a patch, over several patches, over the patches of all ranks *)
Definition over3 (b : epatch3) (f : arr3) : R :=
  sum_box3 (xl (zbox b)) (xu (zbox b)) (yl (zbox b)) (yu (zbox b)) (zl (zbox b)) (zu (zbox b)) (fun i j k => zweight (zf b) i j k * f i j k).
Fixpoint over_patches3 (f : epatch3 -> arr3) (ps : list (epatch3 * arr3)) : R :=
  match ps with [] => 0 | p :: ps => over3 (fst p) (f (fst p)) + over_patches3 f ps end.
Fixpoint over_ranks3 (f : epatch3 -> arr3) (rs : list (list (epatch3 * arr3))) : R :=
  match rs with [] => 0 | r :: rs => over_patches3 f r + over_ranks3 f rs end.
(** the part of it in the last patch of each rank *)
Definition over_last3 (f : epatch3 -> arr3) (ps : list (epatch3 * arr3)) : R :=
  match rev ps with [] => 0 | p :: _ => over3 (fst p) (f (fst p)) end.
Fixpoint over_lasts3 (f : epatch3 -> arr3) (rs : list (list (epatch3 * arr3))) : R :=
  match rs with [] => 0 | r :: rs => over_last3 f r + over_lasts3 f rs end.

(** the patch holds some of the cells of the fields of b *)
Definition piece_of3 (b p : epatch3) : Prop :=
  zf p = zf b /\ hx (zbox p) = hx (zbox b) /\ hy (zbox p) = hy (zbox b) /\ hz (zbox p) = hz (zbox b).
Definition holds_cell3 (i j k : Z) (p : epatch3) : bool :=
  ((xl (zbox p) <=? i) && (i <=? xu (zbox p)) && ((yl (zbox p) <=? j) && (j <=? yu (zbox p))) && ((zl (zbox p) <=? k) && (k <=? zu (zbox p))))%Z%bool.
(** ranks and patches that cut b into pieces: each cell of the box of b is in exactly one piece, no other cell is in any *)
Definition cuts3 (b : epatch3) (rs : list (list (epatch3 * arr3))) : Prop :=
  Forall (fun p => piece_of3 b (fst p)) (concat rs) /\
  forall i j k, length (filter (fun p => holds_cell3 i j k (fst p)) (concat rs)) = if holds_cell3 i j k b then 1%nat else 0%nat.

(** fields with renamed axes: the new x, y, z are the old y, z, x; the norms of the gradients go with the sides *)
Definition turned_fields (n : Z) (f g : efields3) : Prop :=
  zphi g = turn4 (zphi f) /\ zquat g = Flow3_Spec.turned_field (Flow3_Spec.turn_quat (zquat f)) Flow3_Spec.third_turn /\
  (forall i j k, sq_grad3 n (zgx g) i j k = sq_grad3 n (zgy f) k i j) /\
  (forall i j k, sq_grad3 n (zgy g) i j k = sq_grad3 n (zgz f) k i j) /\
  (forall i j k, sq_grad3 n (zgz g) i j k = sq_grad3 n (zgx f) k i j) /\
  ztemp g = turn (ztemp f) /\ zweight g = turn (zweight f) /\ zfl g = turn (zfl f) /\ zfa g = turn (zfa f).
Definition turned_patch (n : Z) (b c : epatch3) : Prop := zbox c = turn_box (zbox b) /\ turned_fields n (zf b) (zf c).

(** a plane problem as a slab; [lq]: the orientations *)
Definition slab_of (b : epatch3) (e : epatch) : Prop :=
  elo0 e = xl (zbox b) /\ ehi0 e = xu (zbox b) /\ elo1 e = yl (zbox b) /\ ehi1 e = yu (zbox b) /\ edx e = hx (zbox b) /\ edy e = hy (zbox b) /\
  zphi (zf b) = flat4 (ephi e) /\ ztemp (zf b) = flat (etemp e) /\ zfl (zf b) = flat (efl e) /\ zfa (zf b) = flat (efa e) /\
  (forall i j k, zweight (zf b) i j k = hz (zbox b) * eweight e i j).

(** the patch with another first phase *)
Definition with_phase (b : epatch3) (phi : arr3) : epatch3 :=
  mk_epatch3 (zbox b) (mk_efields3 (fun i j k _ => phi i j k) (zquat (zf b)) (zgx (zf b)) (zgy (zf b)) (zgz (zf b)) (ztemp (zf b)) (zweight (zf b))
    (zfl (zf b)) (zfa (zf b))).

(** pair energy density: gamma m phi1^2 phi2^2 / 2 *)
Definition pair_density3 (gamma m : R) (p1 p2 : Z) (b : epatch3) (i j k : Z) : R :=
  gamma * m / 2 * zphi (zf b) i j k p1 ^ 2 * zphi (zf b) i j k p2 ^ 2.
Definition pair_sum3 (gamma m : R) (n : Z) (b : epatch3) (i j k : Z) : R :=
  sumZ 1 n (fun p1 => sumZ 1 n (fun p2 => pair_density3 gamma m p1 p2 b i j k)).

(** the same patch with other orientations, related to the old ones by [eqv] *)
Definition reoriented (eqv : q4 -> q4 -> Prop) (b c : epatch3) : Prop :=
  zbox c = zbox b /\ (forall i j k, eqv (zquat (zf b) i j k) (zquat (zf c) i j k)) /\
  zphi (zf c) = zphi (zf b) /\ zgx (zf c) = zgx (zf b) /\ zgy (zf c) = zgy (zf b) /\ zgz (zf c) = zgz (zf b) /\ ztemp (zf c) = ztemp (zf b) /\
  zweight (zf c) = zweight (zf b) /\ zfl (zf c) = zfl (zf b) /\ zfa (zf c) = zfa (zf b).
(** squared slope of a phase in a cell; interface energy of a round crystal, all phases *)
Definition slope_sq (b : epatch3) (p i j k : Z) : R :=
  Flow3_Spec.cdx (zbox b) (phase_of b p) i j k ^ 2 + Flow3_Spec.cdy (zbox b) (phase_of b p) i j k ^ 2 + Flow3_Spec.cdz (zbox b) (phase_of b p) i j k ^ 2.
Definition round_density (pr : eparams) (c : R) (b : epatch3) (i j k : Z) : R :=
  all_phases3 pr (fun p i j k => (epsilon_phi pr * c) ^ 2 / 2 * slope_sq b p i j k) i j k.
(** slopes of a plane problem for which the angle of the normal is found *)
Definition clear_slope (gx gy : R) : Prop := (gx = 0 /\ gy = 0) \/ (1 / 10 ^ 12 < gx ^ 2 + gy ^ 2 /\ (gx = 0 \/ 1 / 10 ^ 12 < Rabs gx)).
(** the crystal is turned by [alpha] around z *)
Definition turned_about_z (alpha : arr2) (b : epatch3) (e : epatch) : Prop :=
  forall i j k, 0 <= alpha i j <= 2 * PI /\ equat e i j 1%Z = cos (alpha i j / 2) /\ zquat (zf b) i j k = Flow3_Spec.about_z (- alpha i j).
(** a phase with constant slopes, the same in a patch with the same orientation everywhere *)
Definition linear (b : box3) (gx gy gz : R) : arr3 := fun i j k => gx * hx b * IZR i + gy * hy b * IZR j + gz * hz b * IZR k.
Definition linear_patch (b : epatch3) (q : q4) (gx gy gz : R) : epatch3 :=
  mk_epatch3 (zbox b) (mk_efields3 (fun i j k _ => linear (zbox b) gx gy gz i j k) (fun _ _ _ => q) (zgx (zf b)) (zgy (zf b)) (zgz (zf b)) (ztemp (zf b))
    (zweight (zf b)) (zfl (zf b)) (zfa (zf b))).
(** the first phase is uniform, the orientation does not vary *)
Definition uniform_patch (n : Z) (b : epatch3) : Prop :=
  (exists c, forall i j k, phase_of b 1%Z i j k = c) /\
  (forall i j k, sq_grad3 n (zgx (zf b)) i j k = 0 /\ sq_grad3 n (zgy (zf b)) i j k = 0 /\ sq_grad3 n (zgz (zf b)) i j k = 0).
(** weights, orientations and slopes of the cells *)
Definition weighted (b : epatch3) : Prop := forall i j k, in_patch3 b i j k -> 0 <= zweight (zf b) i j k.
Definition unit_quats (b : epatch3) : Prop := forall i j k, in_patch3 b i j k -> unit4 (zquat (zf b) i j k).
Definition steep (n : Z) (b : epatch3) : Prop := forall p i j k, (1 <= p <= n)%Z -> in_patch3 b i j k -> slope_sq b p i j k = 0 \/ 1 / 10 ^ 12 < slope_sq b p i j k.
(** slopes of the phases of a plane problem; number of layers of a slab *)
Definition slab_slopes (n : Z) (e : epatch) : Prop := forall p i j, (1 <= p <= n)%Z ->
  clear_slope (Energy_Spec.central (fun k => ephi e k j p) i (edx e)) (Energy_Spec.central (fun k => ephi e i k p) j (edy e)).
Definition layers (b : epatch3) : Z := (zu (zbox b) - zl (zbox b) + 1)%Z.
(** a cell whose neighbours are in the box; the phase changed in one cell; no curvature of the temperature *)
Definition inner_cell (b : box3) (i j k : Z) : Prop := (xl b < i < xu b)%Z /\ (yl b < j < yu b)%Z /\ (zl b < k < zu b)%Z.
Definition pushed (phi : arr3) (i j k : Z) (t : R) : arr3 := upd3 phi i j k (phi i j k + t).
Definition flat_spot (temp : arr3) (i j k : Z) : Prop :=
  temp (i - 1)%Z j k + temp (i + 1)%Z j k + temp i (j - 1)%Z k + temp i (j + 1)%Z k + temp i j (k - 1)%Z + temp i j (k + 1)%Z = 6 * temp i j k.
(** the free energies of the undercooled liquid and solid *)
Definition undercooled (b : epatch3) (tm lh : R) : Prop := exists f0 f1,
  zfl (zf b) = deltaFreeEnergyLiquid3 (zbox b) (ztemp (zf b)) tm lh f0 /\ zfa (zf b) = deltaFreeEnergySolid3 (zbox b) (ztemp (zf b)) tm lh f1.
(** one order parameter, no anisotropy and no orientations; the phase equation with the same constants *)
Definition plain_energy (pr : eparams) : Prop :=
  nphases pr = 1%Z /\ anisotropy pr <= 0 /\ misorientation pr <= 0 /\ phi_well pr = "d"%char /\ In (phi_interp pr) ["q"; "p"; "h"; "w"; "m"; "3"; "c"]%char.
Definition plain_problem (pr : eparams) (b : epatch3) (p : Flow3_Model.phase_problem3) : Prop :=
  Flow3_Model.pb3 p = zbox b /\ Flow3_Model.pflux3 p = Flow3_Model.Simple3 /\ Flow3_Model.peps3 p = epsilon_phi pr /\ Flow3_Model.pwell3 p = well_scale pr /\
  Flow3_Model.ptemp3 p = ztemp (zf b) /\ Flow3_Model.porient3 p = None /\ Flow3_Model.pthird3 p = None.
