(** Vocabulary for the phase equation in three dimensions. *)
From Coq Require Import Reals ZArith List Ascii.
From Verif Require Import Grid_Model Grid_Spec Functions_Model Quat_Model Quat_Spec Transport_Spec Trap3_Model Trap3_Spec Flow3_Model.
From Verif Require PhaseFlow_Model.
Open Scope R_scope.

Definition in_cells3 (b : box3) (i j k : Z) : Prop := in_box3 (xl b) (xu b) (yl b) (yu b) (zl b) (zu b) i j k.
(** central differences in a cell *)
Definition cdx (b : box3) (f : arr3) (i j k : Z) : R := (f (i + 1)%Z j k - f (i - 1)%Z j k) / (2 * hx b).
Definition cdy (b : box3) (f : arr3) (i j k : Z) : R := (f i (j + 1)%Z k - f i (j - 1)%Z k) / (2 * hy b).
Definition cdz (b : box3) (f : arr3) (i j k : Z) : R := (f i j (k + 1)%Z - f i j (k - 1)%Z) / (2 * hz b).
(** slopes on the faces: difference of the two cells across, mean of the central differences of the two cells along *)
Definition slope_xx (b : box3) (f : arr3) (i j k : Z) : R := (f i j k - f (i - 1)%Z j k) / hx b.
Definition slope_xy (b : box3) (f : arr3) (i j k : Z) : R := mean (cdy b f (i - 1)%Z j k) (cdy b f i j k).
Definition slope_xz (b : box3) (f : arr3) (i j k : Z) : R := mean (cdz b f (i - 1)%Z j k) (cdz b f i j k).
Definition slope_yx (b : box3) (f : arr3) (i j k : Z) : R := mean (cdx b f i (j - 1)%Z k) (cdx b f i j k).
Definition slope_yy (b : box3) (f : arr3) (i j k : Z) : R := (f i j k - f i (j - 1)%Z k) / hy b.
Definition slope_yz (b : box3) (f : arr3) (i j k : Z) : R := mean (cdz b f i (j - 1)%Z k) (cdz b f i j k).
Definition slope_zx (b : box3) (f : arr3) (i j k : Z) : R := mean (cdx b f i j (k - 1)%Z) (cdx b f i j k).
Definition slope_zy (b : box3) (f : arr3) (i j k : Z) : R := mean (cdy b f i j (k - 1)%Z) (cdy b f i j k).
Definition slope_zz (b : box3) (f : arr3) (i j k : Z) : R := (f i j k - f i j (k - 1)%Z) / hz b.
Definition spaced (b : box3) : Prop := hx b <> 0 /\ hy b <> 0 /\ hz b <> 0.

(** interface energy of a cubic crystal: component i of the gradient in the frame the orientation q turns to, energy density *)
Definition turned (q : q4) (gx gy gz : R) (i : Z) : R :=
  quatrotationmatrix q i 1%Z * gx + quatrotationmatrix q i 2%Z * gy + quatrotationmatrix q i 3%Z * gz.
Definition cubic_gamma (eps eps4 : R) (q : q4) (gx gy gz : R) : R :=
  eps * ((1 - 3 * eps4) + 4 * eps4 * (turned q gx gy gz 1%Z ^ 4 + turned q gx gy gz 2%Z ^ 4 + turned q gx gy gz 3%Z ^ 4)
                                   / (gx ^ 2 + gy ^ 2 + gz ^ 2) ^ 2).
Definition cubic_density (eps eps4 : R) (q : q4) (gx gy gz : R) : R :=
  cubic_gamma eps eps4 q gx gy gz ^ 2 / 2 * (gx ^ 2 + gy ^ 2 + gz ^ 2).
Definition small_slope (gx gy gz : R) : Prop := gx ^ 2 + gy ^ 2 + gz ^ 2 <= 1 / 10 ^ 12.
(** the same orientation on both sides *)
Definition opposite (q : q4) : q4 := scale4 (-1) q.
(** orientation of a crystal turned by alpha around z *)
Definition about_z (alpha : R) : q4 := Q4 (cos (alpha / 2)) 0 0 (sin (alpha / 2)).
Definition turned_field (quat : Z -> Z -> Z -> q4) (t : q4) : Z -> Z -> Z -> q4 := fun i j k => quatmult4 (quat i j k) t.
Definition turn_quat (quat : Z -> Z -> Z -> q4) : Z -> Z -> Z -> q4 := fun i j k => quat k i j.
Definition swap_quat (quat : Z -> Z -> Z -> q4) : Z -> Z -> Z -> q4 := fun i j k => quat j i k.
(** orientations that carry the renamed axes back: the third of a turn around the diagonal; half a turn around x = -y *)
Definition third_turn : q4 := Q4 (1 / 2) (1 / 2) (1 / 2) (1 / 2).
Definition half_turn : q4 := Q4 0 (1 / sqrt 2) (- (1 / sqrt 2)) 0.

(** plane box of a box *)
Definition plane (b : box3) : PhaseFlow_Model.pbox := PhaseFlow_Model.mk_pbox (xl b) (xu b) (yl b) (yu b) (hx b) (hy b).

(** a plane problem as a slab: nothing varies along z *)
Definition lift_orient (o : PhaseFlow_Model.orient) : orient3 :=
  mk_orient3 (flat (PhaseFlow_Model.ogm o)) (PhaseFlow_Model.otype1 o) (PhaseFlow_Model.otype2 o) (PhaseFlow_Model.misorientation o) (PhaseFlow_Model.epsilonq o).
Definition lift_third (e : PhaseFlow_Model.third) : third3 :=
  mk_third3 (flat (PhaseFlow_Model.eta e)) (PhaseFlow_Model.eta_well_scale e) (PhaseFlow_Model.eta_well e) (PhaseFlow_Model.eta_interp e).
Definition lift_drive (d : PhaseFlow_Model.drive) : drive3 :=
  match d with
  | PhaseFlow_Model.NoDrive => NoDrive3
  | PhaseFlow_Model.FreeEnergies fl fa it => FreeEnergies3 (flat fl) (flat fa) it
  | PhaseFlow_Model.DeltaTemperature tm lh it => DeltaTemperature3 tm lh it
  | PhaseFlow_Model.BiasUTRC alpha gamma te => BiasUTRC3 alpha gamma (flat te)
  | PhaseFlow_Model.BiasBeckermann alpha te => BiasBeckermann3 alpha (flat te)
  end.
Definition lift_problem (b : box3) (p : PhaseFlow_Model.phase_problem) : phase_problem3 :=
  mk_problem3 b Simple3 (PhaseFlow_Model.peps p) (PhaseFlow_Model.pwell p) (flat (PhaseFlow_Model.ptemp p))
    (option_map lift_orient (PhaseFlow_Model.porient p)) (option_map lift_third (PhaseFlow_Model.pthird p))
    (lift_drive (PhaseFlow_Model.pdrive p)) (flat (PhaseFlow_Model.pmob p)).
Definition delta_temperature (d : PhaseFlow_Model.drive) : Prop :=
  match d with PhaseFlow_Model.DeltaTemperature _ _ _ => True | _ => False end.
(** the problem with renamed axes *)
Definition turn_drive (d : drive3) : drive3 :=
  match d with
  | NoDrive3 => NoDrive3
  | FreeEnergies3 fl fa it => FreeEnergies3 (turn fl) (turn fa) it
  | DeltaTemperature3 tm lh it => DeltaTemperature3 tm lh it
  | BiasUTRC3 alpha gamma te => BiasUTRC3 alpha gamma (turn te)
  | BiasBeckermann3 alpha te => BiasBeckermann3 alpha (turn te)
  end.
Definition turn_kind (k : flux_kind3) : flux_kind3 :=
  match k with Anisotropic3 e quat => Anisotropic3 e (turned_field (turn_quat quat) third_turn) | k => k end.
Definition turn_orient (o : orient3) : orient3 := mk_orient3 (turn (ogm3 o)) (otype1 o) (otype2 o) (misorientation o) (epsilonq o).
Definition turn_third (e : third3) : third3 := mk_third3 (turn (eta3 e)) (eta_well_scale e) (eta_well e) (eta_interp e).
Definition turn_problem (p : phase_problem3) : phase_problem3 :=
  mk_problem3 (turn_box (pb3 p)) (turn_kind (pflux3 p)) (peps3 p) (pwell3 p) (turn (ptemp3 p))
    (option_map turn_orient (porient3 p)) (option_map turn_third (pthird3 p)) (turn_drive (pdrive3 p)) (turn (pmob3 p)).
(** the two results agree on the cells, or both programs stop *)
Definition agree3 (b : box3) (r : option arr3) (s : option arr3) : Prop :=
  match r, s with
  | Some r, Some s => forall i j k, in_cells3 b i j k -> r i j k = s i j k
  | None, None => True
  | _, _ => False
  end.
(** driving force of a cell; undercooling by the mean of the temperature over the cell *)
Definition local_drive (d : drive3) (temp phi : arr3) (i j k : Z) : R :=
  match d with
  | NoDrive3 => 0
  | FreeEnergies3 fl fa it => val (deriv_interp_func (phi i j k) it) * (fl i j k - fa i j k)
  | DeltaTemperature3 tm lh it =>
    lh / tm * (tm - (temp i j k + (temp (i - 1)%Z j k + temp (i + 1)%Z j k + temp i (j - 1)%Z k + temp i (j + 1)%Z k
       + temp i j (k - 1)%Z + temp i j (k + 1)%Z - 6 * temp i j k) / 24)) * val (deriv_interp_func (phi i j k) it)
  | BiasUTRC3 alpha gamma te => alpha / PI * atan (gamma * (te i j k - temp i j k)) * phi i j k * (1 - phi i j k)
  | BiasBeckermann3 alpha te => alpha * (te i j k - temp i j k) * phi i j k * (1 - phi i j k)
  end.
(** the plane z = k of a field *)
Definition at_z (k : Z) (a : arr3) : arr2 := fun i j => a i j k.
