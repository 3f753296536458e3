(** Energy densities and decompositions. *)
From Coq Require Import Reals ZArith List Ascii.
From Verif Require Import Grid_Model Grid_Spec Functions_Model Energy_Model.
Import ListNotations.
Open Scope R_scope.

(** densities at a cell *)
Definition sq_grad (n : Z) (g : arr4) (i j : Z) : R := sumZ 1 2 (fun d => sumZ 1 n (fun m => g i j m d ^ 2)).
Definition central (f : Z -> R) (k : Z) (h : R) : R := (f (k + 1)%Z - f (k - 1)%Z) / (2 * h).
Definition second (f : Z -> R) (k : Z) (h : R) : R := (f (k + 1)%Z - 2 * f k + f (k - 1)%Z) / h ^ 2.
Definition phase_density (pr : eparams) (b : epatch) (p i j : Z) : R :=
  let phi := fun i j => ephi b i j p in
  if Rlt_dec 0 (anisotropy pr) then
    let gx := central (fun k => phi k j) i (edx b) in let gy := central (fun k => phi i k) j (edy b) in
    let theta := if Rlt_dec (1 / 10 ^ 12) (Rabs gx) then atan (gy / gx) else PI / 2 in
    let ref := acos (Rmax (-1) (Rmin 1 (equat b i j 1%Z))) in
    let eps := epsilon_phi pr * (1 + anisotropy pr * cos (knumber pr * (theta - (if Z.eqb (depth pr) 4 then 2 * ref else ref)))) in
    eps ^ 2 / 2 * (gx ^ 2 + gy ^ 2)
  else - (epsilon_phi pr ^ 2 / 2) * phi i j * (second (fun k => phi k j) i (edx b) + second (fun k => phi i k) j (edy b)).
(** interpolated weight of the orientation energy on the side between two cells *)
Definition side_p (pr : eparams) (f1 f2 : R) : R := val (interp_func (val (average_func f1 f2 (avg_type pr))) (orient1 pr)).
Definition orient_density (pr : eparams) (b : epatch) (p i j : Z) : R :=
  if Rlt_dec 0 (misorientation pr) then
    let fl := if Ascii.eqb (floor_type pr) "s" then gradient_floor pr ^ 2 else 0 in
    let phi := fun i j => ephi b i j p in
    let nrm := fun g i j => sqrt (sq_grad (depth pr) g i j + fl) in
    misorientation pr / 4 * etemp b i j *
      (nrm (egx b) i j * side_p pr (phi (i - 1)%Z j) (phi i j) + nrm (egx b) (i + 1)%Z j * side_p pr (phi i j) (phi (i + 1)%Z j) +
       nrm (egy b) i j * side_p pr (phi i (j - 1)%Z) (phi i j) + nrm (egy b) i (j + 1)%Z * side_p pr (phi i j) (phi i (j + 1)%Z))
  else 0.
Definition qint_density (pr : eparams) (b : epatch) (p i j : Z) : R :=
  if Rlt_dec 0 (misorientation pr) then
    epsilon_q pr ^ 2 / 8 * val (interp_func (ephi b i j p) (orient2 pr)) *
      (sq_grad (depth pr) (egx b) i j + sq_grad (depth pr) (egx b) (i + 1)%Z j + sq_grad (depth pr) (egy b) i j + sq_grad (depth pr) (egy b) i (j + 1)%Z)
  else 0.
Definition well_density (pr : eparams) (b : epatch) (p i j : Z) : R := well_scale pr * val (well_func (ephi b i j p) (phi_well pr)).
Definition bulk_density (pr : eparams) (b : epatch) (i j : Z) : R :=
  let h := val (interp_func (ephi b i j 1%Z) (phi_interp pr)) in (1 - h) * efl b i j + h * efa b i j.
Definition all_phases (pr : eparams) (f : Z -> Z -> Z -> R) (i j : Z) : R := sumZ 1 (nphases pr) (fun p => f p i j).
Definition density (pr : eparams) (b : epatch) (i j : Z) : R :=
  all_phases pr (phase_density pr b) i j + all_phases pr (orient_density pr b) i j + all_phases pr (qint_density pr b) i j +
  all_phases pr (well_density pr b) i j + bulk_density pr b i j.

(** weighted sum of a density over the cells of a patch, over several patches, over the patches of all ranks *)
Definition over (b : epatch) (f : Z -> Z -> R) : R := sum_box (elo0 b) (ehi0 b) (elo1 b) (ehi1 b) (fun i j => eweight b i j * f i j).
Fixpoint over_patches (f : epatch -> Z -> Z -> R) (ps : list (epatch * arr2)) : R :=
  match ps with [] => 0 | p :: ps => over (fst p) (f (fst p)) + over_patches f ps end.
Fixpoint over_ranks (f : epatch -> Z -> Z -> R) (rs : list (list (epatch * arr2))) : R :=
  match rs with [] => 0 | r :: rs => over_patches f r + over_ranks f rs end.
(** the part of it in the last patch of each rank *)
Definition over_last (f : epatch -> Z -> Z -> R) (ps : list (epatch * arr2)) : R :=
  match rev ps with [] => 0 | p :: _ => over (fst p) (f (fst p)) end.
Fixpoint over_lasts (f : epatch -> Z -> Z -> R) (rs : list (list (epatch * arr2))) : R :=
  match rs with [] => 0 | r :: rs => over_last f r + over_lasts f rs end.

(** the patch holds the cells lo0..hi0 x lo1..hi1 of the fields of b *)
Definition piece_of (b p : epatch) : Prop :=
  edx p = edx b /\ edy p = edy b /\ ephi p = ephi b /\ equat p = equat b /\ egx p = egx b /\ egy p = egy b /\ etemp p = etemp b /\
  eweight p = eweight b /\ efl p = efl b /\ efa p = efa b.
Definition holds_cell (i j : Z) (p : epatch * arr2) : bool :=
  ((elo0 (fst p) <=? i) && (i <=? ehi0 (fst p)) && (elo1 (fst p) <=? j) && (j <=? ehi1 (fst p)))%Z%bool.
(** ranks and patches that cut b into pieces: each cell of the box of b is in exactly one piece, no other cell is in any *)
Definition cuts (b : epatch) (rs : list (list (epatch * arr2))) : Prop :=
  Forall (fun p => piece_of b (fst p)) (concat rs) /\
  forall i j, length (filter (holds_cell i j) (concat rs)) = if holds_cell i j (b, fun _ _ => 0) then 1%nat else 0%nat.

(** pair energy density: gamma m phi1^2 phi2^2 / 2 *)
Definition pair_density (gamma m : R) (p1 p2 : Z) (b : epatch) (i j : Z) : R := gamma * m / 2 * ephi b i j p1 ^ 2 * ephi b i j p2 ^ 2.
Definition pair_sum (gamma m : R) (n : Z) (b : epatch) (i j : Z) : R := sumZ 1 n (fun p1 => sumZ 1 n (fun p2 => pair_density gamma m p1 p2 b i j)).
