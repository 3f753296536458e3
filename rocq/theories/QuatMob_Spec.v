(** Vocabulary for C128-C131. *)
From Coq Require Import Reals ZArith String Ascii.
From Verif Require Import Grid_Model Noise_Model Noise_Spec Functions_Model QuatFlow_Model QuatMob_Model.
Open Scope R_scope.

(** the routine returns the reals F *)
Definition returns (o : R -> option dbl) (F : R -> R) : Prop := forall x, o x = Some (Real (F x)).
(** [df] is the derivative of [f] at x *)
Definition slope_at (f df : R -> option dbl) (x : R) : Prop :=
  exists F d, returns f F /\ df x = Some (Real d) /\ derivable_pt_lim F x d.
Definition decreasing (F : R -> R) : Prop := forall x y, x <= y -> F y <= F x.
(** the exponential type is used with a scale for which doubles do not overflow *)
Definition usable_scale (c : R) : Prop := c <> 0 /\ c < 1024 * ln 2.
(** the mobility the run uses for a phase, after reading the input *)
Definition run_mobility (p : orient_par) (phase : R) : option dbl := orient_mobility (op_scale p) (op_min p) (op_type p) (quatMobilityScaleFactor p) phase.
Definition run_mobility_deriv (p : orient_par) (phase : R) : option dbl := orient_mobility_deriv (op_scale p) (op_min p) (op_type p) (quatMobilityScaleFactor p) phase.
(** the array [f'] holds value(phase) in the cells of [w] and the old values elsewhere *)
Definition holds_in (w : pbox) (value : R -> option dbl) (phase : arr3) (f f' : darr) : Prop :=
  forall i j k, (in_pbox w i j k -> value (phase i j k) = Some (f' i j k)) /\ (~ in_pbox w i j k -> f' i j k = f i j k).
(** rate of change of F at 0 *)
Definition rate (F : R -> R) (d : R) : Prop := derivable_pt_lim F 0 d.
(** orientation right-hand side in cell (i,j) for phases phi + e dphi *)
Definition along_phase (p : patch) (c : quat_par) (phi dphi temp : arr2) (M : R -> R) (gqx gqy : arr4) (q : arr3) (old2 : arr2) (old3 : arr3) (i j : Z) (e : R) : R :=
  let phie : arr2 := fun a b => phi a b + e * dphi a b in
  match evaluateRHS1 p c phie temp (fun a b => M (phie a b)) gqx gqy q old2 old3 with Some r => r i j 1%Z | None => 0 end.
(** minus the coefficient on a face, for phases phi1, phi2 *)
Definition coefficient (c : quat_par) (t1 t2 g2 phi1 phi2 : R) : R :=
  match face_coef (qp_eps c) (2 * qp_H c) (qp_floor c) (qp_ftype c) (qp_interp1 c) (qp_interp2 c) (qp_avg c) phi1 phi2 t1 t2 g2 with
  | Some v => - v | None => 0 end.
Definition coefficient_slopes (c : quat_par) (t1 t2 g2 phi1 phi2 : R) : option (R * R) :=
  face_deriv (2 * qp_H c) (qp_floor c) (qp_ftype c) (qp_interp1 c) (qp_avg c) phi1 phi2 t1 t2 g2.
(** the further parameters the type needs are in the range where the kernel computes reals *)
Definition usable (p : orient_par) : Prop :=
  (op_type p = "e"%char -> exists c, op_exp p = Some c /\ usable_scale c) /\
  (op_type p = "i"%char -> exists m, op_max p = Some m /\ 0 <= m).
(** the mobility of eta at temperature t and phase phi lies between the mobility of the liquid and the minimum *)
Definition arrhenius (gasR : R) (p : eta_par) (t : R) : R := ep_mobility p * exp (- ep_q0 p / (t * gasR)).

(** a patch and one ghost cell around it; there are no ghosts across the plane in two dimensions *)
Definition one_ghost (three_d : bool) (b : pbox) : pbox :=
  (mk_pbox (Noise_Model.lo0 b - 1) (Noise_Model.hi0 b + 1) (Noise_Model.lo1 b - 1) (Noise_Model.hi1 b + 1)
    (if three_d then Noise_Model.lo2 b - 1 else Noise_Model.lo2 b) (if three_d then Noise_Model.hi2 b + 1 else Noise_Model.hi2 b))%Z.
