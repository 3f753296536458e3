(** Energies, boundary conditions and trajectories in three dimensions. *)
From Coq Require Import Reals ZArith List.
From Verif Require Import Grid_Model Grid_Spec Transport_Spec Trap3_Model Trap3_Spec Sinter3_Model.
From Verif Require PhaseFlow_Model PhaseFlow_Spec Sintering_Model Sintering_Spec.
Open Scope R_scope.

Notation bc := PhaseFlow_Spec.bc.
Notation Periodic := PhaseFlow_Spec.Periodic.
Notation ZeroFlux := PhaseFlow_Spec.ZeroFlux.
Definition in_cells3 (b : box3) (i j k : Z) : Prop := in_box3 (xl b) (xu b) (yl b) (yu b) (zl b) (zu b) i j k.
Definition sum_cells3 (b : box3) (f : arr3) : R := sum_box3 (xl b) (xu b) (yl b) (yu b) (zl b) (zu b) f.
Definition nonempty3 (b : box3) : Prop := (xl b <= xu b /\ yl b <= yu b /\ zl b <= zu b)%Z.
Definition spaced3 (b : box3) : Prop := hx b <> 0 /\ hy b <> 0 /\ hz b <> 0.
(** a field continued beyond the sides of the box: periodic or mirrored in each direction *)
Definition extended3 (cx cy cz : bc) (b : box3) (f : arr3) : Prop :=
  (forall j k, Sintering_Spec.extended1 cx (xl b) (xu b) (fun i => f i j k)) /\
  (forall i k, Sintering_Spec.extended1 cy (yl b) (yu b) (fun j => f i j k)) /\
  (forall i j, Sintering_Spec.extended1 cz (zl b) (zu b) (fun k => f i j k)).
(** coefficients on opposite faces agree where the box is periodic *)
Definition faces_match3 (cx cy cz : bc) (b : box3) (d : arr3x3) : Prop :=
  (cx = Periodic -> forall j k, (yl b <= j <= yu b)%Z -> (zl b <= k <= zu b)%Z -> flux0 d (xu b + 1)%Z j k = flux0 d (xl b) j k) /\
  (cy = Periodic -> forall i k, (xl b <= i <= xu b)%Z -> (zl b <= k <= zu b)%Z -> flux1 d i (yu b + 1)%Z k = flux1 d i (yl b) k) /\
  (cz = Periodic -> forall i j, (xl b <= i <= xu b)%Z -> (yl b <= j <= yu b)%Z -> flux2 d i j (zu b + 1)%Z = flux2 d i j (zl b)).
(** divergence of face fluxes *)
Definition diverg3 (b : box3) (f : arr3x3) (i j k : Z) : R :=
  (flux0 f (i + 1)%Z j k - flux0 f i j k) / hx b + (flux1 f i (j + 1)%Z k - flux1 f i j k) / hy b + (flux2 f i j (k + 1)%Z - flux2 f i j k) / hz b.
(** half the sum of squared face gradients: every cell with its lower faces *)
Definition gradient_energy3 (b : box3) (f : arr3) : R :=
  1 / 2 * sum_cells3 b (fun i j k => ((f i j k - f (i - 1)%Z j k) / hx b) ^ 2 + ((f i j k - f i (j - 1)%Z k) / hy b) ^ 2
                                     + ((f i j k - f i j (k - 1)%Z) / hz b) ^ 2).
Definition ch_total3 (b : box3) (ca cb kappa ws : R) (c : arr3) : R :=
  sum_cells3 b (fun i j k => ch_energy ca cb ws (c i j k)) + kappa * gradient_energy3 b c.
Definition sinter_total3 (b : box3) (A B : R) (n : Z) (kc kp : R) (c : arr3) (phi : arr4) : R :=
  sum_cells3 b (fun i j k => sintering_energy A B n (phi i j k) (c i j k)) + kc * gradient_energy3 b c
  + kp * sumZ 1 n (fun p => gradient_energy3 b (fun i j k => phi i j k p)).

(** f follows the rates r on the cells of the box during [0,T] *)
Definition follows3 (b : box3) (T : R) (f r : R -> arr3) : Prop :=
  forall t i j k, 0 <= t <= T -> in_cells3 b i j k -> derivable_pt_lim (fun s => f s i j k) t (r t i j k).
(** the problem with the coefficients of a moment *)
Definition at_time3 (p : sinter3) (m : arr3) (d : arr3x3) : sinter3 :=
  mk_sinter3 (tb p) (tn p) (teps p) (tA p) (tB p) (tkappa p) (tcm p) m d.
(** a sintering run: composition c, order parameters phi, coefficients m, d varying in time *)
Definition sinter_run3 (p : sinter3) (T : R) (m : R -> arr3) (d : R -> arr3x3) (c : R -> arr3) (phi : R -> arr4) : Prop :=
  exists (ws : R -> arr3 * arr3) (w cold : R -> arr3) (fold : R -> arr4x3) (pold : R -> arr4),
    follows3 (tb p) T c (fun t => wang_conc_rhs3 (at_time3 p (m t) (d t)) (c t) (phi t) (ws t) (cold t)) /\
    forall q, (1 <= q <= tn p)%Z ->
      follows3 (tb p) T (fun t i j k => phi t i j k q)
        (fun t i j k => wang_phase_rhs3 (at_time3 p (m t) (d t)) (c t) (phi t) (fold t) (w t) (pold t) i j k q).
(** mobilities and diffusion coefficients are not negative *)
Definition dissipative3 (b : box3) (m : arr3) (d : arr3x3) : Prop :=
  (forall i j k, in_cells3 b i j k -> 0 <= m i j k) /\ (forall i j k, on_x b i j k -> 0 <= flux0 d i j k) /\
  (forall i j k, on_y b i j k -> 0 <= flux1 d i j k) /\ (forall i j k, on_z b i j k -> 0 <= flux2 d i j k).
(** component p of face data *)
Definition part3 (f : arr4x3) (p : Z) : arr3x3 :=
  (fun i j k => flux0 f i j k p, fun i j k => flux1 f i j k p, fun i j k => flux2 f i j k p).
(** velocity times central gradient *)
Definition advection (b : box3) (v : Z -> R) (f : arr3) (i j k : Z) : R :=
  v 0%Z * ((f (i + 1)%Z j k - f (i - 1)%Z j k) / (2 * hx b)) + v 1%Z * ((f i (j + 1)%Z k - f i (j - 1)%Z k) / (2 * hy b))
  + v 2%Z * ((f i j (k + 1)%Z - f i j (k - 1)%Z) / (2 * hz b)).
(** the x-y plane of a box; a plane sintering problem with any third spacing and any coefficients on the z faces *)
Definition plane3 (b : box3) : PhaseFlow_Model.pbox := PhaseFlow_Model.mk_pbox (xl b) (xu b) (yl b) (yu b) (hx b) (hy b).
Definition lift_sinter (b : box3) (p : Sintering_Model.sinter) (d2 : arr3) : sinter3 :=
  mk_sinter3 b (Sintering_Model.sn p) (Sintering_Model.seps p) (Sintering_Model.sA p) (Sintering_Model.sB p) (Sintering_Model.skappa p)
    (Sintering_Model.scm p) (flat (Sintering_Model.spm p)) (flat (Sintering_Model.sd0 p), flat (Sintering_Model.sd1 p), d2).
