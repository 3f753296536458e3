(** Energies, boundary conditions and trajectories of the Cahn-Hilliard and sintering equations. *)
From Coq Require Import Reals ZArith List.
From Verif Require Import Grid_Model Grid_Spec Transport_Spec PhaseFlow_Model PhaseFlow_Spec Sintering_Model.
Open Scope R_scope.

(** a row of cells lo..hi continued beyond its ends by the boundary condition (as many ghost cells as are read) *)
Definition extended1 (c : bc) (lo hi : Z) (f : Z -> R) : Prop :=
  match c with
  | Periodic => forall i, f (i + (hi - lo + 1))%Z = f i
  | ZeroFlux => (forall i, f (2 * lo - 1 - i)%Z = f i) /\ (forall i, f (2 * hi + 1 - i)%Z = f i)
  end.
Definition extended (cx cy : bc) (b : pbox) (f : arr2) : Prop :=
  (forall j, extended1 cx (lo0 b) (hi0 b) (fun i => f i j)) /\ (forall i, extended1 cy (lo1 b) (hi1 b) (fun j => f i j)).
(** coefficients on opposite faces agree where the box is periodic *)
Definition faces_match (cx cy : bc) (b : pbox) (d0 d1 : arr2) : Prop :=
  (cx = Periodic -> forall j, (lo1 b <= j <= hi1 b)%Z -> d0 (hi0 b + 1)%Z j = d0 (lo0 b) j) /\
  (cy = Periodic -> forall i, (lo0 b <= i <= hi0 b)%Z -> d1 i (hi1 b + 1)%Z = d1 i (lo1 b)).
Definition nonempty (b : pbox) : Prop := (lo0 b <= hi0 b)%Z /\ (lo1 b <= hi1 b)%Z.

(** half the sum of squared face gradients: every cell with its lower faces *)
Definition gradient_energy (b : pbox) (f : arr2) : R :=
  1 / 2 * sum_cells b (fun i j => ((f i j - f (i - 1)%Z j) / h1 b) ^ 2 + ((f i j - f i (j - 1)%Z) / h2 b) ^ 2).
Definition ch_total (b : pbox) (ca cb kappa ws : R) (c : arr2) : R :=
  sum_cells b (fun i j => ch_energy ca cb ws (c i j)) + kappa * gradient_energy b c.
Definition sinter_total (b : pbox) (A B : R) (n : Z) (kc kp : R) (c : arr2) (phi : arr3) : R :=
  sum_cells b (fun i j => sintering_energy A B n (phi i j) (c i j)) + kc * gradient_energy b c
  + kp * sumZ 1 n (fun p => gradient_energy b (fun i j => phi i j p)).

(** f follows the rates r on the cells of the box during [0,T] *)
Definition follows (b : pbox) (T : R) (f r : R -> arr2) : Prop :=
  forall t i j, 0 <= t <= T -> in_cells b i j -> derivable_pt_lim (fun s => f s i j) t (r t i j).
(** the problem with the coefficients of a moment: mobility of the order parameters, diffusion on the faces *)
Definition at_time (p : sinter) (m d0 d1 : arr2) : sinter :=
  mk_sinter (sb p) (sn p) (seps p) (sA p) (sB p) (skappa p) (scm p) m d0 d1 (skind p).
(** a sintering run: composition c and order parameters phi, coefficients m, d0, d1 varying in time *)
Definition sinter_run (p : sinter) (T : R) (m d0 d1 : R -> arr2) (c : R -> arr2) (phi : R -> arr3) : Prop :=
  exists (ws : R -> arr2 * arr2) (w : R -> arr2) (cold : R -> arr2) (fx fy pold : R -> arr3),
    follows (sb p) T c (fun t => wang_conc_rhs (at_time p (m t) (d0 t) (d1 t)) (c t) (phi t) (ws t) (cold t)) /\
    forall k, (1 <= k <= sn p)%Z ->
      follows (sb p) T (fun t i j => phi t i j k)
        (fun t i j => wang_phase_rhs (at_time p (m t) (d0 t) (d1 t)) (c t) (phi t) (fx t) (fy t) (w t) (pold t) i j k).
(** mobilities and diffusion coefficients are not negative *)
Definition dissipative (b : pbox) (m d0 d1 : arr2) : Prop :=
  (forall i j, in_cells b i j -> 0 <= m i j) /\ (forall i j, x_face b i j -> 0 <= d0 i j) /\ (forall i j, y_face b i j -> 0 <= d1 i j).

(** the states without interface: void, or the inside of grain k *)
Definition void_state (n : Z) (c : R) (phi : Z -> R) : Prop := c = 0 /\ forall k, (1 <= k <= n)%Z -> phi k = 0.
Definition grain_state (n k : Z) (c : R) (phi : Z -> R) : Prop :=
  c = 1 /\ phi k = 1 /\ forall q, (1 <= q <= n)%Z -> q <> k -> phi q = 0.
Definition uniform_state (c : arr2) (phi : arr3) (c0 : R) (phi0 : Z -> R) : Prop :=
  forall i j, c i j = c0 /\ forall k, phi i j k = phi0 k.

(** grain boundary of width w in the plane x = 0 inside the solid (c = 1) *)
Definition gb_profile (w x : R) : R := / (1 + exp (- (x / w))).
(** discrete centered gradient *)
Definition cgrad (b : pbox) (f : arr2) (d i j : Z) : R :=
  if (d =? 0)%Z then (f (i + 1)%Z j - f (i - 1)%Z j) / (2 * h1 b) else (f i (j + 1)%Z - f i (j - 1)%Z) / (2 * h2 b).

(** the grain boundary of width w is at rest: gradient term kappa and derivative of the free energy cancel everywhere *)
Definition balanced (kappa A B w : R) : Prop :=
  forall x d2 e, (exists d1, (forall y, derivable_pt_lim (gb_profile w) y (d1 y)) /\ derivable_pt_lim d1 x d2) ->
    let u := fun k => if (k =? 1)%Z then gb_profile w x else 1 - gb_profile w x in
    derivable_pt_lim (fun s => sintering_energy A B 2 (setZ u 1 s) 1) (u 1%Z) e -> kappa * d2 = e.
(** the order parameters relax with gradient coefficient kappa: rate = mobility (kappa lap(phi_k) - df/dphi_k) *)
Definition relaxes (p : sinter) (kappa : R) : Prop :=
  forall c phi fx fy w rhs i j k e, (1 <= k <= sn p)%Z -> in_cells (sb p) i j ->
    derivable_pt_lim (fun x => sintering_energy (sA p) (sB p) (sn p) (setZ (phi i j) k x) (c i j)) (phi i j k) e ->
    wang_phase_rhs p c phi fx fy w rhs i j k = spm p i j * (kappa * laplace (h1 (sb p)) (h2 (sb p)) (fun a b => phi a b k) i j - e).
(** the problem read from interface energy and width *)
Definition sinter_of_input (b : pbox) (sigma delta a_in b_in be_in : R) (cm : R) (m d0 d1 : arr2) : sinter :=
  let '(A, B, be) := read_wang sigma delta a_in b_in be_in in
  mk_sinter b 2 (interface_epsilon sigma delta) A B be cm m d0 d1 FluxSimple.
(** another mobility of the composition *)
Definition with_mobility (p : sinter) (s : R) : sinter :=
  mk_sinter (sb p) (sn p) (seps p) (sA p) (sB p) (skappa p) s (spm p) (sd0 p) (sd1 p) (skind p).
(** one cell with void on its right and solid without grain on its left *)
Definition step_problem (cm : R) : sinter :=
  mk_sinter (mk_pbox 0 0 0 0 1 1) 2 1 0 1 0 cm (fun _ _ => 1) (fun _ _ => 1) (fun _ _ => 1) FluxSimple.
Definition step_conc : arr2 := fun i _ => if (0 <=? i)%Z then 0 else 1.
