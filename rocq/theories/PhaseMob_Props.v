(** C125-C127: the mobility of the order parameter. *)
From Coq Require Import Reals ZArith String List Bool Ascii Lra Lia.
From Coquelicot Require Import Coquelicot.
From Verif Require Import Grid_Model Functions_Model Noise_Model Noise_Spec PhaseMob_Model PhaseMob_Spec PhaseMob_Proofs.
Import ListNotations.
Open Scope R_scope.

(** C125: with an interface mobility m, without antitrapping, a driving force G moves a flat front with speed m G, exactly for the cubic interpolation. *)
Theorem C125_interface_speed : forall gasR al db m r mdl n temp cl ca phi, kim_type db -> db_beta db = None -> db_intmob db = Some m ->
  (db_zeta db = None /\ db_zetaLA db = None \/ db_Tref db <> None) -> 0 < m -> 0 < r_eps r -> 0 < r_well r ->
  exists p M, readPhaseMobility gasR al db = Some p /\ choose p false false false mdl n = Some FiniteMob /\
    evaluateMobility p FiniteMob r temp cl ca phi = Some (Fin M) /\ 0 < M /\
    forall G, exists u, front (m * G) u /\ solves M (r_eps r) (r_well r) G "h"%char u.
Proof. exact interface_speed. Qed.
Print Assumptions C125_interface_speed.

(** C125: with a kinetics coefficient beta, an undercooling moves a flat front of a dilute alloy with speed undercooling/beta. *)
Theorem C125_kinetics : forall gasR mv Tm slope keq db beta r mdl n temp cl ca phi, kim_type db -> db_beta db = Some beta ->
  0 < beta -> 0 < gasR -> 0 < mv -> 0 < Tm -> slope < 0 -> keq < 1 -> 0 < r_eps r -> 0 < r_well r ->
  exists p M, readPhaseMobility gasR (mk_alloy (Some mv) (Some Tm) (Some slope) (Some keq)) db = Some p /\
    choose p false false false mdl n = Some FiniteMob /\ evaluateMobility p FiniteMob r temp cl ca phi = Some (Fin M) /\ 0 < M /\
    forall undercooling, let G := gasR * Tm * (1 - keq) / (mv * - slope) * undercooling / 10 ^ 6 in
      exists u, front (undercooling / beta) u /\ solves M (r_eps r) (r_well r) G "h"%char u.
Proof. exact kinetics_coefficient. Qed.
Print Assumptions C125_kinetics.

(** C125: with the quintic interpolation the energy gained per time equals that dissipated by the equilibrium profile moving with speed m G (leading order only). *)
Theorem C125_balance_partial : forall eps well m G (W : R -> R) (type : ascii) h0 h1, 0 < eps -> 0 < well -> 0 < m ->
  (forall x, well_func x "d"%char = Some (W x)) -> (type = "h"%char \/ type = "p"%char) -> interp_func 0 type = Some h0 -> interp_func 1 type = Some h1 ->
  is_RInt (fun x => (m * G) * (sqrt (2 * well * W x) / eps)) 0 1 (finite_mob eps well m * (G * (h1 - h0))).
Proof. exact energy_balance. Qed.
Print Assumptions C125_balance_partial.

(** C125: with three phases the interface mobility has no effect, and without the polynomials, thus always with a kinetics coefficient, the run stops. *)
Theorem C125_three_phases_refuted : forall m m' tref zLA zLB r temp cl ca phi, 0 < m ->
  choose (Kim m tref zLA zLB) false false true Calphad 1 = Some InfMob3Phases /\
  evaluateMobility (Kim m tref zLA zLB) InfMob3Phases r temp cl ca phi = evaluateMobility (Kim m' tref zLA zLB) InfMob3Phases r temp cl ca phi /\
  evaluateMobility (Kim m (-1) None None) InfMob3Phases r temp cl ca phi = None.
Proof. exact three_phases_ignore. Qed.
Print Assumptions C125_three_phases_refuted.

(** C125: with a kinetics coefficient, an interface mobility or polynomials given as well have no effect. *)
Theorem C125_kinetics_ignores : forall gasR al db db' beta, kim_type db -> kim_type db' -> db_beta db = Some beta -> db_beta db' = Some beta -> 0 < beta ->
  readPhaseMobility gasR al db = readPhaseMobility gasR al db'.
Proof. exact kinetics_ignores. Qed.
Print Assumptions C125_kinetics_ignores.

Definition db_two : mob_db := mk_mob_db (Some "Kim"%string) None None (Some 2) None None None None.
Definition run_ex : run_par := mk_run_par 8 1 (fun _ _ _ => 1) PBG 1 2 1 0 1.
(** interface mobility 2, driving force 3: speed 6 *)
Example C125_ex : exists p M u, readPhaseMobility 8 (mk_alloy None None None None) db_two = Some p /\ choose p false false false Calphad 1 = Some FiniteMob /\
  evaluateMobility p FiniteMob run_ex 1000 (fun _ => 0) (fun _ => 0) (0, 0, 0) = Some (Fin M) /\ front 6 u /\ solves M 1 2 3 "h"%char u.
Proof.
  destruct (C125_interface_speed 8 (mk_alloy None None None None) db_two 2 run_ex Calphad 1 1000 (fun _ => 0) (fun _ => 0) (0, 0, 0)) as (p & M & E1 & E2 & E3 & _ & U);
    try reflexivity; try (cbn [r_eps r_well run_ex]; lra); [right; reflexivity | left; split; reflexivity |].
  destruct (U 3) as (u & F & W). exists p, M, u. replace 6 with (2 * 3) by lra. auto.
Qed.
(** a kinetics coefficient 10: an undercooling of 5 moves the front with speed 1/2 *)
Example C125_ex_kinetics : exists p M u G, readPhaseMobility 8 (mk_alloy (Some 1) (Some 1000) (Some (-4)) (Some (1 / 2))) (mk_mob_db (Some "kim"%string) None (Some 10) None None None None None) = Some p /\
  evaluateMobility p FiniteMob run_ex 1000 (fun _ => 0) (fun _ => 0) (0, 0, 0) = Some (Fin M) /\ 0 < G /\ front (1 / 2) u /\ solves M 1 2 G "h"%char u.
Proof.
  destruct (C125_kinetics 8 1 1000 (-4) (1 / 2) (mk_mob_db (Some "kim"%string) None (Some 10) None None None None None) 10 run_ex Calphad 1 1000 (fun _ => 0) (fun _ => 0) (0, 0, 0))
    as (p & M & E1 & _ & E3 & _ & U); try reflexivity; try lra; try (cbn [r_eps r_well run_ex]; lra); [left; reflexivity |].
  specialize (U 5). cbv zeta in U. destruct U as (u & F & W). eexists p, M, u, _. replace (1 / 2) with (5 / 10) at 2 by lra.
  split; [exact E1 |]. split; [exact E3 |]. split; [| split; [exact F | exact W]].
  replace (8 * 1000 * (1 - 1 / 2) / (1 * - -4) * 5 / 10 ^ 6) with (5 / 1000) by field. lra.
Qed.

(** C126: for compositions that differ, mobilities are positive; that of antitrapping is the series connection of the finite interface mobility and Kim's value for local equilibrium, whose constant is the integral of h(phi)/phi. *)
Theorem C126_series : forall m r mdl n temp cl ca phi h a, 0 < m -> physical r temp -> r_interp r = PBG -> (n = 1 \/ n = 2)%nat -> r_n r = Z.of_nat n ->
  (forall x, interp_func x "p"%char = Some (h x)) -> is_RInt (fun x => h x / x) 0 1 a ->
  let V := second_variation n (r_F r temp cl) (fun i => cl i - ca i) in 0 < V ->
  exists M1 M2 M3,
    choose (Kim m (-1) None None) false false false mdl (r_n r) = Some FiniteMob /\
    evaluateMobility (Kim m (-1) None None) FiniteMob r temp cl ca phi = Some (Fin M1) /\
    choose (Kim (-1) (-1) None None) false false false mdl (r_n r) = Some InfMob /\
    evaluateMobility (Kim (-1) (-1) None None) InfMob r temp cl ca phi = Some (Fin M2) /\
    choose (Kim m (-1) None None) false true false mdl (r_n r) = Some FiniteMobAntiTrap /\
    evaluateMobility (Kim m (-1) None None) FiniteMobAntiTrap r temp cl ca phi = Some (Fin M3) /\
    0 < M1 /\ 0 < M2 /\ 0 < M3 /\
    / M1 = 3 * r_eps r / (2 * sqrt (2 * r_well r) * m) /\
    / M2 = 3 * r_eps r * r_eps r * a / (16 * r_well r) * (V / (r_DL r * exp (- r_Q0 r / (r_gasR r * temp))) / (10 ^ 6 * r_mv r)) /\
    / M3 = / M1 + / M2.
Proof. exact series. Qed.
Print Assumptions C126_series.

(** C126: for equal compositions the local equilibrium value is infinite and accepted, antitrapping falls back to the interface mobility. *)
Theorem C126_equal_refuted : forall m r n temp c phi, 0 < m -> physical r temp -> (r_interp r = PBG \/ r_interp r = HARMONIC) -> (n = 1 \/ n = 2)%nat -> r_n r = Z.of_nat n ->
  evaluateMobility (Kim (-1) (-1) None None) InfMob r temp c c phi = Some Inf /\
  evaluateMobility (Kim m (-1) None None) FiniteMobAntiTrap r temp c c phi = evaluateMobility (Kim m (-1) None None) FiniteMob r temp c c phi.
Proof. exact equal_compositions. Qed.
Print Assumptions C126_equal_refuted.

(** C126: for the cubic interpolation the constant is 1/2 instead of the integral 5/6: the mobility is too large by 5/3. *)
Theorem C126_harmonic_refuted : forall eps well h a, 0 < eps -> 0 < well -> (forall x, interp_func x "h"%char = Some (h x)) -> is_RInt (fun x => h x / x) 0 1 a ->
  exists f, kks_mobility_factor HARMONIC eps well = Some f /\ f = 5 / 3 * (16 * well / (3 * eps * eps * a)) /\ f <> 16 * well / (3 * eps * eps * a).
Proof. exact harmonic_factor. Qed.
Print Assumptions C126_harmonic_refuted.

(** C126: a positive polynomial replaces the compositions; a negative one is ignored without a message. *)
Theorem C126_polynomial : forall m tref z0 z1 z2 zLB r n temp cl ca phi, physical r temp -> (r_interp r = PBG \/ r_interp r = HARMONIC) -> (n = 1 \/ n = 2)%nat -> r_n r = Z.of_nat n -> 0 <= tref ->
  let P := z0 + z1 * (temp - tref) + z2 * (temp - tref) * (temp - tref) in
  (0 < P -> forall cl' ca', exists M, evaluateMobility (Kim m tref (Some (z0, z1, z2)) zLB) InfMob r temp cl ca phi = Some (Fin M) /\ 0 < M /\
     evaluateMobility (Kim m tref (Some (z0, z1, z2)) zLB) InfMob r temp cl' ca' phi = Some (Fin M)) /\
  (P < 0 -> evaluateMobility (Kim m tref (Some (z0, z1, z2)) zLB) InfMob r temp cl ca phi = evaluateMobility (Kim m (-1) None None) InfMob r temp cl ca phi).
Proof. exact polynomial. Qed.
Print Assumptions C126_polynomial.

(** C126: so the mobility has no limit where the polynomial changes sign. *)
Theorem C126_jump_refuted : forall m r n T0 zLB cl ca phi bound, physical r T0 -> (r_interp r = PBG \/ r_interp r = HARMONIC) -> (n = 1 \/ n = 2)%nat -> r_n r = Z.of_nat n ->
  exists d, 0 < d /\ (forall T, T0 < T < T0 + d -> exists M, evaluateMobility (Kim m T0 (Some (0, 1, 0)) zLB) InfMob r T cl ca phi = Some (Fin M) /\ bound < M) /\
    (forall T, 0 < T < T0 -> evaluateMobility (Kim m T0 (Some (0, 1, 0)) zLB) InfMob r T cl ca phi = evaluateMobility (Kim m (-1) None None) InfMob r T cl ca phi).
Proof. exact polynomial_jump. Qed.
Print Assumptions C126_jump_refuted.

(** one component, composition difference 1/2, curvature 1 *)
Example C126_ex : exists M1 M2 M3, evaluateMobility (Kim 2 (-1) None None) FiniteMob run_ex 1000 (fun _ => 1 / 2) (fun _ => 0) (0, 0, 0) = Some (Fin M1) /\
  evaluateMobility (Kim (-1) (-1) None None) InfMob run_ex 1000 (fun _ => 1 / 2) (fun _ => 0) (0, 0, 0) = Some (Fin M2) /\
  evaluateMobility (Kim 2 (-1) None None) FiniteMobAntiTrap run_ex 1000 (fun _ => 1 / 2) (fun _ => 0) (0, 0, 0) = Some (Fin M3) /\ M3 < M1 /\ M3 < M2.
Proof.
  destruct (C126_series 2 run_ex Calphad 1 1000 (fun _ => 1 / 2) (fun _ => 0) (0, 0, 0) (fun x => clamp01 x * clamp01 x * clamp01 x * (10 - 15 * clamp01 x + 6 * clamp01 x * clamp01 x)) (47 / 60))
    as (M1 & M2 & M3 & _ & E1 & _ & E2 & _ & E3 & P1 & P2 & P3 & _ & _ & S); try reflexivity; try lra.
  - unfold physical. cbn [r_eps r_well r_mv r_DL run_ex]. lra.
  - left; reflexivity.
  - eapply is_RInt_ext; [| exact a2_PBG]. intros x Hx. rewrite Rmin_left, Rmax_right in Hx by lra. rewrite clamp_in by lra. reflexivity.
  - unfold second_variation, sum_to. cbn [r_F run_ex]. lra.
  - exists M1, M2, M3. pose proof (Rinv_0_lt_compat _ P1). pose proof (Rinv_0_lt_compat _ P2). repeat split; auto.
    + apply Rinv_lt_cancel; lra.
    + apply Rinv_lt_cancel; lra.
Qed.

(** C127: Kim's mobility is evaluated in every cell, ghosts included, with the temperature and compositions of that cell, for all boxes and ghost widths in two and three dimensions; nothing else is written. *)
Theorem C127_kim : forall (V : Type) three_d b teg cig phig mog with_b (ev : R -> (Z -> R) -> (Z -> R) -> R * R * R -> option V) te cl ca phi mob val,
  box_ok three_d b -> ghosts_ok three_d teg -> ghosts_ok three_d cig -> ghosts_ok three_d mog -> at_least teg mog -> at_least cig mog ->
  (with_b = true -> phig = cig) ->
  (forall i j k, in_pbox (ghost_box b mog) i j k ->
     let T := stored_at (ghost_box b teg) i j k in let C := stored_at (ghost_box b cig) i j k in let P := stored_at (ghost_box b phig) i j k in
     ev (te T) (fun ic => cl ic C) (fun ic => ca ic C) (if with_b then (phi 0%Z P, phi 1%Z P, phi 2%Z P) else (0, 0, 0)%R) = Some (val i j k)) ->
  exists m, kim_update three_d b teg cig phig mog with_b ev te cl ca phi mob = Some m /\
    (forall i j k, in_pbox (ghost_box b mog) i j k -> m (stored_at (ghost_box b mog) i j k) = val i j k) /\
    (forall n, (n < 0 \/ array_size (ghost_box b mog) <= n)%Z -> m n = mob n).
Proof. exact kim_cells. Qed.
Print Assumptions C127_kim.

(** C127: so are the phase compositions of a dilute alloy, starting from those of the same cell. *)
Theorem C127_dilute : forall three_d b teg pfg cig solve te pf conc cl ca sol,
  box_ok three_d b -> ghosts_ok three_d teg -> ghosts_ok three_d pfg -> ghosts_ok three_d cig -> at_least teg cig -> at_least pfg cig ->
  (forall i j k, in_pbox (ghost_box b cig) i j k ->
     let T := stored_at (ghost_box b teg) i j k in let P := stored_at (ghost_box b pfg) i j k in let C := stored_at (ghost_box b cig) i j k in
     solve (te T) (conc P) (pf P) (cl C, ca C) = Some (sol i j k)) ->
  exists cl' ca', dilute_update three_d b teg pfg cig solve te pf conc cl ca = Some (cl', ca') /\
    (forall i j k, in_pbox (ghost_box b cig) i j k -> (cl' (stored_at (ghost_box b cig) i j k), ca' (stored_at (ghost_box b cig) i j k)) = sol i j k) /\
    (forall n, (n < 0 \/ array_size (ghost_box b cig) <= n)%Z -> cl' n = cl n /\ ca' n = ca n).
Proof. exact dilute_cells. Qed.
Print Assumptions C127_dilute.

(** two cells, temperature with two ghosts: the corners of the mobility get the temperature of the same cell *)
Example C127_ex : exists m, kim_update false (mk_pbox 0 1 0 0 0 0) (mk_gwidth 2 2 0) (mk_gwidth 1 1 0) (mk_gwidth 1 1 0) (mk_gwidth 1 1 0) false
    (fun T _ _ _ => Some T) IZR (fun _ _ => 0) (fun _ _ => 0) (fun _ _ => 0) (fun _ => 0) = Some m /\ m 0%Z = 7 /\ m 11%Z = 22.
Proof.
  destruct (C127_kim R false (mk_pbox 0 1 0 0 0 0) (mk_gwidth 2 2 0) (mk_gwidth 1 1 0) (mk_gwidth 1 1 0) (mk_gwidth 1 1 0) false
    (fun T _ _ _ => Some T) IZR (fun _ _ => 0) (fun _ _ => 0) (fun _ _ => 0) (fun _ => 0)
    (fun i j k => IZR (stored_at (ghost_box (mk_pbox 0 1 0 0 0 0) (mk_gwidth 2 2 0)) i j k))) as (m & E & V & _);
    try (unfold box_ok, ghosts_ok, at_least; cbn; lia); try reflexivity; try discriminate.
  exists m. split; [exact E |]. split.
  - pose proof (V (-1) (-1) 0)%Z as X. cbn in X. apply X. unfold in_pbox; cbn. lia.
  - pose proof (V 2 1 0)%Z as X. cbn in X. apply X. unfold in_pbox; cbn. lia.
Qed.
