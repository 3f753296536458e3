(** C97-C102: Cahn-Hilliard and sintering runs. *)
From Coq Require Import Reals ZArith List Bool Lra Lia.
From Coquelicot Require Import Coquelicot.
From Verif Require Import Grid_Model Grid_Spec Grid_Proofs Transport_Model Transport_Spec Transport_Proofs Forces_Model Forces_Spec Forces_Proofs.
From Verif Require Import PhaseFlow_Model PhaseFlow_Spec PhaseFlow_Proofs Sintering_Model Sintering_Spec Sintering_Proofs.
Open Scope R_scope.

(** C97: along every solution of the Cahn-Hilliard rates on a box with periodic or mirrored sides the mass is constant and the discrete energy does not grow. *)
Theorem C97_cahn_hilliard : forall cx cy b m ca cb kappa ws T c old, nonempty b -> h1 b <> 0 -> h2 b <> 0 -> 0 <= m ->
  (forall t, extended cx cy b (c t)) ->
  follows b T c (fun t => cahn_hilliard_rhs b m ca cb kappa ws (c t) (old t)) ->
  forall s t, 0 <= s <= t -> t <= T ->
    sum_cells b (c t) = sum_cells b (c s) /\ ch_total b ca cb kappa ws (c t) <= ch_total b ca cb kappa ws (c s).
Proof. exact ch_descends. Qed.
Print Assumptions C97_cahn_hilliard.

(** two cells, periodic: the difference decays, here 1/4 + 1/4 exp(-16 t) and 3/4 - 1/4 exp(-16 t) shifted to mean 1/2 *)
Definition alt (i : Z) : R := if Z.even i then 1 else Ropp 1.
Lemma alt_next : forall i, alt (i + 1) = - alt i.
Proof. intro i. unfold alt. rewrite Z.even_add. change (Z.even 1) with false. destruct (Z.even i); cbn [Bool.eqb]; lra. Qed.
Lemma alt_prev : forall i, alt (i - 1) = - alt i.
Proof. intro i. replace (alt i) with (- alt (i - 1)); [ring |]. rewrite <- alt_next. f_equal. lia. Qed.
Lemma alt_two : forall i, alt (i + 2) = alt i.
Proof. intro i. replace (i + 2)%Z with (i + 1 + 1)%Z by lia. rewrite !alt_next. ring. Qed.
Definition pair_box : pbox := mk_pbox 0 1 0 0 1 1.
Example C97_ex : let c := fun t i (_ : Z) => 1 / 2 + alt i * (1 / 4 * exp (-16 * t)) in
  (forall t, extended Periodic Periodic pair_box (c t)) /\
  (forall T old, follows pair_box T c (fun t => cahn_hilliard_rhs pair_box 1 0 1 1 0 (c t) (old t))) /\
  (forall t, sum_cells pair_box (c t) = 1 /\ ch_total pair_box 0 1 1 0 (c t) = 1 / 4 * exp (-16 * t) ^ 2).
Proof.
  intro c. split; [| split].
  - intro t. split; [intros j i; unfold c; cbn [pair_box lo0 hi0]; change (1 - 0 + 1)%Z with 2%Z; rewrite alt_two; reflexivity | intros i j; reflexivity].
  - intros T old t i j Ht Hij. cbv beta. rewrite ch_rhs_val by (auto; cbn; lra).
    replace (1 * _) with (alt i * (1 / 4 * (-16 * exp (-16 * t)))).
    + apply is_derive_Reals. unfold c. auto_derive; [auto | ring].
    + unfold diverg, mdiff0, mdiff1, ch_mu, laplace, c. cbn [pair_box h1 h2].
      rewrite ?alt_next, ?alt_prev, ?alt_next, ?alt_prev. field.
  - intro t. unfold ch_total, ch_energy, gradient_energy, sum_cells, sum_box. cbn [pair_box lo0 hi0 lo1 hi1 h1 h2].
    split; repeat (first [rewrite sumZ_cons by lia | rewrite sumZ_empty by lia]); unfold c, alt; cbn [Z.add Z.sub Z.opp Z.pos_sub Z.even Pos.add]; field.
Qed.

(** C98: the same for sintering runs with any number of order parameters and coefficients that vary in space and time; the energy has the gradient coefficients beta for the composition and epsilon^3/2 for the order parameters. *)
Theorem C98_sintering : forall cx cy p T m d0 d1 c phi, nonempty (sb p) -> h1 (sb p) <> 0 -> h2 (sb p) <> 0 -> (1 < sn p)%Z -> skind p = FluxSimple ->
  (forall t, 0 <= t <= T -> dissipative (sb p) (m t) (d0 t) (d1 t) /\ faces_match cx cy (sb p) (d0 t) (d1 t)) ->
  (forall t, extended cx cy (sb p) (c t)) -> (forall t k, (1 <= k <= sn p)%Z -> extended cx cy (sb p) (fun i j => phi t i j k)) ->
  sinter_run p T m d0 d1 c phi ->
  forall s t, 0 <= s <= t -> t <= T ->
    sum_cells (sb p) (c t) = sum_cells (sb p) (c s) /\
    sinter_total (sb p) (sA p) (sB p) (sn p) (skappa p) (seps p ^ 3 / 2) (c t) (phi t) <=
    sinter_total (sb p) (sA p) (sB p) (sn p) (skappa p) (seps p ^ 3 / 2) (c s) (phi s).
Proof. exact sinter_descends. Qed.
Print Assumptions C98_sintering.

(** two grains that exchange places in two cells, flat free energy *)
Definition flat_problem : sinter := mk_sinter pair_box 2 1 0 0 0 1 (fun _ _ => 1) (fun _ _ => 1) (fun _ _ => 1) FluxSimple.
Definition two_grains : R -> arr3 := fun t i _ k => 1 / 2 + (if (k =? 1)%Z then 1 else Ropp 1) * (alt i * (1 / 2 * exp (-2 * t))).
Lemma two_grains_run : forall T, sinter_run flat_problem T (fun _ _ _ => 1) (fun _ _ _ => 1) (fun _ _ _ => 1) (fun _ _ _ => 1) two_grains.
Proof.
  intro T. exists (fun _ => (fun _ _ => 0, fun _ _ => 0)), (fun _ _ _ => 0), (fun _ _ _ => 0), (fun _ _ _ _ => 0), (fun _ _ _ _ => 0), (fun _ _ _ _ => 0). split.
  - intros t i j Ht Hij. cbv beta. rewrite wang_conc_val by (cbn; auto; try lra; lia).
    match goal with |- derivable_pt_lim _ _ ?x => replace x with 0; [apply derivable_pt_lim_const |] end.
    unfold diverg, mdiff0, mdiff1, wang_mu, laplace. cbn [at_time flat_problem sb sn sA sB skappa scm sd0 sd1 pair_box h1 h2]. field.
  - intros k Hk t i j Ht Hij. cbv beta. rewrite wang_phase_simple by (cbn; auto; try lra; lia).
    match goal with |- derivable_pt_lim _ _ ?x => replace x with ((if (k =? 1)%Z then 1 else Ropp 1) * (alt i * (1 / 2 * (-2 * exp (-2 * t))))) end.
    + apply is_derive_Reals. unfold two_grains. auto_derive; [auto | ring].
    + unfold laplace, two_grains. cbn [at_time flat_problem sb sn sA sB skappa spm seps pair_box h1 h2]. rewrite ?alt_next, ?alt_prev. field.
Qed.
Lemma two_grains_extended : forall t k, extended Periodic Periodic pair_box (fun i j => two_grains t i j k).
Proof. intros t k. split; [intros j i; unfold two_grains; cbn [pair_box lo0 hi0]; change (1 - 0 + 1)%Z with 2%Z; rewrite alt_two; reflexivity | intros i j; reflexivity]. Qed.
Example C98_ex : forall s t, 0 <= s <= t ->
  sinter_total pair_box 0 0 2 0 (1 ^ 3 / 2) (fun _ _ => 1) (two_grains t) <= sinter_total pair_box 0 0 2 0 (1 ^ 3 / 2) (fun _ _ => 1) (two_grains s) /\
  sinter_total pair_box 0 0 2 0 (1 ^ 3 / 2) (fun _ _ => 1) (two_grains 0) = 1.
Proof.
  intros s t Hst. split.
  - refine (proj2 (C98_sintering Periodic Periodic flat_problem t (fun _ _ _ => 1) (fun _ _ _ => 1) (fun _ _ _ => 1) (fun _ _ _ => 1) two_grains _ _ _ _ _ _ _ _ (two_grains_run t) s t Hst _)); cbn [flat_problem sb sn skind pair_box h1 h2]; try lra; try lia; try reflexivity.
    + split; cbn; lia.
    + intros u Hu. split; [repeat split; intros; lra | split; intros; reflexivity].
    + intro u. split; intros a e; reflexivity.
    + intros u k _. apply two_grains_extended.
  - unfold sinter_total, sintering_energy, gradient_energy, sum_cells, sum_box. cbn [pair_box lo0 hi0 lo1 hi1 h1 h2].
    repeat (first [rewrite sumZ_cons by lia | rewrite sumZ_empty by lia]). unfold two_grains, alt. cbn [Z.add Z.sub Z.opp Z.pos_sub Z.even Pos.add Z.eqb Pos.eqb].
    rewrite Rmult_0_r, exp_0. field.
Qed.

(** C99: the rates of the order parameters are proportional to their mobility, those of the composition to the diffusion coefficients. *)
Theorem C99_proportional_partial : forall p c phi fx fy w w' rhs rhs' s i j k, (1 < sn p)%Z -> (1 <= k <= sn p)%Z -> h1 (sb p) <> 0 -> h2 (sb p) <> 0 -> in_cells (sb p) i j ->
  wang_phase_rhs (at_time p (fun i j => s * spm p i j) (sd0 p) (sd1 p)) c phi fx fy w rhs i j k = s * wang_phase_rhs p c phi fx fy w rhs i j k /\
  wang_conc_rhs (at_time p (spm p) (fun i j => s * sd0 p i j) (fun i j => s * sd1 p i j)) c phi w' rhs' i j = s * wang_conc_rhs p c phi w' rhs' i j.
Proof. exact scaled_rates. Qed.
Print Assumptions C99_proportional_partial.

(** C99: the rates of the composition are not proportional to the mobility of the composition. *)
Theorem C99_mobility_refuted : exists p c phi w rhs i j, (1 < sn p)%Z /\ in_cells (sb p) i j /\
  wang_conc_rhs (with_mobility p (2 * scm p)) c phi w rhs i j <> 2 * wang_conc_rhs p c phi w rhs i j.
Proof. exact mobility_wrong. Qed.
Print Assumptions C99_mobility_refuted.

(** C99: they are proportional to its square. *)
Theorem C99_mobility_squared : forall p c phi w rhs s i j, (1 <= sn p)%Z -> h1 (sb p) <> 0 -> h2 (sb p) <> 0 -> in_cells (sb p) i j ->
  wang_conc_rhs (with_mobility p (s * scm p)) c phi w rhs i j = s ^ 2 * wang_conc_rhs p c phi w rhs i j.
Proof. exact squared_mobility. Qed.
Print Assumptions C99_mobility_squared.

(** C99: the grain boundary at rest between two grains has width w with w^4 = 6 sigma delta * delta^4. *)
Theorem C99_width : forall b sigma delta a b_in be cm m d0 d1, h1 b <> 0 -> h2 b <> 0 -> 0 < sigma -> 0 < delta ->
  let p := sinter_of_input b sigma delta a b_in be cm m d0 d1 in
  exists kappa, relaxes p kappa /\ forall w, 0 < w -> (balanced kappa (sA p) (sB p) w <-> w ^ 4 = 6 * sigma * delta * delta ^ 4).
Proof. exact width_of_input. Qed.
Print Assumptions C99_width.

(** C99: so it is not delta, for instance for sigma = delta = 1. *)
Theorem C99_width_refuted : forall b a b_in be cm m d0 d1, h1 b <> 0 -> h2 b <> 0 ->
  let p := sinter_of_input b 1 1 a b_in be cm m d0 d1 in exists kappa, relaxes p kappa /\ ~ balanced kappa (sA p) (sB p) 1.
Proof. exact width_wrong. Qed.
Print Assumptions C99_width_refuted.

Example C99_ex : (* twice the mobility, four times the rate; with 6 sigma delta = 1 the width is right *)
  wang_conc_rhs (step_problem 1) step_conc (fun _ _ _ => 0) (fun _ _ => 0, fun _ _ => 0) (fun _ _ => 0) 0%Z 0%Z = 2 /\
  wang_conc_rhs (step_problem 2) step_conc (fun _ _ _ => 0) (fun _ _ => 0, fun _ _ => 0) (fun _ _ => 0) 0%Z 0%Z = 8 /\
  exists kappa, relaxes (sinter_of_input unit_box (1 / 6) 1 0 0 0 1 (fun _ _ => 1) (fun _ _ => 1) (fun _ _ => 1)) kappa /\ balanced kappa (5 / 24) (1 / 24) 1.
Proof.
  rewrite !step_value. split; [lra |]. split; [lra |].
  destruct (C99_width unit_box (1 / 6) 1 0 0 0 1 (fun _ _ => 1) (fun _ _ => 1) (fun _ _ => 1)) as (k & R & W); [cbn; lra | cbn; lra | lra | lra |].
  exists k. split; [exact R |]. assert (B : balanced k (sA (sinter_of_input unit_box (1 / 6) 1 0 0 0 1 (fun _ _ => 1) (fun _ _ => 1) (fun _ _ => 1)))
     (sB (sinter_of_input unit_box (1 / 6) 1 0 0 0 1 (fun _ _ => 1) (fun _ _ => 1) (fun _ _ => 1))) 1) by (apply W; lra).
  unfold sinter_of_input, read_wang in B. destruct (Rlt_dec 0 (1 / 6)); [| lra]. destruct (Rlt_dec 0 1); [| lra]. cbn [sA sB] in B.
  replace (5 / 24) with (5 * (1 / 6) / (4 * 1)) by lra. replace (1 / 24) with (1 / 6 / (4 * 1)) by lra. exact B.
Qed.

(** C100: the bulk energy of admissible values is never negative and is zero exactly in the void and inside a single grain. *)
Theorem C100_minima : forall A B n c phi, 0 <= A -> 0 < B -> 0 <= c <= 1 -> (forall k, (1 <= k <= n)%Z -> 0 <= phi k <= 1) ->
  0 <= sintering_energy A B n phi c /\
  (sintering_energy A B n phi c = 0 <-> void_state n c phi \/ exists k, (1 <= k <= n)%Z /\ grain_state n k c phi).
Proof. exact minima. Qed.
Print Assumptions C100_minima.

(** C100: a box filled with void or with one grain does not change. *)
Theorem C100_stationary : forall p c phi c0 phi0 fx fy w w' rhs rhs' i j k, (1 < sn p)%Z -> (1 <= k <= sn p)%Z -> skind p = FluxSimple ->
  h1 (sb p) <> 0 -> h2 (sb p) <> 0 -> in_cells (sb p) i j -> uniform_state c phi c0 phi0 ->
  void_state (sn p) c0 phi0 \/ (exists q, (1 <= q <= sn p)%Z /\ grain_state (sn p) q c0 phi0) ->
  wang_phase_rhs p c phi fx fy w rhs i j k = 0 /\ wang_conc_rhs p c phi w' rhs' i j = 0.
Proof. exact stationary. Qed.
Print Assumptions C100_stationary.

Example C100_ex : sintering_energy 0 1 2 (fun _ => 1 / 2) 1 = 3 / 4 /\ sintering_energy 1 1 2 (fun k => if (k =? 1)%Z then 1 else 0) 1 = 0 /\
  sintering_energy 1 1 2 (fun _ => 0) 1 = 1.
Proof. unfold sintering_energy, sq_sum, cu_sum. repeat (first [rewrite sumZ_cons by lia | rewrite sumZ_empty by lia]). cbn [Z.eqb Z.add Pos.eqb Pos.add]. lra. Qed.

(** C101: order parameters that start in [0,1] stay there, whatever the composition does. *)
Theorem C101_bounds : forall cx cy p T Mb m d0 d1 c phi, nonempty (sb p) -> h1 (sb p) <> 0 -> h2 (sb p) <> 0 -> (1 < sn p)%Z -> skind p = FluxSimple ->
  0 <= seps p -> 0 <= sB p -> 0 <= T ->
  (forall t i j, 0 <= t <= T -> in_cells (sb p) i j -> 0 <= m t i j <= Mb) ->
  (forall t k, 0 <= t <= T -> (1 <= k <= sn p)%Z -> filled cx cy (sb p) (fun i j => phi t i j k)) ->
  sinter_run p T m d0 d1 c phi ->
  forall k, (1 <= k <= sn p)%Z -> (forall i j, in_cells (sb p) i j -> 0 <= phi 0 i j k <= 1) ->
  forall t i j, 0 <= t <= T -> in_cells (sb p) i j -> 0 <= phi t i j k <= 1.
Proof. exact stay_bounded. Qed.
Print Assumptions C101_bounds.

Example C101_ex : forall t, 0 <= t -> two_grains 0 0%Z 0%Z 1%Z = 1 /\ 0 <= two_grains t 1%Z 0%Z 1%Z <= 1.
Proof.
  intros t Ht. assert (E : forall i j k, (1 <= k <= 2)%Z -> two_grains 0 i j k = 0 \/ two_grains 0 i j k = 1).
  { intros i j k Hk. unfold two_grains, alt. rewrite Rmult_0_r, exp_0. destruct (k =? 1)%Z, (Z.even i); (left; lra) || (right; lra). }
  split; [unfold two_grains, alt; rewrite Rmult_0_r, exp_0; cbn; lra |].
  apply (C101_bounds Periodic Periodic flat_problem t 1 (fun _ _ _ => 1) (fun _ _ _ => 1) (fun _ _ _ => 1) (fun _ _ _ => 1) two_grains); cbn [flat_problem sb sn skind seps sB pair_box h1 h2]; try lra; try lia; try reflexivity.
  - split; cbn; lia.
  - intros; lra.
  - intros u k _ _. apply extended_filled, two_grains_extended.
  - apply two_grains_run.
  - intros i j _. destruct (E i j 1%Z ltac:(lia)) as [-> | ->]; lra.
  - split; cbn; lia.
Qed.

(** C102: every order parameter but the last moves with its velocity. *)
Theorem C102_motion : forall b n v phi rhs i j k, (1 <= n)%Z -> in_cells b i j ->
  rb_phase b n v phi rhs i j k = rhs i j k - (if ((1 <=? k) && (k <=? n - 1))%Z then v k 0%Z * cgrad b (fun a e => phi a e k) 0 i j + v k 1%Z * cgrad b (fun a e => phi a e k) 1 i j else 0).
Proof. exact rb_phase_value. Qed.
Print Assumptions C102_motion.

(** C102: the composition moves with the same fields and velocities. *)
Theorem C102_composition : forall b n v phi rhs i j, (1 <= n)%Z -> in_cells b i j ->
  rb_conc b n v phi rhs i j = rhs i j - sumZ 1 (n - 1) (fun k => v k 0%Z * cgrad b (fun a e => phi a e k) 0 i j + v k 1%Z * cgrad b (fun a e => phi a e k) 1 i j).
Proof. exact rb_conc_value. Qed.
Print Assumptions C102_composition.

(** C102: on a periodic box the motion changes neither the mass nor the volume of a grain. *)
Theorem C102_conservation : forall b n v phi rhs, (1 <= n)%Z -> nonempty b -> (forall k, (1 <= k < n)%Z -> extended Periodic Periodic b (fun i j => phi i j k)) ->
  sum_cells b (rb_conc b n v phi rhs) = sum_cells b rhs /\
  forall k, (1 <= k <= n)%Z -> sum_cells b (fun i j => rb_phase b n v phi (fun i j q => rhs i j) i j k) = sum_cells b rhs.
Proof. exact rb_mass. Qed.
Print Assumptions C102_conservation.

(** C102: the velocity of a grain is mobility over volume times external force plus pair forces. *)
Theorem C102_velocity : forall n nop mob b weight phi ext pair i d, (1 <= i < n)%Z ->
  rb_velocity n nop mob b weight phi ext pair i d =
  mob / sum_cells b (fun k l => phi k l i * weight k l) * (ext d + sumZ 1 nop (fun j => if (j =? i)%Z then 0 else pair i j d)).
Proof. exact velocity_val. Qed.
Print Assumptions C102_velocity.

(** C102: with the default number of moving grains (all but the last order parameter) and antisymmetric pair forces the internal forces cancel. *)
Theorem C102_momentum_partial : forall n ext pair mob b weight phi d, (2 <= n)%Z ->
  (forall i j, (1 <= i < n)%Z -> (1 <= j < n)%Z -> pair i j d = - pair j i d) ->
  (forall i, (1 <= i < n)%Z -> sum_cells b (fun k l => phi k l i * weight k l) <> 0) ->
  let '(na, nb) := read_norder n None in
  sumZ 1 (n - 1) (fun i => sum_cells b (fun k l => phi k l i * weight k l) * rb_velocity n (na + nb) mob b weight phi ext pair i d) = mob * (IZR (n - 1) * ext d).
Proof. exact default_momentum. Qed.
Print Assumptions C102_momentum_partial.

(** C102: the last order parameter never moves; with norderp_A = norderp, as in sintering, it is a grain and the pair force on it is lost. *)
Theorem C102_last_grain_refuted : (forall b n v phi rhs i j, (1 <= n)%Z -> in_cells b i j -> rb_phase b n v phi rhs i j n = rhs i j n) /\
  (let '(na, nb) := read_norder 2 (Some 2%Z) in let F := rb_force 2 (na + nb) (fun _ => 0) touching_pair in
   touching_pair 1 2 0 = - touching_pair 2 1 0 /\ F 1%Z 0%Z = Ropp 2 /\ F 2%Z 0%Z = 0).
Proof. exact last_grain. Qed.
Print Assumptions C102_last_grain_refuted.

Example C102_ex : (* one cell of grain 1 in a row of four, velocity 1: it moves right, and so does the composition; grain 2 stays *)
  let b := mk_pbox 0 3 0 0 1 1 in let v := fun _ d => if (d =? 0)%Z then 1 else 0 in
  let phi : arr3 := fun i _ k => if (k =? 1)%Z then (if (i mod 4 =? 1)%Z then 1 else 0) else (if (i mod 4 =? 2)%Z then 1 else 0) in
  rb_phase b 2 v phi (fun _ _ _ => 0) 2%Z 0%Z 1%Z = 1 / 2 /\ rb_phase b 2 v phi (fun _ _ _ => 0) 0%Z 0%Z 1%Z = - (1 / 2) /\
  rb_conc b 2 v phi (fun _ _ => 0) 2%Z 0%Z = 1 / 2 /\ rb_phase b 2 v phi (fun _ _ _ => 0) 3%Z 0%Z 2%Z = 0.
Proof.
  intros b v phi. split; [| split; [| split]].
  1, 2, 4: rewrite C102_motion by (try lia; split; cbn; lia); unfold cgrad, b, v, phi; cbn [h1 h2]; cbn -[Rdiv Rmult Rplus Rminus]; lra.
  rewrite C102_composition by (try lia; split; cbn; lia). rewrite sumZ_cons, sumZ_empty by lia. unfold cgrad, b, v, phi; cbn [h1 h2]; cbn -[Rdiv Rmult Rplus Rminus]; lra.
Qed.
