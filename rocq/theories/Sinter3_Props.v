(** C194-C197: Cahn-Hilliard, sintering and multi-order-parameter rates in three dimensions, rigid motion. *)
From Coq Require Import Reals ZArith List Bool Lia Lra FunctionalExtensionality.
From Coquelicot Require Import Coquelicot.
From Verif Require Import Grid_Model Grid_Spec Grid_Proofs Transport_Model Transport_Spec Trap3_Model Trap3_Spec Sinter3_Model Sinter3_Spec Sinter3_Proofs.
From Verif Require PhaseFlow_Model PhaseFlow_Spec Sintering_Model Sintering_Spec.
Open Scope R_scope.
Set Bullet Behavior "Strict Subproofs".

(** C194: along any solution of the semi-discrete Cahn-Hilliard equation on a box, periodic or mirrored along each axis, the mass stays and the energy does not grow. *)
Theorem C194_cahn_hilliard : forall cx cy cz b m ca cb kappa ws T c old, nonempty3 b -> spaced3 b -> 0 <= m ->
  (forall t, extended3 cx cy cz b (c t)) ->
  follows3 b T c (fun t => cahn_hilliard_rhs3 b m ca cb kappa ws (c t) (old t)) ->
  forall s t, 0 <= s <= t -> t <= T ->
    sum_cells3 b (c t) = sum_cells3 b (c s) /\ ch_total3 b ca cb kappa ws (c t) <= ch_total3 b ca cb kappa ws (c s).
Proof. exact ch_descends. Qed.
Print Assumptions C194_cahn_hilliard.

(** C194: fields that do not vary along z have the rates of the plane problem. *)
Theorem C194_plane : forall b m ca cb kappa ws c rhs rhs2 i j k, spaced3 b -> in_cells3 b i j k ->
  cahn_hilliard_rhs3 b m ca cb kappa ws (flat c) rhs i j k = Sintering_Model.cahn_hilliard_rhs (plane3 b) m ca cb kappa ws c rhs2 i j.
Proof. exact ch_plane. Qed.
Print Assumptions C194_plane.

(** C194, C195: nothing is written outside the box. *)
Theorem C194_outside : forall b m ca cb kappa ws c rhs p phi old w ws' prhs i j k q,
  (~ in_cells3 b i j k -> cahn_hilliard_rhs3 b m ca cb kappa ws c rhs i j k = rhs i j k) /\
  (~ in_cells3 (tb p) i j k -> wang_conc_rhs3 p c phi ws' rhs i j k = rhs i j k) /\
  (~ (in_cells3 (tb p) i j k /\ (1 <= q <= tn p)%Z) -> wang_phase_rhs3 p c phi old w prhs i j k q = prhs i j k q).
Proof. exact rates_outside. Qed.
Print Assumptions C194_outside.

(** two cells on top of each other, periodic: the difference decays *)
Definition alt (i : Z) : R := if Z.even i then 1 else Ropp 1.
Lemma alt_next : forall i, alt (i + 1) = - alt i.
Proof. intro i. unfold alt. rewrite Z.even_add. change (Z.even 1) with false. destruct (Z.even i); cbn [Bool.eqb]; lra. Qed.
Lemma alt_prev : forall i, alt (i - 1) = - alt i.
Proof. intro i. replace (alt i) with (- alt (i - 1)); [ring |]. rewrite <- alt_next. f_equal. lia. Qed.
Lemma alt_two : forall i, alt (i + 2) = alt i.
Proof. intro i. replace (i + 2)%Z with (i + 1 + 1)%Z by lia. rewrite !alt_next. ring. Qed.
Definition tower : box3 := mk_box3 0 0 0 0 0 1 1 1 1.
Lemma tower_ok : nonempty3 tower /\ spaced3 tower.
Proof. unfold nonempty3, spaced3, tower. cbn. repeat split; try lia; lra. Qed.
Lemma tower_extended : forall f : Z -> R, (forall k, f (k + 2)%Z = f k) -> extended3 Periodic Periodic Periodic tower (fun _ _ k => f k).
Proof. intros f H. repeat split. intros i j k. cbn [tower zl zu]. change (1 - 0 + 1)%Z with 2%Z. apply H. Qed.
Definition layers (t : R) : arr3 := fun _ _ k => 1 / 2 + alt k * (1 / 4 * exp (-16 * t)).
Lemma layers_follow : forall T old, follows3 tower T layers (fun t => cahn_hilliard_rhs3 tower 1 0 1 1 0 (layers t) (old t)).
Proof.
  intros T old t i j k Ht Hij. cbv beta. rewrite ch_val by (auto; apply tower_ok).
  replace (1 * _) with (alt k * (1 / 4 * (-16 * exp (-16 * t)))).
  - apply is_derive_Reals. unfold layers. auto_derive; [auto | ring].
  - unfold diverg3, mdiff, one, ch_mu3, laplace3, layers, flux0, flux1, flux2. cbn [fst snd tower hx hy hz].
    rewrite ?alt_next, ?alt_prev, ?alt_next, ?alt_prev. field.
Qed.
Example C194_ex : forall s t, 0 <= s <= t ->
  ch_total3 tower 0 1 1 0 (layers t) <= ch_total3 tower 0 1 1 0 (layers s) /\ ch_total3 tower 0 1 1 0 (layers t) = 1 / 4 * exp (-16 * t) ^ 2.
Proof.
  intros s t Hst. split.
  - refine (proj2 (C194_cahn_hilliard Periodic Periodic Periodic tower 1 0 1 1 0 t layers (fun _ _ _ _ => 0) (proj1 tower_ok) (proj2 tower_ok) _ _ (layers_follow t _) s t Hst _)); try lra.
    intro u. apply (tower_extended (fun k => 1 / 2 + alt k * (1 / 4 * exp (-16 * u)))). intro k. rewrite alt_two. reflexivity.
  - unfold ch_total3, ch_energy, gradient_energy3, sum_cells3, sum_box3. cbn [tower xl xu yl yu zl zu hx hy hz].
    repeat (first [rewrite sumZ_cons by lia | rewrite sumZ_empty by lia]). unfold layers, alt. cbn [Z.add Z.sub Z.opp Z.pos_sub Z.even Pos.add]. field.
Qed.

(** C195: the same for sintering runs with any number of order parameters and coefficients that vary in space and time; the energy has the gradient coefficients beta for the composition and epsilon^3/2 for the order parameters. *)
Theorem C195_sintering : forall cx cy cz p T m d c phi, nonempty3 (tb p) -> spaced3 (tb p) -> (1 < tn p)%Z ->
  (forall t, 0 <= t <= T -> dissipative3 (tb p) (m t) (d t) /\ faces_match3 cx cy cz (tb p) (d t)) ->
  (forall t, extended3 cx cy cz (tb p) (c t)) -> (forall t q, (1 <= q <= tn p)%Z -> extended3 cx cy cz (tb p) (fun i j k => phi t i j k q)) ->
  sinter_run3 p T m d c phi ->
  forall s t, 0 <= s <= t -> t <= T ->
    sum_cells3 (tb p) (c t) = sum_cells3 (tb p) (c s) /\
    sinter_total3 (tb p) (tA p) (tB p) (tn p) (tkappa p) (teps p ^ 3 / 2) (c t) (phi t) <=
    sinter_total3 (tb p) (tA p) (tB p) (tn p) (tkappa p) (teps p ^ 3 / 2) (c s) (phi s).
Proof. exact sinter_descends. Qed.
Print Assumptions C195_sintering.

(** C195: the rate of an order parameter is its mobility times (epsilon^3/2 times the Laplacian minus the derivative of the free energy). *)
Theorem C195_rates : forall p c phi old w rhs i j k q e, (1 < tn p)%Z -> (1 <= q <= tn p)%Z -> in_cells3 (tb p) i j k ->
  derivable_pt_lim (fun x => sintering_energy (tA p) (tB p) (tn p) (setZ (phi i j k) q x) (c i j k)) (phi i j k q) e ->
  wang_phase_rhs3 p c phi old w rhs i j k q = tpm p i j k * (teps p ^ 3 / 2 * laplace3 (tb p) (fun a b c => phi a b c q) i j k - e).
Proof. exact sinter_rates. Qed.
Print Assumptions C195_rates.

(** C195: fields that do not vary along z have the rates of the plane problem, whatever the coefficients on the z faces. *)
Theorem C195_plane : forall b p d2 c phi old fx fy w w2 ws ws2 rhs rhs2 crhs crhs2 i j k q, Sintering_Model.sb p = plane3 b -> (1 < Sintering_Model.sn p)%Z ->
  Sintering_Model.skind p = PhaseFlow_Model.FluxSimple -> spaced3 b -> in_cells3 b i j k -> (1 <= q <= Sintering_Model.sn p)%Z ->
  wang_conc_rhs3 (lift_sinter b p d2) (flat c) (flat4 phi) ws crhs i j k = Sintering_Model.wang_conc_rhs p c phi ws2 crhs2 i j /\
  wang_phase_rhs3 (lift_sinter b p d2) (flat c) (flat4 phi) old w rhs i j k q = Sintering_Model.wang_phase_rhs p c phi fx fy w2 rhs2 i j q.
Proof. exact sinter_plane. Qed.
Print Assumptions C195_plane.

(** two grains that exchange places in the two cells of the tower, flat free energy *)
Definition ones : arr3x3 := (fun _ _ _ => 1, fun _ _ _ => 1, fun _ _ _ => 1).
Definition flat_problem : sinter3 := mk_sinter3 tower 2 1 0 0 0 1 (fun _ _ _ => 1) ones.
Definition two_grains : R -> arr4 := fun t _ _ k q => 1 / 2 + (if (q =? 1)%Z then 1 else Ropp 1) * (alt k * (1 / 2 * exp (-2 * t))).
Lemma two_grains_run : forall T, sinter_run3 flat_problem T (fun _ _ _ _ => 1) (fun _ => ones) (fun _ _ _ _ => 1) two_grains.
Proof.
  intro T. exists (fun _ => (fun _ _ _ => 0, fun _ _ _ => 0)), (fun _ _ _ _ => 0), (fun _ _ _ _ => 0), (fun _ => (fun _ _ _ _ => 0, fun _ _ _ _ => 0, fun _ _ _ _ => 0)), (fun _ _ _ _ _ => 0). split.
  - intros t i j k Ht Hij. cbv beta. rewrite conc_val by (first [apply tower_ok | assumption | cbn; lia]).
    match goal with |- derivable_pt_lim _ _ ?x => replace x with 0; [apply derivable_pt_lim_const |] end.
    unfold diverg3, mdiff, scaled, wang_mu3, laplace3, flux0, flux1, flux2. cbn [fst snd at_time3 flat_problem tb tn tA tB tkappa tcm tdiff tower hx hy hz ones]. field.
  - intros q Hq t i j k Ht Hij. cbv beta. rewrite phase_val by (first [assumption | cbn; lia]).
    match goal with |- derivable_pt_lim _ _ ?x => replace x with ((if (q =? 1)%Z then 1 else Ropp 1) * (alt k * (1 / 2 * (-2 * exp (-2 * t))))) end.
    + apply is_derive_Reals. unfold two_grains. auto_derive; [auto | ring].
    + unfold laplace3, component, two_grains. cbn [at_time3 flat_problem tb tn tA tB tkappa tpm teps tower hx hy hz]. rewrite ?alt_next, ?alt_prev. field.
Qed.
Example C195_ex : forall s t, 0 <= s <= t ->
  sinter_total3 tower 0 0 2 0 (1 ^ 3 / 2) (fun _ _ _ => 1) (two_grains t) <= sinter_total3 tower 0 0 2 0 (1 ^ 3 / 2) (fun _ _ _ => 1) (two_grains s) /\
  sinter_total3 tower 0 0 2 0 (1 ^ 3 / 2) (fun _ _ _ => 1) (two_grains 0) = 1.
Proof.
  intros s t Hst. split.
  - refine (proj2 (C195_sintering Periodic Periodic Periodic flat_problem t (fun _ _ _ _ => 1) (fun _ => ones) (fun _ _ _ _ => 1) two_grains (proj1 tower_ok) (proj2 tower_ok) _ _ _ _ (two_grains_run t) s t Hst _)); cbn [flat_problem tb tn]; try lra; try lia.
    + intros u Hu. split; [repeat split; intros; cbn; lra | repeat split; intros; reflexivity].
    + intro u. apply (tower_extended (fun _ => 1)). reflexivity.
    + intros u q _. apply (tower_extended (fun k => 1 / 2 + (if (q =? 1)%Z then 1 else Ropp 1) * (alt k * (1 / 2 * exp (-2 * u))))). intro k. rewrite alt_two. reflexivity.
  - unfold sinter_total3, sintering_energy, gradient_energy3, sum_cells3, sum_box3. cbn [tower xl xu yl yu zl zu hx hy hz].
    repeat (first [rewrite sumZ_cons by lia | rewrite sumZ_empty by lia]). unfold two_grains, alt. cbn [Z.add Z.sub Z.opp Z.pos_sub Z.even Pos.add Z.eqb Pos.eqb].
    rewrite Rmult_0_r, exp_0. field.
Qed.

(** C196: what the right-hand side is: the factor of the coupling is (sum of squares) - phi, not - phi^2, as in two dimensions. *)
Theorem C196_rhs_value_partial : forall b n f gamma m phi w rhs i j k p, in_cells3 b i j k -> (1 <= p <= n)%Z ->
  computerhsmultiorder3 b n f gamma m phi w rhs i j k p =
  diverg3 b (part3 f p) i j k - m * (phi i j k p ^ 3 - phi i j k p + 2 * gamma * phi i j k p * (sq_sum n (phi i j k) - phi i j k p)).
Proof. exact multiorder_value. Qed.
Print Assumptions C196_rhs_value_partial.

(** C196: nothing is written outside the box or to other components. *)
Theorem C196_outside_partial : forall b n f gamma m phi w rhs i j k p, ~ (in_cells3 b i j k /\ (1 <= p <= n)%Z) ->
  computerhsmultiorder3 b n f gamma m phi w rhs i j k p = rhs i j k p.
Proof. exact multiorder_outside. Qed.
Print Assumptions C196_outside_partial.

(** C196: fields that do not vary along z have the rates of the plane problem. *)
Theorem C196_plane_partial : forall b n f0 f1 f2 gamma m phi w w2 rhs rhs2 i j k p, hx b <> 0 -> hy b <> 0 -> in_cells3 b i j k -> (1 <= p <= n)%Z ->
  (forall i j k, f2 i j k p = 0) ->
  computerhsmultiorder3 b n (flat4 f0, flat4 f1, f2) gamma m (flat4 phi) w rhs i j k p =
  Transport_Model.computerhsmultiorder (xl b) (xu b) (yl b) (yu b) n (hx b) (hy b) f0 f1 gamma m phi w2 rhs2 i j p.
Proof. exact multiorder_plane. Qed.
Print Assumptions C196_plane_partial.

(** C196: refuted: the bulk part is the gradient flow of the energy exactly where the order parameter is 0 or 1, so not in any interface. *)
Theorem C196_gradient_flow_refuted : forall b n f gamma m phi w rhs i j k p, in_cells3 b i j k -> (1 <= p <= n)%Z -> m <> 0 -> gamma <> 0 ->
  let r := computerhsmultiorder3 b n f gamma m phi w rhs i j k p in
  derivable_pt_lim (fun x => moelans_energy m gamma n (setZ (phi i j k) p x)) (phi i j k p) (diverg3 b (part3 f p) i j k - r)
  <-> phi i j k p = 0 \/ phi i j k p = 1.
Proof. exact multiorder_gradient. Qed.
Print Assumptions C196_gradient_flow_refuted.

Example C196_ex : (* two grains, phi = 1/2 each: rate 3/8 although the derivative of the energy is 0 *)
  let none : arr4x3 := (fun _ _ _ _ => 0, fun _ _ _ _ => 0, fun _ _ _ _ => 0) in
  computerhsmultiorder3 tower 2 none (3 / 2) 1 (fun _ _ _ _ => 1 / 2) (fun _ _ _ => 0) (fun _ _ _ _ => 0) 0%Z 0%Z 1%Z 1%Z = 3 / 8 /\
  derivable_pt_lim (fun x => moelans_energy 1 (3 / 2) 2 (setZ (fun _ => 1 / 2) 1%Z x)) (1 / 2) 0.
Proof.
  cbv zeta. split.
  - rewrite C196_rhs_value_partial by (try lia; unfold in_cells3, in_box3, tower; cbn; lia).
    unfold diverg3, part3, flux0, flux1, flux2, sq_sum. cbn [fst snd tower hx hy hz]. rewrite !sumZ_cons by lia. rewrite sumZ_empty by lia. field.
  - pose proof (Transport_Proofs.moelans_deriv 1 (3 / 2) 2 (fun _ => 1 / 2) 1%Z ltac:(lia)) as D. cbv beta in D.
    replace 0 with (1 * ((1 / 2) ^ 3 - 1 / 2 + 2 * (3 / 2) * (1 / 2) * (sq_sum 2 (fun _ => 1 / 2) - (1 / 2) ^ 2))); [exact D |].
    unfold sq_sum. rewrite !sumZ_cons by lia. rewrite sumZ_empty by lia. field.
Qed.

(** C197: rigid motion adds - v.grad(phi) to the rate of every order parameter but the last on the cells of the box, and nothing elsewhere. *)
Theorem C197_phases : forall b n v phi rhs i j k q, (1 <= n)%Z ->
  (in_cells3 b i j k -> (1 <= q < n)%Z -> rb_phase3 b n v phi rhs i j k q = rhs i j k q - advection b (v q) (fun a e c => phi a e c q) i j k) /\
  (~ in_cells3 b i j k \/ ~ (1 <= q < n)%Z -> rb_phase3 b n v phi rhs i j k q = rhs i j k q).
Proof. exact rb_phase_value. Qed.
Print Assumptions C197_phases.

(** C197: the composition gets the sum of these terms. *)
Theorem C197_composition : forall b n v phi rhs i j k, (1 <= n)%Z ->
  (in_cells3 b i j k -> rb_conc3 b n v phi rhs i j k = rhs i j k - sumZ 1 (n - 1) (fun q => advection b (v q) (fun a e c => phi a e c q) i j k)) /\
  (~ in_cells3 b i j k -> rb_conc3 b n v phi rhs i j k = rhs i j k).
Proof. exact rb_conc_value. Qed.
Print Assumptions C197_composition.

(** C197: on a periodic box the volume of every order parameter and the mass are kept. *)
Theorem C197_kept : forall b n v phi rhs crhs, (1 <= n)%Z -> nonempty3 b ->
  (forall q, (1 <= q < n)%Z -> extended3 Periodic Periodic Periodic b (fun i j k => phi i j k q)) ->
  sum_cells3 b (rb_conc3 b n v phi crhs) = sum_cells3 b crhs /\
  forall q, sum_cells3 b (fun i j k => rb_phase3 b n v phi rhs i j k q) = sum_cells3 b (fun i j k => rhs i j k q).
Proof. exact rb_mass. Qed.
Print Assumptions C197_kept.

(** C197: fields that do not vary along z move as in the plane. *)
Theorem C197_plane : forall b n v phi rhs crhs i j k q, (1 <= n)%Z -> in_cells3 b i j k ->
  rb_phase3 b n v (flat4 phi) (flat4 rhs) i j k q = Sintering_Model.rb_phase (plane3 b) n v phi rhs i j q /\
  rb_conc3 b n v (flat4 phi) (flat crhs) i j k = Sintering_Model.rb_conc (plane3 b) n v phi crhs i j.
Proof. exact rb_plane. Qed.
Print Assumptions C197_plane.

Example C197_ex : (* upward motion with speed 3 along a slope of 1/2: rate - 3/2; the last order parameter stays *)
  let v := fun q d : Z => if (d =? 2)%Z then 3 else 0 in
  let phi : arr4 := fun _ _ k _ => IZR k / 2 in
  rb_phase3 tower 2 v phi (fun _ _ _ _ => 0) 0%Z 0%Z 1%Z 1%Z = - (3 / 2) /\ rb_phase3 tower 2 v phi (fun _ _ _ _ => 0) 0%Z 0%Z 1%Z 2%Z = 0 /\
  rb_conc3 tower 2 v phi (fun _ _ _ => 0) 0%Z 0%Z 1%Z = - (3 / 2).
Proof.
  cbv zeta. assert (I : in_cells3 tower 0 0 1) by (unfold in_cells3, in_box3, tower; cbn; lia). split; [| split].
  - rewrite (proj1 (C197_phases tower 2 _ _ _ _ _ _ _ ltac:(lia)) I) by lia. unfold advection. cbn. field.
  - rewrite (proj2 (C197_phases tower 2 _ _ _ _ _ _ _ ltac:(lia))) by (right; lia). reflexivity.
  - rewrite (proj1 (C197_composition tower 2 _ _ _ _ _ _ ltac:(lia)) I). rewrite !sumZ_cons by lia. rewrite sumZ_empty by lia. unfold advection. cbn. field.
Qed.
