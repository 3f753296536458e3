(** C87, C88: the preconditioner of the time integrator. *)
From Coq Require Import Reals ZArith List Bool Ascii Lra Lia.
From Verif Require Import Grid_Model Grid_Proofs Functions_Model Transport_Model PhaseFlow_Model PhaseFlow_Spec PhaseFlow_Proofs Elliptic_Model Elliptic_Spec
  Elliptic_Proofs Precond_Model Precond_Spec Precond_Proofs.
Import ListNotations.
Open Scope R_scope.

(** C87: the residual of the phase block (double well) is r - (z - gamma J z), J the derivative of the gradient and well terms of the phase equation. *)
Theorem C87_phase : forall lv p pr o gamma phi z r fold rold cold fl res i j,
  base_level lv -> same_patch lv p (pb pr) -> no_coupling pr ->
  phase_coefs p phi (pmob pr) (peps pr) gamma (pwell pr) "d" cold = Some o -> inside p i j ->
  exists d, derivable_pt_lim (fun t => value (evaluatePhaseRHS pr (along phi z t) fold rold) i j) 0 d /\
    compres p (pdx lv) (pdy lv) o (flux_on_patch lv p o o z fl) r z res i j = r i j - (z i j - gamma * d).
Proof. exact phase_block. Qed.
Print Assumptions C87_phase.

(** C87: the temperature block, J the derivative of the heat equation at fixed phase velocity. *)
Theorem C87_temperature : forall lv p b gamma kappa lh temp cp phirhs z r r0 fl res i j,
  base_level lv -> same_patch lv p b -> inside p i j ->
  exists d, derivable_pt_lim (fun t => computerhstemp b kappa lh (along temp z t) cp phirhs r0 i j) 0 d /\
    compres p (pdx lv) (pdy lv) (temperature_coefs gamma kappa) (flux_on_patch lv p (temperature_coefs gamma kappa) (temperature_coefs gamma kappa) z fl) r z res i j
    = r i j - (z i j - gamma * d).
Proof. exact temperature_block. Qed.
Print Assumptions C87_temperature.

(** C87: the composition block, J the derivative of the composition equation with fixed diffusion coefficients. *)
Theorem C87_composition : forall lv p gamma conc phi d0 d1 c0 c1 f0 f1 m z r old fl res i j,
  base_level lv -> inside p i j ->
  exists d, derivable_pt_lim (fun t =>
      let f := concentrationflux (ilo p) (ihi p) (jlo p) (jhi p) (pdx lv) (pdy lv) (along conc z t) phi d0 d1 c0 c1 f0 f1 in
      computerhsconcentration (ilo p) (ihi p) (jlo p) (jhi p) (pdx lv) (pdy lv) (fst f) (snd f) m old i j) 0 d /\
    compres p (pdx lv) (pdy lv) (conc_coefs gamma d0 d1 m) (flux_on_patch lv p (conc_coefs gamma d0 d1 m) (conc_coefs gamma d0 d1 m) z fl) r z res i j
    = r i j - (z i j - gamma * d).
Proof. exact composition_block. Qed.
Print Assumptions C87_composition.

(** C87: the coupling of the temperature to the phase adds gamma times the derivative of the heat equation along the phase correction. *)
Theorem C87_temperature_phase : forall lv p pr o kappa lh gamma phi z temp cp r fold rold r0 cold fl i j,
  base_level lv -> same_patch lv p (pb pr) -> no_coupling pr ->
  phase_temperature_coefs p phi (phase_temperature_mobility (pmob pr) cp) (peps pr) lh (pwell pr) "d" cold = Some o -> inside p i j -> cp i j <> 0 ->
  exists d, derivable_pt_lim (fun t => computerhstemp (pb pr) kappa lh temp cp (evaluatePhaseRHS pr (along phi z t) fold rold) r0 i j) 0 d /\
    temperature_precond_rhs gamma (multiplyDTDPhiBlock lv p o fl z) r i j = r i j + gamma * d.
Proof. exact temperature_phase_block. Qed.
Print Assumptions C87_temperature_phase.

Definition C87_level : level := mk_level [mk_patch 0 0 0 0 []] 1 1 1 1 2%Z 2%Z false true.
Definition C87_patch : patch := mk_patch 0 0 0 0 [].
Definition C87_problem : phase_problem := mk_problem (mk_pbox 0 0 0 0 1 1) FluxSimple 1 1 (fun _ _ => 0) None None NoDrive (fun _ _ => 1).
Lemma C87_base : base_level C87_level.
Proof. unfold base_level, C87_level; cbn; repeat split; lra. Qed.
Example C87_ex : exists o, phase_coefs C87_patch (fun _ _ => 0) (fun _ _ => 1) 1 (1 / 8) 1 "d" (fun _ _ => 0) = Some o /\
  compres C87_patch 1 1 o (flux_on_patch C87_level C87_patch o o (upd2 (fun _ _ => 0) 0%Z 0%Z 1) (fun _ _ => 0, fun _ _ => 0)) (fun _ _ => 0)
    (upd2 (fun _ _ => 0) 0%Z 0%Z 1) (fun _ _ => 0) 0%Z 0%Z = - (1 + 1 / 8 * (4 + 32)) /\
  derivable_pt_lim (fun t => value (evaluatePhaseRHS C87_problem (along (fun _ _ => 0) (upd2 (fun _ _ => 0) 0%Z 0%Z 1) t) (fun _ _ => 0) (fun _ _ => 0)) 0%Z 0%Z) 0 (- (4 + 32)).
Proof.
  destruct (phase_coefs C87_patch (fun _ _ => 0) (fun _ _ => 1) 1 (1 / 8) 1 "d" (fun _ _ => 0)) as [o |] eqn:E; [| discriminate]. exists o. split; [reflexivity |].
  assert (Hs : same_patch C87_level C87_patch (pb C87_problem)) by (unfold same_patch; cbn; auto 10).
  assert (Hn : no_coupling C87_problem) by (unfold no_coupling; cbn; auto).
  assert (Hi : inside C87_patch 0 0) by (split; cbn; lia).
  assert (D : derivable_pt_lim (fun t => value (evaluatePhaseRHS C87_problem (along (fun _ _ => 0) (upd2 (fun _ _ => 0) 0%Z 0%Z 1) t) (fun _ _ => 0) (fun _ _ => 0)) 0%Z 0%Z) 0 (- (4 + 32))).
  { pose proof (phase_derivative C87_level C87_patch C87_problem (fun _ _ => 0) (upd2 (fun _ _ => 0) 0%Z 0%Z 1) (fun _ _ => 0) (fun _ _ => 0) 0%Z 0%Z Hs ltac:(cbn; lra) ltac:(cbn; lra) Hn Hi) as D.
    match type of D with derivable_pt_lim _ _ ?d => replace (- (4 + 32)) with d; [exact D |] end. unfold upd2, C87_level, C87_problem. cbn. field. }
  split; [| exact D].
  destruct (phase_block C87_level C87_patch C87_problem o (1 / 8) (fun _ _ => 0) (upd2 (fun _ _ => 0) 0%Z 0%Z 1) (fun _ _ => 0) (fun _ _ => 0) (fun _ _ => 0) (fun _ _ => 0)
    (fun _ _ => 0, fun _ _ => 0) (fun _ _ => 0) 0%Z 0%Z C87_base Hs Hn E Hi) as (d & D' & V).
  assert (d = - (4 + 32)) by (apply (uniqueness_limite _ _ _ _ D' D)). subst d.
  cbn [C87_level pdx pdy] in V. fold C87_level in V. rewrite V. unfold upd2. cbn. field.
Qed.

(** C87, negative: the phase block set up for the single well does not match the phase equation, which always uses the double well. *)
Theorem C87_single_well_refuted : exists lv p pr o gamma phi z r fold rold cold fl res i j d,
  base_level lv /\ same_patch lv p (pb pr) /\ no_coupling pr /\ 0 < gamma /\
  phase_coefs p phi (pmob pr) (peps pr) gamma (pwell pr) "s" cold = Some o /\ inside p i j /\
  derivable_pt_lim (fun t => value (evaluatePhaseRHS pr (along phi z t) fold rold) i j) 0 d /\
  compres p (pdx lv) (pdy lv) o (flux_on_patch lv p o o z fl) r z res i j <> r i j - (z i j - gamma * d).
Proof. exact phase_block_single. Qed.
Print Assumptions C87_single_well_refuted.

(** C87, negative: the coupling of the phase to the temperature ignores the temperature correction: in every cell where the driving force depends on the temperature there is a temperature correction for which it is wrong. *)
Theorem C87_phase_temperature_refuted : forall pr tm lh it m gamma phi z_phase r old fold rold i j,
  pdrive pr = DeltaTemperature tm lh it -> porient pr = None -> pthird pr = None -> deriv_known it = true -> (forall a b, pmob pr a b = m) -> in_cells (pb pr) i j ->
  tm <> 0 -> lh <> 0 -> m <> 0 -> gamma <> 0 -> val (deriv_interp_func (phi i j) it) <> 0 ->
  exists z_T d out, derivable_pt_lim (fun t => value (evaluatePhaseRHS (mk_problem (pb pr) (pflux pr) (peps pr) (pwell pr) (along (ptemp pr) z_T t)
      (porient pr) (pthird pr) (pdrive pr) (pmob pr)) phi fold rold) i j) 0 d /\
    phase_precond_rhs (pb pr) gamma tm lh m it z_T z_phase r old = Some out /\ out i j <> r i j + gamma * d.
Proof. exact phase_temperature_wrong. Qed.
Print Assumptions C87_phase_temperature_refuted.

Example C87_coupling_ex : exists z_T d out, derivable_pt_lim (fun t => value (evaluatePhaseRHS (mk_problem (mk_pbox 0 0 0 0 1 1) FluxSimple 1 1 (along (fun _ _ => 1) z_T t)
      None None (DeltaTemperature 2 1 "p") (fun _ _ => 3)) (fun _ _ => 1 / 2) (fun _ _ => 0) (fun _ _ => 0)) 0%Z 0%Z) 0 d /\
    phase_precond_rhs (mk_pbox 0 0 0 0 1 1) 1 2 1 3 "p" z_T (fun _ _ => 0) (fun _ _ => 0) (fun _ _ => 0) = Some out /\ out 0%Z 0%Z <> 0 + 1 * d.
Proof.
  apply (phase_temperature_wrong (mk_problem (mk_pbox 0 0 0 0 1 1) FluxSimple 1 1 (fun _ _ => 1) None None (DeltaTemperature 2 1 "p") (fun _ _ => 3)) 2 1 "p" 3 1
    (fun _ _ => 1 / 2) (fun _ _ => 0) (fun _ _ => 0) (fun _ _ => 0) (fun _ _ => 0) (fun _ _ => 0) 0%Z 0%Z); try reflexivity; try lra.
  - split; cbn; lia.
  - cbn. assert (C : clamp01 (1 / 2) = 1 / 2) by (unfold clamp01; rewrite Rmin_right by lra; rewrite Rmax_right by lra; reflexivity). rewrite C. lra.
Qed.

(** C88: if 16 gamma M W < 1 the phase block has exactly one solution for every right-hand side and every phase field, and the smoother converges to it. *)
Theorem C88_solvable : forall lv gh p phi m eps gamma W Mmax cold o rhs fl,
  base_level lv -> patches lv = [p] -> (0 <= jlo p)%Z -> tame lv gh -> 0 <= gamma -> 0 <= W ->
  (forall i j, inside p i j -> 0 <= m i j <= Mmax) -> 0 <= Mmax -> 16 * gamma * Mmax * W < 1 ->
  phase_coefs p phi m eps gamma W "d" cold = Some o ->
  exists v, solves (1 / (pdx lv * pdx lv)) (1 / (pdy lv * pdy lv)) lv gh o rhs v /\
    (forall v', solves (1 / (pdx lv * pdx lv)) (1 / (pdy lv * pdy lv)) lv gh o rhs v' -> within lv v v' 0) /\
    (forall u eps', 0 < eps' -> exists N, forall n, (N <= n)%nat -> within lv (smoothErrorByRedBlack lv gh o rhs fl n (-1) u) v eps').
Proof. exact phase_block_solvable. Qed.
Print Assumptions C88_solvable.

Example C88_ex : forall rhs, exists o v, phase_coefs C87_patch (fun _ _ => 1 / 2) (fun _ _ => 1) 1 (1 / 32) 1 "d" (fun _ _ => 0) = Some o /\
  solves 1 1 C87_level (fun _ _ => mk_ghost 1 0 0 0) o rhs v.
Proof.
  intro rhs. destruct (phase_coefs C87_patch (fun _ _ => 1 / 2) (fun _ _ => 1) 1 (1 / 32) 1 "d" (fun _ _ => 0)) as [o |] eqn:E; [| discriminate].
  destruct (phase_block_solvable C87_level (fun _ _ => mk_ghost 1 0 0 0) C87_patch (fun _ _ => 1 / 2) (fun _ _ => 1) 1 (1 / 32) 1 1 (fun _ _ => 0) o rhs (fun _ _ => 0, fun _ _ => 0)) as (v & S & _);
    try (cbn; lra); try (cbn; lia); try reflexivity; auto using C87_base.
  - intros i j _. cbn. split; [rewrite Rabs_R1; lra |]. right. exists C87_patch. split; [left; reflexivity | split; cbn; lia].
  - intros; lra.
  - exists o, v. split; [reflexivity |]. cbn [C87_level pdx pdy] in S. replace (1 / (1 * 1)) with 1 in S by field. exact S.
Qed.

(** C88, negative: at 16 gamma M W = 1, phase 1/2 and no-flux or periodic boundaries, every constant solves the block with right-hand side zero. *)
Theorem C88_singular_refuted : forall lv gh p phi m eps gamma W cold o,
  base_level lv -> patches lv = [p] -> (ilo p <= ihi p)%Z -> (jlo p <= jhi p)%Z ->
  (forall i j, ~ cell lv i j -> factor (gh i j) = 1 /\ offset_value (gh i j) = 0) ->
  (forall i j, phi i j = 1 / 2) -> (forall i j, 16 * gamma * m i j * W = 1) ->
  phase_coefs p phi m eps gamma W "d" cold = Some o ->
  (forall c, solves (1 / (pdx lv * pdx lv)) (1 / (pdy lv * pdy lv)) lv gh o (fun _ _ => 0) (fun _ _ => c)).
Proof. exact phase_block_singular. Qed.
Print Assumptions C88_singular_refuted.

Example C88_singular_ex : exists o, phase_coefs C87_patch (fun _ _ => 1 / 2) (fun _ _ => 1) 1 (1 / 16) 1 "d" (fun _ _ => 0) = Some o /\
  forall c, solves 1 1 C87_level (fun _ _ => mk_ghost 1 0 0 0) o (fun _ _ => 0) (fun _ _ => c).
Proof.
  destruct (phase_coefs C87_patch (fun _ _ => 1 / 2) (fun _ _ => 1) 1 (1 / 16) 1 "d" (fun _ _ => 0)) as [o |] eqn:E; [| discriminate]. exists o. split; [reflexivity |]. intro c.
  pose proof (phase_block_singular C87_level (fun _ _ => mk_ghost 1 0 0 0) C87_patch (fun _ _ => 1 / 2) (fun _ _ => 1) 1 (1 / 16) 1 (fun _ _ => 0) o) as S.
  cbn [C87_level pdx pdy] in S. replace (1 / (1 * 1)) with 1 in S by field. apply S; try (cbn; lia); try reflexivity; auto using C87_base.
  - intros; cbn; auto.
  - intros; lra.
Qed.
