(** C143-C148: the preconditioner of the time integrator. *)
From Coq Require Import Reals List Bool Arith ZArith Lra Lia.
From Verif Require Import PrecSolve_Model PrecSolve_Spec PrecSolve_Proofs.
Import ListNotations.
Open Scope R_scope.

(** C143: the solver of one block reports convergence exactly when the composite residual of the solution it leaves is within the tolerance, and the solution agrees on overlapping levels. *)
Theorem C143_truthful : forall o s tol u f t st b, keeps o -> solveSystem o s tol u f t = (st, b) ->
  synchronized o (finest s) (sol_u st) /\ (b = true <-> within o s tol (sol_u st) f).
Proof. exact truthful. Qed.
Print Assumptions C143_truthful.

(** C143: what was in its work array does not matter. *)
Theorem C143_work_array : forall o s tol u f t t',
  sol_u (fst (solveSystem o s tol u f t)) = sol_u (fst (solveSystem o s tol u f t')) /\
  snd (solveSystem o s tol u f t) = snd (solveSystem o s tol u f t').
Proof. exact tmp_unused. Qed.
Print Assumptions C143_work_array.

Example C143_ex : exists st, solveSystem twice_ops one_level (1 / 10) zero ones ones = (st, true) /\
  within twice_ops one_level (1 / 10) (sol_u st) ones /\ sol_u st 0%nat 7%nat = 1 / 2.
Proof.
  destruct (one_level_exact twice_ops _ one_level (1 / 10) zero ones ones twice_exact eq_refl ltac:(cbn; lia) ltac:(lra)) as (st & E & _ & A).
  exists st. split; [exact E|]. split; [apply (C143_truthful _ _ _ _ _ _ _ _ twice_keeps E); reflexivity|].
  apply (f_equal (fun g => g 7%nat)) in A. unfold ones in A. cbn in A. lra.
Qed.

(** C144: between one cycle and max_cycles; failure is reported only after max_cycles or with a residual exactly as large as the tolerance. *)
Theorem C144_cycles : forall o s tol u f t st b, keeps o -> (1 <= max_cycles s)%nat -> solveSystem o s tol u f t = (st, b) ->
  (1 <= cycles st <= max_cycles s)%nat /\
  (b = false -> cycles st = max_cycles s \/ on_edge o s tol (sol_u st) f).
Proof. exact cycles_used. Qed.
Print Assumptions C144_cycles.

(** C144: the second case happens: failure may be reported although cycles are left. *)
Theorem C144_all_cycles_refuted : exists o s tol u f t st, keeps o /\ 0 < tol /\ (1 <= max_cycles s)%nat /\
  solveSystem o s tol u f t = (st, false) /\ (cycles st < max_cycles s)%nat.
Proof. exact stops_on_edge. Qed.
Print Assumptions C144_all_cycles_refuted.

(** C144: on one level with an exact solver one cycle is enough, from any guess. *)
Theorem C144_one_level : forall o A s tol u f t, exact_block o A -> finest s = 0%nat -> (1 <= max_cycles s)%nat -> 0 < tol ->
  exists st, solveSystem o s tol u f t = (st, true) /\ cycles st = 1%nat /\ A (sol_u st 0%nat) = f 0%nat.
Proof. exact one_level_exact. Qed.
Print Assumptions C144_one_level.

(** C144: the two forms of the cycle do the same. *)
Theorem C144_same_algorithm : forall o s a, facCycle o s a = facCycle_Recursive o s (finest s) a.
Proof. exact same_cycles. Qed.
Print Assumptions C144_same_algorithm.

Example C144_ex : exists st, solveSystem twice_ops one_level (1 / 10) ones ones zero = (st, true) /\ cycles st = 1%nat /\
  (cycles st <= max_cycles one_level)%nat /\
  facCycle twice_ops one_level {| err := zero; res := ones; tmp_res := zero |} = facCycle_Recursive twice_ops one_level 0 {| err := zero; res := ones; tmp_res := zero |}.
Proof.
  destruct (C144_one_level twice_ops _ one_level (1 / 10) ones ones zero twice_exact eq_refl ltac:(cbn; lia) ltac:(lra)) as (st & E & C & _).
  exists st. split; [exact E|]. split; [exact C|]. split; [|apply C144_same_algorithm].
  assert (M : (1 <= max_cycles one_level)%nat) by (cbn; lia). apply (C144_cycles _ _ _ _ _ _ _ _ twice_keeps M E).
Qed.

(** C145: the callback returns 0 or 1; a block that is not preconditioned is copied; 0 exactly when each row of the block triangular system holds within the tolerance (one order parameter, no block dPhi/dT). *)
Theorem C145_rows_partial : forall p inp K r gamma delta lr m m' k, let c := setupPreconditioners p inp in
  good_kernels K -> has_dPhidT c = false -> p_norderp p = 1%nat -> lr = 1%Z \/ lr = 2%Z ->
  CVSpgmrPrecondSolve c K r gamma delta lr m = Some (m', k) ->
  (forall b d, active p b = true -> (d < depth p b)%nat -> solved c b = false -> z m' b d = r b d) /\
  (k = 0%Z \/ k = 1%Z) /\
  (k = 0%Z <-> forall b d, active p b = true -> (d < depth p b)%nat -> solved c b = true ->
     within (ops K b) (PrecSolve_Model.set K b) delta (scaled K b (z m' b d))
       (scaled K b (coupled c K gamma (z m' Phase 0%nat) b (r b d)))).
Proof. exact rows. Qed.
Print Assumptions C145_rows_partial.

(** C145: with any number of order parameters, if no coupling is used. *)
Theorem C145_uncoupled_partial : forall p inp K r gamma delta lr m m' k, let c := setupPreconditioners p inp in
  good_kernels K -> has_dPhidT c = false -> couples p c = false -> (1 <= p_norderp p)%nat -> lr = 1%Z \/ lr = 2%Z ->
  CVSpgmrPrecondSolve c K r gamma delta lr m = Some (m', k) ->
  (k = 0%Z <-> forall b d, active p b = true -> (d < depth p b)%nat -> solved c b = true ->
     within (ops K b) (PrecSolve_Model.set K b) delta (scaled K b (z m' b d)) (scaled K b (r b d))).
Proof. exact rows_uncoupled. Qed.
Print Assumptions C145_uncoupled_partial.

(** C145: with one level and exact solvers the rows hold exactly. *)
Theorem C145_exact_partial : forall p inp K A r gamma delta lr m m' k, let c := setupPreconditioners p inp in
  (forall b, exact_block (ops K b) (A b) /\ finest (PrecSolve_Model.set K b) = 0%nat /\ (1 <= max_cycles (PrecSolve_Model.set K b))%nat) ->
  (forall k i, sqrtM K k i <> 0) -> 0 < delta ->
  has_dPhidT c = false -> p_norderp p = 1%nat -> lr = 1%Z \/ lr = 2%Z ->
  CVSpgmrPrecondSolve c K r gamma delta lr m = Some (m', k) ->
  k = 0%Z /\
  forall b d, active p b = true -> (d < depth p b)%nat -> solved c b = true ->
    A b (scaled K b (z m' b d) 0%nat) = scaled K b (coupled c K gamma (z m' Phase 0%nat) b (r b d)) 0%nat.
Proof. exact exact_rows. Qed.
Print Assumptions C145_exact_partial.

(** C145: with a side that is neither left nor right the vector is copied. *)
Theorem C145_identity : forall c K r gamma delta lr m, use_preconditioner c = true -> lr <> 1%Z -> lr <> 2%Z ->
  exists m', CVSpgmrPrecondSolve c K r gamma delta lr m = Some (m', 0%Z) /\ z m' = r.
Proof. exact identity_otherwise. Qed.
Print Assumptions C145_identity.

Example C145_ex : exists m' k, CVSpgmrPrecondSolve (setupPreconditioners (grains false) (with_couplings true true false)) small_kernels (fun _ _ => ones) 4 1 2 dirty = Some (m', k) /\
  k = 0%Z /\ z m' Phase 0%nat 0%nat 5%nat = 1 / 2 /\ z m' Temp 0%nat 0%nat 5%nat = 3 / 2 /\ z m' Quat 0%nat 0%nat 5%nat = 3 / 2.
Proof.
  set (c := setupPreconditioners _ _).
  assert (Rn : runs c) by (unfold runs; cbn; repeat split; try discriminate).
  destruct (CVSpgmrPrecondSolve c small_kernels (fun _ _ => ones) 4 1 2 dirty) as [[m' k]|] eqn:E;
    [|exfalso; revert E; apply (callback_runs c small_kernels (fun _ _ => ones) 4 1 2%Z dirty (or_intror eq_refl)); exact Rn].
  exists m', k. split; [reflexivity|].
  destruct (C145_exact_partial (grains false) (with_couplings true true false) small_kernels (fun _ x i => 2 * x i) (fun _ _ => ones) 4 1 2%Z dirty m' k) as [K A]; try assumption.
  - intros b. split; [apply twice_exact|]. split; [reflexivity|cbn; lia].
  - intros a i. cbn. lra.
  - lra.
  - reflexivity.
  - reflexivity.
  - right. reflexivity.
  - split; [exact K|].
    assert (P : z m' Phase 0%nat 0%nat 5%nat = 1 / 2).
    { pose proof (f_equal (fun g => g 5%nat) (A Phase 0%nat eq_refl ltac:(cbn; lia) eq_refl)) as B. cbn in B. unfold ones in B. lra. }
    split; [exact P|]. split.
    + pose proof (f_equal (fun g => g 5%nat) (A Temp 0%nat eq_refl ltac:(cbn; lia) eq_refl)) as B. cbn in B. unfold ones in B. lra.
    + pose proof (f_equal (fun g => g 5%nat) (A Quat 0%nat eq_refl ltac:(cbn; lia) eq_refl)) as B. cbn in B. unfold ones in B. lra.
Qed.

(** C146: with several order parameters the rows of the temperature and of the orientation contain the correction of the last order parameter only. *)
Theorem C146_last_partial : forall p inp K r gamma delta lr m m' k, let c := setupPreconditioners p inp in
  good_kernels K -> has_dPhidT c = false -> (1 <= p_norderp p)%nat -> lr = 1%Z \/ lr = 2%Z ->
  CVSpgmrPrecondSolve c K r gamma delta lr m = Some (m', k) ->
  (forall b d, active p b = true -> (d < depth p b)%nat -> solved c b = false -> z m' b d = r b d) /\
  (k = 0%Z \/ k = 1%Z) /\
  (k = 0%Z <-> forall b d, active p b = true -> (d < depth p b)%nat -> solved c b = true ->
     within (ops K b) (PrecSolve_Model.set K b) delta (scaled K b (z m' b d))
       (scaled K b (coupled c K gamma (z m' Phase (p_norderp p - 1)%nat) b (r b d)))).
Proof. exact rows_last. Qed.
Print Assumptions C146_last_partial.

(** C146: in particular the residuals of the others do not influence these rows. *)
Theorem C146_others_unused : forall p inp K r1 r2 gamma delta lr m1 m2 m1' m2' k1 k2, let c := setupPreconditioners p inp in
  has_dPhidT c = false -> (1 <= p_norderp p)%nat -> lr = 1%Z \/ lr = 2%Z ->
  (forall b, b <> Phase -> r1 b = r2 b) -> r1 Phase (p_norderp p - 1)%nat = r2 Phase (p_norderp p - 1)%nat ->
  CVSpgmrPrecondSolve c K r1 gamma delta lr m1 = Some (m1', k1) ->
  CVSpgmrPrecondSolve c K r2 gamma delta lr m2 = Some (m2', k2) ->
  forall b d, b <> Phase -> active p b = true -> (d < depth p b)%nat -> z m1' b d = z m2' b d.
Proof. exact last_only. Qed.
Print Assumptions C146_others_unused.

(** C146: a correction of the first order parameter does not reach the temperature. *)
Theorem C146_all_order_parameters_refuted : exists p inp K r m m' k, let c := setupPreconditioners p inp in
  good_kernels K /\ p_norderp p = 2%nat /\ temperature_solver c = true /\ has_dTdphi c = true /\ (forall v, mulT K v = v) /\
  CVSpgmrPrecondSolve c K r 1 1 1 m = Some (m', k) /\
  z m' Phase 0%nat 0%nat 0%nat = 1 / 2 /\ z m' Temp 0%nat 0%nat 0%nat = 0.
Proof. exact first_ignored. Qed.
Print Assumptions C146_all_order_parameters_refuted.

(** C146: with precond_has_dPhidT the phase part of the result does not depend on the temperature part of the vector. *)
Theorem C146_dPhidT_refuted : forall c K r1 r2 gamma delta lr m m1 m2 k1 k2,
  has_dPhidT c = true -> with_phase c = true -> lr = 1%Z \/ lr = 2%Z ->
  (forall b, b <> Temp -> r1 b = r2 b) ->
  CVSpgmrPrecondSolve c K r1 gamma delta lr m = Some (m1, k1) ->
  CVSpgmrPrecondSolve c K r2 gamma delta lr m = Some (m2, k2) ->
  z m1 Phase 0%nat = z m2 Phase 0%nat.
Proof. exact temperature_ignored. Qed.
Print Assumptions C146_dPhidT_refuted.

Example C146_ex : forall m1 k1, CVSpgmrPrecondSolve (setupPreconditioners (melt 2) (with_couplings false true false)) small_kernels first_only 1 1 1 clean = Some (m1, k1) ->
  exists m2 k2, CVSpgmrPrecondSolve (setupPreconditioners (melt 2) (with_couplings false true false)) small_kernels (fun _ _ => zero) 1 1 1 clean = Some (m2, k2) /\
    z m1 Temp 0%nat = z m2 Temp 0%nat.
Proof.
  intros m1 k1 E1. set (c := setupPreconditioners _ _) in *.
  assert (Rn : runs c) by (unfold runs; cbn; repeat split; try discriminate).
  destruct (CVSpgmrPrecondSolve c small_kernels (fun _ _ => zero) 1 1 1 clean) as [[m2 k2]|] eqn:E2;
    [|exfalso; revert E2; apply (callback_runs c small_kernels (fun _ _ => zero) 1 1 1%Z clean (or_introl eq_refl)); exact Rn].
  exists m2, k2. split; [reflexivity|].
  apply (C146_others_unused (melt 2) (with_couplings false true false) small_kernels first_only (fun _ _ => zero) 1 1 1%Z clean clean m1 m2 k1 k2);
    try reflexivity; try assumption.
  - cbn. lia.
  - left. reflexivity.
  - intros b Hb. destruct b; try reflexivity. contradiction.
  - discriminate.
  - cbn. lia.
Qed.

(** C147: without the block dPhi/dT the result depends on the vector, gamma and delta only: neither on the work arrays nor on what was in z. *)
Theorem C147_memory_partial : forall p inp K r gamma delta lr m1 m2 m1' m2' k1 k2, let c := setupPreconditioners p inp in
  has_dPhidT c = false -> (1 <= p_norderp p)%nat -> lr = 1%Z \/ lr = 2%Z ->
  CVSpgmrPrecondSolve c K r gamma delta lr m1 = Some (m1', k1) ->
  CVSpgmrPrecondSolve c K r gamma delta lr m2 = Some (m2', k2) ->
  k1 = k2 /\ same_components p (z m1') (z m2').
Proof. exact memory_free. Qed.
Print Assumptions C147_memory_partial.

(** C147: with it, what was in z changes the result. *)
Theorem C147_old_result_refuted : exists p inp K r m1 m2 m1' m2' k1 k2, let c := setupPreconditioners p inp in
  good_kernels K /\ p_norderp p = 1%nat /\ sol m1 = sol m2 /\ rhs m1 = rhs m2 /\ tmp m1 = tmp m2 /\
  CVSpgmrPrecondSolve c K r 1 1 1 m1 = Some (m1', k1) /\ CVSpgmrPrecondSolve c K r 1 1 1 m2 = Some (m2', k2) /\
  active p Phase = true /\ z m1' Phase 0%nat 0%nat 0%nat <> z m2' Phase 0%nat 0%nat 0%nat.
Proof. exact old_z_matters. Qed.
Print Assumptions C147_old_result_refuted.

(** C147: with both couplings, the phase correction of the previous call changes the result. *)
Theorem C147_old_correction_refuted : exists p inp K r m1 m2 m1' m2' k1 k2, let c := setupPreconditioners p inp in
  good_kernels K /\ p_norderp p = 1%nat /\ rhs m1 = rhs m2 /\ tmp m1 = tmp m2 /\ z m1 = z m2 /\
  CVSpgmrPrecondSolve c K r 1 1 1 m1 = Some (m1', k1) /\ CVSpgmrPrecondSolve c K r 1 1 1 m2 = Some (m2', k2) /\
  active p Temp = true /\ z m1' Temp 0%nat 0%nat 0%nat <> z m2' Temp 0%nat 0%nat 0%nat.
Proof. exact old_solution_matters. Qed.
Print Assumptions C147_old_correction_refuted.

Example C147_ex : forall m1 k1 m2 k2,
  CVSpgmrPrecondSolve (setupPreconditioners (grains false) (with_couplings true true false)) small_kernels (fun _ _ => ones) 4 1 1 clean = Some (m1, k1) ->
  CVSpgmrPrecondSolve (setupPreconditioners (grains false) (with_couplings true true false)) small_kernels (fun _ _ => ones) 4 1 1 dirty = Some (m2, k2) ->
  k1 = k2 /\ z m1 Quat 0%nat = z m2 Quat 0%nat.
Proof.
  intros m1 k1 m2 k2 E1 E2.
  destruct (C147_memory_partial (grains false) (with_couplings true true false) small_kernels (fun _ _ => ones) 4 1 1%Z clean dirty m1 m2 k1 k2 eq_refl ltac:(cbn; lia) (or_introl eq_refl) E1 E2) as [A B].
  split; [exact A|]. apply B; [reflexivity|cbn; lia].
Qed.

(** C148: enabled = FALSE switches everything off. *)
Theorem C148_disabled : forall p s, in_enabled s = Some false ->
  let c := setupPreconditioners p (Some s) in use_preconditioner c = false /\ forall b, solved c b = false.
Proof. exact disabled. Qed.
Print Assumptions C148_disabled.

(** C148: otherwise a block that is evolved is preconditioned unless its entry says FALSE. *)
Theorem C148_blocks : forall p s b, getBool (in_enabled s) true = true -> active p b = true ->
  solved (setupPreconditioners p (Some s)) b = getBool (entry_of s b) true.
Proof. exact which_blocks. Qed.
Print Assumptions C148_blocks.

(** C148: without a section all evolved blocks are. *)
Theorem C148_no_section : forall p b, active p b = true -> solved (setupPreconditioners p None) b = true.
Proof. exact without_section. Qed.
Print Assumptions C148_no_section.

(** C148: an empty section means the same as no section only for KKS models or without a phase. *)
Theorem C148_empty_section_refuted : forall p,
  setupPreconditioners p (Some empty_section) = setupPreconditioners p None <-> p_kks p = true \/ p_phase p = false.
Proof. exact empty_differs. Qed.
Print Assumptions C148_empty_section_refuted.

(** C148: the callback stops the run exactly with these settings. *)
Theorem C148_runs : forall c K r gamma delta lr m, lr = 1%Z \/ lr = 2%Z ->
  (CVSpgmrPrecondSolve c K r gamma delta lr m <> None <-> runs c).
Proof. exact callback_runs. Qed.
Print Assumptions C148_runs.

(** C148: without a section it stops the run exactly for orientations with fluxes from gradients of q. *)
Theorem C148_default_stops : forall p K r gamma delta lr m, lr = 1%Z \/ lr = 2%Z ->
  (CVSpgmrPrecondSolve (setupPreconditioners p None) K r gamma delta lr m = None <->
   p_phase p = true /\ p_quat p = true /\ p_gradq_for_flux p = true).
Proof. exact default_stops. Qed.
Print Assumptions C148_default_stops.

(** C148: with an empty section it never does, outside of KKS. *)
Theorem C148_empty_runs : forall p K r gamma delta lr m, lr = 1%Z \/ lr = 2%Z -> p_kks p = false ->
  CVSpgmrPrecondSolve (setupPreconditioners p (Some empty_section)) K r gamma delta lr m <> None.
Proof. exact empty_runs. Qed.
Print Assumptions C148_empty_runs.

Example C148_ex : CVSpgmrPrecondSolve (setupPreconditioners (grains true) None) small_kernels (fun _ _ => ones) 1 1 1 clean = None /\
  CVSpgmrPrecondSolve (setupPreconditioners (grains true) (Some empty_section)) small_kernels (fun _ _ => ones) 1 1 1 clean <> None /\
  solved (setupPreconditioners (grains true) (Some empty_section)) Quat = true.
Proof.
  split; [apply C148_default_stops; [left; reflexivity|repeat split]|]. split.
  - apply C148_empty_runs; [left; reflexivity|reflexivity].
  - apply C148_blocks; reflexivity.
Qed.
