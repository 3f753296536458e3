(** C01-C03: properties of output/regrid/restart schedules. *)
From Coq Require Import Reals ZArith List Bool Lra Lia.
From Verif Require Import EventInterval_Model EventInterval_Spec EventInterval_Proofs.
From Verif Require Import Run_Model Run_Proofs.
Import ListNotations.
Open Scope R_scope.

(** C01: between two 'yes' answers for one time there is a 'yes' for another time. *)
Theorem C01_yes_separated : forall s s' h1 h2 h3 o1 o2,
  history s (h1 ++ (o1, true) :: h2 ++ (o2, true) :: h3) s' ->
  op_time o1 = op_time o2 ->
  exists o, In (o, true) h2 /\ op_time o <> op_time o1.
Proof. exact yes_separated. Qed.
Print Assumptions C01_yes_separated.

(** C01: with non-decreasing times every time gets at most one 'yes'. *)
Theorem C01_yes_at_most_once : forall h s s' t t0,
  history s h s' -> times_from t0 h -> (yes_at t h <= 1)%nat.
Proof. exact yes_at_most_once. Qed.
Print Assumptions C01_yes_at_most_once.

(** three queries at the same time 4 of an every-2-steps schedule: one 'yes' *)
Example C01_example : exists s',
  history (mkEI 2 0 CYCLE 0 (-1) false true)
    [(QStep 3 3, false); (QStep 4 4, true); (QStep 4 4, false); (QFinal 4, false)] s' /\
  times_from 0 [(QStep 3 3, false); (QStep 4 4, true); (QStep 4 4, false); (QFinal 4, false)].
Proof.
  eexists. split.
  - econstructor; [exact (hip_cycle 2 0 0 (-1) true 3 3 false ltac:(lra) eq_refl) |].
    econstructor; [exact (hip_cycle 2 0 3 (-1) true 4 4 true ltac:(lra) eq_refl) |].
    econstructor.
    { cbn [ei_query]. unfold has_interval_passed, event_occurred_at. cbn [ei_last].
      destruct (Req_EM_T 4 4) as [_ | C]; [reflexivity | exfalso; apply C; reflexivity]. }
    econstructor; [| constructor].
    cbn [ei_query]. unfold include_final, event_occurred_at. cbn [ei_last set_prev].
    destruct (Req_EM_T 4 4) as [_ | C]; [reflexivity | exfalso; apply C; reflexivity].
  - cbn. lra.
Qed.

(** C02: one query of a time-based schedule. *)
Theorem C02_time_step : forall s n t b s',
  ei_type s = TIME -> 0 < ei_dbl s -> 0 <= ei_prev s -> ei_prev s <= t ->
  ei_last s <> t ->
  ei_query s (QStep n t) = Ok (b, s') ->
  (b = true <-> crosses (ei_dbl s) (ei_prev s) t).
Proof. exact time_step_iff. Qed.
Print Assumptions C02_time_step.

(** C02: the query is defined as long as t / interval fits in an int. *)
Theorem C02_time_step_defined : forall s n t,
  ei_type s = TIME -> 0 < ei_dbl s -> 0 <= ei_prev s -> ei_prev s <= t ->
  t / ei_dbl s < IZR (2 ^ 31) ->
  exists b s', ei_query s (QStep n t) = Ok (b, s').
Proof. exact time_step_defined. Qed.
Print Assumptions C02_time_step_defined.

(** C02: over a whole run each answer is 'yes' exactly when a multiple was crossed since
    the query before ... *)
Theorem C02_time_run : forall h s s',
  ei_type s = TIME -> 0 < ei_dbl s -> 0 <= ei_prev s -> ei_last s <= ei_prev s ->
  history s h s' -> all_steps h -> times_from (ei_prev s) h ->
  ei_prev s' = final_time (ei_prev s) h /\
  (forall h1 o b h2, h = h1 ++ (o, b) :: h2 ->
     (b = true <-> crosses (ei_dbl s) (final_time (ei_prev s) h1) (op_time o))).
Proof. exact time_run. Qed.
Print Assumptions C02_time_run.

(** C02: ... and every multiple passed during the run is reported, in the first
    query at or after it. *)
Theorem C02_no_multiple_skipped : forall h s s' m,
  ei_type s = TIME -> 0 < ei_dbl s -> 0 <= ei_prev s -> ei_last s <= ei_prev s ->
  history s h s' -> all_steps h -> times_from (ei_prev s) h ->
  ei_prev s < IZR m * ei_dbl s <= final_time (ei_prev s) h ->
  exists h1 o h2, h = h1 ++ (o, true) :: h2 /\
     final_time (ei_prev s) h1 < IZR m * ei_dbl s <= op_time o.
Proof. exact time_run_no_skip. Qed.
Print Assumptions C02_no_multiple_skipped.

(** every time unit, queried at 3, 3 again and 5 after a start at 1 *)
Example C02_example : exists s',
  history (mkEI 0 1 TIME 1 (-1) false false)
    [(QStep 1 3, true); (QStep 2 3, false); (QStep 3 5, true)] s' /\
  all_steps [(QStep 1 3, true); (QStep 2 3, false); (QStep 3 5, true)] /\
  times_from 1 [(QStep 1 3, true); (QStep 2 3, false); (QStep 3 5, true)] /\
  1 < IZR 2 * 1 <= final_time 1 [(QStep 1 3, true); (QStep 2 3, false); (QStep 3 5, true)].
Proof.
  eexists. split; [| split; [| split; [cbn; lra | cbn; lra]]].
  - econstructor;
      [exact (hip_time 0 1 1 (-1) false 1 3 1 3 true ltac:(lra) ltac:(lra) ltac:(lra) ltac:(lra) ltac:(lra) ltac:(lia) ltac:(lia) eq_refl) |].
    econstructor.
    { cbn [ei_query]. unfold has_interval_passed, event_occurred_at. cbn [ei_last].
      destruct (Req_EM_T 3 3) as [_ | C]; [| exfalso; apply C; reflexivity].
      unfold is_active; cbn [ei_type ei_dbl]. destruct (Rlt_dec 0 1) as [_ | C]; [| exfalso; lra].
      reflexivity. }
    econstructor; [| constructor].
    exact (hip_time 0 1 3 3 false 3 5 3 5 true ltac:(lra) ltac:(lra) ltac:(lra) ltac:(lra) ltac:(lra) ltac:(lia) ltac:(lia) eq_refl).
  - intros o b [E | [E | [E | []]]]; inversion E; subst; eexists; reflexivity.
Qed.

(** C03: step-based schedules. *)
Theorem C03_cycle_step : forall s n t b s',
  ei_type s = CYCLE -> (0 < ei_int s)%Z -> ei_first_flag s = false ->
  ei_query s (QStep n t) = Ok (b, s') ->
  (b = true <-> (ei_int s | n)%Z /\ ei_last s <> t).
Proof. exact cycle_step_iff. Qed.
Print Assumptions C03_cycle_step.

Theorem C03_cycle_step_defined : forall s n t, ei_type s = CYCLE ->
  exists b s', ei_query s (QStep n t) = Ok (b, s').
Proof. exact cycle_step_defined. Qed.
Print Assumptions C03_cycle_step_defined.

(** C03: an inactive schedule never fires. *)
Theorem C03_inactive_never : forall h s s' o b,
  ~ interval_positive s -> history s h s' -> In (o, b) h -> b = false.
Proof. exact inactive_never. Qed.
Print Assumptions C03_inactive_never.

(** an every-3-steps schedule at step 6, and an inactive one with all flags set *)
Example C03_example : exists s',
  ei_query (mkEI 3 0 CYCLE 5 3 false false) (QStep 6 6) = Ok (true, s').
Proof. eexists. exact (hip_cycle 3 0 5 3 false 6 6 true ltac:(lra) eq_refl). Qed.

Example C03_example_inactive : exists s',
  ~ interval_positive (mkEI 0 0 CYCLE (-1) (-1) true true) /\
  history (mkEI 0 0 CYCLE (-1) (-1) true true) [(QInitial 0, false); (QStep 1 1, false); (QFinal 1, false)] s'.
Proof.
  eexists. split; [cbn; lia |].
  econstructor; [reflexivity |]. econstructor; [reflexivity |]. econstructor; [reflexivity |]. constructor.
Qed.
