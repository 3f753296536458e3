(** C59: schedules are built from the input deck as documented. *)
From Coq Require Import Reals ZArith String List Bool Lra Lia.
From Verif Require Import EventInterval_Model EventInterval_Spec Run_Model Run_Spec Run_Proofs Schedule_Spec Schedule_Proofs.
Import ListNotations.
Open Scope R_scope.

(** C59: a new step-based schedule with interval n: initial and final events follow the flags, the first step query answers 'yes' on multiples of n, or always when the first step is included. *)
Theorem C59_built_cycle : forall db dv dty f l s n t, says_cycle db dty -> interval_is db dv n -> (0 <= n)%Z ->
  ei_new db dv dty f l = Ok s -> 0 <= t ->
  (fst (include_initial s t) = true <-> (0 < n)%Z /\ setting db_first db f = true) /\
  (fst (include_final s t) = true <-> (0 < n)%Z /\ setting db_last db l = true) /\
  (forall k, exists b s', ei_query s (QStep k t) = Ok (b, s') /\
     (b = true <-> (0 < n)%Z /\ (setting db_first db f = true \/ (n | k)%Z))).
Proof. exact built_cycle. Qed.
Print Assumptions C59_built_cycle.

(** C59: a new time-based schedule. *)
Theorem C59_built_time : forall db dv dty f l s t, says_time db dty ->
  ei_new db dv dty f l = Ok s -> 0 <= t ->
  (fst (include_initial s t) = true <-> 0 < setting db_dbl db dv /\ setting db_first db f = true) /\
  (fst (include_final s t) = true <-> 0 < setting db_dbl db dv /\ setting db_last db l = true) /\
  (forall k, exists b s', ei_query s (QStep k t) = Ok (b, s') /\
     (b = true <-> 0 < setting db_dbl db dv /\ setting db_first db f = true)).
Proof. exact built_time. Qed.
Print Assumptions C59_built_time.

(** C59: exactly the type names step, cycle, time and dt are accepted. *)
Theorem C59_accepted_types : forall db dv dty f l, 0 <= dv + 1 / 2 < IZR (2 ^ 31) ->
  ((exists s, ei_new db dv dty f l = Ok s) <-> says_cycle db dty \/ says_time db dty) /\
  (~ (says_cycle db dty \/ says_time db dty) -> ei_new db dv dty f l = Err).
Proof. exact built_or_rejected. Qed.
Print Assumptions C59_accepted_types.

(** C59: a new run starts at start_time (0 if absent), stops at end_time or at the cycle limit, the limit being max_delta_cycles, else max_cycles, else max_timesteps; end_time is required. *)
Theorem C59_deck_run : forall d sc, (dk_end d = None -> get_from_input d sc = None) /\
  (forall t_end, dk_end d = Some t_end -> exists s, get_from_input d sc = Some s /\
     (pf_visit s, pf_info s, pf_restart s, pf_regrid s, pf_grain s, pf_scalar s) =
       (sc_visit sc, sc_info sc, sc_restart sc, sc_regrid sc, sc_grain sc, sc_scalar sc) /\
     pf_amr s = first_of [dk_amr d] false /\
     forall fuel en dts tr s', run fuel en dts s = Some (Ok (tr, s')) ->
     runs_between 0 (first_of [dk_start d] 0) t_end
       (first_of [dk_max_delta d; dk_max_cycles d; dk_max_timesteps d] (2 ^ 31 - 1)%Z) dts tr).
Proof. exact deck_run. Qed.
Print Assumptions C59_deck_run.

(** C59: a restarted run carries on from the cycle and time of the restart file; limits in the deck win over the stored ones, absolute limits over max_delta_cycles. *)
Theorem C59_deck_restart : forall s d sc fuel en dts tr s',
  run fuel en dts (get_from_restart (put_to_restart s) d sc) = Some (Ok (tr, s')) ->
  runs_between (pf_cycle s) (pf_time s) (first_of [dk_end d] (pf_end s))
    (first_of [dk_max_cycles d; dk_max_timesteps d; option_map (Z.add (pf_cycle s)) (dk_max_delta d)] (pf_max_cycles s)) dts tr.
Proof. exact deck_restart. Qed.
Print Assumptions C59_deck_restart.

Example C59_ex : (* deck asks for every 5 steps, first step excluded; the default is dt = 1 *)
  let db := Some (mkDB (Some "step"%string) (Some false) None (Some 5%Z) None) in
  exists s, ei_new db 1 "dt" true true = Ok s /\
    fst (include_initial s 0) = false /\ fst (include_final s 0) = true /\
    exists s', ei_query s (QStep 10 0) = Ok (true, s').
Proof.
  cbv zeta. set (db := Some _).
  destruct (proj2 (proj1 (C59_accepted_types db 1 "dt" true true ltac:(cbn; lra))) (or_introl (or_introl eq_refl))) as [s E].
  destruct (C59_built_cycle db 1 "dt" true true s 5 0 (or_introl eq_refl) eq_refl ltac:(lia) E ltac:(lra)) as (A & B & C).
  exists s. split; [exact E |]. split.
  - apply not_true_is_false. intro T. apply A in T. destruct T as [_ T]; discriminate.
  - split; [apply B; split; [lia | reflexivity] |].
    destruct (C 10%Z) as (b & s' & Q & I). exists s'. rewrite Q. f_equal. f_equal. apply I. split; [lia |]. right. exists 2%Z. reflexivity.
Qed.

Example C59_run_ex : (* start_time = 3, end_time = 100, max_cycles = 2 *)
  exists s tr s', get_from_input (mkDeck (Some 2%Z) None None (Some 3) (Some 100) None) (mkSch off off off off off off) = Some s /\
    run 2 (mkEnv false false) (fun _ => 1) s = Some (Ok (tr, s')) /\ steps tr = [(1%Z, 3, 1); (2%Z, 3 + 1, 1)].
Proof.
  eexists. eexists. eexists. split; [cbn; reflexivity |]. split.
  { eapply run_intro; [ev_init | ev_go; ev_go; ev_stop | ev_final | reflexivity]. }
  reflexivity.
Qed.
