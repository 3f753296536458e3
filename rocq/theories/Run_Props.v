(** C04-C06, C46: the run loop and restarts. *)
From Coq Require Import Reals ZArith List Bool Lra Lia.
From Verif Require Import EventInterval_Model EventInterval_Spec Run_Model Run_Spec Run_Proofs.
Import ListNotations.
Open Scope R_scope.

(** C04: the loop terminates whatever the step sizes. *)
Theorem C04_terminates : forall fuel en dts s,
  (pf_max_cycles s - pf_cycle s <= Z.of_nat fuel)%Z ->
  run fuel en dts s <> None.
Proof. exact run_terminates. Qed.
Print Assumptions C04_terminates.

(** C04: consecutive steps, limits respected, stops only at a limit. *)
Theorem C04_steps_and_limits : forall fuel en dts s tr s',
  run fuel en dts s = Some (Ok (tr, s')) ->
  steps_from (pf_cycle s) (pf_time s) dts 0 (steps tr) /\
  pf_cycle s' = (pf_cycle s + Z.of_nat (length (steps tr)))%Z /\
  pf_time s' = end_of_steps (pf_time s) (steps tr) /\
  (forall c t dt, In (c, t, dt) (steps tr) -> t < pf_end s /\ (c <= pf_max_cycles s)%Z) /\
  (pf_end s <= pf_time s' \/ (pf_max_cycles s <= pf_cycle s')%Z).
Proof. exact run_steps. Qed.
Print Assumptions C04_steps_and_limits.

Theorem C04_step_count : forall fuel en dts s tr s',
  run fuel en dts s = Some (Ok (tr, s')) ->
  (Z.of_nat (length (steps tr)) <= Z.max 0 (pf_max_cycles s - pf_cycle s))%Z.
Proof. exact run_step_count. Qed.
Print Assumptions C04_step_count.

(** C04: final restart and plot files are there, no plot file twice for one time. *)
Theorem C04_files : forall fuel en dts s tr s',
  (forall i, 0 < dts i) -> 0 <= pf_time s ->
  ei_last (pf_restart s) = -1 -> ei_last (pf_visit s) = -1 ->
  run fuel en dts s = Some (Ok (tr, s')) ->
  (is_active (pf_restart s) = true -> ei_last_flag (pf_restart s) = true ->
     In (pf_cycle s', pf_time s') (restart_files tr)) /\
  (is_active (pf_visit s) = true -> ei_last_flag (pf_visit s) = true -> steps tr <> [] ->
     In (pf_cycle s', pf_time s') (plot_files tr)) /\
  NoDup (map snd (plot_files tr)).
Proof. exact run_files. Qed.
Print Assumptions C04_files.

(** a two-step run with plots every step and a final restart file *)
Example C04_example : exists tr s',
  run 2 (mkEnv false false) (fun _ => 1)
    (demo 2 (mkEI 1 0 CYCLE (-1) (-1) true true) (mkEI 5 0 CYCLE (-1) (-1) false true) off)
    = Some (Ok (tr, s')) /\
  length (steps tr) = 2%nat /\ length (plot_files tr) = 3%nat /\ length (restart_files tr) = 1%nat.
Proof.
  eexists. eexists. split.
  { eapply run_intro; [ev_init | ev_go; ev_go; ev_stop | | reflexivity].
    eapply final_intro; [apply if_no | | apply if_yes; [lia | lra] | reflexivity].
    unfold include_final, event_occurred_at, is_active. cbn [ei_last ei_type ei_int ei_last_flag].
    destruct (Req_EM_T (0 + 1 + 1) (0 + 1 + 1)) as [_ | C]; [reflexivity | exfalso; lra]. }
  repeat split.
Qed.

(** C05: the requested initial restart file is not written ... *)
Theorem C05_initial_restart_refuted :
  exists en s fuel dts tr s',
    just_started s /\ (forall i, 0 < dts i) /\
    is_active (pf_restart s) = true /\ ei_first_flag (pf_restart s) = true /\
    run fuel en dts s = Some (Ok (tr, s')) /\ ~ In (pf_cycle s, pf_time s) (restart_files tr).
Proof. exact initial_restart_refuted. Qed.
Print Assumptions C05_initial_restart_refuted.

(** ... and one that was not requested may be written. *)
Theorem C05_unrequested_restart_refuted :
  exists en s fuel dts tr s',
    just_started s /\ (forall i, 0 < dts i) /\
    ei_first_flag (pf_restart s) = false /\
    run fuel en dts s = Some (Ok (tr, s')) /\ In (pf_cycle s, pf_time s) (restart_files tr).
Proof. exact unrequested_restart_refuted. Qed.
Print Assumptions C05_unrequested_restart_refuted.

(** C05: what decides it is the Regrid schedule. *)
Theorem C05_initial_restart_iff_regrid : forall en s tr s',
  ei_last (pf_regrid s) = -1 -> 0 <= pf_time s -> run_init en s = (tr, s') ->
  (restart_files tr <> [] <-> is_active (pf_regrid s) = true /\ ei_first_flag (pf_regrid s) = true).
Proof. exact initial_restart_iff_regrid. Qed.
Print Assumptions C05_initial_restart_iff_regrid.

Example C05_example : exists tr s',
  run_init (mkEnv false false) (demo 1 off off (mkEI 5 0 CYCLE (-1) (-1) true false)) = (tr, s') /\
  restart_files tr = [(0%Z, 0)].
Proof. eexists. eexists. split; [ev_init |]. reflexivity. Qed.

(** C06: for a step-based Restart schedule without include_first_step, a run
    stopped at any loop test and restarted with the same input produces exactly the
    rest of the trace of the uninterrupted run, including the files written at the
    end, when the integrator takes the same steps. *)
Theorem C06_restart_transparent_partial : forall en dts s0 tr0 s1 k s fuel flag tr s' f,
  (forall i, 0 < dts i) -> just_started s0 ->
  ei_type (pf_restart s0) = CYCLE -> ei_first_flag (pf_restart s0) = false ->
  run_init en s0 = (tr0, s1) -> reaches en dts 0 s1 k s -> run_continues s = true ->
  run_loop fuel en dts k s flag = Some (Ok (tr, s', f)) ->
  exists tri r r',
    run_init en (restarted s) = (tri, r) /\
    run_loop fuel en (fun i => dts (i + k)%nat) 0 r true = Some (Ok (tr, r', f)) /\
    fst (run_final r' f) = fst (run_final s' f).
Proof. exact restart_transparent. Qed.
Print Assumptions C06_restart_transparent_partial.

(** C06: values saved in and restored from the restart file. *)
Theorem C06_restart_roundtrip : forall s,
  let r := restarted s in
  pf_cycle r = pf_cycle s /\ pf_time r = pf_time s /\ pf_prev_dt r = pf_prev_dt s /\
  pf_max_cycles r = pf_max_cycles s /\ pf_start r = pf_start s /\ pf_end r = pf_end s /\
  pf_amr r = pf_amr s.
Proof. exact restart_roundtrip. Qed.
Print Assumptions C06_restart_roundtrip.

(** C06 fails for a time-based Restart schedule ... *)
Theorem C06_restart_time_schedule_refuted :
  exists en dts s0 tr0 s1 s tr s' f tri r trr r' f',
    (forall i, 0 < dts i) /\ just_started s0 /\
    run_init en s0 = (tr0, s1) /\ reaches en dts 0 s1 2 s /\
    run_loop 1 en dts 2 s true = Some (Ok (tr, s', f)) /\
    restart_files tr = [(3%Z, 3)] /\
    run_init en (restarted s) = (tri, r) /\
    run_loop 1 en (fun i => dts (i + 2)%nat) 0 r true = Some (Ok (trr, r', f')) /\
    pf_cycle r' = 3%Z /\ restart_files (tri ++ trr) = [].
Proof. exact restart_time_schedule_refuted. Qed.
Print Assumptions C06_restart_time_schedule_refuted.

(** ... and the regrid due in the step that wrote the file is lost. *)
Theorem C06_restart_regrid_refuted :
  exists en dts s0 fuel tr s' s tr0 s1 rtr r',
    (forall i, 0 < dts i) /\ just_started s0 /\
    run fuel en dts s0 = Some (Ok (tr, s')) /\ pf_cycle s' = 3%Z /\
    (exists p q, tr = p ++ ARestart 2 (pf_time s) :: q /\ regrids p = [] /\
                 regrids q = [(2%Z, pf_time s)]) /\
    run_init en s0 = (tr0, s1) /\ reaches en dts 0 s1 2 s /\
    run fuel en (fun i => dts (i + 2)%nat) (restarted s) = Some (Ok (rtr, r')) /\
    pf_cycle r' = 3%Z /\ regrids rtr = [].
Proof. exact restart_regrid_refuted. Qed.
Print Assumptions C06_restart_regrid_refuted.

(** hypotheses of C06: stop after one step of a run with plots every 2 steps *)
Example C06_example : exists tr0 s1 s tr s' f,
  just_started (demo 3 (every 2) (every 1) off) /\
  run_init (mkEnv false false) (demo 3 (every 2) (every 1) off) = (tr0, s1) /\
  reaches (mkEnv false false) (fun _ => 1) 0 s1 1 s /\ run_continues s = true /\
  run_loop 2 (mkEnv false false) (fun _ => 1) 1 s true = Some (Ok (tr, s', f)) /\
  length (plot_files tr) = 1%nat /\ length (restart_files tr) = 2%nat.
Proof.
  do 6 eexists.
  split; [apply just_started_demo; reflexivity |].
  split; [ev_init |].
  split; [eapply reaches_step; [ev_rc | ev_after |]; apply reaches_here |].
  split; [ev_rc |].
  split; [ev_go; ev_go; ev_stop |].
  split; reflexivity.
Qed.

(** C46: max_delta_cycles bounds the number of steps of a new run ... *)
Theorem C46_max_delta_input : forall d sc s m fuel en dts tr s',
  get_from_input d sc = Some s -> dk_max_delta d = Some m ->
  run fuel en dts s = Some (Ok (tr, s')) ->
  (Z.of_nat (length (steps tr)) <= Z.max 0 m)%Z.
Proof. exact max_delta_input. Qed.
Print Assumptions C46_max_delta_input.

(** ... and of a restarted run if no absolute limit is in the deck ... *)
Theorem C46_max_delta_restart_partial : forall d f sc m fuel en dts tr s',
  dk_max_delta d = Some m -> dk_max_cycles d = None -> dk_max_timesteps d = None ->
  run fuel en dts (get_from_restart f d sc) = Some (Ok (tr, s')) ->
  (Z.of_nat (length (steps tr)) <= Z.max 0 m)%Z.
Proof. exact max_delta_restart. Qed.
Print Assumptions C46_max_delta_restart_partial.

(** ... but not if both limits are in the deck. *)
Theorem C46_max_delta_both_refuted :
  exists d f sc m fuel en dts tr s',
    dk_max_delta d = Some m /\ (0 < m)%Z /\ (forall i, 0 < dts i) /\
    run fuel en dts (get_from_restart f d sc) = Some (Ok (tr, s')) /\
    (m < Z.of_nat (length (steps tr)))%Z.
Proof. exact max_delta_both_refuted. Qed.
Print Assumptions C46_max_delta_both_refuted.

(** the bound of C46 is attained: max_delta_cycles = 2 gives two steps *)
Example C46_example : exists s tr s',
  get_from_input (mkDeck None None (Some 2%Z) None (Some 100) None) (mkSch off off off off off off) = Some s /\
  run 2 (mkEnv false false) (fun _ => 1) s = Some (Ok (tr, s')) /\ length (steps tr) = 2%nat.
Proof.
  eexists. eexists. eexists. split; [cbn; reflexivity |]. split.
  { eapply run_intro; [ev_init | ev_go; ev_go; ev_stop | ev_final | reflexivity]. }
  reflexivity.
Qed.
