(** C132-C137: one evaluation of the right-hand side: which arrays it uses and leaves behind. *)
From Coq Require Import Reals ZArith List Bool Lra Lia.
From Verif Require Import RhsEval_Model RhsEval_Spec RhsEval_Proofs.
Import ListNotations.
Open Scope R_scope.

(** C132: a call returns, whatever was computed before. *)
Theorem C132_returns : forall c K m t y fd, has_velocity c -> (with_part c = true -> aziz c = true -> no_nan (m_ivel m)) ->
  exists out m', evaluates c K m t y fd out m'.
Proof. exact returns. Qed.
Print Assumptions C132_returns.

(** C132: what it returns is a function of time and solution, when the partition coefficient does not depend on the velocity and nothing is lagged. *)
Theorem C132_value : forall c K m t y fd out m', guess_free K -> steady_k c -> (fd = 0%Z \/ lag c = false) ->
  evaluates c K m t y fd out m' -> out = rhs_of c K t y.
Proof. exact value. Qed.
Print Assumptions C132_value.

(** C132: so two runs with any calls before return the same. *)
Theorem C132_history : forall c K h1 h2 m1 m2 m1' m2' t y fd1 fd2 out1 out2 e1 e2, guess_free K -> steady_k c ->
  (fd1 = 0%Z /\ fd2 = 0%Z \/ lag c = false) ->
  steps c K m1 h1 m1' -> steps c K m2 h2 m2' ->
  evaluates c K m1' t y fd1 out1 e1 -> evaluates c K m2' t y fd2 out2 e2 -> out1 = out2.
Proof. exact history. Qed.
Print Assumptions C132_history.

Example C132_ex : exists out m', evaluates run_conc demo blank 0 (mkVec [] [] [2] []) 0 out m' /\ d_conc out = Some [- (2 * 2)].
Proof.
  destruct (C132_returns run_conc demo blank 0 (mkVec [] [] [2] []) 0) as (out & m' & E); [intros H; discriminate | intros H; discriminate |].
  exists out, m'. split; [exact E |].
  rewrite (C132_value run_conc demo _ _ _ _ _ _ demo_guess ltac:(intros H; discriminate) (or_introl eq_refl) E). reflexivity.
Qed.

(** C133: with lagging, a perturbed call uses the side gradient of the last unperturbed call or preconditioner setup, and the composition diffusion of the last unperturbed call. *)
Theorem C133_lagged_partial : forall c K m h1 o h2 h3 h4 t0 y0 t1 y1 m1 t y fd out m', guess_free K -> steady_k c -> lag c = true ->
  h1 ++ o :: h2 = h3 ++ Rhs t1 y1 0 :: h4 ->
  sets_side o t0 y0 -> unif_time c <= t0 -> Forall (perturbed c) h2 -> Forall no_new_D h4 ->
  steps c K m (h1 ++ o :: h2) m1 ->
  fd <> 0%Z -> unif_time c <= t -> evaluates c K m1 t y fd out m' ->
  let k := k_uniform K (temp_of c K t y) in
  out = dots_with c K t y k k (k_gside K (quat_of K t0 y0)) (dconc_of c K t1 y1 (k_uniform K (temp_of c K t1 y1))).
Proof. exact lagged. Qed.
Print Assumptions C133_lagged_partial.

(** C133: lag_quat_sidegrad also freezes the diffusion of composition: the difference quotient is -1 where the derivative is -2, without any orientation in the run. *)
Theorem C133_composition_refuted : exists c K x v,
  guess_free K /\ steady_k c /\ lag c = true /\ evolve_quat c = false /\
  let y s := mkVec [] [] [x + s * v] [] in
  derivable_pt_lim (fun s => match d_conc (rhs_of c K 0 (y s)) with Some (r :: _) => r | _ => 0 end) 0 (-2) /\
  forall m, exists out0 m1, evaluates c K m 0 (y 0) 0 out0 m1 /\
    forall sigma, sigma <> 0 -> exists out1 m2 r0 r1, evaluates c K m1 0 (y sigma) 1 out1 m2 /\
      d_conc out0 = Some [r0] /\ d_conc out1 = Some [r1] /\ (r1 - r0) / sigma = -1.
Proof. exact composition_refuted. Qed.
Print Assumptions C133_composition_refuted.

Example C133_ex : exists m1 out m', steps run_conc demo blank [Rhs 0 (mkVec [] [] [2] []) 0] m1 /\
  evaluates run_conc demo m1 0 (mkVec [] [] [3] []) 1 out m' /\ d_conc out = Some [- (2 * 3)].
Proof.
  destruct (C132_returns run_conc demo blank 0 (mkVec [] [] [2] []) 0) as (o0 & m1 & E0); [intros H; discriminate | intros H; discriminate |].
  destruct (C132_returns run_conc demo m1 0 (mkVec [] [] [3] []) 1) as (out & m' & E); [intros H; discriminate | intros H; discriminate |].
  assert (S : steps run_conc demo blank [Rhs 0 (mkVec [] [] [2] []) 0] m1) by (econstructor; [econstructor; exact E0 | constructor]).
  exists m1, out, m'. split; [exact S |]. split; [exact E |].
  rewrite (C133_lagged_partial run_conc demo blank [] (Rhs 0 (mkVec [] [] [2] []) 0) [] [] [] 0 (mkVec [] [] [2] []) 0 (mkVec [] [] [2] []) m1 0
     (mkVec [] [] [3] []) 1 out m' demo_guess ltac:(intros H; discriminate) eq_refl eq_refl (or_introl eq_refl) ltac:(cbn; lra) (Forall_nil _) (Forall_nil _) S
     ltac:(discriminate) ltac:(cbn; lra) E).
  reflexivity.
Qed.

(** C134: the fixed point iteration never takes a second turn. *)
Theorem C134_turns : forall c K t fd m ydot m' n, with_part c = true -> aziz c = true -> phase_loop c K t fd m ydot m' n ->
  n = 1%nat.
Proof. exact turns. Qed.
Print Assumptions C134_turns.

(** C134: the phase equation uses the velocity of the previous call, the composition equation that of this one. *)
Theorem C134_value_partial : forall c K m t y out m', guess_free K -> with_phase c = true -> with_part c = true -> aziz c = true ->
  evaluates c K m t y 0 out m' ->
  let T := temp_of c K t y in
  let k := k_aziz K (m_vel m) T in
  let k' := k_aziz K (m_vel m') T in
  out = dots_with c K t y k k' (levelled c t (k_gside K (quat_of K t y))) (dconc_of c K t y k') /\
  m_vel m' = k_vel K (m_pgrad m') (pdot_of c K t y k).
Proof. exact two_coefficients. Qed.
Print Assumptions C134_value_partial.

(** C134: so two calls with the same time and solution return different derivatives. *)
Theorem C134_repeat_refuted : exists c K m t y out1 m1 out2 m2,
  guess_free K /\ no_nan (m_ivel m) /\ with_part c = true /\ aziz c = true /\
  evaluates c K m t y 0 out1 m1 /\ evaluates c K m1 t y 0 out2 m2 /\
  d_phase out1 = Some [4] /\ m_vel m1 = [4 / 5] /\ d_phase out2 = Some [108 / 31].
Proof. exact repeat_refuted. Qed.
Print Assumptions C134_repeat_refuted.

(** C134: if the array that is compared, which is never assigned, holds a NaN, the call does not return. *)
Theorem C134_nan : forall c K m t y fd, with_phase c = true -> with_part c = true -> aziz c = true -> some_nan (m_ivel m) ->
  forall out m', ~ evaluates c K m t y fd out m'.
Proof. exact nan_forever. Qed.
Print Assumptions C134_nan.

(** C134: with velocity_output FALSE no call returns. *)
Theorem C134_output_refuted : forall c K m t y fd, with_conc c = true -> phase_concs c = true -> with_part c = true -> aziz c = true ->
  vel_flag c = read_vel_flag true true (Some false) -> forall out m', ~ evaluates c K m t y fd out m'.
Proof. exact no_output. Qed.
Print Assumptions C134_output_refuted.

Example C134_ex : (forall out m', ~ evaluates run_aziz demo
    (mkMem [] [] [] [] [] [] [] [0] None [0] [Some 1; None] [] [] [] [] [] [] [] [] []) 0 (mkVec [0; 1; 1] [] [1] []) 0 out m') /\
  exists out m', evaluates run_aziz demo blank 0 (mkVec [0; 1; 1] [] [1] []) 0 out m'.
Proof.
  split.
  - apply C134_nan; try reflexivity. apply Exists_cons_tl, Exists_cons_hd. reflexivity.
  - apply C132_returns; [intros _; reflexivity | intros _ _; repeat constructor; discriminate].
Qed.

(** C135: at a time different from the one of the call before, the velocity is the time derivative over the gradient of this solution. *)
Theorem C135_velocity_partial : forall c K m t y out m', guess_free K -> with_phase c = true -> compute_velocity c = true ->
  m_ptime m <> Some t -> evaluates c K m t y 0 out m' ->
  exists ydot, d_phase out = Some ydot /\ m_vel m' = k_vel K (k_pgrad K (phase_of K t y)) ydot.
Proof. exact fresh_velocity. Qed.
Print Assumptions C135_velocity_partial.

(** C135: in all later calls at the same time it uses the gradient of the first solution. *)
Theorem C135_same_time : forall c K m t y0 o h m1 y out m', guess_free K -> with_phase c = true -> compute_velocity c = true ->
  m_ptime m <> Some t -> ((exists fd, o = Rhs t y0 fd) \/ o = Prec t y0) -> Forall (at_time t) h ->
  steps c K m (o :: h) m1 -> evaluates c K m1 t y 0 out m' ->
  exists ydot, d_phase out = Some ydot /\ m_vel m' = k_vel K (k_pgrad K (phase_of K t y0)) ydot.
Proof. exact same_time. Qed.
Print Assumptions C135_same_time.

(** C135: with numbers: velocity 4 instead of 5. *)
Theorem C135_stale_refuted : exists c K m t y1 y2 out1 m1 out2 m2,
  guess_free K /\ with_phase c = true /\ vel_flag c = true /\ m_ptime m <> Some t /\
  evaluates c K m t y1 0 out1 m1 /\ evaluates c K m1 t y2 0 out2 m2 /\
  d_phase out2 = Some [20] /\ m_vel m2 = [4] /\ k_vel K (k_pgrad K (phase_of K t y2)) [20] = [5].
Proof. exact stale_refuted. Qed.
Print Assumptions C135_stale_refuted.

(** C135: in the first call after a regrid at the same time the gradient is zero. *)
Theorem C135_regrid : forall c K m t y0 fd0 m1 y out m', guess_free K -> with_phase c = true -> compute_velocity c = true ->
  steps c K m [Rhs t y0 fd0; Regrid] m1 -> evaluates c K m1 t y 0 out m' ->
  exists ydot g, d_phase out = Some ydot /\ all_zero g /\ m_vel m' = k_vel K g ydot.
Proof. exact after_regrid. Qed.
Print Assumptions C135_regrid.

Example C135_ex : exists out m', evaluates run_vel demo blank 1 (mkVec [0; 1 / 2; 1] [] [] []) 0 out m' /\ d_phase out = Some [20] /\ m_vel m' = [4].
Proof.
  destruct (C132_returns run_vel demo blank 1 (mkVec [0; 1 / 2; 1] [] [] []) 0) as (out & m' & E); [intros _; reflexivity | intros; discriminate |].
  assert (D : d_phase out = Some [20]).
  { rewrite (C132_value run_vel demo _ _ _ _ _ _ demo_guess ltac:(intros H; discriminate) (or_introl eq_refl) E). reflexivity. }
  exists out, m'. split; [exact E |]. split; [exact D |].
  destruct (C135_velocity_partial run_vel demo blank 1 (mkVec [0; 1 / 2; 1] [] [] []) out m' demo_guess eq_refl eq_refl ltac:(discriminate) E) as (yd & D' & ->).
  assert (yd = [20]) by congruence. subst yd. cbn -[Rdiv sqrt Rmult]. unfold velocity_cell, grad2. cbn [fold_left].
  replace (3 * (1 - 0)) with 3 by ring. rewrite sqrt_5. f_equal. field.
Qed.

(** C136: an unperturbed call shows what it returns, and perturbed calls and preconditioner setups after it change neither that nor the velocity. *)
Theorem C136_shown : forall c K m t y out m1 h m2, guess_free K -> rhs_visit c = true -> evaluates c K m t y 0 out m1 ->
  Forall no_new_D h -> steps c K m1 h m2 ->
  (evolve_quat c = true -> d_quat out = Some (m_vquat m2)) /\
  (with_conc c = true -> d_conc out = Some (m_vconc m2)) /\
  (unsteady c = true -> d_temp out = Some (m_vtemp m2)) /\ m_vel m2 = m_vel m1.
Proof. exact shown_later. Qed.
Print Assumptions C136_shown.

Example C136_ex : exists out m',
  evaluates (mkConfig false false true false false false false false true false false false false true 0 4 2) demo blank 0 (mkVec [] [] [2] []) 0 out m' /\
  m_vconc m' = [- (2 * 2)].
Proof.
  set (c := mkConfig false false true false false false false false true false false false false true 0 4 2).
  destruct (C132_returns c demo blank 0 (mkVec [] [] [2] []) 0) as (out & m' & E); [intros H; discriminate | intros H; discriminate |].
  exists out, m'. split; [exact E |].
  destruct (C136_shown c demo blank 0 (mkVec [] [] [2] []) out m' [] m' demo_guess eq_refl E (Forall_nil _) (steps_nil _ _ _)) as (_ & S & _).
  specialize (S eq_refl).
  rewrite (C132_value c demo _ _ _ _ _ _ demo_guess ltac:(intros H; discriminate) (or_introl eq_refl) E) in S. cbn in S.
  injection S as S. symmetry. exact S.
Qed.

(** C137: the velocity has the sign of the time derivative, is at most its quotient by the gradient and at most 50 dx times it. *)
Theorem C137_bounds : forall dx0 g phi_dot, 0 < dx0 ->
  let v := velocity_cell dx0 g phi_dot in
  Rabs v * sqrt (grad2 g) <= Rabs phi_dot /\
  Rabs v <= Rabs phi_dot * (50 * dx0) /\
  (0 < phi_dot -> 0 < v) /\ (phi_dot = 0 -> v = 0) /\ (phi_dot < 0 -> v < 0).
Proof. exact speed_bounds. Qed.
Print Assumptions C137_bounds.

(** C137: for a front that moves with speed V without changing its profile it is at most V, and close to V where the gradient is steep on the mesh. *)
Theorem C137_front : forall dx0 g V phi_dot, 0 < dx0 -> 0 < grad2 g -> phi_dot = V * sqrt (grad2 g) ->
  let v := velocity_cell dx0 g phi_dot in
  Rabs v <= Rabs V /\ Rabs (v - V) <= Rabs V * ((1 / 5000) / (dx0 * dx0 * grad2 g)).
Proof. exact speed_front. Qed.
Print Assumptions C137_front.

(** C137: where there is no front it is 50 dx times the time derivative. *)
Theorem C137_bulk : forall dx0 g phi_dot, 0 < dx0 -> Forall (fun x => x = 0) g ->
  velocity_cell dx0 g phi_dot = phi_dot * (50 * dx0).
Proof. exact speed_bulk. Qed.
Print Assumptions C137_bulk.

(** C137: every cell uses its own gradient and time derivative. *)
Theorem C137_cells : forall dx0 gs ps i, (i < length gs)%nat -> length ps = length gs ->
  length (velocity dx0 gs ps) = length ps /\
  nth i (velocity dx0 gs ps) 0 = velocity_cell dx0 (nth i gs []) (nth i ps 0).
Proof. exact speed_cells. Qed.
Print Assumptions C137_cells.

(** C137: only the spacing in x enters: the same front seen along y moves at another speed. *)
Theorem C137_axes_refuted : exists dx dy g phi_dot, 0 < dx /\ 0 < dy /\
  velocity_cell dx [g; 0] phi_dot <> velocity_cell dy [0; g] phi_dot.
Proof. exact speed_axes_refuted. Qed.
Print Assumptions C137_axes_refuted.

Example C137_ex : velocity_cell (1 / 200) [3] 5 = 1 /\ Rabs (1 - 5 / 3) <= Rabs (5 / 3) * ((1 / 5000) / (1 / 200 * (1 / 200) * 9)).
Proof.
  assert (V : velocity_cell (1 / 200) [3] 5 = 1).
  { unfold velocity_cell, grad2. cbn [fold_left]. rewrite sqrt_5. field. }
  split; [exact V |].
  assert (G : grad2 [3] = 9) by (unfold grad2; cbn [fold_left]; ring).
  destruct (C137_front (1 / 200) [3] (5 / 3) 5) as (_ & H).
  - lra.
  - rewrite G. lra.
  - rewrite G. replace 9 with (3 * 3) by ring. rewrite sqrt_square by lra. field.
  - rewrite V, G in H. exact H.
Qed.
