(** C128-C131: mobility of the orientation and of eta, and the preconditioner block that couples orientation to phase. *)
From Coq Require Import Reals ZArith List Bool String Ascii Lra Lia.
From Verif Require Import Grid_Model Grid_Spec Functions_Model Quat_Model Noise_Model Noise_Spec QuatFlow_Model QuatMob_Model QuatMob_Spec QuatMob_Proofs.
Import ListNotations.
Open Scope R_scope.

(** C128: which inputs give the mobility, its minimum, and the function. *)
Theorem C128_input : forall db p, readOrientation db = Some p ->
  (forall m, db_orient_mobility db = Some m -> op_scale p = m) /\
  (forall m, db_orient_mobility db = None -> db_quat_mobility db = Some m -> op_scale p = m) /\
  (forall tau, db_orient_mobility db = None -> db_quat_mobility db = None -> db_tau_quat db = Some tau -> op_scale p * tau = 1) /\
  (forall m, db_min_orient db = Some m -> op_min p = m) /\
  (forall m, db_min_orient db = None -> db_min_quat db = Some m -> op_min p = m) /\
  (db_min_orient db = None -> db_min_quat db = None -> op_min p * 10 ^ 6 = 1) /\
  (db_func_quat db = None -> db_func_orient db = None -> op_type p = "p"%char) /\
  (op_type p = "i"%char -> forall m, db_max_orient db = Some m -> op_max p = Some m) /\
  (op_type p = "e"%char -> forall m, db_exp_orient db = Some m -> op_exp p = Some m).
Proof. exact orient_input. Qed.
Print Assumptions C128_input.

(** C128: for all input accepted with a usable scale, the mobility falls with the phase from quat_mobility to its minimum, for the inverse function from the limit times quat_mobility. *)
Theorem C128_value : forall db p, readOrientation db = Some p -> usable p -> op_min p <= op_scale p ->
  exists F, returns (run_mobility p) F /\ decreasing F /\
    (forall x, op_min p <= F x) /\ (forall x, 1 <= x -> F x = op_min p) /\
    (op_type p <> "i"%char -> (forall x, F x <= op_scale p) /\ (forall x, x <= 0 -> F x = op_scale p)) /\
    (op_type p = "p"%char -> forall x, 0 <= x <= 1 -> F x = op_min p + (op_scale p - op_min p) * (1 - x ^ 3 * (10 - 15 * x + 6 * x ^ 2))) /\
    (op_type p = "e"%char -> forall c, op_exp p = Some c -> forall x, 0 <= x <= 1 ->
       F x = op_min p + (op_scale p - op_min p) * ((exp (c * x) - exp c) / (1 - exp c))) /\
    (op_type p = "i"%char -> forall m, op_max p = Some m ->
       (forall x, F x <= op_min p + (op_scale p - op_min p) * m) /\
       (forall x, / 10 ^ 6 <= x <= 1 -> (1 - x) / x ^ 2 <= m -> F x = op_min p + (op_scale p - op_min p) * ((1 - x) / x ^ 2)) /\
       (forall x, / 10 ^ 6 <= x <= 1 -> m <= (1 - x) / x ^ 2 -> F x = op_min p + (op_scale p - op_min p) * m)).
Proof. exact orient_value. Qed.
Print Assumptions C128_value.

(** C128: it is computed in every cell of a patch and one ghost around it from the phase of that cell, nothing else is written; the phase needs one ghost. *)
Theorem C128_cells : forall db p three_d b phase ngphase mobility, readOrientation db = Some p -> usable p -> (1 <= ngphase)%Z ->
  exists f, computeQuatMobility three_d p b phase ngphase mobility = Some f /\
    holds_in (one_ghost three_d b) (run_mobility p) phase mobility f.
Proof. exact orient_cells. Qed.
Print Assumptions C128_cells.

(** C128: without ghosts of the phase the kernel reads outside of the array. *)
Theorem C128_no_ghosts : forall three_d p b phase mobility, box_ok three_d b -> computeQuatMobility three_d p b phase 0 mobility = None.
Proof. exact orient_no_ghosts. Qed.
Print Assumptions C128_no_ghosts.

(** C128: max_orient_mobility does not limit the mobility. *)
Theorem C128_max_refuted : exists db p M, readOrientation db = Some p /\ db_max_orient db = Some M /\ op_min p <= op_scale p <= M /\
  exists F, returns (run_mobility p) F /\ exists x, 0 <= x <= 1 /\ 9 * M < F x.
Proof. exact max_orient_refuted. Qed.
Print Assumptions C128_max_refuted.

(** C128: with the default scale of the exponential function the mobility is not a number wherever the phase is at least 1/100. *)
Theorem C128_default_scale_refuted : exists db p, readOrientation db = Some p /\ db_orient_mobility db = Some 1 /\ op_type p = "e"%char /\
  forall x, / 100 <= x -> run_mobility p x = Some NaN.
Proof. exact exp_scale_refuted. Qed.
Print Assumptions C128_default_scale_refuted.

(** tau_quat = 1/4 gives mobility 4 in the liquid, 1e-6 in the solid *)
Example C128_ex : exists p F, readOrientation (mk_orient_db None None (Some (/ 4)) None None None None None None None None) = Some p /\ returns (run_mobility p) F /\ F 0 = 4 /\ F 1 = / 10 ^ 6 /\ 1 < F (/ 2) < 3.
Proof.
  destruct (readOrientation (mk_orient_db None None (Some (/ 4)) None None None None None None None None)) as [p |] eqn:E.
  2:{ exfalso. unfold readOrientation in E. cbn [db_orient_mobility db_quat_mobility db_tau_quat] in E. destruct (Req_EM_T (/ 4) 0); [lra |]. discriminate. }
  destruct (C128_input _ p E) as (_ & _ & I3 & _ & _ & I6 & I7 & _). cbn in I3, I6, I7.
  specialize (I3 (/ 4) eq_refl eq_refl eq_refl). specialize (I6 eq_refl eq_refl). specialize (I7 eq_refl eq_refl).
  assert (M : op_min p = / 10 ^ 6) by (apply Rmult_eq_reg_r with (10 ^ 6); [| lra]; rewrite Rinv_l; lra).
  assert (T : 0 < / 10 ^ 6 < / 4) by (split; [apply Rinv_0_lt_compat; lra | apply Rinv_lt_contravar; lra]).
  destruct (C128_value _ p E) as (F & A & _ & _ & B & C & D & _).
  - split; rewrite I7; discriminate.
  - lra.
  - exists p, F. split; [reflexivity |]. split; [exact A |]. destruct (C ltac:(rewrite I7; discriminate)) as (_ & C2).
    split; [rewrite C2; lra |]. split; [rewrite B; lra |]. rewrite (D I7) by lra. rewrite M. replace (op_scale p) with 4 by lra. replace (1 - (/ 2) ^ 3 * (10 - 15 * / 2 + 6 * (/ 2) ^ 2)) with (/ 2) by field. lra.
Qed.

(** C129: the kernel for the derivative returns the derivative of the mobility the run uses; everywhere for the polynomial, between the ends for the exponential, where it is not limited for the inverse function. *)
Theorem C129_slope_partial : forall db p x, readOrientation db = Some p -> usable p ->
  (op_type p = "e"%char -> 0 < x < 1) ->
  (op_type p = "i"%char -> / 10 ^ 6 < x < 1 /\ forall m, op_max p = Some m -> (1 - x) / x ^ 2 < m) ->
  slope_at (run_mobility p) (run_mobility_deriv p) x.
Proof. exact orient_slope. Qed.
Print Assumptions C129_slope_partial.

(** C129: it is computed in every cell of the patch from the phase of that cell, nothing else is written. *)
Theorem C129_cells : forall db p three_d b phase ngphase dmobility, readOrientation db = Some p -> usable p -> (0 <= ngphase)%Z ->
  exists f, computeQuatMobilityDeriv three_d p b phase ngphase dmobility = Some f /\
    holds_in b (run_mobility_deriv p) phase dmobility f.
Proof. exact orient_slope_cells. Qed.
Print Assumptions C129_cells.

(** C129: for the exponential function it is wrong for every phase below 0 or above 1. *)
Theorem C129_exponential_refuted : forall db p, readOrientation db = Some p -> usable p -> op_type p = "e"%char -> op_min p < op_scale p ->
  forall x, x < 0 \/ 1 < x -> ~ slope_at (run_mobility p) (run_mobility_deriv p) x.
Proof. exact exp_slope_refuted. Qed.
Print Assumptions C129_exponential_refuted.

(** C129: for the inverse function it is wrong wherever the factor is limited. *)
Theorem C129_inverse_refuted : forall db p m x, readOrientation db = Some p -> usable p -> op_type p = "i"%char -> op_max p = Some m -> op_min p < op_scale p ->
  / 10 ^ 6 < x < 1 -> m < (1 - x) / x ^ 2 -> ~ slope_at (run_mobility p) (run_mobility_deriv p) x.
Proof. exact inv_slope_refuted. Qed.
Print Assumptions C129_inverse_refuted.

Definition db_exp : orient_db := mk_orient_db (Some 5) None None (Some 1) None (Some "exp"%string) None None None (Some 2) None.
Example C129_ex : exists p, readOrientation db_exp = Some p /\
  slope_at (run_mobility p) (run_mobility_deriv p) (/ 2) /\ ~ slope_at (run_mobility p) (run_mobility_deriv p) (11 / 10).
Proof.
  eexists. split; [reflexivity |].
  assert (L : 2 < 1024 * ln 2).
  { assert (/ 2 < ln 2); [| lra]. rewrite <- (ln_exp (/ 2)). apply ln_increasing; [apply exp_pos |].
    assert (exp (/ 2) * exp (/ 2) = exp 1) by (rewrite <- exp_plus; f_equal; lra). pose proof exp_le_3. pose proof (exp_pos (/ 2)). nra. }
  assert (U : forall p, readOrientation db_exp = Some p -> usable p).
  { intros p [= <-]. split; [| discriminate]. intros _. exists 2. split; [reflexivity |]. split; lra. }
  split.
  - eapply (C129_slope_partial db_exp); [reflexivity | apply U; reflexivity | intros _; lra | discriminate].
  - eapply (C129_exponential_refuted db_exp); [reflexivity | apply U; reflexivity | reflexivity | cbn; lra | right; lra].
Qed.

(** C130: the mobility of eta is computed in every cell of a patch from temperature and phase of that cell, for all boxes and ghost widths in two and three dimensions; unless it is a constant nothing else is written. *)
Theorem C130_cells : forall three_d gasR p b gt gm gp temp phi mob, box_ok three_d b -> ghosts_ok three_d gt -> ghosts_ok three_d gm -> ghosts_ok three_d gp -> 0 < gasR ->
  (forall i j k, in_pbox b i j k -> temp (stored_at (ghost_box b gt) i j k) <> 0) ->
  exists f, computeEtaMobility three_d gasR p b gt gm gp temp phi mob = Some f /\
    (forall i j k, in_pbox b i j k -> eta_value gasR p (temp (stored_at (ghost_box b gt) i j k)) (phi (stored_at (ghost_box b gp) i j k)) = Some (f (stored_at (ghost_box b gm) i j k))) /\
    (ep_min p <> ep_mobility p \/ ep_q0 p <> 0 ->
     forall i j k, in_pbox (ghost_box b gm) i j k -> ~ in_pbox b i j k -> f (stored_at (ghost_box b gm) i j k) = mob (stored_at (ghost_box b gm) i j k)).
Proof. exact eta_cells. Qed.
Print Assumptions C130_cells.

(** C130: at each temperature it falls from the Arrhenius value in the liquid to the minimum in the solid, if that is not above the Arrhenius value. *)
Theorem C130_range : forall gasR p t, 0 < gasR -> 0 < t ->
  exists F, (forall phi, eta_value gasR p t phi = Some (F phi)) /\
    (forall phi, phi <= 0 -> F phi = arrhenius gasR p t) /\ (forall phi, 1 <= phi -> F phi = ep_min p) /\
    (forall phi, 0 <= phi <= 1 -> F phi = arrhenius gasR p t - phi ^ 3 * (10 - 15 * phi + 6 * phi ^ 2) * (arrhenius gasR p t - ep_min p)) /\
    (ep_min p <= arrhenius gasR p t -> decreasing F /\ forall phi, ep_min p <= F phi <= arrhenius gasR p t).
Proof. exact eta_range. Qed.
Print Assumptions C130_range.

(** C130: it does not fall when the temperature rises. *)
Theorem C130_warmer : forall gasR p t t' phi v v', 0 < gasR -> 0 < t -> t <= t' -> 0 <= ep_mobility p -> 0 <= ep_q0 p ->
  eta_value gasR p t phi = Some v -> eta_value gasR p t' phi = Some v' -> v <= v'.
Proof. exact eta_warmer. Qed.
Print Assumptions C130_warmer.

(** C130: when min_eta_mobility is not given and q0_eta_mobility is, the mobility is larger in the solid than in the liquid and below the minimum in the liquid. *)
Theorem C130_default_refuted : forall gasR m q0 t, 0 < gasR -> 0 < m -> 0 < q0 -> 0 < t ->
  exists p v0 v1, readEta (Some m) None (Some q0) = Some p /\ eta_value gasR p t 0 = Some v0 /\ eta_value gasR p t 1 = Some v1 /\ v0 < ep_min p /\ v0 < v1.
Proof. exact eta_default_refuted. Qed.
Print Assumptions C130_default_refuted.

(** two cells, three different ghost widths *)
Example C130_ex : exists f, computeEtaMobility false 1 (mk_eta_par 4 1 0) (mk_pbox 0 1 0 0 0 0) (mk_gwidth 1 1 0) (mk_gwidth 0 0 0) (mk_gwidth 2 2 0) (fun _ => 300) (fun n => if (n =? 15)%Z then 1 else 0) (fun _ => 7) = Some f /\
  f 0%Z = 4 /\ f 1%Z = 1.
Proof.
  destruct (C130_cells false 1 (mk_eta_par 4 1 0) (mk_pbox 0 1 0 0 0 0) (mk_gwidth 1 1 0) (mk_gwidth 0 0 0) (mk_gwidth 2 2 0) (fun _ => 300) (fun n => if (n =? 15)%Z then 1 else 0) (fun _ => 7)) as (f & E & V & _).
  - split; [cbn; lia | intros _; split; reflexivity].
  - split; [cbn; lia | reflexivity].
  - split; [cbn; lia | reflexivity].
  - split; [cbn; lia | reflexivity].
  - lra.
  - intros; lra.
  - exists f. split; [exact E |].
    destruct (C130_range 1 (mk_eta_par 4 1 0) 300 ltac:(lra) ltac:(lra)) as (F & HF & F0 & F1 & _).
    pose proof (V 0%Z 0%Z 0%Z ltac:(cbv; intuition discriminate)) as V0. pose proof (V 1%Z 0%Z 0%Z ltac:(cbv; intuition discriminate)) as V1.
    rewrite HF in V0, V1. injection V0 as V0. injection V1 as V1.
    change (stored_at (ghost_box (mk_pbox 0 1 0 0 0 0) (mk_gwidth 0 0 0)) 0 0 0) with 0%Z in V0. change (stored_at (ghost_box (mk_pbox 0 1 0 0 0 0) (mk_gwidth 0 0 0)) 1 0 0) with 1%Z in V1.
    change (stored_at (ghost_box (mk_pbox 0 1 0 0 0 0) (mk_gwidth 2 2 0)) 0 0 0) with 14%Z in V0. change (stored_at (ghost_box (mk_pbox 0 1 0 0 0 0) (mk_gwidth 2 2 0)) 1 0 0) with 15%Z in V1.
    cbn [Z.eqb Pos.eqb] in V0, V1. rewrite <- V0, <- V1. rewrite F0, F1 by lra. split; [| reflexivity].
    unfold arrhenius. cbn [ep_mobility ep_q0]. replace (- 0 / (300 * 1)) with 0 by field. rewrite exp_0. lra.
Qed.

(** C131: on each face the kernel returns the derivative of the orientation coefficient with respect to the phases, for the arithmetic average, a constant second interpolation, and phases above the threshold. *)
Theorem C131_face_partial : forall c t1 t2 g2 phi1 phi2 d1 d2, In (qp_ftype c) ["m"; "t"; "s"]%char -> In (qp_interp1 c) ["q"; "p"; "h"; "w"; "m"; "3"; "c"]%char -> qp_interp2 c = "c"%char -> qp_avg c = "a"%char ->
  jlf_threshold <= phi1 -> jlf_threshold <= phi2 ->
  exists s1 s2, coefficient_slopes c t1 t2 g2 phi1 phi2 = Some (s1, s2) /\
    derivable_pt_lim (fun e => coefficient c t1 t2 g2 (phi1 + e * d1) (phi2 + e * d2)) 0 (s1 * d1 + s2 * d2).
Proof. exact face_slopes_ok. Qed.
Print Assumptions C131_face_partial.

(** C131: with one orientation component the block times a change of the phase is the derivative of the orientation right-hand side along that change, plus (sqrt M - M) times the derivative for mobility one. *)
Theorem C131_block_partial : forall p c phi temp M dM gqx gqy q dphi old2 old3,
  depth p = 1%Z -> In (qp_ftype c) ["m"; "t"; "s"]%char -> In (qp_interp1 c) ["q"; "p"; "h"; "w"; "m"; "3"; "c"]%char -> qp_interp2 c = "c"%char -> qp_avg c = "a"%char ->
  (forall i j, in_box (lo0 p - 1) (hi0 p + 1) (lo1 p - 1) (hi1 p + 1) i j -> jlf_threshold <= phi i j) ->
  (forall i j, in_box (lo0 p) (hi0 p) (lo1 p) (hi1 p) i j -> derivable_pt_lim M (phi i j) (dM i j)) ->
  exists out, multiplyDQuatDPhiBlock p c phi temp (fun a b => M (phi a b)) dM gqx gqy q dphi old2 old3 = Some out /\
  forall i j, in_box (lo0 p) (hi0 p) (lo1 p) (hi1 p) i j ->
  exists D E, rate (along_phase p c phi dphi temp M gqx gqy q old2 old3 i j) D /\
    rate (along_phase p c phi dphi temp (fun _ => 1) gqx gqy q old2 old3 i j) E /\
    out i j 1%Z = D + (sqrt (M (phi i j)) - M (phi i j)) * E.
Proof. exact block_value. Qed.
Print Assumptions C131_block_partial.

(** C131: so it is the derivative only where the mobility is 0 or 1, or the coefficients do not change. *)
Theorem C131_exact_iff : forall p c phi temp M dM gqx gqy q dphi old2 old3,
  depth p = 1%Z -> In (qp_ftype c) ["m"; "t"; "s"]%char -> In (qp_interp1 c) ["q"; "p"; "h"; "w"; "m"; "3"; "c"]%char -> qp_interp2 c = "c"%char -> qp_avg c = "a"%char ->
  (forall i j, in_box (lo0 p - 1) (hi0 p + 1) (lo1 p - 1) (hi1 p + 1) i j -> jlf_threshold <= phi i j) ->
  (forall i j, in_box (lo0 p) (hi0 p) (lo1 p) (hi1 p) i j -> derivable_pt_lim M (phi i j) (dM i j)) ->
  exists out, multiplyDQuatDPhiBlock p c phi temp (fun a b => M (phi a b)) dM gqx gqy q dphi old2 old3 = Some out /\
  forall i j, in_box (lo0 p) (hi0 p) (lo1 p) (hi1 p) i j -> 0 <= M (phi i j) ->
  exists E, rate (along_phase p c phi dphi temp (fun _ => 1) gqx gqy q old2 old3 i j) E /\
    (rate (along_phase p c phi dphi temp M gqx gqy q old2 old3 i j) (out i j 1%Z) <-> M (phi i j) = 0 \/ M (phi i j) = 1 \/ E = 0).
Proof. exact block_exact. Qed.
Print Assumptions C131_exact_iff.

(** C131: with mobility 4 it is half of the derivative. *)
Theorem C131_sqrt_refuted : exists p c phi temp gqx gqy q dphi, depth p = 1%Z /\ qp_interp1 c = "q"%char /\ qp_interp2 c = "c"%char /\ qp_avg c = "a"%char /\ qp_ftype c = "m"%char /\
  (forall i j, phi i j = / 2) /\ in_box (lo0 p) (hi0 p) (lo1 p) (hi1 p) 0 0 /\
  forall old2 old3, exists out D, multiplyDQuatDPhiBlock p c phi temp (fun _ _ => 4) (fun _ _ => 0) gqx gqy q dphi old2 old3 = Some out /\
    rate (along_phase p c phi dphi temp (fun _ => 4) gqx gqy q old2 old3 0 0) D /\ D <> 0 /\ out 0%Z 0%Z 1%Z = D / 2.
Proof. exact block_sqrt_refuted. Qed.
Print Assumptions C131_sqrt_refuted.

(** C131: a second interpolation that depends on the phase is left out. *)
Theorem C131_interp2_refuted : exists c s1 s2, qp_interp2 c = "q"%char /\ qp_avg c = "a"%char /\ 0 < qp_eps c /\ coefficient_slopes c 1 1 0 (/ 2) (/ 2) = Some (s1, s2) /\
  derivable_pt_lim (fun e => coefficient c 1 1 0 (/ 2 + e) (/ 2)) 0 (3 * s1 / 2) /\ 0 < s1.
Proof. exact face_interp2_refuted. Qed.
Print Assumptions C131_interp2_refuted.

(** C131: beside a cell without solid the derivative is replaced by 0. *)
Theorem C131_threshold_refuted : exists c d, qp_interp2 c = "c"%char /\ qp_avg c = "a"%char /\ coefficient_slopes c 1 1 0 0 (/ 2) = Some (0, 0) /\
  derivable_pt_lim (fun e => coefficient c 1 1 0 0 (/ 2 + e)) 0 d /\ 0 < d.
Proof. exact face_threshold_refuted. Qed.
Print Assumptions C131_threshold_refuted.

(** C131: with the harmonic average it is wrong. *)
Theorem C131_harmonic_refuted : exists c s1 s2 d, qp_interp2 c = "c"%char /\ qp_avg c = "h"%char /\ coefficient_slopes c 1 1 0 1 (/ 2) = Some (s1, s2) /\
  derivable_pt_lim (fun e => coefficient c 1 1 0 (1 + e) (/ 2)) 0 d /\ 0 < d /\ 5 * d < s1.
Proof. exact face_harmonic_refuted. Qed.
Print Assumptions C131_harmonic_refuted.

Example C131_ex : coefficient_slopes (mk_quat_par 0 1 1 "m" "p" "c" "a") 1 3 4 (/ 2) (/ 2) = Some (15 / 8, 15 / 8).
Proof.
  assert (T : jlf_threshold <= / 2) by (unfold jlf_threshold; apply Rinv_le_contravar; lra).
  unfold coefficient_slopes, face_deriv. cbn [qp_eps qp_H qp_floor qp_ftype qp_interp1 qp_interp2 qp_avg average_func deriv_interp_func eval_grad_normi deriv_average_func].
  destruct (Rlt_dec (/ 2) jlf_threshold); [lra |]. destruct (Rlt_dec (1 * 1) 4); [| lra].
  assert (S4 : sqrt 4 = 2) by (replace 4 with (2 * 2) by ring; apply sqrt_square; lra). rewrite S4.
  assert (C : clamp01 (/ 2 * (/ 2 + / 2)) = / 2) by (unfold clamp01; rewrite Rmin_right, Rmax_right; lra). rewrite C. f_equal. f_equal; field.
Qed.
