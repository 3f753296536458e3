From Coq Require Import Reals ZArith List Bool Lia Lra.
From Verif Require Import RhsEval_Model RhsEval_Spec.
Import ListNotations.
Local Open Scope R_scope.

(** ** The coefficients *)

Record coefs (c : config) (K : kernels) (t : R) (y : vec) (r : bool) (m m1 : mem) (k : field) : Prop := mkCoefs {
  cf_temp : m_temp m1 = (if unsteady c then y_temp (k_fill K t y) else m_temp m);
  cf_phase : with_phase c = true -> m_phase m1 = phase_of K t y;
  cf_quat : evolve_quat c = true -> m_quat m1 = quat_of K t y;
  cf_conc : with_conc c = true -> m_conc m1 = conc_of K t y;
  cf_gside : evolve_quat c = true -> m_gside m1 = k_gside K (quat_of K t y);
  cf_gmod : evolve_quat c = true -> m_gmod m1 = k_gmod K (k_gside K (quat_of K t y));
  cf_gcopy : evolve_quat c = true -> m_gcopy m1 = levelled c t (if r then k_gside K (quat_of K t y) else m_gcopy m);
  cf_pgrad : with_phase c && compute_velocity c = true ->
     m_pgrad m1 = (if is_some_eq (m_ptime m) t then m_pgrad m else k_pgrad K (phase_of K t y));
  cf_ptime : m_ptime m1 = (if with_phase c && compute_velocity c then Some t else m_ptime m);
  cf_vel : m_vel m1 = m_vel m;
  cf_ivel : m_ivel m1 = m_ivel m;
  cf_dconc : m_dconc m1 = m_dconc m;
  cf_visit : m_vquat m1 = m_vquat m /\ m_vconc m1 = m_vconc m /\ m_vtemp m1 = m_vtemp m;
  cf_pc : with_conc c && phase_concs c = true ->
     m_pc m1 = k_pc K (m_temp m1) (opt (with_phase c) (phase_of K t y)) (conc_of K t y) (opt (with_part c) k) (m_pc m);
  cf_mob : m_mob m1 = k_mob K t (m_temp m1) (opt (with_phase c) (phase_of K t y)) (opt (with_conc c) (conc_of K t y))
                        (opt (with_conc c && phase_concs c) (m_pc m1)) }.

Definition part_used (c : config) (K : kernels) (m : mem) (T : field) : field :=
  if aziz c then k_aziz K (m_vel m) T else k_uniform K T.

Lemma opt_ext b f g : (b = true -> f = g) -> opt b f = opt b g.
Proof. destruct b; cbn; [intros H; rewrite (H eq_refl)|]; reflexivity. Qed.

Lemma is_lt_iff a b : is_lt a b = true <-> a < b.
Proof. unfold is_lt. destruct (Rlt_dec a b); split; intros; try easy. Qed.

Definition before_pc (c : config) (K : kernels) (t : R) (y : vec) (r : bool) (m : mem) : mem :=
  let m := fillScratch c K t y m in
  let m := if evolve_quat c then computeQuatGradients K r m else m in
  let m := if with_phase c && compute_velocity c then computePhaseGrad K t m else m in
  if evolve_quat c && is_lt t (unif_time c) then setUniformDiffusionCoeffForQuat c m else m.

Lemma ptime_eq (o : option R) t : is_some_eq o t = true -> o = Some t.
Proof. destruct o as [s|]; cbn; [|discriminate]. destruct (Req_EM_T t s) as [->|]; easy. Qed.

Lemma before_pc_fields c K t y r m : let m1 := before_pc c K t y r m in
  m_temp m1 = (if unsteady c then y_temp (k_fill K t y) else m_temp m) /\
  (with_phase c = true -> m_phase m1 = phase_of K t y) /\
  (evolve_quat c = true -> m_quat m1 = quat_of K t y) /\
  (with_conc c = true -> m_conc m1 = conc_of K t y) /\
  (evolve_quat c = true -> m_gside m1 = k_gside K (quat_of K t y)) /\
  (evolve_quat c = true -> m_gmod m1 = k_gmod K (k_gside K (quat_of K t y))) /\
  (evolve_quat c = true -> m_gcopy m1 = levelled c t (if r then k_gside K (quat_of K t y) else m_gcopy m)) /\
  (with_phase c && compute_velocity c = true ->
     m_pgrad m1 = (if is_some_eq (m_ptime m) t then m_pgrad m else k_pgrad K (phase_of K t y))) /\
  m_ptime m1 = (if with_phase c && compute_velocity c then Some t else m_ptime m) /\
  m_vel m1 = m_vel m /\ m_ivel m1 = m_ivel m /\ m_dconc m1 = m_dconc m /\
  (m_vquat m1 = m_vquat m /\ m_vconc m1 = m_vconc m /\ m_vtemp m1 = m_vtemp m) /\
  m_pc m1 = m_pc m /\ m_kpart m1 = m_kpart m.
Proof.
  pose proof (ptime_eq (m_ptime m) t) as P.
  destruct m as [a1 a2 a3 a4 a5 a6 a7 a8 a9 a10 a11 a12 a13 a14 a15 a16 a17 a18 a19 a20].
  unfold before_pc, levelled, is_lt, phase_of, quat_of, conc_of. cbn [m_ptime] in P.
  unfold fillScratch, set_scratch. cbn [m_temp m_phase m_quat m_conc m_gside m_gcopy m_gmod m_pgrad m_ptime m_vel m_ivel m_kpart m_pc m_mob m_dphi m_forces m_dconc m_vquat m_vconc m_vtemp].
  destruct (evolve_quat c) eqn:Q; unfold computeQuatGradients, set_grad; cbv zeta;
    cbn [m_temp m_phase m_quat m_conc m_gside m_gcopy m_gmod m_pgrad m_ptime m_vel m_ivel m_kpart m_pc m_mob m_dphi m_forces m_dconc m_vquat m_vconc m_vtemp];
  destruct (with_phase c) eqn:W, (compute_velocity c) eqn:V; cbn [andb];
    unfold computePhaseGrad, set_pgrad; cbv zeta;
    cbn [m_temp m_phase m_quat m_conc m_gside m_gcopy m_gmod m_pgrad m_ptime m_vel m_ivel m_kpart m_pc m_mob m_dphi m_forces m_dconc m_vquat m_vconc m_vtemp];
    try (destruct (is_some_eq a9 t) eqn:E; [specialize (P eq_refl)|]);
    try (destruct (Rlt_dec t (unif_time c)));
    unfold setUniformDiffusionCoeffForQuat, set_grad; cbv zeta;
    cbn [m_temp m_phase m_quat m_conc m_gside m_gcopy m_gmod m_pgrad m_ptime m_vel m_ivel m_kpart m_pc m_mob m_dphi m_forces m_dconc m_vquat m_vconc m_vtemp];
    destruct (with_conc c) eqn:CC; repeat split; intros; try reflexivity; try discriminate; auto.
Qed.

Lemma coefs_of c K t y r m m1 : setCoefficients c K t y r m = Some m1 ->
  coefs c K t y r m m1 (part_used c K m (m_temp m1)) /\ (with_part c = true -> aziz c = true -> with_conc c = true -> phase_concs c = true -> vel_flag c = true).
Proof.
  unfold setCoefficients. fold (before_pc c K t y r m).
  pose proof (before_pc_fields c K t y r m) as B. cbv zeta in B.
  remember (before_pc c K t y r m) as mb eqn:EB. clear EB.
  destruct B as (B1 & B2 & B3 & B4 & B5 & B6 & B7 & B8 & B9 & B10 & B11 & B12 & B13 & B14 & B15).
  assert (PH : opt (with_phase c) (m_phase mb) = opt (with_phase c) (phase_of K t y)) by (apply opt_ext; exact B2).
  assert (CO : opt (with_conc c) (m_conc mb) = opt (with_conc c) (conc_of K t y)) by (apply opt_ext; exact B4).
  destruct (with_conc c && phase_concs c) eqn:PC.
  - apply andb_true_iff in PC as [CC PCC]. specialize (B4 CC).
    unfold computePhaseConcentrations.
    destruct (with_part c) eqn:WP; [destruct (aziz c) eqn:AZ; [destruct (vel_flag c) eqn:VF|]|]; try discriminate;
      intros E; injection E as <-; (split; [|intros; first [reflexivity | discriminate | congruence]]);
      (constructor; cbn [m_temp m_phase m_quat m_conc m_gside m_gcopy m_gmod m_pgrad m_ptime m_vel m_ivel m_kpart m_pc m_mob m_dphi m_forces m_dconc m_vquat m_vconc m_vtemp set_pc computeMobilities set_mob]; auto; intros;
       unfold part_used; rewrite ?AZ, ?WP, ?CC, ?PCC, ?PH, ?B4, ?B14, ?B10; cbn [opt andb]; try reflexivity).
  - intros E; injection E as <-. split; [|intros _ _ CC PCC; rewrite CC, PCC in PC; discriminate].
    constructor; cbn [m_temp m_phase m_quat m_conc m_gside m_gcopy m_gmod m_pgrad m_ptime m_vel m_ivel m_kpart m_pc m_mob m_dphi m_forces m_dconc m_vquat m_vconc m_vtemp set_pc computeMobilities set_mob]; auto.
    + intros X; rewrite PC in X; discriminate.
    + rewrite PH, CO, PC. reflexivity.
Qed.

(** ** The loop *)

Lemma self_zero a : no_nan a -> l1norm (zip_sub a a) = Some 0.
Proof.
  induction 1 as [|x a Hx Ha IH]; [reflexivity|]. cbn. destruct x as [x|]; [|easy]. cbn. rewrite IH.
  f_equal. replace (x - x) with 0 by ring. rewrite Rabs_R0. ring.
Qed.
Lemma self_small a : no_nan a -> small (l1norm (zip_sub a a)) = true.
Proof.
  intros H. rewrite self_zero by exact H. cbn -[pow]. apply is_lt_iff.
  apply Rdiv_lt_0_compat; [lra|apply pow_lt; lra].
Qed.
Lemma self_nan a : some_nan a -> l1norm (zip_sub a a) = None.
Proof.
  induction 1 as [x a ->|x a Ha IH]; [reflexivity|]. cbn. rewrite IH. destruct x; reflexivity.
Qed.

Record turned (c : config) (K : kernels) (t : R) (fd : Z) (m : mem) (p : field) (b : bool) (m2 : mem) : Prop := mkTurned {
  tu_dots : p = k_move K (m_phase m) (opt (rb c) (k_forces K (m_phase m)))
      (k_phase K t (m_temp m) (m_phase m) (opt (evolve_quat c) (m_quat m)) (opt (with_conc c) (m_conc m))
               (opt (with_conc c && phase_concs c) (m_pc m)) (m_mob m) (opt (evolve_quat c) (m_gmod m)));
  tu_dphi : need_dphidt c = true -> m_dphi m2 = k_dphi K t
      (k_phase K t (m_temp m) (m_phase m) (opt (evolve_quat c) (m_quat m)) (opt (with_conc c) (m_conc m))
               (opt (with_conc c && phase_concs c) (m_pc m)) (m_mob m) (opt (evolve_quat c) (m_gmod m)));
  tu_forces : rb c = true -> m_forces m2 = k_forces K (m_phase m);
  tu_again : b = with_part c && aziz c && negb (small (l1norm (zip_sub (m_ivel m) (m_ivel m))));
  tu_vel : m_vel m2 = (if compute_velocity c && (fd =? 0)%Z then k_vel K (m_pgrad m) p else m_vel m);
  tu_flag : compute_velocity c && (fd =? 0)%Z = true -> vel_flag c = true;
  tu_flag' : with_part c && aziz c = true -> vel_flag c = true;
  tu_pc : m_pc m2 = (if with_part c && aziz c
       then k_pc K (m_temp m) (opt (with_phase c) (m_phase m)) (m_conc m) (opt (with_part c) (k_aziz K (m_vel m2) (m_temp m))) (m_pc m)
       else m_pc m);
  tu_same : m_temp m2 = m_temp m /\ m_phase m2 = m_phase m /\ m_quat m2 = m_quat m /\ m_conc m2 = m_conc m /\
      m_gside m2 = m_gside m /\ m_gcopy m2 = m_gcopy m /\ m_pgrad m2 = m_pgrad m /\ m_ptime m2 = m_ptime m /\
      m_ivel m2 = m_ivel m /\ m_mob m2 = m_mob m /\ m_dconc m2 = m_dconc m /\
      m_vquat m2 = m_vquat m /\ m_vconc m2 = m_vconc m /\ m_vtemp m2 = m_vtemp m }.

Lemma turn_of c K t fd m p b m2 : phase_turn c K t fd m = Some (p, b, m2) -> turned c K t fd m p b m2.
Proof.
  unfold phase_turn, evaluatePhaseRHS, computePhaseConcentrations. cbv zeta.
  destruct (compute_velocity c && (fd =? 0)%Z) eqn:V; destruct (vel_flag c) eqn:F;
  destruct (with_part c) eqn:W; try destruct (aziz c) eqn:A; cbn [andb negb]; intros E; try discriminate;
  injection E as <- <- <-;
  (constructor; cbn -[k_move]; rewrite ?V, ?W, ?A; cbn [andb]; rewrite ?F; auto; try discriminate;
   try (intros ->; reflexivity); try (repeat split; reflexivity)).
  all: destruct (rb c); reflexivity.
Qed.

Lemma loop_once c K t fd m p m2 n : (with_part c && aziz c = true -> no_nan (m_ivel m)) ->
  phase_loop c K t fd m p m2 n -> n = 1%nat /\ turned c K t fd m p false m2.
Proof.
  intros N L. destruct L as [m p m2 T|m y0 m1 p m2 n T L].
  - split; [reflexivity|]. apply turn_of, T.
  - apply turn_of in T. pose proof (tu_again _ _ _ _ _ _ _ _ T) as A.
    destruct (with_part c && aziz c) eqn:E; [|discriminate]. rewrite self_small in A by (apply N; reflexivity). discriminate.
Qed.

Lemma loop_nan c K t fd m p m2 n : with_part c && aziz c = true -> some_nan (m_ivel m) ->
  ~ phase_loop c K t fd m p m2 n.
Proof.
  intros E N L. induction L as [m p m2 T|m y0 m1 p m2 n T L IH]; apply turn_of in T.
  - pose proof (tu_again _ _ _ _ _ _ _ _ T) as A. rewrite E, self_nan in A by exact N. discriminate.
  - apply IH. destruct (tu_same _ _ _ _ _ _ _ _ T) as (_ & _ & _ & _ & _ & _ & _ & _ & -> & _). exact N.
Qed.

Lemma nan_dec a : no_nan a \/ some_nan a.
Proof.
  induction a as [|[x|] a [H|H]]; [left; constructor|left; constructor; [easy|exact H]|right; apply Exists_cons_tl; exact H| |].
  - right. apply Exists_cons_hd. reflexivity.
  - right. apply Exists_cons_hd. reflexivity.
Qed.

Lemma loop_no_nan c K t fd m p m2 n : with_part c && aziz c = true -> phase_loop c K t fd m p m2 n -> no_nan (m_ivel m).
Proof. intros E L. destruct (nan_dec (m_ivel m)) as [H|H]; [exact H|]. destruct (loop_nan _ _ _ _ _ _ _ _ E H L). Qed.

(** ** The whole call *)

Definition fresh_flag (c : config) (fd : Z) : bool := (fd =? 0)%Z || negb (lag c).
Definition first_k (c : config) (K : kernels) (m : mem) (t : R) (y : vec) : field :=
  part_used c K m (temp_of c K t y).
Definition pgrad_used (K : kernels) (m : mem) (t : R) (y : vec) : field :=
  if is_some_eq (m_ptime m) t then m_pgrad m else k_pgrad K (phase_of K t y).
Definition new_vel (c : config) (K : kernels) (m : mem) (t : R) (y : vec) (fd : Z) : field :=
  if with_phase c && compute_velocity c && (fd =? 0)%Z
  then k_vel K (pgrad_used K m t y) (pdot_of c K t y (first_k c K m t y)) else m_vel m.
Definition second_k (c : config) (K : kernels) (m : mem) (t : R) (y : vec) (fd : Z) : field :=
  if with_phase c && (with_part c && aziz c) then k_aziz K (new_vel c K m t y fd) (temp_of c K t y) else first_k c K m t y.
Definition side_used (c : config) (K : kernels) (m : mem) (t : R) (y : vec) (fd : Z) : field :=
  levelled c t (if fresh_flag c fd then k_gside K (quat_of K t y) else m_gcopy m).
Definition dconc_used (c : config) (K : kernels) (m : mem) (t : R) (y : vec) (fd : Z) : field :=
  if fresh_flag c fd then dconc_of c K t y (second_k c K m t y fd) else m_dconc m.

Lemma evaluates_full c K m t y fd out m' : guess_free K ->
  evaluates c K m t y fd out m' ->
  out = dots_with c K t y (first_k c K m t y) (second_k c K m t y fd) (side_used c K m t y fd) (dconc_used c K m t y fd) /\
  (evolve_quat c = true -> m_gcopy m' = side_used c K m t y fd) /\
  (with_conc c = true -> m_dconc m' = dconc_used c K m t y fd) /\
  m_vel m' = new_vel c K m t y fd /\
  m_ivel m' = m_ivel m /\
  (with_phase c && compute_velocity c = true -> m_pgrad m' = pgrad_used K m t y) /\
  m_ptime m' = (if with_phase c && compute_velocity c then Some t else m_ptime m) /\
  m_vquat m' = (if evolve_quat c && (rhs_visit c && (fd =? 0)%Z) then match d_quat out with Some f => f | None => [] end else m_vquat m) /\
  m_vconc m' = (if with_conc c && (rhs_visit c && (fd =? 0)%Z) then match d_conc out with Some f => f | None => [] end else m_vconc m) /\
  m_vtemp m' = (if unsteady c && (rhs_visit c && (fd =? 0)%Z) then match d_temp out with Some f => f | None => [] end else m_vtemp m).
Proof.
  intros G (m1 & C & E). unfold side_used, dconc_used. fold (fresh_flag c fd) in C.
  pose proof (coefs_of _ _ _ _ _ _ _ C) as [Q _]. clear C.
  set (m0 := setTemperatureField c K t m) in *.
  assert (S0 : m_gcopy m0 = m_gcopy m /\ m_pgrad m0 = m_pgrad m /\ m_ptime m0 = m_ptime m /\ m_vel m0 = m_vel m /\ m_ivel m0 = m_ivel m /\
     m_dconc m0 = m_dconc m /\ m_vquat m0 = m_vquat m /\ m_vconc m0 = m_vconc m /\ m_vtemp m0 = m_vtemp m /\
     (unsteady c = false -> m_temp m0 = k_temp K t)).
  { unfold m0, setTemperatureField. destruct (unsteady c); cbn; repeat split; auto; discriminate. }
  clearbody m0.
  destruct S0 as (S1 & S2 & S3 & S4 & S5 & S6 & S7 & S8 & S9 & S10).
  destruct Q as [q_temp q_phase q_quat q_conc q_gside q_gmod q_gcopy q_pgrad q_ptime q_vel q_ivel q_dconc [q_v1 [q_v2 q_v3]] q_pc q_mob].
  rewrite S1 in q_gcopy. rewrite S2, S3 in q_pgrad. rewrite S3 in q_ptime. rewrite S4 in q_vel. rewrite S5 in q_ivel.
  rewrite S6 in q_dconc. rewrite S7 in q_v1. rewrite S8 in q_v2. rewrite S9 in q_v3.
  assert (TT : m_temp m1 = temp_of c K t y).
  { rewrite q_temp. unfold temp_of. destruct (unsteady c) eqn:U; [reflexivity|]. apply S10; reflexivity. }
  assert (K1 : part_used c K m0 (m_temp m1) = first_k c K m t y).
  { unfold first_k, part_used. rewrite S4, TT. reflexivity. }
  rewrite K1 in q_pc.
  assert (PCE : opt (with_conc c && phase_concs c) (m_pc m1) = pc_of c K t y (first_k c K m t y)).
  { unfold pc_of. apply opt_ext. intros X. rewrite (q_pc X), TT. apply G. }
  assert (MOB : m_mob m1 = mob_of c K t y (first_k c K m t y)).
  { rewrite q_mob, PCE, TT. reflexivity. }
  assert (QU : opt (evolve_quat c) (m_quat m1) = opt (evolve_quat c) (quat_of K t y)) by (apply opt_ext; auto).
  assert (CO : opt (with_conc c) (m_conc m1) = opt (with_conc c) (conc_of K t y)) by (apply opt_ext; auto).
  assert (GM : opt (evolve_quat c) (m_gmod m1) = opt (evolve_quat c) (k_gmod K (k_gside K (quat_of K t y)))) by (apply opt_ext; auto).
  destruct (with_phase c) eqn:W.
  - destruct E as (p & m2 & n & L & R).
    assert (NI : with_part c && aziz c = true -> no_nan (m_ivel m1)) by (intros X; exact (loop_no_nan _ _ _ _ _ _ _ _ X L)).
    destruct (loop_once _ _ _ _ _ _ _ _ NI L) as [_ T]. clear L n NI.
    specialize (q_phase eq_refl).
    destruct T as [u_p u_dphi u_f _ u_vel _ _ u_pc u_same].
    rewrite q_phase, TT, QU, CO, PCE, MOB, GM in u_p. rewrite q_phase, TT, QU, CO, PCE, MOB, GM in u_dphi.
    fold (raw_of c K t y (first_k c K m t y)) in u_p, u_dphi.
    fold (pdot_of c K t y (first_k c K m t y)) in u_p.
    rewrite q_phase in u_f.
    destruct u_same as (t1 & t2 & t3 & t4 & t5 & t6 & t7 & t8 & t9 & t10 & t11 & t12 & t13 & t14).
    assert (VE : m_vel m2 = new_vel c K m t y fd).
    { rewrite u_vel. unfold new_vel. rewrite W, q_vel, u_p. cbn [andb].
      destruct (compute_velocity c) eqn:CV; [|reflexivity]. cbn [andb]. rewrite q_pgrad by reflexivity. reflexivity. }
    assert (PC2 : opt (with_conc c && phase_concs c) (m_pc m2) = pc_of c K t y (second_k c K m t y fd)).
    { unfold second_k. rewrite W. cbn [andb]. destruct (with_part c && aziz c) eqn:WA.
      - unfold pc_of. apply opt_ext. intros X. rewrite u_pc, TT, q_phase, VE, W.
        assert (CC : with_conc c = true) by (apply andb_true_iff in X as [X _]; exact X).
        rewrite (q_conc CC). apply G.
      - rewrite u_pc. exact PCE. }
    unfold rest in R. rewrite W in R. cbn [opt] in R. cbv zeta in R.
    fold (fresh_flag c fd) in R.
    rewrite t1, t2, t3, t4, t5, t6, t10, TT, q_phase, MOB in R. rewrite PC2 in R.
    assert (DP : opt (need_dphidt c) (m_dphi m2) = opt (need_dphidt c) (k_dphi K t (raw_of c K t y (first_k c K m t y)))) by (apply opt_ext; auto).
    assert (FO : opt (rb c) (m_forces m2) = opt (rb c) (k_forces K (phase_of K t y))) by (apply opt_ext; auto).
    injection R as <- <-. cbn [d_quat d_conc d_temp].
    cbn [m_temp m_phase m_quat m_conc m_gside m_gcopy m_gmod m_pgrad m_ptime m_vel m_ivel m_kpart m_pc m_mob m_dphi m_forces m_dconc m_vquat m_vconc m_vtemp set_visit set_dconc].
    assert (DC : m_dconc (if with_conc c && fresh_flag c fd then set_dconc m2 (k_dconc K t (temp_of c K t y) (Some (phase_of K t y)) (m_conc m1) (pc_of c K t y (second_k c K m t y fd))) else m2)
       = if with_conc c && fresh_flag c fd then dconc_of c K t y (second_k c K m t y fd) else m_dconc m).
    { destruct (with_conc c) eqn:CC; cbn [andb]; [|rewrite t11; exact q_dconc].
      destruct (fresh_flag c fd); cbn [m_dconc set_dconc]; [|rewrite t11; exact q_dconc].
      unfold dconc_of. rewrite W. cbn [opt]. rewrite (q_conc eq_refl). reflexivity. }
    assert (DF : (if with_conc c && fresh_flag c fd then set_dconc m2 (k_dconc K t (temp_of c K t y) (Some (phase_of K t y)) (m_conc m1) (pc_of c K t y (second_k c K m t y fd))) else m2)
       = set_dconc m2 (if with_conc c && fresh_flag c fd then dconc_of c K t y (second_k c K m t y fd) else m_dconc m)).
    { rewrite <- DC. destruct (with_conc c && fresh_flag c fd); [reflexivity|]. destruct m2; reflexivity. }
    rewrite DF. unfold set_dconc. cbn [andb m_temp m_phase m_quat m_conc m_gside m_gcopy m_gmod m_pgrad m_ptime m_vel m_ivel m_kpart m_pc m_mob m_dphi m_forces m_dconc m_vquat m_vconc m_vtemp].
    rewrite ?t1, ?t2, ?t3, ?t4, ?t5, ?t6, ?t10, ?TT, ?q_phase, ?MOB.
    rewrite DP, FO, CO, u_p. rewrite ?t7, ?t8, ?t9, ?t12, ?t13, ?t14, ?VE.
    split; [|split; [|split; [|split; [|split; [|split; [|split; [|split; [|split]]]]]]]].
    + unfold dots_with. rewrite W. cbn [opt andb]. f_equal.
      * apply opt_ext. intros X. rewrite (q_gside X), (q_gcopy X), (q_quat X). reflexivity.
      * apply opt_ext. intros X. rewrite (q_conc X), X. cbn [andb]. reflexivity.
    + exact q_gcopy.
    + intros X. rewrite X. reflexivity.
    + reflexivity.
    + exact q_ivel.
    + intros X. rewrite (q_pgrad X). reflexivity.
    + rewrite q_ptime. reflexivity.
    + destruct (evolve_quat c); cbn [andb opt]; [|exact q_v1]. destruct (rhs_visit c && (fd =? 0)%Z); [reflexivity|exact q_v1].
    + destruct (with_conc c); cbn [andb opt]; [|exact q_v2]. destruct (rhs_visit c && (fd =? 0)%Z); [reflexivity|exact q_v2].
    + destruct (unsteady c); cbn [andb opt]; [|exact q_v3]. destruct (rhs_visit c && (fd =? 0)%Z); [reflexivity|exact q_v3].
  - assert (K2 : second_k c K m t y fd = first_k c K m t y) by (unfold second_k; rewrite W; reflexivity).
    assert (VE : m_vel m1 = new_vel c K m t y fd) by (unfold new_vel; rewrite W; exact q_vel).
    assert (ND : need_dphidt c = false) by (unfold need_dphidt; rewrite W; reflexivity).
    rewrite K2. unfold rest in E. rewrite W, ND in E. cbn [opt andb] in E. cbv zeta in E. fold (fresh_flag c fd) in E.
    rewrite TT, MOB, PCE in E.
    injection E as <- <-.
    assert (DF : (if with_conc c && fresh_flag c fd then set_dconc m1 (k_dconc K t (temp_of c K t y) None (m_conc m1) (pc_of c K t y (first_k c K m t y))) else m1)
       = set_dconc m1 (if with_conc c && fresh_flag c fd then dconc_of c K t y (first_k c K m t y) else m_dconc m)).
    { destruct (with_conc c) eqn:CC; cbn [andb]; [|rewrite <- q_dconc; destruct m1; reflexivity].
      destruct (fresh_flag c fd); [|rewrite <- q_dconc; destruct m1; reflexivity].
      unfold dconc_of. rewrite W. cbn [opt]. rewrite (q_conc eq_refl). reflexivity. }
    rewrite DF. unfold set_dconc. cbn [andb d_quat d_conc d_temp set_visit m_temp m_phase m_quat m_conc m_gside m_gcopy m_gmod m_pgrad m_ptime m_vel m_ivel m_kpart m_pc m_mob m_dphi m_forces m_dconc m_vquat m_vconc m_vtemp].
    rewrite ?TT, ?MOB, CO.
    split; [|split; [|split; [|split; [|split; [|split; [|split; [|split; [|split]]]]]]]].
    + unfold dots_with. rewrite W, ND. cbn [opt andb]. f_equal.
      * apply opt_ext. intros X. rewrite (q_gside X), (q_gcopy X), (q_quat X). reflexivity.
      * apply opt_ext. intros X. rewrite (q_conc X), X. cbn [andb]. reflexivity.
    + exact q_gcopy.
    + intros X. rewrite X. reflexivity.
    + exact VE.
    + exact q_ivel.
    + intros X; discriminate.
    + exact q_ptime.
    + destruct (evolve_quat c); cbn [andb opt]; [|exact q_v1]. destruct (rhs_visit c && (fd =? 0)%Z); [reflexivity|exact q_v1].
    + destruct (with_conc c); cbn [andb opt]; [|exact q_v2]. destruct (rhs_visit c && (fd =? 0)%Z); [reflexivity|exact q_v2].
    + destruct (unsteady c); cbn [andb opt]; [|exact q_v3]. destruct (rhs_visit c && (fd =? 0)%Z); [reflexivity|exact q_v3].
Qed.

(** ** A call returns *)

Lemma coef_some c K t y r m : has_velocity c -> exists m1, setCoefficients c K t y r m = Some m1.
Proof.
  intros V. unfold setCoefficients. fold (before_pc c K t y r m).
  destruct (with_conc c && phase_concs c); [|eexists; reflexivity].
  unfold computePhaseConcentrations.
  destruct (with_part c) eqn:W; [|eexists; reflexivity].
  destruct (aziz c) eqn:A; [|eexists; reflexivity].
  rewrite V by (unfold compute_velocity; rewrite W, A; reflexivity). eexists; reflexivity.
Qed.

Lemma turn_some c K t fd m : has_velocity c -> exists r, phase_turn c K t fd m = Some r.
Proof.
  intros V. unfold phase_turn, evaluatePhaseRHS. cbv zeta.
  destruct (compute_velocity c) eqn:CV.
  - rewrite (V CV). cbn [negb]. rewrite Bool.andb_false_r.
    destruct (with_part c && aziz c) eqn:E; [|eexists; reflexivity].
    apply andb_true_iff in E as [W A]. unfold computePhaseConcentrations. rewrite W, A, (V CV). eexists; reflexivity.
  - cbn [andb]. unfold compute_velocity in CV. apply orb_false_iff in CV as [CV _]. rewrite CV. eexists; reflexivity.
Qed.

Lemma returns : forall c K m t y fd, has_velocity c -> (with_part c = true -> aziz c = true -> no_nan (m_ivel m)) ->
  exists out m', evaluates c K m t y fd out m'.
Proof.
  intros c K m t y fd V N. unfold evaluates.
  destruct (coef_some c K t y ((fd =? 0)%Z || negb (lag c)) (setTemperatureField c K t m) V) as [m1 E].
  destruct (with_phase c) eqn:W.
  - destruct (turn_some c K t fd m1 V) as [[[p b] m2] T].
    assert (b = false).
    { pose proof (turn_of _ _ _ _ _ _ _ _ T) as U. rewrite (tu_again _ _ _ _ _ _ _ _ U).
      destruct (with_part c) eqn:WP; [|reflexivity]. destruct (aziz c) eqn:AZ; [|reflexivity]. cbn [andb].
      rewrite self_small; [reflexivity|]. destruct (coefs_of _ _ _ _ _ _ _ E) as [Q _]. rewrite (cf_ivel _ _ _ _ _ _ _ _ Q).
      unfold setTemperatureField. destruct (unsteady c); cbn; auto. }
    subst b. destruct (rest c K t fd (Some p) m2) as [out m'] eqn:R.
    exists out, m', m1. split; [exact E|]. exists p, m2, 1%nat. split; [constructor; exact T|exact R].
  - destruct (rest c K t fd None m1) as [out m'] eqn:R. exists out, m', m1. split; [exact E|exact R].
Qed.

(** ** C132: a function of time and solution *)

Lemma no_part c K t y k1 k2 k1' k2' side D : with_part c = false ->
  dots_with c K t y k1 k1' side D = dots_with c K t y k2 k2' side D.
Proof.
  intros W. unfold dots_with, pdot_of, raw_of, mob_of, pc_of. rewrite W. cbn [opt]. reflexivity.
Qed.
Lemma no_part_dconc c K t y k k' : with_part c = false -> dconc_of c K t y k = dconc_of c K t y k'.
Proof. intros W. unfold dconc_of, pc_of. rewrite W. reflexivity. Qed.

Lemma steady_first c K m t y : steady_k c -> with_part c = true -> first_k c K m t y = k_uniform K (temp_of c K t y).
Proof. intros S W. unfold first_k, part_used. rewrite (S W). reflexivity. Qed.
Lemma steady_second c K m t y fd : steady_k c -> second_k c K m t y fd = first_k c K m t y.
Proof.
  intros S. unfold second_k. destruct (with_part c) eqn:W.
  - rewrite (S W). cbn [andb]. rewrite andb_false_r. reflexivity.
  - cbn [andb]. rewrite andb_false_r. reflexivity.
Qed.

Lemma value_gen c K m t y fd out m' : guess_free K -> steady_k c -> evaluates c K m t y fd out m' ->
  let k := k_uniform K (temp_of c K t y) in
  out = dots_with c K t y k k (side_used c K m t y fd) (if fresh_flag c fd then dconc_of c K t y k else m_dconc m).
Proof.
  intros G S E. destruct (evaluates_full _ _ _ _ _ _ _ _ G E) as [-> _]. cbv zeta.
  rewrite (steady_second _ _ _ _ _ _ S). unfold dconc_used. rewrite (steady_second _ _ _ _ _ _ S).
  destruct (with_part c) eqn:W.
  - rewrite (steady_first _ _ _ _ _ S W). reflexivity.
  - rewrite (no_part_dconc c K t y (first_k c K m t y) (k_uniform K (temp_of c K t y)) W). apply no_part, W.
Qed.

Lemma value : forall c K m t y fd out m', guess_free K -> steady_k c -> (fd = 0%Z \/ lag c = false) ->
  evaluates c K m t y fd out m' -> out = rhs_of c K t y.
Proof.
  intros c K m t y fd out m' G S F E. rewrite (value_gen _ _ _ _ _ _ _ _ G S E).
  assert (X : fresh_flag c fd = true).
  { unfold fresh_flag. destruct F as [-> | ->]; [reflexivity|]. apply orb_true_r. }
  unfold side_used. rewrite X. reflexivity.
Qed.

Lemma history : forall c K h1 h2 m1 m2 m1' m2' t y fd1 fd2 out1 out2 e1 e2, guess_free K -> steady_k c ->
  (fd1 = 0%Z /\ fd2 = 0%Z \/ lag c = false) ->
  steps c K m1 h1 m1' -> steps c K m2 h2 m2' ->
  evaluates c K m1' t y fd1 out1 e1 -> evaluates c K m2' t y fd2 out2 e2 -> out1 = out2.
Proof.
  intros c K h1 h2 m1 m2 m1' m2' t y fd1 fd2 out1 out2 e1 e2 G S F _ _ E1 E2.
  transitivity (rhs_of c K t y); [|symmetry].
  - eapply value; [exact G|exact S| |exact E1]. tauto.
  - eapply value; [exact G|exact S| |exact E2]. tauto.
Qed.

(** ** C133: what a perturbed call keeps *)

Lemma steps_app c K m h1 h2 m2 : steps c K m (h1 ++ h2) m2 -> exists m1, steps c K m h1 m1 /\ steps c K m1 h2 m2.
Proof.
  revert m. induction h1 as [|o h1 IH]; intros m S.
  - exists m. split; [constructor|exact S].
  - cbn in S. inversion S as [|? ? ma ? ? A B]; subst. destruct (IH _ B) as (m1 & C & D).
    exists m1. split; [econstructor; eassumption|exact D].
Qed.

Lemma late c t side : unif_time c <= t -> levelled c t side = side.
Proof. intros H. unfold levelled. destruct (Rlt_dec t (unif_time c)); [lra|reflexivity]. Qed.

Lemma prec_full c K m t y m' : precond_set c K m t y m' ->
  (evolve_quat c = true -> m_gcopy m' = levelled c t (k_gside K (quat_of K t y))) /\ m_dconc m' = m_dconc m /\
  m_vel m' = m_vel m /\ m_ivel m' = m_ivel m /\ m_ptime m' = (if with_phase c && compute_velocity c then Some t else m_ptime m) /\
  (with_phase c && compute_velocity c = true -> m_pgrad m' = pgrad_used K m t y) /\
  m_vquat m' = m_vquat m /\ m_vconc m' = m_vconc m /\ m_vtemp m' = m_vtemp m.
Proof.
  intros P. destruct (coefs_of _ _ _ _ _ _ _ P) as [Q _]. destruct Q.
  repeat split; auto; apply cf_visit0.
Qed.

Lemma keep_side c K h m m' : guess_free K -> lag c = true -> evolve_quat c = true -> Forall (perturbed c) h -> steps c K m h m' ->
  m_gcopy m' = m_gcopy m.
Proof.
  intros G L Q F S. induction S as [m|m o m1 os m2 S1 S IH]; [reflexivity|].
  inversion F as [|? ? F1 F2]; subst. rewrite (IH F2). destruct F1 as (t & y & fd & -> & N & U).
  inversion S1 as [? ? ? ? out ? E| |]; subst.
  destruct (evaluates_full _ _ _ _ _ _ _ _ G E) as (_ & C & _). rewrite (C Q). unfold side_used, fresh_flag.
  rewrite L. apply Z.eqb_neq in N. rewrite N. cbn [orb negb]. apply late, U.
Qed.

Lemma keep_dconc c K h m m' : guess_free K -> lag c = true -> with_conc c = true -> Forall no_new_D h -> steps c K m h m' ->
  m_dconc m' = m_dconc m.
Proof.
  intros G L Q F S. induction S as [m|m o m1 os m2 S1 S IH]; [reflexivity|].
  inversion F as [|? ? F1 F2]; subst. rewrite (IH F2). destruct F1 as [(t & y & fd & -> & N)|(t & y & ->)].
  - inversion S1 as [? ? ? ? out ? E| |]; subst.
    destruct (evaluates_full _ _ _ _ _ _ _ _ G E) as (_ & _ & C & _). rewrite (C Q). unfold dconc_used, fresh_flag.
    rewrite L. apply Z.eqb_neq in N. rewrite N. reflexivity.
  - inversion S1 as [|? ? ? ? E|]; subst. apply (prec_full _ _ _ _ _ _ E).
Qed.

Lemma side_history c K h1 o h2 t0 y0 m m' : guess_free K -> lag c = true -> evolve_quat c = true ->
  sets_side o t0 y0 -> unif_time c <= t0 -> Forall (perturbed c) h2 -> steps c K m (h1 ++ o :: h2) m' ->
  m_gcopy m' = k_gside K (quat_of K t0 y0).
Proof.
  intros G L Q O U F S. destruct (steps_app _ _ _ _ _ _ S) as (ma & _ & S'). inversion S' as [|? ? mb ? ? S1 S2]; subst.
  rewrite (keep_side _ _ _ _ _ G L Q F S2). destruct O as [-> | ->].
  - inversion S1 as [? ? ? ? out ? E| |]; subst. destruct (evaluates_full _ _ _ _ _ _ _ _ G E) as (_ & C & _).
    rewrite (C Q). unfold side_used, fresh_flag. cbn [Z.eqb orb]. apply late, U.
  - inversion S1 as [|? ? ? ? E|]; subst. destruct (prec_full _ _ _ _ _ _ E) as (C & _). rewrite (C Q). apply late, U.
Qed.

Lemma dconc_history c K h1 h2 t0 y0 m m' : guess_free K -> lag c = true -> steady_k c -> with_conc c = true ->
  Forall no_new_D h2 -> steps c K m (h1 ++ Rhs t0 y0 0 :: h2) m' ->
  m_dconc m' = dconc_of c K t0 y0 (k_uniform K (temp_of c K t0 y0)).
Proof.
  intros G L SK Q F S. destruct (steps_app _ _ _ _ _ _ S) as (ma & _ & S'). inversion S' as [|? ? mb ? ? S1 S2]; subst.
  rewrite (keep_dconc _ _ _ _ _ G L Q F S2).
  inversion S1 as [? ? ? ? out ? E| |]; subst. destruct (evaluates_full _ _ _ _ _ _ _ _ G E) as (_ & _ & C & _).
  rewrite (C Q). unfold dconc_used, fresh_flag. cbn [Z.eqb orb]. rewrite (steady_second _ _ _ _ _ _ SK).
  destruct (with_part c) eqn:W; [rewrite (steady_first _ _ _ _ _ SK W); reflexivity|apply no_part_dconc, W].
Qed.

Lemma lagged : forall c K m h1 o h2 h3 h4 t0 y0 t1 y1 m1 t y fd out m', guess_free K -> steady_k c -> lag c = true ->
  h1 ++ o :: h2 = h3 ++ Rhs t1 y1 0 :: h4 ->
  sets_side o t0 y0 -> unif_time c <= t0 -> Forall (perturbed c) h2 -> Forall no_new_D h4 ->
  steps c K m (h1 ++ o :: h2) m1 ->
  fd <> 0%Z -> unif_time c <= t -> evaluates c K m1 t y fd out m' ->
  let k := k_uniform K (temp_of c K t y) in
  out = dots_with c K t y k k (k_gside K (quat_of K t0 y0)) (dconc_of c K t1 y1 (k_uniform K (temp_of c K t1 y1))).
Proof.
  intros c K m h1 o h2 h3 h4 t0 y0 t1 y1 m1 t y fd out m' G SK L H O U F2 F4 S N T E. cbv zeta.
  rewrite (value_gen _ _ _ _ _ _ _ _ G SK E). cbv zeta.
  assert (X : fresh_flag c fd = false).
  { unfold fresh_flag. rewrite L. apply Z.eqb_neq in N. rewrite N. reflexivity. }
  unfold side_used. rewrite X, (late _ _ _ T). unfold dots_with. f_equal.
  - apply opt_ext. intros Q. rewrite (side_history _ _ _ _ _ _ _ _ _ G L Q O U F2 S). reflexivity.
  - apply opt_ext. intros Q. rewrite H in S. rewrite (dconc_history _ _ _ _ _ _ _ _ G L SK Q F4 S). reflexivity.
Qed.

(** ** C134: velocity-dependent partition coefficient *)

Lemma turns : forall c K t fd m ydot m' n, with_part c = true -> aziz c = true -> phase_loop c K t fd m ydot m' n ->
  n = 1%nat.
Proof.
  intros c K t fd m ydot m' n W A L. eapply loop_once; [|exact L].
  intros X. exact (loop_no_nan _ _ _ _ _ _ _ _ X L).
Qed.

Lemma two_coefficients : forall c K m t y out m', guess_free K -> with_phase c = true -> with_part c = true -> aziz c = true ->
  evaluates c K m t y 0 out m' ->
  let T := temp_of c K t y in
  let k := k_aziz K (m_vel m) T in
  let k' := k_aziz K (m_vel m') T in
  out = dots_with c K t y k k' (levelled c t (k_gside K (quat_of K t y))) (dconc_of c K t y k') /\
  m_vel m' = k_vel K (m_pgrad m') (pdot_of c K t y k).
Proof.
  intros c K m t y out m' G P W A E. destruct (evaluates_full _ _ _ _ _ _ _ _ G E) as (-> & _ & _ & V & _ & GR & _). cbv zeta.
  assert (CV : compute_velocity c = true) by (unfold compute_velocity; rewrite W, A; reflexivity).
  assert (K1 : first_k c K m t y = k_aziz K (m_vel m) (temp_of c K t y)) by (unfold first_k, part_used; rewrite A; reflexivity).
  assert (K2 : second_k c K m t y 0 = k_aziz K (m_vel m') (temp_of c K t y)).
  { unfold second_k. rewrite P, W, A, V. reflexivity. }
  split.
  - rewrite K1, K2. unfold side_used, dconc_used, fresh_flag. cbn [Z.eqb orb]. rewrite K2. reflexivity.
  - rewrite V. unfold new_vel. rewrite P, CV. cbn [andb Z.eqb]. rewrite K1, GR; [reflexivity|rewrite P, CV; reflexivity].
Qed.

Lemma nan_forever : forall c K m t y fd, with_phase c = true -> with_part c = true -> aziz c = true -> some_nan (m_ivel m) ->
  forall out m', ~ evaluates c K m t y fd out m'.
Proof.
  intros c K m t y fd P W A N out m' (m1 & C & E). rewrite P in E. destruct E as (p & m2 & n & L & _).
  revert L. apply loop_nan; [rewrite W, A; reflexivity|].
  destruct (coefs_of _ _ _ _ _ _ _ C) as [Q _]. rewrite (cf_ivel _ _ _ _ _ _ _ _ Q).
  unfold setTemperatureField. destruct (unsteady c); exact N.
Qed.

Lemma no_output : forall c K m t y fd, with_conc c = true -> phase_concs c = true -> with_part c = true -> aziz c = true ->
  vel_flag c = read_vel_flag true true (Some false) -> forall out m', ~ evaluates c K m t y fd out m'.
Proof.
  intros c K m t y fd C P W A V out m' (m1 & S & _). destruct (coefs_of _ _ _ _ _ _ _ S) as [_ H].
  rewrite (H W A C P) in V. discriminate.
Qed.

(** ** C135: the phase gradient behind the velocity *)

Lemma fresh_velocity : forall c K m t y out m', guess_free K -> with_phase c = true -> compute_velocity c = true ->
  m_ptime m <> Some t -> evaluates c K m t y 0 out m' ->
  exists ydot, d_phase out = Some ydot /\ m_vel m' = k_vel K (k_pgrad K (phase_of K t y)) ydot.
Proof.
  intros c K m t y out m' G P CV N E. destruct (evaluates_full _ _ _ _ _ _ _ _ G E) as (-> & _ & _ & V & _).
  eexists. split; [cbn; rewrite P; reflexivity|]. rewrite V. unfold new_vel, pgrad_used. rewrite P, CV. cbn [andb Z.eqb].
  destruct (is_some_eq (m_ptime m) t) eqn:I; [|reflexivity]. apply ptime_eq in I. contradiction.
Qed.

Lemma time_hit t : is_some_eq (Some t) t = true.
Proof. cbn. destruct (Req_EM_T t t); easy. Qed.

Lemma keep_pgrad c K t h m m' : guess_free K -> with_phase c = true -> compute_velocity c = true -> Forall (at_time t) h ->
  m_ptime m = Some t -> steps c K m h m' -> m_pgrad m' = m_pgrad m /\ m_ptime m' = Some t.
Proof.
  intros G P CV F T S. induction S as [m|m o m1 os m2 S1 S IH]; [split; [reflexivity|exact T]|].
  inversion F as [|? ? F1 F2]; subst.
  assert (X : m_pgrad m1 = m_pgrad m /\ m_ptime m1 = Some t).
  { destruct F1 as [(y & fd & ->)|(y & ->)]; inversion S1 as [? ? ? ? out ? E|? ? ? ? E|]; subst.
    - destruct (evaluates_full _ _ _ _ _ _ _ _ G E) as (_ & _ & _ & _ & _ & A & B & _). rewrite P, CV in A, B.
      rewrite (A eq_refl), B. unfold pgrad_used. rewrite T, time_hit. split; reflexivity.
    - destruct (prec_full _ _ _ _ _ _ E) as (_ & _ & _ & _ & B & A & _). rewrite P, CV in A, B.
      rewrite (A eq_refl), B. unfold pgrad_used. rewrite T, time_hit. split; reflexivity. }
  destruct X as [X1 X2]. rewrite <- X1. apply IH; assumption.
Qed.

Lemma first_pgrad c K t y0 o m m' : guess_free K -> with_phase c = true -> compute_velocity c = true ->
  ((exists fd, o = Rhs t y0 fd) \/ o = Prec t y0) -> m_ptime m <> Some t -> step c K m o m' ->
  m_pgrad m' = k_pgrad K (phase_of K t y0) /\ m_ptime m' = Some t.
Proof.
  intros G P CV O N S.
  assert (I : is_some_eq (m_ptime m) t = false).
  { destruct (is_some_eq (m_ptime m) t) eqn:I; [|reflexivity]. apply ptime_eq in I. contradiction. }
  destruct O as [(fd & ->)| ->]; inversion S as [? ? ? ? out ? E|? ? ? ? E|]; subst.
  - destruct (evaluates_full _ _ _ _ _ _ _ _ G E) as (_ & _ & _ & _ & _ & A & B & _). rewrite P, CV in A, B.
    rewrite (A eq_refl), B. unfold pgrad_used. rewrite I. split; reflexivity.
  - destruct (prec_full _ _ _ _ _ _ E) as (_ & _ & _ & _ & B & A & _). rewrite P, CV in A, B.
    rewrite (A eq_refl), B. unfold pgrad_used. rewrite I. split; reflexivity.
Qed.

Lemma hit_velocity c K m t y out m' : guess_free K -> with_phase c = true -> compute_velocity c = true ->
  m_ptime m = Some t -> evaluates c K m t y 0 out m' ->
  exists ydot, d_phase out = Some ydot /\ m_vel m' = k_vel K (m_pgrad m) ydot.
Proof.
  intros G P CV T E. destruct (evaluates_full _ _ _ _ _ _ _ _ G E) as (-> & _ & _ & V & _).
  eexists. split; [cbn; rewrite P; reflexivity|]. rewrite V. unfold new_vel, pgrad_used. rewrite P, CV, T, time_hit. reflexivity.
Qed.

Lemma same_time : forall c K m t y0 o h m1 y out m', guess_free K -> with_phase c = true -> compute_velocity c = true ->
  m_ptime m <> Some t -> ((exists fd, o = Rhs t y0 fd) \/ o = Prec t y0) -> Forall (at_time t) h ->
  steps c K m (o :: h) m1 -> evaluates c K m1 t y 0 out m' ->
  exists ydot, d_phase out = Some ydot /\ m_vel m' = k_vel K (k_pgrad K (phase_of K t y0)) ydot.
Proof.
  intros c K m t y0 o h m1 y out m' G P CV N O F S E. inversion S as [|? ? ma ? ? S1 S2]; subst.
  destruct (first_pgrad _ _ _ _ _ _ _ G P CV O N S1) as [A B].
  destruct (keep_pgrad _ _ _ _ _ _ G P CV F B S2) as [C D].
  destruct (hit_velocity _ _ _ _ _ _ _ G P CV D E) as (ydot & X & Y). exists ydot. split; [exact X|]. rewrite Y, C, A. reflexivity.
Qed.

Lemma after_regrid : forall c K m t y0 fd0 m1 y out m', guess_free K -> with_phase c = true -> compute_velocity c = true ->
  steps c K m [Rhs t y0 fd0; Regrid] m1 -> evaluates c K m1 t y 0 out m' ->
  exists ydot g, d_phase out = Some ydot /\ all_zero g /\ m_vel m' = k_vel K g ydot.
Proof.
  intros c K m t y0 fd0 m1 y out m' G P CV S E. inversion S as [|? ? ma ? ? S1 S2]; subst.
  inversion S2 as [|? ? mb ? ? S3 S4]; subst. inversion S4; subst. inversion S3 as [| |? ? X Y Z]; subst.
  inversion S1 as [? ? ? ? o1 ? E1| |]; subst.
  destruct (evaluates_full _ _ _ _ _ _ _ _ G E1) as (_ & _ & _ & _ & _ & _ & B & _). rewrite P, CV in B.
  cbn [andb] in B. rewrite B in X.
  destruct (hit_velocity _ _ _ _ _ _ _ G P CV X E) as (ydot & U & V).
  exists ydot, (m_pgrad m1). auto.
Qed.

(** ** C136: what is written for visualization *)

Lemma perturbed_visit : forall c K m t y fd out m', guess_free K -> fd <> 0%Z -> evaluates c K m t y fd out m' ->
  m_vel m' = m_vel m /\ m_vquat m' = m_vquat m /\ m_vconc m' = m_vconc m /\ m_vtemp m' = m_vtemp m.
Proof.
  intros c K m t y fd out m' G N E. destruct (evaluates_full _ _ _ _ _ _ _ _ G E) as (_ & _ & _ & V & _ & _ & _ & A & B & C).
  apply Z.eqb_neq in N. rewrite N in A, B, C. rewrite ?andb_false_r in A, B, C. unfold new_vel in V. rewrite N, andb_false_r in V.
  auto.
Qed.

Lemma shown : forall c K m t y out m', guess_free K -> rhs_visit c = true -> evaluates c K m t y 0 out m' ->
  (evolve_quat c = true -> d_quat out = Some (m_vquat m')) /\
  (with_conc c = true -> d_conc out = Some (m_vconc m')) /\
  (unsteady c = true -> d_temp out = Some (m_vtemp m')).
Proof.
  intros c K m t y out m' G R E. destruct (evaluates_full _ _ _ _ _ _ _ _ G E) as (O & _ & _ & _ & _ & _ & _ & A & B & C).
  rewrite R in A, B, C. cbn [andb Z.eqb] in A, B, C. rewrite andb_true_r in A, B, C.
  repeat split; intros X; rewrite X in *; [rewrite A|rewrite B|rewrite C]; rewrite O; cbn; rewrite X; reflexivity.
Qed.

(** After any further perturbed calls and preconditioner setups, the arrays still show the values of the last
    unperturbed call. *)
Lemma shown_later : forall c K m t y out m1 h m2, guess_free K -> rhs_visit c = true -> evaluates c K m t y 0 out m1 ->
  Forall no_new_D h -> steps c K m1 h m2 ->
  (evolve_quat c = true -> d_quat out = Some (m_vquat m2)) /\
  (with_conc c = true -> d_conc out = Some (m_vconc m2)) /\
  (unsteady c = true -> d_temp out = Some (m_vtemp m2)) /\ m_vel m2 = m_vel m1.
Proof.
  intros c K m t y out m1 h m2 G R E F S.
  assert (X : m_vel m2 = m_vel m1 /\ m_vquat m2 = m_vquat m1 /\ m_vconc m2 = m_vconc m1 /\ m_vtemp m2 = m_vtemp m1).
  { clear E. induction S as [m1|m1 o ma os m2 S1 S IH]; [auto|]. inversion F as [|? ? F1 F2]; subst.
    destruct (IH F2) as (A & B & C & D). rewrite A, B, C, D.
    destruct F1 as [(t' & y' & fd & -> & N)|(t' & y' & ->)]; inversion S1 as [? ? ? ? out' ? E|? ? ? ? E|]; subst.
    - exact (perturbed_visit _ _ _ _ _ _ _ _ G N E).
    - destruct (prec_full _ _ _ _ _ _ E) as (_ & _ & V & _ & _ & _ & V1 & V2 & V3). auto. }
  destruct X as (X0 & -> & -> & ->). destruct (shown _ _ _ _ _ _ _ G R E) as (U & V & W). auto.
Qed.

(** ** C137: the velocity kernel *)

Lemma grad2_acc g a : fold_left (fun s x => s + x * x) g a = a + fold_left (fun s x => s + x * x) g 0.
Proof.
  revert a. induction g as [|x g IH]; intros a; cbn; [ring|]. rewrite (IH (a + x * x)), (IH (0 + x * x)). ring.
Qed.
Lemma grad2_nonneg g : 0 <= grad2 g.
Proof.
  induction g as [|x g IH]; cbn; [lra|]. unfold grad2 in *. cbn. rewrite grad2_acc. pose proof (Rle_0_sqr x) as H. unfold Rsqr in H. lra.
Qed.

Definition theta (dx0 : R) : R := (2 / 100) / dx0.
Lemma theta_pos dx0 : 0 < dx0 -> 0 < theta dx0.
Proof. intros H. unfold theta. apply Rdiv_lt_0_compat; lra. Qed.

Lemma speed_denom dx0 g : 0 < dx0 -> 0 < sqrt (grad2 g + theta dx0 * theta dx0).
Proof.
  intros H. apply sqrt_lt_R0. pose proof (grad2_nonneg g). pose proof (theta_pos _ H).
  assert (0 < theta dx0 * theta dx0) by (apply Rmult_lt_0_compat; assumption). lra.
Qed.

Lemma speed_bounds : forall dx0 g phi_dot, 0 < dx0 ->
  let v := velocity_cell dx0 g phi_dot in
  Rabs v * sqrt (grad2 g) <= Rabs phi_dot /\
  Rabs v <= Rabs phi_dot * (50 * dx0) /\
  (0 < phi_dot -> 0 < v) /\ (phi_dot = 0 -> v = 0) /\ (phi_dot < 0 -> v < 0).
Proof.
  intros dx0 g phi_dot H v. pose proof (speed_denom dx0 g H) as D. unfold theta in D.
  pose proof (grad2_nonneg g) as N. pose proof (theta_pos _ H) as T. unfold theta in T.
  assert (AV : Rabs v = Rabs phi_dot / sqrt (grad2 g + (2 / 100) / dx0 * ((2 / 100) / dx0))).
  { unfold v, velocity_cell. cbv zeta.
    remember (sqrt (grad2 g + (2 / 100) / dx0 * ((2 / 100) / dx0))) as s eqn:ES. unfold Rdiv. rewrite Rabs_mult.
    rewrite (Rabs_pos_eq (/ s)); [reflexivity|]. left. apply Rinv_0_lt_compat, D. }
  remember (sqrt (grad2 g + (2 / 100) / dx0 * ((2 / 100) / dx0))) as s eqn:ES.
  assert (S1 : sqrt (grad2 g) <= s).
  { rewrite ES. apply sqrt_le_1_alt. pose proof (Rle_0_sqr ((2 / 100) / dx0)) as Q. unfold Rsqr in Q. lra. }
  assert (S2 : (2 / 100) / dx0 <= s).
  { rewrite ES. rewrite <- (sqrt_square ((2 / 100) / dx0)) at 1 by lra. apply sqrt_le_1_alt. lra. }
  pose proof (Rabs_pos phi_dot) as P.
  split; [|split; [|split; [|split]]].
  - rewrite AV. apply Rle_trans with (Rabs phi_dot / s * s).
    + apply Rmult_le_compat_l; [|exact S1]. unfold Rdiv. apply Rmult_le_pos; [exact P|left; apply Rinv_0_lt_compat, D].
    + unfold Rdiv. rewrite Rmult_assoc, Rinv_l by lra. lra.
  - rewrite AV. unfold Rdiv at 1. apply Rmult_le_compat_l; [exact P|].
    replace (50 * dx0) with (/ ((2 / 100) / dx0)) by (field; lra). apply Rinv_le_contravar; assumption.
  - intros Q. unfold v, velocity_cell. cbv zeta. rewrite <- ES. apply Rdiv_lt_0_compat; assumption.
  - intros ->. unfold v, velocity_cell. cbv zeta. rewrite <- ES. field. lra.
  - intros Q. unfold v, velocity_cell. cbv zeta. rewrite <- ES. unfold Rdiv. 
    replace (phi_dot * / s) with (- ((- phi_dot) * / s)) by ring.
    apply Ropp_lt_gt_0_contravar, Rmult_lt_0_compat; [lra|apply Rinv_0_lt_compat, D].
Qed.

Lemma speed_bulk : forall dx0 g phi_dot, 0 < dx0 -> Forall (fun x => x = 0) g ->
  velocity_cell dx0 g phi_dot = phi_dot * (50 * dx0).
Proof.
  intros dx0 g phi_dot H Z. assert (G : grad2 g = 0).
  { induction Z as [|x g -> Z IH]; [reflexivity|]. unfold grad2 in *. cbn. rewrite grad2_acc, IH. ring. }
  unfold velocity_cell. cbv zeta. rewrite G, Rplus_0_l, sqrt_square; [field; lra|]. pose proof (theta_pos _ H) as T. unfold theta in T. lra.
Qed.

(** Distance of the reported speed from the speed [V] of a front whose profile moves without changing. *)
Lemma speed_front : forall dx0 g V phi_dot, 0 < dx0 -> 0 < grad2 g -> phi_dot = V * sqrt (grad2 g) ->
  let v := velocity_cell dx0 g phi_dot in
  Rabs v <= Rabs V /\ Rabs (v - V) <= Rabs V * ((1 / 5000) / (dx0 * dx0 * grad2 g)).
Proof.
  intros dx0 g V phi_dot H N -> v. pose proof (speed_denom dx0 g H) as D. unfold theta in D.
  pose proof (theta_pos _ H) as T. unfold theta in T.
  assert (VE : v = V * (sqrt (grad2 g) / sqrt (grad2 g + (2 / 100) / dx0 * ((2 / 100) / dx0)))).
  { unfold v, velocity_cell. cbv zeta. unfold Rdiv. ring. }
  remember (sqrt (grad2 g + (2 / 100) / dx0 * ((2 / 100) / dx0))) as s eqn:ES.
  remember (sqrt (grad2 g)) as G eqn:EG.
  assert (GP : 0 < G) by (rewrite EG; apply sqrt_lt_R0; exact N).
  assert (GG : G * G = grad2 g) by (rewrite EG; apply sqrt_sqrt; lra).
  assert (SS : s * s = G * G + (2 / 100) / dx0 * ((2 / 100) / dx0)).
  { rewrite ES, sqrt_sqrt, GG; [reflexivity|]. pose proof (Rle_0_sqr ((2 / 100) / dx0)) as Q. unfold Rsqr in Q. lra. }
  assert (LE : G <= s).
  { rewrite EG, ES. apply sqrt_le_1_alt. pose proof (Rle_0_sqr ((2 / 100) / dx0)) as Q. unfold Rsqr in Q. lra. }
  assert (R1 : 0 <= G / s <= 1).
  { split; [left; apply Rdiv_lt_0_compat; assumption|]. apply Rmult_le_reg_r with s; [exact D|]. unfold Rdiv. rewrite Rmult_assoc, Rinv_l by lra. lra. }
  rewrite VE. split.
  - rewrite Rabs_mult, (Rabs_pos_eq (G / s)) by lra. rewrite <- (Rmult_1_r (Rabs V)) at 2. apply Rmult_le_compat_l; [apply Rabs_pos|lra].
  - replace (V * (G / s) - V) with (V * - (1 - G / s)) by ring. rewrite Rabs_mult, Rabs_Ropp, (Rabs_pos_eq (1 - G / s)) by lra.
    apply Rmult_le_compat_l; [apply Rabs_pos|].
    replace ((1 / 5000) / (dx0 * dx0 * grad2 g)) with (((2 / 100) / dx0 * ((2 / 100) / dx0)) / (2 * (G * G))) by (rewrite <- GG; field; lra).
    replace (1 - G / s) with ((s * s - G * G) / (s * (s + G))) by (field; lra).
    rewrite SS. replace (G * G + 2 / 100 / dx0 * (2 / 100 / dx0) - G * G) with (2 / 100 / dx0 * (2 / 100 / dx0)) by ring.
    unfold Rdiv at 1 4. apply Rmult_le_compat_l.
    + pose proof (Rle_0_sqr ((2 / 100) / dx0)) as Q. unfold Rsqr in Q. lra.
    + apply Rinv_le_contravar; [apply Rmult_lt_0_compat; [lra|apply Rmult_lt_0_compat; assumption]|].
      assert (G * G <= s * G) by (apply Rmult_le_compat_r; lra).
      assert (s * G <= s * s) by (apply Rmult_le_compat_l; lra). lra.
Qed.

Lemma speed_cells : forall dx0 gs ps i, (i < length gs)%nat -> length ps = length gs ->
  length (velocity dx0 gs ps) = length ps /\
  nth i (velocity dx0 gs ps) 0 = velocity_cell dx0 (nth i gs []) (nth i ps 0).
Proof.
  intros dx0 gs. induction gs as [|g gs IH]; intros ps i; cbn; [lia|].
  destruct ps as [|p ps]; cbn; [discriminate|]. intros I L. injection L as L. destruct i as [|i].
  - split; [|reflexivity]. destruct gs as [|g' gs'].
    + destruct ps; [reflexivity|discriminate].
    + f_equal. apply (IH ps 0%nat); [cbn; lia|exact L].
  - destruct (IH ps i) as [A B]; [lia|exact L|]. rewrite A, B. split; reflexivity.
Qed.

Lemma speed_axes_refuted : exists dx dy g phi_dot, 0 < dx /\ 0 < dy /\
  velocity_cell dx [g; 0] phi_dot <> velocity_cell dy [0; g] phi_dot.
Proof.
  exists (1 / 200), (1 / 100), 3, 5. split; [lra|]. split; [lra|].
  unfold velocity_cell, grad2. cbn [fold_left].
  replace (0 + 3 * 3 + 0 * 0 + 2 / 100 / (1 / 200) * (2 / 100 / (1 / 200))) with (5 * 5) by field.
  replace (0 + 0 * 0 + 3 * 3 + 2 / 100 / (1 / 100) * (2 / 100 / (1 / 100))) with 13 by field.
  rewrite sqrt_square by lra. intros E.
  assert (Q : sqrt 13 = 5).
  { assert (0 < sqrt 13) by (apply sqrt_lt_R0; lra). apply Rmult_eq_reg_r with (/ sqrt 13); [|apply Rinv_neq_0_compat; lra].
    rewrite Rinv_r by lra. unfold Rdiv in E. lra. }
  assert (sqrt 13 * sqrt 13 = 13) by (apply sqrt_sqrt; lra). rewrite Q in H. lra.
Qed.

(** ** Concrete runs *)

Definition cell_k (v : R) : R := (1 / 2 + Rabs v) / (1 + Rabs v).
Definition liquid (cc : R) (k : option field) : R :=
  match k with Some (k :: _) => cc / (k / 2 + 1 / 2) | _ => cc end.
(** Three phase values in a row, one cell of composition, equilibrium partition coefficient one half. *)
Definition demo : kernels := mkKernels
  (fun _ => [1000]) (fun _ y => y) (fun f => f) (fun f => f)
  (fun p => match p with [a; _; b] => [3 * (b - a)] | _ => [0] end)
  (fun _ => [1 / 2]) (fun v _ => map cell_k v)
  (fun _ _ cc k _ => map (fun x => liquid x k) cc)
  (fun _ _ _ _ _ => [1])
  (fun _ _ _ _ _ pc _ _ => match pc with Some p => p | None => [20] end)
  (fun _ => []) (fun _ _ r => r) (fun _ r => r)
  (fun g p => velocity (1 / 200) (map (fun x => [x]) g) p)
  (fun _ _ _ _ _ q => q)
  (fun _ _ _ cc _ => cc)
  (fun _ _ cc pc D _ _ => match D, cc with d :: _, x :: _ => [- (d * x)] | _, _ => [] end)
  (fun _ _ _ _ => []).

Definition run_aziz : config := mkConfig true false true true false true true true true false false false false false 0 4 2.
Definition run_vel : config := mkConfig true false false false false false false true true false false false false false 0 4 2.
Definition run_conc : config := mkConfig false false true false false false false false true false false false false false 0 4 2.
Definition blank : mem := mkMem [] [] [] [] [] [] [] [0] None [0] [Some 0] [] [] [] [] [] [] [] [] [].

Lemma demo_guess : guess_free demo.
Proof. intros T p cc k g g'. reflexivity. Qed.

Lemma sqrt_5 : sqrt (0 + 3 * 3 + 2 / 100 / (1 / 200) * (2 / 100 / (1 / 200))) = 5.
Proof. replace (0 + 3 * 3 + 2 / 100 / (1 / 200) * (2 / 100 / (1 / 200))) with (5 * 5) by field. apply sqrt_square. lra. Qed.

Lemma repeat_refuted : exists c K m t y out1 m1 out2 m2,
  guess_free K /\ no_nan (m_ivel m) /\ with_part c = true /\ aziz c = true /\
  evaluates c K m t y 0 out1 m1 /\ evaluates c K m1 t y 0 out2 m2 /\
  d_phase out1 = Some [4] /\ m_vel m1 = [4 / 5] /\ d_phase out2 = Some [108 / 31].
Proof.
  set (y := mkVec [0; 1 / 2; 1] [] [3] []).
  destruct (returns run_aziz demo blank 1 y 0) as (out1 & m1 & E1); [intros _; reflexivity|intros; repeat constructor; discriminate|].
  destruct (evaluates_full _ _ _ _ _ _ _ _ demo_guess E1) as (_ & _ & _ & V1 & I1 & _ & P1 & _).
  destruct (two_coefficients run_aziz demo _ _ _ _ _ demo_guess eq_refl eq_refl eq_refl E1) as [O1 _].
  destruct (returns run_aziz demo m1 1 y 0) as (out2 & m2 & E2); [intros _; reflexivity|intros; rewrite I1; repeat constructor; discriminate|].
  destruct (two_coefficients run_aziz demo _ _ _ _ _ demo_guess eq_refl eq_refl eq_refl E2) as [O2 _].
  exists run_aziz, demo, blank, 1, y, out1, m1, out2, m2.
  assert (A : pdot_of run_aziz demo 1 y (k_aziz demo (m_vel blank) (temp_of run_aziz demo 1 y)) = [4]).
  { cbn -[cell_k]. unfold cell_k. rewrite Rabs_R0. f_equal. field. }
  assert (W : m_vel m1 = [4 / 5]).
  { rewrite V1. unfold new_vel. cbn [run_aziz with_phase compute_velocity with_part aziz vel_flag andb orb Z.eqb].
    unfold first_k, part_used. cbn [run_aziz aziz]. change (mkConfig true false true true false true true true true false false false false false 0 4 2) with run_aziz.
    rewrite A. unfold pgrad_used. cbn -[Rdiv sqrt Rmult].
    unfold velocity_cell, grad2. cbn [fold_left]. replace (3 * (1 - 0)) with 3 by ring. rewrite sqrt_5. reflexivity. }
  split; [exact demo_guess|]. split; [repeat constructor; discriminate|]. split; [reflexivity|]. split; [reflexivity|].
  split; [exact E1|]. split; [exact E2|]. split; [|split; [exact W|]].
  - rewrite O1. unfold dots_with. cbn [d_phase]. rewrite A. reflexivity.
  - rewrite O2. unfold dots_with. cbn [d_phase]. rewrite W. cbn -[cell_k Rdiv]. unfold cell_k.
    rewrite Rabs_pos_eq by lra. do 2 f_equal. field.
Qed.

Lemma composition_refuted : exists c K x v,
  guess_free K /\ steady_k c /\ lag c = true /\ evolve_quat c = false /\
  let y s := mkVec [] [] [x + s * v] [] in
  derivable_pt_lim (fun s => match d_conc (rhs_of c K 0 (y s)) with Some (r :: _) => r | _ => 0 end) 0 (-2) /\
  forall m, exists out0 m1, evaluates c K m 0 (y 0) 0 out0 m1 /\
    forall sigma, sigma <> 0 -> exists out1 m2 r0 r1, evaluates c K m1 0 (y sigma) 1 out1 m2 /\
      d_conc out0 = Some [r0] /\ d_conc out1 = Some [r1] /\ (r1 - r0) / sigma = -1.
Proof.
  exists run_conc, demo, 1, 1. split; [exact demo_guess|]. split; [intros H; discriminate|]. split; [reflexivity|]. split; [reflexivity|].
  cbv zeta. split.
  - intros eps He. exists (mkposreal eps He). intros h Hh Hb. cbn -[Rabs Rdiv Rmult Rplus] in *.
    replace ((- ((1 + (0 + h) * 1) * (1 + (0 + h) * 1)) - - ((1 + 0 * 1) * (1 + 0 * 1))) / h - -2) with (- h) by (field; exact Hh).
    rewrite Rabs_Ropp. exact Hb.
  - intros m. set (y := fun s => mkVec [] [] [1 + s * 1] []).
    destruct (returns run_conc demo m 0 (y 0) 0) as (out0 & m1 & E0); [intros H; discriminate|intros H; discriminate|].
    exists out0, m1. split; [exact E0|]. intros sigma Hs.
    destruct (returns run_conc demo m1 0 (y sigma) 1) as (out1 & m2 & E1); [intros H; discriminate|intros H; discriminate|].
    destruct (evaluates_full _ _ _ _ _ _ _ _ demo_guess E0) as (O0 & _ & D0 & _).
    destruct (evaluates_full _ _ _ _ _ _ _ _ demo_guess E1) as (O1 & _).
    specialize (D0 eq_refl).
    exists out1, m2, (- ((1 + 0 * 1) * (1 + 0 * 1))), (- ((1 + 0 * 1) * (1 + sigma * 1))).
    split; [exact E1|]. split; [|split].
    + rewrite O0. reflexivity.
    + rewrite O1. unfold dconc_used. cbn [run_conc fresh_flag lag Z.eqb negb orb]. rewrite D0. reflexivity.
    + field. exact Hs.
Qed.

Lemma stale_refuted : exists c K m t y1 y2 out1 m1 out2 m2,
  guess_free K /\ with_phase c = true /\ vel_flag c = true /\ m_ptime m <> Some t /\
  evaluates c K m t y1 0 out1 m1 /\ evaluates c K m1 t y2 0 out2 m2 /\
  d_phase out2 = Some [20] /\ m_vel m2 = [4] /\ k_vel K (k_pgrad K (phase_of K t y2)) [20] = [5].
Proof.
  set (y1 := mkVec [0; 1 / 2; 1] [] [] []). set (y2 := mkVec [1; 1; 1] [] [] []).
  destruct (returns run_vel demo blank 1 y1 0) as (out1 & m1 & E1); [intros _; reflexivity|intros; discriminate|].
  destruct (returns run_vel demo m1 1 y2 0) as (out2 & m2 & E2); [intros _; reflexivity|intros; discriminate|].
  exists run_vel, demo, blank, 1, y1, y2, out1, m1, out2, m2.
  assert (N : m_ptime blank <> Some 1) by discriminate.
  assert (S : steps run_vel demo blank [Rhs 1 y1 0] m1) by (econstructor; [econstructor; exact E1|constructor]).
  destruct (same_time run_vel demo blank 1 y1 (Rhs 1 y1 0) [] m1 y2 out2 m2 demo_guess eq_refl eq_refl N
     (or_introl (ex_intro _ 0%Z eq_refl)) (Forall_nil _) S E2) as (yd & D & V).
  destruct (evaluates_full _ _ _ _ _ _ _ _ demo_guess E2) as (O2 & _).
  assert (D' : d_phase out2 = Some [20]) by (rewrite O2; reflexivity).
  assert (yd = [20]) by congruence. subst yd.
  split; [exact demo_guess|]. split; [reflexivity|]. split; [reflexivity|]. split; [exact N|].
  split; [exact E1|]. split; [exact E2|]. split; [exact D'|]. split.
  - rewrite V. cbn -[Rdiv sqrt Rmult]. unfold velocity_cell, grad2. cbn [fold_left].
    replace (3 * (1 - 0)) with 3 by ring. rewrite sqrt_5. f_equal. field.
  - cbn -[Rdiv sqrt Rmult]. unfold velocity_cell, grad2. cbn [fold_left].
    replace (0 + 3 * (1 - 1) * (3 * (1 - 1)) + 2 / 100 / (1 / 200) * (2 / 100 / (1 / 200))) with (4 * 4) by field.
    rewrite sqrt_square by lra. f_equal. field.
Qed.
