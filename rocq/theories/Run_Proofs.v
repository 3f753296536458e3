From Coq Require Import Reals ZArith List Bool Lra Lia.
From Verif Require Import EventInterval_Model EventInterval_Spec EventInterval_Proofs.
From Verif Require Import Run_Model Run_Spec.
Import ListNotations.
Open Scope R_scope.

(** ** projections of traces *)
Lemma plot_files_app : forall a b, plot_files (a ++ b) = plot_files a ++ plot_files b.
Proof. induction a as [| x a IH]; intro b; [reflexivity | destruct x; cbn; rewrite ?IH; reflexivity]. Qed.
Lemma restart_files_app : forall a b, restart_files (a ++ b) = restart_files a ++ restart_files b.
Proof. induction a as [| x a IH]; intro b; [reflexivity | destruct x; cbn; rewrite ?IH; reflexivity]. Qed.
Lemma regrids_app : forall a b, regrids (a ++ b) = regrids a ++ regrids b.
Proof. induction a as [| x a IH]; intro b; [reflexivity | destruct x; cbn; rewrite ?IH; reflexivity]. Qed.
Lemma steps_app : forall a b, steps (a ++ b) = steps a ++ steps b.
Proof. induction a as [| x a IH]; intro b; [reflexivity | destruct x; cbn; rewrite ?IH; reflexivity]. Qed.

Lemma restart_files_in : forall tr c t, In (ARestart c t) tr <-> In (c, t) (restart_files tr).
Proof.
  induction tr as [| x tr IH]; intros c t; cbn; [tauto |].
  destruct x; cbn; rewrite <- ?IH;
    split; intro H; try (destruct H as [H | H]; [discriminate | exact H]); try (right; exact H).
  - destruct H as [H | H]; [left; congruence | right; exact H].
  - destruct H as [H | H]; [left; congruence | right; exact H].
Qed.

(** ** inversion of one loop iteration *)
Definition query_if (g : bool) (e : ei) (c : Z) (t : R) (b : bool) (e' : ei) : Prop :=
  if g then has_interval_passed e c t = Ok (b, e') else b = false /\ e' = e.

Lemma run_after_advance_inv : forall en s tr s' f,
  run_after_advance en s = Ok (tr, s', f) ->
  exists b1 b2 b3 b4 b6,
    query_if (not_silent en) (pf_info s) (pf_cycle s) (pf_time s) b1 (pf_info s') /\
    has_interval_passed (pf_restart s) (pf_cycle s) (pf_time s) = Ok (b2, pf_restart s') /\
    has_interval_passed (pf_grain s) (pf_cycle s) (pf_time s) = Ok (b3, pf_grain s') /\
    has_interval_passed (pf_scalar s) (pf_cycle s) (pf_time s) = Ok (b4, pf_scalar s') /\
    has_interval_passed (pf_visit s) (pf_cycle s) (pf_time s) = Ok (f, pf_visit s') /\
    query_if (multilevel en) (pf_regrid s) (pf_cycle s) (pf_time s) b6 (pf_regrid s') /\
    tr = when b1 (AInfo (pf_cycle s) (pf_time s)) ++ when b2 (ARestart (pf_cycle s) (pf_time s)) ++
         when b3 (AGrain (pf_cycle s) (pf_time s)) ++ when b4 (AScalar (pf_cycle s) (pf_time s)) ++
         when f (AVisit (pf_cycle s) (pf_time s)) ++ when b6 (ARegrid (pf_cycle s) (pf_time s)) /\
    pf_cycle s' = pf_cycle s /\ pf_time s' = pf_time s /\ pf_prev_dt s' = pf_prev_dt s /\
    pf_max_cycles s' = pf_max_cycles s /\ pf_start s' = pf_start s /\ pf_end s' = pf_end s /\
    pf_amr s' = pf_amr s.
Proof.
  intros en s tr s' f H. unfold run_after_advance in H.
  destruct (if not_silent en then has_interval_passed (pf_info s) (pf_cycle s) (pf_time s)
            else Ok (false, pf_info s)) as [[b1 e1] | |] eqn:E1; cbn [bind] in H; try discriminate.
  cbn in H.
  destruct (has_interval_passed (pf_restart s) (pf_cycle s) (pf_time s)) as [[b2 e2] | |] eqn:E2;
    cbn [bind] in H; try discriminate; cbn in H.
  destruct (has_interval_passed (pf_grain s) (pf_cycle s) (pf_time s)) as [[b3 e3] | |] eqn:E3;
    cbn [bind] in H; try discriminate; cbn in H.
  destruct (has_interval_passed (pf_scalar s) (pf_cycle s) (pf_time s)) as [[b4 e4] | |] eqn:E4;
    cbn [bind] in H; try discriminate; cbn in H.
  destruct (has_interval_passed (pf_visit s) (pf_cycle s) (pf_time s)) as [[b5 e5] | |] eqn:E5;
    cbn [bind] in H; try discriminate; cbn in H.
  destruct (if multilevel en then has_interval_passed (pf_regrid s) (pf_cycle s) (pf_time s)
            else Ok (false, pf_regrid s)) as [[b6 e6] | |] eqn:E6; cbn [bind] in H; try discriminate.
  injection H as Htr Hs Hf. subst f s' tr.
  exists b1, b2, b3, b4, b6. unfold query_if. cbn.
  repeat split; auto.
  - destruct (not_silent en); [auto |]. inversion E1; auto.
  - destruct (multilevel en); [auto |]. inversion E6; auto.
Qed.

Lemma run_after_advance_intro : forall en s b1 e1 b2 e2 b3 e3 b4 e4 b5 e5 b6 e6,
    query_if (not_silent en) (pf_info s) (pf_cycle s) (pf_time s) b1 e1 ->
    has_interval_passed (pf_restart s) (pf_cycle s) (pf_time s) = Ok (b2, e2) ->
    has_interval_passed (pf_grain s) (pf_cycle s) (pf_time s) = Ok (b3, e3) ->
    has_interval_passed (pf_scalar s) (pf_cycle s) (pf_time s) = Ok (b4, e4) ->
    has_interval_passed (pf_visit s) (pf_cycle s) (pf_time s) = Ok (b5, e5) ->
    query_if (multilevel en) (pf_regrid s) (pf_cycle s) (pf_time s) b6 e6 ->
    exists s',
    run_after_advance en s = Ok
      (when b1 (AInfo (pf_cycle s) (pf_time s)) ++ when b2 (ARestart (pf_cycle s) (pf_time s)) ++
       when b3 (AGrain (pf_cycle s) (pf_time s)) ++ when b4 (AScalar (pf_cycle s) (pf_time s)) ++
       when b5 (AVisit (pf_cycle s) (pf_time s)) ++ when b6 (ARegrid (pf_cycle s) (pf_time s)),
       s', b5) /\
    pf_info s' = e1 /\ pf_restart s' = e2 /\ pf_grain s' = e3 /\ pf_scalar s' = e4 /\
    pf_visit s' = e5 /\ pf_regrid s' = e6 /\
    pf_cycle s' = pf_cycle s /\ pf_time s' = pf_time s /\ pf_prev_dt s' = pf_prev_dt s /\
    pf_max_cycles s' = pf_max_cycles s /\ pf_start s' = pf_start s /\ pf_end s' = pf_end s /\
    pf_amr s' = pf_amr s.
Proof.
  intros en s b1 e1 b2 e2 b3 e3 b4 e4 b5 e5 b6 e6 H1 H2 H3 H4 H5 H6.
  unfold run_after_advance.
  assert (E1 : (if not_silent en then has_interval_passed (pf_info s) (pf_cycle s) (pf_time s)
            else Ok (false, pf_info s)) = Ok (b1, e1)).
  { unfold query_if in H1. destruct (not_silent en); auto. destruct H1; subst; auto. }
  rewrite E1. cbn [bind]. cbn.
  rewrite H2. cbn [bind]. cbn.
  rewrite H3. cbn [bind]. cbn.
  rewrite H4. cbn [bind]. cbn.
  rewrite H5. cbn [bind]. cbn.
  assert (E6 : (if multilevel en then has_interval_passed (pf_regrid s) (pf_cycle s) (pf_time s)
            else Ok (false, pf_regrid s)) = Ok (b6, e6)).
  { unfold query_if in H6. destruct (multilevel en); auto. destruct H6; subst; auto. }
  rewrite E6. cbn [bind].
  eexists; split; [reflexivity |]. cbn. repeat split; reflexivity.
Qed.

(** ** termination and step accounting *)
Lemma run_loop_fuel : forall fuel en dts k s flag,
  (pf_max_cycles s - pf_cycle s <= Z.of_nat fuel)%Z ->
  run_loop fuel en dts k s flag <> None.
Proof.
  induction fuel as [| fuel IH]; intros en dts k s flag Hf; cbn [run_loop];
    destruct (run_continues s) eqn:Hc; try discriminate.
  - unfold run_continues in Hc. apply andb_true_iff in Hc. destruct Hc as [_ Hc].
    apply Z.ltb_lt in Hc. lia.
  - destruct (run_after_advance en (advance s (dts k))) as [[[tr s2] f2] | |] eqn:E; try discriminate.
    apply run_after_advance_inv in E.
    destruct E as (b1 & b2 & b3 & b4 & b6 & _ & _ & _ & _ & _ & _ & _ & Hc2 & _ & _ & Hm2 & _).
    assert (HN : run_loop fuel en dts (S k) s2 f2 <> None).
    { apply IH. rewrite Hc2, Hm2. cbn. lia. }
    destruct (run_loop fuel en dts (S k) s2 f2) as [[[[tr' s3] f3] | |] |]; try discriminate.
    exfalso; apply HN; reflexivity.
Qed.

(** one iteration of the loop, inverted *)
Lemma run_loop_inv : forall fuel en dts k s flag tr s' f,
  run_loop fuel en dts k s flag = Some (Ok (tr, s', f)) ->
  (run_continues s = false /\ tr = [] /\ s' = s /\ f = flag) \/
  (run_continues s = true /\ exists fuel' tr1 s1 f1 tr2,
     fuel = S fuel' /\
     run_after_advance en (advance s (dts k)) = Ok (tr1, s1, f1) /\
     run_loop fuel' en dts (S k) s1 f1 = Some (Ok (tr2, s', f)) /\
     tr = AAdvance (pf_cycle s + 1)%Z (pf_time s) (dts k) :: tr1 ++ tr2).
Proof.
  intros fuel en dts k s flag tr s' f H.
  destruct fuel as [| fuel]; cbn [run_loop] in H; destruct (run_continues s) eqn:Hc; try discriminate.
  - left. injection H as <- <- <-. auto.
  - right. split; [reflexivity |].
    destruct (run_after_advance en (advance s (dts k))) as [[[tr1 s1] f1] | |] eqn:E1; try discriminate.
    destruct (run_loop fuel en dts (S k) s1 f1) as [[[[tr2 s2] f2] | |] |] eqn:E2; try discriminate.
    injection H as <- <- <-.
    exists fuel, tr1, s1, f1, tr2. repeat split; auto.
  - left. injection H as <- <- <-. auto.
Qed.

Lemma when_steps : forall b c t, steps (when b (AVisit c t)) = [] /\ steps (when b (AInfo c t)) = [] /\
  steps (when b (ARestart c t)) = [] /\ steps (when b (AGrain c t)) = [] /\
  steps (when b (AScalar c t)) = [] /\ steps (when b (ARegrid c t)) = [].
Proof. intros [] c t; cbn; auto 10. Qed.

Lemma after_advance_no_steps : forall en s tr s' f,
  run_after_advance en s = Ok (tr, s', f) -> steps tr = [].
Proof.
  intros en s tr s' f H. apply run_after_advance_inv in H.
  destruct H as (b1 & b2 & b3 & b4 & b6 & _ & _ & _ & _ & _ & _ & Htr & _). subst tr.
  rewrite !steps_app. destruct b1, b2, b3, b4, f, b6; reflexivity.
Qed.

Lemma run_continues_true : forall s, run_continues s = true ->
  pf_time s < pf_end s /\ (pf_cycle s < pf_max_cycles s)%Z.
Proof.
  intros s H. unfold run_continues in H. apply andb_true_iff in H. destruct H as [H1 H2].
  split; [destruct (Rlt_dec (pf_time s) (pf_end s)); auto; discriminate | apply Z.ltb_lt; auto].
Qed.

Lemma run_continues_false : forall s, run_continues s = false ->
  pf_end s <= pf_time s \/ (pf_max_cycles s <= pf_cycle s)%Z.
Proof.
  intros s H. unfold run_continues in H. apply andb_false_iff in H. destruct H as [H | H].
  - left. destruct (Rlt_dec (pf_time s) (pf_end s)); [discriminate | lra].
  - right. apply Z.ltb_ge; auto.
Qed.

Lemma run_loop_steps : forall fuel en dts k s flag tr s' f,
  run_loop fuel en dts k s flag = Some (Ok (tr, s', f)) ->
  steps_from (pf_cycle s) (pf_time s) dts k (steps tr) /\
  pf_cycle s' = (pf_cycle s + Z.of_nat (length (steps tr)))%Z /\
  pf_time s' = end_of_steps (pf_time s) (steps tr) /\
  (forall c t dt, In (c, t, dt) (steps tr) -> t < pf_end s /\ (c <= pf_max_cycles s)%Z) /\
  pf_max_cycles s' = pf_max_cycles s /\ pf_end s' = pf_end s /\
  (pf_end s <= pf_time s' \/ (pf_max_cycles s <= pf_cycle s')%Z).
Proof.
  induction fuel as [| fuel IH]; intros en dts k s flag tr s' f H;
    apply run_loop_inv in H;
    destruct H as [(Hc & -> & -> & ->) | (Hc & fuel' & tr1 & s1 & f1 & tr2 & Hf & E1 & E2 & ->)];
    try discriminate.
  1, 2: cbn; repeat split; auto; try lia; try contradiction; apply run_continues_false; auto.
  injection Hf as ->.
  pose proof (after_advance_no_steps _ _ _ _ _ E1) as Hns.
  pose proof (run_after_advance_inv _ _ _ _ _ E1) as
    (b1 & b2 & b3 & b4 & b6 & _ & _ & _ & _ & _ & _ & _ & Hc2 & Ht2 & _ & Hm2 & _ & He2 & _).
  cbn in Hc2, Ht2, Hm2, He2.
  destruct (IH _ _ _ _ _ _ _ _ E2) as (P1 & P2 & P3 & P4 & P5 & P6 & P7).
  cbn [steps app]. rewrite steps_app, Hns. cbn [app].
  rewrite Hc2, Ht2 in *. rewrite Hm2, He2 in *.
  destruct (run_continues_true _ Hc) as [Hlt Hlc].
  repeat split; auto.
  - rewrite P2. cbn [length]. lia.
  - destruct H as [H | H]; [inversion H; subst; auto | destruct (P4 _ _ _ H); auto].
  - destruct H as [H | H]; [inversion H; subst; lia | destruct (P4 _ _ _ H); auto].
Qed.

(** ** files written *)
Lemma hip_query : forall e c t b e', has_interval_passed e c t = Ok (b, e') ->
  ei_prev e' = t /\ ei_last e' = (if b then t else ei_last e) /\ (b = true -> ei_last e <> t) /\
  is_active e' = is_active e /\ ei_first_flag e' = ei_first_flag e /\
  ei_last_flag e' = ei_last_flag e /\ same_config e e'.
Proof.
  intros e c t b e' H. change (ei_query e (QStep c t) = Ok (b, e')) in H.
  pose proof (query_same_active _ _ _ _ H).
  apply query_effect in H. cbn [op_time] in H. unfold same_config.
  destruct H as (Q1 & Q2 & Q3 & Q4 & Q5 & Q6 & Q7 & Q8).
  repeat split; auto; intro Hb; apply (Q8 Hb).
Qed.

Lemma ii_query : forall e t b e', include_initial e t = (b, e') ->
  ei_prev e' = t /\ ei_last e' = (if b then t else ei_last e) /\ (b = true -> ei_last e <> t) /\
  is_active e' = is_active e /\ ei_first_flag e' = ei_first_flag e /\
  ei_last_flag e' = ei_last_flag e /\ same_config e e'.
Proof.
  intros e t b e' H0. assert (H : ei_query e (QInitial t) = Ok (b, e')) by (cbn; congruence).
  pose proof (query_same_active _ _ _ _ H).
  apply query_effect in H. cbn [op_time] in H. unfold same_config.
  destruct H as (Q1 & Q2 & Q3 & Q4 & Q5 & Q6 & Q7 & Q8).
  repeat split; auto; intro Hb; apply (Q8 Hb).
Qed.

(** what is known about the files of one kind after the run reached cycle [c],
    time [t], when [e] is the schedule of that kind *)
Definition files_ok (files : list (Z * R)) (e : ei) (c : Z) (t : R) : Prop :=
  NoDup (map snd files) /\
  (forall c' t', In (c', t') files -> t' <= t /\ (t' = t -> c' = c /\ ei_last e = t)).

Definition recorded (files : list (Z * R)) (e : ei) (c : Z) (t : R) : Prop :=
  (forall c' t', In (c', t') files -> t' <= t /\ (t' = t -> c' = c)) /\
  (ei_last e = -1 \/ exists c', In (c', ei_last e) files).

Lemma restart_files_after : forall en s tr s' f,
  run_after_advance en s = Ok (tr, s', f) ->
  exists b, has_interval_passed (pf_restart s) (pf_cycle s) (pf_time s) = Ok (b, pf_restart s') /\
            restart_files tr = (if b then [(pf_cycle s, pf_time s)] else []).
Proof.
  intros en s tr s' f H. apply run_after_advance_inv in H.
  destruct H as (b1 & b2 & b3 & b4 & b6 & _ & H2 & _ & _ & _ & _ & Htr & _). subst tr.
  exists b2; split; auto.
  rewrite !restart_files_app. destruct b1, b2, b3, b4, f, b6; reflexivity.
Qed.

Lemma plot_files_after : forall en s tr s' f,
  run_after_advance en s = Ok (tr, s', f) ->
  has_interval_passed (pf_visit s) (pf_cycle s) (pf_time s) = Ok (f, pf_visit s') /\
  plot_files tr = (if f then [(pf_cycle s, pf_time s)] else []).
Proof.
  intros en s tr s' f H. apply run_after_advance_inv in H.
  destruct H as (b1 & b2 & b3 & b4 & b6 & _ & _ & _ & _ & H5 & _ & Htr & _). subst tr.
  split; auto.
  rewrite !plot_files_app. destruct b1, b2, b3, b4, f, b6; reflexivity.
Qed.

Lemma recorded_step : forall files e c t c' t' b e',
  recorded files e c t -> t < t' -> has_interval_passed e c' t' = Ok (b, e') ->
  recorded (files ++ if b then [(c', t')] else []) e' c' t'.
Proof.
  intros files e c t c' t' b e' (H1 & H2) Hlt H.
  apply hip_query in H. destruct H as (_ & Hl & _).
  split.
  - intros c2 t2 Hin. apply in_app_iff in Hin. destruct Hin as [Hin | Hin].
    + destruct (H1 _ _ Hin). split; [lra | intro; lra].
    + destruct b; [| contradiction]. destruct Hin as [E | []]. injection E as <- <-. split; [lra | auto].
  - rewrite Hl. destruct b.
    + right. exists c'. apply in_app_iff. right. left. reflexivity.
    + destruct H2 as [H2 | (c2 & H2)]; [left; auto | right; exists c2; apply in_app_iff; auto].
Qed.

Lemma NoDup_snoc : forall (A : Type) (l : list A) x, NoDup l -> ~ In x l -> NoDup (l ++ [x]).
Proof.
  induction l as [| y l IH]; intros x Hn Hi; cbn; [constructor; [auto | constructor] |].
  inversion Hn as [| ? ? Hy Hl]; subst. constructor.
  - rewrite in_app_iff. cbn. intros [H | [H | []]]; [auto | subst; apply Hi; left; auto].
  - apply IH; auto. intro; apply Hi; right; auto.
Qed.

Lemma files_ok_write : forall files e c t, files_ok files e c t -> ei_last e <> t ->
  NoDup (map snd (files ++ [(c, t)])).
Proof.
  intros files e c t (Hn & H) Hne. rewrite map_app. cbn. apply NoDup_snoc; auto.
  intro Hin. apply in_map_iff in Hin. destruct Hin as ([c2 t2] & E & Hin). cbn in E. subst t2.
  destruct (H _ _ Hin) as [_ H2]. destruct (H2 eq_refl). contradiction.
Qed.

Lemma files_ok_step : forall files e c t c' t' b e',
  files_ok files e c t -> t < t' -> has_interval_passed e c' t' = Ok (b, e') ->
  files_ok (files ++ if b then [(c', t')] else []) e' c' t'.
Proof.
  intros files e c t c' t' b e' (Hn & H1) Hlt H.
  apply hip_query in H. destruct H as (_ & Hl & _).
  assert (Hall : forall c2 t2, In (c2, t2) files -> t2 < t').
  { intros c2 t2 Hin. destruct (H1 _ _ Hin). lra. }
  split.
  - destruct b; [| rewrite app_nil_r; auto].
    rewrite map_app. cbn. apply NoDup_snoc; auto.
    intro Hin. apply in_map_iff in Hin. destruct Hin as ([c2 t2] & E & Hin). cbn in E. subst t2.
    specialize (Hall _ _ Hin). lra.
  - intros c2 t2 Hin. apply in_app_iff in Hin. destruct Hin as [Hin | Hin].
    + specialize (Hall _ _ Hin). split; [lra | intro; lra].
    + destruct b; [| contradiction]. destruct Hin as [E | []]. injection E as <- <-.
      split; [lra | auto].
Qed.

Lemma run_loop_files : forall fuel en dts k s flag tr s' f rf pfl,
  (forall i, 0 < dts i) ->
  run_loop fuel en dts k s flag = Some (Ok (tr, s', f)) ->
  recorded rf (pf_restart s) (pf_cycle s) (pf_time s) ->
  files_ok pfl (pf_visit s) (pf_cycle s) (pf_time s) ->
  recorded (rf ++ restart_files tr) (pf_restart s') (pf_cycle s') (pf_time s') /\
  files_ok (pfl ++ plot_files tr) (pf_visit s') (pf_cycle s') (pf_time s') /\
  pf_time s <= pf_time s' /\
  is_active (pf_restart s') = is_active (pf_restart s) /\
  ei_last_flag (pf_restart s') = ei_last_flag (pf_restart s) /\
  is_active (pf_visit s') = is_active (pf_visit s) /\
  ei_last_flag (pf_visit s') = ei_last_flag (pf_visit s) /\
  (steps tr <> [] -> f = true -> exists p, plot_files tr = p ++ [(pf_cycle s', pf_time s')]) /\
  (steps tr = [] -> tr = [] /\ s' = s /\ f = flag).
Proof.
  induction fuel as [| fuel IH]; intros en dts k s flag tr s' f rf pfl Hdt H Hr Hp;
    apply run_loop_inv in H;
    destruct H as [(Hc & -> & -> & ->) | (Hc & fuel' & tr1 & s1 & f1 & tr2 & Hf & E1 & E2 & ->)];
    try discriminate.
  1, 2: cbn; rewrite !app_nil_r; split; [exact Hr |]; split; [exact Hp |];
    split; [lra |]; split; [auto |]; split; [auto |]; split; [auto |]; split; [auto |];
    split; [intro C; exfalso; apply C; reflexivity | intros _; auto].
  injection Hf as ->.
  pose proof (after_advance_no_steps _ _ _ _ _ E1) as Hns.
  destruct (restart_files_after _ _ _ _ _ E1) as (b & Hb1 & Hb2).
  destruct (plot_files_after _ _ _ _ _ E1) as (Hv1 & Hv2).
  pose proof (run_after_advance_inv _ _ _ _ _ E1) as
    (q1 & q2 & q3 & q4 & q6 & _ & _ & _ & _ & _ & _ & _ & Hc2 & Ht2 & _).
  cbn in Hc2, Ht2, Hb1, Hv1. cbn in Hb2, Hv2.
  specialize (Hdt k) as Hk.
  pose proof (recorded_step _ _ _ _ _ _ _ _ Hr (ltac:(lra) : pf_time s < pf_time s + dts k) Hb1) as Hr1.
  pose proof (files_ok_step _ _ _ _ _ _ _ _ Hp (ltac:(lra) : pf_time s < pf_time s + dts k) Hv1) as Hp1.
  rewrite <- Hc2, <- Ht2 in Hr1, Hp1.
  destruct (IH _ _ _ _ _ _ _ _ _ _ Hdt E2 Hr1 Hp1) as (P1 & P2 & P3 & P4 & P5 & P6 & P7 & P8 & P9).
  apply hip_query in Hb1. destruct Hb1 as (_ & _ & _ & A1 & _ & A2 & _).
  apply hip_query in Hv1. destruct Hv1 as (_ & _ & _ & A3 & _ & A4 & _).
  cbn [restart_files plot_files steps]. rewrite restart_files_app, plot_files_app, steps_app, Hns.
  rewrite Hb2, Hv2. rewrite Hc2, Ht2 in *. rewrite !app_assoc.
  split; [exact P1 |]. split; [exact P2 |]. split; [lra |].
  split; [congruence |]. split; [congruence |].
  split; [congruence |]. split; [congruence |].
  split; [| cbn; discriminate].
  intros _ Hft.
  destruct (steps tr2) as [| x l] eqn:Hst.
  - destruct (P9 eq_refl) as (-> & -> & ->). subst f1. rewrite Hc2, Ht2.
    exists []. reflexivity.
  - assert (Hne : x :: l <> []) by discriminate.
    destruct (P8 Hne Hft) as (p & Hpp).
    rewrite Hpp. exists ((if f1 then [((pf_cycle s + 1)%Z, pf_time s + dts k)] else []) ++ p).
    rewrite app_assoc. reflexivity.
Qed.

Lemma run_init_inv : forall en s tr s',
  run_init en s = (tr, s') ->
  exists b0 b1 b2 b3 b4,
    include_initial (pf_scalar s) (pf_time s) = (b0, pf_scalar s') /\
    include_initial (pf_visit s) (pf_time s) = (b1, pf_visit s') /\
    (if not_silent en then include_initial (pf_info s) (pf_time s) = (b2, pf_info s')
     else b2 = false /\ pf_info s' = pf_info s) /\
    include_initial (pf_regrid s) (pf_time s) = (b3, pf_regrid s') /\
    include_initial (pf_grain s) (pf_time s) = (b4, pf_grain s') /\
    pf_restart s' = pf_restart s /\
    tr = when b0 (AScalar (pf_cycle s) (pf_time s)) ++ when b1 (AVisit (pf_cycle s) (pf_time s)) ++
         when b2 (AInfo (pf_cycle s) (pf_time s)) ++ when b3 (ARestart (pf_cycle s) (pf_time s)) ++
         when b4 (AGrain (pf_cycle s) (pf_time s)) /\
    pf_cycle s' = pf_cycle s /\ pf_time s' = pf_time s /\ pf_prev_dt s' = pf_prev_dt s /\
    pf_max_cycles s' = pf_max_cycles s /\ pf_start s' = pf_start s /\ pf_end s' = pf_end s /\
    pf_amr s' = pf_amr s.
Proof.
  intros en s tr s' H. unfold run_init in H.
  destruct (include_initial (pf_scalar s) (pf_time s)) as [b0 e0] eqn:E0.
  cbn in H.
  destruct (include_initial (pf_visit s) (pf_time s)) as [b1 e1] eqn:E1.
  cbn in H.
  destruct (include_initial (pf_info s) (pf_time s)) as [b2 e2] eqn:E2.
  destruct (not_silent en) eqn:Hs; cbn in H.
  - destruct (include_initial (pf_regrid s) (pf_time s)) as [b3 e3] eqn:E3. cbn in H.
    destruct (include_initial (pf_grain s) (pf_time s)) as [b4 e4] eqn:E4. cbn in H.
    injection H as <- <-. exists b0, b1, b2, b3, b4. cbn. repeat split; auto.
  - destruct (include_initial (pf_regrid s) (pf_time s)) as [b3 e3] eqn:E3. cbn in H.
    destruct (include_initial (pf_grain s) (pf_time s)) as [b4 e4] eqn:E4. cbn in H.
    injection H as <- <-. exists b0, b1, false, b3, b4. cbn. repeat split; auto.
Qed.

Lemma run_final_inv : forall s flag tr s',
  run_final s flag = (tr, s') ->
  exists b0 b1 b2,
    include_final (pf_scalar s) (pf_time s) = (b0, pf_scalar s') /\
    include_final (pf_visit s) (pf_time s) = (b1, pf_visit s') /\
    include_final (pf_restart s) (pf_time s) = (b2, pf_restart s') /\
    tr = when b0 (AScalar (pf_cycle s) (pf_time s)) ++
         when (b1 && negb flag) (AVisit (pf_cycle s) (pf_time s)) ++
         when b2 (ARestart (pf_cycle s) (pf_time s)) /\
    pf_cycle s' = pf_cycle s /\ pf_time s' = pf_time s.
Proof.
  intros s flag tr s' H. unfold run_final in H.
  destruct (include_final (pf_scalar s) (pf_time s)) as [b0 e0] eqn:E0. cbn in H.
  destruct (include_final (pf_visit s) (pf_time s)) as [b1 e1] eqn:E1. cbn in H.
  destruct (include_final (pf_restart s) (pf_time s)) as [b2 e2] eqn:E2. cbn in H.
  injection H as <- <-. exists b0, b1, b2. cbn. repeat split; auto.
Qed.

Lemma run_inv : forall fuel en dts s tr s',
  run fuel en dts s = Some (Ok (tr, s')) ->
  exists tr0 s0 tr1 s1 f tr2,
    run_init en s = (tr0, s0) /\ run_loop fuel en dts 0 s0 true = Some (Ok (tr1, s1, f)) /\
    run_final s1 f = (tr2, s') /\ tr = tr0 ++ tr1 ++ tr2.
Proof.
  intros fuel en dts s tr s' H. unfold run in H.
  destruct (run_init en s) as [tr0 s0] eqn:E0.
  destruct (run_loop fuel en dts 0 s0 true) as [[[[tr1 s1] f] | |] |] eqn:E1; try discriminate.
  destruct (run_final s1 f) as [tr2 s2] eqn:E2. injection H as <- <-.
  exists tr0, s0, tr1, s1, f, tr2. auto.
Qed.

Lemma run_init_steps : forall en s tr s', run_init en s = (tr, s') -> steps tr = [].
Proof.
  intros en s tr s' H. apply run_init_inv in H.
  destruct H as (b0 & b1 & b2 & b3 & b4 & _ & _ & _ & _ & _ & _ & -> & _).
  rewrite !steps_app. destruct b0, b1, b2, b3, b4; reflexivity.
Qed.
Lemma run_final_steps : forall s f tr s', run_final s f = (tr, s') -> steps tr = [].
Proof.
  intros s f tr s' H. apply run_final_inv in H.
  destruct H as (b0 & b1 & b2 & _ & _ & _ & -> & _).
  rewrite !steps_app. destruct b0, (b1 && negb f)%bool, b2; reflexivity.
Qed.

Lemma run_terminates : forall fuel en dts s,
  (pf_max_cycles s - pf_cycle s <= Z.of_nat fuel)%Z ->
  run fuel en dts s <> None.
Proof.
  intros fuel en dts s Hf H. unfold run in H.
  destruct (run_init en s) as [tr0 s0] eqn:E0.
  apply run_init_inv in E0.
  destruct E0 as (b0 & b1 & b2 & b3 & b4 & _ & _ & _ & _ & _ & _ & _ & Hc & _ & _ & Hm & _).
  pose proof (run_loop_fuel fuel en dts 0 s0 true ltac:(rewrite Hc, Hm; exact Hf)) as HN.
  destruct (run_loop fuel en dts 0 s0 true) as [[[[tr1 s1] f] | |] |]; try discriminate; auto.
  destruct (run_final s1 f); discriminate.
Qed.

Lemma run_steps : forall fuel en dts s tr s',
  run fuel en dts s = Some (Ok (tr, s')) ->
  steps_from (pf_cycle s) (pf_time s) dts 0 (steps tr) /\
  pf_cycle s' = (pf_cycle s + Z.of_nat (length (steps tr)))%Z /\
  pf_time s' = end_of_steps (pf_time s) (steps tr) /\
  (forall c t dt, In (c, t, dt) (steps tr) -> t < pf_end s /\ (c <= pf_max_cycles s)%Z) /\
  (pf_end s <= pf_time s' \/ (pf_max_cycles s <= pf_cycle s')%Z).
Proof.
  intros fuel en dts s tr s' H. apply run_inv in H.
  destruct H as (tr0 & s0 & tr1 & s1 & f & tr2 & E0 & E1 & E2 & ->).
  pose proof (run_init_steps _ _ _ _ E0) as N0. pose proof (run_final_steps _ _ _ _ E2) as N2.
  apply run_init_inv in E0.
  destruct E0 as (b0 & b1 & b2 & b3 & b4 & _ & _ & _ & _ & _ & _ & _ & Hc & Ht & _ & Hm & _ & He & _).
  apply run_final_inv in E2. destruct E2 as (d0 & d1 & d2 & _ & _ & _ & _ & Hc' & Ht').
  apply run_loop_steps in E1. destruct E1 as (P1 & P2 & P3 & P4 & P5 & P6 & P7).
  rewrite !steps_app, N0, N2, app_nil_r. cbn [app].
  rewrite Hc, Ht, Hm, He in *. rewrite Hc', Ht'. auto.
Qed.

Lemma run_files : forall fuel en dts s tr s',
  (forall i, 0 < dts i) -> 0 <= pf_time s ->
  ei_last (pf_restart s) = -1 -> ei_last (pf_visit s) = -1 ->
  run fuel en dts s = Some (Ok (tr, s')) ->
  (is_active (pf_restart s) = true -> ei_last_flag (pf_restart s) = true ->
     In (pf_cycle s', pf_time s') (restart_files tr)) /\
  (is_active (pf_visit s) = true -> ei_last_flag (pf_visit s) = true -> steps tr <> [] ->
     In (pf_cycle s', pf_time s') (plot_files tr)) /\
  NoDup (map snd (plot_files tr)).
Proof.
  intros fuel en dts s tr s' Hdt H0 Hlr Hlv H. apply run_inv in H.
  destruct H as (tr0 & s0 & tr1 & s1 & f & tr2 & E0 & E1 & E2 & ->).
  pose proof (run_init_steps _ _ _ _ E0) as N0. pose proof (run_final_steps _ _ _ _ E2) as N2.
  apply run_init_inv in E0.
  destruct E0 as (b0 & b1 & b2 & b3 & b4 & _ & I1 & _ & _ & _ & I3 & Etr0 & Hc & Ht & _).
  apply run_final_inv in E2. destruct E2 as (d0 & d1 & d2 & _ & F1 & F2 & Etr2 & Hc' & Ht').
  assert (R0 : restart_files tr0 = if b3 then [(pf_cycle s, pf_time s)] else []).
  { subst tr0. rewrite !restart_files_app. destruct b0, b1, b2, b3, b4; reflexivity. }
  assert (V0 : plot_files tr0 = if b1 then [(pf_cycle s, pf_time s)] else []).
  { subst tr0. rewrite !plot_files_app. destruct b0, b1, b2, b3, b4; reflexivity. }
  assert (R2 : restart_files tr2 = if d2 then [(pf_cycle s1, pf_time s1)] else []).
  { subst tr2. rewrite !restart_files_app. destruct d0, d1, f, d2; reflexivity. }
  assert (V2 : plot_files tr2 = if (d1 && negb f)%bool then [(pf_cycle s1, pf_time s1)] else []).
  { subst tr2. rewrite !plot_files_app. destruct d0, d1, f, d2; reflexivity. }
  assert (Hr : recorded (restart_files tr0) (pf_restart s0) (pf_cycle s0) (pf_time s0)).
  { rewrite R0, Hc, Ht. split; [| left; congruence].
    intros c' t' Hin. destruct b3; [| contradiction]. destruct Hin as [E | []].
    injection E as <- <-. split; [lra | auto]. }
  pose proof I1 as I1'. apply ii_query in I1'. destruct I1' as (_ & Hl1 & _ & Ha1 & _ & Hf1 & _).
  assert (Hp : files_ok (plot_files tr0) (pf_visit s0) (pf_cycle s0) (pf_time s0)).
  { rewrite V0, Hc, Ht. split.
    - destruct b1; cbn; constructor; auto; constructor.
    - intros c' t' Hin. destruct b1; [| contradiction]. destruct Hin as [E | []].
      injection E as <- <-. split; [lra | auto]. }
  destruct (run_loop_files _ _ _ _ _ _ _ _ _ _ _ Hdt E1 Hr Hp)
    as (P1 & P2 & P3 & P4 & P5 & P6 & P7 & P8 & P9).
  rewrite !restart_files_app, !plot_files_app, !steps_app, N0, N2, app_nil_r, R2, V2.
  rewrite Hc', Ht'. cbn [app].
  rewrite !app_assoc.
  split; [| split].
  - intros Hact Hlast. unfold include_final in F2. rewrite P4, P5 in F2.
    rewrite I3, Hact, Hlast in F2. unfold event_occurred_at in F2.
    rewrite P4, I3, Hact in F2. cbn in F2.
    apply in_app_iff. destruct (Req_EM_T (ei_last (pf_restart s1)) (pf_time s1)) as [He | Hne].
    + left. destruct P1 as [Q1 [Q2 | (c2 & Q2)]]; [lra |].
      rewrite He in Q2. destruct (Q1 _ _ Q2) as [_ Q3]. rewrite <- (Q3 eq_refl). exact Q2.
    + right. injection F2 as <- _. left. reflexivity.
  - intros Hact Hlast Hst. destruct f.
    + destruct (P8 Hst eq_refl) as (p & ->). apply in_app_iff. left.
      apply in_app_iff. right. apply in_app_iff. right. left. reflexivity.
    + assert (Hnl : d1 = true \/ In (pf_cycle s1, pf_time s1) (plot_files tr0 ++ plot_files tr1)).
      { unfold include_final in F1. rewrite P6, P7, Ha1, Hf1, Hact, Hlast in F1.
        unfold event_occurred_at in F1. rewrite P6, Ha1, Hact in F1. cbn in F1.
        destruct (Req_EM_T (ei_last (pf_visit s1)) (pf_time s1)) as [He | Hne].
        - right. exfalso.
          (* the last step answered no, so nothing was recorded at the final time *)
          clear - E1 He Hst Hdt Hlv Hl1 H0 Ht.
          assert (G : forall fuel en k s flag tr s',
             run_loop fuel en dts k s flag = Some (Ok (tr, s', false)) ->
             steps tr <> [] -> ei_last (pf_visit s) <= pf_time s ->
             ei_last (pf_visit s') < pf_time s').
          { clear - Hdt. induction fuel as [| fuel IH]; intros en k s flag tr s' E Hst Hle;
              apply run_loop_inv in E;
              destruct E as [(Hc & -> & -> & Hfl) | (Hc & fuel' & tr1 & s1 & f1 & tr2 & Hf & E1 & E2 & ->)];
              try discriminate; try (exfalso; apply Hst; reflexivity).
            injection Hf as ->.
            destruct (plot_files_after _ _ _ _ _ E1) as (Hv1 & _).
            pose proof (run_after_advance_inv _ _ _ _ _ E1) as
              (q1 & q2 & q3 & q4 & q6 & _ & _ & _ & _ & _ & _ & _ & _ & Ht2 & _).
            pose proof (after_advance_no_steps _ _ _ _ _ E1) as Hns.
            apply hip_query in Hv1. destruct Hv1 as (_ & Hl & _). cbn in Hl, Ht2.
            specialize (Hdt k) as Hk.
            destruct (steps tr2) as [| x l] eqn:Hs2.
            - apply run_loop_inv in E2.
              destruct E2 as [(_ & -> & -> & Hfl) | (_ & fu & a & b & c & d & _ & _ & _ & ->)];
                [| cbn in Hs2; discriminate].
              subst f1. rewrite Hl, Ht2. lra.
            - apply (IH _ _ _ _ _ _ E2); [congruence |]. rewrite Hl, Ht2. destruct f1; lra. }
          specialize (G _ _ _ _ _ _ _ E1 Hst).
          rewrite Hl1, Ht in G. destruct b1; [| rewrite Hlv in G];
          match type of G with ?a <= ?b -> _ => assert (HG : a <= b) by lra; specialize (G HG) end;
          lra.
        - left. injection F1 as <- _. reflexivity. }
      destruct Hnl as [-> | Hin].
      * cbn. apply in_app_iff. right. left. reflexivity.
      * apply in_app_iff. left. exact Hin.
  - destruct (d1 && negb f)%bool eqn:Hd.
    + apply files_ok_write with (e := pf_visit s1); [exact P2 |].
      apply andb_true_iff in Hd. destruct Hd as [-> _].
      unfold include_final, event_occurred_at in F1.
      destruct (Req_EM_T (ei_last (pf_visit s1)) (pf_time s1)) as [He | Hne]; auto.
      destruct (is_active (pf_visit s1)), (ei_last_flag (pf_visit s1)); cbn in F1; discriminate.
    + rewrite app_nil_r. destruct P2; auto.
Qed.

(** ** restart transparency *)

(** after time [t] the two schedule objects give the same answers *)
Definition rsim (t : R) (a b : ei) : Prop :=
  (sim a b /\ ei_prev a = t) \/
  (same_config a b /\ ei_type a = CYCLE /\ ei_first_flag a = false /\
   ei_last a <= t /\ ei_last b <= t).

Lemma rsim_query : forall t a b n t' r a',
  rsim t a b -> t < t' -> has_interval_passed a n t' = Ok (r, a') ->
  exists b', has_interval_passed b n t' = Ok (r, b') /\ rsim t' a' b' /\
             (ei_last a' = t' <-> ei_last b' = t') /\ same_config a' b'.
Proof.
  intros t a b n t' r a' [[Hs Hp] | (Hc & HT & Hf & Ha & Hb)] Ht H.
  - destruct (sim_query a b n t' r a' Hs ltac:(lra) H) as (b' & Hb & Hs').
    exists b'; split; auto.
    pose proof (hip_query _ _ _ _ _ H) as (P1 & P2 & _).
    pose proof (hip_query _ _ _ _ _ Hb) as (_ & P3 & _).
    destruct Hs as (_ & Hpp & _ & Hla & Hlb). destruct Hs' as (Hcc & Hs').
    split; [left; split; [exact (conj Hcc Hs') | auto] |]. split; auto.
    rewrite P2, P3. destruct r; [tauto | split; intro; lra].
  - destruct Hc as (C1 & C2 & C3 & C4 & C5).
    assert (Hbq : exists b', has_interval_passed b n t' = Ok (r, b')).
    { unfold has_interval_passed in *. unfold is_active, event_occurred_at, is_active in *.
      rewrite <- C3, <- C1, <- C4. rewrite HT, Hf in *. cbn [andb] in *.
      destruct (Req_EM_T (ei_last a) t'); [lra |].
      destruct (Req_EM_T (ei_last b) t'); [lra |].
      destruct (0 <? ei_int a)%Z; cbn in *; injection H as <- _; eauto. }
    destruct Hbq as (b' & Hbq). exists b'; split; auto.
    pose proof (hip_query _ _ _ _ _ H) as (_ & P2 & _ & _ & P5 & _ & (D1 & D2 & D3 & D4 & D5)).
    pose proof (hip_query _ _ _ _ _ Hbq) as (_ & P3 & _ & _ & _ & _ & (E1 & E2 & E3 & E4 & E5)).
    assert (Hsc : same_config a' b') by (unfold same_config; repeat split; congruence).
    split; [| split; auto].
    + right. split; [exact Hsc |]. split; [congruence |]. split; [congruence |].
      rewrite P2, P3. destruct r; lra.
    + rewrite P2, P3. destruct r; [tauto | split; intro; lra].
Qed.

Lemma rsim_config : forall t a b, rsim t a b -> same_config a b.
Proof. intros t a b [[(H & _) _] | (H & _)]; auto. Qed.

Lemma include_final_same : forall a b t, same_config a b -> (ei_last a = t <-> ei_last b = t) ->
  fst (include_final a t) = fst (include_final b t).
Proof.
  intros a b t (C1 & C2 & C3 & C4 & C5) Hi. unfold include_final, event_occurred_at, is_active.
  rewrite <- C1, <- C2, <- C3, <- C5.
  destruct (Req_EM_T (ei_last a) t), (Req_EM_T (ei_last b) t); try tauto;
    destruct (match ei_type a with CYCLE => _ | TIME => _ end); destruct (ei_last_flag a); reflexivity.
Qed.

(** same answers for the rest of the run, at a loop test *)
Definition pfsim (en : env) (a b : pf) : Prop :=
  pf_cycle a = pf_cycle b /\ pf_time a = pf_time b /\ pf_max_cycles a = pf_max_cycles b /\
  pf_end a = pf_end b /\
  (not_silent en = true -> rsim (pf_time a) (pf_info a) (pf_info b)) /\
  rsim (pf_time a) (pf_restart a) (pf_restart b) /\
  rsim (pf_time a) (pf_grain a) (pf_grain b) /\
  rsim (pf_time a) (pf_scalar a) (pf_scalar b) /\
  rsim (pf_time a) (pf_visit a) (pf_visit b) /\
  (multilevel en = true -> rsim (pf_time a) (pf_regrid a) (pf_regrid b)).

Definition finalsim (a b : pf) : Prop :=
  pf_cycle a = pf_cycle b /\ pf_time a = pf_time b /\
  (same_config (pf_scalar a) (pf_scalar b) /\
     (ei_last (pf_scalar a) = pf_time a <-> ei_last (pf_scalar b) = pf_time a)) /\
  (same_config (pf_visit a) (pf_visit b) /\
     (ei_last (pf_visit a) = pf_time a <-> ei_last (pf_visit b) = pf_time a)) /\
  (same_config (pf_restart a) (pf_restart b) /\
     (ei_last (pf_restart a) = pf_time a <-> ei_last (pf_restart b) = pf_time a)).

Lemma query_if_sim : forall g t a b n t' r a',
  (g = true -> rsim t a b) -> t < t' -> query_if g a n t' r a' ->
  exists b', query_if g b n t' r b' /\ (g = true -> rsim t' a' b').
Proof.
  intros g t a b n t' r a' Hs Ht H. unfold query_if in *. destruct g.
  - destruct (rsim_query _ _ _ _ _ _ _ (Hs eq_refl) Ht H) as (b' & Hb & Hr & _). exists b'; auto.
  - exists b. destruct H; split; auto. discriminate.
Qed.

Lemma pfsim_step : forall en a b dt tr a' f,
  0 < dt -> pfsim en a b ->
  run_after_advance en (advance a dt) = Ok (tr, a', f) ->
  exists b', run_after_advance en (advance b dt) = Ok (tr, b', f) /\ pfsim en a' b' /\ finalsim a' b'.
Proof.
  intros en a b dt tr a' f Hdt (S1 & S2 & S3 & S4 & S5 & S6 & S7 & S8 & S9 & S10) H.
  apply run_after_advance_inv in H.
  destruct H as (b1 & b2 & b3 & b4 & b6 & H1 & H2 & H3 & H4 & H5 & H6 & Htr & K1 & K2 & K3 & K4 & _ & K5 & _).
  cbn in H1, H2, H3, H4, H5, H6, K1, K2, K4, K5.
  assert (Hlt : pf_time a < pf_time a + dt) by lra.
  destruct (query_if_sim _ _ _ _ _ _ _ _ S5 Hlt H1) as (i1 & I1 & R1).
  destruct (rsim_query _ _ _ _ _ _ _ S6 Hlt H2) as (i2 & I2 & R2 & L2 & C2).
  destruct (rsim_query _ _ _ _ _ _ _ S7 Hlt H3) as (i3 & I3 & R3 & L3 & C3).
  destruct (rsim_query _ _ _ _ _ _ _ S8 Hlt H4) as (i4 & I4 & R4 & L4 & C4).
  destruct (rsim_query _ _ _ _ _ _ _ S9 Hlt H5) as (i5 & I5 & R5 & L5 & C5).
  destruct (query_if_sim _ _ _ _ _ _ _ _ S10 Hlt H6) as (i6 & I6 & R6).
  rewrite S1 in I1, I2, I3, I4, I5, I6. rewrite S2 in I1, I2, I3, I4, I5, I6.
  destruct (run_after_advance_intro en (advance b dt) b1 i1 b2 i2 b3 i3 b4 i4 f i5 b6 i6)
    as (s' & E & F1 & F2 & F3 & F4 & F5 & F6 & G1 & G2 & G3 & G4 & _ & G5 & _); auto.
  exists s'. split; [rewrite E, Htr; cbn; rewrite S1, S2; reflexivity |].
  cbn in G1, G2, G4, G5. unfold pfsim, finalsim.
  rewrite K1, K2, K4, K5, G1, G2, G4, G5, F1, F2, F3, F4, F5, F6, S1, S2.
  rewrite S2 in *.
  repeat split; auto; try tauto; try congruence; try (apply L4 || apply L5 || apply L2);
    try (apply C4 || apply C5 || apply C2).
Qed.

Lemma run_continues_sim : forall en a b, pfsim en a b -> run_continues a = run_continues b.
Proof.
  intros en a b (S1 & S2 & S3 & S4 & _). unfold run_continues. rewrite S1, S2, S3, S4. reflexivity.
Qed.

Lemma pfsim_loop : forall fuel en dts k j a b flag flag' tr a' f,
  (forall i, 0 < dts i) -> pfsim en a b ->
  run_loop fuel en dts k a flag = Some (Ok (tr, a', f)) ->
  run_continues a = true ->
  exists b', run_loop fuel en (fun i => dts (i + k - j)%nat) j b flag' = Some (Ok (tr, b', f)) /\
             finalsim a' b'.
Proof.
  induction fuel as [| fuel IH]; intros en dts k j a b flag flag' tr a' f Hdt Hs H Hc;
    apply run_loop_inv in H;
    destruct H as [(Hc' & _) | (_ & fuel' & tr1 & s1 & f1 & tr2 & Hf & E1 & E2 & ->)];
    try congruence; try discriminate.
  injection Hf as <-.
  destruct (pfsim_step en a b (dts k) tr1 s1 f1 (Hdt k) Hs E1) as (b1 & B1 & Hs1 & Hf1).
  pose proof (run_continues_sim _ _ _ Hs) as Hcb.
  cbn [run_loop]. rewrite <- Hcb, Hc. replace (j + k - j)%nat with k by lia. rewrite B1.
  destruct (run_continues s1) eqn:Hc1.
  - destruct (IH en dts (S k) (S j) s1 b1 f1 f1 tr2 a' f Hdt Hs1 E2 Hc1) as (b2 & B2 & Hf2).
    exists b2. split; auto.
    assert (Hext : forall fu e d1 d2 kk ss fl, (forall i, (kk <= i)%nat -> d1 i = d2 i) ->
       run_loop fu e d1 kk ss fl = run_loop fu e d2 kk ss fl).
    { clear. induction fu as [| fu IHf]; intros e d1 d2 kk ss fl He; cbn [run_loop]; auto.
      rewrite (He kk (le_n kk)). destruct (run_continues ss); auto.
      destruct (run_after_advance e (advance ss (d2 kk))) as [[[x y] z] | |]; auto.
      rewrite (IHf e d1 d2 (S kk) y z); [reflexivity |]. intros i Hi. apply He. lia. }
    rewrite (Hext fuel en (fun i => dts (i + k - j)%nat) (fun i => dts (i + S k - S j)%nat)).
    + rewrite B2. cbn. destruct Hs as (S1 & S2 & _). rewrite S1, S2. reflexivity.
    + intros i Hi. f_equal. lia.
  - apply run_loop_inv in E2. destruct E2 as [(_ & -> & -> & ->) | (C & _)]; [| congruence].
    exists b1. split; auto.
    assert (Hcb1 : run_continues b1 = false) by (rewrite <- (run_continues_sim _ _ _ Hs1); auto).
    destruct Hs as (S1 & S2 & _).
    destruct fuel; cbn [run_loop]; rewrite Hcb1; cbn; rewrite S1, S2; reflexivity.
Qed.

Lemma run_final_same : forall a b f, finalsim a b ->
  fst (run_final a f) = fst (run_final b f).
Proof.
  intros a b f (S1 & S2 & (C1 & L1) & (C2 & L2) & (C3 & L3)).
  pose proof (include_final_same _ _ _ C1 L1) as Q1.
  pose proof (include_final_same _ _ _ C2 L2) as Q2.
  pose proof (include_final_same _ _ _ C3 L3) as Q3.
  destruct (run_final a f) as [ta a'] eqn:Ea. destruct (run_final b f) as [tb b'] eqn:Eb.
  apply run_final_inv in Ea. apply run_final_inv in Eb.
  destruct Ea as (x0 & x1 & x2 & X0 & X1 & X2 & -> & _).
  destruct Eb as (y0 & y1 & y2 & Y0 & Y1 & Y2 & -> & _).
  rewrite <- S1, <- S2 in *. cbn.
  rewrite X0, Y0 in Q1. rewrite X1, Y1 in Q2. rewrite X2, Y2 in Q3. cbn in Q1, Q2, Q3.
  subst. reflexivity.
Qed.

(** *** states at loop tests *)
Definition primed (t : R) (e : ei) : Prop := ei_prev e = t /\ ei_last e <= t.

Definition loop_head (en : env) (s : pf) : Prop :=
  0 <= pf_time s /\
  (not_silent en = true -> primed (pf_time s) (pf_info s)) /\
  ei_last (pf_restart s) <= pf_time s /\
  primed (pf_time s) (pf_grain s) /\ primed (pf_time s) (pf_scalar s) /\
  primed (pf_time s) (pf_visit s) /\
  (multilevel en = true -> primed (pf_time s) (pf_regrid s)).

Lemma primed_step : forall e t n t' b e', ei_last e <= t -> t < t' ->
  has_interval_passed e n t' = Ok (b, e') -> primed t' e'.
Proof.
  intros e t n t' b e' Hl Ht H. apply hip_query in H. destruct H as (H1 & H2 & _).
  split; auto. rewrite H2. destruct b; lra.
Qed.

Lemma loop_head_step : forall en s dt tr s' f, 0 < dt -> loop_head en s ->
  run_after_advance en (advance s dt) = Ok (tr, s', f) -> loop_head en s'.
Proof.
  intros en s dt tr s' f Hdt (L0 & L1 & L2 & L3 & L4 & L5 & L6) H.
  apply run_after_advance_inv in H.
  destruct H as (b1 & b2 & b3 & b4 & b6 & H1 & H2 & H3 & H4 & H5 & H6 & _ & K1 & K2 & _).
  cbn in H1, H2, H3, H4, H5, H6, K1, K2.
  assert (Hlt : pf_time s < pf_time s + dt) by lra.
  unfold loop_head. rewrite K2.
  split; [lra |]. split.
  { intro Hn. unfold query_if in H1. rewrite Hn in H1.
    eapply primed_step; [| | exact H1]; [apply (L1 Hn) | exact Hlt]. }
  split.
  { eapply primed_step in H2; [apply H2 | exact L2 | exact Hlt]. }
  split; [eapply primed_step; [| | exact H3]; [apply L3 | exact Hlt] |].
  split; [eapply primed_step; [| | exact H4]; [apply L4 | exact Hlt] |].
  split; [eapply primed_step; [| | exact H5]; [apply L5 | exact Hlt] |].
  intro Hn. unfold query_if in H6. rewrite Hn in H6.
  eapply primed_step; [| | exact H6]; [apply (L6 Hn) | exact Hlt].
Qed.

Lemma loop_head_init : forall en s tr s', just_started s -> run_init en s = (tr, s') -> loop_head en s'.
Proof.
  intros en s tr s' (H0 & Hf) H. apply run_init_inv in H.
  destruct H as (b0 & b1 & b2 & b3 & b4 & I0 & I1 & I2 & I3 & I4 & I5 & _ & _ & Ht & _).
  assert (Hl : forall e b e', e = fresh e -> include_initial e (pf_time s) = (b, e') ->
                primed (pf_time s) e').
  { intros e b e' He Hi. apply ii_query in Hi. destruct Hi as (P1 & P2 & _). split; auto.
    rewrite P2. destruct b; [lra |]. rewrite He. cbn. lra. }
  unfold loop_head. rewrite Ht. cbn in Hf.
  split; auto. split.
  { intro Hn. rewrite Hn in I2. apply Hl with (2 := I2). apply Hf; auto. }
  split.
  { rewrite I5, (Hf (pf_restart s)) by auto. cbn. lra. }
  split; [apply Hl with (2 := I4); apply Hf; auto 10 |].
  split; [apply Hl with (2 := I0); apply Hf; auto 10 |].
  split; [apply Hl with (2 := I1); apply Hf; auto 10 |].
  intros _. apply Hl with (2 := I3); apply Hf; auto 10.
Qed.

Lemma loop_head_reaches : forall en dts k s k' s', (forall i, 0 < dts i) ->
  reaches en dts k s k' s' -> loop_head en s -> loop_head en s'.
Proof.
  intros en dts k s k' s' Hdt H. induction H as [k s | k s tr s1 f k' s' Hc E R IH]; intro L; auto.
  apply IH. eapply loop_head_step; [apply (Hdt k) | exact L | exact E].
Qed.

Lemma restart_config_init : forall en s tr s', run_init en s = (tr, s') ->
  same_config (pf_restart s) (pf_restart s').
Proof.
  intros en s tr s' H. apply run_init_inv in H.
  destruct H as (b0 & b1 & b2 & b3 & b4 & _ & _ & _ & _ & _ & -> & _).
  unfold same_config; auto.
Qed.

Lemma restart_config_reaches : forall en dts k s k' s',
  reaches en dts k s k' s' -> same_config (pf_restart s) (pf_restart s').
Proof.
  intros en dts k s k' s' H. induction H as [k s | k s tr s1 f k' s' Hc E R IH].
  - unfold same_config; auto.
  - destruct (restart_files_after _ _ _ _ _ E) as (b & Hb & _). cbn in Hb.
    apply hip_query in Hb. destruct Hb as (_ & _ & _ & _ & _ & _ & (D1 & D2 & D3 & D4 & D5)).
    destruct IH as (E1 & E2 & E3 & E4 & E5). unfold same_config. repeat split; congruence.
Qed.

Lemma restarted_sim : forall en s tr r,
  loop_head en s -> ei_type (pf_restart s) = CYCLE -> ei_first_flag (pf_restart s) = false ->
  run_init en (restarted s) = (tr, r) -> pfsim en s r.
Proof.
  intros en s tr r (L0 & L1 & L2 & L3 & L4 & L5 & L6) HT Hf H.
  apply run_init_inv in H.
  destruct H as (b0 & b1 & b2 & b3 & b4 & I0 & I1 & I2 & I3 & I4 & I5 & _ & K1 & K2 & _ & K3 & _ & K4 & _).
  cbn in I0, I1, I2, I3, I4, I5, K1, K2, K3, K4.
  assert (Hs : forall e b e', primed (pf_time s) e ->
      include_initial (fresh e) (pf_time s) = (b, e') -> rsim (pf_time s) e e').
  { intros e b e' [P1 P2] Hi. left. split; auto.
    pose proof (restart_sim e ltac:(lra) ltac:(lra)) as Hrs. rewrite P1, Hi in Hrs. exact Hrs. }
  unfold pfsim. rewrite K1, K2, K3, K4.
  split; [reflexivity |]. split; [reflexivity |]. split; [reflexivity |]. split; [reflexivity |].
  split. { intro Hn. rewrite Hn in I2. apply (Hs _ b2); auto. }
  split. { right. rewrite I5. unfold fresh, same_config; cbn. repeat split; auto; lra. }
  split; [apply (Hs _ b4); auto |].
  split; [apply (Hs _ b0); auto |].
  split; [apply (Hs _ b1); auto |].
  intro Hn. apply (Hs _ b3); auto.
Qed.

Lemma restart_transparent : forall en dts s0 tr0 s1 k s fuel flag tr s' f,
  (forall i, 0 < dts i) -> just_started s0 ->
  ei_type (pf_restart s0) = CYCLE -> ei_first_flag (pf_restart s0) = false ->
  run_init en s0 = (tr0, s1) -> reaches en dts 0 s1 k s -> run_continues s = true ->
  run_loop fuel en dts k s flag = Some (Ok (tr, s', f)) ->
  exists tri r r',
    run_init en (restarted s) = (tri, r) /\
    run_loop fuel en (fun i => dts (i + k)%nat) 0 r true = Some (Ok (tr, r', f)) /\
    fst (run_final r' f) = fst (run_final s' f).
Proof.
  intros en dts s0 tr0 s1 k s fuel flag tr s' f Hdt Hj HT Hf Hi Hr Hc Hl.
  pose proof (loop_head_reaches _ _ _ _ _ _ Hdt Hr (loop_head_init _ _ _ _ Hj Hi)) as Hh.
  destruct (restart_config_init _ _ _ _ Hi) as (_ & _ & A3 & A4 & _).
  destruct (restart_config_reaches _ _ _ _ _ _ Hr) as (_ & _ & B3 & B4 & _).
  destruct (run_init en (restarted s)) as [tri r] eqn:E.
  pose proof (restarted_sim en s tri r Hh ltac:(congruence) ltac:(congruence) E) as Hs.
  destruct (pfsim_loop fuel en dts k 0 s r flag true tr s' f Hdt Hs Hl Hc) as (r' & Hr' & Hfs).
  exists tri, r, r'.
  split; auto. split.
  - replace (run_loop fuel en (fun i => dts (i + k)%nat) 0 r true)
      with (run_loop fuel en (fun i => dts (i + k - 0)%nat) 0 r true); auto.
    assert (Hext : forall fu e d1 d2 kk ss fl, (forall i, d1 i = d2 i) ->
       run_loop fu e d1 kk ss fl = run_loop fu e d2 kk ss fl).
    { clear. induction fu as [| fu IHf]; intros e d1 d2 kk ss fl He; cbn [run_loop]; auto.
      rewrite (He kk). destruct (run_continues ss); auto.
      destruct (run_after_advance e (advance ss (d2 kk))) as [[[x y] z] | |]; auto.
      rewrite (IHf e d1 d2 (S kk) y z He); reflexivity. }
    apply Hext. intro i. rewrite Nat.sub_0_r. reflexivity.
  - symmetry. apply run_final_same. exact Hfs.
Qed.

(** ** concrete runs (for refutations and examples) *)

Lemma hip_cycle : forall n x p l lf c t b, l <> t ->
  ((0 <? n) && (Z.rem c n =? 0))%Z%bool = b ->
  has_interval_passed (mkEI n x CYCLE p l false lf) c t =
  Ok (b, mkEI n x CYCLE t (if b then t else l) false lf).
Proof.
  intros n x p l lf c t b H <-. unfold has_interval_passed, event_occurred_at, is_active; cbn.
  destruct (Req_EM_T l t); [contradiction |].
  destruct (0 <? n)%Z; cbn; [| reflexivity].
  destruct (Z.rem c n =? 0)%Z; reflexivity.
Qed.
Lemma hip_cycle_first : forall n x p l lf c t b, l <> t -> 0 <= p ->
  ((0 <? n) && (Z.rem c n =? 0))%Z%bool = b ->
  has_interval_passed (mkEI n x CYCLE p l true lf) c t =
  Ok (b, mkEI n x CYCLE t (if b then t else l) true lf).
Proof.
  intros n x p l lf c t b H Hp <-. unfold has_interval_passed, event_occurred_at, is_active; cbn.
  destruct (Req_EM_T l t); [contradiction |]. destruct (Rlt_dec p 0); [lra |].
  destruct (0 <? n)%Z; cbn; [| reflexivity].
  destruct (Z.rem c n =? 0)%Z; reflexivity.
Qed.
Lemma hip_cycle_first_unprimed : forall n x p l lf c t, l <> t -> p < 0 -> (0 < n)%Z ->
  has_interval_passed (mkEI n x CYCLE p l true lf) c t = Ok (true, mkEI n x CYCLE t t true lf).
Proof.
  intros n x p l lf c t H Hp Hn. unfold has_interval_passed, event_occurred_at, is_active; cbn.
  destruct (Req_EM_T l t); [contradiction |]. destruct (Rlt_dec p 0); [| lra].
  apply Z.ltb_lt in Hn. rewrite Hn. reflexivity.
Qed.
Lemma hip_time : forall n x p l lf c t a b r, l <> t -> 0 < x -> 0 <= p ->
  p / x = IZR a -> t / x = IZR b -> (0 <= a < 2 ^ 31)%Z -> (0 <= b < 2 ^ 31)%Z -> (a <? b)%Z = r ->
  has_interval_passed (mkEI n x TIME p l false lf) c t =
  Ok (r, mkEI n x TIME t (if r then t else l) false lf).
Proof.
  intros n x p l lf c t a b r H Hx Hp Ha Hb Ra Rb <-.
  assert (C : forall x n, x = IZR n -> (0 <= n < 2 ^ 31)%Z -> cast_int x = Ok n).
  { clear. intros x n -> [H0 H1].
    rewrite cast_int_range by (split; [apply (IZR_le 0); auto | apply IZR_lt; auto]).
    f_equal. pose proof (Int_part_bounds (IZR n)) as [Ha Hb].
    apply le_IZR in Ha. rewrite <- plus_IZR in Hb. apply lt_IZR in Hb. lia. }
  unfold has_interval_passed, event_occurred_at, is_active; cbn [ei_int ei_dbl ei_type ei_prev ei_last ei_first_flag ei_last_flag].
  destruct (Req_EM_T l t); [contradiction |]. destruct (Rlt_dec 0 x); [| contradiction].
  destruct (Rle_dec 0 p); [| contradiction]. cbn [negb andb].
  rewrite (C _ _ Ha Ra), (C _ _ Hb Rb). cbn [bind].
  destruct (a <? b)%Z; reflexivity.
Qed.
Lemma hip_time_unprimed : forall n x p l lf c t, p < 0 ->
  has_interval_passed (mkEI n x TIME p l false lf) c t = Ok (false, mkEI n x TIME t l false lf).
Proof.
  intros n x p l lf c t Hp.
  unfold has_interval_passed, event_occurred_at, is_active; cbn.
  destruct (Rle_dec 0 p); [lra |]. destruct (_ && _)%bool; reflexivity.
Qed.
Lemma ii_no : forall n x ty p l lf t,
  include_initial (mkEI n x ty p l false lf) t = (false, mkEI n x ty t l false lf).
Proof.
  intros. unfold include_initial. rewrite andb_false_r. reflexivity.
Qed.
Lemma ii_yes : forall n x p l lf t, (0 < n)%Z -> l <> t ->
  include_initial (mkEI n x CYCLE p l true lf) t = (true, mkEI n x CYCLE t t true lf).
Proof.
  intros n x p l lf t Hn Hl. unfold include_initial, event_occurred_at, is_active; cbn.
  apply Z.ltb_lt in Hn. rewrite Hn. destruct (Req_EM_T l t); [contradiction | reflexivity].
Qed.
Lemma if_no : forall n x ty p l ff t,
  include_final (mkEI n x ty p l ff false) t = (false, mkEI n x ty t l ff false).
Proof.
  intros. unfold include_final. cbn. rewrite andb_false_r. reflexivity.
Qed.
Lemma if_yes : forall n x p l ff t, (0 < n)%Z -> l <> t ->
  include_final (mkEI n x CYCLE p l ff true) t = (true, mkEI n x CYCLE t t ff true).
Proof.
  intros n x p l ff t Hn Hl. unfold include_final, event_occurred_at, is_active; cbn.
  apply Z.ltb_lt in Hn. rewrite Hn. destruct (Req_EM_T l t); [contradiction | reflexivity].
Qed.
Lemma rc_true : forall c t pd m st e am v i r g gr sc, t < e -> (c <? m)%Z = true ->
  run_continues (mkPF c t pd m st e am v i r g gr sc) = true.
Proof.
  intros c t pd m st e am v i r g gr sc H1 H2. unfold run_continues. cbn.
  destruct (Rlt_dec t e); [exact H2 | contradiction].
Qed.
Lemma rc_false : forall c t pd m st e am v i r g gr sc, (c <? m)%Z = false ->
  run_continues (mkPF c t pd m st e am v i r g gr sc) = false.
Proof.
  intros c t pd m st e am v i r g gr sc H2. unfold run_continues. cbn. rewrite H2. apply andb_false_r.
Qed.

Lemma raa : forall c t pd m st e am v i r g gr sc dt c' (ml : bool) b2 r' b3 gr' b4 sc' b5 v' b6 g' tr,
  (c + 1)%Z = c' ->
  has_interval_passed r c' (t + dt) = Ok (b2, r') ->
  has_interval_passed gr c' (t + dt) = Ok (b3, gr') ->
  has_interval_passed sc c' (t + dt) = Ok (b4, sc') ->
  has_interval_passed v c' (t + dt) = Ok (b5, v') ->
  has_interval_passed g c' (t + dt) = Ok (b6, g') ->
  tr = when b2 (ARestart c' (t + dt)) ++ when b3 (AGrain c' (t + dt)) ++
       when b4 (AScalar c' (t + dt)) ++ when b5 (AVisit c' (t + dt)) ++
       (if ml then when b6 (ARegrid c' (t + dt)) else []) ->
  run_after_advance (mkEnv false ml) (advance (mkPF c t pd m st e am v i r g gr sc) dt) =
  Ok (tr, mkPF c' (t + dt) dt m st e am v' i r' (if ml then g' else g) gr' sc', b5).
Proof.
  intros c t pd m st e am v i r g gr sc dt c' ml b2 r' b3 gr' b4 sc' b5 v' b6 g' tr <- H2 H3 H4 H5 H6 ->.
  unfold run_after_advance, advance. cbn [pf_cycle pf_time pf_restart pf_grain pf_scalar pf_visit pf_regrid pf_info not_silent multilevel bind set_info set_restart set_grain set_scalar set_visit set_regrid pf_prev_dt pf_max_cycles pf_start pf_end pf_amr].
  rewrite H2. cbn [bind pf_cycle pf_time pf_restart pf_grain pf_scalar pf_visit pf_regrid pf_info pf_prev_dt pf_max_cycles pf_start pf_end pf_amr].
  rewrite H3. cbn [bind pf_cycle pf_time pf_restart pf_grain pf_scalar pf_visit pf_regrid pf_info pf_prev_dt pf_max_cycles pf_start pf_end pf_amr].
  rewrite H4. cbn [bind pf_cycle pf_time pf_restart pf_grain pf_scalar pf_visit pf_regrid pf_info pf_prev_dt pf_max_cycles pf_start pf_end pf_amr].
  rewrite H5. cbn [bind pf_cycle pf_time pf_restart pf_grain pf_scalar pf_visit pf_regrid pf_info pf_prev_dt pf_max_cycles pf_start pf_end pf_amr].
  destruct ml.
  - rewrite H6. reflexivity.
  - cbn [bind]. reflexivity.
Qed.
Ltac pcbn := cbn [bind pf_cycle pf_time pf_restart pf_grain pf_scalar pf_visit pf_regrid pf_info
  pf_prev_dt pf_max_cycles pf_start pf_end pf_amr set_info set_restart set_grain set_scalar set_visit
  set_regrid not_silent multilevel fst snd].
Lemma init_intro : forall c t pd m st e am v i r g gr sc (ml : bool) b0 sc' b1 v' b3 g' b4 gr' tr,
  include_initial sc t = (b0, sc') -> include_initial v t = (b1, v') ->
  include_initial g t = (b3, g') -> include_initial gr t = (b4, gr') ->
  tr = when b0 (AScalar c t) ++ when b1 (AVisit c t) ++ when b3 (ARestart c t) ++ when b4 (AGrain c t) ->
  run_init (mkEnv false ml) (mkPF c t pd m st e am v i r g gr sc) =
    (tr, mkPF c t pd m st e am v' i r g' gr' sc').
Proof.
  intros c t pd m st e am v i r g gr sc ml b0 sc' b1 v' b3 g' b4 gr' tr H0 H1 H3 H4 ->.
  unfold run_init. pcbn. rewrite H0. pcbn. rewrite H1. pcbn. rewrite H3. pcbn. rewrite H4. reflexivity.
Qed.
Lemma final_intro : forall c t pd m st e am v i r g gr sc f b0 sc' b1 v' b2 r' tr,
  include_final sc t = (b0, sc') -> include_final v t = (b1, v') -> include_final r t = (b2, r') ->
  tr = when b0 (AScalar c t) ++ when (b1 && negb f) (AVisit c t) ++ when b2 (ARestart c t) ->
  run_final (mkPF c t pd m st e am v i r g gr sc) f =
    (tr, mkPF c t pd m st e am v' i r' g gr sc').
Proof.
  intros c t pd m st e am v i r g gr sc f b0 sc' b1 v' b2 r' tr H0 H1 H2 ->.
  unfold run_final. pcbn. rewrite H0. pcbn. rewrite H1. pcbn. rewrite H2. reflexivity.
Qed.

Lemma run_loop_go : forall fuel en dts k s flag tr1 s1 f1 tr2 s2 f2,
  run_continues s = true -> run_after_advance en (advance s (dts k)) = Ok (tr1, s1, f1) ->
  run_loop fuel en dts (S k) s1 f1 = Some (Ok (tr2, s2, f2)) ->
  run_loop (S fuel) en dts k s flag =
    Some (Ok (AAdvance (pf_cycle s + 1)%Z (pf_time s) (dts k) :: tr1 ++ tr2, s2, f2)).
Proof.
  intros fuel en dts k s flag tr1 s1 f1 tr2 s2 f2 H H0 H1.
  cbn [run_loop]. rewrite H, H0, H1. reflexivity.
Qed.
Lemma run_loop_stop : forall fuel en dts k s flag,
  run_continues s = false -> run_loop fuel en dts k s flag = Some (Ok ([], s, flag)).
Proof. intros [| fuel] en dts k s flag H; cbn [run_loop]; rewrite H; reflexivity. Qed.
Lemma run_intro : forall fuel en dts s tr0 s0 tr1 s1 f tr2 s2 tr,
  run_init en s = (tr0, s0) -> run_loop fuel en dts 0 s0 true = Some (Ok (tr1, s1, f)) ->
  run_final s1 f = (tr2, s2) -> tr = tr0 ++ tr1 ++ tr2 ->
  run fuel en dts s = Some (Ok (tr, s2)).
Proof.
  intros fuel en dts s tr0 s0 tr1 s1 f tr2 s2 tr H H0 H1 ->. unfold run. rewrite H, H0, H1. reflexivity.
Qed.

(** schedules and states used in the concrete runs *)
Definition off : ei := mkEI 0 0 CYCLE (-1) (-1) false false.
Definition every (n : Z) : ei := mkEI n 0 CYCLE (-1) (-1) false false.
Definition every_time (x : R) : ei := mkEI 0 x TIME (-1) (-1) false false.

(** a run from t=0 with unit steps up to cycle [m] *)
Definition demo (m : Z) (visit restart regrid : ei) : pf :=
  mkPF 0 0 0 m 0 100 true visit off restart regrid off off.

Lemma restarted_eq : forall c t pd m st e am v i r g gr sc,
  restarted (mkPF c t pd m st e am v i r g gr sc) =
  mkPF c t pd m st e am (fresh v) (fresh i) (fresh r) (fresh g) (fresh gr) (fresh sc).
Proof. reflexivity. Qed.

Lemma just_started_demo : forall m v r g, v = fresh v -> r = fresh r -> g = fresh g ->
  just_started (demo m v r g).
Proof.
  intros m v r g Hv Hr Hg. split; cbn; [lra |].
  intros e [<- | [<- | [<- | [<- | [<- | [<- | []]]]]]]; auto.
Qed.

(** evaluate a concrete run: one lemma per query, no unfolding of real comparisons *)
Ltac ev_hip :=
  unfold off, every, every_time, fresh; cbn [ei_int ei_dbl ei_type ei_prev ei_last ei_first_flag ei_last_flag];
  first [ apply hip_time_unprimed; lra
        | apply hip_cycle; [lra | cbn; reflexivity]
        | apply hip_cycle_first; [lra | lra | cbn; reflexivity]
        | apply hip_cycle_first_unprimed; [lra | lra | lia] ].
Ltac ev_ii :=
  unfold off, every, every_time, fresh; cbn [ei_int ei_dbl ei_type ei_prev ei_last ei_first_flag ei_last_flag];
  first [ apply ii_no | apply ii_yes; [lia | lra] ].
Ltac ev_if :=
  first [ apply if_no | apply if_yes; [lia | lra] ].
Ltac ev_init := unfold demo; rewrite ?restarted_eq; eapply init_intro; [ev_ii | ev_ii | ev_ii | ev_ii | reflexivity].
Ltac ev_after := eapply raa; [reflexivity | ev_hip | ev_hip | ev_hip | ev_hip | ev_hip | reflexivity].
Ltac ev_final := eapply final_intro; [ev_if | ev_if | ev_if | reflexivity].
Ltac ev_rc := apply rc_true; [lra | reflexivity].
Ltac ev_go := eapply run_loop_go; [ev_rc | ev_after |].
Ltac ev_stop := apply run_loop_stop; apply rc_false; reflexivity.

(** C05: include_first on Restart requested, no file; not requested, file *)
Lemma initial_restart_refuted :
  exists en s fuel dts tr s',
    just_started s /\ (forall i, 0 < dts i) /\
    is_active (pf_restart s) = true /\ ei_first_flag (pf_restart s) = true /\
    run fuel en dts s = Some (Ok (tr, s')) /\ ~ In (pf_cycle s, pf_time s) (restart_files tr).
Proof.
  exists (mkEnv false false), (demo 1 off (mkEI 1 0 CYCLE (-1) (-1) true false) off), 1%nat, (fun _ => 1).
  eexists. eexists. split; [apply just_started_demo; reflexivity |]. split; [intros; lra |].
  split; [reflexivity |]. split; [reflexivity |].
  split.
  { eapply run_intro; [ev_init | ev_go; ev_stop | ev_final | reflexivity]. }
  cbn. intros [H | []]. injection H as H _. lia.
Qed.

Lemma unrequested_restart_refuted :
  exists en s fuel dts tr s',
    just_started s /\ (forall i, 0 < dts i) /\
    ei_first_flag (pf_restart s) = false /\
    run fuel en dts s = Some (Ok (tr, s')) /\ In (pf_cycle s, pf_time s) (restart_files tr).
Proof.
  exists (mkEnv false false), (demo 1 off off (mkEI 5 0 CYCLE (-1) (-1) true false)), 1%nat, (fun _ => 1).
  eexists. eexists. split; [apply just_started_demo; reflexivity |]. split; [intros; lra |].
  split; [reflexivity |].
  split.
  { eapply run_intro; [ev_init | ev_go; ev_stop | ev_final | reflexivity]. }
  cbn. left. reflexivity.
Qed.

(** what the code does instead *)
Lemma initial_restart_iff_regrid : forall en s tr s',
  ei_last (pf_regrid s) = -1 -> 0 <= pf_time s -> run_init en s = (tr, s') ->
  (restart_files tr <> [] <-> is_active (pf_regrid s) = true /\ ei_first_flag (pf_regrid s) = true).
Proof.
  intros en s tr s' Hl H0 H. apply run_init_inv in H.
  destruct H as (b0 & b1 & b2 & b3 & b4 & _ & _ & _ & I3 & _ & _ & -> & _).
  assert (E : b3 = (is_active (pf_regrid s) && ei_first_flag (pf_regrid s))%bool).
  { unfold include_initial, event_occurred_at in I3.
    destruct (Req_EM_T (ei_last (pf_regrid s)) (pf_time s)); [lra |].
    destruct (is_active (pf_regrid s)), (ei_first_flag (pf_regrid s)); cbn in *;
      injection I3 as <- _; reflexivity. }
  rewrite !restart_files_app.
  rewrite <- andb_true_iff, <- E.
  destruct b0, b1, b2, b3, b4; cbn; split; intro C; congruence.
Qed.

(** C06: a time-based restart schedule is not transparent.  Files every time
    unit, unit steps: the original run writes one at t=3, the run restarted from
    the file of t=2 does not. *)
Lemma restart_time_schedule_refuted :
  exists en dts s0 tr0 s1 s tr s' f tri r trr r' f',
    (forall i, 0 < dts i) /\ just_started s0 /\
    run_init en s0 = (tr0, s1) /\ reaches en dts 0 s1 2 s /\
    run_loop 1 en dts 2 s true = Some (Ok (tr, s', f)) /\
    restart_files tr = [(3%Z, 3)] /\
    run_init en (restarted s) = (tri, r) /\
    run_loop 1 en (fun i => dts (i + 2)%nat) 0 r true = Some (Ok (trr, r', f')) /\
    pf_cycle r' = 3%Z /\ restart_files (tri ++ trr) = [].
Proof.
  exists (mkEnv false false), (fun _ => 1), (demo 3 off (every_time 1) off).
  eexists. eexists. eexists. eexists. eexists. eexists. eexists. eexists. eexists. eexists. eexists.
  split; [intros; lra |]. split; [apply just_started_demo; reflexivity |].
  split; [ev_init |].
  split.
  { eapply reaches_step; [ev_rc | ev_after |].
    eapply reaches_step; [ev_rc | |].
    { eapply raa; [reflexivity | | ev_hip | ev_hip | ev_hip | ev_hip | reflexivity].
      eapply (hip_time _ _ _ _ _ _ _ 1 2); [lra | lra | lra | lra | lra | lia | lia | cbn; reflexivity]. }
    apply reaches_here. }
  split.
  { eapply run_loop_go; [ev_rc | |].
    { eapply raa; [reflexivity | | ev_hip | ev_hip | ev_hip | ev_hip | reflexivity].
      eapply (hip_time _ _ _ _ _ _ _ 2 3); [lra | lra | lra | lra | lra | lia | lia | cbn; reflexivity]. }
    ev_stop. }
  split; [cbn; repeat f_equal; lra |].
  split; [ev_init |].
  split; [ev_go; ev_stop |].
  split; reflexivity.
Qed.

(** C06: the regrid due at the cycle of the restart file is lost: the original run
    regrids at cycle 2 right after writing the file; the run restarted from that
    file goes on to cycle 3 without it. *)
Lemma restart_regrid_refuted :
  exists en dts s0 fuel tr s' s tr0 s1 rtr r',
    (forall i, 0 < dts i) /\ just_started s0 /\
    run fuel en dts s0 = Some (Ok (tr, s')) /\ pf_cycle s' = 3%Z /\
    (exists p q, tr = p ++ ARestart 2 (pf_time s) :: q /\ regrids p = [] /\
                 regrids q = [(2%Z, pf_time s)]) /\
    run_init en s0 = (tr0, s1) /\ reaches en dts 0 s1 2 s /\
    run fuel en (fun i => dts (i + 2)%nat) (restarted s) = Some (Ok (rtr, r')) /\
    pf_cycle r' = 3%Z /\ regrids rtr = [].
Proof.
  exists (mkEnv false true), (fun _ => 1), (demo 3 off (every 2) (every 2)), 3%nat.
  eexists. eexists. eexists. eexists. eexists. eexists. eexists.
  split; [intros; lra |]. split; [apply just_started_demo; reflexivity |].
  split.
  { eapply run_intro; [ev_init | ev_go; ev_go; ev_go; ev_stop | ev_final | reflexivity]. }
  split; [reflexivity |].
  match goal with |- ?A /\ ?B => cut (B /\ A); [intros [HB HA]; exact (conj HA HB) |] end.
  split.
  { split; [ev_init |].
    split.
    { eapply reaches_step; [ev_rc | ev_after |].
      eapply reaches_step; [ev_rc | ev_after |]. apply reaches_here. }
    split.
    { eapply run_intro; [ev_init | ev_go; ev_stop | ev_final | reflexivity]. }
    split; reflexivity. }
  eexists [_; _]. eexists [_; _].
  split; [reflexivity |]. split; reflexivity.
Qed.

(** ** max_delta_cycles *)
Lemma run_step_count : forall fuel en dts s tr s',
  run fuel en dts s = Some (Ok (tr, s')) ->
  (Z.of_nat (length (steps tr)) <= Z.max 0 (pf_max_cycles s - pf_cycle s))%Z.
Proof.
  intros fuel en dts s tr s' H. apply run_steps in H. destruct H as (H1 & _ & _ & H4 & _).
  destruct (steps tr) as [| x l] eqn:E; [cbn; lia |].
  assert (Hlast : forall l c t k, steps_from c t dts k l -> l <> [] ->
     exists c' t' dt, In (c', t', dt) l /\ (c' = c + Z.of_nat (length l))%Z).
  { clear. induction l as [| [[c1 t1] d1] l IH]; intros c t k H Hn; [contradiction |].
    cbn in H. destruct H as (-> & -> & -> & H).
    destruct l as [| y l].
    - exists (c + 1)%Z, t, (dts k). split; [left; auto | cbn; lia].
    - destruct (IH _ _ _ H ltac:(discriminate)) as (c' & t' & dt & Hin & Hc).
      exists c', t', dt. split; [right; auto |]. rewrite Hc. cbn [length]. lia. }
  assert (Hne : x :: l <> []) by discriminate.
  destruct (Hlast _ _ _ _ H1 Hne) as (c' & t' & dt & Hin & Hc).
  destruct (H4 _ _ _ Hin) as [_ Hm]. lia.
Qed.

Lemma max_delta_input : forall d sc s m fuel en dts tr s',
  get_from_input d sc = Some s -> dk_max_delta d = Some m ->
  run fuel en dts s = Some (Ok (tr, s')) ->
  (Z.of_nat (length (steps tr)) <= Z.max 0 m)%Z.
Proof.
  intros d sc s m fuel en dts tr s' Hg Hd Hr. apply run_step_count in Hr.
  unfold get_from_input in Hg. rewrite Hd in Hg. destruct (dk_end d); [| discriminate].
  injection Hg as <-. cbn in Hr. rewrite Z.sub_0_r in Hr. exact Hr.
Qed.

Lemma max_delta_restart : forall d f sc m fuel en dts tr s',
  dk_max_delta d = Some m -> dk_max_cycles d = None -> dk_max_timesteps d = None ->
  run fuel en dts (get_from_restart f d sc) = Some (Ok (tr, s')) ->
  (Z.of_nat (length (steps tr)) <= Z.max 0 m)%Z.
Proof.
  intros d f sc m fuel en dts tr s' Hd H1 H2 Hr. apply run_step_count in Hr.
  unfold get_from_restart in Hr. rewrite Hd, H1, H2 in Hr. cbn in Hr. lia.
Qed.

Lemma max_delta_both_refuted :
  exists d f sc m fuel en dts tr s',
    dk_max_delta d = Some m /\ (0 < m)%Z /\ (forall i, 0 < dts i) /\
    run fuel en dts (get_from_restart f d sc) = Some (Ok (tr, s')) /\
    (m < Z.of_nat (length (steps tr)))%Z.
Proof.
  exists (mkDeck (Some 3%Z) None (Some 1%Z) None None None), (mkRF 3 0 100 1 1 1 true),
    (mkSch off off off off off off), 1%Z, 3%nat, (mkEnv false false), (fun _ => 1).
  eexists. eexists.
  split; [reflexivity |]. split; [lia |]. split; [intros; lra |].
  split.
  { change (get_from_restart (mkRF 3 0 100 1 1 1 true) (mkDeck (Some 3%Z) None (Some 1%Z) None None None)
      (mkSch off off off off off off)) with (mkPF 1 1 1 3 0 100 true off off off off off off).
    eapply run_intro; [ev_init | ev_go; ev_go; ev_stop | ev_final | reflexivity]. }
  reflexivity.
Qed.

Lemma restart_roundtrip : forall s,
  let r := restarted s in
  pf_cycle r = pf_cycle s /\ pf_time r = pf_time s /\ pf_prev_dt r = pf_prev_dt s /\
  pf_max_cycles r = pf_max_cycles s /\ pf_start r = pf_start s /\ pf_end r = pf_end s /\
  pf_amr r = pf_amr s.
Proof. intros s. cbn. repeat split. Qed.
