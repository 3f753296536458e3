From Coq Require Import Reals ZArith List Lra Lia Bool.
From Verif Require Import EventInterval_Model EventInterval_Spec.
Import ListNotations.
Open Scope R_scope.

Ltac ei_cases :=
  repeat match goal with
  | |- context [Req_EM_T ?a ?b] => destruct (Req_EM_T a b)
  | H : context [Req_EM_T ?a ?b] |- _ => destruct (Req_EM_T a b)
  | |- context [Rlt_dec ?a ?b] => destruct (Rlt_dec a b)
  | H : context [Rlt_dec ?a ?b] |- _ => destruct (Rlt_dec a b)
  | |- context [Rle_dec ?a ?b] => destruct (Rle_dec a b)
  | H : context [Rle_dec ?a ?b] |- _ => destruct (Rle_dec a b)
  end.

(** what every query does to the object *)
Lemma query_effect : forall s o b s',
  ei_query s o = Ok (b, s') ->
  ei_int s' = ei_int s /\ ei_dbl s' = ei_dbl s /\ ei_type s' = ei_type s /\
  ei_first_flag s' = ei_first_flag s /\ ei_last_flag s' = ei_last_flag s /\
  ei_prev s' = op_time o /\
  ei_last s' = (if b then op_time o else ei_last s) /\
  (b = true -> is_active s = true /\ ei_last s <> op_time o).
Proof.
  intros s o b s' H.
  destruct o as [t | n t | t]; cbn [ei_query op_time] in *.
  - unfold include_initial, event_occurred_at in H.
    destruct (is_active s) eqn:Ha; destruct (ei_first_flag s) eqn:Hf;
      destruct (Req_EM_T (ei_last s) t); cbn in H; inversion H; subst; cbn;
      repeat split; auto; discriminate.
  - unfold has_interval_passed in H.
    match type of H with bind ?p _ = _ => destruct p as [pb | | ] eqn:Hp end;
      cbn [bind] in H; try discriminate.
    inversion H; subst b s'; clear H.
    assert (Hyes : pb = true -> is_active s = true /\ ei_last s <> t).
    { intro Hb; subst pb. unfold event_occurred_at in Hp.
      destruct (is_active s); destruct (Req_EM_T (ei_last s) t); cbn in Hp;
        try discriminate; auto. }
    destruct pb; cbn; repeat split; auto; try discriminate; apply Hyes; auto.
  - unfold include_final, event_occurred_at in H.
    destruct (is_active s) eqn:Ha; destruct (ei_last_flag s) eqn:Hf;
      destruct (Req_EM_T (ei_last s) t); cbn in H; inversion H; subst; cbn;
      repeat split; auto; discriminate.
Qed.

Lemma query_same_active : forall s o b s',
  ei_query s o = Ok (b, s') -> is_active s' = is_active s.
Proof.
  intros s o b s' H. destruct (query_effect _ _ _ _ H) as (H1 & H2 & H3 & _).
  unfold is_active. rewrite H1, H2, H3. reflexivity.
Qed.

Lemma history_cons_inv : forall s o b h s',
  history s ((o, b) :: h) s' ->
  exists s1, ei_query s o = Ok (b, s1) /\ history s1 h s'.
Proof. intros s o b h s' H. inversion H; subst. eauto. Qed.

Lemma history_nil_inv : forall s s', history s [] s' -> s' = s.
Proof. intros s s' H. inversion H; auto. Qed.

Lemma history_app_inv : forall h1 h2 s s',
  history s (h1 ++ h2) s' -> exists sm, history s h1 sm /\ history sm h2 s'.
Proof.
  induction h1 as [| [o b] h1 IH]; intros h2 s s' H.
  - exists s; split; [constructor | exact H].
  - cbn in H. destruct (history_cons_inv _ _ _ _ _ H) as (s1 & H3 & H6).
    destruct (IH _ _ _ H6) as (sm & Ha & Hb).
    exists sm; split; [econstructor; eauto | exact Hb].
Qed.

Lemma history_app : forall h1 h2 s sm s',
  history s h1 sm -> history sm h2 s' -> history s (h1 ++ h2) s'.
Proof.
  intros h1 h2 s sm s' H; revert s'; induction H; intros s' H2'; cbn; auto.
  econstructor; eauto.
Qed.

Lemma last_stays : forall h s s' t,
  history s h s' -> ei_last s = t ->
  (forall o, In (o, true) h -> op_time o = t) -> ei_last s' = t.
Proof.
  induction h as [| [o b] h IH]; intros s s' t H Hl Hall.
  { apply history_nil_inv in H. subst s'. exact Hl. }
  destruct (history_cons_inv _ _ _ _ _ H) as (s1 & H3 & H6).
  destruct (query_effect _ _ _ _ H3) as (_ & _ & _ & _ & _ & _ & Hl' & Hyes).
  apply IH with (s := s1); auto.
  - destruct b.
    + rewrite Hl'. apply Hall. left; reflexivity.
    + congruence.
  - intros o' Ho'. apply Hall. right; exact Ho'.
Qed.

Lemma yes_separated : forall s s' h1 h2 h3 o1 o2,
  history s (h1 ++ (o1, true) :: h2 ++ (o2, true) :: h3) s' ->
  op_time o1 = op_time o2 ->
  exists o, In (o, true) h2 /\ op_time o <> op_time o1.
Proof.
  intros s s' h1 h2 h3 o1 o2 H Ht.
  apply history_app_inv in H. destruct H as (sa & _ & H).
  destruct (history_cons_inv _ _ _ _ _ H) as (s1 & H3 & H6).
  apply history_app_inv in H6. destruct H6 as (sb & Hm & Hr).
  destruct (history_cons_inv _ _ _ _ _ Hr) as (s2 & H4 & _).
  destruct (query_effect _ _ _ _ H3) as (_ & _ & _ & _ & _ & _ & Hl1 & _).
  destruct (query_effect _ _ _ _ H4) as (_ & _ & _ & _ & _ & _ & _ & Hy2).
  destruct (Hy2 eq_refl) as (_ & Hne).
  destruct (Forall_Exists_dec (fun ob : ei_op * bool =>
      snd ob = true -> op_time (fst ob) = op_time o1)) with (l := h2) as [HF | HE].
  - intros [o b]; cbn. destruct b.
    + destruct (Req_EM_T (op_time o) (op_time o1)); [left; auto | right; intro C; apply n; auto].
    + left; discriminate.
  - exfalso. apply Hne. rewrite <- Ht.
    apply (last_stays h2 s1 sb); auto.
    rewrite Forall_forall in HF. intros o Ho. exact (HF _ Ho eq_refl).
  - apply Exists_exists in HE. destruct HE as ([o b] & Hin & Hno). cbn in Hno.
    destruct b.
    + exists o; split; auto.
    + exfalso; apply Hno; discriminate.
Qed.

Lemma yes_at_late : forall h t t0, times_from t0 h -> t < t0 -> yes_at t h = 0%nat.
Proof.
  induction h as [| [o b] h IH]; intros t t0 Ht Hlt; cbn; auto.
  cbn in Ht. destruct Ht as [H1 H2].
  rewrite (IH t (op_time o)) by (auto; lra).
  destruct b; [| reflexivity]. destruct (Req_EM_T (op_time o) t); [lra | reflexivity].
Qed.

Lemma yes_at_after : forall h s s' t t0,
  history s h s' -> ei_last s = t -> t <= t0 -> times_from t0 h -> yes_at t h = 0%nat.
Proof.
  induction h as [| [o b] h IH]; intros s s' t t0 H Hl Hle Ht; cbn; auto.
  destruct (history_cons_inv _ _ _ _ _ H) as (s1 & H3 & H6).
  cbn in Ht. destruct Ht as [H1 H2]. subst t.
  destruct (query_effect _ _ _ _ H3) as (_ & _ & _ & _ & _ & _ & Hl' & Hyes).
  destruct (Req_EM_T (op_time o) (ei_last s)) as [He | Hne].
  - destruct b.
    + destruct (Hyes eq_refl) as [_ C]. exfalso; auto.
    + cbn. apply (IH s1 s' (ei_last s) (op_time o)); auto. lra.
  - rewrite (yes_at_late h (ei_last s) (op_time o)); auto; [destruct b; reflexivity | lra].
Qed.

Lemma yes_at_most_once : forall h s s' t t0,
  history s h s' -> times_from t0 h -> (yes_at t h <= 1)%nat.
Proof.
  induction h as [| [o b] h IH]; intros s s' t t0 H Ht; cbn; [lia |].
  destruct (history_cons_inv _ _ _ _ _ H) as (s1 & H3 & H6).
  cbn in Ht. destruct Ht as [H1 H2].
  destruct (query_effect _ _ _ _ H3) as (_ & _ & _ & _ & _ & _ & Hl' & Hyes).
  destruct b.
  - destruct (Req_EM_T (op_time o) t) as [He | Hne].
    + rewrite (yes_at_after h s1 s' t (op_time o)); auto; [congruence | lra].
    + exact (IH s1 s' t (op_time o) H6 H2).
  - exact (IH s1 s' t (op_time o) H6 H2).
Qed.

(** ** truncation *)

Lemma Int_part_bounds : forall x, IZR (Int_part x) <= x < IZR (Int_part x) + 1.
Proof. intro x. destruct (base_Int_part x). lra. Qed.

Lemma Int_part_lt : forall x y, (Int_part x < Int_part y)%Z <-> exists m : Z, x < IZR m <= y.
Proof.
  intros x y. pose proof (Int_part_bounds x) as Hx. pose proof (Int_part_bounds y) as Hy.
  split.
  - intro H. exists (Int_part y). split; [| lra].
    apply Z.lt_le_pred in H. apply IZR_le in H. unfold Z.pred in H. rewrite plus_IZR in H. lra.
  - intros (m & Hm1 & Hm2). apply lt_IZR.
    assert (Int_part x < m)%Z by (apply lt_IZR; lra).
    assert (m < Int_part y + 1)%Z by (apply lt_IZR; rewrite plus_IZR; lra).
    apply IZR_lt. lia.
Qed.

Lemma rtrunc_nonneg : forall x, 0 <= x -> rtrunc x = Int_part x.
Proof. intros x H. unfold rtrunc. destruct (Rle_dec 0 x); [reflexivity | contradiction]. Qed.

Lemma cast_int_ok : forall x n, cast_int x = Ok n -> rtrunc x = n.
Proof.
  intros x n H. unfold cast_int in H.
  destruct ((- 2 ^ 31 <=? rtrunc x) && (rtrunc x <=? 2 ^ 31 - 1))%Z%bool; congruence.
Qed.

Lemma cast_int_range : forall x, 0 <= x < IZR (2 ^ 31) -> cast_int x = Ok (Int_part x).
Proof.
  intros x [H0 H1]. unfold cast_int. rewrite rtrunc_nonneg by assumption.
  pose proof (Int_part_bounds x) as Hx.
  assert (0 < Int_part x + 1)%Z by (apply lt_IZR; rewrite plus_IZR; lra).
  assert (Int_part x < 2 ^ 31)%Z by (apply lt_IZR; lra).
  replace ((- 2 ^ 31 <=? Int_part x) && (Int_part x <=? 2 ^ 31 - 1))%Z%bool with true; auto.
  symmetry. apply andb_true_iff; split; apply Z.leb_le; lia.
Qed.

Lemma crosses_div : forall I a b, 0 < I ->
  (crosses I a b <-> exists m : Z, a / I < IZR m <= b / I).
Proof.
  intros I a b HI. unfold crosses.
  split; intros (m & H1 & H2); exists m; split.
  - apply Rmult_lt_reg_r with I; auto. unfold Rdiv. rewrite Rmult_assoc, Rinv_l by lra. lra.
  - apply Rmult_le_reg_r with I; auto. unfold Rdiv. rewrite Rmult_assoc, Rinv_l by lra. lra.
  - apply Rmult_lt_compat_r with (r := I) in H1; auto.
    unfold Rdiv in H1. rewrite Rmult_assoc, Rinv_l in H1 by lra. lra.
  - apply Rmult_le_compat_r with (r := I) in H2; [| lra].
    unfold Rdiv in H2. rewrite Rmult_assoc, Rinv_l in H2 by lra. lra.
Qed.

Lemma time_step_iff : forall s n t b s',
  ei_type s = TIME -> 0 < ei_dbl s -> 0 <= ei_prev s -> ei_prev s <= t ->
  ei_last s <> t ->
  ei_query s (QStep n t) = Ok (b, s') ->
  (b = true <-> crosses (ei_dbl s) (ei_prev s) t).
Proof.
  intros s n t b s' HT HI Hp Hle Hl H. cbn [ei_query] in H.
  unfold has_interval_passed, event_occurred_at, is_active in H. rewrite HT in H.
  destruct (Rlt_dec 0 (ei_dbl s)); [| contradiction].
  destruct (Req_EM_T (ei_last s) t); [contradiction |].
  destruct (Rlt_dec (ei_prev s) 0); [lra |].
  destruct (Rle_dec 0 (ei_prev s)); [| contradiction].
  replace (ei_first_flag s && false)%bool with false in H
    by (destruct (ei_first_flag s); reflexivity). cbn in H.
  destruct (cast_int (ei_prev s / ei_dbl s)) as [np | |] eqn:E1; cbn in H; try discriminate.
  destruct (cast_int (t / ei_dbl s)) as [nt | |] eqn:E2; cbn in H; try discriminate.
  apply cast_int_ok in E1. apply cast_int_ok in E2.
  rewrite rtrunc_nonneg in E1 by (apply Rle_mult_inv_pos; auto).
  rewrite rtrunc_nonneg in E2 by (apply Rle_mult_inv_pos; lra).
  injection H as Hb _. rewrite <- Hb. rewrite crosses_div by assumption.
  rewrite <- Int_part_lt. rewrite E1, E2. rewrite Z.ltb_lt. tauto.
Qed.

Lemma time_step_defined : forall s n t,
  ei_type s = TIME -> 0 < ei_dbl s -> 0 <= ei_prev s -> ei_prev s <= t ->
  t / ei_dbl s < IZR (2 ^ 31) ->
  exists b s', ei_query s (QStep n t) = Ok (b, s').
Proof.
  intros s n t HT HI Hp Hle Hr. cbn [ei_query]. unfold has_interval_passed. rewrite HT.
  assert (ei_prev s / ei_dbl s <= t / ei_dbl s)
    by (apply Rmult_le_compat_r; [left; apply Rinv_0_lt_compat; auto | auto]).
  rewrite (cast_int_range (ei_prev s / ei_dbl s))
    by (split; [apply Rle_mult_inv_pos; auto | lra]).
  rewrite (cast_int_range (t / ei_dbl s))
    by (split; [apply Rle_mult_inv_pos; auto; lra | lra]).
  destruct (is_active s && negb (event_occurred_at s t))%bool; [| cbn; eauto].
  destruct (Rlt_dec (ei_prev s) 0); [lra |]. rewrite andb_false_r.
  destruct (Rle_dec 0 (ei_prev s)); cbn; eauto.
Qed.

(** ** whole runs of a time-based schedule *)

Lemma final_time_app : forall h1 h2 t0,
  final_time t0 (h1 ++ h2) = final_time (final_time t0 h1) h2.
Proof. induction h1 as [| [o b] h1 IH]; intros; cbn; auto. Qed.

Lemma time_run : forall h s s',
  ei_type s = TIME -> 0 < ei_dbl s -> 0 <= ei_prev s -> ei_last s <= ei_prev s ->
  history s h s' -> all_steps h -> times_from (ei_prev s) h ->
  ei_prev s' = final_time (ei_prev s) h /\
  (forall h1 o b h2, h = h1 ++ (o, b) :: h2 ->
     (b = true <-> crosses (ei_dbl s) (final_time (ei_prev s) h1) (op_time o))).
Proof.
  induction h as [| [o b] h IH]; intros s s' HT HI Hp Hl H Hall Ht.
  - apply history_nil_inv in H. subst s'. split; [reflexivity |]. intros h1 o b h2 E.
    destruct h1; discriminate.
  - destruct (history_cons_inv _ _ _ _ _ H) as (s1 & H3 & H6). cbn in Ht. destruct Ht as [Ht1 Ht2].
    destruct (Hall o b (or_introl eq_refl)) as (n & Hn).
    pose proof (query_effect _ _ _ _ H3) as (Q1 & Q2 & Q3 & Q4 & Q5 & Q6 & Q7 & Q8).
    assert (Hlast1 : ei_last s1 <= ei_prev s1) by (rewrite Q6, Q7; destruct b; lra).
    destruct (IH s1 s') as [IHa IHb]; auto.
    + congruence.
    + rewrite Q2; auto.
    + rewrite Q6; lra.
    + intros o' b' Hin. apply (Hall o' b'). right; auto.
    + rewrite Q6; auto.
    + cbn [final_time]. rewrite Q6 in IHa, IHb. split; [exact IHa |].
      intros h1 o' b' h2 E. destruct h1 as [| [o1 b1] h1]; cbn in E.
      * inversion E; subst o' b' h2. cbn [final_time].
        destruct (Req_EM_T (ei_last s) (op_time o)) as [He | Hne].
        -- split.
           ++ intro Hb. destruct (Q8 Hb) as [_ C]. contradiction.
           ++ intros (m & Hm1 & Hm2). lra.
        -- rewrite Hn in H3. cbn in H3. rewrite Hn.
           apply (time_step_iff s n (op_time o) b s1); auto.
      * inversion E; subst o1 b1 h. cbn [final_time]. rewrite <- Q2.
        apply (IHb h1 o' b' h2). reflexivity.
Qed.

Lemma times_from_le_final : forall h t0, times_from t0 h -> t0 <= final_time t0 h.
Proof.
  induction h as [| [o b] h IH]; intros t0 H; cbn in *; [lra |].
  destruct H as [H1 H2]. specialize (IH _ H2). lra.
Qed.

Lemma multiple_in_some_step : forall h t0 x,
  times_from t0 h -> t0 < x <= final_time t0 h ->
  exists h1 o b h2, h = h1 ++ (o, b) :: h2 /\ final_time t0 h1 < x <= op_time o.
Proof.
  induction h as [| [o b] h IH]; intros t0 x H Hx; cbn in *; [lra |].
  destruct H as [H1 H2]. destruct (Rle_dec x (op_time o)).
  - exists [], o, b, h. cbn. split; [reflexivity | lra].
  - destruct (IH (op_time o) x H2) as (h1 & o' & b' & h2 & E & Hx'); [lra |].
    exists ((o, b) :: h1), o', b', h2. cbn. subst h. split; auto.
Qed.

Lemma time_run_no_skip : forall h s s' m,
  ei_type s = TIME -> 0 < ei_dbl s -> 0 <= ei_prev s -> ei_last s <= ei_prev s ->
  history s h s' -> all_steps h -> times_from (ei_prev s) h ->
  ei_prev s < IZR m * ei_dbl s <= final_time (ei_prev s) h ->
  exists h1 o h2, h = h1 ++ (o, true) :: h2 /\
     final_time (ei_prev s) h1 < IZR m * ei_dbl s <= op_time o.
Proof.
  intros h s s' m HT HI Hp Hl H Hall Ht Hm.
  destruct (time_run h s s' HT HI Hp Hl H Hall Ht) as [_ Hiff].
  destruct (multiple_in_some_step h (ei_prev s) (IZR m * ei_dbl s) Ht Hm)
    as (h1 & o & b & h2 & E & Hx).
  assert (b = true). { apply (Hiff h1 o b h2 E). exists m. exact Hx. }
  subst b. exists h1, o, h2. auto.
Qed.

(** ** step based and inactive schedules *)

Lemma cycle_step_iff : forall s n t b s',
  ei_type s = CYCLE -> (0 < ei_int s)%Z -> ei_first_flag s = false ->
  ei_query s (QStep n t) = Ok (b, s') ->
  (b = true <-> (ei_int s | n)%Z /\ ei_last s <> t).
Proof.
  intros s n t b s' HT HI Hf H. cbn [ei_query] in H.
  unfold has_interval_passed, event_occurred_at, is_active in H. rewrite HT, Hf in H.
  replace (0 <? ei_int s)%Z with true in H by (symmetry; apply Z.ltb_lt; auto).
  cbn in H. destruct (Req_EM_T (ei_last s) t) as [He | Hne]; cbn in H;
    injection H as Hb _; rewrite <- Hb.
  - split; [discriminate | intros [_ C]; contradiction].
  - rewrite Z.eqb_eq. rewrite Z.rem_divide by lia. tauto.
Qed.

Lemma cycle_step_defined : forall s n t, ei_type s = CYCLE ->
  exists b s', ei_query s (QStep n t) = Ok (b, s').
Proof.
  intros s n t HT. cbn [ei_query]. unfold has_interval_passed. rewrite HT.
  destruct (is_active s && negb (event_occurred_at s t))%bool; [| cbn; eauto].
  destruct (ei_first_flag s && _)%bool; cbn; eauto.
Qed.

Lemma inactive_never : forall h s s' o b,
  ~ interval_positive s -> history s h s' -> In (o, b) h -> b = false.
Proof.
  induction h as [| [o1 b1] h IH]; intros s s' o b Hn H Hin; [destruct Hin |].
  destruct (history_cons_inv _ _ _ _ _ H) as (s1 & H3 & H6).
  pose proof (query_effect _ _ _ _ H3) as (Q1 & Q2 & Q3 & _ & _ & _ & _ & Q8).
  destruct Hin as [E | Hin].
  - inversion E; subst. destruct b; auto. exfalso. apply Hn.
    destruct (Q8 eq_refl) as [Ha _]. unfold is_active in Ha. unfold interval_positive.
    destruct (ei_type s).
    + apply Z.ltb_lt; auto.
    + destruct (Rlt_dec 0 (ei_dbl s)); auto; discriminate.
  - apply (IH s1 s' o b); auto. unfold interval_positive in *. rewrite Q3, Q1, Q2. exact Hn.
Qed.

(** ** restart transparency *)

(** same future: equal configuration, equal previous time, and neither has an
    event recorded after that time *)
Definition sim (a b : ei) : Prop :=
  same_config a b /\ ei_prev a = ei_prev b /\ 0 <= ei_prev a /\
  ei_last a <= ei_prev a /\ ei_last b <= ei_prev b.

Lemma sim_query : forall a b n t r a',
  sim a b -> ei_prev a < t -> ei_query a (QStep n t) = Ok (r, a') ->
  exists b', ei_query b (QStep n t) = Ok (r, b') /\ sim a' b'.
Proof.
  intros a b n t r a' (Hc & Hp & H0 & Hla & Hlb) Ht H.
  pose proof (query_effect _ _ _ _ H) as (Q1 & Q2 & Q3 & Q4 & Q5 & Q6 & Q7 & Q8).
  destruct Hc as (C1 & C2 & C3 & C4 & C5).
  assert (Hact : is_active a = is_active b) by (unfold is_active; rewrite C1, C2, C3; auto).
  assert (Hoa : event_occurred_at a t = false).
  { unfold event_occurred_at. destruct (Req_EM_T (ei_last a) t); [lra | apply andb_false_r]. }
  assert (Hob : event_occurred_at b t = false).
  { unfold event_occurred_at. destruct (Req_EM_T (ei_last b) t); [lra | apply andb_false_r]. }
  assert (Hb : exists b', ei_query b (QStep n t) = Ok (r, b')).
  { cbn [ei_query] in *. unfold has_interval_passed in *.
    rewrite Hoa in H. rewrite Hob. rewrite <- Hact, <- C1, <- C2, <- C3, <- C4, <- Hp.
    match type of H with bind ?p _ = _ => destruct p as [pb | | ] end;
      cbn [bind] in *; try discriminate.
    inversion H; subst. eauto. }
  destruct Hb as (b' & Hb). exists b'; split; auto.
  pose proof (query_effect _ _ _ _ Hb) as (P1 & P2 & P3 & P4 & P5 & P6 & P7 & P8).
  cbn [op_time] in *.
  unfold sim, same_config. rewrite Q1, Q2, Q3, Q4, Q5, Q6, Q7, P1, P2, P3, P4, P5, P6, P7.
  repeat split; auto; try lra; destruct r; lra.
Qed.

Lemma sim_history : forall h a b a',
  sim a b -> all_steps h -> strictly_after (ei_prev a) h -> history a h a' ->
  exists b', history b h b' /\ sim a' b'.
Proof.
  induction h as [| [o r] h IH]; intros a b a' Hs Hall Ht H.
  - apply history_nil_inv in H. subst a'. exists b; split; [constructor | auto].
  - destruct (history_cons_inv _ _ _ _ _ H) as (s1 & H3 & H6). cbn in Ht. destruct Ht as [Ht1 Ht2].
    destruct (Hall o r (or_introl eq_refl)) as (n & Hn).
    pose proof (query_effect _ _ _ _ H3) as (_ & _ & _ & _ & _ & Q6 & _ & _).
    rewrite Hn in H3. cbn in H3.
    destruct (sim_query a b n (op_time o) r s1 Hs Ht1 H3) as (b1 & Hb1 & Hs1).
    destruct (IH s1 b1 a') as (b' & Hb' & Hs'); auto.
    + intros o' r' Hin. apply (Hall o' r'). right; auto.
    + rewrite Q6. exact Ht2.
    + exists b'; split; auto. econstructor; eauto. rewrite Hn. exact Hb1.
Qed.

Lemma restart_sim : forall s,
  0 <= ei_prev s -> ei_last s <= ei_prev s ->
  sim s (snd (include_initial (fresh s) (ei_prev s))).
Proof.
  intros s H0 Hl. unfold include_initial.
  destruct (_ && _ && _)%bool; unfold sim, same_config, fresh, set_prev, record_event; cbn;
    repeat split; auto; lra.
Qed.

Lemma last_le_prev_invariant : forall h s s',
  history s h s' -> ei_last s <= ei_prev s -> times_from (ei_prev s) h ->
  ei_last s' <= ei_prev s'.
Proof.
  induction h as [| [o b] h IH]; intros s s' H Hl Ht.
  { apply history_nil_inv in H. subst s'. exact Hl. }
  destruct (history_cons_inv _ _ _ _ _ H) as (s1 & H3 & H6).
  cbn in Ht. destruct Ht as [Ht1 Ht2].
  pose proof (query_effect _ _ _ _ H3) as (_ & _ & _ & _ & _ & Q6 & Q7 & _).
  apply (IH s1 s'); auto.
  - rewrite Q6, Q7. destruct b; lra.
  - rewrite Q6; exact Ht2.
Qed.
