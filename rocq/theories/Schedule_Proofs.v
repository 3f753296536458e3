From Coq Require Import Reals ZArith String List Bool Lra Lia.
From Verif Require Import EventInterval_Model EventInterval_Spec EventInterval_Proofs Run_Model Run_Spec Run_Proofs Schedule_Spec.
Import ListNotations.
Open Scope R_scope.

Lemma setting_opt : forall {A} (key : ei_db -> option A) db d,
  match db with Some x => opt (key x) d | None => d end = setting key db d.
Proof. intros A key [x |] d; reflexivity. Qed.

Lemma round_int : forall n, (0 <= n)%Z -> rtrunc (IZR n + 1 / 2) = n.
Proof.
  intros n H. unfold rtrunc. apply IZR_le in H. destruct (Rle_dec 0 (IZR n + 1 / 2)); [| lra].
  unfold Int_part. assert (E : (n + 1 = up (IZR n + 1 / 2))%Z) by (apply tech_up; rewrite plus_IZR; lra). lia.
Qed.

Lemma cycle_type : forall ty, (String.eqb ty "step" || String.eqb ty "cycle")%bool = true <-> ty = "step"%string \/ ty = "cycle"%string.
Proof. intro ty. rewrite orb_true_iff, !String.eqb_eq. tauto. Qed.
Lemma time_type : forall ty, (String.eqb ty "time" || String.eqb ty "dt")%bool = true <-> ty = "time"%string \/ ty = "dt"%string.
Proof. intro ty. rewrite orb_true_iff, !String.eqb_eq. tauto. Qed.

Lemma new_cycle : forall db dv dty f l s, says_cycle db dty -> ei_new db dv dty f l = Ok s ->
  exists dint, cast_int (dv + 1 / 2) = Ok dint /\
  s = mkEI (setting db_int db dint) 0 CYCLE (-1) (-1) (setting db_first db f) (setting db_last db l).
Proof.
  intros db dv dty f l s H E. unfold ei_new in E. destruct (cast_int (dv + 1 / 2)) as [dint | |]; cbn [bind] in E; try discriminate.
  exists dint. split; [reflexivity |]. rewrite !setting_opt in E. apply cycle_type in H. rewrite H in E. congruence.
Qed.
Lemma new_time : forall db dv dty f l s, says_time db dty -> ei_new db dv dty f l = Ok s ->
  s = mkEI 0 (setting db_dbl db dv) TIME (-1) (-1) (setting db_first db f) (setting db_last db l).
Proof.
  intros db dv dty f l s H E. unfold ei_new in E. destruct (cast_int (dv + 1 / 2)) as [dint | |]; cbn [bind] in E; try discriminate.
  rewrite !setting_opt in E.
  assert (N : (String.eqb (setting db_type db dty) "step" || String.eqb (setting db_type db dty) "cycle")%bool = false).
  { apply not_true_is_false. rewrite cycle_type. destruct H as [-> | ->]; intros [C | C]; discriminate. }
  rewrite N in E. apply time_type in H. rewrite H in E. congruence.
Qed.

Lemma cast_val : forall x n, cast_int x = Ok n -> n = rtrunc x.
Proof. intros x n H. unfold cast_int in H. destruct (_ && _)%bool in H; congruence. Qed.
Lemma interval_value : forall db dv dint n, cast_int (dv + 1 / 2) = Ok dint -> (0 <= n)%Z -> interval_is db dv n -> setting db_int db dint = n.
Proof.
  intros db dv dint n C Hn H. apply cast_val in C.
  assert (D : dv = IZR n -> dint = n) by (intros ->; rewrite C; apply round_int; exact Hn).
  destruct db as [[a b c [m |] e] |]; cbn in *; auto.
Qed.

Lemma occurred_fresh : forall i x ty f l t, 0 <= t -> event_occurred_at (mkEI i x ty (-1) (-1) f l) t = false.
Proof.
  intros i x ty f l t H. unfold event_occurred_at. cbn [ei_last]. destruct (Req_EM_T (-1) t); [lra |]. apply andb_false_r.
Qed.

Lemma built_cycle : forall db dv dty f l s n t, says_cycle db dty -> interval_is db dv n -> (0 <= n)%Z ->
  ei_new db dv dty f l = Ok s -> 0 <= t ->
  (fst (include_initial s t) = true <-> (0 < n)%Z /\ setting db_first db f = true) /\
  (fst (include_final s t) = true <-> (0 < n)%Z /\ setting db_last db l = true) /\
  (forall k, exists b s', ei_query s (QStep k t) = Ok (b, s') /\
     (b = true <-> (0 < n)%Z /\ (setting db_first db f = true \/ (n | k)%Z))).
Proof.
  intros db dv dty f l s n t Hty Hi Hn E Ht.
  destruct (new_cycle db dv dty f l s Hty E) as [dint [C ->]].
  rewrite (interval_value db dv dint n C Hn Hi). 
  set (s := mkEI _ _ _ _ _ _ _). assert (A : is_active s = (0 <? n)%Z) by reflexivity.
  assert (O : event_occurred_at s t = false) by (apply occurred_fresh; exact Ht).
  split; [| split].
  - unfold include_initial. rewrite A, O. cbn [ei_first_flag s negb]. rewrite andb_true_r.
    destruct (Z.ltb_spec 0 n); destruct (setting db_first db f); cbn; split; intros; try lia; try discriminate; try tauto; destruct H0; try lia; discriminate.
  - unfold include_final. rewrite A, O. cbn [ei_last_flag s negb]. rewrite andb_true_r.
    destruct (Z.ltb_spec 0 n); destruct (setting db_last db l); cbn; split; intros; try lia; try discriminate; try tauto; destruct H0; try lia; discriminate.
  - intro k. cbn [ei_query]. unfold has_interval_passed. rewrite A, O. cbn [negb]. rewrite andb_true_r.
    destruct (Z.ltb_spec 0 n).
    + cbn [ei_first_flag ei_prev ei_type ei_int s]. destruct (Rlt_dec (-1) 0) as [_ | ?]; [| lra].
      destruct (setting db_first db f); cbn [andb bind].
      * do 2 eexists. split; [reflexivity |]. tauto.
      * do 2 eexists. split; [reflexivity |]. rewrite Z.eqb_eq, Z.rem_divide by lia. split; [tauto |].
        intros [_ [D | D]]; [discriminate | exact D].
    + cbn [bind]. do 2 eexists. split; [reflexivity |]. split; [discriminate | lia].
Qed.

Lemma built_time : forall db dv dty f l s t, says_time db dty ->
  ei_new db dv dty f l = Ok s -> 0 <= t ->
  (fst (include_initial s t) = true <-> 0 < setting db_dbl db dv /\ setting db_first db f = true) /\
  (fst (include_final s t) = true <-> 0 < setting db_dbl db dv /\ setting db_last db l = true) /\
  (forall k, exists b s', ei_query s (QStep k t) = Ok (b, s') /\
     (b = true <-> 0 < setting db_dbl db dv /\ setting db_first db f = true)).
Proof.
  intros db dv dty f l s t Hty E Ht.
  rewrite (new_time db dv dty f l s Hty E). set (x := setting db_dbl db dv).
  set (u := mkEI _ _ _ _ _ _ _). assert (A : is_active u = if Rlt_dec 0 x then true else false) by reflexivity.
  assert (O : event_occurred_at u t = false) by (apply occurred_fresh; exact Ht).
  split; [| split].
  - unfold include_initial. rewrite A, O. cbn [ei_first_flag u negb]. rewrite andb_true_r.
    destruct (Rlt_dec 0 x); destruct (setting db_first db f); cbn; split; intros; try lra; try discriminate; try tauto; destruct H; try lra; discriminate.
  - unfold include_final. rewrite A, O. cbn [ei_last_flag u negb]. rewrite andb_true_r.
    destruct (Rlt_dec 0 x); destruct (setting db_last db l); cbn; split; intros; try lra; try discriminate; try tauto; destruct H; try lra; discriminate.
  - intro k. cbn [ei_query]. unfold has_interval_passed. rewrite A, O. cbn [negb]. rewrite andb_true_r.
    destruct (Rlt_dec 0 x).
    + cbn [ei_first_flag ei_prev ei_type u]. destruct (Rlt_dec (-1) 0) as [_ | ?]; [| lra]. destruct (Rle_dec 0 (-1)) as [? | _]; [lra |].
      destruct (setting db_first db f); cbn [andb bind]; do 2 eexists; (split; [reflexivity |]); split; try tauto; try discriminate; try (intros [_ D]; discriminate).
    + cbn [bind]. do 2 eexists. split; [reflexivity |]. split; [discriminate | tauto].
Qed.

Lemma built_or_rejected : forall db dv dty f l, 0 <= dv + 1 / 2 < IZR (2 ^ 31) ->
  ((exists s, ei_new db dv dty f l = Ok s) <-> says_cycle db dty \/ says_time db dty) /\
  (~ (says_cycle db dty \/ says_time db dty) -> ei_new db dv dty f l = Err).
Proof.
  intros db dv dty f l H.
  assert (C : exists d, cast_int (dv + 1 / 2) = Ok d).
  { unfold cast_int. assert (R : (0 <= rtrunc (dv + 1 / 2) < 2 ^ 31)%Z).
    { unfold rtrunc. destruct (Rle_dec 0 (dv + 1 / 2)); [| lra]. destruct (base_Int_part (dv + 1 / 2)) as [B1 B2]. split.
      - assert (- 1 < Int_part (dv + 1 / 2))%Z by (apply lt_IZR; lra). lia.
      - apply lt_IZR. lra. }
    destruct ((- 2 ^ 31 <=? rtrunc (dv + 1 / 2)) && (rtrunc (dv + 1 / 2) <=? 2 ^ 31 - 1))%Z%bool eqn:B; [eexists; reflexivity |].
    rewrite andb_false_iff, !Z.leb_gt in B. lia. }
  destruct C as [d C]. unfold ei_new. rewrite C. cbn [bind]. rewrite !setting_opt. unfold says_cycle, says_time.
  rewrite <- cycle_type, <- time_type.
  destruct (String.eqb (setting db_type db dty) "step" || String.eqb (setting db_type db dty) "cycle")%bool;
  destruct (String.eqb (setting db_type db dty) "time" || String.eqb (setting db_type db dty) "dt")%bool;
  (split; [split; [intros [s E]; first [discriminate | tauto] | intros [G | G]; first [discriminate | eexists; reflexivity]] | intros G; first [reflexivity | exfalso; tauto]]).
Qed.

Lemma run_between : forall fuel en dts s tr s', run fuel en dts s = Some (Ok (tr, s')) ->
  runs_between (pf_cycle s) (pf_time s) (pf_end s) (pf_max_cycles s) dts tr.
Proof.
  intros fuel en dts s tr s' H. destruct (run_steps fuel en dts s tr s' H) as (A & B & C & D & E).
  unfold runs_between. rewrite <- C, <- B. auto.
Qed.
Lemma deck_run : forall d sc, (dk_end d = None -> get_from_input d sc = None) /\
  (forall t_end, dk_end d = Some t_end -> exists s, get_from_input d sc = Some s /\
     (pf_visit s, pf_info s, pf_restart s, pf_regrid s, pf_grain s, pf_scalar s) =
       (sc_visit sc, sc_info sc, sc_restart sc, sc_regrid sc, sc_grain sc, sc_scalar sc) /\
     pf_amr s = first_of [dk_amr d] false /\
     forall fuel en dts tr s', run fuel en dts s = Some (Ok (tr, s')) ->
     runs_between 0 (first_of [dk_start d] 0) t_end
       (first_of [dk_max_delta d; dk_max_cycles d; dk_max_timesteps d] (2 ^ 31 - 1)%Z) dts tr).
Proof.
  intros d sc. split.
  - intro H. unfold get_from_input. rewrite H. reflexivity.
  - intros te H. unfold get_from_input. rewrite H. eexists. split; [reflexivity |]. split; [reflexivity |].
    split; [destruct (dk_amr d); reflexivity |].
    intros fuel en dts tr s' R. apply run_between in R. cbn [pf_cycle pf_time pf_end pf_max_cycles] in R.
    destruct (dk_start d), (dk_max_delta d), (dk_max_cycles d), (dk_max_timesteps d); exact R.
Qed.
Lemma deck_restart : forall s d sc fuel en dts tr s',
  run fuel en dts (get_from_restart (put_to_restart s) d sc) = Some (Ok (tr, s')) ->
  runs_between (pf_cycle s) (pf_time s) (first_of [dk_end d] (pf_end s))
    (first_of [dk_max_cycles d; dk_max_timesteps d; option_map (Z.add (pf_cycle s)) (dk_max_delta d)] (pf_max_cycles s)) dts tr.
Proof.
  intros s d sc fuel en dts tr s' R. apply run_between in R. unfold get_from_restart, put_to_restart in R.
  cbn [pf_cycle pf_time pf_end pf_max_cycles rf_cycle rf_time rf_end rf_max_cycles] in R.
  destruct (dk_end d), (dk_max_delta d), (dk_max_cycles d), (dk_max_timesteps d); exact R.
Qed.
