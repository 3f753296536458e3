From Coq Require Import Reals List Bool Lra Lia.
From Verif Require Import BcCoefs_Spec BcCoefs_Proofs MovingFrame_Model MovingFrame_Spec.
Import ListNotations.
Open Scope R_scope.

Lemma limited x m : 0 <= m -> let a := if Rgt_dec (Rabs x) m then x * (m / Rabs x) else x in
  Rabs a <= m /\ (0 < x -> 0 <= a /\ (0 < m -> 0 < a)) /\ (x < 0 -> a <= 0 /\ (0 < m -> a < 0)) /\ (x = 0 -> a = 0) /\ (Rabs x <= m -> a = x).
Proof.
  intros Hm a. unfold a. destruct (Rgt_dec (Rabs x) m) as [G|G].
  - assert (Hx : 0 < Rabs x) by lra. assert (0 < / Rabs x) by (apply Rinv_0_lt_compat; auto). assert (0 <= m / Rabs x) by (apply Rle_mult_inv_pos; auto).
    split; [rewrite Rabs_mult, (Rabs_right (m / Rabs x)) by lra; right; field; lra|]. split; [|split; [|split]].
    + intros P. split; [apply Rmult_le_pos; lra|]. intros Q. apply Rmult_lt_0_compat; auto. apply Rmult_lt_0_compat; auto.
    + intros P. split; [assert (0 <= (- x) * (m / Rabs x)) by (apply Rmult_le_pos; lra); lra|]. intros Q.
      assert (0 < m / Rabs x) by (apply Rmult_lt_0_compat; auto). assert (0 < (- x) * (m / Rabs x)) by (apply Rmult_lt_0_compat; lra). lra.
    + intros ->. rewrite Rabs_R0 in G. lra.
    + intros. lra.
  - split; [lra|]. split; [intros; lra|]. split; [intros; lra|]. split; auto.
Qed.

Lemma max_positive low up v0 : 0 <= d_max_accel (new_frame low up v0).
Proof. cbn. apply Rabs_pos. Qed.

(** constant members *)
Definition same_domain (f f' : frame) : Prop := d_max_accel f = d_max_accel f' /\ d_vol_inv f = d_vol_inv f' /\ d_Lx f = d_Lx f'.
Lemma adapt_state f first v t vol v' f' : adaptVelocity f first t vol v = Some (v', f') -> same_domain f' f /\ d_previous f' = Some (t, vol * d_vol_inv f).
Proof.
  unfold adaptVelocity, same_domain. destruct first; [intros E; injection E as <- <-; auto|]. destruct (d_previous f) as [[pt pf]|]; [|discriminate]. intros E. injection E as <- <-. auto.
Qed.
Lemma step_bound f first v t vol v' f' : 0 <= d_max_accel f -> adaptVelocity f first t vol v = Some (v', f') -> Rabs (v' - v) <= d_max_accel f.
Proof.
  intros Hm. unfold adaptVelocity. destruct first; [intros E; injection E as <- <-; replace (v + 0 - v) with 0 by ring; rewrite Rabs_R0; auto|].
  destruct (d_previous f) as [[pt pf]|]; [|discriminate]. intros E. injection E as <- <-.
  match goal with |- Rabs (v + ?a - v) <= _ => replace (v + a - v) with a by ring end. apply limited; auto.
Qed.
Lemma run_state l : forall f v, d_previous f <> None -> 0 <= d_max_accel f -> exists v' f', adapt f false v l = Some (v', f') /\ same_domain f' f /\ Rabs (v' - v) <= INR (length l) * d_max_accel f /\
  d_previous f' = match rev l with [] => d_previous f | (t, vol) :: _ => Some (t, vol * d_vol_inv f) end.
Proof.
  induction l as [|[t vol] l IH]; intros f v Hp Hm.
  - exists v, f. cbn. unfold same_domain. repeat split; auto. replace (v - v) with 0 by ring. rewrite Rabs_R0. lra.
  - cbn [adapt]. destruct (adaptVelocity f false t vol v) as [[v1 f1]|] eqn:E.
    + destruct (adapt_state _ _ _ _ _ _ _ E) as ((S1 & S2 & S3) & S4). pose proof (step_bound _ _ _ _ _ _ _ Hm E) as B.
      destruct (IH f1 v1) as (v' & f' & E' & (T1 & T2 & T3) & B' & P'); [rewrite S4; discriminate|lra|]. exists v', f'. split; [auto|]. split; [unfold same_domain; split; [|split]; congruence|]. split.
      * cbn [length]. rewrite S_INR. rewrite S1 in B'. replace (v' - v) with ((v' - v1) + (v1 - v)) by ring. pose proof (Rabs_triang (v' - v1) (v1 - v)). lra.
      * rewrite P'. cbn [rev]. destruct (rev l) as [|[t' vol'] r]; cbn; [auto|]. rewrite S2. auto.
    + unfold adaptVelocity in E. destruct (d_previous f) as [[pt pf]|]; [discriminate|]. contradiction.
Qed.

Lemma first_call : forall low up v0 t vol, exists f', adapt (new_frame low up v0) true v0 [(t, vol)] = Some (v0, f').
Proof. intros. cbn. replace (v0 + 0) with v0 by ring. eauto. Qed.

Lemma frame_bound : forall low up v0 l, exists v f, adapt (new_frame low up v0) true v0 l = Some (v, f) /\ Rabs (v - v0) <= INR (length l - 1) * Rabs v0.
Proof.
  intros low up v0 [|[t vol] l].
  - exists v0, (new_frame low up v0). split; [auto|]. replace (v0 - v0) with 0 by ring. rewrite Rabs_R0. cbn. lra.
  - cbn [adapt]. unfold adaptVelocity. set (f := new_frame low up v0). set (f1 := mk_frame _ _ _ (Some _)).
    destruct (run_state l f1 (v0 + 0)) as (v & f' & E & _ & B & _); [discriminate|cbn; apply Rabs_pos|]. exists v, f'. split; [auto|].
    cbn [length]. replace (S (length l) - 1)%nat with (length l) by lia. replace (v - v0) with (v - (v0 + 0)) by ring. exact B.
Qed.

Lemma frame_step : forall low up v0 l tp volp t vol, in_order (l ++ [(tp, volp); (t, vol)]) ->
  let vol0 := fold_left (fun v lu => v * (snd lu - fst lu)) (combine low up) 1 in let Lx := nth 0 up 0 - nth 0 low 0 in
  exists v f v' f', adapt (new_frame low up v0) true v0 (l ++ [(tp, volp)]) = Some (v, f) /\ adapt (new_frame low up v0) true v0 (l ++ [(tp, volp); (t, vol)]) = Some (v', f') /\
    Rabs (v' - v) <= Rabs v0 /\
    (0 < vol0 -> 0 < Lx -> (volp < vol -> v <= v' /\ (v0 <> 0 -> v < v')) /\ (vol < volp -> v' <= v /\ (v0 <> 0 -> v' < v)) /\ (vol = volp -> v' = v) /\
     (Rabs (Lx * ((vol - volp) / vol0) / (t - tp)) <= Rabs v0 -> v' = v + Lx * ((vol - volp) / vol0) / (t - tp))).
Proof.
  intros low up v0 l tp volp t vol Ho vol0 Lx. set (f0 := new_frame low up v0).
  assert (Ht : tp < t).
  { unfold in_order in Ho. rewrite map_app in Ho. cbn in Ho. apply (increasing_nth (map fst l ++ [tp; t]) (length l) (S (length l))); auto;
      [rewrite nth_error_app2 by (rewrite map_length; auto); rewrite map_length, Nat.sub_diag; auto|rewrite nth_error_app2 by (rewrite map_length; auto); rewrite map_length, Nat.sub_succ_l, Nat.sub_diag by auto; auto]. }
  assert (A : forall l' first v f, adapt f first v (l' ++ [(t, vol)]) = match adapt f first v l' with Some (v, f) => adapt f (match l' with [] => first | _ => false end) v [(t, vol)] | None => None end).
  { induction l' as [|[u w] l' IH]; intros first v f; [cbn [app adapt]; auto|]. cbn [app adapt]. destruct (adaptVelocity f first u w v) as [[v1 f1]|]; [|auto]. rewrite IH. destruct l'; auto. }
  assert (P : exists v f, adapt f0 true v0 (l ++ [(tp, volp)]) = Some (v, f) /\ same_domain f f0 /\ d_previous f = Some (tp, volp * d_vol_inv f0)).
  { destruct (l ++ [(tp, volp)]) as [|[u w] r] eqn:E; [destruct l; discriminate|]. cbn [adapt]. unfold adaptVelocity. set (f1 := mk_frame _ _ _ (Some _)).
    destruct (run_state r f1 (v0 + 0)) as (v & f & E' & S & _ & D); [discriminate|cbn; apply Rabs_pos|]. exists v, f. split; [auto|]. split; [destruct S as (S1 & S2 & S3); split; [|split]; auto|].
    rewrite D. assert (R : rev (l ++ [(tp, volp)]) = rev ((u, w) :: r)) by (rewrite E; auto). rewrite rev_app_distr in R. cbn [rev app] in R.
    destruct (rev r) as [|[u' w'] r'] eqn:Er; cbn in R; [injection R as -> -> _; auto|]. injection R as -> -> _. auto. }
  destruct P as (v & f & E & (S1 & S2 & S3) & D). exists v, f.
  assert (Ec : l ++ [(tp, volp); (t, vol)] = (l ++ [(tp, volp)]) ++ [(t, vol)]) by (rewrite <- app_assoc; auto). rewrite Ec.
  assert (F : (match l ++ [(tp, volp)] with [] => true | _ => false end) = false) by (destruct l; auto).
  rewrite A, E, F. cbn [adapt]. unfold adaptVelocity. rewrite D, S1, S2, S3. eexists; eexists. split; [reflexivity|]. split; [reflexivity|].
  set (x := d_Lx f0 * (vol * d_vol_inv f0 - volp * d_vol_inv f0) * (1 / (t - tp))).
  pose proof (limited x (d_max_accel f0) (max_positive low up v0)) as (L1 & L2 & L3 & L4 & L5). cbv zeta in L1, L2, L3, L4, L5. set (a := if Rgt_dec _ _ then _ else _) in *.
  split; [replace (v + a - v) with a by ring; exact L1|]. intros Hv HL.
  assert (Ex : x = Lx * ((vol - volp) / vol0) / (t - tp)) by (unfold x, f0, new_frame, Lx, vol0; cbn [d_Lx d_vol_inv]; fold vol0; field; lra).
  assert (Hk : 0 < Lx / vol0 / (t - tp)) by (apply Rmult_lt_0_compat; [apply Rmult_lt_0_compat; auto; apply Rinv_0_lt_compat; auto|apply Rinv_0_lt_compat; lra]).
  assert (Ex' : x = (vol - volp) * (Lx / vol0 / (t - tp))) by (rewrite Ex; field; lra).
  assert (M : v0 <> 0 -> 0 < d_max_accel f0) by (intros; cbn; apply Rabs_pos_lt; auto).
  split; [|split; [|split]].
  - intros Hlt. assert (0 < x) by (rewrite Ex'; apply Rmult_lt_0_compat; lra). destruct (L2 H) as [Q1 Q2]. split; [lra|]. intros N. specialize (Q2 (M N)). lra.
  - intros Hlt. assert (0 < - x) by (rewrite Ex'; replace (- ((vol - volp) * (Lx / vol0 / (t - tp)))) with ((volp - vol) * (Lx / vol0 / (t - tp))) by ring; apply Rmult_lt_0_compat; lra).
    destruct (L3 ltac:(lra)) as [Q1 Q2]. split; [lra|]. intros N. specialize (Q2 (M N)). lra.
  - intros Heq. assert (x = 0) by (rewrite Ex', Heq; ring). rewrite (L4 H). ring.
  - intros Hs. rewrite <- Ex in *. rewrite (L5 Hs). auto.
Qed.
