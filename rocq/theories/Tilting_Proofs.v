From Coq Require Import Reals Lra.
From Coquelicot Require Import Coquelicot.
From Verif Require Import Functions_Model Functions_Proofs Tilting_Model Tilting_Spec.
Open Scope R_scope.

Ltac dlt := repeat match goal with |- context [Rlt_dec ?a ?b] => destruct (Rlt_dec a b) end; try lra.

Lemma fp_value : forall p0 p1 p2, 0 <= p0 <= 1 ->
  fp_g0 p0 p1 p2 = (1 / 4) * p0 * p0 * (15 * (1 - p0) * (1 + p0 - (p2 - p1) * (p2 - p1)) + p0 * (9 * p0 * p0 - 5)).
Proof. intros p0 p1 p2 H. unfold fp_g0. dlt. Qed.
Lemma fp_d0 : forall p0 p1 p2, 0 <= p0 <= 1 ->
  fp_dg0dp0 p0 p1 p2 = (5 / 2) * p0 * ((p2 - p1) * (p2 - p1) * (3 * p0 - 2) + (1 - p0) * (1 - p0) * (3 * p0 + 2)).
Proof. intros p0 p1 p2 H. unfold fp_dg0dp0. dlt. Qed.
Lemma fp_d1 : forall p0 p1 p2, 0 <= p0 <= 1 -> 0 <= p1 <= 1 ->
  fp_dg0dp1 p0 p1 p2 = - (1 / 2) * fp_dg0dp0 p1 p0 p2 + (15 / 2) * (p1 * p1 * (1 - p1) * (p2 - p0)).
Proof. intros p0 p1 p2 H0 H1. unfold fp_dg0dp1. dlt. Qed.
Lemma simplex_range : forall p0 p1 p2, on_simplex p0 p1 p2 -> (0 <= p0 <= 1) /\ (0 <= p1 <= 1) /\ (0 <= p2 <= 1).
Proof. unfold on_simplex. intros. lra. Qed.

Lemma fp_sum : forall p0 p1 p2, on_simplex p0 p1 p2 ->
  fp_g0 p0 p1 p2 + fp_g0 p1 p0 p2 + fp_g0 p2 p0 p1 = 1.
Proof.
  intros p0 p1 p2 H. destruct (simplex_range _ _ _ H) as (R0 & R1 & R2). rewrite !fp_value by auto.
  destruct H as [H _]. replace p2 with (1 - p0 - p1) by lra. field.
Qed.
Lemma fp_nonneg : forall p0 p1 p2, on_simplex p0 p1 p2 -> 0 <= fp_g0 p0 p1 p2.
Proof.
  intros p0 p1 p2 H. destruct (simplex_range _ _ _ H) as (R0 & R1 & R2). rewrite fp_value by auto.
  destruct H as [H _].
  assert (D : (p2 - p1) * (p2 - p1) <= (1 - p0) * (1 - p0)).
  { replace (1 - p0) with (p1 + p2) by lra. assert (0 <= p1 * p2) by (apply Rmult_le_pos; lra). nra. }
  replace ((1 / 4) * p0 * p0 * (15 * (1 - p0) * (1 + p0 - (p2 - p1) * (p2 - p1)) + p0 * (9 * p0 * p0 - 5)))
    with ((1 / 4) * (p0 * p0) * (15 * ((1 - p0) * ((1 - p0) * (1 - p0) - (p2 - p1) * (p2 - p1))) + p0 * (24 * (p0 - 5 / 4) * (p0 - 5 / 4) + 5 / 2)))
    by field.
  apply Rmult_le_pos; [apply Rmult_le_pos; [lra | apply Rmult_le_pos; lra] |].
  apply Rplus_le_le_0_compat.
  - apply Rmult_le_pos; [lra |]. apply Rmult_le_pos; lra.
  - apply Rmult_le_pos; [lra |]. pose proof (pow2_ge_0 (p0 - 5 / 4)). nra.
Qed.
Lemma fp_swap : forall p0 p1 p2, fp_g0 p0 p1 p2 = fp_g0 p0 p2 p1.
Proof. intros p0 p1 p2. unfold fp_g0. dlt. Qed.
Lemma mo_swap : forall p0 p1 p2, mo_g0 p0 p1 p2 = mo_g0 p0 p2 p1.
Proof.
  intros p0 p1 p2. unfold mo_g0. dlt. replace (p0 * p0 + p1 * p1 + p2 * p2) with (p0 * p0 + p2 * p2 + p1 * p1) by ring. reflexivity.
Qed.

Lemma sq_pos : forall p0 p1 p2, p0 + p1 + p2 = 1 -> 0 < p0 * p0 + p1 * p1 + p2 * p2.
Proof.
  intros p0 p1 p2 H. pose proof (Rle_0_sqr p0). pose proof (Rle_0_sqr p1). pose proof (Rle_0_sqr p2). unfold Rsqr in *.
  destruct (Rle_lt_or_eq_dec 0 (p0 * p0 + p1 * p1 + p2 * p2)) as [L | E]; [lra | exact L |].
  assert (p0 * p0 = 0 /\ p1 * p1 = 0 /\ p2 * p2 = 0) as (A & B & C) by lra.
  apply Rsqr_0_uniq in A, B, C. lra.
Qed.
Lemma mo_value : forall p0 p1 p2, 0 <= p0 -> mo_g0 p0 p1 p2 = p0 * p0 / (p0 * p0 + p1 * p1 + p2 * p2).
Proof. intros. unfold mo_g0. dlt. Qed.
Lemma mo_sum : forall p0 p1 p2, on_simplex p0 p1 p2 ->
  mo_g0 p0 p1 p2 + mo_g0 p1 p0 p2 + mo_g0 p2 p0 p1 = 1.
Proof.
  intros p0 p1 p2 (H & H0 & H1 & H2). pose proof (sq_pos _ _ _ H). rewrite !mo_value by auto.
  replace (p1 * p1 + p0 * p0 + p2 * p2) with (p0 * p0 + p1 * p1 + p2 * p2) by ring.
  replace (p2 * p2 + p0 * p0 + p1 * p1) with (p0 * p0 + p1 * p1 + p2 * p2) by ring. field. lra.
Qed.
Lemma mo_nonneg : forall p0 p1 p2, on_simplex p0 p1 p2 -> 0 <= mo_g0 p0 p1 p2.
Proof.
  intros p0 p1 p2 (H & H0 & H1 & H2). pose proof (sq_pos _ _ _ H). rewrite mo_value by auto.
  apply Rmult_le_pos; [apply Rle_0_sqr | left; apply Rinv_0_lt_compat; assumption].
Qed.

Lemma tilt_sum : forall T p0 p1 p2, on_simplex p0 p1 p2 -> g0 T p0 p1 p2 + g0 T p1 p0 p2 + g0 T p2 p0 p1 = 1.
Proof. intros [|]; [apply fp_sum | apply mo_sum]. Qed.
Lemma tilt_nonneg : forall T p0 p1 p2, on_simplex p0 p1 p2 -> 0 <= g0 T p0 p1 p2.
Proof. intros [|]; [apply fp_nonneg | apply mo_nonneg]. Qed.
Lemma tilt_swap : forall T p0 p1 p2, g0 T p0 p1 p2 = g0 T p0 p2 p1.
Proof. intros [|]; [apply fp_swap | apply mo_swap]. Qed.
Lemma tilt_range : forall T p0 p1 p2, on_simplex p0 p1 p2 -> 0 <= g0 T p0 p1 p2 <= 1.
Proof.
  intros T p0 p1 p2 H. pose proof (tilt_sum T _ _ _ H) as S. pose proof (tilt_nonneg T _ _ _ H).
  assert (0 <= g0 T p1 p0 p2) by (apply tilt_nonneg; unfold on_simplex in *; lra).
  assert (0 <= g0 T p2 p0 p1) by (apply tilt_nonneg; unfold on_simplex in *; lra). lra.
Qed.
Lemma tilt_pure : forall T p1 p2, g0 T 1 0 0 = 1 /\ g0 T 0 p1 p2 = 0.
Proof.
  intros [|] p1 p2; cbn [g0]; split.
  - rewrite fp_value by lra. lra.
  - rewrite fp_value by lra. ring.
  - rewrite mo_value by lra. field.
  - rewrite mo_value by lra. unfold Rdiv. ring.
Qed.
(** the value of a phase only counts when the phase is there, also along an edge *)

(** derivatives *)
Lemma fp_poly_deriv : forall p0 p1 p2 v0 v1 v2, p0 + p1 + p2 = 1 -> v0 + v1 + v2 = 0 -> 
  derivable_pt_lim (fun t => (1 / 4) * (p0 + t * v0) * (p0 + t * v0) *
    (15 * (1 - (p0 + t * v0)) * (1 + (p0 + t * v0) - ((p2 + t * v2) - (p1 + t * v1)) * ((p2 + t * v2) - (p1 + t * v1)))
     + (p0 + t * v0) * (9 * (p0 + t * v0) * (p0 + t * v0) - 5))) 0
  ((5 / 2) * p0 * ((p2 - p1) * (p2 - p1) * (3 * p0 - 2) + (1 - p0) * (1 - p0) * (3 * p0 + 2)) * v0
   + (- (1 / 2) * ((5 / 2) * p1 * ((p2 - p0) * (p2 - p0) * (3 * p1 - 2) + (1 - p1) * (1 - p1) * (3 * p1 + 2))) + (15 / 2) * (p1 * p1 * (1 - p1) * (p2 - p0))) * v1
   + (- (1 / 2) * ((5 / 2) * p2 * ((p1 - p0) * (p1 - p0) * (3 * p2 - 2) + (1 - p2) * (1 - p2) * (3 * p2 + 2))) + (15 / 2) * (p2 * p2 * (1 - p2) * (p1 - p0))) * v2).
Proof.
  intros p0 p1 p2 v0 v1 v2 H V. apply is_derive_Reals. evar_last; [auto_derive; [exact I | reflexivity] |].
  replace p2 with (1 - p0 - p1) by lra. replace v2 with (- v0 - v1) by lra. field.
Qed.

Lemma glue2 : forall f a b c l d, 0 < d -> derivable_pt_lim a c l -> derivable_pt_lim b c l ->
  f c = a c -> f c = b c -> (forall x, Rabs (x - c) < d -> f x = a x \/ f x = b x) -> derivable_pt_lim f c l.
Proof.
  intros f a b c l d Hd Ha Hb Fa Fb Hf eps He.
  destruct (Ha eps He) as (da & Hda). destruct (Hb eps He) as (db & Hdb).
  assert (Hp : 0 < Rmin d (Rmin da db)) by (repeat apply Rmin_pos; auto; [apply (cond_pos da) | apply (cond_pos db)]).
  exists (mkposreal _ Hp). intros h Hh Hlt. cbn in Hlt.
  pose proof (Rmin_l d (Rmin da db)). pose proof (Rmin_r d (Rmin da db)). pose proof (Rmin_l da db). pose proof (Rmin_r da db).
  destruct (Hf (c + h)) as [E | E].
  - replace (c + h - c) with h by ring. lra.
  - rewrite E, Fa. apply Hda; auto. lra.
  - rewrite E, Fb. apply Hdb; auto. lra.
Qed.
Lemma small : forall v r, 0 < r -> exists d, 0 < d /\ forall t, Rabs (t - 0) < d -> - r < t * v < r.
Proof.
  intros v r Hr. exists (r / (1 + Rabs v)). pose proof (Rabs_pos v).
  assert (0 < r / (1 + Rabs v)) by (apply Rdiv_lt_0_compat; lra). split; auto.
  intros t Ht. rewrite Rminus_0_r in Ht.
  assert (Rabs (t * v) < r).
  { rewrite Rabs_mult. apply Rle_lt_trans with (Rabs t * (1 + Rabs v)); [apply Rmult_le_compat_l; [apply Rabs_pos | lra] |].
    apply Rlt_le_trans with (r / (1 + Rabs v) * (1 + Rabs v)); [apply Rmult_lt_compat_r; lra |]. right. field. lra. }
  apply Rabs_def2 in H1. lra.
Qed.

Lemma fp_dir : forall p0 p1 p2 v0 v1 v2, on_simplex p0 p1 p2 -> v0 + v1 + v2 = 0 ->
  derivable_pt_lim (fun t => fp_g0 (p0 + t * v0) (p1 + t * v1) (p2 + t * v2)) 0
    (fp_dg0dp0 p0 p1 p2 * v0 + fp_dg0dp1 p0 p1 p2 * v1 + fp_dg0dp1 p0 p2 p1 * v2).
Proof.
  intros p0 p1 p2 v0 v1 v2 H V. destruct (simplex_range _ _ _ H) as (R0 & R1 & R2).
  rewrite !fp_d1, !fp_d0 by auto. pose proof (fp_poly_deriv p0 p1 p2 v0 v1 v2 (proj1 H) V) as P.
  match goal with |- derivable_pt_lim _ _ ?x => set (l := x) in * end.
  match type of P with derivable_pt_lim ?q _ _ => set (Q := q) in * end.
  assert (S : p0 + p1 + p2 = 1) by apply H.
  destruct (Req_dec p0 0) as [E0 | N0].
  - subst p0. assert (L : l = 0).
    { unfold l. replace v2 with (- v0 - v1) by lra. replace p2 with (1 - p1) by lra. field. }
    destruct (small v0 1 ltac:(lra)) as (d & Hd & Hs).
    apply (glue2 _ Q (fun _ => 0) 0 l d); auto.
    + rewrite L. apply derivable_pt_lim_const.
    + unfold Q. rewrite fp_value by lra. reflexivity.
    + rewrite fp_value by lra. ring.
    + intros t Ht. specialize (Hs t Ht). destruct (Rlt_dec (0 + t * v0) 0) as [N | N].
      * right. unfold fp_g0. dlt.
      * left. unfold Q. apply fp_value. lra.
  - destruct (Req_dec p0 1) as [E1 | N1].
    + subst p0. assert (p1 = 0) by lra. assert (p2 = 0) by lra. subst p1 p2. assert (L : l = 0) by (unfold l; field).
      destruct (small v0 1 ltac:(lra)) as (d & Hd & Hs).
      apply (glue2 _ Q (fun _ => 1) 0 l d); auto.
      * rewrite L. apply derivable_pt_lim_const.
      * unfold Q. rewrite fp_value by lra. reflexivity.
      * rewrite fp_value by lra. field.
      * intros t Ht. specialize (Hs t Ht). destruct (Rlt_dec 1 (1 + t * v0)) as [N | N].
        -- right. unfold fp_g0. dlt.
        -- left. unfold Q. apply fp_value. lra.
    + destruct (small v0 (Rmin p0 (1 - p0))) as (d & Hd & Hs); [apply Rmin_pos; lra |].
      apply (derivable_local _ Q 0 l d); auto. intros t Ht. specialize (Hs t Ht).
      pose proof (Rmin_l p0 (1 - p0)). pose proof (Rmin_r p0 (1 - p0)).
      unfold Q. apply fp_value. lra.
Qed.
Lemma fp_grad_sum : forall p0 p1 p2, on_simplex p0 p1 p2 ->
  fp_dg0dp0 p0 p1 p2 + fp_dg0dp1 p0 p1 p2 + fp_dg0dp1 p0 p2 p1 = 0.
Proof.
  intros p0 p1 p2 H. destruct (simplex_range _ _ _ H) as (R0 & R1 & R2). rewrite !fp_d1, !fp_d0 by auto.
  destruct H as [S _]. replace p2 with (1 - p0 - p1) by lra. field.
Qed.

Lemma mo_dir : forall p0 p1 p2 v0 v1 v2, on_simplex p0 p1 p2 -> v0 + v1 + v2 = 0 ->
  derivable_pt_lim (fun t => mo_g0 (p0 + t * v0) (p1 + t * v1) (p2 + t * v2)) 0
    (mo_dg0dp0 p0 p1 p2 * v0 + mo_dg0dp1 p0 p1 p2 * v1 + mo_dg0dp1 p0 p2 p1 * v2).
Proof.
  intros p0 p1 p2 v0 v1 v2 (H & H0 & H1 & H2) V. pose proof (sq_pos _ _ _ H) as A.
  set (Q := fun t => (p0 + t * v0) * (p0 + t * v0) /
    ((p0 + t * v0) * (p0 + t * v0) + (p1 + t * v1) * (p1 + t * v1) + (p2 + t * v2) * (p2 + t * v2))).
  assert (P : derivable_pt_lim Q 0 (mo_dg0dp0 p0 p1 p2 * v0 + mo_dg0dp1 p0 p1 p2 * v1 + mo_dg0dp1 p0 p2 p1 * v2)).
  { unfold Q. apply is_derive_Reals. evar_last.
    - auto_derive; [| reflexivity]. rewrite !Rmult_0_l, !Rplus_0_r. lra.
    - unfold mo_dg0dp0, mo_dg0dp1. destruct (Rlt_dec p0 0); [lra |].
      rewrite !Rmult_0_l, !Rplus_0_r. replace v2 with (- v0 - v1) by lra. field. repeat split; lra. }
  destruct (Req_dec p0 0) as [-> | N0].
  - assert (L : mo_dg0dp0 0 p1 p2 * v0 + mo_dg0dp1 0 p1 p2 * v1 + mo_dg0dp1 0 p2 p1 * v2 = 0).
    { unfold mo_dg0dp0, mo_dg0dp1. destruct (Rlt_dec 0 0); [lra |]. unfold Rdiv. ring. }
    rewrite L in *. apply (glue2 _ Q (fun _ => 0) 0 0 1); auto.
    + lra.
    + apply derivable_pt_lim_const.
    + unfold Q. rewrite mo_value by lra. reflexivity.
    + rewrite mo_value by lra. unfold Rdiv. ring.
    + intros t _. destruct (Rlt_dec (0 + t * v0) 0) as [N | N].
      * right. unfold mo_g0. dlt.
      * left. unfold Q. apply mo_value. lra.
  - destruct (small v0 p0 ltac:(lra)) as (d & Hd & Hs).
    apply (derivable_local _ Q 0 _ d); auto. intros t Ht. specialize (Hs t Ht). unfold Q. apply mo_value. lra.
Qed.
Lemma mo_grad_sum : forall p0 p1 p2, on_simplex p0 p1 p2 ->
  mo_dg0dp0 p0 p1 p2 + mo_dg0dp1 p0 p1 p2 + mo_dg0dp1 p0 p2 p1 = 0.
Proof.
  intros p0 p1 p2 (H & H0 & H1 & H2). pose proof (sq_pos _ _ _ H) as A. unfold mo_dg0dp0, mo_dg0dp1.
  destruct (Rlt_dec p0 0); [lra |]. field. repeat split; lra.
Qed.

Lemma tilt_dir : forall T p0 p1 p2 v0 v1 v2, on_simplex p0 p1 p2 -> v0 + v1 + v2 = 0 ->
  derivable_pt_lim (fun t => g0 T (p0 + t * v0) (p1 + t * v1) (p2 + t * v2)) 0
    (dg0dp0 T p0 p1 p2 * v0 + dg0dp1 T p0 p1 p2 * v1 + dg0dp1 T p0 p2 p1 * v2).
Proof. intros [|]; [exact fp_dir | exact mo_dir]. Qed.
Lemma tilt_gradient : forall T p0 p1 p2, on_simplex p0 p1 p2 ->
  constrained_gradient (g0 T) p0 p1 p2 (dg0dp0 T p0 p1 p2) (dg0dp1 T p0 p1 p2) (dg0dp1 T p0 p2 p1).
Proof.
  intros T p0 p1 p2 H. split.
  - destruct T; [apply fp_grad_sum | apply mo_grad_sum]; exact H.
  - intros v0 v1 v2 V. apply tilt_dir; auto.
Qed.

(** the triple well, anywhere *)
Lemma well_gradient : forall p0 p1 p2,
  constrained_gradient triple_well p0 p1 p2 (deriv_triple_well_func p0 p1 p2)
    (deriv_triple_well_func p1 p2 p0) (deriv_triple_well_func p2 p0 p1).
Proof.
  intros p0 p1 p2. unfold deriv_triple_well_func. split; [field |].
  intros v0 v1 v2 V. unfold triple_well. apply is_derive_Reals. evar_last; [auto_derive; [exact I | reflexivity] |].
  replace v2 with (- v0 - v1) by lra. field.
Qed.

(** a constrained gradient is unique *)
Lemma gradient_unique : forall F p0 p1 p2 a0 a1 a2 b0 b1 b2,
  constrained_gradient F p0 p1 p2 a0 a1 a2 -> constrained_gradient F p0 p1 p2 b0 b1 b2 -> a0 = b0 /\ a1 = b1 /\ a2 = b2.
Proof.
  intros F p0 p1 p2 a0 a1 a2 b0 b1 b2 [SA A] [SB B].
  pose proof (uniqueness_limite _ _ _ _ (A 1 (-1) 0 ltac:(lra)) (B 1 (-1) 0 ltac:(lra))) as E.
  pose proof (uniqueness_limite _ _ _ _ (A 1 0 (-1) ltac:(lra)) (B 1 0 (-1) ltac:(lra))) as E'. lra.
Qed.

Lemma tilt_outside : forall p0 p1 p2,
  (p0 < 0 -> forall T, g0 T p0 p1 p2 = 0 /\ dg0dp0 T p0 p1 p2 = 0 /\ dg0dp1 T p0 p1 p2 = 0) /\
  (1 < p0 -> g0 FolchPlapp p0 p1 p2 = 1 /\ dg0dp0 FolchPlapp p0 p1 p2 = 0 /\ dg0dp1 FolchPlapp p0 p1 p2 = 0) /\
  (p1 < 0 \/ 1 < p1 -> dg0dp1 FolchPlapp p0 p1 p2 = 0).
Proof.
  intros p0 p1 p2. split; [|split].
  - intros H [|]; cbn [g0 dg0dp0 dg0dp1]; unfold fp_g0, fp_dg0dp0, fp_dg0dp1, mo_g0, mo_dg0dp0, mo_dg0dp1; destruct (Rlt_dec p0 0); auto; contradiction.
  - intros H; cbn [g0 dg0dp0 dg0dp1]; unfold fp_g0, fp_dg0dp0, fp_dg0dp1. destruct (Rlt_dec p0 0); [lra|]. destruct (Rlt_dec 1 p0); auto; contradiction.
  - intros H; cbn [dg0dp1]; unfold fp_dg0dp1. destruct (Rlt_dec p0 0); [auto|]. destruct (Rlt_dec 1 p0); [auto|]. destruct (Rlt_dec p1 0); [auto|]. destruct (Rlt_dec 1 p1); [auto|]. lra.
Qed.
