From Coq Require Import Reals ZArith List Lra Lia Psatz Bool Ascii.
From Coquelicot Require Import Coquelicot.
From Verif Require Import Quat_Model Quat_Spec Quat_Proofs Functions_Proofs.
Import ListNotations.
Open Scope R_scope.

Ltac cases4 k H := let H' := fresh in assert (H' : (k = 1 \/ k = 2 \/ k = 3 \/ k = 4)%Z) by lia;
  destruct H' as [-> | [-> | [-> | ->]]].

Lemma deriv_rot_ok : forall q i j k, idx3 i -> idx3 j -> (1 <= k <= 4)%Z ->
  (i, j, k) <> (3, 2, 2)%Z -> (i, j, k) <> (3, 1, 3)%Z ->
  derivable_pt_lim (fun x => quatrotationmatrix (set_comp q k x) i j) (comp q k)
    (derivquatrotationmatrixdq q i j k).
Proof.
  intros q i j k Hi Hj Hk N1 N2.
  cases3 i Hi; cases3 j Hj; cases4 k Hk;
    try (exfalso; apply N1; reflexivity); try (exfalso; apply N2; reflexivity);
    cbn [quatrotationmatrix set_comp comp derivquatrotationmatrixdq qa qb qc qd];
    apply is_derive_Reals; auto_derive; auto; ring.
Qed.

Lemma d322 : forall q, derivable_pt_lim (fun x => quatrotationmatrix (set_comp q 2 x) 3 2) (comp q 2) (2 * qa q).
Proof.
  intro q. cbn [quatrotationmatrix set_comp comp qa qb qc qd]. apply is_derive_Reals; auto_derive; auto; ring.
Qed.
Lemma d313 : forall q, derivable_pt_lim (fun x => quatrotationmatrix (set_comp q 3 x) 3 1) (comp q 3) (-2 * qa q).
Proof.
  intro q. cbn [quatrotationmatrix set_comp comp qa qb qc qd]. apply is_derive_Reals; auto_derive; auto; ring.
Qed.

Lemma deriv_rot_322 : forall q,
  derivable_pt_lim (fun x => quatrotationmatrix (set_comp q 2 x) 3 2) (comp q 2) (derivquatrotationmatrixdq q 3 2 2)
  <-> qa q = qb q.
Proof.
  intro q. cbn [derivquatrotationmatrixdq]. split.
  - intro H. pose proof (derivable_unique _ _ _ _ H (d322 q)). lra.
  - intro E. replace (2 * qb q) with (2 * qa q) by lra. apply d322.
Qed.
Lemma deriv_rot_313 : forall q,
  derivable_pt_lim (fun x => quatrotationmatrix (set_comp q 3 x) 3 1) (comp q 3) (derivquatrotationmatrixdq q 3 1 3)
  <-> qa q = 0.
Proof.
  intro q. cbn [derivquatrotationmatrixdq]. split.
  - intro H. pose proof (derivable_unique _ _ _ _ H (d313 q)). lra.
  - intro E. replace (2 * qa q) with (-2 * qa q) by lra. apply d313.
Qed.
Lemma deriv_rot_refuted : exists q i j k, unit4 q /\ idx3 i /\ idx3 j /\ (1 <= k <= 4)%Z /\
  ~ derivable_pt_lim (fun x => quatrotationmatrix (set_comp q k x) i j) (comp q k) (derivquatrotationmatrixdq q i j k).
Proof.
  exists (Q4 1 0 0 0), 3%Z, 2%Z, 2%Z. split; [unfold unit4; cbn; ring |].
  split; [unfold idx3; lia |]. split; [unfold idx3; lia |]. split; [lia |].
  intro H. apply deriv_rot_322 in H. cbn in H. lra.
Qed.

Lemma deriv_crot_ok : forall q i j k, idx3 i -> idx3 j -> (1 <= k <= 2)%Z ->
  derivable_pt_lim (fun x => complexrotationmatrix (set_comp2 q k x) i j) (comp2 q k)
    (derivcomplexrotationmatrixdq q i j k).
Proof.
  intros q i j k Hi Hj Hk. assert (k = 1 \/ k = 2)%Z as Hk2 by lia.
  cases3 i Hi; cases3 j Hj; destruct Hk2 as [-> | ->];
    cbn [complexrotationmatrix set_comp2 comp2 derivcomplexrotationmatrixdq ca cb];
    apply is_derive_Reals; auto_derive; auto; ring.
Qed.

(** ** gradient norm inverse *)
Lemma sinh_nonneg : forall x, 0 <= x -> 0 <= sinh x.
Proof.
  intros x Hx. unfold sinh. destruct Hx as [Hx | <-].
  - assert (exp (- x) < exp x) by (apply exp_increasing; lra). lra.
  - rewrite Ropp_0. lra.
Qed.
Lemma cosh_pos : forall x, 0 < cosh x.
Proof. intro x. pose proof (cosh_ge1 x). lra. Qed.

Lemma d_aux : forall x, is_derive (fun t => t * cosh t - sinh t) x (x * sinh x).
Proof.
  intro x.
  assert (Hc : is_derive cosh x (sinh x)) by (apply is_derive_Reals, derivable_pt_lim_cosh).
  assert (Hs : is_derive sinh x (cosh x)) by (apply is_derive_Reals, derivable_pt_lim_sinh).
  apply is_derive_Reals. apply is_derive_Reals in Hc, Hs.
  replace (x * sinh x) with ((1 * cosh x + x * sinh x) - cosh x) by ring.
  apply (derivable_pt_lim_minus (fun t => t * cosh t) sinh); [| exact Hs].
  apply (derivable_pt_lim_mult (fun t => t) cosh); [apply derivable_pt_lim_id | exact Hc].
Qed.

Lemma tanh_le_x : forall x, 0 <= x -> tanh x <= x.
Proof.
  intros x Hx.
  assert (H : (fun t => t * cosh t - sinh t) 0 <= (fun t => t * cosh t - sinh t) x).
  { apply (mono_from_deriv (fun t => t * cosh t - sinh t) (fun t => t * sinh t) 0 x d_aux); try lra.
    intros y Hy. apply Rmult_le_pos; [lra | apply sinh_nonneg; lra]. }
  cbv beta in H. rewrite sinh_0 in H. unfold tanh. pose proof (cosh_pos x).
  apply Rmult_le_reg_r with (cosh x); [auto |]. unfold Rdiv. rewrite Rmult_assoc, Rinv_l by lra. lra.
Qed.
Lemma tanh_lt1 : forall x, tanh x < 1.
Proof.
  intro x. unfold tanh. pose proof (cosh_pos x) as Hc. apply Rmult_lt_reg_r with (cosh x); [auto |].
  unfold Rdiv. rewrite Rmult_assoc, Rinv_l by lra. unfold sinh, cosh. pose proof (exp_pos (- x)). lra.
Qed.
Lemma tanh_pos : forall x, 0 < x -> 0 < tanh x.
Proof.
  intros x Hx. unfold tanh. apply Rdiv_lt_0_compat; [| apply cosh_pos]. unfold sinh.
  assert (exp (- x) < exp x) by (apply exp_increasing; lra). lra.
Qed.

Lemma grad_normi_bounds : forall type g f, In type ["m"; "t"; "s"]%char -> 0 < f -> 0 <= g ->
  exists r, eval_grad_normi g type (f * f) (1 / f) = Some r /\ 0 < r <= 1 / f /\ r * sqrt g <= 1.
Proof.
  intros type g f Ht Hf Hg.
  assert (Hi : 0 < 1 / f) by (apply Rdiv_lt_0_compat; lra).
  assert (Hsg : 0 <= sqrt g) by apply sqrt_pos.
  assert (Hsq : sqrt g * sqrt g = g) by (apply sqrt_sqrt; auto).
  destruct Ht as [<- | [<- | [<- | []]]]; eexists; (split; [reflexivity |]).
  - destruct (Rlt_dec (f * f) g) as [Hlt | Hge].
    + assert (Hfs : f < sqrt g).
      { rewrite <- (sqrt_square f) by lra. apply sqrt_lt_1; nra. }
      split; [split |].
      * apply Rinv_0_lt_compat. lra.
      * unfold Rdiv. rewrite Rmult_1_l. apply Rinv_le_contravar; lra.
      * rewrite Rinv_l; lra.
    + assert (Hfs : sqrt g <= f).
      { rewrite <- (sqrt_square f) by lra. apply sqrt_le_1; nra. }
      split; [lra |]. apply Rmult_le_reg_r with f; [auto |].
      replace (1 / f * sqrt g * f) with (sqrt g) by (field; lra). lra.
  - set (x := 1 / f * sqrt g).
    assert (Ex : g * (1 / f) * (1 / f) = x * x) by (unfold x; rewrite <- Hsq at 1; ring).
    rewrite Ex. assert (Hx : 0 <= x) by (unfold x; apply Rmult_le_pos; lra).
    destruct (Rlt_dec (/ 100) (x * x)) as [Hlt | Hge].
    + assert (Hxp : 0 < x) by nra.
      assert (Hgp : 0 < sqrt g).
      { destruct Hsg as [| E]; [auto |]. unfold x in Hxp. rewrite <- E in Hxp. lra. }
      fold x. split; [split |].
      * apply Rdiv_lt_0_compat; [apply tanh_pos; auto | auto].
      * apply Rmult_le_reg_r with (sqrt g); [auto |]. unfold Rdiv at 1. rewrite Rmult_assoc, Rinv_l by lra.
        rewrite Rmult_1_r. fold x. apply tanh_le_x; auto.
      * unfold Rdiv. rewrite Rmult_assoc, Rinv_l by lra. pose proof (tanh_lt1 x). lra.
    + assert (Hx1 : x * x <= / 100) by lra. assert (Hx2 : x <= / 10) by nra.
      set (y := x * x) in *. assert (Hy : 0 <= y) by (unfold y; nra).
      assert (Hb : 0 < 1 - y * (5 - 2 * y) / 15 <= 1) by nra.
      split; [split |].
      * apply Rmult_lt_0_compat; lra.
      * nra.
      * replace (1 / f * (1 - y * (5 - 2 * y) / 15) * sqrt g) with (x * (1 - y * (5 - 2 * y) / 15)) by (unfold x; ring).
        nra.
  - assert (Hs : 0 < sqrt (g + f * f)) by (apply sqrt_lt_R0; nra).
    assert (Hfs : f <= sqrt (g + f * f)).
    { rewrite <- (sqrt_square f) at 1 by lra. apply sqrt_le_1; nra. }
    split; [split |].
    + apply Rinv_0_lt_compat; auto.
    + unfold Rdiv. rewrite Rmult_1_l. apply Rinv_le_contravar; lra.
    + assert (sqrt g <= sqrt (g + f * f)) by (apply sqrt_le_1; nra).
      apply Rmult_le_reg_l with (sqrt (g + f * f)); [auto |]. rewrite <- Rmult_assoc, Rinv_r by lra. lra.
Qed.

Lemma grad_normi_exact : forall g f, 0 < f -> f * f < g -> eval_grad_normi g "m" (f * f) (1 / f) = Some (1 / sqrt g).
Proof.
  intros g f Hf Hg. cbn. destruct (Rlt_dec (f * f) g); [| lra]. f_equal. unfold Rdiv. rewrite Rmult_1_l. reflexivity.
Qed.
