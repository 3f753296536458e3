From Coq Require Import Reals ZArith Ascii List Lra Lia Psatz.
From Coquelicot Require Import Coquelicot.
From Verif Require Import Functions_Model Functions_Spec.
Import ListNotations.
Open Scope R_scope.

(** ** clamping *)
Lemma clamp01_bounds : forall x, 0 <= clamp01 x <= 1.
Proof.
  intro x. unfold clamp01, Rmax, Rmin.
  destruct (Rle_dec 1 x); destruct (Rle_dec 0 _); lra.
Qed.
Lemma clamp01_low : forall x, x <= 0 -> clamp01 x = 0.
Proof. intros x H. unfold clamp01, Rmax, Rmin. destruct (Rle_dec 1 x); destruct (Rle_dec 0 _); lra. Qed.
Lemma clamp01_high : forall x, 1 <= x -> clamp01 x = 1.
Proof. intros x H. unfold clamp01, Rmax, Rmin. destruct (Rle_dec 1 x); destruct (Rle_dec 0 _); lra. Qed.
Lemma clamp01_mid : forall x, 0 <= x <= 1 -> clamp01 x = x.
Proof. intros x H. unfold clamp01, Rmax, Rmin. destruct (Rle_dec 1 x); destruct (Rle_dec 0 _); lra. Qed.
Lemma clamp01_mono : forall x y, x <= y -> clamp01 x <= clamp01 y.
Proof.
  intros x y H. unfold clamp01, Rmax, Rmin.
  destruct (Rle_dec 1 x); destruct (Rle_dec 1 y);
  repeat match goal with |- context [Rle_dec ?a ?b] => destruct (Rle_dec a b) end; lra.
Qed.
Lemma clamp01_compl : forall x, clamp01 (1 - x) = 1 - clamp01 x.
Proof.
  intros x. destruct (Rle_dec x 0) as [H1 | H1].
  { rewrite (clamp01_low x), (clamp01_high (1 - x)) by lra. lra. }
  destruct (Rle_dec 1 x) as [H2 | H2].
  { rewrite (clamp01_high x), (clamp01_low (1 - x)) by lra. lra. }
  rewrite (clamp01_mid x), (clamp01_mid (1 - x)) by lra. lra.
Qed.
Lemma clamp01_alt : forall x, Rmin 1 (Rmax 0 x) = clamp01 x.
Proof.
  intro x. unfold clamp01, Rmax, Rmin.
  destruct (Rle_dec 1 x); destruct (Rle_dec 0 x);
  repeat match goal with |- context [Rle_dec ?a ?b] => destruct (Rle_dec a b) end; lra.
Qed.
Lemma pos_low : forall x, x <= 0 -> pos x = 0.
Proof. intros x H. unfold pos, Rmax. destruct (Rle_dec 0 x); lra. Qed.
Lemma pos_high : forall x, 0 <= x -> pos x = x.
Proof. intros x H. unfold pos, Rmax. destruct (Rle_dec 0 x); lra. Qed.
Lemma pos_mono : forall x y, x <= y -> pos x <= pos y.
Proof. intros x y H. unfold pos, Rmax. destruct (Rle_dec 0 x); destruct (Rle_dec 0 y); lra. Qed.
Lemma pos_nonneg : forall x, 0 <= pos x.
Proof. intro x. unfold pos, Rmax. destruct (Rle_dec 0 x); lra. Qed.

(** ** monotone polynomials on [0,1] *)
Lemma mono_clamp : forall g,
  g 0 = 0 -> g 1 = 1 -> (forall x y, 0 <= x -> x <= y -> y <= 1 -> g x <= g y) ->
  interpolation (fun x => g (clamp01 x)).
Proof.
  intros g H0 H1 Hm. split; [| split; [| split]].
  - intros x H. rewrite clamp01_low; auto.
  - intros x H. rewrite clamp01_high; auto.
  - intro x. pose proof (clamp01_bounds x) as [Ha Hb]. split.
    + rewrite <- H0. apply Hm; lra.
    + rewrite <- H1. apply Hm; lra.
  - intros x y H. apply Hm; [apply clamp01_bounds | apply clamp01_mono; auto | apply clamp01_bounds].
Qed.

Lemma mono_pos : forall g,
  g 0 = 0 -> g 1 = 1 -> (forall x y, 0 <= x -> x <= y -> y <= 1 -> g x <= g y) ->
  interpolation_upto1 (fun x => g (pos x)).
Proof.
  intros g H0 H1 Hm. split; [| split; [| split]].
  - intros x H. rewrite pos_low; auto.
  - rewrite pos_high; lra.
  - intros x H. assert (pos x <= 1) by (rewrite <- (pos_high 1) by lra; apply pos_mono; auto).
    pose proof (pos_nonneg x). split.
    + rewrite <- H0. apply Hm; lra.
    + rewrite <- H1. apply Hm; lra.
  - intros x y H Hy. assert (pos y <= 1) by (rewrite <- (pos_high 1) by lra; apply pos_mono; auto).
    apply Hm; [apply pos_nonneg | apply pos_mono; auto | auto].
Qed.

Definition gp (t : R) := t * t * t * (10 - 15 * t + 6 * t * t).
Definition gh (t : R) := t * t * (3 - 2 * t).
Definition gw (t : R) := t * t * (2 - t).
Definition gm (t : R) := t * t / (2 * t * (t - 1) + 1).
Definition dgm (t : R) := 2 * t * (1 - t) / ((2 * t * (t - 1) + 1) * (2 * t * (t - 1) + 1)).

Lemma gm_den : forall t, 0 < 2 * t * (t - 1) + 1.
Proof. intro t. nra. Qed.

(** monotone from a non-negative derivative *)
Lemma mono_from_deriv : forall (g dg : R -> R) a b,
  (forall x, is_derive g x (dg x)) -> (forall x, a <= x <= b -> 0 <= dg x) ->
  forall x y, a <= x -> x <= y -> y <= b -> g x <= g y.
Proof.
  intros g dg a b Hd Hp x y Hx Hxy Hy.
  destruct (MVT_gen g x y dg) as (c & Hc & E).
  - intros z _. apply Hd.
  - intros z _. apply continuity_pt_filterlim. apply (ex_derive_continuous g z). exists (dg z). apply Hd.
  - rewrite Rmin_left, Rmax_right in Hc by lra.
    assert (0 <= dg c) by (apply Hp; lra). nra.
Qed.

Lemma d_gp : forall x, is_derive gp x (30 * x * x * (1 - x) * (1 - x)).
Proof. intro x. unfold gp. auto_derive; auto. ring. Qed.
Lemma d_gh : forall x, is_derive gh x (6 * x * (1 - x)).
Proof. intro x. unfold gh. auto_derive; auto. ring. Qed.
Lemma d_gw : forall x, is_derive gw x (x * (4 - 3 * x)).
Proof. intro x. unfold gw. auto_derive; auto. ring. Qed.
Lemma d_gm : forall x, is_derive gm x (dgm x).
Proof.
  intro x. unfold gm, dgm. pose proof (gm_den x). auto_derive; [lra |]. field. lra.
Qed.
Lemma d_sq : forall x, is_derive (fun t => t * t) x (2 * x).
Proof. intro x. auto_derive; auto. ring. Qed.
Lemma d_cube : forall x, is_derive (fun t => t * t * t) x (3 * x * x).
Proof. intro x. auto_derive; auto. ring. Qed.

Lemma mono_gp : forall x y, 0 <= x -> x <= y -> y <= 1 -> gp x <= gp y.
Proof. apply (mono_from_deriv _ _ 0 1 d_gp). intros x Hx. replace (30 * x * x * (1 - x) * (1 - x)) with (30 * (x * (1 - x)) ^ 2) by ring.
  pose proof (pow2_ge_0 (x * (1 - x))). lra. Qed.
Lemma mono_gh : forall x y, 0 <= x -> x <= y -> y <= 1 -> gh x <= gh y.
Proof. apply (mono_from_deriv _ _ 0 1 d_gh). intros x Hx. nra. Qed.
Lemma mono_gw : forall x y, 0 <= x -> x <= y -> y <= 1 -> gw x <= gw y.
Proof. apply (mono_from_deriv _ _ 0 1 d_gw). intros x Hx. nra. Qed.
Lemma mono_gm : forall x y, 0 <= x -> x <= y -> y <= 1 -> gm x <= gm y.
Proof.
  apply (mono_from_deriv _ _ 0 1 d_gm). intros x Hx. unfold dgm. pose proof (gm_den x).
  apply Rmult_le_pos; [nra | left; apply Rinv_0_lt_compat; nra].
Qed.
Lemma mono_sq : forall x y, 0 <= x -> x <= y -> y <= 1 -> x * x <= y * y.
Proof. intros; nra. Qed.
Lemma mono_cube : forall x y, 0 <= x -> x <= y -> y <= 1 -> x * x * x <= y * y * y.
Proof. apply (mono_from_deriv (fun t => t * t * t) _ 0 1 d_cube). intros x Hx. nra. Qed.

(** ** C07 *)
Lemma interp_clamped : forall type, In type ["p"; "h"; "l"; "m"]%char ->
  exists f, value_of (fun x => interp_func x type) f /\ interpolation f /\ symmetric01 f.
Proof.
  intros type [<- | [<- | [<- | [<- | []]]]].
  - exists (fun x => gp (clamp01 x)). split; [intro x; reflexivity |]. split.
    + apply mono_clamp; [unfold gp; ring | unfold gp; ring | apply mono_gp].
    + intro x. rewrite clamp01_compl. unfold gp. ring.
  - exists (fun x => gh (clamp01 x)). split; [intro x; reflexivity |]. split.
    + apply mono_clamp; [unfold gh; ring | unfold gh; ring | apply mono_gh].
    + intro x. rewrite clamp01_compl. unfold gh. ring.
  - exists clamp01. split; [intro x; cbn; rewrite clamp01_alt; reflexivity |]. split.
    + apply (mono_clamp (fun t => t)); auto.
    + intro x. rewrite clamp01_compl. ring.
  - exists (fun x => gm (clamp01 x)). split; [intro x; reflexivity |]. split.
    + apply mono_clamp; [| | apply mono_gm].
      * unfold gm. replace (2 * 0 * (0 - 1) + 1) with 1 by ring. field.
      * unfold gm. replace (2 * 1 * (1 - 1) + 1) with 1 by ring. field.
    + intro x. rewrite clamp01_compl. unfold gm. set (t := clamp01 x).
      pose proof (gm_den t). replace (2 * (1 - t) * (1 - t - 1) + 1) with (2 * t * (t - 1) + 1) by ring.
      field. lra.
Qed.

Lemma interp_half_clamped : forall type, In type ["q"; "w"; "3"]%char ->
  exists f, value_of (fun x => interp_func x type) f /\ interpolation_upto1 f.
Proof.
  intros type [<- | [<- | [<- | []]]].
  - exists (fun x => pos x * pos x). split; [intro x; reflexivity |].
    apply (mono_pos (fun t => t * t)); [ring | ring | apply mono_sq].
  - exists (fun x => gw (pos x)). split; [intro x; reflexivity |].
    apply mono_pos; [unfold gw; ring | unfold gw; ring | apply mono_gw].
  - exists (fun x => pos x * pos x * pos x). split; [intro x; reflexivity |].
    apply (mono_pos (fun t => t * t * t)); [ring | ring | apply mono_cube].
Qed.

(** overshoots: 'q' exceeds 1, 'w' decreases and becomes negative *)
Lemma interp_overshoot_refuted :
  (exists x y, 1 < x /\ interp_func x "q" = Some y /\ 1 < y) /\
  (exists x y, 1 < x /\ interp_func x "w" = Some y /\ y < 0).
Proof.
  split.
  - exists 2, (2 * 2). cbn. rewrite pos_high by lra. split; [lra | split; [reflexivity | lra]].
  - exists 3, (3 * 3 * (2 - 3)). cbn. rewrite pos_high by lra. split; [lra | split; [reflexivity | lra]].
Qed.

Lemma cosh_gt1 : forall x, x <> 0 -> 1 < cosh x.
Proof.
  intros x Hx. unfold cosh.
  assert (E : exp x * exp (- x) = 1) by (rewrite <- exp_plus; replace (x + - x) with 0 by ring; apply exp_0).
  assert (P1 : 0 < exp x) by apply exp_pos. assert (P2 : 0 < exp (- x)) by apply exp_pos.
  assert (exp x <> exp (- x)) by (intro C; apply exp_inv in C; lra).
  assert (0 < (exp x - exp (- x)) ^ 2) by (apply pow2_gt_0; lra).
  nra.
Qed.
Lemma cosh_ge1 : forall x, 1 <= cosh x.
Proof.
  intro x. destruct (Req_dec x 0) as [-> | H]; [rewrite cosh_0; lra | left; apply cosh_gt1; auto].
Qed.
Lemma ln_cosh_gamma_pos : 0 < ln (cosh gamma).
Proof. rewrite <- ln_1. apply ln_increasing; [lra | apply cosh_gt1; unfold gamma; lra]. Qed.

(** the 's' type does not clamp negative values: h(-1) = 1 *)
Lemma interp_s_negative_refuted :
  exists x y, x < 0 /\ interp_func x "s" = Some y /\ y <> 0.
Proof.
  exists (-1), 1. split; [lra |]. split; [| lra].
  cbn. f_equal. replace (gamma * -1) with (- gamma) by ring.
  assert (E : cosh (- gamma) = cosh gamma) by (unfold cosh; rewrite Ropp_involutive; lra).
  rewrite E. field. apply Rgt_not_eq, ln_cosh_gamma_pos.
Qed.

(** ** C08 derivatives *)
Lemma derivable_glue : forall f a b c l,
  derivable_pt_lim a c l -> derivable_pt_lim b c l ->
  (forall x, x <= c -> f x = a x) -> (forall x, c <= x -> f x = b x) ->
  derivable_pt_lim f c l.
Proof.
  intros f a b c l Ha Hb Fa Fb eps He.
  destruct (Ha eps He) as (da & Hda). destruct (Hb eps He) as (db & Hdb).
  assert (Hp : 0 < Rmin da db) by (apply Rmin_pos; [apply (cond_pos da) | apply (cond_pos db)]).
  exists (mkposreal _ Hp). intros h Hh Hlt. cbn in Hlt.
  assert (H1 : Rabs h < da) by (eapply Rlt_le_trans; [exact Hlt | apply Rmin_l]).
  assert (H2 : Rabs h < db) by (eapply Rlt_le_trans; [exact Hlt | apply Rmin_r]).
  destruct (Rle_dec h 0).
  - rewrite (Fa (c + h)), (Fa c) by lra. apply Hda; auto.
  - rewrite (Fb (c + h)), (Fb c) by lra. apply Hdb; auto.
Qed.

Lemma derivable_local : forall f a c l d, 0 < d ->
  derivable_pt_lim a c l -> (forall x, Rabs (x - c) < d -> f x = a x) ->
  derivable_pt_lim f c l.
Proof.
  intros f a c l d Hd Ha Hf eps He.
  destruct (Ha eps He) as (da & Hda).
  assert (Hp : 0 < Rmin da d) by (apply Rmin_pos; [apply (cond_pos da) | auto]).
  exists (mkposreal _ Hp). intros h Hh Hlt. cbn in Hlt.
  assert (H1 : Rabs h < da) by (eapply Rlt_le_trans; [exact Hlt | apply Rmin_l]).
  assert (H2 : Rabs h < d) by (eapply Rlt_le_trans; [exact Hlt | apply Rmin_r]).
  rewrite (Hf (c + h)), (Hf c).
  - apply Hda; auto.
  - replace (c - c) with 0 by ring. rewrite Rabs_R0. auto.
  - replace (c + h - c) with h by ring. auto.
Qed.

(** derivative of a function equal to g on a side *)
Lemma piece_low : forall f g c x l, x < c -> derivable_pt_lim g x l ->
  (forall y, y <= c -> f y = g y) -> derivable_pt_lim f x l.
Proof.
  intros f g c x l Hx Hg Hf. apply (derivable_local f g x l (c - x)); [lra | auto |].
  intros y Hy. apply Hf. apply Rabs_def2 in Hy. lra.
Qed.
Lemma piece_high : forall f g c x l, c < x -> derivable_pt_lim g x l ->
  (forall y, c <= y -> f y = g y) -> derivable_pt_lim f x l.
Proof.
  intros f g c x l Hx Hg Hf. apply (derivable_local f g x l (x - c)); [lra | auto |].
  intros y Hy. apply Hf. apply Rabs_def2 in Hy. lra.
Qed.

Lemma posD : forall g dg : R -> R, (forall x, is_derive g x (dg x)) -> dg 0 = 0 ->
  forall x, derivable_pt_lim (fun y => g (pos y)) x (dg (pos x)).
Proof.
  intros g dg Hd H0 x.
  assert (Hg : forall y, derivable_pt_lim g y (dg y)) by (intro y; apply is_derive_Reals, Hd).
  destruct (Rtotal_order x 0) as [Hx | [-> | Hx]].
  - rewrite (pos_low x), H0 by lra. apply (piece_low _ (fun _ => g 0) 0); [lra | apply derivable_pt_lim_const |].
    intros y Hy. rewrite pos_low; auto.
  - rewrite (pos_low 0) by lra. apply (derivable_glue _ (fun _ => g 0) g).
    + rewrite H0. apply derivable_pt_lim_const.
    + apply Hg.
    + intros y Hy. rewrite pos_low; auto.
    + intros y Hy. rewrite pos_high; auto.
  - rewrite (pos_high x) by lra. apply (piece_high _ g 0); [lra | apply Hg |].
    intros y Hy. rewrite pos_high; auto.
Qed.

Lemma clampD : forall g dg : R -> R, (forall x, is_derive g x (dg x)) -> dg 0 = 0 -> dg 1 = 0 ->
  forall x, derivable_pt_lim (fun y => g (clamp01 y)) x (dg (clamp01 x)).
Proof.
  intros g dg Hd H0 H1 x.
  assert (Hg : forall y, derivable_pt_lim g y (dg y)) by (intro y; apply is_derive_Reals, Hd).
  destruct (Rlt_dec x 1) as [Hlt | Hge].
  - (* locally clamp01 = pos *)
    assert (E : forall y, y <= 1 -> clamp01 y = pos y).
    { intros y Hy. destruct (Rle_dec y 0); [rewrite clamp01_low, pos_low; lra |].
      rewrite clamp01_mid, pos_high; lra. }
    rewrite E by lra. apply (piece_low _ (fun y => g (pos y)) 1); [lra | apply posD; auto |].
    intros y Hy. rewrite E; auto.
  - destruct (Req_dec x 1) as [-> | Hne].
    + rewrite clamp01_high, H1 by lra. apply (derivable_glue _ (fun y => g (pos y)) (fun _ => g 1)).
      * assert (P : derivable_pt_lim (fun y => g (pos y)) 1 (dg (pos 1))) by (apply posD; auto).
        rewrite pos_high, H1 in P by lra. exact P.
      * apply derivable_pt_lim_const.
      * intros y Hy. destruct (Rle_dec y 0); [rewrite clamp01_low, pos_low; lra |].
        rewrite clamp01_mid, pos_high; lra.
      * intros y Hy. rewrite clamp01_high; auto.
    + rewrite clamp01_high, H1 by lra. apply (piece_high _ (fun _ => g 1) 1); [lra | apply derivable_pt_lim_const |].
      intros y Hy. rewrite clamp01_high; auto.
Qed.

Lemma deriv_interp_ok : forall type x, In type ["q"; "p"; "h"; "w"; "m"; "3"; "c"]%char ->
  derivative_at (fun y => interp_func y type) (fun y => deriv_interp_func y type) x.
Proof.
  intros type x [<- | [<- | [<- | [<- | [<- | [<- | [<- | []]]]]]]].
  - exists (fun y => pos y * pos y), (2 * pos x). (split; [reflexivity | split; [reflexivity |]]).
    exact (posD (fun t => t * t) (fun t => 2 * t) d_sq ltac:(cbv beta; ring) x).
  - exists (fun y => gp (clamp01 y)). eexists. split; [reflexivity |]. split; [reflexivity |].
    exact (clampD gp _ d_gp ltac:(cbv beta; ring) ltac:(cbv beta; ring) x).
  - exists (fun y => gh (clamp01 y)). eexists. split; [reflexivity |]. split; [reflexivity |].
    exact (clampD gh _ d_gh ltac:(cbv beta; ring) ltac:(cbv beta; ring) x).
  - exists (fun y => gw (pos y)). eexists. split; [reflexivity |]. split; [reflexivity |].
    exact (posD gw _ d_gw ltac:(cbv beta; ring) x).
  - exists (fun y => gm (clamp01 y)). eexists. split; [reflexivity |]. split; [reflexivity |].
    exact (clampD gm _ d_gm ltac:(unfold dgm, Rdiv; ring) ltac:(unfold dgm, Rdiv; ring) x).
  - exists (fun y => pos y * pos y * pos y), (3 * pos x * pos x). (split; [reflexivity | split; [reflexivity |]]).
    exact (posD (fun t => t * t * t) (fun t => 3 * t * t) d_cube ltac:(cbv beta; ring) x).
  - exists (fun _ => 1), 0. (split; [reflexivity | split; [reflexivity |]]). apply derivable_pt_lim_const.
Qed.

Lemma deriv_interp_l : forall x, 0 < x < 1 ->
  derivative_at (fun y => interp_func y "l") (fun y => deriv_interp_func y "l") x.
Proof.
  intros x Hx. exists clamp01, 1.
  split; [intro y; cbn; rewrite clamp01_alt; reflexivity |]. split.
  - cbn. destruct (Rlt_dec 0 x); [reflexivity | lra].
  - apply (piece_low _ pos 1); [lra | |].
    + apply (piece_high _ (fun y => y) 0); [lra | apply derivable_pt_lim_id |].
      intros y Hy. apply pos_high; auto.
    + intros y Hy. destruct (Rle_dec y 0); [rewrite clamp01_low, pos_low; lra |].
      rewrite clamp01_mid, pos_high; lra.
Qed.

Lemma derivable_unique : forall f x a b,
  derivable_pt_lim f x a -> derivable_pt_lim f x b -> a = b.
Proof. exact uniqueness_limite. Qed.

(** outside [0,1] the 'l' derivative routine returns 1 although the function is constant *)
Lemma deriv_interp_l_refuted :
  exists x, derivable_pt_lim (fun y => match interp_func y "l" with Some v => v | None => 0 end) x 0 /\
            deriv_interp_func x "l" = Some 1.
Proof.
  exists (-1). split.
  - apply (piece_low _ (fun _ => 0) 0); [lra | apply derivable_pt_lim_const |].
    intros y Hy. cbn. rewrite clamp01_alt. apply clamp01_low; auto.
  - cbn. destruct (Rlt_dec 0 (-1)); [lra |]. destruct (Rlt_dec (-1) 1); [reflexivity | lra].
Qed.

Lemma d_lncosh : forall x,
  derivable_pt_lim (fun y => ln (cosh (gamma * y)) / ln (cosh gamma)) x
    (gamma * tanh (gamma * x) / ln (cosh gamma)).
Proof.
  intro x. apply is_derive_Reals.
  assert (Hd : forall z, is_derive cosh z (sinh z)).
  { intro z. apply is_derive_Reals. apply derivable_pt_lim_cosh. }
  pose proof (cosh_ge1 (gamma * x)). pose proof ln_cosh_gamma_pos as Hl.
  apply is_derive_ext with (f := fun y => / ln (cosh gamma) * ln (cosh (gamma * y))).
  { intro t. apply (Rmult_comm (/ ln (cosh gamma)) (ln (cosh (gamma * t)))). }
  replace (gamma * tanh (gamma * x) / ln (cosh gamma))
    with (/ ln (cosh gamma) * (gamma * tanh (gamma * x))) by (field; lra).
  apply is_derive_scal.
  assert (H2 : is_derive (fun y => cosh (gamma * y)) x (gamma * sinh (gamma * x))).
  { apply (is_derive_comp cosh (fun y => gamma * y)); [apply Hd |].
    auto_derive; auto. ring. }
  assert (H3 : is_derive ln (cosh (gamma * x)) (/ cosh (gamma * x))).
  { apply is_derive_Reals. apply derivable_pt_lim_ln. lra. }
  pose proof (is_derive_comp ln (fun y => cosh (gamma * y)) x _ _ H3 H2) as H4.
  replace (gamma * tanh (gamma * x)) with (scal (gamma * sinh (gamma * x)) (/ cosh (gamma * x))).
  - exact H4.
  - change (gamma * sinh (gamma * x) * / cosh (gamma * x) = gamma * tanh (gamma * x)).
    unfold tanh. field. lra.
Qed.

Lemma deriv_interp_s : forall x, 0 <= x ->
  derivative_at (fun y => interp_func y "s") (fun y => deriv_interp_func y "s") x.
Proof.
  intros x Hx. eexists. eexists. split; [intro y; reflexivity |]. split; [reflexivity |].
  rewrite (pos_high x) by auto. apply d_lncosh.
Qed.

Lemma Rdiv_neg_pos' : forall a b, a < 0 -> 0 < b -> a / b < 0.
Proof.
  intros a b Ha Hb. unfold Rdiv. assert (0 < / b) by (apply Rinv_0_lt_compat; auto). nra.
Qed.

Lemma deriv_interp_s_refuted :
  exists x d, derivable_pt_lim (fun y => match interp_func y "s" with Some v => v | None => 0 end) x d /\
              d <> 0 /\ deriv_interp_func x "s" = Some 0.
Proof.
  exists (-1), (gamma * tanh (gamma * -1) / ln (cosh gamma)). split; [apply d_lncosh |].
  assert (tanh (gamma * -1) < 0).
  { unfold tanh. pose proof (cosh_ge1 (gamma * -1)) as Hc. apply Rdiv_neg_pos'; [| lra].
    unfold sinh. replace (- (gamma * -1)) with gamma by ring.
    assert (exp (gamma * -1) < exp gamma) by (apply exp_increasing; unfold gamma; lra). lra. }
  pose proof ln_cosh_gamma_pos. split.
  - assert (gamma * tanh (gamma * -1) / ln (cosh gamma) < 0); [| lra].
    apply Rdiv_neg_pos'; [unfold gamma in *; nra | auto].
  - cbn. rewrite pos_low by lra. rewrite Rmult_0_r. unfold tanh. rewrite sinh_0. unfold Rdiv. f_equal. ring.
Qed.

(** second derivatives *)
Lemma d2_p : forall x, is_derive (fun t => 30 * t * t * (1 - t) * (1 - t)) x (60 * x * (1 - 3 * x + 2 * x * x)).
Proof. intro x. auto_derive; auto. ring. Qed.

Lemma second_deriv_p : forall x,
  derivative_at (fun y => deriv_interp_func y "p") (fun y => second_deriv_interp_func y "p") x.
Proof.
  intro x. exists (fun y => 30 * clamp01 y * clamp01 y * (1 - clamp01 y) * (1 - clamp01 y)). eexists.
  split; [reflexivity |]. split; [reflexivity |].
  exact (clampD (fun t => 30 * t * t * (1 - t) * (1 - t)) (fun t => 60 * t * (1 - 3 * t + 2 * t * t)) d2_p ltac:(cbv beta; ring) ltac:(cbv beta; ring) x).
Qed.

Lemma second_deriv_inside : forall type x, In type ["q"; "h"; "w"; "l"; "c"]%char -> 0 < x < 1 ->
  derivative_at (fun y => deriv_interp_func y type) (fun y => second_deriv_interp_func y type) x.
Proof.
  intros type x [<- | [<- | [<- | [<- | [<- | []]]]]] Hx.
  - exists (fun y => 2 * pos y), 2. split; [reflexivity |]. split.
    + cbn. destruct (Rle_dec 0 x); [reflexivity | lra].
    + apply (piece_high _ (fun y => 2 * y) 0); [lra | |].
      * apply is_derive_Reals. auto_derive; auto. ring.
      * intros y Hy. rewrite pos_high; auto.
  - exists (fun y => 6 * clamp01 y * (1 - clamp01 y)). eexists. split; [reflexivity |]. split; [reflexivity |].
    rewrite (clamp01_mid x) by lra.
    apply (derivable_local _ (fun y => 6 * y * (1 - y)) x _ (Rmin x (1 - x))); [apply Rmin_pos; lra | |].
    + apply is_derive_Reals. auto_derive; auto. ring.
    + intros y Hy. assert (Hy1 := Rlt_le_trans _ _ _ Hy (Rmin_l _ _)).
      assert (Hy2 := Rlt_le_trans _ _ _ Hy (Rmin_r _ _)). apply Rabs_def2 in Hy1, Hy2.
      rewrite (clamp01_mid y) by lra. reflexivity.
  - exists (fun y => pos y * (4 - 3 * pos y)). eexists. split; [reflexivity |]. split; [reflexivity |].
    rewrite (pos_high x) by lra. apply (piece_high _ (fun y => y * (4 - 3 * y)) 0); [lra | |].
    + apply is_derive_Reals. auto_derive; auto. ring.
    + intros y Hy. rewrite pos_high; auto.
  - exists (fun y => 1), 0. split; [| split; [reflexivity | apply derivable_pt_lim_const]].
    intro y. cbn. destruct (Rlt_dec 0 y); [reflexivity |]. destruct (Rlt_dec y 1); [reflexivity | lra].
  - exists (fun y => 0), 0. split; [reflexivity | split; [reflexivity | apply derivable_pt_lim_const]].
Qed.

(** outside [0,1] types 'h' and 'w' return a non-zero second derivative although the first is constant *)
Lemma second_deriv_outside_refuted :
  (exists x d, derivable_pt_lim (fun y => match deriv_interp_func y "h" with Some v => v | None => 0 end) x 0 /\
             second_deriv_interp_func x "h" = Some d /\ d <> 0) /\
  (exists x d, derivable_pt_lim (fun y => match deriv_interp_func y "w" with Some v => v | None => 0 end) x 0 /\
             second_deriv_interp_func x "w" = Some d /\ d <> 0).
Proof.
  split; exists (-1); eexists; (split; [| split; [reflexivity |]]).
  - apply (piece_low _ (fun _ => 6 * 0 * (1 - 0)) 0); [lra | apply derivable_pt_lim_const |].
    intros y Hy. cbn. rewrite clamp01_low; auto.
  - rewrite clamp01_low by lra. lra.
  - apply (piece_low _ (fun _ => 0 * (4 - 3 * 0)) 0); [lra | apply derivable_pt_lim_const |].
    intros y Hy. cbn. rewrite pos_low; auto.
  - rewrite pos_low by lra. lra.
Qed.

(** three types have a first but no second derivative routine: the program stops *)
Lemma second_deriv_missing_refuted : forall x type, In type ["m"; "3"; "s"]%char ->
  deriv_interp_func x type <> None /\ second_deriv_interp_func x type = None.
Proof. intros x type [<- | [<- | [<- | []]]]; cbn; split; try reflexivity; discriminate. Qed.

Lemma well_derivs : forall type x, In type ["d"; "s"]%char ->
  derivative_at (fun y => well_func y type) (fun y => deriv_well_func y type) x /\
  derivative_at (fun y => deriv_well_func y type) (fun y => second_deriv_well_func y type) x.
Proof.
  intros type x [<- | [<- | []]]; split; eexists; eexists;
    (split; [intro y; reflexivity |]); (split; [reflexivity |]);
    apply is_derive_Reals; auto_derive; auto; ring.
Qed.

(** ** C09 *)
Lemma well_d_min : forall x, exists w, well_func x "d" = Some w /\ 0 <= w /\ (w = 0 <-> x = 0 \/ x = 1).
Proof.
  intro x. eexists. split; [reflexivity |].
  replace (16 * x * x * (1 - x) * (1 - x)) with (16 * (x * (1 - x)) ^ 2) by ring.
  pose proof (pow2_ge_0 (x * (1 - x))) as Hp. split; [lra |]. split.
  - intro H. assert (E0 : (x * (1 - x)) ^ 2 = 0) by lra.
    assert (E : x * (1 - x) = 0) by (apply Rsqr_0_uniq; unfold Rsqr; lra). apply Rmult_integral in E. lra.
  - intros [-> | ->]; ring.
Qed.
Lemma well_s_min : forall x, exists w, well_func x "s" = Some w /\ 0 <= w /\ (w = 0 <-> x = 1).
Proof.
  intro x. eexists. split; [reflexivity |]. 
  split; [apply (Rle_0_sqr (1 - x)) |].
  split; [intro H; apply Rmult_integral in H; lra | intros ->; ring].
Qed.
Lemma well_stationary : forall type x w, well_func x type = Some w -> w = 0 ->
  deriv_well_func x type = Some 0 /\ exists c, second_deriv_well_func x type = Some c /\ 0 < c.
Proof.
  intros type x w Hw H0.
  destruct (ascii_dec type "d"%char) as [-> | Hd].
  - destruct (well_d_min x) as (w' & E & _ & Hi). rewrite Hw in E. injection E as <-.
    apply Hi in H0. destruct H0 as [-> | ->]; cbn; (split; [f_equal; ring | eexists; split; [reflexivity | lra]]).
  - destruct (ascii_dec type "s"%char) as [-> | Hs].
    + destruct (well_s_min x) as (w' & E & _ & Hi). rewrite Hw in E. injection E as <-.
      apply Hi in H0. subst x. cbn. split; [f_equal; ring | eexists; split; [reflexivity | lra]].
    + exfalso. destruct type as [b0 b1 b2 b3 b4 b5 b6 b7].
      destruct b0, b1, b2, b3, b4, b5, b6, b7; cbn in Hw; try discriminate;
        first [apply Hd; reflexivity | apply Hs; reflexivity].
Qed.

(** ** C10 *)
Lemma avg_threshold_pos : 0 < avg_threshold.
Proof. unfold avg_threshold. apply Rinv_0_lt_compat. apply pow_lt. lra. Qed.

Lemma average_arith : forall a b, exists v, average_func a b "a" = Some v /\ Rmin a b <= v <= Rmax a b.
Proof.
  intros a b. eexists. split; [reflexivity |]. unfold Rmin, Rmax.
  destruct (Rle_dec a b); lra.
Qed.

Lemma harm_between : forall a b, 0 < a -> 0 < b ->
  Rmin a b <= 2 / (1 / a + 1 / b) <= Rmax a b.
Proof.
  intros a b Ha Hb. replace (2 / (1 / a + 1 / b)) with (2 * a * b / (a + b)) by (field; lra).
  assert (Hs : 0 < a + b) by lra.
  unfold Rmin, Rmax. destruct (Rle_dec a b); split;
    first [apply Rle_div_l; [lra | nra] | apply Rle_div_r; [lra | nra]].
Qed.

Lemma average_harm : forall a b, 0 <= a -> 0 <= b ->
  exists v, average_func a b "h" = Some v /\
    0 <= v <= Rmax a b /\ Rmin a b - avg_threshold <= v /\
    (avg_threshold <= a -> avg_threshold <= b -> Rmin a b <= v) /\
    (a < avg_threshold \/ b < avg_threshold -> v = 0).
Proof.
  intros a b Ha Hb. eexists. split; [reflexivity |].
  pose proof avg_threshold_pos as Ht.
  assert (Hm : 0 <= Rmax a b) by (apply Rle_trans with a; [auto | apply Rmax_l]).
  assert (Hmin : Rmin a b <= a /\ Rmin a b <= b) by (split; [apply Rmin_l | apply Rmin_r]).
  destruct (Rlt_dec a avg_threshold); [repeat split; auto; lra |].
  destruct (Rlt_dec b avg_threshold); [repeat split; auto; lra |].
  destruct (harm_between a b ltac:(lra) ltac:(lra)) as [H1 H2].
  assert (0 <= Rmin a b) by (apply Rmin_glb; lra).
  repeat split; auto; try lra.
Qed.

Lemma average_symmetric : forall a b type, average_func a b type = average_func b a type.
Proof.
  intros a b type. destruct (ascii_dec type "a"%char) as [-> | H1]; [cbn; f_equal; lra |].
  destruct (ascii_dec type "h"%char) as [-> | H2].
  - cbn. f_equal. destruct (Rlt_dec a avg_threshold), (Rlt_dec b avg_threshold); auto.
    pose proof avg_threshold_pos. field. lra.
  - destruct type as [b0 b1 b2 b3 b4 b5 b6 b7].
    destruct b0, b1, b2, b3, b4, b5, b6, b7; try reflexivity;
      first [exfalso; apply H1; reflexivity | exfalso; apply H2; reflexivity].
Qed.

Lemma average_same : forall a type v, avg_threshold <= a -> average_func a a type = Some v -> v = a.
Proof.
  intros a type v Ha H. pose proof avg_threshold_pos.
  destruct (ascii_dec type "a"%char) as [-> | H1]; [cbn in H; injection H as <-; lra |].
  destruct (ascii_dec type "h"%char) as [-> | H2].
  - cbn in H. destruct (Rlt_dec a avg_threshold); [lra |]. injection H as <-. field. lra.
  - exfalso. destruct type as [b0 b1 b2 b3 b4 b5 b6 b7].
    destruct b0, b1, b2, b3, b4, b5, b6, b7; cbn in H; try discriminate;
      first [apply H1; reflexivity | apply H2; reflexivity].
Qed.

(** ** derivative of the face average *)
Lemma deriv_average_arith : forall a b,
  exists v d, average_func a b "a" = Some v /\ deriv_average_func v a "a" = Some d /\
    derivable_pt_lim (fun x => match average_func x b "a" with Some y => y | None => 0 end) a d.
Proof.
  intros a b. eexists. eexists. split; [reflexivity |]. split; [reflexivity |].
  cbn. apply is_derive_Reals. auto_derive; auto. ring.
Qed.

Lemma d_harm : forall a b, avg_threshold < a -> avg_threshold <= b ->
  derivable_pt_lim (fun x => match average_func x b "h" with Some y => y | None => 0 end) a
    (2 * b * b / ((a + b) * (a + b))).
Proof.
  intros a b Ha Hb. pose proof avg_threshold_pos as Ht.
  apply (piece_high _ (fun x => 2 * x * b / (x + b)) avg_threshold); [lra | |].
  - apply is_derive_Reals. auto_derive; [lra |]. field. lra.
  - intros x Hx. cbn. destruct (Rlt_dec x avg_threshold); [lra |].
    destruct (Rlt_dec b avg_threshold); [lra |]. field. lra.
Qed.

(** the harmonic derivative is right only if both cell values are equal *)
Lemma deriv_average_harm : forall a b v d,
  avg_threshold < a -> avg_threshold <= b ->
  average_func a b "h" = Some v -> deriv_average_func v a "h" = Some d ->
  (derivable_pt_lim (fun x => match average_func x b "h" with Some y => y | None => 0 end) a d <-> a = b).
Proof.
  intros a b v d Ha Hb Hv Hd. pose proof avg_threshold_pos as Ht.
  pose proof (d_harm a b Ha Hb) as Hder.
  cbn in Hv. destruct (Rlt_dec a avg_threshold); [lra |]. destruct (Rlt_dec b avg_threshold); [lra |].
  injection Hv as Hv.
  assert (Ev : v = 2 * a * b / (a + b)) by (rewrite <- Hv; field; lra).
  assert (Hvt : avg_threshold <= v).
  { rewrite <- Hv. destruct (harm_between a b ltac:(lra) ltac:(lra)) as [H1 _].
    apply Rle_trans with (Rmin a b); [apply Rmin_glb; lra | auto]. }
  cbn in Hd. destruct (Rlt_dec v avg_threshold); [lra |]. injection Hd as Hd.
  assert (Ed : d = (a + b) * (a + b) / (8 * b * b)).
  { rewrite <- Hd, Ev. field. lra. }
  split.
  - intro Hc. assert (E := derivable_unique _ _ _ _ Hc Hder). rewrite Ed in E.
    (* (a+b)^4 = 16 b^4 *)
    assert (E2 : (a + b) * (a + b) * ((a + b) * (a + b)) = 16 * (b * b) * (b * b)).
    { apply Rmult_eq_reg_r with (/ (8 * b * b) * / ((a + b) * (a + b))).
      - transitivity ((a + b) * (a + b) / (8 * b * b)); [field; lra |]. rewrite E. field. lra.
      - apply Rmult_integral_contrapositive_currified; apply Rinv_neq_0_compat; nra. }
    assert (E3 : ((a + b) * (a + b) - 4 * (b * b)) * ((a + b) * (a + b) + 4 * (b * b)) = 0) by nra.
    apply Rmult_integral in E3. destruct E3 as [E3 | E3]; nra.
  - intros ->. replace d with (2 * b * b / ((b + b) * (b + b))); auto. rewrite Ed. field. lra.
Qed.

Lemma deriv_average_harm_refuted :
  exists a b v d, 0 < a /\ 0 < b /\
    average_func a b "h" = Some v /\ deriv_average_func v a "h" = Some d /\
    ~ derivable_pt_lim (fun x => match average_func x b "h" with Some y => y | None => 0 end) a d.
Proof.
  assert (Ht : avg_threshold < 1).
  { unfold avg_threshold. rewrite <- Rinv_1. apply Rinv_lt_contravar; [| apply Rlt_pow_R1; [lra | lia]].
    rewrite Rmult_1_l. apply pow_lt; lra. }
  assert (Hv : exists v, average_func 1 2 "h" = Some v) by (eexists; reflexivity).
  destruct Hv as (v & Hv).
  assert (Hd : exists d, deriv_average_func v 1 "h" = Some d) by (eexists; reflexivity).
  destruct Hd as (d & Hd).
  exists 1, 2, v, d. split; [lra |]. split; [lra |]. split; auto. split; auto.
  intro C. apply (deriv_average_harm 1 2 v d) in C; auto; lra.
Qed.

(** ** C11 *)
Lemma rng3 : forall i, (1 <= i <= 3)%Z -> (i = 1 \/ i = 2 \/ i = 3)%Z.
Proof. intros; lia. Qed.
Lemma rng6 : forall i, (1 <= i <= 6)%Z -> (i = 1 \/ i = 2 \/ i = 3 \/ i = 4 \/ i = 5 \/ i = 6)%Z.
Proof. intros; lia. Qed.

Lemma storage2d_ok : forall i j, (1 <= i <= 3)%Z -> (1 <= j <= 3)%Z ->
  storage_index_stiffness2d i j = storage_index_stiffness2d j i /\
  (1 <= storage_index_stiffness2d i j <= 6)%Z.
Proof.
  intros i j Hi Hj. apply rng3 in Hi, Hj.
  destruct Hi as [-> | [-> | ->]]; destruct Hj as [-> | [-> | ->]]; cbn; split; try reflexivity; lia.
Qed.
Lemma storage3d_ok : forall i j, (1 <= i <= 6)%Z -> (1 <= j <= 6)%Z ->
  storage_index_stiffness3d i j = storage_index_stiffness3d j i /\
  (1 <= storage_index_stiffness3d i j <= 21)%Z.
Proof.
  intros i j Hi Hj. apply rng6 in Hi, Hj.
  destruct Hi as [-> | [-> | [-> | [-> | [-> | ->]]]]]; destruct Hj as [-> | [-> | [-> | [-> | [-> | ->]]]]];
    cbn; split; try reflexivity; lia.
Qed.
Lemma storage2d_inj : forall i j k l, (1 <= i <= j)%Z -> (j <= 3)%Z -> (1 <= k <= l)%Z -> (l <= 3)%Z ->
  storage_index_stiffness2d i j = storage_index_stiffness2d k l -> i = k /\ j = l.
Proof.
  intros i j k l Hi Hj Hk Hl.
  assert (Hi' : (1 <= i <= 3)%Z) by lia. assert (Hj' : (1 <= j <= 3)%Z) by lia.
  assert (Hk' : (1 <= k <= 3)%Z) by lia. assert (Hl' : (1 <= l <= 3)%Z) by lia.
  apply rng3 in Hi', Hj', Hk', Hl'.
  destruct Hi' as [-> | [-> | ->]]; destruct Hj' as [-> | [-> | ->]]; try lia;
  destruct Hk' as [-> | [-> | ->]]; destruct Hl' as [-> | [-> | ->]]; try lia;
    cbn; intro E; try discriminate; split; reflexivity.
Qed.
Lemma storage3d_inj : forall i j k l, (1 <= i <= j)%Z -> (j <= 6)%Z -> (1 <= k <= l)%Z -> (l <= 6)%Z ->
  storage_index_stiffness3d i j = storage_index_stiffness3d k l -> i = k /\ j = l.
Proof.
  intros i j k l Hi Hj Hk Hl.
  assert (Hi' : (1 <= i <= 6)%Z) by lia. assert (Hj' : (1 <= j <= 6)%Z) by lia.
  assert (Hk' : (1 <= k <= 6)%Z) by lia. assert (Hl' : (1 <= l <= 6)%Z) by lia.
  apply rng6 in Hi', Hj', Hk', Hl'.
  destruct Hi' as [-> | [-> | [-> | [-> | [-> | ->]]]]]; destruct Hj' as [-> | [-> | [-> | [-> | [-> | ->]]]]]; try lia;
  destruct Hk' as [-> | [-> | [-> | [-> | [-> | ->]]]]]; destruct Hl' as [-> | [-> | [-> | [-> | [-> | ->]]]]]; try lia;
    cbn; intro E; try discriminate; split; reflexivity.
Qed.

Lemma single2d_ok : forall i j, (1 <= i <= 2)%Z -> (1 <= j <= 2)%Z ->
  single_index_stiffness2d i j = single_index_stiffness2d j i /\
  (1 <= single_index_stiffness2d i j <= 3)%Z.
Proof.
  intros i j Hi Hj. assert (i = 1 \/ i = 2)%Z as [-> | ->] by lia;
    assert (j = 1 \/ j = 2)%Z as [-> | ->] by lia; cbn; split; try reflexivity; lia.
Qed.
Lemma single2d_onto : forall v, (1 <= v <= 3)%Z ->
  exists i j, (1 <= i <= j)%Z /\ (j <= 2)%Z /\ single_index_stiffness2d i j = v /\
    (forall k l, (1 <= k <= l)%Z -> (l <= 2)%Z -> single_index_stiffness2d k l = v -> k = i /\ l = j).
Proof.
  intros v Hv. apply rng3 in Hv.
  destruct Hv as [-> | [-> | ->]]; [exists 1%Z, 1%Z | exists 2%Z, 2%Z | exists 1%Z, 2%Z];
    (repeat split; try lia; try reflexivity);
    assert (k = 1 \/ k = 2)%Z as [-> | ->] by lia; assert (l = 1 \/ l = 2)%Z as [-> | ->] by lia;
    cbn in *; try lia.
Qed.
Lemma single3d_ok : forall i j, (1 <= i <= 3)%Z -> (1 <= j <= 3)%Z ->
  single_index_stiffness3d i j = single_index_stiffness3d j i /\
  (1 <= single_index_stiffness3d i j <= 6)%Z.
Proof.
  intros i j Hi Hj. apply rng3 in Hi, Hj.
  destruct Hi as [-> | [-> | ->]]; destruct Hj as [-> | [-> | ->]]; cbn; split; try reflexivity; lia.
Qed.
Lemma single3d_onto : forall v, (1 <= v <= 6)%Z ->
  exists i j, (1 <= i <= j)%Z /\ (j <= 3)%Z /\ single_index_stiffness3d i j = v /\
    (forall k l, (1 <= k <= l)%Z -> (l <= 3)%Z -> single_index_stiffness3d k l = v -> k = i /\ l = j).
Proof.
  intros v Hv. apply rng6 in Hv.
  destruct Hv as [-> | [-> | [-> | [-> | [-> | ->]]]]];
    [exists 1%Z, 1%Z | exists 2%Z, 2%Z | exists 3%Z, 3%Z | exists 2%Z, 3%Z | exists 1%Z, 3%Z | exists 1%Z, 2%Z];
    (repeat split; try lia; try reflexivity);
    assert (k = 1 \/ k = 2 \/ k = 3)%Z as [-> | [-> | ->]] by lia;
    assert (l = 1 \/ l = 2 \/ l = 3)%Z as [-> | [-> | ->]] by lia;
    cbn in *; try lia.
Qed.

(** ** ratio functions *)
Lemma interp_ratio_pl : forall x, exists r p l,
  interp_ratio_func x "p" "l" = Some r /\ interp_func x "p" = Some p /\ interp_func x "l" = Some l /\
  r * l = p.
Proof.
  intro x. do 3 eexists. split; [reflexivity |]. split; [reflexivity |]. split; [reflexivity |].
  cbn. rewrite clamp01_alt. ring.
Qed.
Lemma compl_interp_ratio_pl : forall x, exists r p l,
  compl_interp_ratio_func x "p" "l" = Some r /\ interp_func x "p" = Some p /\ interp_func x "l" = Some l /\
  r * (1 - l) = 1 - p.
Proof.
  intro x. do 3 eexists. split; [reflexivity |]. split; [reflexivity |]. split; [reflexivity |].
  cbn. rewrite clamp01_alt. ring.
Qed.
Lemma interp_ratio_same : forall x type, interp_ratio_func x type type = Some 1 /\
  compl_interp_ratio_func x type type = Some 1.
Proof.
  intros x type. unfold interp_ratio_func, compl_interp_ratio_func. rewrite Ascii.eqb_refl. auto.
Qed.

(** ** limited inverse *)
Lemma limitedinverse_ok : forall v,
  Rabs (limitedinverse v) <= 10 ^ 4 /\ (/ 10 ^ 4 < Rabs v -> v * limitedinverse v = 1).
Proof.
  intro v. unfold limitedinverse. destruct (Rlt_dec (/ 10 ^ 4) (Rabs v)) as [H | H].
  - assert (v <> 0) by (intros ->; rewrite Rabs_R0 in H; assert (0 < / 10 ^ 4) by (apply Rinv_0_lt_compat; lra); lra).
    split; [| intros _; field; auto].
    unfold Rdiv. rewrite Rmult_1_l, Rabs_inv.
    rewrite <- (Rinv_inv (10 ^ 4)). apply Rinv_le_contravar; [apply Rinv_0_lt_compat; lra | lra].
  - split; [rewrite Rabs_pos_eq; lra | contradiction].
Qed.
(** small negative values get a large positive inverse *)
Lemma limitedinverse_sign_refuted : exists v, v < 0 /\ 0 < limitedinverse v.
Proof.
  exists (- / 10 ^ 5). assert (0 < / 10 ^ 5) by (apply Rinv_0_lt_compat; lra). split; [lra |].
  unfold limitedinverse. rewrite Rabs_Ropp, Rabs_pos_eq by lra.
  destruct (Rlt_dec (/ 10 ^ 4) (/ 10 ^ 5)) as [H1 | H1]; [| lra].
  exfalso. assert (/ 10 ^ 5 < / 10 ^ 4) by (apply Rinv_lt_contravar; lra). lra.
Qed.

(** ** triple well *)
Lemma d_triple : forall p0 p1 p2,
  derivable_pt_lim (fun x => triple_well x p1 p2) p0 (32 * p0 * (1 - p0) * (1 - 2 * p0)) /\
  derivable_pt_lim (fun x => triple_well p0 x p2) p1 (32 * p1 * (1 - p1) * (1 - 2 * p1)) /\
  derivable_pt_lim (fun x => triple_well p0 p1 x) p2 (32 * p2 * (1 - p2) * (1 - 2 * p2)).
Proof.
  intros p0 p1 p2. unfold triple_well.
  split; [| split]; apply is_derive_Reals; auto_derive; auto; ring.
Qed.

Lemma triple_well_projected : forall p0 p1 p2 d0 d1 d2,
  derivable_pt_lim (fun x => triple_well x p1 p2) p0 d0 ->
  derivable_pt_lim (fun x => triple_well p0 x p2) p1 d1 ->
  derivable_pt_lim (fun x => triple_well p0 p1 x) p2 d2 ->
  deriv_triple_well_func p0 p1 p2 = d0 - (d0 + d1 + d2) / 3.
Proof.
  intros p0 p1 p2 d0 d1 d2 H0 H1 H2. destruct (d_triple p0 p1 p2) as (E0 & E1 & E2).
  rewrite (derivable_unique _ _ _ _ H0 E0), (derivable_unique _ _ _ _ H1 E1), (derivable_unique _ _ _ _ H2 E2).
  unfold deriv_triple_well_func. field.
Qed.

Lemma triple_well_sum0 : forall p0 p1 p2,
  deriv_triple_well_func p0 p1 p2 + deriv_triple_well_func p1 p2 p0 + deriv_triple_well_func p2 p0 p1 = 0.
Proof. intros. unfold deriv_triple_well_func. field. Qed.
