(** Proofs about partition coefficients and pair weights. *)
From Coq Require Import Reals List Ascii Lra Lia.
From Verif Require Import Functions_Model Functions_Spec Functions_Proofs Partition_Model Partition_Spec.
Import ListNotations.
Open Scope R_scope.

(** ** C23 *)
Lemma interp_range : forall t phi h, (t = "p" \/ t = "h" \/ t = "l" \/ t = "m")%char -> interp_func phi t = Some h -> 0 <= h <= 1.
Proof.
  intros t phi h Ht H.
  assert (C : 0 <= clamp01 phi <= 1).
  { unfold clamp01. split; [apply Rmax_l |]. apply Rmax_lub; [lra | apply Rmin_l]. }
  set (c := clamp01 phi) in *.
  destruct Ht as [-> | [-> | [-> | ->]]]; cbn [interp_func] in H; fold c in H; injection H as <-; cbv zeta.
  - assert (0 <= c * c) by nra. assert (0 <= c * c * c) by nra. assert (0 <= 10 - 15 * c + 6 * c * c) by nra.
    split; [nra |].
    assert (E : 1 - c * c * c * (10 - 15 * c + 6 * c * c) = (1 - c) * (1 - c) * (1 - c) * (1 + 3 * c + 6 * c * c)) by ring.
    assert (0 <= (1 - c) * (1 - c)) by nra. assert (0 <= (1 - c) * (1 - c) * (1 - c)) by nra. nra.
  - split; [nra |]. assert (E : 1 - c * c * (3 - 2 * c) = (1 - c) * (1 - c) * (1 + 2 * c)) by ring. assert (0 <= (1 - c) * (1 - c)) by nra. nra.
  - split; [apply Rmin_glb; [lra | apply Rmax_l] | apply Rmin_l].
  - assert (D : 0 < 2 * c * (c - 1) + 1) by nra. split.
    + apply Rmult_le_pos; [nra | apply Rlt_le, Rinv_0_lt_compat; auto].
    + apply (Rmult_le_reg_r (2 * c * (c - 1) + 1)); auto. unfold Rdiv. rewrite Rmult_assoc, Rinv_l by lra. nra.
Qed.
Lemma den_pos : forall h k, 0 <= h <= 1 -> 0 < k <= 1 -> 0 < 1 - h + k * h.
Proof.
  intros h k Hh Hk. destruct (Rle_lt_dec h (1 / 2)); nra.
Qed.
Lemma partition_ok : forall t phi k cs, (t = "p" \/ t = "h" \/ t = "l" \/ t = "m")%char -> 0 < k <= 1 ->
  exists h r, interp_func phi t = Some h /\ partition_cell t k phi cs = Some r /\ length r = length cs /\
    Forall2 (fun c clca => mixture h c (fst clca) (snd clca) /\ snd clca = k * fst clca /\
      (0 <= c -> 0 <= snd clca <= c /\ c <= fst clca)) cs r.
Proof.
  intros t phi k cs Ht Hk.
  assert (E : exists h, interp_func phi t = Some h) by (destruct Ht as [-> | [-> | [-> | ->]]]; cbn; eauto).
  destruct E as [h Eh]. pose proof (interp_range t phi h Ht Eh) as Hh. pose proof (den_pos h k Hh Hk) as Hd.
  exists h, (map (fun c => (c * (1 / (1 - h + k * h)), k * c * (1 / (1 - h + k * h)))) cs).
  split; [exact Eh |]. split; [| split].
  - unfold partition_cell. rewrite Eh. destruct (Rlt_dec k 0); [lra |]. destruct (Rlt_dec 1 k); [lra |].
    destruct (Rlt_dec h 0); [lra |]. destruct (Rlt_dec (1 + 1 / 100000000) h); [lra |].
    cbv zeta. destruct (Req_EM_T (1 - h + k * h) 0); [lra | reflexivity].
  - apply map_length.
  - induction cs as [| c cs IH]; [constructor |]. constructor; [| exact IH]. cbn [fst snd].
    split; [unfold mixture; field; lra |]. split; [ring |]. intro Hc.
    assert (I : 0 < 1 / (1 - h + k * h)) by (apply Rdiv_lt_0_compat; lra).
    assert (G1 : c * (1 / (1 - h + k * h)) - c = c * (h * (1 - k)) * (1 / (1 - h + k * h))) by (field; lra).
    assert (G2 : c - k * c * (1 / (1 - h + k * h)) = c * ((1 - h) * (1 - k)) * (1 / (1 - h + k * h))) by (field; lra).
    assert (0 <= c * (h * (1 - k)) * (1 / (1 - h + k * h))) by (apply Rmult_le_pos; [apply Rmult_le_pos; [auto | nra] | lra]).
    assert (0 <= c * ((1 - h) * (1 - k)) * (1 / (1 - h + k * h))) by (apply Rmult_le_pos; [apply Rmult_le_pos; [auto | nra] | lra]).
    assert (0 <= k * c * (1 / (1 - h + k * h))) by (apply Rmult_le_pos; [nra | lra]).
    lra.
Qed.
Lemma partition_pure : forall t phi k c, 0 < k <= 1 ->
  (interp_func phi t = Some 0 -> partition_cell t k phi [c] = Some [(c, k * c)]) /\
  (interp_func phi t = Some 1 -> partition_cell t k phi [c] = Some [(c / k, c)]).
Proof.
  intros t phi k c Hk. unfold partition_cell. destruct (Rlt_dec k 0); [lra |]. destruct (Rlt_dec 1 k); [lra |].
  split; intros ->; cbv zeta; cbn [map].
  - destruct (Rlt_dec 0 0); [lra |]. destruct (Rlt_dec (1 + 1 / 100000000) 0); [lra |].
    destruct (Req_EM_T (1 - 0 + k * 0) 0); [lra |]. do 3 f_equal; field; lra.
  - destruct (Rlt_dec 1 0); [lra |]. destruct (Rlt_dec (1 + 1 / 100000000) 1); [lra |].
    destruct (Req_EM_T (1 - 1 + k * 1) 0); [lra |]. do 3 f_equal; field; lra.
Qed.
(** the lower end of the accepted range of k divides by zero in the solid *)
Lemma partition_k0 : forall phi c, 1 <= phi -> partition_cell "p" 0 phi [c] = None.
Proof.
  intros phi c H. unfold partition_cell. destruct (Rlt_dec 0 0); [lra |]. destruct (Rlt_dec 1 0); [lra |].
  cbn [interp_func]. cbv zeta.
  replace (clamp01 phi) with 1.
  - replace (1 * 1 * 1 * (10 - 15 * 1 + 6 * 1 * 1)) with 1 by ring.
    destruct (Rlt_dec 1 0); [lra |]. destruct (Rlt_dec (1 + 1 / 100000000) 1); [lra |].
    destruct (Req_EM_T (1 - 1 + 0 * 1) 0); [reflexivity | lra].
  - unfold clamp01. rewrite Rmin_left by auto. rewrite Rmax_right; lra.
Qed.

(** ** C24 *)
Lemma aziz_low : forall vd keq ceq T v ke, 0 < vd -> computeKeq keq ceq T = Some ke -> 0 < ke < 1 ->
  exists k, aziz_cell vd keq ceq T v = Some k /\ ke <= k < 1 /\ (v = 0 <-> k = ke).
Proof.
  intros vd keq ceq T v ke Hvd Hk Hke. unfold aziz_cell. rewrite Hk. cbv zeta.
  assert (Hs : 0 <= Rabs v * (1 / vd)). { apply Rmult_le_pos; [apply Rabs_pos |]. apply Rlt_le, Rdiv_lt_0_compat; lra. }
  assert (Hz : v = 0 <-> Rabs v * (1 / vd) = 0).
  { split; [intros ->; rewrite Rabs_R0; ring |]. intro E. apply Rmult_integral in E. destruct E as [E | E].
    - destruct (Req_EM_T v 0); auto. apply Rabs_no_R0 in n. contradiction.
    - exfalso. assert (0 < 1 / vd) by (apply Rdiv_lt_0_compat; lra). lra. }
  set (s := Rabs v * (1 / vd)) in *. destruct (Rlt_dec ke 1); [| lra].
  set (k := (ke + s) / (1 + s)).
  assert (E1 : k - ke = s * (1 - ke) / (1 + s)) by (unfold k; field; lra).
  assert (E2 : 1 - k = (1 - ke) / (1 + s)) by (unfold k; field; lra).
  assert (I : 0 < / (1 + s)) by (apply Rinv_0_lt_compat; lra).
  assert (P1 : 0 <= s * (1 - ke) / (1 + s)) by (apply Rmult_le_pos; [nra | lra]).
  assert (P2 : 0 < (1 - ke) / (1 + s)) by (apply Rmult_lt_0_compat; lra).
  exists k. destruct (Rlt_dec 0 k); [| lra]. split; [reflexivity |]. split; [lra |]. rewrite Hz. split; intro H.
  - rewrite H in E1. unfold Rdiv in E1. lra.
  - rewrite H in E1. unfold Rdiv in E1. assert (X : s * (1 - ke) * / (1 + s) = 0) by lra.
    apply Rmult_integral in X. destruct X as [X | X]; [| lra]. apply Rmult_integral in X. lra.
Qed.
Lemma aziz_high : forall vd keq ceq T v ke, 0 < vd -> computeKeq keq ceq T = Some ke -> 1 <= ke ->
  exists k, aziz_cell vd keq ceq T v = Some k /\ 1 <= k <= ke /\ (v = 0 -> k = ke) /\ (1 < ke -> 1 < k).
Proof.
  intros vd keq ceq T v ke Hvd Hk Hke. unfold aziz_cell. rewrite Hk. cbv zeta.
  assert (Hs : 0 <= Rabs v * (1 / vd)). { apply Rmult_le_pos; [apply Rabs_pos |]. apply Rlt_le, Rdiv_lt_0_compat; lra. }
  assert (Hz : v = 0 -> Rabs v * (1 / vd) = 0) by (intros ->; rewrite Rabs_R0; ring).
  set (s := Rabs v * (1 / vd)) in *. destruct (Rlt_dec ke 1); [lra |].
  assert (Ik : 0 < 1 / ke <= 1).
  { split; [apply Rdiv_lt_0_compat; lra |]. apply (Rmult_le_reg_r ke); [lra |]. unfold Rdiv. rewrite Rmult_assoc, Rinv_l by lra. lra. }
  set (k := (1 + s) / (1 / ke + s)).
  assert (I : 0 < / (1 / ke + s)) by (apply Rinv_0_lt_compat; lra).
  assert (E1 : k - 1 = (1 - 1 / ke) * / (1 / ke + s)) by (assert (0 <= ke * s) by nra; unfold k; field; repeat split; lra).
  assert (E2 : ke - k = s * (ke - 1) * / (1 / ke + s)) by (assert (0 <= ke * s) by nra; unfold k; field; repeat split; lra).
  assert (P1 : 0 <= (1 - 1 / ke) * / (1 / ke + s)) by (apply Rmult_le_pos; lra).
  assert (P2 : 0 <= s * (ke - 1) * / (1 / ke + s)) by (apply Rmult_le_pos; [nra | lra]).
  exists k. destruct (Rlt_dec 0 k); [| lra]. split; [reflexivity |]. split; [lra |]. split.
  - intro H. rewrite (Hz H) in E2. lra.
  - intro H. assert (1 / ke < 1). { apply (Rmult_lt_reg_r ke); [lra |]. unfold Rdiv. rewrite Rmult_assoc, Rinv_l by lra. lra. }
    assert (0 < (1 - 1 / ke) * / (1 / ke + s)) by (apply Rmult_lt_0_compat; lra). lra.
Qed.
Lemma aziz_mono : forall vd keq ceq T v w ke k k', 0 < vd -> computeKeq keq ceq T = Some ke -> 0 < ke ->
  Rabs v <= Rabs w -> aziz_cell vd keq ceq T v = Some k -> aziz_cell vd keq ceq T w = Some k' ->
  Rabs (k' - 1) <= Rabs (k - 1).
Proof.
  intros vd keq ceq T v w ke k k' Hvd Hk Hke Hvw H1 H2. unfold aziz_cell in H1, H2. rewrite Hk in H1, H2. cbv zeta in H1, H2.
  assert (Hi : 0 < 1 / vd) by (apply Rdiv_lt_0_compat; lra).
  assert (Hs : 0 <= Rabs v * (1 / vd)) by (apply Rmult_le_pos; [apply Rabs_pos | lra]).
  assert (Hsw : Rabs v * (1 / vd) <= Rabs w * (1 / vd)) by (apply Rmult_le_compat_r; lra).
  set (s := Rabs v * (1 / vd)) in *. set (t := Rabs w * (1 / vd)) in *.
  destruct (Rlt_dec ke 1).
  - destruct (Rlt_dec 0 _) in H1; [| discriminate]. destruct (Rlt_dec 0 _) in H2; [| discriminate].
    injection H1 as <-. injection H2 as <-.
    replace ((ke + s) / (1 + s) - 1) with (- ((1 - ke) / (1 + s))) by (field; lra).
    replace ((ke + t) / (1 + t) - 1) with (- ((1 - ke) / (1 + t))) by (field; lra).
    rewrite !Rabs_Ropp, !Rabs_pos_eq by (apply Rmult_le_pos; [lra | apply Rlt_le, Rinv_0_lt_compat; lra]).
    apply Rmult_le_compat_l; [lra |]. apply Rinv_le_contravar; lra.
  - assert (Ik : 0 < 1 / ke <= 1).
    { split; [apply Rdiv_lt_0_compat; lra |]. apply (Rmult_le_reg_r ke); [lra |]. unfold Rdiv. rewrite Rmult_assoc, Rinv_l by lra. lra. }
    destruct (Rlt_dec 0 _) in H1; [| discriminate]. destruct (Rlt_dec 0 _) in H2; [| discriminate].
    injection H1 as <-. injection H2 as <-.
    replace ((1 + s) / (1 / ke + s) - 1) with ((1 - 1 / ke) / (1 / ke + s)) by (assert (0 <= ke * s) by nra; field; repeat split; lra).
    replace ((1 + t) / (1 / ke + t) - 1) with ((1 - 1 / ke) / (1 / ke + t)) by (assert (0 <= ke * t) by (apply Rmult_le_pos; lra); field; repeat split; lra).
    rewrite !Rabs_pos_eq by (apply Rmult_le_pos; [lra | apply Rlt_le, Rinv_0_lt_compat; lra]).
    apply Rmult_le_compat_l; [lra |]. apply Rinv_le_contravar; lra.
Qed.
(** coefficient and consumer together *)
Lemma aziz_then_partition : forall t vd keq ceq T v phi cs ke, (t = "p" \/ t = "h" \/ t = "l" \/ t = "m")%char ->
  0 < vd -> computeKeq keq ceq T = Some ke -> 0 < ke <= 1 -> aziz_partition t vd keq ceq T v phi cs <> None.
Proof.
  intros t vd keq ceq T v phi cs ke Ht Hvd Hk Hke. unfold aziz_partition.
  assert (exists k, aziz_cell vd keq ceq T v = Some k /\ 0 < k <= 1) as (k & -> & Hk').
  { destruct (Req_EM_T ke 1) as [-> | N].
    - destruct (aziz_high vd keq ceq T v 1 Hvd Hk) as (k & A & B & _); [lra |]. exists k. split; auto. lra.
    - destruct (aziz_low vd keq ceq T v ke Hvd Hk) as (k & A & B & _); [lra |]. exists k. split; auto. lra. }
  destruct (partition_ok t phi k cs Ht Hk') as (h & r & _ & -> & _). discriminate.
Qed.
Lemma aziz_reject : forall t vd keq ceq T v phi cs ke, 0 < vd -> computeKeq keq ceq T = Some ke -> 1 < ke ->
  aziz_partition t vd keq ceq T v phi cs = None.
Proof.
  intros t vd keq ceq T v phi cs ke Hvd Hk Hke. unfold aziz_partition.
  destruct (aziz_high vd keq ceq T v ke Hvd Hk) as (k & -> & B & _ & C); [lra |]. specialize (C Hke).
  unfold partition_cell. destruct (Rlt_dec k 0); [reflexivity |]. destruct (Rlt_dec 1 k); [reflexivity | lra].
Qed.

(** ** C25: angles of a triangle *)
Lemma cos_ratio : forall x y z, 0 < x -> 0 < y -> Rabs (x - y) <= z <= x + y ->
  -1 <= (x * x + y * y - z * z) / (2 * x * y) <= 1.
Proof.
  intros x y z Hx Hy [H1 H2]. assert (P : 0 < 2 * x * y) by nra.
  assert (Hz : 0 <= z) by (eapply Rle_trans; [apply Rabs_pos | exact H1]).
  assert (S : (x - y) * (x - y) <= z * z).
  { destruct (Rcase_abs (x - y)) as [Hn | Hn]; [rewrite Rabs_left in H1 by auto | rewrite Rabs_right in H1 by auto]; nra. }
  assert (E : (x * x + y * y - z * z) / (2 * x * y) * (2 * x * y) = x * x + y * y - z * z) by (field; lra).
  split; apply (Rmult_le_reg_r (2 * x * y)); auto; rewrite E; nra.
Qed.
Lemma angle_sum : forall x y z, 0 < x -> 0 < y -> 0 < z -> Rabs (x - y) <= z -> z <= x + y ->
  acos ((x * x + y * y - z * z) / (2 * x * y)) + acos ((x * x + z * z - y * y) / (2 * x * z)) +
  acos ((y * y + z * z - x * x) / (2 * y * z)) = PI.
Proof.
  intros x y z Hx Hy Hz H1 H2.
  assert (T : z - x <= y /\ x - y <= z /\ y - x <= z).
  { destruct (Rcase_abs (x - y)) as [Hn | Hn]; [rewrite Rabs_left in H1 by auto | rewrite Rabs_right in H1 by auto]; lra. }
  assert (Ra : -1 <= (x * x + y * y - z * z) / (2 * x * y) <= 1) by (apply cos_ratio; auto).
  assert (Rb : -1 <= (x * x + z * z - y * y) / (2 * x * z) <= 1) by (apply cos_ratio; auto; split; [apply Rabs_le; lra | lra]).
  assert (Rc : -1 <= (y * y + z * z - x * x) / (2 * y * z) <= 1) by (apply cos_ratio; auto; split; [apply Rabs_le; lra | lra]).
  set (a := (x * x + y * y - z * z) / (2 * x * y)) in *. set (b := (x * x + z * z - y * y) / (2 * x * z)) in *.
  set (c := (y * y + z * z - x * x) / (2 * y * z)) in *.
  assert (K : a * b + c = (x + y + z) * (x + y - z) * ((x + z - y) * (y + z - x)) / (4 * x * x * y * z)) by (unfold a, b, c; field; lra).
  assert (Kp : 0 <= a * b + c).
  { rewrite K. apply Rmult_le_pos; [apply Rmult_le_pos; apply Rmult_le_pos; lra |]. apply Rlt_le, Rinv_0_lt_compat.
    repeat apply Rmult_lt_0_compat; lra. }
  assert (Ks : (a * b + c) * (a * b + c) = (1 - a * a) * (1 - b * b)) by (unfold a, b, c; field; lra).
  assert (Ha : 0 <= acos a <= PI) by (apply acos_bound). assert (Hb : 0 <= acos b <= PI) by (apply acos_bound).
  assert (Hc : 0 <= acos c <= PI) by (apply acos_bound).
  assert (AB : acos a + acos b <= PI).
  { destruct (Rle_lt_dec (acos a + acos b) PI) as [H | H]; auto. exfalso.
    assert (L : cos (acos a) < cos (PI - acos b)) by (apply cos_decreasing_1; lra).
    rewrite Rtrigo_facts.cos_pi_minus, !cos_acos in L by auto.
    assert (G : a + b = (y + z) * ((x + y - z) * (x + z - y)) / (2 * x * y * z)) by (unfold a, b; field; lra).
    assert (0 <= (y + z) * ((x + y - z) * (x + z - y)) / (2 * x * y * z)).
    { apply Rmult_le_pos; [apply Rmult_le_pos; [lra |]; apply Rmult_le_pos; lra |]. apply Rlt_le, Rinv_0_lt_compat. repeat apply Rmult_lt_0_compat; lra. }
    lra. }
  assert (C : cos (acos a + acos b) = cos (PI - acos c)).
  { rewrite cos_plus, Rtrigo_facts.cos_pi_minus, !cos_acos by auto. rewrite !sin_acos by auto.
    rewrite <- sqrt_mult_alt by (unfold Rsqr; nra). unfold Rsqr. rewrite <- Ks. rewrite sqrt_square by auto. ring. }
  apply cos_inj in C; lra.
Qed.
Lemma norm_sq : forall a b c, norm3 a b c * norm3 a b c = a * a + b * b + c * c.
Proof. intros a b c. unfold norm3. apply sqrt_sqrt. nra. Qed.
Lemma norm_pos : forall a b c, 0 <= norm3 a b c. Proof. intros. apply sqrt_pos. Qed.
Lemma norm_tri : forall a b c d e f, norm3 (a + d) (b + e) (c + f) <= norm3 a b c + norm3 d e f.
Proof.
  intros a b c d e f. pose proof (norm_pos a b c). pose proof (norm_pos d e f). pose proof (norm_pos (a + d) (b + e) (c + f)).
  apply Rsqr_incr_0; [| auto | lra]. unfold Rsqr.
  assert (CS : a * d + b * e + c * f <= norm3 a b c * norm3 d e f).
  { destruct (Rle_lt_dec (a * d + b * e + c * f) 0); [assert (0 <= norm3 a b c * norm3 d e f) by (apply Rmult_le_pos; auto); lra |].
    apply Rsqr_incr_0; [| lra | apply Rmult_le_pos; auto]. unfold Rsqr.
    replace (norm3 a b c * norm3 d e f * (norm3 a b c * norm3 d e f)) with ((norm3 a b c * norm3 a b c) * (norm3 d e f * norm3 d e f)) by ring.
    rewrite !norm_sq.
    pose proof (Rle_0_sqr (a * e - b * d)). pose proof (Rle_0_sqr (a * f - c * d)). pose proof (Rle_0_sqr (b * f - c * e)).
    unfold Rsqr in *. nra. }
  replace ((norm3 a b c + norm3 d e f) * (norm3 a b c + norm3 d e f)) with
    (norm3 a b c * norm3 a b c + norm3 d e f * norm3 d e f + 2 * (norm3 a b c * norm3 d e f)) by ring.
  rewrite !norm_sq. lra.
Qed.
Lemma norm_neg : forall a b c, norm3 (- a) (- b) (- c) = norm3 a b c.
Proof. intros. unfold norm3. f_equal. ring. Qed.
Lemma norm_ext : forall a b c d e f, a * a + b * b + c * c = d * d + e * e + f * f -> norm3 a b c = norm3 d e f.
Proof. intros. unfold norm3. f_equal. auto. Qed.

(** fractions after the cap *)
Definition capped (p0 p1 p2 : R) : Prop := fractions p0 p1 p2 /\ p0 <= maxp /\ p1 <= maxp /\ p2 <= maxp.
Lemma cap3_ok : forall p0 p1 p2, fractions p0 p1 p2 -> let '(q0, q1, q2) := cap3 p0 p1 p2 in capped q0 q1 q2.
Proof.
  intros p0 p1 p2 (H0 & H1 & H2 & Hs). unfold cap3, capped, fractions, maxp.
  destruct (Rlt_dec (99 / 100) p0); [cbv zeta; lra |]. destruct (Rlt_dec (99 / 100) p1); [cbv zeta; lra |].
  destruct (Rlt_dec (99 / 100) p2); cbv zeta; lra.
Qed.
Section Triangle.
  Variables p0 p1 p2 : R.
  Hypothesis H : capped p0 p1 p2.
  Let d0 := norm3 (p0 / (p0 + p2) - p0 / (p0 + p1)) (0 - p1 / (p0 + p1)) (p2 / (p0 + p2) - 0).
  Let d1 := norm3 (0 - p0 / (p0 + p1)) (p1 / (p1 + p2) - p1 / (p0 + p1)) (p2 / (p1 + p2) - 0).
  Let d2 := norm3 (0 - p0 / (p0 + p2)) (p1 / (p1 + p2) - 0) (p2 / (p1 + p2) - p2 / (p0 + p2)).
  Lemma sums_pos : 0 < p0 + p1 /\ 0 < p0 + p2 /\ 0 < p1 + p2.
  Proof. unfold capped, fractions, maxp in H. lra. Qed.
  Lemma frac_ge : forall p s, 0 <= p -> 0 < s -> s <= 1 -> p <= p / s.
  Proof.
    intros p s Hp Hs H1. apply (Rmult_le_reg_r s); auto. unfold Rdiv. rewrite Rmult_assoc, Rinv_l by lra. nra.
  Qed.
  Lemma norm_ge : forall a b c e, 0 <= e -> e * e < a * a + b * b + c * c -> e < norm3 a b c.
  Proof.
    intros a b c e He Hl. unfold norm3. rewrite <- (sqrt_square e He). apply sqrt_lt_1; nra.
  Qed.
  Lemma sq_ge : forall t e, 0 <= e -> e <= t -> e * e <= t * t.
  Proof. intros. nra. Qed.
  Lemma dists_pos : 1 / 1000 < d0 /\ 1 / 1000 < d1 /\ 1 / 1000 < d2.
  Proof.
    destruct sums_pos as (S01 & S02 & S12). destruct H as ((A0 & A1 & A2 & As) & B0 & B1 & B2). unfold maxp in *.
    assert (F1 : p1 <= p1 / (p0 + p1)) by (apply frac_ge; lra). assert (F2 : p2 <= p2 / (p0 + p2)) by (apply frac_ge; lra).
    assert (F3 : p0 <= p0 / (p0 + p1)) by (apply frac_ge; lra). assert (F4 : p2 <= p2 / (p1 + p2)) by (apply frac_ge; lra).
    assert (F5 : p0 <= p0 / (p0 + p2)) by (apply frac_ge; lra). assert (F6 : p1 <= p1 / (p1 + p2)) by (apply frac_ge; lra).
    unfold d0, d1, d2. repeat split; apply norm_ge; try lra.
    - destruct (Rle_lt_dec (1 / 200) p1).
      + assert (1 / 200 * (1 / 200) <= p1 / (p0 + p1) * (p1 / (p0 + p1))) by (apply sq_ge; lra).
        pose proof (Rle_0_sqr (p0 / (p0 + p2) - p0 / (p0 + p1))). pose proof (Rle_0_sqr (p2 / (p0 + p2))). unfold Rsqr in *. lra.
      + assert (1 / 200 * (1 / 200) <= p2 / (p0 + p2) * (p2 / (p0 + p2))) by (apply sq_ge; lra).
        pose proof (Rle_0_sqr (p0 / (p0 + p2) - p0 / (p0 + p1))). pose proof (Rle_0_sqr (p1 / (p0 + p1))). unfold Rsqr in *. lra.
    - destruct (Rle_lt_dec (1 / 200) p0).
      + assert (1 / 200 * (1 / 200) <= p0 / (p0 + p1) * (p0 / (p0 + p1))) by (apply sq_ge; lra).
        pose proof (Rle_0_sqr (p1 / (p1 + p2) - p1 / (p0 + p1))). pose proof (Rle_0_sqr (p2 / (p1 + p2))). unfold Rsqr in *. lra.
      + assert (1 / 200 * (1 / 200) <= p2 / (p1 + p2) * (p2 / (p1 + p2))) by (apply sq_ge; lra).
        pose proof (Rle_0_sqr (p1 / (p1 + p2) - p1 / (p0 + p1))). pose proof (Rle_0_sqr (p0 / (p0 + p1))). unfold Rsqr in *. lra.
    - destruct (Rle_lt_dec (1 / 200) p0).
      + assert (1 / 200 * (1 / 200) <= p0 / (p0 + p2) * (p0 / (p0 + p2))) by (apply sq_ge; lra).
        pose proof (Rle_0_sqr (p2 / (p1 + p2) - p2 / (p0 + p2))). pose proof (Rle_0_sqr (p1 / (p1 + p2))). unfold Rsqr in *. lra.
      + assert (1 / 200 * (1 / 200) <= p1 / (p1 + p2) * (p1 / (p1 + p2))) by (apply sq_ge; lra).
        pose proof (Rle_0_sqr (p2 / (p1 + p2) - p2 / (p0 + p2))). pose proof (Rle_0_sqr (p0 / (p0 + p2))). unfold Rsqr in *. lra.
  Qed.
  Lemma dists_tri : d1 <= d0 + d2 /\ d0 <= d1 + d2 /\ d2 <= d0 + d1.
  Proof.
    unfold d0, d1, d2. repeat split.
    - match goal with |- norm3 ?a ?b ?c <= _ => match goal with |- _ <= norm3 ?d ?e ?f + norm3 ?g ?h ?i =>
        replace a with (d + g) by ring; replace b with (e + h) by ring; replace c with (f + i) by ring end end. apply norm_tri.
    - rewrite <- (norm_neg (0 - p0 / (p0 + p2))).
      match goal with |- norm3 ?a ?b ?c <= _ => match goal with |- _ <= norm3 ?d ?e ?f + norm3 ?g ?h ?i =>
        replace a with (d + g) by ring; replace b with (e + h) by ring; replace c with (f + i) by ring end end. apply norm_tri.
    - rewrite <- (norm_neg (p0 / (p0 + p2) - p0 / (p0 + p1))).
      match goal with |- norm3 ?a ?b ?c <= _ => match goal with |- _ <= norm3 ?d ?e ?f + norm3 ?g ?h ?i =>
        replace a with (d + g) by ring; replace b with (e + h) by ring; replace c with (f + i) by ring end end. apply norm_tri.
  Qed.
End Triangle.
Lemma clip_id : forall a, -1 <= a <= 1 -> clip1 a = a.
Proof. intros a Ha. unfold clip1. cbv zeta. destruct (Rlt_dec a (-1)); [lra |]. destruct (Rlt_dec 1 a); lra. Qed.
Lemma tiny_lt : tiny < 1 / 1000.
Proof. unfold tiny. apply Rmult_lt_compat_l; [lra |]. apply Rinv_lt_contravar; lra. Qed.
(** the weights as angles of a triangle with sides x, y, z *)
Definition angle_weights (x y z : R) : R * R * R :=
  (1 / PI * acos ((x * x + y * y - z * z) / (2 * x * y)),
   1 / PI * acos ((x * x + z * z - y * y) / (2 * x * z)),
   1 / PI * acos ((z * z + y * y - x * x) / (2 * y * z))).
Lemma angles_eq : forall p0 p1 p2, capped p0 p1 p2 -> exists x y z,
  x * x = Rsqr (p0 / (p0 + p2) - p0 / (p0 + p1)) + Rsqr (p1 / (p0 + p1)) + Rsqr (p2 / (p0 + p2)) /\
  y * y = Rsqr (p0 / (p0 + p1)) + Rsqr (p1 / (p1 + p2) - p1 / (p0 + p1)) + Rsqr (p2 / (p1 + p2)) /\
  z * z = Rsqr (p0 / (p0 + p2)) + Rsqr (p1 / (p1 + p2)) + Rsqr (p2 / (p1 + p2) - p2 / (p0 + p2)) /\
  0 < x /\ 0 < y /\ 0 < z /\ Rabs (x - y) <= z /\ z <= x + y /\ angles p0 p1 p2 = Some (angle_weights x y z).
Proof.
  intros p0 p1 p2 H. destruct (dists_pos p0 p1 p2 H) as (A & B & C). destruct (dists_tri p0 p1 p2) as (T1 & T2 & T3).
  unfold angles. cbv zeta.
  set (x := norm3 (p0 / (p0 + p2) - p0 / (p0 + p1)) (0 - p1 / (p0 + p1)) (p2 / (p0 + p2) - 0)) in *.
  set (y := norm3 (0 - p0 / (p0 + p1)) (p1 / (p1 + p2) - p1 / (p0 + p1)) (p2 / (p1 + p2) - 0)) in *.
  set (z := norm3 (0 - p0 / (p0 + p2)) (p1 / (p1 + p2) - 0) (p2 / (p1 + p2) - p2 / (p0 + p2))) in *.
  pose proof tiny_lt as Ht.
  exists x, y, z.
  split; [unfold x; rewrite norm_sq; unfold Rsqr; ring |]. split; [unfold y; rewrite norm_sq; unfold Rsqr; ring |].
  split; [unfold z; rewrite norm_sq; unfold Rsqr; ring |].
  split; [lra |]. split; [lra |]. split; [lra |].
  assert (Hxy : Rabs (x - y) <= z) by (apply Rabs_le; lra). split; [exact Hxy |]. split; [lra |].
  destruct (Rlt_dec tiny x); [| lra]. destruct (Rlt_dec tiny y); [| lra]. destruct (Rlt_dec tiny z); [| lra].
  unfold angle_weights. rewrite !clip_id; [reflexivity | | |].
  - replace (z * z + y * y - x * x) with (y * y + z * z - x * x) by ring. apply cos_ratio; try lra. split; [apply Rabs_le; lra | lra].
  - apply cos_ratio; try lra. split; [apply Rabs_le; lra | lra].
  - apply cos_ratio; lra.
Qed.
Lemma angle_weights_ok : forall x y z, 0 < x -> 0 < y -> 0 < z -> Rabs (x - y) <= z -> z <= x + y ->
  let '(a, b, c) := angle_weights x y z in pair_weights a b c.
Proof.
  intros x y z Hx Hy Hz H1 H2. unfold angle_weights, pair_weights.
  pose proof PI_RGT_0 as P. pose proof (angle_sum x y z Hx Hy Hz H1 H2) as S.
  replace (z * z + y * y - x * x) with (y * y + z * z - x * x) by ring.
  set (a := acos ((x * x + y * y - z * z) / (2 * x * y))) in *. set (b := acos ((x * x + z * z - y * y) / (2 * x * z))) in *.
  set (c := acos ((y * y + z * z - x * x) / (2 * y * z))) in *.
  assert (Ha : 0 <= a <= PI) by apply acos_bound. assert (Hb : 0 <= b <= PI) by apply acos_bound. assert (Hc : 0 <= c <= PI) by apply acos_bound.
  assert (R : forall t, 0 <= t <= PI -> 0 <= 1 / PI * t <= 1).
  { intros t Ht. assert (0 < 1 / PI) by (apply Rdiv_lt_0_compat; lra). split; [apply Rmult_le_pos; lra |].
    apply (Rmult_le_reg_l PI); auto. replace (PI * (1 / PI * t)) with t by (field; lra). lra. }
  repeat split; try (apply R; auto). rewrite <- !Rmult_plus_distr_l, S. field. lra.
Qed.
Lemma weights_ok : forall p0 p1 p2, fractions p0 p1 p2 ->
  exists w01 w02 w12, computeWeights3Pairs p0 p1 p2 = Some (w01, w02, w12) /\ pair_weights w01 w02 w12.
Proof.
  intros p0 p1 p2 H. pose proof (cap3_ok p0 p1 p2 H) as HC. unfold computeWeights3Pairs.
  destruct (cap3 p0 p1 p2) as [[q0 q1] q2]. destruct (sums_pos q0 q1 q2 HC) as (A & B & C).
  destruct (Rlt_dec 0 (q0 + q1)); [| lra]. destruct (Rlt_dec 0 (q0 + q2)); [| lra]. destruct (Rlt_dec 0 (q1 + q2)); [| lra].
  destruct (angles_eq q0 q1 q2 HC) as (x & y & z & _ & _ & _ & Hx & Hy & Hz & H1 & H2 & E).
  pose proof (angle_weights_ok x y z Hx Hy Hz H1 H2) as W. rewrite E.
  destruct (angle_weights x y z) as [[a b] c]. exists a, b, c. split; [reflexivity | exact W].
Qed.
Lemma triple_eq : forall a b c a' b' c' : R, a = a' -> b = b' -> c = c' -> (a, b, c) = (a', b', c').
Proof. congruence. Qed.
(** renumbering the phases renumbers the weights *)
Lemma angles_swap01 : forall p0 p1 p2, angles p1 p0 p2 = option_map swap01 (angles p0 p1 p2).
Proof.
  intros p0 p1 p2. unfold angles. cbv zeta.
  rewrite (norm_ext (p1 / (p1 + p2) - p1 / (p1 + p0)) (0 - p0 / (p1 + p0)) (p2 / (p1 + p2) - 0)
                    (0 - p0 / (p0 + p1)) (p1 / (p1 + p2) - p1 / (p0 + p1)) (p2 / (p1 + p2) - 0)) by (rewrite (Rplus_comm p1 p0); ring).
  rewrite (norm_ext (0 - p1 / (p1 + p0)) (p0 / (p0 + p2) - p0 / (p1 + p0)) (p2 / (p0 + p2) - 0)
                    (p0 / (p0 + p2) - p0 / (p0 + p1)) (0 - p1 / (p0 + p1)) (p2 / (p0 + p2) - 0)) by (rewrite (Rplus_comm p1 p0); ring).
  rewrite (norm_ext (0 - p1 / (p1 + p2)) (p0 / (p0 + p2) - 0) (p2 / (p0 + p2) - p2 / (p1 + p2))
                    (0 - p0 / (p0 + p2)) (p1 / (p1 + p2) - 0) (p2 / (p1 + p2) - p2 / (p0 + p2))) by ring.
  generalize (norm3 (p0 / (p0 + p2) - p0 / (p0 + p1)) (0 - p1 / (p0 + p1)) (p2 / (p0 + p2) - 0)) as x.
  generalize (norm3 (0 - p0 / (p0 + p1)) (p1 / (p1 + p2) - p1 / (p0 + p1)) (p2 / (p1 + p2) - 0)) as y.
  generalize (norm3 (0 - p0 / (p0 + p2)) (p1 / (p1 + p2) - 0) (p2 / (p1 + p2) - p2 / (p0 + p2))) as z. intros z y x.
  destruct (Rlt_dec tiny x), (Rlt_dec tiny y), (Rlt_dec tiny z); try reflexivity. cbn [option_map swap01].
  do 2 f_equal; [f_equal |].
  - do 4 f_equal; ring.
  - f_equal. f_equal. f_equal. f_equal; ring.
  - f_equal. f_equal. f_equal. f_equal; ring.
Qed.
Lemma angles_swap12 : forall p0 p1 p2, angles p0 p2 p1 = option_map swap12 (angles p0 p1 p2).
Proof.
  intros p0 p1 p2. unfold angles. cbv zeta.
  rewrite (norm_ext (p0 / (p0 + p1) - p0 / (p0 + p2)) (0 - p2 / (p0 + p2)) (p1 / (p0 + p1) - 0)
                    (p0 / (p0 + p2) - p0 / (p0 + p1)) (0 - p1 / (p0 + p1)) (p2 / (p0 + p2) - 0)) by ring.
  rewrite (norm_ext (0 - p0 / (p0 + p2)) (p2 / (p2 + p1) - p2 / (p0 + p2)) (p1 / (p2 + p1) - 0)
                    (0 - p0 / (p0 + p2)) (p1 / (p1 + p2) - 0) (p2 / (p1 + p2) - p2 / (p0 + p2))) by (rewrite (Rplus_comm p2 p1); ring).
  rewrite (norm_ext (0 - p0 / (p0 + p1)) (p2 / (p2 + p1) - 0) (p1 / (p2 + p1) - p1 / (p0 + p1))
                    (0 - p0 / (p0 + p1)) (p1 / (p1 + p2) - p1 / (p0 + p1)) (p2 / (p1 + p2) - 0)) by (rewrite (Rplus_comm p2 p1); ring).
  generalize (norm3 (p0 / (p0 + p2) - p0 / (p0 + p1)) (0 - p1 / (p0 + p1)) (p2 / (p0 + p2) - 0)) as x.
  generalize (norm3 (0 - p0 / (p0 + p1)) (p1 / (p1 + p2) - p1 / (p0 + p1)) (p2 / (p1 + p2) - 0)) as y.
  generalize (norm3 (0 - p0 / (p0 + p2)) (p1 / (p1 + p2) - 0) (p2 / (p1 + p2) - p2 / (p0 + p2))) as z. intros z y x.
  destruct (Rlt_dec tiny x), (Rlt_dec tiny y), (Rlt_dec tiny z); try reflexivity. cbn [option_map swap12].
  do 2 f_equal. f_equal. f_equal. f_equal. f_equal; ring.
Qed.
Lemma pairs_swap01 : forall p0 p1 p2, fractions p0 p1 p2 ->
  computeWeights3Pairs p1 p0 p2 = option_map swap01 (computeWeights3Pairs p0 p1 p2).
Proof.
  intros p0 p1 p2 (H0 & H1 & H2 & Hs). unfold computeWeights3Pairs.
  assert (E : cap3 p1 p0 p2 = let '(a, b, c) := cap3 p0 p1 p2 in (b, a, c)).
  { unfold cap3, maxp. cbv zeta. destruct (Rlt_dec (99 / 100) p0), (Rlt_dec (99 / 100) p1), (Rlt_dec (99 / 100) p2); try lra;
    apply triple_eq; lra. }
  rewrite E. destruct (cap3 p0 p1 p2) as [[a b] c]. rewrite (Rplus_comm b a).
  destruct (Rlt_dec 0 (a + b)), (Rlt_dec 0 (a + c)), (Rlt_dec 0 (b + c)); try reflexivity. apply angles_swap01.
Qed.
Lemma pairs_swap12 : forall p0 p1 p2, fractions p0 p1 p2 ->
  computeWeights3Pairs p0 p2 p1 = option_map swap12 (computeWeights3Pairs p0 p1 p2).
Proof.
  intros p0 p1 p2 (H0 & H1 & H2 & Hs). unfold computeWeights3Pairs.
  assert (E : cap3 p0 p2 p1 = let '(a, b, c) := cap3 p0 p1 p2 in (a, c, b)).
  { unfold cap3, maxp. cbv zeta. destruct (Rlt_dec (99 / 100) p0), (Rlt_dec (99 / 100) p1), (Rlt_dec (99 / 100) p2); try lra;
    apply triple_eq; lra. }
  rewrite E. destruct (cap3 p0 p1 p2) as [[a b] c]. rewrite (Rplus_comm c b).
  destruct (Rlt_dec 0 (a + b)), (Rlt_dec 0 (a + c)), (Rlt_dec 0 (b + c)); try reflexivity. apply angles_swap12.
Qed.
(** the third phase absent: only the pair present counts *)
Lemma weights_two : forall p0 p1, 1 / 100 <= p0 -> 1 / 100 <= p1 -> p0 + p1 = 1 ->
  computeWeights3Pairs p0 p1 0 = Some (1, 0, 0).
Proof.
  intros p0 p1 H0 H1 Hs. unfold computeWeights3Pairs, cap3, maxp.
  destruct (Rlt_dec (99 / 100) p0); [lra |]. destruct (Rlt_dec (99 / 100) p1); [lra |]. destruct (Rlt_dec (99 / 100) 0); [lra |].
  assert (HC : capped p0 p1 0) by (unfold capped, fractions, maxp; lra).
  destruct (Rlt_dec 0 (p0 + p1)); [| lra]. destruct (Rlt_dec 0 (p0 + 0)); [| lra]. destruct (Rlt_dec 0 (p1 + 0)); [| lra].
  destruct (angles_eq p0 p1 0 HC) as (x & y & z & X & Y & Z & Hx & Hy & Hz & _ & _ & ->).
  unfold angle_weights, Rsqr in *. rewrite Hs in *. rewrite !Rplus_0_r in *.
  replace (p0 / p0) with 1 in * by (field; lra). replace (p1 / p1) with 1 in * by (field; lra).
  assert (X2 : x * x = 2 * p1 * p1) by (rewrite X; replace p0 with (1 - p1) by lra; field; lra).
  assert (Y2 : y * y = 2 * p0 * p0) by (rewrite Y; replace p1 with (1 - p0) by lra; field; lra).
  assert (Z2 : z * z = 2) by (rewrite Z; field; lra).
  assert (Ex : x = z * p1). { apply Rsqr_inj; [lra | nra |]. unfold Rsqr. rewrite X2. replace (z * p1 * (z * p1)) with (z * z * p1 * p1) by ring. rewrite Z2. ring. }
  assert (Ey : y = z * p0). { apply Rsqr_inj; [lra | nra |]. unfold Rsqr. rewrite Y2. replace (z * p0 * (z * p0)) with (z * z * p0 * p0) by ring. rewrite Z2. ring. }
  subst x y.
  replace ((z * p1 * (z * p1) + z * p0 * (z * p0) - z * z) / (2 * (z * p1) * (z * p0))) with (-1) by (replace p1 with (1 - p0) by lra; field; lra).
  replace ((z * p1 * (z * p1) + z * z - z * p0 * (z * p0)) / (2 * (z * p1) * z)) with 1 by (replace p0 with (1 - p1) by lra; field; lra).
  replace ((z * z + z * p0 * (z * p0) - z * p1 * (z * p1)) / (2 * (z * p0) * z)) with 1 by (replace p1 with (1 - p0) by lra; field; lra).
  rewrite acos_1. replace (-1) with (- (1)) by ring. rewrite acos_opp, acos_1. pose proof PI_RGT_0. do 3 f_equal; field; lra.
Qed.
Lemma mobility_between : forall factor mv zLA zLB pL pA pB, 0 < factor -> 0 < mv -> 0 < zLA -> 0 < zLB -> fractions pL pA pB ->
  exists m, inf_mobility factor mv zLA zLB pL pA pB = Some m /\
    Rmin (factor * mv * 1000000 / zLA) (factor * mv * 1000000 / zLB) <= m <= Rmax (factor * mv * 1000000 / zLA) (factor * mv * 1000000 / zLB).
Proof.
  intros factor mv zLA zLB pL pA pB Hf Hm HA HB HP. unfold inf_mobility. destruct (Rlt_dec 0 zLA); [| lra]. destruct (Rlt_dec 0 zLB); [| lra].
  destruct (weights_ok pL pA pB HP) as (a & b & c & -> & (Ha & Hb & Hc & S)). cbv zeta.
  destruct (Rlt_dec 1 a); [lra |]. destruct (Rlt_dec 1 b); [lra |]. destruct (Rlt_dec 1 c); [lra |].
  replace (factor / (zLA * (1 / 1000000 / mv))) with (factor * mv * 1000000 / zLA) by (field; lra).
  replace (factor / (zLB * (1 / 1000000 / mv))) with (factor * mv * 1000000 / zLB) by (field; lra).
  set (A := factor * mv * 1000000 / zLA). set (B := factor * mv * 1000000 / zLB). eexists. split; [reflexivity |].
  replace b with (1 - a - c) by lra. unfold Rmin, Rmax. destruct (Rle_dec A B); split; nra.
Qed.
Lemma mobility_two : forall factor mv zLA zLB pL pA, 0 < factor -> 0 < mv -> 0 < zLA -> 0 < zLB ->
  1 / 100 <= pL -> 1 / 100 <= pA -> pL + pA = 1 ->
  inf_mobility factor mv zLA zLB pL pA 0 = Some (factor * mv * 1000000 / zLA) /\
  inf_mobility factor mv zLA zLB pL 0 pA = Some (factor * mv * 1000000 / zLB).
Proof.
  intros factor mv zLA zLB pL pA Hf Hm HA HB HL HPA S. unfold inf_mobility. destruct (Rlt_dec 0 zLA); [| lra]. destruct (Rlt_dec 0 zLB); [| lra].
  rewrite (pairs_swap12 pL pA 0) by (unfold fractions; lra). rewrite (weights_two pL pA) by auto. cbn [option_map swap12]. cbv zeta.
  destruct (Rlt_dec 1 1); [lra |]. destruct (Rlt_dec 1 0); [lra |]. split; f_equal; field; lra.
Qed.
Lemma weights_third : computeWeights3Pairs (1 / 3) (1 / 3) (1 / 3) = Some (1 / 3, 1 / 3, 1 / 3).
Proof.
  assert (F : fractions (1 / 3) (1 / 3) (1 / 3)) by (unfold fractions; lra).
  destruct (weights_ok _ _ _ F) as (a & b & c & E & (_ & _ & _ & S)).
  pose proof (pairs_swap01 _ _ _ F) as E1. pose proof (pairs_swap12 _ _ _ F) as E2. rewrite E in E1, E2 |- *.
  cbn [option_map swap01 swap12] in E1, E2. injection E1 as Hb. injection E2 as Ha. subst. do 3 f_equal; lra.
Qed.
(** complete trapping: the distance to one decays at least as vd / |v| *)
Lemma aziz_limit : forall vd keq ceq T v ke k, 0 < vd -> computeKeq keq ceq T = Some ke -> 0 < ke ->
  aziz_cell vd keq ceq T v = Some k -> Rabs (k - 1) * Rabs v <= vd.
Proof.
  intros vd keq ceq T v ke k Hvd Hk Hke H1. unfold aziz_cell in H1. rewrite Hk in H1. cbv zeta in H1.
  assert (Hi : 0 < 1 / vd) by (apply Rdiv_lt_0_compat; lra).
  assert (Hs : 0 <= Rabs v * (1 / vd)) by (apply Rmult_le_pos; [apply Rabs_pos | lra]).
  assert (Ev : Rabs v = Rabs v * (1 / vd) * vd) by (field; lra). rewrite Ev. clear Ev.
  set (s := Rabs v * (1 / vd)) in *.
  assert (G : Rabs (k - 1) * s <= 1).
  { destruct (Rlt_dec ke 1).
    - destruct (Rlt_dec 0 _) in H1; [| discriminate]. injection H1 as <-.
      replace ((ke + s) / (1 + s) - 1) with (- ((1 - ke) / (1 + s))) by (field; lra).
      rewrite Rabs_Ropp, Rabs_pos_eq by (apply Rmult_le_pos; [lra | apply Rlt_le, Rinv_0_lt_compat; lra]).
      apply (Rmult_le_reg_r (1 + s)); [lra |]. replace ((1 - ke) / (1 + s) * s * (1 + s)) with ((1 - ke) * s) by (field; lra). nra.
    - assert (Ik : 0 < 1 / ke <= 1).
      { split; [apply Rdiv_lt_0_compat; lra |]. apply (Rmult_le_reg_r ke); [lra |]. unfold Rdiv. rewrite Rmult_assoc, Rinv_l by lra. lra. }
      destruct (Rlt_dec 0 _) in H1; [| discriminate]. injection H1 as <-. set (q := 1 / ke) in *.
      replace ((1 + s) / (q + s) - 1) with ((1 - q) / (q + s)) by (field; lra).
      rewrite Rabs_pos_eq by (apply Rmult_le_pos; [lra | apply Rlt_le, Rinv_0_lt_compat; lra]).
      apply (Rmult_le_reg_r (q + s)); [lra |]. replace ((1 - q) / (q + s) * s * (q + s)) with ((1 - q) * s) by (field; lra). nra. }
  nra.
Qed.

Lemma aziz_rest : forall vd keq ceq T, 0 < vd ->
  (0 < keq -> aziz_cell vd keq ceq T 0 = Some keq) /\
  (forall cl cs, keq <= 0 -> ceq T = Some (cl, cs) -> 0 < cl -> 0 < cs -> aziz_cell vd keq ceq T 0 = Some (cs / cl)).
Proof.
  intros vd keq ceq T Hv.
  assert (H : forall ke, 0 < ke -> computeKeq keq ceq T = Some ke -> aziz_cell vd keq ceq T 0 = Some ke).
  { intros ke Hk E. unfold aziz_cell. rewrite E, Rabs_R0. cbv zeta. rewrite Rmult_0_l, !Rplus_0_r.
    destruct (Rlt_dec ke 1).
    - replace (ke / 1) with ke by field. destruct (Rlt_dec 0 ke); [reflexivity | contradiction].
    - replace (1 / (1 / ke)) with ke by (field; lra). destruct (Rlt_dec 0 ke); [reflexivity | contradiction]. }
  split.
  - intros Hk. apply H; auto. unfold computeKeq. destruct (Rlt_dec 0 keq); [reflexivity | contradiction].
  - intros cl cs Hk E Hl Hs. apply H; [apply Rdiv_lt_0_compat; auto |]. unfold computeKeq. rewrite E.
    destruct (Rlt_dec 0 keq); [lra | reflexivity].
Qed.

Lemma zeta_expansion : forall tref z0 z1 z2 T, 0 <= tref ->
  zetaFactor tref z0 z1 z2 tref = z0 /\
  derivable_pt_lim (fun t => zetaFactor tref z0 z1 z2 t) T (z1 + 2 * z2 * (T - tref)).
Proof.
  intros tref z0 z1 z2 T H.
  assert (E : forall t, zetaFactor tref z0 z1 z2 t = z0 + z1 * (t - tref) + z2 * (t - tref) * (t - tref)).
  { intros t. unfold zetaFactor. destruct (Rlt_dec tref 0); [lra | reflexivity]. }
  split; [rewrite E; ring |]. intros eps He.
  assert (Ha : 0 < Rabs z2 + 1) by (pose proof (Rabs_pos z2); lra).
  assert (Hd : 0 < eps / (Rabs z2 + 1)) by (apply Rdiv_lt_0_compat; auto).
  exists (mkposreal _ Hd). intros x Hx Hx'. cbn [pos] in Hx'. rewrite !E.
  replace (_ - _) with (z2 * x) by (field; auto). rewrite Rabs_mult.
  apply Rle_lt_trans with (Rabs z2 * (eps / (Rabs z2 + 1))).
  - apply Rmult_le_compat_l; [apply Rabs_pos | left; exact Hx'].
  - replace eps with ((Rabs z2 + 1) * (eps / (Rabs z2 + 1))) at 2 by (field; lra).
    apply Rmult_lt_compat_r; lra.
Qed.
