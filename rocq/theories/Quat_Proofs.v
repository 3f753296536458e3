From Coq Require Import Reals ZArith List Lra Lia Psatz Bool Ascii.
From Verif Require Import Quat_Model Quat_Spec.
Import ListNotations.
Open Scope R_scope.

Lemma q4_ext : forall p q, qa p = qa q -> qb p = qb q -> qc p = qc q -> qd p = qd q -> p = q.
Proof. intros [a b c d] [a' b' c' d']; cbn; intros -> -> -> ->; reflexivity. Qed.
Lemma q2_ext : forall p q, ca p = ca q -> cb p = cb q -> p = q.
Proof. intros [a b] [a' b']; cbn; intros -> ->; reflexivity. Qed.

(** ** quaternion algebra *)
Lemma mult4_assoc : forall p q r, quatmult4 (quatmult4 p q) r = quatmult4 p (quatmult4 q r).
Proof. intros p q r. apply q4_ext; cbn; ring. Qed.
Lemma mult4_one_l : forall q, quatmult4 (Q4 1 0 0 0) q = q.
Proof. intro q. apply q4_ext; cbn; ring. Qed.
Lemma mult4_one_r : forall q, quatmult4 q (Q4 1 0 0 0) = q.
Proof. intro q. apply q4_ext; cbn; ring. Qed.
Lemma magsq4_mult : forall p q, quatmagsq4 (quatmult4 p q) = quatmagsq4 p * quatmagsq4 q.
Proof. intros. unfold quatmagsq4; cbn. ring. Qed.
Lemma conj_inverse : forall q, unit4 q -> quatmult4 q (quatconj q) = Q4 1 0 0 0 /\ quatmult4 (quatconj q) q = Q4 1 0 0 0.
Proof. intros q H. unfold unit4 in H. split; apply q4_ext; cbn; nra. Qed.
Lemma hamilton :
  let i := Q4 0 1 0 0 in let j := Q4 0 0 1 0 in let k := Q4 0 0 0 1 in
  quatmult4 i i = Q4 (-1) 0 0 0 /\ quatmult4 j j = Q4 (-1) 0 0 0 /\ quatmult4 k k = Q4 (-1) 0 0 0 /\
  quatmult4 i j = k /\ quatmult4 j k = i /\ quatmult4 k i = j /\
  (forall s p q, quatmult4 (scale4 s p) q = scale4 s (quatmult4 p q) /\ quatmult4 p (scale4 s q) = scale4 s (quatmult4 p q)) /\
  (forall p q r, quatmult4 (add4 p q) r = add4 (quatmult4 p r) (quatmult4 q r) /\
                 quatmult4 r (add4 p q) = add4 (quatmult4 r p) (quatmult4 r q)).
Proof.
  cbv zeta. do 6 (split; [apply q4_ext; cbn; ring |]).
  split; intros; split; apply q4_ext; cbn; ring.
Qed.

(** ** normalisation *)
Lemma magsq4_nonneg : forall q, 0 <= quatmagsq4 q.
Proof. intro q. unfold quatmagsq4. nra. Qed.
Lemma magsq2_nonneg : forall q, 0 <= quatmagsq2 q.
Proof. intro q. unfold quatmagsq2. nra. Qed.
Lemma tiny_pos : 0 < tiny.
Proof. unfold tiny. apply Rinv_0_lt_compat. apply pow_lt. lra. Qed.
Lemma tiny_lt1 : tiny < 1.
Proof.
  unfold tiny. rewrite <- Rinv_1. apply Rinv_lt_contravar; [| apply Rlt_pow_R1; [lra | lia]].
  rewrite Rmult_1_l. apply pow_lt; lra.
Qed.

Lemma norm4_unit : forall q, tiny <= quatmagn4 q ->
  exists s, 0 < s /\ quatnorm4 q = scale4 s q /\ unit4 (quatnorm4 q).
Proof.
  intros q H. pose proof tiny_pos as Ht. pose proof (magsq4_nonneg q) as Hn.
  unfold quatnorm4, quatmaginv4. destruct (Rlt_dec (quatmagn4 q) tiny); [lra |].
  assert (E : quatmagn4 q * quatmagn4 q = quatmagsq4 q) by (unfold quatmagn4; apply sqrt_sqrt; auto).
  exists (1 / quatmagn4 q). split; [apply Rdiv_lt_0_compat; lra |]. split.
  - apply q4_ext; cbn; ring.
  - unfold unit4; cbn. unfold quatmagsq4 in E. set (m := quatmagn4 q) in *.
    replace (qa q * (1 / m) * (qa q * (1 / m) * 1) + qb q * (1 / m) * (qb q * (1 / m) * 1)
      + qc q * (1 / m) * (qc q * (1 / m) * 1) + qd q * (1 / m) * (qd q * (1 / m) * 1))
      with ((qa q * qa q + qb q * qb q + qc q * qc q + qd q * qd q) / (m * m)) by (field; lra).
    rewrite <- E. field. lra.
Qed.
Lemma norm4_zero : forall q, quatmagn4 q < tiny -> quatnorm4 q = Q4 0 0 0 0.
Proof.
  intros q H. unfold quatnorm4, quatmaginv4. destruct (Rlt_dec (quatmagn4 q) tiny); [| lra].
  apply q4_ext; cbn; ring.
Qed.
Lemma norm2_unit : forall q, tiny <= quatmagn2 q ->
  exists s, 0 < s /\ quatnorm2 q = scale2 s q /\ unit2 (quatnorm2 q).
Proof.
  intros q H. pose proof tiny_pos as Ht. pose proof (magsq2_nonneg q) as Hn.
  unfold quatnorm2, quatmaginv2. destruct (Rlt_dec (quatmagn2 q) tiny); [lra |].
  assert (E : quatmagn2 q * quatmagn2 q = quatmagsq2 q) by (unfold quatmagn2; apply sqrt_sqrt; auto).
  exists (1 / quatmagn2 q). split; [apply Rdiv_lt_0_compat; lra |]. split.
  - apply q2_ext; cbn; ring.
  - unfold unit2; cbn. unfold quatmagsq2 in E. set (m := quatmagn2 q) in *.
    replace (ca q * (1 / m) * (ca q * (1 / m) * 1) + cb q * (1 / m) * (cb q * (1 / m) * 1))
      with ((ca q * ca q + cb q * cb q) / (m * m)) by (field; lra).
    rewrite <- E. field. lra.
Qed.
Lemma norm2_zero : forall q, quatmagn2 q < tiny -> quatnorm2 q = Q2 0 0.
Proof.
  intros q H. unfold quatnorm2, quatmaginv2. destruct (Rlt_dec (quatmagn2 q) tiny); [| lra].
  apply q2_ext; cbn; ring.
Qed.

Lemma unit4_magsq : forall q, unit4 q -> quatmagsq4 q = 1.
Proof. intros q H. unfold unit4 in H. unfold quatmagsq4. lra. Qed.
Lemma unit2_magsq : forall q, unit2 q -> quatmagsq2 q = 1.
Proof. intros q H. unfold unit2 in H. unfold quatmagsq2. lra. Qed.
Lemma magsq_unit4 : forall q, quatmagsq4 q = 1 -> unit4 q.
Proof. intros q H. unfold quatmagsq4 in H. unfold unit4. lra. Qed.
Lemma magsq_unit2 : forall q, quatmagsq2 q = 1 -> unit2 q.
Proof. intros q H. unfold quatmagsq2 in H. unfold unit2. lra. Qed.
Lemma unit4_magn : forall q, unit4 q -> quatmagn4 q = 1.
Proof.
  intros q H. unfold quatmagn4. replace (quatmagsq4 q) with 1; [apply sqrt_1 |].
  unfold unit4 in H. unfold quatmagsq4. lra.
Qed.
Lemma unit2_magn : forall q, unit2 q -> quatmagn2 q = 1.
Proof.
  intros q H. unfold quatmagn2. replace (quatmagsq2 q) with 1; [apply sqrt_1 |].
  unfold unit2 in H. unfold quatmagsq2. lra.
Qed.
Lemma norm4_of_unit : forall q, unit4 q -> quatnorm4 q = q.
Proof.
  intros q H. unfold quatnorm4, quatmaginv4. rewrite (unit4_magn q H).
  pose proof tiny_lt1. destruct (Rlt_dec 1 tiny); [lra |]. apply q4_ext; cbn; field.
Qed.
Lemma norm2_of_unit : forall q, unit2 q -> quatnorm2 q = q.
Proof.
  intros q H. unfold quatnorm2, quatmaginv2. rewrite (unit2_magn q H).
  pose proof tiny_lt1. destruct (Rlt_dec 1 tiny); [lra |]. apply q2_ext; cbn; field.
Qed.

(** ** angles *)
Lemma Int_part_bounds : forall x, IZR (Int_part x) <= x < IZR (Int_part x) + 1.
Proof. intro x. pose proof (base_Int_part x) as [H1 H2]. lra. Qed.

Lemma fmod_nonneg : forall a p, 0 <= a -> 0 < p -> 0 <= fmod a p < p /\ exists k : Z, fmod a p = a + IZR k * p.
Proof.
  intros a p Ha Hp. unfold fmod, ftrunc.
  assert (Hq : 0 <= a / p) by (apply Rmult_le_pos; [auto | left; apply Rinv_0_lt_compat; auto]).
  destruct (Rle_dec 0 (a / p)); [| lra].
  pose proof (Int_part_bounds (a / p)) as [H1 H2]. set (k := Int_part (a / p)) in *.
  assert (E : a = a / p * p) by (field; lra).
  split; [split; nra |]. exists (- k)%Z. rewrite opp_IZR. ring.
Qed.
Lemma fmod_neg : forall a p, a < 0 -> 0 < p -> - p < fmod a p <= 0 /\ exists k : Z, fmod a p = a + IZR k * p.
Proof.
  intros a p Ha Hp. unfold fmod, ftrunc.
  assert (Hi : 0 < / p) by (apply Rinv_0_lt_compat; auto).
  assert (Hq : a / p < 0) by (unfold Rdiv; nra).
  destruct (Rle_dec 0 (a / p)); [lra |].
  pose proof (Int_part_bounds (- (a / p))) as [H1 H2]. set (k := Int_part (- (a / p))) in *.
  assert (E : a = a / p * p) by (field; lra).
  rewrite opp_IZR. split; [split; nra |]. exists k. ring.
Qed.

Lemma quatnorm1_ok : forall q, - PI <= quatnorm1 q <= PI /\ exists k : Z, quatnorm1 q = q + IZR k * (2 * PI).
Proof.
  intro q. pose proof PI_RGT_0 as Hpi. unfold quatnorm1. destruct (Rle_dec 0 q) as [H | H].
  - destruct (fmod_nonneg (q + PI) (2 * PI)) as (Hb & k & Ek); [lra | lra |].
    split; [lra |]. exists k. rewrite Ek. ring.
  - destruct (fmod_neg (q - PI) (2 * PI)) as (Hb & k & Ek); [lra | lra |].
    split; [lra |]. exists k. rewrite Ek. ring.
Qed.

(** ** the table *)
Definition zmul (p q : Z * Z * Z * Z) : Z * Z * Z * Z :=
  let '(a, b, c, d) := p in let '(e, f, g, h) := q in
  (a * e - b * f - c * g - d * h, a * f + b * e + c * h - d * g,
   a * g + c * e + d * f - b * h, a * h + d * e + b * g - c * f)%Z.
Definition zscale (s : Z) (p : Z * Z * Z * Z) : Z * Z * Z * Z :=
  let '(a, b, c, d) := p in (s * a, s * b, s * c, s * d)%Z.
Definition zn (p : Z * Z * Z * Z) : Z := let '(a, b, c, d) := p in (a * a + b * b + c * c + d * d)%Z.
Definition zdot (p q : Z * Z * Z * Z) : Z :=
  let '(a, b, c, d) := p in let '(e, f, g, h) := q in (a * e + b * f + c * g + d * h)%Z.
Definition zconj (p : Z * Z * Z * Z) : Z * Z * Z * Z := let '(a, b, c, d) := p in (a, - b, - c, - d)%Z.
Definition zeqb (p q : Z * Z * Z * Z) : bool :=
  let '(a, b, c, d) := p in let '(e, f, g, h) := q in ((a =? e) && (b =? f) && (c =? g) && (d =? h))%Z.
Definition q4_of (p : Z * Z * Z * Z) : q4 :=
  let '(a, b, c, d) := p in Q4 (IZR a) (IZR b) (IZR c) (IZR d).

Lemma zeqb_eq : forall p q, zeqb p q = true -> p = q.
Proof.
  intros [[[a b] c] d] [[[e f] g] h]; cbn. rewrite !andb_true_iff, !Z.eqb_eq.
  intros [[[-> ->] ->] ->]. reflexivity.
Qed.
Lemma q4_of_mul : forall p q, quatmult4 (q4_of p) (q4_of q) = q4_of (zmul p q).
Proof.
  intros [[[a b] c] d] [[[e f] g] h]; cbn. unfold quatmult4; cbn.
  rewrite ?minus_IZR, ?plus_IZR, ?minus_IZR, ?mult_IZR.
  apply q4_ext; cbn; rewrite ?minus_IZR, ?plus_IZR, ?minus_IZR, ?plus_IZR, ?mult_IZR; ring.
Qed.
Lemma q4_of_scale : forall s p, q4_of (zscale s p) = scale4 (IZR s) (q4_of p).
Proof. intros s [[[a b] c] d]; cbn. rewrite !mult_IZR. reflexivity. Qed.
Lemma q4_of_magsq : forall p, quatmagsq4 (q4_of p) = IZR (zn p).
Proof. intros [[[a b] c] d]; cbn. unfold quatmagsq4; cbn. rewrite !plus_IZR, !mult_IZR. reflexivity. Qed.

Definition zq (i : Z) : Z * Z * Z * Z := nth (Z.to_nat (i - 1)) qr_int (0, 0, 0, 0)%Z.
Definition all48 (f : Z -> bool) : bool := forallb f (map Z.of_nat (seq 1 48)).
Lemma all48_ok : forall f, all48 f = true -> forall i, in_table 48 i -> f i = true.
Proof.
  intros f H i Hi. unfold all48 in H. rewrite forallb_forall in H. apply H.
  apply in_map_iff. exists (Z.to_nat i). unfold in_table in Hi. split; [lia |]. apply in_seq. lia.
Qed.

Lemma zn_pos : forall i, in_table 48 i -> (0 < zn (zq i))%Z.
Proof.
  intros i Hi. apply Z.ltb_lt. apply (all48_ok (fun i => (0 <? zn (zq i))%Z)); [vm_compute; reflexivity | auto].
Qed.
Lemma zn_ge1 : forall i, in_table 48 i -> 1 <= IZR (zn (zq i)).
Proof. intros i Hi. apply IZR_le. pose proof (zn_pos i Hi). lia. Qed.

Arguments zq : simpl never.
Arguments zn : simpl never.
Arguments q4_of : simpl never.

Lemma qr4_scale : forall i, in_table 48 i -> qr4 i = scale4 (/ sqrt (IZR (zn (zq i)))) (q4_of (zq i)).
Proof.
  intros i Hi. pose proof (zn_ge1 i Hi) as Hn.
  assert (E : qr4 i = quatnorm4 (q4_of (zq i))).
  { unfold qr4, quatset, q4_of, zq. destruct (nth _ qr_int _) as [[[a b] c] d]. reflexivity. }
  rewrite E. unfold quatnorm4, quatmaginv4, quatmagn4. rewrite q4_of_magsq.
  assert (Hs : 1 <= sqrt (IZR (zn (zq i)))) by (rewrite <- sqrt_1; apply sqrt_le_1; lra).
  pose proof tiny_lt1. destruct (Rlt_dec _ tiny); [lra |].
  set (m := sqrt (IZR (zn (zq i)))) in *. set (w := q4_of (zq i)).
  apply q4_ext; cbn; field; lra.
Qed.

Lemma sqrt_pos_of : forall i, in_table 48 i -> 0 < sqrt (IZR (zn (zq i))).
Proof. intros i Hi. apply sqrt_lt_R0. pose proof (zn_ge1 i Hi). lra. Qed.

Lemma qr4_unit : forall i, in_table 48 i -> unit4 (qr4 i).
Proof.
  intros i Hi. rewrite (qr4_scale i Hi). pose proof (sqrt_pos_of i Hi) as Hs.
  pose proof (q4_of_magsq (zq i)) as E. unfold quatmagsq4 in E.
  assert (E2 : sqrt (IZR (zn (zq i))) * sqrt (IZR (zn (zq i))) = IZR (zn (zq i))).
  { apply sqrt_sqrt. pose proof (zn_ge1 i Hi). lra. }
  set (s := sqrt (IZR (zn (zq i)))) in *. set (w := q4_of (zq i)) in *.
  unfold unit4, scale4. cbn [qa qb qc qd].
  transitivity ((qa w * qa w + qb w * qb w + qc w * qc w + qd w * qd w) / (s * s)); [field; lra |].
  rewrite E, <- E2. field. lra.
Qed.

Definition mul_idx (i j : Z) : Z :=
  match find (fun k => let w := zmul (zq i) (zq j) in
                existsb (fun c => zeqb w (zscale c (zq k)) && (c * c * zn (zq k) =? zn (zq i) * zn (zq j))%Z)
                        [1; 2; 4]%Z) (map Z.of_nat (seq 1 48)) with
  | Some k => k | None => 0%Z end.
Definition mul_ok (i j : Z) : bool :=
  let k := mul_idx i j in
  ((1 <=? k) && (k <=? 48))%Z &&
  existsb (fun c => zeqb (zmul (zq i) (zq j)) (zscale c (zq k)) && (c * c * zn (zq k) =? zn (zq i) * zn (zq j))%Z)
          [1; 2; 4]%Z.

Lemma mul_table : forall i j, in_table 48 i -> in_table 48 j -> mul_ok i j = true.
Proof.
  intros i j Hi Hj.
  apply (all48_ok (fun j => mul_ok i j)); [| auto].
  apply (all48_ok (fun i => all48 (fun j => mul_ok i j))); [vm_compute; reflexivity | auto].
Qed.

Lemma sqrt_mult_int : forall a b c, (0 < a)%Z -> (0 < b)%Z -> (0 < c)%Z ->
  forall n, (0 < n)%Z -> (c * c * n = a * b)%Z ->
  / sqrt (IZR a) * / sqrt (IZR b) * IZR c = / sqrt (IZR n).
Proof.
  intros a b c Ha Hb Hc n Hn E.
  apply IZR_lt in Ha, Hb, Hc, Hn. apply (f_equal IZR) in E. rewrite !mult_IZR in E.
  rewrite <- Rinv_mult. rewrite <- sqrt_mult by lra. rewrite <- E.
  rewrite sqrt_mult; [| apply (Rle_0_sqr (IZR c)) | lra]. rewrite sqrt_square by lra.
  assert (0 < sqrt (IZR n)) by (apply sqrt_lt_R0; lra). field. lra.
Qed.

Lemma group_closed : forall i j, in_table 48 i -> in_table 48 j ->
  exists k, in_table 48 k /\ quatmult4 (qr4 i) (qr4 j) = qr4 k.
Proof.
  intros i j Hi Hj. pose proof (mul_table i j Hi Hj) as H. unfold mul_ok in H.
  set (k := mul_idx i j) in *. apply andb_true_iff in H. destruct H as [Hk H].
  apply andb_true_iff in Hk. destruct Hk as [Hk1 Hk2]. apply Z.leb_le in Hk1, Hk2.
  assert (Hk : in_table 48 k) by (split; auto). exists k. split; [auto |].
  apply existsb_exists in H. destruct H as (c & Hc & H). apply andb_true_iff in H. destruct H as [E1 E2].
  apply zeqb_eq in E1. apply Z.eqb_eq in E2.
  assert (Hcp : (0 < c)%Z) by (destruct Hc as [<- | [<- | [<- | []]]]; lia).
  rewrite (qr4_scale i Hi), (qr4_scale j Hj), (qr4_scale k Hk).
  pose proof (sqrt_mult_int _ _ c (zn_pos i Hi) (zn_pos j Hj) Hcp _ (zn_pos k Hk) E2) as Es.
  destruct hamilton as (_ & _ & _ & _ & _ & _ & Hsc & _). cbv zeta in Hsc.
  rewrite (proj1 (Hsc _ _ _)), (proj2 (Hsc _ _ _)), q4_of_mul, E1, q4_of_scale.
  apply q4_ext; cbn; rewrite <- Es; ring.
Qed.

Lemma conj4_range : forall i, in_table 48 i -> in_table 48 (conj4 i) /\ conj4 (conj4 i) = i /\ zconj (zq i) = zq (conj4 i).
Proof.
  intros i Hi.
  assert (H : ((1 <=? conj4 i) && (conj4 i <=? 48) && (conj4 (conj4 i) =? i))%Z && zeqb (zconj (zq i)) (zq (conj4 i)) = true).
  { apply (all48_ok (fun i => ((1 <=? conj4 i) && (conj4 i <=? 48) && (conj4 (conj4 i) =? i))%Z && zeqb (zconj (zq i)) (zq (conj4 i))));
      [vm_compute; reflexivity | auto]. }
  rewrite !andb_true_iff, !Z.leb_le, Z.eqb_eq in H. destruct H as [[[H1 H2] H3] H4].
  apply zeqb_eq in H4. repeat split; auto.
Qed.

Lemma conj4_is_conj : forall i, in_table 48 i -> qr4 (conj4 i) = quatconj (qr4 i).
Proof.
  intros i Hi. destruct (conj4_range i Hi) as (Hr & _ & E).
  rewrite (qr4_scale _ Hr), (qr4_scale i Hi), <- E.
  assert (En : zn (zconj (zq i)) = zn (zq i)) by (destruct (zq i) as [[[a b] c] d]; unfold zn, zconj; ring).
  rewrite En. destruct (zq i) as [[[a b] c] d]. unfold zn, q4_of.
  apply q4_ext; cbn; rewrite ?opp_IZR; ring.
Qed.

Lemma conj4_inverse : forall i, in_table 48 i ->
  quatmult4 (qr4 i) (qr4 (conj4 i)) = Q4 1 0 0 0 /\ quatmult4 (qr4 (conj4 i)) (qr4 i) = Q4 1 0 0 0.
Proof. intros i Hi. rewrite (conj4_is_conj i Hi). apply conj_inverse, qr4_unit; auto. Qed.

Lemma qr4_one : qr4 1 = Q4 1 0 0 0.
Proof.
  assert (H1 : in_table 48 1) by (unfold in_table; lia).
  rewrite (qr4_scale 1 H1). unfold zq, zn, q4_of. cbn. rewrite sqrt_1. apply q4_ext; cbn; field.
Qed.

(** inner products: distinct entries are at least pi/4 apart *)
Definition dot4 (p q : q4) : R := qa p * qa q + qb p * qb q + qc p * qc q + qd p * qd q.
Definition dot2 (p q : q2) : R := ca p * ca q + cb p * cb q.

Lemma q4_of_dot : forall p q, dot4 (q4_of p) (q4_of q) = IZR (zdot p q).
Proof.
  intros [[[a b] c] d] [[[e f] g] h]. unfold q4_of, dot4; cbn. rewrite !plus_IZR, !mult_IZR. reflexivity.
Qed.

Lemma dots_table : forall i j, in_table 48 i -> in_table 48 j -> i <> j ->
  (zdot (zq i) (zq j) <= 0 \/ 2 * (zdot (zq i) (zq j) * zdot (zq i) (zq j)) <= zn (zq i) * zn (zq j))%Z.
Proof.
  intros i j Hi Hj Hne.
  assert (H : ((i =? j) || (zdot (zq i) (zq j) <=? 0) ||
     (2 * (zdot (zq i) (zq j) * zdot (zq i) (zq j)) <=? zn (zq i) * zn (zq j)))%Z = true).
  { apply (all48_ok (fun j => ((i =? j) || (zdot (zq i) (zq j) <=? 0) ||
     (2 * (zdot (zq i) (zq j) * zdot (zq i) (zq j)) <=? zn (zq i) * zn (zq j)))%Z)); [| auto].
    apply (all48_ok (fun i => all48 (fun j => ((i =? j) || (zdot (zq i) (zq j) <=? 0) ||
     (2 * (zdot (zq i) (zq j) * zdot (zq i) (zq j)) <=? zn (zq i) * zn (zq j)))%Z))); [vm_compute; reflexivity | auto]. }
  rewrite !orb_true_iff, Z.eqb_eq, !Z.leb_le in H. destruct H as [[H | H] | H]; auto. contradiction.
Qed.

Lemma sq_le_sqrt : forall x c, 0 <= c -> x * x <= c * c -> x <= c.
Proof. intros. nra. Qed.

Lemma qr4_dots : forall i j, in_table 48 i -> in_table 48 j -> i <> j -> dot4 (qr4 i) (qr4 j) <= cos (PI / 4).
Proof.
  intros i j Hi Hj Hne. rewrite cos_PI4.
  assert (Hs2 : 0 < sqrt 2) by (apply sqrt_lt_R0; lra).
  assert (Hc : 0 < 1 / sqrt 2) by (apply Rdiv_lt_0_compat; lra).
  pose proof (sqrt_pos_of i Hi) as Hsi. pose proof (sqrt_pos_of j Hj) as Hsj.
  pose proof (zn_ge1 i Hi) as Hni. pose proof (zn_ge1 j Hj) as Hnj.
  assert (Qi : sqrt (IZR (zn (zq i))) * sqrt (IZR (zn (zq i))) = IZR (zn (zq i))) by (apply sqrt_sqrt; lra).
  assert (Qj : sqrt (IZR (zn (zq j))) * sqrt (IZR (zn (zq j))) = IZR (zn (zq j))) by (apply sqrt_sqrt; lra).
  rewrite (qr4_scale i Hi), (qr4_scale j Hj).
  set (si := sqrt (IZR (zn (zq i)))) in *. set (sj := sqrt (IZR (zn (zq j)))) in *.
  set (d := IZR (zdot (zq i) (zq j))).
  assert (Ed : dot4 (scale4 (/ si) (q4_of (zq i))) (scale4 (/ sj) (q4_of (zq j))) = d / (si * sj)).
  { unfold d. rewrite <- q4_of_dot. unfold dot4; cbn. field. lra. }
  rewrite Ed.
  assert (Hp : 0 < si * sj) by nra.
  destruct (dots_table i j Hi Hj Hne) as [H | H].
  - assert (d <= 0) by (apply (IZR_le _ 0); auto).
    apply Rle_trans with 0; [| lra]. unfold Rdiv. assert (0 < / (si * sj)) by (apply Rinv_0_lt_compat; auto). nra.
  - apply IZR_le in H. rewrite !mult_IZR in H. fold d in H.
    apply sq_le_sqrt; [lra |].
    replace (d / (si * sj) * (d / (si * sj))) with (d * d / ((si * si) * (sj * sj))) by (field; lra).
    replace (1 / sqrt 2 * (1 / sqrt 2)) with (/ 2) by (rewrite <- (sqrt_sqrt 2) at 1 by lra; field; lra).
    rewrite Qi, Qj. apply Rmult_le_reg_r with (IZR (zn (zq i)) * IZR (zn (zq j))); [nra |].
    replace (d * d / (IZR (zn (zq i)) * IZR (zn (zq j))) * (IZR (zn (zq i)) * IZR (zn (zq j)))) with (d * d) by (field; lra).
    lra.
Qed.

Lemma qr4_distinct : forall i j, in_table 48 i -> in_table 48 j -> qr4 i = qr4 j -> i = j.
Proof.
  intros i j Hi Hj E. destruct (Z.eq_dec i j) as [| Hne]; [auto |].
  pose proof (qr4_dots i j Hi Hj Hne) as H. rewrite E in H.
  pose proof (qr4_unit j Hj) as Hu. unfold unit4 in Hu. unfold dot4 in H.
  assert (cos (PI / 4) < 1).
  { rewrite <- cos_0. apply cos_decreasing_1; pose proof PI_RGT_0; lra. }
  nra.
Qed.

(** ** generic search *)
Definition separated {A} (N : Z) (cand : Z -> A) (dist : A -> R) (thr : R) : Prop :=
  forall i j, in_table N i -> in_table N j -> i <> j -> dist (cand i) <= thr -> dist (cand i) <= dist (cand j).

Lemma find_start_range : forall N conj iq, (1 <= N)%Z -> (forall i, in_table N i -> in_table N (conj i)) ->
  in_table N (find_start N conj iq).
Proof.
  intros N conj iq HN Hc. unfold find_start.
  destruct ((iq =? 0) || (N <? iq) || (iq <? - N))%bool%Z eqn:E.
  - cbn. unfold in_table. lia.
  - rewrite !orb_false_iff, Z.eqb_neq, !Z.ltb_ge in E. destruct E as [[E1 E2] E3].
    destruct (iq <? 0)%Z eqn:E4.
    + apply Z.ltb_lt in E4. apply Hc. unfold in_table. lia.
    + apply Z.ltb_ge in E4. unfold in_table. lia.
Qed.

Lemma find_loop_ok : forall A (N : Z) (cand : Z -> A) dist thr iq nns mn,
  separated N cand dist thr -> in_table N iq -> in_table N (fst mn) -> snd mn = cand (fst mn) ->
  (forall n, In n nns -> in_table N n) ->
  dist (snd mn) <= dist (cand iq) ->
  (forall n, in_table N n -> n <> iq -> ~ In n nns -> dist (snd mn) <= dist (cand n)) ->
  let r := find_loop cand dist thr iq nns mn in
  in_table N (fst r) /\ snd r = cand (fst r) /\ forall n, in_table N n -> dist (snd r) <= dist (cand n).
Proof.
  intros A N cand dist thr iq nns. induction nns as [| nn rest IH]; intros mn Hsep Hiq Hmn Emn Hin Hd Hrest.
  - cbn. split; [auto |]. split; [auto |]. intros n Hn.
    destruct (Z.eq_dec n iq) as [-> | Hne]; [auto |]. apply Hrest; auto.
  - cbn. destruct (nn =? iq)%Z eqn:E.
    + apply Z.eqb_eq in E. subst nn. apply IH; auto.
      * intros n Hn. apply Hin. right; auto.
      * intros n Hn Hne Hnin. apply Hrest; auto. intros [<- | C]; auto.
    + apply Z.eqb_neq in E.
      assert (Hnn : in_table N nn) by (apply Hin; left; auto).
      set (mn' := if Rlt_dec (dist (cand nn)) (dist (snd mn)) then (nn, cand nn) else mn).
      assert (Hmn' : in_table N (fst mn') /\ snd mn' = cand (fst mn') /\
                     dist (snd mn') <= dist (snd mn) /\ dist (snd mn') <= dist (cand nn)).
      { unfold mn'. destruct (Rlt_dec (dist (cand nn)) (dist (snd mn))); cbn; repeat split; auto; try lra; apply Hnn || apply Hmn || lra. }
      destruct Hmn' as (M1 & M2 & M3 & M4).
      destruct (Rle_dec (dist (cand nn)) thr) as [Ht | Ht].
      * split; [auto |]. split; [auto |]. intros n Hn.
        destruct (Z.eq_dec nn n) as [-> | Hne]; [auto |].
        apply Rle_trans with (dist (cand nn)); [auto |]. apply Hsep; auto.
      * apply IH; auto.
        -- intros n Hn. apply Hin. right; auto.
        -- lra.
        -- intros n Hn Hne Hnin. destruct (Z.eq_dec nn n) as [-> | Hne2]; [auto |].
           apply Rle_trans with (dist (snd mn)); [auto |]. apply Hrest; auto. intros [C | C]; auto.
Qed.

Lemma find_symm_ok : forall A (N : Z) conj (cand : Z -> A) dist thr iq,
  (1 <= N)%Z -> (forall i, in_table N i -> in_table N (conj i)) ->
  separated N cand dist thr ->
  let r := find_symm N conj cand dist thr iq in
  in_table N (fst r) /\ snd r = cand (fst r) /\ forall n, in_table N n -> dist (snd r) <= dist (cand n).
Proof.
  intros A N conj cand dist thr iq HN Hc Hsep. cbv zeta. unfold find_symm.
  pose proof (find_start_range N conj iq HN Hc) as Hi. set (i := find_start N conj iq) in *.
  destruct (Rle_dec (dist (cand i)) thr) as [Ht | Ht].
  - cbn. split; [auto |]. split; [auto |]. intros n Hn.
    destruct (Z.eq_dec i n) as [-> | Hne]; [lra |]. apply Hsep; auto.
  - apply (find_loop_ok A N cand dist thr i); auto.
    + intros n Hn. apply in_map_iff in Hn. destruct Hn as (m & <- & Hm). apply in_seq in Hm. unfold in_table. lia.
    + cbn. lra.
    + intros n Hn Hne Hnin. exfalso. apply Hnin. apply in_map_iff. exists (Z.to_nat n).
      unfold in_table in Hn. split; [lia | apply in_seq; lia].
Qed.

(** ** separation *)
Lemma cs4 : forall u w, dot4 u w * dot4 u w <= quatmagsq4 u * quatmagsq4 w.
Proof.
  intros u w. unfold dot4, quatmagsq4.
  assert (0 <= (qa u * qb w - qb u * qa w) ^ 2 + (qa u * qc w - qc u * qa w) ^ 2 + (qa u * qd w - qd u * qa w) ^ 2
    + (qb u * qc w - qc u * qb w) ^ 2 + (qb u * qd w - qd u * qb w) ^ 2 + (qc u * qd w - qd u * qc w) ^ 2).
  { repeat apply Rplus_le_le_0_compat; apply pow2_ge_0. }
  lra.
Qed.
Lemma cs2 : forall u w, dot2 u w * dot2 u w <= quatmagsq2 u * quatmagsq2 w.
Proof.
  intros u w. unfold dot2, quatmagsq2.
  assert (0 <= (ca u * cb w - cb u * ca w) ^ 2) by apply pow2_ge_0. lra.
Qed.

(** the geometric heart: if u.v >= cos t and v.w <= cos 2t then u.w <= u.v *)
Lemma closer : forall uv uw vw s2 t, 0 <= cos t -> cos t <= uv -> vw <= cos (2 * t) ->
  (uv + uw) * (uv + uw) <= s2 -> s2 = 2 + 2 * vw -> uw <= uv.
Proof.
  intros uv uw vw s2 t Hc Huv Hvw Hcs Hs.
  rewrite cos_2a_cos in Hvw.
  assert ((uv + uw) * (uv + uw) <= (2 * cos t) * (2 * cos t)) by nra.
  assert (uv + uw <= 2 * cos t) by (apply sq_le_sqrt; lra). lra.
Qed.

Lemma threshold : forall t, (2 * sin (t / 2)) * (2 * sin (t / 2)) = 2 - 2 * cos t.
Proof.
  intro t. replace (cos t) with (1 - 2 * sin (t / 2) * sin (t / 2)); [ring |].
  rewrite <- cos_2a_sin. f_equal. field.
Qed.

Lemma cand4_eq : forall q n, cand4 q n = quatmult4 q (qr4 n).
Proof.
  intros q n. unfold cand4. destruct (n =? 1)%Z eqn:E; [| reflexivity].
  apply Z.eqb_eq in E. subst n. rewrite qr4_one, mult4_one_r. reflexivity.
Qed.

Lemma magn4_cand : forall q n, in_table 48 n -> quatmagn4 (cand4 q n) = quatmagn4 q.
Proof.
  intros q n Hn. rewrite cand4_eq. unfold quatmagn4. rewrite magsq4_mult.
  rewrite (unit4_magsq _ (qr4_unit n Hn)), Rmult_1_r. reflexivity.
Qed.

Lemma norm4_mult : forall q n, in_table 48 n -> quatnorm4 (cand4 q n) = quatmult4 (quatnorm4 q) (qr4 n).
Proof.
  intros q n Hn. unfold quatnorm4, quatmaginv4. rewrite (magn4_cand q n Hn), cand4_eq.
  set (m := if Rlt_dec (quatmagn4 q) tiny then 0 else 1 / quatmagn4 q).
  apply q4_ext; cbn; ring.
Qed.

Lemma diffsq4_dot : forall p q, unit4 (quatnorm4 p) -> unit4 (quatnorm4 q) ->
  quatdiffsq4 p q = 2 - 2 * dot4 (quatnorm4 p) (quatnorm4 q).
Proof.
  intros p q Hp Hq. unfold quatdiffsq4, quatsub4, quatmagsq4, dot4; cbn [qa qb qc qd].
  unfold unit4 in *. lra.
Qed.

Lemma dot4_mult : forall q r s, unit4 q -> dot4 (quatmult4 q r) (quatmult4 q s) = dot4 r s.
Proof.
  intros q r s H. unfold unit4 in H.
  assert (E : dot4 (quatmult4 q r) (quatmult4 q s) = (qa q ^ 2 + qb q ^ 2 + qc q ^ 2 + qd q ^ 2) * dot4 r s)
    by (unfold dot4; cbn; ring).
  rewrite E, H. ring.
Qed.
Lemma unit4_mult : forall p q, unit4 p -> unit4 q -> unit4 (quatmult4 p q).
Proof.
  intros p q Hp Hq. apply magsq_unit4. rewrite magsq4_mult, !unit4_magsq by auto. ring.
Qed.

Lemma separated4 : forall p q,
  separated 48 (cand4 q) (quatdiffsq4 p) ((2 * sin (PI / 16)) * (2 * sin (PI / 16))).
Proof.
  intros p q i j Hi Hj Hne Ht.
  replace (PI / 16) with (PI / 8 / 2) in Ht by field. rewrite threshold in Ht.
  destruct (Rlt_dec (quatmagn4 q) tiny) as [Hq | Hq].
  { unfold quatdiffsq4. rewrite !(norm4_zero (cand4 q _)) by (rewrite magn4_cand; auto). lra. }
  destruct (norm4_unit q) as (s & _ & _ & Uq); [lra |].
  assert (Ui : unit4 (quatnorm4 (cand4 q i))) by (rewrite norm4_mult by auto; apply unit4_mult; [auto | apply qr4_unit; auto]).
  assert (Uj : unit4 (quatnorm4 (cand4 q j))) by (rewrite norm4_mult by auto; apply unit4_mult; [auto | apply qr4_unit; auto]).
  destruct (Rlt_dec (quatmagn4 p) tiny) as [Hp | Hp].
  { unfold quatdiffsq4. rewrite (norm4_zero p) by auto.
    unfold unit4 in Ui, Uj. unfold quatsub4, quatmagsq4; cbn [qa qb qc qd]. lra. }
  destruct (norm4_unit p) as (s' & _ & _ & Up); [lra |].
  rewrite diffsq4_dot in Ht by auto. rewrite !diffsq4_dot by auto.
  set (u := quatnorm4 p) in *. set (v := quatnorm4 (cand4 q i)) in *. set (w := quatnorm4 (cand4 q j)) in *.
  assert (Hvw : dot4 v w <= cos (2 * (PI / 8))).
  { unfold v, w. rewrite !norm4_mult by auto. rewrite dot4_mult by auto.
    replace (2 * (PI / 8)) with (PI / 4) by field. apply qr4_dots; auto. }
  assert (dot4 u w <= dot4 u v); [| lra].
  apply (closer _ _ (dot4 v w) (2 + 2 * dot4 v w) (PI / 8)); auto.
  - apply cos_ge_0; pose proof PI_RGT_0; lra.
  - lra.
  - pose proof (cs4 u (add4 v w)) as C.
    assert (E1 : dot4 u (add4 v w) = dot4 u v + dot4 u w) by (unfold dot4; cbn; ring).
    assert (E2 : quatmagsq4 u = 1) by (unfold unit4 in Up; unfold quatmagsq4; lra).
    assert (E3 : quatmagsq4 (add4 v w) = 2 + 2 * dot4 v w).
    { unfold unit4 in Ui, Uj. unfold quatmagsq4, dot4, add4; cbn [qa qb qc qd]. lra. }
    rewrite E1, E2, E3 in C. lra.
Qed.

Lemma findsymm4_ok : forall p q iq,
  let (i, q') := quatfindsymm4 p q iq in
  in_table 48 i /\ q' = quatmult4 q (qr4 i) /\
  forall n, in_table 48 n -> quatdiffsq4 p q' <= quatdiffsq4 p (quatmult4 q (qr4 n)).
Proof.
  intros p q iq.
  pose proof (find_symm_ok q4 48 conj4 (cand4 q) (quatdiffsq4 p) _ iq ltac:(lia)
    (fun i Hi => proj1 (conj4_range i Hi)) (separated4 p q)) as H.
  cbv zeta in H. fold (quatfindsymm4 p q iq) in H. destruct (quatfindsymm4 p q iq) as [i q'].
  cbn in H. destruct H as (H1 & H2 & H3). split; [auto |]. split; [rewrite <- cand4_eq; auto |].
  intros n Hn. rewrite <- cand4_eq. apply H3; auto.
Qed.

Lemma diffsq4_unit : forall p q, unit4 p -> unit4 q -> quatdiffsq4 p q = dist4 p q.
Proof.
  intros p q Hp Hq. unfold quatdiffsq4. rewrite !norm4_of_unit by auto.
  unfold quatmagsq4, quatsub4, dist4; cbn. ring.
Qed.

Lemma findsymm4_unit : forall p q iq, unit4 p -> unit4 q ->
  let (i, q') := quatfindsymm4 p q iq in
  in_table 48 i /\ q' = quatmult4 q (qr4 i) /\
  forall n, in_table 48 n -> dist4 p q' <= dist4 p (quatmult4 q (qr4 n)).
Proof.
  intros p q iq Hp Hq. pose proof (findsymm4_ok p q iq) as H.
  destruct (quatfindsymm4 p q iq) as [i q']. destruct H as (H1 & H2 & H3).
  split; [auto |]. split; [auto |]. intros n Hn.
  assert (U : forall m, in_table 48 m -> unit4 (quatmult4 q (qr4 m))) by (intros m Hm; apply unit4_mult; [auto | apply qr4_unit; auto]).
  specialize (H3 n Hn). rewrite H2 in H3 |- *. rewrite !diffsq4_unit in H3; auto.
Qed.

(** ** two components *)
Definition tab4 (i : Z) (H : in_table 4 i) : (i = 1 \/ i = 2 \/ i = 3 \/ i = 4)%Z.
Proof. unfold in_table in H. lia. Defined.

Lemma qr2_val : qr2 1 = Q2 1 0 /\ qr2 2 = Q2 0 1 /\ qr2 3 = Q2 (-1) 0 /\ qr2 4 = Q2 0 (-1).
Proof.
  assert (H : forall a b, (a * a + b * b = 1)%Z -> quatset2 (a, b) = Q2 (IZR a) (IZR b)).
  { intros a b E. unfold quatset2; cbn. apply norm2_of_unit. unfold unit2; cbn.
    apply (f_equal IZR) in E. rewrite plus_IZR, !mult_IZR in E. lra. }
  repeat split; unfold qr2; cbn; apply H; reflexivity.
Qed.

Lemma qr2_unit : forall i, in_table 4 i -> unit2 (qr2 i).
Proof.
  intros i Hi. destruct qr2_val as (E1 & E2 & E3 & E4).
  destruct (tab4 i Hi) as [-> | [-> | [-> | ->]]]; rewrite ?E1, ?E2, ?E3, ?E4; unfold unit2; cbn; ring.
Qed.
Lemma qr2_dots : forall i j, in_table 4 i -> in_table 4 j -> i <> j -> dot2 (qr2 i) (qr2 j) <= 0.
Proof.
  intros i j Hi Hj Hne. destruct qr2_val as (E1 & E2 & E3 & E4).
  destruct (tab4 i Hi) as [-> | [-> | [-> | ->]]]; destruct (tab4 j Hj) as [-> | [-> | [-> | ->]]];
    try lia; rewrite ?E1, ?E2, ?E3, ?E4; unfold dot2; cbn; lra.
Qed.
Lemma conj2_range : forall i, in_table 4 i -> in_table 4 (conj2 i) /\ conj2 (conj2 i) = i.
Proof.
  intros i Hi. destruct (tab4 i Hi) as [-> | [-> | [-> | ->]]]; (split; [split; vm_compute; discriminate | reflexivity]).
Qed.
Lemma conj2_inverse : forall i, in_table 4 i -> quatmult2 (qr2 i) (qr2 (conj2 i)) = Q2 1 0.
Proof.
  intros i Hi. destruct qr2_val as (E1 & E2 & E3 & E4).
  destruct (tab4 i Hi) as [-> | [-> | [-> | ->]]];
    [change (conj2 1) with 1%Z | change (conj2 2) with 4%Z | change (conj2 3) with 3%Z | change (conj2 4) with 2%Z];
    rewrite ?E1, ?E2, ?E3, ?E4; apply q2_ext; cbn; ring.
Qed.
Lemma cand2_eq : forall q n, cand2 q n = quatmult2 q (qr2 n).
Proof.
  intros q n. unfold cand2. destruct (n =? 1)%Z eqn:E; [| reflexivity].
  apply Z.eqb_eq in E. subst n. destruct qr2_val as (E1 & _). rewrite E1. apply q2_ext; cbn; ring.
Qed.
Lemma magsq2_mult : forall p q, quatmagsq2 (quatmult2 p q) = quatmagsq2 p * quatmagsq2 q.
Proof. intros. unfold quatmagsq2; cbn. ring. Qed.
Lemma magn2_cand : forall q n, in_table 4 n -> quatmagn2 (cand2 q n) = quatmagn2 q.
Proof.
  intros q n Hn. rewrite cand2_eq. unfold quatmagn2. rewrite magsq2_mult.
  rewrite (unit2_magsq _ (qr2_unit n Hn)), Rmult_1_r. reflexivity.
Qed.
Lemma norm2_mult : forall q n, in_table 4 n -> quatnorm2 (cand2 q n) = quatmult2 (quatnorm2 q) (qr2 n).
Proof.
  intros q n Hn. unfold quatnorm2, quatmaginv2. rewrite (magn2_cand q n Hn), cand2_eq.
  set (m := if Rlt_dec (quatmagn2 q) tiny then 0 else 1 / quatmagn2 q).
  apply q2_ext; cbn; ring.
Qed.
Lemma diffsq2_dot : forall p q, unit2 (quatnorm2 p) -> unit2 (quatnorm2 q) ->
  quatdiffsq2 p q = 2 - 2 * dot2 (quatnorm2 p) (quatnorm2 q).
Proof.
  intros p q Hp Hq. unfold quatdiffsq2, quatsub2, quatmagsq2, dot2; cbn [ca cb].
  unfold unit2 in *. lra.
Qed.
Lemma dot2_mult : forall q r s, unit2 q -> dot2 (quatmult2 q r) (quatmult2 q s) = dot2 r s.
Proof.
  intros q r s H. unfold unit2 in H.
  assert (E : dot2 (quatmult2 q r) (quatmult2 q s) = (ca q ^ 2 + cb q ^ 2) * dot2 r s) by (unfold dot2; cbn; ring).
  rewrite E, H. ring.
Qed.
Lemma unit2_mult : forall p q, unit2 p -> unit2 q -> unit2 (quatmult2 p q).
Proof.
  intros p q Hp Hq. apply magsq_unit2. rewrite magsq2_mult, !unit2_magsq by auto. ring.
Qed.

Lemma separated2 : forall p q,
  separated 4 (cand2 q) (quatdiffsq2 p) ((2 * sin (PI / 8)) * (2 * sin (PI / 8))).
Proof.
  intros p q i j Hi Hj Hne Ht.
  replace (PI / 8) with (PI / 4 / 2) in Ht by field. rewrite threshold in Ht.
  destruct (Rlt_dec (quatmagn2 q) tiny) as [Hq | Hq].
  { unfold quatdiffsq2. rewrite !(norm2_zero (cand2 q _)) by (rewrite magn2_cand; auto). lra. }
  destruct (norm2_unit q) as (s & _ & _ & Uq); [lra |].
  assert (Ui : unit2 (quatnorm2 (cand2 q i))) by (rewrite norm2_mult by auto; apply unit2_mult; [auto | apply qr2_unit; auto]).
  assert (Uj : unit2 (quatnorm2 (cand2 q j))) by (rewrite norm2_mult by auto; apply unit2_mult; [auto | apply qr2_unit; auto]).
  destruct (Rlt_dec (quatmagn2 p) tiny) as [Hp | Hp].
  { unfold quatdiffsq2. rewrite (norm2_zero p) by auto.
    unfold unit2 in Ui, Uj. unfold quatsub2, quatmagsq2; cbn [ca cb]. lra. }
  destruct (norm2_unit p) as (s' & _ & _ & Up); [lra |].
  rewrite diffsq2_dot in Ht by auto. rewrite !diffsq2_dot by auto.
  set (u := quatnorm2 p) in *. set (v := quatnorm2 (cand2 q i)) in *. set (w := quatnorm2 (cand2 q j)) in *.
  assert (Hvw : dot2 v w <= cos (2 * (PI / 4))).
  { unfold v, w. rewrite !norm2_mult by auto. rewrite dot2_mult by auto.
    replace (2 * (PI / 4)) with (PI / 2) by field. rewrite cos_PI2. apply qr2_dots; auto. }
  assert (dot2 u w <= dot2 u v); [| lra].
  apply (closer _ _ (dot2 v w) (2 + 2 * dot2 v w) (PI / 4)); auto.
  - apply cos_ge_0; pose proof PI_RGT_0; lra.
  - lra.
  - pose proof (cs2 u (Q2 (ca v + ca w) (cb v + cb w))) as C.
    assert (E1 : dot2 u (Q2 (ca v + ca w) (cb v + cb w)) = dot2 u v + dot2 u w) by (unfold dot2; cbn; ring).
    assert (E2 : quatmagsq2 u = 1) by (unfold unit2 in Up; unfold quatmagsq2; lra).
    assert (E3 : quatmagsq2 (Q2 (ca v + ca w) (cb v + cb w)) = 2 + 2 * dot2 v w).
    { unfold unit2 in Ui, Uj. unfold quatmagsq2, dot2; cbn [ca cb]. lra. }
    rewrite E1, E2, E3 in C. lra.
Qed.

Lemma findsymm2_ok : forall p q iq,
  let (i, q') := quatfindsymm2 p q iq in
  in_table 4 i /\ q' = quatmult2 q (qr2 i) /\
  forall n, in_table 4 n -> quatdiffsq2 p q' <= quatdiffsq2 p (quatmult2 q (qr2 n)).
Proof.
  intros p q iq.
  pose proof (find_symm_ok q2 4 conj2 (cand2 q) (quatdiffsq2 p) _ iq ltac:(lia)
    (fun i Hi => proj1 (conj2_range i Hi)) (separated2 p q)) as H.
  cbv zeta in H. fold (quatfindsymm2 p q iq) in H. destruct (quatfindsymm2 p q iq) as [i q'].
  cbn in H. destruct H as (H1 & H2 & H3). split; [auto |]. split; [rewrite <- cand2_eq; auto |].
  intros n Hn. rewrite <- cand2_eq. apply H3; auto.
Qed.
Lemma findsymm2_unit : forall p q iq, unit2 p -> unit2 q ->
  let (i, q') := quatfindsymm2 p q iq in
  in_table 4 i /\ q' = quatmult2 q (qr2 i) /\
  forall n, in_table 4 n -> dist2 p q' <= dist2 p (quatmult2 q (qr2 n)).
Proof.
  intros p q iq Hp Hq. pose proof (findsymm2_ok p q iq) as H.
  destruct (quatfindsymm2 p q iq) as [i q']. destruct H as (H1 & H2 & H3).
  split; [auto |]. split; [auto |]. intros n Hn.
  assert (U : forall m, in_table 4 m -> unit2 (quatmult2 q (qr2 m))) by (intros m Hm; apply unit2_mult; [auto | apply qr2_unit; auto]).
  assert (D : forall q, unit2 q -> quatdiffsq2 p q = dist2 p q).
  { intros r Hr. unfold quatdiffsq2. rewrite !norm2_of_unit by auto. unfold quatmagsq2, quatsub2, dist2; cbn. ring. }
  specialize (H3 n Hn). rewrite H2 in H3 |- *. rewrite !D in H3; auto.
Qed.

(** ** one component *)
Definition tab9 (i : Z) (H : in_table 9 i) :
  (i = 1 \/ i = 2 \/ i = 3 \/ i = 4 \/ i = 5 \/ i = 6 \/ i = 7 \/ i = 8 \/ i = 9)%Z.
Proof. unfold in_table in H. lia. Defined.
Ltac cases9 i H := destruct (tab9 i H) as [-> | [-> | [-> | [-> | [-> | [-> | [-> | [-> | ->]]]]]]]].

Lemma qr1_val : qr1 1 = 0 /\ qr1 2 = 1 / 2 * PI /\ qr1 3 = - (1 / 2 * PI) /\ qr1 4 = PI /\ qr1 5 = - PI /\
  qr1 6 = 3 / 2 * PI /\ qr1 7 = - (3 / 2 * PI) /\ qr1 8 = 2 * PI /\ qr1 9 = - (2 * PI).
Proof. do 8 (split; [reflexivity |]). reflexivity. Qed.

Lemma qr1_multiple : forall i, in_table 9 i -> exists k : Z, qr1 i = IZR k * (PI / 2) /\
  k = nth (Z.to_nat (i - 1)) [0; 1; -1; 2; -2; 3; -3; 4; -4]%Z 0%Z.
Proof.
  intros i H. eexists. split; [| reflexivity].
  destruct qr1_val as (V1 & V2 & V3 & V4 & V5 & V6 & V7 & V8 & V9).
  cases9 i H; rewrite ?V1, ?V2, ?V3, ?V4, ?V5, ?V6, ?V7, ?V8, ?V9; vm_compute nth; field.
Qed.
Lemma qr1_apart : forall i j, in_table 9 i -> in_table 9 j -> i <> j -> PI / 2 <= Rabs (qr1 i - qr1 j).
Proof.
  intros i j Hi Hj Hne. pose proof PI_RGT_0 as Hp.
  destruct (qr1_multiple i Hi) as (k & Ek & Vk). destruct (qr1_multiple j Hj) as (l & El & Vl).
  assert (Hkl : k <> l).
  { subst k l. cases9 i Hi; cases9 j Hj; vm_compute; try discriminate; lia. }
  rewrite Ek, El. replace (IZR k * (PI / 2) - IZR l * (PI / 2)) with (IZR (k - l) * (PI / 2)) by (rewrite minus_IZR; ring).
  rewrite Rabs_mult, (Rabs_pos_eq (PI / 2)) by lra.
  assert (1 <= Rabs (IZR (k - l))).
  { rewrite <- abs_IZR. apply IZR_le. lia. }
  nra.
Qed.
Lemma conj1_range : forall i, in_table 9 i -> in_table 9 (conj1 i) /\ conj1 (conj1 i) = i /\ qr1 (conj1 i) = - qr1 i.
Proof.
  intros i Hi. destruct qr1_val as (V1 & V2 & V3 & V4 & V5 & V6 & V7 & V8 & V9).
  cases9 i Hi; (split; [split; vm_compute; discriminate |]); (split; [reflexivity |]);
    [change (conj1 1) with 1%Z | change (conj1 2) with 3%Z | change (conj1 3) with 2%Z | change (conj1 4) with 5%Z
    | change (conj1 5) with 4%Z | change (conj1 6) with 7%Z | change (conj1 7) with 6%Z | change (conj1 8) with 9%Z
    | change (conj1 9) with 8%Z]; rewrite ?V1, ?V2, ?V3, ?V4, ?V5, ?V6, ?V7, ?V8, ?V9; ring.
Qed.
Lemma cand1_eq : forall q n, cand1 q n = q + qr1 n.
Proof.
  intros q n. unfold cand1. destruct (n =? 1)%Z eqn:E; [| reflexivity].
  apply Z.eqb_eq in E. subst n. destruct qr1_val as (V1 & _). rewrite V1. ring.
Qed.
Lemma separated1 : forall p q, separated 9 (cand1 q) (quatdiffabs1 p) (1 / 4 * PI).
Proof.
  intros p q i j Hi Hj Hne Ht. unfold quatdiffabs1 in *. rewrite !cand1_eq in *.
  pose proof (qr1_apart i j Hi Hj Hne) as H.
  replace (qr1 i - qr1 j) with ((q + qr1 i - p) - (q + qr1 j - p)) in H by ring.
  pose proof (Rabs_triang (q + qr1 i - p) (- (q + qr1 j - p))) as T. rewrite Rabs_Ropp in T.
  unfold Rminus at 1 in H. lra.
Qed.
Lemma findsymm1_ok : forall p q iq,
  let (i, q') := quatfindsymm1 p q iq in
  in_table 9 i /\ q' = q + qr1 i /\
  forall n, in_table 9 n -> Rabs (q' - p) <= Rabs (q + qr1 n - p).
Proof.
  intros p q iq.
  pose proof (find_symm_ok R 9 conj1 (cand1 q) (quatdiffabs1 p) _ iq ltac:(lia)
    (fun i Hi => proj1 (conj1_range i Hi)) (separated1 p q)) as H.
  cbv zeta in H. fold (quatfindsymm1 p q iq) in H. destruct (quatfindsymm1 p q iq) as [i q'].
  cbn in H. destruct H as (H1 & H2 & H3). split; [auto |]. split; [rewrite <- cand1_eq; auto |].
  intros n Hn. specialize (H3 n Hn). unfold quatdiffabs1 in H3. rewrite <- (cand1_eq q n). auto.
Qed.
(** for angles in [-pi,pi] the result is within pi/4 *)
Lemma findsymm1_close : forall p q iq, - PI <= p <= PI -> - PI <= q <= PI ->
  Rabs (snd (quatfindsymm1 p q iq) - p) <= PI / 4.
Proof.
  intros p q iq Hp Hq. pose proof (findsymm1_ok p q iq) as H.
  destruct (quatfindsymm1 p q iq) as [i q']. destruct H as (_ & _ & H). cbn.
  pose proof PI_RGT_0 as Hpi.
  assert (Hk : exists n, in_table 9 n /\ Rabs (q + qr1 n - p) <= PI / 4).
  { pose proof qr1_val as V.
    destruct V as (V1 & V2 & V3 & V4 & V5 & V6 & V7 & V8 & V9).
    assert (I : forall n, (1 <= n <= 9)%Z -> in_table 9 n) by (intros; auto).
    set (d := p - q).
    destruct (Rle_dec d (-7 / 4 * PI)); [exists 9%Z; split; [apply I; lia |]; rewrite V9; unfold d in *; apply Rabs_le; lra |].
    destruct (Rle_dec d (-5 / 4 * PI)); [exists 7%Z; split; [apply I; lia |]; rewrite V7; unfold d in *; apply Rabs_le; lra |].
    destruct (Rle_dec d (-3 / 4 * PI)); [exists 5%Z; split; [apply I; lia |]; rewrite V5; unfold d in *; apply Rabs_le; lra |].
    destruct (Rle_dec d (-1 / 4 * PI)); [exists 3%Z; split; [apply I; lia |]; rewrite V3; unfold d in *; apply Rabs_le; lra |].
    destruct (Rle_dec d (1 / 4 * PI)); [exists 1%Z; split; [apply I; lia |]; rewrite V1; unfold d in *; apply Rabs_le; lra |].
    destruct (Rle_dec d (3 / 4 * PI)); [exists 2%Z; split; [apply I; lia |]; rewrite V2; unfold d in *; apply Rabs_le; lra |].
    destruct (Rle_dec d (5 / 4 * PI)); [exists 4%Z; split; [apply I; lia |]; rewrite V4; unfold d in *; apply Rabs_le; lra |].
    destruct (Rle_dec d (7 / 4 * PI)); [exists 6%Z; split; [apply I; lia |]; rewrite V6; unfold d in *; apply Rabs_le; lra |].
    exists 8%Z; split; [apply I; lia |]; rewrite V8; unfold d in *; apply Rabs_le; lra. }
  destruct Hk as (n & Hn & Hle). apply Rle_trans with (1 := H n Hn). auto.
Qed.

(** ** symmrotate *)
Lemma rot_index_pos : forall N conj i, in_table N i -> rot_index N conj i = Some i.
Proof.
  intros N conj i Hi. unfold in_table in Hi. unfold rot_index.
  destruct ((i =? 0) || (N <? i) || (i <? - N))%bool%Z eqn:E.
  - rewrite !orb_true_iff, Z.eqb_eq, !Z.ltb_lt in E. lia.
  - destruct (i <? 0)%Z eqn:E2; [apply Z.ltb_lt in E2; lia | reflexivity].
Qed.
Lemma rot_index_neg : forall N conj i, in_table N i -> rot_index N conj (- i) = Some (conj i).
Proof.
  intros N conj i Hi. unfold in_table in Hi. unfold rot_index.
  destruct ((- i =? 0) || (N <? - i) || (- i <? - N))%bool%Z eqn:E.
  - rewrite !orb_true_iff, Z.eqb_eq, !Z.ltb_lt in E. lia.
  - destruct (- i <? 0)%Z eqn:E2; [rewrite Z.opp_involutive; reflexivity | apply Z.ltb_ge in E2; lia].
Qed.
Lemma rot_index_none : forall N conj i, rot_index N conj i = None <-> (i = 0 \/ i > N \/ i < - N)%Z.
Proof.
  intros N conj i. unfold rot_index.
  destruct ((i =? 0) || (N <? i) || (i <? - N))%bool%Z eqn:E.
  - rewrite !orb_true_iff, Z.eqb_eq, !Z.ltb_lt in E. split; [intros _; lia | reflexivity].
  - rewrite !orb_false_iff, Z.eqb_neq, !Z.ltb_ge in E. split; [discriminate | lia].
Qed.

Lemma rotate4_roundtrip : forall q i, in_table 48 i ->
  exists q', quatsymmrotate4 q i = Some (i, q') /\ quatsymmrotate4 q' (- i) = Some (conj4 i, q) /\
    quatmagsq4 q' = quatmagsq4 q.
Proof.
  intros q i Hi. exists (cand4 q i). unfold quatsymmrotate4.
  rewrite rot_index_pos, rot_index_neg by auto. split; [reflexivity |].
  rewrite !cand4_eq, mult4_assoc. rewrite (proj1 (conj4_inverse i Hi)), mult4_one_r. split; [reflexivity |].
  rewrite magsq4_mult. rewrite (unit4_magsq _ (qr4_unit i Hi)). ring.
Qed.
Lemma rotate4_isometry : forall p q i j p' q', quatsymmrotate4 p i = Some (j, p') -> quatsymmrotate4 q i = Some (j, q') ->
  dist4 p' q' = dist4 p q.
Proof.
  intros p q i j p' q' Hp Hq. unfold quatsymmrotate4 in *.
  destruct (rot_index 48 conj4 i) as [k |] eqn:E; [| discriminate].
  assert (Hk : in_table 48 k).
  { unfold rot_index in E. destruct ((i =? 0) || (48 <? i) || (i <? - (48)))%bool%Z eqn:E1; [discriminate |].
    rewrite !orb_false_iff, Z.eqb_neq, !Z.ltb_ge in E1. injection E as <-.
    destruct (i <? 0)%Z eqn:E2; [apply Z.ltb_lt in E2 | apply Z.ltb_ge in E2].
    - apply conj4_range. unfold in_table; lia.
    - unfold in_table; lia. }
  injection Hp as _ <-. injection Hq as _ <-. rewrite !cand4_eq.
  assert (E2 : dist4 (quatmult4 p (qr4 k)) (quatmult4 q (qr4 k)) = dist4 p q * quatmagsq4 (qr4 k))
    by (unfold dist4, quatmagsq4; cbn; ring).
  rewrite E2, (unit4_magsq _ (qr4_unit k Hk)). ring.
Qed.
Lemma rotate_reject : forall p r x i,
  (quatsymmrotate4 p i = None <-> i = 0 \/ i > 48 \/ i < -48)%Z /\
  (quatsymmrotate2 r i = None <-> i = 0 \/ i > 4 \/ i < -4)%Z /\
  (quatsymmrotate1 x i = None <-> i = 0 \/ i > 9 \/ i < -9)%Z.
Proof.
  intros p r x i. unfold quatsymmrotate4, quatsymmrotate2, quatsymmrotate1.
  pose proof (rot_index_none 48 conj4 i) as H4. pose proof (rot_index_none 4 conj2 i) as H2.
  pose proof (rot_index_none 9 conj1 i) as H1. cbn in H4, H2, H1.
  destruct (rot_index 48 conj4 i), (rot_index 4 conj2 i), (rot_index 9 conj1 i);
    (split; [| split]); (etransitivity; [| eassumption]); split; congruence.
Qed.
Lemma rotate2_roundtrip : forall q i, in_table 4 i ->
  exists q', quatsymmrotate2 q i = Some (i, q') /\ quatsymmrotate2 q' (- i) = Some (conj2 i, q) /\
    quatmagsq2 q' = quatmagsq2 q.
Proof.
  intros q i Hi. exists (cand2 q i). unfold quatsymmrotate2.
  rewrite rot_index_pos, rot_index_neg by auto. split; [reflexivity |].
  rewrite !cand2_eq.
  assert (Ea : quatmult2 (quatmult2 q (qr2 i)) (qr2 (conj2 i)) = quatmult2 q (quatmult2 (qr2 i) (qr2 (conj2 i))))
    by (apply q2_ext; cbn; ring).
  rewrite Ea, (conj2_inverse i Hi). split.
  - do 2 f_equal. apply q2_ext; cbn; ring.
  - rewrite magsq2_mult. rewrite (unit2_magsq _ (qr2_unit i Hi)). ring.
Qed.
Lemma rotate1_roundtrip : forall q i, in_table 9 i ->
  exists q', quatsymmrotate1 q i = Some (i, q') /\ quatsymmrotate1 q' (- i) = Some (conj1 i, q) /\
    exists k : Z, q' - q = IZR k * (PI / 2).
Proof.
  intros q i Hi. exists (q + qr1 i). unfold quatsymmrotate1.
  rewrite rot_index_pos, rot_index_neg by auto. split; [reflexivity |].
  destruct (conj1_range i Hi) as (_ & _ & E). rewrite E. split; [do 2 f_equal; ring |].
  destruct (qr1_multiple i Hi) as (k & Ek & _). exists k. rewrite <- Ek. ring.
Qed.

(** ** rotation matrices *)
Ltac cases3 i H := let H' := fresh in assert (H' : (i = 1 \/ i = 2 \/ i = 3)%Z) by (unfold idx3 in H; lia);
  destruct H' as [-> | [-> | ->]].

Lemma rot_general : forall q i j, idx3 i -> idx3 j ->
  mmul (quatrotationmatrix q) (transpose (quatrotationmatrix q)) i j = quatmagsq4 q ^ 2 * delta i j.
Proof.
  intros q i j Hi Hj. cases3 i Hi; cases3 j Hj; unfold mmul, transpose, delta, quatmagsq4; cbn; ring.
Qed.
Lemma rot_det : forall q, det3 (quatrotationmatrix q) = quatmagsq4 q ^ 3.
Proof. intro q. unfold det3, quatmagsq4; cbn. ring. Qed.


Lemma rot_proper : forall q, unit4 q -> proper_rotation (quatrotationmatrix q).
Proof.
  intros q H. apply unit4_magsq in H. split.
  - intros i j Hi Hj. rewrite rot_general, H by auto. ring.
  - rewrite rot_det, H. ring.
Qed.
Lemma rot_hom : forall p q i j, idx3 i -> idx3 j ->
  quatrotationmatrix (quatmult4 p q) i j = mmul (quatrotationmatrix p) (quatrotationmatrix q) i j.
Proof.
  intros p q i j Hi Hj. cases3 i Hi; cases3 j Hj; unfold mmul; cbn; ring.
Qed.
Lemma rot_even : forall q i j, quatrotationmatrix (scale4 (-1) q) i j = quatrotationmatrix q i j.
Proof.
  intros q i j. unfold quatrotationmatrix; cbn -[Z.eqb].
  destruct i as [| [[p | p |] | [p | p |] |] | p]; destruct j as [| [[r | r |] | [r | r |] |] | r]; try reflexivity; ring.
Qed.
Lemma rot_conj : forall q i j, quatrotationmatrix (quatconj q) i j = transpose (quatrotationmatrix q) i j.
Proof.
  intros q i j. unfold transpose, quatrotationmatrix; cbn -[Z.eqb].
  destruct i as [| [[p | p |] | [p | p |] |] | p]; destruct j as [| [[r | r |] | [r | r |] |] | r]; try reflexivity; ring.
Qed.
Lemma crot_proper : forall q, unit2 q -> proper_rotation (complexrotationmatrix q).
Proof.
  intros q H. unfold unit2 in H. split.
  - intros i j Hi Hj. cases3 i Hi; cases3 j Hj; unfold mmul, transpose, delta; cbn; nra.
  - unfold det3; cbn. nra.
Qed.
Lemma crot_hom : forall p q i j, idx3 i -> idx3 j ->
  complexrotationmatrix (quatmult2 p q) i j = mmul (complexrotationmatrix p) (complexrotationmatrix q) i j.
Proof.
  intros p q i j Hi Hj. cases3 i Hi; cases3 j Hj; unfold mmul; cbn; ring.
Qed.

(** ** cubic tensor *)
Definition zrot (v : Z * Z * Z * Z) (i j : Z) : Z :=
  let '(a, b, c, d) := v in
  match i, j with
  | 1, 1 => a * a + b * b - c * c - d * d | 2, 1 => 2 * (a * d + b * c) | 3, 1 => 2 * (b * d - a * c)
  | 1, 2 => 2 * (b * c - a * d) | 2, 2 => a * a - b * b + c * c - d * d | 3, 2 => 2 * (a * b + c * d)
  | 1, 3 => 2 * (a * c + b * d) | 2, 3 => 2 * (c * d - a * b) | 3, 3 => a * a - b * b - c * c + d * d
  | _, _ => 0
  end%Z.
Lemma zrot_ok : forall v i j, idx3 i -> idx3 j -> quatrotationmatrix (q4_of v) i j = IZR (zrot v i j).
Proof.
  intros [[[a b] c] d] i j Hi Hj. unfold q4_of, zrot. cases3 i Hi; cases3 j Hj;
    lazy beta iota delta [quatrotationmatrix qa qb qc qd];
    repeat (rewrite mult_IZR || rewrite plus_IZR || rewrite minus_IZR); ring.
Qed.
(** entries of the rotation of table entry i, divided by the norm *)
Definition sgn_perm (i : Z) : list Z :=
  map (fun rc => (zrot (zq i) (fst rc) (snd rc) / zn (zq i))%Z)
    [(1, 1); (1, 2); (1, 3); (2, 1); (2, 2); (2, 3); (3, 1); (3, 2); (3, 3)]%Z.
Definition perms : list (list Z) :=
  nodup (list_eq_dec Z.eq_dec) (map sgn_perm (map Z.of_nat (seq 1 48))).
Definition perms_val := Eval vm_compute in perms.

Lemma rot_scale : forall s q i j, quatrotationmatrix (scale4 s q) i j = s * s * quatrotationmatrix q i j.
Proof.
  intros s q i j. unfold quatrotationmatrix; cbn -[Z.eqb].
  destruct i as [| [[p | p |] | [p | p |] |] | p]; destruct j as [| [[r | r |] | [r | r |] |] | r];
    try reflexivity; try ring.
Qed.

Definition pick (l : list Z) (i j : Z) : Z := nth (Z.to_nat (3 * (i - 1) + (j - 1))) l 0%Z.

Lemma table_rot : forall n, in_table 48 n ->
  exists l, In l perms_val /\ forall i j, idx3 i -> idx3 j -> quatrotationmatrix (qr4 n) i j = IZR (pick l i j).
Proof.
  intros n Hn. exists (sgn_perm n). split.
  - assert (H : existsb (fun l => if list_eq_dec Z.eq_dec (sgn_perm n) l then true else false) perms_val = true).
    { apply (all48_ok (fun n => existsb (fun l => if list_eq_dec Z.eq_dec (sgn_perm n) l then true else false) perms_val));
        [vm_compute; reflexivity | auto]. }
    apply existsb_exists in H. destruct H as (l & Hl & E).
    destruct (list_eq_dec Z.eq_dec (sgn_perm n) l) as [-> |]; [auto | discriminate].
  - intros i j Hi Hj. rewrite (qr4_scale n Hn), rot_scale.
    pose proof (zn_ge1 n Hn) as Hz. pose proof (sqrt_pos_of n Hn) as Hs.
    rewrite <- Rinv_mult, sqrt_sqrt by lra. rewrite zrot_ok by auto.
    assert (E : (zrot (zq n) i j = zn (zq n) * pick (sgn_perm n) i j)%Z).
    { assert (Hall : forall rc, In rc [(1, 1); (1, 2); (1, 3); (2, 1); (2, 2); (2, 3); (3, 1); (3, 2); (3, 3)]%Z ->
         (zrot (zq n) (fst rc) (snd rc) =? zn (zq n) * pick (sgn_perm n) (fst rc) (snd rc))%Z = true).
      { apply forallb_forall.
        apply (all48_ok (fun n => forallb (fun rc => (zrot (zq n) (fst rc) (snd rc) =? zn (zq n) * pick (sgn_perm n) (fst rc) (snd rc))%Z)
           [(1, 1); (1, 2); (1, 3); (2, 1); (2, 2); (2, 3); (3, 1); (3, 2); (3, 3)]%Z)); [vm_compute; reflexivity | auto]. }
      apply Z.eqb_eq. apply (Hall (i, j)).
      cases3 i Hi; cases3 j Hj; cbn; tauto. }
    rewrite E, mult_IZR. field. lra.
Qed.

Lemma cubic_tensor_invariant : forall q n i j k l, in_table 48 n -> idx3 i -> idx3 j -> idx3 k -> idx3 l ->
  rotationtensorijkl (quatrotationmatrix (quatmult4 q (qr4 n))) i j k l =
  rotationtensorijkl (quatrotationmatrix q) i j k l.
Proof.
  intros q n i j k l Hn Hi Hj Hk Hl. unfold rotationtensorijkl.
  destruct (table_rot n Hn) as (p & Hp & Ep).
  assert (I1 : idx3 1) by (unfold idx3; lia). assert (I2 : idx3 2) by (unfold idx3; lia).
  assert (I3 : idx3 3) by (unfold idx3; lia).
  rewrite !rot_hom by auto. unfold mmul. rewrite !Ep by auto.
  set (M := quatrotationmatrix q). generalize dependent M. intro M. clear Ep.
  assert (G : forall l0, In l0 perms_val -> forall a1 a2 a3 b1 b2 b3 c1 c2 c3 d1 d2 d3 : R,
    let f x1 x2 x3 m := x1 * IZR (pick l0 1 m) + x2 * IZR (pick l0 2 m) + x3 * IZR (pick l0 3 m) in
    f a1 a2 a3 1%Z * f b1 b2 b3 1%Z * f c1 c2 c3 1%Z * f d1 d2 d3 1%Z +
    f a1 a2 a3 2%Z * f b1 b2 b3 2%Z * f c1 c2 c3 2%Z * f d1 d2 d3 2%Z +
    f a1 a2 a3 3%Z * f b1 b2 b3 3%Z * f c1 c2 c3 3%Z * f d1 d2 d3 3%Z =
    a1 * b1 * c1 * d1 + a2 * b2 * c2 * d2 + a3 * b3 * c3 * d3).
  { clear. intros l0 Hin. cbv zeta. unfold perms_val in Hin. cbn in Hin.
    repeat (destruct Hin as [<- | Hin]; [intros; repeat match goal with |- context [pick ?l ?i ?j] =>
      let v := eval vm_compute in (pick l i j) in change (pick l i j) with v end; ring |]). destruct Hin. }
  apply (G p Hp).
Qed.

Lemma cubic_tensor_symmetric : forall M i j k l,
  rotationtensorijkl M i j k l = rotationtensorijkl M j i k l /\
  rotationtensorijkl M i j k l = rotationtensorijkl M i k j l /\
  rotationtensorijkl M i j k l = rotationtensorijkl M i j l k.
Proof. intros. unfold rotationtensorijkl. repeat split; ring. Qed.
