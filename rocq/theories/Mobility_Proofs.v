(** Proofs about mobilities and composition dependent diffusion. *)
From Coq Require Import Reals ZArith String List Bool Ascii Lra Lia Psatz.
From Verif Require Import Grid_Model Grid_Spec Grid_Proofs Functions_Model PhaseFlow_Model PhaseFlow_Spec PhaseFlow_Proofs Stencils_Model Stencils_Proofs
  Diffusion_Model Diffusion_Spec Diffusion_Proofs Mobility_Model Mobility_Spec.
Import ListNotations.
Open Scope R_scope.
Set Bullet Behavior "Strict Subproofs".

(** * Reading *)
Lemma keyA : qkey "A" = "qA"%string. Proof. reflexivity. Qed.
Lemma keyB : qkey "B" = "qB"%string. Proof. reflexivity. Qed.
Lemma keyC : qkey "C" = "qC"%string. Proof. reflexivity. Qed.
Lemma keyD : qkey "D" = "qD"%string. Proof. reflexivity. Qed.
Lemma key0AB : qqkey 0 "A" "B" = "q0AB"%string. Proof. reflexivity. Qed.
Lemma key1AB : qqkey 1 "A" "B" = "q1AB"%string. Proof. reflexivity. Qed.
Lemma key2AB : qqkey 2 "A" "B" = "q2AB"%string. Proof. reflexivity. Qed.
Lemma key3AB : qqkey 3 "A" "B" = "q3AB"%string. Proof. reflexivity. Qed.
Lemma key0AC : qqkey 0 "A" "C" = "q0AC"%string. Proof. reflexivity. Qed.
Lemma key1AC : qqkey 1 "A" "C" = "q1AC"%string. Proof. reflexivity. Qed.
Lemma key2AC : qqkey 2 "A" "C" = "q2AC"%string. Proof. reflexivity. Qed.
Lemma key3AC : qqkey 3 "A" "C" = "q3AC"%string. Proof. reflexivity. Qed.
Lemma key0BC : qqkey 0 "B" "C" = "q0BC"%string. Proof. reflexivity. Qed.
Lemma key1BC : qqkey 1 "B" "C" = "q1BC"%string. Proof. reflexivity. Qed.
Lemma key2BC : qqkey 2 "B" "C" = "q2BC"%string. Proof. reflexivity. Qed.
Lemma key3BC : qqkey 3 "B" "C" = "q3BC"%string. Proof. reflexivity. Qed.

(** what has been read of one species *)
Definition holds (m : mobility) (i : nat) (t : term) : Prop :=
  (i < nsp m)%nat /\ mq m i = fst t /\ match mextra m with None => snd t = None | Some e => e i = match snd t with Some x => x | None => (0, 0) end end.
Definition reads (m : mobility) (k i j : nat) (o : option (R * R)) : Prop := (i < nsp m)%nat /\ (j < nsp m)%nat /\ mqq m k i j = given o.

Lemma read_one : forall db n c t s, db (qkey c) = Some (entry t) -> (index_map c < n)%nat ->
  read_q db n c s = Some (set1 (fst s) (index_map c) (fst t),
    match snd t with None => snd s | Some e => Some (set1 (match snd s with Some x => x | None => fun _ => (0, 0) end) (index_map c) e) end).
Proof.
  intros db n c [[a b] [[e f] |]] s E H; unfold read_q; rewrite E; apply Nat.ltb_lt in H; rewrite H; reflexivity.
Qed.
Lemma read_none : forall db n c s, db (qkey c) = None -> read_q db n c s = Some s.
Proof. intros db n c s E. unfold read_q. rewrite E. reflexivity. Qed.
Lemma read_pair1 : forall db n k c d r s o, db (qqkey k c d) = option_map pair_entry o -> (index_map c < n)%nat -> (index_map d < n)%nat ->
  read_pairs db n k ((c, d) :: r) s = read_pairs db n k r (set1 s (index_map c) (set1 (s (index_map c)) (index_map d) (given o))).
Proof.
  intros db n k c d r s o E Hc Hd. cbn [read_pairs]. apply Nat.ltb_lt in Hc. apply Nat.ltb_lt in Hd. rewrite Hc, Hd, E. destruct o as [[a b] |]; reflexivity.
Qed.
Lemma read_nil : forall db n k s, read_pairs db n k [] s = Some s.
Proof. reflexivity. Qed.
Lemma init2 : forall db a b L, two_species db a b L -> exists m, initialize db = Some m /\ nsp m = 2%nat /\ holds m 0 a /\ holds m 1 b /\
  forall k, (k <= 3)%nat -> reads m k 0 1 (L k).
Proof.
  intros db a b L (HA & HB & HC & HD & H0 & H1 & H2 & H3).
  assert (N : count_species db = 2%nat).
  { unfold count_species, letters. cbn [filter]. rewrite keyA, keyB, keyC, keyD, HA, HB, HC, HD. reflexivity. }
  unfold initialize. rewrite N. cbn [letters read_all].
  rewrite (read_one db 2 "A" a) by (rewrite ?keyA; auto; cbn; lia). cbn [bind]. rewrite (read_one db 2 "B" b) by (rewrite ?keyB; auto; cbn; lia). cbn [bind].
  rewrite (read_none db 2 "C") by (rewrite keyC; auto). cbn [bind]. rewrite (read_none db 2 "D") by (rewrite keyD; auto). cbn [bind pairs_of Nat.ltb Nat.leb].
  rewrite (read_pair1 db 2 0 "A" "B" _ _ (L 0%nat)) by (rewrite ?key0AB; auto; cbn; lia). rewrite read_nil; cbn [bind].
  rewrite (read_pair1 db 2 1 "A" "B" _ _ (L 1%nat)) by (rewrite ?key1AB; auto; cbn; lia). rewrite read_nil; cbn [bind].
  rewrite (read_pair1 db 2 2 "A" "B" _ _ (L 2%nat)) by (rewrite ?key2AB; auto; cbn; lia). rewrite read_nil; cbn [bind].
  rewrite (read_pair1 db 2 3 "A" "B" _ _ (L 3%nat)) by (rewrite ?key3AB; auto; cbn; lia). rewrite read_nil; cbn [bind].
  eexists. split; [reflexivity |]. split; [reflexivity |]. unfold holds, reads. cbn [nsp mq mextra mqq].
  split; [| split].
  - split; [lia |]. split; [reflexivity |]. destruct (snd a), (snd b); reflexivity.
  - split; [lia |]. split; [reflexivity |]. destruct (snd a), (snd b); reflexivity.
  - intros k Hk. split; [lia |]. split; [lia |]. destruct k as [| [| [| [| k]]]]; try lia; reflexivity.
Qed.
Lemma init3 : forall db a b c AB AC BC, three_species db a b c AB AC BC -> exists m, initialize db = Some m /\ nsp m = 3%nat /\ holds m 0 a /\ holds m 1 b /\ holds m 2 c /\
  forall k, (k <= 3)%nat -> reads m k 0 1 (AB k) /\ reads m k 0 2 (AC k) /\ reads m k 1 2 (BC k).
Proof.
  intros db a b c AB AC BC (HA & HB & HC & HD & H0 & H1 & H2 & H3 & I0 & I1 & I2 & I3 & J0 & J1 & J2 & J3).
  assert (N : count_species db = 3%nat).
  { unfold count_species, letters. cbn [filter]. rewrite keyA, keyB, keyC, keyD, HA, HB, HC, HD. reflexivity. }
  unfold initialize. rewrite N. cbn [letters read_all].
  rewrite (read_one db 3 "A" a) by (rewrite ?keyA; auto; cbn; lia). cbn [bind]. rewrite (read_one db 3 "B" b) by (rewrite ?keyB; auto; cbn; lia). cbn [bind].
  rewrite (read_one db 3 "C" c) by (rewrite ?keyC; auto; cbn; lia). cbn [bind]. rewrite (read_none db 3 "D") by (rewrite keyD; auto).
  cbn [bind pairs_of Nat.ltb Nat.leb].
  rewrite (read_pair1 db 3 0 "A" "B" _ _ (AB 0%nat)) by (rewrite ?key0AB; auto; cbn; lia).
  rewrite (read_pair1 db 3 0 "A" "C" _ _ (AC 0%nat)) by (rewrite ?key0AC; auto; cbn; lia).
  rewrite (read_pair1 db 3 0 "B" "C" _ _ (BC 0%nat)) by (rewrite ?key0BC; auto; cbn; lia). rewrite read_nil; cbn [bind].
  rewrite (read_pair1 db 3 1 "A" "B" _ _ (AB 1%nat)) by (rewrite ?key1AB; auto; cbn; lia).
  rewrite (read_pair1 db 3 1 "A" "C" _ _ (AC 1%nat)) by (rewrite ?key1AC; auto; cbn; lia).
  rewrite (read_pair1 db 3 1 "B" "C" _ _ (BC 1%nat)) by (rewrite ?key1BC; auto; cbn; lia). rewrite read_nil; cbn [bind].
  rewrite (read_pair1 db 3 2 "A" "B" _ _ (AB 2%nat)) by (rewrite ?key2AB; auto; cbn; lia).
  rewrite (read_pair1 db 3 2 "A" "C" _ _ (AC 2%nat)) by (rewrite ?key2AC; auto; cbn; lia).
  rewrite (read_pair1 db 3 2 "B" "C" _ _ (BC 2%nat)) by (rewrite ?key2BC; auto; cbn; lia). rewrite read_nil; cbn [bind].
  rewrite (read_pair1 db 3 3 "A" "B" _ _ (AB 3%nat)) by (rewrite ?key3AB; auto; cbn; lia).
  rewrite (read_pair1 db 3 3 "A" "C" _ _ (AC 3%nat)) by (rewrite ?key3AC; auto; cbn; lia).
  rewrite (read_pair1 db 3 3 "B" "C" _ _ (BC 3%nat)) by (rewrite ?key3BC; auto; cbn; lia). rewrite read_nil; cbn [bind].
  eexists. split; [reflexivity |]. split; [reflexivity |]. unfold holds, reads. cbn [nsp mq mextra mqq].
  split; [| split; [| split]].
  - split; [lia |]. split; [reflexivity |]. destruct (snd a), (snd b), (snd c); reflexivity.
  - split; [lia |]. split; [reflexivity |]. destruct (snd a), (snd b), (snd c); reflexivity.
  - split; [lia |]. split; [reflexivity |]. destruct (snd a), (snd b), (snd c); reflexivity.
  - intros k Hk. repeat split; try lia; destruct k as [| [| [| [| k]]]]; try lia; reflexivity.
Qed.

(** * Atomic mobilities *)
Lemma linear_some : forall gasR T a, good_pair a -> linear_T gasR T a = Some (linear gasR T a).
Proof. intros gasR T a H. unfold linear_T, good_pair in *. destruct (Rlt_dec 0 (snd a)); [reflexivity | contradiction]. Qed.
Lemma getQ_some : forall gasR m i t T, holds m i t -> good t -> getQ gasR m i T = Some (barrier gasR T t).
Proof.
  intros gasR m i t T (Hi & Hq & He) G. unfold getQ. apply Nat.ltb_lt in Hi. rewrite Hi, Hq, linear_some by exact G. cbn [bind].
  unfold barrier. destruct (mextra m) as [e |].
  - rewrite He. destruct (snd t) as [x |]; [reflexivity |]. cbn [fst snd]. f_equal. unfold Rdiv. ring.
  - rewrite He. f_equal. ring.
Qed.
Lemma given_good : forall L k, good_terms L -> (k <= 3)%nat -> good_pair (given (L k)).
Proof. intros L k G H. unfold given. destruct (L k) as [a |] eqn:E; [exact (G k a H E) | unfold good_pair; cbn; lra]. Qed.
Lemma getQQ_some : forall gasR m k i j L T, reads m k i j (L k) -> good_terms L -> (k <= 3)%nat ->
  getQQ gasR m k i j T = Some (linear gasR T (given (L k))).
Proof.
  intros gasR m k i j L T (Hi & Hj & E) G H. unfold getQQ. apply Nat.ltb_lt in Hi. apply Nat.ltb_lt in Hj. rewrite Hi, Hj, E. cbn [andb].
  apply linear_some. apply given_good; assumption.
Qed.
Lemma unit_yes : forall c, 0 <= c <= 1 -> unit_range c = true.
Proof. intros c H. unfold unit_range. destruct (Rle_dec 0 c); [| lra]. destruct (Rle_dec c 1); [reflexivity | lra]. Qed.
Lemma unit_no : forall c, c < 0 \/ 1 < c -> unit_range c = false.
Proof. intros c H. unfold unit_range. destruct (Rle_dec 0 c); [| reflexivity]. destruct (Rle_dec c 1); [lra | reflexivity]. Qed.
Lemma unit_spec : forall c, unit_range c = true -> 0 <= c <= 1.
Proof. intros c. unfold unit_range. destruct (Rle_dec 0 c); [| discriminate]. destruct (Rle_dec c 1); [lra | discriminate]. Qed.

Lemma binary_value : forall gasR db a b L, two_species db a b L -> good a -> good b -> good_terms L -> 0 < gasR ->
  exists m, initialize db = Some m /\ forall T x, 0 < T -> 0 <= x <= 1 ->
    getAtomicMobility2 gasR m x (1 - x) T = Some (exp (binary_barrier gasR T a b L x / (gasR * T)) / (gasR * T)).
Proof.
  intros gasR db a b L D Ga Gb GL HR. destruct (init2 db a b L D) as (m & E & N & A & B & P). exists m. split; [exact E |].
  intros T x HT Hx. unfold getAtomicMobility2. destruct (Rlt_dec 0 T); [| contradiction].
  rewrite !unit_yes by lra. cbn [andb]. unfold getDeltaG2.
  rewrite (getQ_some gasR m 0 a T A Ga), (getQ_some gasR m 1 b T B Gb). cbn [bind].
  rewrite !(getQQ_some gasR m _ 0 1 L T) by (auto; try (apply P; lia); lia). cbn [bind]. f_equal. unfold from_dG. cbv zeta.
  unfold Rdiv. rewrite Rmult_1_l. f_equal. f_equal. f_equal. unfold binary_barrier, interaction. cbn [sum_f_R0 pow]. ring.
Qed.

Lemma ternary_value : forall gasR db a b c AB AC BC, three_species db a b c AB AC BC -> good a -> good b -> good c ->
  good_terms AB -> good_terms AC -> good_terms BC -> 0 < gasR ->
  exists m, initialize db = Some m /\ forall T x y z, 0 < T ->
    getAtomicMobility3 gasR m x y z T = Some (exp (ternary_barrier gasR T a b c AB AC BC 1 x y z / (gasR * T)) / (gasR * T)).
Proof.
  intros gasR db a b c AB AC BC D Ga Gb Gc G1 G2 G3 HR. destruct (init3 db a b c AB AC BC D) as (m & E & N & A & B & C & P). exists m. split; [exact E |].
  intros T x y z HT. unfold getAtomicMobility3. destruct (Rlt_dec 0 T); [| contradiction]. unfold getDeltaG3.
  rewrite (getQ_some gasR m 0 a T A Ga), (getQ_some gasR m 1 b T B Gb), (getQ_some gasR m 2 c T C Gc). cbn [bind].
  rewrite !(getQQ_some gasR m _ 0 1 AB T) by (auto; try (apply P; lia); lia). cbn [bind].
  rewrite !(getQQ_some gasR m _ 0 2 AC T) by (auto; try (apply P; lia); lia). cbn [bind].
  rewrite !(getQQ_some gasR m _ 1 2 BC T) by (auto; try (apply P; lia); lia). cbn [bind]. f_equal. unfold from_dG. cbv zeta.
  unfold Rdiv. rewrite Rmult_1_l. f_equal. f_equal. f_equal. unfold ternary_barrier, interaction. cbn [sum_f_R0 pow]. ring.
Qed.

Lemma from_pos : forall gasR T dG, 0 < gasR -> 0 < T -> 0 < from_dG gasR T dG.
Proof. intros. unfold from_dG. cbv zeta. apply Rmult_lt_0_compat; [apply exp_pos |]. apply Rdiv_lt_0_compat; [lra | apply Rmult_lt_0_compat; assumption]. Qed.
(** a mobility that can be computed is positive *)
Lemma mobility_positive : forall gasR m c0 c1 c2 T v, 0 < gasR ->
  getAtomicMobility2 gasR m c0 c1 T = Some v \/ getAtomicMobility3 gasR m c0 c1 c2 T = Some v -> 0 < v.
Proof.
  intros gasR m c0 c1 c2 T v HR [E | E]; [unfold getAtomicMobility2 in E | unfold getAtomicMobility3 in E]; destruct (Rlt_dec 0 T); try discriminate.
  - destruct (unit_range c0 && unit_range c1)%bool; [| discriminate]. destruct (getDeltaG2 gasR m c0 c1 T); [| discriminate].
    cbn [bind] in E. injection E as <-. apply from_pos; assumption.
  - destruct (getDeltaG3 gasR m c0 c1 c2 T); [| discriminate]. cbn [bind] in E. injection E as <-. apply from_pos; assumption.
Qed.

(** in a pure element the tracer diffusivity follows Arrhenius' law *)
Lemma exp_linear : forall gasR T a e, 0 < gasR -> 0 < T -> good_pair a ->
  exp ((linear gasR T a + e) / (gasR * T)) = snd a * exp (fst a / (gasR * T)) * exp (e / (gasR * T)).
Proof.
  intros gasR T a e HR HT G. unfold linear.
  replace ((fst a + gasR * T * ln (snd a) + e) / (gasR * T)) with (ln (snd a) + fst a / (gasR * T) + e / (gasR * T)) by (field; lra).
  rewrite !exp_plus, exp_ln by exact G. reflexivity.
Qed.
Lemma pure_value : forall gasR T t, 0 < gasR -> 0 < T -> good t -> exp (barrier gasR T t / (gasR * T)) = pure_law gasR T t.
Proof.
  intros gasR T t HR HT G. unfold barrier, pure_law. rewrite exp_linear by assumption. unfold rate.
  replace (- (- fst (fst t) / (gasR * T))) with (fst (fst t) / (gasR * T)) by (unfold Rdiv; ring). f_equal.
  destruct (snd t) as [[e f] |]; cbn [fst snd].
  - f_equal. field. lra.
  - unfold Rdiv. rewrite Rmult_0_l. apply exp_0.
Qed.
Lemma tracer_of : forall gasR T v, 0 < gasR -> 0 < T -> tracer gasR T (v / (gasR * T)) = v.
Proof. intros. unfold tracer. field. lra. Qed.
Lemma pure_binary : forall gasR db a b L, two_species db a b L -> good a -> good b -> good_terms L -> 0 < gasR ->
  exists m, initialize db = Some m /\ forall T, 0 < T ->
    (exists v, getAtomicMobility2 gasR m 1 0 T = Some v /\ tracer gasR T v = pure_law gasR T a) /\
    (exists v, getAtomicMobility2 gasR m 0 1 T = Some v /\ tracer gasR T v = pure_law gasR T b).
Proof.
  intros gasR db a b L D Ga Gb GL HR. destruct (binary_value gasR db a b L D Ga Gb GL HR) as (m & E & V). exists m. split; [exact E |].
  intros T HT. split.
  - pose proof (V T 1 HT ltac:(lra)) as H. replace (1 - 1) with 0 in H by ring. eexists. split; [exact H |]. rewrite tracer_of by assumption.
    rewrite <- (pure_value gasR T a HR HT Ga). f_equal. f_equal. unfold binary_barrier, interaction. ring.
  - pose proof (V T 0 HT ltac:(lra)) as H. replace (1 - 0) with 1 in H by ring. eexists. split; [exact H |]. rewrite tracer_of by assumption.
    rewrite <- (pure_value gasR T b HR HT Gb). f_equal. f_equal. unfold binary_barrier, interaction. ring.
Qed.

(** names of the species do not matter *)
Lemma linear_opposite : forall gasR T a, good_pair a -> linear gasR T (opposite a) = - linear gasR T a.
Proof. intros gasR T a G. unfold linear, opposite. cbn [fst snd]. rewrite ln_Rinv by exact G. ring. Qed.
Lemma given_opposite : forall gasR T o, (forall a, o = Some a -> good_pair a) -> linear gasR T (given (option_map opposite o)) = - linear gasR T (given o).
Proof.
  intros gasR T [a |] G; cbn [option_map given].
  - apply linear_opposite. apply G. reflexivity.
  - unfold linear. cbn [fst snd]. rewrite ln_1. ring.
Qed.
Lemma exchange_value : forall gasR db db' a b L, two_species db a b L -> two_species db' b a (exchanged L) -> good a -> good b -> good_terms L -> 0 < gasR ->
  exists m m', initialize db = Some m /\ initialize db' = Some m' /\ forall T x, 0 < T -> 0 <= x <= 1 ->
    exists v, getAtomicMobility2 gasR m x (1 - x) T = Some v /\ getAtomicMobility2 gasR m' (1 - x) x T = Some v.
Proof.
  intros gasR db db' a b L D D' Ga Gb GL HR. destruct (binary_value gasR db a b L D Ga Gb GL HR) as (m & E & V).
  assert (GL' : good_terms (exchanged L)).
  { intros k p Hk Ep. unfold exchanged in Ep. destruct (Nat.even k); [exact (GL k p Hk Ep) |].
    destruct (L k) as [q |] eqn:Eq; [| discriminate]. cbn [option_map] in Ep. injection Ep as <-. unfold good_pair, opposite. cbn [snd].
    apply Rinv_0_lt_compat. exact (GL k q Hk Eq). }
  destruct (binary_value gasR db' b a _ D' Gb Ga GL' HR) as (m' & E' & V').
  exists m, m'. split; [exact E |]. split; [exact E' |]. intros T x HT Hx. eexists. split; [apply V; assumption |].
  pose proof (V' T (1 - x) HT ltac:(lra)) as H. replace (1 - (1 - x)) with x in H by ring. rewrite H. f_equal. f_equal. f_equal. f_equal.
  unfold binary_barrier, interaction. cbn [sum_f_R0 pow]. unfold exchanged. cbn [Nat.even].
  rewrite !given_opposite by (intros p Ep; refine (GL _ p _ Ep); lia). ring.
Qed.

(** * Binary data seen as ternary data *)
Lemma edge_value : forall gasR db db3 a b c AB AC BC, two_species db a b AB -> three_species db3 a b c AB AC BC -> good a -> good b -> good c ->
  good_terms AB -> good_terms AC -> good_terms BC -> 0 < gasR ->
  (forall k, (2 <= k <= 3)%nat -> AB k = None \/ AB k = Some (0, 1)) ->
  exists m m3, initialize db = Some m /\ initialize db3 = Some m3 /\ forall T x, 0 < T -> 0 <= x <= 1 ->
    exists v, getAtomicMobility2 gasR m x (1 - x) T = Some v /\ getAtomicMobility3 gasR m3 x (1 - x) 0 T = Some v.
Proof.
  intros gasR db db3 a b c AB AC BC D D3 Ga Gb Gc G1 G2 G3 HR HZ.
  destruct (binary_value gasR db a b AB D Ga Gb G1 HR) as (m & E & V).
  destruct (ternary_value gasR db3 a b c AB AC BC D3 Ga Gb Gc G1 G2 G3 HR) as (m3 & E3 & V3).
  exists m, m3. split; [exact E |]. split; [exact E3 |]. intros T x HT Hx. eexists. split; [apply V; assumption |].
  rewrite V3 by assumption. f_equal. f_equal. f_equal. f_equal. unfold binary_barrier, ternary_barrier, interaction. cbn [sum_f_R0 pow].
  assert (Z : forall k, (2 <= k <= 3)%nat -> linear gasR T (given (AB k)) = 0).
  { intros k Hk. destruct (HZ k Hk) as [-> | ->]; unfold linear, given; cbn [fst snd]; rewrite ln_1; ring. }
  rewrite (Z 2%nat), (Z 3%nat) by lia. ring.
Qed.

Definition flat (a1 : R) : term := ((0, a1), None).
Lemma flat_good : forall a, 0 < a -> good (flat a).
Proof. intros a H. exact H. Qed.
Lemma no_good : good_terms no_terms.
Proof. intros k a _ E. discriminate. Qed.
Definition second_order : nat -> option (R * R) := fun k => if Nat.eqb k 2 then Some (0, 2) else None.
Definition ab_db : database := of_list [("qA", [0; 1]); ("qB", [0; 1]); ("q2AB", [0; 2])]%string.
Definition abc_db : database := of_list [("qA", [0; 1]); ("qB", [0; 1]); ("qC", [0; 1]); ("q2AB", [0; 2])]%string.
Lemma ab_two : two_species ab_db (flat 1) (flat 1) second_order.
Proof. unfold two_species. repeat split; reflexivity. Qed.
Lemma abc_three : three_species abc_db (flat 1) (flat 1) (flat 1) second_order no_terms no_terms.
Proof. unfold three_species. repeat split; reflexivity. Qed.
Lemma second_good : good_terms second_order.
Proof. intros k a _ E. unfold second_order in E. destruct (Nat.eqb k 2); [| discriminate]. injection E as <-. unfold good_pair. cbn. lra. Qed.
(** the ternary formula forgets the terms of second and third order *)
Lemma edge_differs : forall gasR T, 0 < gasR -> 0 < T -> exists db db3 a b c AB AC BC m m3, two_species db a b AB /\ three_species db3 a b c AB AC BC /\
  good a /\ good b /\ good c /\ good_terms AB /\ good_terms AC /\ good_terms BC /\ initialize db = Some m /\ initialize db3 = Some m3 /\
  exists x v v3, 0 < x < 1 /\ getAtomicMobility2 gasR m x (1 - x) T = Some v /\ getAtomicMobility3 gasR m3 x (1 - x) 0 T = Some v3 /\ v <> v3.
Proof.
  intros gasR T HR HT. exists ab_db, abc_db, (flat 1), (flat 1), (flat 1), second_order, no_terms, no_terms.
  destruct (binary_value gasR _ _ _ _ ab_two ltac:(apply flat_good; lra) ltac:(apply flat_good; lra) second_good HR) as (m & E & V).
  destruct (ternary_value gasR _ _ _ _ _ _ _ abc_three ltac:(apply flat_good; lra) ltac:(apply flat_good; lra) ltac:(apply flat_good; lra) second_good no_good no_good HR) as (m3 & E3 & V3).
  exists m, m3. split; [exact ab_two |]. split; [exact abc_three |].
  split; [apply flat_good; lra |]. split; [apply flat_good; lra |]. split; [apply flat_good; lra |].
  split; [exact second_good |]. split; [exact no_good |]. split; [exact no_good |]. split; [exact E |]. split; [exact E3 |].
  exists (1 / 4). do 2 eexists. split; [lra |]. split; [apply V; lra |]. split; [apply V3; lra |]. intros H.
  assert (HRT : 0 < gasR * T) by (apply Rmult_lt_0_compat; assumption).
  apply Rmult_eq_compat_r with (r := gasR * T) in H. unfold Rdiv in H. rewrite !Rmult_assoc, !Rinv_l, !Rmult_1_r in H by lra.
  apply exp_inv in H. apply Rmult_eq_compat_r with (r := gasR * T) in H. rewrite !Rmult_assoc, !Rinv_l, !Rmult_1_r in H by lra.
  unfold binary_barrier, ternary_barrier, interaction, barrier, linear, flat in H. cbn [sum_f_R0 pow fst snd given second_order no_terms Nat.eqb] in H.
  rewrite ln_1 in H. assert (L : 0 < ln 2) by (rewrite <- ln_1; apply ln_increasing; lra).
  assert (0 < gasR * T * ln 2) by (apply Rmult_lt_0_compat; lra). lra.
Qed.

(** a fourth species replaces the first *)
Lemma init4 : forall db a b c d, four_species db a b c d -> snd a = None -> exists m, initialize db = Some m /\ nsp m = 4%nat /\ holds m 0 d /\ holds m 1 b /\ holds m 2 c /\
  forall k, (k <= 3)%nat -> reads m k 0 1 None /\ reads m k 0 2 None /\ reads m k 1 2 None.
Proof.
  intros db a b c d (HA & HB & HC & HD & HN) Ea.
  assert (N : count_species db = 4%nat).
  { unfold count_species, letters. cbn [filter]. rewrite keyA, keyB, keyC, keyD, HA, HB, HC, HD. reflexivity. }
  unfold initialize. rewrite N. cbn [letters read_all].
  rewrite (read_one db 4 "A" a) by (rewrite ?keyA; auto; cbn; lia). cbn [bind]. rewrite (read_one db 4 "B" b) by (rewrite ?keyB; auto; cbn; lia). cbn [bind].
  rewrite (read_one db 4 "C" c) by (rewrite ?keyC; auto; cbn; lia). cbn [bind]. rewrite (read_one db 4 "D" d) by (rewrite ?keyD; auto; cbn; lia).
  cbn [bind pairs_of Nat.ltb Nat.leb]. rewrite Ea.
  assert (P : forall k s, read_pairs db 4 k [("A", "B"); ("A", "C"); ("B", "C")]%char s =
    Some (set1 (set1 (set1 s 0%nat (set1 (s 0%nat) 1%nat (0, 1))) 0%nat (set1 (set1 (s 0%nat) 1%nat (0, 1)) 2%nat (0, 1))) 1%nat (set1 (s 1%nat) 2%nat (0, 1)))).
  { intros k s. rewrite (read_pair1 db 4 k "A" "B" _ _ None) by (rewrite ?HN; auto; cbn; lia).
    rewrite (read_pair1 db 4 k "A" "C" _ _ None) by (rewrite ?HN; auto; cbn; lia). rewrite (read_pair1 db 4 k "B" "C" _ _ None) by (rewrite ?HN; auto; cbn; lia). reflexivity. }
  rewrite !P. cbn [bind]. eexists. split; [reflexivity |]. split; [reflexivity |]. unfold holds, reads. cbn [nsp mq mextra mqq].
  split; [| split; [| split]].
  - split; [lia |]. split; [reflexivity |]. destruct (snd b), (snd c), (snd d); reflexivity.
  - split; [lia |]. split; [reflexivity |]. destruct (snd b), (snd c), (snd d); reflexivity.
  - split; [lia |]. split; [reflexivity |]. destruct (snd b), (snd c), (snd d); reflexivity.
  - intros k Hk. repeat split; try lia; destruct k as [| [| [| [| k]]]]; try lia; reflexivity.
Qed.
Lemma fourth_replaces : forall gasR db a b c d, four_species db a b c d -> snd a = None -> good b -> good c -> good d -> 0 < gasR ->
  exists m, initialize db = Some m /\ forall T, 0 < T -> exists v, getAtomicMobility3 gasR m 1 0 0 T = Some v /\ tracer gasR T v = pure_law gasR T d.
Proof.
  intros gasR db a b c d D Ea Gb Gc Gd HR. destruct (init4 db a b c d D Ea) as (m & E & N & H0 & H1 & H2 & P). exists m. split; [exact E |].
  intros T HT. unfold getAtomicMobility3. destruct (Rlt_dec 0 T); [| contradiction]. unfold getDeltaG3.
  rewrite (getQ_some gasR m 0 d T H0 Gd), (getQ_some gasR m 1 b T H1 Gb), (getQ_some gasR m 2 c T H2 Gc). cbn [bind].
  rewrite !(getQQ_some gasR m _ 0 1 no_terms T) by (try apply no_good; try apply P; lia). cbn [bind].
  rewrite !(getQQ_some gasR m _ 0 2 no_terms T) by (try apply no_good; try apply P; lia). cbn [bind].
  rewrite !(getQQ_some gasR m _ 1 2 no_terms T) by (try apply no_good; try apply P; lia). cbn [bind].
  eexists. split; [reflexivity |]. rewrite <- (pure_value gasR T d HR HT Gd). unfold from_dG. cbv zeta.
  assert (0 < gasR * T) by (apply Rmult_lt_0_compat; assumption).
  match goal with |- tracer _ _ (exp (?x * _) * _) = _ => replace x with (barrier gasR T d) by ring end.
  unfold tracer, Rdiv. rewrite Rmult_1_l. field. split; lra.
Qed.

(** arrays of three numbers pass the check of their length but cannot be read *)
Lemma read_all_none : forall {S : Type} (f : ascii -> S -> option S) l c, In c l -> (forall s, f c s = None) -> forall s, read_all f l s = None.
Proof.
  intros S f l. induction l as [| c' l IH]; intros c Hc H s; [contradiction |]. destruct Hc as [Hc | Hc].
  - subst. cbn [read_all]. rewrite H. reflexivity.
  - cbn [read_all]. destruct (f c' s) as [s' |]; [cbn [bind]; exact (IH c Hc H s') | reflexivity].
Qed.
Lemma three_numbers : forall db c x y z, In c letters -> db (qkey c) = Some [x; y; z] -> initialize db = None.
Proof.
  intros db c x y z Hc E. unfold initialize. rewrite (read_all_none _ letters c Hc); [reflexivity |].
  intros s. unfold read_q. rewrite E. destruct (Nat.ltb (index_map c) (count_species db)); reflexivity.
Qed.

(** * The table of diffusivities *)
Lemma fold_table : forall gasR m tmin d ks (f : Z -> R),
  (forall k, In k ks -> getAtomicMobility2 gasR m 1 0 (tmin + IZR k * d) = Some (f k)) ->
  fold_right (fun k acc =>
    bind (getAtomicMobility2 gasR m 1 0 (tmin + IZR k * d)) (fun mob => bind acc (fun l => Some ((10000 / (tmin + IZR k * d), mob * (tmin + IZR k * d) * gasR) :: l)))) (Some []) ks
  = Some (map (fun k => (10000 / (tmin + IZR k * d), f k * (tmin + IZR k * d) * gasR)) ks).
Proof.
  intros gasR m tmin d ks f. induction ks as [| k ks IH]; intros H; [reflexivity |]. cbn [fold_right map].
  rewrite IH by (intros; apply H; right; assumption). rewrite H by (left; reflexivity). reflexivity.
Qed.

Lemma table_value : forall gasR db a b L, two_species db a b L -> good a -> good b -> good_terms L -> 0 < gasR ->
  exists m, initialize db = Some m /\ forall tmin tmax, 0 < tmin <= tmax -> exists l, diffusionVsTemperature gasR m tmin tmax = Some l /\ List.length l = 100%nat /\
    forall k, (k < 100)%nat -> nth k l (0, 0) = (10000 / table_T tmin tmax k, pure_law gasR (table_T tmin tmax k) a).
Proof.
  intros gasR db a b L D Ga Gb GL HR. destruct (binary_value gasR db a b L D Ga Gb GL HR) as (m & E & V). exists m. split; [exact E |].
  intros tmin tmax Ht. unfold diffusionVsTemperature. cbv zeta.
  set (f := fun k => exp (barrier gasR (tmin + IZR k * ((tmax - tmin) / (100 - 1))) a / (gasR * (tmin + IZR k * ((tmax - tmin) / (100 - 1))))) / (gasR * (tmin + IZR k * ((tmax - tmin) / (100 - 1))))).
  assert (P : forall k, In k (range 0 99) -> 0 < tmin + IZR k * ((tmax - tmin) / (100 - 1))).
  { intros k Hk. unfold range in Hk. apply in_map_iff in Hk. destruct Hk as (q & <- & _).
    assert (0 <= IZR (0 + Z.of_nat q)) by (apply IZR_le; lia). assert (0 <= (tmax - tmin) / (100 - 1)) by (apply Rmult_le_pos; [lra |]; apply Rlt_le, Rinv_0_lt_compat; lra).
    pose proof (Rmult_le_pos _ _ H H0). lra. }
  rewrite (fold_table gasR m tmin _ (range 0 99) f).
  - eexists. split; [reflexivity |]. split; [rewrite map_length; reflexivity |]. intros k Hk.
    pose (g := fun k : Z => (10000 / (tmin + IZR k * ((tmax - tmin) / (100 - 1))), f k * (tmin + IZR k * ((tmax - tmin) / (100 - 1))) * gasR)).
    change (nth k (map g (range 0 99)) (0, 0) = (10000 / table_T tmin tmax k, pure_law gasR (table_T tmin tmax k) a)).
    rewrite (nth_indep _ (0, 0) (g 0%Z)) by (rewrite map_length; exact Hk).
    rewrite map_nth. assert (Ek : nth k (range 0 99) 0%Z = Z.of_nat k).
    { unfold range. change (Z.to_nat (99 - 0 + 1)) with 100%nat. rewrite nth_indep with (d' := (0 + Z.of_nat 0)%Z) by (rewrite map_length, seq_length; exact Hk).
      rewrite (map_nth (fun q => (0 + Z.of_nat q)%Z)), seq_nth by exact Hk. lia. }
    rewrite Ek. unfold g. assert (Pk : 0 < tmin + IZR (Z.of_nat k) * ((tmax - tmin) / (100 - 1))).
    { apply P. rewrite <- Ek. apply nth_In. exact Hk. }
    unfold table_T. rewrite INR_IZR_INZ. replace ((tmax - tmin) / 99) with ((tmax - tmin) / (100 - 1)) by (f_equal; ring). f_equal.
    rewrite <- (pure_value gasR _ a HR Pk Ga). unfold f. field. lra.
  - intros k Hk. pose proof (V _ 1 (P k Hk) ltac:(lra)) as H. replace (1 - 1) with 0 in H by ring. rewrite H. unfold f. f_equal. f_equal. f_equal. f_equal.
    unfold binary_barrier, interaction. ring.
Qed.
Definition ab_flat (a : R) : database := of_list [("qA", [0; a]); ("qB", [0; 1])]%string.
Lemma ab_flat_two : forall a, two_species (ab_flat a) (flat a) (flat 1) no_terms.
Proof. intros a. unfold two_species. repeat split; reflexivity. Qed.
Lemma flat_law : forall gasR T a, 0 < gasR -> 0 < T -> pure_law gasR T (flat a) = a.
Proof.
  intros gasR T a HR HT. unfold pure_law, rate, flat. cbn [fst snd]. replace (- (- 0 / (gasR * T))) with 0 by (field; lra).
  rewrite exp_0. ring.
Qed.
(** the second section of the file repeats the first, whatever the second species is *)
Lemma second_section : forall gasR T, 0 < gasR -> 0 < T -> exists db0 db1 m0 m1 l0 l1, initialize db0 = Some m0 /\ initialize db1 = Some m1 /\
  diffusionVsTemperature gasR m0 (T / 2) (2 * T) = Some l0 /\ diffusionVsTemperature gasR m1 (T / 2) (2 * T) = Some l1 /\ l0 <> l1 /\
  (forall mA mB, nth 1 (D_dat gasR T m0 m1 mA mB) None = Some l0).
Proof.
  intros gasR T HR HT. exists (ab_flat 1), (ab_flat 2).
  destruct (table_value gasR _ _ _ _ (ab_flat_two 1) ltac:(apply flat_good; lra) ltac:(apply flat_good; lra) no_good HR) as (m0 & E0 & V0).
  destruct (table_value gasR _ _ _ _ (ab_flat_two 2) ltac:(apply flat_good; lra) ltac:(apply flat_good; lra) no_good HR) as (m1 & E1 & V1).
  destruct (V0 (T / 2) (2 * T) ltac:(lra)) as (l0 & L0 & N0 & W0). destruct (V1 (T / 2) (2 * T) ltac:(lra)) as (l1 & L1 & N1 & W1).
  exists m0, m1, l0, l1. split; [exact E0 |]. split; [exact E1 |]. split; [exact L0 |]. split; [exact L1 |]. split.
  - intros H. specialize (W0 0%nat ltac:(lia)). specialize (W1 0%nat ltac:(lia)). rewrite H, W1 in W0. apply (f_equal snd) in W0. cbn [snd] in W0.
    unfold table_T in W0. cbn [INR] in W0. rewrite !flat_law in W0 by lra. lra.
  - intros mA mB. cbn [D_dat nth]. replace (T * (1 / 2)) with (T / 2) by field. replace (T * 2) with (2 * T) by ring. exact L0.
Qed.

(** * Mobility matrices *)
Lemma mobility2_T : forall gasR m c0 c1 T v, getAtomicMobility2 gasR m c0 c1 T = Some v -> 0 < T.
Proof. intros gasR m c0 c1 T v E. unfold getAtomicMobility2 in E. destruct (Rlt_dec 0 T); [assumption | discriminate]. Qed.
Lemma mobility3_T : forall gasR m c0 c1 c2 T v, getAtomicMobility3 gasR m c0 c1 c2 T = Some v -> 0 < T.
Proof. intros gasR m c0 c1 c2 T v E. unfold getAtomicMobility3 in E. destruct (Rlt_dec 0 T); [assumption | discriminate]. Qed.
Lemma big : 0 < m2toum2.
Proof. unfold m2toum2. apply pow_lt. lra. Qed.
Lemma binary_darken : forall gasR a b x T m0 m1, 0 < gasR -> 0 <= x <= 1 ->
  getAtomicMobility2 gasR a x (1 - x) T = Some m0 -> getAtomicMobility2 gasR b x (1 - x) T = Some m1 ->
  exists M, mobilityBinary gasR x T [a; b] = Some M /\ 0 <= M /\ (x = 0 \/ x = 1 -> M = 0) /\
    (0 < x < 1 -> 0 < M /\ M * ideal2 gasR T x = 10 ^ 12 * ((1 - x) * tracer gasR T m0 + x * tracer gasR T m1) /\
       between (10 ^ 12 * tracer gasR T m0) (10 ^ 12 * tracer gasR T m1) (M * ideal2 gasR T x)).
Proof.
  intros gasR a b x T m0 m1 HR Hx E0 E1. pose proof (mobility2_T _ _ _ _ _ _ E0) as HT.
  assert (P0 : 0 < m0) by (eapply (mobility_positive gasR a x (1 - x) 0); eauto). assert (P1 : 0 < m1) by (eapply (mobility_positive gasR b x (1 - x) 0); eauto).
  unfold mobilityBinary. rewrite unit_yes by exact Hx. cbv zeta. rewrite E0, E1. cbn [bind]. eexists. split; [reflexivity |].
  pose proof big as B. fold m2toum2.
  assert (N0 : 0 <= (1 - x) * m0) by (apply Rmult_le_pos; lra). assert (N1 : 0 <= x * m1) by (apply Rmult_le_pos; lra).
  split; [| split].
  - apply Rmult_le_pos; [| lra]. apply Rmult_le_pos; [| lra]. apply Rmult_le_pos; lra.
  - intros [-> | ->]; ring.
  - intros Hi. assert (Q0 : 0 < (1 - x) * m0) by (apply Rmult_lt_0_compat; lra).
    assert (V : x * (1 - x) * (x * m1 + (1 - x) * m0) * m2toum2 * ideal2 gasR T x = m2toum2 * ((1 - x) * tracer gasR T m0 + x * tracer gasR T m1)).
    { unfold ideal2, tracer. field. lra. }
    split; [| split; [exact V |]].
    + apply Rmult_lt_0_compat; [| exact B]. apply Rmult_lt_0_compat; [| lra]. apply Rmult_lt_0_compat; lra.
    + rewrite V. unfold between. set (u := tracer gasR T m0). set (w := tracer gasR T m1).
      replace (m2toum2 * ((1 - x) * u + x * w)) with (m2toum2 * u + x * (m2toum2 * w - m2toum2 * u)) by ring.
      generalize (m2toum2 * u) (m2toum2 * w). intros p q. unfold Rmin, Rmax. destruct (Rle_dec p q).
      * assert (0 <= x * (q - p)) by (apply Rmult_le_pos; lra). assert (0 <= (1 - x) * (q - p)) by (apply Rmult_le_pos; lra). lra.
      * assert (0 <= x * (p - q)) by (apply Rmult_le_pos; lra). assert (0 <= (1 - x) * (p - q)) by (apply Rmult_le_pos; lra). lra.
Qed.
Lemma binary_range : forall gasR a b x T, x < 0 \/ 1 < x -> mobilityBinary gasR x T [a; b] = None.
Proof. intros gasR a b x T H. unfold mobilityBinary. rewrite unit_no by exact H. reflexivity. Qed.

Lemma ternary_inv : forall gasR a b c x y T M, mobilityTernary gasR x y T [a; b; c] = Some M ->
  exists m0 m1 m2, getAtomicMobility3 gasR a x y (1 - x - y) T = Some m0 /\ getAtomicMobility3 gasR b x y (1 - x - y) T = Some m1 /\
    getAtomicMobility3 gasR c x y (1 - x - y) T = Some m2 /\
    M 0%Z = ternary00 x y (1 - x - y) m0 m1 m2 /\ M 1%Z = ternary01 x y (1 - x - y) m0 m1 m2 /\
    M 2%Z = ternary01 x y (1 - x - y) m0 m1 m2 /\ M 3%Z = ternary11 x y (1 - x - y) m0 m1 m2.
Proof.
  intros gasR a b c x y T M E. unfold mobilityTernary in E. cbv zeta in E.
  destruct (getAtomicMobility3 gasR a x y (1 - x - y) T) as [m0 |]; [| discriminate]. cbn [bind] in E.
  destruct (getAtomicMobility3 gasR b x y (1 - x - y) T) as [m1 |]; [| discriminate]. cbn [bind] in E.
  destruct (getAtomicMobility3 gasR c x y (1 - x - y) T) as [m2 |]; [| discriminate]. cbn [bind] in E. injection E as <-.
  exists m0, m1, m2. repeat split.
Qed.
Lemma quadratic_value : forall M x y z m0 m1 m2 u v, x + y + z = 1 ->
  M 0%Z = ternary00 x y z m0 m1 m2 -> M 1%Z = ternary01 x y z m0 m1 m2 -> M 2%Z = ternary01 x y z m0 m1 m2 -> M 3%Z = ternary11 x y z m0 m1 m2 ->
  quadratic M u v = m2toum2 * (x * m0 * (u - (x * u + y * v)) ^ 2 + y * m1 * (v - (x * u + y * v)) ^ 2 + z * m2 * (x * u + y * v) ^ 2).
Proof.
  intros M x y z m0 m1 m2 u v S E0 E1 E2 E3. unfold quadratic. rewrite E0, E1, E2, E3. unfold ternary00, ternary01, ternary11.
  replace z with (1 - x - y) by lra. ring.
Qed.
(** the matrix is symmetric, never extracts energy, and describes the fluxes of the species seen from the frame where they add up to zero *)
Lemma ternary_matrix : forall gasR a b c x y T M, 0 < gasR -> simplex x y (1 - x - y) -> mobilityTernary gasR x y T [a; b; c] = Some M ->
  M 1%Z = M 2%Z /\ (forall u v, 0 <= quadratic M u v) /\
  (0 < x -> 0 < y -> 0 < 1 - x - y -> forall u v, (u <> 0 \/ v <> 0) -> 0 < quadratic M u v) /\
  (x = 0 -> M 0%Z = 0 /\ M 1%Z = 0) /\ (y = 0 -> M 3%Z = 0 /\ M 1%Z = 0) /\ (x + y = 1 -> M 1%Z = - M 0%Z /\ M 3%Z = M 0%Z).
Proof.
  intros gasR a b c x y T M HR S E. destruct (ternary_inv _ _ _ _ _ _ _ _ E) as (m0 & m1 & m2 & G0 & G1 & G2 & E0 & E1 & E2 & E3).
  assert (P0 : 0 < m0) by (apply (mobility_positive gasR a x y (1 - x - y) T m0); auto). assert (P1 : 0 < m1) by (apply (mobility_positive gasR b x y (1 - x - y) T m1); auto).
  assert (P2 : 0 < m2) by (apply (mobility_positive gasR c x y (1 - x - y) T m2); auto). destruct S as (Sx & Sy & Sz & Ss). pose proof big as B.
  split; [congruence |].
  split; [| split; [| split; [| split]]].
  - intros u v. rewrite (quadratic_value M x y (1 - x - y) m0 m1 m2 u v ltac:(lra) E0 E1 E2 E3). apply Rmult_le_pos; [lra |].
    set (w := x * u + y * v).
    assert (0 <= x * m0 * (u - w) ^ 2) by (apply Rmult_le_pos; [apply Rmult_le_pos; lra | apply pow2_ge_0]).
    assert (0 <= y * m1 * (v - w) ^ 2) by (apply Rmult_le_pos; [apply Rmult_le_pos; lra | apply pow2_ge_0]).
    assert (0 <= (1 - x - y) * m2 * w ^ 2) by (apply Rmult_le_pos; [apply Rmult_le_pos; lra | apply pow2_ge_0]). lra.
  - intros Hx Hy Hz u v Huv. rewrite (quadratic_value M x y (1 - x - y) m0 m1 m2 u v ltac:(lra) E0 E1 E2 E3). apply Rmult_lt_0_compat; [lra |].
    set (w := x * u + y * v).
    assert (A0 : 0 < x * m0) by (apply Rmult_lt_0_compat; lra). assert (A1 : 0 < y * m1) by (apply Rmult_lt_0_compat; lra).
    assert (A2 : 0 < (1 - x - y) * m2) by (apply Rmult_lt_0_compat; lra).
    assert (0 <= x * m0 * (u - w) ^ 2) by (apply Rmult_le_pos; [lra | apply pow2_ge_0]).
    assert (0 <= y * m1 * (v - w) ^ 2) by (apply Rmult_le_pos; [lra | apply pow2_ge_0]).
    assert (0 <= (1 - x - y) * m2 * w ^ 2) by (apply Rmult_le_pos; [lra | apply pow2_ge_0]).
    assert (Pos : forall r, r <> 0 -> 0 < r ^ 2) by (intros r Hr; cbn [pow]; rewrite Rmult_1_r; apply Rsqr_pos_lt; exact Hr).
    destruct (Req_dec w 0) as [W | W].
    + destruct Huv as [Hu | Hv].
      * assert (0 < x * m0 * (u - w) ^ 2) by (apply Rmult_lt_0_compat; [lra | apply Pos; lra]). lra.
      * assert (0 < y * m1 * (v - w) ^ 2) by (apply Rmult_lt_0_compat; [lra | apply Pos; lra]). lra.
    + assert (0 < (1 - x - y) * m2 * w ^ 2) by (apply Rmult_lt_0_compat; [lra | apply Pos; exact W]). lra.
  - intros ->. rewrite E0, E1. unfold ternary00, ternary01. split; ring.
  - intros ->. rewrite E3, E1. unfold ternary11, ternary01. split; ring.
  - intros H. rewrite E0, E1, E3. unfold ternary00, ternary01, ternary11. replace y with (1 - x) by lra. split; ring.
Qed.
Lemma ternary_frame : forall gasR a b c x y T M, mobilityTernary gasR x y T [a; b; c] = Some M ->
  exists m0 m1 m2, getAtomicMobility3 gasR a x y (1 - x - y) T = Some m0 /\ getAtomicMobility3 gasR b x y (1 - x - y) T = Some m1 /\
    getAtomicMobility3 gasR c x y (1 - x - y) T = Some m2 /\
  forall f g h, gibbs_duhem x y (1 - x - y) f g h ->
    let j0 := lattice_flux x m0 f in let j1 := lattice_flux y m1 g in let j2 := lattice_flux (1 - x - y) m2 h in let all := j0 + j1 + j2 in
    M 0%Z * (f - h) + M 1%Z * (g - h) = 10 ^ 12 * frame_flux x j0 all /\
    M 2%Z * (f - h) + M 3%Z * (g - h) = 10 ^ 12 * frame_flux y j1 all.
Proof.
  intros gasR a b c x y T M E. destruct (ternary_inv _ _ _ _ _ _ _ _ E) as (m0 & m1 & m2 & G0 & G1 & G2 & E0 & E1 & E2 & E3).
  exists m0, m1, m2. split; [exact G0 |]. split; [exact G1 |]. split; [exact G2 |]. intros f g h D. cbv zeta. rewrite E0, E1, E2, E3.
  fold m2toum2. unfold gibbs_duhem in D. assert (Eh : h = - (x * (f - h) + y * (g - h))) by lra.
  unfold ternary00, ternary01, ternary11, frame_flux, lattice_flux.
  remember (f - h) as p eqn:Ep. remember (g - h) as q eqn:Eq. replace f with (p + h) by lra. replace g with (q + h) by lra.
  clear Ep Eq D. rewrite Eh. split; ring.
Qed.
(** on the edge without the third species the ternary matrix is the binary mobility *)
Lemma ternary_edge : forall gasR a b a3 b3 c3 x T m0 m1 M, 0 < gasR -> 0 <= x <= 1 ->
  getAtomicMobility2 gasR a x (1 - x) T = Some m0 -> getAtomicMobility2 gasR b x (1 - x) T = Some m1 ->
  getAtomicMobility3 gasR a3 x (1 - x) 0 T = Some m0 -> getAtomicMobility3 gasR b3 x (1 - x) 0 T = Some m1 ->
  mobilityTernary gasR x (1 - x) T [a3; b3; c3] = Some M -> mobilityBinary gasR x T [a; b] = Some (M 0%Z).
Proof.
  intros gasR a b a3 b3 c3 x T m0 m1 M HR Hx A B A3 B3 E. destruct (ternary_inv _ _ _ _ _ _ _ _ E) as (n0 & n1 & n2 & G0 & G1 & G2 & E0 & _).
  replace (1 - x - (1 - x)) with 0 in * by ring. rewrite A3 in G0. rewrite B3 in G1. injection G0 as <-. injection G1 as <-.
  unfold mobilityBinary. rewrite unit_yes by exact Hx. cbv zeta. rewrite A, B. cbn [bind]. f_equal. rewrite E0. unfold ternary00. ring.
Qed.

(** * Loops that may stop *)
Lemma cells_list : forall (S : Type) lo0 hi0 lo1 hi1 (body : Z -> Z -> S -> S) s,
  do_cells lo0 hi0 lo1 hi1 body s = fold_left (fun s p => body (fst p) (snd p) s) (flat_map (fun j => map (fun i => (i, j)) (range lo0 hi0)) (range lo1 hi1)) s.
Proof.
  intros S lo0 hi0 lo1 hi1 body s. unfold do_cells, do_loop. revert s. induction (range lo1 hi1) as [| j l IH]; intros s; [reflexivity |].
  cbn [fold_left flat_map]. rewrite fold_left_app, IH. f_equal. clear IH. revert s. induction (range lo0 hi0) as [| i r IH]; intros s; [reflexivity |].
  cbn [fold_left map fst snd]. apply IH.
Qed.
Lemma in_cells_list : forall lo0 hi0 lo1 hi1 i j, In (i, j) (flat_map (fun j => map (fun i => (i, j)) (range lo0 hi0)) (range lo1 hi1)) <-> in_box lo0 hi0 lo1 hi1 i j.
Proof.
  intros. rewrite in_flat_map. unfold in_box. split.
  - intros (j' & Hj & H). apply in_map_iff in H as (i' & E & Hi). injection E as -> ->. apply in_range in Hi. apply in_range in Hj. lia.
  - intros [Hi Hj]. exists j. split; [apply in_range; lia |]. apply in_map_iff. exists i. split; [reflexivity | apply in_range; lia].
Qed.
Lemma pair_dec : forall p q : Z * Z, {p = q} + {p <> q}.
Proof. decide equality; apply Z.eq_dec. Qed.
Section Writing.
Variable n2 : Z.
Variable f : Z -> Z -> option (Z -> R).
Let step (s : option arr3) (p : Z * Z) := bind s (fun s => bind (f (fst p) (snd p)) (fun v => Some (write n2 (fst p) (snd p) v s))).
Lemma step_none : forall l, fold_left step l None = None.
Proof. induction l as [| p l IH]; [reflexivity |]. exact IH. Qed.
Lemma step_keep : forall l a out i j e, fold_left step l (Some a) = Some out -> ~ In (i, j) l -> out i j e = a i j e.
Proof.
  induction l as [| [i' j'] l IH]; intros a out i j e E H; [injection E as <-; reflexivity |].
  cbn [fold_left] in E. unfold step in E at 2. cbn [bind fst snd] in E. destruct (f i' j') as [v |] eqn:Ev; cbn [bind] in E; [| rewrite step_none in E; discriminate].
  rewrite (IH _ _ i j e E) by (intros Hi; apply H; right; exact Hi). unfold write.
  destruct (Z.eqb_spec i i'); [| reflexivity]. destruct (Z.eqb_spec j j'); [| reflexivity]. exfalso. apply H. left. congruence.
Qed.
Lemma step_val : forall l a out i j, fold_left step l (Some a) = Some out -> In (i, j) l ->
  exists v, f i j = Some v /\ forall e, (0 <= e < n2)%Z -> out i j e = v e.
Proof.
  induction l as [| [i' j'] l IH]; intros a out i j E H; [contradiction |].
  cbn [fold_left] in E. unfold step in E at 2. cbn [bind fst snd] in E. destruct (f i' j') as [v |] eqn:Ev; cbn [bind] in E; [| rewrite step_none in E; discriminate].
  destruct (in_dec pair_dec (i, j) l) as [Hl | Hl].
  - exact (IH _ _ i j E Hl).
  - destruct H as [H | H]; [| contradiction]. injection H as -> ->. exists v. split; [exact Ev |]. intros e He.
    rewrite (step_keep l _ _ i j e E Hl). unfold write. rewrite !Z.eqb_refl. cbn [andb].
    destruct (Z.leb_spec 0 e); [| lia]. destruct (Z.ltb_spec e n2); [| lia]. reflexivity.
Qed.
Lemma step_some : forall l a, (forall i j, In (i, j) l -> exists v, f i j = Some v) -> exists out, fold_left step l (Some a) = Some out.
Proof.
  induction l as [| [i j] l IH]; intros a H; [exists a; reflexivity |]. cbn [fold_left]. assert (Es : step (Some a) (i, j) = bind (f i j) (fun v => Some (write n2 i j v a))) by reflexivity. rewrite Es.
  destruct (H i j (or_introl eq_refl)) as [v Ev]. rewrite Ev. cbn [bind]. apply IH. intros i' j' Hi. apply H. right. exact Hi.
Qed.
End Writing.
Lemma fill_opt_val : forall lo0 hi0 lo1 hi1 n2 f a out i j, fill_opt lo0 hi0 lo1 hi1 n2 f a = Some out -> in_box lo0 hi0 lo1 hi1 i j ->
  exists v, f i j = Some v /\ forall e, (0 <= e < n2)%Z -> out i j e = v e.
Proof.
  intros lo0 hi0 lo1 hi1 n2 f a out i j E H. unfold fill_opt in E. rewrite cells_list in E. apply in_cells_list in H. exact (step_val n2 f _ _ _ i j E H).
Qed.
Lemma fill_opt_some : forall lo0 hi0 lo1 hi1 n2 f a, (forall i j, in_box lo0 hi0 lo1 hi1 i j -> exists v, f i j = Some v) ->
  exists out, fill_opt lo0 hi0 lo1 hi1 n2 f a = Some out.
Proof. intros lo0 hi0 lo1 hi1 n2 f a H. unfold fill_opt. rewrite cells_list. apply (step_some n2 f). intros i j Hi. apply H. apply in_cells_list. exact Hi. Qed.
Lemma weigh_val : forall lo0 hi0 lo1 hi1 n2 w d a i j e, in_box lo0 hi0 lo1 hi1 i j -> (0 <= e < n2)%Z ->
  weigh_opt lo0 hi0 lo1 hi1 n2 w d a i j e = w i j * d i j e.
Proof.
  intros lo0 hi0 lo1 hi1 n2 w d a i j e H He.
  assert (E : fill_opt lo0 hi0 lo1 hi1 n2 (fun i j => Some (fun e => w i j * d i j e)) a = Some (weigh_opt lo0 hi0 lo1 hi1 n2 w d a)).
  { unfold fill_opt, weigh_opt. rewrite !cells_list. generalize (flat_map (fun j0 => map (fun i0 => (i0, j0)) (range lo0 hi0)) (range lo1 hi1)). intros l. revert a.
    induction l as [| p l IH]; intros a; [reflexivity |]. cbn [fold_left bind]. apply IH. }
  destruct (fill_opt_val _ _ _ _ _ _ _ _ i j E H) as (v & Ev & V). injection Ev as <-. apply V. exact He.
Qed.

(** * Diffusion matrices on the faces *)
Lemma mult1 : forall a b c, small_mat_mult 1 a b c 0%Z = a 0%Z * b 0%Z.
Proof. intros a b c. unfold small_mat_mult, do_loop. change (range 0 (1 - 1)) with [0%Z]. cbn [fold_left]. unfold upd1. cbn -[Rplus Rmult IZR]. ring. Qed.
Lemma mult2 : forall a b c k i, (0 <= k <= 1)%Z -> (0 <= i <= 1)%Z -> small_mat_mult 2 a b c (2 * k + i)%Z = product2 a b k i.
Proof.
  intros a b c k i Hk Hi. assert (Ck : k = 0%Z \/ k = 1%Z) by lia. assert (Ci : i = 0%Z \/ i = 1%Z) by lia.
  unfold small_mat_mult, product2, entry2, do_loop. change (range 0 (2 - 1)) with [0%Z; 1%Z]. cbn [fold_left]. unfold upd1.
  destruct Ck as [-> | ->], Ci as [-> | ->]; cbn -[Rplus Rmult IZR]; ring.
Qed.
Lemma half_mean : forall (f : arr3) d i j, half (f i j) (low f d i j) = mean_c f d i j.
Proof. intros f d i j. apply FunctionalExtensionality.functional_extensionality. intros k. unfold half, mean_c, mean. field. Qed.
Lemma bind_some : forall (A B : Type) (o : option A) (f : A -> option B) y, bind o f = Some y -> exists x, o = Some x /\ f x = Some y.
Proof. intros A B [x |] f y E; [eauto | discriminate]. Qed.
Lemma local_inv : forall gasR n F ms T c old v, localDiffusionMatrix gasR n F ms T c old = Some v ->
  exists M, mobilityPhase gasR n c T ms = Some M /\ v = small_mat_mult n M (F T c) old.
Proof. intros gasR n F ms T c old v E. unfold localDiffusionMatrix in E. destruct (bind_some _ _ _ _ _ E) as (M & EM & Ev). injection Ev as <-. eauto. Qed.
Lemma coef_value : forall gasR it a b p phi temp cl ca dold old d dr i j,
  setDiffusion gasR it a b p phi temp cl ca dold old = Some d -> implemented it -> In a averages -> on_face b dr i j ->
  exists w ML MA, 0 <= w <= 1 /\ (low phi dr i j <= 0 -> phi i j <= 0 -> w = 0) /\ (1 <= low phi dr i j -> 1 <= phi i j -> w = 1) /\
    mobilityPhase gasR (dn p) (mean_c cl dr i j) (mean_T temp dr i j) (dms_l p) = Some ML /\
    mobilityPhase gasR (dn p) (mean_c ca dr i j) (mean_T temp dr i j) (dms_a p) = Some MA /\
    forall e, (0 <= e < dn p * dn p)%Z ->
      coef_l d dr i j e = (1 - w) * small_mat_mult (dn p) ML (dF_l p (mean_T temp dr i j) (mean_c cl dr i j)) (fun _ => 0) e /\
      coef_a d dr i j e = w * small_mat_mult (dn p) MA (dF_a p (mean_T temp dr i j) (mean_c ca dr i j)) (fun _ => 0) e.
Proof.
  intros gasR it a b p phi temp cl ca dold old d dr i j E It Av H. destruct (impl_char it It) as (c & Ec & Hc).
  unfold setDiffusion in E. rewrite Ec in E. cbn [bind] in E. rewrite (chars_known c a Hc Av) in E.
  destruct (bind_some _ _ _ _ _ E) as (dx & Ex & E1). clear E. destruct (bind_some _ _ _ _ _ E1) as (dy & Ey & E2). clear E1. injection E2 as <-.
  unfold diffCoeff_x in Ex. cbv zeta in Ex. destruct (bind_some _ _ _ _ _ Ex) as (lx & Elx & Ex'). destruct (bind_some _ _ _ _ _ Ex') as (ax & Eax & Ex2).
  injection Ex2 as <-. clear Ex Ex'.
  unfold diffCoeff_y in Ey. cbv zeta in Ey. destruct (bind_some _ _ _ _ _ Ey) as (ly & Ely & Ey'). destruct (bind_some _ _ _ _ _ Ey') as (ay & Eay & Ey2).
  injection Ey2 as <-. clear Ey Ey'. cbn [fst snd].
  destruct (hface_weight c a (phi i j) (low phi dr i j) Hc Av) as (W & W0 & W1).
  destruct dr; cbn [on_face] in H.
  - unfold x_face in H.
    destruct (fill_opt_val _ _ _ _ _ _ _ _ i j Elx H) as (vl & Evl & Vl). destruct (fill_opt_val _ _ _ _ _ _ _ _ i j Eax H) as (va & Eva & Va).
    destruct (all_tolerated (dn p) (cl i j) && all_tolerated (dn p) (cl (i - 1)%Z j))%bool; [| discriminate].
    change (cl (i - 1)%Z j) with (low cl DX i j) in Evl. change (ca (i - 1)%Z j) with (low ca DX i j) in Eva. change (temp (i - 1)%Z j) with (low temp DX i j) in Evl, Eva.
    rewrite half_mean in Evl, Eva. replace (1 / 2 * (temp i j + low temp DX i j)) with (mean_T temp DX i j) in Evl, Eva by (unfold mean_T, mean; field).
    destruct (local_inv _ _ _ _ _ _ _ _ Evl) as (ML & EL & ->). destruct (local_inv _ _ _ _ _ _ _ _ Eva) as (MA & EA & ->).
    exists (hface c a (phi i j) (low phi DX i j)), ML, MA. split; [exact W |]. split; [intros; apply W0; assumption |]. split; [intros; apply W1; assumption |].
    split; [exact EL |]. split; [exact EA |]. intros e He. cbn [coef_l coef_a pick fst snd pl_x pa_x]. unfold coef_l, coef_a. cbn [pick fst snd pl_x pa_x].
    rewrite !weigh_val by assumption. rewrite Vl, Va by assumption. split; reflexivity.
  - unfold y_face in H.
    destruct (fill_opt_val _ _ _ _ _ _ _ _ i j Ely H) as (vl & Evl & Vl). destruct (fill_opt_val _ _ _ _ _ _ _ _ i j Eay H) as (va & Eva & Va).
    change (cl i (j - 1)%Z) with (low cl DY i j) in Evl. change (ca i (j - 1)%Z) with (low ca DY i j) in Eva. change (temp i (j - 1)%Z) with (low temp DY i j) in Evl, Eva.
    rewrite half_mean in Evl, Eva. replace (1 / 2 * (temp i j + low temp DY i j)) with (mean_T temp DY i j) in Evl, Eva by (unfold mean_T, mean; field).
    destruct (local_inv _ _ _ _ _ _ _ _ Evl) as (ML & EL & ->). destruct (local_inv _ _ _ _ _ _ _ _ Eva) as (MA & EA & ->).
    exists (hface c a (phi i j) (low phi DY i j)), ML, MA. split; [exact W |]. split; [intros; apply W0; assumption |]. split; [intros; apply W1; assumption |].
    split; [exact EL |]. split; [exact EA |]. intros e He. unfold coef_l, coef_a. cbn [pick fst snd pl_y pa_y].
    rewrite !weigh_val by assumption. rewrite Vl, Va by assumption. split; reflexivity.
Qed.
Lemma coef_binary : forall gasR it a b p phi temp cl ca dold old d dr i j, dn p = 1%Z ->
  setDiffusion gasR it a b p phi temp cl ca dold old = Some d -> implemented it -> In a averages -> on_face b dr i j ->
  let T := mean_T temp dr i j in
  exists w ml ma, 0 <= w <= 1 /\ (low phi dr i j <= 0 -> phi i j <= 0 -> w = 0) /\ (1 <= low phi dr i j -> 1 <= phi i j -> w = 1) /\
    mobilityBinary gasR (mean_c cl dr i j 0%Z) T (dms_l p) = Some ml /\ mobilityBinary gasR (mean_c ca dr i j 0%Z) T (dms_a p) = Some ma /\
    coef_l d dr i j 0%Z = (1 - w) * (ml * dF_l p T (mean_c cl dr i j) 0%Z) /\ coef_a d dr i j 0%Z = w * (ma * dF_a p T (mean_c ca dr i j) 0%Z).
Proof.
  intros gasR it a b p phi temp cl ca dold old d dr i j N E It Av H T.
  destruct (coef_value _ _ _ _ _ _ _ _ _ _ _ _ _ i j E It Av H) as (w & ML & MA & W & W0 & W1 & EL & EA & V). rewrite N in *.
  unfold mobilityPhase in EL, EA. cbn [Z.eqb Pos.eqb] in EL, EA. destruct (bind_some _ _ _ _ _ EL) as (ml & Eml & EL'). destruct (bind_some _ _ _ _ _ EA) as (ma & Ema & EA').
  injection EL' as <-. injection EA' as <-. exists w, ml, ma. split; [exact W |]. split; [exact W0 |]. split; [exact W1 |]. split; [exact Eml |]. split; [exact Ema |].
  destruct (V 0%Z ltac:(lia)) as [V1 V2]. rewrite V1, V2, !mult1. split; reflexivity.
Qed.
Lemma coef_ternary : forall gasR it a b p phi temp cl ca dold old d dr i j, dn p = 2%Z ->
  setDiffusion gasR it a b p phi temp cl ca dold old = Some d -> implemented it -> In a averages -> on_face b dr i j ->
  let T := mean_T temp dr i j in
  exists w ML MA, 0 <= w <= 1 /\ (low phi dr i j <= 0 -> phi i j <= 0 -> w = 0) /\ (1 <= low phi dr i j -> 1 <= phi i j -> w = 1) /\
    mobilityTernary gasR (mean_c cl dr i j 0%Z) (mean_c cl dr i j 1%Z) T (dms_l p) = Some ML /\
    mobilityTernary gasR (mean_c ca dr i j 0%Z) (mean_c ca dr i j 1%Z) T (dms_a p) = Some MA /\
    forall k m, (0 <= k <= 1)%Z -> (0 <= m <= 1)%Z ->
      coef_l d dr i j (2 * k + m)%Z = (1 - w) * product2 ML (dF_l p T (mean_c cl dr i j)) k m /\
      coef_a d dr i j (2 * k + m)%Z = w * product2 MA (dF_a p T (mean_c ca dr i j)) k m.
Proof.
  intros gasR it a b p phi temp cl ca dold old d dr i j N E It Av H T.
  destruct (coef_value _ _ _ _ _ _ _ _ _ _ _ _ _ i j E It Av H) as (w & ML & MA & W & W0 & W1 & EL & EA & V). rewrite N in *.
  unfold mobilityPhase in EL, EA. cbn [Z.eqb Pos.eqb] in EL, EA. exists w, ML, MA. split; [exact W |]. split; [exact W0 |]. split; [exact W1 |].
  split; [exact EL |]. split; [exact EA |]. intros k m Hk Hm. destruct (V (2 * k + m)%Z ltac:(lia)) as [V1 V2]. rewrite V1, V2, !mult2 by assumption. split; reflexivity.
Qed.

(** * Fluxes *)
Lemma flux1 : forall b cl ca d dr i j, spacing b dr <> 0 -> on_face b dr i j ->
  pick dr (ebs_flux b 1 cl ca d) i j 1%Z = coef_l d dr i j 0%Z * slope b cl dr i j 0 + coef_a d dr i j 0%Z * slope b ca dr i j 0.
Proof.
  intros b cl ca d dr i j Hs H. unfold ebs_flux. cbv zeta.
  assert (G : forall inbox inc, inbox = true -> gain 1 1 inbox inc = inc 1%Z).
  { intros inbox inc ->. unfold gain. rewrite inb_true by lia. repeat (first [rewrite sumZ_cons by lia | rewrite sumZ_empty by lia]). ring. }
  destruct dr; cbn [pick on_face spacing] in *; unfold x_face, y_face, in_box in H.
  - rewrite !add_flux_x, !G by (rewrite !inb_true by lia; reflexivity). cbn [fst]. unfold from1, slope, coef_l, coef_a, low, lower, comp_index. cbn [pick fst snd spacing]. cbn [Z.add Z.sub Z.mul Z.opp Z.pos_sub].
    field. exact Hs.
  - rewrite !add_flux_y, !G by (rewrite !inb_true by lia; reflexivity). cbn [snd]. unfold from1, slope, coef_l, coef_a, low, lower, comp_index. cbn [pick fst snd spacing]. cbn [Z.add Z.sub Z.mul Z.opp Z.pos_sub].
    field. exact Hs.
Qed.
Lemma flux2 : forall b cl ca d dr i j m, spacing b dr <> 0 -> on_face b dr i j -> (0 <= m <= 1)%Z ->
  pick dr (ebs_flux b 2 cl ca d) i j (m + 1)%Z =
    coef_l d dr i j m * slope b cl dr i j 0 + coef_l d dr i j (2 + m)%Z * slope b cl dr i j 1 +
    (coef_a d dr i j m * slope b ca dr i j 0 + coef_a d dr i j (2 + m)%Z * slope b ca dr i j 1).
Proof.
  intros b cl ca d dr i j m Hs H Hm. unfold ebs_flux. cbv zeta.
  assert (G : forall inbox inc, inbox = true -> gain 2 (m + 1) inbox inc = inc 1%Z + inc 2%Z).
  { intros inbox inc ->. unfold gain. rewrite inb_true by lia. repeat (first [rewrite sumZ_cons by lia | rewrite sumZ_empty by lia]). cbn [Z.add Pos.add Pos.succ]. ring. }
  assert (K1 : (comp_index 2 (m + 1) 1 - 1 = m)%Z) by (unfold comp_index; lia). assert (K2 : (comp_index 2 (m + 1) 2 - 1 = 2 + m)%Z) by (unfold comp_index; lia).
  destruct dr; cbn [pick on_face spacing] in *; unfold x_face, y_face, in_box in H.
  - rewrite !add_flux_x, !G by (rewrite !inb_true by lia; reflexivity). cbn [fst]. unfold from1. rewrite K1, K2. unfold slope, coef_l, coef_a, low, lower. cbn [pick fst snd spacing].
    change (1 - 1)%Z with 0%Z. change (2 - 1)%Z with 1%Z. field. exact Hs.
  - rewrite !add_flux_y, !G by (rewrite !inb_true by lia; reflexivity). cbn [snd]. unfold from1. rewrite K1, K2. unfold slope, coef_l, coef_a, low, lower. cbn [pick fst snd spacing].
    change (1 - 1)%Z with 0%Z. change (2 - 1)%Z with 1%Z. field. exact Hs.
Qed.

(** * Binary alloys *)
Lemma binary_inv : forall gasR x T ms M, 0 < gasR -> mobilityBinary gasR x T ms = Some M -> 0 <= x <= 1 /\ 0 <= M.
Proof.
  intros gasR x T ms M HR E. destruct ms as [| a [| b [| c ms]]]; try discriminate. assert (E' := E). unfold mobilityBinary in E'.
  destruct (unit_range x) eqn:U; [| discriminate]. pose proof (unit_spec x U) as Hx. split; [exact Hx |]. cbv zeta in E'.
  destruct (bind_some _ _ _ _ _ E') as (m0 & E0 & E1). destruct (bind_some _ _ _ _ _ E1) as (m1 & E2 & _).
  destruct (binary_darken gasR a b x T m0 m1 HR Hx E0 E2) as (M' & EM & P & _). rewrite E in EM. injection EM as ->. exact P.
Qed.
Lemma flux_binary : forall gasR it a b p phi temp cl ca dold old d dr i j, 0 < gasR -> dn p = 1%Z -> spacing b dr <> 0 ->
  setDiffusion gasR it a b p phi temp cl ca dold old = Some d -> implemented it -> In a averages -> on_face b dr i j ->
  let T := mean_T temp dr i j in
  0 <= dF_l p T (mean_c cl dr i j) 0%Z -> 0 <= dF_a p T (mean_c ca dr i j) 0%Z ->
  exists Dl Da, 0 <= Dl /\ 0 <= Da /\
    pick dr (ebs_flux b (dn p) cl ca d) i j 1%Z = Dl * slope b cl dr i j 0 + Da * slope b ca dr i j 0 /\
    (low phi dr i j <= 0 -> phi i j <= 0 -> Da = 0 /\ exists M, mobilityBinary gasR (mean_c cl dr i j 0%Z) T (dms_l p) = Some M /\ Dl = M * dF_l p T (mean_c cl dr i j) 0%Z) /\
    (1 <= low phi dr i j -> 1 <= phi i j -> Dl = 0 /\ exists M, mobilityBinary gasR (mean_c ca dr i j 0%Z) T (dms_a p) = Some M /\ Da = M * dF_a p T (mean_c ca dr i j) 0%Z).
Proof.
  intros gasR it a b p phi temp cl ca dold old d dr i j HR N Hs E It Av H T Fl Fa.
  destruct (coef_binary gasR it a b p phi temp cl ca dold old d dr i j N E It Av H) as (w & ml & ma & W & W0 & W1 & El & Ea & Vl & Va). fold T in El, Ea, Vl, Va.
  destruct (binary_inv _ _ _ _ _ HR El) as [_ Pl]. destruct (binary_inv _ _ _ _ _ HR Ea) as [_ Pa].
  exists (coef_l d dr i j 0%Z), (coef_a d dr i j 0%Z). split; [| split; [| split; [| split]]].
  - rewrite Vl. apply Rmult_le_pos; [lra |]. apply Rmult_le_pos; assumption.
  - rewrite Va. apply Rmult_le_pos; [lra |]. apply Rmult_le_pos; assumption.
  - rewrite N. apply flux1; assumption.
  - intros A B. rewrite Vl, Va, (W0 A B). split; [ring |]. exists ml. split; [exact El | ring].
  - intros A B. rewrite Vl, Va, (W1 A B). split; [ring |]. exists ma. split; [exact Ea | ring].
Qed.
(** in an ideal solution the coefficient in one phase is Darken's *)
Lemma flux_darken : forall gasR it a b p phi temp cl ca dold old d dr i j A B m0 m1, 0 < gasR -> dn p = 1%Z -> spacing b dr <> 0 ->
  setDiffusion gasR it a b p phi temp cl ca dold old = Some d -> implemented it -> In a averages -> on_face b dr i j ->
  low phi dr i j <= 0 -> phi i j <= 0 -> dms_l p = [A; B] ->
  let T := mean_T temp dr i j in let x := mean_c cl dr i j 0%Z in 0 < x < 1 -> dF_l p T (mean_c cl dr i j) 0%Z = ideal2 gasR T x ->
  getAtomicMobility2 gasR A x (1 - x) T = Some m0 -> getAtomicMobility2 gasR B x (1 - x) T = Some m1 ->
  pick dr (ebs_flux b (dn p) cl ca d) i j 1%Z = 10 ^ 12 * ((1 - x) * tracer gasR T m0 + x * tracer gasR T m1) * slope b cl dr i j 0.
Proof.
  intros gasR it a b p phi temp cl ca dold old d dr i j A B m0 m1 HR N Hs E It Av H P1 P2 Em T x Hx HF G0 G1.
  destruct (coef_binary gasR it a b p phi temp cl ca dold old d dr i j N E It Av H) as (w & ml & ma & W & W0 & W1 & El & Ea & Vl & Va). fold T in El, Ea, Vl, Va. fold x in El.
  rewrite N, flux1 by assumption. rewrite Vl, Va, (W0 P1 P2), HF. rewrite Em in El.
  destruct (binary_darken gasR A B x T m0 m1 HR ltac:(lra) G0 G1) as (M & EM & _ & _ & D). rewrite El in EM. injection EM as <-. destruct (D Hx) as (_ & V & _). rewrite V. ring.
Qed.
(** compositions in the tolerated margin stop a binary run *)
Lemma margin_stops : forall gasR it a b p phi temp cl ca dold old dr i j, 0 < gasR -> dn p = 1%Z -> implemented it -> In a averages -> on_face b dr i j ->
  (mean_c cl dr i j 0%Z < 0 \/ 1 < mean_c cl dr i j 0%Z \/ mean_c ca dr i j 0%Z < 0 \/ 1 < mean_c ca dr i j 0%Z) ->
  setDiffusion gasR it a b p phi temp cl ca dold old = None.
Proof.
  intros gasR it a b p phi temp cl ca dold old dr i j HR N It Av H B.
  destruct (setDiffusion gasR it a b p phi temp cl ca dold old) as [d |] eqn:E; [| reflexivity]. exfalso.
  destruct (coef_binary gasR it a b p phi temp cl ca dold old d dr i j N E It Av H) as (w & ml & ma & W & W0 & W1 & El & Ea & _).
  destruct (binary_inv _ _ _ _ _ HR El). destruct (binary_inv _ _ _ _ _ HR Ea). lra.
Qed.

(** * Ternary alloys *)
Lemma ternary_list : forall gasR x y T ms M, mobilityTernary gasR x y T ms = Some M -> exists a b c, ms = [a; b; c].
Proof. intros gasR x y T ms M E. destruct ms as [| a [| b [| c [| e ms]]]]; try discriminate. eauto. Qed.
Lemma ternary_sym : forall gasR x y T ms M, mobilityTernary gasR x y T ms = Some M -> M 1%Z = M 2%Z.
Proof.
  intros gasR x y T ms M E. destruct (ternary_list _ _ _ _ _ _ E) as (a & b & c & ->).
  destruct (ternary_inv _ _ _ _ _ _ _ _ E) as (m0 & m1 & m2 & _ & _ & _ & _ & E1 & E2 & _). congruence.
Qed.
Lemma flux_ternary : forall gasR it a b p phi temp cl ca dold old d dr i j, dn p = 2%Z -> spacing b dr <> 0 ->
  setDiffusion gasR it a b p phi temp cl ca dold old = Some d -> implemented it -> In a averages -> on_face b dr i j ->
  symmetric (dF_l p) -> symmetric (dF_a p) ->
  let T := mean_T temp dr i j in let Fl := dF_l p T (mean_c cl dr i j) in let Fa := dF_a p T (mean_c ca dr i j) in
  exists w ML MA, 0 <= w <= 1 /\ (low phi dr i j <= 0 -> phi i j <= 0 -> w = 0) /\ (1 <= low phi dr i j -> 1 <= phi i j -> w = 1) /\
    mobilityTernary gasR (mean_c cl dr i j 0%Z) (mean_c cl dr i j 1%Z) T (dms_l p) = Some ML /\
    mobilityTernary gasR (mean_c ca dr i j 0%Z) (mean_c ca dr i j 1%Z) T (dms_a p) = Some MA /\
    forall m, (0 <= m <= 1)%Z -> pick dr (ebs_flux b (dn p) cl ca d) i j (m + 1)%Z =
      (1 - w) * (product2 Fl ML m 0 * slope b cl dr i j 0 + product2 Fl ML m 1 * slope b cl dr i j 1) +
      w * (product2 Fa MA m 0 * slope b ca dr i j 0 + product2 Fa MA m 1 * slope b ca dr i j 1).
Proof.
  intros gasR it a b p phi temp cl ca dold old d dr i j N Hs E It Av H Sl Sa T Fl Fa.
  destruct (coef_ternary gasR it a b p phi temp cl ca dold old d dr i j N E It Av H) as (w & ML & MA & W & W0 & W1 & EL & EA & V).
  exists w, ML, MA. split; [exact W |]. split; [exact W0 |]. split; [exact W1 |]. split; [exact EL |]. split; [exact EA |].
  intros m Hm. rewrite N, flux2 by assumption. pose proof (ternary_sym _ _ _ _ _ _ EL) as SL. pose proof (ternary_sym _ _ _ _ _ _ EA) as SA.
  destruct (V 0%Z m ltac:(lia) Hm) as [V1 V2]. destruct (V 1%Z m ltac:(lia) Hm) as [V3 V4].
  change (2 * 0 + m)%Z with m in V1, V2. change (2 * 1 + m)%Z with (2 + m)%Z in V3, V4. rewrite V1, V2, V3, V4. fold T Fl Fa.
  assert (TL : product2 ML Fl 0 m = product2 Fl ML m 0 /\ product2 ML Fl 1 m = product2 Fl ML m 1 /\ product2 MA Fa 0 m = product2 Fa MA m 0 /\ product2 MA Fa 1 m = product2 Fa MA m 1).
  { pose proof (Sl T (mean_c cl dr i j)) as S1. pose proof (Sa T (mean_c ca dr i j)) as S2. fold Fl in S1. fold Fa in S2. clearbody Fl Fa. unfold product2, entry2.
    assert (C : m = 0%Z \/ m = 1%Z) by lia. destruct C as [-> | ->];
    cbn [Z.mul Z.add Pos.mul Pos.add Pos.succ]; repeat split; rewrite ?S1, ?S2, ?SL, ?SA; ring. }
  destruct TL as (A1 & A2 & A3 & A4). rewrite A1, A2, A3, A4. ring.
Qed.
(** Fick's law where the species are equally mobile in an ideal solution *)
Lemma flux_fick : forall gasR it a b p phi temp cl ca dold old d dr i j A B C mob, 0 < gasR -> dn p = 2%Z -> spacing b dr <> 0 ->
  setDiffusion gasR it a b p phi temp cl ca dold old = Some d -> implemented it -> In a averages -> on_face b dr i j ->
  low phi dr i j <= 0 -> phi i j <= 0 -> dms_l p = [A; B; C] -> dF_l p = ideal3 gasR -> symmetric (dF_a p) ->
  let T := mean_T temp dr i j in let x := mean_c cl dr i j 0%Z in let y := mean_c cl dr i j 1%Z in 0 < x -> 0 < y -> 0 < 1 - x - y ->
  (forall m, In m [A; B; C] -> getAtomicMobility3 gasR m x y (1 - x - y) T = Some mob) ->
  forall k, (0 <= k <= 1)%Z -> pick dr (ebs_flux b (dn p) cl ca d) i j (k + 1)%Z = 10 ^ 12 * tracer gasR T mob * slope b cl dr i j k.
Proof.
  intros gasR it a b p phi temp cl ca dold old d dr i j A B C mob HR N Hs E It Av H P1 P2 Em EF Sa T x y Hx Hy Hz G k Hk.
  assert (Sl : symmetric (dF_l p)) by (rewrite EF; intros T' c; reflexivity).
  destruct (flux_ternary gasR it a b p phi temp cl ca dold old d dr i j N Hs E It Av H Sl Sa) as (w & ML & MA & W & W0 & _ & EL & _ & V).
  rewrite (V k Hk), (W0 P1 P2). fold T x y in EL. rewrite Em in EL.
  destruct (ternary_inv _ _ _ _ _ _ _ _ EL) as (m0 & m1 & m2 & G0 & G1 & G2 & E0 & E1 & E2 & E3).
  rewrite (G A ltac:(cbn; tauto)) in G0. rewrite (G B ltac:(cbn; tauto)) in G1. rewrite (G C ltac:(cbn; tauto)) in G2.
  injection G0 as <-. injection G1 as <-. injection G2 as <-. fold T. rewrite EF. unfold product2, entry2.
  assert (Ck : k = 0%Z \/ k = 1%Z) by lia. fold m2toum2.
  destruct Ck as [-> | ->]; cbn [Z.mul Z.add Pos.mul Pos.add Pos.succ]; rewrite ?E0, ?E1, ?E2, ?E3; unfold ideal3; cbn [Z.eqb Pos.eqb]; fold x y;
    unfold ternary00, ternary01, ternary11, tracer; field; lra.
Qed.
(** where both matrices commute the fluxes never lower the entropy *)
Lemma flux_dissipates : forall gasR it a b p phi temp cl ca dold old d dr i j, 0 < gasR -> dn p = 2%Z -> spacing b dr <> 0 ->
  setDiffusion gasR it a b p phi temp cl ca dold old = Some d -> implemented it -> In a averages -> on_face b dr i j ->
  low phi dr i j <= 0 -> phi i j <= 0 -> symmetric (dF_l p) -> symmetric (dF_a p) ->
  let T := mean_T temp dr i j in let F := dF_l p T (mean_c cl dr i j) in let x := mean_c cl dr i j 0%Z in let y := mean_c cl dr i j 1%Z in
  simplex x y (1 - x - y) -> (forall M, mobilityTernary gasR x y T (dms_l p) = Some M -> product2 M F 0 1 = product2 F M 0 1) ->
  let f := pick dr (ebs_flux b (dn p) cl ca d) i j in 0 <= production F (f 1%Z) (f 2%Z) (slope b cl dr i j 0) (slope b cl dr i j 1).
Proof.
  intros gasR it a b p phi temp cl ca dold old d dr i j HR N Hs E It Av H P1 P2 Sl Sa T F x y Sx Cm f.
  destruct (flux_ternary gasR it a b p phi temp cl ca dold old d dr i j N Hs E It Av H Sl Sa) as (w & ML & MA & W & W0 & _ & EL & _ & V).
  fold T x y in EL. pose proof (Cm ML EL) as C. pose proof (ternary_sym _ _ _ _ _ _ EL) as SM. destruct (ternary_list _ _ _ _ _ _ EL) as (A & B & Cc & El). rewrite El in EL.
  destruct (ternary_matrix gasR A B Cc x y T ML HR Sx EL) as (_ & Q & _).
  pose proof (V 0%Z ltac:(lia)) as V0. pose proof (V 1%Z ltac:(lia)) as V1. fold T F in V0, V1. change (0 + 1)%Z with 1%Z in V0. change (1 + 1)%Z with 2%Z in V1. fold f in V0, V1.
  rewrite V0, V1, (W0 P1 P2). set (g0 := slope b cl dr i j 0). set (g1 := slope b cl dr i j 1).
  pose proof (Sl T (mean_c cl dr i j)) as SF. fold F in SF. specialize (Q (F 0%Z * g0 + F 1%Z * g1) (F 1%Z * g0 + F 3%Z * g1)).
  clearbody F g0 g1. clear - Q C SF SM. unfold production, product2, entry2, quadratic in *. cbn [Z.mul Z.add Pos.mul Pos.add Pos.succ] in *. rewrite <- SM, <- SF in *.
  assert (K : 0 <= (F 0%Z * g0 + F 1%Z * g1) * (ML 0%Z * (F 0%Z * g0 + F 1%Z * g1) + ML 1%Z * (F 1%Z * g0 + F 3%Z * g1)) +
    (F 1%Z * g0 + F 3%Z * g1) * (ML 1%Z * (F 0%Z * g0 + F 1%Z * g1) + ML 3%Z * (F 1%Z * g0 + F 3%Z * g1))) by (eapply Rle_trans; [exact Q | right; ring]).
  eapply Rle_trans; [exact K |]. right.
  assert (U : ML 0%Z * (F 0%Z * g0 + F 1%Z * g1) + ML 1%Z * (F 1%Z * g0 + F 3%Z * g1) =
    (F 0%Z * ML 0%Z + F 1%Z * ML 1%Z) * g0 + (F 0%Z * ML 1%Z + F 1%Z * ML 3%Z) * g1) by (rewrite <- C; ring).
  assert (U' : ML 1%Z * (F 0%Z * g0 + F 1%Z * g1) + ML 3%Z * (F 1%Z * g0 + F 3%Z * g1) =
    (F 1%Z * ML 0%Z + F 3%Z * ML 1%Z) * g0 + (F 1%Z * ML 1%Z + F 3%Z * ML 3%Z) * g1).
  { replace (F 1%Z * ML 0%Z + F 3%Z * ML 1%Z) with (ML 0%Z * F 1%Z + ML 1%Z * F 3%Z) by ring. rewrite C. ring. }
  rewrite U, U'. ring.
Qed.
(** the factors are multiplied in the wrong order: fluxes that lower the entropy *)
Definition abc_flat (a : R) : database := of_list [("qA", [0; a]); ("qB", [0; a]); ("qC", [0; a])]%string.
Lemma abc_flat_three : forall a, three_species (abc_flat a) (flat a) (flat a) (flat a) no_terms no_terms no_terms.
Proof. intros a. unfold three_species. repeat split; reflexivity. Qed.
Lemma abc_flat_value : forall gasR a, 0 < gasR -> 0 < a -> exists m, initialize (abc_flat a) = Some m /\
  forall T x y, 0 < T -> getAtomicMobility3 gasR m x y (1 - x - y) T = Some (a / (gasR * T)).
Proof.
  intros gasR a HR Ha.
  destruct (ternary_value gasR _ _ _ _ _ _ _ (abc_flat_three a) (flat_good a Ha) (flat_good a Ha) (flat_good a Ha) no_good no_good no_good HR) as (m & E & V).
  exists m. split; [exact E |]. intros T x y HT. rewrite V by exact HT. f_equal.
  assert (B : ternary_barrier gasR T (flat a) (flat a) (flat a) no_terms no_terms no_terms 1 x y (1 - x - y) = gasR * T * ln a).
  { unfold ternary_barrier, interaction, barrier, linear, flat. cbn [sum_f_R0 pow fst snd given no_terms]. rewrite ln_1. ring. }
  rewrite B. replace (gasR * T * ln a / (gasR * T)) with (ln a) by (field; lra). rewrite exp_ln by exact Ha. reflexivity.
Qed.
Lemma known_ok : known "l" "a" = true.
Proof. apply chars_known; cbn; tauto. Qed.
Lemma set_some : forall gasR b p phi temp cl ca dold old,
  (forall i j k, 0 <= cl i j k <= 1) -> (forall i j k, 0 <= ca i j k <= 1) ->
  (forall T c, 0 < T -> (forall k, 0 <= c k <= 1) -> exists M, mobilityPhase gasR (dn p) c T (dms_l p) = Some M) ->
  (forall T c, 0 < T -> (forall k, 0 <= c k <= 1) -> exists M, mobilityPhase gasR (dn p) c T (dms_a p) = Some M) ->
  (forall i j, 0 < temp i j) -> exists d, setDiffusion gasR LINEAR "a" b p phi temp cl ca dold old = Some d.
Proof.
  intros gasR b p phi temp cl ca dold old Tol Tola Hl Ha HT.
  destruct (impl_char LINEAR ltac:(left; reflexivity)) as (c & Ec & Hc). unfold setDiffusion. rewrite Ec. cbn [bind]. rewrite (chars_known c "a" Hc) by (cbn; tauto).
  assert (At : forall i j, all_tolerated (dn p) (cl i j) = true).
  { intros i j. unfold all_tolerated. apply forallb_forall. intros k _. unfold tolerated. specialize (Tol i j k).
    destruct (Rle_dec (- (5 / 100)) (cl i j k)); [| exfalso; lra]. destruct (Rle_dec (cl i j k) (105 / 100)); [reflexivity | exfalso; lra]. }
  assert (Lo : forall F ms T cc old', 0 < T -> (forall k, 0 <= cc k <= 1) ->
    (forall T c, 0 < T -> (forall k, 0 <= c k <= 1) -> exists M, mobilityPhase gasR (dn p) c T ms = Some M) -> exists v, localDiffusionMatrix gasR (dn p) F ms T cc old' = Some v).
  { intros F ms T cc old' HT' Hc' Hm. unfold localDiffusionMatrix. destruct (Hm T cc HT' Hc') as (M & ->). cbn [bind]. eauto. }
  unfold diffCoeff_x, diffCoeff_y. cbv zeta.
  match goal with |- context [fill_opt ?q0 ?q1 ?q2 ?q3 ?n ?f (fst (pl_x dold, ?z))] => destruct (fill_opt_some q0 q1 q2 q3 n f (fst (pl_x dold, z))) as (l1 & E1) end.
  { intros i j _. rewrite !At. cbn [andb]. apply Lo; [| intros k; pose proof (Tol i j k); pose proof (Tol (i - 1)%Z j k); unfold half; lra | exact Hl]. pose proof (HT i j). pose proof (HT (i - 1)%Z j). lra. }
  rewrite E1. cbn [bind].
  match goal with |- context [fill_opt ?q0 ?q1 ?q2 ?q3 ?n ?f (snd (pl_x dold, ?z))] => destruct (fill_opt_some q0 q1 q2 q3 n f (snd (pl_x dold, z))) as (l2 & E2) end.
  { intros i j _. apply Lo; [| intros k; pose proof (Tola i j k); pose proof (Tola (i - 1)%Z j k); unfold half; lra | exact Ha]. pose proof (HT i j). pose proof (HT (i - 1)%Z j). lra. }
  rewrite E2. cbn [bind].
  match goal with |- context [fill_opt ?q0 ?q1 ?q2 ?q3 ?n ?f (fst (pl_y dold, ?z))] => destruct (fill_opt_some q0 q1 q2 q3 n f (fst (pl_y dold, z))) as (l3 & E3) end.
  { intros i j _. apply Lo; [| intros k; pose proof (Tol i j k); pose proof (Tol i (j - 1)%Z k); unfold half; lra | exact Hl]. pose proof (HT i j). pose proof (HT i (j - 1)%Z). lra. }
  rewrite E3. cbn [bind].
  match goal with |- context [fill_opt ?q0 ?q1 ?q2 ?q3 ?n ?f (snd (pl_y dold, ?z))] => destruct (fill_opt_some q0 q1 q2 q3 n f (snd (pl_y dold, z))) as (l4 & E4) end.
  { intros i j _. apply Lo; [| intros k; pose proof (Tola i j k); pose proof (Tola i (j - 1)%Z k); unfold half; lra | exact Ha]. pose proof (HT i j). pose proof (HT i (j - 1)%Z). lra. }
  rewrite E4. cbn [bind]. eexists. reflexivity.
Qed.
Definition step_c : arr3 := fun i _ k => if (k =? 1)%Z then if (i <? 0)%Z then 1 / 3 - 1 / 100 else 1 / 3 + 1 / 100 else 1 / 3.
Definition unit_box : pbox := mk_pbox 0 0 0 0 1 1.
Definition no_pfm : pfm := mk_pfm (fun _ _ _ => 0) (fun _ _ _ => 0) (fun _ _ _ => 0) (fun _ _ _ => 0).
Lemma flux_disorders : forall gasR T, 0 < gasR -> 0 < T -> exists p A B C d, initialize (abc_flat 1) = Some A /\ initialize (abc_flat (1 / 10)) = Some B /\ C = B /\
  p = mk_diff_in 2 (ideal3 gasR) (ideal3 gasR) [A; B; C] [A; B; C] /\
  setDiffusion gasR LINEAR "a" unit_box p (fun _ _ => 0) (fun _ _ => T) step_c step_c no_pfm no_pfm = Some d /\
  (forall i j, 0 < step_c i j 0%Z /\ 0 < step_c i j 1%Z /\ 0 < 1 - step_c i j 0%Z - step_c i j 1%Z) /\
  let F := ideal3 gasR T (mean_c step_c DX 0 0) in let f := fst (ebs_flux unit_box 2 step_c step_c d) 0%Z 0%Z in
  convex_at (ideal3 gasR) T (mean_c step_c DX 0 0) /\ production F (f 1%Z) (f 2%Z) (slope unit_box step_c DX 0 0 0) (slope unit_box step_c DX 0 0 1) < 0.
Proof.
  intros gasR T HR HT. destruct (abc_flat_value gasR 1 HR ltac:(lra)) as (A & EA & VA). destruct (abc_flat_value gasR (1 / 10) HR ltac:(lra)) as (B & EB & VB).
  set (p := mk_diff_in 2 (ideal3 gasR) (ideal3 gasR) [A; B; B] [A; B; B]).
  assert (Mp : forall T' c, 0 < T' -> (forall k, 0 <= c k <= 1) -> exists M, mobilityPhase gasR (dn p) c T' [A; B; B] = Some M).
  { intros T' c HT' _. cbn [dn p]. unfold mobilityPhase. cbn [Z.eqb Pos.eqb]. unfold mobilityTernary. cbv zeta. rewrite VA, !VB by exact HT'. cbn [bind]. eauto. }
  destruct (set_some gasR unit_box p (fun _ _ => 0) (fun _ _ => T) step_c step_c no_pfm no_pfm) as (d & Ed); [| | exact Mp | exact Mp | intros; exact HT |].
  1,2: intros i j k; unfold step_c; destruct (k =? 1)%Z; [destruct (i <? 0)%Z |]; lra.
  exists p, A, B, B, d. split; [exact EA |]. split; [exact EB |]. split; [reflexivity |]. split; [reflexivity |]. split; [exact Ed |]. split.
  { intros i j. unfold step_c. cbn [Z.eqb Pos.eqb]. destruct (i <? 0)%Z; lra. }
  intros F f.
  assert (H : on_face unit_box DX 0 0) by (unfold on_face, x_face, in_box, unit_box; cbn [lo0 hi0 lo1 hi1]; lia).
  destruct (flux_ternary gasR LINEAR "a" unit_box p (fun _ _ => 0) (fun _ _ => T) step_c step_c no_pfm no_pfm d DX 0 0 eq_refl ltac:(unfold spacing, unit_box; cbn [h1]; lra) Ed
    ltac:(left; reflexivity) ltac:(cbn; tauto) H ltac:(intros T' c; reflexivity) ltac:(intros T' c; reflexivity)) as (w & ML & MA & W & W0 & _ & EL & _ & V).
  assert (ET : mean_T (fun _ _ => T) DX 0 0 = T) by (unfold mean_T, mean, low; lra). rewrite ET in EL, V.
  assert (Ex : mean_c step_c DX 0 0 0%Z = 1 / 3) by (unfold mean_c, mean, low, lower, step_c; cbn [fst snd Z.eqb Z.sub Z.opp Z.add Pos.eqb Z.ltb Z.compare]; lra).
  assert (Ey : mean_c step_c DX 0 0 1%Z = 1 / 3) by (unfold mean_c, mean, low, lower, step_c; cbn [fst snd Z.eqb Z.sub Z.opp Z.add Pos.eqb Z.ltb Z.compare]; lra).
  rewrite Ex, Ey in EL. change (dms_l p) with [A; B; B] in EL.
  destruct (ternary_inv _ _ _ _ _ _ _ _ EL) as (m0 & m1 & m2 & G0 & G1 & G2 & E0 & E1 & E2 & E3).
  rewrite VA in G0 by exact HT. rewrite VB in G1, G2 by exact HT. injection G0 as <-. injection G1 as <-. injection G2 as <-.
  assert (S0 : slope unit_box step_c DX 0 0 0 = 0) by (unfold slope, low, lower, step_c, spacing, unit_box; cbn [fst snd h1 Z.eqb Z.sub Z.opp Z.add Pos.eqb Z.ltb Z.compare]; lra).
  assert (S1 : slope unit_box step_c DX 0 0 1 = 2 / 100) by (unfold slope, low, lower, step_c, spacing, unit_box; cbn [fst snd h1 Z.eqb Z.sub Z.opp Z.add Pos.eqb Z.ltb Z.compare]; lra).
  assert (F0 : F 0%Z = 6 * (gasR * T)) by (unfold F, ideal3; cbv zeta; cbn [Z.eqb Pos.eqb]; rewrite Ex, Ey; field).
  assert (F1 : F 1%Z = 3 * (gasR * T)) by (unfold F, ideal3; cbv zeta; cbn [Z.eqb Pos.eqb]; rewrite Ex, Ey; field).
  assert (F2 : F 2%Z = 3 * (gasR * T)) by (unfold F, ideal3; cbv zeta; cbn [Z.eqb Pos.eqb]; rewrite Ex, Ey; field).
  assert (F3 : F 3%Z = 6 * (gasR * T)) by (unfold F, ideal3; cbv zeta; cbn [Z.eqb Pos.eqb]; rewrite Ex, Ey; field).
  assert (HRT : 0 < gasR * T) by (apply Rmult_lt_0_compat; assumption). pose proof big as Bg.
  split.
  - intros u v Huv. fold F. unfold quadratic. rewrite F0, F1, F2, F3.
    replace (6 * (gasR * T) * u * u + (3 * (gasR * T) + 3 * (gasR * T)) * u * v + 6 * (gasR * T) * v * v) with (3 * (gasR * T) * (u * u + v * v + (u + v) * (u + v))) by ring.
    apply Rmult_lt_0_compat; [lra |]. pose proof (Rle_0_sqr u) as Q1. pose proof (Rle_0_sqr v) as Q2. pose proof (Rle_0_sqr (u + v)) as Q3. unfold Rsqr in *.
    destruct Huv as [Hu | Hv]; [pose proof (Rsqr_pos_lt u Hu) as Q | pose proof (Rsqr_pos_lt v Hv) as Q]; unfold Rsqr in Q; lra.
  - pose proof (V 0%Z ltac:(lia)) as V0. pose proof (V 1%Z ltac:(lia)) as V1. change (dn p) with 2%Z in V0, V1. change (0 + 1)%Z with 1%Z in V0. change (1 + 1)%Z with 2%Z in V1.
    cbn [pick] in V0, V1. fold f in V0, V1. change (dF_l p) with (ideal3 gasR) in V0, V1. fold F in V0, V1.
    rewrite (W0 ltac:(unfold low; lra) ltac:(lra)) in V0, V1. rewrite V0, V1, S0, S1. unfold production, product2, entry2. cbn [Z.mul Z.add Pos.mul Pos.add Pos.succ].
    rewrite F0, F1, F2, F3, E1, E3. unfold ternary01, ternary11.
    match goal with |- ?t < 0 => replace t with (- (gasR * T * m2toum2 * (12 / 100000))) end.
    + assert (0 < gasR * T * m2toum2) by (apply Rmult_lt_0_compat; assumption). lra.
    + field. lra.
Qed.

(** * Thermal diffusion *)
Lemma thermal_stops : forall f db b a temp mq0 mq1 flux v, db "gradT_Q0"%string = Some v -> flux_on_patch f db b a temp mq0 mq1 flux = None.
Proof.
  intros f db b a temp mq0 mq1 flux v E. unfold flux_on_patch, read_gradT. rewrite E. destruct f; cbn [create bind]; try reflexivity;
  destruct v as [| x [| y v]]; cbn [bind]; try reflexivity; destruct (db "gradT_Q1"%string) as [[| y [| z u]] |]; reflexivity.
Qed.
Lemma thermal_absent : forall f db b a temp mq0 mq1 flux, db "gradT_Q0"%string = None ->
  flux_on_patch f db b a temp mq0 mq1 flux = match f with SPINODAL => None | _ => Some flux end.
Proof. intros f db b a temp mq0 mq1 flux E. unfold flux_on_patch, read_gradT. rewrite E. destruct f; reflexivity. Qed.
Lemma recursion_endless : forall (S : Type) (g : S -> S) fuel s, setDiffusionCoeff fuel g s = None.
Proof. intros S g fuel. induction fuel as [| k IH]; intros s; [reflexivity | apply IH]. Qed.
Lemma average_pos : forall p q a v, In a averages -> avg_threshold <= p -> avg_threshold <= q -> average_func p q a = Some v -> 0 < v /\ between p q v.
Proof.
  assert (Th : 0 < avg_threshold) by (unfold avg_threshold; lra).
  intros p q a v Ha Hp Hq E. cbn in Ha. destruct Ha as [<- | [<- | []]].
  - injection E as <-. unfold between, Rmin, Rmax. destruct (Rle_dec p q); lra.
  - cbn [average_func] in E. destruct (Rlt_dec p avg_threshold); [lra |]. destruct (Rlt_dec q avg_threshold); [lra |]. injection E as <-.
    replace (2 / (1 / p + 1 / q)) with (2 * p * q / (p + q)) by (field; lra).
    assert (Pq : 0 < p * q) by (apply Rmult_lt_0_compat; lra). split; [apply Rdiv_lt_0_compat; lra |].
    unfold between, Rmin, Rmax. destruct (Rle_dec p q).
    + assert (0 <= p * (q - p)) by (apply Rmult_le_pos; lra). assert (0 <= q * (q - p)) by (apply Rmult_le_pos; lra).
      split; apply (Rmult_le_reg_r (p + q)); try lra; unfold Rdiv; rewrite Rmult_assoc, Rinv_l, Rmult_1_r by lra; lra.
    + assert (0 <= p * (p - q)) by (apply Rmult_le_pos; lra). assert (0 <= q * (p - q)) by (apply Rmult_le_pos; lra).
      split; apply (Rmult_le_reg_r (p + q)); try lra; unfold Rdiv; rewrite Rmult_assoc, Rinv_l, Rmult_1_r by lra; lra.
Qed.
(** the kernel itself: a flux towards the cold side or the hot side by the sign of the coefficient, none at uniform temperature *)
Lemma thermal_kernel : forall b a temp mq0 mq1 flux dr i j, In a averages -> 0 < spacing b dr -> on_face b dr i j ->
  avg_threshold <= temp i j -> avg_threshold <= low temp dr i j ->
  exists out, add_flux_gradT b a temp mq0 mq1 flux = Some out /\
    exists m, 0 < m /\ between (low temp dr i j) (temp i j) m /\
      pick dr out i j = pick dr flux i j - pick dr (mq0, mq1) i j * ((temp i j - low temp dr i j) / spacing b dr) / m.
Proof.
  intros b a temp mq0 mq1 flux dr i j Ha Hs H T1 T2. unfold add_flux_gradT.
  assert (K : exists v0, average_func 0 0 a = Some v0) by (cbn in Ha; destruct Ha as [<- | [<- | []]]; eexists; reflexivity). destruct K as (v0 & ->).
  eexists. split; [reflexivity |].
  assert (K : exists m, average_func (low temp dr i j) (temp i j) a = Some m) by (cbn in Ha; destruct Ha as [<- | [<- | []]]; eexists; reflexivity). destruct K as (m & Em).
  destruct (average_pos _ _ a m Ha T2 T1 Em) as [P B]. exists m. split; [exact P |]. split; [exact B |].
  destruct dr; cbn [pick fst snd on_face spacing] in *.
  - rewrite xfaces_val by exact H. change (temp (i - 1)%Z j) with (low temp DX i j). rewrite Em. cbn [val Energy_Model.val]. field. lra.
  - rewrite yfaces_val by exact H. change (temp i (j - 1)%Z) with (low temp DY i j). rewrite Em. cbn [val Energy_Model.val]. field. lra.
Qed.
