From Coq Require Import Reals ZArith List Bool Lra Lia.
From Verif Require Import BcCoefs_Model BcCoefs_Spec BcCoefs_Proofs TempHistory_Model TempHistory_Spec.
Import ListNotations.
Open Scope R_scope.

Lemma count_ge_spec x l : exists k, count_ge x l = Z.of_nat k /\ (k <= length l)%nat /\ (forall i u, (i < k)%nat -> nth_error l i = Some u -> u <= x) /\
  (forall u, nth_error l k = Some u -> x < u).
Proof.
  induction l as [|t l IH]; [exists 0%nat; cbn; repeat split; auto; intros; try lia; discriminate|]. cbn [count_ge]. destruct (Rge_dec x t) as [G|G].
  - destruct IH as (k & -> & L & A & B). exists (S k). split; [lia|]. split; [cbn; lia|]. split; [|exact B]. intros [|i] u Hi Hu; cbn in Hu; [injection Hu as <-; lra|]. apply (A i); auto. lia.
  - exists 0%nat. split; [auto|]. split; [lia|]. split; [intros; lia|]. cbn. intros u Hu. injection Hu as <-. lra.
Qed.
Lemma count_gt_spec x l : exists k, count_gt x l = Z.of_nat k /\ (k <= length l)%nat /\ (forall i u, (i < k)%nat -> nth_error l i = Some u -> u < x) /\
  (forall u, nth_error l k = Some u -> x <= u).
Proof.
  induction l as [|t l IH]; [exists 0%nat; cbn; repeat split; auto; intros; try lia; discriminate|]. cbn [count_gt]. destruct (Rgt_dec x t) as [G|G].
  - destruct IH as (k & -> & L & A & B). exists (S k). split; [lia|]. split; [cbn; lia|]. split; [|exact B]. intros [|i] u Hi Hu; cbn in Hu; [injection Hu as <-; lra|]. apply (A i); auto. lia.
  - exists 0%nat. split; [auto|]. split; [lia|]. split; [intros; lia|]. cbn. intros u Hu. injection Hu as <-. lra.
Qed.
Lemma u32_small n : (0 <= n < 2 ^ 32)%Z -> u32 n = n.
Proof. intros. apply Z.mod_small. auto. Qed.
Lemma nth_some {A} (l : list A) i : (i < length l)%nat -> exists u, nth_error l i = Some u.
Proof. intros H. destruct (nth_error l i) eqn:E; [eauto|]. apply nth_error_None in E. lia. Qed.
Lemma at2_nat l i j : at2 l (Z.of_nat i) (Z.of_nat j) = match nth_error l i with Some row => nth_error row j | None => None end.
Proof. unfold at2. rewrite (proj2 (Z.leb_le _ _)) by lia. rewrite Nat2Z.id. destruct (nth_error l i); [apply at_slot_nat|auto]. Qed.
Lemma entry_at h i j v : entry h i j v <-> at2 (d_temperatures h) (Z.of_nat i) (Z.of_nat j) = Some v.
Proof.
  rewrite at2_nat. split; [intros (row & -> & H); auto|]. destruct (nth_error (d_temperatures h) i) as [row|] eqn:E; [|discriminate]. intros H. exists row. auto.
Qed.
Lemma entry_exists h i j : table_ok h -> (i < length (d_times h))%nat -> (j < length (d_positions h))%nat -> exists v, entry h i j v.
Proof.
  intros (_ & _ & _ & _ & _ & _ & Lt & Lr) Hi Hj. destruct (nth_some (d_temperatures h) i) as (row & Hr); [lia|].
  assert (length row = length (d_positions h)) by (apply (proj1 (Forall_forall _ _) Lr); eapply nth_error_In; eauto).
  destruct (nth_some row j) as (v & Hv); [lia|]. exists v, row. auto.
Qed.
Lemma entry_unique h i j v w : entry h i j v -> entry h i j w -> v = w.
Proof. intros (r & R1 & R2) (r' & R1' & R2'). congruence. Qed.

(** time outside *)
Lemma early : forall h t x t0, table_ok h -> nth_error (d_times h) 0 = Some t0 -> t < t0 -> getTandGradT h t x = Rejected.
Proof.
  intros h t x t0 H E L. unfold getTandGradT. change 0%Z with (Z.of_nat 0). rewrite at_slot_nat, E. cbn [need]. destruct (Rlt_dec t t0); [auto|lra].
Qed.
Lemma late : forall h t x tl, table_ok h -> last_of (d_times h) tl -> tl <= t -> getTandGradT h t x = Rejected.
Proof.
  intros h t x tl (I1 & _ & L1 & _ & B1 & _) E L. unfold getTandGradT. change 0%Z with (Z.of_nat 0). rewrite at_slot_nat.
  destruct (nth_some (d_times h) 0) as (t0 & E0); [lia|]. rewrite E0. cbn [need]. destruct (Rlt_dec t t0); [auto|].
  destruct (count_ge_spec t (d_times h)) as (k & -> & Lk & A & B). assert (k = length (d_times h)).
  { destruct (Nat.eq_dec k (length (d_times h))); auto. exfalso. destruct (nth_some (d_times h) k) as (u & Hu); [lia|]. specialize (B u Hu).
    unfold last_of in E. destruct (Nat.eq_dec k (length (d_times h) - 1)) as [->|N]; [rewrite E in Hu; injection Hu as ->; lra|].
    assert (u < tl) by (eapply (increasing_nth (d_times h) k (length (d_times h) - 1)); eauto; lia). lra. }
  change (2 ^ 32)%Z with 4294967296%Z in *. rewrite (u32_small (Z.of_nat k - 1)) by (change (2 ^ 32)%Z with 4294967296%Z; lia). rewrite (u32_small (Z.of_nat k - 1 + 1)) by (change (2 ^ 32)%Z with 4294967296%Z; lia). rewrite (proj2 (Z.leb_le _ _)) by lia. auto.
Qed.

(** the time interval *)
Lemma time_slot h t t0 tl : table_ok h -> nth_error (d_times h) 0 = Some t0 -> last_of (d_times h) tl -> t0 <= t < tl ->
  exists i tm tp, u32 (count_ge t (d_times h) - 1) = Z.of_nat i /\ (S i < length (d_times h))%nat /\ nth_error (d_times h) i = Some tm /\ nth_error (d_times h) (S i) = Some tp /\ tm <= t < tp.
Proof.
  intros (I1 & _ & L1 & _ & B1 & _) E0 El Ht. destruct (count_ge_spec t (d_times h)) as (k & -> & Lk & A & B).
  destruct k as [|k]; [specialize (B t0 E0); lra|]. exists k.
  destruct (nth_some (d_times h) k) as (tm & Hm); [lia|].
  assert (S k < length (d_times h))%nat.
  { destruct (Nat.eq_dec (S k) (length (d_times h))); [|lia]. exfalso. specialize (A k tm ltac:(lia) Hm). unfold last_of in El. replace (length (d_times h) - 1)%nat with k in El by lia. rewrite El in Hm. injection Hm as ->. lra. }
  destruct (nth_some (d_times h) (S k)) as (tp & Hp); [lia|]. exists tm, tp. rewrite u32_small by lia. repeat split; auto; [lia| apply (A k); auto ].
Qed.
Lemma pos_slot h x x0 xl : table_ok h -> nth_error (d_positions h) 0 = Some x0 -> last_of (d_positions h) xl -> x0 < x <= xl ->
  exists j xm xp, u32 (count_gt x (d_positions h) - 1) = Z.of_nat j /\ (S j < length (d_positions h))%nat /\ nth_error (d_positions h) j = Some xm /\ nth_error (d_positions h) (S j) = Some xp /\ xm < x <= xp.
Proof.
  intros (_ & I1 & _ & L1 & _ & B1 & _) E0 El Ht. destruct (count_gt_spec x (d_positions h)) as (k & -> & Lk & A & B).
  destruct k as [|k]; [specialize (B x0 E0); lra|]. exists k.
  destruct (nth_some (d_positions h) k) as (tm & Hm); [lia|].
  assert (S k < length (d_positions h))%nat.
  { destruct (Nat.eq_dec (S k) (length (d_positions h))); [|lia]. exfalso. specialize (A k tm ltac:(lia) Hm). unfold last_of in El. replace (length (d_positions h) - 1)%nat with k in El by lia. rewrite El in Hm. injection Hm as ->. lra. }
  destruct (nth_some (d_positions h) (S k)) as (tp & Hp); [lia|]. exists tm, tp. rewrite u32_small by lia. repeat split; auto; [lia| apply (A k); auto].
Qed.

(** position outside *)
Lemma outside : forall h t x x0 xl, table_ok h -> nth_error (d_positions h) 0 = Some x0 -> last_of (d_positions h) xl -> x < x0 \/ xl < x -> getTandGradT h t x = Rejected.
Proof.
  intros h t x x0 xl H E0 El Hx. pose proof H as (I1 & I2 & L1 & L2 & B1 & B2 & _).
  destruct (nth_some (d_times h) 0) as (t0 & Et0); [lia|]. destruct (nth_some (d_times h) (length (d_times h) - 1)) as (tl & Etl); [lia|].
  destruct (Rlt_dec t t0) as [L|L]; [eapply early; eauto|]. destruct (Rle_dec tl t) as [L'|L']; [eapply late; eauto|].
  destruct (time_slot h t t0 tl H Et0 Etl ltac:(lra)) as (i & tm & tp & Ei & Hi & Hm & Hp & Ht).
  unfold getTandGradT. rewrite Ei. change 0%Z with (Z.of_nat 0). rewrite !at_slot_nat, Et0, E0. cbn [need]. destruct (Rlt_dec t t0); [lra|].
  rewrite (u32_small (Z.of_nat i + 1)) by lia. rewrite (proj2 (Z.leb_gt _ _)) by lia. rewrite Hm. cbn [need]. replace (Z.of_nat i + 1)%Z with (Z.of_nat (S i)) by lia. rewrite at_slot_nat, Hp. cbn [need].
  destruct (Rlt_dec x x0); [auto|]. destruct Hx as [Hx|Hx]; [lra|].
  destruct (count_gt_spec x (d_positions h)) as (k & -> & Lk & A & B). assert (k = length (d_positions h)).
  { destruct (Nat.eq_dec k (length (d_positions h))); auto. exfalso. destruct (nth_some (d_positions h) k) as (u & Hu); [lia|]. specialize (B u Hu).
    unfold last_of in El. destruct (Nat.eq_dec k (length (d_positions h) - 1)) as [->|N]; [rewrite El in Hu; injection Hu as ->; lra|].
    assert (u < xl) by (eapply (increasing_nth (d_positions h) k (length (d_positions h) - 1)); eauto; lia). lra. }
  change (2 ^ 32)%Z with 4294967296%Z in *. rewrite (u32_small (Z.of_nat k - 1)) by (change (2 ^ 32)%Z with 4294967296%Z; lia). rewrite (u32_small (Z.of_nat k - 1 + 1)) by (change (2 ^ 32)%Z with 4294967296%Z; lia). rewrite (proj2 (Z.leb_le _ _)) by lia. auto.
Qed.

(** the first position itself *)
Lemma first_position : forall h t x0 t0 tl, table_ok h -> nth_error (d_positions h) 0 = Some x0 -> nth_error (d_times h) 0 = Some t0 -> last_of (d_times h) tl ->
  t0 <= t < tl -> getTandGradT h t x0 = OutOfTable.
Proof.
  intros h t x t0 tl H E0 Et0 Etl Ht0. pose proof H as (I1 & I2 & L1 & L2 & B1 & B2 & _).
  destruct (time_slot h t t0 tl H Et0 Etl ltac:(lra)) as (i & tm & tp & Ei & Hi & Hm & Hp & Ht).
  unfold getTandGradT. rewrite Ei. change (at_slot (d_times h) 0) with (at_slot (d_times h) (Z.of_nat 0)). change (at_slot (d_positions h) 0) with (at_slot (d_positions h) (Z.of_nat 0)).
  rewrite !at_slot_nat, Et0, E0. cbn [need]. destruct (Rlt_dec t t0); [lra|].
  rewrite (u32_small (Z.of_nat i + 1)) by lia. rewrite (proj2 (Z.leb_gt _ _)) by lia. rewrite Hm. cbn [need]. replace (Z.of_nat i + 1)%Z with (Z.of_nat (S i)) by lia. rewrite at_slot_nat, Hp. cbn [need].
  destruct (Rlt_dec x x); [lra|].
  assert (C : count_gt x (d_positions h) = 0%Z).
  { destruct (d_positions h) as [|y l]; [discriminate|]. cbn in E0. injection E0 as ->. cbn. destruct (Rgt_dec x x); [lra|auto]. }
  rewrite C. change (u32 (0 - 1)) with (2 ^ 32 - 1)%Z. change (u32 (2 ^ 32 - 1 + 1)) with 0%Z. rewrite (proj2 (Z.leb_gt _ _)) by lia.
  assert (N : at_slot (d_positions h) (2 ^ 32 - 1) = None).
  { unfold at_slot. rewrite (proj2 (Z.leb_le _ _)) by lia. apply nth_error_None. lia. }
  rewrite N. auto.
Qed.

(** inside *)
Lemma frac_range a b x : a < b -> a <= x <= b -> 0 <= (x - a) / (b - a) <= 1.
Proof. intros H Hx. split; [apply Rle_mult_inv_pos; lra|]. apply Rmult_le_reg_r with (b - a); [lra|]. unfold Rdiv. rewrite Rmult_assoc, Rinv_l by lra. lra. Qed.

Lemma inside_lookup h t x t0 tl x0 xl : table_ok h -> nth_error (d_times h) 0 = Some t0 -> last_of (d_times h) tl -> t0 <= t < tl ->
  nth_error (d_positions h) 0 = Some x0 -> last_of (d_positions h) xl -> x0 < x <= xl ->
  exists i j tm tp xm xp a b c d g, nth_error (d_times h) i = Some tm /\ nth_error (d_times h) (S i) = Some tp /\
    nth_error (d_positions h) j = Some xm /\ nth_error (d_positions h) (S j) = Some xp /\ tm <= t < tp /\ xm < x <= xp /\
    entry h i j a /\ entry h i (S j) b /\ entry h (S i) j c /\ entry h (S i) (S j) d /\
    let tf := (t - tm) / (tp - tm) in let xf := (x - xm) / (xp - xm) in
    getTandGradT h t x = Found ((1 - tf) * ((1 - xf) * a + xf * b) + tf * ((1 - xf) * c + xf * d)) g /\
    exists w s1 s2 s3 s4, 0 <= w <= 1 /\ g = (1 - tf) * ((1 - w) * s1 + w * s2) + tf * ((1 - w) * s3 + w * s4) /\
      exists j', row_slope h i j s1 /\ row_slope h i j' s2 /\ row_slope h (S i) j s3 /\ row_slope h (S i) j' s4.
Proof.
  intros H Et0 Etl Ht0 E0 El Hx0. pose proof H as (I1 & I2 & L1 & L2 & B1 & B2 & _).
  destruct (time_slot h t t0 tl H Et0 Etl ltac:(lra)) as (i & tm & tp & Ei & Hi & Hm & Hp & Ht).
  destruct (pos_slot h x x0 xl H E0 El ltac:(lra)) as (j & xm & xp & Ej & Hj & Hxm & Hxp & Hx).
  destruct (entry_exists h i j H) as (a & Ha); [lia|lia|]. destruct (entry_exists h i (S j) H) as (b & Hb); [lia|lia|].
  destruct (entry_exists h (S i) j H) as (c & Hc); [lia|lia|]. destruct (entry_exists h (S i) (S j) H) as (d & Hd); [lia|lia|].
  exists i, j, tm, tp, xm, xp, a, b, c, d.
  unfold getTandGradT. rewrite Ei, Ej. change (at_slot (d_times h) 0) with (at_slot (d_times h) (Z.of_nat 0)). change (at_slot (d_positions h) 0) with (at_slot (d_positions h) (Z.of_nat 0)).
  rewrite !at_slot_nat, Et0, E0. cbn [need]. destruct (Rlt_dec t t0); [lra|]. destruct (Rlt_dec x x0); [lra|].
  rewrite (u32_small (Z.of_nat i + 1)) by lia. rewrite (u32_small (Z.of_nat j + 1)) by lia. rewrite (u32_small (Z.of_nat i)) by lia. rewrite (u32_small (Z.of_nat j)) by lia.
  rewrite (proj2 (Z.leb_gt _ _)) by lia. rewrite (proj2 (Z.leb_gt _ _)) by lia. rewrite Hm, Hxm.
  replace (Z.of_nat i + 1)%Z with (Z.of_nat (S i)) by lia. replace (Z.of_nat j + 1)%Z with (Z.of_nat (S j)) by lia. rewrite !at_slot_nat, Hp, Hxp. cbn [need].
  rewrite (proj1 (entry_at h i j a) Ha), (proj1 (entry_at h i (S j) b) Hb), (proj1 (entry_at h (S i) j c) Hc), (proj1 (entry_at h (S i) (S j) d) Hd). cbn [need].
  set (tf := (t - tm) / (tp - tm)). set (xf := (x - xm) / (xp - xm)).
  pose proof (frac_range xm xp x ltac:(lra) ltac:(lra)) as Hxf. fold xf in Hxf.
  assert (SJ : row_slope h i j ((b - a) / (xp - xm)) /\ row_slope h (S i) j ((d - c) / (xp - xm))).
  { split; [exists xm, xp, a, b|exists xm, xp, c, d]; auto. }
  destruct SJ as [SJ1 SJ2].
  destruct ((0 <? Z.of_nat j)%Z && (if Rlt_dec xf (1 / 2) then true else false)) eqn:C1.
  - apply andb_prop in C1. destruct C1 as [C1 C2]. apply Z.ltb_lt in C1. destruct (Rlt_dec xf (1 / 2)) as [Lx|]; [|discriminate].
    replace (Z.of_nat j - 1)%Z with (Z.of_nat (j - 1)) by lia. rewrite (u32_small (Z.of_nat (j - 1))) by lia. rewrite !at_slot_nat.
    destruct (nth_some (d_positions h) (j - 1)) as (xmm & Hxmm); [lia|]. rewrite Hxmm. cbn [need].
    destruct (entry_exists h i (j - 1) H) as (a' & Ha'); [lia|lia|]. destruct (entry_exists h (S i) (j - 1) H) as (c' & Hc'); [lia|lia|].
    rewrite (proj1 (entry_at _ _ _ _) Ha'), (proj1 (entry_at _ _ _ _) Hc'). cbn [need].
    eexists. do 10 (split; [eauto|]). split; [reflexivity|].
    exists (1 / 2 - xf), ((b - a) / (xp - xm)), ((a - a') / (xm - xmm)), ((d - c) / (xp - xm)), ((c - c') / (xm - xmm)). split; [lra|]. split; [replace (1 - (1 / 2 - xf)) with (1 / 2 + xf) by lra; ring|].
    exists (j - 1)%nat. split; [auto|]. split; [exists xmm, xm, a', a; replace (S (j - 1)) with j by lia; auto|]. split; [auto|]. exists xmm, xm, c', c; replace (S (j - 1)) with j by lia; auto.
  - destruct ((u32 (Z.of_nat j + 2) <? Z.of_nat (length (d_positions h)))%Z && (if Rgt_dec xf (1 / 2) then true else false)) eqn:C2.
    + apply andb_prop in C2. destruct C2 as [C2 C3]. destruct (Rgt_dec xf (1 / 2)) as [Lx|]; [|discriminate].
      assert (Hj2 : (j + 2 < length (d_positions h))%nat).
      { apply Z.ltb_lt in C2. destruct (Z.eq_dec (Z.of_nat j + 2) (2 ^ 32)) as [E|E]; [|rewrite u32_small in C2 by lia; lia].
        exfalso. assert (j = Z.to_nat (2 ^ 32 - 2))%nat by lia.
        (* the last interval of a table with 2^32 - 1 positions *)
        lia. }
      rewrite (u32_small (Z.of_nat j + 2)) by lia. replace (Z.of_nat j + 2)%Z with (Z.of_nat (S (S j))) by lia. rewrite !at_slot_nat.
      destruct (nth_some (d_positions h) (S (S j))) as (xpp & Hxpp); [lia|]. rewrite Hxpp. cbn [need].
      destruct (entry_exists h i (S (S j)) H) as (b' & Hb'); [lia|lia|]. destruct (entry_exists h (S i) (S (S j)) H) as (d' & Hd'); [lia|lia|].
      rewrite (proj1 (entry_at _ _ _ _) Hb'), (proj1 (entry_at _ _ _ _) Hd'). cbn [need].
      eexists. do 10 (split; [eauto|]). split; [reflexivity|].
      exists (xf - 1 / 2), ((b - a) / (xp - xm)), ((b' - b) / (xpp - xp)), ((d - c) / (xp - xm)), ((d' - d) / (xpp - xp)). split; [lra|]. split; [replace (1 - (xf - 1 / 2)) with (3 / 2 - xf) by lra; ring|].
      exists (S j). split; [auto|]. split; [exists xp, xpp, b, b'; auto|]. split; [auto|]. exists xp, xpp, d, d'; auto.
    + eexists. do 10 (split; [eauto|]). split; [reflexivity|].
      exists 0, ((b - a) / (xp - xm)), ((b - a) / (xp - xm)), ((d - c) / (xp - xm)), ((d - c) / (xp - xm)). split; [lra|]. split; [ring|].
      exists j. auto.
Qed.

Lemma lookup_bilinear : forall h t x t0 tl x0 xl, table_ok h -> nth_error (d_times h) 0 = Some t0 -> last_of (d_times h) tl -> t0 <= t < tl ->
  nth_error (d_positions h) 0 = Some x0 -> last_of (d_positions h) xl -> x0 < x <= xl ->
  exists T g, getTandGradT h t x = Found T g /\ bilinear h t x T.
Proof.
  intros h t x t0 tl x0 xl H A B C D E F. destruct (inside_lookup h t x t0 tl x0 xl H A B C D E F) as (i & j & tm & tp & xm & xp & a & b & c & d & g & P1 & P2 & P3 & P4 & P5 & P6 & P7 & P8 & P9 & P10 & P11 & _).
  eexists; exists g. split; [exact P11|]. exists i, j, tm, tp, xm, xp, a, b, c, d. do 10 (split; [auto|]). field. lra.
Qed.
Lemma convex lo hi a b w : lo <= a <= hi -> lo <= b <= hi -> 0 <= w <= 1 -> lo <= (1 - w) * a + w * b <= hi.
Proof.
  intros Ha Hb Hw. assert (0 <= (1 - w) * (a - lo)) by (apply Rmult_le_pos; lra). assert (0 <= w * (b - lo)) by (apply Rmult_le_pos; lra).
  assert (0 <= (1 - w) * (hi - a)) by (apply Rmult_le_pos; lra). assert (0 <= w * (hi - b)) by (apply Rmult_le_pos; lra). lra.
Qed.
Lemma lookup_bounds : forall h t x T g lo hi, table_ok h -> getTandGradT h t x = Found T g ->
  ((forall i j v, entry h i j v -> lo <= v <= hi) -> lo <= T <= hi) /\ ((forall i j s, row_slope h i j s -> lo <= s <= hi) -> lo <= g <= hi).
Proof.
  intros h t x T g lo hi H E. pose proof H as (I1 & I2 & L1 & L2 & B1 & B2 & _).
  destruct (nth_some (d_times h) 0) as (t0 & Et0); [lia|]. destruct (nth_some (d_times h) (length (d_times h) - 1)) as (tl & Etl); [lia|].
  destruct (nth_some (d_positions h) 0) as (x0 & Ex0); [lia|]. destruct (nth_some (d_positions h) (length (d_positions h) - 1)) as (xl & Exl); [lia|].
  destruct (Rlt_dec t t0) as [L|L]; [rewrite (early h t x t0) in E; auto; discriminate|]. destruct (Rle_dec tl t) as [L'|L']; [rewrite (late h t x tl) in E; auto; discriminate|].
  destruct (Rlt_dec x x0) as [M|M]; [rewrite (outside h t x x0 xl) in E; auto; discriminate|]. destruct (Rlt_dec xl x) as [M'|M']; [rewrite (outside h t x x0 xl) in E; auto; discriminate|].
  destruct (Req_dec x x0) as [->|N]; [rewrite (first_position h t x0 t0 tl) in E; auto; [discriminate|lra]|].
  destruct (inside_lookup h t x t0 tl x0 xl) as (i & j & tm & tp & xm & xp & a & b & c & d & g' & P1 & P2 & P3 & P4 & P5 & P6 & P7 & P8 & P9 & P10 & P11 & w & s1 & s2 & s3 & s4 & W & G & j' & S1 & S2 & S3 & S4); auto; try lra.
  rewrite E in P11. injection P11 as -> ->.
  pose proof (frac_range tm tp t ltac:(lra) ltac:(lra)). pose proof (frac_range xm xp x ltac:(lra) ltac:(lra)).
  split; intros K; [|rewrite G]; repeat apply convex; eauto.
Qed.
Lemma lookup_exact : forall h t x T g a b c d, table_ok h -> samples h (fun t x => a + b * x + c * t + d * (x * t)) -> getTandGradT h t x = Found T g ->
  T = a + b * x + c * t + d * (x * t) /\ g = b + d * t.
Proof.
  intros h t x T g a b c d H Hs E. pose proof H as (I1 & I2 & L1 & L2 & B1 & B2 & _).
  destruct (nth_some (d_times h) 0) as (t0 & Et0); [lia|]. destruct (nth_some (d_times h) (length (d_times h) - 1)) as (tl & Etl); [lia|].
  destruct (nth_some (d_positions h) 0) as (x0 & Ex0); [lia|]. destruct (nth_some (d_positions h) (length (d_positions h) - 1)) as (xl & Exl); [lia|].
  destruct (Rlt_dec t t0) as [L|L]; [rewrite (early h t x t0) in E; auto; discriminate|]. destruct (Rle_dec tl t) as [L'|L']; [rewrite (late h t x tl) in E; auto; discriminate|].
  destruct (Rlt_dec x x0) as [M|M]; [rewrite (outside h t x x0 xl) in E; auto; discriminate|]. destruct (Rlt_dec xl x) as [M'|M']; [rewrite (outside h t x x0 xl) in E; auto; discriminate|].
  destruct (Req_dec x x0) as [->|N]; [rewrite (first_position h t x0 t0 tl) in E; auto; [discriminate|lra]|].
  destruct (inside_lookup h t x t0 tl x0 xl) as (i & j & tm & tp & xm & xp & a1 & b1 & c1 & d1 & g' & P1 & P2 & P3 & P4 & P5 & P6 & P7 & P8 & P9 & P10 & P11 & w & s1 & s2 & s3 & s4 & W & G & j' & S1 & S2 & S3 & S4); auto; try lra.
  rewrite E in P11. injection P11 as -> ->. rewrite G. clear G E.
  assert (SL : forall k s tk jj, nth_error (d_times h) k = Some tk -> row_slope h k jj s -> s = b + d * tk).
  { intros k s tk jj Hk (ym & yp & u & v & Q1 & Q2 & Q3 & Q4 & ->). rewrite (Hs _ _ _ _ _ Hk Q1 Q3), (Hs _ _ _ _ _ Hk Q2 Q4).
    assert (ym < yp) by (eapply (increasing_nth (d_positions h) jj (S jj)); eauto). field. lra. }
  rewrite (SL _ _ _ _ P1 S1), (SL _ _ _ _ P1 S2), (SL _ _ _ _ P2 S3), (SL _ _ _ _ P2 S4).
  rewrite (Hs _ _ _ _ _ P1 P3 P7), (Hs _ _ _ _ _ P1 P4 P8), (Hs _ _ _ _ _ P2 P3 P9), (Hs _ _ _ _ _ P2 P4 P10). split; field; lra.
Qed.
Lemma lookup_points : forall h i j t x v, table_ok h -> nth_error (d_times h) i = Some t -> nth_error (d_positions h) j = Some x -> entry h i j v ->
  (S i < length (d_times h))%nat -> (0 < j)%nat -> exists g, getTandGradT h t x = Found v g.
Proof.
  intros h i j t x v H Ht Hx Hv Hi Hj. pose proof H as (I1 & I2 & L1 & L2 & B1 & B2 & _).
  destruct (nth_some (d_times h) 0) as (t0 & Et0); [lia|]. destruct (nth_some (d_times h) (length (d_times h) - 1)) as (tl & Etl); [lia|].
  destruct (nth_some (d_positions h) 0) as (x0 & Ex0); [lia|]. destruct (nth_some (d_positions h) (length (d_positions h) - 1)) as (xl & Exl); [lia|].
  assert (Hjl : (j < length (d_positions h))%nat) by (apply nth_error_Some; rewrite Hx; discriminate).
  assert (t0 <= t < tl).
  { split; [|eapply (increasing_nth (d_times h) i (length (d_times h) - 1)); eauto; lia]. destruct i as [|i]; [rewrite Et0 in Ht; injection Ht as ->; lra|].
    assert (t0 < t) by (eapply (increasing_nth (d_times h) 0 (S i)); eauto; lia). lra. }
  assert (x0 < x <= xl).
  { split; [eapply (increasing_nth (d_positions h) 0 j); eauto|]. destruct (Nat.eq_dec j (length (d_positions h) - 1)) as [->|N]; [unfold last_of in Exl; rewrite Exl in Hx; injection Hx as ->; lra|].
    assert (x < xl) by (eapply (increasing_nth (d_positions h) j (length (d_positions h) - 1)); eauto; lia). lra. }
  destruct (inside_lookup h t x t0 tl x0 xl) as (i' & j' & tm & tp & xm & xp & a & b & c & d & g & P1 & P2 & P3 & P4 & P5 & P6 & P7 & P8 & P9 & P10 & P11 & _); auto.
  assert (i' = i).
  { destruct (nth_some (d_times h) (S i)) as (tn & Hn); [lia|]. apply (slot_unique (d_times h) t); auto; [exists tm, tp; auto|exists t, tn]. repeat split; auto; [lra|].
    eapply (increasing_nth (d_times h) i (S i)); eauto. }
  subst i'. rewrite Ht in P1. injection P1 as <-.
  assert (S j' = j).
  { destruct (Nat.lt_trichotomy (S j') j) as [L|[E|L]]; [exfalso|auto|exfalso].
    - assert (xp < x) by (eapply (increasing_nth (d_positions h) (S j') j); eauto). lra.
    - destruct (Nat.eq_dec j j') as [->|N]; [rewrite Hx in P3; injection P3 as ->; lra|]. assert (x < xm) by (eapply (increasing_nth (d_positions h) j j'); eauto; lia). lra. }
  subst j. rewrite Hx in P4. injection P4 as <-. rewrite (entry_unique _ _ _ _ _ Hv P8). exists g. rewrite P11. f_equal. field. lra.
Qed.

(** the file *)
Lemma nth_rev (l : list R) c v : nth_error l c = Some v -> nth_error (rev l) (length l - 1 - c) = Some v.
Proof.
  intros H. assert (c < length l)%nat by (apply nth_error_Some; rewrite H; discriminate).
  rewrite (nth_error_nth' _ v) by (rewrite rev_length; lia). rewrite rev_nth by lia. replace (length l - S (length l - 1 - c))%nat with c by lia. rewrite (nth_error_nth _ _ _ H). auto.
Qed.
Lemma read_rows_spec n rows ts vs : read_rows n rows = Some (ts, vs) -> length ts = length rows /\ length vs = length rows /\ Forall (fun r => length r = n) vs /\
  forall i time row, nth_error rows i = Some (time :: row) -> length row = n /\ nth_error ts i = Some time /\ nth_error vs i = Some (rev row).
Proof.
  revert ts vs. induction rows as [|r rows IH]; intros ts vs E; cbn in E.
  - injection E as <- <-. cbn. repeat split; auto; destruct i; discriminate.
  - destruct r as [|t r]; [discriminate|]. destruct (Nat.eqb_spec (length r) n) as [L|]; [|discriminate]. destruct (read_rows n rows) as [[ts' vs']|]; [|discriminate]. injection E as <- <-.
    destruct (IH _ _ eq_refl) as (A & B & C & D). cbn. split; [lia|]. split; [lia|]. split; [constructor; auto; rewrite rev_length; auto|].
    intros [|i] time row Hr; cbn in Hr; [injection Hr as <- <-; auto|]. apply (D i); auto.
Qed.
Lemma file_lookup : forall first rows h i time row c x v, readCSV (first :: rows) = Some h -> increasing (rev first) -> increasing (d_times h) ->
  (2 <= length first)%nat -> (Z.of_nat (length first) < 2 ^ 32)%Z -> (Z.of_nat (length rows) < 2 ^ 32)%Z ->
  nth_error rows i = Some (time :: row) -> nth_error first c = Some x -> nth_error row c = Some v ->
  (S i < length rows)%nat -> (S c < length first)%nat -> exists g, getTandGradT h time x = Found v g.
Proof.
  intros first rows h i time row c x v E I1 I2 L2 B1 B2 Hr Hx Hv Hi Hc. cbn in E. destruct (read_rows (length first) rows) as [[ts vs]|] eqn:R; [|discriminate]. injection E as <-.
  destruct (read_rows_spec _ _ _ _ R) as (A & B & C & D). destruct (D _ _ _ Hr) as (D1 & D2 & D3).
  apply (lookup_points _ i (length first - 1 - c)%nat).
  - unfold table_ok; cbn. rewrite rev_length. repeat split; auto; lia.
  - exact D2.
  - apply nth_rev; auto.
  - exists (rev row). split; [exact D3|]. rewrite <- D1. apply nth_rev; auto.
  - cbn. lia.
  - lia.
Qed.
