From Coq Require Import Reals ZArith List Lra Lia Bool FinFun.
From Verif Require Import Grid_Model Grid_Spec.
Import ListNotations.
Open Scope Z_scope.

(** ** ranges *)
Lemma in_range : forall lo hi i, In i (range lo hi) <-> lo <= i <= hi.
Proof.
  intros lo hi i. unfold range. rewrite in_map_iff. split.
  - intros (k & <- & Hk). apply in_seq in Hk. lia.
  - intro H. exists (Z.to_nat (i - lo)). split; [lia | apply in_seq; lia].
Qed.
Lemma range_empty : forall lo hi, hi < lo -> range lo hi = [].
Proof. intros lo hi H. unfold range. replace (Z.to_nat (hi - lo + 1)) with 0%nat by lia. reflexivity. Qed.
Lemma seq_S_map : forall n a, seq a (S n) = a :: map S (seq a n).
Proof. intros n a. rewrite seq_shift. reflexivity. Qed.
Lemma range_cons : forall lo hi, lo <= hi -> range lo hi = lo :: range (lo + 1) hi.
Proof.
  intros lo hi H. unfold range. replace (Z.to_nat (hi - lo + 1)) with (S (Z.to_nat (hi - (lo + 1) + 1))) by lia.
  rewrite seq_S_map. cbn [map]. rewrite map_map. f_equal; [lia |]. apply map_ext. intro a. lia.
Qed.
Lemma range_nodup : forall lo hi, NoDup (range lo hi).
Proof.
  intros lo hi. unfold range. apply FinFun.Injective_map_NoDup; [intros a b H; lia | apply seq_NoDup].
Qed.
(** induction on the upper end of a loop *)
Lemma range_snoc : forall lo hi, lo <= hi -> range lo hi = range lo (hi - 1) ++ [hi].
Proof.
  intros lo hi H. unfold range.
  replace (Z.to_nat (hi - lo + 1)) with (S (Z.to_nat (hi - 1 - lo + 1))) by lia.
  rewrite seq_S, map_app. cbn [map]. do 2 f_equal. lia.
Qed.
Lemma do_loop_empty : forall S lo hi (body : Z -> S -> S) s, hi < lo -> do_loop lo hi body s = s.
Proof. intros S lo hi body s H. unfold do_loop. rewrite range_empty by auto. reflexivity. Qed.
Lemma do_loop_snoc : forall S lo hi (body : Z -> S -> S) s, lo <= hi ->
  do_loop lo hi body s = body hi (do_loop lo (hi - 1) body s).
Proof.
  intros S lo hi body s H. unfold do_loop. rewrite range_snoc by auto. rewrite fold_left_app. reflexivity.
Qed.
Lemma do_loop_cons : forall S lo hi (body : Z -> S -> S) s, lo <= hi ->
  do_loop lo hi body s = do_loop (lo + 1) hi body (body lo s).
Proof. intros S lo hi body s H. unfold do_loop. rewrite range_cons by auto. reflexivity. Qed.

(** loop invariant rule: the invariant is indexed by the last index done *)
Lemma do_loop_ind : forall (S : Type) (P : Z -> S -> Prop) lo hi (body : Z -> S -> S) s,
  P (lo - 1) s -> (forall i s, lo <= i <= hi -> P (i - 1) s -> P i (body i s)) ->
  P (Z.max (lo - 1) hi) (do_loop lo hi body s).
Proof.
  intros S P lo hi body s H0 Hs.
  destruct (Z_lt_le_dec hi lo) as [Hlt | Hle].
  - rewrite do_loop_empty by auto. replace (Z.max (lo - 1) hi) with (lo - 1) by lia. exact H0.
  - replace (Z.max (lo - 1) hi) with hi by lia.
    assert (G : forall n k, k = lo + Z.of_nat n -> k <= hi -> P k (do_loop lo k body s)).
    { induction n as [| n IH]; intros k Ek Hk.
      - rewrite do_loop_snoc by lia. apply Hs; [lia |]. rewrite do_loop_empty by lia.
        replace (k - 1) with (lo - 1) by lia. exact H0.
      - rewrite do_loop_snoc by lia. apply Hs; [lia |]. apply IH; lia. }
    apply (G (Z.to_nat (hi - lo))); lia.
Qed.
Lemma do_loop_ext : forall S lo hi (b1 b2 : Z -> S -> S) s,
  (forall i s, lo <= i <= hi -> b1 i s = b2 i s) -> do_loop lo hi b1 s = do_loop lo hi b2 s.
Proof.
  intros S lo hi b1 b2 s H. unfold do_loop.
  assert (G : forall l s, (forall i, In i l -> lo <= i <= hi) ->
    fold_left (fun s i => b1 i s) l s = fold_left (fun s i => b2 i s) l s).
  { induction l as [| a l IH]; intros s' Hl; [reflexivity |]. cbn.
    rewrite H by (apply Hl; left; auto). apply IH. intros i Hi. apply Hl. right; auto. }
  apply G. intros i Hi. apply in_range. exact Hi.
Qed.

(** ** a loop that rewrites each cell from its old value *)
Definition inb (lo hi i : Z) : bool := (lo <=? i) && (i <=? hi).
Lemma inb_spec : forall lo hi i, reflect (lo <= i <= hi) (inb lo hi i).
Proof.
  intros lo hi i. unfold inb. destruct (lo <=? i) eqn:E1; destruct (i <=? hi) eqn:E2; cbn; constructor;
    rewrite ?Z.leb_le, ?Z.leb_gt in *; lia.
Qed.

Lemma upd2_same : forall f i j v, upd2 f i j v i j = v.
Proof. intros f i j v. unfold upd2. rewrite !Z.eqb_refl. reflexivity. Qed.
Lemma upd2_other : forall f i j v a b, (a <> i \/ b <> j) -> upd2 f i j v a b = f a b.
Proof.
  intros f i j v a b H. unfold upd2. destruct (Z.eqb_spec a i); destruct (Z.eqb_spec b j); cbn; auto. lia.
Qed.
Lemma upd3_same : forall f i j k v, upd3 f i j k v i j k = v.
Proof. intros f i j k v. unfold upd3. rewrite !Z.eqb_refl. reflexivity. Qed.
Lemma upd3_other : forall f i j k v a b c, (a <> i \/ b <> j \/ c <> k) -> upd3 f i j k v a b c = f a b c.
Proof.
  intros f i j k v a b c H. unfold upd3.
  destruct (Z.eqb_spec a i); destruct (Z.eqb_spec b j); destruct (Z.eqb_spec c k); cbn; auto. lia.
Qed.
Lemma upd4_same : forall f i j k l v, upd4 f i j k l v i j k l = v.
Proof. intros f i j k l v. unfold upd4. rewrite !Z.eqb_refl. reflexivity. Qed.
Lemma upd4_other : forall f i j k l v a b c d, (a <> i \/ b <> j \/ c <> k \/ d <> l) -> upd4 f i j k l v a b c d = f a b c d.
Proof.
  intros f i j k l v a b c d H. unfold upd4.
  destruct (Z.eqb_spec a i); destruct (Z.eqb_spec b j); destruct (Z.eqb_spec c k); destruct (Z.eqb_spec d l); cbn; auto. lia.
Qed.

Lemma row_loop : forall lo hi j (g : Z -> R -> R) (f : arr2) a b,
  do_loop lo hi (fun i s => upd2 s i j (g i (s i j))) f a b =
  if inb lo hi a && (b =? j) then g a (f a b) else f a b.
Proof.
  intros lo hi j g f a b.
  pose (P := fun (k : Z) (s : arr2) => s a b = if (lo <=? a) && (a <=? k) && (b =? j) then g a (f a b) else f a b).
  assert (H : P (Z.max (lo - 1) hi) (do_loop lo hi (fun i s => upd2 s i j (g i (s i j))) f)).
  { apply do_loop_ind; unfold P; clear P.
    - destruct (Z.leb_spec lo a); destruct (Z.leb_spec a (lo - 1)); cbn; auto. lia.
    - intros i s Hi Hs. unfold upd2 at 1.
      destruct (Z.eqb_spec a i) as [-> | Ha]; destruct (Z.eqb_spec b j) as [-> | Hb]; cbn [andb].
      + destruct (Z.leb_spec lo i); destruct (Z.leb_spec i i); try lia. cbn.
        rewrite Hs. destruct (Z.leb_spec i (i - 1)); [lia |]. destruct (lo <=? i); reflexivity.
      + rewrite Hs, !andb_false_r. reflexivity.
      + rewrite Hs. replace (a <=? i) with (a <=? i - 1); [reflexivity |].
        destruct (Z.leb_spec a (i - 1)); destruct (Z.leb_spec a i); auto; lia.
      + rewrite Hs, !andb_false_r. reflexivity. }
  unfold P in H. rewrite H. unfold inb.
  replace (a <=? Z.max (lo - 1) hi) with ((a <=? hi) || (a <=? lo - 1)).
  2:{ destruct (Z.leb_spec a hi); destruct (Z.leb_spec a (lo - 1)); destruct (Z.leb_spec a (Z.max (lo - 1) hi)); cbn; auto; lia. }
  destruct (Z.leb_spec lo a); destruct (Z.leb_spec a hi); destruct (Z.leb_spec a (lo - 1)); cbn; auto; lia.
Qed.

(** the pointwise kernel: every cell of the box is rewritten once, nothing else is touched *)
Lemma cells_loop : forall lo0 hi0 lo1 hi1 (g : Z -> Z -> R -> R) (f : arr2) a b,
  do_cells lo0 hi0 lo1 hi1 (fun i j s => upd2 s i j (g i j (s i j))) f a b =
  if inb lo0 hi0 a && inb lo1 hi1 b then g a b (f a b) else f a b.
Proof.
  intros lo0 hi0 lo1 hi1 g f a b. unfold do_cells.
  pose (P := fun (k : Z) (s : arr2) => s a b = if inb lo0 hi0 a && ((lo1 <=? b) && (b <=? k)) then g a b (f a b) else f a b).
  assert (H : P (Z.max (lo1 - 1) hi1) (do_loop lo1 hi1 (fun j => do_loop lo0 hi0 (fun i s => upd2 s i j (g i j (s i j)))) f)).
  { apply do_loop_ind; unfold P; clear P.
    - destruct (Z.leb_spec lo1 b); destruct (Z.leb_spec b (lo1 - 1)); cbn; rewrite ?andb_false_r; auto. lia.
    - intros j s Hj Hs. rewrite (row_loop lo0 hi0 j (fun i => g i j) s a b). rewrite Hs.
      destruct (inb lo0 hi0 a) eqn:Ea; cbn [andb]; [| reflexivity].
      destruct (Z.eqb_spec b j) as [-> | Hb].
      + destruct (Z.leb_spec lo1 j); destruct (Z.leb_spec j (j - 1)); destruct (Z.leb_spec j j); cbn; auto; lia.
      + destruct (Z.leb_spec lo1 b); destruct (Z.leb_spec b (j - 1)); destruct (Z.leb_spec b j); cbn; auto; lia. }
  unfold P in H. rewrite H. unfold inb.
  destruct (Z.leb_spec lo1 b); destruct (Z.leb_spec b (Z.max (lo1 - 1) hi1)); destruct (Z.leb_spec b hi1); cbn;
    rewrite ?andb_false_r, ?andb_true_r; auto; lia.
Qed.
Lemma cells_sets : forall lo0 hi0 lo1 hi1 (g : Z -> Z -> R -> R) (f : arr2),
  sets_box lo0 hi0 lo1 hi1 f (do_cells lo0 hi0 lo1 hi1 (fun i j s => upd2 s i j (g i j (s i j))) f)
    (fun i j => g i j (f i j)).
Proof.
  intros lo0 hi0 lo1 hi1 g f i j. rewrite cells_loop. unfold in_box.
  destruct (inb_spec lo0 hi0 i); destruct (inb_spec lo1 hi1 j); cbn; split; intro H; auto; try lia; tauto.
Qed.

(** the same for a 3D box *)
Lemma plane_loop3 : forall lo0 hi0 lo1 hi1 k (g : Z -> Z -> R -> R) (f : arr3) a b c,
  do_cells lo0 hi0 lo1 hi1 (fun i j s => upd3 s i j k (g i j (s i j k))) f a b c =
  if inb lo0 hi0 a && inb lo1 hi1 b && (c =? k) then g a b (f a b c) else f a b c.
Proof.
  intros lo0 hi0 lo1 hi1 k g f a b c.
  destruct (Z.eqb_spec c k) as [-> | Hc].
  - rewrite andb_true_r. rewrite <- (cells_loop lo0 hi0 lo1 hi1 g (fun x y => f x y k) a b).
    assert (G : forall s t, (forall x y, s x y k = t x y) -> forall L1,
      fold_left (fun s j => fold_left (fun s i => upd3 s i j k (g i j (s i j k))) (range lo0 hi0) s) L1 s a b k =
      fold_left (fun s j => fold_left (fun s i => upd2 s i j (g i j (s i j))) (range lo0 hi0) s) L1 t a b).
    { intros s t Hst L1. revert s t Hst. induction L1 as [| j L1 IH]; intros s t Hst; [apply Hst |].
      cbn. apply IH. intros x y. generalize (range lo0 hi0) as L0. intro L0. revert s t Hst.
      induction L0 as [| i L0 IH0]; intros s t Hst; [apply Hst |]. cbn. apply IH0.
      intros x' y'. unfold upd3, upd2. rewrite Z.eqb_refl, andb_true_r, Hst, Hst. reflexivity. }
    unfold do_cells, do_loop. apply G. reflexivity.
  - rewrite andb_false_r. unfold do_cells, do_loop.
    generalize (range lo1 hi1) as L1. intro L1. 
    assert (G : forall s, fold_left (fun s j => fold_left (fun s i => upd3 s i j k (g i j (s i j k))) (range lo0 hi0) s) L1 s a b c = s a b c).
    { induction L1 as [| j L1 IH]; intro s; [reflexivity |]. cbn. rewrite IH.
      generalize (range lo0 hi0) as L0. intro L0. revert s. induction L0 as [| i L0 IH0]; intro s; [reflexivity |]. cbn.
      rewrite IH0. apply upd3_other. auto. }
    apply G.
Qed.
Lemma cells3_loop : forall lo0 hi0 lo1 hi1 lo2 hi2 (g : Z -> Z -> Z -> R -> R) (f : arr3) a b c,
  do_cells3 lo0 hi0 lo1 hi1 lo2 hi2 (fun i j k s => upd3 s i j k (g i j k (s i j k))) f a b c =
  if inb lo0 hi0 a && inb lo1 hi1 b && inb lo2 hi2 c then g a b c (f a b c) else f a b c.
Proof.
  intros lo0 hi0 lo1 hi1 lo2 hi2 g f a b c. unfold do_cells3.
  pose (P := fun (k : Z) (s : arr3) => s a b c = if inb lo0 hi0 a && inb lo1 hi1 b && ((lo2 <=? c) && (c <=? k)) then g a b c (f a b c) else f a b c).
  assert (H : P (Z.max (lo2 - 1) hi2) (do_loop lo2 hi2 (fun k => do_loop lo1 hi1 (fun j => do_loop lo0 hi0 (fun i s => upd3 s i j k (g i j k (s i j k))))) f)).
  { apply do_loop_ind; unfold P; clear P.
    - destruct (Z.leb_spec lo2 c); destruct (Z.leb_spec c (lo2 - 1)); cbn; rewrite ?andb_false_r; auto. lia.
    - intros k s Hk Hs. pose proof (plane_loop3 lo0 hi0 lo1 hi1 k (fun i j => g i j k) s a b c) as E.
      unfold do_cells in E. rewrite E, Hs. clear E.
      destruct (inb lo0 hi0 a && inb lo1 hi1 b) eqn:Ea; cbn [andb]; [| reflexivity].
      destruct (Z.eqb_spec c k) as [-> | Hb].
      + destruct (Z.leb_spec lo2 k); destruct (Z.leb_spec k (k - 1)); destruct (Z.leb_spec k k); cbn; auto; lia.
      + destruct (Z.leb_spec lo2 c); destruct (Z.leb_spec c (k - 1)); destruct (Z.leb_spec c k); cbn; auto; lia. }
  unfold P in H. rewrite H. unfold inb.
  destruct (Z.leb_spec lo2 c); destruct (Z.leb_spec c (Z.max (lo2 - 1) hi2)); destruct (Z.leb_spec c hi2); cbn;
    rewrite ?andb_false_r, ?andb_true_r; auto; lia.
Qed.

(** ** sums *)
Open Scope R_scope.
Lemma sumZ_empty : forall lo hi f, (hi < lo)%Z -> sumZ lo hi f = 0.
Proof. intros lo hi f H. unfold sumZ. replace (Z.to_nat (hi - lo + 1)) with 0%nat by lia. reflexivity. Qed.
Lemma sumZ_cons : forall lo hi f, (lo <= hi)%Z -> sumZ lo hi f = f lo + sumZ (lo + 1) hi f.
Proof.
  intros lo hi f H. unfold sumZ. replace (Z.to_nat (hi - lo + 1)) with (S (Z.to_nat (hi - (lo + 1) + 1))) by lia. reflexivity.
Qed.
Lemma sum_from_snoc : forall n lo f, sum_from lo (S n) f = sum_from lo n f + f (lo + Z.of_nat n)%Z.
Proof.
  induction n as [| n IH]; intros lo f.
  - cbn [sum_from Z.of_nat]. rewrite Z.add_0_r. ring.
  - change (sum_from lo (S (S n)) f) with (f lo + sum_from (lo + 1) (S n) f). rewrite IH.
    change (sum_from lo (S n) f) with (f lo + sum_from (lo + 1) n f).
    replace (lo + 1 + Z.of_nat n)%Z with (lo + Z.of_nat (S n))%Z by lia. ring.
Qed.
Lemma sumZ_snoc : forall lo hi f, (lo <= hi)%Z -> sumZ lo hi f = sumZ lo (hi - 1) f + f hi.
Proof.
  intros lo hi f H. unfold sumZ. replace (Z.to_nat (hi - lo + 1)) with (S (Z.to_nat (hi - 1 - lo + 1))) by lia.
  rewrite sum_from_snoc. do 2 f_equal. lia.
Qed.
(** induction principle on the length of an interval *)
Lemma Zinterval_ind : forall (P : Z -> Z -> Prop),
  (forall lo hi, (hi < lo)%Z -> P lo hi) ->
  (forall lo hi, (lo <= hi)%Z -> P lo (hi - 1)%Z -> P lo hi) -> forall lo hi, P lo hi.
Proof.
  intros P H0 Hs lo hi.
  assert (G : forall n hi, (hi - lo + 1 <= Z.of_nat n)%Z -> P lo hi).
  { induction n as [| n IH]; intros hi' Hn; [apply H0; lia |].
    destruct (Z_lt_le_dec hi' lo); [apply H0; auto | apply Hs; [auto |]; apply IH; lia]. }
  apply (G (Z.to_nat (hi - lo + 1))). lia.
Qed.
Lemma sumZ_ext : forall lo hi f g, (forall i, (lo <= i <= hi)%Z -> f i = g i) -> sumZ lo hi f = sumZ lo hi g.
Proof.
  intros lo hi f g. revert lo hi. apply (Zinterval_ind (fun lo hi => (forall i, (lo <= i <= hi)%Z -> f i = g i) -> sumZ lo hi f = sumZ lo hi g)).
  - intros lo hi H _. rewrite !sumZ_empty by auto. reflexivity.
  - intros lo hi H IH He. rewrite !(sumZ_snoc lo hi) by auto. rewrite IH, He by (intros; try apply He; lia). reflexivity.
Qed.
Lemma sumZ_plus : forall lo hi f g, sumZ lo hi (fun i => f i + g i) = sumZ lo hi f + sumZ lo hi g.
Proof.
  intros lo hi f g. revert lo hi. apply Zinterval_ind.
  - intros lo hi H. rewrite !sumZ_empty by auto. ring.
  - intros lo hi H IH. rewrite !(sumZ_snoc lo hi) by auto. rewrite IH. ring.
Qed.
Lemma sumZ_scal : forall lo hi c f, sumZ lo hi (fun i => c * f i) = c * sumZ lo hi f.
Proof.
  intros lo hi c f. revert lo hi. apply Zinterval_ind.
  - intros lo hi H. rewrite !sumZ_empty by auto. ring.
  - intros lo hi H IH. rewrite !(sumZ_snoc lo hi) by auto. rewrite IH. ring.
Qed.
Lemma sumZ_opp : forall lo hi f, sumZ lo hi (fun i => - f i) = - sumZ lo hi f.
Proof.
  intros lo hi f. rewrite <- (Rmult_1_l (sumZ lo hi f)), Ropp_mult_distr_l, <- sumZ_scal.
  apply sumZ_ext. intros i _. ring.
Qed.
Lemma sumZ_minus : forall lo hi f g, sumZ lo hi (fun i => f i - g i) = sumZ lo hi f - sumZ lo hi g.
Proof.
  intros lo hi f g. unfold Rminus. rewrite <- sumZ_opp, <- sumZ_plus. reflexivity.
Qed.
Lemma sumZ_zero : forall lo hi, sumZ lo hi (fun _ => 0) = 0.
Proof.
  intros lo hi. revert lo hi. apply Zinterval_ind.
  - intros lo hi H. apply sumZ_empty; auto.
  - intros lo hi H IH. rewrite sumZ_snoc by auto. rewrite IH. ring.
Qed.
Lemma sumZ_const : forall lo hi c, (lo <= hi + 1)%Z -> sumZ lo hi (fun _ => c) = IZR (hi - lo + 1) * c.
Proof.
  intros lo hi c. revert lo hi. apply (Zinterval_ind (fun lo hi => (lo <= hi + 1)%Z -> sumZ lo hi (fun _ => c) = IZR (hi - lo + 1) * c)).
  - intros lo hi H H1. rewrite sumZ_empty by auto. replace (hi - lo + 1)%Z with 0%Z by lia. ring.
  - intros lo hi H IH _. rewrite sumZ_snoc by auto. rewrite IH by lia.
    replace (hi - lo + 1)%Z with ((hi - 1 - lo + 1) + 1)%Z by lia. rewrite (plus_IZR (hi - 1 - lo + 1) 1). ring.
Qed.
Lemma sumZ_telescope : forall lo hi f, (lo <= hi + 1)%Z -> sumZ lo hi (fun i => f (i + 1)%Z - f i) = f (hi + 1)%Z - f lo.
Proof.
  intros lo hi f. revert lo hi. apply (Zinterval_ind (fun lo hi => (lo <= hi + 1)%Z -> sumZ lo hi (fun i => f (i + 1)%Z - f i) = f (hi + 1)%Z - f lo)).
  - intros lo hi H H1. rewrite sumZ_empty by auto. replace (hi + 1)%Z with lo by lia. ring.
  - intros lo hi H IH _. rewrite sumZ_snoc by auto. rewrite IH by lia. replace (hi - 1 + 1)%Z with hi by lia. ring.
Qed.
Lemma sumZ_swap : forall lo0 hi0 lo1 hi1 (f : Z -> Z -> R),
  sumZ lo1 hi1 (fun j => sumZ lo0 hi0 (fun i => f i j)) = sumZ lo0 hi0 (fun i => sumZ lo1 hi1 (fun j => f i j)).
Proof.
  intros lo0 hi0 lo1 hi1 f. revert lo1 hi1. apply Zinterval_ind.
  - intros lo hi H. rewrite sumZ_empty by auto. rewrite (sumZ_ext lo0 hi0 _ (fun _ => 0)).
    + rewrite sumZ_zero. reflexivity.
    + intros i _. apply sumZ_empty; auto.
  - intros lo hi H IH. rewrite sumZ_snoc by auto. rewrite IH, <- sumZ_plus. apply sumZ_ext.
    intros i _. rewrite (sumZ_snoc lo hi) by auto. reflexivity.
Qed.
Lemma sumZ_split : forall lo mid hi f, (lo <= mid + 1)%Z -> (mid <= hi)%Z ->
  sumZ lo hi f = sumZ lo mid f + sumZ (mid + 1) hi f.
Proof.
  intros lo mid hi f H1. revert hi.
  assert (G : forall m hi, m = (mid + 1)%Z -> (mid <= hi)%Z -> sumZ lo hi f = sumZ lo mid f + sumZ m hi f).
  { apply (Zinterval_ind (fun m hi => m = (mid + 1)%Z -> (mid <= hi)%Z -> sumZ lo hi f = sumZ lo mid f + sumZ m hi f)).
    - intros m hi H -> Hm. replace hi with mid by lia. rewrite (sumZ_empty (mid + 1)) by lia. ring.
    - intros m hi H IH -> Hm. rewrite (sumZ_snoc lo hi), (sumZ_snoc (mid + 1) hi) by lia. rewrite IH by lia. ring. }
  intros hi H2. apply G; auto.
Qed.
Lemma sum_box_ext : forall lo0 hi0 lo1 hi1 f g, (forall i j, in_box lo0 hi0 lo1 hi1 i j -> f i j = g i j) ->
  sum_box lo0 hi0 lo1 hi1 f = sum_box lo0 hi0 lo1 hi1 g.
Proof.
  intros lo0 hi0 lo1 hi1 f g H. unfold sum_box. apply sumZ_ext. intros j Hj. apply sumZ_ext. intros i Hi. apply H. split; auto.
Qed.
Lemma sum_box_plus : forall lo0 hi0 lo1 hi1 f g,
  sum_box lo0 hi0 lo1 hi1 (fun i j => f i j + g i j) = sum_box lo0 hi0 lo1 hi1 f + sum_box lo0 hi0 lo1 hi1 g.
Proof.
  intros lo0 hi0 lo1 hi1 f g. unfold sum_box. rewrite <- sumZ_plus. apply sumZ_ext. intros j _. apply sumZ_plus.
Qed.
Lemma sum_box_scal : forall lo0 hi0 lo1 hi1 c f,
  sum_box lo0 hi0 lo1 hi1 (fun i j => c * f i j) = c * sum_box lo0 hi0 lo1 hi1 f.
Proof.
  intros lo0 hi0 lo1 hi1 c f. unfold sum_box. rewrite <- sumZ_scal. apply sumZ_ext. intros j _. apply sumZ_scal.
Qed.
Lemma sum_box_zero : forall lo0 hi0 lo1 hi1, sum_box lo0 hi0 lo1 hi1 (fun _ _ => 0) = 0.
Proof.
  intros. unfold sum_box. rewrite (sumZ_ext _ _ _ (fun _ => 0)); [apply sumZ_zero |]. intros; apply sumZ_zero.
Qed.
Lemma sum_box3_ext : forall lo0 hi0 lo1 hi1 lo2 hi2 f g, (forall i j k, in_box3 lo0 hi0 lo1 hi1 lo2 hi2 i j k -> f i j k = g i j k) ->
  sum_box3 lo0 hi0 lo1 hi1 lo2 hi2 f = sum_box3 lo0 hi0 lo1 hi1 lo2 hi2 g.
Proof.
  intros lo0 hi0 lo1 hi1 lo2 hi2 f g H. unfold sum_box3.
  apply sumZ_ext. intros k Hk. apply sumZ_ext. intros j Hj. apply sumZ_ext. intros i Hi. apply H. repeat split; auto; lia.
Qed.
Lemma sum_box3_plus : forall lo0 hi0 lo1 hi1 lo2 hi2 f g,
  sum_box3 lo0 hi0 lo1 hi1 lo2 hi2 (fun i j k => f i j k + g i j k) = sum_box3 lo0 hi0 lo1 hi1 lo2 hi2 f + sum_box3 lo0 hi0 lo1 hi1 lo2 hi2 g.
Proof.
  intros. unfold sum_box3. rewrite <- sumZ_plus. apply sumZ_ext. intros k _. rewrite <- sumZ_plus. apply sumZ_ext. intros j _. apply sumZ_plus.
Qed.
Lemma sum_box3_scal : forall lo0 hi0 lo1 hi1 lo2 hi2 c f,
  sum_box3 lo0 hi0 lo1 hi1 lo2 hi2 (fun i j k => c * f i j k) = c * sum_box3 lo0 hi0 lo1 hi1 lo2 hi2 f.
Proof.
  intros. unfold sum_box3. rewrite <- sumZ_scal. apply sumZ_ext. intros k _. rewrite <- sumZ_scal. apply sumZ_ext. intros j _. apply sumZ_scal.
Qed.

(** accumulation loops *)
Lemma loop_sum : forall lo hi (f : Z -> R) s, do_loop lo hi (fun i s => s + f i) s = s + sumZ lo hi f.
Proof.
  intros lo hi f s. revert lo hi. apply Zinterval_ind.
  - intros lo hi H. rewrite do_loop_empty, sumZ_empty by auto. ring.
  - intros lo hi H IH. rewrite do_loop_snoc, sumZ_snoc by auto. rewrite IH. ring.
Qed.
Lemma cells_sum : forall lo0 hi0 lo1 hi1 (f : Z -> Z -> R) s,
  do_cells lo0 hi0 lo1 hi1 (fun i j s => s + f i j) s = s + sum_box lo0 hi0 lo1 hi1 f.
Proof.
  intros lo0 hi0 lo1 hi1 f s. unfold do_cells, sum_box.
  rewrite (do_loop_ext _ _ _ _ (fun j s => s + sumZ lo0 hi0 (fun i => f i j))).
  - apply loop_sum.
  - intros j s' _. apply loop_sum.
Qed.

(** a quantity that every pass of a loop changes by a known amount *)
Lemma obs_loop : forall S (obs : S -> R) lo hi (C : Z -> R) (body : Z -> S -> S) s,
  (forall i s, (lo <= i <= hi)%Z -> obs (body i s) = obs s + C i) -> obs (do_loop lo hi body s) = obs s + sumZ lo hi C.
Proof.
  intros S obs lo hi C body s. revert lo hi.
  apply (Zinterval_ind (fun lo hi => (forall i s, (lo <= i <= hi)%Z -> obs (body i s) = obs s + C i) ->
    obs (do_loop lo hi body s) = obs s + sumZ lo hi C)).
  - intros lo hi H _. rewrite do_loop_empty, sumZ_empty by auto. ring.
  - intros lo hi H IH Hb. rewrite do_loop_snoc, sumZ_snoc by auto. rewrite Hb by lia.
    rewrite IH by (intros i s' Hi; apply Hb; lia). ring.
Qed.
Lemma obs_cells : forall S (obs : S -> R) lo0 hi0 lo1 hi1 (C : Z -> Z -> R) (body : Z -> Z -> S -> S) s,
  (forall i j s, in_box lo0 hi0 lo1 hi1 i j -> obs (body i j s) = obs s + C i j) ->
  obs (do_cells lo0 hi0 lo1 hi1 body s) = obs s + sum_box lo0 hi0 lo1 hi1 C.
Proof.
  intros S obs lo0 hi0 lo1 hi1 C body s H. unfold do_cells, sum_box.
  apply (obs_loop S obs lo1 hi1 (fun j => sumZ lo0 hi0 (fun i => C i j))). intros j s' Hj.
  apply (obs_loop S obs lo0 hi0 (fun i => C i j)). intros i s'' Hi. apply H. split; auto.
Qed.
Lemma obs_cells3 : forall S (obs : S -> R) lo0 hi0 lo1 hi1 lo2 hi2 (C : Z -> Z -> Z -> R) (body : Z -> Z -> Z -> S -> S) s,
  (forall i j k s, in_box3 lo0 hi0 lo1 hi1 lo2 hi2 i j k -> obs (body i j k s) = obs s + C i j k) ->
  obs (do_cells3 lo0 hi0 lo1 hi1 lo2 hi2 body s) = obs s + sum_box3 lo0 hi0 lo1 hi1 lo2 hi2 C.
Proof.
  intros S obs lo0 hi0 lo1 hi1 lo2 hi2 C body s H. unfold do_cells3, sum_box3.
  apply (obs_loop S obs lo2 hi2 (fun k => sumZ lo1 hi1 (fun j => sumZ lo0 hi0 (fun i => C i j k)))). intros k s' Hk.
  apply (obs_loop S obs lo1 hi1 (fun j => sumZ lo0 hi0 (fun i => C i j k))). intros j s2 Hj.
  apply (obs_loop S obs lo0 hi0 (fun i => C i j k)). intros i s3 Hi. apply H. repeat split; auto; lia.
Qed.
(** the contribution that hits one given index *)
Lemma sumZ_single : forall lo hi a (v : Z -> R),
  sumZ lo hi (fun i => if (i =? a)%Z then v i else 0) = if inb lo hi a then v a else 0.
Proof.
  intros lo hi a v. revert lo hi. apply Zinterval_ind.
  - intros lo hi H. rewrite sumZ_empty by auto. destruct (inb_spec lo hi a); [lia | reflexivity].
  - intros lo hi H IH. rewrite sumZ_snoc by auto. rewrite IH.
    destruct (Z.eqb_spec hi a) as [-> | Hne].
    + destruct (inb_spec lo (a - 1) a); [lia |]. destruct (inb_spec lo a a); [ring | lia].
    + destruct (inb_spec lo (hi - 1) a); destruct (inb_spec lo hi a); try lia; ring.
Qed.
Lemma sum_box_single : forall lo0 hi0 lo1 hi1 a b (v : Z -> Z -> R),
  sum_box lo0 hi0 lo1 hi1 (fun i j => if ((i =? a) && (j =? b))%Z then v i j else 0) =
  if inb lo0 hi0 a && inb lo1 hi1 b then v a b else 0.
Proof.
  intros lo0 hi0 lo1 hi1 a b v. unfold sum_box.
  rewrite (sumZ_ext lo1 hi1 _ (fun j => if (j =? b)%Z then (if inb lo0 hi0 a then v a j else 0) else 0)).
  - rewrite (sumZ_single lo1 hi1 b (fun j => if inb lo0 hi0 a then v a j else 0)).
    destruct (inb lo0 hi0 a); destruct (inb lo1 hi1 b); reflexivity.
  - intros j _. destruct (Z.eqb_spec j b) as [-> | Hne].
    + rewrite <- (sumZ_single lo0 hi0 a (fun i => v i b)). apply sumZ_ext. intros i _. rewrite andb_true_r. reflexivity.
    + rewrite (sumZ_ext lo0 hi0 _ (fun _ => 0)); [apply sumZ_zero |]. intros i _. rewrite andb_false_r. reflexivity.
Qed.
(** adding v(i,j) at (i+p, j+q) *)
Lemma upd2_add : forall (f : arr2) i j v a b, upd2 f i j (f i j + v) a b = f a b + (if ((a =? i) && (b =? j))%Z then v else 0).
Proof.
  intros f i j v a b. unfold upd2. destruct (Z.eqb_spec a i) as [-> |]; destruct (Z.eqb_spec b j) as [-> |]; cbn; ring.
Qed.
Lemma shift_eqb : forall a i k, ((a =? i + k) = (i =? a - k))%Z.
Proof. intros a i k. destruct (Z.eqb_spec a (i + k)); destruct (Z.eqb_spec i (a - k)); lia. Qed.

(** what one cell sees of a loop: exactly one step of it; [T s s'] = the cell looks
    the same in s and s' *)
Lemma loop_never : forall S (T : S -> S -> Prop) lo hi (body : Z -> S -> S) s,
  (forall s, T s s) -> (forall a b c, T a b -> T b c -> T a c) ->
  (forall i s, (lo <= i <= hi)%Z -> T s (body i s)) -> T s (do_loop lo hi body s).
Proof.
  intros S T lo hi body s Tr Tt H.
  apply (do_loop_ind S (fun _ x => T s x)); auto.
  intros i s' Hi Hs. eapply Tt; [exact Hs | apply H; lia].
Qed.
Lemma loop_once : forall S (T : S -> S -> Prop) lo hi a (body : Z -> S -> S) s,
  (forall s, T s s) -> (forall a b c, T a b -> T b c -> T a c) -> (lo <= a <= hi)%Z ->
  (forall i s, (lo <= i <= hi)%Z -> i <> a -> T s (body i s)) ->
  exists s0, T s s0 /\ T (body a s0) (do_loop lo hi body s).
Proof.
  intros S T lo hi a body s Tr Tt Ha H.
  assert (G : forall k, (a <= k <= hi)%Z -> exists s0, T s s0 /\ T (body a s0) (do_loop lo k body s)).
  { intros k Hk. remember (Z.to_nat (k - a)) as n eqn:En. revert k Hk En. induction n as [| n IH]; intros k Hk En.
    - replace k with a by lia. exists (do_loop lo (a - 1) body s). rewrite (do_loop_snoc S lo a) by lia. split; [| apply Tr].
      apply loop_never; auto. intros i s' Hi. apply H; lia.
    - destruct (IH (k - 1)%Z ltac:(lia) ltac:(lia)) as (s0 & A & B). exists s0. split; [exact A |].
      rewrite (do_loop_snoc _ lo k) by lia. eapply Tt; [exact B |]. apply H; lia. }
  apply G; lia.
Qed.
Lemma cells_never : forall S (T : S -> S -> Prop) lo0 hi0 lo1 hi1 (body : Z -> Z -> S -> S) s,
  (forall s, T s s) -> (forall a b c, T a b -> T b c -> T a c) ->
  (forall i j s, in_box lo0 hi0 lo1 hi1 i j -> T s (body i j s)) -> T s (do_cells lo0 hi0 lo1 hi1 body s).
Proof.
  intros S T lo0 hi0 lo1 hi1 body s Tr Tt H. unfold do_cells. apply loop_never; auto. intros j s' Hj.
  apply loop_never; auto. intros i s2 Hi. apply H. split; auto.
Qed.
Lemma cells_once : forall S (T : S -> S -> Prop) lo0 hi0 lo1 hi1 a b (body : Z -> Z -> S -> S) s,
  (forall s, T s s) -> (forall a b c, T a b -> T b c -> T a c) -> in_box lo0 hi0 lo1 hi1 a b ->
  (forall i j s, in_box lo0 hi0 lo1 hi1 i j -> (i <> a \/ j <> b)%Z -> T s (body i j s)) ->
  exists s0, T s s0 /\ T (body a b s0) (do_cells lo0 hi0 lo1 hi1 body s).
Proof.
  intros S T lo0 hi0 lo1 hi1 a b body s Tr Tt [Ha Hb] H. unfold do_cells.
  destruct (loop_once S T lo1 hi1 b (fun j => do_loop lo0 hi0 (fun i => body i j)) s Tr Tt Hb) as (s0 & A & B).
  { intros j s' Hj N. apply loop_never; auto. intros i s2 Hi. apply H; [split; auto | lia]. }
  destruct (loop_once S T lo0 hi0 a (fun i => body i b) s0 Tr Tt Ha) as (s1 & C & D).
  { intros i s' Hi N. apply H; [split; auto | lia]. }
  exists s1. split; [eapply Tt; eauto | eapply Tt; eauto].
Qed.
Lemma cells3_never : forall S (T : S -> S -> Prop) lo0 hi0 lo1 hi1 lo2 hi2 (body : Z -> Z -> Z -> S -> S) s,
  (forall s, T s s) -> (forall a b c, T a b -> T b c -> T a c) ->
  (forall i j k s, in_box3 lo0 hi0 lo1 hi1 lo2 hi2 i j k -> T s (body i j k s)) -> T s (do_cells3 lo0 hi0 lo1 hi1 lo2 hi2 body s).
Proof.
  intros S T lo0 hi0 lo1 hi1 lo2 hi2 body s Tr Tt H. unfold do_cells3. apply loop_never; auto. intros k s' Hk.
  apply loop_never; auto. intros j s2 Hj. apply loop_never; auto. intros i s3 Hi. apply H. repeat split; lia.
Qed.
Lemma cells3_once : forall S (T : S -> S -> Prop) lo0 hi0 lo1 hi1 lo2 hi2 a b c (body : Z -> Z -> Z -> S -> S) s,
  (forall s, T s s) -> (forall a b c, T a b -> T b c -> T a c) -> in_box3 lo0 hi0 lo1 hi1 lo2 hi2 a b c ->
  (forall i j k s, in_box3 lo0 hi0 lo1 hi1 lo2 hi2 i j k -> (i <> a \/ j <> b \/ k <> c)%Z -> T s (body i j k s)) ->
  exists s0, T s s0 /\ T (body a b c s0) (do_cells3 lo0 hi0 lo1 hi1 lo2 hi2 body s).
Proof.
  intros S T lo0 hi0 lo1 hi1 lo2 hi2 a b c body s Tr Tt (Ha & Hb & Hc) H. unfold do_cells3.
  destruct (loop_once S T lo2 hi2 c (fun k => do_cells lo0 hi0 lo1 hi1 (fun i j => body i j k)) s Tr Tt Hc) as (s0 & A & B).
  { intros k s' Hk N. apply cells_never; auto. intros i j s2 [Hi Hj]. apply H; [repeat split; lia | lia]. }
  destruct (cells_once S T lo0 hi0 lo1 hi1 a b (fun i j => body i j c) s0 Tr Tt (conj Ha Hb)) as (s1 & C & D).
  { intros i j s' [Hi Hj] N. apply H; [repeat split; lia | lia]. }
  exists s1. split; [eapply Tt; eauto | eapply Tt; eauto].
Qed.
