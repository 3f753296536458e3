From Coq Require Import Reals ZArith List Bool Lra Lia.
From Verif Require Import Grid_Model Grid_Spec Grid_Proofs Tagging_Model Tagging_Spec.
Open Scope R_scope.

Lemma inb_true lo hi i : (lo <= i <= hi)%Z -> inb lo hi i = true.
Proof. intros H. destruct (inb_spec lo hi i); auto; lia. Qed.

(** ** gradients *)
Lemma gradx2_value lo0 hi0 lo1 hi1 h v i j : fst h <> 0 -> in_box lo0 hi0 lo1 hi1 i j ->
  gradx2 lo0 hi0 lo1 hi1 h v i j * fst h = (v (i + 1)%Z j - v (i - 1)%Z j) / 2.
Proof.
  intros Hh [Hi Hj]. unfold gradx2, grad_cell2_x, diffs2_x. cbv zeta.
  rewrite (cells_loop lo0 hi0 lo1 hi1 (fun i j _ => _)), !inb_true by lia. cbn [andb].
  rewrite !(cells_loop lo0 (hi0 + 1) (lo1 - 1) (hi1 + 1) (fun i j _ => v i j - v (i - 1)%Z j)), !inb_true by lia. cbn [andb].
  replace (i + 1 - 1)%Z with i by lia. field; auto.
Qed.
Lemma grady2_value lo0 hi0 lo1 hi1 h v i j : snd h <> 0 -> in_box lo0 hi0 lo1 hi1 i j ->
  grady2 lo0 hi0 lo1 hi1 h v i j * snd h = (v i (j + 1)%Z - v i (j - 1)%Z) / 2.
Proof.
  intros Hh [Hi Hj]. unfold grady2, grad_cell2_y, diffs2_y. cbv zeta.
  rewrite (cells_loop lo0 hi0 lo1 hi1 (fun i j _ => _)), !inb_true by lia. cbn [andb].
  rewrite !(cells_loop (lo0 - 1) (hi0 + 1) lo1 (hi1 + 1) (fun i j _ => v i j - v i (j - 1)%Z)), !inb_true by lia. cbn [andb].
  replace (j + 1 - 1)%Z with j by lia. field; auto.
Qed.
Lemma gradx3_value lo0 hi0 lo1 hi1 lo2 hi2 h1 h2 h3 v i j k : h1 <> 0 -> in_box3 lo0 hi0 lo1 hi1 lo2 hi2 i j k ->
  gradx3 lo0 hi0 lo1 hi1 lo2 hi2 (h1, h2, h3) v i j k * h1 = (v (i + 1)%Z j k - v (i - 1)%Z j k) / 2.
Proof.
  intros Hh (Hi & Hj & Hk). unfold gradx3, grad_cell3_x, diffs3_x. cbv zeta.
  rewrite (cells3_loop lo0 hi0 lo1 hi1 lo2 hi2 (fun i j k _ => _)), !inb_true by lia. cbn [andb].
  rewrite !(cells3_loop lo0 (hi0 + 1) (lo1 - 1) (hi1 + 1) (lo2 - 1) (hi2 + 1) (fun i j k _ => v i j k - v (i - 1)%Z j k)), !inb_true by lia. cbn [andb].
  replace (i + 1 - 1)%Z with i by lia. field; auto.
Qed.
Lemma grady3_value lo0 hi0 lo1 hi1 lo2 hi2 h1 h2 h3 v i j k : h2 <> 0 -> in_box3 lo0 hi0 lo1 hi1 lo2 hi2 i j k ->
  grady3 lo0 hi0 lo1 hi1 lo2 hi2 (h1, h2, h3) v i j k * h2 = (v i (j + 1)%Z k - v i (j - 1)%Z k) / 2.
Proof.
  intros Hh (Hi & Hj & Hk). unfold grady3, grad_cell3_y, diffs3_y. cbv zeta.
  rewrite (cells3_loop lo0 hi0 lo1 hi1 lo2 hi2 (fun i j k _ => _)), !inb_true by lia. cbn [andb].
  rewrite !(cells3_loop (lo0 - 1) (hi0 + 1) lo1 (hi1 + 1) (lo2 - 1) (hi2 + 1) (fun i j k _ => v i j k - v i (j - 1)%Z k)), !inb_true by lia. cbn [andb].
  replace (j + 1 - 1)%Z with j by lia. field; auto.
Qed.
Lemma gradz3_value lo0 hi0 lo1 hi1 lo2 hi2 h1 h2 h3 v i j k : h3 <> 0 -> in_box3 lo0 hi0 lo1 hi1 lo2 hi2 i j k ->
  gradz3 lo0 hi0 lo1 hi1 lo2 hi2 (h1, h2, h3) v i j k * h3 = (v i j (k + 1)%Z - v i j (k - 1)%Z) / 2.
Proof.
  intros Hh (Hi & Hj & Hk). unfold gradz3, grad_cell3_z, diffs3_z. cbv zeta.
  rewrite (cells3_loop lo0 hi0 lo1 hi1 lo2 hi2 (fun i j k _ => _)), !inb_true by lia. cbn [andb].
  rewrite !(cells3_loop (lo0 - 1) (hi0 + 1) (lo1 - 1) (hi1 + 1) lo2 (hi2 + 1) (fun i j k _ => v i j k - v i j (k - 1)%Z)), !inb_true by lia. cbn [andb].
  replace (k + 1 - 1)%Z with k by lia. field; auto.
Qed.

(** ** tagging loops: a predicate on cells *)
Lemma iupd2_same f i j v : iupd2 f i j v i j = v.
Proof. unfold iupd2. rewrite !Z.eqb_refl. reflexivity. Qed.
Lemma iupd2_other f i j v a b : (i <> a \/ j <> b)%Z -> iupd2 f i j v a b = f a b.
Proof. intros H. unfold iupd2. destruct (Z.eqb_spec a i), (Z.eqb_spec b j); cbn; auto; lia. Qed.
Lemma iupd3_same f i j k v : iupd3 f i j k v i j k = v.
Proof. unfold iupd3. rewrite !Z.eqb_refl. reflexivity. Qed.
Lemma iupd3_other f i j k v a b c : (i <> a \/ j <> b \/ k <> c)%Z -> iupd3 f i j k v a b c = f a b c.
Proof. intros H. unfold iupd3. destruct (Z.eqb_spec a i), (Z.eqb_spec b j), (Z.eqb_spec c k); cbn; auto; lia. Qed.

Lemma tag_loop2 lo0 hi0 lo1 hi1 (g : Z -> Z -> R) t v (tags : iarr2) a b :
  do_cells lo0 hi0 lo1 hi1 (fun i j tags => if Rge_dec (g i j) t then iupd2 tags i j v else tags) tags a b =
  if inb lo0 hi0 a && inb lo1 hi1 b then if Rge_dec (g a b) t then v else tags a b else tags a b.
Proof.
  set (T := fun x y : iarr2 => x a b = y a b).
  assert (Tr : forall x, T x x) by (intros; reflexivity).
  assert (Tt : forall x y z, T x y -> T y z -> T x z) by (unfold T; intros; congruence).
  destruct (inb_spec lo0 hi0 a) as [Ha|Ha]; [destruct (inb_spec lo1 hi1 b) as [Hb|Hb]|]; cbn [andb].
  - destruct (cells_once iarr2 T lo0 hi0 lo1 hi1 a b (fun i j tags => if Rge_dec (g i j) t then iupd2 tags i j v else tags) tags Tr Tt (conj Ha Hb)) as (s0 & A & B).
    { intros i j s _ Hn. unfold T. destruct (Rge_dec (g i j) t); auto. rewrite iupd2_other; auto. }
    unfold T in A, B. rewrite <- B. destruct (Rge_dec (g a b) t); [apply iupd2_same|auto].
  - symmetry. apply (cells_never iarr2 T); auto. intros i j s [Hi Hj]. unfold T. destruct (Rge_dec (g i j) t); auto. rewrite iupd2_other; auto. lia.
  - symmetry. apply (cells_never iarr2 T); auto. intros i j s [Hi Hj]. unfold T. destruct (Rge_dec (g i j) t); auto. rewrite iupd2_other; auto. lia.
Qed.
Lemma tag_loop3 lo0 hi0 lo1 hi1 lo2 hi2 (g : Z -> Z -> Z -> R) t v (tags : iarr3) a b c :
  do_cells3 lo0 hi0 lo1 hi1 lo2 hi2 (fun i j k tags => if Rge_dec (g i j k) t then iupd3 tags i j k v else tags) tags a b c =
  if inb lo0 hi0 a && inb lo1 hi1 b && inb lo2 hi2 c then if Rge_dec (g a b c) t then v else tags a b c else tags a b c.
Proof.
  set (T := fun x y : iarr3 => x a b c = y a b c).
  assert (Tr : forall x, T x x) by (intros; reflexivity).
  assert (Tt : forall x y z, T x y -> T y z -> T x z) by (unfold T; intros; congruence).
  set (body := fun i j k tags => if Rge_dec (g i j k) t then iupd3 tags i j k v else tags).
  assert (Hb : forall i j k s, (i <> a \/ j <> b \/ k <> c)%Z -> T s (body i j k s)).
  { intros i j k s Hn. unfold T, body. destruct (Rge_dec (g i j k) t); auto. rewrite iupd3_other; auto. }
  destruct (inb_spec lo0 hi0 a) as [H0|H0]; [destruct (inb_spec lo1 hi1 b) as [H1|H1]; [destruct (inb_spec lo2 hi2 c) as [H2|H2]|]|]; cbn [andb].
  - destruct (cells3_once iarr3 T lo0 hi0 lo1 hi1 lo2 hi2 a b c body tags Tr Tt (conj H0 (conj H1 H2))) as (s0 & A & B).
    { intros i j k s _ Hn. apply Hb; auto. }
    unfold T in A, B. rewrite <- B. unfold body. destruct (Rge_dec (g a b c) t); [apply iupd3_same|auto].
  - symmetry. apply (cells3_never iarr3 T); auto. intros i j k s (Hi & Hj & Hk). apply Hb; lia.
  - symmetry. apply (cells3_never iarr3 T); auto. intros i j k s (Hi & Hj & Hk). apply Hb; lia.
  - symmetry. apply (cells3_never iarr3 T); auto. intros i j k s (Hi & Hj & Hk). apply Hb; lia.
Qed.

Lemma reach_iff t g : 0 <= g -> (g >= t * t <-> Rabs t <= sqrt g).
Proof.
  intros Hg. replace (t * t) with (Rabs t * Rabs t) by (rewrite <- Rabs_mult, Rabs_right; [auto|apply Rle_ge, Rle_0_sqr]).
  pose proof (Rabs_pos t) as Ht. split; intros H.
  - rewrite <- (sqrt_square (Rabs t)) by auto. apply sqrt_le_1_alt. lra.
  - rewrite <- (sqrt_sqrt g) by auto. pose proof (sqrt_pos g). apply Rle_ge, Rmult_le_compat; auto.
Qed.
Lemma change2_nonneg v i j : 0 <= change2_sq v i j.
Proof. unfold change2_sq. match goal with |- 0 <= ?x ^ 2 + ?y ^ 2 => pose proof (pow2_ge_0 x); pose proof (pow2_ge_0 y) end. lra. Qed.
Lemma change3_nonneg v i j k : 0 <= change3_sq v i j k.
Proof. unfold change3_sq. match goal with |- 0 <= ?x ^ 2 + ?y ^ 2 + ?z ^ 2 => pose proof (pow2_ge_0 x); pose proof (pow2_ge_0 y); pose proof (pow2_ge_0 z) end. lra. Qed.
Lemma sumZ_nonneg lo hi f : (forall i, 0 <= f i) -> 0 <= sumZ lo hi f.
Proof.
  intros H. revert lo hi. apply Zinterval_ind; intros lo hi Hl.
  - rewrite sumZ_empty by auto. lra.
  - intros IH. rewrite sumZ_snoc by auto. specialize (H hi). lra.
Qed.

(** one tagging step: the tag is raised where the change reaches the threshold *)
Definition raise (tag : Z) (P Q : Prop) (tag' : Z) : Prop := (tag' = 1%Z \/ tag' = 0%Z) /\ (tag' = 1%Z <-> (P \/ Q)).
Lemma raise_step (tag : Z) (P Q : Prop) (g c t : R) :
  (tag = 1%Z \/ tag = 0%Z) -> (tag = 1%Z <-> P) -> 0 <= c -> g = c -> (Q <-> Rabs t <= sqrt c) ->
  let tag' := if Rge_dec g (t * t) then 1%Z else tag in (tag' = 1%Z \/ tag' = 0%Z) /\ (tag' = 1%Z <-> (P \/ Q)).
Proof.
  intros Ht HP Hc -> HQ. cbv zeta. destruct (Rge_dec c (t * t)) as [Hg|Hg].
  - split; [auto|]. split; auto. intros _. right. apply HQ, reach_iff; auto.
  - split; [auto|]. rewrite HP. split; [auto|]. intros [H|H]; auto. exfalso. apply Hg. apply reach_iff; auto. apply HQ; auto.
Qed.
Lemma reaches_some t c : reaches (Some t) c <-> Rabs t <= sqrt c.
Proof. unfold reaches. split; [intros (t' & E & H); injection E as ->; auto|exists t; auto]. Qed.
Lemma reaches_none c : ~ reaches None c.
Proof. intros (t & E & _); discriminate. Qed.

Lemma tags_phase2 lo0 hi0 lo1 hi1 h v tags (thr : option R) i j : fst h <> 0 -> snd h <> 0 -> in_box lo0 hi0 lo1 hi1 i j ->
  forall P : Prop, (tags i j = 1%Z \/ tags i j = 0%Z) -> (tags i j = 1%Z <-> P) ->
  let tags' := match thr with Some t => tagfromgrads2 lo0 hi0 lo1 hi1 (gradx2 lo0 hi0 lo1 hi1 h v) (grady2 lo0 hi0 lo1 hi1 h v) h tags 1 t | None => tags end in
  (tags' i j = 1%Z \/ tags' i j = 0%Z) /\ (tags' i j = 1%Z <-> (P \/ reaches thr (change2_sq v i j))).
Proof.
  intros H1 H2 Hb P Ht HP. destruct thr as [t|]; cbv zeta.
  - unfold tagfromgrads2. cbv zeta.
    rewrite (tag_loop2 lo0 hi0 lo1 hi1 (fun ii jj => gradx2 lo0 hi0 lo1 hi1 h v ii jj * fst h * (gradx2 lo0 hi0 lo1 hi1 h v ii jj * fst h) +
       grady2 lo0 hi0 lo1 hi1 h v ii jj * snd h * (grady2 lo0 hi0 lo1 hi1 h v ii jj * snd h)) (t * t)).
    rewrite !inb_true by (destruct Hb; lia). cbn [andb].
    apply raise_step with (c := change2_sq v i j); auto.
    + apply change2_nonneg.
    + rewrite gradx2_value, grady2_value by auto. unfold change2_sq. ring.
    + apply reaches_some.
  - split; auto. rewrite HP. split; auto. intros [H|H]; auto. destruct (reaches_none _ H).
Qed.
Lemma tags_quat2 lo0 hi0 lo1 hi1 h (q : Z -> arr2) depth tags (thr : option R) i j : fst h <> 0 -> snd h <> 0 -> in_box lo0 hi0 lo1 hi1 i j ->
  forall P : Prop, (tags i j = 1%Z \/ tags i j = 0%Z) -> (tags i j = 1%Z <-> P) ->
  let tags' := match thr with Some t => tagfromquatgrads2 lo0 hi0 lo1 hi1 (fun m => gradx2 lo0 hi0 lo1 hi1 h (q m)) (fun m => grady2 lo0 hi0 lo1 hi1 h (q m)) depth h tags 1 t | None => tags end in
  (tags' i j = 1%Z \/ tags' i j = 0%Z) /\ (tags' i j = 1%Z <-> (P \/ reaches thr (sumZ 1 depth (fun m => change2_sq (q m) i j)))).
Proof.
  intros H1 H2 Hb P Ht HP. destruct thr as [t|]; cbv zeta.
  - unfold tagfromquatgrads2. cbv zeta.
    match goal with |- context [do_cells _ _ _ _ (fun ii jj tags => if Rge_dec (@?g ii jj) _ then _ else _) _] => set (G := g) end.
    rewrite (tag_loop2 lo0 hi0 lo1 hi1 G (t * t)).
    rewrite !inb_true by (destruct Hb; lia). cbn [andb].
    apply raise_step with (c := sumZ 1 depth (fun m => change2_sq (q m) i j)); auto.
    + apply sumZ_nonneg. intros; apply change2_nonneg.
    + unfold G. rewrite (do_loop_ext _ 1 depth _ (fun m g => g + change2_sq (q m) i j)).
      * rewrite loop_sum. ring.
      * intros m g _. rewrite gradx2_value, grady2_value by auto. unfold change2_sq. ring.
    + apply reaches_some.
  - split; auto. rewrite HP. split; auto. intros [H|H]; auto. destruct (reaches_none _ H).
Qed.

Lemma tags2 : forall m lo0 hi0 lo1 hi1 h f i j, fst h <> 0 -> snd h <> 0 -> in_box lo0 hi0 lo1 hi1 i j ->
  (detector2 m lo0 hi0 lo1 hi1 h f i j = 1%Z \/ detector2 m lo0 hi0 lo1 hi1 h f i j = 0%Z) /\
  (detector2 m lo0 hi0 lo1 hi1 h f i j = 1%Z <-> steep2 m f i j).
Proof.
  intros m lo0 hi0 lo1 hi1 h f i j H1 H2 Hb. unfold detector2. cbv zeta.
  destruct (tags_phase2 lo0 hi0 lo1 hi1 h (f2_phase f 0%Z) (fun _ _ => 0%Z) (mon_phase m) i j H1 H2 Hb False (or_intror eq_refl)) as [A1 A2].
  { split; [discriminate|tauto]. }
  destruct (tags_phase2 lo0 hi0 lo1 hi1 h (f2_eta f) _ (mon_eta m) i j H1 H2 Hb _ A1 A2) as [B1 B2].
  destruct (tags_quat2 lo0 hi0 lo1 hi1 h (f2_quat f) (f2_qlen f) _ (mon_quat m) i j H1 H2 Hb _ B1 B2) as [C1 C2].
  split; [exact C1|]. unfold steep2. etransitivity; [exact C2|]. tauto.
Qed.

Lemma tags_outside2 : forall m lo0 hi0 lo1 hi1 h f i j, ~ in_box lo0 hi0 lo1 hi1 i j -> detector2 m lo0 hi0 lo1 hi1 h f i j = 0%Z.
Proof.
  intros m lo0 hi0 lo1 hi1 h f i j Hb. unfold detector2, tagfromgrads2, tagfromquatgrads2. cbv zeta.
  assert (E : inb lo0 hi0 i && inb lo1 hi1 j = false).
  { destruct (inb_spec lo0 hi0 i), (inb_spec lo1 hi1 j); cbn; auto. destruct Hb; split; auto. }
  destruct (mon_phase m); destruct (mon_eta m); destruct (mon_quat m);
  repeat match goal with |- context [do_cells _ _ _ _ (fun ii jj tags => if Rge_dec (@?g ii jj) ?t then _ else _) _ i j] =>
    rewrite (tag_loop2 lo0 hi0 lo1 hi1 g t), E end; reflexivity.
Qed.

Lemma tags_phase3 lo0 hi0 lo1 hi1 lo2 hi2 h1 h2 h3 v tags (thr : option R) i j k : h1 <> 0 -> h2 <> 0 -> h3 <> 0 -> in_box3 lo0 hi0 lo1 hi1 lo2 hi2 i j k ->
  forall P : Prop, (tags i j k = 1%Z \/ tags i j k = 0%Z) -> (tags i j k = 1%Z <-> P) ->
  let h := (h1, h2, h3) in
  let tags' := match thr with Some t => tagfromgrads3 lo0 hi0 lo1 hi1 lo2 hi2 (gradx3 lo0 hi0 lo1 hi1 lo2 hi2 h v) (grady3 lo0 hi0 lo1 hi1 lo2 hi2 h v)
    (gradz3 lo0 hi0 lo1 hi1 lo2 hi2 h v) h tags 1 t | None => tags end in
  (tags' i j k = 1%Z \/ tags' i j k = 0%Z) /\ (tags' i j k = 1%Z <-> (P \/ reaches thr (change3_sq v i j k))).
Proof.
  intros H1 H2 H3 Hb P Ht HP. destruct thr as [t|]; cbv zeta.
  - unfold tagfromgrads3. cbv zeta.
    match goal with |- context [do_cells3 _ _ _ _ _ _ (fun ii jj kk tags => if Rge_dec (@?g ii jj kk) _ then _ else _) _] => set (G := g) end.
    rewrite (tag_loop3 lo0 hi0 lo1 hi1 lo2 hi2 G (t * t)).
    rewrite !inb_true by (destruct Hb as (? & ? & ?); lia). cbn [andb].
    apply raise_step with (c := change3_sq v i j k); auto.
    + apply change3_nonneg.
    + unfold G. rewrite gradx3_value, grady3_value, gradz3_value by auto. unfold change3_sq. ring.
    + apply reaches_some.
  - split; auto. rewrite HP. split; auto. intros [H|H]; auto. destruct (reaches_none _ H).
Qed.
Lemma tags_quat3 lo0 hi0 lo1 hi1 lo2 hi2 h1 h2 h3 (q : Z -> arr3) depth tags (thr : option R) i j k : h1 <> 0 -> h2 <> 0 -> h3 <> 0 -> in_box3 lo0 hi0 lo1 hi1 lo2 hi2 i j k ->
  forall P : Prop, (tags i j k = 1%Z \/ tags i j k = 0%Z) -> (tags i j k = 1%Z <-> P) ->
  let h := (h1, h2, h3) in
  let tags' := match thr with Some t => tagfromquatgrads3 lo0 hi0 lo1 hi1 lo2 hi2 (fun m => gradx3 lo0 hi0 lo1 hi1 lo2 hi2 h (q m))
    (fun m => grady3 lo0 hi0 lo1 hi1 lo2 hi2 h (q m)) (fun m => gradz3 lo0 hi0 lo1 hi1 lo2 hi2 h (q m)) depth h tags 1 t | None => tags end in
  (tags' i j k = 1%Z \/ tags' i j k = 0%Z) /\ (tags' i j k = 1%Z <-> (P \/ reaches thr (sumZ 1 depth (fun m => change3_sq (q m) i j k)))).
Proof.
  intros H1 H2 H3 Hb P Ht HP. destruct thr as [t|]; cbv zeta.
  - unfold tagfromquatgrads3. cbv zeta.
    match goal with |- context [do_cells3 _ _ _ _ _ _ (fun ii jj kk tags => if Rge_dec (@?g ii jj kk) _ then _ else _) _] => set (G := g) end.
    rewrite (tag_loop3 lo0 hi0 lo1 hi1 lo2 hi2 G (t * t)).
    rewrite !inb_true by (destruct Hb as (? & ? & ?); lia). cbn [andb].
    apply raise_step with (c := sumZ 1 depth (fun m => change3_sq (q m) i j k)); auto.
    + apply sumZ_nonneg. intros; apply change3_nonneg.
    + unfold G. rewrite (do_loop_ext _ 1 depth _ (fun m g => g + change3_sq (q m) i j k)).
      * rewrite loop_sum. ring.
      * intros m g _. rewrite gradx3_value, grady3_value, gradz3_value by auto. unfold change3_sq. ring.
    + apply reaches_some.
  - split; auto. rewrite HP. split; auto. intros [H|H]; auto. destruct (reaches_none _ H).
Qed.

Lemma tags3 : forall m lo0 hi0 lo1 hi1 lo2 hi2 h1 h2 h3 f i j k, h1 <> 0 -> h2 <> 0 -> h3 <> 0 -> in_box3 lo0 hi0 lo1 hi1 lo2 hi2 i j k ->
  let tag := detector3 m lo0 hi0 lo1 hi1 lo2 hi2 (h1, h2, h3) f i j k in
  (tag = 1%Z \/ tag = 0%Z) /\ (tag = 1%Z <-> steep3 m f i j k).
Proof.
  intros m lo0 hi0 lo1 hi1 lo2 hi2 h1 h2 h3 f i j k H1 H2 H3 Hb. unfold detector3. cbv zeta.
  destruct (tags_phase3 lo0 hi0 lo1 hi1 lo2 hi2 h1 h2 h3 (f3_phase f 0%Z) (fun _ _ _ => 0%Z) (mon_phase m) i j k H1 H2 H3 Hb False (or_intror eq_refl)) as [A1 A2].
  { split; [discriminate|tauto]. }
  destruct (tags_phase3 lo0 hi0 lo1 hi1 lo2 hi2 h1 h2 h3 (f3_eta f) _ (mon_eta m) i j k H1 H2 H3 Hb _ A1 A2) as [B1 B2].
  destruct (tags_quat3 lo0 hi0 lo1 hi1 lo2 hi2 h1 h2 h3 (f3_quat f) (f3_qlen f) _ (mon_quat m) i j k H1 H2 H3 Hb _ B1 B2) as [C1 C2].
  split; [exact C1|]. unfold steep3. etransitivity; [exact C2|]. tauto.
Qed.

Lemma reaches_mono thr thr' c : (forall t, thr = Some t -> thr' = Some t) -> reaches thr c -> reaches thr' c.
Proof. intros H (t & E & Ht). exists t; auto. Qed.
Lemma tags_monotone2 : forall m m' lo0 hi0 lo1 hi1 h f i j, fst h <> 0 -> snd h <> 0 -> in_box lo0 hi0 lo1 hi1 i j -> extends m m' ->
  detector2 m lo0 hi0 lo1 hi1 h f i j = 1%Z -> detector2 m' lo0 hi0 lo1 hi1 h f i j = 1%Z.
Proof.
  intros m m' lo0 hi0 lo1 hi1 h f i j H1 H2 Hb (E1 & E2 & E3) H.
  apply tags2; auto. apply tags2 in H; auto. unfold steep2 in *.
  destruct H as [H|[H|H]]; [left|right; left|right; right]; eapply reaches_mono; eauto.
Qed.
Lemma tags_monotone3 : forall m m' lo0 hi0 lo1 hi1 lo2 hi2 h1 h2 h3 f i j k, h1 <> 0 -> h2 <> 0 -> h3 <> 0 -> in_box3 lo0 hi0 lo1 hi1 lo2 hi2 i j k -> extends m m' ->
  detector3 m lo0 hi0 lo1 hi1 lo2 hi2 (h1, h2, h3) f i j k = 1%Z -> detector3 m' lo0 hi0 lo1 hi1 lo2 hi2 (h1, h2, h3) f i j k = 1%Z.
Proof.
  intros m m' lo0 hi0 lo1 hi1 lo2 hi2 h1 h2 h3 f i j k H1 H2 H3 Hb (E1 & E2 & E3) H.
  apply tags3; auto. apply tags3 in H; auto. unfold steep3 in *.
  destruct H as [H|[H|H]]; [left|right; left|right; right]; eapply reaches_mono; eauto.
Qed.

(** two order parameters, the second one a step *)
Definition step_field (i j : Z) : R := if (i <? 5)%Z then 0 else 1.
Definition two_orders : fields2 := mk_fields2 (fun p => if (p =? 1)%Z then step_field else zero2) zero2 (fun _ => zero2) 0.
Lemma second_order_missed : exists thr, 0 < thr /\ thr <= sqrt (change2_sq (f2_phase two_orders 1%Z) 5 5) /\
  detector2 (mk_monitors (Some thr) None None) 0 9 0 9 (1, 1) two_orders 5%Z 5%Z = 0%Z.
Proof.
  exists (1 / 4). split; [lra|]. split.
  - unfold change2_sq, two_orders, step_field. cbn. replace (_ + _) with ((1 / 2) * (1 / 2)) by field. rewrite sqrt_square by lra. lra.
  - destruct (tags2 (mk_monitors (Some (1 / 4)) None None) 0 9 0 9 (1, 1) two_orders 5%Z 5%Z) as [[H|H] H']; [cbn; lra|cbn; lra|split; lia| |exact H].
    exfalso. apply H' in H. destruct H as [(t & E & H)|[(t & E & H)|(t & E & H)]]; [|discriminate|discriminate].
    cbn in E. injection E as <-. revert H. unfold change2_sq, two_orders, zero2. cbn. replace (_ + _) with 0 by field. rewrite sqrt_0, Rabs_right by lra. lra.
Qed.
