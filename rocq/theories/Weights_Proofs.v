(** Proofs about control-volume weights. *)
From Coq Require Import Reals ZArith List Bool Lra Lia.
From Verif Require Import Grid_Model Grid_Spec Grid_Proofs Weights_Model Weights_Spec.
Import ListNotations.
Open Scope R_scope.

(** ** boxes *)
Lemma iv_in_spec : forall a i, iv_in a i = true <-> in_iv a i.
Proof. intros [l h] i. unfold iv_in, in_iv. cbn [fst snd]. rewrite andb_true_iff, !Z.leb_le. tauto. Qed.
Lemma box_in_spec : forall b i j k, box_in b i j k = true <-> inside b i j k.
Proof. intros [[a0 a1] a2] i j k. unfold box_in, inside. rewrite !andb_true_iff, !iv_in_spec. tauto. Qed.
Lemma iv_inter_in : forall a b i, iv_in (iv_inter a b) i = iv_in a i && iv_in b i.
Proof.
  intros [a0 a1] [b0 b1] i. apply eq_true_iff_eq. rewrite andb_true_iff, !iv_in_spec. unfold in_iv, iv_inter. cbn [fst snd]. lia.
Qed.
Lemma box_inter_in : forall a b i j k, box_in (box_inter a b) i j k = box_in a i j k && box_in b i j k.
Proof.
  intros [[a0 a1] a2] [[b0 b1] b2] i j k. cbn [box_inter box_in]. rewrite !iv_inter_in.
  destruct (iv_in a0 i), (iv_in a1 j), (iv_in a2 k), (iv_in b0 i), (iv_in b1 j), (iv_in b2 k); reflexivity.
Qed.
Lemma iv_empty_in : forall a i, iv_empty a = true -> iv_in a i = false.
Proof.
  intros [l h] i H. destruct (iv_in (l, h) i) eqn:E; auto. apply iv_in_spec in E. unfold in_iv, iv_empty in *. cbn [fst snd] in *.
  apply Z.ltb_lt in H. lia.
Qed.
Lemma box_empty_in : forall b i j k, box_empty b = true -> box_in b i j k = false.
Proof.
  intros [[a0 a1] a2] i j k H. cbn [box_empty box_in] in *. apply orb_true_iff in H. destruct H as [H | H].
  - apply orb_true_iff in H. destruct H as [H | H]; rewrite (iv_empty_in _ _ H); [reflexivity |]. rewrite andb_false_r. reflexivity.
  - rewrite (iv_empty_in _ _ H). apply andb_false_r.
Qed.
(** a coarse cell lies in the coarsened box iff a child lies in the box *)
Lemma iv_coarsen_in : forall r a i, (0 < r)%Z -> nonempty_iv a ->
  (in_iv (iv_coarsen r a) i <-> exists fi c, in_iv a fi /\ child r i c fi).
Proof.
  intros r [l h] i Hr Ha. unfold in_iv, iv_coarsen, child, nonempty_iv in *. cbn [fst snd] in *. split.
  - intros [H1 H2]. exists (Z.max l (i * r))%Z, (Z.max l (i * r) - i * r)%Z.
    pose proof (Z.mul_div_le h r Hr). pose proof (Z.mul_succ_div_gt l r Hr). nia.
  - intros (fi & c & [H1 H2] & H3 & ->). split.
    + assert (l / r < i + 1)%Z by (apply Z.div_lt_upper_bound; lia). lia.
    + apply Z.div_le_lower_bound; lia.
Qed.
Lemma box_coarsen_in : forall r f p i j k, positive3 r -> In p (patches f) -> nonempty (pbox p) ->
  inside (box_coarsen r (pbox p)) i j k -> covered r f i j k.
Proof.
  intros [[r0 r1] r2] f p i j k (H0 & H1 & H2) Hp Hn Hi. unfold covered. destruct (pbox p) as [[a0 a1] a2] eqn:E. destruct Hn as (N0 & N1 & N2).
  cbn [box_coarsen inside] in Hi. destruct Hi as (I0 & I1 & I2).
  apply (iv_coarsen_in r0 a0 i H0 N0) in I0. apply (iv_coarsen_in r1 a1 j H1 N1) in I1. apply (iv_coarsen_in r2 a2 k H2 N2) in I2.
  destruct I0 as (fi & a & I0 & C0). destruct I1 as (fj & b & I1 & C1). destruct I2 as (fk & c & I2 & C2).
  exists p, fi, fj, fk, a, b, c. rewrite E. unfold inside. tauto.
Qed.
Lemma covered_coarsen : forall r f i j k, positive3 r -> (forall p, In p (patches f) -> nonempty (pbox p)) ->
  (covered r f i j k <-> exists p, In p (patches f) /\ inside (box_coarsen r (pbox p)) i j k).
Proof.
  intros r f i j k Hr Hn. split.
  - destruct r as [[r0 r1] r2]. destruct Hr as (H0 & H1 & H2).
    intros (p & fi & fj & fk & a & b & c & Hp & Hi & C0 & C1 & C2). exists p. split; auto. specialize (Hn p Hp).
    destruct (pbox p) as [[a0 a1] a2]. destruct Hn as (N0 & N1 & N2). destruct Hi as (I0 & I1 & I2). cbn [box_coarsen inside].
    repeat split; apply (iv_coarsen_in); eauto.
  - intros (p & Hp & Hi). eapply box_coarsen_in; eauto.
Qed.

(** ** what the loops compute *)
Lemma zero_patch_box : forall bs p, pbox (zero_patch bs p) = pbox p /\ weight_diag (zero_patch bs p) = weight_diag p.
Proof.
  induction bs as [| b bs IH]; intro p; [split; reflexivity |]. unfold zero_patch. cbn [fold_left]. cbv zeta.
  destruct (box_empty (box_inter b (pbox p))).
  - apply IH.
  - destruct (IH (set_weight (fill_box 0 (box_inter b (pbox p))) p)) as [E1 E2]. unfold zero_patch in *. cbv zeta in *. rewrite E1, E2. split; reflexivity.
Qed.
Lemma zero_patch_weight : forall bs p i j k, weight (zero_patch bs p) i j k =
  if existsb (fun b => box_in b i j k) bs && box_in (pbox p) i j k then 0 else weight p i j k.
Proof.
  induction bs as [| b bs IH]; intros p i j k; [reflexivity |]. unfold zero_patch. cbn [fold_left existsb]. cbv zeta.
  destruct (box_empty (box_inter b (pbox p))) eqn:E.
  - pose proof (box_empty_in _ i j k E) as F. rewrite box_inter_in in F. fold (zero_patch bs p). rewrite IH.
    destruct (box_in b i j k), (box_in (pbox p) i j k); try discriminate; cbn [orb]; rewrite ?andb_false_r; reflexivity.
  - fold (zero_patch bs (set_weight (fill_box 0 (box_inter b (pbox p))) p)). rewrite IH. cbn [pbox weight set_weight].
    unfold fill_box. rewrite box_inter_in.
    destruct (box_in b i j k), (box_in (pbox p) i j k), (existsb (fun b0 => box_in b0 i j k) bs); reflexivity.
Qed.
(** indicator of the coarsened finer level *)
Definition cov (r : ratio3) (f : level) (i j k : Z) : bool := existsb (fun p => box_in (box_coarsen r (pbox p)) i j k) (patches f).
Lemma cov_spec : forall r f i j k, positive3 r -> (forall p, In p (patches f) -> nonempty (pbox p)) ->
  (cov r f i j k = true <-> covered r f i j k).
Proof.
  intros r f i j k Hr Hn. rewrite covered_coarsen by auto. unfold cov. rewrite existsb_exists.
  split; intros (p & Hp & Hi); exists p; split; auto; apply box_in_spec; auto.
Qed.
Lemma existsb_map : forall A B (g : A -> B) (t : B -> bool) l, existsb t (map g l) = existsb (fun a => t (g a)) l.
Proof. induction l as [| a l IH]; [reflexivity |]. cbn. rewrite IH. reflexivity. Qed.
Lemma ratio_refines : forall r l f, positive3 (lratio l) -> refines r l f -> ratio_div (lratio f) (lratio l) = r /\ positive3 r.
Proof.
  intros [[r0 r1] r2] l f Hp H. unfold refines, positive3, ratio_div in *. destruct (lratio l) as [[a0 a1] a2]. destruct H as (Hr & E). rewrite E.
  destruct Hp as (P0 & P1 & P2). split; [| lia]. rewrite !(Z.mul_comm _ r0), !(Z.mul_comm _ r1), !(Z.mul_comm _ r2), !Z.div_mul by lia. reflexivity.
Qed.
Definition final_weight (v : R) (r : ratio3) (f : level) (i j k : Z) : R := if cov r f i j k then 0 else v.

(** levels after filling with volumes and zeroing *)
Lemma weighted_cons : forall d l f rest, zero_levels (map (fun l => on_patches (set_weight (fun _ _ _ _ => cell_vol d l)) l) (l :: f :: rest)) =
  zero_level (on_patches (set_weight (fun _ _ _ _ => cell_vol d l)) l) f ::
  zero_levels (map (fun l => on_patches (set_weight (fun _ _ _ _ => cell_vol d l)) l) (f :: rest)).
Proof.
  intros. cbn [map zero_levels]. f_equal. unfold zero_level. cbn [lratio patches on_patches]. rewrite map_map. reflexivity.
Qed.

(** every weight *)
Lemma zero_levels_nth : forall ls n l, nth_error (zero_levels ls) n = Some l ->
  exists l0, nth_error ls n = Some l0 /\
    match nth_error ls (S n) with Some f => l = zero_level l0 f | None => l = l0 end.
Proof.
  induction ls as [| a rest IH]; intros n l H; [destruct n; discriminate |].
  destruct rest as [| f rest].
  - destruct n as [| n]; [injection H as <-; exists a; split; reflexivity |]. destruct n; discriminate.
  - destruct n as [| n].
    + injection H as <-. exists a. split; reflexivity.
    + apply (IH n l). exact H.
Qed.
Lemma chain_nth : forall ls n l, chain ls -> nth_error ls n = Some l ->
  level_ok l /\ forall f, nth_error ls (S n) = Some f -> nested l f /\ level_ok f.
Proof.
  induction ls as [| a rest IH]; intros n l C H; [destruct n; discriminate |]. destruct C as (Ha & Hn & Hr).
  destruct n as [| n].
  - injection H as <-. split; auto. intros f Hf. cbn in Hf. destruct rest as [| f' rest]; [discriminate |]. injection Hf as <-.
    split; auto. destruct Hr as (Hf & _). exact Hf.
  - apply (IH n l Hr H).
Qed.
Lemma nested_pos : forall r l f, level_ok l -> refines r l f -> positive3 r /\ ratio_div (lratio f) (lratio l) = r.
Proof. intros r l f (Hp & _) Hr. destruct (ratio_refines r l f Hp Hr). split; auto. Qed.
Lemma vweights_cell : forall h n l' p i j k, well_formed h ->
  nth_error (levels (computeVectorWeights h)) n = Some l' -> In p (patches l') -> inside (pbox p) i j k ->
  exists l, nth_error (levels h) n = Some l /\
   match nth_error (levels h) (S n) with
   | None => weight p i j k = cell_vol (dx0 h) l
   | Some f => forall r, refines r l f ->
       (covered r f i j k -> weight p i j k = 0) /\ (~ covered r f i j k -> weight p i j k = cell_vol (dx0 h) l)
   end.
Proof.
  intros h n l' p i j k Hw Hl Hp Hi. unfold computeVectorWeights, zeroOutLowerLevelWeights, on_levels in Hl. cbn [levels] in Hl.
  apply zero_levels_nth in Hl. destruct Hl as (l0 & H0 & Hf). rewrite nth_error_map in H0.
  destruct (nth_error (levels h) n) as [l |] eqn:El; [| discriminate]. cbn [option_map] in H0. injection H0 as <-.
  exists l. split; auto. rewrite nth_error_map in Hf. destruct (nth_error (levels h) (S n)) as [f |] eqn:Ef; cbn [option_map] in Hf; subst l'.
  - intros r Hr. destruct (chain_nth _ _ _ Hw El) as (Hok & Hnx). destruct (Hnx f Ef) as (_ & Hokf).
    destruct (nested_pos r l f Hok Hr) as (Pr & Dr).
    unfold zero_level in Hp. cbn [patches on_patches lratio] in Hp. rewrite !map_map in Hp. apply in_map_iff in Hp.
    destruct Hp as (q & <- & Hq). cbn [pbox set_weight] in *.
    rewrite zero_patch_weight. rewrite Dr. rewrite existsb_map. fold (cov r f i j k).
    destruct (zero_patch_box (map (fun x => box_coarsen r (pbox x)) (patches f)) (set_weight (fun _ _ _ _ => cell_vol (dx0 h) l) q)) as [Eb _].
    rewrite Dr in Hi. rewrite Eb in Hi. cbn [pbox set_weight weight] in *. apply box_in_spec in Hi. rewrite Hi, andb_true_r.
    pose proof (cov_spec r f i j k Pr) as C. destruct Hokf as (_ & _ & Hne). specialize (C Hne).
    destruct (cov r f i j k); split; intro X; auto; [exfalso; apply X, C; reflexivity |]. apply C in X. discriminate.
  - cbn [patches on_patches] in Hp. apply in_map_iff in Hp. destruct Hp as (q & <- & _). reflexivity.
Qed.

(** ** sums *)
Lemma sumL_ext : forall A (f g : A -> R) l, (forall a, In a l -> f a = g a) -> sumL f l = sumL g l.
Proof. induction l as [| a l IH]; intro H; [reflexivity |]. cbn. rewrite IH, (H a); [reflexivity | left; reflexivity | intros; apply H; right; auto]. Qed.
Lemma sumL_plus : forall A (f g : A -> R) l, sumL (fun a => f a + g a) l = sumL f l + sumL g l.
Proof. induction l as [| a l IH]; cbn; [ring |]. rewrite IH. ring. Qed.
Lemma sumL_scal : forall A c (f : A -> R) l, sumL (fun a => c * f a) l = c * sumL f l.
Proof. induction l as [| a l IH]; cbn; [ring |]. rewrite IH. ring. Qed.
Lemma sumL_zero : forall A (l : list A), sumL (fun _ => 0) l = 0.
Proof. induction l as [| a l IH]; cbn; [reflexivity |]. rewrite IH. ring. Qed.
Lemma sumL_map : forall A B (g : A -> B) (f : B -> R) l, sumL f (map g l) = sumL (fun a => f (g a)) l.
Proof. induction l as [| a l IH]; cbn; [reflexivity |]. rewrite IH. reflexivity. Qed.
Lemma sumL_swap : forall A B (f : A -> B -> R) l m, sumL (fun a => sumL (f a) m) l = sumL (fun b => sumL (fun a => f a b) l) m.
Proof. induction l as [| a l IH]; intro m; cbn; [rewrite sumL_zero; reflexivity |]. rewrite IH. rewrite <- sumL_plus. reflexivity. Qed.
Lemma sumZ_sumL : forall A lo hi (f : Z -> A -> R) l, sumZ lo hi (fun i => sumL (f i) l) = sumL (fun a => sumZ lo hi (fun i => f i a)) l.
Proof. induction l as [| a l IH]; cbn; [apply sumZ_zero |]. rewrite sumZ_plus, IH. reflexivity. Qed.
Lemma cells_sumL : forall A b (f : Z -> Z -> Z -> A -> R) l,
  sum_cells b (fun i j k => sumL (f i j k) l) = sumL (fun a => sum_cells b (fun i j k => f i j k a)) l.
Proof.
  intros A [[a0 a1] a2] f l. unfold sum_cells, sum_box3. rewrite <- sumZ_sumL. apply sumZ_ext. intros k _. rewrite <- sumZ_sumL. apply sumZ_ext. intros j _. apply sumZ_sumL.
Qed.
Lemma cells_ext : forall b f g, (forall i j k, inside b i j k -> f i j k = g i j k) -> sum_cells b f = sum_cells b g.
Proof.
  intros [[a0 a1] a2] f g H. unfold sum_cells. apply sum_box3_ext. intros i j k (H0 & H1 & H2). apply H. unfold inside, in_iv. auto.
Qed.
Lemma cells_plus : forall b f g, sum_cells b (fun i j k => f i j k + g i j k) = sum_cells b f + sum_cells b g.
Proof. intros [[a0 a1] a2] f g. apply sum_box3_plus. Qed.
Lemma cells_scal : forall b c f, sum_cells b (fun i j k => c * f i j k) = c * sum_cells b f.
Proof. intros [[a0 a1] a2] c f. apply sum_box3_scal. Qed.
(** restricting a sum to another interval *)
Lemma sumZ_restrict : forall a b f, sumZ (fst a) (snd a) (fun i => if iv_in b i then f i else 0) = sumZ (fst (iv_inter a b)) (snd (iv_inter a b)) f.
Proof.
  intros [a0 a1] [b0 b1] f. unfold iv_inter. cbn [fst snd].
  destruct (Z.le_gt_cases (Z.max a0 b0) (Z.min a1 b1)) as [H | H].
  - rewrite (sumZ_split a0 (Z.max a0 b0 - 1) a1) by lia. rewrite (sumZ_split (Z.max a0 b0 - 1 + 1) (Z.min a1 b1) a1) by lia.
    rewrite (sumZ_ext a0 _ _ (fun _ => 0)).
    2:{ intros i Hi. destruct (iv_in (b0, b1) i) eqn:E; auto. apply iv_in_spec in E. unfold in_iv in E. cbn [fst snd] in E. lia. }
    rewrite (sumZ_ext (Z.min a1 b1 + 1) _ _ (fun _ => 0)).
    2:{ intros i Hi. destruct (iv_in (b0, b1) i) eqn:E; auto. apply iv_in_spec in E. unfold in_iv in E. cbn [fst snd] in E. lia. }
    rewrite !sumZ_zero. replace (Z.max a0 b0 - 1 + 1)%Z with (Z.max a0 b0) by lia.
    rewrite (sumZ_ext (Z.max a0 b0) _ _ f); [ring |].
    intros i Hi. assert (E : iv_in (b0, b1) i = true) by (apply iv_in_spec; unfold in_iv; cbn [fst snd]; lia). rewrite E. reflexivity.
  - rewrite (sumZ_empty (Z.max a0 b0)) by lia. rewrite (sumZ_ext _ _ _ (fun _ => 0)); [apply sumZ_zero |].
    intros i Hi. destruct (iv_in (b0, b1) i) eqn:E; auto. apply iv_in_spec in E. unfold in_iv in E. cbn [fst snd] in E. lia.
Qed.
Lemma cells_restrict : forall a b f, sum_cells a (fun i j k => if box_in b i j k then f i j k else 0) = sum_cells (box_inter a b) f.
Proof.
  intros [[a0 a1] a2] [[b0 b1] b2] f. unfold sum_cells, box_inter, sum_box3.
  rewrite <- sumZ_restrict. apply sumZ_ext. intros k _. cbn [box_in]. destruct (iv_in b2 k).
  - rewrite <- sumZ_restrict. apply sumZ_ext. intros j _. destruct (iv_in b1 j).
    + rewrite <- sumZ_restrict. apply sumZ_ext. intros i _. rewrite !andb_true_r. reflexivity.
    + rewrite (sumZ_ext _ _ _ (fun _ => 0)); [apply sumZ_zero |]. intros i _. rewrite andb_false_r. reflexivity.
  - rewrite (sumZ_ext _ _ _ (fun _ => 0)); [apply sumZ_zero |]. intros j _. rewrite (sumZ_ext _ _ _ (fun _ => 0)); [apply sumZ_zero |].
    intros i _. rewrite andb_false_r. reflexivity.
Qed.
Lemma iv_inter_comm : forall a b, iv_inter a b = iv_inter b a.
Proof. intros [a0 a1] [b0 b1]. unfold iv_inter. cbn [fst snd]. f_equal; lia. Qed.
Lemma box_inter_comm : forall a b, box_inter a b = box_inter b a.
Proof. intros [[a0 a1] a2] [[b0 b1] b2]. unfold box_inter. rewrite (iv_inter_comm a0), (iv_inter_comm a1), (iv_inter_comm a2). reflexivity. Qed.
Lemma cells_flip : forall a b f, sum_cells a (fun i j k => if box_in b i j k then f i j k else 0) = sum_cells b (fun i j k => if box_in a i j k then f i j k else 0).
Proof. intros. rewrite !cells_restrict, box_inter_comm. reflexivity. Qed.

(** in a family of disjoint boxes the indicators add up to the indicator of the union *)
Definition union_of (g : patch -> box) (ps : list patch) (i j k : Z) : bool := existsb (fun p => box_in (g p) i j k) ps.
Lemma indicators : forall (g : patch -> box) ps i j k (v : R),
  (forall n m p q, nth_error ps n = Some p -> nth_error ps m = Some q -> inside (g p) i j k -> inside (g q) i j k -> n = m) ->
  sumL (fun p => if box_in (g p) i j k then v else 0) ps = if union_of g ps i j k then v else 0.
Proof.
  induction ps as [| p ps IH]; intros i j k v H; [reflexivity |]. cbn [sumL]. unfold union_of. cbn [existsb]. fold (union_of g ps i j k).
  rewrite IH. 2:{ intros n m a b Ha Hb Ia Ib. assert (X : S n = S m) by (exact (H (S n) (S m) a b Ha Hb Ia Ib)). lia. }
  destruct (box_in (g p) i j k) eqn:E; cbn [orb].
  - destruct (union_of g ps i j k) eqn:U; [| ring]. exfalso. unfold union_of in U. apply existsb_exists in U. destruct U as (q & Hq & Bq).
    apply In_nth_error in Hq. destruct Hq as [n Hn]. apply box_in_spec in E, Bq.
    assert (X : 0%nat = S n) by (exact (H 0%nat (S n) p q eq_refl Hn E Bq)). lia.
  - ring.
Qed.

(** ** refinement *)
Lemma sumZ_blocks : forall r f l u, (0 < r)%Z -> (l <= u + 1)%Z ->
  sumZ (l * r) ((u + 1) * r - 1) f = sumZ l u (fun c => sumZ (c * r) (c * r + r - 1) f).
Proof.
  intros r f l u Hr H. replace u with (l - 1 + (u + 1 - l))%Z by lia. assert (Hd : (0 <= u + 1 - l)%Z) by lia. clear H. revert Hd.
  generalize (u + 1 - l)%Z. intros n Hn. pattern n. apply natlike_ind; auto.
  - rewrite !sumZ_empty by nia. reflexivity.
  - intros m Hm IH. rewrite (sumZ_snoc l (l - 1 + Z.succ m)) by lia. replace (l - 1 + Z.succ m - 1)%Z with (l - 1 + m)%Z by lia. rewrite <- IH.
    replace (l - 1 + Z.succ m)%Z with (l + m)%Z by lia.
    rewrite (sumZ_split (l * r) ((l - 1 + m + 1) * r - 1) ((l + m + 1) * r - 1)) by nia.
    f_equal. f_equal; ring.
Qed.
Lemma iv_blocks : forall r a f, (0 < r)%Z -> nonempty_iv a -> aligned_iv r a ->
  sumZ (fst a) (snd a) f = sumZ (fst (iv_coarsen r a)) (snd (iv_coarsen r a)) (fun c => sumZ (c * r) (c * r + r - 1) f).
Proof.
  intros r [l h] f Hr Hn [[x Hx] [y Hy]]. unfold nonempty_iv, iv_coarsen in *. cbn [fst snd] in *.
  assert (El : (l / r = x)%Z) by (rewrite Hx; apply Z.div_mul; lia).
  assert (Eh : (h / r = y - 1)%Z) by (replace h with (y * r - 1)%Z by lia; symmetry; apply (Z.div_unique_pos _ _ _ (r - 1)); lia).
  rewrite El, Eh. rewrite <- (sumZ_blocks r f x (y - 1)) by nia. f_equal; nia.
Qed.
Lemma box_blocks : forall r b f, positive3 r -> nonempty b -> aligned r b ->
  sum_cells b f = sum_cells (box_coarsen r b) (fun i j k => let '(r0, r1, r2) := r in
    sum_box3 (i * r0) (i * r0 + r0 - 1) (j * r1) (j * r1 + r1 - 1) (k * r2) (k * r2 + r2 - 1) f).
Proof.
  intros [[r0 r1] r2] [[a0 a1] a2] f (P0 & P1 & P2) (N0 & N1 & N2) (A0 & A1 & A2). unfold box_coarsen, sum_cells, sum_box3.
  rewrite (iv_blocks r2 a2) by auto. apply sumZ_ext. intros k _.
  transitivity (sumZ (fst (iv_coarsen r1 a1)) (snd (iv_coarsen r1 a1)) (fun j => sumZ (k * r2) (k * r2 + r2 - 1) (fun c =>
     sumZ (j * r1) (j * r1 + r1 - 1) (fun b => sumZ (fst (iv_coarsen r0 a0)) (snd (iv_coarsen r0 a0)) (fun i => sumZ (i * r0) (i * r0 + r0 - 1) (fun a => f a b c)))))).
  - rewrite (sumZ_swap _ _ (fst (iv_coarsen r1 a1))). apply sumZ_ext. intros c _. rewrite (iv_blocks r1 a1) by auto. apply sumZ_ext. intros j _. apply sumZ_ext. intros b _. apply iv_blocks; auto.
  - apply sumZ_ext. intros j _. rewrite (sumZ_swap _ _ (fst (iv_coarsen r0 a0))). apply sumZ_ext. intros c _. rewrite (sumZ_swap _ _ (fst (iv_coarsen r0 a0))). reflexivity.
Qed.
Lemma vol_refines : forall d r l f, positive3 (lratio l) -> refines r l f ->
  let '(r0, r1, r2) := r in cell_vol d l = IZR r0 * IZR r1 * IZR r2 * cell_vol d f.
Proof.
  intros [[d0 d1] d2] [[r0 r1] r2] l f Hp H. unfold refines, cell_vol, dx_level, positive3 in *. destruct (lratio l) as [[a0 a1] a2].
  destruct H as (Hr & E). rewrite E. rewrite !mult_IZR. field. repeat split; apply not_0_IZR; lia.
Qed.
(** sum over the finer level = sum over the covered cells of the coarser one *)
Lemma covered_sum : forall d l f r u v, level_ok l -> level_ok f -> refines r l f ->
  (forall p, In p (patches f) -> aligned r (pbox p)) ->
  (forall i j k, covered r f i j k -> exists p, In p (patches l) /\ inside (pbox p) i j k) ->
  averaged r f u v ->
  level_sum f (fun _ i j k => cell_vol d f * v i j k) =
  level_sum l (fun _ i j k => if cov r f i j k then cell_vol d l * u i j k else 0).
Proof.
  intros d l f r u v Hl Hf Hr Ha Hc Hav. destruct (nested_pos r l f Hl Hr) as (Pr & _).
  pose proof (vol_refines d r l f (proj1 Hl) Hr) as Hv. destruct Hf as (_ & Df & Nf). destruct Hl as (Pl & Dl & Nl).
  unfold level_sum. set (g := fun i j k : Z => cell_vol d l * u i j k).
  assert (E1 : sumL (fun p => sum_cells (pbox p) (fun i j k => cell_vol d f * v i j k)) (patches f) =
               sumL (fun p => sum_cells (box_coarsen r (pbox p)) g) (patches f)).
  { apply sumL_ext. intros p Hp. rewrite (box_blocks r) by auto. apply cells_ext. intros i j k Hi.
    assert (C : covered r f i j k) by (eapply box_coarsen_in; eauto).
    destruct r as [[r0 r1] r2]. rewrite sum_box3_scal. rewrite <- (Hav i j k C). unfold g. rewrite Hv. ring. }
  rewrite E1.
  assert (E2 : sumL (fun p => sum_cells (box_coarsen r (pbox p)) g) (patches f) =
     sumL (fun p => sumL (fun q => sum_cells (pbox q) (fun i j k => if box_in (box_coarsen r (pbox p)) i j k then g i j k else 0)) (patches l)) (patches f)).
  { apply sumL_ext. intros p Hp. rewrite (sumL_ext _ _ (fun q => sum_cells (box_coarsen r (pbox p)) (fun i j k => if box_in (pbox q) i j k then g i j k else 0))) by (intros; apply cells_flip).
    rewrite <- (cells_sumL _ _ (fun i j k q => if box_in (pbox q) i j k then g i j k else 0)). apply cells_ext. intros i j k Hi.
    rewrite (indicators pbox).
    - assert (C : covered r f i j k) by (eapply box_coarsen_in; eauto). destruct (Hc i j k C) as (q & Hq & Iq).
      assert (U : union_of pbox (patches l) i j k = true) by (apply existsb_exists; exists q; split; auto; apply box_in_spec; auto).
      rewrite U. reflexivity.
    - intros n m a b Hna Hmb Ia Ib. exact (Dl n m i j k a b Hna Hmb Ia Ib). }
  rewrite E2, sumL_swap. apply sumL_ext. intros q Hq.
  rewrite <- (cells_sumL _ _ (fun i j k p => if box_in (box_coarsen r (pbox p)) i j k then g i j k else 0)). apply cells_ext. intros i j k Hi.
  apply (indicators (fun p => box_coarsen r (pbox p))).
  (* disjoint aligned boxes stay disjoint when coarsened *)
  intros n m a b Hna Hmb Ia Ib. assert (Hina : In a (patches f)) by (eapply nth_error_In; eauto). assert (Hinb : In b (patches f)) by (eapply nth_error_In; eauto).
  assert (X : forall p, In p (patches f) -> inside (box_coarsen r (pbox p)) i j k -> let '(r0, r1, r2) := r in inside (pbox p) (i * r0) (j * r1) (k * r2)).
  { clear - Pr Ha Nf. intros p Hp Hi. specialize (Ha p Hp). specialize (Nf p Hp). destruct r as [[r0 r1] r2]. destruct (pbox p) as [[a0 a1] a2].
    destruct Pr as (P0 & P1 & P2). destruct Ha as (A0 & A1 & A2). destruct Nf as (N0 & N1 & N2). cbn [box_coarsen inside] in *. destruct Hi as (I0 & I1 & I2).
    assert (Y : forall r a i, (0 < r)%Z -> aligned_iv r a -> in_iv (iv_coarsen r a) i -> in_iv a (i * r)%Z).
    { clear. intros r [l h] i Hr [[x Hx] [y Hy]] Hi. unfold in_iv, iv_coarsen in *. cbn [fst snd] in *.
      assert (El : (l / r = x)%Z) by (rewrite Hx; apply Z.div_mul; lia).
      assert (Eh : (h / r = y - 1)%Z) by (replace h with (y * r - 1)%Z by lia; symmetry; apply (Z.div_unique_pos _ _ _ (r - 1)); lia).
      rewrite El, Eh in Hi. nia. }
    repeat split; apply Y; auto. }
  pose proof (X a Hina Ia) as Xa. pose proof (X b Hinb Ib) as Xb. destruct r as [[r0 r1] r2]. exact (Df n m _ _ _ a b Hna Hmb Xa Xb).
Qed.

(** ** the integral over the hierarchy *)
Lemma level_sum_ext : forall l g g', (forall p i j k, In p (patches l) -> inside (pbox p) i j k -> g p i j k = g' p i j k) -> level_sum l g = level_sum l g'.
Proof. intros l g g' H. unfold level_sum. apply sumL_ext. intros p Hp. apply cells_ext. intros i j k Hi. apply H; auto. Qed.
Lemma level_sum_plus : forall l g g', level_sum l (fun p i j k => g p i j k + g' p i j k) = level_sum l g + level_sum l g'.
Proof. intros l g g'. unfold level_sum. rewrite <- sumL_plus. apply sumL_ext. intros p _. apply cells_plus. Qed.
Lemma fac_cons : forall d l f rest, fac_levels d (l :: f :: rest) =
  zero_level (on_patches (set_weight (fun _ _ _ _ => cell_vol d l)) l) f :: fac_levels d (f :: rest).
Proof. intros. unfold fac_levels. apply weighted_cons. Qed.
Lemma integral_fac : forall d ls u n l, chain (l :: ls) -> coarsened u n (l :: ls) ->
  integral weight u n (fac_levels d (l :: ls)) = level_sum l (fun _ i j k => cell_vol d l * u n i j k).
Proof.
  induction ls as [| f rest IH]; intros u n l Hc Hu.
  - cbn [fac_levels map zero_levels integral]. unfold fac_levels. cbn [map zero_levels integral]. unfold level_sum. cbn [patches on_patches]. rewrite sumL_map. cbn [pbox set_weight weight]. ring.
  - rewrite fac_cons. cbn [integral]. destruct Hc as (Hl & (r & Hr & Ha & Hn) & Hch). destruct Hu as (Hav & Hu).
    rewrite (IH u (S n) f Hch Hu). assert (Hf : level_ok f) by (destruct Hch; auto).
    rewrite (covered_sum d l f r (u n) (u (S n)) Hl Hf Hr Ha Hn (Hav r Hr)).
    unfold zero_level. cbn [lratio on_patches]. rewrite (proj2 (nested_pos r l f Hl Hr)).
    unfold level_sum at 1. cbn [patches on_patches]. rewrite map_map, sumL_map.
    rewrite (sumL_ext _ _ (fun p => sum_cells (pbox p) (fun i j k => (if cov r f i j k then 0 else cell_vol d l) * u n i j k))).
    + fold (level_sum l (fun _ i j k => (if cov r f i j k then 0 else cell_vol d l) * u n i j k)). rewrite <- level_sum_plus.
      apply level_sum_ext. intros p i j k _ _. destruct (cov r f i j k); ring.
    + intros p Hp. rewrite (proj1 (zero_patch_box _ _)). cbn [pbox set_weight]. apply cells_ext. intros i j k Hi.
      rewrite zero_patch_weight, existsb_map. cbn [pbox set_weight weight]. apply box_in_spec in Hi. rewrite Hi, andb_true_r. reflexivity.
Qed.
Lemma hier_weights : forall h u l ls, levels h = l :: ls -> well_formed h -> coarsened u 0 (levels h) ->
  hier_integral weight u (computeVectorWeights h) = level_sum l (fun _ i j k => cell_vol (dx0 h) l * u 0%nat i j k).
Proof.
  intros h u l ls E Hw Hu. unfold hier_integral, computeVectorWeights, zeroOutLowerLevelWeights, on_levels. cbn [levels].
  unfold well_formed in Hw. rewrite E in *. apply (integral_fac (dx0 h) ls u 0 l); auto.
Qed.
Lemma tiles_sum : forall l D g, level_ok l -> tiles l D -> level_sum l (fun _ => g) = sum_cells D g.
Proof.
  intros l D g (_ & Hd & _) Ht. unfold level_sum.
  rewrite (sumL_ext _ _ (fun p => sum_cells D (fun i j k => if box_in (pbox p) i j k then g i j k else 0))).
  - rewrite <- (cells_sumL _ _ (fun i j k p => if box_in (pbox p) i j k then g i j k else 0)). apply cells_ext. intros i j k Hi.
    rewrite (indicators pbox).
    + apply Ht in Hi. destruct Hi as (p & Hp & Ip).
      assert (U : union_of pbox (patches l) i j k = true) by (apply existsb_exists; exists p; split; auto; apply box_in_spec; auto). rewrite U. reflexivity.
    + intros n m a b Ha Hb Ia Ib. exact (Hd n m i j k a b Ha Hb Ia Ib).
  - intros p Hp. rewrite cells_flip. apply cells_ext. intros i j k Hi.
    assert (B : box_in D i j k = true) by (apply box_in_spec, Ht; eauto). rewrite B. reflexivity.
Qed.
Lemma cells_const : forall a0 a1 a2 c, nonempty (a0, a1, a2) ->
  sum_cells (a0, a1, a2) (fun _ _ _ => c) =
  IZR (snd a0 - fst a0 + 1) * IZR (snd a1 - fst a1 + 1) * IZR (snd a2 - fst a2 + 1) * c.
Proof.
  intros [l0 h0] [l1 h1] [l2 h2] c (N0 & N1 & N2). unfold nonempty_iv in *. cbn [fst snd] in *. unfold sum_cells, sum_box3. cbn [fst snd].
  rewrite (sumZ_ext l2 h2 _ (fun _ => IZR (h1 - l1 + 1) * (IZR (h0 - l0 + 1) * c))).
  - rewrite sumZ_const by lia. ring.
  - intros k _. rewrite (sumZ_ext l1 h1 _ (fun _ => IZR (h0 - l0 + 1) * c)); [apply sumZ_const; lia |]. intros j _. apply sumZ_const. lia.
Qed.
Lemma ones_coarsened : forall ls n, coarsened (fun _ _ _ _ => 1) n ls.
Proof.
  induction ls as [| l rest IH]; intro n; [exact I |]. split; [| apply IH]. destruct rest as [| f rest]; [exact I |].
  intros [[r0 r1] r2] Hr i j k _. unfold refines in Hr. destruct (lratio l) as [[x0 x1] x2]. destruct Hr as (Hr & _).
  pose proof (cells_const (i * r0, i * r0 + r0 - 1) (j * r1, j * r1 + r1 - 1) (k * r2, k * r2 + r2 - 1) 1)%Z as C.
  unfold nonempty, nonempty_iv, sum_cells in C. cbn [fst snd] in C. rewrite C by lia.
  replace (i * r0 + r0 - 1 - i * r0 + 1)%Z with r0 by lia. replace (j * r1 + r1 - 1 - j * r1 + 1)%Z with r1 by lia. replace (k * r2 + r2 - 1 - k * r2 + 1)%Z with r2 by lia. ring.
Qed.
Lemma domain_volume : forall h l ls a0 a1 a2, levels h = l :: ls -> well_formed h -> nonempty (a0, a1, a2) -> tiles l (a0, a1, a2) ->
  hier_integral weight (fun _ _ _ _ => 1) (computeVectorWeights h) =
  let '(d0, d1, d2) := dx_level (dx0 h) l in
  (IZR (snd a0 - fst a0 + 1) * d0) * (IZR (snd a1 - fst a1 + 1) * d1) * (IZR (snd a2 - fst a2 + 1) * d2).
Proof.
  intros h l ls a0 a1 a2 E Hw Hn Ht. rewrite (hier_weights h _ l ls E Hw (ones_coarsened _ _)).
  assert (Hl : level_ok l) by (unfold well_formed in Hw; rewrite E in Hw; destruct Hw; auto).
  rewrite (tiles_sum l (a0, a1, a2) (fun i j k => cell_vol (dx0 h) l * 1)) by auto. rewrite cells_const by auto.
  unfold cell_vol. destruct (dx_level (dx0 h) l) as [[d0 d1] d2]. ring.
Qed.
(** a field conserved under coarsening has the integral of level zero; in particular one given by
    averages over cells *)
Lemma chain_sub : forall c n ls, chain ls -> chain (firstn n (skipn c ls)).
Proof.
  induction c as [| c IH]; intros n ls H.
  - cbn [skipn]. revert ls H. induction n as [| n IHn]; intros ls H; [exact I |]. destruct ls as [| l rest]; [exact I |].
    destruct H as (Hl & Hn & Hr). cbn [firstn]. split; auto. split; [| apply IHn; auto].
    destruct rest as [| f rest]; destruct n; auto; exact I.
  - destruct ls as [| l rest]; [destruct n; exact I |]. destruct H as (_ & _ & Hr). cbn [skipn]. apply IH; auto.
Qed.
Lemma coarsened_sub : forall c n m u ls, coarsened u m ls -> coarsened u (m + c) (firstn n (skipn c ls)).
Proof.
  induction c as [| c IH]; intros n m u ls H.
  - cbn [skipn]. rewrite Nat.add_0_r. revert m ls H. induction n as [| n IHn]; intros m ls H; [exact I |]. destruct ls as [| l rest]; [exact I |].
    destruct H as (Hn & Hr). cbn [firstn]. split; [| apply IHn; auto]. destruct rest as [| f rest]; destruct n; auto; exact I.
  - destruct ls as [| l rest]; [destruct n; exact I |]. destruct H as (_ & Hr). cbn [skipn]. rewrite Nat.add_succ_r. apply (IH n (S m) u rest Hr).
Qed.
Lemma zero_levels_length : forall ls, length (zero_levels ls) = length ls.
Proof. induction ls as [| l [| f rest] IH]; [reflexivity | reflexivity |]. cbn [zero_levels length]. f_equal. exact IH. Qed.
Lemma fac_weights : forall h u c f l h', well_formed h -> coarsened u 0 (levels h) ->
  (c <= f)%nat -> (f < length (levels h))%nat -> nth_error (levels h) c = Some l ->
  fac_computeVectorWeights h (Z.of_nat c) (Z.of_nat f) = Some h' ->
  (forall n, (n < c \/ f < n)%nat -> nth_error (levels h') n = nth_error (levels h) n) /\
  integral weight u c (firstn (S f - c) (skipn c (levels h'))) = level_sum l (fun _ i j k => cell_vol (dx0 h) l * u c i j k).
Proof.
  intros h u c f l h' Hw Hu Hcf Hf Hl E. unfold fac_computeVectorWeights in E.
  destruct (Z.eqb_spec (Z.of_nat c) (-1)) as [X | _]; [lia |]. destruct (Z.eqb_spec (Z.of_nat f) (-1)) as [X | _]; [lia |]. cbv zeta in E.
  destruct (Z.ltb_spec (Z.of_nat f) (Z.of_nat c)); [lia |]. rewrite !Nat2Z.id in E.
  apply (f_equal (fun o => match o with Some x => x | None => h end)) in E. cbv beta iota in E. subst h'. unfold on_levels. cbn [levels].
  set (ls := levels h) in *. set (mid := firstn (S f - c) (skipn c ls)).
  assert (Lmid : length mid = (S f - c)%nat) by (unfold mid; rewrite firstn_length, skipn_length; lia).
  assert (Lfac : length (fac_levels (dx0 h) mid) = (S f - c)%nat) by (unfold fac_levels; rewrite zero_levels_length, map_length; auto).
  assert (Lf : length (firstn c ls) = c) by (rewrite firstn_length; lia).
  split.
  - intros n Hn. destruct (Nat.lt_ge_cases n c) as [A | A].
    + rewrite nth_error_app1 by lia. rewrite <- (firstn_skipn c ls) at 2. rewrite nth_error_app1 by lia. reflexivity.
    + rewrite nth_error_app2 by lia. rewrite nth_error_app2 by lia. rewrite Lf, Lfac. rewrite <- (firstn_skipn (S f) ls) at 2.
      assert (L2 : length (firstn (S f) ls) = S f) by (rewrite firstn_length; lia). rewrite nth_error_app2 by lia. f_equal. lia.
  - rewrite skipn_app, Lf, Nat.sub_diag, skipn_all2 by lia. cbn [skipn app]. rewrite firstn_app, Lfac, Nat.sub_diag, firstn_all2 by lia. cbn [firstn]. rewrite app_nil_r.
    assert (Em : exists rest, mid = l :: rest).
    { unfold mid. replace (S f - c)%nat with (S (f - c)) by lia. destruct (skipn c ls) as [| x rest] eqn:Es.
      - assert (length (skipn c ls) = 0%nat) by (rewrite Es; reflexivity). rewrite skipn_length in *. lia.
      - cbn [firstn]. assert (x = l) as ->; [| eauto]. rewrite <- (firstn_skipn c ls), nth_error_app2, Lf, Nat.sub_diag, Es in Hl by lia. injection Hl; auto. }
    destruct Em as [rest Em]. pose proof (chain_sub c (S f - c) ls Hw) as C1. pose proof (coarsened_sub c (S f - c) 0 u ls Hu) as C2.
    fold mid in C1, C2. rewrite Em in *. apply integral_fac; auto.
Qed.
Lemma fac_weights_default : forall h, levels h <> [] ->
  fac_computeVectorWeights h (-1) (-1) = Some (computeVectorWeights h).
Proof.
  intros h Hn. unfold fac_computeVectorWeights. cbn [Z.eqb Pos.eqb]. cbv zeta.
  destruct (Z.ltb_spec (Z.of_nat (length (levels h)) - 1) 0) as [L | L]; [destruct (levels h); [contradiction | cbn [length] in L; lia] |].
  replace (Z.to_nat (Z.of_nat (length (levels h)) - 1)) with (length (levels h) - 1)%nat by lia.
  assert (S (length (levels h) - 1) = length (levels h)) as -> by lia. cbn [Z.to_nat firstn skipn app]. rewrite Nat.sub_0_r, firstn_all, skipn_all, app_nil_r. reflexivity.
Qed.

(** ** C29 *)
Lemma diag_cell_spec : forall low up fr dx i w,
  (in_sub low up fr dx i -> diag_cell low up fr dx i w = w) /\ (~ in_sub low up fr dx i -> diag_cell low up fr dx i w = 0).
Proof.
  intros. unfold in_sub, diag_cell, diag_bounds. cbv zeta.
  destruct (Rlt_dec (low + IZR i * dx) (low + 1 / 2 * ((up - low) * (1 - fr)))); destruct (Rlt_dec (up - 1 / 2 * ((up - low) * (1 - fr))) (low + IZR i * dx)); split; intro H; try reflexivity; exfalso; try lra.
Qed.

Lemma diag_weights : forall fr h n l' p i j k,
  nth_error (levels (computeVectorWeightsDiagnostics fr h)) n = Some l' -> In p (patches l') -> inside (pbox p) i j k ->
  exists l, nth_error (levels h) n = Some l /\
    (in_subdomain h fr l i j k -> weight_diag p i j k = cell_vol (dx0 h) l) /\
    (~ in_subdomain h fr l i j k -> weight_diag p i j k = 0).
Proof.
  intros fr h n l' p i j k Hl Hp Hi. unfold computeVectorWeightsDiagnostics, zeroOutLowerLevelWeights, on_levels in Hl. cbn [levels] in Hl.
  apply zero_levels_nth in Hl. destruct Hl as (l0 & H0 & Hf). rewrite nth_error_map in H0.
  destruct (nth_error (levels h) n) as [l |] eqn:El; [| discriminate]. cbn [option_map] in H0. injection H0 as <-.
  exists l. split; auto.
  assert (X : exists q, In q (patches (diag_fill h fr l)) /\ pbox p = pbox q /\ weight_diag p = weight_diag q).
  { destruct (nth_error (map (diag_fill h fr) (levels h)) (S n)) as [f |]; subst l'.
    - unfold zero_level in Hp. cbn [patches on_patches] in Hp. apply in_map_iff in Hp. destruct Hp as (q & <- & Hq). exists q.
      destruct (zero_patch_box (map (fun p => box_coarsen (ratio_div (lratio f) (lratio (diag_fill h fr l))) (pbox p)) (patches f)) q) as [A B]. auto.
    - exists p. auto. }
  destruct X as (q & Hq & Eb & Ew). rewrite Ew. rewrite Eb in Hi. clear - Hq Hi.
  unfold diag_fill, in_subdomain in *. destruct (xlower h) as [[l0 l1] l2]. destruct (xupper h) as [[u0 u1] u2]. destruct fr as [[f0 f1] f2].
  destruct (dx_level (dx0 h) l) as [[d0 d1] d2]. cbn [patches on_patches] in Hq. apply in_map_iff in Hq. destruct Hq as (q0 & <- & _).
  cbn [weight_diag set_diag pbox] in *. apply box_in_spec in Hi. rewrite Hi.
  set (v := cell_vol (dx0 h) l). destruct (diag_cell_spec l0 u0 f0 d0 i v) as [A0 B0].
  destruct (diag_cell_spec l1 u1 f1 d1 j (diag_cell l0 u0 f0 d0 i v)) as [A1 B1].
  destruct (diag_cell_spec l2 u2 f2 d2 k (diag_cell l1 u1 f1 d1 j (diag_cell l0 u0 f0 d0 i v))) as [A2 B2].
  split.
  - intros (S0 & S1 & S2). rewrite A2, A1, A0 by auto. reflexivity.
  - intros N.
    assert (Z0 : forall low up fr dx i, diag_cell low up fr dx i 0 = 0).
    { intros low up fr0 dx i0. unfold diag_cell. destruct (diag_bounds low up fr0) as [x y]. cbv zeta. destruct (Rlt_dec (low + IZR i0 * dx) x); destruct (Rlt_dec y (low + IZR i0 * dx)); reflexivity. }
    assert (D : forall low up fr dx i, in_sub low up fr dx i \/ ~ in_sub low up fr dx i).
    { intros. unfold in_sub. destruct (Rle_dec (low + (up - low) * (1 - fr) / 2) (low + IZR i0 * dx)); destruct (Rle_dec (low + IZR i0 * dx) (up - (up - low) * (1 - fr) / 2)); tauto. }
    destruct (D l2 u2 f2 d2 k) as [S2 | S2]; [rewrite A2 by auto | auto].
    destruct (D l1 u1 f1 d1 j) as [S1 | S1]; [rewrite A1 by auto | auto].
    destruct (D l0 u0 f0 d0 i) as [S0 | S0]; [tauto | auto].
Qed.
Lemma zero_levels_boxes : forall ls n l, nth_error (zero_levels ls) n = Some l -> exists l0, nth_error ls n = Some l0 /\ map pbox (patches l) = map pbox (patches l0).
Proof.
  intros ls n l H. apply zero_levels_nth in H. destruct H as (l0 & H0 & Hf). exists l0. split; auto. destruct (nth_error ls (S n)); subst l; [| reflexivity].
  unfold zero_level. cbn [patches on_patches]. rewrite map_map. apply map_ext. intro p. apply zero_patch_box.
Qed.

(** every level counts in full where it lies in the sub-domain *)
Lemma zero_keep_diag : forall ls u n, integral weight_diag u n (zero_levels ls) = integral weight_diag u n ls.
Proof.
  induction ls as [| l rest IH]; intros u n; [reflexivity |]. destruct rest as [| f rest]; [reflexivity |].
  cbn [zero_levels integral]. cbn [zero_levels] in IH. rewrite IH. f_equal. unfold zero_level, level_sum. cbn [patches on_patches]. rewrite sumL_map. apply sumL_ext. intros p _.
  destruct (zero_patch_box (map (fun p => box_coarsen (ratio_div (lratio f) (lratio l)) (pbox p)) (patches f)) p) as [-> ->]. reflexivity.
Qed.
Lemma diag_overcount : forall fr h,
  (forall l p i j k, In l (levels h) -> In p (patches l) -> inside (pbox p) i j k -> in_subdomain h fr l i j k) ->
  hier_integral weight_diag (fun _ _ _ _ => 1) (computeVectorWeightsDiagnostics fr h) =
  sumL (fun l => level_sum l (fun _ _ _ _ => cell_vol (dx0 h) l)) (levels h).
Proof.
  intros fr h H. unfold hier_integral, computeVectorWeightsDiagnostics, zeroOutLowerLevelWeights, on_levels. cbn [levels]. rewrite zero_keep_diag.
  assert (G : forall ls n, (forall l, In l ls -> In l (levels h)) ->
    integral weight_diag (fun _ _ _ _ => 1) n (map (diag_fill h fr) ls) = sumL (fun l => level_sum l (fun _ _ _ _ => cell_vol (dx0 h) l)) ls).
  { induction ls as [| l rest IH]; intros n Hin; [reflexivity |]. cbn [map integral sumL]. rewrite IH by (intros; apply Hin; right; auto). f_equal.
    assert (Hl : In l (levels h)) by (apply Hin; left; reflexivity). specialize (fun p i j k => H l p i j k Hl). clear - H.
    unfold diag_fill, in_subdomain in *. destruct (xlower h) as [[l0 l1] l2]. destruct (xupper h) as [[u0 u1] u2]. destruct fr as [[f0 f1] f2].
    destruct (dx_level (dx0 h) l) as [[d0 d1] d2]. unfold level_sum. cbn [patches on_patches]. rewrite sumL_map. apply sumL_ext. intros p Hp.
    cbn [pbox set_diag weight_diag]. apply cells_ext. intros i j k Hi. destruct (H p i j k Hp Hi) as (S0 & S1 & S2).
    apply box_in_spec in Hi. rewrite Hi.
    rewrite (proj1 (diag_cell_spec l2 u2 f2 d2 k _) S2), (proj1 (diag_cell_spec l1 u1 f1 d1 j _) S1), (proj1 (diag_cell_spec l0 u0 f0 d0 i _) S0). ring. }
  apply G. auto.
Qed.
(** the diagnostics weights leave the weights computed before as they were *)
Definition skel (l : level) : ratio3 * list box := (lratio l, map pbox (patches l)).
Definition finer_boxes (r : ratio3) (sk : ratio3 * list box) : list box := map (box_coarsen (ratio_div (fst sk) r)) (snd sk).
Lemma zero_level_skel : forall l f, zero_level l f = on_patches (zero_patch (finer_boxes (lratio l) (skel f))) l.
Proof. intros l f. unfold zero_level, finer_boxes, skel. cbn [fst snd]. rewrite map_map. reflexivity. Qed.
Lemma skel_on : forall g l, (forall p, pbox (g p) = pbox p) -> skel (on_patches g l) = skel l.
Proof. intros g l H. unfold skel. cbn [lratio patches on_patches]. rewrite map_map. f_equal. apply map_ext. exact H. Qed.
Lemma skel_zero : forall ls n, option_map skel (nth_error (zero_levels ls) n) = option_map skel (nth_error ls n).
Proof.
  intros ls n. destruct (nth_error (zero_levels ls) n) as [l |] eqn:E.
  - apply zero_levels_nth in E. destruct E as (l0 & -> & Hf). cbn [option_map]. f_equal. destruct (nth_error ls (S n)); subst l; auto.
    unfold zero_level. apply skel_on. intro p. apply zero_patch_box.
  - apply nth_error_None in E. rewrite zero_levels_length in E. apply nth_error_None in E. rewrite E. reflexivity.
Qed.
Lemma diag_fill_on : forall h fr l, exists w, diag_fill h fr l = on_patches (fun p => set_diag (w p) p) l.
Proof.
  intros. unfold diag_fill. destruct (xlower _) as [[? ?] ?]. destruct (xupper _) as [[? ?] ?]. destruct fr as [[? ?] ?]. destruct (dx_level _ _) as [[? ?] ?]. eexists. reflexivity.
Qed.
Lemma diag_keeps_weights : forall fr h n l', nth_error (levels (computeVectorWeightsDiagnostics fr (computeVectorWeights h))) n = Some l' ->
  exists l, nth_error (levels (computeVectorWeights h)) n = Some l /\ Forall2 same_weights (patches l') (patches l).
Proof.
  intros fr h n l' H. unfold computeVectorWeightsDiagnostics, zeroOutLowerLevelWeights, on_levels in H. cbn [levels] in H.
  set (L := levels (computeVectorWeights h)) in *.
  apply zero_levels_nth in H. destruct H as (l0 & H0 & Hf). rewrite !nth_error_map in *.
  destruct (nth_error L n) as [l |] eqn:El; [| discriminate]. cbn [option_map] in H0. injection H0 as <-.
  exists l. split; auto. destruct (diag_fill_on (computeVectorWeights h) fr l) as [w Ew]. rewrite Ew in Hf.
  destruct (nth_error L (S n)) as [f |] eqn:Ef; cbn [option_map] in Hf; subst l'.
  - destruct (diag_fill_on (computeVectorWeights h) fr f) as [w' Ew']. rewrite Ew', zero_level_skel, skel_on by (intro; reflexivity). cbn [lratio on_patches patches]. rewrite map_map.
    unfold L, computeVectorWeights, zeroOutLowerLevelWeights, on_levels in El, Ef. cbn [levels] in El, Ef.
    set (M := map (fun l => on_patches (set_weight (fun _ _ _ _ => cell_vol (dx0 h) l)) l) (levels h)) in *.
    pose proof (skel_zero M (S n)) as Sk. rewrite Ef in Sk. cbn [option_map] in Sk.
    apply zero_levels_nth in El. destruct El as (a & Ea & El). destruct (nth_error M (S n)) as [b |]; [| discriminate]. injection Sk as Sk.
    assert (Skb : skel f = skel b) by (unfold skel; f_equal; auto). subst l. rewrite zero_level_skel, Skb. cbn [lratio on_patches patches]. rewrite map_map.
    generalize (finer_boxes (lratio a) (skel b)). intro bs. generalize (patches a). intro ps.
    induction ps as [| p ps IH]; constructor; auto. split.
    + rewrite (proj1 (zero_patch_box _ _)). reflexivity.
    + intros i j k. rewrite zero_patch_weight. cbn [pbox weight set_diag]. rewrite (proj1 (zero_patch_box _ _)), zero_patch_weight.
      destruct (existsb (fun b0 => box_in b0 i j k) bs && box_in (pbox p) i j k); reflexivity.
  - cbn [patches on_patches]. induction (patches l) as [| p ps IH]; constructor; auto. split; [reflexivity |]. intros. reflexivity.
Qed.

(** ** a refined hierarchy: four unit cells, the middle two refined *)
Definition h_ex : hierarchy :=
  mk_hier (1, 1, 1) (0, 0, 0) (4, 1, 1)
    [mk_level (1, 1, 1)%Z [mk_patch ((0, 3), (0, 0), (0, 0))%Z (fun _ _ _ => 0) (fun _ _ _ => 0)];
     mk_level (2, 1, 1)%Z [mk_patch ((2, 3), (0, 0), (0, 0))%Z (fun _ _ _ => 0) (fun _ _ _ => 0);
                           mk_patch ((4, 5), (0, 0), (0, 0))%Z (fun _ _ _ => 0) (fun _ _ _ => 0)]].
Lemma h_ex_ok : well_formed h_ex.
Proof.
  unfold well_formed, h_ex, chain. cbn [levels]. split; [| split; [| split; [| split; exact I]]].
  - split; [cbn; lia |]. split.
    + intros n m i j k p q Hp Hq _ _. destruct n as [| [| n]]; try discriminate. destruct m as [| [| m]]; try discriminate. reflexivity.
    + intros p [<- | []]. cbn. unfold nonempty_iv. cbn. lia.
  - exists (2, 1, 1)%Z. split; [cbn; split; [lia | reflexivity] |]. split.
    + intros p [<- | [<- | []]]; cbn; unfold aligned_iv; cbn [fst snd]; repeat split; apply Z.mod_divide; try lia; reflexivity.
    + intros i j k (p & fi & fj & fk & a & b & c & Hp & Hi & C0 & C1 & C2). eexists. split; [left; reflexivity |]. unfold child in *.
      destruct Hp as [<- | [<- | []]]; cbn in *; unfold in_iv in *; cbn [fst snd] in *; lia.
  - split; [cbn; lia |]. split.
    + intros n m i j k p q Hp Hq Ip Iq.
      destruct n as [| [| [| n]]]; try discriminate; destruct m as [| [| [| m]]]; try discriminate; try reflexivity;
      injection Hp as <-; injection Hq as <-; cbn in Ip, Iq; unfold in_iv in *; cbn [fst snd] in *; lia.
    + intros p [<- | [<- | []]]; cbn; unfold nonempty_iv; cbn; lia.
Qed.
Lemma h_ex_tiles : tiles (mk_level (1, 1, 1)%Z [mk_patch ((0, 3), (0, 0), (0, 0))%Z (fun _ _ _ => 0) (fun _ _ _ => 0)]) ((0, 3), (0, 0), (0, 0))%Z.
Proof. intros i j k. split; [intro H; eexists; split; [left; reflexivity | exact H] |]. intros (p & [<- | []] & H). exact H. Qed.
Lemma diag_refuted : well_formed h_ex /\
  hier_integral weight (fun _ _ _ _ => 1) (computeVectorWeights h_ex) = 4 /\
  hier_integral weight_diag (fun _ _ _ _ => 1) (computeVectorWeightsDiagnostics (1, 1, 1) h_ex) = 6.
Proof.
  split; [exact h_ex_ok |]. split.
  - assert (N : nonempty ((0, 3), (0, 0), (0, 0))%Z) by (cbn; unfold nonempty_iv; cbn; lia).
    rewrite (domain_volume h_ex _ _ (0, 3)%Z (0, 0)%Z (0, 0)%Z eq_refl h_ex_ok N h_ex_tiles).
    cbn. field.
  - rewrite diag_overcount.
    + cbn [levels h_ex sumL]. unfold level_sum. cbn [patches sumL pbox]. rewrite !cells_const by (cbn; unfold nonempty_iv; cbn; lia).
      cbn. field.
    + intros l p i j k [<- | [<- | []]] Hp Hi; unfold in_subdomain, in_sub; cbn [xlower xupper h_ex dx_level lratio dx0].
      * destruct Hp as [<- | []]. cbn [pbox inside] in Hi. unfold in_iv in Hi. cbn [fst snd] in Hi. destruct Hi as (I0 & I1 & I2).
        assert (0 <= IZR i <= 3) by (split; apply IZR_le; lia). assert (j = 0)%Z as -> by lia. assert (k = 0)%Z as -> by lia. repeat split; lra.
      * assert (Hb : (2 <= i <= 5)%Z /\ j = 0%Z /\ k = 0%Z) by (destruct Hp as [<- | [<- | []]]; cbn [pbox inside] in Hi; unfold in_iv in Hi; cbn [fst snd] in Hi; lia).
        destruct Hb as (Hi0 & -> & ->). assert (2 <= IZR i <= 5) by (split; apply IZR_le; lia). repeat split; lra.
Qed.
