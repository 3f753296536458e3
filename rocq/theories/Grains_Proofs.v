From Coq Require Import ZArith List Bool Lia Sorting.Sorted.
From Verif Require Import Weights_Model Grains_Model Grains_Spec.
Import ListNotations.
Open Scope Z_scope.

(** * cells and boxes *)
Lemma zrange_in lo hi i : In i (zrange lo hi) <-> lo <= i <= hi.
Proof.
  unfold zrange; rewrite in_map_iff; split.
  - intros (n & <- & Hn). apply in_seq in Hn. lia.
  - intros H; exists (Z.to_nat (i - lo)); split; [lia|]. apply in_seq; lia.
Qed.

Lemma inside_iff b i j k : inside b (i, j, k) <->
  fst (side 0 b) <= i <= snd (side 0 b) /\ fst (side 1 b) <= j <= snd (side 1 b) /\ fst (side 2 b) <= k <= snd (side 2 b).
Proof.
  split.
  - intros H. pose proof (H 0%nat ltac:(lia)). pose proof (H 1%nat ltac:(lia)). pose proof (H 2%nat ltac:(lia)). cbn [coord] in *. tauto.
  - intros (H0 & H1 & H2) [|[|[|d]]] Hd; cbn [coord]; auto; lia.
Qed.

Lemma cell_in_iff b c : cell_in b c = true <-> inside b c.
Proof.
  destruct c as [[i j] k]. rewrite inside_iff. destruct b as [[x y] z]. cbn [cell_in box_in side]. unfold iv_in.
  rewrite !andb_true_iff, !Z.leb_le. tauto.
Qed.

Lemma cells_in b c : In c (cells b) <-> inside b c.
Proof.
  destruct c as [[i j] k]. rewrite inside_iff. unfold cells. rewrite in_flat_map. split.
  - intros (k' & Hk & H). apply in_flat_map in H as (j' & Hj & H). apply in_map_iff in H as (i' & E & Hi).
    apply zrange_in in Hi, Hj, Hk. inversion E; subst; auto.
  - intros (Hi & Hj & Hk). exists k; split; [apply zrange_in; auto|]. apply in_flat_map. exists j; split; [apply zrange_in; auto|].
    apply in_map_iff. exists i; split; auto. apply zrange_in; auto.
Qed.

Lemma cell_eqb_iff a b : cell_eqb a b = true <-> a = b.
Proof.
  destruct a as [[i j] k], b as [[i' j'] k']. unfold cell_eqb; cbn [coord]. rewrite !andb_true_iff, !Z.eqb_eq.
  split; [intros [[-> ->] ->]; auto|inversion 1; auto].
Qed.

Lemma cell_eqb_refl a : cell_eqb a a = true.
Proof. apply cell_eqb_iff; auto. Qed.

Lemma set_same g c v : set g c v c = v.
Proof. unfold set; rewrite cell_eqb_refl; auto. Qed.

Lemma set_other g c v a : a <> c -> set g c v a = g a.
Proof. intros H; unfold set. destruct (cell_eqb a c) eqn:E; auto. apply cell_eqb_iff in E; contradiction. Qed.

Lemma cell_dec (a b : cell) : {a = b} + {a <> b}.
Proof. destruct (cell_eqb a b) eqn:E; [left; apply cell_eqb_iff; auto|right; intros ->; rewrite cell_eqb_refl in E; discriminate]. Qed.

(** * MinIntCoarsen *)
Lemma fine_box_iff r c f : positive3 r -> inside (fine_box r c) f <-> covers r c f.
Proof.
  destruct r as [[a b] d], c as [[i j] k], f as [[x y] z]. intros (Ha & Hb & Hd). rewrite inside_iff. unfold covers; cbn [fine_box side fst snd coord].
  rewrite !Z.mul_add_distr_r. lia.
Qed.

Lemma min_fold (fine : field) (l : list cell) : forall v, (v = -1 \/ 0 <= v) ->
  let w := fold_left (fun v f => min_int v (fine f)) l v in
  (w = -1 /\ v = -1 /\ forall c, In c l -> fine c < 0) \/
  (0 <= w /\ (w = v \/ exists c, In c l /\ fine c = w) /\ (0 <= v -> w <= v) /\ forall c, In c l -> 0 <= fine c -> w <= fine c).
Proof.
  induction l as [|f l IH]; intros v Hv; cbn [fold_left].
  - cbn. destruct Hv as [->|Hv]; [left|right]; repeat split; auto; try lia; intros; contradiction.
  - assert (E : (fine f < 0 /\ min_int v (fine f) = v) \/ (0 <= fine f /\ ((v < 0 \/ fine f < v) /\ min_int v (fine f) = fine f \/ 0 <= v <= fine f /\ min_int v (fine f) = v))).
    { unfold min_int. destruct (Z.leb_spec 0 (fine f)); [right|left; auto]. split; auto.
      destruct (Z.ltb_spec v 0), (Z.ltb_spec (fine f) v); cbn [orb]; lia. }
    assert (Hm : min_int v (fine f) = -1 \/ 0 <= min_int v (fine f)) by lia.
    specialize (IH _ Hm). cbv zeta in IH |- *. destruct IH as [(A & B & C)|(A & B & C & D)].
    + destruct E as [(E1 & E2)|(E1 & E2)]; [|lia]. left. rewrite E2 in B. split; [auto|split; auto].
      intros c [<-|Hc]; auto.
    + right. split; [auto|split; [|split]].
      * destruct B as [B|(c & Hc & B)]; [|right; exists c; split; [right|]; auto].
        destruct E as [(E1 & E2)|(E1 & [(E2 & E3)|(E2 & E3)])]; rewrite B; [left|right; exists f; split; [left|]|left]; auto.
      * intros. specialize (C ltac:(lia)). lia.
      * intros c [<-|Hc] H; auto. specialize (C ltac:(lia)). lia.
Qed.

Lemma coarsen_cell (fine : field) c (l : list cell) : forall cd,
  (fold_left (fun cd f => set cd c (min_int (cd c) (fine f))) l cd) c = fold_left (fun v f => min_int v (fine f)) l (cd c) /\
  forall a, a <> c -> (fold_left (fun cd f => set cd c (min_int (cd c) (fine f))) l cd) a = cd a.
Proof.
  induction l as [|f l IH]; intros cd; cbn [fold_left]; [auto|].
  destruct (IH (set cd c (min_int (cd c) (fine f)))) as (A & B). rewrite set_same in A. split; [auto|].
  intros a Ha. rewrite B, set_other; auto.
Qed.

Lemma min_coarsen_value fine b r coarse c :
  min_coarsen fine b r coarse c =
  if cell_in b c then fold_left (fun v f => min_int v (fine f)) (cells (fine_box r c)) (-1) else coarse c.
Proof.
  unfold min_coarsen.
  set (step := fun cd c => _).
  assert (H : forall l, (In c l -> fold_left step l coarse c = fold_left (fun v f => min_int v (fine f)) (cells (fine_box r c)) (-1)) /\
                        (~ In c l -> fold_left step l coarse c = coarse c)).
  { induction l as [|x l IH] using rev_ind; [split; [contradiction|auto]|].
    rewrite fold_left_app. cbn [fold_left].
    set (cd := fold_left step l coarse) in *.
    destruct (coarsen_cell fine x (cells (fine_box r x)) (Grains_Model.set cd x (-1))) as (A & B).
    change (step cd x) with (fold_left (fun cd f => Grains_Model.set cd x (min_int (cd x) (fine f))) (cells (fine_box r x)) (Grains_Model.set cd x (-1))).
    rewrite set_same in A. rewrite in_app_iff. cbn [In].
    destruct (cell_dec c x) as [->|Hc].
    - split; [auto|]. intros HH; exfalso; apply HH; auto.
    - rewrite B, set_other by auto. destruct IH as [I1 I2]. split; intros HH; [apply I1|apply I2; tauto].
      destruct HH as [HH|[HH|[]]]; auto; congruence. }
  destruct (H (cells b)) as [H1 H2]. destruct (cell_in b c) eqn:E.
  - apply H1, cells_in, cell_in_iff; auto.
  - apply H2. rewrite cells_in, <- cell_in_iff. congruence.
Qed.

Lemma min_coarsen_smallest : forall fine b r coarse c, positive3 r ->
  (inside b c -> smallest_label (covers r c) fine (min_coarsen fine b r coarse c)) /\
  (~ inside b c -> min_coarsen fine b r coarse c = coarse c).
Proof.
  intros fine b r coarse c Hr. rewrite min_coarsen_value. rewrite <- !cell_in_iff. destruct (cell_in b c); split; intros H; try congruence.
  destruct (min_fold fine (cells (fine_box r c)) (-1) ltac:(lia)) as [(A & _ & C)|(A & B & _ & D)]; [left|right].
  - split; auto. intros f Hf. apply C, cells_in, fine_box_iff; auto.
  - split; [auto|split].
    + destruct B as [B|(f & Hf & B)]; [lia|]. exists f; split; auto. apply fine_box_iff, cells_in; auto.
    + intros f Hf. apply D, cells_in, fine_box_iff; auto.
Qed.

Lemma min_coarsen_local : forall fine fine' b r coarse coarse' c, positive3 r -> inside b c ->
  (forall f, covers r c f -> fine f = fine' f) -> min_coarsen fine b r coarse c = min_coarsen fine' b r coarse' c.
Proof.
  intros fine fine' b r coarse coarse' c Hr Hc H.
  destruct (min_coarsen_smallest fine b r coarse c Hr) as [A _]. destruct (min_coarsen_smallest fine' b r coarse' c Hr) as [B _].
  specialize (A Hc). specialize (B Hc). set (v := min_coarsen fine b r coarse c) in *. set (w := min_coarsen fine' b r coarse' c) in *.
  destruct A as [(A & A')|(A & (f & Hf & A1) & A2)], B as [(B & B')|(B & (f' & Hf' & B1) & B2)].
  - congruence.
  - specialize (A' _ Hf'). rewrite H in A'; auto; lia.
  - specialize (B' _ Hf). rewrite <- H in B'; auto; lia.
  - specialize (A2 _ Hf'). specialize (B2 _ Hf). rewrite H in A2 by auto. rewrite <- H in B2 by auto. lia.
Qed.

(** * tables and labels *)
Definition prod_width (d : nat) (b : box) : Z := match d with O => 1 | 1%nat => width 0 b | _ => width 0 b * width 1 b end.

Definition tfield (t : (Z -> Z) * list Z) := fst t.

Lemma stride_level_value nd size t ln l : nd = 2%nat \/ nd = 3%nat ->
  (forall d, (d < nd)%nat -> fst (stride_level nd size t (ln, l)) (Z.of_nat nd * Z.of_nat ln + Z.of_nat d) = prod_width d (gdom l)) /\
  (forall a, a < Z.of_nat nd * Z.of_nat ln -> fst (stride_level nd size t (ln, l)) a = fst t a) /\
  (forall a, In a (snd t) -> In a (snd (stride_level nd size t (ln, l)))) /\
  (Z.of_nat nd * Z.of_nat ln + Z.of_nat nd = size -> In size (snd (stride_level nd size t (ln, l)))).
Proof.
  intros [->| ->]; unfold stride_level, write; cbn [seq fold_left fst snd].
  - set (n := Z.of_nat 2 * Z.of_nat ln). change (Z.of_nat 0) with 0. change (Z.of_nat 1) with 1. change (Z.of_nat 2) with 2.
    repeat split.
    + intros [|[|d]] Hd; [| |lia]; [change (Z.of_nat 0) with 0|change (Z.of_nat 1) with 1]; unfold prod_width;
      repeat match goal with |- context [?a =? ?b] => destruct (Z.eqb_spec a b); try lia end.
    + intros a Ha. repeat match goal with |- context [?a =? ?b] => destruct (Z.eqb_spec a b); try lia end; auto.
    + intros a Ha. repeat match goal with |- context [if ?b then _ else _] => destruct b end; repeat (apply in_or_app; left); auto.
    + intros E. replace (n + 1 + 1 <? size) with false by (symmetry; apply Z.ltb_ge; lia). rewrite andb_false_r.
      apply in_or_app; right; left; lia.
  - set (n := Z.of_nat 3 * Z.of_nat ln). change (Z.of_nat 0) with 0. change (Z.of_nat 1) with 1. change (Z.of_nat 2) with 2. change (Z.of_nat 3) with 3.
    repeat split.
    + intros [|[|[|d]]] Hd; [| | |lia]; [change (Z.of_nat 0) with 0|change (Z.of_nat 1) with 1|change (Z.of_nat 2) with 2]; unfold prod_width;
      repeat match goal with |- context [?a =? ?b] => destruct (Z.eqb_spec a b); try lia end.
    + intros a Ha. repeat match goal with |- context [?a =? ?b] => destruct (Z.eqb_spec a b); try lia end; auto.
    + intros a Ha. repeat match goal with |- context [if ?b then _ else _] => destruct b end; repeat (apply in_or_app; left); auto.
    + intros E. replace (n + 2 + 1 <? size) with false by (symmetry; apply Z.ltb_ge; lia). rewrite andb_false_r.
      apply in_or_app; right; left; lia.
Qed.

Lemma stride_table nd size : nd = 2%nat \/ nd = 3%nat -> forall ls s t,
  let r := fold_left (stride_level nd size) (combine (seq s (length ls)) ls) t in
  (forall m d, (m < length ls)%nat -> (d < nd)%nat ->
     fst r (Z.of_nat nd * Z.of_nat (s + m) + Z.of_nat d) = prod_width d (gdom (nth m ls empty_level))) /\
  (forall a, a < Z.of_nat nd * Z.of_nat s -> fst r a = fst t a) /\
  (forall a, In a (snd t) -> In a (snd r)) /\
  (ls <> [] -> Z.of_nat nd * Z.of_nat (s + length ls) = size -> In size (snd r)).
Proof.
  intros Hnd. induction ls as [|l ls IH]; intros s t; cbn [length seq combine fold_left].
  - cbn. repeat split; auto; try lia. congruence.
  - destruct (stride_level_value nd size t s l Hnd) as (A & B & C & D).
    destruct (IH (S s) (stride_level nd size t (s, l))) as (E & F & G & H). cbv zeta.
    split; [|split; [|split]].
    + intros [|m] d Hm Hd; cbn [nth].
      * rewrite Nat.add_0_r, F; [apply A; auto|nia].
      * replace (s + S m)%nat with (S s + m)%nat by lia. apply E; auto; lia.
    + intros a Ha. rewrite F by nia. apply B; auto.
    + intros a Ha. apply G, C; auto.
    + intros _ Hs. destruct ls as [|l' ls].
      * apply G, D. cbn [length] in Hs. rewrite <- Hs. nia.
      * apply H; [congruence|]. rewrite <- Hs. f_equal. f_equal. cbn [length]. lia.
Qed.

Lemma label_formula : forall h ln c, (ln < length (glevels h))%nat -> ndim h = 2%nat \/ ndim h = 3%nat ->
  label h ln c = level_offset h ln + coord 0 c + width 0 (gdom (lev h ln)) * coord 1 c +
    (if Nat.eqb (ndim h) 3 then width 0 (gdom (lev h ln)) * width 1 (gdom (lev h ln)) * coord 2 c else 0).
Proof.
  intros h ln c Hln Hnd. unfold label.
  destruct (stride_table (ndim h) (Z.of_nat (length (glevels h)) * Z.of_nat (ndim h)) Hnd (glevels h) 0 (fun _ => 0, [])) as (A & _).
  fold (numbered h) in A. fold (level_stride h) in A. specialize (A ln).
  cbn [Nat.add] in A. fold (lev h ln) in A.
  pose proof (fun d => A d Hln) as A'. clear A.
  destruct Hnd as [E|E]; rewrite E in *; cbn [seq fold_left Nat.eqb]; rewrite !A' by lia; unfold prod_width; lia.
Qed.

Lemma radix_inj n x x' y y' : 0 <= x < n -> 0 <= x' < n -> x + n * y = x' + n * y' -> x = x' /\ y = y'.
Proof. intros. assert (y = y') by nia. subst; lia. Qed.

Lemma dim_cases h l : dim_ok h l -> ndim h = 2%nat \/ ndim h = 3%nat.
Proof. intros [H|[H _]]; auto. Qed.

Lemma label_injective : forall h ln c c', (ln < length (glevels h))%nat -> dim_ok h (lev h ln) ->
  inside (gdom (lev h ln)) c -> inside (gdom (lev h ln)) c' -> label h ln c = label h ln c' -> c = c'.
Proof.
  intros h ln [[i j] k] [[i' j'] k'] Hln Hd Hc Hc'. rewrite !label_formula; auto; try (eapply dim_cases; eauto).
  apply inside_iff in Hc, Hc'. cbn [coord]. unfold width.
  set (b := gdom (lev h ln)) in *. set (x0 := fst (side 0 b)) in *. set (x1 := snd (side 0 b)) in *. set (y0 := fst (side 1 b)) in *. set (y1 := snd (side 1 b)) in *.
  destruct Hd as [E|[E F]]; rewrite E; cbn [Nat.eqb].
  - intros H.
    assert (H1 : i - x0 = i' - x0 /\ j + (y1 - y0 + 1) * k = j' + (y1 - y0 + 1) * k') by (apply (radix_inj (x1 - x0 + 1)); [lia|lia|]; nia).
    destruct H1 as [H1 H2].
    assert (H3 : j - y0 = j' - y0 /\ k = k') by (apply (radix_inj (y1 - y0 + 1)); lia).
    destruct H3. f_equal; [f_equal|]; lia.
  - intros H. fold b in F.
    assert (H1 : i - x0 = i' - x0 /\ j = j') by (apply (radix_inj (x1 - x0 + 1)); lia).
    destruct H1. f_equal; [f_equal|]; lia.
Qed.

Lemma stride_overflow : forall h, glevels h <> [] -> ndim h = 2%nat \/ ndim h = 3%nat ->
  In (Z.of_nat (length (glevels h)) * Z.of_nat (ndim h)) (snd (level_stride h)).
Proof.
  intros h Hl Hnd. unfold level_stride, numbered.
  destruct (stride_table (ndim h) (Z.of_nat (length (glevels h)) * Z.of_nat (ndim h)) Hnd (glevels h) 0 (fun _ => 0, [])) as (_ & _ & _ & A).
  apply A; auto. cbn [Nat.add]. apply Z.mul_comm.
Qed.

(** * neighbours, images *)
Lemma neighbour_sym h l a b : neighbour h l a b -> neighbour h l b a.
Proof.
  intros (d & Hd & He & H). exists d; split; [auto|split]; [intros; symmetry; auto|].
  destruct H as [H|[H|(P & [H|H])]]; auto; right; right; split; auto.
Qed.

Lemma linked_trans h l a b c : linked h l a b -> linked h l b c -> linked h l a c.
Proof. intros H H'; induction H'; auto. eapply linked_step; eauto. Qed.

Lemma linked_grain h l a b : linked h l a b -> grain_cell l a /\ grain_cell l b.
Proof. induction 1 as [|x y ? [? ?]]; auto. Qed.

Lemma linked_sym h l a b : linked h l a b -> linked h l b a.
Proof.
  induction 1 as [Hg|x y H IH Hn Hg]; [apply linked_refl; auto|].
  apply linked_trans with x; [|auto]. eapply linked_step; [apply linked_refl; auto|apply neighbour_sym; auto|].
  apply (linked_grain _ _ _ _ IH).
Qed.

Lemma linked_neighbour h l a b : grain_cell l a -> grain_cell l b -> neighbour h l a b -> linked h l a b.
Proof. intros. eapply linked_step; [apply linked_refl|eauto|]; auto. Qed.

Lemma wrap_id p s i : fst s <= i <= snd s -> wrap p s i = i.
Proof. intros H; unfold wrap. destruct p; auto. rewrite Z.mod_small; lia. Qed.

Lemma wrap_step p s i (e : Z) : fst s <= i <= snd s -> e = 1 \/ e = -1 -> fst s <= wrap p s (i + e) <= snd s ->
  wrap p s (i + e) = i + e \/ (p = true /\ ((i = fst s /\ wrap p s (i + e) = snd s) \/ (wrap p s (i + e) = fst s /\ i = snd s))).
Proof.
  intros H He. unfold wrap. destruct p; [|auto]. intros _.
  destruct He as [-> | ->].
  - destruct (Z.eq_dec i (snd s)) as [E|E].
    + right; split; auto. right; split; auto. rewrite E. replace (snd s + 1 - fst s) with (snd s - fst s + 1) by lia. rewrite Z.mod_same; lia.
    + left. rewrite Z.mod_small; lia.
  - destruct (Z.eq_dec i (fst s)) as [E|E].
    + right; split; auto. left; split; auto. subst i.
      replace (fst s + -1 - fst s) with ((snd s - fst s) + (-1) * (snd s - fst s + 1)) by lia. rewrite Z.mod_add by lia. rewrite Z.mod_small; lia.
    + left. rewrite Z.mod_small; lia.
Qed.

Lemma wrap_low s : fst s <= snd s -> wrap true s (fst s + -1) = snd s.
Proof.
  intros. unfold wrap.
  replace (fst s + -1 - fst s) with ((snd s - fst s) + (-1) * (snd s - fst s + 1)) by lia. rewrite Z.mod_add by lia. rewrite Z.mod_small; lia.
Qed.

Lemma wrap_high s : fst s <= snd s -> wrap true s (snd s + 1) = fst s.
Proof. intros. unfold wrap. replace (snd s + 1 - fst s) with (snd s - fst s + 1) by lia. rewrite Z.mod_same; lia. Qed.

Lemma image_id h l c : inside (gdom l) c -> image h l c = c.
Proof. destruct c as [[i j] k]; intros H; apply inside_iff in H. unfold image; cbn [coord]. rewrite !wrap_id; tauto. Qed.

Lemma image_neighbour h l c d e : (d < ndim h)%nat -> (ndim h <= 3)%nat -> e = 1 \/ e = -1 -> inside (gdom l) c ->
  inside (gdom l) (image h l (shift d e c)) -> neighbour h l c (image h l (shift d e c)).
Proof.
  destruct c as [[i j] k]. intros Hd Hn He Hc Hi. exists d; split; [auto|]. apply inside_iff in Hc. destruct Hc as (H0 & H1 & H2).
  unfold image in *. destruct d as [|[|[|d]]]; [| | |lia]; cbn [shift coord] in *.
  - rewrite (wrap_id _ _ j), (wrap_id _ _ k) in * by auto. split; [intros [|[|[|f]]]; cbn [coord]; auto; lia|].
    apply inside_iff in Hi. destruct (wrap_step (periodic h 0) (side 0 (gdom l)) i e H0 He ltac:(tauto)) as [E|E]; [|right; right; exact E].
    rewrite E. destruct He; subst; [left|right; left]; lia.
  - rewrite (wrap_id _ _ i), (wrap_id _ _ k) in * by auto. split; [intros [|[|[|f]]]; cbn [coord]; auto; lia|].
    apply inside_iff in Hi. destruct (wrap_step (periodic h 1) (side 1 (gdom l)) j e H1 He ltac:(tauto)) as [E|E]; [|right; right; exact E].
    rewrite E. destruct He; subst; [left|right; left]; lia.
  - rewrite (wrap_id _ _ i), (wrap_id _ _ j) in * by auto. split; [intros [|[|[|f]]]; cbn [coord]; auto; lia|].
    apply inside_iff in Hi. destruct (wrap_step (periodic h 2) (side 2 (gdom l)) k e H2 He ltac:(tauto)) as [E|E]; [|right; right; exact E].
    rewrite E. destruct He; subst; [left|right; left]; lia.
Qed.

Lemma coords_eq (a b : cell) : (forall d, (d < 3)%nat -> coord d a = coord d b) -> a = b.
Proof.
  destruct a as [[i j] k], b as [[i' j'] k']. intros H. pose proof (H 0%nat ltac:(lia)); pose proof (H 1%nat ltac:(lia)); pose proof (H 2%nat ltac:(lia)).
  cbn [coord] in *; subst; auto.
Qed.

Lemma shift_coord d e c f : (d < 3)%nat -> (f < 3)%nat -> coord f (shift d e c) = if Nat.eqb f d then coord f c + e else coord f c.
Proof. destruct c as [[i j] k]. intros. destruct d as [|[|[|d]]], f as [|[|[|f]]]; cbn; try lia; auto. Qed.

Lemma image_coord h l c f : (f < 3)%nat -> coord f (image h l c) = wrap (periodic h f) (side f (gdom l)) (coord f c).
Proof. intros. destruct f as [|[|[|f]]]; cbn; auto; lia. Qed.

(** every neighbour is the image of a shifted cell; the shifted cell is the neighbour itself or outside the domain *)
Lemma neighbour_image h l c c' : (ndim h <= 3)%nat -> inside (gdom l) c -> inside (gdom l) c' -> neighbour h l c c' ->
  exists d e, (d < ndim h)%nat /\ (e = 1 \/ e = -1) /\ image h l (shift d e c) = c' /\ (shift d e c = c' \/ ~ inside (gdom l) (shift d e c)).
Proof.
  intros Hn Hc Hc' (d & Hd & He & H).
  assert (Hs : forall e, coord d c' = coord d c + e -> shift d e c = c').
  { intros e E. apply coords_eq. intros f Hf. rewrite shift_coord by lia. destruct (Nat.eqb_spec f d); [subst; lia|]. symmetry; auto. }
  assert (Ho : forall e, wrap (periodic h d) (side d (gdom l)) (coord d c + e) = coord d c' -> image h l (shift d e c) = c').
  { intros e E. apply coords_eq. intros f Hf. rewrite image_coord, shift_coord by lia. destruct (Nat.eqb_spec f d); [subst; auto|].
    rewrite wrap_id; [symmetry; auto|apply Hc; auto]. }
  assert (Hr : fst (side d (gdom l)) <= snd (side d (gdom l))) by (specialize (Hc d ltac:(lia)); lia).
  destruct H as [H|[H|(P & [(H & H')|(H & H')])]].
  - exists d, 1. split; [auto|split; [auto|]]. rewrite (Hs 1) by lia. split; auto. apply image_id; auto.
  - exists d, (-1). split; [auto|split; [auto|]]. rewrite (Hs (-1)) by lia. split; auto. apply image_id; auto.
  - exists d, (-1). split; [auto|split; [auto|split]]; [apply Ho; rewrite P, H, wrap_low; auto|]. right. intros HH.
    specialize (HH d ltac:(lia)). rewrite shift_coord, Nat.eqb_refl in HH by lia. lia.
  - exists d, 1. split; [auto|split; [auto|split]]; [apply Ho; rewrite P, H', wrap_high; auto|]. right. intros HH.
    specialize (HH d ltac:(lia)). rewrite shift_coord, Nat.eqb_refl in HH by lia. lia.
Qed.

Lemma in_patches_iff l c : in_patches l c = true <-> exists b, In b (gpatches l) /\ inside b c.
Proof.
  unfold in_patches. rewrite existsb_exists. split; intros (b & Hb & H); exists b; split; auto; apply cell_in_iff; auto.
Qed.

(** * one level: invariant of the sweeps *)
Section OneLevel.
  Context (h : ghier) (l : glevel) (Hone : one_level h l).

  Lemma o_levels : glevels h = [l].
  Proof. apply Hone. Qed.
  Lemma o_lev : lev h 0 = l.
  Proof. unfold lev. rewrite o_levels. reflexivity. Qed.
  Lemma o_dim : ndim h = 2%nat \/ ndim h = 3%nat.
  Proof. eapply dim_cases, Hone. Qed.
  Lemma o_dim3 : (ndim h <= 3)%nat.
  Proof. destruct o_dim as [E|E]; rewrite E; lia. Qed.
  Lemma o_sub b c : In b (gpatches l) -> inside b c -> inside (gdom l) c.
  Proof. apply Hone. Qed.
  Lemma o_cover c : inside (gdom l) c -> in_patches l c = true.
  Proof. intros H. apply in_patches_iff. apply Hone; auto. Qed.

  Lemma o_label_nonneg c : inside (gdom l) c -> 0 <= label h 0 c.
  Proof.
    intros H. rewrite label_formula; [|rewrite o_levels; cbn; lia|apply o_dim]. rewrite o_lev.
    destruct Hone as (_ & _ & Hp & _).
    assert (W : forall d, (d < 3)%nat -> 0 <= width d (gdom l)) by (intros d Hd; specialize (H d Hd); unfold width; lia).
    assert (C : forall d, (d < 3)%nat -> 0 <= coord d c) by (intros d Hd; specialize (H d Hd); specialize (Hp d Hd); lia).
    pose proof (W 0%nat ltac:(lia)). pose proof (W 1%nat ltac:(lia)). pose proof (C 0%nat ltac:(lia)). pose proof (C 1%nat ltac:(lia)). pose proof (C 2%nat ltac:(lia)).
    change (level_offset h 0) with 0. assert (0 <= width 0 (gdom l) * width 1 (gdom l)) by nia. destruct (Nat.eqb _ _); nia.
  Qed.

  Lemma o_label_inj c c' : inside (gdom l) c -> inside (gdom l) c' -> label h 0 c = label h 0 c' -> c = c'.
  Proof.
    intros H H'. apply label_injective; rewrite ?o_lev, ?o_levels; auto; cbn; try lia; apply Hone.
  Qed.

  Definition good (g : field) : Prop := forall c, inside (gdom l) c ->
    (solid l c = true -> 0 <= g c /\ exists c0, linked h l c c0 /\ g c = label h 0 c0) /\ (solid l c = false -> g c = -1).

  Lemma initial_good : good (initial h 0).
  Proof.
    intros c Hc. unfold initial. rewrite o_lev, o_cover by auto. cbn [andb]. split; intros E; rewrite E; auto.
    split; [apply o_label_nonneg; auto|]. exists c; split; auto. apply linked_refl; split; auto.
  Qed.

  Lemma see_good g fs b c d e : good g -> good (fs 0%nat) -> In b (gpatches l) -> inside b c -> (d < ndim h)%nat -> e = 1 \/ e = -1 ->
    0 <= see b (ghost h fs 0) g (shift d e c) ->
    exists c' c0, grain_cell l c' /\ neighbour h l c c' /\ linked h l c' c0 /\ see b (ghost h fs 0) g (shift d e c) = label h 0 c0.
  Proof.
    intros Hg Hf Hb Hc Hd He. unfold see, ghost. rewrite o_lev.
    assert (Hc' : inside (gdom l) c) by (eapply o_sub; eauto).
    destruct (cell_in b (shift d e c)) eqn:E.
    - apply cell_in_iff in E. assert (Hs : inside (gdom l) (shift d e c)) by (eapply o_sub; eauto). intros H0.
      destruct (Hg _ Hs) as [G1 G2]. destruct (solid l (shift d e c)) eqn:S; [|specialize (G2 eq_refl); lia].
      destruct (G1 eq_refl) as (_ & c0 & L & V). exists (shift d e c), c0. split; [split; auto|split; [|split; auto]].
      rewrite <- (image_id h l (shift d e c)) by auto. apply image_neighbour; auto; [apply o_dim3|rewrite image_id; auto].
    - destruct (cell_in (gdom l) (image h l (shift d e c))) eqn:F; [|lia].
      apply cell_in_iff in F. rewrite o_cover by auto. intros H0.
      destruct (Hf _ F) as [G1 G2]. destruct (solid l (image h l (shift d e c))) eqn:S; [|specialize (G2 eq_refl); lia].
      destruct (G1 eq_refl) as (_ & c0 & L & V). exists (image h l (shift d e c)), c0. split; [split; auto|split; [|split; auto]].
      apply image_neighbour; auto. apply o_dim3.
  Qed.

  Lemma take_good n v c s : good (fst s) -> inside (gdom l) c -> solid l c = true ->
    (0 <= v -> exists c' c0, grain_cell l c' /\ neighbour h l c c' /\ linked h l c' c0 /\ v = label h 0 c0) -> good (fst (take n v c s)).
  Proof.
    intros Hg Hc Hs Hv. unfold take. destruct (Z.leb_spec 0 v); [|auto]. destruct (v <? n); cbn [andb]; auto.
    destruct (Hv H) as (c' & c0 & Gc & Nc & L & E). cbn [fst]. intros a Ha.
    destruct (cell_dec a c) as [->|Hne]; [|rewrite set_other by auto; apply Hg; auto].
    rewrite set_same. split; [|congruence]. intros _. split; auto. exists c0; split; auto.
    eapply linked_trans; [|exact L]. apply linked_neighbour; auto. split; auto.
  Qed.

  Lemma relax_good fs b s c : good (fst s) -> good (fs 0%nat) -> In b (gpatches l) -> inside b c -> good (fst (relax (ndim h) (wpos l) b (ghost h fs 0) s c)).
  Proof.
    intros Hg Hf Hb Hc. unfold relax. assert (Hc' : inside (gdom l) c) by (eapply o_sub; eauto).
    destruct (Z.leb_spec 0 (fst s c)) as [Hn|Hn]; cbn [andb]; auto. destruct (wpos l c); auto.
    assert (Hs : solid l c = true) by (destruct (solid l c) eqn:S; auto; destruct (Hg _ Hc') as [_ G]; specialize (G S); lia).
    generalize (fst s c). intros n.
    assert (Hall : forall d, In d (seq 0 (ndim h)) -> (d < ndim h)%nat) by (intros d Hd; apply in_seq in Hd; lia).
    revert s Hg Hn. induction (seq 0 (ndim h)) as [|d ds IH]; intros s Hg Hn; cbn [fold_left]; auto.
    assert (Hr : good (fst (relax_dir b (ghost h fs 0) n c s d))).
    { unfold relax_dir. assert (Hd : (d < ndim h)%nat) by (apply Hall; left; auto).
      assert (G1 : good (fst (take n (see b (ghost h fs 0) (fst s) (shift d (-1) c)) c s))).
      { apply take_good; auto. intros H0. eapply see_good; eauto. }
      apply take_good; auto. intros H0. eapply see_good; eauto. }
    apply IH; auto; [intros; apply Hall; right; auto|].
    destruct (Hr _ Hc') as [G _]. apply G; auto.
  Qed.

  Lemma patches_good fs bs : good (fs 0%nat) -> (forall b, In b bs -> In b (gpatches l)) -> forall s, good (fst s) ->
    good (fst (fold_left (sweep_patch (ndim h) (wpos l) (ghost h fs 0)) bs s)).
  Proof.
    intros Hf. induction bs as [|b bs IH]; intros Hb s Hs; cbn [fold_left]; auto.
    apply IH; [intros; apply Hb; right; auto|]. unfold sweep_patch.
    assert (Hin : forall c, In c (cells b) -> inside b c) by (intros; apply cells_in; auto).
    revert s Hs. induction (cells b) as [|c cs IHc]; intros s Hs; cbn [fold_left]; auto.
    apply IHc; [intros; apply Hin; right; auto|]. apply relax_good; auto; [apply Hb; left; auto|apply Hin; left; auto].
  Qed.

  Definition swept (fs : fields) : gstate := fold_left (sweep_patch (ndim h) (wpos l) (ghost h fs 0)) (gpatches l) (fs 0%nat, false).

  Lemma sweep_one fs : sweep h fs = (set_level fs 0 (fst (swept fs)), snd (swept fs)).
  Proof. unfold sweep. rewrite o_levels. cbn [length seq fold_left]. unfold sweep_level. rewrite o_lev. reflexivity. Qed.

  Lemma sweep_good fs : good (fs 0%nat) -> good (fst (sweep h fs) 0%nat).
  Proof. intros H. rewrite sweep_one. cbn [fst]. unfold set_level. cbn [Nat.eqb]. apply patches_good; auto. Qed.

  Lemma bucket_good fuel : forall fs, good (fs 0%nat) -> good (fst (bucket_fill h fuel fs) 0%nat).
  Proof.
    induction fuel as [|fuel IH]; intros fs H; cbn [bucket_fill fst]; auto. cbv zeta.
    destruct (snd (sweep h fs)); [apply IH|cbn [fst]]; apply sweep_good; auto.
  Qed.

  (** ** a sweep that changes nothing *)
  Lemma fold_quiet {A} (step : gstate -> A -> gstate) (Q : field -> A -> Prop) :
    (forall s x, snd s = true -> snd (step s x) = true) ->
    (forall s x, snd (step s x) = false -> step s x = s /\ Q (fst s) x) ->
    forall xs s, snd (fold_left step xs s) = false -> fold_left step xs s = s /\ forall x, In x xs -> Q (fst s) x.
  Proof.
    intros Hm Hq xs.
    assert (Hmm : forall ys s, snd s = true -> snd (fold_left step ys s) = true) by (induction ys; intros; cbn [fold_left]; auto).
    induction xs as [|x xs IH]; intros s H; cbn [fold_left] in *; [split; [auto|contradiction]|].
    destruct (snd (step s x)) eqn:E; [rewrite Hmm in H by auto; discriminate|].
    destruct (Hq _ _ E) as [E1 E2]. rewrite E1 in *. destruct (IH _ H) as [F G]. split; auto. intros y [<-|Hy]; auto.
  Qed.

  Lemma take_mono n v c s : snd s = true -> snd (take n v c s) = true.
  Proof. intros; unfold take; destruct (_ && _); auto. Qed.
  Lemma take_quiet n v c s : snd (take n v c s) = false -> take n v c s = s /\ ~ (0 <= v < n).
  Proof.
    unfold take. destruct (Z.leb_spec 0 v), (Z.ltb_spec v n); cbn [andb]; intros E; try discriminate; split; auto; lia.
  Qed.
  Lemma relax_dir_mono b gh n c s d : snd s = true -> snd (relax_dir b gh n c s d) = true.
  Proof. intros; unfold relax_dir; repeat apply take_mono; auto. Qed.
  Lemma relax_dir_quiet b gh n c s d : snd (relax_dir b gh n c s d) = false ->
    relax_dir b gh n c s d = s /\ (forall e, e = 1 \/ e = -1 -> ~ (0 <= see b gh (fst s) (shift d e c) < n)).
  Proof.
    unfold relax_dir. intros H. destruct (take_quiet _ _ _ _ H) as [E F]. rewrite E in *.
    destruct (take_quiet _ _ _ _ H) as [E' F']. rewrite E' in *. split; auto. intros e [-> | ->]; auto.
  Qed.
  Lemma relax_mono nd wp b gh s c : snd s = true -> snd (relax nd wp b gh s c) = true.
  Proof.
    intros H. unfold relax. destruct (_ && _); auto. revert H. generalize (fst s c). intros n. revert s. induction (seq 0 nd); intros s H; cbn [fold_left]; auto.
    apply IHl0, relax_dir_mono; auto.
  Qed.
  Lemma relax_quiet nd wp b gh s c : snd (relax nd wp b gh s c) = false ->
    relax nd wp b gh s c = s /\ (0 <= fst s c -> wp c = true -> forall d e, (d < nd)%nat -> e = 1 \/ e = -1 -> ~ (0 <= see b gh (fst s) (shift d e c) < fst s c)).
  Proof.
    unfold relax. destruct (Z.leb_spec 0 (fst s c)); cbn [andb]; [|split; auto; lia]. destruct (wp c); [|split; auto; discriminate].
    set (n := fst s c). intros E.
    destruct (fold_quiet (relax_dir b gh n c) (fun g d => forall e, e = 1 \/ e = -1 -> ~ (0 <= see b gh g (shift d e c) < n))
      (relax_dir_mono b gh n c) (relax_dir_quiet b gh n c) (seq 0 nd) s E) as [F G].
    split; auto. intros _ _ d e Hd He. apply G; auto. apply in_seq; lia.
  Qed.
  Lemma patch_mono nd wp gh s b : snd s = true -> snd (sweep_patch nd wp gh s b) = true.
  Proof. unfold sweep_patch. revert s. induction (cells b); intros s H; cbn [fold_left]; auto. apply IHl0, relax_mono; auto. Qed.
  Lemma patch_quiet nd wp gh s b : snd (sweep_patch nd wp gh s b) = false ->
    sweep_patch nd wp gh s b = s /\ forall c, inside b c -> 0 <= fst s c -> wp c = true -> forall d e, (d < nd)%nat -> e = 1 \/ e = -1 ->
      ~ (0 <= see b gh (fst s) (shift d e c) < fst s c).
  Proof.
    intros E. destruct (fold_quiet (relax nd wp b gh)
      (fun g c => 0 <= g c -> wp c = true -> forall d e, (d < nd)%nat -> e = 1 \/ e = -1 -> ~ (0 <= see b gh g (shift d e c) < g c))
      (relax_mono nd wp b gh) (relax_quiet nd wp b gh) (cells b) s E) as [F G].
    split; auto. intros c Hc. apply G, cells_in; auto.
  Qed.

  (** a fixed point is constant on each connected grain *)
  Lemma fixed_point fs : good (fs 0%nat) -> snd (sweep h fs) = false ->
    (forall c, fst (sweep h fs) 0%nat c = fs 0%nat c) /\ forall c c', linked h l c c' -> fs 0%nat c = fs 0%nat c'.
  Proof.
    intros Hg H. rewrite sweep_one in *. cbn [fst snd] in *. unfold swept in *.
    destruct (fold_quiet (sweep_patch (ndim h) (wpos l) (ghost h fs 0))
      (fun g b => forall c, inside b c -> 0 <= g c -> wpos l c = true -> forall d e, (d < ndim h)%nat -> e = 1 \/ e = -1 ->
         ~ (0 <= see b (ghost h fs 0) g (shift d e c) < g c))
      (fun s b => patch_mono _ _ _ s b) (fun s b => patch_quiet _ _ _ s b) (gpatches l) _ H) as [E Q].
    rewrite E. cbn [fst] in *. split; [intros c; reflexivity|].
    assert (Hle : forall c c', grain_cell l c -> grain_cell l c' -> neighbour h l c c' -> fs 0%nat c <= fs 0%nat c').
    { intros c c' [Hc Sc] [Hc' Sc'] Hn. destruct (neighbour_image h l c c' o_dim3 Hc Hc' Hn) as (d & e & Hd & He & Hi & Ho).
      destruct Hone as (_ & _ & _ & _ & Hcov & Hw). destruct (Hcov c Hc) as (b & Hb & Hcb).
      destruct (proj1 (Hg c Hc) Sc) as [Hp _]. destruct (proj1 (Hg c' Hc') Sc') as [Hp' _].
      specialize (Q b Hb c Hcb Hp (Hw c Hc) d e Hd He).
      replace (see b (ghost h fs 0) (fs 0%nat) (shift d e c)) with (fs 0%nat c') in Q; [lia|].
      unfold see. destruct (cell_in b (shift d e c)) eqn:F.
      - apply cell_in_iff in F. apply (o_sub b) in F; auto. destruct Ho as [->|Ho]; [auto|contradiction].
      - unfold ghost. rewrite o_lev, Hi. rewrite (proj2 (cell_in_iff _ _) Hc'), o_cover; auto. }
    intros c c' L. induction L as [|x y L IH Hn Hgy]; auto. rewrite IH.
    pose proof (linked_grain _ _ _ _ L) as [_ Hgx].
    apply Z.le_antisymm; apply Hle; auto. apply neighbour_sym; auto.
  Qed.

  Lemma bucket_fixed fuel : forall fs, good (fs 0%nat) -> snd (bucket_fill h fuel fs) = true ->
    let g := fst (bucket_fill h fuel fs) 0%nat in good g /\ forall c c', linked h l c c' -> g c = g c'.
  Proof.
    induction fuel as [|fuel IH]; intros fs Hg H; cbn [bucket_fill] in *; [discriminate|]. cbv zeta in *.
    pose proof (sweep_good fs Hg) as Hg'.
    destruct (snd (sweep h fs)) eqn:E; [apply IH; auto|]. cbn [fst].
    destruct (fixed_point fs Hg E) as [A B]. split; auto. intros c c' L. rewrite !A. auto.
  Qed.

  (** ** renumbering *)
  Lemma insert_in n x ls : In x (insert n ls) <-> x = n \/ In x ls.
  Proof.
    induction ls as [|m ls IH]; cbn [insert In]; [intuition|].
    destruct (n <? m); cbn [In]; [intuition|]. destruct (Z.eqb_spec n m); cbn [In]; [subst; intuition|]. rewrite IH. intuition.
  Qed.

  Lemma insert_sorted n ls : StronglySorted Z.lt ls -> StronglySorted Z.lt (insert n ls).
  Proof.
    induction 1 as [|m ls Hs IH Hm]; cbn [insert]; [repeat constructor|].
    destruct (Z.ltb_spec n m).
    - constructor; [constructor; auto|]. constructor; auto. eapply Forall_impl; [|exact Hm]. intros; lia.
    - destruct (Z.eqb_spec n m); [constructor; auto|]. constructor; auto. apply Forall_forall. intros x Hx. apply insert_in in Hx as [->|Hx]; [lia|].
      rewrite Forall_forall in Hm; auto.
  Qed.

  Lemma list_cells (g : field) wp cs : forall s, StronglySorted Z.lt s ->
    let r := fold_left (fun s c => if (0 <=? g c) && wp c then insert (g c) s else s) cs s in
    StronglySorted Z.lt r /\ forall x, In x r <-> In x s \/ exists c, In c cs /\ 0 <= g c /\ wp c = true /\ x = g c.
  Proof.
    induction cs as [|c cs IH]; intros s Hs; cbn [fold_left].
    - split; auto. intros x; split; [auto|]. intros [H|(c & [] & _)]; auto.
    - destruct (Z.leb_spec 0 (g c)) as [Hc|Hc]; cbn [andb]; [destruct (wp c) eqn:W|].
      + destruct (IH _ (insert_sorted (g c) s Hs)) as [A B]. split; auto. intros x. rewrite B, insert_in. split.
        * intros [[->|H]|(c' & H & H')]; [right; exists c; repeat split; auto; left; auto|auto|right; exists c'; split; [right|]; auto].
        * intros [H|(c' & [<-|H] & H0 & H1 & ->)]; auto. right. exists c'; auto.
      + destruct (IH _ Hs) as [A B]. split; auto. intros x. rewrite B. split.
        * intros [H|(c' & H & H')]; auto. right; exists c'; split; [right|]; auto.
        * intros [H|(c' & [<-|H] & H0 & H1 & ->)]; auto; [congruence|]. right. exists c'; auto.
      + destruct (IH _ Hs) as [A B]. split; auto. intros x. rewrite B. split.
        * intros [H|(c' & H & H')]; auto. right; exists c'; split; [right|]; auto.
        * intros [H|(c' & [<-|H] & H0 & H1 & ->)]; auto; [lia|]. right. exists c'; auto.
  Qed.

  Lemma list_patches (g : field) wp bs : forall s, StronglySorted Z.lt s ->
    let r := fold_left (fun s b => fold_left (fun s c => if (0 <=? g c) && wp c then insert (g c) s else s) (cells b) s) bs s in
    StronglySorted Z.lt r /\ forall x, In x r <-> In x s \/ exists b c, In b bs /\ inside b c /\ 0 <= g c /\ wp c = true /\ x = g c.
  Proof.
    induction bs as [|b bs IH]; intros s Hs; cbn [fold_left].
    - split; auto. intros x; split; [auto|]. intros [H|(b & c & [] & _)]; auto.
    - destruct (list_cells g wp (cells b) s Hs) as [A B]. destruct (IH _ A) as [C D]. split; auto.
      intros x. rewrite D, B. split.
      + intros [[H|(c & H & H')]|(b' & c & H & H')]; auto.
        * right. exists b, c. split; [left; auto|]. split; [apply cells_in; auto|auto].
        * right. exists b', c. split; [right|]; auto.
      + intros [H|(b' & c & [<-|H] & Hc & H')]; auto.
        * left; right. exists c. split; [apply cells_in; auto|auto].
        * right. exists b', c; auto.
  Qed.

  Lemma grain_list_one fs : StronglySorted Z.lt (grain_list h fs) /\
    forall x, In x (grain_list h fs) <-> exists c, inside (gdom l) c /\ 0 <= fs 0%nat c /\ x = fs 0%nat c.
  Proof.
    unfold grain_list, numbered. rewrite o_levels. cbn [length seq combine fold_left].
    destruct (list_patches (fs 0%nat) (wpos l) (gpatches l) [] ltac:(constructor)) as [A B]. split; auto.
    intros x. rewrite B. split.
    - intros [[]|(b & c & Hb & Hc & H0 & _ & E)]. exists c; split; auto. eapply o_sub; eauto.
    - intros (c & Hc & H0 & E). right. destruct Hone as (_ & _ & _ & _ & Hcov & Hw). destruct (Hcov c Hc) as (b & Hb & Hcb).
      exists b, c. auto 6.
  Qed.

  Lemma position_in n ls : forall ii, In n ls -> exists k, (k < length ls)%nat /\ position n ls ii = Some (ii + Z.of_nat k) /\ nth k ls 0 = n.
  Proof.
    induction ls as [|m ls IH]; intros ii H; [destruct H|]. cbn [position]. destruct (Z.eqb_spec m n) as [E|E].
    - exists 0%nat. cbn. repeat split; auto; [lia|f_equal; lia].
    - destruct H as [H|H]; [contradiction|]. destruct (IH (ii + 1) H) as (k & Hk & P & N). exists (S k). cbn [length nth]. repeat split; auto; [lia|].
      rewrite P. f_equal. lia.
  Qed.

  Lemma position_nth ls : StronglySorted Z.lt ls -> forall ii k, (k < length ls)%nat -> position (nth k ls 0) ls ii = Some (ii + Z.of_nat k).
  Proof.
    induction 1 as [|m ls Hs IH Hm]; intros ii k Hk; [cbn in Hk; lia|]. cbn [position]. destruct k as [|k]; cbn [nth].
    - rewrite Z.eqb_refl. f_equal; lia.
    - cbn [length] in Hk. rewrite Forall_forall in Hm. destruct (Z.eqb_spec m (nth k ls 0)) as [E|E].
      + exfalso. assert (Hin : In (nth k ls 0) ls) by (apply nth_In; lia). specialize (Hm _ Hin). lia.
      + rewrite IH by lia. f_equal; lia.
  Qed.

  Lemma coarsen_all_one fs : coarsen_all h fs = fs.
  Proof. unfold coarsen_all. rewrite o_levels. reflexivity. Qed.

  Lemma renumber_one fs c : inside (gdom l) c -> renumber h fs 0%nat c = if 0 <=? fs 0%nat c then grain_number (grain_list h fs) (fs 0%nat c) else fs 0%nat c.
  Proof. intros H. unfold renumber. rewrite coarsen_all_one, o_lev, o_cover, andb_true_r; auto. Qed.

  Lemma find_grains_one fuel : snd (find_grains h fuel) = true ->
    numbers_grains h l (fst (fst (find_grains h fuel)) 0%nat) (snd (fst (find_grains h fuel))).
  Proof.
    unfold find_grains. rewrite coarsen_all_one. cbn [fst snd]. intros H.
    destruct (bucket_fixed fuel (initial h) initial_good H) as [G L]. cbv zeta in G, L.
    set (fs := fst (bucket_fill h fuel (initial h))) in *.
    destruct (grain_list_one fs) as [S I].
    assert (Hpos : forall c, grain_cell l c -> 0 <= fs 0%nat c) by (intros c [Hc Sc]; apply G; auto).
    assert (Hnum : forall c, grain_cell l c -> exists k, (k < length (grain_list h fs))%nat /\ renumber h fs 0%nat c = Z.of_nat k /\ nth k (grain_list h fs) 0 = fs 0%nat c).
    { intros c Hc. pose proof (Hpos c Hc) as Hp. destruct Hc as [Hc Sc].
      destruct (position_in (fs 0%nat c) (grain_list h fs) 0) as (k & Hk & P & N); [apply I; exists c; auto|].
      exists k; repeat split; auto. rewrite renumber_one by auto. rewrite (proj2 (Z.leb_le 0 (fs 0%nat c))) by auto. unfold grain_number. rewrite P. lia. }
    repeat split.
    - destruct (Hnum c H0) as (k & Hk & E & _). lia.
    - destruct (Hnum c H0) as (k & Hk & E & _). lia.
    - intros c Hc Sc. rewrite renumber_one by auto. rewrite (proj2 (G c Hc) Sc). reflexivity.
    - intros E. destruct (Hnum c H0) as (k & Hk & E1 & N1). destruct (Hnum c' H1) as (k' & Hk' & E2 & N2).
      assert (k = k') by lia. subst k'. assert (V : fs 0%nat c = fs 0%nat c') by congruence.
      destruct H0 as [Hc Sc], H1 as [Hc' Sc'].
      destruct (proj1 (G c Hc) Sc) as (_ & c0 & L0 & V0). destruct (proj1 (G c' Hc') Sc') as (_ & c1 & L1 & V1).
      assert (c0 = c1). { apply o_label_inj; [apply (linked_grain _ _ _ _ L0)|apply (linked_grain _ _ _ _ L1)|congruence]. }
      subst c1. eapply linked_trans; [exact L0|apply linked_sym; auto].
    - intros Lk. destruct (Hnum c H0) as (k & Hk & E1 & N1). destruct (Hnum c' H1) as (k' & Hk' & E2 & N2).
      rewrite !renumber_one by (try apply H0; apply H1). rewrite (L c c' Lk). reflexivity.
    - intros k Hk.
      assert (Hin : In (nth (Z.to_nat k) (grain_list h fs) 0) (grain_list h fs)) by (apply nth_In; lia).
      apply I in Hin as (c & Hc & H0 & E).
      assert (Sc : solid l c = true) by (destruct (solid l c) eqn:Sc; auto; rewrite (proj2 (G c Hc) Sc) in H0; lia).
      exists c; split; [split; auto|]. rewrite renumber_one by auto. rewrite (proj2 (Z.leb_le 0 (fs 0%nat c))) by auto.
      unfold grain_number. rewrite <- E, position_nth by (auto; lia). lia.
  Qed.

  (** ** termination *)
  Definition msum (cs : list cell) (g : field) : Z := fold_right (fun c a => Z.max 0 (g c) + a) 0 cs.

  Lemma msum_nonneg cs g : 0 <= msum cs g.
  Proof. induction cs as [|c cs IH]; unfold msum in *; cbn [fold_right]; lia. Qed.

  Lemma msum_set cs g c v : 0 <= v < g c -> msum cs (set g c v) <= msum cs g /\ (In c cs -> msum cs (set g c v) < msum cs g).
  Proof.
    intros H. induction cs as [|a cs [I1 I2]]; cbn [msum fold_right In]; [split; [lia|tauto]|]. fold (msum cs g). fold (msum cs (set g c v)).
    destruct (cell_dec a c) as [->|Hn]; [rewrite set_same; split; intros; lia|]. rewrite set_other by auto. split; [lia|].
    intros [E|E]; [congruence|]. specialize (I2 E). lia.
  Qed.

  Lemma msum_ext cs g g' : (forall c, g c = g' c) -> msum cs g = msum cs g'.
  Proof. intros H. induction cs as [|c cs IH]; unfold msum in *; cbn [fold_right]; [auto|]. rewrite H, IH. auto. Qed.

  (** a visited cell keeps its label or gets a smaller one *)
  Definition lowered (c : cell) (n : Z) (s s' : gstate) : Prop :=
    s' = s \/ (snd s' = true /\ exists v, 0 <= v < n /\ forall a, fst s' a = set (fst s) c v a).

  Lemma take_lowered n v c s0 s : lowered c n s0 s -> lowered c n s0 (take n v c s).
  Proof.
    intros H. unfold take. destruct (Z.leb_spec 0 v); [|auto]. destruct (Z.ltb_spec v n); cbn [andb]; auto.
    right. cbn [fst snd]. split; auto. exists v; split; auto. intros a.
    destruct (cell_dec a c) as [->|Ha]; [rewrite !set_same; auto|]. rewrite !set_other by auto.
    destruct H as [->|(_ & w & _ & E)]; auto. rewrite E, set_other; auto.
  Qed.

  Lemma relax_lowered nd wp b gh s c : lowered c (fst s c) s (relax nd wp b gh s c).
  Proof.
    unfold relax. destruct (_ && _); [|left; auto]. set (n := fst s c).
    assert (H : forall ds s', lowered c n s s' -> lowered c n s (fold_left (relax_dir b gh n c) ds s')).
    { induction ds; intros s' H; cbn [fold_left]; auto. apply IHds. unfold relax_dir. repeat apply take_lowered; auto. }
    apply H. left; auto.
  Qed.

  Definition falls (cs : list cell) (s s' : gstate) : Prop :=
    msum cs (fst s') <= msum cs (fst s) /\ (snd s' = true -> snd s = true \/ msum cs (fst s') < msum cs (fst s)).

  Lemma falls_fold {A} cs (step : gstate -> A -> gstate) xs : (forall s x, In x xs -> falls cs s (step s x)) -> forall s, falls cs s (fold_left step xs s).
  Proof.
    intros H. induction xs as [|x xs IH]; intros s; cbn [fold_left]; [split; [lia|auto]|].
    destruct (H s x (or_introl eq_refl)) as [A1 A2]. destruct (IH (fun s x Hx => H s x (or_intror Hx)) (step s x)) as [B1 B2].
    split; [lia|]. intros E. destruct (B2 E) as [F|F]; [|right; lia]. destruct (A2 F); [auto|right; lia].
  Qed.

  Lemma sweep_falls fs : snd (sweep h fs) = true -> msum (cells (gdom l)) (fst (sweep h fs) 0%nat) < msum (cells (gdom l)) (fs 0%nat).
  Proof.
    rewrite sweep_one. cbn [fst snd]. unfold set_level; cbn [Nat.eqb]. unfold swept.
    assert (F : falls (cells (gdom l)) (fs 0%nat, false) (fold_left (sweep_patch (ndim h) (wpos l) (ghost h fs 0)) (gpatches l) (fs 0%nat, false))).
    { apply falls_fold. intros s b Hb. apply falls_fold. intros s' c Hc.
      destruct (relax_lowered (ndim h) (wpos l) b (ghost h fs 0) s' c) as [->|(E & v & Hv & Ev)]; [split; [lia|auto]|].
      assert (Hi : In c (cells (gdom l))) by (apply cells_in; eapply o_sub; eauto; apply cells_in; auto).
      destruct (msum_set (cells (gdom l)) (fst s') c v Hv) as [A B]. rewrite <- (msum_ext (cells (gdom l)) _ _ Ev) in A, B.
      split; auto. }
    intros E. destruct F as [_ F]. destruct (F E) as [F'|F']; [discriminate|auto].
  Qed.

  Lemma bucket_terminates fuel : forall fs, msum (cells (gdom l)) (fs 0%nat) < Z.of_nat fuel -> snd (bucket_fill h fuel fs) = true.
  Proof.
    induction fuel as [|fuel IH]; intros fs H; [pose proof (msum_nonneg (cells (gdom l)) (fs 0%nat)); lia|].
    cbn [bucket_fill]. cbv zeta. destruct (snd (sweep h fs)) eqn:E; auto. apply IH. pose proof (sweep_falls fs E). lia.
  Qed.
End OneLevel.

Lemma one_level_numbers : forall h l fuel, one_level h l -> snd (find_grains h fuel) = true ->
  numbers_grains h l (fst (fst (find_grains h fuel)) 0%nat) (snd (fst (find_grains h fuel))).
Proof. intros; apply find_grains_one; auto. Qed.

Lemma enough_sweeps : forall h l, one_level h l -> exists limit, forall fuel, (limit <= fuel)%nat -> snd (find_grains h fuel) = true.
Proof.
  intros h l H. exists (S (Z.to_nat (msum (cells (gdom l)) (initial h 0)))). intros fuel Hf. unfold find_grains. cbn [snd].
  rewrite (coarsen_all_one h l H). apply (bucket_terminates h l H).
  pose proof (msum_nonneg (cells (gdom l)) (initial h 0)). lia.
Qed.

(** * concrete runs *)
(** one level, one patch, one cell thick, no periodic direction *)
Definition plane (nx ny : Z) (mask : cell -> bool) : glevel :=
  let d := ((0, nx - 1), (0, ny - 1), (0, 0)) in mk_glevel d 1 (1, 1, 1) [d] mask (fun _ => true).
Definition run2d (l : glevel) : ghier := mk_ghier 2 (fun _ => false) [l].

Lemma plane_one nx ny mask : one_level (run2d (plane nx ny mask)) (plane nx ny mask).
Proof.
  unfold one_level, run2d, plane; cbn [glevels ndim gdom gpatches wpos]. split; [auto|]. split; [right; auto|].
  split; [intros [|[|[|d]]] Hd; cbn; lia|]. split; [intros b c [<-|[]]; auto|]. split; [|auto].
  intros c Hc. eexists; split; [left; reflexivity|auto].
Qed.

(** a walk from cell to face-neighbouring cell within a grain *)
Definition step_ok (a b : cell) : bool :=
  (Z.abs (coord 0 a - coord 0 b) + Z.abs (coord 1 a - coord 1 b) =? 1) && (coord 2 a =? coord 2 b).
Fixpoint walk (l : glevel) (a : cell) (p : list cell) : bool :=
  match p with [] => true | b :: p => step_ok a b && cell_in (gdom l) b && solid l b && walk l b p end.

Lemma walk_linked h l : (2 <= ndim h)%nat -> forall p c a, linked h l c a -> walk l a p = true -> linked h l c (last p a).
Proof.
  intros Hn. induction p as [|b p IH]; intros c a L W; [exact L|].
  cbn [walk] in W. rewrite !andb_true_iff in W. destruct W as [[[W1 W2] W3] W4].
  assert (Lb : linked h l c b).
  { eapply linked_step; [exact L| |split; [apply cell_in_iff; auto|auto]].
    unfold step_ok in W1. rewrite andb_true_iff, !Z.eqb_eq in W1. destruct W1 as [W1 W5].
    destruct (Z.eq_dec (coord 0 a) (coord 0 b)) as [E|E].
    - exists 1%nat. split; [lia|split; [intros [|[|[|e]]]; lia|lia]].
    - exists 0%nat. split; [lia|split; [intros [|[|[|e]]]; lia|lia]]. }
  specialize (IH c b Lb W4). replace (last (b :: p) a) with (last p b); [exact IH|].
  clear. revert b. induction p as [|b' p IH]; intros b; [reflexivity|]. change (last (b' :: p) b = last (b' :: p) a).
  rewrite <- (IH b'). destruct p as [|b'' p]; [reflexivity|]. specialize (IH b''). cbn [last] in IH |- *. clear. revert b''. induction p; intros; auto. cbn [last]. destruct p; auto.
Qed.

(** a grain winding through a 10 x 20 domain *)
Definition serpentine (c : cell) : bool :=
  let '(i, j, _) := c in if Z.even j then true else if j mod 4 =? 1 then i =? 9 else i =? 0.
Definition row (j : Z) : list cell := map (fun i => (i, j, 0)) (zrange 0 9).
Definition serpentine_walk : list cell :=
  flat_map (fun m => row (4 * m) ++ [(9, 4 * m + 1, 0)] ++ rev (row (4 * m + 2)) ++ [(0, 4 * m + 3, 0)]) [0; 1; 2; 3; 4].

Lemma serpentine_split :
  let l := plane 10 20 serpentine in let h := run2d l in
  let num := fst (fst (findAndNumberGrains h)) 0%nat in
  one_level h l /\ linked h l (0, 0, 0) (0, 19, 0) /\ num (0, 0, 0) = 0 /\ num (0, 19, 0) = 1 /\
  snd (fst (findAndNumberGrains h)) = 2 /\ snd (findAndNumberGrains h) = false.
Proof.
  cbv zeta. split; [apply plane_one|]. split.
  - change (0, 19, 0) with (last (tl serpentine_walk) (0, 0, 0)).
    apply walk_linked; [cbn; lia| |vm_compute; reflexivity].
    apply linked_refl. split; [apply cell_in_iff|]; reflexivity.
  - vm_compute. repeat split.
Qed.

(** two levels: a coarse cell and a fine cell get the same label *)
Definition two_levels (coarse fine : cell -> bool) : ghier :=
  let d0 := ((0, 7), (0, 7), (0, 0)) in
  mk_ghier 2 (fun _ => false)
    [mk_glevel d0 1 (1, 1, 1) [d0] coarse (fun c => coord 0 c <? 4);
     mk_glevel ((0, 15), (0, 15), (0, 0)) 1 (2, 2, 1) [((8, 15), (0, 15), (0, 0))] fine (fun _ => true)].

Lemma two_levels_merge :
  let h := two_levels (cell_eqb (1, 1, 0)) (cell_eqb (8, 0, 0)) in
  let r := findAndNumberGrains h in
  label h 0 (1, 1, 0) = label h 1 (8, 0, 0) /\ snd r = true /\ snd (fst r) = 1 /\
  fst (fst r) 0%nat (1, 1, 0) = 0 /\ fst (fst r) 1%nat (8, 0, 0) = 0.
Proof. vm_compute. repeat split. Qed.

(** * Several levels: what a propagation that has stopped by itself guarantees *)
Definition settled (h : ghier) (g : fields) (ln : nat) : Prop :=
  forall b c, In b (gpatches (lev h ln)) -> inside b c -> 0 <= g ln c -> wpos (lev h ln) c = true -> forall d e, (d < ndim h)%nat -> e = 1 \/ e = -1 ->
    ~ (0 <= see b (ghost h g ln) (g ln) (shift d e c) < g ln c).
Lemma coarsen_uncovered h m g c : levels_ok h -> (S m < length (glevels h))%nat -> uncovered h m c -> coarsen_data h m g m c = g m c.
Proof.
  intros (_ & L) H U. unfold coarsen_data, set_level. rewrite Nat.eqb_refl. specialize (U H). destruct (L _ H) as [P _].
  set (r := gratio (lev h (S m))) in *. generalize (g m). revert U. generalize (gpatches (lev h (S m))). intros fs U.
  induction fs as [| f fs IH]; intro cd; [reflexivity |]. cbn [fold_left]. rewrite IH by (intros; apply U; right; auto).
  destruct (min_coarsen_smallest (g (S m)) (box_coarsen r f) r cd c P) as [_ Q]. apply Q, U. left; reflexivity.
Qed.
Lemma coarsen_other h m g k c : k <> m -> coarsen_data h m g k c = g k c.
Proof. intros N. unfold coarsen_data, set_level. destruct (Nat.eqb_spec k m); [contradiction | reflexivity]. Qed.
Lemma coarsen_level h m g k : k <> m -> coarsen_data h m g k = g k.
Proof. intros N. unfold coarsen_data, set_level. destruct (Nat.eqb_spec k m); [contradiction | reflexivity]. Qed.
Lemma coarsen_all_uncovered h g ln c : levels_ok h -> uncovered h ln c -> coarsen_all h g ln c = g ln c.
Proof.
  intros L U. unfold coarsen_all.
  assert (G : forall ms g, (forall m, In m ms -> (S m < length (glevels h))%nat) -> fold_left (fun g m => coarsen_data h m g) ms g ln c = g ln c).
  { induction ms as [| m ms IH]; intros g' H; [reflexivity |]. cbn [fold_left]. rewrite IH by (intros; apply H; right; auto).
    destruct (Nat.eq_dec ln m) as [-> | N]; [apply coarsen_uncovered; auto; apply H; left; auto | apply coarsen_other; auto]. }
  apply G. intros m Hm. apply in_rev, in_seq in Hm. lia.
Qed.
Lemma ghost_ext h g g' ln : g ln = g' ln -> (forall m, ln = S m -> g m = g' m) -> ghost h g ln = ghost h g' ln.
Proof. intros E F. unfold ghost. destruct ln as [| m]; [rewrite E; reflexivity |]. rewrite E, (F m eq_refl). reflexivity. Qed.
Lemma sweep_levels h g k : levels_ok h -> (k <= length (glevels h))%nat -> snd (fold_left (sweep_level h) (seq 0 k) (g, false)) = false ->
  (forall m, (k <= S m)%nat -> fst (fold_left (sweep_level h) (seq 0 k) (g, false)) m = g m) /\
  (forall m, (m < k)%nat -> settled h g m) /\
  forall m c, uncovered h m c -> fst (fold_left (sweep_level h) (seq 0 k) (g, false)) m c = g m c.
Proof.
  intros L. induction k as [| k IH]; intros Hk Q.
  - cbn. repeat split; auto. intros; lia.
  - rewrite seq_S, fold_left_app in *. cbn [fold_left plus] in *.
    set (s := fold_left (sweep_level h) (seq 0 k) (g, false)) in *. unfold sweep_level in *. cbn [fst snd] in *.
    set (step := sweep_patch (ndim h) (wpos (lev h k)) (ghost h (fst s) k)) in *.
    assert (Q0 : snd s = false).
    { destruct (snd s) eqn:E; [| reflexivity]. exfalso. revert Q. generalize (fst s k). intro f.
      assert (M : forall bs st, snd st = true -> snd (fold_left step bs st) = true) by (induction bs; intros st H; cbn [fold_left]; auto; apply IHbs, patch_mono; auto).
      rewrite M by reflexivity. discriminate. }
    destruct (IH ltac:(lia) Q0) as (A & B & C).
    destruct (fold_quiet step (fun f b => forall c, inside b c -> 0 <= f c -> wpos (lev h k) c = true -> forall d e, (d < ndim h)%nat -> e = 1 \/ e = -1 ->
         ~ (0 <= see b (ghost h (fst s) k) f (shift d e c) < f c)) (fun s b => patch_mono _ _ _ s b) (fun s b => patch_quiet _ _ _ s b) (gpatches (lev h k)) _ Q) as [E S1].
    rewrite E in *. cbn [fst snd] in *.
    assert (G : ghost h (fst s) k = ghost h g k) by (apply ghost_ext; [apply A; lia | intros m ->; apply A; lia]).
    assert (SL : forall m, set_level (fst s) k (fst s k) m = fst s m) by (intro m; unfold set_level; destruct (Nat.eqb_spec m k) as [-> |]; reflexivity).
    split; [| split].
    + intros m Hm. destruct k as [| k']; [rewrite SL; apply A; lia |]. rewrite coarsen_level by lia. rewrite SL. apply A. lia.
    + intros m Hm. destruct (Nat.eq_dec m k) as [-> | N]; [| apply B; lia]. intros b c Hb Hc Hp Hw d e Hd He.
      specialize (S1 b Hb c Hc). rewrite G, (A k) in S1 by lia. apply S1; auto.
    + intros m c U. destruct k as [| k']; [rewrite SL; apply C; auto |]. destruct (Nat.eq_dec m k') as [-> | N].
      * rewrite coarsen_uncovered by (auto; lia). rewrite SL. apply C; auto.
      * rewrite coarsen_other by auto. rewrite SL. apply C; auto.
Qed.
Lemma settled_neighbours h g ln c c' : levels_ok h -> (ln < length (glevels h))%nat -> settled h g ln ->
  (exists b, In b (gpatches (lev h ln)) /\ inside b c) -> (exists b, In b (gpatches (lev h ln)) /\ inside b c') -> wpos (lev h ln) c = true ->
  neighbour h (lev h ln) c c' -> 0 <= g ln c -> 0 <= g ln c' -> g ln c <= g ln c'.
Proof.
  intros (D & L) H S (b & Hb & Hc) (b' & Hb' & Hc') W N P P'. destruct (L ln H) as [_ I].
  destruct (neighbour_image h (lev h ln) c c' ltac:(lia) (I b c Hb Hc) (I b' c' Hb' Hc') N) as (d & e & Hd & He & Hi & Ho).
  specialize (S b c Hb Hc P W d e Hd He).
  replace (see b (ghost h g ln) (g ln) (shift d e c)) with (g ln c') in S; [lia |].
  unfold see. destruct (cell_in b (shift d e c)) eqn:F.
  - apply cell_in_iff in F. apply (I b) in F; auto. destruct Ho as [-> | Ho]; [auto | contradiction].
  - unfold ghost. rewrite Hi, (proj2 (cell_in_iff _ _) (I b' c' Hb' Hc')), (proj2 (in_patches_iff _ _)); eauto.
Qed.
Lemma bucket_levels h fuel : levels_ok h -> forall g, snd (bucket_fill h fuel g) = true ->
  forall ln c c', (ln < length (glevels h))%nat -> visible h ln c -> visible h ln c' -> neighbour h (lev h ln) c c' ->
    let g' := fst (bucket_fill h fuel g) in 0 <= g' ln c -> 0 <= g' ln c' -> g' ln c = g' ln c'.
Proof.
  intros L. induction fuel as [| fuel IH]; intros g Q; cbn [bucket_fill] in *; [discriminate |]. cbv zeta in *.
  destruct (snd (sweep h g)) eqn:E; [apply IH; exact Q |]. cbn [fst].
  destruct (sweep_levels h g (length (glevels h)) L ltac:(lia) E) as (_ & B & C). unfold sweep.
  intros ln c c' H (V1 & V2 & V3) (W1 & W2 & W3) N. rewrite !C by assumption. intros P P'.
  apply Z.le_antisymm; eapply settled_neighbours; eauto. apply neighbour_sym; auto.
Qed.
Lemma neighbours_share_number : forall h fuel, levels_ok h -> snd (find_grains h fuel) = true ->
  forall ln c c', (ln < length (glevels h))%nat -> visible h ln c -> visible h ln c' -> neighbour h (lev h ln) c c' ->
    0 <= fst (fst (find_grains h fuel)) ln c -> 0 <= fst (fst (find_grains h fuel)) ln c' ->
    fst (fst (find_grains h fuel)) ln c = fst (fst (find_grains h fuel)) ln c'.
Proof.
  intros h fuel L Q ln c c' H V V' N. unfold find_grains in *. cbn [fst snd] in *.
  pose proof (bucket_levels h fuel L _ Q ln c c' H V V' N) as S. cbv zeta in S. revert S.
  set (g := fst (bucket_fill h fuel _)). intro S. destruct V as (V1 & _ & V3), V' as (W1 & _ & W3).
  unfold renumber. rewrite !coarsen_all_uncovered by assumption. rewrite !(proj2 (in_patches_iff _ _)) by assumption. rewrite !andb_true_r.
  destruct (Z.leb_spec 0 (g ln c)), (Z.leb_spec 0 (g ln c')); intros; try lia. rewrite S by assumption. reflexivity.
Qed.
