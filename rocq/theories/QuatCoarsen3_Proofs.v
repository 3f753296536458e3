From Coq Require Import Reals ZArith List Lra Lia Bool FunctionalExtensionality.
From Verif Require Import Grid_Model Grid_Proofs Quat_Model Quat_Spec Quat_Proofs QuatCoarsen_Model QuatCoarsen_Spec QuatCoarsen_Proofs.
From Verif Require Import QuatCoarsen3_Model QuatCoarsen3_Spec.
Import ListNotations.
Open Scope R_scope.

(** ** cells of a box *)
Lemma in_box_cells : forall b i j k, In (i, j, k) (box_cells b) <-> within b i j k.
Proof.
  intros b i j k. unfold box_cells, within. rewrite in_flat_map. split.
  - intros (k' & Hk & H). apply in_flat_map in H. destruct H as (j' & Hj & H). apply in_map_iff in H. destruct H as (i' & E & Hi).
    injection E as -> -> ->. apply in_range in Hi, Hj, Hk. lia.
  - intros (Hi & Hj & Hk). exists k. split; [apply in_range; lia |]. apply in_flat_map. exists j. split; [apply in_range; lia |].
    apply in_map_iff. exists i. split; [reflexivity | apply in_range; lia].
Qed.
Lemma cell_dec : forall x y : Z * Z * Z, {x = y} + {x <> y}.
Proof. repeat decide equality. Qed.
Lemma run_cells_map : forall cell cells iq v f, (forall i j k, cell iq i j k = Some (iq, v i j k)) ->
  exists f', run_cells cell cells iq f = Some (iq, f') /\
    (forall i j k, In (i, j, k) cells -> f' i j k = v i j k) /\ (forall i j k, ~ In (i, j, k) cells -> f' i j k = f i j k).
Proof.
  intros cell cells iq v f H. revert f. induction cells as [| [[i j] k] rest IH]; intros f.
  - exists f. split; [reflexivity |]. split; [intros i j k [] | reflexivity].
  - cbn [run_cells]. rewrite H. destruct (IH (put f i j k (v i j k))) as (f' & E & V & O). exists f'. split; [exact E |].
    assert (P : forall a b c, ~ In (a, b, c) rest -> f' a b c = put f i j k (v i j k) a b c) by exact O.
    split.
    + intros a b c [I | I]; [| apply V; exact I]. injection I as <- <- <-.
      destruct (in_dec cell_dec (i, j, k) rest) as [J | J]; [apply V; exact J |].
      rewrite P by exact J. unfold put. rewrite !Z.eqb_refl. reflexivity.
    + intros a b c N. rewrite P by (intro J; apply N; right; exact J). unfold put.
      destruct (Z.eqb_spec a i), (Z.eqb_spec b j), (Z.eqb_spec c k); cbn; try reflexivity. subst. exfalso. apply N. left. reflexivity.
Qed.
Lemma run_cells_stop : forall cell cells f, (forall i j k, cell 0%Z i j k = None) -> cells <> [] -> run_cells cell cells 0 f = None.
Proof. intros cell [| [[i j] k] rest] f H N; [contradiction |]. cbn. rewrite H. reflexivity. Qed.

(** ** sums *)
Lemma lsum_range : forall r g, lsum (map g (range 0 (r - 1))) = sumn (Z.to_nat r) g.
Proof.
  intros r g. unfold range. rewrite map_map. replace (r - 1 - 0 + 1)%Z with r by lia. rewrite <- (lsum_seq (Z.to_nat r) g). reflexivity.
Qed.
Lemma lsum_flat : forall A B (h : B -> R) (c : A -> list B) l, lsum (map h (flat_map c l)) = lsum (map (fun a => lsum (map h (c a))) l).
Proof.
  intros A B h c l. induction l as [| a l IH]; [reflexivity |]. cbn [flat_map]. rewrite map_app, lsum_app, IH. reflexivity.
Qed.
Lemma sumn_ext' : forall n g h, (forall k, g k = h k) -> sumn n g = sumn n h.
Proof. intros n g h H. apply sumn_ext. auto. Qed.
Lemma cells3_sum : forall r0 r1 r2 (g : Z * Z * Z -> R),
  lsum (map g (sub_cells3 r0 r1 r2)) = sumn (Z.to_nat r2) (fun k => sumn (Z.to_nat r1) (fun j => sumn (Z.to_nat r0) (fun i => g (i, j, k)))).
Proof.
  intros r0 r1 r2 g. unfold sub_cells3, box_cells. cbn [lo0 lo1 lo2 hi0 hi1 hi2]. rewrite lsum_flat, lsum_range.
  apply sumn_ext'. intro k. rewrite lsum_flat, lsum_range. apply sumn_ext'. intro j. rewrite map_map, lsum_range. reflexivity.
Qed.
Definition shifted (g : Z -> Z -> Z -> R) (f0 f1 f2 : Z) (p : Z * Z * Z) : R := g (f0 + fst (fst p))%Z (f1 + snd (fst p))%Z (f2 + snd p)%Z.
Lemma weight_avg3 : forall r0 r1 r2 d0 d1 d2 c0 c1 c2 g, (0 < r0)%Z -> (0 < r1)%Z -> (0 < r2)%Z -> 0 < d0 -> 0 < d1 -> 0 < d2 ->
  (0 + lsum (map (fun p => shifted g (c0 * r0) (c1 * r1) (c2 * r2) p * (d0 * d1 * d2)) (sub_cells3 r0 r1 r2))) *
    (1 / (IZR r0 * d0 * (IZR r1 * d1) * (IZR r2 * d2))) = average3 r0 r1 r2 c0 c1 c2 g.
Proof.
  intros r0 r1 r2 d0 d1 d2 c0 c1 c2 g H0 H1 H2 P0 P1 P2. rewrite lsum_scale, cells3_sum. unfold average3, shifted. cbn [fst snd].
  apply IZR_lt in H0, H1, H2. field. repeat split; lra.
Qed.

(** ** plain coarsening *)
Lemma plain3_4 : forall (F : Z -> Z -> Z -> q4) f0 f1 f2 w cells iq a b c d,
  coarsen_loop3 false (fun i j k => lst4 (F i j k)) f0 f1 f2 w cells iq [a; b; c; d] =
  let g c := lsum (map (fun p => shifted (fun i j k => c (F i j k)) f0 f1 f2 p * w) cells) in
  Some (iq, [a + g qa; b + g qb; c + g qc; d + g qd]).
Proof.
  intros F f0 f1 f2 w cells iq. induction cells as [| [[i j] k] rest IH]; intros a b c d; cbv zeta.
  - cbn. rewrite !Rplus_0_r. reflexivity.
  - cbn [coarsen_loop3 lst4 accum]. rewrite IH. cbv zeta. unfold shifted. cbn [map fst snd lsum fold_right].
    unfold lsum. apply f_equal, f_equal. repeat apply cons_eq; try reflexivity; ring.
Qed.
Lemma plain3_2 : forall (F : Z -> Z -> Z -> q2) f0 f1 f2 w cells iq a b,
  coarsen_loop3 false (fun i j k => lst2 (F i j k)) f0 f1 f2 w cells iq [a; b] =
  let g c := lsum (map (fun p => shifted (fun i j k => c (F i j k)) f0 f1 f2 p * w) cells) in
  Some (iq, [a + g ca; b + g cb]).
Proof.
  intros F f0 f1 f2 w cells iq. induction cells as [| [[i j] k] rest IH]; intros a b; cbv zeta.
  - cbn. rewrite !Rplus_0_r. reflexivity.
  - cbn [coarsen_loop3 lst2 accum]. rewrite IH. cbv zeta. unfold shifted. cbn [map fst snd lsum fold_right].
    unfold lsum. apply f_equal, f_equal. repeat apply cons_eq; try reflexivity; ring.
Qed.
Lemma plain3_1 : forall (F : Z -> Z -> Z -> R) f0 f1 f2 w cells iq a,
  coarsen_loop3 false (fun i j k => [F i j k]) f0 f1 f2 w cells iq [a] =
  Some (iq, [a + lsum (map (fun p => shifted F f0 f1 f2 p * w) cells)]).
Proof.
  intros F f0 f1 f2 w cells iq. induction cells as [| [[i j] k] rest IH]; intros a.
  - cbn. rewrite !Rplus_0_r. reflexivity.
  - cbn [coarsen_loop3 accum]. rewrite IH. unfold shifted. cbn [map fst snd lsum fold_right].
    unfold lsum. apply f_equal, f_equal. repeat apply cons_eq; try reflexivity; ring.
Qed.
Lemma cell3_4 : forall F r0 r1 r2 d0 d1 d2 iq c0 c1 c2, (0 < r0)%Z -> (0 < r1)%Z -> (0 < r2)%Z -> 0 < d0 -> 0 < d1 -> 0 < d2 ->
  coarsen_cell3 false 4 r0 r1 r2 d0 d1 d2 (IZR r0 * d0) (IZR r1 * d1) (IZR r2 * d2) (fun i j k => lst4 (F i j k)) iq c0 c1 c2 =
  Some (iq, lst4 (quatnorm4 (mean4 r0 r1 r2 c0 c1 c2 F))).
Proof.
  intros. unfold coarsen_cell3. change (repeat 0 4) with [0; 0; 0; 0]. rewrite plain3_4. cbv beta zeta iota.
  cbn [map]. rewrite !weight_avg3 by auto. reflexivity.
Qed.
Lemma cell3_2 : forall F r0 r1 r2 d0 d1 d2 iq c0 c1 c2, (0 < r0)%Z -> (0 < r1)%Z -> (0 < r2)%Z -> 0 < d0 -> 0 < d1 -> 0 < d2 ->
  coarsen_cell3 false 2 r0 r1 r2 d0 d1 d2 (IZR r0 * d0) (IZR r1 * d1) (IZR r2 * d2) (fun i j k => lst2 (F i j k)) iq c0 c1 c2 =
  Some (iq, lst2 (quatnorm2 (mean2 r0 r1 r2 c0 c1 c2 F))).
Proof.
  intros. unfold coarsen_cell3. change (repeat 0 2) with [0; 0]. rewrite plain3_2. cbv beta zeta iota.
  cbn [map]. rewrite !weight_avg3 by auto. reflexivity.
Qed.
Lemma cell3_1 : forall F r0 r1 r2 d0 d1 d2 iq c0 c1 c2, (0 < r0)%Z -> (0 < r1)%Z -> (0 < r2)%Z -> 0 < d0 -> 0 < d1 -> 0 < d2 ->
  coarsen_cell3 false 1 r0 r1 r2 d0 d1 d2 (IZR r0 * d0) (IZR r1 * d1) (IZR r2 * d2) (fun i j k => [F i j k]) iq c0 c1 c2 =
  Some (iq, [average3 r0 r1 r2 c0 c1 c2 F]).
Proof.
  intros. unfold coarsen_cell3. change (repeat 0 1) with [0]. rewrite plain3_1.
  cbn [map]. rewrite !weight_avg3 by auto. reflexivity.
Qed.

Lemma box_map : forall symm depth r0 r1 r2 a0 a1 a2 b0 b1 b2 fine b coarse v,
  (forall i j k, coarsen_cell3 symm depth r0 r1 r2 a0 a1 a2 b0 b1 b2 fine 0 i j k = Some (0%Z, v i j k)) ->
  exists out, quatcoarsen3 symm depth r0 r1 r2 a0 a1 a2 b0 b1 b2 fine b coarse = Some out /\
    (forall i j k, within b i j k -> out i j k = v i j k) /\ (forall i j k, ~ within b i j k -> out i j k = coarse i j k).
Proof.
  intros symm depth r0 r1 r2 a0 a1 a2 b0 b1 b2 fine b coarse v H. unfold quatcoarsen3.
  destruct (run_cells_map _ (box_cells b) 0%Z v coarse H) as (f & E & V & O). exists f. rewrite E. split; [reflexivity |]. split.
  - intros i j k W. apply V, in_box_cells, W.
  - intros i j k W. apply O. intro I. apply W, in_box_cells, I.
Qed.

Lemma mean_quaternion : forall F r0 r1 r2 d0 d1 d2 b coarse, (0 < r0)%Z -> (0 < r1)%Z -> (0 < r2)%Z -> 0 < d0 -> 0 < d1 -> 0 < d2 ->
  exists out, quatcoarsen3 false 4 r0 r1 r2 d0 d1 d2 (IZR r0 * d0) (IZR r1 * d1) (IZR r2 * d2) (fun i j k => lst4 (F i j k)) b coarse = Some out /\
    (forall i j k, within b i j k -> exists p, out i j k = lst4 p /\ unit_along4 (mean4 r0 r1 r2 i j k F) p) /\
    (forall i j k, ~ within b i j k -> out i j k = coarse i j k).
Proof.
  intros F r0 r1 r2 d0 d1 d2 b coarse H0 H1 H2 P0 P1 P2.
  destruct (box_map false 4 r0 r1 r2 d0 d1 d2 (IZR r0 * d0) (IZR r1 * d1) (IZR r2 * d2) (fun i j k => lst4 (F i j k)) b coarse
    (fun i j k => lst4 (quatnorm4 (mean4 r0 r1 r2 i j k F)))) as (out & E & V & O); [intros; apply cell3_4; auto |].
  exists out. split; [exact E |]. split; [| exact O]. intros i j k W. rewrite (V i j k W). eexists. split; [reflexivity |].
  split; intro T; [apply norm4_unit; exact T | apply norm4_zero; exact T].
Qed.
Lemma mean_complex : forall F r0 r1 r2 d0 d1 d2 b coarse, (0 < r0)%Z -> (0 < r1)%Z -> (0 < r2)%Z -> 0 < d0 -> 0 < d1 -> 0 < d2 ->
  exists out, quatcoarsen3 false 2 r0 r1 r2 d0 d1 d2 (IZR r0 * d0) (IZR r1 * d1) (IZR r2 * d2) (fun i j k => lst2 (F i j k)) b coarse = Some out /\
    (forall i j k, within b i j k -> exists p, out i j k = lst2 p /\ unit_along2 (mean2 r0 r1 r2 i j k F) p) /\
    (forall i j k, ~ within b i j k -> out i j k = coarse i j k).
Proof.
  intros F r0 r1 r2 d0 d1 d2 b coarse H0 H1 H2 P0 P1 P2.
  destruct (box_map false 2 r0 r1 r2 d0 d1 d2 (IZR r0 * d0) (IZR r1 * d1) (IZR r2 * d2) (fun i j k => lst2 (F i j k)) b coarse
    (fun i j k => lst2 (quatnorm2 (mean2 r0 r1 r2 i j k F)))) as (out & E & V & O); [intros; apply cell3_2; auto |].
  exists out. split; [exact E |]. split; [| exact O]. intros i j k W. rewrite (V i j k W). eexists. split; [reflexivity |].
  split; intro T; [apply norm2_unit; exact T | apply norm2_zero; exact T].
Qed.
Lemma mean_angle : forall F r0 r1 r2 d0 d1 d2 b coarse, (0 < r0)%Z -> (0 < r1)%Z -> (0 < r2)%Z -> 0 < d0 -> 0 < d1 -> 0 < d2 ->
  exists out, quatcoarsen3 false 1 r0 r1 r2 d0 d1 d2 (IZR r0 * d0) (IZR r1 * d1) (IZR r2 * d2) (fun i j k => [F i j k]) b coarse = Some out /\
    (forall i j k, within b i j k -> out i j k = [average3 r0 r1 r2 i j k F]) /\
    (forall i j k, ~ within b i j k -> out i j k = coarse i j k).
Proof.
  intros F r0 r1 r2 d0 d1 d2 b coarse H0 H1 H2 P0 P1 P2.
  apply (box_map false 1 r0 r1 r2 d0 d1 d2 (IZR r0 * d0) (IZR r1 * d1) (IZR r2 * d2) (fun i j k => [F i j k]) b coarse
    (fun i j k => [average3 r0 r1 r2 i j k F])). intros. apply cell3_1; auto.
Qed.

Lemma average3_const : forall r0 r1 r2 c0 c1 c2 c, (0 < r0)%Z -> (0 < r1)%Z -> (0 < r2)%Z -> average3 r0 r1 r2 c0 c1 c2 (fun _ _ _ => c) = c.
Proof.
  intros r0 r1 r2 c0 c1 c2 c H0 H1 H2. unfold average3. rewrite !sumn_const.
  rewrite !INR_IZR_INZ, !Z2Nat.id by lia. apply IZR_lt in H0, H1, H2. field. lra.
Qed.
Lemma average3_ext : forall r0 r1 r2 c0 c1 c2 g h, (forall i j k, covered3 r0 r1 r2 c0 c1 c2 i j k -> g i j k = h i j k) ->
  average3 r0 r1 r2 c0 c1 c2 g = average3 r0 r1 r2 c0 c1 c2 h.
Proof.
  intros r0 r1 r2 c0 c1 c2 g h H. unfold average3. f_equal.
  apply sumn_ext. intros k Hk. apply sumn_ext. intros j Hj. apply sumn_ext. intros i Hi. apply H. unfold covered3. lia.
Qed.
(** a grain with one orientation keeps it, wherever its fine cells cover the coarse cell *)
Lemma uniform : forall F u r0 r1 r2 d0 d1 d2 b coarse, (0 < r0)%Z -> (0 < r1)%Z -> (0 < r2)%Z -> 0 < d0 -> 0 < d1 -> 0 < d2 -> unit4 u ->
  exists out, quatcoarsen3 false 4 r0 r1 r2 d0 d1 d2 (IZR r0 * d0) (IZR r1 * d1) (IZR r2 * d2) (fun i j k => lst4 (F i j k)) b coarse = Some out /\
    forall i j k, within b i j k -> (forall x y z, covered3 r0 r1 r2 i j k x y z -> F x y z = u) -> out i j k = lst4 u.
Proof.
  intros F u r0 r1 r2 d0 d1 d2 b coarse H0 H1 H2 P0 P1 P2 U.
  destruct (box_map false 4 r0 r1 r2 d0 d1 d2 (IZR r0 * d0) (IZR r1 * d1) (IZR r2 * d2) (fun i j k => lst4 (F i j k)) b coarse
    (fun i j k => lst4 (quatnorm4 (mean4 r0 r1 r2 i j k F)))) as (out & E & V & _); [intros; apply cell3_4; auto |].
  exists out. split; [exact E |]. intros i j k W C. rewrite (V i j k W). unfold mean4.
  assert (M : forall g : q4 -> R, average3 r0 r1 r2 i j k (fun x y z => g (F x y z)) = g u).
  { intro g. rewrite (average3_ext _ _ _ _ _ _ _ (fun _ _ _ => g u)) by (intros x y z I; rewrite (C x y z I); reflexivity). apply average3_const; auto. }
  rewrite !M. replace (Q4 (qa u) (qb u) (qc u) (qd u)) with u by (destruct u; reflexivity). rewrite norm4_of_unit by exact U. reflexivity.
Qed.
(** independence of all other fine cells, with or without symmetry, at any depth *)
Lemma loop3_ext : forall symm f g f0 f1 f2 w cells iq acc,
  (forall i j k, In (i, j, k) cells -> f (f0 + i)%Z (f1 + j)%Z (f2 + k)%Z = g (f0 + i)%Z (f1 + j)%Z (f2 + k)%Z) ->
  coarsen_loop3 symm f f0 f1 f2 w cells iq acc = coarsen_loop3 symm g f0 f1 f2 w cells iq acc.
Proof.
  intros symm f g f0 f1 f2 w cells. induction cells as [| [[i j] k] rest IH]; intros iq acc H; [reflexivity |].
  cbn [coarsen_loop3]. rewrite (H i j k (or_introl eq_refl)).
  assert (Hr : forall a b c, In (a, b, c) rest -> f (f0 + a)%Z (f1 + b)%Z (f2 + c)%Z = g (f0 + a)%Z (f1 + b)%Z (f2 + c)%Z) by (intros; apply H; right; auto).
  destruct symm; [| apply IH; auto]. destruct (_ && _)%bool; [apply IH; auto |].
  destruct (quatsymmrotate _ iq) as [[iq' q'] |]; [apply IH; auto | reflexivity].
Qed.
Lemma run_cells_ext : forall c c' cells iq f, (forall iq i j k, In (i, j, k) cells -> c iq i j k = c' iq i j k) ->
  run_cells c cells iq f = run_cells c' cells iq f.
Proof.
  intros c c' cells. induction cells as [| [[i j] k] rest IH]; intros iq f H; [reflexivity |]. cbn [run_cells].
  rewrite (H iq i j k (or_introl eq_refl)). destruct (c' iq i j k) as [[iq' q] |]; [| reflexivity]. apply IH. intros. apply H. right. auto.
Qed.
Lemma local : forall symm depth r0 r1 r2 a0 a1 a2 b0 b1 b2 f g b coarse,
  (forall c0 c1 c2 i j k, within b c0 c1 c2 -> covered3 r0 r1 r2 c0 c1 c2 i j k -> f i j k = g i j k) ->
  quatcoarsen3 symm depth r0 r1 r2 a0 a1 a2 b0 b1 b2 f b coarse = quatcoarsen3 symm depth r0 r1 r2 a0 a1 a2 b0 b1 b2 g b coarse.
Proof.
  intros symm depth r0 r1 r2 a0 a1 a2 b0 b1 b2 f g b coarse H. unfold quatcoarsen3. f_equal. apply run_cells_ext.
  intros iq c0 c1 c2 I. apply in_box_cells in I. unfold coarsen_cell3. rewrite (loop3_ext symm f g); [reflexivity |].
  intros i j k J. apply in_box_cells in J. unfold within in J. cbn in J. apply (H c0 c1 c2); [exact I |]. unfold covered3. lia.
Qed.

(** ** symmetry-aware transfer *)
Lemma symm3_stops : forall depth r0 r1 r2 a0 a1 a2 b0 b1 b2 fine b coarse,
  (0 < r0)%Z -> (0 < r1)%Z -> (0 < r2)%Z -> (1 < r0 * r1 * r2)%Z -> (exists i j k, within b i j k) ->
  quatcoarsen3 true depth r0 r1 r2 a0 a1 a2 b0 b1 b2 fine b coarse = None.
Proof.
  intros depth r0 r1 r2 a0 a1 a2 b0 b1 b2 fine b coarse H0 H1 H2 Hr (x & y & z & W). unfold quatcoarsen3.
  rewrite run_cells_stop; [reflexivity | | intro E; apply in_box_cells in W; rewrite E in W; destruct W].
  intros i j k. unfold coarsen_cell3.
  assert (L : forall cells acc, (exists c, In c cells /\ c <> (0, 0, 0)%Z) -> coarsen_loop3 true fine (i * r0) (j * r1) (k * r2) (a0 * a1 * a2) cells 0 acc = None).
  { intro cells. induction cells as [| [[a bb] c] rest IH]; intros acc (p & Hp & Hne); [destruct Hp |]. cbn [coarsen_loop3].
    destruct ((a =? 0) && (bb =? 0) && (c =? 0))%Z%bool eqn:E.
    - apply andb_true_iff in E. destruct E as [E E3]. apply andb_true_iff in E. destruct E as [E1 E2]. apply Z.eqb_eq in E1, E2, E3. subst.
      apply IH. exists p. split; [| exact Hne]. destruct Hp as [<- | Hp]; [contradiction | exact Hp].
    - rewrite rotate0. reflexivity. }
  rewrite L; [reflexivity |]. exists ((r0 - 1)%Z, (r1 - 1)%Z, (r2 - 1)%Z). split.
  - apply in_box_cells. unfold within. cbn. lia.
  - intro E. injection E as E0 E1 E2. assert (r0 = 1 /\ r1 = 1 /\ r2 = 1)%Z as (-> & -> & ->) by lia. lia.
Qed.
Lemma refine3_stops : forall r0 r1 r2 a b c d e f coarse i j k, refine_cell3 r0 r1 r2 a b c d e f coarse 0 i j k = None.
Proof.
  intros r0 r1 r2 a b c d e f coarse i j k. unfold refine_cell3.
  destruct (refine_index r2 k e f) as [[ic2 z] |]; [| reflexivity]. destruct (refine_index r1 j c d) as [[ic1 y] |]; [| reflexivity].
  destruct (refine_index r0 i a b) as [[ic0 x] |]; [| reflexivity]. cbn [rotate_all]. rewrite rotate0. reflexivity.
Qed.
Lemma refine_box_spec : forall nd3 s coarse b fine, refine_box nd3 s coarse b fine = match box_cells b with [] => Some fine | _ => None end.
Proof.
  intros nd3 s coarse b fine. unfold refine_box. cbv zeta. destruct (box_cells b) as [| c rest] eqn:E; [reflexivity |].
  rewrite run_cells_stop; [reflexivity | | discriminate]. intros i j k. destruct nd3; [apply refine3_stops | apply refine_stops].
Qed.
Lemma cut_cells : forall nd3 b, box_cells (cut_upper nd3 b) <> [] <-> thick nd3 b.
Proof.
  intros nd3 b. split.
  - intro N. destruct (box_cells (cut_upper nd3 b)) as [| [[i j] k] rest] eqn:E; [contradiction |].
    assert (W : within (cut_upper nd3 b) i j k) by (apply in_box_cells; rewrite E; left; reflexivity).
    unfold within in W. unfold thick. cbn in W. destruct nd3; lia.
  - intros T E. assert (I : In (lo0 b, lo1 b, lo2 b) (box_cells (cut_upper nd3 b))).
    { apply in_box_cells. unfold thick in T. unfold within. cbn. destruct nd3; lia. }
    rewrite E in I. destruct I.
Qed.
(** a refinement of an overlap either stops the run or leaves the fine field as it was *)
Lemma refinement : forall nd3 s coarse boxes fine,
  (Exists (thick nd3) boxes -> refine nd3 s coarse boxes fine = None) /\
  (Forall (fun b => ~ thick nd3 b) boxes -> refine nd3 s coarse boxes fine = Some fine).
Proof.
  intros nd3 s coarse boxes fine. induction boxes as [| b rest (IE & IF)].
  - split; [intro H; inversion H | reflexivity].
  - cbn [refine]. rewrite refine_box_spec. pose proof (cut_cells nd3 b) as C. destruct (box_cells (cut_upper nd3 b)) as [| c l].
    + split; intro H.
      * inversion H as [x y T | x y T]; subst; [apply C in T; contradiction | apply IE; exact T].
      * inversion H; subst. apply IF. assumption.
    + split; [reflexivity |]. intro H. inversion H as [| x y N]; subst. exfalso. apply N. apply C. discriminate.
Qed.
