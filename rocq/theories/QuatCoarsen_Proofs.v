From Coq Require Import Reals ZArith List Lra Lia Psatz Bool.
From Verif Require Import Quat_Model Quat_Spec Quat_Proofs QuatCoarsen_Model QuatCoarsen_Spec.
Import ListNotations.
Open Scope R_scope.

(** ** sums *)
Definition lsum (l : list R) : R := fold_right Rplus 0 l.
Lemma lsum_app : forall l m, lsum (l ++ m) = lsum l + lsum m.
Proof. intros l m. unfold lsum. induction l as [| x l IH]; cbn; [ring | rewrite IH; ring]. Qed.
Lemma lsum_seq : forall n g, lsum (map (fun k => g (Z.of_nat k)) (seq 0 n)) = sumn n g.
Proof.
  intros n g. induction n as [| n IH]; [reflexivity |].
  rewrite seq_S, map_app, lsum_app, IH. cbn. ring.
Qed.
Lemma sumn_ext : forall n g h, (forall k, (0 <= k < Z.of_nat n)%Z -> g k = h k) -> sumn n g = sumn n h.
Proof.
  intros n g h. induction n as [| n IH]; intro H; [reflexivity |].
  cbn [sumn]. rewrite IH by (intros k Hk; apply H; lia). rewrite (H (Z.of_nat n)) by lia. reflexivity.
Qed.
Lemma sumn_const : forall n c, sumn n (fun _ => c) = INR n * c.
Proof.
  intros n c. induction n as [| n IH]; [cbn; ring |]. cbn [sumn]. rewrite IH, S_INR. ring.
Qed.
Lemma sumn_scale : forall n c g, sumn n (fun k => c * g k) = c * sumn n g.
Proof. intros n c g. induction n as [| n IH]; cbn [sumn]; [ring | rewrite IH; ring]. Qed.

Lemma lsum_sub_cells : forall r0 r1 g,
  lsum (map (fun c => g (fst c) (snd c)) (sub_cells r0 r1)) =
  sumn (Z.to_nat r1) (fun j => sumn (Z.to_nat r0) (fun i => g i j)).
Proof.
  intros r0 r1 g. unfold sub_cells. rewrite <- lsum_seq.
  generalize (seq 0 (Z.to_nat r1)) as l. induction l as [| ir1 l IH]; [reflexivity |].
  cbn [flat_map map]. rewrite map_app, lsum_app, IH, map_map.
  change (lsum (map (fun x : nat => g (Z.of_nat x) (Z.of_nat ir1)) (seq 0 (Z.to_nat r0))) +
    lsum (map (fun k : nat => sumn (Z.to_nat r0) (fun i : Z => g i (Z.of_nat k))) l) =
    sumn (Z.to_nat r0) (fun i : Z => g i (Z.of_nat ir1)) +
    lsum (map (fun k : nat => sumn (Z.to_nat r0) (fun i : Z => g i (Z.of_nat k))) l)).
  rewrite (lsum_seq (Z.to_nat r0) (fun i => g i (Z.of_nat ir1))). reflexivity.
Qed.

(** ** plain coarsening *)
Lemma cons_eq : forall (x y : R) l m, x = y -> l = m -> x :: l = y :: m.
Proof. intros x y l m -> ->. reflexivity. Qed.

Lemma plain_loop4 : forall (F : Z -> Z -> q4) f0 f1 w cells iq a b c d,
  coarsen_loop false (fun i j => lst4 (F i j)) f0 f1 w cells iq [a; b; c; d] =
  let g k := lsum (map (fun p => k (F (f0 + fst p)%Z (f1 + snd p)%Z) * w) cells) in
  Some (iq, [a + g qa; b + g qb; c + g qc; d + g qd]).
Proof.
  intros F f0 f1 w cells iq. induction cells as [| [i j] rest IH]; intros a b c d; cbv zeta.
  - cbn. rewrite !Rplus_0_r. reflexivity.
  - cbn [coarsen_loop lst4 accum]. rewrite IH. cbv zeta. cbn [map fst snd lsum fold_right].
    unfold lsum. apply f_equal, f_equal. repeat apply cons_eq; try reflexivity; ring.
Qed.
Lemma plain_loop2 : forall (F : Z -> Z -> q2) f0 f1 w cells iq a b,
  coarsen_loop false (fun i j => lst2 (F i j)) f0 f1 w cells iq [a; b] =
  let g k := lsum (map (fun p => k (F (f0 + fst p)%Z (f1 + snd p)%Z) * w) cells) in
  Some (iq, [a + g ca; b + g cb]).
Proof.
  intros F f0 f1 w cells iq. induction cells as [| [i j] rest IH]; intros a b; cbv zeta.
  - cbn. rewrite !Rplus_0_r. reflexivity.
  - cbn [coarsen_loop lst2 accum]. rewrite IH. cbv zeta. cbn [map fst snd lsum fold_right].
    unfold lsum. apply f_equal, f_equal. repeat apply cons_eq; try reflexivity; ring.
Qed.
Lemma plain_loop1 : forall (F : Z -> Z -> R) f0 f1 w cells iq a,
  coarsen_loop false (fun i j => [F i j]) f0 f1 w cells iq [a] =
  Some (iq, [a + lsum (map (fun p => F (f0 + fst p)%Z (f1 + snd p)%Z * w) cells)]).
Proof.
  intros F f0 f1 w cells iq. induction cells as [| [i j] rest IH]; intros a.
  - cbn. rewrite !Rplus_0_r. reflexivity.
  - cbn [coarsen_loop accum]. rewrite IH. cbn [map fst snd lsum fold_right].
    unfold lsum. apply f_equal, f_equal. repeat apply cons_eq; try reflexivity; ring.
Qed.

Lemma lsum_scale : forall A (h : A -> R) w l, lsum (map (fun p => h p * w) l) = lsum (map h l) * w.
Proof. intros A h w l. unfold lsum. induction l as [| x l IH]; cbn; [ring | rewrite IH; ring]. Qed.

Lemma cell_sum : forall r0 r1 ic0 ic1 (g : Z -> Z -> R),
  lsum (map (fun p => g (ic0 * r0 + fst p)%Z (ic1 * r1 + snd p)%Z) (sub_cells r0 r1)) = sum_covered r0 r1 ic0 ic1 g.
Proof.
  intros r0 r1 ic0 ic1 g.
  rewrite (lsum_sub_cells r0 r1 (fun i j => g (ic0 * r0 + i)%Z (ic1 * r1 + j)%Z)). reflexivity.
Qed.

Lemma weight_avg : forall r0 r1 dxf0 dxf1 s, (0 < r0)%Z -> (0 < r1)%Z -> 0 < dxf0 -> 0 < dxf1 ->
  (0 + s * (dxf0 * dxf1)) * (1 / (IZR r0 * dxf0 * (IZR r1 * dxf1))) = s / (IZR r0 * IZR r1).
Proof.
  intros r0 r1 dxf0 dxf1 s H0 H1 Hf0 Hf1. apply IZR_lt in H0, H1. field. repeat split; lra.
Qed.

Lemma coarsen_cell4 : forall F r0 r1 dxf0 dxf1 iq ic0 ic1,
  (0 < r0)%Z -> (0 < r1)%Z -> 0 < dxf0 -> 0 < dxf1 ->
  coarsen_cell false 4 r0 r1 dxf0 dxf1 (IZR r0 * dxf0) (IZR r1 * dxf1) (fun i j => lst4 (F i j)) iq ic0 ic1 =
  Some (iq, lst4 (quatnorm4 (Q4 (average r0 r1 ic0 ic1 (fun i j => qa (F i j)))
                                (average r0 r1 ic0 ic1 (fun i j => qb (F i j)))
                                (average r0 r1 ic0 ic1 (fun i j => qc (F i j)))
                                (average r0 r1 ic0 ic1 (fun i j => qd (F i j)))))).
Proof.
  intros F r0 r1 dxf0 dxf1 iq ic0 ic1 H0 H1 Hf0 Hf1. unfold coarsen_cell.
  change (repeat 0 4) with [0; 0; 0; 0]. rewrite plain_loop4. cbv beta zeta iota.
  rewrite (lsum_scale _ (fun p => qa (F (ic0 * r0 + fst p)%Z (ic1 * r1 + snd p)%Z))).
  rewrite (lsum_scale _ (fun p => qb (F (ic0 * r0 + fst p)%Z (ic1 * r1 + snd p)%Z))).
  rewrite (lsum_scale _ (fun p => qc (F (ic0 * r0 + fst p)%Z (ic1 * r1 + snd p)%Z))).
  rewrite (lsum_scale _ (fun p => qd (F (ic0 * r0 + fst p)%Z (ic1 * r1 + snd p)%Z))).
  rewrite (cell_sum r0 r1 ic0 ic1 (fun i j => qa (F i j))), (cell_sum r0 r1 ic0 ic1 (fun i j => qb (F i j))),
    (cell_sum r0 r1 ic0 ic1 (fun i j => qc (F i j))), (cell_sum r0 r1 ic0 ic1 (fun i j => qd (F i j))).
  cbn [map quatnorm]. rewrite !weight_avg by auto. reflexivity.
Qed.
Lemma coarsen_cell2 : forall F r0 r1 dxf0 dxf1 iq ic0 ic1,
  (0 < r0)%Z -> (0 < r1)%Z -> 0 < dxf0 -> 0 < dxf1 ->
  coarsen_cell false 2 r0 r1 dxf0 dxf1 (IZR r0 * dxf0) (IZR r1 * dxf1) (fun i j => lst2 (F i j)) iq ic0 ic1 =
  Some (iq, lst2 (quatnorm2 (Q2 (average r0 r1 ic0 ic1 (fun i j => ca (F i j)))
                                (average r0 r1 ic0 ic1 (fun i j => cb (F i j)))))).
Proof.
  intros F r0 r1 dxf0 dxf1 iq ic0 ic1 H0 H1 Hf0 Hf1. unfold coarsen_cell.
  change (repeat 0 2) with [0; 0]. rewrite plain_loop2. cbv beta zeta iota.
  rewrite (lsum_scale _ (fun p => ca (F (ic0 * r0 + fst p)%Z (ic1 * r1 + snd p)%Z))).
  rewrite (lsum_scale _ (fun p => cb (F (ic0 * r0 + fst p)%Z (ic1 * r1 + snd p)%Z))).
  rewrite (cell_sum r0 r1 ic0 ic1 (fun i j => ca (F i j))), (cell_sum r0 r1 ic0 ic1 (fun i j => cb (F i j))).
  cbn [map quatnorm]. rewrite !weight_avg by auto. reflexivity.
Qed.
Lemma coarsen_cell1 : forall F r0 r1 dxf0 dxf1 iq ic0 ic1,
  (0 < r0)%Z -> (0 < r1)%Z -> 0 < dxf0 -> 0 < dxf1 ->
  coarsen_cell false 1 r0 r1 dxf0 dxf1 (IZR r0 * dxf0) (IZR r1 * dxf1) (fun i j => [F i j]) iq ic0 ic1 =
  Some (iq, [average r0 r1 ic0 ic1 F]).
Proof.
  intros F r0 r1 dxf0 dxf1 iq ic0 ic1 H0 H1 Hf0 Hf1. unfold coarsen_cell.
  change (repeat 0 1) with [0]. rewrite plain_loop1.
  rewrite (lsum_scale _ (fun p => F (ic0 * r0 + fst p)%Z (ic1 * r1 + snd p)%Z)).
  rewrite (cell_sum r0 r1 ic0 ic1 F).
  cbn [map quatnorm]. rewrite weight_avg by auto. reflexivity.
Qed.

Lemma cells_map : forall symm depth r0 r1 a b c d fine v cells iq,
  (forall i0 i1, coarsen_cell symm depth r0 r1 a b c d fine iq i0 i1 = Some (iq, v i0 i1)) ->
  coarsen_cells symm depth r0 r1 a b c d fine iq cells = Some (map (fun p => v (fst p) (snd p)) cells).
Proof.
  intros symm depth r0 r1 a b c d fine v cells iq H. induction cells as [| [i0 i1] rest IH]; [reflexivity |].
  cbn [coarsen_cells]. rewrite H, IH. reflexivity.
Qed.

Lemma quatcoarsen4 : forall F r0 r1 dxf0 dxf1 cells,
  (0 < r0)%Z -> (0 < r1)%Z -> 0 < dxf0 -> 0 < dxf1 ->
  exists out, quatcoarsen false 4 r0 r1 dxf0 dxf1 (IZR r0 * dxf0) (IZR r1 * dxf1) (fun i j => lst4 (F i j)) cells =
    Some (map (fun c => lst4 (out (fst c) (snd c))) cells) /\
  forall ic0 ic1,
    let avg := Q4 (average r0 r1 ic0 ic1 (fun i j => qa (F i j))) (average r0 r1 ic0 ic1 (fun i j => qb (F i j)))
                  (average r0 r1 ic0 ic1 (fun i j => qc (F i j))) (average r0 r1 ic0 ic1 (fun i j => qd (F i j))) in
    (tiny <= quatmagn4 avg -> exists s, 0 < s /\ out ic0 ic1 = scale4 s avg /\ unit4 (out ic0 ic1)) /\
    (quatmagn4 avg < tiny -> out ic0 ic1 = Q4 0 0 0 0).
Proof.
  intros F r0 r1 dxf0 dxf1 cells H0 H1 Hf0 Hf1.
  exists (fun ic0 ic1 => quatnorm4 (Q4 (average r0 r1 ic0 ic1 (fun i j => qa (F i j))) (average r0 r1 ic0 ic1 (fun i j => qb (F i j)))
                  (average r0 r1 ic0 ic1 (fun i j => qc (F i j))) (average r0 r1 ic0 ic1 (fun i j => qd (F i j))))).
  split.
  - unfold quatcoarsen. apply (cells_map _ _ _ _ _ _ _ _ _ (fun ic0 ic1 => lst4 (quatnorm4 (Q4 (average r0 r1 ic0 ic1 (fun i j => qa (F i j))) (average r0 r1 ic0 ic1 (fun i j => qb (F i j)))
                  (average r0 r1 ic0 ic1 (fun i j => qc (F i j))) (average r0 r1 ic0 ic1 (fun i j => qd (F i j))))))).
    intros i0 i1. apply coarsen_cell4; auto.
  - intros ic0 ic1. cbv zeta. split; intro H; [apply norm4_unit; auto | apply norm4_zero; auto].
Qed.

Lemma quatcoarsen2 : forall F r0 r1 dxf0 dxf1 cells,
  (0 < r0)%Z -> (0 < r1)%Z -> 0 < dxf0 -> 0 < dxf1 ->
  exists out, quatcoarsen false 2 r0 r1 dxf0 dxf1 (IZR r0 * dxf0) (IZR r1 * dxf1) (fun i j => lst2 (F i j)) cells =
    Some (map (fun c => lst2 (out (fst c) (snd c))) cells) /\
  forall ic0 ic1,
    let avg := Q2 (average r0 r1 ic0 ic1 (fun i j => ca (F i j))) (average r0 r1 ic0 ic1 (fun i j => cb (F i j))) in
    (tiny <= quatmagn2 avg -> exists s, 0 < s /\ out ic0 ic1 = scale2 s avg /\ unit2 (out ic0 ic1)) /\
    (quatmagn2 avg < tiny -> out ic0 ic1 = Q2 0 0).
Proof.
  intros F r0 r1 dxf0 dxf1 cells H0 H1 Hf0 Hf1.
  exists (fun ic0 ic1 => quatnorm2 (Q2 (average r0 r1 ic0 ic1 (fun i j => ca (F i j))) (average r0 r1 ic0 ic1 (fun i j => cb (F i j))))).
  split.
  - unfold quatcoarsen. apply (cells_map _ _ _ _ _ _ _ _ _ (fun ic0 ic1 => lst2 (quatnorm2 (Q2 (average r0 r1 ic0 ic1 (fun i j => ca (F i j))) (average r0 r1 ic0 ic1 (fun i j => cb (F i j))))))).
    intros i0 i1. apply coarsen_cell2; auto.
  - intros ic0 ic1. cbv zeta. split; intro H; [apply norm2_unit; auto | apply norm2_zero; auto].
Qed.
Lemma quatcoarsen1 : forall F r0 r1 dxf0 dxf1 cells,
  (0 < r0)%Z -> (0 < r1)%Z -> 0 < dxf0 -> 0 < dxf1 ->
  quatcoarsen false 1 r0 r1 dxf0 dxf1 (IZR r0 * dxf0) (IZR r1 * dxf1) (fun i j => [F i j]) cells =
    Some (map (fun c => [average r0 r1 (fst c) (snd c) F]) cells).
Proof.
  intros F r0 r1 dxf0 dxf1 cells H0 H1 Hf0 Hf1.
  unfold quatcoarsen. apply (cells_map _ _ _ _ _ _ _ _ _ (fun i j => [average r0 r1 i j F])).
  intros i0 i1. apply coarsen_cell1; auto.
Qed.

Lemma average_const : forall r0 r1 ic0 ic1 c, (0 < r0)%Z -> (0 < r1)%Z ->
  average r0 r1 ic0 ic1 (fun _ _ => c) = c.
Proof.
  intros r0 r1 ic0 ic1 c H0 H1. unfold average, sum_covered. rewrite !sumn_const.
  rewrite !INR_IZR_INZ, !Z2Nat.id by lia. apply IZR_lt in H0, H1. field. lra.
Qed.
Lemma average_ext : forall r0 r1 ic0 ic1 g h,
  (forall i j, covered r0 r1 ic0 ic1 i j -> g i j = h i j) -> average r0 r1 ic0 ic1 g = average r0 r1 ic0 ic1 h.
Proof.
  intros r0 r1 ic0 ic1 g h H. unfold average, sum_covered. f_equal.
  apply sumn_ext. intros j Hj. apply sumn_ext. intros i Hi. apply H. unfold covered. lia.
Qed.

Lemma coarsen_constant : forall u r0 r1 dxf0 dxf1 cells, unit4 u ->
  (0 < r0)%Z -> (0 < r1)%Z -> 0 < dxf0 -> 0 < dxf1 ->
  quatcoarsen false 4 r0 r1 dxf0 dxf1 (IZR r0 * dxf0) (IZR r1 * dxf1) (fun _ _ => lst4 u) cells =
    Some (map (fun _ => lst4 u) cells).
Proof.
  intros u r0 r1 dxf0 dxf1 cells Hu H0 H1 Hf0 Hf1.
  unfold quatcoarsen. rewrite (cells_map _ _ _ _ _ _ _ _ _ (fun _ _ => lst4 u)); [reflexivity |].
  intros i0 i1. rewrite (coarsen_cell4 (fun _ _ => u)) by auto. rewrite !average_const by auto.
  replace (Q4 (qa u) (qb u) (qc u) (qd u)) with u by (destruct u; reflexivity).
  rewrite norm4_of_unit by auto. reflexivity.
Qed.

(** the result in a cell is determined by the fine cells it covers *)
Lemma coarsen_loop_ext : forall symm f g f0 f1 w cells iq acc,
  (forall c, In c cells -> f (f0 + fst c)%Z (f1 + snd c)%Z = g (f0 + fst c)%Z (f1 + snd c)%Z) ->
  coarsen_loop symm f f0 f1 w cells iq acc = coarsen_loop symm g f0 f1 w cells iq acc.
Proof.
  intros symm f g f0 f1 w cells. induction cells as [| [i j] rest IH]; intros iq acc H; [reflexivity |].
  cbn [coarsen_loop]. pose proof (H (i, j) (or_introl eq_refl)) as E. cbn [fst snd] in E. rewrite E.
  assert (Hr : forall c, In c rest -> f (f0 + fst c)%Z (f1 + snd c)%Z = g (f0 + fst c)%Z (f1 + snd c)%Z)
    by (intros c Hc; apply H; right; auto).
  destruct symm; [| apply IH; auto]. destruct ((j =? 0) && (i =? 0))%Z; [apply IH; auto |].
  destruct (quatsymmrotate _ iq) as [[iq' q'] |]; [apply IH; auto | reflexivity].
Qed.
Lemma in_sub_cells : forall r0 r1 c, In c (sub_cells r0 r1) -> (0 <= fst c < r0 /\ 0 <= snd c < r1)%Z.
Proof.
  intros r0 r1 c H. unfold sub_cells in H. apply in_flat_map in H. destruct H as (j & Hj & H).
  apply in_map_iff in H. destruct H as (i & <- & Hi). apply in_seq in Hi, Hj. cbn. lia.
Qed.
Lemma coarsen_local : forall symm depth r0 r1 a b c d f g iq ic0 ic1,
  (forall i j, covered r0 r1 ic0 ic1 i j -> f i j = g i j) ->
  coarsen_cell symm depth r0 r1 a b c d f iq ic0 ic1 = coarsen_cell symm depth r0 r1 a b c d g iq ic0 ic1.
Proof.
  intros symm depth r0 r1 a b c d f g iq ic0 ic1 H. unfold coarsen_cell.
  rewrite (coarsen_loop_ext symm f g); [reflexivity |].
  intros p Hp. apply in_sub_cells in Hp. apply H. unfold covered. lia.
Qed.

(** ** symmetry-aware transfer always stops *)
Lemma rotate0 : forall q, quatsymmrotate q 0 = None.
Proof.
  intro q. destruct q as [| a [| b [| c [| d [| e l]]]]]; reflexivity.
Qed.

Lemma symm_loop_stops : forall fine f0 f1 w cells acc,
  (exists c, In c cells /\ c <> (0, 0)%Z) -> coarsen_loop true fine f0 f1 w cells 0 acc = None.
Proof.
  intros fine f0 f1 w cells. induction cells as [| [i j] rest IH]; intros acc (c & Hc & Hne); [destruct Hc |].
  cbn [coarsen_loop]. destruct ((j =? 0) && (i =? 0))%Z eqn:E.
  - apply andb_true_iff in E. destruct E as [E1 E2]. apply Z.eqb_eq in E1, E2. subst.
    apply IH. exists c. split; [| auto]. destruct Hc as [<- | Hc]; [contradiction | auto].
  - rewrite rotate0. reflexivity.
Qed.

Lemma symm_coarsen_stops : forall depth r0 r1 a b c d fine cells,
  (0 < r0)%Z -> (0 < r1)%Z -> (1 < r0 * r1)%Z -> cells <> [] ->
  quatcoarsen true depth r0 r1 a b c d fine cells = None.
Proof.
  intros depth r0 r1 a b c d fine cells H0 H1 Hr Hne. unfold quatcoarsen.
  destruct cells as [| [i j] rest]; [contradiction |]. cbn [coarsen_cells]. unfold coarsen_cell.
  rewrite symm_loop_stops; [reflexivity |].
  exists ((r0 - 1)%Z, (r1 - 1)%Z). split.
  - unfold sub_cells. apply in_flat_map. exists (Z.to_nat (r1 - 1)). split; [apply in_seq; lia |].
    apply in_map_iff. exists (Z.to_nat (r0 - 1)). split; [f_equal; lia | apply in_seq; lia].
  - intro E. injection E as E1 E2. nia.
Qed.

Lemma refine_stops : forall r0 r1 a b c d coarse if0 if1,
  refine_cell r0 r1 a b c d coarse 0 if0 if1 = None.
Proof.
  intros r0 r1 a b c d coarse if0 if1. unfold refine_cell.
  destruct (refine_index r1 if1 c d) as [[ic1 y] |]; [| reflexivity].
  destruct (refine_index r0 if0 a b) as [[ic0 x] |]; [| reflexivity].
  rewrite rotate0. reflexivity.
Qed.

(** ** linear refinement index and weight *)
Lemma coarse_index : forall r i, (0 < r)%Z ->
  (if i <? 0 then Z.quot (i + 1) r - 1 else Z.quot i r)%Z = (i / r)%Z.
Proof.
  intros r i Hr. destruct (i <? 0)%Z eqn:E.
  - apply Z.ltb_lt in E.
    assert (Hq : Z.quot (i + 1) r = (- ((- (i + 1)) / r))%Z).
    { rewrite <- (Z.opp_involutive (i + 1)) at 1. rewrite Z.quot_opp_l by lia. rewrite Z.quot_div_nonneg by lia. reflexivity. }
    rewrite Hq. set (m := (- (i + 1))%Z).
    pose proof (Z.div_mod m r ltac:(lia)) as Em. pose proof (Z.mod_pos_bound m r Hr) as Bm.
    apply Z.div_unique with (r := (r - 1 - m mod r)%Z); [lia |]. unfold m in *. nia.
  - apply Z.ltb_ge in E. apply Z.quot_div_nonneg; lia.
Qed.

Lemma refine_index_ok : forall r i dxf, (1 <= r <= 16)%Z -> 0 < dxf ->
  exists ic x, refine_index r i (IZR r * dxf) dxf = Some (ic, x) /\ 0 <= x < 1 /\
    (IZR i + / 2) * dxf = (IZR ic + / 2 + x) * (IZR r * dxf).
Proof.
  intros r i dxf Hr Hf. unfold refine_index.
  destruct (16 <? r)%Z eqn:E; [apply Z.ltb_lt in E; lia |]. clear E.
  rewrite coarse_index by lia.
  pose proof (Z.div_mod i r ltac:(lia)) as Em. pose proof (Z.mod_pos_bound i r ltac:(lia)) as Bm.
  set (ic := (i / r)%Z) in *.
  assert (Eir : (i - ic * r)%Z = (i mod r)%Z) by lia. rewrite Eir.
  set (ir := (i mod r)%Z) in *.
  assert (HR : 1 <= IZR r) by (apply IZR_le; lia).
  assert (Hir : 0 <= IZR ir <= IZR r - 1).
  { split; [apply IZR_le; lia |]. rewrite <- minus_IZR. apply IZR_le; lia. }
  assert (Ei : IZR i = IZR r * IZR ic + IZR ir) by (rewrite <- mult_IZR, <- plus_IZR; f_equal; lia).
  set (x := ((IZR ir + / 2) * dxf - IZR r * dxf * / 2) / (IZR r * dxf)).
  assert (Ex : x = (IZR ir + / 2) / IZR r - / 2) by (unfold x; field; lra).
  assert (Hx : - / 2 < x < / 2).
  { rewrite Ex.
    assert (0 < (IZR ir + / 2) / IZR r) by (apply Rdiv_lt_0_compat; lra).
    assert ((IZR ir + / 2) / IZR r < 1).
    { apply Rmult_lt_reg_r with (IZR r); [lra |]. unfold Rdiv. rewrite Rmult_assoc, Rinv_l by lra. lra. }
    lra. }
  assert (Exr : x * IZR r = IZR ir + / 2 - IZR r * / 2) by (rewrite Ex; field; lra).
  destruct (Rlt_dec x 0) as [Hn | Hn].
  - exists (ic - 1)%Z, (x + 1). split; [reflexivity |]. split; [lra |].
    rewrite minus_IZR, Ei.
    replace ((IZR ic - 1 + / 2 + (x + 1)) * (IZR r * dxf)) with ((IZR ic * IZR r + / 2 * IZR r + x * IZR r) * dxf) by ring.
    rewrite Exr. field.
  - exists ic, x. split; [reflexivity |]. split; [lra |]. rewrite Ei.
    replace ((IZR ic + / 2 + x) * (IZR r * dxf)) with ((IZR ic * IZR r + / 2 * IZR r + x * IZR r) * dxf) by ring.
    rewrite Exr. field.
Qed.

Lemma refine_affine : forall r i dxf a b, (1 <= r <= 16)%Z -> 0 < dxf ->
  exists ic x, refine_index r i (IZR r * dxf) dxf = Some (ic, x) /\
    let g k := a + b * ((IZR k + / 2) * (IZR r * dxf)) in
    g ic + (g (ic + 1)%Z - g ic) * x = a + b * ((IZR i + / 2) * dxf).
Proof.
  intros r i dxf a b Hr Hf. destruct (refine_index_ok r i dxf Hr Hf) as (ic & x & E & _ & Hp).
  exists ic, x. split; [exact E |]. cbv zeta. rewrite Hp, plus_IZR. ring.
Qed.
