(** Proofs about Cahn-Hilliard and sintering runs in three dimensions. *)
From Coq Require Import Reals ZArith List Bool Lia Lra FunctionalExtensionality.
From Verif Require Import Grid_Model Grid_Spec Grid_Proofs Transport_Model Transport_Spec Trap3_Model Trap3_Spec Sinter3_Model Sinter3_Spec.
From Verif Require PhaseFlow_Model PhaseFlow_Spec PhaseFlow_Proofs Flow3_Model Transport_Proofs Trap3_Proofs QuatFlow3_Proofs Sintering_Model Sintering_Spec Sintering_Proofs.
Open Scope R_scope.
Set Bullet Behavior "Strict Subproofs".

Notation filled1 := PhaseFlow_Spec.filled1.
Notation extended1 := Sintering_Spec.extended1.
Notation row_flux_ok := Sintering_Proofs.row_flux_ok.
Notation sumZ_deriv := Sintering_Proofs.sumZ_deriv.
Notation wrap := Sintering_Proofs.wrap.
Notation wang_slope := Sintering_Proofs.wang_slope.
Notation nonincreasing := Sintering_Proofs.nonincreasing.

(** * Sums over the box *)
Lemma cells_ext : forall b f g, (forall i j k, in_cells3 b i j k -> f i j k = g i j k) -> sum_cells3 b f = sum_cells3 b g.
Proof. intros. apply sum_box3_ext. auto. Qed.
Lemma cells_plus : forall b f g, sum_cells3 b (fun i j k => f i j k + g i j k) = sum_cells3 b f + sum_cells3 b g.
Proof. intros. apply sum_box3_plus. Qed.
Lemma cells_scal : forall b c f, sum_cells3 b (fun i j k => c * f i j k) = c * sum_cells3 b f.
Proof. intros. apply sum_box3_scal. Qed.
Lemma cells_deriv : forall b (f : R -> arr3) (d : arr3) t,
  (forall i j k, in_cells3 b i j k -> derivable_pt_lim (fun s => f s i j k) t (d i j k)) ->
  derivable_pt_lim (fun s => sum_cells3 b (f s)) t (sum_cells3 b d).
Proof.
  intros b f d t H. unfold sum_cells3, sum_box3.
  apply (sumZ_deriv _ _ (fun s k => sumZ (yl b) (yu b) (fun j => sumZ (xl b) (xu b) (fun i => f s i j k)))). intros k Hk.
  apply (sumZ_deriv _ _ (fun s j => sumZ (xl b) (xu b) (fun i => f s i j k))). intros j Hj.
  apply (sumZ_deriv _ _ (fun s i => f s i j k)). intros i Hi. apply H. unfold in_cells3, in_box3. lia.
Qed.
Lemma cells_nonneg : forall b f, (forall i j k, in_cells3 b i j k -> 0 <= f i j k) -> 0 <= sum_cells3 b f.
Proof.
  intros b f H. unfold sum_cells3, sum_box3.
  assert (N : forall lo hi g, (forall i, (lo <= i <= hi)%Z -> 0 <= g i) -> 0 <= sumZ lo hi g).
  { clear. intros lo hi g H. pose proof (Sintering_Proofs.sumZ_nonpos lo hi (fun i => - g i)) as Q. rewrite sumZ_opp in Q.
    assert (- sumZ lo hi g <= 0) by (apply Q; intros i Hi; specialize (H i Hi); lra). lra. }
  apply N. intros k Hk. apply N. intros j Hj. apply N. intros i Hi. apply H. unfold in_cells3, in_box3. lia.
Qed.
Lemma cells_sumZ : forall b n (g : Z -> Z -> Z -> Z -> R),
  sum_cells3 b (fun i j k => sumZ 1 n (fun q => g i j k q)) = sumZ 1 n (fun q => sum_cells3 b (fun i j k => g i j k q)).
Proof.
  intros b n g. unfold sum_cells3, sum_box3. symmetry.
  rewrite (sumZ_swap (zl b) (zu b) 1 n (fun k q => sumZ (yl b) (yu b) (fun j => sumZ (xl b) (xu b) (fun i => g i j k q)))).
  apply sumZ_ext. intros k _. rewrite (sumZ_swap (yl b) (yu b) 1 n (fun j q => sumZ (xl b) (xu b) (fun i => g i j k q))).
  apply sumZ_ext. intros j _. apply (sumZ_swap (xl b) (xu b) 1 n (fun i q => g i j k q)).
Qed.

(** * Summation by parts *)
Definition filled3 (cx cy cz : bc) (b : box3) (u : arr3) : Prop :=
  (forall j k, (yl b <= j <= yu b)%Z -> (zl b <= k <= zu b)%Z -> filled1 cx (xl b) (xu b) (fun i => u i j k)) /\
  (forall i k, (xl b <= i <= xu b)%Z -> (zl b <= k <= zu b)%Z -> filled1 cy (yl b) (yu b) (fun j => u i j k)) /\
  (forall i j, (xl b <= i <= xu b)%Z -> (yl b <= j <= yu b)%Z -> filled1 cz (zl b) (zu b) (fun k => u i j k)).
Definition flux_ok3 (cx cy cz : bc) (b : box3) (f : arr3x3) : Prop :=
  (forall j k, (yl b <= j <= yu b)%Z -> (zl b <= k <= zu b)%Z -> row_flux_ok cx (xl b) (xu b) (fun i => flux0 f i j k)) /\
  (forall i k, (xl b <= i <= xu b)%Z -> (zl b <= k <= zu b)%Z -> row_flux_ok cy (yl b) (yu b) (fun j => flux1 f i j k)) /\
  (forall i j, (xl b <= i <= xu b)%Z -> (yl b <= j <= yu b)%Z -> row_flux_ok cz (zl b) (zu b) (fun k => flux2 f i j k)).
Lemma split3 : forall b (f g h : arr3) x y z,
  sum_cells3 b (fun i j k => f i j k / x + g i j k / y + h i j k / z) =
  / x * sumZ (zl b) (zu b) (fun k => sumZ (yl b) (yu b) (fun j => sumZ (xl b) (xu b) (fun i => f i j k))) +
  / y * sumZ (zl b) (zu b) (fun k => sumZ (xl b) (xu b) (fun i => sumZ (yl b) (yu b) (fun j => g i j k))) +
  / z * sumZ (yl b) (yu b) (fun j => sumZ (xl b) (xu b) (fun i => sumZ (zl b) (zu b) (fun k => h i j k))).
Proof.
  intros b f g h x y z.
  rewrite (cells_ext b _ (fun i j k => / x * f i j k + / y * g i j k + / z * h i j k)) by (intros; unfold Rdiv; ring).
  rewrite (cells_plus b (fun i j k => / x * f i j k + / y * g i j k)), (cells_plus b (fun i j k => / x * f i j k)), !cells_scal.
  unfold sum_cells3. rewrite <- (Transport_Proofs.sum_box3_swap02 (xl b) (xu b) (yl b) (yu b) (zl b) (zu b) g).
  rewrite <- (Transport_Proofs.sum_box3_z_inner (xl b) (xu b) (yl b) (yu b) (zl b) (zu b) h). reflexivity.
Qed.
Lemma parts3 : forall cx cy cz b u f, nonempty3 b -> filled3 cx cy cz b u -> flux_ok3 cx cy cz b f ->
  sum_cells3 b (fun i j k => u i j k * diverg3 b f i j k) =
  - sum_cells3 b (fun i j k => flux0 f i j k * ((u i j k - u (i - 1)%Z j k) / hx b) + flux1 f i j k * ((u i j k - u i (j - 1)%Z k) / hy b)
                               + flux2 f i j k * ((u i j k - u i j (k - 1)%Z) / hz b)).
Proof.
  intros cx cy cz b u f (N0 & N1 & N2) (U0 & U1 & U2) (F0 & F1 & F2).
  rewrite (cells_ext b _ (fun i j k => (u i j k * (flux0 f (i + 1)%Z j k - flux0 f i j k)) / hx b + (u i j k * (flux1 f i (j + 1)%Z k - flux1 f i j k)) / hy b
    + (u i j k * (flux2 f i j (k + 1)%Z - flux2 f i j k)) / hz b)) by (intros; unfold diverg3, Rdiv; ring).
  rewrite (cells_ext b (fun i j k => flux0 f i j k * ((u i j k - u (i - 1)%Z j k) / hx b) + _ + _)
    (fun i j k => (flux0 f i j k * (u i j k - u (i - 1)%Z j k)) / hx b + (flux1 f i j k * (u i j k - u i (j - 1)%Z k)) / hy b
    + (flux2 f i j k * (u i j k - u i j (k - 1)%Z)) / hz b)) by (intros; unfold Rdiv; ring).
  rewrite (split3 b (fun i j k => u i j k * (flux0 f (i + 1)%Z j k - flux0 f i j k)) (fun i j k => u i j k * (flux1 f i (j + 1)%Z k - flux1 f i j k))
    (fun i j k => u i j k * (flux2 f i j (k + 1)%Z - flux2 f i j k))).
  rewrite (split3 b (fun i j k => flux0 f i j k * (u i j k - u (i - 1)%Z j k)) (fun i j k => flux1 f i j k * (u i j k - u i (j - 1)%Z k))
    (fun i j k => flux2 f i j k * (u i j k - u i j (k - 1)%Z))).
  rewrite (sumZ_ext (zl b) (zu b) (fun k => sumZ (yl b) (yu b) (fun j => sumZ (xl b) (xu b) (fun i => u i j k * _)))
    (fun k => - sumZ (yl b) (yu b) (fun j => sumZ (xl b) (xu b) (fun i => flux0 f i j k * (u i j k - u (i - 1)%Z j k))))).
  2: { intros k Hk. rewrite <- sumZ_opp. apply sumZ_ext. intros j Hj. apply (Sintering_Proofs.parts1 cx (xl b) (xu b) (fun i => u i j k) (fun i => flux0 f i j k)); auto. }
  rewrite (sumZ_ext (zl b) (zu b) (fun k => sumZ (xl b) (xu b) (fun i => sumZ (yl b) (yu b) (fun j => u i j k * _)))
    (fun k => - sumZ (xl b) (xu b) (fun i => sumZ (yl b) (yu b) (fun j => flux1 f i j k * (u i j k - u i (j - 1)%Z k))))).
  2: { intros k Hk. rewrite <- sumZ_opp. apply sumZ_ext. intros i Hi. apply (Sintering_Proofs.parts1 cy (yl b) (yu b) (fun j => u i j k) (fun j => flux1 f i j k)); auto. }
  rewrite (sumZ_ext (yl b) (yu b) (fun j => sumZ (xl b) (xu b) (fun i => sumZ (zl b) (zu b) (fun k => u i j k * _)))
    (fun j => - sumZ (xl b) (xu b) (fun i => sumZ (zl b) (zu b) (fun k => flux2 f i j k * (u i j k - u i j (k - 1)%Z))))).
  2: { intros j Hj. rewrite <- sumZ_opp. apply sumZ_ext. intros i Hi. apply (Sintering_Proofs.parts1 cz (zl b) (zu b) (fun k => u i j k) (fun k => flux2 f i j k)); auto. }
  rewrite !sumZ_opp. ring.
Qed.
Lemma no_source3 : forall cx cy cz b f, nonempty3 b -> flux_ok3 cx cy cz b f -> sum_cells3 b (fun i j k => diverg3 b f i j k) = 0.
Proof.
  intros cx cy cz b f (N0 & N1 & N2) (F0 & F1 & F2). unfold diverg3.
  rewrite (split3 b (fun i j k => flux0 f (i + 1)%Z j k - flux0 f i j k) (fun i j k => flux1 f i (j + 1)%Z k - flux1 f i j k) (fun i j k => flux2 f i j (k + 1)%Z - flux2 f i j k)).
  rewrite (sumZ_ext (zl b) (zu b) (fun k => sumZ (yl b) (yu b) _) (fun _ => 0)).
  2: { intros k Hk. rewrite <- (sumZ_zero (yl b) (yu b)). apply sumZ_ext. intros j Hj. apply (Sintering_Proofs.no_source1 cx (xl b) (xu b) (fun i => flux0 f i j k)); auto. }
  rewrite (sumZ_ext (zl b) (zu b) (fun k => sumZ (xl b) (xu b) _) (fun _ => 0)).
  2: { intros k Hk. rewrite <- (sumZ_zero (xl b) (xu b)). apply sumZ_ext. intros i Hi. apply (Sintering_Proofs.no_source1 cy (yl b) (yu b) (fun j => flux1 f i j k)); auto. }
  rewrite (sumZ_ext (yl b) (yu b) (fun j => sumZ (xl b) (xu b) _) (fun _ => 0)).
  2: { intros j Hj. rewrite <- (sumZ_zero (xl b) (xu b)). apply sumZ_ext. intros i Hi. apply (Sintering_Proofs.no_source1 cz (zl b) (zu b) (fun k => flux2 f i j k)); auto. }
  rewrite !sumZ_zero. ring.
Qed.

(** * Extended fields *)
Lemma extended_filled : forall cx cy cz b f, extended3 cx cy cz b f -> filled3 cx cy cz b f.
Proof. intros cx cy cz b f (A & B & C). repeat split; intros; apply Sintering_Proofs.extended1_filled; auto. Qed.
(** values of extended rows *)
Lemma row_map : forall c lo hi n (g : R -> (Z -> R) -> R) (f : Z -> R) (h : Z -> Z -> R), extended1 c lo hi f ->
  (forall q, (1 <= q <= n)%Z -> extended1 c lo hi (fun i => h i q)) ->
  (forall x u v, (forall q, (1 <= q <= n)%Z -> u q = v q) -> g x u = g x v) -> extended1 c lo hi (fun i => g (f i) (h i)).
Proof.
  intros c lo hi n g f h F H G. unfold Sintering_Spec.extended1 in *. destruct c.
  - intro i. rewrite F. apply G. intros q Hq. apply (H q Hq).
  - destruct F as [F1 F2]. split; intro i; [rewrite F1 | rewrite F2]; apply G; intros q Hq; apply (H q Hq).
Qed.
Lemma extended_map : forall cx cy cz b n (g : R -> (Z -> R) -> R) (f : arr3) (h : arr4), extended3 cx cy cz b f ->
  (forall q, (1 <= q <= n)%Z -> extended3 cx cy cz b (fun i j k => h i j k q)) ->
  (forall x u v, (forall q, (1 <= q <= n)%Z -> u q = v q) -> g x u = g x v) -> extended3 cx cy cz b (fun i j k => g (f i j k) (h i j k)).
Proof.
  intros cx cy cz b n g f h (F0 & F1 & F2) H G. repeat split.
  - intros j k. apply (row_map cx (xl b) (xu b) n g (fun i => f i j k) (fun i => h i j k)); auto. intros q Hq. destruct (H q Hq) as (A & _ & _). apply A.
  - intros i k. apply (row_map cy (yl b) (yu b) n g (fun j => f i j k) (fun j => h i j k)); auto. intros q Hq. destruct (H q Hq) as (_ & A & _). apply A.
  - intros i j. apply (row_map cz (zl b) (zu b) n g (fun k => f i j k) (fun k => h i j k)); auto. intros q Hq. destruct (H q Hq) as (_ & _ & A). apply A.
Qed.
(** a row of second differences and neighbours in the other directions *)
Lemma row_lap : forall c lo hi h (f a a' e e' : Z -> R) x y, extended1 c lo hi f -> extended1 c lo hi a -> extended1 c lo hi a' ->
  extended1 c lo hi e -> extended1 c lo hi e' ->
  extended1 c lo hi (fun i => (f (i + 1)%Z - 2 * f i + f (i - 1)%Z) / h + (a i - 2 * f i + a' i) / x + (e i - 2 * f i + e' i) / y).
Proof.
  intros c lo hi h f a a' e e' x y F A A' Ee E'. pose proof (Sintering_Proofs.extended1_shift _ _ _ _ F) as Sh. unfold Sintering_Spec.extended1 in *. destruct c.
  - intro i. destruct (Sh i) as [S1 S2]. rewrite S1, S2, F, A, A', Ee, E'. reflexivity.
  - destruct F as [Fa Fb], A as [Aa Ab], A' as [Ba Bb], Ee as [Ca Cb], E' as [Da Db].
    split; intro i; destruct (Sh i) as (S1 & S2 & S3 & S4);
      [rewrite S1, S2, Fa, Aa, Ba, Ca, Da | rewrite S3, S4, Fb, Ab, Bb, Cb, Db]; unfold Rdiv; ring.
Qed.
Lemma extended_lap : forall cx cy cz b f, extended3 cx cy cz b f -> extended3 cx cy cz b (laplace3 b f).
Proof.
  intros cx cy cz b f (F0 & F1 & F2). repeat split.
  - intros j k. unfold laplace3. apply (row_lap cx (xl b) (xu b) (hx b ^ 2) (fun i => f i j k) (fun i => f i (j + 1)%Z k) (fun i => f i (j - 1)%Z k)
      (fun i => f i j (k + 1)%Z) (fun i => f i j (k - 1)%Z)); apply F0.
  - intros i k. pose proof (row_lap cy (yl b) (yu b) (hy b ^ 2) (fun j => f i j k) (fun j => f (i + 1)%Z j k) (fun j => f (i - 1)%Z j k)
      (fun j => f i j (k + 1)%Z) (fun j => f i j (k - 1)%Z) (hx b ^ 2) (hz b ^ 2) (F1 i k) (F1 (i + 1)%Z k) (F1 (i - 1)%Z k) (F1 i (k + 1)%Z) (F1 i (k - 1)%Z)) as Q.
    refine (eq_ind _ (extended1 cy (yl b) (yu b)) Q _ _). extensionality j. unfold laplace3. ring.
  - intros i j. pose proof (row_lap cz (zl b) (zu b) (hz b ^ 2) (fun k => f i j k) (fun k => f (i + 1)%Z j k) (fun k => f (i - 1)%Z j k)
      (fun k => f i (j + 1)%Z k) (fun k => f i (j - 1)%Z k) (hx b ^ 2) (hy b ^ 2) (F2 i j) (F2 (i + 1)%Z j) (F2 (i - 1)%Z j) (F2 i (j + 1)%Z) (F2 i (j - 1)%Z)) as Q.
    refine (eq_ind _ (extended1 cz (zl b) (zu b)) Q _ _). extensionality k. unfold laplace3. ring.
Qed.

(** * Derivative of the gradient energy *)
Definition face_diff (b : box3) (f : arr3) : arr3x3 :=
  (fun i j k => (f i j k - f (i - 1)%Z j k) / hx b, fun i j k => (f i j k - f i (j - 1)%Z k) / hy b, fun i j k => (f i j k - f i j (k - 1)%Z) / hz b).
Definition mdiff (b : box3) (M : arr3x3) (mu : arr3) : arr3x3 :=
  (fun i j k => flux0 M i j k * ((mu i j k - mu (i - 1)%Z j k) / hx b), fun i j k => flux1 M i j k * ((mu i j k - mu i (j - 1)%Z k) / hy b),
   fun i j k => flux2 M i j k * ((mu i j k - mu i j (k - 1)%Z) / hz b)).
Lemma row_diff_ok : forall c lo hi h (M u : Z -> R), filled1 c lo hi u -> (c = Periodic -> M (hi + 1)%Z = M lo) ->
  row_flux_ok c lo hi (fun i => M i * ((u i - u (i - 1)%Z) / h)).
Proof.
  intros c lo hi h M u F E. unfold Sintering_Proofs.row_flux_ok. destruct c; destruct F as [A B]; replace (hi + 1 - 1)%Z with hi by lia; rewrite A, B.
  - rewrite E by reflexivity. reflexivity.
  - unfold Rdiv. split; ring.
Qed.
Lemma mdiff_ok : forall cx cy cz b M mu, faces_match3 cx cy cz b M -> filled3 cx cy cz b mu -> flux_ok3 cx cy cz b (mdiff b M mu).
Proof.
  intros cx cy cz b M mu (X0 & X1 & X2) (F0 & F1 & F2). unfold mdiff, flux0, flux1, flux2. cbn [fst snd]. repeat split; cbn [fst snd].
  - intros j k Hj Hk. apply (row_diff_ok cx (xl b) (xu b) (hx b) (fun i => fst (fst M) i j k) (fun i => mu i j k)); [auto |]. intro E. apply (X0 E); auto.
  - intros i k Hi Hk. apply (row_diff_ok cy (yl b) (yu b) (hy b) (fun j => snd (fst M) i j k) (fun j => mu i j k)); [auto |]. intro E. apply (X1 E); auto.
  - intros i j Hi Hj. apply (row_diff_ok cz (zl b) (zu b) (hz b) (fun k => snd M i j k) (fun k => mu i j k)); [auto |]. intro E. apply (X2 E); auto.
Qed.
Definition one : arr3x3 := (fun _ _ _ => 1, fun _ _ _ => 1, fun _ _ _ => 1).
Lemma one_match : forall cx cy cz b, faces_match3 cx cy cz b one.
Proof. intros. repeat split; reflexivity. Qed.
Lemma div_one : forall b f i j k, diverg3 b (mdiff b one f) i j k = laplace3 b f i j k.
Proof.
  intros b f i j k. unfold diverg3, mdiff, one, laplace3, flux0, flux1, flux2. cbn [fst snd]. replace (i + 1 - 1)%Z with i by lia.
  replace (j + 1 - 1)%Z with j by lia. replace (k + 1 - 1)%Z with k by lia.
  unfold Rdiv. cbn [pow]. rewrite !Rinv_mult, !Rinv_1. ring.
Qed.
Definition wrapped (cx cy cz : bc) (b : box3) (v : arr3) : arr3 :=
  fun i j k => v (wrap cx (xl b) (xu b) i) (wrap cy (yl b) (yu b) j) (wrap cz (zl b) (zu b) k).
Lemma wrapped_in : forall cx cy cz b v i j k, in_cells3 b i j k -> wrapped cx cy cz b v i j k = v i j k.
Proof. intros cx cy cz b v i j k (Hi & Hj & Hk). unfold wrapped. rewrite !Sintering_Proofs.wrap_in by lia. reflexivity. Qed.
Lemma wrapped_filled : forall cx cy cz b v, nonempty3 b -> filled3 cx cy cz b (wrapped cx cy cz b v).
Proof.
  intros cx cy cz b v (N0 & N1 & N2). repeat split.
  - intros j k _ _. apply (Sintering_Proofs.wrap_filled cx (xl b) (xu b) (fun i => v i (wrap cy (yl b) (yu b) j) (wrap cz (zl b) (zu b) k))); auto.
  - intros i k _ _. apply (Sintering_Proofs.wrap_filled cy (yl b) (yu b) (fun j => v (wrap cx (xl b) (xu b) i) j (wrap cz (zl b) (zu b) k))); auto.
  - intros i j _ _. apply (Sintering_Proofs.wrap_filled cz (zl b) (zu b) (fun k => v (wrap cx (xl b) (xu b) i) (wrap cy (yl b) (yu b) j) k)); auto.
Qed.
Lemma square_deriv : forall (g k : R -> R) dg dk h t, h <> 0 -> derivable_pt_lim g t dg -> derivable_pt_lim k t dk ->
  derivable_pt_lim (fun s => ((g s - k s) / h) ^ 2) t (2 * ((g t - k t) / h * ((dg - dk) / h))).
Proof.
  intros g k dg dk h t Hh Hg Hk. pose proof (derivable_pt_lim_minus _ _ _ _ _ Hg Hk) as M.
  pose proof (derivable_pt_lim_scal _ (/ h ^ 2) _ _ (derivable_pt_lim_mult _ _ _ _ _ M M)) as Sc.
  replace (fun s => ((g s - k s) / h) ^ 2) with (mult_real_fct (/ h ^ 2) ((g - k) * (g - k))%F).
  - replace (2 * _) with (/ h ^ 2 * ((dg - dk) * (g - k)%F t + (g - k)%F t * (dg - dk))); [exact Sc |]. unfold minus_fct. field. auto.
  - extensionality s. unfold mult_real_fct, mult_fct, minus_fct. field. auto.
Qed.
Lemma lim_ext : forall (f g : R -> R) t d, (forall s, f s = g s) -> derivable_pt_lim f t d -> derivable_pt_lim g t d.
Proof. intros f g t d H D. replace g with f; [exact D |]. extensionality s. apply H. Qed.
Lemma gradient_deriv : forall cx cy cz b (f : R -> arr3) v t, nonempty3 b -> spaced3 b ->
  (forall s, filled3 cx cy cz b (f s)) ->
  (forall i j k, in_cells3 b i j k -> derivable_pt_lim (fun s => f s i j k) t (v i j k)) ->
  derivable_pt_lim (fun s => gradient_energy3 b (f s)) t (- sum_cells3 b (fun i j k => v i j k * laplace3 b (f t) i j k)).
Proof.
  intros cx cy cz b f v t N (X & Y & W) F D. pose proof N as (N0 & N1 & N2). set (u := wrapped cx cy cz b v).
  assert (Dx : forall i j k, (xl b - 1 <= i <= xu b + 1)%Z -> (yl b <= j <= yu b)%Z -> (zl b <= k <= zu b)%Z -> derivable_pt_lim (fun s => f s i j k) t (u i j k)).
  { intros i j k Hi Hj Hk. unfold u, wrapped. rewrite (Sintering_Proofs.wrap_in cy), (Sintering_Proofs.wrap_in cz) by auto.
    apply (lim_ext (fun s => f s (wrap cx (xl b) (xu b) i) j k)).
    - intro s. apply (Sintering_Proofs.wrap_val cx (xl b) (xu b) (fun i => f s i j k)); auto. apply (proj1 (F s)); auto.
    - apply D. pose proof (Sintering_Proofs.wrap_range cx (xl b) (xu b) i N0). unfold in_cells3, in_box3. lia. }
  assert (Dy : forall i j k, (xl b <= i <= xu b)%Z -> (yl b - 1 <= j <= yu b + 1)%Z -> (zl b <= k <= zu b)%Z -> derivable_pt_lim (fun s => f s i j k) t (u i j k)).
  { intros i j k Hi Hj Hk. unfold u, wrapped. rewrite (Sintering_Proofs.wrap_in cx), (Sintering_Proofs.wrap_in cz) by auto.
    apply (lim_ext (fun s => f s i (wrap cy (yl b) (yu b) j) k)).
    - intro s. apply (Sintering_Proofs.wrap_val cy (yl b) (yu b) (fun j => f s i j k)); auto. apply (proj1 (proj2 (F s))); auto.
    - apply D. pose proof (Sintering_Proofs.wrap_range cy (yl b) (yu b) j N1). unfold in_cells3, in_box3. lia. }
  assert (Dz : forall i j k, (xl b <= i <= xu b)%Z -> (yl b <= j <= yu b)%Z -> (zl b - 1 <= k <= zu b + 1)%Z -> derivable_pt_lim (fun s => f s i j k) t (u i j k)).
  { intros i j k Hi Hj Hk. unfold u, wrapped. rewrite (Sintering_Proofs.wrap_in cx), (Sintering_Proofs.wrap_in cy) by auto.
    apply (lim_ext (fun s => f s i j (wrap cz (zl b) (zu b) k))).
    - intro s. apply (Sintering_Proofs.wrap_val cz (zl b) (zu b) (fun k => f s i j k)); auto. apply (proj2 (proj2 (F s))); auto.
    - apply D. pose proof (Sintering_Proofs.wrap_range cz (zl b) (zu b) k N2). unfold in_cells3, in_box3. lia. }
  rewrite (cells_ext b (fun i j k => v i j k * _) (fun i j k => u i j k * diverg3 b (mdiff b one (f t)) i j k)).
  2: { intros i j k Hij. rewrite div_one. unfold u. rewrite wrapped_in by auto. reflexivity. }
  rewrite (parts3 cx cy cz) by (first [assumption | apply wrapped_filled; auto | apply mdiff_ok; auto; apply one_match]).
  rewrite Ropp_involutive. unfold gradient_energy3.
  rewrite (cells_ext b (fun i j k => _ * ((u i j k - u (i - 1)%Z j k) / hx b) + _ + _)
    (fun i j k => 1 / 2 * (2 * ((f t i j k - f t (i - 1)%Z j k) / hx b * ((u i j k - u (i - 1)%Z j k) / hx b)) + 2 * ((f t i j k - f t i (j - 1)%Z k) / hy b * ((u i j k - u i (j - 1)%Z k) / hy b))
      + 2 * ((f t i j k - f t i j (k - 1)%Z) / hz b * ((u i j k - u i j (k - 1)%Z) / hz b)))))
    by (intros; unfold mdiff, one, flux0, flux1, flux2; cbn [fst snd]; field; auto).
  rewrite cells_scal.
  apply (derivable_pt_lim_scal (fun s => sum_cells3 b (fun i j k => ((f s i j k - f s (i - 1)%Z j k) / hx b) ^ 2 + ((f s i j k - f s i (j - 1)%Z k) / hy b) ^ 2 + ((f s i j k - f s i j (k - 1)%Z) / hz b) ^ 2))).
  apply (cells_deriv b (fun s i j k => ((f s i j k - f s (i - 1)%Z j k) / hx b) ^ 2 + ((f s i j k - f s i (j - 1)%Z k) / hy b) ^ 2 + ((f s i j k - f s i j (k - 1)%Z) / hz b) ^ 2)).
  intros i j k (Hi & Hj & Hk).
  apply (derivable_pt_lim_plus (fun s => ((f s i j k - f s (i - 1)%Z j k) / hx b) ^ 2 + ((f s i j k - f s i (j - 1)%Z k) / hy b) ^ 2) (fun s => ((f s i j k - f s i j (k - 1)%Z) / hz b) ^ 2)).
  - apply (derivable_pt_lim_plus (fun s => ((f s i j k - f s (i - 1)%Z j k) / hx b) ^ 2) (fun s => ((f s i j k - f s i (j - 1)%Z k) / hy b) ^ 2)).
    + apply (square_deriv (fun s => f s i j k) (fun s => f s (i - 1)%Z j k)); auto; apply Dx; lia.
    + apply (square_deriv (fun s => f s i j k) (fun s => f s i (j - 1)%Z k)); auto; apply Dy; lia.
  - apply (square_deriv (fun s => f s i j k) (fun s => f s i j (k - 1)%Z)); auto; apply Dz; lia.
Qed.
Lemma dissipates : forall cx cy cz b M mu, nonempty3 b -> faces_match3 cx cy cz b M -> filled3 cx cy cz b mu ->
  (forall i j k, on_x b i j k -> 0 <= flux0 M i j k) -> (forall i j k, on_y b i j k -> 0 <= flux1 M i j k) -> (forall i j k, on_z b i j k -> 0 <= flux2 M i j k) ->
  sum_cells3 b (fun i j k => mu i j k * diverg3 b (mdiff b M mu) i j k) <= 0.
Proof.
  intros cx cy cz b M mu N X F P0 P1 P2. rewrite (parts3 cx cy cz) by (auto; apply mdiff_ok; auto).
  match goal with |- - ?x <= 0 => enough (0 <= x) by lra end. apply cells_nonneg. intros i j k (Hi & Hj & Hk).
  assert (A0 : 0 <= flux0 M i j k) by (apply P0; unfold on_x, in_box3; lia). assert (A1 : 0 <= flux1 M i j k) by (apply P1; unfold on_y, in_box3; lia).
  assert (A2 : 0 <= flux2 M i j k) by (apply P2; unfold on_z, in_box3; lia). clear P0 P1 P2 X F.
  unfold mdiff, flux0, flux1, flux2 in *. cbn [fst snd] in *.
  assert (Q : forall m d : R, 0 <= m -> 0 <= m * d * d) by (intros m d H; rewrite Rmult_assoc; apply Rmult_le_pos; [auto |]; apply Rle_0_sqr).
  pose proof (Q _ ((mu i j k - mu (i - 1)%Z j k) / hx b) A0). pose proof (Q _ ((mu i j k - mu i (j - 1)%Z k) / hy b) A1). pose proof (Q _ ((mu i j k - mu i j (k - 1)%Z) / hz b) A2). lra.
Qed.

(** * Values of the right-hand sides *)
Lemma inb_in : forall lo hi i, (lo <= i <= hi)%Z -> inb lo hi i = true.
Proof. intros lo hi i H. destruct (inb_spec lo hi i); [reflexivity | lia]. Qed.
Definition ch_mu3 (b : box3) (ca cb kappa ws : R) (c : arr3) : arr3 :=
  fun i j k => 2 * ws * (c i j k - ca) * (cb - c i j k) * (cb + ca - 2 * c i j k) - kappa * laplace3 b c i j k.
Definition wang_mu3 (p : sinter3) (c : arr3) (phi : arr4) : arr3 :=
  fun i j k => 2 * tA p * c i j k * (1 - c i j k) * (1 - 2 * c i j k) + 2 * tB p * (c i j k - 3 * sq_sum (tn p) (phi i j k) + 2 * cu_sum (tn p) (phi i j k))
             - tkappa p * laplace3 (tb p) c i j k.
Definition scaled (m : R) (d : arr3x3) : arr3x3 := (fun i j k => m * flux0 d i j k, fun i j k => m * flux1 d i j k, fun i j k => m * flux2 d i j k).
Lemma conc_rhs_val : forall b f m rhs i j k, conc_rhs3 b f m rhs i j k =
  if (inb (xl b) (xu b) i && inb (yl b) (yu b) j && inb (zl b) (zu b) k)%bool then m * diverg3 b f i j k else rhs i j k.
Proof.
  intros b [[f0 f1] f2] m rhs i j k. unfold conc_rhs3, computerhsconcentration3. cbv zeta.
  refine (eq_trans (cells3_loop (xl b) (xu b) (yl b) (yu b) (zl b) (zu b) (fun i j k _ => m * (1 / hx b * (f0 (i + 1)%Z j k - f0 i j k)
    + 1 / hy b * (f1 i (j + 1)%Z k - f1 i j k) + 1 / hz b * (f2 i j (k + 1)%Z - f2 i j k))) rhs i j k) _).
  destruct (inb _ _ i && inb _ _ j && inb _ _ k)%bool; [| reflexivity]. unfold diverg3, flux0, flux1, flux2, Rdiv. cbn [fst snd]. ring.
Qed.
Lemma conc_from_faces : forall b m M mu s rhs i j k, in_cells3 b i j k -> gains b (flux0 M) (flux1 M) (flux2 M) mu no_flux s ->
  conc_rhs3 b s m rhs i j k = m * diverg3 b (mdiff b M mu) i j k.
Proof.
  intros b m M mu s rhs i j k (Hi & Hj & Hk) G. rewrite conc_rhs_val, !inb_in by lia. cbn [andb]. unfold diverg3.
  rewrite (proj1 (G (i + 1)%Z j k)), (proj1 (G i j k)) by (unfold on_x, in_box3; lia).
  rewrite (proj1 (proj2 (G i (j + 1)%Z k))), (proj1 (proj2 (G i j k))) by (unfold on_y, in_box3; lia).
  rewrite (proj2 (proj2 (G i j (k + 1)%Z))), (proj2 (proj2 (G i j k))) by (unfold on_z, in_box3; lia).
  unfold mdiff, no_flux, flux0, flux1, flux2, Rdiv. cbn [fst snd]. ring.
Qed.
Lemma ch_val : forall b m ca cb kappa ws c rhs i j k, spaced3 b -> in_cells3 b i j k ->
  cahn_hilliard_rhs3 b m ca cb kappa ws c rhs i j k = m * diverg3 b (mdiff b one (ch_mu3 b ca cb kappa ws c)) i j k.
Proof.
  intros b m ca cb kappa ws c rhs i j k (X & Y & W) Hij. unfold cahn_hilliard_rhs3. apply conc_from_faces; auto. clear Hij i j k.
  destruct (Trap3_Proofs.ch_potential b c 1 ca cb ws kappa no_flux X Y W) as (mu & Hm & G).
  assert (E : mu = ch_mu3 b ca cb kappa ws c).
  { extensionality i. extensionality j. extensionality k. destruct (Hm i j k) as (d & D & ->). rewrite (uniqueness_limite _ _ _ _ D (Trap3_Proofs.ch_deriv ca cb ws (c i j k))). reflexivity. }
  rewrite <- E. exact G.
Qed.
Lemma conc_val : forall p c phi w rhs i j k, (1 <= tn p)%Z -> spaced3 (tb p) -> in_cells3 (tb p) i j k ->
  wang_conc_rhs3 p c phi w rhs i j k = tcm p * diverg3 (tb p) (mdiff (tb p) (scaled (tcm p) (tdiff p)) (wang_mu3 p c phi)) i j k.
Proof.
  intros p c phi w rhs i j k Hn (X & Y & W) Hij. unfold wang_conc_rhs3. apply conc_from_faces; auto. clear Hij i j k. set (b := tb p) in *.
  destruct (Trap3_Proofs.wang_potential b c (tdiff p) (tn p) phi (tcm p) (tA p) (tB p) (tkappa p) w no_flux Hn X Y W) as (mu & Hm & G).
  assert (E : forall i j k, in_box3 (xl b - 1) (xu b + 1) (yl b - 1) (yu b + 1) (zl b - 1) (zu b + 1) i j k -> mu i j k = wang_mu3 p c phi i j k).
  { intros i j k Hij. destruct (Hm i j k Hij) as (d & D & ->). rewrite (uniqueness_limite _ _ _ _ D (Trap3_Proofs.wang_deriv _ _ _ _ _)). reflexivity. }
  intros i j k. destruct (G i j k) as (G0 & G1 & G2). repeat split; intro H; [rewrite (G0 H) | rewrite (G1 H) | rewrite (G2 H)];
    unfold on_x, on_y, on_z, in_box3 in H; rewrite !E by (unfold in_box3; lia); reflexivity.
Qed.
Lemma comp4 : forall b n (g : Z -> Z -> Z -> Z -> R -> R) (r : arr4) i j k p,
  do_loop 1 n (fun ip => do_cells3 (xl b) (xu b) (yl b) (yu b) (zl b) (zu b) (fun i j k r => upd4 r i j k ip (g i j k ip (r i j k ip)))) r i j k p =
  if (inb (xl b) (xu b) i && inb (yl b) (yu b) j && inb (zl b) (zu b) k && inb 1 n p)%bool then g i j k p (r i j k p) else r i j k p.
Proof. intros. exact (QuatFlow3_Proofs.mcells3_val n (xl b) (xu b) (yl b) (yu b) (zl b) (zu b) g r i j k p). Qed.
Lemma phi2sum_val : forall b n phi w i j k, (1 <= n)%Z -> in_cells3 b i j k -> phi2sum_box3 b n phi w i j k = sq_sum n (phi i j k).
Proof.
  intros b n phi w a c d Hn (Ha & Hc & Hd). unfold phi2sum_box3. cbv zeta. unfold sq_sum. rewrite sumZ_cons by lia. change (1 + 1)%Z with 2%Z.
  rewrite (obs_loop _ (fun s : arr3 => s a c d) 2 n (fun ip => phi a c d ip ^ 2)).
  - f_equal. rewrite (cells3_loop _ _ _ _ _ _ (fun i j k _ => phi i j k 1%Z * phi i j k 1%Z)). rewrite !inb_in by lia. cbn [andb]. ring.
  - intros ip s _. rewrite (cells3_loop _ _ _ _ _ _ (fun i j k x => x + phi i j k ip * phi i j k ip)). rewrite !inb_in by lia. cbn [andb]. ring.
Qed.
Lemma wang_rhs_val : forall b n f beta B phi c w rhs i j k p,
  computerhs_wang_sintering3 b n f beta B phi c w rhs i j k p =
  if (inb (xl b) (xu b) i && inb (yl b) (yu b) j && inb (zl b) (zu b) k && inb 1 n p)%bool
  then beta * diverg3 b (part3 f p) i j k - 12 * B * wang_slope n (c i j k) (phi i j k) p else rhs i j k p.
Proof.
  intros b n [[f0 f1] f2] beta B phi c w rhs i j k p. unfold computerhs_wang_sintering3. cbv zeta.
  set (P := phi2sum_box3 b n phi w).
  refine (eq_trans (comp4 b n (fun i j k ip _ => beta * ((f0 (i + 1)%Z j k ip - f0 i j k ip) * (1 / hx b) + (f1 i (j + 1)%Z k ip - f1 i j k ip) * (1 / hy b)
     + (f2 i j (k + 1)%Z ip - f2 i j k ip) * (1 / hz b)) - 12 * B * ((1 - c i j k) * phi i j k ip - (2 - c i j k) * phi i j k ip * phi i j k ip + P i j k * phi i j k ip)) rhs i j k p) _).
  destruct (inb_spec (xl b) (xu b) i); cbn [andb]; [| reflexivity]. destruct (inb_spec (yl b) (yu b) j); cbn [andb]; [| reflexivity].
  destruct (inb_spec (zl b) (zu b) k); cbn [andb]; [| reflexivity]. destruct (inb_spec 1 n p); [| reflexivity].
  unfold P. rewrite phi2sum_val by (try lia; unfold in_cells3, in_box3; lia).
  unfold diverg3, part3, wang_slope, flux0, flux1, flux2, Rdiv. cbn [fst snd]. ring.
Qed.
Lemma gradient_div : forall b n eps phi old i j k p, (1 <= p <= n)%Z -> in_cells3 b i j k ->
  diverg3 b (part3 (gradient_fluxes b n eps phi old) p) i j k = eps ^ 2 * laplace3 b (component phi p) i j k.
Proof.
  intros b n eps phi [[o0 o1] o2] i j k p [P1 P2] (Hi & Hj & Hk). unfold diverg3, part3, gradient_fluxes, flux0, flux1, flux2. cbn [fst snd].
  rewrite (proj2 (Z.leb_le _ _) P1), (proj2 (Z.leb_le _ _) P2). cbn [andb]. unfold Flow3_Model.gradient_flux3. cbn [fst snd]. cbv zeta.
  rewrite !Trap3_Proofs.xfaces3_val, !Trap3_Proofs.yfaces3_val, !Trap3_Proofs.zfaces3_val, !inb_in by lia. cbn [andb].
  unfold laplace3. replace (i + 1 - 1)%Z with i by lia. replace (j + 1 - 1)%Z with j by lia. replace (k + 1 - 1)%Z with k by lia.
  unfold Rdiv. cbn [pow]. rewrite !Rinv_mult, !Rinv_1. ring.
Qed.
Lemma phase_val : forall p c phi old w rhs i j k q, (1 < tn p)%Z -> (1 <= q <= tn p)%Z -> in_cells3 (tb p) i j k ->
  wang_phase_rhs3 p c phi old w rhs i j k q =
  tpm p i j k * (teps p ^ 3 / 2 * laplace3 (tb p) (component phi q) i j k - 12 * tB p * wang_slope (tn p) (c i j k) (phi i j k) q).
Proof.
  intros p c phi old w rhs i j k q Hn Hq Hij. pose proof Hij as (Hi & Hj & Hk). unfold wang_phase_rhs3, times_mobility3. cbv zeta.
  rewrite (comp4 (tb p) (tn p) (fun i j k _ x => x * tpm p i j k)), wang_rhs_val, !inb_in by lia. cbn [andb].
  rewrite gradient_div, Sintering_Proofs.epsilon_multi by (auto; lia). field.
Qed.

(** * Cahn-Hilliard runs *)
Lemma ch_mu_filled : forall cx cy cz b ca cb kappa ws c, extended3 cx cy cz b c -> filled3 cx cy cz b (ch_mu3 b ca cb kappa ws c).
Proof.
  intros cx cy cz b ca cb kappa ws c E. apply extended_filled. pose proof (extended_lap _ _ _ _ _ E) as L.
  apply (extended_map cx cy cz b 1 (fun x u => 2 * ws * (x - ca) * (cb - x) * (cb + ca - 2 * x) - kappa * u 1%Z) c (fun i j k _ => laplace3 b c i j k)); auto.
  intros x u v H. rewrite (H 1%Z) by lia. reflexivity.
Qed.
Lemma constant_of_zero : forall (f : R -> R) T, (forall t, 0 <= t <= T -> derivable_pt_lim f t 0) -> forall s t, 0 <= s <= t -> t <= T -> f t = f s.
Proof.
  intros f T H s t Hs Ht. apply Rle_antisym; [| apply Ropp_le_cancel].
  - apply (nonincreasing f T); auto. intros u Hu. exists 0. split; [auto | lra].
  - apply (nonincreasing (fun t => - f t) T); auto. intros u Hu. exists (- 0). split; [apply (derivable_pt_lim_opp f); auto | lra].
Qed.
Lemma ch_descends : forall cx cy cz b m ca cb kappa ws T c old, nonempty3 b -> spaced3 b -> 0 <= m ->
  (forall t, extended3 cx cy cz b (c t)) ->
  follows3 b T c (fun t => cahn_hilliard_rhs3 b m ca cb kappa ws (c t) (old t)) ->
  forall s t, 0 <= s <= t -> t <= T ->
    sum_cells3 b (c t) = sum_cells3 b (c s) /\ ch_total3 b ca cb kappa ws (c t) <= ch_total3 b ca cb kappa ws (c s).
Proof.
  intros cx cy cz b m ca cb kappa ws T c old N H1 Hm E Fo s t Hs Ht.
  set (mu := fun t => ch_mu3 b ca cb kappa ws (c t)). set (r := fun t i j k => m * diverg3 b (mdiff b one (mu t)) i j k).
  assert (D : forall t i j k, 0 <= t <= T -> in_cells3 b i j k -> derivable_pt_lim (fun s => c s i j k) t (r t i j k)).
  { intros u i j k Hu Hij. pose proof (Fo u i j k Hu Hij) as D. cbv beta in D. rewrite ch_val in D by auto. exact D. }
  assert (X : faces_match3 cx cy cz b one) by apply one_match.
  assert (G : forall t, filled3 cx cy cz b (mu t)) by (intro u; apply ch_mu_filled; auto).
  split.
  - apply (constant_of_zero (fun t => sum_cells3 b (c t)) T); auto. intros u Hu.
    replace 0 with (sum_cells3 b (r u)); [apply cells_deriv; auto |]. unfold r. rewrite cells_scal, (no_source3 cx cy cz) by (auto; apply mdiff_ok; auto). ring.
  - apply (nonincreasing (fun t => ch_total3 b ca cb kappa ws (c t)) T); auto. intros u Hu.
    exists (sum_cells3 b (fun i j k => mu u i j k * r u i j k)). split.
    + replace (sum_cells3 b (fun i j k => mu u i j k * r u i j k)) with
        (sum_cells3 b (fun i j k => 2 * ws * (c u i j k - ca) * (cb - c u i j k) * (cb + ca - 2 * c u i j k) * r u i j k)
         + kappa * - sum_cells3 b (fun i j k => r u i j k * laplace3 b (c u) i j k)).
      2: { rewrite <- (Rmult_1_l (sum_cells3 b (fun i j k => r u i j k * _))), Ropp_mult_distr_l, <- !cells_scal, <- cells_plus.
           apply cells_ext. intros i j k _. unfold mu, ch_mu3. ring. }
      unfold ch_total3. apply (derivable_pt_lim_plus (fun t => sum_cells3 b (fun i j k => ch_energy ca cb ws (c t i j k))) (fun t => kappa * gradient_energy3 b (c t))).
      * apply (cells_deriv b (fun t i j k => ch_energy ca cb ws (c t i j k))). intros i j k Hij.
        apply (derivable_pt_lim_comp (fun t => c t i j k) (ch_energy ca cb ws)); [auto | apply Trap3_Proofs.ch_deriv].
      * apply derivable_pt_lim_scal. apply (gradient_deriv cx cy cz); auto. intro v. apply extended_filled; auto.
    + rewrite (cells_ext b _ (fun i j k => m * (mu u i j k * diverg3 b (mdiff b one (mu u)) i j k))) by (intros; unfold r; ring).
      rewrite cells_scal. assert (A : sum_cells3 b (fun i j k => mu u i j k * diverg3 b (mdiff b one (mu u)) i j k) <= 0).
      { apply (dissipates cx cy cz); auto; intros; unfold one, flux0, flux1, flux2; cbn [fst snd]; lra. }
      assert (0 <= m * - sum_cells3 b (fun i j k => mu u i j k * diverg3 b (mdiff b one (mu u)) i j k)) by (apply Rmult_le_pos; lra). lra.
Qed.
Lemma div_flat : forall b (M : arr3x3) M0 M1 (mu : arr3) (nu : arr2) i j k, (forall i j k, mu i j k = nu i j) ->
  (forall i j k, flux0 M i j k = M0 i j) -> (forall i j k, flux1 M i j k = M1 i j) ->
  diverg3 b (mdiff b M mu) i j k = diverg (hx b) (hy b) (Sintering_Proofs.mdiff0 (plane3 b) M0 nu) (Sintering_Proofs.mdiff1 (plane3 b) M1 nu) i j.
Proof.
  intros b [[m0 m1] m2] M0 M1 mu nu i j k E A B. unfold diverg3, diverg, mdiff, Sintering_Proofs.mdiff0, Sintering_Proofs.mdiff1, flux0, flux1, flux2 in *.
  cbn [fst snd PhaseFlow_Model.h1 PhaseFlow_Model.h2 plane3] in *. rewrite !E, !A, !B. unfold Rdiv. ring.
Qed.
Lemma ch_plane : forall b m ca cb kappa ws c rhs rhs2 i j k, spaced3 b -> in_cells3 b i j k ->
  cahn_hilliard_rhs3 b m ca cb kappa ws (flat c) rhs i j k = Sintering_Model.cahn_hilliard_rhs (plane3 b) m ca cb kappa ws c rhs2 i j.
Proof.
  intros b m ca cb kappa ws c rhs rhs2 i j k Sp Hij. rewrite ch_val by auto. destruct Sp as (X & Y & W). destruct Hij as (Hi & Hj & Hk).
  rewrite Sintering_Proofs.ch_rhs_val by (cbn [plane3 PhaseFlow_Model.h1 PhaseFlow_Model.h2]; auto; split; assumption).
  f_equal. apply div_flat; try reflexivity. intros a e d. unfold ch_mu3, Sintering_Proofs.ch_mu. rewrite Trap3_Proofs.laplace_flat. reflexivity.
Qed.

(** * Sintering runs *)
Lemma wang_mu_filled : forall cx cy cz p c phi, (1 < tn p)%Z -> extended3 cx cy cz (tb p) c ->
  (forall q, (1 <= q <= tn p)%Z -> extended3 cx cy cz (tb p) (fun i j k => phi i j k q)) -> filled3 cx cy cz (tb p) (wang_mu3 p c phi).
Proof.
  intros cx cy cz p c phi Pos E P. apply extended_filled. pose proof (extended_lap _ _ _ _ _ E) as L.
  set (h := fun i j k q => if (q =? tn p + 1)%Z then laplace3 (tb p) c i j k else phi i j k q).
  set (g := fun x (u : Z -> R) => 2 * tA p * x * (1 - x) * (1 - 2 * x) + 2 * tB p * (x - 3 * sq_sum (tn p) u + 2 * cu_sum (tn p) u) - tkappa p * u (tn p + 1)%Z).
  assert (G : extended3 cx cy cz (tb p) (fun i j k => g (c i j k) (h i j k))).
  { apply (extended_map cx cy cz (tb p) (tn p + 1) g); auto.
      + intros q Hq. unfold h. destruct (Z.eqb_spec q (tn p + 1)); [exact L | apply P; lia].
      + intros x u v H. unfold g. rewrite (H (tn p + 1)%Z) by lia. unfold sq_sum, cu_sum.
        rewrite (sumZ_ext 1 (tn p) (fun k => u k ^ 2) (fun k => v k ^ 2)) by (intros; rewrite H by lia; reflexivity).
        rewrite (sumZ_ext 1 (tn p) (fun k => u k ^ 3) (fun k => v k ^ 3)) by (intros; rewrite H by lia; reflexivity). reflexivity. }
  refine (eq_ind _ (extended3 cx cy cz (tb p)) G _ _).
  extensionality i. extensionality j. extensionality k. unfold wang_mu3, g, h. rewrite Z.eqb_refl. unfold sq_sum, cu_sum.
  rewrite (sumZ_ext 1 (tn p) (fun q => (if (q =? tn p + 1)%Z then _ else _) ^ 2) (fun q => phi i j k q ^ 2)) by (intros q Hq; destruct (Z.eqb_spec q (tn p + 1)); [lia | reflexivity]).
  rewrite (sumZ_ext 1 (tn p) (fun q => (if (q =? tn p + 1)%Z then _ else _) ^ 3) (fun q => phi i j k q ^ 3)) by (intros q Hq; destruct (Z.eqb_spec q (tn p + 1)); [lia | reflexivity]).
  reflexivity.
Qed.
Lemma scaled_match : forall cx cy cz b m d, faces_match3 cx cy cz b d -> faces_match3 cx cy cz b (scaled m d).
Proof.
  intros cx cy cz b m d (A & B & C). unfold scaled, faces_match3, flux0, flux1, flux2 in *. cbn [fst snd].
  repeat split; intros; [rewrite A by auto | rewrite B by auto | rewrite C by auto]; reflexivity.
Qed.
Lemma sinter_descends : forall cx cy cz p T m d c phi, nonempty3 (tb p) -> spaced3 (tb p) -> (1 < tn p)%Z ->
  (forall t, 0 <= t <= T -> dissipative3 (tb p) (m t) (d t) /\ faces_match3 cx cy cz (tb p) (d t)) ->
  (forall t, extended3 cx cy cz (tb p) (c t)) -> (forall t q, (1 <= q <= tn p)%Z -> extended3 cx cy cz (tb p) (fun i j k => phi t i j k q)) ->
  sinter_run3 p T m d c phi ->
  forall s t, 0 <= s <= t -> t <= T ->
    sum_cells3 (tb p) (c t) = sum_cells3 (tb p) (c s) /\
    sinter_total3 (tb p) (tA p) (tB p) (tn p) (tkappa p) (teps p ^ 3 / 2) (c t) (phi t) <=
    sinter_total3 (tb p) (tA p) (tB p) (tn p) (tkappa p) (teps p ^ 3 / 2) (c s) (phi s).
Proof.
  intros cx cy cz p T m d c phi N Sp Hn Co Ec Ep (ws & w & cold & fold & pold & Fc & Fp) s t Hs Ht.
  set (b := tb p) in *.
  set (mu := fun t => wang_mu3 p (c t) (phi t)). set (M := fun t => scaled (tcm p) (d t)).
  set (r := fun t i j k => tcm p * diverg3 b (mdiff b (M t) (mu t)) i j k).
  set (nu := fun t q i j k => 12 * tB p * wang_slope (tn p) (c t i j k) (phi t i j k) q - teps p ^ 3 / 2 * laplace3 b (component (phi t) q) i j k).
  assert (D : forall t i j k, 0 <= t <= T -> in_cells3 b i j k -> derivable_pt_lim (fun s => c s i j k) t (r t i j k)).
  { intros u i j k Hu Hij. pose proof (Fc u i j k Hu Hij) as D. cbv beta in D. rewrite conc_val in D by (cbn [at_time3 tn tb]; auto; lia). exact D. }
  assert (Dp : forall t i j k q, 0 <= t <= T -> in_cells3 b i j k -> (1 <= q <= tn p)%Z -> derivable_pt_lim (fun s => phi s i j k q) t (- (m t i j k * nu t q i j k))).
  { intros u i j k q Hu Hij Kq. pose proof (Fp q Kq u i j k Hu Hij) as D'. cbv beta in D'. rewrite phase_val in D' by (cbn [at_time3 tn tb]; auto; lia).
    cbn [at_time3 tpm teps tb tB tn] in D'. unfold nu. replace (- _) with (m u i j k *
       (teps p ^ 3 / 2 * laplace3 (tb p) (component (phi u) q) i j k - 12 * tB p * wang_slope (tn p) (c u i j k) (phi u i j k) q)) by (unfold b; ring). exact D'. }
  assert (X : forall t, 0 <= t <= T -> faces_match3 cx cy cz b (M t)) by (intros u Hu; apply scaled_match, Co; auto).
  assert (G : forall t, filled3 cx cy cz b (mu t)) by (intro u; apply wang_mu_filled; auto).
  split.
  - apply (constant_of_zero (fun t => sum_cells3 b (c t)) T); auto. intros u Hu.
    replace 0 with (sum_cells3 b (r u)); [apply cells_deriv; auto |]. unfold r. rewrite cells_scal, (no_source3 cx cy cz) by (auto; apply mdiff_ok; auto). ring.
  - apply (nonincreasing (fun t => sinter_total3 b (tA p) (tB p) (tn p) (tkappa p) (teps p ^ 3 / 2) (c t) (phi t)) T); auto. intros u Hu.
    exists (sum_cells3 b (fun i j k => mu u i j k * r u i j k) + sumZ 1 (tn p) (fun q => sum_cells3 b (fun i j k => - (m u i j k * nu u q i j k ^ 2)))). split.
    + replace (sum_cells3 b (fun i j k => mu u i j k * r u i j k) + _) with
        (sum_cells3 b (fun i j k => (2 * tA p * c u i j k * (1 - c u i j k) * (1 - 2 * c u i j k)
            + 2 * tB p * (c u i j k - 3 * sq_sum (tn p) (phi u i j k) + 2 * cu_sum (tn p) (phi u i j k))) * r u i j k
            + sumZ 1 (tn p) (fun q => 12 * tB p * wang_slope (tn p) (c u i j k) (phi u i j k) q * - (m u i j k * nu u q i j k)))
         + tkappa p * - sum_cells3 b (fun i j k => r u i j k * laplace3 b (c u) i j k)
         + teps p ^ 3 / 2 * sumZ 1 (tn p) (fun q => - sum_cells3 b (fun i j k => - (m u i j k * nu u q i j k) * laplace3 b (component (phi u) q) i j k))).
      2: { rewrite cells_plus, cells_sumZ. rewrite sumZ_opp.
           rewrite <- (Rmult_1_l (sum_cells3 b (fun i j k => r u i j k * _))), Ropp_mult_distr_l. rewrite <- Rmult_assoc.
           rewrite <- (cells_scal b (tkappa p * -1)).
           replace (teps p ^ 3 / 2 * - sumZ 1 (tn p) (fun q => sum_cells3 b (fun i j k => - (m u i j k * nu u q i j k) * laplace3 b (component (phi u) q) i j k)))
             with (sumZ 1 (tn p) (fun q => sum_cells3 b (fun i j k => teps p ^ 3 / 2 * (m u i j k * nu u q i j k) * laplace3 b (component (phi u) q) i j k))).
           2: { rewrite Ropp_mult_distr_r_reverse, Ropp_mult_distr_l, <- sumZ_scal. apply sumZ_ext. intros q _. rewrite <- cells_scal. apply cells_ext. intros. ring. }
           match goal with |- ?a + ?b' + ?c' + ?d' = _ => replace (a + b' + c' + d') with ((a + c') + (b' + d')) by ring end. f_equal.
           - rewrite <- cells_plus. apply cells_ext. intros i j k _. unfold mu, wang_mu3. fold b. ring.
           - rewrite <- sumZ_plus. apply sumZ_ext. intros q _. rewrite <- cells_plus. apply cells_ext. intros i j k _. unfold nu. ring. }
      unfold sinter_total3.
      apply (derivable_pt_lim_plus (fun t => sum_cells3 b (fun i j k => sintering_energy (tA p) (tB p) (tn p) (phi t i j k) (c t i j k)) + tkappa p * gradient_energy3 b (c t))
        (fun t => teps p ^ 3 / 2 * sumZ 1 (tn p) (fun q => gradient_energy3 b (fun i j k => phi t i j k q)))).
      * apply (derivable_pt_lim_plus (fun t => sum_cells3 b (fun i j k => sintering_energy (tA p) (tB p) (tn p) (phi t i j k) (c t i j k))) (fun t => tkappa p * gradient_energy3 b (c t))).
        -- apply (cells_deriv b (fun t i j k => sintering_energy (tA p) (tB p) (tn p) (phi t i j k) (c t i j k))). intros i j k Hij.
           apply (Sintering_Proofs.sinter_energy_deriv (tA p) (tB p) (tn p) (fun t => c t i j k) (fun t => phi t i j k) (r u i j k) (fun q => - (m u i j k * nu u q i j k))); auto.
        -- apply derivable_pt_lim_scal. apply (gradient_deriv cx cy cz); auto. intro v. apply extended_filled; auto.
      * apply derivable_pt_lim_scal. apply (sumZ_deriv 1 (tn p) (fun t q => gradient_energy3 b (fun i j k => phi t i j k q))). intros q Kq.
        apply (gradient_deriv cx cy cz b (fun t i j k => phi t i j k q) (fun i j k => - (m u i j k * nu u q i j k))); auto. intro v. apply extended_filled; auto.
    + destruct (Co u Hu) as [(Pm & P0 & P1 & P2) Xd].
      assert (A : sumZ 1 (tn p) (fun q => sum_cells3 b (fun i j k => - (m u i j k * nu u q i j k ^ 2))) <= 0).
      { apply Sintering_Proofs.sumZ_nonpos. intros q _. rewrite (cells_ext b _ (fun i j k => -1 * (m u i j k * nu u q i j k ^ 2))) by (intros; ring). rewrite cells_scal.
        assert (0 <= sum_cells3 b (fun i j k => m u i j k * nu u q i j k ^ 2)) by (apply cells_nonneg; intros; apply Rmult_le_pos; [auto | apply pow2_ge_0]). lra. }
      assert (B : sum_cells3 b (fun i j k => mu u i j k * r u i j k) <= 0); [| lra].
      rewrite (cells_ext b _ (fun i j k => mu u i j k * diverg3 b (mdiff b (scaled (tcm p ^ 2) (d u)) (mu u)) i j k)).
      2: { intros i j k _. unfold r, diverg3, mdiff, M, scaled, flux0, flux1, flux2, Rdiv. cbn [fst snd]. ring. }
      apply (dissipates cx cy cz); auto; [apply scaled_match; auto | | |]; intros i j k Hij; unfold scaled, flux0, flux1, flux2; cbn [fst snd];
        (apply Rmult_le_pos; [apply pow2_ge_0 |]); [apply (P0 i j k Hij) | apply (P1 i j k Hij) | apply (P2 i j k Hij)].
Qed.
Lemma sinter_plane : forall b p d2 c phi old fx fy w w2 ws ws2 rhs rhs2 crhs crhs2 i j k q, Sintering_Model.sb p = plane3 b -> (1 < Sintering_Model.sn p)%Z ->
  Sintering_Model.skind p = PhaseFlow_Model.FluxSimple -> spaced3 b -> in_cells3 b i j k -> (1 <= q <= Sintering_Model.sn p)%Z ->
  wang_conc_rhs3 (lift_sinter b p d2) (flat c) (flat4 phi) ws crhs i j k = Sintering_Model.wang_conc_rhs p c phi ws2 crhs2 i j /\
  wang_phase_rhs3 (lift_sinter b p d2) (flat c) (flat4 phi) old w rhs i j k q = Sintering_Model.wang_phase_rhs p c phi fx fy w2 rhs2 i j q.
Proof.
  intros b p d2 c phi old fx fy w w2 ws ws2 rhs rhs2 crhs crhs2 i j k q Eb Hn Hk Sp Hij Hq. pose proof Sp as (X & Y & W). pose proof Hij as (Hi & Hj & Hkk). split.
  - rewrite conc_val by (auto; cbn [lift_sinter tn]; lia).
    rewrite Sintering_Proofs.wang_conc_val by (rewrite ?Eb; cbn [plane3 PhaseFlow_Model.h1 PhaseFlow_Model.h2]; first [assumption | lia | split; assumption]).
    rewrite Eb. cbn [lift_sinter tcm tb tdiff plane3 PhaseFlow_Model.h1 PhaseFlow_Model.h2]. f_equal.
    apply div_flat; try reflexivity. intros a e g. unfold wang_mu3, Sintering_Proofs.wang_mu. cbn [lift_sinter tA tB tn tkappa tb].
    rewrite Trap3_Proofs.laplace_flat, Eb. reflexivity.
  - rewrite phase_val by (cbn [lift_sinter tn tb]; auto).
    rewrite Sintering_Proofs.wang_phase_simple by (rewrite ?Eb; cbn [plane3 PhaseFlow_Model.h1 PhaseFlow_Model.h2]; auto; split; assumption).
    cbn [lift_sinter tpm teps tB tn tb]. rewrite Eb. cbn [plane3 PhaseFlow_Model.h1 PhaseFlow_Model.h2].
    change (component (flat4 phi) q) with (flat (fun a e => phi a e q)). rewrite Trap3_Proofs.laplace_flat. reflexivity.
Qed.

(** * Multi-order-parameter model *)
Lemma upd4_twice : forall r i j k p x y, upd4 (upd4 r i j k p x) i j k p y = upd4 r i j k p y.
Proof.
  intros. extensionality a. extensionality e. extensionality c. extensionality q. unfold upd4.
  destruct ((a =? i)%Z && (e =? j)%Z && (c =? k)%Z && (q =? p)%Z)%bool; reflexivity.
Qed.
Lemma multiorder_at : forall b n f gamma m phi w rhs i j k p,
  computerhsmultiorder3 b n f gamma m phi w rhs i j k p =
  if (inb (xl b) (xu b) i && inb (yl b) (yu b) j && inb (zl b) (zu b) k && inb 1 n p)%bool
  then diverg3 b (part3 f p) i j k - m * (phi i j k p ^ 3 - phi i j k p + 2 * gamma * phi i j k p * (sq_sum n (phi i j k) - phi i j k p)) else rhs i j k p.
Proof.
  intros b n [[f0 f1] f2] gamma m phi w rhs i j k p. unfold computerhsmultiorder3. cbv zeta. set (P := phi2sum_box3 b n phi w).
  set (G := fun i j k ip => 1 / hx b * (f0 (i + 1)%Z j k ip - f0 i j k ip) + 1 / hy b * (f1 i (j + 1)%Z k ip - f1 i j k ip)
     + 1 / hz b * (f2 i j (k + 1)%Z ip - f2 i j k ip)
     - m * (phi i j k ip * (phi i j k ip * phi i j k ip - 1) + 2 * phi i j k ip * gamma * (P i j k - phi i j k ip))).
  transitivity (do_loop 1 n (fun ip => do_cells3 (xl b) (xu b) (yl b) (yu b) (zl b) (zu b) (fun i j k r => upd4 r i j k ip (G i j k ip))) rhs i j k p).
  - refine (f_equal (fun body => do_loop 1 n (fun ip => do_cells3 (xl b) (xu b) (yl b) (yu b) (zl b) (zu b) (body ip)) rhs i j k p) _).
    extensionality ip. extensionality a. extensionality e. extensionality c. extensionality r. rewrite upd4_twice, upd4_same. reflexivity.
  - refine (eq_trans (comp4 b n (fun i j k ip _ => G i j k ip) rhs i j k p) _).
    destruct (inb_spec (xl b) (xu b) i); cbn [andb]; [| reflexivity]. destruct (inb_spec (yl b) (yu b) j); cbn [andb]; [| reflexivity].
    destruct (inb_spec (zl b) (zu b) k); cbn [andb]; [| reflexivity]. destruct (inb_spec 1 n p); [| reflexivity].
    unfold G, P. rewrite phi2sum_val by (try lia; unfold in_cells3, in_box3; lia).
    unfold diverg3, part3, flux0, flux1, flux2, Rdiv. cbn [fst snd]. ring.
Qed.
Lemma multiorder_value : forall b n f gamma m phi w rhs i j k p, in_cells3 b i j k -> (1 <= p <= n)%Z ->
  computerhsmultiorder3 b n f gamma m phi w rhs i j k p =
  diverg3 b (part3 f p) i j k - m * (phi i j k p ^ 3 - phi i j k p + 2 * gamma * phi i j k p * (sq_sum n (phi i j k) - phi i j k p)).
Proof. intros b n f gamma m phi w rhs i j k p (Hi & Hj & Hk) Hp. rewrite multiorder_at, !inb_in by lia. reflexivity. Qed.
Lemma multiorder_outside : forall b n f gamma m phi w rhs i j k p, ~ (in_cells3 b i j k /\ (1 <= p <= n)%Z) ->
  computerhsmultiorder3 b n f gamma m phi w rhs i j k p = rhs i j k p.
Proof.
  intros b n f gamma m phi w rhs i j k p H. rewrite multiorder_at. unfold in_cells3, in_box3 in H.
  destruct (inb_spec (xl b) (xu b) i), (inb_spec (yl b) (yu b) j), (inb_spec (zl b) (zu b) k), (inb_spec 1 n p); cbn [andb]; try reflexivity. exfalso. apply H. lia.
Qed.
Lemma multiorder_gradient : forall b n f gamma m phi w rhs i j k p, in_cells3 b i j k -> (1 <= p <= n)%Z -> m <> 0 -> gamma <> 0 ->
  let r := computerhsmultiorder3 b n f gamma m phi w rhs i j k p in
  derivable_pt_lim (fun x => moelans_energy m gamma n (setZ (phi i j k) p x)) (phi i j k p) (diverg3 b (part3 f p) i j k - r)
  <-> phi i j k p = 0 \/ phi i j k p = 1.
Proof.
  intros b n f gamma m phi w rhs i j k p Hij Hp Hm Hg r. unfold r. rewrite multiorder_value by auto. set (x := phi i j k p).
  set (D := diverg3 _ _ _ _ _). pose proof (Transport_Proofs.moelans_deriv m gamma n (phi i j k) p Hp) as HD. fold x in HD. split.
  - intro H. pose proof (uniqueness_limite _ _ _ _ HD H) as E.
    assert (E2 : m * gamma * (x * x * (x - 1)) = 0).
    { apply Rminus_diag_eq in E. ring_simplify in E. ring_simplify. lra. }
    apply Rmult_integral in E2. destruct E2 as [E2 | E2].
    + apply Rmult_integral in E2. destruct E2; contradiction.
    + apply Rmult_integral in E2. destruct E2 as [E2 | E2]; [| right; lra].
      left. apply Rmult_integral in E2. destruct E2 as [E2 | E2]; exact E2.
  - intros [H | H].
    + replace (D - _) with (m * (x ^ 3 - x + 2 * gamma * x * (sq_sum n (phi i j k) - x ^ 2))); [exact HD |]. rewrite H. ring.
    + replace (D - _) with (m * (x ^ 3 - x + 2 * gamma * x * (sq_sum n (phi i j k) - x ^ 2))); [exact HD |]. rewrite H. ring.
Qed.
Lemma multiorder_plane : forall b n f0 f1 f2 gamma m phi w w2 rhs rhs2 i j k p, hx b <> 0 -> hy b <> 0 -> in_cells3 b i j k -> (1 <= p <= n)%Z ->
  (forall i j k, f2 i j k p = 0) ->
  computerhsmultiorder3 b n (flat4 f0, flat4 f1, f2) gamma m (flat4 phi) w rhs i j k p =
  Transport_Model.computerhsmultiorder (xl b) (xu b) (yl b) (yu b) n (hx b) (hy b) f0 f1 gamma m phi w2 rhs2 i j p.
Proof.
  intros b n f0 f1 f2 gamma m phi w w2 rhs rhs2 i j k p X Y Hij Hp E2. rewrite multiorder_value by auto. destruct Hij as (Hi & Hj & Hk).
  rewrite Transport_Proofs.multiorder_value by (auto; first [lia | split; assumption]).
  unfold diverg3, part3, flux0, flux1, flux2, diverg, flat4. cbn [fst snd]. rewrite !E2. change (fun c => phi i j c) with (phi i j). unfold Rdiv. ring.
Qed.

(** * Rigid motion *)
Lemma rb_at : forall b f v rhs i j k, addrbmotion3 b f v rhs i j k =
  if (inb (xl b) (xu b) i && inb (yl b) (yu b) j && inb (zl b) (zu b) k)%bool then rhs i j k - advection b v f i j k else rhs i j k.
Proof.
  intros b f v rhs i j k. unfold addrbmotion3. cbv zeta.
  refine (eq_trans (cells3_loop (xl b) (xu b) (yl b) (yu b) (zl b) (zu b) (fun i j k x => x - 1 / 2 * v 0%Z / hx b * (f (i + 1)%Z j k - f (i - 1)%Z j k)
    - 1 / 2 * v 1%Z / hy b * (f i (j + 1)%Z k - f i (j - 1)%Z k) - 1 / 2 * v 2%Z / hz b * (f i j (k + 1)%Z - f i j (k - 1)%Z)) rhs i j k) _).
  destruct (inb _ _ i && inb _ _ j && inb _ _ k)%bool; [| reflexivity]. unfold advection, Rdiv. rewrite !Rinv_mult. ring.
Qed.
Lemma rb_phase_gen : forall b m v phi rhs, (0 <= m)%Z -> forall i j k q,
  do_loop 1 m (fun p r => fun i j k q => if (q =? p)%Z then addrbmotion3 b (component phi p) (v p) (component r p) i j k else r i j k q) rhs i j k q =
  if ((1 <=? q) && (q <=? m))%Z then addrbmotion3 b (component phi q) (v q) (component rhs q) i j k else rhs i j k q.
Proof.
  intros b m v phi rhs Hm. revert m Hm.
  apply (natlike_ind (fun m => forall i j k q,
    do_loop 1 m (fun p r => fun i j k q => if (q =? p)%Z then addrbmotion3 b (component phi p) (v p) (component r p) i j k else r i j k q) rhs i j k q =
    if ((1 <=? q) && (q <=? m))%Z then addrbmotion3 b (component phi q) (v q) (component rhs q) i j k else rhs i j k q)).
  - intros i j k q. rewrite do_loop_empty by lia. destruct (Z.leb_spec 1 q), (Z.leb_spec q 0); try lia; reflexivity.
  - intros m Hm IH i j k q. unfold Z.succ. rewrite do_loop_snoc by lia. replace (m + 1 - 1)%Z with m by lia.
    destruct (Z.eqb_spec q (m + 1)) as [-> | Ne].
    + rewrite (proj2 (Z.leb_le 1 (m + 1))), Z.leb_refl by lia. cbn [andb]. f_equal.
      extensionality a. extensionality e. extensionality c. unfold component at 1. rewrite IH.
      destruct (Z.leb_spec (m + 1) m); [lia |]. rewrite andb_false_r. reflexivity.
    + rewrite IH. destruct (Z.leb_spec 1 q), (Z.leb_spec q m), (Z.leb_spec q (m + 1)); try lia; reflexivity.
Qed.
Lemma rb_phase_value : forall b n v phi rhs i j k q, (1 <= n)%Z ->
  (in_cells3 b i j k -> (1 <= q < n)%Z -> rb_phase3 b n v phi rhs i j k q = rhs i j k q - advection b (v q) (fun a e c => phi a e c q) i j k) /\
  (~ in_cells3 b i j k \/ ~ (1 <= q < n)%Z -> rb_phase3 b n v phi rhs i j k q = rhs i j k q).
Proof.
  intros b n v phi rhs i j k q Hn. unfold rb_phase3. rewrite rb_phase_gen by lia. rewrite rb_at. unfold in_cells3, in_box3. split.
  - intros (Hi & Hj & Hk) Hq. rewrite !inb_in by lia. rewrite !(proj2 (Z.leb_le _ _)) by lia. reflexivity.
  - intro H. destruct (Z.leb_spec 1 q), (Z.leb_spec q (n - 1)); cbn [andb]; try reflexivity.
    destruct (inb_spec (xl b) (xu b) i), (inb_spec (yl b) (yu b) j), (inb_spec (zl b) (zu b) k); cbn [andb]; try reflexivity. exfalso. destruct H as [H | H]; apply H; lia.
Qed.
Lemma rb_conc_gen : forall b m v phi rhs i j k, (0 <= m)%Z ->
  do_loop 1 m (fun p r => addrbmotion3 b (component phi p) (v p) r) rhs i j k =
  if (inb (xl b) (xu b) i && inb (yl b) (yu b) j && inb (zl b) (zu b) k)%bool
  then rhs i j k - sumZ 1 m (fun p => advection b (v p) (component phi p) i j k) else rhs i j k.
Proof.
  intros b m v phi rhs i j k Hm. revert m Hm.
  apply (natlike_ind (fun m => do_loop 1 m (fun p r => addrbmotion3 b (component phi p) (v p) r) rhs i j k =
    if (inb (xl b) (xu b) i && inb (yl b) (yu b) j && inb (zl b) (zu b) k)%bool
    then rhs i j k - sumZ 1 m (fun p => advection b (v p) (component phi p) i j k) else rhs i j k)).
  - rewrite do_loop_empty, sumZ_empty by lia. destruct (inb _ _ i && inb _ _ j && inb _ _ k)%bool; ring.
  - intros m Hm IH. unfold Z.succ. rewrite do_loop_snoc, sumZ_snoc by lia. replace (m + 1 - 1)%Z with m by lia.
    rewrite rb_at, IH. destruct (inb _ _ i && inb _ _ j && inb _ _ k)%bool; ring.
Qed.
Lemma rb_conc_value : forall b n v phi rhs i j k, (1 <= n)%Z ->
  (in_cells3 b i j k -> rb_conc3 b n v phi rhs i j k = rhs i j k - sumZ 1 (n - 1) (fun q => advection b (v q) (fun a e c => phi a e c q) i j k)) /\
  (~ in_cells3 b i j k -> rb_conc3 b n v phi rhs i j k = rhs i j k).
Proof.
  intros b n v phi rhs i j k Hn. unfold rb_conc3. rewrite rb_conc_gen by lia. unfold in_cells3, in_box3. split.
  - intros (Hi & Hj & Hk). rewrite !inb_in by lia. reflexivity.
  - intro H. destruct (inb_spec (xl b) (xu b) i), (inb_spec (yl b) (yu b) j), (inb_spec (zl b) (zu b) k); cbn [andb]; try reflexivity. exfalso. apply H. lia.
Qed.
(** the central gradient is the divergence of means *)
Lemma advection_sum : forall b v f, nonempty3 b -> extended3 Periodic Periodic Periodic b f -> sum_cells3 b (advection b v f) = 0.
Proof.
  intros b v f N (E0 & E1 & E2).
  set (F := (fun i j k => v 0%Z * ((f i j k + f (i - 1)%Z j k) / 2), fun i j k => v 1%Z * ((f i j k + f i (j - 1)%Z k) / 2),
             fun i j k => v 2%Z * ((f i j k + f i j (k - 1)%Z) / 2)) : arr3x3).
  rewrite (cells_ext b _ (diverg3 b F)).
  - apply (no_source3 Periodic Periodic Periodic b F); auto. unfold F, flux_ok3, flux0, flux1, flux2, Sintering_Proofs.row_flux_ok. cbn [fst snd]. repeat split.
    + intros j k _ _. pose proof (Sintering_Proofs.extended1_filled _ _ _ _ (E0 j k)) as [A B]. cbv beta in A, B. rewrite A, B. replace (xu b + 1 - 1)%Z with (xu b) by lia. reflexivity.
    + intros i k _ _. pose proof (Sintering_Proofs.extended1_filled _ _ _ _ (E1 i k)) as [A B]. cbv beta in A, B. rewrite A, B. replace (yu b + 1 - 1)%Z with (yu b) by lia. reflexivity.
    + intros i j _ _. pose proof (Sintering_Proofs.extended1_filled _ _ _ _ (E2 i j)) as [A B]. cbv beta in A, B. rewrite A, B. replace (zu b + 1 - 1)%Z with (zu b) by lia. reflexivity.
  - intros i j k _. unfold advection, diverg3, F, flux0, flux1, flux2. cbn [fst snd].
    replace (i + 1 - 1)%Z with i by lia. replace (j + 1 - 1)%Z with j by lia. replace (k + 1 - 1)%Z with k by lia. unfold Rdiv. rewrite !Rinv_mult. ring.
Qed.
Lemma rb_mass : forall b n v phi rhs crhs, (1 <= n)%Z -> nonempty3 b ->
  (forall q, (1 <= q < n)%Z -> extended3 Periodic Periodic Periodic b (fun i j k => phi i j k q)) ->
  sum_cells3 b (rb_conc3 b n v phi crhs) = sum_cells3 b crhs /\
  forall q, sum_cells3 b (fun i j k => rb_phase3 b n v phi rhs i j k q) = sum_cells3 b (fun i j k => rhs i j k q).
Proof.
  intros b n v phi rhs crhs Hn N E. split.
  - rewrite (cells_ext b _ (fun i j k => crhs i j k + -1 * sumZ 1 (n - 1) (fun q => advection b (v q) (fun a e c => phi a e c q) i j k))).
    + rewrite cells_plus, cells_scal, cells_sumZ. rewrite (sumZ_ext 1 (n - 1) _ (fun _ => 0)); [rewrite sumZ_zero; ring |].
      intros q Hq. apply (advection_sum b (v q) (fun a e c => phi a e c q)); auto. apply E. lia.
    + intros i j k Hij. rewrite (proj1 (rb_conc_value b n v phi crhs i j k Hn) Hij). ring.
  - intro q. destruct (Z_lt_dec q 1) as [L | L]; [| destruct (Z_lt_dec q n) as [U | U]].
    + apply cells_ext. intros i j k _. apply (proj2 (rb_phase_value b n v phi rhs i j k q Hn)). right. lia.
    + rewrite (cells_ext b _ (fun i j k => rhs i j k q + -1 * advection b (v q) (fun a e c => phi a e c q) i j k)).
      * rewrite (cells_plus b (fun i j k => rhs i j k q)), cells_scal.
        change (sum_cells3 b (fun i j k => advection b (v q) (fun a e c => phi a e c q) i j k)) with (sum_cells3 b (advection b (v q) (fun a e c => phi a e c q))).
        rewrite advection_sum by (auto; apply E; lia). ring.
      * intros i j k Hij. rewrite (proj1 (rb_phase_value b n v phi rhs i j k q Hn) Hij) by lia. ring.
    + apply cells_ext. intros i j k _. apply (proj2 (rb_phase_value b n v phi rhs i j k q Hn)). right. lia.
Qed.
Lemma rb_plane : forall b n v phi rhs crhs i j k q, (1 <= n)%Z -> in_cells3 b i j k ->
  rb_phase3 b n v (flat4 phi) (flat4 rhs) i j k q = Sintering_Model.rb_phase (plane3 b) n v phi rhs i j q /\
  rb_conc3 b n v (flat4 phi) (flat crhs) i j k = Sintering_Model.rb_conc (plane3 b) n v phi crhs i j.
Proof.
  intros b n v phi rhs crhs i j k q Hn Hij. pose proof Hij as (Hi & Hj & Hk).
  assert (A : forall p, advection b (v p) (fun a e c => flat4 phi a e c p) i j k =
    v p 0%Z * Sintering_Spec.cgrad (plane3 b) (fun a e => phi a e p) 0 i j + v p 1%Z * Sintering_Spec.cgrad (plane3 b) (fun a e => phi a e p) 1 i j).
  { intro p. unfold advection, flat4, Sintering_Spec.cgrad. cbn [plane3 PhaseFlow_Model.h1 PhaseFlow_Model.h2]. change ((0 =? 0)%Z) with true. change ((1 =? 0)%Z) with false. cbv iota. unfold Rdiv. ring. }
  split.
  - rewrite Sintering_Proofs.rb_phase_value by (auto; split; assumption).
    destruct (Z.leb_spec 1 q) as [L | L]; [destruct (Z.leb_spec q (n - 1)) as [U | U] |]; cbn [andb].
    + rewrite (proj1 (rb_phase_value b n v (flat4 phi) (flat4 rhs) i j k q Hn) Hij) by lia. rewrite A. reflexivity.
    + rewrite (proj2 (rb_phase_value b n v (flat4 phi) (flat4 rhs) i j k q Hn)) by (right; lia). unfold flat4. ring.
    + rewrite (proj2 (rb_phase_value b n v (flat4 phi) (flat4 rhs) i j k q Hn)) by (right; lia). unfold flat4. ring.
  - rewrite Sintering_Proofs.rb_conc_value by (auto; split; assumption). rewrite (proj1 (rb_conc_value b n v (flat4 phi) (flat crhs) i j k Hn) Hij).
    unfold flat at 1. f_equal. apply sumZ_ext. intros p _. apply A.
Qed.

(** * Rates *)
Lemma sinter_rates : forall p c phi old w rhs i j k q e, (1 < tn p)%Z -> (1 <= q <= tn p)%Z -> in_cells3 (tb p) i j k ->
  derivable_pt_lim (fun x => sintering_energy (tA p) (tB p) (tn p) (setZ (phi i j k) q x) (c i j k)) (phi i j k q) e ->
  wang_phase_rhs3 p c phi old w rhs i j k q = tpm p i j k * (teps p ^ 3 / 2 * laplace3 (tb p) (fun a b c => phi a b c q) i j k - e).
Proof.
  intros p c phi old w rhs i j k q e Hn Hq Hij D. rewrite phase_val by auto.
  rewrite (uniqueness_limite _ _ _ _ D (Transport_Proofs.sinter_deriv_phi _ _ _ _ _ _ Hq)). reflexivity.
Qed.
Lemma rates_outside : forall b m ca cb kappa ws c rhs p phi old w ws' prhs i j k q,
  (~ in_cells3 b i j k -> cahn_hilliard_rhs3 b m ca cb kappa ws c rhs i j k = rhs i j k) /\
  (~ in_cells3 (tb p) i j k -> wang_conc_rhs3 p c phi ws' rhs i j k = rhs i j k) /\
  (~ (in_cells3 (tb p) i j k /\ (1 <= q <= tn p)%Z) -> wang_phase_rhs3 p c phi old w prhs i j k q = prhs i j k q).
Proof.
  intros b m ca cb kappa ws c rhs p phi old w ws' prhs i j k q. unfold in_cells3, in_box3. repeat split; intro H.
  - unfold cahn_hilliard_rhs3. rewrite conc_rhs_val.
    destruct (inb_spec (xl b) (xu b) i), (inb_spec (yl b) (yu b) j), (inb_spec (zl b) (zu b) k); cbn [andb]; try reflexivity. exfalso. apply H. lia.
  - unfold wang_conc_rhs3. rewrite conc_rhs_val.
    destruct (inb_spec (xl (tb p)) (xu (tb p)) i), (inb_spec (yl (tb p)) (yu (tb p)) j), (inb_spec (zl (tb p)) (zu (tb p)) k); cbn [andb]; try reflexivity. exfalso. apply H. lia.
  - unfold wang_phase_rhs3, times_mobility3. cbv zeta. rewrite (comp4 (tb p) (tn p) (fun i j k _ x => x * tpm p i j k)), wang_rhs_val.
    destruct (inb_spec (xl (tb p)) (xu (tb p)) i), (inb_spec (yl (tb p)) (yu (tb p)) j), (inb_spec (zl (tb p)) (zu (tb p)) k), (inb_spec 1 (tn p) q); cbn [andb]; try reflexivity. exfalso. apply H. lia.
Qed.
