(** Proofs for prescribed temperatures and heat capacities. *)
From Coq Require Import Reals ZArith List Bool Lra Lia Psatz Permutation.
From Verif Require Import Grid_Model Grid_Spec Grid_Proofs TempHistory_Model TempHistory_Spec TempHistory_Proofs.
From Verif Require Import PhaseFlow_Model PhaseFlow_Spec PhaseFlow_Proofs Temperature_Model Temperature_Spec.
Import ListNotations.
Open Scope R_scope.
Set Bullet Behavior "Strict Subproofs".

Lemma grown_val : forall b ng g f i j, in_grown b ng i j -> cells_grown b ng g f i j = g i j (f i j).
Proof.
  intros b ng g f i j [Hi Hj]. unfold cells_grown. rewrite cells_loop.
  destruct (inb_spec (lo0 b - ng) (hi0 b + ng) i); [| lia]. destruct (inb_spec (lo1 b - ng) (hi1 b + ng) j); [reflexivity | lia].
Qed.
Lemma grown_out : forall b ng g f i j, ~ in_grown b ng i j -> cells_grown b ng g f i j = f i j.
Proof.
  intros b ng g f i j H. unfold cells_grown. rewrite cells_loop. unfold in_grown, in_box in H.
  destruct (inb_spec (lo0 b - ng) (hi0 b + ng) i); [| reflexivity]. destruct (inb_spec (lo1 b - ng) (hi1 b + ng) j); [lia | reflexivity].
Qed.
Lemma grown_cells : forall b i j, in_cells b i j <-> in_grown b 0 i j.
Proof. intros b i j. unfold in_cells, in_grown, in_box. lia. Qed.

(** ** Uniform temperature *)
Lemma scalar_ramp : forall s t, s_rate s <= 0 \/ 0 < s_target s -> scalarCurrentTemperature s t = ramp (s_temperature0 s) (s_rate s) (s_target s) t.
Proof.
  intros s t H. unfold scalarCurrentTemperature, ramp. cbv zeta. set (u := s_temperature0 s + s_rate s * t).
  destruct (Rlt_dec (s_rate s) 0).
  - destruct (Rlt_dec u (s_target s)); [rewrite Rmax_left | rewrite Rmax_right]; lra.
  - destruct (Rlt_dec 0 (s_rate s)).
    + destruct (Rlt_dec 0 (s_target s)); [| lra]. destruct (Rgt_dec u (s_target s)); [rewrite Rmin_left | rewrite Rmin_right]; lra.
    + assert (E : s_rate s = 0) by lra. assert (U : u = s_temperature0 s) by (unfold u; rewrite E; ring).
      destruct (Rlt_dec 0 (s_target s)); exact U.
Qed.
Lemma scalar_unlimited : forall s t, 0 < s_rate s -> s_target s <= 0 -> scalarCurrentTemperature s t = s_temperature0 s + s_rate s * t.
Proof.
  intros s t H1 H2. unfold scalarCurrentTemperature. cbv zeta. destruct (Rlt_dec (s_rate s) 0); [lra |]. destruct (Rlt_dec 0 (s_target s)); [lra | reflexivity].
Qed.
Lemma gauss_ramp : forall g t, gaussCurrentTemperature g t = ramp (g_initial g) (g_rate g) (g_target g) t.
Proof.
  intros g t. unfold gaussCurrentTemperature, ramp. cbv zeta. set (u := g_initial g + g_rate g * t).
  destruct (Rlt_dec (g_rate g) 0).
  - destruct (Rlt_dec u (g_target g)); [rewrite Rmax_left | rewrite Rmax_right]; lra.
  - destruct (Rlt_dec 0 (g_rate g)).
    + destruct (Rgt_dec u (g_target g)); [rewrite Rmin_left | rewrite Rmin_right]; lra.
    + assert (E : g_rate g = 0) by lra. unfold u. rewrite E. ring.
Qed.
Lemma ramp_facts : forall T0 r target, ahead T0 r target ->
  ramp T0 r target 0 = T0 /\
  (forall s t, 0 <= s <= t -> Rabs (ramp T0 r target t - ramp T0 r target s) <= Rabs r * (t - s)) /\
  (forall s t, 0 <= s <= t -> (r <= 0 -> ramp T0 r target t <= ramp T0 r target s) /\ (0 <= r -> ramp T0 r target s <= ramp T0 r target t)) /\
  (forall t, 0 <= t -> r <> 0 -> Rmin T0 target <= ramp T0 r target t <= Rmax T0 target) /\
  (forall t, 0 <= t -> r <> 0 -> (ramp T0 r target t = target <-> (target - T0) / r <= t)).
Proof.
  intros T0 r target [Hc Hh]. unfold ramp.
  destruct (Rlt_dec r 0) as [Hr | Hr]; [| destruct (Rlt_dec 0 r) as [Hr' | Hr']].
  - pose proof (Hc Hr) as Hc'. split; [| split; [| split; [| split]]].
    + rewrite Rmax_right; lra.
    + intros s t Hst. assert (M : r * t <= r * s) by (apply Rmult_le_compat_neg_l; lra). rewrite (Rabs_left r) by lra.
      unfold Rmax. destruct (Rle_dec target (T0 + r * t)), (Rle_dec target (T0 + r * s)); apply Rabs_le; nra.
    + intros s t Hst. split; intro; [| lra]. assert (M : r * t <= r * s) by (apply Rmult_le_compat_neg_l; lra).
      unfold Rmax. destruct (Rle_dec target (T0 + r * t)), (Rle_dec target (T0 + r * s)); lra.
    + intros t Ht _. assert (r * t <= 0) by nra. rewrite (Rmin_right T0 target), (Rmax_left T0 target) by lra.
      unfold Rmax. destruct (Rle_dec target (T0 + r * t)); lra.
    + intros t Ht _. assert (E : (target - T0) / r <= t <-> r * t <= target - T0).
      { split; intro H. - apply (Rmult_le_compat_neg_l r) in H; [| lra]. replace (r * ((target - T0) / r)) with (target - T0) in H by (field; lra). lra.
        - apply (Rmult_le_reg_l (- r)); [lra |]. replace (- r * ((target - T0) / r)) with (- (target - T0)) by (field; lra). lra. }
      rewrite E. unfold Rmax. destruct (Rle_dec target (T0 + r * t)); split; intro; lra.
  - pose proof (Hh Hr') as Hh'. split; [| split; [| split; [| split]]].
    + rewrite Rmin_right; lra.
    + intros s t Hst. assert (M : r * s <= r * t) by (apply Rmult_le_compat_l; lra). rewrite (Rabs_right r) by lra.
      unfold Rmin. destruct (Rle_dec target (T0 + r * t)), (Rle_dec target (T0 + r * s)); apply Rabs_le; nra.
    + intros s t Hst. split; intro; [lra |]. assert (M : r * s <= r * t) by (apply Rmult_le_compat_l; lra).
      unfold Rmin. destruct (Rle_dec target (T0 + r * t)), (Rle_dec target (T0 + r * s)); lra.
    + intros t Ht _. assert (0 <= r * t) by nra. rewrite (Rmin_left T0 target), (Rmax_right T0 target) by lra.
      unfold Rmin. destruct (Rle_dec target (T0 + r * t)); lra.
    + intros t Ht _. assert (E : (target - T0) / r <= t <-> target - T0 <= r * t).
      { split; intro H. - apply (Rmult_le_compat_l r) in H; [| lra]. replace (r * ((target - T0) / r)) with (target - T0) in H by (field; lra). lra.
        - apply (Rmult_le_reg_l r); [lra |]. replace (r * ((target - T0) / r)) with (target - T0) by (field; lra). lra. }
      rewrite E. unfold Rmin. destruct (Rle_dec target (T0 + r * t)); split; intro; lra.
  - assert (r = 0) by lra. subst r. rewrite Rabs_R0. split; [reflexivity |]. split; [intros; replace (T0 - T0) with 0 by ring; rewrite Rabs_R0; lra |].
    split; [intros; lra |]. split; intros; lra.
Qed.
Lemma scalar_facts : forall s, (s_rate s <= 0 \/ 0 < s_target s) -> ahead (s_temperature0 s) (s_rate s) (s_target s) ->
  let T := scalarCurrentTemperature s in
  T 0 = s_temperature0 s /\
  (forall a t, 0 <= a <= t -> Rabs (T t - T a) <= Rabs (s_rate s) * (t - a)) /\
  (forall a t, 0 <= a <= t -> (s_rate s <= 0 -> T t <= T a) /\ (0 <= s_rate s -> T a <= T t)) /\
  (forall t, 0 <= t -> s_rate s <> 0 -> Rmin (s_temperature0 s) (s_target s) <= T t <= Rmax (s_temperature0 s) (s_target s)) /\
  (forall t, 0 <= t -> s_rate s <> 0 -> (T t = s_target s <-> (s_target s - s_temperature0 s) / s_rate s <= t)).
Proof.
  intros s H A T. destruct (ramp_facts _ _ _ A) as (A1 & A2 & A3 & A4 & A5).
  assert (E : forall t, T t = ramp (s_temperature0 s) (s_rate s) (s_target s) t) by (intro; apply scalar_ramp; auto).
  split; [rewrite E; exact A1 |]. split; [intros; rewrite !E; auto |]. split; [intros; rewrite !E; auto |].
  split; intros; rewrite !E; auto.
Qed.
Lemma scalar_wrong_side : forall s, (s_rate s < 0 /\ s_temperature0 s < s_target s) \/ (0 < s_rate s /\ 0 < s_target s < s_temperature0 s) ->
  forall t, 0 <= t -> scalarCurrentTemperature s t = s_target s.
Proof.
  intros s H t Ht. rewrite scalar_ramp by lra. unfold ramp. destruct H as [[H1 H2] | [H1 H2]].
  - destruct (Rlt_dec (s_rate s) 0); [| lra]. apply Rmax_left. assert (s_rate s * t <= 0) by nra. lra.
  - destruct (Rlt_dec (s_rate s) 0); [lra |]. destruct (Rlt_dec 0 (s_rate s)); [| lra]. apply Rmin_left. assert (0 <= s_rate s * t) by nra. lra.
Qed.
Lemma scalar_constant : forall s t, s_rate s = 0 -> scalarCurrentTemperature s t = s_temperature0 s.
Proof.
  intros s t H. rewrite scalar_ramp by lra. unfold ramp. destruct (Rlt_dec (s_rate s) 0); [lra |]. destruct (Rlt_dec 0 (s_rate s)); [lra | reflexivity].
Qed.
Definition uniform (b : pbox) (ng : Z) (T : R) (f : temps) : Prop :=
  (forall i j, in_cells b i j -> fst f i j = T) /\ (forall i j, in_grown b ng i j -> snd f i j = T).
Lemma set_scalar_sets : forall s b ng t f, s_rate s <> 0 \/ t = 0 -> uniform b ng (scalarCurrentTemperature s t) (set_scalar s b ng t f).
Proof.
  intros s b ng t f H. unfold set_scalar.
  assert (U : uniform b ng (scalarCurrentTemperature s t) (cells_grown b 0 (fun _ _ _ => scalarCurrentTemperature s t) (fst f), cells_grown b ng (fun _ _ _ => scalarCurrentTemperature s t) (snd f))).
  { split; intros i j Hij; cbn [fst snd]; rewrite grown_val; auto. apply grown_cells; auto. }
  destruct (Req_EM_T (s_rate s) 0); [destruct (Req_EM_T t 0); [exact U | exfalso; destruct H; contradiction] | exact U].
Qed.
Lemma scalar_field : forall s b ng times t f,
  let f' := scalar_calls s b ng ((0 :: times) ++ [t]) f in
  (forall i j, in_cells b i j -> fst f' i j = scalarCurrentTemperature s t) /\
  (forall i j, in_grown b ng i j -> snd f' i j = scalarCurrentTemperature s t).
Proof.
  intros s b ng times t f. unfold scalar_calls. cbv zeta. rewrite fold_left_app. cbn [fold_left].
  destruct (Req_EM_T (s_rate s) 0) as [H | H]; [| apply set_scalar_sets; auto].
  assert (G : forall l g, uniform b ng (s_temperature0 s) g -> uniform b ng (s_temperature0 s) (fold_left (fun f t => set_scalar s b ng t f) l g)).
  { induction l as [| u l IH]; intros g Hg; [exact Hg |]. cbn [fold_left]. apply IH. 
    destruct (Req_EM_T u 0) as [Hu | Hu]; [rewrite <- (scalar_constant s u H); apply set_scalar_sets; auto |].
    unfold set_scalar. destruct (Req_EM_T (s_rate s) 0); [| contradiction]. destruct (Req_EM_T u 0); [contradiction | exact Hg]. }
  rewrite (scalar_constant s t H).
  pose proof (G (times ++ [t]) (set_scalar s b ng 0 f)) as Q. rewrite fold_left_app in Q. cbn [fold_left] in Q. apply Q.
  rewrite <- (scalar_constant s 0 H). apply set_scalar_sets. auto.
Qed.

(** ** Gaussian temperature *)
Lemma nearest_shift : forall ll y d k, nearest_image ll (y + IZR k * ll) d <-> nearest_image ll y d.
Proof.
  assert (G : forall ll y d k, nearest_image ll (y + IZR k * ll) d -> nearest_image ll y d).
  { intros ll y d k [[m Hm] H]. split.
    - exists (k + m)%Z. rewrite Hm, plus_IZR. f_equal. ring.
    - intro n. specialize (H (n - k)%Z). rewrite minus_IZR in H. replace (y + IZR n * ll) with (y + IZR k * ll + (IZR n - IZR k) * ll) by ring. exact H. }
  intros ll y d k. split; [apply G |]. intro H. apply (G ll (y + IZR k * ll) d (- k)%Z). rewrite opp_IZR.
  replace (y + IZR k * ll + - IZR k * ll) with y by ring. exact H.
Qed.
Lemma nearest_unique : forall ll y d d', nearest_image ll y d -> nearest_image ll y d' -> d = d'.
Proof. intros ll y d d' [[m Hm] H] [[m' Hm'] H']. apply Rle_antisym; [rewrite Hm'; apply H | rewrite Hm; apply H']. Qed.
Lemma image_nearest : forall x c ll, 0 < ll -> - (3 / 2 * ll) <= x - c <= 3 / 2 * ll -> nearest_image ll (x - c) (image_distance x c ll).
Proof.
  intros x c ll Hl Hy. unfold image_distance. cbv zeta. destruct (Rgt_dec ll 0); [| lra].
  set (y := x - c) in *. split.
  - destruct (Rle_dec (Rabs y) (Rabs (y + ll))) as [H1 | H1].
    + rewrite (Rmin_left (Rabs y)) by lra. destruct (Rle_dec (Rabs y) (Rabs (y - ll))).
      * rewrite Rmin_left by lra. exists 0%Z. f_equal. ring.
      * rewrite Rmin_right by lra. exists (-1)%Z. f_equal. ring.
    + rewrite (Rmin_right (Rabs y)) by lra. destruct (Rle_dec (Rabs (y + ll)) (Rabs (y - ll))).
      * rewrite Rmin_left by lra. exists 1%Z. f_equal. ring.
      * rewrite Rmin_right by lra. exists (-1)%Z. f_equal. ring.
  - intro k. set (M := Rmin (Rmin (Rabs y) (Rabs (y + ll))) (Rabs (y - ll))).
    assert (M1 : M <= Rabs y) by (unfold M; eapply Rle_trans; [apply Rmin_l | apply Rmin_l]).
    assert (M2 : M <= Rabs (y + ll)) by (unfold M; eapply Rle_trans; [apply Rmin_l | apply Rmin_r]).
    assert (M3 : M <= Rabs (y - ll)) by (unfold M; apply Rmin_r).
    assert (Hh : M <= ll / 2).
    { destruct (Rle_dec y (- (ll / 2))) as [A | A].
      - eapply Rle_trans; [exact M2 |]. apply Rabs_le. lra.
      - destruct (Rle_dec (ll / 2) y) as [B | B].
        + eapply Rle_trans; [exact M3 |]. apply Rabs_le. lra.
        + eapply Rle_trans; [exact M1 |]. apply Rabs_le. lra. }
    destruct (Z.eq_dec k 0) as [-> | K0]; [replace (y + 0 * ll) with y by ring; exact M1 |].
    destruct (Z.eq_dec k 1) as [-> | K1]; [replace (y + 1 * ll) with (y + ll) by ring; exact M2 |].
    destruct (Z.eq_dec k (-1)) as [-> | K2]; [replace (y + -1 * ll) with (y - ll) by ring; exact M3 |].
    eapply Rle_trans; [exact Hh |]. destruct (Z_le_gt_dec 2 k) as [Kp | Kn].
    + apply IZR_le in Kp. assert (2 * ll <= IZR k * ll) by (apply Rmult_le_compat_r; lra). eapply Rle_trans; [| apply Rle_abs]. lra.
    + assert (Kn' : (k <= -2)%Z) by lia. apply IZR_le in Kn'. assert (IZR k * ll <= -2 * ll) by (apply Rmult_le_compat_r; lra).
      rewrite <- Rabs_Ropp. eapply Rle_trans; [| apply Rle_abs]. lra.
Qed.
Lemma raise_ends : forall ll low, 0 < ll -> forall c, exists n k, forall fuel, (n <= fuel)%nat ->
  raise fuel low ll c = Some (c + IZR k * ll) /\ low <= c + IZR k * ll /\ (k = 0%Z \/ c + IZR k * ll < low + ll).
Proof.
  intros ll low Hl c. assert (N : exists n : nat, low <= c + INR n * ll).
  { destruct (Rle_dec low c) as [H | H]; [exists 0%nat; cbn; lra |].
    destruct (archimed ((low - c) / ll)) as [A _]. assert (P : 0 < (low - c) / ll) by (apply Rdiv_lt_0_compat; lra).
    exists (Z.to_nat (up ((low - c) / ll))). rewrite INR_IZR_INZ, Z2Nat.id by (apply le_IZR; lra).
    apply Rlt_le in A. apply (Rmult_le_compat_r ll) in A; [| lra]. unfold Rdiv in A. rewrite Rmult_assoc, Rinv_l in A by lra. lra. }
  destruct N as [n Hn]. exists n. revert c Hn. induction n as [| n IH]; intros c Hn.
  - cbn in Hn. exists 0%Z. intros fuel _. replace (c + 0 * ll) with c by ring. split; [| split; [lra | auto]].
    destruct fuel; cbn; (destruct (Rlt_dec c low); [lra | reflexivity]).
  - destruct (Rlt_dec c low) as [H | H].
    + rewrite S_INR in Hn. destruct (IH (c + ll)) as [k Hk]; [lra |]. exists (k + 1)%Z. intros fuel Hf. destruct fuel as [| fuel]; [lia |].
      cbn. destruct (Rlt_dec c low); [| contradiction]. destruct (Hk fuel) as (E & L & U); [lia |]. rewrite E, plus_IZR.
      replace (c + (IZR k + 1) * ll) with (c + ll + IZR k * ll) by ring. split; [reflexivity |]. split; [exact L |]. right.
      destruct U as [-> | U]; [| exact U]. lra.
    + exists 0%Z. intros fuel _. replace (c + 0 * ll) with c by ring. split; [| split; [lra | auto]].
      destruct fuel; cbn; (destruct (Rlt_dec c low); [lra | reflexivity]).
Qed.
Lemma lower_ends : forall ll up, 0 < ll -> forall c, exists n k, forall fuel, (n <= fuel)%nat ->
  lower fuel up ll c = Some (c + IZR k * ll) /\ c + IZR k * ll <= up /\ (k = 0%Z \/ up - ll < c + IZR k * ll).
Proof.
  intros ll up Hl c.
  assert (E : forall fuel c, lower fuel up ll c = option_map Ropp (raise fuel (- up) ll (- c))).
  { induction fuel as [| fuel IH]; intro c'; cbn; destruct (Rgt_dec c' up), (Rlt_dec (- c') (- up)); try lra; cbn; rewrite ?Ropp_involutive; auto.
    rewrite IH. f_equal. f_equal. ring. }
  destruct (raise_ends ll (- up) Hl (- c)) as (n & k & H). exists n, (- k)%Z. intros fuel Hf. destruct (H fuel Hf) as (A & B & C).
  rewrite E, A, opp_IZR. cbn. split; [f_equal; ring |]. split; [lra |]. destruct C as [-> | C]; [left; reflexivity | right; lra].
Qed.
Lemma center_ends : forall g time d, (g_periodic g d = true -> g_low g d < g_up g d) -> exists n c ll, forall fuel, (n <= fuel)%nat ->
  gauss_center fuel g time d = Some (c, ll) /\
  forall x, near_domain g d x -> gauss_distance g time d x (image_distance x c ll).
Proof.
  intros g time d Hp. unfold gauss_center, gauss_distance, near_domain. cbv zeta. set (c0 := g_center0 g d + time * g_velocity g d).
  destruct (g_periodic g d).
  - specialize (Hp eq_refl). set (ll := g_up g d - g_low g d). assert (Hl : 0 < ll) by (unfold ll; lra).
    destruct (raise_ends ll (g_low g d) Hl c0) as (n1 & k1 & H1). set (c1 := c0 + IZR k1 * ll) in *.
    destruct (lower_ends ll (g_up g d) Hl c1) as (n2 & k2 & H2). set (c2 := c1 + IZR k2 * ll) in *.
    exists (n1 + n2)%nat, c2, ll. intros fuel Hf.
    destruct (H1 fuel) as (A & B & C); [lia |]. destruct (H2 fuel) as (A' & B' & C'); [lia |]. rewrite A, A'. split; [reflexivity |].
    intros x Hx. specialize (Hx eq_refl). assert (L : g_low g d <= c2) by (destruct C' as [K | K]; [unfold c2; rewrite K; lra | unfold ll in K; lra]).
    fold ll in Hx. replace (x - c0) with (x - c2 + IZR (k1 + k2) * ll) by (unfold c2, c1; rewrite plus_IZR; ring).
    apply nearest_shift. apply image_nearest; [exact Hl |]. unfold ll in *. lra.
  - exists 0%nat, c0, (-1). intros fuel _. split; [reflexivity |]. intros x _. unfold image_distance. cbv zeta.
    destruct (Rgt_dec (-1) 0); [lra | reflexivity].
Qed.
Lemma distance_unique : forall g time d x a a', gauss_distance g time d x a -> gauss_distance g time d x a' -> a = a'.
Proof.
  intros g time d x a a'. unfold gauss_distance. cbv zeta. destruct (g_periodic g d); [apply nearest_unique |]. intros -> ->. reflexivity.
Qed.
Lemma distance_exists : forall g time d x, periods_ok g -> near_domain g d x -> exists a, gauss_distance g time d x a.
Proof.
  intros g time d x Hp Hx. destruct (center_ends g time d (Hp d)) as (n & c & ll & H). destruct (H n) as [_ H']; [lia |]. eexists. apply H'. exact Hx.
Qed.
Lemma cell_center : forall origin h lo i, cell_coord (origin + h * IZR lo) h lo i = center_at origin h i.
Proof. intros. unfold cell_coord, center_at. rewrite minus_IZR. ring. Qed.
Lemma gauss_once : forall g origin b ng time, periods_ok g -> (0 <= ng)%Z -> near_patch g origin b ng ->
  exists n, forall fuel f, (n <= fuel)%nat -> exists f', set_gauss fuel g b (patch_corner origin b) ng time f = Some f' /\
    (g_rate g <> 0 \/ time = 0 -> gauss_field g origin b 0 time (fst f') /\ gauss_field g origin b ng time (snd f')) /\
    (g_rate g = 0 -> time <> 0 -> f' = f).
Proof.
  intros g origin b ng time Hp Hg Hn.
  destruct (center_ends g time 0%Z (Hp 0%Z)) as (n0 & c0 & l0 & H0). destruct (center_ends g time 1%Z (Hp 1%Z)) as (n1 & c1 & l1 & H1).
  exists (n0 + n1)%nat. intros fuel f Hf. destruct (H0 fuel) as [A0 B0]; [lia |]. destruct (H1 fuel) as [A1 B1]; [lia |].
  unfold set_gauss. rewrite A0, A1. cbv zeta. eexists. split; [reflexivity |].
  assert (F : forall m v, (m <= ng)%Z -> gauss_field g origin b m time
    (initgaussian b (patch_corner origin b) m (fun d => if (d =? 0)%Z then c0 else c1) (fun d => if (d =? 0)%Z then l0 else l1) (g_dev g) (g_base g) (gaussCurrentTemperature g time) v)).
  { intros m v Hm i j d0 d1 Hij D0 D1. unfold initgaussian. cbv zeta. rewrite grown_val by exact Hij.
    unfold patch_corner. change (0 =? 0)%Z with true. change (1 =? 0)%Z with false. cbv iota. rewrite !cell_center.
    destruct (Hn i j) as [N0 N1]; [unfold in_grown, in_box in *; lia |].
    rewrite (distance_unique _ _ _ _ _ _ (B0 _ N0) D0), (distance_unique _ _ _ _ _ _ (B1 _ N1) D1).
    rewrite <- gauss_ramp. unfold gauss_profile. f_equal. f_equal. f_equal. destruct (Req_dec (g_dev g) 0) as [Z0 | Z0].
    - rewrite Z0. replace (2 * 0 * 0) with 0 by ring. replace (2 * 0 ^ 2) with 0 by ring. unfold Rdiv. ring.
    - field. exact Z0. }
  split.
  - intro H. destruct (Req_EM_T (g_rate g) 0); [destruct (Req_EM_T time 0); [| exfalso; destruct H; contradiction] |]; cbn [fst snd]; (split; apply F; lia).
  - intros H1' H2'. destruct (Req_EM_T (g_rate g) 0); [| contradiction]. destruct (Req_EM_T time 0); [contradiction | reflexivity].
Qed.
Definition both_fields (g : gauss_temp) (origin : Z -> R) (b : pbox) (ng : Z) (time : R) (f : temps) : Prop :=
  gauss_field g origin b 0 time (fst f) /\ gauss_field g origin b ng time (snd f).
Lemma gauss_frozen : forall g origin b ng, periods_ok g -> (0 <= ng)%Z -> near_patch g origin b ng -> g_rate g = 0 ->
  forall times, exists n, forall fuel f, (n <= fuel)%nat -> both_fields g origin b ng 0 f ->
    exists f', gauss_calls fuel g b (patch_corner origin b) ng times f = Some f' /\ both_fields g origin b ng 0 f'.
Proof.
  intros g origin b ng Hp Hg Hn Hr. induction times as [| t r IH].
  - exists 0%nat. intros fuel f _ B. exists f. split; [reflexivity | exact B].
  - destruct IH as [n IH]. destruct (gauss_once g origin b ng t Hp Hg Hn) as [m Hm]. exists (n + m)%nat. intros fuel f Hf B.
    destruct (Hm fuel f) as (f1 & E1 & F1 & G1); [lia |]. cbn [gauss_calls]. rewrite E1. apply IH; [lia |].
    destruct (Req_EM_T t 0) as [Ht | Ht].
    + rewrite Ht in F1. apply F1. auto.
    + rewrite (G1 Hr Ht). exact B.
Qed.
Lemma gauss_calls_app : forall fuel g b xlo ng l l' f,
  gauss_calls fuel g b xlo ng (l ++ l') f = match gauss_calls fuel g b xlo ng l f with Some f' => gauss_calls fuel g b xlo ng l' f' | None => None end.
Proof. induction l as [| t r IH]; intros l' f; [reflexivity |]. cbn. destruct (set_gauss fuel g b xlo ng t f); auto. Qed.
Lemma gauss_any : forall g origin b ng, periods_ok g -> (0 <= ng)%Z -> near_patch g origin b ng ->
  forall times, exists n, forall fuel f, (n <= fuel)%nat -> exists f', gauss_calls fuel g b (patch_corner origin b) ng times f = Some f'.
Proof.
  intros g origin b ng Hp Hg Hn. induction times as [| t r IH].
  - exists 0%nat. intros fuel f _. exists f. reflexivity.
  - destruct IH as [n IH]. destruct (gauss_once g origin b ng t Hp Hg Hn) as [m Hm]. exists (n + m)%nat. intros fuel f Hf.
    destruct (Hm fuel f) as (f1 & E1 & _); [lia |]. cbn [gauss_calls]. rewrite E1. apply IH. lia.
Qed.
Lemma gauss_stays : forall g origin b ng, periods_ok g -> (0 <= ng)%Z -> near_patch g origin b ng -> g_rate g = 0 ->
  forall times, exists n, forall fuel f, (n <= fuel)%nat ->
    exists f', gauss_calls fuel g b (patch_corner origin b) ng (0 :: times) f = Some f' /\ gauss_field g origin b 0 0 (fst f') /\ gauss_field g origin b ng 0 (snd f').
Proof.
  intros g origin b ng Hp Hg Hn Hr times. destruct (gauss_frozen g origin b ng Hp Hg Hn Hr times) as [n IH].
  destruct (gauss_once g origin b ng 0 Hp Hg Hn) as [m Hm]. exists (n + m)%nat. intros fuel f Hf.
  destruct (Hm fuel f) as (f1 & E1 & F1 & _); [lia |]. cbn [gauss_calls]. rewrite E1. apply IH; [lia |]. apply F1. auto.
Qed.
Lemma gauss_follows : forall g origin b ng, periods_ok g -> (0 <= ng)%Z -> near_patch g origin b ng ->
  (g_rate g <> 0 \/ forall d, g_velocity g d = 0) ->
  forall times t, exists n, forall fuel f, (n <= fuel)%nat ->
    exists f', gauss_calls fuel g b (patch_corner origin b) ng (0 :: times ++ [t]) f = Some f' /\ gauss_field g origin b 0 t (fst f') /\ gauss_field g origin b ng t (snd f').
Proof.
  intros g origin b ng Hp Hg Hn Hr times t. destruct (Req_EM_T (g_rate g) 0) as [H | H].
  - destruct Hr as [Hr | Hv]; [contradiction |]. destruct (gauss_stays g origin b ng Hp Hg Hn H (times ++ [t])) as [n Hs]. exists n. intros fuel f Hf.
    destruct (Hs fuel f Hf) as (f' & E & A & B). exists f'. split; [exact E |].
    assert (G : forall m v, gauss_field g origin b m 0 v -> gauss_field g origin b m t v).
    { intros m v F i j d0 d1 Hij D0 D1. rewrite (F i j d0 d1 Hij).
      - f_equal. unfold ramp. destruct (Rlt_dec (g_rate g) 0); [lra |]. destruct (Rlt_dec 0 (g_rate g)); [lra | reflexivity].
      - revert D0. unfold gauss_distance. rewrite (Hv 0%Z), !Rmult_0_r. auto.
      - revert D1. unfold gauss_distance. rewrite (Hv 1%Z), !Rmult_0_r. auto. }
    split; apply G; assumption.
  - destruct (gauss_any g origin b ng Hp Hg Hn (0 :: times)) as [n Ha]. destruct (gauss_once g origin b ng t Hp Hg Hn) as [m Hm].
    exists (n + m)%nat. intros fuel f Hf. destruct (Ha fuel f) as [f1 E1]; [lia |]. destruct (Hm fuel f1) as (f2 & E2 & F2 & _); [lia |].
    exists f2. change (0 :: times ++ [t]) with ((0 :: times) ++ [t]). rewrite gauss_calls_app, E1. cbn [gauss_calls]. rewrite E2. split; [reflexivity |]. apply F2. auto.
Qed.
Lemma gauss_bounds : forall g origin b ng time f, periods_ok g -> near_patch g origin b ng -> gauss_field g origin b ng time f ->
  g_base g <= ramp (g_initial g) (g_rate g) (g_target g) time -> forall i j, in_grown b ng i j -> g_base g <= f i j <= ramp (g_initial g) (g_rate g) (g_target g) time.
Proof.
  intros g origin b ng time f Hp Hn F Hb i j Hij. destruct (Hn i j Hij) as [N0 N1].
  destruct (distance_exists g time 0%Z _ Hp N0) as [d0 D0]. destruct (distance_exists g time 1%Z _ Hp N1) as [d1 D1].
  rewrite (F i j d0 d1 Hij D0 D1). unfold gauss_profile. set (P := ramp (g_initial g) (g_rate g) (g_target g) time) in *.
  assert (X : 0 < exp (- ((d0 ^ 2 + d1 ^ 2) / (2 * g_dev g ^ 2))) <= 1).
  { split; [apply exp_pos |]. replace 1 with (exp 0) by apply exp_0. assert (Q : 0 <= (d0 ^ 2 + d1 ^ 2) / (2 * g_dev g ^ 2)).
    { pose proof (pow2_ge_0 d0). pose proof (pow2_ge_0 d1). pose proof (pow2_ge_0 (g_dev g)). destruct (Req_dec (g_dev g ^ 2) 0) as [Z0 | Z0].
      - rewrite Z0, Rmult_0_r. unfold Rdiv. rewrite Rinv_0. lra.
      - apply Rmult_le_pos; [lra |]. left. apply Rinv_0_lt_compat. lra. }
    destruct Q as [Q | Q]; [left; apply exp_increasing; lra | right; f_equal; lra]. }
  nra.
Qed.
Lemma gauss_patches : forall g origin b b' ng ng' time f f', periods_ok g -> near_patch g origin b ng -> near_patch g origin b' ng' ->
  h1 b = h1 b' -> h2 b = h2 b' -> gauss_field g origin b ng time f -> gauss_field g origin b' ng' time f' ->
  forall i j, in_grown b ng i j -> in_grown b' ng' i j -> f i j = f' i j.
Proof.
  intros g origin b b' ng ng' time f f' Hp Hn Hn' E1 E2 F F' i j Hij Hij'. destruct (Hn i j Hij) as [N0 N1].
  destruct (distance_exists g time 0%Z _ Hp N0) as [d0 D0]. destruct (distance_exists g time 1%Z _ Hp N1) as [d1 D1].
  rewrite (F i j d0 d1 Hij D0 D1). symmetry. apply (F' i j d0 d1 Hij'); [rewrite <- E1 | rewrite <- E2]; assumption.
Qed.

Definition still_center : gauss_temp := mk_gauss 0 1 0 0 1 (fun _ => 0) (fun d => if (d =? 0)%Z then 1 else 0) (fun _ => false) (fun _ => 0) (fun _ => 0).
Lemma gauss_moving_refuted : ~ (forall g origin b ng times t fuel f f', periods_ok g -> (0 <= ng)%Z -> near_patch g origin b ng ->
  gauss_calls fuel g b (patch_corner origin b) ng (0 :: times ++ [t]) f = Some f' -> gauss_field g origin b ng t (snd f')).
Proof.
  intro H. set (b := mk_pbox 0 0 0 0 1 1). set (origin := fun _ : Z => - (1 / 2)).
  assert (P : periods_ok still_center) by (intros d Hd; discriminate).
  assert (N : near_patch still_center origin b 0) by (intros i j _; split; intro Hd; discriminate).
  destruct (gauss_stays still_center origin b 0 P (Z.le_refl 0) N eq_refl [1]) as [n Hn].
  destruct (Hn n (fun _ _ => 0, fun _ _ => 0) (Nat.le_refl n)) as (f' & E & _ & F).
  pose proof (H still_center origin b 0%Z [] 1 n _ f' P (Z.le_refl 0) N E) as F1.
  assert (I : in_grown b 0 0 0) by (unfold in_grown, in_box, b; cbn; lia).
  assert (X0 : center_at (origin 0%Z) (h1 b) 0 = 0) by (unfold center_at, origin, b; cbn; lra).
  assert (X1 : center_at (origin 1%Z) (h2 b) 0 = 0) by (unfold center_at, origin, b; cbn; lra).
  assert (E1 : f' = f') by reflexivity.
  pose proof (F 0%Z 0%Z 0 0 I) as A. pose proof (F1 0%Z 0%Z 1 0 I) as B. rewrite X0, X1 in A, B.
  assert (D : forall x, Rabs x = Rabs x) by reflexivity.
  rewrite A in B.
  - unfold gauss_profile in B. unfold ramp in B. cbn [g_base g_initial g_rate g_target g_dev still_center] in B.
    destruct (Rlt_dec 0 0); [lra |]. 
    assert (Q : exp (- ((1 ^ 2 + 0 ^ 2) / (2 * 1 ^ 2))) < exp (- ((0 ^ 2 + 0 ^ 2) / (2 * 1 ^ 2)))) by (apply exp_increasing; lra).
    assert (B' : 0 + (1 - 0) * exp (- ((0 ^ 2 + 0 ^ 2) / (2 * 1 ^ 2))) = 0 + (1 - 0) * exp (- ((1 ^ 2 + 0 ^ 2) / (2 * 1 ^ 2)))) by (apply B; unfold gauss_distance; cbn; [rewrite <- Rabs_Ropp | ]; rewrite Rabs_right; lra).
    lra.
  - unfold gauss_distance. cbn. rewrite Rabs_right; lra.
  - unfold gauss_distance. cbn. rewrite Rabs_right; lra.
Qed.

(** ** Frozen gradient *)
Definition center_now (g : grad_temp) (t : R) : R :=
  match r_history g with Some _ => r_ref_center g 0%Z + (t - r_ref_time g) * r_velocity g | None => r_ref_center g 0%Z - (t - r_ref_time g) * r_velocity g end.
Definition same_inputs (g g' : grad_temp) : Prop :=
  r_temperature0 g = r_temperature0 g' /\ r_rate g = r_rate g' /\ r_gradient g = r_gradient g' /\ r_history g = r_history g' /\ r_init_center g = r_init_center g' /\
  (forall d, d <> 0%Z -> r_ref_center g d = r_ref_center g' d).
Lemma same_trans : forall a b c, same_inputs a b -> same_inputs b c -> same_inputs a c.
Proof.
  intros a b c (A1 & A2 & A3 & A4 & A5 & A6) (B1 & B2 & B3 & B4 & B5 & B6).
  repeat split; try congruence. intros d Hd. rewrite A6, B6; auto.
Qed.
Lemma changes_center : forall l g t,
  same_inputs (with_changes g l) g /\
  center_now (with_changes g l) t = r_ref_center g 0%Z + (match r_history g with Some _ => 1 | None => -1 end) * travelled (r_ref_time g) (r_velocity g) l t.
Proof.
  induction l as [| [t1 v1] l IH]; intros g t.
  - unfold with_changes. cbn [fold_left travelled]. split; [repeat split; reflexivity |]. unfold center_now. destruct (r_history g); ring.
  - unfold with_changes in *. cbn [fold_left travelled fst snd]. destruct (IH (resetVelocity g t1 v1) t) as [A B]. split.
    + eapply same_trans; [exact A |]. unfold resetVelocity, same_inputs. cbn. repeat split; try reflexivity.
      intros d Hd. unfold set_dir0. destruct (Z.eqb_spec d 0); [contradiction | reflexivity].
    + rewrite B. unfold resetVelocity at 1 2 3 4. cbn [r_ref_center r_ref_time r_velocity r_history]. unfold set_dir0. change (0 =? 0)%Z with true. cbv iota.
      destruct (r_history g); ring.
Qed.
Lemma grad_lab : forall T0 rate gradient center v0 changes origin b ng t f, 0 < T0 ->
  exists f', set_grad (with_changes (new_grad T0 rate gradient None center v0) changes) b (patch_corner origin b) ng t f = Some f' /\
    let field i j := T0 + rate * t + (center_at (origin 0%Z) (h1 b) i + travelled 0 v0 changes t - center 0%Z) * gradient 0%Z + (center_at (origin 1%Z) (h2 b) j - center 1%Z) * gradient 1%Z in
    (forall i j, in_cells b i j -> fst f' i j = field i j) /\ (forall i j, in_grown b ng i j -> snd f' i j = field i j).
Proof.
  intros T0 rate gradient center v0 changes origin b ng t f HT.
  destruct (changes_center changes (new_grad T0 rate gradient None center v0) t) as [(A1 & A2 & A3 & A4 & A5 & A6) B].
  set (g := with_changes (new_grad T0 rate gradient None center v0) changes) in *. cbn [r_temperature0 r_rate r_gradient r_history r_init_center r_ref_center r_ref_time r_velocity new_grad] in *.
  unfold center_now in B. unfold set_grad. rewrite A4 in *. rewrite A1, A2, A3. destruct (Rgt_dec T0 0); [| lra]. eexists. split; [reflexivity |].
  cbv zeta. cbn [fst snd].
  assert (F : forall m v i j, in_grown b m i j ->
    initgradient b (patch_corner origin b) m (set_dir0 (r_ref_center g) (r_ref_center g 0%Z - (t - r_ref_time g) * r_velocity g)) (T0 + rate * t) gradient v i j =
    T0 + rate * t + (center_at (origin 0%Z) (h1 b) i + travelled 0 v0 changes t - center 0%Z) * gradient 0%Z + (center_at (origin 1%Z) (h2 b) j - center 1%Z) * gradient 1%Z).
  { intros m v i j Hij. unfold initgradient. cbv zeta. rewrite grown_val by exact Hij. unfold patch_corner, set_dir0.
    change (0 =? 0)%Z with true. change (1 =? 0)%Z with false. cbv iota. rewrite !cell_center, B, (A6 1%Z) by lia. ring. }
  split; intros i j Hij; apply F; [apply grown_cells |]; exact Hij.
Qed.
Lemma grad_table : forall T0 rate gradient h center v0 changes origin b ng t f T G,
  getTandGradT h t (center 0%Z + travelled 0 v0 changes t) = Found T G ->
  exists f', set_grad (with_changes (new_grad T0 rate gradient (Some h) center v0) changes) b (patch_corner origin b) ng t f = Some f' /\
    let field i := T + G * ((center_at (origin 0%Z) (h1 b) i + travelled 0 v0 changes t) - (center 0%Z + travelled 0 v0 changes t)) in
    (forall i j, in_cells b i j -> fst f' i j = field i) /\ (forall i j, in_grown b ng i j -> snd f' i j = field i).
Proof.
  intros T0 rate gradient h center v0 changes origin b ng t f T G HF.
  destruct (changes_center changes (new_grad T0 rate gradient (Some h) center v0) t) as [(A1 & A2 & A3 & A4 & A5 & A6) B].
  set (g := with_changes (new_grad T0 rate gradient (Some h) center v0) changes) in *. cbn [r_temperature0 r_rate r_gradient r_history r_init_center r_ref_center r_ref_time r_velocity new_grad] in *.
  unfold center_now in B. unfold set_grad. rewrite A4 in *. cbv zeta. rewrite Rmult_1_l in B.
  change (set_dir0 (r_ref_center g) (r_ref_center g 0%Z + (t - r_ref_time g) * r_velocity g) 0%Z) with (r_ref_center g 0%Z + (t - r_ref_time g) * r_velocity g).
  rewrite B, HF. eexists. split; [reflexivity |]. cbn [fst snd].
  assert (F : forall m v i j, in_grown b m i j ->
    initgradient b (fun d => patch_corner origin b d + (set_dir0 (r_ref_center g) (center 0%Z + travelled 0 v0 changes t) d - r_init_center g d)) m
      (set_dir0 (r_ref_center g) (center 0%Z + travelled 0 v0 changes t)) T (set_dir0 (fun _ => 0) G) v i j =
    T + G * ((center_at (origin 0%Z) (h1 b) i + travelled 0 v0 changes t) - (center 0%Z + travelled 0 v0 changes t))).
  { intros m v i j Hij. unfold initgradient. cbv zeta. rewrite grown_val by exact Hij. unfold patch_corner, set_dir0.
    change (0 =? 0)%Z with true. change (1 =? 0)%Z with false. cbv iota. rewrite A5. unfold cell_coord, center_at. rewrite !minus_IZR. ring. }
  split; intros i j Hij; apply F; [apply grown_cells |]; exact Hij.
Qed.
Lemma grad_table_exact : forall T0 rate gradient h center v0 changes origin b ng t f f' a0 a1 a2 a3,
  table_ok h -> samples h (fun t x => a0 + a1 * x + a2 * t + a3 * (x * t)) ->
  set_grad (with_changes (new_grad T0 rate gradient (Some h) center v0) changes) b (patch_corner origin b) ng t f = Some f' ->
  let X i := center_at (origin 0%Z) (h1 b) i + travelled 0 v0 changes t in
  let field i := a0 + a1 * X i + a2 * t + a3 * (X i * t) in
  (forall i j, in_cells b i j -> fst f' i j = field i) /\ (forall i j, in_grown b ng i j -> snd f' i j = field i).
Proof.
  intros T0 rate gradient h center v0 changes origin b ng t f f' a0 a1 a2 a3 Hok Hs E X field.
  destruct (getTandGradT h t (center 0%Z + travelled 0 v0 changes t)) as [T G | |] eqn:HF.
  - destruct (grad_table T0 rate gradient h center v0 changes origin b ng t f T G HF) as (f1 & E1 & A & B). rewrite E in E1.
    assert (f' = f1) by congruence. subst f1. destruct (lookup_exact h t _ T G a0 a1 a2 a3 Hok Hs HF) as [HT HG].
    split; intros i j Hij; [rewrite (A i j Hij) | rewrite (B i j Hij)]; unfold field, X; rewrite HT, HG; ring.
  - exfalso. destruct (changes_center changes (new_grad T0 rate gradient (Some h) center v0) t) as [(A1 & A2 & A3 & A4 & A5 & A6) B].
    unfold center_now in B. unfold set_grad in E. rewrite A4 in *. cbn [r_history new_grad r_ref_center r_ref_time r_velocity] in *. rewrite Rmult_1_l in B. cbv zeta in E.
    unfold set_dir0 at 1 in E. change (0 =? 0)%Z with true in E. cbv iota in E. rewrite B, HF in E. discriminate.
  - exfalso. destruct (changes_center changes (new_grad T0 rate gradient (Some h) center v0) t) as [(A1 & A2 & A3 & A4 & A5 & A6) B].
    unfold center_now in B. unfold set_grad in E. rewrite A4 in *. cbn [r_history new_grad r_ref_center r_ref_time r_velocity] in *. rewrite Rmult_1_l in B. cbv zeta in E.
    unfold set_dir0 at 1 in E. change (0 =? 0)%Z with true in E. cbv iota in E. rewrite B, HF in E. discriminate.
Qed.
Lemma sumZ_IZR : forall lo hi, (lo <= hi + 1)%Z -> sumZ lo hi IZR = IZR (hi - lo + 1) * (IZR lo + IZR hi) / 2.
Proof.
  intros lo hi. revert lo hi. apply (Zinterval_ind (fun lo hi => (lo <= hi + 1)%Z -> sumZ lo hi IZR = IZR (hi - lo + 1) * (IZR lo + IZR hi) / 2)).
  - intros lo hi H H1. rewrite sumZ_empty by auto. replace (hi - lo + 1)%Z with 0%Z by lia. field.
  - intros lo hi H IH _. rewrite sumZ_snoc by lia. rewrite IH by lia.
    rewrite !plus_IZR, !minus_IZR. field.
Qed.
Lemma affine_average : forall b (f : arr2) a g0 g1 M m, (lo0 b <= hi0 b)%Z -> (lo1 b <= hi1 b)%Z ->
  (forall i j, in_cells b i j -> f i j = a + g0 * IZR i + g1 * IZR j) -> is_largest b f M -> is_smallest b f m ->
  sum_cells b f / sum_cells b (fun _ _ => 1) = (M + m) / 2.
Proof.
  intros b f a g0 g1 M m H0 H1 Hf [(iM & jM & HM & EM) UM] [(im & jm & Hm & Em) Um].
  set (x0 := IZR (lo0 b)). set (x1 := IZR (hi0 b)). set (y0 := IZR (lo1 b)). set (y1 := IZR (hi1 b)).
  assert (X : x0 <= x1) by (apply IZR_le; lia). assert (Y : y0 <= y1) by (apply IZR_le; lia).
  assert (C : sum_cells b (fun _ _ => 1) = (x1 - x0 + 1) * (y1 - y0 + 1)).
  { unfold sum_cells, sum_box. erewrite sumZ_ext; [| intros j _; apply sumZ_const; lia]. rewrite sumZ_const by lia. rewrite !plus_IZR, !minus_IZR. unfold x0, x1, y0, y1. ring. }
  assert (S : sum_cells b f = (x1 - x0 + 1) * (y1 - y0 + 1) * (a + g0 * (x0 + x1) / 2 + g1 * (y0 + y1) / 2)).
  { unfold sum_cells, sum_box. rewrite (sumZ_ext _ _ _ (fun j => (x1 - x0 + 1) * (a + g0 * (x0 + x1) / 2) + ((x1 - x0 + 1) * g1) * IZR j)).
    - rewrite sumZ_plus, sumZ_const, (sumZ_scal _ _ _ IZR), sumZ_IZR by lia. rewrite !plus_IZR, !minus_IZR. fold y0 y1. field.
    - intros j Hj. rewrite (sumZ_ext _ _ _ (fun i => (a + g1 * IZR j) + g0 * IZR i)) by (intros i Hi; rewrite Hf by (unfold in_cells, in_box; lia); ring).
      rewrite sumZ_plus, sumZ_const, (sumZ_scal _ _ _ IZR), sumZ_IZR by lia. rewrite !plus_IZR, !minus_IZR. fold x0 x1. field. }
  assert (V : forall i j, in_cells b i j -> f i j = a + g0 * IZR i + g1 * IZR j /\ x0 <= IZR i <= x1 /\ y0 <= IZR j <= y1).
  { intros i j Hij. split; [apply Hf; exact Hij |]. unfold in_cells, in_box in Hij. unfold x0, x1, y0, y1. repeat split; apply IZR_le; lia. }
  assert (K : forall i j, in_cells b i j -> m <= f i j <= M) by (intros i j Hij; split; [apply Um | apply UM]; exact Hij).
  assert (I : forall i j, (i = lo0 b \/ i = hi0 b) -> (j = lo1 b \/ j = hi1 b) -> in_cells b i j) by (intros i j Hi Hj; unfold in_cells, in_box; lia).
  pose proof (K _ _ (I (lo0 b) (lo1 b) ltac:(auto) ltac:(auto))) as K1. rewrite (Hf _ _ (I (lo0 b) (lo1 b) ltac:(auto) ltac:(auto))) in K1.
  pose proof (K _ _ (I (lo0 b) (hi1 b) ltac:(auto) ltac:(auto))) as K2. rewrite (Hf _ _ (I (lo0 b) (hi1 b) ltac:(auto) ltac:(auto))) in K2.
  pose proof (K _ _ (I (hi0 b) (lo1 b) ltac:(auto) ltac:(auto))) as K3. rewrite (Hf _ _ (I (hi0 b) (lo1 b) ltac:(auto) ltac:(auto))) in K3.
  pose proof (K _ _ (I (hi0 b) (hi1 b) ltac:(auto) ltac:(auto))) as K4. rewrite (Hf _ _ (I (hi0 b) (hi1 b) ltac:(auto) ltac:(auto))) in K4.
  fold x0 x1 y0 y1 in K1, K2, K3, K4.
  destruct (V _ _ HM) as (VM & XM & YM). destruct (V _ _ Hm) as (Vm & Xm & Ym). rewrite EM in VM. rewrite Em in Vm.
  assert (W : forall g x u v, u <= x <= v -> Rmin (g * u) (g * v) <= g * x <= Rmax (g * u) (g * v)).
  { intros g x u v Hx. pose proof (Rmin_l (g * u) (g * v)). pose proof (Rmin_r (g * u) (g * v)). pose proof (Rmax_l (g * u) (g * v)). pose proof (Rmax_r (g * u) (g * v)).
    destruct (Rle_dec 0 g) as [Hg | Hg].
    - assert (g * u <= g * x) by (apply Rmult_le_compat_l; lra). assert (g * x <= g * v) by (apply Rmult_le_compat_l; lra). lra.
    - assert (g * x <= g * u) by (apply Rmult_le_compat_neg_l; lra). assert (g * v <= g * x) by (apply Rmult_le_compat_neg_l; lra). lra. }
  assert (Q : forall g x, x0 <= x <= x1 -> Rmin (g * x0) (g * x1) <= g * x <= Rmax (g * x0) (g * x1)).
  { intros g x Hx. apply W. exact Hx. }
  assert (Q' : forall g x, y0 <= x <= y1 -> Rmin (g * y0) (g * y1) <= g * x <= Rmax (g * y0) (g * y1)).
  { intros g x Hx. apply W. exact Hx. }
  pose proof (Q g0 _ XM) as QM. pose proof (Q g0 _ Xm) as Qm. pose proof (Q' g1 _ YM) as RM. pose proof (Q' g1 _ Ym) as Rm.
  assert (E : a + g0 * (x0 + x1) / 2 + g1 * (y0 + y1) / 2 = (M + m) / 2).
  { unfold Rmin, Rmax in *. destruct (Rle_dec (g0 * x0) (g0 * x1)), (Rle_dec (g1 * y0) (g1 * y1)); lra. }
  rewrite S, C, E. field. split; nra.
Qed.
Lemma grad_average : forall T0 rate gradient center v0 changes origin b ng t f f' M m,
  (lo0 b <= hi0 b)%Z -> (lo1 b <= hi1 b)%Z ->
  set_grad (with_changes (new_grad T0 rate gradient None center v0) changes) b (patch_corner origin b) ng t f = Some f' ->
  is_largest b (fst f') M -> is_smallest b (fst f') m -> sum_cells b (fst f') / sum_cells b (fun _ _ => 1) = (M + m) / 2.
Proof.
  intros T0 rate gradient center v0 changes origin b ng t f f' M m H0 H1 E HM Hm.
  assert (HT : 0 < T0).
  { unfold set_grad in E. destruct (changes_center changes (new_grad T0 rate gradient None center v0) t) as [(A1 & _ & _ & A4 & _) _]. rewrite A4, A1 in E. cbn [r_history r_temperature0 new_grad] in E.
    destruct (Rgt_dec T0 0); [lra | discriminate]. }
  destruct (grad_lab T0 rate gradient center v0 changes origin b ng t f HT) as (f1 & E1 & A & _). assert (f1 = f') by congruence. subst f1.
  eapply affine_average; eauto. intros i j Hij. rewrite (A i j Hij). unfold center_at.
  instantiate (1 := h2 b * gradient 1%Z). instantiate (1 := h1 b * gradient 0%Z).
  instantiate (1 := T0 + rate * t + (origin 0%Z + h1 b * (1 / 2) + travelled 0 v0 changes t - center 0%Z) * gradient 0%Z + (origin 1%Z + h2 b * (1 / 2) - center 1%Z) * gradient 1%Z). ring.
Qed.

(** ** Restart *)
Lemma set_grad_ext : forall g g' b xlo ng t f, same_inputs g g' -> center_now g t = center_now g' t -> set_grad g b xlo ng t f = set_grad g' b xlo ng t f.
Proof.
  intros g g' b xlo ng t f (A1 & A2 & A3 & A4 & A5 & A6) B. unfold center_now in B. unfold set_grad. rewrite A1, A2, A3, A4, A5.
  assert (S : forall v, set_dir0 (r_ref_center g) v = set_dir0 (r_ref_center g') v).
  { intro v. apply FunctionalExtensionality.functional_extensionality. intro d. unfold set_dir0. destruct (Z.eqb_spec d 0); [reflexivity | apply A6; assumption]. }
  rewrite A4 in B. destruct (r_history g'); cbv zeta; rewrite B, S; reflexivity.
Qed.
Lemma same_sym : forall a b, same_inputs a b -> same_inputs b a.
Proof. intros a b (A1 & A2 & A3 & A4 & A5 & A6). repeat split; auto. intros d Hd. symmetry. auto. Qed.
Lemma travelled_fixed : forall l l' t0 v0 t, (forall tv, In tv l -> snd tv = v0) -> travelled t0 v0 (l ++ l') t = travelled t0 v0 l' t.
Proof.
  induction l as [| [t1 v1] l IH]; intros l' t0 v0 t H; [reflexivity |]. cbn [app travelled].
  assert (v1 = v0) by (apply (H (t1, v1)); left; reflexivity). subst v1. rewrite IH by (intros; apply H; right; assumption).
  destruct l' as [| [t2 v2] l']; cbn [travelled]; ring.
Qed.
Lemma restart_fixed : forall T0 rate gradient hist center v0 changes changes' b xlo ng t f,
  (forall tv, In tv changes -> snd tv = v0) ->
  set_grad (with_changes (new_grad T0 rate gradient hist center v0) (changes ++ changes')) b xlo ng t f =
  set_grad (with_changes (new_grad T0 rate gradient hist center v0) changes') b xlo ng t f.
Proof.
  intros T0 rate gradient hist center v0 changes changes' b xlo ng t f H. set (g := new_grad T0 rate gradient hist center v0).
  destruct (changes_center (changes ++ changes') g t) as [A B]. destruct (changes_center changes' g t) as [A' B'].
  apply set_grad_ext; [eapply same_trans; [exact A | apply same_sym; exact A'] |]. rewrite B, B'. cbn [r_velocity r_ref_time g new_grad]. rewrite travelled_fixed by exact H. reflexivity.
Qed.
Lemma restart_error : forall T0 rate gradient center v0 changes changes' origin b ng t f, 0 < T0 ->
  exists f1 f2, set_grad (with_changes (new_grad T0 rate gradient None center v0) (changes ++ changes')) b (patch_corner origin b) ng t f = Some f1 /\
    set_grad (with_changes (new_grad T0 rate gradient None center v0) changes') b (patch_corner origin b) ng t f = Some f2 /\
    forall i j, in_cells b i j -> fst f2 i j - fst f1 i j = gradient 0%Z * (travelled 0 v0 changes' t - travelled 0 v0 (changes ++ changes') t).
Proof.
  intros T0 rate gradient center v0 changes changes' origin b ng t f HT.
  destruct (grad_lab T0 rate gradient center v0 (changes ++ changes') origin b ng t f HT) as (f1 & E1 & A1 & _).
  destruct (grad_lab T0 rate gradient center v0 changes' origin b ng t f HT) as (f2 & E2 & A2 & _).
  exists f1, f2. split; [exact E1 |]. split; [exact E2 |]. intros i j Hij. rewrite (A1 i j Hij), (A2 i j Hij). ring.
Qed.
Lemma restart_adaptive_refuted : ~ (forall T0 rate gradient center v0 changes changes' origin b ng t f f1 f2, 0 < T0 ->
  set_grad (with_changes (new_grad T0 rate gradient None center v0) (changes ++ changes')) b (patch_corner origin b) ng t f = Some f1 ->
  set_grad (with_changes (new_grad T0 rate gradient None center v0) changes') b (patch_corner origin b) ng t f = Some f2 ->
  forall i j, in_cells b i j -> fst f1 i j = fst f2 i j).
Proof.
  intro H. set (b := mk_pbox 0 0 0 0 1 1).
  destruct (restart_error 1 0 (fun _ => 1) (fun _ => 0) 1 [(1, 2)] [] (fun _ => 0) b 0 2 (fun _ _ => 0, fun _ _ => 0)) as (f1 & f2 & E1 & E2 & D); [lra |].
  assert (I : in_cells b 0 0) by (unfold in_cells, in_box, b; cbn; lia).
  pose proof (H _ _ _ _ _ _ _ _ _ _ _ _ _ _ Rlt_0_1 E1 E2 0%Z 0%Z I) as Q. pose proof (D 0%Z 0%Z I) as Q'. cbn [travelled app] in Q'. lra.
Qed.
Lemma restart_scalar : forall s b ng times times' t f f',
  (forall i j, in_cells b i j -> fst (scalar_calls s b ng ((0 :: times) ++ [t]) f) i j = fst (scalar_calls s b ng ((0 :: times') ++ [t]) f') i j) /\
  (forall i j, in_grown b ng i j -> snd (scalar_calls s b ng ((0 :: times) ++ [t]) f) i j = snd (scalar_calls s b ng ((0 :: times') ++ [t]) f') i j).
Proof.
  intros s b ng times times' t f f'. destruct (scalar_field s b ng times t f) as [A B]. destruct (scalar_field s b ng times' t f') as [A' B'].
  split; intros i j Hij; [rewrite A, A' | rewrite B, B']; auto.
Qed.
Lemma restart_first_refuted : ~ (forall s b ng times t f i j, in_cells b i j ->
  fst (scalar_calls s b ng [0] (scalar_calls s b ng ((0 :: times) ++ [t]) f)) i j = scalarCurrentTemperature s t).
Proof.
  intro H. specialize (H (mk_scalar 1 1 0) (mk_pbox 0 0 0 0 1 1) 0%Z [] 1 (fun _ _ => 0, fun _ _ => 0) 0%Z 0%Z).
  assert (I : in_cells (mk_pbox 0 0 0 0 1 1) 0 0) by (unfold in_cells, in_box; cbn; lia). specialize (H I).
  unfold scalar_calls at 1 in H. cbn [fold_left] in H.
  pose proof (set_scalar_sets (mk_scalar 1 1 0) (mk_pbox 0 0 0 0 1 1) 0 0 (scalar_calls (mk_scalar 1 1 0) (mk_pbox 0 0 0 0 1 1) 0 ((0 :: []) ++ [1]) (fun _ _ => 0, fun _ _ => 0)) (or_intror eq_refl)) as [A _].
  rewrite (A _ _ I) in H. rewrite !scalar_unlimited in H by (cbn; lra). cbn in H. lra.
Qed.

(** ** Heat capacity *)
Definition listsum (l : list R) : R := fold_right Rplus 0 l.
Lemma listsum_ext : forall (l : list Z) f g, (forall p, In p l -> f p = g p) -> listsum (map f l) = listsum (map g l).
Proof. induction l as [| p l IH]; intros f g H; [reflexivity |]. cbn. rewrite (H p) by (left; reflexivity). f_equal. apply IH. intros; apply H; right; assumption. Qed.
Lemma coefficient_cons : forall q c sp p, coefficient ((q, c) :: sp) p = if existsb (Z.eqb p) (map fst sp) then coefficient sp p else if (p =? q)%Z then c else 0.
Proof.
  intros q c sp p. unfold coefficient. cbn [fold_left fst snd].
  assert (G : forall sp v, fold_left (fun v pc => if (p =? fst pc)%Z then snd pc else v) sp v =
    if existsb (Z.eqb p) (map fst sp) then fold_left (fun v pc => if (p =? fst pc)%Z then snd pc else v) sp 0 else v).
  { induction sp0 as [| [q0 c0] sp0 IH]; intro v; [reflexivity |]. cbn. destruct (Z.eqb_spec p q0); cbn.
    - rewrite (IH c0). destruct (existsb (Z.eqb p) (map fst sp0)); reflexivity.
    - apply IH. }
  rewrite G. reflexivity.
Qed.
Lemma coefficient_absent : forall sp p, ~ In p (map fst sp) -> coefficient sp p = 0.
Proof.
  induction sp as [| [q c] sp IH]; intros p H; [reflexivity |]. rewrite coefficient_cons. cbn in H. rewrite IH by tauto.
  destruct (Z.eqb_spec p q); [exfalso; apply H; left; auto |]. destruct (existsb (Z.eqb p) (map fst sp)); reflexivity.
Qed.
Lemma listsum_one : forall (l : list Z) q v, NoDup l -> In q l -> listsum (map (fun p => if (p =? q)%Z then v p else 0) l) = v q.
Proof.
  induction l as [| p l IH]; intros q v HN HI; [destruct HI |]. cbn. apply NoDup_cons_iff in HN as [Hp HN]. destruct (Z.eqb_spec p q) as [-> | Hne].
  - rewrite (listsum_ext l _ (fun _ => 0)).
    + assert (Z0 : listsum (map (fun _ : Z => 0) l) = 0) by (clear; induction l as [| x l IH]; [reflexivity | cbn; unfold listsum in IH; rewrite IH; ring]).
      unfold listsum in *. rewrite Z0. ring.
    + intros p Hpi. destruct (Z.eqb_spec p q); [subst; contradiction | reflexivity].
  - destruct HI as [HI | HI]; [contradiction |]. rewrite <- (IH q v HN HI). unfold listsum. ring.
Qed.
Lemma listsum_plus : forall (l : list Z) f g, listsum (map (fun p => f p + g p) l) = listsum (map f l) + listsum (map g l).
Proof. induction l as [| p l IH]; intros f g; cbn; [ring |]. unfold listsum in IH. rewrite IH. ring. Qed.
Lemma capacity_powers : forall sp ps T, keys_ok sp -> NoDup ps -> incl (map fst sp) ps ->
  listsum (map (fun p => coefficient sp p * powerRZ T p) ps) = capacity sp T.
Proof.
  induction sp as [| [q c] sp IH]; intros ps T HK HN HI.
  - cbn. rewrite (listsum_ext ps _ (fun _ => 0)) by (intros; cbn; ring).
    clear. induction ps as [| x l IH]; [reflexivity | cbn; unfold listsum in IH; rewrite IH; ring].
  - unfold keys_ok in HK. cbn in HK. apply NoDup_cons_iff in HK as [Hq HK]. cbn [capacity fold_right fst snd]. fold (capacity sp T).
    rewrite <- (IH ps T HK HN) by (intros x Hx; apply HI; right; exact Hx).
    rewrite <- (listsum_one ps q (fun p => c * powerRZ T p) HN) by (apply HI; left; reflexivity).
    rewrite <- listsum_plus. apply listsum_ext. intros p _. rewrite coefficient_cons. destruct (Z.eqb_spec p q) as [-> | Hne].
    + rewrite (coefficient_absent sp q Hq). destruct (existsb (Z.eqb q) (map fst sp)) eqn:Ex; [| ring].
      apply existsb_exists in Ex as (x & Hx & Ex). apply Z.eqb_eq in Ex. subst x. contradiction.
    + destruct (existsb (Z.eqb p) (map fst sp)) eqn:Ex; [ring |]. rewrite coefficient_absent; [ring |].
      intro Hp. assert (existsb (Z.eqb p) (map fst sp) = true) by (apply existsb_exists; exists p; split; [exact Hp | apply Z.eqb_refl]). congruence.
Qed.
Lemma insert_in : forall p l x, In x (insert_power p l) <-> x = p \/ In x l.
Proof.
  induction l as [| q l IH]; intro x; cbn; [intuition |]. destruct (p <? q)%Z; [cbn; intuition |].
  destruct (Z.eqb_spec p q) as [-> | H]; cbn; [intuition |]. rewrite IH. tauto.
Qed.
Inductive ascending : list Z -> Prop := asc_nil : ascending [] | asc_cons : forall p l, (forall q, In q l -> (p < q)%Z) -> ascending l -> ascending (p :: l).
Lemma insert_asc : forall p l, ascending l -> ascending (insert_power p l).
Proof.
  induction 1 as [| q l Hq Hl IH]; cbn; [repeat constructor; intros q []|]. destruct (Z.ltb_spec p q).
  - constructor; [intros x [-> | Hx]; [assumption | specialize (Hq x Hx); lia] | constructor; auto].
  - destruct (Z.eqb_spec p q); [constructor; auto |]. constructor; [| exact IH]. intros x Hx. apply insert_in in Hx as [-> | Hx]; [lia | auto].
Qed.
Lemma asc_nodup : forall l, ascending l -> NoDup l.
Proof. induction 1 as [| p l H Hl IH]; constructor; auto. intro Hp. specialize (H p Hp). lia. Qed.
Lemma powers_ok : forall cps, ascending (all_powers cps) /\ (forall sp, In sp cps -> incl (map fst sp) (all_powers cps)).
Proof.
  intro cps. unfold all_powers.
  assert (S : forall sp s, ascending s -> let s' := fold_left (fun s (pc : Z * R) => insert_power (fst pc) s) sp s in ascending s' /\ incl s s' /\ incl (map fst sp) s').
  { induction sp as [| pc sp IH]; intros s Hs; cbn [fold_left map]; [split; [exact Hs | split; [apply incl_refl | intros x []]] |].
    destruct (IH (insert_power (fst pc) s) (insert_asc _ _ Hs)) as (A & B & C). split; [exact A |]. split.
    - intros x Hx. apply B, insert_in. auto.
    - intros x [<- | Hx]; [apply B, insert_in; auto | apply C; exact Hx]. }
  assert (G : forall cps s, ascending s -> let s' := fold_left (fun s sp => fold_left (fun s (pc : Z * R) => insert_power (fst pc) s) sp s) cps s in
    ascending s' /\ incl s s' /\ (forall sp, In sp cps -> incl (map fst sp) s')).
  { induction cps0 as [| sp cps0 IH]; intros s Hs; cbn [fold_left]; [split; [exact Hs | split; [apply incl_refl | intros x []]] |].
    destruct (S sp s Hs) as (A & B & C). destruct (IH _ A) as (A' & B' & C'). split; [exact A' |]. split; [eapply incl_tran; eauto |].
    intros x [<- | Hx]; [eapply incl_tran; eauto | apply C'; exact Hx]. }
  destruct (G cps [] asc_nil) as (A & _ & C). split; assumption.
Qed.
Lemma nth_blocks : forall (cps : list species) (ps : list Z) m q, (m < length cps)%nat -> (q < length ps)%nat ->
  nth (m * length ps + q) (flat_map (fun sp => map (coefficient sp) ps) cps) 0 = coefficient (nth m cps []) (nth q ps 0%Z).
Proof.
  induction cps as [| sp cps IH]; intros ps m q Hm Hq; [cbn in Hm; lia |]. cbn [flat_map]. destruct m as [| m].
  - cbn [Nat.mul Nat.add nth]. rewrite app_nth1 by (rewrite map_length; exact Hq). rewrite (nth_indep _ 0 (coefficient sp 0%Z)) by (rewrite map_length; exact Hq). apply map_nth.
  - rewrite app_nth2 by (rewrite map_length; cbn; lia). rewrite map_length. replace (S m * length ps + q - length ps)%nat with (m * length ps + q)%nat by (cbn; lia).
    cbn [nth]. apply IH; [cbn in Hm; lia | exact Hq].
Qed.
Lemma sumZ_list : forall (l : list Z) (F : Z -> R), sumZ 1 (Z.of_nat (length l)) (fun p => F (nth (Z.to_nat (p - 1)) l 0%Z)) = listsum (map F l).
Proof.
  intros l F. induction l as [| x l IH] using rev_ind; [reflexivity |]. rewrite app_length. cbn [length]. rewrite sumZ_snoc by lia.
  replace (Z.of_nat (length l + 1) - 1)%Z with (Z.of_nat (length l)) by lia. rewrite map_app. unfold listsum. rewrite fold_right_app. cbn [map fold_right].
  rewrite (sumZ_ext _ _ _ (fun p => F (nth (Z.to_nat (p - 1)) l 0%Z))) by (intros p Hp; rewrite app_nth1 by lia; reflexivity).
  rewrite IH. rewrite app_nth2 by lia. replace (Z.to_nat (Z.of_nat (length l)) - length l)%nat with 0%nat by lia. cbn [nth].
  assert (G : forall m v, fold_right Rplus v m = listsum m + v) by (clear; induction m as [| y m IH]; intro v; cbn; [ring | rewrite IH; unfold listsum; ring]).
  rewrite G. ring.
Qed.
Lemma capacity_mixture : forall b nc cps conc temp cp i j, (0 <= nc)%Z -> Z.of_nat (length cps) = (nc + 1)%Z -> (forall sp, In sp cps -> keys_ok sp) -> in_cells b i j ->
  set_heat_capacity b nc cps conc temp cp i j = mixture nc (conc i j) (fun m => capacity (species_of cps m) (temp i j)).
Proof.
  intros b nc cps conc temp cp i j Hnc Hlen HK [Hi Hj]. unfold set_heat_capacity, heat_capacity_nkr. cbv zeta.
  rewrite (cells_loop _ _ _ _ (fun i j _ => snd (do_loop 1 nc (fun m s => (fst s - conc i j m, snd s +
    do_loop 1 (Z.of_nat (length (all_powers cps))) (fun p v => v + nth (Z.to_nat ((m - 1) * Z.of_nat (length (all_powers cps)) + p - 1)) (cp_coeffs cps) 0 * powerRZ (temp i j) (nth (Z.to_nat (p - 1)) (all_powers cps) 0%Z)) 0 * conc i j m)) (1, 0)) +
    do_loop 1 (Z.of_nat (length (all_powers cps))) (fun p v => v + nth (Z.to_nat (nc * Z.of_nat (length (all_powers cps)) + p - 1)) (cp_coeffs cps) 0 * powerRZ (temp i j) (nth (Z.to_nat (p - 1)) (all_powers cps) 0%Z)) 0 *
    fst (do_loop 1 nc (fun m s => (fst s - conc i j m, snd s +
    do_loop 1 (Z.of_nat (length (all_powers cps))) (fun p v => v + nth (Z.to_nat ((m - 1) * Z.of_nat (length (all_powers cps)) + p - 1)) (cp_coeffs cps) 0 * powerRZ (temp i j) (nth (Z.to_nat (p - 1)) (all_powers cps) 0%Z)) 0 * conc i j m)) (1, 0)))).
  destruct (inb_spec (lo0 b) (hi0 b) i); [| lia]. destruct (inb_spec (lo1 b) (hi1 b) j); [| lia].
  set (te := temp i j). set (n := Z.of_nat (length (all_powers cps))).
  destruct (powers_ok cps) as [HA HI].
  assert (P : forall m, (0 <= m <= nc)%Z -> do_loop 1 n (fun p v => v + nth (Z.to_nat (m * n + p - 1)) (cp_coeffs cps) 0 * powerRZ te (nth (Z.to_nat (p - 1)) (all_powers cps) 0%Z)) 0 = capacity (species_of cps (m + 1)) te).
  { intros m Hm. rewrite loop_sum, Rplus_0_l. rewrite (sumZ_ext _ _ _ (fun p => (fun q => coefficient (species_of cps (m + 1)) q * powerRZ te q) (nth (Z.to_nat (p - 1)) (all_powers cps) 0%Z))).
    - unfold n. rewrite (sumZ_list (all_powers cps) (fun q => coefficient (species_of cps (m + 1)) q * powerRZ te q)). apply capacity_powers.
      + apply HK. unfold species_of. apply nth_In. lia.
      + apply asc_nodup, HA.
      + apply HI. unfold species_of. apply nth_In. lia.
    - intros p Hp. f_equal. unfold cp_coeffs, species_of. replace (Z.to_nat (m * n + p - 1)) with (Z.to_nat m * length (all_powers cps) + Z.to_nat (p - 1))%nat by (unfold n; nia).
      rewrite nth_blocks by (unfold n in Hp; lia). do 2 f_equal. lia. }
  set (body := fun m (s : R * R) => _).
  assert (S1 : fst (do_loop 1 nc body (1, 0)) = 1 - sumZ 1 nc (conc i j)).
  { rewrite (obs_loop _ fst 1 nc (fun m => - conc i j m)); [| intros m s Hm; unfold body; cbn; ring]. rewrite sumZ_opp. cbn [fst]. ring. }
  assert (S2 : snd (do_loop 1 nc body (1, 0)) = sumZ 1 nc (fun m => conc i j m * capacity (species_of cps m) te)).
  { rewrite (obs_loop _ snd 1 nc (fun m => conc i j m * capacity (species_of cps m) te)); [cbn [snd]; ring |]. intros m s Hm. unfold body. cbn [snd].
    rewrite (P (m - 1)%Z) by lia. replace (m - 1 + 1)%Z with m by lia. ring. }
  rewrite S1, S2, (P nc) by lia. unfold mixture. fold te. cbv beta. cbn [andb]. ring.
Qed.
Lemma mixture_bounds : forall nc c v a b, (0 <= nc)%Z -> in_simplex nc c -> (forall m, (1 <= m <= nc + 1)%Z -> a <= v m <= b) -> a <= mixture nc c v <= b.
Proof.
  intros nc c v a b Hnc [Hc Hs] Hv. unfold mixture. pose proof (Hv (nc + 1)%Z ltac:(lia)) as Hl.
  assert (S : a * sumZ 1 nc c <= sumZ 1 nc (fun m => c m * v m) <= b * sumZ 1 nc c).
  { rewrite <- !sumZ_scal. split; apply Rge_le, Rminus_ge, Rle_ge; rewrite <- sumZ_minus; apply QuatFlow_Proofs.sumZ_nonneg; intros m Hm; pose proof (Hc m Hm); pose proof (Hv m ltac:(lia)); nra. }
  nra.
Qed.
Lemma capacity_bounds : forall b nc cps conc temp cp i j lo hi, (0 <= nc)%Z -> Z.of_nat (length cps) = (nc + 1)%Z -> (forall sp, In sp cps -> keys_ok sp) -> in_cells b i j ->
  in_simplex nc (conc i j) -> (forall sp, In sp cps -> lo <= capacity sp (temp i j) <= hi) -> lo <= set_heat_capacity b nc cps conc temp cp i j <= hi.
Proof.
  intros b nc cps conc temp cp i j lo hi Hnc Hlen HK Hij Hs Hb. rewrite capacity_mixture by assumption. apply mixture_bounds; [assumption | assumption |].
  intros m Hm. apply Hb. unfold species_of. apply nth_In. lia.
Qed.
Lemma capacity_map : forall k sp T, capacity (map (fun pc => (fst pc, snd pc * k)) sp) T = k * capacity sp T.
Proof. intros k sp T. induction sp as [| [q c] sp IH]; cbn; [ring |]. fold (capacity sp T). unfold capacity in IH at 1. rewrite IH. ring. Qed.
Lemma keys_map : forall k sp, keys_ok (map (fun pc : Z * R => (fst pc, snd pc * k)) sp) <-> keys_ok sp.
Proof. intros k sp. unfold keys_ok. rewrite map_map. cbn. reflexivity. Qed.
Lemma convert_keys : forall v r sp, keys_ok sp -> keys_ok (convert_cp v r sp).
Proof. intros v r sp H. unfold convert_cp. cbv zeta. destruct r; repeat apply (proj2 (keys_map _ _)); exact H. Qed.
Lemma mixture_scal : forall nc c v k, mixture nc c (fun m => k * v m) = k * mixture nc c v.
Proof.
  intros nc c v k. unfold mixture. rewrite (sumZ_ext _ _ _ (fun m => k * (c m * v m))) by (intros; ring). rewrite sumZ_scal. ring.
Qed.
Lemma mixture_ext : forall nc c v w, (0 <= nc)%Z -> (forall m, (1 <= m <= nc + 1)%Z -> v m = w m) -> mixture nc c v = mixture nc c w.
Proof.
  intros nc c v w Hnc H. unfold mixture. rewrite (H (nc + 1)%Z) by lia. f_equal. apply sumZ_ext. intros m Hm. rewrite H by lia. reflexivity.
Qed.
Lemma species_map : forall (h : species -> species) cps m, (1 <= m <= Z.of_nat (length cps))%Z -> species_of (map h cps) m = h (species_of cps m).
Proof.
  intros h cps m Hm. unfold species_of. rewrite (nth_indep _ [] (h [])) by (rewrite map_length; lia). apply map_nth.
Qed.
Lemma rescaled_capacity : forall b nc v Tm cps conc temp temp' cp i j, (0 <= nc)%Z -> Z.of_nat (length cps) = (nc + 1)%Z -> (forall sp, In sp cps -> keys_ok sp) -> in_cells b i j -> 0 < Tm ->
  temp' i j = temp i j ->
  set_heat_capacity b nc (map (convert_cp v (rescale_factor false Tm)) cps) conc temp cp i j = Tm * set_heat_capacity b nc (map (convert_cp v None) cps) conc temp' cp i j.
Proof.
  intros b nc v Tm cps conc temp temp' cp i j Hnc Hlen HK Hij HT Ht. unfold rescale_factor. destruct (Rgt_dec Tm 0); [| lra].
  rewrite !capacity_mixture; try assumption; try (rewrite map_length; assumption); try (intros sp Hsp; apply in_map_iff in Hsp as (sp0 & <- & Hsp0); apply convert_keys, HK, Hsp0).
  rewrite <- mixture_scal. apply mixture_ext; [exact Hnc |]. intros m Hm. rewrite !species_map by lia. unfold convert_cp. cbv zeta. rewrite !capacity_map, Ht. reflexivity.
Qed.
Lemma rescaled_rate : forall b nc v Tm cps conc temp cp D L pr old old' i j, (0 <= nc)%Z -> Z.of_nat (length cps) = (nc + 1)%Z -> in_cells b i j -> 0 < Tm ->
  (forall sp, In sp cps -> exists a, sp = readSpeciesCP a None None) ->
  let scaled := fun i j => temp i j / Tm in
  computerhstemp b D L scaled (set_heat_capacity b nc (map (convert_cp v (rescale_factor false Tm)) cps) conc scaled cp) pr old i j =
  computerhstemp b D L temp (set_heat_capacity b nc (map (convert_cp v (rescale_factor true Tm)) cps) conc temp cp) pr old' i j / Tm.
Proof.
  intros b nc v Tm cps conc temp cp D L pr old old' i j Hnc Hlen Hij HT Hc scaled. rewrite !temp_val by exact Hij.
  assert (HK : forall sp, In sp cps -> keys_ok sp) by (intros sp Hsp; destruct (Hc sp Hsp) as [a ->]; repeat constructor; intros []).
  rewrite (rescaled_capacity b nc v Tm cps conc scaled scaled cp i j) by auto.
  assert (E : set_heat_capacity b nc (map (convert_cp v None) cps) conc scaled cp i j = set_heat_capacity b nc (map (convert_cp v (rescale_factor true Tm)) cps) conc temp cp i j).
  { unfold rescale_factor. rewrite !capacity_mixture; try assumption; try (rewrite map_length; assumption); try (intros sp Hsp; apply in_map_iff in Hsp as (sp0 & <- & Hsp0); apply convert_keys, HK, Hsp0).
    apply mixture_ext; [exact Hnc |]. intros m Hm. rewrite species_map by lia. destruct (Hc (species_of cps m)) as [a Ha]; [unfold species_of; apply nth_In; lia |].
    rewrite Ha. cbn. reflexivity. }
  rewrite E. set (C := set_heat_capacity b nc (map (convert_cp v (rescale_factor true Tm)) cps) conc temp cp i j).
  assert (Lp : lap b scaled i j = lap b temp i j / Tm) by (unfold lap, scaled, Rdiv; ring).
  rewrite Lp. destruct pr; unfold Rdiv; rewrite ?Rinv_mult; ring.
Qed.
Lemma rescaled_rate_refuted : ~ (forall b nc v Tm cps conc temp cp D L pr old i j, (0 <= nc)%Z -> Z.of_nat (length cps) = (nc + 1)%Z -> in_cells b i j -> 0 < Tm ->
  (forall sp, In sp cps -> exists a c, sp = readSpeciesCP a (Some c) None) ->
  let scaled := fun i j => temp i j / Tm in
  computerhstemp b D L scaled (set_heat_capacity b nc (map (convert_cp v (rescale_factor false Tm)) cps) conc scaled cp) pr old i j =
  computerhstemp b D L temp (set_heat_capacity b nc (map (convert_cp v (rescale_factor true Tm)) cps) conc temp cp) pr old i j / Tm).
Proof.
  intro H. set (b := mk_pbox 0 0 0 0 1 1). assert (I : in_cells b 0 0) by (unfold in_cells, in_box, b; cbn; lia).
  specialize (H b 0%Z (1 / 1000000) 2 [readSpeciesCP 1 (Some 1) None] (fun _ _ _ => 0) (fun _ _ => 2) (fun _ _ => 0) 0 1 (Some (fun _ _ => 1)) (fun _ _ => 0) 0%Z 0%Z
    (Z.le_refl 0) eq_refl I Rlt_0_2). 
  assert (Hs : forall sp, In sp [readSpeciesCP 1 (Some 1) None] -> exists a c, sp = readSpeciesCP a (Some c) None) by (intros sp [<- | []]; exists 1, 1; reflexivity).
  specialize (H Hs). cbv zeta in H. rewrite !temp_val in H by exact I.
  assert (K : forall sp, In sp [readSpeciesCP 1 (Some 1) None] -> keys_ok sp) by (intros sp [<- | []]; repeat constructor; cbn; intuition discriminate).
  rewrite (rescaled_capacity b 0 (1 / 1000000) 2 [readSpeciesCP 1 (Some 1) None] _ _ (fun _ _ => 2 / 2) _ 0 0 (Z.le_refl 0) eq_refl K I Rlt_0_2 eq_refl) in H.
  assert (V : forall T, set_heat_capacity b 0 (map (convert_cp (1 / 1000000) None) [readSpeciesCP 1 (Some 1) None]) (fun _ _ _ => 0) (fun _ _ => T) (fun _ _ => 0) 0%Z 0%Z = 1 + T).
  { intro T. rewrite capacity_mixture; [| lia | reflexivity | intros sp Hsp; apply in_map_iff in Hsp as (sp0 & <- & Hsp0); apply convert_keys, K, Hsp0 | exact I].
    unfold mixture. rewrite !sumZ_empty by lia. cbn [Z.add species_of Z.sub Z.to_nat nth map]. unfold species_of. cbn. change (Pos.to_nat 1) with 1%nat. rewrite pow_1. field. }
  rewrite (V (2 / 2)) in H. unfold rescale_factor in H. rewrite (V 2) in H. unfold lap in H. cbn [h1 h2 b] in H. lra.
Qed.

(** ** Steady conduction *)
Lemma composition_steady : forall b D conc cp s1 s2 temp rhs, (forall i j, in_cells b i j -> cp i j <> 0) ->
  let sys := composition_system b D conc cp s1 s2 rhs in
  solves b (fst (fst (fst sys))) (snd (fst (fst sys))) (snd (fst sys)) temp (snd sys) <->
  steady b D cp temp (fun i j => s1 * conc i j + s2 * (1 - conc i j)).
Proof.
  intros b D conc cp s1 s2 temp rhs Hc sys. unfold sys, composition_system, solves, steady. cbn [fst snd].
  split; intros H i j Hij; specialize (H i j Hij); pose proof (Hc i j Hij) as Hcp; revert H; unfold source_temperature; rewrite grown_val by (apply grown_cells; exact Hij); intro H.
  - assert (E : (s1 * conc i j + s2 * (1 - conc i j)) = cp i j * (1 * (-1 * D * lap5 b temp i j) + 0 * temp i j)) by (rewrite H; field; exact Hcp). rewrite E. ring.
  - apply (Rmult_eq_reg_l (cp i j)); [| exact Hcp]. replace (cp i j * ((s1 * conc i j + s2 * (1 - conc i j)) / cp i j)) with (s1 * conc i j + s2 * (1 - conc i j)) by (field; exact Hcp). lra.
Qed.
Lemma gaussian_steady : forall g origin b D power dev pt pw time cp temp rhs, periods_ok g -> near_patch g origin b 0 -> (forall i j, in_cells b i j -> cp i j <> 0) ->
  exists n, forall fuel, (n <= fuel)%nat -> exists m c d r, gaussian_system fuel g b (patch_corner origin b) D power dev pt pw time cp rhs = Some ((m, c, d), r) /\
    forall source, (forall i j d0 d1, in_cells b i j -> gauss_distance g time 0 (center_at (origin 0%Z) (h1 b) i) d0 -> gauss_distance g time 1 (center_at (origin 1%Z) (h2 b) j) d1 ->
      source i j = 10 * power * exp (- ((time - pt) ^ 2 / (2 * pw ^ 2))) * exp (- ((d0 ^ 2 + d1 ^ 2) / (2 * dev ^ 2)))) ->
    (solves b m c d temp r <-> steady b D cp temp source).
Proof.
  intros g origin b D power dev pt pw time cp temp rhs Hp Hn Hc.
  destruct (center_ends g time 0%Z (Hp 0%Z)) as (n0 & c0 & l0 & H0). destruct (center_ends g time 1%Z (Hp 1%Z)) as (n1 & c1 & l1 & H1).
  exists (n0 + n1)%nat. intros fuel Hf. destruct (H0 fuel) as [A0 B0]; [lia |]. destruct (H1 fuel) as [A1 B1]; [lia |].
  unfold gaussian_system. rewrite A0, A1. cbv zeta. do 4 eexists. split; [reflexivity |]. intros source Hs.
  assert (SQ : forall x, - x * x / (2 * pw * pw) = - (x ^ 2 / (2 * pw ^ 2))).
  { intro x. destruct (Req_dec pw 0) as [Z0 | Z0]; [| field; exact Z0]. rewrite Z0. replace (2 * 0 * 0) with 0 by ring. replace (2 * 0 ^ 2) with 0 by ring. unfold Rdiv. rewrite Rinv_0. ring. }
  assert (V : forall i j, in_cells b i j -> initgaussiansource b (patch_corner origin b) cp (fun d => if (d =? 0)%Z then c0 else c1) (fun d => if (d =? 0)%Z then l0 else l1) dev
     (1 / 1000000 * (exp (- (time - pt) * (time - pt) / (2 * pw * pw)) * (power * 10))) rhs i j = 1 / 1000000 * source i j / cp i j).
  { intros i j Hij. unfold initgaussiansource. cbv zeta. rewrite grown_val by (apply grown_cells; exact Hij).
    unfold patch_corner. change (0 =? 0)%Z with true. change (1 =? 0)%Z with false. cbv iota. rewrite !cell_center.
    destruct (Hn i j) as [N0 N1]; [apply grown_cells; exact Hij |]. rewrite (Hs i j _ _ Hij (B0 _ N0) (B1 _ N1)). rewrite SQ.
    set (x0 := image_distance _ _ l0). set (x1 := image_distance _ _ l1).
    replace (- (x0 ^ 2 + x1 ^ 2) * (1 / (2 * dev * dev))) with (- ((x0 ^ 2 + x1 ^ 2) / (2 * dev ^ 2))).
    - unfold Rdiv. ring.
    - destruct (Req_dec dev 0) as [Z0 | Z0]; [| field; exact Z0]. rewrite Z0. replace (2 * 0 * 0) with 0 by ring. replace (2 * 0 ^ 2) with 0 by ring. unfold Rdiv. rewrite Rinv_0. ring. }
  unfold solves, steady. split; intros H i j Hij; specialize (H i j Hij); pose proof (Hc i j Hij) as Hcp.
  - rewrite V in H by exact Hij.
    assert (E : source i j = 1000000 * cp i j * (1 * (-1 * (1 / 1000000 * D) * lap5 b temp i j) + 0 * temp i j)) by (rewrite H; field; exact Hcp). rewrite E. field.
  - rewrite V by exact Hij. apply (Rmult_eq_reg_l (1000000 * cp i j)); [| lra].
    replace (1000000 * cp i j * (1 / 1000000 * source i j / cp i j)) with (source i j) by (field; exact Hcp). lra.
Qed.
Lemma argmin_row : forall (f : Z -> R) lo hi, (lo <= hi)%Z -> exists i, (lo <= i <= hi)%Z /\ forall k, (lo <= k <= hi)%Z -> f i <= f k.
Proof.
  intros f lo hi H. replace hi with (lo + Z.of_nat (Z.to_nat (hi - lo)))%Z by lia. generalize (Z.to_nat (hi - lo)) as n. clear H hi.
  induction n as [| n (i & Hi & M)].
  - exists lo. split; [lia |]. intros k Hk. replace k with lo by lia. lra.
  - destruct (Rle_dec (f i) (f (lo + Z.of_nat (S n))%Z)) as [L | L].
    + exists i. split; [lia |]. intros k Hk. destruct (Z.eq_dec k (lo + Z.of_nat (S n))) as [-> | Hne]; [exact L | apply M; lia].
    + exists (lo + Z.of_nat (S n))%Z. split; [lia |]. intros k Hk. destruct (Z.eq_dec k (lo + Z.of_nat (S n))) as [-> | Hne]; [lra |]. pose proof (M k ltac:(lia)). lra.
Qed.
Lemma argmin_box : forall (b : pbox) (f : arr2), (lo0 b <= hi0 b)%Z -> (lo1 b <= hi1 b)%Z -> exists i j, in_cells b i j /\ forall k l, in_cells b k l -> f i j <= f k l.
Proof.
  intros b f H0 H1.
  assert (G : forall n, exists i j, (lo0 b <= i <= hi0 b /\ lo1 b <= j <= lo1 b + Z.of_nat n)%Z /\ forall k l, (lo0 b <= k <= hi0 b)%Z -> (lo1 b <= l <= lo1 b + Z.of_nat n)%Z -> f i j <= f k l).
  { induction n as [| n (i & j & Hij & M)].
    - destruct (argmin_row (fun i => f i (lo1 b)) _ _ H0) as (i & Hi & M). exists i, (lo1 b). split; [lia |]. intros k l Hk Hl. replace l with (lo1 b) by lia. apply M, Hk.
    - destruct (argmin_row (fun i => f i (lo1 b + Z.of_nat (S n))%Z) _ _ H0) as (i' & Hi' & M'). destruct (Rle_dec (f i j) (f i' (lo1 b + Z.of_nat (S n))%Z)) as [L | L].
      + exists i, j. split; [lia |]. intros k l Hk Hl. destruct (Z.eq_dec l (lo1 b + Z.of_nat (S n))) as [-> | Hne]; [pose proof (M' k Hk); lra | apply M; lia].
      + exists i', (lo1 b + Z.of_nat (S n))%Z. split; [lia |]. intros k l Hk Hl. destruct (Z.eq_dec l (lo1 b + Z.of_nat (S n))) as [-> | Hne]; [apply M'; exact Hk |]. pose proof (M k l Hk ltac:(lia)). lra. }
  destruct (G (Z.to_nat (hi1 b - lo1 b))) as (i & j & Hij & M). exists i, j. unfold in_cells, in_box. split; [lia |]. intros k l [Hk Hl]. apply M; lia.
Qed.
Lemma steady_minimum : forall b D cp temp source m, 0 < h1 b -> 0 < h2 b -> 0 < D -> (forall i j, in_cells b i j -> 0 < cp i j /\ 0 <= source i j) ->
  steady b D cp temp source -> (forall i j, beside b i j -> m <= temp i j) -> forall i j, in_cells b i j -> m <= temp i j.
Proof.
  intros b D cp temp source m Hh1 Hh2 HD Hc HS HB i j Hij.
  destruct (argmin_box b temp) as (i0 & j0 & H0 & M); [unfold in_cells, in_box in Hij; lia | unfold in_cells, in_box in Hij; lia |].
  apply (Rle_trans _ (temp i0 j0)); [| apply M, Hij]. apply Rnot_lt_le. intro L. clear i j Hij.
  assert (N : forall k l i j, in_cells b i j -> temp i j = temp i0 j0 -> (k = i + 1 /\ l = j \/ k = i - 1 /\ l = j \/ k = i /\ l = j + 1 \/ k = i /\ l = j - 1)%Z -> temp i0 j0 <= temp k l).
  { intros k l i j Hij E Hkl. assert (D' : in_cells b k l \/ ~ in_cells b k l) by (unfold in_cells, in_box; lia). destruct D' as [I | I]; [apply M, I |].
    assert (m <= temp k l); [| lra]. apply HB. split; [exact I |]. unfold in_cells, in_box in *. lia. }
  assert (G : forall n i j, (i = lo0 b + Z.of_nat n)%Z -> in_cells b i j -> temp i j = temp i0 j0 -> False).
  { induction n as [| n IH]; intros i j Hi Hij E.
    - assert (P : temp (i - 1)%Z j = temp i0 j0).
      { pose proof (HS i j Hij) as S. destruct (Hc i j Hij) as [C1 C2].
        pose proof (N (i + 1)%Z j i j Hij E ltac:(lia)) as N1. pose proof (N (i - 1)%Z j i j Hij E ltac:(lia)) as N2. pose proof (N i (j + 1)%Z i j Hij E ltac:(lia)) as N3. pose proof (N i (j - 1)%Z i j Hij E ltac:(lia)) as N4.
        assert (Lp : lap5 b temp i j <= 0). { apply Rnot_lt_le. intro Q. assert (0 < cp i j * D * lap5 b temp i j) by (apply Rmult_lt_0_compat; [apply Rmult_lt_0_compat |]; lra). lra. }
        unfold lap5 in Lp. assert (Q1 : 0 < / h1 b ^ 2) by (apply Rinv_0_lt_compat, pow_lt; lra). assert (Q2 : 0 < / h2 b ^ 2) by (apply Rinv_0_lt_compat, pow_lt; lra).
        unfold Rdiv in Lp. assert (R2 : 0 <= (temp i (j + 1)%Z - 2 * temp i j + temp i (j - 1)%Z) * / h2 b ^ 2) by (apply Rmult_le_pos; lra).
        assert (R1 : (temp (i + 1)%Z j - 2 * temp i j + temp (i - 1)%Z j) * / h1 b ^ 2 <= 0) by lra.
        assert (R3 : temp (i + 1)%Z j - 2 * temp i j + temp (i - 1)%Z j <= 0) by (apply Rnot_lt_le; intro Q; assert (0 < (temp (i + 1)%Z j - 2 * temp i j + temp (i - 1)%Z j) * / h1 b ^ 2) by (apply Rmult_lt_0_compat; lra); lra).
        lra. }
      assert (m <= temp (i - 1)%Z j); [| lra]. apply HB. unfold beside, in_cells, in_box in *. replace (i - 1 + 1)%Z with i by lia. lia.
    - assert (P : temp (i - 1)%Z j = temp i0 j0).
      { pose proof (HS i j Hij) as S. destruct (Hc i j Hij) as [C1 C2].
        pose proof (N (i + 1)%Z j i j Hij E ltac:(lia)) as N1. pose proof (N (i - 1)%Z j i j Hij E ltac:(lia)) as N2. pose proof (N i (j + 1)%Z i j Hij E ltac:(lia)) as N3. pose proof (N i (j - 1)%Z i j Hij E ltac:(lia)) as N4.
        assert (Lp : lap5 b temp i j <= 0). { apply Rnot_lt_le. intro Q. assert (0 < cp i j * D * lap5 b temp i j) by (apply Rmult_lt_0_compat; [apply Rmult_lt_0_compat |]; lra). lra. }
        unfold lap5 in Lp. assert (Q1 : 0 < / h1 b ^ 2) by (apply Rinv_0_lt_compat, pow_lt; lra). assert (Q2 : 0 < / h2 b ^ 2) by (apply Rinv_0_lt_compat, pow_lt; lra).
        unfold Rdiv in Lp. assert (R2 : 0 <= (temp i (j + 1)%Z - 2 * temp i j + temp i (j - 1)%Z) * / h2 b ^ 2) by (apply Rmult_le_pos; lra).
        assert (R1 : (temp (i + 1)%Z j - 2 * temp i j + temp (i - 1)%Z j) * / h1 b ^ 2 <= 0) by lra.
        assert (R3 : temp (i + 1)%Z j - 2 * temp i j + temp (i - 1)%Z j <= 0) by (apply Rnot_lt_le; intro Q; assert (0 < (temp (i + 1)%Z j - 2 * temp i j + temp (i - 1)%Z j) * / h1 b ^ 2) by (apply Rmult_lt_0_compat; lra); lra).
        lra. }
      apply (IH (i - 1)%Z j); [lia | unfold in_cells, in_box in *; lia | exact P]. }
  apply (G (Z.to_nat (i0 - lo0 b)) i0 j0); [unfold in_cells, in_box in H0; lia | exact H0 | reflexivity].
Qed.
