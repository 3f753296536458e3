(** Proofs for prescribed temperatures and heat capacities in three dimensions. *)
From Coq Require Import Reals ZArith List Bool Lra Lia Psatz.
From Verif Require Import Grid_Model Grid_Spec Grid_Proofs TempHistory_Model TempHistory_Spec TempHistory_Proofs.
From Verif Require Import PhaseFlow_Model PhaseFlow_Spec PhaseFlow_Proofs Temperature_Model Temperature_Spec Temperature_Proofs.
From Verif Require Import Trap3_Model Temperature3_Model Temperature3_Spec.
Import ListNotations.
Open Scope R_scope.
Set Bullet Behavior "Strict Subproofs".

Lemma grown3_loop : forall b ng g f i j k, cells_grown3 b ng g f i j k =
  if inb (xl b - ng) (xu b + ng) i && inb (yl b - ng) (yu b + ng) j && inb (zl b - ng) (zu b + ng) k then g i j k (f i j k) else f i j k.
Proof. intros. unfold cells_grown3. apply cells3_loop. Qed.
Lemma grown3_val : forall b ng g f i j k, in_grown3 b ng i j k -> cells_grown3 b ng g f i j k = g i j k (f i j k).
Proof.
  intros b ng g f i j k H. unfold in_grown3, in_box3 in H. rewrite grown3_loop.
  destruct (inb_spec (xl b - ng) (xu b + ng) i); [| lia]. destruct (inb_spec (yl b - ng) (yu b + ng) j); [| lia].
  destruct (inb_spec (zl b - ng) (zu b + ng) k); [reflexivity | lia].
Qed.
Lemma grown3_out : forall b ng g f i j k, ~ in_grown3 b ng i j k -> cells_grown3 b ng g f i j k = f i j k.
Proof.
  intros b ng g f i j k H. unfold in_grown3, in_box3 in H. rewrite grown3_loop.
  destruct (inb_spec (xl b - ng) (xu b + ng) i); [| reflexivity]. destruct (inb_spec (yl b - ng) (yu b + ng) j); [| reflexivity].
  destruct (inb_spec (zl b - ng) (zu b + ng) k); [lia | reflexivity].
Qed.
Lemma patch_grown : forall b i j k, in_patch3 b i j k <-> in_grown3 b 0 i j k.
Proof. intros. unfold in_patch3, in_grown3, in_box3. lia. Qed.
Lemma corner0 : forall origin b, patch_corner3 origin b 0 = origin 0%Z + hx b * IZR (xl b). Proof. reflexivity. Qed.
Lemma corner1 : forall origin b, patch_corner3 origin b 1 = origin 1%Z + hy b * IZR (yl b). Proof. reflexivity. Qed.
Lemma corner2 : forall origin b, patch_corner3 origin b 2 = origin 2%Z + hz b * IZR (zl b). Proof. reflexivity. Qed.
Lemma width : forall dev x, - x * (1 / (2 * dev * dev)) = - (x / (2 * dev ^ 2)).
Proof.
  intros dev x. destruct (Req_dec dev 0) as [Z0 | Z0]; [| field; exact Z0]. rewrite Z0. replace (2 * 0 * 0) with 0 by ring.
  replace (2 * 0 ^ 2) with 0 by ring. unfold Rdiv. rewrite Rinv_0. ring.
Qed.

(** ** Gaussian profile *)
Lemma gauss_once3 : forall g origin b ng time, periods_ok g -> (0 <= ng)%Z -> near_patch3 g origin b ng ->
  exists n, forall fuel f, (n <= fuel)%nat -> exists f', set_gauss3 fuel g b (patch_corner3 origin b) ng time f = Some f' /\
    (g_rate g <> 0 \/ time = 0 -> gauss_field3 g origin b 0 time (fst f') /\ gauss_field3 g origin b ng time (snd f')) /\
    (g_rate g = 0 -> time <> 0 -> f' = f).
Proof.
  intros g origin b ng time Hp Hg Hn.
  destruct (center_ends g time 0%Z (Hp 0%Z)) as (n0 & c0 & l0 & H0). destruct (center_ends g time 1%Z (Hp 1%Z)) as (n1 & c1 & l1 & H1).
  destruct (center_ends g time 2%Z (Hp 2%Z)) as (n2 & c2 & l2 & H2).
  exists (n0 + n1 + n2)%nat. intros fuel f Hf. destruct (H0 fuel) as [A0 B0]; [lia |]. destruct (H1 fuel) as [A1 B1]; [lia |].
  destruct (H2 fuel) as [A2 B2]; [lia |].
  unfold set_gauss3. rewrite A0, A1, A2. cbv zeta. eexists. split; [reflexivity |].
  assert (F : forall m v, (m <= ng)%Z -> gauss_field3 g origin b m time
    (initgaussian3 b (patch_corner3 origin b) m (three c0 c1 c2) (three l0 l1 l2) (g_dev g) (g_base g) (gaussCurrentTemperature g time) v)).
  { intros m v Hm i j k d0 d1 d2 Hij (D0 & D1 & D2). unfold initgaussian3. cbv zeta. rewrite grown3_val by exact Hij.
    rewrite corner0, corner1, corner2, !cell_center. unfold three. cbn [Z.eqb Pos.eqb].
    destruct (Hn i j k) as (N0 & N1 & N2); [unfold in_grown3, in_box3 in *; lia |].
    rewrite (distance_unique _ _ _ _ _ _ (B0 _ N0) D0), (distance_unique _ _ _ _ _ _ (B1 _ N1) D1), (distance_unique _ _ _ _ _ _ (B2 _ N2) D2).
    rewrite width, gauss_ramp. reflexivity. }
  split.
  - intro H. destruct (Req_EM_T (g_rate g) 0); [destruct (Req_EM_T time 0); [| exfalso; destruct H; contradiction] |]; cbn [fst snd]; (split; apply F; lia).
  - intros H1' H2'. destruct (Req_EM_T (g_rate g) 0); [| contradiction]. destruct (Req_EM_T time 0); [contradiction | reflexivity].
Qed.
Definition both_fields3 (g : gauss_temp) (origin : Z -> R) (b : box3) (ng : Z) (time : R) (f : temps3) : Prop :=
  gauss_field3 g origin b 0 time (fst f) /\ gauss_field3 g origin b ng time (snd f).
Lemma gauss_frozen3 : forall g origin b ng, periods_ok g -> (0 <= ng)%Z -> near_patch3 g origin b ng -> g_rate g = 0 ->
  forall times, exists n, forall fuel f, (n <= fuel)%nat -> both_fields3 g origin b ng 0 f ->
    exists f', gauss_calls3 fuel g b (patch_corner3 origin b) ng times f = Some f' /\ both_fields3 g origin b ng 0 f'.
Proof.
  intros g origin b ng Hp Hg Hn Hr. induction times as [| t r IH].
  - exists 0%nat. intros fuel f _ B. exists f. split; [reflexivity | exact B].
  - destruct IH as [n IH]. destruct (gauss_once3 g origin b ng t Hp Hg Hn) as [m Hm]. exists (n + m)%nat. intros fuel f Hf B.
    destruct (Hm fuel f) as (f1 & E1 & F1 & G1); [lia |]. cbn [gauss_calls3]. rewrite E1. apply IH; [lia |].
    destruct (Req_EM_T t 0) as [Ht | Ht].
    + rewrite Ht in F1. apply F1. auto.
    + rewrite (G1 Hr Ht). exact B.
Qed.
Lemma gauss_calls3_app : forall fuel g b xlo ng l l' f,
  gauss_calls3 fuel g b xlo ng (l ++ l') f = match gauss_calls3 fuel g b xlo ng l f with Some f' => gauss_calls3 fuel g b xlo ng l' f' | None => None end.
Proof. induction l as [| t r IH]; intros l' f; [reflexivity |]. cbn. destruct (set_gauss3 fuel g b xlo ng t f); auto. Qed.
Lemma gauss_any3 : forall g origin b ng, periods_ok g -> (0 <= ng)%Z -> near_patch3 g origin b ng ->
  forall times, exists n, forall fuel f, (n <= fuel)%nat -> exists f', gauss_calls3 fuel g b (patch_corner3 origin b) ng times f = Some f'.
Proof.
  intros g origin b ng Hp Hg Hn. induction times as [| t r IH].
  - exists 0%nat. intros fuel f _. exists f. reflexivity.
  - destruct IH as [n IH]. destruct (gauss_once3 g origin b ng t Hp Hg Hn) as [m Hm]. exists (n + m)%nat. intros fuel f Hf.
    destruct (Hm fuel f) as (f1 & E1 & _); [lia |]. cbn [gauss_calls3]. rewrite E1. apply IH. lia.
Qed.
Lemma gauss_stays3 : forall g origin b ng, periods_ok g -> (0 <= ng)%Z -> near_patch3 g origin b ng -> g_rate g = 0 ->
  forall times, exists n, forall fuel f, (n <= fuel)%nat ->
    exists f', gauss_calls3 fuel g b (patch_corner3 origin b) ng (0 :: times) f = Some f' /\ gauss_field3 g origin b 0 0 (fst f') /\ gauss_field3 g origin b ng 0 (snd f').
Proof.
  intros g origin b ng Hp Hg Hn Hr times. destruct (gauss_frozen3 g origin b ng Hp Hg Hn Hr times) as [n IH].
  destruct (gauss_once3 g origin b ng 0 Hp Hg Hn) as [m Hm]. exists (n + m)%nat. intros fuel f Hf.
  destruct (Hm fuel f) as (f1 & E1 & F1 & _); [lia |]. cbn [gauss_calls3]. rewrite E1. apply IH; [lia |]. apply F1. auto.
Qed.
Lemma gauss_follows3 : forall g origin b ng, periods_ok g -> (0 <= ng)%Z -> near_patch3 g origin b ng ->
  (g_rate g <> 0 \/ forall d, g_velocity g d = 0) ->
  forall times t, exists n, forall fuel f, (n <= fuel)%nat ->
    exists f', gauss_calls3 fuel g b (patch_corner3 origin b) ng (0 :: times ++ [t]) f = Some f' /\ gauss_field3 g origin b 0 t (fst f') /\ gauss_field3 g origin b ng t (snd f').
Proof.
  intros g origin b ng Hp Hg Hn Hr times t. destruct (Req_EM_T (g_rate g) 0) as [H | H].
  - destruct Hr as [Hr | Hv]; [contradiction |]. destruct (gauss_stays3 g origin b ng Hp Hg Hn H (times ++ [t])) as [n Hs]. exists n. intros fuel f Hf.
    destruct (Hs fuel f Hf) as (f' & E & A & B). exists f'. split; [exact E |].
    assert (G : forall m v, gauss_field3 g origin b m 0 v -> gauss_field3 g origin b m t v).
    { intros m v F i j k d0 d1 d2 Hij (D0 & D1 & D2). rewrite (F i j k d0 d1 d2 Hij).
      - f_equal. unfold ramp. destruct (Rlt_dec (g_rate g) 0); [lra |]. destruct (Rlt_dec 0 (g_rate g)); [lra | reflexivity].
      - revert D0 D1 D2. unfold distances3, gauss_distance. rewrite (Hv 0%Z), (Hv 1%Z), (Hv 2%Z), !Rmult_0_r. auto. }
    split; apply G; assumption.
  - destruct (gauss_any3 g origin b ng Hp Hg Hn (0 :: times)) as [n Ha]. destruct (gauss_once3 g origin b ng t Hp Hg Hn) as [m Hm].
    exists (n + m)%nat. intros fuel f Hf. destruct (Ha fuel f) as [f1 E1]; [lia |]. destruct (Hm fuel f1) as (f2 & E2 & F2 & _); [lia |].
    exists f2. change (0 :: times ++ [t]) with ((0 :: times) ++ [t]). rewrite gauss_calls3_app, E1. cbn [gauss_calls3]. rewrite E2. split; [reflexivity |]. apply F2. auto.
Qed.
Lemma distances3_exist : forall g origin b ng time i j k, periods_ok g -> near_patch3 g origin b ng -> in_grown3 b ng i j k ->
  exists d0 d1 d2, distances3 g origin b time i j k d0 d1 d2.
Proof.
  intros g origin b ng time i j k Hp Hn Hij. destruct (Hn i j k Hij) as (N0 & N1 & N2).
  destruct (distance_exists g time 0%Z _ Hp N0) as [d0 D0]. destruct (distance_exists g time 1%Z _ Hp N1) as [d1 D1].
  destruct (distance_exists g time 2%Z _ Hp N2) as [d2 D2]. exists d0, d1, d2. repeat split; assumption.
Qed.
Lemma gauss_bounds3 : forall g origin b ng time f, periods_ok g -> near_patch3 g origin b ng -> gauss_field3 g origin b ng time f ->
  g_base g <= ramp (g_initial g) (g_rate g) (g_target g) time ->
  forall i j k, in_grown3 b ng i j k -> g_base g <= f i j k <= ramp (g_initial g) (g_rate g) (g_target g) time.
Proof.
  intros g origin b ng time f Hp Hn F Hb i j k Hij. destruct (distances3_exist g origin b ng time i j k Hp Hn Hij) as (d0 & d1 & d2 & D).
  rewrite (F i j k d0 d1 d2 Hij D). unfold gauss_profile3. set (P := ramp (g_initial g) (g_rate g) (g_target g) time) in *.
  assert (X : 0 < exp (- ((d0 ^ 2 + d1 ^ 2 + d2 ^ 2) / (2 * g_dev g ^ 2))) <= 1).
  { split; [apply exp_pos |]. replace 1 with (exp 0) by apply exp_0. assert (Q : 0 <= (d0 ^ 2 + d1 ^ 2 + d2 ^ 2) / (2 * g_dev g ^ 2)).
    { pose proof (pow2_ge_0 d0). pose proof (pow2_ge_0 d1). pose proof (pow2_ge_0 d2). pose proof (pow2_ge_0 (g_dev g)). destruct (Req_dec (g_dev g ^ 2) 0) as [Z0 | Z0].
      - rewrite Z0, Rmult_0_r. unfold Rdiv. rewrite Rinv_0. lra.
      - apply Rmult_le_pos; [lra |]. left. apply Rinv_0_lt_compat. lra. }
    destruct Q as [Q | Q]; [left; apply exp_increasing; lra | right; f_equal; lra]. }
  nra.
Qed.
Lemma gauss_patches3 : forall g origin b b' ng ng' time f f', periods_ok g -> near_patch3 g origin b ng ->
  hx b = hx b' -> hy b = hy b' -> hz b = hz b' -> gauss_field3 g origin b ng time f -> gauss_field3 g origin b' ng' time f' ->
  forall i j k, in_grown3 b ng i j k -> in_grown3 b' ng' i j k -> f i j k = f' i j k.
Proof.
  intros g origin b b' ng ng' time f f' Hp Hn E1 E2 E3 F F' i j k Hij Hij'.
  destruct (distances3_exist g origin b ng time i j k Hp Hn Hij) as (d0 & d1 & d2 & D).
  rewrite (F i j k d0 d1 d2 Hij D). symmetry. apply (F' i j k d0 d1 d2 Hij'). revert D. unfold distances3. rewrite E1, E2, E3. auto.
Qed.
(** no cell outside of the layers is written *)
Lemma gauss_outside3 : forall fuel g b xlo ng times f f', gauss_calls3 fuel g b xlo ng times f = Some f' ->
  (forall i j k, ~ in_patch3 b i j k -> fst f' i j k = fst f i j k) /\ (forall i j k, ~ in_grown3 b ng i j k -> snd f' i j k = snd f i j k).
Proof.
  intros fuel g b xlo ng times. induction times as [| t r IH]; intros f f' E; cbn in E.
  - inversion E. subst. auto.
  - destruct (set_gauss3 fuel g b xlo ng t f) as [f1 |] eqn:E1; [| discriminate]. destruct (IH f1 f' E) as [A B].
    assert (C : (forall i j k, ~ in_patch3 b i j k -> fst f1 i j k = fst f i j k) /\ (forall i j k, ~ in_grown3 b ng i j k -> snd f1 i j k = snd f i j k)).
    { unfold set_gauss3 in E1. destruct (gauss_center fuel g t 0) as [[c0 l0] |]; [| discriminate]. destruct (gauss_center fuel g t 1) as [[c1 l1] |]; [| discriminate].
      destruct (gauss_center fuel g t 2) as [[c2 l2] |]; [| discriminate]. cbv zeta in E1. apply f_equal with (f := fun o => match o with Some v => v | None => f1 end) in E1. subst f1.
      destruct (Req_EM_T (g_rate g) 0); [destruct (Req_EM_T t 0) |]; cbn [fst snd]; try (split; reflexivity);
      (split; intros i j k H; [rewrite patch_grown in H |]; apply grown3_out; exact H). }
    destruct C as [C D]. split; intros i j k H; [rewrite A, C | rewrite B, D]; auto.
Qed.
Definition still_center3 : gauss_temp := mk_gauss 0 1 0 0 1 (fun _ => 0) (fun d => if (d =? 2)%Z then 1 else 0) (fun _ => false) (fun _ => 0) (fun _ => 0).
Lemma gauss_moving3_refuted : ~ (forall g origin b ng times t fuel f f', periods_ok g -> (0 <= ng)%Z -> near_patch3 g origin b ng ->
  gauss_calls3 fuel g b (patch_corner3 origin b) ng (0 :: times ++ [t]) f = Some f' -> gauss_field3 g origin b ng t (snd f')).
Proof.
  intro H. set (b := mk_box3 0 0 0 0 0 0 1 1 1). set (origin := fun _ : Z => - (1 / 2)).
  assert (P : periods_ok still_center3) by (intros d Hd; discriminate).
  assert (N : near_patch3 still_center3 origin b 0) by (intros i j k _; split; [| split]; intro Hd; discriminate).
  destruct (gauss_stays3 still_center3 origin b 0 P (Z.le_refl 0) N eq_refl [1]) as [n Hn].
  destruct (Hn n (fun _ _ _ => 0, fun _ _ _ => 0) (Nat.le_refl n)) as (f' & E & _ & F).
  pose proof (H still_center3 origin b 0%Z [] 1 n _ f' P (Z.le_refl 0) N E) as F1.
  assert (I : in_grown3 b 0 0 0 0) by (unfold in_grown3, in_box3, b; cbn; lia).
  assert (X0 : forall d, center_at (origin d) 1 0 = 0) by (intro d; unfold center_at, origin; lra).
  assert (A : snd f' 0%Z 0%Z 0%Z = gauss_profile3 0 1 1 0 0 0).
  { rewrite (F 0%Z 0%Z 0%Z 0 0 0 I).
    - unfold ramp. cbn. destruct (Rlt_dec 0 0); [lra | reflexivity].
    - unfold distances3, gauss_distance. cbn [b hx hy hz still_center3 g_periodic g_center0 g_velocity]. rewrite !X0. cbn.
      repeat split; rewrite Rabs_right; lra. }
  assert (B : snd f' 0%Z 0%Z 0%Z = gauss_profile3 0 1 1 0 0 1).
  { rewrite (F1 0%Z 0%Z 0%Z 0 0 1 I).
    - unfold ramp. cbn. destruct (Rlt_dec 0 0); [lra | reflexivity].
    - unfold distances3, gauss_distance. cbn [b hx hy hz still_center3 g_periodic g_center0 g_velocity]. rewrite !X0. cbn.
      repeat split; [rewrite Rabs_right; lra | rewrite Rabs_right; lra |]. rewrite <- Rabs_Ropp, Rabs_right; lra. }
  rewrite A in B. unfold gauss_profile3 in B.
  assert (Q : exp (- ((0 ^ 2 + 0 ^ 2 + 1 ^ 2) / (2 * 1 ^ 2))) < exp (- ((0 ^ 2 + 0 ^ 2 + 0 ^ 2) / (2 * 1 ^ 2)))) by (apply exp_increasing; lra).
  lra.
Qed.

(** ** Frozen gradient *)
Lemma grad_lab3 : forall T0 rate gradient center v0 changes origin b ng t f, 0 < T0 ->
  exists f', set_grad3 (with_changes (new_grad T0 rate gradient None center v0) changes) b (patch_corner3 origin b) ng t f = Some f' /\
    let field i j k := T0 + rate * t + (center_at (origin 0%Z) (hx b) i + travelled 0 v0 changes t - center 0%Z) * gradient 0%Z +
      (center_at (origin 1%Z) (hy b) j - center 1%Z) * gradient 1%Z + (center_at (origin 2%Z) (hz b) k - center 2%Z) * gradient 2%Z in
    (forall i j k, in_patch3 b i j k -> fst f' i j k = field i j k) /\ (forall i j k, in_grown3 b ng i j k -> snd f' i j k = field i j k).
Proof.
  intros T0 rate gradient center v0 changes origin b ng t f HT.
  destruct (changes_center changes (new_grad T0 rate gradient None center v0) t) as [(A1 & A2 & A3 & A4 & A5 & A6) B].
  set (g := with_changes (new_grad T0 rate gradient None center v0) changes) in *. cbn [r_temperature0 r_rate r_gradient r_history r_init_center r_ref_center r_ref_time r_velocity new_grad] in *.
  unfold center_now in B. unfold set_grad3. rewrite A4 in *. rewrite A1, A2, A3. destruct (Rgt_dec T0 0); [| lra]. eexists. split; [reflexivity |].
  cbv zeta. cbn [fst snd].
  assert (F : forall m v i j k, in_grown3 b m i j k ->
    initgradient3 b (patch_corner3 origin b) m (set_dir0 (r_ref_center g) (r_ref_center g 0%Z - (t - r_ref_time g) * r_velocity g)) (T0 + rate * t) gradient v i j k =
    T0 + rate * t + (center_at (origin 0%Z) (hx b) i + travelled 0 v0 changes t - center 0%Z) * gradient 0%Z +
      (center_at (origin 1%Z) (hy b) j - center 1%Z) * gradient 1%Z + (center_at (origin 2%Z) (hz b) k - center 2%Z) * gradient 2%Z).
  { intros m v i j k Hij. unfold initgradient3. cbv zeta. rewrite grown3_val by exact Hij. rewrite corner0, corner1, corner2, !cell_center.
    unfold set_dir0. cbn [Z.eqb Pos.eqb]. rewrite B, (A6 1%Z), (A6 2%Z) by lia. ring. }
  split; intros i j k Hij; apply F; [apply patch_grown |]; exact Hij.
Qed.
Lemma grad_table3 : forall T0 rate gradient h center v0 changes origin b ng t f T G,
  getTandGradT h t (center 0%Z + travelled 0 v0 changes t) = Found T G ->
  exists f', set_grad3 (with_changes (new_grad T0 rate gradient (Some h) center v0) changes) b (patch_corner3 origin b) ng t f = Some f' /\
    let field i := T + G * ((center_at (origin 0%Z) (hx b) i + travelled 0 v0 changes t) - (center 0%Z + travelled 0 v0 changes t)) in
    (forall i j k, in_patch3 b i j k -> fst f' i j k = field i) /\ (forall i j k, in_grown3 b ng i j k -> snd f' i j k = field i).
Proof.
  intros T0 rate gradient h center v0 changes origin b ng t f T G HF.
  destruct (changes_center changes (new_grad T0 rate gradient (Some h) center v0) t) as [(A1 & A2 & A3 & A4 & A5 & A6) B].
  set (g := with_changes (new_grad T0 rate gradient (Some h) center v0) changes) in *. cbn [r_temperature0 r_rate r_gradient r_history r_init_center r_ref_center r_ref_time r_velocity new_grad] in *.
  unfold center_now in B. unfold set_grad3. rewrite A4 in *. cbv zeta. rewrite Rmult_1_l in B.
  change (set_dir0 (r_ref_center g) (r_ref_center g 0%Z + (t - r_ref_time g) * r_velocity g) 0%Z) with (r_ref_center g 0%Z + (t - r_ref_time g) * r_velocity g).
  rewrite B, HF. eexists. split; [reflexivity |]. cbn [fst snd].
  assert (F : forall m v i j k, in_grown3 b m i j k ->
    initgradient3 b (fun d => patch_corner3 origin b d + (set_dir0 (r_ref_center g) (center 0%Z + travelled 0 v0 changes t) d - r_init_center g d)) m
      (set_dir0 (r_ref_center g) (center 0%Z + travelled 0 v0 changes t)) T (three G 0 0) v i j k =
    T + G * ((center_at (origin 0%Z) (hx b) i + travelled 0 v0 changes t) - (center 0%Z + travelled 0 v0 changes t))).
  { intros m v i j k Hij. unfold initgradient3. cbv zeta. rewrite grown3_val by exact Hij. rewrite corner0, corner1, corner2.
    unfold set_dir0, three. cbn [Z.eqb Pos.eqb]. rewrite A5. unfold cell_coord, center_at. rewrite !minus_IZR. ring. }
  split; intros i j k Hij; apply F; [apply patch_grown |]; exact Hij.
Qed.
Lemma grad_table_exact3 : forall T0 rate gradient h center v0 changes origin b ng t f f' a0 a1 a2 a3,
  table_ok h -> samples h (fun t x => a0 + a1 * x + a2 * t + a3 * (x * t)) ->
  set_grad3 (with_changes (new_grad T0 rate gradient (Some h) center v0) changes) b (patch_corner3 origin b) ng t f = Some f' ->
  let X i := center_at (origin 0%Z) (hx b) i + travelled 0 v0 changes t in
  let field i := a0 + a1 * X i + a2 * t + a3 * (X i * t) in
  (forall i j k, in_patch3 b i j k -> fst f' i j k = field i) /\ (forall i j k, in_grown3 b ng i j k -> snd f' i j k = field i).
Proof.
  intros T0 rate gradient h center v0 changes origin b ng t f f' a0 a1 a2 a3 Hok Hs E X field.
  destruct (getTandGradT h t (center 0%Z + travelled 0 v0 changes t)) as [T G | |] eqn:HF.
  - destruct (grad_table3 T0 rate gradient h center v0 changes origin b ng t f T G HF) as (f1 & E1 & A & B). rewrite E in E1.
    assert (f' = f1) by congruence. subst f1. destruct (lookup_exact h t _ T G a0 a1 a2 a3 Hok Hs HF) as [HT HG].
    split; intros i j k Hij; [rewrite (A i j k Hij) | rewrite (B i j k Hij)]; unfold field, X; rewrite HT, HG; ring.
  - exfalso. destruct (changes_center changes (new_grad T0 rate gradient (Some h) center v0) t) as [(A1 & A2 & A3 & A4 & A5 & A6) B].
    unfold center_now in B. unfold set_grad3 in E. rewrite A4 in *. cbn [r_history new_grad r_ref_center r_ref_time r_velocity] in *. rewrite Rmult_1_l in B. cbv zeta in E.
    unfold set_dir0 at 1 in E. change (0 =? 0)%Z with true in E. cbv iota in E. rewrite B, HF in E. discriminate.
  - exfalso. destruct (changes_center changes (new_grad T0 rate gradient (Some h) center v0) t) as [(A1 & A2 & A3 & A4 & A5 & A6) B].
    unfold center_now in B. unfold set_grad3 in E. rewrite A4 in *. cbn [r_history new_grad r_ref_center r_ref_time r_velocity] in *. rewrite Rmult_1_l in B. cbv zeta in E.
    unfold set_dir0 at 1 in E. change (0 =? 0)%Z with true in E. cbv iota in E. rewrite B, HF in E. discriminate.
Qed.

(** ** Heat capacity and sources *)
(** a cell of the patch is a cell of a plane *)
Lemma capacity_plane : forall b nc cps conc temp cp i j k, in_patch3 b i j k ->
  set_heat_capacity3 b nc cps conc temp cp i j k =
  set_heat_capacity (mk_pbox (xl b) (xu b) (yl b) (yu b) 1 1) nc cps (fun i j => conc i j k) (fun i j => temp i j k) (fun i j => cp i j k) i j.
Proof.
  intros b nc cps conc temp cp i j k H. unfold set_heat_capacity3, heat_capacity_nkr3. cbv zeta. rewrite grown3_val by (apply patch_grown; exact H).
  unfold set_heat_capacity, heat_capacity_nkr. cbv zeta. cbn [lo0 hi0 lo1 hi1].
  match goal with |- ?l = do_cells _ _ _ _ (fun i j cp => upd2 cp i j (@?v i j)) _ _ _ =>
    rewrite (cells_loop _ _ _ _ (fun i j _ => v i j)) end.
  unfold in_patch3, in_box3 in H. destruct (inb_spec (xl b) (xu b) i); [| lia]. destruct (inb_spec (yl b) (yu b) j); [| lia]. reflexivity.
Qed.
Lemma capacity_mixture3 : forall b nc cps conc temp cp i j k, (0 <= nc)%Z -> Z.of_nat (length cps) = (nc + 1)%Z -> (forall sp, In sp cps -> keys_ok sp) -> in_patch3 b i j k ->
  set_heat_capacity3 b nc cps conc temp cp i j k = mixture nc (conc i j k) (fun m => capacity (species_of cps m) (temp i j k)).
Proof.
  intros b nc cps conc temp cp i j k Hn Hl Hk H. rewrite capacity_plane by exact H.
  refine (capacity_mixture (mk_pbox (xl b) (xu b) (yl b) (yu b) 1 1) nc cps (fun i j => conc i j k) (fun i j => temp i j k) (fun i j => cp i j k) i j Hn Hl Hk _). unfold in_cells, in_patch3, in_box3, in_box in *. cbn. lia.
Qed.
Lemma capacity_bounds3 : forall b nc cps conc temp cp i j k lo hi, (0 <= nc)%Z -> Z.of_nat (length cps) = (nc + 1)%Z -> (forall sp, In sp cps -> keys_ok sp) -> in_patch3 b i j k ->
  in_simplex nc (conc i j k) -> (forall sp, In sp cps -> lo <= capacity sp (temp i j k) <= hi) -> lo <= set_heat_capacity3 b nc cps conc temp cp i j k <= hi.
Proof.
  intros b nc cps conc temp cp i j k lo hi Hn Hl Hk H Hs Hb. rewrite capacity_plane by exact H.
  refine (capacity_bounds (mk_pbox (xl b) (xu b) (yl b) (yu b) 1 1) nc cps (fun i j => conc i j k) (fun i j => temp i j k) (fun i j => cp i j k) i j lo hi Hn Hl Hk _ Hs Hb). unfold in_cells, in_patch3, in_box3, in_box in *. cbn. lia.
Qed.
Lemma composition_steady3 : forall b D conc cp s1 s2 temp rhs, (forall i j k, in_patch3 b i j k -> cp i j k <> 0) ->
  let sys := composition_system3 b D conc cp s1 s2 rhs in
  solves3 b (fst (fst (fst sys))) (snd (fst (fst sys))) (snd (fst sys)) temp (snd sys) <->
  steady3 b D cp temp (fun i j k => s1 * conc i j k + s2 * (1 - conc i j k)).
Proof.
  intros b D conc cp s1 s2 temp rhs Hc sys. unfold sys, composition_system3, solves3, steady3. cbn [fst snd].
  split; intros H i j k Hij; specialize (H i j k Hij); pose proof (Hc i j k Hij) as Hcp; revert H; unfold source_temperature3; rewrite grown3_val by (apply patch_grown; exact Hij); intro H.
  - assert (E : (s1 * conc i j k + s2 * (1 - conc i j k)) = cp i j k * (1 * (-1 * D * lap7 b temp i j k) + 0 * temp i j k)) by (rewrite H; field; exact Hcp). rewrite E. ring.
  - apply (Rmult_eq_reg_l (cp i j k)); [| exact Hcp]. replace (cp i j k * ((s1 * conc i j k + s2 * (1 - conc i j k)) / cp i j k)) with (s1 * conc i j k + s2 * (1 - conc i j k)) by (field; exact Hcp). lra.
Qed.
Lemma gaussian_steady3 : forall g origin b D power dev pt pw time cp temp rhs, periods_ok g -> near_patch3 g origin b 0 -> (forall i j k, in_patch3 b i j k -> cp i j k <> 0) ->
  exists n, forall fuel, (n <= fuel)%nat -> exists m c d r, gaussian_system3 fuel g b (patch_corner3 origin b) D power dev pt pw time cp rhs = Some ((m, c, d), r) /\
    forall source, (forall i j k d0 d1 d2, in_patch3 b i j k -> distances3 g origin b time i j k d0 d1 d2 ->
      source i j k = 10 * power * exp (- ((time - pt) ^ 2 / (2 * pw ^ 2))) * exp (- ((d0 ^ 2 + d1 ^ 2 + d2 ^ 2) / (2 * dev ^ 2)))) ->
    (solves3 b m c d temp r <-> steady3 b D cp temp source).
Proof.
  intros g origin b D power dev pt pw time cp temp rhs Hp Hn Hc.
  destruct (center_ends g time 0%Z (Hp 0%Z)) as (n0 & c0 & l0 & H0). destruct (center_ends g time 1%Z (Hp 1%Z)) as (n1 & c1 & l1 & H1).
  destruct (center_ends g time 2%Z (Hp 2%Z)) as (n2 & c2 & l2 & H2).
  exists (n0 + n1 + n2)%nat. intros fuel Hf. destruct (H0 fuel) as [A0 B0]; [lia |]. destruct (H1 fuel) as [A1 B1]; [lia |]. destruct (H2 fuel) as [A2 B2]; [lia |].
  unfold gaussian_system3. rewrite A0, A1, A2. cbv zeta. do 4 eexists. split; [reflexivity |]. intros source Hs.
  assert (SQ : forall x, - x * x / (2 * pw * pw) = - (x ^ 2 / (2 * pw ^ 2))).
  { intro x. destruct (Req_dec pw 0) as [Z0 | Z0]; [| field; exact Z0]. rewrite Z0. replace (2 * 0 * 0) with 0 by ring. replace (2 * 0 ^ 2) with 0 by ring. unfold Rdiv. rewrite Rinv_0. ring. }
  assert (V : forall i j k, in_patch3 b i j k -> initgaussiansource3 b (patch_corner3 origin b) cp (three c0 c1 c2) (three l0 l1 l2) dev
     (1 / 1000000 * (exp (- (time - pt) * (time - pt) / (2 * pw * pw)) * (power * 10))) rhs i j k = 1 / 1000000 * source i j k / cp i j k).
  { intros i j k Hij. unfold initgaussiansource3. cbv zeta. rewrite grown3_val by (apply patch_grown; exact Hij).
    rewrite corner0, corner1, corner2, !cell_center. unfold three. cbn [Z.eqb Pos.eqb].
    destruct (Hn i j k) as (N0 & N1 & N2); [apply patch_grown; exact Hij |].
    rewrite (Hs i j k _ _ _ Hij (conj (B0 _ N0) (conj (B1 _ N1) (B2 _ N2)))). rewrite SQ, width. unfold Rdiv. ring. }
  unfold solves3, steady3. split; intros H i j k Hij; specialize (H i j k Hij); pose proof (Hc i j k Hij) as Hcp.
  - rewrite V in H by exact Hij.
    assert (E : source i j k = 1000000 * cp i j k * (1 * (-1 * (1 / 1000000 * D) * lap7 b temp i j k) + 0 * temp i j k)) by (rewrite H; field; exact Hcp). rewrite E. field.
  - rewrite V by exact Hij. apply (Rmult_eq_reg_l (1000000 * cp i j k)); [| lra].
    replace (1000000 * cp i j k * (1 / 1000000 * source i j k / cp i j k)) with (source i j k) by (field; exact Hcp). lra.
Qed.
