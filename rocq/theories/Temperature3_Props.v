(** C203-C205: prescribed temperatures, heat capacities and steady conduction in three dimensions. *)
From Coq Require Import Reals ZArith List Bool Lra Lia.
From Verif Require Import Grid_Model Grid_Spec Grid_Proofs TempHistory_Model TempHistory_Spec PhaseFlow_Model PhaseFlow_Spec Temperature_Model Temperature_Spec.
From Verif Require Import Trap3_Model Temperature3_Model Temperature3_Spec Temperature3_Proofs.
Import ListNotations.
Open Scope R_scope.

(** C203: the loops that wrap the center end; if the peak changes with time, or at time zero, both copies of the field are the Gaussian profile of that time around the nearest periodic image of the center. *)
Theorem C203_profile : forall g origin b ng time, periods_ok g -> (0 <= ng)%Z -> near_patch3 g origin b ng ->
  exists n, forall fuel f, (n <= fuel)%nat -> exists f', set_gauss3 fuel g b (patch_corner3 origin b) ng time f = Some f' /\
    (g_rate g <> 0 \/ time = 0 -> gauss_field3 g origin b 0 time (fst f') /\ gauss_field3 g origin b ng time (snd f')) /\
    (g_rate g = 0 -> time <> 0 -> f' = f).
Proof. exact gauss_once3. Qed.
Print Assumptions C203_profile.

(** C203: after any calls the fields are the profile of the last time, if the peak changes with time or the center is at rest. *)
Theorem C203_follows_partial : forall g origin b ng, periods_ok g -> (0 <= ng)%Z -> near_patch3 g origin b ng ->
  (g_rate g <> 0 \/ forall d, g_velocity g d = 0) ->
  forall times t, exists n, forall fuel f, (n <= fuel)%nat ->
    exists f', gauss_calls3 fuel g b (patch_corner3 origin b) ng (0 :: times ++ [t]) f = Some f' /\ gauss_field3 g origin b 0 t (fst f') /\ gauss_field3 g origin b ng t (snd f').
Proof. exact gauss_follows3. Qed.
Print Assumptions C203_follows_partial.

(** C203: if the rate is zero the fields stay those of time zero. *)
Theorem C203_stays : forall g origin b ng, periods_ok g -> (0 <= ng)%Z -> near_patch3 g origin b ng -> g_rate g = 0 ->
  forall times, exists n, forall fuel f, (n <= fuel)%nat ->
    exists f', gauss_calls3 fuel g b (patch_corner3 origin b) ng (0 :: times) f = Some f' /\ gauss_field3 g origin b 0 0 (fst f') /\ gauss_field3 g origin b ng 0 (snd f').
Proof. exact gauss_stays3. Qed.
Print Assumptions C203_stays.

(** C203: so a moving center with constant peak is not followed. *)
Theorem C203_moving_refuted : ~ (forall g origin b ng times t fuel f f', periods_ok g -> (0 <= ng)%Z -> near_patch3 g origin b ng ->
  gauss_calls3 fuel g b (patch_corner3 origin b) ng (0 :: times ++ [t]) f = Some f' -> gauss_field3 g origin b ng t (snd f')).
Proof. exact gauss_moving3_refuted. Qed.
Print Assumptions C203_moving_refuted.

(** C203: the field lies between base and peak. *)
Theorem C203_bounds : forall g origin b ng time f, periods_ok g -> near_patch3 g origin b ng -> gauss_field3 g origin b ng time f ->
  g_base g <= ramp (g_initial g) (g_rate g) (g_target g) time ->
  forall i j k, in_grown3 b ng i j k -> g_base g <= f i j k <= ramp (g_initial g) (g_rate g) (g_target g) time.
Proof. exact gauss_bounds3. Qed.
Print Assumptions C203_bounds.

(** C203: the field does not depend on the decomposition into patches. *)
Theorem C203_patches : forall g origin b b' ng ng' time f f', periods_ok g -> near_patch3 g origin b ng ->
  hx b = hx b' -> hy b = hy b' -> hz b = hz b' -> gauss_field3 g origin b ng time f -> gauss_field3 g origin b' ng' time f' ->
  forall i j k, in_grown3 b ng i j k -> in_grown3 b' ng' i j k -> f i j k = f' i j k.
Proof. exact gauss_patches3. Qed.
Print Assumptions C203_patches.

(** C203: no cell outside of the patch and its ghost layers is written, whatever the calls. *)
Theorem C203_outside : forall fuel g b xlo ng times f f', gauss_calls3 fuel g b xlo ng times f = Some f' ->
  (forall i j k, ~ in_patch3 b i j k -> fst f' i j k = fst f i j k) /\ (forall i j k, ~ in_grown3 b ng i j k -> snd f' i j k = snd f i j k).
Proof. exact gauss_outside3. Qed.
Print Assumptions C203_outside.

(** ten cells along z with period 10; the center starts in the last cell and moves with velocity 1; peak 2 + t up to 5 *)
Definition hot_spot3 : gauss_temp := mk_gauss 1 2 5 1 1 (fun d => if (d =? 2)%Z then 19 / 2 else 1 / 2) (fun d => if (d =? 2)%Z then 1 else 0)
  (fun d => (d =? 2)%Z) (fun _ => 0) (fun d => if (d =? 2)%Z then 10 else 1).
Definition ten_cells3 : box3 := mk_box3 0 0 0 0 0 9 1 1 1.
Example C203_ex : exists fuel f', gauss_calls3 fuel hot_spot3 ten_cells3 (patch_corner3 (fun _ => 0) ten_cells3) 2 (0 :: [1] ++ [2]) (fun _ _ _ => 0, fun _ _ _ => 0) = Some f' /\
  fst f' 0%Z 0%Z 1%Z = 4 /\ snd f' 0%Z 0%Z 11%Z = 4 /\ snd f' 0%Z 0%Z 12%Z = 0.
Proof.
  assert (P : periods_ok hot_spot3) by (intros d Hd; cbn in *; rewrite Hd; lra).
  assert (N : near_patch3 hot_spot3 (fun _ => 0) ten_cells3 2).
  { intros i j k H. unfold in_grown3, in_box3, ten_cells3 in H. cbn in H. split; [| split]; intro Hd; try discriminate. cbn. unfold center_at.
    assert (A : (-2 <= k)%Z) by lia. assert (B : (k <= 11)%Z) by lia. apply IZR_le in A. apply IZR_le in B. lra. }
  destruct (C203_follows_partial hot_spot3 (fun _ => 0) ten_cells3 2 P ltac:(lia) N ltac:(left; cbn; lra) [1] 2) as [n Hn].
  destruct (Hn n (fun _ _ _ => 0, fun _ _ _ => 0) (Nat.le_refl n)) as (f' & E & A & B). exists n, f'. split; [exact E |].
  assert (V : forall c : Z, (c = 0 \/ c = 1)%Z -> distances3 hot_spot3 (fun _ => 0) ten_cells3 2 0 0 (1 + 10 * c) 0 0 0).
  { intros c Hc. unfold distances3, gauss_distance. cbn [hot_spot3 g_center0 g_velocity g_periodic g_low g_up ten_cells3 hx hy hz]. cbn [Z.eqb Pos.eqb]. cbv iota zeta.
    unfold center_at. split; [| split].
    - match goal with |- 0 = Rabs ?x => replace x with 0 by field end. rewrite Rabs_R0. reflexivity.
    - match goal with |- 0 = Rabs ?x => replace x with 0 by field end. rewrite Rabs_R0. reflexivity.
    - split; [| intro m; apply Rabs_pos]. exists (1 - c)%Z. rewrite minus_IZR, plus_IZR, mult_IZR.
      match goal with |- 0 = Rabs ?x => replace x with 0 by field end. rewrite Rabs_R0. reflexivity. }
  assert (W : gauss_profile3 (g_base hot_spot3) (ramp (g_initial hot_spot3) (g_rate hot_spot3) (g_target hot_spot3) 2) (g_dev hot_spot3) 0 0 0 = 4).
  { unfold gauss_profile3, ramp. cbn. destruct (Rlt_dec 1 0); [lra |]. destruct (Rlt_dec 0 1); [| lra]. rewrite Rmin_right by lra.
    match goal with |- context [exp ?x] => replace x with 0 by field end. rewrite exp_0. ring. }
  split; [| split].
  - rewrite (A 0%Z 0%Z 1%Z 0 0 0); [exact W | unfold in_grown3, in_box3, ten_cells3; cbn; lia | exact (V 0%Z ltac:(auto))].
  - rewrite (B 0%Z 0%Z 11%Z 0 0 0); [exact W | unfold in_grown3, in_box3, ten_cells3; cbn; lia | exact (V 1%Z ltac:(auto))].
  - apply (proj2 (C203_outside _ _ _ _ _ _ _ _ E)). unfold in_grown3, in_box3, ten_cells3. cbn. lia.
Qed.

(** C204: the field is affine and at rest in the laboratory: it does not depend on how the velocity of the frame changed. *)
Theorem C204_laboratory : forall T0 rate gradient center v0 changes origin b ng t f, 0 < T0 ->
  exists f', set_grad3 (with_changes (new_grad T0 rate gradient None center v0) changes) b (patch_corner3 origin b) ng t f = Some f' /\
    let field i j k := T0 + rate * t + (center_at (origin 0%Z) (hx b) i + travelled 0 v0 changes t - center 0%Z) * gradient 0%Z +
      (center_at (origin 1%Z) (hy b) j - center 1%Z) * gradient 1%Z + (center_at (origin 2%Z) (hz b) k - center 2%Z) * gradient 2%Z in
    (forall i j k, in_patch3 b i j k -> fst f' i j k = field i j k) /\ (forall i j k, in_grown3 b ng i j k -> snd f' i j k = field i j k).
Proof. exact grad_lab3. Qed.
Print Assumptions C204_laboratory.

(** C204: with a temperature history the field is tangent to the table at the position of the frame and constant across the two other axes. *)
Theorem C204_history : forall T0 rate gradient h center v0 changes origin b ng t f T G,
  getTandGradT h t (center 0%Z + travelled 0 v0 changes t) = Found T G ->
  exists f', set_grad3 (with_changes (new_grad T0 rate gradient (Some h) center v0) changes) b (patch_corner3 origin b) ng t f = Some f' /\
    let field i := T + G * ((center_at (origin 0%Z) (hx b) i + travelled 0 v0 changes t) - (center 0%Z + travelled 0 v0 changes t)) in
    (forall i j k, in_patch3 b i j k -> fst f' i j k = field i) /\ (forall i j k, in_grown3 b ng i j k -> snd f' i j k = field i).
Proof. exact grad_table3. Qed.
Print Assumptions C204_history.

(** C204: a table of a bilinear function is reproduced exactly. *)
Theorem C204_history_exact : forall T0 rate gradient h center v0 changes origin b ng t f f' a0 a1 a2 a3,
  table_ok h -> samples h (fun t x => a0 + a1 * x + a2 * t + a3 * (x * t)) ->
  set_grad3 (with_changes (new_grad T0 rate gradient (Some h) center v0) changes) b (patch_corner3 origin b) ng t f = Some f' ->
  let X i := center_at (origin 0%Z) (hx b) i + travelled 0 v0 changes t in
  let field i := a0 + a1 * X i + a2 * t + a3 * (X i * t) in
  (forall i j k, in_patch3 b i j k -> fst f' i j k = field i) /\ (forall i j k, in_grown3 b ng i j k -> snd f' i j k = field i).
Proof. exact grad_table_exact3. Qed.
Print Assumptions C204_history_exact.

(** 10 per unit length along x, 3 along z, cooling by 1 per time unit, velocity 1 until time 1 and then 2 *)
Example C204_ex : let g := new_grad 1000 (-1) (fun d => if (d =? 0)%Z then 10 else if (d =? 2)%Z then 3 else 0) None (fun _ => 0) 1 in
  exists f', set_grad3 (with_changes g [(1, 2)]) (mk_box3 0 1 0 0 0 1 1 1 2) (patch_corner3 (fun _ => 0) (mk_box3 0 1 0 0 0 1 1 1 2)) 1 3 (fun _ _ _ => 0, fun _ _ _ => 0) = Some f' /\
  fst f' 0%Z 0%Z 1%Z = 1061 /\ snd f' 2%Z 0%Z 2%Z = 1087.
Proof.
  destruct (C204_laboratory 1000 (-1) (fun d => if (d =? 0)%Z then 10 else if (d =? 2)%Z then 3 else 0) (fun _ => 0) 1 [(1, 2)] (fun _ => 0) (mk_box3 0 1 0 0 0 1 1 1 2) 1 3
    (fun _ _ _ => 0, fun _ _ _ => 0)) as (f' & E & A & B); [lra |].
  exists f'. split; [exact E |]. split; [rewrite A by (unfold in_patch3, in_box3; cbn; lia) | rewrite B by (unfold in_grown3, in_box3; cbn; lia)]; unfold center_at; cbn; lra.
Qed.

(** C205: the heat capacity of a cell is the mixture of the capacities of the species at the temperature of the cell. *)
Theorem C205_mixture : forall b nc cps conc temp cp i j k, (0 <= nc)%Z -> Z.of_nat (length cps) = (nc + 1)%Z -> (forall sp, In sp cps -> keys_ok sp) -> in_patch3 b i j k ->
  set_heat_capacity3 b nc cps conc temp cp i j k = mixture nc (conc i j k) (fun m => capacity (species_of cps m) (temp i j k)).
Proof. exact capacity_mixture3. Qed.
Print Assumptions C205_mixture.

(** C205: for compositions in the simplex it lies between the capacities of the species. *)
Theorem C205_bounds : forall b nc cps conc temp cp i j k lo hi, (0 <= nc)%Z -> Z.of_nat (length cps) = (nc + 1)%Z -> (forall sp, In sp cps -> keys_ok sp) -> in_patch3 b i j k ->
  in_simplex nc (conc i j k) -> (forall sp, In sp cps -> lo <= capacity sp (temp i j k) <= hi) -> lo <= set_heat_capacity3 b nc cps conc temp cp i j k <= hi.
Proof. exact capacity_bounds3. Qed.
Print Assumptions C205_bounds.

(** C205: the linear system for a source that depends on the composition is the steady heat equation: capacity times diffusivity times Laplacian plus source vanish. *)
Theorem C205_composition : forall b D conc cp s1 s2 temp rhs, (forall i j k, in_patch3 b i j k -> cp i j k <> 0) ->
  let sys := composition_system3 b D conc cp s1 s2 rhs in
  solves3 b (fst (fst (fst sys))) (snd (fst (fst sys))) (snd (fst sys)) temp (snd sys) <->
  steady3 b D cp temp (fun i j k => s1 * conc i j k + s2 * (1 - conc i j k)).
Proof. exact composition_steady3. Qed.
Print Assumptions C205_composition.

(** C205: the scaled system for a Gaussian source is the steady heat equation too, with the given power, pulse and profile around the nearest image of the center. *)
Theorem C205_gaussian : forall g origin b D power dev pt pw time cp temp rhs, periods_ok g -> near_patch3 g origin b 0 -> (forall i j k, in_patch3 b i j k -> cp i j k <> 0) ->
  exists n, forall fuel, (n <= fuel)%nat -> exists m c d r, gaussian_system3 fuel g b (patch_corner3 origin b) D power dev pt pw time cp rhs = Some ((m, c, d), r) /\
    forall source, (forall i j k d0 d1 d2, in_patch3 b i j k -> distances3 g origin b time i j k d0 d1 d2 ->
      source i j k = 10 * power * exp (- ((time - pt) ^ 2 / (2 * pw ^ 2))) * exp (- ((d0 ^ 2 + d1 ^ 2 + d2 ^ 2) / (2 * dev ^ 2)))) ->
    (solves3 b m c d temp r <-> steady3 b D cp temp source).
Proof. exact gaussian_steady3. Qed.
Print Assumptions C205_gaussian.

(** two species, 3 + 2 T and 5 / T^2, at composition 1/4 and temperature 2 *)
Example C205_mixture_ex : set_heat_capacity3 (mk_box3 0 0 0 0 0 2 1 1 1) 1 [[(0%Z, 3); (1%Z, 2)]; [((-2)%Z, 5)]] (fun _ _ _ _ => 1 / 4) (fun _ _ _ => 2) (fun _ _ _ => 0) 0%Z 0%Z 2%Z = 1 / 4 * 7 + 3 / 4 * (5 / 4).
Proof.
  rewrite C205_mixture; [| lia | reflexivity | | unfold in_patch3, in_box3; cbn; lia].
  - unfold mixture. repeat (first [rewrite sumZ_cons by lia | rewrite sumZ_empty by lia]). unfold species_of, capacity. cbn. change (Pos.to_nat 1) with 1%nat. cbn. unfold Pos.to_nat, Pos.iter_op. cbn. field.
  - intros sp [<- | [<- | []]]; unfold keys_ok; cbn; repeat constructor; cbn; intuition discriminate.
Qed.
(** one cell with temperature 0 around it: capacity 2, diffusivity 3, source 72 gives 72 / (2 * 3 * 6) = 2 *)
Definition one_hot3 : arr3 := fun i j k => if (i =? 0)%Z && (j =? 0)%Z && (k =? 0)%Z then 2 else 0.
Example C205_ex : let b := mk_box3 0 0 0 0 0 0 1 1 1 in solves3 b 1 0 (-1 * 3) one_hot3 (source_temperature3 b (fun _ _ _ => 1) (fun _ _ _ => 2) 72 7 (fun _ _ _ => 0)).
Proof.
  intro b. apply (proj2 (C205_composition b 3 (fun _ _ _ => 1) (fun _ _ _ => 2) 72 7 one_hot3 (fun _ _ _ => 0) ltac:(intros; lra))).
  intros i j k H. unfold in_patch3, in_box3, b in H. cbn in H. assert (i = 0%Z) by lia. assert (j = 0%Z) by lia. assert (k = 0%Z) by lia. subst i j k. unfold lap7, one_hot3. cbn. lra.
Qed.
(** the pulse at its time: power 1 in the middle of a single cell *)
Example C205_gaussian_ex : let b := mk_box3 0 0 0 0 0 0 1 1 1 in
  exists fuel m c d r, gaussian_system3 fuel (mk_gauss 0 0 0 0 1 (fun _ => 1 / 2) (fun _ => 0) (fun _ => false) (fun _ => 0) (fun _ => 1)) b
    (patch_corner3 (fun _ => 0) b) 1 1 1 5 1 5 (fun _ _ _ => 1) (fun _ _ _ => 0) = Some ((m, c, d), r) /\
  solves3 b m c d (fun i j k => if (i =? 0)%Z && (j =? 0)%Z && (k =? 0)%Z then 10 / 6 else 0) r.
Proof.
  intro b. set (g := mk_gauss 0 0 0 0 1 (fun _ => 1 / 2) (fun _ => 0) (fun _ => false) (fun _ => 0) (fun _ => 1)).
  set (T := fun i j k : Z => if (i =? 0)%Z && (j =? 0)%Z && (k =? 0)%Z then 10 / 6 else 0).
  assert (Q : forall i j k, in_patch3 b i j k -> i = 0%Z /\ j = 0%Z /\ k = 0%Z) by (intros i j k H; unfold in_patch3, in_box3, b in H; cbn in H; lia).
  destruct (C205_gaussian g (fun _ => 0) b 1 1 1 5 1 5 (fun _ _ _ => 1) T (fun _ _ _ => 0)) as [n Hn].
  - intros d Hd. discriminate.
  - intros i j k _. split; [| split]; intro Hd; discriminate.
  - intros. lra.
  - destruct (Hn n (Nat.le_refl n)) as (m & c & d & r & E & S). exists n, m, c, d, r. split; [exact E |]. apply (S (fun _ _ _ => 10)).
    + intros i j k d0 d1 d2 H (D0 & D1 & D2). destruct (Q i j k H) as (-> & -> & ->). unfold gauss_distance, center_at in D0, D1, D2. cbn in D0, D1, D2.
      assert (Z0 : forall x, x = Rabs (0 + 1 * (0 + 1 / 2) - (1 / 2 + 5 * 0)) -> x = 0) by (intros x ->; match goal with |- Rabs ?x = 0 => replace x with 0 by field end; apply Rabs_R0).
      rewrite (Z0 _ D0), (Z0 _ D1), (Z0 _ D2). replace (- ((5 - 5) ^ 2 / (2 * 1 ^ 2))) with 0 by field. replace (- ((0 ^ 2 + 0 ^ 2 + 0 ^ 2) / (2 * 1 ^ 2))) with 0 by field. rewrite exp_0. ring.
    + intros i j k H. destruct (Q i j k H) as (-> & -> & ->). unfold lap7, T. cbn. lra.
Qed.
