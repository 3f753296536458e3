(** C106-C111: prescribed temperatures, heat capacities and steady heat conduction. *)
From Coq Require Import Reals ZArith List Bool Lra Lia.
From Verif Require Import Grid_Model Grid_Spec Grid_Proofs TempHistory_Model TempHistory_Spec TempHistory_Proofs.
From Verif Require Import PhaseFlow_Model PhaseFlow_Spec PhaseFlow_Proofs Temperature_Model Temperature_Spec Temperature_Proofs.
Import ListNotations.
Open Scope R_scope.
Set Bullet Behavior "Strict Subproofs".

(** C106: the uniform temperature follows the ramp to the target. *)
Theorem C106_ramp : forall s t, s_rate s <= 0 \/ 0 < s_target s -> scalarCurrentTemperature s t = ramp (s_temperature0 s) (s_rate s) (s_target s) t.
Proof. exact scalar_ramp. Qed.
Print Assumptions C106_ramp.

(** C106: heating without a target has no limit. *)
Theorem C106_unlimited : forall s t, 0 < s_rate s -> s_target s <= 0 -> scalarCurrentTemperature s t = s_temperature0 s + s_rate s * t.
Proof. exact scalar_unlimited. Qed.
Print Assumptions C106_unlimited.

(** C106: if the target lies ahead the temperature starts at the initial value, changes at most with the given rate, is monotone, stays between initial value and target, and equals the target exactly from the time on when the ramp gets there. *)
Theorem C106_facts : forall s, (s_rate s <= 0 \/ 0 < s_target s) -> ahead (s_temperature0 s) (s_rate s) (s_target s) ->
  let T := scalarCurrentTemperature s in
  T 0 = s_temperature0 s /\
  (forall a t, 0 <= a <= t -> Rabs (T t - T a) <= Rabs (s_rate s) * (t - a)) /\
  (forall a t, 0 <= a <= t -> (s_rate s <= 0 -> T t <= T a) /\ (0 <= s_rate s -> T a <= T t)) /\
  (forall t, 0 <= t -> s_rate s <> 0 -> Rmin (s_temperature0 s) (s_target s) <= T t <= Rmax (s_temperature0 s) (s_target s)) /\
  (forall t, 0 <= t -> s_rate s <> 0 -> (T t = s_target s <-> (s_target s - s_temperature0 s) / s_rate s <= t)).
Proof. exact scalar_facts. Qed.
Print Assumptions C106_facts.

(** C106: both copies of the field, ghost cells included, hold the temperature of the last call. *)
Theorem C106_field : forall s b ng times t f,
  let f' := scalar_calls s b ng ((0 :: times) ++ [t]) f in
  (forall i j, in_cells b i j -> fst f' i j = scalarCurrentTemperature s t) /\
  (forall i j, in_grown b ng i j -> snd f' i j = scalarCurrentTemperature s t).
Proof. exact scalar_field. Qed.
Print Assumptions C106_field.

(** C106: with a target on the wrong side of the initial value the temperature is the target at all times, from the first step on. *)
Theorem C106_wrong_side_refuted : forall s, (s_rate s < 0 /\ s_temperature0 s < s_target s) \/ (0 < s_rate s /\ 0 < s_target s < s_temperature0 s) ->
  forall t, 0 <= t -> scalarCurrentTemperature s t = s_target s.
Proof. exact scalar_wrong_side. Qed.
Print Assumptions C106_wrong_side_refuted.

(** cooling from 1000 by 2 per time unit down to 900 *)
Definition cooling : scalar_temp := mk_scalar 1000 (-2) 900.
Example C106_ex : scalarCurrentTemperature cooling 25 = 950 /\ scalarCurrentTemperature cooling 100 = 900 /\
  snd (scalar_calls cooling (mk_pbox 0 3 0 3 1 1) 2 ((0 :: [10]) ++ [25]) (fun _ _ => 0, fun _ _ => 0)) (-2)%Z 5%Z = 950.
Proof.
  assert (A : scalarCurrentTemperature cooling 25 = 950).
  { rewrite C106_ramp by (left; cbn; lra). unfold ramp. cbn. destruct (Rlt_dec (-2) 0); [| lra]. rewrite Rmax_right; lra. }
  split; [exact A |]. split.
  - rewrite C106_ramp by (left; cbn; lra). unfold ramp. cbn. destruct (Rlt_dec (-2) 0); [| lra]. apply Rmax_left; lra.
  - rewrite <- A. apply (C106_field cooling (mk_pbox 0 3 0 3 1 1) 2 [10] 25). split; cbn; lia.
Qed.
(** a typing error in the target: 1100 instead of 900 *)
Example C106_wrong_side_ex : scalarCurrentTemperature (mk_scalar 1000 (-2) 1100) 0 = 1100.
Proof. apply C106_wrong_side_refuted; cbn; lra. Qed.

(** C107: the peak follows the ramp. *)
Theorem C107_peak : forall g t, gaussCurrentTemperature g t = ramp (g_initial g) (g_rate g) (g_target g) t.
Proof. exact gauss_ramp. Qed.
Print Assumptions C107_peak.

(** C107: the loops that wrap the center end; if the peak changes with time, or at time zero, both copies of the field are the Gaussian profile of that time around the nearest periodic image of the center. *)
Theorem C107_profile : forall g origin b ng time, periods_ok g -> (0 <= ng)%Z -> near_patch g origin b ng ->
  exists n, forall fuel f, (n <= fuel)%nat -> exists f', set_gauss fuel g b (patch_corner origin b) ng time f = Some f' /\
    (g_rate g <> 0 \/ time = 0 -> gauss_field g origin b 0 time (fst f') /\ gauss_field g origin b ng time (snd f')) /\
    (g_rate g = 0 -> time <> 0 -> f' = f).
Proof. exact gauss_once. Qed.
Print Assumptions C107_profile.

(** C107: after any calls the fields are the profile of the last time, if the peak changes with time or the center is at rest. *)
Theorem C107_follows_partial : forall g origin b ng, periods_ok g -> (0 <= ng)%Z -> near_patch g origin b ng ->
  (g_rate g <> 0 \/ forall d, g_velocity g d = 0) ->
  forall times t, exists n, forall fuel f, (n <= fuel)%nat ->
    exists f', gauss_calls fuel g b (patch_corner origin b) ng (0 :: times ++ [t]) f = Some f' /\ gauss_field g origin b 0 t (fst f') /\ gauss_field g origin b ng t (snd f').
Proof. exact gauss_follows. Qed.
Print Assumptions C107_follows_partial.

(** C107: if the rate is zero the fields stay those of time zero. *)
Theorem C107_stays : forall g origin b ng, periods_ok g -> (0 <= ng)%Z -> near_patch g origin b ng -> g_rate g = 0 ->
  forall times, exists n, forall fuel f, (n <= fuel)%nat ->
    exists f', gauss_calls fuel g b (patch_corner origin b) ng (0 :: times) f = Some f' /\ gauss_field g origin b 0 0 (fst f') /\ gauss_field g origin b ng 0 (snd f').
Proof. exact gauss_stays. Qed.
Print Assumptions C107_stays.

(** C107: so a moving center with constant peak is not followed. *)
Theorem C107_moving_refuted : ~ (forall g origin b ng times t fuel f f', periods_ok g -> (0 <= ng)%Z -> near_patch g origin b ng ->
  gauss_calls fuel g b (patch_corner origin b) ng (0 :: times ++ [t]) f = Some f' -> gauss_field g origin b ng t (snd f')).
Proof. exact gauss_moving_refuted. Qed.
Print Assumptions C107_moving_refuted.

(** C107: the field lies between base and peak. *)
Theorem C107_bounds : forall g origin b ng time f, periods_ok g -> near_patch g origin b ng -> gauss_field g origin b ng time f ->
  g_base g <= ramp (g_initial g) (g_rate g) (g_target g) time -> forall i j, in_grown b ng i j -> g_base g <= f i j <= ramp (g_initial g) (g_rate g) (g_target g) time.
Proof. exact gauss_bounds. Qed.
Print Assumptions C107_bounds.

(** C107: the field does not depend on the decomposition into patches. *)
Theorem C107_patches : forall g origin b b' ng ng' time f f', periods_ok g -> near_patch g origin b ng -> near_patch g origin b' ng' ->
  h1 b = h1 b' -> h2 b = h2 b' -> gauss_field g origin b ng time f -> gauss_field g origin b' ng' time f' ->
  forall i j, in_grown b ng i j -> in_grown b' ng' i j -> f i j = f' i j.
Proof. exact gauss_patches. Qed.
Print Assumptions C107_patches.

(** ten cells with period 10; the center starts in the last cell and moves with velocity 1; peak 2 + t up to 5 *)
Definition hot_spot : gauss_temp := mk_gauss 1 2 5 1 1 (fun d => if (d =? 0)%Z then 19 / 2 else 1 / 2) (fun d => if (d =? 0)%Z then 1 else 0)
  (fun d => (d =? 0)%Z) (fun _ => 0) (fun d => if (d =? 0)%Z then 10 else 1).
Definition ten_cells : pbox := mk_pbox 0 9 0 0 1 1.
Lemma hot_spot_ok : periods_ok hot_spot.
Proof. intros d Hd. cbn in *. rewrite Hd. lra. Qed.
Lemma ten_near : near_patch hot_spot (fun _ => 0) ten_cells 2.
Proof.
  intros i j [Hi _]. cbn in Hi. split; intro Hd; [| discriminate]. cbn. unfold center_at. assert (A : (-2 <= i)%Z) by lia. assert (B : (i <= 11)%Z) by lia. apply IZR_le in A. apply IZR_le in B. lra.
Qed.
Example C107_ex : exists f', gauss_calls 5 hot_spot ten_cells (patch_corner (fun _ => 0) ten_cells) 2 [0; 1; 2] (fun _ _ => 0, fun _ _ => 0) = Some f' /\ snd f' 1%Z 0%Z = 4 /\ snd f' 11%Z 0%Z = 4.
Proof.
  assert (C : forall t d, (t = 0 \/ t = 1 \/ t = 2) -> (d = 0 \/ d = 1)%Z -> exists c l, gauss_center 5 hot_spot t d = Some (c, l)).
  { intros t d Ht Hd. destruct Hd as [-> | ->]; unfold gauss_center; cbn; [| eauto]. destruct Ht as [-> | [-> | ->]];
    repeat (match goal with |- context [Rlt_dec ?a ?b] => destruct (Rlt_dec a b); [exfalso; lra |] | |- context [Rgt_dec ?a ?b] => destruct (Rgt_dec a b); try (exfalso; lra) end; cbn [raise lower]); eauto. }
  assert (S : forall t f, (t = 0 \/ t = 1 \/ t = 2) -> exists f', set_gauss 5 hot_spot ten_cells (patch_corner (fun _ => 0) ten_cells) 2 t f = Some f').
  { intros t f Ht. unfold set_gauss. destruct (C t 0%Z Ht ltac:(auto)) as (c & l & ->). destruct (C t 1%Z Ht ltac:(auto)) as (c' & l' & ->). eauto. }
  destruct (S 0 (fun _ _ => 0, fun _ _ => 0) ltac:(auto)) as [f1 E1]. destruct (S 1 f1 ltac:(auto)) as [f2 E2]. destruct (S 2 f2 ltac:(auto)) as [f3 E3].
  exists f3. cbn [gauss_calls]. rewrite E1, E2, E3. split; [reflexivity |].
  assert (F : gauss_field hot_spot (fun _ => 0) ten_cells 2 2 (snd f3)).
  { destruct (C107_profile hot_spot (fun _ => 0) ten_cells 2 2 hot_spot_ok ltac:(lia) ten_near) as [n Hn].
    destruct (Hn (n + 5)%nat f2 ltac:(lia)) as (f4 & E4 & P & _). destruct (P ltac:(left; cbn; lra)) as [_ P2].
    assert (R : forall k fuel low ll c r, raise fuel low ll c = Some r -> raise (k + fuel) low ll c = Some r).
    { intros k fuel. induction fuel as [| fuel IH]; intros low ll c r; rewrite <- ?plus_n_Sm, <- ?plus_n_O; [destruct k; cbn; destruct (Rlt_dec c low); congruence |].
      cbn [raise]. destruct (Rlt_dec c low); [apply IH | auto]. }
    assert (L : forall k fuel low ll c r, lower fuel low ll c = Some r -> lower (k + fuel) low ll c = Some r).
    { intros k fuel. induction fuel as [| fuel IH]; intros low ll c r; rewrite <- ?plus_n_Sm, <- ?plus_n_O; [destruct k; cbn; destruct (Rgt_dec c low); congruence |].
      cbn [lower]. destruct (Rgt_dec c low); [apply IH | auto]. }
    assert (G : forall d r, gauss_center 5 hot_spot 2 d = Some r -> gauss_center (n + 5) hot_spot 2 d = Some r).
    { intros d r. unfold gauss_center. destruct (g_periodic hot_spot d); [| auto]. destruct (raise 5 (g_low hot_spot d) _ _) as [c |] eqn:Er; [| discriminate].
      rewrite (R n _ _ _ _ _ Er). destruct (lower 5 (g_up hot_spot d) _ c) as [c' |] eqn:El; [| discriminate]. rewrite (L n _ _ _ _ _ El). auto. }
    replace f3 with f4; [exact P2 |]. cut (Some f4 = Some f3); [congruence |]. rewrite <- E3, <- E4. unfold set_gauss.
    destruct (C 2 0%Z ltac:(auto) ltac:(auto)) as (c & l & Ec). destruct (C 2 1%Z ltac:(auto) ltac:(auto)) as (c' & l' & Ec').
    rewrite Ec, Ec', (G _ _ Ec), (G _ _ Ec'). reflexivity. }
  assert (V : forall k : Z, (k = 0 \/ k = 1)%Z -> snd f3 (1 + 10 * k)%Z 0%Z = 4).
  { intros k Hk. rewrite (F (1 + 10 * k)%Z 0%Z 0 0).
    - unfold gauss_profile, ramp. cbn. destruct (Rlt_dec 1 0); [lra |]. destruct (Rlt_dec 0 1); [| lra]. rewrite Rmin_right by lra.
      replace (- ((0 * (0 * 1) + 0 * (0 * 1)) / (2 * (1 * (1 * 1))))) with 0 by field. rewrite exp_0. ring.
    - unfold in_grown, in_box. cbn [ten_cells lo0 hi0 lo1 hi1]. lia.
    - unfold gauss_distance. cbn [hot_spot g_center0 g_velocity g_periodic g_low g_up]. change (0 =? 0)%Z with true. cbv iota zeta. split.
      + exists (1 - k)%Z. unfold center_at. rewrite minus_IZR. cbn [ten_cells h1]. rewrite plus_IZR, mult_IZR. match goal with |- 0 = Rabs ?x => replace x with 0 by field end. rewrite Rabs_R0. reflexivity.
      + intro m. apply Rabs_pos.
    - unfold gauss_distance. cbn. unfold center_at. cbn. match goal with |- 0 = Rabs ?x => replace x with 0 by field end. rewrite Rabs_R0. reflexivity. }
  split; [exact (V 0%Z ltac:(auto)) | exact (V 1%Z ltac:(auto))].
Qed.

(** C108: the field is affine and at rest in the laboratory: at the coordinate x of the frame, which is x plus the distance travelled in the laboratory, it does not depend on how the velocity changed. *)
Theorem C108_laboratory : forall T0 rate gradient center v0 changes origin b ng t f, 0 < T0 ->
  exists f', set_grad (with_changes (new_grad T0 rate gradient None center v0) changes) b (patch_corner origin b) ng t f = Some f' /\
    let field i j := T0 + rate * t + (center_at (origin 0%Z) (h1 b) i + travelled 0 v0 changes t - center 0%Z) * gradient 0%Z + (center_at (origin 1%Z) (h2 b) j - center 1%Z) * gradient 1%Z in
    (forall i j, in_cells b i j -> fst f' i j = field i j) /\ (forall i j, in_grown b ng i j -> snd f' i j = field i j).
Proof. exact grad_lab. Qed.
Print Assumptions C108_laboratory.

(** C108: with a temperature history the field is tangent to the table at the position of the frame. *)
Theorem C108_history : forall T0 rate gradient h center v0 changes origin b ng t f T G,
  getTandGradT h t (center 0%Z + travelled 0 v0 changes t) = Found T G ->
  exists f', set_grad (with_changes (new_grad T0 rate gradient (Some h) center v0) changes) b (patch_corner origin b) ng t f = Some f' /\
    let field i := T + G * ((center_at (origin 0%Z) (h1 b) i + travelled 0 v0 changes t) - (center 0%Z + travelled 0 v0 changes t)) in
    (forall i j, in_cells b i j -> fst f' i j = field i) /\ (forall i j, in_grown b ng i j -> snd f' i j = field i).
Proof. exact grad_table. Qed.
Print Assumptions C108_history.

(** C108: for tabulated temperatures bilinear in time and position the field is the tabulated function of the laboratory coordinate. *)
Theorem C108_history_exact : forall T0 rate gradient h center v0 changes origin b ng t f f' a0 a1 a2 a3,
  table_ok h -> samples h (fun t x => a0 + a1 * x + a2 * t + a3 * (x * t)) ->
  set_grad (with_changes (new_grad T0 rate gradient (Some h) center v0) changes) b (patch_corner origin b) ng t f = Some f' ->
  let X i := center_at (origin 0%Z) (h1 b) i + travelled 0 v0 changes t in
  let field i := a0 + a1 * X i + a2 * t + a3 * (X i * t) in
  (forall i j, in_cells b i j -> fst f' i j = field i) /\ (forall i j, in_grown b ng i j -> snd f' i j = field i).
Proof. exact grad_table_exact. Qed.
Print Assumptions C108_history_exact.

(** C108: the reported average, half of largest plus smallest, is the mean of the field on a box. *)
Theorem C108_average : forall T0 rate gradient center v0 changes origin b ng t f f' M m,
  (lo0 b <= hi0 b)%Z -> (lo1 b <= hi1 b)%Z ->
  set_grad (with_changes (new_grad T0 rate gradient None center v0) changes) b (patch_corner origin b) ng t f = Some f' ->
  is_largest b (fst f') M -> is_smallest b (fst f') m -> sum_cells b (fst f') / sum_cells b (fun _ _ => 1) = (M + m) / 2.
Proof. exact grad_average. Qed.
Print Assumptions C108_average.

(** 10 per unit length, cooling by 1 per time unit, velocity 1 until time 1 and then 2 *)
Example C108_ex : exists f', set_grad (with_changes (new_grad 1000 (-1) (fun d => if (d =? 0)%Z then 10 else 0) None (fun _ => 0) 1) [(1, 2)])
  (mk_pbox 0 1 0 0 1 1) (patch_corner (fun _ => 0) (mk_pbox 0 1 0 0 1 1)) 1 3 (fun _ _ => 0, fun _ _ => 0) = Some f' /\ fst f' 0%Z 0%Z = 1052 /\ snd f' 2%Z 0%Z = 1072.
Proof.
  destruct (C108_laboratory 1000 (-1) (fun d => if (d =? 0)%Z then 10 else 0) (fun _ => 0) 1 [(1, 2)] (fun _ => 0) (mk_pbox 0 1 0 0 1 1) 1 3 (fun _ _ => 0, fun _ _ => 0)) as (f' & E & A & B); [lra |].
  exists f'. split; [exact E |]. split; [rewrite A by (split; cbn; lia) | rewrite B by (split; cbn; lia)]; unfold center_at; cbn; lra.
Qed.

(** C109: with a fixed frame velocity a restarted run has the temperature of the uninterrupted one. *)
Theorem C109_fixed_frame : forall T0 rate gradient hist center v0 changes changes' b xlo ng t f,
  (forall tv, In tv changes -> snd tv = v0) ->
  set_grad (with_changes (new_grad T0 rate gradient hist center v0) (changes ++ changes')) b xlo ng t f =
  set_grad (with_changes (new_grad T0 rate gradient hist center v0) changes') b xlo ng t f.
Proof. exact restart_fixed. Qed.
Print Assumptions C109_fixed_frame.

(** C109: the same holds for a uniform temperature from the first evaluation of the right-hand side on, whatever the restart file held. *)
Theorem C109_uniform : forall s b ng times times' t f f',
  (forall i j, in_cells b i j -> fst (scalar_calls s b ng ((0 :: times) ++ [t]) f) i j = fst (scalar_calls s b ng ((0 :: times') ++ [t]) f') i j) /\
  (forall i j, in_grown b ng i j -> snd (scalar_calls s b ng ((0 :: times) ++ [t]) f) i j = snd (scalar_calls s b ng ((0 :: times') ++ [t]) f') i j).
Proof. exact restart_scalar. Qed.
Print Assumptions C109_uniform.

(** C109: with an adaptive frame the restarted run is off by the gradient times the difference of the distances travelled. *)
Theorem C109_error : forall T0 rate gradient center v0 changes changes' origin b ng t f, 0 < T0 ->
  exists f1 f2, set_grad (with_changes (new_grad T0 rate gradient None center v0) (changes ++ changes')) b (patch_corner origin b) ng t f = Some f1 /\
    set_grad (with_changes (new_grad T0 rate gradient None center v0) changes') b (patch_corner origin b) ng t f = Some f2 /\
    forall i j, in_cells b i j -> fst f2 i j - fst f1 i j = gradient 0%Z * (travelled 0 v0 changes' t - travelled 0 v0 (changes ++ changes') t).
Proof. exact restart_error. Qed.
Print Assumptions C109_error.

(** C109: so it is not the temperature of the uninterrupted run. *)
Theorem C109_adaptive_refuted : ~ (forall T0 rate gradient center v0 changes changes' origin b ng t f f1 f2, 0 < T0 ->
  set_grad (with_changes (new_grad T0 rate gradient None center v0) (changes ++ changes')) b (patch_corner origin b) ng t f = Some f1 ->
  set_grad (with_changes (new_grad T0 rate gradient None center v0) changes') b (patch_corner origin b) ng t f = Some f2 ->
  forall i j, in_cells b i j -> fst f1 i j = fst f2 i j).
Proof. exact restart_adaptive_refuted. Qed.
Print Assumptions C109_adaptive_refuted.

(** C109: until the first evaluation of the right-hand side the restarted run holds the temperature of time zero. *)
Theorem C109_first_refuted : ~ (forall s b ng times t f i j, in_cells b i j ->
  fst (scalar_calls s b ng [0] (scalar_calls s b ng ((0 :: times) ++ [t]) f)) i j = scalarCurrentTemperature s t).
Proof. exact restart_first_refuted. Qed.
Print Assumptions C109_first_refuted.

(** the velocity changed from 1 to 2 at time 1; after a restart at time 2 the field at time 2 is that of a frame that went on with velocity 1 *)
Example C109_ex : exists f1 f2, let g := new_grad 1000 0 (fun _ => 10) None (fun _ => 0) 1 in let b := mk_pbox 0 0 0 0 1 1 in
  set_grad (with_changes g ([(1, 2)] ++ [])) b (patch_corner (fun _ => 0) b) 0 2 (fun _ _ => 0, fun _ _ => 0) = Some f1 /\
  set_grad (with_changes g []) b (patch_corner (fun _ => 0) b) 0 2 (fun _ _ => 0, fun _ _ => 0) = Some f2 /\ fst f2 0%Z 0%Z - fst f1 0%Z 0%Z = -10.
Proof.
  destruct (C109_error 1000 0 (fun _ => 10) (fun _ => 0) 1 [(1, 2)] [] (fun _ => 0) (mk_pbox 0 0 0 0 1 1) 0 2 (fun _ _ => 0, fun _ _ => 0)) as (f1 & f2 & E1 & E2 & D); [lra |].
  exists f1, f2. split; [exact E1 | split; [exact E2 |]]. rewrite D by (split; cbn; lia). cbn. lra.
Qed.
Example C109_fixed_ex : let g := new_grad 1000 0 (fun _ => 10) None (fun _ => 0) 1 in let b := mk_pbox 0 0 0 0 1 1 in
  set_grad (with_changes g ([(1, 1)] ++ [(5, 3)])) b (fun _ => 0) 0 7 (fun _ _ => 0, fun _ _ => 0) = set_grad (with_changes g [(5, 3)]) b (fun _ => 0) 0 7 (fun _ _ => 0, fun _ _ => 0).
Proof. apply C109_fixed_frame. intros tv [<- | []]. reflexivity. Qed.

(** C110: the heat capacity of a cell is the mixture of the capacities of the species at the temperature of the cell. *)
Theorem C110_mixture : forall b nc cps conc temp cp i j, (0 <= nc)%Z -> Z.of_nat (length cps) = (nc + 1)%Z -> (forall sp, In sp cps -> keys_ok sp) -> in_cells b i j ->
  set_heat_capacity b nc cps conc temp cp i j = mixture nc (conc i j) (fun m => capacity (species_of cps m) (temp i j)).
Proof. exact capacity_mixture. Qed.
Print Assumptions C110_mixture.

(** C110: for compositions in the simplex it lies between the capacities of the species. *)
Theorem C110_bounds : forall b nc cps conc temp cp i j lo hi, (0 <= nc)%Z -> Z.of_nat (length cps) = (nc + 1)%Z -> (forall sp, In sp cps -> keys_ok sp) -> in_cells b i j ->
  in_simplex nc (conc i j) -> (forall sp, In sp cps -> lo <= capacity sp (temp i j) <= hi) -> lo <= set_heat_capacity b nc cps conc temp cp i j <= hi.
Proof. exact capacity_bounds. Qed.
Print Assumptions C110_bounds.

(** C110: in rescaled units the capacity is the factor times the capacity at the rescaled temperature. *)
Theorem C110_rescaled : forall b nc v Tm cps conc temp temp' cp i j, (0 <= nc)%Z -> Z.of_nat (length cps) = (nc + 1)%Z -> (forall sp, In sp cps -> keys_ok sp) -> in_cells b i j -> 0 < Tm ->
  temp' i j = temp i j ->
  set_heat_capacity b nc (map (convert_cp v (rescale_factor false Tm)) cps) conc temp cp i j = Tm * set_heat_capacity b nc (map (convert_cp v None) cps) conc temp' cp i j.
Proof. exact rescaled_capacity. Qed.
Print Assumptions C110_rescaled.

(** C110: so for constant capacities the rate of the rescaled temperature is the rescaled rate. *)
Theorem C110_constant_partial : forall b nc v Tm cps conc temp cp D L pr old old' i j, (0 <= nc)%Z -> Z.of_nat (length cps) = (nc + 1)%Z -> in_cells b i j -> 0 < Tm ->
  (forall sp, In sp cps -> exists a, sp = readSpeciesCP a None None) ->
  let scaled := fun i j => temp i j / Tm in
  computerhstemp b D L scaled (set_heat_capacity b nc (map (convert_cp v (rescale_factor false Tm)) cps) conc scaled cp) pr old i j =
  computerhstemp b D L temp (set_heat_capacity b nc (map (convert_cp v (rescale_factor true Tm)) cps) conc temp cp) pr old' i j / Tm.
Proof. exact rescaled_rate. Qed.
Print Assumptions C110_constant_partial.

(** C110: for capacities that depend on the temperature it is not. *)
Theorem C110_constant_refuted : ~ (forall b nc v Tm cps conc temp cp D L pr old i j, (0 <= nc)%Z -> Z.of_nat (length cps) = (nc + 1)%Z -> in_cells b i j -> 0 < Tm ->
  (forall sp, In sp cps -> exists a c, sp = readSpeciesCP a (Some c) None) ->
  let scaled := fun i j => temp i j / Tm in
  computerhstemp b D L scaled (set_heat_capacity b nc (map (convert_cp v (rescale_factor false Tm)) cps) conc scaled cp) pr old i j =
  computerhstemp b D L temp (set_heat_capacity b nc (map (convert_cp v (rescale_factor true Tm)) cps) conc temp cp) pr old i j / Tm).
Proof. exact rescaled_rate_refuted. Qed.
Print Assumptions C110_constant_refuted.

(** species A: 2 + 3T, species B: 4; one half of each at temperature 10 *)
Example C110_ex : set_heat_capacity (mk_pbox 0 0 0 0 1 1) 1 [readSpeciesCP 2 (Some 3) None; readSpeciesCP 4 None None] (fun _ _ _ => 1 / 2) (fun _ _ => 10) (fun _ _ => 0) 0%Z 0%Z = 18.
Proof.
  rewrite C110_mixture; [| lia | reflexivity | | split; cbn; lia].
  - unfold mixture. repeat (first [rewrite sumZ_cons by lia | rewrite sumZ_empty by lia]). unfold species_of, capacity. cbn. change (Pos.to_nat 1) with 1%nat. rewrite pow_1. cbn. lra.
  - intros sp [<- | [<- | []]]; repeat constructor; cbn; intuition discriminate.
Qed.
Example C110_constant_ex : forall temp old, computerhstemp (mk_pbox 0 0 0 0 1 1) 1 6 (fun i j => temp i j / 2)
    (set_heat_capacity (mk_pbox 0 0 0 0 1 1) 0 (map (convert_cp 1 (rescale_factor false 2)) [readSpeciesCP 3 None None]) (fun _ _ _ => 0) (fun i j => temp i j / 2) (fun _ _ => 0)) (Some (fun _ _ => 1)) old 0%Z 0%Z =
  computerhstemp (mk_pbox 0 0 0 0 1 1) 1 6 temp
    (set_heat_capacity (mk_pbox 0 0 0 0 1 1) 0 (map (convert_cp 1 (rescale_factor true 2)) [readSpeciesCP 3 None None]) (fun _ _ _ => 0) temp (fun _ _ => 0)) (Some (fun _ _ => 1)) old 0%Z 0%Z / 2.
Proof.
  intros temp old. refine (C110_constant_partial (mk_pbox 0 0 0 0 1 1) 0 1 2 [readSpeciesCP 3 None None] _ temp _ 1 6 _ old old 0 0 _ _ _ _ _); [lia | reflexivity | split; cbn; lia | lra |].
  intros sp [<- | []]. exists 3. reflexivity.
Qed.

(** C111: the linear system for a source that depends on the composition is the steady heat equation: capacity times diffusivity times Laplacian plus source vanish. *)
Theorem C111_composition : forall b D conc cp s1 s2 temp rhs, (forall i j, in_cells b i j -> cp i j <> 0) ->
  let sys := composition_system b D conc cp s1 s2 rhs in
  solves b (fst (fst (fst sys))) (snd (fst (fst sys))) (snd (fst sys)) temp (snd sys) <->
  steady b D cp temp (fun i j => s1 * conc i j + s2 * (1 - conc i j)).
Proof. exact composition_steady. Qed.
Print Assumptions C111_composition.

(** C111: the scaled system for a Gaussian source is the steady heat equation too, with the given power, pulse and profile around the nearest image of the center. *)
Theorem C111_gaussian : forall g origin b D power dev pt pw time cp temp rhs, periods_ok g -> near_patch g origin b 0 -> (forall i j, in_cells b i j -> cp i j <> 0) ->
  exists n, forall fuel, (n <= fuel)%nat -> exists m c d r, gaussian_system fuel g b (patch_corner origin b) D power dev pt pw time cp rhs = Some ((m, c, d), r) /\
    forall source, (forall i j d0 d1, in_cells b i j -> gauss_distance g time 0 (center_at (origin 0%Z) (h1 b) i) d0 -> gauss_distance g time 1 (center_at (origin 1%Z) (h2 b) j) d1 ->
      source i j = 10 * power * exp (- ((time - pt) ^ 2 / (2 * pw ^ 2))) * exp (- ((d0 ^ 2 + d1 ^ 2) / (2 * dev ^ 2)))) ->
    (solves b m c d temp r <-> steady b D cp temp source).
Proof. exact gaussian_steady. Qed.
Print Assumptions C111_gaussian.

(** C111: with sources that do not cool, the steady temperature is nowhere below the smallest value next to the patch. *)
Theorem C111_minimum : forall b D cp temp source m, 0 < h1 b -> 0 < h2 b -> 0 < D -> (forall i j, in_cells b i j -> 0 < cp i j /\ 0 <= source i j) ->
  steady b D cp temp source -> (forall i j, beside b i j -> m <= temp i j) -> forall i j, in_cells b i j -> m <= temp i j.
Proof. exact steady_minimum. Qed.
Print Assumptions C111_minimum.

(** one cell with temperature 0 around it: capacity 2, diffusivity 3, source 48 gives 48 / (2 * 3 * 4) = 2 *)
Definition one_hot : arr2 := fun i j => if (i =? 0)%Z && (j =? 0)%Z then 2 else 0.
Example C111_ex : solves (mk_pbox 0 0 0 0 1 1) 1 0 (-1 * 3) one_hot (source_temperature (mk_pbox 0 0 0 0 1 1) (fun _ _ => 1) (fun _ _ => 2) 48 7 (fun _ _ => 0)).
Proof.
  apply (proj2 (C111_composition (mk_pbox 0 0 0 0 1 1) 3 (fun _ _ => 1) (fun _ _ => 2) 48 7 one_hot (fun _ _ => 0) ltac:(intros; lra))).
  intros i j [Hi Hj]. cbn in Hi, Hj. assert (i = 0%Z) by lia. assert (j = 0%Z) by lia. subst i j. unfold lap5, one_hot. cbn. lra.
Qed.
Example C111_minimum_ex : 0 <= one_hot 0%Z 0%Z.
Proof.
  apply (C111_minimum (mk_pbox 0 0 0 0 1 1) 3 (fun _ _ => 2) one_hot (fun _ _ => 48)); cbn; try lra; try (intros; lra).
  - intros i j [Hi Hj]. cbn in Hi, Hj. assert (i = 0%Z) by lia. assert (j = 0%Z) by lia. subst i j. unfold lap5, one_hot. cbn. lra.
  - intros i j _. unfold one_hot. destruct ((i =? 0)%Z && (j =? 0)%Z); lra.
  - split; cbn; lia.
Qed.
(** the pulse at its time: power 1 in the middle of a single cell *)
Example C111_gaussian_ex : exists fuel m c d r, gaussian_system fuel (mk_gauss 0 0 0 0 1 (fun _ => 1 / 2) (fun _ => 0) (fun _ => false) (fun _ => 0) (fun _ => 1)) (mk_pbox 0 0 0 0 1 1)
    (patch_corner (fun _ => 0) (mk_pbox 0 0 0 0 1 1)) 1 1 1 5 1 5 (fun _ _ => 1) (fun _ _ => 0) = Some ((m, c, d), r) /\
  solves (mk_pbox 0 0 0 0 1 1) m c d (fun i j => if (i =? 0)%Z && (j =? 0)%Z then 10 / 4 else 0) r.
Proof.
  set (g := mk_gauss 0 0 0 0 1 (fun _ => 1 / 2) (fun _ => 0) (fun _ => false) (fun _ => 0) (fun _ => 1)). set (b := mk_pbox 0 0 0 0 1 1). set (T := fun i j : Z => if (i =? 0)%Z && (j =? 0)%Z then 10 / 4 else 0).
  destruct (C111_gaussian g (fun _ => 0) b 1 1 1 5 1 5 (fun _ _ => 1) T (fun _ _ => 0)) as [n Hn].
  - intros d Hd. discriminate.
  - intros i j _. split; intro Hd; discriminate.
  - intros. lra.
  - destruct (Hn n (Nat.le_refl n)) as (m & c & d & r & E & S). exists n, m, c, d, r. split; [exact E |]. apply (S (fun _ _ => 10)).
    + intros i j d0 d1 [Hi Hj] D0 D1. cbn in Hi, Hj. assert (i = 0%Z) by lia. assert (j = 0%Z) by lia. subst i j. unfold gauss_distance, center_at in D0, D1. cbn in D0, D1.
      assert (Z0 : d0 = 0) by (rewrite D0; match goal with |- Rabs ?x = 0 => replace x with 0 by field end; apply Rabs_R0).
      assert (Z1 : d1 = 0) by (rewrite D1; match goal with |- Rabs ?x = 0 => replace x with 0 by field end; apply Rabs_R0).
      rewrite Z0, Z1. replace (- ((5 - 5) ^ 2 / (2 * 1 ^ 2))) with 0 by field. replace (- ((0 ^ 2 + 0 ^ 2) / (2 * 1 ^ 2))) with 0 by field. rewrite exp_0. ring.
    + intros i j [Hi Hj]. cbn in Hi, Hj. assert (i = 0%Z) by lia. assert (j = 0%Z) by lia. subst i j. unfold lap5, T. cbn. lra.
Qed.
