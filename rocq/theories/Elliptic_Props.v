(** C81-C86: the elliptic solver behind the preconditioner. *)
From Coq Require Import Reals ZArith List Bool Ascii Lra Lia.
From Verif Require Import Grid_Model Grid_Proofs Functions_Model Elliptic_Model Elliptic_Spec Elliptic_Proofs.
Import ListNotations.
Open Scope R_scope.

(** C81: on a patch with no negative rows every cell is relaxed by exactly one of the two colours: its equation then holds with the other cells unchanged. *)
Theorem C81_sweep : forall p i j, (0 <= jlo p)%Z -> inside p i j -> exists c, (c = 0 \/ c = 1)%Z /\
  (forall lv o w fl rhs, plain lv -> 0 < pdx lv -> 0 < pdy lv -> gdx lv = pdx lv -> gdy lv = pdy lv ->
     mob o i j * (1 / pdx lv * (1 / pdx lv) * (xdc o (i + 1)%Z j + xdc o i j) + 1 / pdy lv * (1 / pdy lv) * (ydc o i (j + 1)%Z + ydc o i j))
       - sfield o i j <> 0 ->
     operator (1 / (pdx lv * pdx lv)) (1 / (pdy lv * pdy lv)) o
       (upd2 w i j (fst (rbgs p (pdx lv) (pdy lv) o (flux_on_patch lv p o o w fl) rhs c w) i j)) i j = rhs i j) /\
  (forall lv o w fl rhs, fst (rbgs p (pdx lv) (pdy lv) o (flux_on_patch lv p o o w fl) rhs (1 - c)%Z w) i j = w i j).
Proof. exact sweep_covers. Qed.
Print Assumptions C81_sweep.

Example C81_ex : fst (rbgs (mk_patch 0 0 0 0 []) 1 1 ex_coefs (fun _ _ => 0, fun _ _ => 0) (fun _ _ => 5) 0 (fun _ _ => 0)) 0%Z 0%Z = 1 /\
  fst (rbgs (mk_patch 0 0 0 0 []) 1 1 ex_coefs (fun _ _ => 0, fun _ _ => 0) (fun _ _ => 5) 1 (fun _ _ => 0)) 0%Z 0%Z = 0.
Proof.
  assert (I : inside (mk_patch 0 0 0 0 []) 0 0) by (split; cbn; lia). split.
  - rewrite rbgs_relaxed by (apply relaxed_iff; [cbn; lia | exact I | lia | reflexivity]). unfold residual_cell, dudr. cbn. field.
  - rewrite rbgs_kept; [reflexivity |]. intro H. apply relaxed_iff in H; [discriminate H | cbn; lia | exact I | lia].
Qed.

(** C81, negative: on a patch that reaches rows with negative indices some cells are relaxed by neither colour, whatever the problem. *)
Theorem C81_negative_rows_refuted : forall p, (jlo p < 0)%Z -> (ilo p <= ihi p)%Z -> (jlo p < jhi p)%Z ->
  exists i j, inside p i j /\ forall dx dy o fl rhs w off, (off = 0 \/ off = 1)%Z -> fst (rbgs p dx dy o fl rhs off w) i j = w i j.
Proof. exact negative_rows. Qed.
Print Assumptions C81_negative_rows_refuted.

Example C81_negative_ex : exists i j, inside (mk_patch 0 7 (-4) 3 []) i j /\ forall dx dy o fl rhs w off, (off = 0 \/ off = 1)%Z ->
  fst (rbgs (mk_patch 0 7 (-4) 3 []) dx dy o fl rhs off w) i j = w i j.
Proof. apply negative_rows; cbn; lia. Qed.

(** C82: smoothing leaves a field alone, for every number of sweeps and tolerance, exactly when its residual vanishes in every cell of the level. *)
Theorem C82_fixed_points : forall lv gh o rhs fl res u,
  disjoint lv -> nonneg_rows lv -> nonsingular lv o ->
  ((forall n tol, within lv (smoothErrorByRedBlack lv gh o rhs fl n tol u) u 0) <->
   (forall i j, cell lv i j -> level_residual lv gh o rhs fl u res i j = 0)).
Proof. exact smoothing_fixed_points. Qed.
Print Assumptions C82_fixed_points.

(** C82: a field that one sweep leaves alone has no residual. *)
Theorem C82_one_sweep : forall lv gh o rhs fl res u tol,
  disjoint lv -> nonneg_rows lv -> nonsingular lv o ->
  within lv (smoothErrorByRedBlack lv gh o rhs fl 1%nat tol u) u 0 ->
  forall i j, cell lv i j -> level_residual lv gh o rhs fl u res i j = 0.
Proof. exact smoothing_one_sweep_fixed. Qed.
Print Assumptions C82_one_sweep.

Example C82_ex : nonsingular ex_level ex_coefs /\
  (forall n tol fl, within ex_level (smoothErrorByRedBlack ex_level ex_gh ex_coefs (fun _ _ => 0) fl n tol (fun _ _ => 0)) (fun _ _ => 0) 0) /\
  (forall fl tol, ~ within ex_level (smoothErrorByRedBlack ex_level ex_gh ex_coefs ex_rhs fl 1 tol (fun _ _ => 0)) (fun _ _ => 0) 0).
Proof.
  assert (N : nonsingular ex_level ex_coefs) by (intros i j _; cbn; lra).
  assert (Z0 : nonneg_rows ex_level) by (intros p [<- | [<- | []]]; cbn; lia).
  assert (RV : forall rhs fl i j, cell ex_level i j -> level_residual ex_level ex_gh ex_coefs rhs fl (fun _ _ => 0) (fun _ _ => 0) i j = rhs i j).
  { intros rhs fl i j (p & Hp & Hi). rewrite (residual_val _ _ _ _ _ _ p _ i j ex_disjoint Hp Hi). unfold resid.
    rewrite residual_operator by (auto; try reflexivity; cbn; lra). unfold operator. rewrite !ex_fill.
    repeat match goal with |- context [if ?c then 0 else 0] => destruct c end; ring. }
  split; [exact N |]. split.
  - intros n tol fl. apply (proj2 (smoothing_fixed_points ex_level ex_gh ex_coefs (fun _ _ => 0) fl (fun _ _ => 0) (fun _ _ => 0) ex_disjoint Z0 N)).
    intros i j H. apply RV, H.
  - intros fl tol H. pose proof (smoothing_one_sweep_fixed ex_level ex_gh ex_coefs ex_rhs fl (fun _ _ => 0) (fun _ _ => 0) tol ex_disjoint Z0 N H 0%Z 0%Z) as Q.
    assert (C : cell ex_level 0 0) by (apply ex_cells; lia). specialize (Q C). rewrite RV in Q by exact C. unfold ex_rhs, upd2 in Q. cbn in Q. lra.
Qed.

(** C83: on the coarsest level, for the sign of the preconditioner's problems and boundary rules that do not amplify, the equations have one solution and the smoother run without tolerance converges to it from every start, by the factor K/(K + c0) per sweep in the maximum norm. *)
Theorem C83_coarsest : forall lv gh o rhs fl c0 K,
  disjoint lv -> nonneg_rows lv -> finer lv = false -> 0 < pdx lv -> 0 < pdy lv -> gdx lv = pdx lv -> gdy lv = pdy lv ->
  tame lv gh -> positive_problem lv o c0 K ->
  exists v, solves (1 / (pdx lv * pdx lv)) (1 / (pdy lv * pdy lv)) lv gh o rhs v /\
    (forall v', solves (1 / (pdx lv * pdx lv)) (1 / (pdy lv * pdy lv)) lv gh o rhs v' -> within lv v v' 0) /\
    (forall n tol u E, tol < 0 -> 0 <= E -> within lv u v E -> within lv (smoothErrorByRedBlack lv gh o rhs fl n tol u) v ((K / (K + c0)) ^ n * E)) /\
    (forall u eps, 0 < eps -> exists N, forall n, (N <= n)%nat -> within lv (smoothErrorByRedBlack lv gh o rhs fl n (-1) u) v eps).
Proof. exact smoothing_converges_coarsest. Qed.
Print Assumptions C83_coarsest.

(** C83: on a finer level without flux correction the smoother converges too, to the solution of the equations with the grid geometry's spacing in the fluxes. *)
Theorem C83_levels : forall lv gh o rhs fl c0 K,
  disjoint lv -> nonneg_rows lv -> plain lv -> spacing lv -> tame lv gh -> positive_problem lv o c0 K ->
  exists v, solves (1 / (gdx lv * pdx lv)) (1 / (gdy lv * pdy lv)) lv gh o rhs v /\
    (forall v', solves (1 / (gdx lv * pdx lv)) (1 / (gdy lv * pdy lv)) lv gh o rhs v' -> within lv v v' 0) /\
    (forall n tol u E, tol < 0 -> 0 <= E -> within lv u v E -> within lv (smoothErrorByRedBlack lv gh o rhs fl n tol u) v ((K / (K + c0)) ^ n * E)) /\
    (forall u eps, 0 < eps -> exists N, forall n, (N <= n)%nat -> within lv (smoothErrorByRedBlack lv gh o rhs fl n (-1) u) v eps).
Proof. exact smoothing_converges. Qed.
Print Assumptions C83_levels.

Example C83_ex : exists v, solves 1 1 ex_level ex_gh ex_coefs ex_rhs v /\
  forall fl n u E, 0 <= E -> within ex_level u v E -> within ex_level (smoothErrorByRedBlack ex_level ex_gh ex_coefs ex_rhs fl n (-1) u) v ((4 / 5) ^ n * E).
Proof.
  assert (Z0 : nonneg_rows ex_level) by (intros p [<- | [<- | []]]; cbn; lia).
  assert (T : tame ex_level ex_gh) by (intros i j _; cbn; split; [rewrite Rabs_R0; lra | left; reflexivity]).
  assert (G : forall fl, exists v, solves 1 1 ex_level ex_gh ex_coefs ex_rhs v /\
    forall n u E, 0 <= E -> within ex_level u v E -> within ex_level (smoothErrorByRedBlack ex_level ex_gh ex_coefs ex_rhs fl n (-1) u) v ((4 / 5) ^ n * E)).
  { intro fl. destruct (smoothing_converges_coarsest ex_level ex_gh ex_coefs ex_rhs fl 1 4) as (v & S & _ & C & _);
      try (cbn; lra); try reflexivity; auto using ex_disjoint, ex_positive.
    exists v. cbn [ex_level pdx pdy] in S. replace (1 / (1 * 1)) with 1 in S by field. split; [exact S |]. intros n u E HE H.
    pose proof (C n (-1) u E ltac:(lra) HE H) as Q. replace (4 / 5) with (4 / (4 + 1)) by field. exact Q. }
  destruct (G (fun _ _ => 0, fun _ _ => 0)) as (v & S & _). exists v. split; [exact S |]. intros fl n u E HE H.
  destruct (smoothing_converges_coarsest ex_level ex_gh ex_coefs ex_rhs fl 1 4) as (v' & S' & U & C & _);
      try (cbn; lra); try reflexivity; auto using ex_disjoint, ex_positive.
  assert (W : within ex_level v' v 0) by (apply U; cbn [ex_level pdx pdy]; replace (1 / (1 * 1)) with 1 by field; exact S).
  intros i j Hc. assert (Q : within ex_level u v' E).
  { intros a b Hab. pose proof (H a b Hab) as A. pose proof (W a b Hab) as B. assert (v' a b = v a b) by (unfold Rabs in B; destruct Rcase_abs; lra). rewrite H0. exact A. }
  pose proof (C n (-1) u E ltac:(lra) HE Q i j Hc) as A. pose proof (W i j Hc) as B. assert (v' i j = v i j) by (unfold Rabs in B; destruct Rcase_abs; lra).
  rewrite <- H0. replace (4 / 5) with (4 / (4 + 1)) by field. exact A.
Qed.

(** C84: on a level of one patch, smoothing that ends early has an error of at most tol / c0. *)
Theorem C84_early_end : forall lv gh o rhs fl c0 K p v, patches lv = [p] ->
  nonneg_rows lv -> plain lv -> spacing lv -> tame lv gh -> positive_problem lv o c0 K ->
  solves (1 / (gdx lv * pdx lv)) (1 / (gdy lv * pdy lv)) lv gh o rhs v ->
  forall n tol u E, 0 <= tol -> 0 <= E -> within lv u v E ->
  within lv (smoothErrorByRedBlack lv gh o rhs fl n tol u) v (tol / c0) \/
  within lv (smoothErrorByRedBlack lv gh o rhs fl n tol u) v ((K / (K + c0)) ^ n * E).
Proof. exact early_end. Qed.
Print Assumptions C84_early_end.

Example C84_ex : let lv := mk_level [mk_patch 0 0 0 0 []] 1 1 1 1 1 1 false true in
  solves 1 1 lv ex_gh ex_coefs (fun _ _ => 5) (fun _ _ => 1) /\ positive_problem lv ex_coefs 1 4 /\ tame lv ex_gh.
Proof.
  intro lv. split; [| split; [split; [lra | intros; cbn; lra] | intros i j _; cbn; split; [rewrite Rabs_R0; lra | left; reflexivity]]].
  intros w [W1 W2] i j (p & [<- | []] & [Hi Hj]). cbn in Hi, Hj. assert (i = 0%Z) by lia. assert (j = 0%Z) by lia. subst.
  assert (N : forall a b, (a <> 0 \/ b <> 0)%Z -> w a b = 0).
  { intros a b H. rewrite W2; [cbn; ring |]. intros (p & [<- | []] & [H1 H2]). cbn in H1, H2. lia. }
  unfold operator. rewrite (W1 0%Z 0%Z) by (eexists; split; [left; reflexivity | split; cbn; lia]). rewrite !N by lia. cbn. field.
Qed.

(** C84, negative: with two patches smoothing can end after the first sweep and however many sweeps are allowed the error stays above tol / c0: the test looks at the residual of the last patch only. *)
Theorem C84_two_patches_refuted : exists lv gh o rhs v tol c0 K u,
  disjoint lv /\ nonneg_rows lv /\ finer lv = false /\ 0 < pdx lv /\ 0 < pdy lv /\ gdx lv = pdx lv /\ gdy lv = pdy lv /\
  tame lv gh /\ positive_problem lv o c0 K /\ solves (1 / (pdx lv * pdx lv)) (1 / (pdy lv * pdy lv)) lv gh o rhs v /\ 0 <= tol /\
  forall fl n, (1 <= n)%nat -> exists i j, cell lv i j /\ tol / c0 < Rabs (smoothErrorByRedBlack lv gh o rhs fl n tol u i j - v i j) /\
    smoothErrorByRedBlack lv gh o rhs fl n tol u = smoothErrorByRedBlack lv gh o rhs fl 1 tol u.
Proof. exact early_end_two_patches. Qed.
Print Assumptions C84_two_patches_refuted.

(** C85: with equal spacings the residual of a quadratic field with a linear diffusion coefficient is the residual of the differential equation at the centre of the cell. *)
Theorem C85_consistent : forall lv gh o rhs fl res q m d0 d1 d2 c i j,
  disjoint lv -> plain lv -> 0 < pdx lv -> 0 < pdy lv -> gdx lv = pdx lv -> gdy lv = pdy lv -> cell lv i j ->
  (forall a b, ~ cell lv a b -> factor (gh a b) = 0 /\ offset_value (gh a b) = quad_cells q (pdx lv) (pdy lv) a b) ->
  xdc o = linear_x d0 d1 d2 (pdx lv) (pdy lv) -> ydc o = linear_y d0 d1 d2 (pdx lv) (pdy lv) -> mob o i j = m -> sfield o i j = c ->
  level_residual lv gh o rhs fl (quad_cells q (pdx lv) (pdy lv)) res i j =
  rhs i j - continuum m d0 d1 d2 c q (centre i (pdx lv)) (centre j (pdy lv)).
Proof. exact consistent. Qed.
Print Assumptions C85_consistent.

Example C85_ex : forall fl res, level_residual ex_level (fun a b => mk_ghost 0 0 0 (quad_cells (mk_quadratic 1 2 3 4 5 6) 1 1 a b))
    (mk_coefs (linear_x 1 2 3 1 1) (linear_y 1 2 3 1 1) (fun _ _ => 7) (fun _ _ => 2)) (fun _ _ => 0) fl (quad_cells (mk_quadratic 1 2 3 4 5 6) 1 1) res 1%Z 0%Z
  = - continuum 2 1 2 3 7 (mk_quadratic 1 2 3 4 5 6) (3 / 2) (1 / 2) /\ continuum 2 1 2 3 7 (mk_quadratic 1 2 3 4 5 6) (3 / 2) (1 / 2) = 319.
Proof.
  intros fl res. split.
  - rewrite (consistent ex_level _ _ _ fl res (mk_quadratic 1 2 3 4 5 6) 2 1 2 3 7 1 0 ex_disjoint); try (cbn; lra); try reflexivity.
    + unfold centre. cbn [ex_level pdx pdy]. replace ((1 + 1 / 2) * 1) with (3 / 2) by field. replace ((0 + 1 / 2) * 1) with (1 / 2) by field. ring.
    + apply ex_cells. lia.
    + intros a b _. split; reflexivity.
  - unfold continuum, quad_at. cbn. field.
Qed.

(** C85: in general the code's fluxes scale the diffusion along each axis by the ratio of the patch spacing to the spacing of the grid geometry. *)
Theorem C85_spacings : forall lv gh o rhs fl res q m d0 d1 d2 c i j,
  disjoint lv -> plain lv -> 0 < pdx lv -> 0 < pdy lv -> 0 < gdx lv -> 0 < gdy lv -> cell lv i j ->
  (forall a b, ~ cell lv a b -> factor (gh a b) = 0 /\ offset_value (gh a b) = quad_cells q (pdx lv) (pdy lv) a b) ->
  xdc o = linear_x d0 d1 d2 (pdx lv) (pdy lv) -> ydc o = linear_y d0 d1 d2 (pdx lv) (pdy lv) -> mob o i j = m -> sfield o i j = c ->
  level_residual lv gh o rhs fl (quad_cells q (pdx lv) (pdy lv)) res i j =
  rhs i j - (m * (pdx lv / gdx lv * ((d0 + d1 * centre i (pdx lv) + d2 * centre j (pdy lv)) * (2 * qxx q)
                                     + d1 * (2 * qxx q * centre i (pdx lv) + qxy q * centre j (pdy lv) + qx q))
                + pdy lv / gdy lv * ((d0 + d1 * centre i (pdx lv) + d2 * centre j (pdy lv)) * (2 * qyy q)
                                     + d2 * (qxy q * centre i (pdx lv) + 2 * qyy q * centre j (pdy lv) + qy q)))
             + c * quad_at q (centre i (pdx lv)) (centre j (pdy lv))).
Proof. exact residual_quadratic. Qed.
Print Assumptions C85_spacings.

(** C85, negative: on a level refined by r > 1 with respect to the coarsest one, fields that solve the differential equation have a residual in every cell. *)
Theorem C85_refined_refuted : forall lv r, disjoint lv -> plain lv -> 0 < pdx lv -> 0 < pdy lv -> 1 < r -> gdx lv = r * pdx lv -> gdy lv = r * pdy lv ->
  exists gh o q, (forall a b, ~ cell lv a b -> factor (gh a b) = 0 /\ offset_value (gh a b) = quad_cells q (pdx lv) (pdy lv) a b) /\
    (forall fl res i j, cell lv i j ->
       level_residual lv gh o (fun i j => continuum 1 1 0 0 0 q (centre i (pdx lv)) (centre j (pdy lv))) fl (quad_cells q (pdx lv) (pdy lv)) res i j <> 0) /\
    (forall i j, xdc o i j = 1 /\ ydc o i j = 1 /\ mob o i j = 1 /\ sfield o i j = 0).
Proof. exact inconsistent_refined. Qed.
Print Assumptions C85_refined_refuted.

Example C85_refined_ex : exists gh o q, (forall fl res i j, cell (mk_level [mk_patch 0 3 0 3 []] 1 1 (1 / 2) (1 / 2) 2 2 true false) i j ->
  level_residual (mk_level [mk_patch 0 3 0 3 []] 1 1 (1 / 2) (1 / 2) 2 2 true false) gh o
    (fun i j => continuum 1 1 0 0 0 q (centre i (1 / 2)) (centre j (1 / 2))) fl (quad_cells q (1 / 2) (1 / 2)) res i j <> 0) /\ xdc o 0%Z 0%Z = 1.
Proof.
  destruct (inconsistent_refined (mk_level [mk_patch 0 3 0 3 []] 1 1 (1 / 2) (1 / 2) 2 2 true false) 2) as (gh & o & q & _ & H & C);
    try (cbn; lra); [constructor; constructor | reflexivity |].
  exists gh, o, q. split; [exact H | apply C].
Qed.

(** C86: with equal spacings and one diffusion coefficient, the corrected flux through every side of the coarse-fine boundary is exact for linear fields (ghost cells hold the values at the centres of coarse cells). *)
Theorem C86_exact : forall lv p bb o w fl a sx sy, ewing lv = true -> finer lv = true -> cf_boundary_ok lv p -> In bb (cf_boundary p) ->
  0 < pdx lv -> 0 < pdy lv -> gdx lv = pdx lv -> gdy lv = pdy lv ->
  linear_inside p w a sx sy (pdx lv) (pdy lv) -> coarse_ghosts lv p bb w a sx sy ->
  (forall i j, corrects_x p bb i j -> fst (flux_on_patch lv p o o w fl) i j = xdc o i j * sx) /\
  (forall i j, corrects_y p bb i j -> snd (flux_on_patch lv p o o w fl) i j = ydc o i j * sy).
Proof. exact ewing_exact. Qed.
Print Assumptions C86_exact.

Definition C86_box : bbox := mk_bbox 0 (-1) 0 (-1) 1.
Definition C86_patch : patch := mk_patch 0 1 0 1 [C86_box].
Definition C86_w : arr2 := fun i j => if (i <? 0)%Z then linear_at 1 2 3 (coarse_centre i 2 1) (coarse_centre j 2 1) else linear_at 1 2 3 (centre i 1) (centre j 1).
Lemma C86_ok : forall g h, cf_boundary_ok (mk_level [C86_patch] g g h h 2 2 true true) C86_patch.
Proof.
  intros g h. unfold cf_boundary_ok, aligned, placed. cbn. repeat split; try lia.
  - intros bb [<- | []]. left. cbn. repeat split; lia.
  - repeat constructor.
Qed.
Lemma C86_inside : linear_inside C86_patch C86_w 1 2 3 1 1.
Proof. intros i j [Hi Hj]. cbn in Hi, Hj. unfold C86_w. destruct (Z.ltb_spec i 0); [lia | reflexivity]. Qed.
Lemma C86_ghosts : forall g, coarse_ghosts (mk_level [C86_patch] g g 1 1 2 2 true true) C86_patch C86_box C86_w 1 2 3.
Proof. intros g i j [[[[_ Hi] | [Hl _]] _] | [[[Hl _] | [Hl _]] _]]; try (cbn in Hl; lia). cbn in Hi. unfold C86_w. destruct (Z.ltb_spec i 0); [reflexivity | lia]. Qed.
Example C86_ex : forall fl, fst (flux_on_patch (mk_level [C86_patch] 1 1 1 1 2 2 true true) C86_patch ex_coefs ex_coefs C86_w fl) 0%Z 1%Z = -2.
Proof.
  intro fl. destruct (ewing_exact (mk_level [C86_patch] 1 1 1 1 2 2 true true) C86_patch C86_box ex_coefs C86_w fl 1 2 3) as [H _];
    try reflexivity; try (cbn; lra); auto using C86_ok, C86_inside, C86_ghosts; [left; reflexivity |].
  rewrite H by (split; cbn; lia). cbn. ring.
Qed.

(** C86, negative: with the grid geometry's spacing, as on every refined level, the corrected fluxes of linear fields are wrong. *)
Theorem C86_spacing_refuted : forall lv p bb o w fl a sx sy r, ewing lv = true -> finer lv = true -> cf_boundary_ok lv p -> In bb (cf_boundary p) ->
  0 < pdx lv -> 0 < pdy lv -> 1 < r -> gdx lv = r * pdx lv -> gdy lv = r * pdy lv ->
  linear_inside p w a sx sy (pdx lv) (pdy lv) -> coarse_ghosts lv p bb w a sx sy ->
  (forall i j, corrects_x p bb i j -> xdc o i j * sx <> 0 -> fst (flux_on_patch lv p o o w fl) i j <> xdc o i j * sx) /\
  (forall i j, corrects_y p bb i j -> ydc o i j * sy <> 0 -> snd (flux_on_patch lv p o o w fl) i j <> ydc o i j * sy).
Proof. exact ewing_spacing. Qed.
Print Assumptions C86_spacing_refuted.

Example C86_spacing_ex : forall fl, fst (flux_on_patch (mk_level [C86_patch] 2 2 1 1 2 2 true true) C86_patch ex_coefs ex_coefs C86_w fl) 0%Z 1%Z <> -2.
Proof.
  intro fl. destruct (ewing_spacing (mk_level [C86_patch] 2 2 1 1 2 2 true true) C86_patch C86_box ex_coefs C86_w fl 1 2 3 2) as [H _];
    try reflexivity; try (cbn; lra); auto using C86_ok, C86_inside, C86_ghosts; [left; reflexivity |].
  intro E. apply (H 0%Z 1%Z); [split; cbn; lia | cbn; lra | rewrite E; cbn; ring].
Qed.

(** C86, negative: the flux of a second component, corrected with the diffusion coefficient of the first, is wrong wherever the two differ and the field varies along the side. *)
Theorem C86_component_refuted : forall lv p bb o o0 w fl a sx sy i j, ewing lv = true -> finer lv = true -> cf_boundary_ok lv p -> In bb (cf_boundary p) ->
  0 < pdx lv -> 0 < pdy lv -> gdx lv = pdx lv -> gdy lv = pdy lv ->
  linear_inside p w a sx sy (pdx lv) (pdy lv) -> coarse_ghosts lv p bb w a sx sy ->
  corrects_x p bb i j -> sy <> 0 -> centre j (pdy lv) <> coarse_centre j (ratio1 lv) (pdy lv) -> xdc o i j <> xdc o0 i j ->
  fst (flux_on_patch lv p o o0 w fl) i j <> xdc o i j * sx.
Proof. exact ewing_component. Qed.
Print Assumptions C86_component_refuted.

Example C86_component_ex : forall fl, fst (flux_on_patch (mk_level [C86_patch] 1 1 1 1 2 2 true true) C86_patch
    (mk_coefs (fun _ _ => -5) (fun _ _ => -5) (fun _ _ => 1) (fun _ _ => 1)) ex_coefs C86_w fl) 0%Z 1%Z <> -10.
Proof.
  intros fl E. apply (ewing_component (mk_level [C86_patch] 1 1 1 1 2 2 true true) C86_patch C86_box (mk_coefs (fun _ _ => -5) (fun _ _ => -5) (fun _ _ => 1) (fun _ _ => 1)) ex_coefs C86_w fl 1 2 3 0 1);
    try reflexivity; try (cbn; lra); auto using C86_ok, C86_inside, C86_ghosts.
  - left; reflexivity.
  - split; cbn; lia.
  - unfold centre, coarse_centre. cbn. lra.
  - rewrite E. cbn. ring.
Qed.
