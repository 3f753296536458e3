(** C184-C189: the elliptic solver behind the preconditioner in three dimensions. *)
From Coq Require Import Reals ZArith List Bool Ascii Lra Lia.
From Verif Require Import Grid_Model Functions_Model Elliptic3_Model Elliptic3_Spec Elliptic3_Proofs.
Import ListNotations.
Open Scope R_scope.
Open Scope char_scope.

(** C184: on a patch whose first cell has a nonnegative index sum every cell is relaxed by exactly one of the two colours, the parity of its index sum: its equation then holds with the other cells unchanged. *)
Theorem C184_sweep : forall lv p o w fl rhs i j k, In p (patches lv) -> (0 <= ilo p + jlo p + klo p)%Z -> inside p i j k ->
  plain lv -> one_spacing lv -> nonsingular_at lv o i j k ->
  exists c, (c = 0 \/ c = 1)%Z /\ (c = (i + j + k) mod 2)%Z /\
    level_operator lv o (upd3 w i j k (fst (rbgs p (pdx lv) (pdy lv) (pdz lv) o (flux_on_patch lv p o o w fl) rhs c w) i j k)) i j k = rhs i j k /\
    fst (rbgs p (pdx lv) (pdy lv) (pdz lv) o (flux_on_patch lv p o o w fl) rhs (1 - c)%Z w) i j k = w i j k.
Proof. exact sweep_covers. Qed.
Print Assumptions C184_sweep.

(** C184: a pass of one colour over a level of any number of patches solves the equations of all cells of that colour together and leaves the other cells alone: the colours of neighbouring patches fit, and no cell has a neighbour of its own colour.  For boundary rules that keep the colour. *)
Theorem C184_colours : forall lv gh o rhs fl off u, (off = 0 \/ off = 1)%Z ->
  disjoint lv -> nonneg_corners lv -> plain lv -> one_spacing lv -> checkerboard lv gh -> nonsingular lv o ->
  let u' := fst (color_pass lv gh o rhs fl off u) in
  (forall w, extends lv gh u' w -> forall i j k, cell lv i j k -> ((i + j + k) mod 2 = off)%Z -> level_operator lv o w i j k = rhs i j k) /\
  (forall i j k, cell lv i j k -> ((i + j + k) mod 2 <> off)%Z -> u' i j k = u i j k).
Proof. exact pass_solves_colour. Qed.
Print Assumptions C184_colours.

(** C184: so the residual of the level after the pass is zero in the cells of that colour. *)
Theorem C184_residual : forall lv gh o rhs fl off u res i j k, (off = 0 \/ off = 1)%Z ->
  disjoint lv -> nonneg_corners lv -> plain lv -> one_spacing lv -> checkerboard lv gh -> nonsingular lv o ->
  cell lv i j k -> ((i + j + k) mod 2 = off)%Z ->
  level_residual lv gh o rhs fl (fst (color_pass lv gh o rhs fl off u)) res i j k = 0.
Proof. exact pass_no_residual. Qed.
Print Assumptions C184_residual.

(** two patches side by side, 2 x 1 x 1 and 1 x 1 x 1: after the first colour the cell (0,0,0) of the one and (2,0,0) of the other have no residual *)
Definition C184_level : level := mk_level [mk_patch 0 1 0 0 0 0 []; mk_patch 2 2 0 0 0 0 []] 1 1 1 1 1 1 1 1 1 false true.
Example C184_ex : forall fl u, let u' := fst (color_pass C184_level ex_gh ex_coefs ex_rhs fl 0 u) in
  7 * u' 0%Z 0%Z 0%Z - u' 1%Z 0%Z 0%Z = 100 /\ 7 * u' 2%Z 0%Z 0%Z - u' 1%Z 0%Z 0%Z = 0 /\ u' 1%Z 0%Z 0%Z = u 1%Z 0%Z 0%Z.
Proof.
  intros fl u u'.
  assert (C : forall i, (i = 0 \/ i = 1 \/ i = 2)%Z -> cell C184_level i 0 0).
  { intros i [-> | [-> | ->]]; [eexists; split; [left; reflexivity |] | eexists; split; [left; reflexivity |] | eexists; split; [right; left; reflexivity |]]; unfold inside; cbn; lia. }
  destruct (pass_solves_colour C184_level ex_gh ex_coefs ex_rhs fl 0 u) as [H K].
  - left. reflexivity.
  - unfold disjoint. cbn [C184_level patches]. repeat constructor. intros i j k (H1 & _) (H2 & _). cbn in *. lia.
  - intros p [<- | [<- | []]]; cbn; lia.
  - reflexivity.
  - unfold one_spacing. cbn. lra.
  - intros i j k _. left. reflexivity.
  - intros i j k _. unfold nonsingular_at. cbn. lra.
  - fold u' in H, K. pose proof (H _ (fill_extends C184_level ex_gh u') 0%Z 0%Z 0%Z (C 0%Z ltac:(lia)) eq_refl) as A.
    pose proof (H _ (fill_extends C184_level ex_gh u') 2%Z 0%Z 0%Z (C 2%Z ltac:(lia)) eq_refl) as B.
    unfold level_operator, operator, fill in A, B.
    repeat match type of A with context [in_level C184_level ?a ?b ?c] => let v := eval vm_compute in (in_level C184_level a b c) in change (in_level C184_level a b c) with v in A end.
    repeat match type of B with context [in_level C184_level ?a ?b ?c] => let v := eval vm_compute in (in_level C184_level a b c) in change (in_level C184_level a b c) with v in B end.
    cbn -[IZR u'] in A, B. unfold ex_rhs, upd3 in A, B. cbn -[IZR u'] in A, B. split; [lra |]. split; [lra |]. apply K; [apply C; lia | discriminate].
Qed.

(** C184, negative: on a patch whose first cell has a negative index sum some cells are relaxed by neither colour, whatever the problem. *)
Theorem C184_negative_corner_refuted : forall p, (ilo p + jlo p + klo p < 0)%Z -> (ilo p <= ihi p)%Z -> (jlo p < jhi p)%Z -> (klo p <= khi p)%Z ->
  exists i j k, inside p i j k /\ forall dx dy dz o fl rhs w off, (off = 0 \/ off = 1)%Z -> fst (rbgs p dx dy dz o fl rhs off w) i j k = w i j k.
Proof. exact negative_rows. Qed.
Print Assumptions C184_negative_corner_refuted.

Example C184_negative_ex : exists i j k, inside (mk_patch 0 7 (-4) 3 0 7 []) i j k /\ forall dx dy dz o fl rhs w off, (off = 0 \/ off = 1)%Z ->
  fst (rbgs (mk_patch 0 7 (-4) 3 0 7 []) dx dy dz o fl rhs off w) i j k = w i j k.
Proof. apply negative_rows; cbn; lia. Qed.

(** C185: smoothing leaves a field alone, for every number of sweeps and tolerance, exactly when its residual vanishes in every cell of the level. *)
Theorem C185_fixed_points : forall lv gh o rhs fl res u,
  disjoint lv -> spacing lv -> nonneg_corners lv -> nonsingular lv o ->
  ((forall n tol, within lv (smoothErrorByRedBlack lv gh o rhs fl n tol u) u 0) <->
   (forall i j k, cell lv i j k -> level_residual lv gh o rhs fl u res i j k = 0)).
Proof. exact smoothing_fixed_points. Qed.
Print Assumptions C185_fixed_points.

(** C185: a field that one sweep leaves alone has no residual. *)
Theorem C185_one_sweep : forall lv gh o rhs fl res u tol,
  disjoint lv -> spacing lv -> nonneg_corners lv -> nonsingular lv o ->
  within lv (smoothErrorByRedBlack lv gh o rhs fl 1%nat tol u) u 0 ->
  forall i j k, cell lv i j k -> level_residual lv gh o rhs fl u res i j k = 0.
Proof. exact smoothing_one_sweep_fixed. Qed.
Print Assumptions C185_one_sweep.

Example C185_ex : nonsingular ex_level ex_coefs /\
  (forall n tol fl, within ex_level (smoothErrorByRedBlack ex_level ex_gh ex_coefs (fun _ _ _ => 0) fl n tol (fun _ _ _ => 0)) (fun _ _ _ => 0) 0) /\
  (forall fl tol, ~ within ex_level (smoothErrorByRedBlack ex_level ex_gh ex_coefs ex_rhs fl 1 tol (fun _ _ _ => 0)) (fun _ _ _ => 0) 0).
Proof.
  assert (N : nonsingular ex_level ex_coefs) by (intros i j k _; unfold nonsingular_at; cbn; lra).
  assert (Z0 : nonneg_corners ex_level) by (intros p [<- | [<- | []]]; cbn; lia).
  pose proof (one_spacing_spacing _ ex_one) as Sp.
  assert (RV : forall rhs fl i j k, cell ex_level i j k -> level_residual ex_level ex_gh ex_coefs rhs fl (fun _ _ _ => 0) (fun _ _ _ => 0) i j k = rhs i j k).
  { intros rhs fl i j k (p & Hp & Hi). rewrite (residual_val _ _ _ _ _ _ p _ i j k ex_disjoint Hp Hi). unfold resid.
    rewrite residual_operator by (auto; reflexivity). unfold operator. rewrite !ex_fill.
    repeat match goal with |- context [if ?c then 0 else 0] => destruct c end; ring. }
  split; [exact N |]. split.
  - intros n tol fl. apply (proj2 (smoothing_fixed_points ex_level ex_gh ex_coefs (fun _ _ _ => 0) fl (fun _ _ _ => 0) (fun _ _ _ => 0) ex_disjoint Sp Z0 N)).
    intros i j k H. apply RV, H.
  - intros fl tol H. pose proof (smoothing_one_sweep_fixed ex_level ex_gh ex_coefs ex_rhs fl (fun _ _ _ => 0) (fun _ _ _ => 0) tol ex_disjoint Sp Z0 N H 0%Z 0%Z 0%Z) as Q.
    assert (C : cell ex_level 0 0 0) by (apply ex_cells; lia). specialize (Q C). rewrite RV in Q by exact C. unfold ex_rhs, upd3 in Q. cbn in Q. lra.
Qed.

(** C186: on the coarsest level, for the sign of the preconditioner's problems and boundary rules that do not amplify, the equations have one solution and the smoother run without tolerance converges to it from every start, by the factor K/(K + c0) per sweep in the maximum norm. *)
Theorem C186_coarsest : forall lv gh o rhs fl c0 K,
  disjoint lv -> nonneg_corners lv -> finer lv = false -> one_spacing lv ->
  tame lv gh -> positive_problem lv o c0 K ->
  exists v, solves (1 / (pdx lv * pdx lv)) (1 / (pdy lv * pdy lv)) (1 / (pdz lv * pdz lv)) lv gh o rhs v /\
    (forall v', solves (1 / (pdx lv * pdx lv)) (1 / (pdy lv * pdy lv)) (1 / (pdz lv * pdz lv)) lv gh o rhs v' -> within lv v v' 0) /\
    (forall n tol u E, tol < 0 -> 0 <= E -> within lv u v E -> within lv (smoothErrorByRedBlack lv gh o rhs fl n tol u) v ((K / (K + c0)) ^ n * E)) /\
    (forall u eps, 0 < eps -> exists N, forall n, (N <= n)%nat -> within lv (smoothErrorByRedBlack lv gh o rhs fl n (-1) u) v eps).
Proof. exact smoothing_converges_coarsest. Qed.
Print Assumptions C186_coarsest.

(** C186: on a finer level without flux correction the smoother converges too, to the solution of the equations with the grid geometry's spacing in the fluxes. *)
Theorem C186_levels : forall lv gh o rhs fl c0 K,
  disjoint lv -> nonneg_corners lv -> plain lv -> spacing lv -> tame lv gh -> positive_problem lv o c0 K ->
  exists v, solves (1 / (gdx lv * pdx lv)) (1 / (gdy lv * pdy lv)) (1 / (gdz lv * pdz lv)) lv gh o rhs v /\
    (forall v', solves (1 / (gdx lv * pdx lv)) (1 / (gdy lv * pdy lv)) (1 / (gdz lv * pdz lv)) lv gh o rhs v' -> within lv v v' 0) /\
    (forall n tol u E, tol < 0 -> 0 <= E -> within lv u v E -> within lv (smoothErrorByRedBlack lv gh o rhs fl n tol u) v ((K / (K + c0)) ^ n * E)) /\
    (forall u eps, 0 < eps -> exists N, forall n, (N <= n)%nat -> within lv (smoothErrorByRedBlack lv gh o rhs fl n (-1) u) v eps).
Proof. exact smoothing_converges_levels. Qed.
Print Assumptions C186_levels.

(** C186: if 16 gamma M W < 1 the phase block has exactly one solution for every right-hand side and every phase field, and the smoother converges to it. *)
Theorem C186_phase_block : forall lv gh p phi m eps gamma W Mmax cold o rhs fl,
  finer lv = false -> one_spacing lv -> patches lv = [p] -> (0 <= ilo p + jlo p + klo p)%Z -> tame lv gh -> 0 <= gamma -> 0 <= W ->
  (forall i j k, inside p i j k -> 0 <= m i j k <= Mmax) -> 0 <= Mmax -> 16 * gamma * Mmax * W < 1 ->
  phase_coefs p phi m eps gamma W "d" cold = Some o ->
  exists v, solves (1 / (pdx lv * pdx lv)) (1 / (pdy lv * pdy lv)) (1 / (pdz lv * pdz lv)) lv gh o rhs v /\
    (forall v', solves (1 / (pdx lv * pdx lv)) (1 / (pdy lv * pdy lv)) (1 / (pdz lv * pdz lv)) lv gh o rhs v' -> within lv v v' 0) /\
    (forall u eps', 0 < eps' -> exists N, forall n, (N <= n)%nat -> within lv (smoothErrorByRedBlack lv gh o rhs fl n (-1) u) v eps').
Proof. exact phase_block_solvable. Qed.
Print Assumptions C186_phase_block.

(** the problem of the phase with mobility 1, well height 1, gamma 1/32 in one cell with no-flux boundaries *)
Definition C186_patch : patch := mk_patch 0 0 0 0 0 0 [].
Definition C186_level : level := mk_level [C186_patch] 1 1 1 1 1 1 1 1 1 false true.
Example C186_ex : forall rhs fl, exists o v, phase_coefs C186_patch (fun _ _ _ => 1 / 2) (fun _ _ _ => 1) 1 (1 / 32) 1 "d" (fun _ _ _ => 0) = Some o /\
  sfield o 0%Z 0%Z 0%Z = 1 / 2 /\ v 0%Z 0%Z 0%Z = 2 * rhs 0%Z 0%Z 0%Z /\
  exists N, forall n, (N <= n)%nat -> Rabs (smoothErrorByRedBlack C186_level (fun _ _ _ => mk_ghost 1 0 0 0 0) o rhs fl n (-1) (fun _ _ _ => 0) 0%Z 0%Z 0%Z - v 0%Z 0%Z 0%Z) <= 1 / 1000.
Proof.
  intros rhs fl. destruct (phase_coefs C186_patch (fun _ _ _ => 1 / 2) (fun _ _ _ => 1) 1 (1 / 32) 1 "d" (fun _ _ _ => 0)) as [o |] eqn:E; [| discriminate].
  assert (I : inside C186_patch 0 0 0) by (unfold inside; cbn; lia).
  assert (C : cell C186_level 0 0 0) by (exists C186_patch; split; [left; reflexivity | exact I]).
  destruct (phase_block_solvable C186_level (fun _ _ _ => mk_ghost 1 0 0 0 0) C186_patch (fun _ _ _ => 1 / 2) (fun _ _ _ => 1) 1 (1 / 32) 1 1 (fun _ _ _ => 0) o rhs fl) as (v & Sv & _ & Cv);
    try (unfold one_spacing; cbn; lra); try (cbn; lia); try reflexivity; auto.
  - intros i j k _. cbn. split; [rewrite Rabs_R1; lra |]. right. exact C.
  - intros; lra.
  - exists o, v. split; [reflexivity |].
    destruct (phase_coefs_val _ _ _ _ _ _ _ _ _ 0 0 0 E I) as (_ & _ & _ & _ & g & Eg & Es).
    assert (Eh : sfield o 0%Z 0%Z 0%Z = 1 / 2) by (rewrite Es; cbn in Eg; injection Eg as <-; field). split; [exact Eh |].
    assert (W : forall a b c, fill C186_level (fun _ _ _ => mk_ghost 1 0 0 0 0) v a b c = v 0%Z 0%Z 0%Z).
    { intros a b c. destruct (in_level_spec C186_level a b c) as [(p & [<- | []] & (H1 & H2 & H3)) | H].
      - cbn in H1, H2, H3. replace a with 0%Z by lia. replace b with 0%Z by lia. replace c with 0%Z by lia. apply fill_cell. exact C.
      - rewrite fill_ghost by exact H. cbn. ring. }
    pose proof (Sv _ (fill_extends C186_level _ v) 0%Z 0%Z 0%Z C) as Q. unfold operator in Q. rewrite !W, Eh in Q. split; [lra |].
    destruct (Cv (fun _ _ _ => 0) (1 / 1000) ltac:(lra)) as (N & HN). exists N. intros n Hn. exact (HN n Hn 0%Z 0%Z 0%Z C).
Qed.
Example C186_levels_ex : let lv := mk_level [mk_patch 0 0 0 0 0 0 []] 2 2 2 1 1 1 2 2 2 true false in
  exists v, solves (1 / (2 * 1)) (1 / (2 * 1)) (1 / (2 * 1)) lv ex_gh ex_coefs (fun _ _ _ => 4) v /\ v 0%Z 0%Z 0%Z = 1.
Proof.
  intro lv. assert (C : cell lv 0 0 0) by (eexists; split; [left; reflexivity | unfold inside; cbn; lia]).
  destruct (smoothing_converges_levels lv ex_gh ex_coefs (fun _ _ _ => 4) (mk_sides (fun _ _ _ => 0) (fun _ _ _ => 0) (fun _ _ _ => 0)) 1 6) as (v & Sv & _).
  - constructor; constructor.
  - intros p [<- | []]; cbn; lia.
  - reflexivity.
  - unfold spacing. cbn. lra.
  - intros i j k _. cbn. split; [rewrite Rabs_R0; lra | left; reflexivity].
  - split; [lra |]. intros i j k _. cbn. lra.
  - exists v. split; [exact Sv |]. pose proof (Sv _ (fill_extends lv _ v) 0%Z 0%Z 0%Z C) as Q. unfold operator, fill in Q. cbn -[IZR] in Q. lra.
Qed.

(** C187: on a level of one patch, smoothing that ends early has an error of at most tol / c0. *)
Theorem C187_early_end : forall lv gh o rhs fl c0 K p v, patches lv = [p] ->
  nonneg_corners lv -> plain lv -> spacing lv -> tame lv gh -> positive_problem lv o c0 K ->
  solves (1 / (gdx lv * pdx lv)) (1 / (gdy lv * pdy lv)) (1 / (gdz lv * pdz lv)) lv gh o rhs v ->
  forall n tol u E, 0 <= tol -> 0 <= E -> within lv u v E ->
  within lv (smoothErrorByRedBlack lv gh o rhs fl n tol u) v (tol / c0) \/
  within lv (smoothErrorByRedBlack lv gh o rhs fl n tol u) v ((K / (K + c0)) ^ n * E).
Proof. exact early_end_levels. Qed.
Print Assumptions C187_early_end.

Example C187_ex : let lv := mk_level [mk_patch 0 0 0 0 0 0 []] 1 1 1 1 1 1 1 1 1 false true in
  forall fl n tol, 0 <= tol -> Rabs (smoothErrorByRedBlack lv ex_gh ex_coefs (fun _ _ _ => 7) fl n tol (fun _ _ _ => 1) 0%Z 0%Z 0%Z - 1) <= tol.
Proof.
  intros lv fl n tol Ht. assert (C : cell lv 0 0 0) by (eexists; split; [left; reflexivity | unfold inside; cbn; lia]).
  assert (S1 : solves (1 / (gdx lv * pdx lv)) (1 / (gdy lv * pdy lv)) (1 / (gdz lv * pdz lv)) lv ex_gh ex_coefs (fun _ _ _ => 7) (fun _ _ _ => 1)).
  { intros w Hw i j k (p & [<- | []] & (H1 & H2 & H3)). cbn in H1, H2, H3. replace i with 0%Z by lia. replace j with 0%Z by lia. replace k with 0%Z by lia.
    rewrite (extends_fill _ _ _ _ Hw). unfold operator, fill. cbn -[IZR]. field. }
  destruct (early_end_levels lv ex_gh ex_coefs (fun _ _ _ => 7) fl 1 6 (mk_patch 0 0 0 0 0 0 []) (fun _ _ _ => 1)) with (n := n) (tol := tol) (u := fun _ _ _ : Z => 1) (E := 0) as [H | H];
    try reflexivity; try exact S1; try exact Ht; try lra.
  - intros p [<- | []]; cbn; lia.
  - unfold spacing. cbn. lra.
  - intros i j k _. cbn. split; [rewrite Rabs_R0; lra | left; reflexivity].
  - split; [lra |]. intros i j k _. cbn. lra.
  - intros i j k _. rewrite Rminus_eq_0, Rabs_R0. lra.
  - specialize (H 0%Z 0%Z 0%Z C). unfold Rdiv in H. rewrite Rinv_1, Rmult_1_r in H. exact H.
  - specialize (H 0%Z 0%Z 0%Z C). rewrite Rmult_0_r in H. lra.
Qed.

(** C187, negative: with two patches smoothing can end after the first sweep, and however many sweeps are allowed the error stays above tol / c0: the test looks at the residual of the last patch only. *)
Theorem C187_two_patches_refuted : exists lv gh o rhs v tol c0 K u,
  disjoint lv /\ nonneg_corners lv /\ finer lv = false /\ one_spacing lv /\
  tame lv gh /\ positive_problem lv o c0 K /\ solves (1 / (pdx lv * pdx lv)) (1 / (pdy lv * pdy lv)) (1 / (pdz lv * pdz lv)) lv gh o rhs v /\ 0 <= tol /\
  forall fl n, (1 <= n)%nat -> exists i j k, cell lv i j k /\ tol / c0 < Rabs (smoothErrorByRedBlack lv gh o rhs fl n tol u i j k - v i j k) /\
    smoothErrorByRedBlack lv gh o rhs fl n tol u = smoothErrorByRedBlack lv gh o rhs fl 1 tol u.
Proof. exact early_end_two_patches. Qed.
Print Assumptions C187_two_patches_refuted.

(** C188: with equal spacings the residual of a quadratic field with a linear diffusion coefficient is the residual of the differential equation at the centre of the cell. *)
Theorem C188_consistent : forall lv gh o rhs fl res q d0 d1 d2 d3 i j k,
  disjoint lv -> plain lv -> one_spacing lv -> cell lv i j k -> quadratic_problem lv gh o q d0 d1 d2 d3 ->
  level_residual lv gh o rhs fl (quad_cells q (pdx lv) (pdy lv) (pdz lv)) res i j k =
  rhs i j k - continuum (mob o i j k) d0 d1 d2 d3 (sfield o i j k) 1 1 1 q (centre i (pdx lv)) (centre j (pdy lv)) (centre k (pdz lv)).
Proof. exact consistent. Qed.
Print Assumptions C188_consistent.

Example C188_ex : let q := mk_quadratic 1 2 3 4 5 6 7 8 9 10 in forall fl res,
  level_residual ex_level (fun a b c => mk_ghost 0 0 0 0 (quad_cells q 1 1 1 a b c))
    (mk_coefs (linear_x 1 2 3 4 1 1 1) (linear_y 1 2 3 4 1 1 1) (linear_z 1 2 3 4 1 1 1) (fun _ _ _ => 7) (fun _ _ _ => 2)) (fun _ _ _ => 0) fl (quad_cells q 1 1 1) res 1%Z 0%Z 0%Z
  = - (2 * (15 / 2 * 12 + 2 * (3 + 2 + 5 / 2 + 7) + 3 * (6 + 2 + 3 + 8) + 4 * (15 / 2 + 3 + 3 + 9)) + 7 * quad_at q (3 / 2) (1 / 2) (1 / 2)).
Proof.
  intros q fl res. rewrite (consistent ex_level _ _ _ fl res q 1 2 3 4 1 0 0 ex_disjoint).
  - unfold continuum, quad_at, centre, q. cbn -[IZR]. field.
  - reflexivity.
  - apply ex_one.
  - apply ex_cells. lia.
  - split; [intros a b c _; split; reflexivity | repeat split].
Qed.

(** C188: in general the code's fluxes scale the diffusion along each axis by the ratio of the patch spacing to the spacing of the grid geometry. *)
Theorem C188_spacings : forall lv gh o rhs fl res q d0 d1 d2 d3 i j k,
  disjoint lv -> plain lv -> spacing lv -> cell lv i j k -> quadratic_problem lv gh o q d0 d1 d2 d3 ->
  level_residual lv gh o rhs fl (quad_cells q (pdx lv) (pdy lv) (pdz lv)) res i j k =
  rhs i j k - continuum (mob o i j k) d0 d1 d2 d3 (sfield o i j k) (pdx lv / gdx lv) (pdy lv / gdy lv) (pdz lv / gdz lv) q (centre i (pdx lv)) (centre j (pdy lv)) (centre k (pdz lv)).
Proof. exact residual_quadratic. Qed.
Print Assumptions C188_spacings.

(** C188, negative: on a level refined by r > 1 with respect to the coarsest one, fields that solve the differential equation have a residual in every cell. *)
Theorem C188_refined_refuted : forall lv r, disjoint lv -> plain lv -> 0 < pdx lv -> 0 < pdy lv -> 0 < pdz lv -> 1 < r ->
  gdx lv = r * pdx lv -> gdy lv = r * pdy lv -> gdz lv = r * pdz lv ->
  exists gh o q, quadratic_problem lv gh o q 1 0 0 0 /\
    (forall fl res i j k, cell lv i j k ->
       level_residual lv gh o (fun i j k => continuum 1 1 0 0 0 0 1 1 1 q (centre i (pdx lv)) (centre j (pdy lv)) (centre k (pdz lv))) fl
         (quad_cells q (pdx lv) (pdy lv) (pdz lv)) res i j k <> 0) /\
    (forall i j k, mob o i j k = 1 /\ sfield o i j k = 0).
Proof. exact inconsistent_refined. Qed.
Print Assumptions C188_refined_refuted.

Example C188_refined_ex : let lv := mk_level [mk_patch 0 3 0 3 0 3 []] 1 1 1 (1 / 2) (1 / 2) (1 / 2) 2 2 2 true false in
  exists gh o q, (forall fl res i j k, cell lv i j k ->
    level_residual lv gh o (fun i j k => continuum 1 1 0 0 0 0 1 1 1 q (centre i (1 / 2)) (centre j (1 / 2)) (centre k (1 / 2))) fl (quad_cells q (1 / 2) (1 / 2) (1 / 2)) res i j k <> 0) /\
  mob o 0%Z 0%Z 0%Z = 1.
Proof.
  intro lv. destruct (inconsistent_refined lv 2) as (gh & o & q & _ & H & C); try (cbn; lra); [constructor; constructor | reflexivity |].
  exists gh, o, q. split; [exact H | apply C].
Qed.

(** C189: with equal spacings and one diffusion coefficient, the corrected flux through every side of the coarse-fine boundary is exact for linear fields (ghost cells hold the values at the centres of coarse cells). *)
Theorem C189_exact : forall lv p bb o w fl a sx sy sz, ewing lv = true -> finer lv = true -> cf_boundary_ok lv p -> In bb (cf_boundary p) ->
  one_spacing lv -> linear_inside lv p w a sx sy sz -> coarse_ghosts lv p bb w a sx sy sz ->
  (forall i j k, corrects_x p bb i j k -> fx (flux_on_patch lv p o o w fl) i j k = xdc o i j k * sx) /\
  (forall i j k, corrects_y p bb i j k -> fy (flux_on_patch lv p o o w fl) i j k = ydc o i j k * sy) /\
  (forall i j k, corrects_z p bb i j k -> fz (flux_on_patch lv p o o w fl) i j k = zdc o i j k * sz).
Proof. exact ewing_exact. Qed.
Print Assumptions C189_exact.

(** the face below a patch of 2 x 4 x 2 cells, refinement ratios 2, 4 and 2 *)
Definition C189_box : bbox := mk_bbox 4 0 0 (-1) 1 3 (-1).
Definition C189_patch : patch := mk_patch 0 1 0 3 0 1 [C189_box].
Definition C189_w : arr3 := fun i j k => if (k <? 0)%Z then linear_at 1 2 3 4 (coarse_centre i 2 1) (coarse_centre j 4 1) (coarse_centre k 2 1) else linear_at 1 2 3 4 (centre i 1) (centre j 1) (centre k 1).
Lemma C189_ok : forall g h, cf_boundary_ok (mk_level [C189_patch] g g g h h h 2 4 2 true true) C189_patch.
Proof.
  intros g h. unfold cf_boundary_ok, aligned, placed, whole. cbn. repeat split; try lia.
  - intros bb [<- | []]. right. right. cbn. repeat split; lia.
  - repeat constructor.
Qed.
Lemma C189_inside : forall g, linear_inside (mk_level [C189_patch] g g g 1 1 1 2 4 2 true true) C189_patch C189_w 1 2 3 4.
Proof. intros g i j k (H1 & H2 & H3). unfold C189_w. cbn in H1, H2, H3. destruct (Z.ltb_spec k 0); [lia | reflexivity]. Qed.
Lemma C189_ghosts : forall g, coarse_ghosts (mk_level [C189_patch] g g g 1 1 1 2 4 2 true true) C189_patch C189_box C189_w 1 2 3 4.
Proof.
  intros g i j k [[H _] | [[H _] | (H & _ & _)]]; cbn in H; try lia. destruct H as [[_ H] | [H _]]; [| lia].
  unfold C189_w. destruct (Z.ltb_spec k 0); [reflexivity | lia].
Qed.
Example C189_ex : forall fl, fz (flux_on_patch (mk_level [C189_patch] 1 1 1 1 1 1 2 4 2 true true) C189_patch ex_coefs ex_coefs C189_w fl) 0%Z 1%Z 0%Z = -4.
Proof.
  intro fl. destruct (ewing_exact (mk_level [C189_patch] 1 1 1 1 1 1 2 4 2 true true) C189_patch C189_box ex_coefs C189_w fl 1 2 3 4) as (_ & _ & H);
    try reflexivity; try (unfold one_spacing; cbn; lra); auto using C189_ok, C189_inside, C189_ghosts; [left; reflexivity |].
  rewrite H by (unfold corrects_z, along0, along1; cbn; lia). cbn. ring.
Qed.

(** C189, negative: with the grid geometry's spacing, as on every refined level, the corrected fluxes of linear fields are too small by the ratio r to the coarsest level. *)
Theorem C189_spacing_refuted : forall lv p bb o w fl a sx sy sz r, ewing lv = true -> finer lv = true -> cf_boundary_ok lv p -> In bb (cf_boundary p) ->
  0 < pdx lv -> 0 < pdy lv -> 0 < pdz lv -> 1 < r -> gdx lv = r * pdx lv -> gdy lv = r * pdy lv -> gdz lv = r * pdz lv ->
  linear_inside lv p w a sx sy sz -> coarse_ghosts lv p bb w a sx sy sz ->
  (forall i j k, corrects_x p bb i j k -> fx (flux_on_patch lv p o o w fl) i j k = xdc o i j k * sx / r) /\
  (forall i j k, corrects_y p bb i j k -> fy (flux_on_patch lv p o o w fl) i j k = ydc o i j k * sy / r) /\
  (forall i j k, corrects_z p bb i j k -> fz (flux_on_patch lv p o o w fl) i j k = zdc o i j k * sz / r) /\
  (forall d, d <> 0 -> d / r <> d).
Proof. exact ewing_spacing. Qed.
Print Assumptions C189_spacing_refuted.

Example C189_spacing_ex : forall fl, fz (flux_on_patch (mk_level [C189_patch] 2 2 2 1 1 1 2 4 2 true true) C189_patch ex_coefs ex_coefs C189_w fl) 0%Z 1%Z 0%Z = -2.
Proof.
  intro fl. destruct (ewing_spacing (mk_level [C189_patch] 2 2 2 1 1 1 2 4 2 true true) C189_patch C189_box ex_coefs C189_w fl 1 2 3 4 2) as (_ & _ & H & _);
    try reflexivity; try (cbn; lra); auto using C189_ok, C189_inside, C189_ghosts; [left; reflexivity |].
  rewrite H by (unfold corrects_z, along0, along1; cbn; lia). cbn. field.
Qed.

(** C189, negative: the flux of a second component, corrected with the diffusion coefficient of the first, is wrong wherever the two differ and the field varies along the side. *)
Theorem C189_component_refuted : forall lv p bb o o0 w fl a sx sy sz i j k, ewing lv = true -> finer lv = true -> cf_boundary_ok lv p -> In bb (cf_boundary p) ->
  one_spacing lv -> linear_inside lv p w a sx sy sz -> coarse_ghosts lv p bb w a sx sy sz -> corrects_x p bb i j k ->
  sy * (centre j (pdy lv) - coarse_centre j (ratio1 lv) (pdy lv)) + sz * (centre k (pdz lv) - coarse_centre k (ratio2 lv) (pdz lv)) <> 0 ->
  xdc o i j k <> xdc o0 i j k ->
  fx (flux_on_patch lv p o o0 w fl) i j k <> xdc o i j k * sx.
Proof. exact ewing_component. Qed.
Print Assumptions C189_component_refuted.

(** a face normal to x of a patch of 2 x 2 x 2 cells *)
Definition C189_xbox : bbox := mk_bbox 1 2 0 0 2 1 1.
Definition C189_xpatch : patch := mk_patch 0 1 0 1 0 1 [C189_xbox].
Definition C189_xw : arr3 := fun i j k => if (1 <? i)%Z then linear_at 1 2 3 4 (coarse_centre i 2 1) (coarse_centre j 2 1) (coarse_centre k 2 1) else linear_at 1 2 3 4 (centre i 1) (centre j 1) (centre k 1).
Example C189_component_ex : forall fl, fx (flux_on_patch (mk_level [C189_xpatch] 1 1 1 1 1 1 2 2 2 true true) C189_xpatch
    (mk_coefs (fun _ _ _ => -5) (fun _ _ _ => -5) (fun _ _ _ => -5) (fun _ _ _ => 1) (fun _ _ _ => 1)) ex_coefs C189_xw fl) 2%Z 1%Z 0%Z <> -10.
Proof.
  intros fl E. apply (ewing_component (mk_level [C189_xpatch] 1 1 1 1 1 1 2 2 2 true true) C189_xpatch C189_xbox
      (mk_coefs (fun _ _ _ => -5) (fun _ _ _ => -5) (fun _ _ _ => -5) (fun _ _ _ => 1) (fun _ _ _ => 1)) ex_coefs C189_xw fl 1 2 3 4 2 1 0).
  - reflexivity.
  - reflexivity.
  - unfold cf_boundary_ok, aligned, placed, whole. cbn. repeat split; try lia.
    + intros bb [<- | []]. left. cbn. repeat split; lia.
    + repeat constructor.
  - left; reflexivity.
  - unfold one_spacing; cbn; lra.
  - intros i j k (H1 & H2 & H3). unfold C189_xw. cbn in H1, H2, H3. destruct (Z.ltb_spec 1 i); [lia | reflexivity].
  - intros i j k [(H & _ & _) | [[H _] | [H _]]]; cbn in H; try lia. destruct H as [[H _] | [_ H]]; [lia |].
    unfold C189_xw. destruct (Z.ltb_spec 1 i); [reflexivity | lia].
  - unfold corrects_x, along1, along2; cbn; lia.
  - unfold centre, coarse_centre. cbn. lra.
  - cbn. lra.
  - rewrite E. cbn. ring.
Qed.
