(** Proofs about the energy evaluation. *)
From Coq Require Import Reals ZArith List Bool Ascii Lia Lra FunctionalExtensionality.
From Verif Require Import Grid_Model Grid_Spec Grid_Proofs Functions_Model Energy_Model Energy_Spec.
Import ListNotations.
Open Scope R_scope.

(** the densities of the code and of the specification *)
Lemma aniso_density : forall pr b p i j, 0 < anisotropy pr -> aniso_e pr b p i j = phase_density pr b p i j.
Proof.
  intros pr b p i j H. unfold aniso_e, phase_density, central. destruct (Rlt_dec 0 (anisotropy pr)); [| lra]. cbv zeta.
  assert (E : forall h a, a * (1 / 2 / h) = a / (2 * h)). { intros h a. unfold Rdiv. rewrite Rinv_mult. ring. }
  rewrite !E.
  set (gx := (ephi b (i + 1)%Z j p - ephi b (i - 1)%Z j p) / (2 * edx b)).
  set (gy := (ephi b i (j + 1)%Z p - ephi b i (j - 1)%Z p) / (2 * edy b)).
  replace (1 / 2 * PI) with (PI / 2) by field.
  assert (Q : (if Rlt_dec (if Rlt_dec 1 (equat b i j 1%Z) then 1 else equat b i j 1%Z) (-1) then -1 else (if Rlt_dec 1 (equat b i j 1%Z) then 1 else equat b i j 1%Z))
     = Rmax (-1) (Rmin 1 (equat b i j 1%Z))).
  { unfold Rmax, Rmin. repeat (destruct (Rlt_dec _ _) || destruct (Rle_dec _ _)); try lra. }
  rewrite Q. field.
Qed.
Lemma iso_density : forall pr b p i j, ~ 0 < anisotropy pr -> iso_e pr b p i j = phase_density pr b p i j.
Proof.
  intros pr b p i j H. unfold iso_e, phase_density, second. destruct (Rlt_dec 0 (anisotropy pr)); [contradiction |]. cbv zeta.
  replace (edx b ^ 2) with (edx b * edx b) by ring. replace (edy b ^ 2) with (edy b * edy b) by ring. unfold Rdiv.
  generalize (/ (edx b * edx b)) (/ (edy b * edy b)). intros u v. field.
Qed.
Lemma grad2_sq : forall pr g i j, grad2 pr g i j = sq_grad (depth pr) g i j.
Proof.
  intros pr g i j. unfold grad2, sq_grad.
  rewrite (do_loop_ext _ _ _ _ (fun n o => o + sumZ 1 (depth pr) (fun m => g i j m n ^ 2))).
  - rewrite loop_sum. ring.
  - intros n o _. rewrite loop_sum. f_equal. apply sumZ_ext. intros m _. ring.
Qed.
Lemma orient_density_eq : forall pr b p i j, 0 < misorientation pr -> orient_e pr b p i j = orient_density pr b p i j.
Proof.
  intros pr b p i j H. unfold orient_e, orient_density, side_p. destruct (Rlt_dec 0 (misorientation pr)); [| contradiction]. cbv zeta.
  rewrite !grad2_sq. replace (gradient_floor pr * gradient_floor pr) with (gradient_floor pr ^ 2) by ring. field.
Qed.
Lemma qint_density_eq : forall pr b p i j, 0 < misorientation pr -> qint_e pr b p i j = qint_density pr b p i j.
Proof.
  intros pr b p i j H. unfold qint_e, qint_density. destruct (Rlt_dec 0 (misorientation pr)); [| contradiction]. cbv zeta.
  set (F := fun (n m : Z) => egx b i j m n ^ 2 + egx b (i + 1)%Z j m n ^ 2 + egy b i j m n ^ 2 + egy b i (j + 1)%Z m n ^ 2).
  rewrite (do_loop_ext _ _ _ _ (fun n o => o + sumZ 1 (depth pr) (F n))).
  2:{ intros n o _. rewrite loop_sum. f_equal. apply sumZ_ext. intros m _. unfold F. ring. }
  rewrite loop_sum.
  assert (E : sumZ 1 2 (fun n => sumZ 1 (depth pr) (F n)) =
    sq_grad (depth pr) (egx b) i j + sq_grad (depth pr) (egx b) (i + 1)%Z j + sq_grad (depth pr) (egy b) i j + sq_grad (depth pr) (egy b) i (j + 1)%Z).
  { unfold sq_grad. rewrite <- !sumZ_plus. apply sumZ_ext. intros n _. rewrite <- !sumZ_plus. apply sumZ_ext. intros m _. unfold F. ring. }
  rewrite E. field.
Qed.

(** one pass over the cells *)
Definition in_b (b : epatch) (i j : Z) : bool := inb (elo0 b) (ehi0 b) i && inb (elo1 b) (ehi1 b) j.
Definition only (pc : bool) (v : R) : R := if pc then v else 0.
Lemma put_add : forall pc en i j e a c, put pc en i j e a c = en a c + (if ((i =? a) && (j =? c))%Z then only pc e else 0).
Proof.
  intros pc en i j e a c. destruct pc; cbn [put only].
  - rewrite upd2_add. rewrite (Z.eqb_sym a i), (Z.eqb_sym c j). reflexivity.
  - destruct ((i =? a) && (j =? c))%Z; ring.
Qed.
Lemma pass_energy : forall add e_of pr b s a c,
  snd (cell_pass add e_of pr b s) a c = snd s a c + (if in_b b a c then only (per_cell pr) (e_of a c) else 0).
Proof.
  intros add e_of pr b s a c. unfold cell_pass, in_b. rewrite <- (sum_box_single _ _ _ _ a c (fun i j => only (per_cell pr) (e_of i j))).
  apply (obs_cells est (fun s => snd s a c)). intros i j s' _. cbn [snd]. apply put_add.
Qed.
Lemma pass_total : forall (get : totals -> R) (k : R) add e_of pr b s, (forall w e t, get (add w e t) = get t + k * (w * e)) ->
  get (fst (cell_pass add e_of pr b s)) = get (fst s) + k * over b e_of.
Proof.
  intros get k add e_of pr b s H. unfold cell_pass, over.
  rewrite <- sum_box_scal. apply (obs_cells est (fun s => get (fst s))). intros i j s' _. cbn [fst]. apply H.
Qed.
(** the same for loops of passes over the phases *)
Lemma over_sum : forall b n (f : Z -> Z -> Z -> R), sumZ 1 n (fun p => over b (f p)) = over b (fun i j => sumZ 1 n (fun p => f p i j)).
Proof.
  intros b n f. unfold over, sum_box. rewrite sumZ_swap. apply sumZ_ext. intros j _.
  rewrite sumZ_swap. apply sumZ_ext. intros i _. apply sumZ_scal.
Qed.
Lemma only_sum : forall n pc (f : Z -> R) (c : bool), sumZ 1 n (fun p => if c then only pc (f p) else 0) = if c then only pc (sumZ 1 n f) else 0.
Proof. intros n pc f c. destruct c, pc; cbn [only]; auto; apply sumZ_zero. Qed.

Lemma clear_energy_spec : forall pc b en a c, clear_energy pc b en a c = if (pc && in_b b a c)%bool then 0 else en a c.
Proof. intros [] b en a c; cbn [clear_energy andb]; [| reflexivity]. unfold in_b. apply (cells_loop _ _ _ _ (fun _ _ _ => 0)). Qed.
Lemma interface_total : forall e_of pr b en, fst (interface_energy e_of pr b en) = over b (all_phases pr e_of).
Proof.
  intros e_of pr b en. unfold interface_energy, all_phases. rewrite <- over_sum. rewrite <- (Rplus_0_l (sumZ _ _ _)).
  apply (obs_loop (R * arr2) fst 1 (nphases pr) (fun p => over b (e_of p))). intros p s _.
  unfold over. apply (obs_cells (R * arr2) fst). intros i j s' _. cbn [fst]. ring.
Qed.
Lemma interface_map : forall e_of pr b en a c, snd (interface_energy e_of pr b en) a c =
  clear_energy (per_cell pr) b en a c + (if in_b b a c then only (per_cell pr) (all_phases pr e_of a c) else 0).
Proof.
  intros e_of pr b en a c. unfold interface_energy, all_phases. rewrite <- only_sum.
  apply (obs_loop (R * arr2) (fun s => snd s a c) 1 (nphases pr) (fun p => if in_b b a c then only (per_cell pr) (e_of p a c) else 0)).
  intros p s _. unfold in_b. rewrite <- (sum_box_single _ _ _ _ a c (fun i j => only (per_cell pr) (e_of p i j))).
  apply (obs_cells (R * arr2) (fun s => snd s a c)). intros i j s' _. cbn [snd]. apply put_add.
Qed.
Lemma all_ext : forall pr f g i j, (forall p, f p i j = g p i j) -> all_phases pr f i j = all_phases pr g i j.
Proof. intros pr f g i j H. apply sumZ_ext. intros p _. apply H. Qed.
Lemma over_ext : forall b f g, (forall i j, f i j = g i j) -> over b f = over b g.
Proof. intros b f g H. apply sumZ_ext. intros j _. apply sumZ_ext. intros i _. rewrite H. reflexivity. Qed.
Lemma over_plus : forall b f g, over b (fun i j => f i j + g i j) = over b f + over b g.
Proof.
  intros b f g. unfold over. rewrite <- sum_box_plus. apply sumZ_ext. intros j _. apply sumZ_ext. intros i _. ring.
Qed.
Lemma over_zero : forall b, over b (fun _ _ => 0) = 0.
Proof.
  intro b. unfold over, sum_box. rewrite (sumZ_ext _ _ _ (fun _ => 0)); [apply sumZ_zero |]. intros j _.
  rewrite (sumZ_ext _ _ _ (fun _ => 0)); [apply sumZ_zero |]. intros i _. ring.
Qed.

(** the two optional stages *)
Definition phase_stage (pr : eparams) (b : epatch) (en : arr2) : R * arr2 :=
  if Rlt_dec 0 (anisotropy pr) then interface_energy (aniso_e pr b) pr b en else interface_energy (iso_e pr b) pr b en.
Lemma phase_stage_total : forall pr b en, fst (phase_stage pr b en) = over b (all_phases pr (phase_density pr b)).
Proof.
  intros pr b en. unfold phase_stage. destruct (Rlt_dec 0 (anisotropy pr)); rewrite interface_total; apply over_ext; intros i j;
    apply all_ext; intro p; [apply aniso_density | apply iso_density]; auto.
Qed.
Lemma phase_stage_map : forall pr b en a c, snd (phase_stage pr b en) a c =
  clear_energy (per_cell pr) b en a c + (if in_b b a c then only (per_cell pr) (all_phases pr (phase_density pr b) a c) else 0).
Proof.
  intros pr b en a c. unfold phase_stage. destruct (Rlt_dec 0 (anisotropy pr)); rewrite interface_map; f_equal;
    (destruct (in_b b a c); [f_equal; apply all_ext; intro p | reflexivity]); [apply aniso_density | apply iso_density]; auto.
Qed.
Definition orient_stage (pr : eparams) (b : epatch) (s : est) : est :=
  if Rlt_dec 0 (misorientation pr) then
      do_loop 1 (nphases pr) (fun p (s : est) =>
        cell_pass add_qint (qint_e pr b p) pr b (cell_pass add_orient (orient_e pr b p) pr b s)) s
    else s.
Lemma orient_stage_total : forall (get : totals -> R) k l pr b s,
  (forall w e t, get (add_orient w e t) = get t + k * (w * e)) -> (forall w e t, get (add_qint w e t) = get t + l * (w * e)) ->
  get (fst (orient_stage pr b s)) = get (fst s) + k * over b (all_phases pr (orient_density pr b)) + l * over b (all_phases pr (qint_density pr b)).
Proof.
  intros get k l pr b s Hk Hl. unfold orient_stage. destruct (Rlt_dec 0 (misorientation pr)) as [M | M].
  - rewrite (obs_loop est (fun s => get (fst s)) 1 (nphases pr) (fun p => k * over b (orient_density pr b p) + l * over b (qint_density pr b p))).
    + rewrite sumZ_plus, !sumZ_scal. unfold all_phases. rewrite !over_sum. ring.
    + intros p s' _. rewrite (pass_total get l) by auto. rewrite (pass_total get k) by auto.
      rewrite (over_ext b (orient_e pr b p) (orient_density pr b p)) by (intros; apply orient_density_eq; auto).
      rewrite (over_ext b (qint_e pr b p) (qint_density pr b p)) by (intros; apply qint_density_eq; auto). ring.
  - rewrite (over_ext b (all_phases pr (orient_density pr b)) (fun _ _ => 0)), (over_ext b (all_phases pr (qint_density pr b)) (fun _ _ => 0)).
    + rewrite over_zero. ring.
    + intros i j. unfold all_phases, qint_density. destruct (Rlt_dec 0 (misorientation pr)); [contradiction |]. apply sumZ_zero.
    + intros i j. unfold all_phases, orient_density. destruct (Rlt_dec 0 (misorientation pr)); [contradiction |]. apply sumZ_zero.
Qed.
Lemma orient_stage_map : forall pr b s a c, snd (orient_stage pr b s) a c = snd s a c +
  (if in_b b a c then only (per_cell pr) (all_phases pr (orient_density pr b) a c + all_phases pr (qint_density pr b) a c) else 0).
Proof.
  intros pr b s a c. unfold orient_stage, all_phases. destruct (Rlt_dec 0 (misorientation pr)) as [M | M].
  - rewrite <- sumZ_plus, <- only_sum.
    apply (obs_loop est (fun s => snd s a c) 1 (nphases pr) (fun p => if in_b b a c then only (per_cell pr) (orient_density pr b p a c + qint_density pr b p a c) else 0)).
    intros p s' _. rewrite !pass_energy. rewrite <- orient_density_eq, <- qint_density_eq by auto. destruct (in_b b a c), (per_cell pr); cbn [only]; ring.
  - unfold qint_density, orient_density. destruct (Rlt_dec 0 (misorientation pr)); [contradiction |]. rewrite !sumZ_zero.
    destruct (in_b b a c), (per_cell pr); cbn [only]; ring.
Qed.
Lemma well_loop_total : forall (get : totals -> R) k pr b s, (forall w e t, get (add_well w e t) = get t + k * (w * e)) ->
  get (fst (do_loop 1 (nphases pr) (fun p (s : est) => cell_pass add_well (well_e pr b p) pr b s) s)) =
  get (fst s) + k * over b (all_phases pr (well_density pr b)).
Proof.
  intros get k pr b s H. unfold all_phases. rewrite <- over_sum, <- sumZ_scal.
  apply (obs_loop est (fun s => get (fst s)) 1 (nphases pr) (fun p => k * over b (well_density pr b p))). intros p s' _.
  apply (pass_total get k). auto.
Qed.
Lemma well_loop_map : forall pr b s a c, snd (do_loop 1 (nphases pr) (fun p (s : est) => cell_pass add_well (well_e pr b p) pr b s) s) a c =
  snd s a c + (if in_b b a c then only (per_cell pr) (all_phases pr (well_density pr b) a c) else 0).
Proof.
  intros pr b s a c. unfold all_phases. rewrite <- only_sum.
  apply (obs_loop est (fun s => snd s a c) 1 (nphases pr) (fun p => if in_b b a c then only (per_cell pr) (well_density pr b p a c) else 0)).
  intros p s' _. apply pass_energy.
Qed.
Lemma quatenergy_stages : forall pr b s, quatenergy pr b s =
  let r := phase_stage pr b (snd s) in let t := fst s in
  let s := orient_stage pr b (mk_totals (t_energy t + fst r) (t_phase t + fst r) (t_orient t) (t_qint t) (t_well t) (t_free t), snd r) in
  let t := fst s in
  do_loop 1 (nphases pr) (fun p (s : est) => cell_pass add_well (well_e pr b p) pr b s)
    (mk_totals (t_energy t) (t_phase t) (t_orient t) (t_qint t) 0 (t_free t), snd s).
Proof. reflexivity. Qed.

Ltac adds k := match goal with |- forall _ _ _, _ = _ => intros; cbn [add_orient add_qint add_well add_free t_energy t_phase t_orient t_qint t_well t_free]; ring end.
Lemma patch_totals : forall pr b t en, fst (evaluate_patch pr b t en) =
  mk_totals (t_energy t + over b (density pr b)) (t_phase t + over b (all_phases pr (phase_density pr b)))
    (t_orient t + over b (all_phases pr (orient_density pr b))) (t_qint t + over b (all_phases pr (qint_density pr b)))
    (over b (all_phases pr (well_density pr b))) (over b (bulk_density pr b)).
Proof.
  intros pr b t en. unfold evaluate_patch, bulkenergy. rewrite quatenergy_stages. cbv zeta. cbn [fst snd].
  set (r := phase_stage pr b en).
  set (s1 := orient_stage pr b _).
  set (s2 := do_loop 1 (nphases pr) _ _).
  assert (X : forall t', t' = mk_totals (t_energy t') (t_phase t') (t_orient t') (t_qint t') (t_well t') (t_free t')) by (intros []; reflexivity).
  rewrite (X (fst (cell_pass _ _ _ _ _))).
  rewrite (pass_total t_energy 1) by adds 1. rewrite (pass_total t_phase 0) by adds 1. rewrite (pass_total t_orient 0) by adds 1.
  rewrite (pass_total t_qint 0) by adds 1. rewrite (pass_total t_well 0) by adds 1. rewrite (pass_total t_free 1) by adds 1.
  cbn [fst snd t_energy t_phase t_orient t_qint t_well t_free]. unfold s2.
  rewrite (well_loop_total t_energy 1) by adds 1. rewrite (well_loop_total t_phase 0) by adds 1. rewrite (well_loop_total t_orient 0) by adds 1.
  rewrite (well_loop_total t_qint 0) by adds 1. rewrite (well_loop_total t_well 1) by adds 1.
  cbn [fst snd t_energy t_phase t_orient t_qint t_well t_free]. unfold s1.
  rewrite (orient_stage_total t_energy 1 1) by adds 1. rewrite (orient_stage_total t_phase 0 0) by adds 1.
  rewrite (orient_stage_total t_orient 1 0) by adds 1. rewrite (orient_stage_total t_qint 0 1) by adds 1.
  cbn [fst snd t_energy t_phase t_orient t_qint t_well t_free]. unfold r. rewrite phase_stage_total.
  change (bulk_e pr b) with (bulk_density pr b). unfold density. rewrite !over_plus. f_equal; ring.
Qed.
Lemma patch_map : forall pr b t en a c, snd (evaluate_patch pr b t en) a c =
  if (per_cell pr && in_b b a c)%bool then density pr b a c else en a c.
Proof.
  intros pr b t en a c. unfold evaluate_patch, bulkenergy. rewrite quatenergy_stages. cbv zeta. cbn [fst snd].
  rewrite pass_energy. cbn [snd]. rewrite well_loop_map. cbn [snd]. rewrite orient_stage_map. cbn [snd]. rewrite phase_stage_map, clear_energy_spec.
  change (bulk_e pr b) with (bulk_density pr b). unfold density. destruct (per_cell pr), (in_b b a c); cbn [only andb]; ring.
Qed.

(** sums over patches and ranks *)
Lemma over_patches_app : forall f ps qs, over_patches f (ps ++ qs) = over_patches f ps + over_patches f qs.
Proof. intros f ps qs. induction ps as [| p ps IH]; cbn [over_patches app]; [ring | rewrite IH; ring]. Qed.
Lemma over_ranks_concat : forall f rs, over_ranks f rs = over_patches f (concat rs).
Proof. intros f rs. induction rs as [| r rs IH]; cbn [over_ranks concat]; [reflexivity |]. rewrite over_patches_app, IH. reflexivity. Qed.
Lemma rank_totals : forall pr ps, evaluate_rank pr ps =
  mk_totals (over_patches (density pr) ps) (over_patches (fun b => all_phases pr (phase_density pr b)) ps)
    (over_patches (fun b => all_phases pr (orient_density pr b)) ps) (over_patches (fun b => all_phases pr (qint_density pr b)) ps)
    (over_last (fun b => all_phases pr (well_density pr b)) ps) (over_last (bulk_density pr) ps).
Proof.
  intros pr ps. unfold evaluate_rank. rewrite <- (rev_involutive ps). set (qs := rev ps). clearbody qs.
  induction qs as [| q qs IH]; [reflexivity |].
  cbn [rev]. rewrite fold_left_app. cbn [fold_left]. rewrite IH. rewrite patch_totals.
  cbn [t_energy t_phase t_orient t_qint t_well t_free]. rewrite !over_patches_app. cbn [over_patches].
  unfold over_last. rewrite !rev_app_distr. cbn [rev app]. f_equal; ring.
Qed.
Lemma energy_totals : forall pr rs t, evaluateEnergy pr rs = Some t ->
  t_energy t = over_ranks (density pr) rs /\
  t_phase t = over_ranks (fun b => all_phases pr (phase_density pr b)) rs /\
  t_orient t = over_ranks (fun b => all_phases pr (orient_density pr b)) rs /\
  t_qint t = over_ranks (fun b => all_phases pr (qint_density pr b)) rs.
Proof.
  intros pr rs t H. unfold evaluateEnergy in H. destruct (supported pr); [| discriminate].
  assert (E : t = fold_right (fun ps t => plus_totals (evaluate_rank pr ps) t) zero_totals rs) by congruence. subst t. clear H.
  induction rs as [| r rs (A & B & C & D)]; [repeat split; reflexivity |].
  cbn [fold_right plus_totals t_energy t_phase t_orient t_qint over_ranks]. rewrite rank_totals.
  cbn [t_energy t_phase t_orient t_qint]. rewrite A, B, C, D. repeat split; reflexivity.
Qed.
Lemma energy_lasts : forall pr rs t, evaluateEnergy pr rs = Some t ->
  t_well t = over_lasts (fun b => all_phases pr (well_density pr b)) rs /\ t_free t = over_lasts (bulk_density pr) rs.
Proof.
  intros pr rs t H. unfold evaluateEnergy in H. destruct (supported pr); [| discriminate].
  assert (E : t = fold_right (fun ps t => plus_totals (evaluate_rank pr ps) t) zero_totals rs) by congruence. subst t. clear H.
  induction rs as [| r rs (A & B)]; [repeat split; reflexivity |].
  cbn [fold_right plus_totals t_well t_free over_lasts]. rewrite rank_totals.
  cbn [t_well t_free]. rewrite A, B. repeat split; reflexivity.
Qed.
Lemma energy_defined : forall pr rs, (exists t, evaluateEnergy pr rs = Some t) <-> supported pr = true.
Proof.
  intros pr rs. unfold evaluateEnergy. destruct (supported pr); split; intro H; eauto; [destruct H; discriminate | discriminate].
Qed.

Lemma energy_names : forall pr rs, (exists t, evaluateEnergy pr rs = Some t) <->
  In (phi_interp pr) ["q"; "p"; "h"; "w"; "l"; "m"; "3"; "s"; "c"]%char /\ In (orient1 pr) ["q"; "p"; "h"; "w"; "l"; "m"; "3"; "s"; "c"]%char /\
  In (orient2 pr) ["q"; "p"; "h"; "w"; "l"; "m"; "3"; "s"; "c"]%char /\ In (phi_well pr) ["d"; "s"]%char /\ In (avg_type pr) ["a"; "h"]%char.
Proof.
  assert (I : forall c, (exists v, interp_func 0 c = Some v) <-> In c ["q"; "p"; "h"; "w"; "l"; "m"; "3"; "s"; "c"]%char).
  { intros c. split; [|intros H; repeat destruct H as [<-|H]; try contradiction; cbn; eauto]. intros (v & E).
    destruct c as [b0 b1 b2 b3 b4 b5 b6 b7]. destruct b0, b1, b2, b3, b4, b5, b6, b7; try discriminate E; clear; cbn; intuition. }
  assert (W : forall c, (exists v, well_func 0 c = Some v) <-> In c ["d"; "s"]%char).
  { intros c. split; [|intros H; repeat destruct H as [<-|H]; try contradiction; cbn; eauto]. intros (v & E).
    destruct c as [b0 b1 b2 b3 b4 b5 b6 b7]. destruct b0, b1, b2, b3, b4, b5, b6, b7; try discriminate E; clear; cbn; intuition. }
  assert (A : forall c, (exists v, average_func 0 0 c = Some v) <-> In c ["a"; "h"]%char).
  { intros c. split; [|intros H; repeat destruct H as [<-|H]; try contradiction; cbn; eauto]. intros (v & E).
    destruct c as [b0 b1 b2 b3 b4 b5 b6 b7]. destruct b0, b1, b2, b3, b4, b5, b6, b7; try discriminate E; clear; cbn; intuition. }
  intros pr rs. rewrite <- !I, <- W, <- A, energy_defined. unfold supported.
  destruct (interp_func 0 (phi_interp pr)); [|split; [discriminate|intros ((v & E) & _); discriminate]].
  destruct (well_func 0 (phi_well pr)); [|split; [discriminate|intros (_ & _ & _ & (v & E) & _); discriminate]].
  destruct (interp_func 0 (orient1 pr)); [|split; [discriminate|intros (_ & (v & E) & _); discriminate]].
  destruct (interp_func 0 (orient2 pr)); [|split; [discriminate|intros (_ & _ & (v & E) & _); discriminate]].
  destruct (average_func 0 0 (avg_type pr)); [|split; [discriminate|intros (_ & _ & _ & _ & (v & E)); discriminate]].
  split; [intros _; repeat split; eauto|auto].
Qed.

(** cutting a patch into pieces *)
From Verif Require Import Weights_Model Weights_Spec Weights_Proofs.
Lemma sum_box_cells : forall lo0 hi0 lo1 hi1 f, sum_box lo0 hi0 lo1 hi1 f = sum_cells ((lo0, hi0), (lo1, hi1), (0, 0)%Z) (fun i j _ => f i j).
Proof. intros. unfold sum_cells, sum_box3. cbn [fst snd]. rewrite (sumZ_cons 0 0) by lia. rewrite (sumZ_empty (0 + 1) 0) by lia. unfold sum_box. ring. Qed.
Lemma sum_box_flip : forall a0 a1 a2 a3 b0 b1 b2 b3 f,
  sum_box a0 a1 a2 a3 (fun i j => if inb b0 b1 i && inb b2 b3 j then f i j else 0) =
  sum_box b0 b1 b2 b3 (fun i j => if inb a0 a1 i && inb a2 a3 j then f i j else 0).
Proof.
  intros. rewrite !sum_box_cells.
  pose proof (cells_flip ((a0, a1), (a2, a3), (0, 0)%Z) ((b0, b1), (b2, b3), (0, 0)%Z) (fun i j _ => f i j)) as F.
  assert (E : forall c0 c1 c2 c3 d0 d1 d2 d3, sum_cells ((d0, d1), (d2, d3), (0, 0)%Z) (fun i j k => if box_in ((c0, c1), (c2, c3), (0, 0)%Z) i j k then f i j else 0) =
     sum_cells ((d0, d1), (d2, d3), (0, 0)%Z) (fun i j _ => if inb c0 c1 i && inb c2 c3 j then f i j else 0)).
  { intros. unfold sum_cells, sum_box3. cbn [fst snd]. apply sumZ_ext. intros k Hk. apply sumZ_ext. intros j _. apply sumZ_ext. intros i _.
    unfold box_in, iv_in, inb. cbn [fst snd]. replace k with 0%Z by lia. rewrite andb_true_r. reflexivity. }
  rewrite !E in F. exact F.
Qed.
Lemma holds_inb : forall i j p, holds_cell i j p = in_b (fst p) i j.
Proof. intros i j p. unfold holds_cell, in_b, inb. rewrite !andb_assoc. reflexivity. Qed.
Lemma count_patches : forall b ps g, (forall p i j, In p ps -> holds_cell i j p = true -> in_b b i j = true) ->
  fold_right (fun p v => sum_box (elo0 (fst p)) (ehi0 (fst p)) (elo1 (fst p)) (ehi1 (fst p)) g + v) 0 ps =
  sum_box (elo0 b) (ehi0 b) (elo1 b) (ehi1 b) (fun i j => INR (length (filter (holds_cell i j) ps)) * g i j).
Proof.
  intros b ps g. induction ps as [| p ps IH]; intro H.
  - cbn [fold_right filter length INR]. rewrite (sum_box_scal _ _ _ _ 0 g). ring.
  - cbn [fold_right]. rewrite IH by (intros q i j Hq; apply H; right; auto).
    replace (sum_box (elo0 (fst p)) (ehi0 (fst p)) (elo1 (fst p)) (ehi1 (fst p)) g) with (sum_box (elo0 (fst p)) (ehi0 (fst p)) (elo1 (fst p)) (ehi1 (fst p)) (fun i j => if in_b b i j then g i j else 0)).
    2:{ apply sumZ_ext. intros j Hj. apply sumZ_ext. intros i Hi. rewrite (H p i j); [reflexivity | left; reflexivity |].
        rewrite holds_inb. unfold in_b. destruct (inb_spec (elo0 (fst p)) (ehi0 (fst p)) i); [| lia]. destruct (inb_spec (elo1 (fst p)) (ehi1 (fst p)) j); [reflexivity | lia]. }
    unfold in_b. rewrite sum_box_flip. rewrite <- sum_box_plus. apply sumZ_ext. intros j _. apply sumZ_ext. intros i _.
    cbn [filter]. rewrite holds_inb. unfold in_b.
    destruct (inb (elo0 (fst p)) (ehi0 (fst p)) i && inb (elo1 (fst p)) (ehi1 (fst p)) j); cbn [length]; rewrite ?S_INR; ring.
Qed.
(** the fields of a patch determine a density *)
Definition local_density (f : epatch -> Z -> Z -> R) : Prop := forall b p i j, piece_of b p -> f p i j = f b i j.
Lemma cut_sum : forall f b rs, local_density f -> cuts b rs -> over_ranks f rs = over b (f b).
Proof.
  intros f b rs L [P C]. rewrite over_ranks_concat. set (ps := concat rs) in *. clearbody ps.
  set (g := fun i j => eweight b i j * f b i j).
  assert (E : over_patches f ps = fold_right (fun p v => sum_box (elo0 (fst p)) (ehi0 (fst p)) (elo1 (fst p)) (ehi1 (fst p)) g + v) 0 ps).
  { clear C. induction P as [| p ps Hp P IH]; [reflexivity |]. cbn [over_patches fold_right]. rewrite IH. f_equal. unfold over, g.
    apply sumZ_ext. intros j _. apply sumZ_ext. intros i _. rewrite (L b (fst p) i j Hp). destruct Hp as (_ & _ & _ & _ & _ & _ & _ & W & _). rewrite W. reflexivity. }
  rewrite E. rewrite (count_patches b).
  - unfold over. apply sumZ_ext. intros j Hj. apply sumZ_ext. intros i Hi. rewrite C, holds_inb. cbn [fst]. unfold in_b.
    destruct (inb_spec (elo0 b) (ehi0 b) i); [| lia]. destruct (inb_spec (elo1 b) (ehi1 b) j); [| lia]. cbn [andb INR]. unfold g. ring.
  - intros p i j Hp Hc. specialize (C i j). rewrite holds_inb in C. cbn [fst] in C. destruct (in_b b i j); [reflexivity | exfalso].
    assert (In p (filter (holds_cell i j) ps)) by (apply filter_In; auto). destruct (filter (holds_cell i j) ps); [destruct H | discriminate].
Qed.
Lemma local_phase : forall pr, local_density (fun b => all_phases pr (phase_density pr b)).
Proof. intros pr b p i j (A & B & C & D & _). apply sumZ_ext. intros q _. unfold phase_density. rewrite A, B, C, D. reflexivity. Qed.
Lemma local_orient : forall pr, local_density (fun b => all_phases pr (orient_density pr b)).
Proof. intros pr b p i j (A & B & C & D & E & F & G & _). apply sumZ_ext. intros q _. unfold orient_density. rewrite C, E, F, G. reflexivity. Qed.
Lemma local_qint : forall pr, local_density (fun b => all_phases pr (qint_density pr b)).
Proof. intros pr b p i j (A & B & C & D & E & F & G & _). apply sumZ_ext. intros q _. unfold qint_density. rewrite C, E, F. reflexivity. Qed.
Lemma local_well : forall pr, local_density (fun b => all_phases pr (well_density pr b)).
Proof. intros pr b p i j (A & B & C & D & E & F & G & _). apply sumZ_ext. intros q _. unfold well_density. rewrite C. reflexivity. Qed.
Lemma local_bulk : forall pr, local_density (bulk_density pr).
Proof. intros pr b p i j (A & B & C & D & E & F & G & W & X & Y). unfold bulk_density. rewrite C, X, Y. reflexivity. Qed.
Lemma local_all : forall pr, local_density (density pr).
Proof.
  intros pr b p i j H. unfold density. rewrite (local_phase pr b p i j H), (local_orient pr b p i j H), (local_qint pr b p i j H),
    (local_well pr b p i j H), (local_bulk pr b p i j H). reflexivity.
Qed.
Lemma energy_cuts : forall pr b rs t, cuts b rs -> evaluateEnergy pr rs = Some t ->
  t_energy t = over b (density pr b) /\ t_phase t = over b (all_phases pr (phase_density pr b)) /\
  t_orient t = over b (all_phases pr (orient_density pr b)) /\ t_qint t = over b (all_phases pr (qint_density pr b)).
Proof.
  intros pr b rs t C H. destruct (energy_totals pr rs t H) as (E1 & E2 & E3 & E4). rewrite E1, E2, E3, E4.
  rewrite (cut_sum _ b rs (local_all pr) C), (cut_sum _ b rs (local_phase pr) C), (cut_sum _ b rs (local_orient pr) C), (cut_sum _ b rs (local_qint pr) C).
  repeat split; reflexivity.
Qed.
(** one patch per rank: nothing is lost *)
Lemma single_lasts : forall f rs, Forall (fun r => (length r <= 1)%nat) rs -> over_lasts f rs = over_ranks f rs.
Proof.
  intros f rs H. induction H as [| r rs L H IH]; [reflexivity |]. cbn [over_lasts over_ranks]. rewrite IH. f_equal.
  destruct r as [| p [| q r]]; [reflexivity | cbn; ring | cbn in L; lia].
Qed.
Lemma energy_single : forall pr b rs t, cuts b rs -> Forall (fun r => (length r <= 1)%nat) rs -> evaluateEnergy pr rs = Some t ->
  t_well t = over b (all_phases pr (well_density pr b)) /\ t_free t = over b (bulk_density pr b).
Proof.
  intros pr b rs t C S H. destruct (energy_lasts pr rs t H) as (E1 & E2). rewrite E1, E2, !single_lasts by auto.
  rewrite (cut_sum _ b rs (local_well pr) C), (cut_sum _ b rs (local_bulk pr) C). split; reflexivity.
Qed.

(** pair energies *)
Lemma pair_index_inj : forall n p1 p2 q1 q2, (1 <= p2 <= n)%Z -> (1 <= q2 <= n)%Z -> (n * (p1 - 1) + p2 = n * (q1 - 1) + q2)%Z -> p1 = q1 /\ p2 = q2.
Proof. intros n p1 p2 q1 q2 H1 H2 E. assert (p1 = q1) by nia. subst. lia. Qed.
Lemma pair_density_eq : forall gamma m b p1 p2 i j, pair_e gamma m b p1 p2 i j = pair_density gamma m p1 p2 b i j.
Proof. intros. unfold pair_e, pair_density. field. Qed.
Definition pair_body (gamma m : R) (pc : bool) (n : Z) (b : epatch) (p2 p1 : Z) (s : pair_state) : pair_state :=
    let ix := (n * (p1 - 1) + p2)%Z in
    do_cells (elo0 b) (ehi0 b) (elo1 b) (ehi1 b) (fun i j (s : pair_state) =>
      let e := pair_e gamma m b p1 p2 i j in
      (set1 (fst s) ix (fst s ix + e * eweight b i j), if pc then upd2 (snd s) i j e else snd s))
    (set1 (fst s) ix 0, snd s).
Lemma phiphi_body : forall gamma m pc n b s, phiphi_interfacialenergy gamma m pc n b s =
  do_cells 1 n 1 n (pair_body gamma m pc n b) (fst s, clear_energy pc b (snd s)).
Proof. reflexivity. Qed.
Lemma pair_body_other : forall gamma m pc n b p2 p1 s k, (k <> n * (p1 - 1) + p2)%Z -> fst (pair_body gamma m pc n b p2 p1 s) k = fst s k.
Proof.
  intros gamma m pc n b p2 p1 s k H. unfold pair_body. cbv zeta.
  rewrite (obs_cells pair_state (fun s => fst s k) _ _ _ _ (fun _ _ => 0)).
  - cbn [fst]. unfold set1. destruct (Z.eqb_spec k (n * (p1 - 1) + p2)%Z); [contradiction |].
    unfold sum_box. rewrite (sumZ_ext _ _ _ (fun _ => 0)) by (intros; apply sumZ_zero). rewrite sumZ_zero. ring.
  - intros i j s' _. cbn [fst]. unfold set1. destruct (Z.eqb_spec k (n * (p1 - 1) + p2)%Z); [contradiction | ring].
Qed.
Lemma pair_body_same : forall gamma m pc n b p2 p1 s, fst (pair_body gamma m pc n b p2 p1 s) (n * (p1 - 1) + p2)%Z = over b (pair_density gamma m p1 p2 b).
Proof.
  intros gamma m pc n b p2 p1 s. unfold pair_body, over. cbv zeta.
  rewrite (obs_cells pair_state (fun s => fst s (n * (p1 - 1) + p2)%Z) _ _ _ _ (fun i j => eweight b i j * pair_density gamma m p1 p2 b i j)).
  - cbn [fst]. unfold set1. rewrite Z.eqb_refl. ring.
  - intros i j s' _. cbn [fst]. unfold set1. rewrite Z.eqb_refl, pair_density_eq. ring.
Qed.
Lemma pair_patch : forall gamma m pc n b s p1 p2, (1 <= p1 <= n)%Z -> (1 <= p2 <= n)%Z ->
  fst (phiphi_interfacialenergy gamma m pc n b s) (n * (p1 - 1) + p2)%Z = over b (pair_density gamma m p1 p2 b).
Proof.
  intros gamma m pc n b s p1 p2 H1 H2. rewrite phiphi_body.
  destruct (cells_once pair_state (fun s s' => fst s (n * (p1 - 1) + p2)%Z = fst s' (n * (p1 - 1) + p2)%Z) 1 n 1 n p2 p1 (pair_body gamma m pc n b)
    (fst s, clear_energy pc b (snd s))) as (s0 & _ & E).
  - reflexivity.
  - intros x y z A B. congruence.
  - split; auto.
  - intros i j s' [Hi Hj] N. rewrite pair_body_other; [reflexivity |]. intro E. apply pair_index_inj in E; auto. destruct E; lia.
  - rewrite <- E. apply pair_body_same.
Qed.
Lemma pair_lasts : forall gamma m pc n ps p1 p2, (1 <= p1 <= n)%Z -> (1 <= p2 <= n)%Z ->
  evaluatePairEnergy gamma m pc n ps (n * (p1 - 1) + p2)%Z = over_last (pair_density gamma m p1 p2) ps.
Proof.
  intros gamma m pc n ps p1 p2 H1 H2. unfold evaluatePairEnergy, over_last. rewrite <- (rev_involutive ps) at 1.
  destruct (rev ps) as [| p qs]; [reflexivity |]. cbn [rev]. rewrite fold_left_app. cbn [fold_left]. apply pair_patch; auto.
Qed.
Lemma pair_map : forall gamma m n b s i j, (1 <= n)%Z -> in_box (elo0 b) (ehi0 b) (elo1 b) (ehi1 b) i j ->
  snd (phiphi_interfacialenergy gamma m true n b s) i j = pair_density gamma m n n b i j.
Proof.
  intros gamma m n b s i j Hn Hb. rewrite phiphi_body. unfold do_cells. rewrite do_loop_snoc by auto. rewrite do_loop_snoc by auto.
  set (s0 := do_loop 1 (n - 1) _ _). unfold pair_body. cbv zeta.
  match goal with |- context [do_cells _ _ _ _ ?bd ?st] =>
    destruct (cells_once pair_state (fun s s' => snd s i j = snd s' i j) (elo0 b) (ehi0 b) (elo1 b) (ehi1 b) i j bd st) as (s1 & _ & E) end.
  - reflexivity.
  - intros x y z A B. congruence.
  - auto.
  - intros a c s' _ N. cbn [snd]. unfold upd2. destruct (Z.eqb_spec i a); destruct (Z.eqb_spec j c); cbn [andb]; auto. lia.
  - rewrite <- E. cbn [snd]. unfold upd2. rewrite !Z.eqb_refl. cbn [andb]. apply pair_density_eq.
Qed.
Lemma pair_symmetric : forall gamma m pc n ps p1 p2, (1 <= p1 <= n)%Z -> (1 <= p2 <= n)%Z ->
  evaluatePairEnergy gamma m pc n ps (n * (p1 - 1) + p2)%Z = evaluatePairEnergy gamma m pc n ps (n * (p2 - 1) + p1)%Z.
Proof.
  intros. rewrite !pair_lasts by auto. unfold over_last. destruct (rev ps); [reflexivity |]. apply over_ext. intros i j. unfold pair_density. ring.
Qed.

(** a 2 x 1 patch, phase 1/2 everywhere, well scale 1, f_l = f_a = 1; one patch, or two patches of one cell on one rank *)
Definition pr_ex (wells : R) : eparams := mk_eparams 1 1 1 1 0 4 0 wells false "p" "d" "p" "p" "a" "s" 0.
Definition b_ex (lo hi : Z) : epatch :=
  mk_epatch lo hi 0 0 1 1 (fun _ _ _ => 1 / 2) (fun _ _ _ => 0) (fun _ _ _ _ => 0) (fun _ _ _ _ => 0) (fun _ _ => 1) (fun _ _ => 1) (fun _ _ => 1) (fun _ _ => 1).
Definition none : arr2 := fun _ _ => 0.
Definition one_patch : list (list (epatch * arr2)) := [[(b_ex 0 1, none)]].
Definition two_patches : list (list (epatch * arr2)) := [[(b_ex 0 0, none); (b_ex 1 1, none)]].
Lemma cuts_one : cuts (b_ex 0 1) one_patch.
Proof.
  split.
  - cbn [concat one_patch app]. repeat constructor.
  - intros i j. cbn [concat one_patch app filter]. unfold holds_cell. cbn [fst b_ex elo0 ehi0 elo1 ehi1].
    destruct ((0 <=? i) && (i <=? 1) && (0 <=? j) && (j <=? 0))%Z%bool; reflexivity.
Qed.
Lemma cuts_two : cuts (b_ex 0 1) two_patches.
Proof.
  split.
  - cbn [concat two_patches app]. repeat constructor.
  - intros i j. cbn [concat two_patches app filter]. unfold holds_cell. cbn [fst b_ex elo0 ehi0 elo1 ehi1].
    destruct (Z.leb_spec 0 i); destruct (Z.leb_spec i 0); destruct (Z.leb_spec 1 i); destruct (Z.leb_spec i 1); destruct (Z.leb_spec 0 j); destruct (Z.leb_spec j 0);
      cbn [andb length]; try reflexivity; lia.
Qed.
Lemma sum_one : forall f : Z -> R, sumZ 0 1 f = f 0%Z + f 1%Z.
Proof. intro f. rewrite (sumZ_cons 0 1) by lia. rewrite (sumZ_cons (0 + 1) 1) by lia. rewrite (sumZ_empty (0 + 1 + 1) 1) by lia. change (0 + 1)%Z with 1%Z. ring. Qed.
Lemma sum_at : forall k (f : Z -> R), sumZ k k f = f k.
Proof. intros k f. rewrite sumZ_cons by lia. rewrite (sumZ_empty (k + 1) k) by lia. ring. Qed.
Lemma well_ex : forall lo hi i j, all_phases (pr_ex 1) (well_density (pr_ex 1) (b_ex lo hi)) i j = 1.
Proof.
  intros lo hi i j. unfold all_phases. cbn [nphases pr_ex]. rewrite sum_at. unfold well_density. cbn [well_scale phi_well pr_ex ephi b_ex].
  unfold well_func. cbn [Ascii.eqb Bool.eqb]. cbn. lra.
Qed.
Lemma bulk_ex : forall lo hi i j, bulk_density (pr_ex 1) (b_ex lo hi) i j = 1.
Proof. intros lo hi i j. unfold bulk_density. cbn [phi_interp pr_ex ephi b_ex efl efa]. ring. Qed.
Lemma over_ex : forall lo hi f, (lo = hi \/ (lo = 0 /\ hi = 1))%Z -> (forall i j, f i j = 1) -> over (b_ex lo hi) f = IZR (hi - lo + 1).
Proof.
  intros lo hi f L F. unfold over, sum_box. cbn [elo0 ehi0 elo1 ehi1 eweight b_ex]. rewrite sum_at. destruct L as [<- | [-> ->]].
  - rewrite sum_at, F. replace (lo - lo + 1)%Z with 1%Z by lia. ring.
  - rewrite sum_one, !F. cbn. ring.
Qed.
Lemma well_free_lost : exists pr b rs rs' t t', cuts b rs /\ cuts b rs' /\ evaluateEnergy pr rs = Some t /\ evaluateEnergy pr rs' = Some t' /\
  t_energy t' = t_energy t /\ t_well t = 2 /\ t_well t' = 1 /\ t_free t = 2 /\ t_free t' = 1 /\
  t_well t = over b (all_phases pr (well_density pr b)) /\ t_free t = over b (bulk_density pr b).
Proof.
  destruct (proj2 (energy_defined (pr_ex 1) one_patch) ltac:(reflexivity)) as [t H].
  destruct (proj2 (energy_defined (pr_ex 1) two_patches) ltac:(reflexivity)) as [t' H'].
  exists (pr_ex 1), (b_ex 0 1), one_patch, two_patches, t, t'.
  destruct (energy_cuts _ _ _ _ cuts_one H) as (E & _). destruct (energy_cuts _ _ _ _ cuts_two H') as (E' & _).
  destruct (energy_lasts _ _ _ H) as (W & F). destruct (energy_lasts _ _ _ H') as (W' & F').
  cbn [over_lasts one_patch two_patches] in W, F, W', F'. unfold over_last in W, F, W', F'. cbn [rev app fst] in W, F, W', F'.
  assert (OW : forall lo hi, (lo = hi \/ (lo = 0 /\ hi = 1))%Z -> over (b_ex lo hi) (all_phases (pr_ex 1) (well_density (pr_ex 1) (b_ex lo hi))) = IZR (hi - lo + 1))
    by (intros lo hi L; apply over_ex; [exact L | intros; apply well_ex]).
  assert (OB : forall lo hi, (lo = hi \/ (lo = 0 /\ hi = 1))%Z -> over (b_ex lo hi) (bulk_density (pr_ex 1) (b_ex lo hi)) = IZR (hi - lo + 1))
    by (intros lo hi L; apply over_ex; [exact L | intros; apply bulk_ex]).
  rewrite OW in W, W' by lia. rewrite OB in F, F' by lia. cbn in W, F, W', F'.
  split; [exact cuts_one | split; [exact cuts_two | split; [exact H | split; [exact H' |]]]].
  rewrite E, E', W, F, W', F'. rewrite OW, OB by lia. cbn. repeat split; lra.
Qed.
(** two order parameters: the map holds phi2^4 (the last pair) only, and one patch of the two is lost *)
Lemma pair_map_lost : exists b i j, in_box (elo0 b) (ehi0 b) (elo1 b) (ehi1 b) i j /\
  snd (phiphi_interfacialenergy 1 2 true 2 b (fun _ => 0, none)) i j = 1 / 16 /\ pair_sum 1 2 2 b i j = 1 / 4.
Proof.
  exists (b_ex 0 0), 0%Z, 0%Z. assert (B : in_box (elo0 (b_ex 0 0)) (ehi0 (b_ex 0 0)) (elo1 (b_ex 0 0)) (ehi1 (b_ex 0 0)) 0 0) by (cbn; split; lia).
  split; [exact B | split].
  - rewrite pair_map by (auto; lia). unfold pair_density. cbn [ephi b_ex]. field.
  - unfold pair_sum. assert (T : forall f, sumZ 1 2 f = f 1%Z + f 2%Z).
    { intro f. rewrite (sumZ_cons 1 2) by lia. rewrite (sumZ_cons (1 + 1) 2) by lia. rewrite (sumZ_empty (1 + 1 + 1) 2) by lia. change (1 + 1)%Z with 2%Z. ring. }
    rewrite !T.
    unfold pair_density. cbn [ephi b_ex]. field.
Qed.
Lemma pair_lost : exists ps ps', cuts (b_ex 0 1) [ps] /\ cuts (b_ex 0 1) [ps'] /\
  evaluatePairEnergy 1 2 false 2 ps 2 = 1 / 8 /\ evaluatePairEnergy 1 2 false 2 ps' 2 = 1 / 16 /\
  over (b_ex 0 1) (pair_density 1 2 1 2 (b_ex 0 1)) = 1 / 8.
Proof.
  exists [(b_ex 0 1, none)], [(b_ex 0 0, none); (b_ex 1 1, none)].
  split; [exact cuts_one | split; [exact cuts_two |]].
  assert (X : forall ps, evaluatePairEnergy 1 2 false 2 ps 2 = over_last (pair_density 1 2 1 2) ps).
  { intro ps. apply (pair_lasts 1 2 false 2 ps 1 2); lia. }
  rewrite !X. unfold over_last. cbn [rev app fst].
  unfold over, sum_box. cbn [elo0 ehi0 elo1 ehi1 eweight b_ex]. rewrite !sum_at, !sum_one. unfold pair_density. cbn [ephi b_ex]. repeat split; field.
Qed.
