(** Proofs about the energy evaluation in three dimensions. *)
From Coq Require Import Reals ZArith List Bool Ascii Lia Lra FunctionalExtensionality.
From Verif Require Import Grid_Model Grid_Spec Grid_Proofs Functions_Model Functions_Proofs Quat_Model Quat_Spec Quat_Proofs.
From Verif Require Import Trap3_Model Trap3_Spec Trap3_Proofs Energy_Model Energy3_Model Energy3_Spec.
From Verif Require Flow3_Model Flow3_Spec Flow3_Proofs Energy_Spec Energy_Proofs Smooth_Proofs PhaseFlow_Proofs.
Import ListNotations.
Open Scope R_scope.

(** ** sums over boxes *)
Lemma sum_box3_single : forall lo0 hi0 lo1 hi1 lo2 hi2 a b c (v : Z -> Z -> Z -> R),
  sum_box3 lo0 hi0 lo1 hi1 lo2 hi2 (fun i j k => if ((i =? a) && (j =? b) && (k =? c))%Z then v i j k else 0) =
  if inb lo0 hi0 a && inb lo1 hi1 b && inb lo2 hi2 c then v a b c else 0.
Proof.
  intros. unfold sum_box3.
  rewrite (sumZ_ext lo2 hi2 _ (fun k => if (k =? c)%Z then (if inb lo0 hi0 a && inb lo1 hi1 b then v a b k else 0) else 0)).
  - rewrite (sumZ_single lo2 hi2 c (fun k => if inb lo0 hi0 a && inb lo1 hi1 b then v a b k else 0)).
    destruct (inb lo0 hi0 a && inb lo1 hi1 b); destruct (inb lo2 hi2 c); reflexivity.
  - intros k _. destruct (Z.eqb_spec k c) as [-> | N].
    + rewrite <- (sum_box_single lo0 hi0 lo1 hi1 a b (fun i j => v i j c)). apply sumZ_ext. intros j _. apply sumZ_ext. intros i _.
      rewrite andb_true_r. reflexivity.
    + rewrite (sumZ_ext lo1 hi1 _ (fun _ => 0)); [apply sumZ_zero |]. intros j _.
      rewrite (sumZ_ext lo0 hi0 _ (fun _ => 0)); [apply sumZ_zero |]. intros i _. rewrite andb_false_r. reflexivity.
Qed.
Lemma upd3_gain : forall (f : arr3) i j k v a b c, upd3 f i j k (f i j k + v) a b c = f a b c + (if ((i =? a) && (j =? b) && (k =? c))%Z then v else 0).
Proof.
  intros f i j k v a b c. unfold upd3. rewrite (Z.eqb_sym i a), (Z.eqb_sym j b), (Z.eqb_sym k c).
  destruct (Z.eqb_spec a i) as [-> |]; destruct (Z.eqb_spec b j) as [-> |]; destruct (Z.eqb_spec c k) as [-> |]; cbn [andb]; ring.
Qed.
Definition in_b3 (b : epatch3) (i j k : Z) : bool :=
  inb (xl (zbox b)) (xu (zbox b)) i && inb (yl (zbox b)) (yu (zbox b)) j && inb (zl (zbox b)) (zu (zbox b)) k.
Definition only (pc : bool) (v : R) : R := if pc then v else 0.
Lemma put3_add : forall pc en i j k e a b c, put3 pc en i j k e a b c = en a b c + (if ((i =? a) && (j =? b) && (k =? c))%Z then only pc e else 0).
Proof.
  intros pc en i j k e a b c. destruct pc; cbn [put3 only]; [apply upd3_gain |].
  destruct ((i =? a) && (j =? b) && (k =? c))%Z; ring.
Qed.
Lemma obs_patch : forall S (obs : S -> R) b (C : arr3) (body : Z -> Z -> Z -> S -> S) s,
  (forall i j k s, obs (body i j k s) = obs s + C i j k) ->
  obs (patch_cells b body s) = obs s + sum_box3 (xl (zbox b)) (xu (zbox b)) (yl (zbox b)) (yu (zbox b)) (zl (zbox b)) (zu (zbox b)) C.
Proof. intros S obs b C body s H. unfold patch_cells. apply (obs_cells3 S obs). intros. apply H. Qed.

(** one pass over the cells *)
Lemma pass3_energy : forall add e_of pr b s a c d,
  snd (cell_pass3 add e_of pr b s) a c d = snd s a c d + (if in_b3 b a c d then only (per_cell pr) (e_of a c d) else 0).
Proof.
  intros. unfold cell_pass3, in_b3. rewrite <- (sum_box3_single _ _ _ _ _ _ a c d (fun i j k => only (per_cell pr) (e_of i j k))).
  apply (obs_patch est3 (fun s => snd s a c d)). intros i j k s'. cbn [snd]. apply put3_add.
Qed.
Lemma pass3_total : forall (get : totals -> R) (m : R) add e_of pr b s, (forall w e t, get (add w e t) = get t + m * (w * e)) ->
  get (fst (cell_pass3 add e_of pr b s)) = get (fst s) + m * over3 b e_of.
Proof.
  intros get m add e_of pr b s H. unfold cell_pass3, over3.
  rewrite <- sum_box3_scal. apply (obs_patch est3 (fun s => get (fst s))). intros i j k s'. cbn [fst]. apply H.
Qed.
Lemma over3_ext : forall b f g, (forall i j k, f i j k = g i j k) -> over3 b f = over3 b g.
Proof. intros b f g H. apply sum_box3_ext. intros. rewrite H. reflexivity. Qed.
Lemma over3_in : forall b f g, (forall i j k, in_patch3 b i j k -> f i j k = g i j k) -> over3 b f = over3 b g.
Proof. intros b f g H. apply sum_box3_ext. intros i j k I. rewrite H; auto. Qed.
Lemma over3_plus : forall b f g, over3 b (fun i j k => f i j k + g i j k) = over3 b f + over3 b g.
Proof. intros. unfold over3. rewrite <- sum_box3_plus. apply sum_box3_ext. intros. ring. Qed.
Lemma over3_scal : forall b c f, over3 b (fun i j k => c * f i j k) = c * over3 b f.
Proof. intros. unfold over3. rewrite <- sum_box3_scal. apply sum_box3_ext. intros. ring. Qed.
Lemma over3_zero : forall b, over3 b (fun _ _ _ => 0) = 0.
Proof. intro b. rewrite <- (over3_ext b (fun i j k => 0 * 0) (fun _ _ _ => 0)) by (intros; ring). rewrite over3_scal. ring. Qed.
Lemma over3_sum : forall b n (f : Z -> arr3), sumZ 1 n (fun p => over3 b (f p)) = over3 b (fun i j k => sumZ 1 n (fun p => f p i j k)).
Proof.
  intros b n f. unfold over3, sum_box3. rewrite sumZ_swap. apply sumZ_ext. intros k _. rewrite sumZ_swap. apply sumZ_ext. intros j _.
  rewrite sumZ_swap. apply sumZ_ext. intros i _. apply sumZ_scal.
Qed.
Lemma only_sum : forall n pc (f : Z -> R) (c : bool), sumZ 1 n (fun p => if c then only pc (f p) else 0) = if c then only pc (sumZ 1 n f) else 0.
Proof. intros n pc f c. destruct c, pc; cbn [only]; auto; apply sumZ_zero. Qed.

(** ** the densities of the code and of the specification *)
Lemma inv_half : forall h a, a * (1 / 2 / h) = a / (2 * h).
Proof. intros h a. unfold Rdiv. rewrite Rinv_mult. ring. Qed.
Lemma n4_val : forall q gx gy gz, 0 < gx ^ 2 + gy ^ 2 + gz ^ 2 ->
  let r := sqrt (gx ^ 2 + gy ^ 2 + gz ^ 2) in let t := Flow3_Spec.turned q gx gy gz in
  compute_n4 q (Q4 0 (gx * (1 / r)) (gy * (1 / r)) (gz * (1 / r))) =
  (t 1%Z ^ 4 + t 2%Z ^ 4 + t 3%Z ^ 4) / (gx ^ 2 + gy ^ 2 + gz ^ 2) ^ 2.
Proof.
  intros q gx gy gz P r t. unfold Rdiv at 1 2 3. rewrite !Rmult_1_l.
  change (compute_n4 q (Q4 0 (gx * / r) (gy * / r) (gz * / r))) with
    (snd (Flow3_Model.compute_dgamma q (Flow3_Proofs.pure (gx * / r) (gy * / r) (gz * / r)))).
  unfold r. rewrite (Flow3_Proofs.dgamma_components gx gy gz q P). reflexivity.
Qed.
Lemma aniso_density3 : forall pr b p i j k, regular pr -> 0 < anisotropy pr -> aniso_e3 pr b p i j k = phase_density3 pr b p i j k.
Proof.
  intros pr b p i j k Hr H. unfold aniso_e3, phase_density3, crystal_density. destruct (Rlt_dec 0 (anisotropy pr)); [| contradiction]. cbv zeta.
  rewrite !inv_half.
  change ((zphi (zf b) (i + 1)%Z j k p - zphi (zf b) (i - 1)%Z j k p) / (2 * hx (zbox b))) with (Flow3_Spec.cdx (zbox b) (phase_of b p) i j k).
  change ((zphi (zf b) i (j + 1)%Z k p - zphi (zf b) i (j - 1)%Z k p) / (2 * hy (zbox b))) with (Flow3_Spec.cdy (zbox b) (phase_of b p) i j k).
  change ((zphi (zf b) i j (k + 1)%Z p - zphi (zf b) i j (k - 1)%Z p) / (2 * hz (zbox b))) with (Flow3_Spec.cdz (zbox b) (phase_of b p) i j k).
  generalize (Flow3_Spec.cdx (zbox b) (phase_of b p) i j k) (Flow3_Spec.cdy (zbox b) (phase_of b p) i j k) (Flow3_Spec.cdz (zbox b) (phase_of b p) i j k).
  intros gx gy gz. replace (gx * gx + gy * gy + gz * gz) with (gx ^ 2 + gy ^ 2 + gz ^ 2) by ring.
  pose proof (pow2_ge_0 gx). pose proof (pow2_ge_0 gy). pose proof (pow2_ge_0 gz). rewrite Rabs_right by lra.
  pose proof Flow3_Proofs.threshold3_pos as T. unfold Flow3_Proofs.threshold3 in T. specialize (Hr H).
  destruct (Rlt_dec (1 / 10 ^ 12) (gx ^ 2 + gy ^ 2 + gz ^ 2)) as [L | L].
  - rewrite n4_val by lra. unfold Flow3_Spec.cubic_density, Flow3_Spec.cubic_gamma.
    set (s := (_ + _ + _) / (_ + _ + _) ^ 2). replace (4 * anisotropy pr * (_ + _ + _) / (_ + _ + _) ^ 2) with (4 * anisotropy pr * s) by (unfold s, Rdiv; ring).
    clearbody s. field. lra.
  - field. lra.
Qed.
Lemma iso_density3 : forall pr b p i j k, ~ 0 < anisotropy pr -> iso_e3 pr b p i j k = phase_density3 pr b p i j k.
Proof.
  intros pr b p i j k H. unfold iso_e3, phase_density3, laplace3, phase_of. destruct (Rlt_dec 0 (anisotropy pr)); [contradiction |]. cbv zeta.
  unfold Rdiv. generalize (/ hx (zbox b) ^ 2) (/ hy (zbox b) ^ 2) (/ hz (zbox b) ^ 2). intros u v w. field.
Qed.
Lemma grad3_sq : forall pr g i j k, grad3 pr g i j k = sq_grad3 (depth pr) g i j k.
Proof.
  intros pr g i j k. unfold grad3, sq_grad3. rewrite sumZ_swap.
  rewrite (do_loop_ext _ _ _ _ (fun m o => o + sumZ 1 3 (fun n => g i j k m n ^ 2))).
  - rewrite loop_sum. ring.
  - intros m o _. rewrite loop_sum. f_equal. apply sumZ_ext. intros n _. ring.
Qed.
Lemma orient3_eq : forall pr b i j k, 0 < misorientation pr -> orient_e3 pr b i j k = orient_density3 0 pr b i j k.
Proof.
  intros pr b i j k H. unfold orient_e3, orient_density3, side_p3, floor_sq, phase_of. destruct (Rlt_dec 0 (misorientation pr)); [| contradiction]. cbv zeta.
  rewrite !grad3_sq. replace (gradient_floor pr * gradient_floor pr) with (gradient_floor pr ^ 2) by ring.
  rewrite (average_symmetric (zphi (zf b) (i - 1)%Z j k 1%Z)), (average_symmetric (zphi (zf b) i (j - 1)%Z k 1%Z)).
  rewrite (Rplus_0_r (sq_grad3 (depth pr) (zgy (zf b)) i (j + 1)%Z k)). field.
Qed.
Lemma qint3_eq : forall pr b i j k, 0 < misorientation pr -> qint_e3 pr b i j k = qint_density3 pr b i j k.
Proof.
  intros pr b i j k H. unfold qint_e3, qint_density3. destruct (Rlt_dec 0 (misorientation pr)); [| contradiction]. cbv zeta.
  set (f := zf b).
  set (F := fun (m n : Z) => zgx f i j k m n ^ 2 + zgx f (i + 1)%Z j k m n ^ 2 + zgy f i j k m n ^ 2 + zgy f i (j + 1)%Z k m n ^ 2
                             + zgz f i j k m n ^ 2 + zgz f i j (k + 1)%Z m n ^ 2).
  rewrite (do_loop_ext _ _ _ _ (fun m o => o + sumZ 1 3 (F m))).
  2:{ intros m o _. rewrite loop_sum. f_equal. apply sumZ_ext. intros n _. unfold F. ring. }
  rewrite loop_sum.
  assert (E : sumZ 1 (depth pr) (fun m => sumZ 1 3 (F m)) =
    sq_grad3 (depth pr) (zgx f) i j k + sq_grad3 (depth pr) (zgx f) (i + 1)%Z j k + sq_grad3 (depth pr) (zgy f) i j k + sq_grad3 (depth pr) (zgy f) i (j + 1)%Z k
    + sq_grad3 (depth pr) (zgz f) i j k + sq_grad3 (depth pr) (zgz f) i j (k + 1)%Z).
  { unfold sq_grad3. rewrite <- !sumZ_plus. rewrite sumZ_swap. apply sumZ_ext. intros n _. rewrite <- !sumZ_plus. reflexivity. }
  rewrite E. unfold phase_of. fold f. field.
Qed.

(** ** one patch *)
Lemma clear3_spec : forall pc b en i j k, clear_energy3 pc b en i j k = if (pc && in_b3 b i j k)%bool then 0 else en i j k.
Proof.
  intros [] b en i j k; cbn [clear_energy3 andb]; [| reflexivity]. unfold patch_cells, in_b3.
  apply (cells3_loop _ _ _ _ _ _ (fun _ _ _ _ => 0)).
Qed.
Lemma interface3_total : forall e_of pr b en, fst (interface_energy3 e_of pr b en) = over3 b (all_phases3 pr e_of).
Proof.
  intros e_of pr b en. unfold interface_energy3, all_phases3. rewrite <- over3_sum. rewrite <- (Rplus_0_l (sumZ _ _ _)).
  apply (obs_loop (R * arr3) fst 1 (nphases pr) (fun p => over3 b (e_of p))). intros p s _.
  unfold over3. apply (obs_patch (R * arr3) fst). intros i j k s'. cbn [fst]. ring.
Qed.
Lemma interface3_map : forall e_of pr b en i j k, snd (interface_energy3 e_of pr b en) i j k =
  clear_energy3 (per_cell pr) b en i j k + (if in_b3 b i j k then only (per_cell pr) (all_phases3 pr e_of i j k) else 0).
Proof.
  intros e_of pr b en a c d. unfold interface_energy3, all_phases3. rewrite <- only_sum.
  apply (obs_loop (R * arr3) (fun s => snd s a c d) 1 (nphases pr) (fun p => if in_b3 b a c d then only (per_cell pr) (e_of p a c d) else 0)).
  intros p s _. unfold in_b3. rewrite <- (sum_box3_single _ _ _ _ _ _ a c d (fun i j k => only (per_cell pr) (e_of p i j k))).
  apply (obs_patch (R * arr3) (fun s => snd s a c d)). intros i j k s'. cbn [snd]. apply put3_add.
Qed.
Lemma all3_ext : forall pr f g i j k, (forall p, f p i j k = g p i j k) -> all_phases3 pr f i j k = all_phases3 pr g i j k.
Proof. intros pr f g i j k H. apply sumZ_ext. intros p _. apply H. Qed.
Definition phase_stage3 (pr : eparams) (b : epatch3) (en : arr3) : R * arr3 :=
  if Rlt_dec 0 (anisotropy pr) then interface_energy3 (aniso_e3 pr b) pr b en else interface_energy3 (iso_e3 pr b) pr b en.
Lemma phase3_total : forall pr b en, regular pr -> fst (phase_stage3 pr b en) = over3 b (all_phases3 pr (phase_density3 pr b)).
Proof.
  intros pr b en Hr. unfold phase_stage3. destruct (Rlt_dec 0 (anisotropy pr)); rewrite interface3_total; apply over3_ext; intros i j k;
    apply all3_ext; intro p; [apply aniso_density3 | apply iso_density3]; auto.
Qed.
Lemma phase3_map : forall pr b en i j k, regular pr -> snd (phase_stage3 pr b en) i j k =
  clear_energy3 (per_cell pr) b en i j k + (if in_b3 b i j k then only (per_cell pr) (all_phases3 pr (phase_density3 pr b) i j k) else 0).
Proof.
  intros pr b en i j k Hr. unfold phase_stage3. destruct (Rlt_dec 0 (anisotropy pr)); rewrite interface3_map; f_equal;
    (destruct (in_b3 b i j k); [f_equal; apply all3_ext; intro p | reflexivity]); [apply aniso_density3 | apply iso_density3]; auto.
Qed.
Definition orient_stage3 (pr : eparams) (b : epatch3) (s : est3) : est3 :=
  if Rlt_dec 0 (misorientation pr) then
      let t := fst s in
      let s : est3 := (mk_totals (t_energy t) (t_phase t) 0 (t_qint t) (t_well t) (t_free t), snd s) in
      let s := cell_pass3 add_orient (orient_e3 pr b) pr b s in
      let t := fst s in
      let s : est3 := (mk_totals (t_energy t) (t_phase t) (t_orient t) 0 (t_well t) (t_free t), snd s) in
      cell_pass3 add_qint (qint_e3 pr b) pr b s
    else s.
Lemma totals_eta : forall t, t = mk_totals (t_energy t) (t_phase t) (t_orient t) (t_qint t) (t_well t) (t_free t).
Proof. intros []; reflexivity. Qed.
Ltac adds := match goal with |- forall _ _ _, _ = _ => intros; cbn [add_orient add_qint add_well add_free t_energy t_phase t_orient t_qint t_well t_free]; ring end.
Definition if_pos (m x y : R) : R := if Rlt_dec 0 m then x else y.
Lemma no_orient : forall fy pr b i j k, ~ 0 < misorientation pr -> orient_density3 fy pr b i j k = 0.
Proof. intros fy pr b i j k H. unfold orient_density3. destruct (Rlt_dec 0 (misorientation pr)); [contradiction | reflexivity]. Qed.
Lemma no_qint : forall pr b i j k, ~ 0 < misorientation pr -> qint_density3 pr b i j k = 0.
Proof. intros pr b i j k H. unfold qint_density3. destruct (Rlt_dec 0 (misorientation pr)); [contradiction | reflexivity]. Qed.
Lemma orient3_total : forall pr b s, fst (orient_stage3 pr b s) =
  let t := fst s in let m := misorientation pr in
  mk_totals (t_energy t + over3 b (orient_density3 0 pr b) + over3 b (qint_density3 pr b)) (t_phase t)
    (if_pos m (over3 b (orient_density3 0 pr b)) (t_orient t)) (if_pos m (over3 b (qint_density3 pr b)) (t_qint t)) (t_well t) (t_free t).
Proof.
  intros pr b s. unfold orient_stage3, if_pos. cbv zeta. destruct (Rlt_dec 0 (misorientation pr)) as [M | M].
  - rewrite (totals_eta (fst (cell_pass3 _ _ _ _ _))).
    rewrite (pass3_total t_energy 1 add_qint) by adds. rewrite (pass3_total t_phase 0 add_qint) by adds. rewrite (pass3_total t_orient 0 add_qint) by adds.
    rewrite (pass3_total t_qint 1 add_qint) by adds. rewrite (pass3_total t_well 0 add_qint) by adds. rewrite (pass3_total t_free 0 add_qint) by adds.
    cbn [fst snd t_energy t_phase t_orient t_qint t_well t_free].
    rewrite (pass3_total t_energy 1 add_orient) by adds. rewrite (pass3_total t_phase 0 add_orient) by adds. rewrite (pass3_total t_orient 1 add_orient) by adds.
    rewrite (pass3_total t_well 0 add_orient) by adds. rewrite (pass3_total t_free 0 add_orient) by adds.
    cbn [fst snd t_energy t_phase t_orient t_qint t_well t_free].
    rewrite (over3_ext b (orient_e3 pr b) (orient_density3 0 pr b)) by (intros; apply orient3_eq; auto).
    rewrite (over3_ext b (qint_e3 pr b) (qint_density3 pr b)) by (intros; apply qint3_eq; auto). f_equal; ring.
  - rewrite (over3_ext b (orient_density3 0 pr b) (fun _ _ _ => 0)) by (intros; apply no_orient; auto).
    rewrite (over3_ext b (qint_density3 pr b) (fun _ _ _ => 0)) by (intros; apply no_qint; auto). rewrite over3_zero.
    rewrite (totals_eta (fst s)) at 1. f_equal. ring.
Qed.
Lemma orient3_map : forall pr b s i j k, snd (orient_stage3 pr b s) i j k = snd s i j k +
  (if in_b3 b i j k then only (per_cell pr) (orient_density3 0 pr b i j k + qint_density3 pr b i j k) else 0).
Proof.
  intros pr b s i j k. unfold orient_stage3. cbv zeta. destruct (Rlt_dec 0 (misorientation pr)) as [M | M].
  - rewrite pass3_energy. cbn [snd]. rewrite pass3_energy. cbn [snd]. rewrite orient3_eq, qint3_eq by auto. destruct (in_b3 b i j k), (per_cell pr); cbn [only]; ring.
  - rewrite no_orient, no_qint by auto. destruct (in_b3 b i j k), (per_cell pr); cbn [only]; ring.
Qed.
Lemma well3_total : forall (get : totals -> R) m pr b s, (forall w e t, get (add_well w e t) = get t + m * (w * e)) ->
  get (fst (do_loop 1 (nphases pr) (fun p (s : est3) => cell_pass3 add_well (well_e3 pr b p) pr b s) s)) =
  get (fst s) + m * over3 b (all_phases3 pr (well_density3 pr b)).
Proof.
  intros get m pr b s H. unfold all_phases3. rewrite <- over3_sum, <- sumZ_scal.
  apply (obs_loop est3 (fun s => get (fst s)) 1 (nphases pr) (fun p => m * over3 b (well_density3 pr b p))). intros p s' _.
  apply (pass3_total get m). auto.
Qed.
Lemma well3_map : forall pr b s i j k, snd (do_loop 1 (nphases pr) (fun p (s : est3) => cell_pass3 add_well (well_e3 pr b p) pr b s) s) i j k =
  snd s i j k + (if in_b3 b i j k then only (per_cell pr) (all_phases3 pr (well_density3 pr b) i j k) else 0).
Proof.
  intros pr b s i j k. unfold all_phases3. rewrite <- only_sum.
  apply (obs_loop est3 (fun s => snd s i j k) 1 (nphases pr) (fun p => if in_b3 b i j k then only (per_cell pr) (well_density3 pr b p i j k) else 0)).
  intros p s' _. apply pass3_energy.
Qed.
Lemma quatenergy3_stages : forall pr b s, quatenergy3 pr b s =
  let r := phase_stage3 pr b (snd s) in let t := fst s in
  let s := orient_stage3 pr b (mk_totals (t_energy t + fst r) (t_phase t + fst r) (t_orient t) (t_qint t) (t_well t) (t_free t), snd r) in
  let t := fst s in
  do_loop 1 (nphases pr) (fun p (s : est3) => cell_pass3 add_well (well_e3 pr b p) pr b s)
    (mk_totals (t_energy t) (t_phase t) (t_orient t) (t_qint t) 0 (t_free t), snd s).
Proof. reflexivity. Qed.
Lemma patch3_totals : forall pr b t en, regular pr -> fst (evaluate_patch3 pr b t en) =
  mk_totals (t_energy t + over3 b (density3 pr b)) (t_phase t + over3 b (all_phases3 pr (phase_density3 pr b)))
    (if_pos (misorientation pr) (over3 b (orient_density3 0 pr b)) (t_orient t)) (if_pos (misorientation pr) (over3 b (qint_density3 pr b)) (t_qint t))
    (over3 b (all_phases3 pr (well_density3 pr b))) (over3 b (bulk_density3 pr b)).
Proof.
  intros pr b t en Hr. unfold evaluate_patch3, bulkenergy3. rewrite quatenergy3_stages. cbv zeta. cbn [fst snd].
  rewrite (totals_eta (fst (cell_pass3 _ _ _ _ _))).
  rewrite (pass3_total t_energy 1) by adds. rewrite (pass3_total t_phase 0) by adds. rewrite (pass3_total t_orient 0) by adds.
  rewrite (pass3_total t_qint 0) by adds. rewrite (pass3_total t_well 0) by adds. rewrite (pass3_total t_free 1) by adds.
  cbn [fst snd t_energy t_phase t_orient t_qint t_well t_free].
  rewrite (well3_total t_energy 1) by adds. rewrite (well3_total t_phase 0) by adds. rewrite (well3_total t_orient 0) by adds.
  rewrite (well3_total t_qint 0) by adds. rewrite (well3_total t_well 1) by adds.
  cbn [fst snd t_energy t_phase t_orient t_qint t_well t_free].
  rewrite orient3_total. cbv zeta. cbn [fst snd t_energy t_phase t_orient t_qint t_well t_free]. rewrite phase3_total by auto.
  change (bulk_e3 pr b) with (bulk_density3 pr b). unfold density3. rewrite !over3_plus. f_equal; ring.
Qed.
Lemma patch3_map : forall pr b t en i j k, regular pr -> snd (evaluate_patch3 pr b t en) i j k =
  if (per_cell pr && in_b3 b i j k)%bool then density3 pr b i j k else en i j k.
Proof.
  intros pr b t en i j k Hr. unfold evaluate_patch3, bulkenergy3. rewrite quatenergy3_stages. cbv zeta. cbn [fst snd].
  rewrite pass3_energy. cbn [snd]. rewrite well3_map. cbn [snd]. rewrite orient3_map. cbn [snd]. rewrite phase3_map, clear3_spec by auto.
  change (bulk_e3 pr b) with (bulk_density3 pr b). unfold density3. destruct (per_cell pr), (in_b3 b i j k); cbn [only andb]; ring.
Qed.

(** ** patches and ranks *)
Lemma over_patches3_app : forall f ps qs, over_patches3 f (ps ++ qs) = over_patches3 f ps + over_patches3 f qs.
Proof. intros f ps qs. induction ps as [| p ps IH]; cbn [over_patches3 app]; [ring | rewrite IH; ring]. Qed.
Lemma over_ranks3_concat : forall f rs, over_ranks3 f rs = over_patches3 f (concat rs).
Proof. intros f rs. induction rs as [| r rs IH]; cbn [over_ranks3 concat]; [reflexivity |]. rewrite over_patches3_app, IH. reflexivity. Qed.
Lemma rank3_totals : forall pr ps, regular pr -> evaluate_rank3 pr ps =
  mk_totals (over_patches3 (density3 pr) ps) (over_patches3 (fun b => all_phases3 pr (phase_density3 pr b)) ps)
    (over_last3 (orient_density3 0 pr) ps) (over_last3 (qint_density3 pr) ps)
    (over_last3 (fun b => all_phases3 pr (well_density3 pr b)) ps) (over_last3 (bulk_density3 pr) ps).
Proof.
  intros pr ps Hr. unfold evaluate_rank3. rewrite <- (rev_involutive ps). set (qs := rev ps). clearbody qs.
  assert (Z : forall f : epatch3 -> arr3, (forall b i j k, f b i j k = 0) -> forall l, over_last3 f l = 0).
  { intros f H l. unfold over_last3. destruct (rev l); [reflexivity |]. rewrite (over3_ext _ _ (fun _ _ _ => 0)) by auto. apply over3_zero. }
  induction qs as [| q qs IH]; [reflexivity |].
  cbn [rev]. rewrite fold_left_app. cbn [fold_left]. rewrite IH. rewrite patch3_totals by auto.
  cbn [t_energy t_phase t_orient t_qint t_well t_free]. rewrite !over_patches3_app. cbn [over_patches3].
  unfold if_pos. destruct (Rlt_dec 0 (misorientation pr)) as [M | M].
  - unfold over_last3. rewrite !rev_app_distr. cbn [rev app]. f_equal; ring.
  - rewrite !(Z (orient_density3 0 pr)) by (intros; apply no_orient; auto). rewrite !(Z (qint_density3 pr)) by (intros; apply no_qint; auto).
    unfold over_last3. rewrite !rev_app_distr. cbn [rev app]. f_equal; ring.
Qed.
Lemma energy3_sums : forall pr rs t, regular pr -> evaluateEnergy3 pr rs = Some t ->
  t_energy t = over_ranks3 (density3 pr) rs /\ t_phase t = over_ranks3 (fun b => all_phases3 pr (phase_density3 pr b)) rs.
Proof.
  intros pr rs t Hr H. unfold evaluateEnergy3 in H. destruct (supported pr); [| discriminate].
  assert (E : t = fold_right (fun ps t => plus_totals (evaluate_rank3 pr ps) t) zero_totals rs) by congruence. subst t. clear H.
  induction rs as [| r rs (A & B)]; [repeat split; reflexivity |].
  cbn [fold_right plus_totals t_energy t_phase over_ranks3]. rewrite rank3_totals by auto.
  cbn [t_energy t_phase]. rewrite A, B. repeat split; reflexivity.
Qed.
Lemma energy3_lasts : forall pr rs t, regular pr -> evaluateEnergy3 pr rs = Some t ->
  t_orient t = over_lasts3 (orient_density3 0 pr) rs /\ t_qint t = over_lasts3 (qint_density3 pr) rs /\
  t_well t = over_lasts3 (fun b => all_phases3 pr (well_density3 pr b)) rs /\ t_free t = over_lasts3 (bulk_density3 pr) rs.
Proof.
  intros pr rs t Hr H. unfold evaluateEnergy3 in H. destruct (supported pr); [| discriminate].
  assert (E : t = fold_right (fun ps t => plus_totals (evaluate_rank3 pr ps) t) zero_totals rs) by congruence. subst t. clear H.
  induction rs as [| r rs (A & B & C & D)]; [repeat split; reflexivity |].
  cbn [fold_right plus_totals t_orient t_qint t_well t_free over_lasts3]. rewrite rank3_totals by auto.
  cbn [t_orient t_qint t_well t_free]. rewrite A, B, C, D. repeat split; reflexivity.
Qed.
Lemma energy3_defined : forall pr rs, (exists t, evaluateEnergy3 pr rs = Some t) <-> supported pr = true.
Proof.
  intros pr rs. unfold evaluateEnergy3. destruct (supported pr); split; intro H; eauto; [destruct H; discriminate | discriminate].
Qed.

(** ** cutting a patch into pieces *)
From Verif Require Weights_Model Weights_Spec Weights_Proofs.
Definition cell_box (b : epatch3) : Weights_Model.box :=
  ((xl (zbox b), xu (zbox b)), (yl (zbox b), yu (zbox b)), (zl (zbox b), zu (zbox b))).
Lemma holds_in : forall b i j k, holds_cell3 i j k b = in_b3 b i j k.
Proof. reflexivity. Qed.
Lemma in_b3_in : forall b i j k, in_patch3 b i j k -> in_b3 b i j k = true.
Proof. intros b i j k (I & J & K). unfold in_b3. rewrite !inbT by auto. reflexivity. Qed.
Lemma count_patches3 : forall b (ps : list (epatch3 * arr3)) g, (forall p i j k, In p ps -> in_b3 (fst p) i j k = true -> in_b3 b i j k = true) ->
  fold_right (fun p v => Weights_Spec.sum_cells (cell_box (fst p)) g + v) 0 ps =
  Weights_Spec.sum_cells (cell_box b) (fun i j k => INR (length (filter (fun p => holds_cell3 i j k (fst p)) ps)) * g i j k).
Proof.
  intros b ps g. induction ps as [| p ps IH]; intro H.
  - cbn [fold_right filter length INR]. unfold Weights_Spec.sum_cells, cell_box. cbn [fst snd]. rewrite (sum_box3_scal _ _ _ _ _ _ 0 g). ring.
  - cbn [fold_right]. rewrite IH by (intros q i j k Hq; apply H; right; auto).
    replace (Weights_Spec.sum_cells (cell_box (fst p)) g) with
      (Weights_Spec.sum_cells (cell_box (fst p)) (fun i j k => if Weights_Model.box_in (cell_box b) i j k then g i j k else 0)).
    2:{ apply sum_box3_ext. intros i j k I. change (Weights_Model.box_in (cell_box b) i j k) with (in_b3 b i j k).
        rewrite (H p i j k (or_introl eq_refl) (in_b3_in (fst p) i j k I)). reflexivity. }
    rewrite Weights_Proofs.cells_flip. unfold Weights_Spec.sum_cells, cell_box. cbn [fst snd]. rewrite <- sum_box3_plus. apply sum_box3_ext. intros i j k _.
    change (Weights_Model.box_in _ i j k) with (holds_cell3 i j k (fst p)). cbn [filter].
    destruct (holds_cell3 i j k (fst p)); cbn [length]; rewrite ?S_INR; ring.
Qed.
(** the fields of a patch determine a density *)
Definition local3 (f : epatch3 -> arr3) : Prop := forall b p i j k, piece_of3 b p -> f p i j k = f b i j k.
Lemma cut_sum3 : forall f b rs, local3 f -> cuts3 b rs -> over_ranks3 f rs = over3 b (f b).
Proof.
  intros f b rs L [P C]. rewrite over_ranks3_concat. set (ps := concat rs) in *. clearbody ps.
  set (g := fun i j k => zweight (zf b) i j k * f b i j k).
  assert (E : over_patches3 f ps = fold_right (fun p v => Weights_Spec.sum_cells (cell_box (fst p)) g + v) 0 ps).
  { clear C. induction P as [| p ps Hp P IH]; [reflexivity |]. cbn [over_patches3 fold_right]. rewrite IH. f_equal. unfold over3, g.
    apply sum_box3_ext. intros i j k _. rewrite (L b (fst p) i j k Hp). destruct Hp as (-> & _). reflexivity. }
  rewrite E. rewrite (count_patches3 b).
  - apply sum_box3_ext. intros i j k I. rewrite C, holds_in, (in_b3_in b i j k I). cbn [INR]. unfold g. ring.
  - intros p i j k Hp Hc. specialize (C i j k). rewrite holds_in in C. destruct (in_b3 b i j k); [reflexivity | exfalso].
    assert (In p (filter (fun p => holds_cell3 i j k (fst p)) ps)) by (apply filter_In; auto).
    destruct (filter (fun p => holds_cell3 i j k (fst p)) ps); [destruct H | discriminate].
Qed.
Ltac local_tac H := destruct H as (E & X & Y & W); unfold phase_density3, orient_density3, qint_density3, well_density3, bulk_density3, phase_of, laplace3,
    Flow3_Spec.cdx, Flow3_Spec.cdy, Flow3_Spec.cdz; rewrite E, ?X, ?Y, ?W; reflexivity.
Lemma local3_phase : forall pr, local3 (fun b => all_phases3 pr (phase_density3 pr b)).
Proof. intros pr b p i j k H. apply sumZ_ext. intros q _. local_tac H. Qed.
Lemma local3_orient : forall fy pr, local3 (orient_density3 fy pr).
Proof. intros fy pr b p i j k H. local_tac H. Qed.
Lemma local3_qint : forall pr, local3 (qint_density3 pr).
Proof. intros pr b p i j k H. local_tac H. Qed.
Lemma local3_well : forall pr, local3 (fun b => all_phases3 pr (well_density3 pr b)).
Proof. intros pr b p i j k H. apply sumZ_ext. intros q _. local_tac H. Qed.
Lemma local3_bulk : forall pr, local3 (bulk_density3 pr).
Proof. intros pr b p i j k H. local_tac H. Qed.
Lemma local3_all : forall pr, local3 (density3 pr).
Proof.
  intros pr b p i j k H. unfold density3. rewrite (local3_phase pr b p i j k H), (local3_orient 0 pr b p i j k H), (local3_qint pr b p i j k H),
    (local3_well pr b p i j k H), (local3_bulk pr b p i j k H). reflexivity.
Qed.
Lemma energy3_cuts : forall pr b rs t, regular pr -> cuts3 b rs -> evaluateEnergy3 pr rs = Some t ->
  t_energy t = over3 b (density3 pr b) /\ t_phase t = over3 b (all_phases3 pr (phase_density3 pr b)).
Proof.
  intros pr b rs t Hr C H. destruct (energy3_sums pr rs t Hr H) as (-> & ->).
  rewrite (cut_sum3 _ b rs (local3_all pr) C), (cut_sum3 _ b rs (local3_phase pr) C). split; reflexivity.
Qed.
Lemma single_lasts3 : forall f rs, Forall (fun r => (length r <= 1)%nat) rs -> over_lasts3 f rs = over_ranks3 f rs.
Proof.
  intros f rs H. induction H as [| r rs L H IH]; [reflexivity |]. cbn [over_lasts3 over_ranks3]. rewrite IH. f_equal.
  destruct r as [| p [| q r]]; [reflexivity | cbn; ring | cbn in L; lia].
Qed.
Lemma energy3_single : forall pr b rs t, regular pr -> cuts3 b rs -> Forall (fun r => (length r <= 1)%nat) rs -> evaluateEnergy3 pr rs = Some t ->
  t_orient t = over3 b (orient_density3 0 pr b) /\ t_qint t = over3 b (qint_density3 pr b) /\
  t_well t = over3 b (all_phases3 pr (well_density3 pr b)) /\ t_free t = over3 b (bulk_density3 pr b) /\
  t_energy t = t_phase t + t_orient t + t_qint t + t_well t + t_free t.
Proof.
  intros pr b rs t Hr C S H. destruct (energy3_lasts pr rs t Hr H) as (-> & -> & -> & ->). destruct (energy3_cuts pr b rs t Hr C H) as (-> & ->).
  rewrite !single_lasts3 by auto.
  rewrite (cut_sum3 _ b rs (local3_orient 0 pr) C), (cut_sum3 _ b rs (local3_qint pr) C), (cut_sum3 _ b rs (local3_well pr) C), (cut_sum3 _ b rs (local3_bulk pr) C).
  repeat split. unfold density3. rewrite !over3_plus. ring.
Qed.

(** a 2 x 1 x 1 patch, phase 1/2, gradients of norm [g] on the x-, y-, z-sides, weights, bulk energies and temperature 1 *)
Definition grads (v : R) : arr5 := fun _ _ _ m n => if ((m =? 1) && (n =? 1))%Z then v else 0.
Definition pr3_ex (fl : R) : eparams := mk_eparams 1 1 1 2 0 4 12 1 false "p" "d" "p" "p" "a" "s" fl.
Definition b3_ex (lo hi : Z) (gx gy gz : R) (q : q4) : epatch3 :=
  mk_epatch3 (mk_box3 lo hi 0 0 0 0 1 1 1)
    (mk_efields3 (fun _ _ _ _ => 1 / 2) (fun _ _ _ => q) (grads gx) (grads gy) (grads gz) (fun _ _ _ => 1) (fun _ _ _ => 1) (fun _ _ _ => 1) (fun _ _ _ => 1)).
Definition none3 : arr3 := fun _ _ _ => 0.
Definition unit_q : q4 := Q4 1 0 0 0.
Definition cell_ex (lo hi : Z) : epatch3 := b3_ex lo hi 1 1 1 unit_q.
Definition one_patch3 : list (list (epatch3 * arr3)) := [[(cell_ex 0 1, none3)]].
Definition two_patches3 : list (list (epatch3 * arr3)) := [[(cell_ex 0 0, none3); (cell_ex 1 1, none3)]].
Lemma cuts3_one : cuts3 (cell_ex 0 1) one_patch3.
Proof.
  split.
  - cbn [concat one_patch3 app]. repeat constructor.
  - intros i j k. cbn [concat one_patch3 app filter fst]. destruct (holds_cell3 i j k (cell_ex 0 1)); reflexivity.
Qed.
Lemma cuts3_two : cuts3 (cell_ex 0 1) two_patches3.
Proof.
  split.
  - cbn [concat two_patches3 app]. repeat constructor.
  - intros i j k. cbn [concat two_patches3 app filter]. unfold holds_cell3. cbn [fst cell_ex b3_ex zbox xl xu yl yu zl zu].
    destruct (Z.leb_spec 0 i); destruct (Z.leb_spec i 0); destruct (Z.leb_spec 1 i); destruct (Z.leb_spec i 1); try lia;
    destruct (Z.leb_spec 0 j); destruct (Z.leb_spec j 0); destruct (Z.leb_spec 0 k); destruct (Z.leb_spec k 0); cbn [andb length]; reflexivity || lia.
Qed.
Lemma sum_two : forall f : Z -> R, sumZ 0 1 f = f 0%Z + f 1%Z.
Proof. exact Energy_Proofs.sum_one. Qed.
Lemma grads_sq : forall v i j k, sq_grad3 1 (grads v) i j k = v ^ 2.
Proof.
  intros v i j k. unfold sq_grad3. rewrite (sumZ_ext 1 3 _ (fun d => if (d =? 1)%Z then v ^ 2 else 0)).
  - rewrite !sumZ_cons by lia. rewrite sumZ_empty by lia. cbn -[IZR pow]. ring.
  - intros d _. rewrite Energy_Proofs.sum_at. unfold grads. cbn [Z.eqb Pos.eqb andb]. destruct (d =? 1)%Z; [reflexivity | ring].
Qed.
Lemma half_p : val (interp_func (val (average_func (1 / 2) (1 / 2) "a")) "p") = 1 / 2 /\ val (interp_func (1 / 2) "p") = 1 / 2 /\ val (well_func (1 / 2) "d") = 1.
Proof.
  cbn [average_func val]. replace (/ 2 * (1 / 2 + 1 / 2)) with (1 / 2) by field. cbn [interp_func well_func val].
  unfold clamp01. repeat (destruct (Rlt_dec _ _) || destruct (Rle_dec _ _)); try lra; repeat split; try unfold Rmax, Rmin; repeat destruct (Rle_dec _ _); try lra.
Qed.
Lemma orient_ex : forall lo hi gx gy gz q fl fy i j k, 0 <= fl ->
  orient_density3 fy (pr3_ex fl) (b3_ex lo hi gx gy gz q) i j k =
  2 * sqrt (gx ^ 2 + fl ^ 2) + sqrt (gy ^ 2 + fl ^ 2) + sqrt (gy ^ 2 + fy) + 2 * sqrt (gz ^ 2 + fl ^ 2).
Proof.
  intros lo hi gx gy gz q fl fy i j k F. unfold orient_density3, floor_sq, side_p3, phase_of. cbn [misorientation pr3_ex].
  destruct (Rlt_dec 0 12); [| lra]. cbv zeta. cbn [depth avg_type orient1 floor_type gradient_floor pr3_ex zf b3_ex zphi zgx zgy zgz ztemp].
  rewrite !grads_sq. rewrite (proj1 half_p). change (Ascii.eqb "s" "s") with true. cbn [negb]. field.
Qed.
Lemma qint_ex : forall lo hi gx gy gz q fl i j k, qint_density3 (pr3_ex fl) (b3_ex lo hi gx gy gz q) i j k = (gx ^ 2 + gy ^ 2 + gz ^ 2) / 3.
Proof.
  intros. unfold qint_density3, phase_of. cbn [misorientation pr3_ex]. destruct (Rlt_dec 0 12); [| lra]. cbv zeta.
  cbn [depth orient2 epsilon_q pr3_ex zf b3_ex zphi zgx zgy zgz]. rewrite !grads_sq. rewrite (proj1 (proj2 half_p)). field.
Qed.
Lemma phase_ex : forall lo hi gx gy gz q fl i j k, all_phases3 (pr3_ex fl) (phase_density3 (pr3_ex fl) (b3_ex lo hi gx gy gz q)) i j k = 0.
Proof.
  intros. unfold all_phases3. cbn [nphases pr3_ex]. rewrite Energy_Proofs.sum_at. unfold phase_density3, laplace3, phase_of. cbn [anisotropy pr3_ex].
  destruct (Rlt_dec 0 0); [lra |]. cbv zeta. cbn [zf zphi b3_ex zbox hx hy hz]. field.
Qed.
Lemma well3_ex : forall lo hi gx gy gz q fl i j k, all_phases3 (pr3_ex fl) (well_density3 (pr3_ex fl) (b3_ex lo hi gx gy gz q)) i j k = 1.
Proof.
  intros. unfold all_phases3. cbn [nphases pr3_ex]. rewrite Energy_Proofs.sum_at. unfold well_density3, phase_of. cbn [zf zphi b3_ex well_scale phi_well pr3_ex].
  rewrite (proj2 (proj2 half_p)). ring.
Qed.
Lemma bulk3_ex : forall lo hi gx gy gz q fl i j k, bulk_density3 (pr3_ex fl) (b3_ex lo hi gx gy gz q) i j k = 1.
Proof. intros. unfold bulk_density3. cbn [zf zfl zfa b3_ex]. ring. Qed.
Lemma regular_ex : forall fl, regular (pr3_ex fl).
Proof. intros fl H. cbn in H. lra. Qed.
Lemma over3_two : forall gx gy gz q f, over3 (b3_ex 0 1 gx gy gz q) f = f 0%Z 0%Z 0%Z + f 1%Z 0%Z 0%Z.
Proof. intros. unfold over3, sum_box3. cbn [zbox zf zweight b3_ex xl xu yl yu zl zu]. rewrite !Energy_Proofs.sum_at, sum_two. ring. Qed.
Lemma over3_one : forall n gx gy gz q f, over3 (b3_ex n n gx gy gz q) f = f n 0%Z 0%Z.
Proof. intros. unfold over3, sum_box3. cbn [zbox zf zweight b3_ex xl xu yl yu zl zu]. rewrite !Energy_Proofs.sum_at. ring. Qed.
(** cutting halves four of the six totals *)
Lemma parts3_lost : exists pr b rs rs' t t', regular pr /\ cuts3 b rs /\ cuts3 b rs' /\ evaluateEnergy3 pr rs = Some t /\ evaluateEnergy3 pr rs' = Some t' /\
  t_energy t = 18 /\ t_energy t' = 18 /\ t_orient t = 12 /\ t_orient t' = 6 /\ t_qint t = 2 /\ t_qint t' = 1 /\
  t_well t = 2 /\ t_well t' = 1 /\ t_free t = 2 /\ t_free t' = 1.
Proof.
  destruct (proj2 (energy3_defined (pr3_ex 0) one_patch3) ltac:(reflexivity)) as [t H].
  destruct (proj2 (energy3_defined (pr3_ex 0) two_patches3) ltac:(reflexivity)) as [t' H'].
  exists (pr3_ex 0), (cell_ex 0 1), one_patch3, two_patches3, t, t'.
  destruct (energy3_cuts _ _ _ _ (regular_ex 0) cuts3_one H) as (E & _). destruct (energy3_cuts _ _ _ _ (regular_ex 0) cuts3_two H') as (E' & _).
  destruct (energy3_lasts _ _ _ (regular_ex 0) H) as (A & B & C & D). destruct (energy3_lasts _ _ _ (regular_ex 0) H') as (A' & B' & C' & D').
  cbn [over_lasts3 one_patch3 two_patches3] in A, B, C, D, A', B', C', D'. unfold over_last3 in A, B, C, D, A', B', C', D'.
  cbn [rev app fst] in A, B, C, D, A', B', C', D'. unfold cell_ex in *.
  rewrite over3_two in A, B, C, D, E, E'. rewrite over3_one in A', B', C', D'. unfold density3 in E, E'.
  rewrite !phase_ex, !orient_ex, !qint_ex, !well3_ex, !bulk3_ex in E, E' by lra.
  rewrite !orient_ex in A by lra. rewrite !orient_ex in A' by lra. rewrite !qint_ex in B. rewrite !qint_ex in B'.
  rewrite !well3_ex in C. rewrite !well3_ex in C'. rewrite !bulk3_ex in D. rewrite !bulk3_ex in D'.
  replace (1 ^ 2 + 0 ^ 2) with 1 in * by ring. replace (1 ^ 2 + 0) with 1 in * by ring. rewrite sqrt_1 in *.
  split; [apply regular_ex |]. split; [exact cuts3_one | split; [exact cuts3_two | split; [exact H | split; [exact H' |]]]].
  rewrite A, B, C, D, E, A', B', C', D', E'. repeat split; lra.
Qed.

(** ** renamed axes *)
Lemma sum_box3_turn : forall b (f : arr3),
  sum_box3 (yl b) (yu b) (zl b) (zu b) (xl b) (xu b) (turn f) = sum_box3 (xl b) (xu b) (yl b) (yu b) (zl b) (zu b) f.
Proof.
  intros b f. unfold sum_box3, turn. rewrite sumZ_swap. apply sumZ_ext. intros k _. apply sumZ_swap.
Qed.
Lemma turned_third : forall q gx gy gz,
  Flow3_Spec.turned (quatmult4 q Flow3_Spec.third_turn) gy gz gx 1%Z = Flow3_Spec.turned q gx gy gz 1%Z /\
  Flow3_Spec.turned (quatmult4 q Flow3_Spec.third_turn) gy gz gx 2%Z = Flow3_Spec.turned q gx gy gz 2%Z /\
  Flow3_Spec.turned (quatmult4 q Flow3_Spec.third_turn) gy gz gx 3%Z = Flow3_Spec.turned q gx gy gz 3%Z.
Proof.
  intros q gx gy gz. pose proof (Flow3_Proofs.conjugate_rot (quatmult4 q Flow3_Spec.third_turn) gy gz gx) as E.
  rewrite Flow3_Proofs.conjugate_mult, Flow3_Proofs.conjugate_third, Flow3_Proofs.conjugate_rot in E. unfold Flow3_Proofs.pure in E.
  injection E as E1 E2 E3. auto.
Qed.
Lemma crystal_third : forall eps e4 q gx gy gz, crystal_density eps e4 (quatmult4 q Flow3_Spec.third_turn) gy gz gx = crystal_density eps e4 q gx gy gz.
Proof.
  intros eps e4 q gx gy gz. unfold crystal_density, Flow3_Spec.cubic_density, Flow3_Spec.cubic_gamma.
  destruct (turned_third q gx gy gz) as (-> & -> & ->). replace (gy ^ 2 + gz ^ 2 + gx ^ 2) with (gx ^ 2 + gy ^ 2 + gz ^ 2) by ring. reflexivity.
Qed.
Lemma phase_third : forall pr b c p i j k, turned_patch (depth pr) b c -> phase_density3 pr c p i j k = phase_density3 pr b p k i j.
Proof.
  intros pr b c p i j k (Eb & Ep & Eq & _). unfold phase_density3, phase_of. rewrite Eb, Ep, Eq. cbv zeta. destruct (Rlt_dec 0 (anisotropy pr)).
  - unfold Flow3_Spec.turned_field, Flow3_Spec.turn_quat. rewrite <- (crystal_third _ _ (zquat (zf b) k i j)). reflexivity.
  - unfold laplace3, turn4. cbn [hx hy hz turn_box]. ring.
Qed.
Lemma orient_third : forall pr b c i j k, floor_sq pr = 0 -> turned_patch (depth pr) b c -> orient_density3 0 pr c i j k = orient_density3 0 pr b k i j.
Proof.
  intros pr b c i j k F (Eb & Ep & _ & Gx & Gy & Gz & Et & _). unfold orient_density3, phase_of. destruct (Rlt_dec 0 (misorientation pr)); [| reflexivity]. cbv zeta.
  rewrite F, !Gx, !Gy, !Gz, Ep, Et. unfold turn4, turn. ring.
Qed.
Lemma qint_third : forall pr b c i j k, turned_patch (depth pr) b c -> qint_density3 pr c i j k = qint_density3 pr b k i j.
Proof.
  intros pr b c i j k (Eb & Ep & _ & Gx & Gy & Gz & _). unfold qint_density3, phase_of. destruct (Rlt_dec 0 (misorientation pr)); [| reflexivity]. cbv zeta.
  rewrite !Gx, !Gy, !Gz, Ep. unfold turn4. ring.
Qed.
Lemma well_third : forall pr b c p i j k, turned_patch (depth pr) b c -> well_density3 pr c p i j k = well_density3 pr b p k i j.
Proof. intros pr b c p i j k (_ & Ep & _). unfold well_density3, phase_of. rewrite Ep. reflexivity. Qed.
Lemma bulk_third : forall pr b c i j k, turned_patch (depth pr) b c -> bulk_density3 pr c i j k = bulk_density3 pr b k i j.
Proof. intros pr b c i j k (_ & Ep & _ & _ & _ & _ & _ & _ & El & Ea). unfold bulk_density3, phase_of. rewrite Ep, El, Ea. reflexivity. Qed.
Lemma phases_third : forall pr b c i j k, turned_patch (depth pr) b c ->
  all_phases3 pr (phase_density3 pr c) i j k = all_phases3 pr (phase_density3 pr b) k i j /\
  all_phases3 pr (well_density3 pr c) i j k = all_phases3 pr (well_density3 pr b) k i j.
Proof.
  intros pr b c i j k H. split; apply sumZ_ext; intros p _; [apply phase_third | apply well_third]; auto.
Qed.
Lemma density_third : forall pr b c i j k, floor_sq pr = 0 -> turned_patch (depth pr) b c -> density3 pr c i j k = density3 pr b k i j.
Proof.
  intros pr b c i j k F H. unfold density3. destruct (phases_third pr b c i j k H) as (-> & ->).
  rewrite (orient_third pr b c i j k F H), (qint_third pr b c i j k H), (bulk_third pr b c i j k H). reflexivity.
Qed.
Lemma over3_third : forall n b c f g, turned_patch n b c -> (forall i j k, g i j k = f k i j) -> over3 c g = over3 b f.
Proof.
  intros n b c f g (Eb & _ & _ & _ & _ & _ & _ & Ew & _) E. unfold over3. rewrite Eb, Ew. cbn [xl xu yl yu zl zu turn_box].
  rewrite <- (sum_box3_turn (zbox b)). apply sum_box3_ext. intros i j k _. rewrite E. reflexivity.
Qed.
Definition turned_ranks (n : Z) : list (list (epatch3 * arr3)) -> list (list (epatch3 * arr3)) -> Prop :=
  Forall2 (Forall2 (fun p p' => turned_patch n (fst p) (fst p'))).
Lemma ranks_third : forall n f rs rs', turned_ranks n rs rs' -> (forall b c i j k, turned_patch n b c -> f c i j k = f b k i j) ->
  over_ranks3 f rs' = over_ranks3 f rs /\ over_lasts3 f rs' = over_lasts3 f rs.
Proof.
  intros n f rs rs' H E. induction H as [| r r' rs rs' H1 H [IH IH']]; [split; reflexivity |]. cbn [over_ranks3 over_lasts3]. rewrite IH, IH'. clear IH IH' H. split; f_equal.
  - induction H1 as [| p p' r r' Hp H1 IH]; [reflexivity |]. cbn [over_patches3]. rewrite IH. f_equal. apply (over3_third n); auto.
  - unfold over_last3. assert (R : Forall2 (fun p p' => turned_patch n (fst p) (fst p')) (rev r) (rev r')).
    { clear E. induction H1 as [| p p' r r' Hp H1 IH]; [constructor |]. cbn [rev]. apply Forall2_app; auto. }
    destruct R as [| p p' s s' Hp R]; [reflexivity |]. apply (over3_third n); auto.
Qed.
Lemma totals_ext : forall t t', t_energy t = t_energy t' -> t_phase t = t_phase t' -> t_orient t = t_orient t' -> t_qint t = t_qint t' ->
  t_well t = t_well t' -> t_free t = t_free t' -> t = t'.
Proof. intros [] []. cbn. intros. subst. reflexivity. Qed.
Lemma energy3_supported : forall pr rs rs', evaluateEnergy3 pr rs = None -> evaluateEnergy3 pr rs' = None.
Proof.
  intros pr rs rs' H. destruct (evaluateEnergy3 pr rs') eqn:E; [| reflexivity].
  destruct (proj2 (energy3_defined pr rs) (proj1 (energy3_defined pr rs') (ex_intro _ _ E))) as [t' H']. congruence.
Qed.
(** without a floor inside the square root the axes may be renamed *)
Lemma energy3_axes : forall pr rs rs', regular pr -> floor_sq pr = 0 ->
  Forall2 (Forall2 (fun p p' => turned_patch (depth pr) (fst p) (fst p'))) rs rs' -> evaluateEnergy3 pr rs' = evaluateEnergy3 pr rs.
Proof.
  intros pr rs rs' Hr F H. destruct (evaluateEnergy3 pr rs) as [t |] eqn:E.
  2:{ rewrite (energy3_supported pr rs rs' E). reflexivity. }
  destruct (proj2 (energy3_defined pr rs') (proj1 (energy3_defined pr rs) (ex_intro _ _ E))) as [t' E']. rewrite E'. f_equal.
  destruct (energy3_sums pr rs t Hr E) as (A1 & A2). destruct (energy3_sums pr rs' t' Hr E') as (B1 & B2).
  destruct (energy3_lasts pr rs t Hr E) as (A3 & A4 & A5 & A6). destruct (energy3_lasts pr rs' t' Hr E') as (B3 & B4 & B5 & B6).
  apply totals_ext.
  - rewrite A1, B1. apply (ranks_third (depth pr)); auto. intros. apply density_third; auto.
  - rewrite A2, B2. apply (ranks_third (depth pr) (fun b => all_phases3 pr (phase_density3 pr b))); auto. intros. apply phases_third; auto.
  - rewrite A3, B3. apply (ranks_third (depth pr)); auto. intros. apply orient_third; auto.
  - rewrite A4, B4. apply (ranks_third (depth pr)); auto. intros. apply qint_third; auto.
  - rewrite A5, B5. apply (ranks_third (depth pr) (fun b => all_phases3 pr (well_density3 pr b))); auto. intros. apply phases_third; auto.
  - rewrite A6, B6. apply (ranks_third (depth pr)); auto. intros. apply bulk_third; auto.
Qed.
(** with one they may not: gradients 1 on the y-sides only, on the x-sides only *)
Lemma floor_axes : exists pr b c t t', regular pr /\ turned_patch (depth pr) b c /\
  evaluateEnergy3 pr [[(b, none3)]] = Some t /\ evaluateEnergy3 pr [[(c, none3)]] = Some t' /\ t_orient t = 5 + sqrt 2 /\ t_orient t' = 3 + 2 * sqrt 2.
Proof.
  set (b := b3_ex 0 0 0 1 0 unit_q). set (c := b3_ex 0 0 1 0 0 (quatmult4 unit_q Flow3_Spec.third_turn)).
  destruct (proj2 (energy3_defined (pr3_ex 1) [[(b, none3)]]) ltac:(reflexivity)) as [t H].
  destruct (proj2 (energy3_defined (pr3_ex 1) [[(c, none3)]]) ltac:(reflexivity)) as [t' H'].
  exists (pr3_ex 1), b, c, t, t'. split; [apply regular_ex |].
  split. { split; [reflexivity |]. split; [reflexivity |]. split; [reflexivity |].
    split; [intros; cbn [depth pr3_ex zf zgx zgy c b b3_ex]; rewrite !grads_sq; reflexivity |].
    split; [intros; cbn [depth pr3_ex zf zgy zgz c b b3_ex]; rewrite !grads_sq; reflexivity |].
    split; [intros; cbn [depth pr3_ex zf zgx zgz c b b3_ex]; rewrite !grads_sq; reflexivity |]. repeat split; reflexivity. }
  split; [exact H | split; [exact H' |]].
  destruct (energy3_lasts _ _ _ (regular_ex 1) H) as (-> & _). destruct (energy3_lasts _ _ _ (regular_ex 1) H') as (-> & _).
  cbn [over_lasts3]. unfold over_last3. cbn [rev app fst]. unfold b, c. rewrite !over3_one, !orient_ex by lra.
  replace (0 ^ 2 + 1 ^ 2) with 1 by ring. replace (1 ^ 2 + 0) with 1 by ring. replace (0 ^ 2 + 0) with 0 by ring. replace (1 ^ 2 + 1 ^ 2) with 2 by ring.
  rewrite sqrt_1, sqrt_0. split; ring.
Qed.
(** a uniform crystal: five sixths of the floor is counted *)
Lemma uniform_orient : forall pr b i j k, uniform_patch (depth pr) b -> orient_density3 0 pr b i j k = 5 / 6 * orient_density3 (floor_sq pr) pr b i j k.
Proof.
  intros pr b i j k ((c & C) & G). unfold orient_density3. destruct (Rlt_dec 0 (misorientation pr)); [| ring]. cbv zeta. rewrite !C.
  rewrite !(proj1 (G _ _ _)), !(proj1 (proj2 (G _ _ _))), !(proj2 (proj2 (G _ _ _))). rewrite Rplus_0_r, sqrt_0. field.
Qed.
Lemma uniform_floor : forall pr rs t, regular pr -> Forall (Forall (fun p => uniform_patch (depth pr) (fst p))) rs -> evaluateEnergy3 pr rs = Some t ->
  t_orient t = 5 / 6 * over_lasts3 (orient_density3 (floor_sq pr) pr) rs.
Proof.
  intros pr rs t Hr U H. destruct (energy3_lasts pr rs t Hr H) as (-> & _). clear H.
  induction U as [| r rs U1 U IH]; cbn [over_lasts3]; [ring |]. rewrite IH, Rmult_plus_distr_l. f_equal. unfold over_last3.
  assert (V : Forall (fun p => uniform_patch (depth pr) (fst p)) (rev r)) by (apply Forall_rev; auto).
  destruct V as [| p s V W]; [ring |]. rewrite <- over3_scal. apply over3_ext. intros. apply uniform_orient; auto.
Qed.

(** ** interface energy of a crystal *)
Lemma crystal_eqv : forall eps e4 q q' gx gy gz,
  Flow3_Proofs.quartic (Flow3_Proofs.conjugate_by q' (Flow3_Proofs.pure gx gy gz)) = Flow3_Proofs.quartic (Flow3_Proofs.conjugate_by q (Flow3_Proofs.pure gx gy gz)) ->
  crystal_density eps e4 q' gx gy gz = crystal_density eps e4 q gx gy gz.
Proof.
  intros eps e4 q q' gx gy gz E. rewrite !Flow3_Proofs.conjugate_rot in E. unfold Flow3_Proofs.quartic, Flow3_Proofs.pure in E. cbn [qb qc qd] in E.
  unfold crystal_density, Flow3_Spec.cubic_density, Flow3_Spec.cubic_gamma. rewrite E. reflexivity.
Qed.
Lemma crystal_left : forall n eps e4 q gx gy gz, in_table 48 n -> crystal_density eps e4 (quatmult4 (qr4 n) q) gx gy gz = crystal_density eps e4 q gx gy gz.
Proof.
  intros n eps e4 q gx gy gz Hn. apply crystal_eqv. rewrite Flow3_Proofs.conjugate_mult. apply Flow3_Proofs.table_cubic; auto.
  apply Flow3_Proofs.conjugate_pure. reflexivity.
Qed.
Lemma crystal_opposite : forall eps e4 q gx gy gz, crystal_density eps e4 (Flow3_Spec.opposite q) gx gy gz = crystal_density eps e4 q gx gy gz.
Proof.
  intros. apply crystal_eqv. f_equal. apply q4_ext; unfold Flow3_Proofs.conjugate_by, Flow3_Spec.opposite, scale4; cbn [qa qb qc qd quatmult4 quatconj Flow3_Proofs.pure]; ring.
Qed.
Lemma energy3_reoriented : forall (eqv : q4 -> q4 -> Prop) pr rs rs', regular pr ->
  (forall eps e4 q q' gx gy gz, eqv q q' -> crystal_density eps e4 q' gx gy gz = crystal_density eps e4 q gx gy gz) ->
  Forall2 (Forall2 (fun p p' => reoriented eqv (fst p) (fst p'))) rs rs' -> evaluateEnergy3 pr rs' = evaluateEnergy3 pr rs.
Proof.
  intros eqv pr rs rs' Hr He H.
  assert (G : forall f, (forall b c i j k, reoriented eqv b c -> f c i j k = f b i j k) -> over_ranks3 f rs' = over_ranks3 f rs /\ over_lasts3 f rs' = over_lasts3 f rs).
  { intros f E. assert (G1 : forall b c, reoriented eqv b c -> over3 c (f c) = over3 b (f b)).
    { intros b c R. unfold over3. pose proof R as (-> & _ & _ & _ & _ & _ & _ & -> & _). apply sum_box3_ext. intros. rewrite (E b c); auto. }
    induction H as [| r r' rs rs' H1 H [IH IH']]; [split; reflexivity |]. cbn [over_ranks3 over_lasts3]. rewrite IH, IH'. clear IH IH' H. split; f_equal.
    - induction H1 as [| p p' r r' Hp H1 IH]; [reflexivity |]. cbn [over_patches3]. rewrite IH. f_equal. auto.
    - unfold over_last3. assert (R : Forall2 (fun p p' => reoriented eqv (fst p) (fst p')) (rev r) (rev r')).
      { clear E G1. induction H1 as [| p p' r r' Hp H1 IH]; [constructor |]. cbn [rev]. apply Forall2_app; auto. }
      destruct R as [| p p' s s' Hp R]; auto. }
  assert (D1 : forall b c i j k, reoriented eqv b c -> all_phases3 pr (phase_density3 pr c) i j k = all_phases3 pr (phase_density3 pr b) i j k).
  { intros b c i j k (Eb & Eq & Ep & _). apply sumZ_ext. intros p _. unfold phase_density3, phase_of. rewrite Eb, Ep. cbv zeta.
    destruct (Rlt_dec _ _); [apply He; auto | reflexivity]. }
  assert (D2 : forall b c i j k, reoriented eqv b c -> orient_density3 0 pr c i j k = orient_density3 0 pr b i j k).
  { intros b c i j k (Eb & Eq & Ep & Ex & Ey & Ez & Et & _). unfold orient_density3, phase_of. rewrite Ep, Ex, Ey, Ez, Et. reflexivity. }
  assert (D3 : forall b c i j k, reoriented eqv b c -> qint_density3 pr c i j k = qint_density3 pr b i j k).
  { intros b c i j k (Eb & Eq & Ep & Ex & Ey & Ez & Et & _). unfold qint_density3, phase_of. rewrite Ep, Ex, Ey, Ez. reflexivity. }
  assert (D4 : forall b c i j k, reoriented eqv b c -> all_phases3 pr (well_density3 pr c) i j k = all_phases3 pr (well_density3 pr b) i j k).
  { intros b c i j k (Eb & Eq & Ep & _). apply sumZ_ext. intros p _. unfold well_density3, phase_of. rewrite Ep. reflexivity. }
  assert (D5 : forall b c i j k, reoriented eqv b c -> bulk_density3 pr c i j k = bulk_density3 pr b i j k).
  { intros b c i j k (Eb & Eq & Ep & Ex & Ey & Ez & Et & Ew & El & Ea). unfold bulk_density3, phase_of. rewrite Ep, El, Ea. reflexivity. }
  destruct (evaluateEnergy3 pr rs) as [t |] eqn:E.
  2:{ rewrite (energy3_supported pr rs rs' E). reflexivity. }
  destruct (proj2 (energy3_defined pr rs') (proj1 (energy3_defined pr rs) (ex_intro _ _ E))) as [t' E']. rewrite E'. f_equal.
  destruct (energy3_sums pr rs t Hr E) as (A1 & A2). destruct (energy3_sums pr rs' t' Hr E') as (B1 & B2).
  destruct (energy3_lasts pr rs t Hr E) as (A3 & A4 & A5 & A6). destruct (energy3_lasts pr rs' t' Hr E') as (B3 & B4 & B5 & B6).
  apply totals_ext.
  - rewrite A1, B1. apply (G (density3 pr)). intros b c i j k R. unfold density3. rewrite (D1 b c), (D2 b c), (D3 b c), (D4 b c), (D5 b c) by auto. reflexivity.
  - rewrite A2, B2. apply (G (fun b => all_phases3 pr (phase_density3 pr b))); auto.
  - rewrite A3, B3. apply (G (orient_density3 0 pr)); auto.
  - rewrite A4, B4. apply (G (qint_density3 pr)); auto.
  - rewrite A5, B5. apply (G (fun b => all_phases3 pr (well_density3 pr b))); auto.
  - rewrite A6, B6. apply (G (bulk_density3 pr)); auto.
Qed.
Lemma energy3_symmetry : forall pr rs rs', regular pr ->
  Forall2 (Forall2 (fun p p' => reoriented (fun q q' => q' = q \/ q' = Flow3_Spec.opposite q \/ exists n, in_table 48 n /\ q' = quatmult4 (qr4 n) q) (fst p) (fst p'))) rs rs' ->
  evaluateEnergy3 pr rs' = evaluateEnergy3 pr rs.
Proof.
  intros pr rs rs' Hr H. eapply energy3_reoriented; [exact Hr | | exact H]. cbv beta.
  intros eps e4 q q' gx gy gz [-> | [-> | (n & Hn & ->)]]; [reflexivity | apply crystal_opposite | apply crystal_left; auto].
Qed.
Lemma turned_norm : forall q gx gy gz, unit4 q -> let t := Flow3_Spec.turned q gx gy gz in
  t 1%Z ^ 2 + t 2%Z ^ 2 + t 3%Z ^ 2 = gx ^ 2 + gy ^ 2 + gz ^ 2.
Proof.
  intros q gx gy gz U t. destruct (Flow3_Proofs.rotation_columns q gx gy gz U) as (E1 & E2 & E3). fold t in E1, E2, E3.
  replace (gx ^ 2 + gy ^ 2 + gz ^ 2) with (gx * gx + gy * gy + gz * gz) by ring.
  rewrite <- E1 at 1. rewrite <- E2 at 1. rewrite <- E3 at 1. unfold t, Flow3_Spec.turned. ring.
Qed.
Lemma quartic_range : forall a b c : R, let r := a ^ 2 + b ^ 2 + c ^ 2 in 0 < r -> 1 / 3 <= (a ^ 4 + b ^ 4 + c ^ 4) / r ^ 2 <= 1.
Proof.
  intros a b c r P. assert (P2 : 0 < r ^ 2) by (apply pow_lt; auto).
  assert (A : 0 <= (a ^ 2 - b ^ 2) ^ 2 + (b ^ 2 - c ^ 2) ^ 2 + (c ^ 2 - a ^ 2) ^ 2).
  { pose proof (pow2_ge_0 (a ^ 2 - b ^ 2)). pose proof (pow2_ge_0 (b ^ 2 - c ^ 2)). pose proof (pow2_ge_0 (c ^ 2 - a ^ 2)). lra. }
  assert (B : 0 <= (a * b) ^ 2 + (b * c) ^ 2 + (c * a) ^ 2).
  { pose proof (pow2_ge_0 (a * b)). pose proof (pow2_ge_0 (b * c)). pose proof (pow2_ge_0 (c * a)). lra. }
  split; apply (Rmult_le_reg_r (r ^ 2)); auto; unfold Rdiv; rewrite (Rmult_assoc (_ + _)), Rinv_l, Rmult_1_r by lra; unfold r; nra.
Qed.
Lemma cubic_range : forall eps e4 q gx gy gz, 0 <= e4 <= 3 / 5 -> unit4 q -> 0 < gx ^ 2 + gy ^ 2 + gz ^ 2 ->
  (eps * (1 - 5 / 3 * e4)) ^ 2 / 2 * (gx ^ 2 + gy ^ 2 + gz ^ 2) <= Flow3_Spec.cubic_density eps e4 q gx gy gz <=
  (eps * (1 + e4)) ^ 2 / 2 * (gx ^ 2 + gy ^ 2 + gz ^ 2).
Proof.
  intros eps e4 q gx gy gz He U P. unfold Flow3_Spec.cubic_density, Flow3_Spec.cubic_gamma.
  pose proof (turned_norm q gx gy gz U) as N. cbv zeta in N.
  pose proof (quartic_range (Flow3_Spec.turned q gx gy gz 1%Z) (Flow3_Spec.turned q gx gy gz 2%Z) (Flow3_Spec.turned q gx gy gz 3%Z)) as Q. cbv zeta in Q.
  rewrite N in Q. specialize (Q P). set (r := gx ^ 2 + gy ^ 2 + gz ^ 2) in *.
  replace (4 * e4 * (_ + _ + _) / r ^ 2) with (4 * e4 * ((Flow3_Spec.turned q gx gy gz 1%Z ^ 4 + Flow3_Spec.turned q gx gy gz 2%Z ^ 4 + Flow3_Spec.turned q gx gy gz 3%Z ^ 4) / r ^ 2))
    by (unfold Rdiv; ring).
  set (s := (_ + _ + _) / r ^ 2) in *. clearbody s r. rewrite !Rpow_mult_distr.
  assert (Ha : 1 - 5 / 3 * e4 <= 1 - 3 * e4 + 4 * e4 * s <= 1 + e4) by nra.
  set (g := 1 - 3 * e4 + 4 * e4 * s) in *. clearbody g.
  assert (L1 : (1 - 5 / 3 * e4) ^ 2 <= g ^ 2) by (apply pow_incr; lra).
  assert (L2 : g ^ 2 <= (1 + e4) ^ 2) by (apply pow_incr; lra). pose proof (pow2_ge_0 eps) as Pe.
  assert (K : 0 <= eps ^ 2 / 2 * r) by (apply Rmult_le_pos; lra).
  replace (eps ^ 2 * (1 - 5 / 3 * e4) ^ 2 / 2 * r) with (eps ^ 2 / 2 * r * (1 - 5 / 3 * e4) ^ 2) by field.
  replace (eps ^ 2 * g ^ 2 / 2 * r) with (eps ^ 2 / 2 * r * g ^ 2) by field.
  replace (eps ^ 2 * (1 + e4) ^ 2 / 2 * r) with (eps ^ 2 / 2 * r * (1 + e4) ^ 2) by field.
  split; apply Rmult_le_compat_l; auto.
Qed.
Lemma over3_le : forall b f g, (forall i j k, in_patch3 b i j k -> 0 <= zweight (zf b) i j k) -> (forall i j k, in_patch3 b i j k -> f i j k <= g i j k) ->
  over3 b f <= over3 b g.
Proof.
  intros b f g W H. unfold over3, sum_box3. apply Smooth_Proofs.sumZ_mono. intros k K. apply Smooth_Proofs.sumZ_mono. intros j J. apply Smooth_Proofs.sumZ_mono. intros i I.
  assert (In : in_patch3 b i j k) by (repeat split; lia). apply Rmult_le_compat_l; [apply W | apply H]; auto.
Qed.
Lemma ranks_le : forall f g rs, Forall (Forall (fun p => weighted (fst p) /\ forall i j k, in_patch3 (fst p) i j k -> f (fst p) i j k <= g (fst p) i j k)) rs ->
  over_ranks3 f rs <= over_ranks3 g rs.
Proof.
  intros f g rs H. induction H as [| r rs H1 H IH]; cbn [over_ranks3]; [lra |]. apply Rplus_le_compat; auto.
  induction H1 as [| p r [W Hp] H1 IH1]; cbn [over_patches3]; [lra |]. apply Rplus_le_compat; auto. apply over3_le; auto.
Qed.
Lemma sumZ_le1 : forall n f g, (forall p, (1 <= p <= n)%Z -> f p <= g p) -> sumZ 1 n f <= sumZ 1 n g.
Proof. intros. apply Smooth_Proofs.sumZ_mono. auto. Qed.
(** bounds by round crystals *)
Lemma crystal_range : forall eps e4 q gx gy gz, 0 <= e4 <= 1 / 3 -> unit4 q ->
  (eps * (1 - 3 * e4)) ^ 2 / 2 * (gx ^ 2 + gy ^ 2 + gz ^ 2) <= crystal_density eps e4 q gx gy gz <= (eps * (1 + e4)) ^ 2 / 2 * (gx ^ 2 + gy ^ 2 + gz ^ 2).
Proof.
  intros eps e4 q gx gy gz He U. unfold crystal_density. pose proof Flow3_Proofs.threshold3_pos as T. unfold Flow3_Proofs.threshold3 in T.
  pose proof (pow2_ge_0 gx). pose proof (pow2_ge_0 gy). pose proof (pow2_ge_0 gz).
  pose proof (pow2_ge_0 eps). assert (L1 : (1 - 3 * e4) ^ 2 <= (1 - 5 / 3 * e4) ^ 2) by (apply pow_incr; lra).
  assert (L2 : (1 - 3 * e4) ^ 2 <= (1 + e4) ^ 2) by (apply pow_incr; lra).
  assert (M : forall c d r, 0 <= r -> c ^ 2 <= d ^ 2 -> (eps * c) ^ 2 / 2 * r <= (eps * d) ^ 2 / 2 * r).
  { intros c d r Hr' Hcd. rewrite !Rpow_mult_distr. apply Rmult_le_compat_r; auto. unfold Rdiv. apply Rmult_le_compat_r; [lra |]. apply Rmult_le_compat_l; auto. }
  destruct (Rlt_dec _ _).
  - destruct (cubic_range eps e4 q gx gy gz ltac:(lra) U ltac:(lra)) as [A B]. split; auto. eapply Rle_trans; [| exact A]. apply M; lra.
  - split; [apply Rle_refl |]. apply M; lra.
Qed.
Lemma phase_bounds : forall pr rs t, 0 < anisotropy pr < 1 / 3 ->
  Forall (Forall (fun p => weighted (fst p) /\ unit_quats (fst p))) rs -> evaluateEnergy3 pr rs = Some t ->
  over_ranks3 (round_density pr (1 - 3 * anisotropy pr)) rs <= t_phase t <= over_ranks3 (round_density pr (1 + anisotropy pr)) rs.
Proof.
  intros pr rs t Ha F H. assert (Hr : regular pr) by (intro; lra). destruct (energy3_sums pr rs t Hr H) as (_ & ->).
  split; apply ranks_le; (eapply Forall_impl; [| exact F]); intros r Fr; (eapply Forall_impl; [| exact Fr]); intros p (W & U); (split; [exact W |]);
    intros i j k I; apply sumZ_le1; intros m _; unfold phase_density3; cbv zeta; (destruct (Rlt_dec _ _); [| lra]); apply crystal_range; auto; lra.
Qed.
Lemma phase_bounds_steep : forall pr rs t, 0 < anisotropy pr < 1 / 3 ->
  Forall (Forall (fun p => weighted (fst p) /\ unit_quats (fst p) /\ steep (nphases pr) (fst p))) rs -> evaluateEnergy3 pr rs = Some t ->
  over_ranks3 (round_density pr (1 - 5 / 3 * anisotropy pr)) rs <= t_phase t.
Proof.
  intros pr rs t Ha F H. assert (Hr : regular pr) by (intro; lra). destruct (energy3_sums pr rs t Hr H) as (_ & ->).
  apply ranks_le; (eapply Forall_impl; [| exact F]); intros r Fr; (eapply Forall_impl; [| exact Fr]); intros p (W & U & S); (split; [exact W |]).
  intros i j k I. apply sumZ_le1; intros m Hm; unfold phase_density3; cbv zeta; (destruct (Rlt_dec _ _); [| lra]).
  specialize (S m i j k Hm I). unfold slope_sq in *. unfold crystal_density. pose proof Flow3_Proofs.threshold3_pos as T. unfold Flow3_Proofs.threshold3 in T.
  destruct (Rlt_dec _ _).
  - apply cubic_range; [lra | auto | lra].
  - destruct S as [-> | S]; [lra | contradiction].
Qed.
(** on small slopes the energy is less than that of any direction *)
Lemma small_slopes : forall pr b en t, 0 < anisotropy pr < 3 / 7 -> anisotropy pr <> 1 / 3 -> epsilon_phi pr <> 0 -> nphases pr = 1%Z -> weighted b ->
  (exists i j k, in_patch3 b i j k /\ 0 < zweight (zf b) i j k) ->
  (forall i j k, in_patch3 b i j k -> 0 < slope_sq b 1 i j k <= 1 / 10 ^ 12) -> evaluateEnergy3 pr [[(b, en)]] = Some t ->
  t_phase t < over3 b (round_density pr (1 - 5 / 3 * anisotropy pr) b).
Proof.
  intros pr b en t Ha Hn He N W (i0 & j0 & k0 & I0 & W0) S H. assert (Hr : regular pr) by (intro; lra).
  destruct (energy3_sums pr _ t Hr H) as (_ & ->). cbn [over_ranks3 over_patches3 fst]. rewrite !Rplus_0_r.
  set (c := epsilon_phi pr ^ 2 / 2).
  rewrite (over3_in b _ (fun i j k => c * (1 - 3 * anisotropy pr) ^ 2 * slope_sq b 1 i j k)).
  2:{ intros i j k I. unfold all_phases3. rewrite N, Energy_Proofs.sum_at. unfold phase_density3, crystal_density. cbv zeta. destruct (Rlt_dec 0 _); [| lra].
      specialize (S i j k I). unfold slope_sq in *. destruct (Rlt_dec _ _); [lra |]. unfold c. field. }
  rewrite (over3_in b (round_density _ _ b) (fun i j k => c * (1 - 5 / 3 * anisotropy pr) ^ 2 * slope_sq b 1 i j k)).
  2:{ intros i j k I. unfold round_density, all_phases3. rewrite N, Energy_Proofs.sum_at. unfold c. field. }
  rewrite !over3_scal. apply Rmult_lt_compat_r.
  - unfold over3. apply Rlt_le_trans with (zweight (zf b) i0 j0 k0 * slope_sq b 1 i0 j0 k0).
    + apply Rmult_lt_0_compat; [auto | apply S; auto].
    + set (V := fun i j k => zweight (zf b) i j k * slope_sq b 1 i j k).
      assert (E : V i0 j0 k0 = sum_box3 (xl (zbox b)) (xu (zbox b)) (yl (zbox b)) (yu (zbox b)) (zl (zbox b)) (zu (zbox b))
        (fun i j k => if ((i =? i0) && (j =? j0) && (k =? k0))%Z then V i j k else 0)).
      { rewrite sum_box3_single. destruct I0 as (A & B & C). rewrite !inbT by auto. reflexivity. }
      change (V i0 j0 k0 <= sum_box3 (xl (zbox b)) (xu (zbox b)) (yl (zbox b)) (yu (zbox b)) (zl (zbox b)) (zu (zbox b)) V). rewrite E.
      unfold sum_box3. apply Smooth_Proofs.sumZ_mono. intros k K. apply Smooth_Proofs.sumZ_mono. intros j J. apply Smooth_Proofs.sumZ_mono. intros i I.
      assert (In : in_patch3 b i j k) by (repeat split; lia). destruct (_ && _); [apply Rle_refl |]. apply Rmult_le_pos; [apply W; auto | apply Rlt_le, S; auto].
  - unfold c. assert (0 < epsilon_phi pr ^ 2) by (rewrite <- Rsqr_pow2; apply Rsqr_pos_lt; auto). apply Rmult_lt_compat_l; [lra |]. nra.
Qed.

(** crystal symmetry from the other side *)
Definition steady3 (q : q4) : epatch3 := linear_patch (b3_ex 0 0 0 0 0 q) q 0 0 1.
Definition pr3_cubic : eparams := mk_eparams 1 1 1 2 (1 / 10) 4 0 1 false "p" "d" "p" "p" "a" "s" 0.
Lemma linear_slopes : forall b gx gy gz i j k, hx b <> 0 -> hy b <> 0 -> hz b <> 0 ->
  Flow3_Spec.cdx b (linear b gx gy gz) i j k = gx /\ Flow3_Spec.cdy b (linear b gx gy gz) i j k = gy /\ Flow3_Spec.cdz b (linear b gx gy gz) i j k = gz /\
  (linear b gx gy gz i j k - linear b gx gy gz (i - 1)%Z j k) / hx b = gx /\ (linear b gx gy gz i j k - linear b gx gy gz i (j - 1)%Z k) / hy b = gy /\
  (linear b gx gy gz i j k - linear b gx gy gz i j (k - 1)%Z) / hz b = gz.
Proof. intros. unfold Flow3_Spec.cdx, Flow3_Spec.cdy, Flow3_Spec.cdz, linear. rewrite !plus_IZR, !minus_IZR. repeat split; field; auto. Qed.
Lemma linear_phase : forall pr b q gx gy gz i j k, hx (zbox b) <> 0 -> hy (zbox b) <> 0 -> hz (zbox b) <> 0 -> 0 < anisotropy pr ->
  phase_density3 pr (linear_patch b q gx gy gz) 1 i j k = crystal_density (epsilon_phi pr) (anisotropy pr) q gx gy gz.
Proof.
  intros pr b q gx gy gz i j k Hx Hy Hz Ha. unfold phase_density3. cbv zeta. destruct (Rlt_dec _ _); [| contradiction].
  change (phase_of (linear_patch b q gx gy gz) 1%Z) with (linear (zbox b) gx gy gz). cbn [linear_patch zbox zf zquat].
  destruct (linear_slopes (zbox b) gx gy gz i j k Hx Hy Hz) as (-> & -> & -> & _). reflexivity.
Qed.
Lemma right_symmetry : exists n q q' t t', in_table 48 n /\ unit4 q /\ quatsymmrotate4 q n = Some (n, q') /\
  evaluateEnergy3 pr3_cubic [[(steady3 q, none3)]] = Some t /\ evaluateEnergy3 pr3_cubic [[(steady3 q', none3)]] = Some t' /\ t_phase t' < t_phase t.
Proof.
  set (q := Flow3_Proofs.sample_quat). set (q' := quatmult4 q (qr4 9)).
  destruct (proj2 (energy3_defined pr3_cubic [[(steady3 q, none3)]]) ltac:(reflexivity)) as [t H].
  destruct (proj2 (energy3_defined pr3_cubic [[(steady3 q', none3)]]) ltac:(reflexivity)) as [t' H'].
  exists 9%Z, q, q', t, t'. split; [unfold in_table; lia |]. split; [apply Flow3_Proofs.sample_unit |]. split; [apply Flow3_Proofs.symmetry_rotation |].
  split; [exact H | split; [exact H' |]].
  assert (Hr : regular pr3_cubic) by (intro; cbn; lra).
  destruct (energy3_sums _ _ _ Hr H) as (_ & ->). destruct (energy3_sums _ _ _ Hr H') as (_ & ->). cbn [over_ranks3 over_patches3 fst].
  assert (E : forall q, over3 (steady3 q) (all_phases3 pr3_cubic (phase_density3 pr3_cubic (steady3 q))) = crystal_density 1 (1 / 10) q 0 0 1).
  { intro p. unfold over3, sum_box3. cbn [steady3 linear_patch zbox zf zweight b3_ex xl xu yl yu zl zu]. rewrite !Energy_Proofs.sum_at.
    unfold all_phases3. cbn [nphases pr3_cubic]. rewrite Energy_Proofs.sum_at. unfold steady3. rewrite linear_phase by (cbn; lra). cbn [epsilon_phi anisotropy pr3_cubic]. ring. }
  rewrite !E. unfold crystal_density. pose proof Flow3_Proofs.threshold3_pos as T. unfold Flow3_Proofs.threshold3 in T.
  assert (L : 1 / 10 ^ 12 < 0 ^ 2 + 0 ^ 2 + 1 ^ 2).
  { replace (0 ^ 2 + 0 ^ 2 + 1 ^ 2) with 1 by ring. apply (Rmult_lt_reg_r (10 ^ 12)); [lra |]. unfold Rdiv. rewrite Rmult_assoc, Rinv_l by lra. lra. }
  destruct (Rlt_dec _ _); [| contradiction]. unfold Flow3_Spec.cubic_density, Flow3_Spec.cubic_gamma, Flow3_Spec.turned. unfold q'. rewrite !Flow3_Proofs.rotated_column by (unfold idx3; lia).
  cbn [Z.eqb Pos.eqb]. rewrite !Rmult_0_r, !Rplus_0_l.
  replace (quatrotationmatrix q 1%Z 3%Z) with 0 by (unfold q; cbn; field). replace (quatrotationmatrix q 2%Z 3%Z) with 0 by (unfold q; cbn; field).
  replace (quatrotationmatrix q 3%Z 3%Z) with 1 by (unfold q; cbn; field). lra.
Qed.

(** for constant slopes the fluxes are the derivatives of the reported energy *)
Lemma linear_total : forall pr b q gx gy gz en t, hx (zbox b) <> 0 -> hy (zbox b) <> 0 -> hz (zbox b) <> 0 -> 0 < anisotropy pr -> 3 * anisotropy pr <> 1 -> nphases pr = 1%Z ->
  evaluateEnergy3 pr [[(linear_patch b q gx gy gz, en)]] = Some t ->
  t_phase t = crystal_density (epsilon_phi pr) (anisotropy pr) q gx gy gz * over3 b (fun _ _ _ => 1).
Proof.
  intros pr b q gx gy gz en t Hx Hy Hz Ha Hn N H. assert (Hr : regular pr) by (intro; auto).
  destruct (energy3_sums pr _ t Hr H) as (_ & ->). cbn [over_ranks3 over_patches3 fst]. rewrite !Rplus_0_r. rewrite <- over3_scal.
  unfold over3. cbn [linear_patch zbox zf zweight]. apply sum_box3_ext. intros i j k _. unfold all_phases3. rewrite N, Energy_Proofs.sum_at, linear_phase by auto. ring.
Qed.
Lemma square_near : forall x c d, c < x ^ 2 + d -> exists a b, a < x < b /\ forall z, a < z < b -> c < z ^ 2 + d.
Proof.
  intros x c d H. set (e := x ^ 2 + d - c). assert (E : 0 < e) by (unfold e; lra).
  pose proof (Rabs_pos x) as P. set (dl := e / (2 * Rabs x + 1)). assert (D : 0 < dl) by (apply Rdiv_lt_0_compat; lra).
  exists (x - dl), (x + dl). split; [lra |]. intros z Hz.
  assert (M : 2 * Rabs x * dl < e).
  { unfold dl. apply (Rmult_lt_reg_r (2 * Rabs x + 1)); [lra |]. replace (2 * Rabs x * (e / (2 * Rabs x + 1)) * (2 * Rabs x + 1)) with (2 * Rabs x * e) by (field; lra). nra. }
  assert (B : - (2 * Rabs x * dl) <= 2 * x * (z - x)).
  { pose proof (Rabs_def2 (z - x) dl) as _. assert (Rabs (x * (z - x)) <= Rabs x * dl).
    { rewrite Rabs_mult. apply Rmult_le_compat_l; auto. apply Rabs_le. lra. }
    pose proof (Rle_abs (- (x * (z - x)))). rewrite Rabs_Ropp in *. lra. }
  pose proof (pow2_ge_0 (z - x)). unfold e in M. nra.
Qed.
Lemma local_limit : forall f g x a b l, a < x < b -> (forall z, a < z < b -> f z = g z) -> derivable_pt_lim f x l -> derivable_pt_lim g x l.
Proof.
  intros f g x a b l H E D eps He. destruct (D eps He) as [dl Hd].
  assert (P : 0 < Rmin dl (Rmin (x - a) (b - x))). { apply Rmin_pos; [apply cond_pos | apply Rmin_pos; lra]. }
  exists (mkposreal _ P). intros h Hh Hl. cbn [pos] in Hl.
  assert (L1 : Rabs h < dl) by (eapply Rlt_le_trans; [exact Hl | apply Rmin_l]).
  assert (L2 : Rabs h < x - a) by (eapply Rlt_le_trans; [exact Hl |]; eapply Rle_trans; [apply Rmin_r | apply Rmin_l]).
  assert (L3 : Rabs h < b - x) by (eapply Rlt_le_trans; [exact Hl |]; eapply Rle_trans; [apply Rmin_r | apply Rmin_r]).
  apply Rabs_def2 in L2. apply Rabs_def2 in L3. rewrite <- (E x), <- (E (x + h)) by lra. apply Hd; auto.
Qed.
Lemma crystal_derivatives : forall eps e4 q gx gy gz, 1 / 10 ^ 12 < gx ^ 2 + gy ^ 2 + gz ^ 2 -> unit4 q ->
  derivable_pt_lim (fun g => crystal_density eps e4 q g gy gz) gx (Flow3_Proofs.face_value eps e4 q 1 gx gy gz gx) /\
  derivable_pt_lim (fun g => crystal_density eps e4 q gx g gz) gy (Flow3_Proofs.face_value eps e4 q 2 gx gy gz gy) /\
  derivable_pt_lim (fun g => crystal_density eps e4 q gx gy g) gz (Flow3_Proofs.face_value eps e4 q 3 gx gy gz gz).
Proof.
  intros eps e4 q gx gy gz P U. pose proof Flow3_Proofs.threshold3_pos as T. unfold Flow3_Proofs.threshold3 in T.
  destruct (Flow3_Proofs.density_derivatives eps e4 q gx gy gz ltac:(lra) U) as (D1 & D2 & D3).
  split; [| split].
  - destruct (square_near gx (1 / 10 ^ 12) (gy ^ 2 + gz ^ 2) ltac:(lra)) as (a & b & Hx & N). apply (local_limit (fun g => Flow3_Spec.cubic_density eps e4 q g gy gz) _ _ a b); auto.
    intros z Hz. unfold crystal_density. specialize (N z Hz). destruct (Rlt_dec _ _); [reflexivity | lra].
  - destruct (square_near gy (1 / 10 ^ 12) (gx ^ 2 + gz ^ 2) ltac:(lra)) as (a & b & Hx & N). apply (local_limit (fun g => Flow3_Spec.cubic_density eps e4 q gx g gz) _ _ a b); auto.
    intros z Hz. unfold crystal_density. specialize (N z Hz). destruct (Rlt_dec _ _); [reflexivity | lra].
  - destruct (square_near gz (1 / 10 ^ 12) (gx ^ 2 + gy ^ 2) ltac:(lra)) as (a & b & Hx & N). apply (local_limit (fun g => Flow3_Spec.cubic_density eps e4 q gx gy g) _ _ a b); auto.
    intros z Hz. unfold crystal_density. specialize (N z Hz). destruct (Rlt_dec _ _); [reflexivity | lra].
Qed.
Lemma scaled_limit : forall f x l c, derivable_pt_lim f x l -> derivable_pt_lim (fun g => f g * c) x (l * c).
Proof.
  intros f x l c D. assert (E : l * c = l * c + f x * 0) by ring. rewrite E. apply (derivable_pt_lim_mult f (fun _ => c)); auto. apply derivable_pt_lim_const.
Qed.
Lemma linear_face_slopes : forall b gx gy gz i j k, Flow3_Spec.spaced b -> let f := linear b gx gy gz in
  (Flow3_Spec.slope_xx b f i j k = gx /\ Flow3_Spec.slope_xy b f i j k = gy /\ Flow3_Spec.slope_xz b f i j k = gz) /\
  (Flow3_Spec.slope_yx b f i j k = gx /\ Flow3_Spec.slope_yy b f i j k = gy /\ Flow3_Spec.slope_yz b f i j k = gz) /\
  (Flow3_Spec.slope_zx b f i j k = gx /\ Flow3_Spec.slope_zy b f i j k = gy /\ Flow3_Spec.slope_zz b f i j k = gz).
Proof.
  intros b gx gy gz i j k (Hx & Hy & Hz) f.
  assert (A : forall i j k, Flow3_Spec.cdx b f i j k = gx) by (intros; apply linear_slopes; auto).
  assert (B : forall i j k, Flow3_Spec.cdy b f i j k = gy) by (intros; apply linear_slopes; auto).
  assert (C : forall i j k, Flow3_Spec.cdz b f i j k = gz) by (intros; apply linear_slopes; auto).
  destruct (linear_slopes b gx gy gz i j k Hx Hy Hz) as (_ & _ & _ & D & E & F).
  unfold Flow3_Spec.slope_xx, Flow3_Spec.slope_xy, Flow3_Spec.slope_xz, Flow3_Spec.slope_yx, Flow3_Spec.slope_yy, Flow3_Spec.slope_yz,
    Flow3_Spec.slope_zx, Flow3_Spec.slope_zy, Flow3_Spec.slope_zz, mean. rewrite !A, !B, !C. unfold f. rewrite D, E, F. repeat split; field.
Qed.
Lemma linear_fluxes : forall pr b q gx gy gz en old i j k, Flow3_Spec.spaced (zbox b) -> 0 < anisotropy pr -> 3 * anisotropy pr <> 1 -> nphases pr = 1%Z -> unit4 q ->
  1 / 10 ^ 12 < gx ^ 2 + gy ^ 2 + gz ^ 2 ->
  let F := Flow3_Model.anisotropic_flux3 (zbox b) (epsilon_phi pr) (anisotropy pr) (linear (zbox b) gx gy gz) (fun _ _ _ => q) old in
  let volume := over3 b (fun _ _ _ => 1) in
  (forall T, on_x (zbox b) i j k -> (forall g, evaluateEnergy3 pr [[(linear_patch b q g gy gz, en)]] = Some (T g)) ->
    derivable_pt_lim (fun g => t_phase (T g)) gx (flux0 F i j k * volume)) /\
  (forall T, on_y (zbox b) i j k -> (forall g, evaluateEnergy3 pr [[(linear_patch b q gx g gz, en)]] = Some (T g)) ->
    derivable_pt_lim (fun g => t_phase (T g)) gy (flux1 F i j k * volume)) /\
  (forall T, on_z (zbox b) i j k -> (forall g, evaluateEnergy3 pr [[(linear_patch b q gx gy g, en)]] = Some (T g)) ->
    derivable_pt_lim (fun g => t_phase (T g)) gz (flux2 F i j k * volume)).
Proof.
  intros pr b q gx gy gz en old i j k Hs Ha Hn N U P F volume.
  destruct (crystal_derivatives (epsilon_phi pr) (anisotropy pr) q gx gy gz P U) as (D1 & D2 & D3).
  destruct (linear_face_slopes (zbox b) gx gy gz i j k Hs) as ((X1 & X2 & X3) & (Y1 & Y2 & Y3) & (Z1 & Z2 & Z3)). cbv zeta in *.
  pose proof Hs as (Hx & Hy & Hz).
  split; [| split]; intros T O HT.
  - apply (local_limit (fun g => crystal_density (epsilon_phi pr) (anisotropy pr) q g gy gz * volume) _ gx (gx - 1) (gx + 1)); [lra | |].
    + intros z _. symmetry. apply (linear_total pr b q z gy gz en); auto.
    + apply scaled_limit. unfold F. rewrite Flow3_Proofs.aniso_x, Flow3_Proofs.in_x, X1, X2, X3 by auto.
      destruct (Flow3_Proofs.face_of_inside (epsilon_phi pr) (anisotropy pr) gx gy gz q (Q4 0 0 0 1) P Hn U) as (-> & _). exact D1.
  - apply (local_limit (fun g => crystal_density (epsilon_phi pr) (anisotropy pr) q gx g gz * volume) _ gy (gy - 1) (gy + 1)); [lra | |].
    + intros z _. symmetry. apply (linear_total pr b q gx z gz en); auto.
    + apply scaled_limit. unfold F. rewrite Flow3_Proofs.aniso_y, Flow3_Proofs.in_y, Y1, Y2, Y3 by auto.
      destruct (Flow3_Proofs.face_of_inside (epsilon_phi pr) (anisotropy pr) gx gy gz q (Q4 0 0 0 1) P Hn U) as (_ & -> & _). exact D2.
  - apply (local_limit (fun g => crystal_density (epsilon_phi pr) (anisotropy pr) q gx gy g * volume) _ gz (gz - 1) (gz + 1)); [lra | |].
    + intros z _. symmetry. apply (linear_total pr b q gx gy z en); auto.
    + apply scaled_limit. unfold F. rewrite Flow3_Proofs.aniso_z, Flow3_Proofs.in_z, Z1, Z2, Z3 by auto.
      destruct (Flow3_Proofs.face_of_inside (epsilon_phi pr) (anisotropy pr) gx gy gz q (Q4 0 0 1 0) P Hn U) as (_ & _ & ->). exact D3.
Qed.

(** ** plane problems as slabs *)
Lemma slab_crystal : forall eps e4 alpha gx gy, clear_slope gx gy ->
  crystal_density eps e4 (Flow3_Spec.about_z (- alpha)) gx gy 0 =
  (eps * (1 + e4 * cos (4 * (PhaseFlow_Model.grad_angle gx gy - alpha)))) ^ 2 / 2 * (gx ^ 2 + gy ^ 2).
Proof.
  intros eps e4 alpha gx gy [(-> & ->) | (P & Hg)].
  { unfold crystal_density. pose proof Flow3_Proofs.threshold3_pos as T. unfold Flow3_Proofs.threshold3 in T. destruct (Rlt_dec _ _) as [L | L]; [| ring].
    exfalso. replace (0 ^ 2 + 0 ^ 2 + 0 ^ 2) with 0 in L by ring. lra. }
  unfold crystal_density. replace (gx ^ 2 + gy ^ 2 + 0 ^ 2) with (gx ^ 2 + gy ^ 2) by ring. destruct (Rlt_dec _ _) as [_ |]; [| contradiction].
  pose proof Flow3_Proofs.threshold3_pos as T. unfold Flow3_Proofs.threshold3 in T.
  destruct (Flow3_Proofs.polar gx gy ltac:(lra) Hg) as (r & R0 & Ex & Ey & Er). set (th := PhaseFlow_Model.grad_angle gx gy) in *. clearbody th.
  unfold Flow3_Spec.cubic_density, Flow3_Spec.cubic_gamma, Flow3_Spec.turned.
  destruct (Flow3_Proofs.about_z_matrix alpha) as (-> & -> & -> & -> & -> & -> & -> & -> & ->).
  replace (gx ^ 2 + gy ^ 2 + 0 ^ 2) with (r ^ 2) by (rewrite Er; ring). rewrite <- Er.
  replace (cos alpha * gx + sin alpha * gy + 0 * 0) with (r * cos (th - alpha)) by (rewrite cos_minus, Ex, Ey; ring).
  replace (- sin alpha * gx + cos alpha * gy + 0 * 0) with (r * sin (th - alpha)) by (rewrite sin_minus, Ex, Ey; ring).
  replace (0 * gx + 0 * gy + 1 * 0) with 0 by ring.
  pose proof (sin2_cos2 (th - alpha)) as Q. unfold Rsqr in Q.
  destruct (Flow3_Proofs.quadruple (cos (th - alpha)) (sin (th - alpha)) ltac:(lra) (th - alpha) eq_refl eq_refl) as (-> & _).
  f_equal. f_equal. f_equal. f_equal. field. auto.
Qed.
Lemma clear_angle : forall a, 0 <= a <= 2 * PI -> 2 * acos (Rmax (-1) (Rmin 1 (cos (a / 2)))) = a.
Proof.
  intros a H. pose proof (COS_bound (a / 2)). rewrite Rmin_right, Rmax_right by lra. rewrite acos_cos by lra. field.
Qed.
Lemma slab_phase : forall pr b e p i j k, slab_of b e -> hz (zbox b) <> 0 -> anisotropy pr <= 0 \/
  (knumber pr = 4 /\ depth pr = 4%Z /\ clear_slope (Energy_Spec.central (fun k => ephi e k j p) i (edx e)) (Energy_Spec.central (fun k => ephi e i k p) j (edy e)) /\
   exists alpha, turned_about_z alpha b e) ->
  phase_density3 pr b p i j k = Energy_Spec.phase_density pr e p i j.
Proof.
  intros pr b e p i j k (_ & _ & _ & _ & Ex & Ey & Ep & _) Hz H. unfold phase_density3, Energy_Spec.phase_density, phase_of. cbv zeta. rewrite Ep, Ex, Ey.
  destruct (Rlt_dec 0 (anisotropy pr)) as [Ha | Ha].
  - destruct H as [H | (Ek & Ed & Hc & alpha & Ht)]; [lra |]. rewrite Ek, Ed. change (4 =? 4)%Z with true. cbv iota.
    destruct (Ht i j k) as (Ra & Eq & Eq3). rewrite Eq, Eq3, clear_angle by auto. rewrite Ex, Ey in Hc.
    unfold Flow3_Spec.cdx, Flow3_Spec.cdy, Flow3_Spec.cdz, flat4. fold (Energy_Spec.central (fun k => ephi e k j p) i (hx (zbox b))).
    fold (Energy_Spec.central (fun k => ephi e i k p) j (hy (zbox b))). replace ((ephi e i j p - ephi e i j p) / (2 * hz (zbox b))) with 0 by (field; auto).
    rewrite slab_crystal by auto. replace (PI / 2) with (1 / 2 * PI) by field. reflexivity.
  - unfold laplace3, Energy_Spec.second, flat4. unfold Rdiv. ring.
Qed.
Lemma slab_well : forall pr b e p i j k, slab_of b e -> well_density3 pr b p i j k = Energy_Spec.well_density pr e p i j.
Proof. intros pr b e p i j k (_ & _ & _ & _ & _ & _ & Ep & _). unfold well_density3, phase_of. rewrite Ep. reflexivity. Qed.
Lemma slab_bulk : forall pr b e i j k, slab_of b e -> bulk_density3 pr b i j k = Energy_Spec.bulk_density pr e i j.
Proof. intros pr b e i j k (_ & _ & _ & _ & _ & _ & Ep & _ & El & Ea & _). unfold bulk_density3, phase_of. rewrite Ep, El, Ea. reflexivity. Qed.
Lemma over3_slab : forall b e f g, slab_of b e -> (zl (zbox b) <= zu (zbox b) + 1)%Z -> (forall i j k, f i j k = g i j) ->
  over3 b f = hz (zbox b) * IZR (layers b) * Energy_Spec.over e g.
Proof.
  intros b e f g (E0 & E1 & E2 & E3 & _ & _ & _ & _ & _ & _ & Ew) Hl H. unfold over3, sum_box3, layers.
  rewrite (sumZ_ext _ _ _ (fun _ => hz (zbox b) * Energy_Spec.over e g)).
  - rewrite sumZ_const by auto. ring.
  - intros k _. unfold Energy_Spec.over, sum_box. rewrite E0, E1, E2, E3. rewrite <- sumZ_scal. apply sumZ_ext. intros j _. rewrite <- sumZ_scal. apply sumZ_ext. intros i _.
    rewrite Ew, H. ring.
Qed.
Lemma slab_totals : forall pr b e en en2 t t2, slab_of b e -> (zl (zbox b) <= zu (zbox b) + 1)%Z -> hz (zbox b) <> 0 -> misorientation pr <= 0 ->
  regular pr -> anisotropy pr <= 0 \/ (knumber pr = 4 /\ depth pr = 4%Z /\ slab_slopes (nphases pr) e /\ exists alpha, turned_about_z alpha b e) ->
  evaluateEnergy3 pr [[(b, en)]] = Some t -> evaluateEnergy pr [[(e, en2)]] = Some t2 ->
  let c := hz (zbox b) * IZR (layers b) in
  t_energy t = c * t_energy t2 /\ t_phase t = c * t_phase t2 /\ t_orient t = c * t_orient t2 /\ t_qint t = c * t_qint t2 /\
  t_well t = c * t_well t2 /\ t_free t = c * t_free t2.
Proof.
  intros pr b e en en2 t t2 Hs Hl Hz Hm Hr Ha H H2 c.
  destruct (energy3_sums pr _ t Hr H) as (A1 & A2). destruct (energy3_lasts pr _ t Hr H) as (A3 & A4 & A5 & A6).
  destruct (Energy_Proofs.energy_totals pr _ t2 H2) as (B1 & B2 & B3 & B4). destruct (Energy_Proofs.energy_lasts pr _ t2 H2) as (B5 & B6).
  rewrite A1, A2, A3, A4, A5, A6, B1, B2, B3, B4, B5, B6. cbn [over_ranks3 over_patches3 over_lasts3 fst Energy_Spec.over_ranks Energy_Spec.over_patches Energy_Spec.over_lasts].
  unfold over_last3, Energy_Spec.over_last. cbn [rev app fst]. rewrite !Rplus_0_r.
  assert (D1 : forall i j k, all_phases3 pr (phase_density3 pr b) i j k = Energy_Spec.all_phases pr (Energy_Spec.phase_density pr e) i j).
  { intros i j k. apply sumZ_ext. intros p Hp. apply slab_phase; auto. destruct Ha as [Ha | (K & D & S & T)]; [left; auto | right; auto 6]. }
  assert (D2 : forall i j k, orient_density3 0 pr b i j k = Energy_Spec.all_phases pr (Energy_Spec.orient_density pr e) i j).
  { intros i j k. unfold orient_density3, Energy_Spec.all_phases. rewrite (sumZ_ext _ _ _ (fun _ => 0)), sumZ_zero.
    - destruct (Rlt_dec 0 (misorientation pr)); [lra | reflexivity].
    - intros p _. unfold Energy_Spec.orient_density. destruct (Rlt_dec 0 (misorientation pr)); [lra | reflexivity]. }
  assert (D3 : forall i j k, qint_density3 pr b i j k = Energy_Spec.all_phases pr (Energy_Spec.qint_density pr e) i j).
  { intros i j k. unfold qint_density3, Energy_Spec.all_phases. rewrite (sumZ_ext _ _ _ (fun _ => 0)), sumZ_zero.
    - destruct (Rlt_dec 0 (misorientation pr)); [lra | reflexivity].
    - intros p _. unfold Energy_Spec.qint_density. destruct (Rlt_dec 0 (misorientation pr)); [lra | reflexivity]. }
  assert (D4 : forall i j k, all_phases3 pr (well_density3 pr b) i j k = Energy_Spec.all_phases pr (Energy_Spec.well_density pr e) i j).
  { intros i j k. apply sumZ_ext. intros p _. apply slab_well; auto. }
  assert (D5 : forall i j k, bulk_density3 pr b i j k = Energy_Spec.bulk_density pr e i j) by (intros; apply slab_bulk; auto).
  repeat split; apply over3_slab; auto. intros i j k. unfold density3, Energy_Spec.density. rewrite D1, D2, D3, D4, D5. reflexivity.
Qed.
(** with the same orientation instead of its mirror image the energies differ *)
Definition oblique_patch (alpha : R) : epatch3 := linear_patch (b3_ex 0 0 0 0 0 unit_q) (Flow3_Spec.about_z alpha) 2 1 0.
Definition oblique_plane (alpha : R) : epatch :=
  mk_epatch 0 0 0 0 1 1 (fun i j _ => 2 * 1 * IZR i + 1 * 1 * IZR j + 0 * 1 * 0) (fun _ _ _ => cos (alpha / 2)) (fun _ _ _ _ => 0) (fun _ _ _ _ => 0)
    (fun _ _ => 1) (fun _ _ => 1) (fun _ _ => 1) (fun _ _ => 1).
Lemma oblique_angle : sin (4 * PhaseFlow_Model.grad_angle 2 1) = 24 / 25.
Proof.
  destruct (Flow3_Proofs.polar 2 1 ltac:(lra)) as (r & R0 & Ex & Ey & Er).
  { right. rewrite Rabs_right by lra. apply (Rmult_lt_reg_r (10 ^ 12)); [lra |]. unfold Rdiv. rewrite Rmult_assoc, Rinv_l by lra. lra. }
  set (th := PhaseFlow_Model.grad_angle 2 1) in *. clearbody th.
  assert (Ec : cos th = 2 * / r) by (rewrite Ex; field; auto). assert (Es : sin th = 1 * / r) by (rewrite Ey; field; auto).
  pose proof (sin2_cos2 th) as Q. unfold Rsqr in Q.
  destruct (Flow3_Proofs.quadruple (cos th) (sin th) ltac:(lra) th eq_refl eq_refl) as (_ & ->). rewrite Ec, Es.
  replace (4 * (1 * / r) * (2 * / r) * ((2 * / r) ^ 2 - (1 * / r) ^ 2)) with (24 / (r ^ 2) ^ 2) by (field; auto). rewrite Er. field.
Qed.
Definition pr3_mirror : eparams := mk_eparams 4 1 1 2 (1 / 10) 4 0 1 false "p" "d" "p" "p" "a" "s" 0.
Lemma oblique_slab : forall a a', slab_of (oblique_patch a') (oblique_plane a).
Proof.
  intros a a'. repeat split; try reflexivity.
  - apply functional_extensionality; intro i. apply functional_extensionality; intro j. apply functional_extensionality; intro k. apply functional_extensionality; intro p.
    cbn [oblique_patch oblique_plane linear_patch zf zphi ephi zbox b3_ex]. unfold linear, flat4. cbn [hx hy hz ephi]. ring.
  - intros. cbn. ring.
Qed.
Lemma oblique_slopes : slab_slopes 1 (oblique_plane (PI / 8)).
Proof.
  intros p i j _. unfold Energy_Spec.central, oblique_plane. cbn [ephi edx edy]. rewrite !plus_IZR, !minus_IZR.
  assert (T : 1 / 10 ^ 12 < 1). { apply (Rmult_lt_reg_r (10 ^ 12)); [lra |]. unfold Rdiv. rewrite Rmult_assoc, Rinv_l by lra. lra. }
  right. match goal with |- context [?x ^ 2 + ?y ^ 2] => replace x with 2 by field; replace y with 1 by field end. split; [| right; rewrite Rabs_right by lra]; lra.
Qed.
Lemma oblique_total : forall a t, evaluateEnergy3 pr3_mirror [[(oblique_patch (- a), none3)]] = Some t ->
  t_phase t = (1 + 1 / 10 * cos (4 * PhaseFlow_Model.grad_angle 2 1 - 4 * a)) ^ 2 / 2 * 5.
Proof.
  intros a t H. unfold oblique_patch in H.
  rewrite (linear_total pr3_mirror (b3_ex 0 0 0 0 0 unit_q) _ _ _ _ _ _ ltac:(cbn; lra) ltac:(cbn; lra) ltac:(cbn; lra) ltac:(cbn; lra) ltac:(cbn; lra) eq_refl H).
  cbn [epsilon_phi anisotropy pr3_mirror]. rewrite slab_crystal.
  - rewrite over3_one. rewrite <- Rmult_minus_distr_l. field.
  - assert (T : 1 / 10 ^ 12 < 1). { apply (Rmult_lt_reg_r (10 ^ 12)); [lra |]. unfold Rdiv. rewrite Rmult_assoc, Rinv_l by lra. lra. }
    right. split; [| right; rewrite Rabs_right by lra]; lra.
Qed.
Lemma mirror_crystal : exists pr b e t t2, slab_of b e /\ knumber pr = 4 /\ depth pr = 4%Z /\ misorientation pr <= 0 /\ 0 < anisotropy pr /\ regular pr /\
  slab_slopes (nphases pr) e /\ (exists alpha, 0 <= alpha <= 2 * PI /\ forall i j k, equat e i j 1%Z = cos (alpha / 2) /\ zquat (zf b) i j k = Flow3_Spec.about_z alpha) /\
  evaluateEnergy3 pr [[(b, none3)]] = Some t /\ evaluateEnergy pr [[(e, fun _ _ => 0)]] = Some t2 /\ hz (zbox b) * IZR (layers b) = 1 /\ t_phase t < t_phase t2.
Proof.
  set (a := PI / 8). pose proof PI_RGT_0 as Hpi.
  destruct (proj2 (energy3_defined pr3_mirror [[(oblique_patch a, none3)]]) ltac:(reflexivity)) as [t H].
  destruct (proj2 (energy3_defined pr3_mirror [[(oblique_patch (- a), none3)]]) ltac:(reflexivity)) as [t' H'].
  destruct (proj2 (Energy_Proofs.energy_defined pr3_mirror [[(oblique_plane a, fun _ _ => 0)]]) ltac:(reflexivity)) as [t2 H2].
  exists pr3_mirror, (oblique_patch a), (oblique_plane a), t, t2. assert (Hr : regular pr3_mirror) by (intro; cbn; lra).
  split; [apply oblique_slab |]. split; [reflexivity |]. split; [reflexivity |]. split; [cbn; lra |]. split; [cbn; lra |]. split; [exact Hr |].
  split; [exact oblique_slopes |]. split. { exists a. split; [unfold a; lra |]. intros; split; reflexivity. }
  split; [exact H |]. split; [exact H2 |]. split; [cbn; ring |].
  destruct (slab_totals pr3_mirror _ _ none3 (fun _ _ => 0) t' t2 (oblique_slab a (- a)) ltac:(cbn; lia) ltac:(cbn; lra) ltac:(cbn; lra) Hr) as (_ & E & _); auto.
  { right. split; [reflexivity |]. split; [reflexivity |]. split; [exact oblique_slopes |]. exists (fun _ _ => a). intros i j k. split; [unfold a; lra |]. split; reflexivity. }
  replace (hz (zbox (oblique_patch (- a))) * IZR (layers (oblique_patch (- a)))) with 1 in E by (cbn; ring). rewrite Rmult_1_l in E. rewrite <- E.
  rewrite (oblique_total a t' H'). replace a with (- - a) in H by ring. rewrite (oblique_total (- a) t H).
  replace (4 * - a) with (- (PI / 2)) by (unfold a; field). replace (4 * a) with (PI / 2) by (unfold a; field).
  rewrite !cos_minus, cos_neg, sin_neg, cos_PI2, sin_PI2, oblique_angle. lra.
Qed.

(** ** pair energies *)
Definition pair_body3 (gamma m : R) (pc : bool) (n : Z) (b : epatch3) (p2 p1 : Z) (s : pair_state3) : pair_state3 :=
    let ix := (n * (p1 - 1) + p2)%Z in
    patch_cells b (fun i j k (s : pair_state3) =>
      let e := pair_e3 gamma m b p1 p2 i j k in
      (set1 (fst s) ix (fst s ix + e * zweight (zf b) i j k), if pc then upd3 (snd s) i j k e else snd s))
    (set1 (fst s) ix 0, snd s).
Lemma phiphi_body3 : forall gamma m pc n b s, phiphi_interfacialenergy3 gamma m pc n b s =
  do_cells 1 n 1 n (pair_body3 gamma m pc n b) (fst s, clear_energy3 pc b (snd s)).
Proof. reflexivity. Qed.
Lemma pair_density3_eq : forall gamma m b p1 p2 i j k, pair_e3 gamma m b p1 p2 i j k = pair_density3 gamma m p1 p2 b i j k.
Proof. intros. unfold pair_e3, pair_density3. field. Qed.
Lemma pair_body3_other : forall gamma m pc n b p2 p1 s k, (k <> n * (p1 - 1) + p2)%Z -> fst (pair_body3 gamma m pc n b p2 p1 s) k = fst s k.
Proof.
  intros gamma m pc n b p2 p1 s k H. unfold pair_body3. cbv zeta.
  rewrite (obs_patch pair_state3 (fun s => fst s k) b (fun _ _ _ => 0)).
  - cbn [fst]. unfold set1. destruct (Z.eqb_spec k (n * (p1 - 1) + p2)%Z); [contradiction |].
    unfold sum_box3. rewrite (sumZ_ext _ _ _ (fun _ => 0)), sumZ_zero; [ring |]. intros. rewrite (sumZ_ext _ _ _ (fun _ => 0)) by (intros; apply sumZ_zero). apply sumZ_zero.
  - intros i j l s'. cbn [fst]. unfold set1. destruct (Z.eqb_spec k (n * (p1 - 1) + p2)%Z); [contradiction | ring].
Qed.
Lemma pair_body3_same : forall gamma m pc n b p2 p1 s, fst (pair_body3 gamma m pc n b p2 p1 s) (n * (p1 - 1) + p2)%Z = over3 b (pair_density3 gamma m p1 p2 b).
Proof.
  intros gamma m pc n b p2 p1 s. unfold pair_body3, over3. cbv zeta.
  rewrite (obs_patch pair_state3 (fun s => fst s (n * (p1 - 1) + p2)%Z) b (fun i j k => zweight (zf b) i j k * pair_density3 gamma m p1 p2 b i j k)).
  - cbn [fst]. unfold set1. rewrite Z.eqb_refl. ring.
  - intros i j k s'. cbn [fst]. unfold set1. rewrite Z.eqb_refl, pair_density3_eq. ring.
Qed.
Lemma pair_patch3 : forall gamma m pc n b s p1 p2, (1 <= p1 <= n)%Z -> (1 <= p2 <= n)%Z ->
  fst (phiphi_interfacialenergy3 gamma m pc n b s) (n * (p1 - 1) + p2)%Z = over3 b (pair_density3 gamma m p1 p2 b).
Proof.
  intros gamma m pc n b s p1 p2 H1 H2. rewrite phiphi_body3.
  destruct (cells_once pair_state3 (fun s s' => fst s (n * (p1 - 1) + p2)%Z = fst s' (n * (p1 - 1) + p2)%Z) 1 n 1 n p2 p1 (pair_body3 gamma m pc n b)
    (fst s, clear_energy3 pc b (snd s))) as (s0 & _ & E).
  - reflexivity.
  - intros x y z A B. congruence.
  - split; auto.
  - intros i j s' [Hi Hj] N. rewrite pair_body3_other; [reflexivity |]. intro E. apply Energy_Proofs.pair_index_inj in E; auto. destruct E; lia.
  - rewrite <- E. apply pair_body3_same.
Qed.
Lemma pair_lasts3 : forall gamma m pc n ps p1 p2, (1 <= p1 <= n)%Z -> (1 <= p2 <= n)%Z ->
  evaluatePairEnergy3 gamma m pc n ps (n * (p1 - 1) + p2)%Z = over_last3 (pair_density3 gamma m p1 p2) ps.
Proof.
  intros gamma m pc n ps p1 p2 H1 H2. unfold evaluatePairEnergy3, over_last3. rewrite <- (rev_involutive ps) at 1.
  destruct (rev ps) as [| p qs]; [reflexivity |]. cbn [rev]. rewrite fold_left_app. cbn [fold_left]. apply pair_patch3; auto.
Qed.
Lemma pair_symmetric3 : forall gamma m pc n ps p1 p2, (1 <= p1 <= n)%Z -> (1 <= p2 <= n)%Z ->
  evaluatePairEnergy3 gamma m pc n ps (n * (p1 - 1) + p2)%Z = evaluatePairEnergy3 gamma m pc n ps (n * (p2 - 1) + p1)%Z.
Proof.
  intros. rewrite !pair_lasts3 by auto. unfold over_last3. destruct (rev ps); [reflexivity |]. apply over3_ext. intros i j k. unfold pair_density3. ring.
Qed.
Lemma pair_map3 : forall gamma m n b s i j k, (1 <= n)%Z -> in_patch3 b i j k ->
  snd (phiphi_interfacialenergy3 gamma m true n b s) i j k = pair_density3 gamma m n n b i j k.
Proof.
  intros gamma m n b s i j k Hn Hb. rewrite phiphi_body3. unfold do_cells. rewrite do_loop_snoc by auto. rewrite do_loop_snoc by auto.
  set (s0 := do_loop 1 (n - 1) _ _). unfold pair_body3, patch_cells. cbv zeta.
  match goal with |- context [do_cells3 _ _ _ _ _ _ ?bd ?st] =>
    destruct (cells3_once pair_state3 (fun s s' => snd s i j k = snd s' i j k) (xl (zbox b)) (xu (zbox b)) (yl (zbox b)) (yu (zbox b)) (zl (zbox b)) (zu (zbox b)) i j k bd st) as (s1 & _ & E) end.
  - reflexivity.
  - intros x y z A B. congruence.
  - auto.
  - intros a c d s' _ N. cbn [snd]. unfold upd3. destruct (Z.eqb_spec i a); destruct (Z.eqb_spec j c); destruct (Z.eqb_spec k d); cbn [andb]; auto. lia.
  - rewrite <- E. cbn [snd]. unfold upd3. rewrite !Z.eqb_refl. cbn [andb]. apply pair_density3_eq.
Qed.
Definition pair_ex (n : Z) : Z -> R := evaluatePairEnergy3 32 1 false n [(cell_ex 0 1, none3)].
Lemma pair_value3 : forall lo hi p1 p2 i j k, pair_density3 32 1 p1 p2 (cell_ex lo hi) i j k = 1.
Proof. intros. unfold pair_density3. cbn [cell_ex b3_ex zf zphi]. field. Qed.
Lemma pair_lost3 : exists b ps ps', cuts3 b [ps] /\ cuts3 b [ps'] /\
  evaluatePairEnergy3 32 1 false 2 ps 2%Z = 2 /\ evaluatePairEnergy3 32 1 false 2 ps' 2%Z = 1.
Proof.
  exists (cell_ex 0 1), [(cell_ex 0 1, none3)], [(cell_ex 0 0, none3); (cell_ex 1 1, none3)]. split; [exact cuts3_one |]. split; [exact cuts3_two |].
  assert (E : forall ps, evaluatePairEnergy3 32 1 false 2 ps 2%Z = over_last3 (pair_density3 32 1 1 2) ps) by (intro; apply (pair_lasts3 32 1 false 2 _ 1 2); lia).
  rewrite !E. unfold over_last3. cbn [rev app fst]. split.
  - unfold cell_ex at 1. rewrite over3_two, !pair_value3. ring.
  - unfold cell_ex at 1. rewrite over3_one, pair_value3. ring.
Qed.
Lemma pair_map_lost3 : exists b i j k, in_patch3 b i j k /\
  forall s, snd (phiphi_interfacialenergy3 32 1 true 2 b s) i j k = 1 /\ pair_sum3 32 1 2 b i j k = 4.
Proof.
  exists (cell_ex 0 1), 0%Z, 0%Z, 0%Z. assert (I : in_patch3 (cell_ex 0 1) 0 0 0) by (repeat split; cbn; lia). split; [exact I |]. intro s. split.
  - rewrite pair_map3 by (auto; lia). apply pair_value3.
  - unfold pair_sum3. rewrite (sumZ_ext _ _ _ (fun _ => 2)).
    + rewrite sumZ_const by lia. cbn. ring.
    + intros p _. rewrite (sumZ_ext _ _ _ (fun _ => 1)) by (intros; apply pair_value3). rewrite sumZ_const by lia. cbn. ring.
Qed.

(** ** the second phase has no orientation energy *)
Definition pr3_two : eparams := mk_eparams 1 2 1 2 0 4 12 1 false "p" "d" "p" "p" "a" "s" 0.
Definition plane_ex : epatch :=
  mk_epatch 0 0 0 0 1 1 (fun _ _ _ => 1 / 2) (fun _ _ _ => 1) (fun _ _ m n => if ((m =? 1) && (n =? 1))%Z then 1 else 0) (fun _ _ m n => if ((m =? 1) && (n =? 1))%Z then 1 else 0)
    (fun _ _ => 1) (fun _ _ => 1) (fun _ _ => 1) (fun _ _ => 1).
Lemma grads_sq2 : forall i j, Energy_Spec.sq_grad 1 (fun _ _ m n => if ((m =? 1) && (n =? 1))%Z then 1 else 0) i j = 1.
Proof.
  intros i j. unfold Energy_Spec.sq_grad. rewrite (sumZ_ext 1 2 _ (fun d => if (d =? 1)%Z then 1 else 0)).
  - rewrite !sumZ_cons by lia. rewrite sumZ_empty by lia. cbn -[IZR pow]. ring.
  - intros d _. rewrite Energy_Proofs.sum_at. cbn [Z.eqb Pos.eqb andb]. destruct (d =? 1)%Z; ring.
Qed.
Lemma second_phase : exists pr b e t t2, slab_of b e /\ hz (zbox b) * IZR (layers b) = 1 /\ regular pr /\
  (forall i j k, sq_grad3 (depth pr) (zgx (zf b)) i j k = 1 /\ sq_grad3 (depth pr) (zgy (zf b)) i j k = 1 /\ sq_grad3 (depth pr) (zgz (zf b)) i j k = 1 /\
    Energy_Spec.sq_grad (depth pr) (egx e) i j = 1 /\ Energy_Spec.sq_grad (depth pr) (egy e) i j = 1) /\
  evaluateEnergy3 pr [[(b, none3)]] = Some t /\ evaluateEnergy pr [[(e, fun _ _ => 0)]] = Some t2 /\ t_orient t = 6 /\ t_orient t2 = 12.
Proof.
  destruct (proj2 (energy3_defined pr3_two [[(cell_ex 0 0, none3)]]) ltac:(reflexivity)) as [t H].
  destruct (proj2 (Energy_Proofs.energy_defined pr3_two [[(plane_ex, fun _ _ => 0)]]) ltac:(reflexivity)) as [t2 H2].
  exists pr3_two, (cell_ex 0 0), plane_ex, t, t2. assert (Hr : regular pr3_two) by (intro Q; cbn in Q; lra).
  split. { repeat split; try reflexivity. intros. cbn. ring. }
  split; [cbn; ring |]. split; [exact Hr |].
  split. { intros i j k. cbn [cell_ex b3_ex zf zgx zgy zgz depth pr3_two plane_ex egx egy]. rewrite !grads_sq, !grads_sq2. repeat split; ring. }
  split; [exact H |]. split; [exact H2 |].
  destruct (energy3_lasts _ _ _ Hr H) as (-> & _). destruct (Energy_Proofs.energy_totals _ _ _ H2) as (_ & _ & -> & _).
  cbn [over_lasts3 Energy_Spec.over_ranks Energy_Spec.over_patches fst]. unfold over_last3. cbn [rev app fst]. unfold cell_ex. rewrite over3_one. split.
  - change (orient_density3 0 pr3_two (b3_ex 0 0 1 1 1 unit_q) 0 0 0) with (orient_density3 0 (pr3_ex 0) (b3_ex 0 0 1 1 1 unit_q) 0 0 0).
    rewrite orient_ex by lra. replace (1 ^ 2 + 0 ^ 2) with 1 by ring. replace (1 ^ 2 + 0) with 1 by ring. rewrite sqrt_1. ring.
  - unfold Energy_Spec.over, sum_box. cbn [plane_ex elo0 ehi0 elo1 ehi1 eweight]. rewrite !Energy_Proofs.sum_at.
    unfold Energy_Spec.all_phases. cbn [nphases pr3_two].
    rewrite (sumZ_ext _ _ _ (fun _ => 6)); [rewrite sumZ_const by lia; cbn; ring |]. intros p _.
    unfold Energy_Spec.orient_density, Energy_Spec.side_p. cbn [misorientation pr3_two]. destruct (Rlt_dec 0 12); [| lra]. cbv zeta.
    cbn [depth avg_type orient1 floor_type gradient_floor pr3_two plane_ex ephi egx egy etemp]. rewrite !grads_sq2, (proj1 half_p).
    change (Ascii.eqb "s" "s") with true. cbv iota. replace (1 + 0 ^ 2) with 1 by ring. rewrite sqrt_1. field.
Qed.

(** ** the phase equation goes down the reported energy *)
Definition bump (a c d i j k : Z) : R := if ((i =? a) && (j =? c) && (k =? d))%Z then 1 else 0.
Lemma pushed_bump : forall phi a c d t i j k, pushed phi a c d t i j k = phi i j k + t * bump a c d i j k.
Proof.
  intros. unfold pushed. rewrite upd3_gain. unfold bump. rewrite (Z.eqb_sym a), (Z.eqb_sym c), (Z.eqb_sym d).
  destruct (_ && _); ring.
Qed.
Lemma laplace_pushed : forall b phi a c d t i j k, laplace3 b (pushed phi a c d t) i j k = laplace3 b phi i j k + t * laplace3 b (bump a c d) i j k.
Proof. intros. unfold laplace3. rewrite !pushed_bump. unfold Rdiv. ring. Qed.
Lemma sum_bump : forall b f a c d, in_box3 (xl b) (xu b) (yl b) (yu b) (zl b) (zu b) a c d ->
  sum_box3 (xl b) (xu b) (yl b) (yu b) (zl b) (zu b) (fun i j k => f i j k * bump a c d i j k) = f a c d.
Proof.
  intros b f a c d (A & B & C). rewrite (sum_box3_ext _ _ _ _ _ _ _ (fun i j k => if ((i =? a) && (j =? c) && (k =? d))%Z then f i j k else 0)).
  - rewrite sum_box3_single, !inbT by auto. reflexivity.
  - intros i j k _. unfold bump. destruct (_ && _); ring.
Qed.
Lemma bump_shift : forall a c d i j k u v w, bump a c d (i + u) (j + v) (k + w) = bump (a - u) (c - v) (d - w) i j k.
Proof.
  intros. unfold bump. replace (i + u =? a)%Z with (i =? a - u)%Z by (destruct (Z.eqb_spec i (a - u)); destruct (Z.eqb_spec (i + u) a); auto; lia).
  replace (j + v =? c)%Z with (j =? c - v)%Z by (destruct (Z.eqb_spec j (c - v)); destruct (Z.eqb_spec (j + v) c); auto; lia).
  replace (k + w =? d)%Z with (k =? d - w)%Z by (destruct (Z.eqb_spec k (d - w)); destruct (Z.eqb_spec (k + w) d); auto; lia). reflexivity.
Qed.
Lemma laplace_bump : forall b a c d i j k, laplace3 b (bump a c d) i j k =
  (bump (a - 1) c d i j k - 2 * bump a c d i j k + bump (a + 1) c d i j k) / hx b ^ 2 +
  (bump a (c - 1) d i j k - 2 * bump a c d i j k + bump a (c + 1) d i j k) / hy b ^ 2 +
  (bump a c (d - 1) i j k - 2 * bump a c d i j k + bump a c (d + 1) i j k) / hz b ^ 2.
Proof.
  intros. unfold laplace3.
  assert (S : forall u v w i' j' k' a' c' d', i' = (i + u)%Z -> j' = (j + v)%Z -> k' = (k + w)%Z -> a' = (a - u)%Z -> c' = (c - v)%Z -> d' = (d - w)%Z ->
    bump a c d i' j' k' = bump a' c' d' i j k) by (intros; subst; apply bump_shift).
  rewrite (S 1 0 0 (i + 1) j k (a - 1) c d)%Z, (S (-1) 0 0 (i - 1) j k (a + 1) c d)%Z, (S 0 1 0 i (j + 1) k a (c - 1) d)%Z, (S 0 (-1) 0 i (j - 1) k a (c + 1) d)%Z,
    (S 0 0 1 i j (k + 1) a c (d - 1))%Z, (S 0 0 (-1) i j (k - 1) a c (d + 1))%Z by lia. reflexivity.
Qed.
Lemma sum_laplace_bump : forall b f a c d, inner_cell b a c d ->
  sum_box3 (xl b) (xu b) (yl b) (yu b) (zl b) (zu b) (fun i j k => f i j k * laplace3 b (bump a c d) i j k) = laplace3 b f a c d.
Proof.
  intros b f a c d (A & B & C).
  rewrite (sum_box3_ext _ _ _ _ _ _ _ (fun i j k =>
    (((f i j k * bump (a - 1) c d i j k) * / hx b ^ 2 + (-2 * (f i j k * bump a c d i j k)) * / hx b ^ 2 + (f i j k * bump (a + 1) c d i j k) * / hx b ^ 2) +
    ((f i j k * bump a (c - 1) d i j k) * / hy b ^ 2 + (-2 * (f i j k * bump a c d i j k)) * / hy b ^ 2 + (f i j k * bump a (c + 1) d i j k) * / hy b ^ 2)) +
    ((f i j k * bump a c (d - 1) i j k) * / hz b ^ 2 + (-2 * (f i j k * bump a c d i j k)) * / hz b ^ 2 + (f i j k * bump a c (d + 1) i j k) * / hz b ^ 2))).
  2:{ intros i j k _. rewrite laplace_bump. unfold Rdiv. ring. }
  assert (SR : forall g r, sum_box3 (xl b) (xu b) (yl b) (yu b) (zl b) (zu b) (fun i j k => g i j k * r) = sum_box3 (xl b) (xu b) (yl b) (yu b) (zl b) (zu b) g * r).
  { intros g r. rewrite Rmult_comm, <- sum_box3_scal. apply sum_box3_ext. intros. ring. }
  rewrite !sum_box3_plus, !SR, !sum_box3_scal, !sum_bump by (repeat split; lia). unfold laplace3, Rdiv. ring.
Qed.
Definition free_density (pr : eparams) (fl fa p : R) : R := well_scale pr * val (well_func p (phi_well pr)) + (1 - val (interp_func p (phi_interp pr))) * fl + val (interp_func p (phi_interp pr)) * fa.
Lemma plain_density : forall pr b phi i j k, nphases pr = 1%Z -> anisotropy pr <= 0 -> misorientation pr <= 0 ->
  density3 pr (with_phase b phi) i j k = - (epsilon_phi pr ^ 2 / 2) * (phi i j k * laplace3 (zbox b) phi i j k) + free_density pr (zfl (zf b) i j k) (zfa (zf b) i j k) (phi i j k).
Proof.
  intros pr b phi i j k N A M. unfold density3, all_phases3. rewrite N, !Energy_Proofs.sum_at. unfold phase_density3, orient_density3, qint_density3, well_density3, bulk_density3.
  destruct (Rlt_dec 0 (anisotropy pr)); [lra |]. destruct (Rlt_dec 0 (misorientation pr)); [lra |]. cbv zeta.
  change (phase_of (with_phase b phi) 1%Z) with phi. cbn [with_phase zbox zf zfl zfa]. unfold free_density. ring.
Qed.
Lemma energy_pushed : forall pr b phi en T w a c d, nphases pr = 1%Z -> anisotropy pr <= 0 -> misorientation pr <= 0 -> inner_cell (zbox b) a c d ->
  (forall i j k, in_patch3 b i j k -> zweight (zf b) i j k = w) -> (forall t, evaluateEnergy3 pr [[(with_phase b (pushed phi a c d t), en)]] = Some (T t)) ->
  exists E0 K, forall t, t_energy (T t) = E0 + w * (- (epsilon_phi pr ^ 2 / 2) * (2 * t * laplace3 (zbox b) phi a c d + t * t * K)
                                   + free_density pr (zfl (zf b) a c d) (zfa (zf b) a c d) (phi a c d + t)).
Proof.
  intros pr b phi en T w a c d N A M I W HT. assert (Hr : regular pr) by (intro; lra).
  set (bx := zbox b). set (S3 := sum_box3 (xl bx) (xu bx) (yl bx) (yu bx) (zl bx) (zu bx)).
  set (F := fun i j k => free_density pr (zfl (zf b) i j k) (zfa (zf b) i j k)).
  assert (Ib : in_box3 (xl bx) (xu bx) (yl bx) (yu bx) (zl bx) (zu bx) a c d) by (destruct I as (I1 & I2 & I3); fold bx in I1, I2, I3; repeat split; lia).
  exists (w * (- (epsilon_phi pr ^ 2 / 2) * S3 (fun i j k => phi i j k * laplace3 bx phi i j k) + S3 (fun i j k => F i j k (phi i j k)) - F a c d (phi a c d))), (laplace3 bx (bump a c d) a c d).
  intro t. destruct (energy3_sums pr _ _ Hr (HT t)) as (-> & _). cbn [over_ranks3 over_patches3 fst]. rewrite !Rplus_0_r.
  unfold over3. cbn [with_phase zbox zf zweight].
  set (e := - (epsilon_phi pr ^ 2 / 2)).
  rewrite (sum_box3_ext _ _ _ _ _ _ _ (fun i j k => w * (e * (phi i j k * laplace3 bx phi i j k) + (e * (t * (laplace3 bx phi i j k * bump a c d i j k)) +
     (e * (t * (phi i j k * laplace3 bx (bump a c d) i j k)) + (e * (t * t * (laplace3 bx (bump a c d) i j k * bump a c d i j k)) +
     (F i j k (phi i j k) + (F i j k (phi i j k + t) - F i j k (phi i j k)) * bump a c d i j k))))))).
  2:{ intros i j k J. rewrite W by auto. fold (with_phase b (pushed phi a c d t)). rewrite plain_density by auto. fold bx e. rewrite laplace_pushed, pushed_bump. fold (F i j k).
      assert (E : F i j k (phi i j k + t * bump a c d i j k) = F i j k (phi i j k) + (F i j k (phi i j k + t) - F i j k (phi i j k)) * bump a c d i j k).
      { unfold bump. destruct (_ && _); [rewrite Rmult_1_r; ring | rewrite !Rmult_0_r, Rplus_0_r; ring]. }
      change (free_density pr (zfl (zf b) i j k) (zfa (zf b) i j k)) with (F i j k). rewrite E. ring. }
  rewrite sum_box3_scal, !sum_box3_plus, !sum_box3_scal. fold S3.
  rewrite (sum_bump bx (laplace3 bx phi)), (sum_laplace_bump bx phi), (sum_bump bx (laplace3 bx (bump a c d))), (sum_bump bx (fun i j k => F i j k (phi i j k + t) - F i j k (phi i j k))) by auto.
  unfold S3, F, bx. ring.
Qed.
Lemma free_slope : forall pr fl fa p, phi_well pr = "d"%char -> In (phi_interp pr) ["q"; "p"; "h"; "w"; "m"; "3"; "c"]%char ->
  derivable_pt_lim (fun t => free_density pr fl fa (p + t)) 0 (well_scale pr * (32 * p * (1 - p) * (1 - 2 * p)) - val (deriv_interp_func p (phi_interp pr)) * (fl - fa)).
Proof.
  intros pr fl fa p Hw Hi.
  pose proof (PhaseFlow_Proofs.derivative_val _ _ p (deriv_interp_ok (phi_interp pr) p Hi)) as D1.
  pose proof (PhaseFlow_Proofs.derivative_val _ _ p (proj1 (well_derivs "d" p (or_introl eq_refl)))) as D2. cbv beta in D1, D2.
  pose proof (PhaseFlow_Proofs.along _ p 1 _ D1) as L1. pose proof (PhaseFlow_Proofs.along _ p 1 _ D2) as L2. cbv beta in L1, L2.
  set (h' := Energy_Model.val (deriv_interp_func p (phi_interp pr))) in *.
  apply (local_limit (fun t => well_scale pr * val (well_func (p + t * 1) "d") + (fl + (fa - fl) * val (interp_func (p + t * 1) (phi_interp pr)))) _ 0 (-1) 1); [lra | |].
  - intros t _. unfold free_density. rewrite Hw, Rmult_1_r. ring.
  - replace (well_scale pr * (32 * p * (1 - p) * (1 - 2 * p)) - h' * (fl - fa)) with
      (well_scale pr * (val (deriv_well_func p "d") * 1) + (0 + (fa - fl) * (h' * 1))) by (cbn [deriv_well_func val]; ring).
    apply derivable_pt_lim_plus; [apply (derivable_pt_lim_scal (fun t => val (well_func (p + t * 1) "d"))); exact L2 |].
    apply derivable_pt_lim_plus; [apply derivable_pt_lim_const |]. apply (derivable_pt_lim_scal (fun t => val (interp_func (p + t * 1) (phi_interp pr)))); exact L1.
Qed.
Lemma energy_slope : forall pr b phi en T w a c d, nphases pr = 1%Z -> anisotropy pr <= 0 -> misorientation pr <= 0 -> phi_well pr = "d"%char ->
  In (phi_interp pr) ["q"; "p"; "h"; "w"; "m"; "3"; "c"]%char -> inner_cell (zbox b) a c d ->
  (forall i j k, in_patch3 b i j k -> zweight (zf b) i j k = w) -> (forall t, evaluateEnergy3 pr [[(with_phase b (pushed phi a c d t), en)]] = Some (T t)) ->
  derivable_pt_lim (fun t => t_energy (T t)) 0
    (- w * (epsilon_phi pr ^ 2 * laplace3 (zbox b) phi a c d - well_scale pr * (32 * phi a c d * (1 - phi a c d) * (1 - 2 * phi a c d))
            + val (deriv_interp_func (phi a c d) (phi_interp pr)) * (zfl (zf b) a c d - zfa (zf b) a c d))).
Proof.
  intros pr b phi en T w a c d N A M Hw Hi I W HT.
  destruct (energy_pushed pr b phi en T w a c d N A M I W HT) as (E0 & K & E).
  pose proof (free_slope pr (zfl (zf b) a c d) (zfa (zf b) a c d) (phi a c d) Hw Hi) as D.
  set (L := laplace3 (zbox b) phi a c d) in *. set (e := epsilon_phi pr ^ 2) in *.
  set (v := well_scale pr * (32 * phi a c d * (1 - phi a c d) * (1 - 2 * phi a c d))) in *. set (h := val (deriv_interp_func (phi a c d) (phi_interp pr)) * (zfl (zf b) a c d - zfa (zf b) a c d)) in *.
  apply (local_limit (fun t => (E0 + w * (- (e / 2) * (2 * t * L + t * t * K))) + w * free_density pr (zfl (zf b) a c d) (zfa (zf b) a c d) (phi a c d + t)) _ 0 (-1) 1); [lra | |].
  - intros t _. rewrite E. ring.
  - replace (- w * (e * L - v + h)) with ((- w * (e * L)) + w * (v - h)) by ring. apply derivable_pt_lim_plus.
    + assert (Q : derivable_pt_lim (fun t => E0 + (- w * e * L) * t + (- w * e / 2 * K) * (t * t)) 0 (0 + - w * e * L * 1 + (- w * e / 2 * K) * (1 * 0 + 0 * 1))).
      { apply derivable_pt_lim_plus; [apply derivable_pt_lim_plus; [apply derivable_pt_lim_const |] |].
        - apply (derivable_pt_lim_scal id). apply derivable_pt_lim_id.
        - apply (derivable_pt_lim_scal (fun t => t * t)). apply (derivable_pt_lim_mult id id); apply derivable_pt_lim_id. }
      replace (- w * (e * L)) with (0 + - w * e * L * 1 + (- w * e / 2 * K) * (1 * 0 + 0 * 1)) by ring.
      refine (local_limit _ _ 0 (-1) 1 _ _ _ Q); [lra |]. intros t _. field.
    + apply (derivable_pt_lim_scal (fun t => free_density pr (zfl (zf b) a c d) (zfa (zf b) a c d) (phi a c d + t))). exact D.
Qed.
(** the right-hand side of the phase equation and the slope of the reported energy *)
Lemma phase_descends : forall pr b phi en T w p fold rold rhs a c d, nphases pr = 1%Z -> anisotropy pr <= 0 -> misorientation pr <= 0 -> phi_well pr = "d"%char ->
  In (phi_interp pr) ["q"; "p"; "h"; "w"; "m"; "3"; "c"]%char -> Flow3_Spec.spaced (zbox b) -> inner_cell (zbox b) a c d ->
  (forall i j k, in_patch3 b i j k -> zweight (zf b) i j k = w) -> (forall t, evaluateEnergy3 pr [[(with_phase b (pushed phi a c d t), en)]] = Some (T t)) ->
  Flow3_Model.pb3 p = zbox b -> Flow3_Model.pflux3 p = Flow3_Model.Simple3 -> Flow3_Model.peps3 p = epsilon_phi pr -> Flow3_Model.pwell3 p = well_scale pr ->
  Flow3_Model.porient3 p = None -> Flow3_Model.pthird3 p = None ->
  Flow3_Model.pdrive3 p = Flow3_Model.FreeEnergies3 (zfl (zf b)) (zfa (zf b)) (phi_interp pr) ->
  Flow3_Model.evaluatePhaseRHS3 p phi fold rold = Some rhs ->
  exists slope, derivable_pt_lim (fun t => t_energy (T t)) 0 slope /\ w * rhs a c d = - Flow3_Model.pmob3 p a c d * slope.
Proof.
  intros pr b phi en T w p fold rold rhs a c d N A M Hw Hi Hs I W HT Eb Ef Ee Ew Eo E3 Ed ER.
  eexists. split; [eapply energy_slope; eauto |].
  assert (Ib : Flow3_Spec.in_cells3 (zbox b) a c d) by (destruct I as (I1 & I2 & I3); repeat split; lia).
  rewrite (Flow3_Proofs.rhs3_simple p phi fold rold rhs a c d) by (auto; rewrite Eb; auto). rewrite Eb, Ee, Ew, Ed. cbn [Flow3_Spec.local_drive].
  change PhaseFlow_Model.val with val. ring.
Qed.
Lemma phase_slope : forall pr b phi en T w p fold rold rhs a c d, plain_energy pr -> plain_problem pr b p -> Flow3_Spec.spaced (zbox b) -> inner_cell (zbox b) a c d ->
  (forall i j k, in_patch3 b i j k -> zweight (zf b) i j k = w) -> (forall t, evaluateEnergy3 pr [[(with_phase b (pushed phi a c d t), en)]] = Some (T t)) ->
  Flow3_Model.pdrive3 p = Flow3_Model.FreeEnergies3 (zfl (zf b)) (zfa (zf b)) (phi_interp pr) ->
  Flow3_Model.evaluatePhaseRHS3 p phi fold rold = Some rhs ->
  exists slope, derivable_pt_lim (fun t => t_energy (T t)) 0 slope /\ w * rhs a c d = - Flow3_Model.pmob3 p a c d * slope.
Proof.
  intros pr b phi en T w p fold rold rhs a c d (A1 & A2 & A3 & A4 & A5) (B1 & B2 & B3 & B4 & B5 & B6 & B7) Hs I W HT Ed ER. eapply phase_descends; eauto.
Qed.
(** ** free energies by undercooling *)
Lemma temperature_energy_val : forall b temp tm l f0 i j k, temperature_energy3 b temp tm l f0 i j k =
  if inb (xl b) (xu b) i && inb (yl b) (yu b) j && inb (zl b) (zu b) k then l / tm * (tm - temp i j k) else f0 i j k.
Proof. intros. unfold temperature_energy3. apply (cells3_loop _ _ _ _ _ _ (fun i j k _ => l / tm * (tm - temp i j k))). Qed.
Lemma delta_energies : forall b temp tm l f0 i j k, Flow3_Spec.in_cells3 b i j k ->
  deltaFreeEnergyLiquid3 b temp tm l f0 i j k = l / (2 * tm) * (tm - temp i j k) /\
  deltaFreeEnergySolid3 b temp tm l f0 i j k = - (l / (2 * tm)) * (tm - temp i j k).
Proof.
  intros b temp tm l f0 i j k (I & J & K). unfold deltaFreeEnergyLiquid3, deltaFreeEnergySolid3. rewrite !temperature_energy_val, !inbT by auto. cbn [andb].
  unfold Rdiv. rewrite Rinv_mult. split; ring.
Qed.
Lemma delta_outside : forall b temp tm l f0 i j k, ~ Flow3_Spec.in_cells3 b i j k ->
  deltaFreeEnergyLiquid3 b temp tm l f0 i j k = f0 i j k /\ deltaFreeEnergySolid3 b temp tm l f0 i j k = f0 i j k.
Proof.
  intros b temp tm l f0 i j k O. unfold deltaFreeEnergyLiquid3, deltaFreeEnergySolid3. rewrite !temperature_energy_val.
  destruct (inb (xl b) (xu b) i && inb (yl b) (yu b) j && inb (zl b) (zu b) k) eqn:E; [| split; reflexivity].
  exfalso. apply O. unfold inb in E. rewrite !andb_true_iff, !Z.leb_le in E. repeat split; lia.
Qed.
Lemma undercooling_descends : forall pr b phi en T w p tm lh f0 f1 fold rold rhs a c d, nphases pr = 1%Z -> anisotropy pr <= 0 -> misorientation pr <= 0 -> phi_well pr = "d"%char ->
  In (phi_interp pr) ["q"; "p"; "h"; "w"; "m"; "3"; "c"]%char -> Flow3_Spec.spaced (zbox b) -> inner_cell (zbox b) a c d -> tm <> 0 ->
  (forall i j k, in_patch3 b i j k -> zweight (zf b) i j k = w) -> (forall t, evaluateEnergy3 pr [[(with_phase b (pushed phi a c d t), en)]] = Some (T t)) ->
  zfl (zf b) = deltaFreeEnergyLiquid3 (zbox b) (ztemp (zf b)) tm lh f0 -> zfa (zf b) = deltaFreeEnergySolid3 (zbox b) (ztemp (zf b)) tm lh f1 ->
  Flow3_Model.pb3 p = zbox b -> Flow3_Model.pflux3 p = Flow3_Model.Simple3 -> Flow3_Model.peps3 p = epsilon_phi pr -> Flow3_Model.pwell3 p = well_scale pr ->
  Flow3_Model.ptemp3 p = ztemp (zf b) -> Flow3_Model.porient3 p = None -> Flow3_Model.pthird3 p = None ->
  Flow3_Model.pdrive3 p = Flow3_Model.DeltaTemperature3 tm lh (phi_interp pr) ->
  Flow3_Model.evaluatePhaseRHS3 p phi fold rold = Some rhs ->
  exists slope, derivable_pt_lim (fun t => t_energy (T t)) 0 slope /\
    w * rhs a c d = - Flow3_Model.pmob3 p a c d * (slope + w * (lh / tm) * val (deriv_interp_func (phi a c d) (phi_interp pr)) *
      (((ztemp (zf b) (a - 1)%Z c d + ztemp (zf b) (a + 1)%Z c d + ztemp (zf b) a (c - 1)%Z d + ztemp (zf b) a (c + 1)%Z d
         + ztemp (zf b) a c (d - 1)%Z + ztemp (zf b) a c (d + 1)%Z) - 6 * ztemp (zf b) a c d) / 24)).
Proof.
  intros pr b phi en T w p tm lh f0 f1 fold rold rhs a c d N A M Hw Hi Hs I Htm W HT El Ea Eb Ef Ee Ew Et Eo E3 Ed ER.
  eexists. split; [eapply energy_slope; eauto |].
  assert (Ib : Flow3_Spec.in_cells3 (zbox b) a c d) by (destruct I as (I1 & I2 & I3); repeat split; lia).
  rewrite (Flow3_Proofs.rhs3_simple p phi fold rold rhs a c d) by (auto; rewrite Eb; auto). rewrite Eb, Ee, Ew, Ed, Et, El, Ea. cbn [Flow3_Spec.local_drive].
  destruct (delta_energies (zbox b) (ztemp (zf b)) tm lh f0 a c d Ib) as (-> & _). destruct (delta_energies (zbox b) (ztemp (zf b)) tm lh f1 a c d Ib) as (_ & ->).
  change PhaseFlow_Model.val with val. field. auto.
Qed.
Lemma undercooling_slope : forall pr b phi en T w p tm lh fold rold rhs a c d, plain_energy pr -> plain_problem pr b p -> Flow3_Spec.spaced (zbox b) -> inner_cell (zbox b) a c d -> tm <> 0 ->
  (forall i j k, in_patch3 b i j k -> zweight (zf b) i j k = w) -> (forall t, evaluateEnergy3 pr [[(with_phase b (pushed phi a c d t), en)]] = Some (T t)) ->
  undercooled b tm lh -> flat_spot (ztemp (zf b)) a c d -> Flow3_Model.pdrive3 p = Flow3_Model.DeltaTemperature3 tm lh (phi_interp pr) ->
  Flow3_Model.evaluatePhaseRHS3 p phi fold rold = Some rhs ->
  exists slope, derivable_pt_lim (fun t => t_energy (T t)) 0 slope /\ w * rhs a c d = - Flow3_Model.pmob3 p a c d * slope.
Proof.
  intros pr b phi en T w p tm lh fold rold rhs a c d (A1 & A2 & A3 & A4 & A5) (B1 & B2 & B3 & B4 & B5 & B6 & B7) Hs I Htm W HT (f0 & f1 & El & Ea) F Ed ER.
  destruct (undercooling_descends pr b phi en T w p tm lh f0 f1 fold rold rhs a c d A1 A2 A3 A4 A5 Hs I Htm W HT El Ea B1 B2 B3 B4 B5 B6 B7 Ed ER) as (sl & D & E).
  exists sl. split; [exact D |]. rewrite E. unfold flat_spot in F. rewrite F. unfold Rdiv. ring.
Qed.
Lemma undercooling_uphill : forall pr b phi en T w p tm lh fold rold rhs a c d slope, plain_energy pr -> plain_problem pr b p -> Flow3_Spec.spaced (zbox b) -> inner_cell (zbox b) a c d -> tm <> 0 ->
  (forall i j k, in_patch3 b i j k -> zweight (zf b) i j k = w) -> (forall t, evaluateEnergy3 pr [[(with_phase b (pushed phi a c d t), en)]] = Some (T t)) ->
  undercooled b tm lh -> ~ flat_spot (ztemp (zf b)) a c d -> Flow3_Model.pdrive3 p = Flow3_Model.DeltaTemperature3 tm lh (phi_interp pr) ->
  Flow3_Model.evaluatePhaseRHS3 p phi fold rold = Some rhs -> w <> 0 -> lh <> 0 -> Flow3_Model.pmob3 p a c d <> 0 -> val (deriv_interp_func (phi a c d) (phi_interp pr)) <> 0 ->
  derivable_pt_lim (fun t => t_energy (T t)) 0 slope -> w * rhs a c d <> - Flow3_Model.pmob3 p a c d * slope.
Proof.
  intros pr b phi en T w p tm lh fold rold rhs a c d slope (A1 & A2 & A3 & A4 & A5) (B1 & B2 & B3 & B4 & B5 & B6 & B7) Hs I Htm W HT (f0 & f1 & El & Ea) F Ed ER Hw Hl Hm Hh D' E'.
  destruct (undercooling_descends pr b phi en T w p tm lh f0 f1 fold rold rhs a c d A1 A2 A3 A4 A5 Hs I Htm W HT El Ea B1 B2 B3 B4 B5 B6 B7 Ed ER) as (sl & D & E).
  rewrite (uniqueness_limite _ _ _ _ D' D) in E'. apply F. unfold flat_spot. rewrite E in E'. set (h := val _) in *. set (m := Flow3_Model.pmob3 p a c d) in *.
  set (S6 := _ + ztemp (zf b) a c (d + 1)%Z) in *. clearbody S6 h m.
  assert (Q : m * (w * (lh / tm) * h * (S6 - 6 * ztemp (zf b) a c d)) = 0) by lra.
  apply Rmult_integral in Q. destruct Q as [Q | Q]; [contradiction |]. apply Rmult_integral in Q. destruct Q as [Q | Q]; [| lra].
  exfalso. apply Rmult_integral in Q. destruct Q as [Q | Q]; [| contradiction]. apply Rmult_integral in Q. destruct Q as [Q | Q]; [contradiction |].
  apply (Rmult_eq_compat_r tm) in Q. unfold Rdiv in Q. rewrite Rmult_assoc, Rinv_l in Q by auto. lra.
Qed.

(** ** map and names *)
Lemma energy3_map : forall pr b t en i j k, regular pr -> snd (evaluate_patch3 pr b t en) i j k =
  if (per_cell pr && holds_cell3 i j k b)%bool then density3 pr b i j k else en i j k.
Proof. exact patch3_map. Qed.
Lemma energy3_names : forall pr rs, (exists t, evaluateEnergy3 pr rs = Some t) <->
  In (phi_interp pr) ["q"; "p"; "h"; "w"; "l"; "m"; "3"; "s"; "c"]%char /\ In (orient1 pr) ["q"; "p"; "h"; "w"; "l"; "m"; "3"; "s"; "c"]%char /\
  In (orient2 pr) ["q"; "p"; "h"; "w"; "l"; "m"; "3"; "s"; "c"]%char /\ In (phi_well pr) ["d"; "s"]%char /\ In (avg_type pr) ["a"; "h"]%char.
Proof. intros pr rs. rewrite energy3_defined, <- (Energy_Proofs.energy_defined pr []). apply Energy_Proofs.energy_names. Qed.
(** an example: a 3 x 3 x 3 patch, phase 1/2, temperature [temp] *)
Definition pr3_plain : eparams := mk_eparams 1 1 1 2 0 4 0 1 false "p" "d" "p" "p" "a" "s" 0.
Definition cube_ex : box3 := mk_box3 0 2 0 2 0 2 1 1 1.
Definition cold_ex (temp : arr3) : epatch3 :=
  mk_epatch3 cube_ex (mk_efields3 (fun _ _ _ _ => 1 / 2) (fun _ _ _ => unit_q) (grads 0) (grads 0) (grads 0) temp (fun _ _ _ => 1)
    (deltaFreeEnergyLiquid3 cube_ex temp 1 1 none3) (deltaFreeEnergySolid3 cube_ex temp 1 1 none3)).
Definition cold_problem (d : Flow3_Model.drive3) (temp : arr3) : Flow3_Model.phase_problem3 :=
  Flow3_Model.mk_problem3 cube_ex Flow3_Model.Simple3 1 1 temp None None d (fun _ _ _ => 1).
Definition half3 : arr3 := fun _ _ _ => 1 / 2.
Definition cold_totals (temp : arr3) (t : R) : totals :=
  match evaluateEnergy3 pr3_plain [[(with_phase (cold_ex temp) (pushed half3 1 1 1 t), none3)]] with Some x => x | None => zero_totals end.
Lemma cold_defined : forall temp t, evaluateEnergy3 pr3_plain [[(with_phase (cold_ex temp) (pushed half3 1 1 1 t), none3)]] = Some (cold_totals temp t).
Proof.
  intros temp t. unfold cold_totals. destruct (proj2 (energy3_defined pr3_plain [[(with_phase (cold_ex temp) (pushed half3 1 1 1 t), none3)]]) ltac:(reflexivity)) as [x ->]. reflexivity.
Qed.
Lemma cold_plain : plain_energy pr3_plain.
Proof. split; [reflexivity |]. split; [cbn; lra |]. split; [cbn; lra |]. split; [reflexivity |]. cbn. auto. Qed.
Lemma cold_setup : forall d temp, plain_problem pr3_plain (cold_ex temp) (cold_problem d temp) /\ Flow3_Spec.spaced cube_ex /\ inner_cell cube_ex 1 1 1 /\ undercooled (cold_ex temp) 1 1.
Proof.
  intros d temp. split; [repeat split; reflexivity |]. split; [repeat split; cbn; lra |]. split; [repeat split; cbn; lia |]. exists none3, none3. split; reflexivity.
Qed.
