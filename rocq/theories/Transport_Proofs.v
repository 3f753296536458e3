From Coq Require Import Reals ZArith List Lra Lia Bool.
From Coquelicot Require Import Coquelicot.
From Verif Require Import Grid_Model Grid_Spec Grid_Proofs Transport_Model Transport_Spec.
Open Scope R_scope.

(** ** right-hand side *)
Lemma rhs_conc_value : forall lo0 hi0 lo1 hi1 dx0 dx1 f0 f1 mob rhs,
  sets_box lo0 hi0 lo1 hi1 rhs (computerhsconcentration lo0 hi0 lo1 hi1 dx0 dx1 f0 f1 mob rhs)
    (fun i j => mob * diverg dx0 dx1 f0 f1 i j).
Proof.
  intros lo0 hi0 lo1 hi1 dx0 dx1 f0 f1 mob rhs i j. unfold computerhsconcentration. cbv zeta.
  pose proof (cells_sets lo0 hi0 lo1 hi1 (fun i j _ => mob * (1 / dx0 * (f0 (i + 1)%Z j - f0 i j) + 1 / dx1 * (f1 i (j + 1)%Z - f1 i j))) rhs i j) as [H1 H2].
  split; intro H; [rewrite H1 by auto | apply H2; auto]. unfold diverg, Rdiv. ring.
Qed.

Lemma sum_div : forall lo0 hi0 lo1 hi1 dx0 dx1 (f0 f1 : arr2), (lo0 <= hi0 + 1)%Z -> (lo1 <= hi1 + 1)%Z ->
  dx0 <> 0 -> dx1 <> 0 ->
  sum_box lo0 hi0 lo1 hi1 (fun i j => diverg dx0 dx1 f0 f1 i j * (dx0 * dx1)) =
  dx1 * sumZ lo1 hi1 (fun j => f0 (hi0 + 1)%Z j - f0 lo0 j) + dx0 * sumZ lo0 hi0 (fun i => f1 i (hi1 + 1)%Z - f1 i lo1).
Proof.
  intros lo0 hi0 lo1 hi1 dx0 dx1 f0 f1 H0 H1 Hx Hy.
  rewrite (sum_box_ext _ _ _ _ _ (fun i j => dx1 * (f0 (i + 1)%Z j - f0 i j) + dx0 * (f1 i (j + 1)%Z - f1 i j))).
  2:{ intros i j _. unfold diverg. field. auto. }
  rewrite sum_box_plus. f_equal.
  - rewrite sum_box_scal. f_equal. unfold sum_box. apply sumZ_ext. intros j _.
    apply (sumZ_telescope lo0 hi0 (fun i => f0 i j)). auto.
  - rewrite sum_box_scal. f_equal. unfold sum_box. rewrite sumZ_swap. apply sumZ_ext. intros i _.
    apply (sumZ_telescope lo1 hi1 (fun j => f1 i j)). auto.
Qed.

Lemma mass_balance : forall lo0 hi0 lo1 hi1 dx0 dx1 f0 f1 mob rhs, (lo0 <= hi0 + 1)%Z -> (lo1 <= hi1 + 1)%Z ->
  dx0 <> 0 -> dx1 <> 0 ->
  let r := computerhsconcentration lo0 hi0 lo1 hi1 dx0 dx1 f0 f1 mob rhs in
  sum_box lo0 hi0 lo1 hi1 (fun i j => r i j * (dx0 * dx1)) =
  mob * (dx1 * sumZ lo1 hi1 (fun j => f0 (hi0 + 1)%Z j - f0 lo0 j) + dx0 * sumZ lo0 hi0 (fun i => f1 i (hi1 + 1)%Z - f1 i lo1)).
Proof.
  intros lo0 hi0 lo1 hi1 dx0 dx1 f0 f1 mob rhs H0 H1 Hx Hy r.
  rewrite <- (sum_div lo0 hi0 lo1 hi1 dx0 dx1 f0 f1) by auto. rewrite <- sum_box_scal.
  apply sum_box_ext. intros i j Hij. unfold r.
  rewrite (proj1 (rhs_conc_value lo0 hi0 lo1 hi1 dx0 dx1 f0 f1 mob rhs i j) Hij). ring.
Qed.

Lemma mass_conserved : forall lo0 hi0 lo1 hi1 dx0 dx1 f0 f1 mob rhs, (lo0 <= hi0 + 1)%Z -> (lo1 <= hi1 + 1)%Z ->
  dx0 <> 0 -> dx1 <> 0 ->
  (forall j, (lo1 <= j <= hi1)%Z -> f0 (hi0 + 1)%Z j = f0 lo0 j) ->
  (forall i, (lo0 <= i <= hi0)%Z -> f1 i (hi1 + 1)%Z = f1 i lo1) ->
  sum_box lo0 hi0 lo1 hi1 (computerhsconcentration lo0 hi0 lo1 hi1 dx0 dx1 f0 f1 mob rhs) = 0.
Proof.
  intros lo0 hi0 lo1 hi1 dx0 dx1 f0 f1 mob rhs H0 H1 Hx Hy P0 P1.
  pose proof (mass_balance lo0 hi0 lo1 hi1 dx0 dx1 f0 f1 mob rhs H0 H1 Hx Hy) as E. cbv zeta in E.
  rewrite (sum_box_ext _ _ _ _ _ (fun i j => (dx0 * dx1) * computerhsconcentration lo0 hi0 lo1 hi1 dx0 dx1 f0 f1 mob rhs i j)) in E
    by (intros; ring).
  rewrite sum_box_scal in E.
  rewrite (sumZ_ext lo1 hi1 _ (fun _ => 0)) in E by (intros j Hj; rewrite P0 by auto; ring).
  rewrite (sumZ_ext lo0 hi0 _ (fun _ => 0)) in E by (intros j Hj; rewrite P1 by auto; ring).
  rewrite !sumZ_zero in E. apply Rmult_eq_reg_l with (dx0 * dx1); [rewrite E; ring |].
  apply Rmult_integral_contrapositive. auto.
Qed.

(** ** flux of the composition and phase gradients *)
Lemma conc_flux_value : forall lo0 hi0 lo1 hi1 dx0 dx1 conc phi d0 d1 c0 c1 f0 f1,
  let (f0', f1') := concentrationflux lo0 hi0 lo1 hi1 dx0 dx1 conc phi d0 d1 c0 c1 f0 f1 in
  sets_box lo0 (hi0 + 1) lo1 hi1 f0 f0'
    (fun i j => d0 i j * ((conc i j - conc (i - 1)%Z j) / dx0) + c0 i j * ((phi i j - phi (i - 1)%Z j) / dx0)) /\
  sets_box lo0 hi0 lo1 (hi1 + 1) f1 f1'
    (fun i j => d1 i j * ((conc i j - conc i (j - 1)%Z) / dx1) + c1 i j * ((phi i j - phi i (j - 1)%Z) / dx1)).
Proof.
  intros lo0 hi0 lo1 hi1 dx0 dx1 conc phi d0 d1 c0 c1 f0 f1. unfold concentrationflux. split; intros i j.
  - pose proof (cells_sets lo0 (hi0 + 1) lo1 hi1 (fun i j _ => 1 / dx0 * (d0 i j * (conc i j - conc (i - 1)%Z j) + c0 i j * (phi i j - phi (i - 1)%Z j))) f0 i j) as [H1 H2].
    split; intro H; [rewrite H1 by auto; unfold Rdiv; ring | apply H2; auto].
  - pose proof (cells_sets lo0 hi0 lo1 (hi1 + 1) (fun i j _ => 1 / dx1 * (d1 i j * (conc i j - conc i (j - 1)%Z) + c1 i j * (phi i j - phi i (j - 1)%Z))) f1 i j) as [H1 H2].
    split; intro H; [rewrite H1 by auto; unfold Rdiv; ring | apply H2; auto].
Qed.

Lemma periodic_mass : forall lo0 hi0 lo1 hi1 dx0 dx1 conc phi d0 d1 c0 c1 f0 f1 mob rhs,
  (lo0 <= hi0)%Z -> (lo1 <= hi1)%Z -> dx0 <> 0 -> dx1 <> 0 ->
  periodic0 (hi0 - lo0 + 1) conc -> periodic1 (hi1 - lo1 + 1) conc ->
  periodic0 (hi0 - lo0 + 1) phi -> periodic1 (hi1 - lo1 + 1) phi ->
  periodic0 (hi0 - lo0 + 1) d0 -> periodic1 (hi1 - lo1 + 1) d1 ->
  periodic0 (hi0 - lo0 + 1) c0 -> periodic1 (hi1 - lo1 + 1) c1 ->
  let (f0', f1') := concentrationflux lo0 hi0 lo1 hi1 dx0 dx1 conc phi d0 d1 c0 c1 f0 f1 in
  sum_box lo0 hi0 lo1 hi1 (computerhsconcentration lo0 hi0 lo1 hi1 dx0 dx1 f0' f1' mob rhs) = 0.
Proof.
  intros lo0 hi0 lo1 hi1 dx0 dx1 conc phi d0 d1 c0 c1 f0 f1 mob rhs H0 H1 Hx Hy Pc0 Pc1 Pp0 Pp1 Pd0 Pd1 Pe0 Pe1.
  pose proof (conc_flux_value lo0 hi0 lo1 hi1 dx0 dx1 conc phi d0 d1 c0 c1 f0 f1) as HF.
  destruct (concentrationflux lo0 hi0 lo1 hi1 dx0 dx1 conc phi d0 d1 c0 c1 f0 f1) as [f0' f1'].
  destruct HF as [HF0 HF1].
  apply mass_conserved; try lia; auto.
  - intros j Hj. destruct (HF0 (hi0 + 1)%Z j) as [Ea _]. destruct (HF0 lo0 j) as [Eb _].
    rewrite Ea by (split; lia). rewrite Eb by (split; lia).
    replace (hi0 + 1)%Z with (lo0 + (hi0 - lo0 + 1))%Z by lia.
    replace (lo0 + (hi0 - lo0 + 1) - 1)%Z with ((lo0 - 1) + (hi0 - lo0 + 1))%Z by lia.
    rewrite !Pc0, !Pp0, Pd0, Pe0. reflexivity.
  - intros i Hi. destruct (HF1 i (hi1 + 1)%Z) as [Ea _]. destruct (HF1 i lo1) as [Eb _].
    rewrite Ea by (split; lia). rewrite Eb by (split; lia).
    replace (hi1 + 1)%Z with (lo1 + (hi1 - lo1 + 1))%Z by lia.
    replace (lo1 + (hi1 - lo1 + 1) - 1)%Z with ((lo1 - 1) + (hi1 - lo1 + 1))%Z by lia.
    rewrite !Pc1, !Pp1, Pd1, Pe1. reflexivity.
Qed.

(** ** 3D *)
Lemma sum_box3_swap02 : forall lo0 hi0 lo1 hi1 lo2 hi2 f,
  sum_box3 lo0 hi0 lo1 hi1 lo2 hi2 f = sumZ lo2 hi2 (fun k => sumZ lo0 hi0 (fun i => sumZ lo1 hi1 (fun j => f i j k))).
Proof. intros. unfold sum_box3. apply sumZ_ext. intros k _. apply sumZ_swap. Qed.
Lemma sum_box3_z_inner : forall lo0 hi0 lo1 hi1 lo2 hi2 f,
  sum_box3 lo0 hi0 lo1 hi1 lo2 hi2 f = sumZ lo1 hi1 (fun j => sumZ lo0 hi0 (fun i => sumZ lo2 hi2 (fun k => f i j k))).
Proof.
  intros. unfold sum_box3. rewrite sumZ_swap. apply sumZ_ext. intros j _. apply (sumZ_swap lo0 hi0 lo2 hi2 (fun i k => f i j k)).
Qed.
Lemma mass_balance3 : forall lo0 hi0 lo1 hi1 lo2 hi2 dx0 dx1 dx2 f0 f1 f2 mob rhs,
  (lo0 <= hi0 + 1)%Z -> (lo1 <= hi1 + 1)%Z -> (lo2 <= hi2 + 1)%Z -> dx0 <> 0 -> dx1 <> 0 -> dx2 <> 0 ->
  let r := computerhsconcentration3 lo0 hi0 lo1 hi1 lo2 hi2 dx0 dx1 dx2 f0 f1 f2 mob rhs in
  sum_box3 lo0 hi0 lo1 hi1 lo2 hi2 (fun i j k => r i j k * (dx0 * dx1 * dx2)) =
  mob * (dx1 * dx2 * sum_box lo1 hi1 lo2 hi2 (fun j k => f0 (hi0 + 1)%Z j k - f0 lo0 j k)
         + dx0 * dx2 * sum_box lo0 hi0 lo2 hi2 (fun i k => f1 i (hi1 + 1)%Z k - f1 i lo1 k)
         + dx0 * dx1 * sum_box lo0 hi0 lo1 hi1 (fun i j => f2 i j (hi2 + 1)%Z - f2 i j lo2)).
Proof.
  intros lo0 hi0 lo1 hi1 lo2 hi2 dx0 dx1 dx2 f0 f1 f2 mob rhs H0 H1 H2 Hx Hy Hz r.
  rewrite (sum_box3_ext _ _ _ _ _ _ _ (fun i j k =>
    mob * ((dx1 * dx2) * (f0 (i + 1)%Z j k - f0 i j k) + ((dx0 * dx2) * (f1 i (j + 1)%Z k - f1 i j k) + (dx0 * dx1) * (f2 i j (k + 1)%Z - f2 i j k))))).
  2:{ intros i j k (Hi & Hj & Hk). unfold r, computerhsconcentration3. cbv zeta.
      rewrite (cells3_loop lo0 hi0 lo1 hi1 lo2 hi2 (fun i j k _ => mob * (1 / dx0 * (f0 (i + 1)%Z j k - f0 i j k) + 1 / dx1 * (f1 i (j + 1)%Z k - f1 i j k) + 1 / dx2 * (f2 i j (k + 1)%Z - f2 i j k)))).
      destruct (inb_spec lo0 hi0 i); [| lia]. destruct (inb_spec lo1 hi1 j); [| lia]. destruct (inb_spec lo2 hi2 k); [| lia].
      cbn [andb]. field. auto. }
  rewrite sum_box3_scal, !sum_box3_plus, !sum_box3_scal. f_equal. rewrite <- Rplus_assoc. f_equal; [f_equal |]; f_equal.
  - unfold sum_box3, sum_box. apply sumZ_ext. intros k _. apply sumZ_ext. intros j _.
    apply (sumZ_telescope lo0 hi0 (fun i => f0 i j k)); auto.
  - rewrite sum_box3_swap02. unfold sum_box. apply sumZ_ext. intros k _. apply sumZ_ext. intros i _.
    apply (sumZ_telescope lo1 hi1 (fun j => f1 i j k)); auto.
  - rewrite sum_box3_z_inner. unfold sum_box. apply sumZ_ext. intros j _. apply sumZ_ext. intros i _.
    apply (sumZ_telescope lo2 hi2 (fun k => f2 i j k)); auto.
Qed.
Lemma rhs_conc_outside3 : forall lo0 hi0 lo1 hi1 lo2 hi2 dx0 dx1 dx2 f0 f1 f2 mob rhs i j k,
  ~ in_box3 lo0 hi0 lo1 hi1 lo2 hi2 i j k ->
  computerhsconcentration3 lo0 hi0 lo1 hi1 lo2 hi2 dx0 dx1 dx2 f0 f1 f2 mob rhs i j k = rhs i j k.
Proof.
  intros. unfold computerhsconcentration3. cbv zeta.
  rewrite (cells3_loop lo0 hi0 lo1 hi1 lo2 hi2 (fun i j k _ => mob * (1 / dx0 * (f0 (i + 1)%Z j k - f0 i j k) + 1 / dx1 * (f1 i (j + 1)%Z k - f1 i j k) + 1 / dx2 * (f2 i j (k + 1)%Z - f2 i j k)))).
  unfold in_box3 in H. destruct (inb_spec lo0 hi0 i); destruct (inb_spec lo1 hi1 j); destruct (inb_spec lo2 hi2 k); cbn; auto. lia.
Qed.

(** ** fluxes that scatter a chemical potential *)
Section Scatter.
Variables (lo0 hi0 lo1 hi1 : Z) (w0 w1 : arr2) (mu : arr2).
(* body of the scatter loops: w0, w1 are the face factors *)
Definition scatter_body (i j : Z) (s : arr2 * arr2) : arr2 * arr2 :=
  let (flux0, flux1) := s in
  let flux0 := upd2 flux0 i j (flux0 i j + w0 i j * mu i j) in
  let flux0 := upd2 flux0 (i + 1)%Z j (flux0 (i + 1)%Z j - w0 (i + 1)%Z j * mu i j) in
  let flux1 := upd2 flux1 i j (flux1 i j + w1 i j * mu i j) in
  let flux1 := upd2 flux1 i (j + 1)%Z (flux1 i (j + 1)%Z - w1 i (j + 1)%Z * mu i j) in
  (flux0, flux1).
Lemma upd2_sub : forall (f : arr2) i j v a b, upd2 f i j (f i j - v) a b = f a b - (if ((a =? i) && (b =? j))%Z then v else 0).
Proof. intros. replace (f i j - v) with (f i j + (- v)) by ring. rewrite upd2_add. destruct ((a =? i) && (b =? j))%Z; ring. Qed.

Lemma scatter_fst : forall s a b,
  fst (do_cells lo0 hi0 lo1 hi1 scatter_body s) a b =
  fst s a b + ((if inb lo0 hi0 a && inb lo1 hi1 b then w0 a b * mu a b else 0)
               - (if inb lo0 hi0 (a - 1) && inb lo1 hi1 b then w0 a b * mu (a - 1)%Z b else 0)).
Proof.
  intros s a b.
  rewrite (obs_cells _ (fun s : arr2 * arr2 => fst s a b) lo0 hi0 lo1 hi1 (fun i j =>
    (if ((i =? a) && (j =? b))%Z then w0 i j * mu i j else 0) + (-1) * (if ((i =? a - 1) && (j =? b))%Z then w0 (i + 1)%Z j * mu i j else 0))).
  - rewrite sum_box_plus, sum_box_scal.
    rewrite (sum_box_single lo0 hi0 lo1 hi1 a b (fun i j => w0 i j * mu i j)).
    rewrite (sum_box_single lo0 hi0 lo1 hi1 (a - 1) b (fun i j => w0 (i + 1)%Z j * mu i j)).
    replace (a - 1 + 1)%Z with a by lia.
    destruct (inb lo0 hi0 a && inb lo1 hi1 b); destruct (inb lo0 hi0 (a - 1) && inb lo1 hi1 b); ring.
  - intros i j [u v] _. cbn [fst scatter_body]. rewrite upd2_sub, upd2_add, shift_eqb.
    rewrite !(Z.eqb_sym b j), (Z.eqb_sym a i). ring.
Qed.
Lemma scatter_snd : forall s a b,
  snd (do_cells lo0 hi0 lo1 hi1 scatter_body s) a b =
  snd s a b + ((if inb lo0 hi0 a && inb lo1 hi1 b then w1 a b * mu a b else 0)
               - (if inb lo0 hi0 a && inb lo1 hi1 (b - 1) then w1 a b * mu a (b - 1)%Z else 0)).
Proof.
  intros s a b.
  rewrite (obs_cells _ (fun s : arr2 * arr2 => snd s a b) lo0 hi0 lo1 hi1 (fun i j =>
    (if ((i =? a) && (j =? b))%Z then w1 i j * mu i j else 0) + (-1) * (if ((i =? a) && (j =? b - 1))%Z then w1 i (j + 1)%Z * mu i j else 0))).
  - rewrite sum_box_plus, sum_box_scal.
    rewrite (sum_box_single lo0 hi0 lo1 hi1 a b (fun i j => w1 i j * mu i j)).
    rewrite (sum_box_single lo0 hi0 lo1 hi1 a (b - 1) (fun i j => w1 i (j + 1)%Z * mu i j)).
    replace (b - 1 + 1)%Z with b by lia.
    destruct (inb lo0 hi0 a && inb lo1 hi1 b); destruct (inb lo0 hi0 a && inb lo1 hi1 (b - 1)); ring.
  - intros i j [u v] _. cbn [snd scatter_body]. rewrite upd2_sub, upd2_add, (shift_eqb b j 1).
    rewrite !(Z.eqb_sym a i), (Z.eqb_sym b j). ring.
Qed.
End Scatter.

Lemma lap5_eq : forall dx0 dx1 conc i j, dx0 <> 0 -> dx1 <> 0 -> lap5 dx0 dx1 conc i j = laplace dx0 dx1 conc i j.
Proof. intros. unfold lap5, laplace. cbv zeta. field. auto. Qed.

Lemma ch_deriv : forall ca cb ws c,
  derivable_pt_lim (ch_energy ca cb ws) c (2 * ws * (c - ca) * (cb - c) * (cb + ca - 2 * c)).
Proof.
  intros ca cb ws c. apply is_derive_Reals. unfold ch_energy.
  evar_last; [auto_derive; [exact I | reflexivity] |]. ring.
Qed.

Lemma scatter_faces : forall lo0 hi0 lo1 hi1 dx0 dx1 M0 M1 mu w0 w1 s, dx0 <> 0 -> dx1 <> 0 ->
  (forall i j, w0 i j = M0 i j * / dx0) -> (forall i j, w1 i j = M1 i j * / dx1) ->
  face_flux lo0 hi0 lo1 hi1 dx0 dx1 M0 M1 mu s
    (do_cells (lo0 - 1) (hi0 + 1) (lo1 - 1) (hi1 + 1) (scatter_body w0 w1 mu) s).
Proof.
  intros lo0 hi0 lo1 hi1 dx0 dx1 M0 M1 mu w0 w1 s Hx Hy H0 H1. split; intros i j [Hi Hj].
  - rewrite scatter_fst. 
    destruct (inb_spec (lo0 - 1) (hi0 + 1) i); [| lia]. destruct (inb_spec (lo0 - 1) (hi0 + 1) (i - 1)); [| lia].
    destruct (inb_spec (lo1 - 1) (hi1 + 1) j); [| lia]. cbn [andb]. rewrite H0. field. auto.
  - rewrite scatter_snd. 
    destruct (inb_spec (lo0 - 1) (hi0 + 1) i); [| lia]. destruct (inb_spec (lo1 - 1) (hi1 + 1) j); [| lia].
    destruct (inb_spec (lo1 - 1) (hi1 + 1) (j - 1)); [| lia]. cbn [andb]. rewrite H1. field. auto.
Qed.

Lemma do_cells_ext : forall S lo0 hi0 lo1 hi1 (b1 b2 : Z -> Z -> S -> S) s,
  (forall i j s, in_box lo0 hi0 lo1 hi1 i j -> b1 i j s = b2 i j s) -> do_cells lo0 hi0 lo1 hi1 b1 s = do_cells lo0 hi0 lo1 hi1 b2 s.
Proof.
  intros S lo0 hi0 lo1 hi1 b1 b2 s H. unfold do_cells. apply do_loop_ext. intros j s' Hj. apply do_loop_ext.
  intros i s'' Hi. apply H. split; auto.
Qed.

Lemma cahn_hilliard_flux : forall lo0 hi0 lo1 hi1 dx0 dx1 conc mob ca cb ws kappa s, dx0 <> 0 -> dx1 <> 0 ->
  exists mu,
    (forall i j, exists d, derivable_pt_lim (ch_energy ca cb ws) (conc i j) d /\
       mu i j = d - kappa * laplace dx0 dx1 conc i j) /\
    face_flux lo0 hi0 lo1 hi1 dx0 dx1 (fun _ _ => mob) (fun _ _ => mob) mu s
      (add_cahnhilliard_flux lo0 hi0 lo1 hi1 dx0 dx1 conc mob ca cb ws kappa s).
Proof.
  intros lo0 hi0 lo1 hi1 dx0 dx1 conc mob ca cb ws kappa s Hx Hy.
  exists (fun i j => 2 * ws * (conc i j - ca) * (cb - conc i j) * (cb + ca - 2 * conc i j) - kappa * lap5 dx0 dx1 conc i j).
  split.
  - intros i j. eexists. split; [apply ch_deriv |]. rewrite lap5_eq by auto. reflexivity.
  - unfold add_cahnhilliard_flux. cbv zeta.
    rewrite (do_cells_ext _ _ _ _ _ _ (scatter_body (fun _ _ => mob * (1 / dx0)) (fun _ _ => mob * (1 / dx1))
      (fun i j => 2 * ws * (conc i j - ca) * (cb - conc i j) * (cb + ca - 2 * conc i j) - kappa * lap5 dx0 dx1 conc i j))).
    + apply scatter_faces; auto; intros; field; auto.
    + intros i j [u v] _. reflexivity.
Qed.

(** equilibrium: a uniform composition produces no flux *)
Lemma cahn_hilliard_uniform : forall lo0 hi0 lo1 hi1 dx0 dx1 c mob ca cb ws kappa s, dx0 <> 0 -> dx1 <> 0 ->
  let s' := add_cahnhilliard_flux lo0 hi0 lo1 hi1 dx0 dx1 (fun _ _ => c) mob ca cb ws kappa s in
  (forall i j, in_box lo0 (hi0 + 1) lo1 hi1 i j -> fst s' i j = fst s i j) /\
  (forall i j, in_box lo0 hi0 lo1 (hi1 + 1) i j -> snd s' i j = snd s i j).
Proof.
  intros lo0 hi0 lo1 hi1 dx0 dx1 c mob ca cb ws kappa s Hx Hy s'.
  destruct (cahn_hilliard_flux lo0 hi0 lo1 hi1 dx0 dx1 (fun _ _ => c) mob ca cb ws kappa s Hx Hy) as (mu & Hmu & [F0 F1]).
  assert (Hc : forall i j i' j', mu i j = mu i' j').
  { intros i j i' j'. destruct (Hmu i j) as (d & Hd & ->). destruct (Hmu i' j') as (d' & Hd' & ->).
    rewrite (uniqueness_limite _ _ _ _ Hd Hd'). reflexivity. }
  split; intros i j Hij; unfold s'; [rewrite F0 by auto; rewrite (Hc i j (i - 1)%Z j) | rewrite F1 by auto; rewrite (Hc i j i (j - 1)%Z)]; unfold Rminus, Rdiv; ring.
Qed.

(** ** sintering *)
Lemma phi_powers_ok : forall lo0 hi0 lo1 hi1 n phi w i j, (1 <= n)%Z -> in_box (lo0 - 1) (hi0 + 1) (lo1 - 1) (hi1 + 1) i j ->
  fst (phi_powers lo0 hi0 lo1 hi1 n phi w) i j = sq_sum n (phi i j) /\
  snd (phi_powers lo0 hi0 lo1 hi1 n phi w) i j = cu_sum n (phi i j).
Proof.
  intros lo0 hi0 lo1 hi1 n phi w a b Hn [Ha Hb]. unfold phi_powers. cbv zeta.
  set (w1 := do_cells (lo0 - 1) (hi0 + 1) (lo1 - 1) (hi1 + 1) (fun i j (s : arr2 * arr2) => let (phi2sum, phi3sum) := s in _) w).
  assert (E1 : fst w1 a b = phi a b 1%Z ^ 2 /\ snd w1 a b = phi a b 1%Z ^ 3).
  { unfold w1. 
    assert (Ef : forall s, fst (do_cells (lo0 - 1) (hi0 + 1) (lo1 - 1) (hi1 + 1) (fun i j (s : arr2 * arr2) => let (p2, p3) := s in
        (upd2 p2 i j (phi i j 1%Z * phi i j 1%Z), upd2 p3 i j (phi i j 1%Z * phi i j 1%Z * phi i j 1%Z))) s) =
        do_cells (lo0 - 1) (hi0 + 1) (lo1 - 1) (hi1 + 1) (fun i j s => upd2 s i j (phi i j 1%Z * phi i j 1%Z)) (fst s)).
    { intro s. unfold do_cells, do_loop. revert s. generalize (range (lo1 - 1) (hi1 + 1)) as L1. induction L1 as [| j L1 IH]; intro s; [reflexivity |].
      cbn [fold_left]. rewrite IH. f_equal. clear IH. revert s. generalize (range (lo0 - 1) (hi0 + 1)) as L0.
      induction L0 as [| i L0 IH0]; intro s; [reflexivity |]. cbn [fold_left]. rewrite IH0. destruct s. reflexivity. }
    assert (Es : forall s, snd (do_cells (lo0 - 1) (hi0 + 1) (lo1 - 1) (hi1 + 1) (fun i j (s : arr2 * arr2) => let (p2, p3) := s in
        (upd2 p2 i j (phi i j 1%Z * phi i j 1%Z), upd2 p3 i j (phi i j 1%Z * phi i j 1%Z * phi i j 1%Z))) s) =
        do_cells (lo0 - 1) (hi0 + 1) (lo1 - 1) (hi1 + 1) (fun i j s => upd2 s i j (phi i j 1%Z * phi i j 1%Z * phi i j 1%Z)) (snd s)).
    { intro s. unfold do_cells, do_loop. revert s. generalize (range (lo1 - 1) (hi1 + 1)) as L1. induction L1 as [| j L1 IH]; intro s; [reflexivity |].
      cbn [fold_left]. rewrite IH. f_equal. clear IH. revert s. generalize (range (lo0 - 1) (hi0 + 1)) as L0.
      induction L0 as [| i L0 IH0]; intro s; [reflexivity |]. cbn [fold_left]. rewrite IH0. destruct s. reflexivity. }
    rewrite Ef, Es.
    rewrite (cells_loop _ _ _ _ (fun i j _ => phi i j 1%Z * phi i j 1%Z)), (cells_loop _ _ _ _ (fun i j _ => phi i j 1%Z * phi i j 1%Z * phi i j 1%Z)).
    destruct (inb_spec (lo0 - 1) (hi0 + 1) a); [| lia]. destruct (inb_spec (lo1 - 1) (hi1 + 1) b); [| lia]. cbn [andb].
    split; ring. }
  destruct E1 as [E1 E2].
  unfold sq_sum, cu_sum. rewrite !(sumZ_cons 1 n) by lia. rewrite <- E1, <- E2. change (1 + 1)%Z with 2%Z.
  clearbody w1. clear E1 E2 w. split.
  - apply (obs_loop _ (fun s : arr2 * arr2 => fst s a b) 2 n (fun ip => phi a b ip ^ 2)). intros ip s _.
    rewrite (obs_cells _ (fun s : arr2 * arr2 => fst s a b) (lo0 - 1) (hi0 + 1) (lo1 - 1) (hi1 + 1)
      (fun i j => if ((i =? a) && (j =? b))%Z then phi i j ip * phi i j ip else 0)).
    + rewrite (sum_box_single _ _ _ _ a b (fun i j => phi i j ip * phi i j ip)).
      destruct (inb_spec (lo0 - 1) (hi0 + 1) a); [| lia]. destruct (inb_spec (lo1 - 1) (hi1 + 1) b); [| lia]. cbn [andb]. ring.
    + intros i j [u v] _. cbn [fst]. rewrite upd2_add, (Z.eqb_sym a i), (Z.eqb_sym b j). reflexivity.
  - apply (obs_loop _ (fun s : arr2 * arr2 => snd s a b) 2 n (fun ip => phi a b ip ^ 3)). intros ip s _.
    rewrite (obs_cells _ (fun s : arr2 * arr2 => snd s a b) (lo0 - 1) (hi0 + 1) (lo1 - 1) (hi1 + 1)
      (fun i j => if ((i =? a) && (j =? b))%Z then phi i j ip * phi i j ip * phi i j ip else 0)).
    + rewrite (sum_box_single _ _ _ _ a b (fun i j => phi i j ip * phi i j ip * phi i j ip)).
      destruct (inb_spec (lo0 - 1) (hi0 + 1) a); [| lia]. destruct (inb_spec (lo1 - 1) (hi1 + 1) b); [| lia]. cbn [andb]. ring.
    + intros i j [u v] _. cbn [snd]. rewrite upd2_add, (Z.eqb_sym a i), (Z.eqb_sym b j). reflexivity.
Qed.

Lemma sinter_deriv_c : forall A B n phi c,
  derivable_pt_lim (sintering_energy A B n phi) c
    (2 * A * c * (1 - c) * (1 - 2 * c) + 2 * B * (c - 3 * sq_sum n phi + 2 * cu_sum n phi)).
Proof.
  intros A B n phi c. apply is_derive_Reals. unfold sintering_energy.
  evar_last; [auto_derive; [exact I | reflexivity] |]. ring.
Qed.

Lemma sintering_flux : forall lo0 hi0 lo1 hi1 dx0 dx1 conc d0 d1 n phi mob A B kappa w s, (1 <= n)%Z -> dx0 <> 0 -> dx1 <> 0 ->
  exists mu,
    (forall i j, in_box (lo0 - 1) (hi0 + 1) (lo1 - 1) (hi1 + 1) i j ->
       exists d, derivable_pt_lim (sintering_energy A B n (phi i j)) (conc i j) d /\
       mu i j = d - kappa * laplace dx0 dx1 conc i j) /\
    face_flux lo0 hi0 lo1 hi1 dx0 dx1 (fun i j => mob * d0 i j) (fun i j => mob * d1 i j) mu s
      (add_wang_sintering_flux lo0 hi0 lo1 hi1 dx0 dx1 conc d0 d1 n phi mob A B kappa w s).
Proof.
  intros lo0 hi0 lo1 hi1 dx0 dx1 conc d0 d1 n phi mob A B kappa w s Hn Hx Hy.
  pose proof (phi_powers_ok lo0 hi0 lo1 hi1 n phi w) as HP. unfold add_wang_sintering_flux. cbv zeta.
  destruct (phi_powers lo0 hi0 lo1 hi1 n phi w) as [p2 p3]. cbn [fst snd] in HP.
  exists (fun i j => 2 * A * conc i j * (1 - conc i j) * (1 - 2 * conc i j) + 2 * B * (conc i j - 3 * p2 i j + 2 * p3 i j) - kappa * lap5 dx0 dx1 conc i j).
  split.
  - intros i j Hij. destruct (HP i j Hn Hij) as [-> ->]. eexists. split; [apply sinter_deriv_c |]. rewrite lap5_eq by auto. reflexivity.
  - rewrite (do_cells_ext _ _ _ _ _ _ (scatter_body (fun i j => mob * d0 i j * (1 / dx0)) (fun i j => mob * d1 i j * (1 / dx1))
      (fun i j => 2 * A * conc i j * (1 - conc i j) * (1 - 2 * conc i j) + 2 * B * (conc i j - 3 * p2 i j + 2 * p3 i j) - kappa * lap5 dx0 dx1 conc i j))).
    + apply scatter_faces; auto; intros; field; auto.
    + intros i j [u v] _. reflexivity.
Qed.

(** ** order parameter right-hand sides *)
Lemma phi2sum_ok : forall lo0 hi0 lo1 hi1 n phi w i j, (1 <= n)%Z -> in_box lo0 hi0 lo1 hi1 i j ->
  phi2sum_box lo0 hi0 lo1 hi1 n phi w i j = sq_sum n (phi i j).
Proof.
  intros lo0 hi0 lo1 hi1 n phi w a b Hn [Ha Hb]. unfold phi2sum_box. cbv zeta. unfold sq_sum. rewrite sumZ_cons by lia.
  change (1 + 1)%Z with 2%Z.
  rewrite (obs_loop _ (fun s : arr2 => s a b) 2 n (fun ip => phi a b ip ^ 2)).
  - f_equal. rewrite (cells_loop _ _ _ _ (fun i j _ => phi i j 1%Z * phi i j 1%Z)).
    destruct (inb_spec lo0 hi0 a); [| lia]. destruct (inb_spec lo1 hi1 b); [| lia]. cbn [andb]. ring.
  - intros ip s _. rewrite (cells_loop _ _ _ _ (fun i j x => x + phi i j ip * phi i j ip)).
    destruct (inb_spec lo0 hi0 a); [| lia]. destruct (inb_spec lo1 hi1 b); [| lia]. cbn [andb]. ring.
Qed.

(** component loop over cells: each component plane is rewritten once *)
Lemma comp_loop : forall lo0 hi0 lo1 hi1 n (g : Z -> Z -> Z -> R) (r : arr3) i j p,
  do_loop 1 n (fun ip => do_cells lo0 hi0 lo1 hi1 (fun i j r => upd3 r i j ip (g i j ip))) r i j p =
  if inb lo0 hi0 i && inb lo1 hi1 j && inb 1 n p then g i j p else r i j p.
Proof.
  intros lo0 hi0 lo1 hi1 n g r i j p.
  apply (cells3_loop lo0 hi0 lo1 hi1 1 n (fun i j k _ => g i j k) r i j p).
Qed.

Lemma sumZ_set : forall n (phi : Z -> R) p x (h : R -> R), (1 <= p <= n)%Z ->
  sumZ 1 n (fun k => h (setZ phi p x k)) = sumZ 1 n (fun k => if (k =? p)%Z then 0 else h (phi k)) + h x.
Proof.
  intros n phi p x h Hp.
  replace (h x) with (if inb 1 n p then h x else 0) by (destruct (inb_spec 1 n p); [reflexivity | lia]).
  rewrite <- (sumZ_single 1 n p (fun _ => h x)), <- sumZ_plus. apply sumZ_ext. intros k _. unfold setZ.
  destruct (k =? p)%Z; ring.
Qed.
Lemma sumZ_without : forall n (phi : Z -> R) p (h : R -> R), (1 <= p <= n)%Z ->
  sumZ 1 n (fun k => if (k =? p)%Z then 0 else h (phi k)) = sumZ 1 n (fun k => h (phi k)) - h (phi p).
Proof.
  intros n phi p h Hp. rewrite <- (sumZ_ext 1 n (fun k => h (setZ phi p (phi p) k)) (fun k => h (phi k))).
  - rewrite sumZ_set by auto. ring.
  - intros k _. unfold setZ. destruct (Z.eqb_spec k p) as [-> |]; reflexivity.
Qed.

Lemma sinter_deriv_phi : forall A B n phi p c, (1 <= p <= n)%Z ->
  derivable_pt_lim (fun x => sintering_energy A B n (setZ phi p x) c) (phi p)
    (12 * B * ((1 - c) * phi p - (2 - c) * phi p * phi p + sq_sum n phi * phi p)).
Proof.
  intros A B n phi p c Hp. apply is_derive_Reals.
  set (S2 := sumZ 1 n (fun k => if (k =? p)%Z then 0 else phi k ^ 2)).
  set (S3 := sumZ 1 n (fun k => if (k =? p)%Z then 0 else phi k ^ 3)).
  apply (is_derive_ext (fun x : R => A * c ^ 2 * (1 - c) ^ 2 + B * (c ^ 2 + 6 * (1 - c) * (S2 + x ^ 2) - 4 * (2 - c) * (S3 + x ^ 3) + 3 * (S2 + x ^ 2) ^ 2))).
  - intro x. unfold sintering_energy, sq_sum, cu_sum.
    rewrite (sumZ_set n phi p x (fun y => y ^ 2)), (sumZ_set n phi p x (fun y => y ^ 3)) by auto. reflexivity.
  - assert (E : sq_sum n phi = S2 + phi p ^ 2).
    { unfold sq_sum, S2. rewrite (sumZ_without n phi p (fun y => y ^ 2)) by auto. ring. }
    rewrite E. evar_last; [auto_derive; [exact I | reflexivity] |]. ring.
Qed.

Lemma sintering_rhs : forall lo0 hi0 lo1 hi1 n dx0 dx1 f0 f1 beta B phi conc w rhs, (1 <= n)%Z -> dx0 <> 0 -> dx1 <> 0 ->
  let r := computerhs_wang_sintering lo0 hi0 lo1 hi1 n dx0 dx1 f0 f1 beta B phi conc w rhs in
  forall i j p A, in_box lo0 hi0 lo1 hi1 i j -> (1 <= p <= n)%Z ->
    exists d, derivable_pt_lim (fun x => sintering_energy A B n (setZ (phi i j) p x) (conc i j)) (phi i j p) d /\
      r i j p = beta * diverg dx0 dx1 (fun i j => f0 i j p) (fun i j => f1 i j p) i j - d.
Proof.
  intros lo0 hi0 lo1 hi1 n dx0 dx1 f0 f1 beta B phi conc w rhs Hn Hx Hy r i j p A Hij Hp.
  eexists. split; [apply sinter_deriv_phi; auto |]. unfold r, computerhs_wang_sintering. cbv zeta.
  rewrite (comp_loop lo0 hi0 lo1 hi1 n (fun i j ip => beta * ((f0 (i + 1)%Z j ip - f0 i j ip) * (1 / dx0) + (f1 i (j + 1)%Z ip - f1 i j ip) * (1 / dx1)) -
     12 * B * ((1 - conc i j) * phi i j ip - (2 - conc i j) * phi i j ip * phi i j ip + phi2sum_box lo0 hi0 lo1 hi1 n phi w i j * phi i j ip))).
  pose proof Hij as [Hi Hj].
  destruct (inb_spec lo0 hi0 i); [| lia]. destruct (inb_spec lo1 hi1 j); [| lia]. destruct (inb_spec 1 n p); [| lia]. cbn [andb].
  rewrite phi2sum_ok by auto. unfold diverg. field. auto.
Qed.

(** multi-order-parameter model *)
Lemma moelans_deriv : forall m gamma n phi p, (1 <= p <= n)%Z ->
  derivable_pt_lim (fun x => moelans_energy m gamma n (setZ phi p x)) (phi p)
    (m * (phi p ^ 3 - phi p + 2 * gamma * phi p * (sq_sum n phi - phi p ^ 2))).
Proof.
  intros m gamma n phi p Hp. apply is_derive_Reals.
  set (S2 := sumZ 1 n (fun k => if (k =? p)%Z then 0 else phi k ^ 2)).
  set (S4 := sumZ 1 n (fun k => if (k =? p)%Z then 0 else phi k ^ 4 / 4 - phi k ^ 2 / 2)).
  (* pair sum = (sum of squares)^2 - sum of fourth powers *)
  assert (EP : forall psi : Z -> R, pair_sum n psi = sumZ 1 n (fun k => psi k ^ 2) ^ 2 - sumZ 1 n (fun k => psi k ^ 4)).
  { intro psi. unfold pair_sum.
    rewrite (sumZ_ext 1 n _ (fun q => psi q ^ 2 * sumZ 1 n (fun k => psi k ^ 2) - psi q ^ 4)).
    - rewrite sumZ_minus. rewrite (sumZ_ext 1 n (fun q => psi q ^ 2 * sumZ 1 n (fun k => psi k ^ 2)) (fun q => sumZ 1 n (fun k => psi k ^ 2) * psi q ^ 2)) by (intros; ring).
      rewrite sumZ_scal. ring.
    - intros q Hq. rewrite (sumZ_ext 1 n _ (fun k => psi q ^ 2 * (if (k =? q)%Z then 0 else psi k ^ 2))).
      + rewrite sumZ_scal, (sumZ_without n psi q (fun y => y ^ 2)) by auto. ring.
      + intros k _. rewrite Z.eqb_sym. destruct (k =? q)%Z; ring. }
  set (T4 := sumZ 1 n (fun k => if (k =? p)%Z then 0 else phi k ^ 4)).
  apply (is_derive_ext (fun x : R => m * ((S4 + (x ^ 4 / 4 - x ^ 2 / 2)) + gamma * (/ 2 * ((S2 + x ^ 2) ^ 2 - (T4 + x ^ 4))) + 1 / 4))).
  - intro x. unfold moelans_energy. rewrite EP.
    rewrite (sumZ_set n phi p x (fun y => y ^ 4 / 4 - y ^ 2 / 2)), (sumZ_set n phi p x (fun y => y ^ 2)), (sumZ_set n phi p x (fun y => y ^ 4)) by auto.
    reflexivity.
  - assert (E : sq_sum n phi = S2 + phi p ^ 2).
    { unfold sq_sum, S2. rewrite (sumZ_without n phi p (fun y => y ^ 2)) by auto. ring. }
    rewrite E. evar_last; [auto_derive; [exact I | reflexivity] |]. field.
Qed.

Lemma multiorder_value : forall lo0 hi0 lo1 hi1 n dx0 dx1 f0 f1 gamma m phi w rhs i j p, (1 <= n)%Z -> dx0 <> 0 -> dx1 <> 0 ->
  in_box lo0 hi0 lo1 hi1 i j -> (1 <= p <= n)%Z ->
  computerhsmultiorder lo0 hi0 lo1 hi1 n dx0 dx1 f0 f1 gamma m phi w rhs i j p =
  diverg dx0 dx1 (fun i j => f0 i j p) (fun i j => f1 i j p) i j -
  m * (phi i j p ^ 3 - phi i j p + 2 * gamma * phi i j p * (sq_sum n (phi i j) - phi i j p)).
Proof.
  intros lo0 hi0 lo1 hi1 n dx0 dx1 f0 f1 gamma m phi w rhs i j p Hn Hx Hy [Hi Hj] Hp.
  unfold computerhsmultiorder. cbv zeta.
  set (P := phi2sum_box lo0 hi0 lo1 hi1 n phi w).
  set (G := fun i j ip => (f0 (i + 1)%Z j ip - f0 i j ip) * (1 / dx0) + (f1 i (j + 1)%Z ip - f1 i j ip) * (1 / dx1)
     - m * (phi i j ip * phi i j ip * phi i j ip - phi i j ip + 2 * phi i j ip * gamma * (P i j - phi i j ip))).
  assert (E : do_loop 1 n (fun ip => do_cells lo0 hi0 lo1 hi1 (fun i j r =>
     upd3 (upd3 r i j ip ((f0 (i + 1)%Z j ip - f0 i j ip) * (1 / dx0) + (f1 i (j + 1)%Z ip - f1 i j ip) * (1 / dx1))) i j ip
       (upd3 r i j ip ((f0 (i + 1)%Z j ip - f0 i j ip) * (1 / dx0) + (f1 i (j + 1)%Z ip - f1 i j ip) * (1 / dx1)) i j ip -
        m * (phi i j ip * phi i j ip * phi i j ip - phi i j ip + 2 * phi i j ip * gamma * (P i j - phi i j ip))))) rhs i j p = G i j p).
  { set (body := fun (i j ip : Z) (r : arr3) => upd3 (upd3 r i j ip ((f0 (i + 1)%Z j ip - f0 i j ip) * (1 / dx0) + (f1 i (j + 1)%Z ip - f1 i j ip) * (1 / dx1))) i j ip
       (upd3 r i j ip ((f0 (i + 1)%Z j ip - f0 i j ip) * (1 / dx0) + (f1 i (j + 1)%Z ip - f1 i j ip) * (1 / dx1)) i j ip -
        m * (phi i j ip * phi i j ip * phi i j ip - phi i j ip + 2 * phi i j ip * gamma * (P i j - phi i j ip)))).
    assert (HB : forall i j ip r a b c, body i j ip r a b c = upd3 r i j ip (G i j ip) a b c).
    { intros i' j' ip r a b c. unfold body. rewrite upd3_same. unfold upd3, G.
      destruct ((a =? i') && (b =? j') && (c =? ip))%Z; reflexivity. }
    assert (HE : forall L (s t : arr3), (forall a b c, s a b c = t a b c) ->
      forall a b c, fold_left (fun s ip => do_cells lo0 hi0 lo1 hi1 (fun i j => body i j ip) s) L s a b c =
      fold_left (fun s ip => do_cells lo0 hi0 lo1 hi1 (fun i j r => upd3 r i j ip (G i j ip)) s) L t a b c).
    { induction L as [| ip L IH]; intros s t Hst; [exact Hst |]. cbn [fold_left]. apply IH. clear IH.
      unfold do_cells, do_loop. revert s t Hst. generalize (range lo1 hi1) as L1.
      induction L1 as [| j' L1 IH1]; intros s t Hst; [exact Hst |]. cbn [fold_left]. apply IH1. clear IH1.
      revert s t Hst. generalize (range lo0 hi0) as L0.
      induction L0 as [| i' L0 IH0]; intros s t Hst; [exact Hst |]. cbn [fold_left]. apply IH0.
      intros a b c. rewrite HB. unfold upd3. rewrite Hst. reflexivity. }
    transitivity (do_loop 1 n (fun ip => do_cells lo0 hi0 lo1 hi1 (fun i j r => upd3 r i j ip (G i j ip))) rhs i j p).
    - exact (HE (range 1 n) rhs rhs (fun _ _ _ => eq_refl) i j p).
    - rewrite comp_loop. destruct (inb_spec lo0 hi0 i); [| lia]. destruct (inb_spec lo1 hi1 j); [| lia]. destruct (inb_spec 1 n p); [| lia]. reflexivity. }
  rewrite E. unfold G, P. rewrite phi2sum_ok by (auto; split; auto). unfold diverg. field. auto.
Qed.

(** the right-hand side is the gradient flow exactly where phi is 0 or 1 (or the coupling vanishes) *)
Lemma multiorder_gradient : forall lo0 hi0 lo1 hi1 n dx0 dx1 f0 f1 gamma m phi w rhs i j p, (1 <= n)%Z -> dx0 <> 0 -> dx1 <> 0 ->
  in_box lo0 hi0 lo1 hi1 i j -> (1 <= p <= n)%Z -> m <> 0 -> gamma <> 0 ->
  let r := computerhsmultiorder lo0 hi0 lo1 hi1 n dx0 dx1 f0 f1 gamma m phi w rhs i j p in
  derivable_pt_lim (fun x => moelans_energy m gamma n (setZ (phi i j) p x)) (phi i j p)
    (diverg dx0 dx1 (fun i j => f0 i j p) (fun i j => f1 i j p) i j - r) <-> phi i j p = 0 \/ phi i j p = 1.
Proof.
  intros lo0 hi0 lo1 hi1 n dx0 dx1 f0 f1 gamma m phi w rhs i j p Hn Hx Hy Hij Hp Hm Hg r.
  unfold r. rewrite multiorder_value by auto. set (x := phi i j p). set (D := diverg _ _ _ _ _ _).
  pose proof (moelans_deriv m gamma n (phi i j) p Hp) as HD. fold x in HD. split.
  - intro H. pose proof (uniqueness_limite _ _ _ _ HD H) as E.
    assert (E2 : m * gamma * (2 * x * x * (x - 1)) = 0).
    { apply Rminus_diag_eq in E. ring_simplify in E. ring_simplify. lra. }
    apply Rmult_integral in E2. destruct E2 as [E2 | E2].
    + apply Rmult_integral in E2. destruct E2; contradiction.
    + apply Rmult_integral in E2. destruct E2 as [E2 | E2]; [| right; lra].
      left. apply Rmult_integral in E2. destruct E2 as [E2 | E2]; [lra | exact E2].
  - intros [H | H]; evar_last; try exact HD; rewrite H; ring.
Qed.
