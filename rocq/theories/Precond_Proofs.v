From Coq Require Import Reals ZArith List Bool Ascii Lia Lra Psatz FunctionalExtensionality.
From Coquelicot Require Import Coquelicot.
From Verif Require Import Grid_Model Grid_Proofs Functions_Model Stencils_Model Transport_Model PhaseFlow_Model PhaseFlow_Spec PhaseFlow_Proofs Elliptic_Model Elliptic_Spec Elliptic_Proofs
  Precond_Model Precond_Spec.
Import ListNotations.
Open Scope R_scope.

Lemma base_plain : forall lv, base_level lv -> plain lv.
Proof. intros lv (H & _). unfold plain. rewrite H. apply andb_false_r. Qed.
Lemma compres_cell : forall p dx dy o fl rhs soln res i j, inside p i j -> compres p dx dy o fl rhs soln res i j = residual_cell dx dy o fl rhs soln i j.
Proof. intros p dx dy o fl rhs soln res i j [Hi Hj]. unfold compres.
  rewrite (cells_loop _ _ _ _ (fun a b _ => residual_cell dx dy o fl rhs soln a b)), !inb_true by lia. reflexivity. Qed.
Lemma compres_operator : forall lv p o w fl rhs res i j, base_level lv -> inside p i j ->
  compres p (pdx lv) (pdy lv) o (flux_on_patch lv p o o w fl) rhs w res i j = rhs i j - operator (1 / (pdx lv * pdx lv)) (1 / (pdy lv * pdy lv)) o w i j.
Proof.
  intros lv p o w fl rhs res i j Hb H. rewrite compres_cell by auto. pose proof (base_plain _ Hb). destruct Hb as (_ & Hx & Hy & Ex & Ey).
  rewrite residual_operator by (auto; lra). unfold code_ax, code_ay. rewrite Ex, Ey. reflexivity.
Qed.

(** the phase right-hand side without coupling *)
Lemma phase_rhs_val : forall lv p pr phi fold rold i j, same_patch lv p (pb pr) -> 0 < pdx lv -> 0 < pdy lv -> no_coupling pr -> inside p i j ->
  value (evaluatePhaseRHS pr phi fold rold) i j =
  pmob pr i j * (peps pr * peps pr * ((phi (i + 1)%Z j - 2 * phi i j + phi (i - 1)%Z j) / (pdx lv * pdx lv)
                                    + (phi i (j + 1)%Z - 2 * phi i j + phi i (j - 1)%Z) / (pdy lv * pdy lv))
                 - pwell pr * (32 * phi i j * (1 - phi i j) * (1 - 2 * phi i j))).
Proof.
  intros lv p pr phi fold rold i j (E0 & E1 & E2 & E3 & E4 & E5) Hx Hy (Ef & Eo & E3' & Ed) (Hi & Hj).
  pose proof (rhs_value pr phi fold rold) as V. unfold types_known in V. rewrite Eo, E3', Ed in V. cbn [andb] in V.
  destruct V as (r & Er & V). rewrite Er. cbn [value]. rewrite V by (split; lia).
  unfold force, third_term, orient_term, drive_term, div_term. rewrite Eo, E3', Ed, Ef. cbn [flux_x flux_y]. unfold gradient_flux_x, gradient_flux_y.
  rewrite !xfaces_val by (split; lia). rewrite !yfaces_val by (split; lia).
  replace (i + 1 - 1)%Z with i by lia. replace (j + 1 - 1)%Z with j by lia. rewrite E4, E5. field. lra.
Qed.
Lemma phase_coefs_val : forall p phi m eps gamma W t cold o i j, phase_coefs p phi m eps gamma W t cold = Some o -> inside p i j ->
  (forall a b, xdc o a b = - gamma * eps * eps) /\ (forall a b, ydc o a b = - gamma * eps * eps) /\ mob o = m /\
  exists g, second_deriv_well_func (phi i j) t = Some g /\ sfield o i j = 1 + gamma * m i j * W * g.
Proof.
  intros p phi m eps gamma W t cold o i j E [Hi Hj]. unfold phase_coefs in E.
  destruct (second_deriv_well_func 0 t) eqn:E0; [| discriminate]. injection E as <-. cbn [xdc ydc mob sfield]. split; [auto |]. split; [auto |]. split; [auto |].
  assert (Q : exists g : R -> R, forall x, second_deriv_well_func x t = Some (g x)).
  { unfold second_deriv_well_func in E0 |- *.
    destruct t as [[] [] [] [] [] [] [] []]; try discriminate; eexists; intro x; reflexivity. }
  destruct Q as (g & Q). exists (g (phi i j)). split; [apply Q |].
  replace (fun i0 j0 s => match second_deriv_well_func (phi i0 j0) t with Some g0 => upd2 s i0 j0 (1 + gamma * m i0 j0 * W * g0) | None => s end)
    with (fun i0 j0 (s : arr2) => upd2 s i0 j0 ((fun a b (_ : R) => 1 + gamma * m a b * W * g (phi a b)) i0 j0 (s i0 j0)))
    by (do 3 (apply functional_extensionality; intro); rewrite Q; reflexivity).
  rewrite (cells_loop _ _ _ _ (fun a b (_ : R) => 1 + gamma * m a b * W * g (phi a b))), !inb_true by lia. reflexivity.
Qed.
Lemma phase_derivative : forall lv p pr phi z fold rold i j, same_patch lv p (pb pr) -> 0 < pdx lv -> 0 < pdy lv -> no_coupling pr -> inside p i j ->
  derivable_pt_lim (fun t => value (evaluatePhaseRHS pr (along phi z t) fold rold) i j) 0
    (pmob pr i j * (peps pr * peps pr * ((z (i + 1)%Z j - 2 * z i j + z (i - 1)%Z j) / (pdx lv * pdx lv) + (z i (j + 1)%Z - 2 * z i j + z i (j - 1)%Z) / (pdy lv * pdy lv))
                    - pwell pr * (32 * (1 + 6 * phi i j * (phi i j - 1))) * z i j)).
Proof.
  intros lv p pr phi z fold rold i j Hs Hx Hy Hn Hin.
  eapply (derivable_pt_lim_ext (fun t => pmob pr i j * (peps pr * peps pr * ((along phi z t (i + 1)%Z j - 2 * along phi z t i j + along phi z t (i - 1)%Z j) / (pdx lv * pdx lv)
                                    + (along phi z t i (j + 1)%Z - 2 * along phi z t i j + along phi z t i (j - 1)%Z) / (pdy lv * pdy lv))
                 - pwell pr * (32 * along phi z t i j * (1 - along phi z t i j) * (1 - 2 * along phi z t i j))))).
  { intro t. symmetry. apply (phase_rhs_val lv p); auto. }
  unfold along. apply is_derive_Reals. auto_derive; [auto |]. field. lra.
Qed.

(** C87 *)
Lemma phase_block : forall lv p pr o gamma phi z r fold rold cold fl res i j,
  base_level lv -> same_patch lv p (pb pr) -> no_coupling pr ->
  phase_coefs p phi (pmob pr) (peps pr) gamma (pwell pr) "d" cold = Some o -> inside p i j ->
  exists d, derivable_pt_lim (fun t => value (evaluatePhaseRHS pr (along phi z t) fold rold) i j) 0 d /\
    compres p (pdx lv) (pdy lv) o (flux_on_patch lv p o o z fl) r z res i j = r i j - (z i j - gamma * d).
Proof.
  intros lv p pr o gamma phi z r fold rold cold fl res i j Hb Hs Hn E Hin.
  eexists. split; [apply (phase_derivative lv p); [exact Hs | apply Hb | apply Hb | exact Hn | exact Hin] |].
  rewrite compres_operator by auto. destruct (phase_coefs_val _ _ _ _ _ _ _ _ _ _ _ E Hin) as (Ex & Ey & Em & g & Eg & Es).
  cbn in Eg. injection Eg as <-. unfold operator. rewrite !Ex, !Ey, Em, Es. field. destruct Hb as (_ & ? & ? & _). lra.
Qed.
Lemma phase_block_single : exists lv p pr o gamma phi z r fold rold cold fl res i j d,
  base_level lv /\ same_patch lv p (pb pr) /\ no_coupling pr /\ 0 < gamma /\
  phase_coefs p phi (pmob pr) (peps pr) gamma (pwell pr) "s" cold = Some o /\ inside p i j /\
  derivable_pt_lim (fun t => value (evaluatePhaseRHS pr (along phi z t) fold rold) i j) 0 d /\
  compres p (pdx lv) (pdy lv) o (flux_on_patch lv p o o z fl) r z res i j <> r i j - (z i j - gamma * d).
Proof.
  set (lv := mk_level [mk_patch 0 0 0 0 []] 1 1 1 1 2%Z 2%Z false true). set (p := mk_patch 0 0 0 0 []).
  set (pr := mk_problem (mk_pbox 0 0 0 0 1 1) FluxSimple 1 1 (fun _ _ => 0) None None NoDrive (fun _ _ => 1)).
  set (zero := fun _ _ : Z => 0). set (one := fun _ _ : Z => 1).
  destruct (phase_coefs p zero (pmob pr) (peps pr) 1 (pwell pr) "s" zero) as [o |] eqn:E; [| discriminate].
  exists lv, p, pr, o, 1, zero, one, zero, zero, zero, zero, (zero, zero), zero, 0%Z, 0%Z. eexists.
  assert (Hb : base_level lv) by (unfold base_level, lv; cbn; repeat split; lra).
  assert (Hs : same_patch lv p (pb pr)) by (unfold same_patch; cbn; auto 10).
  assert (Hn : no_coupling pr) by (unfold no_coupling; cbn; auto).
  assert (Hin : inside p 0 0) by (split; cbn; lia).
  split; [exact Hb |]. split; [exact Hs |]. split; [exact Hn |]. split; [lra |]. split; [exact E |]. split; [exact Hin |].
  split; [apply (phase_derivative lv p); [exact Hs | apply Hb | apply Hb | exact Hn | exact Hin] |].
  rewrite compres_operator by auto. destruct (phase_coefs_val _ _ _ _ _ _ _ _ _ _ _ E Hin) as (Ex & Ey & Em & g & Eg & Es).
  cbn in Eg. injection Eg as <-. unfold operator. rewrite !Ex, !Ey, Em, Es. unfold zero, one, pr, lv. cbn [pmob peps pwell pdx pdy]. lra.
Qed.

Lemma laplacian_val : forall a b c d hx hy k f r i j, (a <= i <= b)%Z -> (c <= j <= d)%Z ->
  Stencils_Model.laplacian a b c d hx hy k f r i j =
  k * ((f (i - 1)%Z j - 2 * f i j + f (i + 1)%Z j) * (1 / (hx * hx)) + (f i (j - 1)%Z - 2 * f i j + f i (j + 1)%Z) * (1 / (hy * hy))).
Proof.
  intros a b c d hx hy k f r i j Hi Hj. unfold Stencils_Model.laplacian.
  rewrite (cells_loop _ _ _ _ (fun i j _ => k * ((f (i - 1)%Z j - 2 * f i j + f (i + 1)%Z j) * (1 / (hx * hx)) + (f i (j - 1)%Z - 2 * f i j + f i (j + 1)%Z) * (1 / (hy * hy))))).
  rewrite !inb_true by lia. reflexivity.
Qed.
Lemma temperature_block : forall lv p b gamma kappa lh temp cp phirhs z r r0 fl res i j,
  base_level lv -> same_patch lv p b -> inside p i j ->
  exists d, derivable_pt_lim (fun t => computerhstemp b kappa lh (along temp z t) cp phirhs r0 i j) 0 d /\
    compres p (pdx lv) (pdy lv) (temperature_coefs gamma kappa) (flux_on_patch lv p (temperature_coefs gamma kappa) (temperature_coefs gamma kappa) z fl) r z res i j
    = r i j - (z i j - gamma * d).
Proof.
  intros lv p b gamma kappa lh temp cp phirhs z r r0 fl res i j Hb (E0 & E1 & E2 & E3 & E4 & E5) Hin.
  exists (kappa * ((z (i + 1)%Z j - 2 * z i j + z (i - 1)%Z j) / (pdx lv * pdx lv) + (z i (j + 1)%Z - 2 * z i j + z i (j - 1)%Z) / (pdy lv * pdy lv))).
  pose proof Hb as (_ & Hx & Hy & _). pose proof Hin as [Hi Hj]. split.
  - apply (derivable_pt_lim_ext (fun t => kappa * ((along temp z t (i - 1)%Z j - 2 * along temp z t i j + along temp z t (i + 1)%Z j) * (1 / (h1 b * h1 b))
      + (along temp z t i (j - 1)%Z - 2 * along temp z t i j + along temp z t i (j + 1)%Z) * (1 / (h2 b * h2 b)))
      + match phirhs with Some f => lh / cp i j * f i j | None => 0 end)).
    { intro t. unfold computerhstemp. destruct phirhs as [f |]; cbv zeta.
      - rewrite cells_val by (split; lia). rewrite laplacian_val by lia. reflexivity.
      - rewrite laplacian_val by lia. ring. }
    unfold along. apply is_derive_Reals. auto_derive; [auto |]. rewrite E4, E5. field. lra.
  - rewrite compres_operator by auto. unfold operator, temperature_coefs. cbn [xdc ydc mob sfield]. field. lra.
Qed.

Lemma conc_flux_val : forall a b c d hx hy conc phi d0 d1 c0 c1 f0 f1 i j,
  ((a <= i <= b + 1)%Z -> (c <= j <= d)%Z -> fst (concentrationflux a b c d hx hy conc phi d0 d1 c0 c1 f0 f1) i j =
    1 / hx * (d0 i j * (conc i j - conc (i - 1)%Z j) + c0 i j * (phi i j - phi (i - 1)%Z j))) /\
  ((a <= i <= b)%Z -> (c <= j <= d + 1)%Z -> snd (concentrationflux a b c d hx hy conc phi d0 d1 c0 c1 f0 f1) i j =
    1 / hy * (d1 i j * (conc i j - conc i (j - 1)%Z) + c1 i j * (phi i j - phi i (j - 1)%Z))).
Proof.
  intros a b c d hx hy conc phi d0 d1 c0 c1 f0 f1 i j. unfold concentrationflux. cbn [fst snd]. split; intros Hi Hj.
  - rewrite (cells_loop _ _ _ _ (fun i j _ => 1 / hx * (d0 i j * (conc i j - conc (i - 1)%Z j) + c0 i j * (phi i j - phi (i - 1)%Z j)))), !inb_true by lia. reflexivity.
  - rewrite (cells_loop _ _ _ _ (fun i j _ => 1 / hy * (d1 i j * (conc i j - conc i (j - 1)%Z) + c1 i j * (phi i j - phi i (j - 1)%Z)))), !inb_true by lia. reflexivity.
Qed.
Definition conc_rhs (p : patch) (lv : level) (conc phi d0 d1 c0 c1 f0 f1 : arr2) (m : R) (old : arr2) : arr2 :=
  let f := concentrationflux (ilo p) (ihi p) (jlo p) (jhi p) (pdx lv) (pdy lv) conc phi d0 d1 c0 c1 f0 f1 in
  computerhsconcentration (ilo p) (ihi p) (jlo p) (jhi p) (pdx lv) (pdy lv) (fst f) (snd f) m old.
Lemma composition_block : forall lv p gamma conc phi d0 d1 c0 c1 f0 f1 m z r old fl res i j,
  base_level lv -> inside p i j ->
  exists d, derivable_pt_lim (fun t =>
      let f := concentrationflux (ilo p) (ihi p) (jlo p) (jhi p) (pdx lv) (pdy lv) (along conc z t) phi d0 d1 c0 c1 f0 f1 in
      computerhsconcentration (ilo p) (ihi p) (jlo p) (jhi p) (pdx lv) (pdy lv) (fst f) (snd f) m old i j) 0 d /\
    compres p (pdx lv) (pdy lv) (conc_coefs gamma d0 d1 m) (flux_on_patch lv p (conc_coefs gamma d0 d1 m) (conc_coefs gamma d0 d1 m) z fl) r z res i j
    = r i j - (z i j - gamma * d).
Proof.
  intros lv p gamma conc phi d0 d1 c0 c1 f0 f1 m z r old fl res i j Hb Hin. pose proof Hb as (_ & Hx & Hy & _). pose proof Hin as [Hi Hj].
  exists (m * ((d0 (i + 1)%Z j * (z (i + 1)%Z j - z i j) - d0 i j * (z i j - z (i - 1)%Z j)) / (pdx lv * pdx lv)
             + (d1 i (j + 1)%Z * (z i (j + 1)%Z - z i j) - d1 i j * (z i j - z i (j - 1)%Z)) / (pdy lv * pdy lv))). split.
  - apply (derivable_pt_lim_ext (fun t => m * (1 / pdx lv * (1 / pdx lv * (d0 (i + 1)%Z j * (along conc z t (i + 1)%Z j - along conc z t i j) + c0 (i + 1)%Z j * (phi (i + 1)%Z j - phi i j))
            - 1 / pdx lv * (d0 i j * (along conc z t i j - along conc z t (i - 1)%Z j) + c0 i j * (phi i j - phi (i - 1)%Z j)))
          + 1 / pdy lv * (1 / pdy lv * (d1 i (j + 1)%Z * (along conc z t i (j + 1)%Z - along conc z t i j) + c1 i (j + 1)%Z * (phi i (j + 1)%Z - phi i j))
            - 1 / pdy lv * (d1 i j * (along conc z t i j - along conc z t i (j - 1)%Z) + c1 i j * (phi i j - phi i (j - 1)%Z)))))).
    { intro t. cbv zeta. unfold computerhsconcentration.
      set (f := concentrationflux _ _ _ _ _ _ _ _ _ _ _ _ _ _).
      rewrite (cells_loop _ _ _ _ (fun i j _ => m * (1 / pdx lv * (fst f (i + 1)%Z j - fst f i j) + 1 / pdy lv * (snd f i (j + 1)%Z - snd f i j)))), !inb_true by lia. cbn [andb].
      unfold f. rewrite !(proj1 (conc_flux_val _ _ _ _ _ _ _ _ _ _ _ _ _ _ _ _)) by lia. rewrite !(proj2 (conc_flux_val _ _ _ _ _ _ _ _ _ _ _ _ _ _ _ _)) by lia.
      replace (i + 1 - 1)%Z with i by lia. replace (j + 1 - 1)%Z with j by lia. reflexivity. }
    unfold along. apply is_derive_Reals. auto_derive; [auto |]. field. lra.
  - rewrite compres_operator by auto. unfold operator, conc_coefs. cbn [xdc ydc mob sfield]. field. lra.
Qed.

(** the coupling of the temperature to the phase *)
Lemma accumop_cell : forall lv p o w fl i j, base_level lv -> inside p i j ->
  multiplyDTDPhiBlock lv p o fl w i j = - operator (1 / (pdx lv * pdx lv)) (1 / (pdy lv * pdy lv)) o w i j.
Proof.
  intros lv p o w fl i j Hb Hin. pose proof (compres_operator lv p o w fl (fun _ _ => 0) (fun _ _ => 0) i j Hb Hin) as H.
  rewrite compres_cell in H by auto. unfold residual_cell in H. destruct Hin as [Hi Hj]. unfold multiplyDTDPhiBlock, accumop.
  set (f := flux_on_patch lv p o o w fl) in *.
  rewrite (cells_loop _ _ _ _ (fun i j x => x - mob o i j * (1 / pdx lv * (fst f (i + 1)%Z j - fst f i j) + 1 / pdy lv * (snd f i (j + 1)%Z - snd f i j)) - sfield o i j * w i j)).
  rewrite !inb_true by lia. cbn [andb]. lra.
Qed.
Lemma phase_temperature_coefs_val : forall p phi m eps lh W t cold o i j, phase_temperature_coefs p phi m eps lh W t cold = Some o -> inside p i j ->
  (forall a b, xdc o a b = - lh * eps * eps) /\ (forall a b, ydc o a b = - lh * eps * eps) /\ mob o = m /\
  exists g, second_deriv_well_func (phi i j) t = Some g /\ sfield o i j = lh * m i j * W * g.
Proof.
  intros p phi m eps lh W t cold o i j E [Hi Hj]. unfold phase_temperature_coefs in E.
  destruct (second_deriv_well_func 0 t) eqn:E0; [| discriminate]. injection E as <-. cbn [xdc ydc mob sfield]. split; [auto |]. split; [auto |]. split; [auto |].
  assert (Q : exists g : R -> R, forall x, second_deriv_well_func x t = Some (g x)).
  { unfold second_deriv_well_func in E0 |- *.
    destruct t as [[] [] [] [] [] [] [] []]; try discriminate; eexists; intro x; reflexivity. }
  destruct Q as (g & Q). exists (g (phi i j)). split; [apply Q |].
  replace (fun i0 j0 s => match second_deriv_well_func (phi i0 j0) t with Some g0 => upd2 s i0 j0 (lh * m i0 j0 * W * g0) | None => s end)
    with (fun i0 j0 (s : arr2) => upd2 s i0 j0 ((fun a b (_ : R) => lh * m a b * W * g (phi a b)) i0 j0 (s i0 j0)))
    by (do 3 (apply functional_extensionality; intro); rewrite Q; reflexivity).
  rewrite (cells_loop _ _ _ _ (fun a b (_ : R) => lh * m a b * W * g (phi a b))), !inb_true by lia. reflexivity.
Qed.
Lemma temperature_phase_block : forall lv p pr o kappa lh gamma phi z temp cp r fold rold r0 cold fl i j,
  base_level lv -> same_patch lv p (pb pr) -> no_coupling pr ->
  phase_temperature_coefs p phi (phase_temperature_mobility (pmob pr) cp) (peps pr) lh (pwell pr) "d" cold = Some o -> inside p i j -> cp i j <> 0 ->
  exists d, derivable_pt_lim (fun t => computerhstemp (pb pr) kappa lh temp cp (evaluatePhaseRHS pr (along phi z t) fold rold) r0 i j) 0 d /\
    temperature_precond_rhs gamma (multiplyDTDPhiBlock lv p o fl z) r i j = r i j + gamma * d.
Proof.
  intros lv p pr o kappa lh gamma phi z temp cp r fold rold r0 cold fl i j Hb Hs Hn E Hin Hcp.
  pose proof Hb as (_ & Hx & Hy & _). pose proof (phase_derivative lv p pr phi z fold rold i j Hs Hx Hy Hn Hin) as D.
  match type of D with derivable_pt_lim _ _ ?d => exists (lh / cp i j * d) end. split.
  - pose proof (derivable_pt_lim_scal _ (lh / cp i j) _ _ D) as D1. pose proof (derivable_pt_lim_plus _ _ _ _ _ D1
      (derivable_pt_lim_const (Stencils_Model.laplacian (lo0 (pb pr)) (hi0 (pb pr)) (lo1 (pb pr)) (hi1 (pb pr)) (h1 (pb pr)) (h2 (pb pr)) kappa temp r0 i j) 0)) as D2.
    rewrite Rplus_0_r in D2. eapply derivable_pt_lim_ext; [| exact D2]. intro t. unfold mult_real_fct, plus_fct, fct_cte, computerhstemp.
    pose proof (rhs_value pr (along phi z t) fold rold) as V. unfold types_known in V. destruct Hn as (Ef & Eo & E3' & Ed). rewrite Eo, E3', Ed in V. cbn [andb] in V.
    destruct V as (rr & Er & V). rewrite Er. cbn [value]. cbv zeta. destruct Hs as (E0 & E1 & E2 & E3 & E4 & E5). destruct Hin as [Hi Hj].
    rewrite cells_val by (split; lia). ring.
  - unfold temperature_precond_rhs. rewrite accumop_cell by auto. destruct (phase_temperature_coefs_val _ _ _ _ _ _ _ _ _ _ _ E Hin) as (Ex & Ey & Em & g & Eg & Es).
    cbn in Eg. injection Eg as <-. unfold operator. rewrite !Ex, !Ey, Em, Es. unfold phase_temperature_mobility. field. lra.
Qed.
(** the coupling of the phase to the temperature: the correction does not follow the temperature *)
Lemma phase_temperature_wrong : forall pr tm lh it m gamma phi z_phase r old fold rold i j,
  pdrive pr = DeltaTemperature tm lh it -> porient pr = None -> pthird pr = None -> deriv_known it = true -> (forall a b, pmob pr a b = m) -> in_cells (pb pr) i j ->
  tm <> 0 -> lh <> 0 -> m <> 0 -> gamma <> 0 -> val (deriv_interp_func (phi i j) it) <> 0 ->
  exists z_T d out, derivable_pt_lim (fun t => value (evaluatePhaseRHS (mk_problem (pb pr) (pflux pr) (peps pr) (pwell pr) (along (ptemp pr) z_T t)
      (porient pr) (pthird pr) (pdrive pr) (pmob pr)) phi fold rold) i j) 0 d /\
    phase_precond_rhs (pb pr) gamma tm lh m it z_T z_phase r old = Some out /\ out i j <> r i j + gamma * d.
Proof.
  intros pr tm lh it m gamma phi z_phase r old fold rold i j Ed Eo E3 Hk Em Hin Htm Hlh Hm Hg Hh.
  set (h := val (deriv_interp_func (phi i j) it)) in *. set (hz := val (deriv_interp_func (z_phase i j) it)).
  assert (D : forall c, derivable_pt_lim (fun t => value (evaluatePhaseRHS (mk_problem (pb pr) (pflux pr) (peps pr) (pwell pr) (along (ptemp pr) (fun _ _ => c) t)
      (porient pr) (pthird pr) (pdrive pr) (pmob pr)) phi fold rold) i j) 0 (- (m * (lh / tm) * h * c))).
  { intro c. set (prt := fun t => mk_problem (pb pr) (pflux pr) (peps pr) (pwell pr) (along (ptemp pr) (fun _ _ => c) t) (porient pr) (pthird pr) (pdrive pr) (pmob pr)).
    set (k := div_term pr phi fold i j - pwell pr * (32 * phi i j * (1 - phi i j) * (1 - 2 * phi i j))).
    apply (derivable_pt_lim_ext (fun t => m * (k + lh / tm * (tm - (wtemp (ptemp pr) i j + t * c)) * h))).
    { intro t. pose proof (rhs_value (prt t) phi fold rold) as V. unfold types_known in V. cbn [pthird porient pdrive prt] in V.
      rewrite E3, Eo, Ed, Hk in V. cbn [andb] in V. destruct V as (rr & Er & V). fold (prt t). rewrite Er. cbn [value]. rewrite V by exact Hin.
      unfold force, third_term, orient_term. cbn [pthird porient prt pdrive ptemp pmob]. rewrite Em, E3, Eo, Ed. cbn [drive_term].
      change (div_term (prt t) phi fold i j) with (div_term pr phi fold i j). cbn [pwell prt]. fold h. unfold k, wtemp, along. field. auto. }
    apply is_derive_Reals. auto_derive; [auto |]. field. auto. }
  assert (Ho : forall z_T, exists out, phase_precond_rhs (pb pr) gamma tm lh m it z_T z_phase r old = Some out /\ out i j = - gamma * (m * lh / tm * hz) + r i j).
  { intro z_T. unfold phase_precond_rhs, computedphidtemperature. rewrite Hk. eexists. split; [reflexivity |]. cbv beta. rewrite cells_val by exact Hin. fold hz. ring. }
  destruct (Req_dec hz 0) as [Ez | Nz].
  - destruct (Ho (fun _ _ => 1)) as (out & E1 & E2). exists (fun _ _ => 1), (- (m * (lh / tm) * h * 1)), out. split; [apply D |]. split; [exact E1 |].
    rewrite E2, Ez. intro Q. assert (G : gamma * (m * (lh * (/ tm * h))) = 0) by (unfold Rdiv in Q; lra).
    pose proof (Rinv_neq_0_compat _ Htm). repeat (apply Rmult_integral in G; destruct G as [G | G]; try contradiction).
  - destruct (Ho (fun _ _ => 0)) as (out & E1 & E2). exists (fun _ _ => 0), (- (m * (lh / tm) * h * 0)), out. split; [apply D |]. split; [exact E1 |].
    rewrite E2. intro Q. assert (G : gamma * (m * (lh * (/ tm * hz))) = 0) by (unfold Rdiv in Q; lra).
    pose proof (Rinv_neq_0_compat _ Htm). repeat (apply Rmult_integral in G; destruct G as [G | G]; try contradiction).
Qed.

(** C88 *)
Lemma second_well_bound : forall x, - 16 <= 32 * (1 + 6 * x * (x - 1)).
Proof. intro x. pose proof (pow2_ge_0 (2 * x - 1)). nra. Qed.
Lemma phase_block_solvable : forall lv gh p phi m eps gamma W Mmax cold o rhs fl,
  base_level lv -> patches lv = [p] -> (0 <= jlo p)%Z -> tame lv gh -> 0 <= gamma -> 0 <= W ->
  (forall i j, inside p i j -> 0 <= m i j <= Mmax) -> 0 <= Mmax -> 16 * gamma * Mmax * W < 1 ->
  phase_coefs p phi m eps gamma W "d" cold = Some o ->
  exists v, solves (1 / (pdx lv * pdx lv)) (1 / (pdy lv * pdy lv)) lv gh o rhs v /\
    (forall v', solves (1 / (pdx lv * pdx lv)) (1 / (pdy lv * pdy lv)) lv gh o rhs v' -> within lv v v' 0) /\
    (forall u eps', 0 < eps' -> exists N, forall n, (N <= n)%nat -> within lv (smoothErrorByRedBlack lv gh o rhs fl n (-1) u) v eps').
Proof.
  intros lv gh p phi m eps gamma W Mmax cold o rhs fl Hb Ep Hj0 Hgh Hg HW Hm HM Hc E.
  assert (Hd : disjoint lv) by (unfold disjoint; rewrite Ep; constructor; constructor).
  assert (Hn : nonneg_rows lv) by (intros q Hq; rewrite Ep in Hq; destruct Hq as [<- | []]; auto).
  pose proof Hb as (Hf & Hx & Hy & Ex & Ey).
  set (K := gamma * Mmax * eps * eps * (2 / (pdx lv * pdx lv) + 2 / (pdy lv * pdy lv))).
  assert (Hpos : positive_problem lv o (1 - 16 * gamma * Mmax * W) K).
  { split; [lra |]. intros i j (q & Hq & Hin). rewrite Ep in Hq. destruct Hq as [<- | []].
    destruct (phase_coefs_val _ _ _ _ _ _ _ _ _ _ _ E Hin) as (Dx & Dy & Em & g & Eg & Es). cbn in Eg. injection Eg as <-.
    rewrite !Dx, !Dy, Em, Es. destruct (Hm i j Hin) as [M0 M1].
    assert (P : 0 <= gamma * eps * eps) by (rewrite Rmult_assoc; apply Rmult_le_pos; [auto | pose proof (Rle_0_sqr eps) as Q; unfold Rsqr in Q; exact Q]).
    assert (gm : 0 <= gamma * m i j * W) by (repeat apply Rmult_le_pos; auto).
    assert (gm1 : gamma * m i j * W <= gamma * Mmax * W) by (apply Rmult_le_compat_r; [auto |]; apply Rmult_le_compat_l; auto).
    pose proof (second_well_bound (phi i j)) as S. set (g := 32 * (1 + 6 * phi i j * (phi i j - 1))) in *.
    assert (- 16 * (gamma * m i j * W) <= gamma * m i j * W * g) by (rewrite (Rmult_comm (-16)); apply Rmult_le_compat_l; auto).
    repeat split; try lra.
    assert (A : 0 <= 2 / (pdx lv * pdx lv) + 2 / (pdy lv * pdy lv)).
    { assert (0 < pdx lv * pdx lv) by (apply Rmult_lt_0_compat; auto). assert (0 < pdy lv * pdy lv) by (apply Rmult_lt_0_compat; auto).
      pose proof (Rdiv_lt_0_compat 2 _ ltac:(lra) H0). pose proof (Rdiv_lt_0_compat 2 _ ltac:(lra) H1). lra. }
    replace (- m i j * ((- gamma * eps * eps + - gamma * eps * eps) / (pdx lv * pdx lv) + (- gamma * eps * eps + - gamma * eps * eps) / (pdy lv * pdy lv)))
      with (m i j * ((gamma * eps * eps) * (2 / (pdx lv * pdx lv) + 2 / (pdy lv * pdy lv)))) by (field; lra).
    replace K with (Mmax * ((gamma * eps * eps) * (2 / (pdx lv * pdx lv) + 2 / (pdy lv * pdy lv)))) by (unfold K; ring).
    apply Rmult_le_compat_r; [apply Rmult_le_pos; auto | auto]. }
  destruct (smoothing_converges_coarsest lv gh o rhs fl _ _ Hd Hn Hf Hx Hy Ex Ey Hgh Hpos) as (v & H1 & H2 & _ & H4).
  exists v. auto.
Qed.
(** at 16 gamma M W = 1 a uniform field at phi = 1/2 is in the kernel *)
Lemma phase_block_singular : forall lv gh p phi m eps gamma W cold o,
  base_level lv -> patches lv = [p] -> (ilo p <= ihi p)%Z -> (jlo p <= jhi p)%Z ->
  (forall i j, ~ cell lv i j -> factor (gh i j) = 1 /\ offset_value (gh i j) = 0) ->
  (forall i j, phi i j = 1 / 2) -> (forall i j, 16 * gamma * m i j * W = 1) ->
  phase_coefs p phi m eps gamma W "d" cold = Some o ->
  (forall c, solves (1 / (pdx lv * pdx lv)) (1 / (pdy lv * pdy lv)) lv gh o (fun _ _ => 0) (fun _ _ => c)).
Proof.
  intros lv gh p phi m eps gamma W cold o Hb Ep H1 H2 Hgh Hphi HM E c w [W1 W2] i j Hc.
  assert (Hw : forall a b, w a b = c).
  { intros a b. destruct (in_level_spec lv a b) as [Y | N]; [apply W1, Y |]. rewrite (W2 a b N). destruct (Hgh a b N) as [-> ->]. ring. }
  destruct Hc as (q & Hq & Hin). rewrite Ep in Hq. destruct Hq as [<- | []].
  destruct (phase_coefs_val _ _ _ _ _ _ _ _ _ _ _ E Hin) as (Dx & Dy & Em & g & Eg & Es). cbn in Eg. injection Eg as <-.
  unfold operator. rewrite !Hw, Es, Hphi. specialize (HM i j).
  replace (1 + gamma * m i j * W * (32 * (1 + 6 * (1 / 2) * (1 / 2 - 1)))) with (1 - 16 * gamma * m i j * W) by field. rewrite HM. ring.
Qed.
