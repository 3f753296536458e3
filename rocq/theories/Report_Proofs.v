(** Lemmas on the printed scalar diagnostics. *)
From Coq Require Import Reals ZArith List Bool Lra Lia.
From Verif Require Import Report_Model Report_Spec.
Import ListNotations.
Open Scope R_scope.

Lemma copy_depth_ok : forall f d h, (forall c, In c h -> (0 <= d < Z.of_nat (length (f c)))%Z) ->
  copy_depth f d h = Some (map (fun c => nth (Z.to_nat d) (f c) 0) h).
Proof.
  intros f d h; induction h as [| c r IH]; intros H; [reflexivity |]. cbn [copy_depth map].
  pose proof (H c (or_introl eq_refl)) as Hc. replace (d <? 0)%Z with false by (symmetry; apply Z.ltb_ge; lia).
  rewrite IH by (intros; apply H; right; assumption).
  rewrite (nth_error_nth' (f c) 0) by lia. reflexivity.
Qed.
Lemma copy_depth_none : forall f d h c, In c h -> (d < 0 \/ Z.of_nat (length (f c)) <= d)%Z -> copy_depth f d h = None.
Proof.
  intros f d h c; induction h as [| a r IH]; intros Hin H; [destruct Hin |]. cbn [copy_depth].
  destruct (Z.ltb_spec d 0) as [L | L]; [reflexivity |].
  destruct Hin as [-> | Hin].
  - replace (nth_error (f c) (Z.to_nat d)) with (@None R) by (symmetry; apply nth_error_None; lia). reflexivity.
  - rewrite (IH Hin H). destruct (nth_error (f a) (Z.to_nat d)); reflexivity.
Qed.
Lemma integral_map : forall w g h, integral w (map g h) h = total (fun c => g c * w c) h.
Proof. intros w g h; induction h as [| c r IH]; [reflexivity |]. cbn. rewrite IH. reflexivity. Qed.
Lemma total_ext : forall f g h, (forall c, In c h -> f c = g c) -> total f h = total g h.
Proof.
  intros f g h; induction h as [| c r IH]; intros H; [reflexivity |]. cbn. fold (total f r). fold (total g r).
  rewrite IH by (intros; apply H; right; assumption). rewrite (H c (or_introl eq_refl)). reflexivity.
Qed.
Lemma total_le : forall f g h, (forall c, In c h -> f c <= g c) -> total f h <= total g h.
Proof.
  intros f g h; induction h as [| c r IH]; intros H; [apply Rle_refl |]. cbn. fold (total f r). fold (total g r).
  pose proof (H c (or_introl eq_refl)). specialize (IH (fun c' Hc => H c' (or_intror Hc))). lra.
Qed.
Lemma total_lt : forall f g h, (forall c, In c h -> f c <= g c) -> (exists c, In c h /\ f c < g c) -> total f h < total g h.
Proof.
  intros f g h; induction h as [| c r IH]; intros H [x [Hx L]]; [destruct Hx |]. cbn. fold (total f r). fold (total g r).
  pose proof (H c (or_introl eq_refl)). pose proof (total_le f g r (fun c' Hc => H c' (or_intror Hc))).
  destruct Hx as [-> | Hx]; [lra |]. specialize (IH (fun c' Hc => H c' (or_intror Hc)) (ex_intro _ x (conj Hx L))). lra.
Qed.
Lemma total_plus : forall f g h, total (fun c => f c + g c) h = total f h + total g h.
Proof. intros f g h; induction h as [| c r IH]; cbn; [lra |]. fold (total f r) (total g r) (total (fun c => f c + g c) r). rewrite IH. lra. Qed.
Lemma total_scal : forall a f h, total (fun c => a * f c) h = a * total f h.
Proof. intros a f h; induction h as [| c r IH]; cbn; [lra |]. fold (total f r) (total (fun c => a * f c) r). rewrite IH. lra. Qed.
Lemma total_zero : forall h, total (fun _ => 0) h = 0.
Proof. intros h; induction h as [| c r IH]; cbn; [reflexivity |]. fold (total (fun _ => 0) r). rewrite IH. lra. Qed.

Lemma volume_model : forall low up, fold_left (fun v d => v * (snd d - fst d)) (combine low up) 1 = volume low up.
Proof.
  intros low up. unfold volume.
  assert (H : forall (l : list (R * R)) a, fold_left (fun v d => v * (snd d - fst d)) l a = a * fold_right (fun d v => (snd d - fst d) * v) 1 l).
  { induction l as [| d l IH]; intros a; cbn; [ring | rewrite IH; ring]. }
  rewrite H. ring.
Qed.

Lemma traverse_ok : forall (A B : Type) (f : A -> option B) (g : A -> B) l, (forall a, In a l -> f a = Some (g a)) -> traverse f l = Some (map g l).
Proof.
  intros A B f g l; induction l as [| a l IH]; intros H; [reflexivity |]. cbn. rewrite (H a (or_introl eq_refl)).
  rewrite IH by (intros; apply H; right; assumption). reflexivity.
Qed.
Lemma in_upto : forall n i, In i (upto n) <-> (0 <= i < Z.of_nat n)%Z.
Proof.
  intros n i. unfold upto. rewrite in_map_iff. split.
  - intros [k [<- Hk]]. apply in_seq in Hk. lia.
  - intros H. exists (Z.to_nat i). split; [lia | apply in_seq; lia].
Qed.
Lemma combine_map : forall (A B : Type) (g : A -> B) l, combine l (map g l) = map (fun a => (a, g a)) l.
Proof. intros A B g l; induction l as [| a l IH]; cbn; [reflexivity | rewrite IH; reflexivity]. Qed.

(** the parts *)
Lemma phase_copy : forall p h i, depths_ok p h -> (0 <= i < norderp p)%Z -> copy_depth phase i h = Some (map (op i) h).
Proof. intros p h i D H. apply copy_depth_ok. intros c Hc. destruct (D c Hc) as [-> _]. lia. Qed.
Lemma conc_copy : forall p h i, depths_ok p h -> (0 <= i < Z.of_nat (ncompositions p))%Z -> copy_depth conc i h = Some (map (composition i) h).
Proof. intros p h i D H. apply copy_depth_ok. intros c Hc. destruct (D c Hc) as [_ ->]. lia. Qed.

Lemma print_phase_many : forall p vol h, with_phase p = true -> (1 < norderp p)%Z -> depths_ok p h -> exists v,
  print_phase p vol h = Some (map (fun i => Fraction i (total (fun c => op i c * weight c) h / vol)) (indices (norderp p)), v).
Proof.
  intros p vol h P N D. unfold print_phase. rewrite P.
  replace (three_phases p || (1 <? norderp p)%Z) with true by (symmetry; apply orb_true_iff; right; apply Z.ltb_lt; exact N).
  rewrite (traverse_ok _ _ _ (fun i => total (fun c => op i c * weight c) h)).
  - rewrite combine_map, map_map. cbn [fst snd]. eexists. reflexivity.
  - intros i Hi. apply in_upto in Hi. unfold evaluatePhaseFraction. rewrite (phase_copy p) by (assumption || lia). rewrite integral_map. reflexivity.
Qed.
Lemma print_phase_one : forall p vol h, with_phase p = true -> norderp p = 1%Z -> depths_ok p h ->
  print_phase p vol h = Some ([Solid (total (fun c => Rabs (op 0 c) * weight c) h / vol)], total (fun c => Rabs (op 0 c) * weight c) h).
Proof.
  intros p vol h P N D. unfold print_phase. rewrite P.
  assert (T : three_phases p = false) by (unfold norderp in N; destruct (three_phases p); [discriminate | reflexivity]).
  rewrite T, N. cbn [orb Z.ltb Z.compare Pos.compare Pos.compare_cont]. unfold evaluateVolumeSolid. rewrite (phase_copy p) by (assumption || lia).
  unfold l1norm. rewrite map_map, integral_map. reflexivity.
Qed.

Lemma fold_rmax : forall vs v, (fold_left Rmax vs v = v \/ In (fold_left Rmax vs v) vs) /\ v <= fold_left Rmax vs v /\ forall x, In x vs -> x <= fold_left Rmax vs v.
Proof.
  intros vs; induction vs as [| a vs IH]; intros v; cbn; [repeat split; [left; reflexivity | lra | intros x []] |].
  destruct (IH (Rmax v a)) as [E [L M]]. pose proof (Rmax_l v a). pose proof (Rmax_r v a). split; [| split].
  - destruct E as [E | E]; [| right; right; exact E]. rewrite E. unfold Rmax. destruct (Rle_dec v a); [right; left; reflexivity | left; reflexivity].
  - lra.
  - intros x [<- | Hx]; [lra | apply M; exact Hx].
Qed.
Lemma maximum_ok : forall f h v, maximum (map f h) = Some v -> largest f h v.
Proof.
  intros f [| c r] v H; [discriminate |]. cbn in H. injection H as <-. destruct (fold_rmax (map f r) (f c)) as [E [L M]]. split.
  - destruct E as [E | E]; [exists c; split; [left; reflexivity | symmetry; exact E] |].
    apply in_map_iff in E. destruct E as [x [Ex Hx]]. exists x. split; [right; exact Hx | exact Ex].
  - intros x [<- | Hx]; [exact L | apply M; apply in_map; exact Hx].
Qed.
Lemma maximum_some : forall f (h : hier), h <> [] -> exists v, maximum (map f h) = Some v.
Proof. intros f [| c r] H; [contradiction H; reflexivity | eexists; reflexivity]. Qed.

Definition top (i : Z) (h : hier) : R := match maximum (map (composition i) h) with Some v => v | None => 0 end.
Lemma print_component_ok : forall p vol vphi h ic, depths_ok p h -> h <> [] -> (1 <= norderp p)%Z -> (0 <= ic < Z.of_nat (ncompositions p))%Z ->
  print_component p vol vphi h ic = Some [Integral ic (total (fun c => composition ic c * weight c) h); MaxConc ic (top ic h)].
Proof.
  intros p vol vphi h ic D E N I. unfold print_component, evaluateIntegralConcentration.
  assert (A : (if (1 <? ncompositions p)%nat then ic else 0%Z) = ic) by (destruct (Nat.ltb_spec 1 (ncompositions p)); [reflexivity | lia]).
  rewrite A, (conc_copy p) by assumption. rewrite integral_map. unfold top. destruct (maximum_some (composition ic) h E) as [v ->].
  replace (norderp p <? 1)%Z with false by (symmetry; apply Z.ltb_ge; exact N). reflexivity.
Qed.
Lemma conc_lines : forall p vol vphi h, depths_ok p h -> h <> [] -> (1 <= norderp p)%Z ->
  traverse (print_component p vol vphi h) (upto (ncompositions p)) =
  Some (map (fun ic => [Integral ic (total (fun c => composition ic c * weight c) h); MaxConc ic (top ic h)]) (upto (ncompositions p))).
Proof. intros. apply traverse_ok. intros a Ha. apply in_upto in Ha. apply print_component_ok; assumption. Qed.

(** labels of the parts *)
Lemma flat_map_nil : forall (A B : Type) (f : A -> list B) l, (forall a, In a l -> f a = []) -> flat_map f l = [].
Proof. intros A B f l; induction l as [| a l IH]; intros H; [reflexivity |]. cbn. rewrite (H a (or_introl eq_refl)). apply IH. intros; apply H; right; assumption. Qed.
Lemma density_lines : forall p h l, print_density p h = Some l -> l = [] \/ exists d, l = [Density d].
Proof.
  intros p h l. unfold print_density. destruct (1 <? norderp p)%Z; [| intros H; injection H as <-; left; reflexivity].
  destruct (Rgt_dec _ _); [| intros H; injection H as <-; left; reflexivity].
  destruct (computeDensityDiagnostics p h) as [d |]; [| discriminate]. intros H; injection H as <-. right; exists d; reflexivity.
Qed.
Definition conc_part (p : params) (h : hier) : list line :=
  concat (map (fun ic => [Integral ic (total (fun c => composition ic c * weight c) h); MaxConc ic (top ic h)]) (upto (ncompositions p))).
Lemma print_split : forall p low up h out, depths_ok p h -> h <> [] -> (1 <= norderp p)%Z -> print_scalars p low up h = Some out ->
  exists l1 v l3, print_phase p (volume low up) h = Some (l1, v) /\ print_density p h = Some l3 /\
    out = l1 ++ print_eta p (volume low up) h ++ conc_part p h ++ l3.
Proof.
  intros p low up h out D E N H. unfold print_scalars in H. rewrite volume_model in H. cbv zeta in H.
  destruct (print_phase p (volume low up) h) as [[l1 v] |]; [| discriminate].
  rewrite conc_lines in H by assumption. destruct (print_density p h) as [l3 |]; [| discriminate].
  injection H as <-. exists l1, v, l3. repeat split.
Qed.
Lemma conc_part_flat : forall (B : Type) (f : line -> list B) p h, flat_map f (conc_part p h) =
  flat_map (fun ic => f (Integral ic (total (fun c => composition ic c * weight c) h)) ++ f (MaxConc ic (top ic h)) ++ []) (upto (ncompositions p)).
Proof.
  intros B f p h. unfold conc_part. induction (upto (ncompositions p)) as [| i l IH]; [reflexivity |].
  cbn [map concat app flat_map]. rewrite IH. rewrite <- !app_assoc. reflexivity.
Qed.
Lemma flat_single : forall (A B : Type) (g : A -> B) l, flat_map (fun a => [g a]) l = map g l.
Proof. intros A B g l; induction l as [| a l IH]; cbn; [reflexivity | rewrite IH; reflexivity]. Qed.
Lemma eta_flat : forall (B : Type) (f : line -> list B) p vol h, (forall v, f (Eta v) = []) -> flat_map f (print_eta p vol h) = [].
Proof. intros B f p vol h H. unfold print_eta. destruct (with_third_phase p); cbn; [rewrite H; reflexivity | reflexivity]. Qed.
Lemma density_flat : forall (B : Type) (f : line -> list B) p h l, print_density p h = Some l -> (forall v, f (Density v) = []) -> flat_map f l = [].
Proof. intros B f p h l H F. destruct (density_lines p h l H) as [-> | [d ->]]; cbn; [reflexivity | rewrite F; reflexivity]. Qed.
Lemma phase_flat : forall (B : Type) (f : line -> list B) p vol h l v, print_phase p vol h = Some (l, v) -> (forall i x, f (Fraction i x) = []) -> (forall x, f (Solid x) = []) -> flat_map f l = [].
Proof.
  intros B f p vol h l v H F G. unfold print_phase in H. destruct (with_phase p); [| injection H as <- _; reflexivity].
  destruct (three_phases p || (1 <? norderp p)%Z).
  - destruct (traverse _ _) as [vs |]; [| discriminate]. injection H as <- _. apply flat_map_nil. intros a Ha. apply in_map_iff in Ha. destruct Ha as [x [<- _]]. apply F.
  - destruct (evaluateVolumeSolid h); [| discriminate]. injection H as <- _. cbn. rewrite G. reflexivity.
Qed.

(** C206 *)
Lemma fractions_l : forall p low up h out, with_phase p = true -> (1 < norderp p)%Z -> depths_ok p h -> h <> [] -> volumes_ok low up h ->
  print_scalars p low up h = Some out -> fractions_of out = map (fun i => (i, mean weight (op i) h)) (indices (norderp p)).
Proof.
  intros p low up h out P N D E [V _] H. destruct (print_split p low up h out D E ltac:(lia) H) as [l1 [v [l3 [H1 [H3 ->]]]]].
  destruct (print_phase_many p (volume low up) h P N D) as [v' H1']. rewrite H1' in H1. injection H1 as <- _.
  unfold fractions_of. rewrite !flat_map_app, (eta_flat _ _ _ _ _ (fun _ => eq_refl)), (density_flat _ _ _ _ _ H3 (fun _ => eq_refl)), conc_part_flat.
  rewrite (flat_map_nil _ _ _ (upto (ncompositions p))) by reflexivity. cbn [app]. rewrite app_nil_r.
  rewrite flat_map_concat_map, map_map, <- flat_map_concat_map, flat_single. unfold mean. rewrite V. reflexivity.
Qed.
Lemma mean_bounds : forall w f h a b, (forall c, In c h -> 0 <= w c) -> 0 < total w h -> (forall c, In c h -> a <= f c <= b) -> a <= mean w f h <= b.
Proof.
  intros w f h a b W T F. unfold mean.
  assert (L : a * total w h <= total (fun c => f c * w c) h).
  { rewrite <- total_scal. apply total_le. intros c Hc. apply Rmult_le_compat_r; [apply W; exact Hc | apply (F c Hc)]. }
  assert (U : total (fun c => f c * w c) h <= b * total w h).
  { rewrite <- total_scal. apply total_le. intros c Hc. apply Rmult_le_compat_r; [apply W; exact Hc | apply (F c Hc)]. }
  split.
  - apply (Rmult_le_reg_r (total w h)); [exact T |]. unfold Rdiv. rewrite Rmult_assoc, Rinv_l by lra. lra.
  - apply (Rmult_le_reg_r (total w h)); [exact T |]. unfold Rdiv. rewrite Rmult_assoc, Rinv_l by lra. lra.
Qed.
Definition sum_snd (l : list (Z * R)) : R := fold_right (fun iv s => snd iv + s) 0 l.
Lemma sum_means : forall h l, sum_snd (map (fun i => (i, mean weight (op i) h)) l) = total (fun c => fold_right (fun i s => op i c + s) 0 l * weight c) h / total weight h.
Proof.
  intros h l; induction l as [| i l IH]; cbn.
  - rewrite (total_ext _ (fun _ => 0)) by (intros; ring). rewrite total_zero. unfold Rdiv; ring.
  - fold (sum_snd (map (fun i => (i, mean weight (op i) h)) l)). rewrite IH. unfold mean.
    rewrite (total_ext (fun c => (op i c + _) * weight c) (fun c => op i c * weight c + fold_right (fun i s => op i c + s) 0 l * weight c)) by (intros; ring).
    rewrite total_plus. unfold Rdiv; ring.
Qed.
Lemma sum_ops_seq : forall l k, fold_right (fun i s => nth (Z.to_nat i) (repeat 0 k ++ l) 0 + s) 0 (map Z.of_nat (seq k (length l))) = fold_right Rplus 0 l.
Proof.
  intros l; induction l as [| a l IH]; intros k; [reflexivity |]. cbn [length seq map fold_right]. rewrite Nat2Z.id.
  rewrite app_nth2 by (rewrite repeat_length; lia). rewrite repeat_length, Nat.sub_diag. cbn [nth]. f_equal.
  rewrite <- (IH (S k)). clear IH.
  assert (G : forall m, fold_right (fun i s => nth (Z.to_nat i) (repeat 0 k ++ a :: l) 0 + s) 0 (map Z.of_nat (seq (S k) m)) =
                        fold_right (fun i s => nth (Z.to_nat i) (repeat 0 (S k) ++ l) 0 + s) 0 (map Z.of_nat (seq (S k) m))).
  { intros m. assert (Q : forall j, In j (map Z.of_nat (seq (S k) m)) -> nth (Z.to_nat j) (repeat 0 k ++ a :: l) 0 = nth (Z.to_nat j) (repeat 0 (S k) ++ l) 0).
    { intros j Hj. apply in_map_iff in Hj. destruct Hj as [x [<- Hx]]. apply in_seq in Hx. rewrite Nat2Z.id.
      rewrite app_nth2 by (rewrite repeat_length; lia). rewrite app_nth2 by (rewrite repeat_length; lia). rewrite !repeat_length.
      replace (x - k)%nat with (S (x - S k)) by lia. reflexivity. }
    induction (map Z.of_nat (seq (S k) m)) as [| j js IHj]; [reflexivity |]. cbn [fold_right]. rewrite Q by (left; reflexivity).
    rewrite IHj by (intros; apply Q; right; assumption). reflexivity. }
  apply G.
Qed.
Lemma fractions_sum_l : forall p low up h out, with_phase p = true -> (1 < norderp p)%Z -> depths_ok p h -> h <> [] -> volumes_ok low up h ->
  (forall c, In c h -> fold_right Rplus 0 (phase c) = 1) -> print_scalars p low up h = Some out -> fold_right (fun iv s => snd iv + s) 0 (fractions_of out) = 1.
Proof.
  intros p low up h out P N D E V Q H. rewrite (fractions_l p low up h out) by assumption.
  etransitivity; [apply (sum_means h (indices (norderp p))) |]. destruct V as [V [V0 _]].
  rewrite (total_ext _ weight).
  - rewrite V. field. lra.
  - intros c Hc. destruct (D c Hc) as [L _]. unfold indices, op. rewrite <- L. pose proof (sum_ops_seq (phase c) 0) as G. cbn [repeat app] in G. rewrite G, Q by exact Hc. ring.
Qed.
Lemma fractions_range_l : forall p low up h out i v, with_phase p = true -> (1 < norderp p)%Z -> depths_ok p h -> h <> [] -> volumes_ok low up h ->
  (forall c, In c h -> 0 <= op i c <= 1) -> print_scalars p low up h = Some out -> In (i, v) (fractions_of out) -> 0 <= v <= 1.
Proof.
  intros p low up h out i v P N D E V Q H I. rewrite (fractions_l p low up h out) in I by assumption.
  apply in_map_iff in I. destruct I as [j [J _]]. injection J as <- <-. destruct V as [V [V0 W]]. apply mean_bounds; [exact W | lra | exact Q].
Qed.
Lemma solid_l : forall p low up h out, with_phase p = true -> norderp p = 1%Z -> depths_ok p h -> h <> [] -> volumes_ok low up h ->
  print_scalars p low up h = Some out -> solid_of out = [mean weight (fun c => Rabs (op 0 c)) h].
Proof.
  intros p low up h out P N D E [V _] H. destruct (print_split p low up h out D E ltac:(lia) H) as [l1 [v [l3 [H1 [H3 ->]]]]].
  rewrite (print_phase_one p _ h P N D) in H1. injection H1 as <- _.
  unfold solid_of. rewrite !flat_map_app, (eta_flat _ _ _ _ _ (fun _ => eq_refl)), (density_flat _ _ _ _ _ H3 (fun _ => eq_refl)), conc_part_flat.
  rewrite (flat_map_nil _ _ _ (upto (ncompositions p))) by reflexivity. cbn. unfold mean. rewrite V. reflexivity.
Qed.
Lemma solid_mean_l : forall p low up h out, with_phase p = true -> norderp p = 1%Z -> depths_ok p h -> h <> [] -> volumes_ok low up h ->
  (forall c, In c h -> 0 <= op 0 c) -> print_scalars p low up h = Some out -> solid_of out = [mean weight (op 0) h].
Proof.
  intros p low up h out P N D E V Q H. rewrite (solid_l p low up h out) by assumption. unfold mean. do 2 f_equal.
  apply total_ext. intros c Hc. rewrite Rabs_pos_eq by (apply Q; exact Hc). reflexivity.
Qed.
Lemma solid_high_l : forall p low up h out, with_phase p = true -> norderp p = 1%Z -> depths_ok p h -> h <> [] -> volumes_ok low up h ->
  (exists c, In c h /\ op 0 c < 0 /\ 0 < weight c) -> print_scalars p low up h = Some out -> exists v, solid_of out = [v] /\ mean weight (op 0) h < v.
Proof.
  intros p low up h out P N D E V [c [Hc [Q W]]] H. exists (mean weight (fun c => Rabs (op 0 c)) h). split; [apply (solid_l p low up h out); assumption |].
  destruct V as [V [V0 W0]]. unfold mean. apply Rmult_lt_compat_r; [apply Rinv_0_lt_compat; lra |].
  apply total_lt.
  - intros x Hx. apply Rmult_le_compat_r; [apply W0; exact Hx | apply Rle_abs].
  - exists c. split; [exact Hc |]. apply Rmult_lt_compat_r; [exact W |]. rewrite Rabs_left by exact Q. lra.
Qed.

(** C207 *)
Lemma integrals_l : forall p low up h out, (1 <= norderp p)%Z -> depths_ok p h -> h <> [] -> print_scalars p low up h = Some out ->
  integrals_of out = map (fun ic => (ic, total (fun c => composition ic c * weight c) h)) (indices (Z.of_nat (ncompositions p))).
Proof.
  intros p low up h out N D E H. destruct (print_split p low up h out D E N H) as [l1 [v [l3 [H1 [H3 ->]]]]].
  unfold integrals_of. rewrite !flat_map_app, (eta_flat _ _ _ _ _ (fun _ => eq_refl)), (density_flat _ _ _ _ _ H3 (fun _ => eq_refl)), conc_part_flat.
  rewrite (phase_flat _ _ _ _ _ _ _ H1 (fun _ _ => eq_refl) (fun _ => eq_refl)). cbn [app]. rewrite app_nil_r.
  unfold indices. rewrite Nat2Z.id. apply flat_single.
Qed.
Lemma maxima_l : forall p low up h out, (1 <= norderp p)%Z -> depths_ok p h -> h <> [] -> print_scalars p low up h = Some out ->
  map fst (maxima_of out) = indices (Z.of_nat (ncompositions p)) /\ forall ic v, In (ic, v) (maxima_of out) -> largest (composition ic) h v.
Proof.
  intros p low up h out N D E H. destruct (print_split p low up h out D E N H) as [l1 [v [l3 [H1 [H3 ->]]]]].
  assert (M : maxima_of (l1 ++ print_eta p (volume low up) h ++ conc_part p h ++ l3) = map (fun ic => (ic, top ic h)) (upto (ncompositions p))).
  { unfold maxima_of. rewrite !flat_map_app, (eta_flat _ _ _ _ _ (fun _ => eq_refl)), (density_flat _ _ _ _ _ H3 (fun _ => eq_refl)), conc_part_flat.
    rewrite (phase_flat _ _ _ _ _ _ _ H1 (fun _ _ => eq_refl) (fun _ => eq_refl)). cbn [app]. rewrite app_nil_r. apply flat_single. }
  rewrite M. split.
  - rewrite map_map. cbn [fst]. rewrite map_id. unfold indices. rewrite Nat2Z.id. reflexivity.
  - intros ic x Hx. apply in_map_iff in Hx. destruct Hx as [j [J _]]. injection J as <- <-. apply maximum_ok. unfold top.
    destruct (maximum_some (composition j) h E) as [y ->]. reflexivity.
Qed.
Lemma no_coring_l : forall p low up h out, (1 <= norderp p)%Z -> depths_ok p h -> h <> [] -> print_scalars p low up h = Some out -> coring_of out = [].
Proof.
  intros p low up h out N D E H. destruct (print_split p low up h out D E N H) as [l1 [v [l3 [H1 [H3 ->]]]]].
  unfold coring_of. rewrite !flat_map_app, (eta_flat _ _ _ _ _ (fun _ => eq_refl)), (density_flat _ _ _ _ _ H3 (fun _ => eq_refl)), conc_part_flat.
  rewrite (phase_flat _ _ _ _ _ _ _ H1 (fun _ _ => eq_refl) (fun _ => eq_refl)). rewrite (flat_map_nil _ _ _ (upto (ncompositions p))) by reflexivity. reflexivity.
Qed.

(** C208 *)
Lemma void_depth : forall p, room_for_voids p -> (norderpA p + norderpB p = in_norderp p - 1)%Z /\ (1 < in_norderp p)%Z.
Proof.
  intros p H. unfold room_for_voids in H. unfold norderpB, norderpA. destruct (in_norderp_A p) as [a |].
  - destruct (Z.ltb_spec 0 a); [| lia]. cbv zeta. destruct (Z.ltb_spec (in_norderp p - a - 1) 0); lia.
  - destruct (Z.eqb_spec (in_norderp p) 1); [lia |]. destruct (Z.ltb_spec 0 (in_norderp p - 1)); [| lia].
    cbv zeta. destruct (Z.ltb_spec (in_norderp p - (in_norderp p - 1) - 1) 0); lia.
Qed.
Lemma density_value : forall p h d, depths_ok p h -> (norderpA p + norderpB p = d)%Z -> (0 <= d < norderp p)%Z -> 0 < total weight_diag h ->
  computeDensityDiagnostics p h = Some (1 - mean weight_diag (op d) h).
Proof.
  intros p h d D A I T. unfold computeDensityDiagnostics. cbv zeta. rewrite A, (phase_copy p) by assumption. rewrite !integral_map.
  rewrite (total_ext (fun c => 1 * weight_diag c) weight_diag) by (intros; ring). destruct (Rlt_dec 0 (total weight_diag h)); [reflexivity | contradiction].
Qed.
Lemma density_part : forall p low up h out d, depths_ok p h -> h <> [] -> (1 < norderp p)%Z -> 0 < subdomain p -> computeDensityDiagnostics p h = Some d ->
  print_scalars p low up h = Some out -> density_of out = [d].
Proof.
  intros p low up h out d D E N F C H. destruct (print_split p low up h out D E ltac:(lia) H) as [l1 [v [l3 [H1 [H3 ->]]]]].
  unfold print_density in H3. replace (1 <? norderp p)%Z with true in H3 by (symmetry; apply Z.ltb_lt; exact N).
  destruct (Rgt_dec (subdomain p) 0); [| lra]. rewrite C in H3. injection H3 as <-.
  unfold density_of. rewrite !flat_map_app, (eta_flat _ _ _ _ _ (fun _ => eq_refl)), conc_part_flat.
  rewrite (phase_flat _ _ _ _ _ _ _ H1 (fun _ _ => eq_refl) (fun _ => eq_refl)). rewrite (flat_map_nil _ _ _ (upto (ncompositions p))) by reflexivity. reflexivity.
Qed.
Lemma density_l : forall p low up h out, three_phases p = false -> room_for_voids p -> 0 < subdomain p -> depths_ok p h -> h <> [] -> 0 < total weight_diag h ->
  print_scalars p low up h = Some out -> density_of out = [1 - mean weight_diag (op (in_norderp p - 1)) h].
Proof.
  intros p low up h out T R F D E W H. destruct (void_depth p R) as [A N]. assert (NN : norderp p = in_norderp p) by (unfold norderp; rewrite T; reflexivity).
  apply (density_part p low up h out); try assumption; [lia |]. apply density_value; try assumption. lia.
Qed.
Lemma density_range_l : forall p low up h out v, three_phases p = false -> room_for_voids p -> 0 < subdomain p -> depths_ok p h -> h <> [] -> 0 < total weight_diag h ->
  (forall c, In c h -> 0 <= weight_diag c) -> (forall c, In c h -> 0 <= op (in_norderp p - 1) c <= 1) -> print_scalars p low up h = Some out -> In v (density_of out) -> 0 <= v <= 1.
Proof.
  intros p low up h out v T R F D E W W0 Q H I. rewrite (density_l p low up h out) in I by assumption. destruct I as [<- | []].
  pose proof (mean_bounds weight_diag (op (in_norderp p - 1)) h 0 1 W0 W Q). lra.
Qed.
Lemma density_three_l : forall p low up h out, three_phases p = true -> in_norderp p = 1%Z -> in_norderp_A p = None -> 0 < subdomain p -> depths_ok p h -> h <> [] -> 0 < total weight_diag h ->
  print_scalars p low up h = Some out -> density_of out = [1 - mean weight_diag (op 1) h].
Proof.
  intros p low up h out T O A F D E W H. assert (NN : norderp p = 3%Z) by (unfold norderp; rewrite T; reflexivity).
  apply (density_part p low up h out); try assumption; [lia |]. apply density_value; try assumption; [| lia].
  unfold norderpB, norderpA. rewrite A, O. reflexivity.
Qed.
Lemma density_stops_l : forall p h a, three_phases p = false -> in_norderp_A p = Some a -> (1 < in_norderp p)%Z -> (a <= 0 \/ in_norderp p <= a)%Z -> 0 < subdomain p ->
  depths_ok p h -> h <> [] -> print_density p h = None.
Proof.
  intros p h a T A N B F D E. assert (NN : norderp p = in_norderp p) by (unfold norderp; rewrite T; reflexivity).
  unfold print_density. replace (1 <? norderp p)%Z with true by (symmetry; apply Z.ltb_lt; lia). destruct (Rgt_dec (subdomain p) 0); [| lra].
  unfold computeDensityDiagnostics. cbv zeta. destruct h as [| c t]; [contradiction E; reflexivity |].
  rewrite (copy_depth_none phase _ (c :: t) c (or_introl eq_refl)); [reflexivity |].
  destruct (D c (or_introl eq_refl)) as [L _]. rewrite L. unfold norderpB, norderpA. rewrite A.
  destruct (Z.ltb_spec 0 a); cbv zeta; [| lia]. destruct (Z.ltb_spec (in_norderp p - a - 1) 0); lia.
Qed.

(** C206: the report is complete *)
Lemma prints_l : forall p low up h, (1 <= norderp p)%Z -> depths_ok p h -> h <> [] -> (subdomain p <= 0 \/ norderp p = 1%Z \/ (three_phases p = false /\ room_for_voids p /\ 0 < total weight_diag h)) ->
  exists out, print_scalars p low up h = Some out.
Proof.
  intros p low up h N D E Q. unfold print_scalars. rewrite volume_model. cbv zeta.
  assert (P : exists l v, print_phase p (volume low up) h = Some (l, v)).
  { destruct (with_phase p) eqn:W; [| unfold print_phase; rewrite W; do 2 eexists; reflexivity].
    destruct (Z.eq_dec (norderp p) 1) as [O | O].
    - rewrite print_phase_one by assumption. do 2 eexists; reflexivity.
    - destruct (print_phase_many p (volume low up) h W ltac:(lia) D) as [v ->]. do 2 eexists; reflexivity. }
  destruct P as [l [v ->]]. rewrite conc_lines by assumption.
  assert (X : exists l3, print_density p h = Some l3).
  { unfold print_density. destruct (Z.ltb_spec 1 (norderp p)); [| eexists; reflexivity]. destruct (Rgt_dec (subdomain p) 0) as [G | G]; [| eexists; reflexivity].
    destruct Q as [Q | [Q | [T [R W]]]]; [lra | lia |]. destruct (void_depth p R) as [A M].
    rewrite (density_value p h (in_norderp p - 1)); try assumption; [eexists; reflexivity |]. unfold norderp. rewrite T. lia. }
  destruct X as [l3 ->]. eexists; reflexivity.
Qed.
Lemma report_stops_l : forall p low up h a, three_phases p = false -> in_norderp_A p = Some a -> (1 < in_norderp p)%Z -> (a <= 0 \/ in_norderp p <= a)%Z -> 0 < subdomain p ->
  depths_ok p h -> h <> [] -> print_scalars p low up h = None.
Proof.
  intros p low up h a T A N B F D E. unfold print_scalars. cbv zeta. rewrite (density_stops_l p h a) by assumption.
  destruct (print_phase _ _ _) as [[l v] |]; [| reflexivity]. destruct (traverse _ _); reflexivity.
Qed.

(** C209 *)
Lemma energy_l : forall p h, with_phase p = true -> norderp p = 1%Z -> depths_ok p h ->
  computeThermalEnergy p h = Some (total (fun c => (cp c * temperature c - latent_heat p * op 0 c) * weight c) h).
Proof.
  intros p h P N D. unfold computeThermalEnergy. cbv zeta. rewrite P, (phase_copy p) by (assumption || lia). rewrite !integral_map. f_equal.
  rewrite (total_ext (fun c => (cp c * temperature c - latent_heat p * op 0 c) * weight c) (fun c => cp c * temperature c * weight c + - latent_heat p * (op 0 c * weight c))) by (intros; ring).
  rewrite total_plus, total_scal. ring.
Qed.

Lemma energy_conserved_l : forall p h h', with_phase p = true -> norderp p = 1%Z -> depths_ok p h -> depths_ok p h' -> Forall2 (releases (latent_heat p)) h h' ->
  computeThermalEnergy p h' = computeThermalEnergy p h.
Proof.
  intros p h h' P N D D' F. rewrite !energy_l by assumption. f_equal. clear D D'. induction F as [| c c' r r' [Hw [Hc He]] F IH]; [reflexivity |].
  cbn. fold (total (fun c => (cp c * temperature c - latent_heat p * op 0 c) * weight c) r').
  fold (total (fun c => (cp c * temperature c - latent_heat p * op 0 c) * weight c) r). rewrite IH, Hw, Hc. f_equal. f_equal. lra.
Qed.
Lemma energy_rescaled_l : forall p h f, f <> 0 -> computeThermalEnergy p (map (rescaled f) h) = computeThermalEnergy p h.
Proof.
  intros p h f F. unfold computeThermalEnergy. cbv zeta.
  assert (A : forall h, integral weight (map (fun c => cp c * temperature c) (map (rescaled f) h)) (map (rescaled f) h) = integral weight (map (fun c => cp c * temperature c) h) h).
  { induction h0 as [| c r IH]; [reflexivity |]. cbn. rewrite IH. f_equal. field. exact F. }
  assert (B : forall h, copy_depth phase 0 (map (rescaled f) h) = copy_depth phase 0 h).
  { induction h0 as [| c r IH]; [reflexivity |]. cbn [map copy_depth]. rewrite IH. reflexivity. }
  assert (C : forall h v, integral weight v (map (rescaled f) h) = integral weight v h).
  { induction h0 as [| c r IH]; intros [| x v]; try reflexivity. cbn. rewrite IH. reflexivity. }
  rewrite A, B. destruct (with_phase p); [| reflexivity]. destruct (copy_depth phase 0 h) as [v |]; [| reflexivity]. rewrite C. reflexivity.
Qed.

(** third phase *)
Lemma eta_l : forall p low up h out, (1 <= norderp p)%Z -> depths_ok p h -> h <> [] -> volumes_ok low up h -> (forall c, In c h -> 0 <= eta c) ->
  print_scalars p low up h = Some out -> eta_of out = if with_third_phase p then [mean weight eta h] else [].
Proof.
  intros p low up h out N D E [V _] Q H. destruct (print_split p low up h out D E N H) as [l1 [v [l3 [H1 [H3 ->]]]]].
  unfold eta_of. rewrite !flat_map_app, (density_flat _ _ _ _ _ H3 (fun _ => eq_refl)), conc_part_flat.
  rewrite (phase_flat _ _ _ _ _ _ _ H1 (fun _ _ => eq_refl) (fun _ => eq_refl)). rewrite (flat_map_nil _ _ _ (upto (ncompositions p))) by reflexivity.
  unfold print_eta. destruct (with_third_phase p); [| reflexivity]. cbn. f_equal. unfold mean, l1norm. rewrite V, map_map, integral_map. f_equal.
  apply total_ext. intros c Hc. rewrite Rabs_pos_eq by (apply Q; exact Hc). reflexivity.
Qed.
