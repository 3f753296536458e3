(** C206-C209: printed scalar diagnostics. *)
From Coq Require Import Reals ZArith List Bool Lra Lia.
From Verif Require Import Report_Model Report_Spec Report_Proofs.
Import ListNotations.
Open Scope R_scope.

(** C206: the report is written, if norderp_A leaves room for the voids or no density is asked for. *)
Theorem C206_prints : forall p low up h, (1 <= norderp p)%Z -> depths_ok p h -> h <> [] -> (subdomain p <= 0 \/ norderp p = 1%Z \/ (three_phases p = false /\ room_for_voids p /\ 0 < total weight_diag h)) ->
  exists out, print_scalars p low up h = Some out.
Proof. exact prints_l. Qed.
Print Assumptions C206_prints.

(** C206: with several order parameters, one volume fraction per order parameter, in order, each the mean over the domain. *)
Theorem C206_fractions : forall p low up h out, with_phase p = true -> (1 < norderp p)%Z -> depths_ok p h -> h <> [] -> volumes_ok low up h ->
  print_scalars p low up h = Some out -> fractions_of out = map (fun i => (i, mean weight (op i) h)) (indices (norderp p)).
Proof. exact fractions_l. Qed.
Print Assumptions C206_fractions.

(** C206: fractions add up to one, if the order parameters of every cell do. *)
Theorem C206_sum : forall p low up h out, with_phase p = true -> (1 < norderp p)%Z -> depths_ok p h -> h <> [] -> volumes_ok low up h ->
  (forall c, In c h -> fold_right Rplus 0 (phase c) = 1) -> print_scalars p low up h = Some out -> fold_right (fun iv s => snd iv + s) 0 (fractions_of out) = 1.
Proof. exact fractions_sum_l. Qed.
Print Assumptions C206_sum.

(** C206: a fraction lies in [0,1], if the order parameter does. *)
Theorem C206_range : forall p low up h out i v, with_phase p = true -> (1 < norderp p)%Z -> depths_ok p h -> h <> [] -> volumes_ok low up h ->
  (forall c, In c h -> 0 <= op i c <= 1) -> print_scalars p low up h = Some out -> In (i, v) (fractions_of out) -> 0 <= v <= 1.
Proof. exact fractions_range_l. Qed.
Print Assumptions C206_range.

(** C206: with one order parameter that is nowhere negative the solid fraction is its mean. *)
Theorem C206_solid_partial : forall p low up h out, with_phase p = true -> norderp p = 1%Z -> depths_ok p h -> h <> [] -> volumes_ok low up h ->
  (forall c, In c h -> 0 <= op 0 c) -> print_scalars p low up h = Some out -> solid_of out = [mean weight (op 0) h].
Proof. exact solid_mean_l. Qed.
Print Assumptions C206_solid_partial.

(** C206: where the order parameter undershoots zero, the printed solid fraction is larger than the mean. *)
Theorem C206_solid_refuted : forall p low up h out, with_phase p = true -> norderp p = 1%Z -> depths_ok p h -> h <> [] -> volumes_ok low up h ->
  (exists c, In c h /\ op 0 c < 0 /\ 0 < weight c) -> print_scalars p low up h = Some out -> exists v, solid_of out = [v] /\ mean weight (op 0) h < v.
Proof. exact solid_high_l. Qed.
Print Assumptions C206_solid_refuted.

(** C206: the fraction of the third phase, where it is nowhere negative, is its mean, printed if and only if there is one. *)
Theorem C206_eta_partial : forall p low up h out, (1 <= norderp p)%Z -> depths_ok p h -> h <> [] -> volumes_ok low up h -> (forall c, In c h -> 0 <= eta c) ->
  print_scalars p low up h = Some out -> eta_of out = if with_third_phase p then [mean weight eta h] else [].
Proof. exact eta_l. Qed.
Print Assumptions C206_eta_partial.

(** two cells of volume 1 and 3; three order parameters, one grain of A, one of B, and voids; two compositions *)
Definition two_cells : hier := [mk_cell 1 1 [1; 0; 0] 0 [1 / 2; 1 / 4] 2 10; mk_cell 3 0 [0; 1 / 2; 1 / 2] 0 [1 / 10; 1 / 5] 2 20].
Definition grains : params := mk_params true false 3 (Some 1%Z) false 2 (1 / 2) 4.
Lemma two_cells_depths : depths_ok grains two_cells.
Proof. intros c [<- | [<- | []]]; split; reflexivity. Qed.
Lemma two_cells_volumes : volumes_ok [0; 0] [4; 1] two_cells.
Proof. unfold volumes_ok, volume, total. cbn. split; [lra |]. split; [lra |]. intros c [<- | [<- | []]]; cbn; lra. Qed.
Lemma two_cells_report : exists out, print_scalars grains [0; 0] [4; 1] two_cells = Some out.
Proof.
  apply C206_prints; [cbn; lia | exact two_cells_depths | discriminate |]. right. right. split; [reflexivity |]. split; [cbn; lia |].
  unfold total, two_cells; cbn; lra.
Qed.
Example C206_ex : exists out, print_scalars grains [0; 0] [4; 1] two_cells = Some out /\
  fractions_of out = [(0%Z, 1 / 4); (1%Z, 3 / 8); (2%Z, 3 / 8)] /\ solid_of out = [].
Proof.
  destruct two_cells_report as [out H]. exists out. split; [exact H |]. split.
  - rewrite (C206_fractions grains [0; 0] [4; 1] two_cells out eq_refl ltac:(cbn; lia) two_cells_depths ltac:(discriminate) two_cells_volumes H).
    unfold mean, total, op, indices, two_cells. cbn. repeat (progress (unfold Pos.to_nat, Pos.iter_op; cbn)). repeat (apply f_equal2; [apply f_equal; field |]). reflexivity.
  - unfold print_scalars in H. cbn in H. destruct (Rgt_dec (1 / 2) 0) as [G | G]; [| lra]. unfold computeDensityDiagnostics in H. cbn in H.
    destruct (Rlt_dec 0 _) as [L | L] in H; [| exfalso; apply L; lra]. injection H as <-. reflexivity.
Qed.
(** one order parameter that undershoots by 1/10 in half of the domain: 3/10 is printed for a mean of 1/5 *)
Example C206_undershoot : let h := [mk_cell 1 1 [1 / 2] 0 [] 0 0; mk_cell 1 1 [- (1 / 10)] 0 [] 0 0] in
  let p := mk_params true false 1 None false 0 0 0 in
  exists out, print_scalars p [0] [2] h = Some out /\ solid_of out = [3 / 10] /\ mean weight (op 0) h = 1 / 5.
Proof.
  intros h p. assert (D : depths_ok p h) by (intros c [<- | [<- | []]]; split; reflexivity).
  destruct (C206_prints p [0] [2] h ltac:(cbn; lia) D ltac:(discriminate) ltac:(left; cbn; lra)) as [out H]. exists out. split; [exact H |].
  split; [| unfold mean, total, op, h; cbn; field].
  rewrite (solid_l p [0] [2] h out eq_refl eq_refl D ltac:(discriminate)); [| | exact H].
  - unfold mean, total, op, h. cbn. rewrite (Rabs_pos_eq (1 / 2)) by lra. rewrite (Rabs_left (- (1 / 10))) by lra. f_equal. field.
  - unfold volumes_ok, volume, total, h. cbn. split; [lra |]. split; [lra |]. intros c [<- | [<- | []]]; cbn; lra.
Qed.

(** C207: one integral per composition, in order: the sum of composition times control volume. *)
Theorem C207_integrals : forall p low up h out, (1 <= norderp p)%Z -> depths_ok p h -> h <> [] -> print_scalars p low up h = Some out ->
  integrals_of out = map (fun ic => (ic, total (fun c => composition ic c * weight c) h)) (indices (Z.of_nat (ncompositions p))).
Proof. exact integrals_l. Qed.
Print Assumptions C207_integrals.

(** C207: one maximum per composition, in order: the largest value in any cell. *)
Theorem C207_maxima : forall p low up h out, (1 <= norderp p)%Z -> depths_ok p h -> h <> [] -> print_scalars p low up h = Some out ->
  map fst (maxima_of out) = indices (Z.of_nat (ncompositions p)) /\ forall ic v, In (ic, v) (maxima_of out) -> largest (composition ic) h v.
Proof. exact maxima_l. Qed.
Print Assumptions C207_maxima.

(** C207: with at least one order parameter (the default is one) no coring factor is ever printed. *)
Theorem C207_coring_refuted : forall p low up h out, (1 <= norderp p)%Z -> depths_ok p h -> h <> [] -> print_scalars p low up h = Some out -> coring_of out = [].
Proof. exact no_coring_l. Qed.
Print Assumptions C207_coring_refuted.

Example C207_ex : exists out, print_scalars grains [0; 0] [4; 1] two_cells = Some out /\
  integrals_of out = [(0%Z, 4 / 5); (1%Z, 17 / 20)] /\ largest (composition 0) two_cells (1 / 2) /\ coring_of out = [].
Proof.
  destruct two_cells_report as [out H]. exists out. split; [exact H |]. split; [| split].
  - rewrite (C207_integrals grains [0; 0] [4; 1] two_cells out ltac:(cbn; lia) two_cells_depths ltac:(discriminate) H).
    unfold total, composition, indices, two_cells. cbn. repeat (progress (unfold Pos.to_nat, Pos.iter_op; cbn)). repeat (apply f_equal2; [apply f_equal; field |]). reflexivity.
  - split; [eexists; split; [left; reflexivity | reflexivity] |]. intros c [<- | [<- | []]]; unfold composition; cbn; lra.
  - exact (C207_coring_refuted grains [0; 0] [4; 1] two_cells out ltac:(cbn; lia) two_cells_depths ltac:(discriminate) H).
Qed.

(** C208: if norderp_A leaves room for the voids, the density is one minus the mean of the last order parameter over the subdomain. *)
Theorem C208_density_partial : forall p low up h out, three_phases p = false -> room_for_voids p -> 0 < subdomain p -> depths_ok p h -> h <> [] -> 0 < total weight_diag h ->
  print_scalars p low up h = Some out -> density_of out = [1 - mean weight_diag (op (in_norderp p - 1)) h].
Proof. exact density_l. Qed.
Print Assumptions C208_density_partial.

(** C208: it lies in [0,1], if that order parameter does. *)
Theorem C208_range : forall p low up h out v, three_phases p = false -> room_for_voids p -> 0 < subdomain p -> depths_ok p h -> h <> [] -> 0 < total weight_diag h ->
  (forall c, In c h -> 0 <= weight_diag c) -> (forall c, In c h -> 0 <= op (in_norderp p - 1) c <= 1) -> print_scalars p low up h = Some out -> In v (density_of out) -> 0 <= v <= 1.
Proof. exact density_range_l. Qed.
Print Assumptions C208_range.

(** C208: with three phases the second of the three is taken for the voids. *)
Theorem C208_three_phases : forall p low up h out, three_phases p = true -> in_norderp p = 1%Z -> in_norderp_A p = None -> 0 < subdomain p -> depths_ok p h -> h <> [] -> 0 < total weight_diag h ->
  print_scalars p low up h = Some out -> density_of out = [1 - mean weight_diag (op 1) h].
Proof. exact density_three_l. Qed.
Print Assumptions C208_three_phases.

(** C208: with norderp_A outside of 1, ..., norderp - 1 the report fails. *)
Theorem C208_stops_refuted : forall p low up h a, three_phases p = false -> in_norderp_A p = Some a -> (1 < in_norderp p)%Z -> (a <= 0 \/ in_norderp p <= a)%Z -> 0 < subdomain p ->
  depths_ok p h -> h <> [] -> print_scalars p low up h = None.
Proof. exact report_stops_l. Qed.
Print Assumptions C208_stops_refuted.

(** only the first cell lies in the subdomain: no voids there *)
Example C208_ex : exists out, print_scalars grains [0; 0] [4; 1] two_cells = Some out /\ density_of out = [1].
Proof.
  destruct two_cells_report as [out H]. exists out. split; [exact H |].
  rewrite (C208_density_partial grains [0; 0] [4; 1] two_cells out eq_refl ltac:(cbn; lia) ltac:(cbn; lra) two_cells_depths ltac:(discriminate)); [| | exact H].
  - unfold mean, total, op, two_cells, grains. cbn. repeat (progress (unfold Pos.to_nat, Pos.iter_op; cbn)). f_equal. field.
  - unfold total, two_cells; cbn; lra.
Qed.
(** all three order parameters declared as grains of A *)
Example C208_ex_stops : print_scalars (mk_params true false 3 (Some 3%Z) false 2 (1 / 2) 4) [0; 0] [4; 1] two_cells = None.
Proof.
  apply (C208_stops_refuted _ _ _ _ 3%Z); try reflexivity; [right; cbn; lia | cbn; lra | | discriminate].
  intros c [<- | [<- | []]]; split; reflexivity.
Qed.

(** C209: the thermal energy is the integral of cp T - L phi. *)
Theorem C209_energy : forall p h, with_phase p = true -> norderp p = 1%Z -> depths_ok p h ->
  computeThermalEnergy p h = Some (total (fun c => (cp c * temperature c - latent_heat p * op 0 c) * weight c) h).
Proof. exact energy_l. Qed.
Print Assumptions C209_energy.

(** C209: it does not change when every cell solidifies or melts without exchange of heat. *)
Theorem C209_conserved : forall p h h', with_phase p = true -> norderp p = 1%Z -> depths_ok p h -> depths_ok p h' -> Forall2 (releases (latent_heat p)) h h' ->
  computeThermalEnergy p h' = computeThermalEnergy p h.
Proof. exact energy_conserved_l. Qed.
Print Assumptions C209_conserved.

(** C209: it does not depend on the unit of a rescaled temperature. *)
Theorem C209_rescaled : forall p h f, f <> 0 -> computeThermalEnergy p (map (rescaled f) h) = computeThermalEnergy p h.
Proof. exact energy_rescaled_l. Qed.
Print Assumptions C209_rescaled.

(** latent heat 4, heat capacity 2: solidification of half of a cell raises its temperature by 1 *)
Example C209_ex : let p := mk_params true false 1 None false 0 0 4 in
  computeThermalEnergy p [mk_cell 3 0 [1 / 2] 0 [] 2 11] = Some 60 /\ computeThermalEnergy p [mk_cell 3 0 [0] 0 [] 2 10] = Some 60.
Proof.
  intros p. assert (D : forall x t, depths_ok p [mk_cell 3 0 [x] 0 [] 2 t]) by (intros x t c [<- | []]; split; reflexivity).
  rewrite (C209_conserved p [mk_cell 3 0 [0] 0 [] 2 10] [mk_cell 3 0 [1 / 2] 0 [] 2 11] eq_refl eq_refl (D _ _) (D _ _)).
  - rewrite (C209_energy p [mk_cell 3 0 [0] 0 [] 2 10] eq_refl eq_refl (D _ _)). unfold total, op. cbn. split; f_equal; ring.
  - constructor; [| constructor]. unfold releases, op. cbn. repeat split. field.
Qed.
