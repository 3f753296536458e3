(** C112-C115: files of initial conditions. *)
From Coq Require Import Reals ZArith String List Bool Lra Lia.
From Flocq Require Import Core.
From Verif Require Import InitFile_Model InitFile_Spec InitFile_Proofs.
Import ListNotations.
Open Scope Z_scope.
Set Bullet Behavior "Strict Subproofs".

(** C112: a run started from the file written by another run has its fields, rounded to single precision, in every cell, for all decompositions of both runs. *)
Theorem C112_round_trip : forall asserts m u d3 dom ratio l0 ranks S patches, all_phases_written m -> p_T_constant m = true -> p_rescale m = None -> all_from_file u ->
  domain_ok d3 dom -> ratio_ok ratio -> covers (concat l0) dom -> map (map p_box) ranks = flattened_boxes d3 ratio l0 ->
  (forall p, In p (concat ranks) -> holds m S p) -> fractions m (refine_box d3 ratio dom) S ->
  (forall p, In p patches -> within (p_box p) (refine_box d3 ratio dom)) ->
  exists f out, writeInitialConditionsFile m d3 dom ratio ranks = Some f /\ initialize asserts m u d3 dom ratio f patches = Some out /\
    Forall2 (fun p q => p_box q = p_box p /\ forall fl d i j k, in_run m fl d -> cell_in (p_box p) i j k -> p_data q fl d i j k = single (S fl d i j k)) patches out.
Proof. exact round_trip. Qed.
Print Assumptions C112_round_trip.

(** C112: the rounding error is at most half a unit in the last of 24 bits. *)
Theorem C112_error : forall x, (Rabs (single x - x) <= / 2 ^ 24 * Rabs x + / 2 ^ 150)%R.
Proof. exact single_error. Qed.
Print Assumptions C112_error.

(** C112: values that have been through a file before are not changed again. *)
Theorem C112_second_time : forall x, single (single x) = single x.
Proof. exact single_idem. Qed.
Print Assumptions C112_second_time.

(** two cells on two processes, read on one patch; order parameter 0 and 1, temperature 1, composition 1 *)
Definition pair : zbox := mk_zbox 0 1 0 0 0 0.
Definition left_cell : zbox := mk_zbox 0 0 0 0 0 0.
Definition right_cell : zbox := mk_zbox 1 1 0 0 0 0.
Definition pair_state : state := fun f d i j k => match f with Phase => IZR i | _ => 1%R end.
Definition binary : params := mk_params true false 1 None false 0 1 true None.
Lemma pair_ok : domain_ok false pair. Proof. unfold domain_ok; cbn; repeat split; lia. Qed.
Lemma pair_covers : covers (concat [[left_cell]; [right_cell]]) pair.
Proof.
  split; cbn.
  - intros b [<- | [<- | []]]; unfold within, cell_in; cbn; lia.
  - intros i j k H. unfold cell_in in H; cbn in H. assert (i = 0 \/ i = 1) as [-> | ->] by lia.
    + exists left_cell. split; [left; reflexivity | unfold cell_in; cbn; lia].
    + exists right_cell. split; [right; left; reflexivity | unfold cell_in; cbn; lia].
Qed.
Example C112_ex : exists f q, writeInitialConditionsFile binary false pair (1, 1, 1) [[mk_patch left_cell pair_state]; [mk_patch right_cell pair_state]] = Some f /\
  initialize true binary from_file false pair (1, 1, 1) f [mk_patch pair (fun _ _ _ _ _ => 7%R)] = Some [q] /\
  p_data q Phase 0%nat 0 0 0 = 0%R /\ p_data q Phase 0%nat 1 0 0 = 1%R /\ p_data q Conc 0%nat 1 0 0 = 1%R.
Proof.
  destruct (C112_round_trip true binary from_file false pair (1, 1, 1) [[left_cell]; [right_cell]]
    [[mk_patch left_cell pair_state]; [mk_patch right_cell pair_state]] pair_state [mk_patch pair (fun _ _ _ _ _ => 7%R)]) as (f & out & E1 & E2 & F).
  - split; [reflexivity | right; split; reflexivity].
  - reflexivity.
  - reflexivity.
  - exact from_file_ok.
  - exact pair_ok.
  - exact ones_ok.
  - exact pair_covers.
  - reflexivity.
  - intros p [<- | [<- | []]] g d i j k _ _; reflexivity.
  - intros d i j k _ _. cbn. lra.
  - intros p [<- | []]. unfold within, cell_in; cbn; lia.
  - inversion F as [| ? q ? r [B G] Fr]; subst. inversion Fr; subst. exists f, q. split; [exact E1 |]. split; [exact E2 |].
    rewrite !G by (cbn; try lia; unfold cell_in; cbn; lia). cbn [pair_state].
    rewrite single_0, single_1. repeat split.
Qed.

(** C113: without the three phases model only the first order parameter gets into the file. *)
Theorem C113_first_only : forall m d3 dom ratio ranks ranks', p_three_phases m = false -> Forall2 (Forall2 same_first) ranks ranks' ->
  writeInitialConditionsFile m d3 dom ratio ranks = writeInitialConditionsFile m d3 dom ratio ranks'.
Proof. exact first_only_written. Qed.
Print Assumptions C113_first_only.

(** C113: reading it back, all order parameters but the last are copies of the first, and the last one is one minus their sum. *)
Theorem C113_copies : forall asserts m u d3 dom ratio l0 ranks S patches, p_with_phase m = true -> p_three_phases m = false -> 2 <= p_norderp m -> p_norderp_A m = None ->
  all_from_file u -> domain_ok d3 dom -> ratio_ok ratio -> covers (concat l0) dom -> map (map p_box) ranks = flattened_boxes d3 ratio l0 ->
  (forall p, In p (concat ranks) -> holds m S p) -> fractions m (refine_box d3 ratio dom) S ->
  (forall p, In p patches -> within (p_box p) (refine_box d3 ratio dom)) ->
  exists f out, writeInitialConditionsFile m d3 dom ratio ranks = Some f /\ initialize asserts m u d3 dom ratio f patches = Some out /\
    Forall2 (fun p q => p_box q = p_box p /\ forall i j k, cell_in (p_box p) i j k ->
      (forall d, Z.of_nat d < p_norderp m - 1 -> p_data q Phase d i j k = single (S Phase 0%nat i j k)) /\
      p_data q Phase (Z.to_nat (p_norderp m - 1)) i j k = (1 - IZR (p_norderp m - 1) * single (S Phase 0%nat i j k))%R) patches out.
Proof. exact copies_back. Qed.
Print Assumptions C113_copies.

(** C113: so the order parameters of a polycrystal do not come back. *)
Theorem C113_order_parameters_refuted : ~ (forall asserts m u d3 dom ratio l0 ranks S patches, readable m -> all_from_file u ->
  domain_ok d3 dom -> ratio_ok ratio -> covers (concat l0) dom -> map (map p_box) ranks = flattened_boxes d3 ratio l0 ->
  (forall p, In p (concat ranks) -> holds m S p) -> fractions m (refine_box d3 ratio dom) S ->
  (forall p, In p patches -> within (p_box p) (refine_box d3 ratio dom)) ->
  exists f out, writeInitialConditionsFile m d3 dom ratio ranks = Some f /\ initialize asserts m u d3 dom ratio f patches = Some out /\
    Forall2 (fun p q => p_box q = p_box p /\ forall d i j k, in_run m Phase d -> cell_in (p_box p) i j k -> close (p_data q Phase d i j k) (S Phase d i j k)) patches out).
Proof. exact order_parameters_not_back. Qed.
Print Assumptions C113_order_parameters_refuted.

(** C113: two order parameters that sum to one come back. *)
Theorem C113_two_partial : forall asserts m u d3 dom ratio l0 ranks S patches, p_with_phase m = true -> p_three_phases m = false -> p_norderp m = 2 -> p_norderp_A m = None ->
  all_from_file u -> domain_ok d3 dom -> ratio_ok ratio -> covers (concat l0) dom -> map (map p_box) ranks = flattened_boxes d3 ratio l0 ->
  (forall p, In p (concat ranks) -> holds m S p) -> fractions m (refine_box d3 ratio dom) S ->
  (forall p, In p patches -> within (p_box p) (refine_box d3 ratio dom)) ->
  (forall i j k, cell_in (refine_box d3 ratio dom) i j k -> (0 <= S Phase 0%nat i j k <= 1 /\ S Phase 0%nat i j k + S Phase 1%nat i j k = 1)%R) ->
  exists f out, writeInitialConditionsFile m d3 dom ratio ranks = Some f /\ initialize asserts m u d3 dom ratio f patches = Some out /\
    Forall2 (fun p q => p_box q = p_box p /\ forall d i j k, (d < 2)%nat -> cell_in (p_box p) i j k ->
      (Rabs (p_data q Phase d i j k - S Phase d i j k) <= / 2 ^ 24 + / 2 ^ 150)%R) patches out.
Proof. exact two_back. Qed.
Print Assumptions C113_two_partial.

(** C113: files with numbered order parameters are read completely, and the order parameters sum to one if the last one is not in the file. *)
Theorem C113_numbered : forall asserts m u d3 dom ratio f g patches, readable m -> domain_ok d3 dom -> ratio_ok ratio ->
  complete m u d3 (refine_box d3 ratio dom) f g -> uniform_ok m u ->
  getVar f "phase" = None -> (forall d, Z.of_nat d < nphases m -> stores d3 (refine_box d3 ratio dom) f (String.append "phase" (dec d)) (g Phase d)) ->
  (forall p, In p patches -> within (p_box p) (refine_box d3 ratio dom)) ->
  exists out, initialize asserts m u d3 dom ratio f patches = Some out /\
    Forall2 (fun p q => p_box q = p_box p /\ forall i j k, cell_in (p_box p) i j k ->
      (forall d, Z.of_nat d < nphases m -> p_data q Phase d i j k = g Phase d i j k) /\
      (nphases m < phase_depth m -> p_data q Phase (Z.to_nat (nphases m)) i j k = (1 - sum_depths g (Z.to_nat (nphases m)) i j k)%R)) patches out.
Proof. exact numbered_phases. Qed.
Print Assumptions C113_numbered.

(** three order parameters, the second one is one: the third comes back as one *)
Definition polycrystal : params := mk_params true false 3 None false 0 0 false None.
Definition second_grain : state := fun f d _ _ _ => match f, d with Phase, 1%nat => 1%R | _, _ => 0%R end.
Example C113_ex : exists f q, writeInitialConditionsFile polycrystal false dot (1, 1, 1) [[mk_patch dot second_grain]] = Some f /\
  initialize true polycrystal from_file false dot (1, 1, 1) f [mk_patch dot second_grain] = Some [q] /\
  p_data q Phase 0%nat 0 0 0 = 0%R /\ p_data q Phase 1%nat 0 0 0 = 0%R /\ p_data q Phase 2%nat 0 0 0 = 1%R.
Proof.
  destruct (C113_copies true polycrystal from_file false dot (1, 1, 1) [[dot]] [[mk_patch dot second_grain]] second_grain [mk_patch dot second_grain]) as (f & out & E1 & E2 & F).
  - reflexivity.
  - reflexivity.
  - cbn; lia.
  - reflexivity.
  - exact from_file_ok.
  - exact dot_ok.
  - exact ones_ok.
  - exact dot_covers.
  - reflexivity.
  - intros p [<- | []] g d i j k _ _; reflexivity.
  - intros d i j k L. cbn in L. lia.
  - intros p [<- | []]. exact dot_within.
  - inversion F as [| ? q ? r [B G] Fr]; subst. inversion Fr; subst. exists f, q. split; [exact E1 |]. split; [exact E2 |].
    destruct (G 0 0 0 dot_cell) as [G1 G2]. rewrite !G1 by (cbn; lia). change (Z.to_nat (p_norderp polycrystal - 1)) with 2%nat in G2. rewrite G2.
    cbn [second_grain]. rewrite single_0. repeat split. ring.
Qed.

(** C114: a run in reduced units reads the file and init_t in Kelvin. *)
Theorem C114_kelvin : forall asserts m u d3 dom ratio f g patches t, readable m -> p_T_constant m = true -> p_rescale m = Some t -> domain_ok d3 dom -> ratio_ok ratio ->
  complete m u d3 (refine_box d3 ratio dom) f g -> uniform_ok m u -> stores d3 (refine_box d3 ratio dom) f "phase" (g Phase 0%nat) ->
  (forall p, In p patches -> within (p_box p) (refine_box d3 ratio dom)) ->
  exists out, initialize asserts m u d3 dom ratio f patches = Some out /\
    Forall2 (fun p q => p_box q = p_box p /\ forall i j k, cell_in (p_box p) i j k ->
      ((in_t u < 0)%R -> p_data q Temp 0%nat i j k = (g Temp 0%nat i j k / t)%R) /\ ((0 <= in_t u)%R -> p_data q Temp 0%nat i j k = (in_t u / t)%R)) patches out.
Proof. exact kelvin_read. Qed.
Print Assumptions C114_kelvin.

(** C114: but it writes reduced units: reading its own file divides once more. *)
Theorem C114_divided_again : forall asserts m u d3 dom ratio l0 ranks S patches t, readable m -> p_T_constant m = true -> p_rescale m = Some t -> all_from_file u ->
  domain_ok d3 dom -> ratio_ok ratio -> covers (concat l0) dom -> map (map p_box) ranks = flattened_boxes d3 ratio l0 ->
  (forall p, In p (concat ranks) -> holds m S p) -> fractions m (refine_box d3 ratio dom) S ->
  (forall p, In p patches -> within (p_box p) (refine_box d3 ratio dom)) ->
  exists f out, writeInitialConditionsFile m d3 dom ratio ranks = Some f /\ initialize asserts m u d3 dom ratio f patches = Some out /\
    Forall2 (fun p q => p_box q = p_box p /\ forall i j k, cell_in (p_box p) i j k -> p_data q Temp 0%nat i j k = (single (S Temp 0%nat i j k) / t)%R) patches out.
Proof. exact rescaled_back. Qed.
Print Assumptions C114_divided_again.

(** C114: so the temperature of a rescaled run does not come back. *)
Theorem C114_rescaled_refuted : ~ (forall asserts m u d3 dom ratio l0 ranks S patches, readable m -> p_T_constant m = true -> all_from_file u ->
  domain_ok d3 dom -> ratio_ok ratio -> covers (concat l0) dom -> map (map p_box) ranks = flattened_boxes d3 ratio l0 ->
  (forall p, In p (concat ranks) -> holds m S p) -> fractions m (refine_box d3 ratio dom) S ->
  (forall p, In p patches -> within (p_box p) (refine_box d3 ratio dom)) ->
  exists f out, writeInitialConditionsFile m d3 dom ratio ranks = Some f /\ initialize asserts m u d3 dom ratio f patches = Some out /\
    Forall2 (fun p q => p_box q = p_box p /\ forall i j k, cell_in (p_box p) i j k -> close (p_data q Temp 0%nat i j k) (S Temp 0%nat i j k)) patches out).
Proof. exact rescaled_not_back. Qed.
Print Assumptions C114_rescaled_refuted.

(** C114: with a prescribed temperature the variable temperature of the file has no effect and need not exist. *)
Theorem C114_prescribed : forall asserts m u d3 dom ratio f f' patches, p_with_phase m = true -> p_T_constant m = false ->
  (forall n, n <> "temperature"%string -> getVar f n = getVar f' n) -> initialize asserts m u d3 dom ratio f patches = initialize asserts m u d3 dom ratio f' patches.
Proof. exact file_temperature_unused. Qed.
Print Assumptions C114_prescribed.

Definition heated : params := mk_params true false 1 None false 0 0 true (Some 1000%R).
Definition furnace : ncfile := [("phase", ones); ("temperature", mk_ncvar true 1 1 1 (fun _ _ _ => 900%R))]%string.
Example C114_ex : exists q, initialize true heated from_file false dot (1, 1, 1) furnace [mk_patch dot second_grain] = Some [q] /\ p_data q Temp 0%nat 0 0 0 = (9 / 10)%R.
Proof.
  destruct (C114_kelvin true heated from_file false dot (1, 1, 1) furnace (fun f _ _ _ _ => match f with Temp => 900%R | _ => 1%R end) [mk_patch dot second_grain] 1000%R) as (out & E & F).
  - split; [reflexivity | cbn; lia].
  - reflexivity.
  - reflexivity.
  - exact dot_ok.
  - exact ones_ok.
  - split; [| split; [| split]].
    + intros _ _. eexists. split; [reflexivity |]. cbn. repeat split.
    + intros _ C. discriminate C.
    + intros _ d L. cbn in L. lia.
    + intros _ d i j k L. cbn in L. lia.
  - split; cbn; congruence.
  - exists ones. split; [reflexivity |]. cbn. repeat split.
  - intros p [<- | []]. exact dot_within.
  - inversion F as [| ? q ? r [B G] Fr]; subst. inversion Fr; subst. exists q. split; [exact E |].
    destruct (G 0 0 0 dot_cell) as [G1 _]. rewrite G1 by (cbn; lra). lra.
Qed.

(** C115: no run starts with a missing variable. *)
Theorem C115_needed_variables : forall asserts m u d3 dom ratio f patches out, readable m -> initialize asserts m u d3 dom ratio f patches = Some out ->
  (forall d, Z.of_nat d < nphases m -> phase_var f d <> None) /\
  (p_T_constant m = true -> (in_t u < 0)%R -> getVar f "temperature" <> None) /\
  (p_orientation m = true -> in_q u = nil -> forall d, (d < p_qlen m)%nat -> getVar f (quat_name d) <> None) /\
  (in_c u = nil -> forall d, (d < p_ncomp m)%nat -> getVar f (conc_name (p_ncomp m) d) <> None \/ (p_ncomp m = 1%nat /\ getVar f "concentration0" <> None)).
Proof. exact needed_variables. Qed.
Print Assumptions C115_needed_variables.

(** C115: no run starts if the size of the first order parameter is not that of the grid. *)
Theorem C115_size_checked : forall asserts m u d3 dom ratio f patches out, readable m -> initialize asserts m u d3 dom ratio f patches = Some out ->
  exists v, phase_var f 0 = Some v /\ v_nx v = nx (refine_box d3 ratio dom) /\ v_ny v = ny (refine_box d3 ratio dom) /\ v_nz v = nz d3 (refine_box d3 ratio dom).
Proof. exact size_checked. Qed.
Print Assumptions C115_size_checked.

(** C115: values given in the input take precedence over the file. *)
Theorem C115_uniform_values : forall asserts m u d3 dom ratio f g patches, readable m -> domain_ok d3 dom -> ratio_ok ratio ->
  complete m u d3 (refine_box d3 ratio dom) f g -> uniform_ok m u -> stores d3 (refine_box d3 ratio dom) f "phase" (g Phase 0%nat) -> p_rescale m = None ->
  (forall p, In p patches -> within (p_box p) (refine_box d3 ratio dom)) ->
  exists out, initialize asserts m u d3 dom ratio f patches = Some out /\
    Forall2 (fun p q => p_box q = p_box p /\ forall i j k, cell_in (p_box p) i j k ->
      (in_q u <> nil -> forall d, p_orientation m = true -> (d < p_qlen m)%nat -> p_data q Quat d i j k = nth d (in_q u) 0%R) /\
      (in_c u <> nil -> forall d, (d < p_ncomp m)%nat -> p_data q Conc d i j k = nth d (in_c u) 0%R) /\
      ((0 <= in_t u)%R -> p_T_constant m = true -> p_data q Temp 0%nat i j k = in_t u)) patches out.
Proof. exact uniform_values. Qed.
Print Assumptions C115_uniform_values.

(** C115: slice_index has no effect. *)
Theorem C115_slice_ignored : forall asserts m u d3 dom ratio f patches s, readable m ->
  initialize asserts m (mk_init (in_q u) (in_c u) (in_t u) s) d3 dom ratio f patches = initialize asserts m u d3 dom ratio f patches.
Proof. exact slice_unused. Qed.
Print Assumptions C115_slice_ignored.

(** C115: a 3D file is refused in 2D whatever slice is asked for. *)
Theorem C115_slice_refuted : forall asserts m u dom ratio f patches v, readable m -> phase_var f 0 = Some v -> v_nz v <> 1 ->
  initialize asserts m u false dom ratio f patches = None.
Proof. exact three_dimensional_refused. Qed.
Print Assumptions C115_slice_refuted.

(** C115: a file with more orientation components than the run is not refused. *)
Theorem C115_components_refuted : ~ (forall asserts m u d3 dom ratio f patches out, readable m -> p_orientation m = true -> in_q u = nil -> domain_ok d3 dom ->
  patches <> nil -> initialize asserts m u d3 dom ratio f patches = Some out -> getVar f (quat_name (p_qlen m)) = None).
Proof. exact quaternion_count. Qed.
Print Assumptions C115_components_refuted.

(** a file of 2 x 1 cells is refused on a grid of one cell *)
Example C115_ex : initialize true heated from_file false dot (1, 1, 1) [("phase", mk_ncvar true 1 1 2 (fun _ _ _ => 1%R)); ("temperature", ones)]%string [] = None /\
  initialize true heated from_file false dot (1, 1, 1) [("phase", ones)]%string [] = None /\ initialize true heated from_file false dot (1, 1, 1) furnace [] = Some [].
Proof.
  assert (T : readT from_file = true) by (apply readT_true; cbn; lra).
  unfold initialize, initializeLevelFromData. unfold read_temp. rewrite T. cbn. repeat split.
Qed.
