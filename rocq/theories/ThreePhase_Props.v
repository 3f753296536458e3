(** C21: the three-phase evolution keeps the sum of the phase fractions.
    C60: a phase that is absent is not created. *)
From Coq Require Import Reals ZArith List Lra Lia.
From Verif Require Import Grid_Model Grid_Spec Grid_Proofs Tilting_Model Tilting_Spec Transport_Spec
  ThreePhase_Model ThreePhase_Spec ThreePhase_Proofs.
Import ListNotations.
Open Scope R_scope.

(** C21: the three right-hand sides add up to zero in every cell of the patch, whatever the fields; other cells are left alone. *)
Theorem C21_rhs_sum_zero : forall T lo0 hi0 lo1 hi1 dx0 dx1 f0 f1 ws phi chem mob rhs i j,
  let r := evaluate_rhs T lo0 hi0 lo1 hi1 dx0 dx1 f0 f1 ws phi chem mob rhs in
  (in_box lo0 hi0 lo1 hi1 i j -> sumZ 1 3 (r i j) = 0) /\
  (~ in_box lo0 hi0 lo1 hi1 i j -> forall p, r i j p = rhs i j p).
Proof. exact (fun T lo0 hi0 lo1 hi1 dx0 dx1 f0 f1 ws phi chem mob rhs i j => conj (rhs_sum_zero T lo0 hi0 lo1 hi1 dx0 dx1 f0 f1 ws phi chem mob rhs i j) (fun H p => rhs_outside T lo0 hi0 lo1 hi1 dx0 dx1 f0 f1 ws phi chem mob rhs i j p H)). Qed.
Print Assumptions C21_rhs_sum_zero.

(** C21: they are the mobility times (divergence of the fluxes, mean removed, minus the constrained gradient of the local energy). *)
Theorem C21_rhs_gradient_flow : forall T lo0 hi0 lo1 hi1 dx0 dx1 f0 f1 ws (phi : arr3) c mob rhs i j, dx0 <> 0 -> dx1 <> 0 ->
  in_box lo0 hi0 lo1 hi1 i j -> on_simplex (phi i j 1%Z) (phi i j 2%Z) (phi i j 3%Z) ->
  exists d : Z -> R,
    constrained_gradient
      (phase_energy T ws (ch_fl c i j - ch_mu c i j * ch_cl c i j) (ch_fa c i j - ch_mu c i j * ch_ca c i j) (ch_fb c i j - ch_mu c i j * ch_cb c i j))
      (phi i j 1%Z) (phi i j 2%Z) (phi i j 3%Z) (d 1%Z) (d 2%Z) (d 3%Z) /\
    forall k, (1 <= k <= 3)%Z -> evaluate_rhs T lo0 hi0 lo1 hi1 dx0 dx1 f0 f1 ws phi (Some c) mob rhs i j k =
      mob i j * (mean_free (fun p => diverg dx0 dx1 (fun i j => f0 i j p) (fun i j => f1 i j p) i j) k - d k).
Proof. exact rhs_gradient. Qed.
Print Assumptions C21_rhs_gradient_flow.

(** C21: without a free energy the energy is the triple well, for all values. *)
Theorem C21_rhs_gradient_flow_wells : forall T lo0 hi0 lo1 hi1 dx0 dx1 f0 f1 ws (phi : arr3) mob rhs i j, dx0 <> 0 -> dx1 <> 0 ->
  in_box lo0 hi0 lo1 hi1 i j ->
  exists d : Z -> R,
    constrained_gradient triple_well (phi i j 1%Z) (phi i j 2%Z) (phi i j 3%Z) (d 1%Z) (d 2%Z) (d 3%Z) /\
    forall k, (1 <= k <= 3)%Z -> evaluate_rhs T lo0 hi0 lo1 hi1 dx0 dx1 f0 f1 ws phi None mob rhs i j k =
      mob i j * (mean_free (fun p => diverg dx0 dx1 (fun i j => f0 i j p) (fun i j => f1 i j p) i j) k - ws * d k).
Proof. exact rhs_gradient_nochem. Qed.
Print Assumptions C21_rhs_gradient_flow_wells.

(** C21: the 3D kernel. *)
Theorem C21_rhs_3d : forall lo0 hi0 lo1 hi1 lo2 hi2 dx0 dx1 dx2 f0 f1 f2 ws (phi : arr4) rhs i j k, dx0 <> 0 -> dx1 <> 0 -> dx2 <> 0 ->
  in_box3 lo0 hi0 lo1 hi1 lo2 hi2 i j k ->
  let r := computerhsthreephases3 lo0 hi0 lo1 hi1 lo2 hi2 dx0 dx1 dx2 f0 f1 f2 ws phi rhs i j k in
  sumZ 1 3 r = 0 /\
  exists d : Z -> R,
    constrained_gradient triple_well (phi i j k 1%Z) (phi i j k 2%Z) (phi i j k 3%Z) (d 1%Z) (d 2%Z) (d 3%Z) /\
    forall p, (1 <= p <= 3)%Z -> r p =
      mean_free (fun p => diverg3 dx0 dx1 dx2 (fun i j k => f0 i j k p) (fun i j k => f1 i j k p) (fun i j k => f2 i j k p) i j k) p - ws * d p.
Proof. exact (fun lo0 hi0 lo1 hi1 lo2 hi2 dx0 dx1 dx2 f0 f1 f2 ws phi rhs i j k H0 H1 H2 H => conj (kernel3_sum_zero lo0 hi0 lo1 hi1 lo2 hi2 dx0 dx1 dx2 f0 f1 f2 ws phi rhs i j k H) (kernel3_gradient lo0 hi0 lo1 hi1 lo2 hi2 dx0 dx1 dx2 f0 f1 f2 ws phi rhs i j k H0 H1 H2 H)). Qed.
Print Assumptions C21_rhs_3d.

(** C21: the projection, any number of phases: values plus correction add up to one, reached the shortest way; admissible values stay; errors end up with sum zero. *)
Theorem C21_projection : forall lo0 hi0 lo1 hi1 n phi corr err i j, (1 <= n)%Z ->
  let (c, e) := projectphi lo0 hi0 lo1 hi1 n phi (corr, err) in
  (in_box lo0 hi0 lo1 hi1 i j -> projects_to_one n (phi i j) (c i j) /\ projects_to_zero n (err i j) (e i j)) /\
  (~ in_box lo0 hi0 lo1 hi1 i j -> forall m, c i j m = corr i j m /\ e i j m = err i j m).
Proof. exact projection_ok. Qed.
Print Assumptions C21_projection.

(** C21: the projection in 3D. *)
Theorem C21_projection_3d : forall lo0 hi0 lo1 hi1 lo2 hi2 n phi corr err i j k, (1 <= n)%Z ->
  let (c, e) := projectphi3 lo0 hi0 lo1 hi1 lo2 hi2 n phi (corr, err) in
  (in_box3 lo0 hi0 lo1 hi1 lo2 hi2 i j k -> projects_to_one n (phi i j k) (c i j k) /\ projects_to_zero n (err i j k) (e i j k)) /\
  (~ in_box3 lo0 hi0 lo1 hi1 lo2 hi2 i j k -> forall m, c i j k m = corr i j k m /\ e i j k m = err i j k m).
Proof. exact projection3_ok. Qed.
Print Assumptions C21_projection_3d.

(** C21: in a run the cells of the coarsest level are projected ... *)
Theorem C21_level0_projected_partial : forall level0 finer, map (map pp_phi) (apply_projection (level0 :: finer)) = map (map pp_phi) (level0 :: finer) /\
  forall p i j, In p (hd [] (apply_projection (level0 :: finer))) -> in_box (pp_lo0 p) (pp_hi0 p) (pp_lo1 p) (pp_hi1 p) i j ->
  projects_to_one 3 (pp_phi p i j) (pp_corr p i j).
Proof. exact (fun l f => conj (keeps_phi (l :: f)) (projected_level0 l f)). Qed.
Print Assumptions C21_level0_projected_partial.

(** C21: ... those of finer levels are not: projectPhases only visits level 0, after all corrections were set to zero. *)
Theorem C21_finer_levels_refuted : exists levels p i j,
  In p (nth 1 (apply_projection levels) []) /\ in_box (pp_lo0 p) (pp_hi0 p) (pp_lo1 p) (pp_hi1 p) i j /\
  sumZ 1 3 (fun m => pp_phi p i j m + pp_corr p i j m) <> 1.
Proof. exact finer_not_projected. Qed.
Print Assumptions C21_finer_levels_refuted.

Example C21_ex : (* fractions 1/2, 1/2, 1/2 are moved to 1/3 each *)
  fst (projectphi 0 1 0 1 3 (fun _ _ _ => 1 / 2) ((fun _ _ _ => 7), (fun _ _ _ => 0))) 1%Z 0%Z 2%Z = - (1 / 6).
Proof.
  etransitivity; [exact (proj1 (project_value 0 1 0 1 3 (fun _ _ _ => 1 / 2) (fun _ _ _ => 7) (fun _ _ _ => 0) 1 0 2 ltac:(split; lia) ltac:(lia))) |].
  unfold proj_corr. rewrite sum3. field.
Qed.

(** C60: Folch-Plapp tilting: where a phase is absent, neither the wells nor the chemical driving force change it; only fluxes do. *)
Theorem C60_folchplapp_absent_stays_partial : forall lo0 hi0 lo1 hi1 dx0 dx1 f0 f1 ws (phi : arr3) c mob rhs i j k, dx0 <> 0 -> dx1 <> 0 ->
  in_box lo0 hi0 lo1 hi1 i j -> on_simplex (phi i j 1%Z) (phi i j 2%Z) (phi i j 3%Z) -> (1 <= k <= 3)%Z -> phi i j k = 0 ->
  evaluate_rhs FolchPlapp lo0 hi0 lo1 hi1 dx0 dx1 f0 f1 ws phi c mob rhs i j k =
  mob i j * mean_free (fun p => diverg dx0 dx1 (fun i j => f0 i j p) (fun i j => f1 i j p) i j) k.
Proof. exact absent_phase. Qed.
Print Assumptions C60_folchplapp_absent_stays_partial.

(** C60: not so with Moelans tilting: without any flux an absent phase grows. *)
Theorem C60_moelans_refuted : exists (phi : arr3) c,
  (forall i j, on_simplex (phi i j 1%Z) (phi i j 2%Z) (phi i j 3%Z) /\ phi i j 3%Z = 0) /\
  0 < evaluate_rhs Moelans 0%Z 0%Z 0%Z 0%Z 1 1 (fun _ _ _ => 0) (fun _ _ _ => 0) 1 phi (Some c) (fun _ _ => 1) (fun _ _ _ => 0) 0%Z 0%Z 3%Z.
Proof. exact moelans_creates. Qed.
Print Assumptions C60_moelans_refuted.

Example C60_ex : (* uniform mixture of liquid and A, B absent: no B appears *)
  forall c, evaluate_rhs FolchPlapp 0 4 0 4 1 1 (fun _ _ _ => 0) (fun _ _ _ => 0) 1
    (fun _ _ k => if (k =? 3)%Z then 0 else 1 / 2) (Some c) (fun _ _ => 1) (fun _ _ _ => 9) 2%Z 2%Z 3%Z = 0.
Proof.
  intro c. rewrite C60_folchplapp_absent_stays_partial; try lra; try lia; try (split; lia); try reflexivity.
  - unfold mean_free, diverg. field.
  - cbn. unfold on_simplex. lra.
Qed.
