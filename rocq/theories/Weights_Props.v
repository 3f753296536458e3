(** C28: weights on the hierarchy count every point once.
    C29: diagnostics weights. *)
From Coq Require Import Reals ZArith List Lra Lia.
From Verif Require Import Grid_Model Grid_Spec Grid_Proofs Weights_Model Weights_Spec Weights_Proofs.
Import ListNotations.
Open Scope R_scope.

(** C28: the weight of every cell of every patch: the cell volume, or zero where a finer level lies. *)
Theorem C28_cell_weight : forall h n l' p i j k, well_formed h ->
  nth_error (levels (computeVectorWeights h)) n = Some l' -> In p (patches l') -> inside (pbox p) i j k ->
  exists l, nth_error (levels h) n = Some l /\
   match nth_error (levels h) (S n) with
   | None => weight p i j k = cell_vol (dx0 h) l
   | Some f => forall r, refines r l f ->
       (covered r f i j k -> weight p i j k = 0) /\ (~ covered r f i j k -> weight p i j k = cell_vol (dx0 h) l)
   end.
Proof. exact vweights_cell. Qed.
Print Assumptions C28_cell_weight.

(** C28: any field whose coarse values are averages of the fine ones integrates to its integral on level zero. *)
Theorem C28_integral : forall h u l ls, levels h = l :: ls -> well_formed h -> coarsened u 0 (levels h) ->
  hier_integral weight u (computeVectorWeights h) = level_sum l (fun _ i j k => cell_vol (dx0 h) l * u 0%nat i j k).
Proof. exact hier_weights. Qed.
Print Assumptions C28_integral.

(** C28: the weights add up to the volume of the domain. *)
Theorem C28_volume : forall h l ls a0 a1 a2, levels h = l :: ls -> well_formed h -> nonempty (a0, a1, a2) -> tiles l (a0, a1, a2) ->
  hier_integral weight (fun _ _ _ _ => 1) (computeVectorWeights h) =
  let '(d0, d1, d2) := dx_level (dx0 h) l in
  (IZR (snd a0 - fst a0 + 1) * d0) * (IZR (snd a1 - fst a1 + 1) * d1) * (IZR (snd a2 - fst a2 + 1) * d2).
Proof. exact domain_volume. Qed.
Print Assumptions C28_volume.

(** C28: the weights of the elliptic solvers on a range of levels: same property from the coarsest of these levels; other levels are not touched. *)
Theorem C28_solver_levels : forall h u c f l h', well_formed h -> coarsened u 0 (levels h) ->
  (c <= f)%nat -> (f < length (levels h))%nat -> nth_error (levels h) c = Some l ->
  fac_computeVectorWeights h (Z.of_nat c) (Z.of_nat f) = Some h' ->
  (forall n, (n < c \/ f < n)%nat -> nth_error (levels h') n = nth_error (levels h) n) /\
  integral weight u c (firstn (S f - c) (skipn c (levels h'))) = level_sum l (fun _ i j k => cell_vol (dx0 h) l * u c i j k).
Proof. exact fac_weights. Qed.
Print Assumptions C28_solver_levels.

(** C28: with the default range they are the same weights. *)
Theorem C28_solver_default : forall h, levels h <> [] ->
  fac_computeVectorWeights h (-1) (-1) = Some (computeVectorWeights h).
Proof. exact fac_weights_default. Qed.
Print Assumptions C28_solver_default.

(** C28: computing the diagnostics weights afterwards does not change the weights. *)
Theorem C28_kept_by_diagnostics : forall fr h n l', nth_error (levels (computeVectorWeightsDiagnostics fr (computeVectorWeights h))) n = Some l' ->
  exists l, nth_error (levels (computeVectorWeights h)) n = Some l /\ Forall2 same_weights (patches l') (patches l).
Proof. exact diag_keeps_weights. Qed.
Print Assumptions C28_kept_by_diagnostics.

Example C28_ex : (* four unit cells, the two in the middle refined; field 1, (4, 6), 8 with the average 5 of the fine
     values (4,4,6,6) -> 4 and 6 on the coarse cells *)
  well_formed h_ex /\
  let v : nat -> arr3 := fun n i _ _ => match n with O => 2 * IZR i + 2 | _ => 2 * IZR (i / 2) + 2 end in
  coarsened v 0 (levels h_ex) /\ hier_integral weight v (computeVectorWeights h_ex) = 2 + 4 + 6 + 8.
Proof.
  split; [exact h_ex_ok |]. cbv zeta.
  match goal with |- coarsened ?v _ _ /\ _ => assert (C : coarsened v 0 (levels h_ex)) end.
  { cbn [levels h_ex coarsened]. split; [| split; exact I]. intros [[r0 r1] r2] Hr i j k _. unfold refines in Hr. cbn [lratio] in Hr. destruct Hr as (_ & E).
    pose proof (f_equal (fun t => fst (fst t)) E) as E0. pose proof (f_equal (fun t => snd (fst t)) E) as E1. pose proof (f_equal snd E) as E2. cbn [fst snd] in E0, E1, E2. assert (r0 = 2)%Z as -> by lia. assert (r1 = 1)%Z as -> by lia. assert (r2 = 1)%Z as -> by lia.
    unfold sum_box3. rewrite (sumZ_cons (k * 1)), (sumZ_empty (k * 1 + 1)) by lia. rewrite (sumZ_cons (j * 1)), (sumZ_empty (j * 1 + 1)) by lia.
    rewrite (sumZ_cons (i * 2)), (sumZ_cons (i * 2 + 1)), (sumZ_empty (i * 2 + 1 + 1)) by lia.
    rewrite Z.div_mul by lia. replace ((i * 2 + 1) / 2)%Z with i by (rewrite Z.div_add_l by lia; cbn; lia). ring. }
  split; [exact C |].
  match goal with |- hier_integral _ ?v _ = _ => rewrite (hier_weights h_ex v _ _ eq_refl h_ex_ok C) end.
  unfold level_sum. cbn [patches sumL pbox sum_cells fst snd]. unfold sum_box3.
  rewrite (sumZ_cons 0 0), (sumZ_empty (0 + 1) 0) by lia. rewrite (sumZ_cons 0 0), (sumZ_empty (0 + 1) 0) by lia.
  rewrite (sumZ_cons 0 3), (sumZ_cons (0 + 1) 3), (sumZ_cons (0 + 1 + 1) 3), (sumZ_cons (0 + 1 + 1 + 1) 3), sumZ_empty by lia.
  cbn. field.
Qed.

(** C29 (part that holds): the diagnostics weight of a cell is its volume if its lower corner is in the sub-domain, and zero otherwise; whether the cell is covered by a finer level plays no role. *)
Theorem C29_cell_weight_partial : forall fr h n l' p i j k,
  nth_error (levels (computeVectorWeightsDiagnostics fr h)) n = Some l' -> In p (patches l') -> inside (pbox p) i j k ->
  exists l, nth_error (levels h) n = Some l /\
    (in_subdomain h fr l i j k -> weight_diag p i j k = cell_vol (dx0 h) l) /\
    (~ in_subdomain h fr l i j k -> weight_diag p i j k = 0).
Proof. exact diag_weights. Qed.
Print Assumptions C29_cell_weight_partial.

(** C29: hence every level is counted in full. *)
Theorem C29_overcount : forall fr h,
  (forall l p i j k, In l (levels h) -> In p (patches l) -> inside (pbox p) i j k -> in_subdomain h fr l i j k) ->
  hier_integral weight_diag (fun _ _ _ _ => 1) (computeVectorWeightsDiagnostics fr h) =
  sumL (fun l => level_sum l (fun _ _ _ _ => cell_vol (dx0 h) l)) (levels h).
Proof. exact diag_overcount. Qed.
Print Assumptions C29_overcount.

(** C29 is false: with the middle half refined, the sub-domain being the whole domain of volume 4, the weights add up to 6. *)
Theorem C29_refuted : well_formed h_ex /\
  hier_integral weight (fun _ _ _ _ => 1) (computeVectorWeights h_ex) = 4 /\
  hier_integral weight_diag (fun _ _ _ _ => 1) (computeVectorWeightsDiagnostics (1, 1, 1) h_ex) = 6.
Proof. exact diag_refuted. Qed.
Print Assumptions C29_refuted.
