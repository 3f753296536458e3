(** C30: reported energies. *)
From Coq Require Import Reals ZArith List Bool Ascii Lra Lia.
From Verif Require Import Grid_Model Grid_Spec Grid_Proofs Functions_Model Energy_Model Energy_Spec Energy_Proofs.
Import ListNotations.
Open Scope R_scope.

(** C30 (part that holds): total, phase, orientation and orientation-interface energies are the weighted sums of their densities over all cells of all patches of all ranks. *)
Theorem C30_sums_partial : forall pr rs t, evaluateEnergy pr rs = Some t ->
  t_energy t = over_ranks (density pr) rs /\
  t_phase t = over_ranks (fun b => all_phases pr (phase_density pr b)) rs /\
  t_orient t = over_ranks (fun b => all_phases pr (orient_density pr b)) rs /\
  t_qint t = over_ranks (fun b => all_phases pr (qint_density pr b)) rs.
Proof. exact energy_totals. Qed.
Print Assumptions C30_sums_partial.

(** C30: they do not depend on how a box is cut into patches, how patches are ordered or to which rank they belong. *)
Theorem C30_decomposition : forall pr b rs t, cuts b rs -> evaluateEnergy pr rs = Some t ->
  t_energy t = over b (density pr b) /\ t_phase t = over b (all_phases pr (phase_density pr b)) /\
  t_orient t = over b (all_phases pr (orient_density pr b)) /\ t_qint t = over b (all_phases pr (qint_density pr b)).
Proof. exact energy_cuts. Qed.
Print Assumptions C30_decomposition.

(** C30: the energy map, when requested, holds the total density in the cells of the patch and leaves other cells alone. *)
Theorem C30_map : forall pr b t en a c, snd (evaluate_patch pr b t en) a c =
  if (per_cell pr && in_b b a c)%bool then density pr b a c else en a c.
Proof. exact patch_map. Qed.
Print Assumptions C30_map.

(** C30: the evaluation stops iff one of the interpolation, well or averaging names is unsupported. *)
Theorem C30_defined : forall pr rs, (exists t, evaluateEnergy pr rs = Some t) <->
  In (phi_interp pr) ["q"; "p"; "h"; "w"; "l"; "m"; "3"; "s"; "c"]%char /\ In (orient1 pr) ["q"; "p"; "h"; "w"; "l"; "m"; "3"; "s"; "c"]%char /\
  In (orient2 pr) ["q"; "p"; "h"; "w"; "l"; "m"; "3"; "s"; "c"]%char /\ In (phi_well pr) ["d"; "s"]%char /\ In (avg_type pr) ["a"; "h"]%char.
Proof. exact energy_names. Qed.
Print Assumptions C30_defined.

(** C30: the well and free energies count only the last patch of each rank. *)
Theorem C30_last_patch : forall pr rs t, evaluateEnergy pr rs = Some t ->
  t_well t = over_lasts (fun b => all_phases pr (well_density pr b)) rs /\ t_free t = over_lasts (bulk_density pr) rs.
Proof. exact energy_lasts. Qed.
Print Assumptions C30_last_patch.

(** C30: they are right when every rank has at most one patch. *)
Theorem C30_one_patch_per_rank_partial : forall pr b rs t, cuts b rs -> Forall (fun r => (length r <= 1)%nat) rs -> evaluateEnergy pr rs = Some t ->
  t_well t = over b (all_phases pr (well_density pr b)) /\ t_free t = over b (bulk_density pr b).
Proof. exact energy_single. Qed.
Print Assumptions C30_one_patch_per_rank_partial.

(** C30 is false for the well and free energies: cutting the same box into two patches halves them. *)
Theorem C30_well_free_refuted : exists pr b rs rs' t t', cuts b rs /\ cuts b rs' /\ evaluateEnergy pr rs = Some t /\ evaluateEnergy pr rs' = Some t' /\
  t_energy t' = t_energy t /\ t_well t = 2 /\ t_well t' = 1 /\ t_free t = 2 /\ t_free t' = 1 /\
  t_well t = over b (all_phases pr (well_density pr b)) /\ t_free t = over b (bulk_density pr b).
Proof. exact well_free_lost. Qed.
Print Assumptions C30_well_free_refuted.

(** C30: pair energies count only the last patch of a rank, for every pair. *)
Theorem C30_pairs_last_patch : forall gamma m pc n ps p1 p2, (1 <= p1 <= n)%Z -> (1 <= p2 <= n)%Z ->
  evaluatePairEnergy gamma m pc n ps (n * (p1 - 1) + p2)%Z = over_last (pair_density gamma m p1 p2) ps.
Proof. exact pair_lasts. Qed.
Print Assumptions C30_pairs_last_patch.

(** C30: pair energies are symmetric in the two order parameters. *)
Theorem C30_pairs_symmetric : forall gamma m pc n ps p1 p2, (1 <= p1 <= n)%Z -> (1 <= p2 <= n)%Z ->
  evaluatePairEnergy gamma m pc n ps (n * (p1 - 1) + p2)%Z = evaluatePairEnergy gamma m pc n ps (n * (p2 - 1) + p1)%Z.
Proof. exact pair_symmetric. Qed.
Print Assumptions C30_pairs_symmetric.

(** C30 is false for the pair energies. *)
Theorem C30_pairs_refuted : exists ps ps', cuts (b_ex 0 1) [ps] /\ cuts (b_ex 0 1) [ps'] /\
  evaluatePairEnergy 1 2 false 2 ps 2 = 1 / 8 /\ evaluatePairEnergy 1 2 false 2 ps' 2 = 1 / 16 /\
  over (b_ex 0 1) (pair_density 1 2 1 2 (b_ex 0 1)) = 1 / 8.
Proof. exact pair_lost. Qed.
Print Assumptions C30_pairs_refuted.

(** C30: the pair energy map holds the density of the last pair, an order parameter with itself. *)
Theorem C30_pairs_map : forall gamma m n b s i j, (1 <= n)%Z -> in_box (elo0 b) (ehi0 b) (elo1 b) (ehi1 b) i j ->
  snd (phiphi_interfacialenergy gamma m true n b s) i j = pair_density gamma m n n b i j.
Proof. exact pair_map. Qed.
Print Assumptions C30_pairs_map.

(** C30: hence it is not the density of the pair energies. *)
Theorem C30_pairs_map_refuted : exists b i j, in_box (elo0 b) (ehi0 b) (elo1 b) (ehi1 b) i j /\
  snd (phiphi_interfacialenergy 1 2 true 2 b (fun _ => 0, none)) i j = 1 / 16 /\ pair_sum 1 2 2 b i j = 1 / 4.
Proof. exact pair_map_lost. Qed.
Print Assumptions C30_pairs_map_refuted.

Example C30_ex : (* an ordinary 2 x 1 box in two patches: phase 1/2, well scale 1, bulk energies 1: well 1 + bulk 1 per cell *)
  exists t, evaluateEnergy (pr_ex 1) two_patches = Some t /\ t_energy t = 4 /\ t_phase t = 0 /\ t_orient t = 0 /\ t_qint t = 0.
Proof.
  destruct (proj2 (energy_defined (pr_ex 1) two_patches) ltac:(reflexivity)) as [t Ht]. exists t. split; [exact Ht |].
  destruct (energy_cuts _ _ _ _ cuts_two Ht) as (A & B & C & D).
  assert (P : forall i j, all_phases (pr_ex 1) (phase_density (pr_ex 1) (b_ex 0 1)) i j = 0).
  { intros i j. unfold all_phases. cbn [nphases pr_ex]. rewrite sum_at. unfold phase_density, second. cbn [anisotropy pr_ex ephi b_ex edx edy epsilon_phi].
    destruct (Rlt_dec 0 0); [lra |]. cbv zeta. field. }
  assert (O : forall i j, all_phases (pr_ex 1) (orient_density (pr_ex 1) (b_ex 0 1)) i j = 0).
  { intros i j. unfold all_phases. cbn [nphases pr_ex]. rewrite sum_at. unfold orient_density. cbn [misorientation pr_ex]. destruct (Rlt_dec 0 0); [lra | reflexivity]. }
  assert (Q : forall i j, all_phases (pr_ex 1) (qint_density (pr_ex 1) (b_ex 0 1)) i j = 0).
  { intros i j. unfold all_phases. cbn [nphases pr_ex]. rewrite sum_at. unfold qint_density. cbn [misorientation pr_ex]. destruct (Rlt_dec 0 0); [lra | reflexivity]. }
  rewrite A, B, C, D. rewrite (over_ext _ _ _ P), (over_ext _ _ _ O), (over_ext _ _ _ Q), !over_zero.
  assert (S : forall i j, density (pr_ex 1) (b_ex 0 1) i j = 1 + 1).
  { intros i j. unfold density. rewrite P, O, Q, well_ex, bulk_ex. ring. }
  rewrite (over_ext _ _ _ S). rewrite over_plus, !over_ex by (auto; lia). cbn. repeat split; lra.
Qed.
