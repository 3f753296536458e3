(** C23: phase compositions from a partition coefficient.
    C24: velocity-dependent partition coefficient.
    C25: pair weights of three phases and the mobility built on them. *)
From Coq Require Import Reals List Ascii Lra Lia.
From Verif Require Import Functions_Model Functions_Spec Functions_Proofs Partition_Model Partition_Spec Partition_Proofs.
Import ListNotations.
Open Scope R_scope.

(** C23: for every k in (0,1], every phase value and every species: mass balance, the partition ratio, and c_a <= c <= c_l. *)
Theorem C23_partition : forall t phi k cs, (t = "p" \/ t = "h" \/ t = "l" \/ t = "m")%char -> 0 < k <= 1 ->
  exists h r, interp_func phi t = Some h /\ partition_cell t k phi cs = Some r /\ length r = length cs /\
    Forall2 (fun c clca => mixture h c (fst clca) (snd clca) /\ snd clca = k * fst clca /\
      (0 <= c -> 0 <= snd clca <= c /\ c <= fst clca)) cs r.
Proof. exact partition_ok. Qed.
Print Assumptions C23_partition.

(** C23: pure phases. *)
Theorem C23_pure_phases : forall t phi k c, 0 < k <= 1 ->
  (interp_func phi t = Some 0 -> partition_cell t k phi [c] = Some [(c, k * c)]) /\
  (interp_func phi t = Some 1 -> partition_cell t k phi [c] = Some [(c / k, c)]).
Proof. exact partition_pure. Qed.
Print Assumptions C23_pure_phases.

(** C23: k = 0 passes the asserts on k but divides by zero in the solid. *)
Theorem C23_zero_coefficient_refuted : forall phi c, 1 <= phi -> partition_cell "p" 0 phi [c] = None.
Proof. exact partition_k0. Qed.
Print Assumptions C23_zero_coefficient_refuted.

Example C23_ex : partition_cell "p" (1 / 2) (1 / 2) [3; 6] = Some [(4, 2); (8, 4)].
Proof.
  unfold partition_cell. cbn [interp_func]. replace (clamp01 (1 / 2)) with (1 / 2).
  - cbv zeta. replace (1 / 2 * (1 / 2) * (1 / 2) * (10 - 15 * (1 / 2) + 6 * (1 / 2) * (1 / 2))) with (1 / 2) by field.
    repeat (destruct (Rlt_dec _ _); [exfalso; lra |]). destruct (Req_EM_T _ _); [exfalso; lra |]. cbn [map]. repeat f_equal; field; lra.
  - unfold clamp01. rewrite Rmin_right, Rmax_right; lra.
Qed.

(** C24: at rest the coefficient is the one set in the input, if positive, else the equilibrium ratio of solid to liquid composition. *)
Theorem C24_at_rest : forall vd keq ceq T, 0 < vd ->
  (0 < keq -> aziz_cell vd keq ceq T 0 = Some keq) /\
  (forall cl cs, keq <= 0 -> ceq T = Some (cl, cs) -> 0 < cl -> 0 < cs -> aziz_cell vd keq ceq T 0 = Some (cs / cl)).
Proof. exact aziz_rest. Qed.
Print Assumptions C24_at_rest.

(** C24: equilibrium coefficient below one: between it and one, equal to it exactly at rest. *)
Theorem C24_below_one : forall vd keq ceq T v ke, 0 < vd -> computeKeq keq ceq T = Some ke -> 0 < ke < 1 ->
  exists k, aziz_cell vd keq ceq T v = Some k /\ ke <= k < 1 /\ (v = 0 <-> k = ke).
Proof. exact aziz_low. Qed.
Print Assumptions C24_below_one.

(** C24: equilibrium coefficient above one. *)
Theorem C24_above_one : forall vd keq ceq T v ke, 0 < vd -> computeKeq keq ceq T = Some ke -> 1 <= ke ->
  exists k, aziz_cell vd keq ceq T v = Some k /\ 1 <= k <= ke /\ (v = 0 -> k = ke) /\ (1 < ke -> 1 < k).
Proof. exact aziz_high. Qed.
Print Assumptions C24_above_one.

(** C24: the distance to one does not increase with the speed (so it depends on the speed only). *)
Theorem C24_monotone : forall vd keq ceq T v w ke k k', 0 < vd -> computeKeq keq ceq T = Some ke -> 0 < ke ->
  Rabs v <= Rabs w -> aziz_cell vd keq ceq T v = Some k -> aziz_cell vd keq ceq T w = Some k' ->
  Rabs (k' - 1) <= Rabs (k - 1).
Proof. exact aziz_mono. Qed.
Print Assumptions C24_monotone.

(** C24: it goes to one, at least as fast as vd/|v|. *)
Theorem C24_limit : forall vd keq ceq T v ke k, 0 < vd -> computeKeq keq ceq T = Some ke -> 0 < ke ->
  aziz_cell vd keq ceq T v = Some k -> Rabs (k - 1) * Rabs v <= vd.
Proof. exact aziz_limit. Qed.
Print Assumptions C24_limit.

(** C24: with an equilibrium coefficient in (0,1] the computation of the phase compositions accepts it. *)
Theorem C24_consumer_accepts : forall t vd keq ceq T v phi cs ke, (t = "p" \/ t = "h" \/ t = "l" \/ t = "m")%char ->
  0 < vd -> computeKeq keq ceq T = Some ke -> 0 < ke <= 1 -> aziz_partition t vd keq ceq T v phi cs <> None.
Proof. exact aziz_then_partition. Qed.
Print Assumptions C24_consumer_accepts.

(** C24: with an equilibrium coefficient above one - a case the formula provides for - the consumer's assert k <= 1 always fails. *)
Theorem C24_consumer_refuted : forall t vd keq ceq T v phi cs ke, 0 < vd -> computeKeq keq ceq T = Some ke -> 1 < ke ->
  aziz_partition t vd keq ceq T v phi cs = None.
Proof. exact aziz_reject. Qed.
Print Assumptions C24_consumer_refuted.

Example C24_ex : aziz_cell 2 (1 / 4) (fun _ => None) 1000 (-4) = Some (3 / 4) /\ aziz_cell 2 (-1) (fun _ => Some (1, 4)) 1000 1 = Some 2.
Proof.
  unfold aziz_cell, computeKeq. cbv zeta. split.
  - destruct (Rlt_dec 0 (1 / 4)); [| lra]. destruct (Rlt_dec (1 / 4) 1); [| lra]. rewrite Rabs_left by lra.
    replace ((1 / 4 + - -4 * (1 / 2)) / (1 + - -4 * (1 / 2))) with (3 / 4) by field. destruct (Rlt_dec 0 (3 / 4)); [reflexivity | lra].
  - destruct (Rlt_dec 0 (-1)); [lra |]. destruct (Rlt_dec (4 / 1) 1); [lra |]. rewrite Rabs_right by lra.
    replace ((1 + 1 * (1 / 2)) / (1 / (4 / 1) + 1 * (1 / 2))) with 2 by field. destruct (Rlt_dec 0 2); [reflexivity | lra].
Qed.

(** C25: for all phase fractions no assert fires, and the weights are in [0,1] and add up to one. *)
Theorem C25_partition_of_unity : forall p0 p1 p2, fractions p0 p1 p2 ->
  exists w01 w02 w12, computeWeights3Pairs p0 p1 p2 = Some (w01, w02, w12) /\ pair_weights w01 w02 w12.
Proof. exact weights_ok. Qed.
Print Assumptions C25_partition_of_unity.

(** C25: exchanging the first two phases exchanges the pairs accordingly. *)
Theorem C25_symmetric_01 : forall p0 p1 p2, fractions p0 p1 p2 ->
  computeWeights3Pairs p1 p0 p2 = option_map swap01 (computeWeights3Pairs p0 p1 p2).
Proof. exact pairs_swap01. Qed.
Print Assumptions C25_symmetric_01.

(** C25: exchanging the last two phases; with the previous one, all renumberings. *)
Theorem C25_symmetric_12 : forall p0 p1 p2, fractions p0 p1 p2 ->
  computeWeights3Pairs p0 p2 p1 = option_map swap12 (computeWeights3Pairs p0 p1 p2).
Proof. exact pairs_swap12. Qed.
Print Assumptions C25_symmetric_12.

(** C25: with the third phase absent only the pair present has weight. *)
Theorem C25_two_phases : forall p0 p1, 1 / 100 <= p0 -> 1 / 100 <= p1 -> p0 + p1 = 1 ->
  computeWeights3Pairs p0 p1 0 = Some (1, 0, 0).
Proof. exact weights_two. Qed.
Print Assumptions C25_two_phases.

(** C25: the three-phase mobility lies between the two solid-liquid mobilities. *)
Theorem C25_mobility_between : forall factor mv zLA zLB pL pA pB, 0 < factor -> 0 < mv -> 0 < zLA -> 0 < zLB -> fractions pL pA pB ->
  exists m, inf_mobility factor mv zLA zLB pL pA pB = Some m /\
    Rmin (factor * mv * 1000000 / zLA) (factor * mv * 1000000 / zLB) <= m <= Rmax (factor * mv * 1000000 / zLA) (factor * mv * 1000000 / zLB).
Proof. exact mobility_between. Qed.
Print Assumptions C25_mobility_between.

(** C25: with one solid absent it is that of the other. *)
Theorem C25_mobility_two_phases : forall factor mv zLA zLB pL pA, 0 < factor -> 0 < mv -> 0 < zLA -> 0 < zLB ->
  1 / 100 <= pL -> 1 / 100 <= pA -> pL + pA = 1 ->
  inf_mobility factor mv zLA zLB pL pA 0 = Some (factor * mv * 1000000 / zLA) /\
  inf_mobility factor mv zLA zLB pL 0 pA = Some (factor * mv * 1000000 / zLB).
Proof. exact mobility_two. Qed.
Print Assumptions C25_mobility_two_phases.

(** C25: the zeta factors take their given value at the reference temperature and their slope follows the two coefficients. *)
Theorem C25_zeta : forall tref z0 z1 z2 T, 0 <= tref ->
  zetaFactor tref z0 z1 z2 tref = z0 /\
  derivable_pt_lim (fun t => zetaFactor tref z0 z1 z2 t) T (z1 + 2 * z2 * (T - tref)).
Proof. exact zeta_expansion. Qed.
Print Assumptions C25_zeta.

Example C25_ex : computeWeights3Pairs (1 / 3) (1 / 3) (1 / 3) = Some (1 / 3, 1 / 3, 1 / 3) /\
  computeWeights3Pairs (1 / 4) 0 (3 / 4) = Some (0, 1, 0).
Proof.
  split; [exact weights_third |]. rewrite (pairs_swap12 (1 / 4) (3 / 4) 0) by (unfold fractions; lra).
  rewrite weights_two by lra. reflexivity.
Qed.
