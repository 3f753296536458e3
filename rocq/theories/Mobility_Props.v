(** C121-C124: mobilities of the species from databases and the diffusion that follows from them. *)
From Coq Require Import Reals ZArith String List Bool Ascii Lra Lia.
From Verif Require Import Grid_Model Grid_Spec Grid_Proofs Functions_Model PhaseFlow_Model PhaseFlow_Spec PhaseFlow_Proofs Stencils_Model Stencils_Proofs
  Diffusion_Model Diffusion_Spec Diffusion_Proofs Mobility_Model Mobility_Spec Mobility_Proofs.
Import ListNotations.
Open Scope R_scope.

(** C121: for two species the mobility is the exponential of the Redlich-Kister expansion to third order of the coefficients in the database, divided by RT. *)
Theorem C121_binary : forall gasR db a b L, two_species db a b L -> good a -> good b -> good_terms L -> 0 < gasR ->
  exists m, initialize db = Some m /\ forall T x, 0 < T -> 0 <= x <= 1 ->
    getAtomicMobility2 gasR m x (1 - x) T = Some (exp (binary_barrier gasR T a b L x / (gasR * T)) / (gasR * T)).
Proof. exact binary_value. Qed.
Print Assumptions C121_binary.

(** C121: for three species it is that of the expansion to first order. *)
Theorem C121_ternary : forall gasR db a b c AB AC BC, three_species db a b c AB AC BC -> good a -> good b -> good c ->
  good_terms AB -> good_terms AC -> good_terms BC -> 0 < gasR ->
  exists m, initialize db = Some m /\ forall T x y z, 0 < T ->
    getAtomicMobility3 gasR m x y z T = Some (exp (ternary_barrier gasR T a b c AB AC BC 1 x y z / (gasR * T)) / (gasR * T)).
Proof. exact ternary_value. Qed.
Print Assumptions C121_ternary.

(** C121: mobilities are positive. *)
Theorem C121_positive : forall gasR m c0 c1 c2 T v, 0 < gasR ->
  getAtomicMobility2 gasR m c0 c1 T = Some v \/ getAtomicMobility3 gasR m c0 c1 c2 T = Some v -> 0 < v.
Proof. exact mobility_positive. Qed.
Print Assumptions C121_positive.

(** C121: in a pure element the tracer diffusivity follows Arrhenius' law. *)
Theorem C121_pure : forall gasR db a b L, two_species db a b L -> good a -> good b -> good_terms L -> 0 < gasR ->
  exists m, initialize db = Some m /\ forall T, 0 < T ->
    (exists v, getAtomicMobility2 gasR m 1 0 T = Some v /\ tracer gasR T v = pure_law gasR T a) /\
    (exists v, getAtomicMobility2 gasR m 0 1 T = Some v /\ tracer gasR T v = pure_law gasR T b).
Proof. exact pure_binary. Qed.
Print Assumptions C121_pure.

(** C121: exchanging the names of two species changes nothing. *)
Theorem C121_exchange : forall gasR db db' a b L, two_species db a b L -> two_species db' b a (exchanged L) -> good a -> good b -> good_terms L -> 0 < gasR ->
  exists m m', initialize db = Some m /\ initialize db' = Some m' /\ forall T x, 0 < T -> 0 <= x <= 1 ->
    exists v, getAtomicMobility2 gasR m x (1 - x) T = Some v /\ getAtomicMobility2 gasR m' (1 - x) x T = Some v.
Proof. exact exchange_value. Qed.
Print Assumptions C121_exchange.

(** C121: without terms of second and third order, the mobility in the binary edge of a ternary alloy is that of the binary alloy. *)
Theorem C121_edge_partial : forall gasR db db3 a b c AB AC BC, two_species db a b AB -> three_species db3 a b c AB AC BC -> good a -> good b -> good c ->
  good_terms AB -> good_terms AC -> good_terms BC -> 0 < gasR ->
  (forall k, (2 <= k <= 3)%nat -> AB k = None \/ AB k = Some (0, 1)) ->
  exists m m3, initialize db = Some m /\ initialize db3 = Some m3 /\ forall T x, 0 < T -> 0 <= x <= 1 ->
    exists v, getAtomicMobility2 gasR m x (1 - x) T = Some v /\ getAtomicMobility3 gasR m3 x (1 - x) 0 T = Some v.
Proof. exact edge_value. Qed.
Print Assumptions C121_edge_partial.

(** C121: with such terms it is not. *)
Theorem C121_edge_refuted : forall gasR T, 0 < gasR -> 0 < T -> exists db db3 a b c AB AC BC m m3, two_species db a b AB /\ three_species db3 a b c AB AC BC /\
  good a /\ good b /\ good c /\ good_terms AB /\ good_terms AC /\ good_terms BC /\ initialize db = Some m /\ initialize db3 = Some m3 /\
  exists x v v3, 0 < x < 1 /\ getAtomicMobility2 gasR m x (1 - x) T = Some v /\ getAtomicMobility3 gasR m3 x (1 - x) 0 T = Some v3 /\ v <> v3.
Proof. exact edge_differs. Qed.
Print Assumptions C121_edge_refuted.

(** C121: the coefficients of a fourth species replace those of the first. *)
Theorem C121_fourth_refuted : forall gasR db a b c d, four_species db a b c d -> snd a = None -> good b -> good c -> good d -> 0 < gasR ->
  exists m, initialize db = Some m /\ forall T, 0 < T -> exists v, getAtomicMobility3 gasR m 1 0 0 T = Some v /\ tracer gasR T v = pure_law gasR T d.
Proof. exact fourth_replaces. Qed.
Print Assumptions C121_fourth_refuted.

(** C121: an array of three numbers is not accepted: the fourth is read nevertheless. *)
Theorem C121_three_numbers : forall db c x y z, In c letters -> db (qkey c) = Some [x; y; z] -> initialize db = None.
Proof. exact three_numbers. Qed.
Print Assumptions C121_three_numbers.

(** C121: the table written before the run holds the Arrhenius law of the species at a hundred temperatures. *)
Theorem C121_table : forall gasR db a b L, two_species db a b L -> good a -> good b -> good_terms L -> 0 < gasR ->
  exists m, initialize db = Some m /\ forall tmin tmax, 0 < tmin <= tmax -> exists l, diffusionVsTemperature gasR m tmin tmax = Some l /\ List.length l = 100%nat /\
    forall k, (k < 100)%nat -> nth k l (0, 0) = (10000 / table_T tmin tmax k, pure_law gasR (table_T tmin tmax k) a).
Proof. exact table_value. Qed.
Print Assumptions C121_table.

(** C121: but the section for the second species in the liquid repeats that for the first. *)
Theorem C121_second_section_refuted : forall gasR T, 0 < gasR -> 0 < T -> exists db0 db1 m0 m1 l0 l1, initialize db0 = Some m0 /\ initialize db1 = Some m1 /\
  diffusionVsTemperature gasR m0 (T / 2) (2 * T) = Some l0 /\ diffusionVsTemperature gasR m1 (T / 2) (2 * T) = Some l1 /\ l0 <> l1 /\
  (forall mA mB, nth 1 (D_dat gasR T m0 m1 mA mB) None = Some l0).
Proof. exact second_section. Qed.
Print Assumptions C121_second_section_refuted.

(** equal prefactors 1 everywhere: the tracer diffusivity is 1 *)
Example C121_ex : exists m, initialize (ab_flat 1) = Some m /\ getAtomicMobility2 8 m (1 / 2) (1 - 1 / 2) 1000 = Some (1 / 8000).
Proof.
  destruct (C121_binary 8 _ _ _ _ (ab_flat_two 1) ltac:(apply flat_good; lra) ltac:(apply flat_good; lra) no_good ltac:(lra)) as (m & E & V).
  exists m. split; [exact E |]. rewrite V by lra. f_equal. replace (8 * 1000) with 8000 by lra. f_equal.
  replace (binary_barrier 8 1000 (flat 1) (flat 1) no_terms (1 / 2) / 8000) with 0; [apply exp_0 |].
  unfold binary_barrier, interaction, barrier, linear, flat. cbn [sum_f_R0 pow fst snd given no_terms]. rewrite ln_1. field.
Qed.
(** the table of a species with prefactor 2 *)
Example C121_ex_table : exists m l, initialize (ab_flat 2) = Some m /\ diffusionVsTemperature 8 m 500 2000 = Some l /\ length l = 100%nat.
Proof.
  destruct (C121_table 8 _ _ _ _ (ab_flat_two 2) ltac:(apply flat_good; lra) ltac:(apply flat_good; lra) no_good ltac:(lra)) as (m & E & V).
  destruct (V 500 2000 ltac:(lra)) as (l & L & N & _). exists m, l. auto.
Qed.

(** C122: the mobility of a binary alloy is never negative, vanishes for pure elements and gives Darken's interdiffusion coefficient. *)
Theorem C122_darken : forall gasR a b x T m0 m1, 0 < gasR -> 0 <= x <= 1 ->
  getAtomicMobility2 gasR a x (1 - x) T = Some m0 -> getAtomicMobility2 gasR b x (1 - x) T = Some m1 ->
  exists M, mobilityBinary gasR x T [a; b] = Some M /\ 0 <= M /\ (x = 0 \/ x = 1 -> M = 0) /\
    (0 < x < 1 -> 0 < M /\ M * ideal2 gasR T x = 10 ^ 12 * ((1 - x) * tracer gasR T m0 + x * tracer gasR T m1) /\
       between (10 ^ 12 * tracer gasR T m0) (10 ^ 12 * tracer gasR T m1) (M * ideal2 gasR T x)).
Proof. exact binary_darken. Qed.
Print Assumptions C122_darken.

(** C122: the matrix of a ternary alloy is symmetric and positive, and has no entries for species that are absent. *)
Theorem C122_matrix : forall gasR a b c x y T M, 0 < gasR -> simplex x y (1 - x - y) -> mobilityTernary gasR x y T [a; b; c] = Some M ->
  M 1%Z = M 2%Z /\ (forall u v, 0 <= quadratic M u v) /\
  (0 < x -> 0 < y -> 0 < 1 - x - y -> forall u v, (u <> 0 \/ v <> 0) -> 0 < quadratic M u v) /\
  (x = 0 -> M 0%Z = 0 /\ M 1%Z = 0) /\ (y = 0 -> M 3%Z = 0 /\ M 1%Z = 0) /\ (x + y = 1 -> M 1%Z = - M 0%Z /\ M 3%Z = M 0%Z).
Proof. exact ternary_matrix. Qed.
Print Assumptions C122_matrix.

(** C122: its fluxes are those of the species relative to the frame in which they add up to zero. *)
Theorem C122_frame : forall gasR a b c x y T M, mobilityTernary gasR x y T [a; b; c] = Some M ->
  exists m0 m1 m2, getAtomicMobility3 gasR a x y (1 - x - y) T = Some m0 /\ getAtomicMobility3 gasR b x y (1 - x - y) T = Some m1 /\
    getAtomicMobility3 gasR c x y (1 - x - y) T = Some m2 /\
  forall f g h, gibbs_duhem x y (1 - x - y) f g h ->
    let j0 := lattice_flux x m0 f in let j1 := lattice_flux y m1 g in let j2 := lattice_flux (1 - x - y) m2 h in let all := j0 + j1 + j2 in
    M 0%Z * (f - h) + M 1%Z * (g - h) = 10 ^ 12 * frame_flux x j0 all /\
    M 2%Z * (f - h) + M 3%Z * (g - h) = 10 ^ 12 * frame_flux y j1 all.
Proof. exact ternary_frame. Qed.
Print Assumptions C122_frame.

(** C122: on the edge of a ternary alloy it is the mobility of the binary alloy. *)
Theorem C122_edge : forall gasR a b a3 b3 c3 x T m0 m1 M, 0 < gasR -> 0 <= x <= 1 ->
  getAtomicMobility2 gasR a x (1 - x) T = Some m0 -> getAtomicMobility2 gasR b x (1 - x) T = Some m1 ->
  getAtomicMobility3 gasR a3 x (1 - x) 0 T = Some m0 -> getAtomicMobility3 gasR b3 x (1 - x) 0 T = Some m1 ->
  mobilityTernary gasR x (1 - x) T [a3; b3; c3] = Some M -> mobilityBinary gasR x T [a; b] = Some (M 0%Z).
Proof. exact ternary_edge. Qed.
Print Assumptions C122_edge.

(** half and half, mobilities 1/8000 and 1/8000 *)
Example C122_ex : exists m M, initialize (ab_flat 1) = Some m /\ mobilityBinary 8 (1 / 2) 1000 [m; m] = Some M /\ M * ideal2 8 1000 (1 / 2) = 10 ^ 12.
Proof.
  destruct C121_ex as (m & E & V).
  destruct (C122_darken 8 m m (1 / 2) 1000 (1 / 8000) (1 / 8000) ltac:(lra) ltac:(lra) V V) as (M & EM & _ & _ & D). exists m, M. split; [exact E |]. split; [exact EM |].
  destruct (D ltac:(lra)) as (_ & D' & _). rewrite D'. unfold tracer. field.
Qed.
Example C122_ex_matrix : exists m M, initialize (abc_flat 1) = Some m /\ mobilityTernary 8 (1 / 3) (1 / 3) 1000 [m; m; m] = Some M /\ 0 < quadratic M 1 1.
Proof.
  destruct (abc_flat_value 8 1 ltac:(lra) ltac:(lra)) as (m & E & V). unfold mobilityTernary. cbv zeta.
  assert (EM : exists M, mobilityTernary 8 (1 / 3) (1 / 3) 1000 [m; m; m] = Some M) by (unfold mobilityTernary; cbv zeta; rewrite !V by lra; cbn [bind]; eauto).
  destruct EM as (M & EM). exists m, M. split; [exact E |]. split; [exact EM |].
  destruct (C122_matrix 8 m m m (1 / 3) (1 / 3) 1000 M ltac:(lra) ltac:(unfold simplex; lra) EM) as (_ & _ & P & _). apply P; lra.
Qed.

(** C123: in a binary alloy the flux is down the slope of each phase with coefficients that are never negative; inside a phase the coefficient is mobility times curvature of its free energy at the mean of the two cells. *)
Theorem C123_binary : forall gasR it a b p phi temp cl ca dold old d dr i j, 0 < gasR -> dn p = 1%Z -> spacing b dr <> 0 ->
  setDiffusion gasR it a b p phi temp cl ca dold old = Some d -> implemented it -> In a averages -> on_face b dr i j ->
  let T := mean_T temp dr i j in
  0 <= dF_l p T (mean_c cl dr i j) 0%Z -> 0 <= dF_a p T (mean_c ca dr i j) 0%Z ->
  exists Dl Da, 0 <= Dl /\ 0 <= Da /\
    pick dr (ebs_flux b (dn p) cl ca d) i j 1%Z = Dl * slope b cl dr i j 0 + Da * slope b ca dr i j 0 /\
    (low phi dr i j <= 0 -> phi i j <= 0 -> Da = 0 /\ exists M, mobilityBinary gasR (mean_c cl dr i j 0%Z) T (dms_l p) = Some M /\ Dl = M * dF_l p T (mean_c cl dr i j) 0%Z) /\
    (1 <= low phi dr i j -> 1 <= phi i j -> Dl = 0 /\ exists M, mobilityBinary gasR (mean_c ca dr i j 0%Z) T (dms_a p) = Some M /\ Da = M * dF_a p T (mean_c ca dr i j) 0%Z).
Proof. exact flux_binary. Qed.
Print Assumptions C123_binary.

(** C123: for an ideal solution it is Darken's coefficient. *)
Theorem C123_darken : forall gasR it a b p phi temp cl ca dold old d dr i j A B m0 m1, 0 < gasR -> dn p = 1%Z -> spacing b dr <> 0 ->
  setDiffusion gasR it a b p phi temp cl ca dold old = Some d -> implemented it -> In a averages -> on_face b dr i j ->
  low phi dr i j <= 0 -> phi i j <= 0 -> dms_l p = [A; B] ->
  let T := mean_T temp dr i j in let x := mean_c cl dr i j 0%Z in 0 < x < 1 -> dF_l p T (mean_c cl dr i j) 0%Z = ideal2 gasR T x ->
  getAtomicMobility2 gasR A x (1 - x) T = Some m0 -> getAtomicMobility2 gasR B x (1 - x) T = Some m1 ->
  pick dr (ebs_flux b (dn p) cl ca d) i j 1%Z = 10 ^ 12 * ((1 - x) * tracer gasR T m0 + x * tracer gasR T m1) * slope b cl dr i j 0.
Proof. exact flux_darken. Qed.
Print Assumptions C123_darken.

(** C123: compositions beyond the pure elements stop a binary run, though a margin of five percent passes the checks. *)
Theorem C123_margin_refuted : forall gasR it a b p phi temp cl ca dold old dr i j, 0 < gasR -> dn p = 1%Z -> implemented it -> In a averages -> on_face b dr i j ->
  (mean_c cl dr i j 0%Z < 0 \/ 1 < mean_c cl dr i j 0%Z \/ mean_c ca dr i j 0%Z < 0 \/ 1 < mean_c ca dr i j 0%Z) ->
  setDiffusion gasR it a b p phi temp cl ca dold old = None.
Proof. exact margin_stops. Qed.
Print Assumptions C123_margin_refuted.

(** C123: in a ternary alloy the fluxes are the product of the curvature and the mobility in this order. *)
Theorem C123_ternary : forall gasR it a b p phi temp cl ca dold old d dr i j, dn p = 2%Z -> spacing b dr <> 0 ->
  setDiffusion gasR it a b p phi temp cl ca dold old = Some d -> implemented it -> In a averages -> on_face b dr i j ->
  symmetric (dF_l p) -> symmetric (dF_a p) ->
  let T := mean_T temp dr i j in let Fl := dF_l p T (mean_c cl dr i j) in let Fa := dF_a p T (mean_c ca dr i j) in
  exists w ML MA, 0 <= w <= 1 /\ (low phi dr i j <= 0 -> phi i j <= 0 -> w = 0) /\ (1 <= low phi dr i j -> 1 <= phi i j -> w = 1) /\
    mobilityTernary gasR (mean_c cl dr i j 0%Z) (mean_c cl dr i j 1%Z) T (dms_l p) = Some ML /\
    mobilityTernary gasR (mean_c ca dr i j 0%Z) (mean_c ca dr i j 1%Z) T (dms_a p) = Some MA /\
    forall m, (0 <= m <= 1)%Z -> pick dr (ebs_flux b (dn p) cl ca d) i j (m + 1)%Z =
      (1 - w) * (product2 Fl ML m 0 * slope b cl dr i j 0 + product2 Fl ML m 1 * slope b cl dr i j 1) +
      w * (product2 Fa MA m 0 * slope b ca dr i j 0 + product2 Fa MA m 1 * slope b ca dr i j 1).
Proof. exact flux_ternary. Qed.
Print Assumptions C123_ternary.

(** C123: for an ideal solution of equally mobile species that is Fick's law. *)
Theorem C123_fick : forall gasR it a b p phi temp cl ca dold old d dr i j A B C mob, 0 < gasR -> dn p = 2%Z -> spacing b dr <> 0 ->
  setDiffusion gasR it a b p phi temp cl ca dold old = Some d -> implemented it -> In a averages -> on_face b dr i j ->
  low phi dr i j <= 0 -> phi i j <= 0 -> dms_l p = [A; B; C] -> dF_l p = ideal3 gasR -> symmetric (dF_a p) ->
  let T := mean_T temp dr i j in let x := mean_c cl dr i j 0%Z in let y := mean_c cl dr i j 1%Z in 0 < x -> 0 < y -> 0 < 1 - x - y ->
  (forall m, In m [A; B; C] -> getAtomicMobility3 gasR m x y (1 - x - y) T = Some mob) ->
  forall k, (0 <= k <= 1)%Z -> pick dr (ebs_flux b (dn p) cl ca d) i j (k + 1)%Z = 10 ^ 12 * tracer gasR T mob * slope b cl dr i j k.
Proof. exact flux_fick. Qed.
Print Assumptions C123_fick.

(** C123: inside a phase where the two matrices commute, fluxes produce entropy. *)
Theorem C123_dissipates_partial : forall gasR it a b p phi temp cl ca dold old d dr i j, 0 < gasR -> dn p = 2%Z -> spacing b dr <> 0 ->
  setDiffusion gasR it a b p phi temp cl ca dold old = Some d -> implemented it -> In a averages -> on_face b dr i j ->
  low phi dr i j <= 0 -> phi i j <= 0 -> symmetric (dF_l p) -> symmetric (dF_a p) ->
  let T := mean_T temp dr i j in let F := dF_l p T (mean_c cl dr i j) in let x := mean_c cl dr i j 0%Z in let y := mean_c cl dr i j 1%Z in
  simplex x y (1 - x - y) -> (forall M, mobilityTernary gasR x y T (dms_l p) = Some M -> product2 M F 0 1 = product2 F M 0 1) ->
  let f := pick dr (ebs_flux b (dn p) cl ca d) i j in 0 <= production F (f 1%Z) (f 2%Z) (slope b cl dr i j 0) (slope b cl dr i j 1).
Proof. exact flux_dissipates. Qed.
Print Assumptions C123_dissipates_partial.

(** C123: elsewhere they may not: an ideal solution of one mobile and two less mobile species with a slope of one composition. *)
Theorem C123_dissipates_refuted : forall gasR T, 0 < gasR -> 0 < T -> exists p A B C d, initialize (abc_flat 1) = Some A /\ initialize (abc_flat (1 / 10)) = Some B /\ C = B /\
  p = mk_diff_in 2 (ideal3 gasR) (ideal3 gasR) [A; B; C] [A; B; C] /\
  setDiffusion gasR LINEAR "a" unit_box p (fun _ _ => 0) (fun _ _ => T) step_c step_c no_pfm no_pfm = Some d /\
  (forall i j, 0 < step_c i j 0%Z /\ 0 < step_c i j 1%Z /\ 0 < 1 - step_c i j 0%Z - step_c i j 1%Z) /\
  let F := ideal3 gasR T (mean_c step_c DX 0 0) in let f := fst (ebs_flux unit_box 2 step_c step_c d) 0%Z 0%Z in
  convex_at (ideal3 gasR) T (mean_c step_c DX 0 0) /\ production F (f 1%Z) (f 2%Z) (slope unit_box step_c DX 0 0 0) (slope unit_box step_c DX 0 0 1) < 0.
Proof. exact flux_disorders. Qed.
Print Assumptions C123_dissipates_refuted.

(** a binary ideal solution with equal mobilities in both phases, 1/4 below the face and 3/4 above *)
Definition jump : arr3 := fun i _ _ => if (i <? 0)%Z then 1 / 4 else 3 / 4.
Example C123_ex : exists m d, initialize (ab_flat 1) = Some m /\
  setDiffusion 8 LINEAR "a" unit_box (mk_diff_in 1 (fun T c _ => ideal2 8 T (c 0%Z)) (fun T c _ => ideal2 8 T (c 0%Z)) [m; m] [m; m]) (fun _ _ => 0) (fun _ _ => 1000) jump jump no_pfm no_pfm = Some d /\
  fst (ebs_flux unit_box 1 jump jump d) 0%Z 0%Z 1%Z = 10 ^ 12 * (1 / 2).
Proof.
  destruct (C121_binary 8 _ _ _ _ (ab_flat_two 1) ltac:(apply flat_good; lra) ltac:(apply flat_good; lra) no_good ltac:(lra)) as (m & E & V0).
  assert (V : forall T x, 0 < T -> 0 <= x <= 1 -> getAtomicMobility2 8 m x (1 - x) T = Some (1 / (8 * T))).
  { intros T x HT Hx. rewrite V0 by lra. f_equal. f_equal.
    replace (binary_barrier 8 T (flat 1) (flat 1) no_terms x / (8 * T)) with 0; [apply exp_0 |].
    unfold binary_barrier, interaction, barrier, linear, flat. cbn [sum_f_R0 pow fst snd given no_terms]. rewrite ln_1. field. lra. }
  pose (p := mk_diff_in 1 (fun T c _ => ideal2 8 T (c 0%Z)) (fun T c _ => ideal2 8 T (c 0%Z)) [m; m] [m; m]).
  assert (R : forall i j k, 0 <= jump i j k <= 1) by (intros i j k; unfold jump; destruct (i <? 0)%Z; lra).
  assert (Mp : forall T c, 0 < T -> (forall k : Z, 0 <= c k <= 1) -> exists M, mobilityPhase 8 (dn p) c T [m; m] = Some M).
  { intros T c HT Hc. unfold mobilityPhase. cbn [dn p Z.eqb Pos.eqb]. unfold mobilityBinary. rewrite unit_yes by apply Hc. cbv zeta. rewrite !V by (try exact HT; apply Hc). cbn [bind]. eauto. }
  destruct (set_some 8 unit_box p (fun _ _ => 0) (fun _ _ => 1000) jump jump no_pfm no_pfm R R Mp Mp ltac:(intros; lra)) as (d & Ed).
  exists m, d. split; [exact E |]. split; [exact Ed |].
  assert (Hm : mean_c jump DX 0 0 0%Z = 1 / 2) by (unfold mean_c, mean, low, lower, jump; cbn [fst snd Z.sub Z.opp Z.add Z.ltb Z.compare]; lra).
  assert (ET : mean_T (fun _ _ => 1000) DX 0 0 = 1000) by (unfold mean_T, mean, low; lra).
  pose proof (C123_darken 8 LINEAR "a"%char unit_box p (fun _ _ => 0) (fun _ _ => 1000) jump jump no_pfm no_pfm d DX 0%Z 0%Z m m (1 / 8000) (1 / 8000) ltac:(lra) eq_refl
    ltac:(unfold spacing, unit_box; cbn [h1]; lra) Ed ltac:(left; reflexivity) ltac:(cbn; tauto)) as H. cbv zeta in H.
  assert (V1 : getAtomicMobility2 8 m (1 / 2) (1 - 1 / 2) 1000 = Some (1 / 8000)) by (rewrite V by lra; f_equal; f_equal; lra).
  rewrite ET, Hm in H. cbn [dn dms_l dF_l pick p] in H. rewrite Hm in H.
  rewrite H; [| unfold on_face, x_face, in_box, unit_box; cbn [lo0 hi0 lo1 hi1]; lia | unfold low; lra | lra | reflexivity | lra | reflexivity | exact V1 | exact V1].
  unfold tracer, slope, low, lower, jump, spacing, unit_box. cbn [fst snd h1 Z.sub Z.opp Z.add Z.ltb Z.compare]. field.
Qed.
(** one percent beyond the pure element passes the checks of the cells, but stops *)
Example C123_ex_margin : forall m, all_tolerated 1 (fun _ => - (1 / 100)) = true /\
  setDiffusion 8 LINEAR "a" unit_box (mk_diff_in 1 (fun T c _ => 1) (fun T c _ => 1) [m; m] [m; m]) (fun _ _ => 0) (fun _ _ => 1000) (fun _ _ _ => - (1 / 100)) (fun _ _ _ => 0) no_pfm no_pfm = None.
Proof.
  intros m. split.
  - unfold all_tolerated. apply forallb_forall. intros k _. unfold tolerated. destruct (Rle_dec (- (5 / 100)) (- (1 / 100))); [| exfalso; lra]. destruct (Rle_dec (- (1 / 100)) (105 / 100)); [reflexivity | exfalso; lra].
  - apply C123_margin_refuted with (dr := DX) (i := 0%Z) (j := 0%Z); [lra | reflexivity | left; reflexivity | cbn; tauto | unfold on_face, x_face, in_box, unit_box; cbn [lo0 hi0 lo1 hi1]; lia |].
    left. unfold mean_c, mean, low. lra.
Qed.

(** C124: thermal diffusion cannot be used: with its parameters in the input every form of the equation stops. *)
Theorem C124_thermal_refuted : forall f db b a temp mq0 mq1 flux v, db "gradT_Q0"%string = Some v -> flux_on_patch f db b a temp mq0 mq1 flux = None.
Proof. exact thermal_stops. Qed.
Print Assumptions C124_thermal_refuted.

(** C124: without them the flux is that of the composition, but one of the accepted forms cannot be used at all. *)
Theorem C124_absent : forall f db b a temp mq0 mq1 flux, db "gradT_Q0"%string = None ->
  flux_on_patch f db b a temp mq0 mq1 flux = match f with SPINODAL => None | _ => Some flux end.
Proof. exact thermal_absent. Qed.
Print Assumptions C124_absent.

(** C124: the class meant for it would not return from its diffusion coefficients. *)
Theorem C124_recursion_refuted : forall (S : Type) (g : S -> S) fuel s, setDiffusionCoeff fuel g s = None.
Proof. exact recursion_endless. Qed.
Print Assumptions C124_recursion_refuted.

(** C124: the kernel adds a flux against the relative slope of the temperature, times the coefficient of the face. *)
Theorem C124_kernel_partial : forall b a temp mq0 mq1 flux dr i j, In a averages -> 0 < spacing b dr -> on_face b dr i j ->
  avg_threshold <= temp i j -> avg_threshold <= low temp dr i j ->
  exists out, add_flux_gradT b a temp mq0 mq1 flux = Some out /\
    exists m, 0 < m /\ between (low temp dr i j) (temp i j) m /\
      pick dr out i j = pick dr flux i j - pick dr (mq0, mq1) i j * ((temp i j - low temp dr i j) / spacing b dr) / m.
Proof. exact thermal_kernel. Qed.
Print Assumptions C124_kernel_partial.

Example C124_ex : flux_on_patch EBS (of_list [("gradT_Q0", [1]); ("gradT_Q1", [2])]%string) unit_box "a" (fun _ _ => 1000) (fun _ _ => 1) (fun _ _ => 1) (fun _ _ => 0, fun _ _ => 0) = None.
Proof. apply C124_thermal_refuted with (v := [1]). reflexivity. Qed.
(** no flux at uniform temperature *)
Example C124_ex_kernel : exists out, add_flux_gradT unit_box "a" (fun _ _ => 1000) (fun _ _ => 1) (fun _ _ => 1) (fun _ _ => 5, fun _ _ => 5) = Some out /\ fst out 0%Z 0%Z = 5.
Proof.
  destruct (C124_kernel_partial unit_box "a" (fun _ _ => 1000) (fun _ _ => 1) (fun _ _ => 1) (fun _ _ => 5, fun _ _ => 5) DX 0%Z 0%Z) as (out & E & m & P & _ & V).
  - cbn; tauto.
  - unfold spacing, unit_box; cbn [h1]; lra.
  - unfold on_face, x_face, in_box, unit_box; cbn [lo0 hi0 lo1 hi1]; lia.
  - unfold avg_threshold; lra.
  - unfold low, avg_threshold; lra.
  - exists out. split; [exact E |]. cbn [pick fst] in V. rewrite V. unfold low, spacing, unit_box. cbn [h1]. field. lra.
Qed.
