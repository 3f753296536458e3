(** C07-C11, C47-C50: pointwise functions of source/fortran/functions.f. *)
From Coq Require Import Reals ZArith Ascii List Lra Lia.
From Verif Require Import Functions_Model Functions_Spec Functions_Proofs.
Import ListNotations.
Open Scope R_scope.

(** C07: both-side clamped types are symmetric interpolations on all reals. *)
Theorem C07_clamped_types : forall type, In type ["p"; "h"; "l"; "m"]%char ->
  exists f, value_of (fun x => interp_func x type) f /\ interpolation f /\ symmetric01 f.
Proof. exact interp_clamped. Qed.
Print Assumptions C07_clamped_types.

(** C07: types clamped from below only, valid for phi <= 1. *)
Theorem C07_half_clamped_types : forall type, In type ["q"; "w"; "3"]%char ->
  exists f, value_of (fun x => interp_func x type) f /\ interpolation_upto1 f.
Proof. exact interp_half_clamped. Qed.
Print Assumptions C07_half_clamped_types.

(** C07: beyond phi = 1 'q' leaves [0,1] and 'w' becomes negative. *)
Theorem C07_overshoot_refuted : (exists x y, 1 < x /\ interp_func x "q" = Some y /\ 1 < y) /\
  (exists x y, 1 < x /\ interp_func x "w" = Some y /\ y < 0).
Proof. exact interp_overshoot_refuted. Qed.
Print Assumptions C07_overshoot_refuted.

(** C07: type 's' does not vanish for negative phi. *)
Theorem C07_s_negative_refuted : exists x y, x < 0 /\ interp_func x "s" = Some y /\ y <> 0.
Proof. exact interp_s_negative_refuted. Qed.
Print Assumptions C07_s_negative_refuted.

Example C07_ex : exists f, value_of (fun x => interp_func x "p") f /\ f (1 / 2) = 1 / 2 /\ f 7 = 1.
Proof.
  destruct (C07_clamped_types "p" ltac:(cbn; auto)) as (f & Hv & (H0 & H1 & Hr & Hm) & Hs).
  exists f. split; [exact Hv |]. split; [| apply H1; lra].
  pose proof (Hs (1 / 2)) as Hh. replace (1 - 1 / 2) with (1 / 2) in Hh by lra. lra.
Qed.

(** C08: first derivative routine, every real argument. *)
Theorem C08_first_derivatives : forall type x, In type ["q"; "p"; "h"; "w"; "m"; "3"; "c"]%char ->
  derivative_at (fun y => interp_func y type) (fun y => deriv_interp_func y type) x.
Proof. exact deriv_interp_ok. Qed.
Print Assumptions C08_first_derivatives.

(** C08: linear type, inside. *)
Theorem C08_linear_inside_partial : forall x, 0 < x < 1 ->
  derivative_at (fun y => interp_func y "l") (fun y => deriv_interp_func y "l") x.
Proof. exact deriv_interp_l. Qed.
Print Assumptions C08_linear_inside_partial.

(** C08: linear type, outside [0,1]: the value is constant, the derivative routine returns 1. *)
Theorem C08_linear_outside_refuted : exists x, derivable_pt_lim (fun y => match interp_func y "l" with Some v => v | None => 0 end) x 0 /\
            deriv_interp_func x "l" = Some 1.
Proof. exact deriv_interp_l_refuted. Qed.
Print Assumptions C08_linear_outside_refuted.

(** C08: log-cosh type for phi >= 0. *)
Theorem C08_logcosh_partial : forall x, 0 <= x ->
  derivative_at (fun y => interp_func y "s") (fun y => deriv_interp_func y "s") x.
Proof. exact deriv_interp_s. Qed.
Print Assumptions C08_logcosh_partial.

(** C08: log-cosh type for phi < 0: routine returns 0, the slope is not 0. *)
Theorem C08_logcosh_negative_refuted : exists x d, derivable_pt_lim (fun y => match interp_func y "s" with Some v => v | None => 0 end) x d /\
              d <> 0 /\ deriv_interp_func x "s" = Some 0.
Proof. exact deriv_interp_s_refuted. Qed.
Print Assumptions C08_logcosh_negative_refuted.

(** C08: second derivative of 'p', every real argument. *)
Theorem C08_second_p : forall x,
  derivative_at (fun y => deriv_interp_func y "p") (fun y => second_deriv_interp_func y "p") x.
Proof. exact second_deriv_p. Qed.
Print Assumptions C08_second_p.

(** C08: second derivatives, inside the physical range. *)
Theorem C08_second_inside_partial : forall type x, In type ["q"; "h"; "w"; "l"; "c"]%char -> 0 < x < 1 ->
  derivative_at (fun y => deriv_interp_func y type) (fun y => second_deriv_interp_func y type) x.
Proof. exact second_deriv_inside. Qed.
Print Assumptions C08_second_inside_partial.

(** C08: second derivatives of 'h' and 'w' outside the range. *)
Theorem C08_second_outside_refuted : (exists x d, derivable_pt_lim (fun y => match deriv_interp_func y "h" with Some v => v | None => 0 end) x 0 /\
             second_deriv_interp_func x "h" = Some d /\ d <> 0) /\
  (exists x d, derivable_pt_lim (fun y => match deriv_interp_func y "w" with Some v => v | None => 0 end) x 0 /\
             second_deriv_interp_func x "w" = Some d /\ d <> 0).
Proof. exact second_deriv_outside_refuted. Qed.
Print Assumptions C08_second_outside_refuted.

(** C08: three types have a first but no second derivative; the program stops. *)
Theorem C08_second_missing_refuted : forall x type, In type ["m"; "3"; "s"]%char ->
  deriv_interp_func x type <> None /\ second_deriv_interp_func x type = None.
Proof. exact second_deriv_missing_refuted. Qed.
Print Assumptions C08_second_missing_refuted.

(** C08: wells, first and second derivative everywhere. *)
Theorem C08_wells : forall type x, In type ["d"; "s"]%char ->
  derivative_at (fun y => well_func y type) (fun y => deriv_well_func y type) x /\
  derivative_at (fun y => deriv_well_func y type) (fun y => second_deriv_well_func y type) x.
Proof. exact well_derivs. Qed.
Print Assumptions C08_wells.

Example C08_ex : deriv_interp_func (1 / 2) "p" = Some (30 / 16).
Proof. cbn. rewrite clamp01_mid by lra. f_equal. lra. Qed.

(** C09: double well. *)
Theorem C09_double_well : forall x, exists w, well_func x "d" = Some w /\ 0 <= w /\ (w = 0 <-> x = 0 \/ x = 1).
Proof. exact well_d_min. Qed.
Print Assumptions C09_double_well.

(** C09: single well. *)
Theorem C09_single_well : forall x, exists w, well_func x "s" = Some w /\ 0 <= w /\ (w = 0 <-> x = 1).
Proof. exact well_s_min. Qed.
Print Assumptions C09_single_well.

(** C09: zero slope and positive curvature at the minima. *)
Theorem C09_minima_stationary : forall type x w, well_func x type = Some w -> w = 0 ->
  deriv_well_func x type = Some 0 /\ exists c, second_deriv_well_func x type = Some c /\ 0 < c.
Proof. exact well_stationary. Qed.
Print Assumptions C09_minima_stationary.

Example C09_ex : exists w, well_func 1 "d" = Some w /\ w = 0.
Proof. eexists. split; [reflexivity | ring]. Qed.

(** C10: arithmetic average. *)
Theorem C10_arithmetic : forall a b, exists v, average_func a b "a" = Some v /\ Rmin a b <= v <= Rmax a b.
Proof. exact average_arith. Qed.
Print Assumptions C10_arithmetic.

(** C10: harmonic average, with its cut-off. *)
Theorem C10_harmonic : forall a b, 0 <= a -> 0 <= b ->
  exists v, average_func a b "h" = Some v /\
    0 <= v <= Rmax a b /\ Rmin a b - avg_threshold <= v /\
    (avg_threshold <= a -> avg_threshold <= b -> Rmin a b <= v) /\
    (a < avg_threshold \/ b < avg_threshold -> v = 0).
Proof. exact average_harm. Qed.
Print Assumptions C10_harmonic.

(** C10: symmetric in the two cells. *)
Theorem C10_symmetric : forall a b type, average_func a b type = average_func b a type.
Proof. exact average_symmetric. Qed.
Print Assumptions C10_symmetric.

(** C10: reproduces a common value. *)
Theorem C10_reproduces : forall a type v, avg_threshold <= a -> average_func a a type = Some v -> v = a.
Proof. exact average_same. Qed.
Print Assumptions C10_reproduces.

Example C10_ex : exists v, average_func 1 3 "h" = Some v /\ 1 <= v <= 3.
Proof.
  destruct (C10_harmonic 1 3 ltac:(lra) ltac:(lra)) as (v & Hv & (_ & H3) & _ & H1 & _).
  exists v. split; [exact Hv |]. rewrite Rmax_right in H3 by lra. rewrite Rmin_left in H1 by lra.
  assert (Ht : avg_threshold <= 1).
  { unfold avg_threshold. rewrite <- Rinv_1. apply Rinv_le_contravar; [lra |]. apply pow_R1_Rle. lra. }
  split; [apply H1; lra | exact H3].
Qed.

(** C11: 2D storage index. *)
Theorem C11_storage_2d : forall i j, (1 <= i <= 3)%Z -> (1 <= j <= 3)%Z ->
  storage_index_stiffness2d i j = storage_index_stiffness2d j i /\
  (1 <= storage_index_stiffness2d i j <= 6)%Z.
Proof. exact storage2d_ok. Qed.
Print Assumptions C11_storage_2d.

(** C11: 2D, distinct unordered pairs get distinct slots. *)
Theorem C11_storage_2d_injective : forall i j k l, (1 <= i <= j)%Z -> (j <= 3)%Z -> (1 <= k <= l)%Z -> (l <= 3)%Z ->
  storage_index_stiffness2d i j = storage_index_stiffness2d k l -> i = k /\ j = l.
Proof. exact storage2d_inj. Qed.
Print Assumptions C11_storage_2d_injective.

(** C11: 3D storage index. *)
Theorem C11_storage_3d : forall i j, (1 <= i <= 6)%Z -> (1 <= j <= 6)%Z ->
  storage_index_stiffness3d i j = storage_index_stiffness3d j i /\
  (1 <= storage_index_stiffness3d i j <= 21)%Z.
Proof. exact storage3d_ok. Qed.
Print Assumptions C11_storage_3d.

(** C11: 3D, distinct unordered pairs get distinct slots. *)
Theorem C11_storage_3d_injective : forall i j k l, (1 <= i <= j)%Z -> (j <= 6)%Z -> (1 <= k <= l)%Z -> (l <= 6)%Z ->
  storage_index_stiffness3d i j = storage_index_stiffness3d k l -> i = k /\ j = l.
Proof. exact storage3d_inj. Qed.
Print Assumptions C11_storage_3d_injective.

(** C11: Voigt maps are symmetric. *)
Theorem C11_voigt_2d : forall i j, (1 <= i <= 2)%Z -> (1 <= j <= 2)%Z ->
  single_index_stiffness2d i j = single_index_stiffness2d j i /\
  (1 <= single_index_stiffness2d i j <= 3)%Z.
Proof. exact single2d_ok. Qed.
Print Assumptions C11_voigt_2d.

(** C11: every 2D Voigt index comes from exactly one unordered pair. *)
Theorem C11_voigt_2d_bijective : forall v, (1 <= v <= 3)%Z ->
  exists i j, (1 <= i <= j)%Z /\ (j <= 2)%Z /\ single_index_stiffness2d i j = v /\
    (forall k l, (1 <= k <= l)%Z -> (l <= 2)%Z -> single_index_stiffness2d k l = v -> k = i /\ l = j).
Proof. exact single2d_onto. Qed.
Print Assumptions C11_voigt_2d_bijective.

(** C11: 3D Voigt map. *)
Theorem C11_voigt_3d : forall i j, (1 <= i <= 3)%Z -> (1 <= j <= 3)%Z ->
  single_index_stiffness3d i j = single_index_stiffness3d j i /\
  (1 <= single_index_stiffness3d i j <= 6)%Z.
Proof. exact single3d_ok. Qed.
Print Assumptions C11_voigt_3d.

(** C11: every 3D Voigt index comes from exactly one unordered pair. *)
Theorem C11_voigt_3d_bijective : forall v, (1 <= v <= 6)%Z ->
  exists i j, (1 <= i <= j)%Z /\ (j <= 3)%Z /\ single_index_stiffness3d i j = v /\
    (forall k l, (1 <= k <= l)%Z -> (l <= 3)%Z -> single_index_stiffness3d k l = v -> k = i /\ l = j).
Proof. exact single3d_onto. Qed.
Print Assumptions C11_voigt_3d_bijective.

Example C11_ex : storage_index_stiffness3d 4 2 = 9%Z /\ single_index_stiffness3d 2 3 = 4%Z.
Proof. split; reflexivity. Qed.

(** C47: arithmetic face average; [v] is the average, [a] the cell the derivative is taken by (quatdiffusion.m4:86-100). *)
Theorem C47_arithmetic_derivative : forall a b,
  exists v d, average_func a b "a" = Some v /\ deriv_average_func v a "a" = Some d /\
    derivable_pt_lim (fun x => match average_func x b "a" with Some y => y | None => 0 end) a d.
Proof. exact deriv_average_arith. Qed.
Print Assumptions C47_arithmetic_derivative.

(** C47: harmonic face average: the routine is right only between equal cells. *)
Theorem C47_harmonic_derivative_partial : forall a b v d,
  avg_threshold < a -> avg_threshold <= b ->
  average_func a b "h" = Some v -> deriv_average_func v a "h" = Some d ->
  (derivable_pt_lim (fun x => match average_func x b "h" with Some y => y | None => 0 end) a d <-> a = b).
Proof. exact deriv_average_harm. Qed.
Print Assumptions C47_harmonic_derivative_partial.

(** C47: hence false in general. *)
Theorem C47_harmonic_derivative_refuted : exists a b v d, 0 < a /\ 0 < b /\
    average_func a b "h" = Some v /\ deriv_average_func v a "h" = Some d /\
    ~ derivable_pt_lim (fun x => match average_func x b "h" with Some y => y | None => 0 end) a d.
Proof. exact deriv_average_harm_refuted. Qed.
Print Assumptions C47_harmonic_derivative_refuted.

(** C48: ratio of interpolations times the linear one is the other one. *)
Theorem C48_ratio : forall x, exists r p l,
  interp_ratio_func x "p" "l" = Some r /\ interp_func x "p" = Some p /\ interp_func x "l" = Some l /\
  r * l = p.
Proof. exact interp_ratio_pl. Qed.
Print Assumptions C48_ratio.

(** C48: same for the complements. *)
Theorem C48_complement_ratio : forall x, exists r p l,
  compl_interp_ratio_func x "p" "l" = Some r /\ interp_func x "p" = Some p /\ interp_func x "l" = Some l /\
  r * (1 - l) = 1 - p.
Proof. exact compl_interp_ratio_pl. Qed.
Print Assumptions C48_complement_ratio.

(** C48: equal types have ratio one. *)
Theorem C48_same_type : forall x type, interp_ratio_func x type type = Some 1 /\
  compl_interp_ratio_func x type type = Some 1.
Proof. exact interp_ratio_same. Qed.
Print Assumptions C48_same_type.

Example C48_ex : interp_ratio_func (1 / 2) "p" "l" = Some 1.
Proof. cbn. rewrite clamp01_mid by lra. f_equal. lra. Qed.

(** C49: the limited inverse is bounded, and is the inverse away from zero. *)
Theorem C49_bounded : forall v,
  Rabs (limitedinverse v) <= 10 ^ 4 /\ (/ 10 ^ 4 < Rabs v -> v * limitedinverse v = 1).
Proof. exact limitedinverse_ok. Qed.
Print Assumptions C49_bounded.

(** C49: but it loses the sign of small negative values. *)
Theorem C49_sign_refuted : exists v, v < 0 /\ 0 < limitedinverse v.
Proof. exact limitedinverse_sign_refuted. Qed.
Print Assumptions C49_sign_refuted.

Example C49_ex : / 10 ^ 4 < Rabs (-2) /\ -2 * limitedinverse (-2) = 1.
Proof.
  assert (H : / 10 ^ 4 < Rabs (-2)) by (rewrite Rabs_left by lra; lra).
  split; [exact H | apply C49_bounded; exact H].
Qed.

(** C50: the three-phase well force is the gradient projected on the simplex. *)
Theorem C50_projected_gradient : forall p0 p1 p2 d0 d1 d2,
  derivable_pt_lim (fun x => triple_well x p1 p2) p0 d0 ->
  derivable_pt_lim (fun x => triple_well p0 x p2) p1 d1 ->
  derivable_pt_lim (fun x => triple_well p0 p1 x) p2 d2 ->
  deriv_triple_well_func p0 p1 p2 = d0 - (d0 + d1 + d2) / 3.
Proof. exact triple_well_projected. Qed.
Print Assumptions C50_projected_gradient.

(** C50: such derivatives exist. *)
Theorem C50_gradient_exists : forall p0 p1 p2,
  derivable_pt_lim (fun x => triple_well x p1 p2) p0 (32 * p0 * (1 - p0) * (1 - 2 * p0)) /\
  derivable_pt_lim (fun x => triple_well p0 x p2) p1 (32 * p1 * (1 - p1) * (1 - 2 * p1)) /\
  derivable_pt_lim (fun x => triple_well p0 p1 x) p2 (32 * p2 * (1 - p2) * (1 - 2 * p2)).
Proof. exact d_triple. Qed.
Print Assumptions C50_gradient_exists.

(** C50: the three forces sum to zero. *)
Theorem C50_sum_zero : forall p0 p1 p2,
  deriv_triple_well_func p0 p1 p2 + deriv_triple_well_func p1 p2 p0 + deriv_triple_well_func p2 p0 p1 = 0.
Proof. exact triple_well_sum0. Qed.
Print Assumptions C50_sum_zero.
