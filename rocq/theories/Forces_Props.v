(** C22, C57, C58: rigid-body pair forces and the motion they cause. *)
From Coq Require Import Reals ZArith List Lra Lia.
From Verif Require Import Grid_Model Grid_Spec Grid_Proofs Forces_Model Forces_Spec Forces_Proofs.
Import ListNotations.
Open Scope R_scope.

(** C22: 2D Wang force on grain i from grain j, summed over all patches of all ranks, for any number of grains, components, patches and ranks. *)
Theorem C22_wang_value_2d : forall n nc rhoe cth stiff ranks i j d, (0 <= i < n)%Z -> (0 <= j < n)%Z -> (0 <= d < 2)%Z ->
  pair_force (wang_forces2 n nc rhoe cth) 2 n stiff ranks i j d =
  if (i =? j)%Z then 0 else stiff * sum_over (sum_over (fun p => wang_pair2 nc rhoe cth p (i + 1) (j + 1) d)) ranks.
Proof. exact wang2_pair_value. Qed.
Print Assumptions C22_wang_value_2d.

(** C22: 3D. *)
Theorem C22_wang_value_3d : forall n nc rhoe cth stiff ranks i j d, (0 <= i < n)%Z -> (0 <= j < n)%Z -> (0 <= d < 3)%Z ->
  pair_force (wang_forces3 n nc rhoe cth) 3 n stiff ranks i j d =
  if (i =? j)%Z then 0 else stiff * sum_over (sum_over (fun p => wang_pair3 nc rhoe cth p (i + 1) (j + 1) d)) ranks.
Proof. exact wang3_pair_value. Qed.
Print Assumptions C22_wang_value_3d.

(** C22: action equals minus reaction. *)
Theorem C22_newton_2d : forall n nc rhoe cth stiff ranks i j d, (0 <= i < n)%Z -> (0 <= j < n)%Z -> (0 <= d < 2)%Z ->
  pair_force (wang_forces2 n nc rhoe cth) 2 n stiff ranks i j d = - pair_force (wang_forces2 n nc rhoe cth) 2 n stiff ranks j i d.
Proof. exact wang2_newton. Qed.
Print Assumptions C22_newton_2d.

(** C22: 3D. *)
Theorem C22_newton_3d : forall n nc rhoe cth stiff ranks i j d, (0 <= i < n)%Z -> (0 <= j < n)%Z -> (0 <= d < 3)%Z ->
  pair_force (wang_forces3 n nc rhoe cth) 3 n stiff ranks i j d = - pair_force (wang_forces3 n nc rhoe cth) 3 n stiff ranks j i d.
Proof. exact wang3_newton. Qed.
Print Assumptions C22_newton_3d.

(** C22: the internal forces cancel: the forces on all grains add up to the external one. *)
Theorem C22_total_force_2d : forall n nc rhoe cth stiff ranks ext d, (0 <= n)%Z -> (0 <= d < 2)%Z ->
  sumZ 0 (n - 1) (fun i => grain_force n ext (pair_force (wang_forces2 n nc rhoe cth) 2 n stiff ranks) i d) = IZR n * ext d.
Proof. intros. apply total_force; [auto |]. intros. apply wang2_newton; auto. Qed.
Print Assumptions C22_total_force_2d.
Theorem C22_total_force_3d : forall n nc rhoe cth stiff ranks ext d, (0 <= n)%Z -> (0 <= d < 3)%Z ->
  sumZ 0 (n - 1) (fun i => grain_force n ext (pair_force (wang_forces3 n nc rhoe cth) 3 n stiff ranks) i d) = IZR n * ext d.
Proof. intros. apply total_force; [auto |]. intros. apply wang3_newton; auto. Qed.
Print Assumptions C22_total_force_3d.

(** C22: value of the 2D phi-phi pair force. *)
Theorem C22_phiphi_value_2d : forall n dgamma m stiff ranks i j d, (0 <= i < n)%Z -> (0 <= j < n)%Z -> (0 <= d < 2)%Z -> i <> j ->
  pair_force (phiphi_forces2 n dgamma m) 2 n stiff ranks i j d =
  stiff * sum_over (sum_over (fun p => phiphi_pair2 dgamma m p (i + 1) (j + 1) d)) ranks.
Proof. exact phiphi2_pair_value. Qed.
Print Assumptions C22_phiphi_value_2d.

(** C22: the phi-phi forces are not antisymmetric, even on a periodic box with phi1 + phi2 <= 1. *)
Theorem C22_phiphi_newton_refuted : pair_force (phiphi_forces2 2 1 1) 2 2 1 [[three_cells]] 0 1 0 = 1 / 16 /\
  pair_force (phiphi_forces2 2 1 1) 2 2 1 [[three_cells]] 1 0 0 = - (1 / 32).
Proof. exact phiphi2_not_newton. Qed.
Print Assumptions C22_phiphi_newton_refuted.

Example C22_ex : (* one interface cell between two grains, dense: equal and opposite non-zero forces *)
  let p := Patch2 0 0 0 0 1 1 (fun i _ p => if (p =? 1)%Z then (1 - IZR i) / 2 else (1 + IZR i) / 2) (fun _ _ _ => 1) (fun _ _ => 1) in
  pair_force (wang_forces2 2 1 (1 / 2) (1 / 4)) 2 2 8 [[p]] 0 1 0 = - 2 /\ pair_force (wang_forces2 2 1 (1 / 2) (1 / 4)) 2 2 8 [[p]] 1 0 0 = 2.
Proof.
  cbv zeta. rewrite !C22_wang_value_2d by lia. change ((0 =? 1)%Z) with false. change ((1 =? 0)%Z) with false. cbv iota.
  cbn [sum_over fold_right]. unfold wang_pair2, sum_box, grad2. cbn [plo0 pup0 plo1 pup1 pdx0 pdx1 pphi pconc pweight].
  assert (S : smooth_step (1 / 2) = 1 / 2) by (unfold smooth_step; destruct (Rle_dec (1 / 2) 0); [lra |]; destruct (Rle_dec 1 (1 / 2)); lra).
  assert (M : Rmin (1 + 0) 1 = 1) by (rewrite Rmin_right; lra).
  split; rewrite !sumZ_cons, !sumZ_empty by lia; change ((0 =? 0)%Z) with true; change ((0 + 1 =? 1)%Z) with true; change ((1 + 1 =? 1)%Z) with false; cbv iota;
    rewrite M, ?plus_IZR, ?minus_IZR;
    match goal with |- context [smooth_step ?x] => replace x with (1 / 2) by lra end; rewrite S; lra.
Qed.

(** C57: 3D phi-phi forces of two grains: the force on the first grain is stored one entry early, so its x gets the y component, its y the z component and its z nothing; the second grain gets its own components. *)
Theorem C57_phiphi_3d_misplaced_refuted : forall dgamma m stiff ranks,
  let F := pair_force (phiphi_forces3 2 dgamma m) 3 2 stiff ranks in
  let expected i j d := stiff * sum_over (sum_over (fun p => phiphi_pair3 dgamma m (unweighted p) (i + 1) (j + 1) d)) ranks in
  F 0%Z 1%Z 0%Z = expected 0%Z 1%Z 1%Z /\ F 0%Z 1%Z 1%Z = expected 0%Z 1%Z 2%Z /\ F 0%Z 1%Z 2%Z = 0 /\
  F 1%Z 0%Z 0%Z = expected 1%Z 0%Z 0%Z /\ F 1%Z 0%Z 1%Z = expected 1%Z 0%Z 1%Z /\ F 1%Z 0%Z 2%Z = expected 1%Z 0%Z 2%Z.
Proof. exact phiphi3_two_grains. Qed.
Print Assumptions C57_phiphi_3d_misplaced_refuted.

(** C57: the 3D phi-phi forces do not see the cell weights: covered coarse cells count too and the cell volume is missing. *)
Theorem C57_phiphi_3d_weight_refuted : forall n dgamma m p w f, phiphi_forces3 n dgamma m (reweight3 p w) f = phiphi_forces3 n dgamma m p f.
Proof. exact phiphi3_weight_ignored. Qed.
Print Assumptions C57_phiphi_3d_weight_refuted.

Example C57_ex : (* two grains varying only along x: the x force on the first grain is lost *)
  let ph : arr4 := fun i _ _ p => if (p =? 1)%Z then (1 - IZR i) / 2 else (1 + IZR i) / 2 in
  let p := Patch3 0 0 0 0 0 0 1 1 1 ph (fun _ _ _ _ => 0) (fun _ _ _ => 1) in
  pair_force (phiphi_forces3 2 1 1) 3 2 1 [[p]] 0 1 0 = 0 /\ phiphi_pair3 1 1 p 1 2 0 = 1 / 16.
Proof.
  cbv zeta. split.
  - rewrite (proj1 (C57_phiphi_3d_misplaced_refuted 1 1 1 _)). cbn [sum_over fold_right].
    unfold phiphi_pair3, sum_box3, grad3, unweighted, reweight3. cbn [qlo0 qup0 qlo1 qup1 qlo2 qup2 qdx0 qdx1 qdx2 qphi qweight].
    rewrite !sumZ_cons, !sumZ_empty by lia. change ((1 =? 0)%Z) with false. change ((1 =? 1)%Z) with true. cbv iota. lra.
  - unfold phiphi_pair3, sum_box3, grad3. cbn [qlo0 qup0 qlo1 qup1 qlo2 qup2 qdx0 qdx1 qdx2 qphi qweight].
    rewrite !sumZ_cons, !sumZ_empty by lia. change ((0 =? 0)%Z) with true. change ((1 =? 1)%Z) with true. change ((2 =? 1)%Z) with false. cbv iota. rewrite plus_IZR, minus_IZR. lra.
Qed.

(** C58: rigid motion adds -v.grad(phi) on the box and nothing elsewhere. *)
Theorem C58_rate : forall lo0 hi0 lo1 hi1 dx0 dx1 phase v0 v1 rhs,
  sets_box lo0 hi0 lo1 hi1 rhs (addrbmotion lo0 hi0 lo1 hi1 dx0 dx1 phase v0 v1 rhs)
    (fun i j => rhs i j - (v0 * grad2 dx0 dx1 phase 0 i j + v1 * grad2 dx0 dx1 phase 1 i j)).
Proof. exact rb_value. Qed.
Print Assumptions C58_rate.

(** C58: on a periodic box of any size, rigid motion with any velocity keeps the volume of the grain. *)
Theorem C58_volume_kept : forall lo0 hi0 lo1 hi1 dx0 dx1 phase v0 v1 rhs, (lo0 <= hi0)%Z -> (lo1 <= hi1)%Z ->
  (forall i j, phase (i + (hi0 - lo0 + 1))%Z j = phase i j) -> (forall i j, phase i (j + (hi1 - lo1 + 1))%Z = phase i j) ->
  sum_box lo0 hi0 lo1 hi1 (addrbmotion lo0 hi0 lo1 hi1 dx0 dx1 phase v0 v1 rhs) = sum_box lo0 hi0 lo1 hi1 rhs.
Proof. exact rb_volume. Qed.
Print Assumptions C58_volume_kept.

(** C58: volume-weighted velocities add up to mobility times the external forces. *)
Theorem C58_momentum_2d : forall n nc rhoe cth stiff ranks ext mob vol d, (0 <= n)%Z -> (0 <= d < 2)%Z -> (forall i, (0 <= i < n)%Z -> vol i <> 0) ->
  sumZ 0 (n - 1) (fun i => vol i * grain_velocity mob vol (grain_force n ext (pair_force (wang_forces2 n nc rhoe cth) 2 n stiff ranks)) i d) =
  mob * (IZR n * ext d).
Proof. intros. rewrite total_momentum by auto. rewrite C22_total_force_2d by auto. reflexivity. Qed.
Print Assumptions C58_momentum_2d.
Theorem C58_momentum_3d : forall n nc rhoe cth stiff ranks ext mob vol d, (0 <= n)%Z -> (0 <= d < 3)%Z -> (forall i, (0 <= i < n)%Z -> vol i <> 0) ->
  sumZ 0 (n - 1) (fun i => vol i * grain_velocity mob vol (grain_force n ext (pair_force (wang_forces3 n nc rhoe cth) 3 n stiff ranks)) i d) =
  mob * (IZR n * ext d).
Proof. intros. rewrite total_momentum by auto. rewrite C22_total_force_3d by auto. reflexivity. Qed.
Print Assumptions C58_momentum_3d.

Example C58_ex : (* period four, one full cell moving right: the cell behind loses, the cell ahead gains *)
  let ph : arr2 := fun i _ => if (i mod 4 =? 1)%Z then 1 else 0 in
  let r := addrbmotion 0 3 0 0 1 1 ph 1 0 (fun _ _ => 0) in
  r 0%Z 0%Z = - (1 / 2) /\ r 1%Z 0%Z = 0 /\ r 2%Z 0%Z = 1 / 2 /\ sum_box 0 3 0 0 r = 0.
Proof.
  cbv zeta. split; [| split; [| split]].
  4: { rewrite C58_volume_kept; [ | lia | lia | |]; cycle 1.
       - intros i j. replace (i + (3 - 0 + 1))%Z with (i + 1 * 4)%Z by lia. rewrite Z.mod_add by lia. reflexivity.
       - reflexivity.
       - unfold sum_box. rewrite !sumZ_zero. reflexivity. }
  all: match goal with |- addrbmotion ?a ?b ?c ?d ?e ?f ?g ?h ?k ?r ?x ?y = _ => rewrite (proj1 (C58_rate a b c d e f g h k r x y)) by (split; lia) end;
    unfold grad2; cbn -[Rdiv Rmult Rplus Rminus]; lra.
Qed.
