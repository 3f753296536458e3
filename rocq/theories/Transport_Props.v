(** C20, C26, C54, C55: composition transport, multi-order and sintering right-hand sides,
    source/fortran/{2d,3d}/concentrationrhs.m4, sintering.m4, multiorder.m4. *)
From Coq Require Import Reals ZArith List Lra Lia.
From Verif Require Import Grid_Model Grid_Spec Grid_Proofs Transport_Model Transport_Spec Transport_Proofs.
Open Scope R_scope.

(** C20: cell values of the right-hand side, nothing else written (2D). *)
Theorem C20_rhs_values : forall lo0 hi0 lo1 hi1 dx0 dx1 f0 f1 mob rhs,
  sets_box lo0 hi0 lo1 hi1 rhs (computerhsconcentration lo0 hi0 lo1 hi1 dx0 dx1 f0 f1 mob rhs)
    (fun i j => mob * diverg dx0 dx1 f0 f1 i j).
Proof. exact rhs_conc_value. Qed.
Print Assumptions C20_rhs_values.

(** C20: balance of a box of any size (2D): only the outer faces count. *)
Theorem C20_mass_balance : forall lo0 hi0 lo1 hi1 dx0 dx1 f0 f1 mob rhs, (lo0 <= hi0 + 1)%Z -> (lo1 <= hi1 + 1)%Z -> dx0 <> 0 -> dx1 <> 0 ->
  let r := computerhsconcentration lo0 hi0 lo1 hi1 dx0 dx1 f0 f1 mob rhs in
  sum_box lo0 hi0 lo1 hi1 (fun i j => r i j * (dx0 * dx1)) =
  mob * (dx1 * sumZ lo1 hi1 (fun j => f0 (hi0 + 1)%Z j - f0 lo0 j) + dx0 * sumZ lo0 hi0 (fun i => f1 i (hi1 + 1)%Z - f1 i lo1)).
Proof. exact mass_balance. Qed.
Print Assumptions C20_mass_balance.

(** C20: opposite faces carry equal flux (periodic, or both closed): the total is unchanged. *)
Theorem C20_mass_conserved : forall lo0 hi0 lo1 hi1 dx0 dx1 f0 f1 mob rhs, (lo0 <= hi0 + 1)%Z -> (lo1 <= hi1 + 1)%Z -> dx0 <> 0 -> dx1 <> 0 ->
  (forall j, (lo1 <= j <= hi1)%Z -> f0 (hi0 + 1)%Z j = f0 lo0 j) ->
  (forall i, (lo0 <= i <= hi0)%Z -> f1 i (hi1 + 1)%Z = f1 i lo1) ->
  sum_box lo0 hi0 lo1 hi1 (computerhsconcentration lo0 hi0 lo1 hi1 dx0 dx1 f0 f1 mob rhs) = 0.
Proof. exact mass_conserved. Qed.
Print Assumptions C20_mass_conserved.

(** C20: flux kernel followed by the right-hand side on periodic data. *)
Theorem C20_periodic_run : forall lo0 hi0 lo1 hi1 dx0 dx1 conc phi d0 d1 c0 c1 f0 f1 mob rhs,
  (lo0 <= hi0)%Z -> (lo1 <= hi1)%Z -> dx0 <> 0 -> dx1 <> 0 ->
  periodic0 (hi0 - lo0 + 1) conc -> periodic1 (hi1 - lo1 + 1) conc ->
  periodic0 (hi0 - lo0 + 1) phi -> periodic1 (hi1 - lo1 + 1) phi ->
  periodic0 (hi0 - lo0 + 1) d0 -> periodic1 (hi1 - lo1 + 1) d1 ->
  periodic0 (hi0 - lo0 + 1) c0 -> periodic1 (hi1 - lo1 + 1) c1 ->
  let (f0', f1') := concentrationflux lo0 hi0 lo1 hi1 dx0 dx1 conc phi d0 d1 c0 c1 f0 f1 in
  sum_box lo0 hi0 lo1 hi1 (computerhsconcentration lo0 hi0 lo1 hi1 dx0 dx1 f0' f1' mob rhs) = 0.
Proof. exact periodic_mass. Qed.
Print Assumptions C20_periodic_run.

(** C20: values of the composition flux on every face of the patch. *)
Theorem C20_flux_values : forall lo0 hi0 lo1 hi1 dx0 dx1 conc phi d0 d1 c0 c1 f0 f1,
  let (f0', f1') := concentrationflux lo0 hi0 lo1 hi1 dx0 dx1 conc phi d0 d1 c0 c1 f0 f1 in
  sets_box lo0 (hi0 + 1) lo1 hi1 f0 f0'
    (fun i j => d0 i j * ((conc i j - conc (i - 1)%Z j) / dx0) + c0 i j * ((phi i j - phi (i - 1)%Z j) / dx0)) /\
  sets_box lo0 hi0 lo1 (hi1 + 1) f1 f1'
    (fun i j => d1 i j * ((conc i j - conc i (j - 1)%Z) / dx1) + c1 i j * ((phi i j - phi i (j - 1)%Z) / dx1)).
Proof. exact conc_flux_value. Qed.
Print Assumptions C20_flux_values.

(** C20: 3D balance. *)
Theorem C20_mass_balance_3d : forall lo0 hi0 lo1 hi1 lo2 hi2 dx0 dx1 dx2 f0 f1 f2 mob rhs,
  (lo0 <= hi0 + 1)%Z -> (lo1 <= hi1 + 1)%Z -> (lo2 <= hi2 + 1)%Z -> dx0 <> 0 -> dx1 <> 0 -> dx2 <> 0 ->
  let r := computerhsconcentration3 lo0 hi0 lo1 hi1 lo2 hi2 dx0 dx1 dx2 f0 f1 f2 mob rhs in
  sum_box3 lo0 hi0 lo1 hi1 lo2 hi2 (fun i j k => r i j k * (dx0 * dx1 * dx2)) =
  mob * (dx1 * dx2 * sum_box lo1 hi1 lo2 hi2 (fun j k => f0 (hi0 + 1)%Z j k - f0 lo0 j k)
         + dx0 * dx2 * sum_box lo0 hi0 lo2 hi2 (fun i k => f1 i (hi1 + 1)%Z k - f1 i lo1 k)
         + dx0 * dx1 * sum_box lo0 hi0 lo1 hi1 (fun i j => f2 i j (hi2 + 1)%Z - f2 i j lo2)).
Proof. exact mass_balance3. Qed.
Print Assumptions C20_mass_balance_3d.

(** C20: 3D, nothing written outside the box. *)
Theorem C20_outside_3d : forall lo0 hi0 lo1 hi1 lo2 hi2 dx0 dx1 dx2 f0 f1 f2 mob rhs i j k,
  ~ in_box3 lo0 hi0 lo1 hi1 lo2 hi2 i j k ->
  computerhsconcentration3 lo0 hi0 lo1 hi1 lo2 hi2 dx0 dx1 dx2 f0 f1 f2 mob rhs i j k = rhs i j k.
Proof. exact rhs_conc_outside3. Qed.
Print Assumptions C20_outside_3d.

Example C20_ex : let f0 : arr2 := fun i _ => if (i =? 1)%Z then 3 else 0 in
  let r := computerhsconcentration 0 1 0 0 (1/2) 1 f0 (fun _ _ => 0) 2 (fun _ _ => 7) in
  r 0%Z 0%Z = 12 /\ r 1%Z 0%Z = - 12 /\ r 2%Z 0%Z = 7.
Proof.
  cbv zeta. split; [| split].
  - rewrite (proj1 (C20_rhs_values 0 1 0 0 (1/2) 1 _ (fun _ _ => 0) 2 (fun _ _ => 7) 0%Z 0%Z)) by (split; lia). unfold diverg. cbn. field.
  - rewrite (proj1 (C20_rhs_values 0 1 0 0 (1/2) 1 _ (fun _ _ => 0) 2 (fun _ _ => 7) 1%Z 0%Z)) by (split; lia). unfold diverg. cbn. field.
  - apply (C20_rhs_values 0 1 0 0 (1/2) 1 _ (fun _ _ => 0) 2 (fun _ _ => 7) 2%Z 0%Z). unfold in_box; lia.
Qed.

(** C26: what the right-hand side is: the factor of the coupling is (sum of squares) - phi, not - phi^2. *)
Theorem C26_rhs_value_partial : forall lo0 hi0 lo1 hi1 n dx0 dx1 f0 f1 gamma m phi w rhs i j p, (1 <= n)%Z -> dx0 <> 0 -> dx1 <> 0 ->
  in_box lo0 hi0 lo1 hi1 i j -> (1 <= p <= n)%Z ->
  computerhsmultiorder lo0 hi0 lo1 hi1 n dx0 dx1 f0 f1 gamma m phi w rhs i j p =
  diverg dx0 dx1 (fun i j => f0 i j p) (fun i j => f1 i j p) i j -
  m * (phi i j p ^ 3 - phi i j p + 2 * gamma * phi i j p * (sq_sum n (phi i j) - phi i j p)).
Proof. exact multiorder_value. Qed.
Print Assumptions C26_rhs_value_partial.

(** C26: the bulk part is the gradient flow of the energy exactly where the order parameter is 0 or 1, so not in any interface. *)
Theorem C26_gradient_flow_refuted : forall lo0 hi0 lo1 hi1 n dx0 dx1 f0 f1 gamma m phi w rhs i j p, (1 <= n)%Z -> dx0 <> 0 -> dx1 <> 0 ->
  in_box lo0 hi0 lo1 hi1 i j -> (1 <= p <= n)%Z -> m <> 0 -> gamma <> 0 ->
  let r := computerhsmultiorder lo0 hi0 lo1 hi1 n dx0 dx1 f0 f1 gamma m phi w rhs i j p in
  derivable_pt_lim (fun x => moelans_energy m gamma n (setZ (phi i j) p x)) (phi i j p)
    (diverg dx0 dx1 (fun i j => f0 i j p) (fun i j => f1 i j p) i j - r) <-> phi i j p = 0 \/ phi i j p = 1.
Proof. exact multiorder_gradient. Qed.
Print Assumptions C26_gradient_flow_refuted.

Example C26_ex : (* two grains, phi = 1/2 each: rhs 3/8 where the gradient flow has 0 *)
  let z := fun _ _ _ : Z => 0 in
  computerhsmultiorder 0 0 0 0 2 1 1 z z (3/2) 1 (fun _ _ _ => 1/2) (fun _ _ => 0) z 0%Z 0%Z 1%Z = 3/8 /\
  derivable_pt_lim (fun x => moelans_energy 1 (3/2) 2 (setZ (fun _ => 1/2) 1%Z x)) (1/2) 0.
Proof.
  cbv zeta. split.
  - rewrite C26_rhs_value_partial by (try split; try lra; lia). unfold diverg, sq_sum. rewrite !sumZ_cons by lia. rewrite sumZ_empty by lia. field.
  - pose proof (moelans_deriv 1 (3/2) 2 (fun _ => 1/2) 1%Z) as H. specialize (H ltac:(lia)).
    replace 0 with (1 * ((1 / 2) ^ 3 - 1 / 2 + 2 * (3 / 2) * (1 / 2) * (sq_sum 2 (fun _ => 1 / 2) - (1 / 2) ^ 2))); [exact H |].
    unfold sq_sum. rewrite !sumZ_cons by lia. rewrite sumZ_empty by lia. field.
Qed.

(** C54: Cahn-Hilliard: every face flux grows by mobility times the face difference of dF/dc - kappa*Laplacian. *)
Theorem C54_flux_is_potential_gradient : forall lo0 hi0 lo1 hi1 dx0 dx1 conc mob ca cb ws kappa s, dx0 <> 0 -> dx1 <> 0 ->
  exists mu,
    (forall i j, exists d, derivable_pt_lim (ch_energy ca cb ws) (conc i j) d /\
       mu i j = d - kappa * laplace dx0 dx1 conc i j) /\
    face_flux lo0 hi0 lo1 hi1 dx0 dx1 (fun _ _ => mob) (fun _ _ => mob) mu s
      (add_cahnhilliard_flux lo0 hi0 lo1 hi1 dx0 dx1 conc mob ca cb ws kappa s).
Proof. exact cahn_hilliard_flux. Qed.
Print Assumptions C54_flux_is_potential_gradient.

(** C54: a uniform composition, whatever its value, drives no flux. *)
Theorem C54_uniform_no_flux : forall lo0 hi0 lo1 hi1 dx0 dx1 c mob ca cb ws kappa s, dx0 <> 0 -> dx1 <> 0 ->
  let s' := add_cahnhilliard_flux lo0 hi0 lo1 hi1 dx0 dx1 (fun _ _ => c) mob ca cb ws kappa s in
  (forall i j, in_box lo0 (hi0 + 1) lo1 hi1 i j -> fst s' i j = fst s i j) /\
  (forall i j, in_box lo0 hi0 lo1 (hi1 + 1) i j -> snd s' i j = snd s i j).
Proof. exact cahn_hilliard_uniform. Qed.
Print Assumptions C54_uniform_no_flux.

Example C54_ex : (* a jump between the two wells: the flux is the gradient term only, kappa/dx^3-sized, and not zero *)
  let c : arr2 := fun i _ => if (i <=? 0)%Z then 0 else 1 in
  let z : arr2 := fun _ _ => 0 in
  fst (add_cahnhilliard_flux 0 1 0 0 1 1 c 1 0 1 4 (1/2) (z, z)) 1%Z 0%Z = 1.
Proof.
  cbv zeta. destruct (C54_flux_is_potential_gradient 0 1 0 0 1 1 (fun i _ => if (i <=? 0)%Z then 0 else 1) 1 0 1 4 (1/2)
    (fun _ _ => 0, fun _ _ => 0) R1_neq_R0 R1_neq_R0) as (mu & Hmu & F & _).
  rewrite F by (split; lia). cbn [fst].
  destruct (Hmu 1%Z 0%Z) as (d & Hd & ->). destruct (Hmu (1 - 1)%Z 0%Z) as (d' & Hd' & ->).
  rewrite (uniqueness_limite _ _ _ _ Hd (ch_deriv 0 1 4 _)), (uniqueness_limite _ _ _ _ Hd' (ch_deriv 0 1 4 _)).
  unfold laplace. cbn. field.
Qed.

(** C55: sintering: the composition flux is the face mobility times the face difference of dF/dc - kappa*Laplacian for F the sintering energy. *)
Theorem C55_flux_from_energy : forall lo0 hi0 lo1 hi1 dx0 dx1 conc d0 d1 n phi mob A B kappa w s, (1 <= n)%Z -> dx0 <> 0 -> dx1 <> 0 ->
  exists mu,
    (forall i j, in_box (lo0 - 1) (hi0 + 1) (lo1 - 1) (hi1 + 1) i j ->
       exists d, derivable_pt_lim (sintering_energy A B n (phi i j)) (conc i j) d /\
       mu i j = d - kappa * laplace dx0 dx1 conc i j) /\
    face_flux lo0 hi0 lo1 hi1 dx0 dx1 (fun i j => mob * d0 i j) (fun i j => mob * d1 i j) mu s
      (add_wang_sintering_flux lo0 hi0 lo1 hi1 dx0 dx1 conc d0 d1 n phi mob A B kappa w s).
Proof. exact sintering_flux. Qed.
Print Assumptions C55_flux_from_energy.

(** C55: and the order parameters follow minus the derivative of the same energy. *)
Theorem C55_rhs_from_energy : forall lo0 hi0 lo1 hi1 n dx0 dx1 f0 f1 beta B phi conc w rhs, (1 <= n)%Z -> dx0 <> 0 -> dx1 <> 0 ->
  let r := computerhs_wang_sintering lo0 hi0 lo1 hi1 n dx0 dx1 f0 f1 beta B phi conc w rhs in
  forall i j p A, in_box lo0 hi0 lo1 hi1 i j -> (1 <= p <= n)%Z ->
    exists d, derivable_pt_lim (fun x => sintering_energy A B n (setZ (phi i j) p x) (conc i j)) (phi i j p) d /\
      r i j p = beta * diverg dx0 dx1 (fun i j => f0 i j p) (fun i j => f1 i j p) i j - d.
Proof. exact sintering_rhs. Qed.
Print Assumptions C55_rhs_from_energy.

Example C55_ex : (* one particle, phi = 1/2, c = 1: driven towards phi = 1 by 3B/2 *)
  let z := fun _ _ _ : Z => 0 in
  computerhs_wang_sintering 0 0 0 0 1 1 1 z z 1 2 (fun _ _ _ => 1/2) (fun _ _ => 1) (fun _ _ => 0) z 0%Z 0%Z 1%Z = 3.
Proof.
  cbv zeta. destruct (C55_rhs_from_energy 0 0 0 0 1 1 1 (fun _ _ _ => 0) (fun _ _ _ => 0) 1 2 (fun _ _ _ => 1/2) (fun _ _ => 1)
    (fun _ _ => 0) (fun _ _ _ => 0) ltac:(lia) R1_neq_R0 R1_neq_R0 0%Z 0%Z 1%Z 1 ltac:(split; lia) ltac:(lia)) as (d & Hd & ->).
  rewrite (uniqueness_limite _ _ _ _ Hd (sinter_deriv_phi 1 2 1 (fun _ => 1/2) 1%Z 1 ltac:(lia))).
  unfold diverg, sq_sum. rewrite sumZ_cons by lia. rewrite sumZ_empty by lia. field.
Qed.
