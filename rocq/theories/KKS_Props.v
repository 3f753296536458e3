(** C76-C80: driving force of the phase fields in alloys. *)
From Coq Require Import Reals ZArith List Bool Ascii Lra Lia.
From Coquelicot Require Import Coquelicot.
From Verif Require Import Grid_Model Grid_Spec Grid_Proofs Functions_Model Functions_Spec Functions_Proofs Tilting_Model Tilting_Spec Tilting_Proofs
  ThreePhase_Model ThreePhase_Proofs PhaseFlow_Model PhaseFlow_Spec PhaseFlow_Proofs KKS_Model KKS_Spec KKS_Proofs.
From Verif Require Energy_Model.
Import ListNotations.
Open Scope R_scope.

(** C76: with one molar volume and one interpolation type, the force of the three binary strategies is minus the derivative of the energy density of the two phases in equilibrium at constant composition. *)
Theorem C76_gradient : forall s lib vm it b temp phi cl ca fl fa rhs rhs' i j c comp,
  in_cells b i j -> interp_slope_ok it (phi i j) ->
  solved lib (temp i j) [PhL; PhA] (split2 it) (phi i j) c comp ->
  cl i j = comp PhL (phi i j) -> ca i j = comp PhA (phi i j) ->
  kks_rhs s lib vm vm it b temp phi cl ca fl fa rhs = Some rhs' ->
  derivable_pt_lim (density lib (temp i j) (fun _ => per_volume vm) [PhL; PhA] (weights2 (fun x => val (interp_func x it))) comp) (phi i j)
    (- (rhs' i j - rhs i j)).
Proof. exact kks_gradient. Qed.
Print Assumptions C76_gradient.

(** C76: the same for two compositions. *)
Theorem C76_ternary : forall lib vm it b temp phi cl0 cl1 ca0 ca1 fl fa rhs rhs' i j c0 c1 u0 u1,
  in_cells b i j -> interp_slope_ok it (phi i j) ->
  solved2 lib (temp i j) [PhL; PhA] (split2 it) (phi i j) c0 c1 u0 u1 ->
  cl0 i j = u0 PhL (phi i j) -> ca0 i j = u0 PhA (phi i j) -> cl1 i j = u1 PhL (phi i j) -> ca1 i j = u1 PhA (phi i j) ->
  kks_rhs_ternary lib vm vm it b temp phi cl0 cl1 ca0 ca1 fl fa rhs = Some rhs' ->
  derivable_pt_lim (density2 lib (temp i j) (fun _ => per_volume vm) [PhL; PhA] (weights2 (fun x => val (interp_func x it))) u0 u1) (phi i j)
    (- (rhs' i j - rhs i j)).
Proof. exact ternary_gradient. Qed.
Print Assumptions C76_ternary.

(** C76: other cells are not written. *)
Theorem C76_only : forall s lib vml vma it b temp phi cl ca fl fa rhs rhs' i j, ~ in_cells b i j ->
  kks_rhs s lib vml vma it b temp phi cl ca fl fa rhs = Some rhs' -> rhs' i j = rhs i j.
Proof. exact kks_only. Qed.
Print Assumptions C76_only.

Definition C76_w (s : R) : R := val (interp_func s "l").
Example C76_ex : exists rhs', kks_rhs Quadratic parab (/ (1000000 * 1)) (/ (1000000 * 1)) "l" unit_box (fun _ _ => 0) (fun _ _ => 1 / 2) (fun _ _ => 1 / 2) (fun _ _ => 3 / 2) (fun _ _ => 7) (fun _ _ => 8) (fun _ _ => 1) = Some rhs' /\
  rhs' 0%Z 0%Z - 1 = 1 / 2 /\ solved parab 0 [PhL; PhA] (split2 "l") (1 / 2) 1 (split_comp 1 C76_w) /\
  derivable_pt_lim (density parab 0 (fun _ => 1) [PhL; PhA] (weights2 C76_w) (split_comp 1 C76_w)) (1 / 2) (- (1 / 2)).
Proof.
  destruct (kks_rhs Quadratic parab (/ (1000000 * 1)) (/ (1000000 * 1)) "l" unit_box (fun _ _ => 0) (fun _ _ => 1 / 2) (fun _ _ => 1 / 2) (fun _ _ => 3 / 2) (fun _ _ => 7) (fun _ _ => 8) (fun _ _ => 1)) as [rhs' |] eqn:E; [| discriminate E].
  exists rhs'. split; [reflexivity |].
  assert (V : rhs' 0%Z 0%Z - 1 = 1 / 2).
  { pose proof (kks_val _ _ _ _ _ _ _ _ _ _ _ _ _ _ _ _ unit_in E) as V. cbv beta in V. rewrite V, (proj1 half_deriv).
    cbn [mu_phase molar dmolar parab]. rewrite !per_volume_micro by lra. field. }
  split; [exact V |].
  assert (D : derivable_pt_lim C76_w (1 / 2) 1).
  { pose proof (slope_interp "l" (1 / 2)) as D. rewrite (proj1 half_deriv) in D. apply D. right. split; [reflexivity | lra]. }
  assert (S : solved parab 0 [PhL; PhA] (split2 "l") (1 / 2) 1 (split_comp 1 C76_w)).
  { apply (parab_solved 1 0 (1 / 2) C76_w (split2 "l") 1 D). apply around_all. intros s. split; reflexivity. }
  split; [exact S |].
  pose proof (kks_gradient Quadratic parab (/ (1000000 * 1)) "l" unit_box (fun _ _ => 0) (fun _ _ => 1 / 2) (fun _ _ => 1 / 2) (fun _ _ => 3 / 2) (fun _ _ => 7) (fun _ _ => 8) (fun _ _ => 1) rhs' 0%Z 0%Z 1 (split_comp 1 C76_w) unit_in) as G.
  cbv beta in G. rewrite V, per_volume_micro in G by lra. apply G; auto.
  - right. split; [reflexivity | lra].
  - cbn [split_comp]. unfold C76_w. rewrite half_l. lra.
  - cbn [split_comp]. unfold C76_w. rewrite half_l. lra.
Qed.

(** C76, negative: if the phase compositions are solved with another interpolation type than the energy's, the force is not minus the derivative of the energy density, whichever of the two types weights it. *)
Theorem C76_two_types_refuted : exists lib vm b temp phi cl ca fl fa rhs rhs' i j c comp, 0 < vm /\ in_cells b i j /\ 0 < phi i j < 1 /\
  solved lib (temp i j) [PhL; PhA] (split2 "l") (phi i j) c comp /\ cl i j = comp PhL (phi i j) /\ ca i j = comp PhA (phi i j) /\
  kks_rhs Calphad lib vm vm "p" b temp phi cl ca fl fa rhs = Some rhs' /\
  forall t, In t ["l"; "p"]%char ->
  ~ derivable_pt_lim (density lib (temp i j) (fun _ => per_volume vm) [PhL; PhA] (weights2 (fun x => val (interp_func x t))) comp) (phi i j) (- (rhs' i j - rhs i j)).
Proof. exact kks_two_types. Qed.
Print Assumptions C76_two_types_refuted.

(** C76, negative: with different molar volumes (the solver equates potentials per mole, the energy is per volume) the force is not minus the derivative. *)
Theorem C76_volumes_refuted : exists lib vml vma b temp phi cl ca fl fa rhs i j c comp, 0 < vml /\ 0 < vma /\ in_cells b i j /\ 0 < phi i j < 1 /\
  solved lib (temp i j) [PhL; PhA] (split2 "l") (phi i j) c comp /\ cl i j = comp PhL (phi i j) /\ ca i j = comp PhA (phi i j) /\
  forall s, exists rhs', kks_rhs s lib vml vma "l" b temp phi cl ca fl fa rhs = Some rhs' /\
  ~ derivable_pt_lim (density lib (temp i j) (fun k => per_volume (match k with PhL => vml | _ => vma end)) [PhL; PhA] (weights2 (fun x => val (interp_func x "l"))) comp)
    (phi i j) (- (rhs' i j - rhs i j)).
Proof. exact kks_volumes. Qed.
Print Assumptions C76_volumes_refuted.

(** C77: with equal potentials of the phases (per volume) the force has the sign of the difference of the grand potentials, and vanishes exactly when one line is tangent to both energy curves. *)
Theorem C77_direction : forall s lib vml vma it b temp phi cl ca fl fa rhs rhs' i j m, in_cells b i j -> 0 < phi i j < 1 -> In it ["l"; "p"; "h"]%char ->
  per_volume vml * dmolar lib PhL (temp i j) (cl i j) = m -> per_volume vma * dmolar lib PhA (temp i j) (ca i j) = m ->
  kks_rhs s lib vml vma it b temp phi cl ca fl fa rhs = Some rhs' ->
  let gl := per_volume vml * molar lib PhL (temp i j) (cl i j) - m * cl i j in
  let ga := per_volume vma * molar lib PhA (temp i j) (ca i j) - m * ca i j in
  (ga < gl <-> rhs i j < rhs' i j) /\ (gl < ga <-> rhs' i j < rhs i j) /\
  ((forall x, per_volume vml * molar lib PhL (temp i j) (cl i j) + m * (x - cl i j) = per_volume vma * molar lib PhA (temp i j) (ca i j) + m * (x - ca i j)) <->
   rhs' i j = rhs i j).
Proof. exact kks_direction. Qed.
Print Assumptions C77_direction.

(** C77: with types 'p' and 'h' there is no force in the pure phases or beyond. *)
Theorem C77_pure : forall s lib vml vma it b temp phi cl ca fl fa rhs rhs' i j, in_cells b i j -> phi i j <= 0 \/ 1 <= phi i j -> In it ["p"; "h"]%char ->
  kks_rhs s lib vml vma it b temp phi cl ca fl fa rhs = Some rhs' -> rhs' i j = rhs i j.
Proof. exact kks_pure. Qed.
Print Assumptions C77_pure.

Example C77_ex : exists rhs' rhs'', kks_rhs Calphad parab (/ (1000000 * 1)) (/ (1000000 * 1)) "p" unit_box (fun _ _ => 0) (fun _ _ => 1 / 2) (fun _ _ => 1 / 2) (fun _ _ => 3 / 2) (fun _ _ => 0) (fun _ _ => 0) (fun _ _ => 0) = Some rhs' /\
  0 < rhs' 0%Z 0%Z /\
  kks_rhs Calphad parab (/ (1000000 * 1)) (/ (1000000 * 1)) "p" unit_box (fun _ _ => 0) (fun _ _ => 1 / 2) (fun _ _ => 0) (fun _ _ => 1) (fun _ _ => 0) (fun _ _ => 0) (fun _ _ => 0) = Some rhs'' /\
  rhs'' 0%Z 0%Z = 0.
Proof.
  destruct (kks_rhs Calphad parab (/ (1000000 * 1)) (/ (1000000 * 1)) "p" unit_box (fun _ _ => 0) (fun _ _ => 1 / 2) (fun _ _ => 1 / 2) (fun _ _ => 3 / 2) (fun _ _ => 0) (fun _ _ => 0) (fun _ _ => 0)) as [r |] eqn:E; [| discriminate E].
  destruct (kks_rhs Calphad parab (/ (1000000 * 1)) (/ (1000000 * 1)) "p" unit_box (fun _ _ => 0) (fun _ _ => 1 / 2) (fun _ _ => 0) (fun _ _ => 1) (fun _ _ => 0) (fun _ _ => 0) (fun _ _ => 0)) as [r' |] eqn:E'; [| discriminate E'].
  exists r, r'. split; [reflexivity |]. split; [| split; [reflexivity |]].
  - pose proof (fun A B C D => kks_direction Calphad parab _ _ "p" unit_box _ _ _ _ _ _ _ r 0 0 (1 / 2) unit_in A B C D E) as D. cbv beta in D.
    rewrite !per_volume_micro in D by lra. cbn [molar dmolar parab] in D.
    specialize (D ltac:(lra) ltac:(cbn; auto) ltac:(lra) ltac:(lra)). destruct D as [D _]. apply D. lra.
  - pose proof (fun A B C D => kks_direction Calphad parab _ _ "p" unit_box _ _ _ _ _ _ _ r' 0 0 0 unit_in A B C D E') as D. cbv beta in D.
    rewrite !per_volume_micro in D by lra. cbn [molar dmolar parab] in D.
    specialize (D ltac:(lra) ltac:(cbn; auto) ltac:(lra) ltac:(lra)). destruct D as (_ & _ & D). apply D. intros x. field.
Qed.

(** C78: with two solid phases and any numbers of order parameters, the force on each order parameter is minus the derivative of the energy density of the phases in equilibrium, weighted by the squares. *)
Theorem C78_gradient : forall lib vm b nA n temp phi comps fl fa fb rhs i j p c comp, in_cells b i j -> (0 <= nA <= n - 1)%Z -> (0 <= p <= n - 1)%Z ->
  square_sum 0 (n - 1) (phi i j) <> 0 ->
  solved lib (temp i j) [PhL; PhA; PhB] (fun s => split_multi3 nA n (with_component (phi i j) p s)) (phi i j p) c comp ->
  (forall k, comps k i j = comp k (phi i j p)) ->
  derivable_pt_lim (density lib (temp i j) (fun _ => per_volume vm) [PhL; PhA; PhB] (fun s => square_weights nA n (with_component (phi i j) p s)) comp) (phi i j p)
    (- (calphad_multi lib vm vm b nA n temp phi (comps PhL) (comps PhA) (Some (vm, comps PhB, fb)) fl fa rhs i j p - rhs i j p)).
Proof. exact multi3_gradient. Qed.
Print Assumptions C78_gradient.

(** C78: the same for two compositions. *)
Theorem C78_ternary : forall lib vm b nA n temp phi k0 k1 f rhs i j p c0 c1 u0 u1, in_cells b i j -> (0 <= nA <= n - 1)%Z -> (0 <= p <= n - 1)%Z ->
  square_sum 0 (n - 1) (phi i j) <> 0 ->
  solved2 lib (temp i j) [PhL; PhA; PhB] (fun s => split_multi3 nA n (with_component (phi i j) p s)) (phi i j p) c0 c1 u0 u1 ->
  (forall k, k0 k i j = u0 k (phi i j p)) -> (forall k, k1 k i j = u1 k (phi i j p)) ->
  derivable_pt_lim (density2 lib (temp i j) (fun _ => per_volume vm) [PhL; PhA; PhB] (fun s => square_weights nA n (with_component (phi i j) p s)) u0 u1) (phi i j p)
    (- (ternary_multi lib (fun _ => vm) b nA n temp phi k0 k1 f rhs i j p - rhs i j p)).
Proof. exact ternary_multi_gradient. Qed.
Print Assumptions C78_ternary.

(** C78: for one solid grain and its melt with fractions adding up to one, and composition interpolation 'm', the two-phase strategies give minus the derivative along the fraction. *)
Theorem C78_single_grain : forall lib vm b temp phi cl ca fl fa rhs i j x c comp, in_cells b i j -> 0 < x < 1 ->
  phi i j 0%Z = x -> phi i j 1%Z = 1 - x -> solved lib (temp i j) [PhL; PhA] (fun s => split_multi2 "m" 2 (pair s)) x c comp ->
  cl i j = comp PhL x -> ca i j = comp PhA x ->
  let e := density lib (temp i j) (fun _ => per_volume vm) [PhL; PhA] (fun s => square_weights 1 2 (pair s)) comp in
  let r1 := calphad_multi lib vm vm b 1 2 temp phi cl ca None fl fa rhs in
  let r2 := quadratic_multi lib vm vm b 2 temp phi cl ca fl fa rhs in
  derivable_pt_lim e x (- ((r1 i j 0%Z - rhs i j 0%Z) - (r1 i j 1%Z - rhs i j 1%Z))) /\
  derivable_pt_lim e x (- ((r2 i j 0%Z - rhs i j 0%Z) - (r2 i j 1%Z - rhs i j 1%Z))).
Proof. exact pair_gradient. Qed.
Print Assumptions C78_single_grain.

(** C78: the forces weighted by the order parameters add up to zero. *)
Theorem C78_balance_calphad : forall lib vml vma b nA n temp phi cl ca B fl fa rhs i j, in_cells b i j -> (0 <= nA <= n - 1)%Z -> square_sum 0 (n - 1) (phi i j) <> 0 ->
  sumZ 0 (n - 1) (fun q => phi i j q * (calphad_multi lib vml vma b nA n temp phi cl ca B fl fa rhs i j q - rhs i j q)) = 0.
Proof. exact calphad_balance. Qed.
Print Assumptions C78_balance_calphad.

(** C78: the same for the quadratic energies. *)
Theorem C78_balance_quadratic : forall lib vml vma b n temp phi cl ca fl fa rhs i j, in_cells b i j -> (1 <= n)%Z -> square_sum 0 (n - 1) (phi i j) <> 0 ->
  sumZ 0 (n - 1) (fun q => phi i j q * (quadratic_multi lib vml vma b n temp phi cl ca fl fa rhs i j q - rhs i j q)) = 0.
Proof. exact quadratic_balance. Qed.
Print Assumptions C78_balance_quadratic.

(** C78: the same for two compositions. *)
Theorem C78_balance_ternary : forall lib vm b nA n temp phi c0 c1 f rhs i j, in_cells b i j -> (0 <= nA <= n - 1)%Z -> square_sum 0 (n - 1) (phi i j) <> 0 ->
  sumZ 0 (n - 1) (fun q => phi i j q * (ternary_multi lib vm b nA n temp phi c0 c1 f rhs i j q - rhs i j q)) = 0.
Proof. exact ternary_balance. Qed.
Print Assumptions C78_balance_ternary.

(** C78: no other cell or component is written. *)
Theorem C78_only : forall lib lib2 vml vma vm b nA n temp phi cl ca B fl fa c0 c1 f rhs i j q, ~ (in_cells b i j /\ (0 <= q <= n - 1)%Z) ->
  calphad_multi lib vml vma b nA n temp phi cl ca B fl fa rhs i j q = rhs i j q /\
  quadratic_multi lib vml vma b n temp phi cl ca fl fa rhs i j q = rhs i j q /\
  ternary_multi lib2 vm b nA n temp phi c0 c1 f rhs i j q = rhs i j q.
Proof. exact multi_only. Qed.
Print Assumptions C78_only.

Example C78_ex : forall rhs, let r := calphad_multi parab (/ (1000000 * 1)) (/ (1000000 * 1)) unit_box 1 3 (fun _ _ => 0) (fun _ _ _ => 1) (fun _ _ => 1 / 2) (fun _ _ => 3 / 2)
    (Some (/ (1000000 * 1), (fun _ _ => 1 / 2), (fun _ _ => 0))) (fun _ _ => 0) (fun _ _ => 0) rhs in
  r 0%Z 0%Z 0%Z - rhs 0%Z 0%Z 0%Z = 2 / 9 /\ r 0%Z 0%Z 1%Z - rhs 0%Z 0%Z 1%Z = - (1 / 9) /\ r 0%Z 0%Z 2%Z - rhs 0%Z 0%Z 2%Z = - (1 / 9).
Proof.
  intros rhs r. unfold r, calphad_multi. cbv zeta. rewrite !multi_cells_val by (try exact unit_in; lia). rewrite !multi_forces3_val by lia.
  assert (S : square_sum 0 (3 - 1) (fun _ => 1) = 3).
  { change (3 - 1)%Z with 2%Z. unfold square_sum. rewrite (sumZ_cons 0 2), (sumZ_cons (0 + 1) 2) by lia. rewrite (sumZ_cons (0 + 1 + 1) 2) by lia. rewrite sumZ_empty by lia. ring. }
  assert (S0 : square_sum 0 (1 - 1) (fun _ => 1) = 1) by (unfold square_sum; rewrite (sumZ_cons 0 (1 - 1)), sumZ_empty by lia; ring).
  assert (S1 : square_sum 1 (3 - 2) (fun _ => 1) = 1) by (unfold square_sum; rewrite (sumZ_cons 1 (3 - 2)), sumZ_empty by lia; ring).
  rewrite !energy_val by exact unit_in. unfold computeMu. rewrite !inv_vm_eq. unfold square_weights. rewrite S, S0, S1. rewrite !per_volume_micro by lra.
  cbn [molar dmolar parab total fold_right of_phase]. unfold phase_of. cbn [Z.sub Z.add Z.opp Z.pos_sub Z.eqb Z.ltb Z.compare Pos.eqb Pos.compare Pos.compare_cont Pos.pred_double of_phase].
  repeat split; field.
Qed.

(** C78, negative: with the usual composition interpolation 'p' the two-phase strategies give neither the derivative of the energy weighted by the squares nor that of the energy weighted as the solver weights it. *)
Theorem C78_two_phase_refuted : exists lib vm b temp phi cl ca fl fa rhs i j x c comp, 0 < vm /\ in_cells b i j /\ 0 < x < 1 /\
  phi i j 0%Z = x /\ phi i j 1%Z = 1 - x /\ solved lib (temp i j) [PhL; PhA] (fun s => split_multi2 "p" 2 (pair s)) x c comp /\
  cl i j = comp PhL x /\ ca i j = comp PhA x /\
  forall G, In G [fun s => square_weights 1 2 (pair s); fun s => split_multi2 "p" 2 (pair s)] ->
  let e := density lib (temp i j) (fun _ => per_volume vm) [PhL; PhA] G comp in
  let r1 := calphad_multi lib vm vm b 1 2 temp phi cl ca None fl fa rhs in
  let r2 := quadratic_multi lib vm vm b 2 temp phi cl ca fl fa rhs in
  ~ derivable_pt_lim e x (- ((r1 i j 0%Z - rhs i j 0%Z) - (r1 i j 1%Z - rhs i j 1%Z))) /\
  ~ derivable_pt_lim e x (- ((r2 i j 0%Z - rhs i j 0%Z) - (r2 i j 1%Z - rhs i j 1%Z))).
Proof. exact pair_types. Qed.
Print Assumptions C78_two_phase_refuted.

(** C79: if the compositions are shared with the tilting weights, the forces on the three phase fractions add up to zero and give minus the derivative of the energy density along every direction that keeps their sum. *)
Theorem C79_gradient_partial : forall T lib vm b temp phi comps f rhs i j c comp v0 v1 v2, in_cells b i j ->
  on_simplex (phi i j 1%Z) (phi i j 2%Z) (phi i j 3%Z) -> v0 + v1 + v2 = 0 ->
  solved lib (temp i j) [PhL; PhA; PhB] (fun s => tilt_weights T (phi i j 1%Z + s * v0) (phi i j 2%Z + s * v1) (phi i j 3%Z + s * v2)) 0 c comp ->
  (forall k, comps k i j = comp k 0) ->
  let d q := calphad_three T lib (fun _ => vm) b temp phi comps f rhs i j q - rhs i j q in
  d 1%Z + d 2%Z + d 3%Z = 0 /\
  derivable_pt_lim (density lib (temp i j) (fun _ => per_volume vm) [PhL; PhA; PhB]
    (fun s => tilt_weights T (phi i j 1%Z + s * v0) (phi i j 2%Z + s * v1) (phi i j 3%Z + s * v2)) comp) 0
    (- (d 1%Z * v0 + d 2%Z * v1 + d 3%Z * v2)).
Proof. exact three_gradient. Qed.
Print Assumptions C79_gradient_partial.

(** C79: on the edge between liquid and phase A this holds with the weights the solver uses (type 'p'). *)
Theorem C79_edge : forall lib vm b temp phi comps f rhs i j c comp x, in_cells b i j -> 0 < x < 1 ->
  phi i j 1%Z = 1 - x -> phi i j 2%Z = x -> phi i j 3%Z = 0 ->
  solved lib (temp i j) [PhL; PhA; PhB] (fun s => split3 "p" (1 - (x + s)) (x + s) 0) 0 c comp -> (forall k, comps k i j = comp k 0) ->
  let d q := calphad_three FolchPlapp lib (fun _ => vm) b temp phi comps f rhs i j q - rhs i j q in
  d 1%Z + d 2%Z + d 3%Z = 0 /\
  derivable_pt_lim (density lib (temp i j) (fun _ => per_volume vm) [PhL; PhA; PhB] (fun s => split3 "p" (1 - (x + s)) (x + s) 0) comp) 0 (- (d 2%Z - d 1%Z)).
Proof. exact three_edge. Qed.
Print Assumptions C79_edge.

(** C79: there the solver's weights are those of Folch and Plapp, on every edge. *)
Theorem C79_edges : forall x k, 0 <= x <= 1 ->
  split3 "p" (1 - x) x 0 k = tilt_weights FolchPlapp (1 - x) x 0 k /\ split3 "p" (1 - x) 0 x k = tilt_weights FolchPlapp (1 - x) 0 x k /\
  split3 "p" 0 (1 - x) x k = tilt_weights FolchPlapp 0 (1 - x) x k.
Proof. exact edge_weights. Qed.
Print Assumptions C79_edges.

Example C79_ex : forall rhs, let r := calphad_three FolchPlapp parab (fun _ => / (1000000 * 1)) unit_box (fun _ _ => 0) (fun _ _ q => if (q =? 3)%Z then 0 else 1 / 2)
    (fun k _ _ => match k with PhA => 3 / 2 | _ => 1 / 2 end) (fun _ _ _ => 0) rhs in
  r 0%Z 0%Z 1%Z - rhs 0%Z 0%Z 1%Z = - (15 / 32) /\ r 0%Z 0%Z 2%Z - rhs 0%Z 0%Z 2%Z = 15 / 32 /\ r 0%Z 0%Z 3%Z - rhs 0%Z 0%Z 3%Z = 0.
Proof.
  intros rhs r. unfold r. rewrite !three_val by (try exact unit_in; lia). cbn [Z.eqb Pos.eqb molar dmolar parab]. rewrite !per_volume_micro by lra.
  unfold driving_force_cell, pick. cbn [dg0dp0 dg0dp1 Z.eqb Pos.eqb]. unfold fp_dg0dp1, fp_dg0dp0.
  repeat match goal with |- context [Rlt_dec ?a ?b] => destruct (Rlt_dec a b); [try (exfalso; lra) | try (exfalso; lra)] end. repeat split; field.
Qed.

(** C79, negative: inside the triangle the solver's weights do not add up to one: phases that all share one composition x are given x different from the average c. *)
Theorem C79_weights_refuted : exists p0 p1 p2, on_simplex p0 p1 p2 /\ total [PhL; PhA; PhB] (split3 "p" p0 p1 p2) <> 1 /\
  forall c x, c <> 0 -> total [PhL; PhA; PhB] (fun k => split3 "p" p0 p1 p2 k * x) = c -> x <> c.
Proof. exact three_weights. Qed.
Print Assumptions C79_weights_refuted.

(** C80: the energies and the phase compositions are computed with the same library class except for one composition with CALPHAD, several order parameters, and either one solid phase or a sublattice database. *)
Theorem C80_agree : forall p, (1 <= norderp_in p)%Z ->
  (energy_class p = composition_class p <->
   ~ (model p = CALPHAD /\ ncompositions p = 1%Z /\ (1 < norderp_in p)%Z /\ (withPhaseB p = false \/ sublattice p = true))).
Proof. exact classes_agree. Qed.
Print Assumptions C80_agree.

Example C80_ex : let p := mk_alloy 1 None false 1 CALPHAD true in energy_class p = Binary2Ph1Sl /\ composition_class p = Binary2Ph1Sl /\
  withPhaseB (mk_alloy 5 (Some 2%Z) false 1 CALPHAD false) = true.
Proof. repeat split. Qed.

(** C80, negative: with several order parameters and no sublattice the energies come from the two-phase sublattice class and the compositions from the plain one; with a sublattice database and two solid phases the other way round. *)
Theorem C80_differ_refuted : exists p q, (1 <= norderp_in p)%Z /\ (1 <= norderp_in q)%Z /\
  sublattice p = false /\ energy_class p = Binary2Ph1Sl /\ composition_class p = Binary /\
  sublattice q = true /\ energy_class q = BinaryThreePhase /\ composition_class q = Binary3Ph2Sl.
Proof. exact classes_differ. Qed.
Print Assumptions C80_differ_refuted.
