(** C180-C183: the phase coupling of the composition flux (Kim-Kim-Suzuki and Beckermann). *)
From Coq Require Import Reals ZArith List Bool Ascii Lra Lia.
From Verif Require Import Grid_Model Grid_Spec Functions_Model PhaseFlow_Model Trap3_Model.
From Verif Require Import Coupl_Model Diff3_Spec Coupl_Spec Coupl_Proofs.
Import ListNotations.
Open Scope R_scope.

(** C180: on every side of the patch the coefficient is the diffusion coefficient times the slope of the interpolation at the averaged phase times the difference of the mean phase compositions of the two cells; no other entry changes.  Whatever the ghost widths, in two and three dimensions. *)
Theorem C180_coefficient : forall nd3 b gd gp gc phi c_l c_a d0 it at_ out, room nd3 gd b 0 -> In it interps -> In at_ avgs ->
  exists f, kks_coupling nd3 b gd gp gc phi c_l c_a d0 it at_ out = Some f /\
    (forall d i j k, on_side nd3 b d i j k ->
      side_at nd3 d gd f i j k = side_at nd3 d gd d0 i j k
        * slope it (averaged at_ (low3 (cell_at nd3 gp phi) d i j k) (cell_at nd3 gp phi i j k))
        * (mean (low3 (cell_at nd3 gc c_l) d i j k) (cell_at nd3 gc c_l i j k) - mean (low3 (cell_at nd3 gc c_a) d i j k) (cell_at nd3 gc c_a i j k))) /\
    (forall d n, (forall i j k, on_side nd3 b d i j k -> n <> side_place nd3 d gd i j k) -> pick3 d f n = pick3 d out n).
Proof. exact kks_coefficient. Qed.
Print Assumptions C180_coefficient.

(** C180: the loops read only entries of the arrays and write only entries of the arrays. *)
Theorem C180_memory : forall nd3 b gd gp gc phi c_l c_a d0 phi' c_l' c_a' d0' it at_ out f f',
  room nd3 gd b 0 -> room nd3 gp b 1 -> room nd3 gc b 1 ->
  agree (cells_of nd3 gp) phi phi' -> agree (cells_of nd3 gc) c_l c_l' -> agree (cells_of nd3 gc) c_a c_a' ->
  (forall d, agree (sides_of nd3 d gd) (pick3 d d0) (pick3 d d0')) ->
  kks_coupling nd3 b gd gp gc phi c_l c_a d0 it at_ out = Some f -> kks_coupling nd3 b gd gp gc phi' c_l' c_a' d0' it at_ out = Some f' ->
  (forall d i j k, on_side nd3 b d i j k -> side_at nd3 d gd f i j k = side_at nd3 d gd f' i j k) /\
  (forall d n, ~ (0 <= n < sides_of nd3 d gd)%Z -> pick3 d f n = pick3 d out n).
Proof. exact kks_memory. Qed.
Print Assumptions C180_memory.

(** a box of 2 x 1 x 1 cells with 2 ghost cells for the phase and 1 for the compositions: the z side below the second cell *)
Definition ex_box : box3 := mk_box3 0 1 0 0 0 0 1 1 1.
Example C180_ex : exists f,
  kks_coupling true ex_box (grown ex_box 0) (grown ex_box 2) (grown ex_box 1)
    (fun n => if (n =? cell_place true (grown ex_box 2) 1 0 (-1))%Z then 1 else 0)
    (fun n => if (n =? cell_place true (grown ex_box 1) 1 0 0)%Z then 2 else 0) (fun _ => 0) ones "h" "a" zeros = Some f
  /\ side_at true FZ (grown ex_box 0) f 1 0 0 = 3 / 2.
Proof.
  destruct (C180_coefficient true ex_box (grown ex_box 0) (grown ex_box 2) (grown ex_box 1)
    (fun n => if (n =? cell_place true (grown ex_box 2) 1 0 (-1))%Z then 1 else 0)
    (fun n => if (n =? cell_place true (grown ex_box 1) 1 0 0)%Z then 2 else 0) (fun _ => 0) ones "h" "a" zeros) as (f & E & V & _).
  - apply room_grown. lia.
  - right. right. left. reflexivity.
  - left. reflexivity.
  - exists f. split; [exact E |]. rewrite V by (cbn; unfold in_box3; lia). cbn [low3]. unfold cell_at.
    change (side_at true FZ (grown ex_box 0) ones 1 0 0) with 1. rewrite averaged_a. cbn -[IZR slope mean Rdiv]. rewrite slope_h by (unfold mean; lra). unfold mean. lra.
Qed.

(** C181: with linear interpolation the flux is the sum of the fluxes of the phases, weighted by the phase of the side. *)
Theorem C181_linear : forall nd3 b gp gc gq phi c_l c_a conc d0 at_ out f d i j k,
  kks_coupling nd3 b (grown b 0) gp gc phi c_l c_a d0 "l" at_ out = Some f -> spacing b d <> 0 -> on_side nd3 b d i j k ->
  let P := cell_at nd3 gp phi in let L := cell_at nd3 gc c_l in let A := cell_at nd3 gc c_a in let C := cell_at nd3 gq conc in
  let m := mean (low3 P d i j k) (P i j k) in
  0 <= P i j k <= 1 -> 0 <= low3 P d i j k <= 1 ->
  C i j k = mixture "l" (P i j k) (L i j k) (A i j k) -> low3 C d i j k = mixture "l" (low3 P d i j k) (low3 L d i j k) (low3 A d i j k) ->
  flux_at nd3 b gq gp conc phi d0 f d i j k
    (side_at nd3 d (grown b 0) d0 i j k * ((1 - m) * (L i j k - low3 L d i j k) + m * (A i j k - low3 A d i j k)) / spacing b d).
Proof. exact kks_linear. Qed.
Print Assumptions C181_linear.

(** C181: with any of the interpolations and the arithmetic average, at uniform phase compositions what remains is of third order in the step of the phase. *)
Theorem C181_uniform_partial : forall nd3 b gp gc gq phi c_l c_a conc d0 it out f d i j k cl ca,
  kks_coupling nd3 b (grown b 0) gp gc phi c_l c_a d0 it "a" out = Some f -> In it interps -> 0 < spacing b d -> on_side nd3 b d i j k ->
  let P := cell_at nd3 gp phi in let C := cell_at nd3 gq conc in let D := side_at nd3 d (grown b 0) d0 i j k in
  let s := Rabs (P i j k - low3 P d i j k) in
  0 <= D -> 0 <= P i j k <= 1 -> 0 <= low3 P d i j k <= 1 -> (forall n, c_l n = cl) -> (forall n, c_a n = ca) ->
  C i j k = mixture it (P i j k) cl ca -> low3 C d i j k = mixture it (low3 P d i j k) cl ca ->
  exists v, flux_at nd3 b gq gp conc phi d0 f d i j k v /\ Rabs v <= D / spacing b d * Rabs (ca - cl) * (5 / 2 * (s * s * s)).
Proof. exact kks_uniform. Qed.
Print Assumptions C181_uniform_partial.

(** C181: where the phase does not vary the flux is Fick's. *)
Theorem C181_bulk : forall nd3 b gq gp conc phi d0 coupl d i j k, on_side nd3 b d i j k ->
  cell_at nd3 gp phi i j k = low3 (cell_at nd3 gp phi) d i j k ->
  flux_at nd3 b gq gp conc phi d0 coupl d i j k (side_at nd3 d (grown b 0) d0 i j k * (cell_at nd3 gq conc i j k - low3 (cell_at nd3 gq conc) d i j k) / spacing b d).
Proof. exact flux_bulk. Qed.
Print Assumptions C181_bulk.

(** two cells at equilibrium, half solid and liquid: no flux *)
Example C181_ex : let phi := fun n : Z => if (n =? 4)%Z then 1 / 2 else 0 in let conc := fun n => mixture "l" (phi n) 3 1 in
  exists f, kks_coupling false unit_box (grown unit_box 0) (grown unit_box 1) (grown unit_box 1) phi (fun _ => 3) (fun _ => 1) ones "l" "h" zeros = Some f
  /\ flux_at false unit_box (grown unit_box 1) (grown unit_box 1) conc phi ones f FY 0 0 0 0
  /\ cell_at false (grown unit_box 1) conc 0 0 0 = 2 /\ low3 (cell_at false (grown unit_box 1) conc) FY 0 0 0 = 3.
Proof.
  intros phi conc. destruct (kks_runs false unit_box (grown unit_box 0) (grown unit_box 1) (grown unit_box 1) phi (fun _ => 3) (fun _ => 1) ones "l" "h" zeros) as [f E];
    [right; left; reflexivity | right; left; reflexivity |].
  assert (H : on_side false unit_box FY 0 0 0) by (cbn; unfold in_box; lia).
  assert (V1 : cell_at false (grown unit_box 1) phi 0 0 0 = 1 / 2) by reflexivity.
  assert (V0 : low3 (cell_at false (grown unit_box 1) phi) FY 0 0 0 = 0) by reflexivity.
  exists f. split; [exact E |]. split.
  - eapply flux_is; [eapply (C181_linear false unit_box _ _ (grown unit_box 1) _ _ _ conc _ _ _ f FY 0 0 0 E); [cbn; lra | exact H | | | |] |].
    + rewrite V1. lra.
    + rewrite V0. lra.
    + reflexivity.
    + reflexivity.
    + unfold low3, cell_at. cbn [spacing unit_box hy]. field.
  - unfold low3, cell_at, conc, mixture. change (phi (cell_place false (grown unit_box 1) 0 0 0)) with (1 / 2). change (phi (cell_place false (grown unit_box 1) 0 (0 - 1) 0)) with 0.
    rewrite !weight_l by lra. lra.
Qed.

(** C181, negative: with the polynomial interpolation a step from liquid to solid at equilibrium drives a flux, with both averages. *)
Theorem C181_zero_refuted : forall at_, In at_ avgs -> exists phi conc f v,
  (forall n, 0 <= phi n <= 1) /\ (forall n, conc n = mixture "p" (phi n) 0 1) /\
  kks_coupling true unit_box (grown unit_box 0) (grown unit_box 1) (grown unit_box 1) phi (fun _ => 0) (fun _ => 1) ones "p" at_ zeros = Some f /\
  flux_at true unit_box (grown unit_box 1) (grown unit_box 1) conc phi ones f FX 0 0 0 v /\ 1 / 2 < Rabs v.
Proof. exact kks_zero_refuted. Qed.
Print Assumptions C181_zero_refuted.

(** C182: where the partition coefficients of the two cells behind the side (the x neighbour and the neighbour across the side) are equal, as on every x side, and the composition has the ghost width of the partition coefficient, the coefficient is D (1-k) c / (1-h+kh) of the averages over the side; no other entry changes. *)
Theorem C182_coefficient_partial : forall nd3 ch b gd gp gk phi c k d0 it at_ out, room nd3 gd b 0 -> In it interps -> In at_ avgs -> (forall n, 0 <= k n <= 1) ->
  exists f, beckermann_coupling nd3 ch b gd gp gk phi c k d0 it at_ out = Some f /\
    (forall d i j l, on_side nd3 b d i j l -> cell_at nd3 gk k (i - 1) j l = low3 (cell_at nd3 gk k) d i j l ->
      let kf := averaged at_ (low3 (cell_at nd3 gk k) d i j l) (cell_at nd3 gk k i j l) in
      let hf := weight it (averaged at_ (low3 (cell_at nd3 gp phi) d i j l) (cell_at nd3 gp phi i j l)) in
      let cf := averaged at_ (low3 (cell_at nd3 gk c) d i j l) (cell_at nd3 gk c i j l) in
      side_at nd3 d gd f i j l = side_at nd3 d gd d0 i j l * (1 - kf) * cf / (1 - hf + kf * hf)) /\
    (forall d n, (forall i j l, on_side nd3 b d i j l -> n <> side_place nd3 d gd i j l) -> pick3 d f n = pick3 d out n).
Proof. exact beck_coefficient. Qed.
Print Assumptions C182_coefficient_partial.

(** C182: the run stops exactly if the averaged partition coefficient of an x side is outside [0,1]. *)
Theorem C182_stops : forall nd3 b gd gp gk phi c k d0 it at_ out, In it interps -> In at_ avgs ->
  (beckermann_coupling nd3 true b gd gp gk phi c k d0 it at_ out = None <->
   exists i j l, on_side nd3 b FX i j l /\ ~ (0 <= averaged at_ (cell_at nd3 gk k (i - 1) j l) (cell_at nd3 gk k i j l) <= 1)).
Proof. exact beck_checks. Qed.
Print Assumptions C182_stops.

Example C182_ex : exists f, beckermann_coupling true true unit_box (grown unit_box 0) (grown unit_box 1) (grown unit_box 1) (fun _ => 1 / 2) (fun _ => 3) (fun _ => 1 / 2) ones "l" "a" zeros = Some f
  /\ side_at true FZ (grown unit_box 0) f 0 0 1 = 2.
Proof.
  destruct (C182_coefficient_partial true true unit_box (grown unit_box 0) (grown unit_box 1) (grown unit_box 1) (fun _ => 1 / 2) (fun _ => 3) (fun _ => 1 / 2) ones "l" "a" zeros) as (f & E & V & _).
  - apply room_grown. lia.
  - right. left. reflexivity.
  - left. reflexivity.
  - intro n. lra.
  - exists f. split; [exact E |]. rewrite (V FZ 0 0 1)%Z by (cbn; unfold in_box3; lia || reflexivity). cbn [low3]. unfold cell_at.
    change (side_at true FZ (grown unit_box 0) ones 0 0 1) with 1. rewrite !averaged_a. unfold mean. rewrite weight_l by lra. field.
Qed.

(** C182, negative: on y and z sides the coefficient depends on the partition coefficient of the x neighbour. *)
Theorem C182_neighbour_refuted : forall nd3 d, In (nd3, d) [(false, FY); (true, FY); (true, FZ)] -> exists k k' f f',
  (forall n, 0 <= k n <= 1) /\ (forall n, 0 <= k' n <= 1) /\ on_side nd3 unit_box d 0 0 0 /\
  cell_at nd3 (grown unit_box 1) k 0 0 0 = cell_at nd3 (grown unit_box 1) k' 0 0 0 /\
  low3 (cell_at nd3 (grown unit_box 1) k) d 0 0 0 = low3 (cell_at nd3 (grown unit_box 1) k') d 0 0 0 /\
  beckermann_coupling nd3 true unit_box (grown unit_box 0) (grown unit_box 1) (grown unit_box 1) (fun _ => 0) (fun _ => 1) k ones "l" "a" zeros = Some f /\
  beckermann_coupling nd3 true unit_box (grown unit_box 0) (grown unit_box 1) (grown unit_box 1) (fun _ => 0) (fun _ => 1) k' ones "l" "a" zeros = Some f' /\
  side_at nd3 d (grown unit_box 0) f 0 0 0 = 1 / 2 /\ side_at nd3 d (grown unit_box 0) f' 0 0 0 = 5 / 8.
Proof. exact beck_k_refuted. Qed.
Print Assumptions C182_neighbour_refuted.

(** C182, negative: with two ghost cells for the composition and one for the partition coefficient the coefficient of a side depends on other cells. *)
Theorem C182_ghosts_refuted : forall nd3, exists c c' f f',
  on_side nd3 unit_box FX 0 0 0 /\
  cell_at nd3 (grown unit_box 2) c 0 0 0 = cell_at nd3 (grown unit_box 2) c' 0 0 0 /\
  low3 (cell_at nd3 (grown unit_box 2) c) FX 0 0 0 = low3 (cell_at nd3 (grown unit_box 2) c') FX 0 0 0 /\
  beckermann_coupling nd3 true unit_box (grown unit_box 0) (grown unit_box 1) (grown unit_box 1) (fun _ => 0) c (fun _ => 1 / 2) ones "l" "a" zeros = Some f /\
  beckermann_coupling nd3 true unit_box (grown unit_box 0) (grown unit_box 1) (grown unit_box 1) (fun _ => 0) c' (fun _ => 1 / 2) ones "l" "a" zeros = Some f' /\
  side_at nd3 FX (grown unit_box 0) f 0 0 0 = 1 / 2 /\ side_at nd3 FX (grown unit_box 0) f' 0 0 0 = 3 / 4.
Proof. exact beck_ghosts_refuted. Qed.
Print Assumptions C182_ghosts_refuted.

(** C182, negative: a partition coefficient above one next to a y side is not noticed and makes the coefficient negative. *)
Theorem C182_range_refuted : exists k f, on_side false unit_box FY 0 1 0 /\ ~ (0 <= cell_at false (grown unit_box 1) k 0 1 0 <= 1) /\
  beckermann_coupling false true unit_box (grown unit_box 0) (grown unit_box 1) (grown unit_box 1) (fun _ => 0) (fun _ => 1) k ones "l" "a" zeros = Some f /\
  side_at false FY (grown unit_box 0) f 0 1 0 < 0.
Proof. exact beck_checks_refuted. Qed.
Print Assumptions C182_range_refuted.

(** C183: with linear interpolation, arithmetic average and a uniform partition coefficient there is no flux where the solid has k times the composition of a uniform liquid. *)
Theorem C183_equilibrium_partial : forall nd3 ch b gp gk phi c k d0 out f d i j l cl k0,
  beckermann_coupling nd3 ch b (grown b 0) gp gk phi c k d0 "l" "a" out = Some f -> on_side nd3 b d i j l ->
  0 < k0 <= 1 -> (forall n, k n = k0) ->
  let P := cell_at nd3 gp phi in let C := cell_at nd3 gk c in
  0 <= P i j l <= 1 -> 0 <= low3 P d i j l <= 1 ->
  C i j l = cl * (1 - P i j l + k0 * P i j l) -> low3 C d i j l = cl * (1 - low3 P d i j l + k0 * low3 P d i j l) ->
  flux_at nd3 b gk gp c phi d0 f d i j l 0.
Proof. exact beck_equilibrium. Qed.
Print Assumptions C183_equilibrium_partial.

(** half solid (composition 3/4) above liquid (composition 1), k = 1/2 *)
Example C183_ex : let phi := fun n : Z => if (n =? 13)%Z then 1 / 2 else 0 in let conc := fun n : Z => if (n =? 13)%Z then 3 / 4 else 1 in
  exists f, beckermann_coupling true true unit_box (grown unit_box 0) (grown unit_box 1) (grown unit_box 1) phi conc (fun _ => 1 / 2) ones "l" "a" zeros = Some f
  /\ flux_at true unit_box (grown unit_box 1) (grown unit_box 1) conc phi ones f FX 0 0 0 0.
Proof.
  intros phi conc. destruct (beck_case "l" "a" (1 / 2) (3 / 4)) as (f & E & _); [right; left; reflexivity | left; reflexivity |].
  assert (V1 : cell_at true (grown unit_box 1) phi 0 0 0 = 1 / 2) by reflexivity.
  assert (V0 : low3 (cell_at true (grown unit_box 1) phi) FX 0 0 0 = 0) by reflexivity.
  assert (W1 : cell_at true (grown unit_box 1) conc 0 0 0 = 3 / 4) by reflexivity.
  assert (W0 : low3 (cell_at true (grown unit_box 1) conc) FX 0 0 0 = 1) by reflexivity.
  exists f. split; [exact E |].
  apply (C183_equilibrium_partial true true unit_box (grown unit_box 1) (grown unit_box 1) phi conc (fun _ => 1 / 2) ones zeros f FX 0 0 0 1 (1 / 2) E).
  - cbn. unfold in_box3. lia.
  - lra.
  - reflexivity.
  - rewrite V1. lra.
  - rewrite V0. lra.
  - rewrite W1, V1. field.
  - rewrite W0, V0. field.
Qed.

(** C183, negative: with the polynomial interpolation, or with the harmonic average, a partition equilibrium drives a flux. *)
Theorem C183_equilibrium_refuted : forall it at_, In (it, at_) [("p", "a"); ("l", "h")]%char -> exists phi conc f v,
  (forall n, 0 <= phi n <= 1) /\ (forall n, conc n = 1 - weight it (phi n) + 1 / 2 * weight it (phi n)) /\
  beckermann_coupling true true unit_box (grown unit_box 0) (grown unit_box 1) (grown unit_box 1) phi conc (fun _ => 1 / 2) ones it at_ zeros = Some f /\
  flux_at true unit_box (grown unit_box 1) (grown unit_box 1) conc phi ones f FX 0 0 0 v /\ v < 0.
Proof. exact beck_equilibrium_refuted. Qed.
Print Assumptions C183_equilibrium_refuted.
