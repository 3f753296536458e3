(** C176-C179: the diffusion coefficients of the composition equation in three dimensions. *)
From Coq Require Import Reals ZArith List Bool Ascii Lra Lia.
From Verif Require Import Grid_Model Grid_Spec Grid_Proofs Functions_Model Functions_Proofs PhaseFlow_Model PhaseFlow_Spec Trap3_Model.
From Verif Require Import Diffusion_Model Diffusion_Spec Diffusion_Proofs Diff3_Model Diff3_Spec Diff3_Proofs.
Import ListNotations.
Open Scope R_scope.

(** C176: with one order parameter and temperature dependent coefficients, liquid and solid share each face of the patch and of its ghost layers with complementary weights; inside a phase the other one has weight zero. *)
Theorem C176_temperature_single : forall s ng b phi temp old, with_phaseB s = false -> (0 <= ng)%Z -> implemented (itp s) -> In (avg s) averages ->
  0 < gas_constant s -> exists f, T_setDiffusion3 s b ng 1 phi temp old = Some f /\
  forall d i j k, on_wide_face3 b ng d i j k -> 0 < low3 temp d i j k -> 0 < temp i j k ->
    let T := mean (low3 temp d i j k) (temp i j k) in
    exists w, 0 <= w <= 1 /\ at_face3 (dL f) d i j k = (1 - w) * rate (dbulk s PL) (qbulk s PL) (gas_constant s) T /\
      at_face3 (dA f) d i j k = w * rate (dbulk s PA) (qbulk s PA) (gas_constant s) T /\
      (low3 phi d i j k 0%Z <= 0 -> phi i j k 0%Z <= 0 -> w = 0) /\ (1 <= low3 phi d i j k 0%Z -> 1 <= phi i j k 0%Z -> w = 1).
Proof. exact T_single_split3. Qed.
Print Assumptions C176_temperature_single.

(** C176: the scalar strategy with one order parameter. *)
Theorem C176_scalar_single : forall s b phi old, with_phaseB s = false -> implemented (itp s) -> In (avg s) averages ->
  exists f, scalar_setDiffusion3 s b 1 phi old = Some f /\
  forall d i j k, on_face3 b d i j k -> between (dbulk s PL) (dbulk s PA) (at_face3 f d i j k) /\
    (low3 phi d i j k 0%Z <= 0 -> phi i j k 0%Z <= 0 -> at_face3 f d i j k = dbulk s PL) /\
    (1 <= low3 phi d i j k 0%Z -> 1 <= phi i j k 0%Z -> at_face3 f d i j k = dbulk s PA).
Proof. exact scalar_single3. Qed.
Print Assumptions C176_scalar_single.

(** C176: the KKS kernel; T is the mean of the two cells. *)
Theorem C176_kks : forall dl ql ds qs gasR c a b st old, In c ["p"; "l"]%char -> In a averages -> 0 < gasR -> exists f,
  kks_op3 dl ql ds qs gasR c a b st old = Some f /\
  forall d i j k, on_face3 b d i j k -> 0 < snd (low3 st d i j k) -> 0 < snd (st i j k) ->
    let T := mean (snd (low3 st d i j k)) (snd (st i j k)) in
    between (rate dl ql gasR T) (rate ds qs gasR T) (at_face3 f d i j k) /\
    (fst (low3 st d i j k) <= 0 -> fst (st i j k) <= 0 -> at_face3 f d i j k = rate dl ql gasR T) /\
    (1 <= fst (low3 st d i j k) -> 1 <= fst (st i j k) -> at_face3 f d i j k = rate ds qs gasR T).
Proof. exact kks_between3. Qed.
Print Assumptions C176_kks.

(** C176: the Beckermann kernel, for a positive partition coefficient. *)
Theorem C176_beckermann : forall dl ds c a b st old, In c ["p"; "l"]%char -> In a averages -> exists f,
  beckermann_op3 dl ds c a b st old = Some f /\
  forall d i j k, on_face3 b d i j k -> 0 < snd (st i j k) ->
    between ds dl (at_face3 f d i j k) /\
    (fst (low3 st d i j k) <= 0 -> fst (st i j k) <= 0 -> at_face3 f d i j k = dl) /\
    (1 <= fst (low3 st d i j k) -> 1 <= fst (st i j k) -> at_face3 f d i j k = ds).
Proof. exact beckermann_between3. Qed.
Print Assumptions C176_beckermann.

(** C176: the scalar strategy with several order parameters in two phases, arithmetic average, fractions that sum to one. *)
Theorem C176_scalar_two_phases : forall s b depth phi old, with_phaseB s = false -> (1 < depth)%Z -> no_interfaces s -> implemented (itp s) -> avg s = "a"%char ->
  exists f, scalar_setDiffusion3 s b depth phi old = Some f /\
  forall d i j k, on_face3 b d i j k ->
    fraction s PL (low3 phi d i j k) + fraction s PA (low3 phi d i j k) = 1 -> fraction s PL (phi i j k) + fraction s PA (phi i j k) = 1 ->
    between (dbulk s PL) (dbulk s PA) (at_face3 f d i j k) /\
    (fraction s PA (low3 phi d i j k) <= 0 -> fraction s PA (phi i j k) <= 0 -> at_face3 f d i j k = dbulk s PL) /\
    (1 <= fraction s PA (low3 phi d i j k) -> 1 <= fraction s PA (phi i j k) -> at_face3 f d i j k = dbulk s PA).
Proof. exact scalar_two_phases3. Qed.
Print Assumptions C176_scalar_two_phases.

(** C176: three phases, linear interpolation and arithmetic average. *)
Theorem C176_scalar_three_phases : forall s b phi old, with_phaseB s = true -> no_interfaces s -> itp s = LINEAR -> avg s = "a"%char ->
  exists f, scalar_setDiffusion3 s b (norderp s) phi old = Some f /\
  forall d i j k, on_face3 b d i j k ->
    (forall x, 0 <= fraction s x (low3 phi d i j k)) -> (forall x, 0 <= fraction s x (phi i j k)) ->
    fraction s PL (low3 phi d i j k) + fraction s PA (low3 phi d i j k) + fraction s PB (low3 phi d i j k) = 1 ->
    fraction s PL (phi i j k) + fraction s PA (phi i j k) + fraction s PB (phi i j k) = 1 ->
    at_face3 f d i j k = mean (fraction s PL (low3 phi d i j k)) (fraction s PL (phi i j k)) * dbulk s PL +
      mean (fraction s PA (low3 phi d i j k)) (fraction s PA (phi i j k)) * dbulk s PA +
      mean (fraction s PB (low3 phi d i j k)) (fraction s PB (phi i j k)) * dbulk s PB.
Proof. exact scalar_three_phases3. Qed.
Print Assumptions C176_scalar_three_phases.

(** C176: three phases, temperature dependent; for phase B on the z faces only with one grain of it. *)
Theorem C176_temperature_three_phases_partial : forall s ng b phi temp old, with_phaseB s = true -> (1 < norderp s)%Z -> no_interfaces s -> itp s = LINEAR -> avg s = "a"%char -> 0 < gas_constant s ->
  exists f, T_setDiffusion3 s b ng (norderp s) phi temp old = Some f /\
  forall d i j k, on_face3 b d i j k -> 0 < low3 temp d i j k -> 0 < temp i j k ->
    (forall x, 0 <= fraction s x (low3 phi d i j k)) -> (forall x, 0 <= fraction s x (phi i j k)) ->
    fraction s PL (low3 phi d i j k) + fraction s PA (low3 phi d i j k) + fraction s PB (low3 phi d i j k) = 1 ->
    fraction s PL (phi i j k) + fraction s PA (phi i j k) + fraction s PB (phi i j k) = 1 ->
    forall x, (x = PB -> d = FZ -> (members s PB <= 1)%Z) -> at_face3 (get33 f x) d i j k =
      mean (fraction s x (low3 phi d i j k)) (fraction s x (phi i j k)) *
      rate (dbulk s x) (qbulk s x) (gas_constant s) (mean (low3 temp d i j k) (temp i j k)).
Proof. exact T_three_phases3. Qed.
Print Assumptions C176_temperature_three_phases_partial.

(** C176: two phases with several order parameters, temperature dependent: the solid on all faces, the liquid on the x faces only. *)
Theorem C176_temperature_two_phases_partial : forall s ng depth b phi temp old, with_phaseB s = false -> (1 < depth)%Z -> no_interfaces s -> implemented (itp s) ->
  avg s = "a"%char -> 0 < gas_constant s -> exists f, T_setDiffusion3 s b ng depth phi temp old = Some f /\
  forall d i j k, on_face3 b d i j k -> 0 < low3 temp d i j k -> 0 < temp i j k -> last_is_liquid depth (low3 phi d i j k) -> last_is_liquid depth (phi i j k) ->
    let T := mean (low3 temp d i j k) (temp i j k) in
    exists w, 0 <= w <= 1 /\ at_face3 (dA f) d i j k = w * rate (dbulk s PA) (qbulk s PA) (gas_constant s) T /\
      (d = FX -> at_face3 (dL f) d i j k = (1 - w) * rate (dbulk s PL) (qbulk s PL) (gas_constant s) T) /\
      (low3 phi d i j k (depth - 1)%Z = 1 -> phi i j k (depth - 1)%Z = 1 -> w = 0) /\ (low3 phi d i j k (depth - 1)%Z = 0 -> phi i j k (depth - 1)%Z = 0 -> w = 1).
Proof. exact T_two_phases3. Qed.
Print Assumptions C176_temperature_two_phases_partial.

Definition ex3_two (daa : R) : strategy :=
  mk_strategy 3 2 0 false false (fun x => match x with PL => 3 | _ => 1 end) (fun _ => 0) (fun x y => match x, y with PA, PA => daa | _, _ => 0 end) (fun _ _ => 0) 8 LINEAR "a".
(** two grains and a liquid: a quarter of each grain, half liquid; the coefficient of a z face is halfway between 3 and 1 *)
Definition ex3_mix : arr4 := fun _ _ _ m => if (m =? 2)%Z then 1 / 2 else 1 / 4.
Example C176_ex : exists f, scalar_setDiffusion3 (ex3_two 0) unit_box3 3 ex3_mix zero33 = Some f /\ at_face3 f FZ 0 0 1 = 2.
Proof.
  assert (N : no_interfaces (ex3_two 0)) by (intros [] []; cbn; lra).
  destruct (scalar_some3 (ex3_two 0) unit_box3 3 ex3_mix zero33 (nil_ok _ N)) as (f & E); [left; reflexivity | left; reflexivity | discriminate |].
  exists f. split; [exact E |].
  rewrite (scalar_at3 (ex3_two 0) _ _ _ _ _ FZ 0 0 1 "l"%char eq_refl E) by (unfold on_face3, in_box3; cbn; lia).
  unfold has_interfaces, scalar_base. cbn [ex3_two with_phaseB orb]. change (1 <? 3)%Z with true.
  rewrite !no_cell by exact N. rewrite liquid_frac by reflexivity. change (nA (ex3_two 0)) with (members (ex3_two 0) PA). rewrite solids_frac by reflexivity.
  assert (FL : forall a c e, fraction (ex3_two 0) PL (ex3_mix a c e) = 1 / 2) by (intros; rewrite fraction_liquid; reflexivity).
  assert (FA : forall a c e, fraction (ex3_two 0) PA (ex3_mix a c e) = 1 / 2).
  { intros. unfold fraction. change (members (ex3_two 0) PA) with 2%Z. rewrite sumZ_cons by lia. rewrite (sumZ_cons (1 + 1) 2) by lia. rewrite sumZ_empty by lia. unfold of_phase, ex3_mix. cbn. lra. }
  cbn [low3]. rewrite !FL, !FA. unfold mean. rewrite !lin01 by lra. cbn [ex3_two dbulk]. lra.
Qed.

(** C176, negative: several order parameters and temperature dependent coefficients. On the y faces the liquid is weighted by the lower cell only, and liquid and solid of equal coefficient 1 add up to 3/2; on the z faces it is weighted by the neighbour along y, so a face inside the solid gets liquid diffusion. *)
Theorem C176_faces_refuted : exists s b depth phi temp old f, with_phaseB s = false /\ (1 < depth)%Z /\ no_interfaces s /\ implemented (itp s) /\ avg s = "a"%char /\
  (forall x, dbulk s x = 1 /\ qbulk s x = 0) /\ (forall i j k, 0 < temp i j k /\ last_is_liquid depth (phi i j k)) /\ T_setDiffusion3 s b 1 depth phi temp old = Some f /\
  (on_face3 b FY 0 0 0 /\ at_face3 (dL f) FY 0 0 0 + at_face3 (dA f) FY 0 0 0 = 3 / 2) /\
  (on_face3 b FZ 0 0 0 /\ phi 0%Z 0%Z (-1)%Z (depth - 1)%Z = 0 /\ phi 0%Z 0%Z 0%Z (depth - 1)%Z = 0 /\ at_face3 (dL f) FZ 0 0 0 = 1 / 2 /\ at_face3 (dA f) FZ 0 0 0 = 1).
Proof. exact T_faces_refuted3. Qed.
Print Assumptions C176_faces_refuted.

(** C176, negative: three phases with two grains of B. On the z faces only the last grain counts: inside the first one nothing diffuses along z. *)
Theorem C176_last_grain_refuted : exists s b phi temp old f, with_phaseB s = true /\ no_interfaces s /\ itp s = LINEAR /\ avg s = "a"%char /\
  (forall x, dbulk s x = 1 /\ qbulk s x = 0) /\ (forall i j k, 0 < temp i j k /\ forall x, fraction s x (phi i j k) = match x with PB => 1 | _ => 0 end) /\
  T_setDiffusion3 s b 1 (norderp s) phi temp old = Some f /\
  on_face3 b FX 0 0 0 /\ at_face3 (dB f) FX 0 0 0 = 1 /\ on_face3 b FZ 0 0 0 /\ forall x, at_face3 (get33 f x) FZ 0 0 0 = 0.
Proof. exact T_last_B_refuted. Qed.
Print Assumptions C176_last_grain_refuted.

(** C177: turning the axes, exchanging two of them, or taking the mirror image of the fields does so to the coefficients. *)
Theorem C177_isotropy : forall s depth x ng dl ds dla daa t a ql qs gasR it at_,
  isotropic3 (scalar_op3 s depth) /\ isotropic3 (wang_op3 dl ds dla daa t a depth) /\ isotropic3 (kks_op3 dl ql ds qs gasR it at_) /\
  (turn_free3 (beckermann_op3 dl ds it at_) /\ swap_free3 (beckermann_op3 dl ds it at_)) /\
  (with_phaseB s = false -> (0 <= ng)%Z -> x <> PB -> isotropic3 (T_op3 s ng 1 x)) /\
  (with_phaseB s = true -> no_interfaces s -> (1 < depth)%Z -> (x = PB -> (members s PB <= 1)%Z) -> isotropic3 (T_op3 s ng depth x)) /\
  (with_phaseB s = false -> no_interfaces s -> (1 < depth)%Z -> isotropic3 (T_op3 s ng depth PA)).
Proof. exact isotropic_all3. Qed.
Print Assumptions C177_isotropy.

Example C177_ex : exists f g, scalar_setDiffusion3 (ex3_two 0) unit_box3 3 layer3 zero33 = Some f /\
  scalar_setDiffusion3 (ex3_two 0) (turn_box3 unit_box3) 3 (turn3 layer3) zero33 = Some g /\ at_face3 g FX 0 0 0 = at_face3 f FY 0 0 0.
Proof.
  assert (N : no_interfaces (ex3_two 0)) by (intros [] []; cbn; lra).
  destruct (scalar_some3 (ex3_two 0) unit_box3 3 layer3 zero33 (nil_ok _ N)) as (f & E); [left; reflexivity | left; reflexivity | discriminate |].
  destruct (scalar_some3 (ex3_two 0) (turn_box3 unit_box3) 3 (turn3 layer3) zero33 (nil_ok _ N)) as (g & E'); [left; reflexivity | left; reflexivity | discriminate |].
  exists f, g. split; [exact E |]. split; [exact E' |].
  destruct (C177_isotropy (ex3_two 0) 3 PL 0 0 0 0 0 LINEAR "a" 0 0 0 "l" "a") as ((P & _) & _).
  apply (P _ _ _ _ _ _ FY 0%Z 0%Z 0%Z E E'); unfold on_face3, in_box3; cbn; lia.
Qed.

(** C177, negative: the liquid coefficients of the temperature strategy with several order parameters treat the axes differently. *)
Theorem C177_axes_refuted : exists s depth, with_phaseB s = false /\ (1 < depth)%Z /\ no_interfaces s /\ implemented (itp s) /\ avg s = "a"%char /\
  ~ turn_free3 (T_op3 s 1 depth PL) /\ ~ swap_free3 (T_op3 s 1 depth PL).
Proof. exact T_axes_refuted3. Qed.
Print Assumptions C177_axes_refuted.

(** C177, negative: so do the coefficients of a phase B with several grains. *)
Theorem C177_grains_refuted : exists s, with_phaseB s = true /\ (1 < norderp s)%Z /\ no_interfaces s /\ implemented (itp s) /\ avg s = "a"%char /\
  ~ turn_free3 (T_op3 s 1 (norderp s) PB).
Proof. exact T_B_axes_refuted3. Qed.
Print Assumptions C177_grains_refuted.

(** C177, negative: the Beckermann coefficients use the partition coefficient of the upper cell only. *)
Theorem C177_beckermann_mirror_refuted : exists dl ds c a, In c ["p"; "l"]%char /\ In a averages /\ ~ mirror_free3 (beckermann_op3 dl ds c a).
Proof. exact beckermann_mirror_refuted3. Qed.
Print Assumptions C177_beckermann_mirror_refuted.

(** C178: the coefficient of a face does not depend on the patch that computes it, nor on what the array held; for several order parameters and temperature dependent coefficients only without interface diffusion. *)
Theorem C178_patches : forall s depth x ng dl ds dla daa t a ql qs gasR it at_,
  patch_free3 (scalar_op3 s depth) /\ patch_free3 (wang_op3 dl ds dla daa t a depth) /\ patch_free3 (kks_op3 dl ql ds qs gasR it at_) /\
  patch_free3 (beckermann_op3 dl ds it at_) /\
  (with_phaseB s = false -> (0 <= ng)%Z -> x <> PB -> patch_free3 (T_op3 s ng 1 x)) /\
  (no_interfaces s -> (1 < depth)%Z -> valid s x -> patch_free3 (T_op3 s ng depth x)).
Proof. exact patches3. Qed.
Print Assumptions C178_patches.

(** C178: a face between the same two cells has the same coefficient in a two-dimensional run, whatever the directions of the two faces, and a strategy stops in three dimensions exactly if it does in two. *)
Theorem C178_plane : forall s depth ng x dl ds dla daa t a ql qs gasR it at_,
  as_in_plane any_face (scalar_op3 s depth) (scalar_op s depth) /\
  as_in_plane any_face (wang_op3 dl ds dla daa t a depth) (wang_op dl ds dla daa t a depth) /\
  as_in_plane any_face (kks_op3 dl ql ds qs gasR it at_) (kks_op dl ql ds qs gasR it at_) /\
  as_in_plane any_face (beckermann_op3 dl ds it at_) (beckermann_op dl ds it at_) /\
  (with_phaseB s = false -> (0 <= ng)%Z -> x <> PB -> as_in_plane any_face (T_op3 s ng 1 x) (T_op s ng 1 x)).
Proof. exact planes3. Qed.
Print Assumptions C178_plane.

(** C178: the temperature strategy with several order parameters: the solid on all faces, the liquid of two phases on faces of the same direction, phase B on z faces only with one grain. *)
Theorem C178_plane_temperature_partial : forall s depth ng x, no_interfaces s -> (1 < depth)%Z ->
  (with_phaseB s = true -> as_in_plane (fun d3 _ => x = PB -> d3 = FZ -> (members s PB <= 1)%Z) (T_op3 s ng depth x) (T_op s ng depth x)) /\
  (with_phaseB s = false -> as_in_plane any_face (T_op3 s ng depth PA) (T_op s ng depth PA)) /\
  (with_phaseB s = false -> as_in_plane matching_face (T_op3 s ng depth PL) (T_op s ng depth PL)).
Proof. exact T_planes3. Qed.
Print Assumptions C178_plane_temperature_partial.

(** C178: with interface diffusion too, the x and y faces of a field that is uniform along z have the coefficients of the section. *)
Theorem C178_slab : forall s ng depth x b3 b2 phi temp old3 old2 f3 f2 d3 d2 i j k, (1 < depth)%Z -> valid s x ->
  xl b3 = lo0 b2 -> xu b3 = hi0 b2 -> yl b3 = lo1 b2 -> yu b3 = hi1 b2 ->
  T_setDiffusion3 s b3 ng depth (fun i j _ => phi i j) (fun i j _ => temp i j) old3 = Some f3 -> T_setDiffusion s b2 ng depth phi temp old2 = Some f2 ->
  matching_face d3 d2 -> on_face3 b3 d3 i j k -> at_face3 (get33 f3 x) d3 i j k = at_face (get3 f2 x) d2 i j.
Proof. exact T_slab3. Qed.
Print Assumptions C178_slab.

Example C178_ex : exists f g, scalar_setDiffusion3 (ex3_two 5) unit_box3 3 layer3 zero33 = Some f /\
  scalar_setDiffusion (ex3_two 5) unit_box 3 (fun i j => layer3 i j 0%Z) zero_faces = Some g /\ at_face3 f FY 0 0 0 = at_face g DY 0 0.
Proof.
  assert (N : pairs_ok (ex3_two 5) = true).
  { unfold pairs_ok, pair_list. cbn [ex3_two with_phaseB app filter fst snd dpair]. destruct (Rlt_dec 0 5), (Rlt_dec 0 0); reflexivity. }
  destruct (scalar_some3 (ex3_two 5) unit_box3 3 layer3 zero33 N) as (f & E); [left; reflexivity | left; reflexivity | discriminate |].
  destruct (scalar_defined (ex3_two 5) unit_box 3 (fun i j => layer3 i j 0%Z) zero_faces N) as (g & E'); [left; reflexivity | left; reflexivity | discriminate |].
  exists f, g. split; [exact E |]. split; [exact E' |].
  destruct (C178_plane (ex3_two 5) 3 0 PL 0 0 0 0 LINEAR "a" 0 0 0 "l" "a") as ((_ & P) & _).
  apply (P _ _ _ _ FY 0%Z 0%Z 0%Z _ _ _ _ DY 0%Z 0%Z E E'); try reflexivity; [unfold on_face3, in_box3; cbn; lia | unfold on_face, y_face, in_box; cbn; lia].
Qed.

(** C178, negative: with interface diffusion the temperature strategy gives half of it to the faces on the boundary of a patch. *)
Theorem C178_interface_patches_refuted : exists s depth, with_phaseB s = false /\ (1 < depth)%Z /\ implemented (itp s) /\ avg s = "a"%char /\ norderp s = 2%Z /\ norderpA s = 1%Z /\
  ~ patch_free3 (T_op3 s 1 depth PL) /\ ~ patch_free3 (T_op3 s 1 depth PA).
Proof. exact T_patch_refuted3. Qed.
Print Assumptions C178_interface_patches_refuted.

(** C179: the scalar strategy adds to a face the mean of the interface diffusion of its two cells. *)
Theorem C179_scalar : forall s depth b phi old old' f g d i j k, scalar_setDiffusion3 s b depth phi old = Some f -> scalar_setDiffusion3 (no_pairs s) b depth phi old' = Some g ->
  on_face3 b d i j k ->
  at_face3 f d i j k = at_face3 g d i j k + (if with_phaseB s || (1 <? depth)%Z then mean (cell_interface s (low3 phi d i j k)) (cell_interface s (phi i j k)) else 0).
Proof. exact scalar_faces3. Qed.
Print Assumptions C179_scalar.

(** C179: the temperature strategy too, on the faces between two cells of the patch; a face on the boundary of the patch gets what its inner cell gives. *)
Theorem C179_temperature : forall s ng depth b phi temp old old' f g x d i j k, (1 < depth)%Z -> valid s x ->
  T_setDiffusion3 s b ng depth phi temp old = Some f -> T_setDiffusion3 (no_pairs s) b ng depth phi temp old' = Some g -> on_face3 b d i j k ->
  at_face3 (get33 f x) d i j k = at_face3 (get33 g x) d i j k + from_inside3 b (fun i j k => cell_T_interface s x (phi i j k, temp i j k)) d i j k.
Proof. exact T_faces3. Qed.
Print Assumptions C179_temperature.

(** C179: the sintering strategy. *)
Theorem C179_sintering : forall dl ds dla daa t a depth b st old old' f g d i j k, wang_op3 dl ds dla daa t a depth b st old = Some f -> wang_op3 dl ds 0 0 t a depth b st old' = Some g ->
  on_face3 b d i j k ->
  at_face3 f d i j k = at_face3 g d i j k +
    daa * mean (own_contact depth (fun m => fst (low3 st d i j k) (m - 1)%Z)) (own_contact depth (fun m => fst (st i j k) (m - 1)%Z)) +
    16 * dla * mean ((snd (low3 st d i j k) * (1 - snd (low3 st d i j k))) ^ 2) ((snd (st i j k) * (1 - snd (st i j k))) ^ 2).
Proof. exact wang_faces3. Qed.
Print Assumptions C179_sintering.

(** C179: renumbering the grains of a phase changes no coefficient of the scalar strategy. *)
Theorem C179_renumbering_scalar : forall s x m l b phi old old' f f' d i j k, layout s -> valid s x -> (1 <= m <= count_of s x)%Z -> (1 <= l <= count_of s x)%Z ->
  scalar_setDiffusion3 s b (norderp s) phi old = Some f ->
  scalar_setDiffusion3 s b (norderp s) (fun i j k => exchange (position s x m) (position s x l) (phi i j k)) old' = Some f' ->
  on_face3 b d i j k -> at_face3 f' d i j k = at_face3 f d i j k.
Proof. exact scalar_exchange3. Qed.
Print Assumptions C179_renumbering_scalar.

(** C179: nor of the sintering strategy. *)
Theorem C179_renumbering_sintering : forall dl ds dla daa t a depth b st old old' f f' d i j k p q, (0 <= p < depth)%Z -> (0 <= q < depth)%Z ->
  wang_op3 dl ds dla daa t a depth b st old = Some f ->
  wang_op3 dl ds dla daa t a depth b (fun i j k => (exchange p q (fst (st i j k)), snd (st i j k))) old' = Some f' -> on_face3 b d i j k ->
  at_face3 f' d i j k = at_face3 f d i j k.
Proof. exact wang_exchange3. Qed.
Print Assumptions C179_renumbering_sintering.

(** C179: nor of the temperature strategy, except for phase B on the z faces. *)
Theorem C179_renumbering_temperature_partial : forall s ng x m l b phi temp old old' f f' y d i j k, layout s -> valid s x -> valid s y -> (1 <= m <= count_of s x)%Z -> (1 <= l <= count_of s x)%Z ->
  (y = PB -> d <> FZ) ->
  T_setDiffusion3 s b ng (norderp s) phi temp old = Some f ->
  T_setDiffusion3 s b ng (norderp s) (fun i j k => exchange (position s x m) (position s x l) (phi i j k)) temp old' = Some f' ->
  on_face3 b d i j k -> at_face3 (get33 f' y) d i j k = at_face3 (get33 f y) d i j k.
Proof. exact T_exchange3. Qed.
Print Assumptions C179_renumbering_temperature_partial.

(** two grains in equal parts: their boundary adds 5 to the coefficient of every face *)
Example C179_ex : exists f g, scalar_setDiffusion3 (ex3_two 5) unit_box3 3 (fun _ _ _ m => if (m =? 2)%Z then 0 else 1 / 2) zero33 = Some f /\
  scalar_setDiffusion3 (no_pairs (ex3_two 5)) unit_box3 3 (fun _ _ _ m => if (m =? 2)%Z then 0 else 1 / 2) zero33 = Some g /\ at_face3 f FZ 0 0 1 = at_face3 g FZ 0 0 1 + 5.
Proof.
  assert (N : pairs_ok (ex3_two 5) = true).
  { unfold pairs_ok, pair_list. cbn [ex3_two with_phaseB app filter fst snd dpair]. destruct (Rlt_dec 0 5), (Rlt_dec 0 0); reflexivity. }
  assert (N' : pairs_ok (no_pairs (ex3_two 5)) = true) by (apply nil_ok; intros x y; cbn; lra).
  destruct (scalar_some3 (ex3_two 5) unit_box3 3 (fun _ _ _ m => if (m =? 2)%Z then 0 else 1 / 2) zero33 N) as (f & E); [left; reflexivity | left; reflexivity | discriminate |].
  destruct (scalar_some3 (no_pairs (ex3_two 5)) unit_box3 3 (fun _ _ _ m => if (m =? 2)%Z then 0 else 1 / 2) zero33 N') as (g & E'); [left; reflexivity | left; reflexivity | discriminate |].
  exists f, g. split; [exact E |]. split; [exact E' |].
  rewrite (C179_scalar _ _ _ _ _ _ _ _ FZ 0 0 1 E E') by (unfold on_face3, in_box3; cbn; lia). f_equal.
  change (with_phaseB (ex3_two 5) || (1 <? 3)%Z) with true. cbn [low3].
  assert (L : layout (ex3_two 5)) by (cbn; lia).
  assert (V : cell_interface (ex3_two 5) (fun m => if (m =? 2)%Z then 0 else 1 / 2) = 5).
  { destruct (interface_bound (ex3_two 5) (fun m => if (m =? 2)%Z then 0 else 1 / 2) PA PA 1 2 L) as [_ B]; try (cbn; lia); try (cbn; tauto).
    - intros m K M. cbn in K, M. assert (m = 2)%Z as -> by lia. cbn. lra.
    - cbn. lra.
    - rewrite B by reflexivity. unfold active. cbn. rewrite Rmax_right; lra. }
  rewrite V. unfold mean. lra.
Qed.

(** C179, negative: exchanging two grains of B changes its coefficient on a z face from 0 to 1. *)
Theorem C179_renumbering_refuted : exists s m l b phi temp old f f', layout s /\ valid s PB /\ (1 <= m <= count_of s PB)%Z /\ (1 <= l <= count_of s PB)%Z /\ no_interfaces s /\ itp s = LINEAR /\
  avg s = "a"%char /\ T_setDiffusion3 s b 1 (norderp s) phi temp old = Some f /\
  T_setDiffusion3 s b 1 (norderp s) (fun i j k => exchange (position s PB m) (position s PB l) (phi i j k)) temp old = Some f' /\
  on_face3 b FZ 0 0 0 /\ at_face3 (dB f) FZ 0 0 0 = 0 /\ at_face3 (dB f') FZ 0 0 0 = 1.
Proof. exact T_exchange_refuted3. Qed.
Print Assumptions C179_renumbering_refuted.
