(** C89-C92: the diffusion coefficients of the composition equation. *)
From Coq Require Import Reals ZArith List Bool Ascii Lra Lia.
From Verif Require Import Grid_Model Grid_Spec Grid_Proofs Functions_Model Functions_Proofs PhaseFlow_Model PhaseFlow_Spec Stencils_Model Diffusion_Model Diffusion_Spec Diffusion_Proofs.
Import ListNotations.
Open Scope R_scope.

(** C89: with one order parameter and temperature dependent coefficients, liquid and solid share each face with complementary weights; inside a phase the other one has weight zero. *)
Theorem C89_temperature_single : forall s ng b phi temp old, with_phaseB s = false -> (0 <= ng)%Z -> implemented (itp s) -> In (avg s) averages ->
  0 < gas_constant s -> exists f, T_setDiffusion s b ng 1 phi temp old = Some f /\
  forall d i j, on_face b d i j -> 0 < low temp d i j -> 0 < temp i j ->
    let T := mean (low temp d i j) (temp i j) in
    exists w, 0 <= w <= 1 /\ at_face (cL f) d i j = (1 - w) * rate (dbulk s PL) (qbulk s PL) (gas_constant s) T /\
      at_face (cA f) d i j = w * rate (dbulk s PA) (qbulk s PA) (gas_constant s) T /\
      (low phi d i j 0%Z <= 0 -> phi i j 0%Z <= 0 -> w = 0) /\ (1 <= low phi d i j 0%Z -> 1 <= phi i j 0%Z -> w = 1).
Proof. exact T_single_split. Qed.
Print Assumptions C89_temperature_single.

(** C89: the scalar strategy with one order parameter. *)
Theorem C89_scalar_single : forall s b phi old, with_phaseB s = false -> implemented (itp s) -> In (avg s) averages ->
  exists f, scalar_setDiffusion s b 1 phi old = Some f /\
  forall d i j, on_face b d i j -> between (dbulk s PL) (dbulk s PA) (at_face f d i j) /\
    (low phi d i j 0%Z <= 0 -> phi i j 0%Z <= 0 -> at_face f d i j = dbulk s PL) /\
    (1 <= low phi d i j 0%Z -> 1 <= phi i j 0%Z -> at_face f d i j = dbulk s PA).
Proof. exact scalar_single. Qed.
Print Assumptions C89_scalar_single.

(** C89: the KKS kernel; T is the mean of the two cells. *)
Theorem C89_kks : forall dl ql ds qs gasR c a b st old, In c ["p"; "l"]%char -> In a averages -> 0 < gasR -> exists f,
  kks_op dl ql ds qs gasR c a b st old = Some f /\
  forall d i j, on_face b d i j -> 0 < snd (low st d i j) -> 0 < snd (st i j) ->
    let T := mean (snd (low st d i j)) (snd (st i j)) in
    between (rate dl ql gasR T) (rate ds qs gasR T) (at_face f d i j) /\
    (fst (low st d i j) <= 0 -> fst (st i j) <= 0 -> at_face f d i j = rate dl ql gasR T) /\
    (1 <= fst (low st d i j) -> 1 <= fst (st i j) -> at_face f d i j = rate ds qs gasR T).
Proof. exact kks_between. Qed.
Print Assumptions C89_kks.

(** C89: the Beckermann kernel, for a positive partition coefficient. *)
Theorem C89_beckermann : forall dl ds c a b st old, In c ["p"; "l"]%char -> In a averages -> exists f,
  beckermann_op dl ds c a b st old = Some f /\
  forall d i j, on_face b d i j -> 0 < snd (st i j) ->
    between ds dl (at_face f d i j) /\
    (fst (low st d i j) <= 0 -> fst (st i j) <= 0 -> at_face f d i j = dl) /\
    (1 <= fst (low st d i j) -> 1 <= fst (st i j) -> at_face f d i j = ds).
Proof. exact beckermann_between. Qed.
Print Assumptions C89_beckermann.

(** C89: the scalar strategy with several order parameters in two phases, arithmetic average, fractions that sum to one. *)
Theorem C89_scalar_two_phases : forall s b depth phi old, with_phaseB s = false -> (1 < depth)%Z -> no_interfaces s -> implemented (itp s) -> avg s = "a"%char ->
  exists f, scalar_setDiffusion s b depth phi old = Some f /\
  forall d i j, on_face b d i j ->
    fraction s PL (low phi d i j) + fraction s PA (low phi d i j) = 1 -> fraction s PL (phi i j) + fraction s PA (phi i j) = 1 ->
    between (dbulk s PL) (dbulk s PA) (at_face f d i j) /\
    (fraction s PA (low phi d i j) <= 0 -> fraction s PA (phi i j) <= 0 -> at_face f d i j = dbulk s PL) /\
    (1 <= fraction s PA (low phi d i j) -> 1 <= fraction s PA (phi i j) -> at_face f d i j = dbulk s PA).
Proof. exact scalar_two_phases. Qed.
Print Assumptions C89_scalar_two_phases.

(** C89: three phases, linear interpolation and arithmetic average. *)
Theorem C89_scalar_three_phases : forall s b phi old, with_phaseB s = true -> no_interfaces s -> itp s = LINEAR -> avg s = "a"%char ->
  exists f, scalar_setDiffusion s b (norderp s) phi old = Some f /\
  forall d i j, on_face b d i j ->
    (forall x, 0 <= fraction s x (low phi d i j)) -> (forall x, 0 <= fraction s x (phi i j)) ->
    fraction s PL (low phi d i j) + fraction s PA (low phi d i j) + fraction s PB (low phi d i j) = 1 ->
    fraction s PL (phi i j) + fraction s PA (phi i j) + fraction s PB (phi i j) = 1 ->
    at_face f d i j = mean (fraction s PL (low phi d i j)) (fraction s PL (phi i j)) * dbulk s PL +
      mean (fraction s PA (low phi d i j)) (fraction s PA (phi i j)) * dbulk s PA + mean (fraction s PB (low phi d i j)) (fraction s PB (phi i j)) * dbulk s PB.
Proof. exact scalar_three_phases. Qed.
Print Assumptions C89_scalar_three_phases.

(** C89: three phases, temperature dependent. *)
Theorem C89_temperature_three_phases : forall s ng b phi temp old, with_phaseB s = true -> no_interfaces s -> itp s = LINEAR -> avg s = "a"%char -> 0 < gas_constant s ->
  exists f, T_setDiffusion s b ng (norderp s) phi temp old = Some f /\
  forall d i j, on_face b d i j -> 0 < low temp d i j -> 0 < temp i j ->
    (forall x, 0 <= fraction s x (low phi d i j)) -> (forall x, 0 <= fraction s x (phi i j)) ->
    fraction s PL (low phi d i j) + fraction s PA (low phi d i j) + fraction s PB (low phi d i j) = 1 ->
    fraction s PL (phi i j) + fraction s PA (phi i j) + fraction s PB (phi i j) = 1 ->
    forall x, at_face (get3 f x) d i j =
      mean (fraction s x (low phi d i j)) (fraction s x (phi i j)) * rate (dbulk s x) (qbulk s x) (gas_constant s) (mean (low temp d i j) (temp i j)).
Proof. exact T_three_phases. Qed.
Print Assumptions C89_temperature_three_phases.

(** C89: two phases with several order parameters, temperature dependent: x faces. *)
Theorem C89_temperature_x_faces : forall s ng depth b phi temp old, with_phaseB s = false -> (1 < depth)%Z -> no_interfaces s -> implemented (itp s) ->
  avg s = "a"%char -> 0 < gas_constant s -> exists f, T_setDiffusion s b ng depth phi temp old = Some f /\
  forall i j, on_face b DX i j -> 0 < temp (i - 1)%Z j -> 0 < temp i j -> last_is_liquid depth (phi (i - 1)%Z j) -> last_is_liquid depth (phi i j) ->
    let T := mean (temp (i - 1)%Z j) (temp i j) in
    exists w, 0 <= w <= 1 /\ at_face (cL f) DX i j = (1 - w) * rate (dbulk s PL) (qbulk s PL) (gas_constant s) T /\
      at_face (cA f) DX i j = w * rate (dbulk s PA) (qbulk s PA) (gas_constant s) T /\
      (phi (i - 1)%Z j (depth - 1)%Z = 1 -> phi i j (depth - 1)%Z = 1 -> w = 0) /\ (phi (i - 1)%Z j (depth - 1)%Z = 0 -> phi i j (depth - 1)%Z = 0 -> w = 1).
Proof. exact T_multi_x_faces. Qed.
Print Assumptions C89_temperature_x_faces.

Definition ex_two (t : interp_type) (daa : R) : strategy :=
  mk_strategy 3 2 0 false false (fun x => match x with PL => 3 | _ => 1 end) (fun _ => 0) (fun x y => match x, y with PA, PA => daa | _, _ => 0 end) (fun _ _ => 0) 8 t "a".
(** two grains and a liquid: a quarter of each grain, half liquid; the coefficient is halfway between 3 and 1 *)
Definition ex_mix : arr3 := fun _ _ k => if (k =? 2)%Z then 1 / 2 else 1 / 4.
Example C89_ex : exists f, scalar_setDiffusion (ex_two PBG 0) unit_box 3 ex_mix zero_faces = Some f /\ at_face f DX 0 0 = 2 /\ at_face f DY 0 1 = 2.
Proof.
  assert (N : no_interfaces (ex_two PBG 0)) by (intros [] []; cbn; lra).
  destruct (scalar_defined (ex_two PBG 0) unit_box 3 ex_mix zero_faces (nil_ok _ N)) as (f & E); [right; reflexivity | left; reflexivity | discriminate |].
  exists f. split; [exact E |].
  assert (V : forall d i j, on_face unit_box d i j -> at_face f d i j = 2).
  { intros d i j H. rewrite (scalar_at (ex_two PBG 0) _ _ _ _ _ _ _ _ "p"%char eq_refl E H). unfold has_interfaces, scalar_base. cbn [ex_two with_phaseB orb]. change (1 <? 3)%Z with true.
    rewrite !no_cell by exact N. rewrite liquid_frac by reflexivity. change (nA (ex_two PBG 0)) with (members (ex_two PBG 0) PA). rewrite solids_frac by reflexivity.
    assert (FL : forall a c, fraction (ex_two PBG 0) PL (ex_mix a c) = 1 / 2) by (intros; rewrite fraction_liquid; reflexivity).
    assert (FA : forall a c, fraction (ex_two PBG 0) PA (ex_mix a c) = 1 / 2).
    { intros. unfold fraction. change (members (ex_two PBG 0) PA) with 2%Z. rewrite sumZ_cons by lia. rewrite (sumZ_cons (1 + 1) 2) by lia. rewrite sumZ_empty by lia. unfold of_phase, ex_mix. cbn. lra. }
    unfold low. rewrite !FL, !FA. cbn [interp_func val ex_two dbulk]. rewrite clamp01_mid by (unfold mean; lra). unfold mean. lra. }
  split; apply V; unfold on_face, x_face, y_face, in_box; cbn; lia.
Qed.

(** C89, negative: with the PBG interpolation the weights of three phases do not sum to one: a third of each, all with coefficient 1, gives 17/27. *)
Theorem C89_pbg_three_phases_refuted : exists s b phi old f, with_phaseB s = true /\ no_interfaces s /\ itp s = PBG /\ avg s = "a"%char /\ (forall x, dbulk s x = 1) /\
  (forall i j x, fraction s x (phi i j) = 1 / 3) /\ scalar_setDiffusion s b (norderp s) phi old = Some f /\
  on_face b DX 0 0 /\ at_face f DX 0 0 = 17 / 27.
Proof. exact pbg_three_refuted. Qed.
Print Assumptions C89_pbg_three_phases_refuted.

(** C89, negative: with the harmonic average, the default of avg_func_type, several order parameters do not diffuse at all across a sharp interface. *)
Theorem C89_harmonic_refuted : exists s b depth phi old f, with_phaseB s = false /\ (1 < depth)%Z /\ no_interfaces s /\ implemented (itp s) /\ avg s = "h"%char /\
  (forall x, dbulk s x = 1) /\ (forall i j, fraction s PL (phi i j) + fraction s PA (phi i j) = 1) /\ scalar_setDiffusion s b depth phi old = Some f /\
  on_face b DX 0 0 /\ at_face f DX 0 0 = 0.
Proof. exact harmonic_refuted. Qed.
Print Assumptions C89_harmonic_refuted.

(** C89, negative: on the y faces the temperature strategy with several order parameters weights the liquid by the lower cell only; liquid and solid of equal coefficient 1 add up to 3/2. *)
Theorem C89_y_faces_refuted : exists s b depth phi temp old f, with_phaseB s = false /\ (1 < depth)%Z /\ no_interfaces s /\ implemented (itp s) /\ avg s = "a"%char /\
  (forall x, dbulk s x = 1 /\ qbulk s x = 0) /\ (forall i j, 0 < temp i j /\ last_is_liquid depth (phi i j)) /\ T_setDiffusion s b 1 depth phi temp old = Some f /\
  on_face b DY 0 0 /\ at_face (cL f) DY 0 0 + at_face (cA f) DY 0 0 = 3 / 2.
Proof. exact T_y_refuted. Qed.
Print Assumptions C89_y_faces_refuted.

(** C89, negative: the input accepts the biased interpolation; with it every strategy stops. *)
Theorem C89_biased_refuted : read_interp "b" = BIASED /\
  (forall s b depth phi old, itp s = BIASED -> scalar_setDiffusion s b depth phi old = None) /\
  (forall s b ng depth phi temp old, itp s = BIASED -> T_setDiffusion s b ng depth phi temp old = None) /\
  (forall dl ds dla daa a b depth phi conc old, wang_setDiffusion dl ds dla daa BIASED a b depth phi conc old = None).
Proof. exact biased_stops. Qed.
Print Assumptions C89_biased_refuted.

(** C90: the coefficient of a face does not depend on the patch that computes it, nor on what the array held; for several order parameters and temperature dependent coefficients only without interface diffusion. *)
Theorem C90_patches : forall s depth x ng dl ds dla daa t a ql qs gasR it at_,
  patch_free (scalar_op s depth) /\ patch_free (wang_op dl ds dla daa t a depth) /\ patch_free (kks_op dl ql ds qs gasR it at_) /\
  (with_phaseB s = false -> (0 <= ng)%Z -> x <> PB -> patch_free (T_op s ng 1 x)) /\
  (no_interfaces s -> (1 < depth)%Z -> (with_phaseB s = false -> x <> PB) -> patch_free (T_op s ng depth x)).
Proof. exact patch_independent. Qed.
Print Assumptions C90_patches.

(** C90: with one order parameter and a ghost layer the flux of the isotropic stencil does not depend on the patch either. *)
Theorem C90_isotropic_flux : forall s ng b b' phi temp cl ca old old' f f', with_phaseB s = false -> (1 <= ng)%Z -> h1 b = h1 b' -> h2 b = h2 b' ->
  T_setDiffusion s b ng 1 phi temp old = Some f -> T_setDiffusion s b' ng 1 phi temp old' = Some f' ->
  forall d i j, on_face b d i j -> on_face b' d i j -> flux_at (ebs_isotropic_flux b cl ca f) d i j = flux_at (ebs_isotropic_flux b' cl ca f') d i j.
Proof. exact T_single_flux. Qed.
Print Assumptions C90_isotropic_flux.

Example C90_ex : exists f g, scalar_setDiffusion (ex_two LINEAR 0) unit_box 3 layer zero_faces = Some f /\
  scalar_setDiffusion (ex_two LINEAR 0) (mk_pbox (-3) 5 (-3) 5 1 1) 3 layer (fun _ _ => 7, fun _ _ => 7) = Some g /\ at_face f DY 0 0 = at_face g DY 0 0.
Proof.
  assert (N : no_interfaces (ex_two LINEAR 0)) by (intros [] []; cbn; lra).
  destruct (scalar_defined (ex_two LINEAR 0) unit_box 3 layer zero_faces (nil_ok _ N)) as (f & E); [left; reflexivity | left; reflexivity | discriminate |].
  destruct (scalar_defined (ex_two LINEAR 0) (mk_pbox (-3) 5 (-3) 5 1 1) 3 layer (fun _ _ => 7, fun _ _ => 7) (nil_ok _ N)) as (g & E'); [left; reflexivity | left; reflexivity | discriminate |].
  exists f, g. split; [exact E |]. split; [exact E' |].
  destruct (C90_patches (ex_two LINEAR 0) 3 PL 0 0 0 0 0 LINEAR "a" 0 0 0 "l" "a") as (P & _). apply (P _ _ _ _ _ _ _ DY 0%Z 0%Z E E'); unfold on_face, y_face, in_box; cbn; lia.
Qed.

(** C90, negative: with interface diffusion the temperature strategy gives half of it to the faces on the boundary of a patch. *)
Theorem C90_interface_patches_refuted : exists s depth, with_phaseB s = false /\ (1 < depth)%Z /\ implemented (itp s) /\ avg s = "a"%char /\ norderp s = 2%Z /\ norderpA s = 1%Z /\
  ~ patch_free (T_op s 1 depth PL) /\ ~ patch_free (T_op s 1 depth PA).
Proof. exact T_patch_refuted. Qed.
Print Assumptions C90_interface_patches_refuted.

(** C90, negative: with several order parameters the flux of the isotropic stencil depends on the values left in the ghost faces. *)
Theorem C90_isotropic_flux_refuted : exists s b phi temp cl ca old old' f f', with_phaseB s = false /\ no_interfaces s /\ implemented (itp s) /\ avg s = "a"%char /\
  (forall i j, 0 < temp i j /\ last_is_liquid 2 (phi i j)) /\ T_setDiffusion s b 1 2 phi temp old = Some f /\ T_setDiffusion s b 1 2 phi temp old' = Some f' /\
  on_face b DX 0 0 /\ flux_at (ebs_isotropic_flux b cl ca f) DX 0 0 <> flux_at (ebs_isotropic_flux b cl ca f') DX 0 0.
Proof. exact T_flux_refuted. Qed.
Print Assumptions C90_isotropic_flux_refuted.

(** C91: exchanging the axes, or taking the mirror image, of the fields does so to the coefficients. *)
Theorem C91_isotropy : forall s depth x ng dl ds dla daa t a ql qs gasR it at_,
  (axis_free (scalar_op s depth) /\ mirror_free (scalar_op s depth)) /\
  (axis_free (wang_op dl ds dla daa t a depth) /\ mirror_free (wang_op dl ds dla daa t a depth)) /\
  (axis_free (kks_op dl ql ds qs gasR it at_) /\ mirror_free (kks_op dl ql ds qs gasR it at_)) /\
  (with_phaseB s = false -> (0 <= ng)%Z -> x <> PB -> axis_free (T_op s ng 1 x) /\ mirror_free (T_op s ng 1 x)) /\
  (with_phaseB s = true -> no_interfaces s -> (1 < depth)%Z -> axis_free (T_op s ng depth x) /\ mirror_free (T_op s ng depth x)).
Proof. exact isotropic. Qed.
Print Assumptions C91_isotropy.

Example C91_ex : exists f g, scalar_setDiffusion (ex_two LINEAR 0) unit_box 3 layer zero_faces = Some f /\
  scalar_setDiffusion (ex_two LINEAR 0) (turn_box unit_box) 3 (turn layer) zero_faces = Some g /\ at_face g DX 0 0 = at_face f DY 0 0.
Proof.
  assert (N : no_interfaces (ex_two LINEAR 0)) by (intros [] []; cbn; lra).
  destruct (scalar_defined (ex_two LINEAR 0) unit_box 3 layer zero_faces (nil_ok _ N)) as (f & E); [left; reflexivity | left; reflexivity | discriminate |].
  destruct (scalar_defined (ex_two LINEAR 0) (turn_box unit_box) 3 (turn layer) zero_faces (nil_ok _ N)) as (g & E'); [left; reflexivity | left; reflexivity | discriminate |].
  exists f, g. split; [exact E |]. split; [exact E' |].
  destruct (C91_isotropy (ex_two LINEAR 0) 3 PL 0 0 0 0 0 LINEAR "a" 0 0 0 "l" "a") as ((P & _) & _). apply (P _ _ _ _ _ _ DY 0%Z 0%Z E E'); unfold on_face, y_face, in_box; cbn; lia.
Qed.

(** C91, negative: the liquid coefficients of the temperature strategy with several order parameters treat the axes differently. *)
Theorem C91_axes_refuted : exists s depth, with_phaseB s = false /\ (1 < depth)%Z /\ no_interfaces s /\ implemented (itp s) /\ avg s = "a"%char /\
  ~ axis_free (T_op s 1 depth PL) /\ mirror_free (T_op s 1 depth PA) /\ axis_free (T_op s 1 depth PA).
Proof. exact T_axis_refuted. Qed.
Print Assumptions C91_axes_refuted.

(** C91, negative: the Beckermann coefficients use the partition coefficient of the upper cell only. *)
Theorem C91_beckermann_mirror_refuted : exists dl ds c a, In c ["p"; "l"]%char /\ In a averages /\ ~ mirror_free (beckermann_op dl ds c a) /\
  axis_free (beckermann_op dl ds c a) /\ patch_free (beckermann_op dl ds c a).
Proof. exact beckermann_mirror_refuted. Qed.
Print Assumptions C91_beckermann_mirror_refuted.

(** C92: the scalar strategy adds to a face the mean of the interface diffusion of its two cells. *)
Theorem C92_scalar : forall s depth b phi old old' f g d i j, scalar_setDiffusion s b depth phi old = Some f -> scalar_setDiffusion (no_pairs s) b depth phi old' = Some g ->
  on_face b d i j ->
  at_face f d i j = at_face g d i j + (if with_phaseB s || (1 <? depth)%Z then mean (cell_interface s (low phi d i j)) (cell_interface s (phi i j)) else 0).
Proof. exact scalar_faces. Qed.
Print Assumptions C92_scalar.

(** C92: the temperature strategy too, on the faces between two cells of the patch; a face on the boundary of the patch gets what its inner cell gives. *)
Theorem C92_temperature : forall s ng depth b phi temp old old' f g x d i j, (1 < depth)%Z -> (with_phaseB s = false -> x <> PB) ->
  T_setDiffusion s b ng depth phi temp old = Some f -> T_setDiffusion (no_pairs s) b ng depth phi temp old' = Some g -> on_face b d i j ->
  at_face (get3 f x) d i j = at_face (get3 g x) d i j + from_inside b (fun i j => cell_T_interface s x (phi i j, temp i j)) d i j.
Proof. exact T_faces. Qed.
Print Assumptions C92_temperature.

(** C92: the sintering strategy. *)
Theorem C92_sintering : forall dl ds dla daa t a depth b st old old' f g d i j, wang_op dl ds dla daa t a depth b st old = Some f -> wang_op dl ds 0 0 t a depth b st old' = Some g ->
  on_face b d i j ->
  at_face f d i j = at_face g d i j +
    daa * mean (own_contact depth (fun k => fst (low st d i j) (k - 1)%Z)) (own_contact depth (fun k => fst (st i j) (k - 1)%Z)) +
    16 * dla * mean ((snd (low st d i j) * (1 - snd (low st d i j))) ^ 2) ((snd (st i j) * (1 - snd (st i j))) ^ 2).
Proof. exact wang_faces. Qed.
Print Assumptions C92_sintering.

(** C92: interface diffusion is not negative. *)
Theorem C92_nonnegative : forall s p, 0 <= cell_interface s p.
Proof. exact cell_interface_nonneg. Qed.
Print Assumptions C92_nonnegative.

(** C92: interface diffusion at a temperature is not negative. *)
Theorem C92_nonnegative_temperature : forall s x pT, 0 <= cell_T_interface s x pT.
Proof. exact cell_T_nonneg. Qed.
Print Assumptions C92_nonnegative_temperature.

(** C92: a cell in which at most one order parameter exceeds 1/100 has none. *)
Theorem C92_bulk : forall s p x k, layout s -> valid s x -> (1 <= k <= count_of s x)%Z -> only s [position s x k] p -> cell_interface s p = 0.
Proof. exact one_present. Qed.
Print Assumptions C92_bulk.

(** C92: where two order parameters meet it is the coefficient of their phases times their presences. *)
Theorem C92_boundary : forall s p x y k l, layout s -> In (x, y) (pairs_of s) -> (1 <= k <= count_of s x)%Z -> (1 <= l <= count_of s y)%Z ->
  position s x k <> position s y l -> only s [position s x k; position s y l] p ->
  cell_interface s p = active s x y * (presence (p (position s x k)) * presence (p (position s y l))).
Proof. exact two_present. Qed.
Print Assumptions C92_boundary.

(** C92: it is at most that coefficient, which it reaches in the middle of the boundary. *)
Theorem C92_bound : forall s p x y k l, layout s -> In (x, y) (pairs_of s) -> (1 <= k <= count_of s x)%Z -> (1 <= l <= count_of s y)%Z ->
  position s x k <> position s y l -> only s [position s x k; position s y l] p -> p (position s x k) + p (position s y l) <= 1 ->
  cell_interface s p <= active s x y /\ (p (position s x k) = 1 / 2 -> p (position s y l) = 1 / 2 -> cell_interface s p = active s x y).
Proof. exact interface_bound. Qed.
Print Assumptions C92_bound.

(** C92: renumbering the grains of a phase changes no coefficient of the scalar strategy. *)
Theorem C92_renumbering_scalar : forall s x k l b phi old old' f f' d i j, layout s -> valid s x -> (1 <= k <= count_of s x)%Z -> (1 <= l <= count_of s x)%Z -> 
  scalar_setDiffusion s b (norderp s) phi old = Some f ->
  scalar_setDiffusion s b (norderp s) (fun i j => exchange (position s x k) (position s x l) (phi i j)) old' = Some f' ->
  on_face b d i j -> at_face f' d i j = at_face f d i j.
Proof. exact scalar_exchange. Qed.
Print Assumptions C92_renumbering_scalar.

(** C92: nor of the temperature strategy. *)
Theorem C92_renumbering_temperature : forall s ng x k l b phi temp old old' f f' y d i j, layout s -> valid s x -> valid s y -> (1 <= k <= count_of s x)%Z -> (1 <= l <= count_of s x)%Z -> 
  T_setDiffusion s b ng (norderp s) phi temp old = Some f ->
  T_setDiffusion s b ng (norderp s) (fun i j => exchange (position s x k) (position s x l) (phi i j)) temp old' = Some f' ->
  on_face b d i j -> at_face (get3 f' y) d i j = at_face (get3 f y) d i j.
Proof. exact T_exchange. Qed.
Print Assumptions C92_renumbering_temperature.

(** C92: nor of the sintering strategy. *)
Theorem C92_renumbering_sintering : forall dl ds dla daa t a depth b st old old' f f' d i j p q, (0 <= p < depth)%Z -> (0 <= q < depth)%Z ->
  wang_op dl ds dla daa t a depth b st old = Some f ->
  wang_op dl ds dla daa t a depth b (fun i j => (exchange p q (fst (st i j)), snd (st i j))) old' = Some f' -> on_face b d i j ->
  at_face f' d i j = at_face f d i j.
Proof. exact wang_exchange. Qed.
Print Assumptions C92_renumbering_sintering.

(** two grains in equal parts *)
Definition ex_boundary : Z -> R := fun k => if (k =? 2)%Z then 0 else 1 / 2.
Example C92_ex : cell_interface (ex_two LINEAR 5) ex_boundary = 5 /\ cell_interface (ex_two LINEAR 5) (fun k => if (k =? 0)%Z then 1 else 0) = 0.
Proof.
  assert (L : layout (ex_two LINEAR 5)) by (cbn; lia). split.
  - destruct (C92_bound (ex_two LINEAR 5) ex_boundary PA PA 1 2 L) as [_ B]; try (cbn; lia); try (cbn; tauto).
    + intros k K M. cbn in K, M. assert (k = 2)%Z as -> by lia. cbn. lra.
    + cbn. lra.
    + rewrite B by reflexivity. unfold active. cbn. rewrite Rmax_right; lra.
  - apply (C92_bulk (ex_two LINEAR 5) _ PA 1 L); [intro; discriminate | cbn; lia |].
    intros k K M. cbn in K, M. destruct (Z.eqb_spec k 0); [lia | lra].
Qed.
