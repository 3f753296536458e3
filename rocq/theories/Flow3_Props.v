(** C155-C160: the phase equation in three dimensions. *)
From Coq Require Import Reals ZArith List Lra Lia Bool Ascii.
From Verif Require Import Grid_Model Grid_Spec Grid_Proofs Functions_Model Quat_Model Quat_Spec Quat_Proofs.
From Verif Require PhaseFlow_Model PhaseFlow_Spec PhaseFlow_Proofs Stencils_Model.
From Verif Require Import Transport_Spec Trap3_Model Trap3_Spec Trap3_Proofs Flow3_Model Flow3_Spec Flow3_Proofs.
Open Scope R_scope.

(** C155: within a crystal, where the slope is not small, the flux through an x-face is the derivative of the interface energy. *)
Theorem C155_x_partial : forall b eps eps4 phi quat old q i j k, spaced b -> 3 * eps4 <> 1 -> on_x b i j k -> unit4 q ->
  quat (i - 1)%Z j k = q -> quat i j k = q -> ~ small_slope (slope_xx b phi i j k) (slope_xy b phi i j k) (slope_xz b phi i j k) ->
  derivable_pt_lim (fun g => cubic_density eps eps4 q g (slope_xy b phi i j k) (slope_xz b phi i j k)) (slope_xx b phi i j k)
    (flux0 (anisotropic_flux3 b eps eps4 phi quat old) i j k).
Proof. exact aniso_derives_x. Qed.
Print Assumptions C155_x_partial.

(** C155: y-faces. *)
Theorem C155_y_partial : forall b eps eps4 phi quat old q i j k, spaced b -> 3 * eps4 <> 1 -> on_y b i j k -> unit4 q ->
  quat i (j - 1)%Z k = q -> quat i j k = q -> ~ small_slope (slope_yx b phi i j k) (slope_yy b phi i j k) (slope_yz b phi i j k) ->
  derivable_pt_lim (fun g => cubic_density eps eps4 q (slope_yx b phi i j k) g (slope_yz b phi i j k)) (slope_yy b phi i j k)
    (flux1 (anisotropic_flux3 b eps eps4 phi quat old) i j k).
Proof. exact aniso_derives_y. Qed.
Print Assumptions C155_y_partial.

(** C155: z-faces. *)
Theorem C155_z_partial : forall b eps eps4 phi quat old q i j k, spaced b -> 3 * eps4 <> 1 -> on_z b i j k -> unit4 q ->
  quat i j (k - 1)%Z = q -> quat i j k = q -> ~ small_slope (slope_zx b phi i j k) (slope_zy b phi i j k) (slope_zz b phi i j k) ->
  derivable_pt_lim (fun g => cubic_density eps eps4 q (slope_zx b phi i j k) (slope_zy b phi i j k) g) (slope_zz b phi i j k)
    (flux2 (anisotropic_flux3 b eps eps4 phi quat old) i j k).
Proof. exact aniso_derives_z. Qed.
Print Assumptions C155_z_partial.

(** C155: the same of the strategy that computes the fluxes of a patch, with its interface width and anisotropy. *)
Theorem C155_strategy_partial : forall b eps eps4 phi quat old fl q i j k, spaced b -> 3 * eps4 <> 1 -> unit4 q ->
  compute_flux3 (Anisotropic3 eps4 quat) b eps phi old = Some fl -> quat i j k = q ->
  (on_x b i j k -> quat (i - 1)%Z j k = q -> ~ small_slope (slope_xx b phi i j k) (slope_xy b phi i j k) (slope_xz b phi i j k) ->
     derivable_pt_lim (fun g => cubic_density eps eps4 q g (slope_xy b phi i j k) (slope_xz b phi i j k)) (slope_xx b phi i j k) (flux0 fl i j k)) /\
  (on_y b i j k -> quat i (j - 1)%Z k = q -> ~ small_slope (slope_yx b phi i j k) (slope_yy b phi i j k) (slope_yz b phi i j k) ->
     derivable_pt_lim (fun g => cubic_density eps eps4 q (slope_yx b phi i j k) g (slope_yz b phi i j k)) (slope_yy b phi i j k) (flux1 fl i j k)) /\
  (on_z b i j k -> quat i j (k - 1)%Z = q -> ~ small_slope (slope_zx b phi i j k) (slope_zy b phi i j k) (slope_zz b phi i j k) ->
     derivable_pt_lim (fun g => cubic_density eps eps4 q (slope_zx b phi i j k) (slope_zy b phi i j k) g) (slope_zz b phi i j k) (flux2 fl i j k)).
Proof. exact strategy_derives. Qed.
Print Assumptions C155_strategy_partial.

(** C155: where the slope is small, the flux is that of an isotropic interface of the lowest weight. *)
Theorem C155_small_partial : forall b eps eps4 phi quat old i j k, spaced b -> 3 * eps4 <> 1 ->
  (on_x b i j k -> small_slope (slope_xx b phi i j k) (slope_xy b phi i j k) (slope_xz b phi i j k) ->
   flux0 (anisotropic_flux3 b eps eps4 phi quat old) i j k = (eps * (1 - 3 * eps4)) ^ 2 * slope_xx b phi i j k) /\
  (on_y b i j k -> small_slope (slope_yx b phi i j k) (slope_yy b phi i j k) (slope_yz b phi i j k) ->
   flux1 (anisotropic_flux3 b eps eps4 phi quat old) i j k = (eps * (1 - 3 * eps4)) ^ 2 * slope_yy b phi i j k) /\
  (on_z b i j k -> small_slope (slope_zx b phi i j k) (slope_zy b phi i j k) (slope_zz b phi i j k) ->
   flux2 (anisotropic_flux3 b eps eps4 phi quat old) i j k = (eps * (1 - 3 * eps4)) ^ 2 * slope_zz b phi i j k).
Proof. exact aniso_small. Qed.
Print Assumptions C155_small_partial.

(** C155: without anisotropy the flux is the simple one. *)
Theorem C155_isotropic : forall b eps phi quat old i j k, spaced b ->
  (on_x b i j k -> flux0 (anisotropic_flux3 b eps 0 phi quat old) i j k = flux0 (gradient_flux3 b eps phi old) i j k) /\
  (on_y b i j k -> flux1 (anisotropic_flux3 b eps 0 phi quat old) i j k = flux1 (gradient_flux3 b eps phi old) i j k) /\
  (on_z b i j k -> flux2 (anisotropic_flux3 b eps 0 phi quat old) i j k = flux2 (gradient_flux3 b eps phi old) i j k).
Proof. exact aniso_none. Qed.
Print Assumptions C155_isotropic.

(** C155: between cells whose orientations are stored with opposite signs the flux does not depend on the orientation. *)
Theorem C155_opposite : forall b eps eps4 phi quat old q i j k, spaced b -> 3 * eps4 <> 1 -> on_x b i j k ->
  quat (i - 1)%Z j k = q -> quat i j k = opposite q ->
  flux0 (anisotropic_flux3 b eps eps4 phi quat old) i j k = (eps * (1 - 3 * eps4)) ^ 2 * slope_xx b phi i j k.
Proof. exact aniso_opposite. Qed.
Print Assumptions C155_opposite.

(** C155 fails across such faces: the orientation is the same, the flux is not. *)
Theorem C155_opposite_refuted : exists q, unit4 q /\ forall old,
  flux0 (anisotropic_flux3 unit_box3 1 (1 / 10) (fun i _ _ => IZR i) (fun i _ _ => if Z.even i then q else opposite q) old) 0%Z 0%Z 0%Z <>
  flux0 (anisotropic_flux3 unit_box3 1 (1 / 10) (fun i _ _ => IZR i) (fun _ _ _ => q) old) 0%Z 0%Z 0%Z.
Proof. exact opposite_refuted. Qed.
Print Assumptions C155_opposite_refuted.

Example C155_ex : (* a crystal at rest in the frame, front along z: gamma = 1 + eps4 *)
  forall old, flux2 (anisotropic_flux3 unit_box3 1 (1 / 10) climbing (fun _ _ _ => Q4 1 0 0 0) old) 0%Z 0%Z 0%Z = 121 / 100.
Proof. intro old. rewrite (climbing_flux (Q4 1 0 0 0)) by (auto; unfold unit4; cbn; ring). cbn -[pow]. lra. Qed.
Example C155_ex_derivative : (* and this is the derivative of the energy of the front *)
  derivable_pt_lim (fun g => cubic_density 1 (1 / 10) (Q4 1 0 0 0) 0 0 g) 1
    (flux2 (anisotropic_flux3 unit_box3 1 (1 / 10) climbing (fun _ _ _ => Q4 1 0 0 0) (fun _ _ _ => 0, fun _ _ _ => 0, fun _ _ _ => 0)) 0%Z 0%Z 0%Z).
Proof.
  destruct climbing_slopes as (A & B & C).
  pose proof (C155_z_partial unit_box3 1 (1 / 10) climbing (fun _ _ _ => Q4 1 0 0 0) (fun _ _ _ => 0, fun _ _ _ => 0, fun _ _ _ => 0) (Q4 1 0 0 0) 0%Z 0%Z 0%Z) as P.
  rewrite A, B, C in P. apply P; auto using unit_spaced; try lra; try (unfold unit4; cbn; ring); try (unfold on_z, in_box3, unit_box3; cbn; lia). unfold small_slope. lra.
Qed.

(** C156: multiplying every orientation from the left by one of the 48 symmetry quaternions changes no flux. *)
Theorem C156_left_partial : forall n b eps eps4 phi quat old, in_table 48 n ->
  same3 (anisotropic_flux3 b eps eps4 phi (fun i j k => quatmult4 (qr4 n) (quat i j k)) old) (anisotropic_flux3 b eps eps4 phi quat old).
Proof. exact aniso_symmetry. Qed.
Print Assumptions C156_left_partial.

(** C156 fails for the equivalence the code uses: quatsymmrotate multiplies from the right. *)
Theorem C156_symmetry_refuted : exists n q q', in_table 48 n /\ unit4 q /\ quatsymmrotate4 q n = Some (n, q') /\
  forall old, flux2 (anisotropic_flux3 unit_box3 1 (1 / 10) climbing (fun _ _ _ => q') old) 0%Z 0%Z 0%Z <>
              flux2 (anisotropic_flux3 unit_box3 1 (1 / 10) climbing (fun _ _ _ => q) old) 0%Z 0%Z 0%Z.
Proof. exact symmetry_refuted. Qed.
Print Assumptions C156_symmetry_refuted.

Example C156_ex : (* the quarter turn around x, from the left, for the orientation of the counterexample *)
  forall old, flux2 (anisotropic_flux3 unit_box3 1 (1 / 10) climbing (fun _ _ _ => quatmult4 (qr4 9) sample_quat) old) 0%Z 0%Z 0%Z = 121 / 100.
Proof.
  intro old. pose proof (C156_left_partial 9 unit_box3 1 (1 / 10) climbing (fun _ _ _ => sample_quat) old ltac:(unfold in_table; lia) 0%Z 0%Z 0%Z) as (_ & _ & E).
  cbv beta in E. rewrite E.
  rewrite (climbing_flux sample_quat) by (auto using sample_unit). cbn -[pow]. lra.
Qed.

(** C157: renaming the axes cyclically, the crystals turned with them. *)
Theorem C157_turn : forall b eps eps4 phi quat old, spaced b ->
  same3 (anisotropic_flux3 (turn_box b) eps eps4 (turn phi) (turned_field (turn_quat quat) third_turn) (turn_faces old))
        (turn_faces (anisotropic_flux3 b eps eps4 phi quat old)).
Proof. exact aniso_turn. Qed.
Print Assumptions C157_turn.

(** C157: exchanging x and y, the crystals turned by half a turn and the frame inverted. *)
Theorem C157_swap : forall b eps eps4 phi quat old, spaced b ->
  same3 (anisotropic_flux3 (swap_box b) eps eps4 (swap phi) (turned_field (swap_quat quat) half_turn) (swap_faces old))
        (swap_faces (anisotropic_flux3 b eps eps4 phi quat old)).
Proof. exact aniso_swap. Qed.
Print Assumptions C157_swap.

(** C157: the whole right-hand side, every kind of flux and of driving force. *)
Theorem C157_rhs_turn : forall p phi fold rold, spaced (pb3 p) ->
  agree3 (turn_box (pb3 p)) (evaluatePhaseRHS3 (turn_problem p) (turn phi) (turn_faces fold) (turn rold))
         (option_map turn (evaluatePhaseRHS3 p phi fold rold)).
Proof. exact rhs3_turn. Qed.
Print Assumptions C157_rhs_turn.

Example C157_ex : (* the front of C155 turned to move along y: the same flux, now through the y-face *)
  forall old, flux1 (anisotropic_flux3 (turn_box unit_box3) 1 (1 / 10) (turn climbing) (turned_field (turn_quat (fun _ _ _ => Q4 1 0 0 0)) third_turn) (turn_faces old)) 0%Z 0%Z 0%Z = 121 / 100.
Proof.
  intro old. destruct (C157_turn unit_box3 1 (1 / 10) climbing (fun _ _ _ => Q4 1 0 0 0) old unit_spaced 0%Z 0%Z 0%Z) as (_ & E & _). rewrite E.
  apply C155_ex.
Qed.

(** C158: a slab of one crystal turned by alpha around z has the fluxes of the plane program: x-faces. *)
Theorem C158_slab_x_partial : forall b eps eps4 phi alpha quat quat2 old old2 i j k, spaced b -> 3 * eps4 <> 1 -> on_x b i j k -> 0 <= alpha <= 2 * PI ->
  quat (i - 1)%Z j k = about_z (- alpha) -> quat i j k = about_z (- alpha) ->
  quat2 (i - 1)%Z j = cos (alpha / 2) -> quat2 i j = cos (alpha / 2) ->
  let gx := PhaseFlow_Spec.face_x_dx (plane b) phi i j in let gy := PhaseFlow_Spec.face_x_dy (plane b) phi i j in
  1 / 10 ^ 12 < gx ^ 2 + gy ^ 2 -> gx = 0 \/ 1 / 10 ^ 12 < Rabs gx ->
  flux0 (anisotropic_flux3 b eps eps4 (flat phi) quat old) i j k =
  PhaseFlow_Model.flux_x (PhaseFlow_Model.FluxAnisotropic eps4 4 4 quat2) (plane b) eps phi old2 i j.
Proof. exact slab_x. Qed.
Print Assumptions C158_slab_x_partial.

(** C158: y-faces. *)
Theorem C158_slab_y_partial : forall b eps eps4 phi alpha quat quat2 old old2 i j k, spaced b -> 3 * eps4 <> 1 -> on_y b i j k -> 0 <= alpha <= 2 * PI ->
  quat i (j - 1)%Z k = about_z (- alpha) -> quat i j k = about_z (- alpha) ->
  quat2 i (j - 1)%Z = cos (alpha / 2) -> quat2 i j = cos (alpha / 2) ->
  let gx := PhaseFlow_Spec.face_y_dx (plane b) phi i j in let gy := PhaseFlow_Spec.face_y_dy (plane b) phi i j in
  1 / 10 ^ 12 < gx ^ 2 + gy ^ 2 -> gx = 0 \/ 1 / 10 ^ 12 < Rabs gx ->
  flux1 (anisotropic_flux3 b eps eps4 (flat phi) quat old) i j k =
  PhaseFlow_Model.flux_y (PhaseFlow_Model.FluxAnisotropic eps4 4 4 quat2) (plane b) eps phi old2 i j.
Proof. exact slab_y. Qed.
Print Assumptions C158_slab_y_partial.

(** C158: nothing flows through z-faces. *)
Theorem C158_slab_z : forall b eps eps4 phi alpha quat old i j k, spaced b -> 3 * eps4 <> 1 -> on_z b i j k ->
  quat i j (k - 1)%Z = about_z alpha -> quat i j k = about_z alpha ->
  flux2 (anisotropic_flux3 b eps eps4 (flat phi) quat old) i j k = 0.
Proof. exact slab_z. Qed.
Print Assumptions C158_slab_z.

(** C158: the crystal the plane program means by a quaternion is turned the other way in three dimensions. *)
Theorem C158_mirror_refuted : exists alpha, 0 <= alpha <= 2 * PI /\ forall old old2,
  flux1 (anisotropic_flux3 unit_box3 1 (1 / 4) (flat (fun i _ => IZR i)) (fun _ _ _ => about_z alpha) old) 0%Z 0%Z 0%Z <>
  PhaseFlow_Model.flux_y (PhaseFlow_Model.FluxAnisotropic (1 / 4) 4 4 (fun _ _ => cos (alpha / 2))) (plane unit_box3) 1 (fun i _ => IZR i) old2 0%Z 0%Z.
Proof. exact slab_mirror_refuted. Qed.
Print Assumptions C158_mirror_refuted.

Example C158_ex : (* an oblique crystal: 22.5 degrees, slope along x *)
  forall old old2, flux1 (anisotropic_flux3 unit_box3 1 (1 / 4) (flat (fun i _ => IZR i)) (fun _ _ _ => about_z (- (PI / 8))) old) 0%Z 0%Z 0%Z =
    PhaseFlow_Model.flux_y (PhaseFlow_Model.FluxAnisotropic (1 / 4) 4 4 (fun _ _ => cos (PI / 8 / 2))) (plane unit_box3) 1 (fun i _ => IZR i) old2 0%Z 0%Z.
Proof.
  intros old old2. pose proof PI_RGT_0.
  assert (Dx : PhaseFlow_Spec.face_y_dx (plane unit_box3) (fun i _ => IZR i) 0%Z 0%Z = 1) by (unfold PhaseFlow_Spec.face_y_dx; cbn; field).
  assert (Dy : PhaseFlow_Spec.face_y_dy (plane unit_box3) (fun i _ => IZR i) 0%Z 0%Z = 0) by (unfold PhaseFlow_Spec.face_y_dy; cbn; field).
  apply (C158_slab_y_partial unit_box3 1 (1 / 4) (fun i _ => IZR i) (PI / 8)); auto using unit_spaced; try lra;
    try (unfold on_y, in_box3, unit_box3; cbn; lia); rewrite Dx, ?Dy; try lra. right. rewrite Rabs_R1. lra.
Qed.

(** C159: with the simple flux, for fields that do not vary along z, the right-hand side of the plane program in every layer. *)
Theorem C159_slab_partial : forall b p phi fold fold2 rold rold2, spaced b -> PhaseFlow_Model.pb p = plane b -> PhaseFlow_Model.pflux p = PhaseFlow_Model.FluxSimple ->
  ~ delta_temperature (PhaseFlow_Model.pdrive p) ->
  agree3 b (evaluatePhaseRHS3 (lift_problem b p) (flat phi) fold rold) (option_map flat (PhaseFlow_Model.evaluatePhaseRHS p phi fold2 rold2)).
Proof. exact rhs3_slab. Qed.
Print Assumptions C159_slab_partial.

(** C159 fails for the driving force by undercooling: the weights of the neighbouring temperatures differ. *)
Theorem C159_undercooling_refuted : exists b p phi, spaced b /\ PhaseFlow_Model.pb p = plane b /\ PhaseFlow_Model.pflux p = PhaseFlow_Model.FluxSimple /\
  forall fold fold2 rold rold2,
  ~ agree3 b (evaluatePhaseRHS3 (lift_problem b p) (flat phi) fold rold) (option_map flat (PhaseFlow_Model.evaluatePhaseRHS p phi fold2 rold2)).
Proof. exact rhs3_delta_refuted. Qed.
Print Assumptions C159_undercooling_refuted.

(** C159: latent heat and diffusion of temperature. *)
Theorem C159_temperature : forall b d lh temp cp f rhs rhs2 i j k, spaced b -> in_cells3 b i j k ->
  computerhstemp3 b d lh (flat temp) (flat cp) (option_map flat f) rhs i j k =
  PhaseFlow_Model.computerhstemp (plane b) d lh temp cp f rhs2 i j.
Proof. exact temp3_slab. Qed.
Print Assumptions C159_temperature.

(** C159: driving forces between several order parameters, layer by layer. *)
Theorem C159_order_parameters : forall b n fl fa phi rhs i j k p, (1 <= n)%Z -> in_cells3 b i j k -> (1 <= p <= n)%Z ->
  PhaseFlow_Spec.squares n (phi i j k) <> 0 ->
  phaserhs_fenergy_multiorderp3 b n fl fa phi rhs i j k p =
  PhaseFlow_Model.phaserhs_fenergy_multiorderp (plane b) n (at_z k fl) (at_z k fa) (fun i j p => phi i j k p) (fun i j p => rhs i j k p) i j p.
Proof. exact multi3_plane. Qed.
Print Assumptions C159_order_parameters.

(** C159: transport with the moving frame, layer by layer. *)
Theorem C159_frame : forall b phase vel rhs i j k, (zl b <= k <= zu b)%Z ->
  addvdphidx3 b phase vel rhs i j k = Stencils_Model.addvdphidx (xl b) (xu b) (yl b) (yu b) (hx b) (at_z k phase) vel (at_z k rhs) i j.
Proof. exact frame_plane. Qed.
Print Assumptions C159_frame.

(** C159: transport with the moving frame, third-order upwind. *)
Theorem C159_frame_upwind : forall b phase vel rhs physb i j k, (zl b <= k <= zu b)%Z ->
  addvdphidx_upwind33 b phase vel rhs physb i j k =
  Stencils_Model.addvdphidx_upwind3 (xl b) (xu b) (yl b) (yu b) (hx b) (at_z k phase) vel (at_z k rhs) physb i j.
Proof. exact frame_plane_upwind. Qed.
Print Assumptions C159_frame_upwind.

Example C159_ex : (* a slab with a bump along y, free energies 1 and 0 *)
  let p := PhaseFlow_Model.mk_problem (plane unit_box3) PhaseFlow_Model.FluxSimple 1 1 (fun _ _ => 0) None None
    (PhaseFlow_Model.FreeEnergies (fun _ _ => 1) (fun _ _ => 0) "p"%char) (fun _ _ => 2) in
  exists r, evaluatePhaseRHS3 (lift_problem unit_box3 p) (flat (fun _ j => IZR (j * j))) (fun _ _ _ => 7, fun _ _ _ => 7, fun _ _ _ => 7) (fun _ _ _ => 5) = Some r /\
    r 0%Z 0%Z 0%Z = 4.
Proof.
  intro p. pose proof (rhs3_value (lift_problem unit_box3 p) (flat (fun _ j => IZR (j * j))) (fun _ _ _ => 7, fun _ _ _ => 7, fun _ _ _ => 7) (fun _ _ _ => 5)) as V.
  cbn [compute_flux3 pflux3 lift_problem] in V. replace (known3 _) with true in V by reflexivity. fold (lift_problem unit_box3 p) in V.
  destruct V as (r & E & _). exists r. split; [exact E |].
  rewrite (rhs3_simple (lift_problem unit_box3 p) _ _ _ r 0%Z 0%Z 0%Z unit_spaced eq_refl E); try reflexivity; [| unfold in_cells3, in_box3; cbn; lia].
  unfold laplace3, flat. cbn -[IZR]. replace (clamp01 0) with 0 by (unfold clamp01, Rmax, Rmin; repeat destruct (Rle_dec _ _); lra). lra.
Qed.

(** C160: the right-hand side with the simple flux: mobility times diffusion, double well and driving force. *)
Theorem C160_simple : forall p phi fold rold rhs i j k, spaced (pb3 p) -> pflux3 p = Simple3 -> evaluatePhaseRHS3 p phi fold rold = Some rhs ->
  in_cells3 (pb3 p) i j k -> porient3 p = None -> pthird3 p = None ->
  rhs i j k = pmob3 p i j k * (peps3 p ^ 2 * laplace3 (pb3 p) phi i j k - pwell3 p * (32 * phi i j k * (1 - phi i j k) * (1 - 2 * phi i j k))
                               + local_drive (pdrive3 p) (ptemp3 p) phi i j k).
Proof. exact rhs3_simple. Qed.
Print Assumptions C160_simple.

(** C160 fails for the isotropic flux: the program stops. *)
Theorem C160_isotropic_refuted : forall p phi fold rold, pflux3 p = Isotropic3 -> evaluatePhaseRHS3 p phi fold rold = None.
Proof. exact rhs3_isotropic. Qed.
Print Assumptions C160_isotropic_refuted.

(** C160: the temperature equation. *)
Theorem C160_temperature : forall b d lh temp cp f rhs i j k, spaced b -> in_cells3 b i j k ->
  computerhstemp3 b d lh temp cp f rhs i j k = d * laplace3 b temp i j k + match f with Some f => lh / cp i j k * f i j k | None => 0 end.
Proof. exact temp3_value. Qed.
Print Assumptions C160_temperature.

Example C160_ex : (* heating by transformation: diffusivity 2, latent heat 6, heat capacity 3 *)
  computerhstemp3 unit_box3 2 6 (fun i j k => IZR (i * i + 2 * (j * j) + 3 * (k * k))) (fun _ _ _ => 3) (Some (fun _ _ _ => 5)) (fun _ _ _ => 9) 0%Z 0%Z 0%Z = 34.
Proof.
  rewrite (C160_temperature _ _ _ _ _ _ _ 0%Z 0%Z 0%Z unit_spaced) by (unfold in_cells3, in_box3; cbn; lia). unfold laplace3. cbn -[IZR]. cbn. lra.
Qed.
