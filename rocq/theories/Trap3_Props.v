(** C149-C154: composition fluxes in three dimensions. *)
From Coq Require Import Reals ZArith List Lra Lia Bool.
From Verif Require Import Grid_Model Grid_Spec Grid_Proofs AntiTrap_Model Transport_Spec Trap3_Model Trap3_Spec Trap3_Proofs.
From Verif Require AntiTrap_Spec AntiTrap_Proofs Transport_Model Transport_Proofs.
Open Scope R_scope.

(** C149: renaming the axes cyclically: diffusion flux. *)
Theorem C149_diffusion_turn : forall b conc phi diff coupl flux,
  same3 (concentrationflux3 (turn_box b) (turn conc) (turn phi) (turn_faces diff) (turn_faces coupl) (turn_faces flux))
        (turn_faces (concentrationflux3 b conc phi diff coupl flux)).
Proof. exact conc_turn. Qed.
Print Assumptions C149_diffusion_turn.

(** C149: exchanging x and y: diffusion flux. *)
Theorem C149_diffusion_swap : forall b conc phi diff coupl flux,
  same3 (concentrationflux3 (swap_box b) (swap conc) (swap phi) (swap_faces diff) (swap_faces coupl) (swap_faces flux))
        (swap_faces (concentrationflux3 b conc phi diff coupl flux)).
Proof. exact conc_swap. Qed.
Print Assumptions C149_diffusion_swap.

(** C149: Cahn-Hilliard flux. *)
Theorem C149_cahn_hilliard_turn : forall b conc mob ca cb ws kappa fl,
  same3 (add_cahnhilliard_flux3 (turn_box b) (turn conc) mob ca cb ws kappa (turn_faces fl))
        (turn_faces (add_cahnhilliard_flux3 b conc mob ca cb ws kappa fl)).
Proof. exact ch_turn. Qed.
Print Assumptions C149_cahn_hilliard_turn.

(** C149: Cahn-Hilliard flux. *)
Theorem C149_cahn_hilliard_swap : forall b conc mob ca cb ws kappa fl,
  same3 (add_cahnhilliard_flux3 (swap_box b) (swap conc) mob ca cb ws kappa (swap_faces fl))
        (swap_faces (add_cahnhilliard_flux3 b conc mob ca cb ws kappa fl)).
Proof. exact ch_swap. Qed.
Print Assumptions C149_cahn_hilliard_swap.

(** C149: sintering flux. *)
Theorem C149_sintering_turn : forall b conc d n phi mob A B kappa w w' fl, (1 <= n)%Z ->
  same3 (add_wang_sintering_flux3 (turn_box b) (turn conc) (turn_faces d) n (turn4 phi) mob A B kappa w' (turn_faces fl))
        (turn_faces (add_wang_sintering_flux3 b conc d n phi mob A B kappa w fl)).
Proof. exact wang_turn. Qed.
Print Assumptions C149_sintering_turn.

(** C149: sintering flux. *)
Theorem C149_sintering_swap : forall b conc d n phi mob A B kappa w w' fl, (1 <= n)%Z ->
  same3 (add_wang_sintering_flux3 (swap_box b) (swap conc) (swap_faces d) n (swap4 phi) mob A B kappa w' (swap_faces fl))
        (swap_faces (add_wang_sintering_flux3 b conc d n phi mob A B kappa w fl)).
Proof. exact wang_swap. Qed.
Print Assumptions C149_sintering_swap.

(** C149: anti-trapping flux, two phases. *)
Theorem C149_antitrapping_turn : forall b phase cl ca n dphidt alpha fl,
  same4 (antitrapping_3d (turn_box b) (turn phase) (turn4 cl) (turn4 ca) n (turn dphidt) alpha (turn_faces4 fl))
        (turn_faces4 (antitrapping_3d b phase cl ca n dphidt alpha fl)).
Proof. exact two_turn. Qed.
Print Assumptions C149_antitrapping_turn.

(** C149: anti-trapping flux, two phases. *)
Theorem C149_antitrapping_swap : forall b phase cl ca n dphidt alpha fl,
  same4 (antitrapping_3d (swap_box b) (swap phase) (swap4 cl) (swap4 ca) n (swap dphidt) alpha (swap_faces4 fl))
        (swap_faces4 (antitrapping_3d b phase cl ca n dphidt alpha fl)).
Proof. exact two_swap. Qed.
Print Assumptions C149_antitrapping_swap.

(** C149: anti-trapping flux, three phases. *)
Theorem C149_antitrapping_three_turn : forall b phase cl ca cb dphidt alpha fl,
  same3 (antitrapping3_3d (turn_box b) (turn4 phase) (turn cl) (turn ca) (turn cb) (turn4 dphidt) alpha (turn_faces fl))
        (turn_faces (antitrapping3_3d b phase cl ca cb dphidt alpha fl)).
Proof. exact th_turn. Qed.
Print Assumptions C149_antitrapping_three_turn.

(** C149: anti-trapping flux, three phases. *)
Theorem C149_antitrapping_three_swap : forall b phase cl ca cb dphidt alpha fl,
  same3 (antitrapping3_3d (swap_box b) (swap4 phase) (swap cl) (swap ca) (swap cb) (swap4 dphidt) alpha (swap_faces fl))
        (swap_faces (antitrapping3_3d b phase cl ca cb dphidt alpha fl)).
Proof. exact th_swap. Qed.
Print Assumptions C149_antitrapping_three_swap.

Definition cube : box3 := mk_box3 0 2 0 2 0 2 1 1 1.
Definition no_flux : arr3x3 := (fun _ _ _ => 0, fun _ _ _ => 0, fun _ _ _ => 0).
Definition unit_flux : arr3x3 := (fun _ _ _ => 1, fun _ _ _ => 1, fun _ _ _ => 1).
Example C149_ex : (* concentration rising along y: a flux through y-faces; the same after renaming, through x-faces *)
  let c : arr3 := fun _ j _ => IZR j in
  flux1 (concentrationflux3 cube c (fun _ _ _ => 0) unit_flux no_flux no_flux) 1%Z 1%Z 1%Z = 1 /\
  flux0 (concentrationflux3 (turn_box cube) (turn c) (turn (fun _ _ _ => 0)) (turn_faces unit_flux) (turn_faces no_flux) (turn_faces no_flux)) 1%Z 1%Z 1%Z = 1.
Proof.
  cbv zeta. set (c := fun _ j _ : Z => IZR j).
  assert (P : flux1 (concentrationflux3 cube c (fun _ _ _ => 0) unit_flux no_flux no_flux) 1%Z 1%Z 1%Z = 1).
  { unfold concentrationflux3, unit_flux, no_flux, flux1. cbn [fst snd]. rewrite yfaces3_val. cbn [inb xl xu yl yu zl zu hy cube]. unfold c. cbn -[IZR]. lra. }
  split; [exact P |].
  destruct (C149_diffusion_turn cube c (fun _ _ _ => 0) unit_flux no_flux no_flux 1%Z 1%Z 1%Z) as (A & _ & _). rewrite A. exact P.
Qed.

(** C150: fields that do not vary along z give the fluxes of the two-dimensional kernel in every layer, and none along z: diffusion. *)
Theorem C150_diffusion : forall b conc phi d0 d1 d2 c0 c1 c2 f0 f1 f2,
  let two := Transport_Model.concentrationflux (xl b) (xu b) (yl b) (yu b) (hx b) (hy b) conc phi d0 d1 c0 c1 f0 f1 in
  let three := concentrationflux3 b (flat conc) (flat phi) (flat d0, flat d1, d2) (flat c0, flat c1, c2) (flat f0, flat f1, f2) in
  forall i j k, ((zl b <= k <= zu b)%Z -> flux0 three i j k = fst two i j /\ flux1 three i j k = snd two i j) /\
    (on_z b i j k -> flux2 three i j k = 0).
Proof. exact conc_flat. Qed.
Print Assumptions C150_diffusion.

(** C150: Cahn-Hilliard. *)
Theorem C150_cahn_hilliard : forall b conc mob ca cb ws kappa f0 f1 f2, hx b <> 0 -> hy b <> 0 -> hz b <> 0 ->
  let two := Transport_Model.add_cahnhilliard_flux (xl b) (xu b) (yl b) (yu b) (hx b) (hy b) conc mob ca cb ws kappa (f0, f1) in
  let three := add_cahnhilliard_flux3 b (flat conc) mob ca cb ws kappa (flat f0, flat f1, f2) in
  forall i j k, (on_x b i j k -> flux0 three i j k = fst two i j) /\ (on_y b i j k -> flux1 three i j k = snd two i j) /\
    (on_z b i j k -> flux2 three i j k = f2 i j k).
Proof. exact ch_flat. Qed.
Print Assumptions C150_cahn_hilliard.

(** C150: sintering (the work arrays do not matter). *)
Theorem C150_sintering : forall b conc d0 d1 d2 n phi mob A B kappa w w3 f0 f1 f2, (1 <= n)%Z -> hx b <> 0 -> hy b <> 0 -> hz b <> 0 ->
  let two := Transport_Model.add_wang_sintering_flux (xl b) (xu b) (yl b) (yu b) (hx b) (hy b) conc d0 d1 n phi mob A B kappa w (f0, f1) in
  let three := add_wang_sintering_flux3 b (flat conc) (flat d0, flat d1, d2) n (flat4 phi) mob A B kappa w3 (flat f0, flat f1, f2) in
  forall i j k, (on_x b i j k -> flux0 three i j k = fst two i j) /\ (on_y b i j k -> flux1 three i j k = snd two i j) /\
    (on_z b i j k -> flux2 three i j k = f2 i j k).
Proof. exact wang_flat. Qed.
Print Assumptions C150_sintering.

(** C150: anti-trapping, two phases. *)
Theorem C150_antitrapping : forall b phase cl ca n dphidt alpha f0 f1 f2,
  let two := antitrapping (xl b) (xu b) (yl b) (yu b) (hx b) (hy b) phase cl ca n dphidt alpha (f0, f1) in
  let three := antitrapping_3d b (flat phase) (flat4 cl) (flat4 ca) n (flat dphidt) alpha (flat4 f0, flat4 f1, f2) in
  forall i j k c, ((zl b <= k <= zu b)%Z -> flux0 three i j k c = fst two i j c /\ flux1 three i j k c = snd two i j c) /\
    flux2 three i j k c = f2 i j k c.
Proof. exact two_flat. Qed.
Print Assumptions C150_antitrapping.

(** C150: anti-trapping, three phases. *)
Theorem C150_antitrapping_three : forall b phase cl ca cb dphidt alpha f0 f1 f2,
  let two := antitrapping3 (xl b) (xu b) (yl b) (yu b) (hx b) (hy b) phase cl ca cb dphidt alpha (f0, f1) in
  let three := antitrapping3_3d b (flat4 phase) (flat cl) (flat ca) (flat cb) (flat4 dphidt) alpha (flat f0, flat f1, f2) in
  forall i j k, ((zl b <= k <= zu b)%Z -> flux0 three i j k = fst two i j /\ flux1 three i j k = snd two i j) /\
    flux2 three i j k = f2 i j k.
Proof. exact th_flat. Qed.
Print Assumptions C150_antitrapping_three.

Example C150_ex : (* a solid growing along x, in two dimensions and in a slab of three layers *)
  let ph : arr2 := fun i _ => if (i <=? 0)%Z then 0 else 1 in
  let z : arr3 := fun _ _ _ => 0 in
  let five : arr4 := fun _ _ _ _ => 5 in
  let three := antitrapping_3d cube (flat ph) (flat4 (fun _ _ _ => 2)) (flat4 (fun _ _ _ => 1)) 1 (flat (fun _ _ => 1)) 1 (flat4 z, flat4 z, five) in
  0 < flux0 three 1%Z 1%Z 0%Z 1%Z /\ flux0 three 1%Z 1%Z 2%Z 1%Z = flux0 three 1%Z 1%Z 0%Z 1%Z /\ flux2 three 1%Z 1%Z 1%Z 1%Z = 5.
Proof.
  intros ph z five three. unfold three.
  pose proof (C150_antitrapping cube ph (fun _ _ _ => 2) (fun _ _ _ => 1) 1 (fun _ _ => 1) 1 z z five) as S. cbv zeta in S.
  destruct (S 1 1 0 1)%Z as [A0 _]. destruct (S 1 1 2 1)%Z as [A2 _]. destruct (S 1 1 1 1)%Z as [_ F].
  destruct (A0 ltac:(cbn; lia)) as [B0 _]. destruct (A2 ltac:(cbn; lia)) as [B2 _]. rewrite B0, B2. split; [| split; [reflexivity | exact F]].
  apply (AntiTrap_Proofs.two_direction 0 2 0 2 1 1 ph (fun _ _ _ => 2) (fun _ _ _ => 1) 1 (fun _ _ => 1) 1 (z, z) 1%Z 1%Z 1%Z);
    unfold AntiTrap_Spec.mean, at_tol, ph; cbn; try lra; try (split; lia); lia.
Qed.

(** C151: the Cahn-Hilliard flux is the face mobility times the difference of the derivative of the double well minus kappa times the Laplacian. *)
Theorem C151_cahn_hilliard : forall b conc mob ca cb ws kappa fl, hx b <> 0 -> hy b <> 0 -> hz b <> 0 ->
  exists mu,
    (forall i j k, exists d, derivable_pt_lim (ch_energy ca cb ws) (conc i j k) d /\
       mu i j k = d - kappa * laplace3 b conc i j k) /\
    gains b (fun _ _ _ => mob) (fun _ _ _ => mob) (fun _ _ _ => mob) mu fl
      (add_cahnhilliard_flux3 b conc mob ca cb ws kappa fl).
Proof. exact ch_potential. Qed.
Print Assumptions C151_cahn_hilliard.

(** C151: the same for the sintering flux, with the grain parameters in the free energy. *)
Theorem C151_sintering : forall b conc d n phi mob A B kappa w fl, (1 <= n)%Z -> hx b <> 0 -> hy b <> 0 -> hz b <> 0 ->
  exists mu,
    (forall i j k, in_box3 (xl b - 1) (xu b + 1) (yl b - 1) (yu b + 1) (zl b - 1) (zu b + 1) i j k ->
       exists e, derivable_pt_lim (sintering_energy A B n (phi i j k)) (conc i j k) e /\
       mu i j k = e - kappa * laplace3 b conc i j k) /\
    gains b (fun i j k => mob * flux0 d i j k) (fun i j k => mob * flux1 d i j k) (fun i j k => mob * flux2 d i j k) mu fl
      (add_wang_sintering_flux3 b conc d n phi mob A B kappa w fl).
Proof. exact wang_potential. Qed.
Print Assumptions C151_sintering.

Example C151_ex : (* a uniform concentration drives nothing *)
  forall i j k, on_x cube i j k -> flux0 (add_cahnhilliard_flux3 cube (fun _ _ _ => 1 / 4) 1 0 1 3 2 unit_flux) i j k = 1.
Proof.
  intros i j k O.
  destruct (C151_cahn_hilliard cube (fun _ _ _ => 1 / 4) 1 0 1 3 2 unit_flux) as (mu & D & G); try (cbn; lra).
  destruct (G i j k) as (A & _ & _). rewrite (A O).
  destruct (D i j k) as (d & P & ->). destruct (D (i - 1)%Z j k) as (d' & P' & ->). rewrite (uniqueness_limite _ _ _ _ P P').
  unfold laplace3, unit_flux, flux0. cbn [fst hx hy hz cube]. field.
Qed.

(** C152: the anti-trapping flux through a face is at most alpha times the partition times the rate. *)
Theorem C152_bounded : forall b phase cl ca ncomp dphidt alpha fl i j k c,
  let fl' := antitrapping_3d b phase cl ca ncomp dphidt alpha fl in
  Rabs (flux0 fl' i j k c - flux0 fl i j k c) <=
    Rabs alpha * Rabs (mean (cl (i - 1)%Z j k c) (cl i j k c) - mean (ca (i - 1)%Z j k c) (ca i j k c)) * Rabs (mean (dphidt (i - 1)%Z j k) (dphidt i j k)) /\
  Rabs (flux1 fl' i j k c - flux1 fl i j k c) <=
    Rabs alpha * Rabs (mean (cl i (j - 1)%Z k c) (cl i j k c) - mean (ca i (j - 1)%Z k c) (ca i j k c)) * Rabs (mean (dphidt i (j - 1)%Z k) (dphidt i j k)) /\
  Rabs (flux2 fl' i j k c - flux2 fl i j k c) <=
    Rabs alpha * Rabs (mean (cl i j (k - 1)%Z c) (cl i j k c) - mean (ca i j (k - 1)%Z c) (ca i j k c)) * Rabs (mean (dphidt i j (k - 1)%Z) (dphidt i j k)).
Proof. exact two3_bounded. Qed.
Print Assumptions C152_bounded.

(** C152: it carries solute from the solid to the liquid, along each axis. *)
Theorem C152_direction : forall b phase cl ca ncomp dphidt alpha fl i j k c, 0 < alpha -> (1 <= c <= ncomp)%Z ->
  let fl' := antitrapping_3d b phase cl ca ncomp dphidt alpha fl in
  (0 < hx b -> on_x b i j k -> mean (ca (i - 1)%Z j k c) (ca i j k c) < mean (cl (i - 1)%Z j k c) (cl i j k c) ->
     0 < mean (dphidt (i - 1)%Z j k) (dphidt i j k) -> at_tol * hx b < phase i j k - phase (i - 1)%Z j k ->
     flux0 fl i j k c < flux0 fl' i j k c) /\
  (0 < hy b -> on_y b i j k -> mean (ca i (j - 1)%Z k c) (ca i j k c) < mean (cl i (j - 1)%Z k c) (cl i j k c) ->
     0 < mean (dphidt i (j - 1)%Z k) (dphidt i j k) -> at_tol * hy b < phase i j k - phase i (j - 1)%Z k ->
     flux1 fl i j k c < flux1 fl' i j k c) /\
  (0 < hz b -> on_z b i j k -> mean (ca i j (k - 1)%Z c) (ca i j k c) < mean (cl i j (k - 1)%Z c) (cl i j k c) ->
     0 < mean (dphidt i j (k - 1)%Z) (dphidt i j k) -> at_tol * hz b < phase i j k - phase i j (k - 1)%Z ->
     flux2 fl i j k c < flux2 fl' i j k c).
Proof. exact two3_direction. Qed.
Print Assumptions C152_direction.

(** C152: an interface at rest gets none, in all three kernels. *)
Theorem C152_stationary : forall b alpha,
  (forall phase cl ca ncomp fl, same4 (antitrapping_3d b phase cl ca ncomp (fun _ _ _ => 0) alpha fl) fl) /\
  (forall phase cl ca cb fl, same3 (antitrapping3_3d b phase cl ca cb (fun _ _ _ _ => 0) alpha fl) fl) /\
  (forall phase n cl ca fl, (2 <= n)%Z -> same3 (antitrapping_multi_3d b phase n cl ca (fun _ _ _ _ => 0) alpha fl) fl).
Proof. exact stationary3. Qed.
Print Assumptions C152_stationary.

(** C152: the three-phase kernel with a missing third phase gives the opposite of the two-phase kernel, as in two dimensions. *)
Theorem C152_three_phase_reduces_refuted : forall b phase cl ca cb dphidt alpha f0 f1 f2 i j k,
  (forall i j k, phase i j k 3%Z = 0) -> (forall i j k, phase i j k 1%Z = 1 - phase i j k 2%Z) ->
  let two := antitrapping_3d b (part phase 2) (one_part cl) (one_part ca) 1 (part dphidt 2) alpha (one_part f0, one_part f1, one_part f2) in
  let three := antitrapping3_3d b phase cl ca cb dphidt alpha (f0, f1, f2) in
  flux0 three i j k - f0 i j k = - (flux0 two i j k 1%Z - f0 i j k) /\
  flux1 three i j k - f1 i j k = - (flux1 two i j k 1%Z - f1 i j k) /\
  flux2 three i j k - f2 i j k = - (flux2 two i j k 1%Z - f2 i j k).
Proof. exact th_opposite. Qed.
Print Assumptions C152_three_phase_reduces_refuted.

Example C152_ex : (* planar solid growing along z: positive with two phases, negative with three *)
  let ph : arr4 := fun _ _ k p => if (p =? 3)%Z then 0 else if (p =? 2)%Z then (if (k <=? 0)%Z then 0 else 1) else 1 - (if (k <=? 0)%Z then 0 else 1) in
  let z : arr3 := fun _ _ _ => 0 in
  0 < flux2 (antitrapping_3d cube (part ph 2) (one_part (fun _ _ _ => 2)) (one_part (fun _ _ _ => 1)) 1 (part (fun _ _ _ _ => 1) 2) 1 (one_part z, one_part z, one_part z)) 1%Z 1%Z 1%Z 1%Z /\
  flux2 (antitrapping3_3d cube ph (fun _ _ _ => 2) (fun _ _ _ => 1) z (fun _ _ _ _ => 1) 1 (z, z, z)) 1%Z 1%Z 1%Z < 0.
Proof.
  cbv zeta. set (ph := fun _ _ k p : Z => _). set (z := fun _ _ _ : Z => 0).
  destruct (C152_three_phase_reduces_refuted cube ph (fun _ _ _ => 2) (fun _ _ _ => 1) z (fun _ _ _ _ => 1) 1 z z z 1%Z 1%Z 1%Z) as (_ & _ & E); try reflexivity.
  destruct (C152_direction cube (part ph 2) (one_part (fun _ _ _ => 2)) (one_part (fun _ _ _ => 1)) 1 (part (fun _ _ _ _ => 1) 2) 1 (one_part z, one_part z, one_part z) 1%Z 1%Z 1%Z 1%Z) as (_ & _ & D); [lra | lia |].
  assert (P := D ltac:(cbn; lra) ltac:(unfold on_z, in_box3; cbn; lia) ltac:(unfold one_part, mean; lra) ltac:(unfold part, mean; lra) ltac:(unfold part, ph, at_tol; cbn; lra)).
  match type of P with _ < ?r => change (0 < r) in P end. split; [exact P |]. change (z 1%Z 1%Z 1%Z) with 0 in E. lra.
Qed.

(** C153: several order parameters, front along x: the flux of the two-dimensional kernel, none along z. *)
Theorem C153_front_x_partial : forall b u n cl ca dphidt alpha f0 f1 f2 i j k, (2 <= n)%Z -> (zl b <= k <= zu b)%Z ->
  let two := antitrapping_multi (xl b) (xu b) (yl b) (yu b) (hx b) (hy b) (fun i _ p => u i p) n
      (fun i j => cl i j k) (fun i j => ca i j k) (fun i j p => dphidt i j k p) alpha (fun i j => f0 i j k, fun i j => f1 i j k) in
  let three := antitrapping_multi_3d b (along_x u) n cl ca dphidt alpha (f0, f1, f2) in
  flux0 three i j k = fst two i j /\ flux1 three i j k = snd two i j /\ flux2 three i j k = f2 i j k.
Proof. exact multi_front_x. Qed.
Print Assumptions C153_front_x_partial.

(** C153: several order parameters, front along y: the fluxes along x and y of the two-dimensional kernel. *)
Theorem C153_front_y_partial : forall b u n cl ca dphidt alpha f0 f1 f2 i j k, (2 <= n)%Z -> (zl b <= k <= zu b)%Z ->
  let two := antitrapping_multi (xl b) (xu b) (yl b) (yu b) (hx b) (hy b) (fun _ j p => u j p) n
      (fun i j => cl i j k) (fun i j => ca i j k) (fun i j p => dphidt i j k p) alpha (fun i j => f0 i j k, fun i j => f1 i j k) in
  let three := antitrapping_multi_3d b (along_y u) n cl ca dphidt alpha (f0, f1, f2) in
  flux0 three i j k = fst two i j /\ flux1 three i j k = snd two i j.
Proof. exact multi_front_y. Qed.
Print Assumptions C153_front_y_partial.

(** C153: a front along z, whatever its speed, gets no anti-trapping flux at all. *)
Theorem C153_front_z_refuted : forall b u n cl ca dphidt alpha fl,
  same3 (antitrapping_multi_3d b (along_z u) n cl ca dphidt alpha fl) fl.
Proof. exact multi_front_z. Qed.
Print Assumptions C153_front_z_refuted.

(** C153: a front along y gets a flux of full size through the z-faces, along which nothing varies. *)
Theorem C153_no_leak_refuted : forall b s cl ca dphidt alpha f0 f1 f2 i j k, 0 < hy b -> on_z b i j k -> 2 * at_tol * hy b < s j - s (j - 1)%Z ->
  let phase := along_y (fun j p => if (p =? 1)%Z then s j else 1 - s j) in
  flux2 (antitrapping_multi_3d b phase 2 cl ca dphidt alpha (f0, f1, f2)) i j k =
  f2 i j k + alpha * (mean (cl i j (k - 1)%Z) (cl i j k) - mean (ca i j (k - 1)%Z) (ca i j k)) * mean (dphidt i (j - 1)%Z k 1%Z) (dphidt i j k 1%Z).
Proof. exact multi_leak. Qed.
Print Assumptions C153_no_leak_refuted.

(** C153: an oblique front in a slab gets another flux than in two dimensions. *)
Theorem C153_slab_refuted : forall b p q cl ca dphidt alpha f0 f1 f2 i j k, hx b <> 0 -> hy b <> 0 -> on_x b i j k -> at_tol < p -> q <> 0 -> alpha <> 0 ->
  cl (i - 1)%Z j + cl i j <> ca (i - 1)%Z j + ca i j -> dphidt (i - 1)%Z j 1%Z + dphidt i j 1%Z <> 0 ->
  let s : arr2 := fun i j => p * (hx b * IZR i) + q * (hy b * IZR j) in
  let phase : arr3 := fun i j c => if (c =? 1)%Z then s i j else 1 - s i j in
  flux0 (antitrapping_multi_3d b (flat4 phase) 2 (flat cl) (flat ca) (flat4 dphidt) alpha (flat f0, flat f1, f2)) i j k <>
  fst (antitrapping_multi (xl b) (xu b) (yl b) (yu b) (hx b) (hy b) phase 2 cl ca dphidt alpha (f0, f1)) i j.
Proof. exact multi_oblique. Qed.
Print Assumptions C153_slab_refuted.

Definition grain_and_liquid (s : Z -> R) (j p : Z) : R := if (p =? 1)%Z then s j else 1 - s j.
Example C153_ex : (* the two-phase kernel corrects a front along z, the kernel for several order parameters does not; it leaks for a front along y *)
  let s : Z -> R := fun k => if (k <=? 0)%Z then 0 else 1 in
  let z : arr3 := fun _ _ _ => 0 in
  let multi u := antitrapping_multi_3d cube (u (grain_and_liquid s)) 2 (fun _ _ _ => 2) (fun _ _ _ => 1) (fun _ _ _ _ => 1) 1 (z, z, z) in
  0 < flux2 (antitrapping_3d cube (only_z s) (one_part (fun _ _ _ => 2)) (one_part (fun _ _ _ => 1)) 1 (fun _ _ _ => 1) 1 (one_part z, one_part z, one_part z)) 1%Z 1%Z 1%Z 1%Z /\
  flux2 (multi along_z) 1%Z 1%Z 1%Z = 0 /\ flux2 (multi along_y) 1%Z 1%Z 1%Z = 1.
Proof.
  intros s z multi. unfold multi. repeat split.
  - destruct (C152_direction cube (only_z s) (one_part (fun _ _ _ => 2)) (one_part (fun _ _ _ => 1)) 1 (fun _ _ _ => 1) 1 (one_part z, one_part z, one_part z) 1%Z 1%Z 1%Z 1%Z) as (_ & _ & D); [lra | lia |].
    exact (D ltac:(cbn; lra) ltac:(unfold on_z, in_box3; cbn; lia) ltac:(unfold one_part, mean; lra) ltac:(unfold mean; lra) ltac:(unfold only_z, s, at_tol; cbn; lra)).
  - destruct (C153_front_z_refuted cube (grain_and_liquid s) 2 (fun _ _ _ => 2) (fun _ _ _ => 1) (fun _ _ _ _ => 1) 1 (z, z, z) 1%Z 1%Z 1%Z) as (_ & _ & A). rewrite A. reflexivity.
  - unfold grain_and_liquid. rewrite (C153_no_leak_refuted cube s (fun _ _ _ => 2) (fun _ _ _ => 1) (fun _ _ _ _ => 1) 1 z z z 1%Z 1%Z 1%Z);
      [unfold z, mean; lra | cbn; lra | unfold on_z, in_box3; cbn; lia | unfold s, at_tol; cbn; lra].
Qed.

(** C154: the spinodal flux in a slab: the fluxes along x and z are right, those along y are cleared except at the upper boundary of the patch. *)
Theorem C154_slab_refuted : forall b conc conca concb d0 d1 d2 eta kappa f0 f1 f2,
  let two := spinodal_flux (xl b) (xu b) (yl b) (yu b) (hx b) (hy b) conc conca concb d0 d1 eta kappa (f0, f1) in
  let three := spinodal_flux3 b (flat conc) (flat conca) (flat concb) (flat d0, flat d1, d2) (flat eta) kappa (flat f0, flat f1, f2) in
  forall i j k, (on_x b i j k -> flux0 three i j k = fst two i j) /\ (on_z b i j k -> flux2 three i j k = 0) /\
    (on_y b i j k -> (j <= yu b)%Z -> flux1 three i j k = 0) /\
    (on_y b i j k -> j = (yu b + 1)%Z -> flux1 three i j k = snd two i j).
Proof. exact spinodal_flat. Qed.
Print Assumptions C154_slab_refuted.

(** C154: on x- and z-faces the flux is the gradient flux. *)
Theorem C154_other_faces_partial : forall b conc conca concb diff eta kappa fl,
  let fl' := spinodal_flux3 b conc conca concb diff eta kappa fl in
  forall i j k,
  (on_x b i j k -> flux0 fl' i j k = flux0 diff i j k * ((conc i j k - conc (i - 1)%Z j k) / hx b)
     - kappa * (mean (conca (i - 1)%Z j k) (conca i j k) - mean (concb (i - 1)%Z j k) (concb i j k)) * ((eta i j k - eta (i - 1)%Z j k) / hx b)) /\
  (on_z b i j k -> flux2 fl' i j k = flux2 diff i j k * ((conc i j k - conc i j (k - 1)%Z) / hz b)
     - kappa * (mean (conca i j (k - 1)%Z) (conca i j k) - mean (concb i j (k - 1)%Z) (concb i j k)) * ((eta i j k - eta i j (k - 1)%Z) / hz b)).
Proof. exact spinodal_other. Qed.
Print Assumptions C154_other_faces_partial.

(** C154: hence two patches that share a face disagree about the flux through it. *)
Theorem C154_shared_face_refuted : forall b m conc conca concb diff eta kappa fl i k,
  (yl b <= m < yu b)%Z -> (xl b <= i <= xu b)%Z -> (zl b <= k <= zu b)%Z ->
  let below := spinodal_flux3 (below b m) conc conca concb diff eta kappa fl in
  let above := spinodal_flux3 (above b m) conc conca concb diff eta kappa fl in
  flux1 above i (m + 1)%Z k = 0 /\
  flux1 below i (m + 1)%Z k = 1 / hy b * (flux1 diff i (m + 1)%Z k * (conc i (m + 1)%Z k - conc i m k)
     - kappa * (mean (conca i m k) (conca i (m + 1)%Z k) - mean (concb i m k) (concb i (m + 1)%Z k)) * (eta i (m + 1)%Z k - eta i m k)).
Proof. exact spinodal_shared. Qed.
Print Assumptions C154_shared_face_refuted.

Example C154_ex : (* concentration j: one unit leaves the lower patch, none enters the upper one *)
  let c : arr3 := fun _ j _ => IZR j in
  let run b := spinodal_flux3 b c (fun _ _ _ => 0) (fun _ _ _ => 0) unit_flux (fun _ _ _ => 0) 0 no_flux in
  flux1 (run (below cube 1)) 1%Z 2%Z 1%Z = 1 /\ flux1 (run (above cube 1)) 1%Z 2%Z 1%Z = 0.
Proof.
  intros c run. unfold run.
  destruct (C154_shared_face_refuted cube 1 c (fun _ _ _ => 0) (fun _ _ _ => 0) unit_flux (fun _ _ _ => 0) 0 no_flux 1%Z 1%Z) as (A & B); try (cbn; lia).
  change (1 + 1)%Z with 2%Z in A, B. rewrite A, B. split; [| reflexivity]. unfold unit_flux, flux1, c, mean. cbn [fst snd hy cube]. lra.
Qed.
