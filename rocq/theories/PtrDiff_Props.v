(** C198-C200: diffusion coefficients computed by C++ loops on a patch; the spinodal strategy. *)
From Coq Require Import Reals ZArith List Bool Ascii Lra Lia.
From Verif Require Import Grid_Model Grid_Spec Functions_Model PhaseFlow_Model Trap3_Model.
From Verif Require Import Coupl_Model Diff3_Spec Coupl_Spec Coupl_Proofs PtrDiff_Model PtrDiff_Spec PtrDiff_Proofs.
Import ListNotations.
Open Scope R_scope.

(** C198: on every side of the patch each phase gets the matrix at the mean temperature and the mean composition of the two cells; no other entry changes.  Whatever the ghost widths and the number of species, in two and three dimensions. *)
Theorem C198_phases : forall nd3 (ch : bool) b gd gc gt n ml ma temp c_l c_a ol oa, room nd3 gd b 0 ->
  (ch = true -> forall i j k ic, on_side nd3 b FX i j k -> (0 <= ic < n)%Z -> sound (cell_at nd3 gc (c_l ic) i j k) /\ sound (cell_at nd3 gc (c_l ic) (i - 1) j k)) ->
  exists l a, phase_coeffs nd3 ch b gd gc gt n ml ma temp c_l c_a ol oa = Some (l, a) /\
    (forall d i j k e, on_side nd3 b d i j k -> (0 <= e < n * n)%Z ->
       entry nd3 d gd l e i j k = ml (side_mean nd3 gt temp d i j k) (side_comp nd3 gc n c_l d i j k) e /\
       entry nd3 d gd a e i j k = ma (side_mean nd3 gt temp d i j k) (side_comp nd3 gc n c_a d i j k) e) /\
    kept nd3 b gd (n * n) l ol /\ kept nd3 b gd (n * n) a oa.
Proof. exact phase_coefficients. Qed.
Print Assumptions C198_phases.

(** C198: the stored coefficients are weighted with the solid part of the side and its complement. *)
Theorem C198_weighted : forall nd3 b gd gw gp n phi dl da it at_ ol oa, room nd3 gw b 0 -> In it interps -> In at_ avgs ->
  exists l a, weighted_coeffs nd3 b gd gw gp n phi dl da it at_ ol oa = Some (l, a) /\
    (forall d i j k e, on_side nd3 b d i j k -> (0 <= e < n * n)%Z ->
       let h := solid_part nd3 gp phi it at_ d i j k in
       entry nd3 d gw l e i j k = (1 - h) * entry nd3 d gd dl e i j k /\ entry nd3 d gw a e i j k = h * entry nd3 d gd da e i j k) /\
    kept nd3 b gw (n * n) l ol /\ kept nd3 b gw (n * n) a oa.
Proof. exact weighted_coefficients. Qed.
Print Assumptions C198_weighted.

(** C198: both steps on a patch; for phases in [0,1] the weights are in [0,1]. *)
Theorem C198_patch : forall nd3 (ch : bool) b gd gw gc gt gp n ml ma temp phi c_l c_a it at_ dold out,
  room nd3 gd b 0 -> room nd3 gw b 0 -> In it interps -> In at_ avgs ->
  (ch = true -> forall i j k ic, on_side nd3 b FX i j k -> (0 <= ic < n)%Z -> sound (cell_at nd3 gc (c_l ic) i j k) /\ sound (cell_at nd3 gc (c_l ic) (i - 1) j k)) ->
  exists l a, set_diffusion nd3 ch b gd gw gc gt gp n ml ma temp phi c_l c_a it at_ dold out = Some (l, a) /\
    (forall d i j k e, on_side nd3 b d i j k -> (0 <= e < n * n)%Z ->
       let h := solid_part nd3 gp phi it at_ d i j k in let t := side_mean nd3 gt temp d i j k in
       entry nd3 d gw l e i j k = (1 - h) * ml t (side_comp nd3 gc n c_l d i j k) e /\
       entry nd3 d gw a e i j k = h * ma t (side_comp nd3 gc n c_a d i j k) e /\
       (0 <= cell_at nd3 gp phi i j k <= 1 -> 0 <= low3 (cell_at nd3 gp phi) d i j k <= 1 -> 0 <= h <= 1)) /\
    kept nd3 b gw (n * n) l (fst out) /\ kept nd3 b gw (n * n) a (snd out).
Proof. exact patch_diffusion. Qed.
Print Assumptions C198_patch.

(** C198: the result depends on entries of the arrays only, not on what the work arrays held, and nothing outside the arrays is written. *)
Theorem C198_memory : forall nd3 ch b gd gw gc gt gp n ml ma temp phi c_l c_a temp' phi' c_l' c_a' it at_ dold dold' out l a l' a',
  room nd3 gd b 0 -> room nd3 gw b 0 -> room nd3 gc b 1 -> room nd3 gt b 1 -> room nd3 gp b 1 -> In it interps -> In at_ avgs ->
  agree (cells_of nd3 gt) temp temp' -> agree (cells_of nd3 gp) phi phi' ->
  (forall ic, (0 <= ic < n)%Z -> agree (cells_of nd3 gc) (c_l ic) (c_l' ic) /\ agree (cells_of nd3 gc) (c_a ic) (c_a' ic)) ->
  set_diffusion nd3 ch b gd gw gc gt gp n ml ma temp phi c_l c_a it at_ dold out = Some (l, a) ->
  set_diffusion nd3 ch b gd gw gc gt gp n ml ma temp' phi' c_l' c_a' it at_ dold' out = Some (l', a') ->
  (forall d i j k e, on_side nd3 b d i j k -> (0 <= e < n * n)%Z ->
     entry nd3 d gw l e i j k = entry nd3 d gw l' e i j k /\ entry nd3 d gw a e i j k = entry nd3 d gw a' e i j k) /\
  (forall d e m, ~ (0 <= m < sides_of nd3 d gw)%Z -> dir_of d l e m = dir_of d (fst out) e m /\ dir_of d a e m = dir_of d (snd out) e m).
Proof. exact patch_memory. Qed.
Print Assumptions C198_memory.

(** two species, 1 x 1 x 2 cells, different ghost widths for all data: entry 3 on the z side between the cells *)
Definition tower : box3 := mk_box3 0 0 0 0 0 1 1 1 1.
Definition none : sides := (fun _ _ => 0, fun _ _ => 0, fun _ _ => 0).
Example C198_ex : exists l a,
  set_diffusion true true tower (grown tower 0) (grown tower 1) (grown tower 2) (grown tower 1) (grown tower 3) 2
    (fun t c e => t + c 0%Z + 10 * c 1%Z + 100 * IZR e) (fun t c e => t * c 1%Z)
    (fun m => if (m =? cell_place true (grown tower 1) 0 0 0)%Z then 6 else 2)
    (fun m => if (m =? cell_place true (grown tower 3) 0 0 1)%Z then 1 else 1 / 2)
    (fun ic m => if (m =? cell_place true (grown tower 2) 0 0 1)%Z then IZR ic else 0) (fun ic _ => IZR ic)
    "l" "a" (none, none) (none, none) = Some (l, a)
  /\ entry true FZ (grown tower 1) l 3 0 0 1 = 309 / 4 /\ entry true FZ (grown tower 1) a 3 0 0 1 = 3.
Proof.
  match goal with |- exists l a, set_diffusion ?nd ?ch ?b ?g1 ?g2 ?g3 ?g4 ?g5 ?n ?ml ?ma ?t ?p ?c ?c' ?it ?at_ ?d ?o = _ /\ _ =>
    destruct (C198_patch nd ch b g1 g2 g3 g4 g5 n ml ma t p c c' it at_ d o) as (l & a & E & V & _) end.
  - apply room_grown. lia.
  - unfold room, grown, tower. cbn. lia.
  - right. left. reflexivity.
  - left. reflexivity.
  - intros _ i j k ic H I. assert (C : (ic = 0 \/ ic = 1)%Z) by lia. unfold sound, cell_at. destruct C as [-> | ->]; destruct (_ =? _)%Z, (_ =? _)%Z; lra.
  - exists l, a. split; [exact E |]. destruct (V FZ 0%Z 0%Z 1%Z 3%Z) as (V1 & V2 & _); [cbn; unfold in_box3; lia | lia |].
    rewrite V1, V2. unfold solid_part, side_comp, side_mean, cell_at, low3. cbn -[IZR weight averaged mean Rdiv Rmult Rplus Rminus].
    rewrite averaged_a. unfold mean. rewrite weight_l by lra. split; lra.
Qed.

(** C199: with assertions compiled in the run stops exactly if a liquid composition of a cell beside an x side is out of tolerance.  Missing: the other sides, the solid. *)
Theorem C199_stops_partial : forall nd3 b gd gc gt n ml ma temp c_l c_a ol oa,
  phase_coeffs nd3 true b gd gc gt n ml ma temp c_l c_a ol oa = None <->
  exists i j k ic, on_side nd3 b FX i j k /\ (0 <= ic < n)%Z /\ ~ (sound (cell_at nd3 gc (c_l ic) i j k) /\ sound (cell_at nd3 gc (c_l ic) (i - 1) j k)).
Proof. exact phase_checks. Qed.
Print Assumptions C199_stops_partial.

Example C199_ex :
  phase_coeffs true true tower (grown tower 0) (grown tower 1) (grown tower 1) 2 (fun _ x => x) (fun _ x => x) (fun _ => 0)
    (fun ic m => if ((ic =? 1) && (m =? cell_place true (grown tower 1) (-1) 0 1))%Z then 2 else 0) (fun _ _ => 0) none none = None.
Proof.
  apply C199_stops_partial. exists 0%Z, 0%Z, 1%Z, 1%Z. split; [cbn; unfold in_box3; lia |]. split; [lia |]. unfold sound, cell_at. cbn -[IZR Rdiv]. lra.
Qed.

(** C199, negative: a composition out of tolerance that only a y side reads does not stop the run and enters the coefficient. *)
Theorem C199_checks_refuted : exists (c : fields) l a, on_side false unit_box FY 0 1 0 /\ ~ sound (cell_at false (grown unit_box 1) (c 0%Z) 0 1 0) /\
  side_comp false (grown unit_box 1) 1 c FY 0 1 0 0%Z = 1 /\
  phase_coeffs false true unit_box (grown unit_box 0) (grown unit_box 1) (grown unit_box 1) 1 (fun _ x => x) (fun _ x => x) (fun _ => 0) c c
    (fun _ _ => 0, fun _ _ => 0, fun _ _ => 0) (fun _ _ => 0, fun _ _ => 0, fun _ _ => 0) = Some (l, a).
Proof. exact checks_refuted. Qed.
Print Assumptions C199_checks_refuted.

(** C200: the coefficient of the spinodal strategy is mobility times curvature at the mean temperature and composition of each side; no other entry changes. *)
Theorem C200_coefficient : forall nd3 b gd gc gt n d0 temp c out, room nd3 gd b 0 ->
  let f := spinodal_coeffs nd3 b gd gc gt n d0 temp c out in
  (forall d i j k, on_side nd3 b d i j k -> side_at nd3 d gd f i j k = d0 (side_mean nd3 gt temp d i j k) (side_comp nd3 gc n c d i j k)) /\
  (forall d m, no_side nd3 b d gd m -> pick3 d f m = pick3 d out m).
Proof. exact spinodal_coefficient. Qed.
Print Assumptions C200_coefficient.

(** C200: coefficients and flux of a patch in two dimensions: the flux is that of the model with the phase in the place of the order parameter eta. *)
Theorem C200_flux_partial : forall conc phase eta n a bb diff kappa s b ng gt d0 temp cells coeffs out f d i j k,
  make_spinodal conc phase eta n a bb diff kappa = Some s -> on_side false b d i j k ->
  let g := grown b ng in
  coeffs diff = spinodal_coeffs false b (grown b 0) g gt 1 d0 temp (fun _ => cells conc) out ->
  flux2_at (spinodal_patch_flux s b ng cells coeffs f) d i j =
  spinodal_law (spacing b d) (d0 (side_mean false gt temp d i j k) (side_comp false g 1 (fun _ => cells conc) d i j k)) kappa (both false g (cells conc) d i j k)
    (both false g (cells a) d i j k) (both false g (cells bb) d i j k) (both false g (cells phase) d i j k).
Proof. exact spinodal_patch. Qed.
Print Assumptions C200_flux_partial.

(** C200: the strategy is accepted exactly if its indices are valid and there is a species. *)
Theorem C200_accepts : forall conc phase eta n a b diff kappa,
  (exists s, make_spinodal conc phase eta n a b diff kappa = Some s) <-> (0 <= eta /\ 0 <= a /\ 0 <= b /\ 0 <= diff /\ 0 < n)%Z.
Proof. exact spinodal_accepts. Qed.
Print Assumptions C200_accepts.

(** side between a cell with composition 1 and phase 1 and one with zeros: 5 (1 - 0) - 3 (2 - 1) (1 - 0) *)
Example C200_ex : exists s, make_spinodal 0 1 2 1 3 4 9 3 = Some s /\
  let step (m : Z) := if (m =? 4)%Z then 1 else 0 in
  let cells (id : Z) : ptr := match id with 0%Z | 1%Z => step | 3%Z => fun _ => 2 | 4%Z => fun _ => 1 | _ => fun _ => 7 end in
  flux2_at (spinodal_patch_flux s unit_box 1 cells
    (fun _ => spinodal_coeffs false unit_box (grown unit_box 0) (grown unit_box 1) (grown unit_box 1) 1 (fun t c => t + 2 * c 0%Z) (fun _ => 4) (fun _ => cells 0%Z) zeros)
    (fun _ _ => 0, fun _ _ => 0)) FY 0 0 = 2.
Proof.
  eexists. split; [reflexivity |]. cbv zeta.
  assert (H : on_side false unit_box FY 0 0 0) by (cbn; unfold in_box; lia).
  match goal with |- flux2_at (spinodal_patch_flux ?s ?b ?ng ?cells ?co ?f) _ _ _ = _ =>
    etransitivity; [exact (C200_flux_partial 0 1 2 1 3 4 9 3 s b ng (grown unit_box 1) (fun t c => t + 2 * c 0%Z) (fun _ => 4) cells co zeros f FY 0 0 0 eq_refl H eq_refl) |] end.
  unfold spinodal_law, side_comp, side_mean, both, cell_at, low3. cbn -[IZR mean Rdiv Rmult Rplus Rminus]. unfold mean. lra.
Qed.

(** C200, negative: the flux does not depend on the data of eta, though the model needs them. *)
Theorem C200_eta_refuted : forall conc phase eta n a b diff kappa s, make_spinodal conc phase eta n a b diff kappa = Some s ->
  ~ In eta [conc; phase; a; b] -> a <> b -> kappa <> 0 ->
  (forall bx ng cells cells' coeffs f, (forall id, id <> eta -> cells id = cells' id) ->
     spinodal_patch_flux s bx ng cells coeffs f = spinodal_patch_flux s bx ng cells' coeffs f) /\
  exists cells coeffs, let g := grown unit_box 1 in
    flux2_at (spinodal_patch_flux s unit_box 1 cells coeffs (fun _ _ => 0, fun _ _ => 0)) FX 0 0 <>
    spinodal_law (spacing unit_box FX) (side_at false FX (grown unit_box 0) (coeffs diff) 0 0 0) kappa (both false g (cells conc) FX 0 0 0)
      (both false g (cells a) FX 0 0 0) (both false g (cells b) FX 0 0 0) (both false g (cells eta) FX 0 0 0).
Proof. exact spinodal_eta_refuted. Qed.
Print Assumptions C200_eta_refuted.
