(** Proofs about the phase coupling of the composition flux. *)
From Coq Require Import Reals ZArith List Bool Ascii Lia Lra Psatz FunctionalExtensionality.
From Verif Require Import Grid_Model Grid_Spec Grid_Proofs Functions_Model Functions_Proofs PhaseFlow_Model Trap3_Model Trap3_Proofs.
From Verif Require Import Coupl_Model Diff3_Spec Coupl_Spec.
From Verif Require Transport_Model.
Import ListNotations.
Open Scope R_scope.
Set Bullet Behavior "Strict Subproofs".

(** ** places *)
Lemma row_inj : forall n a b c d : Z, (0 <= a < n -> 0 <= b < n -> a + n * c = b + n * d -> a = b /\ c = d)%Z.
Proof. intros n a b c d A B E. assert (c = d) by nia. subst. split; lia. Qed.
Lemma offset_inj : forall (nd3 : bool) (l0 n0 l1 n1 l2 i j k i' j' k' : Z),
  (0 <= i - l0 < n0)%Z -> (0 <= i' - l0 < n0)%Z -> (0 <= j - l1 < n1)%Z -> (0 <= j' - l1 < n1)%Z -> (nd3 = false -> k = k') ->
  offset nd3 l0 n0 l1 n1 l2 i j k = offset nd3 l0 n0 l1 n1 l2 i' j' k' -> (i = i' /\ j = j' /\ k = k')%Z.
Proof.
  intros nd3 l0 n0 l1 n1 l2 i j k i' j' k' A A' B B' K E. unfold offset in E. destruct (row_inj n0 _ _ _ _ A A' E) as [E1 E2].
  destruct nd3.
  - destruct (row_inj n1 _ _ _ _ B B' E2) as [E3 E4]. lia.
  - specialize (K eq_refl). lia.
Qed.
Lemma row_bound : forall n m a b : Z, (0 <= a < n -> 0 <= b < m -> 0 <= a + n * b < n * m)%Z.
Proof. intros. nia. Qed.
Lemma offset_bound : forall (nd3 : bool) (l0 n0 l1 n1 l2 n2 i j k : Z),
  (0 <= i - l0 < n0)%Z -> (0 <= j - l1 < n1)%Z -> (if nd3 then 0 <= k - l2 < n2 else True)%Z ->
  (0 <= offset nd3 l0 n0 l1 n1 l2 i j k < n0 * n1 * (if nd3 then n2 else 1))%Z.
Proof.
  intros nd3 l0 n0 l1 n1 l2 n2 i j k A B C. unfold offset. rewrite <- Z.mul_assoc. apply row_bound; auto.
  destruct nd3; [apply row_bound; auto | lia].
Qed.

Definition flat_k (nd3 : bool) (k : Z) : Prop := nd3 = false -> k = 0%Z.
Lemma cell_place_idx : forall nd3 g i j k, flat_k nd3 k -> idx_cell nd3 g i j k = cell_place nd3 g i j k.
Proof. intros nd3 g i j k F. unfold idx_cell, cell_place, offset, kmin_of, kp_of. destruct nd3; [ring | rewrite (F eq_refl); ring]. Qed.
Lemma x_place_idx : forall nd3 g i j k, flat_k nd3 k -> idx_x nd3 g i j k = side_place nd3 FX g i j k.
Proof. intros nd3 g i j k F. unfold idx_x, side_place, offset, kmin_of, kp_of. destruct nd3; [ring | rewrite (F eq_refl); ring]. Qed.
Lemma y_place_idx : forall nd3 g i j k, flat_k nd3 k -> idx_y nd3 g i j k = side_place nd3 FY g i j k.
Proof. intros nd3 g i j k F. unfold idx_y, side_place, offset, kmin_of, kp_of. destruct nd3; [ring | rewrite (F eq_refl); ring]. Qed.
Lemma z_place_idx : forall g i j k, idx_z true g i j k = side_place true FZ g i j k.
Proof. intros g i j k. unfold idx_z, side_place, offset, kmin_of, kp_of. ring. Qed.
Definition stride (nd3 : bool) (g : gbox) (d : dir3) : Z := match d with FX => 1%Z | FY => m0 g | FZ => kp_of nd3 g end.
Lemma low_place_idx : forall nd3 g d i j k, flat_k nd3 k -> (d = FZ -> nd3 = true) ->
  (idx_cell nd3 g i j k - stride nd3 g d)%Z = low3 (cell_place nd3 g) d i j k.
Proof.
  intros nd3 g d i j k F D. rewrite cell_place_idx by auto. unfold cell_place, offset, low3, stride, kp_of.
  destruct d; [ring | ring | rewrite (D eq_refl); ring].
Qed.
Lemma low3_at : forall nd3 g p d i j k, p (low3 (cell_place nd3 g) d i j k) = low3 (cell_at nd3 g p) d i j k.
Proof. intros. unfold low3, cell_at. destruct d; reflexivity. Qed.

(** ** a loop that stores one value per side *)
Section Stores.
Variables (a0 a1 b0 b1 c0 c1 : Z) (idx : Z -> Z -> Z -> Z) (v : Z -> Z -> Z -> R).
Hypothesis inj : forall i j k i' j' k', in_box3 a0 a1 b0 b1 c0 c1 i j k -> in_box3 a0 a1 b0 b1 c0 c1 i' j' k' ->
  idx i j k = idx i' j' k' -> (i = i' /\ j = j' /\ k = k')%Z.
Let body (i j k : Z) (s : ptr) : ptr := store s (idx i j k) (v i j k).
Lemma stored_at : forall s i j k, in_box3 a0 a1 b0 b1 c0 c1 i j k -> do_cells3 a0 a1 b0 b1 c0 c1 body s (idx i j k) = v i j k.
Proof.
  intros s i j k H.
  destruct (cells3_once ptr (fun s s' => s (idx i j k) = s' (idx i j k)) a0 a1 b0 b1 c0 c1 i j k body s) as (s0 & _ & E).
  - reflexivity.
  - intros x y z E1 E2. congruence.
  - exact H.
  - intros i' j' k' s' H' N. unfold body, store. destruct (Z.eqb_spec (idx i j k) (idx i' j' k')) as [E | E]; [| reflexivity].
    destruct (inj _ _ _ _ _ _ H H' E) as (E1 & E2 & E3). exfalso. lia.
  - rewrite <- E. unfold body, store. rewrite Z.eqb_refl. reflexivity.
Qed.
Lemma stored_else : forall s n, (forall i j k, in_box3 a0 a1 b0 b1 c0 c1 i j k -> n <> idx i j k) -> do_cells3 a0 a1 b0 b1 c0 c1 body s n = s n.
Proof.
  intros s n H. symmetry.
  apply (cells3_never ptr (fun s s' => s n = s' n) a0 a1 b0 b1 c0 c1 body s).
  - reflexivity.
  - intros x y z E1 E2. congruence.
  - intros i j k s' B. unfold body, store. destruct (Z.eqb_spec n (idx i j k)) as [E | E]; [| reflexivity]. elim (H i j k B E).
Qed.
End Stores.

(** the box of the sides of each direction *)
Definition loop_box (nd3 : bool) (b : box3) (d : dir3) (i j k : Z) : Prop :=
  in_box3 (xl b) (match d with FX => xu b + 1 | _ => xu b end) (yl b) (match d with FY => yu b + 1 | _ => yu b end)
          (k_lo nd3 b) (match d with FZ => k_hi nd3 b + 1 | _ => k_hi nd3 b end) i j k.
Lemma loop_sides : forall nd3 b d i j k, (d = FZ -> nd3 = true) -> (loop_box nd3 b d i j k <-> on_side nd3 b d i j k).
Proof.
  intros nd3 b d i j k D. unfold loop_box, on_side, on_face3, k_lo, k_hi. destruct nd3.
  - destruct d; tauto.
  - destruct d; [| | discriminate (D eq_refl)]; unfold in_box3, in_box; split; intros; repeat split; lia.
Qed.
Lemma loop_flat : forall nd3 b d i j k, (d = FZ -> nd3 = true) -> loop_box nd3 b d i j k -> flat_k nd3 k.
Proof. intros nd3 b d i j k D (_ & _ & K) E. subst nd3. cbn in K. destruct d; [lia | lia | discriminate (D eq_refl)]. Qed.
Definition sidx (d : dir3) : bool -> gbox -> Z -> Z -> Z -> Z := match d with FX => idx_x | FY => idx_y | FZ => idx_z end.
Lemma sidx_place : forall nd3 d g i j k, (d = FZ -> nd3 = true) -> flat_k nd3 k -> sidx d nd3 g i j k = side_place nd3 d g i j k.
Proof.
  intros nd3 d g i j k D F. destruct d; cbn [sidx].
  - apply x_place_idx; auto.
  - apply y_place_idx; auto.
  - rewrite (D eq_refl). apply z_place_idx.
Qed.
Lemma side_inj : forall nd3 b d g i j k i' j' k', (d = FZ -> nd3 = true) -> room nd3 g b 0 -> loop_box nd3 b d i j k -> loop_box nd3 b d i' j' k' ->
  sidx d nd3 g i j k = sidx d nd3 g i' j' k' -> (i = i' /\ j = j' /\ k = k')%Z.
Proof.
  intros nd3 b d g i j k i' j' k' D (R1 & R2 & R3 & R4 & _) B B' E.
  assert (F : flat_k nd3 k) by (eapply loop_flat; eauto). assert (F' : flat_k nd3 k') by (eapply loop_flat; eauto).
  rewrite !sidx_place in E by auto. destruct B as (B1 & B2 & _). destruct B' as (B1' & B2' & _).
  eapply offset_inj; [| | | | | exact E].
  - destruct d; lia.
  - destruct d; lia.
  - destruct d; lia.
  - destruct d; lia.
  - intro N. rewrite (F N), (F' N). reflexivity.
Qed.
(** the sides written are inside the array *)
Lemma side_bound : forall nd3 b d g i j k, (d = FZ -> nd3 = true) -> room nd3 g b 0 -> loop_box nd3 b d i j k ->
  (0 <= sidx d nd3 g i j k < sides_of nd3 d g)%Z.
Proof.
  intros nd3 b d g i j k D (R1 & R2 & R3 & R4 & R5) B. rewrite sidx_place by (auto; eapply loop_flat; eauto).
  destruct B as (B1 & B2 & B3). unfold side_place, sides_of. apply offset_bound.
  - destruct d; lia.
  - destruct d; lia.
  - destruct nd3; [| exact I]. cbn in B3. destruct d; lia.
Qed.
Lemma cell_bound : forall nd3 g b d i j k, (d = FZ -> nd3 = true) -> room nd3 g b 1 -> loop_box nd3 b d i j k ->
  (0 <= cell_place nd3 g i j k < cells_of nd3 g)%Z /\ (0 <= low3 (cell_place nd3 g) d i j k < cells_of nd3 g)%Z.
Proof.
  intros nd3 g b d i j k D (R1 & R2 & R3 & R4 & R5) (B1 & B2 & B3). unfold low3, cells_of, cell_place. split; [| destruct d]; apply offset_bound;
    try (destruct d; lia); try lia; destruct nd3; try exact I; cbn in B3; try (destruct d; lia); lia.
Qed.

Lemma known_slope_in : forall it at_, In it interps -> In at_ avgs -> known_slope it at_ = true.
Proof. intros it at_ I A. repeat destruct I as [<- | I]; try destruct I; repeat destruct A as [<- | A]; try destruct A; reflexivity. Qed.
Lemma known_interp_in : forall it at_, In it interps -> In at_ avgs -> known_interp it at_ = true.
Proof. intros it at_ I A. repeat destruct I as [<- | I]; try destruct I; repeat destruct A as [<- | A]; try destruct A; reflexivity. Qed.

(** ** KKS *)
Definition kks_law (it at_ : ascii) (d0 : R) (p pm l lm a am : R) : R := d0 * slope it (averaged at_ pm p) * (mean lm l - mean am a).
Lemma kks_value_law : forall it at_ p pm l lm a am d0, kks_value it at_ p pm l lm a am d0 = kks_law it at_ d0 p pm l lm a am.
Proof.
  intros. unfold kks_value, kks_law, slope, averaged, mean. cbv zeta. rewrite (average_symmetric p pm). field.
Qed.
Lemma kks_pick : forall nd3 b gd gp gc phi c_l c_a d0 it at_ out f d, kks_coupling nd3 b gd gp gc phi c_l c_a d0 it at_ out = Some f -> (d = FZ -> nd3 = true) ->
  pick3 d f = do_cells3 (xl b) (match d with FX => xu b + 1 | _ => xu b end)%Z (yl b) (match d with FY => yu b + 1 | _ => yu b end)%Z
          (k_lo nd3 b) (match d with FZ => k_hi nd3 b + 1 | _ => k_hi nd3 b end)%Z
     (fun i j k s => store s (sidx d nd3 gd i j k)
        (kks_value it at_ (phi (idx_cell nd3 gp i j k)) (phi (idx_cell nd3 gp i j k - stride nd3 gp d)%Z)
           (c_l (idx_cell nd3 gc i j k)) (c_l (idx_cell nd3 gc i j k - stride nd3 gc d)%Z)
           (c_a (idx_cell nd3 gc i j k)) (c_a (idx_cell nd3 gc i j k - stride nd3 gc d)%Z) (pick3 d d0 (sidx d nd3 gd i j k)))) (pick3 d out).
Proof.
  intros nd3 b gd gp gc phi c_l c_a [[dx dy] dz] it at_ [[ox oy] oz] f d E D. unfold kks_coupling in E. destruct (known_slope it at_); [| discriminate].
  injection E as <-. destruct d; [reflexivity | reflexivity |]. rewrite (D eq_refl). reflexivity.
Qed.
Lemma kks_z2 : forall b gd gp gc phi c_l c_a d0 it at_ out f, kks_coupling false b gd gp gc phi c_l c_a d0 it at_ out = Some f -> snd f = snd out.
Proof. intros b gd gp gc phi c_l c_a [[dx dy] dz] it at_ [[ox oy] oz] f E. unfold kks_coupling in E. destruct (known_slope it at_); [| discriminate]. injection E as <-. reflexivity. Qed.
Lemma kks_runs : forall nd3 b gd gp gc phi c_l c_a d0 it at_ out, In it interps -> In at_ avgs ->
  exists f, kks_coupling nd3 b gd gp gc phi c_l c_a d0 it at_ out = Some f.
Proof. intros nd3 b gd gp gc phi c_l c_a [[dx dy] dz] it at_ [[ox oy] oz] I A. unfold kks_coupling. rewrite known_slope_in by auto. eexists. reflexivity. Qed.
Lemma side_dir : forall nd3 b d i j k, on_side nd3 b d i j k -> d = FZ -> nd3 = true.
Proof. intros nd3 b d i j k H ->. destruct nd3; [reflexivity | elim H]. Qed.

Lemma kks_at : forall nd3 b gd gp gc phi c_l c_a d0 it at_ out f d i j k, kks_coupling nd3 b gd gp gc phi c_l c_a d0 it at_ out = Some f ->
  room nd3 gd b 0 -> on_side nd3 b d i j k ->
  side_at nd3 d gd f i j k = kks_law it at_ (side_at nd3 d gd d0 i j k) (cell_at nd3 gp phi i j k) (low3 (cell_at nd3 gp phi) d i j k)
    (cell_at nd3 gc c_l i j k) (low3 (cell_at nd3 gc c_l) d i j k) (cell_at nd3 gc c_a i j k) (low3 (cell_at nd3 gc c_a) d i j k).
Proof.
  intros nd3 b gd gp gc phi c_l c_a d0 it at_ out f d i j k E R H. assert (D := side_dir _ _ _ _ _ _ H).
  apply loop_sides in H; auto. assert (F := loop_flat _ _ _ _ _ _ D H). unfold side_at at 1.
  rewrite (kks_pick _ _ _ _ _ _ _ _ _ _ _ _ _ d E D), <- sidx_place by auto.
  match goal with |- do_cells3 ?a ?a' ?b ?b' ?c ?c' (fun i j k s => store s (?ix i j k) (@?v i j k)) ?o _ = _ =>
    rewrite (stored_at a a' b b' c c' (fun i j k => ix i j k) v) end.
  - rewrite kks_value_law, !low_place_idx, !cell_place_idx, !low3_at by auto. unfold side_at. rewrite sidx_place by auto. reflexivity.
  - intros. eapply side_inj; eauto.
  - exact H.
Qed.
Lemma dir_cases : forall nd3 d, (d = FZ -> nd3 = true) \/ (d = FZ /\ nd3 = false).
Proof. intros nd3 d. destruct nd3; [left; auto |]. destruct d; [left; discriminate | left; discriminate | right; auto]. Qed.
Lemma kks_else : forall nd3 b gd gp gc phi c_l c_a d0 it at_ out f d n, kks_coupling nd3 b gd gp gc phi c_l c_a d0 it at_ out = Some f ->
  (forall i j k, on_side nd3 b d i j k -> n <> side_place nd3 d gd i j k) -> pick3 d f n = pick3 d out n.
Proof.
  intros nd3 b gd gp gc phi c_l c_a d0 it at_ out f d n E H. destruct (dir_cases nd3 d) as [D | [-> ->]].
  - rewrite (kks_pick _ _ _ _ _ _ _ _ _ _ _ _ _ d E D).
    match goal with |- do_cells3 ?a ?a' ?b ?b' ?c ?c' (fun i j k s => store s (?ix i j k) (@?v i j k)) ?o _ = _ =>
         apply (stored_else a a' b b' c c' (fun i j k => ix i j k) v) end.
    intros i j k B. rewrite sidx_place; [apply H; apply loop_sides; [exact D | exact B] | exact D | eapply (loop_flat nd3 b d); [exact D | exact B]].
  - cbn [pick3]. rewrite (kks_z2 _ _ _ _ _ _ _ _ _ _ _ _ E). reflexivity.
Qed.

(** what the loops read and write lies in the arrays *)
Lemma kks_memory : forall nd3 b gd gp gc phi c_l c_a d0 phi' c_l' c_a' d0' it at_ out f f',
  room nd3 gd b 0 -> room nd3 gp b 1 -> room nd3 gc b 1 ->
  agree (cells_of nd3 gp) phi phi' -> agree (cells_of nd3 gc) c_l c_l' -> agree (cells_of nd3 gc) c_a c_a' ->
  (forall d, agree (sides_of nd3 d gd) (pick3 d d0) (pick3 d d0')) ->
  kks_coupling nd3 b gd gp gc phi c_l c_a d0 it at_ out = Some f -> kks_coupling nd3 b gd gp gc phi' c_l' c_a' d0' it at_ out = Some f' ->
  (forall d i j k, on_side nd3 b d i j k -> side_at nd3 d gd f i j k = side_at nd3 d gd f' i j k) /\
  (forall d n, ~ (0 <= n < sides_of nd3 d gd)%Z -> pick3 d f n = pick3 d out n).
Proof.
  intros nd3 b gd gp gc phi c_l c_a d0 phi' c_l' c_a' d0' it at_ out f f' Rd Rp Rc Ap Al Aa Ad E E'. split.
  - intros d i j k H. rewrite (kks_at _ _ _ _ _ _ _ _ _ _ _ _ _ _ _ _ _ E Rd H), (kks_at _ _ _ _ _ _ _ _ _ _ _ _ _ _ _ _ _ E' Rd H).
    assert (D := side_dir _ _ _ _ _ _ H). apply loop_sides in H; auto. assert (F := loop_flat _ _ _ _ _ _ D H).
    destruct (cell_bound nd3 gp b d i j k D Rp H) as [P1 P2]. destruct (cell_bound nd3 gc b d i j k D Rc H) as [Q1 Q2].
    assert (S0 := side_bound nd3 b d gd i j k D Rd H). rewrite sidx_place in S0 by auto.
    rewrite <- !low3_at. unfold cell_at, side_at.
    rewrite (Ap _ P1), (Ap _ P2), (Al _ Q1), (Al _ Q2), (Aa _ Q1), (Aa _ Q2), (Ad d _ S0). reflexivity.
  - intros d n N. eapply kks_else; [exact E |]. intros i j k H. assert (D := side_dir _ _ _ _ _ _ H). apply loop_sides in H; auto.
    assert (F := loop_flat _ _ _ _ _ _ D H). assert (S0 := side_bound nd3 b d gd i j k D Rd H). rewrite sidx_place in S0 by auto. intros ->. exact (N S0).
Qed.

(** ** the flux of a side *)
Lemma f_cell_at : forall nd3 g p i j k, f_cell nd3 g p i j k = cell_at nd3 g p i j k.
Proof. intros. unfold f_cell, cell_at, cell_place, offset. f_equal. destruct nd3; ring. Qed.
Lemma f_side_at : forall nd3 g p d i j k, at_face3 (f_side nd3 g p) d i j k = side_at nd3 d g p i j k.
Proof. intros. unfold f_side, at_face3, f_cell, side_at, side_place, offset, pick3. destruct d; cbn [fst snd g0 m0 g1 m1 g2 m2]; f_equal; destruct nd3; ring. Qed.
Definition flux_law (h d0 cp c cm p pm : R) : R := 1 / h * (d0 * (c - cm) + cp * (p - pm)).
Lemma flux_value : forall nd3 b gc gp conc phi d0 coupl d i j k, on_side nd3 b d i j k ->
  flux_at nd3 b gc gp conc phi d0 coupl d i j k
    (flux_law (spacing b d) (side_at nd3 d (grown b 0) d0 i j k) (side_at nd3 d (grown b 0) coupl i j k)
       (cell_at nd3 gc conc i j k) (low3 (cell_at nd3 gc conc) d i j k) (cell_at nd3 gp phi i j k) (low3 (cell_at nd3 gp phi) d i j k)).
Proof.
  intros nd3 b gc gp conc phi d0 coupl d i j k H. rewrite <- !f_side_at. destruct nd3; unfold flux_at, on_side, on_face3 in *.
  - intros [[o0 o1] o2]. unfold coupled_flux3, concentrationflux3, f_side, at_face3. cbn [fst snd].
    destruct d; destruct H as (H1 & H2 & H3); [rewrite xfaces3_val | rewrite yfaces3_val | rewrite zfaces3_val];
      rewrite !inbT by auto; cbn [andb]; unfold flux_law, low3, spacing; rewrite !f_cell_at; reflexivity.
  - destruct d; [| | exact I].
    + intros [o0 o1]. unfold coupled_flux2, Transport_Model.concentrationflux, f_side, at_face3. cbn [fst snd]. destruct H as [[H1 H2] ->].
      match goal with |- context [do_cells _ _ _ _ (fun i j f => upd2 f i j (@?g i j))] => rewrite (cells_loop (xl b) (xu b + 1) (yl b) (yu b) (fun i j _ => g i j)) end.
      rewrite !inbT by auto. cbn [andb]. unfold flux_law, low3, spacing. rewrite !f_cell_at. reflexivity.
    + intros [o0 o1]. unfold coupled_flux2, Transport_Model.concentrationflux, f_side, at_face3. cbn [fst snd]. destruct H as [[H1 H2] ->].
      match goal with |- context [do_cells (xl b) (xu b) _ _ (fun i j f => upd2 f i j (@?g i j))] => rewrite (cells_loop (xl b) (xu b) (yl b) (yu b + 1) (fun i j _ => g i j)) end.
      rewrite !inbT by auto. cbn [andb]. unfold flux_law, low3, spacing. rewrite !f_cell_at. reflexivity.
Qed.
Lemma room_grown : forall nd3 b n, (0 <= n)%Z -> room nd3 (grown b n) b n.
Proof. intros nd3 b n N. unfold room, grown. cbn [g0 m0 g1 m1 g2 m2]. repeat split; try lia. destruct nd3; [lia | exact I]. Qed.
Lemma flux_is : forall nd3 b gc gp conc phi d0 coupl d i j k v w, flux_at nd3 b gc gp conc phi d0 coupl d i j k v -> v = w ->
  flux_at nd3 b gc gp conc phi d0 coupl d i j k w.
Proof. intros. subst. auto. Qed.

(** ** Kim-Kim-Suzuki: the flux *)
Lemma slope_l : forall x, slope "l" x = 1.
Proof. intros x. unfold slope, deriv_interp_func, val. destruct (Rlt_dec 0 x); [reflexivity |]. destruct (Rlt_dec x 1); [reflexivity | lra]. Qed.
Lemma weight_l : forall x, 0 <= x <= 1 -> weight "l" x = x.
Proof. intros x H. unfold weight, interp_func, val. rewrite clamp01_alt. apply clamp01_mid; auto. Qed.
Lemma weight_p : forall x, 0 <= x <= 1 -> weight "p" x = x * x * x * (10 - 15 * x + 6 * x * x).
Proof. intros x H. unfold weight, interp_func, val. cbv zeta. rewrite clamp01_mid by auto. reflexivity. Qed.
Lemma weight_h : forall x, 0 <= x <= 1 -> weight "h" x = x * x * (3 - 2 * x).
Proof. intros x H. unfold weight, interp_func, val. cbv zeta. rewrite clamp01_mid by auto. reflexivity. Qed.
Lemma slope_p : forall x, 0 <= x <= 1 -> slope "p" x = 30 * x * x * (1 - x) * (1 - x).
Proof. intros x H. unfold slope, deriv_interp_func, val. cbv zeta. rewrite clamp01_mid by auto. reflexivity. Qed.
Lemma slope_h : forall x, 0 <= x <= 1 -> slope "h" x = 6 * x * (1 - x).
Proof. intros x H. unfold slope, deriv_interp_func, val. cbv zeta. rewrite clamp01_mid by auto. reflexivity. Qed.
Lemma averaged_a : forall x y, averaged "a" x y = mean x y.
Proof. intros. unfold averaged, average_func, val, mean. field. Qed.

Lemma linear_flux : forall h d0 at_ p pm l lm a am c cm, h <> 0 -> 0 <= p <= 1 -> 0 <= pm <= 1 -> c = mixture "l" p l a -> cm = mixture "l" pm lm am ->
  flux_law h d0 (kks_law "l" at_ d0 p pm l lm a am) c cm p pm = d0 * ((1 - mean pm p) * (l - lm) + mean pm p * (a - am)) / h.
Proof.
  intros h d0 at_ p pm l lm a am c cm Hh P Pm -> ->. unfold flux_law, kks_law, mixture. rewrite slope_l, !weight_l by auto. unfold mean. field. auto.
Qed.
Lemma p_error : forall p q, 0 <= p <= 1 -> 0 <= q <= 1 ->
  Rabs (weight "p" p - weight "p" q - slope "p" (mean q p) * (p - q)) <= 5 / 2 * (Rabs (p - q) * Rabs (p - q) * Rabs (p - q)).
Proof.
  intros p q P Q. rewrite !weight_p by auto. rewrite slope_p by (unfold mean; lra).
  set (m := mean q p). set (e := (p - q) / 2).
  replace (p * p * p * (10 - 15 * p + 6 * p * p) - q * q * q * (10 - 15 * q + 6 * q * q) - 30 * m * m * (1 - m) * (1 - m) * (p - q))
    with (e * e * e * (20 - 120 * m + 120 * m * m + 12 * e * e)) by (unfold m, e, mean; field).
  replace (Rabs (p - q)) with (2 * Rabs e).
  2: { unfold e, Rdiv. rewrite Rabs_mult, (Rabs_right (/ 2)) by lra. lra. }
  rewrite !Rabs_mult. assert (A := Rabs_pos e).
  assert (B : Rabs (20 - 120 * m + 120 * m * m + 12 * e * e) <= 20).
  { assert (M1 : 0 <= m - e <= 1) by (unfold m, e, mean; lra). assert (M2 : 0 <= m + e <= 1) by (unfold m, e, mean; lra).
    assert (E2 : e * e <= m * (1 - m)).
    { assert (A1 : e <= m) by lra. assert (A2 : e <= 1 - m) by lra. assert (A3 : - e <= m) by lra. assert (A4 : - e <= 1 - m) by lra.
      assert (0 <= m * (1 - m)) by (apply Rmult_le_pos; lra).
      destruct (Rle_dec 0 e).
      - apply Rmult_le_compat; lra.
      - replace (e * e) with ((- e) * (- e)) by ring. apply Rmult_le_compat; lra. }
    assert (E0 : 0 <= e * e) by apply Rle_0_sqr. assert (M0 := Rle_0_sqr (m - 1 / 2)). unfold Rsqr in M0.
    replace (m * (1 - m)) with (1 / 4 - (m - 1 / 2) * (m - 1 / 2)) in E2 by field.
    replace (20 - 120 * m + 120 * m * m + 12 * e * e) with (120 * ((m - 1 / 2) * (m - 1 / 2)) - 10 + 12 * (e * e)) by field.
    apply Rabs_le. lra. }
  assert (0 <= Rabs e * Rabs e * Rabs e) by (repeat apply Rmult_le_pos; auto).
  replace (5 / 2 * (2 * Rabs e * (2 * Rabs e) * (2 * Rabs e))) with (Rabs e * Rabs e * Rabs e * 20) by field.
  apply Rmult_le_compat_l; auto.
Qed.
Lemma h_error : forall p q, 0 <= p <= 1 -> 0 <= q <= 1 ->
  Rabs (weight "h" p - weight "h" q - slope "h" (mean q p) * (p - q)) <= 5 / 2 * (Rabs (p - q) * Rabs (p - q) * Rabs (p - q)).
Proof.
  intros p q P Q. rewrite !weight_h by auto. rewrite slope_h by (unfold mean; lra).
  replace (p * p * (3 - 2 * p) - q * q * (3 - 2 * q) - 6 * mean q p * (1 - mean q p) * (p - q)) with ((p - q) * (p - q) * (p - q) * (- (1 / 2))) by (unfold mean; field).
  rewrite !Rabs_mult, Rabs_Ropp, (Rabs_right (1 / 2)) by lra. assert (A := Rabs_pos (p - q)).
  assert (0 <= Rabs (p - q) * Rabs (p - q) * Rabs (p - q)) by (repeat apply Rmult_le_pos; auto). lra.
Qed.
Lemma l_error : forall p q, 0 <= p <= 1 -> 0 <= q <= 1 -> weight "l" p - weight "l" q - slope "l" (mean q p) * (p - q) = 0.
Proof. intros p q P Q. rewrite !weight_l, slope_l by auto. ring. Qed.
Lemma interp_error : forall it p q, In it interps -> 0 <= p <= 1 -> 0 <= q <= 1 ->
  Rabs (weight it p - weight it q - slope it (mean q p) * (p - q)) <= 5 / 2 * (Rabs (p - q) * Rabs (p - q) * Rabs (p - q)).
Proof.
  intros it p q I P Q. destruct I as [<- | [<- | [<- | []]]].
  - apply p_error; auto.
  - rewrite l_error, Rabs_R0 by auto. assert (A := Rabs_pos (p - q)). assert (0 <= Rabs (p - q) * Rabs (p - q) * Rabs (p - q)) by (repeat apply Rmult_le_pos; auto). lra.
  - apply h_error; auto.
Qed.
(** at uniform phase compositions what remains is the error of the mean slope *)
Lemma uniform_flux : forall h d0 it at_ p pm l a c cm, c = mixture it p l a -> cm = mixture it pm l a ->
  flux_law h d0 (kks_law it at_ d0 p pm l l a a) c cm p pm
  = 1 / h * d0 * (a - l) * (weight it p - weight it pm - slope it (averaged at_ pm p) * (p - pm)).
Proof. intros h d0 it at_ p pm l a c cm -> ->. unfold flux_law, kks_law, mixture, mean. unfold Rdiv. replace ((l + l) * / 2) with l by field. replace ((a + a) * / 2) with a by field. ring. Qed.
Lemma uniform_bound : forall h d0 it p pm l a c cm, In it interps -> 0 < h -> 0 <= d0 -> 0 <= p <= 1 -> 0 <= pm <= 1 -> c = mixture it p l a -> cm = mixture it pm l a ->
  Rabs (flux_law h d0 (kks_law it "a" d0 p pm l l a a) c cm p pm) <= d0 / h * Rabs (a - l) * (5 / 2 * (Rabs (p - pm) * Rabs (p - pm) * Rabs (p - pm))).
Proof.
  intros h d0 it p pm l a c cm I Hh D P Pm E E'. rewrite uniform_flux by auto. rewrite averaged_a, !Rabs_mult.
  replace (Rabs (1 / h) * Rabs d0) with (d0 / h).
  2: { rewrite (Rabs_right d0) by lra. rewrite Rabs_right. field; lra. apply Rle_ge. unfold Rdiv. rewrite Rmult_1_l. left. apply Rinv_0_lt_compat. auto. }
  apply Rmult_le_compat_l.
  - apply Rmult_le_pos; [| apply Rabs_pos]. unfold Rdiv. apply Rmult_le_pos; [auto | left; apply Rinv_0_lt_compat; auto].
  - apply interp_error; auto.
Qed.
(** away from interfaces *)
Lemma bulk_flux : forall h d0 cp p c cm, flux_law h d0 cp c cm p p = d0 * (c - cm) / h.
Proof. intros. unfold flux_law. unfold Rdiv. ring. Qed.

(** ** Beckermann *)
Lemma par_fold : forall (A B : Type) (R : A -> B -> Prop) (f : A -> Z -> A) (g : B -> Z -> B) l a b,
  R a b -> (forall i a b, In i l -> R a b -> R (f a i) (g b i)) -> R (fold_left f l a) (fold_left g l b).
Proof.
  intros A B R f g l. induction l as [| i l IH]; intros a b H F; cbn [fold_left]; auto.
  apply IH; [apply F; [left; reflexivity | auto] | intros; apply F; [right; auto | auto]].
Qed.
Lemma par_cells3 : forall (A B : Type) (R : A -> B -> Prop) a0 a1 b0 b1 c0 c1 (f : Z -> Z -> Z -> A -> A) (g : Z -> Z -> Z -> B -> B) a b,
  R a b -> (forall i j k a b, in_box3 a0 a1 b0 b1 c0 c1 i j k -> R a b -> R (f i j k a) (g i j k b)) ->
  R (do_cells3 a0 a1 b0 b1 c0 c1 f a) (do_cells3 a0 a1 b0 b1 c0 c1 g b).
Proof.
  intros A B R a0 a1 b0 b1 c0 c1 f g a b H F. unfold do_cells3, do_loop.
  apply (par_fold A B R); auto. intros k a' b' Hk H'. apply in_range in Hk.
  apply (par_fold A B R); auto. intros j a2 b2 Hj H2. apply in_range in Hj.
  apply (par_fold A B R); auto. intros i a3 b3 Hi H3. apply in_range in Hi. apply F; [repeat split; lia | auto].
Qed.
Section Guarded.
Variables (a0 a1 b0 b1 c0 c1 : Z) (ok : Z -> Z -> Z -> bool) (body : Z -> Z -> Z -> ptr -> ptr).
Let guarded (i j k : Z) (s : option ptr) : option ptr := match s with None => None | Some p => if ok i j k then Some (body i j k p) else None end.
Lemma guarded_value : forall s r, do_cells3 a0 a1 b0 b1 c0 c1 guarded (Some s) = Some r -> r = do_cells3 a0 a1 b0 b1 c0 c1 body s.
Proof.
  intros s r E. assert (H := par_cells3 (option ptr) ptr (fun o p => forall q, o = Some q -> q = p) a0 a1 b0 b1 c0 c1 guarded body (Some s) s).
  cbv beta in H. apply H; auto.
  - intros q Q. injection Q as ->. reflexivity.
  - intros i j k a b _ IH q. unfold guarded. destruct a as [p |]; [| discriminate]. destruct (ok i j k); [| discriminate].
    intro Q. injection Q as <-. rewrite (IH p eq_refl). reflexivity.
Qed.
Lemma guarded_runs : forall s, (forall i j k, in_box3 a0 a1 b0 b1 c0 c1 i j k -> ok i j k = true) ->
  do_cells3 a0 a1 b0 b1 c0 c1 guarded (Some s) = Some (do_cells3 a0 a1 b0 b1 c0 c1 body s).
Proof.
  intros s O. apply (par_cells3 (option ptr) ptr (fun o p => o = Some p) a0 a1 b0 b1 c0 c1 guarded body (Some s) s); auto.
  intros i j k a b B ->. unfold guarded. rewrite O by auto. reflexivity.
Qed.
Lemma guarded_stops : forall s i j k, in_box3 a0 a1 b0 b1 c0 c1 i j k -> ok i j k = false -> do_cells3 a0 a1 b0 b1 c0 c1 guarded (Some s) = None.
Proof.
  intros s i j k B O.
  destruct (cells3_once (option ptr) (fun x y => x = None -> y = None) a0 a1 b0 b1 c0 c1 i j k guarded (Some s)) as (s0 & _ & E); auto.
  - intros i' j' k' s' _ _ ->. reflexivity.
  - apply E. unfold guarded. destruct s0; [rewrite O |]; reflexivity.
Qed.
End Guarded.

Definition beck_law (it at_ : ascii) (d0 p pm c cm k km : R) : R :=
  d0 * (1 - averaged at_ km k) * averaged at_ cm c / (1 - weight it (averaged at_ pm p) + averaged at_ km k * weight it (averaged at_ pm p)).
Lemma beck_value_law : forall it at_ p pm c cm k km d0, beckermann_value it at_ p pm c cm k km d0 = beck_law it at_ d0 p pm c cm k km.
Proof. intros. unfold beckermann_value, beck_law, averaged, weight. cbv zeta. rewrite (average_symmetric p pm), (average_symmetric c cm), (average_symmetric k km). reflexivity. Qed.

Lemma beck_pick : forall nd3 ch b gd gp gk phi c k d0 it at_ out f d, beckermann_coupling nd3 ch b gd gp gk phi c k d0 it at_ out = Some f -> (d = FZ -> nd3 = true) ->
  pick3 d f = do_cells3 (xl b) (match d with FX => xu b + 1 | _ => xu b end)%Z (yl b) (match d with FY => yu b + 1 | _ => yu b end)%Z
          (k_lo nd3 b) (match d with FZ => k_hi nd3 b + 1 | _ => k_hi nd3 b end)%Z
     (fun i j l s => store s (sidx d nd3 gd i j l)
        (beckermann_value it at_ (phi (idx_cell nd3 gp i j l)) (phi (idx_cell nd3 gp i j l - stride nd3 gp d)%Z)
           (c (idx_cell nd3 gk i j l)) (c (idx_cell nd3 gk i j l - stride nd3 gk d)%Z)
           (k (idx_cell nd3 gk i j l)) (k (idx_cell nd3 gk i j l - 1)%Z) (pick3 d d0 (sidx d nd3 gd i j l)))) (pick3 d out).
Proof.
  intros nd3 ch b gd gp gk phi c k [[dx dy] dz] it at_ [[ox oy] oz] f d E D. unfold beckermann_coupling in E. destruct (known_interp it at_); [| discriminate].
  cbv zeta in E. match type of E with match ?x with _ => _ end = _ => destruct x as [r |] eqn:G; [| discriminate] end.
  apply guarded_value in G. injection E as <-. destruct d; [exact G | reflexivity |]. rewrite (D eq_refl). reflexivity.
Qed.
Lemma beck_z2 : forall ch b gd gp gk phi c k d0 it at_ out f, beckermann_coupling false ch b gd gp gk phi c k d0 it at_ out = Some f -> snd f = snd out.
Proof.
  intros ch b gd gp gk phi c k [[dx dy] dz] it at_ [[ox oy] oz] f E. unfold beckermann_coupling in E. destruct (known_interp it at_); [| discriminate].
  cbv zeta in E. match type of E with match ?x with _ => _ end = _ => destruct x as [r |]; [| discriminate] end. injection E as <-. reflexivity.
Qed.
Lemma beck_at : forall nd3 ch b gd gp gk phi c k d0 it at_ out f d i j l, beckermann_coupling nd3 ch b gd gp gk phi c k d0 it at_ out = Some f ->
  room nd3 gd b 0 -> on_side nd3 b d i j l ->
  side_at nd3 d gd f i j l = beck_law it at_ (side_at nd3 d gd d0 i j l) (cell_at nd3 gp phi i j l) (low3 (cell_at nd3 gp phi) d i j l)
    (cell_at nd3 gk c i j l) (low3 (cell_at nd3 gk c) d i j l) (cell_at nd3 gk k i j l) (cell_at nd3 gk k (i - 1) j l).
Proof.
  intros nd3 ch b gd gp gk phi c k d0 it at_ out f d i j l E R H. assert (D := side_dir _ _ _ _ _ _ H).
  apply loop_sides in H; auto. assert (F := loop_flat _ _ _ _ _ _ D H). unfold side_at at 1.
  rewrite (beck_pick _ _ _ _ _ _ _ _ _ _ _ _ _ _ d E D), <- sidx_place by auto.
  match goal with |- do_cells3 ?a ?a' ?b ?b' ?c ?c' (fun i j k s => store s (?ix i j k) (@?v i j k)) ?o _ = _ =>
    rewrite (stored_at a a' b b' c c' (fun i j k => ix i j k) v) end.
  - assert (P := low_place_idx nd3 gk FX i j l F ltac:(discriminate)). cbn [stride low3] in P.
    rewrite beck_value_law, P, !low_place_idx, !cell_place_idx, !low3_at by auto. unfold side_at. rewrite sidx_place by auto. reflexivity.
  - intros. eapply side_inj; eauto.
  - exact H.
Qed.
Lemma beck_else : forall nd3 ch b gd gp gk phi c k d0 it at_ out f d n, beckermann_coupling nd3 ch b gd gp gk phi c k d0 it at_ out = Some f ->
  (forall i j l, on_side nd3 b d i j l -> n <> side_place nd3 d gd i j l) -> pick3 d f n = pick3 d out n.
Proof.
  intros nd3 ch b gd gp gk phi c k d0 it at_ out f d n E H. destruct (dir_cases nd3 d) as [D | [-> ->]].
  - rewrite (beck_pick _ _ _ _ _ _ _ _ _ _ _ _ _ _ d E D).
    match goal with |- do_cells3 ?a ?a' ?b ?b' ?c ?c' (fun i j k s => store s (?ix i j k) (@?v i j k)) ?o _ = _ =>
         apply (stored_else a a' b b' c c' (fun i j k => ix i j k) v) end.
    intros i j l B. rewrite sidx_place; [apply H; apply loop_sides; [exact D | exact B] | exact D | eapply (loop_flat nd3 b d); [exact D | exact B]].
  - cbn [pick3]. rewrite (beck_z2 _ _ _ _ _ _ _ _ _ _ _ _ _ E). reflexivity.
Qed.
Lemma averaged_unit : forall at_ x y, In at_ avgs -> 0 <= x <= 1 -> 0 <= y <= 1 -> 0 <= averaged at_ x y <= 1.
Proof.
  intros at_ x y I X Y. destruct I as [<- | [<- | []]].
  - rewrite averaged_a. unfold mean. lra.
  - destruct (average_harm x y) as (v & E & B & _); [lra | lra |]. unfold averaged. rewrite E. cbn [val]. split; [lra |].
    apply Rle_trans with (Rmax x y); [lra | apply Rmax_lub; lra].
Qed.
Lemma beck_runs : forall nd3 ch b gd gp gk phi c k d0 it at_ out, In it interps -> In at_ avgs ->
  (ch = true -> forall i j l, on_side nd3 b FX i j l -> 0 <= averaged at_ (cell_at nd3 gk k (i - 1) j l) (cell_at nd3 gk k i j l) <= 1) ->
  exists f, beckermann_coupling nd3 ch b gd gp gk phi c k d0 it at_ out = Some f.
Proof.
  intros nd3 ch b gd gp gk phi c k [[dx dy] dz] it at_ [[ox oy] oz] I A K. unfold beckermann_coupling. rewrite known_interp_in by auto. cbv zeta.
  match goal with |- context [do_cells3 ?a ?a' ?b ?b' ?c ?c' (fun ii jj kk ss => match ss with None => None | Some pp => if @?ok ii jj kk then Some (@?bd ii jj kk pp) else None end) (Some ?s)] =>
    rewrite (guarded_runs a a' b b' c c' ok bd s) end.
  - eexists. reflexivity.
  - intros i j l B. cbv beta. destruct ch; [| reflexivity]. cbn [negb orb].
    assert (H : loop_box nd3 b FX i j l) by exact B. assert (F := loop_flat nd3 b FX i j l ltac:(discriminate) H). apply loop_sides in H; [| discriminate].
    specialize (K eq_refl i j l H). assert (P := low_place_idx nd3 gk FX i j l F ltac:(discriminate)). cbn [stride low3] in P.
    rewrite P, cell_place_idx by auto. rewrite average_symmetric. unfold averaged, cell_at in K. destruct K as [K1 K2].
    destruct (Rle_dec 0 _) as [| N]; [| elim (N K1)]. destruct (Rle_dec _ 1) as [| N]; [reflexivity | elim (N K2)].
Qed.
Lemma beck_stops : forall nd3 b gd gp gk phi c k d0 it at_ out i j l, on_side nd3 b FX i j l ->
  ~ (0 <= averaged at_ (cell_at nd3 gk k (i - 1) j l) (cell_at nd3 gk k i j l) <= 1) ->
  beckermann_coupling nd3 true b gd gp gk phi c k d0 it at_ out = None.
Proof.
  intros nd3 b gd gp gk phi c k [[dx dy] dz] it at_ [[ox oy] oz] i j l H K. unfold beckermann_coupling. destruct (known_interp it at_); [| reflexivity]. cbv zeta.
  apply loop_sides in H; [| discriminate]. assert (F := loop_flat nd3 b FX i j l ltac:(discriminate) H).
  match goal with |- context [do_cells3 ?a ?a' ?b ?b' ?c ?c' (fun ii jj kk ss => match ss with None => None | Some pp => if @?ok ii jj kk then Some (@?bd ii jj kk pp) else None end) (Some ?s)] =>
    rewrite (guarded_stops a a' b b' c c' ok bd s i j l) end.
  - reflexivity.
  - exact H.
  - cbv beta. cbn [negb orb]. assert (P := low_place_idx nd3 gk FX i j l F ltac:(discriminate)). cbn [stride low3] in P.
    rewrite P, cell_place_idx by auto. rewrite average_symmetric. unfold averaged, cell_at in K.
    destruct (Rle_dec 0 _) as [K1 |]; [| reflexivity]. destruct (Rle_dec _ 1) as [K2 |]; [elim (K (conj K1 K2)) | reflexivity].
Qed.

Lemma partition_flux : forall h d0 p pm cl k c cm, 0 <= p <= 1 -> 0 <= pm <= 1 -> 0 < k <= 1 -> c = cl * (1 - p + k * p) -> cm = cl * (1 - pm + k * pm) ->
  flux_law h d0 (beck_law "l" "a" d0 p pm c cm k k) c cm p pm = 0.
Proof.
  intros h d0 p pm cl k c cm P Pm K -> ->. unfold flux_law, beck_law. rewrite !averaged_a. rewrite weight_l by (unfold mean; lra).
  replace (mean k k) with k by (unfold mean; field). set (m := mean pm p).
  replace (mean (cl * (1 - pm + k * pm)) (cl * (1 - p + k * p))) with (cl * (1 - m + k * m)) by (unfold m, mean; field).
  assert (M : 0 <= m <= 1) by (unfold m, mean; lra). assert (N : 1 - m + k * m <> 0) by nra.
  replace (d0 * (1 - k) * (cl * (1 - m + k * m)) / (1 - m + k * m)) with (d0 * (1 - k) * cl) by (field; auto). unfold Rdiv. ring.
Qed.

(** ** the claims *)
Lemma kks_coefficient : forall nd3 b gd gp gc phi c_l c_a d0 it at_ out, room nd3 gd b 0 -> In it interps -> In at_ avgs ->
  exists f, kks_coupling nd3 b gd gp gc phi c_l c_a d0 it at_ out = Some f /\
    (forall d i j k, on_side nd3 b d i j k ->
      side_at nd3 d gd f i j k = side_at nd3 d gd d0 i j k
        * slope it (averaged at_ (low3 (cell_at nd3 gp phi) d i j k) (cell_at nd3 gp phi i j k))
        * (mean (low3 (cell_at nd3 gc c_l) d i j k) (cell_at nd3 gc c_l i j k) - mean (low3 (cell_at nd3 gc c_a) d i j k) (cell_at nd3 gc c_a i j k))) /\
    (forall d n, (forall i j k, on_side nd3 b d i j k -> n <> side_place nd3 d gd i j k) -> pick3 d f n = pick3 d out n).
Proof.
  intros nd3 b gd gp gc phi c_l c_a d0 it at_ out R I A. destruct (kks_runs nd3 b gd gp gc phi c_l c_a d0 it at_ out I A) as [f E].
  exists f. split; [exact E |]. split.
  - intros d i j k H. rewrite (kks_at _ _ _ _ _ _ _ _ _ _ _ _ _ _ _ _ _ E R H). reflexivity.
  - intros d n H. eapply kks_else; eauto.
Qed.
Lemma kks_linear : forall nd3 b gp gc gq phi c_l c_a conc d0 at_ out f d i j k,
  kks_coupling nd3 b (grown b 0) gp gc phi c_l c_a d0 "l" at_ out = Some f -> spacing b d <> 0 -> on_side nd3 b d i j k ->
  let P := cell_at nd3 gp phi in let L := cell_at nd3 gc c_l in let A := cell_at nd3 gc c_a in let C := cell_at nd3 gq conc in
  let m := mean (low3 P d i j k) (P i j k) in
  0 <= P i j k <= 1 -> 0 <= low3 P d i j k <= 1 ->
  C i j k = mixture "l" (P i j k) (L i j k) (A i j k) -> low3 C d i j k = mixture "l" (low3 P d i j k) (low3 L d i j k) (low3 A d i j k) ->
  flux_at nd3 b gq gp conc phi d0 f d i j k
    (side_at nd3 d (grown b 0) d0 i j k * ((1 - m) * (L i j k - low3 L d i j k) + m * (A i j k - low3 A d i j k)) / spacing b d).
Proof.
  intros nd3 b gp gc gq phi c_l c_a conc d0 at_ out f d i j k E Hh H P L A C m P1 P0 E1 E0. eapply flux_is; [apply flux_value; exact H |].
  rewrite (kks_at _ _ _ _ _ _ _ _ _ _ _ _ _ _ _ _ _ E (room_grown nd3 b 0 (Z.le_refl 0)) H). apply linear_flux; auto.
Qed.
Lemma kks_uniform : forall nd3 b gp gc gq phi c_l c_a conc d0 it out f d i j k cl ca,
  kks_coupling nd3 b (grown b 0) gp gc phi c_l c_a d0 it "a" out = Some f -> In it interps -> 0 < spacing b d -> on_side nd3 b d i j k ->
  let P := cell_at nd3 gp phi in let C := cell_at nd3 gq conc in let D := side_at nd3 d (grown b 0) d0 i j k in
  let s := Rabs (P i j k - low3 P d i j k) in
  0 <= D -> 0 <= P i j k <= 1 -> 0 <= low3 P d i j k <= 1 -> (forall n, c_l n = cl) -> (forall n, c_a n = ca) ->
  C i j k = mixture it (P i j k) cl ca -> low3 C d i j k = mixture it (low3 P d i j k) cl ca ->
  exists v, flux_at nd3 b gq gp conc phi d0 f d i j k v /\ Rabs v <= D / spacing b d * Rabs (ca - cl) * (5 / 2 * (s * s * s)).
Proof.
  intros nd3 b gp gc gq phi c_l c_a conc d0 it out f d i j k cl ca E I Hh H P C D s D0 P1 P0 EL EA E1 E0. eexists. split; [apply flux_value; exact H |].
  rewrite (kks_at _ _ _ _ _ _ _ _ _ _ _ _ _ _ _ _ _ E (room_grown nd3 b 0 (Z.le_refl 0)) H). rewrite <- !(low3_at nd3 gc). unfold cell_at at 3 4. rewrite !EL, !EA.
  apply uniform_bound; auto.
Qed.
Lemma flux_bulk : forall nd3 b gq gp conc phi d0 coupl d i j k, on_side nd3 b d i j k ->
  cell_at nd3 gp phi i j k = low3 (cell_at nd3 gp phi) d i j k ->
  flux_at nd3 b gq gp conc phi d0 coupl d i j k (side_at nd3 d (grown b 0) d0 i j k * (cell_at nd3 gq conc i j k - low3 (cell_at nd3 gq conc) d i j k) / spacing b d).
Proof. intros nd3 b gq gp conc phi d0 coupl d i j k H E. eapply flux_is; [apply flux_value; exact H |]. rewrite <- E. apply bulk_flux. Qed.

Definition unit_box : box3 := mk_box3 0 0 0 0 0 0 1 1 1.
Definition ones : ptrs := (fun _ => 1, fun _ => 1, fun _ => 1).
Definition zeros : ptrs := (fun _ => 0, fun _ => 0, fun _ => 0).
Lemma thr_lt1 : avg_threshold < 1 / 8.
Proof. unfold avg_threshold. apply Rlt_le_trans with (/ 8); [| lra]. apply Rinv_lt_contravar; [| ]. apply Rmult_lt_0_compat; [lra | apply pow_lt; lra].
  replace 8 with (8 * 1) by ring. change 16%nat with (S 15). cbn [pow]. assert (1 <= 10 ^ 15) by (apply pow_R1_Rle; lra). lra. Qed.
Lemma kks_zero_refuted : forall at_, In at_ avgs -> exists phi conc f v,
  (forall n, 0 <= phi n <= 1) /\ (forall n, conc n = mixture "p" (phi n) 0 1) /\
  kks_coupling true unit_box (grown unit_box 0) (grown unit_box 1) (grown unit_box 1) phi (fun _ => 0) (fun _ => 1) ones "p" at_ zeros = Some f /\
  flux_at true unit_box (grown unit_box 1) (grown unit_box 1) conc phi ones f FX 0 0 0 v /\ 1 / 2 < Rabs v.
Proof.
  intros at_ I. set (phi := fun n : Z => if (n =? 13)%Z then 1 else 0). set (conc := fun n : Z => mixture "p" (phi n) 0 1).
  destruct (kks_runs true unit_box (grown unit_box 0) (grown unit_box 1) (grown unit_box 1) phi (fun _ => 0) (fun _ => 1) ones "p" at_ zeros) as [f E]; [left; auto | auto |].
  assert (H : on_side true unit_box FX 0 0 0) by (cbn; unfold in_box3; lia).
  exists phi, conc, f. eexists. split; [intro n; unfold phi; destruct (n =? 13)%Z; lra |]. split; [reflexivity |]. split; [exact E |].
  split; [apply flux_value; exact H |]. rewrite (kks_at _ _ _ _ _ _ _ _ _ _ _ _ _ _ _ _ _ E (room_grown true unit_box 0 (Z.le_refl 0)) H).
  unfold cell_at, low3.
  change (cell_place true (grown unit_box 1) 0 0 0) with 13%Z. change (cell_place true (grown unit_box 1) (0 - 1) 0 0) with 12%Z.
  rewrite (uniform_flux _ _ "p" at_ (phi 13%Z) (phi 12%Z) 0 1) by reflexivity.
  change (phi 13%Z) with 1. change (phi 12%Z) with 0. change (spacing unit_box FX) with 1. change (side_at true FX (grown unit_box 0) ones 0 0 0) with 1.
  rewrite !weight_p by lra. destruct I as [<- | [<- | []]].
  - rewrite averaged_a, slope_p by (unfold mean; lra). unfold mean. rewrite Rabs_left; lra.
  - unfold averaged, average_func, val. destruct (Rlt_dec 0 avg_threshold) as [| N]; [| elim N; apply avg_threshold_pos].
    rewrite slope_p by lra. rewrite Rabs_right; lra.
Qed.

Lemma beck_coefficient : forall nd3 ch b gd gp gk phi c k d0 it at_ out, room nd3 gd b 0 -> In it interps -> In at_ avgs -> (forall n, 0 <= k n <= 1) ->
  exists f, beckermann_coupling nd3 ch b gd gp gk phi c k d0 it at_ out = Some f /\
    (forall d i j l, on_side nd3 b d i j l -> cell_at nd3 gk k (i - 1) j l = low3 (cell_at nd3 gk k) d i j l ->
      let kf := averaged at_ (low3 (cell_at nd3 gk k) d i j l) (cell_at nd3 gk k i j l) in
      let hf := weight it (averaged at_ (low3 (cell_at nd3 gp phi) d i j l) (cell_at nd3 gp phi i j l)) in
      let cf := averaged at_ (low3 (cell_at nd3 gk c) d i j l) (cell_at nd3 gk c i j l) in
      side_at nd3 d gd f i j l = side_at nd3 d gd d0 i j l * (1 - kf) * cf / (1 - hf + kf * hf)) /\
    (forall d n, (forall i j l, on_side nd3 b d i j l -> n <> side_place nd3 d gd i j l) -> pick3 d f n = pick3 d out n).
Proof.
  intros nd3 ch b gd gp gk phi c k d0 it at_ out R I A K.
  destruct (beck_runs nd3 ch b gd gp gk phi c k d0 it at_ out I A) as [f E]; [intros; apply averaged_unit; auto; apply K |].
  exists f. split; [exact E |]. split.
  - intros d i j l H U. cbv zeta. rewrite (beck_at _ _ _ _ _ _ _ _ _ _ _ _ _ _ _ _ _ _ E R H), U. reflexivity.
  - intros d n H. eapply beck_else; eauto.
Qed.
Lemma w_l0 : weight "l" (averaged "a" 0 0) = 0.
Proof. rewrite averaged_a. unfold mean. rewrite weight_l; lra. Qed.
Lemma beck_k_refuted : forall nd3 d, In (nd3, d) [(false, FY); (true, FY); (true, FZ)] -> exists k k' f f',
  (forall n, 0 <= k n <= 1) /\ (forall n, 0 <= k' n <= 1) /\ on_side nd3 unit_box d 0 0 0 /\
  cell_at nd3 (grown unit_box 1) k 0 0 0 = cell_at nd3 (grown unit_box 1) k' 0 0 0 /\
  low3 (cell_at nd3 (grown unit_box 1) k) d 0 0 0 = low3 (cell_at nd3 (grown unit_box 1) k') d 0 0 0 /\
  beckermann_coupling nd3 true unit_box (grown unit_box 0) (grown unit_box 1) (grown unit_box 1) (fun _ => 0) (fun _ => 1) k ones "l" "a" zeros = Some f /\
  beckermann_coupling nd3 true unit_box (grown unit_box 0) (grown unit_box 1) (grown unit_box 1) (fun _ => 0) (fun _ => 1) k' ones "l" "a" zeros = Some f' /\
  side_at nd3 d (grown unit_box 0) f 0 0 0 = 1 / 2 /\ side_at nd3 d (grown unit_box 0) f' 0 0 0 = 5 / 8.
Proof.
  intros nd3 d I. set (k := fun _ : Z => 1 / 2). set (k' := fun n : Z => if (n =? cell_place nd3 (grown unit_box 1) (-1) 0 0)%Z then 1 / 4 else 1 / 2).
  assert (K : forall n, 0 <= k n <= 1) by (intro; unfold k; lra). assert (K' : forall n, 0 <= k' n <= 1) by (intro; unfold k'; destruct (_ =? _)%Z; lra).
  assert (R := room_grown nd3 unit_box 0 (Z.le_refl 0)).
  destruct (beck_runs nd3 true unit_box (grown unit_box 0) (grown unit_box 1) (grown unit_box 1) (fun _ => 0) (fun _ => 1) k ones "l" "a" zeros) as [f E];
    [right; left; auto | left; auto | intros; apply averaged_unit; [left; auto | apply K | apply K] |].
  destruct (beck_runs nd3 true unit_box (grown unit_box 0) (grown unit_box 1) (grown unit_box 1) (fun _ => 0) (fun _ => 1) k' ones "l" "a" zeros) as [f' E'];
    [right; left; auto | left; auto | intros; apply averaged_unit; [left; auto | apply K' | apply K'] |].
  assert (H : on_side nd3 unit_box d 0 0 0).
  { destruct I as [I | [I | [I | []]]]; injection I as <- <-; cbn; unfold in_box, in_box3; lia. }
  exists k, k', f, f'. split; [exact K |]. split; [exact K' |]. split; [exact H |].
  split. { destruct I as [I | [I | [I | []]]]; injection I as <- <-; reflexivity. }
  split. { destruct I as [I | [I | [I | []]]]; injection I as <- <-; reflexivity. }
  split; [exact E |]. split; [exact E' |].
  rewrite (beck_at _ _ _ _ _ _ _ _ _ _ _ _ _ _ _ _ _ _ E R H), (beck_at _ _ _ _ _ _ _ _ _ _ _ _ _ _ _ _ _ _ E' R H).
  rewrite <- !(low3_at nd3 (grown unit_box 1)). unfold cell_at.
  assert (S1 : side_at nd3 d (grown unit_box 0) ones 0 0 0 = 1) by (destruct d; reflexivity). rewrite S1.
  assert (V1 : k' (cell_place nd3 (grown unit_box 1) (0 - 1) 0 0) = 1 / 4) by (destruct nd3; reflexivity).
  assert (V2 : k' (cell_place nd3 (grown unit_box 1) 0 0 0) = 1 / 2) by (destruct nd3; reflexivity). rewrite V1, V2.
  unfold beck_law. rewrite !w_l0, !averaged_a. unfold mean, k. split; field.
Qed.
Lemma beck_ghosts_refuted : forall nd3, exists c c' f f',
  on_side nd3 unit_box FX 0 0 0 /\
  cell_at nd3 (grown unit_box 2) c 0 0 0 = cell_at nd3 (grown unit_box 2) c' 0 0 0 /\
  low3 (cell_at nd3 (grown unit_box 2) c) FX 0 0 0 = low3 (cell_at nd3 (grown unit_box 2) c') FX 0 0 0 /\
  beckermann_coupling nd3 true unit_box (grown unit_box 0) (grown unit_box 1) (grown unit_box 1) (fun _ => 0) c (fun _ => 1 / 2) ones "l" "a" zeros = Some f /\
  beckermann_coupling nd3 true unit_box (grown unit_box 0) (grown unit_box 1) (grown unit_box 1) (fun _ => 0) c' (fun _ => 1 / 2) ones "l" "a" zeros = Some f' /\
  side_at nd3 FX (grown unit_box 0) f 0 0 0 = 1 / 2 /\ side_at nd3 FX (grown unit_box 0) f' 0 0 0 = 3 / 4.
Proof.
  intros nd3. set (c := fun _ : Z => 1). set (c' := fun n : Z => if (n =? cell_place nd3 (grown unit_box 1) 0 0 0)%Z then 2 else 1).
  assert (K : forall n : Z, 0 <= (fun _ : Z => 1 / 2) n <= 1) by (intro; lra).
  assert (R := room_grown nd3 unit_box 0 (Z.le_refl 0)).
  destruct (beck_runs nd3 true unit_box (grown unit_box 0) (grown unit_box 1) (grown unit_box 1) (fun _ => 0) c (fun _ => 1 / 2) ones "l" "a" zeros) as [f E];
    [right; left; auto | left; auto | intros; apply averaged_unit; [left; auto | unfold cell_at; lra | unfold cell_at; lra] |].
  destruct (beck_runs nd3 true unit_box (grown unit_box 0) (grown unit_box 1) (grown unit_box 1) (fun _ => 0) c' (fun _ => 1 / 2) ones "l" "a" zeros) as [f' E'];
    [right; left; auto | left; auto | intros; apply averaged_unit; [left; auto | unfold cell_at; lra | unfold cell_at; lra] |].
  assert (H : on_side nd3 unit_box FX 0 0 0) by (destruct nd3; cbn; unfold in_box, in_box3; lia).
  exists c, c', f, f'. split; [exact H |]. split; [destruct nd3; reflexivity |]. split; [destruct nd3; reflexivity |]. split; [exact E |]. split; [exact E' |].
  rewrite (beck_at _ _ _ _ _ _ _ _ _ _ _ _ _ _ _ _ _ _ E R H), (beck_at _ _ _ _ _ _ _ _ _ _ _ _ _ _ _ _ _ _ E' R H).
  unfold low3, cell_at.
  assert (S1 : side_at nd3 FX (grown unit_box 0) ones 0 0 0 = 1) by reflexivity. rewrite S1.
  assert (V1 : c' (cell_place nd3 (grown unit_box 1) (0 - 1) 0 0) = 1) by (destruct nd3; reflexivity).
  assert (V2 : c' (cell_place nd3 (grown unit_box 1) 0 0 0) = 2) by (destruct nd3; reflexivity). rewrite V1, V2.
  unfold beck_law. rewrite !w_l0, !averaged_a. unfold mean, c. split; field.
Qed.
Lemma beck_checks : forall nd3 b gd gp gk phi c k d0 it at_ out, In it interps -> In at_ avgs ->
  (beckermann_coupling nd3 true b gd gp gk phi c k d0 it at_ out = None <->
   exists i j l, on_side nd3 b FX i j l /\ ~ (0 <= averaged at_ (cell_at nd3 gk k (i - 1) j l) (cell_at nd3 gk k i j l) <= 1)).
Proof.
  intros nd3 b gd gp gk phi c k d0 it at_ out I A. split.
  - intro N. apply Classical_Prop.NNPP. intro X0. destruct (beck_runs nd3 true b gd gp gk phi c k d0 it at_ out I A) as [f E]; [| congruence].
    intros _ i j l H. apply Classical_Prop.NNPP. intro Y0. apply X0. eauto.
  - intros (i & j & l & H & K). eapply beck_stops; eauto.
Qed.
Lemma beck_checks_refuted : exists k f, on_side false unit_box FY 0 1 0 /\ ~ (0 <= cell_at false (grown unit_box 1) k 0 1 0 <= 1) /\
  beckermann_coupling false true unit_box (grown unit_box 0) (grown unit_box 1) (grown unit_box 1) (fun _ => 0) (fun _ => 1) k ones "l" "a" zeros = Some f /\
  side_at false FY (grown unit_box 0) f 0 1 0 < 0.
Proof.
  set (k := fun n : Z => if (n =? 7)%Z then 2 else 1 / 2).
  destruct (beck_runs false true unit_box (grown unit_box 0) (grown unit_box 1) (grown unit_box 1) (fun _ => 0) (fun _ => 1) k ones "l" "a" zeros) as [f E];
    [right; left; auto | left; auto | |].
  { intros _ i j l [[H1 H2] ->]. cbn in H1, H2. assert (j = 0%Z) by lia. subst j. rewrite averaged_a. unfold mean.
    assert (i = 0 \/ i = 1)%Z as [-> | ->] by lia; unfold cell_at.
    - change (k (cell_place false (grown unit_box 1) (0 - 1) 0 0)) with (1 / 2). change (k (cell_place false (grown unit_box 1) 0 0 0)) with (1 / 2). lra.
    - change (k (cell_place false (grown unit_box 1) (1 - 1) 0 0)) with (1 / 2). change (k (cell_place false (grown unit_box 1) 1 0 0)) with (1 / 2). lra. }
  assert (H : on_side false unit_box FY 0 1 0) by (cbn; unfold in_box; lia).
  exists k, f. split; [exact H |]. split; [change (cell_at false (grown unit_box 1) k 0 1 0) with 2; lra |]. split; [exact E |].
  rewrite (beck_at _ _ _ _ _ _ _ _ _ _ _ _ _ _ _ _ _ _ E (room_grown false unit_box 0 (Z.le_refl 0)) H).
  change (side_at false FY (grown unit_box 0) ones 0 1 0) with 1. unfold low3. change (cell_at false (grown unit_box 1) k 0 1 0) with 2.
  change (cell_at false (grown unit_box 1) k (0 - 1) 1 0) with (1 / 2). unfold cell_at. unfold beck_law. rewrite !w_l0, !averaged_a. unfold mean. lra.
Qed.

Lemma beck_equilibrium : forall nd3 ch b gp gk phi c k d0 out f d i j l cl k0,
  beckermann_coupling nd3 ch b (grown b 0) gp gk phi c k d0 "l" "a" out = Some f -> on_side nd3 b d i j l ->
  0 < k0 <= 1 -> (forall n, k n = k0) ->
  let P := cell_at nd3 gp phi in let C := cell_at nd3 gk c in
  0 <= P i j l <= 1 -> 0 <= low3 P d i j l <= 1 ->
  C i j l = cl * (1 - P i j l + k0 * P i j l) -> low3 C d i j l = cl * (1 - low3 P d i j l + k0 * low3 P d i j l) ->
  flux_at nd3 b gk gp c phi d0 f d i j l 0.
Proof.
  intros nd3 ch b gp gk phi c k d0 out f d i j l cl k0 E H K0 K P C P1 P0 E1 E0. eapply flux_is; [apply flux_value; exact H |].
  rewrite (beck_at _ _ _ _ _ _ _ _ _ _ _ _ _ _ _ _ _ _ E (room_grown nd3 b 0 (Z.le_refl 0)) H). unfold cell_at at 5 6. rewrite !K.
  apply (partition_flux _ _ _ _ cl); auto.
Qed.
Lemma beck_case : forall it at_ (p c : R), In it interps -> In at_ avgs ->
  let phi := fun n : Z => if (n =? 13)%Z then p else 0 in let conc := fun n : Z => if (n =? 13)%Z then c else 1 in
  exists f, beckermann_coupling true true unit_box (grown unit_box 0) (grown unit_box 1) (grown unit_box 1) phi conc (fun _ => 1 / 2) ones it at_ zeros = Some f /\
   flux_at true unit_box (grown unit_box 1) (grown unit_box 1) conc phi ones f FX 0 0 0 (flux_law 1 1 (beck_law it at_ 1 p 0 c 1 (1 / 2) (1 / 2)) c 1 p 0).
Proof.
  intros it at_ p c I A phi conc.
  destruct (beck_runs true true unit_box (grown unit_box 0) (grown unit_box 1) (grown unit_box 1) phi conc (fun _ => 1 / 2) ones it at_ zeros) as [f E];
    [auto | auto | intros; apply averaged_unit; [auto | unfold cell_at; lra | unfold cell_at; lra] |].
  assert (H : on_side true unit_box FX 0 0 0) by (cbn; unfold in_box3; lia).
  exists f. split; [exact E |]. eapply flux_is; [apply flux_value; exact H |].
  rewrite (beck_at _ _ _ _ _ _ _ _ _ _ _ _ _ _ _ _ _ _ E (room_grown true unit_box 0 (Z.le_refl 0)) H). reflexivity.
Qed.
Lemma beck_equilibrium_refuted : forall it at_, In (it, at_) [("p", "a"); ("l", "h")]%char -> exists phi conc f v,
  (forall n, 0 <= phi n <= 1) /\ (forall n, conc n = 1 - weight it (phi n) + 1 / 2 * weight it (phi n)) /\
  beckermann_coupling true true unit_box (grown unit_box 0) (grown unit_box 1) (grown unit_box 1) phi conc (fun _ => 1 / 2) ones it at_ zeros = Some f /\
  flux_at true unit_box (grown unit_box 1) (grown unit_box 1) conc phi ones f FX 0 0 0 v /\ v < 0.
Proof.
  intros it at_ [I | [I | []]]; injection I as <- <-.
  - destruct (beck_case "p" "a" (1 / 2) (3 / 4)) as (f & E & F); [left; auto | left; auto |].
    eexists. eexists. exists f. eexists. split; [| split; [| split; [exact E | split; [exact F |]]]].
    + intro n. cbv beta. destruct (n =? 13)%Z; lra.
    + intro n. cbv beta. destruct (n =? 13)%Z; rewrite weight_p by lra; field.
    + unfold flux_law, beck_law. rewrite !averaged_a. unfold mean. rewrite weight_p by lra.
      match goal with |- ?x < 0 => replace x with (- (1 / 4) + 7 / 16 / (1 - 53 / 512 + 53 / 1024) / 2) by field end. lra.
  - destruct (beck_case "l" "h" 1 (1 / 2)) as (f & E & F); [right; left; auto | right; left; auto |].
    eexists. eexists. exists f. eexists. split; [| split; [| split; [exact E | split; [exact F |]]]].
    + intro n. cbv beta. destruct (n =? 13)%Z; lra.
    + intro n. cbv beta. destruct (n =? 13)%Z; rewrite weight_l by lra; field.
    + unfold flux_law, beck_law, averaged, average_func, val. assert (T := thr_lt1). assert (T0 := avg_threshold_pos).
      repeat match goal with |- context [Rlt_dec ?a ?b] => destruct (Rlt_dec a b); [try lra | try lra] end. rewrite weight_l by lra.
      match goal with |- ?x < 0 => replace x with (- (1 / 6)) by field end. lra.
Qed.
