(** Lemmas about the diffusion coefficients. *)
From Coq Require Import Reals ZArith List Bool Ascii Lra Lia.
From Verif Require Import Grid_Model Grid_Spec Grid_Proofs Functions_Model Functions_Spec Functions_Proofs.
From Verif Require Import PhaseFlow_Model PhaseFlow_Spec PhaseFlow_Proofs Stencils_Model Stencils_Spec Stencils_Proofs Diffusion_Model Diffusion_Spec.
Import ListNotations.
Open Scope R_scope.

(** * Symmetric two-cell laws *)
Definition dlaw {A : Type} (K : operation A) (F : dir -> A -> A -> R) : Prop := forall b s old f d i j,
  K b s old = Some f -> on_face b d i j -> at_face f d i j = F d (low s d i j) (s i j).
Definition law {A : Type} (K : operation A) (F : A -> A -> R) : Prop := dlaw K (fun _ => F).
Lemma law_patch : forall A (K : operation A) F, dlaw K F -> patch_free K.
Proof. intros A K F H b b' s old old' f f' d i j E E' Hb Hb'. rewrite (H _ _ _ _ _ _ _ E Hb), (H _ _ _ _ _ _ _ E' Hb'). reflexivity. Qed.
Lemma law_axis : forall A (K : operation A) F, law K F -> axis_free K.
Proof.
  intros A K F H b s old old' f f' d i j E E' Hb. rewrite (H _ _ _ _ _ _ _ E Hb), (H _ _ _ _ (turn_dir d) j i E').
  - destruct d; reflexivity.
  - destruct d; unfold on_face, x_face, y_face, in_box in *; cbn; tauto.
Qed.
Lemma law_mirror : forall A (K : operation A) F, (forall u v, F u v = F v u) -> law K F -> mirror_free K.
Proof.
  intros A K F S H b s old old' f f' d i j E E' Hb. rewrite (H _ _ _ _ _ _ _ E Hb), (H _ _ _ _ d (mirror_face d i) j E').
  - destruct d; unfold low, lower, mirror, mirror_face; cbn [fst snd].
    + rewrite S. replace (- (1 - i - 1))%Z with i by lia. replace (- (1 - i))%Z with (i - 1)%Z by lia. reflexivity.
    + rewrite Z.opp_involutive. reflexivity.
  - destruct d; unfold on_face, x_face, y_face, in_box, mirror_face, mirror_box in *; cbn [lo0 hi0 lo1 hi1]; destruct Hb; split; lia.
Qed.

Lemma fill_val : forall b fx fy old d i j, on_face b d i j -> at_face (fill b fx fy old) d i j = match d with DX => fx i j | DY => fy i j end.
Proof. intros b fx fy old [] i j H; unfold fill; cbn [at_face fst snd]; [apply xfaces_val | apply yfaces_val]; exact H. Qed.

Lemma sum_loop : forall n (f : Z -> R), do_loop 1 n (fun ip s => s + f ip) 0 = sumZ 1 n f.
Proof. intros n f. rewrite loop_sum. ring. Qed.
Lemma hface_sym : forall it a p q, hface it a p q = hface it a q p.
Proof. intros it a p q. unfold hface. rewrite average_symmetric. reflexivity. Qed.
Lemma hface_sum_sym : forall it a n p q, hface_sum it a n p q = hface_sum it a n q p.
Proof.
  intros it a n p q. unfold hface_sum. rewrite !sum_loop. do 2 f_equal. apply sumZ_ext. intros k _. rewrite average_symmetric. reflexivity.
Qed.

Ltac face H := rewrite fill_val by exact H.

(** * The scalar and temperature laws without interfaces *)
Definition kks_law (dl ql ds qs gasR : R) (it a : ascii) (u v : R * R) : R :=
  (1 - hface it a (fst u) (fst v)) * arrhenius dl ql gasR (inv_T (snd u) (snd v)) + hface it a (fst u) (fst v) * arrhenius ds qs gasR (inv_T (snd u) (snd v)).
Lemma pfm_law : forall dl ql ds qs gasR it a, law (kks_op dl ql ds qs gasR it a) (kks_law dl ql ds qs gasR it a).
Proof.
  intros dl ql ds qs gasR it a b s old f d i j E H. unfold kks_op, pfmdiffusion in E. destruct (known it a); [| discriminate].
  injection E as <-. face H. destruct d; reflexivity.
Qed.
Lemma inv_T_sym : forall s t, inv_T s t = inv_T t s.
Proof. intros. unfold inv_T. rewrite Rplus_comm. reflexivity. Qed.
Lemma kks_sym : forall dl ql ds qs gasR it a u v, kks_law dl ql ds qs gasR it a u v = kks_law dl ql ds qs gasR it a v u.
Proof. intros. unfold kks_law. rewrite (hface_sym it a (fst u)), (inv_T_sym (snd u)). reflexivity. Qed.

(** * Interface diffusion *)
(** cells touched by a face *)
Definition touch (d : dir) (a c i j : Z) : bool := ((i =? a) && (j =? c) || (i =? fst (lower d a c)) && (j =? snd (lower d a c)))%Z.
Lemma add_four_at : forall i j v f d a c, at_face (add_four i j v f) d a c = at_face f d a c + (if touch d a c i j then v else 0).
Proof.
  intros i j v f d a c. unfold add_four, touch. destruct d; cbn [at_face fst snd lower].
  - rewrite upd2_add, upd2_add.
    destruct (Z.eqb_spec a i), (Z.eqb_spec c j), (Z.eqb_spec a (i + 1)), (Z.eqb_spec i a), (Z.eqb_spec j c), (Z.eqb_spec i (a - 1)); try lia; cbn [andb orb]; ring.
  - rewrite upd2_add, upd2_add.
    destruct (Z.eqb_spec a i), (Z.eqb_spec c j), (Z.eqb_spec c (j + 1)), (Z.eqb_spec i a), (Z.eqb_spec j c), (Z.eqb_spec j (c - 1)); try lia; cbn [andb orb]; ring.
Qed.
(** value of the loop over pairs *)
Definition over (p : R) : R := Rmax 0 (p - threshold).
Lemma over_above : forall p, threshold < p -> over p = p - threshold.
Proof. intros. unfold over. apply Rmax_right. lra. Qed.
Lemma over_below : forall p, ~ threshold < p -> over p = 0.
Proof. intros. unfold over. apply Rmax_left. lra. Qed.
Definition pairs_sum (pa : Z -> R) (na : Z) (pb : Z -> R) (nb : Z) (same : bool) : R :=
  sumZ 1 na (fun k => sumZ (if same then k + 1 else 1)%Z nb (fun l => over (pa k) ^ 2 * over (pb l) ^ 2)).
Lemma pairs_obs : forall (S : Type) (obs : S -> R) pa na pb nb same (act : R -> R -> S -> S) c s,
  (forall x y s, obs (act x y s) = obs s + c * (x ^ 2 * y ^ 2)) ->
  obs (pairs_loop pa na pb nb same act s) = obs s + c * pairs_sum pa na pb nb same.
Proof.
  intros S obs pa na pb nb same act c s H. unfold pairs_loop, pairs_sum. rewrite <- sumZ_scal.
  apply obs_loop. intros k s' _. destruct (Rlt_dec threshold (pa k)) as [L | L].
  - rewrite <- sumZ_scal. apply obs_loop. intros l s2 _. destruct (Rlt_dec threshold (pb l)) as [L2 | L2].
    + rewrite H, !over_above by auto. reflexivity.
    + rewrite (over_below (pb l)) by auto. ring.
  - rewrite (over_below (pa k)) by auto. rewrite (sumZ_ext _ _ _ (fun _ => 0)); [rewrite sumZ_zero; ring |]. intros; ring.
Qed.
Lemma sum_touch : forall l0 u0 l1 u1 d a c (v : Z -> Z -> R),
  sum_box l0 u0 l1 u1 (fun i j => if touch d a c i j then v i j else 0) =
  (if inb l0 u0 a && inb l1 u1 c then v a c else 0) + (if inb l0 u0 (fst (lower d a c)) && inb l1 u1 (snd (lower d a c)) then low v d a c else 0).
Proof.
  intros. unfold low. rewrite <- (sum_box_single l0 u0 l1 u1 a c v), <- (sum_box_single l0 u0 l1 u1 (fst (lower d a c)) (snd (lower d a c)) v).
  rewrite <- sum_box_plus. apply sum_box_ext. intros i j _. unfold touch.
  destruct d; cbn [lower fst snd];
    destruct (Z.eqb_spec i a), (Z.eqb_spec j c), (Z.eqb_spec i (a - 1)), (Z.eqb_spec j (c - 1)); try lia; cbn [andb orb]; ring.
Qed.
Lemma inside_grown : forall b d i j, on_face b d i j ->
  inb (lo0 b - 1) (hi0 b + 1) i && inb (lo1 b - 1) (hi1 b + 1) j = true /\
  inb (lo0 b - 1) (hi0 b + 1) (fst (lower d i j)) && inb (lo1 b - 1) (hi1 b + 1) (snd (lower d i j)) = true.
Proof.
  intros b d i j H. destruct d; unfold on_face, x_face, y_face, in_box in H; cbn [lower fst snd]; rewrite !inb_true by lia; auto.
Qed.
Lemma add_ab_at : forall b phia na phib nb d0c same f d i j, on_face b d i j ->
  at_face (add_ab_diffusion b phia na phib nb d0c same f) d i j =
  at_face f d i j + 1 / 2 * d0c * factor4 * (low (fun i j => pairs_sum (phia i j) na (phib i j) nb same) d i j + pairs_sum (phia i j) na (phib i j) nb same).
Proof.
  intros b phia na phib nb d0c same f d i j H. unfold add_ab_diffusion.
  rewrite (obs_cells _ (fun f => at_face f d i j) _ _ _ _
    (fun k l => if touch d i j k l then 1 / 2 * d0c * factor4 * pairs_sum (phia k l) na (phib k l) nb same else 0)).
  - rewrite sum_touch. destruct (inside_grown b d i j H) as [-> ->]. unfold low. ring.
  - intros k l s _. rewrite (pairs_obs _ (fun f => at_face f d i j) _ _ _ _ _ _ (if touch d i j k l then 1 / 2 * d0c * factor4 else 0)).
    + destruct (touch d i j k l); ring.
    + intros x y s'. rewrite add_four_at. destruct (touch d i j k l); ring.
Qed.
Lemma add_single_at : forall b phi d0c f d i j, on_face b d i j ->
  at_face (add_ab_diffusion_single b phi d0c f) d i j =
  at_face f d i j + 8 * d0c * (low (fun i j => (phi i j * (1 - phi i j)) ^ 2) d i j + (phi i j * (1 - phi i j)) ^ 2).
Proof.
  intros b phi d0c f d i j H. unfold add_ab_diffusion_single.
  rewrite (obs_cells _ (fun f => at_face f d i j) _ _ _ _
    (fun k l => if touch d i j k l then 8 * d0c * (phi k l * (1 - phi k l)) ^ 2 else 0)).
  - rewrite sum_touch. destruct (inside_grown b d i j H) as [-> ->]. unfold low. ring.
  - intros k l s _. rewrite add_four_at. destruct (touch d i j k l); [field | ring].
Qed.

Lemma presence_over : forall p, presence p = (1 / (1 / 2 - threshold)) ^ 2 * over p ^ 2.
Proof. intros p. unfold presence, over, threshold. field. Qed.
Lemma pairs_contact : forall pa na pb nb, factor4 * pairs_sum pa na pb nb false = contact na pa nb pb.
Proof.
  intros pa na pb nb. unfold pairs_sum, contact, total, factor4.
  rewrite (sumZ_ext 1 na (fun k => presence (pa k)) (fun k => (1 / (1 / 2 - threshold)) ^ 2 * over (pa k) ^ 2)) by (intros; apply presence_over).
  rewrite (sumZ_ext 1 nb (fun k => presence (pb k)) (fun k => (1 / (1 / 2 - threshold)) ^ 2 * over (pb k) ^ 2)) by (intros; apply presence_over).
  rewrite !sumZ_scal. set (X := sumZ 1 nb (fun k => over (pb k) ^ 2)).
  rewrite (sumZ_ext 1 na _ (fun k => X * over (pa k) ^ 2)); [rewrite sumZ_scal; ring |].
  intros k _. rewrite sumZ_scal. unfold X. ring.
Qed.
(** sum over unordered pairs *)
Lemma pairs_square : forall n (f : Z -> R), sumZ 1 n f ^ 2 = sumZ 1 n (fun k => f k ^ 2) + 2 * sumZ 1 n (fun k => sumZ (k + 1) n (fun l => f k * f l)).
Proof.
  intros n f. destruct (Z_lt_le_dec n 1) as [E | E].
  { rewrite !sumZ_empty by lia. ring. }
  assert (G : forall m, (0 <= m)%Z -> sumZ 1 m f ^ 2 = sumZ 1 m (fun k => f k ^ 2) + 2 * sumZ 1 m (fun k => sumZ (k + 1) m (fun l => f k * f l))).
  { intros m Hm. pattern m. apply natlike_ind; [| | exact Hm].
    - rewrite !sumZ_empty by lia. ring.
    - intros x Hx IH. unfold Z.succ. rewrite !(sumZ_snoc 1 (x + 1)) by lia. replace (x + 1 - 1)%Z with x by lia.
      rewrite (sumZ_empty (x + 1 + 1) (x + 1)) by lia.
      rewrite (sumZ_ext 1 x (fun k => sumZ (k + 1) (x + 1) (fun l => f k * f l)) (fun k => sumZ (k + 1) x (fun l => f k * f l) + f (x + 1)%Z * f k)).
      + rewrite sumZ_plus, sumZ_scal. nra.
      + intros k Hk. rewrite (sumZ_snoc (k + 1) (x + 1)) by lia. replace (x + 1 - 1)%Z with x by lia. ring. }
  apply G. lia.
Qed.
Lemma pairs_own : forall p n, factor4 * pairs_sum p n p n true = own_contact n p.
Proof.
  intros p n. unfold own_contact, total. rewrite (pairs_square n (fun k => presence (p k))).
  replace (sumZ 1 n (fun k => sumZ (k + 1) n (fun l => presence (p k) * presence (p l)))) with (factor4 * pairs_sum p n p n true); [field |].
  unfold pairs_sum. rewrite <- sumZ_scal. apply sumZ_ext. intros k _. rewrite <- sumZ_scal. apply sumZ_ext. intros l _.
  rewrite !presence_over. unfold factor4. ring.
Qed.

(** * The drivers *)
Definition contrib (s : strategy) (xy : ph * ph) (p : Z -> R) : R :=
  if same_ph (fst xy) (snd xy) then own_contact (count_of s (fst xy)) (of_phase s (fst xy) p)
  else contact (count_of s (fst xy)) (of_phase s (fst xy) p) (count_of s (snd xy)) (of_phase s (snd xy) p).
Definition all_pairs (s : strategy) : list (ph * ph) := [(PA, PL); (PA, PA)] ++ (if with_phaseB s then [(PB, PL); (PB, PA); (PB, PB)] else []).
Definition pair_sum (s : strategy) (l : list (ph * ph)) (p : Z -> R) : R :=
  fold_right (fun xy t => active s (fst xy) (snd xy) * contrib s xy p + t) 0 l.
Lemma pair_sum_cons : forall s xy l p, pair_sum s (xy :: l) p = active s (fst xy) (snd xy) * contrib s xy p + pair_sum s l p.
Proof. reflexivity. Qed.
Lemma pair_sum_all : forall s p, pair_sum s (all_pairs s) p = cell_interface s p.
Proof.
  intros s p. unfold all_pairs, cell_interface, pair_sum, contrib. destruct (with_phaseB s); cbn [app fold_right fst snd same_ph count_of]; ring.
Qed.
Lemma same_ph_eq : forall x y, same_ph x y = true -> x = y.
Proof. intros [] []; cbn; intro; try reflexivity; discriminate. Qed.
Lemma pair_at : forall s b phi xy f d i j, on_face b d i j ->
  at_face (add_ab_diffusion b (pointer s phi (fst xy)) (count_of s (fst xy)) (pointer s phi (snd xy)) (count_of s (snd xy))
             (dpair s (fst xy) (snd xy)) (same_ph (fst xy) (snd xy)) f) d i j =
  at_face f d i j + dpair s (fst xy) (snd xy) * mean (low (fun i j => contrib s xy (phi i j)) d i j) (contrib s xy (phi i j)).
Proof.
  intros s b phi [x y] f d i j H. cbn [fst snd]. rewrite add_ab_at by exact H.
  assert (E : forall k l, factor4 * pairs_sum (pointer s phi x k l) (count_of s x) (pointer s phi y k l) (count_of s y) (same_ph x y) = contrib s (x, y) (phi k l)).
  { intros k l. unfold contrib. cbn [fst snd]. destruct (same_ph x y) eqn:SE.
    - apply same_ph_eq in SE. subst y. apply pairs_own.
    - apply pairs_contact. }
  unfold low, mean. cbv beta. rewrite <- !E.
  field.
Qed.
Lemma interfaces_at : forall s b phi l f d i j, on_face b d i j ->
  at_face (fold_left (fun d xy => add_ab_diffusion b (pointer s phi (fst xy)) (count_of s (fst xy)) (pointer s phi (snd xy)) (count_of s (snd xy))
                                   (dpair s (fst xy) (snd xy)) (same_ph (fst xy) (snd xy)) d)
             (filter (fun xy => if Rlt_dec 0 (dpair s (fst xy) (snd xy)) then true else false) l) f) d i j =
  at_face f d i j + mean (low (fun i j => pair_sum s l (phi i j)) d i j) (pair_sum s l (phi i j)).
Proof.
  intros s b phi l. induction l as [| xy l IH]; intros f d i j H.
  - cbn. unfold low, mean. cbn. field.
  - cbn [filter]. destruct (Rlt_dec 0 (dpair s (fst xy) (snd xy))) as [P | P]; cbn [fold_left].
    + rewrite IH, pair_at by exact H. unfold low, mean. rewrite !pair_sum_cons.
      unfold active. rewrite !Rmax_right by lra. field.
    + rewrite IH by exact H. unfold low, mean. rewrite !pair_sum_cons. unfold active. rewrite !Rmax_left by lra. field.
Qed.
Lemma scalar_interfaces_at : forall s b phi f g d i j, scalar_interfaces s b phi f = Some g -> on_face b d i j ->
  at_face g d i j = at_face f d i j + mean (low (fun i j => cell_interface s (phi i j)) d i j) (cell_interface s (phi i j)).
Proof.
  intros s b phi f g d i j E H. unfold scalar_interfaces in E. destruct (pairs_ok s); [| discriminate]. injection E as <-.
  unfold pair_list. fold (all_pairs s). rewrite interfaces_at by exact H. unfold low. rewrite !pair_sum_all. reflexivity.
Qed.
Lemma mean_sym : forall x y, mean x y = mean y x.
Proof. intros. unfold mean. lra. Qed.

(** what the scalar strategy puts on a face *)
Definition solids (s : strategy) (c : ascii) (n : Z) (x : ph) (u v : Z -> R) : R := hface_sum c (avg s) n (of_phase s x u) (of_phase s x v).
Definition liquid (s : strategy) (c : ascii) (u v : Z -> R) : R := hface c (avg s) (of_phase s PL u 1) (of_phase s PL v 1).
Definition nA (s : strategy) : Z := if with3phases s then 1%Z else norderpA s.
Definition nB (s : strategy) : Z := if with3phases s then 1%Z else norderpB s.
Definition scalar_base (s : strategy) (depth : Z) (c : ascii) (u v : Z -> R) : R :=
  if with_phaseB s then liquid s c u v * dbulk s PL + solids s c (nA s) PA u v * dbulk s PA + solids s c (nB s) PB u v * dbulk s PB
  else if (1 <? depth)%Z then liquid s c u v * dbulk s PL + solids s c (nA s) PA u v * dbulk s PA
  else (1 - hface c (avg s) (u 0%Z) (v 0%Z)) * dbulk s PL + hface c (avg s) (u 0%Z) (v 0%Z) * dbulk s PA.
Definition has_interfaces (s : strategy) (depth : Z) : bool := with_phaseB s || (1 <? depth)%Z.
Lemma scalar_at : forall s depth b phi old f d i j c, interpChar (itp s) = Some c -> scalar_setDiffusion s b depth phi old = Some f -> on_face b d i j ->
  at_face f d i j = scalar_base s depth c (low phi d i j) (phi i j) +
    (if has_interfaces s depth then mean (cell_interface s (low phi d i j)) (cell_interface s (phi i j)) else 0).
Proof.
  intros s depth b phi old f d i j c C E H. unfold scalar_setDiffusion in E. rewrite C in E. cbn [bind] in E.
  unfold has_interfaces, scalar_base. destruct (with_phaseB s).
  - destruct (depth =? norderp s)%Z; [| discriminate]. unfold pfmdiffusion_scalar_3phases in E. destruct (known c (avg s)); [| discriminate]. cbn [bind] in E.
    rewrite (scalar_interfaces_at _ _ _ _ _ _ _ _ E H). face H. destruct d; reflexivity.
  - destruct (1 <? depth)%Z.
    + unfold pfmdiffusion_scalar_2phases in E. destruct (known c (avg s)); [| discriminate]. cbn [bind] in E.
      rewrite (scalar_interfaces_at _ _ _ _ _ _ _ _ E H). face H. destruct d; reflexivity.
    + unfold pfmdiffusion_scalar in E. destruct (known c (avg s)); [| discriminate]. injection E as <-. face H. cbn [orb]. rewrite Rplus_0_r.
      destruct d; reflexivity.
Qed.
Definition scalar_law (s : strategy) (depth : Z) (u v : Z -> R) : R :=
  match interpChar (itp s) with
  | Some c => scalar_base s depth c u v + (if has_interfaces s depth then mean (cell_interface s u) (cell_interface s v) else 0)
  | None => 0
  end.
Lemma scalar_has_law : forall s depth, law (scalar_op s depth) (scalar_law s depth).
Proof.
  intros s depth b st old f d i j E H. unfold scalar_op in E. unfold scalar_law. destruct (interpChar (itp s)) as [c |] eqn:C.
  - rewrite (scalar_at _ _ _ _ _ _ _ _ _ _ C E H). reflexivity.
  - unfold scalar_setDiffusion in E. rewrite C in E. discriminate.
Qed.
Lemma scalar_law_sym : forall s depth u v, scalar_law s depth u v = scalar_law s depth v u.
Proof.
  intros s depth u v. unfold scalar_law. destruct (interpChar (itp s)) as [c |]; [| reflexivity]. rewrite (mean_sym (cell_interface s u)). f_equal.
  unfold scalar_base, liquid, solids. rewrite (hface_sym c (avg s) (of_phase s PL u 1)), (hface_sym c (avg s) (u 0%Z)).
  rewrite (hface_sum_sym c (avg s) (nA s)), (hface_sum_sym c (avg s) (nB s)). reflexivity.
Qed.

(** the sintering strategy *)
Definition wang_law (dl ds dla daa : R) (t : interp_type) (a : ascii) (depth : Z) (u v : (Z -> R) * R) : R :=
  match interpChar t with
  | Some c =>
      (1 - hface c a (snd u) (snd v)) * dl + hface c a (snd u) (snd v) * ds +
      daa * mean (own_contact depth (fun k => fst u (k - 1)%Z)) (own_contact depth (fun k => fst v (k - 1)%Z)) +
      16 * dla * mean ((snd u * (1 - snd u)) ^ 2) ((snd v * (1 - snd v)) ^ 2)
  | None => 0
  end.
Lemma wang_has_law : forall dl ds dla daa t a depth, law (wang_op dl ds dla daa t a depth) (wang_law dl ds dla daa t a depth).
Proof.
  intros dl ds dla daa t a depth b st old f d i j E H. unfold wang_op, wang_setDiffusion in E. unfold wang_law.
  destruct (interpChar t) as [c |]; [| discriminate]. cbn [bind] in E. unfold pfmdiffusion_scalar in E. destruct (known c a); [| discriminate].
  cbn [bind] in E. injection E as <-. rewrite add_single_at, add_ab_at by exact H. face H.
  assert (O : forall x, 1 / 2 * daa * factor4 * x = daa * (factor4 * x) / 2) by (intro; field). rewrite O. unfold low at 1. rewrite Rmult_plus_distr_l, !pairs_own.
  unfold mean, low. destruct d; cbn [lower fst snd]; field.
Qed.
Lemma wang_law_sym : forall dl ds dla daa t a depth u v, wang_law dl ds dla daa t a depth u v = wang_law dl ds dla daa t a depth v u.
Proof. intros. unfold wang_law. destruct (interpChar t); [| reflexivity]. rewrite (hface_sym _ a (snd u)), !(mean_sym _ (own_contact depth (fun k => fst v (k - 1)%Z))), (mean_sym ((snd u * (1 - snd u)) ^ 2)). reflexivity. Qed.

(** * The temperature strategy *)
Lemma grown_face : forall b ng d i j, (0 <= ng)%Z -> on_face b d i j -> on_face (match d with DX => grow_x b ng | DY => grow_y b ng end) d i j.
Proof. intros b ng [] i j N H; unfold on_face, x_face, y_face, in_box in *; cbn; lia. Qed.
Definition T_single_law (s : strategy) (x : ph) (u v : (Z -> R) * R) : R :=
  match interpChar (itp s) with
  | Some c => let h := hface c (avg s) (fst u 0%Z) (fst v 0%Z) in
      match x with PL => 1 - h | _ => h end * arrhenius (dbulk s x) (qbulk s x) (gas_constant s) (inv_T (snd u) (snd v))
  | None => 0
  end.
Lemma T_single_at : forall s ng b phi temp old f x d i j, with_phaseB s = false -> (0 <= ng)%Z -> x <> PB ->
  T_setDiffusion s b ng 1 phi temp old = Some f -> on_face (match d with DX => grow_x b ng | DY => grow_y b ng end) d i j ->
  at_face (get3 f x) d i j = T_single_law s x (low phi d i j, low temp d i j) (phi i j, temp i j).
Proof.
  intros s ng b phi temp old f x d i j NB N X E H. unfold T_setDiffusion in E. unfold T_single_law. destruct (interpChar (itp s)) as [c |]; [| discriminate].
  cbn [bind] in E. rewrite NB in E. cbn [Z.ltb Z.compare Pos.compare Pos.compare_cont] in E. unfold pfmdiffusion_T in E.
  destruct (known c (avg s)); [| discriminate]. cbn [bind] in E. injection E as <-. cbn [fst snd].
  destruct x; [| | congruence]; cbn [get3 cL cA cB fst snd]; destruct d; cbn [at_face fst snd];
    first [rewrite xfaces_val by exact H | rewrite yfaces_val by exact H]; reflexivity.
Qed.
Lemma T_single_has_law : forall s ng x, with_phaseB s = false -> (0 <= ng)%Z -> x <> PB -> law (T_op s ng 1 x) (T_single_law s x).
Proof.
  intros s ng x NB N X b st old f d i j E H. unfold T_op in E.
  destruct (T_setDiffusion s b ng 1 (fun i j => fst (st i j)) (fun i j => snd (st i j)) (mk_coefs3 old old old)) as [g |] eqn:G; [| discriminate].
  cbn in E. injection E as <-. rewrite (T_single_at _ _ _ _ _ _ _ x d i j NB N X G (grown_face _ _ _ _ _ N H)). unfold low. rewrite <- !surjective_pairing. reflexivity.
Qed.
Lemma T_single_sym : forall s x u v, T_single_law s x u v = T_single_law s x v u.
Proof. intros s x u v. unfold T_single_law. destruct (interpChar (itp s)) as [c |]; [| reflexivity]. rewrite (hface_sym c (avg s) (fst u 0%Z)), (inv_T_sym (snd u)). reflexivity. Qed.

(** several order parameters without interface diffusion *)
Definition T_multi_law (s : strategy) (depth : Z) (x : ph) (d : dir) (u v : (Z -> R) * R) : R :=
  match interpChar (itp s) with
  | Some c =>
      (if with_phaseB s then
         match x with PL => liquid s c (fst u) (fst v) | PA => solids s c (nA s) PA (fst u) (fst v) | PB => solids s c (nB s) PB (fst u) (fst v) end
       else
         match x with
         | PL => hface c (avg s) (fst u (depth - 1)%Z) (match d with DX => fst v | DY => fst u end (depth - 1)%Z)
         | _ => hface_sum c (avg s) (depth - 1) (fun k => fst u (k - 1)%Z) (fun k => fst v (k - 1)%Z)
         end) * arrhenius (dbulk s x) (qbulk s x) (gas_constant s) (inv_T (snd u) (snd v))
  | None => 0
  end.
Lemma T_multi_has_law : forall s ng depth x, pair_list s = [] -> (1 < depth)%Z -> (with_phaseB s = false -> x <> PB) ->
  dlaw (T_op s ng depth x) (T_multi_law s depth x).
Proof.
  intros s ng depth x P D X b st old f d i j E H. unfold T_op in E. unfold T_multi_law.
  unfold T_setDiffusion in E. destruct (interpChar (itp s)) as [c |]; [| discriminate]. cbn [bind] in E.
  unfold T_interfaces, pairs_ok in E. rewrite P in E. cbn [forallb fold_left] in E.
  destruct (with_phaseB s).
  - destruct (depth =? norderp s)%Z; [| discriminate]. unfold pfmdiffusion_T_three in E. destruct (known c (avg s)); [| discriminate].
    cbn [bind option_map fst snd] in E. injection E as <-. destruct x; cbn [get3 cL cA cB]; face H; destruct d; reflexivity.
  - destruct (Z.ltb_spec 1 depth); [| lia]. unfold pfmdiffusion_T_multi in E. destruct (known c (avg s)); [| discriminate].
    cbn [bind option_map fst snd] in E. injection E as <-. destruct x; [| | exfalso; apply X; reflexivity]; cbn [get3 cL cA cB]; face H; destruct d; reflexivity.
Qed.
Lemma T_multi_patch_free : forall s ng depth x, pair_list s = [] -> (1 < depth)%Z -> (with_phaseB s = false -> x <> PB) -> patch_free (T_op s ng depth x).
Proof. intros. eapply law_patch, T_multi_has_law; auto. Qed.
Lemma T_multi_sym : forall s depth x d u v, (with_phaseB s = false -> x = PA) -> T_multi_law s depth x d u v = T_multi_law s depth x d v u /\
  T_multi_law s depth x d u v = T_multi_law s depth x (turn_dir d) u v.
Proof.
  intros s depth x d u v X. unfold T_multi_law. destruct (interpChar (itp s)) as [c |]; [| split; reflexivity]. rewrite (inv_T_sym (snd u)).
  destruct (with_phaseB s).
  - split; [| reflexivity]. destruct x; unfold liquid, solids; f_equal; first [apply hface_sym | apply hface_sum_sym].
  - rewrite X by reflexivity. split; [| reflexivity]. f_equal. apply hface_sum_sym.
Qed.

(** * Bounds *)
Lemma impl_char : forall t, implemented t -> exists c, interpChar t = Some c /\ In c ["p"; "l"]%char.
Proof. intros t [-> | ->]; cbn; eauto. Qed.
Lemma chars_known : forall c a, In c ["p"; "l"]%char -> In a averages -> known c a = true.
Proof. intros c a [<- | [<- | []]] [<- | [<- | []]]; reflexivity. Qed.
Lemma interp_law : forall c, In c ["p"; "l"]%char -> exists f, (forall x, val (interp_func x c) = f x) /\ interpolation f /\ symmetric01 f.
Proof.
  intros c H. destruct (interp_clamped c) as (f & V & I & S); [cbn in *; tauto |]. exists f. split; auto.
  intro x. rewrite (V x). reflexivity.
Qed.
Lemma avg_le0 : forall a p q, In a averages -> p <= 0 -> q <= 0 -> val (average_func p q a) <= 0.
Proof.
  intros a p q [<- | [<- | []]] P Q; cbn [average_func val]; [lra |]. pose proof avg_threshold_pos.
  destruct (Rlt_dec p avg_threshold); lra.
Qed.
Lemma avg_ge1 : forall a p q, In a averages -> 1 <= p -> 1 <= q -> 1 <= val (average_func p q a).
Proof.
  intros a p q [<- | [<- | []]] P Q; cbn [average_func val]; [lra |]. assert (avg_threshold <= 1).
  { unfold avg_threshold. rewrite <- Rinv_1. apply Rinv_le_contravar; [lra |]. apply pow_R1_Rle. lra. }
  destruct (Rlt_dec p avg_threshold); [lra |]. destruct (Rlt_dec q avg_threshold); [lra |].
  assert (0 < 1 / p <= 1) by (unfold Rdiv; rewrite Rmult_1_l; split; [apply Rinv_0_lt_compat; lra | rewrite <- Rinv_1; apply Rinv_le_contravar; lra]).
  assert (0 < 1 / q <= 1) by (unfold Rdiv; rewrite Rmult_1_l; split; [apply Rinv_0_lt_compat; lra | rewrite <- Rinv_1; apply Rinv_le_contravar; lra]).
  apply Rmult_le_reg_r with (1 / p + 1 / q); [lra |]. unfold Rdiv at 3. rewrite Rmult_assoc, Rinv_l by lra. lra.
Qed.
Lemma hface_weight : forall c a p q, In c ["p"; "l"]%char -> In a averages ->
  0 <= hface c a p q <= 1 /\ (p <= 0 -> q <= 0 -> hface c a p q = 0) /\ (1 <= p -> 1 <= q -> hface c a p q = 1).
Proof.
  intros c a p q C A. unfold hface. destruct (interp_law c C) as (f & V & (I0 & I1 & IB & _) & _). rewrite V.
  split; [apply IB |]. split; intros; [apply I0, avg_le0 | apply I1, avg_ge1]; auto.
Qed.
Lemma convex : forall a b w, 0 <= w <= 1 -> between a b ((1 - w) * a + w * b).
Proof. intros a b w H. unfold between, Rmin, Rmax. destruct (Rle_dec a b); split; nra. Qed.
Lemma arrhenius_rate : forall d q gasR t1 t2, 0 < gasR -> 0 < t1 -> 0 < t2 -> arrhenius d q gasR (inv_T t1 t2) = rate d q gasR (mean t1 t2).
Proof. intros d q gasR t1 t2 G H1 H2. unfold arrhenius, rate, inv_T, mean. do 2 f_equal. field. lra. Qed.

(** one order parameter *)
Lemma kks_between : forall dl ql ds qs gasR c a b st old, In c ["p"; "l"]%char -> In a averages -> 0 < gasR -> exists f,
  kks_op dl ql ds qs gasR c a b st old = Some f /\
  forall d i j, on_face b d i j -> 0 < snd (low st d i j) -> 0 < snd (st i j) ->
    let T := mean (snd (low st d i j)) (snd (st i j)) in
    between (rate dl ql gasR T) (rate ds qs gasR T) (at_face f d i j) /\
    (fst (low st d i j) <= 0 -> fst (st i j) <= 0 -> at_face f d i j = rate dl ql gasR T) /\
    (1 <= fst (low st d i j) -> 1 <= fst (st i j) -> at_face f d i j = rate ds qs gasR T).
Proof.
  intros dl ql ds qs gasR c a b st old C A G.
  assert (E : exists f, kks_op dl ql ds qs gasR c a b st old = Some f) by (unfold kks_op, pfmdiffusion; rewrite chars_known by assumption; eauto).
  destruct E as (f & E). exists f. split; [exact E |]. intros d i j H T1 T2 T.
  rewrite (pfm_law _ _ _ _ _ _ _ _ _ _ _ _ _ _ E H). unfold kks_law. rewrite !arrhenius_rate by assumption. fold T.
  destruct (hface_weight c a (fst (low st d i j)) (fst (st i j)) C A) as (W & W0 & W1).
  split; [apply convex, W |]. split; intros P Q; [rewrite W0 by assumption | rewrite W1 by assumption]; ring.
Qed.
Lemma T_single_split : forall s ng b phi temp old, with_phaseB s = false -> (0 <= ng)%Z -> implemented (itp s) -> In (avg s) averages ->
  0 < gas_constant s -> exists f, T_setDiffusion s b ng 1 phi temp old = Some f /\
  forall d i j, on_face b d i j -> 0 < low temp d i j -> 0 < temp i j ->
    let T := mean (low temp d i j) (temp i j) in
    exists w, 0 <= w <= 1 /\ at_face (cL f) d i j = (1 - w) * rate (dbulk s PL) (qbulk s PL) (gas_constant s) T /\
      at_face (cA f) d i j = w * rate (dbulk s PA) (qbulk s PA) (gas_constant s) T /\
      (low phi d i j 0%Z <= 0 -> phi i j 0%Z <= 0 -> w = 0) /\ (1 <= low phi d i j 0%Z -> 1 <= phi i j 0%Z -> w = 1).
Proof.
  intros s ng b phi temp old NB N I A G. destruct (impl_char _ I) as (c & C & P).
  destruct (T_setDiffusion s b ng 1 phi temp old) as [f |] eqn:E.
  - exists f. split; [reflexivity |]. intros d i j H T1 T2 T. exists (hface c (avg s) (low phi d i j 0%Z) (phi i j 0%Z)).
    destruct (hface_weight c (avg s) (low phi d i j 0%Z) (phi i j 0%Z) P A) as (W & W0 & W1).
    assert (G' := grown_face _ _ _ _ _ N H).
    change (cL f) with (get3 f PL). change (cA f) with (get3 f PA).
    rewrite (T_single_at _ _ _ _ _ _ _ PL d i j NB N ltac:(discriminate) E G'), (T_single_at _ _ _ _ _ _ _ PA d i j NB N ltac:(discriminate) E G').
    unfold T_single_law. rewrite C. cbn [fst snd]. rewrite !arrhenius_rate by assumption. auto 10.
  - exfalso. unfold T_setDiffusion in E. rewrite C, NB in E. cbn [bind Z.ltb Z.compare Pos.compare Pos.compare_cont] in E. unfold pfmdiffusion_T in E.
    rewrite chars_known in E by assumption. discriminate.
Qed.
Lemma scalar_single : forall s b phi old, with_phaseB s = false -> implemented (itp s) -> In (avg s) averages ->
  exists f, scalar_setDiffusion s b 1 phi old = Some f /\
  forall d i j, on_face b d i j -> between (dbulk s PL) (dbulk s PA) (at_face f d i j) /\
    (low phi d i j 0%Z <= 0 -> phi i j 0%Z <= 0 -> at_face f d i j = dbulk s PL) /\
    (1 <= low phi d i j 0%Z -> 1 <= phi i j 0%Z -> at_face f d i j = dbulk s PA).
Proof.
  intros s b phi old NB I A. destruct (impl_char _ I) as (c & C & P).
  destruct (scalar_setDiffusion s b 1 phi old) as [f |] eqn:E.
  - exists f. split; [reflexivity |]. intros d i j H. rewrite (scalar_at _ _ _ _ _ _ _ _ _ _ C E H).
    unfold has_interfaces, scalar_base. rewrite NB. cbn [orb Z.ltb Z.compare Pos.compare Pos.compare_cont].
    destruct (hface_weight c (avg s) (low phi d i j 0%Z) (phi i j 0%Z) P A) as (W & W0 & W1). rewrite Rplus_0_r.
    split; [apply convex, W |]. split; intros X Y; [rewrite W0 by assumption | rewrite W1 by assumption]; ring.
  - exfalso. unfold scalar_setDiffusion in E. rewrite C, NB in E. cbn [bind Z.ltb Z.compare Pos.compare Pos.compare_cont] in E. unfold pfmdiffusion_scalar in E.
    rewrite chars_known in E by assumption. discriminate.
Qed.
Lemma beckermann_between : forall dl ds c a b st old, In c ["p"; "l"]%char -> In a averages -> exists f,
  beckermann_op dl ds c a b st old = Some f /\
  forall d i j, on_face b d i j -> 0 < snd (st i j) ->
    between ds dl (at_face f d i j) /\
    (fst (low st d i j) <= 0 -> fst (st i j) <= 0 -> at_face f d i j = dl) /\
    (1 <= fst (low st d i j) -> 1 <= fst (st i j) -> at_face f d i j = ds).
Proof.
  intros dl ds c a b st old C A. unfold beckermann_op, diffusion_beckermann. rewrite chars_known by assumption. eexists. split; [reflexivity |].
  intros d i j H K. face H.
  destruct (hface_weight c a (fst (low st d i j)) (fst (st i j)) C A) as (W & W0 & W1).
  assert (G : forall h, 0 <= h <= 1 -> let x := ds + (dl - ds) * (1 - h) / (1 - h + snd (st i j) * h) in
     between ds dl x /\ (h = 0 -> x = dl) /\ (h = 1 -> x = ds)).
  { intros h B x. assert (D : 0 < 1 - h + snd (st i j) * h)
      by (assert (0 <= snd (st i j) * h) by (apply Rmult_le_pos; lra); destruct (Rlt_dec h 1); [lra |]; replace h with 1 by lra; lra). set (w := (1 - h) / (1 - h + snd (st i j) * h)).
    assert (X : x = (1 - w) * ds + w * dl) by (unfold x, w; field; lra).
    split; [| split].
    - rewrite X. apply convex. unfold w. split.
      + apply Rmult_le_pos; [lra |]. apply Rlt_le, Rinv_0_lt_compat, D.
      + apply Rmult_le_reg_r with (1 - h + snd (st i j) * h); [exact D |]. unfold Rdiv. rewrite Rmult_assoc, Rinv_l by lra. nra.
    - intro Z. unfold x. rewrite Z. replace (1 - 0 + snd (st i j) * 0) with 1 by ring. field.
    - intro Z. unfold x. rewrite Z. replace (1 - 1) with 0 by lra. field. lra. }
  destruct d; unfold low in *; cbn [lower fst snd] in *; destruct (G _ W) as (G1 & G2 & G3); (split; [exact G1 |]); split; intros; auto.
Qed.

(** several order parameters *)
Lemma pair_list_nil : forall s, no_interfaces s -> pair_list s = [].
Proof.
  intros s H. unfold pair_list. generalize ([(PA, PL); (PA, PA)] ++ (if with_phaseB s then [(PB, PL); (PB, PA); (PB, PB)] else [])).
  intro l. induction l as [| [x y] l IH]; [reflexivity |]. cbn [filter fst snd]. destruct (Rlt_dec 0 (dpair s x y)) as [L | L]; [| exact IH].
  specialize (H x y). lra.
Qed.
Lemma scalar_defined : forall s b depth phi old, pairs_ok s = true -> implemented (itp s) -> In (avg s) averages -> (with_phaseB s = true -> depth = norderp s) ->
  exists f, scalar_setDiffusion s b depth phi old = Some f.
Proof.
  intros s b depth phi old O I A B. destruct (impl_char _ I) as (c & C & P). unfold scalar_setDiffusion. rewrite C. cbn [bind].
  destruct (with_phaseB s).
  - rewrite B, Z.eqb_refl by reflexivity. unfold pfmdiffusion_scalar_3phases, scalar_interfaces. rewrite chars_known, O by assumption. cbn [bind]. eauto.
  - destruct (1 <? depth)%Z; unfold pfmdiffusion_scalar_2phases, pfmdiffusion_scalar, scalar_interfaces; rewrite chars_known by assumption; cbn [bind]; rewrite ?O; eauto.
Qed.
Lemma T_defined : forall s b ng depth phi temp old, pairs_ok s = true -> implemented (itp s) -> In (avg s) averages -> (with_phaseB s = true -> depth = norderp s) ->
  exists f, T_setDiffusion s b ng depth phi temp old = Some f.
Proof.
  intros s b ng depth phi temp old O I A B. destruct (impl_char _ I) as (c & C & P). unfold T_setDiffusion. rewrite C. cbn [bind].
  destruct (with_phaseB s).
  - rewrite B, Z.eqb_refl by reflexivity. unfold pfmdiffusion_T_three, T_interfaces. rewrite chars_known, O by assumption. cbn [bind]. eauto.
  - destruct (1 <? depth)%Z; unfold pfmdiffusion_T_multi, pfmdiffusion_T, T_interfaces; rewrite chars_known by assumption; cbn [bind]; rewrite ?O; eauto.
Qed.
Lemma nil_ok : forall s, no_interfaces s -> pairs_ok s = true.
Proof. intros s H. unfold pairs_ok. rewrite pair_list_nil by exact H. reflexivity. Qed.
Lemma no_cell : forall s p, no_interfaces s -> cell_interface s p = 0.
Proof.
  intros s p H. unfold cell_interface, active. rewrite !Rmax_left by apply H. destruct (with_phaseB s); ring.
Qed.
Lemma hface_sum_arith : forall c n p q, hface_sum c "a" n p q = val (interp_func (mean (sumZ 1 n p) (sumZ 1 n q)) c).
Proof.
  intros c n p q. unfold hface_sum. rewrite sum_loop. cbn [average_func val]. do 2 f_equal.
  rewrite sumZ_scal, sumZ_plus. unfold mean. field.
Qed.
Lemma hface_arith : forall c p q, hface c "a" p q = val (interp_func (mean p q) c).
Proof. intros. unfold hface. cbn [average_func val]. do 2 f_equal. unfold mean. field. Qed.
Lemma fraction_liquid : forall s p, fraction s PL p = of_phase s PL p 1.
Proof. intros. unfold fraction. cbn [members]. rewrite sumZ_cons, sumZ_empty by lia. ring. Qed.
Lemma liquid_frac : forall s c u v, avg s = "a"%char -> liquid s c u v = val (interp_func (mean (fraction s PL u) (fraction s PL v)) c).
Proof. intros s c u v A. unfold liquid. rewrite A, hface_arith, !fraction_liquid. reflexivity. Qed.
Lemma solids_frac : forall s c x u v, avg s = "a"%char -> solids s c (members s x) x u v = val (interp_func (mean (fraction s x u) (fraction s x v)) c).
Proof. intros s c x u v A. unfold solids. rewrite A, hface_sum_arith. reflexivity. Qed.
Lemma complement : forall c x y, In c ["p"; "l"]%char -> x + y = 1 -> exists w, 0 <= w <= 1 /\ val (interp_func x c) = 1 - w /\ val (interp_func y c) = w /\
  (y <= 0 -> w = 0) /\ (1 <= y -> w = 1).
Proof.
  intros c x y C S. destruct (interp_law c C) as (f & V & (I0 & I1 & IB & _) & Y). rewrite !V. exists (f y). split; [apply IB |].
  specialize (Y y). replace (1 - y) with x in Y by lra. split; [lra |]. auto.
Qed.
Lemma linear_sum : forall x y z, 0 <= x -> 0 <= y -> 0 <= z -> x + y + z = 1 ->
  val (interp_func x "l") = x /\ val (interp_func y "l") = y /\ val (interp_func z "l") = z.
Proof. intros x y z X Y Z S. cbn [interp_func val]. repeat split; rewrite Rmax_right, Rmin_right; lra. Qed.

Lemma scalar_two_phases : forall s b depth phi old, with_phaseB s = false -> (1 < depth)%Z -> no_interfaces s -> implemented (itp s) -> avg s = "a"%char ->
  exists f, scalar_setDiffusion s b depth phi old = Some f /\
  forall d i j, on_face b d i j ->
    fraction s PL (low phi d i j) + fraction s PA (low phi d i j) = 1 -> fraction s PL (phi i j) + fraction s PA (phi i j) = 1 ->
    between (dbulk s PL) (dbulk s PA) (at_face f d i j) /\
    (fraction s PA (low phi d i j) <= 0 -> fraction s PA (phi i j) <= 0 -> at_face f d i j = dbulk s PL) /\
    (1 <= fraction s PA (low phi d i j) -> 1 <= fraction s PA (phi i j) -> at_face f d i j = dbulk s PA).
Proof.
  intros s b depth phi old NB D N I A. destruct (impl_char _ I) as (c & C & P).
  destruct (scalar_defined s b depth phi old (nil_ok s N) I) as (f & E); [rewrite A; left; reflexivity | congruence |].
  exists f. split; [exact E |]. intros d i j H F1 F2. rewrite (scalar_at _ _ _ _ _ _ _ _ _ _ C E H).
  unfold has_interfaces, scalar_base. rewrite NB. destruct (Z.ltb_spec 1 depth); [| lia]. cbn [orb]. rewrite !no_cell by exact N.
  rewrite liquid_frac by exact A. change (nA s) with (members s PA). rewrite solids_frac by exact A.
  destruct (complement c (mean (fraction s PL (low phi d i j)) (fraction s PL (phi i j))) (mean (fraction s PA (low phi d i j)) (fraction s PA (phi i j))) P)
    as (w & W & -> & -> & W0 & W1); [unfold mean; lra |].
  replace ((1 - w) * dbulk s PL + w * dbulk s PA + mean 0 0) with ((1 - w) * dbulk s PL + w * dbulk s PA) by (unfold mean; lra).
  split; [apply convex, W |]. split; intros X Y; [rewrite W0 by (unfold mean; lra) | rewrite W1 by (unfold mean; lra)]; ring.
Qed.
Lemma scalar_three_phases : forall s b phi old, with_phaseB s = true -> no_interfaces s -> itp s = LINEAR -> avg s = "a"%char ->
  exists f, scalar_setDiffusion s b (norderp s) phi old = Some f /\
  forall d i j, on_face b d i j ->
    (forall x, 0 <= fraction s x (low phi d i j)) -> (forall x, 0 <= fraction s x (phi i j)) ->
    fraction s PL (low phi d i j) + fraction s PA (low phi d i j) + fraction s PB (low phi d i j) = 1 ->
    fraction s PL (phi i j) + fraction s PA (phi i j) + fraction s PB (phi i j) = 1 ->
    at_face f d i j = mean (fraction s PL (low phi d i j)) (fraction s PL (phi i j)) * dbulk s PL +
      mean (fraction s PA (low phi d i j)) (fraction s PA (phi i j)) * dbulk s PA + mean (fraction s PB (low phi d i j)) (fraction s PB (phi i j)) * dbulk s PB.
Proof.
  intros s b phi old NB N I A.
  destruct (scalar_defined s b (norderp s) phi old (nil_ok s N)) as (f & E); [left; exact I | rewrite A; left; reflexivity | auto |].
  exists f. split; [exact E |]. intros d i j H P1 P2 F1 F2. rewrite (scalar_at _ _ _ _ _ _ _ _ _ "l"%char ltac:(rewrite I; reflexivity) E H).
  unfold has_interfaces, scalar_base. rewrite NB. cbn [orb]. rewrite !no_cell by exact N.
  rewrite liquid_frac by exact A. change (nA s) with (members s PA). change (nB s) with (members s PB). rewrite !solids_frac by exact A.
  destruct (linear_sum (mean (fraction s PL (low phi d i j)) (fraction s PL (phi i j))) (mean (fraction s PA (low phi d i j)) (fraction s PA (phi i j)))
    (mean (fraction s PB (low phi d i j)) (fraction s PB (phi i j)))) as (-> & -> & ->).
  1-3: unfold mean; match goal with A : (forall _, 0 <= _), B : (forall _, 0 <= _) |- 0 <= (fraction _ ?x _ + _) / 2 => pose proof (A x); pose proof (B x) end; lra.
  1: unfold mean; lra.
  unfold mean. lra.
Qed.
Lemma T_three_phases : forall s ng b phi temp old, with_phaseB s = true -> no_interfaces s -> itp s = LINEAR -> avg s = "a"%char -> 0 < gas_constant s ->
  exists f, T_setDiffusion s b ng (norderp s) phi temp old = Some f /\
  forall d i j, on_face b d i j -> 0 < low temp d i j -> 0 < temp i j ->
    (forall x, 0 <= fraction s x (low phi d i j)) -> (forall x, 0 <= fraction s x (phi i j)) ->
    fraction s PL (low phi d i j) + fraction s PA (low phi d i j) + fraction s PB (low phi d i j) = 1 ->
    fraction s PL (phi i j) + fraction s PA (phi i j) + fraction s PB (phi i j) = 1 ->
    forall x, at_face (get3 f x) d i j =
      mean (fraction s x (low phi d i j)) (fraction s x (phi i j)) * rate (dbulk s x) (qbulk s x) (gas_constant s) (mean (low temp d i j) (temp i j)).
Proof.
  intros s ng b phi temp old NB N I A G.
  destruct (T_defined s b ng (norderp s) phi temp old (nil_ok s N)) as (f & E); [left; exact I | rewrite A; left; reflexivity | auto |].
  exists f. split; [exact E |]. intros d i j H T1 T2 P1 P2 F1 F2 x.
  assert (V : at_face (get3 f x) d i j = val (interp_func (mean (fraction s x (low phi d i j)) (fraction s x (phi i j))) "l") *
     rate (dbulk s x) (qbulk s x) (gas_constant s) (mean (low temp d i j) (temp i j))).
  { unfold T_setDiffusion in E. rewrite I in E. cbn [interpChar bind] in E. rewrite NB, Z.eqb_refl in E. unfold pfmdiffusion_T_three in E.
    rewrite A in E. cbn [known interp_func average_func bind] in E. unfold T_interfaces, pairs_ok in E. rewrite (pair_list_nil s N) in E.
    cbn [forallb fold_left] in E. injection E as <-. rewrite <- arrhenius_rate by assumption.
    destruct x; cbn [get3 cL cA cB fst snd]; face H;
    [rewrite <- (liquid_frac s "l") by exact A | rewrite <- (solids_frac s "l") by exact A | rewrite <- (solids_frac s "l") by exact A];
    unfold liquid, solids; rewrite A; destruct d; reflexivity. }
  rewrite V. f_equal.
  destruct (linear_sum (mean (fraction s PL (low phi d i j)) (fraction s PL (phi i j))) (mean (fraction s PA (low phi d i j)) (fraction s PA (phi i j)))
    (mean (fraction s PB (low phi d i j)) (fraction s PB (phi i j)))) as (L1 & L2 & L3).
  1-3: unfold mean; match goal with A : (forall _, 0 <= _), B : (forall _, 0 <= _) |- 0 <= (fraction _ ?x _ + _) / 2 => pose proof (A x); pose proof (B x) end; lra.
  1: unfold mean; lra.
  destruct x; assumption.
Qed.

(** interface diffusion of the temperature strategy *)
Definition T_contrib (s : strategy) (xy : ph * ph) (p : Z -> R) (T : R) : R :=
  dpair s (fst xy) (snd xy) * exp (- (qpair s (fst xy) (snd xy) / gas_constant s) * (1 / T)) * contrib s xy p.
Definition involves (x : ph) (xy : ph * ph) : bool := same_ph x (fst xy) || same_ph x (snd xy).
Lemma from_inside_touch : forall b v d a c, sum_box (lo0 b) (hi0 b) (lo1 b) (hi1 b) (fun i j => if touch d a c i j then 1 / 2 * v i j else 0) = from_inside b v d a c.
Proof.
  intros. rewrite (sum_touch _ _ _ _ d a c (fun i j => 1 / 2 * v i j)). unfold from_inside, mean, low, inb. destruct (_ && _), (_ && _); field.
Qed.
Lemma ab_T_at : forall b phia na phib nb temp d0c q0 gasR same dA dB d i j,
  let r := ab_diffusion_T b phia na phib nb temp d0c q0 gasR same dA dB in
  let v := fun k l => d0c * exp (- (q0 / gasR) * (1 / temp k l)) * (factor4 * pairs_sum (phia k l) na (phib k l) nb same) in
  at_face (fst r) d i j = at_face dA d i j + from_inside b v d i j /\
  at_face (snd r) d i j = at_face dB d i j + (if same then 0 else from_inside b v d i j).
Proof.
  intros. subst r. unfold ab_diffusion_T. split.
  - rewrite (obs_cells _ (fun f => at_face (fst f) d i j) _ _ _ _ (fun k l => if touch d i j k l then 1 / 2 * v k l else 0)).
    + rewrite from_inside_touch. reflexivity.
    + intros k l s _. cbv zeta.
      rewrite (pairs_obs _ (fun f => at_face (fst f) d i j) _ _ _ _ _ _ (if touch d i j k l then 1 / 2 * (d0c * exp (- (q0 / gasR) * (1 / temp k l)) * factor4) else 0)).
      * unfold v. destruct (touch d i j k l); ring.
      * intros x y s'. cbn [fst snd]. rewrite add_four_at. destruct (touch d i j k l); ring.
  - rewrite (obs_cells _ (fun f => at_face (snd f) d i j) _ _ _ _ (fun k l => if same then 0 else if touch d i j k l then 1 / 2 * v k l else 0)).
    + cbn [snd]. destruct same; [| rewrite from_inside_touch; reflexivity]. f_equal. unfold sum_box.
      rewrite (sumZ_ext _ _ _ (fun _ => 0)); [apply sumZ_zero | intros; apply sumZ_zero].
    + intros k l s _. cbv zeta.
      rewrite (pairs_obs _ (fun f => at_face (snd f) d i j) _ _ _ _ _ _
        (if same then 0 else if touch d i j k l then 1 / 2 * (d0c * exp (- (q0 / gasR) * (1 / temp k l)) * factor4) else 0)).
      * unfold v. destruct same, (touch d i j k l); ring.
      * intros x y s'. cbn [fst snd]. destruct same; [ring |]. rewrite add_four_at. destruct (touch d i j k l); ring.
Qed.
Definition T_step (s : strategy) (b : pbox) (phi : arr3) (temp : arr2) (d : coefs3) (xy : ph * ph) : coefs3 :=
  let (x, y) := xy in
  let r := ab_diffusion_T b (pointer s phi x) (count_of s x) (pointer s phi y) (count_of s y) temp (dpair s x y) (qpair s x y)
             (gas_constant s) (same_ph x y) (get3 d x) (get3 d y) in
  if same_ph x y then set3 d x (fst r) else set3 (set3 d x (fst r)) y (snd r).
Lemma from_inside_ext : forall b f g d i j, (forall i j, f i j = g i j) -> from_inside b f d i j = from_inside b g d i j.
Proof. intros. unfold from_inside, low. rewrite !H. reflexivity. Qed.
Lemma T_step_at : forall s b phi temp f xy x d i j,
  at_face (get3 (T_step s b phi temp f xy) x) d i j =
  at_face (get3 f x) d i j + (if involves x xy then from_inside b (fun i j => T_contrib s xy (phi i j) (temp i j)) d i j else 0).
Proof.
  intros s b phi temp f [y z] x d i j. unfold T_step, T_contrib. cbn [fst snd].
  destruct (ab_T_at b (pointer s phi y) (count_of s y) (pointer s phi z) (count_of s z) temp (dpair s y z) (qpair s y z) (gas_constant s) (same_ph y z)
    (get3 f y) (get3 f z) d i j) as [V1 V2].
  set (r := ab_diffusion_T _ _ _ _ _ _ _ _ _ _ _ _) in *.
  rewrite (from_inside_ext b _ (fun i j => dpair s y z * exp (- (qpair s y z / gas_constant s) * (1 / temp i j)) * contrib s (y, z) (phi i j))) in V1, V2.
  - set (w := from_inside _ _ _ _ _) in *. clearbody r w. unfold involves. cbn [fst snd].
    destruct y, z; cbn [same_ph] in *; destruct x; cbn [same_ph orb get3 set3 cL cA cB] in *; rewrite ?V1, ?V2; ring.
  - intros k l. f_equal. unfold contrib. cbn [fst snd]. destruct (same_ph y z) eqn:SE.
    + apply same_ph_eq in SE. subst z. apply pairs_own.
    + apply pairs_contact.
  - intros k l. f_equal. unfold contrib. cbn [fst snd]. destruct (same_ph y z) eqn:SE.
    + apply same_ph_eq in SE. subst z. apply pairs_own.
    + apply pairs_contact.
Qed.
Definition T_pair_sum (s : strategy) (x : ph) (l : list (ph * ph)) (pT : (Z -> R) * R) : R :=
  fold_right (fun xy t => (if involves x xy then pair_rate s (fst xy) (snd xy) (snd pT) * contrib s xy (fst pT) else 0) + t) 0 l.
Lemma T_pair_sum_cons : forall s x xy l pT, T_pair_sum s x (xy :: l) pT = (if involves x xy then pair_rate s (fst xy) (snd xy) (snd pT) * contrib s xy (fst pT) else 0) + T_pair_sum s x l pT.
Proof. reflexivity. Qed.
Lemma T_pair_sum_all : forall s x pT, T_pair_sum s x (all_pairs s) pT = cell_T_interface s x pT.
Proof.
  intros s x [p T]. unfold all_pairs, cell_T_interface, T_pair_sum, contrib. destruct (with_phaseB s), x;
    cbn [app fold_right fst snd same_ph involves orb count_of]; ring.
Qed.
Lemma from_inside_plus : forall b f g d i j, from_inside b (fun i j => f i j + g i j) d i j = from_inside b f d i j + from_inside b g d i j.
Proof. intros. unfold from_inside, mean, low. destruct (_ && _), (_ && _); field. Qed.
Lemma T_interfaces_fold : forall s b phi temp x d i j l f,
  at_face (get3 (fold_left (T_step s b phi temp) (filter (fun xy => if Rlt_dec 0 (dpair s (fst xy) (snd xy)) then true else false) l) f) x) d i j =
  at_face (get3 f x) d i j + from_inside b (fun i j => T_pair_sum s x l (phi i j, temp i j)) d i j.
Proof.
  intros s b phi temp x d i j l. induction l as [| xy l IH]; intro f.
  - cbn. unfold from_inside, mean, low. destruct (_ && _), (_ && _); cbn; field.
  - rewrite (from_inside_ext b (fun i j => T_pair_sum s x (xy :: l) (phi i j, temp i j))
      (fun i j => (if involves x xy then pair_rate s (fst xy) (snd xy) (temp i j) * contrib s xy (phi i j) else 0) + T_pair_sum s x l (phi i j, temp i j)))
      by reflexivity.
    rewrite from_inside_plus. cbn [filter]. destruct (Rlt_dec 0 (dpair s (fst xy) (snd xy))) as [P | P]; cbn [fold_left].
    + rewrite IH, T_step_at.
      replace (from_inside b (fun i j => if involves x xy then pair_rate s (fst xy) (snd xy) (temp i j) * contrib s xy (phi i j) else 0) d i j)
        with (if involves x xy then from_inside b (fun i j => T_contrib s xy (phi i j) (temp i j)) d i j else 0); [ring |].
      destruct (involves x xy).
      * apply from_inside_ext. intros. unfold T_contrib, pair_rate, active. rewrite Rmax_right by lra. reflexivity.
      * unfold from_inside, mean, low. destruct (_ && _), (_ && _); field.
    + rewrite IH. rewrite (from_inside_ext b (fun i j => if involves x xy then pair_rate s (fst xy) (snd xy) (temp i j) * contrib s xy (phi i j) else 0) (fun _ _ => 0)).
      * replace (from_inside b (fun _ _ => 0) d i j) with 0; [ring |]. unfold from_inside, mean, low. destruct (_ && _), (_ && _); field.
      * intros. destruct (involves x xy); [| reflexivity]. unfold pair_rate, active. rewrite Rmax_left by lra. ring.
Qed.
Lemma T_interfaces_at : forall s b phi temp f g x d i j, T_interfaces s b phi temp f = Some g ->
  at_face (get3 g x) d i j = at_face (get3 f x) d i j + from_inside b (fun i j => cell_T_interface s x (phi i j, temp i j)) d i j.
Proof.
  intros s b phi temp f g x d i j E. unfold T_interfaces in E. destruct (pairs_ok s); [| discriminate]. injection E as <-.
  rewrite (from_inside_ext b (fun i j => cell_T_interface s x (phi i j, temp i j)) (fun i j => T_pair_sum s x (all_pairs s) (phi i j, temp i j)))
    by (intros; rewrite T_pair_sum_all; reflexivity).
  rewrite <- T_interfaces_fold. reflexivity.
Qed.
Lemma T_multi_at : forall s ng depth b phi temp old f x d i j, (1 < depth)%Z -> (with_phaseB s = false -> x <> PB) ->
  T_setDiffusion s b ng depth phi temp old = Some f -> on_face b d i j ->
  at_face (get3 f x) d i j = T_multi_law s depth x d (low phi d i j, low temp d i j) (phi i j, temp i j) +
    from_inside b (fun i j => cell_T_interface s x (phi i j, temp i j)) d i j.
Proof.
  intros s ng depth b phi temp old f x d i j D X E H. unfold T_multi_law. unfold T_setDiffusion in E.
  destruct (interpChar (itp s)) as [c |]; [| discriminate]. cbn [bind] in E.
  destruct (with_phaseB s).
  - destruct (depth =? norderp s)%Z; [| discriminate]. unfold pfmdiffusion_T_three in E. destruct (known c (avg s)); [| discriminate].
    cbn [bind fst snd] in E. rewrite (T_interfaces_at _ _ _ _ _ _ x d i j E). f_equal. destruct x; cbn [get3 cL cA cB]; face H; destruct d; reflexivity.
  - destruct (Z.ltb_spec 1 depth); [| lia]. unfold pfmdiffusion_T_multi in E. destruct (known c (avg s)); [| discriminate].
    cbn [bind fst snd] in E. rewrite (T_interfaces_at _ _ _ _ _ _ x d i j E). f_equal.
    destruct x; [| | exfalso; apply X; reflexivity]; cbn [get3 cL cA cB]; face H; destruct d; reflexivity.
Qed.

(** two phases, temperature dependent: the x faces *)
Lemma T_multi_x_faces : forall s ng depth b phi temp old, with_phaseB s = false -> (1 < depth)%Z -> no_interfaces s -> implemented (itp s) ->
  avg s = "a"%char -> 0 < gas_constant s -> exists f, T_setDiffusion s b ng depth phi temp old = Some f /\
  forall i j, on_face b DX i j -> 0 < temp (i - 1)%Z j -> 0 < temp i j -> last_is_liquid depth (phi (i - 1)%Z j) -> last_is_liquid depth (phi i j) ->
    let T := mean (temp (i - 1)%Z j) (temp i j) in
    exists w, 0 <= w <= 1 /\ at_face (cL f) DX i j = (1 - w) * rate (dbulk s PL) (qbulk s PL) (gas_constant s) T /\
      at_face (cA f) DX i j = w * rate (dbulk s PA) (qbulk s PA) (gas_constant s) T /\
      (phi (i - 1)%Z j (depth - 1)%Z = 1 -> phi i j (depth - 1)%Z = 1 -> w = 0) /\ (phi (i - 1)%Z j (depth - 1)%Z = 0 -> phi i j (depth - 1)%Z = 0 -> w = 1).
Proof.
  intros s ng depth b phi temp old NB D N I A G. destruct (impl_char _ I) as (c & C & P).
  destruct (T_defined s b ng depth phi temp old (nil_ok s N) I) as (f & E); [rewrite A; left; reflexivity | congruence |].
  exists f. split; [exact E |]. intros i j H T1 T2 L1 L2 T.
  assert (Z0 : forall x p t, cell_T_interface s x (p, t) = 0).
  { intros x p t. unfold cell_T_interface, pair_rate, active. rewrite !Rmax_left by apply N. rewrite NB. destruct x; ring. }
  assert (Z1 : forall x, from_inside b (fun i j => cell_T_interface s x (phi i j, temp i j)) DX i j = 0).
  { intro x. unfold from_inside, low, mean. rewrite !Z0. destruct (_ && _), (_ && _); field. }
  change (cL f) with (get3 f PL). change (cA f) with (get3 f PA).
  rewrite (T_multi_at s ng depth b phi temp old f PL DX i j D ltac:(discriminate) E H), (T_multi_at s ng depth b phi temp old f PA DX i j D ltac:(discriminate) E H), !Z1, !Rplus_0_r.
  unfold T_multi_law. rewrite C, NB. unfold low. cbn [lower fst snd]. rewrite !arrhenius_rate by assumption. fold T.
  rewrite A, hface_arith, hface_sum_arith.
  assert (SH : forall (g : Z -> R), sumZ 1 (depth - 1) (fun k => g (k - 1)%Z) = sumZ 0 (depth - 2) g).
  { intro g. unfold sumZ. replace (depth - 2 - 0 + 1)%Z with (depth - 1 - 1 + 1)%Z by lia. generalize (Z.to_nat (depth - 1 - 1 + 1)). intro n.
    assert (Q : forall n lo, sum_from (lo + 1) n (fun k => g (k - 1)%Z) = sum_from lo n g).
    { induction n0 as [| n0 IH]; intro lo; [reflexivity |]. cbn [sum_from]. rewrite IH. do 2 f_equal. lia. }
    apply (Q n 0%Z). }
  rewrite !SH. unfold last_is_liquid in *.
  destruct (complement c (mean (phi (i - 1)%Z j (depth - 1)%Z) (phi i j (depth - 1)%Z)) (mean (sumZ 0 (depth - 2) (phi (i - 1)%Z j)) (sumZ 0 (depth - 2) (phi i j))) P)
    as (w & W & -> & -> & W0 & W1); [unfold mean; lra |].
  exists w. split; [exact W |]. split; [reflexivity |]. split; [reflexivity |]. unfold mean in *. split; intros; [apply W0 | apply W1]; lra.
Qed.

(** * Refutations *)
Definition ex_strategy (n na nb : Z) (three : bool) (d : ph -> ph -> R) (t : interp_type) (a : ascii) : strategy :=
  mk_strategy n na nb false three (fun _ => 1) (fun _ => 0) d (fun _ _ => 0) 8 t a.
Definition unit_box : pbox := mk_pbox 0 0 0 0 1 1.
Definition zero_faces : faces := (fun _ _ => 0, fun _ _ => 0).
Lemma biased_stops : read_interp "b" = BIASED /\
  (forall s b depth phi old, itp s = BIASED -> scalar_setDiffusion s b depth phi old = None) /\
  (forall s b ng depth phi temp old, itp s = BIASED -> T_setDiffusion s b ng depth phi temp old = None) /\
  (forall dl ds dla daa a b depth phi conc old, wang_setDiffusion dl ds dla daa BIASED a b depth phi conc old = None).
Proof.
  split; [reflexivity |]. split; [| split].
  - intros s b depth phi old E. unfold scalar_setDiffusion. rewrite E. cbn [interpChar bind].
    unfold pfmdiffusion_scalar_3phases, pfmdiffusion_scalar_2phases, pfmdiffusion_scalar. cbn [known interp_func bind].
    destruct (with_phaseB s), (depth =? norderp s)%Z, (1 <? depth)%Z; reflexivity.
  - intros s b ng depth phi temp old E. unfold T_setDiffusion. rewrite E. cbn [interpChar bind].
    unfold pfmdiffusion_T_three, pfmdiffusion_T_multi, pfmdiffusion_T. cbn [known interp_func bind].
    destruct (with_phaseB s), (depth =? norderp s)%Z, (1 <? depth)%Z; reflexivity.
  - reflexivity.
Qed.
Lemma no_ex : forall n na nb three t a, no_interfaces (ex_strategy n na nb three (fun _ _ => 0) t a).
Proof. intros. intros x y. cbn. lra. Qed.
Lemma pbg_three_refuted : exists s b phi old f, with_phaseB s = true /\ no_interfaces s /\ itp s = PBG /\ avg s = "a"%char /\ (forall x, dbulk s x = 1) /\
  (forall i j x, fraction s x (phi i j) = 1 / 3) /\ scalar_setDiffusion s b (norderp s) phi old = Some f /\
  on_face b DX 0 0 /\ at_face f DX 0 0 = 17 / 27.
Proof.
  set (s := ex_strategy 3 1 1 true (fun _ _ => 0) PBG "a"). set (phi := (fun _ _ _ => 1 / 3) : arr3).
  destruct (scalar_defined s unit_box (norderp s) phi zero_faces) as (f & E); [apply nil_ok, no_ex | right; reflexivity | left; reflexivity | reflexivity |].
  assert (F : forall i j x, fraction s x (phi i j) = 1 / 3).
  { intros i j x. unfold fraction. replace (members s x) with 1%Z by (destruct x; reflexivity). rewrite sumZ_cons, sumZ_empty by lia. unfold of_phase, phi. field. }
  exists s, unit_box, phi, zero_faces, f. split; [reflexivity |]. split; [apply no_ex |]. split; [reflexivity |]. split; [reflexivity |].
  split; [reflexivity |]. split; [exact F |]. split; [exact E |].
  assert (H : on_face unit_box DX 0 0) by (unfold on_face, x_face, in_box; cbn; lia). split; [exact H |].
  rewrite (scalar_at s _ _ _ _ _ _ _ _ "p"%char eq_refl E H). unfold has_interfaces, scalar_base. change (with_phaseB s) with true. cbn [orb].
  rewrite !no_cell by apply no_ex. rewrite liquid_frac by reflexivity. change (nA s) with (members s PA). change (nB s) with (members s PB).
  rewrite !solids_frac by reflexivity. unfold low. rewrite !F. cbn [interp_func val dbulk ex_strategy s].
  rewrite clamp01_mid by (unfold mean; lra). unfold mean. lra.
Qed.
(** a sharp interface between liquid and solid, the input's default average *)
Lemma harmonic_refuted : exists s b depth phi old f, with_phaseB s = false /\ (1 < depth)%Z /\ no_interfaces s /\ implemented (itp s) /\ avg s = "h"%char /\
  (forall x, dbulk s x = 1) /\ (forall i j, fraction s PL (phi i j) + fraction s PA (phi i j) = 1) /\ scalar_setDiffusion s b depth phi old = Some f /\
  on_face b DX 0 0 /\ at_face f DX 0 0 = 0.
Proof.
  set (s := ex_strategy 2 1 0 false (fun _ _ => 0) LINEAR "h").
  set (phi := (fun i _ k => if (i <? 0)%Z then (if (k =? 1)%Z then 1 else 0) else (if (k =? 1)%Z then 0 else 1)) : arr3).
  destruct (scalar_defined s unit_box 2 phi zero_faces) as (f & E); [apply nil_ok, no_ex | left; reflexivity | right; left; reflexivity | discriminate |].
  exists s, unit_box, 2%Z, phi, zero_faces, f. split; [reflexivity |]. split; [lia |]. split; [apply no_ex |]. split; [left; reflexivity |].
  split; [reflexivity |]. split; [reflexivity |]. split.
  { intros i j. unfold fraction. change (members s PL) with 1%Z. change (members s PA) with 1%Z.
    rewrite (sumZ_cons 1 1 (of_phase s PL (phi i j))), (sumZ_cons 1 1 (of_phase s PA (phi i j))), !sumZ_empty by lia. unfold of_phase, phi. cbn. destruct (i <? 0)%Z; lra. }
  split; [exact E |]. assert (H : on_face unit_box DX 0 0) by (unfold on_face, x_face, in_box; cbn; lia). split; [exact H |].
  rewrite (scalar_at s _ _ _ _ _ _ _ _ "l"%char eq_refl E H). unfold has_interfaces, scalar_base. change (with_phaseB s) with false.
  change (1 <? 2)%Z with true. cbn [orb]. rewrite !no_cell by apply no_ex.
  assert (T := avg_threshold_pos). assert (T1 : avg_threshold <= 1).
  { unfold avg_threshold. rewrite <- Rinv_1. apply Rinv_le_contravar; [lra |]. apply pow_R1_Rle. lra. }
  assert (H1 : liquid s "l" (low phi DX 0 0) (phi 0%Z 0%Z) = 0).
  { unfold liquid, hface, of_phase, low, phi. cbn [s ex_strategy avg first_of with3phases norderp lower fst snd]. cbn [Z.ltb Z.sub Z.add Z.opp Z.compare Z.eqb Pos.add Pos.eqb].
    cbn. destruct (Rlt_dec 1 avg_threshold); [lra |]. destruct (Rlt_dec 0 avg_threshold); [| lra]. cbn. rewrite Rmax_right, Rmin_right; lra. }
  assert (H2 : solids s "l" (nA s) PA (low phi DX 0 0) (phi 0%Z 0%Z) = 0).
  { unfold solids, hface_sum. rewrite sum_loop. change (nA s) with 1%Z. rewrite sumZ_cons, sumZ_empty by lia. unfold of_phase, low, phi. cbn [s ex_strategy avg first_of with3phases norderp lower fst snd].
    cbn. destruct (Rlt_dec 0 avg_threshold); [| lra]. cbn. rewrite Rplus_0_r, Rmax_right, Rmin_right; lra. }
  rewrite H1, H2. unfold mean. lra.
Qed.
(** the y faces of the temperature strategy with several order parameters *)
Lemma arrhenius_one : forall t1 t2, arrhenius 1 0 8 (inv_T t1 t2) = 1.
Proof. intros. unfold arrhenius. replace (- (0 / 8) * inv_T t1 t2) with 0 by field. rewrite exp_0. ring. Qed.
Definition layer : arr3 := fun _ j k => if (j <? 0)%Z then (if (k =? 1)%Z then 1 else 0) else (if (k =? 1)%Z then 0 else 1).
Lemma T_y_refuted : exists s b depth phi temp old f, with_phaseB s = false /\ (1 < depth)%Z /\ no_interfaces s /\ implemented (itp s) /\ avg s = "a"%char /\
  (forall x, dbulk s x = 1 /\ qbulk s x = 0) /\ (forall i j, 0 < temp i j /\ last_is_liquid depth (phi i j)) /\ T_setDiffusion s b 1 depth phi temp old = Some f /\
  on_face b DY 0 0 /\ at_face (cL f) DY 0 0 + at_face (cA f) DY 0 0 = 3 / 2.
Proof.
  set (s := ex_strategy 2 1 0 false (fun _ _ => 0) LINEAR "a"). set (old := mk_coefs3 zero_faces zero_faces zero_faces). set (temp := (fun _ _ => 1) : arr2).
  destruct (T_defined s unit_box 1 2 layer temp old) as (f & E); [apply nil_ok, no_ex | left; reflexivity | left; reflexivity | discriminate |].
  exists s, unit_box, 2%Z, layer, temp, old, f. split; [reflexivity |]. split; [lia |]. split; [apply no_ex |]. split; [left; reflexivity |].
  split; [reflexivity |]. split; [intro; split; reflexivity |]. split.
  { intros i j. split; [unfold temp; lra |]. unfold last_is_liquid. replace (2 - 2)%Z with 0%Z by lia. rewrite sumZ_cons, sumZ_empty by lia. unfold layer.
    cbn. destruct (j <? 0)%Z; lra. }
  split; [exact E |]. assert (H : on_face unit_box DY 0 0) by (unfold on_face, y_face, in_box; cbn; lia). split; [exact H |].
  assert (Z0 : forall x p t, cell_T_interface s x (p, t) = 0).
  { intros x p t. unfold cell_T_interface, pair_rate, active. cbn [s ex_strategy dpair with_phaseB]. rewrite !Rmax_left by lra. destruct x; ring. }
  assert (Z1 : forall x, from_inside unit_box (fun i j => cell_T_interface s x (layer i j, temp i j)) DY 0 0 = 0).
  { intro x. unfold from_inside, low, mean. rewrite !Z0. destruct (_ && _), (_ && _); field. }
  change (cL f) with (get3 f PL). change (cA f) with (get3 f PA).
  rewrite (T_multi_at s 1 2 _ _ _ _ f PL DY 0 0 ltac:(lia) ltac:(discriminate) E H), (T_multi_at s 1 2 _ _ _ _ f PA DY 0 0 ltac:(lia) ltac:(discriminate) E H), !Z1.
  unfold T_multi_law. cbn [s ex_strategy interpChar itp with_phaseB avg dbulk qbulk gas_constant fst snd]. rewrite !arrhenius_one.
  rewrite hface_arith, hface_sum_arith. replace (2 - 1)%Z with 1%Z by lia. rewrite (sumZ_cons 1 1 (fun k => low layer DY 0 0 (k - 1)%Z)), (sumZ_cons 1 1 (fun k => layer 0%Z 0%Z (k - 1)%Z)), !sumZ_empty by lia.
  unfold low, layer, mean. cbn. replace ((1 + 1) / 2) with 1 by lra. replace ((0 + 0 + (1 + 0)) / 2) with (1 / 2) by lra.
  rewrite (Rmax_right 0 1), (Rmax_right 0 (1 / 2)), (Rmin_left 1 1), (Rmin_right 1 (1 / 2)) by lra. lra.
Qed.
Lemma T_axis_refuted : exists s depth, with_phaseB s = false /\ (1 < depth)%Z /\ no_interfaces s /\ implemented (itp s) /\ avg s = "a"%char /\
  ~ axis_free (T_op s 1 depth PL) /\ mirror_free (T_op s 1 depth PA) /\ axis_free (T_op s 1 depth PA).
Proof.
  set (s := ex_strategy 2 1 0 false (fun _ _ => 0) LINEAR "a"). exists s, 2%Z. assert (N : no_interfaces s) by apply no_ex.
  split; [reflexivity |]. split; [lia |]. split; [exact N |]. split; [left; reflexivity |]. split; [reflexivity |].
  assert (L : forall x, (with_phaseB s = false -> x <> PB) -> dlaw (T_op s 1 2 x) (T_multi_law s 2 x)).
  { intros x X. apply T_multi_has_law; [apply pair_list_nil, N | lia | exact X]. }
  assert (LA : law (T_op s 1 2 PA) (T_multi_law s 2 PA DX)).
  { intros b st old f d i j E H. rewrite (L PA ltac:(discriminate) _ _ _ _ _ _ _ E H). destruct d; [reflexivity |].
    symmetry. apply (T_multi_sym s 2 PA DX). reflexivity. }
  split; [| split; [eapply law_mirror, LA; intros; apply T_multi_sym; reflexivity | eapply law_axis, LA]].
  intro A. set (st := fun i j => (layer i j, 1)).
  assert (D : forall b st' old, exists f, T_op s 1 2 PL b st' old = Some f).
  { intros b st' old. unfold T_op. destruct (T_defined s b 1 2 (fun i j => fst (st' i j)) (fun i j => snd (st' i j)) (mk_coefs3 old old old)) as (f & ->);
      [apply nil_ok, N | left; reflexivity | left; reflexivity | discriminate | cbn; eauto]. }
  destruct (D unit_box st zero_faces) as (f & E). destruct (D (turn_box unit_box) (turn st) zero_faces) as (g & E').
  assert (H : on_face unit_box DY 0 0) by (unfold on_face, y_face, in_box; cbn; lia).
  assert (H' : on_face (turn_box unit_box) DX 0 0) by (unfold on_face, x_face, in_box; cbn; lia).
  specialize (A _ _ _ _ _ _ _ _ _ E E' H). cbn [turn_dir] in A.
  rewrite (L PL ltac:(discriminate) _ _ _ _ _ _ _ E H), (L PL ltac:(discriminate) _ _ _ _ _ _ _ E' H') in A. revert A.
  unfold T_multi_law. cbn [s ex_strategy interpChar itp with_phaseB avg dbulk qbulk gas_constant]. rewrite !arrhenius_one, !hface_arith.
  unfold low, turn, st, layer, mean. cbn. rewrite !Rmax_right, (Rmin_right 1 ((1 + 0) / 2)), (Rmin_left 1 ((1 + 1) / 2)) by lra. lra.
Qed.
Lemma beckermann_mirror_refuted : exists dl ds c a, In c ["p"; "l"]%char /\ In a averages /\ ~ mirror_free (beckermann_op dl ds c a) /\
  axis_free (beckermann_op dl ds c a) /\ patch_free (beckermann_op dl ds c a).
Proof.
  exists 1, 0, "l"%char, "a"%char. split; [cbn; tauto |]. split; [cbn; tauto |].
  set (F := fun u v : R * R => let h := hface "l" "a" (fst u) (fst v) in 0 + (1 - 0) * (1 - h) / (1 - h + snd v * h)).
  assert (L : law (beckermann_op 1 0 "l" "a") F).
  { intros b st old f d i j E H. unfold beckermann_op, diffusion_beckermann in E. cbn [known interp_func average_func] in E. injection E as <-. face H. destruct d; reflexivity. }
  split; [| split; [eapply law_axis, L | eapply law_patch; exact L]].
  intro M. set (st := fun i (j : Z) => if (i <? 0)%Z then (1 / 2, 1) else (1 / 2, 2)).
  assert (D : forall b st' old, exists f, beckermann_op 1 0 "l" "a" b st' old = Some f) by (intros; unfold beckermann_op, diffusion_beckermann; cbn; eauto).
  destruct (D unit_box st zero_faces) as (f & E). destruct (D (mirror_box unit_box) (mirror st) zero_faces) as (g & E').
  assert (H : on_face unit_box DX 0 0) by (unfold on_face, x_face, in_box; cbn; lia).
  assert (H' : on_face (mirror_box unit_box) DX 1 0) by (unfold on_face, x_face, in_box; cbn; lia).
  specialize (M _ _ _ _ _ _ _ _ _ E E' H). cbn [mirror_face] in M. replace (1 - 0)%Z with 1%Z in M by lia.
  rewrite (L _ _ _ _ _ _ _ E H), (L _ _ _ _ _ _ _ E' H') in M. revert M. unfold F, low, mirror, st. cbn [lower fst snd]. cbn [Z.sub Z.add Z.opp Z.ltb Z.compare Z.pos_sub].
  cbn [fst snd]. rewrite !hface_arith. unfold mean. cbn [interp_func val]. rewrite !Rmax_right, !Rmin_right by (cbn; lra). cbn. lra.
Qed.
(** patches and interface diffusion *)
Definition half3 : arr3 := fun _ _ _ => 1 / 2.
Lemma T_patch_refuted : exists s depth, with_phaseB s = false /\ (1 < depth)%Z /\ implemented (itp s) /\ avg s = "a"%char /\ norderp s = 2%Z /\ norderpA s = 1%Z /\
  ~ patch_free (T_op s 1 depth PL) /\ ~ patch_free (T_op s 1 depth PA).
Proof.
  set (s := ex_strategy 2 1 0 false (fun x y => match x, y with PA, PL => 1 | _, _ => 0 end) LINEAR "a"). exists s, 2%Z.
  split; [reflexivity |]. split; [lia |]. split; [left; reflexivity |]. split; [reflexivity |]. split; [reflexivity |]. split; [reflexivity |].
  assert (O : pairs_ok s = true).
  { unfold pairs_ok, pair_list. cbn [s ex_strategy with_phaseB app filter fst snd dpair]. destruct (Rlt_dec 0 1), (Rlt_dec 0 0); reflexivity. }
  set (st := fun (i j : Z) => (half3 i j, 1)). set (big := mk_pbox 0 1 0 0 1 1).
  assert (K : forall x, x <> PB -> cell_T_interface s x (half3 0%Z 0%Z, 1) = 1).
  { intros x X. assert (G : forall p T, pair_rate s PA PL T * contact (norderpA s) (of_phase s PA (half3 0%Z 0%Z)) 1 (of_phase s PL (half3 0%Z 0%Z)) = 1 /\ pair_rate s PA PA T * p = 0).
    { intros p T. unfold pair_rate, active. cbn [s ex_strategy dpair qpair gas_constant norderpA]. rewrite Rmax_right, Rmax_left by lra.
      replace (- (0 / 8) * (1 / T)) with 0 by (unfold Rdiv; ring). rewrite exp_0. split; [| ring]. unfold contact, total.
      rewrite (sumZ_cons 1 1 (fun k => presence (of_phase s PA (half3 0%Z 0%Z) k))), (sumZ_cons 1 1 (fun k => presence (of_phase s PL (half3 0%Z 0%Z) k))), !sumZ_empty by lia.
      unfold of_phase, half3, presence. rewrite Rmax_right by lra. field. }
    unfold cell_T_interface. cbn [s ex_strategy with_phaseB]. fold s. destruct x; [apply (G 0) | | congruence].
    destruct (G (own_contact (norderpA s) (of_phase s PA (half3 0%Z 0%Z))) 1) as [-> ->]. ring. }
  assert (B : forall x, x <> PB -> ~ patch_free (T_op s 1 2 x)).
  { intros x X P. 
    assert (D : forall b, exists f, T_setDiffusion s b 1 2 (fun i j => fst (st i j)) (fun i j => snd (st i j)) (mk_coefs3 zero_faces zero_faces zero_faces) = Some f).
    { intro b. apply T_defined; [exact O | left; reflexivity | left; reflexivity | discriminate]. }
    destruct (D unit_box) as (f & E). destruct (D big) as (g & E').
    assert (H : on_face unit_box DX 1 0) by (unfold on_face, x_face, in_box; cbn; lia).
    assert (H' : on_face big DX 1 0) by (unfold on_face, x_face, in_box; cbn; lia).
    specialize (P unit_box big st zero_faces zero_faces (get3 f x) (get3 g x) DX 1%Z 0%Z). unfold T_op in P. rewrite E, E' in P. specialize (P eq_refl eq_refl H H').
    rewrite (T_multi_at s 1 2 _ _ _ _ f x DX 1 0 ltac:(lia) ltac:(auto) E H), (T_multi_at s 1 2 _ _ _ _ g x DX 1 0 ltac:(lia) ltac:(auto) E' H') in P.
    apply Rplus_eq_reg_l in P. revert P. unfold from_inside, low, st. cbn [lower fst snd unit_box big lo0 hi0 lo1 hi1]. unfold mean. cbn [Z.sub Z.add Z.opp Z.leb Z.compare Pos.compare Pos.compare_cont Z.pos_sub andb].
    change (half3 1%Z 0%Z) with (half3 0%Z 0%Z). rewrite !K by exact X. lra. }
  split; apply B; discriminate.
Qed.

(** * The isotropic flux *)
Lemma sumZ_one : forall f, sumZ 1 1 f = f 1%Z.
Proof. intro f. rewrite sumZ_cons, sumZ_empty by lia. ring. Qed.
Lemma iso_flux_at : forall b cl ca f d i j, on_face b d i j ->
  flux_at (ebs_isotropic_flux b cl ca f) d i j =
  match d with
  | DX => iso_x 1 (h1 b) (one cl) (one (fst (cL f))) 1 1 i j + iso_x 1 (h1 b) (one ca) (one (fst (cA f))) 1 1 i j
  | DY => iso_y 1 (h2 b) (one cl) (one (snd (cL f))) 1 1 i j + iso_y 1 (h2 b) (one ca) (one (snd (cA f))) 1 1 i j
  end.
Proof.
  intros b cl ca f d i j H. unfold ebs_isotropic_flux, flux_at. destruct d; unfold on_face, x_face, y_face, in_box in H.
  - rewrite !add_flux_iso_x. unfold gain. rewrite !inb_true by lia. cbn [andb fst]. rewrite !sumZ_one. ring.
  - rewrite !add_flux_iso_y. unfold gain. rewrite !inb_true by lia. cbn [andb snd]. rewrite !sumZ_one. ring.
Qed.
Lemma T_single_flux : forall s ng b b' phi temp cl ca old old' f f', with_phaseB s = false -> (1 <= ng)%Z -> h1 b = h1 b' -> h2 b = h2 b' ->
  T_setDiffusion s b ng 1 phi temp old = Some f -> T_setDiffusion s b' ng 1 phi temp old' = Some f' ->
  forall d i j, on_face b d i j -> on_face b' d i j -> flux_at (ebs_isotropic_flux b cl ca f) d i j = flux_at (ebs_isotropic_flux b' cl ca f') d i j.
Proof.
  intros s ng b b' phi temp cl ca old old' f f' NB N H1 H2 E E' d i j H H'. assert (N0 : (0 <= ng)%Z) by lia. rewrite !iso_flux_at by assumption. rewrite <- H1, <- H2.
  assert (V : forall x i' j', x <> PB -> on_face (match d with DX => grow_x b ng | DY => grow_y b ng end) d i' j' ->
     on_face (match d with DX => grow_x b' ng | DY => grow_y b' ng end) d i' j' -> at_face (get3 f x) d i' j' = at_face (get3 f' x) d i' j').
  { intros x i' j' X G G'. rewrite (T_single_at _ _ _ _ _ _ _ x d i' j' NB N0 X E G), (T_single_at _ _ _ _ _ _ _ x d i' j' NB N0 X E' G'). reflexivity. }
  destruct d; unfold iso_x, iso_y, one; cbn [at_face] in V; unfold on_face, x_face, y_face, in_box in *; cbn [grow_x grow_y lo0 hi0 lo1 hi1] in V.
  - change (cL f) with (get3 f PL). change (cA f) with (get3 f PA). change (cL f') with (get3 f' PL). change (cA f') with (get3 f' PA).
    rewrite !(V PL) by (lia || discriminate). rewrite !(V PA) by (lia || discriminate). reflexivity.
  - change (cL f) with (get3 f PL). change (cA f) with (get3 f PA). change (cL f') with (get3 f' PL). change (cA f') with (get3 f' PA).
    rewrite !(V PL) by (lia || discriminate). rewrite !(V PA) by (lia || discriminate). reflexivity.
Qed.
Lemma xfaces_at : forall b f a i j, xfaces b f a i j = if inb (lo0 b) (hi0 b + 1) i && inb (lo1 b) (hi1 b) j then f i j else a i j.
Proof. intros. unfold xfaces. rewrite (cells_loop _ _ _ _ (fun i j _ => f i j)). reflexivity. Qed.
(** with several order parameters the rows next to the patch are not written *)
Lemma T_multi_outside : forall s b phi temp old f, with_phaseB s = false -> no_interfaces s -> T_setDiffusion s b 1 2 phi temp old = Some f ->
  forall i j, (j < lo1 b \/ hi1 b < j)%Z -> fst (cL f) i j = fst (cL old) i j /\ fst (cA f) i j = fst (cA old) i j.
Proof.
  intros s b phi temp old f NB N E i j J. unfold T_setDiffusion in E. destruct (interpChar (itp s)) as [c |]; [| discriminate]. cbn [bind] in E. rewrite NB in E.
  cbn [Z.ltb Z.compare Pos.compare Pos.compare_cont] in E. unfold pfmdiffusion_T_multi in E. destruct (known c (avg s)); [| discriminate].
  cbn [bind fst snd] in E. unfold T_interfaces, pairs_ok in E. rewrite (pair_list_nil s N) in E. cbn [forallb fold_left] in E. injection E as <-.
  cbn [cL cA fill fst snd]. rewrite !xfaces_at.
  destruct (inb_spec (lo1 b) (hi1 b) j); [lia |]. rewrite !andb_false_r. auto.
Qed.
Lemma T_flux_refuted : exists s b phi temp cl ca old old' f f', with_phaseB s = false /\ no_interfaces s /\ implemented (itp s) /\ avg s = "a"%char /\
  (forall i j, 0 < temp i j /\ last_is_liquid 2 (phi i j)) /\ T_setDiffusion s b 1 2 phi temp old = Some f /\ T_setDiffusion s b 1 2 phi temp old' = Some f' /\
  on_face b DX 0 0 /\ flux_at (ebs_isotropic_flux b cl ca f) DX 0 0 <> flux_at (ebs_isotropic_flux b cl ca f') DX 0 0.
Proof.
  set (s := ex_strategy 2 1 0 false (fun _ _ => 0) LINEAR "a"). set (temp := (fun _ _ => 1) : arr2). set (z := mk_coefs3 zero_faces zero_faces zero_faces).
  set (o := mk_coefs3 (fun _ j => if (j <? 0)%Z then 12 else 0, fun _ _ => 0) zero_faces zero_faces). set (cl := (fun i _ => if (i <? 0)%Z then 0 else 1) : arr2). set (ca := (fun _ _ => 0) : arr2).
  assert (D : forall old, exists f, T_setDiffusion s unit_box 1 2 half3 temp old = Some f).
  { intro old. apply T_defined; [apply nil_ok, no_ex | left; reflexivity | left; reflexivity | discriminate]. }
  destruct (D z) as (f & E). destruct (D o) as (g & E').
  exists s, unit_box, half3, temp, cl, ca, z, o, f, g. split; [reflexivity |]. split; [apply no_ex |]. split; [left; reflexivity |]. split; [reflexivity |]. split.
  { intros i j. split; [unfold temp; lra |]. unfold last_is_liquid. replace (2 - 2)%Z with 0%Z by lia. rewrite sumZ_cons, sumZ_empty by lia. unfold half3. lra. }
  split; [exact E |]. split; [exact E' |]. assert (H : on_face unit_box DX 0 0) by (unfold on_face, x_face, in_box; cbn; lia). split; [exact H |].
  rewrite !iso_flux_at by exact H. unfold iso_x, one, ca, cl. cbn [h1 unit_box Z.sub Z.add Z.opp Z.ltb Z.compare Pos.add Z.pos_sub].
  destruct (T_multi_outside s unit_box half3 temp z f eq_refl ltac:(apply no_ex) E 0%Z (-1)%Z ltac:(cbn; lia)) as [A1 _].
  destruct (T_multi_outside s unit_box half3 temp o g eq_refl ltac:(apply no_ex) E' 0%Z (-1)%Z ltac:(cbn; lia)) as [A2 _].
  assert (S : fst (cL f) 0%Z 0%Z = fst (cL g) 0%Z 0%Z).
  { change (at_face (get3 f PL) DX 0 0 = at_face (get3 g PL) DX 0 0).
    rewrite (T_multi_at s 1 2 _ _ _ _ f PL DX 0 0 ltac:(lia) ltac:(discriminate) E H), (T_multi_at s 1 2 _ _ _ _ g PL DX 0 0 ltac:(lia) ltac:(discriminate) E' H). reflexivity. }
  destruct (T_multi_outside s unit_box half3 temp z f eq_refl ltac:(apply no_ex) E 0%Z 1%Z ltac:(cbn; lia)) as [A3 _].
  destruct (T_multi_outside s unit_box half3 temp o g eq_refl ltac:(apply no_ex) E' 0%Z 1%Z ltac:(cbn; lia)) as [A4 _].
  rewrite A1, A2, A3, A4, S. cbn. lra.
Qed.

(** * Interface diffusion *)
Lemma sumZ_nonneg : forall lo hi f, (forall k, (lo <= k <= hi)%Z -> 0 <= f k) -> 0 <= sumZ lo hi f.
Proof.
  intros lo hi f. revert lo hi. apply (Zinterval_ind (fun lo hi => (forall k, (lo <= k <= hi)%Z -> 0 <= f k) -> 0 <= sumZ lo hi f)).
  - intros lo hi H _. rewrite sumZ_empty by auto. lra.
  - intros lo hi H IH P. rewrite sumZ_snoc by auto. assert (0 <= f hi) by (apply P; lia). assert (0 <= sumZ lo (hi - 1) f) by (apply IH; intros; apply P; lia). lra.
Qed.
Lemma presence_nonneg : forall p, 0 <= presence p.
Proof. intros. unfold presence. apply pow2_ge_0. Qed.
Lemma presence_low : forall p, p <= 1 / 100 -> presence p = 0.
Proof. intros p H. unfold presence. rewrite Rmax_left by lra. field. Qed.
Lemma total_nonneg : forall n p, 0 <= total n p.
Proof. intros. apply sumZ_nonneg. intros. apply presence_nonneg. Qed.
Lemma contact_nonneg : forall na pa nb pb, 0 <= contact na pa nb pb.
Proof. intros. unfold contact. apply Rmult_le_pos; apply total_nonneg. Qed.
Lemma own_contact_nonneg : forall n p, 0 <= own_contact n p.
Proof.
  intros. rewrite <- pairs_own. apply Rmult_le_pos.
  - unfold factor4, threshold. apply pow_le. lra.
  - apply sumZ_nonneg. intros. apply sumZ_nonneg. intros. apply Rmult_le_pos; apply pow2_ge_0.
Qed.
Lemma active_nonneg : forall s x y, 0 <= active s x y.
Proof. intros. unfold active. apply Rmax_l. Qed.
Lemma cell_interface_nonneg : forall s p, 0 <= cell_interface s p.
Proof.
  intros s p. unfold cell_interface. pose proof (fun x y => active_nonneg s x y). pose proof contact_nonneg. pose proof own_contact_nonneg.
  destruct (with_phaseB s); repeat apply Rplus_le_le_0_compat; try (apply Rmult_le_pos; auto); lra.
Qed.
Lemma cell_T_nonneg : forall s x pT, 0 <= cell_T_interface s x pT.
Proof.
  intros s x [p T]. unfold cell_T_interface. assert (P : forall x y, 0 <= pair_rate s x y T) by (intros; unfold pair_rate; apply Rmult_le_pos; [apply active_nonneg | left; apply exp_pos]).
  pose proof contact_nonneg. pose proof own_contact_nonneg.
  destruct (with_phaseB s), x; repeat apply Rplus_le_le_0_compat; try (apply Rmult_le_pos; auto); lra.
Qed.

Lemma same_ph_spec : forall x y, reflect (x = y) (same_ph x y).
Proof. intros [] []; cbn; constructor; congruence. Qed.
Lemma position_range : forall s x k, layout s -> valid s x -> (1 <= k <= count_of s x)%Z -> (0 <= position s x k < norderp s)%Z.
Proof.
  intros s x k L V K. unfold layout, position, first_of, valid in *. destruct (with3phases s).
  - destruct L as (B & A1 & B1 & N). destruct x; cbn [count_of] in K; lia.
  - destruct (with_phaseB s); destruct x; cbn [count_of] in K; try (exfalso; apply V; reflexivity); lia.
Qed.
Lemma position_inj : forall s x k y l, layout s -> valid s x -> valid s y -> (1 <= k <= count_of s x)%Z -> (1 <= l <= count_of s y)%Z ->
  position s x k = position s y l -> x = y /\ k = l.
Proof.
  intros s x k y l L V W K H E. unfold layout, position, first_of, valid in *. destruct (with3phases s).
  - destruct L as (B & A1 & B1 & N). destruct x, y; cbn [count_of] in K, H; try (split; [reflexivity | lia]); exfalso; lia.
  - destruct (with_phaseB s); destruct x, y; cbn [count_of] in K, H; try (exfalso; apply V; reflexivity); try (exfalso; apply W; reflexivity);
      try (split; [reflexivity | lia]); exfalso; lia.
Qed.
Lemma sum_pick : forall n k (v : R), (1 <= k <= n)%Z -> sumZ 1 n (fun m => if (m =? k)%Z then v else 0) = v.
Proof. intros n k v H. rewrite (sumZ_single 1 n k (fun _ => v)), inb_true by lia. reflexivity. Qed.
Lemma phase_two : forall s (g : R -> R) z p x k y l, layout s -> valid s z -> valid s x -> valid s y -> (1 <= k <= count_of s x)%Z -> (1 <= l <= count_of s y)%Z ->
  position s x k <> position s y l -> only s [position s x k; position s y l] p -> g 0 = 0 ->
  sumZ 1 (count_of s z) (fun m => g (presence (of_phase s z p m))) =
  (if same_ph z x then g (presence (p (position s x k))) else 0) + (if same_ph z y then g (presence (p (position s y l))) else 0).
Proof.
  intros s g z p x k y l L VZ VX VY K H NE O G.
  rewrite (sumZ_ext _ _ _ (fun m => (if (m =? k)%Z then (if same_ph z x then g (presence (p (position s x k))) else 0) else 0) +
                                   (if (m =? l)%Z then (if same_ph z y then g (presence (p (position s y l))) else 0) else 0))).
  - rewrite sumZ_plus. f_equal.
    + destruct (same_ph_spec z x) as [-> | D]; [apply sum_pick, K |]. rewrite (sumZ_ext _ _ _ (fun _ => 0)); [apply sumZ_zero | intros; destruct (_ =? _)%Z; reflexivity].
    + destruct (same_ph_spec z y) as [-> | D]; [apply sum_pick, H |]. rewrite (sumZ_ext _ _ _ (fun _ => 0)); [apply sumZ_zero | intros; destruct (_ =? _)%Z; reflexivity].
  - intros m M. unfold of_phase. fold (position s z m).
    destruct (Z.eq_dec (position s z m) (position s x k)) as [E | E].
    { destruct (position_inj s z m x k L VZ VX M K E) as [-> ->]. rewrite Z.eqb_refl. destruct (same_ph_spec x x); [| congruence].
      destruct (Z.eqb_spec k l) as [-> |]; [| ring]. destruct (same_ph_spec x y) as [-> |]; [congruence | ring]. }
    destruct (Z.eq_dec (position s z m) (position s y l)) as [E2 | E2].
    { destruct (position_inj s z m y l L VZ VY M H E2) as [-> ->]. rewrite Z.eqb_refl. destruct (same_ph_spec y y); [| congruence].
      destruct (Z.eqb_spec l k) as [-> |]; [| ring]. destruct (same_ph_spec y x) as [-> |]; [congruence | ring]. }
    rewrite presence_low, G.
    + replace (if (m =? k)%Z then if same_ph z x then g (presence (p (position s x k))) else 0 else 0) with 0
        by (destruct (Z.eqb_spec m k); [destruct (same_ph_spec z x); [congruence | reflexivity] | reflexivity]).
      destruct (Z.eqb_spec m l); [destruct (same_ph_spec z y); [congruence | ring] | ring].
    + apply O; [apply position_range; auto |]. cbn. intros [Q | [Q | []]]; congruence.
Qed.
Lemma sum_total : forall s z p, total (count_of s z) (of_phase s z p) = sumZ 1 (count_of s z) (fun m => (fun r => r) (presence (of_phase s z p m))).
Proof. reflexivity. Qed.
Lemma two_present : forall s p x y k l, layout s -> In (x, y) (pairs_of s) -> (1 <= k <= count_of s x)%Z -> (1 <= l <= count_of s y)%Z ->
  position s x k <> position s y l -> only s [position s x k; position s y l] p ->
  cell_interface s p = active s x y * (presence (p (position s x k)) * presence (p (position s y l))).
Proof.
  intros s p x y k l L I K H NE O.
  assert (V : valid s x /\ valid s y).
  { unfold valid, pairs_of in *. destruct (with_phaseB s); [split; discriminate |]. cbn in I. destruct I as [E | [E | []]]; injection E as <- <-; split; discriminate. }
  destruct V as [VX VY].
  set (a := presence (p (position s x k))) in *. set (c := presence (p (position s y l))) in *.
  assert (T1 : forall z, valid s z -> total (count_of s z) (of_phase s z p) = (if same_ph z x then a else 0) + (if same_ph z y then c else 0)).
  { intros z VZ. rewrite sum_total. apply (phase_two s (fun r => r) z p x k y l); auto. }
  assert (T2 : forall z, valid s z -> sumZ 1 (count_of s z) (fun m => presence (of_phase s z p m) ^ 2) = (if same_ph z x then a ^ 2 else 0) + (if same_ph z y then c ^ 2 else 0)).
  { intros z VZ. apply (phase_two s (fun r => r ^ 2) z p x k y l); auto. ring. }
  assert (VL : valid s PL) by (intro; discriminate). assert (VA : valid s PA) by (intro; discriminate).
  unfold cell_interface, contact, own_contact.
  assert (VB : with_phaseB s = true -> valid s PB) by (intros B C; congruence).
  pose proof (T1 PL VL) as L1. pose proof (T1 PA VA) as A1. pose proof (T2 PA VA) as A2. cbn [count_of] in L1, A1, A2. rewrite L1, A1, A2.
  unfold pairs_of in I. destruct (with_phaseB s).
  - pose proof (T1 PB (VB eq_refl)) as B1. pose proof (T2 PB (VB eq_refl)) as B2. cbn [count_of] in B1, B2. rewrite B1, B2.
    cbn in I. destruct I as [E | [E | [E | [E | [E | []]]]]]; injection E as <- <-; cbn [same_ph]; field.
  - cbn in I. destruct I as [E | [E | []]]; injection E as <- <-; cbn [same_ph]; field.
Qed.
Lemma one_present : forall s p x k, layout s -> valid s x -> (1 <= k <= count_of s x)%Z -> only s [position s x k] p -> cell_interface s p = 0.
Proof.
  intros s p x k L V K O. set (a := presence (p (position s x k))).
  assert (T : forall z (g : R -> R), valid s z -> g 0 = 0 -> sumZ 1 (count_of s z) (fun m => g (presence (of_phase s z p m))) = if same_ph z x then g a else 0).
  { intros z g VZ G. rewrite (sumZ_ext _ _ _ (fun m => if (m =? k)%Z then (if same_ph z x then g a else 0) else 0)).
    - destruct (same_ph_spec z x) as [-> | D]; [apply sum_pick, K |]. rewrite (sumZ_ext _ _ _ (fun _ => 0)); [apply sumZ_zero | intros; destruct (_ =? _)%Z; reflexivity].
    - intros m M. unfold of_phase. fold (position s z m). destruct (Z.eq_dec (position s z m) (position s x k)) as [E | E].
      + destruct (position_inj s z m x k L VZ V M K E) as [-> ->]. rewrite Z.eqb_refl. destruct (same_ph_spec x x); [reflexivity | congruence].
      + rewrite presence_low, G.
        * destruct (Z.eqb_spec m k) as [-> |]; [destruct (same_ph_spec z x) as [-> |]; [congruence |] |]; reflexivity.
        * apply O; [apply position_range; auto |]. cbn. intros [Q | []]; congruence. }
  assert (VL : valid s PL) by (intro; discriminate). assert (VA : valid s PA) by (intro; discriminate).
  assert (VB : with_phaseB s = true -> valid s PB) by (intros B C; congruence).
  unfold cell_interface, contact, own_contact, total.
  pose proof (T PL (fun r => r) VL eq_refl) as L1. pose proof (T PA (fun r => r) VA eq_refl) as A1. pose proof (T PA (fun r => r ^ 2) VA ltac:(cbn; ring)) as A2.
  cbn [count_of] in L1, A1, A2. rewrite L1, A1, A2. unfold valid in *.
  destruct (with_phaseB s).
  - pose proof (T PB (fun r => r) (VB eq_refl) eq_refl) as B1. pose proof (T PB (fun r => r ^ 2) (VB eq_refl) ltac:(cbn; ring)) as B2. cbn [count_of] in B1, B2. rewrite B1, B2.
    destruct x; cbn [same_ph]; field.
  - destruct x; [| | exfalso; apply V; reflexivity]; cbn [same_ph]; field.
Qed.
Lemma presence_bound : forall p q, p + q <= 1 -> presence p * presence q <= 1.
Proof.
  intros p q S. unfold presence. rewrite <- Rpow_mult_distr.
  assert (P1 := Rmax_l 0 (p - 1 / 100)). assert (P2 := Rmax_l 0 (q - 1 / 100)).
  set (u := Rmax 0 (p - 1 / 100)) in *. set (v := Rmax 0 (q - 1 / 100)) in *.
  assert (UV : 0 <= u * v <= (1 / 2 - 1 / 100) ^ 2).
  { split; [apply Rmult_le_pos; assumption |]. unfold u, v, Rmax. destruct (Rle_dec 0 (p - 1 / 100)), (Rle_dec 0 (q - 1 / 100)); try lra.
    assert (0 <= (p - q) ^ 2) by apply pow2_ge_0. nra. }
  replace (u / (1 / 2 - 1 / 100) * (v / (1 / 2 - 1 / 100))) with (u * v / (1 / 2 - 1 / 100) ^ 2) by (field; lra).
  assert (0 <= u * v / (1 / 2 - 1 / 100) ^ 2 <= 1) by lra. apply Rle_trans with (1 ^ 2); [apply pow_incr; assumption | lra].
Qed.
Lemma presence_half : presence (1 / 2) = 1.
Proof. unfold presence. rewrite Rmax_right by lra. field. Qed.
Lemma interface_bound : forall s p x y k l, layout s -> In (x, y) (pairs_of s) -> (1 <= k <= count_of s x)%Z -> (1 <= l <= count_of s y)%Z ->
  position s x k <> position s y l -> only s [position s x k; position s y l] p -> p (position s x k) + p (position s y l) <= 1 ->
  cell_interface s p <= active s x y /\ (p (position s x k) = 1 / 2 -> p (position s y l) = 1 / 2 -> cell_interface s p = active s x y).
Proof.
  intros s p x y k l L I K H NE O S. rewrite (two_present s p x y k l L I K H NE O). pose proof (presence_bound _ _ S). pose proof (active_nonneg s x y). split.
  - rewrite <- (Rmult_1_r (active s x y)) at 2. apply Rmult_le_compat_l; assumption.
  - intros -> ->. rewrite presence_half. ring.
Qed.

(** renumbering grains *)
Definition sigma (a b k : Z) : Z := if (k =? a)%Z then b else if (k =? b)%Z then a else k.
Lemma exchange_sigma : forall a b p k, exchange a b p k = p (sigma a b k).
Proof. intros. unfold exchange, sigma. destruct (k =? a)%Z; [reflexivity |]. destruct (k =? b)%Z; reflexivity. Qed.
Lemma sumZ_sigma : forall n (f : Z -> R) k l, (1 <= k <= n)%Z -> (1 <= l <= n)%Z -> sumZ 1 n (fun m => f (sigma k l m)) = sumZ 1 n f.
Proof.
  intros n f k l K L.
  rewrite (sumZ_ext _ _ _ (fun m => f m + ((if (m =? k)%Z then f l - f k else 0) + (if (m =? l)%Z then (if (k =? l)%Z then 0 else f k - f l) else 0)))).
  - rewrite !sumZ_plus, !sum_pick by assumption. destruct (Z.eqb_spec k l) as [-> |]; ring.
  - intros m _. unfold sigma. destruct (Z.eqb_spec m k) as [-> |].
    + destruct (Z.eqb_spec k l) as [-> |]; ring.
    + destruct (Z.eqb_spec m l) as [-> |]; [| ring]. destruct (Z.eqb_spec k l); [congruence | ring].
Qed.
Lemma phase_sigma : forall s x k l z (h : Z -> R), layout s -> valid s x -> valid s z -> (1 <= k <= count_of s x)%Z -> (1 <= l <= count_of s x)%Z ->
  sumZ 1 (count_of s z) (fun m => h (sigma (position s x k) (position s x l) (position s z m))) = sumZ 1 (count_of s z) (fun m => h (position s z m)).
Proof.
  intros s x k l z h L VX VZ K H. destruct (same_ph_spec z x) as [-> | D].
  - rewrite <- (sumZ_sigma (count_of s x) (fun m => h (position s x m)) k l K H). apply sumZ_ext. intros m _. f_equal. unfold sigma, position.
    destruct (Z.eqb_spec (first_of s x + m - 1) (first_of s x + k - 1)), (Z.eqb_spec m k); try lia.
    destruct (Z.eqb_spec (first_of s x + m - 1) (first_of s x + l - 1)), (Z.eqb_spec m l); try lia.
  - apply sumZ_ext. intros m M. f_equal. unfold sigma.
    destruct (Z.eqb_spec (position s z m) (position s x k)) as [E |]; [destruct (position_inj s z m x k L VZ VX M K E); congruence |].
    destruct (Z.eqb_spec (position s z m) (position s x l)) as [E |]; [destruct (position_inj s z m x l L VZ VX M H E); congruence | reflexivity].
Qed.
Lemma of_phase_exchange : forall s z a b p m, of_phase s z (exchange a b p) m = p (sigma a b (position s z m)).
Proof. intros. unfold of_phase. apply exchange_sigma. Qed.
Lemma total_exchange : forall s x k l z p (g : R -> R), layout s -> valid s x -> valid s z -> (1 <= k <= count_of s x)%Z -> (1 <= l <= count_of s x)%Z ->
  sumZ 1 (count_of s z) (fun m => g (presence (of_phase s z (exchange (position s x k) (position s x l) p) m))) = sumZ 1 (count_of s z) (fun m => g (presence (of_phase s z p m))).
Proof.
  intros s x k l z p g L VX VZ K H. etransitivity; [| apply (phase_sigma s x k l z (fun m => g (presence (p m))) L VX VZ K H)].
  apply sumZ_ext. intros m _. rewrite of_phase_exchange. reflexivity.
Qed.
Lemma cell_exchange : forall s x k l p, layout s -> valid s x -> (1 <= k <= count_of s x)%Z -> (1 <= l <= count_of s x)%Z ->
  cell_interface s (exchange (position s x k) (position s x l) p) = cell_interface s p /\
  forall z T, cell_T_interface s z (exchange (position s x k) (position s x l) p, T) = cell_T_interface s z (p, T).
Proof.
  intros s x k l p L V K H.
  assert (VL : valid s PL) by (intro; discriminate). assert (VA : valid s PA) by (intro; discriminate).
  assert (VB : with_phaseB s = true -> valid s PB) by (intros B C; congruence).
  pose proof (total_exchange s x k l PL p (fun r => r) L V VL K H) as L1. pose proof (total_exchange s x k l PA p (fun r => r) L V VA K H) as A1.
  pose proof (total_exchange s x k l PA p (fun r => r ^ 2) L V VA K H) as A2. cbn [count_of] in L1, A1, A2.
  unfold cell_interface, cell_T_interface, contact, own_contact, total. rewrite L1, A1, A2. destruct (with_phaseB s).
  - pose proof (total_exchange s x k l PB p (fun r => r) L V (VB eq_refl) K H) as B1.
    pose proof (total_exchange s x k l PB p (fun r => r ^ 2) L V (VB eq_refl) K H) as B2. cbn [count_of] in B1, B2. rewrite B1, B2. split; reflexivity.
  - split; [reflexivity |]. intros [] T; reflexivity.
Qed.
Lemma solids_exchange : forall s c x k l z u v, layout s -> valid s x -> valid s z -> (1 <= k <= count_of s x)%Z -> (1 <= l <= count_of s x)%Z ->
  solids s c (count_of s z) z (exchange (position s x k) (position s x l) u) (exchange (position s x k) (position s x l) v) = solids s c (count_of s z) z u v.
Proof.
  intros s c x k l z u v L VX VZ K H. unfold solids, hface_sum. rewrite !sum_loop. do 2 f_equal.
  etransitivity; [| apply (phase_sigma s x k l z (fun m => val (average_func (u m) (v m) (avg s))) L VX VZ K H)].
  apply sumZ_ext. intros m _. rewrite !of_phase_exchange. reflexivity.
Qed.
Lemma liquid_exchange : forall s c x k l u v, layout s -> valid s x -> (1 <= k <= count_of s x)%Z -> (1 <= l <= count_of s x)%Z ->
  liquid s c (exchange (position s x k) (position s x l) u) (exchange (position s x k) (position s x l) v) = liquid s c u v.
Proof.
  intros s c x k l u v L VX K H. unfold liquid. assert (VL : valid s PL) by (intro; discriminate).
  pose proof (fun w => phase_sigma s x k l PL w L VX VL K H) as P. cbn [count_of] in P. rewrite !of_phase_exchange.
  pose proof (P u) as P1. pose proof (P v) as P2. rewrite !sumZ_one in P1, P2. rewrite P1, P2. reflexivity.
Qed.
Lemma counts : forall s, layout s -> nA s = count_of s PA /\ (with_phaseB s = true -> nB s = count_of s PB).
Proof.
  intros s L. unfold layout, nA, nB in *. cbn [count_of]. destruct (with3phases s); [| auto]. destruct L as (_ & -> & -> & _). auto.
Qed.
Lemma scalar_exchange : forall s x k l b phi old old' f f' d i j, layout s -> valid s x -> (1 <= k <= count_of s x)%Z -> (1 <= l <= count_of s x)%Z -> 
  scalar_setDiffusion s b (norderp s) phi old = Some f ->
  scalar_setDiffusion s b (norderp s) (fun i j => exchange (position s x k) (position s x l) (phi i j)) old' = Some f' ->
  on_face b d i j -> at_face f' d i j = at_face f d i j.
Proof.
  intros s x k l b phi old old' f f' d i j L V K H E E' F.
  destruct (interpChar (itp s)) as [c |] eqn:C; [| unfold scalar_setDiffusion in E; rewrite C in E; discriminate].
  rewrite (scalar_at _ _ _ _ _ _ _ _ _ _ C E F), (scalar_at _ _ _ _ _ _ _ _ _ _ C E' F). unfold low. cbv beta.
  destruct (counts s L) as [NA NB]. assert (M : (1 < norderp s)%Z).
  { unfold layout in L. destruct (with3phases s); [lia |]. destruct (with_phaseB s); lia. }
  assert (HI : has_interfaces s (norderp s) = true) by (unfold has_interfaces; destruct (Z.ltb_spec 1 (norderp s)); [apply orb_true_r | lia]).
  rewrite HI. f_equal.
  - unfold scalar_base. destruct (Z.ltb_spec 1 (norderp s)); [| lia]. destruct (with_phaseB s) eqn:B.
    + rewrite liquid_exchange, NA, NB, !solids_exchange by (auto; intro; congruence). reflexivity.
    + rewrite liquid_exchange, NA, !solids_exchange by (auto; intro; congruence). reflexivity.
  - rewrite !(fun p => proj1 (cell_exchange s x k l p L V K H)). reflexivity.
Qed.
Lemma T_exchange : forall s ng x k l b phi temp old old' f f' y d i j, layout s -> valid s x -> valid s y -> (1 <= k <= count_of s x)%Z -> (1 <= l <= count_of s x)%Z -> 
  T_setDiffusion s b ng (norderp s) phi temp old = Some f ->
  T_setDiffusion s b ng (norderp s) (fun i j => exchange (position s x k) (position s x l) (phi i j)) temp old' = Some f' ->
  on_face b d i j -> at_face (get3 f' y) d i j = at_face (get3 f y) d i j.
Proof.
  intros s ng x k l b phi temp old old' f f' y d i j L V W K H E E' F.
  assert (M : (1 < norderp s)%Z) by (unfold layout in L; destruct (with3phases s); [lia |]; destruct (with_phaseB s); lia).
  rewrite (T_multi_at s ng _ b _ _ _ f y d i j M W E F), (T_multi_at s ng _ b _ _ _ f' y d i j M W E' F). f_equal.
  - unfold T_multi_law. destruct (interpChar (itp s)) as [c |]; [| reflexivity]. unfold low. cbn [fst snd]. cbv beta. f_equal. destruct (counts s L) as [NA NB].
    destruct (with_phaseB s) eqn:B.
    + rewrite NA, NB by reflexivity. assert (VB : valid s PB) by (intro; congruence). assert (VA : valid s PA) by (intro; congruence).
      destruct y; [apply liquid_exchange | apply solids_exchange | apply solids_exchange]; auto.
    + assert (W3 : with3phases s = false) by (unfold layout in L; destruct (with3phases s); [destruct L; congruence | reflexivity]).
      assert (PLn : forall p, p (norderp s - 1)%Z = of_phase s PL p 1) by (intro p; unfold of_phase, first_of; rewrite W3; f_equal; lia).
      assert (NM : (norderp s - 1 = norderpA s)%Z) by (unfold layout in L; rewrite W3, B in L; lia).
      assert (PAn : forall u v, hface_sum c (avg s) (norderp s - 1) (fun k => u (k - 1)%Z) (fun k => v (k - 1)%Z) = solids s c (count_of s PA) PA u v).
      { intros u v. unfold solids, hface_sum. rewrite !sum_loop, NM. cbn [count_of]. do 2 f_equal. apply sumZ_ext. intros m _. unfold of_phase, first_of. rewrite W3.
        replace (0 + m - 1)%Z with (m - 1)%Z by lia. reflexivity. }
      assert (VA : valid s PA) by (intro; congruence).
      destruct y; [| | exfalso; apply W; [exact B | reflexivity]].
      * assert (Q := fun u v => liquid_exchange s c x k l u v L V K H). unfold liquid in Q. rewrite !PLn.
        destruct d; apply Q.
      * rewrite !PAn. apply solids_exchange; auto.
  - unfold from_inside, low. rewrite !(fun p => proj2 (cell_exchange s x k l p L V K H)). reflexivity.
Qed.
Lemma scalar_faces : forall s depth b phi old old' f g d i j, scalar_setDiffusion s b depth phi old = Some f -> scalar_setDiffusion (no_pairs s) b depth phi old' = Some g ->
  on_face b d i j ->
  at_face f d i j = at_face g d i j + (if with_phaseB s || (1 <? depth)%Z then mean (cell_interface s (low phi d i j)) (cell_interface s (phi i j)) else 0).
Proof.
  intros s depth b phi old old' f g d i j E E' H.
  destruct (interpChar (itp s)) as [c |] eqn:C; [| unfold scalar_setDiffusion in E; rewrite C in E; discriminate].
  rewrite (scalar_at _ _ _ _ _ _ _ _ _ _ C E H), (scalar_at (no_pairs s) _ _ _ _ _ _ _ _ c C E' H).
  rewrite !(no_cell (no_pairs s)) by (intros x y; cbn; lra). unfold has_interfaces. cbn [no_pairs with_phaseB].
  change (scalar_base (no_pairs s) depth c) with (scalar_base s depth c). destruct (with_phaseB s || (1 <? depth)%Z); unfold mean; lra.
Qed.
Lemma T_faces : forall s ng depth b phi temp old old' f g x d i j, (1 < depth)%Z -> (with_phaseB s = false -> x <> PB) ->
  T_setDiffusion s b ng depth phi temp old = Some f -> T_setDiffusion (no_pairs s) b ng depth phi temp old' = Some g -> on_face b d i j ->
  at_face (get3 f x) d i j = at_face (get3 g x) d i j + from_inside b (fun i j => cell_T_interface s x (phi i j, temp i j)) d i j.
Proof.
  intros s ng depth b phi temp old old' f g x d i j D X E E' H.
  rewrite (T_multi_at s ng _ b _ _ _ f x d i j D X E H), (T_multi_at (no_pairs s) ng _ b _ _ _ g x d i j D X E' H).
  change (T_multi_law (no_pairs s) depth x d) with (T_multi_law s depth x d).
  replace (from_inside b (fun i j => cell_T_interface (no_pairs s) x (phi i j, temp i j)) d i j) with 0; [ring |].
  assert (Z0 : forall p t, cell_T_interface (no_pairs s) x (p, t) = 0).
  { intros p t. unfold cell_T_interface, pair_rate, active. cbn [no_pairs dpair]. rewrite !Rmax_left by lra. destruct (with_phaseB (no_pairs s)), x; ring. }
  unfold from_inside, low, mean. rewrite !Z0. destruct (_ && _), (_ && _); field.
Qed.
Lemma wang_faces : forall dl ds dla daa t a depth b st old old' f g d i j, wang_op dl ds dla daa t a depth b st old = Some f -> wang_op dl ds 0 0 t a depth b st old' = Some g ->
  on_face b d i j ->
  at_face f d i j = at_face g d i j +
    daa * mean (own_contact depth (fun k => fst (low st d i j) (k - 1)%Z)) (own_contact depth (fun k => fst (st i j) (k - 1)%Z)) +
    16 * dla * mean ((snd (low st d i j) * (1 - snd (low st d i j))) ^ 2) ((snd (st i j) * (1 - snd (st i j))) ^ 2).
Proof.
  intros dl ds dla daa t a depth b st old old' f g d i j E E' H.
  rewrite (wang_has_law _ _ _ _ _ _ _ _ _ _ _ _ _ _ E H), (wang_has_law _ _ _ _ _ _ _ _ _ _ _ _ _ _ E' H). unfold wang_law.
  destruct (interpChar t) eqn:C; [ring |]. unfold wang_op, wang_setDiffusion in E. rewrite C in E. discriminate.
Qed.
Lemma own_exchange : forall n a b p, (0 <= a < n)%Z -> (0 <= b < n)%Z ->
  own_contact n (fun k => exchange a b p (k - 1)%Z) = own_contact n (fun k => p (k - 1)%Z).
Proof.
  intros n a b p A B. unfold own_contact, total.
  assert (S : forall g : R -> R, sumZ 1 n (fun k => g (presence (exchange a b p (k - 1)%Z))) = sumZ 1 n (fun k => g (presence (p (k - 1)%Z)))).
  { intro g. rewrite <- (sumZ_sigma n (fun k => g (presence (p (k - 1)%Z))) (a + 1) (b + 1)) by lia. apply sumZ_ext. intros m _. rewrite exchange_sigma. do 3 f_equal.
    unfold sigma. destruct (Z.eqb_spec (m - 1) a), (Z.eqb_spec m (a + 1)); try lia. destruct (Z.eqb_spec (m - 1) b), (Z.eqb_spec m (b + 1)); lia. }
  rewrite (S (fun r => r)), (S (fun r => r ^ 2)). reflexivity.
Qed.
Lemma wang_exchange : forall dl ds dla daa t a depth b st old old' f f' d i j p q, (0 <= p < depth)%Z -> (0 <= q < depth)%Z ->
  wang_op dl ds dla daa t a depth b st old = Some f ->
  wang_op dl ds dla daa t a depth b (fun i j => (exchange p q (fst (st i j)), snd (st i j))) old' = Some f' -> on_face b d i j ->
  at_face f' d i j = at_face f d i j.
Proof.
  intros dl ds dla daa t a depth b st old old' f f' d i j p q P Q E E' H.
  rewrite (wang_has_law _ _ _ _ _ _ _ _ _ _ _ _ _ _ E H), (wang_has_law _ _ _ _ _ _ _ _ _ _ _ _ _ _ E' H). unfold wang_law, low. cbn [fst snd].
  rewrite !own_exchange by assumption. reflexivity.
Qed.
(** summary lemmas *)
Lemma patch_independent : forall s depth x ng dl ds dla daa t a ql qs gasR it at_,
  patch_free (scalar_op s depth) /\ patch_free (wang_op dl ds dla daa t a depth) /\ patch_free (kks_op dl ql ds qs gasR it at_) /\
  (with_phaseB s = false -> (0 <= ng)%Z -> x <> PB -> patch_free (T_op s ng 1 x)) /\
  (no_interfaces s -> (1 < depth)%Z -> (with_phaseB s = false -> x <> PB) -> patch_free (T_op s ng depth x)).
Proof.
  intros. split; [eapply law_patch, scalar_has_law |]. split; [eapply law_patch, wang_has_law |]. split; [eapply law_patch, pfm_law |]. split.
  - intros. eapply law_patch, T_single_has_law; assumption.
  - intros N D X. apply T_multi_patch_free; auto. apply pair_list_nil, N.
Qed.
Lemma isotropic : forall s depth x ng dl ds dla daa t a ql qs gasR it at_,
  (axis_free (scalar_op s depth) /\ mirror_free (scalar_op s depth)) /\
  (axis_free (wang_op dl ds dla daa t a depth) /\ mirror_free (wang_op dl ds dla daa t a depth)) /\
  (axis_free (kks_op dl ql ds qs gasR it at_) /\ mirror_free (kks_op dl ql ds qs gasR it at_)) /\
  (with_phaseB s = false -> (0 <= ng)%Z -> x <> PB -> axis_free (T_op s ng 1 x) /\ mirror_free (T_op s ng 1 x)) /\
  (with_phaseB s = true -> no_interfaces s -> (1 < depth)%Z -> axis_free (T_op s ng depth x) /\ mirror_free (T_op s ng depth x)).
Proof.
  intros. split; [split; [eapply law_axis, scalar_has_law | eapply law_mirror, scalar_has_law; intros; apply scalar_law_sym] |].
  split; [split; [eapply law_axis, wang_has_law | eapply law_mirror, wang_has_law; intros; apply wang_law_sym] |].
  split; [split; [eapply law_axis, pfm_law | eapply law_mirror, pfm_law; intros; apply kks_sym] |]. split.
  - intros B N X. split; [eapply law_axis, T_single_has_law | eapply law_mirror, T_single_has_law]; auto. intros; apply T_single_sym.
  - intros B N D. assert (L : law (T_op s ng depth x) (T_multi_law s depth x DX)).
    { intros b st old f d i j E H. rewrite (T_multi_has_law s ng depth x (pair_list_nil s N) D ltac:(congruence) _ _ _ _ _ _ _ E H).
      destruct d; [reflexivity |]. symmetry. apply (T_multi_sym s depth x DX (low st DY i j) (st i j)). congruence. }
    split; [eapply law_axis, L | eapply law_mirror, L]. intros. apply T_multi_sym. congruence.
Qed.
