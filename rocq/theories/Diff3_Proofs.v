(** Lemmas about the diffusion coefficients in three dimensions. *)
From Coq Require Import Reals ZArith List Bool Ascii Lra Lia.
From Verif Require Import Grid_Model Grid_Spec Grid_Proofs Functions_Model Functions_Spec Functions_Proofs.
From Verif Require Import Trap3_Model.
From Verif Require Trap3_Proofs.
From Verif Require Import PhaseFlow_Model PhaseFlow_Spec PhaseFlow_Proofs Diffusion_Model Diffusion_Spec Diffusion_Proofs.
From Verif Require Import Diff3_Model Diff3_Spec.
Import ListNotations.
Open Scope R_scope.
Set Bullet Behavior "Strict Subproofs".

(** * Two-cell laws *)
Definition dlaw3 {A : Type} (K : operation3 A) (F : dir3 -> A -> A -> R) : Prop := forall b s old f d i j k,
  K b s old = Some f -> on_face3 b d i j k -> at_face3 f d i j k = F d (low3 s d i j k) (s i j k).
Definition law3 {A : Type} (K : operation3 A) (F : A -> A -> R) : Prop := dlaw3 K (fun _ => F).
Lemma law_patch3 : forall A (K : operation3 A) F, dlaw3 K F -> patch_free3 K.
Proof. intros A K F H b b' s old old' f f' d i j k E E' Hb Hb'. rewrite (H _ _ _ _ _ _ _ _ E Hb), (H _ _ _ _ _ _ _ _ E' Hb'). reflexivity. Qed.
Lemma law_turn3 : forall A (K : operation3 A) F, law3 K F -> turn_free3 K.
Proof.
  intros A K F H b s old old' f f' d i j k E E' Hb. rewrite (H _ _ _ _ _ _ _ _ E Hb), (H _ _ _ _ (turn_dir3 d) j k i E').
  - destruct d; reflexivity.
  - destruct d; unfold on_face3, in_box3 in *; cbn; tauto.
Qed.
Lemma law_swap3 : forall A (K : operation3 A) F, law3 K F -> swap_free3 K.
Proof.
  intros A K F H b s old old' f f' d i j k E E' Hb. rewrite (H _ _ _ _ _ _ _ _ E Hb), (H _ _ _ _ (swap_dir3 d) j i k E').
  - destruct d; reflexivity.
  - destruct d; unfold on_face3, in_box3 in *; cbn; tauto.
Qed.
Lemma law_mirror3 : forall A (K : operation3 A) F, (forall d u v, F d u v = F d v u) -> dlaw3 K F -> mirror_free3 K.
Proof.
  intros A K F S H b s old old' f f' d i j k E E' Hb. rewrite (H _ _ _ _ _ _ _ _ E Hb), (H _ _ _ _ d (mirror_face3 d i) j k E').
  - destruct d; unfold low3, mirror3, mirror_face3.
    + rewrite S. replace (- (1 - i - 1))%Z with i by lia. replace (- (1 - i))%Z with (i - 1)%Z by lia. reflexivity.
    + rewrite Z.opp_involutive. reflexivity.
    + rewrite Z.opp_involutive. reflexivity.
  - destruct d; unfold on_face3, in_box3, mirror_face3, mirror_box3 in *; cbn [xl xu yl yu zl zu]; lia.
Qed.
Lemma law_isotropic3 : forall A (K : operation3 A) F, (forall u v, F u v = F v u) -> law3 K F -> isotropic3 K.
Proof.
  intros A K F S H. split; [eapply law_turn3, H |]. split; [eapply law_swap3, H |]. eapply law_mirror3; [| exact H]. intros d u v. cbv beta. apply S.
Qed.
Lemma laws_plane : forall A (R : dir3 -> dir -> Prop) (K3 : operation3 A) K2 F3 F2, dlaw3 K3 F3 -> dlaw K2 F2 ->
  (forall d3 d2 u v, R d3 d2 -> F3 d3 u v = F2 d2 u v) ->
  (forall b3 s3 old3 b2 s2 old2, K3 b3 s3 old3 = None <-> K2 b2 s2 old2 = None) -> as_in_plane R K3 K2.
Proof.
  intros A R K3 K2 F3 F2 H3 H2 E N. split; [exact N |]. intros b3 s3 old3 f3 d3 i3 j3 k3 b2 s2 old2 f2 d2 i2 j2 E3 E2 O3 O2 RR L V.
  rewrite (H3 _ _ _ _ _ _ _ _ E3 O3), (H2 _ _ _ _ _ _ _ E2 O2), L, V. apply E, RR.
Qed.

Lemma fill3_val : forall b fx fy fz old d i j k, on_face3 b d i j k ->
  at_face3 (fill3 b fx fy fz old) d i j k = match d with FX => fx i j k | FY => fy i j k | FZ => fz i j k end.
Proof.
  intros b fx fy fz [[o0 o1] o2] [] i j k H; unfold fill3; cbn [at_face3 fst snd]; unfold on_face3, in_box3 in H;
    [rewrite Trap3_Proofs.xfaces3_val | rewrite Trap3_Proofs.yfaces3_val | rewrite Trap3_Proofs.zfaces3_val]; rewrite !inb_true by lia; reflexivity.
Qed.
Lemma fill3_same_val : forall b coef old d i j k, on_face3 b d i j k ->
  at_face3 (fill3_same b coef old) d i j k =
  match d with FX => coef (i - 1)%Z j k i j k | FY => coef i (j - 1)%Z k i j k | FZ => coef i j (k - 1)%Z i j k end.
Proof. intros. unfold fill3_same. rewrite fill3_val by assumption. reflexivity. Qed.
Ltac face3 H := first [rewrite fill3_same_val by exact H | rewrite fill3_val by exact H].

(** * The kernels of a single order parameter *)
Lemma pfm_law3 : forall dl ql ds qs gasR it a, law3 (kks_op3 dl ql ds qs gasR it a) (kks_law dl ql ds qs gasR it a).
Proof.
  intros dl ql ds qs gasR it a b s old f d i j k E H. unfold kks_op3, pfmdiffusion3 in E. destruct (known it a); [| discriminate].
  injection E as <-. face3 H. destruct d; reflexivity.
Qed.
Definition beckermann_law (dl ds : R) (it a : ascii) (u v : R * R) : R :=
  ds + (dl - ds) * (1 - hface it a (fst u) (fst v)) / (1 - hface it a (fst u) (fst v) + snd v * hface it a (fst u) (fst v)).
Lemma beckermann_law3 : forall dl ds it a, law3 (beckermann_op3 dl ds it a) (beckermann_law dl ds it a).
Proof.
  intros dl ds it a b s old f d i j k E H. unfold beckermann_op3, diffusion_beckermann3 in E. destruct (known it a); [| discriminate].
  injection E as <-. face3 H. destruct d; reflexivity.
Qed.
Lemma beckermann_law2 : forall dl ds it a, law (beckermann_op dl ds it a) (beckermann_law dl ds it a).
Proof.
  intros dl ds it a b s old f d i j E H. unfold beckermann_op, diffusion_beckermann in E. destruct (known it a); [| discriminate].
  injection E as <-. face H. destruct d; reflexivity.
Qed.

(** * Interface diffusion *)
Lemma upd3_add3 : forall (f : arr3) a b c v i j k, upd3 f a b c (f a b c + v) i j k = f i j k + (if ((i =? a) && (j =? b) && (k =? c))%Z then v else 0).
Proof.
  intros. unfold upd3. destruct (Z.eqb_spec i a), (Z.eqb_spec j b), (Z.eqb_spec k c); cbn [andb]; subst; ring.
Qed.
Definition touch3 (d : dir3) (a b c i j k : Z) : bool :=
  (((i =? a) && (j =? b) && (k =? c)) ||
   match d with FX => (i =? a - 1) && (j =? b) && (k =? c) | FY => (i =? a) && (j =? b - 1) && (k =? c) | FZ => (i =? a) && (j =? b) && (k =? c - 1) end)%Z.
Lemma add_six_at : forall i j k v f d a b c, at_face3 (add_six i j k v f) d a b c = at_face3 f d a b c + (if touch3 d a b c i j k then v else 0).
Proof.
  intros i j k v [[f0 f1] f2] d a b c. unfold add_six, touch3. destruct d; cbn [at_face3 fst snd]; rewrite !upd3_add3;
    destruct (Z.eqb_spec a i), (Z.eqb_spec b j), (Z.eqb_spec c k), (Z.eqb_spec a (i + 1)), (Z.eqb_spec b (j + 1)), (Z.eqb_spec c (k + 1)),
      (Z.eqb_spec i a), (Z.eqb_spec j b), (Z.eqb_spec k c), (Z.eqb_spec i (a - 1)), (Z.eqb_spec j (b - 1)), (Z.eqb_spec k (c - 1)); try lia; cbn [andb orb]; ring.
Qed.
Definition inside (l0 u0 l1 u1 l2 u2 i j k : Z) : bool := inb l0 u0 i && inb l1 u1 j && inb l2 u2 k.
Lemma sum_touch3 : forall l0 u0 l1 u1 l2 u2 d a b c (v : Z -> Z -> Z -> R),
  sum_box3 l0 u0 l1 u1 l2 u2 (fun i j k => if touch3 d a b c i j k then v i j k else 0) =
  (if inside l0 u0 l1 u1 l2 u2 a b c then v a b c else 0) + (if low3 (inside l0 u0 l1 u1 l2 u2) d a b c then low3 v d a b c else 0).
Proof.
  intros. unfold inside.
  destruct d; cbn [low3];
  [ rewrite <- (Trap3_Proofs.sum_box3_single l0 u0 l1 u1 l2 u2 a b c v), <- (Trap3_Proofs.sum_box3_single l0 u0 l1 u1 l2 u2 (a - 1) b c v)
  | rewrite <- (Trap3_Proofs.sum_box3_single l0 u0 l1 u1 l2 u2 a b c v), <- (Trap3_Proofs.sum_box3_single l0 u0 l1 u1 l2 u2 a (b - 1) c v)
  | rewrite <- (Trap3_Proofs.sum_box3_single l0 u0 l1 u1 l2 u2 a b c v), <- (Trap3_Proofs.sum_box3_single l0 u0 l1 u1 l2 u2 a b (c - 1) v)];
  rewrite <- sum_box3_plus; apply sum_box3_ext; intros i j k _; unfold touch3;
    destruct (Z.eqb_spec i a), (Z.eqb_spec j b), (Z.eqb_spec k c), (Z.eqb_spec i (a - 1)), (Z.eqb_spec j (b - 1)), (Z.eqb_spec k (c - 1)); try lia; cbn [andb orb]; ring.
Qed.
Lemma inside_grown3 : forall b d i j k, on_face3 b d i j k ->
  inside (xl b - 1) (xu b + 1) (yl b - 1) (yu b + 1) (zl b - 1) (zu b + 1) i j k = true /\
  low3 (inside (xl b - 1) (xu b + 1) (yl b - 1) (yu b + 1) (zl b - 1) (zu b + 1)) d i j k = true.
Proof.
  intros b d i j k H. unfold inside. destruct d; unfold on_face3, in_box3 in H; cbn [low3]; rewrite !inb_true by lia; auto.
Qed.
Lemma low3_lin : forall d i j k a (f : Z -> Z -> Z -> R), low3 (fun i j k => a * f i j k) d i j k = a * low3 f d i j k.
Proof. intros. destruct d; reflexivity. Qed.
Lemma add_ab_at3 : forall b phia na phib nb d0c same f d i j k, on_face3 b d i j k ->
  at_face3 (add_ab_diffusion3 b phia na phib nb d0c same f) d i j k =
  at_face3 f d i j k + 1 / 2 * d0c * factor4 *
    (low3 (fun i j k => pairs_sum (phia i j k) na (phib i j k) nb same) d i j k + pairs_sum (phia i j k) na (phib i j k) nb same).
Proof.
  intros b phia na phib nb d0c same f d i j k H. unfold add_ab_diffusion3.
  rewrite (obs_cells3 _ (fun f => at_face3 f d i j k) _ _ _ _ _ _
    (fun p q r => if touch3 d i j k p q r then 1 / 2 * d0c * factor4 * pairs_sum (phia p q r) na (phib p q r) nb same else 0)).
  - rewrite sum_touch3. destruct (inside_grown3 b d i j k H) as [-> ->]. rewrite low3_lin. ring.
  - intros p q r s _. rewrite (pairs_obs _ (fun f => at_face3 f d i j k) _ _ _ _ _ _ (if touch3 d i j k p q r then 1 / 2 * d0c * factor4 else 0)).
    + destruct (touch3 d i j k p q r); ring.
    + intros x y s'. rewrite add_six_at. destruct (touch3 d i j k p q r); ring.
Qed.
Lemma add_single_at3 : forall b phi d0c f d i j k, on_face3 b d i j k ->
  at_face3 (add_ab_diffusion_single3 b phi d0c f) d i j k =
  at_face3 f d i j k + 8 * d0c * (low3 (fun i j k => (phi i j k * (1 - phi i j k)) ^ 2) d i j k + (phi i j k * (1 - phi i j k)) ^ 2).
Proof.
  intros b phi d0c f d i j k H. unfold add_ab_diffusion_single3.
  rewrite (obs_cells3 _ (fun f => at_face3 f d i j k) _ _ _ _ _ _
    (fun p q r => if touch3 d i j k p q r then 8 * d0c * (phi p q r * (1 - phi p q r)) ^ 2 else 0)).
  - rewrite sum_touch3. destruct (inside_grown3 b d i j k H) as [-> ->]. rewrite low3_lin. ring.
  - intros p q r s _. rewrite add_six_at. destruct (touch3 d i j k p q r); [field | ring].
Qed.

(** * The scalar and sintering strategies *)
Lemma low3_app : forall A B (g : A -> B) (f : Z -> Z -> Z -> A) d i j k, low3 (fun i j k => g (f i j k)) d i j k = g (low3 f d i j k).
Proof. intros. destruct d; reflexivity. Qed.
Lemma pair_at3 : forall s b phi xy f d i j k, on_face3 b d i j k ->
  at_face3 (add_ab_diffusion3 b (pointer3 s phi (fst xy)) (count_of s (fst xy)) (pointer3 s phi (snd xy)) (count_of s (snd xy))
             (dpair s (fst xy) (snd xy)) (same_ph (fst xy) (snd xy)) f) d i j k =
  at_face3 f d i j k + dpair s (fst xy) (snd xy) * mean (contrib s xy (low3 phi d i j k)) (contrib s xy (phi i j k)).
Proof.
  intros s b phi [x y] f d i j k H. cbn [fst snd]. rewrite add_ab_at3 by exact H.
  assert (E : forall p q r, factor4 * pairs_sum (pointer3 s phi x p q r) (count_of s x) (pointer3 s phi y p q r) (count_of s y) (same_ph x y) = contrib s (x, y) (phi p q r)).
  { intros p q r. unfold contrib. cbn [fst snd]. destruct (same_ph x y) eqn:SE.
    - apply same_ph_eq in SE. subst y. apply pairs_own.
    - apply pairs_contact. }
  destruct d; cbn [low3]; rewrite <- !E; unfold mean; field.
Qed.
Lemma interfaces_at3 : forall s b phi l f d i j k, on_face3 b d i j k ->
  at_face3 (fold_left (fun d xy => add_ab_diffusion3 b (pointer3 s phi (fst xy)) (count_of s (fst xy)) (pointer3 s phi (snd xy)) (count_of s (snd xy))
                                   (dpair s (fst xy) (snd xy)) (same_ph (fst xy) (snd xy)) d)
             (filter (fun xy => if Rlt_dec 0 (dpair s (fst xy) (snd xy)) then true else false) l) f) d i j k =
  at_face3 f d i j k + mean (pair_sum s l (low3 phi d i j k)) (pair_sum s l (phi i j k)).
Proof.
  intros s b phi l. induction l as [| xy l IH]; intros f d i j k H.
  - cbn. unfold mean. field.
  - cbn [filter]. destruct (Rlt_dec 0 (dpair s (fst xy) (snd xy))) as [P | P]; cbn [fold_left].
    + rewrite IH, pair_at3 by exact H. unfold mean. rewrite !pair_sum_cons.
      unfold active. rewrite !Rmax_right by lra. field.
    + rewrite IH by exact H. unfold mean. rewrite !pair_sum_cons. unfold active. rewrite !Rmax_left by lra. field.
Qed.
Lemma scalar_interfaces_at3 : forall s b phi f g d i j k, scalar_interfaces3 s b phi f = Some g -> on_face3 b d i j k ->
  at_face3 g d i j k = at_face3 f d i j k + mean (cell_interface s (low3 phi d i j k)) (cell_interface s (phi i j k)).
Proof.
  intros s b phi f g d i j k E H. unfold scalar_interfaces3 in E. destruct (pairs_ok s); [| discriminate]. injection E as <-.
  unfold pair_list. fold (all_pairs s). rewrite interfaces_at3 by exact H. rewrite !pair_sum_all. reflexivity.
Qed.
Lemma scalar_at3 : forall s depth b phi old f d i j k c, interpChar (itp s) = Some c -> scalar_setDiffusion3 s b depth phi old = Some f -> on_face3 b d i j k ->
  at_face3 f d i j k = scalar_base s depth c (low3 phi d i j k) (phi i j k) +
    (if has_interfaces s depth then mean (cell_interface s (low3 phi d i j k)) (cell_interface s (phi i j k)) else 0).
Proof.
  intros s depth b phi old f d i j k c C E H. unfold scalar_setDiffusion3 in E. rewrite C in E. cbn [bind] in E.
  unfold has_interfaces, scalar_base. destruct (with_phaseB s).
  - destruct (depth =? norderp s)%Z; [| discriminate]. unfold pfmdiffusion_scalar_3phases3 in E. destruct (known c (avg s)); [| discriminate]. cbn [bind] in E.
    rewrite (scalar_interfaces_at3 _ _ _ _ _ _ _ _ _ E H). face3 H. destruct d; reflexivity.
  - destruct (1 <? depth)%Z.
    + unfold pfmdiffusion_scalar_2phases3 in E. destruct (known c (avg s)); [| discriminate]. cbn [bind] in E.
      rewrite (scalar_interfaces_at3 _ _ _ _ _ _ _ _ _ E H). face3 H. destruct d; reflexivity.
    + unfold pfmdiffusion_scalar3 in E. destruct (known c (avg s)); [| discriminate]. injection E as <-. face3 H. cbn [orb]. rewrite Rplus_0_r.
      destruct d; reflexivity.
Qed.
Lemma scalar_has_law3 : forall s depth, law3 (scalar_op3 s depth) (scalar_law s depth).
Proof.
  intros s depth b st old f d i j k E H. unfold scalar_op3 in E. unfold scalar_law. destruct (interpChar (itp s)) as [c |] eqn:C.
  - rewrite (scalar_at3 _ _ _ _ _ _ _ _ _ _ _ C E H). reflexivity.
  - unfold scalar_setDiffusion3 in E. rewrite C in E. discriminate.
Qed.
Lemma wang_has_law3 : forall dl ds dla daa t a depth, law3 (wang_op3 dl ds dla daa t a depth) (wang_law dl ds dla daa t a depth).
Proof.
  intros dl ds dla daa t a depth b st old f d i j k E H. unfold wang_op3, wang_setDiffusion3 in E. unfold wang_law.
  destruct (interpChar t) as [c |]; [| discriminate]. cbn [bind] in E. unfold pfmdiffusion_scalar3 in E. destruct (known c a); [| discriminate].
  cbn [bind] in E. injection E as <-. rewrite add_single_at3, add_ab_at3 by exact H. face3 H.
  assert (O : forall x, 1 / 2 * daa * factor4 * x = daa * (factor4 * x) / 2) by (intro; field). rewrite O. rewrite Rmult_plus_distr_l.
  rewrite <- low3_lin. destruct d; cbn [low3]; rewrite !pairs_own; unfold mean; field.
Qed.

(** * The temperature strategy *)
Lemma wide_face : forall b ng d i j k, (0 <= ng)%Z -> on_face3 b d i j k -> on_wide_face3 b ng d i j k.
Proof. intros b ng [] i j k N H; unfold on_face3, on_wide_face3, in_box3 in *; lia. Qed.
Lemma T_single_at3 : forall s ng b phi temp old f x d i j k, with_phaseB s = false -> x <> PB ->
  T_setDiffusion3 s b ng 1 phi temp old = Some f -> on_wide_face3 b ng d i j k ->
  at_face3 (get33 f x) d i j k = T_single_law s x (low3 phi d i j k, low3 temp d i j k) (phi i j k, temp i j k).
Proof.
  intros s ng b phi temp old f x d i j k NB X E H. unfold T_setDiffusion3 in E. unfold T_single_law. destruct (interpChar (itp s)) as [c |]; [| discriminate].
  cbn [bind] in E. rewrite NB in E. cbn [Z.ltb Z.compare Pos.compare Pos.compare_cont] in E. unfold pfmdiffusion_T3 in E.
  destruct (known c (avg s)); [| discriminate]. destruct old as [[[oL0 oL1] oL2] [[oA0 oA1] oA2] oB]. cbn [bind dL dA dB fst snd] in E. injection E as <-.
  unfold on_wide_face3, in_box3 in H.
  destruct x; [| | congruence]; cbn [get33 dL dA dB fst snd]; destruct d; cbn [at_face3 fst snd];
    first [rewrite Trap3_Proofs.xfaces3_val | rewrite Trap3_Proofs.yfaces3_val | rewrite Trap3_Proofs.zfaces3_val];
    cbn [grow_x3 grow_y3 grow_z3 xl xu yl yu zl zu]; rewrite !inb_true by lia; reflexivity.
Qed.
Lemma low3_pair : forall A B (st : Z -> Z -> Z -> A * B) d i j k,
  (low3 (fun i j k => fst (st i j k)) d i j k, low3 (fun i j k => snd (st i j k)) d i j k) = low3 st d i j k.
Proof. intros. destruct d; cbn [low3]; symmetry; apply surjective_pairing. Qed.
Lemma T_single_has_law3 : forall s ng x, with_phaseB s = false -> (0 <= ng)%Z -> x <> PB -> law3 (T_op3 s ng 1 x) (T_single_law s x).
Proof.
  intros s ng x NB N X b st old f d i j k E H. unfold T_op3 in E.
  destruct (T_setDiffusion3 s b ng 1 (fun i j k => fst (st i j k)) (fun i j k => snd (st i j k)) (mk_coefs33 old old old)) as [g |] eqn:G; [| discriminate].
  cbn in E. injection E as <-. rewrite (T_single_at3 _ _ _ _ _ _ _ x d i j k NB X G (wide_face _ _ _ _ _ _ N H)).
  rewrite low3_pair, <- !surjective_pairing. reflexivity.
Qed.

(** several order parameters: the weight of a phase on a face; w is the state of the cell whose liquid is averaged with that of u *)
Definition T_weight3 (s : strategy) (c : ascii) (depth : Z) (x : ph) (d : dir3) (w : Z -> R) (u v : Z -> R) : R :=
  if with_phaseB s then
    match x with
    | PL => liquid s c u v | PA => solids s c (nA s) PA u v
    | PB => match d with FZ => hface_last c (avg s) (nB s) (of_phase s PB u) (of_phase s PB v) | _ => solids s c (nB s) PB u v end
    end
  else
    match x with
    | PL => hface c (avg s) (u (depth - 1)%Z) (w (depth - 1)%Z)
    | _ => hface_sum c (avg s) (depth - 1) (fun k => u (k - 1)%Z) (fun k => v (k - 1)%Z)
    end.
(** the cell whose liquid is used *)
Definition partner {A : Type} (f : Z -> Z -> Z -> A) (d : dir3) (i j k : Z) : A :=
  match d with FX => f i j k | FY => f i (j - 1)%Z k | FZ => f i (j - 1)%Z k end.
(** interface diffusion *)
Lemma from_inside_touch3 : forall b v d p q r,
  sum_box3 (xl b) (xu b) (yl b) (yu b) (zl b) (zu b) (fun i j k => if touch3 d p q r i j k then 1 / 2 * v i j k else 0) = from_inside3 b v d p q r.
Proof.
  intros. rewrite (sum_touch3 _ _ _ _ _ _ d p q r (fun i j k => 1 / 2 * v i j k)). unfold from_inside3, mean, inside, inb.
  destruct d; cbn [low3]; destruct (_ && _ && _), (_ && _ && _); field.
Qed.
Lemma ab_T_at3 : forall b phia na phib nb temp d0c q0 gasR same dA dB d i j k,
  let r := ab_diffusion_T3 b phia na phib nb temp d0c q0 gasR same dA dB in
  let v := fun i j k => d0c * exp (- (q0 / gasR) * (1 / temp i j k)) * (factor4 * pairs_sum (phia i j k) na (phib i j k) nb same) in
  at_face3 (fst r) d i j k = at_face3 dA d i j k + from_inside3 b v d i j k /\
  at_face3 (snd r) d i j k = at_face3 dB d i j k + (if same then 0 else from_inside3 b v d i j k).
Proof.
  intros. subst r. unfold ab_diffusion_T3. split.
  - rewrite (obs_cells3 _ (fun f => at_face3 (fst f) d i j k) _ _ _ _ _ _ (fun p q r => if touch3 d i j k p q r then 1 / 2 * v p q r else 0)).
    + rewrite from_inside_touch3. reflexivity.
    + intros p q r s _. cbv zeta.
      rewrite (pairs_obs _ (fun f => at_face3 (fst f) d i j k) _ _ _ _ _ _
        (if touch3 d i j k p q r then 1 / 2 * (d0c * exp (- (q0 / gasR) * (1 / temp p q r)) * factor4) else 0)).
      * unfold v. destruct (touch3 d i j k p q r); ring.
      * intros x y s'. cbn [fst snd]. rewrite add_six_at. destruct (touch3 d i j k p q r); ring.
  - rewrite (obs_cells3 _ (fun f => at_face3 (snd f) d i j k) _ _ _ _ _ _ (fun p q r => if same then 0 else if touch3 d i j k p q r then 1 / 2 * v p q r else 0)).
    + cbn [snd]. destruct same; [| rewrite from_inside_touch3; reflexivity]. f_equal. unfold sum_box3.
      rewrite (sumZ_ext _ _ _ (fun _ => 0)); [apply sumZ_zero | intros; rewrite (sumZ_ext _ _ _ (fun _ => 0)); [apply sumZ_zero | intros; apply sumZ_zero]].
    + intros p q r s _. cbv zeta.
      rewrite (pairs_obs _ (fun f => at_face3 (snd f) d i j k) _ _ _ _ _ _
        (if same then 0 else if touch3 d i j k p q r then 1 / 2 * (d0c * exp (- (q0 / gasR) * (1 / temp p q r)) * factor4) else 0)).
      * unfold v. destruct same, (touch3 d i j k p q r); ring.
      * intros x y s'. cbn [fst snd]. destruct same; [ring |]. rewrite add_six_at. destruct (touch3 d i j k p q r); ring.
Qed.
Definition T_step3 (s : strategy) (b : box3) (phi : arr4) (temp : arr3) (d : coefs33) (xy : ph * ph) : coefs33 :=
  let (x, y) := xy in
  let r := ab_diffusion_T3 b (pointer3 s phi x) (count_of s x) (pointer3 s phi y) (count_of s y) temp (dpair s x y) (qpair s x y)
             (gas_constant s) (same_ph x y) (get33 d x) (get33 d y) in
  if same_ph x y then set33 d x (fst r) else set33 (set33 d x (fst r)) y (snd r).
Lemma from_inside_ext3 : forall b f g d i j k, (forall i j k, f i j k = g i j k) -> from_inside3 b f d i j k = from_inside3 b g d i j k.
Proof. intros. unfold from_inside3. destruct d; cbn [low3]; rewrite !H; reflexivity. Qed.
Lemma T_step_at3 : forall s b phi temp f xy x d i j k,
  at_face3 (get33 (T_step3 s b phi temp f xy) x) d i j k =
  at_face3 (get33 f x) d i j k + (if involves x xy then from_inside3 b (fun i j k => T_contrib s xy (phi i j k) (temp i j k)) d i j k else 0).
Proof.
  intros s b phi temp f [y z] x d i j k. unfold T_step3, T_contrib. cbn [fst snd].
  destruct (ab_T_at3 b (pointer3 s phi y) (count_of s y) (pointer3 s phi z) (count_of s z) temp (dpair s y z) (qpair s y z) (gas_constant s) (same_ph y z)
    (get33 f y) (get33 f z) d i j k) as [V1 V2].
  set (r := ab_diffusion_T3 _ _ _ _ _ _ _ _ _ _ _ _) in *.
  assert (C : forall i j k, dpair s y z * exp (- (qpair s y z / gas_constant s) * (1 / temp i j k)) *
       (factor4 * pairs_sum (pointer3 s phi y i j k) (count_of s y) (pointer3 s phi z i j k) (count_of s z) (same_ph y z)) =
     dpair s y z * exp (- (qpair s y z / gas_constant s) * (1 / temp i j k)) * contrib s (y, z) (phi i j k)).
  { intros p q l. f_equal. unfold contrib. cbn [fst snd]. destruct (same_ph y z) eqn:SE.
    + apply same_ph_eq in SE. subst z. apply pairs_own.
    + apply pairs_contact. }
  rewrite (from_inside_ext3 b _ _ d i j k C) in V1, V2.
  set (w := from_inside3 _ _ _ _ _ _) in *. clearbody r w. unfold involves. cbn [fst snd].
  destruct y, z; cbn [same_ph] in *; destruct x; cbn [same_ph orb get33 set33 dL dA dB] in *; rewrite ?V1, ?V2; ring.
Qed.
Lemma from_inside_plus3 : forall b f g d i j k, from_inside3 b (fun i j k => f i j k + g i j k) d i j k = from_inside3 b f d i j k + from_inside3 b g d i j k.
Proof. intros. unfold from_inside3, mean. destruct d; cbn [low3]; destruct (_ && _ && _), (_ && _ && _); field. Qed.
Lemma from_inside_zero3 : forall b d i j k, from_inside3 b (fun _ _ _ => 0) d i j k = 0.
Proof. intros. unfold from_inside3, mean. destruct d; cbn [low3]; destruct (_ && _ && _), (_ && _ && _); field. Qed.
Lemma T_interfaces_fold3 : forall s b phi temp x d i j k l f,
  at_face3 (get33 (fold_left (T_step3 s b phi temp) (filter (fun xy => if Rlt_dec 0 (dpair s (fst xy) (snd xy)) then true else false) l) f) x) d i j k =
  at_face3 (get33 f x) d i j k + from_inside3 b (fun i j k => T_pair_sum s x l (phi i j k, temp i j k)) d i j k.
Proof.
  intros s b phi temp x d i j k l. induction l as [| xy l IH]; intro f.
  - cbn [filter fold_left]. change (fun i j k => T_pair_sum s x [] (phi i j k, temp i j k)) with (fun _ _ _ : Z => 0). rewrite from_inside_zero3. ring.
  - rewrite (from_inside_ext3 b (fun i j k => T_pair_sum s x (xy :: l) (phi i j k, temp i j k))
      (fun i j k => (if involves x xy then pair_rate s (fst xy) (snd xy) (temp i j k) * contrib s xy (phi i j k) else 0) + T_pair_sum s x l (phi i j k, temp i j k)))
      by reflexivity.
    rewrite from_inside_plus3. cbn [filter]. destruct (Rlt_dec 0 (dpair s (fst xy) (snd xy))) as [P | P]; cbn [fold_left].
    + rewrite IH, T_step_at3.
      replace (from_inside3 b (fun i j k => if involves x xy then pair_rate s (fst xy) (snd xy) (temp i j k) * contrib s xy (phi i j k) else 0) d i j k)
        with (if involves x xy then from_inside3 b (fun i j k => T_contrib s xy (phi i j k) (temp i j k)) d i j k else 0); [ring |].
      destruct (involves x xy).
      * apply from_inside_ext3. intros. unfold T_contrib, pair_rate, active. rewrite Rmax_right by lra. reflexivity.
      * rewrite from_inside_zero3. reflexivity.
    + rewrite IH. rewrite (from_inside_ext3 b (fun i j k => if involves x xy then pair_rate s (fst xy) (snd xy) (temp i j k) * contrib s xy (phi i j k) else 0) (fun _ _ _ => 0)).
      * rewrite from_inside_zero3. ring.
      * intros. destruct (involves x xy); [| reflexivity]. unfold pair_rate, active. rewrite Rmax_left by lra. ring.
Qed.
Lemma T_interfaces_at3 : forall s b phi temp f g x d i j k, T_interfaces3 s b phi temp f = Some g ->
  at_face3 (get33 g x) d i j k = at_face3 (get33 f x) d i j k + from_inside3 b (fun i j k => cell_T_interface s x (phi i j k, temp i j k)) d i j k.
Proof.
  intros s b phi temp f g x d i j k E. unfold T_interfaces3 in E. destruct (pairs_ok s); [| discriminate]. injection E as <-.
  rewrite (from_inside_ext3 b (fun i j k => cell_T_interface s x (phi i j k, temp i j k)) (fun i j k => T_pair_sum s x (all_pairs s) (phi i j k, temp i j k)))
    by (intros; rewrite T_pair_sum_all; reflexivity).
  rewrite <- T_interfaces_fold3. reflexivity.
Qed.
Definition T_rate3 (s : strategy) (x : ph) (t1 t2 : R) : R := arrhenius (dbulk s x) (qbulk s x) (gas_constant s) (inv_T t1 t2).
Lemma T_multi_at3 : forall s ng depth b phi temp old f x d i j k c, interpChar (itp s) = Some c -> (1 < depth)%Z -> valid s x ->
  T_setDiffusion3 s b ng depth phi temp old = Some f -> on_face3 b d i j k ->
  at_face3 (get33 f x) d i j k =
    T_weight3 s c depth x d (partner phi d i j k) (low3 phi d i j k) (phi i j k) * T_rate3 s x (low3 temp d i j k) (temp i j k) +
    from_inside3 b (fun i j k => cell_T_interface s x (phi i j k, temp i j k)) d i j k.
Proof.
  intros s ng depth b phi temp old f x d i j k c C D X E H. unfold T_weight3, T_rate3. unfold T_setDiffusion3 in E. rewrite C in E. cbn [bind] in E.
  unfold valid in X. destruct (with_phaseB s).
  - destruct (depth =? norderp s)%Z; [| discriminate]. unfold pfmdiffusion_T_three3 in E. destruct (known c (avg s)); [| discriminate].
    cbn [bind fst snd] in E. rewrite (T_interfaces_at3 _ _ _ _ _ _ x d i j k E). f_equal. destruct x; cbn [get33 dL dA dB]; face3 H; destruct d; reflexivity.
  - destruct (Z.ltb_spec 1 depth); [| lia]. unfold pfmdiffusion_T_multi3 in E. destruct (known c (avg s)); [| discriminate].
    cbn [bind fst snd] in E. rewrite (T_interfaces_at3 _ _ _ _ _ _ x d i j k E). f_equal.
    destruct x; [| | exfalso; apply X; reflexivity]; cbn [get33 dL dA dB]; face3 H; destruct d; reflexivity.
Qed.
Lemma last_few : forall it a n p q, (n <= 1)%Z -> hface_last it a n p q = hface_sum it a n p q.
Proof.
  intros it a n p q N. unfold hface_last, hface_sum. do 2 f_equal. destruct (Z_lt_le_dec n 1).
  - rewrite !do_loop_empty by lia. reflexivity.
  - replace n with 1%Z by lia. rewrite sum_loop, sumZ_one. reflexivity.
Qed.

(** * Definedness *)
Lemma scalar_none3 : forall s depth b phi old, scalar_setDiffusion3 s b depth phi old = None <->
  match interpChar (itp s) with
  | None => True
  | Some c => known c (avg s) = false \/ with_phaseB s = true /\ depth <> norderp s \/ has_interfaces s depth = true /\ pairs_ok s = false
  end.
Proof.
  intros s depth b phi old. unfold scalar_setDiffusion3, has_interfaces, pfmdiffusion_scalar_3phases3, pfmdiffusion_scalar_2phases3, pfmdiffusion_scalar3, scalar_interfaces3.
  destruct (interpChar (itp s)) as [c |]; cbn [bind]; [| tauto].
  destruct (with_phaseB s), (Z.eqb_spec depth (norderp s)), (1 <? depth)%Z, (known c (avg s)), (pairs_ok s); cbn [bind orb]; split; intro E;
    try discriminate; try reflexivity; intuition (try discriminate; try congruence).
Qed.
Lemma scalar_none : forall s depth b phi old, scalar_setDiffusion s b depth phi old = None <->
  match interpChar (itp s) with
  | None => True
  | Some c => known c (avg s) = false \/ with_phaseB s = true /\ depth <> norderp s \/ has_interfaces s depth = true /\ pairs_ok s = false
  end.
Proof.
  intros s depth b phi old. unfold scalar_setDiffusion, has_interfaces, pfmdiffusion_scalar_3phases, pfmdiffusion_scalar_2phases, pfmdiffusion_scalar, scalar_interfaces.
  destruct (interpChar (itp s)) as [c |]; cbn [bind]; [| tauto].
  destruct (with_phaseB s), (Z.eqb_spec depth (norderp s)), (1 <? depth)%Z, (known c (avg s)), (pairs_ok s); cbn [bind orb]; split; intro E;
    try discriminate; try reflexivity; intuition (try discriminate; try congruence).
Qed.
Lemma T_none3 : forall s ng depth b phi temp old, T_setDiffusion3 s b ng depth phi temp old = None <->
  match interpChar (itp s) with
  | None => True
  | Some c => known c (avg s) = false \/ with_phaseB s = true /\ depth <> norderp s \/ has_interfaces s depth = true /\ pairs_ok s = false
  end.
Proof.
  intros s ng depth b phi temp old. unfold T_setDiffusion3, has_interfaces, pfmdiffusion_T_three3, pfmdiffusion_T_multi3, pfmdiffusion_T3, T_interfaces3.
  destruct (interpChar (itp s)) as [c |]; cbn [bind]; [| tauto].
  destruct (with_phaseB s), (Z.eqb_spec depth (norderp s)), (1 <? depth)%Z, (known c (avg s)), (pairs_ok s); cbn [bind orb]; split; intro E;
    try discriminate; try reflexivity; intuition (try discriminate; try congruence).
Qed.
Lemma T_none : forall s ng depth b phi temp old, T_setDiffusion s b ng depth phi temp old = None <->
  match interpChar (itp s) with
  | None => True
  | Some c => known c (avg s) = false \/ with_phaseB s = true /\ depth <> norderp s \/ has_interfaces s depth = true /\ pairs_ok s = false
  end.
Proof.
  intros s ng depth b phi temp old. unfold T_setDiffusion, has_interfaces, pfmdiffusion_T_three, pfmdiffusion_T_multi, pfmdiffusion_T, T_interfaces.
  destruct (interpChar (itp s)) as [c |]; cbn [bind]; [| tauto].
  destruct (with_phaseB s), (Z.eqb_spec depth (norderp s)), (1 <? depth)%Z, (known c (avg s)), (pairs_ok s); cbn [bind orb]; split; intro E;
    try discriminate; try reflexivity; intuition (try discriminate; try congruence).
Qed.
Lemma T_op_none : forall s ng depth x b3 s3 old3 b2 s2 old2, T_op3 s ng depth x b3 s3 old3 = None <-> T_op s ng depth x b2 s2 old2 = None.
Proof.
  intros. unfold T_op3, T_op.
  assert (Q : forall A B (f : A -> B) o, option_map f o = None <-> o = None) by (intros A B f [a |]; cbn; split; congruence).
  rewrite !Q, T_none3, T_none. reflexivity.
Qed.

(** * Agreement with the plane *)
Lemma scalar_plane : forall s depth, as_in_plane any_face (scalar_op3 s depth) (scalar_op s depth).
Proof.
  intros s depth. eapply laws_plane; [apply scalar_has_law3 | apply scalar_has_law | reflexivity |].
  intros. unfold scalar_op3, scalar_op. rewrite scalar_none3, scalar_none. reflexivity.
Qed.
Lemma wang_plane : forall dl ds dla daa t a depth, as_in_plane any_face (wang_op3 dl ds dla daa t a depth) (wang_op dl ds dla daa t a depth).
Proof.
  intros. eapply laws_plane; [apply wang_has_law3 | apply wang_has_law | reflexivity |].
  intros. unfold wang_op3, wang_op, wang_setDiffusion3, wang_setDiffusion, pfmdiffusion_scalar3, pfmdiffusion_scalar.
  destruct (interpChar t) as [c |]; cbn [bind]; [| tauto]. destruct (known c a); cbn [bind]; split; congruence.
Qed.
Lemma kks_plane : forall dl ql ds qs gasR it a, as_in_plane any_face (kks_op3 dl ql ds qs gasR it a) (kks_op dl ql ds qs gasR it a).
Proof.
  intros. eapply laws_plane; [apply pfm_law3 | apply pfm_law | reflexivity |].
  intros. unfold kks_op3, kks_op, pfmdiffusion3, pfmdiffusion. destruct (known it a); split; congruence.
Qed.
Lemma beckermann_plane : forall dl ds it a, as_in_plane any_face (beckermann_op3 dl ds it a) (beckermann_op dl ds it a).
Proof.
  intros. eapply laws_plane; [apply beckermann_law3 | apply beckermann_law2 | reflexivity |].
  intros. unfold beckermann_op3, beckermann_op, diffusion_beckermann3, diffusion_beckermann. destruct (known it a); split; congruence.
Qed.
Lemma T_single_plane : forall s ng x, with_phaseB s = false -> (0 <= ng)%Z -> x <> PB -> as_in_plane any_face (T_op3 s ng 1 x) (T_op s ng 1 x).
Proof.
  intros s ng x B N X. eapply laws_plane; [apply T_single_has_law3; assumption | apply T_single_has_law; assumption | reflexivity |].
  intros. apply T_op_none.
Qed.
Lemma no_cell_T : forall s x p t, no_interfaces s -> cell_T_interface s x (p, t) = 0.
Proof.
  intros s x p t N. unfold cell_T_interface, pair_rate, active. rewrite !Rmax_left by apply N. destruct (with_phaseB s), x; ring.
Qed.
Lemma no_inside3 : forall s x b (phi : arr4) (temp : arr3) d i j k, no_interfaces s -> from_inside3 b (fun i j k => cell_T_interface s x (phi i j k, temp i j k)) d i j k = 0.
Proof.
  intros s x b phi temp d i j k N. rewrite (from_inside_ext3 b _ (fun _ _ _ => 0)); [apply from_inside_zero3 |]. intros. apply no_cell_T, N.
Qed.
Lemma T_op3_inv : forall s ng depth x b st old f, T_op3 s ng depth x b st old = Some f ->
  exists g c, interpChar (itp s) = Some c /\
    T_setDiffusion3 s b ng depth (fun i j k => fst (st i j k)) (fun i j k => snd (st i j k)) (mk_coefs33 old old old) = Some g /\ f = get33 g x.
Proof.
  intros s ng depth x b st old f E. unfold T_op3 in E.
  destruct (T_setDiffusion3 s b ng depth (fun i j k => fst (st i j k)) (fun i j k => snd (st i j k)) (mk_coefs33 old old old)) as [g |] eqn:G; [| discriminate].
  cbn in E. injection E as <-. destruct (interpChar (itp s)) as [c |] eqn:C; [eauto |].
  unfold T_setDiffusion3 in G. rewrite C in G. discriminate.
Qed.
(** the same as a law of the two cells, where the liquid of the right cells is averaged *)
Definition good_face (s : strategy) (x : ph) (d : dir3) : Prop :=
  if with_phaseB s then x = PB -> d = FZ -> (nB s <= 1)%Z else x = PL -> d <> FZ.
Definition plane_dir (d : dir3) : dir := match d with FX => DX | _ => DY end.
Lemma T_multi_law3 : forall s ng depth x b st old f d i j k, no_interfaces s -> (1 < depth)%Z -> valid s x -> good_face s x d ->
  T_op3 s ng depth x b st old = Some f -> on_face3 b d i j k ->
  at_face3 f d i j k = T_multi_law s depth x (plane_dir d) (low3 st d i j k) (st i j k).
Proof.
  intros s ng depth x b st old f d i j k N D X G E H. destruct (T_op3_inv _ _ _ _ _ _ _ _ E) as (g & c & C & E' & ->).
  rewrite (T_multi_at3 s ng depth b _ _ _ g x d i j k c C D X E' H). rewrite (no_inside3 s x b (fun i j k => fst (st i j k)) (fun i j k => snd (st i j k)) d i j k N), Rplus_0_r.
  unfold T_multi_law, T_weight3, T_rate3, good_face in *. rewrite C. unfold valid in X. destruct (with_phaseB s).
  - destruct x; destruct d; cbn [low3 plane_dir]; try reflexivity. rewrite last_few by auto. reflexivity.
  - destruct x; [| | exfalso; apply X; reflexivity]; destruct d; cbn [low3 plane_dir partner]; try reflexivity. exfalso. apply G; reflexivity.
Qed.
(** which faces of the temperature strategy with several order parameters agree *)
Definition same_face (s : strategy) (x : ph) (d3 : dir3) (d2 : dir) : Prop :=
  if with_phaseB s then x = PB -> d3 = FZ -> (nB s <= 1)%Z
  else x = PL -> matching_face d3 d2.
Lemma T_multi_plane : forall s ng depth x, no_interfaces s -> (1 < depth)%Z -> valid s x -> as_in_plane (same_face s x) (T_op3 s ng depth x) (T_op s ng depth x).
Proof.
  intros s ng depth x N D X. split; [intros; apply T_op_none |].
  intros b3 s3 old3 f3 d3 i3 j3 k3 b2 s2 old2 f2 d2 i2 j2 E3 E2 O3 O2 RR L V.
  assert (G : good_face s x d3).
  { unfold good_face, same_face in *. destruct (with_phaseB s); [exact RR |]. intros Q W. specialize (RR Q). subst d3. destruct d2; exact RR. }
  rewrite (T_multi_law3 s ng depth x b3 s3 old3 f3 d3 i3 j3 k3 N D X G E3 O3), L, V.
  rewrite (T_multi_has_law s ng depth x (pair_list_nil s N) D X _ _ _ _ _ _ _ E2 O2).
  unfold same_face, T_multi_law in *. destruct (interpChar (itp s)); [| reflexivity]. f_equal. destruct (with_phaseB s); [reflexivity |].
  destruct x; try reflexivity. specialize (RR eq_refl). destruct d3, d2; cbn in RR; try tauto; reflexivity.
Qed.

(** * Transfer of bounds from the plane *)
Definition two_cells {A : Type} (u v : A) : Z -> Z -> A := fun i _ => if (i <? 0)%Z then u else v.
Lemma transfer : forall A (RR : dir3 -> dir -> Prop) (K3 : operation3 A) K2 b s old f d i j k, as_in_plane RR K3 K2 -> K3 b s old = Some f -> on_face3 b d i j k -> RR d DX ->
  exists f2, K2 unit_box (two_cells (low3 s d i j k) (s i j k)) zero_faces = Some f2 /\ on_face unit_box DX 0 0 /\ at_face3 f d i j k = at_face f2 DX 0 0.
Proof.
  intros A RR K3 K2 b s old f d i j k [P1 P2] E H HR.
  assert (O : on_face unit_box DX 0 0) by (unfold on_face, x_face, in_box; cbn; lia).
  destruct (K2 unit_box (two_cells (low3 s d i j k) (s i j k)) zero_faces) as [f2 |] eqn:E2.
  - exists f2. split; [reflexivity |]. split; [exact O |]. eapply P2; eauto.
  - exfalso. apply (P1 b s old) in E2. congruence.
Qed.
Lemma defined_plane : forall A RR (K3 : operation3 A) K2 b s old, as_in_plane RR K3 K2 -> (forall b2 s2 old2, K2 b2 s2 old2 <> None) -> exists f, K3 b s old = Some f.
Proof.
  intros A RR K3 K2 b s old [P1 _] H. destruct (K3 b s old) as [f |] eqn:E; [eauto |]. exfalso.
  apply (P1 b s old unit_box (fun _ _ => s 0 0 0)%Z zero_faces) in E. eapply H, E.
Qed.
Ltac some_plane lem := let H := fresh in destruct lem as (? & H & _); rewrite H; discriminate.

Lemma kks_between3 : forall dl ql ds qs gasR c a b st old, In c ["p"; "l"]%char -> In a averages -> 0 < gasR -> exists f,
  kks_op3 dl ql ds qs gasR c a b st old = Some f /\
  forall d i j k, on_face3 b d i j k -> 0 < snd (low3 st d i j k) -> 0 < snd (st i j k) ->
    let T := mean (snd (low3 st d i j k)) (snd (st i j k)) in
    between (rate dl ql gasR T) (rate ds qs gasR T) (at_face3 f d i j k) /\
    (fst (low3 st d i j k) <= 0 -> fst (st i j k) <= 0 -> at_face3 f d i j k = rate dl ql gasR T) /\
    (1 <= fst (low3 st d i j k) -> 1 <= fst (st i j k) -> at_face3 f d i j k = rate ds qs gasR T).
Proof.
  intros dl ql ds qs gasR c a b st old C A G. pose proof (kks_plane dl ql ds qs gasR c a) as P.
  destruct (defined_plane _ _ _ _ b st old P) as (f & E).
  { intros b2 s2 o2. destruct (kks_between dl ql ds qs gasR c a b2 s2 o2 C A G) as (g & -> & _). discriminate. }
  exists f. split; [exact E |]. intros d i j k H.
  destruct (transfer _ _ _ _ _ _ _ _ _ _ _ _ P E H I) as (f2 & E2 & O & ->).
  destruct (kks_between dl ql ds qs gasR c a unit_box (two_cells (low3 st d i j k) (st i j k)) zero_faces C A G) as (g & Eg & V).
  rewrite E2 in Eg. injection Eg as <-. exact (V DX 0%Z 0%Z O).
Qed.
Lemma beckermann_between3 : forall dl ds c a b st old, In c ["p"; "l"]%char -> In a averages -> exists f,
  beckermann_op3 dl ds c a b st old = Some f /\
  forall d i j k, on_face3 b d i j k -> 0 < snd (st i j k) ->
    between ds dl (at_face3 f d i j k) /\
    (fst (low3 st d i j k) <= 0 -> fst (st i j k) <= 0 -> at_face3 f d i j k = dl) /\
    (1 <= fst (low3 st d i j k) -> 1 <= fst (st i j k) -> at_face3 f d i j k = ds).
Proof.
  intros dl ds c a b st old C A. pose proof (beckermann_plane dl ds c a) as P.
  destruct (defined_plane _ _ _ _ b st old P) as (f & E).
  { intros b2 s2 o2. destruct (beckermann_between dl ds c a b2 s2 o2 C A) as (g & -> & _). discriminate. }
  exists f. split; [exact E |]. intros d i j k H.
  destruct (transfer _ _ _ _ _ _ _ _ _ _ _ _ P E H I) as (f2 & E2 & O & ->).
  destruct (beckermann_between dl ds c a unit_box (two_cells (low3 st d i j k) (st i j k)) zero_faces C A) as (g & Eg & V).
  rewrite E2 in Eg. injection Eg as <-. exact (V DX 0%Z 0%Z O).
Qed.
Lemma scalar_single3 : forall s b phi old, with_phaseB s = false -> implemented (itp s) -> In (avg s) averages ->
  exists f, scalar_setDiffusion3 s b 1 phi old = Some f /\
  forall d i j k, on_face3 b d i j k -> between (dbulk s PL) (dbulk s PA) (at_face3 f d i j k) /\
    (low3 phi d i j k 0%Z <= 0 -> phi i j k 0%Z <= 0 -> at_face3 f d i j k = dbulk s PL) /\
    (1 <= low3 phi d i j k 0%Z -> 1 <= phi i j k 0%Z -> at_face3 f d i j k = dbulk s PA).
Proof.
  intros s b phi old B C A. pose proof (scalar_plane s 1) as P.
  destruct (defined_plane _ _ _ _ b phi old P) as (f & E).
  { intros b2 s2 o2. destruct (scalar_single s b2 s2 o2 B C A) as (g & Eg & _). unfold scalar_op. rewrite Eg. discriminate. }
  exists f. split; [exact E |]. intros d i j k H.
  destruct (transfer _ _ _ _ _ _ _ _ _ _ _ _ P E H I) as (f2 & E2 & O & ->).
  destruct (scalar_single s unit_box (two_cells (low3 phi d i j k) (phi i j k)) zero_faces B C A) as (g & Eg & V).
  unfold scalar_op in E2. rewrite E2 in Eg. injection Eg as <-. exact (V DX 0%Z 0%Z O).
Qed.
Lemma scalar_two_phases3 : forall s b depth phi old, with_phaseB s = false -> (1 < depth)%Z -> no_interfaces s -> implemented (itp s) -> avg s = "a"%char ->
  exists f, scalar_setDiffusion3 s b depth phi old = Some f /\
  forall d i j k, on_face3 b d i j k ->
    fraction s PL (low3 phi d i j k) + fraction s PA (low3 phi d i j k) = 1 -> fraction s PL (phi i j k) + fraction s PA (phi i j k) = 1 ->
    between (dbulk s PL) (dbulk s PA) (at_face3 f d i j k) /\
    (fraction s PA (low3 phi d i j k) <= 0 -> fraction s PA (phi i j k) <= 0 -> at_face3 f d i j k = dbulk s PL) /\
    (1 <= fraction s PA (low3 phi d i j k) -> 1 <= fraction s PA (phi i j k) -> at_face3 f d i j k = dbulk s PA).
Proof.
  intros s b depth phi old B D N C A. pose proof (scalar_plane s depth) as P.
  destruct (defined_plane _ _ _ _ b phi old P) as (f & E).
  { intros b2 s2 o2. destruct (scalar_two_phases s b2 depth s2 o2 B D N C A) as (g & Eg & _). unfold scalar_op. rewrite Eg. discriminate. }
  exists f. split; [exact E |]. intros d i j k H.
  destruct (transfer _ _ _ _ _ _ _ _ _ _ _ _ P E H I) as (f2 & E2 & O & ->).
  destruct (scalar_two_phases s unit_box depth (two_cells (low3 phi d i j k) (phi i j k)) zero_faces B D N C A) as (g & Eg & V).
  unfold scalar_op in E2. rewrite E2 in Eg. injection Eg as <-. exact (V DX 0%Z 0%Z O).
Qed.
Lemma scalar_three_phases3 : forall s b phi old, with_phaseB s = true -> no_interfaces s -> itp s = LINEAR -> avg s = "a"%char ->
  exists f, scalar_setDiffusion3 s b (norderp s) phi old = Some f /\
  forall d i j k, on_face3 b d i j k ->
    (forall x, 0 <= fraction s x (low3 phi d i j k)) -> (forall x, 0 <= fraction s x (phi i j k)) ->
    fraction s PL (low3 phi d i j k) + fraction s PA (low3 phi d i j k) + fraction s PB (low3 phi d i j k) = 1 ->
    fraction s PL (phi i j k) + fraction s PA (phi i j k) + fraction s PB (phi i j k) = 1 ->
    at_face3 f d i j k = mean (fraction s PL (low3 phi d i j k)) (fraction s PL (phi i j k)) * dbulk s PL +
      mean (fraction s PA (low3 phi d i j k)) (fraction s PA (phi i j k)) * dbulk s PA +
      mean (fraction s PB (low3 phi d i j k)) (fraction s PB (phi i j k)) * dbulk s PB.
Proof.
  intros s b phi old B N C A. pose proof (scalar_plane s (norderp s)) as P.
  destruct (defined_plane _ _ _ _ b phi old P) as (f & E).
  { intros b2 s2 o2. destruct (scalar_three_phases s b2 s2 o2 B N C A) as (g & Eg & _). unfold scalar_op. rewrite Eg. discriminate. }
  exists f. split; [exact E |]. intros d i j k H.
  destruct (transfer _ _ _ _ _ _ _ _ _ _ _ _ P E H I) as (f2 & E2 & O & ->).
  destruct (scalar_three_phases s unit_box (two_cells (low3 phi d i j k) (phi i j k)) zero_faces B N C A) as (g & Eg & V).
  unfold scalar_op in E2. rewrite E2 in Eg. injection Eg as <-. exact (V DX 0%Z 0%Z O).
Qed.
Lemma T_some3 : forall s b ng depth phi temp old, pairs_ok s = true -> implemented (itp s) -> In (avg s) averages -> (with_phaseB s = true -> depth = norderp s) ->
  exists f, T_setDiffusion3 s b ng depth phi temp old = Some f.
Proof.
  intros s b ng depth phi temp old O I A B. destruct (T_setDiffusion3 s b ng depth phi temp old) as [f |] eqn:E; [eauto |]. exfalso.
  apply T_none3 in E. destruct (impl_char _ I) as (c & C & P). rewrite C, (chars_known c (avg s) P A) in E.
  destruct E as [E | [[E1 E2] | [_ E]]]; [discriminate | auto | congruence].
Qed.
Lemma scalar_some3 : forall s b depth phi old, pairs_ok s = true -> implemented (itp s) -> In (avg s) averages -> (with_phaseB s = true -> depth = norderp s) ->
  exists f, scalar_setDiffusion3 s b depth phi old = Some f.
Proof.
  intros s b depth phi old O I A B. destruct (scalar_defined s unit_box depth (fun _ _ => phi 0%Z 0%Z 0%Z) zero_faces O I A B) as (g & G).
  destruct (scalar_setDiffusion3 s b depth phi old) as [f |] eqn:E; [eauto |]. exfalso.
  apply (proj1 (scalar_plane s depth) b phi old unit_box (fun _ _ => phi 0%Z 0%Z 0%Z) zero_faces) in E. unfold scalar_op in E. congruence.
Qed.
Lemma T_single_split3 : forall s ng b phi temp old, with_phaseB s = false -> (0 <= ng)%Z -> implemented (itp s) -> In (avg s) averages ->
  0 < gas_constant s -> exists f, T_setDiffusion3 s b ng 1 phi temp old = Some f /\
  forall d i j k, on_wide_face3 b ng d i j k -> 0 < low3 temp d i j k -> 0 < temp i j k ->
    let T := mean (low3 temp d i j k) (temp i j k) in
    exists w, 0 <= w <= 1 /\ at_face3 (dL f) d i j k = (1 - w) * rate (dbulk s PL) (qbulk s PL) (gas_constant s) T /\
      at_face3 (dA f) d i j k = w * rate (dbulk s PA) (qbulk s PA) (gas_constant s) T /\
      (low3 phi d i j k 0%Z <= 0 -> phi i j k 0%Z <= 0 -> w = 0) /\ (1 <= low3 phi d i j k 0%Z -> 1 <= phi i j k 0%Z -> w = 1).
Proof.
  intros s ng b phi temp old NB N I A G. destruct (impl_char _ I) as (c & C & P).
  destruct (T_setDiffusion3 s b ng 1 phi temp old) as [f |] eqn:E.
  - exists f. split; [reflexivity |]. intros d i j k H T1 T2 T. exists (hface c (avg s) (low3 phi d i j k 0%Z) (phi i j k 0%Z)).
    destruct (hface_weight c (avg s) (low3 phi d i j k 0%Z) (phi i j k 0%Z) P A) as (W & W0 & W1).
    change (dL f) with (get33 f PL). change (dA f) with (get33 f PA).
    rewrite (T_single_at3 _ _ _ _ _ _ _ PL d i j k NB ltac:(discriminate) E H), (T_single_at3 _ _ _ _ _ _ _ PA d i j k NB ltac:(discriminate) E H).
    unfold T_single_law. rewrite C. cbn [fst snd]. rewrite !arrhenius_rate by assumption. auto 10.
  - exfalso. apply T_none3 in E. rewrite C, (chars_known c (avg s) P A) in E. unfold has_interfaces in E. rewrite NB in E. cbn in E.
    destruct E as [E | [[E _] | [E _]]]; discriminate.
Qed.
Lemma T_three_phases3 : forall s ng b phi temp old, with_phaseB s = true -> (1 < norderp s)%Z -> no_interfaces s -> itp s = LINEAR -> avg s = "a"%char -> 0 < gas_constant s ->
  exists f, T_setDiffusion3 s b ng (norderp s) phi temp old = Some f /\
  forall d i j k, on_face3 b d i j k -> 0 < low3 temp d i j k -> 0 < temp i j k ->
    (forall x, 0 <= fraction s x (low3 phi d i j k)) -> (forall x, 0 <= fraction s x (phi i j k)) ->
    fraction s PL (low3 phi d i j k) + fraction s PA (low3 phi d i j k) + fraction s PB (low3 phi d i j k) = 1 ->
    fraction s PL (phi i j k) + fraction s PA (phi i j k) + fraction s PB (phi i j k) = 1 ->
    forall x, (x = PB -> d = FZ -> (members s PB <= 1)%Z) -> at_face3 (get33 f x) d i j k =
      mean (fraction s x (low3 phi d i j k)) (fraction s x (phi i j k)) *
      rate (dbulk s x) (qbulk s x) (gas_constant s) (mean (low3 temp d i j k) (temp i j k)).
Proof.
  intros s ng b phi temp old NB M N I A G.
  destruct (T_some3 s b ng (norderp s) phi temp old (nil_ok s N)) as (f & E); [left; exact I | rewrite A; left; reflexivity | auto |].
  exists f. split; [exact E |]. intros d i j k H T1 T2 P1 P2 F1 F2 x X.
  assert (V : at_face3 (get33 f x) d i j k = val (interp_func (mean (fraction s x (low3 phi d i j k)) (fraction s x (phi i j k))) "l") *
     rate (dbulk s x) (qbulk s x) (gas_constant s) (mean (low3 temp d i j k) (temp i j k))).
  { rewrite (T_multi_at3 s ng (norderp s) b phi temp old f x d i j k "l"%char ltac:(rewrite I; reflexivity) M ltac:(intro; congruence) E H).
    rewrite no_inside3, Rplus_0_r by exact N. unfold T_rate3. rewrite arrhenius_rate by assumption. f_equal. unfold T_weight3. rewrite NB.
    change (nA s) with (members s PA). change (nB s) with (members s PB).
    destruct x; [apply liquid_frac, A | apply solids_frac, A |].
    destruct d; try (apply solids_frac, A). rewrite last_few by auto. fold (solids s "l" (members s PB) PB (low3 phi FZ i j k) (phi i j k)). apply solids_frac, A. }
  rewrite V. f_equal.
  destruct (linear_sum (mean (fraction s PL (low3 phi d i j k)) (fraction s PL (phi i j k))) (mean (fraction s PA (low3 phi d i j k)) (fraction s PA (phi i j k)))
    (mean (fraction s PB (low3 phi d i j k)) (fraction s PB (phi i j k)))) as (L1 & L2 & L3).
  1-3: unfold mean; match goal with A : (forall _, 0 <= _), B : (forall _, 0 <= _) |- 0 <= (fraction _ ?x _ + _) / 2 => pose proof (A x); pose proof (B x) end; lra.
  1: unfold mean; lra.
  destruct x; assumption.
Qed.

(** two phases with several order parameters *)
Lemma shift_sum : forall n (g : Z -> R), sumZ 1 (n - 1) (fun k => g (k - 1)%Z) = sumZ 0 (n - 2) g.
Proof.
  intros n g. unfold sumZ. replace (n - 2 - 0 + 1)%Z with (n - 1 - 1 + 1)%Z by lia. generalize (Z.to_nat (n - 1 - 1 + 1)). intro m.
  assert (Q : forall m lo, sum_from (lo + 1) m (fun k => g (k - 1)%Z) = sum_from lo m g).
  { induction m0 as [| m0 IH]; intro lo; [reflexivity |]. cbn [sum_from]. rewrite IH. do 2 f_equal. lia. }
  apply (Q m 0%Z).
Qed.
Lemma T_two_phases3 : forall s ng depth b phi temp old, with_phaseB s = false -> (1 < depth)%Z -> no_interfaces s -> implemented (itp s) ->
  avg s = "a"%char -> 0 < gas_constant s -> exists f, T_setDiffusion3 s b ng depth phi temp old = Some f /\
  forall d i j k, on_face3 b d i j k -> 0 < low3 temp d i j k -> 0 < temp i j k -> last_is_liquid depth (low3 phi d i j k) -> last_is_liquid depth (phi i j k) ->
    let T := mean (low3 temp d i j k) (temp i j k) in
    exists w, 0 <= w <= 1 /\ at_face3 (dA f) d i j k = w * rate (dbulk s PA) (qbulk s PA) (gas_constant s) T /\
      (d = FX -> at_face3 (dL f) d i j k = (1 - w) * rate (dbulk s PL) (qbulk s PL) (gas_constant s) T) /\
      (low3 phi d i j k (depth - 1)%Z = 1 -> phi i j k (depth - 1)%Z = 1 -> w = 0) /\ (low3 phi d i j k (depth - 1)%Z = 0 -> phi i j k (depth - 1)%Z = 0 -> w = 1).
Proof.
  intros s ng depth b phi temp old NB D N I A G. destruct (impl_char _ I) as (c & C & P).
  destruct (T_some3 s b ng depth phi temp old (nil_ok s N) I) as (f & E); [rewrite A; left; reflexivity | congruence |].
  exists f. split; [exact E |]. intros d i j k H T1 T2 L1 L2 T.
  change (dL f) with (get33 f PL). change (dA f) with (get33 f PA).
  rewrite (T_multi_at3 s ng depth b phi temp old f PL d i j k c C D ltac:(intro; discriminate) E H),
    (T_multi_at3 s ng depth b phi temp old f PA d i j k c C D ltac:(intro; discriminate) E H), !no_inside3, !Rplus_0_r by exact N.
  unfold T_weight3, T_rate3. rewrite NB, A, hface_arith, hface_sum_arith, !shift_sum. rewrite !arrhenius_rate by assumption. fold T.
  unfold last_is_liquid in *.
  destruct (complement c (mean (low3 phi d i j k (depth - 1)%Z) (phi i j k (depth - 1)%Z)) (mean (sumZ 0 (depth - 2) (low3 phi d i j k)) (sumZ 0 (depth - 2) (phi i j k))) P)
    as (w & W & W2 & -> & W0 & W1); [unfold mean; lra |].
  exists w. split; [exact W |]. split; [reflexivity |]. split; [| unfold mean in *; split; intros; [apply W0 | apply W1]; lra].
  intros ->. cbn [partner]. rewrite <- W2. reflexivity.
Qed.

(** * Refutations *)
Definition unit_box3 : box3 := mk_box3 0 0 0 0 0 0 1 1 1.
Definition zero33 : arr3x3 := (fun _ _ _ => 0, fun _ _ _ => 0, fun _ _ _ => 0).
Definition zeros33 : coefs33 := mk_coefs33 zero33 zero33 zero33.
Definition ones3 : arr3 := fun _ _ _ => 1.
(** liquid below y = 0, solid above *)
Definition layer3 : arr4 := fun _ j _ m => if (j <? 0)%Z then (if (m =? 1)%Z then 1 else 0) else (if (m =? 1)%Z then 0 else 1).
Definition ex_T2 : strategy := ex_strategy 2 1 0 false (fun _ _ => 0) LINEAR "a".
Lemma lin01 : forall x, 0 <= x <= 1 -> val (interp_func x "l") = x.
Proof. intros x H. cbn [interp_func val]. rewrite Rmax_right, Rmin_right; lra. Qed.
Lemma sumZ_11 : forall (f : Z -> R), sumZ 1 (2 - 1) f = f 1%Z.
Proof. intro f. change (2 - 1)%Z with 1%Z. apply sumZ_one. Qed.
Lemma layer_values : forall f, T_setDiffusion3 ex_T2 unit_box3 1 2 layer3 ones3 zeros33 = Some f ->
  at_face3 (dL f) FY 0 0 0 = 1 /\ at_face3 (dA f) FY 0 0 0 = 1 / 2 /\ at_face3 (dL f) FZ 0 0 0 = 1 / 2 /\ at_face3 (dA f) FZ 0 0 0 = 1.
Proof.
  intros f E.
  assert (V : forall x d, x <> PB -> on_face3 unit_box3 d 0 0 0 -> at_face3 (get33 f x) d 0 0 0 = T_weight3 ex_T2 "l" 2 x d (partner layer3 d 0%Z 0%Z 0%Z) (low3 layer3 d 0%Z 0%Z 0%Z) (layer3 0%Z 0%Z 0%Z)).
  { intros x d X H. rewrite (T_multi_at3 ex_T2 1 2 _ _ _ _ f x d 0 0 0 "l"%char eq_refl ltac:(lia) ltac:(intro; exact X) E H).
    rewrite no_inside3 by apply no_ex. unfold T_rate3, ex_T2, ex_strategy. cbn [dbulk qbulk gas_constant]. rewrite arrhenius_one. ring. }
  change (dL f) with (get33 f PL). change (dA f) with (get33 f PA).
  rewrite !V by (discriminate || (unfold on_face3, in_box3; cbn; lia)).
  unfold T_weight3, ex_T2, ex_strategy. cbn [with_phaseB avg]. rewrite !hface_arith, !hface_sum_arith, !sumZ_11.
  unfold partner, low3, layer3. cbn [Z.sub Z.add Z.opp Z.ltb Z.compare Z.eqb Pos.eqb Z.pos_sub Pos.compare Pos.compare_cont].
  cbn [Pos.pred_double]. unfold mean. rewrite !lin01 by lra. repeat split; lra.
Qed.
Lemma layer_ok : forall i j k, 0 < ones3 i j k /\ last_is_liquid 2 (layer3 i j k).
Proof.
  intros i j k. split; [unfold ones3; lra |]. unfold last_is_liquid. replace (2 - 2)%Z with 0%Z by lia. rewrite sumZ_cons, sumZ_empty by lia. unfold layer3.
  cbn. destruct (j <? 0)%Z; lra.
Qed.
Lemma T_faces_refuted3 : exists s b depth phi temp old f, with_phaseB s = false /\ (1 < depth)%Z /\ no_interfaces s /\ implemented (itp s) /\ avg s = "a"%char /\
  (forall x, dbulk s x = 1 /\ qbulk s x = 0) /\ (forall i j k, 0 < temp i j k /\ last_is_liquid depth (phi i j k)) /\ T_setDiffusion3 s b 1 depth phi temp old = Some f /\
  (on_face3 b FY 0 0 0 /\ at_face3 (dL f) FY 0 0 0 + at_face3 (dA f) FY 0 0 0 = 3 / 2) /\
  (on_face3 b FZ 0 0 0 /\ phi 0%Z 0%Z (-1)%Z (depth - 1)%Z = 0 /\ phi 0%Z 0%Z 0%Z (depth - 1)%Z = 0 /\ at_face3 (dL f) FZ 0 0 0 = 1 / 2 /\ at_face3 (dA f) FZ 0 0 0 = 1).
Proof.
  destruct (T_some3 ex_T2 unit_box3 1 2 layer3 ones3 zeros33) as (f & E); [apply nil_ok, no_ex | left; reflexivity | left; reflexivity | discriminate |].
  exists ex_T2, unit_box3, 2%Z, layer3, ones3, zeros33, f. split; [reflexivity |]. split; [lia |]. split; [apply no_ex |]. split; [left; reflexivity |].
  split; [reflexivity |]. split; [intro; split; reflexivity |]. split; [apply layer_ok |]. split; [exact E |].
  destruct (layer_values f E) as (V1 & V2 & V3 & V4). split; [split; [unfold on_face3, in_box3; cbn; lia | lra] |].
  split; [unfold on_face3, in_box3; cbn; lia |]. split; [reflexivity |]. split; [reflexivity |]. split; assumption.
Qed.
(** three phases, two grains of B: everything belongs to the first one *)
Definition ex_T4 : strategy := ex_strategy 4 1 2 true (fun _ _ => 0) LINEAR "a".
Definition first_B : arr4 := fun _ _ _ m => if (m =? 1)%Z then 1 else 0.
Lemma fraction_B : forall i j k x, fraction ex_T4 x (first_B i j k) = match x with PB => 1 | _ => 0 end.
Proof.
  intros i j k x. destruct x; unfold fraction, ex_T4, ex_strategy, members; cbn [with3phases count_of norderpA norderpB].
  - rewrite sumZ_one. reflexivity.
  - rewrite sumZ_one. reflexivity.
  - rewrite sumZ_cons by lia. rewrite (sumZ_cons (1 + 1) 2) by lia. rewrite sumZ_empty by lia. unfold of_phase, first_B. cbn. lra.
Qed.
Lemma T_last_B_values : forall f, T_setDiffusion3 ex_T4 unit_box3 1 4 first_B ones3 zeros33 = Some f ->
  (forall x, at_face3 (get33 f x) FX 0 0 0 = match x with PB => 1 | _ => 0 end) /\ (forall x, at_face3 (get33 f x) FZ 0 0 0 = 0).
Proof.
  intros f E.
  assert (V : forall x d, on_face3 unit_box3 d 0 0 0 -> at_face3 (get33 f x) d 0 0 0 = T_weight3 ex_T4 "l" 4 x d (first_B 0%Z 0%Z 0%Z) (first_B 0%Z 0%Z 0%Z) (first_B 0%Z 0%Z 0%Z)).
  { intros x d H. rewrite (T_multi_at3 ex_T4 1 4 _ _ _ _ f x d 0 0 0 "l"%char eq_refl ltac:(lia) ltac:(intro; discriminate) E H).
    rewrite no_inside3 by apply no_ex. unfold T_rate3, ex_T4, ex_strategy. cbn [dbulk qbulk gas_constant]. rewrite arrhenius_one. rewrite Rmult_1_r, Rplus_0_r. destruct d; reflexivity. }
  assert (W : forall x, x <> PB -> forall d, T_weight3 ex_T4 "l" 4 x d (first_B 0%Z 0%Z 0%Z) (first_B 0%Z 0%Z 0%Z) (first_B 0%Z 0%Z 0%Z) = 0).
  { intros x X d. unfold T_weight3. change (with_phaseB ex_T4) with true. cbv iota. change (nA ex_T4) with (members ex_T4 PA).
    destruct x; [| | congruence]; [rewrite liquid_frac by reflexivity | rewrite solids_frac by reflexivity]; rewrite !fraction_B; cbv iota; unfold mean; rewrite lin01; lra. }
  assert (OX : on_face3 unit_box3 FX 0 0 0) by (unfold on_face3, in_box3; cbn; lia). assert (OZ : on_face3 unit_box3 FZ 0 0 0) by (unfold on_face3, in_box3; cbn; lia).
  split; intro x; rewrite V by assumption.
  - destruct x; [apply W; discriminate | apply W; discriminate |]. unfold T_weight3. change (with_phaseB ex_T4) with true. cbv iota. change (nB ex_T4) with (members ex_T4 PB).
    rewrite solids_frac by reflexivity. rewrite !fraction_B. cbv iota. unfold mean. rewrite lin01; lra.
  - destruct x; [apply W; discriminate | apply W; discriminate |]. unfold T_weight3. change (with_phaseB ex_T4) with true. cbv iota. change (nB ex_T4) with 2%Z.
    unfold hface_last. match goal with |- context [do_loop 1 2 ?g 0] => change (do_loop 1 2 g 0) with (g 2%Z (g 1%Z 0)) end.
    cbv beta. unfold of_phase, first_B, ex_T4, ex_strategy. cbn [avg first_of norderpA with3phases with_phaseB Z.add Z.sub Z.opp Z.eqb Pos.eqb Pos.add Pos.succ Z.pos_sub Pos.pred_double average_func val]. rewrite lin01; cbn; lra.
Qed.
Lemma T_last_B_refuted : exists s b phi temp old f, with_phaseB s = true /\ no_interfaces s /\ itp s = LINEAR /\ avg s = "a"%char /\
  (forall x, dbulk s x = 1 /\ qbulk s x = 0) /\ (forall i j k, 0 < temp i j k /\ forall x, fraction s x (phi i j k) = match x with PB => 1 | _ => 0 end) /\
  T_setDiffusion3 s b 1 (norderp s) phi temp old = Some f /\
  on_face3 b FX 0 0 0 /\ at_face3 (dB f) FX 0 0 0 = 1 /\ on_face3 b FZ 0 0 0 /\ forall x, at_face3 (get33 f x) FZ 0 0 0 = 0.
Proof.
  destruct (T_some3 ex_T4 unit_box3 1 4 first_B ones3 zeros33) as (f & E); [apply nil_ok, no_ex | left; reflexivity | left; reflexivity | reflexivity |].
  exists ex_T4, unit_box3, first_B, ones3, zeros33, f. split; [reflexivity |]. split; [apply no_ex |]. split; [reflexivity |]. split; [reflexivity |].
  split; [intro; split; reflexivity |]. split; [intros; split; [unfold ones3; lra | apply fraction_B] |]. split; [exact E |].
  destruct (T_last_B_values f E) as [V1 V2]. split; [unfold on_face3, in_box3; cbn; lia |]. split; [exact (V1 PB) |].
  split; [unfold on_face3, in_box3; cbn; lia | exact V2].
Qed.

(** * No preferred axis *)
Lemma T_three_law3 : forall s ng depth x, with_phaseB s = true -> no_interfaces s -> (1 < depth)%Z -> (x = PB -> (nB s <= 1)%Z) -> law3 (T_op3 s ng depth x) (T_multi_law s depth x DX).
Proof.
  intros s ng depth x B N D X b st old f d i j k E H.
  rewrite (T_multi_law3 s ng depth x b st old f d i j k N D ltac:(intro; congruence) ltac:(unfold good_face; rewrite B; auto) E H).
  destruct d; [reflexivity | |]; symmetry; apply (T_multi_sym s depth x DX (low3 st _ i j k) (st i j k)); congruence.
Qed.
Lemma T_solid_law3 : forall s ng depth, with_phaseB s = false -> no_interfaces s -> (1 < depth)%Z -> law3 (T_op3 s ng depth PA) (T_multi_law s depth PA DX).
Proof.
  intros s ng depth B N D b st old f d i j k E H.
  rewrite (T_multi_law3 s ng depth PA b st old f d i j k N D ltac:(intro; discriminate) ltac:(unfold good_face; rewrite B; discriminate) E H).
  destruct d; [reflexivity | |]; symmetry; apply (T_multi_sym s depth PA DX (low3 st _ i j k) (st i j k)); congruence.
Qed.
Lemma isotropic_all3 : forall s depth x ng dl ds dla daa t a ql qs gasR it at_,
  isotropic3 (scalar_op3 s depth) /\ isotropic3 (wang_op3 dl ds dla daa t a depth) /\ isotropic3 (kks_op3 dl ql ds qs gasR it at_) /\
  (turn_free3 (beckermann_op3 dl ds it at_) /\ swap_free3 (beckermann_op3 dl ds it at_)) /\
  (with_phaseB s = false -> (0 <= ng)%Z -> x <> PB -> isotropic3 (T_op3 s ng 1 x)) /\
  (with_phaseB s = true -> no_interfaces s -> (1 < depth)%Z -> (x = PB -> (members s PB <= 1)%Z) -> isotropic3 (T_op3 s ng depth x)) /\
  (with_phaseB s = false -> no_interfaces s -> (1 < depth)%Z -> isotropic3 (T_op3 s ng depth PA)).
Proof.
  intros. split; [eapply law_isotropic3, scalar_has_law3; intros; apply scalar_law_sym |].
  split; [eapply law_isotropic3, wang_has_law3; intros; apply wang_law_sym |].
  split; [eapply law_isotropic3, pfm_law3; intros; apply kks_sym |].
  split; [split; [eapply law_turn3, beckermann_law3 | eapply law_swap3, beckermann_law3] |].
  split; [intros; eapply law_isotropic3, T_single_has_law3; auto; intros; apply T_single_sym |].
  split; [intros B N D X; eapply law_isotropic3, (T_three_law3 s ng depth x B N D X); intros; apply T_multi_sym; congruence |].
  intros B N D; eapply law_isotropic3, (T_solid_law3 s ng depth B N D); intros; apply T_multi_sym; congruence.
Qed.
Lemma T_op3_some : forall s ng depth b st old, no_interfaces s -> implemented (itp s) -> In (avg s) averages -> (with_phaseB s = true -> depth = norderp s) -> exists g,
  T_setDiffusion3 s b ng depth (fun i j k => fst (st i j k)) (fun i j k => snd (st i j k)) (mk_coefs33 old old old) = Some g /\
  forall x, T_op3 s ng depth x b st old = Some (get33 g x).
Proof.
  intros s ng depth b st old N I A B.
  destruct (T_some3 s b ng depth (fun i j k => fst (st i j k)) (fun i j k => snd (st i j k)) (mk_coefs33 old old old) (nil_ok s N) I A B) as (g & E).
  exists g. split; [exact E |]. intro x. unfold T_op3. rewrite E. reflexivity.
Qed.
Definition layer_st : Z -> Z -> Z -> (Z -> R) * R := fun i j k => (layer3 i j k, 1).
Lemma T_liquid_value3 : forall b st old f d i j k, T_op3 ex_T2 1 2 PL b st old = Some f -> on_face3 b d i j k ->
  (forall i j k, 0 <= fst (st i j k) 1%Z <= 1) -> at_face3 f d i j k = mean (fst (low3 st d i j k) 1%Z) (fst (partner st d i j k) 1%Z).
Proof.
  intros b st old f d i j k E H B. destruct (T_op3_inv _ _ _ _ _ _ _ _ E) as (g & c & C & E' & ->). injection C as <-.
  rewrite (T_multi_at3 ex_T2 1 2 b _ _ _ g PL d i j k "l"%char eq_refl ltac:(lia) ltac:(intro; discriminate) E' H).
  rewrite (no_inside3 ex_T2 PL b (fun i j k => fst (st i j k)) (fun i j k => snd (st i j k)) d i j k) by apply no_ex.
  unfold T_rate3, T_weight3, ex_T2, ex_strategy. cbn [dbulk qbulk gas_constant with_phaseB avg]. rewrite arrhenius_one, hface_arith, Rmult_1_r, Rplus_0_r. change (2 - 1)%Z with 1%Z.
  assert (Q : forall u v, 0 <= u <= 1 -> 0 <= v <= 1 -> 0 <= mean u v <= 1) by (intros; unfold mean; lra).
  destruct d; cbn [low3 partner]; apply lin01, Q; apply B.
Qed.
Lemma layer_bounds : forall i j k, 0 <= layer3 i j k 1%Z <= 1.
Proof. intros. unfold layer3. destruct (j <? 0)%Z; cbn; lra. Qed.
Lemma T_axes_refuted3 : exists s depth, with_phaseB s = false /\ (1 < depth)%Z /\ no_interfaces s /\ implemented (itp s) /\ avg s = "a"%char /\
  ~ turn_free3 (T_op3 s 1 depth PL) /\ ~ swap_free3 (T_op3 s 1 depth PL).
Proof.
  exists ex_T2, 2%Z. split; [reflexivity |]. split; [lia |]. split; [apply no_ex |]. split; [left; reflexivity |]. split; [reflexivity |].
  assert (D : forall b st, exists f, T_op3 ex_T2 1 2 PL b st zero33 = Some f).
  { intros b st. destruct (T_op3_some ex_T2 1 2 b st zero33) as (g & _ & G); [apply no_ex | left; reflexivity | left; reflexivity | discriminate |]. eauto. }
  assert (H : on_face3 unit_box3 FY 0 0 0) by (unfold on_face3, in_box3; cbn; lia).
  destruct (D unit_box3 layer_st) as (f & E).
  assert (V : at_face3 f FY 0 0 0 = 1).
  { rewrite (T_liquid_value3 _ _ _ _ FY 0 0 0 E H); [| intros; apply layer_bounds]. unfold mean. cbn. lra. }
  split; intro A.
  - destruct (D (turn_box3 unit_box3) (turn3 layer_st)) as (g & E').
    specialize (A _ _ _ _ _ _ _ _ _ _ E E' H). cbn [turn_dir3] in A.
    rewrite V, (T_liquid_value3 _ _ _ _ FX 0 0 0 E') in A; [| unfold on_face3, in_box3; cbn; lia | intros; apply layer_bounds].
    revert A. unfold mean. cbn. lra.
  - destruct (D (swap_box3 unit_box3) (swap3 layer_st)) as (g & E').
    specialize (A _ _ _ _ _ _ _ _ _ _ E E' H). cbn [swap_dir3] in A.
    rewrite V, (T_liquid_value3 _ _ _ _ FX 0 0 0 E') in A; [| unfold on_face3, in_box3; cbn; lia | intros; apply layer_bounds].
    revert A. unfold mean. cbn. lra.
Qed.
Definition first_B_st : Z -> Z -> Z -> (Z -> R) * R := fun i j k => (first_B i j k, 1).
Lemma T_B_axes_refuted3 : exists s, with_phaseB s = true /\ (1 < norderp s)%Z /\ no_interfaces s /\ implemented (itp s) /\ avg s = "a"%char /\
  ~ turn_free3 (T_op3 s 1 (norderp s) PB).
Proof.
  exists ex_T4. split; [reflexivity |]. split; [cbn; lia |]. split; [apply no_ex |]. split; [left; reflexivity |]. split; [reflexivity |].
  intro A.
  destruct (T_op3_some ex_T4 1 4 unit_box3 first_B_st zero33) as (g & E & G); [apply no_ex | left; reflexivity | left; reflexivity | reflexivity |].
  specialize (A _ _ _ zero33 _ (get33 g PB) FX 0%Z 0%Z 0%Z (G PB) (G PB) ltac:(unfold on_face3, in_box3; cbn; lia)). cbn [turn_dir3] in A.
  destruct (T_last_B_values g E) as [V1 V2]. rewrite V1, V2 in A. lra.
Qed.
Lemma beckermann_mirror_refuted3 : exists dl ds c a, In c ["p"; "l"]%char /\ In a averages /\ ~ mirror_free3 (beckermann_op3 dl ds c a).
Proof.
  exists 1, 0, "l"%char, "a"%char. split; [cbn; tauto |]. split; [cbn; tauto |].
  intro M. set (st := fun i (j k : Z) => if (i <? 0)%Z then (1 / 2, 1) else (1 / 2, 2)).
  assert (D : forall b st' old, exists f, beckermann_op3 1 0 "l" "a" b st' old = Some f) by (intros; unfold beckermann_op3, diffusion_beckermann3; cbn; eauto).
  destruct (D unit_box3 st zero33) as (f & E). destruct (D (mirror_box3 unit_box3) (mirror3 st) zero33) as (g & E').
  assert (H : on_face3 unit_box3 FX 0 0 0) by (unfold on_face3, in_box3; cbn; lia).
  assert (H' : on_face3 (mirror_box3 unit_box3) FX 1 0 0) by (unfold on_face3, in_box3; cbn; lia).
  specialize (M _ _ _ _ _ _ _ _ _ _ E E' H). cbn [mirror_face3] in M. replace (1 - 0)%Z with 1%Z in M by lia.
  rewrite (beckermann_law3 _ _ _ _ _ _ _ _ _ _ _ _ E H), (beckermann_law3 _ _ _ _ _ _ _ _ _ _ _ _ E' H') in M. revert M. unfold beckermann_law, low3, mirror3, st.
  cbn [Z.sub Z.add Z.opp Z.ltb Z.compare Z.pos_sub]. cbn [fst snd]. rewrite !hface_arith. unfold mean. cbn [interp_func val]. rewrite !Rmax_right, !Rmin_right by (cbn; lra). cbn. lra.
Qed.

(** * Patches and slabs *)
Lemma patches3 : forall s depth x ng dl ds dla daa t a ql qs gasR it at_,
  patch_free3 (scalar_op3 s depth) /\ patch_free3 (wang_op3 dl ds dla daa t a depth) /\ patch_free3 (kks_op3 dl ql ds qs gasR it at_) /\
  patch_free3 (beckermann_op3 dl ds it at_) /\
  (with_phaseB s = false -> (0 <= ng)%Z -> x <> PB -> patch_free3 (T_op3 s ng 1 x)) /\
  (no_interfaces s -> (1 < depth)%Z -> valid s x -> patch_free3 (T_op3 s ng depth x)).
Proof.
  intros. split; [eapply law_patch3, scalar_has_law3 |]. split; [eapply law_patch3, wang_has_law3 |]. split; [eapply law_patch3, pfm_law3 |].
  split; [eapply law_patch3, beckermann_law3 |]. split; [intros; eapply law_patch3, T_single_has_law3; auto |].
  intros N D X b b' st old old' f f' d i j k E E' H H'.
  destruct (T_op3_inv _ _ _ _ _ _ _ _ E) as (g & c & C & G & ->). destruct (T_op3_inv _ _ _ _ _ _ _ _ E') as (g' & c' & C' & G' & ->).
  rewrite C in C'. injection C' as <-.
  rewrite (T_multi_at3 s ng depth b _ _ _ g x d i j k c C D X G H), (T_multi_at3 s ng depth b' _ _ _ g' x d i j k c C D X G' H').
  rewrite !(no_inside3 s x _ (fun i j k => fst (st i j k)) (fun i j k => snd (st i j k)) d i j k N). reflexivity.
Qed.
Lemma planes3 : forall s depth ng x dl ds dla daa t a ql qs gasR it at_,
  as_in_plane any_face (scalar_op3 s depth) (scalar_op s depth) /\
  as_in_plane any_face (wang_op3 dl ds dla daa t a depth) (wang_op dl ds dla daa t a depth) /\
  as_in_plane any_face (kks_op3 dl ql ds qs gasR it at_) (kks_op dl ql ds qs gasR it at_) /\
  as_in_plane any_face (beckermann_op3 dl ds it at_) (beckermann_op dl ds it at_) /\
  (with_phaseB s = false -> (0 <= ng)%Z -> x <> PB -> as_in_plane any_face (T_op3 s ng 1 x) (T_op s ng 1 x)).
Proof.
  intros. split; [apply scalar_plane |]. split; [apply wang_plane |]. split; [apply kks_plane |]. split; [apply beckermann_plane |]. apply T_single_plane.
Qed.
Lemma T_planes3 : forall s depth ng x, no_interfaces s -> (1 < depth)%Z ->
  (with_phaseB s = true -> as_in_plane (fun d3 _ => x = PB -> d3 = FZ -> (members s PB <= 1)%Z) (T_op3 s ng depth x) (T_op s ng depth x)) /\
  (with_phaseB s = false -> as_in_plane any_face (T_op3 s ng depth PA) (T_op s ng depth PA)) /\
  (with_phaseB s = false -> as_in_plane matching_face (T_op3 s ng depth PL) (T_op s ng depth PL)).
Proof.
  intros s depth ng x N D. split; [| split]; intro B.
  - pose proof (T_multi_plane s ng depth x N D ltac:(intro; congruence)) as [P1 P2]. split; [exact P1 |].
    intros; eapply P2; eauto. unfold same_face. rewrite B. assumption.
  - pose proof (T_multi_plane s ng depth PA N D ltac:(intro; discriminate)) as [P1 P2]. split; [exact P1 |].
    intros; eapply P2; eauto. unfold same_face. rewrite B. discriminate.
  - pose proof (T_multi_plane s ng depth PL N D ltac:(intro; discriminate)) as [P1 P2]. split; [exact P1 |].
    intros; eapply P2; eauto. unfold same_face. rewrite B. auto.
Qed.
Lemma T_slab3 : forall s ng depth x b3 b2 phi temp old3 old2 f3 f2 d3 d2 i j k, (1 < depth)%Z -> valid s x ->
  xl b3 = lo0 b2 -> xu b3 = hi0 b2 -> yl b3 = lo1 b2 -> yu b3 = hi1 b2 ->
  T_setDiffusion3 s b3 ng depth (fun i j _ => phi i j) (fun i j _ => temp i j) old3 = Some f3 -> T_setDiffusion s b2 ng depth phi temp old2 = Some f2 ->
  matching_face d3 d2 -> on_face3 b3 d3 i j k -> at_face3 (get33 f3 x) d3 i j k = at_face (get3 f2 x) d2 i j.
Proof.
  intros s ng depth x b3 b2 phi temp old3 old2 f3 f2 d3 d2 i j k D X X0 X1 Y0 Y1 E3 E2 M H.
  destruct (interpChar (itp s)) as [c |] eqn:C; [| unfold T_setDiffusion in E2; rewrite C in E2; discriminate].
  assert (H2 : on_face b2 d2 i j).
  { destruct d3, d2; cbn in M; try tauto; unfold on_face, x_face, y_face, in_box; unfold on_face3, in_box3 in H; lia. }
  rewrite (T_multi_at3 s ng depth b3 _ _ _ f3 x d3 i j k c C D X E3 H), (T_multi_at s ng depth b2 _ _ _ f2 x d2 i j D X E2 H2). f_equal.
  - unfold T_weight3, T_multi_law, T_rate3. rewrite C. unfold valid in X. destruct d3, d2; cbn in M; try tauto; unfold low; cbn [low3 partner lower fst snd];
      destruct (with_phaseB s); destruct x; try reflexivity; exfalso; apply X; reflexivity.
  - unfold from_inside3, from_inside. rewrite X0, X1, Y0, Y1.
    assert (K : ((zl b3 <=? k) && (k <=? zu b3))%Z = true).
    { destruct d3, d2; cbn in M; try tauto; unfold on_face3, in_box3 in H; destruct (Z.leb_spec (zl b3) k), (Z.leb_spec k (zu b3)); cbn; lia. }
    destruct d3, d2; cbn in M; try tauto; unfold low; cbn [low3 lower fst snd]; rewrite K, !andb_true_r; reflexivity.
Qed.
(** the default of the interfaces near the boundary of a patch *)
Definition ex_TI : strategy := ex_strategy 2 1 0 false (fun x y => match x, y with PA, PL => 1 | _, _ => 0 end) LINEAR "a".
Definition half4 : arr4 := fun _ _ _ _ => 1 / 2.
Lemma cell_half : forall x, x <> PB -> cell_T_interface ex_TI x (fun _ => 1 / 2, 1) = 1.
Proof.
  intros x X. assert (G : forall p T, pair_rate ex_TI PA PL T * contact (norderpA ex_TI) (of_phase ex_TI PA (fun _ => 1 / 2)) 1 (of_phase ex_TI PL (fun _ => 1 / 2)) = 1 /\ pair_rate ex_TI PA PA T * p = 0).
  { intros p T. unfold pair_rate, active. cbn [ex_TI ex_strategy dpair qpair gas_constant norderpA]. rewrite Rmax_right, Rmax_left by lra.
    replace (- (0 / 8) * (1 / T)) with 0 by (unfold Rdiv; ring). rewrite exp_0. split; [| ring]. unfold contact, total.
    rewrite !sumZ_one. unfold of_phase. rewrite presence_half. ring. }
  unfold cell_T_interface. change (with_phaseB ex_TI) with false. cbv iota. destruct x; [apply (G 0) | | congruence].
  destruct (G (own_contact (norderpA ex_TI) (of_phase ex_TI PA (fun _ => 1 / 2))) 1) as [-> ->]. ring.
Qed.
Lemma T_patch_refuted3 : exists s depth, with_phaseB s = false /\ (1 < depth)%Z /\ implemented (itp s) /\ avg s = "a"%char /\ norderp s = 2%Z /\ norderpA s = 1%Z /\
  ~ patch_free3 (T_op3 s 1 depth PL) /\ ~ patch_free3 (T_op3 s 1 depth PA).
Proof.
  exists ex_TI, 2%Z. split; [reflexivity |]. split; [lia |]. split; [left; reflexivity |]. split; [reflexivity |]. split; [reflexivity |]. split; [reflexivity |].
  assert (O : pairs_ok ex_TI = true).
  { unfold pairs_ok, pair_list. cbn [ex_TI ex_strategy with_phaseB app filter fst snd dpair]. destruct (Rlt_dec 0 1), (Rlt_dec 0 0); reflexivity. }
  set (st := fun (i j k : Z) => ((fun _ => 1 / 2) : Z -> R, 1)). set (big := mk_box3 0 0 0 0 0 1 1 1 1).
  assert (B : forall x, x <> PB -> ~ patch_free3 (T_op3 ex_TI 1 2 x)).
  { intros x X P.
    assert (D : forall b, exists f, T_setDiffusion3 ex_TI b 1 2 (fun i j k => fst (st i j k)) (fun i j k => snd (st i j k)) (mk_coefs33 zero33 zero33 zero33) = Some f).
    { intro b. apply T_some3; [exact O | left; reflexivity | left; reflexivity | discriminate]. }
    destruct (D unit_box3) as (f & E). destruct (D big) as (g & E').
    assert (H : on_face3 unit_box3 FZ 0 0 1) by (unfold on_face3, in_box3; cbn; lia).
    assert (H' : on_face3 big FZ 0 0 1) by (unfold on_face3, in_box3; cbn; lia).
    specialize (P unit_box3 big st zero33 zero33 (get33 f x) (get33 g x) FZ 0%Z 0%Z 1%Z). unfold T_op3 in P. rewrite E, E' in P. specialize (P eq_refl eq_refl H H').
    rewrite (T_multi_at3 ex_TI 1 2 _ _ _ _ f x FZ 0 0 1 "l"%char eq_refl ltac:(lia) ltac:(intro; exact X) E H),
      (T_multi_at3 ex_TI 1 2 _ _ _ _ g x FZ 0 0 1 "l"%char eq_refl ltac:(lia) ltac:(intro; exact X) E' H') in P.
    apply Rplus_eq_reg_l in P. revert P. unfold from_inside3, st. cbn [low3 fst snd unit_box3 big xl xu yl yu zl zu]. unfold mean.
    cbn [Z.sub Z.add Z.opp Z.leb Z.compare Pos.compare Pos.compare_cont Z.pos_sub andb].
    rewrite !cell_half by exact X. lra. }
  split; apply B; discriminate.
Qed.

(** * Interface diffusion and renumbering *)
Lemma scalar_faces3 : forall s depth b phi old old' f g d i j k, scalar_setDiffusion3 s b depth phi old = Some f -> scalar_setDiffusion3 (no_pairs s) b depth phi old' = Some g ->
  on_face3 b d i j k ->
  at_face3 f d i j k = at_face3 g d i j k + (if with_phaseB s || (1 <? depth)%Z then mean (cell_interface s (low3 phi d i j k)) (cell_interface s (phi i j k)) else 0).
Proof.
  intros s depth b phi old old' f g d i j k E E' H.
  destruct (interpChar (itp s)) as [c |] eqn:C; [| unfold scalar_setDiffusion3 in E; rewrite C in E; discriminate].
  rewrite (scalar_at3 _ _ _ _ _ _ _ _ _ _ _ C E H), (scalar_at3 (no_pairs s) _ _ _ _ _ _ _ _ _ c C E' H).
  rewrite !(no_cell (no_pairs s)) by (intros x y; cbn; lra). unfold has_interfaces. cbn [no_pairs with_phaseB].
  change (scalar_base (no_pairs s) depth c) with (scalar_base s depth c). destruct (with_phaseB s || (1 <? depth)%Z); unfold mean; lra.
Qed.
Lemma T_faces3 : forall s ng depth b phi temp old old' f g x d i j k, (1 < depth)%Z -> valid s x ->
  T_setDiffusion3 s b ng depth phi temp old = Some f -> T_setDiffusion3 (no_pairs s) b ng depth phi temp old' = Some g -> on_face3 b d i j k ->
  at_face3 (get33 f x) d i j k = at_face3 (get33 g x) d i j k + from_inside3 b (fun i j k => cell_T_interface s x (phi i j k, temp i j k)) d i j k.
Proof.
  intros s ng depth b phi temp old old' f g x d i j k D X E E' H.
  destruct (interpChar (itp s)) as [c |] eqn:C; [| unfold T_setDiffusion3 in E; rewrite C in E; discriminate].
  rewrite (T_multi_at3 s ng _ b _ _ _ f x d i j k c C D X E H), (T_multi_at3 (no_pairs s) ng _ b _ _ _ g x d i j k c C D X E' H).
  change (T_weight3 (no_pairs s) c depth x d) with (T_weight3 s c depth x d). change (T_rate3 (no_pairs s) x) with (T_rate3 s x).
  rewrite (no_inside3 (no_pairs s)) by (intros y z; cbn; lra). ring.
Qed.
Lemma wang_faces3 : forall dl ds dla daa t a depth b st old old' f g d i j k, wang_op3 dl ds dla daa t a depth b st old = Some f -> wang_op3 dl ds 0 0 t a depth b st old' = Some g ->
  on_face3 b d i j k ->
  at_face3 f d i j k = at_face3 g d i j k +
    daa * mean (own_contact depth (fun m => fst (low3 st d i j k) (m - 1)%Z)) (own_contact depth (fun m => fst (st i j k) (m - 1)%Z)) +
    16 * dla * mean ((snd (low3 st d i j k) * (1 - snd (low3 st d i j k))) ^ 2) ((snd (st i j k) * (1 - snd (st i j k))) ^ 2).
Proof.
  intros dl ds dla daa t a depth b st old old' f g d i j k E E' H.
  rewrite (wang_has_law3 _ _ _ _ _ _ _ _ _ _ _ _ _ _ _ E H), (wang_has_law3 _ _ _ _ _ _ _ _ _ _ _ _ _ _ _ E' H). unfold wang_law.
  destruct (interpChar t) eqn:C; [ring |]. unfold wang_op3, wang_setDiffusion3 in E. rewrite C in E. discriminate.
Qed.
Lemma scalar_exchange3 : forall s x m l b phi old old' f f' d i j k, layout s -> valid s x -> (1 <= m <= count_of s x)%Z -> (1 <= l <= count_of s x)%Z ->
  scalar_setDiffusion3 s b (norderp s) phi old = Some f ->
  scalar_setDiffusion3 s b (norderp s) (fun i j k => exchange (position s x m) (position s x l) (phi i j k)) old' = Some f' ->
  on_face3 b d i j k -> at_face3 f' d i j k = at_face3 f d i j k.
Proof.
  intros s x m l b phi old old' f f' d i j k L V M H E E' F.
  pose proof (scalar_plane s (norderp s)) as P.
  destruct (transfer _ _ _ _ b phi old f d i j k P E F I) as (g & G & O & ->).
  destruct (transfer _ _ _ _ b _ old' f' d i j k P E' F I) as (g' & G' & _ & ->).
  unfold scalar_op in G, G'. rewrite low3_app in G'.
  apply (scalar_exchange s x m l unit_box (two_cells (low3 phi d i j k) (phi i j k)) zero_faces zero_faces g g' DX 0%Z 0%Z L V M H G); [| exact O].
  rewrite <- G'. f_equal. apply FunctionalExtensionality.functional_extensionality. intro p. apply FunctionalExtensionality.functional_extensionality. intro q.
  unfold two_cells. destruct (p <? 0)%Z; reflexivity.
Qed.
Lemma wang_exchange3 : forall dl ds dla daa t a depth b st old old' f f' d i j k p q, (0 <= p < depth)%Z -> (0 <= q < depth)%Z ->
  wang_op3 dl ds dla daa t a depth b st old = Some f ->
  wang_op3 dl ds dla daa t a depth b (fun i j k => (exchange p q (fst (st i j k)), snd (st i j k))) old' = Some f' -> on_face3 b d i j k ->
  at_face3 f' d i j k = at_face3 f d i j k.
Proof.
  intros dl ds dla daa t a depth b st old old' f f' d i j k p q P Q E E' H.
  rewrite (wang_has_law3 _ _ _ _ _ _ _ _ _ _ _ _ _ _ _ E H), (wang_has_law3 _ _ _ _ _ _ _ _ _ _ _ _ _ _ _ E' H). unfold wang_law.
  rewrite (low3_app _ _ (fun c => (exchange p q (fst c), snd c)) st). cbn [fst snd].
  rewrite !own_exchange by assumption. reflexivity.
Qed.
Lemma T_exchange3 : forall s ng x m l b phi temp old old' f f' y d i j k, layout s -> valid s x -> valid s y -> (1 <= m <= count_of s x)%Z -> (1 <= l <= count_of s x)%Z ->
  (y = PB -> d <> FZ) ->
  T_setDiffusion3 s b ng (norderp s) phi temp old = Some f ->
  T_setDiffusion3 s b ng (norderp s) (fun i j k => exchange (position s x m) (position s x l) (phi i j k)) temp old' = Some f' ->
  on_face3 b d i j k -> at_face3 (get33 f' y) d i j k = at_face3 (get33 f y) d i j k.
Proof.
  intros s ng x m l b phi temp old old' f f' y d i j k L V W K H Y E E' F.
  assert (M : (1 < norderp s)%Z) by (unfold layout in L; destruct (with3phases s); [lia |]; destruct (with_phaseB s); lia).
  destruct (interpChar (itp s)) as [c |] eqn:C; [| unfold T_setDiffusion3 in E; rewrite C in E; discriminate].
  rewrite (T_multi_at3 s ng _ b _ _ _ f y d i j k c C M W E F), (T_multi_at3 s ng _ b _ _ _ f' y d i j k c C M W E' F). f_equal.
  - f_equal. rewrite low3_app.
    replace (partner (fun i j k => exchange (position s x m) (position s x l) (phi i j k)) d i j k)
      with (exchange (position s x m) (position s x l) (partner phi d i j k)) by (destruct d; reflexivity).
    generalize (partner phi d i j k). intro w. set (u := low3 phi d i j k). set (v := phi i j k). unfold T_weight3. destruct (counts s L) as [NA NB].
    destruct (with_phaseB s) eqn:B.
    + rewrite NA, NB by reflexivity. assert (VB : valid s PB) by (intro; congruence). assert (VA : valid s PA) by (intro; congruence).
      destruct y; [apply liquid_exchange; auto | apply solids_exchange; auto |].
      destruct d; [apply solids_exchange; auto | apply solids_exchange; auto | exfalso; apply Y; reflexivity].
    + assert (W3 : with3phases s = false) by (unfold layout in L; destruct (with3phases s); [destruct L; congruence | reflexivity]).
      assert (PLn : forall p, p (norderp s - 1)%Z = of_phase s PL p 1) by (intro p; unfold of_phase, first_of; rewrite W3; f_equal; lia).
      assert (NM : (norderp s - 1 = norderpA s)%Z) by (unfold layout in L; rewrite W3, B in L; lia).
      assert (PAn : forall u v, hface_sum c (avg s) (norderp s - 1) (fun k => u (k - 1)%Z) (fun k => v (k - 1)%Z) = solids s c (count_of s PA) PA u v).
      { intros u' v'. unfold solids, hface_sum. rewrite !sum_loop, NM. cbn [count_of]. do 2 f_equal. apply sumZ_ext. intros r _. unfold of_phase, first_of. rewrite W3.
        replace (0 + r - 1)%Z with (r - 1)%Z by lia. reflexivity. }
      assert (VA : valid s PA) by (intro; congruence).
      destruct y; [| | exfalso; apply W; [exact B | reflexivity]].
      * assert (Q := fun u v => liquid_exchange s c x m l u v L V K H). unfold liquid in Q. rewrite !PLn. apply Q.
      * rewrite !PAn. apply solids_exchange; auto.
  - apply from_inside_ext3. intros. apply (proj2 (cell_exchange s x m l _ L V K H)).
Qed.
Lemma T_exchange_refuted3 : exists s m l b phi temp old f f', layout s /\ valid s PB /\ (1 <= m <= count_of s PB)%Z /\ (1 <= l <= count_of s PB)%Z /\ no_interfaces s /\ itp s = LINEAR /\
  avg s = "a"%char /\ T_setDiffusion3 s b 1 (norderp s) phi temp old = Some f /\
  T_setDiffusion3 s b 1 (norderp s) (fun i j k => exchange (position s PB m) (position s PB l) (phi i j k)) temp old = Some f' /\
  on_face3 b FZ 0 0 0 /\ at_face3 (dB f) FZ 0 0 0 = 0 /\ at_face3 (dB f') FZ 0 0 0 = 1.
Proof.
  set (phi' := fun i j k => exchange (position ex_T4 PB 1) (position ex_T4 PB 2) (first_B i j k)).
  assert (D : forall p, exists f, T_setDiffusion3 ex_T4 unit_box3 1 4 p ones3 zeros33 = Some f).
  { intro p. apply T_some3; [apply nil_ok, no_ex | left; reflexivity | left; reflexivity | reflexivity]. }
  destruct (D first_B) as (f & E). destruct (D phi') as (f' & E').
  exists ex_T4, 1%Z, 2%Z, unit_box3, first_B, ones3, zeros33, f, f'. split; [cbn; lia |]. split; [intro; discriminate |]. split; [cbn; lia |]. split; [cbn; lia |].
  split; [apply no_ex |]. split; [reflexivity |]. split; [reflexivity |]. split; [exact E |]. split; [exact E' |].
  assert (OZ : on_face3 unit_box3 FZ 0 0 0) by (unfold on_face3, in_box3; cbn; lia). split; [exact OZ |].
  destruct (T_last_B_values f E) as [_ V2]. split; [exact (V2 PB) |].
  change (dB f') with (get33 f' PB).
  rewrite (T_multi_at3 ex_T4 1 4 _ _ _ _ f' PB FZ 0 0 0 "l"%char eq_refl ltac:(lia) ltac:(intro; discriminate) E' OZ).
  rewrite no_inside3 by apply no_ex. unfold T_rate3. cbn [ex_T4 ex_strategy dbulk qbulk gas_constant]. rewrite arrhenius_one, Rmult_1_r, Rplus_0_r.
  unfold T_weight3. change (with_phaseB ex_T4) with true. cbv iota. change (nB ex_T4) with 2%Z. unfold hface_last.
  match goal with |- context [do_loop 1 2 ?g 0] => change (do_loop 1 2 g 0) with (g 2%Z (g 1%Z 0)) end.
  cbv beta. unfold of_phase, phi', exchange, position, first_B, low3, ex_T4, ex_strategy. cbn [avg first_of norderpA with3phases with_phaseB Z.add Z.sub Z.opp Z.eqb Pos.eqb Pos.add Pos.succ Z.pos_sub Pos.pred_double average_func val]. rewrite lin01; cbn; lra.
Qed.
