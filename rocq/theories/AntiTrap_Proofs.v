From Coq Require Import Reals ZArith List Lra Lia Bool.
From Verif Require Import Grid_Model Grid_Spec Grid_Proofs AntiTrap_Model AntiTrap_Spec.
Open Scope R_scope.

Lemma gtb_true : forall a b, gtb a b = true <-> b < a.
Proof. intros a b. unfold gtb. destruct (Rlt_dec b a); split; intros; auto; discriminate. Qed.
Lemma at_tol2_pos : 0 < at_tol2.
Proof. unfold at_tol2, at_tol. apply Rmult_lt_0_compat; apply Rinv_0_lt_compat; apply pow_lt; lra. Qed.
Lemma gtb_abs : forall x y, gtb (Rabs (x * x + y * y)) at_tol2 = gtb (x * x + y * y) at_tol2.
Proof. intros x y. rewrite Rabs_right; auto. pose proof (Rle_0_sqr x). pose proof (Rle_0_sqr y). unfold Rsqr in *. lra. Qed.

(** contribution of the two-phase kernel along component [g] of the gradient (gx,gy) *)
Definition contrib (gx gy g alpha dc dpdt : R) : R :=
  if gtb (gx * gx + gy * gy) at_tol2 then alpha * (g / sqrt (gx * gx + gy * gy)) * dc * dpdt else 0.

Lemma loop_upd3 : forall n (v : Z -> R) (f : arr3) i j a b c,
  do_loop 1 n (fun ic f => upd3 f i j ic (f i j ic + v ic)) f a b c =
  f a b c + (if (i =? a)%Z && (j =? b)%Z then (if inb 1 n c then v c else 0) else 0).
Proof.
  intros n v f i j a b c.
  rewrite (obs_loop _ (fun s : arr3 => s a b c) 1 n (fun ic => if (ic =? c)%Z then (if (i =? a)%Z && (j =? b)%Z then v ic else 0) else 0)).
  - f_equal. rewrite (sumZ_single 1 n c (fun ic => if (i =? a)%Z && (j =? b)%Z then v ic else 0)).
    destruct ((i =? a)%Z && (j =? b)%Z); destruct (inb 1 n c); reflexivity.
  - intros ic s _. unfold upd3. rewrite (Z.eqb_sym a i), (Z.eqb_sym b j), (Z.eqb_sym c ic).
    destruct (Z.eqb_spec i a) as [-> |]; destruct (Z.eqb_spec j b) as [-> |]; destruct (Z.eqb_spec ic c) as [-> |]; cbn; ring.
Qed.

Section Two.
Variables (lo0 hi0 lo1 hi1 : Z) (dx0 dx1 : R) (phase : arr2) (cl ca : arr3) (ncomp : Z) (dphidt : arr2) (alpha : R).
Definition two_x (a b c : Z) : R :=
  contrib (xface_dx dx0 phase a b) (xface_dy dx1 phase a b) (xface_dx dx0 phase a b) alpha
    (mean (cl (a - 1)%Z b c) (cl a b c) - mean (ca (a - 1)%Z b c) (ca a b c)) (mean (dphidt (a - 1)%Z b) (dphidt a b)).
Definition two_y (a b c : Z) : R :=
  contrib (yface_dx dx0 phase a b) (yface_dy dx1 phase a b) (yface_dy dx1 phase a b) alpha
    (mean (cl a (b - 1)%Z c) (cl a b c) - mean (ca a (b - 1)%Z c) (ca a b c)) (mean (dphidt a (b - 1)%Z) (dphidt a b)).

Lemma two_fst : forall flux a b c,
  fst (antitrapping lo0 hi0 lo1 hi1 dx0 dx1 phase cl ca ncomp dphidt alpha flux) a b c =
  fst flux a b c + (if inb lo0 (hi0 + 1) a && inb lo1 hi1 b then (if inb 1 ncomp c then two_x a b c else 0) else 0).
Proof.
  intros [f0 f1] a b c. unfold antitrapping. cbn [fst].
  rewrite (obs_cells _ (fun s : arr3 => s a b c) lo0 (hi0 + 1) lo1 hi1
    (fun i j => if ((i =? a) && (j =? b))%Z then (if inb 1 ncomp c then two_x i j c else 0) else 0)).
  - f_equal. apply (sum_box_single lo0 (hi0 + 1) lo1 hi1 a b (fun i j => if inb 1 ncomp c then two_x i j c else 0)).
  - intros i j s _. cbv zeta. unfold two_x, contrib. rewrite gtb_abs.
    destruct (gtb _ at_tol2) eqn:E.
    + rewrite (loop_upd3 ncomp (fun ic => alpha * (xface_dx dx0 phase i j / sqrt (xface_dx dx0 phase i j * xface_dx dx0 phase i j + xface_dy dx1 phase i j * xface_dy dx1 phase i j)) * (1 / 2 * (cl (i - 1)%Z j ic + cl i j ic) - 1 / 2 * (ca (i - 1)%Z j ic + ca i j ic)) * (1 / 2 * (dphidt (i - 1)%Z j + dphidt i j))) s i j a b c).
      destruct ((i =? a)%Z && (j =? b)%Z); [| ring]. destruct (inb 1 ncomp c); [| ring]. unfold mean, Rdiv. ring.
    + destruct ((i =? a)%Z && (j =? b)%Z); destruct (inb 1 ncomp c); ring.
Qed.
Lemma two_snd : forall flux a b c,
  snd (antitrapping lo0 hi0 lo1 hi1 dx0 dx1 phase cl ca ncomp dphidt alpha flux) a b c =
  snd flux a b c + (if inb lo0 hi0 a && inb lo1 (hi1 + 1) b then (if inb 1 ncomp c then two_y a b c else 0) else 0).
Proof.
  intros [f0 f1] a b c. unfold antitrapping. cbn [snd].
  rewrite (obs_cells _ (fun s : arr3 => s a b c) lo0 hi0 lo1 (hi1 + 1)
    (fun i j => if ((i =? a) && (j =? b))%Z then (if inb 1 ncomp c then two_y i j c else 0) else 0)).
  - f_equal. apply (sum_box_single lo0 hi0 lo1 (hi1 + 1) a b (fun i j => if inb 1 ncomp c then two_y i j c else 0)).
  - intros i j s _. cbv zeta. unfold two_y, contrib. rewrite gtb_abs.
    destruct (gtb _ at_tol2) eqn:E.
    + rewrite (loop_upd3 ncomp (fun ic => alpha * (yface_dy dx1 phase i j / sqrt (yface_dx dx0 phase i j * yface_dx dx0 phase i j + yface_dy dx1 phase i j * yface_dy dx1 phase i j)) * (1 / 2 * (cl i (j - 1)%Z ic + cl i j ic) - 1 / 2 * (ca i (j - 1)%Z ic + ca i j ic)) * (1 / 2 * (dphidt i (j - 1)%Z + dphidt i j))) s i j a b c).
      destruct ((i =? a)%Z && (j =? b)%Z); [| ring]. destruct (inb 1 ncomp c); [| ring]. unfold mean, Rdiv. ring.
    + destruct ((i =? a)%Z && (j =? b)%Z); destruct (inb 1 ncomp c); ring.
Qed.
End Two.

(** ** bound *)
Lemma comp_le_norm : forall x y, 0 < x * x + y * y -> Rabs (x / sqrt (x * x + y * y)) <= 1.
Proof.
  intros x y H. pose proof (sqrt_lt_R0 _ H) as HS. unfold Rdiv. rewrite Rabs_mult, (Rabs_right (/ _)) by (left; apply Rinv_0_lt_compat; auto).
  apply Rmult_le_reg_r with (sqrt (x * x + y * y)); auto.
  rewrite Rmult_assoc, Rinv_l, Rmult_1_r, Rmult_1_l by lra.
  rewrite <- sqrt_Rsqr_abs. apply sqrt_le_1_alt. unfold Rsqr. pose proof (Rle_0_sqr y). unfold Rsqr in *. lra.
Qed.
Lemma contrib_bound_x : forall gx gy alpha dc dpdt, Rabs (contrib gx gy gx alpha dc dpdt) <= Rabs alpha * Rabs dc * Rabs dpdt.
Proof.
  intros. unfold contrib. destruct (gtb _ at_tol2) eqn:E.
  - apply gtb_true in E. pose proof at_tol2_pos.
    rewrite !Rabs_mult. pose proof (comp_le_norm gx gy ltac:(lra)) as B.
    assert (0 <= Rabs alpha * Rabs dc * Rabs dpdt) by (repeat apply Rmult_le_pos; apply Rabs_pos).
    replace (Rabs alpha * Rabs (gx / sqrt (gx * gx + gy * gy)) * Rabs dc * Rabs dpdt)
      with (Rabs (gx / sqrt (gx * gx + gy * gy)) * (Rabs alpha * Rabs dc * Rabs dpdt)) by ring.
    rewrite <- (Rmult_1_l (Rabs alpha * Rabs dc * Rabs dpdt)) at 2. apply Rmult_le_compat_r; auto.
  - rewrite Rabs_R0. repeat apply Rmult_le_pos; apply Rabs_pos.
Qed.
Lemma contrib_swap : forall gx gy g alpha dc dpdt, contrib gx gy g alpha dc dpdt = contrib gy gx g alpha dc dpdt.
Proof. intros. unfold contrib. rewrite (Rplus_comm (gx * gx)). reflexivity. Qed.
Lemma contrib_bound_y : forall gx gy alpha dc dpdt, Rabs (contrib gx gy gy alpha dc dpdt) <= Rabs alpha * Rabs dc * Rabs dpdt.
Proof. intros. rewrite contrib_swap. apply contrib_bound_x. Qed.

Lemma two_bounded : forall lo0 hi0 lo1 hi1 dx0 dx1 phase cl ca ncomp dphidt alpha flux a b c,
  let flux' := antitrapping lo0 hi0 lo1 hi1 dx0 dx1 phase cl ca ncomp dphidt alpha flux in
  Rabs (fst flux' a b c - fst flux a b c) <=
    Rabs alpha * Rabs (mean (cl (a - 1)%Z b c) (cl a b c) - mean (ca (a - 1)%Z b c) (ca a b c)) * Rabs (mean (dphidt (a - 1)%Z b) (dphidt a b)) /\
  Rabs (snd flux' a b c - snd flux a b c) <=
    Rabs alpha * Rabs (mean (cl a (b - 1)%Z c) (cl a b c) - mean (ca a (b - 1)%Z c) (ca a b c)) * Rabs (mean (dphidt a (b - 1)%Z) (dphidt a b)).
Proof.
  intros. unfold flux'. rewrite two_fst, two_snd. unfold Rminus at 1 3. rewrite !Rplus_assoc. split.
  - match goal with |- Rabs ?x <= ?y => replace x with (if inb lo0 (hi0 + 1) a && inb lo1 hi1 b then (if inb 1 ncomp c then two_x dx0 dx1 phase cl ca dphidt alpha a b c else 0) else 0) by ring end.
    pose proof (contrib_bound_x (xface_dx dx0 phase a b) (xface_dy dx1 phase a b) alpha (mean (cl (a - 1)%Z b c) (cl a b c) - mean (ca (a - 1)%Z b c) (ca a b c)) (mean (dphidt (a - 1)%Z b) (dphidt a b))) as B.
    fold (two_x dx0 dx1 phase cl ca dphidt alpha a b c) in B.
    destruct (inb lo0 (hi0 + 1) a && inb lo1 hi1 b); [destruct (inb 1 ncomp c); auto |]; rewrite Rabs_R0; repeat apply Rmult_le_pos; apply Rabs_pos.
  - match goal with |- Rabs ?x <= ?y => replace x with (if inb lo0 hi0 a && inb lo1 (hi1 + 1) b then (if inb 1 ncomp c then two_y dx0 dx1 phase cl ca dphidt alpha a b c else 0) else 0) by ring end.
    pose proof (contrib_bound_y (yface_dx dx0 phase a b) (yface_dy dx1 phase a b) alpha (mean (cl a (b - 1)%Z c) (cl a b c) - mean (ca a (b - 1)%Z c) (ca a b c)) (mean (dphidt a (b - 1)%Z) (dphidt a b))) as B.
    fold (two_y dx0 dx1 phase cl ca dphidt alpha a b c) in B.
    destruct (inb lo0 hi0 a && inb lo1 (hi1 + 1) b); [destruct (inb 1 ncomp c); auto |]; rewrite Rabs_R0; repeat apply Rmult_le_pos; apply Rabs_pos.
Qed.

(** direction: the flux points along the solid gradient when solid grows into a richer liquid *)
Lemma two_direction : forall lo0 hi0 lo1 hi1 dx0 dx1 phase cl ca ncomp dphidt alpha flux a b c,
  0 < dx0 -> 0 < alpha -> in_box lo0 (hi0 + 1) lo1 hi1 a b -> (1 <= c <= ncomp)%Z ->
  mean (ca (a - 1)%Z b c) (ca a b c) < mean (cl (a - 1)%Z b c) (cl a b c) ->
  0 < mean (dphidt (a - 1)%Z b) (dphidt a b) -> at_tol * dx0 < phase a b - phase (a - 1)%Z b ->
  fst flux a b c < fst (antitrapping lo0 hi0 lo1 hi1 dx0 dx1 phase cl ca ncomp dphidt alpha flux) a b c.
Proof.
  intros lo0 hi0 lo1 hi1 dx0 dx1 phase cl ca ncomp dphidt alpha flux a b c Hdx Ha [Hi Hj] Hc Hcl Hd Hp.
  rewrite two_fst. destruct (inb_spec lo0 (hi0 + 1) a); [| lia]. destruct (inb_spec lo1 hi1 b); [| lia]. destruct (inb_spec 1 ncomp c); [| lia].
  cbn [andb]. unfold two_x, contrib.
  assert (Hg : at_tol < xface_dx dx0 phase a b).
  { unfold xface_dx. apply Rmult_lt_reg_l with dx0; auto. replace (dx0 * (1 / dx0 * (phase a b - phase (a - 1)%Z b))) with (phase a b - phase (a - 1)%Z b) by (field; lra). lra. }
  assert (Ht : 0 < at_tol) by (unfold at_tol; apply Rinv_0_lt_compat; apply pow_lt; lra).
  set (g := xface_dx dx0 phase a b) in *. set (h := xface_dy dx1 phase a b).
  assert (Hn : at_tol2 < g * g + h * h).
  { pose proof (Rle_0_sqr h). unfold Rsqr in H. unfold at_tol2.
    assert (at_tol * at_tol < g * g) by (apply Rmult_gt_0_lt_compat; lra). lra. }
  destruct (gtb _ at_tol2) eqn:E; [| exfalso; apply gtb_true in Hn; congruence].
  assert (0 < sqrt (g * g + h * h)) by (apply sqrt_lt_R0; pose proof at_tol2_pos; lra).
  assert (0 < g / sqrt (g * g + h * h)) by (apply Rdiv_lt_0_compat; lra).
  assert (0 < alpha * (g / sqrt (g * g + h * h)) * (mean (cl (a - 1)%Z b c) (cl a b c) - mean (ca (a - 1)%Z b c) (ca a b c)) * mean (dphidt (a - 1)%Z b) (dphidt a b)).
  { apply Rmult_lt_0_compat; [apply Rmult_lt_0_compat; [apply Rmult_lt_0_compat |] |]; lra. }
  rewrite <- (Rplus_0_r (fst flux a b c)) at 1. apply Rplus_lt_compat_l. exact H1.
Qed.

(** ** multi-order version *)
Lemma acc3_ok : forall lo hi a b c, acc3 lo hi a b c = (sumZ lo hi a, sumZ lo hi b, sumZ lo hi c).
Proof.
  intros lo hi a b c. unfold acc3.
  set (L := do_loop lo hi _ _).
  assert (E1 : fst (fst L) = 0 + sumZ lo hi a).
  { unfold L. apply (obs_loop _ (fun s : R * R * R => fst (fst s)) lo hi a). intros i [[x y] t] _. reflexivity. }
  assert (E2 : snd (fst L) = 0 + sumZ lo hi b).
  { unfold L. apply (obs_loop _ (fun s : R * R * R => snd (fst s)) lo hi b). intros i [[x y] t] _. reflexivity. }
  assert (E3 : snd L = 0 + sumZ lo hi c).
  { unfold L. apply (obs_loop _ (fun s : R * R * R => snd s) lo hi c). intros i [[x y] t] _. reflexivity. }
  destruct L as [[x y] t]. cbn in *. rewrite E1, E2, E3, !Rplus_0_l. reflexivity.
Qed.

Lemma sum_xdx : forall n dx0 phase i j, sumZ 1 n (fun p => xface_dx dx0 (comp phase p) i j) = xface_dx dx0 (total n phase) i j.
Proof. intros. unfold xface_dx, total, comp. rewrite sumZ_scal, sumZ_minus. reflexivity. Qed.
Lemma sum_ydy : forall n dx1 phase i j, sumZ 1 n (fun p => yface_dy dx1 (comp phase p) i j) = yface_dy dx1 (total n phase) i j.
Proof. intros. unfold yface_dy, total, comp. rewrite sumZ_scal, sumZ_minus. reflexivity. Qed.
Lemma sum_xdy : forall n dx1 phase i j, sumZ 1 n (fun p => xface_dy dx1 (comp phase p) i j) = xface_dy dx1 (total n phase) i j.
Proof.
  intros. unfold xface_dy, total, comp. rewrite sumZ_scal. f_equal. unfold Rminus. rewrite <- !sumZ_opp, <- !sumZ_plus.
  apply sumZ_ext. intros; ring.
Qed.
Lemma sum_ydx : forall n dx0 phase i j, sumZ 1 n (fun p => yface_dx dx0 (comp phase p) i j) = yface_dx dx0 (total n phase) i j.
Proof.
  intros. unfold yface_dx, total, comp. rewrite sumZ_scal. f_equal. unfold Rminus. rewrite <- !sumZ_opp, <- !sumZ_plus.
  apply sumZ_ext. intros; ring.
Qed.

Section Multi.
Variables (lo0 hi0 lo1 hi1 : Z) (dx0 dx1 : R) (phase : arr3) (n : Z) (cl ca : arr2) (dphidt : arr3) (alpha : R).
(* contribution with separate liquid gradient (l) and total solid gradient (s) *)
Definition contribm (lx ly l sx sy dc dpdt : R) : R :=
  if gtb (lx * lx + ly * ly) at_tol2 then
    if gtb (sx * sx + sy * sy) at_tol2 then - (alpha * (l / sqrt (lx * lx + ly * ly)) * dc * dpdt) else 0
  else 0.
Definition multi_x (a b : Z) : R :=
  contribm (xface_dx dx0 (comp phase n) a b) (xface_dy dx1 (comp phase n) a b) (xface_dx dx0 (comp phase n) a b)
    (xface_dx dx0 (total (n - 1) phase) a b) (xface_dy dx1 (total (n - 1) phase) a b)
    (mean (cl (a - 1)%Z b) (cl a b) - mean (ca (a - 1)%Z b) (ca a b))
    (mean (total (n - 1) dphidt (a - 1)%Z b) (total (n - 1) dphidt a b)).
Definition multi_y (a b : Z) : R :=
  contribm (yface_dx dx0 (comp phase n) a b) (yface_dy dx1 (comp phase n) a b) (yface_dy dx1 (comp phase n) a b)
    (yface_dx dx0 (total (n - 1) phase) a b) (yface_dy dx1 (total (n - 1) phase) a b)
    (mean (cl a (b - 1)%Z) (cl a b) - mean (ca a (b - 1)%Z) (ca a b))
    (mean (total (n - 1) dphidt a (b - 1)%Z) (total (n - 1) dphidt a b)).
Lemma sum_half : forall m (u v : Z -> R), sumZ 1 m (fun p => 1 / 2 * (u p + v p)) = mean (sumZ 1 m u) (sumZ 1 m v).
Proof. intros. rewrite sumZ_scal, sumZ_plus. unfold mean. field. Qed.

Lemma multi_fst : forall flux a b,
  fst (antitrapping_multi lo0 hi0 lo1 hi1 dx0 dx1 phase n cl ca dphidt alpha flux) a b =
  fst flux a b + (if inb lo0 (hi0 + 1) a && inb lo1 hi1 b then multi_x a b else 0).
Proof.
  intros [f0 f1] a b. unfold antitrapping_multi. cbn [fst].
  rewrite (obs_cells _ (fun s : arr2 => s a b) lo0 (hi0 + 1) lo1 hi1 (fun i j => if ((i =? a) && (j =? b))%Z then multi_x i j else 0)).
  - f_equal. apply (sum_box_single lo0 (hi0 + 1) lo1 hi1 a b multi_x).
  - intros i j s _. cbv zeta. rewrite acc3_ok, sum_xdx, sum_xdy, sum_half. unfold multi_x, contribm.
    destruct (gtb _ at_tol2) eqn:E1; [destruct (gtb (xface_dx dx0 (total (n - 1) phase) i j * _ + _) at_tol2) eqn:E2 |].
    + unfold upd2. rewrite (Z.eqb_sym a i), (Z.eqb_sym b j).
      destruct (Z.eqb_spec i a) as [-> |]; destruct (Z.eqb_spec j b) as [-> |]; cbn [andb]; try ring.
      change (total (n - 1) dphidt) with (fun i j => sumZ 1 (n - 1) (dphidt i j)). unfold mean, Rdiv. ring.
    + destruct ((i =? a) && (j =? b))%Z; ring.
    + destruct ((i =? a) && (j =? b))%Z; ring.
Qed.
Lemma multi_snd : forall flux a b,
  snd (antitrapping_multi lo0 hi0 lo1 hi1 dx0 dx1 phase n cl ca dphidt alpha flux) a b =
  snd flux a b + (if inb lo0 hi0 a && inb lo1 (hi1 + 1) b then multi_y a b else 0).
Proof.
  intros [f0 f1] a b. unfold antitrapping_multi. cbn [snd].
  rewrite (obs_cells _ (fun s : arr2 => s a b) lo0 hi0 lo1 (hi1 + 1) (fun i j => if ((i =? a) && (j =? b))%Z then multi_y i j else 0)).
  - f_equal. apply (sum_box_single lo0 hi0 lo1 (hi1 + 1) a b multi_y).
  - intros i j s _. cbv zeta. rewrite acc3_ok, sum_ydx, sum_ydy, sum_half. unfold multi_y, contribm.
    destruct (gtb _ at_tol2) eqn:E1; [destruct (gtb (yface_dx dx0 (total (n - 1) phase) i j * _ + _) at_tol2) eqn:E2 |].
    + unfold upd2. rewrite (Z.eqb_sym a i), (Z.eqb_sym b j).
      destruct (Z.eqb_spec i a) as [-> |]; destruct (Z.eqb_spec j b) as [-> |]; cbn [andb]; try ring.
      change (total (n - 1) dphidt) with (fun i j => sumZ 1 (n - 1) (dphidt i j)). unfold mean, Rdiv. ring.
    + destruct ((i =? a) && (j =? b))%Z; ring.
    + destruct ((i =? a) && (j =? b))%Z; ring.
Qed.
End Multi.

Lemma contribm_two : forall gx gy g alpha dc dpdt,
  contribm alpha (- gx) (- gy) (- g) gx gy dc dpdt = contrib gx gy g alpha dc dpdt.
Proof.
  intros. unfold contribm, contrib. replace (- gx * - gx + - gy * - gy) with (gx * gx + gy * gy) by ring.
  destruct (gtb _ _); auto. unfold Rdiv. ring.
Qed.

Lemma multi_is_two : forall lo0 hi0 lo1 hi1 dx0 dx1 phase n cl ca dphidt alpha flux a b,
  (forall i j, phase i j n = 1 - total (n - 1) phase i j) ->
  let two := antitrapping lo0 hi0 lo1 hi1 dx0 dx1 (total (n - 1) phase) (as_comp cl) (as_comp ca) 1 (total (n - 1) dphidt) alpha
      (as_comp (fst flux), as_comp (snd flux)) in
  let multi := antitrapping_multi lo0 hi0 lo1 hi1 dx0 dx1 phase n cl ca dphidt alpha flux in
  fst multi a b = fst two a b 1%Z /\ snd multi a b = snd two a b 1%Z.
Proof.
  intros lo0 hi0 lo1 hi1 dx0 dx1 phase n cl ca dphidt alpha flux a b HS two multi. unfold two, multi.
  rewrite multi_fst, multi_snd, two_fst, two_snd. cbn [fst snd].
  change (inb 1 1 1) with true. cbv iota.
  unfold multi_x, multi_y, two_x, two_y, as_comp.
  set (S := total (n - 1) phase) in *.
  assert (X1 : xface_dx dx0 (comp phase n) a b = - xface_dx dx0 S a b) by (unfold xface_dx, comp; rewrite !HS; ring).
  assert (X2 : xface_dy dx1 (comp phase n) a b = - xface_dy dx1 S a b) by (unfold xface_dy, comp; rewrite !HS; ring).
  assert (Y1 : yface_dx dx0 (comp phase n) a b = - yface_dx dx0 S a b) by (unfold yface_dx, comp; rewrite !HS; ring).
  assert (Y2 : yface_dy dx1 (comp phase n) a b = - yface_dy dx1 S a b) by (unfold yface_dy, comp; rewrite !HS; ring).
  rewrite X1, X2, Y1, Y2, !contribm_two. auto.
Qed.

(** ** three phases *)
Section Three.
Variables (lo0 hi0 lo1 hi1 : Z) (dx0 dx1 : R) (phase : arr3) (cl ca cb : arr2) (dphidt : arr3) (alpha : R).
Definition contrib3 (lx ly l sx sy dc dpdt : R) : R :=
  if gtb (lx * lx + ly * ly) at_tol2 then
    if gtb (sx * sx + sy * sy) at_tol2 then
      alpha * (- 1 * (sx * lx + sy * ly) / (sqrt (sx * sx + sy * sy) * sqrt (lx * lx + ly * ly))) * (l / sqrt (lx * lx + ly * ly)) * dc * dpdt else 0
  else 0.
Definition conc3 (ip : Z) : arr2 := if (ip =? 1)%Z then cl else if (ip =? 2)%Z then ca else cb.
Definition three_x (ip a b : Z) : R :=
  contrib3 (xface_dx dx0 (comp phase 1) a b) (xface_dy dx1 (comp phase 1) a b) (xface_dx dx0 (comp phase 1) a b)
    (xface_dx dx0 (comp phase ip) a b) (xface_dy dx1 (comp phase ip) a b)
    (mean (cl (a - 1)%Z b) (cl a b) - mean (conc3 ip (a - 1)%Z b) (conc3 ip a b))
    (mean (dphidt (a - 1)%Z b ip) (dphidt a b ip)).
Definition three_y (ip a b : Z) : R :=
  contrib3 (yface_dx dx0 (comp phase 1) a b) (yface_dy dx1 (comp phase 1) a b) (yface_dy dx1 (comp phase 1) a b)
    (yface_dx dx0 (comp phase ip) a b) (yface_dy dx1 (comp phase ip) a b)
    (mean (cl a (b - 1)%Z) (cl a b) - mean (conc3 ip a (b - 1)%Z) (conc3 ip a b))
    (mean (dphidt a (b - 1)%Z ip) (dphidt a b ip)).
Lemma ac3_mean : forall ip i j i' j', ac3 (1 / 2 * (cl i' j' + cl i j)) (1 / 2 * (ca i' j' + ca i j)) (1 / 2 * (cb i' j' + cb i j)) ip
  = mean (conc3 ip i' j') (conc3 ip i j).
Proof. intros. unfold ac3, conc3, mean. destruct (ip =? 1)%Z; [field |]. destruct (ip =? 2)%Z; field. Qed.

Lemma three_fst : forall flux a b,
  fst (antitrapping3 lo0 hi0 lo1 hi1 dx0 dx1 phase cl ca cb dphidt alpha flux) a b =
  fst flux a b + (if inb lo0 (hi0 + 1) a && inb lo1 hi1 b then three_x 2 a b + three_x 3 a b else 0).
Proof.
  intros [f0 f1] a b. unfold antitrapping3. cbn [fst].
  rewrite (obs_cells _ (fun s : arr2 => s a b) lo0 (hi0 + 1) lo1 hi1 (fun i j => if ((i =? a) && (j =? b))%Z then three_x 2 i j + three_x 3 i j else 0)).
  - f_equal. apply (sum_box_single lo0 (hi0 + 1) lo1 hi1 a b (fun i j => three_x 2 i j + three_x 3 i j)).
  - intros i j s _. cbv zeta. rewrite gtb_abs.
    destruct (gtb _ at_tol2) eqn:E1.
    + rewrite (obs_loop _ (fun s : arr2 => s a b) 2 3 (fun ip => if ((i =? a) && (j =? b))%Z then three_x ip i j else 0)).
      * rewrite !(sumZ_cons _ 3) by lia. rewrite sumZ_empty by lia. change (2 + 1)%Z with 3%Z. destruct ((i =? a) && (j =? b))%Z; ring.
      * intros ip s' _. rewrite gtb_abs, !ac3_mean. unfold three_x, contrib3. rewrite E1.
        destruct (gtb (xface_dx dx0 (comp phase ip) i j * _ + _) at_tol2) eqn:E2.
        -- unfold upd2. rewrite (Z.eqb_sym a i), (Z.eqb_sym b j).
           destruct (Z.eqb_spec i a) as [-> |]; destruct (Z.eqb_spec j b) as [-> |]; cbn [andb]; try ring.
           replace (conc3 1) with cl by reflexivity. unfold mean, Rdiv. ring.
        -- destruct ((i =? a) && (j =? b))%Z; ring.
    + unfold three_x, contrib3. rewrite E1. destruct ((i =? a) && (j =? b))%Z; ring.
Qed.
Lemma three_snd : forall flux a b,
  snd (antitrapping3 lo0 hi0 lo1 hi1 dx0 dx1 phase cl ca cb dphidt alpha flux) a b =
  snd flux a b + (if inb lo0 hi0 a && inb lo1 (hi1 + 1) b then three_y 2 a b + three_y 3 a b else 0).
Proof.
  intros [f0 f1] a b. unfold antitrapping3. cbn [snd].
  rewrite (obs_cells _ (fun s : arr2 => s a b) lo0 hi0 lo1 (hi1 + 1) (fun i j => if ((i =? a) && (j =? b))%Z then three_y 2 i j + three_y 3 i j else 0)).
  - f_equal. apply (sum_box_single lo0 hi0 lo1 (hi1 + 1) a b (fun i j => three_y 2 i j + three_y 3 i j)).
  - intros i j s _. cbv zeta. rewrite gtb_abs.
    destruct (gtb _ at_tol2) eqn:E1.
    + rewrite (obs_loop _ (fun s : arr2 => s a b) 2 3 (fun ip => if ((i =? a) && (j =? b))%Z then three_y ip i j else 0)).
      * rewrite !(sumZ_cons _ 3) by lia. rewrite sumZ_empty by lia. change (2 + 1)%Z with 3%Z. destruct ((i =? a) && (j =? b))%Z; ring.
      * intros ip s' _. rewrite gtb_abs, !ac3_mean. unfold three_y, contrib3. rewrite E1.
        destruct (gtb (yface_dx dx0 (comp phase ip) i j * _ + _) at_tol2) eqn:E2.
        -- unfold upd2. rewrite (Z.eqb_sym a i), (Z.eqb_sym b j).
           destruct (Z.eqb_spec i a) as [-> |]; destruct (Z.eqb_spec j b) as [-> |]; cbn [andb]; try ring.
           replace (conc3 1) with cl by reflexivity. unfold mean, Rdiv. ring.
        -- destruct ((i =? a) && (j =? b))%Z; ring.
    + unfold three_y, contrib3. rewrite E1. destruct ((i =? a) && (j =? b))%Z; ring.
Qed.
End Three.

Lemma contrib3_two : forall gx gy g alpha dc dpdt,
  contrib3 alpha (- gx) (- gy) (- g) gx gy dc dpdt = - contrib gx gy g alpha dc dpdt.
Proof.
  intros. unfold contrib3, contrib. replace (- gx * - gx + - gy * - gy) with (gx * gx + gy * gy) by ring.
  destruct (gtb _ _) eqn:E; [| ring]. apply gtb_true in E. pose proof at_tol2_pos.
  assert (HS : 0 < sqrt (gx * gx + gy * gy)) by (apply sqrt_lt_R0; lra).
  pose proof (sqrt_sqrt (gx * gx + gy * gy) ltac:(lra)) as HQ.
  replace (- 1 * (gx * - gx + gy * - gy) / (sqrt (gx * gx + gy * gy) * sqrt (gx * gx + gy * gy))) with 1; [unfold Rdiv; ring |].
  rewrite HQ. field. lra.
Qed.
Lemma contrib3_zero : forall lx ly l alpha dc dpdt, contrib3 alpha lx ly l 0 0 dc dpdt = 0.
Proof.
  intros. unfold contrib3. destruct (gtb _ _); auto. destruct (gtb (0 * 0 + 0 * 0) at_tol2) eqn:E; auto.
  apply gtb_true in E. pose proof at_tol2_pos. lra.
Qed.

Lemma three_opposite : forall lo0 hi0 lo1 hi1 dx0 dx1 phase cl ca cb dphidt alpha flux a b,
  (forall i j, phase i j 3%Z = 0) -> (forall i j, phase i j 1%Z = 1 - phase i j 2%Z) ->
  let two := antitrapping lo0 hi0 lo1 hi1 dx0 dx1 (comp phase 2) (as_comp cl) (as_comp ca) 1 (comp dphidt 2) alpha
      (as_comp (fst flux), as_comp (snd flux)) in
  let three := antitrapping3 lo0 hi0 lo1 hi1 dx0 dx1 phase cl ca cb dphidt alpha flux in
  fst three a b - fst flux a b = - (fst two a b 1%Z - fst flux a b) /\
  snd three a b - snd flux a b = - (snd two a b 1%Z - snd flux a b).
Proof.
  intros lo0 hi0 lo1 hi1 dx0 dx1 phase cl ca cb dphidt alpha flux a b H3 H1 two three. unfold two, three.
  rewrite three_fst, three_snd, two_fst, two_snd. cbn [fst snd]. change (inb 1 1 1) with true. cbv iota.
  unfold three_x, three_y, two_x, two_y, as_comp. cbn [conc3 Z.eqb Pos.eqb].
  assert (X1 : xface_dx dx0 (comp phase 1) a b = - xface_dx dx0 (comp phase 2) a b) by (unfold xface_dx, comp; rewrite !H1; ring).
  assert (X2 : xface_dy dx1 (comp phase 1) a b = - xface_dy dx1 (comp phase 2) a b) by (unfold xface_dy, comp; rewrite !H1; ring).
  assert (Y1 : yface_dx dx0 (comp phase 1) a b = - yface_dx dx0 (comp phase 2) a b) by (unfold yface_dx, comp; rewrite !H1; ring).
  assert (Y2 : yface_dy dx1 (comp phase 1) a b = - yface_dy dx1 (comp phase 2) a b) by (unfold yface_dy, comp; rewrite !H1; ring).
  assert (Z1 : xface_dx dx0 (comp phase 3) a b = 0) by (unfold xface_dx, comp; rewrite !H3; ring).
  assert (Z2 : xface_dy dx1 (comp phase 3) a b = 0) by (unfold xface_dy, comp; rewrite !H3; ring).
  assert (Z3 : yface_dx dx0 (comp phase 3) a b = 0) by (unfold yface_dx, comp; rewrite !H3; ring).
  assert (Z4 : yface_dy dx1 (comp phase 3) a b = 0) by (unfold yface_dy, comp; rewrite !H3; ring).
  rewrite X1, X2, Y1, Y2, Z1, Z2, Z3, Z4, !contrib3_two, !contrib3_zero.
  unfold conc3. change ((2 =? 1)%Z) with false. change ((2 =? 2)%Z) with true. cbv iota. unfold comp.
  split.
  - destruct (inb lo0 (hi0 + 1) a && inb lo1 hi1 b); ring.
  - destruct (inb lo0 hi0 a && inb lo1 (hi1 + 1) b); ring.
Qed.

(** a stationary interface gets no correction *)
Lemma contrib_zero_rate : forall gx gy g alpha dc, contrib gx gy g alpha dc 0 = 0.
Proof. intros. unfold contrib. destruct (gtb _ _); ring. Qed.
Lemma contrib3_zero_rate : forall gx gy g sx sy alpha dc, contrib3 alpha gx gy g sx sy dc 0 = 0.
Proof. intros. unfold contrib3. destruct (gtb _ _); auto. destruct (gtb _ _); ring. Qed.
Lemma contribm_zero_rate : forall gx gy g sx sy alpha dc, contribm alpha gx gy g sx sy dc 0 = 0.
Proof. intros. unfold contribm. destruct (gtb _ _); auto. destruct (gtb _ _); ring. Qed.

Lemma stationary_no_flux : forall lo0 hi0 lo1 hi1 dx0 dx1 alpha,
  (forall phase cl ca ncomp flux a b c,
     let f := antitrapping lo0 hi0 lo1 hi1 dx0 dx1 phase cl ca ncomp (fun _ _ => 0) alpha flux in
     fst f a b c = fst flux a b c /\ snd f a b c = snd flux a b c) /\
  (forall phase cl ca cb flux a b,
     let f := antitrapping3 lo0 hi0 lo1 hi1 dx0 dx1 phase cl ca cb (fun _ _ _ => 0) alpha flux in
     fst f a b = fst flux a b /\ snd f a b = snd flux a b) /\
  (forall phase n cl ca flux a b,
     let f := antitrapping_multi lo0 hi0 lo1 hi1 dx0 dx1 phase n cl ca (fun _ _ _ => 0) alpha flux in
     fst f a b = fst flux a b /\ snd f a b = snd flux a b).
Proof.
  intros lo0 hi0 lo1 hi1 dx0 dx1 alpha.
  assert (M0 : mean 0 0 = 0) by (unfold mean; field).
  split; [| split]; cbv zeta.
  - intros. rewrite two_fst, two_snd. unfold two_x, two_y. rewrite M0, !contrib_zero_rate.
    split; destruct (_ && _); try destruct (inb 1 ncomp c); ring.
  - intros. rewrite three_fst, three_snd. unfold three_x, three_y. rewrite M0, !contrib3_zero_rate. split; destruct (_ && _); ring.
  - intros. rewrite multi_fst, multi_snd. unfold multi_x, multi_y, total.
    rewrite !sumZ_zero, M0, !contribm_zero_rate. split; destruct (_ && _); ring.
Qed.
