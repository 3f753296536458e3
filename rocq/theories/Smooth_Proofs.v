(** Proofs about the smoothing of orientations. *)
From Coq Require Import Reals ZArith Bool Lra Lia.
From Verif Require Import Grid_Model Grid_Spec Grid_Proofs Quat_Model Quat_Spec Quat_Proofs QuatFlow_Model QuatFlow_Spec QuatFlow_Proofs Smooth_Model Smooth_Spec.
Open Scope R_scope.

(** * The kernel *)
Lemma smoothquat_val : forall p t phase q dx dy out a b c,
  smoothquat p t phase q dx dy out a b c =
  if (inb (lo0 p) (hi0 p) a && inb (lo1 p) (hi1 p) b && inb 1 (depth p) c)%bool then
    if Rlt_dec (phase a b) t then q a b c - 1 / 8 * dx a b c + 1 / 8 * dx (a + 1)%Z b c - 1 / 8 * dy a b c + 1 / 8 * dy a (b + 1)%Z c
    else out a b c
  else out a b c.
Proof.
  intros p t phase q dx dy out a b c. unfold smoothquat.
  set (g := fun i j m (_ : R) => q i j m - 1 / 8 * dx i j m + 1 / 8 * dx (i + 1)%Z j m - 1 / 8 * dy i j m + 1 / 8 * dy i (j + 1)%Z m).
  set (body := fun i j s => if Rlt_dec (phase i j) t then put (depth p) i j (g i j) s else s).
  change (do_cells (lo0 p) (hi0 p) (lo1 p) (hi1 p) body out a b c =
    if (inb (lo0 p) (hi0 p) a && inb (lo1 p) (hi1 p) b && inb 1 (depth p) c)%bool then
    if Rlt_dec (phase a b) t then g a b c 0 else out a b c else out a b c).
  assert (B : forall i j s a b c, body i j s a b c =
    if ((a =? i)%Z && (b =? j)%Z && inb 1 (depth p) c)%bool then if Rlt_dec (phase a b) t then g a b c 0 else s a b c else s a b c).
  { intros i j s x y z. unfold body. destruct (Rlt_dec (phase i j) t) as [H|H].
    - rewrite put_val. destruct (Z.eqb_spec x i) as [-> |]; cbn [andb]; [| reflexivity].
      destruct (Z.eqb_spec y j) as [-> |]; cbn [andb]; [| reflexivity]. destruct (Rlt_dec (phase i j) t); [reflexivity | contradiction].
    - destruct (Z.eqb_spec x i) as [-> |]; cbn [andb]; [| reflexivity].
      destruct (Z.eqb_spec y j) as [-> |]; cbn [andb]; [| reflexivity]. destruct (Rlt_dec (phase i j) t); [contradiction |]. destruct (inb 1 (depth p) z); reflexivity. }
  clearbody body.
  destruct (inb_spec (lo0 p) (hi0 p) a) as [Ha |]; cbn [andb].
  1: destruct (inb_spec (lo1 p) (hi1 p) b) as [Hb |]; cbn [andb].
  1: { destruct (cells_once _ (fun s s' : arr3 => forall c, s' a b c = s a b c) (lo0 p) (hi0 p) (lo1 p) (hi1 p) a b body out)
         as (s0 & H0 & H1); auto.
       - intros x y z H1 H2 k. rewrite H2. apply H1.
       - split; auto.
       - intros i j s' Hij Hne k. rewrite B. destruct (Z.eqb_spec a i); destruct (Z.eqb_spec b j); cbn [andb]; auto. lia.
       - cbn beta in H1. rewrite H1, B, !Z.eqb_refl, H0. reflexivity. }
  all: apply (cells_never _ (fun s s' : arr3 => s' a b c = s a b c)); auto; try congruence;
    intros i j s' [Hi Hj]; rewrite B; destruct (Z.eqb_spec a i); destruct (Z.eqb_spec b j); cbn [andb]; auto; lia.
Qed.

Lemma smooth_plain : forall p t phase q old, exists out, smoothQuat None p t phase q old = Some out /\
  (forall i j m, ~ (in_patch p i j /\ phase i j < t /\ (1 <= m <= depth p)%Z) -> out i j m = q i j m) /\
  (forall i j m, in_patch p i j -> phase i j < t -> (1 <= m <= depth p)%Z ->
     out i j m = 1 / 2 * q i j m + 1 / 8 * (q (i - 1)%Z j m + q (i + 1)%Z j m + q i (j - 1)%Z m + q i (j + 1)%Z m)).
Proof.
  intros p t phase q old. eexists. split; [reflexivity |]. split.
  - intros i j m H. rewrite smoothquat_val. destruct (inb_spec (lo0 p) (hi0 p) i); cbn [andb]; [| reflexivity].
    destruct (inb_spec (lo1 p) (hi1 p) j); cbn [andb]; [| reflexivity]. destruct (inb_spec 1 (depth p) m); [| reflexivity].
    destruct (Rlt_dec (phase i j) t); [| reflexivity]. exfalso. apply H. repeat split; auto; lia.
  - intros i j m [Hi Hj] Ht Hm. rewrite smoothquat_val, !inb_true by lia. cbn [andb]. destruct (Rlt_dec (phase i j) t); [| contradiction].
    rewrite !plain_diffs_x, !plain_diffs_y by (auto; split; lia). replace (i + 1 - 1)%Z with i by lia. replace (j + 1 - 1)%Z with j by lia. field.
Qed.

(** * Bounds *)
Lemma smooth_range : forall p t phase q old out, smoothQuat None p t phase q old = Some out ->
  forall i j m a b, (forall i' j', in_ghosts p i' j' -> a <= q i' j' m <= b) -> in_patch p i j -> a <= out i j m <= b.
Proof.
  intros p t phase q old out E i j m a b H Hij. destruct (smooth_plain p t phase q old) as (out' & E' & K & V).
  rewrite E in E'. injection E' as <-.
  assert (G : forall x y, (i - 1 <= x <= i + 1)%Z -> (j - 1 <= y <= j + 1)%Z -> a <= q x y m <= b).
  { intros x y Hx Hy. apply H. destruct Hij. split; lia. }
  destruct (Rlt_dec (phase i j) t) as [Ht |]; [destruct (inb_spec 1 (depth p) m) |].
  - rewrite V by (auto; lia). pose proof (G i j ltac:(lia) ltac:(lia)). pose proof (G (i - 1)%Z j ltac:(lia) ltac:(lia)).
    pose proof (G (i + 1)%Z j ltac:(lia) ltac:(lia)). pose proof (G i (j - 1)%Z ltac:(lia) ltac:(lia)). pose proof (G i (j + 1)%Z ltac:(lia) ltac:(lia)). lra.
  - rewrite K by (intros (_ & _ & ?); lia). apply G; lia.
  - rewrite K by (intros (_ & ? & _); contradiction). apply G; lia.
Qed.

Lemma dotv_square_sum : forall d (a b1 b2 b3 b4 o : vec), (forall m, (1 <= m <= d)%Z -> o m = 1 / 2 * a m + 1 / 8 * (b1 m + b2 m + b3 m + b4 m)) ->
  let D v w := dotv d (fun m => v m - w m) (fun m => v m - w m) in
  1 / 2 * dotv d a a + 1 / 8 * (dotv d b1 b1 + dotv d b2 b2 + dotv d b3 b3 + dotv d b4 b4) =
  dotv d o o + 1 / 16 * (D a b1 + D a b2 + D a b3 + D a b4) + 1 / 64 * (D b1 b2 + D b1 b3 + D b1 b4 + D b2 b3 + D b2 b4 + D b3 b4).
Proof.
  intros d a b1 b2 b3 b4 o Ho. cbv zeta. unfold dotv.
  rewrite <- !sumZ_plus, <- !sumZ_scal, <- !sumZ_plus, <- ?sumZ_scal, <- ?sumZ_plus. apply sumZ_ext. intros m Hm. rewrite Ho by auto. field.
Qed.
Lemma dotv_self_nonneg : forall d v, 0 <= dotv d v v.
Proof. intros. unfold dotv. apply QuatFlow_Proofs.sumZ_nonneg. intros. nra. Qed.
Definition gap (d : Z) (v w : vec) : R := dotv d (fun m => v m - w m) (fun m => v m - w m).
Lemma dotv_square_le : forall d (a b1 b2 b3 b4 o : vec), (forall m, (1 <= m <= d)%Z -> o m = 1 / 2 * a m + 1 / 8 * (b1 m + b2 m + b3 m + b4 m)) ->
  dotv d o o + 1 / 16 * (gap d a b1 + gap d a b2 + gap d a b3 + gap d a b4) <=
  1 / 2 * dotv d a a + 1 / 8 * (dotv d b1 b1 + dotv d b2 b2 + dotv d b3 b3 + dotv d b4 b4).
Proof.
  intros d a b1 b2 b3 b4 o Ho. pose proof (dotv_square_sum d a b1 b2 b3 b4 o Ho) as J. cbv zeta beta in J. unfold gap.
  pose proof (dotv_self_nonneg d (fun m => b1 m - b2 m)). pose proof (dotv_self_nonneg d (fun m => b1 m - b3 m)).
  pose proof (dotv_self_nonneg d (fun m => b1 m - b4 m)). pose proof (dotv_self_nonneg d (fun m => b2 m - b3 m)).
  pose proof (dotv_self_nonneg d (fun m => b2 m - b4 m)). pose proof (dotv_self_nonneg d (fun m => b3 m - b4 m)). lra.
Qed.
Lemma gap_nonneg : forall d v w, 0 <= gap d v w.
Proof. intros. apply dotv_self_nonneg. Qed.
Lemma dotv_self_zero : forall d v, dotv d v v = 0 -> forall m, (1 <= m <= d)%Z -> v m = 0.
Proof.
  intros d v. unfold dotv. intros H m Hm.
  assert (G : forall lo hi, (lo <= m <= hi)%Z -> v m * v m <= sumZ lo hi (fun m => v m * v m)).
  { apply (Zinterval_ind (fun lo hi => (lo <= m <= hi)%Z -> v m * v m <= sumZ lo hi (fun m => v m * v m))).
    - intros lo hi L ?. lia.
    - intros lo hi L IH Hm'. rewrite sumZ_snoc by auto. destruct (Z.eq_dec m hi) as [-> | N].
      + assert (0 <= sumZ lo (hi - 1) (fun m => v m * v m)) by (apply QuatFlow_Proofs.sumZ_nonneg; intros; nra). lra.
      + specialize (IH ltac:(lia)). nra. }
  specialize (G 1%Z d Hm). nra.
Qed.

Lemma smooth_norm : forall p t phase q old out B, smoothQuat None p t phase q old = Some out ->
  (forall i j, in_ghosts p i j -> dotv (depth p) (q i j) (q i j) <= B) -> forall i j, in_patch p i j -> dotv (depth p) (out i j) (out i j) <= B.
Proof.
  intros p t phase q old out B E H i j Hij. destruct (smooth_plain p t phase q old) as (out' & E' & K & V).
  rewrite E in E'. injection E' as <-.
  assert (G : forall x y, (i - 1 <= x <= i + 1)%Z -> (j - 1 <= y <= j + 1)%Z -> dotv (depth p) (q x y) (q x y) <= B).
  { intros x y Hx Hy. apply H. destruct Hij. split; lia. }
  destruct (Rlt_dec (phase i j) t) as [Ht |].
  - pose proof (dotv_square_le (depth p) (q i j) (q (i - 1)%Z j) (q (i + 1)%Z j) (q i (j - 1)%Z) (q i (j + 1)%Z) (out i j) (fun m Hm => V i j m Hij Ht Hm)) as J.
    pose proof (G i j ltac:(lia) ltac:(lia)). pose proof (G (i - 1)%Z j ltac:(lia) ltac:(lia)).
    pose proof (G (i + 1)%Z j ltac:(lia) ltac:(lia)). pose proof (G i (j - 1)%Z ltac:(lia) ltac:(lia)). pose proof (G i (j + 1)%Z ltac:(lia) ltac:(lia)).
    pose proof (gap_nonneg (depth p) (q i j) (q (i - 1)%Z j)). pose proof (gap_nonneg (depth p) (q i j) (q (i + 1)%Z j)).
    pose proof (gap_nonneg (depth p) (q i j) (q i (j - 1)%Z)). pose proof (gap_nonneg (depth p) (q i j) (q i (j + 1)%Z)). lra.
  - replace (dotv (depth p) (out i j) (out i j)) with (dotv (depth p) (q i j) (q i j)); [apply G; lia |].
    apply sumZ_ext. intros m Hm. rewrite K by (intros (_ & ? & _); contradiction). reflexivity.
Qed.

Lemma smooth_unit : forall p t phase q old out, smoothQuat None p t phase q old = Some out -> unit_field p q ->
  forall i j, in_patch p i j -> phase i j < t ->
  (dotv (depth p) (out i j) (out i j) = 1 <-> four i j (fun i' j' => same (depth p) (q i' j') (q i j))).
Proof.
  intros p t phase q old out E H i j Hij Ht. destruct (smooth_plain p t phase q old) as (out' & E' & K & V).
  rewrite E in E'. injection E' as <-.
  assert (G : forall x y, (i - 1 <= x <= i + 1)%Z -> (j - 1 <= y <= j + 1)%Z -> dotv (depth p) (q x y) (q x y) = 1).
  { intros x y Hx Hy. apply H. destruct Hij. split; lia. }
  pose proof (dotv_square_le (depth p) (q i j) (q (i - 1)%Z j) (q (i + 1)%Z j) (q i (j - 1)%Z) (q i (j + 1)%Z) (out i j) (fun m Hm => V i j m Hij Ht Hm)) as J.
  rewrite !G in J by lia.
  split.
  - intros U. rewrite U in J.
    assert (Z4 : four i j (fun i' j' => gap (depth p) (q i j) (q i' j') = 0)).
    { unfold four.
      pose proof (gap_nonneg (depth p) (q i j) (q (i - 1)%Z j)). pose proof (gap_nonneg (depth p) (q i j) (q (i + 1)%Z j)).
      pose proof (gap_nonneg (depth p) (q i j) (q i (j - 1)%Z)). pose proof (gap_nonneg (depth p) (q i j) (q i (j + 1)%Z)). repeat split; lra. }
    destruct Z4 as (Z1 & Z2 & Z3 & Z4). repeat split; intros m Hm.
    + pose proof (dotv_self_zero _ _ Z1 m Hm). cbv beta in *. lra.
    + pose proof (dotv_self_zero _ _ Z2 m Hm). cbv beta in *. lra.
    + pose proof (dotv_self_zero _ _ Z3 m Hm). cbv beta in *. lra.
    + pose proof (dotv_self_zero _ _ Z4 m Hm). cbv beta in *. lra.
  - intros (S1 & S2 & S3 & S4). rewrite <- (G i j) by lia. apply sumZ_ext. intros m Hm.
    rewrite V by auto. rewrite S1, S2, S3, S4 by auto. field.
Qed.

(** * With symmetry *)
Lemma smooth_symm : forall p t phase q old rx ry, multi (depth p) \/ depth p = 1%Z -> rotations_ok p rx ry ->
  exists out, smoothQuat (Some (rx, ry)) p t phase q old = Some out /\
  (forall i j m, ~ (in_patch p i j /\ phase i j < t /\ (1 <= m <= depth p)%Z) -> out i j m = q i j m) /\
  (forall i j m, in_patch p i j -> phase i j < t -> (1 <= m <= depth p)%Z ->
     out i j m = q i j m + 1 / 8 * ((image (depth p) (rx i j) (q (i - 1)%Z j) m - q i j m) + (q (i + 1)%Z j m - image (depth p) (rx (i + 1)%Z j) (q i j) m)
       + (image (depth p) (ry i j) (q i (j - 1)%Z) m - q i j m) + (q i (j + 1)%Z m - image (depth p) (ry i (j + 1)%Z) (q i j) m))).
Proof.
  intros p t phase q old rx ry Hd [Rx Ry].
  destruct (symm_diffs_x p q rx old Hd Rx) as (sx & Ex & Vx). destruct (symm_diffs_y p q ry old Hd Ry) as (sy & Ey & Vy).
  eexists. unfold smoothQuat. rewrite Ex, Ey. split; [reflexivity |]. split.
  - intros i j m H. rewrite smoothquat_val. destruct (inb_spec (lo0 p) (hi0 p) i); cbn [andb]; [| reflexivity].
    destruct (inb_spec (lo1 p) (hi1 p) j); cbn [andb]; [| reflexivity]. destruct (inb_spec 1 (depth p) m); [| reflexivity].
    destruct (Rlt_dec (phase i j) t); [| reflexivity]. exfalso. apply H. repeat split; auto; lia.
  - intros i j m [Hi Hj] Ht Hm. rewrite smoothquat_val, !inb_true by lia. cbn [andb]. destruct (Rlt_dec (phase i j) t); [| contradiction].
    rewrite !Vx, !Vy by (auto; split; lia). unfold sdx, sdy. replace (i + 1 - 1)%Z with i by lia. replace (j + 1 - 1)%Z with j by lia. field.
Qed.

Lemma smooth_no_rotation : forall p t phase q old rx ry, multi (depth p) \/ depth p = 1%Z -> rotations_ok p rx ry ->
  (forall i j, x_side p i j -> same (depth p) (image (depth p) (rx i j) (q (i - 1)%Z j)) (q (i - 1)%Z j)) ->
  (forall i j, y_side p i j -> same (depth p) (image (depth p) (ry i j) (q i (j - 1)%Z)) (q i (j - 1)%Z)) ->
  exists o1 o2, smoothQuat (Some (rx, ry)) p t phase q old = Some o1 /\ smoothQuat None p t phase q old = Some o2 /\
    forall i j, in_patch p i j -> same (depth p) (o1 i j) (o2 i j).
Proof.
  intros p t phase q old rx ry Hd R Ix Iy.
  destruct (smooth_symm p t phase q old rx ry Hd R) as (o1 & E1 & K1 & V1). destruct (smooth_plain p t phase q old) as (o2 & E2 & K2 & V2).
  exists o1, o2. split; [exact E1 |]. split; [exact E2 |]. intros i j Hij m Hm.
  destruct (Rlt_dec (phase i j) t) as [Ht |].
  - rewrite V1, V2 by auto. destruct Hij as [Hi Hj].
    pose proof (Ix (i + 1)%Z j ltac:(split; lia) m Hm) as A. replace (i + 1 - 1)%Z with i in A by lia.
    pose proof (Iy i (j + 1)%Z ltac:(split; lia) m Hm) as B. replace (j + 1 - 1)%Z with j in B by lia.
    rewrite A, B, (Ix i j ltac:(split; lia) m Hm), (Iy i j ltac:(split; lia) m Hm). field.
  - rewrite K1, K2 by (intros (_ & ? & _); contradiction). reflexivity.
Qed.

(** * A grain boundary with a symmetry rotation *)
Definition one_cell : patch := mk_patch 0 0 0 0 2 1 1.
Definition wall (i j m : Z) : R := if (i <=? 0)%Z then if (m =? 1)%Z then 1 else 0 else if (m =? 1)%Z then 3 / 5 else 4 / 5.
(** the same orientations, those on the right replaced by an equivalent one *)
Definition wall' (i j m : Z) : R := if (i <=? 0)%Z then if (m =? 1)%Z then 1 else 0 else if (m =? 1)%Z then 4 / 5 else - (3 / 5).
Definition wall_x (i j : Z) : Z := if (i =? 1)%Z then 2%Z else 1%Z.
Definition none : iarr := fun _ _ => 1%Z.

Lemma dotv2 : forall v w, dotv 2 v w = v 1%Z * w 1%Z + v 2%Z * w 2%Z.
Proof. intros. unfold dotv. rewrite !sumZ_snoc by lia. rewrite sumZ_empty by lia. cbn. ring. Qed.

Lemma image2 : forall w, (image 2 1 w 1%Z = w 1%Z /\ image 2 1 w 2%Z = w 2%Z) /\ (image 2 2 w 1%Z = - w 2%Z /\ image 2 2 w 2%Z = w 1%Z) /\
  (image 2 3 w 1%Z = - w 1%Z /\ image 2 3 w 2%Z = - w 2%Z) /\ (image 2 4 w 1%Z = w 2%Z /\ image 2 4 w 2%Z = - w 1%Z).
Proof.
  intros w. unfold image. destruct qr2_val as (-> & -> & -> & ->). unfold quatmult2, comp2. cbn [ca cb]. repeat split; ring.
Qed.
Lemma index2 : forall n, rotation_index 2 n <-> n = 1%Z \/ n = 2%Z \/ n = 3%Z \/ n = 4%Z.
Proof. intros n. unfold rotation_index, in_table. cbn. lia. Qed.
Lemma best2 : forall v w n, rotation_index 2 n ->
  (let D k := (v 1%Z - image 2 k w 1%Z) * (v 1%Z - image 2 k w 1%Z) + (v 2%Z - image 2 k w 2%Z) * (v 2%Z - image 2 k w 2%Z) in
   D n <= D 1%Z /\ D n <= D 2%Z /\ D n <= D 3%Z /\ D n <= D 4%Z) ->
  rotation_index 2 n /\ forall k, rotation_index 2 k ->
  dotv 2 (fun m => v m - image 2 n w m) (fun m => v m - image 2 n w m) <= dotv 2 (fun m => v m - image 2 k w m) (fun m => v m - image 2 k w m).
Proof.
  intros v w n Hn (D1 & D2 & D3 & D4). split; [exact Hn |]. intros k Hk. rewrite !dotv2. apply index2 in Hk. destruct Hk as [-> | [-> | [-> | ->]]]; assumption.
Qed.
Ltac best w := apply best2; [apply index2; auto | cbv zeta; destruct (image2 w) as ((-> & ->) & (-> & ->) & (-> & ->) & (-> & ->)); unfold wall, wall'; cbn -[IZR]; repeat split; lra].

Lemma wall_best : best_rotations one_cell wall wall_x none.
Proof.
  split; intros i j [Hi Hj]; cbn in Hi, Hj; cbn [depth one_cell].
  - assert (i = 0 \/ i = 1)%Z as [-> | ->] by lia; [change (wall_x 0 j) with 1%Z | change (wall_x 1 j) with 2%Z].
    + best (wall (0 - 1) j).
    + best (wall (1 - 1) j).
  - change (none i j) with 1%Z. assert (i = -1 \/ i = 0 \/ i = 1)%Z as [-> | [-> | ->]] by lia.
    + best (wall (-1) (j - 1)).
    + best (wall 0 (j - 1)).
    + best (wall 1 (j - 1)).
Qed.
Lemma wall'_best : best_rotations one_cell wall' none none.
Proof.
  split; intros i j [Hi Hj]; cbn in Hi, Hj; cbn [depth one_cell]; change (none i j) with 1%Z.
  - assert (i = 0 \/ i = 1)%Z as [-> | ->] by lia.
    + best (wall' (0 - 1) j).
    + best (wall' (1 - 1) j).
  - assert (i = -1 \/ i = 0 \/ i = 1)%Z as [-> | [-> | ->]] by lia.
    + best (wall' (-1) (j - 1)).
    + best (wall' 0 (j - 1)).
    + best (wall' 1 (j - 1)).
Qed.
Lemma best_ok : forall p q rx ry, best_rotations p q rx ry -> rotations_ok p rx ry.
Proof. intros p q rx ry [Bx By]. split; intros i j H; [apply (Bx i j H) | apply (By i j H)]. Qed.

Lemma upper_not_rotated : let p := one_cell in
  multi (depth p) /\ unit_field p wall /\ unit_field p wall' /\ regauged p (fun i _ => if (i <=? 0)%Z then 1%Z else 4%Z) wall wall' /\
  best_rotations p wall wall_x none /\ best_rotations p wall' none none /\
  forall old old', exists o o', smoothQuat (Some (wall_x, none)) p 1 (fun _ _ => 0) wall old = Some o /\
    smoothQuat (Some (none, none)) p 1 (fun _ _ => 0) wall' old' = Some o' /\
    1 < dotv (depth p) (o 0%Z 0%Z) (o 0%Z 0%Z) /\ dotv (depth p) (o' 0%Z 0%Z) (o' 0%Z 0%Z) < 1 /\ ~ equivalent (depth p) (o 0%Z 0%Z) (o' 0%Z 0%Z).
Proof.
  cbv zeta. split; [left; reflexivity |].
  split. { intros i j _. cbn [depth one_cell]. rewrite dotv2. unfold wall. destruct (i <=? 0)%Z; cbn -[IZR]; lra. }
  split. { intros i j _. cbn [depth one_cell]. rewrite dotv2. unfold wall'. destruct (i <=? 0)%Z; cbn -[IZR]; lra. }
  split. { intros i j _. cbn [depth one_cell]. destruct (i <=? 0)%Z eqn:E; (split; [apply index2; auto |]); intros m Hm;
    assert (m = 1 \/ m = 2)%Z as [-> | ->] by lia; destruct (image2 (wall i j)) as ((A1 & A2) & _ & _ & (A7 & A8)); rewrite ?A1, ?A2, ?A7, ?A8; unfold wall, wall'; rewrite ?E; cbn -[IZR]; lra. }
  split; [exact wall_best |]. split; [exact wall'_best |]. intros old old'.
  destruct (smooth_symm one_cell 1 (fun _ _ => 0) wall old wall_x none (or_introl (or_introl eq_refl)) (best_ok _ _ _ _ wall_best)) as (o & E & _ & V).
  destruct (smooth_symm one_cell 1 (fun _ _ => 0) wall' old' none none (or_introl (or_introl eq_refl)) (best_ok _ _ _ _ wall'_best)) as (o' & E' & _ & V').
  assert (I0 : in_patch one_cell 0 0) by (split; cbn; lia). assert (L : (0 : R) < 1) by lra.
  assert (P1 : (1 <= 1 <= depth one_cell)%Z) by (cbn; lia). assert (P2 : (1 <= 2 <= depth one_cell)%Z) by (cbn; lia).
  pose proof (V 0%Z 0%Z 1%Z I0 L P1) as O1. pose proof (V 0%Z 0%Z 2%Z I0 L P2) as O2. pose proof (V' 0%Z 0%Z 1%Z I0 L P1) as Q1. pose proof (V' 0%Z 0%Z 2%Z I0 L P2) as Q2.
  cbn [depth one_cell] in O1, O2, Q1, Q2. change (0 - 1)%Z with (-1)%Z in *. change (0 + 1)%Z with 1%Z in *.
  change (wall_x 0 0) with 1%Z in *. change (wall_x 1 0) with 2%Z in *. unfold none in O1, O2, Q1, Q2.
  assert (R : o 0%Z 0%Z 1%Z = 43 / 40 /\ o 0%Z 0%Z 2%Z = - (1 / 40) /\ o' 0%Z 0%Z 1%Z = 39 / 40 /\ o' 0%Z 0%Z 2%Z = - (3 / 40)).
  { rewrite O1, O2, Q1, Q2.
    destruct (image2 (wall (-1) 0)) as ((-> & ->) & _). destruct (image2 (wall 0 0)) as ((-> & ->) & (-> & ->) & _). destruct (image2 (wall 0 (-1))) as ((-> & ->) & _).
    destruct (image2 (wall' (-1) 0)) as ((-> & ->) & _). destruct (image2 (wall' 0 0)) as ((-> & ->) & _). destruct (image2 (wall' 0 (-1))) as ((-> & ->) & _).
    unfold wall, wall'. cbn -[IZR]. repeat split; lra. }
  destruct R as (R1 & R2 & R3 & R4).
  exists o, o'. split; [exact E |]. split; [exact E' |]. cbn [depth one_cell]. rewrite !dotv2, R1, R2, R3, R4. split; [lra |]. split; [lra |].
  intros (n & Hn & Hs). apply index2 in Hn. pose proof (Hs 1%Z ltac:(lia)) as H1. destruct (image2 (o' 0%Z 0%Z)) as ((A1 & _) & (A2 & _) & (A3 & _) & (A4 & _)).
  rewrite R1 in H1. destruct Hn as [-> | [-> | [-> | ->]]]; [rewrite A1 in H1 | rewrite A2 in H1 | rewrite A3 in H1 | rewrite A4 in H1]; lra.
Qed.

(** * Oscillations from cell to cell *)
Lemma even_next : forall n, Z.even (n + 1) = negb (Z.even n) /\ Z.even (n - 1) = negb (Z.even n).
Proof. intros n. split; [replace (n + 1)%Z with (Z.succ n) by lia; rewrite Z.even_succ | replace (n - 1)%Z with (Z.pred n) by lia; rewrite Z.even_pred]; rewrite <- Z.negb_even; reflexivity. Qed.
Lemma oscillation_removed : forall p t phase b a old out, smoothQuat None p t phase (fun i j m => b m + alternating a i j m) old = Some out ->
  forall i j m, in_patch p i j -> phase i j < t -> (1 <= m <= depth p)%Z -> out i j m = b m.
Proof.
  intros p t phase b a old out E i j m Hij Ht Hm. destruct (smooth_plain p t phase (fun i j m => b m + alternating a i j m) old) as (out' & E' & _ & V).
  rewrite E in E'. injection E' as <-. rewrite V by auto. unfold alternating.
  replace (i - 1 + j)%Z with (i + j - 1)%Z by lia. replace (i + 1 + j)%Z with (i + j + 1)%Z by lia. replace (i + (j - 1))%Z with (i + j - 1)%Z by lia. replace (i + (j + 1))%Z with (i + j + 1)%Z by lia.
  rewrite !(proj1 (even_next (i + j))), !(proj2 (even_next (i + j))). destruct (Z.even (i + j)); cbn [negb]; field.
Qed.

Lemma smooth3_val : forall p t phase q i j k m, in_patch3 p i j k -> phase i j k < t -> (1 <= m <= depth3 p)%Z ->
  smoothQuat3 p t phase q i j k m = 1 / 6 * (q (i - 1)%Z j k m + q (i + 1)%Z j k m + q i (j - 1)%Z k m + q i (j + 1)%Z k m + q i j (k - 1)%Z m + q i j (k + 1)%Z m).
Proof.
  intros p t phase q i j k m (Hi & Hj & Hk) Ht Hm. unfold smoothQuat3, smoothquat3.
  rewrite !(proj2 (Z.leb_le _ _)) by lia. cbn [andb]. destruct (Rlt_dec (phase i j k) t); [| contradiction].
  replace (i + 1 - 1)%Z with i by lia. replace (j + 1 - 1)%Z with j by lia. replace (k + 1 - 1)%Z with k by lia. cbv zeta. field.
Qed.
Lemma smooth3_keep : forall p t phase q i j k m, ~ (in_patch3 p i j k /\ phase i j k < t /\ (1 <= m <= depth3 p)%Z) -> smoothQuat3 p t phase q i j k m = q i j k m.
Proof.
  intros p t phase q i j k m H. unfold smoothQuat3, smoothquat3.
  destruct ((l0 p <=? i) && (i <=? u0 p) && (l1 p <=? j) && (j <=? u1 p) && (l2 p <=? k) && (k <=? u2 p) && (1 <=? m) && (m <=? depth3 p))%Z%bool eqn:E; [| reflexivity].
  destruct (Rlt_dec (phase i j k) t); [| reflexivity]. exfalso. apply H. rewrite !andb_true_iff, !Z.leb_le in E. unfold in_patch3. intuition.
Qed.
Lemma smooth3_range : forall p t phase q i j k m a b, (forall x y z, (Z.abs (x - i) + Z.abs (y - j) + Z.abs (z - k) <= 1)%Z -> a <= q x y z m <= b) ->
  a <= smoothQuat3 p t phase q i j k m <= b.
Proof.
  intros p t phase q i j k m a b H.
  assert (D : in_patch3 p i j k /\ phase i j k < t /\ (1 <= m <= depth3 p)%Z \/ ~ (in_patch3 p i j k /\ phase i j k < t /\ (1 <= m <= depth3 p)%Z)).
  { destruct (Rlt_dec (phase i j k) t); [| right; tauto]. unfold in_patch3.
    assert (Z : forall x y z : Z, (x <= y <= z)%Z \/ ~ (x <= y <= z)%Z) by (intros; lia).
    destruct (Z (l0 p) i (u0 p)); [| right; tauto]. destruct (Z (l1 p) j (u1 p)); [| right; tauto]. destruct (Z (l2 p) k (u2 p)); [| right; tauto].
    destruct (Z 1%Z m (depth3 p)); [left | right]; tauto. }
  destruct D as [(A & B & C) | D].
  - rewrite smooth3_val by auto.
    pose proof (H (i - 1)%Z j k ltac:(lia)). pose proof (H (i + 1)%Z j k ltac:(lia)). pose proof (H i (j - 1)%Z k ltac:(lia)).
    pose proof (H i (j + 1)%Z k ltac:(lia)). pose proof (H i j (k - 1)%Z ltac:(lia)). pose proof (H i j (k + 1)%Z ltac:(lia)). lra.
  - rewrite smooth3_keep by auto. apply H. lia.
Qed.
Lemma oscillation_stays : forall p t phase b a i j k m, let q := fun i j k m => b m + alternating a i (j + k) m in
  in_patch3 p i j k -> phase i j k < t -> (1 <= m <= depth3 p)%Z ->
  smoothQuat3 p t phase q i j k m - b m = - (q i j k m - b m).
Proof.
  intros p t phase b a i j k m q H Ht Hm. rewrite smooth3_val by auto. unfold q, alternating.
  replace (i - 1 + (j + k))%Z with (i + (j + k) - 1)%Z by lia. replace (i + 1 + (j + k))%Z with (i + (j + k) + 1)%Z by lia. replace (i + (j - 1 + k))%Z with (i + (j + k) - 1)%Z by lia. replace (i + (j + 1 + k))%Z with (i + (j + k) + 1)%Z by lia.
  replace (i + (j + (k - 1)))%Z with (i + (j + k) - 1)%Z by lia. replace (i + (j + (k + 1)))%Z with (i + (j + k) + 1)%Z by lia.
  rewrite !(proj1 (even_next (i + (j + k)))), !(proj2 (even_next (i + (j + k)))). destruct (Z.even (i + (j + k))); cbn [negb]; field.
Qed.

(** * Roughness *)
Lemma sumZ_mono : forall lo hi f g, (forall i, (lo <= i <= hi)%Z -> f i <= g i) -> sumZ lo hi f <= sumZ lo hi g.
Proof.
  intros lo hi f g H. assert (0 <= sumZ lo hi (fun i => g i - f i)) by (apply QuatFlow_Proofs.sumZ_nonneg; intros i Hi; specialize (H i Hi); lra).
  rewrite sumZ_minus in H0. lra.
Qed.
Lemma face_growth : forall d (u v u' v' r s : vec), same d u' (fun m => u m + r m) -> same d v' (fun m => v m + s m) ->
  let D := fun m => u m - v m in
  dotv d (fun m => u' m - v' m) (fun m => u' m - v' m) <=
  dotv d D D + ((2 * dotv d D r + 2 * dotv d r r) - (2 * dotv d D s - 2 * dotv d s s)).
Proof.
  intros d u v u' v' r s Hu Hv. cbv zeta. unfold dotv. rewrite <- !sumZ_scal, <- !sumZ_plus, <- !sumZ_minus, <- sumZ_plus. apply sumZ_mono.
  intros m Hm. rewrite Hu, Hv by auto. pose proof (Rle_0_sqr (r m + s m)) as Q. unfold Rsqr in Q. lra.
Qed.
Lemma sum_box_mono : forall a b c e f g, (forall i j, in_box a b c e i j -> f i j <= g i j) -> sum_box a b c e f <= sum_box a b c e g.
Proof. intros a b c e f g H. unfold sum_box. apply sumZ_mono. intros j Hj. apply sumZ_mono. intros i Hi. apply H. split; auto. Qed.

Lemma smooth_rough : forall p t phase q old out, (lo0 p <= hi0 p)%Z -> (lo1 p <= hi1 p)%Z -> smoothQuat None p t phase q old = Some out ->
  roughness p out + 8 * sum_box (lo0 p) (hi0 p) (lo1 p) (hi1 p) (fun i j => dotv (depth p) (fun m => out i j m - q i j m) (fun m => out i j m - q i j m)) <= roughness p q.
Proof.
  intros p t phase q old out L0 L1 E. destruct (smooth_plain p t phase q old) as (out' & E' & K & V). rewrite E in E'. injection E' as <-.
  set (d := depth p). set (r := fun i j m => out i j m - q i j m).
  assert (Out : forall i j m, out i j m = q i j m + r i j m) by (intros; unfold r; ring).
  assert (R0 : forall i j, ~ in_patch p i j -> same d (r i j) (fun _ => 0)).
  { intros i j H m Hm. unfold r. rewrite K by (intros (? & _); contradiction). ring. }
  assert (Z0 : forall i j w, ~ in_patch p i j -> dotv d w (r i j) = 0 /\ dotv d (r i j) (r i j) = 0).
  { intros i j w H. unfold dotv. split.
    - rewrite (sumZ_ext _ _ _ (fun _ => 0 * 1)) by (intros m Hm; rewrite (R0 i j H m Hm); ring). rewrite (sumZ_scal _ _ 0 (fun _ => 1)). ring.
    - rewrite (sumZ_ext _ _ _ (fun _ => 0 * 1)) by (intros m Hm; rewrite (R0 i j H m Hm); ring). rewrite (sumZ_scal _ _ 0 (fun _ => 1)). ring. }
  assert (RL : forall i j, in_patch p i j -> 2 * dotv d (fun m => q i j m - q (i - 1)%Z j m) (r i j) - 2 * dotv d (fun m => q (i + 1)%Z j m - q i j m) (r i j)
     + 2 * dotv d (fun m => q i j m - q i (j - 1)%Z m) (r i j) - 2 * dotv d (fun m => q i (j + 1)%Z m - q i j m) (r i j) = - (16) * dotv d (r i j) (r i j)).
  { intros i j H. unfold dotv. rewrite <- !sumZ_scal, <- sumZ_minus, <- sumZ_plus, <- sumZ_minus. apply sumZ_ext. intros m Hm. unfold r.
    destruct (Rlt_dec (phase i j) t) as [Ht |].
    - rewrite V by auto. field.
    - rewrite K by (intros (_ & ? & _); contradiction). ring. }
  set (Ax := fun i j => 2 * dotv d (fun m => q i j m - q (i - 1)%Z j m) (r i j) + 2 * dotv d (r i j) (r i j)).
  set (Bx := fun i j => 2 * dotv d (fun m => q i j m - q (i - 1)%Z j m) (r (i - 1)%Z j) - 2 * dotv d (r (i - 1)%Z j) (r (i - 1)%Z j)).
  set (Ay := fun i j => 2 * dotv d (fun m => q i j m - q i (j - 1)%Z m) (r i j) + 2 * dotv d (r i j) (r i j)).
  set (By := fun i j => 2 * dotv d (fun m => q i j m - q i (j - 1)%Z m) (r i (j - 1)%Z) - 2 * dotv d (r i (j - 1)%Z) (r i (j - 1)%Z)).
  assert (X : sum_box (lo0 p) (hi0 p + 1) (lo1 p) (hi1 p) (fun i j => dotv d (fun m => out i j m - out (i - 1)%Z j m) (fun m => out i j m - out (i - 1)%Z j m)) <=
    sum_box (lo0 p) (hi0 p + 1) (lo1 p) (hi1 p) (fun i j => dotv d (fun m => q i j m - q (i - 1)%Z j m) (fun m => q i j m - q (i - 1)%Z j m)) +
    sum_box (lo0 p) (hi0 p) (lo1 p) (hi1 p) (fun i j => Ax i j - Bx (i + 1)%Z j)).
  { replace (sum_box (lo0 p) (hi0 p) (lo1 p) (hi1 p) (fun i j => Ax i j - Bx (i + 1)%Z j)) with (sum_box (lo0 p) (hi0 p + 1) (lo1 p) (hi1 p) (fun i j => Ax i j - Bx i j)).
    - rewrite <- sum_box_plus. apply sum_box_mono. intros i j _.
      apply (face_growth d (q i j) (q (i - 1)%Z j) (out i j) (out (i - 1)%Z j) (r i j) (r (i - 1)%Z j)); intros m _; apply Out.
    - unfold sum_box. apply sumZ_ext. intros j Hj. apply (sum_by_parts (lo0 p) (hi0 p) (fun i => Ax i j) (fun i => Bx i j)); [lia | |].
      + unfold Ax. destruct (Z0 (hi0 p + 1)%Z j (fun m => q (hi0 p + 1)%Z j m - q (hi0 p + 1 - 1)%Z j m)) as [-> ->]; [intros [? ?]; lia | ring].
      + unfold Bx. destruct (Z0 (lo0 p - 1)%Z j (fun m => q (lo0 p) j m - q (lo0 p - 1)%Z j m)) as [-> ->]; [intros [? ?]; lia | ring]. }
  assert (Y : sum_box (lo0 p) (hi0 p) (lo1 p) (hi1 p + 1) (fun i j => dotv d (fun m => out i j m - out i (j - 1)%Z m) (fun m => out i j m - out i (j - 1)%Z m)) <=
    sum_box (lo0 p) (hi0 p) (lo1 p) (hi1 p + 1) (fun i j => dotv d (fun m => q i j m - q i (j - 1)%Z m) (fun m => q i j m - q i (j - 1)%Z m)) +
    sum_box (lo0 p) (hi0 p) (lo1 p) (hi1 p) (fun i j => Ay i j - By i (j + 1)%Z)).
  { replace (sum_box (lo0 p) (hi0 p) (lo1 p) (hi1 p) (fun i j => Ay i j - By i (j + 1)%Z)) with (sum_box (lo0 p) (hi0 p) (lo1 p) (hi1 p + 1) (fun i j => Ay i j - By i j)).
    - rewrite <- sum_box_plus. apply sum_box_mono. intros i j _.
      apply (face_growth d (q i j) (q i (j - 1)%Z) (out i j) (out i (j - 1)%Z) (r i j) (r i (j - 1)%Z)); intros m _; apply Out.
    - unfold sum_box.
      rewrite (sumZ_ext (lo1 p) (hi1 p + 1) _ (fun j => sumZ (lo0 p) (hi0 p) (fun i => Ay i j) - sumZ (lo0 p) (hi0 p) (fun i => By i j))) by (intros; apply sumZ_minus).
      rewrite (sumZ_ext (lo1 p) (hi1 p) _ (fun j => sumZ (lo0 p) (hi0 p) (fun i => Ay i j) - sumZ (lo0 p) (hi0 p) (fun i => By i (j + 1)%Z))) by (intros; apply sumZ_minus).
      apply (sum_by_parts (lo1 p) (hi1 p) (fun j => sumZ (lo0 p) (hi0 p) (fun i => Ay i j)) (fun j => sumZ (lo0 p) (hi0 p) (fun i => By i j))); [lia | |].
      + rewrite (sumZ_ext _ _ _ (fun _ => 0 * 1)); [rewrite (sumZ_scal _ _ 0 (fun _ => 1)); ring |]. intros i _.
        unfold Ay. destruct (Z0 i (hi1 p + 1)%Z (fun m => q i (hi1 p + 1)%Z m - q i (hi1 p + 1 - 1)%Z m)) as [-> ->]; [intros [? ?]; lia | ring].
      + rewrite (sumZ_ext _ _ _ (fun _ => 0 * 1)); [rewrite (sumZ_scal _ _ 0 (fun _ => 1)); ring |]. intros i _.
        unfold By. destruct (Z0 i (lo1 p - 1)%Z (fun m => q i (lo1 p) m - q i (lo1 p - 1)%Z m)) as [-> ->]; [intros [? ?]; lia | ring]. }
  assert (C : sum_box (lo0 p) (hi0 p) (lo1 p) (hi1 p) (fun i j => Ax i j - Bx (i + 1)%Z j) + sum_box (lo0 p) (hi0 p) (lo1 p) (hi1 p) (fun i j => Ay i j - By i (j + 1)%Z) =
    - (8) * sum_box (lo0 p) (hi0 p) (lo1 p) (hi1 p) (fun i j => dotv d (r i j) (r i j))).
  { rewrite <- sum_box_plus, <- sum_box_scal. apply sum_box_ext. intros i j H. pose proof (RL i j H) as Q. unfold Ax, Bx, Ay, By.
    replace (i + 1 - 1)%Z with i by lia. replace (j + 1 - 1)%Z with j by lia. lra. }
  unfold roughness. fold d.
  change (sum_box (lo0 p) (hi0 p) (lo1 p) (hi1 p) (fun i j => dotv d (fun m => out i j m - q i j m) (fun m => out i j m - q i j m)))
    with (sum_box (lo0 p) (hi0 p) (lo1 p) (hi1 p) (fun i j => dotv d (r i j) (r i j))). lra.
Qed.
