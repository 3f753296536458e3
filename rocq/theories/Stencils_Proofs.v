(** Proofs about the difference kernels. *)
From Coq Require Import Reals ZArith List Bool Lra Lia.
From Coquelicot Require Import Coquelicot.
From Verif Require Import Grid_Model Grid_Spec Grid_Proofs Stencils_Model Stencils_Spec.
Import ListNotations.
Open Scope R_scope.

(** ** polynomials of low degree *)
Lemma poly3 : forall l, degree_le 2 l -> exists a b c, forall x, poly l x = a + b * x + c * (x * x).
Proof.
  intros l H. unfold degree_le in H.
  destruct l as [| a [| b [| c [| e l]]]]; cbn in H; try lia.
  - exists 0, 0, 0. intro x. cbn. ring.
  - exists a, 0, 0. intro x. cbn. ring.
  - exists a, b, 0. intro x. cbn. ring.
  - exists a, b, c. intro x. cbn. ring.
Qed.
Lemma poly4 : forall l, degree_le 3 l -> exists a b c d, forall x, poly l x = a + b * x + c * (x * x) + d * (x * x * x).
Proof.
  intros l H. unfold degree_le in H.
  destruct l as [| a [| b [| c [| d [| e l]]]]]; cbn in H; try lia.
  - exists 0, 0, 0, 0. intro x. cbn. ring.
  - exists a, 0, 0, 0. intro x. cbn. ring.
  - exists a, b, 0, 0. intro x. cbn. ring.
  - exists a, b, c, 0. intro x. cbn. ring.
  - exists a, b, c, d. intro x. cbn. ring.
Qed.
Lemma poly5 : forall l, degree_le 4 l -> exists a b c d e, forall x,
  poly l x = a + b * x + c * (x * x) + d * (x * x * x) + e * (x * x * (x * x)).
Proof.
  intros l H. unfold degree_le in H.
  destruct l as [| a [| b [| c [| d [| e [| f l]]]]]]; cbn in H; try lia.
  - exists 0, 0, 0, 0, 0. intro x. cbn. ring.
  - exists a, 0, 0, 0, 0. intro x. cbn. ring.
  - exists a, b, 0, 0, 0. intro x. cbn. ring.
  - exists a, b, c, 0, 0. intro x. cbn. ring.
  - exists a, b, c, d, 0. intro x. cbn. ring.
  - exists a, b, c, d, e. intro x. cbn. ring.
Qed.
Lemma slope_unique : forall (f g : R -> R) x s dg, (forall y, f y = g y) -> derivable_pt_lim f x s -> is_derive g x dg -> s = dg.
Proof.
  intros f g x s dg E H1 H2. apply is_derive_Reals in H1. apply (is_derive_ext _ g) in H1; auto.
  apply is_derive_unique in H1. apply is_derive_unique in H2. congruence.
Qed.
Lemma slope3 : forall (f : R -> R) a b c x s, (forall y, f y = a + b * y + c * (y * y)) -> derivable_pt_lim f x s -> s = b + 2 * c * x.
Proof.
  intros f a b c x s E H. apply (slope_unique f _ x s _ E H). evar_last; [auto_derive; [exact I | reflexivity] |]. ring.
Qed.
Lemma slope4 : forall (f : R -> R) a b c d x s, (forall y, f y = a + b * y + c * (y * y) + d * (y * y * y)) ->
  derivable_pt_lim f x s -> s = b + 2 * c * x + 3 * d * (x * x).
Proof.
  intros f a b c d x s E H. apply (slope_unique f _ x s _ E H). evar_last; [auto_derive; [exact I | reflexivity] |]. ring.
Qed.
Lemma slope5 : forall (f : R -> R) a b c d e x s,
  (forall y, f y = a + b * y + c * (y * y) + d * (y * y * y) + e * (y * y * (y * y))) ->
  derivable_pt_lim f x s -> s = b + 2 * c * x + 3 * d * (x * x) + 4 * e * (x * x * x).
Proof.
  intros f a b c d e x s E H. apply (slope_unique f _ x s _ E H). evar_last; [auto_derive; [exact I | reflexivity] |]. ring.
Qed.
(** two antiderivatives have the same increments *)
Lemma same_increments : forall (U V u : R -> R), (forall x, derivable_pt_lim U x (u x)) -> (forall x, derivable_pt_lim V x (u x)) ->
  forall x y, U y - U x = V y - V x.
Proof.
  intros U V u HU HV.
  assert (G : forall x y, x < y -> U y - U x = V y - V x).
  { intros x y Hxy.
    assert (D : forall z, derivable_pt_lim (fun t => U t - V t) z 0).
    { intro z. replace 0 with (u z - u z) by ring. apply (derivable_pt_lim_minus U V); auto. }
    destruct (MVT_cor2 (fun t => U t - V t) (fun _ => 0) x y Hxy) as (c & E & _); [intros; apply D |]. lra. }
  intros x y. destruct (Rtotal_order x y) as [H | [-> | H]]; [auto | ring |]. specialize (G y x H). lra.
Qed.

(** ** discrete gradients *)
Lemma centred_face : forall h l i (line : Z -> R) s, h <> 0 -> degree_le 2 l ->
  holds_values h (poly l) (i - 1) i line \/ holds_averages h (poly l) (i - 1) i line ->
  derivable_pt_lim (poly l) (face h i) s -> 1 / h * (line i - line (i - 1)%Z) = s.
Proof.
  intros h l i line s Hh Hd HV Hs. destruct (poly3 l Hd) as (a & b & c & E).
  rewrite (slope3 _ a b c _ s E Hs). unfold face.
  destruct HV as [HV | (U & HU & HV)]; rewrite !HV by lia.
  - rewrite !E. unfold centre. rewrite minus_IZR. field. auto.
  - assert (HP : forall x, derivable_pt_lim (fun x => a * x + b / 2 * (x * x) + c / 3 * (x * x * x)) x (poly l x)).
    { intro x. apply is_derive_Reals. rewrite E. evar_last; [auto_derive; [exact I | reflexivity] |]. field. }
    rewrite !(same_increments U _ (poly l) HU HP).
    unfold face. replace (i - 1 + 1)%Z with i by lia. rewrite minus_IZR, plus_IZR. field. auto.
Qed.
Lemma fourth_face : forall h l i (line : Z -> R) s, h <> 0 -> degree_le 4 l ->
  holds_averages h (poly l) (i - 2) (i + 1) line -> derivable_pt_lim (poly l) (face h i) s ->
  15 / (12 * h) * (line i - line (i - 1)%Z) - 1 / (12 * h) * (line (i + 1)%Z - line (i - 2)%Z) = s.
Proof.
  intros h l i line s Hh Hd (U & HU & HV) Hs. destruct (poly5 l Hd) as (a & b & c & d & e & E).
  rewrite (slope5 _ a b c d e _ s E Hs). rewrite !HV by lia.
  assert (HP : forall x, derivable_pt_lim (fun x => a * x + b / 2 * (x * x) + c / 3 * (x * x * x) + d / 4 * (x * x * (x * x)) + e / 5 * (x * x * (x * x * x))) x (poly l x)).
  { intro x. apply is_derive_Reals. rewrite E. evar_last; [auto_derive; [exact I | reflexivity] |]. field. }
  rewrite !(same_increments U _ (poly l) HU HP).
  unfold face. replace (i - 1 + 1)%Z with i by lia. replace (i - 2 + 1)%Z with (i - 1)%Z by lia.
  rewrite !plus_IZR, !minus_IZR. field. auto.
Qed.
Lemma centred_cell : forall h l i (line : Z -> R) s v, h <> 0 -> degree_le 2 l ->
  holds_values h (poly l) (i - 1) (i + 1) line -> derivable_pt_lim (poly l) (centre h i) s ->
  1 / 2 * v / h * (line (i + 1)%Z - line (i - 1)%Z) = v * s.
Proof.
  intros h l i line s v Hh Hd HV Hs. destruct (poly3 l Hd) as (a & b & c & E).
  rewrite (slope3 _ a b c _ s E Hs). rewrite !HV by lia. rewrite !E. unfold centre. rewrite minus_IZR, plus_IZR. field. auto.
Qed.
Lemma upwind_cell : forall h l i (line : Z -> R) s v, h <> 0 -> degree_le 3 l ->
  holds_values h (poly l) (i - 1) (i + 2) line -> derivable_pt_lim (poly l) (centre h i) s ->
  v / (6 * h) * (-2 * line (i - 1)%Z - 3 * line i + 6 * line (i + 1)%Z - line (i + 2)%Z) = v * s.
Proof.
  intros h l i line s v Hh Hd HV Hs. destruct (poly4 l Hd) as (a & b & c & d & E).
  rewrite (slope4 _ a b c d _ s E Hs). rewrite !HV by lia. rewrite !E. unfold centre.
  rewrite minus_IZR, !plus_IZR. field. auto.
Qed.

(** ** the double loop over components *)
Lemma pairs_obs : forall S (obs : S -> R) n p (C : Z -> R) (body : Z -> Z -> S -> S) s,
  (forall ic jc s, obs (body ic jc s) = obs s + (if (ic =? p)%Z then C jc else 0)) ->
  obs (do_loop 1 n (fun ic => do_loop 1 n (fun jc s => body ic jc s)) s) = obs s + (if inb 1 n p then sumZ 1 n C else 0).
Proof.
  intros S obs n p C body s H.
  rewrite (obs_loop S obs 1 n (fun ic => if (ic =? p)%Z then sumZ 1 n C else 0)).
  - rewrite (sumZ_single 1 n p (fun _ => sumZ 1 n C)). reflexivity.
  - intros ic s1 _. rewrite (obs_loop S obs 1 n (fun jc => if (ic =? p)%Z then C jc else 0)).
    + destruct (ic =? p)%Z; [reflexivity |]. rewrite sumZ_zero. reflexivity.
    + intros jc s2 _. apply H.
Qed.
Lemma if_and : forall (a b : bool) (x y : R), (if a && b then x else y) = (if b then (if a then x else y) else y).
Proof. intros [] [] x y; reflexivity. Qed.
Lemma if_sum : forall (c : bool) n (f : Z -> R), (if c then sumZ 1 n f else 0) = sumZ 1 n (fun m => if c then f m else 0).
Proof. intros [] n f; [reflexivity | symmetry; apply sumZ_zero]. Qed.

(** adding a field inc(i,j) to component k over a box *)
Lemma plane_add : forall lo0 hi0 lo1 hi1 k (inc : Z -> Z -> R) (f : arr3) a b c,
  do_cells lo0 hi0 lo1 hi1 (fun i j s => upd3 s i j k (s i j k + inc i j)) f a b c =
  f a b c + (if (k =? c)%Z then (if inb lo0 hi0 a && inb lo1 hi1 b then inc a b else 0) else 0).
Proof.
  intros. rewrite (plane_loop3 lo0 hi0 lo1 hi1 k (fun i j v => v + inc i j)).
  rewrite (Z.eqb_sym c k). destruct (inb lo0 hi0 a); destruct (inb lo1 hi1 b); destruct (Z.eqb k c); cbn; ring.
Qed.
Lemma row_add : forall lo hi j k (inc : Z -> R) (f : arr3) a b c,
  do_loop lo hi (fun i s => upd3 s i j k (s i j k + inc i)) f a b c =
  f a b c + (if (k =? c)%Z then (if inb lo hi a && (j =? b)%Z then inc a else 0) else 0).
Proof.
  intros. transitivity (f a b c + sumZ lo hi (fun i => if (i =? a)%Z then (if (k =? c)%Z then (if (j =? b)%Z then inc a else 0) else 0) else 0)).
  - apply (obs_loop arr3 (fun s => s a b c)). intros i s _. unfold upd3. rewrite (Z.eqb_sym a i), (Z.eqb_sym b j), (Z.eqb_sym c k).
    destruct (Z.eqb_spec i a) as [-> |]; destruct (Z.eqb_spec j b) as [-> |]; destruct (Z.eqb_spec k c) as [-> |]; cbn; ring.
  - rewrite (sumZ_single lo hi a (fun _ => _)). destruct (inb lo hi a); destruct (k =? c)%Z; destruct (j =? b)%Z; cbn; ring.
Qed.

(** ** what each scheme adds, face by face *)
Definition gain (n p : Z) (inbox : bool) (inc : Z -> R) : R :=
  if inb 1 n p then sumZ 1 n (fun m => if inbox then inc m else 0) else 0.

Lemma add_flux_x : forall if0 il0 if1 il1 n dx0 dx1 conc d0 d1 flux a b p,
  fst (add_flux if0 il0 if1 il1 n dx0 dx1 conc d0 d1 flux) a b p = fst flux a b p +
  gain n p (inb if0 (il0 + 1) a && inb if1 il1 b) (fun m => 1 / dx0 * (d0 a b (comp_index n p m) * (conc a b m - conc (a - 1)%Z b m))).
Proof.
  intros. unfold add_flux, gain. cbv zeta.
  rewrite (pairs_obs (arr3 * arr3) (fun s => fst s a b p) n p
    (fun m => if inb if0 (il0 + 1) a && inb if1 il1 b then 1 / dx0 * (d0 a b (comp_index n p m) * (conc a b m - conc (a - 1)%Z b m)) else 0)).
  - reflexivity.
  - intros ic jc s. cbn [fst]. rewrite (plane_add _ _ _ _ ic (fun i0 i1 => 1 / dx0 * (d0 i0 i1 (comp_index n ic jc) * (conc i0 i1 jc - conc (i0 - 1)%Z i1 jc)))).
    destruct (Z.eqb_spec ic p) as [-> |]; reflexivity.
Qed.
Lemma add_flux_y : forall if0 il0 if1 il1 n dx0 dx1 conc d0 d1 flux a b p,
  snd (add_flux if0 il0 if1 il1 n dx0 dx1 conc d0 d1 flux) a b p = snd flux a b p +
  gain n p (inb if0 il0 a && inb if1 (il1 + 1) b) (fun m => 1 / dx1 * (d1 a b (comp_index n p m) * (conc a b m - conc a (b - 1)%Z m))).
Proof.
  intros. unfold add_flux, gain. cbv zeta.
  rewrite (pairs_obs (arr3 * arr3) (fun s => snd s a b p) n p
    (fun m => if inb if0 il0 a && inb if1 (il1 + 1) b then 1 / dx1 * (d1 a b (comp_index n p m) * (conc a b m - conc a (b - 1)%Z m)) else 0)).
  - reflexivity.
  - intros ic jc s. cbn [snd]. rewrite (plane_add _ _ _ _ ic (fun i0 i1 => 1 / dx1 * (d1 i0 i1 (comp_index n ic jc) * (conc i0 i1 jc - conc i0 (i1 - 1)%Z jc)))).
    destruct (Z.eqb_spec ic p) as [-> |]; reflexivity.
Qed.
Definition iso_x (n : Z) (dx0 : R) (conc d0 : arr3) (p m a b : Z) : R :=
  let ij := comp_index n p m in
  1 / (12 * dx0) * (d0 a (b + 1)%Z ij * (conc a (b + 1)%Z m - conc (a - 1)%Z (b + 1)%Z m))
  + 10 / (12 * dx0) * (d0 a b ij * (conc a b m - conc (a - 1)%Z b m))
  + 1 / (12 * dx0) * (d0 a (b - 1)%Z ij * (conc a (b - 1)%Z m - conc (a - 1)%Z (b - 1)%Z m)).
Definition iso_y (n : Z) (dx1 : R) (conc d1 : arr3) (p m a b : Z) : R :=
  let ij := comp_index n p m in
  1 / (12 * dx1) * (d1 (a + 1)%Z b ij * (conc (a + 1)%Z b m - conc (a + 1)%Z (b - 1)%Z m))
  + 10 / (12 * dx1) * (d1 a b ij * (conc a b m - conc a (b - 1)%Z m))
  + 1 / (12 * dx1) * (d1 (a - 1)%Z b ij * (conc (a - 1)%Z b m - conc (a - 1)%Z (b - 1)%Z m)).
Lemma plus4 : forall a b c d : R, a + b + c + d = a + (b + c + d). Proof. intros; ring. Qed.
Lemma upd3_ext : forall (f : arr3) i j k v w, v = w -> upd3 f i j k v = upd3 f i j k w. Proof. intros; subst; reflexivity. Qed.
Lemma do_cells_ext2 : forall S lo0 hi0 lo1 hi1 (b1 b2 : Z -> Z -> S -> S) s,
  (forall i j s, b1 i j s = b2 i j s) -> do_cells lo0 hi0 lo1 hi1 b1 s = do_cells lo0 hi0 lo1 hi1 b2 s.
Proof. intros. unfold do_cells. apply do_loop_ext. intros j s1 _. apply do_loop_ext. intros i s2 _. apply H. Qed.
Lemma add_flux_iso_x : forall if0 il0 if1 il1 n dx0 dx1 conc d0 d1 flux a b p,
  fst (add_flux_iso if0 il0 if1 il1 n dx0 dx1 conc d0 d1 flux) a b p = fst flux a b p +
  gain n p (inb if0 (il0 + 1) a && inb if1 il1 b) (fun m => iso_x n dx0 conc d0 p m a b).
Proof.
  intros. unfold add_flux_iso, gain. cbv zeta.
  rewrite (pairs_obs (arr3 * arr3) (fun s => fst s a b p) n p
    (fun m => if inb if0 (il0 + 1) a && inb if1 il1 b then iso_x n dx0 conc d0 p m a b else 0)).
  - reflexivity.
  - intros ic jc s. cbn [fst].
    rewrite (do_cells_ext2 _ _ _ _ _ _ (fun i0 i1 (f : arr3) => upd3 f i0 i1 ic (f i0 i1 ic + iso_x n dx0 conc d0 ic jc i0 i1))).
    + rewrite plane_add. destruct (Z.eqb_spec ic p) as [-> |]; reflexivity.
    + intros i0 i1 f. apply upd3_ext. unfold iso_x. cbv zeta. apply plus4.
Qed.
Lemma add_flux_iso_y : forall if0 il0 if1 il1 n dx0 dx1 conc d0 d1 flux a b p,
  snd (add_flux_iso if0 il0 if1 il1 n dx0 dx1 conc d0 d1 flux) a b p = snd flux a b p +
  gain n p (inb if0 il0 a && inb if1 (il1 + 1) b) (fun m => iso_y n dx1 conc d1 p m a b).
Proof.
  intros. unfold add_flux_iso, gain. cbv zeta.
  rewrite (pairs_obs (arr3 * arr3) (fun s => snd s a b p) n p
    (fun m => if inb if0 il0 a && inb if1 (il1 + 1) b then iso_y n dx1 conc d1 p m a b else 0)).
  - reflexivity.
  - intros ic jc s. cbn [snd].
    rewrite (do_cells_ext2 _ _ _ _ _ _ (fun i0 i1 (f : arr3) => upd3 f i0 i1 ic (f i0 i1 ic + iso_y n dx1 conc d1 ic jc i0 i1))).
    + rewrite plane_add. destruct (Z.eqb_spec ic p) as [-> |]; reflexivity.
    + intros i0 i1 f. apply upd3_ext. unfold iso_y. cbv zeta. apply plus4.
Qed.

(** the fourth-order scheme: [b] tells if the face lies on a physical boundary *)
Definition mixed (bdry : bool) (h d v0 v1 v2 v3 : R) : R :=
  if bdry then d * (1 / h) * (v1 - v2) else d * (15 / (12 * h) * (v1 - v2) - 1 / (12 * h) * (v0 - v3)).
Definition on_side (lo hi : Z) (plo phi i : Z) : bool := ((plo =? 1) && (i =? lo) || (phi =? 1) && (i =? hi + 1))%Z.

Lemma add_flux_4th_x : forall if0 il0 if1 il1 n dx0 dx1 data d0 d1 physb flux a b p, (if0 <= il0)%Z ->
  fst (add_flux_4th if0 il0 if1 il1 n dx0 dx1 data d0 d1 physb flux) a b p = fst flux a b p +
  gain n p (inb if0 (il0 + 1) a && inb if1 il1 b) (fun m =>
    mixed (on_side if0 il0 (physb 1%Z) (physb 2%Z) a) dx0 (d0 a b (comp_index n p m))
      (data (a + 1)%Z b m) (data a b m) (data (a - 1)%Z b m) (data (a - 2)%Z b m)).
Proof.
  intros if0 il0 if1 il1 n dx0 dx1 data d0 d1 physb flux a b p Hb. unfold add_flux_4th, gain. cbv zeta.
  set (inc := fun m => mixed (on_side if0 il0 (physb 1%Z) (physb 2%Z) a) dx0 (d0 a b (comp_index n p m))
      (data (a + 1)%Z b m) (data a b m) (data (a - 1)%Z b m) (data (a - 2)%Z b m)).
  rewrite (pairs_obs (arr3 * arr3) (fun s => fst s a b p) n p
    (fun m => if inb if0 (il0 + 1) a && inb if1 il1 b then inc m else 0)).
  - reflexivity.
  - intros ic jc s. cbn [fst].
    transitivity (fst s a b p + sumZ if1 il1 (fun i1 => if (i1 =? b)%Z then (if (ic =? p)%Z then (if inb if0 (il0 + 1) a then inc jc else 0) else 0) else 0)).
    + apply (obs_loop arr3 (fun f => f a b p)). intros i1 f _.
      rewrite (row_add _ _ i1 ic (fun i0 => d0 i0 i1 (comp_index n ic jc) * (15 / (12 * dx0) * (data i0 i1 jc - data (i0 - 1)%Z i1 jc) - 1 / (12 * dx0) * (data (i0 + 1)%Z i1 jc - data (i0 - 2)%Z i1 jc)))).
      destruct (Z.eqb_spec i1 b) as [-> | Hi].
      * destruct (Z.eqb_spec ic p) as [-> | Hp].
        -- unfold inc, mixed, on_side.
           destruct (Z.eqb_spec (physb 1%Z) 1); destruct (Z.eqb_spec (physb 2%Z) 1); cbn [andb orb];
             destruct (Z.eqb_spec a if0) as [-> |]; cbn [andb orb]; try (destruct (Z.eqb_spec a (il0 + 1)) as [-> |]);
             try (destruct (Z.eqb_spec if0 (il0 + 1)); [lia |]);
             repeat first [rewrite upd3_same | rewrite upd3_other by lia];
             repeat match goal with |- context [inb ?l ?h ?x] => destruct (inb_spec l h x); cbn [andb]; try lia end; ring.
        -- destruct (physb 1 =? 1)%Z; destruct (physb 2 =? 1)%Z; cbv beta iota;
             repeat first [rewrite upd3_other by lia]; ring.
      * destruct (ic =? p)%Z; destruct (physb 1 =? 1)%Z; destruct (physb 2 =? 1)%Z; cbv beta iota;
             rewrite ?andb_false_r; repeat first [rewrite upd3_other by lia]; ring.
    + rewrite (sumZ_single if1 il1 b (fun _ => _)).
      destruct (inb if1 il1 b); destruct (ic =? p)%Z; destruct (inb if0 (il0 + 1) a); cbn; ring.
Qed.
Lemma add_flux_4th_y : forall if0 il0 if1 il1 n dx0 dx1 data d0 d1 physb flux a b p, (if1 <= il1)%Z ->
  snd (add_flux_4th if0 il0 if1 il1 n dx0 dx1 data d0 d1 physb flux) a b p = snd flux a b p +
  gain n p (inb if0 il0 a && inb if1 (il1 + 1) b) (fun m =>
    mixed (on_side if1 il1 (physb 3%Z) (physb 4%Z) b) dx1 (d1 a b (comp_index n p m))
      (data a (b + 1)%Z m) (data a b m) (data a (b - 1)%Z m) (data a (b - 2)%Z m)).
Proof.
  intros if0 il0 if1 il1 n dx0 dx1 data d0 d1 physb flux a b p Hb. unfold add_flux_4th, gain. cbv zeta.
  set (inc := fun m => mixed (on_side if1 il1 (physb 3%Z) (physb 4%Z) b) dx1 (d1 a b (comp_index n p m))
      (data a (b + 1)%Z m) (data a b m) (data a (b - 1)%Z m) (data a (b - 2)%Z m)).
  rewrite (pairs_obs (arr3 * arr3) (fun s => snd s a b p) n p
    (fun m => if inb if0 il0 a && inb if1 (il1 + 1) b then inc m else 0)).
  - reflexivity.
  - intros ic jc s. cbn [snd].
    rewrite (plane_add _ _ _ _ ic (fun i0 i1 => d1 i0 i1 (comp_index n ic jc) * (15 / (12 * dx1) * (data i0 i1 jc - data i0 (i1 - 1)%Z jc) - 1 / (12 * dx1) * (data i0 (i1 + 1)%Z jc - data i0 (i1 - 2)%Z jc)))).
    assert (L : forall i1 (f : arr3), do_loop if0 il0 (fun i0 (f : arr3) => upd3 f i0 i1 ic (f i0 i1 ic + d1 i0 i1 (comp_index n ic jc) * (1 / dx1) * (data i0 i1 jc - data i0 (i1 - 1)%Z jc))) f a b p
      = f a b p + (if (ic =? p)%Z then (if inb if0 il0 a && (i1 =? b)%Z then d1 a i1 (comp_index n ic jc) * (1 / dx1) * (data a i1 jc - data a (i1 - 1)%Z jc) else 0) else 0)).
    { intros i1 f. apply (row_add _ _ i1 ic (fun i0 => d1 i0 i1 (comp_index n ic jc) * (1 / dx1) * (data i0 i1 jc - data i0 (i1 - 1)%Z jc))). }
    unfold inc, mixed, on_side.
    destruct (Z.eqb_spec ic p) as [-> | Hp];
      destruct (Z.eqb_spec (physb 3%Z) 1); destruct (Z.eqb_spec (physb 4%Z) 1); cbn [andb orb];
      rewrite ?L;
      destruct (Z.eqb_spec b if1) as [-> |]; cbn [andb orb]; rewrite ?Z.eqb_refl;
      repeat match goal with
        | |- context [inb ?l ?h ?x] => destruct (inb_spec l h x); cbn [andb orb]; try lia
        | |- context [(?x =? ?y)%Z] => destruct (Z.eqb_spec x y); subst; cbn [andb orb]; try lia end; try ring.
Qed.

Lemma gain_in : forall n p (c : bool) inc v, (1 <= p <= n)%Z -> c = true -> sumZ 1 n inc = v -> gain n p c inc = v.
Proof.
  intros n p c inc v Hp -> <-. unfold gain. destruct (inb_spec 1 n p); [reflexivity | lia].
Qed.
Lemma gain_out : forall n p (c : bool) inc, ~ (c = true /\ (1 <= p <= n)%Z) -> gain n p c inc = 0.
Proof.
  intros n p c inc H. unfold gain. destruct (inb_spec 1 n p); [| reflexivity].
  destruct c; [tauto |]. apply sumZ_zero.
Qed.
Lemma box_true : forall lo0 hi0 lo1 hi1 i j, in_box lo0 hi0 lo1 hi1 i j <-> inb lo0 hi0 i && inb lo1 hi1 j = true.
Proof.
  intros. unfold in_box. destruct (inb_spec lo0 hi0 i); destruct (inb_spec lo1 hi1 j); cbn; split; intro H; try tauto; try discriminate; lia.
Qed.

(** ** second-order scheme *)
Lemma flux_exact_x : forall if0 il0 if1 il1 n dx0 dx1 conc d0 d1 flux i j p u s, dx0 <> 0 ->
  in_box if0 (il0 + 1) if1 il1 i j -> (1 <= p <= n)%Z ->
  (forall m, (1 <= m <= n)%Z -> line_data 2 dx0 (i - 1) i i (u m) (fun k => conc k j m) (s m)) ->
  fst (add_flux if0 il0 if1 il1 n dx0 dx1 conc d0 d1 flux) i j p =
  fst flux i j p + fick n (fun m => d0 i j (p + (m - 1) * n)%Z) s.
Proof.
  intros until s. intros Hh Hb Hp H. rewrite add_flux_x. f_equal.
  apply gain_in; auto; [apply box_true; auto |]. unfold fick. apply sumZ_ext. intros m Hm. unfold comp_index.
  destruct (H m Hm) as (A & B & C). rewrite <- (centred_face dx0 (u m) i (fun k => conc k j m) (s m) Hh A B C). ring.
Qed.
Lemma flux_exact_y : forall if0 il0 if1 il1 n dx0 dx1 conc d0 d1 flux i j p u s, dx1 <> 0 ->
  in_box if0 il0 if1 (il1 + 1) i j -> (1 <= p <= n)%Z ->
  (forall m, (1 <= m <= n)%Z -> line_data 2 dx1 (j - 1) j j (u m) (fun k => conc i k m) (s m)) ->
  snd (add_flux if0 il0 if1 il1 n dx0 dx1 conc d0 d1 flux) i j p =
  snd flux i j p + fick n (fun m => d1 i j (p + (m - 1) * n)%Z) s.
Proof.
  intros until s. intros Hh Hb Hp H. rewrite add_flux_y. f_equal.
  apply gain_in; auto; [apply box_true; auto |]. unfold fick. apply sumZ_ext. intros m Hm. unfold comp_index.
  destruct (H m Hm) as (A & B & C). rewrite <- (centred_face dx1 (u m) j (fun k => conc i k m) (s m) Hh A B C). ring.
Qed.
(** only the faces of the patch and the components 1..n are touched *)
Lemma flux_only : forall t if0 il0 if1 il1 n dx0 dx1 physb conc d0 d1 flux i j p, (if0 <= il0)%Z -> (if1 <= il1)%Z ->
  (~ (in_box if0 (il0 + 1) if1 il1 i j /\ (1 <= p <= n)%Z) ->
   fst (d_add_flux t if0 il0 if1 il1 n dx0 dx1 physb conc d0 d1 flux) i j p = fst flux i j p) /\
  (~ (in_box if0 il0 if1 (il1 + 1) i j /\ (1 <= p <= n)%Z) ->
   snd (d_add_flux t if0 il0 if1 il1 n dx0 dx1 physb conc d0 d1 flux) i j p = snd flux i j p).
Proof.
  intros t if0 il0 if1 il1 n dx0 dx1 physb conc d0 d1 flux i j p H0 H1. unfold d_add_flux.
  split; intro H; rewrite box_true in H; destruct t;
    first [rewrite add_flux_iso_x | rewrite add_flux_iso_y | rewrite add_flux_4th_x by auto | rewrite add_flux_4th_y by auto | rewrite add_flux_x | rewrite add_flux_y];
    rewrite gain_out by auto; ring.
Qed.

(** ** isotropic scheme: the (1,10,1)/12 average over three rows *)
Lemma iso_exact_x : forall if0 il0 if1 il1 n dx0 dx1 conc d0 d1 flux i j p u s, dx0 <> 0 ->
  in_box if0 (il0 + 1) if1 il1 i j -> (1 <= p <= n)%Z ->
  (forall m e, (1 <= m <= n)%Z -> (j - 1 <= e <= j + 1)%Z -> line_data 2 dx0 (i - 1) i i (u m e) (fun k => conc k e m) (s m e)) ->
  fst (add_flux_iso if0 il0 if1 il1 n dx0 dx1 conc d0 d1 flux) i j p =
  fst flux i j p + row_average (fun e => fick n (fun m => d0 i e (p + (m - 1) * n)%Z) (fun m => s m e)) j.
Proof.
  intros until s. intros Hh Hb Hp H. rewrite add_flux_iso_x. f_equal.
  apply gain_in; auto; [apply box_true; auto |]. unfold row_average, fick, Rdiv.
  rewrite <- !sumZ_scal, <- !sumZ_plus, Rmult_comm, <- sumZ_scal. apply sumZ_ext. intros m Hm. unfold iso_x, comp_index.
  assert (G : forall e, (j - 1 <= e <= j + 1)%Z -> conc i e m - conc (i - 1)%Z e m = dx0 * s m e).
  { intros e He. destruct (H m e Hm He) as (A & B & C). rewrite <- (centred_face dx0 (u m e) i (fun k => conc k e m) (s m e) Hh A B C). field. auto. }
  rewrite !G by lia. field. auto.
Qed.
Lemma iso_exact_y : forall if0 il0 if1 il1 n dx0 dx1 conc d0 d1 flux i j p u s, dx1 <> 0 ->
  in_box if0 il0 if1 (il1 + 1) i j -> (1 <= p <= n)%Z ->
  (forall m e, (1 <= m <= n)%Z -> (i - 1 <= e <= i + 1)%Z -> line_data 2 dx1 (j - 1) j j (u m e) (fun k => conc e k m) (s m e)) ->
  snd (add_flux_iso if0 il0 if1 il1 n dx0 dx1 conc d0 d1 flux) i j p =
  snd flux i j p + row_average (fun e => fick n (fun m => d1 e j (p + (m - 1) * n)%Z) (fun m => s m e)) i.
Proof.
  intros until s. intros Hh Hb Hp H. rewrite add_flux_iso_y. f_equal.
  apply gain_in; auto; [apply box_true; auto |]. unfold row_average, fick, Rdiv.
  rewrite <- !sumZ_scal, <- !sumZ_plus, Rmult_comm, <- sumZ_scal. apply sumZ_ext. intros m Hm. unfold iso_y, comp_index.
  assert (G : forall e, (i - 1 <= e <= i + 1)%Z -> conc e j m - conc e (j - 1)%Z m = dx1 * s m e).
  { intros e He. destruct (H m e Hm He) as (A & B & C). rewrite <- (centred_face dx1 (u m e) j (fun k => conc e k m) (s m e) Hh A B C). field. auto. }
  rewrite !G by lia. field. auto.
Qed.

(** ** fourth-order scheme *)
Lemma mixed_low : forall h u i (line : Z -> R) s d v0 v3, h <> 0 -> degree_le 2 u ->
  holds_values h (poly u) (i - 1) i line \/ holds_averages h (poly u) (i - 1) i line -> derivable_pt_lim (poly u) (face h i) s ->
  mixed true h d v0 (line i) (line (i - 1)%Z) v3 = d * s.
Proof.
  intros h u i line s d v0 v3 Hh Hu HV Hs. unfold mixed. rewrite Rmult_assoc, (centred_face h u i line s Hh Hu HV Hs). reflexivity.
Qed.
Lemma mixed_high : forall h u i (line : Z -> R) s d, h <> 0 -> degree_le 4 u ->
  holds_averages h (poly u) (i - 2) (i + 1) line -> derivable_pt_lim (poly u) (face h i) s ->
  mixed false h d (line (i + 1)%Z) (line i) (line (i - 1)%Z) (line (i - 2)%Z) = d * s.
Proof.
  intros h u i line s d Hh Hu HV Hs. unfold mixed. rewrite (fourth_face h u i line s Hh Hu HV Hs). reflexivity.
Qed.
Lemma mixed_both : forall b h u i (line : Z -> R) s d, h <> 0 -> degree_le 2 u ->
  holds_averages h (poly u) (i - 2) (i + 1) line -> derivable_pt_lim (poly u) (face h i) s ->
  mixed b h d (line (i + 1)%Z) (line i) (line (i - 1)%Z) (line (i - 2)%Z) = d * s.
Proof.
  intros b h u i line s d Hh Hu HV Hs. destruct b.
  - apply (mixed_low h u); auto. right. destruct HV as (U & A & B). exists U. split; auto. intros k Hk. apply B. lia.
  - apply (mixed_high h u); auto. unfold degree_le in *. lia.
Qed.
Lemma fourth_exact_x : forall if0 il0 if1 il1 n dx0 dx1 conc d0 d1 physb flux i j p u s, dx0 <> 0 -> (if0 <= il0)%Z ->
  in_box if0 (il0 + 1) if1 il1 i j -> (1 <= p <= n)%Z -> (i = if0 -> physb 1%Z <> 1%Z) -> (i = il0 + 1 -> physb 2 <> 1)%Z ->
  (forall m, (1 <= m <= n)%Z -> line_averages 4 dx0 (i - 2) (i + 1) i (u m) (fun k => conc k j m) (s m)) ->
  fst (add_flux_4th if0 il0 if1 il1 n dx0 dx1 conc d0 d1 physb flux) i j p =
  fst flux i j p + fick n (fun m => d0 i j (p + (m - 1) * n)%Z) s.
Proof.
  intros until s. intros Hh Hne Hb Hp P1 P2 H. rewrite add_flux_4th_x by auto. f_equal.
  apply gain_in; auto; [apply box_true; auto |]. unfold fick. apply sumZ_ext. intros m Hm. unfold comp_index.
  replace (on_side if0 il0 (physb 1%Z) (physb 2%Z) i) with false.
  2:{ unfold on_side. destruct (Z.eqb_spec i if0); destruct (Z.eqb_spec i (il0 + 1)); rewrite ?andb_false_r; cbn; auto; try lia;
      rewrite ?andb_true_r; symmetry; rewrite ?orb_false_r; apply Z.eqb_neq; auto. }
  destruct (H m Hm) as (A & B & C). apply (mixed_high dx0 (u m) i (fun k => conc k j m)); auto.
Qed.
Lemma fourth_exact_y : forall if0 il0 if1 il1 n dx0 dx1 conc d0 d1 physb flux i j p u s, dx1 <> 0 -> (if1 <= il1)%Z ->
  in_box if0 il0 if1 (il1 + 1) i j -> (1 <= p <= n)%Z -> (j = if1 -> physb 3%Z <> 1%Z) -> (j = il1 + 1 -> physb 4 <> 1)%Z ->
  (forall m, (1 <= m <= n)%Z -> line_averages 4 dx1 (j - 2) (j + 1) j (u m) (fun k => conc i k m) (s m)) ->
  snd (add_flux_4th if0 il0 if1 il1 n dx0 dx1 conc d0 d1 physb flux) i j p =
  snd flux i j p + fick n (fun m => d1 i j (p + (m - 1) * n)%Z) s.
Proof.
  intros until s. intros Hh Hne Hb Hp P1 P2 H. rewrite add_flux_4th_y by auto. f_equal.
  apply gain_in; auto; [apply box_true; auto |]. unfold fick. apply sumZ_ext. intros m Hm. unfold comp_index.
  replace (on_side if1 il1 (physb 3%Z) (physb 4%Z) j) with false.
  2:{ unfold on_side. destruct (Z.eqb_spec j if1); destruct (Z.eqb_spec j (il1 + 1)); rewrite ?andb_false_r; cbn; auto; try lia;
      rewrite ?andb_true_r; symmetry; rewrite ?orb_false_r; apply Z.eqb_neq; auto. }
  destruct (H m Hm) as (A & B & C). apply (mixed_high dx1 (u m) j (fun k => conc i k m)); auto.
Qed.
(** boundary faces: second order, from the two adjacent cells only *)
Lemma fourth_bdry_x : forall if0 il0 if1 il1 n dx0 dx1 conc d0 d1 physb flux i j p u s, dx0 <> 0 -> (if0 <= il0)%Z ->
  (if1 <= j <= il1)%Z -> (1 <= p <= n)%Z -> (i = if0 /\ physb 1 = 1 \/ i = il0 + 1 /\ physb 2 = 1)%Z ->
  (forall m, (1 <= m <= n)%Z -> line_data 2 dx0 (i - 1) i i (u m) (fun k => conc k j m) (s m)) ->
  fst (add_flux_4th if0 il0 if1 il1 n dx0 dx1 conc d0 d1 physb flux) i j p =
  fst flux i j p + fick n (fun m => d0 i j (p + (m - 1) * n)%Z) s.
Proof.
  intros until s. intros Hh Hne Hj Hp P H. rewrite add_flux_4th_x by auto. f_equal.
  apply gain_in; auto; [apply box_true; split; lia |]. unfold fick. apply sumZ_ext. intros m Hm. unfold comp_index.
  replace (on_side if0 il0 (physb 1%Z) (physb 2%Z) i) with true.
  2:{ unfold on_side. destruct P as [[-> ->] | [-> ->]]; rewrite !Z.eqb_refl; cbn; rewrite ?orb_true_r; reflexivity. }
  destruct (H m Hm) as (A & B & C). apply (mixed_low dx0 (u m) i (fun k => conc k j m)); auto.
Qed.
Lemma fourth_bdry_y : forall if0 il0 if1 il1 n dx0 dx1 conc d0 d1 physb flux i j p u s, dx1 <> 0 -> (if1 <= il1)%Z ->
  (if0 <= i <= il0)%Z -> (1 <= p <= n)%Z -> (j = if1 /\ physb 3 = 1 \/ j = il1 + 1 /\ physb 4 = 1)%Z ->
  (forall m, (1 <= m <= n)%Z -> line_data 2 dx1 (j - 1) j j (u m) (fun k => conc i k m) (s m)) ->
  snd (add_flux_4th if0 il0 if1 il1 n dx0 dx1 conc d0 d1 physb flux) i j p =
  snd flux i j p + fick n (fun m => d1 i j (p + (m - 1) * n)%Z) s.
Proof.
  intros until s. intros Hh Hne Hj Hp P H. rewrite add_flux_4th_y by auto. f_equal.
  apply gain_in; auto; [apply box_true; split; lia |]. unfold fick. apply sumZ_ext. intros m Hm. unfold comp_index.
  replace (on_side if1 il1 (physb 3%Z) (physb 4%Z) j) with true.
  2:{ unfold on_side. destruct P as [[-> ->] | [-> ->]]; rewrite !Z.eqb_refl; cbn; rewrite ?orb_true_r; reflexivity. }
  destruct (H m Hm) as (A & B & C). apply (mixed_low dx1 (u m) j (fun k => conc i k m)); auto.
Qed.

(** ** three dimensions *)
Lemma cube_add : forall lo0 hi0 lo1 hi1 lo2 hi2 q (inc : Z -> Z -> Z -> R) (f : arr4) a b c e,
  do_cells3 lo0 hi0 lo1 hi1 lo2 hi2 (fun i j k s => upd4 s i j k q (s i j k q + inc i j k)) f a b c e =
  f a b c e + (if (q =? e)%Z then (if inb lo0 hi0 a && inb lo1 hi1 b && inb lo2 hi2 c then inc a b c else 0) else 0).
Proof.
  intros.
  transitivity (f a b c e + sum_box3 lo0 hi0 lo1 hi1 lo2 hi2 (fun i j k =>
    if (i =? a)%Z then (if (j =? b)%Z then (if (k =? c)%Z then (if (q =? e)%Z then inc a b c else 0) else 0) else 0) else 0)).
  - apply (obs_cells3 arr4 (fun s => s a b c e)). intros i j k s _. unfold upd4.
    rewrite (Z.eqb_sym a i), (Z.eqb_sym b j), (Z.eqb_sym c k), (Z.eqb_sym e q).
    destruct (Z.eqb_spec i a) as [-> |]; destruct (Z.eqb_spec j b) as [-> |]; destruct (Z.eqb_spec k c) as [-> |]; destruct (Z.eqb_spec q e) as [-> |]; cbn; ring.
  - f_equal. unfold sum_box3.
    set (v := if (q =? e)%Z then inc a b c else 0).
    rewrite (sumZ_ext lo2 hi2 _ (fun k => if (k =? c)%Z then (if inb lo1 hi1 b then (if inb lo0 hi0 a then v else 0) else 0) else 0)).
    + rewrite (sumZ_single lo2 hi2 c (fun _ => _)). unfold v.
      destruct (inb lo0 hi0 a); destruct (inb lo1 hi1 b); destruct (inb lo2 hi2 c); destruct (q =? e)%Z; reflexivity.
    + intros k _. rewrite (sumZ_ext lo1 hi1 _ (fun j => if (j =? b)%Z then (if (k =? c)%Z then (if inb lo0 hi0 a then v else 0) else 0) else 0)).
      * rewrite (sumZ_single lo1 hi1 b (fun _ => _)). destruct (inb lo1 hi1 b); destruct (k =? c)%Z; reflexivity.
      * intros j _. rewrite (sumZ_single lo0 hi0 a (fun _ => _)). destruct (j =? b)%Z; destruct (k =? c)%Z; destruct (inb lo0 hi0 a); reflexivity.
Qed.
Lemma plus6 : forall a b c d e f : R, a + b + c + d + e + f = a + (b + c + d + e + f). Proof. intros; ring. Qed.
Lemma upd4_ext : forall (f : arr4) i j k l v w, v = w -> upd4 f i j k l v = upd4 f i j k l w. Proof. intros; subst; reflexivity. Qed.
Lemma do_cells3_ext2 : forall S lo0 hi0 lo1 hi1 lo2 hi2 (b1 b2 : Z -> Z -> Z -> S -> S) s,
  (forall i j k s, b1 i j k s = b2 i j k s) -> do_cells3 lo0 hi0 lo1 hi1 lo2 hi2 b1 s = do_cells3 lo0 hi0 lo1 hi1 lo2 hi2 b2 s.
Proof.
  intros. unfold do_cells3. apply do_loop_ext. intros k s0 _. apply do_loop_ext. intros j s1 _. apply do_loop_ext. intros i s2 _. apply H.
Qed.
(** one direction of the 3D isotropic scheme; T e = exact flux along line e *)
Lemma box3_true : forall lo0 hi0 lo1 hi1 lo2 hi2 i j k, in_box3 lo0 hi0 lo1 hi1 lo2 hi2 i j k <->
  inb lo0 hi0 i && inb lo1 hi1 j && inb lo2 hi2 k = true.
Proof.
  intros. unfold in_box3. destruct (inb_spec lo0 hi0 i); destruct (inb_spec lo1 hi1 j); destruct (inb_spec lo2 hi2 k); cbn; split; intro H; try tauto; try discriminate; lia.
Qed.
Section Iso3.
  Variables (if0 il0 if1 il1 if2 il2 n : Z) (dx0 dx1 dx2 : R) (conc d0 d1 d2 : arr4) (flux : arr4 * arr4 * arr4).
  Let r := add_flux_iso3 if0 il0 if1 il1 if2 il2 n dx0 dx1 dx2 conc d0 d1 d2 flux.
  Definition cross5 (h : R) (d c0 c1 : Z -> Z -> R) (b c : Z) : R :=
    1 / (12 * h) * (d (b - 1)%Z c * (c1 (b - 1)%Z c - c0 (b - 1)%Z c))
    + 1 / (12 * h) * (d b (c - 1)%Z * (c1 b (c - 1)%Z - c0 b (c - 1)%Z))
    + 1 / (12 * h) * (d (b + 1)%Z c * (c1 (b + 1)%Z c - c0 (b + 1)%Z c))
    + 1 / (12 * h) * (d b (c + 1)%Z * (c1 b (c + 1)%Z - c0 b (c + 1)%Z))
    + 8 / (12 * h) * (d b c * (c1 b c - c0 b c)).
  Lemma iso3_x : forall a b c p, fst (fst r) a b c p = fst (fst flux) a b c p +
    gain n p (inb if0 (il0 + 1) a && inb if1 il1 b && inb if2 il2 c) (fun m =>
      cross5 dx0 (fun y z => d0 a y z (comp_index n p m)) (fun y z => conc (a - 1)%Z y z m) (fun y z => conc a y z m) b c).
  Proof.
    intros. unfold r, add_flux_iso3, gain. cbv zeta.
    rewrite (pairs_obs (arr4 * arr4 * arr4) (fun s => fst (fst s) a b c p) n p (fun m =>
      if inb if0 (il0 + 1) a && inb if1 il1 b && inb if2 il2 c then
      cross5 dx0 (fun y z => d0 a y z (comp_index n p m)) (fun y z => conc (a - 1)%Z y z m) (fun y z => conc a y z m) b c else 0)).
    - reflexivity.
    - intros ic jc s. cbn [fst snd].
      rewrite (do_cells3_ext2 _ _ _ _ _ _ _ _ (fun i j k (f : arr4) => upd4 f i j k ic (f i j k ic +
        cross5 dx0 (fun y z => d0 i y z (comp_index n ic jc)) (fun y z => conc (i - 1)%Z y z jc) (fun y z => conc i y z jc) j k))).
      + rewrite (cube_add _ _ _ _ _ _ ic (fun i j k => cross5 dx0 (fun y z => d0 i y z (comp_index n ic jc)) (fun y z => conc (i - 1)%Z y z jc) (fun y z => conc i y z jc) j k)).
        destruct (Z.eqb_spec ic p) as [-> |]; reflexivity.
      + intros i j k f. apply upd4_ext. unfold cross5. apply plus6.
  Qed.
  Lemma iso3_y : forall a b c p, snd (fst r) a b c p = snd (fst flux) a b c p +
    gain n p (inb if0 il0 a && inb if1 (il1 + 1) b && inb if2 il2 c) (fun m =>
      cross5 dx1 (fun x z => d1 x b z (comp_index n p m)) (fun x z => conc x (b - 1)%Z z m) (fun x z => conc x b z m) a c).
  Proof.
    intros. unfold r, add_flux_iso3, gain. cbv zeta.
    rewrite (pairs_obs (arr4 * arr4 * arr4) (fun s => snd (fst s) a b c p) n p (fun m =>
      if inb if0 il0 a && inb if1 (il1 + 1) b && inb if2 il2 c then
      cross5 dx1 (fun x z => d1 x b z (comp_index n p m)) (fun x z => conc x (b - 1)%Z z m) (fun x z => conc x b z m) a c else 0)).
    - reflexivity.
    - intros ic jc s. cbn [fst snd].
      rewrite (do_cells3_ext2 _ _ _ _ _ _ _ _ (fun i j k (f : arr4) => upd4 f i j k ic (f i j k ic +
        cross5 dx1 (fun x z => d1 x j z (comp_index n ic jc)) (fun x z => conc x (j - 1)%Z z jc) (fun x z => conc x j z jc) i k))).
      + rewrite (cube_add _ _ _ _ _ _ ic (fun i j k => cross5 dx1 (fun x z => d1 x j z (comp_index n ic jc)) (fun x z => conc x (j - 1)%Z z jc) (fun x z => conc x j z jc) i k)).
        destruct (Z.eqb_spec ic p) as [-> |]; reflexivity.
      + intros i j k f. apply upd4_ext. unfold cross5. ring.
  Qed.
  Lemma iso3_z : forall a b c p, snd r a b c p = snd flux a b c p +
    gain n p (inb if0 il0 a && inb if1 il1 b && inb if2 (il2 + 1) c) (fun m =>
      cross5 dx2 (fun x y => d2 x y c (comp_index n p m)) (fun x y => conc x y (c - 1)%Z m) (fun x y => conc x y c m) a b).
  Proof.
    intros. unfold r, add_flux_iso3, gain. cbv zeta.
    rewrite (pairs_obs (arr4 * arr4 * arr4) (fun s => snd s a b c p) n p (fun m =>
      if inb if0 il0 a && inb if1 il1 b && inb if2 (il2 + 1) c then
      cross5 dx2 (fun x y => d2 x y c (comp_index n p m)) (fun x y => conc x y (c - 1)%Z m) (fun x y => conc x y c m) a b else 0)).
    - reflexivity.
    - intros ic jc s. cbn [fst snd].
      rewrite (do_cells3_ext2 _ _ _ _ _ _ _ _ (fun i j k (f : arr4) => upd4 f i j k ic (f i j k ic +
        cross5 dx2 (fun x y => d2 x y k (comp_index n ic jc)) (fun x y => conc x y (k - 1)%Z jc) (fun x y => conc x y k jc) i j))).
      + rewrite (cube_add _ _ _ _ _ _ ic (fun i j k => cross5 dx2 (fun x y => d2 x y k (comp_index n ic jc)) (fun x y => conc x y (k - 1)%Z jc) (fun x y => conc x y k jc) i j)).
        destruct (Z.eqb_spec ic p) as [-> |]; reflexivity.
      + intros i j k f. apply upd4_ext. unfold cross5. ring.
  Qed.
End Iso3.
Lemma cross5_exact : forall h d c0 c1 (s : Z -> Z -> R) b c, h <> 0 ->
  (forall y z, (Z.abs (y - b) + Z.abs (z - c) <= 1)%Z -> c1 y z - c0 y z = h * s y z) ->
  cross5 h d c0 c1 b c = (8 * (d b c * s b c) + d (b - 1)%Z c * s (b - 1)%Z c + d (b + 1)%Z c * s (b + 1)%Z c
    + d b (c - 1)%Z * s b (c - 1)%Z + d b (c + 1)%Z * s b (c + 1)%Z) / 12.
Proof. intros h d c0 c1 s b c Hh H. unfold cross5. rewrite !H by lia. field. auto. Qed.
Lemma fick_average : forall n (d s : Z -> Z -> Z -> R) b c,
  sumZ 1 n (fun m => (8 * (d m b c * s m b c) + d m (b - 1)%Z c * s m (b - 1)%Z c + d m (b + 1)%Z c * s m (b + 1)%Z c
    + d m b (c - 1)%Z * s m b (c - 1)%Z + d m b (c + 1)%Z * s m b (c + 1)%Z) / 12) =
  cross_average (fun y z => fick n (fun m => d m y z) (fun m => s m y z)) b c.
Proof.
  intros. unfold cross_average, fick, Rdiv. rewrite <- !sumZ_scal, <- !sumZ_plus, Rmult_comm, <- sumZ_scal.
  apply sumZ_ext. intros m _. ring.
Qed.
Lemma iso3_exact_x : forall if0 il0 if1 il1 if2 il2 n dx0 dx1 dx2 conc d0 d1 d2 flux i j k p u s, dx0 <> 0 ->
  in_box3 if0 (il0 + 1) if1 il1 if2 il2 i j k -> (1 <= p <= n)%Z ->
  (forall m y z, (1 <= m <= n)%Z -> in_cross j k y z -> line_data 2 dx0 (i - 1) i i (u m y z) (fun l => conc l y z m) (s m y z)) ->
  fst (fst (add_flux_iso3 if0 il0 if1 il1 if2 il2 n dx0 dx1 dx2 conc d0 d1 d2 flux)) i j k p =
  fst (fst flux) i j k p + cross_average (fun y z => fick n (fun m => d0 i y z (p + (m - 1) * n)%Z) (fun m => s m y z)) j k.
Proof.
  intros until s. intros Hh Hb Hp H. rewrite iso3_x. f_equal. apply gain_in; auto; [apply box3_true; auto |].
  rewrite <- (fick_average n (fun m y z => d0 i y z (p + (m - 1) * n)%Z)). apply sumZ_ext. intros m Hm. unfold comp_index.
  rewrite (cross5_exact dx0 _ _ _ (s m)); [reflexivity | auto |]. intros y z Hyz. destruct (H m y z Hm Hyz) as (A & B & C).
  rewrite <- (centred_face dx0 (u m y z) i (fun l => conc l y z m) (s m y z) Hh A B C). field. auto.
Qed.
Lemma iso3_exact_y : forall if0 il0 if1 il1 if2 il2 n dx0 dx1 dx2 conc d0 d1 d2 flux i j k p u s, dx1 <> 0 ->
  in_box3 if0 il0 if1 (il1 + 1) if2 il2 i j k -> (1 <= p <= n)%Z ->
  (forall m x z, (1 <= m <= n)%Z -> in_cross i k x z -> line_data 2 dx1 (j - 1) j j (u m x z) (fun l => conc x l z m) (s m x z)) ->
  snd (fst (add_flux_iso3 if0 il0 if1 il1 if2 il2 n dx0 dx1 dx2 conc d0 d1 d2 flux)) i j k p =
  snd (fst flux) i j k p + cross_average (fun x z => fick n (fun m => d1 x j z (p + (m - 1) * n)%Z) (fun m => s m x z)) i k.
Proof.
  intros until s. intros Hh Hb Hp H. rewrite iso3_y. f_equal. apply gain_in; auto; [apply box3_true; auto |].
  rewrite <- (fick_average n (fun m x z => d1 x j z (p + (m - 1) * n)%Z)). apply sumZ_ext. intros m Hm. unfold comp_index.
  rewrite (cross5_exact dx1 _ _ _ (s m)); [reflexivity | auto |]. intros x z Hyz. destruct (H m x z Hm Hyz) as (A & B & C).
  rewrite <- (centred_face dx1 (u m x z) j (fun l => conc x l z m) (s m x z) Hh A B C). field. auto.
Qed.
Lemma iso3_exact_z : forall if0 il0 if1 il1 if2 il2 n dx0 dx1 dx2 conc d0 d1 d2 flux i j k p u s, dx2 <> 0 ->
  in_box3 if0 il0 if1 il1 if2 (il2 + 1) i j k -> (1 <= p <= n)%Z ->
  (forall m x y, (1 <= m <= n)%Z -> in_cross i j x y -> line_data 2 dx2 (k - 1) k k (u m x y) (fun l => conc x y l m) (s m x y)) ->
  snd (add_flux_iso3 if0 il0 if1 il1 if2 il2 n dx0 dx1 dx2 conc d0 d1 d2 flux) i j k p =
  snd flux i j k p + cross_average (fun x y => fick n (fun m => d2 x y k (p + (m - 1) * n)%Z) (fun m => s m x y)) i j.
Proof.
  intros until s. intros Hh Hb Hp H. rewrite iso3_z. f_equal. apply gain_in; auto; [apply box3_true; auto |].
  rewrite <- (fick_average n (fun m x y => d2 x y k (p + (m - 1) * n)%Z)). apply sumZ_ext. intros m Hm. unfold comp_index.
  rewrite (cross5_exact dx2 _ _ _ (s m)); [reflexivity | auto |]. intros x y Hyz. destruct (H m x y Hm Hyz) as (A & B & C).
  rewrite <- (centred_face dx2 (u m x y) k (fun l => conc x y l m) (s m x y) Hh A B C). field. auto.
Qed.

(** ** the composition flux of the EBS strategy *)
Lemma averages_narrow : forall h u lo hi lo' hi' line, (lo <= lo')%Z -> (hi' <= hi)%Z ->
  holds_averages h u lo hi line -> holds_averages h u lo' hi' line.
Proof. intros h u lo hi lo' hi' line H1 H2 (U & A & B). exists U. split; auto. intros k Hk. apply B. lia. Qed.
Lemma scheme_x : forall t if0 il0 if1 il1 n dx0 dx1 physb conc d0 d1 flux i j p u s, dx0 <> 0 -> (if0 <= il0)%Z ->
  in_box if0 (il0 + 1) if1 il1 i j -> (1 <= p <= n)%Z -> uniform_x n p i j 2 dx0 conc d0 u s ->
  fst (d_add_flux t if0 il0 if1 il1 n dx0 dx1 physb conc d0 d1 flux) i j p =
  fst flux i j p + fick n (fun m => d0 i j (p + (m - 1) * n)%Z) s.
Proof.
  intros t if0 il0 if1 il1 n dx0 dx1 physb conc d0 d1 flux i j p u s Hh Hne Hb Hp H.
  assert (Hl : forall m e, (1 <= m <= n)%Z -> (j - 1 <= e <= j + 1)%Z -> line_data 2 dx0 (i - 1) i i (u m) (fun k => conc k e m) (s m)).
  { intros m e Hm He. destruct (H m e Hm He) as ((A & B & C) & _). split; [exact A | split; [| exact C]].
    right. apply (averages_narrow _ _ (i - 2) (i + 1)); auto; lia. }
  destruct t; unfold d_add_flux.
  - rewrite (iso_exact_x if0 il0 if1 il1 n dx0 dx1 conc d0 d1 flux i j p (fun m _ => u m) (fun m _ => s m)); auto.
    f_equal. unfold row_average.
    assert (E : forall e, (j - 1 <= e <= j + 1)%Z -> fick n (fun m => d0 i e (p + (m - 1) * n)%Z) (fun m => s m) = fick n (fun m => d0 i j (p + (m - 1) * n)%Z) s).
    { intros e He. unfold fick. apply sumZ_ext. intros m Hm. destruct (H m e Hm He) as (_ & ->). reflexivity. }
    rewrite (E (j - 1)%Z), (E j), (E (j + 1)%Z) by lia. match goal with |- (?x + _ + _) / 12 = _ => generalize x end. intro x. field.
  - rewrite add_flux_4th_x by auto. f_equal. apply gain_in; auto; [apply box_true; auto |].
    unfold fick. apply sumZ_ext. intros m Hm. unfold comp_index.
    destruct (H m j Hm ltac:(lia)) as ((A & B & C) & _).
    apply (mixed_both _ dx0 (u m) i (fun k => conc k j m)); auto.
  - apply (flux_exact_x if0 il0 if1 il1 n dx0 dx1 conc d0 d1 flux i j p u s); auto. intros m Hm. apply Hl; auto; lia.
Qed.
Lemma scheme_y : forall t if0 il0 if1 il1 n dx0 dx1 physb conc d0 d1 flux i j p u s, dx1 <> 0 -> (if1 <= il1)%Z ->
  in_box if0 il0 if1 (il1 + 1) i j -> (1 <= p <= n)%Z -> uniform_y n p i j 2 dx1 conc d1 u s ->
  snd (d_add_flux t if0 il0 if1 il1 n dx0 dx1 physb conc d0 d1 flux) i j p =
  snd flux i j p + fick n (fun m => d1 i j (p + (m - 1) * n)%Z) s.
Proof.
  intros t if0 il0 if1 il1 n dx0 dx1 physb conc d0 d1 flux i j p u s Hh Hne Hb Hp H.
  assert (Hl : forall m e, (1 <= m <= n)%Z -> (i - 1 <= e <= i + 1)%Z -> line_data 2 dx1 (j - 1) j j (u m) (fun k => conc e k m) (s m)).
  { intros m e Hm He. destruct (H m e Hm He) as ((A & B & C) & _). split; [exact A | split; [| exact C]].
    right. apply (averages_narrow _ _ (j - 2) (j + 1)); auto; lia. }
  destruct t; unfold d_add_flux.
  - rewrite (iso_exact_y if0 il0 if1 il1 n dx0 dx1 conc d0 d1 flux i j p (fun m _ => u m) (fun m _ => s m)); auto.
    f_equal. unfold row_average.
    assert (E : forall e, (i - 1 <= e <= i + 1)%Z -> fick n (fun m => d1 e j (p + (m - 1) * n)%Z) (fun m => s m) = fick n (fun m => d1 i j (p + (m - 1) * n)%Z) s).
    { intros e He. unfold fick. apply sumZ_ext. intros m Hm. destruct (H m e Hm He) as (_ & ->). reflexivity. }
    rewrite (E (i - 1)%Z), (E i), (E (i + 1)%Z) by lia. match goal with |- (?x + _ + _) / 12 = _ => generalize x end. intro x. field.
  - rewrite add_flux_4th_y by auto. f_equal. apply gain_in; auto; [apply box_true; auto |].
    unfold fick. apply sumZ_ext. intros m Hm. unfold comp_index.
    destruct (H m i Hm ltac:(lia)) as ((A & B & C) & _).
    apply (mixed_both _ dx1 (u m) j (fun k => conc i k m)); auto.
  - apply (flux_exact_y if0 il0 if1 il1 n dx0 dx1 conc d0 d1 flux i j p u s); auto. intros m Hm. apply Hl; auto; lia.
Qed.
Lemma ebs_exact_x : forall t if0 il0 if1 il1 n dx0 dx1 touches l a b flux i j p ul ua ub sl sa sb, dx0 <> 0 -> (if0 <= il0)%Z ->
  in_box if0 (il0 + 1) if1 il1 i j -> (1 <= p <= n)%Z ->
  uniform_x n p i j 2 dx0 (fst (fst l)) (snd (fst l)) ul sl -> uniform_x n p i j 2 dx0 (fst (fst a)) (snd (fst a)) ua sa ->
  (forall ph, b = Some ph -> uniform_x n p i j 2 dx0 (fst (fst ph)) (snd (fst ph)) ub sb) ->
  fst (ebs_flux t if0 il0 if1 il1 n dx0 dx1 touches l a b flux) i j p =
  fick n (fun m => snd (fst l) i j (p + (m - 1) * n)%Z) sl + fick n (fun m => snd (fst a) i j (p + (m - 1) * n)%Z) sa +
  match b with Some ph => fick n (fun m => snd (fst ph) i j (p + (m - 1) * n)%Z) sb | None => 0 end.
Proof.
  intros until sb. intros Hh Hne Hb Hp Hl Ha Hbb. unfold ebs_flux. cbv zeta.
  destruct b as [ph |]; repeat (rewrite (scheme_x _ _ _ _ _ _ _ _ _ _ _ _ _ i j p _ _ Hh Hne Hb Hp (Hbb _ eq_refl)) || rewrite (scheme_x _ _ _ _ _ _ _ _ _ _ _ _ _ i j p _ _ Hh Hne Hb Hp Ha) || rewrite (scheme_x _ _ _ _ _ _ _ _ _ _ _ _ _ i j p _ _ Hh Hne Hb Hp Hl)); cbn [fst snd]; ring.
Qed.
Lemma ebs_exact_y : forall t if0 il0 if1 il1 n dx0 dx1 touches l a b flux i j p ul ua ub sl sa sb, dx1 <> 0 -> (if1 <= il1)%Z ->
  in_box if0 il0 if1 (il1 + 1) i j -> (1 <= p <= n)%Z ->
  uniform_y n p i j 2 dx1 (fst (fst l)) (snd l) ul sl -> uniform_y n p i j 2 dx1 (fst (fst a)) (snd a) ua sa ->
  (forall ph, b = Some ph -> uniform_y n p i j 2 dx1 (fst (fst ph)) (snd ph) ub sb) ->
  snd (ebs_flux t if0 il0 if1 il1 n dx0 dx1 touches l a b flux) i j p =
  fick n (fun m => snd l i j (p + (m - 1) * n)%Z) sl + fick n (fun m => snd a i j (p + (m - 1) * n)%Z) sa +
  match b with Some ph => fick n (fun m => snd ph i j (p + (m - 1) * n)%Z) sb | None => 0 end.
Proof.
  intros until sb. intros Hh Hne Hb Hp Hl Ha Hbb. unfold ebs_flux. cbv zeta.
  destruct b as [ph |]; repeat (rewrite (scheme_y _ _ _ _ _ _ _ _ _ _ _ _ _ i j p _ _ Hh Hne Hb Hp (Hbb _ eq_refl)) || rewrite (scheme_y _ _ _ _ _ _ _ _ _ _ _ _ _ i j p _ _ Hh Hne Hb Hp Ha) || rewrite (scheme_y _ _ _ _ _ _ _ _ _ _ _ _ _ i j p _ _ Hh Hne Hb Hp Hl)); cbn [fst snd]; ring.
Qed.
(** quartic data away from physical boundaries *)
Lemma ebs_fourth_x : forall if0 il0 if1 il1 n dx0 dx1 (touches : Z -> Z -> bool) l a b flux i j p ul ua ub sl sa sb, dx0 <> 0 -> (if0 <= il0)%Z ->
  in_box if0 (il0 + 1) if1 il1 i j -> (1 <= p <= n)%Z -> (i = if0 -> touches 0%Z 0%Z = false) -> (i = (il0 + 1)%Z -> touches 0%Z 1%Z = false) ->
  along_x n i j 4 dx0 (fst (fst l)) ul sl -> along_x n i j 4 dx0 (fst (fst a)) ua sa ->
  (forall ph, b = Some ph -> along_x n i j 4 dx0 (fst (fst ph)) ub sb) ->
  fst (ebs_flux FluxFourth if0 il0 if1 il1 n dx0 dx1 touches l a b flux) i j p =
  fick n (fun m => snd (fst l) i j (p + (m - 1) * n)%Z) sl + fick n (fun m => snd (fst a) i j (p + (m - 1) * n)%Z) sa +
  match b with Some ph => fick n (fun m => snd (fst ph) i j (p + (m - 1) * n)%Z) sb | None => 0 end.
Proof.
  intros until sb. intros Hh Hne Hb Hp T0 T1 Hl Ha Hbb. unfold ebs_flux, d_add_flux. cbv zeta.
  assert (P : forall x : bool, x = false -> (if x then 1 else 0)%Z <> 1%Z) by (intros x ->; discriminate).
  destruct b as [ph |].
  - rewrite (fourth_exact_x _ _ _ _ _ _ _ _ _ _ _ _ i j p ub sb); auto; try (cbn; auto); try (apply (Hbb _ eq_refl)).
    rewrite (fourth_exact_x _ _ _ _ _ _ _ _ _ _ _ _ i j p ua sa); auto; try (cbn; auto).
    rewrite (fourth_exact_x _ _ _ _ _ _ _ _ _ _ _ _ i j p ul sl); auto; try (cbn; auto). cbn [fst snd]. ring.
  - rewrite (fourth_exact_x _ _ _ _ _ _ _ _ _ _ _ _ i j p ua sa); auto; try (cbn; auto).
    rewrite (fourth_exact_x _ _ _ _ _ _ _ _ _ _ _ _ i j p ul sl); auto; try (cbn; auto). cbn [fst snd]. ring.
Qed.
Lemma ebs_fourth_y : forall if0 il0 if1 il1 n dx0 dx1 (touches : Z -> Z -> bool) l a b flux i j p ul ua ub sl sa sb, dx1 <> 0 -> (if1 <= il1)%Z ->
  in_box if0 il0 if1 (il1 + 1) i j -> (1 <= p <= n)%Z -> (j = if1 -> touches 1%Z 0%Z = false) -> (j = (il1 + 1)%Z -> touches 1%Z 1%Z = false) ->
  along_y n i j 4 dx1 (fst (fst l)) ul sl -> along_y n i j 4 dx1 (fst (fst a)) ua sa ->
  (forall ph, b = Some ph -> along_y n i j 4 dx1 (fst (fst ph)) ub sb) ->
  snd (ebs_flux FluxFourth if0 il0 if1 il1 n dx0 dx1 touches l a b flux) i j p =
  fick n (fun m => snd l i j (p + (m - 1) * n)%Z) sl + fick n (fun m => snd a i j (p + (m - 1) * n)%Z) sa +
  match b with Some ph => fick n (fun m => snd ph i j (p + (m - 1) * n)%Z) sb | None => 0 end.
Proof.
  intros until sb. intros Hh Hne Hb Hp T0 T1 Hl Ha Hbb. unfold ebs_flux, d_add_flux. cbv zeta.
  assert (P : forall x : bool, x = false -> (if x then 1 else 0)%Z <> 1%Z) by (intros x ->; discriminate).
  destruct b as [ph |].
  - rewrite (fourth_exact_y _ _ _ _ _ _ _ _ _ _ _ _ i j p ub sb); auto; try (cbn; auto); try (apply (Hbb _ eq_refl)).
    rewrite (fourth_exact_y _ _ _ _ _ _ _ _ _ _ _ _ i j p ua sa); auto; try (cbn; auto).
    rewrite (fourth_exact_y _ _ _ _ _ _ _ _ _ _ _ _ i j p ul sl); auto; try (cbn; auto). cbn [fst snd]. ring.
  - rewrite (fourth_exact_y _ _ _ _ _ _ _ _ _ _ _ _ i j p ua sa); auto; try (cbn; auto).
    rewrite (fourth_exact_y _ _ _ _ _ _ _ _ _ _ _ _ i j p ul sl); auto; try (cbn; auto). cbn [fst snd]. ring.
Qed.
(** at a side touching the boundary the second ghost layer is not read *)
Lemma mixed_bdry : forall h d v0 v1 v2 v3 w0 w3, mixed true h d v0 v1 v2 v3 = mixed true h d w0 v1 v2 w3.
Proof. reflexivity. Qed.
Lemma ebs_bdry_x : forall if0 il0 if1 il1 n dx0 dx1 (touches : Z -> Z -> bool) l a b l' a' b' flux i j p, (if0 <= il0)%Z ->
  (i = if0 /\ touches 0%Z 0%Z = true \/ i = (il0 + 1)%Z /\ touches 0%Z 1%Z = true) ->
  let agrees (ph ph' : arr3 * arr3 * arr3) := snd (fst ph) = snd (fst ph') /\ forall k m, (i - 1 <= k <= i)%Z -> fst (fst ph) k j m = fst (fst ph') k j m in
  agrees l l' -> agrees a a' -> agrees b b' ->
  fst (ebs_flux FluxFourth if0 il0 if1 il1 n dx0 dx1 touches l a (Some b) flux) i j p =
  fst (ebs_flux FluxFourth if0 il0 if1 il1 n dx0 dx1 touches l' a' (Some b') flux) i j p.
Proof.
  intros if0 il0 if1 il1 n dx0 dx1 touches l a b l' a' b' flux i j p Hne P agrees (Dl & Vl) (Da & Va) (Db & Vb).
  unfold ebs_flux, d_add_flux. cbv zeta. rewrite !add_flux_4th_x by auto.
  assert (S : on_side if0 il0 (if touches 0%Z 0%Z then 1 else 0)%Z (if touches 0%Z 1%Z then 1 else 0)%Z i = true).
  { unfold on_side. destruct P as [[-> ->] | [-> ->]]; rewrite !Z.eqb_refl; cbn; rewrite ?orb_true_r; reflexivity. }
  cbn [Z.eqb Pos.eqb]. cbv iota. rewrite S, Dl, Da, Db. unfold gain. destruct (inb 1 n p); [| reflexivity].
  f_equal; [f_equal; [f_equal |] |]; apply sumZ_ext; intros m _; (destruct (inb if0 (il0 + 1) i && inb if1 il1 j); [| reflexivity]);
    unfold mixed; rewrite ?Vl, ?Va, ?Vb by lia; reflexivity.
Qed.
Lemma ebs_bdry_y : forall if0 il0 if1 il1 n dx0 dx1 (touches : Z -> Z -> bool) l a b l' a' b' flux i j p, (if1 <= il1)%Z ->
  (j = if1 /\ touches 1%Z 0%Z = true \/ j = (il1 + 1)%Z /\ touches 1%Z 1%Z = true) ->
  let agrees (ph ph' : arr3 * arr3 * arr3) := snd ph = snd ph' /\ forall k m, (j - 1 <= k <= j)%Z -> fst (fst ph) i k m = fst (fst ph') i k m in
  agrees l l' -> agrees a a' -> agrees b b' ->
  snd (ebs_flux FluxFourth if0 il0 if1 il1 n dx0 dx1 touches l a (Some b) flux) i j p =
  snd (ebs_flux FluxFourth if0 il0 if1 il1 n dx0 dx1 touches l' a' (Some b') flux) i j p.
Proof.
  intros if0 il0 if1 il1 n dx0 dx1 touches l a b l' a' b' flux i j p Hne P agrees (Dl & Vl) (Da & Va) (Db & Vb).
  unfold ebs_flux, d_add_flux. cbv zeta. rewrite !add_flux_4th_y by auto.
  assert (S : on_side if1 il1 (if touches 1%Z 0%Z then 1 else 0)%Z (if touches 1%Z 1%Z then 1 else 0)%Z j = true).
  { unfold on_side. destruct P as [[-> ->] | [-> ->]]; rewrite !Z.eqb_refl; cbn; rewrite ?orb_true_r; reflexivity. }
  cbn [Z.eqb Pos.eqb]. cbv iota. rewrite S, Dl, Da, Db. unfold gain. destruct (inb 1 n p); [| reflexivity].
  f_equal; [f_equal; [f_equal |] |]; apply sumZ_ext; intros m _; (destruct (inb if0 il0 i && inb if1 (il1 + 1) j); [| reflexivity]);
    unfold mixed; rewrite ?Vl, ?Va, ?Vb by lia; reflexivity.
Qed.

(** ** Laplacian and advection *)
Lemma laplacian_exact : forall if0 il0 if1 il1 dx0 dx1 coeff field rhs i j a0 a1 a2 a3 b1 b2 b3 r, dx0 <> 0 -> dx1 <> 0 ->
  in_box if0 il0 if1 il1 i j ->
  (forall k l, in_cross i j k l -> field k l = poly [a0; a1; a2; a3] (centre dx0 k) + poly [0; b1; b2; b3] (centre dx1 l) + r * centre dx0 k * centre dx1 l) ->
  laplacian if0 il0 if1 il1 dx0 dx1 coeff field rhs i j =
  coeff * ((2 * a2 + 6 * a3 * centre dx0 i) + (2 * b2 + 6 * b3 * centre dx1 j)).
Proof.
  intros until r. intros H0 H1 Hb H. unfold laplacian.
  rewrite (cells_loop if0 il0 if1 il1 (fun i j _ => coeff * ((field (i - 1)%Z j - 2 * field i j + field (i + 1)%Z j) * (1 / (dx0 * dx0))
     + (field i (j - 1)%Z - 2 * field i j + field i (j + 1)%Z) * (1 / (dx1 * dx1))))).
  apply box_true in Hb. rewrite Hb. unfold in_cross in H. rewrite !H by lia. unfold centre. cbn [poly].
  rewrite !minus_IZR, !plus_IZR. field. auto.
Qed.
Lemma laplacian_other : forall if0 il0 if1 il1 dx0 dx1 coeff field rhs i j, ~ in_box if0 il0 if1 il1 i j ->
  laplacian if0 il0 if1 il1 dx0 dx1 coeff field rhs i j = rhs i j.
Proof.
  intros. unfold laplacian.
  rewrite (cells_loop if0 il0 if1 il1 (fun i j _ => coeff * ((field (i - 1)%Z j - 2 * field i j + field (i + 1)%Z j) * (1 / (dx0 * dx0))
     + (field i (j - 1)%Z - 2 * field i j + field i (j + 1)%Z) * (1 / (dx1 * dx1))))).
  rewrite box_true in H. destruct (inb if0 il0 i && inb if1 il1 j); [tauto | reflexivity].
Qed.
Lemma adv2_value : forall if0 il0 if1 il1 dx1 phase vel rhs i j,
  addvdphidx if0 il0 if1 il1 dx1 phase vel rhs i j =
  if inb if0 il0 i && inb if1 il1 j then rhs i j + 1 / 2 * vel / dx1 * (phase (i + 1)%Z j - phase (i - 1)%Z j) else rhs i j.
Proof.
  intros. unfold addvdphidx. apply (cells_loop if0 il0 if1 il1 (fun i j v => v + 1 / 2 * vel / dx1 * (phase (i + 1)%Z j - phase (i - 1)%Z j))).
Qed.
Lemma adv3_value : forall if0 il0 if1 il1 dx1 phase vel rhs physb i j, (if0 <= il0)%Z ->
  addvdphidx_upwind3 if0 il0 if1 il1 dx1 phase vel rhs physb i j =
  if inb if0 il0 i && inb if1 il1 j then rhs i j +
    (if ((physb =? 1) && (i =? il0))%Z then 3 * (vel / (6 * dx1)) * (phase (i + 1)%Z j - phase (i - 1)%Z j)
     else vel / (6 * dx1) * (-2 * phase (i - 1)%Z j - 3 * phase i j + 6 * phase (i + 1)%Z j - phase (i + 2)%Z j)) else rhs i j.
Proof.
  intros if0 il0 if1 il1 dx1 phase vel rhs physb i j Hne. unfold addvdphidx_upwind3. cbv zeta.
  set (inc := if ((physb =? 1) && (i =? il0))%Z then 3 * (vel / (6 * dx1)) * (phase (i + 1)%Z j - phase (i - 1)%Z j)
     else vel / (6 * dx1) * (-2 * phase (i - 1)%Z j - 3 * phase i j + 6 * phase (i + 1)%Z j - phase (i + 2)%Z j)).
  transitivity (rhs i j + sumZ if1 il1 (fun l => if (l =? j)%Z then (if inb if0 il0 i then inc else 0) else 0)).
  - apply (obs_loop arr2 (fun f => f i j)). intros l f _.
    rewrite (row_loop _ _ l (fun k v => v + vel / (6 * dx1) * (-2 * phase (k - 1)%Z l - 3 * phase k l + 6 * phase (k + 1)%Z l - phase (k + 2)%Z l))).
    unfold inc. rewrite (Z.eqb_sym l j). destruct (Z.eqb_spec j l) as [<- | Hj].
    + rewrite andb_true_r. destruct (Z.eqb_spec physb 1); cbn [andb].
      * destruct (Z.eqb_spec i il0) as [-> |]; [rewrite upd2_same | rewrite upd2_other by lia];
        repeat match goal with |- context [inb ?a ?b ?x] => destruct (inb_spec a b x); try lia end; ring.
      * destruct (inb if0 il0 i); ring.
    + rewrite andb_false_r. destruct (physb =? 1)%Z; [rewrite upd2_other by lia | idtac]; ring.
  - rewrite (sumZ_single if1 il1 j (fun _ => _)). destruct (inb if0 il0 i); destruct (inb if1 il1 j); cbn; ring.
Qed.
Lemma fields_loop : forall n (F : Z -> arr2 -> arr2) (s : Z -> arr2) g,
  do_loop 0 (n - 1) (fun f (s : Z -> arr2) => fun g => if (g =? f)%Z then F f (s f) else s g) s g =
  if inb 0 (n - 1) g then F g (s g) else s g.
Proof.
  intros n F s g.
  destruct (inb_spec 0 (n - 1) g) as [Hg | Hg].
  - destruct (loop_once (Z -> arr2) (fun s s' => s g = s' g) 0 (n - 1) g (fun f (s : Z -> arr2) => fun g => if (g =? f)%Z then F f (s f) else s g) s) as (s0 & A & B).
    + reflexivity. + intros a b c -> ->; reflexivity. + exact Hg.
    + intros i s1 _ Hi. destruct (Z.eqb_spec g i); [congruence | reflexivity].
    + rewrite <- B, Z.eqb_refl, <- A. reflexivity.
  - symmetry. apply (loop_never (Z -> arr2) (fun s s' => s g = s' g)).
    + reflexivity. + intros a b c -> ->; reflexivity.
    + intros i s1 Hi. destruct (Z.eqb_spec g i); [lia | reflexivity].
Qed.
Lemma advect_centred : forall if0 il0 if1 il1 dx1 vel right nfield data rhs f i j u s, dx1 <> 0 -> (0 <= f < nfield)%Z ->
  in_box if0 il0 if1 il1 i j -> degree_le 2 u -> holds_values dx1 (poly u) (i - 1) (i + 1) (fun k => data f k j) ->
  derivable_pt_lim (poly u) (centre dx1 i) s ->
  advect_fields false if0 il0 if1 il1 dx1 vel right nfield data rhs f i j = rhs f i j + vel * s.
Proof.
  intros until s. intros Hh Hf Hb Hu HV Hs. unfold advect_fields.
  rewrite (fields_loop nfield (fun f r => addvdphidx if0 il0 if1 il1 dx1 (data f) vel r)).
  destruct (inb_spec 0 (nfield - 1) f); [| lia]. rewrite adv2_value. apply box_true in Hb. rewrite Hb. f_equal.
  apply (centred_cell dx1 u i (fun k => data f k j)); auto.
Qed.
Lemma advect_upwind : forall if0 il0 if1 il1 dx1 vel (right : bool) nfield data rhs f i j u s, dx1 <> 0 -> (0 <= f < nfield)%Z ->
  in_box if0 il0 if1 il1 i j -> (i = il0 -> right = false) -> degree_le 3 u ->
  holds_values dx1 (poly u) (i - 1) (i + 2) (fun k => data f k j) -> derivable_pt_lim (poly u) (centre dx1 i) s ->
  advect_fields true if0 il0 if1 il1 dx1 vel right nfield data rhs f i j = rhs f i j + vel * s.
Proof.
  intros until s. intros Hh Hf Hb Hr Hu HV Hs. unfold advect_fields.
  rewrite (fields_loop nfield (fun f r => addvdphidx_upwind3 if0 il0 if1 il1 dx1 (data f) vel r (if right then 1 else 0)%Z)).
  destruct (inb_spec 0 (nfield - 1) f); [| lia]. rewrite adv3_value by (destruct Hb; lia). apply box_true in Hb. rewrite Hb. f_equal.
  replace (((if right then 1 else 0) =? 1) && (i =? il0))%Z with false
    by (destruct (Z.eqb_spec i il0); [rewrite Hr by auto; reflexivity | rewrite andb_false_r; reflexivity]).
  apply (upwind_cell dx1 u i (fun k => data f k j)); auto.
Qed.
(** at the right physical boundary: the centred rule, second ghost cell not read *)
Lemma advect_upwind_bdry : forall if0 il0 if1 il1 dx1 vel nfield data rhs f j u s, dx1 <> 0 -> (0 <= f < nfield)%Z ->
  in_box if0 il0 if1 il1 il0 j -> degree_le 2 u ->
  holds_values dx1 (poly u) (il0 - 1) (il0 + 1) (fun k => data f k j) -> derivable_pt_lim (poly u) (centre dx1 il0) s ->
  advect_fields true if0 il0 if1 il1 dx1 vel true nfield data rhs f il0 j = rhs f il0 j + vel * s.
Proof.
  intros until s. intros Hh Hf Hb Hu HV Hs. unfold advect_fields.
  rewrite (fields_loop nfield (fun f r => addvdphidx_upwind3 if0 il0 if1 il1 dx1 (data f) vel r 1%Z)).
  destruct (inb_spec 0 (nfield - 1) f); [| lia]. rewrite adv3_value by (destruct Hb; lia). apply box_true in Hb. rewrite Hb. f_equal.
  rewrite !Z.eqb_refl. cbn [andb]. rewrite <- (centred_cell dx1 u il0 (fun k => data f k j) s vel Hh Hu HV Hs). field. auto.
Qed.
Lemma advect_only : forall upwind if0 il0 if1 il1 dx1 vel right nfield data rhs f i j, (if0 <= il0)%Z ->
  ~ ((0 <= f < nfield)%Z /\ in_box if0 il0 if1 il1 i j) ->
  advect_fields upwind if0 il0 if1 il1 dx1 vel right nfield data rhs f i j = rhs f i j.
Proof.
  intros upwind if0 il0 if1 il1 dx1 vel right nfield data rhs f i j Hne H. unfold advect_fields. rewrite box_true in H.
  destruct upwind.
  - rewrite (fields_loop nfield (fun f r => addvdphidx_upwind3 if0 il0 if1 il1 dx1 (data f) vel r (if right then 1 else 0)%Z)).
    destruct (inb_spec 0 (nfield - 1) f); [| reflexivity]. rewrite adv3_value by auto.
    destruct (inb if0 il0 i && inb if1 il1 j); [| reflexivity]. exfalso. apply H. split; [lia | reflexivity].
  - rewrite (fields_loop nfield (fun f r => addvdphidx if0 il0 if1 il1 dx1 (data f) vel r)).
    destruct (inb_spec 0 (nfield - 1) f); [| reflexivity]. rewrite adv2_value.
    destruct (inb if0 il0 i && inb if1 il1 j); [| reflexivity]. exfalso. apply H. split; [lia | reflexivity].
Qed.
(** a frame at rest, or a field uniform in the frame direction, adds nothing *)
Lemma advect_rest : forall upwind if0 il0 if1 il1 dx1 right nfield data rhs f i j, (if0 <= il0)%Z ->
  advect_fields upwind if0 il0 if1 il1 dx1 0 right nfield data rhs f i j = rhs f i j.
Proof.
  intros upwind if0 il0 if1 il1 dx1 right nfield data rhs f i j Hne. unfold advect_fields.
  destruct upwind.
  - rewrite (fields_loop nfield (fun f r => addvdphidx_upwind3 if0 il0 if1 il1 dx1 (data f) 0 r (if right then 1 else 0)%Z)).
    destruct (inb 0 (nfield - 1) f); [| reflexivity]. rewrite adv3_value by auto. unfold Rdiv.
    destruct (inb if0 il0 i && inb if1 il1 j); [| reflexivity]. destruct (_ && _); ring.
  - rewrite (fields_loop nfield (fun f r => addvdphidx if0 il0 if1 il1 dx1 (data f) 0 r)).
    destruct (inb 0 (nfield - 1) f); [| reflexivity]. rewrite adv2_value. unfold Rdiv.
    destruct (inb if0 il0 i && inb if1 il1 j); [| reflexivity]. ring.
Qed.
