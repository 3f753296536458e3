From Coq Require Import Reals ZArith List Lra Lia Bool Ascii FunctionalExtensionality.
From Coquelicot Require Import Coquelicot.
From Verif Require Import Grid_Model Grid_Spec Grid_Proofs Functions_Model Quat_Model Quat_Spec Quat_Proofs.
From Verif Require PhaseFlow_Model PhaseFlow_Spec PhaseFlow_Proofs Stencils_Model Stencils_Proofs.
From Verif Require Import Transport_Spec Trap3_Model Trap3_Spec Trap3_Proofs Flow3_Model Flow3_Spec.
Set Bullet Behavior "Strict Subproofs".
Open Scope R_scope.

Lemma cells3_val : forall b f a i j k, cells3 b f a i j k =
  if inb (xl b) (xu b) i && inb (yl b) (yu b) j && inb (zl b) (zu b) k then f i j k (a i j k) else a i j k.
Proof. intros. unfold cells3. apply cells3_loop. Qed.
Lemma cells3_in : forall b f a i j k, in_cells3 b i j k -> cells3 b f a i j k = f i j k (a i j k).
Proof. intros b f a i j k (I & J & K). rewrite cells3_val, !inbT by auto. reflexivity. Qed.

(** ** the rotated gradient *)
Definition pure (x y z : R) : q4 := Q4 0 x y z.
Definition cubic (v : q4) : q4 :=
  let n4 := qb v ^ 4 + qc v ^ 4 + qd v ^ 4 in
  Q4 0 (qb v * (qb v * qb v - n4)) (qc v * (qc v * qc v - n4)) (qd v * (qd v * qd v - n4)).
Definition quartic (v : q4) : R := qb v ^ 4 + qc v ^ 4 + qd v ^ 4.
Definition conjugate_by (q v : q4) : q4 := quatmult4 q (quatmult4 v (quatconj q)).
Lemma dgamma_val : forall q n, compute_dgamma q n =
  (quatmult4 (quatconj q) (quatmult4 (cubic (conjugate_by q n)) q), quartic (conjugate_by q n)).
Proof. reflexivity. Qed.
Lemma conj_mult : forall p q, quatconj (quatmult4 p q) = quatmult4 (quatconj q) (quatconj p).
Proof. intros. apply q4_ext; cbn; ring. Qed.
Lemma conjugate_mult : forall p q v, conjugate_by (quatmult4 p q) v = conjugate_by p (conjugate_by q v).
Proof. intros. unfold conjugate_by. rewrite conj_mult, !mult4_assoc. reflexivity. Qed.
(** turning the axes multiplies the orientation from the right *)
Lemma dgamma_right : forall q t n, compute_dgamma (quatmult4 q t) n =
  let (dg, n4) := compute_dgamma q (conjugate_by t n) in (quatmult4 (quatconj t) (quatmult4 dg t), n4).
Proof. intros. rewrite !dgamma_val, conjugate_mult. rewrite conj_mult, !mult4_assoc. reflexivity. Qed.
Lemma conjugate_rot : forall q x y z, conjugate_by q (pure x y z) =
  pure (turned q x y z 1%Z) (turned q x y z 2%Z) (turned q x y z 3%Z).
Proof. intros. apply q4_ext; unfold conjugate_by, pure, turned; cbn; ring. Qed.
Lemma rotate_back : forall q x y z, quatmult4 (quatconj q) (quatmult4 (pure x y z) q) =
  pure (quatrotationmatrix q 1%Z 1%Z * x + quatrotationmatrix q 2%Z 1%Z * y + quatrotationmatrix q 3%Z 1%Z * z)
       (quatrotationmatrix q 1%Z 2%Z * x + quatrotationmatrix q 2%Z 2%Z * y + quatrotationmatrix q 3%Z 2%Z * z)
       (quatrotationmatrix q 1%Z 3%Z * x + quatrotationmatrix q 2%Z 3%Z * y + quatrotationmatrix q 3%Z 3%Z * z).
Proof. intros. apply q4_ext; unfold pure; cbn; ring. Qed.
(** cubic rotations multiply it from the left *)
Lemma table_cubic : forall n, in_table 48 n -> forall v, qa v = 0 ->
  cubic (conjugate_by (qr4 n) v) = conjugate_by (qr4 n) (cubic v) /\ quartic (conjugate_by (qr4 n) v) = quartic v.
Proof.
  intros n Hn [a x y z] E. cbn [qa] in E. subst a. destruct (table_rot n Hn) as (p & Hp & Ep).
  assert (I1 : idx3 1) by (unfold idx3; lia). assert (I2 : idx3 2) by (unfold idx3; lia). assert (I3 : idx3 3) by (unfold idx3; lia).
  change (Q4 0 x y z) with (pure x y z). rewrite conjugate_rot.
  set (c := cubic (pure x y z)). assert (Ec : c = pure (qb c) (qc c) (qd c)) by reflexivity. rewrite Ec, conjugate_rot. subst c. clear Ec.
  unfold turned. rewrite !Ep by auto. clear Ep.
  unfold perms_val in Hp. cbn in Hp.
  repeat (destruct Hp as [<- | Hp]; [intros; repeat match goal with |- context [pick ?l ?i ?j] =>
      let v := eval vm_compute in (pick l i j) in change (pick l i j) with v end;
      unfold cubic, quartic, pure; cbn [qa qb qc qd]; split; [apply q4_ext; cbn [qa qb qc qd]; ring | ring] |]). destruct Hp.
Qed.
Lemma conjugate_inverse : forall s v, unit4 s -> quatmult4 (quatconj s) (quatmult4 (conjugate_by s v) s) = v.
Proof.
  intros s v U. destruct (conj_inverse s U) as [_ E]. unfold conjugate_by. rewrite !mult4_assoc, E, mult4_one_r, <- mult4_assoc, E.
  apply mult4_one_l.
Qed.
Lemma conjugate_pure : forall q v, qa v = 0 -> qa (conjugate_by q v) = 0.
Proof. intros q [a x y z] E. cbn in E. subst a. unfold conjugate_by. cbn. ring. Qed.
Lemma dgamma_left : forall n q v, in_table 48 n -> qa v = 0 -> compute_dgamma (quatmult4 (qr4 n) q) v = compute_dgamma q v.
Proof.
  intros n q v Hn Hv. rewrite !dgamma_val, conjugate_mult.
  destruct (table_cubic n Hn (conjugate_by q v) (conjugate_pure q v Hv)) as [-> ->]. f_equal.
  rewrite conj_mult, !mult4_assoc, <- (mult4_assoc _ (qr4 n) q), <- (mult4_assoc _ (quatmult4 _ (qr4 n)) q).
  rewrite conjugate_inverse by (apply qr4_unit; auto). reflexivity.
Qed.
Lemma mean_left : forall s p q, mean_quat (quatmult4 s p) (quatmult4 s q) = quatmult4 s (mean_quat p q).
Proof. intros. apply q4_ext; unfold mean_quat; cbn [qa qb qc qd quatmult4]; ring. Qed.
Lemma mean_right : forall s p q, mean_quat (quatmult4 p s) (quatmult4 q s) = quatmult4 (mean_quat p q) s.
Proof. intros. apply q4_ext; unfold mean_quat; cbn [qa qb qc qd quatmult4]; ring. Qed.
Lemma mean_same : forall q, mean_quat q q = q.
Proof. intros [a b c d]. unfold mean_quat. cbn [qa qb qc qd]. f_equal; field. Qed.

Lemma face_dgamma_left : forall n gx gy gz p q fb, in_table 48 n ->
  face_dgamma gx gy gz (quatmult4 (qr4 n) p) (quatmult4 (qr4 n) q) fb = face_dgamma gx gy gz p q fb.
Proof.
  intros n gx gy gz p q fb Hn. unfold face_dgamma. cbv zeta. destruct (Rlt_dec _ _); auto. rewrite mean_left. apply dgamma_left; auto.
Qed.
(** crystal symmetry *)
Lemma aniso_symmetry : forall n b eps eps4 phi quat old, in_table 48 n ->
  same3 (anisotropic_flux3 b eps eps4 phi (fun i j k => quatmult4 (qr4 n) (quat i j k)) old) (anisotropic_flux3 b eps eps4 phi quat old).
Proof.
  intros n b eps eps4 phi quat [[o0 o1] o2] Hn i j k. unfold anisotropic_flux3, flux0, flux1, flux2. cbn [fst snd].
  rewrite !xfaces3_val, !yfaces3_val, !zfaces3_val.
  rewrite !face_dgamma_left by auto. auto.
Qed.

(** ** the flux is the derivative of the interface energy *)
Lemma quartic_derivative : forall eps e4 r1 r2 r3 s1 s2 s3 c g, let t1 := r1 * g + s1 in let t2 := r2 * g + s2 in let t3 := r3 * g + s3 in
  0 < g ^ 2 + c -> r1 * t1 + r2 * t2 + r3 * t3 = g ->
  let q := (t1 ^ 4 + t2 ^ 4 + t3 ^ 4) / (g ^ 2 + c) ^ 2 in
  let gam := eps * ((1 - 3 * e4) + 4 * e4 * q) in
  derivable_pt_lim (fun x => (eps * ((1 - 3 * e4) + 4 * e4 * ((r1 * x + s1) ^ 4 + (r2 * x + s2) ^ 4 + (r3 * x + s3) ^ 4) / (x ^ 2 + c) ^ 2)) ^ 2 / 2
                              * (x ^ 2 + c)) g
    (gam ^ 2 * g + 16 * eps * gam * e4 * ((r1 * t1 ^ 3 + r2 * t2 ^ 3 + r3 * t3 ^ 3) / (g ^ 2 + c) - q * g)).
Proof.
  intros eps e4 r1 r2 r3 s1 s2 s3 c g t1 t2 t3 P O q gam. apply is_derive_Reals. auto_derive; [| ].
  - intro E. apply Rmult_integral in E. rewrite Rmult_1_r in E. replace (g * (g * 1)) with (g ^ 2) in E by ring. lra.
  - match goal with |- ?a = ?b => change (@eq R a b) end.
    unfold gam, q. fold t1 t2 t3. field.
    replace (g * g) with (g ^ 2) by ring. lra.
Qed.
Definition threshold3 : R := 1 / 10 ^ 12.
Lemma threshold3_pos : 0 < threshold3.
Proof. unfold threshold3. apply Rdiv_lt_0_compat; [lra | apply pow_lt; lra]. Qed.
(** value of the flux on a face inside a crystal: component c of the rotated-back vector *)
Lemma face_dgamma_val : forall gx gy gz q fb, threshold3 < gx ^ 2 + gy ^ 2 + gz ^ 2 ->
  let r := sqrt (gx ^ 2 + gy ^ 2 + gz ^ 2) in
  face_dgamma gx gy gz q q fb = compute_dgamma q (pure (gx * / r) (gy * / r) (gz * / r)).
Proof.
  intros gx gy gz q fb H r. unfold face_dgamma. cbv zeta. replace (gx * gx + gy * gy + gz * gz) with (gx ^ 2 + gy ^ 2 + gz ^ 2) by ring.
  pose proof threshold3_pos. rewrite Rabs_right by lra. fold threshold3. destruct (Rlt_dec _ _) as [L | N]; [| contradiction].
  rewrite mean_same. unfold pure. fold r. unfold Rdiv. rewrite !Rmult_1_l. reflexivity.
Qed.
Lemma turned_scale : forall q gx gy gz s i, turned q (gx * s) (gy * s) (gz * s) i = turned q gx gy gz i * s.
Proof. intros. unfold turned. ring. Qed.
Definition col (q : q4) (m : Z) (x y z : R) : R :=
  quatrotationmatrix q 1%Z m * x + quatrotationmatrix q 2%Z m * y + quatrotationmatrix q 3%Z m * z.
Lemma dgamma_components : forall gx gy gz q, 0 < gx ^ 2 + gy ^ 2 + gz ^ 2 ->
  let r2 := gx ^ 2 + gy ^ 2 + gz ^ 2 in let r := sqrt r2 in
  let t := turned q gx gy gz in
  let s := (t 1%Z ^ 4 + t 2%Z ^ 4 + t 3%Z ^ 4) / r2 ^ 2 in
  let c := fun m => (t m ^ 3 / r2 - t m * s) * / r in
  compute_dgamma q (pure (gx * / r) (gy * / r) (gz * / r)) =
  (pure (col q 1 (c 1%Z) (c 2%Z) (c 3%Z)) (col q 2 (c 1%Z) (c 2%Z) (c 3%Z)) (col q 3 (c 1%Z) (c 2%Z) (c 3%Z)), s).
Proof.
  intros gx gy gz q P r2 r t s c. rewrite dgamma_val, conjugate_rot, !turned_scale. fold t.
  assert (Rp : 0 < r) by (apply sqrt_lt_R0; auto). assert (Rs : r * r = r2) by (apply sqrt_sqrt; unfold r2; lra).
  assert (Es : quartic (pure (t 1%Z * / r) (t 2%Z * / r) (t 3%Z * / r)) = s).
  { unfold quartic, pure, s. cbn [qb qc qd]. rewrite <- Rs. field. lra. }
  f_equal; auto.
  assert (Ec : cubic (pure (t 1%Z * / r) (t 2%Z * / r) (t 3%Z * / r)) = pure (c 1%Z) (c 2%Z) (c 3%Z)).
  { unfold cubic. fold (quartic (pure (t 1%Z * / r) (t 2%Z * / r) (t 3%Z * / r))). rewrite Es. unfold pure, c. cbn [qb qc qd].
    f_equal; rewrite <- Rs; field; lra. }
  rewrite Ec, rotate_back. reflexivity.
Qed.
Lemma rotation_columns : forall q x y z, unit4 q ->
  (quatrotationmatrix q 1%Z 1%Z * turned q x y z 1%Z + quatrotationmatrix q 2%Z 1%Z * turned q x y z 2%Z + quatrotationmatrix q 3%Z 1%Z * turned q x y z 3%Z = x) /\
  (quatrotationmatrix q 1%Z 2%Z * turned q x y z 1%Z + quatrotationmatrix q 2%Z 2%Z * turned q x y z 2%Z + quatrotationmatrix q 3%Z 2%Z * turned q x y z 3%Z = y) /\
  (quatrotationmatrix q 1%Z 3%Z * turned q x y z 1%Z + quatrotationmatrix q 2%Z 3%Z * turned q x y z 2%Z + quatrotationmatrix q 3%Z 3%Z * turned q x y z 3%Z = z).
Proof.
  intros q x y z U. apply unit4_magsq in U.
  assert (E : forall v w, v = quatmagsq4 q ^ 2 * w -> v = w) by (intros v w ->; rewrite U; ring).
  repeat split; apply E; unfold turned, quatmagsq4; cbn; ring.
Qed.
Definition face_value (eps e4 : R) (q : q4) (m : Z) (gx gy gz g : R) : R :=
  let t := turned q gx gy gz in
  let r2 := gx ^ 2 + gy ^ 2 + gz ^ 2 in
  let s := (t 1%Z ^ 4 + t 2%Z ^ 4 + t 3%Z ^ 4) / r2 ^ 2 in
  let gam := eps * ((1 - 3 * e4) + 4 * e4 * s) in
  gam ^ 2 * g + 16 * eps * gam * e4 *
    ((quatrotationmatrix q 1%Z m * t 1%Z ^ 3 + quatrotationmatrix q 2%Z m * t 2%Z ^ 3 + quatrotationmatrix q 3%Z m * t 3%Z ^ 3) / r2 - s * g).
Lemma face_flux_val : forall eps e4 q m gx gy gz g, 0 < gx ^ 2 + gy ^ 2 + gz ^ 2 -> 3 * e4 <> 1 ->
  let r2 := gx ^ 2 + gy ^ 2 + gz ^ 2 in let r := sqrt r2 in
  let t := turned q gx gy gz in
  let s := (t 1%Z ^ 4 + t 2%Z ^ 4 + t 3%Z ^ 4) / r2 ^ 2 in
  let c := fun m => (t m ^ 3 / r2 - t m * s) * / r in
  quatrotationmatrix q 1%Z m * t 1%Z + quatrotationmatrix q 2%Z m * t 2%Z + quatrotationmatrix q 3%Z m * t 3%Z = g ->
  face_flux eps e4 r2 g (col q m (c 1%Z) (c 2%Z) (c 3%Z)) s = face_value eps e4 q m gx gy gz g.
Proof.
  intros eps e4 q m gx gy gz g P N r2 r t s c O. unfold face_flux, face_value. cbv zeta. fold t r2 s r.
  assert (Rp : 0 < r) by (apply sqrt_lt_R0; auto).
  replace (eps * (1 - 3 * e4) * (1 + 4 * e4 / (1 - 3 * e4) * s)) with (eps * (1 - 3 * e4 + 4 * e4 * s)) by (field; lra).
  set (gam := eps * (1 - 3 * e4 + 4 * e4 * s)).
  assert (E : r * col q m (c 1%Z) (c 2%Z) (c 3%Z) =
    (quatrotationmatrix q 1%Z m * t 1%Z ^ 3 + quatrotationmatrix q 2%Z m * t 2%Z ^ 3 + quatrotationmatrix q 3%Z m * t 3%Z ^ 3) / r2 - s * g).
  { rewrite <- O. unfold col, c. assert (R1 : r <> 0) by lra. assert (R2 : r2 <> 0) by (unfold r2; lra). field. auto. }
  rewrite <- E. ring.
Qed.

Lemma slopes_x : forall b f i j k, spaced b ->
  (f i j k - f (i - 1)%Z j k) * (1 / hx b) = slope_xx b f i j k /\
  1 / 4 * (f (i - 1)%Z (j + 1)%Z k - f (i - 1)%Z (j - 1)%Z k + f i (j + 1)%Z k - f i (j - 1)%Z k) * (1 / hy b) = slope_xy b f i j k /\
  1 / 4 * (f (i - 1)%Z j (k + 1)%Z - f (i - 1)%Z j (k - 1)%Z + f i j (k + 1)%Z - f i j (k - 1)%Z) * (1 / hz b) = slope_xz b f i j k.
Proof. intros b f i j k (H0 & H1 & H2). unfold slope_xx, slope_xy, slope_xz, mean, cdy, cdz. repeat split; field; auto. Qed.
Lemma slopes_y : forall b f i j k, spaced b ->
  1 / 4 * (f (i + 1)%Z (j - 1)%Z k - f (i - 1)%Z (j - 1)%Z k + f (i + 1)%Z j k - f (i - 1)%Z j k) * (1 / hx b) = slope_yx b f i j k /\
  (f i j k - f i (j - 1)%Z k) * (1 / hy b) = slope_yy b f i j k /\
  1 / 4 * (f i (j - 1)%Z (k + 1)%Z - f i (j - 1)%Z (k - 1)%Z + f i j (k + 1)%Z - f i j (k - 1)%Z) * (1 / hz b) = slope_yz b f i j k.
Proof. intros b f i j k (H0 & H1 & H2). unfold slope_yx, slope_yy, slope_yz, mean, cdx, cdz. repeat split; field; auto. Qed.
Lemma slopes_z : forall b f i j k, spaced b ->
  1 / 4 * (f (i + 1)%Z j (k - 1)%Z - f (i - 1)%Z j (k - 1)%Z + f (i + 1)%Z j k - f (i - 1)%Z j k) * (1 / hx b) = slope_zx b f i j k /\
  1 / 4 * (f i (j + 1)%Z (k - 1)%Z - f i (j - 1)%Z (k - 1)%Z + f i (j + 1)%Z k - f i (j - 1)%Z k) * (1 / hy b) = slope_zy b f i j k /\
  (f i j k - f i j (k - 1)%Z) * (1 / hz b) = slope_zz b f i j k.
Proof. intros b f i j k (H0 & H1 & H2). unfold slope_zx, slope_zy, slope_zz, mean, cdx, cdy. repeat split; field; auto. Qed.
(** the three loops in terms of the slopes *)
Definition face_of (eps e4 gx gy gz d : R) (pr : q4 -> R) (p q fb : q4) : R :=
  let (dg, n4) := face_dgamma gx gy gz p q fb in face_flux eps e4 (gx * gx + gy * gy + gz * gz) d (pr dg) n4.
Lemma aniso_x : forall b eps e4 f quat old i j k, spaced b -> flux0 (anisotropic_flux3 b eps e4 f quat old) i j k =
  if inb (xl b) (xu b + 1) i && inb (yl b) (yu b) j && inb (zl b) (zu b) k
  then face_of eps e4 (slope_xx b f i j k) (slope_xy b f i j k) (slope_xz b f i j k) (slope_xx b f i j k) qb (quat (i - 1)%Z j k) (quat i j k) (Q4 0 0 0 1)
  else flux0 old i j k.
Proof.
  intros b eps e4 f quat [[o0 o1] o2] i j k Hs. unfold anisotropic_flux3, flux0. cbn [fst]. rewrite xfaces3_val. cbv zeta.
  destruct (slopes_x b f i j k Hs) as (-> & -> & ->). reflexivity.
Qed.
Lemma aniso_y : forall b eps e4 f quat old i j k, spaced b -> flux1 (anisotropic_flux3 b eps e4 f quat old) i j k =
  if inb (xl b) (xu b) i && inb (yl b) (yu b + 1) j && inb (zl b) (zu b) k
  then face_of eps e4 (slope_yx b f i j k) (slope_yy b f i j k) (slope_yz b f i j k) (slope_yy b f i j k) qc (quat i (j - 1)%Z k) (quat i j k) (Q4 0 0 0 1)
  else flux1 old i j k.
Proof.
  intros b eps e4 f quat [[o0 o1] o2] i j k Hs. unfold anisotropic_flux3, flux1. cbn [fst snd]. rewrite yfaces3_val. cbv zeta.
  destruct (slopes_y b f i j k Hs) as (-> & -> & ->). reflexivity.
Qed.
Lemma aniso_z : forall b eps e4 f quat old i j k, spaced b -> flux2 (anisotropic_flux3 b eps e4 f quat old) i j k =
  if inb (xl b) (xu b) i && inb (yl b) (yu b) j && inb (zl b) (zu b + 1) k
  then face_of eps e4 (slope_zx b f i j k) (slope_zy b f i j k) (slope_zz b f i j k) (slope_zz b f i j k) qd (quat i j (k - 1)%Z) (quat i j k) (Q4 0 0 1 0)
  else flux2 old i j k.
Proof.
  intros b eps e4 f quat [[o0 o1] o2] i j k Hs. unfold anisotropic_flux3, flux2. cbn [snd]. rewrite zfaces3_val. cbv zeta.
  destruct (slopes_z b f i j k Hs) as (-> & -> & ->). reflexivity.
Qed.
Lemma face_of_inside : forall eps e4 gx gy gz q fb, 1 / 10 ^ 12 < gx ^ 2 + gy ^ 2 + gz ^ 2 -> 3 * e4 <> 1 -> unit4 q ->
  face_of eps e4 gx gy gz gx qb q q fb = face_value eps e4 q 1 gx gy gz gx /\
  face_of eps e4 gx gy gz gy qc q q fb = face_value eps e4 q 2 gx gy gz gy /\
  face_of eps e4 gx gy gz gz qd q q fb = face_value eps e4 q 3 gx gy gz gz.
Proof.
  intros eps e4 gx gy gz q fb H N U. pose proof threshold3_pos. fold threshold3 in H. unfold face_of.
  rewrite face_dgamma_val by auto. cbv zeta. rewrite dgamma_components by lra. cbv zeta. cbn [qb qc qd pure].
  replace (gx * gx + gy * gy + gz * gz) with (gx ^ 2 + gy ^ 2 + gz ^ 2) by ring.
  destruct (rotation_columns q gx gy gz U) as (E1 & E2 & E3).
  repeat split; apply face_flux_val; auto; lra.
Qed.
Lemma density_derivatives : forall eps e4 q gx gy gz, 0 < gx ^ 2 + gy ^ 2 + gz ^ 2 -> unit4 q ->
  derivable_pt_lim (fun g => cubic_density eps e4 q g gy gz) gx (face_value eps e4 q 1 gx gy gz gx) /\
  derivable_pt_lim (fun g => cubic_density eps e4 q gx g gz) gy (face_value eps e4 q 2 gx gy gz gy) /\
  derivable_pt_lim (fun g => cubic_density eps e4 q gx gy g) gz (face_value eps e4 q 3 gx gy gz gz).
Proof.
  intros eps e4 q gx gy gz P U. destruct (rotation_columns q gx gy gz U) as (E1 & E2 & E3).
  set (M := quatrotationmatrix q) in *.
  assert (Ext : forall F G x l, derivable_pt_lim F x l -> (forall y, F y = G y) -> derivable_pt_lim G x l).
  { intros F G x l D E. apply is_derive_Reals. apply is_derive_Reals in D. eapply is_derive_ext; eauto. }
  repeat split.
  - eapply Ext with (F := fun x => (eps * ((1 - 3 * e4) + 4 * e4 * ((M 1%Z 1%Z * x + (M 1%Z 2%Z * gy + M 1%Z 3%Z * gz)) ^ 4 + (M 2%Z 1%Z * x + (M 2%Z 2%Z * gy + M 2%Z 3%Z * gz)) ^ 4
        + (M 3%Z 1%Z * x + (M 3%Z 2%Z * gy + M 3%Z 3%Z * gz)) ^ 4) / (x ^ 2 + (gy ^ 2 + gz ^ 2)) ^ 2)) ^ 2 / 2 * (x ^ 2 + (gy ^ 2 + gz ^ 2))).
    + match goal with |- derivable_pt_lim _ _ ?v => replace v with v; [| reflexivity] end.
      pose proof (quartic_derivative eps e4 (M 1%Z 1%Z) (M 2%Z 1%Z) (M 3%Z 1%Z) (M 1%Z 2%Z * gy + M 1%Z 3%Z * gz) (M 2%Z 2%Z * gy + M 2%Z 3%Z * gz) (M 3%Z 2%Z * gy + M 3%Z 3%Z * gz) (gy ^ 2 + gz ^ 2) gx) as Q.
      cbv zeta in Q. unfold face_value. cbv zeta. unfold turned in E1, E2, E3 |- *. fold M in E1, E2, E3 |- *. rewrite <- !Rplus_assoc in Q. apply Q; auto.
    + intro x. unfold cubic_density, cubic_gamma, turned. fold M. rewrite <- !Rplus_assoc. reflexivity.
  - eapply Ext with (F := fun x => (eps * ((1 - 3 * e4) + 4 * e4 * ((M 1%Z 2%Z * x + (M 1%Z 1%Z * gx + M 1%Z 3%Z * gz)) ^ 4 + (M 2%Z 2%Z * x + (M 2%Z 1%Z * gx + M 2%Z 3%Z * gz)) ^ 4
        + (M 3%Z 2%Z * x + (M 3%Z 1%Z * gx + M 3%Z 3%Z * gz)) ^ 4) / (x ^ 2 + (gx ^ 2 + gz ^ 2)) ^ 2)) ^ 2 / 2 * (x ^ 2 + (gx ^ 2 + gz ^ 2))).
    + pose proof (quartic_derivative eps e4 (M 1%Z 2%Z) (M 2%Z 2%Z) (M 3%Z 2%Z) (M 1%Z 1%Z * gx + M 1%Z 3%Z * gz) (M 2%Z 1%Z * gx + M 2%Z 3%Z * gz) (M 3%Z 1%Z * gx + M 3%Z 3%Z * gz) (gx ^ 2 + gz ^ 2) gy) as Q.
      cbv zeta in Q. unfold face_value. cbv zeta. unfold turned in E1, E2, E3 |- *. fold M in E1, E2, E3 |- *.
      replace (gy ^ 2 + (gx ^ 2 + gz ^ 2)) with (gx ^ 2 + gy ^ 2 + gz ^ 2) in Q by ring.
      replace (M 1%Z 2%Z * gy + (M 1%Z 1%Z * gx + M 1%Z 3%Z * gz)) with (M 1%Z 1%Z * gx + M 1%Z 2%Z * gy + M 1%Z 3%Z * gz) in Q by ring.
      replace (M 2%Z 2%Z * gy + (M 2%Z 1%Z * gx + M 2%Z 3%Z * gz)) with (M 2%Z 1%Z * gx + M 2%Z 2%Z * gy + M 2%Z 3%Z * gz) in Q by ring.
      replace (M 3%Z 2%Z * gy + (M 3%Z 1%Z * gx + M 3%Z 3%Z * gz)) with (M 3%Z 1%Z * gx + M 3%Z 2%Z * gy + M 3%Z 3%Z * gz) in Q by ring.
      apply Q; auto.
    + intro x. unfold cubic_density, cubic_gamma, turned. fold M.
      replace (M 1%Z 2%Z * x + (M 1%Z 1%Z * gx + M 1%Z 3%Z * gz)) with (M 1%Z 1%Z * gx + M 1%Z 2%Z * x + M 1%Z 3%Z * gz) by ring.
      replace (M 2%Z 2%Z * x + (M 2%Z 1%Z * gx + M 2%Z 3%Z * gz)) with (M 2%Z 1%Z * gx + M 2%Z 2%Z * x + M 2%Z 3%Z * gz) by ring.
      replace (M 3%Z 2%Z * x + (M 3%Z 1%Z * gx + M 3%Z 3%Z * gz)) with (M 3%Z 1%Z * gx + M 3%Z 2%Z * x + M 3%Z 3%Z * gz) by ring.
      replace (x ^ 2 + (gx ^ 2 + gz ^ 2)) with (gx ^ 2 + x ^ 2 + gz ^ 2) by ring. reflexivity.
  - eapply Ext with (F := fun x => (eps * ((1 - 3 * e4) + 4 * e4 * ((M 1%Z 3%Z * x + (M 1%Z 1%Z * gx + M 1%Z 2%Z * gy)) ^ 4 + (M 2%Z 3%Z * x + (M 2%Z 1%Z * gx + M 2%Z 2%Z * gy)) ^ 4
        + (M 3%Z 3%Z * x + (M 3%Z 1%Z * gx + M 3%Z 2%Z * gy)) ^ 4) / (x ^ 2 + (gx ^ 2 + gy ^ 2)) ^ 2)) ^ 2 / 2 * (x ^ 2 + (gx ^ 2 + gy ^ 2))).
    + pose proof (quartic_derivative eps e4 (M 1%Z 3%Z) (M 2%Z 3%Z) (M 3%Z 3%Z) (M 1%Z 1%Z * gx + M 1%Z 2%Z * gy) (M 2%Z 1%Z * gx + M 2%Z 2%Z * gy) (M 3%Z 1%Z * gx + M 3%Z 2%Z * gy) (gx ^ 2 + gy ^ 2) gz) as Q.
      cbv zeta in Q. unfold face_value. cbv zeta. unfold turned in E1, E2, E3 |- *. fold M in E1, E2, E3 |- *.
      rewrite (Rplus_comm (gz ^ 2)) in Q. rewrite (Rplus_comm (M 1%Z 3%Z * gz)), (Rplus_comm (M 2%Z 3%Z * gz)), (Rplus_comm (M 3%Z 3%Z * gz)) in Q.
      apply Q; auto.
    + intro x. unfold cubic_density, cubic_gamma, turned. fold M. rewrite (Rplus_comm (x ^ 2)).
      rewrite (Rplus_comm (M 1%Z 3%Z * x)), (Rplus_comm (M 2%Z 3%Z * x)), (Rplus_comm (M 3%Z 3%Z * x)). reflexivity.
Qed.
Lemma in_x : forall b i j k, on_x b i j k -> inb (xl b) (xu b + 1) i && inb (yl b) (yu b) j && inb (zl b) (zu b) k = true.
Proof. intros b i j k (I & J & K). rewrite !inbT by auto. reflexivity. Qed.
Lemma in_y : forall b i j k, on_y b i j k -> inb (xl b) (xu b) i && inb (yl b) (yu b + 1) j && inb (zl b) (zu b) k = true.
Proof. intros b i j k (I & J & K). rewrite !inbT by auto. reflexivity. Qed.
Lemma in_z : forall b i j k, on_z b i j k -> inb (xl b) (xu b) i && inb (yl b) (yu b) j && inb (zl b) (zu b + 1) k = true.
Proof. intros b i j k (I & J & K). rewrite !inbT by auto. reflexivity. Qed.
Lemma aniso_derives_x : forall b eps eps4 phi quat old q i j k, spaced b -> 3 * eps4 <> 1 -> on_x b i j k -> unit4 q ->
  quat (i - 1)%Z j k = q -> quat i j k = q -> ~ small_slope (slope_xx b phi i j k) (slope_xy b phi i j k) (slope_xz b phi i j k) ->
  derivable_pt_lim (fun g => cubic_density eps eps4 q g (slope_xy b phi i j k) (slope_xz b phi i j k)) (slope_xx b phi i j k)
    (flux0 (anisotropic_flux3 b eps eps4 phi quat old) i j k).
Proof.
  intros b eps e4 phi quat old q i j k Hs N F U Q1 Q2 S. rewrite aniso_x, in_x, Q1, Q2 by auto. unfold small_slope in S. apply Rnot_le_lt in S.
  destruct (face_of_inside eps e4 _ _ _ q (Q4 0 0 0 1) S N U) as (-> & _).
  apply density_derivatives; auto. pose proof threshold3_pos. unfold threshold3 in *. lra.
Qed.
Lemma aniso_derives_y : forall b eps eps4 phi quat old q i j k, spaced b -> 3 * eps4 <> 1 -> on_y b i j k -> unit4 q ->
  quat i (j - 1)%Z k = q -> quat i j k = q -> ~ small_slope (slope_yx b phi i j k) (slope_yy b phi i j k) (slope_yz b phi i j k) ->
  derivable_pt_lim (fun g => cubic_density eps eps4 q (slope_yx b phi i j k) g (slope_yz b phi i j k)) (slope_yy b phi i j k)
    (flux1 (anisotropic_flux3 b eps eps4 phi quat old) i j k).
Proof.
  intros b eps e4 phi quat old q i j k Hs N F U Q1 Q2 S. rewrite aniso_y, in_y, Q1, Q2 by auto. unfold small_slope in S. apply Rnot_le_lt in S.
  destruct (face_of_inside eps e4 _ _ _ q (Q4 0 0 0 1) S N U) as (_ & -> & _).
  apply density_derivatives; auto. pose proof threshold3_pos. unfold threshold3 in *. lra.
Qed.
Lemma aniso_derives_z : forall b eps eps4 phi quat old q i j k, spaced b -> 3 * eps4 <> 1 -> on_z b i j k -> unit4 q ->
  quat i j (k - 1)%Z = q -> quat i j k = q -> ~ small_slope (slope_zx b phi i j k) (slope_zy b phi i j k) (slope_zz b phi i j k) ->
  derivable_pt_lim (fun g => cubic_density eps eps4 q (slope_zx b phi i j k) (slope_zy b phi i j k) g) (slope_zz b phi i j k)
    (flux2 (anisotropic_flux3 b eps eps4 phi quat old) i j k).
Proof.
  intros b eps e4 phi quat old q i j k Hs N F U Q1 Q2 S. rewrite aniso_z, in_z, Q1, Q2 by auto. unfold small_slope in S. apply Rnot_le_lt in S.
  destruct (face_of_inside eps e4 _ _ _ q (Q4 0 0 1 0) S N U) as (_ & _ & ->).
  apply density_derivatives; auto. pose proof threshold3_pos. unfold threshold3 in *. lra.
Qed.

(** ** small slopes, orientations of opposite sign *)
Lemma face_of_zero : forall eps e4 gx gy gz d pr p q fb, 3 * e4 <> 1 -> pr fb = 0 -> pr (Q4 0 0 0 0) = 0 ->
  small_slope gx gy gz \/ mean_quat p q = Q4 0 0 0 0 ->
  face_of eps e4 gx gy gz d pr p q fb = (eps * (1 - 3 * e4)) ^ 2 * d.
Proof.
  intros eps e4 gx gy gz d pr p q fb N F0 P0 H. unfold face_of, face_dgamma. cbv zeta.
  assert (G : forall dg, pr dg = 0 -> face_flux eps e4 (gx * gx + gy * gy + gz * gz) d (pr dg) 0 = (eps * (1 - 3 * e4)) ^ 2 * d).
  { intros dg ->. unfold face_flux. cbv zeta. field. lra. }
  destruct (Rlt_dec _ _) as [L | _]; [| apply G; auto].
  destruct H as [S | E].
  - exfalso. unfold small_slope in S. rewrite Rabs_right in L by nra. nra.
  - rewrite E. match goal with |- context [compute_dgamma _ ?v] => assert (Ez : compute_dgamma (Q4 0 0 0 0) v = (Q4 0 0 0 0, 0)) end.
    { rewrite dgamma_val. assert (Z0 : forall v, conjugate_by (Q4 0 0 0 0) v = Q4 0 0 0 0).
      { intros [a b c e]. unfold conjugate_by. apply q4_ext; cbn [quatmult4 quatconj qa qb qc qd]; ring. }
      rewrite Z0. unfold cubic, quartic. cbn [qb qc qd]. apply (f_equal2 pair); [apply q4_ext; cbn [quatmult4 quatconj qa qb qc qd]; ring | ring]. }
    rewrite Ez. apply G. auto.
Qed.
Lemma mean_opposite : forall q, mean_quat q (opposite q) = Q4 0 0 0 0.
Proof. intros [a b c d]. unfold mean_quat, opposite, scale4. cbn [qa qb qc qd]. f_equal; field. Qed.
Lemma aniso_small : forall b eps eps4 phi quat old i j k, spaced b -> 3 * eps4 <> 1 ->
  (on_x b i j k -> small_slope (slope_xx b phi i j k) (slope_xy b phi i j k) (slope_xz b phi i j k) ->
   flux0 (anisotropic_flux3 b eps eps4 phi quat old) i j k = (eps * (1 - 3 * eps4)) ^ 2 * slope_xx b phi i j k) /\
  (on_y b i j k -> small_slope (slope_yx b phi i j k) (slope_yy b phi i j k) (slope_yz b phi i j k) ->
   flux1 (anisotropic_flux3 b eps eps4 phi quat old) i j k = (eps * (1 - 3 * eps4)) ^ 2 * slope_yy b phi i j k) /\
  (on_z b i j k -> small_slope (slope_zx b phi i j k) (slope_zy b phi i j k) (slope_zz b phi i j k) ->
   flux2 (anisotropic_flux3 b eps eps4 phi quat old) i j k = (eps * (1 - 3 * eps4)) ^ 2 * slope_zz b phi i j k).
Proof.
  intros b eps e4 phi quat old i j k Hs N. repeat split; intros F S.
  - rewrite aniso_x, in_x by auto. apply face_of_zero; auto.
  - rewrite aniso_y, in_y by auto. apply face_of_zero; auto.
  - rewrite aniso_z, in_z by auto. apply face_of_zero; auto.
Qed.
Lemma aniso_opposite : forall b eps eps4 phi quat old q i j k, spaced b -> 3 * eps4 <> 1 -> on_x b i j k ->
  quat (i - 1)%Z j k = q -> quat i j k = opposite q ->
  flux0 (anisotropic_flux3 b eps eps4 phi quat old) i j k = (eps * (1 - 3 * eps4)) ^ 2 * slope_xx b phi i j k.
Proof.
  intros b eps e4 phi quat old q i j k Hs N F Q1 Q2. rewrite aniso_x, in_x, Q1, Q2 by auto. apply face_of_zero; auto.
  right. apply mean_opposite.
Qed.

(** ** turned and mirrored axes *)
Lemma conjugate_third : forall x y z, conjugate_by third_turn (pure y z x) = pure x y z.
Proof. intros. apply q4_ext; unfold conjugate_by, third_turn, pure; cbn [qa qb qc qd quatmult4 quatconj]; field. Qed.
Lemma third_back : forall v, qa v = 0 -> quatmult4 (quatconj third_turn) (quatmult4 v third_turn) = pure (qc v) (qd v) (qb v).
Proof. intros [a x y z] E. cbn in E. subst a. apply q4_ext; unfold third_turn, pure; cbn [qa qb qc qd quatmult4 quatconj]; field. Qed.
Lemma inv_sqrt2 : 1 / sqrt 2 * (1 / sqrt 2) = 1 / 2.
Proof. pose proof (sqrt_sqrt 2 ltac:(lra)). assert (0 < sqrt 2) by (apply sqrt_lt_R0; lra). unfold Rdiv. rewrite !Rmult_1_l, <- Rinv_mult, H. reflexivity. Qed.
Lemma conjugate_half : forall x y z, conjugate_by half_turn (pure y x z) = pure (- x) (- y) (- z).
Proof.
  intros. pose proof inv_sqrt2 as E. unfold half_turn. set (s := 1 / sqrt 2) in *.
  apply q4_ext; unfold conjugate_by, pure; cbn [qa qb qc qd quatmult4 quatconj]; ring_simplify.
  - reflexivity.
  - replace (s ^ 2) with (1 / 2) by (rewrite <- E; ring). field.
  - replace (s ^ 2) with (1 / 2) by (rewrite <- E; ring). field.
  - replace (s ^ 2) with (1 / 2) by (rewrite <- E; ring). field.
Qed.
Lemma half_back : forall v, qa v = 0 -> quatmult4 (quatconj half_turn) (quatmult4 v half_turn) = pure (- qc v) (- qb v) (- qd v).
Proof.
  intros [a x y z] H. cbn in H. subst a. pose proof inv_sqrt2 as E. unfold half_turn. set (s := 1 / sqrt 2) in *.
  apply q4_ext; unfold pure; cbn [qa qb qc qd quatmult4 quatconj]; ring_simplify.
  - reflexivity.
  - replace (s ^ 2) with (1 / 2) by (rewrite <- E; ring). field.
  - replace (s ^ 2) with (1 / 2) by (rewrite <- E; ring). field.
  - replace (s ^ 2) with (1 / 2) by (rewrite <- E; ring). field.
Qed.
Lemma dgamma_pure : forall q v, qa v = 0 -> qa (fst (compute_dgamma q v)) = 0.
Proof. intros q v H. rewrite dgamma_val. cbn [fst]. set (c := cubic _). assert (qa c = 0) by reflexivity. destruct c as [a x y z]. cbn in H0. subst a. cbn. ring. Qed.
Lemma dgamma_opposite : forall q x y z, compute_dgamma q (pure (- x) (- y) (- z)) =
  let (dg, n4) := compute_dgamma q (pure x y z) in (scale4 (-1) dg, n4).
Proof.
  intros. rewrite !dgamma_val, !conjugate_rot.
  replace (turned q (- x) (- y) (- z) 1%Z) with (- turned q x y z 1%Z) by (unfold turned; ring).
  replace (turned q (- x) (- y) (- z) 2%Z) with (- turned q x y z 2%Z) by (unfold turned; ring).
  replace (turned q (- x) (- y) (- z) 3%Z) with (- turned q x y z 3%Z) by (unfold turned; ring).
  set (t1 := turned q x y z 1%Z). set (t2 := turned q x y z 2%Z). set (t3 := turned q x y z 3%Z).
  assert (E : quartic (pure (- t1) (- t2) (- t3)) = quartic (pure t1 t2 t3)) by (unfold quartic, pure; cbn [qb qc qd]; ring).
  f_equal; auto. unfold cubic. fold (quartic (pure (- t1) (- t2) (- t3))) (quartic (pure t1 t2 t3)). rewrite E. generalize (quartic (pure t1 t2 t3)). intro n4.
  unfold pure. cbn [qb qc qd].
  replace (Q4 0 (- t1 * (- t1 * - t1 - n4)) (- t2 * (- t2 * - t2 - n4)) (- t3 * (- t3 * - t3 - n4)))
    with (scale4 (-1) (Q4 0 (t1 * (t1 * t1 - n4)) (t2 * (t2 * t2 - n4)) (t3 * (t3 * t3 - n4)))) by (unfold scale4; cbn [qa qb qc qd]; f_equal; ring).
  generalize (Q4 0 (t1 * (t1 * t1 - n4)) (t2 * (t2 * t2 - n4)) (t3 * (t3 * t3 - n4))). intro c.
  apply q4_ext; unfold scale4; cbn [qa qb qc qd quatmult4 quatconj]; ring.
Qed.
Lemma face_of_third : forall eps e4 gx gy gz d p q fb fb' (pr pr' : q4 -> R),
  pr fb = 0 -> pr' fb' = 0 -> (forall x y z, pr' (pure y z x) = pr (pure x y z)) ->
  face_of eps e4 gy gz gx d pr' (quatmult4 p third_turn) (quatmult4 q third_turn) fb' = face_of eps e4 gx gy gz d pr p q fb.
Proof.
  intros eps e4 gx gy gz d p q fb fb' pr pr' F F' P. unfold face_of, face_dgamma. cbv zeta.
  replace (gy * gy + gz * gz + gx * gx) with (gx * gx + gy * gy + gz * gz) by ring.
  destruct (Rlt_dec _ _) as [L | _]; [| rewrite F, F'; reflexivity].
  rewrite mean_right, dgamma_right. set (s := 1 / sqrt (gx * gx + gy * gy + gz * gz)).
  change (Q4 0 (gy * s) (gz * s) (gx * s)) with (pure (gy * s) (gz * s) (gx * s)). rewrite conjugate_third.
  pose proof (dgamma_pure (mean_quat p q) (pure (gx * s) (gy * s) (gz * s)) eq_refl) as Z.
  change (Q4 0 (gx * s) (gy * s) (gz * s)) with (pure (gx * s) (gy * s) (gz * s)).
  destruct (compute_dgamma (mean_quat p q) (pure (gx * s) (gy * s) (gz * s))) as [dg n4]. cbn [fst] in Z.
  rewrite third_back by auto. rewrite P. destruct dg as [a x y z]. cbn in Z. subst a. reflexivity.
Qed.
Lemma face_of_half : forall eps e4 gx gy gz d p q fb fb' (pr pr' : q4 -> R),
  pr fb = 0 -> pr' fb' = 0 -> (forall x y z, pr' (pure y x z) = pr (pure x y z)) ->
  face_of eps e4 gy gx gz d pr' (quatmult4 p half_turn) (quatmult4 q half_turn) fb' = face_of eps e4 gx gy gz d pr p q fb.
Proof.
  intros eps e4 gx gy gz d p q fb fb' pr pr' F F' P. unfold face_of, face_dgamma. cbv zeta.
  replace (gy * gy + gx * gx + gz * gz) with (gx * gx + gy * gy + gz * gz) by ring.
  destruct (Rlt_dec _ _) as [L | _]; [| rewrite F, F'; reflexivity].
  rewrite mean_right, dgamma_right. set (s := 1 / sqrt (gx * gx + gy * gy + gz * gz)).
  change (Q4 0 (gy * s) (gx * s) (gz * s)) with (pure (gy * s) (gx * s) (gz * s)). rewrite conjugate_half, dgamma_opposite.
  pose proof (dgamma_pure (mean_quat p q) (pure (gx * s) (gy * s) (gz * s)) eq_refl) as Z.
  change (Q4 0 (gx * s) (gy * s) (gz * s)) with (pure (gx * s) (gy * s) (gz * s)).
  destruct (compute_dgamma (mean_quat p q) (pure (gx * s) (gy * s) (gz * s))) as [dg n4]. cbn [fst] in Z.
  destruct dg as [a x y z]. cbn in Z. subst a. rewrite half_back by (cbn; ring). unfold scale4. cbn [qb qc qd].
  replace (- (-1 * y)) with y by ring. replace (- (-1 * x)) with x by ring. replace (- (-1 * z)) with z by ring.
  rewrite P. reflexivity.
Qed.
Lemma aniso_turn : forall b eps eps4 phi quat old, spaced b ->
  same3 (anisotropic_flux3 (turn_box b) eps eps4 (turn phi) (turned_field (turn_quat quat) third_turn) (turn_faces old))
        (turn_faces (anisotropic_flux3 b eps eps4 phi quat old)).
Proof.
  intros b eps e4 phi quat old Hs i j k.
  assert (Ht : spaced (turn_box b)) by (destruct Hs as (A & B & C); repeat split; auto).
  set (F := anisotropic_flux3 b eps e4 phi quat old).
  change (flux0 (turn_faces F) i j k) with (flux1 F k i j). change (flux1 (turn_faces F) i j k) with (flux2 F k i j).
  change (flux2 (turn_faces F) i j k) with (flux0 F k i j). unfold F.
  split; [| split]; [rewrite aniso_x, aniso_y by auto | rewrite aniso_y, aniso_z by auto | rewrite aniso_z, aniso_x by auto];
    cbn [xl xu yl yu zl zu turn_box]; unfold turned_field, turn_quat.
  - destruct old as [[o0 o1] o2]. unfold flux0, flux1, flux2. cbn [fst snd].
    destruct (inb (yl b) (yu b + 1) i); destruct (inb (zl b) (zu b) j); destruct (inb (xl b) (xu b) k); cbn [andb]; try reflexivity.
    apply (face_of_third eps e4 (slope_yx b phi k i j) (slope_yy b phi k i j) (slope_yz b phi k i j)); reflexivity.
  - destruct old as [[o0 o1] o2]. unfold flux0, flux1, flux2. cbn [fst snd].
    destruct (inb (yl b) (yu b) i); destruct (inb (zl b) (zu b + 1) j); destruct (inb (xl b) (xu b) k); cbn [andb]; try reflexivity.
    apply (face_of_third eps e4 (slope_zx b phi k i j) (slope_zy b phi k i j) (slope_zz b phi k i j)); reflexivity.
  - destruct old as [[o0 o1] o2]. unfold flux0, flux1, flux2. cbn [fst snd].
    destruct (inb (yl b) (yu b) i); destruct (inb (zl b) (zu b) j); destruct (inb (xl b) (xu b + 1) k); cbn [andb]; try reflexivity.
    apply (face_of_third eps e4 (slope_xx b phi k i j) (slope_xy b phi k i j) (slope_xz b phi k i j)); reflexivity.
Qed.
Lemma aniso_swap : forall b eps eps4 phi quat old, spaced b ->
  same3 (anisotropic_flux3 (swap_box b) eps eps4 (swap phi) (turned_field (swap_quat quat) half_turn) (swap_faces old))
        (swap_faces (anisotropic_flux3 b eps eps4 phi quat old)).
Proof.
  intros b eps e4 phi quat old Hs i j k.
  assert (Ht : spaced (swap_box b)) by (destruct Hs as (A & B & C); repeat split; auto).
  set (F := anisotropic_flux3 b eps e4 phi quat old).
  change (flux0 (swap_faces F) i j k) with (flux1 F j i k). change (flux1 (swap_faces F) i j k) with (flux0 F j i k).
  change (flux2 (swap_faces F) i j k) with (flux2 F j i k). unfold F.
  split; [| split]; [rewrite aniso_x, aniso_y by auto | rewrite aniso_y, aniso_x by auto | rewrite !aniso_z by auto];
    cbn [xl xu yl yu zl zu swap_box]; unfold turned_field, swap_quat.
  - destruct old as [[o0 o1] o2]. unfold flux0, flux1, flux2. cbn [fst snd].
    destruct (inb (yl b) (yu b + 1) i); destruct (inb (zl b) (zu b) k); destruct (inb (xl b) (xu b) j); cbn [andb]; try reflexivity.
    apply (face_of_half eps e4 (slope_yx b phi j i k) (slope_yy b phi j i k) (slope_yz b phi j i k)); reflexivity.
  - destruct old as [[o0 o1] o2]. unfold flux0, flux1, flux2. cbn [fst snd].
    destruct (inb (yl b) (yu b) i); destruct (inb (zl b) (zu b) k); destruct (inb (xl b) (xu b + 1) j); cbn [andb]; try reflexivity.
    apply (face_of_half eps e4 (slope_xx b phi j i k) (slope_xy b phi j i k) (slope_xz b phi j i k)); reflexivity.
  - destruct old as [[o0 o1] o2]. unfold flux0, flux1, flux2. cbn [fst snd].
    destruct (inb (yl b) (yu b) i); destruct (inb (zl b) (zu b + 1) k); destruct (inb (xl b) (xu b) j); cbn [andb]; try reflexivity.
    apply (face_of_half eps e4 (slope_zx b phi j i k) (slope_zy b phi j i k) (slope_zz b phi j i k)); reflexivity.
Qed.

(** ** the symmetry the code uses for orientations *)
Definition unit_box3 : box3 := mk_box3 0 0 0 0 0 0 1 1 1.
Definition climbing : arr3 := fun _ _ k => IZR k.
Definition sample_quat : q4 := Q4 (3 / 5) 0 0 (4 / 5).
Lemma unit_spaced : spaced unit_box3.
Proof. repeat split; cbn; lra. Qed.
Lemma climbing_slopes : slope_zx unit_box3 climbing 0%Z 0%Z 0%Z = 0 /\ slope_zy unit_box3 climbing 0%Z 0%Z 0%Z = 0 /\
  slope_zz unit_box3 climbing 0%Z 0%Z 0%Z = 1.
Proof. unfold slope_zx, slope_zy, slope_zz, mean, cdx, cdy, climbing. cbn [hx hy hz unit_box3]. cbn [Z.sub Z.add Z.opp Z.pos_sub]. repeat split; field. Qed.
Lemma climbing_flux : forall q quat old, unit4 q -> (forall i j k, quat i j k = q) ->
  flux2 (anisotropic_flux3 unit_box3 1 (1 / 10) climbing quat old) 0%Z 0%Z 0%Z =
  (7 / 10 + 4 / 10 * (quatrotationmatrix q 1%Z 3%Z ^ 4 + quatrotationmatrix q 2%Z 3%Z ^ 4 + quatrotationmatrix q 3%Z 3%Z ^ 4)) ^ 2.
Proof.
  intros q quat old U Q. rewrite aniso_z, in_z, !Q by (apply unit_spaced || (unfold on_z, in_box3, unit_box3; cbn; lia)).
  destruct climbing_slopes as (-> & -> & ->).
  rewrite (proj2 (proj2 (face_of_inside 1 (1 / 10) 0 0 1 q (Q4 0 0 1 0) ltac:(lra) ltac:(lra) U))).
  unfold face_value, turned. cbv zeta. field.
Qed.
Lemma symmetry_rotation : forall q, quatsymmrotate4 q 9 = Some (9%Z, quatmult4 q (qr4 9)).
Proof. intro q. reflexivity. Qed.
Lemma rotated_column : forall i, idx3 i -> quatrotationmatrix (quatmult4 sample_quat (qr4 9)) i 3%Z =
  if (i =? 1)%Z then 24 / 25 else if (i =? 2)%Z then 7 / 25 else 0.
Proof.
  intros i Hi. rewrite rot_hom by (auto; unfold idx3; lia). unfold mmul. rewrite !(qr4_scale 9) by (unfold in_table; lia). rewrite !rot_scale.
  rewrite !zrot_ok by (unfold idx3; lia). change (zn (zq 9)) with 2%Z.
  assert (E : / sqrt (IZR 2) * / sqrt (IZR 2) = / 2) by (rewrite <- Rinv_mult, sqrt_sqrt by lra; reflexivity). rewrite E.
  change (zrot (zq 9) 1 3) with 0%Z. change (zrot (zq 9) 2 3) with (-2)%Z. change (zrot (zq 9) 3 3) with 0%Z.
  unfold idx3 in Hi. assert (Hc : i = 1%Z \/ i = 2%Z \/ i = 3%Z) by lia. destruct Hc as [-> | [-> | ->]]; cbn; field.
Qed.
Lemma sample_unit : unit4 sample_quat.
Proof. unfold unit4, sample_quat. cbn. field. Qed.
Lemma symmetry_refuted : exists n q q', in_table 48 n /\ unit4 q /\ quatsymmrotate4 q n = Some (n, q') /\
  forall old, flux2 (anisotropic_flux3 unit_box3 1 (1 / 10) climbing (fun _ _ _ => q') old) 0%Z 0%Z 0%Z <>
              flux2 (anisotropic_flux3 unit_box3 1 (1 / 10) climbing (fun _ _ _ => q) old) 0%Z 0%Z 0%Z.
Proof.
  exists 9%Z, sample_quat, (quatmult4 sample_quat (qr4 9)). split; [unfold in_table; lia |]. split; [apply sample_unit |]. split; [apply symmetry_rotation |].
  intro old. assert (U : unit4 (quatmult4 sample_quat (qr4 9))) by (apply unit4_mult; [apply sample_unit | apply qr4_unit; unfold in_table; lia]).
  rewrite (climbing_flux (quatmult4 sample_quat (qr4 9)) _ _ U), (climbing_flux sample_quat _ _ sample_unit) by reflexivity.
  rewrite !rotated_column by (unfold idx3; lia). cbn -[pow]. lra.
Qed.
Lemma opposite_refuted : exists q, unit4 q /\ forall old,
  flux0 (anisotropic_flux3 unit_box3 1 (1 / 10) (fun i _ _ => IZR i) (fun i _ _ => if Z.even i then q else opposite q) old) 0%Z 0%Z 0%Z <>
  flux0 (anisotropic_flux3 unit_box3 1 (1 / 10) (fun i _ _ => IZR i) (fun _ _ _ => q) old) 0%Z 0%Z 0%Z.
Proof.
  exists (Q4 1 0 0 0). split; [unfold unit4; cbn; ring |]. intro old.
  set (phi := fun i _ _ : Z => IZR i).
  assert (S1 : slope_xx unit_box3 phi 0%Z 0%Z 0%Z = 1) by (unfold slope_xx, phi; cbn; field).
  assert (S2 : slope_xy unit_box3 phi 0%Z 0%Z 0%Z = 0) by (unfold slope_xy, mean, cdy, phi; cbn; field).
  assert (S3 : slope_xz unit_box3 phi 0%Z 0%Z 0%Z = 0) by (unfold slope_xz, mean, cdz, phi; cbn; field).
  assert (F : on_x unit_box3 0 0 0) by (unfold on_x, in_box3, unit_box3; cbn; lia).
  rewrite !aniso_x, in_x by (auto; apply unit_spaced). rewrite S1, S2, S3. cbn [Z.even Z.sub Z.add Z.opp].
  rewrite (face_of_zero 1 (1 / 10) 1 0 0 1 qb (opposite (Q4 1 0 0 0)) (Q4 1 0 0 0) (Q4 0 0 0 1)) by
    (try lra; try reflexivity; right; unfold mean_quat, opposite, scale4; cbn [qa qb qc qd]; f_equal; field).
  rewrite (proj1 (face_of_inside 1 (1 / 10) 1 0 0 (Q4 1 0 0 0) (Q4 0 0 0 1) ltac:(lra) ltac:(lra) ltac:(unfold unit4; cbn; ring))).
  unfold face_value, turned. cbn -[pow]. lra.
Qed.
Lemma aniso_none : forall b eps phi quat old i j k, spaced b ->
  (on_x b i j k -> flux0 (anisotropic_flux3 b eps 0 phi quat old) i j k = flux0 (gradient_flux3 b eps phi old) i j k) /\
  (on_y b i j k -> flux1 (anisotropic_flux3 b eps 0 phi quat old) i j k = flux1 (gradient_flux3 b eps phi old) i j k) /\
  (on_z b i j k -> flux2 (anisotropic_flux3 b eps 0 phi quat old) i j k = flux2 (gradient_flux3 b eps phi old) i j k).
Proof.
  intros b eps phi quat [[o0 o1] o2] i j k Hs. destruct Hs as (H0 & H1 & H2).
  repeat split; intro F; [rewrite aniso_x, in_x | rewrite aniso_y, in_y | rewrite aniso_z, in_z]; auto using conj;
    try (repeat split; auto); unfold gradient_flux3, flux0, flux1, flux2; cbn [fst snd];
    [rewrite xfaces3_val, in_x | rewrite yfaces3_val, in_y | rewrite zfaces3_val, in_z]; auto;
    unfold face_of; destruct (face_dgamma _ _ _ _ _ _) as [dg n4]; unfold face_flux; cbv zeta;
    unfold slope_xx, slope_yy, slope_zz; field; auto.
Qed.

(** ** slabs *)
Lemma polar : forall gx gy, 0 < gx ^ 2 + gy ^ 2 -> gx = 0 \/ 1 / 10 ^ 12 < Rabs gx ->
  exists r, r <> 0 /\ gx = r * cos (PhaseFlow_Model.grad_angle gx gy) /\ gy = r * sin (PhaseFlow_Model.grad_angle gx gy) /\ r ^ 2 = gx ^ 2 + gy ^ 2.
Proof.
  intros gx gy P [-> | Hg].
  - assert (E : PhaseFlow_Model.grad_angle 0 gy = PI / 2).
    { unfold PhaseFlow_Model.grad_angle. rewrite Rabs_R0. pose proof threshold3_pos as T. unfold threshold3 in T.
      destruct (Rlt_dec _ 0); [lra | field]. }
    rewrite E, cos_PI2, sin_PI2. exists gy. repeat split; try lra. nra.
  - destruct (PhaseFlow_Proofs.grad_angle_far gx gy Hg) as [N ->]. exists (gx / cos (atan (gy / gx))).
    assert (C : 0 < cos (atan (gy / gx))) by (destruct (atan_bound (gy / gx)); apply cos_gt_0; lra).
    assert (T : sin (atan (gy / gx)) = gy / gx * cos (atan (gy / gx))).
    { rewrite <- (tan_atan (gy / gx)) at 2. unfold tan. field. lra. }
    pose proof (sin2_cos2 (atan (gy / gx))) as Q. unfold Rsqr in Q. rewrite T in *. set (c := cos (atan (gy / gx))) in *. clearbody c.
    assert (N2 : gx / c <> 0) by (apply Rmult_integral_contrapositive_currified; [auto | apply Rinv_neq_0_compat; lra]).
    repeat split; auto.
    + field. lra.
    + field. lra.
    + replace ((gx / c) ^ 2) with ((gx / c) ^ 2 * (gy / gx * c * (gy / gx * c) + c * c)) by (rewrite Q; ring). field. lra.
Qed.
Lemma about_z_matrix : forall alpha, let M := quatrotationmatrix (about_z (- alpha)) in
  M 1%Z 1%Z = cos alpha /\ M 1%Z 2%Z = sin alpha /\ M 1%Z 3%Z = 0 /\ M 2%Z 1%Z = - sin alpha /\ M 2%Z 2%Z = cos alpha /\ M 2%Z 3%Z = 0 /\
  M 3%Z 1%Z = 0 /\ M 3%Z 2%Z = 0 /\ M 3%Z 3%Z = 1.
Proof.
  intro alpha. cbv zeta. unfold about_z. replace (- alpha / 2) with (- (alpha / 2)) by field. rewrite cos_neg, sin_neg.
  pose proof (sin2_cos2 (alpha / 2)) as Q. unfold Rsqr in Q.
  assert (Ec : cos alpha = cos (alpha / 2) * cos (alpha / 2) - sin (alpha / 2) * sin (alpha / 2)) by (rewrite <- cos_2a; f_equal; field).
  assert (Es : sin alpha = 2 * sin (alpha / 2) * cos (alpha / 2)) by (rewrite <- sin_2a; f_equal; field). rewrite Ec, Es.
  set (c := cos (alpha / 2)) in *. set (s := sin (alpha / 2)) in *. repeat split; cbn; lra.
Qed.
Lemma about_z_unit : forall a, unit4 (about_z a).
Proof. intro a. unfold unit4, about_z. cbn [qa qb qc qd]. pose proof (sin2_cos2 (a / 2)) as Q. unfold Rsqr in Q. nra. Qed.
Lemma quadruple : forall C S, C ^ 2 + S ^ 2 = 1 ->
  forall x, C = cos x -> S = sin x -> cos (4 * x) = 4 * (C ^ 4 + S ^ 4) - 3 /\ sin (4 * x) = 4 * S * C * (C ^ 2 - S ^ 2).
Proof.
  intros C S Q x -> ->. replace (4 * x) with (2 * (2 * x)) by ring. rewrite (cos_2a (2 * x)), (sin_2a (2 * x)), cos_2a, sin_2a.
  set (c := cos x) in *. set (s := sin x) in *. split; [| ring].
  assert (E : 1 = (c ^ 2 + s ^ 2) ^ 2) by (rewrite Q; ring). replace 3 with (3 * (c ^ 2 + s ^ 2) ^ 2) by (rewrite Q; ring). ring.
Qed.
Lemma slab_value : forall eps e4 alpha gx gy, 0 < gx ^ 2 + gy ^ 2 -> gx = 0 \/ 1 / 10 ^ 12 < Rabs gx ->
  let theta := PhaseFlow_Model.grad_angle gx gy in
  let e := PhaseFlow_Model.epstheta eps e4 4 theta alpha in
  let de := PhaseFlow_Model.depsdtheta eps e4 4 theta alpha in
  face_value eps e4 (about_z (- alpha)) 1 gx gy 0 gx = e * e * gx - e * de * gy /\
  face_value eps e4 (about_z (- alpha)) 2 gx gy 0 gy = e * e * gy + e * de * gx /\
  face_value eps e4 (about_z (- alpha)) 3 gx gy 0 0 = 0.
Proof.
  intros eps e4 alpha gx gy P G theta e de. destruct (polar gx gy P G) as (r & N & Ex & Ey & R2). fold theta in Ex, Ey.
  unfold face_value. cbv zeta. unfold turned. destruct (about_z_matrix alpha) as (M1 & M2 & M3 & M4 & M5 & M6 & M7 & M8 & M9).
  rewrite M1, M2, M3, M4, M5, M6, M7, M8, M9. clear M1 M2 M3 M4 M5 M6 M7 M8 M9.
  replace (gx ^ 2 + gy ^ 2 + 0 ^ 2) with (r ^ 2) by (rewrite R2; ring).
  set (x := theta - alpha). set (C := cos x). set (D := sin x).
  assert (Q : C ^ 2 + D ^ 2 = 1) by (pose proof (sin2_cos2 x) as Q; unfold Rsqr in Q; fold C D in Q; nra).
  destruct (quadruple C D Q x eq_refl eq_refl) as [C4 D4].
  assert (Ec : cos theta = C * cos alpha - D * sin alpha) by (replace theta with (x + alpha) by (unfold x; ring); rewrite cos_plus; reflexivity).
  assert (Es : sin theta = D * cos alpha + C * sin alpha) by (replace theta with (x + alpha) by (unfold x; ring); rewrite sin_plus; unfold C, D; ring).
  assert (Qa : cos alpha ^ 2 + sin alpha ^ 2 = 1) by (pose proof (sin2_cos2 alpha) as Qa; unfold Rsqr in Qa; nra).
  assert (T1 : cos alpha * gx + sin alpha * gy + 0 * 0 = r * C).
  { rewrite Ex, Ey, Ec, Es. replace (r * C) with (r * C * (cos alpha ^ 2 + sin alpha ^ 2)) by (rewrite Qa; ring). ring. }
  assert (T2 : - sin alpha * gx + cos alpha * gy + 0 * 0 = r * D).
  { rewrite Ex, Ey, Ec, Es. replace (r * D) with (r * D * (cos alpha ^ 2 + sin alpha ^ 2)) by (rewrite Qa; ring). ring. }
  rewrite T1, T2. replace (0 * gx + 0 * gy + 1 * 0) with 0 by ring.
  assert (Sv : ((r * C) ^ 4 + (r * D) ^ 4 + 0 ^ 4) / (r ^ 2) ^ 2 = C ^ 4 + D ^ 4) by (field; auto). rewrite Sv.
  assert (Ee : eps * (1 - 3 * e4 + 4 * e4 * (C ^ 4 + D ^ 4)) = e).
  { unfold e, PhaseFlow_Model.epstheta. fold x. rewrite C4. ring. }
  rewrite Ee.
  assert (Ed : de = - (16 * eps * e4 * (D * C * (C ^ 2 - D ^ 2)))).
  { unfold de, PhaseFlow_Model.depsdtheta. fold x. rewrite D4. ring. }
  assert (X1 : (cos alpha * (r * C) ^ 3 + - sin alpha * (r * D) ^ 3 + 0 * 0 ^ 3) / r ^ 2 = r * (cos alpha * C ^ 3 - sin alpha * D ^ 3)) by (field; auto).
  assert (X2 : (sin alpha * (r * C) ^ 3 + cos alpha * (r * D) ^ 3 + 0 * 0 ^ 3) / r ^ 2 = r * (sin alpha * C ^ 3 + cos alpha * D ^ 3)) by (field; auto).
  rewrite X1, X2, Ed. split; [| split].
  - assert (K : r * (cos alpha * C ^ 3 - sin alpha * D ^ 3) - (C ^ 4 + D ^ 4) * gx = D * C * (C ^ 2 - D ^ 2) * gy).
    { rewrite Ex, Ey, Ec, Es.
      replace (cos alpha * C ^ 3 - sin alpha * D ^ 3) with ((cos alpha * C ^ 3 - sin alpha * D ^ 3) * (C ^ 2 + D ^ 2)) by (rewrite Q; ring). ring. }
    rewrite K. ring.
  - assert (K : r * (sin alpha * C ^ 3 + cos alpha * D ^ 3) - (C ^ 4 + D ^ 4) * gy = - (D * C * (C ^ 2 - D ^ 2) * gx)).
    { rewrite Ex, Ey, Ec, Es.
      replace (sin alpha * C ^ 3 + cos alpha * D ^ 3) with ((sin alpha * C ^ 3 + cos alpha * D ^ 3) * (C ^ 2 + D ^ 2)) by (rewrite Q; ring). ring. }
    rewrite K. ring.
  - field. auto.
Qed.
Lemma flat_slopes : forall b p i j k, spaced b ->
  slope_xx b (flat p) i j k = PhaseFlow_Spec.face_x_dx (plane b) p i j /\ slope_xy b (flat p) i j k = PhaseFlow_Spec.face_x_dy (plane b) p i j /\
  slope_xz b (flat p) i j k = 0 /\
  slope_yx b (flat p) i j k = PhaseFlow_Spec.face_y_dx (plane b) p i j /\ slope_yy b (flat p) i j k = PhaseFlow_Spec.face_y_dy (plane b) p i j /\
  slope_yz b (flat p) i j k = 0 /\ slope_zz b (flat p) i j k = 0.
Proof.
  intros b p i j k (H0 & H1 & H2). unfold slope_xx, slope_xy, slope_xz, slope_yx, slope_yy, slope_yz, slope_zz, mean, cdx, cdy, cdz, flat,
    PhaseFlow_Spec.face_x_dx, PhaseFlow_Spec.face_x_dy, PhaseFlow_Spec.face_y_dx, PhaseFlow_Spec.face_y_dy, plane. cbn [PhaseFlow_Model.h1 PhaseFlow_Model.h2].
  repeat split; field; auto.
Qed.
Lemma slab_x : forall b eps eps4 phi alpha quat quat2 old old2 i j k, spaced b -> 3 * eps4 <> 1 -> on_x b i j k -> 0 <= alpha <= 2 * PI ->
  quat (i - 1)%Z j k = about_z (- alpha) -> quat i j k = about_z (- alpha) ->
  quat2 (i - 1)%Z j = cos (alpha / 2) -> quat2 i j = cos (alpha / 2) ->
  let gx := PhaseFlow_Spec.face_x_dx (plane b) phi i j in let gy := PhaseFlow_Spec.face_x_dy (plane b) phi i j in
  1 / 10 ^ 12 < gx ^ 2 + gy ^ 2 -> gx = 0 \/ 1 / 10 ^ 12 < Rabs gx ->
  flux0 (anisotropic_flux3 b eps eps4 (flat phi) quat old) i j k =
  PhaseFlow_Model.flux_x (PhaseFlow_Model.FluxAnisotropic eps4 4 4 quat2) (plane b) eps phi old2 i j.
Proof.
  intros b eps e4 phi alpha quat quat2 old old2 i j k Hs N F Ha Q1 Q2 P1 P2 gx gy Hr Hx.
  rewrite aniso_x, in_x, Q1, Q2 by auto. destruct (flat_slopes b phi i j k Hs) as (-> & -> & -> & _). fold gx gy.
  rewrite (proj1 (face_of_inside eps e4 gx gy 0 (about_z (- alpha)) (Q4 0 0 0 1) ltac:(lra) N (about_z_unit _))).
  pose proof threshold3_pos as T. unfold threshold3 in T.
  rewrite (proj1 (slab_value eps e4 alpha gx gy ltac:(lra) Hx)).
  cbn [PhaseFlow_Model.flux_x]. unfold PhaseFlow_Model.anisotropic_flux_x.
  rewrite PhaseFlow_Proofs.xfaces_val by (destruct F as (I & J & K); split; auto). cbv zeta. rewrite P1, P2.
  change (cos (alpha / 2)) with (PhaseFlow_Spec.first_component 4 alpha). rewrite PhaseFlow_Proofs.crystal_angle_val by auto.
  destruct Hs as (H0 & H1 & H2).
  replace ((phi i j - phi (i - 1)%Z j) * (1 / PhaseFlow_Model.h1 (plane b))) with gx by (unfold gx, PhaseFlow_Spec.face_x_dx; cbn; field; auto).
  replace (1 / 4 * (phi (i - 1)%Z (j + 1)%Z - phi (i - 1)%Z (j - 1)%Z + phi i (j + 1)%Z - phi i (j - 1)%Z) * (1 / PhaseFlow_Model.h2 (plane b))) with gy
    by (unfold gy, PhaseFlow_Spec.face_x_dy; cbn [PhaseFlow_Model.h2 plane]; field; auto).
  reflexivity.
Qed.
Lemma slab_y : forall b eps eps4 phi alpha quat quat2 old old2 i j k, spaced b -> 3 * eps4 <> 1 -> on_y b i j k -> 0 <= alpha <= 2 * PI ->
  quat i (j - 1)%Z k = about_z (- alpha) -> quat i j k = about_z (- alpha) ->
  quat2 i (j - 1)%Z = cos (alpha / 2) -> quat2 i j = cos (alpha / 2) ->
  let gx := PhaseFlow_Spec.face_y_dx (plane b) phi i j in let gy := PhaseFlow_Spec.face_y_dy (plane b) phi i j in
  1 / 10 ^ 12 < gx ^ 2 + gy ^ 2 -> gx = 0 \/ 1 / 10 ^ 12 < Rabs gx ->
  flux1 (anisotropic_flux3 b eps eps4 (flat phi) quat old) i j k =
  PhaseFlow_Model.flux_y (PhaseFlow_Model.FluxAnisotropic eps4 4 4 quat2) (plane b) eps phi old2 i j.
Proof.
  intros b eps e4 phi alpha quat quat2 old old2 i j k Hs N F Ha Q1 Q2 P1 P2 gx gy Hr Hx.
  rewrite aniso_y, in_y, Q1, Q2 by auto. destruct (flat_slopes b phi i j k Hs) as (_ & _ & _ & -> & -> & -> & _). fold gx gy.
  rewrite (proj1 (proj2 (face_of_inside eps e4 gx gy 0 (about_z (- alpha)) (Q4 0 0 0 1) ltac:(lra) N (about_z_unit _)))).
  pose proof threshold3_pos as T. unfold threshold3 in T.
  rewrite (proj1 (proj2 (slab_value eps e4 alpha gx gy ltac:(lra) Hx))).
  cbn [PhaseFlow_Model.flux_y]. unfold PhaseFlow_Model.anisotropic_flux_y.
  rewrite PhaseFlow_Proofs.yfaces_val by (destruct F as (I & J & K); split; auto). cbv zeta. rewrite P1, P2.
  change (cos (alpha / 2)) with (PhaseFlow_Spec.first_component 4 alpha). rewrite PhaseFlow_Proofs.crystal_angle_val by auto.
  destruct Hs as (H0 & H1 & H2).
  replace ((phi i j - phi i (j - 1)%Z) * (1 / PhaseFlow_Model.h2 (plane b))) with gy by (unfold gy, PhaseFlow_Spec.face_y_dy; cbn; field; auto).
  replace (1 / 4 * (phi (i + 1)%Z (j - 1)%Z - phi (i - 1)%Z (j - 1)%Z + phi (i + 1)%Z j - phi (i - 1)%Z j) * (1 / PhaseFlow_Model.h1 (plane b))) with gx
    by (unfold gx, PhaseFlow_Spec.face_y_dx; cbn [PhaseFlow_Model.h1 plane]; field; auto).
  reflexivity.
Qed.
Lemma slab_z : forall b eps eps4 phi alpha quat old i j k, spaced b -> 3 * eps4 <> 1 -> on_z b i j k ->
  quat i j (k - 1)%Z = about_z alpha -> quat i j k = about_z alpha ->
  flux2 (anisotropic_flux3 b eps eps4 (flat phi) quat old) i j k = 0.
Proof.
  intros b eps e4 phi alpha quat old i j k Hs N F Q1 Q2. rewrite aniso_z, in_z, Q1, Q2 by auto.
  destruct (flat_slopes b phi i j k Hs) as (_ & _ & _ & _ & _ & _ & ->).
  set (gx := slope_zx _ _ _ _ _). set (gy := slope_zy _ _ _ _ _).
  destruct (Rle_lt_dec (gx ^ 2 + gy ^ 2 + 0 ^ 2) (1 / 10 ^ 12)) as [L | L].
  - rewrite face_of_zero by auto. ring.
  - rewrite (proj2 (proj2 (face_of_inside eps e4 gx gy 0 (about_z alpha) (Q4 0 0 1 0) L N (about_z_unit _)))).
    pose proof threshold3_pos as T. unfold threshold3 in T.
    unfold face_value, turned. cbv zeta. destruct (about_z_matrix (- alpha)) as (_ & _ & M3 & _ & _ & M6 & M7 & M8 & M9).
    rewrite Ropp_involutive in *. rewrite M3, M6, M7, M8, M9. field. lra.
Qed.
Lemma slab_mirror_refuted : exists alpha, 0 <= alpha <= 2 * PI /\ forall old old2,
  flux1 (anisotropic_flux3 unit_box3 1 (1 / 4) (flat (fun i _ => IZR i)) (fun _ _ _ => about_z alpha) old) 0%Z 0%Z 0%Z <>
  PhaseFlow_Model.flux_y (PhaseFlow_Model.FluxAnisotropic (1 / 4) 4 4 (fun _ _ => cos (alpha / 2))) (plane unit_box3) 1 (fun i _ => IZR i) old2 0%Z 0%Z.
Proof.
  exists (PI / 8). pose proof PI_RGT_0 as Hpi. split; [lra |]. intros old old2.
  set (phi := fun i _ : Z => IZR i). set (a' := - (PI / 8)).
  assert (Dx : PhaseFlow_Spec.face_y_dx (plane unit_box3) phi 0%Z 0%Z = 1) by (unfold PhaseFlow_Spec.face_y_dx, phi; cbn; field).
  assert (Dy : PhaseFlow_Spec.face_y_dy (plane unit_box3) phi 0%Z 0%Z = 0) by (unfold PhaseFlow_Spec.face_y_dy, phi; cbn; field).
  assert (F : on_y unit_box3 0 0 0) by (unfold on_y, in_box3, unit_box3; cbn; lia).
  assert (A1 : 1 = 0 \/ 1 / 10 ^ 12 < Rabs 1) by (right; rewrite Rabs_R1; lra).
  assert (E : PhaseFlow_Model.flux_y (PhaseFlow_Model.FluxAnisotropic (1 / 4) 4 4 (fun _ _ => cos (PI / 8 / 2))) (plane unit_box3) 1 phi old2 0%Z 0%Z =
    flux1 (anisotropic_flux3 unit_box3 1 (1 / 4) (flat phi) (fun _ _ _ => about_z (- (PI / 8))) old) 0%Z 0%Z 0%Z).
  { symmetry. apply (slab_y unit_box3 1 (1 / 4) phi (PI / 8)); try reflexivity; auto using unit_spaced; try lra; rewrite Dx, ?Dy; auto. lra. }
  rewrite E. rewrite !aniso_y, in_y by (auto; apply unit_spaced).
  destruct (flat_slopes unit_box3 phi 0%Z 0%Z 0%Z unit_spaced) as (_ & _ & _ & -> & -> & -> & _). rewrite Dx, Dy.
  rewrite !(fun q U => proj1 (proj2 (face_of_inside 1 (1 / 4) 1 0 0 q (Q4 0 0 0 1) ltac:(lra) ltac:(lra) U))) by apply about_z_unit.
  replace (about_z (PI / 8)) with (about_z (- a')) by (unfold a'; rewrite Ropp_involutive; reflexivity).
  rewrite (proj1 (proj2 (slab_value 1 (1 / 4) a' 1 0 ltac:(lra) A1))), (proj1 (proj2 (slab_value 1 (1 / 4) (PI / 8) 1 0 ltac:(lra) A1))).
  assert (G : PhaseFlow_Model.grad_angle 1 0 = 0).
  { rewrite (proj2 (PhaseFlow_Proofs.grad_angle_far 1 0 ltac:(destruct A1; [lra | auto]))). replace (0 / 1) with 0 by field. apply atan_0. }
  rewrite G. unfold a', PhaseFlow_Model.epstheta, PhaseFlow_Model.depsdtheta.
  replace (4 * (0 - - (PI / 8))) with (PI / 2) by field. replace (4 * (0 - PI / 8)) with (- (PI / 2)) by field.
  rewrite cos_neg, sin_neg, cos_PI2, sin_PI2. lra.
Qed.

(** ** the right-hand side *)
Definition div3 (b : box3) (f : arr3x3) (i j k : Z) : R :=
  (flux0 f (i + 1)%Z j k - flux0 f i j k) / hx b + (flux1 f i (j + 1)%Z k - flux1 f i j k) / hy b
  + (flux2 f i j (k + 1)%Z - flux2 f i j k) / hz b.
Definition third_term3 (p : phase_problem3) (phi : arr3) (i j k : Z) : R :=
  match pthird3 p with
  | Some e => - (eta_well_scale e * val (deriv_interp_func (phi i j k) (eta_interp e)) * val (well_func (eta3 e i j k) (eta_well e)))
  | None => 0 end.
Definition orient_term3 (p : phase_problem3) (phi : arr3) (i j k : Z) : R :=
  match porient3 p with
  | Some o => - (misorientation o * ptemp3 p i j k * val (deriv_interp_func (phi i j k) (otype1 o)) * ogm3 o i j k)
      - val (deriv_interp_func (phi i j k) (otype2 o)) * (1 / 2 * epsilonq o * epsilonq o) * ogm3 o i j k * ogm3 o i j k
  | None => 0 end.
Definition force3 (p : phase_problem3) (f : arr3x3) (phi : arr3) (i j k : Z) : R :=
  div3 (pb3 p) f i j k - pwell3 p * (32 * phi i j k * (1 - phi i j k) * (1 - 2 * phi i j k))
  + third_term3 p phi i j k + orient_term3 p phi i j k + local_drive (pdrive3 p) (ptemp3 p) phi i j k.
Definition known3 (p : phase_problem3) : bool :=
  (match pthird3 p with Some e => deriv_known (eta_interp e) && well_known (eta_well e) | None => true end
   && match porient3 p with Some o => deriv_known (otype1 o) && deriv_known (otype2 o) | None => true end
   && match pdrive3 p with FreeEnergies3 _ _ it => deriv_known it | DeltaTemperature3 _ _ it => deriv_known it | _ => true end)%bool.
Lemma rhs3_value : forall p phi fold rold, match compute_flux3 (pflux3 p) (pb3 p) (peps3 p) phi fold with
  | None => evaluatePhaseRHS3 p phi fold rold = None
  | Some f => if known3 p then exists rhs, evaluatePhaseRHS3 p phi fold rold = Some rhs /\
      forall i j k, in_cells3 (pb3 p) i j k -> rhs i j k = pmob3 p i j k * force3 p f phi i j k
    else evaluatePhaseRHS3 p phi fold rold = None
  end.
Proof.
  intros p phi fold rold. unfold evaluatePhaseRHS3.
  destruct (compute_flux3 (pflux3 p) (pb3 p) (peps3 p) phi fold) as [f |]; [| reflexivity].
  unfold known3, computerhspbg3. destruct f as [[f0 f1] f2].
  set (k3 := match pthird3 p with Some _ => _ | None => true end).
  set (ko := match porient3 p with Some _ => _ | None => true end).
  change (well_known "d") with true. cbn [andb].
  destruct k3 eqn:E3; [| reflexivity]. destruct ko eqn:Eo; [| reflexivity]. cbn [andb].
  set (r3 := match porient3 p with Some _ => _ | None => _ end).
  assert (V : forall i j k, in_cells3 (pb3 p) i j k -> r3 i j k =
    div3 (pb3 p) (f0, f1, f2) i j k - pwell3 p * (32 * phi i j k * (1 - phi i j k) * (1 - 2 * phi i j k)) + third_term3 p phi i j k + orient_term3 p phi i j k).
  { intros i j k H. unfold r3, orient_term3, third_term3, div3, flux0, flux1, flux2. clear r3 k3 ko E3 Eo. cbn [fst snd].
    destruct (porient3 p) as [o |]; destruct (pthird3 p) as [e |]; rewrite !cells3_in by auto; cbv beta zeta;
      cbn [deriv_well_func Energy_Model.val]; unfold Rdiv; ring. }
  clearbody r3. clear E3 Eo k3 ko.
  destruct (pdrive3 p) as [| fl fa it | tm lh it | alpha gamma te | alpha te] eqn:Ed; cbn [addDrivingForce3];
    unfold phaserhs_fenergy3, computerhsdeltatemperature3, computerhsbiaswell3, computerhsbiaswellbeckermann3.
  - eexists. split; [reflexivity |]. intros i j k H. rewrite !cells3_in by auto. unfold force3. rewrite V, Ed by auto. cbn [local_drive]. ring.
  - destruct (deriv_known it); [| reflexivity].
    eexists. split; [reflexivity |]. intros i j k H. rewrite !cells3_in by auto. unfold force3. rewrite V, Ed by auto. cbn [local_drive]. ring.
  - destruct (deriv_known it); [| reflexivity].
    eexists. split; [reflexivity |]. intros i j k H. rewrite !cells3_in by auto. unfold force3. rewrite V, Ed by auto. cbn [local_drive].
    cbv zeta. set (L := lh / tm). set (D := PhaseFlow_Model.val (deriv_interp_func (phi i j k) it)). field.
  - eexists. split; [reflexivity |]. intros i j k H. rewrite !cells3_in by auto. unfold force3. rewrite V, Ed, PhaseFlow_Proofs.pi_atan by auto. cbn [local_drive]. ring.
  - eexists. split; [reflexivity |]. intros i j k H. rewrite !cells3_in by auto. unfold force3. rewrite V, Ed by auto. cbn [local_drive]. ring.
Qed.

Lemma rhs3_simple : forall p phi fold rold rhs i j k, spaced (pb3 p) -> pflux3 p = Simple3 -> evaluatePhaseRHS3 p phi fold rold = Some rhs ->
  in_cells3 (pb3 p) i j k -> porient3 p = None -> pthird3 p = None ->
  rhs i j k = pmob3 p i j k * (peps3 p ^ 2 * laplace3 (pb3 p) phi i j k - pwell3 p * (32 * phi i j k * (1 - phi i j k) * (1 - 2 * phi i j k))
                               + local_drive (pdrive3 p) (ptemp3 p) phi i j k).
Proof.
  intros p phi fold rold rhs i j k (H0 & H1 & H2) Ef E (I & J & K) Eo E3. pose proof (rhs3_value p phi fold rold) as V. rewrite Ef in V. cbn [compute_flux3] in V.
  destruct (known3 p); [| congruence]. destruct V as (r & E' & V). rewrite E in E'. injection E' as <-. rewrite V by (repeat split; lia).
  unfold force3, third_term3, orient_term3. rewrite Eo, E3. f_equal. unfold div3, gradient_flux3. destruct fold as [[o0 o1] o2].
  unfold flux0, flux1, flux2. cbn [fst snd]. rewrite !xfaces3_val, !yfaces3_val, !zfaces3_val, !inbT by lia. cbn [andb]. cbv zeta.
  replace (i + 1 - 1)%Z with i by lia. replace (j + 1 - 1)%Z with j by lia. replace (k + 1 - 1)%Z with k by lia.
  unfold laplace3. field. auto.
Qed.
Lemma rhs3_isotropic : forall p phi fold rold, pflux3 p = Isotropic3 -> evaluatePhaseRHS3 p phi fold rold = None.
Proof. intros p phi fold rold E. unfold evaluatePhaseRHS3. rewrite E. reflexivity. Qed.
Lemma lift_known : forall b p, known3 (lift_problem b p) = PhaseFlow_Proofs.types_known p.
Proof.
  intros b p. unfold known3, PhaseFlow_Proofs.types_known, lift_problem. cbn [pthird3 porient3 pdrive3].
  destruct (PhaseFlow_Model.pthird p); destruct (PhaseFlow_Model.porient p); destruct (PhaseFlow_Model.pdrive p); reflexivity.
Qed.
Lemma rhs3_slab : forall b p phi fold fold2 rold rold2, spaced b -> PhaseFlow_Model.pb p = plane b -> PhaseFlow_Model.pflux p = PhaseFlow_Model.FluxSimple ->
  ~ delta_temperature (PhaseFlow_Model.pdrive p) ->
  agree3 b (evaluatePhaseRHS3 (lift_problem b p) (flat phi) fold rold) (option_map flat (PhaseFlow_Model.evaluatePhaseRHS p phi fold2 rold2)).
Proof.
  intros b p phi fold fold2 rold rold2 (H0 & H1 & H2) Eb Ef Hd.
  pose proof (rhs3_value (lift_problem b p) (flat phi) fold rold) as V3. cbn [compute_flux3 pflux3 lift_problem] in V3. rewrite lift_known in V3.
  fold (lift_problem b p) in V3.
  pose proof (PhaseFlow_Proofs.rhs_value p phi fold2 rold2) as V2. destruct (PhaseFlow_Proofs.types_known p).
  2: { rewrite V3, V2. exact I. }
  destruct V3 as (r3 & -> & V3). destruct V2 as (r2 & -> & V2). intros i j k H. destruct H as (I & J & K).
  rewrite V3 by (repeat split; auto; apply I || apply J || apply K). change (flat r2 i j k) with (r2 i j). rewrite V2 by (rewrite Eb; split; auto).
  cbn [pmob3 lift_problem]. change (flat (PhaseFlow_Model.pmob p) i j k) with (PhaseFlow_Model.pmob p i j). f_equal. unfold force3, PhaseFlow_Proofs.force. f_equal; [f_equal; [f_equal; [f_equal |] |] |].
  - unfold PhaseFlow_Proofs.div_term. rewrite Ef, Eb. cbn [PhaseFlow_Model.flux_x PhaseFlow_Model.flux_y].
    unfold PhaseFlow_Model.gradient_flux_x, PhaseFlow_Model.gradient_flux_y.
    rewrite !PhaseFlow_Proofs.xfaces_val, !PhaseFlow_Proofs.yfaces_val by (split; cbn; lia). cbn [PhaseFlow_Model.h1 PhaseFlow_Model.h2 plane].
    unfold div3, gradient_flux3. destruct fold as [[o0 o1] o2].
    unfold flux0, flux1, flux2. cbn [fst snd pb3 lift_problem]. rewrite !xfaces3_val, !yfaces3_val, !zfaces3_val, !inbT by lia. cbn [andb]. cbv zeta.
    unfold flat. cbn [peps3 lift_problem]. field. auto.
  - unfold third_term3, PhaseFlow_Proofs.third_term. cbn [pthird3 lift_problem]. destruct (PhaseFlow_Model.pthird p); reflexivity.
  - unfold orient_term3, PhaseFlow_Proofs.orient_term. cbn [porient3 lift_problem]. destruct (PhaseFlow_Model.porient p); reflexivity.
  - cbn [pdrive3 ptemp3 lift_problem]. destruct (PhaseFlow_Model.pdrive p); try reflexivity. destruct Hd. exact I0 || exact Logic.I.
Qed.
Definition warm_problem : PhaseFlow_Model.phase_problem :=
  PhaseFlow_Model.mk_problem (plane unit_box3) PhaseFlow_Model.FluxSimple 1 1 (fun i _ => IZR (i * i)) None None
    (PhaseFlow_Model.DeltaTemperature 1 1 "l"%char) (fun _ _ => 1).
Lemma rhs3_delta_refuted : exists b p phi, spaced b /\ PhaseFlow_Model.pb p = plane b /\ PhaseFlow_Model.pflux p = PhaseFlow_Model.FluxSimple /\
  forall fold fold2 rold rold2,
  ~ agree3 b (evaluatePhaseRHS3 (lift_problem b p) (flat phi) fold rold) (option_map flat (PhaseFlow_Model.evaluatePhaseRHS p phi fold2 rold2)).
Proof.
  exists unit_box3, warm_problem, (fun _ _ => 0). split; [apply unit_spaced |]. split; [reflexivity |]. split; [reflexivity |].
  intros fold fold2 rold rold2 A.
  pose proof (rhs3_value (lift_problem unit_box3 warm_problem) (flat (fun _ _ => 0)) fold rold) as V3.
  cbn [compute_flux3 pflux3 lift_problem] in V3. rewrite lift_known in V3. fold (lift_problem unit_box3 warm_problem) in V3.
  pose proof (PhaseFlow_Proofs.rhs_value warm_problem (fun _ _ => 0) fold2 rold2) as V2.
  replace (PhaseFlow_Proofs.types_known warm_problem) with true in * by reflexivity.
  destruct V3 as (r3 & E3 & V3). destruct V2 as (r2 & E2 & V2). rewrite E3, E2 in A. cbn [agree3 option_map] in A.
  specialize (A 0%Z 0%Z 0%Z ltac:(unfold in_cells3, in_box3, unit_box3; cbn; lia)).
  rewrite V3 in A by (unfold in_cells3, in_box3, unit_box3; cbn; lia). change (flat r2 0%Z 0%Z 0%Z) with (r2 0%Z 0%Z) in A. rewrite V2 in A by (split; cbn; lia).
  unfold force3, PhaseFlow_Proofs.force in A.
  assert (D3 : div3 (pb3 (lift_problem unit_box3 warm_problem)) (gradient_flux3 (pb3 (lift_problem unit_box3 warm_problem)) (peps3 (lift_problem unit_box3 warm_problem)) (flat (fun _ _ => 0)) fold) 0 0 0 = 0).
  { unfold div3, gradient_flux3. destruct fold as [[o0 o1] o2]. unfold flux0, flux1, flux2. cbn [fst snd pb3 lift_problem].
    rewrite !xfaces3_val, !yfaces3_val, !zfaces3_val, !inbT by (cbn; lia). cbn [andb]. cbv zeta. unfold flat. cbn. field. }
  assert (D2 : PhaseFlow_Proofs.div_term warm_problem (fun _ _ => 0) fold2 0 0 = 0).
  { unfold PhaseFlow_Proofs.div_term. cbn [PhaseFlow_Model.flux_x PhaseFlow_Model.flux_y PhaseFlow_Model.pflux warm_problem].
    unfold PhaseFlow_Model.gradient_flux_x, PhaseFlow_Model.gradient_flux_y. rewrite !PhaseFlow_Proofs.xfaces_val, !PhaseFlow_Proofs.yfaces_val by (split; cbn; lia).
    cbn. field. }
  rewrite D3, D2 in A. revert A. unfold third_term3, orient_term3, PhaseFlow_Proofs.third_term, PhaseFlow_Proofs.orient_term.
  cbn -[Rdiv]. unfold PhaseFlow_Proofs.wtemp, flat. cbn.
  destruct (Rlt_dec 0 0); [lra |]. destruct (Rlt_dec 0 1); [lra | lra].
Qed.

Lemma gradient_turn : forall b eps phi old,
  same3 (gradient_flux3 (turn_box b) eps (turn phi) (turn_faces old)) (turn_faces (gradient_flux3 b eps phi old)).
Proof.
  intros b eps phi [[o0 o1] o2] i j k. unfold gradient_flux3, turn_faces, turn, flux0, flux1, flux2. cbn [fst snd]. cbv zeta.
  rewrite !xfaces3_val, !yfaces3_val, !zfaces3_val. cbn [xl xu yl yu zl zu hx hy hz turn_box].
  repeat split;
    [destruct (inb (yl b) (yu b + 1) i); destruct (inb (zl b) (zu b) j); destruct (inb (xl b) (xu b) k)
    | destruct (inb (yl b) (yu b) i); destruct (inb (zl b) (zu b + 1) j); destruct (inb (xl b) (xu b) k)
    | destruct (inb (yl b) (yu b) i); destruct (inb (zl b) (zu b) j); destruct (inb (xl b) (xu b + 1) k)]; reflexivity.
Qed.
Lemma flux_turn : forall kd b eps phi old, spaced b ->
  match compute_flux3 (turn_kind kd) (turn_box b) eps (turn phi) (turn_faces old), compute_flux3 kd b eps phi old with
  | Some f, Some g => same3 f (turn_faces g)
  | None, None => True
  | _, _ => False
  end.
Proof.
  intros kd b eps phi old Hs. destruct kd as [| | e quat]; cbn [turn_kind compute_flux3].
  - apply gradient_turn.
  - exact I.
  - apply aniso_turn. auto.
Qed.
Lemma rhs3_turn : forall p phi fold rold, spaced (pb3 p) ->
  agree3 (turn_box (pb3 p)) (evaluatePhaseRHS3 (turn_problem p) (turn phi) (turn_faces fold) (turn rold))
         (option_map turn (evaluatePhaseRHS3 p phi fold rold)).
Proof.
  intros p phi fold rold Hs.
  pose proof (rhs3_value (turn_problem p) (turn phi) (turn_faces fold) (turn rold)) as V. cbn [pflux3 pb3 peps3 turn_problem] in V.
  fold (turn_problem p) in V.
  pose proof (rhs3_value p phi fold rold) as W. pose proof (flux_turn (pflux3 p) (pb3 p) (peps3 p) phi fold Hs) as T.
  destruct (compute_flux3 (turn_kind (pflux3 p)) _ _ _ _) as [f |]; destruct (compute_flux3 (pflux3 p) _ _ _ _) as [g |]; try contradiction.
  2: { rewrite V, W. exact I. }
  assert (Ek : known3 (turn_problem p) = known3 p).
  { unfold known3, turn_problem. cbn [pthird3 porient3 pdrive3]. destruct (pthird3 p); destruct (porient3 p); destruct (pdrive3 p); reflexivity. }
  rewrite Ek in V. destruct (known3 p). 2: { rewrite V, W. exact I. }
  destruct V as (r & -> & V). destruct W as (s & -> & W). cbn [agree3 option_map]. intros i j k H.
  assert (H' : in_cells3 (pb3 p) k i j) by (destruct H as (A & B & C); cbn in A, B, C; unfold in_cells3, in_box3; auto).
  rewrite V by exact H. change (turn s i j k) with (s k i j). rewrite W by exact H'.
  cbn [pmob3 turn_problem]. change (turn (pmob3 p) i j k) with (pmob3 p k i j). f_equal.
  unfold force3. cbn [pb3 pdrive3 pwell3 ptemp3 turn_problem]. fold (turn_problem p).
  assert (E1 : third_term3 (turn_problem p) (turn phi) i j k = third_term3 p phi k i j).
  { unfold third_term3. cbn [pthird3 turn_problem]. destruct (pthird3 p); reflexivity. }
  assert (E2 : orient_term3 (turn_problem p) (turn phi) i j k = orient_term3 p phi k i j).
  { unfold orient_term3. cbn [porient3 ptemp3 turn_problem]. destruct (porient3 p); reflexivity. }
  assert (E3 : local_drive (turn_drive (pdrive3 p)) (turn (ptemp3 p)) (turn phi) i j k = local_drive (pdrive3 p) (ptemp3 p) phi k i j).
  { destruct (pdrive3 p) as [| | tm lh it | |]; cbn [turn_drive local_drive]; try reflexivity. unfold turn.
    set (L := lh / tm). set (D := PhaseFlow_Model.val _). field. }
  assert (E4 : div3 (turn_box (pb3 p)) f i j k = div3 (pb3 p) g k i j).
  { unfold div3. rewrite (proj1 (T (i + 1)%Z j k)), (proj1 (T i j k)), (proj1 (proj2 (T i (j + 1)%Z k))), (proj1 (proj2 (T i j k))),
      (proj2 (proj2 (T i j (k + 1)%Z))), (proj2 (proj2 (T i j k))).
    unfold turn_faces, flux0, flux1, flux2, turn. cbn [fst snd hx hy hz turn_box]. ring. }
  rewrite E1, E2, E3, E4. reflexivity.
Qed.
Lemma temp3_value : forall b d lh temp cp f rhs i j k, spaced b -> in_cells3 b i j k ->
  computerhstemp3 b d lh temp cp f rhs i j k = d * laplace3 b temp i j k + match f with Some f => lh / cp i j k * f i j k | None => 0 end.
Proof.
  intros b d lh temp cp f rhs i j k (H0 & H1 & H2) H. unfold computerhstemp3, laplacian3, laplace3.
  destruct f; rewrite !cells3_in by auto; cbv zeta; [set (L := lh / cp i j k) |]; field; auto.
Qed.
Lemma multi3_value : forall b n fl fa phi rhs i j k p, (1 <= n)%Z -> in_cells3 b i j k -> (1 <= p <= n)%Z ->
  PhaseFlow_Spec.squares n (phi i j k) <> 0 ->
  phaserhs_fenergy_multiorderp3 b n fl fa phi rhs i j k p = rhs i j k p + PhaseFlow_Proofs.multi_force n (fl i j k) (fa i j k) (phi i j k) p.
Proof.
  intros b n fl fa phi rhs i j k p Hn Hc Hp Hs. unfold phaserhs_fenergy_multiorderp3.
  set (T := fun s s' : arr4 => s' i j k p = s i j k p).
  match goal with |- do_cells3 _ _ _ _ _ _ ?B _ _ _ _ _ = _ =>
    destruct (cells3_once arr4 T (xl b) (xu b) (yl b) (yu b) (zl b) (zu b) i j k B rhs) as (s0 & T0 & T1) end; auto.
  - intros s. reflexivity.
  - intros x y z A B. unfold T in *. congruence.
  - intros a c d s _ Hne. unfold T. cbv zeta. rewrite upd4_other by lia. symmetry.
    apply (loop_never arr4 (fun s s' => s i j k p = s' i j k p)); [reflexivity | congruence |].
    intros ip s' _. rewrite upd4_other by lia. reflexivity.
  - unfold T in T0, T1. rewrite T1. clear T1. cbv zeta. rewrite PhaseFlow_Proofs.loop_squares.
    assert (E : PhaseFlow_Spec.squares (n - 1) (phi i j k) + phi i j k n * phi i j k n = PhaseFlow_Spec.squares n (phi i j k)) by (rewrite (PhaseFlow_Proofs.squares_split n) by auto; ring).
    rewrite E. unfold PhaseFlow_Proofs.multi_force. destruct (Z.eqb_spec p n) as [-> | Hne].
    + rewrite upd4_same. rewrite <- T0.
      match goal with |- do_loop 1 (n - 1) ?B s0 i j k n + _ = _ => assert (L : do_loop 1 (n - 1) B s0 i j k n = s0 i j k n) end.
      { apply (loop_never arr4 (fun s s' => s' i j k n = s i j k n)); [reflexivity | congruence |].
        intros ip s' Hip. rewrite upd4_other by lia. reflexivity. }
      rewrite L. field. auto.
    + rewrite upd4_other by lia. rewrite <- T0.
      match goal with |- do_loop 1 (n - 1) ?B s0 i j k p = _ => destruct (loop_once arr4 T 1 (n - 1) p B s0) as (s1 & U0 & U1) end.
      * intro s. reflexivity.
      * intros x y z A B. unfold T in *. congruence.
      * lia.
      * intros ip s _ Hip. unfold T. rewrite upd4_other by lia. reflexivity.
      * unfold T in U0, U1. rewrite U1, upd4_same, U0. field. auto.
Qed.
Lemma multi3_plane : forall b n fl fa phi rhs i j k p, (1 <= n)%Z -> in_cells3 b i j k -> (1 <= p <= n)%Z ->
  PhaseFlow_Spec.squares n (phi i j k) <> 0 ->
  phaserhs_fenergy_multiorderp3 b n fl fa phi rhs i j k p =
  PhaseFlow_Model.phaserhs_fenergy_multiorderp (plane b) n (at_z k fl) (at_z k fa) (fun i j p => phi i j k p) (fun i j p => rhs i j k p) i j p.
Proof.
  intros b n fl fa phi rhs i j k p Hn (I & J & K) Hp Hs. rewrite multi3_value by (auto; unfold in_cells3, in_box3; auto).
  rewrite PhaseFlow_Proofs.multi_val by (auto; split; auto). reflexivity.
Qed.
Lemma temp3_slab : forall b d lh temp cp f rhs rhs2 i j k, spaced b -> in_cells3 b i j k ->
  computerhstemp3 b d lh (flat temp) (flat cp) (option_map flat f) rhs i j k =
  PhaseFlow_Model.computerhstemp (plane b) d lh temp cp f rhs2 i j.
Proof.
  intros b d lh temp cp f rhs rhs2 i j k Hs H. rewrite temp3_value by auto. destruct Hs as (H0 & H1 & H2). destruct H as (I & J & K).
  unfold PhaseFlow_Model.computerhstemp, laplace3, flat. cbn [PhaseFlow_Model.lo0 PhaseFlow_Model.hi0 PhaseFlow_Model.lo1 PhaseFlow_Model.hi1 PhaseFlow_Model.h1 PhaseFlow_Model.h2 plane].
  assert (L : forall r, Stencils_Model.laplacian (xl b) (xu b) (yl b) (yu b) (hx b) (hy b) d temp r i j =
    d * ((temp (i + 1)%Z j - 2 * temp i j + temp (i - 1)%Z j) / hx b ^ 2 + (temp i (j + 1)%Z - 2 * temp i j + temp i (j - 1)%Z) / hy b ^ 2)).
  { intro r. unfold Stencils_Model.laplacian. cbv zeta.
    rewrite (cells_loop _ _ _ _ (fun i j _ => d * ((temp (i - 1)%Z j - 2 * temp i j + temp (i + 1)%Z j) * (1 / (hx b * hx b))
      + (temp i (j - 1)%Z - 2 * temp i j + temp i (j + 1)%Z) * (1 / (hy b * hy b))))), !inbT by lia. cbv beta. cbn [andb]. field. auto. }
  destruct f as [f |]; cbn [option_map].
  - rewrite PhaseFlow_Proofs.cells_val by (split; auto). rewrite L. unfold flat. set (g := lh / cp i j). field. auto.
  - rewrite L. field. auto.
Qed.
Lemma do_loop_rel : forall (A B : Type) (P : A -> B -> Prop) lo hi (f : Z -> A -> A) (g : Z -> B -> B) a b,
  P a b -> (forall i x y, (lo <= i <= hi)%Z -> P x y -> P (f i x) (g i y)) -> P (do_loop lo hi f a) (do_loop lo hi g b).
Proof.
  intros A B P lo hi f g a b H0 H.
  destruct (Z_lt_le_dec hi lo) as [L | L]; [rewrite !do_loop_empty by auto; auto |].
  assert (G : forall n, (0 <= n)%Z -> (lo + n <= hi)%Z -> P (do_loop lo (lo + n) f a) (do_loop lo (lo + n) g b)).
  { intros n Hn. pattern n. apply natlike_ind; auto.
    - intros _. rewrite !(do_loop_snoc _ lo (lo + 0)) by lia. rewrite !do_loop_empty by lia. rewrite Z.add_0_r. apply H; auto. lia.
    - intros m Hm IH Hle. rewrite !(do_loop_snoc _ lo (lo + Z.succ m)) by lia. replace (lo + Z.succ m - 1)%Z with (lo + m)%Z by lia.
      apply H; [lia |]. apply IH. lia. }
  replace hi with (lo + (hi - lo))%Z by lia. apply G; lia.
Qed.
Lemma frame_plane : forall b phase vel rhs i j k, (zl b <= k <= zu b)%Z ->
  addvdphidx3 b phase vel rhs i j k = Stencils_Model.addvdphidx (xl b) (xu b) (yl b) (yu b) (hx b) (at_z k phase) vel (at_z k rhs) i j.
Proof.
  intros b phase vel rhs i j k K. rewrite Stencils_Proofs.adv2_value. unfold addvdphidx3. rewrite cells3_val. cbv zeta. rewrite (inbT (zl b)) by lia.
  rewrite andb_true_r. reflexivity.
Qed.
Lemma frame_plane_upwind : forall b phase vel rhs physb i j k, (zl b <= k <= zu b)%Z ->
  addvdphidx_upwind33 b phase vel rhs physb i j k =
  Stencils_Model.addvdphidx_upwind3 (xl b) (xu b) (yl b) (yu b) (hx b) (at_z k phase) vel (at_z k rhs) physb i j.
Proof.
  intros b phase vel rhs physb i j k K. unfold addvdphidx_upwind33. cbv zeta.
  set (T := fun s s' : arr3 => forall i j, s i j k = s' i j k).
  match goal with |- do_loop (zl b) (zu b) ?B rhs i j k = _ => destruct (loop_once arr3 T (zl b) (zu b) k B rhs) as (s0 & T0 & T1) end.
  - intros s a c. reflexivity.
  - intros x y z A B a c. rewrite A. apply B.
  - auto.
  - intros l s _ Hl a c.
    apply (loop_never arr3 (fun s s' => s a c k = s' a c k)); [reflexivity | congruence |]. intros m s' _.
    transitivity ((if (physb =? 1)%Z then upd3 s' (xu b) m l (s' (xu b) m l + 3 * (vel / (6 * hx b)) * (phase (xu b + 1)%Z m l - phase (xu b - 1)%Z m l)) else s') a c k).
    + destruct (physb =? 1)%Z; [rewrite upd3_other by lia |]; reflexivity.
    + apply (loop_never arr3 (fun s s' => s a c k = s' a c k)); [reflexivity | congruence |]. intros n s2 _. rewrite upd3_other by lia. reflexivity.
  - rewrite <- T1. cbv zeta. unfold Stencils_Model.addvdphidx_upwind3. cbv zeta.
    apply (do_loop_rel arr3 arr2 (fun x y => forall i j, x i j k = y i j)).
    + intros a c. symmetry. apply T0.
    + intros m x y _ E.
      apply (do_loop_rel arr3 arr2 (fun x y => forall i j, x i j k = y i j)).
      * intros a c. destruct (physb =? 1)%Z; auto. unfold upd3, upd2, at_z. rewrite Z.eqb_refl, andb_true_r. rewrite !E. reflexivity.
      * intros n x' y' _ E' a c. unfold upd3, upd2, at_z. rewrite Z.eqb_refl, andb_true_r. rewrite !E'. reflexivity.
Qed.

(** the flux of the strategy with anisotropy, on all faces *)
Lemma strategy_derives : forall b eps eps4 phi quat old fl q i j k, spaced b -> 3 * eps4 <> 1 -> unit4 q ->
  compute_flux3 (Anisotropic3 eps4 quat) b eps phi old = Some fl -> quat i j k = q ->
  (on_x b i j k -> quat (i - 1)%Z j k = q -> ~ small_slope (slope_xx b phi i j k) (slope_xy b phi i j k) (slope_xz b phi i j k) ->
     derivable_pt_lim (fun g => cubic_density eps eps4 q g (slope_xy b phi i j k) (slope_xz b phi i j k)) (slope_xx b phi i j k) (flux0 fl i j k)) /\
  (on_y b i j k -> quat i (j - 1)%Z k = q -> ~ small_slope (slope_yx b phi i j k) (slope_yy b phi i j k) (slope_yz b phi i j k) ->
     derivable_pt_lim (fun g => cubic_density eps eps4 q (slope_yx b phi i j k) g (slope_yz b phi i j k)) (slope_yy b phi i j k) (flux1 fl i j k)) /\
  (on_z b i j k -> quat i j (k - 1)%Z = q -> ~ small_slope (slope_zx b phi i j k) (slope_zy b phi i j k) (slope_zz b phi i j k) ->
     derivable_pt_lim (fun g => cubic_density eps eps4 q (slope_zx b phi i j k) (slope_zy b phi i j k) g) (slope_zz b phi i j k) (flux2 fl i j k)).
Proof.
  intros b eps eps4 phi quat old fl q i j k Hb He Hq E Eq. cbn [compute_flux3] in E. injection E as <-.
  split; [| split]; intros Hf Eq' Hs; [apply aniso_derives_x | apply aniso_derives_y | apply aniso_derives_z]; assumption.
Qed.
