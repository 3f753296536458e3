From Coq Require Import Reals ZArith List Lra Lia Bool.
From Verif Require Import Grid_Model Grid_Spec Grid_Proofs Functions_Model Forces_Model Forces_Spec.
Import ListNotations.
Open Scope R_scope.

Lemma add1_at : forall f i v a, add1 f i v a = f a + (if (i =? a)%Z then v else 0).
Proof. intros f i v a. unfold add1, upd1. rewrite (Z.eqb_sym i a). destruct (Z.eqb_spec a i) as [-> |]; ring. Qed.

Lemma radix : forall m a r b s, (0 <= r < m)%Z -> (0 <= s < m)%Z -> (m * a + r = m * b + s)%Z -> a = b /\ r = s.
Proof. intros m a r b s Hr Hs H. apply (Z.div_mod_unique m a b r s); auto. Qed.
Lemma off_eqb : forall nd n p1 p2 e q1 q2 d, (1 <= p2 <= n)%Z -> (1 <= q2 <= n)%Z -> (1 <= e <= nd)%Z -> (1 <= d <= nd)%Z ->
  ((nd * (n * (p1 - 1) + (p2 - 1)) + e =? nd * (n * (q1 - 1) + (q2 - 1)) + d) = ((p1 =? q1) && (p2 =? q2) && (e =? d)))%Z.
Proof.
  intros nd n p1 p2 e q1 q2 d Hp Hq He Hd.
  destruct (Z.eqb_spec (nd * (n * (p1 - 1) + (p2 - 1)) + e) (nd * (n * (q1 - 1) + (q2 - 1)) + d)) as [E | E].
  - destruct (radix nd (n * (p1 - 1) + (p2 - 1)) (e - 1) (n * (q1 - 1) + (q2 - 1)) (d - 1)) as [E1 E2]; [lia | lia | lia |].
    destruct (radix n (p1 - 1) (p2 - 1) (q1 - 1) (q2 - 1)) as [E3 E4]; [lia | lia | lia |].
    symmetry. rewrite !andb_true_iff, !Z.eqb_eq. lia.
  - symmetry. apply not_true_is_false. rewrite !andb_true_iff, !Z.eqb_eq. intros [[-> ->] ->]. apply E. reflexivity.
Qed.

Lemma interp_p_step : forall x, interp_p x = smooth_step x.
Proof.
  intro x. unfold interp_p, interp_func, smooth_step, clamp01. cbv zeta iota.
  destruct (Rle_dec x 0).
  - rewrite (Rmin_right 1 x) by lra. rewrite Rmax_left by lra. ring.
  - destruct (Rle_dec 1 x).
    + rewrite Rmin_left by lra. rewrite Rmax_right by lra. ring.
    + rewrite Rmin_right by lra. rewrite Rmax_right by lra. ring.
Qed.

Lemma sum_list_over : forall {A} (f : A -> R) l, sum_list (map f l) = sum_over f l.
Proof. intros A f l. induction l as [| a l IH]; [reflexivity | cbn; rewrite IH; reflexivity]. Qed.
Lemma sum_over_ext : forall {A} (f g : A -> R) l, (forall a, f a = g a) -> sum_over f l = sum_over g l.
Proof. intros A f g l H. induction l as [| a l IH]; [reflexivity | cbn; rewrite H; f_equal; exact IH]. Qed.
Lemma sum_over_scal : forall {A} c (f : A -> R) l, sum_over (fun a => c * f a) l = c * sum_over f l.
Proof. intros A c f l. induction l as [| a l IH]; cbn; [ring | fold (sum_over (fun a => c * f a) l) (sum_over f l); rewrite IH; ring]. Qed.
Lemma fold_obs : forall {P} (kernel : P -> arr1 -> arr1) (inc : P -> R) k l f,
  (forall p f, kernel p f k = f k + inc p) -> fold_left (fun f p => kernel p f) l f k = f k + sum_over inc l.
Proof.
  intros P kernel inc k l f H. revert f. induction l as [| p l IH]; intro f; cbn; [ring |]. fold (sum_over inc l).
  rewrite IH, H. ring.
Qed.

(** a kernel that adds [inc p i j d] at the entry of the pair gives those pair forces *)
Lemma pair_force_value : forall {P} (kernel : P -> arr1 -> arr1) nd n stiff ranks (inc : P -> R) i j d,
  (forall p f, kernel p f ((i * n + j) * nd + d + 1)%Z = f ((i * n + j) * nd + d + 1)%Z + inc p) ->
  pair_force kernel nd n stiff ranks i j d = stiff * sum_over (fun patches => sum_over inc patches) ranks.
Proof.
  intros P kernel nd n stiff ranks inc i j d H. unfold pair_force. rewrite sum_list_over, <- sum_over_scal.
  apply sum_over_ext. intro patches. unfold local_force. rewrite (fold_obs kernel inc _ patches (fun _ => 0) H). ring.
Qed.

(** triangular double sums of single contributions *)
Lemma tri_single : forall n q1 q2 (v : Z -> Z -> R), (1 <= q1 <= n)%Z -> (1 <= q2)%Z ->
  sumZ 1 n (fun p1 => sumZ 1 (p1 - 1) (fun p2 => if ((p1 =? q1) && (p2 =? q2))%Z then v p1 p2 else 0)) =
  if (q2 <? q1)%Z then v q1 q2 else 0.
Proof.
  intros n q1 q2 v Hq1 Hq2.
  rewrite (sumZ_ext 1 n _ (fun p1 => if (p1 =? q1)%Z then (if (q2 <? q1)%Z then v q1 q2 else 0) else 0)).
  - rewrite (sumZ_single 1 n q1 (fun _ => if (q2 <? q1)%Z then v q1 q2 else 0)).
    destruct (inb_spec 1 n q1); [reflexivity | lia].
  - intros p1 _. destruct (Z.eqb_spec p1 q1) as [-> |].
    + cbn [andb]. rewrite (sumZ_single 1 (q1 - 1) q2 (fun p2 => v q1 p2)).
      destruct (inb_spec 1 (q1 - 1) q2); destruct (Z.ltb_spec q2 q1); auto; lia.
    + cbn [andb]. apply sumZ_zero.
Qed.

(** ** 2D Wang forces *)
Lemma loop_sum0 : forall nc (g : Z -> R), do_loop 1 nc (fun ic s => s + g ic) 0 = sumZ 1 nc g.
Proof. intros nc g. rewrite loop_sum. ring. Qed.

Definition dens2 nc rhoe cth p a b d i j :=
    (Rmin (sumZ 1 nc (fun c => pconc p i j c)) 1 - rhoe) *
    smooth_step (1 / 2 + 10 * (pphi p i j a * pphi p i j b - cth)) *
    (grad2 (pdx0 p) (pdx1 p) (fun i j => pphi p i j a) d i j - grad2 (pdx0 p) (pdx1 p) (fun i j => pphi p i j b) d i j) *
    pweight p i j.
Lemma dens2_anti : forall nc rhoe cth p a b d i j, dens2 nc rhoe cth p a b d i j = - dens2 nc rhoe cth p b a d i j.
Proof. intros. unfold dens2. rewrite (Rmult_comm (pphi p i j a)). ring. Qed.
Lemma wang2_anti : forall nc rhoe cth p a b d, wang_pair2 nc rhoe cth p a b d = - wang_pair2 nc rhoe cth p b a d.
Proof.
  intros. unfold wang_pair2. fold (dens2 nc rhoe cth p a b d). fold (dens2 nc rhoe cth p b a d).
  rewrite (sum_box_ext _ _ _ _ (dens2 nc rhoe cth p a b d) (fun i j => (-1) * dens2 nc rhoe cth p b a d i j)) by (intros; rewrite dens2_anti; ring).
  rewrite sum_box_scal. ring.
Qed.

Lemma half_inv : forall h x, 1 / 2 / h * x = x / (2 * h).
Proof. intros h x. unfold Rdiv. rewrite Rinv_mult. ring. Qed.

Lemma wang2_kernel : forall n nc rhoe cth p f q1 q2 d, (1 <= q1 <= n)%Z -> (1 <= q2 <= n)%Z -> (1 <= d <= 2)%Z ->
  wang_forces2 n nc rhoe cth p f (2 * (n * (q1 - 1) + (q2 - 1)) + d)%Z =
  f (2 * (n * (q1 - 1) + (q2 - 1)) + d)%Z + (if (q1 =? q2)%Z then 0 else wang_pair2 nc rhoe cth p q1 q2 (d - 1)).
Proof.
  intros n nc rhoe cth p f q1 q2 d H1 H2 Hd. unfold wang_forces2. cbv zeta.
  set (K := (2 * (n * (q1 - 1) + (q2 - 1)) + d)%Z).
  rewrite (obs_loop _ (fun g : arr1 => g K) 1 n (fun p1 => sumZ 1 (p1 - 1) (fun p2 =>
    (if ((p1 =? q1) && (p2 =? q2))%Z then wang_pair2 nc rhoe cth p p1 p2 (d - 1) else 0) +
    (if ((p1 =? q2) && (p2 =? q1))%Z then wang_pair2 nc rhoe cth p p2 p1 (d - 1) else 0)))).
  - f_equal.
    rewrite (sumZ_ext 1 n _ (fun p1 => sumZ 1 (p1 - 1) (fun p2 => if ((p1 =? q1) && (p2 =? q2))%Z then wang_pair2 nc rhoe cth p p1 p2 (d - 1) else 0) +
      sumZ 1 (p1 - 1) (fun p2 => if ((p1 =? q2) && (p2 =? q1))%Z then wang_pair2 nc rhoe cth p p2 p1 (d - 1) else 0))) by (intros; apply sumZ_plus).
    rewrite sumZ_plus, (tri_single n q1 q2 (fun a b => wang_pair2 nc rhoe cth p a b (d - 1))), (tri_single n q2 q1 (fun a b => wang_pair2 nc rhoe cth p b a (d - 1))) by lia.
    destruct (Z.ltb_spec q2 q1); destruct (Z.ltb_spec q1 q2); destruct (Z.eqb_spec q1 q2); try lia; ring.
  - intros p1 g Hp1. apply (obs_loop _ (fun g : arr1 => g K)). intros p2 g' Hp2.
    rewrite (obs_cells _ (fun g : arr1 => g K) (plo0 p) (pup0 p) (plo1 p) (pup1 p) (fun i j =>
      (if ((p1 =? q1) && (p2 =? q2))%Z then 1 else 0) * dens2 nc rhoe cth p p1 p2 (d - 1) i j +
      (if ((p1 =? q2) && (p2 =? q1))%Z then 1 else 0) * dens2 nc rhoe cth p p2 p1 (d - 1) i j)).
    + rewrite sum_box_plus, !sum_box_scal. unfold dens2 at 1 2. fold (wang_pair2 nc rhoe cth p p1 p2 (d - 1)). fold (wang_pair2 nc rhoe cth p p2 p1 (d - 1)).
      destruct ((p1 =? q1) && (p2 =? q2))%Z; destruct ((p1 =? q2) && (p2 =? q1))%Z; ring.
    + intros i j g'' _. rewrite (dens2_anti nc rhoe cth p p2 p1).
      set (pp := 1 / 2 + (pphi p i j p1 * pphi p i j p2 - cth) * 10).
      assert (Epp : 1 / 2 + 10 * (pphi p i j p1 * pphi p i j p2 - cth) = pp) by (unfold pp; ring).
      unfold dens2. rewrite Epp. destruct (Rlt_dec 0 pp) as [Hpos | Hneg].
      * rewrite (loop_sum0 nc (fun c => pconc p i j c)), interp_p_step, !add1_at, !half_inv. unfold K.
        rewrite !off_eqb by lia.
        rewrite (andb_comm (p2 =? q1)%Z (p1 =? q2)%Z).
        assert (D : d = 1%Z \/ d = 2%Z) by lia. destruct D as [-> | ->]; unfold grad2;
        [change ((1 - 1 =? 0)%Z) with true; change ((1 =? 1)%Z) with true; change ((2 =? 1)%Z) with false
        | change ((2 - 1 =? 0)%Z) with false; change ((1 =? 2)%Z) with false; change ((2 =? 2)%Z) with true];
        cbv iota; destruct ((p1 =? q1) && (p2 =? q2))%Z; destruct ((p1 =? q2) && (p2 =? q1))%Z; cbn [andb]; ring.
      * unfold smooth_step. destruct (Rle_dec pp 0); [| lra]. ring.
Qed.

(** ** 3D Wang forces *)
Definition dens3 nc rhoe cth p a b d i j k :=
    (Rmin (sumZ 1 nc (fun c => qconc p i j k c)) 1 - rhoe) *
    smooth_step (1 / 2 + 10 * (qphi p i j k a * qphi p i j k b - cth)) *
    (grad3 (qdx0 p) (qdx1 p) (qdx2 p) (fun i j k => qphi p i j k a) d i j k
     - grad3 (qdx0 p) (qdx1 p) (qdx2 p) (fun i j k => qphi p i j k b) d i j k) *
    qweight p i j k.
Lemma dens3_anti : forall nc rhoe cth p a b d i j k, dens3 nc rhoe cth p a b d i j k = - dens3 nc rhoe cth p b a d i j k.
Proof. intros. unfold dens3. rewrite (Rmult_comm (qphi p i j k a)). ring. Qed.
Lemma wang3_anti : forall nc rhoe cth p a b d, wang_pair3 nc rhoe cth p a b d = - wang_pair3 nc rhoe cth p b a d.
Proof.
  intros. unfold wang_pair3. fold (dens3 nc rhoe cth p a b d). fold (dens3 nc rhoe cth p b a d).
  rewrite (sum_box3_ext _ _ _ _ _ _ (dens3 nc rhoe cth p a b d) (fun i j k => (-1) * dens3 nc rhoe cth p b a d i j k)) by (intros; rewrite dens3_anti; ring).
  rewrite sum_box3_scal. ring.
Qed.
Lemma wang3_kernel : forall n nc rhoe cth p f q1 q2 d, (1 <= q1 <= n)%Z -> (1 <= q2 <= n)%Z -> (1 <= d <= 3)%Z ->
  wang_forces3 n nc rhoe cth p f (3 * (n * (q1 - 1) + (q2 - 1)) + d)%Z =
  f (3 * (n * (q1 - 1) + (q2 - 1)) + d)%Z + (if (q1 =? q2)%Z then 0 else wang_pair3 nc rhoe cth p q1 q2 (d - 1)).
Proof.
  intros n nc rhoe cth p f q1 q2 d H1 H2 Hd. unfold wang_forces3. cbv zeta.
  set (K := (3 * (n * (q1 - 1) + (q2 - 1)) + d)%Z).
  rewrite (obs_loop _ (fun g : arr1 => g K) 1 n (fun p1 => sumZ 1 (p1 - 1) (fun p2 =>
    (if ((p1 =? q1) && (p2 =? q2))%Z then wang_pair3 nc rhoe cth p p1 p2 (d - 1) else 0) +
    (if ((p1 =? q2) && (p2 =? q1))%Z then wang_pair3 nc rhoe cth p p2 p1 (d - 1) else 0)))).
  - f_equal.
    rewrite (sumZ_ext 1 n _ (fun p1 => sumZ 1 (p1 - 1) (fun p2 => if ((p1 =? q1) && (p2 =? q2))%Z then wang_pair3 nc rhoe cth p p1 p2 (d - 1) else 0) +
      sumZ 1 (p1 - 1) (fun p2 => if ((p1 =? q2) && (p2 =? q1))%Z then wang_pair3 nc rhoe cth p p2 p1 (d - 1) else 0))) by (intros; apply sumZ_plus).
    rewrite sumZ_plus, (tri_single n q1 q2 (fun a b => wang_pair3 nc rhoe cth p a b (d - 1))), (tri_single n q2 q1 (fun a b => wang_pair3 nc rhoe cth p b a (d - 1))) by lia.
    destruct (Z.ltb_spec q2 q1); destruct (Z.ltb_spec q1 q2); destruct (Z.eqb_spec q1 q2); try lia; ring.
  - intros p1 g Hp1. apply (obs_loop _ (fun g : arr1 => g K)). intros p2 g' Hp2.
    rewrite (obs_cells3 _ (fun g : arr1 => g K) (qlo0 p) (qup0 p) (qlo1 p) (qup1 p) (qlo2 p) (qup2 p) (fun i j k =>
      (if ((p1 =? q1) && (p2 =? q2))%Z then 1 else 0) * dens3 nc rhoe cth p p1 p2 (d - 1) i j k +
      (if ((p1 =? q2) && (p2 =? q1))%Z then 1 else 0) * dens3 nc rhoe cth p p2 p1 (d - 1) i j k)).
    + rewrite sum_box3_plus, !sum_box3_scal. unfold dens3 at 1 2. fold (wang_pair3 nc rhoe cth p p1 p2 (d - 1)). fold (wang_pair3 nc rhoe cth p p2 p1 (d - 1)).
      destruct ((p1 =? q1) && (p2 =? q2))%Z; destruct ((p1 =? q2) && (p2 =? q1))%Z; ring.
    + intros i j k g'' _. rewrite (dens3_anti nc rhoe cth p p2 p1).
      set (pp := 1 / 2 + (qphi p i j k p1 * qphi p i j k p2 - cth) * 10).
      assert (Epp : 1 / 2 + 10 * (qphi p i j k p1 * qphi p i j k p2 - cth) = pp) by (unfold pp; ring).
      unfold dens3. rewrite Epp. destruct (Rlt_dec 0 pp) as [Hpos | Hneg].
      * rewrite (loop_sum0 nc (fun c => qconc p i j k c)), interp_p_step, !add1_at, !half_inv. unfold K.
        rewrite !off_eqb by lia.
        rewrite (andb_comm (p2 =? q1)%Z (p1 =? q2)%Z).
        assert (D : d = 1%Z \/ d = 2%Z \/ d = 3%Z) by lia. destruct D as [-> | [-> | ->]]; unfold grad3; cbn [Z.eqb Z.sub Z.add Z.opp Z.pos_sub Pos.eqb Z.succ_double Z.pred_double Z.double Pos.pred_double];
        destruct ((p1 =? q1) && (p2 =? q2))%Z; destruct ((p1 =? q2) && (p2 =? q1))%Z; cbn [andb]; ring.
      * unfold smooth_step. destruct (Rle_dec pp 0); [| lra]. ring.
Qed.

(** ** pair forces *)
Lemma idx_eq : forall nd n i j d, ((i * n + j) * nd + d + 1 = nd * (n * (i + 1 - 1) + (j + 1 - 1)) + (d + 1))%Z.
Proof. intros. ring. Qed.

Lemma wang2_pair_value : forall n nc rhoe cth stiff ranks i j d, (0 <= i < n)%Z -> (0 <= j < n)%Z -> (0 <= d < 2)%Z ->
  pair_force (wang_forces2 n nc rhoe cth) 2 n stiff ranks i j d =
  if (i =? j)%Z then 0 else stiff * sum_over (sum_over (fun p => wang_pair2 nc rhoe cth p (i + 1) (j + 1) d)) ranks.
Proof.
  intros n nc rhoe cth stiff ranks i j d Hi Hj Hd.
  rewrite (pair_force_value _ 2 n stiff ranks (fun p => if (i + 1 =? j + 1)%Z then 0 else wang_pair2 nc rhoe cth p (i + 1) (j + 1) d)).
  - destruct (Z.eqb_spec i j) as [-> |].
    + rewrite Z.eqb_refl. rewrite (sum_over_ext _ (fun _ => 0 * 0)).
      * rewrite (sum_over_scal 0 (fun _ => 0)). ring.
      * intro l. transitivity (0 * sum_over (fun _ : patch2 => 0) l); [| ring]. rewrite <- sum_over_scal. apply sum_over_ext. intros; ring.
    + destruct (Z.eqb_spec (i + 1) (j + 1)); [lia | reflexivity].
  - intros p f. rewrite idx_eq, wang2_kernel by lia. replace (d + 1 - 1)%Z with d by lia. reflexivity.
Qed.
Lemma wang3_pair_value : forall n nc rhoe cth stiff ranks i j d, (0 <= i < n)%Z -> (0 <= j < n)%Z -> (0 <= d < 3)%Z ->
  pair_force (wang_forces3 n nc rhoe cth) 3 n stiff ranks i j d =
  if (i =? j)%Z then 0 else stiff * sum_over (sum_over (fun p => wang_pair3 nc rhoe cth p (i + 1) (j + 1) d)) ranks.
Proof.
  intros n nc rhoe cth stiff ranks i j d Hi Hj Hd.
  rewrite (pair_force_value _ 3 n stiff ranks (fun p => if (i + 1 =? j + 1)%Z then 0 else wang_pair3 nc rhoe cth p (i + 1) (j + 1) d)).
  - destruct (Z.eqb_spec i j) as [-> |].
    + rewrite Z.eqb_refl. rewrite (sum_over_ext _ (fun _ => 0 * 0)).
      * rewrite (sum_over_scal 0 (fun _ => 0)). ring.
      * intro l. transitivity (0 * sum_over (fun _ : patch3 => 0) l); [| ring]. rewrite <- sum_over_scal. apply sum_over_ext. intros; ring.
    + destruct (Z.eqb_spec (i + 1) (j + 1)); [lia | reflexivity].
  - intros p f. rewrite idx_eq, wang3_kernel by lia. replace (d + 1 - 1)%Z with d by lia. reflexivity.
Qed.

Lemma sum_over2_opp : forall {A} (f g : A -> R) ranks, (forall a, f a = - g a) -> sum_over (sum_over f) ranks = - sum_over (sum_over g) ranks.
Proof.
  intros A f g ranks H. replace (- sum_over (sum_over g) ranks) with ((-1) * sum_over (sum_over g) ranks) by ring.
  rewrite <- sum_over_scal. apply sum_over_ext. intro l. rewrite <- sum_over_scal. apply sum_over_ext. intro a. rewrite H. ring.
Qed.

Lemma wang2_newton : forall n nc rhoe cth stiff ranks i j d, (0 <= i < n)%Z -> (0 <= j < n)%Z -> (0 <= d < 2)%Z ->
  pair_force (wang_forces2 n nc rhoe cth) 2 n stiff ranks i j d = - pair_force (wang_forces2 n nc rhoe cth) 2 n stiff ranks j i d.
Proof.
  intros. rewrite !wang2_pair_value by auto. rewrite (Z.eqb_sym j i). destruct (i =? j)%Z; [ring |].
  rewrite (sum_over2_opp _ (fun p => wang_pair2 nc rhoe cth p (j + 1) (i + 1) d)); [ring |]. intro p. apply wang2_anti.
Qed.
Lemma wang3_newton : forall n nc rhoe cth stiff ranks i j d, (0 <= i < n)%Z -> (0 <= j < n)%Z -> (0 <= d < 3)%Z ->
  pair_force (wang_forces3 n nc rhoe cth) 3 n stiff ranks i j d = - pair_force (wang_forces3 n nc rhoe cth) 3 n stiff ranks j i d.
Proof.
  intros. rewrite !wang3_pair_value by auto. rewrite (Z.eqb_sym j i). destruct (i =? j)%Z; [ring |].
  rewrite (sum_over2_opp _ (fun p => wang_pair3 nc rhoe cth p (j + 1) (i + 1) d)); [ring |]. intro p. apply wang3_anti.
Qed.

(** ** total force and motion *)
Lemma grain_force_value : forall n ext pair i d, pair i i d = 0 -> grain_force n ext pair i d = ext d + sumZ 0 (n - 1) (fun j => pair i j d).
Proof.
  intros n ext pair i d H0. unfold grain_force. apply (obs_loop R (fun x => x)). intros j s _.
  destruct (Z.eqb_spec j i) as [-> |]; [rewrite H0; ring | reflexivity].
Qed.
Lemma anti_sum : forall n (pair : Z -> Z -> R), (forall i j, (0 <= i <= n)%Z -> (0 <= j <= n)%Z -> pair i j = - pair j i) ->
  sumZ 0 n (fun i => sumZ 0 n (fun j => pair i j)) = 0.
Proof.
  intros n pair H. pose proof (sumZ_swap 0 n 0 n (fun i j => pair i j)) as E. cbv beta in E.
  assert (E2 : sumZ 0 n (fun j => sumZ 0 n (fun i => pair i j)) = - sumZ 0 n (fun j => sumZ 0 n (fun i => pair j i))).
  { rewrite <- sumZ_opp. apply sumZ_ext. intros j Hj. rewrite <- sumZ_opp. apply sumZ_ext. intros i Hi. apply H; auto. }
  lra.
Qed.
Lemma total_force : forall n ext pair d, (0 <= n)%Z ->
  (forall i j, (0 <= i < n)%Z -> (0 <= j < n)%Z -> pair i j d = - pair j i d) ->
  sumZ 0 (n - 1) (fun i => grain_force n ext pair i d) = IZR n * ext d.
Proof.
  intros n ext pair d Hn H.
  rewrite (sumZ_ext 0 (n - 1) _ (fun i => ext d + sumZ 0 (n - 1) (fun j => pair i j d))).
  - rewrite sumZ_plus, sumZ_const by lia. rewrite (anti_sum (n - 1) (fun i j => pair i j d)).
    + replace (n - 1 - 0 + 1)%Z with n by lia. ring.
    + intros; apply H; lia.
  - intros i Hi. apply grain_force_value. pose proof (H i i ltac:(lia) ltac:(lia)). lra.
Qed.
Lemma total_momentum : forall n mob vol force d, (forall i, (0 <= i < n)%Z -> vol i <> 0) ->
  sumZ 0 (n - 1) (fun i => vol i * grain_velocity mob vol force i d) = mob * sumZ 0 (n - 1) (fun i => force i d).
Proof.
  intros n mob vol force d H. rewrite <- sumZ_scal. apply sumZ_ext. intros i Hi. unfold grain_velocity. field. apply H. lia.
Qed.

Lemma rb_value : forall lo0 hi0 lo1 hi1 dx0 dx1 phase v0 v1 rhs, 
  sets_box lo0 hi0 lo1 hi1 rhs (addrbmotion lo0 hi0 lo1 hi1 dx0 dx1 phase v0 v1 rhs)
    (fun i j => rhs i j - (v0 * grad2 dx0 dx1 phase 0 i j + v1 * grad2 dx0 dx1 phase 1 i j)).
Proof.
  intros lo0 hi0 lo1 hi1 dx0 dx1 phase v0 v1 rhs i j. unfold addrbmotion. cbv zeta.
  rewrite (cells_loop lo0 hi0 lo1 hi1 (fun i j x => x - 1 / 2 * v0 / dx0 * (phase (i + 1)%Z j - phase (i - 1)%Z j) - 1 / 2 * v1 / dx1 * (phase i (j + 1)%Z - phase i (j - 1)%Z))).
  split.
  - intros [Hi Hj]. destruct (inb_spec lo0 hi0 i); [| lia]. destruct (inb_spec lo1 hi1 j); [| lia]. cbn [andb]. unfold grad2.
    change ((0 =? 0)%Z) with true. change ((1 =? 0)%Z) with false. cbv iota. rewrite <- !half_inv. unfold Rdiv. ring.
  - intro H. unfold in_box in H. destruct (inb_spec lo0 hi0 i); destruct (inb_spec lo1 hi1 j); auto. exfalso. apply H. lia.
Qed.

Lemma sum_central : forall lo hi (f : Z -> R), (lo <= hi)%Z ->
  sumZ lo hi (fun i => f (i + 1)%Z - f (i - 1)%Z) = (f (hi + 1)%Z + f hi) - (f lo + f (lo - 1)%Z).
Proof.
  intros lo hi f H. rewrite (sumZ_ext lo hi _ (fun i => (f (i + 1)%Z + f i) - (f i + f (i - 1)%Z))) by (intros; ring).
  pose proof (sumZ_telescope lo hi (fun i => f i + f (i - 1)%Z) ltac:(lia)) as E. cbv beta in E.
  rewrite <- (sumZ_ext lo hi (fun i => f (i + 1)%Z + f (i + 1 - 1)%Z - (f i + f (i - 1)%Z))).
  - rewrite E. replace (hi + 1 - 1)%Z with hi by lia. reflexivity.
  - intros i _. replace (i + 1 - 1)%Z with i by lia. reflexivity.
Qed.

Lemma rb_volume : forall lo0 hi0 lo1 hi1 dx0 dx1 phase v0 v1 rhs, (lo0 <= hi0)%Z -> (lo1 <= hi1)%Z ->
  (forall i j, phase (i + (hi0 - lo0 + 1))%Z j = phase i j) -> (forall i j, phase i (j + (hi1 - lo1 + 1))%Z = phase i j) ->
  sum_box lo0 hi0 lo1 hi1 (addrbmotion lo0 hi0 lo1 hi1 dx0 dx1 phase v0 v1 rhs) = sum_box lo0 hi0 lo1 hi1 rhs.
Proof.
  intros lo0 hi0 lo1 hi1 dx0 dx1 phase v0 v1 rhs H0 H1 P0 P1.
  rewrite (sum_box_ext lo0 hi0 lo1 hi1 _ (fun i j => rhs i j + (((- v0 * (1 / 2 / dx0)) * (phase (i + 1)%Z j - phase (i - 1)%Z j)) + ((- v1 * (1 / 2 / dx1)) * (phase i (j + 1)%Z - phase i (j - 1)%Z))))).
  - rewrite !sum_box_plus, !sum_box_scal. unfold sum_box at 2 3.
    rewrite (sumZ_ext lo1 hi1 _ (fun _ => 0)).
    + rewrite (sumZ_swap lo0 hi0 lo1 hi1 (fun i j => phase i (j + 1)%Z - phase i (j - 1)%Z)).
      rewrite (sumZ_ext lo0 hi0 _ (fun _ => 0)).
      * rewrite !sumZ_zero. ring.
      * intros i _. rewrite (sum_central lo1 hi1 (fun j => phase i j)) by auto.
        replace (hi1 + 1)%Z with (lo1 + (hi1 - lo1 + 1))%Z by lia. rewrite P1.
        replace hi1 with ((lo1 - 1) + (hi1 - lo1 + 1))%Z at 1 by lia. rewrite P1. ring.
    + intros j _. rewrite (sum_central lo0 hi0 (fun i => phase i j)) by auto.
      replace (hi0 + 1)%Z with (lo0 + (hi0 - lo0 + 1))%Z by lia. rewrite P0.
      replace hi0 with ((lo0 - 1) + (hi0 - lo0 + 1))%Z at 1 by lia. rewrite P0. ring.
  - intros i j Hij. rewrite (proj1 (rb_value lo0 hi0 lo1 hi1 dx0 dx1 phase v0 v1 rhs i j) Hij). unfold grad2.
    change ((0 =? 0)%Z) with true. change ((1 =? 0)%Z) with false. cbv iota. rewrite <- !half_inv. ring.
Qed.

(** ** phi-phi forces *)
Lemma box_single_pair : forall n q1 q2 (v : Z -> Z -> R), (1 <= q1 <= n)%Z -> (1 <= q2 <= n)%Z ->
  sumZ 1 n (fun p1 => sumZ 1 n (fun p2 => if ((p1 =? q1) && (p2 =? q2))%Z then v p1 p2 else 0)) = v q1 q2.
Proof.
  intros n q1 q2 v H1 H2. rewrite sumZ_swap.
  pose proof (sum_box_single 1 n 1 n q1 q2 v) as E. unfold sum_box in E. rewrite E.
  destruct (inb_spec 1 n q1); [| lia]. destruct (inb_spec 1 n q2); [| lia]. reflexivity.
Qed.

Lemma phiphi2_kernel : forall n dgamma m p f q1 q2 d, (1 <= q1 <= n)%Z -> (1 <= q2 <= n)%Z -> (1 <= d <= 2)%Z ->
  phiphi_forces2 n dgamma m p f (2 * (n * (q1 - 1) + (q2 - 1)) + d)%Z =
  f (2 * (n * (q1 - 1) + (q2 - 1)) + d)%Z + (if (q1 =? q2)%Z then 0 else phiphi_pair2 dgamma m p q1 q2 (d - 1)).
Proof.
  intros n dgamma m p f q1 q2 d H1 H2 Hd. unfold phiphi_forces2. cbv zeta.
  set (K := (2 * (n * (q1 - 1) + (q2 - 1)) + d)%Z).
  rewrite (obs_loop _ (fun g : arr1 => g K) 1 n (fun p1 => sumZ 1 n (fun p2 =>
    if ((p1 =? q1) && (p2 =? q2))%Z then (if (p1 =? p2)%Z then 0 else phiphi_pair2 dgamma m p p1 p2 (d - 1)) else 0))).
  - f_equal. apply (box_single_pair n q1 q2 (fun p1 p2 => if (p1 =? p2)%Z then 0 else phiphi_pair2 dgamma m p p1 p2 (d - 1))); auto.
  - intros p1 g Hp1. apply (obs_loop _ (fun g : arr1 => g K)). intros p2 g' Hp2.
    destruct (p1 =? p2)%Z; [destruct ((p1 =? q1) && (p2 =? q2))%Z; ring |].
    rewrite (obs_cells _ (fun g : arr1 => g K) (plo0 p) (pup0 p) (plo1 p) (pup1 p) (fun i j =>
      (if ((p1 =? q1) && (p2 =? q2))%Z then 1 else 0) *
      (dgamma * m * pphi p i j p1 ^ 2 * pphi p i j p2 * grad2 (pdx0 p) (pdx1 p) (fun i j => pphi p i j p2) (d - 1) i j * pweight p i j))).
    + rewrite sum_box_scal. unfold phiphi_pair2. destruct ((p1 =? q1) && (p2 =? q2))%Z; ring.
    + intros i j g'' _. rewrite !add1_at. unfold K.
      replace (2 * n * (p1 - 1) + p2 * 2 - 1)%Z with (2 * (n * (p1 - 1) + (p2 - 1)) + 1)%Z by ring.
      replace (2 * (n * (p1 - 1) + (p2 - 1)) + 1 + 1)%Z with (2 * (n * (p1 - 1) + (p2 - 1)) + 2)%Z by ring.
      rewrite !off_eqb by lia. unfold grad2. rewrite <- !half_inv.
      assert (D : d = 1%Z \/ d = 2%Z) by lia. destruct D as [-> | ->];
      [change ((1 - 1 =? 0)%Z) with true; change ((1 =? 1)%Z) with true; change ((2 =? 1)%Z) with false
      | change ((2 - 1 =? 0)%Z) with false; change ((1 =? 2)%Z) with false; change ((2 =? 2)%Z) with true];
      cbv iota; destruct ((p1 =? q1) && (p2 =? q2))%Z; cbn [andb]; unfold Rdiv; ring.
Qed.

Lemma phiphi2_pair_value : forall n dgamma m stiff ranks i j d, (0 <= i < n)%Z -> (0 <= j < n)%Z -> (0 <= d < 2)%Z -> i <> j ->
  pair_force (phiphi_forces2 n dgamma m) 2 n stiff ranks i j d =
  stiff * sum_over (sum_over (fun p => phiphi_pair2 dgamma m p (i + 1) (j + 1) d)) ranks.
Proof.
  intros n dgamma m stiff ranks i j d Hi Hj Hd Hij.
  rewrite (pair_force_value _ 2 n stiff ranks (fun p => if (i + 1 =? j + 1)%Z then 0 else phiphi_pair2 dgamma m p (i + 1) (j + 1) d)).
  - destruct (Z.eqb_spec (i + 1) (j + 1)); [lia | reflexivity].
  - intros p f. rewrite idx_eq, phiphi2_kernel by lia. replace (d + 1 - 1)%Z with d by lia. reflexivity.
Qed.

(** three cells in a row, periodic with period three; phi1 = 1/2,0,1/2 and phi2 = 1/2,1,0 *)
Definition three_cells : patch2 :=
  Patch2 0 2 0 0 1 1 (fun i _ p => if (p =? 1)%Z then (if (i mod 3 =? 1)%Z then 0 else 1 / 2) else (if (i mod 3 =? 0)%Z then 1 / 2 else if (i mod 3 =? 1)%Z then 1 else 0))
    (fun _ _ _ => 0) (fun _ _ => 1).
Lemma phiphi2_not_newton : 
  pair_force (phiphi_forces2 2 1 1) 2 2 1 [[three_cells]] 0 1 0 = 1 / 16 /\ pair_force (phiphi_forces2 2 1 1) 2 2 1 [[three_cells]] 1 0 0 = - (1 / 32).
Proof.
  rewrite !phiphi2_pair_value by lia. cbn [sum_over fold_right]. unfold phiphi_pair2, sum_box, grad2, three_cells.
  cbn [plo0 pup0 plo1 pup1 pdx0 pdx1 pphi pweight].
  split; rewrite !sumZ_cons, !sumZ_empty by lia; cbn -[Rdiv Rmult Rplus Rminus]; lra.
Qed.

(** 3D: what is stored where *)
Lemma phiphi3_kernel : forall n dgamma m p f K,
  phiphi_forces3 n dgamma m p f K = f K + sumZ 1 n (fun p1 => sumZ 1 n (fun p2 =>
    if (p1 =? p2)%Z then 0 else sumZ 0 2 (fun d => if (3 * n * (p1 - 1) + p2 * 2 - 1 + d =? K)%Z then phiphi_pair3 dgamma m (unweighted p) p1 p2 d else 0))).
Proof.
  intros n dgamma m p f K. unfold phiphi_forces3. cbv zeta.
  apply (obs_loop _ (fun g : arr1 => g K)). intros p1 g _. apply (obs_loop _ (fun g : arr1 => g K)). intros p2 g' _.
  destruct (p1 =? p2)%Z; [ring |].
  set (b0 := (3 * n * (p1 - 1) + p2 * 2 - 1 + 0 =? K)%Z). set (b1 := (3 * n * (p1 - 1) + p2 * 2 - 1 + 1 =? K)%Z). set (b2 := (3 * n * (p1 - 1) + p2 * 2 - 1 + 2 =? K)%Z).
  set (D := fun d i j k => dgamma * m * qphi p i j k p1 ^ 2 * qphi p i j k p2 * grad3 (qdx0 p) (qdx1 p) (qdx2 p) (fun i j k => qphi p i j k p2) d i j k * 1).
  rewrite (obs_cells3 _ (fun g : arr1 => g K) (qlo0 p) (qup0 p) (qlo1 p) (qup1 p) (qlo2 p) (qup2 p) (fun i j k =>
     (if b0 then 1 else 0) * D 0%Z i j k + ((if b1 then 1 else 0) * D 1%Z i j k + (if b2 then 1 else 0) * D 2%Z i j k))).
  - rewrite !sum_box3_plus, !sum_box3_scal. rewrite !sumZ_cons by lia. rewrite sumZ_empty by lia. change (0 + 1 + 1)%Z with 2%Z. change (0 + 1)%Z with 1%Z.
    fold b0 b1 b2. unfold phiphi_pair3, unweighted, reweight3. cbn [qlo0 qup0 qlo1 qup1 qlo2 qup2 qdx0 qdx1 qdx2 qphi qweight].
    fold (D 0%Z) (D 1%Z) (D 2%Z). destruct b0, b1, b2; ring.
  - intros i j k g'' _. rewrite !add1_at.
    replace (3 * n * (p1 - 1) + p2 * 2 - 1 =? K)%Z with b0 by (unfold b0; rewrite Z.add_0_r; reflexivity). fold b1 b2.
    unfold D, grad3. cbn [Z.eqb Pos.eqb]. rewrite <- !half_inv. unfold Rdiv. destruct b0, b1, b2; ring.
Qed.

Lemma phiphi3_two_grains : forall dgamma m stiff ranks,
  let F := pair_force (phiphi_forces3 2 dgamma m) 3 2 stiff ranks in
  let expected i j d := stiff * sum_over (sum_over (fun p => phiphi_pair3 dgamma m (unweighted p) (i + 1) (j + 1) d)) ranks in
  F 0%Z 1%Z 0%Z = expected 0%Z 1%Z 1%Z /\ F 0%Z 1%Z 1%Z = expected 0%Z 1%Z 2%Z /\ F 0%Z 1%Z 2%Z = 0 /\
  F 1%Z 0%Z 0%Z = expected 1%Z 0%Z 0%Z /\ F 1%Z 0%Z 1%Z = expected 1%Z 0%Z 1%Z /\ F 1%Z 0%Z 2%Z = expected 1%Z 0%Z 2%Z.
Proof.
  intros dgamma m stiff ranks F expected.
  assert (K : forall i j d inc, (0 <= i <= 1)%Z -> (0 <= j <= 1)%Z -> (0 <= d <= 2)%Z ->
     (forall p, sumZ 1 2 (fun p1 => sumZ 1 2 (fun p2 =>
    if (p1 =? p2)%Z then 0 else sumZ 0 2 (fun e => if (3 * 2 * (p1 - 1) + p2 * 2 - 1 + e =? (i * 2 + j) * 3 + d + 1)%Z then phiphi_pair3 dgamma m (unweighted p) p1 p2 e else 0))) = inc p) ->
     F i j d = stiff * sum_over (sum_over inc) ranks).
  { intros i j d inc Hi Hj Hd H. apply pair_force_value. intros p f. rewrite phiphi3_kernel. rewrite H. reflexivity. }
  assert (S : forall g : Z -> R, sumZ 1 2 g = g 1%Z + g 2%Z) by (intro g; rewrite !sumZ_cons by lia; rewrite sumZ_empty by lia; change (1 + 1)%Z with 2%Z; ring).
  assert (T : forall g : Z -> R, sumZ 0 2 g = g 0%Z + g 1%Z + g 2%Z) by (intro g; rewrite !sumZ_cons by lia; rewrite sumZ_empty by lia; change (0 + 1 + 1)%Z with 2%Z; change (0 + 1)%Z with 1%Z; ring).
  unfold expected. repeat match goal with |- _ /\ _ => split end.
  3: { rewrite (K 0%Z 1%Z 2%Z (fun _ => 0)); [| lia | lia | lia | intro p; rewrite S, !S, !T; cbn -[phiphi_pair3]; ring].
       rewrite (sum_over_ext _ (fun _ => 0 * 0)); [rewrite (sum_over_scal 0 (fun _ => 0)); ring |].
       intro l. transitivity (0 * sum_over (fun _ : patch3 => 0) l); [| ring]. rewrite <- sum_over_scal. apply sum_over_ext. intros; ring. }
  all: apply K; try lia; intro p; rewrite S, !S, !T; cbn -[phiphi_pair3]; ring.
Qed.

Lemma phiphi3_weight_ignored : forall n dgamma m p w f, phiphi_forces3 n dgamma m (reweight3 p w) f = phiphi_forces3 n dgamma m p f.
Proof. intros. reflexivity. Qed.
