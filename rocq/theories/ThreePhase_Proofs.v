From Coq Require Import Reals ZArith List Lra Lia Bool.
From Verif Require Import Grid_Model Grid_Spec Grid_Proofs Tilting_Model Tilting_Spec Tilting_Proofs Transport_Spec
  ThreePhase_Model ThreePhase_Spec.
Import ListNotations.
Open Scope R_scope.

Definition same3 (a b : Z) (s s' : arr3) : Prop := forall m, s a b m = s' a b m.
Definition same4 (a b c : Z) (s s' : arr4) : Prop := forall m, s a b c m = s' a b c m.
Lemma same3_refl : forall a b s, same3 a b s s.
Proof. intros a b s m. reflexivity. Qed.
Lemma same3_trans : forall a b x y z, same3 a b x y -> same3 a b y z -> same3 a b x z.
Proof. intros a b x y z H K m. rewrite H. apply K. Qed.
Lemma same4_refl : forall a b c s, same4 a b c s s.
Proof. intros a b c s m. reflexivity. Qed.
Lemma same4_trans : forall a b c x y z, same4 a b c x y -> same4 a b c y z -> same4 a b c x z.
Proof. intros a b c x y z H K m. rewrite H. apply K. Qed.

(** loops over the components of one cell *)
Lemma vec_loop3 : forall n i j (g : Z -> R -> R) (c : arr3) m,
  do_loop 1 n (fun m c => upd3 c i j m (g m (c i j m))) c i j m = if inb 1 n m then g m (c i j m) else c i j m.
Proof.
  intros n i j g c m. destruct (inb_spec 1 n m) as [H | H].
  - destruct (loop_once arr3 (fun s s' => s i j m = s' i j m) 1 n m (fun m c => upd3 c i j m (g m (c i j m))) c) as (s0 & A & B); auto.
    + intros x y z Hx Hy. congruence.
    + intros k s Hk N. rewrite upd3_other; [reflexivity | lia].
    + rewrite <- B, upd3_same, A. reflexivity.
  - symmetry. apply (loop_never arr3 (fun s s' => s i j m = s' i j m)).
    + reflexivity.
    + intros x y z Hx Hy. congruence.
    + intros k s Hk. rewrite upd3_other; [reflexivity | lia].
Qed.
Lemma vec_loop3_other : forall n i j (g : Z -> arr3 -> R) (c : arr3) a b, (a <> i \/ b <> j)%Z ->
  same3 a b c (do_loop 1 n (fun m c => upd3 c i j m (g m c)) c).
Proof.
  intros n i j g c a b H. apply loop_never; [apply same3_refl | apply same3_trans |].
  intros k s _ m. rewrite upd3_other; [reflexivity | lia].
Qed.
Lemma vec_loop4 : forall n i j k (g : Z -> R -> R) (c : arr4) m,
  do_loop 1 n (fun m c => upd4 c i j k m (g m (c i j k m))) c i j k m = if inb 1 n m then g m (c i j k m) else c i j k m.
Proof.
  intros n i j k g c m. destruct (inb_spec 1 n m) as [H | H].
  - destruct (loop_once arr4 (fun s s' => s i j k m = s' i j k m) 1 n m (fun m c => upd4 c i j k m (g m (c i j k m))) c) as (s0 & A & B); auto.
    + intros x y z Hx Hy. congruence.
    + intros q s Hk N. rewrite upd4_other; [reflexivity | lia].
    + rewrite <- B, upd4_same, A. reflexivity.
  - symmetry. apply (loop_never arr4 (fun s s' => s i j k m = s' i j k m)).
    + reflexivity.
    + intros x y z Hx Hy. congruence.
    + intros q s Hk. rewrite upd4_other; [reflexivity | lia].
Qed.
Lemma vec_loop4_other : forall n i j k (g : Z -> arr4 -> R) (c : arr4) a b d, (a <> i \/ b <> j \/ d <> k)%Z ->
  same4 a b d c (do_loop 1 n (fun m c => upd4 c i j k m (g m c)) c).
Proof.
  intros n i j k g c a b d H. apply loop_never; [apply same4_refl | apply same4_trans |].
  intros q s _ m. rewrite upd4_other; [reflexivity | lia].
Qed.
Lemma sum3 : forall f, sumZ 1 3 f = f 1%Z + f 2%Z + f 3%Z.
Proof. intro f. rewrite !sumZ_cons, !sumZ_empty by lia. cbn. ring. Qed.
Lemma three : forall k, (1 <= k <= 3)%Z -> k = 1%Z \/ k = 2%Z \/ k = 3%Z.
Proof. intros k H. lia. Qed.

(** ** the kernel *)
Definition raw_value (dx0 dx1 : R) (f0 f1 : arr3) (ws : R) (phi : arr3) (i j p : Z) : R :=
  (f0 (i + 1)%Z j p - f0 i j p) * (1 / dx0) + (f1 i (j + 1)%Z p - f1 i j p) * (1 / dx1)
  - ws * deriv_triple_well_func (phi i j p) (phi i j (p mod 3 + 1)%Z) (phi i j ((p + 1) mod 3 + 1)%Z).
Lemma raw_ok : forall lo0 hi0 lo1 hi1 dx0 dx1 f0 f1 ws phi rhs a b p, in_box lo0 hi0 lo1 hi1 a b -> (1 <= p <= 3)%Z ->
  rhs_threephases_raw lo0 hi0 lo1 hi1 dx0 dx1 f0 f1 ws phi rhs a b p = raw_value dx0 dx1 f0 f1 ws phi a b p.
Proof.
  intros lo0 hi0 lo1 hi1 dx0 dx1 f0 f1 ws phi rhs a b p [Ha Hb] Hp. unfold rhs_threephases_raw. cbv zeta.
  match goal with |- do_loop 1 3 (fun ip => do_cells _ _ _ _ (@?B ip)) _ _ _ _ = _ =>
    destruct (cells3_once arr3 (fun s s' => s a b p = s' a b p) lo0 hi0 lo1 hi1 1 3 a b p (fun i j ip => B ip i j) rhs) as (s0 & C & D) end.
  - reflexivity.
  - intros x y z Hx Hy. congruence.
  - repeat split; lia.
  - intros i j k s _ N. cbv zeta. rewrite !upd3_other; [reflexivity | lia | lia].
  - etransitivity; [symmetry; exact D |]. cbv beta. rewrite !upd3_same. unfold raw_value. ring.
Qed.
Lemma raw_outside : forall lo0 hi0 lo1 hi1 dx0 dx1 f0 f1 ws phi rhs a b, ~ in_box lo0 hi0 lo1 hi1 a b ->
  same3 a b rhs (rhs_threephases_raw lo0 hi0 lo1 hi1 dx0 dx1 f0 f1 ws phi rhs).
Proof.
  intros lo0 hi0 lo1 hi1 dx0 dx1 f0 f1 ws phi rhs a b H. unfold rhs_threephases_raw.
  apply loop_never; [apply same3_refl | apply same3_trans |]. intros ip s _.
  apply cells_never; [apply same3_refl | apply same3_trans |]. intros i j s' Hij m.
  assert (a <> i \/ b <> j)%Z by (unfold in_box in *; lia). cbv zeta. rewrite !upd3_other; [reflexivity | lia | lia].
Qed.
Lemma stz_ok : forall lo0 hi0 lo1 hi1 rhs a b p, in_box lo0 hi0 lo1 hi1 a b -> (1 <= p <= 3)%Z ->
  sum_to_zero lo0 hi0 lo1 hi1 rhs a b p = mean_free (rhs a b) p.
Proof.
  intros lo0 hi0 lo1 hi1 rhs a b p H Hp. unfold sum_to_zero.
  match goal with |- do_cells _ _ _ _ ?B _ _ _ _ = _ =>
    destruct (cells_once arr3 (same3 a b) lo0 hi0 lo1 hi1 a b B rhs) as (s0 & C & D) end.
  - apply same3_refl.
  - apply same3_trans.
  - exact H.
  - intros i j s _ N. apply vec_loop3_other. lia.
  - etransitivity; [symmetry; exact (D p) |]. cbv beta zeta. rewrite (vec_loop3 3 a b (fun _ x => x - do_loop 1 3 (fun jp s => s + s0 a b jp) 0 * (1 / 3))).
    destruct (inb_spec 1 3 p); [| lia]. rewrite loop_sum, sum3, <- !(C _). unfold mean_free. field.
Qed.
Lemma stz_outside : forall lo0 hi0 lo1 hi1 rhs a b, ~ in_box lo0 hi0 lo1 hi1 a b ->
  same3 a b rhs (sum_to_zero lo0 hi0 lo1 hi1 rhs).
Proof.
  intros lo0 hi0 lo1 hi1 rhs a b H. unfold sum_to_zero. apply cells_never; [apply same3_refl | apply same3_trans |].
  intros i j s Hij. assert (a <> i \/ b <> j)%Z by (unfold in_box in *; lia). apply vec_loop3_other. lia.
Qed.
Lemma kernel_ok : forall lo0 hi0 lo1 hi1 dx0 dx1 f0 f1 ws phi rhs a b p, in_box lo0 hi0 lo1 hi1 a b -> (1 <= p <= 3)%Z ->
  computerhsthreephases lo0 hi0 lo1 hi1 dx0 dx1 f0 f1 ws phi rhs a b p = mean_free (raw_value dx0 dx1 f0 f1 ws phi a b) p.
Proof.
  intros. unfold computerhsthreephases. rewrite stz_ok by auto. unfold mean_free. rewrite !raw_ok by (auto; lia). reflexivity.
Qed.
Lemma kernel_outside : forall lo0 hi0 lo1 hi1 dx0 dx1 f0 f1 ws phi rhs a b, ~ in_box lo0 hi0 lo1 hi1 a b ->
  same3 a b rhs (computerhsthreephases lo0 hi0 lo1 hi1 dx0 dx1 f0 f1 ws phi rhs).
Proof.
  intros. eapply same3_trans; [apply raw_outside; eassumption | apply stz_outside; assumption].
Qed.

(** ** driving force *)
Definition pick (t : R * R * R) (p : Z) : R := let '(a, b, c) := t in if (p =? 1)%Z then a else if (p =? 2)%Z then b else c.
Definition dfc (T : tilting) (phi : arr3) (c : chem2) (a b : Z) : R * R * R :=
  driving_force_cell T (phi a b 1%Z) (phi a b 2%Z) (phi a b 3%Z)
      (ch_fl c a b) (ch_fa c a b) (ch_fb c a b) (ch_cl c a b) (ch_ca c a b) (ch_cb c a b) (ch_mu c a b).
Lemma df_ok : forall T lo0 hi0 lo1 hi1 phi c rhs a b p, in_box lo0 hi0 lo1 hi1 a b -> (1 <= p <= 3)%Z ->
  add_driving_force T lo0 hi0 lo1 hi1 phi c rhs a b p = rhs a b p - pick (dfc T phi c a b) p.
Proof.
  intros T lo0 hi0 lo1 hi1 phi c rhs a b p H Hp. unfold add_driving_force.
  match goal with |- do_cells _ _ _ _ ?B _ _ _ _ = _ =>
    destruct (cells_once arr3 (same3 a b) lo0 hi0 lo1 hi1 a b B rhs) as (s0 & C & D) end.
  - apply same3_refl.
  - apply same3_trans.
  - exact H.
  - intros i j s _ N m. destruct (driving_force_cell _ _ _ _ _ _ _ _ _ _ _) as [[d0 d1] d2]. cbv zeta.
    rewrite !upd3_other; [reflexivity | lia | lia | lia].
  - unfold same3 in D. rewrite <- D. clear D. unfold dfc. destruct (driving_force_cell _ _ _ _ _ _ _ _ _ _ _) as [[d0 d1] d2]. cbv zeta. unfold pick.
    destruct (three p Hp) as [-> | [-> | ->]]; cbn [Z.eqb Pos.eqb].
    + do 2 (rewrite upd3_other by lia). rewrite upd3_same, (C 1%Z). reflexivity.
    + rewrite upd3_other by lia. rewrite upd3_same. rewrite upd3_other by lia. rewrite (C 2%Z). reflexivity.
    + rewrite upd3_same. do 2 (rewrite upd3_other by lia). rewrite (C 3%Z). reflexivity.
Qed.
Lemma df_outside : forall T lo0 hi0 lo1 hi1 phi c rhs a b, ~ in_box lo0 hi0 lo1 hi1 a b ->
  same3 a b rhs (add_driving_force T lo0 hi0 lo1 hi1 phi c rhs).
Proof.
  intros T lo0 hi0 lo1 hi1 phi c rhs a b H. unfold add_driving_force. apply cells_never; [apply same3_refl | apply same3_trans |].
  intros i j s Hij m. assert (a <> i \/ b <> j)%Z by (unfold in_box in *; lia).
  destruct (driving_force_cell _ _ _ _ _ _ _ _ _ _ _) as [[d0 d1] d2]. cbv zeta.
  rewrite !upd3_other; [reflexivity | lia | lia | lia].
Qed.
Lemma df_sum : forall T phi c a b, pick (dfc T phi c a b) 1 + pick (dfc T phi c a b) 2 + pick (dfc T phi c a b) 3 = 0.
Proof. intros. unfold dfc, driving_force_cell, pick. cbn [Z.eqb Pos.eqb]. field. Qed.

Lemma mob_ok : forall lo0 hi0 lo1 hi1 mob rhs a b p, in_box lo0 hi0 lo1 hi1 a b -> (1 <= p <= 3)%Z ->
  times_mobility lo0 hi0 lo1 hi1 mob rhs a b p = rhs a b p * mob a b.
Proof.
  intros lo0 hi0 lo1 hi1 mob rhs a b p [Ha Hb] Hp.
  pose proof (cells3_loop lo0 hi0 lo1 hi1 1 3 (fun i j _ x => x * mob i j) rhs a b p) as E.
  etransitivity; [exact E |].
  destruct (inb_spec lo0 hi0 a); [| lia]. destruct (inb_spec lo1 hi1 b); [| lia]. destruct (inb_spec 1 3 p); [| lia]. reflexivity.
Qed.
Lemma mob_outside : forall lo0 hi0 lo1 hi1 mob rhs a b, ~ in_box lo0 hi0 lo1 hi1 a b ->
  same3 a b rhs (times_mobility lo0 hi0 lo1 hi1 mob rhs).
Proof.
  intros lo0 hi0 lo1 hi1 mob rhs a b H. unfold times_mobility. apply loop_never; [apply same3_refl | apply same3_trans |]. intros ip s _.
  apply cells_never; [apply same3_refl | apply same3_trans |]. intros i j s' Hij m.
  assert (a <> i \/ b <> j)%Z by (unfold in_box in *; lia). rewrite !upd3_other; [reflexivity | lia].
Qed.

Definition df_opt (T : tilting) (phi : arr3) (chem : option chem2) (a b p : Z) : R :=
  match chem with Some c => pick (dfc T phi c a b) p | None => 0 end.
Lemma rhs_value : forall T lo0 hi0 lo1 hi1 dx0 dx1 f0 f1 ws phi chem mob rhs a b p, in_box lo0 hi0 lo1 hi1 a b -> (1 <= p <= 3)%Z ->
  evaluate_rhs T lo0 hi0 lo1 hi1 dx0 dx1 f0 f1 ws phi chem mob rhs a b p =
  (mean_free (raw_value dx0 dx1 f0 f1 ws phi a b) p - df_opt T phi chem a b p) * mob a b.
Proof.
  intros. unfold evaluate_rhs. rewrite mob_ok by auto. destruct chem; cbn [df_opt]; rewrite ?df_ok, kernel_ok by auto; [reflexivity | rewrite Rminus_0_r; reflexivity].
Qed.
Lemma rhs_outside : forall T lo0 hi0 lo1 hi1 dx0 dx1 f0 f1 ws phi chem mob rhs a b p, ~ in_box lo0 hi0 lo1 hi1 a b ->
  evaluate_rhs T lo0 hi0 lo1 hi1 dx0 dx1 f0 f1 ws phi chem mob rhs a b p = rhs a b p.
Proof.
  intros. symmetry. unfold evaluate_rhs.
  refine (same3_trans a b _ _ _ (kernel_outside lo0 hi0 lo1 hi1 dx0 dx1 f0 f1 ws phi rhs a b H) _ p).
  destruct chem as [c |]; [| apply mob_outside; exact H].
  eapply same3_trans; [apply (df_outside T lo0 hi0 lo1 hi1 phi c); exact H | apply mob_outside; exact H].
Qed.
Lemma df_opt_sum : forall T phi chem a b, df_opt T phi chem a b 1 + df_opt T phi chem a b 2 + df_opt T phi chem a b 3 = 0.
Proof. intros T phi [c |] a b; cbn [df_opt]; [apply df_sum | ring]. Qed.

Lemma rhs_sum_zero : forall T lo0 hi0 lo1 hi1 dx0 dx1 f0 f1 ws phi chem mob rhs i j, in_box lo0 hi0 lo1 hi1 i j ->
  sumZ 1 3 (evaluate_rhs T lo0 hi0 lo1 hi1 dx0 dx1 f0 f1 ws phi chem mob rhs i j) = 0.
Proof.
  intros T lo0 hi0 lo1 hi1 dx0 dx1 f0 f1 ws phi chem mob rhs i j H. rewrite sum3, !rhs_value by (auto; lia).
  pose proof (df_opt_sum T phi chem i j) as S. unfold mean_free.
  replace (df_opt T phi chem i j 3) with (- df_opt T phi chem i j 1 - df_opt T phi chem i j 2) by lra. field.
Qed.

(** ** gradient flow *)
Lemma grad_scal_plus : forall F G p0 p1 p2 c a0 a1 a2 b0 b1 b2,
  constrained_gradient F p0 p1 p2 a0 a1 a2 -> constrained_gradient G p0 p1 p2 b0 b1 b2 ->
  constrained_gradient (fun x y z => c * F x y z + G x y z) p0 p1 p2 (c * a0 + b0) (c * a1 + b1) (c * a2 + b2).
Proof.
  intros F G p0 p1 p2 c a0 a1 a2 b0 b1 b2 [SA A] [SB B]. split; [replace a2 with (- a0 - a1) by lra; replace b2 with (- b0 - b1) by lra; ring |].
  intros v0 v1 v2 V. specialize (A v0 v1 v2 V). specialize (B v0 v1 v2 V).
  replace ((c * a0 + b0) * v0 + (c * a1 + b1) * v1 + (c * a2 + b2) * v2) with
    (c * (a0 * v0 + a1 * v1 + a2 * v2) + (b0 * v0 + b1 * v1 + b2 * v2)) by ring.
  apply (derivable_pt_lim_plus (fun t => c * F (p0 + t * v0) (p1 + t * v1) (p2 + t * v2)) (fun t => G (p0 + t * v0) (p1 + t * v1) (p2 + t * v2))); auto.
  apply (derivable_pt_lim_scal (fun t => F (p0 + t * v0) (p1 + t * v1) (p2 + t * v2))). exact A.
Qed.
Lemma tilted_gradient : forall T p0 p1 p2 fl fa fb cl ca cb mu, on_simplex p0 p1 p2 ->
  let d := driving_force_cell T p0 p1 p2 fl fa fb cl ca cb mu in
  constrained_gradient (fun x y z => g0 T x y z * (fl - mu * cl) + g0 T y x z * (fa - mu * ca) + g0 T z x y * (fb - mu * cb))
    p0 p1 p2 (pick d 1) (pick d 2) (pick d 3).
Proof.
  intros T p0 p1 p2 fl fa fb cl ca cb mu H d.
  assert (Ha : on_simplex p1 p0 p2) by (unfold on_simplex in *; lra).
  assert (Hb : on_simplex p2 p0 p1) by (unfold on_simplex in *; lra).
  assert (S0 := proj1 (tilt_gradient T _ _ _ H)). assert (S1 := proj1 (tilt_gradient T _ _ _ Ha)). assert (S2 := proj1 (tilt_gradient T _ _ _ Hb)).
  assert (W : forall x y z, dg0dp0 T x y z = dg0dp0 T x z y).
  { intros x y z. destruct T; cbn [dg0dp0].
    - unfold fp_dg0dp0. dlt.
    - unfold mo_dg0dp0. destruct (Rlt_dec x 0); [reflexivity |]. cbv zeta.
      replace (x * x + y * y + z * z) with (x * x + z * z + y * y) by ring. f_equal. ring. }
  assert (E : forall p, (p = 1 \/ p = 2 \/ p = 3)%Z -> pick d p =
     pick (dg0dp0 T p0 p1 p2 * (fl - mu * cl) + dg0dp1 T p1 p0 p2 * (fa - mu * ca) + dg0dp1 T p2 p0 p1 * (fb - mu * cb),
           dg0dp1 T p0 p1 p2 * (fl - mu * cl) + dg0dp0 T p1 p0 p2 * (fa - mu * ca) + dg0dp1 T p2 p1 p0 * (fb - mu * cb),
           dg0dp1 T p0 p2 p1 * (fl - mu * cl) + dg0dp1 T p1 p2 p0 * (fa - mu * ca) + dg0dp0 T p2 p0 p1 * (fb - mu * cb)) p).
  { intros p Hp. unfold d, driving_force_cell. rewrite (W p2 p1 p0).
    assert (C : forall u v w, u * (fl - mu * cl) + v * (fa - mu * ca) + w * (fb - mu * cb) +
       (dg0dp0 T p1 p0 p2 * (fa - mu * ca) + dg0dp1 T p0 p1 p2 * (fl - mu * cl) + dg0dp1 T p2 p1 p0 * (fb - mu * cb)) +
       (dg0dp0 T p2 p0 p1 * (fb - mu * cb) + dg0dp1 T p1 p2 p0 * (fa - mu * ca) + dg0dp1 T p0 p2 p1 * (fl - mu * cl)) =
       (u + dg0dp1 T p0 p1 p2 + dg0dp1 T p0 p2 p1) * (fl - mu * cl) + (v + dg0dp0 T p1 p0 p2 + dg0dp1 T p1 p2 p0) * (fa - mu * ca)
       + (w + dg0dp1 T p2 p1 p0 + dg0dp0 T p2 p0 p1) * (fb - mu * cb)) by (intros; ring).
    rewrite C. replace (dg0dp0 T p0 p1 p2 + dg0dp1 T p0 p1 p2 + dg0dp1 T p0 p2 p1) with 0 by lra.
    replace (dg0dp1 T p1 p0 p2 + dg0dp0 T p1 p0 p2 + dg0dp1 T p1 p2 p0) with 0 by lra.
    replace (dg0dp1 T p2 p0 p1 + dg0dp1 T p2 p1 p0 + dg0dp0 T p2 p0 p1) with 0 by lra.
    unfold pick. destruct Hp as [-> | [-> | ->]]; cbn [Z.eqb Pos.eqb]; field. }
  rewrite !E by auto. unfold pick. cbn [Z.eqb Pos.eqb]. split.
  - transitivity ((dg0dp0 T p0 p1 p2 + dg0dp1 T p0 p1 p2 + dg0dp1 T p0 p2 p1) * (fl - mu * cl) +
       (dg0dp0 T p1 p0 p2 + dg0dp1 T p1 p0 p2 + dg0dp1 T p1 p2 p0) * (fa - mu * ca) +
       (dg0dp0 T p2 p0 p1 + dg0dp1 T p2 p0 p1 + dg0dp1 T p2 p1 p0) * (fb - mu * cb)); [ring | rewrite S0, S1, S2; ring].
  - intros v0 v1 v2 V.
    pose proof (proj2 (tilt_gradient T _ _ _ H) v0 v1 v2 V) as D0.
    pose proof (proj2 (tilt_gradient T _ _ _ Ha) v1 v0 v2 ltac:(lra)) as D1.
    pose proof (proj2 (tilt_gradient T _ _ _ Hb) v2 v0 v1 ltac:(lra)) as D2.
    match goal with |- derivable_pt_lim _ _ ?l => replace l with
      ((dg0dp0 T p0 p1 p2 * v0 + dg0dp1 T p0 p1 p2 * v1 + dg0dp1 T p0 p2 p1 * v2) * (fl - mu * cl) +
       (dg0dp0 T p1 p0 p2 * v1 + dg0dp1 T p1 p0 p2 * v0 + dg0dp1 T p1 p2 p0 * v2) * (fa - mu * ca) +
       (dg0dp0 T p2 p0 p1 * v2 + dg0dp1 T p2 p0 p1 * v0 + dg0dp1 T p2 p1 p0 * v1) * (fb - mu * cb)) by ring end.
    assert (M : forall (f : R -> R) x l c, derivable_pt_lim f x l -> derivable_pt_lim (fun t => f t * c) x (l * c)).
    { intros f x l c Df. pose proof (derivable_pt_lim_mult f (fct_cte c) x l 0 Df (derivable_pt_lim_const c x)) as K.
      unfold fct_cte in K. replace (l * c + f x * 0) with (l * c) in K by ring. exact K. }
    apply (derivable_pt_lim_plus (fun t => g0 T (p0 + t * v0) (p1 + t * v1) (p2 + t * v2) * (fl - mu * cl) + g0 T (p1 + t * v1) (p0 + t * v0) (p2 + t * v2) * (fa - mu * ca))
      (fun t => g0 T (p2 + t * v2) (p0 + t * v0) (p1 + t * v1) * (fb - mu * cb))).
    + apply (derivable_pt_lim_plus (fun t => g0 T (p0 + t * v0) (p1 + t * v1) (p2 + t * v2) * (fl - mu * cl)) (fun t => g0 T (p1 + t * v1) (p0 + t * v0) (p2 + t * v2) * (fa - mu * ca))).
      * apply (M (fun t => g0 T (p0 + t * v0) (p1 + t * v1) (p2 + t * v2))). exact D0.
      * apply (M (fun t => g0 T (p1 + t * v1) (p0 + t * v0) (p2 + t * v2))). exact D1.
    + apply (M (fun t => g0 T (p2 + t * v2) (p0 + t * v0) (p1 + t * v1))). exact D2.
Qed.

Lemma raw_split : forall dx0 dx1 f0 f1 ws (phi : arr3) i j k, dx0 <> 0 -> dx1 <> 0 -> (1 <= k <= 3)%Z ->
  mean_free (raw_value dx0 dx1 f0 f1 ws phi i j) k =
  mean_free (fun p => diverg dx0 dx1 (fun i j => f0 i j p) (fun i j => f1 i j p) i j) k
  - ws * pick (deriv_triple_well_func (phi i j 1%Z) (phi i j 2%Z) (phi i j 3%Z),
               deriv_triple_well_func (phi i j 2%Z) (phi i j 3%Z) (phi i j 1%Z),
               deriv_triple_well_func (phi i j 3%Z) (phi i j 1%Z) (phi i j 2%Z)) k.
Proof.
  intros dx0 dx1 f0 f1 ws phi i j k H0 H1 Hk. unfold mean_free, raw_value, diverg, deriv_triple_well_func.
  destruct (three k Hk) as [-> | [-> | ->]]; cbn [pick Z.eqb Pos.eqb];
    change ((1 mod 3 + 1)%Z) with 2%Z; change (((1 + 1) mod 3 + 1)%Z) with 3%Z; change ((2 mod 3 + 1)%Z) with 3%Z;
    change (((2 + 1) mod 3 + 1)%Z) with 1%Z; change ((3 mod 3 + 1)%Z) with 1%Z; change (((3 + 1) mod 3 + 1)%Z) with 2%Z;
    field; auto.
Qed.

Lemma rhs_gradient : forall T lo0 hi0 lo1 hi1 dx0 dx1 f0 f1 ws (phi : arr3) c mob rhs i j, dx0 <> 0 -> dx1 <> 0 ->
  in_box lo0 hi0 lo1 hi1 i j -> on_simplex (phi i j 1%Z) (phi i j 2%Z) (phi i j 3%Z) ->
  exists d : Z -> R,
    constrained_gradient
      (phase_energy T ws (ch_fl c i j - ch_mu c i j * ch_cl c i j) (ch_fa c i j - ch_mu c i j * ch_ca c i j) (ch_fb c i j - ch_mu c i j * ch_cb c i j))
      (phi i j 1%Z) (phi i j 2%Z) (phi i j 3%Z) (d 1%Z) (d 2%Z) (d 3%Z) /\
    forall k, (1 <= k <= 3)%Z -> evaluate_rhs T lo0 hi0 lo1 hi1 dx0 dx1 f0 f1 ws phi (Some c) mob rhs i j k =
      mob i j * (mean_free (fun p => diverg dx0 dx1 (fun i j => f0 i j p) (fun i j => f1 i j p) i j) k - d k).
Proof.
  intros T lo0 hi0 lo1 hi1 dx0 dx1 f0 f1 ws phi c mob rhs i j H0 H1 H S.
  exists (fun k => ws * pick (deriv_triple_well_func (phi i j 1%Z) (phi i j 2%Z) (phi i j 3%Z),
               deriv_triple_well_func (phi i j 2%Z) (phi i j 3%Z) (phi i j 1%Z),
               deriv_triple_well_func (phi i j 3%Z) (phi i j 1%Z) (phi i j 2%Z)) k + pick (dfc T phi c i j) k). split.
  - unfold phase_energy.
    apply (grad_scal_plus triple_well (fun p0 p1 p2 => _ + _ + _)); [apply well_gradient |].
    apply (tilted_gradient T _ _ _ _ _ _ _ _ _ _ S).
  - intros k Hk. rewrite rhs_value, raw_split by auto. cbn [df_opt]. ring.
Qed.
Lemma rhs_gradient_nochem : forall T lo0 hi0 lo1 hi1 dx0 dx1 f0 f1 ws (phi : arr3) mob rhs i j, dx0 <> 0 -> dx1 <> 0 ->
  in_box lo0 hi0 lo1 hi1 i j ->
  exists d : Z -> R,
    constrained_gradient triple_well (phi i j 1%Z) (phi i j 2%Z) (phi i j 3%Z) (d 1%Z) (d 2%Z) (d 3%Z) /\
    forall k, (1 <= k <= 3)%Z -> evaluate_rhs T lo0 hi0 lo1 hi1 dx0 dx1 f0 f1 ws phi None mob rhs i j k =
      mob i j * (mean_free (fun p => diverg dx0 dx1 (fun i j => f0 i j p) (fun i j => f1 i j p) i j) k - ws * d k).
Proof.
  intros T lo0 hi0 lo1 hi1 dx0 dx1 f0 f1 ws phi mob rhs i j H0 H1 H.
  exists (fun k => pick (deriv_triple_well_func (phi i j 1%Z) (phi i j 2%Z) (phi i j 3%Z),
               deriv_triple_well_func (phi i j 2%Z) (phi i j 3%Z) (phi i j 1%Z),
               deriv_triple_well_func (phi i j 3%Z) (phi i j 1%Z) (phi i j 2%Z)) k). split.
  - apply well_gradient.
  - intros k Hk. rewrite rhs_value, raw_split by auto. cbn [df_opt]. ring.
Qed.

(** ** an absent phase *)
Lemma fp_absent : forall x y, x + y = 1 -> 0 <= x -> 0 <= y ->
  fp_dg0dp0 0 x y = 0 /\ fp_dg0dp1 x 0 y = 0.
Proof.
  intros x y H Hx Hy. split.
  - unfold fp_dg0dp0. dlt. 
  - rewrite fp_d1, fp_d0 by lra. ring.
Qed.
Lemma fp_absent' : forall x y, 0 <= x -> x + y = 1 -> 0 <= y -> forall z, z = 0 ->
  fp_dg0dp0 z x y = 0 /\ fp_dg0dp0 z y x = 0 /\ fp_dg0dp1 x z y = 0 /\ fp_dg0dp1 y z x = 0.
Proof.
  intros x y Hx H Hy z ->. pose proof (fp_absent x y H Hx Hy) as [A B]. pose proof (fp_absent y x ltac:(lra) Hy Hx) as [C D]. auto.
Qed.
Lemma df_absent : forall phi c i j k, on_simplex (phi i j 1%Z) (phi i j 2%Z) (phi i j 3%Z) -> (1 <= k <= 3)%Z -> phi i j k = 0 ->
  pick (dfc FolchPlapp phi c i j) k = 0.
Proof.
  intros phi c i j k H Hk Z0. pose proof (proj1 (tilted_gradient FolchPlapp _ _ _ (ch_fl c i j) (ch_fa c i j) (ch_fb c i j) (ch_cl c i j) (ch_ca c i j) (ch_cb c i j) (ch_mu c i j) H)) as _.
  pose proof (simplex_range _ _ _ H) as (R0 & R1 & R2).
  set (x := phi i j 1%Z) in *. set (y := phi i j 2%Z) in *. set (z := phi i j 3%Z) in *.
  assert (S0 := proj1 (tilt_gradient FolchPlapp _ _ _ H)).
  assert (S1 := proj1 (tilt_gradient FolchPlapp y x z ltac:(unfold on_simplex in *; lra))).
  assert (S2 := proj1 (tilt_gradient FolchPlapp z x y ltac:(unfold on_simplex in *; lra))).
  cbn [dg0dp0 dg0dp1] in S0, S1, S2. destruct H as (S & P0 & P1 & P2).
  assert (W : forall x y z, fp_dg0dp0 x y z = fp_dg0dp0 x z y) by (intros; unfold fp_dg0dp0; dlt).
  unfold dfc, driving_force_cell. fold x y z. cbn [dg0dp0 dg0dp1]. rewrite (W z y x).
  assert (C : forall u v w wl wa wb, u * wl + v * wa + w * wb +
       (fp_dg0dp0 y x z * wa + fp_dg0dp1 x y z * wl + fp_dg0dp1 z y x * wb) +
       (fp_dg0dp0 z x y * wb + fp_dg0dp1 y z x * wa + fp_dg0dp1 x z y * wl) =
       (u + fp_dg0dp1 x y z + fp_dg0dp1 x z y) * wl + (fp_dg0dp0 y x z + v + fp_dg0dp1 y z x) * wa
       + (fp_dg0dp0 z x y + w + fp_dg0dp1 z y x) * wb) by (intros; ring).
  rewrite C, S0, S1, S2.
  destruct (three k Hk) as [-> | [-> | ->]]; cbn [pick Z.eqb Pos.eqb].
  - assert (E : x = 0) by exact Z0. destruct (fp_absent' y z P1 ltac:(lra) P2 x E) as (A & B & D & F). rewrite A, D, F. field.
  - assert (E : y = 0) by exact Z0. destruct (fp_absent' x z P0 ltac:(lra) P2 y E) as (A & B & D & F). rewrite A, D, F. field.
  - assert (E : z = 0) by exact Z0. destruct (fp_absent' x y P0 ltac:(lra) P1 z E) as (A & B & D & F). rewrite A, D, F. field.
Qed.
Lemma well_absent : forall x y, x + y = 1 -> deriv_triple_well_func 0 x y = 0.
Proof. intros x y H. unfold deriv_triple_well_func. replace y with (1 - x) by lra. field. Qed.
Lemma absent_phase : forall lo0 hi0 lo1 hi1 dx0 dx1 f0 f1 ws (phi : arr3) c mob rhs i j k, dx0 <> 0 -> dx1 <> 0 ->
  in_box lo0 hi0 lo1 hi1 i j -> on_simplex (phi i j 1%Z) (phi i j 2%Z) (phi i j 3%Z) -> (1 <= k <= 3)%Z -> phi i j k = 0 ->
  evaluate_rhs FolchPlapp lo0 hi0 lo1 hi1 dx0 dx1 f0 f1 ws phi c mob rhs i j k =
  mob i j * mean_free (fun p => diverg dx0 dx1 (fun i j => f0 i j p) (fun i j => f1 i j p) i j) k.
Proof.
  intros lo0 hi0 lo1 hi1 dx0 dx1 f0 f1 ws phi c mob rhs i j k H0 H1 H S Hk Z0. rewrite rhs_value, raw_split by auto.
  replace (df_opt FolchPlapp phi c i j k) with 0 by (destruct c; cbn [df_opt]; [rewrite df_absent; auto | reflexivity]).
  assert (E : pick (deriv_triple_well_func (phi i j 1%Z) (phi i j 2%Z) (phi i j 3%Z),
               deriv_triple_well_func (phi i j 2%Z) (phi i j 3%Z) (phi i j 1%Z),
               deriv_triple_well_func (phi i j 3%Z) (phi i j 1%Z) (phi i j 2%Z)) k = 0).
  { destruct S as [S _]. destruct (three k Hk) as [-> | [-> | ->]]; cbn [pick Z.eqb Pos.eqb]; rewrite Z0 in *; apply well_absent; lra. }
  rewrite E. ring.
Qed.
(** Moelans' functions: a phase that is not there gets a driving force *)
Lemma moelans_creates : exists (phi : arr3) c,
  (forall i j, on_simplex (phi i j 1%Z) (phi i j 2%Z) (phi i j 3%Z) /\ phi i j 3%Z = 0) /\
  0 < evaluate_rhs Moelans 0%Z 0%Z 0%Z 0%Z 1 1 (fun _ _ _ => 0) (fun _ _ _ => 0) 1 phi (Some c) (fun _ _ => 1) (fun _ _ _ => 0) 0%Z 0%Z 3%Z.
Proof.
  exists (fun _ _ k => if (k =? 1)%Z then 1 / 4 else if (k =? 2)%Z then 3 / 4 else 0).
  exists (mkChem2 (fun _ _ => 0) (fun _ _ => -1) (fun _ _ => 0) (fun _ _ => 0) (fun _ _ => 0) (fun _ _ => 0) (fun _ _ => 0)).
  split; [intros i j; cbn; unfold on_simplex; repeat split; lra |].
  rewrite rhs_value, raw_split by (try lra; try lia; split; lia).
  cbn [Z.eqb Pos.eqb pick]. rewrite well_absent by lra. unfold mean_free, diverg.
  cbn [df_opt]. unfold dfc, driving_force_cell. cbn [Z.eqb Pos.eqb pick ch_fl ch_fa ch_fb ch_cl ch_ca ch_cb ch_mu dg0dp0 dg0dp1].
  unfold mo_dg0dp0, mo_dg0dp1.
  destruct (Rlt_dec (1 / 4) 0); [lra |]. destruct (Rlt_dec (3 / 4) 0); [lra |]. destruct (Rlt_dec 0 0); [lra |].
  match goal with |- 0 < ?x => assert (E : x = 4 / 25) by field end. rewrite E. lra.
Qed.

(** ** 3D kernel *)
Definition raw_value3 (dx0 dx1 dx2 : R) (f0 f1 f2 : arr4) (ws : R) (phi : arr4) (i j k p : Z) : R :=
  (f0 (i + 1)%Z j k p - f0 i j k p) * (1 / dx0) + (f1 i (j + 1)%Z k p - f1 i j k p) * (1 / dx1) + (f2 i j (k + 1)%Z p - f2 i j k p) * (1 / dx2)
  - ws * deriv_triple_well_func (phi i j k p) (phi i j k (p mod 3 + 1)%Z) (phi i j k ((p + 1) mod 3 + 1)%Z).
Lemma kernel3_ok : forall lo0 hi0 lo1 hi1 lo2 hi2 dx0 dx1 dx2 f0 f1 f2 ws phi rhs a b c p,
  in_box3 lo0 hi0 lo1 hi1 lo2 hi2 a b c -> (1 <= p <= 3)%Z ->
  computerhsthreephases3 lo0 hi0 lo1 hi1 lo2 hi2 dx0 dx1 dx2 f0 f1 f2 ws phi rhs a b c p =
  mean_free (raw_value3 dx0 dx1 dx2 f0 f1 f2 ws phi a b c) p.
Proof.
  intros lo0 hi0 lo1 hi1 lo2 hi2 dx0 dx1 dx2 f0 f1 f2 ws phi rhs a b c p H Hp. unfold computerhsthreephases3. cbv zeta.
  match goal with |- do_cells3 _ _ _ _ _ _ ?B ?r _ _ _ _ = _ => set (raw := r);
    destruct (cells3_once arr4 (same4 a b c) lo0 hi0 lo1 hi1 lo2 hi2 a b c B raw) as (s0 & C & D) end.
  - apply same4_refl.
  - apply same4_trans.
  - exact H.
  - intros i j k s _ N. apply vec_loop4_other. lia.
  - unfold same4 in D. rewrite <- D. clear D.
    rewrite (vec_loop4 3 a b c (fun _ x => x - do_loop 1 3 (fun jp s => s + s0 a b c jp) 0 * (1 / 3))).
    destruct (inb_spec 1 3 p); [| lia]. rewrite loop_sum, sum3, <- !(C _).
    assert (E : forall q, (1 <= q <= 3)%Z -> raw a b c q = raw_value3 dx0 dx1 dx2 f0 f1 f2 ws phi a b c q).
    { intros q Hq. unfold raw.
      match goal with |- do_loop 1 3 ?B _ _ _ _ _ = _ =>
        destruct (loop_once arr4 (fun s s' => s a b c q = s' a b c q) 1 3 q B rhs) as (s1 & F & G) end.
      - reflexivity.
      - intros x y z Hx Hy. congruence.
      - exact Hq.
      - intros ip s _ N. apply (cells3_never arr4 (fun s s' => s a b c q = s' a b c q)).
        + reflexivity.
        + intros x y z Hx Hy. congruence.
        + intros i j k s' _. rewrite !upd4_other; [reflexivity | lia | lia].
      - etransitivity; [symmetry; exact G |]. cbv beta. clear G.
        match goal with |- do_cells3 _ _ _ _ _ _ ?B _ _ _ _ _ = _ =>
          destruct (cells3_once arr4 (fun s s' => s a b c q = s' a b c q) lo0 hi0 lo1 hi1 lo2 hi2 a b c B s1) as (s2 & F2 & G2) end.
        + reflexivity.
        + intros x y z Hx Hy. congruence.
        + exact H.
        + intros i j k s' _ N. rewrite !upd4_other; [reflexivity | lia | lia].
        + etransitivity; [symmetry; exact G2 |]. cbv beta. rewrite !upd4_same. unfold raw_value3. ring. }
    rewrite !E by lia. unfold mean_free. field.
Qed.
Lemma kernel3_sum_zero : forall lo0 hi0 lo1 hi1 lo2 hi2 dx0 dx1 dx2 f0 f1 f2 ws phi rhs i j k,
  in_box3 lo0 hi0 lo1 hi1 lo2 hi2 i j k ->
  sumZ 1 3 (computerhsthreephases3 lo0 hi0 lo1 hi1 lo2 hi2 dx0 dx1 dx2 f0 f1 f2 ws phi rhs i j k) = 0.
Proof. intros. rewrite sum3, !kernel3_ok by (auto; lia). unfold mean_free. field. Qed.
Lemma kernel3_gradient : forall lo0 hi0 lo1 hi1 lo2 hi2 dx0 dx1 dx2 f0 f1 f2 ws (phi : arr4) rhs i j k, dx0 <> 0 -> dx1 <> 0 -> dx2 <> 0 ->
  in_box3 lo0 hi0 lo1 hi1 lo2 hi2 i j k ->
  exists d : Z -> R,
    constrained_gradient triple_well (phi i j k 1%Z) (phi i j k 2%Z) (phi i j k 3%Z) (d 1%Z) (d 2%Z) (d 3%Z) /\
    forall p, (1 <= p <= 3)%Z -> computerhsthreephases3 lo0 hi0 lo1 hi1 lo2 hi2 dx0 dx1 dx2 f0 f1 f2 ws phi rhs i j k p =
      mean_free (fun p => diverg3 dx0 dx1 dx2 (fun i j k => f0 i j k p) (fun i j k => f1 i j k p) (fun i j k => f2 i j k p) i j k) p - ws * d p.
Proof.
  intros lo0 hi0 lo1 hi1 lo2 hi2 dx0 dx1 dx2 f0 f1 f2 ws phi rhs i j k H0 H1 H2 H.
  exists (fun q => pick (deriv_triple_well_func (phi i j k 1%Z) (phi i j k 2%Z) (phi i j k 3%Z),
               deriv_triple_well_func (phi i j k 2%Z) (phi i j k 3%Z) (phi i j k 1%Z),
               deriv_triple_well_func (phi i j k 3%Z) (phi i j k 1%Z) (phi i j k 2%Z)) q). split.
  - apply well_gradient.
  - intros q Hq. rewrite kernel3_ok by auto. unfold mean_free, raw_value3, diverg3, deriv_triple_well_func.
    destruct (three q Hq) as [-> | [-> | ->]]; cbn [pick Z.eqb Pos.eqb];
    change ((1 mod 3 + 1)%Z) with 2%Z; change (((1 + 1) mod 3 + 1)%Z) with 3%Z; change ((2 mod 3 + 1)%Z) with 3%Z;
    change (((2 + 1) mod 3 + 1)%Z) with 1%Z; change ((3 mod 3 + 1)%Z) with 1%Z; change (((3 + 1) mod 3 + 1)%Z) with 2%Z;
    field; auto.
Qed.

(** ** projection *)
Definition proj_corr (n : Z) (v : Z -> R) : R := - ((sumZ 1 n v - 1) * (1 / IZR n)).
Definition proj_err (n : Z) (e : Z -> R) (m : Z) : R := e m - sumZ 1 n e * (1 / IZR n).
Definition same33 (a b : Z) (s s' : arr3 * arr3) : Prop := same3 a b (fst s) (fst s') /\ same3 a b (snd s) (snd s').
Lemma same33_refl : forall a b s, same33 a b s s.
Proof. intros. split; apply same3_refl. Qed.
Lemma same33_trans : forall a b x y z, same33 a b x y -> same33 a b y z -> same33 a b x z.
Proof. intros a b x y z [A B] [C D]. split; eapply same3_trans; eauto. Qed.

Lemma project_value : forall lo0 hi0 lo1 hi1 n phi corr err a b m, in_box lo0 hi0 lo1 hi1 a b -> (1 <= m <= n)%Z ->
  fst (projectphi lo0 hi0 lo1 hi1 n phi (corr, err)) a b m = proj_corr n (phi a b) /\
  snd (projectphi lo0 hi0 lo1 hi1 n phi (corr, err)) a b m = proj_err n (err a b) m.
Proof.
  intros lo0 hi0 lo1 hi1 n phi corr err a b m H Hm. unfold projectphi.
  match goal with |- fst (do_cells _ _ _ _ ?B _) _ _ _ = _ /\ _ =>
    destruct (cells_once (arr3 * arr3) (same33 a b) lo0 hi0 lo1 hi1 a b B (corr, err)) as (s0 & C & D) end.
  - apply same33_refl.
  - apply same33_trans.
  - exact H.
  - intros i j [c e] _ N. split; cbn [fst snd].
    + eapply same3_trans; apply vec_loop3_other; lia.
    + apply vec_loop3_other; lia.
  - destruct D as [D1 D2]. unfold same3 in D1, D2. rewrite <- D1, <- D2. clear D1 D2. destruct s0 as [c e].
    destruct C as [_ C]. cbn [fst snd] in *. split.
    + rewrite (vec_loop3 n a b (fun m x => x - phi a b m)).
      rewrite (vec_loop3 n a b (fun m _ => phi a b m - (do_loop 1 n (fun m f => f + phi a b m) 0 - 1) * (1 / IZR n))).
      destruct (inb_spec 1 n m); [| lia]. rewrite loop_sum. unfold proj_corr.
      change (sumZ 1 n (fun i => phi a b i)) with (sumZ 1 n (phi a b)). ring.
    + rewrite (vec_loop3 n a b (fun m _ => e a b m - do_loop 1 n (fun m f => f + e a b m) 0 * (1 / IZR n))).
      destruct (inb_spec 1 n m); [| lia]. rewrite loop_sum. unfold proj_err.
      rewrite (sumZ_ext 1 n (e a b) (err a b)) by (intros; symmetry; apply C). rewrite <- (C m). ring.
Qed.
Lemma project_outside : forall lo0 hi0 lo1 hi1 n phi s a b, ~ in_box lo0 hi0 lo1 hi1 a b ->
  same33 a b s (projectphi lo0 hi0 lo1 hi1 n phi s).
Proof.
  intros lo0 hi0 lo1 hi1 n phi s a b H. unfold projectphi. apply cells_never; [apply same33_refl | apply same33_trans |].
  intros i j [c e] Hij. assert (N : (a <> i \/ b <> j)%Z) by (unfold in_box in *; lia). split; cbn [fst snd].
  - eapply same3_trans; apply vec_loop3_other; lia.
  - apply vec_loop3_other; lia.
Qed.
Lemma corr_projects : forall n v c, (1 <= n)%Z -> (forall m, (1 <= m <= n)%Z -> c m = proj_corr n v) -> projects_to_one n v c.
Proof.
  intros n v c Hn H. assert (N : IZR n <> 0) by (apply not_0_IZR; lia). repeat split.
  - rewrite (sumZ_ext 1 n _ (fun m => v m + (fun _ => proj_corr n v) m)) by (intros m Hm; rewrite H by auto; reflexivity).
    rewrite sumZ_plus, sumZ_const by lia. unfold proj_corr. replace (n - 1 + 1)%Z with n by lia.
    change (sumZ 1 n (fun i => v i)) with (sumZ 1 n v). field. auto.
  - intros m m' Hm Hm'. rewrite !H by auto. reflexivity.
  - intros E m Hm. rewrite H by auto. unfold proj_corr. rewrite E. ring.
Qed.
Lemma err_projects : forall n e e', (1 <= n)%Z -> (forall m, (1 <= m <= n)%Z -> e' m = proj_err n e m) -> projects_to_zero n e e'.
Proof.
  intros n e e' Hn H. assert (N : IZR n <> 0) by (apply not_0_IZR; lia). repeat split.
  - rewrite (sumZ_ext 1 n _ (fun m => e m - (fun _ => sumZ 1 n e * (1 / IZR n)) m)) by (intros m Hm; rewrite H by auto; reflexivity).
    rewrite sumZ_minus, sumZ_const by lia. replace (n - 1 + 1)%Z with n by lia.
    change (sumZ 1 n (fun i => e i)) with (sumZ 1 n e). field. auto.
  - intros m m' Hm Hm'. rewrite !H by auto. unfold proj_err. ring.
  - intros E m Hm. rewrite H by auto. unfold proj_err. rewrite E. ring.
Qed.
Lemma projection_ok : forall lo0 hi0 lo1 hi1 n phi corr err i j, (1 <= n)%Z ->
  let (c, e) := projectphi lo0 hi0 lo1 hi1 n phi (corr, err) in
  (in_box lo0 hi0 lo1 hi1 i j -> projects_to_one n (phi i j) (c i j) /\ projects_to_zero n (err i j) (e i j)) /\
  (~ in_box lo0 hi0 lo1 hi1 i j -> forall m, c i j m = corr i j m /\ e i j m = err i j m).
Proof.
  intros lo0 hi0 lo1 hi1 n phi corr err i j Hn.
  pose proof (fun m => project_value lo0 hi0 lo1 hi1 n phi corr err i j m) as V.
  pose proof (project_outside lo0 hi0 lo1 hi1 n phi (corr, err) i j) as W.
  destruct (projectphi lo0 hi0 lo1 hi1 n phi (corr, err)) as [c e]. cbn [fst snd] in V. split.
  - intro H. split; [apply corr_projects | apply err_projects]; auto; intros m Hm; apply V; auto.
  - intros H m. destruct (W H) as [A B]. cbn [fst snd] in *. split; symmetry; [apply A | apply B].
Qed.

(** 3D *)
Definition same44 (a b c : Z) (s s' : arr4 * arr4) : Prop := same4 a b c (fst s) (fst s') /\ same4 a b c (snd s) (snd s').
Lemma same44_refl : forall a b c s, same44 a b c s s.
Proof. intros. split; apply same4_refl. Qed.
Lemma same44_trans : forall a b c x y z, same44 a b c x y -> same44 a b c y z -> same44 a b c x z.
Proof. intros a b c x y z [A B] [C D]. split; eapply same4_trans; eauto. Qed.
Lemma project3_value : forall lo0 hi0 lo1 hi1 lo2 hi2 n phi corr err a b d m, in_box3 lo0 hi0 lo1 hi1 lo2 hi2 a b d -> (1 <= m <= n)%Z ->
  fst (projectphi3 lo0 hi0 lo1 hi1 lo2 hi2 n phi (corr, err)) a b d m = proj_corr n (phi a b d) /\
  snd (projectphi3 lo0 hi0 lo1 hi1 lo2 hi2 n phi (corr, err)) a b d m = proj_err n (err a b d) m.
Proof.
  intros lo0 hi0 lo1 hi1 lo2 hi2 n phi corr err a b d m H Hm. unfold projectphi3.
  match goal with |- fst (do_cells3 _ _ _ _ _ _ ?B _) _ _ _ _ = _ /\ _ =>
    destruct (cells3_once (arr4 * arr4) (same44 a b d) lo0 hi0 lo1 hi1 lo2 hi2 a b d B (corr, err)) as (s0 & C & D) end.
  - apply same44_refl.
  - apply same44_trans.
  - exact H.
  - intros i j k [c e] _ N. split; cbn [fst snd].
    + eapply same4_trans; apply vec_loop4_other; lia.
    + apply vec_loop4_other; lia.
  - destruct D as [D1 D2]. unfold same4 in D1, D2. rewrite <- D1, <- D2. clear D1 D2. destruct s0 as [c e].
    destruct C as [_ C]. cbn [fst snd] in *. split.
    + rewrite (vec_loop4 n a b d (fun m x => x - phi a b d m)).
      rewrite (vec_loop4 n a b d (fun m _ => phi a b d m - (do_loop 1 n (fun m f => f + phi a b d m) 0 - 1) * (1 / IZR n))).
      destruct (inb_spec 1 n m); [| lia]. rewrite loop_sum. unfold proj_corr.
      change (sumZ 1 n (fun i => phi a b d i)) with (sumZ 1 n (phi a b d)). ring.
    + rewrite (vec_loop4 n a b d (fun m _ => e a b d m - do_loop 1 n (fun m f => f + e a b d m) 0 * (1 / IZR n))).
      destruct (inb_spec 1 n m); [| lia]. rewrite loop_sum. unfold proj_err.
      rewrite (sumZ_ext 1 n (e a b d) (err a b d)) by (intros; symmetry; apply C). rewrite <- (C m). ring.
Qed.
Lemma project3_outside : forall lo0 hi0 lo1 hi1 lo2 hi2 n phi s a b d, ~ in_box3 lo0 hi0 lo1 hi1 lo2 hi2 a b d ->
  same44 a b d s (projectphi3 lo0 hi0 lo1 hi1 lo2 hi2 n phi s).
Proof.
  intros lo0 hi0 lo1 hi1 lo2 hi2 n phi s a b d H. unfold projectphi3. apply cells3_never; [apply same44_refl | apply same44_trans |].
  intros i j k [c e] Hij. assert (N : (a <> i \/ b <> j \/ d <> k)%Z) by (unfold in_box3 in *; lia). split; cbn [fst snd].
  - eapply same4_trans; apply vec_loop4_other; lia.
  - apply vec_loop4_other; lia.
Qed.
Lemma projection3_ok : forall lo0 hi0 lo1 hi1 lo2 hi2 n phi corr err i j k, (1 <= n)%Z ->
  let (c, e) := projectphi3 lo0 hi0 lo1 hi1 lo2 hi2 n phi (corr, err) in
  (in_box3 lo0 hi0 lo1 hi1 lo2 hi2 i j k -> projects_to_one n (phi i j k) (c i j k) /\ projects_to_zero n (err i j k) (e i j k)) /\
  (~ in_box3 lo0 hi0 lo1 hi1 lo2 hi2 i j k -> forall m, c i j k m = corr i j k m /\ e i j k m = err i j k m).
Proof.
  intros lo0 hi0 lo1 hi1 lo2 hi2 n phi corr err i j k Hn.
  pose proof (fun m => project3_value lo0 hi0 lo1 hi1 lo2 hi2 n phi corr err i j k m) as V.
  pose proof (project3_outside lo0 hi0 lo1 hi1 lo2 hi2 n phi (corr, err) i j k) as W.
  destruct (projectphi3 lo0 hi0 lo1 hi1 lo2 hi2 n phi (corr, err)) as [c e]. cbn [fst snd] in V. split.
  - intro H. split; [apply corr_projects | apply err_projects]; auto; intros m Hm; apply V; auto.
  - intros H m. destruct (W H) as [A B]. cbn [fst snd] in *. split; symmetry; [apply A | apply B].
Qed.

(** hierarchy *)
Lemma projected_level0 : forall level0 finer p i j,
  In p (hd [] (apply_projection (level0 :: finer))) -> in_box (pp_lo0 p) (pp_hi0 p) (pp_lo1 p) (pp_hi1 p) i j ->
  projects_to_one 3 (pp_phi p i j) (pp_corr p i j).
Proof.
  intros level0 finer p i j H B. unfold apply_projection in H. cbn [map project_phases hd] in H.
  rewrite map_map in H. apply in_map_iff in H. destruct H as (q & <- & _). unfold project_patch, zero_corr in *.
  cbn [pp_lo0 pp_hi0 pp_lo1 pp_hi1 pp_phi pp_corr pp_err] in *.
  pose proof (projection_ok (pp_lo0 q) (pp_hi0 q) (pp_lo1 q) (pp_hi1 q) 3 (pp_phi q) (fun _ _ _ => 0) (pp_err q) i j ltac:(lia)) as P.
  destruct (projectphi _ _ _ _ _ _ _) as [c e]. cbn [pp_lo0 pp_hi0 pp_lo1 pp_hi1 pp_phi pp_corr pp_err] in *.
  apply P. exact B.
Qed.
Lemma keeps_phi : forall levels, map (map pp_phi) (apply_projection levels) = map (map pp_phi) levels.
Proof.
  intros [| l0 fs]; [reflexivity |]. unfold apply_projection. cbn [map project_phases]. rewrite !map_map. f_equal.
  - apply map_ext. intro q. unfold project_patch, zero_corr. cbn. destruct (projectphi _ _ _ _ _ _ _). reflexivity.
  - apply map_ext. intro l. rewrite map_map. apply map_ext. intro q. reflexivity.
Qed.
Lemma finer_not_projected : exists levels p i j,
  In p (nth 1 (apply_projection levels) []) /\ in_box (pp_lo0 p) (pp_hi0 p) (pp_lo1 p) (pp_hi1 p) i j /\
  sumZ 1 3 (fun m => pp_phi p i j m + pp_corr p i j m) <> 1.
Proof.
  exists [[mkPP 0 3 0 3 (fun _ _ _ => 1) (fun _ _ _ => 0) (fun _ _ _ => 0)];
          [mkPP 2 5 2 5 (fun _ _ _ => 1) (fun _ _ _ => 0) (fun _ _ _ => 0)]].
  exists (mkPP 2 5 2 5 (fun _ _ _ => 1) (fun _ _ _ => 0) (fun _ _ _ => 0)), 3%Z, 4%Z. split.
  - cbn. left. reflexivity.
  - split; [split; cbn; lia |]. rewrite sum3. cbn. lra.
Qed.
