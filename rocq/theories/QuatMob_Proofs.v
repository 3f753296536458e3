From Coq Require Import Reals ZArith List Bool String Ascii Lra Lia FunctionalExtensionality.
From Coquelicot Require Import Coquelicot.
From Verif Require Import Grid_Model Grid_Spec Grid_Proofs Functions_Model Functions_Spec Functions_Proofs Quat_Model
  Noise_Model Noise_Spec Noise_Proofs QuatFlow_Model QuatFlow_Proofs QuatMob_Model QuatMob_Spec.
Import ListNotations.
Open Scope R_scope.
Set Bullet Behavior "Strict Subproofs".

(** ** loops *)
Lemma cells3_some : forall S lo0 hi0 lo1 hi1 lo2 hi2 (body : Z -> Z -> Z -> S -> option S) (f : Z -> Z -> Z -> S -> S) s,
  (forall i j k s, in_box3 lo0 hi0 lo1 hi1 lo2 hi2 i j k -> body i j k s = Some (f i j k s)) ->
  do_cells3 lo0 hi0 lo1 hi1 lo2 hi2 (fun i j k os => match os with None => None | Some s => body i j k s end) (Some s) =
  Some (do_cells3 lo0 hi0 lo1 hi1 lo2 hi2 f s).
Proof.
  intros S lo0 hi0 lo1 hi1 lo2 hi2 body f s H. unfold do_cells3.
  assert (N : forall T lo hi (b : Z -> T -> option T), do_loop lo hi (fun i os => match os with None => None | Some s => b i s end) None = None).
  { intros T lo hi b. apply (do_loop_ind (option T) (fun _ s => s = None)); [reflexivity |]. intros i s0 _ ->. reflexivity. }
  rewrite (do_loop_ext _ lo2 hi2 _ (fun k os => match os with None => None | Some s => Some (do_loop lo1 hi1 (fun j => do_loop lo0 hi0 (fun i => f i j k)) s) end)).
  - apply oloop_some. reflexivity.
  - intros k os Hk. rewrite (do_loop_ext _ lo1 hi1 _ (fun j os => match os with None => None | Some s => Some (do_loop lo0 hi0 (fun i => f i j k) s) end)).
    + destruct os as [t |]; [apply oloop_some; reflexivity | apply (N S lo1 hi1 (fun j t => Some (do_loop lo0 hi0 (fun i => f i j k) t)))].
    + intros j os' Hj. destruct os' as [t |]; [apply oloop_some; intros i t' Hi; apply H; repeat split; lia | apply (N S lo0 hi0 (fun i t => body i j k t))].
Qed.
Lemma cells3_get : forall (S V : Type) (get : S -> V) lo0 hi0 lo1 hi1 lo2 hi2 (f : Z -> Z -> Z -> S -> S) a b c v s,
  (forall s, get (f a b c s) = v) ->
  (forall i j k s, in_box3 lo0 hi0 lo1 hi1 lo2 hi2 i j k -> (i <> a \/ j <> b \/ k <> c)%Z -> get (f i j k s) = get s) ->
  (in_box3 lo0 hi0 lo1 hi1 lo2 hi2 a b c -> get (do_cells3 lo0 hi0 lo1 hi1 lo2 hi2 f s) = v) /\
  (~ in_box3 lo0 hi0 lo1 hi1 lo2 hi2 a b c -> get (do_cells3 lo0 hi0 lo1 hi1 lo2 hi2 f s) = get s).
Proof.
  intros S V get lo0 hi0 lo1 hi1 lo2 hi2 f a b c v s Hv Ho. split; intro H.
  - destruct (cells3_once S (fun x y => get y = get x) lo0 hi0 lo1 hi1 lo2 hi2 a b c f s) as (s0 & _ & E); auto.
    + intros x y z E1 E2. congruence.
    + rewrite E. apply Hv.
  - apply (cells3_never S (fun x y => get y = get x)); auto.
    + intros x y z E1 E2. congruence.
    + intros i j k s0 Hi. apply Ho; auto. destruct (Z.eq_dec i a); destruct (Z.eq_dec j b); destruct (Z.eq_dec k c); subst; tauto.
Qed.
Lemma over_cells_ok : forall value b w gp phase old (F : R -> dbl), (forall x, value x = Some (F x)) ->
  (forall i j k, in_pbox w i j k -> in_pbox (ghost_box b gp) i j k) ->
  exists f, over_cells value b w gp phase old = Some f /\ holds_in w value phase old f.
Proof.
  intros value b w gp phase old F HF Hw. unfold over_cells.
  rewrite (cells3_some darr _ _ _ _ _ _ _ (fun i j k f => dupd f i j k (F (phase i j k)))).
  - eexists. split; [reflexivity |]. intros i j k.
    destruct (cells3_get darr dbl (fun f => f i j k) (Noise_Model.lo0 w) (Noise_Model.hi0 w) (Noise_Model.lo1 w) (Noise_Model.hi1 w) (Noise_Model.lo2 w) (Noise_Model.hi2 w)
      (fun i j k f => dupd f i j k (F (phase i j k))) i j k (F (phase i j k)) old) as (A & B).
    + intros s. unfold dupd. rewrite !Z.eqb_refl. reflexivity.
    + intros i' j' k' s _ N. unfold dupd. destruct (Z.eqb_spec i i'); destruct (Z.eqb_spec j j'); destruct (Z.eqb_spec k k'); cbn; auto; lia.
    + split; intro H; [rewrite (A H); apply HF | apply (B H)].
  - intros i j k s H. specialize (Hw i j k H). unfold in_array.
    assert (E : ((Noise_Model.lo0 (ghost_box b gp) <=? i) && (i <=? Noise_Model.hi0 (ghost_box b gp)) && (Noise_Model.lo1 (ghost_box b gp) <=? j) && (j <=? Noise_Model.hi1 (ghost_box b gp)) &&
      (Noise_Model.lo2 (ghost_box b gp) <=? k) && (k <=? Noise_Model.hi2 (ghost_box b gp)))%Z = true).
    { destruct Hw as (A & B & C). rewrite !andb_true_iff, !Z.leb_le. tauto. }
    rewrite E, HF. reflexivity.
Qed.

(** ** real functions *)
Definition clip (a x : R) : R := Rmax a (Rmin 1 x).
Lemma clip_mono a x y : x <= y -> clip a x <= clip a y.
Proof. intro H. unfold clip. apply Rle_max_compat_l. apply Rmin_glb; [apply Rmin_l |]. eapply Rle_trans; [apply Rmin_r | exact H]. Qed.
Lemma clip_range a x : a <= 1 -> a <= clip a x <= 1.
Proof. intro H. unfold clip. split; [apply Rmax_l | apply Rmax_lub; [exact H | apply Rmin_l]]. Qed.
Lemma clip_in a x : a <= x <= 1 -> clip a x = x.
Proof. intros [A B]. unfold clip. rewrite Rmin_right, Rmax_right; lra. Qed.
Lemma clip_low a x : x <= a -> a <= 1 -> clip a x = a.
Proof. intros A B. unfold clip. rewrite Rmin_right, Rmax_left; lra. Qed.
Lemma clip_high a x : 1 <= x -> a <= 1 -> clip a x = 1.
Proof. intros A B. unfold clip. rewrite Rmin_left, Rmax_right; lra. Qed.
Definition quintic (t : R) : R := t * t * t * (10 - 15 * t + 6 * t * t).
Lemma quintic_range t : 0 <= t <= 1 -> 0 <= quintic t <= 1.
Proof.
  intros [A B]. unfold quintic. split.
  - apply Rmult_le_pos; [repeat apply Rmult_le_pos; auto | nra].
  - assert (E : 1 - t * t * t * (10 - 15 * t + 6 * t * t) = (1 - t) * (1 - t) * (1 - t) * (1 + 3 * t + 6 * t * t)) by ring.
    assert (0 <= (1 - t) * (1 - t) * (1 - t) * (1 + 3 * t + 6 * t * t)); [| lra].
    apply Rmult_le_pos; [repeat apply Rmult_le_pos; lra | nra].
Qed.
Lemma quintic_mono x y : 0 <= x -> x <= y -> y <= 1 -> quintic x <= quintic y.
Proof.
  intros A B C. destruct (Req_dec x y) as [-> | N]; [lra |].
  destruct (MVT_cor2 quintic (fun t => 30 * t * t * (1 - t) * (1 - t)) x y) as (z & E & Hz); [lra | |].
  - intros c _. apply is_derive_Reals. unfold quintic. auto_derive; auto. ring.
  - assert (0 <= 30 * z * z * (1 - z) * (1 - z)); [| nra].
    repeat apply Rmult_le_pos; lra.
Qed.
Lemma tiny : 0 < / 10 ^ 6 <= 1.
Proof. split; [apply Rinv_0_lt_compat; lra |]. apply Rmult_le_reg_l with (10 ^ 6); [lra |]. rewrite Rinv_r; lra. Qed.

(** exponential *)
Definition expo (c t : R) : R := 1 - (1 - exp (c * t)) / (1 - exp c).
Lemma exp_ne c : c <> 0 -> 1 - exp c <> 0.
Proof. intros H E. apply H. apply exp_inv. rewrite exp_0. lra. Qed.
Lemma expo_0 c : c <> 0 -> expo c 0 = 1.
Proof. intro H. unfold expo. rewrite Rmult_0_r, exp_0. unfold Rdiv. ring. Qed.
Lemma expo_1 c : c <> 0 -> expo c 1 = 0.
Proof. intro H. unfold expo. rewrite Rmult_1_r. field. apply exp_ne; auto. Qed.
Lemma expo_mono c x y : c <> 0 -> x <= y -> expo c y <= expo c x.
Proof.
  intros H L. unfold expo. pose proof (exp_ne c H) as N.
  assert (E : (1 - exp (c * x)) / (1 - exp c) <= (1 - exp (c * y)) / (1 - exp c)); [| lra].
  destruct (Rlt_dec 0 c) as [P | P].
  - assert (1 < exp c) by (rewrite <- exp_0 at 1; apply exp_increasing; auto).
    assert (exp (c * x) <= exp (c * y)). { destruct (Req_dec x y) as [-> | Nx]; [lra |]. left. apply exp_increasing. nra. }
    assert (/ (1 - exp c) < 0) by (apply Rinv_lt_0_compat; lra). unfold Rdiv. nra.
  - assert (exp c < 1) by (rewrite <- exp_0 at 1; apply exp_increasing; lra).
    assert (exp (c * y) <= exp (c * x)). { destruct (Req_dec x y) as [-> | Nx]; [lra |]. left. apply exp_increasing. nra. }
    assert (0 < / (1 - exp c)) by (apply Rinv_0_lt_compat; lra). unfold Rdiv. nra.
Qed.
(** inverse *)
Definition inver (t : R) : R := (1 - t) / (t * t).
Lemma inver_pos t : 0 < t <= 1 -> 0 <= inver t.
Proof. intros [A B]. unfold inver. apply Rmult_le_pos; [lra |]. left. apply Rinv_0_lt_compat. nra. Qed.
Lemma inver_mono x y : 0 < x -> x <= y -> y <= 1 -> inver y <= inver x.
Proof.
  intros A B C. unfold inver, Rdiv. apply Rmult_le_compat; [lra | left; apply Rinv_0_lt_compat; nra | lra |].
  apply Rinv_le_contravar; nra.
Qed.

(** what each type returns *)
Definition shape (type : ascii) (alt : option R) (x : R) : R :=
  match type, alt with
  | "p", _ => 1 - quintic (clip 0 x)
  | "e", Some c => expo c (clip 0 x)
  | "i", Some m => Rmin (Rmax 0 (inver (clip (/ 10 ^ 6) x))) m
  | _, _ => 0
  end%char.
Lemma dexp_real c : c < 1024 * ln 2 -> dexp c = Real (exp c).
Proof. intro H. unfold dexp. destruct (Rlt_dec c (1024 * ln 2)); [reflexivity | lra]. Qed.
Lemma ln2_pos : 0 < ln 2.
Proof. rewrite <- ln_1. apply ln_increasing; lra. Qed.
Lemma scaled_below c t : usable_scale c -> 0 <= t <= 1 -> c * t < 1024 * ln 2.
Proof. intros [_ H] T. pose proof ln2_pos. destruct (Rlt_dec 0 c); nra. Qed.
Lemma qfunc_e c x : usable_scale c -> qfunc "e"%char (Some c) x = Some (Real (expo c (clip 0 x))).
Proof.
  intros H. pose proof (clip_range 0 x ltac:(lra)) as T. cbn -[Rmax Rmin]. change (Rmax 0 (Rmin 1 x)) with (clip 0 x).
  rewrite (dexp_real c) by apply H. rewrite (dexp_real (c * clip 0 x)) by (apply scaled_below; auto). cbn.
  destruct (Req_EM_T (1 - exp c) 0) as [E | E]; [exfalso; apply (exp_ne c); [apply H | exact E] |]. reflexivity.
Qed.

Definition accepted (p : orient_par) : Prop :=
  op_type p = "p"%char \/
  (op_type p = "e"%char /\ exists c, op_exp p = Some c /\ usable_scale c) \/
  (op_type p = "i"%char /\ exists m, op_max p = Some m /\ 0 <= m).
Definition alt_of (p : orient_par) : option R := quatMobilityScaleFactor p.
Lemma run_shape p : accepted p -> returns (run_mobility p) (fun x => op_min p + (op_scale p - op_min p) * shape (op_type p) (alt_of p) x).
Proof.
  intros H x. unfold run_mobility, orient_mobility. destruct H as [E | [(E & c & Ec & U) | (E & m & Em & M)]].
  - rewrite E. cbn -[Rmax Rmin]. reflexivity.
  - unfold alt_of. assert (A : quatMobilityScaleFactor p = Some c) by (unfold quatMobilityScaleFactor; rewrite E; cbn; exact Ec).
    rewrite A, E, qfunc_e by auto. reflexivity.
  - unfold alt_of. assert (A : quatMobilityScaleFactor p = Some m) by (unfold quatMobilityScaleFactor; rewrite E; cbn; exact Em).
    rewrite A, E. reflexivity.
Qed.
Lemma shape_props p : accepted p ->
  (forall x, 0 <= shape (op_type p) (alt_of p) x) /\
  (forall x, 1 <= x -> shape (op_type p) (alt_of p) x = 0) /\
  (forall x y, x <= y -> shape (op_type p) (alt_of p) y <= shape (op_type p) (alt_of p) x) /\
  (op_type p <> "i"%char -> (forall x, shape (op_type p) (alt_of p) x <= 1) /\ (forall x, x <= 0 -> shape (op_type p) (alt_of p) x = 1)).
Proof.
  intros H. unfold alt_of. destruct H as [E | [(E & c & Ec & U) | (E & m & Em & M)]].
  - rewrite E. cbn [shape].
    repeat split.
    + intro x. pose proof (quintic_range _ (clip_range 0 x ltac:(lra))). lra.
    + intros x Hx. rewrite clip_high by lra. unfold quintic. ring.
    + intros x y Hxy. pose proof (clip_range 0 x ltac:(lra)). pose proof (clip_range 0 y ltac:(lra)).
      pose proof (quintic_mono _ _ (proj1 H) (clip_mono 0 x y Hxy) (proj2 H0)). lra.
    + intro x. pose proof (quintic_range _ (clip_range 0 x ltac:(lra))). lra.
    + intros x Hx. rewrite clip_low by lra. unfold quintic. ring.
  - assert (A : quatMobilityScaleFactor p = Some c) by (unfold quatMobilityScaleFactor; rewrite E; cbn; exact Ec).
    rewrite A, E. cbn [shape]. destruct U as [U1 U2]. repeat split.
    + intro x. pose proof (clip_range 0 x ltac:(lra)) as T. pose proof (expo_mono c _ _ U1 (proj2 T)). rewrite expo_1 in H by auto. lra.
    + intros x Hx. rewrite clip_high by lra. apply expo_1; auto.
    + intros x y Hxy. apply expo_mono; auto. apply clip_mono; auto.
    + intro x. pose proof (clip_range 0 x ltac:(lra)) as T. pose proof (expo_mono c _ _ U1 (proj1 T)). rewrite expo_0 in H0 by auto. lra.
    + intros x Hx. rewrite clip_low by lra. apply expo_0; auto.
  - assert (A : quatMobilityScaleFactor p = Some m) by (unfold quatMobilityScaleFactor; rewrite E; cbn; exact Em).
    rewrite A, E. cbn [shape]. pose proof tiny as T. split; [| split; [| split; [| congruence]]].
    + intro x. apply Rmin_glb; [apply Rmax_l | exact M].
    + intros x Hx. rewrite clip_high by lra. unfold inver. replace ((1 - 1) / (1 * 1)) with 0 by field. rewrite Rmax_left, Rmin_left; lra.
    + intros x y Hxy. pose proof (clip_range (/ 10 ^ 6) x (proj2 T)) as A1. pose proof (clip_range (/ 10 ^ 6) y (proj2 T)) as A2.
      pose proof (inver_mono (clip (/ 10 ^ 6) x) (clip (/ 10 ^ 6) y) ltac:(lra) (clip_mono _ _ _ Hxy) (proj2 A2)) as I.
      apply Rmin_glb; [| apply Rmin_r]. eapply Rle_trans; [apply Rmin_l |]. apply Rle_max_compat_l. exact I.
Qed.

(** ** C128 *)
Lemma read_accepted db p : readOrientation db = Some p -> usable p -> accepted p.
Proof.
  intros H [Ue Ui]. unfold readOrientation in H.
  destruct (match db_orient_mobility db, db_quat_mobility db, db_tau_quat db with
               | Some m, _, _ => Some m
               | None, Some m, _ => Some m
               | None, None, Some tau => if Req_EM_T tau 0 then None else Some (1 / tau)
               | None, None, None => None
               end) as [sc |]; [| discriminate].
  set (t := first_char _) in H.
  destruct (negb (Ascii.eqb t "p") && negb (Ascii.eqb t "i") && negb (Ascii.eqb t "e"))%bool eqn:E; [discriminate |].
  injection H as H. assert (T : op_type p = t) by (rewrite <- H; reflexivity). unfold accepted. rewrite T in *.
  rewrite !andb_false_iff, !negb_false_iff, !Ascii.eqb_eq in E. destruct E as [[E | E] | E]; auto.
Qed.
Lemma orient_value : forall db p, readOrientation db = Some p -> usable p -> op_min p <= op_scale p ->
  exists F, returns (run_mobility p) F /\ decreasing F /\
    (forall x, op_min p <= F x) /\ (forall x, 1 <= x -> F x = op_min p) /\
    (op_type p <> "i"%char -> (forall x, F x <= op_scale p) /\ (forall x, x <= 0 -> F x = op_scale p)) /\
    (op_type p = "p"%char -> forall x, 0 <= x <= 1 -> F x = op_min p + (op_scale p - op_min p) * (1 - x ^ 3 * (10 - 15 * x + 6 * x ^ 2))) /\
    (op_type p = "e"%char -> forall c, op_exp p = Some c -> forall x, 0 <= x <= 1 ->
       F x = op_min p + (op_scale p - op_min p) * ((exp (c * x) - exp c) / (1 - exp c))) /\
    (op_type p = "i"%char -> forall m, op_max p = Some m ->
       (forall x, F x <= op_min p + (op_scale p - op_min p) * m) /\
       (forall x, / 10 ^ 6 <= x <= 1 -> (1 - x) / x ^ 2 <= m -> F x = op_min p + (op_scale p - op_min p) * ((1 - x) / x ^ 2)) /\
       (forall x, / 10 ^ 6 <= x <= 1 -> m <= (1 - x) / x ^ 2 -> F x = op_min p + (op_scale p - op_min p) * m)).
Proof.
  intros db p H U L. pose proof (read_accepted db p H U) as A. destruct (shape_props p A) as (S1 & S2 & S3 & S4).
  eexists. split; [apply run_shape; exact A |]. cbv beta. set (D := op_scale p - op_min p). assert (HD : 0 <= D) by (unfold D; lra).
  split; [| split; [| split; [| split; [| split; [| split]]]]].
  - intros x y Hxy. pose proof (S3 x y Hxy). nra.
  - intros x. specialize (S1 x). nra.
  - intros x Hx. rewrite S2 by auto. ring.
  - intro N. destruct (S4 N) as (B1 & B2). split; intros x; [specialize (B1 x); unfold D in *; nra |]. intro Hx. rewrite B2 by auto. unfold D. ring.
  - intros E x Hx. rewrite E. cbn [shape]. rewrite clip_in by auto. unfold quintic. f_equal. f_equal. ring.
  - intros E c Ec x Hx. destruct (proj1 U E) as (c' & Ec' & Uc). assert (c' = c) by congruence. subst c'.
    assert (Q : alt_of p = Some c) by (unfold alt_of, quatMobilityScaleFactor; rewrite E; cbn; exact Ec).
    rewrite Q, E. cbn [shape]. rewrite clip_in by auto. unfold expo. f_equal. f_equal. field. apply exp_ne. apply Uc.
  - intros E m Em. destruct (proj2 U E) as (m' & Em' & Hm). assert (m' = m) by congruence. subst m'.
    assert (Q : alt_of p = Some m) by (unfold alt_of, quatMobilityScaleFactor; rewrite E; cbn; exact Em).
    rewrite Q, E. cbn [shape]. pose proof tiny as T. split; [| split].
    + intro x. pose proof (Rmin_r (Rmax 0 (inver (clip (/ 10 ^ 6) x))) m). nra.
    + intros x Hx Hc. rewrite clip_in by auto. pose proof (inver_pos x ltac:(lra)) as P.
      assert (Ei : inver x = (1 - x) / x ^ 2) by (unfold inver; f_equal; ring).
      rewrite Rmax_right, Rmin_left by lra. rewrite Ei. reflexivity.
    + intros x Hx Hc. rewrite clip_in by auto. pose proof (inver_pos x ltac:(lra)) as P.
      assert (Ei : inver x = (1 - x) / x ^ 2) by (unfold inver; f_equal; ring).
      rewrite Rmax_right, Rmin_right by lra. reflexivity.
Qed.
Lemma returns_dbl p : accepted p -> exists G, forall x, run_mobility p x = Some (G x).
Proof. intro A. pose proof (run_shape p A) as H. eexists. exact H. Qed.
Lemma deriv_dbl p : accepted p -> exists G, forall x, run_mobility_deriv p x = Some (G x).
Proof.
  intro A. unfold run_mobility_deriv, orient_mobility_deriv. destruct A as [E | [(E & c & Ec & U) | (E & m & Em & M)]]; rewrite E.
  - eexists. intro x. reflexivity.
  - assert (Q : quatMobilityScaleFactor p = Some c) by (unfold quatMobilityScaleFactor; rewrite E; cbn; exact Ec). rewrite Q. eexists. intro x. reflexivity.
  - eexists. intro x. reflexivity.
Qed.
Lemma orient_cells : forall db p three_d b phase ngphase mobility, readOrientation db = Some p -> usable p -> (1 <= ngphase)%Z ->
  exists f, computeQuatMobility three_d p b phase ngphase mobility = Some f /\
    holds_in (one_ghost three_d b) (run_mobility p) phase mobility f.
Proof.
  intros db p three_d b phase ngphase mobility H U N.
  replace (one_ghost three_d b) with (ghost_box b (width three_d 1))
    by (unfold one_ghost, ghost_box, width; cbn; destruct three_d; f_equal; lia). destruct (returns_dbl p (read_accepted db p H U)) as (G & HG).
  unfold computeQuatMobility, quatmobility. apply (over_cells_ok (run_mobility p) b _ (width three_d ngphase) phase mobility G HG).
  intros i j k. unfold in_pbox, ghost_box, width. cbn. destruct three_d; lia.
Qed.
Lemma orient_no_ghosts : forall three_d p b phase mobility, box_ok three_d b -> computeQuatMobility three_d p b phase 0 mobility = None.
Proof.
  intros three_d p b phase mobility [(A & B & C) _]. unfold computeQuatMobility, quatmobility, over_cells.
  set (w := ghost_box b (width three_d 1)).
  assert (W : (Noise_Model.lo0 w = Noise_Model.lo0 b - 1 /\ Noise_Model.hi0 w = Noise_Model.hi0 b + 1 /\ Noise_Model.lo1 w = Noise_Model.lo1 b - 1 /\ Noise_Model.hi1 w = Noise_Model.hi1 b + 1 /\ Noise_Model.lo2 w <= Noise_Model.hi2 w)%Z).
  { unfold w, ghost_box, width. cbn. destruct three_d; lia. }
  destruct W as (W1 & W2 & W3 & W4 & W5).
  set (body := fun (i j k : Z) (s : option darr) => _).
  destruct (cells3_once (option darr) (fun s s' => s = None -> s' = None) (Noise_Model.lo0 w) (Noise_Model.hi0 w) (Noise_Model.lo1 w) (Noise_Model.hi1 w) (Noise_Model.lo2 w) (Noise_Model.hi2 w)
    (Noise_Model.lo0 w) (Noise_Model.lo1 w) (Noise_Model.lo2 w) body (Some mobility)) as (s0 & _ & E); auto.
  - repeat split; lia.
  - intros i j k s _ _ ->. reflexivity.
  - apply E. unfold body. destruct s0 as [f |]; [| reflexivity].
    unfold in_array. replace (Noise_Model.lo0 (ghost_box b (width three_d 0)) <=? Noise_Model.lo0 w)%Z with false; [reflexivity |].
    symmetry. apply Z.leb_gt. rewrite W1. cbn. lia.
Qed.
(** the input max_orient_mobility multiplies quat_mobility instead of limiting the mobility *)
Lemma max_orient_refuted : exists db p M, readOrientation db = Some p /\ db_max_orient db = Some M /\ op_min p <= op_scale p <= M /\
  exists F, returns (run_mobility p) F /\ exists x, 0 <= x <= 1 /\ 9 * M < F x.
Proof.
  exists (mk_orient_db (Some 10) None None None None (Some "inverse"%string) None (Some 100) None None None).
  eexists. exists 100. split; [reflexivity |]. split; [reflexivity |]. cbn [op_min op_scale]. pose proof tiny.
  split; [unfold first_of; cbn [db_min_orient db_min_quat]; lra |].
  eexists. split. { apply run_shape. right. right. split; [reflexivity |]. eexists. split; [reflexivity |]. cbn. lra. }
  exists (/ 20). split; [lra |]. cbv beta. unfold alt_of. cbn [op_min op_scale op_type quatMobilityScaleFactor op_max].
  change (quatMobilityScaleFactor _) with (Some 100). cbn [shape first_of db_min_orient db_min_quat first_char db_func_quat].
  assert (T : / 10 ^ 6 <= / 20) by (apply Rinv_le_contravar; lra).
  rewrite clip_in by lra. unfold inver. replace ((1 - / 20) / (/ 20 * / 20)) with 380 by field. rewrite Rmax_right, Rmin_right by lra. lra.
Qed.
(** the default scale of the exponential type *)
Lemma exp_scale_refuted : exists db p, readOrientation db = Some p /\ db_orient_mobility db = Some 1 /\ op_type p = "e"%char /\
  forall x, / 100 <= x -> run_mobility p x = Some NaN.
Proof.
  exists (mk_orient_db (Some 1) None None None None (Some "exponential"%string) None None None None None).
  eexists. split; [reflexivity |]. split; [reflexivity |]. split; [reflexivity |]. intros x Hx.
  unfold run_mobility, orient_mobility. cbn [op_scale op_min op_type first_char db_func_quat].
  change (quatMobilityScaleFactor _) with (Some (10 ^ 6)). cbn [qfunc].
  set (phi := Rmax 0 (Rmin 1 x)). assert (P : / 100 <= phi). { unfold phi. eapply Rle_trans; [| apply Rmax_r]. apply Rmin_glb; lra. }
  assert (L : ln 2 < 1). { apply exp_lt_inv. rewrite exp_ln by lra. pose proof (exp_ineq1 1 ltac:(lra)). lra. }
  pose proof ln2_pos.
  unfold dexp. destruct (Rlt_dec (10 ^ 6 * phi) (1024 * ln 2)) as [C | _]; [exfalso; nra |].
  destruct (Rlt_dec (10 ^ 6) (1024 * ln 2)) as [C | _]; [exfalso; nra |]. reflexivity.
Qed.

(** ** C129 *)
Lemma slope_unique f df x F d : returns f F -> df x = Some (Real d) -> slope_at f df x -> derivable_pt_lim F x d.
Proof.
  intros HF Hd (F' & d' & HF' & Hd' & D). assert (d' = d) by congruence. subst d'.
  assert (F' = F). { extensionality y. specialize (HF y). specialize (HF' y). congruence. } subst F'. exact D.
Qed.
Lemma local_eq (F G : R -> R) x d e : 0 < e -> (forall y, Rabs (y - x) < e -> F y = G y) -> derivable_pt_lim G x d -> derivable_pt_lim F x d.
Proof.
  intros He E D. apply is_derive_Reals. apply is_derive_Reals in D.
  apply (is_derive_ext_loc G); [| exact D]. exists (mkposreal e He). intros y Hy. symmetry. apply E. exact Hy.
Qed.
Lemma scaled_deriv (a s : R) (G : R -> R) x d : derivable_pt_lim G x d -> derivable_pt_lim (fun y => a + s * G y) x (s * d).
Proof.
  intro D. apply is_derive_Reals. apply is_derive_Reals in D.
  apply (is_derive_ext (fun y => plus a (scal s (G y)))); [reflexivity |].
  evar_last. { apply (@is_derive_plus R_AbsRing R_NormedModule); [apply is_derive_const | apply is_derive_scal; exact D]. }
  cbn. unfold zero, plus; cbn. ring.
Qed.
Lemma orient_slope : forall db p x, readOrientation db = Some p -> usable p ->
  (op_type p = "e"%char -> 0 < x < 1) ->
  (op_type p = "i"%char -> / 10 ^ 6 < x < 1 /\ forall m, op_max p = Some m -> (1 - x) / x ^ 2 < m) ->
  slope_at (run_mobility p) (run_mobility_deriv p) x.
Proof.
  intros db p x H U He Hi. pose proof (read_accepted db p H U) as A. pose proof (run_shape p A) as RS.
  unfold slope_at. destruct A as [E | [(E & c & Ec & Uc) | (E & m & Em & M)]].
  - destruct (deriv_interp_ok "p"%char x ltac:(cbn; auto)) as (G & d & HG & Hd & D).
    eexists. exists ((op_scale p - op_min p) * - d). split; [exact RS |]. split.
    + unfold run_mobility_deriv, orient_mobility_deriv. rewrite E. cbn -[Rmax Rmin IZR] in Hd |- *. injection Hd as Hd. rewrite <- Hd.
      change (clamp01 x) with (Rmax 0 (Rmin 1 x)). f_equal. f_equal. ring.
    + apply scaled_deriv. rewrite E. cbn [shape].
      apply is_derive_Reals. apply is_derive_Reals in D.
      apply (is_derive_ext (fun y => minus 1 (G y))).
      * intro y. specialize (HG y). cbn -[IZR] in HG. injection HG as HG. rewrite <- HG. reflexivity.
      * evar_last. { apply (@is_derive_minus R_AbsRing R_NormedModule); [apply is_derive_const | exact D]. } unfold minus, zero, plus, opp; cbn. ring.
  - specialize (He E). assert (Q : quatMobilityScaleFactor p = Some c) by (unfold quatMobilityScaleFactor; rewrite E; cbn; exact Ec).
    pose proof (exp_ne c (proj1 Uc)) as N.
    eexists. exists ((op_scale p - op_min p) * (c * exp (c * x) / (1 - exp c))). split; [exact RS |]. split.
    + unfold run_mobility_deriv, orient_mobility_deriv. rewrite E, Q. cbn [dqfunc]. change (Rmax 0 (Rmin 1 x)) with (clip 0 x). rewrite clip_in by lra.
      rewrite !dexp_real by (apply scaled_below || apply Uc; auto; lra). cbn. destruct (Req_EM_T (1 - exp c) 0); [contradiction | reflexivity].
    + apply scaled_deriv. unfold alt_of. rewrite E, Q. cbn [shape].
      apply (local_eq _ (expo c) x _ (Rmin x (1 - x))).
      * apply Rmin_glb_lt; lra.
      * intros y Hy. cbn [shape]. rewrite clip_in; [reflexivity |]. pose proof (Rmin_l x (1 - x)). pose proof (Rmin_r x (1 - x)). apply Rabs_def2 in Hy. lra.
      * apply is_derive_Reals. unfold expo. auto_derive; [exact I |]. change (1 + - exp c) with (1 - exp c). field. exact N.
  - destruct (Hi E) as (Hx & Hm). specialize (Hm m Em). assert (Q : quatMobilityScaleFactor p = Some m) by (unfold quatMobilityScaleFactor; rewrite E; cbn; exact Em).
    pose proof tiny as T.
    eexists. exists ((op_scale p - op_min p) * ((x - 2) / (x * x * x))). split; [exact RS |]. split.
    + unfold run_mobility_deriv, orient_mobility_deriv. rewrite E. cbn [dqfunc]. change (Rmax (/ 10 ^ 6) (Rmin 1 x)) with (clip (/ 10 ^ 6) x). rewrite clip_in by lra. reflexivity.
    + apply scaled_deriv. unfold alt_of. rewrite E, Q. cbn [shape].
      assert (C : derivable_pt_lim inver x ((x - 2) / (x * x * x))).
      { apply is_derive_Reals. unfold inver. auto_derive; [repeat split; nra |]. field. lra. }
      assert (Ei : inver x = (1 - x) / x ^ 2) by (unfold inver; f_equal; ring).
      assert (K : exists e, 0 < e /\ forall y, Rabs (y - x) < e -> inver y < m).
      { assert (cc : continuity_pt inver x) by (apply derivable_continuous_pt; eexists; exact C).
        destruct (cc (m - inver x)) as (e & e0 & He'); [lra |]. exists e. split; [exact e0 |]. intros y Hy.
        destruct (Req_dec y x) as [-> | Ny]; [lra |]. specialize (He' y). cbn in He'. unfold R_dist in He'.
        assert (Rabs (inver y - inver x) < m - inver x). { apply He'. split; [split; [exact I | auto] | exact Hy]. }
        apply Rabs_def2 in H0. lra. }
      destruct K as (e & e0 & Ke).
      apply (local_eq _ inver x _ (Rmin e (Rmin (x - / 10 ^ 6) (1 - x)))).
      * repeat apply Rmin_glb_lt; lra.
      * intros y Hy. pose proof (Rmin_l e (Rmin (x - / 10 ^ 6) (1 - x))). pose proof (Rmin_r e (Rmin (x - / 10 ^ 6) (1 - x))).
        pose proof (Rmin_l (x - / 10 ^ 6) (1 - x)). pose proof (Rmin_r (x - / 10 ^ 6) (1 - x)).
        specialize (Ke y ltac:(lra)). apply Rabs_def2 in Hy. cbn [shape]. rewrite clip_in by lra. pose proof (inver_pos y ltac:(lra)). rewrite Rmax_right, Rmin_left; lra.
      * exact C.
Qed.
Lemma orient_slope_cells : forall db p three_d b phase ngphase dmobility, readOrientation db = Some p -> usable p -> (0 <= ngphase)%Z ->
  exists f, computeQuatMobilityDeriv three_d p b phase ngphase dmobility = Some f /\
    holds_in b (run_mobility_deriv p) phase dmobility f.
Proof.
  intros db p three_d b phase ngphase mobility H U N. destruct (deriv_dbl p (read_accepted db p H U)) as (G & HG).
  unfold computeQuatMobilityDeriv, quatmobilityderiv. apply (over_cells_ok (run_mobility_deriv p) b _ (width three_d ngphase) phase mobility G HG).
  intros i j k. unfold in_pbox, ghost_box, width. cbn. destruct three_d; lia.
Qed.
Lemma const_deriv F x c e d : 0 < e -> (forall y, Rabs (y - x) < e -> F y = c) -> derivable_pt_lim F x d -> d = 0.
Proof.
  intros He H D. eapply uniqueness_limite; [exact D |]. apply (local_eq F (fun _ => c) x 0 e He H). apply derivable_pt_lim_const.
Qed.
(** in the solid beyond phase 1 and in the liquid below 0 the mobility of the exponential type is constant, its computed derivative is not 0 *)
Lemma exp_slope_refuted : forall db p, readOrientation db = Some p -> usable p -> op_type p = "e"%char -> op_min p < op_scale p ->
  forall x, x < 0 \/ 1 < x -> ~ slope_at (run_mobility p) (run_mobility_deriv p) x.
Proof.
  intros db p H U E L x Hx S. destruct (proj1 U E) as (c & Ec & Uc). pose proof (run_shape p (read_accepted db p H U)) as RS.
  assert (Q : quatMobilityScaleFactor p = Some c) by (unfold quatMobilityScaleFactor; rewrite E; cbn; exact Ec).
  pose proof (exp_ne c (proj1 Uc)) as N.
  pose proof (slope_unique (run_mobility p) (run_mobility_deriv p) x _ ((op_scale p - op_min p) * (c * exp (c * clip 0 x) / (1 - exp c))) RS) as D.
  unfold alt_of in D. rewrite Q, E in D. cbn [shape] in D.
  assert (Z0 : (op_scale p - op_min p) * (c * exp (c * clip 0 x) / (1 - exp c)) = 0).
  { eapply (const_deriv _ x _ (if Rlt_dec x 0 then - x else x - 1)); [destruct (Rlt_dec x 0); lra | | apply D; [| exact S]].
    - intros y Hy. cbv beta. instantiate (1 := op_min p + (op_scale p - op_min p) * expo c (clip 0 x)). apply Rabs_def2 in Hy.
      cbn [shape]. destruct (Rlt_dec x 0); [rewrite !clip_low | rewrite !clip_high]; lra.
    - unfold run_mobility_deriv, orient_mobility_deriv. rewrite E, Q. cbn [dqfunc]. change (Rmax 0 (Rmin 1 x)) with (clip 0 x).
      pose proof (clip_range 0 x ltac:(lra)). rewrite !dexp_real by (apply scaled_below || apply Uc; auto; lra). cbn. destruct (Req_EM_T (1 - exp c) 0); [contradiction | reflexivity]. }
  pose proof (exp_pos (c * clip 0 x)). destruct Uc as [C0 _].
  assert ((op_scale p - op_min p) * (c * exp (c * clip 0 x) / (1 - exp c)) <> 0); [| contradiction].
  apply Rmult_integral_contrapositive_currified; [lra |]. unfold Rdiv. repeat apply Rmult_integral_contrapositive_currified; auto; [lra | apply Rinv_neq_0_compat; auto].
Qed.
(** where the factor of the inverse type is limited the mobility is constant, its computed derivative is not 0 *)
Lemma inv_slope_refuted : forall db p m x, readOrientation db = Some p -> usable p -> op_type p = "i"%char -> op_max p = Some m -> op_min p < op_scale p ->
  / 10 ^ 6 < x < 1 -> m < (1 - x) / x ^ 2 -> ~ slope_at (run_mobility p) (run_mobility_deriv p) x.
Proof.
  intros db p m x H U E Em L Hx Hm S. pose proof (run_shape p (read_accepted db p H U)) as RS. pose proof tiny as T.
  assert (Q : quatMobilityScaleFactor p = Some m) by (unfold quatMobilityScaleFactor; rewrite E; cbn; exact Em).
  pose proof (slope_unique (run_mobility p) (run_mobility_deriv p) x _ ((op_scale p - op_min p) * ((x - 2) / (x * x * x))) RS) as D.
  unfold alt_of in D. rewrite Q, E in D. cbn [shape] in D.
  assert (Ei : inver x = (1 - x) / x ^ 2) by (unfold inver; f_equal; ring).
  assert (K : exists e, 0 < e /\ forall y, Rabs (y - x) < e -> m < inver y).
  { assert (C : derivable_pt_lim inver x ((x - 2) / (x * x * x))).
    { apply is_derive_Reals. unfold inver. auto_derive; [repeat split; nra |]. field. lra. }
    assert (cc : continuity_pt inver x) by (apply derivable_continuous_pt; eexists; exact C).
    destruct (cc (inver x - m)) as (e & e0 & He'); [lra |]. exists e. split; [exact e0 |]. intros y Hy.
    destruct (Req_dec y x) as [-> | Ny]; [lra |]. specialize (He' y). cbn in He'. unfold R_dist in He'.
    assert (Hd : Rabs (inver y - inver x) < inver x - m). { apply He'. split; [split; [exact I | auto] | exact Hy]. }
    apply Rabs_def2 in Hd. lra. }
  destruct K as (e & e0 & Ke).
  assert (Z0 : (op_scale p - op_min p) * ((x - 2) / (x * x * x)) = 0).
  { eapply (const_deriv _ x (op_min p + (op_scale p - op_min p) * m) (Rmin e (Rmin (x - / 10 ^ 6) (1 - x)))); [repeat apply Rmin_glb_lt; lra | | apply D; [| exact S]].
    - intros y Hy. pose proof (Rmin_l e (Rmin (x - / 10 ^ 6) (1 - x))). pose proof (Rmin_r e (Rmin (x - / 10 ^ 6) (1 - x))).
      pose proof (Rmin_l (x - / 10 ^ 6) (1 - x)). pose proof (Rmin_r (x - / 10 ^ 6) (1 - x)).
      specialize (Ke y ltac:(lra)). apply Rabs_def2 in Hy. cbv beta. cbn [shape]. rewrite clip_in by lra. pose proof (inver_pos y ltac:(lra)). rewrite Rmax_right, Rmin_right; lra.
    - unfold run_mobility_deriv, orient_mobility_deriv. rewrite E. cbn [dqfunc]. change (Rmax (/ 10 ^ 6) (Rmin 1 x)) with (clip (/ 10 ^ 6) x). rewrite clip_in by lra. reflexivity. }
  assert ((op_scale p - op_min p) * ((x - 2) / (x * x * x)) <> 0); [| contradiction].
  apply Rmult_integral_contrapositive_currified; [lra |]. unfold Rdiv. apply Rmult_integral_contrapositive_currified; [lra | apply Rinv_neq_0_compat].
  repeat apply Rmult_integral_contrapositive_currified; lra.
Qed.

(** ** C130 *)
Lemma h_p phi : interp_func phi "p"%char = Some (quintic (clip 0 phi)).
Proof. reflexivity. Qed.
Lemma eta_some gasR p t phi : t * gasR <> 0 ->
  eta_value gasR p t phi = Some (arrhenius gasR p t - quintic (clip 0 phi) * (arrhenius gasR p t - ep_min p)).
Proof. intro H. unfold eta_value. rewrite h_p. destruct (Req_EM_T (t * gasR) 0); [contradiction |]. reflexivity. Qed.
Lemma flat_stored three_d b g i j k : box_ok three_d b -> ghosts_ok three_d g -> in_pbox b i j k ->
  flat_index three_d (ghost_box b g) i j k = stored_at (ghost_box b g) i j k /\ in_flat (ghost_box b g) (flat_index three_d (ghost_box b g) i j k) = true.
Proof.
  intros (B1 & B2) (G1 & G2) H.
  assert (E : flat_index three_d (ghost_box b g) i j k = stored_at (ghost_box b g) i j k).
  { unfold flat_index, stored_at, cells0, cells1. unfold in_pbox in H. destruct three_d; [ring |].
    destruct (B2 eq_refl) as (L & U). specialize (G2 eq_refl). cbn. rewrite L, G2. assert (k = 0%Z) by lia. subst k. ring. }
  split; [exact E |]. rewrite E. assert (I : in_pbox (ghost_box b g) i j k). { unfold in_pbox in *. cbn. lia. }
  pose proof (stored_range _ _ _ _ I). unfold in_flat. rewrite andb_true_iff, Z.leb_le, Z.ltb_lt. lia.
Qed.
Lemma eta_patch three_d gasR p b gt gm gp temp phi mob : box_ok three_d b -> ghosts_ok three_d gt -> ghosts_ok three_d gm -> ghosts_ok three_d gp -> 0 < gasR ->
  (forall i j k, in_pbox b i j k -> temp (stored_at (ghost_box b gt) i j k) <> 0) ->
  exists f, computeEtaMobilityPatch three_d gasR p b gt gm gp temp phi mob = Some f /\
    (forall i j k, in_pbox b i j k -> eta_value gasR p (temp (stored_at (ghost_box b gt) i j k)) (phi (stored_at (ghost_box b gp) i j k)) = Some (f (stored_at (ghost_box b gm) i j k))) /\
    (forall i j k, in_pbox (ghost_box b gm) i j k -> ~ in_pbox b i j k -> f (stored_at (ghost_box b gm) i j k) = mob (stored_at (ghost_box b gm) i j k)).
Proof.
  intros HB HT HM HP HR Ht. unfold computeEtaMobilityPatch.
  set (V := fun i j k => let t := temp (stored_at (ghost_box b gt) i j k) in let ph := phi (stored_at (ghost_box b gp) i j k) in
    arrhenius gasR p t - quintic (clip 0 ph) * (arrhenius gasR p t - ep_min p)).
  assert (KB : (if three_d then Noise_Model.lo2 b else 0%Z) = Noise_Model.lo2 b /\ (if three_d then Noise_Model.hi2 b else 0%Z) = Noise_Model.hi2 b).
  { destruct HB as (_ & HB2). destruct three_d; [auto |]. destruct (HB2 eq_refl); auto. }
  destruct KB as (-> & ->).
  rewrite (cells3_some (Z -> R) _ _ _ _ _ _ _ (fun i j k f => store f (stored_at (ghost_box b gm) i j k) (V i j k))).
  - eexists. split; [reflexivity |]. assert (G : forall i j k, in_pbox (ghost_box b gm) i j k -> _) by
     (intros i j k Hg; refine (cells3_get (Z -> R) R (fun f => f (stored_at (ghost_box b gm) i j k)) (Noise_Model.lo0 b) (Noise_Model.hi0 b) (Noise_Model.lo1 b) (Noise_Model.hi1 b) (Noise_Model.lo2 b) (Noise_Model.hi2 b)
      (fun i j k f => store f (stored_at (ghost_box b gm) i j k) (V i j k)) i j k (V i j k) mob _ _);
      [ intros s; unfold store; rewrite Z.eqb_refl; reflexivity
      | intros i' j' k' s Hi N; unfold store; destruct (Z.eqb_spec (stored_at (ghost_box b gm) i j k) (stored_at (ghost_box b gm) i' j' k')) as [Eq |]; [| reflexivity];
        exfalso; assert (I' : in_pbox (ghost_box b gm) i' j' k') by (destruct HM as (M1 & _); unfold in_box3, in_pbox in *; cbn; lia);
        destruct (stored_inj _ _ _ _ _ _ _ Hg I' Eq) as (? & ? & ?); lia ]).
    split.
    + intros i j k Hi. assert (Hg : in_pbox (ghost_box b gm) i j k). { destruct HM as (M1 & _). unfold in_pbox in *. cbn. lia. }
      destruct (G i j k Hg) as (A & _). rewrite A by exact Hi. apply eta_some. specialize (Ht i j k Hi). apply Rmult_integral_contrapositive_currified; lra.
    + intros i j k Hg Hi. destruct (G i j k Hg) as (_ & B). apply B. exact Hi.
  - intros i j k s Hi. assert (Hb : in_pbox b i j k) by exact Hi.
    destruct (flat_stored three_d b gt i j k HB HT Hb) as (E1 & F1). destruct (flat_stored three_d b gm i j k HB HM Hb) as (E2 & F2). destruct (flat_stored three_d b gp i j k HB HP Hb) as (E3 & F3).
    rewrite F1, F2, F3. cbn [andb]. rewrite E1, E2, E3. rewrite eta_some; [reflexivity |]. specialize (Ht i j k Hb). apply Rmult_integral_contrapositive_currified; lra.
Qed.
Lemma eta_cells : forall three_d gasR p b gt gm gp temp phi mob, box_ok three_d b -> ghosts_ok three_d gt -> ghosts_ok three_d gm -> ghosts_ok three_d gp -> 0 < gasR ->
  (forall i j k, in_pbox b i j k -> temp (stored_at (ghost_box b gt) i j k) <> 0) ->
  exists f, computeEtaMobility three_d gasR p b gt gm gp temp phi mob = Some f /\
    (forall i j k, in_pbox b i j k -> eta_value gasR p (temp (stored_at (ghost_box b gt) i j k)) (phi (stored_at (ghost_box b gp) i j k)) = Some (f (stored_at (ghost_box b gm) i j k))) /\
    (ep_min p <> ep_mobility p \/ ep_q0 p <> 0 ->
     forall i j k, in_pbox (ghost_box b gm) i j k -> ~ in_pbox b i j k -> f (stored_at (ghost_box b gm) i j k) = mob (stored_at (ghost_box b gm) i j k)).
Proof.
  intros three_d gasR p b gt gm gp temp phi mob HB HT HM HP HR Ht.
  destruct (eta_patch three_d gasR p b gt gm gp temp phi mob HB HT HM HP HR Ht) as (f & E & A & B).
  unfold computeEtaMobility. destruct (Req_EM_T (ep_min p) (ep_mobility p)) as [E1 |]; [| exists f; auto].
  destruct (Req_EM_T (ep_q0 p) 0) as [E2 |]; [| exists f; auto].
  eexists. split; [reflexivity |]. split; [| intros [N | N]; contradiction].
  intros i j k Hi. rewrite eta_some by (specialize (Ht i j k Hi); apply Rmult_integral_contrapositive_currified; lra).
  unfold arrhenius. rewrite E1, E2. replace (- 0 / (temp (stored_at (ghost_box b gt) i j k) * gasR)) with 0 by (unfold Rdiv; ring). rewrite exp_0. f_equal. ring.
Qed.
Lemma eta_range : forall gasR p t, 0 < gasR -> 0 < t ->
  exists F, (forall phi, eta_value gasR p t phi = Some (F phi)) /\
    (forall phi, phi <= 0 -> F phi = arrhenius gasR p t) /\ (forall phi, 1 <= phi -> F phi = ep_min p) /\
    (forall phi, 0 <= phi <= 1 -> F phi = arrhenius gasR p t - phi ^ 3 * (10 - 15 * phi + 6 * phi ^ 2) * (arrhenius gasR p t - ep_min p)) /\
    (ep_min p <= arrhenius gasR p t -> decreasing F /\ forall phi, ep_min p <= F phi <= arrhenius gasR p t).
Proof.
  intros gasR p t HR Ht. eexists. split; [intro phi; apply eta_some; nra |]. cbv beta.
  split; [intros phi H; rewrite clip_low by lra; unfold quintic; ring |].
  split; [intros phi H; rewrite clip_high by lra; unfold quintic; ring |].
  split; [intros phi H; rewrite clip_in by lra; unfold quintic; ring |].
  intro L. split.
  - intros x y H. pose proof (clip_range 0 x ltac:(lra)). pose proof (clip_range 0 y ltac:(lra)).
    pose proof (quintic_mono _ _ (proj1 H0) (clip_mono 0 x y H) (proj2 H1)). nra.
  - intro phi. pose proof (quintic_range _ (clip_range 0 phi ltac:(lra))). nra.
Qed.
Lemma eta_warmer : forall gasR p t t' phi v v', 0 < gasR -> 0 < t -> t <= t' -> 0 <= ep_mobility p -> 0 <= ep_q0 p ->
  eta_value gasR p t phi = Some v -> eta_value gasR p t' phi = Some v' -> v <= v'.
Proof.
  intros gasR p t t' phi v v' HR Ht L Hm Hq. rewrite !eta_some by nra. intros [= <-] [= <-].
  pose proof (quintic_range _ (clip_range 0 phi ltac:(lra))) as Q.
  assert (A : arrhenius gasR p t <= arrhenius gasR p t'); [| nra].
  unfold arrhenius. apply Rmult_le_compat_l; [exact Hm |].
  assert (D : - ep_q0 p / (t * gasR) <= - ep_q0 p / (t' * gasR)).
  { assert (/ (t' * gasR) <= / (t * gasR)) by (apply Rinv_le_contravar; nra). unfold Rdiv. nra. }
  destruct D as [D | D]; [left; apply exp_increasing; exact D | rewrite D; lra].
Qed.
(** when min_eta_mobility is not given it is eta_mobility, above the mobility of the liquid: the mobility is then larger in the solid than in the liquid *)
Lemma eta_default_refuted : forall gasR m q0 t, 0 < gasR -> 0 < m -> 0 < q0 -> 0 < t ->
  exists p v0 v1, readEta (Some m) None (Some q0) = Some p /\ eta_value gasR p t 0 = Some v0 /\ eta_value gasR p t 1 = Some v1 /\ v0 < ep_min p /\ v0 < v1.
Proof.
  intros gasR m q0 t HR Hm Hq Ht. eexists. eexists. eexists. split; [reflexivity |].
  split; [apply eta_some; nra |]. split; [apply eta_some; nra |]. rewrite clip_low, clip_high by lra. unfold arrhenius, quintic. cbn [ep_mobility ep_q0 ep_min].
  assert (E : exp (- q0 / (t * gasR)) < 1).
  { rewrite <- exp_0. apply exp_increasing. unfold Rdiv. assert (0 < / (t * gasR)) by (apply Rinv_0_lt_compat; nra). nra. }
  set (z := exp (- q0 / (t * gasR))) in *. split; nra.
Qed.

(** ** C131 *)
Definition floor_types : list ascii := ["m"; "t"; "s"]%char.
Definition interp_types : list ascii := ["q"; "p"; "h"; "w"; "m"; "3"; "c"]%char.
Lemma normi_some g2 ft a b : In ft floor_types -> exists gi, eval_grad_normi g2 ft a b = Some gi.
Proof. intros [<- | [<- | [<- | []]]]; eexists; reflexivity. Qed.
Lemma face_slopes c t1 t2 g2 d1 d2 : In (qp_ftype c) floor_types -> In (qp_interp1 c) interp_types -> qp_interp2 c = "c"%char -> qp_avg c = "a"%char ->
  (forall phi1 phi2, exists v, face_coef (qp_eps c) (2 * qp_H c) (qp_floor c) (qp_ftype c) (qp_interp1 c) (qp_interp2 c) (qp_avg c) phi1 phi2 t1 t2 g2 = Some v) /\
  forall phi1 phi2, jlf_threshold <= phi1 -> jlf_threshold <= phi2 ->
  exists s1 s2, coefficient_slopes c t1 t2 g2 phi1 phi2 = Some (s1, s2) /\
    derivable_pt_lim (fun e => coefficient c t1 t2 g2 (phi1 + e * d1) (phi2 + e * d2)) 0 (s1 * d1 + s2 * d2).
Proof.
  intros Hf Hi H2 Ha. destruct (normi_some g2 (qp_ftype c) (qp_floor c * qp_floor c) (1 / qp_floor c) Hf) as (gi & Eg).
  unfold coefficient, coefficient_slopes, face_coef, face_deriv. rewrite Ha, H2, Eg.
  destruct (deriv_interp_ok (qp_interp1 c) 0 Hi) as (G & _ & HG & _ & _).
  split.
  { intros phi1 phi2. cbn [average_func]. rewrite HG. cbn [interp_func]. eexists. reflexivity. }
  intros phi1 phi2 L1 L2. destruct (Rlt_dec phi1 jlf_threshold); [lra |]. destruct (Rlt_dec phi2 jlf_threshold); [lra |].
  cbn [average_func deriv_average_func]. destruct (deriv_interp_ok (qp_interp1 c) (/ 2 * (phi1 + phi2)) Hi) as (G' & d & HG' & Hd & D).
  assert (G' = G) by (extensionality y; specialize (HG y); specialize (HG' y); congruence). subst G'.
  rewrite Hd. eexists. eexists. split; [reflexivity |].
  apply is_derive_Reals. apply is_derive_Reals in D.
  apply (is_derive_ext (fun e => - (- gi * (2 * qp_H c * (1 / 2 * (t1 + t2)) * G (/ 2 * (phi1 + phi2) + e * (/ 2 * (d1 + d2)))) - qp_eps c * qp_eps c * 1))).
  { intro e. rewrite HG. cbn [interp_func]. replace (/ 2 * (phi1 + e * d1 + (phi2 + e * d2))) with (/ 2 * (phi1 + phi2) + e * (/ 2 * (d1 + d2))) by ring. reflexivity. }
  assert (DG : is_derive (fun e => G (/ 2 * (phi1 + phi2) + e * (/ 2 * (d1 + d2)))) 0 (/ 2 * (d1 + d2) * d)).
  { apply (is_derive_comp G (fun e => / 2 * (phi1 + phi2) + e * (/ 2 * (d1 + d2))) 0).
    - replace (/ 2 * (phi1 + phi2) + 0 * (/ 2 * (d1 + d2))) with (/ 2 * (phi1 + phi2)) by ring. exact D.
    - auto_derive; auto. ring. }
  remember (fun e => G (/ 2 * (phi1 + phi2) + e * (/ 2 * (d1 + d2)))) as Ge eqn:EG.
  assert (DG' : is_derive Ge 0 (/ 2 * (d1 + d2) * d)) by (rewrite EG; exact DG).
  apply (is_derive_ext (fun e => gi * (2 * qp_H c * (1 / 2 * (t1 + t2))) * Ge e + qp_eps c * qp_eps c)).
  { intro e. rewrite EG. match goal with |- ?a = ?b => change (@eq R a b) end. ring. }
  evar_last. { apply (@is_derive_plus R_AbsRing R_NormedModule); [apply (is_derive_scal Ge); exact DG' | apply is_derive_const]. }
  match goal with |- ?a = ?b => change (@eq R a b) end. unfold plus, zero; cbn -[IZR]. field.
Qed.
Definition ceps (c : quat_par) (phi1 phi2 t1 t2 g2 : R) : option R :=
  face_coef (qp_eps c) (2 * qp_H c) (qp_floor c) (qp_ftype c) (qp_interp1 c) (qp_interp2 c) (qp_avg c) phi1 phi2 t1 t2 g2.
Definition val (o : option R) : R := match o with Some v => v | None => 0 end.
Definition val2 (o : option (R * R)) : R * R := match o with Some v => v | None => (0, 0) end.
Lemma fcx_val p c phi temp gq old : (forall a b t1 t2 g2, exists v, ceps c a b t1 t2 g2 = Some v) ->
  exists f, face_coefs_x p c phi temp gq old = Some f /\ forall i j, in_box (lo0 p) (hi0 p + 1) (lo1 p) (hi1 p) i j ->
    f i j = val (ceps c (phi (i - 1)%Z j) (phi i j) (temp (i - 1)%Z j) (temp i j) (grad_sum (depth p) gq i j)).
Proof.
  intro H. unfold face_coefs_x. destruct (ocells_upd2 (lo0 p) (hi0 p + 1) (lo1 p) (hi1 p)
    (fun i j s => match ceps c (phi (i - 1)%Z j) (phi i j) (temp (i - 1)%Z j) (temp i j) (grad_sum (depth p) gq i j) with Some v => Some (upd2 s i j v) | None => None end)
    (fun i j => val (ceps c (phi (i - 1)%Z j) (phi i j) (temp (i - 1)%Z j) (temp i j) (grad_sum (depth p) gq i j))) old) as (f & E & V).
  - intros i j s _. destruct (H (phi (i - 1)%Z j) (phi i j) (temp (i - 1)%Z j) (temp i j) (grad_sum (depth p) gq i j)) as (v & ->). reflexivity.
  - exists f. split; [exact E |]. intros i j (A & B). rewrite V. destruct (inb_spec (lo0 p) (hi0 p + 1) i); [| lia]. destruct (inb_spec (lo1 p) (hi1 p) j); [| lia]. reflexivity.
Qed.
Lemma fcy_val p c phi temp gq old : (forall a b t1 t2 g2, exists v, ceps c a b t1 t2 g2 = Some v) ->
  exists f, face_coefs_y p c phi temp gq old = Some f /\ forall i j, in_box (lo0 p) (hi0 p) (lo1 p) (hi1 p + 1) i j ->
    f i j = val (ceps c (phi i (j - 1)%Z) (phi i j) (temp i (j - 1)%Z) (temp i j) (grad_sum (depth p) gq i j)).
Proof.
  intro H. unfold face_coefs_y. destruct (ocells_upd2 (lo0 p) (hi0 p) (lo1 p) (hi1 p + 1)
    (fun i j s => match ceps c (phi i (j - 1)%Z) (phi i j) (temp i (j - 1)%Z) (temp i j) (grad_sum (depth p) gq i j) with Some v => Some (upd2 s i j v) | None => None end)
    (fun i j => val (ceps c (phi i (j - 1)%Z) (phi i j) (temp i (j - 1)%Z) (temp i j) (grad_sum (depth p) gq i j))) old) as (f & E & V).
  - intros i j s _. destruct (H (phi i (j - 1)%Z) (phi i j) (temp i (j - 1)%Z) (temp i j) (grad_sum (depth p) gq i j)) as (v & ->). reflexivity.
  - exists f. split; [exact E |]. intros i j (A & B). rewrite V. destruct (inb_spec (lo0 p) (hi0 p) i); [| lia]. destruct (inb_spec (lo1 p) (hi1 p + 1) j); [| lia]. reflexivity.
Qed.
Lemma upd3_two lo0 hi0 lo1 hi1 (g1 g2 : Z -> Z -> R) s a b :
  in_box lo0 hi0 lo1 hi1 a b ->
  do_cells lo0 hi0 lo1 hi1 (fun i j s => upd3 (upd3 s i j 1 (g1 i j)) i j 2 (g2 i j)) s a b 1%Z = g1 a b /\
  do_cells lo0 hi0 lo1 hi1 (fun i j s => upd3 (upd3 s i j 1 (g1 i j)) i j 2 (g2 i j)) s a b 2%Z = g2 a b.
Proof.
  intro H.
  assert (K : forall m v, (forall s : arr3, upd3 (upd3 s a b 1 (g1 a b)) a b 2 (g2 a b) a b m = v) ->
    do_cells lo0 hi0 lo1 hi1 (fun i j s => upd3 (upd3 s i j 1 (g1 i j)) i j 2 (g2 i j)) s a b m = v).
  { intros m v Hv. destruct (cells_once arr3 (fun x y => y a b m = x a b m) lo0 hi0 lo1 hi1 a b (fun i j s => upd3 (upd3 s i j 1 (g1 i j)) i j 2 (g2 i j)) s) as (s0 & _ & E); auto.
    - intros x y z E1 E2. congruence.
    - intros i j s0 _ N. unfold upd3. destruct (Z.eqb_spec a i); destruct (Z.eqb_spec b j); cbn; auto; lia.
    - rewrite E. apply Hv. }
  split; apply K; intro s0; unfold upd3; rewrite !Z.eqb_refl; reflexivity.
Qed.
Definition sl (c : quat_par) (phi1 phi2 t1 t2 g2 : R) : option (R * R) := coefficient_slopes c t1 t2 g2 phi1 phi2.
Lemma ddx_val p c phi temp gq d : (forall i j, in_box (lo0 p) (hi0 p + 1) (lo1 p) (hi1 p) i j -> exists v, sl c (phi (i - 1)%Z j) (phi i j) (temp (i - 1)%Z j) (temp i j) (grad_sum (depth p) gq i j) = Some v) ->
  exists f, diffusion_deriv_x p c phi temp gq d = Some f /\ forall i j, in_box (lo0 p) (hi0 p + 1) (lo1 p) (hi1 p) i j ->
    (f i j 1%Z, f i j 2%Z) = val2 (sl c (phi (i - 1)%Z j) (phi i j) (temp (i - 1)%Z j) (temp i j) (grad_sum (depth p) gq i j)).
Proof.
  intro H. unfold diffusion_deriv_x.
  set (W := fun i j => val2 (sl c (phi (i - 1)%Z j) (phi i j) (temp (i - 1)%Z j) (temp i j) (grad_sum (depth p) gq i j))).
  rewrite (ocells_some _ _ _ _ _ _ (fun i j s => upd3 (upd3 s i j 1 (fst (W i j))) i j 2 (snd (W i j)))).
  - eexists. split; [reflexivity |]. intros i j Hi.
    destruct (upd3_two _ _ _ _ (fun i j => fst (W i j)) (fun i j => snd (W i j)) d i j Hi) as (-> & ->). change (val2 _) with (W i j). destruct (W i j); reflexivity.
  - intros i j s Hi. unfold W. destruct (H i j Hi) as ((v1 & v2) & E). rewrite E. unfold sl, coefficient_slopes in E. rewrite E. reflexivity.
Qed.
Lemma ddy_val p c phi temp gq d : (forall i j, in_box (lo0 p) (hi0 p) (lo1 p) (hi1 p + 1) i j -> exists v, sl c (phi i (j - 1)%Z) (phi i j) (temp i (j - 1)%Z) (temp i j) (grad_sum (depth p) gq i j) = Some v) ->
  exists f, diffusion_deriv_y p c phi temp gq d = Some f /\ forall i j, in_box (lo0 p) (hi0 p) (lo1 p) (hi1 p + 1) i j ->
    (f i j 1%Z, f i j 2%Z) = val2 (sl c (phi i (j - 1)%Z) (phi i j) (temp i (j - 1)%Z) (temp i j) (grad_sum (depth p) gq i j)).
Proof.
  intro H. unfold diffusion_deriv_y.
  set (W := fun i j => val2 (sl c (phi i (j - 1)%Z) (phi i j) (temp i (j - 1)%Z) (temp i j) (grad_sum (depth p) gq i j))).
  rewrite (ocells_some _ _ _ _ _ _ (fun i j s => upd3 (upd3 s i j 1 (fst (W i j))) i j 2 (snd (W i j)))).
  - eexists. split; [reflexivity |]. intros i j Hi.
    destruct (upd3_two _ _ _ _ (fun i j => fst (W i j)) (fun i j => snd (W i j)) d i j Hi) as (-> & ->). change (val2 _) with (W i j). destruct (W i j); reflexivity.
  - intros i j s Hi. unfold W. destruct (H i j Hi) as ((v1 & v2) & E). rewrite E. unfold sl, coefficient_slopes in E. rewrite E. reflexivity.
Qed.
(** the divergence of the fluxes with the given coefficients on the four faces *)
Definition div4 (p : patch) (q : arr3) (i j : Z) (ar al at_ ab : R) : R :=
  (ar * (1 / h1 p) * (q (i + 1)%Z j 1%Z - q i j 1%Z) - al * (1 / h1 p) * (q i j 1%Z - q (i - 1)%Z j 1%Z)) * (1 / h1 p) +
  (at_ * (1 / h2 p) * (q i (j + 1)%Z 1%Z - q i j 1%Z) - ab * (1 / h2 p) * (q i j 1%Z - q i (j - 1)%Z 1%Z)) * (1 / h2 p).
Lemma accumulate_val p mob fcx fcy q fx fy out i j : depth p = 1%Z -> in_box (lo0 p) (hi0 p) (lo1 p) (hi1 p) i j ->
  accumulate p mob fcx fcy q fx fy out i j 1%Z = out i j 1%Z - mob i j * div4 p q i j (fcx (i + 1)%Z j) (fcx i j) (fcy i (j + 1)%Z) (fcy i j).
Proof.
  intros D (A & B). unfold accumulate, add_quat_op, cflux_x, cflux_y, div4. rewrite !mcells_val, D.
  repeat match goal with |- context [inb ?x ?y ?z] => destruct (inb_spec x y z); [| lia] end. cbn [andb].
  replace (i + 1 - 1)%Z with i by lia. replace (j + 1 - 1)%Z with j by lia. ring.
Qed.
Lemma div4_deriv p q i j (ar al at_ ab : R -> R) dr dl dt db : derivable_pt_lim ar 0 dr -> derivable_pt_lim al 0 dl -> derivable_pt_lim at_ 0 dt -> derivable_pt_lim ab 0 db ->
  derivable_pt_lim (fun e => div4 p q i j (ar e) (al e) (at_ e) (ab e)) 0 (div4 p q i j dr dl dt db).
Proof.
  intros R1 R2 R3 R4. apply is_derive_Reals. apply is_derive_Reals in R1, R2, R3, R4.
  set (kr := (1 / h1 p) * (q (i + 1)%Z j 1%Z - q i j 1%Z) * (1 / h1 p)). set (kl := (1 / h1 p) * (q i j 1%Z - q (i - 1)%Z j 1%Z) * (1 / h1 p)).
  set (kt := (1 / h2 p) * (q i (j + 1)%Z 1%Z - q i j 1%Z) * (1 / h2 p)). set (kb := (1 / h2 p) * (q i j 1%Z - q i (j - 1)%Z 1%Z) * (1 / h2 p)).
  apply (is_derive_ext (fun e => plus (minus (scal kr (ar e)) (scal kl (al e))) (minus (scal kt (at_ e)) (scal kb (ab e))))).
  { intro e. unfold div4, kr, kl, kt, kb, plus, minus, scal, opp; cbn -[IZR]. unfold mult; cbn -[IZR]. unfold plus; cbn -[IZR]. match goal with |- ?a = ?b => change (@eq R a b) end. ring. }
  evar_last. { apply (@is_derive_plus R_AbsRing R_NormedModule); apply (@is_derive_minus R_AbsRing R_NormedModule); apply is_derive_scal; eassumption. }
  unfold div4, kr, kl, kt, kb, plus, minus, scal, opp; cbn -[IZR]. unfold mult; cbn -[IZR]. unfold plus; cbn -[IZR]. match goal with |- ?a = ?b => change (@eq R a b) end. ring.
Qed.
Lemma zero_e (f d : R) : f + 0 * d = f.
Proof. ring. Qed.
(** the phases of the patch and of the ghost cells beside it are at least the threshold *)
Lemma block_core : forall p c phi temp M dM gqx gqy q dphi old2 old3,
  depth p = 1%Z -> In (qp_ftype c) ["m"; "t"; "s"]%char -> In (qp_interp1 c) ["q"; "p"; "h"; "w"; "m"; "3"; "c"]%char -> qp_interp2 c = "c"%char -> qp_avg c = "a"%char ->
  (forall i j, in_box (lo0 p - 1) (hi0 p + 1) (lo1 p - 1) (hi1 p + 1) i j -> jlf_threshold <= phi i j) ->
  (forall i j, in_box (lo0 p) (hi0 p) (lo1 p) (hi1 p) i j -> derivable_pt_lim M (phi i j) (dM i j)) ->
  exists out, multiplyDQuatDPhiBlock p c phi temp (fun a b => M (phi a b)) dM gqx gqy q dphi old2 old3 = Some out /\
  forall i j, in_box (lo0 p) (hi0 p) (lo1 p) (hi1 p) i j ->
  exists D E, rate (along_phase p c phi dphi temp M gqx gqy q old2 old3 i j) D /\
    rate (along_phase p c phi dphi temp (fun _ => 1) gqx gqy q old2 old3 i j) E /\
    out i j 1%Z = D + (sqrt (M (phi i j)) - M (phi i j)) * E /\
    E = - div4 p q i j
      (- fst (val2 (sl c (phi i j) (phi (i + 1)%Z j) (temp i j) (temp (i + 1)%Z j) (grad_sum (depth p) gqx (i + 1)%Z j))) * dphi i j
       - snd (val2 (sl c (phi i j) (phi (i + 1)%Z j) (temp i j) (temp (i + 1)%Z j) (grad_sum (depth p) gqx (i + 1)%Z j))) * dphi (i + 1)%Z j)
      (- fst (val2 (sl c (phi (i - 1)%Z j) (phi i j) (temp (i - 1)%Z j) (temp i j) (grad_sum (depth p) gqx i j))) * dphi (i - 1)%Z j
       - snd (val2 (sl c (phi (i - 1)%Z j) (phi i j) (temp (i - 1)%Z j) (temp i j) (grad_sum (depth p) gqx i j))) * dphi i j)
      (- fst (val2 (sl c (phi i j) (phi i (j + 1)%Z) (temp i j) (temp i (j + 1)%Z) (grad_sum (depth p) gqy i (j + 1)%Z))) * dphi i j
       - snd (val2 (sl c (phi i j) (phi i (j + 1)%Z) (temp i j) (temp i (j + 1)%Z) (grad_sum (depth p) gqy i (j + 1)%Z))) * dphi i (j + 1)%Z)
      (- fst (val2 (sl c (phi i (j - 1)%Z) (phi i j) (temp i (j - 1)%Z) (temp i j) (grad_sum (depth p) gqy i j))) * dphi i (j - 1)%Z
       - snd (val2 (sl c (phi i (j - 1)%Z) (phi i j) (temp i (j - 1)%Z) (temp i j) (grad_sum (depth p) gqy i j))) * dphi i j).
Proof.
  intros p c phi temp M dM gqx gqy q dphi old2 old3 Hd Hf Hi H2 Ha Hphi HM.
  assert (FS : forall t1 t2 g2 d1 d2, _) by (intros t1 t2 g2 d1 d2; exact (face_slopes c t1 t2 g2 d1 d2 Hf Hi H2 Ha)).
  assert (C0 : forall a b t1 t2 g2, exists v, ceps c a b t1 t2 g2 = Some v).
  { intros a b t1 t2 g2. destruct (FS t1 t2 g2 0 0) as (A & _). apply A. }
  assert (SL : forall a b t1 t2 g2, jlf_threshold <= a -> jlf_threshold <= b -> exists v, sl c a b t1 t2 g2 = Some v).
  { intros a b t1 t2 g2 L1 L2. destruct (FS t1 t2 g2 0 0) as (_ & A). destruct (A a b L1 L2) as (s1 & s2 & E & _). exists (s1, s2). exact E. }
  assert (SD : forall a b t1 t2 g2 d1 d2, jlf_threshold <= a -> jlf_threshold <= b ->
    derivable_pt_lim (fun e => val (ceps c (a + e * d1) (b + e * d2) t1 t2 g2)) 0 (- fst (val2 (sl c a b t1 t2 g2)) * d1 - snd (val2 (sl c a b t1 t2 g2)) * d2)).
  { intros a b t1 t2 g2 d1 d2 L1 L2. destruct (FS t1 t2 g2 d1 d2) as (_ & A). destruct (A a b L1 L2) as (s1 & s2 & E & D).
    unfold sl. rewrite E. cbn [val2 fst snd]. apply is_derive_Reals. apply is_derive_Reals in D.
    apply (is_derive_ext (fun e => opp (coefficient c t1 t2 g2 (a + e * d1) (b + e * d2)))).
    - intro e. unfold coefficient, ceps, opp; cbn. destruct (face_coef _ _ _ _ _ _ _ _ _ _ _ _); cbn; match goal with |- ?a = ?b => change (@eq R a b) end; ring.
    - evar_last. { apply (@is_derive_opp R_AbsRing R_NormedModule). exact D. } unfold opp; cbn. match goal with |- ?a = ?b => change (@eq R a b) end. ring. }
  unfold multiplyDQuatDPhiBlock.
  destruct (fcx_val p c phi temp gqx old2 C0) as (fcx & -> & Vx). destruct (fcy_val p c phi temp gqy old2 C0) as (fcy & -> & Vy).
  destruct (ddx_val p c phi temp gqx old3) as (dx & -> & Dx). { intros i j (A & B). apply SL; apply Hphi; split; lia. }
  destruct (ddy_val p c phi temp gqy old3) as (dy & -> & Dy). { intros i j (A & B). apply SL; apply Hphi; split; lia. }
  eexists. split; [reflexivity |]. intros i j Hij. pose proof Hij as (Hij1 & Hij2).
  (* the right-hand side along the change *)
  set (al := fun e => val (ceps c (phi (i - 1)%Z j + e * dphi (i - 1)%Z j) (phi i j + e * dphi i j) (temp (i - 1)%Z j) (temp i j) (grad_sum (depth p) gqx i j))).
  set (ar := fun e => val (ceps c (phi i j + e * dphi i j) (phi (i + 1)%Z j + e * dphi (i + 1)%Z j) (temp i j) (temp (i + 1)%Z j) (grad_sum (depth p) gqx (i + 1)%Z j))).
  set (ab := fun e => val (ceps c (phi i (j - 1)%Z + e * dphi i (j - 1)%Z) (phi i j + e * dphi i j) (temp i (j - 1)%Z) (temp i j) (grad_sum (depth p) gqy i j))).
  set (at_ := fun e => val (ceps c (phi i j + e * dphi i j) (phi i (j + 1)%Z + e * dphi i (j + 1)%Z) (temp i j) (temp i (j + 1)%Z) (grad_sum (depth p) gqy i (j + 1)%Z))).
  assert (Along : forall N e, along_phase p c phi dphi temp N gqx gqy q old2 old3 i j e = 0 - N (phi i j + e * dphi i j) * div4 p q i j (ar e) (al e) (at_ e) (ab e)).
  { intros N e. unfold along_phase, evaluateRHS1. set (phie := fun a b : Z => phi a b + e * dphi a b).
    destruct (fcx_val p c phie temp gqx old2 C0) as (gx & -> & Wx). destruct (fcy_val p c phie temp gqy old2 C0) as (gy & -> & Wy).
    rewrite accumulate_val by auto. rewrite (Wx i j), (Wx (i + 1)%Z j), (Wy i j), (Wy i (j + 1)%Z) by (split; lia).
    replace (i + 1 - 1)%Z with i by lia. replace (j + 1 - 1)%Z with j by lia. reflexivity. }
  pose proof (SD (phi (i - 1)%Z j) (phi i j) (temp (i - 1)%Z j) (temp i j) (grad_sum (depth p) gqx i j) (dphi (i - 1)%Z j) (dphi i j) ltac:(apply Hphi; split; lia) ltac:(apply Hphi; split; lia)) as Dl.
  pose proof (SD (phi i j) (phi (i + 1)%Z j) (temp i j) (temp (i + 1)%Z j) (grad_sum (depth p) gqx (i + 1)%Z j) (dphi i j) (dphi (i + 1)%Z j) ltac:(apply Hphi; split; lia) ltac:(apply Hphi; split; lia)) as Dr.
  pose proof (SD (phi i (j - 1)%Z) (phi i j) (temp i (j - 1)%Z) (temp i j) (grad_sum (depth p) gqy i j) (dphi i (j - 1)%Z) (dphi i j) ltac:(apply Hphi; split; lia) ltac:(apply Hphi; split; lia)) as Db.
  pose proof (SD (phi i j) (phi i (j + 1)%Z) (temp i j) (temp i (j + 1)%Z) (grad_sum (depth p) gqy i (j + 1)%Z) (dphi i j) (dphi i (j + 1)%Z) ltac:(apply Hphi; split; lia) ltac:(apply Hphi; split; lia)) as Dt.
  fold al in Dl. fold ar in Dr. fold ab in Db. fold at_ in Dt.
  pose proof (div4_deriv p q i j ar al at_ ab _ _ _ _ Dr Dl Dt Db) as Ddiv. cbv beta in Ddiv.
  match type of Ddiv with derivable_pt_lim _ _ ?x => set (dd := x) in * end.
  set (d0 := div4 p q i j (ar 0) (al 0) (at_ 0) (ab 0)).
  assert (RateG : forall N dN, derivable_pt_lim N (phi i j) dN -> rate (along_phase p c phi dphi temp N gqx gqy q old2 old3 i j) (- (dN * dphi i j * d0) - N (phi i j) * dd)).
  { intros N dN DN. unfold rate. apply is_derive_Reals. apply is_derive_Reals in DN, Ddiv.
    assert (DNe : is_derive (fun e => N (phi i j + e * dphi i j)) 0 (dphi i j * dN)).
    { apply (is_derive_comp N (fun e => phi i j + e * dphi i j) 0).
      - rewrite zero_e. exact DN.
      - auto_derive; auto. ring. }
    apply (is_derive_ext (fun e => opp (mult (N (phi i j + e * dphi i j)) (div4 p q i j (ar e) (al e) (at_ e) (ab e))))).
    - intro e. rewrite Along. unfold opp, mult; cbn. match goal with |- ?a = ?b => change (@eq R a b) end. ring.
    - evar_last.
      { apply (@is_derive_opp R_AbsRing R_NormedModule). apply (is_derive_mult (fun e => N (phi i j + e * dphi i j)) (fun e => div4 p q i j (ar e) (al e) (at_ e) (ab e)) 0 _ _ DNe Ddiv). intros; apply Rmult_comm. }
      unfold opp, plus, mult; cbn. rewrite zero_e. fold d0. match goal with |- ?a = ?b => change (@eq R a b) end. ring. }
  eexists. eexists. split; [apply RateG; apply HM; exact Hij |]. split; [apply (RateG (fun _ => 1) 0); apply derivable_pt_lim_const |].
  split; [| fold dd; ring].
  rewrite accumulate_val by auto. unfold multicomponent_multiply. rewrite mcells_val, Hd.
  destruct (inb_spec (lo0 p) (hi0 p) i); [| lia]. destruct (inb_spec (lo1 p) (hi1 p) j); [| lia]. cbn [andb inb Z.leb Z.compare].
  change (inb 1 1 1) with true. cbn [andb].
  rewrite accumulate_val by auto. unfold zeros.
  assert (E0 : div4 p q i j (fcx (i + 1)%Z j) (fcx i j) (fcy i (j + 1)%Z) (fcy i j) = d0).
  { unfold d0. f_equal.
    - rewrite Vx by (split; lia). unfold ar. rewrite !zero_e. replace (i + 1 - 1)%Z with i by lia. reflexivity.
    - rewrite Vx by (split; lia). unfold al. rewrite !zero_e. reflexivity.
    - rewrite Vy by (split; lia). unfold at_. rewrite !zero_e. replace (j + 1 - 1)%Z with j by lia. reflexivity.
    - rewrite Vy by (split; lia). unfold ab. rewrite !zero_e. reflexivity. }
  rewrite E0.
  assert (DX : forall a, (lo0 p <= a <= hi0 p + 1)%Z -> dquatdphi_x p dx dphi old2 a j = - dx a j 1%Z * dphi (a - 1)%Z j - dx a j 2%Z * dphi a j).
  { intros a' Ha'. unfold dquatdphi_x. rewrite (cells_loop (lo0 p) (hi0 p + 1) (lo1 p) (hi1 p) (fun i j _ => - dx i j 1%Z * dphi (i - 1)%Z j - dx i j 2%Z * dphi i j)).
    destruct (inb_spec (lo0 p) (hi0 p + 1) a'); [| lia]. destruct (inb_spec (lo1 p) (hi1 p) j); [| lia]. reflexivity. }
  assert (DY : forall b, (lo1 p <= b <= hi1 p + 1)%Z -> dquatdphi_y p dy dphi old2 i b = - dy i b 1%Z * dphi i (b - 1)%Z - dy i b 2%Z * dphi i b).
  { intros b' Hb'. unfold dquatdphi_y. rewrite (cells_loop (lo0 p) (hi0 p) (lo1 p) (hi1 p + 1) (fun i j _ => - dy i j 1%Z * dphi i (j - 1)%Z - dy i j 2%Z * dphi i j)).
    destruct (inb_spec (lo0 p) (hi0 p) i); [| lia]. destruct (inb_spec (lo1 p) (hi1 p + 1) b'); [| lia]. reflexivity. }
  rewrite !DX, !DY by lia.
  assert (E1 : div4 p q i j (- dx (i + 1)%Z j 1%Z * dphi (i + 1 - 1)%Z j - dx (i + 1)%Z j 2%Z * dphi (i + 1)%Z j) (- dx i j 1%Z * dphi (i - 1)%Z j - dx i j 2%Z * dphi i j)
      (- dy i (j + 1)%Z 1%Z * dphi i (j + 1 - 1)%Z - dy i (j + 1)%Z 2%Z * dphi i (j + 1)%Z) (- dy i j 1%Z * dphi i (j - 1)%Z - dy i j 2%Z * dphi i j) = dd).
  { unfold dd. pose proof (Dx i j ltac:(split; lia)) as P1. pose proof (Dx (i + 1)%Z j ltac:(split; lia)) as P2. pose proof (Dy i j ltac:(split; lia)) as P3. pose proof (Dy i (j + 1)%Z ltac:(split; lia)) as P4.
    replace (i + 1 - 1)%Z with i in * by lia. replace (j + 1 - 1)%Z with j in * by lia.
    rewrite <- P1, <- P2, <- P3, <- P4. reflexivity. }
  rewrite E1. ring.
Qed.
(** the phases of the patch and of the ghost cells beside it are at least the threshold *)
Lemma block_value : forall p c phi temp M dM gqx gqy q dphi old2 old3,
  depth p = 1%Z -> In (qp_ftype c) ["m"; "t"; "s"]%char -> In (qp_interp1 c) ["q"; "p"; "h"; "w"; "m"; "3"; "c"]%char -> qp_interp2 c = "c"%char -> qp_avg c = "a"%char ->
  (forall i j, in_box (lo0 p - 1) (hi0 p + 1) (lo1 p - 1) (hi1 p + 1) i j -> jlf_threshold <= phi i j) ->
  (forall i j, in_box (lo0 p) (hi0 p) (lo1 p) (hi1 p) i j -> derivable_pt_lim M (phi i j) (dM i j)) ->
  exists out, multiplyDQuatDPhiBlock p c phi temp (fun a b => M (phi a b)) dM gqx gqy q dphi old2 old3 = Some out /\
  forall i j, in_box (lo0 p) (hi0 p) (lo1 p) (hi1 p) i j ->
  exists D E, rate (along_phase p c phi dphi temp M gqx gqy q old2 old3 i j) D /\
    rate (along_phase p c phi dphi temp (fun _ => 1) gqx gqy q old2 old3 i j) E /\
    out i j 1%Z = D + (sqrt (M (phi i j)) - M (phi i j)) * E.
Proof.
  intros p c phi temp M dM gqx gqy q dphi old2 old3 Hd Hf Hi H2 Ha Hphi HM.
  destruct (block_core p c phi temp M dM gqx gqy q dphi old2 old3 Hd Hf Hi H2 Ha Hphi HM) as (out & E & V). exists out. split; [exact E |].
  intros i j Hij. destruct (V i j Hij) as (D & E' & A & B & C & _). exists D, E'. auto.
Qed.
Lemma block_exact : forall p c phi temp M dM gqx gqy q dphi old2 old3,
  depth p = 1%Z -> In (qp_ftype c) ["m"; "t"; "s"]%char -> In (qp_interp1 c) ["q"; "p"; "h"; "w"; "m"; "3"; "c"]%char -> qp_interp2 c = "c"%char -> qp_avg c = "a"%char ->
  (forall i j, in_box (lo0 p - 1) (hi0 p + 1) (lo1 p - 1) (hi1 p + 1) i j -> jlf_threshold <= phi i j) ->
  (forall i j, in_box (lo0 p) (hi0 p) (lo1 p) (hi1 p) i j -> derivable_pt_lim M (phi i j) (dM i j)) ->
  exists out, multiplyDQuatDPhiBlock p c phi temp (fun a b => M (phi a b)) dM gqx gqy q dphi old2 old3 = Some out /\
  forall i j, in_box (lo0 p) (hi0 p) (lo1 p) (hi1 p) i j -> 0 <= M (phi i j) ->
  exists E, rate (along_phase p c phi dphi temp (fun _ => 1) gqx gqy q old2 old3 i j) E /\
    (rate (along_phase p c phi dphi temp M gqx gqy q old2 old3 i j) (out i j 1%Z) <-> M (phi i j) = 0 \/ M (phi i j) = 1 \/ E = 0).
Proof.
  intros p c phi temp M dM gqx gqy q dphi old2 old3 Hd Hf Hi H2 Ha Hphi HM.
  destruct (block_core p c phi temp M dM gqx gqy q dphi old2 old3 Hd Hf Hi H2 Ha Hphi HM) as (out & E & V). exists out. split; [exact E |].
  intros i j Hij Mpos. destruct (V i j Hij) as (D & E' & A & B & C & _). exists E'. split; [exact B |]. split.
  - intro K. assert (Eq : out i j 1%Z = D) by (eapply uniqueness_limite; [exact K | exact A]).
    set (m := M (phi i j)) in *. assert (P : (sqrt m - m) * E' = 0) by lra. apply Rmult_integral in P. destruct P as [P | P]; [| auto].
    assert (S2 : sqrt m * sqrt m = m) by (apply sqrt_sqrt; exact Mpos). assert (Q : sqrt m * (1 - sqrt m) = 0) by lra.
    apply Rmult_integral in Q. destruct Q as [Q | Q]; [left; rewrite <- S2, Q; ring | right; left; rewrite <- S2; replace (sqrt m) with 1 by lra; ring].
  - intro K. replace (out i j 1%Z) with D; [exact A |]. rewrite C. destruct K as [K | [K | K]]; rewrite K; [rewrite sqrt_0; ring | rewrite sqrt_1; ring | ring].
Qed.
(** with mobility 4 the block is not the derivative *)
Lemma block_sqrt_refuted : exists p c phi temp gqx gqy q dphi, depth p = 1%Z /\ qp_interp1 c = "q"%char /\ qp_interp2 c = "c"%char /\ qp_avg c = "a"%char /\ qp_ftype c = "m"%char /\
  (forall i j, phi i j = / 2) /\ in_box (lo0 p) (hi0 p) (lo1 p) (hi1 p) 0 0 /\
  forall old2 old3, exists out D, multiplyDQuatDPhiBlock p c phi temp (fun _ _ => 4) (fun _ _ => 0) gqx gqy q dphi old2 old3 = Some out /\
    rate (along_phase p c phi dphi temp (fun _ => 4) gqx gqy q old2 old3 0 0) D /\ D <> 0 /\ out 0%Z 0%Z 1%Z = D / 2.
Proof.
  set (p := mk_patch 0 0 0 0 1 1 1). set (c := mk_quat_par 0 (/ 2) 1 "m" "q" "c" "a").
  exists p, c, (fun _ _ => / 2), (fun _ _ => 1), (fun _ _ _ _ => 0), (fun _ _ _ _ => 0), (fun i _ _ => IZR i), (fun i j => if ((i =? 1) && (j =? 0))%Z then 1 else 0).
  do 5 (split; [reflexivity |]). split; [intros; reflexivity |]. split; [cbn; split; lia |]. intros old2 old3.
  assert (J : jlf_threshold <= / 2) by (unfold jlf_threshold; apply Rinv_le_contravar; lra).
  destruct (block_core p c (fun _ _ => / 2) (fun _ _ => 1) (fun _ => 4) (fun _ _ => 0) (fun _ _ _ _ => 0) (fun _ _ _ _ => 0) (fun i _ _ => IZR i) (fun i j => if ((i =? 1) && (j =? 0))%Z then 1 else 0) old2 old3)
    as (out & E & V); [reflexivity | cbn; auto | cbn; auto | reflexivity | reflexivity | intros; exact J | intros; apply derivable_pt_lim_const |].
  exists out. destruct (V 0%Z 0%Z ltac:(cbn; split; lia)) as (D & E' & A & B & C & F). exists D. split; [exact E |]. split; [exact A |].
  assert (Q : D = 4 * E').
  { eapply uniqueness_limite; [exact A |]. unfold rate in B |- *. apply is_derive_Reals. apply is_derive_Reals in B.
    apply (is_derive_ext (fun e => scal 4 (along_phase p c (fun _ _ => / 2) (fun i j => if ((i =? 1) && (j =? 0))%Z then 1 else 0) (fun _ _ => 1) (fun _ => 1) (fun _ _ _ _ => 0) (fun _ _ _ _ => 0) (fun i _ _ => IZR i) old2 old3 0 0 e))).
    2: apply is_derive_scal; exact B.
    intro e. unfold along_phase, evaluateRHS1. unfold scal; cbn -[IZR face_coefs_x face_coefs_y accumulate]. unfold mult; cbn -[IZR face_coefs_x face_coefs_y accumulate].
    destruct (face_coefs_x _ _ _ _ _ _); [| match goal with |- ?a = ?b => change (@eq R a b) end; ring]. destruct (face_coefs_y _ _ _ _ _ _); [| match goal with |- ?a = ?b => change (@eq R a b) end; ring].
    rewrite !accumulate_val by (reflexivity || (cbn; split; lia)). unfold zeros. match goal with |- ?a = ?b => change (@eq R a b) end. ring. }
  assert (S4 : sqrt 4 = 2) by (replace 4 with (2 * 2) by ring; apply sqrt_square; lra). rewrite S4 in C.
  split; [| rewrite C, Q; field].
  rewrite Q, F. unfold sl, coefficient_slopes, face_deriv. cbn [qp_H qp_floor qp_ftype qp_interp1 qp_avg c average_func deriv_interp_func eval_grad_normi deriv_average_func].
  destruct (Rlt_dec (/ 2) jlf_threshold); [lra |].
  assert (G0 : forall i j, grad_sum (depth p) (fun _ _ _ _ => 0) i j = 0).
  { intros i j. unfold grad_sum. change (do_loop 1 2 (fun n s => do_loop 1 1 (fun m s => s + 0 * 0) s) 0 = 0). rewrite !(do_loop_snoc R) by lia. rewrite !do_loop_empty by lia. rewrite ?(do_loop_snoc R 1 1) by lia. rewrite !do_loop_empty by lia. ring. }
  rewrite !G0. destruct (Rlt_dec (1 * 1) 0); [lra |]. cbn [val2 fst snd].
  assert (P : pos (/ 2 * (/ 2 + / 2)) = / 2) by (unfold pos; rewrite Rmax_right; lra). rewrite P. unfold div4, p. cbn [h1 h2]. cbn -[IZR Rinv Rdiv]. unfold Z.add, Z.sub. cbn -[Rinv Rdiv]. lra.
Qed.
(** the derivative of the coefficient on a face *)
Lemma face_slopes_ok : forall c t1 t2 g2 phi1 phi2 d1 d2, In (qp_ftype c) ["m"; "t"; "s"]%char -> In (qp_interp1 c) ["q"; "p"; "h"; "w"; "m"; "3"; "c"]%char -> qp_interp2 c = "c"%char -> qp_avg c = "a"%char ->
  jlf_threshold <= phi1 -> jlf_threshold <= phi2 ->
  exists s1 s2, coefficient_slopes c t1 t2 g2 phi1 phi2 = Some (s1, s2) /\
    derivable_pt_lim (fun e => coefficient c t1 t2 g2 (phi1 + e * d1) (phi2 + e * d2)) 0 (s1 * d1 + s2 * d2).
Proof.
  intros c t1 t2 g2 phi1 phi2 d1 d2 Hf Hi H2 Ha L1 L2. destruct (face_slopes c t1 t2 g2 d1 d2 Hf Hi H2 Ha) as (_ & A). apply A; auto.
Qed.
Lemma thr_small : 0 < jlf_threshold < / 4.
Proof. unfold jlf_threshold. split; [apply Rinv_0_lt_compat; lra | apply Rinv_lt_contravar; lra]. Qed.
(** not when the second interpolation depends on the phase *)
Lemma face_interp2_refuted : exists c s1 s2, qp_interp2 c = "q"%char /\ qp_avg c = "a"%char /\ 0 < qp_eps c /\ coefficient_slopes c 1 1 0 (/ 2) (/ 2) = Some (s1, s2) /\
  derivable_pt_lim (fun e => coefficient c 1 1 0 (/ 2 + e) (/ 2)) 0 (3 * s1 / 2) /\ 0 < s1.
Proof.
  exists (mk_quat_par 1 1 1 "m" "q" "q" "a"), 1, 1. pose proof thr_small as T.
  do 2 (split; [reflexivity |]). split; [cbn; lra |].
  unfold coefficient_slopes, coefficient, face_deriv, face_coef. cbn [qp_eps qp_H qp_floor qp_ftype qp_interp1 qp_interp2 qp_avg average_func deriv_interp_func interp_func eval_grad_normi deriv_average_func].
  destruct (Rlt_dec (/ 2) jlf_threshold); [lra |]. destruct (Rlt_dec (1 * 1) 0); [lra |].
  assert (P : pos (/ 2 * (/ 2 + / 2)) = / 2) by (unfold pos; rewrite Rmax_right; lra). rewrite P.
  split; [f_equal; f_equal; field |]. split; [| lra].
  apply (local_eq _ (fun e => 3 * (/ 2 * (/ 2 + e + / 2)) * (/ 2 * (/ 2 + e + / 2))) 0 _ (/ 2)); [lra | |].
  - intros e He. apply Rabs_def2 in He. assert (pos (/ 2 * (/ 2 + e + / 2)) = / 2 * (/ 2 + e + / 2)) as -> by (unfold pos; rewrite Rmax_right; lra). field.
  - apply is_derive_Reals. auto_derive; auto. field.
Qed.
(** not beside a cell without solid *)
Lemma face_threshold_refuted : exists c d, qp_interp2 c = "c"%char /\ qp_avg c = "a"%char /\ coefficient_slopes c 1 1 0 0 (/ 2) = Some (0, 0) /\
  derivable_pt_lim (fun e => coefficient c 1 1 0 0 (/ 2 + e)) 0 d /\ 0 < d.
Proof.
  exists (mk_quat_par 0 1 1 "m" "q" "c" "a"), (/ 2). pose proof thr_small as T.
  do 2 (split; [reflexivity |]).
  unfold coefficient_slopes, coefficient, face_deriv, face_coef. cbn [qp_eps qp_H qp_floor qp_ftype qp_interp1 qp_interp2 qp_avg average_func deriv_interp_func interp_func eval_grad_normi deriv_average_func].
  destruct (Rlt_dec 0 jlf_threshold); [| lra]. destruct (Rlt_dec (1 * 1) 0); [lra |].
  split; [reflexivity |]. split; [| lra].
  apply (local_eq _ (fun e => 2 * (/ 2 * (0 + (/ 2 + e))) * (/ 2 * (0 + (/ 2 + e)))) 0 _ (/ 2)); [lra | |].
  - intros e He. apply Rabs_def2 in He. assert (pos (/ 2 * (0 + (/ 2 + e))) = / 2 * (0 + (/ 2 + e))) as -> by (unfold pos; rewrite Rmax_right; lra). field.
  - apply is_derive_Reals. auto_derive; auto. field.
Qed.
(** not with the harmonic average *)
Lemma face_harmonic_refuted : exists c s1 s2 d, qp_interp2 c = "c"%char /\ qp_avg c = "h"%char /\ coefficient_slopes c 1 1 0 1 (/ 2) = Some (s1, s2) /\
  derivable_pt_lim (fun e => coefficient c 1 1 0 (1 + e) (/ 2)) 0 d /\ 0 < d /\ 5 * d < s1.
Proof.
  exists (mk_quat_par 0 1 1 "m" "q" "c" "h"), 3, (3 / 4), (16 / 27). pose proof thr_small as T.
  assert (T' : 0 < avg_threshold < / 4). { unfold avg_threshold. split; [apply Rinv_0_lt_compat; lra | apply Rinv_lt_contravar; lra]. }
  do 2 (split; [reflexivity |]).
  unfold coefficient_slopes, coefficient, face_deriv, face_coef. cbn [qp_eps qp_H qp_floor qp_ftype qp_interp1 qp_interp2 qp_avg average_func deriv_interp_func interp_func eval_grad_normi deriv_average_func].
  destruct (Rlt_dec 1 jlf_threshold); [lra |]. destruct (Rlt_dec (/ 2) jlf_threshold); [lra |]. destruct (Rlt_dec (1 * 1) 0); [lra |].
  destruct (Rlt_dec 1 avg_threshold); [lra |]. destruct (Rlt_dec (/ 2) avg_threshold); [lra |].
  replace (2 / (1 / 1 + 1 / / 2)) with (2 / 3) by field. destruct (Rlt_dec (2 / 3) avg_threshold); [lra |].
  assert (P : pos (2 / 3) = 2 / 3) by (unfold pos; rewrite Rmax_right; lra). rewrite P.
  split; [f_equal; f_equal; field |]. split; [| split; lra].
  apply (local_eq _ (fun e => 2 * (2 * (1 + e) / (1 + 2 * (1 + e))) * (2 * (1 + e) / (1 + 2 * (1 + e)))) 0 _ (/ 2)); [lra | |].
  - intros e He. apply Rabs_def2 in He. destruct (Rlt_dec (1 + e) avg_threshold); [lra |].
    replace (2 / (1 / (1 + e) + 1 / / 2)) with (2 * (1 + e) / (1 + 2 * (1 + e))) by (field; lra).
    assert (0 <= 2 * (1 + e) / (1 + 2 * (1 + e))). { apply Rmult_le_pos; [lra |]. left. apply Rinv_0_lt_compat. lra. }
    assert (pos (2 * (1 + e) / (1 + 2 * (1 + e))) = 2 * (1 + e) / (1 + 2 * (1 + e))) as -> by (unfold pos; rewrite Rmax_right; lra). field. lra.
  - apply is_derive_Reals. auto_derive; [repeat split; auto; lra |]. field.
Qed.
(** which inputs are used *)
Lemma orient_input : forall db p, readOrientation db = Some p ->
  (forall m, db_orient_mobility db = Some m -> op_scale p = m) /\
  (forall m, db_orient_mobility db = None -> db_quat_mobility db = Some m -> op_scale p = m) /\
  (forall tau, db_orient_mobility db = None -> db_quat_mobility db = None -> db_tau_quat db = Some tau -> op_scale p * tau = 1) /\
  (forall m, db_min_orient db = Some m -> op_min p = m) /\
  (forall m, db_min_orient db = None -> db_min_quat db = Some m -> op_min p = m) /\
  (db_min_orient db = None -> db_min_quat db = None -> op_min p * 10 ^ 6 = 1) /\
  (db_func_quat db = None -> db_func_orient db = None -> op_type p = "p"%char) /\
  (op_type p = "i"%char -> forall m, db_max_orient db = Some m -> op_max p = Some m) /\
  (op_type p = "e"%char -> forall m, db_exp_orient db = Some m -> op_exp p = Some m).
Proof.
  intros db p H. unfold readOrientation in H.
  set (sc := match db_orient_mobility db, db_quat_mobility db, db_tau_quat db with
               | Some m, _, _ => Some m
               | None, Some m, _ => Some m
               | None, None, Some tau => if Req_EM_T tau 0 then None else Some (1 / tau)
               | None, None, None => None
               end) in H. destruct sc as [v |] eqn:E; [| discriminate]. unfold sc in E. clear sc.
  set (t := first_char _) in H.
  destruct (negb (Ascii.eqb t "p") && negb (Ascii.eqb t "i") && negb (Ascii.eqb t "e"))%bool; [discriminate |].
  injection H as <-. cbn [op_scale op_min op_type op_max op_exp].
  repeat split.
  - intros m Hm. rewrite Hm in E. congruence.
  - intros m H0 Hm. rewrite H0, Hm in E. congruence.
  - intros tau H0 H1 Hm. rewrite H0, H1, Hm in E. destruct (Req_EM_T tau 0); [discriminate |]. injection E as <-. field. auto.
  - intros m Hm. rewrite Hm. reflexivity.
  - intros m H0 Hm. rewrite H0, Hm. reflexivity.
  - intros H0 H1. rewrite H0, H1. cbn [first_of]. apply Rinv_l. lra.
  - intros H0 H1. unfold t. rewrite H0, H1. reflexivity.
  - intros T m Hm. rewrite T, Hm. reflexivity.
  - intros T m Hm. rewrite T, Hm. reflexivity.
Qed.
