From Coq Require Import Reals ZArith Ascii String List Lia Lra Bool.
From Coquelicot Require Import Coquelicot.
From Verif Require Import Grid_Model Grid_Proofs Functions_Model Noise_Model Noise_Spec Noise_Proofs Partition_Model PhaseMob_Model PhaseMob_Spec.
Import ListNotations.
Set Bullet Behavior "Strict Subproofs".

(** ** loops *)
Section Walk.
  Open Scope Z_scope.
  Context {S : Type} (B : pbox) (Gs : list pbox) (body : list Z -> S -> option S) (Inv : Z -> S -> Prop).
  Hypothesis HB : lo0 B <= hi0 B /\ lo1 B <= hi1 B /\ lo2 B <= hi2 B.
  Definition at_ (i j k : Z) : list Z := map (fun G => stored_at G i j k) Gs.
  Hypothesis step : forall i j k s, in_pbox B i j k -> Inv (stored_at B i j k) s ->
    exists s', body (at_ i j k) s = Some s' /\ Inv (stored_at B i j k + 1) s'.
  Definition row_shift := map (fun G => cells0 G - cells0 B) Gs.
  Definition plane_shift := map (fun G => cells0 G * (cells1 G - cells1 B)) Gs.
  Definition here (i j k : Z) (st : option (list Z * S)) : Prop :=
    exists s, st = Some (at_ i j k, s) /\ Inv (stored_at B i j k) s.
  Definition shift (d : list Z) (st : option (list Z * S)) : option (list Z * S) :=
    bind st (fun p => Some (map (fun xy => fst xy + snd xy) (combine (fst p) d), snd p)).
  Definition one_cell (st : option (list Z * S)) : option (list Z * S) :=
    bind st (fun p => bind (body (fst p) (snd p)) (fun s' => Some (map (Z.add 1) (fst p), s'))).

  Lemma combine_maps {A} (f g : A -> Z) l : map (fun xy => fst xy + snd xy) (combine (map f l) (map g l)) = map (fun a => f a + g a) l.
  Proof. induction l as [|a l IH]; [reflexivity|]. cbn. rewrite IH. reflexivity. Qed.
  Lemma next_cell i j k st : in_pbox B i j k -> here i j k st -> here (i + 1) j k (one_cell st).
  Proof.
    intros Hin (s & -> & H). destruct (step i j k s Hin H) as (s' & E & I). unfold one_cell. cbn [bind fst snd]. rewrite E. cbn [bind].
    exists s'. split.
    - f_equal. f_equal. unfold at_. rewrite map_map. apply map_ext. intros G. unfold stored_at. lia.
    - replace (stored_at B (i + 1) j k) with (stored_at B i j k + 1) by (unfold stored_at; lia). exact I.
  Qed.
  Lemma next_row j k st : here (hi0 B + 1) j k st -> here (lo0 B) (j + 1) k (shift row_shift st).
  Proof.
    intros (s & -> & H). unfold shift. cbn [bind fst snd]. exists s. split.
    - f_equal. f_equal. unfold at_, row_shift. rewrite combine_maps. apply map_ext. intros G. unfold stored_at, cells0. ring.
    - replace (stored_at B (lo0 B) (j + 1) k) with (stored_at B (hi0 B + 1) j k) by (unfold stored_at; ring). exact H.
  Qed.
  Lemma next_plane k st : here (lo0 B) (hi1 B + 1) k st -> here (lo0 B) (lo1 B) (k + 1) (shift plane_shift st).
  Proof.
    intros (s & -> & H). unfold shift. cbn [bind fst snd]. exists s. split.
    - f_equal. f_equal. unfold at_, plane_shift. rewrite combine_maps. apply map_ext. intros G. unfold stored_at, cells0, cells1. ring.
    - replace (stored_at B (lo0 B) (lo1 B) (k + 1)) with (stored_at B (lo0 B) (hi1 B + 1) k) by (unfold stored_at; ring). exact H.
  Qed.
  Lemma loop_here (P : Z -> option (list Z * S) -> Prop) lo hi f st : lo <= hi -> P lo st ->
    (forall i st, lo <= i <= hi -> P i st -> P (i + 1) (f st)) -> P (hi + 1) (do_loop lo hi (fun _ => f) st).
  Proof.
    intros Hle H0 Hs. pose proof (do_loop_ind _ (fun i st => P (i + 1) st) lo hi (fun _ => f) st) as L.
    replace (Z.max (lo - 1) hi) with hi in L by lia. apply L.
    - replace (lo - 1 + 1) with lo by lia. exact H0.
    - intros i st' Hi HP. apply Hs; [lia|]. replace (i - 1 + 1) with i in HP by lia. exact HP.
  Qed.
  Lemma walk_run start s : start = at_ (lo0 B) (lo1 B) (lo2 B) -> Inv 0 s ->
    exists idx s', walk B start row_shift plane_shift body s = Some (idx, s') /\ Inv (array_size B) s'.
  Proof.
    intros -> H0.
    assert (R : here (lo0 B) (lo1 B) (hi2 B + 1) (walk B (at_ (lo0 B) (lo1 B) (lo2 B)) row_shift plane_shift body s)).
    { unfold walk. apply (loop_here (fun k st => here (lo0 B) (lo1 B) k st)); [lia| |].
      - exists s. split; [reflexivity|]. replace (stored_at B (lo0 B) (lo1 B) (lo2 B)) with 0 by (unfold stored_at; ring). exact H0.
      - intros k st Hk H. apply next_plane. apply (loop_here (fun j st => here (lo0 B) j k st)); [lia|exact H|].
        intros j st' Hj H'. apply next_row. apply (loop_here (fun i st => here i j k st)); [lia|exact H'|].
        intros i st'' Hi H''. apply next_cell; [unfold in_pbox; lia|exact H'']. }
    destruct R as (s' & E & I). exists (at_ (lo0 B) (lo1 B) (hi2 B + 1)), s'. split; [exact E|].
    replace (array_size B) with (stored_at B (lo0 B) (lo1 B) (hi2 B + 1)) by (unfold stored_at, array_size, cells0, cells1, cells2; ring). exact I.
  Qed.
End Walk.

Lemma inside_true G i j k : in_pbox G i j k -> inside G (stored_at G i j k) = true.
Proof. intros H. pose proof (stored_range G i j k H). unfold inside. apply andb_true_intro. split; [apply Z.leb_le|apply Z.ltb_lt]; lia. Qed.
Lemma bigger b g g' i j k : at_least g g' -> in_pbox (ghost_box b g') i j k -> in_pbox (ghost_box b g) i j k.
Proof. unfold at_least, in_pbox, ghost_box; cbn. lia. Qed.
Lemma ghost_nonempty three_d b g : box_ok three_d b -> ghosts_ok three_d g ->
  (lo0 (ghost_box b g) <= hi0 (ghost_box b g) /\ lo1 (ghost_box b g) <= hi1 (ghost_box b g) /\ lo2 (ghost_box b g) <= hi2 (ghost_box b g))%Z.
Proof. unfold box_ok, ghosts_ok, ghost_box; cbn. lia. Qed.
Lemma first_stored three_d b g g' : ghosts_ok three_d g -> ghosts_ok three_d g' ->
  first_index three_d (ghost_box b g') (ghost_box b g) = stored_at (ghost_box b g) (lo0 (ghost_box b g')) (lo1 (ghost_box b g')) (lo2 (ghost_box b g')).
Proof.
  unfold ghosts_ok, first_index, stored_at, ghost_box, cells0, cells1; cbn. intros (_ & H) (_ & H'). destruct three_d; [ring|].
  rewrite (H eq_refl), (H' eq_refl). ring.
Qed.

Lemma kim_cells : forall (V : Type) three_d b teg cig phig mog with_b (ev : R -> (Z -> R) -> (Z -> R) -> R * R * R -> option V) te cl ca phi mob val,
  box_ok three_d b -> ghosts_ok three_d teg -> ghosts_ok three_d cig -> ghosts_ok three_d mog -> at_least teg mog -> at_least cig mog ->
  (with_b = true -> phig = cig) ->
  (forall i j k, in_pbox (ghost_box b mog) i j k ->
     let T := stored_at (ghost_box b teg) i j k in let C := stored_at (ghost_box b cig) i j k in let P := stored_at (ghost_box b phig) i j k in
     ev (te T) (fun ic => cl ic C) (fun ic => ca ic C) (if with_b then (phi 0%Z P, phi 1%Z P, phi 2%Z P) else (0, 0, 0)%R) = Some (val i j k)) ->
  exists m, kim_update three_d b teg cig phig mog with_b ev te cl ca phi mob = Some m /\
    (forall i j k, in_pbox (ghost_box b mog) i j k -> m (stored_at (ghost_box b mog) i j k) = val i j k) /\
    (forall n, (n < 0 \/ array_size (ghost_box b mog) <= n)%Z -> m n = mob n).
Proof.
  intros V three_d b teg cig phig mog with_b ev te cl ca phi mob val Hb Ht Hc Hm Gt Gc Gp Hev.
  unfold kim_update.
  assert (A : ((gw0 mog <=? gw0 teg) && (gw0 mog <=? gw0 cig) && (negb with_b || (gw0 mog <=? gw0 phig)))%Z%bool = true).
  { destruct Gt as (g1 & _). destruct Gc as (g2 & _). apply Z.leb_le in g1. pose proof g2 as g3. apply Z.leb_le in g3. rewrite g1, g3. destruct with_b; [|reflexivity].
    rewrite (Gp eq_refl). cbn. exact g3. }
  rewrite A. cbv zeta. clear A.
  set (TE := ghost_box b teg) in *. set (CI := ghost_box b cig) in *. set (PHI := ghost_box b phig) in *. set (MO := ghost_box b mog) in *.
  match goal with |- context [walk MO _ _ _ ?f _] => set (body := f) end.
  pose (Inv := fun (n : Z) (m : Z -> V) => (forall i j k, in_pbox MO i j k -> (stored_at MO i j k < n)%Z -> m (stored_at MO i j k) = val i j k) /\
                                    (forall p, (p < 0 \/ n <= p)%Z -> m p = mob p)).
  pose proof (ghost_nonempty three_d b mog Hb Hm) as HB. fold MO in HB.
  destruct (walk_run MO [TE; CI; MO] body Inv HB) with (start := at_ [TE; CI; MO] (lo0 MO) (lo1 MO) (lo2 MO)) (s := mob) as (idx & m & E & I1 & I2).
  - intros i j k m Hin (D1 & D2).
    assert (iT : in_pbox TE i j k) by (eapply bigger; eauto). assert (iC : in_pbox CI i j k) by (eapply bigger; eauto).
    unfold at_; cbn [map]. unfold body. rewrite !inside_true by assumption.
    assert (iP : (negb with_b || inside PHI (stored_at CI i j k))%bool = true).
    { destruct with_b; [|reflexivity]. cbn. unfold PHI. rewrite (Gp eq_refl). apply inside_true. exact iC. }
    rewrite iP. cbn [andb]. pose proof (Hev i j k Hin) as Ev. cbv zeta in Ev.
    replace (if with_b then (phi 0%Z (stored_at CI i j k), phi 1%Z (stored_at CI i j k), phi 2%Z (stored_at CI i j k)) else (0, 0, 0)%R)
      with (if with_b then (phi 0%Z (stored_at PHI i j k), phi 1%Z (stored_at PHI i j k), phi 2%Z (stored_at PHI i j k)) else (0, 0, 0)%R)
      by (destruct with_b; [unfold PHI; rewrite (Gp eq_refl); reflexivity|reflexivity]).
    rewrite Ev. cbn [bind]. eexists. split; [reflexivity|]. split.
    + intros i' j' k' Hin' Hlt. destruct (Z.eqb_spec (stored_at MO i' j' k') (stored_at MO i j k)) as [e|ne].
      * destruct (stored_inj MO i' j' k' i j k Hin' Hin e) as (-> & -> & ->). reflexivity.
      * apply D1; [exact Hin'|lia].
    + intros p Hp. pose proof (stored_range MO i j k Hin). destruct (Z.eqb_spec p (stored_at MO i j k)); [lia|]. apply D2. lia.
  - reflexivity.
  - split; [|auto]. intros i j k Hin Hlt. pose proof (stored_range MO i j k Hin). lia.
  - replace [first_index three_d MO TE; first_index three_d MO CI; 0%Z] with (at_ [TE; CI; MO] (lo0 MO) (lo1 MO) (lo2 MO)).
    2:{ unfold at_; cbn [map]. unfold TE, CI, MO. rewrite !first_stored by assumption. f_equal. f_equal. f_equal. unfold stored_at. ring. }
    replace [2 * (gw0 teg - gw0 mog); 2 * (gw0 cig - gw0 mog); 0]%Z with (row_shift MO [TE; CI; MO]).
    2:{ unfold row_shift; cbn [map]. unfold TE, CI, MO, ghost_box, cells0; cbn [lo0 hi0]. f_equal; [ring|f_equal; [ring|f_equal; ring]]. }
    replace [2 * cells0 TE * (gw1 teg - gw1 mog); 2 * cells0 CI * (gw1 cig - gw1 mog); 0]%Z with (plane_shift MO [TE; CI; MO]).
    2:{ unfold plane_shift; cbn [map]. unfold TE, CI, MO, ghost_box, cells0, cells1; cbn [lo0 hi0 lo1 hi1]. f_equal; [ring|f_equal; [ring|f_equal; ring]]. }
    rewrite E. cbn [bind snd]. exists m. split; [reflexivity|]. split.
    + intros i j k Hin. apply I1; [exact Hin|]. apply stored_range. exact Hin.
    + intros n Hn. apply I2. exact Hn.
Qed.

Lemma dilute_cells : forall three_d b teg pfg cig solve te pf conc cl ca sol,
  box_ok three_d b -> ghosts_ok three_d teg -> ghosts_ok three_d pfg -> ghosts_ok three_d cig -> at_least teg cig -> at_least pfg cig ->
  (forall i j k, in_pbox (ghost_box b cig) i j k ->
     let T := stored_at (ghost_box b teg) i j k in let P := stored_at (ghost_box b pfg) i j k in let C := stored_at (ghost_box b cig) i j k in
     solve (te T) (conc P) (pf P) (cl C, ca C) = Some (sol i j k)) ->
  exists cl' ca', dilute_update three_d b teg pfg cig solve te pf conc cl ca = Some (cl', ca') /\
    (forall i j k, in_pbox (ghost_box b cig) i j k -> (cl' (stored_at (ghost_box b cig) i j k), ca' (stored_at (ghost_box b cig) i j k)) = sol i j k) /\
    (forall n, (n < 0 \/ array_size (ghost_box b cig) <= n)%Z -> cl' n = cl n /\ ca' n = ca n).
Proof.
  intros three_d b teg pfg cig solve te pf conc cl ca sol Hb Ht Hp Hc Gt Gp Hev.
  unfold dilute_update.
  assert (A : ((gw0 cig <=? gw0 teg) && (gw0 cig <=? gw0 pfg))%Z%bool = true).
  { destruct Gt as (g1 & _). destruct Gp as (g2 & _). apply Z.leb_le in g1, g2. rewrite g1, g2. reflexivity. }
  rewrite A. cbv zeta. clear A.
  set (TE := ghost_box b teg) in *. set (PF := ghost_box b pfg) in *. set (CI := ghost_box b cig) in *.
  match goal with |- context [walk CI _ _ _ ?f _] => set (body := f) end.
  pose (Inv := fun (n : Z) (s : (Z -> R) * (Z -> R)) =>
    (forall i j k, in_pbox CI i j k -> (stored_at CI i j k < n)%Z -> (fst s (stored_at CI i j k), snd s (stored_at CI i j k)) = sol i j k) /\
    (forall p, (p < 0 \/ n <= p)%Z -> fst s p = cl p /\ snd s p = ca p)).
  pose proof (ghost_nonempty three_d b cig Hb Hc) as HB. fold CI in HB.
  destruct (walk_run CI [PF; TE; CI] body Inv HB) with (start := at_ [PF; TE; CI] (lo0 CI) (lo1 CI) (lo2 CI)) (s := (cl, ca)) as (idx & m & E & I1 & I2).
  - intros i j k s Hin (D1 & D2).
    assert (iT : in_pbox TE i j k) by (eapply bigger; eauto). assert (iP : in_pbox PF i j k) by (eapply bigger; eauto).
    unfold at_; cbn [map]. unfold body. rewrite !inside_true by assumption. cbn [andb].
    destruct (D2 (stored_at CI i j k)) as (-> & ->); [lia|]. pose proof (Hev i j k Hin) as Ev. cbv zeta in Ev. rewrite Ev. cbn [bind].
    eexists. split; [reflexivity|]. split; cbn [fst snd].
    + intros i' j' k' Hin' Hlt. destruct (Z.eqb_spec (stored_at CI i' j' k') (stored_at CI i j k)) as [e|ne].
      * destruct (stored_inj CI i' j' k' i j k Hin' Hin e) as (-> & -> & ->). destruct (sol i j k); reflexivity.
      * apply D1; [exact Hin'|lia].
    + intros p Hpp. pose proof (stored_range CI i j k Hin). destruct (Z.eqb_spec p (stored_at CI i j k)); [lia|]. apply D2. lia.
  - reflexivity.
  - split; [|auto]. intros i j k Hin Hlt. pose proof (stored_range CI i j k Hin). lia.
  - replace [first_index three_d CI PF; first_index three_d CI TE; first_index three_d CI CI] with (at_ [PF; TE; CI] (lo0 CI) (lo1 CI) (lo2 CI)).
    2:{ unfold at_; cbn [map]. unfold TE, CI, PF. rewrite !first_stored by assumption. reflexivity. }
    replace [2 * (gw0 pfg - gw0 cig); 2 * (gw0 teg - gw0 cig); 0]%Z with (row_shift CI [PF; TE; CI]).
    2:{ unfold row_shift; cbn [map]. unfold TE, CI, PF, ghost_box, cells0; cbn [lo0 hi0]. f_equal; [ring|f_equal; [ring|f_equal; ring]]. }
    replace [2 * cells0 PF * (gw1 pfg - gw1 cig); 2 * cells0 TE * (gw1 teg - gw1 cig); 0]%Z with (plane_shift CI [PF; TE; CI]).
    2:{ unfold plane_shift; cbn [map]. unfold TE, CI, PF, ghost_box, cells0, cells1; cbn [lo0 hi0 lo1 hi1]. f_equal; [ring|f_equal; [ring|f_equal; ring]]. }
    rewrite E. cbn [bind snd]. destruct m as (cl', ca'). exists cl', ca'. split; [reflexivity|]. split.
    + intros i j k Hin. apply (I1 i j k Hin). apply stored_range. exact Hin.
    + intros n Hn. apply (I2 n). exact Hn.
Qed.

(** ** the front *)
Open Scope R_scope.
Definition wave (k v t x : R) : R := / (1 + exp (k * (x - v * t))).
Lemma wave_range k v t x : 0 < wave k v t x < 1.
Proof.
  unfold wave. pose proof (exp_pos (k * (x - v * t))). split; [apply Rinv_0_lt_compat; lra|].
  assert (L : / (1 + exp (k * (x - v * t))) < / 1) by (apply Rinv_lt_contravar; lra). rewrite Rinv_1 in L. exact L.
Qed.
Lemma wave_x k v t y : is_derive (fun z => wave k v t z) y (- k * wave k v t y * (1 - wave k v t y)).
Proof.
  unfold wave. pose proof (exp_pos (k * (y - v * t))). auto_derive; change (y + - (v * t)) with (y - v * t) in *; [repeat split; lra|]. field. lra.
Qed.
Lemma wave_t k v t y : is_derive (fun s => wave k v s y) t (k * v * wave k v t y * (1 - wave k v t y)).
Proof.
  unfold wave. pose proof (exp_pos (k * (y - v * t))). auto_derive; change (y + - (v * t)) with (y - v * t) in *; [repeat split; lra|]. field. lra.
Qed.
Lemma wave_xx k v t y : is_derive (fun z => - k * wave k v t z * (1 - wave k v t z)) y (k * k * wave k v t y * (1 - wave k v t y) * (1 - 2 * wave k v t y)).
Proof.
  unfold wave. pose proof (exp_pos (k * (y - v * t))). auto_derive; change (y + - (v * t)) with (y - v * t) in *; [repeat split; lra|]. field. lra.
Qed.
Lemma wave_front k v : 0 < k -> front v (wave k v).
Proof.
  intros Hk. repeat split.
  - intros t x s. unfold wave. f_equal. f_equal. f_equal. ring.
  - apply wave_range.
  - apply wave_range.
  - intros t x y Hxy. unfold wave. pose proof (exp_pos (k * (x - v * t))). pose proof (exp_pos (k * (y - v * t))).
    assert (exp (k * (x - v * t)) < exp (k * (y - v * t))) by (apply exp_increasing; apply Rmult_lt_compat_l; lra).
    apply Rinv_lt_contravar; [apply Rmult_lt_0_compat; lra|lra].
  - intros t. unfold wave.
    assert (L : is_lim (fun x => exp (k * x + - (k * (v * t)))) m_infty 0).
    { apply (is_lim_comp_lin exp k (- (k * (v * t))) m_infty 0); [|lra].
      replace (Rbar_plus (Rbar_mult k m_infty) (- (k * (v * t)))) with m_infty; [apply is_lim_exp_m|].
      cbn. destruct (Rle_dec 0 k) as [H|H]; [|lra]. destruct (Rle_lt_or_eq_dec 0 k H); [reflexivity|lra]. }
    assert (L2 : is_lim (fun x => 1 + exp (k * x + - (k * (v * t)))) m_infty 1).
    { replace (Finite 1) with (Rbar_plus 1 0) by (cbn; f_equal; ring). apply (is_lim_plus _ _ _ 1 0); [apply is_lim_const|exact L|reflexivity]. }
    assert (L3 := is_lim_inv _ _ _ L2 ltac:(intros E; injection E; lra)). cbn in L3. rewrite Rinv_1 in L3.
    eapply is_lim_ext; [|exact L3]. intros y. cbv beta. f_equal. f_equal. f_equal. ring.
  - intros t. unfold wave.
    assert (L : is_lim (fun x => exp (k * x + - (k * (v * t)))) p_infty p_infty).
    { apply (is_lim_comp_lin exp k (- (k * (v * t))) p_infty p_infty); [|lra].
      replace (Rbar_plus (Rbar_mult k p_infty) (- (k * (v * t)))) with p_infty; [apply is_lim_exp_p|].
      cbn. destruct (Rle_dec 0 k) as [H|H]; [|lra]. destruct (Rle_lt_or_eq_dec 0 k H); [reflexivity|lra]. }
    assert (L2 : is_lim (fun x => 1 + exp (k * x + - (k * (v * t)))) p_infty p_infty).
    { apply (is_lim_plus _ _ _ 1 p_infty p_infty); [apply is_lim_const|exact L|reflexivity]. }
    assert (L3 := is_lim_inv _ _ _ L2 ltac:(discriminate)). cbn in L3.
    eapply is_lim_ext; [|exact L3]. intros y. cbv beta. f_equal. f_equal. f_equal. ring.
Qed.
Definition steep (eps well : R) : R := 4 * sqrt (2 * well) / eps.
Lemma finite_mob_val eps well m : 0 < eps -> 0 < well -> 0 < m -> finite_mob eps well m = 2 * sqrt (2 * well) * m / (3 * eps).
Proof.
  intros He Hw Hm. unfold finite_mob, alpha_of. cbv zeta. replace (16 * well) with (4 * 4 * well) by ring.
  rewrite sqrt_mult by lra. rewrite sqrt_square by lra. rewrite (sqrt_mult 2 well) by lra.
  pose proof (sqrt_lt_R0 well Hw). assert (s2 : 0 < sqrt 2) by (apply sqrt_lt_R0; lra).
  assert (q2 : sqrt 2 * sqrt 2 = 2) by (apply sqrt_sqrt; lra).
  apply (Rmult_eq_reg_r (3 * eps * sqrt 2)); [|nra].
  transitivity (4 * sqrt well * m); [field; nra|]. transitivity (2 * (sqrt 2 * sqrt 2) * sqrt well * m); [rewrite q2; ring|field; nra].
Qed.
Lemma wave_solves eps well m G : 0 < eps -> 0 < well -> 0 < m ->
  solves (finite_mob eps well m) eps well G "h"%char (wave (steep eps well) (m * G)).
Proof.
  intros He Hw Hm t x. set (k := steep eps well). set (u := wave k (m * G)).
  exists (k * (m * G) * u t x * (1 - u t x)), (fun y => - k * u t y * (1 - u t y)), (k * k * u t x * (1 - u t x) * (1 - 2 * u t x)),
    (32 * u t x * (1 - u t x) * (1 - 2 * u t x)), (6 * u t x * (1 - u t x)).
  split; [apply wave_t|]. split; [intros y; apply wave_x|]. split; [apply wave_xx|]. split; [reflexivity|].
  pose proof (wave_range k (m * G) t x) as Hr. fold u in Hr. split.
  - unfold deriv_interp_func. cbv zeta. replace (clamp01 (u t x)) with (u t x); [reflexivity|].
    unfold clamp01. rewrite Rmin_right by lra. rewrite Rmax_right by lra. reflexivity.
  - rewrite finite_mob_val by assumption.
    assert (K : eps * k = 4 * sqrt (2 * well)) by (unfold k, steep; field; lra).
    assert (q : sqrt (2 * well) * sqrt (2 * well) = 2 * well) by (apply sqrt_sqrt; lra).
    assert (K2 : eps * eps * (k * k) = 32 * well) by (replace (eps * eps * (k * k)) with ((eps * k) * (eps * k)) by ring; rewrite K; lra).
    replace (eps * eps * (k * k * u t x * (1 - u t x) * (1 - 2 * u t x)) - well * (32 * u t x * (1 - u t x) * (1 - 2 * u t x)) + G * (6 * u t x * (1 - u t x)))
      with ((eps * eps * (k * k) - 32 * well) * (u t x * (1 - u t x) * (1 - 2 * u t x)) + G * (6 * u t x * (1 - u t x))) by ring.
    rewrite K2. unfold k, steep. field. lra.
Qed.

(** ** speed of an interface *)
Lemma read_intmob gasR al db m : kim_type db -> db_beta db = None -> db_intmob db = Some m ->
  (db_zeta db = None /\ db_zetaLA db = None \/ db_Tref db <> None) -> exists tref a b, readPhaseMobility gasR al db = Some (Kim m tref a b).
Proof.
  intros T B M Z. unfold readPhaseMobility. rewrite B, M.
  assert (X : exists tref a b, (if Rlt_dec (get None (-1)) 0 then
        match db_zeta db, db_zetaLA db with
        | None, None => Some (Kim (get (Some m) (-1)) (-1) None None)
        | Some z, _ | None, Some z => bind (db_Tref db) (fun tref => Some (Kim (get (Some m) (-1)) tref (Some z) (db_zetaLB db)))
        end else None) = Some (Kim m tref a b)).
  { destruct (Rlt_dec (get None (-1)) 0) as [_|H]; [|exfalso; apply H; unfold get; lra]. cbn [get].
    destruct (db_zeta db) as [z|].
    - destruct Z as [[H _]|H]; [discriminate|]. destruct (db_Tref db) as [x|]; [|congruence]. cbn [bind]. eauto.
    - destruct (db_zetaLA db) as [z|]; [|eauto]. destruct Z as [[_ H]|H]; [discriminate|]. destruct (db_Tref db) as [x|]; [|congruence]. cbn [bind]. eauto. }
  destruct X as (tref & a & b & X). exists tref, a, b.
  destruct T as [-> | ->]; cbn [String.eqb Ascii.eqb Bool.eqb]; cbv zeta; cbn [String.eqb Ascii.eqb Bool.eqb];
    destruct (Rlt_dec (get None (-1)) 0) as [L|L]; try (exfalso; apply L; unfold get; lra); exact X.
Qed.
Lemma choose_finite m tref a b mdl n : 0 < m -> choose (Kim m tref a b) false false false mdl n = Some FiniteMob.
Proof. intros Hm. unfold choose. cbv zeta. destruct (Rlt_dec 0 m); [|lra]. destruct mdl; [destruct (1 <? n)%Z|]; reflexivity. Qed.
Lemma eval_finite m tref a b r temp cl ca phi : 0 < m -> 0 < r_eps r -> 0 < r_well r ->
  evaluateMobility (Kim m tref a b) FiniteMob r temp cl ca phi = Some (Fin (finite_mob (r_eps r) (r_well r) m)).
Proof. intros Hm He Hw. unfold evaluateMobility. destruct (Rlt_dec 0 (r_well r)); [|lra]. destruct (Rlt_dec 0 (r_eps r)); [|lra]. destruct (Rlt_dec 0 m); [reflexivity|lra]. Qed.
Lemma steep_pos eps well : 0 < eps -> 0 < well -> 0 < steep eps well.
Proof. intros He Hw. unfold steep. assert (0 < sqrt (2 * well)) by (apply sqrt_lt_R0; lra). apply Rdiv_lt_0_compat; lra. Qed.
Lemma finite_pos eps well m : 0 < eps -> 0 < well -> 0 < m -> 0 < finite_mob eps well m.
Proof.
  intros He Hw Hm. rewrite finite_mob_val by assumption. assert (0 < sqrt (2 * well)) by (apply sqrt_lt_R0; lra).
  apply Rdiv_lt_0_compat; [|lra]. apply Rmult_lt_0_compat; lra.
Qed.
Lemma interface_speed : forall gasR al db m r mdl n temp cl ca phi, kim_type db -> db_beta db = None -> db_intmob db = Some m ->
  (db_zeta db = None /\ db_zetaLA db = None \/ db_Tref db <> None) -> 0 < m -> 0 < r_eps r -> 0 < r_well r ->
  exists p M, readPhaseMobility gasR al db = Some p /\ choose p false false false mdl n = Some FiniteMob /\
    evaluateMobility p FiniteMob r temp cl ca phi = Some (Fin M) /\ 0 < M /\
    forall G, exists u, front (m * G) u /\ solves M (r_eps r) (r_well r) G "h"%char u.
Proof.
  intros gasR al db m r mdl n temp cl ca phi T B M Z Hm He Hw. destruct (read_intmob gasR al db m T B M Z) as (tref & a & b & E).
  exists (Kim m tref a b), (finite_mob (r_eps r) (r_well r) m). split; [exact E|]. split; [apply choose_finite; exact Hm|].
  split; [apply eval_finite; assumption|]. split; [apply finite_pos; assumption|].
  intros G. exists (wave (steep (r_eps r) (r_well r)) (m * G)). split; [apply wave_front; apply steep_pos; assumption|apply wave_solves; assumption].
Qed.
Definition kinetic_mobility (gasR mv Tm slope keq beta : R) : R := mv / (gasR * Tm) * 10 ^ 6 * (-1 * slope) / (1 - keq) / beta.
Lemma read_kinetics gasR al db beta mv Tm slope keq : kim_type db -> db_beta db = Some beta -> 0 < beta ->
  al = mk_alloy (Some mv) (Some Tm) (Some slope) (Some keq) -> slope < 0 -> gasR * Tm <> 0 -> keq <> 1 ->
  readPhaseMobility gasR al db = Some (Kim (kinetic_mobility gasR mv Tm slope keq beta) (-1) None None).
Proof.
  intros T B Hb -> Hs Hg Hk. unfold readPhaseMobility. rewrite B.
  assert (X : (if Rlt_dec (get (Some beta) (-1)) 0 then None else if Rlt_dec 0 (get (Some beta) (-1)) then
      if Rlt_dec slope 0 then if Req_EM_T (gasR * Tm) 0 then None else if Req_EM_T keq 1 then None else
        Some (Kim (kinetic_mobility gasR mv Tm slope keq (get (Some beta) (-1))) (-1) None None) else None else None)
      = Some (Kim (kinetic_mobility gasR mv Tm slope keq beta) (-1) None None)).
  { cbn [get]. destruct (Rlt_dec beta 0); [lra|]. destruct (Rlt_dec 0 beta); [|lra]. destruct (Rlt_dec slope 0); [|lra].
    destruct (Req_EM_T (gasR * Tm) 0); [contradiction|]. destruct (Req_EM_T keq 1); [contradiction|]. reflexivity. }
  cbn [al_Tm al_slope al_mv al_keq bind].
  destruct T as [-> | ->]; cbn [String.eqb Ascii.eqb Bool.eqb]; cbv zeta; cbn [String.eqb Ascii.eqb Bool.eqb];
    (destruct (Rlt_dec (get (Some beta) (-1)) 0) as [L|L]; [exfalso; cbn [get] in L; lra|]); exact X.
Qed.
Lemma kinetics_coefficient : forall gasR mv Tm slope keq db beta r mdl n temp cl ca phi, kim_type db -> db_beta db = Some beta ->
  0 < beta -> 0 < gasR -> 0 < mv -> 0 < Tm -> slope < 0 -> keq < 1 -> 0 < r_eps r -> 0 < r_well r ->
  exists p M, readPhaseMobility gasR (mk_alloy (Some mv) (Some Tm) (Some slope) (Some keq)) db = Some p /\
    choose p false false false mdl n = Some FiniteMob /\ evaluateMobility p FiniteMob r temp cl ca phi = Some (Fin M) /\ 0 < M /\
    forall undercooling, let G := gasR * Tm * (1 - keq) / (mv * - slope) * undercooling / 10 ^ 6 in
      exists u, front (undercooling / beta) u /\ solves M (r_eps r) (r_well r) G "h"%char u.
Proof.
  intros gasR mv Tm slope keq db beta r mdl n temp cl ca phi T B Hb Hg Hmv HT Hs Hk He Hw.
  set (m := kinetic_mobility gasR mv Tm slope keq beta).
  assert (Hm : 0 < m).
  { unfold m, kinetic_mobility. assert (0 < mv / (gasR * Tm)) by (apply Rdiv_lt_0_compat; [lra|apply Rmult_lt_0_compat; lra]).
    apply Rdiv_lt_0_compat; [|lra]. apply Rdiv_lt_0_compat; [|lra]. apply Rmult_lt_0_compat; [|lra]. apply Rmult_lt_0_compat; [lra|]. apply pow_lt; lra. }
  exists (Kim m (-1) None None), (finite_mob (r_eps r) (r_well r) m).
  split; [apply read_kinetics; auto; [apply Rgt_not_eq; apply Rmult_lt_0_compat; lra|lra]|].
  split; [apply choose_finite; exact Hm|]. split; [apply eval_finite; assumption|]. split; [apply finite_pos; assumption|].
  intros dT G. exists (wave (steep (r_eps r) (r_well r)) (m * G)).
  assert (V : m * G = dT / beta). { unfold m, G, kinetic_mobility. field. repeat split; try lra. }
  rewrite <- V. split; [apply wave_front; apply steep_pos; assumption|apply wave_solves; assumption].
Qed.
(** energy balance at leading order, for any interpolation *)
Lemma energy_balance : forall eps well m G (W : R -> R) (type : ascii) h0 h1, 0 < eps -> 0 < well -> 0 < m ->
  (forall x, well_func x "d"%char = Some (W x)) -> (type = "h"%char \/ type = "p"%char) -> interp_func 0 type = Some h0 -> interp_func 1 type = Some h1 ->
  is_RInt (fun x => (m * G) * (sqrt (2 * well * W x) / eps)) 0 1 (finite_mob eps well m * (G * (h1 - h0))).
Proof.
  intros eps well m G W type h0 h1 He Hw Hm HW Ht H0 H1.
  assert (D : h1 - h0 = 1).
  { destruct Ht as [-> | ->]; unfold interp_func in H0, H1; cbv zeta in H0, H1; injection H0 as <-; injection H1 as <-;
    unfold clamp01; rewrite (Rmin_left 1 1) by lra; rewrite (Rmin_right 1 0) by lra; rewrite (Rmax_right 0 1) by lra; rewrite (Rmax_left 0 0) by lra; ring. }
  rewrite D. rewrite finite_mob_val by assumption. set (q := sqrt (2 * well)).
  apply (is_RInt_ext (fun x => 4 * m * G * q / eps * (x - x * x))).
  - intros x Hx. rewrite Rmin_left, Rmax_right in Hx by lra. specialize (HW x). cbn in HW. injection HW as <-.
    replace (2 * well * (16 * x * x * (1 - x) * (1 - x))) with (2 * well * ((4 * x * (1 - x)) * (4 * x * (1 - x)))) by ring.
    assert (0 <= 4 * x * (1 - x)) by (apply Rmult_le_pos; lra).
    rewrite sqrt_mult; [|lra|apply Rmult_le_pos; assumption]. rewrite sqrt_square by assumption. fold q. match goal with |- ?a = ?b => change (@eq R a b) end. field. lra.
  - pose (P := fun x : R => 4 * m * G * q / eps * (x * x / 2 - x * x * x / 3)).
    replace (2 * q * m / (3 * eps) * (G * 1)) with (P 1 - P 0) by (unfold P; field; lra).
    apply (is_RInt_derive P).
    + intros x _. unfold P. auto_derive; [exact I|]. match goal with |- ?a = ?b => change (@eq R a b) end. field. lra.
    + intros x _. apply (ex_derive_continuous (V := R_NormedModule)). auto_derive. exact I.
Qed.

(** ** options without effect *)
Lemma three_phases_ignore : forall m m' tref zLA zLB r temp cl ca phi, 0 < m ->
  choose (Kim m tref zLA zLB) false false true Calphad 1 = Some InfMob3Phases /\
  evaluateMobility (Kim m tref zLA zLB) InfMob3Phases r temp cl ca phi = evaluateMobility (Kim m' tref zLA zLB) InfMob3Phases r temp cl ca phi /\
  evaluateMobility (Kim m (-1) None None) InfMob3Phases r temp cl ca phi = None.
Proof.
  intros m m' tref zLA zLB r temp cl ca phi Hm. split; [reflexivity|]. split; [reflexivity|].
  unfold evaluateMobility. destruct (Rlt_dec 0 (r_well r)); [|reflexivity]. destruct (Rlt_dec 0 (r_eps r)); [|reflexivity].
  destruct (Rlt_dec 0 (r_mv r)); [|reflexivity]. destruct (r_n r =? 1)%Z; [|reflexivity].
  unfold kks_mobility_factor; cbn [bind]. unfold zeta_at. destruct (Rlt_dec (-1) 0); [|lra]. cbn [bind]. destruct phi as ((pL, pA), pB).
  unfold inf_mobility. destruct (Rlt_dec 0 (-1)); [lra|]. reflexivity.
Qed.
Lemma kinetics_ignores : forall gasR al db db' beta, kim_type db -> kim_type db' -> db_beta db = Some beta -> db_beta db' = Some beta -> 0 < beta ->
  readPhaseMobility gasR al db = readPhaseMobility gasR al db'.
Proof.
  intros gasR al db db' beta T T' B B' Hb. unfold readPhaseMobility. rewrite B, B'.
  assert (L : ~ get (Some beta) (-1) < 0) by (cbn [get]; lra).
  destruct T as [-> | ->]; destruct T' as [-> | ->]; cbn [String.eqb Ascii.eqb Bool.eqb]; cbv zeta; cbn [String.eqb Ascii.eqb Bool.eqb];
    (destruct (Rlt_dec (get (Some beta) (-1)) 0); [contradiction|]); reflexivity.
Qed.

(** ** Kim's formulas *)
Lemma a2_PBG : is_RInt (fun x => (x * x * x * (10 - 15 * x + 6 * x * x)) / x) 0 1 (47 / 60).
Proof.
  apply (is_RInt_ext (fun x => 10 * x ^ 2 - 15 * x ^ 3 + 6 * x ^ 4)).
  - intros x Hx. rewrite Rmin_left, Rmax_right in Hx by lra. match goal with |- ?a = ?b => change (@eq R a b) end. field. lra.
  - pose (P := fun x : R => 10 * x ^ 3 / 3 - 15 * x ^ 4 / 4 + 6 * x ^ 5 / 5). replace (47 / 60) with (P 1 - P 0) by (unfold P; field). apply (is_RInt_derive P).
    + intros x _. unfold P. auto_derive; [exact I|]. match goal with |- ?a = ?b => change (@eq R a b) end. field.
    + intros x _. apply (ex_derive_continuous (V := R_NormedModule)). auto_derive. exact I.
Qed.
Lemma a2_harmonic : is_RInt (fun x => (x * x * (3 - 2 * x)) / x) 0 1 (5 / 6).
Proof.
  apply (is_RInt_ext (fun x => 3 * x - 2 * x ^ 2)).
  - intros x Hx. rewrite Rmin_left, Rmax_right in Hx by lra. match goal with |- ?a = ?b => change (@eq R a b) end. field. lra.
  - pose (P := fun x : R => 3 * x ^ 2 / 2 - 2 * x ^ 3 / 3). replace (5 / 6) with (P 1 - P 0) by (unfold P; field). apply (is_RInt_derive P).
    + intros x _. unfold P. auto_derive; [exact I|]. match goal with |- ?a = ?b => change (@eq R a b) end. field.
    + intros x _. apply (ex_derive_continuous (V := R_NormedModule)). auto_derive. exact I.
Qed.
Lemma clamp_in x : 0 < x < 1 -> clamp01 x = x.
Proof. intros H. unfold clamp01. rewrite Rmin_right by lra. rewrite Rmax_right by lra. reflexivity. Qed.
Lemma kim_integral_PBG h a : (forall x, interp_func x "p"%char = Some (h x)) -> is_RInt (fun x => h x / x) 0 1 a -> a = 47 / 60.
Proof.
  intros Hh Ha. assert (X : is_RInt (fun x => h x / x) 0 1 (47 / 60)).
  { eapply is_RInt_ext; [|exact a2_PBG]. intros x Hx. rewrite Rmin_left, Rmax_right in Hx by lra. specialize (Hh x). unfold interp_func in Hh. cbv zeta in Hh.
    rewrite clamp_in in Hh by lra. injection Hh as <-. reflexivity. }
  pose proof (is_RInt_unique (V := R_CompleteNormedModule) _ _ _ _ Ha) as U1. pose proof (is_RInt_unique (V := R_CompleteNormedModule) _ _ _ _ X) as U2. exact (eq_trans (eq_sym U1) U2).
Qed.
Lemma kim_integral_harmonic h a : (forall x, interp_func x "h"%char = Some (h x)) -> is_RInt (fun x => h x / x) 0 1 a -> a = 5 / 6.
Proof.
  intros Hh Ha. assert (X : is_RInt (fun x => h x / x) 0 1 (5 / 6)).
  { eapply is_RInt_ext; [|exact a2_harmonic]. intros x Hx. rewrite Rmin_left, Rmax_right in Hx by lra. specialize (Hh x). unfold interp_func in Hh. cbv zeta in Hh.
    rewrite clamp_in in Hh by lra. injection Hh as <-. reflexivity. }
  pose proof (is_RInt_unique (V := R_CompleteNormedModule) _ _ _ _ Ha) as U1. pose proof (is_RInt_unique (V := R_CompleteNormedModule) _ _ _ _ X) as U2. exact (eq_trans (eq_sym U1) U2).
Qed.
Lemma harmonic_factor : forall eps well h a, 0 < eps -> 0 < well -> (forall x, interp_func x "h"%char = Some (h x)) -> is_RInt (fun x => h x / x) 0 1 a ->
  exists f, kks_mobility_factor HARMONIC eps well = Some f /\ f = 5 / 3 * (16 * well / (3 * eps * eps * a)) /\ f <> 16 * well / (3 * eps * eps * a).
Proof.
  intros eps well h a He Hw Hh Ha. rewrite (kim_integral_harmonic h a Hh Ha). eexists. split; [reflexivity|].
  assert (E : 16 * well / (3 * eps * eps * (1 / 2)) = 5 / 3 * (16 * well / (3 * eps * eps * (5 / 6)))) by (field; lra).
  split; [exact E|]. rewrite E. assert (0 < 16 * well / (3 * eps * eps * (5 / 6))); [|lra].
  apply Rdiv_lt_0_compat; [lra|]. repeat (apply Rmult_lt_0_compat; [|lra]). lra.
Qed.
Lemma zeta_second : forall n H cl ca, (n = 1 \/ n = 2)%nat -> zeta_sum (Z.of_nat n) H cl ca = second_variation n H (fun i => cl i - ca i).
Proof.
  intros n H cl ca [-> | ->]; unfold zeta_sum, second_variation, do_loop, sum_to.
  - change (range 0 (Z.of_nat 1 - 1)) with [0%Z]. cbn [fold_left]. cbn [Z.of_nat]. cbv beta. cbn [Z.mul Z.add]. ring.
  - change (range 0 (Z.of_nat 2 - 1)) with [0%Z; 1%Z]. cbn [fold_left]. change (Z.of_nat 0) with 0%Z. change (Z.of_nat 1) with 1%Z. change (Z.of_nat 2) with 2%Z.
    cbv beta. cbn [Z.mul Z.add Pos.mul Pos.add Pos.succ]. ring.
Qed.
Definition diffusivity (r : run_par) (temp : R) : R := r_DL r * exp (- r_Q0 r / (r_gasR r * temp)).
Lemma zeta_direct asserts r n temp cl ca tref z : (n = 1 \/ n = 2)%nat -> r_n r = Z.of_nat n -> 0 < temp -> 0 < r_DL r ->
  (tref < 0 \/ exists z0 z1 z2, z = Some (z0, z1, z2) /\ z0 + z1 * (temp - tref) + z2 * (temp - tref) * (temp - tref) < 0) ->
  zeta_value asserts (r_gasR r) (r_n r) (r_F r) tref z (r_DL r) (r_Q0 r) (r_mv r) temp cl ca =
  Some (second_variation n (r_F r temp cl) (fun i => cl i - ca i) / diffusivity r temp * (1 / 10 ^ 6 / r_mv r)).
Proof.
  intros Hn Rn Ht Hd Hz. unfold zeta_value.
  assert (exists zf, zeta_at tref z temp = Some zf /\ zf < 0) as (zf & E & L).
  { unfold zeta_at. destruct Hz as [Hz|(z0 & z1 & z2 & -> & P)].
    - destruct (Rlt_dec tref 0); [|lra]. exists (-1). split; [reflexivity|lra].
    - destruct (Rlt_dec tref 0) as [|N]; [exists (-1); split; [reflexivity|lra]|]. eexists. split; [reflexivity|]. unfold zetaFactor. destruct (Rlt_dec tref 0); [lra|]. exact P. }
  rewrite E. cbn [bind]. cbv zeta. destruct (Rlt_dec zf 0); [|lra].
  assert (O1 : (if asserts then if Rlt_dec 0 temp then true else false else if Req_EM_T temp 0 then false else true) = true)
    by (destruct asserts; [destruct (Rlt_dec 0 temp); [reflexivity|lra]|destruct (Req_EM_T temp 0); [lra|reflexivity]]).
  assert (O2 : (if asserts then if Rlt_dec 0 (r_DL r) then true else false else if Req_EM_T (r_DL r) 0 then false else true) = true)
    by (destruct asserts; [destruct (Rlt_dec 0 (r_DL r)); [reflexivity|lra]|destruct (Req_EM_T (r_DL r) 0); [lra|reflexivity]]).
  rewrite O1, O2. cbn [andb bind]. rewrite Rn, zeta_second by exact Hn. reflexivity.
Qed.
Lemma diffusivity_pos r temp : 0 < r_DL r -> 0 < diffusivity r temp.
Proof. intros H. unfold diffusivity. apply Rmult_lt_0_compat; [exact H|apply exp_pos]. Qed.
Lemma alpha_pos eps well m : 0 < eps -> 0 < well -> 0 < m -> 0 < alpha_of eps well m.
Proof.
  intros He Hw Hm. unfold alpha_of. cbv zeta. apply Rdiv_lt_0_compat; [|exact Hm]. assert (0 < sqrt 2) by (apply sqrt_lt_R0; lra).
  apply Rmult_lt_0_compat; [lra|]. apply Rdiv_lt_0_compat; [exact He|]. apply sqrt_lt_R0. lra.
Qed.
Lemma factor_pos eps well c : 0 < eps -> 0 < well -> 0 < c -> 0 < 16 * well / (3 * eps * eps * c).
Proof. intros. apply Rdiv_lt_0_compat; [lra|]. apply Rmult_lt_0_compat; [|assumption]. apply Rmult_lt_0_compat; lra. Qed.
Lemma eval_inf m tref zLA zLB r temp cl ca phi f : physical r temp -> kks_mobility_factor (r_interp r) (r_eps r) (r_well r) = Some f ->
  evaluateMobility (Kim m tref zLA zLB) InfMob r temp cl ca phi = inf_mob (r_gasR r) (r_n r) (r_F r) f tref zLA (r_DL r) (r_Q0 r) (r_mv r) temp cl ca.
Proof.
  intros (He & Hw & Hv & Hd & Ht) F. unfold evaluateMobility. destruct (Rlt_dec 0 (r_well r)); [|lra]. destruct (Rlt_dec 0 (r_eps r)); [|lra].
  destruct (Rlt_dec 0 (r_mv r)); [|lra]. rewrite F. reflexivity.
Qed.
Lemma eval_anti m tref zLA zLB r temp cl ca phi f : 0 < m -> physical r temp -> kks_mobility_factor (r_interp r) (r_eps r) (r_well r) = Some f ->
  evaluateMobility (Kim m tref zLA zLB) FiniteMobAntiTrap r temp cl ca phi =
  antitrap_mob (r_gasR r) (r_n r) (r_F r) (alpha_of (r_eps r) (r_well r) m) f tref zLA (r_DL r) (r_Q0 r) (r_mv r) temp cl ca.
Proof.
  intros Hm (He & Hw & Hv & Hd & Ht) F. unfold evaluateMobility. destruct (Rlt_dec 0 (r_well r)); [|lra]. destruct (Rlt_dec 0 (r_eps r)); [|lra].
  destruct (Rlt_dec 0 m); [|lra]. destruct (Rlt_dec 0 (r_mv r)); [|lra]. rewrite F. reflexivity.
Qed.
Lemma choose_three m mdl n : 0 < m ->
  choose (Kim m (-1) None None) false false false mdl n = Some FiniteMob /\ choose (Kim m (-1) None None) false true false mdl n = Some FiniteMobAntiTrap /\
  (forall anti, choose (Kim (-1) (-1) None None) false anti false mdl n = Some InfMob).
Proof.
  intros Hm. split; [apply choose_finite; exact Hm|]. split.
  - unfold choose. cbv zeta. destruct (Rlt_dec 0 m); [|lra]. destruct mdl; [destruct (1 <? n)%Z|]; reflexivity.
  - intros anti. unfold choose. cbv zeta. destruct (Rlt_dec 0 (-1)); [lra|]. destruct mdl; [destruct (1 <? n)%Z|]; reflexivity.
Qed.
Lemma series : forall m r mdl n temp cl ca phi h a, 0 < m -> physical r temp -> r_interp r = PBG -> (n = 1 \/ n = 2)%nat -> r_n r = Z.of_nat n ->
  (forall x, interp_func x "p"%char = Some (h x)) -> is_RInt (fun x => h x / x) 0 1 a ->
  let V := second_variation n (r_F r temp cl) (fun i => cl i - ca i) in 0 < V ->
  exists M1 M2 M3,
    choose (Kim m (-1) None None) false false false mdl (r_n r) = Some FiniteMob /\
    evaluateMobility (Kim m (-1) None None) FiniteMob r temp cl ca phi = Some (Fin M1) /\
    choose (Kim (-1) (-1) None None) false false false mdl (r_n r) = Some InfMob /\
    evaluateMobility (Kim (-1) (-1) None None) InfMob r temp cl ca phi = Some (Fin M2) /\
    choose (Kim m (-1) None None) false true false mdl (r_n r) = Some FiniteMobAntiTrap /\
    evaluateMobility (Kim m (-1) None None) FiniteMobAntiTrap r temp cl ca phi = Some (Fin M3) /\
    0 < M1 /\ 0 < M2 /\ 0 < M3 /\
    / M1 = 3 * r_eps r / (2 * sqrt (2 * r_well r) * m) /\
    / M2 = 3 * r_eps r * r_eps r * a / (16 * r_well r) * (V / (r_DL r * exp (- r_Q0 r / (r_gasR r * temp))) / (10 ^ 6 * r_mv r)) /\
    / M3 = / M1 + / M2.
Proof.
  intros m r mdl n temp cl ca phi h a Hm Hp Hi Hn Rn Hh Ha V HV. pose proof Hp as (He & Hw & Hv & Hd & Ht).
  pose proof (kim_integral_PBG h a Hh Ha) as Ea. set (f := 16 * r_well r / (3 * r_eps r * r_eps r * (47 / 60))).
  assert (F : kks_mobility_factor (r_interp r) (r_eps r) (r_well r) = Some f) by (rewrite Hi; reflexivity).
  assert (Pf : 0 < f) by (apply factor_pos; lra).
  destruct (choose_three m mdl (r_n r) Hm) as (C1 & C2 & C3).
  pose proof (diffusivity_pos r temp Hd) as PD. fold (diffusivity r temp).
  set (z := V / diffusivity r temp * (1 / 10 ^ 6 / r_mv r)).
  assert (p6 : 0 < 10 ^ 6) by (apply pow_lt; lra).
  assert (Pz : 0 < z).
  { unfold z. apply Rmult_lt_0_compat; [apply Rdiv_lt_0_compat; assumption|]. apply Rdiv_lt_0_compat; [|exact Hv]. apply Rdiv_lt_0_compat; lra. }
  pose proof (alpha_pos (r_eps r) (r_well r) m He Hw Hm) as Pa. set (al := alpha_of (r_eps r) (r_well r) m) in *.
  assert (P3 : 0 < al + 1 / f * z). { assert (0 < 1 / f * z); [|lra]. apply Rmult_lt_0_compat; [apply Rdiv_lt_0_compat; lra|exact Pz]. }
  exists (finite_mob (r_eps r) (r_well r) m), (f / z), (1 / (al + 1 / f * z)).
  split; [exact C1|]. split; [apply eval_finite; assumption|]. split; [apply C3|]. split.
  { rewrite (eval_inf _ _ _ _ _ _ _ _ _ f Hp F). unfold inf_mob. rewrite (zeta_direct true r n temp cl ca (-1) None Hn Rn Ht Hd) by (left; lra). cbn [bind]. fold V. fold z.
    destruct (Req_EM_T z 0); [lra|reflexivity]. }
  split; [exact C2|]. split.
  { rewrite (eval_anti _ _ _ _ _ _ _ _ _ f Hm Hp F). unfold antitrap_mob. rewrite (zeta_direct false r n temp cl ca (-1) None Hn Rn Ht Hd) by (left; lra). cbn [bind]. fold V. fold z. fold al.
    cbv zeta. destruct (Req_EM_T (al + 1 / f * z) 0); [lra|reflexivity]. }
  split; [apply finite_pos; assumption|]. split; [apply Rdiv_lt_0_compat; assumption|]. split; [apply Rdiv_lt_0_compat; [lra|exact P3]|].
  assert (s2 : 0 < sqrt (2 * r_well r)) by (apply sqrt_lt_R0; lra).
  split; [rewrite finite_mob_val by assumption; field; lra|]. split.
  - rewrite Ea. unfold z, f. field. repeat split; lra.
  - unfold finite_mob. fold al. pose proof (Rmult_lt_0_compat al f Pa Pf). field. repeat split; lra.
Qed.
Lemma second_zero n H d : (forall i, d i = 0) -> second_variation n H d = 0.
Proof.
  intros Hd. unfold second_variation. assert (X : forall k f, (forall i, f i = 0) -> sum_to k f = 0).
  { induction k as [|k IH]; intros f Hf; [reflexivity|]. cbn [sum_to]. rewrite IH by exact Hf. rewrite Hf. ring. }
  apply X. intros i. apply X. intros j. rewrite (Hd i). ring.
Qed.
Lemma equal_compositions : forall m r n temp c phi, 0 < m -> physical r temp -> (r_interp r = PBG \/ r_interp r = HARMONIC) -> (n = 1 \/ n = 2)%nat -> r_n r = Z.of_nat n ->
  evaluateMobility (Kim (-1) (-1) None None) InfMob r temp c c phi = Some Inf /\
  evaluateMobility (Kim m (-1) None None) FiniteMobAntiTrap r temp c c phi = evaluateMobility (Kim m (-1) None None) FiniteMob r temp c c phi.
Proof.
  intros m r n temp c phi Hm Hp Hi Hn Rn. pose proof Hp as (He & Hw & Hv & Hd & Ht).
  assert (exists f, kks_mobility_factor (r_interp r) (r_eps r) (r_well r) = Some f /\ 0 < f) as (f & F & Pf).
  { destruct Hi as [-> | ->]; (eexists; split; [reflexivity|apply factor_pos; lra]). }
  assert (Z0 : second_variation n (r_F r temp c) (fun i => c i - c i) / diffusivity r temp * (1 / 10 ^ 6 / r_mv r) = 0).
  { rewrite second_zero by (intros; ring). unfold Rdiv. ring. }
  split.
  - rewrite (eval_inf _ _ _ _ _ _ _ _ _ f Hp F). unfold inf_mob. rewrite (zeta_direct true r n temp c c (-1) None Hn Rn Ht Hd) by (left; lra). cbn [bind]. rewrite Z0.
    destruct (Req_EM_T 0 0); [|lra]. destruct (Req_EM_T f 0); [lra|reflexivity].
  - rewrite (eval_anti _ _ _ _ _ _ _ _ _ f Hm Hp F). rewrite eval_finite by assumption. unfold antitrap_mob.
    rewrite (zeta_direct false r n temp c c (-1) None Hn Rn Ht Hd) by (left; lra). cbn [bind]. rewrite Z0. cbv zeta.
    pose proof (alpha_pos (r_eps r) (r_well r) m He Hw Hm). replace (alpha_of (r_eps r) (r_well r) m + 1 / f * 0) with (alpha_of (r_eps r) (r_well r) m) by ring.
    destruct (Req_EM_T (alpha_of (r_eps r) (r_well r) m) 0); [lra|reflexivity].
Qed.
Lemma polynomial : forall m tref z0 z1 z2 zLB r n temp cl ca phi, physical r temp -> (r_interp r = PBG \/ r_interp r = HARMONIC) -> (n = 1 \/ n = 2)%nat -> r_n r = Z.of_nat n -> 0 <= tref ->
  let P := z0 + z1 * (temp - tref) + z2 * (temp - tref) * (temp - tref) in
  (0 < P -> forall cl' ca', exists M, evaluateMobility (Kim m tref (Some (z0, z1, z2)) zLB) InfMob r temp cl ca phi = Some (Fin M) /\ 0 < M /\
     evaluateMobility (Kim m tref (Some (z0, z1, z2)) zLB) InfMob r temp cl' ca' phi = Some (Fin M)) /\
  (P < 0 -> evaluateMobility (Kim m tref (Some (z0, z1, z2)) zLB) InfMob r temp cl ca phi = evaluateMobility (Kim m (-1) None None) InfMob r temp cl ca phi).
Proof.
  intros m tref z0 z1 z2 zLB r n temp cl ca phi Hp Hi Hn Rn Hr P. pose proof Hp as (He & Hw & Hv & Hd & Ht).
  assert (exists f, kks_mobility_factor (r_interp r) (r_eps r) (r_well r) = Some f /\ 0 < f) as (f & F & Pf).
  { destruct Hi as [-> | ->]; (eexists; split; [reflexivity|apply factor_pos; lra]). }
  split.
  - intros HP cl' ca'. assert (p6 : 0 < 10 ^ 6) by (apply pow_lt; lra).
    assert (PZ : 0 < P * (1 / 10 ^ 6 / r_mv r)) by (apply Rmult_lt_0_compat; [exact HP|]; apply Rdiv_lt_0_compat; [apply Rdiv_lt_0_compat; lra|exact Hv]).
    exists (f / (P * (1 / 10 ^ 6 / r_mv r))).
    assert (X : forall cl ca, inf_mob (r_gasR r) (r_n r) (r_F r) f tref (Some (z0, z1, z2)) (r_DL r) (r_Q0 r) (r_mv r) temp cl ca = Some (Fin (f / (P * (1 / 10 ^ 6 / r_mv r))))).
    { intros c1 c2. unfold inf_mob, zeta_value, zeta_at. destruct (Rlt_dec tref 0); [lra|]. cbn [bind]. unfold zetaFactor. destruct (Rlt_dec tref 0); [lra|]. cbv zeta. fold P.
      destruct (Rlt_dec P 0); [lra|]. cbn [bind]. destruct (Req_EM_T (P * (1 / 10 ^ 6 / r_mv r)) 0); [lra|reflexivity]. }
    rewrite !(eval_inf _ _ _ _ _ _ _ _ _ f Hp F), !X. split; [reflexivity|]. split; [apply Rdiv_lt_0_compat; assumption|reflexivity].
  - intros HP. rewrite !(eval_inf _ _ _ _ _ _ _ _ _ f Hp F). unfold inf_mob.
    rewrite (zeta_direct true r n temp cl ca tref (Some (z0, z1, z2)) Hn Rn Ht Hd) by (right; exists z0, z1, z2; split; [reflexivity|exact HP]).
    rewrite (zeta_direct true r n temp cl ca (-1) None Hn Rn Ht Hd) by (left; lra). reflexivity.
Qed.
(** the mobility is not continuous in the temperature where the polynomial changes sign *)
Lemma polynomial_jump : forall m r n T0 zLB cl ca phi bound, physical r T0 -> (r_interp r = PBG \/ r_interp r = HARMONIC) -> (n = 1 \/ n = 2)%nat -> r_n r = Z.of_nat n ->
  exists d, 0 < d /\ (forall T, T0 < T < T0 + d -> exists M, evaluateMobility (Kim m T0 (Some (0, 1, 0)) zLB) InfMob r T cl ca phi = Some (Fin M) /\ bound < M) /\
    (forall T, 0 < T < T0 -> evaluateMobility (Kim m T0 (Some (0, 1, 0)) zLB) InfMob r T cl ca phi = evaluateMobility (Kim m (-1) None None) InfMob r T cl ca phi).
Proof.
  intros m r n T0 zLB cl ca phi bound Hp Hi Hn Rn. pose proof Hp as (He & Hw & Hv & Hd & Ht).
  assert (exists f, kks_mobility_factor (r_interp r) (r_eps r) (r_well r) = Some f /\ 0 < f) as (f & F & Pf).
  { destruct Hi as [-> | ->]; (eexists; split; [reflexivity|apply factor_pos; lra]). }
  set (s := 1 / 10 ^ 6 / r_mv r). assert (p6 : 0 < 10 ^ 6) by (apply pow_lt; lra).
  assert (Ps : 0 < s) by (apply Rdiv_lt_0_compat; [apply Rdiv_lt_0_compat; lra|exact Hv]).
  pose (B := Rmax bound 1). assert (HB : bound <= B /\ 1 <= B) by (split; [apply Rmax_l|apply Rmax_r]).
  exists (f / (s * B)). assert (PsB : 0 < s * B) by (apply Rmult_lt_0_compat; lra). split; [apply Rdiv_lt_0_compat; assumption|]. split.
  - intros T HT. assert (HpT : physical r T) by (unfold physical; repeat split; lra).
    exists (f / ((T - T0) * s)). rewrite (eval_inf _ _ _ _ _ _ _ _ _ f HpT F). unfold inf_mob, zeta_value, zeta_at. destruct (Rlt_dec T0 0); [lra|]. cbn [bind]. unfold zetaFactor.
    destruct (Rlt_dec T0 0); [lra|]. cbv zeta. replace (0 + 1 * (T - T0) + 0 * (T - T0) * (T - T0)) with (T - T0) by ring. destruct (Rlt_dec (T - T0) 0); [lra|]. cbn [bind]. fold s.
    assert (PT : 0 < (T - T0) * s) by (apply Rmult_lt_0_compat; lra). destruct (Req_EM_T ((T - T0) * s) 0); [lra|]. split; [reflexivity|].
    apply Rle_lt_trans with B; [lra|]. apply (Rmult_lt_reg_r ((T - T0) * s)); [exact PT|]. replace (f / ((T - T0) * s) * ((T - T0) * s)) with f by (field; lra).
    assert (X : (T - T0) * (s * B) < f / (s * B) * (s * B)) by (apply Rmult_lt_compat_r; lra). replace (f / (s * B) * (s * B)) with f in X by (field; split; lra). lra.
  - intros T HT. assert (HpT : physical r T) by (unfold physical; repeat split; lra).
    destruct (polynomial m T0 0 1 0 zLB r n T cl ca phi HpT Hi Hn Rn ltac:(lra)) as (_ & X). apply X. lra.
Qed.
