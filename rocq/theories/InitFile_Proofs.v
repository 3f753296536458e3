From Coq Require Import Reals ZArith String List Bool DecimalString DecimalNat Permutation Lra Lia FunctionalExtensionality.
From Flocq Require Import Core Relative.
From Verif Require Import InitFile_Model InitFile_Spec.
Import ListNotations.
Set Bullet Behavior "Strict Subproofs".
Open Scope Z_scope.

(** ** Rounding *)
#[export] Instance single_valid : Valid_exp (FLT_exp (-149) 24).
Proof. apply FLT_exp_valid. reflexivity. Qed.

Lemma single_idem : forall x, single (single x) = single x.
Proof. intros x. unfold single. apply round_generic; [apply valid_rnd_N |]. apply generic_format_round; [exact single_valid | apply valid_rnd_N]. Qed.
Lemma single_0 : single 0 = 0%R.
Proof. unfold single. apply round_0. apply valid_rnd_N. Qed.
Lemma single_1 : single 1 = 1%R.
Proof.
  unfold single. apply round_generic; [apply valid_rnd_N |].
  change 1%R with (bpow radix2 0). apply generic_format_bpow. unfold FLT_exp. lia.
Qed.
Lemma single_mono : forall x y, (x <= y)%R -> (single x <= single y)%R.
Proof. intros x y H. unfold single. apply round_le; [exact single_valid | apply valid_rnd_N | exact H]. Qed.
Lemma single_fraction : forall x, (0 <= x <= 1)%R -> (0 <= single x <= 1)%R.
Proof. intros x [H0 H1]. rewrite <- single_0 at 1. rewrite <- single_1. split; apply single_mono; assumption. Qed.
Lemma bpow_pow : forall n, bpow radix2 (- Z.of_nat n) = (/ 2 ^ n)%R.
Proof. intros n. rewrite bpow_opp. f_equal. rewrite <- (IZR_Zpower radix2) by lia. cbn [radix2 radix_val]. rewrite <- pow_IZR. reflexivity. Qed.
Lemma single_error : forall x, (Rabs (single x - x) <= / 2 ^ 24 * Rabs x + / 2 ^ 150)%R.
Proof.
  intros x. unfold single.
  destruct (error_N_FLT radix2 (-149) 24 eq_refl (fun x => negb (Z.even x)) x) as [eps [eta [He [Hn [_ Hr]]]]].
  change (Znearest (fun x => negb (Z.even x))) with ZnearestE in Hr. rewrite Hr.
  replace (x * (1 + eps) + eta - x)%R with (eps * x + eta)%R by ring.
  assert (E : (Rabs eps <= / 2 ^ 24)%R).
  { eapply Rle_trans; [exact He |]. apply Req_le. rewrite (bpow_pow 23 : bpow radix2 (- (24) + 1) = _). simpl. field. }
  assert (N : (Rabs eta <= / 2 ^ 150)%R).
  { eapply Rle_trans; [exact Hn |]. apply Req_le. rewrite (bpow_pow 149 : bpow radix2 (-149) = _).
    rewrite <- Rinv_mult. f_equal. }
  eapply Rle_trans; [apply Rabs_triang |]. rewrite Rabs_mult. apply Rplus_le_compat; [| exact N].
  apply Rmult_le_compat_r; [apply Rabs_pos | exact E].
Qed.

(** ** Names *)
Lemma dec_inj : forall a b, dec a = dec b -> a = b.
Proof.
  intros a b H. unfold dec in H. apply (f_equal NilEmpty.uint_of_string) in H. rewrite !NilEmpty.usu in H.
  injection H as H. apply Unsigned.to_uint_inj. exact H.
Qed.
Lemma append_inj : forall p a b, String.append p a = String.append p b -> a = b.
Proof. induction p as [| c p IH]; cbn; intros a b H; [exact H |]. injection H as H. apply IH. exact H. Qed.
Lemma quat_name_inj : forall a b, quat_name a = quat_name b -> a = b.
Proof. intros a b H. unfold quat_name in H. apply append_inj in H. apply dec_inj in H. lia. Qed.
Lemma conc_name_inj : forall n a b, (a < n)%nat -> (b < n)%nat -> conc_name n a = conc_name n b -> a = b.
Proof.
  intros n a b Ha Hb H. unfold conc_name in H. destruct (Nat.ltb 1 n) eqn:E.
  - apply append_inj in H. apply dec_inj. exact H.
  - apply Nat.ltb_ge in E. lia.
Qed.

(** ** Options *)
Lemma sequence_map : forall (A B : Type) (g : A -> option B) l r, Forall2 (fun a b => g a = Some b) l r -> sequence (map g l) = Some r.
Proof. induction 1 as [| a b l r H _ IH]; cbn; [reflexivity |]. rewrite H. cbn. rewrite IH. reflexivity. Qed.
Lemma sequence_map_inv : forall (A B : Type) (g : A -> option B) l r, sequence (map g l) = Some r -> Forall2 (fun a b => g a = Some b) l r.
Proof.
  induction l as [| a l IH]; cbn; intros r H; [injection H as <-; constructor |].
  destruct (g a) as [b |] eqn:E; cbn in H; [| discriminate]. destruct (sequence (map g l)) as [s |] eqn:E2; cbn in H; [| discriminate].
  injection H as <-. constructor; [exact E | apply IH; reflexivity].
Qed.
Lemma bind_some : forall (A B : Type) (x : option A) (f : A -> option B) r, bind x f = Some r -> exists a, x = Some a /\ f a = Some r.
Proof. intros A B [a |] f r H; [exists a; split; [reflexivity | exact H] | discriminate]. Qed.

(** ** Boxes *)
Lemma inbox_iff : forall b i j k, inbox b i j k = true <-> cell_in b i j k.
Proof. intros b i j k. unfold inbox, cell_in. rewrite !andb_true_iff, !Z.leb_le. lia. Qed.
Lemma refine_cell : forall d3 r b i j k, ratio_ok r -> (d3 = false -> zl2 b = 0 /\ zu2 b = 0) ->
  (cell_in (refine_box d3 r b) i j k <-> let '(r0, r1, r2) := r in cell_in b (i / r0) (j / r1) (if d3 then k / r2 else k)).
Proof.
  intros d3 [[r0 r1] r2] b i j k [P0 [P1 P2]] H2. unfold cell_in, refine_box; cbn.
  assert (X : forall l u r x, 0 < r -> (l * r <= x <= u * r + r - 1 <-> l <= x / r <= u)).
  { intros l u r x P. pose proof (Z.div_mod x r ltac:(lia)) as D. pose proof (Z.mod_pos_bound x r P) as M. split; intros; nia. }
  destruct d3; rewrite !X by assumption; reflexivity.
Qed.
Lemma refine_domain : forall d3 r dom, domain_ok d3 dom -> ratio_ok r -> domain_ok d3 (refine_box d3 r dom).
Proof.
  intros d3 [[r0 r1] r2] dom [A0 [A1 [A2 [B0 [B1 [B2 C]]]]]] [P0 [P1 P2]]. unfold domain_ok, refine_box; cbn.
  rewrite A0, A1, A2. destruct d3; repeat split; nia.
Qed.
Lemma refine_within : forall d3 r b dom, within b dom -> ratio_ok r -> within (refine_box d3 r b) (refine_box d3 r dom).
Proof.
  intros d3 [[r0 r1] r2] b dom H [P0 [P1 P2]]. unfold within, cell_in, refine_box in *; cbn in *.
  destruct d3; cbn; repeat split; nia.
Qed.
Lemma refine_covers : forall d3 r l dom, domain_ok d3 dom -> ratio_ok r -> covers l dom -> covers (map (refine_box d3 r) l) (refine_box d3 r dom).
Proof.
  intros d3 r l dom D P [W C]. split.
  - intros b H. apply in_map_iff in H. destruct H as [b0 [<- H]]. apply refine_within; [apply W; exact H | exact P].
  - intros i j k H. apply refine_cell in H; [| exact P |].
    2:{ intros ->. destruct D as [_ [_ [A2 [_ [_ [_ Q]]]]]]. split; [exact A2 | apply Q; reflexivity]. }
    destruct r as [[r0 r1] r2]. destruct (C _ _ _ H) as [b [Hb Hc]].
    exists (refine_box d3 (r0, r1, r2) b). split; [apply in_map; exact Hb |].
    apply (refine_cell d3 (r0, r1, r2) b i j k P); [| exact Hc].
    intros ->. pose proof (W _ Hb) as Wb. unfold within, cell_in in Wb. destruct D as [_ [_ [A2 [_ [_ [_ Q]]]]]]. specialize (Q eq_refl). lia.
Qed.

(** ** Flat indices *)
Lemma flat_decode : forall c1 c2 x y z, 0 <= x < c2 -> 0 <= y < c1 ->
  ((z * c1 + y) * c2 + x) mod c2 = x /\ (((z * c1 + y) * c2 + x) / c2) mod c1 = y /\ ((z * c1 + y) * c2 + x) / (c2 * c1) = z.
Proof.
  intros c1 c2 x y z Hx Hy.
  assert (E : ((z * c1 + y) * c2 + x) / c2 = z * c1 + y).
  { rewrite Z.add_comm, Z.div_add by lia. rewrite Z.div_small by lia. lia. }
  split; [| split].
  - rewrite Z.add_comm, Z.mod_add by lia. apply Z.mod_small. lia.
  - rewrite E. rewrite Z.add_comm, Z.mod_add by lia. apply Z.mod_small. lia.
  - rewrite <- Z.div_div by lia. rewrite E. rewrite Z.add_comm, Z.div_add by lia. rewrite Z.div_small by lia. lia.
Qed.

(** ** Files *)
Lemma upd_get : forall f n u v w, getVar f n = Some v -> u v = Some w ->
  exists f', updVar f n u = Some f' /\ getVar f' n = Some w /\ forall n', n' <> n -> getVar f' n' = getVar f n'.
Proof.
  induction f as [| [m a] r IH]; cbn; intros n u v w H U; [discriminate |].
  destruct (String.eqb m n) eqn:E.
  - injection H as ->. rewrite U. cbn. eexists; split; [reflexivity |]. cbn. rewrite E. split; [reflexivity |].
    intros n' N. apply String.eqb_eq in E. subst m. apply not_eq_sym in N. apply String.eqb_neq in N. rewrite N. reflexivity.
  - destruct (IH n u v w H U) as [f' [E1 [E2 E3]]]. rewrite E1. cbn. eexists; split; [reflexivity |]. cbn. rewrite E. split; [exact E2 |].
    intros n' N. destruct (String.eqb m n'); [reflexivity | apply E3; exact N].
Qed.
Lemma get_app : forall f g n, getVar (f ++ g) n = match getVar f n with Some v => Some v | None => getVar g n end.
Proof. induction f as [| [m a] r IH]; cbn; intros g n; [reflexivity |]. destruct (String.eqb m n); [reflexivity | apply IH]. Qed.
Lemma add_all_get : forall z y x l f, NoDup (map fst l) -> (forall e, In e l -> getVar f (fst e) = None) ->
  exists f', add_all (z, y, x) l f = Some f' /\
    (forall e, In e l -> getVar f' (fst e) = Some (mk_ncvar false z y x (fun _ _ _ => nc_fill))) /\
    (forall n, ~ In n (map fst l) -> getVar f' n = getVar f n).
Proof.
  induction l as [| [n0 a] l IH]; cbn; intros f ND H.
  - exists f. split; [reflexivity |]. split; [intros e [] | intros; reflexivity].
  - inversion ND as [| ? ? NI ND']; subst. unfold addVar. rewrite (H (n0, a) (or_introl eq_refl) : getVar f n0 = None). cbn [bind].
    destruct (IH (f ++ [(n0, mk_ncvar false z y x (fun _ _ _ => nc_fill))]) ND') as [f' [E1 [E2 E3]]].
    { intros e He. rewrite get_app, (H e (or_intror He)). cbn. destruct (String.eqb n0 (fst e)) eqn:E; [| reflexivity].
      apply String.eqb_eq in E. exfalso. apply NI. rewrite E. apply in_map. exact He. }
    exists f'. split; [exact E1 |]. split.
    + intros e [<- | He]; [| apply E2; exact He]. cbn. rewrite E3 by exact NI. rewrite get_app.
      pose proof (H (n0, a) (or_introl eq_refl)) as G. cbn in G. rewrite G. cbn. rewrite String.eqb_refl. reflexivity.
    + intros n N. rewrite E3 by tauto. rewrite get_app. destruct (getVar f n); [reflexivity |]. cbn.
      destruct (String.eqb n0 n) eqn:E; [| reflexivity]. apply String.eqb_eq in E. tauto.
Qed.

(** ** Writing *)
Definition entry := (string * (field * nat))%type.
(** a variable of the file holds the rounded state in the boxes of the list *)
Definition written (d3 : bool) (dom : zbox) (S : state) (D : list zbox) (e : entry) (f : ncfile) : Prop :=
  exists v, getVar f (fst e) = Some v /\ v_double v = false /\ v_nx v = nx dom /\ v_ny v = ny dom /\ v_nz v = nz d3 dom /\
    forall b i j k, In b D -> cell_in b i j k -> v_at v k j i = single (S (fst (snd e)) (snd (snd e)) i j k).

Lemma block_within : forall d3 dom b v, domain_ok d3 dom -> within b dom -> v_nx v = nx dom -> v_ny v = ny dom -> v_nz v = nz d3 dom ->
  block_ok v (if d3 then zl2 b else 0) (zl1 b) (zl0 b) (nz d3 b) (ny b) (nx b) = true.
Proof.
  intros d3 dom b v D W X Y Z. unfold block_ok. rewrite !andb_true_iff, !Z.leb_le, X, Y, Z.
  unfold domain_ok, within, cell_in, nx, ny, nz in *. destruct d3; lia.
Qed.

Lemma put_one_ok : forall m d3 dom S p e D vars f, domain_ok d3 dom -> within (p_box p) dom -> holds m S p ->
  (forall e, In e vars -> in_run m (fst (snd e)) (snd (snd e))) -> NoDup (map fst vars) -> In e vars -> (forall e', In e' vars -> written d3 dom S D e' f) ->
  exists f', put_one d3 p e f = Some f' /\ written d3 dom S (p_box p :: D) e f' /\
    (forall n, n <> fst e -> getVar f' n = getVar f n).
Proof.
  intros m d3 dom S p [n [fld d]] D vars f Do W Ho IR ND Ie H. destruct (H _ Ie) as [v [G [Dv [X [Y [Z A]]]]]]. cbn [fst snd] in *.
  set (b := p_box p) in *. unfold put_one. fold b.
  set (u := putVar _ _ _ _ _ _ _).
  destruct (upd_get f n u v (mk_ncvar (v_double v) (v_nz v) (v_ny v) (v_nx v) (fun z y x =>
      if ((if d3 then zl2 b else 0) <=? z) && (z <? (if d3 then zl2 b else 0) + nz d3 b) && (zl1 b <=? y) && (y <? zl1 b + ny b) && (zl0 b <=? x) && (x <? zl0 b + nx b)
      then let a := pointer b (p_data p fld d) (((z - (if d3 then zl2 b else 0)) * ny b + (y - zl1 b)) * nx b + (x - zl0 b)) in if v_double v then a else single a
      else v_at v z y x)) G) as [f' [E1 [E2 E3]]].
  { unfold u, putVar. rewrite (block_within d3 dom b v Do W X Y Z). reflexivity. }
  exists f'. split; [exact E1 |]. split; [| exact E3].
  eexists. split; [exact E2 |]. cbn [v_double v_nx v_ny v_nz v_at fst snd].
  split; [exact Dv |]. split; [exact X |]. split; [exact Y |]. split; [exact Z |].
  intros b' i j k Hb Hc. rewrite Dv.
  assert (Z2 : zl2 b = (if d3 then zl2 b else 0) /\ nz d3 b = zu2 b - zl2 b + 1).
  { unfold domain_ok, within, cell_in, nz in *. fold b in W. destruct d3; lia. }
  destruct Z2 as [Z2 Z3].
  destruct (inbox b i j k) eqn:IB.
  - apply inbox_iff in IB. pose proof IB as IB'. unfold cell_in in IB'. rewrite <- Z2.
    replace ((zl2 b <=? k) && (k <? zl2 b + nz d3 b) && (zl1 b <=? j) && (j <? zl1 b + ny b) && (zl0 b <=? i) && (i <? zl0 b + nx b)) with true.
    2:{ symmetry. rewrite !andb_true_iff, !Z.leb_le, !Z.ltb_lt, Z3. unfold ny, nx. lia. }
    f_equal. unfold pointer.
    destruct (flat_decode (ny b) (nx b) (i - zl0 b) (j - zl1 b) (k - zl2 b)) as [M1 [M2 M3]]; [unfold nx; lia | unfold ny; lia |].
    rewrite M1, M2, M3. replace (zl0 b + (i - zl0 b)) with i by lia. replace (zl1 b + (j - zl1 b)) with j by lia.
    replace (zl2 b + (k - zl2 b)) with k by lia. apply Ho; [exact (IR _ Ie) | exact IB].
  - rewrite <- Z2.
    replace ((zl2 b <=? k) && (k <? zl2 b + nz d3 b) && (zl1 b <=? j) && (j <? zl1 b + ny b) && (zl0 b <=? i) && (i <? zl0 b + nx b)) with false.
    2:{ symmetry. apply not_true_is_false. intros C. rewrite !andb_true_iff, !Z.leb_le, !Z.ltb_lt, Z3 in C.
        assert (I : inbox b i j k = true) by (apply inbox_iff; unfold cell_in, nx, ny in *; lia). congruence. }
    destruct Hb as [<- | Hb]; [| exact (A b' i j k Hb Hc)].
    apply inbox_iff in Hc. congruence.
Qed.

Lemma written_weaken : forall d3 dom S b D e f, written d3 dom S (b :: D) e f -> written d3 dom S D e f.
Proof. intros d3 dom S b D e f [v [A [B [C [E [F G]]]]]]. exists v. repeat split; auto. intros b' i j k Hb. apply G. right. exact Hb. Qed.
Lemma written_get : forall d3 dom S D e f f', getVar f' (fst e) = getVar f (fst e) -> written d3 dom S D e f -> written d3 dom S D e f'.
Proof. intros d3 dom S D e f f' E [v [A B]]. exists v. rewrite E. split; assumption. Qed.

Lemma nodup_fst : forall (vars : list entry) e e', NoDup (map fst vars) -> In e vars -> In e' vars -> fst e' = fst e -> e' = e.
Proof.
  induction vars as [| a l IH]; cbn; intros e e' ND H H' E; [destruct H |]. inversion ND as [| ? ? NI ND']; subst.
  destruct H as [<- | H]; destruct H' as [<- | H']; auto.
  - exfalso. apply NI. rewrite <- E. apply in_map. exact H'.
  - exfalso. apply NI. rewrite E. apply in_map. exact H.
Qed.

Lemma put_all_ok : forall m d3 dom S p D vars, domain_ok d3 dom -> within (p_box p) dom -> holds m S p ->
  (forall e, In e vars -> in_run m (fst (snd e)) (snd (snd e))) -> NoDup (map fst vars) ->
  forall l f, incl l vars -> (forall e, In e vars -> written d3 dom S D e f) ->
  exists f', put_all d3 p l f = Some f' /\ (forall e, In e vars -> written d3 dom S D e f') /\
    (forall e, In e vars -> In e l \/ written d3 dom S (p_box p :: D) e f -> written d3 dom S (p_box p :: D) e f') /\
    (forall n, ~ In n (map fst vars) -> getVar f' n = getVar f n).
Proof.
  intros m d3 dom S p D vars Do W Ho IR ND. induction l as [| e l IH]; cbn [put_all]; intros f I H.
  - exists f. split; [reflexivity |]. split; [exact H |]. split; [| reflexivity]. intros e _ [[] | X]. exact X.
  - destruct (put_one_ok m d3 dom S p e D vars f Do W Ho IR ND (I e (or_introl eq_refl)) H) as [f1 [E1 [E2 E3]]]. rewrite E1. cbn [bind].
    assert (H1 : forall e', In e' vars -> written d3 dom S D e' f1).
    { intros e' He'. destruct (string_dec (fst e') (fst e)) as [Q | Q].
      - rewrite (nodup_fst vars e e' ND (I e (or_introl eq_refl)) He' Q). apply written_weaken with (b := p_box p). exact E2.
      - apply written_get with (f := f); [apply E3; exact Q | apply H; exact He']. }
    destruct (IH f1 (fun x Hx => I x (or_intror Hx)) H1) as [f2 [F1 [F2 [F3 F4]]]].
    exists f2. split; [exact F1 |]. split; [exact F2 |]. split.
    + intros e' He' C. apply F3; [exact He' |]. destruct (string_dec (fst e') (fst e)) as [Q | Q].
      * right. rewrite (nodup_fst vars e e' ND (I e (or_introl eq_refl)) He' Q). exact E2.
      * destruct C as [[<- | C] | C]; [contradiction | left; exact C | right].
        apply written_get with (f := f); [apply E3; exact Q | exact C].
    + intros n Hn. rewrite F4 by exact Hn. apply E3. intros ->. apply Hn. apply in_map. apply I. left. reflexivity.
Qed.

Lemma put_in_run : forall m, 0 < phase_depth m -> forall e, In e (put_vars m) -> in_run m (fst (snd e)) (snd (snd e)).
Proof.
  intros m PD e H. unfold put_vars in H. rewrite !in_app_iff in H. destruct H as [H | [H | [H | H]]].
  - unfold phase_vars, phase_depth in *. destruct (p_three_phases m) eqn:E; cbn in H.
    + destruct H as [<- | [<- | [<- | []]]]; cbn [fst snd in_run]; unfold phase_depth; rewrite E; lia.
    + destruct H as [<- | []]. cbn [fst snd in_run]. unfold phase_depth. rewrite E. lia.
  - destruct H as [<- | []]. reflexivity.
  - unfold quat_vars in H. apply in_map_iff in H. destruct H as [d [<- H]]. apply in_seq in H. cbn. unfold quats in H.
    destruct (p_orientation m); [split; [reflexivity | lia] | cbn in H; lia].
  - unfold conc_vars in H. apply in_map_iff in H. destruct H as [d [<- H]]. apply in_seq in H. cbn. lia.
Qed.

Lemma write_patches_ok : forall m d3 dom S l D f, p_with_phase m = true -> 0 < phase_depth m -> domain_ok d3 dom ->
  NoDup (map fst (put_vars m)) -> (forall p, In p l -> within (p_box p) dom /\ holds m S p) -> (forall e, In e (put_vars m) -> written d3 dom S D e f) ->
  exists f', write_patches m d3 l f = Some f' /\ (forall e, In e (put_vars m) -> written d3 dom S (map p_box l ++ D) e f') /\
    (forall n, ~ In n (map fst (put_vars m)) -> getVar f' n = getVar f n).
Proof.
  intros m d3 dom S l. induction l as [| p l IH]; intros D f WP PD Do ND H W; cbn [write_patches map app].
  - exists f. split; [reflexivity |]. split; [exact W | reflexivity].
  - destruct (H p (or_introl eq_refl)) as [Wp Hp]. unfold write_patch. rewrite WP.
    destruct (put_all_ok m d3 dom S p D (put_vars m) Do Wp Hp (put_in_run m PD) ND (put_vars m) f (incl_refl _) W) as [f1 [E1 [_ [E2 E3]]]].
    rewrite E1. cbn [bind].
    destruct (IH (p_box p :: D) f1 WP PD Do ND (fun q Hq => H q (or_intror Hq)) (fun e He => E2 e He (or_introl He))) as [f2 [F1 [F2 F3]]].
    exists f2. split; [exact F1 |]. split.
    + intros e He. destruct (F2 e He) as [v [A [B [C [E [F G]]]]]]. exists v. repeat split; auto.
      intros b i j k Hb. apply G. destruct Hb as [<- | Hb]; apply in_or_app; [right; left; reflexivity |].
      apply in_app_or in Hb. destruct Hb; [left; assumption | right; right; assumption].
    + intros n Hn. rewrite F3, E3 by exact Hn. reflexivity.
Qed.

Lemma all_vars_ok : forall m d3 dom S D f, (forall e, In e (put_vars m) -> written d3 dom S D e f) -> all_vars m f = true.
Proof. intros m d3 dom S D f H. unfold all_vars. apply forallb_forall. intros e He. destruct (H e He) as [v [-> _]]. reflexivity. Qed.

Lemma write_others_ok : forall m d3 dom S ranks D f, p_with_phase m = true -> 0 < phase_depth m -> domain_ok d3 dom ->
  NoDup (map fst (put_vars m)) -> (forall p, In p (concat ranks) -> within (p_box p) dom /\ holds m S p) -> (forall e, In e (put_vars m) -> written d3 dom S D e f) ->
  exists f', write_others m d3 ranks f = Some f' /\ (forall e, In e (put_vars m) -> written d3 dom S (map p_box (concat ranks) ++ D) e f') /\
    (forall n, ~ In n (map fst (put_vars m)) -> getVar f' n = getVar f n).
Proof.
  intros m d3 dom S ranks. induction ranks as [| l r IH]; intros D f WP PD Do ND H W; cbn [write_others concat map app].
  - exists f. split; [reflexivity |]. split; [exact W | reflexivity].
  - rewrite (all_vars_ok m d3 dom S D f W).
    destruct (write_patches_ok m d3 dom S l D f WP PD Do ND (fun p Hp => H p (in_or_app _ _ _ (or_introl Hp))) W) as [f1 [E1 [E2 E3]]].
    rewrite E1. cbn [bind].
    destruct (IH _ f1 WP PD Do ND (fun p Hp => H p (in_or_app _ _ _ (or_intror Hp))) E2) as [f2 [F1 [F2 F3]]].
    exists f2. split; [exact F1 |]. split.
    + intros e He. destruct (F2 e He) as [v [A [B [C [E [F G]]]]]]. exists v. repeat split; auto.
      intros b i j k Hb. apply G. rewrite map_app in Hb. apply in_app_or in Hb. apply in_or_app.
      destruct Hb as [Hb | Hb]; [apply in_app_or in Hb; destruct Hb as [Hb | Hb] |].
      * right. apply in_or_app. left. exact Hb.
      * left. exact Hb.
      * right. apply in_or_app. right. exact Hb.
    + intros n Hn. rewrite F3, E3 by exact Hn. reflexivity.
Qed.

(** *** The names *)
Lemma quat_name_head : forall d, exists s, quat_name d = String.append "quat" s.
Proof. intros d. eexists. reflexivity. Qed.
Lemma conc_name_head : forall n d, exists s, conc_name n d = String.append "concentration" s.
Proof. intros n d. unfold conc_name. destruct (Nat.ltb 1 n); [eexists; reflexivity | exists ""%string; reflexivity]. Qed.

Lemma nodup_app : forall (A : Type) (l r : list A), NoDup l -> NoDup r -> (forall x, In x l -> ~ In x r) -> NoDup (l ++ r).
Proof.
  induction l as [| a l IH]; cbn; intros r Hl Hr D; [exact Hr |]. inversion Hl as [| ? ? NI ND]; subst. constructor.
  - intros H. apply in_app_or in H. destruct H as [H | H]; [apply NI; exact H | apply (D a (or_introl eq_refl)); exact H].
  - apply IH; auto.
Qed.
Lemma quat_names : forall m, map fst (quat_vars m) = map quat_name (seq 0 (quats m)).
Proof. intros m. unfold quat_vars. rewrite map_map. reflexivity. Qed.
Lemma conc_names : forall m, map fst (conc_vars m) = map (conc_name (p_ncomp m)) (seq 0 (p_ncomp m)).
Proof. intros m. unfold conc_vars. rewrite map_map. reflexivity. Qed.
Lemma nodup_map : forall (A B : Type) (g : A -> B) l, (forall a b, In a l -> In b l -> g a = g b -> a = b) -> NoDup l -> NoDup (map g l).
Proof.
  induction l as [| a l IH]; cbn; intros I ND; [constructor |]. inversion ND as [| ? ? NI ND']; subst. constructor.
  - intros H. apply in_map_iff in H. destruct H as [b [E H]]. apply NI. rewrite (I a b (or_introl eq_refl) (or_intror H) (eq_sym E)). exact H.
  - apply IH; [| exact ND']. intros x y Hx Hy. apply I; right; assumption.
Qed.
Lemma names_nodup : forall m, NoDup (map fst (put_vars m)).
Proof.
  intros m. unfold put_vars. rewrite !map_app, quat_names, conc_names.
  assert (Q : NoDup (map quat_name (seq 0 (quats m)))).
  { apply nodup_map; [| apply seq_NoDup]. intros a b _ _. apply quat_name_inj. }
  assert (C : NoDup (map (conc_name (p_ncomp m)) (seq 0 (p_ncomp m)))).
  { apply nodup_map; [| apply seq_NoDup]. intros a b Ha Hb. apply in_seq in Ha. apply in_seq in Hb. apply conc_name_inj; lia. }
  assert (QC : NoDup (map quat_name (seq 0 (quats m)) ++ map (conc_name (p_ncomp m)) (seq 0 (p_ncomp m)))).
  { apply nodup_app; [exact Q | exact C |]. intros x Hx Hy. apply in_map_iff in Hx. apply in_map_iff in Hy.
    destruct Hx as [a [<- _]]. destruct Hy as [b [E _]]. destruct (conc_name_head (p_ncomp m) b) as [s E2]. rewrite E2 in E. discriminate E. }
  apply nodup_app; [| apply nodup_app; [| exact QC |] |].
  - unfold phase_vars. destruct (p_three_phases m); cbn; repeat constructor; cbn; intros H; intuition discriminate.
  - cbn. repeat constructor. intros [].
  - cbn. intros x [<- | []] H. apply in_app_or in H. destruct H as [H | H]; apply in_map_iff in H; destruct H as [a [E _]]; [discriminate E |].
    destruct (conc_name_head (p_ncomp m) a) as [s E2]. rewrite E2 in E. discriminate E.
  - intros x Hx H. apply in_app_or in H. destruct H as [H | H].
    + cbn in H. destruct H as [<- | []]. unfold phase_vars in Hx. destruct (p_three_phases m); cbn in Hx; intuition discriminate.
    + assert (Hp : exists s, x = String.append "phase" s).
      { unfold phase_vars in Hx. destruct (p_three_phases m); cbn in Hx.
        - destruct Hx as [<- | [<- | [<- | []]]]; eexists; reflexivity.
        - destruct Hx as [<- | []]; exists ""%string; reflexivity. }
      destruct Hp as [s ->]. apply in_app_or in H. destruct H as [H | H]; apply in_map_iff in H; destruct H as [a [E _]]; [discriminate E |].
      destruct (conc_name_head (p_ncomp m) a) as [s2 E2]. rewrite E2 in E. discriminate E.
Qed.
Lemma added_same : forall m e, In e (added_vars m) <-> In e (put_vars m).
Proof. intros m e. unfold added_vars, put_vars. rewrite !in_app_iff. tauto. Qed.
Lemma added_nodup : forall m, NoDup (map fst (added_vars m)).
Proof.
  intros m. eapply Permutation.Permutation_NoDup; [| apply (names_nodup m)]. apply Permutation.Permutation_map. unfold added_vars, put_vars.
  apply Permutation.Permutation_app_head. eapply Permutation_trans; [apply Permutation_app_comm |]. rewrite <- app_assoc. apply Permutation_refl.
Qed.

Lemma write_ok : forall m d3 dom ratio l0 ranks S, p_with_phase m = true -> 0 < phase_depth m -> domain_ok d3 dom -> ratio_ok ratio -> covers (concat l0) dom ->
  map (map p_box) ranks = flattened_boxes d3 ratio l0 -> (forall p, In p (concat ranks) -> holds m S p) ->
  exists f, writeInitialConditionsFile m d3 dom ratio ranks = Some f /\
    (forall e, In e (put_vars m) -> exists v, getVar f (fst e) = Some v /\ v_double v = false /\
       v_nx v = nx (refine_box d3 ratio dom) /\ v_ny v = ny (refine_box d3 ratio dom) /\ v_nz v = nz d3 (refine_box d3 ratio dom) /\
       forall i j k, cell_in (refine_box d3 ratio dom) i j k -> v_at v k j i = single (S (fst (snd e)) (snd (snd e)) i j k)) /\
    (forall n, ~ In n (map fst (put_vars m)) -> getVar f n = None).
Proof.
  intros m d3 dom ratio l0 ranks S WP PD Do Ra Co Fl Ho. unfold writeInitialConditionsFile.
  set (bf := refine_box d3 ratio dom).
  destruct (add_all_get (nz d3 bf) (ny bf) (nx bf) (added_vars m) nil (added_nodup m) (fun _ _ => eq_refl)) as [f0 [E0 [G0 N0]]].
  rewrite E0. cbn [bind].
  assert (Fl' : map p_box (concat ranks) = map (refine_box d3 ratio) (concat l0)).
  { rewrite concat_map, Fl. unfold flattened_boxes. rewrite <- concat_map. reflexivity. }
  pose proof (refine_covers d3 ratio _ dom Do Ra Co) as [W C]. fold bf in W, C. rewrite <- Fl' in W, C.
  destruct (write_others_ok m d3 bf S ranks nil f0 WP PD (refine_domain d3 ratio dom Do Ra) (names_nodup m)) as [f [E1 [E2 E3]]].
  - intros p Hp. split; [apply W; apply in_map; exact Hp | apply Ho; exact Hp].
  - intros e He. apply added_same in He. eexists. split; [apply G0; exact He |]. cbn. repeat split. intros b i j k [].
  - exists f. split; [exact E1 |]. split.
    + intros e He. destruct (E2 e He) as [v [A [B [X [Y [Z G]]]]]]. exists v. repeat split; auto.
      intros i j k Hc. destruct (C i j k Hc) as [b [Hb Hb2]]. apply (G b); [apply in_or_app; left; exact Hb | exact Hb2].
    + intros n Hn. rewrite E3 by exact Hn. rewrite N0; [reflexivity |]. intros X. apply Hn. apply in_map_iff in X. destruct X as [e [<- X]].
      apply in_map. apply added_same. exact X.
Qed.

(** ** Reading *)
Definition conv (dbl : bool) (a : R) : R := if dbl then a else single a.
Definition vgood (d3 : bool) (dom : zbox) (dbl : bool) (v : ncvar) (h : Z -> Z -> Z -> R) : Prop :=
  v_nx v = nx dom /\ v_ny v = ny dom /\ v_nz v = nz d3 dom /\ forall i j k, cell_in dom i j k -> conv dbl (v_at v k j i) = h i j k.

Lemma read_var_ok : forall d3 dom dbl b v h isl, domain_ok d3 dom -> within b dom -> vgood d3 dom dbl v h -> (d3 = false -> isl = 0) ->
  exists g, read_var dbl d3 isl b v = Some g /\ forall i j k, cell_in b i j k -> g i j k = h i j k.
Proof.
  intros d3 dom dbl b v h isl Do W [X [Y [Z G]]] Is. unfold read_var, getBlock.
  replace (if d3 then zl2 b else isl) with (if d3 then zl2 b else 0) by (destruct d3; [reflexivity | symmetry; apply Is; reflexivity]).
  rewrite (block_within d3 dom b v Do W X Y Z). cbn [bind]. eexists. split; [reflexivity |].
  intros i j k Hc. cbv beta.
  assert (Cd : cell_in dom i j k) by (unfold within, cell_in in *; lia).
  cbv zeta. set (n := if d3 then nx b * ny b * (k - zl2 b) + nx b * (j - zl1 b) + (i - zl0 b) else nx b * (j - zl1 b) + (i - zl0 b)).
  assert (E : n = ((k - zl2 b) * ny b + (j - zl1 b)) * nx b + (i - zl0 b)).
  { unfold n. destruct d3; [ring |]. unfold domain_ok, within, cell_in in *. replace (k - zl2 b) with 0 by lia. ring. }
  rewrite E. destruct (flat_decode (ny b) (nx b) (i - zl0 b) (j - zl1 b) (k - zl2 b)) as [M1 [M2 M3]].
  { unfold cell_in, nx in *. lia. } { unfold cell_in, ny in *. lia. }
  rewrite M1, M2, M3. replace (zl0 b + (i - zl0 b)) with i by lia. replace (zl1 b + (j - zl1 b)) with j by lia.
  replace ((if d3 then zl2 b else 0) + (k - zl2 b)) with k.
  2:{ destruct d3; [lia |]. unfold domain_ok, within, cell_in in *. lia. }
  exact (G i j k Cd).
Qed.

Definition inrange (d d' len : nat) : bool := Nat.leb d d' && Nat.ltb d' (d + len).
Lemma field_eqb_refl : forall f, field_eqb f f = true. Proof. destruct f; reflexivity. Qed.
Lemma field_eqb_eq : forall a b, field_eqb a b = true -> a = b. Proof. destruct a, b; cbn; congruence. Qed.

Lemma read_depths_ok : forall d3 dom dbl b isl fld h, domain_ok d3 dom -> within b dom -> (d3 = false -> isl = 0) -> forall l d F,
  (forall e v, nth_error l e = Some v -> vgood d3 dom dbl v (h (d + e)%nat)) ->
  exists F', read_depths dbl d3 isl b fld d l F = Some F' /\ forall f' d' i j k,
    F' f' d' i j k = if field_eqb fld f' && inrange d d' (List.length l) && inbox b i j k then h d' i j k else F f' d' i j k.
Proof.
  intros d3 dom dbl b isl fld h Do W Is. induction l as [| v l IH]; intros d F H; cbn [read_depths List.length].
  - exists F. split; [reflexivity |]. intros f' d' i j k. unfold inrange. rewrite Nat.add_0_r.
    replace (Nat.leb d d' && Nat.ltb d' d) with false; [rewrite andb_false_r; reflexivity |].
    symmetry. apply not_true_is_false. intros C. rewrite andb_true_iff, Nat.leb_le, Nat.ltb_lt in C. lia.
  - destruct (read_var_ok d3 dom dbl b v (h d) isl Do W) as [g [E G]]; [| exact Is |].
    { specialize (H 0%nat v eq_refl). rewrite Nat.add_0_r in H. exact H. }
    rewrite E. cbn [bind].
    destruct (IH (S d) (set_field F fld d (fill_cells b g (F fld d)))) as [F' [E' G']].
    { intros e w He. specialize (H (S e) w He). replace (S d + e)%nat with (d + S e)%nat by lia. exact H. }
    exists F'. split; [exact E' |]. intros f' d' i j k. rewrite G'. unfold set_field, fill_cells.
    destruct (inbox b i j k) eqn:IB; rewrite ?andb_true_r, ?andb_false_r.
    + destruct (field_eqb fld f') eqn:EF; cbn [andb].
      * unfold inrange. destruct (Nat.eqb d d') eqn:ED.
        -- apply Nat.eqb_eq in ED. subst d'. replace (Nat.leb (S d) d) with false by (symmetry; apply Nat.leb_gt; lia). cbn [andb].
           replace (Nat.leb d d) with true by (symmetry; apply Nat.leb_le; lia). replace (Nat.ltb d (d + S (List.length l))) with true by (symmetry; apply Nat.ltb_lt; lia).
           cbn [andb]. apply field_eqb_eq in EF. subst f'. rewrite IB. apply G. apply inbox_iff. exact IB.
        -- apply Nat.eqb_neq in ED.
           assert (Q : Nat.leb (S d) d' && Nat.ltb d' (S d + List.length l) = Nat.leb d d' && Nat.ltb d' (d + S (List.length l))).
           { apply eq_true_iff_eq. rewrite !andb_true_iff, !Nat.leb_le, !Nat.ltb_lt. lia. }
           rewrite Q. reflexivity.
      * reflexivity.
    + destruct (field_eqb fld f' && Nat.eqb d d') eqn:Q; [| reflexivity]. apply andb_true_iff in Q. destruct Q as [Q1 Q2].
      apply field_eqb_eq in Q1. apply Nat.eqb_eq in Q2. subst. rewrite IB. reflexivity.
Qed.

Lemma set_depths_ok : forall b fld l d F f' d' i j k,
  set_depths b fld d l F f' d' i j k = if field_eqb fld f' && inrange d d' (List.length l) && inbox b i j k then nth (d' - d) l 0%R else F f' d' i j k.
Proof.
  intros b fld. induction l as [| a l IH]; intros d F f' d' i j k; cbn [set_depths List.length].
  - unfold inrange. rewrite Nat.add_0_r.
    replace (Nat.leb d d' && Nat.ltb d' d) with false; [rewrite andb_false_r; reflexivity |].
    symmetry. apply not_true_is_false. intros C. rewrite andb_true_iff, Nat.leb_le, Nat.ltb_lt in C. lia.
  - rewrite IH. unfold set_field, fill_cells. destruct (inbox b i j k) eqn:IB; rewrite ?andb_true_r, ?andb_false_r.
    + destruct (field_eqb fld f') eqn:EF; cbn [andb]; [| reflexivity]. unfold inrange. destruct (Nat.eqb d d') eqn:ED.
      * apply Nat.eqb_eq in ED. subst d'. replace (Nat.leb (S d) d) with false by (symmetry; apply Nat.leb_gt; lia). cbn [andb].
        replace (Nat.leb d d) with true by (symmetry; apply Nat.leb_le; lia). replace (Nat.ltb d (d + S (List.length l))) with true by (symmetry; apply Nat.ltb_lt; lia).
        cbn [andb]. rewrite IB, Nat.sub_diag. reflexivity.
      * apply Nat.eqb_neq in ED.
        assert (Q : Nat.leb (S d) d' && Nat.ltb d' (S d + List.length l) = Nat.leb d d' && Nat.ltb d' (d + S (List.length l))).
        { apply eq_true_iff_eq. rewrite !andb_true_iff, !Nat.leb_le, !Nat.ltb_lt. lia. }
        rewrite Q. destruct (Nat.leb d d' && Nat.ltb d' (d + S (List.length l))) eqn:R; [| reflexivity].
        apply andb_true_iff in R. rewrite Nat.leb_le, Nat.ltb_lt in R. replace (d' - d)%nat with (S (d' - S d)) by lia. reflexivity.
    + destruct (field_eqb fld f' && Nat.eqb d d') eqn:Q; [| reflexivity]. apply andb_true_iff in Q. destruct Q as [Q1 Q2].
      apply field_eqb_eq in Q1. apply Nat.eqb_eq in Q2. subst. rewrite IB. reflexivity.
Qed.

(** sum of the first n components *)
Fixpoint sumn (g : nat -> R) (n : nat) : R := match n with O => 0%R | S n => (sumn g n + g n)%R end.
Lemma sum_depths_sumn : forall F n i j k, sum_depths F n i j k = sumn (fun d => F Phase d i j k) n.
Proof. intros F n i j k. induction n as [| n IH]; cbn; [reflexivity | rewrite IH; reflexivity]. Qed.
Lemma sumn_ext : forall g h n, (forall d, (d < n)%nat -> g d = h d) -> sumn g n = sumn h n.
Proof. intros g h. induction n as [| n IH]; cbn; intros H; [reflexivity |]. rewrite IH by (intros; apply H; lia). rewrite H by lia. reflexivity. Qed.

Record source (asserts : bool) (m : params) (u : init_input) (d3 : bool) (dom : zbox) (f : ncfile) (dbl : bool) (g : state) : Prop := mk_source {
  s_ph : forall d, (d < Z.to_nat (nphases m))%nat -> exists v, phase_var f d = Some v /\ vgood d3 dom dbl v (g Phase d);
  s_dbl : forall v, phase_var f 0 = Some v -> v_double v = dbl;
  s_t : readT u = true -> p_T_constant m = true -> exists v, getVar f "temperature" = Some v /\ vgood d3 dom dbl v (g Temp 0%nat);
  s_q : readQ m u = true -> forall d, (d < quats m)%nat -> exists v, getVar f (quat_name d) = Some v /\ vgood d3 dom dbl v (g Quat d);
  s_c : readC m u = true -> forall d, (d < p_ncomp m)%nat -> exists v, conc_var m f d = Some v /\ vgood d3 dom dbl v (g Conc d);
  s_f : asserts = true -> readC m u = true -> forall d i j k, (d < p_ncomp m)%nat -> cell_in dom i j k -> (0 <= g Conc d i j k <= 1)%R;
  s_lq : readQ m u = false -> quats m <> 0%nat -> List.length (in_q u) = quats m;
  s_lc : readC m u = false -> p_ncomp m <> 0%nat -> List.length (in_c u) = p_ncomp m }.

(** what a run finds in a cell afterwards *)
Definition expected (m : params) (u : init_input) (g : state) (old : R) (f : field) (d : nat) (i j k : Z) : R :=
  match f with
  | Phase => if Nat.ltb d (Z.to_nat (nphases m)) then g Phase d i j k
             else if Nat.eqb d (Z.to_nat (nphases m)) && (nphases m <? phase_depth m) then (1 - sumn (fun e => g Phase e i j k) (Z.to_nat (nphases m)))%R
             else old
  | Temp => if Nat.eqb d 0 && p_T_constant m then (if readT u then g Temp 0%nat i j k else in_t u) else old
  | Quat => if Nat.ltb d (quats m) then (if readQ m u then g Quat d i j k else nth d (in_q u) 0%R) else old
  | Conc => if Nat.ltb d (p_ncomp m) then (if readC m u then g Conc d i j k else nth d (in_c u) 0%R) else old
  end.

Lemma forall2_exists : forall (A B : Type) (Q : A -> B -> Prop) l, (forall a, In a l -> exists b, Q a b) -> exists r, Forall2 Q l r.
Proof.
  induction l as [| a l IH]; intros H; [exists nil; constructor |].
  destruct (H a (or_introl eq_refl)) as [b Hb]. destruct (IH (fun x Hx => H x (or_intror Hx))) as [r Hr]. exists (b :: r). constructor; assumption.
Qed.
Lemma Forall2_impl : forall (A B : Type) (P Q : A -> B -> Prop) l r, (forall a b, P a b -> Q a b) -> Forall2 P l r -> Forall2 Q l r.
Proof. intros A B P Q l r H. induction 1; constructor; auto. Qed.
Lemma Forall2_len : forall (A B : Type) (P : A -> B -> Prop) l r, Forall2 P l r -> List.length l = List.length r.
Proof. induction 1; cbn; auto. Qed.
Lemma seq_vars : forall (get : nat -> option ncvar) (Q : nat -> ncvar -> Prop) n,
  (forall d, (d < n)%nat -> exists v, get d = Some v /\ Q d v) ->
  exists l, sequence (map get (seq 0 n)) = Some l /\ List.length l = n /\ (forall e v, nth_error l e = Some v -> get e = Some v /\ Q e v).
Proof.
  intros get Q n H.
  destruct (forall2_exists _ _ (fun d v => get d = Some v /\ Q d v) (seq 0 n)) as [l Hl].
  { intros d Hd. apply in_seq in Hd. apply H. lia. }
  exists l. split; [| split].
  - apply sequence_map. eapply Forall2_impl; [| exact Hl]. intros a b [A _]. exact A.
  - apply Forall2_len in Hl. rewrite seq_length in Hl. symmetry. exact Hl.
  - intros e v He.
    assert (G : forall s l, Forall2 (fun d v => get d = Some v /\ Q d v) (seq s n) l -> forall e v, nth_error l e = Some v -> get (s + e)%nat = Some v /\ Q (s + e)%nat v).
    { clear. induction n as [| n IH]; cbn; intros s l Hl e v He; inversion Hl; subst; [destruct e; discriminate |].
      destruct e as [| e]; cbn in He; [injection He as <-; rewrite Nat.add_0_r; assumption |].
      replace (s + S e)%nat with (S s + e)%nat by lia. eapply IH; eassumption. }
    exact (G 0%nat l Hl e v He).
Qed.
Lemma count_quats_ok : forall f n ii, (forall d, (ii <= d < ii + n)%nat -> exists v, getVar f (quat_name d) = Some v) -> count_quats f ii n = n.
Proof.
  intros f. induction n as [| n IH]; cbn; intros ii H; [reflexivity |]. destruct (H ii ltac:(lia)) as [v ->]. f_equal. apply IH. intros d Hd. apply H. lia.
Qed.
Lemma conc_ok_true : forall b g, (forall i j k, cell_in b i j k -> (0 <= g i j k <= 1)%R) -> conc_ok b g = true.
Proof.
  intros b g H. unfold conc_ok. apply forallb_forall. intros k Hk. apply forallb_forall. intros j Hj. apply forallb_forall. intros i Hi.
  assert (R : forall lo n x, In x (zrange lo n) -> lo <= x < lo + n).
  { intros lo n x Hx. unfold zrange in Hx. apply in_map_iff in Hx. destruct Hx as [e [<- He]]. apply in_seq in He. lia. }
  apply R in Hi. apply R in Hj. apply R in Hk. unfold nx, ny in *.
  destruct (H i j k) as [H0 H1]; [unfold cell_in; lia |].
  destruct (Rle_dec (g i j k) 1); [| contradiction]. destruct (Rle_dec 0 (g i j k)); [reflexivity | contradiction].
Qed.

Lemma fill_eq : forall (A : Type) (c : bool) (a b : A), (if c then a else b) = if c then a else b. Proof. reflexivity. Qed.

Lemma init_ok : forall asserts m u d3 dom ratio f dbl g patches, p_with_phase m = true -> 1 <= nphases m <= phase_depth m ->
  domain_ok d3 (refine_box d3 ratio dom) -> (forall p, In p patches -> within (p_box p) (refine_box d3 ratio dom)) ->
  source asserts m u d3 (refine_box d3 ratio dom) f dbl g ->
  exists out, initializeLevelFromData asserts m u d3 dom ratio f patches = Some out /\
    Forall2 (fun p q => p_box q = p_box p /\ forall fl d i j k,
      p_data q fl d i j k = if inbox (p_box p) i j k then expected m u g (p_data p fl d i j k) fl d i j k else p_data p fl d i j k) patches out.
Proof.
  intros asserts m u d3 dom ratio f dbl g patches WP NP Do Wi [Hph Hdbl Ht Hq Hc Hf Hlq Hlc]. unfold initializeLevelFromData.
  set (bf := refine_box d3 ratio dom) in *.
  set (np := Z.to_nat (nphases m)) in *. assert (NP1 : (1 <= np)%nat) by (unfold np; lia).
  unfold read_phases. rewrite WP. fold np.
  destruct (seq_vars (phase_var f) _ np Hph) as [ph [Eph [Lph Gph]]]. rewrite Eph. cbn [bind].
  assert (Et : exists t, read_temp m u f = Some t /\ (readT u = true -> p_T_constant m = true -> exists v, t = Some v /\ vgood d3 bf dbl v (g Temp 0%nat)) /\
             (readT u && p_T_constant m = false -> t = None)).
  { unfold read_temp. destruct (readT u) eqn:RT; destruct (p_T_constant m) eqn:TC; cbn [andb].
    - destruct (Ht eq_refl eq_refl) as [v [-> G]]. cbn [bind]. exists (Some v). split; [reflexivity |]. split; [intros _ _; exists v; split; [reflexivity | exact G] | discriminate].
    - exists None. split; [reflexivity |]. split; [discriminate | reflexivity].
    - exists None. split; [reflexivity |]. split; [discriminate | reflexivity].
    - exists None. split; [reflexivity |]. split; [discriminate | reflexivity]. }
  destruct Et as [t [-> [Gt Nt]]]. cbn [bind].
  destruct ph as [| v0 ph']; [cbn in Lph; lia |]. set (ph := v0 :: ph') in *.
  destruct (Gph 0%nat v0 eq_refl) as [P0 [X0 [Y0 [Z0 _]]]].
  unfold file_dims. rewrite WP. unfold ph at 1. cbn [bind].
  assert (RQ : (if readQ m u then Nat.eqb (count_quats f 0 (quats m)) (quats m) else true) = true).
  { destruct (readQ m u) eqn:RQ; [| reflexivity]. rewrite count_quats_ok; [apply Nat.eqb_refl |].
    intros d Hd. destruct (Hq eq_refl d ltac:(lia)) as [v [E _]]. exists v. exact E. }
  unfold dims_ok. rewrite X0, Y0, Z0, !Z.eqb_refl, RQ. cbn [andb].
  assert (Eq : exists q, read_quats m u f = Some q /\ (readQ m u = true -> List.length q = quats m /\ forall e v, nth_error q e = Some v -> vgood d3 bf dbl v (g Quat e))).
  { unfold read_quats. destruct (readQ m u) eqn:R; [| exists nil; split; [reflexivity | discriminate]].
    destruct (seq_vars (fun d => getVar f (quat_name d)) _ _ (Hq eq_refl)) as [q [E [L G]]]. exists q. split; [exact E |]. intros _. split; [exact L |].
    intros e v He. exact (proj2 (G e v He)). }
  destruct Eq as [q [-> Gq]]. cbn [bind].
  assert (Ec : exists c, read_concs m u f = Some c /\ (readC m u = true -> List.length c = p_ncomp m /\ forall e v, nth_error c e = Some v -> vgood d3 bf dbl v (g Conc e))).
  { unfold read_concs. destruct (readC m u) eqn:R; [| exists nil; split; [reflexivity | discriminate]].
    destruct (seq_vars (conc_var m f) _ _ (Hc eq_refl)) as [c [E [L G]]]. exists c. split; [exact E |]. intros _. split; [exact L |].
    intros e v He. exact (proj2 (G e v He)). }
  destruct Ec as [c [-> Gc]]. cbn [bind].
  replace (buffer_type m u ph t) with dbl by (unfold buffer_type; rewrite WP; unfold ph; symmetry; apply Hdbl; exact P0).
  cbn [fst]. set (isl := islice d3 u (nz d3 bf)).
  assert (Is : d3 = false -> isl = 0).
  { intros ->. unfold isl, islice, nz. destruct (in_slice u <? 0); reflexivity. }
  destruct (forall2_exists _ _ (fun p q' => init_patch asserts m u dbl d3 isl ph t q c p = Some q' /\ p_box q' = p_box p /\ forall fl d i j k,
      p_data q' fl d i j k = if inbox (p_box p) i j k then expected m u g (p_data p fl d i j k) fl d i j k else p_data p fl d i j k) patches) as [out Hout].
  2:{ exists out. split.
      - apply sequence_map. eapply Forall2_impl; [| exact Hout]. intros a b [A _]. exact A.
      - eapply Forall2_impl; [| exact Hout]. intros a b [_ A]. exact A. }
  intros p Hp. unfold init_patch. pose proof (Wi p Hp) as W. set (b := p_box p) in *.
  unfold init_phase. rewrite WP. replace (phase_depth m <? nphases m) with false by (symmetry; apply Z.ltb_ge; lia).
  destruct (read_depths_ok d3 bf dbl b isl Phase (g Phase) Do W Is ph 0%nat (p_data p)) as [F1 [E1 G1]].
  { intros e v He. exact (proj2 (Gph e v He)). }
  rewrite E1. cbn [bind]. rewrite Lph in G1. set (F2 := set_last m b F1).
  assert (G2 : forall fl d i j k, F2 fl d i j k = if inbox b i j k then match fl with Phase => expected m u g (p_data p fl d i j k) fl d i j k | _ => p_data p fl d i j k end else p_data p fl d i j k).
  { intros fl d i j k. unfold F2, set_last. fold np.
    assert (G1' : F1 fl d i j k = if inbox b i j k then match fl with Phase => if Nat.ltb d np then g Phase d i j k else p_data p fl d i j k | _ => p_data p fl d i j k end else p_data p fl d i j k).
    { rewrite G1. unfold inrange. destruct (inbox b i j k); [rewrite andb_true_r | rewrite andb_false_r; reflexivity].
      destruct fl; reflexivity. }
    destruct (nphases m <? phase_depth m) eqn:L.
    - unfold set_field, fill_cells. destruct fl; cbn [field_eqb andb]; try exact G1'.
      destruct (Nat.eqb np d) eqn:N.
      + apply Nat.eqb_eq in N. subst d. destruct (inbox b i j k) eqn:IB; [| rewrite G1'; reflexivity].
        cbn [expected]. fold np. rewrite Nat.ltb_irrefl, Nat.eqb_refl, L. cbn [andb]. f_equal. rewrite sum_depths_sumn. apply sumn_ext. intros d Hd.
        rewrite G1, IB. unfold inrange. apply Nat.ltb_lt in Hd. change (0 + np)%nat with np. rewrite Hd. reflexivity.
      + rewrite G1'. destruct (inbox b i j k); [| reflexivity]. cbn [expected]. fold np. rewrite Nat.eqb_sym, N. cbn [andb]. reflexivity.
    - rewrite G1'. destruct (inbox b i j k); [| reflexivity]. destruct fl; try reflexivity. cbn [expected]. fold np. rewrite L, andb_false_r. reflexivity. }
  clearbody F2. clear E1 G1 F1.
  assert (S3 : exists F3, init_temp m u dbl d3 isl b t F2 = Some F3 /\ forall fl d i j k, F3 fl d i j k =
      if inbox b i j k then match fl with Phase | Temp => expected m u g (p_data p fl d i j k) fl d i j k | _ => p_data p fl d i j k end else p_data p fl d i j k).
  { unfold init_temp. destruct (readT u) eqn:RT.
    - destruct (p_T_constant m) eqn:TC.
      + destruct (Gt eq_refl eq_refl) as [v [-> Gv]].
        destruct (read_depths_ok d3 bf dbl b isl Temp (g Temp) Do W Is [v] 0%nat F2) as [F3 [E3 G3]].
        { intros e w He. destruct e as [| e]; [injection He as <-; exact Gv | destruct e; discriminate He]. }
        exists F3. split; [exact E3 |]. intros fl d i j k. rewrite G3. unfold inrange. destruct (inbox b i j k) eqn:IB; rewrite ?andb_true_r, ?andb_false_r.
        * destruct fl; cbn [field_eqb andb]; try (rewrite G2, IB; reflexivity). cbn [expected]. rewrite TC, RT, andb_true_r. cbn [List.length Nat.leb].
          destruct d as [| d]; [reflexivity |]. cbn. rewrite G2, IB. reflexivity.
        * rewrite G2, IB. reflexivity.
      + rewrite (Nt ltac:(destruct (readT u); reflexivity)). exists F2. split; [reflexivity |]. intros fl d i j k. rewrite G2. destruct (inbox b i j k); [| reflexivity].
        destruct fl; try reflexivity. cbn [expected]. rewrite TC, andb_false_r. reflexivity.
    - destruct (p_T_constant m) eqn:TC.
      + eexists. split; [reflexivity |]. intros fl d i j k. unfold set_field, fill_cells.
        destruct fl; cbn [field_eqb andb]; try (rewrite G2; reflexivity). cbn [expected]. rewrite TC, RT, andb_true_r.
        destruct d as [| d]; cbn [Nat.eqb].
        * destruct (inbox b i j k) eqn:IB; [reflexivity |]. rewrite G2, IB. reflexivity.
        * rewrite G2. reflexivity.
      + exists F2. split; [reflexivity |]. intros fl d i j k. rewrite G2. destruct (inbox b i j k); [| reflexivity].
        destruct fl; try reflexivity. cbn [expected]. rewrite TC, andb_false_r. reflexivity. }
  destruct S3 as [F3 [-> G3]]. cbn [bind].
  assert (S4 : exists F4, init_quat m u dbl d3 isl b q F3 = Some F4 /\ forall fl d i j k, F4 fl d i j k =
      if inbox b i j k then match fl with Conc => p_data p fl d i j k | _ => expected m u g (p_data p fl d i j k) fl d i j k end else p_data p fl d i j k).
  { unfold init_quat. destruct (quats m) as [| nq] eqn:EQ.
    - exists F3. split; [reflexivity |]. intros fl d i j k. rewrite G3. destruct (inbox b i j k); [| reflexivity].
      destruct fl; try reflexivity. cbn [expected]. rewrite EQ. reflexivity.
    - rewrite <- EQ in *. destruct (readQ m u) eqn:RQ'.
      + destruct (Gq eq_refl) as [Lq Gq'].
        destruct (read_depths_ok d3 bf dbl b isl Quat (g Quat) Do W Is q 0%nat F3) as [F4 [E4 G4]]; [exact Gq' |].
        exists F4. split; [exact E4 |]. intros fl d i j k. rewrite G4, Lq. unfold inrange. destruct (inbox b i j k) eqn:IB; rewrite ?andb_true_r, ?andb_false_r.
        * destruct fl; cbn [field_eqb andb]; try (rewrite G3, IB; reflexivity). cbn [expected]. rewrite RQ'. cbn [Nat.leb Nat.add andb].
          destruct (Nat.ltb d (quats m)); [reflexivity |]. rewrite G3, IB. reflexivity.
        * rewrite G3, IB. reflexivity.
      + pose proof (Hlq eq_refl ltac:(rewrite EQ; discriminate)) as Lq. rewrite Lq, Nat.eqb_refl. eexists. split; [reflexivity |].
        intros fl d i j k. rewrite set_depths_ok, Lq. unfold inrange. destruct (inbox b i j k) eqn:IB; rewrite ?andb_true_r, ?andb_false_r.
        * destruct fl; cbn [field_eqb andb]; try (rewrite G3, IB; reflexivity). cbn [expected]. rewrite RQ'. cbn [Nat.leb Nat.add andb].
          destruct (Nat.ltb d (quats m)); [rewrite Nat.sub_0_r; reflexivity |]. rewrite G3, IB. reflexivity.
        * rewrite G3, IB. reflexivity. }
  destruct S4 as [F4 [-> G4]]. cbn [bind].
  assert (S5 : exists F5, init_conc asserts m u dbl d3 isl b c F4 = Some F5 /\ forall fl d i j k, F5 fl d i j k =
      if inbox b i j k then expected m u g (p_data p fl d i j k) fl d i j k else p_data p fl d i j k).
  { unfold init_conc. destruct (p_ncomp m) as [| nc] eqn:EC.
    - exists F4. split; [reflexivity |]. intros fl d i j k. rewrite G4. destruct (inbox b i j k); [| reflexivity].
      destruct fl; try reflexivity. cbn [expected]. rewrite EC. reflexivity.
    - rewrite <- EC in *. destruct (readC m u) eqn:RC.
      + destruct (Gc eq_refl) as [Lc Gc'].
        destruct (read_depths_ok d3 bf dbl b isl Conc (g Conc) Do W Is c 0%nat F4) as [F5 [E5 G5]]; [exact Gc' |].
        assert (G5' : forall fl d i j k, F5 fl d i j k = if inbox b i j k then expected m u g (p_data p fl d i j k) fl d i j k else p_data p fl d i j k).
        { intros fl d i j k. rewrite G5, Lc. unfold inrange. destruct (inbox b i j k) eqn:IB; rewrite ?andb_true_r, ?andb_false_r.
          * destruct fl; cbn [field_eqb andb]; try (rewrite G4, IB; reflexivity). cbn [expected]. rewrite RC. cbn [Nat.leb Nat.add andb].
            destruct (Nat.ltb d (p_ncomp m)); [reflexivity |]. rewrite G4, IB. reflexivity.
          * rewrite G4, IB. reflexivity. }
        rewrite E5. cbn [bind].
        replace (asserts && negb (forallb (fun d => conc_ok b (F5 Conc d)) (seq 0 (p_ncomp m)))) with false.
        * exists F5. split; [reflexivity | exact G5'].
        * symmetry. destruct asserts; [| reflexivity]. cbn [andb]. apply negb_false_iff. apply forallb_forall. intros d Hd. apply in_seq in Hd.
          apply conc_ok_true. intros i j k Hcell. rewrite G5'. pose proof Hcell as IB. apply inbox_iff in IB. rewrite IB. cbn [expected]. rewrite RC.
          replace (Nat.ltb d (p_ncomp m)) with true by (symmetry; apply Nat.ltb_lt; lia). apply (Hf eq_refl eq_refl); [lia |].
          unfold within, cell_in in *. lia.
      + pose proof (Hlc eq_refl ltac:(rewrite EC; discriminate)) as Lc. rewrite Lc, Nat.eqb_refl. eexists. split; [reflexivity |].
        intros fl d i j k. rewrite set_depths_ok, Lc. unfold inrange. destruct (inbox b i j k) eqn:IB; rewrite ?andb_true_r, ?andb_false_r.
        * destruct fl; cbn [field_eqb andb]; try (rewrite G4, IB; reflexivity). cbn [expected]. rewrite RC. cbn [Nat.leb Nat.add andb].
          destruct (Nat.ltb d (p_ncomp m)); [rewrite Nat.sub_0_r; reflexivity |]. rewrite G4, IB. reflexivity.
        * rewrite G4, IB. reflexivity. }
  destruct S5 as [F5 [-> G5]]. cbn [bind]. eexists. split; [reflexivity |]. cbn [p_box p_data]. split; [reflexivity | exact G5].
Qed.

(** ** Writing, then reading *)
(** the state as it comes back *)
Definition back (m : params) (S : state) : state := fun f d i j k =>
  match f with Phase => single (S Phase (if p_three_phases m then d else 0%nat) i j k) | _ => single (S f d i j k) end.
Definition rescaled (m : params) (f : field) (d : nat) (x : R) : R :=
  match f, d, p_rescale m with Temp, O, Some t => (1 / t * x)%R | _, _, _ => x end.

Lemma readT_true : forall u, (in_t u < 0)%R -> readT u = true.
Proof. intros u H. unfold readT. destruct (Rle_dec 0 (in_t u)); [lra | reflexivity]. Qed.
Lemma readT_false : forall u, (0 <= in_t u)%R -> readT u = false.
Proof. intros u H. unfold readT. destruct (Rle_dec 0 (in_t u)); [reflexivity | contradiction]. Qed.
Lemma three_np : forall m, p_three_phases m = true -> nphases m = 3 /\ phase_depth m = 3.
Proof. intros m H. unfold nphases, phase_depth. rewrite H. split; reflexivity. Qed.

Lemma initialize_eq : forall asserts m u d3 dom ratio f dbl g patches, readable m ->
  domain_ok d3 (refine_box d3 ratio dom) -> (forall p, In p patches -> within (p_box p) (refine_box d3 ratio dom)) ->
  source asserts m u d3 (refine_box d3 ratio dom) f dbl g ->
  exists out, initialize asserts m u d3 dom ratio f patches = Some out /\
    Forall2 (fun p q => p_box q = p_box p /\ forall fl d i j k, cell_in (p_box p) i j k ->
      p_data q fl d i j k = rescaled m fl d (expected m u g (p_data p fl d i j k) fl d i j k)) patches out.
Proof.
  intros asserts m u d3 dom ratio f dbl g patches [WP NP] Do Wi So. unfold initialize.
  destruct (init_ok asserts m u d3 dom ratio f dbl g patches WP NP Do Wi So) as [out [E F]]. rewrite E. cbn [bind].
  destruct (p_rescale m) as [t |] eqn:RS.
  - eexists. split; [reflexivity |]. clear E Wi. induction F as [| p q l r [B G] F IH]; [constructor |]. cbn [map]. constructor; [| exact IH].
    cbn [rescale_patch p_box p_data]. split; [exact B |]. intros fl d i j k Hc. unfold rescaled. rewrite RS. apply inbox_iff in Hc.
    assert (G' : p_data q fl d i j k = expected m u g (p_data p fl d i j k) fl d i j k) by (rewrite G, Hc; reflexivity).
    unfold rescale_patch. cbn [p_data]. unfold set_field, fill_cells. destruct fl; cbn [field_eqb andb]; try exact G'.
    destruct d as [| d]; cbn [Nat.eqb]; [| exact G']. rewrite B, Hc. f_equal. exact G'.
  - exists out. split; [reflexivity |]. eapply Forall2_impl; [| exact F]. intros p q [B G]. split; [exact B |]. intros fl d i j k Hc.
    apply inbox_iff in Hc. rewrite G, Hc. unfold rescaled. rewrite RS. destruct fl, d; reflexivity.
Qed.

Lemma phase_names : forall m d, p_three_phases m = true -> (d < 3)%nat -> In (String.append "phase" (dec d), (Phase, d)) (put_vars m).
Proof.
  intros m d H L. unfold put_vars. apply in_or_app. left. unfold phase_vars. rewrite H.
  destruct d as [| [| [| d]]]; [left | right; left | right; right; left | lia]; reflexivity.
Qed.
Lemma no_phase : forall m, p_three_phases m = true -> ~ In "phase"%string (map fst (put_vars m)).
Proof.
  intros m H C. unfold put_vars in C. rewrite !map_app, quat_names, conc_names in C. rewrite !in_app_iff in C. unfold phase_vars in C. rewrite H in C. cbn in C.
  destruct C as [C | [C | [C | C]]].
  - intuition discriminate.
  - intuition discriminate.
  - apply in_map_iff in C. destruct C as [a [E _]]. discriminate E.
  - apply in_map_iff in C. destruct C as [a [E _]]. destruct (conc_name_head (p_ncomp m) a) as [s E2]. rewrite E2 in E. discriminate E.
Qed.

Lemma written_source : forall asserts m u d3 dom ratio l0 ranks S, readable m -> all_from_file u ->
  domain_ok d3 dom -> ratio_ok ratio -> covers (concat l0) dom -> map (map p_box) ranks = flattened_boxes d3 ratio l0 ->
  (forall p, In p (concat ranks) -> holds m S p) -> fractions m (refine_box d3 ratio dom) S ->
  exists f, writeInitialConditionsFile m d3 dom ratio ranks = Some f /\ source asserts m u d3 (refine_box d3 ratio dom) f false (back m S).
Proof.
  intros asserts m u d3 dom ratio l0 ranks S [WP NP] [UQ [UC UT]] Do Ra Co Fl Ho Fr.
  destruct (write_ok m d3 dom ratio l0 ranks S WP ltac:(lia) Do Ra Co Fl Ho) as [f [E [G N]]]. exists f. split; [exact E |].
  set (bf := refine_box d3 ratio dom) in *.
  assert (VG : forall n fl d, In (n, (fl, d)) (put_vars m) -> exists v, getVar f n = Some v /\ v_double v = false /\ vgood d3 bf false v (fun i j k => single (S fl d i j k))).
  { intros n fl d I. destruct (G _ I) as [v [A [B [X [Y [Z V]]]]]]. cbn [fst snd] in *. exists v. split; [exact A |]. split; [exact B |].
    split; [exact X |]. split; [exact Y |]. split; [exact Z |]. intros i j k Hc. unfold conv. rewrite V by exact Hc. apply single_idem. }
  assert (PV : forall d, (d < Z.to_nat (nphases m))%nat -> exists v, phase_var f d = Some v /\ v_double v = false /\ vgood d3 bf false v (back m S Phase d)).
  { intros d L. unfold phase_var, back. destruct (p_three_phases m) eqn:TP.
    - rewrite (N _ (no_phase m TP)). apply VG. apply phase_names; [exact TP |]. destruct (three_np m TP) as [-> _] in L. exact L.
    - destruct (VG "phase"%string Phase 0%nat) as [v [A B]].
      { unfold put_vars. apply in_or_app. left. unfold phase_vars. rewrite TP. left. reflexivity. }
      rewrite A. exists v. split; [reflexivity | exact B]. }
  constructor.
  - intros d L. destruct (PV d L) as [v [A [_ B]]]. exists v. split; assumption.
  - intros v Hv. destruct (PV 0%nat ltac:(lia)) as [w [A [B _]]]. congruence.
  - intros _ _. destruct (VG "temperature"%string Temp 0%nat) as [v [A [_ B]]].
    { unfold put_vars. apply in_or_app. right. apply in_or_app. left. left. reflexivity. }
    exists v. split; assumption.
  - intros _ d L. destruct (VG (quat_name d) Quat d) as [v [A [_ B]]].
    { unfold put_vars. rewrite !in_app_iff. right. right. left. unfold quat_vars. apply (in_map (fun d => (quat_name d, (Quat, d)))). apply in_seq. lia. }
    exists v. split; assumption.
  - intros _ d L. destruct (VG (conc_name (p_ncomp m) d) Conc d) as [v [A [_ B]]].
    { unfold put_vars. rewrite !in_app_iff. right. right. right. unfold conc_vars. apply (in_map (fun d => (conc_name (p_ncomp m) d, (Conc, d)))). apply in_seq. lia. }
    exists v. unfold conc_var. rewrite A. split; [reflexivity | exact B].
  - intros _ _ d i j k L Hc. apply single_fraction. apply Fr; assumption.
  - intros RQ Q. unfold readQ in RQ. rewrite UQ, andb_true_r in RQ. apply Nat.ltb_ge in RQ. lia.
  - intros RC Q. unfold readC in RC. rewrite UC, andb_true_r in RC. apply Nat.ltb_ge in RC. lia.
Qed.

Lemma written_read : forall asserts m u d3 dom ratio l0 ranks S patches, readable m -> all_from_file u ->
  domain_ok d3 dom -> ratio_ok ratio -> covers (concat l0) dom -> map (map p_box) ranks = flattened_boxes d3 ratio l0 ->
  (forall p, In p (concat ranks) -> holds m S p) -> fractions m (refine_box d3 ratio dom) S ->
  (forall p, In p patches -> within (p_box p) (refine_box d3 ratio dom)) ->
  exists f out, writeInitialConditionsFile m d3 dom ratio ranks = Some f /\ initialize asserts m u d3 dom ratio f patches = Some out /\
    Forall2 (fun p q => p_box q = p_box p /\ forall fl d i j k, cell_in (p_box p) i j k ->
      p_data q fl d i j k = rescaled m fl d (expected m u (back m S) (p_data p fl d i j k) fl d i j k)) patches out.
Proof.
  intros asserts m u d3 dom ratio l0 ranks S patches Rd Uf Do Ra Co Fl Ho Fr Wi.
  destruct (written_source asserts m u d3 dom ratio l0 ranks S Rd Uf Do Ra Co Fl Ho Fr) as [f [E So]].
  destruct (initialize_eq asserts m u d3 dom ratio f false _ patches Rd (refine_domain d3 ratio dom Do Ra) Wi So) as [out [E2 F]].
  exists f, out. split; [exact E |]. split; [exact E2 | exact F].
Qed.

Lemma readQ_file : forall m u d, all_from_file u -> p_orientation m = true -> (d < p_qlen m)%nat -> readQ m u = true /\ Nat.ltb d (quats m) = true.
Proof.
  intros m u d [UQ _] O L. unfold readQ, quats. rewrite O, UQ, andb_true_r. split; apply Nat.ltb_lt; lia.
Qed.
Lemma readC_file : forall m u d, all_from_file u -> (d < p_ncomp m)%nat -> readC m u = true /\ Nat.ltb d (p_ncomp m) = true.
Proof.
  intros m u d [_ [UC _]] L. unfold readC. rewrite UC, andb_true_r. split; apply Nat.ltb_lt; lia.
Qed.

(** *** C112 *)
Lemma round_trip : forall asserts m u d3 dom ratio l0 ranks S patches, all_phases_written m -> p_T_constant m = true -> p_rescale m = None -> all_from_file u ->
  domain_ok d3 dom -> ratio_ok ratio -> covers (concat l0) dom -> map (map p_box) ranks = flattened_boxes d3 ratio l0 ->
  (forall p, In p (concat ranks) -> holds m S p) -> fractions m (refine_box d3 ratio dom) S ->
  (forall p, In p patches -> within (p_box p) (refine_box d3 ratio dom)) ->
  exists f out, writeInitialConditionsFile m d3 dom ratio ranks = Some f /\ initialize asserts m u d3 dom ratio f patches = Some out /\
    Forall2 (fun p q => p_box q = p_box p /\ forall fl d i j k, in_run m fl d -> cell_in (p_box p) i j k -> p_data q fl d i j k = single (S fl d i j k)) patches out.
Proof.
  intros asserts m u d3 dom ratio l0 ranks S patches [WP AP] TC RS Uf Do Ra Co Fl Ho Fr Wi.
  assert (NP : nphases m = phase_depth m /\ 1 <= phase_depth m).
  { destruct AP as [TP | [N A]]; [destruct (three_np m TP); lia |]. unfold nphases, phase_depth. destruct (p_three_phases m); [lia |].
    unfold norderpB, norderpA. rewrite A, N. cbn. lia. }
  destruct (written_read asserts m u d3 dom ratio l0 ranks S patches) as [f [out [E1 [E2 F]]]]; try assumption.
  { split; [exact WP |]. lia. }
  exists f, out. split; [exact E1 |]. split; [exact E2 |]. eapply Forall2_impl; [| exact F]. intros p q [B G]. split; [exact B |].
  intros fl d i j k IR Hc. rewrite (G fl d i j k Hc). unfold rescaled. rewrite RS. pose proof Uf as [_ [_ UT]].
  destruct fl; cbn [in_run expected] in *.
  - replace (Nat.ltb d (Z.to_nat (nphases m))) with true by (symmetry; apply Nat.ltb_lt; lia). unfold back.
    destruct (p_three_phases m) eqn:TP; [reflexivity |]. destruct AP as [TP' | [N A]]; [congruence |]. unfold phase_depth in IR. rewrite TP, N in IR.
    replace d with 0%nat by lia. reflexivity.
  - subst d. rewrite TC, (readT_true u UT). reflexivity.
  - destruct IR as [O L]. destruct (readQ_file m u d Uf O L) as [-> ->]. reflexivity.
  - destruct (readC_file m u d Uf IR) as [-> ->]. reflexivity.
Qed.

Lemma round_trip_error : forall x, close (single x) x.
Proof. intros x. apply single_error. Qed.

(** *** C113 *)
Lemma put_all_first : forall d3 p q l f, same_first p q -> (forall e, In e l -> fst (snd e) <> Phase \/ snd (snd e) = 0%nat) -> put_all d3 p l f = put_all d3 q l f.
Proof.
  intros d3 p q l. induction l as [| [n [fl d]] l IH]; intros f [B H] Q; cbn [put_all]; [reflexivity |].
  assert (E : put_one d3 p (n, (fl, d)) f = put_one d3 q (n, (fl, d)) f).
  { unfold put_one. rewrite B, (H fl d (Q _ (or_introl eq_refl))). reflexivity. }
  rewrite E. destruct (put_one d3 q (n, (fl, d)) f) as [f' |]; [| reflexivity]. cbn [bind]. apply IH; [split; assumption |]. intros e He. apply Q. right. exact He.
Qed.
Lemma put_vars_first : forall m, p_three_phases m = false -> forall e, In e (put_vars m) -> fst (snd e) <> Phase \/ snd (snd e) = 0%nat.
Proof.
  intros m TP e H. unfold put_vars in H. rewrite !in_app_iff in H. destruct H as [H | [H | [H | H]]].
  - unfold phase_vars in H. rewrite TP in H. destruct H as [<- | []]. right. reflexivity.
  - destruct H as [<- | []]. left. discriminate.
  - apply in_map_iff in H. destruct H as [d [<- _]]. left. discriminate.
  - apply in_map_iff in H. destruct H as [d [<- _]]. left. discriminate.
Qed.
Lemma first_only_written : forall m d3 dom ratio ranks ranks', p_three_phases m = false -> Forall2 (Forall2 same_first) ranks ranks' ->
  writeInitialConditionsFile m d3 dom ratio ranks = writeInitialConditionsFile m d3 dom ratio ranks'.
Proof.
  intros m d3 dom ratio ranks ranks' TP H. unfold writeInitialConditionsFile. destruct (add_all _ _ _) as [f |]; [| reflexivity]. cbn [bind].
  revert f. induction H as [| l l' r r' Hl _ IH]; intros f; [reflexivity |]. cbn [write_others]. destruct (all_vars m f); [| reflexivity].
  assert (E : forall f, write_patches m d3 l f = write_patches m d3 l' f).
  { clear -TP Hl. induction Hl as [| p q l l' Hp _ IH]; intros f; [reflexivity |]. cbn [write_patches]. unfold write_patch.
    destruct (p_with_phase m); [| reflexivity]. rewrite (put_all_first d3 p q _ f Hp (put_vars_first m TP)).
    destruct (put_all d3 q (put_vars m) f) as [f' |]; [| reflexivity]. cbn [bind]. apply IH. }
  rewrite E. destruct (write_patches m d3 l' f) as [f' |]; [| reflexivity]. cbn [bind]. apply IH.
Qed.

Lemma sumn_const : forall c n, sumn (fun _ => c) n = (INR n * c)%R.
Proof. intros c n. induction n as [| n IH]; [cbn; ring |]. cbn [sumn]. rewrite IH, S_INR. ring. Qed.

Lemma copies_back : forall asserts m u d3 dom ratio l0 ranks S patches, p_with_phase m = true -> p_three_phases m = false -> 2 <= p_norderp m -> p_norderp_A m = None ->
  all_from_file u -> domain_ok d3 dom -> ratio_ok ratio -> covers (concat l0) dom -> map (map p_box) ranks = flattened_boxes d3 ratio l0 ->
  (forall p, In p (concat ranks) -> holds m S p) -> fractions m (refine_box d3 ratio dom) S ->
  (forall p, In p patches -> within (p_box p) (refine_box d3 ratio dom)) ->
  exists f out, writeInitialConditionsFile m d3 dom ratio ranks = Some f /\ initialize asserts m u d3 dom ratio f patches = Some out /\
    Forall2 (fun p q => p_box q = p_box p /\ forall i j k, cell_in (p_box p) i j k ->
      (forall d, Z.of_nat d < p_norderp m - 1 -> p_data q Phase d i j k = single (S Phase 0%nat i j k)) /\
      p_data q Phase (Z.to_nat (p_norderp m - 1)) i j k = (1 - IZR (p_norderp m - 1) * single (S Phase 0%nat i j k))%R) patches out.
Proof.
  intros asserts m u d3 dom ratio l0 ranks S patches WP TP N2 NA Uf Do Ra Co Fl Ho Fr Wi.
  assert (NP : nphases m = p_norderp m - 1 /\ phase_depth m = p_norderp m).
  { unfold nphases, phase_depth. rewrite TP. unfold norderpB, norderpA. rewrite NA. replace (p_norderp m =? 1) with false by (symmetry; apply Z.eqb_neq; lia).
    replace (0 <? p_norderp m - 1) with true by (symmetry; apply Z.ltb_lt; lia). lia. }
  destruct NP as [NP PD].
  destruct (written_read asserts m u d3 dom ratio l0 ranks S patches) as [f [out [E1 [E2 F]]]]; try assumption.
  { split; [exact WP |]. lia. }
  exists f, out. split; [exact E1 |]. split; [exact E2 |]. eapply Forall2_impl; [| exact F]. intros p q [B G]. split; [exact B |].
  intros i j k Hc. split.
  - intros d L. rewrite (G Phase d i j k Hc). cbn [rescaled expected]. rewrite NP. replace (Nat.ltb d (Z.to_nat (p_norderp m - 1))) with true by (symmetry; apply Nat.ltb_lt; lia).
    unfold back. rewrite TP. reflexivity.
  - rewrite (G Phase _ i j k Hc). cbn [rescaled expected]. rewrite NP, PD, Nat.ltb_irrefl, Nat.eqb_refl.
    replace (p_norderp m - 1 <? p_norderp m) with true by (symmetry; apply Z.ltb_lt; lia). cbn [andb]. unfold back. rewrite TP, sumn_const.
    rewrite INR_IZR_INZ, Z2Nat.id by lia. reflexivity.
Qed.

Lemma two_back : forall asserts m u d3 dom ratio l0 ranks S patches, p_with_phase m = true -> p_three_phases m = false -> p_norderp m = 2 -> p_norderp_A m = None ->
  all_from_file u -> domain_ok d3 dom -> ratio_ok ratio -> covers (concat l0) dom -> map (map p_box) ranks = flattened_boxes d3 ratio l0 ->
  (forall p, In p (concat ranks) -> holds m S p) -> fractions m (refine_box d3 ratio dom) S ->
  (forall p, In p patches -> within (p_box p) (refine_box d3 ratio dom)) ->
  (forall i j k, cell_in (refine_box d3 ratio dom) i j k -> (0 <= S Phase 0%nat i j k <= 1 /\ S Phase 0%nat i j k + S Phase 1%nat i j k = 1)%R) ->
  exists f out, writeInitialConditionsFile m d3 dom ratio ranks = Some f /\ initialize asserts m u d3 dom ratio f patches = Some out /\
    Forall2 (fun p q => p_box q = p_box p /\ forall d i j k, (d < 2)%nat -> cell_in (p_box p) i j k ->
      (Rabs (p_data q Phase d i j k - S Phase d i j k) <= / 2 ^ 24 + / 2 ^ 150)%R) patches out.
Proof.
  intros asserts m u d3 dom ratio l0 ranks S patches WP TP N2 NA Uf Do Ra Co Fl Ho Fr Wi Sum.
  destruct (copies_back asserts m u d3 dom ratio l0 ranks S patches) as [f [out [E1 [E2 F]]]]; try assumption; [lia |].
  exists f, out. split; [exact E1 |]. split; [exact E2 |].
  assert (F' : Forall2 (fun p q => In p patches /\ (p_box q = p_box p /\ forall i j k, cell_in (p_box p) i j k ->
      (forall d, Z.of_nat d < p_norderp m - 1 -> p_data q Phase d i j k = single (S Phase 0%nat i j k)) /\
      p_data q Phase (Z.to_nat (p_norderp m - 1)) i j k = (1 - IZR (p_norderp m - 1) * single (S Phase 0%nat i j k))%R)) patches out).
  { clear -F. induction F as [| p q l r H F IH]; [constructor |]. constructor; [split; [left; reflexivity | exact H] |].
    eapply Forall2_impl; [| exact IH]. intros a b [A B]. split; [right; exact A | exact B]. }
  eapply Forall2_impl; [| exact F']. intros p q [I [B G]]. split; [exact B |]. intros d i j k L Hc.
  assert (Cd : cell_in (refine_box d3 ratio dom) i j k) by (pose proof (Wi p I); unfold within, cell_in in *; lia).
  destruct (Sum i j k Cd) as [Pos Sm]. destruct (G i j k Hc) as [G1 G2]. rewrite N2 in *.
  pose proof (single_error (S Phase 0%nat i j k)) as Er.
  assert (Er' : (Rabs (single (S Phase 0%nat i j k) - S Phase 0%nat i j k) <= / 2 ^ 24 + / 2 ^ 150)%R).
  { eapply Rle_trans; [exact Er |]. apply Rplus_le_compat_r. rewrite <- (Rmult_1_r (/ 2 ^ 24)) at 2. apply Rmult_le_compat_l.
    - left. apply Rinv_0_lt_compat. apply pow_lt. lra.
    - rewrite Rabs_right by lra. lra. }
  destruct d as [| [| d]]; [| | lia].
  - rewrite (G1 0%nat) by lia. exact Er'.
  - change (Z.to_nat (2 - 1)) with 1%nat in G2. rewrite G2. change (IZR (2 - 1)) with 1%R. rewrite <- Rabs_Ropp.
    replace (- (1 - 1 * single (S Phase 0%nat i j k) - S Phase 1%nat i j k))%R with (single (S Phase 0%nat i j k) - S Phase 0%nat i j k)%R by lra. exact Er'.
Qed.

(** a file with numbered order parameters *)
Lemma stores_vgood : forall d3 dom f n h, domain_ok d3 dom -> stores d3 dom f n h -> exists v, getVar f n = Some v /\ v_double v = true /\ vgood d3 dom true v h.
Proof.
  intros d3 dom f n h Do [v [A [B [X [Y [Z G]]]]]]. exists v. split; [exact A |]. split; [exact B |]. unfold vgood, nx, ny, nz, domain_ok in *.
  repeat split; [lia | lia | destruct d3; lia |]. intros i j k Hc. cbn. apply G. exact Hc.
Qed.
Lemma file_source : forall asserts m u d3 dom f g, readable m -> domain_ok d3 dom -> complete m u d3 dom f g -> uniform_ok m u ->
  (forall d, (d < Z.to_nat (nphases m))%nat -> exists v, phase_var f d = Some v /\ v_double v = true /\ vgood d3 dom true v (g Phase d)) ->
  source asserts m u d3 dom f true g.
Proof.
  intros asserts m u d3 dom f g [WP NP] Do [CT [CQ [CC CF]]] [UQ UC] Ph. constructor.
  - intros d L. destruct (Ph d L) as [v [A [_ B]]]. exists v. split; assumption.
  - intros v Hv. destruct (Ph 0%nat ltac:(lia)) as [w [A [B _]]]. congruence.
  - intros RT TC. destruct (stores_vgood d3 dom f _ _ Do (CT TC ltac:(unfold readT in RT; destruct (Rle_dec 0 (in_t u)); [discriminate | lra]))) as [v [A [_ B]]].
    exists v. split; assumption.
  - intros RQ d L. unfold readQ in RQ. apply andb_true_iff in RQ. destruct RQ as [_ RQ]. unfold quats in L. destruct (p_orientation m) eqn:O; [| lia].
    destruct (in_q u) eqn:Q; [| discriminate]. destruct (stores_vgood d3 dom f _ _ Do (CQ eq_refl eq_refl d L)) as [v [A [_ B]]]. exists v. split; assumption.
  - intros RC d L. unfold readC in RC. apply andb_true_iff in RC. destruct RC as [_ RC].
    destruct (in_c u) eqn:Q; [| discriminate]. destruct (stores_vgood d3 dom f _ _ Do (CC eq_refl d L)) as [v [A [_ B]]].
    exists v. unfold conc_var. rewrite A. split; [reflexivity | exact B].
  - intros _ RC d i j k L Hc. unfold readC in RC. apply andb_true_iff in RC. destruct RC as [_ RC]. destruct (in_c u) eqn:Q; [| discriminate].
    exact (CF eq_refl d i j k L Hc).
  - intros RQ Q. unfold readQ, quats in *. destruct (p_orientation m) eqn:O; [| contradiction]. apply UQ; [| reflexivity]. intros E. rewrite E, andb_true_r in RQ.
    apply Nat.ltb_ge in RQ. lia.
  - intros RC Q. unfold readC in *. apply UC; [| lia]. intros E. rewrite E, andb_true_r in RC. apply Nat.ltb_ge in RC. lia.
Qed.

Lemma numbered_phases : forall asserts m u d3 dom ratio f g patches, readable m -> domain_ok d3 dom -> ratio_ok ratio ->
  complete m u d3 (refine_box d3 ratio dom) f g -> uniform_ok m u ->
  getVar f "phase" = None -> (forall d, Z.of_nat d < nphases m -> stores d3 (refine_box d3 ratio dom) f (String.append "phase" (dec d)) (g Phase d)) ->
  (forall p, In p patches -> within (p_box p) (refine_box d3 ratio dom)) ->
  exists out, initialize asserts m u d3 dom ratio f patches = Some out /\
    Forall2 (fun p q => p_box q = p_box p /\ forall i j k, cell_in (p_box p) i j k ->
      (forall d, Z.of_nat d < nphases m -> p_data q Phase d i j k = g Phase d i j k) /\
      (nphases m < phase_depth m -> p_data q Phase (Z.to_nat (nphases m)) i j k = (1 - sum_depths g (Z.to_nat (nphases m)) i j k)%R)) patches out.
Proof.
  intros asserts m u d3 dom ratio f g patches Rd Do Ra Cp Un NoP Ph Wi. pose proof (refine_domain d3 ratio dom Do Ra) as Do'.
  destruct (initialize_eq asserts m u d3 dom ratio f true g patches Rd Do' Wi) as [out [E F]].
  { apply file_source; try assumption. intros d L. unfold phase_var. rewrite NoP. apply stores_vgood; [exact Do' |]. apply Ph. lia. }
  exists out. split; [exact E |]. eapply Forall2_impl; [| exact F]. intros p q [B G]. split; [exact B |]. intros i j k Hc. split.
  - intros d L. rewrite (G Phase d i j k Hc). cbn [rescaled expected]. replace (Nat.ltb d (Z.to_nat (nphases m))) with true by (symmetry; apply Nat.ltb_lt; lia). reflexivity.
  - intros L. rewrite (G Phase _ i j k Hc). cbn [rescaled expected]. rewrite Nat.ltb_irrefl, Nat.eqb_refl. replace (nphases m <? phase_depth m) with true by (symmetry; apply Z.ltb_lt; exact L).
    cbn [andb]. rewrite sum_depths_sumn. reflexivity.
Qed.

(** *** C114 *)
Lemma kelvin_read : forall asserts m u d3 dom ratio f g patches t, readable m -> p_T_constant m = true -> p_rescale m = Some t -> domain_ok d3 dom -> ratio_ok ratio ->
  complete m u d3 (refine_box d3 ratio dom) f g -> uniform_ok m u -> stores d3 (refine_box d3 ratio dom) f "phase" (g Phase 0%nat) ->
  (forall p, In p patches -> within (p_box p) (refine_box d3 ratio dom)) ->
  exists out, initialize asserts m u d3 dom ratio f patches = Some out /\
    Forall2 (fun p q => p_box q = p_box p /\ forall i j k, cell_in (p_box p) i j k ->
      ((in_t u < 0)%R -> p_data q Temp 0%nat i j k = (g Temp 0%nat i j k / t)%R) /\ ((0 <= in_t u)%R -> p_data q Temp 0%nat i j k = (in_t u / t)%R)) patches out.
Proof.
  intros asserts m u d3 dom ratio f g patches t Rd TC RS Do Ra Cp Un Ph Wi. pose proof (refine_domain d3 ratio dom Do Ra) as Do'.
  set (g' := fun fl d => match fl with Phase => g Phase 0%nat | _ => g fl d end).
  destruct (initialize_eq asserts m u d3 dom ratio f true g' patches Rd Do' Wi) as [out [E F]].
  { apply file_source; try assumption. intros d L. unfold phase_var.
    destruct (stores_vgood d3 _ f _ _ Do' Ph) as [v [A B]]. rewrite A. exists v. split; [reflexivity | exact B]. }
  exists out. split; [exact E |]. eapply Forall2_impl; [| exact F]. intros p q [B G]. split; [exact B |]. intros i j k Hc.
  rewrite (G Temp 0%nat i j k Hc). unfold rescaled. rewrite RS. cbn [expected]. rewrite TC. cbn [Nat.eqb andb]. split; intros T.
  - rewrite (readT_true u T). unfold Rdiv. unfold g'. ring.
  - rewrite (readT_false u T). unfold Rdiv. ring.
Qed.

Lemma rescaled_back : forall asserts m u d3 dom ratio l0 ranks S patches t, readable m -> p_T_constant m = true -> p_rescale m = Some t -> all_from_file u ->
  domain_ok d3 dom -> ratio_ok ratio -> covers (concat l0) dom -> map (map p_box) ranks = flattened_boxes d3 ratio l0 ->
  (forall p, In p (concat ranks) -> holds m S p) -> fractions m (refine_box d3 ratio dom) S ->
  (forall p, In p patches -> within (p_box p) (refine_box d3 ratio dom)) ->
  exists f out, writeInitialConditionsFile m d3 dom ratio ranks = Some f /\ initialize asserts m u d3 dom ratio f patches = Some out /\
    Forall2 (fun p q => p_box q = p_box p /\ forall i j k, cell_in (p_box p) i j k -> p_data q Temp 0%nat i j k = (single (S Temp 0%nat i j k) / t)%R) patches out.
Proof.
  intros asserts m u d3 dom ratio l0 ranks S patches t Rd TC RS Uf Do Ra Co Fl Ho Fr Wi.
  destruct (written_read asserts m u d3 dom ratio l0 ranks S patches) as [f [out [E1 [E2 F]]]]; try assumption.
  exists f, out. split; [exact E1 |]. split; [exact E2 |]. eapply Forall2_impl; [| exact F]. intros p q [B G]. split; [exact B |].
  intros i j k Hc. rewrite (G Temp 0%nat i j k Hc). unfold rescaled. rewrite RS. cbn [expected]. rewrite TC. cbn [Nat.eqb andb].
  destruct Uf as [_ [_ UT]]. rewrite (readT_true u UT). unfold back, Rdiv. ring.
Qed.

(** files that agree except on some names *)
Lemma count_quats_ext : forall f f' n ii, (forall d, getVar f (quat_name d) = getVar f' (quat_name d)) -> count_quats f ii n = count_quats f' ii n.
Proof. intros f f' n. induction n as [| n IH]; cbn [count_quats]; intros ii H; [reflexivity |]. rewrite H. destruct (getVar f' (quat_name ii)); [rewrite (IH (S ii) H); reflexivity | reflexivity]. Qed.

Lemma file_temperature_unused : forall asserts m u d3 dom ratio f f' patches, p_with_phase m = true -> p_T_constant m = false ->
  (forall n, n <> "temperature"%string -> getVar f n = getVar f' n) -> initialize asserts m u d3 dom ratio f patches = initialize asserts m u d3 dom ratio f' patches.
Proof.
  intros asserts m u d3 dom ratio f f' patches WP TC H. unfold initialize, initializeLevelFromData.
  assert (HP : forall d, phase_var f d = phase_var f' d) by (intros d; unfold phase_var; rewrite !H; [reflexivity | discriminate | discriminate]).
  assert (HQ : forall d, getVar f (quat_name d) = getVar f' (quat_name d)) by (intros d; apply H; discriminate).
  assert (HC : forall d, conc_var m f d = conc_var m f' d).
  { intros d. unfold conc_var. rewrite !H; [reflexivity | discriminate |]. destruct (conc_name_head (p_ncomp m) d) as [s ->]. discriminate. }
  assert (E1 : read_phases m f = read_phases m f') by (unfold read_phases; rewrite WP; f_equal; apply map_ext; exact HP).
  assert (E2 : read_temp m u f = read_temp m u f') by (unfold read_temp; rewrite TC, andb_false_r; reflexivity).
  assert (E3 : read_quats m u f = read_quats m u f') by (unfold read_quats; destruct (readQ m u); [f_equal; apply map_ext; exact HQ | reflexivity]).
  assert (E4 : read_concs m u f = read_concs m u f') by (unfold read_concs; destruct (readC m u); [f_equal; apply map_ext; exact HC | reflexivity]).
  rewrite E1, E2, E3, E4, (count_quats_ext f f' (quats m) 0 HQ). reflexivity.
Qed.

(** *** C115 *)
Lemma initialize_inv : forall asserts m u d3 dom ratio f patches out, initialize asserts m u d3 dom ratio f patches = Some out ->
  exists ph t dims q c, read_phases m f = Some ph /\ read_temp m u f = Some t /\
    file_dims m u (nz d3 (refine_box d3 ratio dom), ny (refine_box d3 ratio dom), nx (refine_box d3 ratio dom)) ph t = Some dims /\
    dims_ok m u (nz d3 (refine_box d3 ratio dom), ny (refine_box d3 ratio dom), nx (refine_box d3 ratio dom)) dims (count_quats f 0 (quats m)) = true /\
    read_quats m u f = Some q /\ read_concs m u f = Some c.
Proof.
  intros asserts m u d3 dom ratio f patches out H. unfold initialize in H. apply bind_some in H. destruct H as [l [H _]].
  unfold initializeLevelFromData in H. apply bind_some in H. destruct H as [ph [E1 H]]. apply bind_some in H. destruct H as [t [E2 H]].
  apply bind_some in H. destruct H as [dims [E3 H]]. destruct (dims_ok _ _ _ _ _) eqn:E4; [| discriminate].
  apply bind_some in H. destruct H as [q [E5 H]]. apply bind_some in H. destruct H as [c [E6 H]].
  exists ph, t, dims, q, c. repeat split; assumption.
Qed.
Lemma Forall2_In : forall (A B : Type) (P : A -> B -> Prop) l r a, Forall2 P l r -> In a l -> exists b, P a b.
Proof. induction 1 as [| x y l r H _ IH]; intros I; [destruct I |]. destruct I as [<- | I]; [exists y; exact H | apply IH; exact I]. Qed.

Lemma needed_variables : forall asserts m u d3 dom ratio f patches out, readable m -> initialize asserts m u d3 dom ratio f patches = Some out ->
  (forall d, Z.of_nat d < nphases m -> phase_var f d <> None) /\
  (p_T_constant m = true -> (in_t u < 0)%R -> getVar f "temperature" <> None) /\
  (p_orientation m = true -> in_q u = nil -> forall d, (d < p_qlen m)%nat -> getVar f (quat_name d) <> None) /\
  (in_c u = nil -> forall d, (d < p_ncomp m)%nat -> getVar f (conc_name (p_ncomp m) d) <> None \/ (p_ncomp m = 1%nat /\ getVar f "concentration0" <> None)).
Proof.
  intros asserts m u d3 dom ratio f patches out [WP NP] H. apply initialize_inv in H. destruct H as [ph [t [dims [q [c [E1 [E2 [_ [_ [E5 E6]]]]]]]]]].
  split; [| split; [| split]].
  - intros d L. unfold read_phases in E1. rewrite WP in E1. apply sequence_map_inv in E1.
    destruct (Forall2_In _ _ _ _ _ d E1) as [v Hv]; [apply in_seq; lia | congruence].
  - intros TC T. unfold read_temp in E2. rewrite (readT_true u T), TC in E2. cbn [andb] in E2. apply bind_some in E2. destruct E2 as [v [E _]]. congruence.
  - intros O Q d L. unfold read_quats, readQ, quats in E5. rewrite O, Q, andb_true_r in E5. replace (Nat.ltb 0 (p_qlen m)) with true in E5 by (symmetry; apply Nat.ltb_lt; lia).
    apply sequence_map_inv in E5. destruct (Forall2_In _ _ _ _ _ d E5) as [v Hv]; [apply in_seq; lia | congruence].
  - intros Q d L. unfold read_concs, readC in E6. rewrite Q, andb_true_r in E6. replace (Nat.ltb 0 (p_ncomp m)) with true in E6 by (symmetry; apply Nat.ltb_lt; lia).
    apply sequence_map_inv in E6. destruct (Forall2_In _ _ _ _ _ d E6) as [v Hv]; [apply in_seq; lia |].
    unfold conc_var in Hv. destruct (getVar f (conc_name (p_ncomp m) d)); [left; discriminate | right]. destruct (Nat.eqb_spec (p_ncomp m) 1); [split; [assumption | congruence] | discriminate].
Qed.

Lemma size_checked : forall asserts m u d3 dom ratio f patches out, readable m -> initialize asserts m u d3 dom ratio f patches = Some out ->
  exists v, phase_var f 0 = Some v /\ v_nx v = nx (refine_box d3 ratio dom) /\ v_ny v = ny (refine_box d3 ratio dom) /\ v_nz v = nz d3 (refine_box d3 ratio dom).
Proof.
  intros asserts m u d3 dom ratio f patches out [WP NP] H. apply initialize_inv in H. destruct H as [ph [t [dims [q [c [E1 [E2 [E3 [E4 _]]]]]]]]].
  unfold read_phases in E1. rewrite WP in E1. apply sequence_map_inv in E1. unfold file_dims in E3. rewrite WP in E3.
  destruct (Z.to_nat (nphases m)) as [| n] eqn:EN; [lia |]. cbn [seq] in E1. inversion E1 as [| a v l r Ev Er]; subst. exists v. split; [exact Ev |].
  injection E3 as <-. unfold dims_ok in E4. rewrite !andb_true_iff, !Z.eqb_eq in E4. tauto.
Qed.

Lemma slice_unused : forall asserts m u d3 dom ratio f patches s, readable m ->
  initialize asserts m (mk_init (in_q u) (in_c u) (in_t u) s) d3 dom ratio f patches = initialize asserts m u d3 dom ratio f patches.
Proof.
  intros asserts m u d3 dom ratio f patches s [WP NP]. unfold initialize, initializeLevelFromData.
  set (u' := mk_init (in_q u) (in_c u) (in_t u) s).
  change (read_temp m u' f) with (read_temp m u f). change (read_quats m u' f) with (read_quats m u f). change (read_concs m u' f) with (read_concs m u f).
  destruct (read_phases m f) as [ph |]; [| reflexivity]. cbn [bind]. destruct (read_temp m u f) as [t |]; [| reflexivity]. cbn [bind].
  change (file_dims m u') with (file_dims m u). destruct (file_dims m u _ ph t) as [[[z y] x] |]; [| reflexivity]. cbn [bind].
  change (dims_ok m u') with (dims_ok m u). destruct (dims_ok m u _ _ _) eqn:E; [| reflexivity].
  assert (I : islice d3 u' (fst (fst (z, y, x))) = islice d3 u (fst (fst (z, y, x)))).
  { cbn [fst]. unfold dims_ok in E. rewrite !andb_true_iff, !Z.eqb_eq in E. destruct E as [[_ Z1] _]. rewrite Z1. unfold islice, nz.
    destruct d3; [reflexivity |]. change (1 / 2) with 0. destruct (in_slice u' <? 0), (in_slice u <? 0); reflexivity. }
  rewrite I. reflexivity.
Qed.

Lemma uniform_values : forall asserts m u d3 dom ratio f g patches, readable m -> domain_ok d3 dom -> ratio_ok ratio ->
  complete m u d3 (refine_box d3 ratio dom) f g -> uniform_ok m u -> stores d3 (refine_box d3 ratio dom) f "phase" (g Phase 0%nat) -> p_rescale m = None ->
  (forall p, In p patches -> within (p_box p) (refine_box d3 ratio dom)) ->
  exists out, initialize asserts m u d3 dom ratio f patches = Some out /\
    Forall2 (fun p q => p_box q = p_box p /\ forall i j k, cell_in (p_box p) i j k ->
      (in_q u <> nil -> forall d, p_orientation m = true -> (d < p_qlen m)%nat -> p_data q Quat d i j k = nth d (in_q u) 0%R) /\
      (in_c u <> nil -> forall d, (d < p_ncomp m)%nat -> p_data q Conc d i j k = nth d (in_c u) 0%R) /\
      ((0 <= in_t u)%R -> p_T_constant m = true -> p_data q Temp 0%nat i j k = in_t u)) patches out.
Proof.
  intros asserts m u d3 dom ratio f g patches Rd Do Ra Cp Un Ph RS Wi. pose proof (refine_domain d3 ratio dom Do Ra) as Do'.
  set (g' := fun fl d => match fl with Phase => g Phase 0%nat | _ => g fl d end).
  destruct (initialize_eq asserts m u d3 dom ratio f true g' patches Rd Do' Wi) as [out [E F]].
  { apply file_source; try assumption. intros d L. unfold phase_var.
    destruct (stores_vgood d3 _ f _ _ Do' Ph) as [v [A B]]. rewrite A. exists v. split; [reflexivity | exact B]. }
  exists out. split; [exact E |]. eapply Forall2_impl; [| exact F]. intros p q [B G]. split; [exact B |]. intros i j k Hc. split; [| split].
  - intros Q d O L. rewrite (G Quat d i j k Hc). cbn [rescaled expected]. unfold quats, readQ. rewrite O.
    replace (Nat.ltb d (p_qlen m)) with true by (symmetry; apply Nat.ltb_lt; exact L). destruct (in_q u); [contradiction |]. rewrite andb_false_r. reflexivity.
  - intros Q d L. rewrite (G Conc d i j k Hc). cbn [rescaled expected]. unfold readC.
    replace (Nat.ltb d (p_ncomp m)) with true by (symmetry; apply Nat.ltb_lt; exact L). destruct (in_c u); [contradiction |]. rewrite andb_false_r. reflexivity.
  - intros T TC. rewrite (G Temp 0%nat i j k Hc). unfold rescaled. rewrite RS. cbn [expected]. rewrite TC, (readT_false u T). reflexivity.
Qed.

(** *** Refutations: one cell, one process *)
Definition dot : zbox := mk_zbox 0 0 0 0 0 0.
Lemma dot_ok : domain_ok false dot. Proof. unfold domain_ok; cbn; repeat split; lia. Qed.
Lemma dot_covers : covers (concat [[dot]]) dot.
Proof.
  split; cbn.
  - intros b [<- | []]. unfold within, cell_in; cbn. lia.
  - intros i j k H. exists dot. split; [left; reflexivity | exact H].
Qed.
Lemma ones_ok : ratio_ok (1, 1, 1). Proof. cbn. lia. Qed.
Lemma dot_within : within dot (refine_box false (1, 1, 1) dot). Proof. unfold within, cell_in; cbn; lia. Qed.
Lemma dot_cell : cell_in dot 0 0 0. Proof. unfold cell_in; cbn; lia. Qed.
Definition from_file : init_input := mk_init nil nil (-1) (-1).
Lemma from_file_ok : all_from_file from_file. Proof. unfold all_from_file; cbn. repeat split; lra. Qed.

Lemma far_from_one : ~ close 0 1.
Proof.
  unfold close. replace (Rabs (0 - 1)) with 1%R by (rewrite Rabs_left; lra). rewrite Rabs_R1.
  assert (A : (/ 2 ^ 24 <= / 2 ^ 2)%R) by (apply Rinv_le_contravar; [apply pow_lt; lra | apply Rle_pow; [lra | lia]]).
  assert (B : (/ 2 ^ 150 <= / 2 ^ 2)%R) by (apply Rinv_le_contravar; [apply pow_lt; lra | apply Rle_pow; [lra | lia]]).
  assert (C : (/ 2 ^ 2 = / 4)%R) by (f_equal; ring). intros H. lra.
Qed.
Lemma half_far : ~ close (1 / 2) 1.
Proof.
  unfold close. replace (Rabs (1 / 2 - 1)) with (1 / 2)%R by (rewrite Rabs_left; lra). rewrite Rabs_R1.
  assert (A : (/ 2 ^ 24 <= / 2 ^ 3)%R) by (apply Rinv_le_contravar; [apply pow_lt; lra | apply Rle_pow; [lra | lia]]).
  assert (B : (/ 2 ^ 150 <= / 2 ^ 3)%R) by (apply Rinv_le_contravar; [apply pow_lt; lra | apply Rle_pow; [lra | lia]]).
  assert (C : (/ 2 ^ 3 = / 8)%R) by (f_equal; ring). intros H. lra.
Qed.

Lemma order_parameters_not_back : ~ (forall asserts m u d3 dom ratio l0 ranks S patches, readable m -> all_from_file u ->
  domain_ok d3 dom -> ratio_ok ratio -> covers (concat l0) dom -> map (map p_box) ranks = flattened_boxes d3 ratio l0 ->
  (forall p, In p (concat ranks) -> holds m S p) -> fractions m (refine_box d3 ratio dom) S ->
  (forall p, In p patches -> within (p_box p) (refine_box d3 ratio dom)) ->
  exists f out, writeInitialConditionsFile m d3 dom ratio ranks = Some f /\ initialize asserts m u d3 dom ratio f patches = Some out /\
    Forall2 (fun p q => p_box q = p_box p /\ forall d i j k, in_run m Phase d -> cell_in (p_box p) i j k -> close (p_data q Phase d i j k) (S Phase d i j k)) patches out).
Proof.
  intros H.
  set (m := mk_params true false 3 None false 0 0 false None).
  set (S := (fun f d _ _ _ => match f, d with Phase, 1%nat => 1 | _, _ => 0 end)%R : state).
  set (p := mk_patch dot S).
  assert (Ho : forall q, In q (concat [[p]]) -> holds m S q) by (intros q [<- | []]; intros f d i j k _ _; reflexivity).
  assert (Fr : fractions m (refine_box false (1, 1, 1) dot) S) by (intros d i j k L; cbn in L; lia).
  assert (Wi : forall q, In q [p] -> within (p_box q) (refine_box false (1, 1, 1) dot)) by (intros q [<- | []]; exact dot_within).
  assert (Rd : readable m) by (split; [reflexivity |]; cbn; lia).
  destruct (H false m from_file false dot (1, 1, 1) [[dot]] [[p]] S [p] Rd from_file_ok dot_ok ones_ok dot_covers eq_refl Ho Fr Wi) as [f [out [E1 [E2 F]]]].
  destruct (copies_back false m from_file false dot (1, 1, 1) [[dot]] [[p]] S [p] eq_refl eq_refl ltac:(cbn; lia) eq_refl from_file_ok dot_ok ones_ok dot_covers eq_refl Ho Fr Wi)
    as [f' [out' [E1' [E2' F']]]].
  assert (Ef : f' = f) by congruence. subst f'. assert (Eo : out' = out) by congruence. subst out'.
  inversion F as [| ? q ? r [B G] Fr0]; subst. inversion F' as [| ? ? ? ? [B' G'] Fr1]; subst.
  specialize (G 1%nat 0 0 0 ltac:(cbn; lia) dot_cell). destruct (G' 0 0 0 dot_cell) as [G1 _]. rewrite (G1 1%nat ltac:(cbn; lia)) in G.
  cbn in G. rewrite single_0 in G. exact (far_from_one G).
Qed.

Lemma rescaled_not_back : ~ (forall asserts m u d3 dom ratio l0 ranks S patches, readable m -> p_T_constant m = true -> all_from_file u ->
  domain_ok d3 dom -> ratio_ok ratio -> covers (concat l0) dom -> map (map p_box) ranks = flattened_boxes d3 ratio l0 ->
  (forall p, In p (concat ranks) -> holds m S p) -> fractions m (refine_box d3 ratio dom) S ->
  (forall p, In p patches -> within (p_box p) (refine_box d3 ratio dom)) ->
  exists f out, writeInitialConditionsFile m d3 dom ratio ranks = Some f /\ initialize asserts m u d3 dom ratio f patches = Some out /\
    Forall2 (fun p q => p_box q = p_box p /\ forall i j k, cell_in (p_box p) i j k -> close (p_data q Temp 0%nat i j k) (S Temp 0%nat i j k)) patches out).
Proof.
  intros H.
  set (m := mk_params true false 1 None false 0 0 true (Some 2%R)).
  set (S := (fun _ _ _ _ _ => 1)%R : state).
  set (p := mk_patch dot S).
  assert (Ho : forall q, In q (concat [[p]]) -> holds m S q) by (intros q [<- | []]; intros f d i j k _ _; reflexivity).
  assert (Fr : fractions m (refine_box false (1, 1, 1) dot) S) by (intros d i j k L; cbn in L; lia).
  assert (Wi : forall q, In q [p] -> within (p_box q) (refine_box false (1, 1, 1) dot)) by (intros q [<- | []]; exact dot_within).
  assert (Rd : readable m) by (split; [reflexivity |]; cbn; lia).
  destruct (H false m from_file false dot (1, 1, 1) [[dot]] [[p]] S [p] Rd eq_refl from_file_ok dot_ok ones_ok dot_covers eq_refl Ho Fr Wi) as [f [out [E1 [E2 F]]]].
  destruct (rescaled_back false m from_file false dot (1, 1, 1) [[dot]] [[p]] S [p] 2%R Rd eq_refl eq_refl from_file_ok dot_ok ones_ok dot_covers eq_refl Ho Fr Wi)
    as [f' [out' [E1' [E2' F']]]].
  assert (Ef : f' = f) by congruence. subst f'. assert (Eo : out' = out) by congruence. subst out'.
  inversion F as [| ? q ? r [B G] Fr0]; subst. inversion F' as [| ? ? ? ? [B' G'] Fr1]; subst.
  specialize (G 0 0 0 dot_cell). rewrite (G' 0 0 0 dot_cell) in G. unfold S in G. cbv beta in G. rewrite single_1 in G. exact (half_far G).
Qed.

(** a run with one orientation component takes a file with four *)
Definition ones : ncvar := mk_ncvar true 1 1 1 (fun _ _ _ => 1%R).
Definition four_components : ncfile := [("phase", ones); ("temperature", ones); ("quat1", ones); ("quat2", ones); ("quat3", ones); ("quat4", ones)]%string.
Lemma quaternion_count : ~ (forall asserts m u d3 dom ratio f patches out, readable m -> p_orientation m = true -> in_q u = nil -> domain_ok d3 dom ->
  patches <> nil -> initialize asserts m u d3 dom ratio f patches = Some out -> getVar f (quat_name (p_qlen m)) = None).
Proof.
  intros H.
  set (m := mk_params true false 1 None true 1 0 true None).
  set (g := (fun _ _ _ _ _ => 1)%R : state). set (p := mk_patch dot g).
  assert (Rd : readable m) by (split; [reflexivity |]; cbn; lia).
  assert (St : forall n, getVar four_components n = Some ones -> stores false dot four_components n (fun _ _ _ => 1%R)).
  { intros n E. exists ones. split; [exact E |]. cbn. repeat split. }
  destruct (uniform_values false m from_file false dot (1, 1, 1) four_components g [p] Rd dot_ok ones_ok) as [out [E _]].
  - split; [| split; [| split]].
    + intros _ _. apply (St "temperature"%string). reflexivity.
    + intros _ _ d L. cbn in L. replace d with 0%nat by lia. apply (St "quat1"%string). reflexivity.
    + intros _ d L. cbn in L. lia.
    + intros _ d i j k L. cbn in L. lia.
  - split; cbn; congruence.
  - apply (St "phase"%string). reflexivity.
  - reflexivity.
  - intros q [<- | []]. exact dot_within.
  - specialize (H false m from_file false dot (1, 1, 1) four_components [p] out Rd eq_refl eq_refl dot_ok ltac:(discriminate) E). discriminate H.
Qed.

Lemma three_dimensional_refused : forall asserts m u dom ratio f patches v, readable m -> phase_var f 0 = Some v -> v_nz v <> 1 ->
  initialize asserts m u false dom ratio f patches = None.
Proof.
  intros asserts m u dom ratio f patches v Rd Hv Hz. destruct (initialize _ _ _ _ _ _ _ _) as [out |] eqn:E; [| reflexivity].
  destruct (size_checked _ _ _ _ _ _ _ _ _ Rd E) as [w [E1 [_ [_ E2]]]]. assert (Ew : w = v) by congruence. subst w. exfalso. apply Hz. rewrite E2. reflexivity.
Qed.
