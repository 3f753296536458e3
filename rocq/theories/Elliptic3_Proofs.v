From Coq Require Import Reals ZArith List Bool Ascii Lia Lra Psatz FunctionalExtensionality.
From Coquelicot Require Import Coquelicot.
From Verif Require Import Grid_Model Grid_Proofs Functions_Model Elliptic3_Model Elliptic3_Spec.
From Verif Require Elliptic_Proofs.
Import ListNotations.
Open Scope R_scope.
Set Bullet Behavior "Strict Subproofs".

(** * Loops that write disjoint sets of cells *)
Definition cset := Z -> Z -> Z -> Prop.
Section Adds.
  Variables (T : Type) (inv : cset -> T -> Prop).
  Hypothesis inv_ext : forall (D D' : cset) s, (forall a b c, D a b c <-> D' a b c) -> inv D s -> inv D' s.
  Definition adds (B : cset) (f : T -> T) : Prop :=
    forall (D : cset) s, (forall a b c, D a b c -> ~ B a b c) -> inv D s -> inv (fun a b c => D a b c \/ B a b c) (f s).
  Lemma adds_ext : forall (B B' : cset) f, (forall a b c, B a b c <-> B' a b c) -> adds B f -> adds B' f.
  Proof.
    intros B B' f E H D s Hn I. eapply inv_ext; [| apply (H D s); [| exact I]].
    - intros a b c. cbv beta. rewrite E. tauto.
    - intros a b c Hd Hb. apply (Hn a b c Hd). apply E, Hb.
  Qed.
  Lemma loop_adds : forall lo hi (B : Z -> cset) (body : Z -> T -> T),
    (forall n, (lo <= n <= hi)%Z -> adds (B n) (body n)) ->
    (forall n m a b c, (lo <= n <= hi)%Z -> (lo <= m <= hi)%Z -> B n a b c -> B m a b c -> n = m) ->
    adds (fun a b c => exists n, (lo <= n <= hi)%Z /\ B n a b c) (do_loop lo hi body).
  Proof.
    intros lo hi B body Hb Hd D s Hn I.
    pose proof (do_loop_ind _ (fun m s => inv (fun a b c => D a b c \/ exists n, (lo <= n <= m)%Z /\ B n a b c) s) lo hi body s) as Q.
    refine (inv_ext _ _ _ _ (Q _ _)).
    - intros a b c. cbv beta. split; (intros [H | (n & H & H')]; [left; exact H | right; exists n; split; [lia | exact H']]).
    - eapply inv_ext; [| exact I]. intros a b c. cbv beta. split; [auto |]. intros [H | (n & H & _)]; [exact H | lia].
    - intros m s' Hm IH. eapply inv_ext; [| apply (Hb m Hm); [| exact IH]].
      + intros a b c. cbv beta. split.
        * intros [[H | (n & H & H')] | H]; [left; exact H | right; exists n; split; [lia | exact H'] | right; exists m; split; [lia | exact H]].
        * intros [H | (n & H & H')]; [left; left; exact H |]. destruct (Z.eq_dec n m) as [-> | Hne]; [right; exact H' |].
          left. right. exists n. split; [lia | exact H'].
      + cbv beta. intros a b c [H | (n & H & H')] HB.
        * apply (Hn a b c H). exists m. auto.
        * assert (n = m) by (apply (Hd n m a b c); auto; lia). lia.
  Qed.
  Lemma step_adds : forall lo hi step (B : Z -> cset) (body : Z -> T -> T), (0 < step)%Z ->
    (forall n, (lo <= n <= hi)%Z -> (n - lo) mod step = 0%Z -> adds (B n) (body n)) ->
    (forall n m a b c, (lo <= n <= hi)%Z -> (lo <= m <= hi)%Z -> (n - lo) mod step = 0%Z -> (m - lo) mod step = 0%Z -> B n a b c -> B m a b c -> n = m) ->
    adds (fun a b c => exists n, (lo <= n <= hi /\ (n - lo) mod step = 0)%Z /\ B n a b c) (do_step lo hi step body).
  Proof.
    intros lo hi step B body Hs Hb Hd. unfold do_step, Elliptic_Model.do_step.
    assert (M : forall x, ((lo + x * step - lo) mod step = 0)%Z) by (intro x; replace (lo + x * step - lo)%Z with (x * step)%Z by lia; apply Z.mod_mul; lia).
    assert (R : forall x, (0 <= x <= (hi - lo) / step)%Z -> (lo <= lo + x * step <= hi)%Z).
    { intros x Hx. pose proof (Z.mul_div_le (hi - lo) step). nia. }
    eapply adds_ext; [| apply (loop_adds 0%Z ((hi - lo) / step)%Z (fun x => B (lo + x * step)%Z))].
    - intros a b c. cbv beta. split.
      + intros (x & Hx & HB). exists (lo + x * step)%Z. split; [split; [apply R, Hx | apply M] | exact HB].
      + intros (n & [Hn Hm] & HB). exists ((n - lo) / step)%Z. pose proof (Z.div_mod (n - lo) step ltac:(lia)) as E. split.
        * split; [apply Z.div_pos; lia | apply Z.div_le_mono; lia].
        * replace (lo + (n - lo) / step * step)%Z with n by lia. exact HB.
    - intros x Hx. apply Hb; [apply R, Hx | apply M].
    - intros x y a b c Hx Hy H1 H2. assert (E : (lo + x * step = lo + y * step)%Z) by (apply (Hd _ _ a b c); auto). nia.
  Qed.
End Adds.

Lemma in_patch_iff : forall p i j k, in_patch p i j k = true <-> inside p i j k.
Proof. intros p i j k. unfold in_patch, inside. rewrite !andb_true_iff, !Z.leb_le. lia. Qed.
Lemma in_patch_spec : forall p i j k, reflect (inside p i j k) (in_patch p i j k).
Proof. intros p i j k. apply iff_reflect. symmetry. apply in_patch_iff. Qed.
Lemma in_level_iff : forall lv i j k, in_level lv i j k = true <-> cell lv i j k.
Proof.
  intros lv i j k. unfold in_level, cell. rewrite existsb_exists. split; intros (p & H1 & H2); exists p; split; auto; apply in_patch_iff; auto.
Qed.
Lemma in_level_spec : forall lv i j k, reflect (cell lv i j k) (in_level lv i j k).
Proof. intros. apply iff_reflect. symmetry. apply in_level_iff. Qed.

(** the cells of a row that a pass visits *)
Definition visited (lo hi a : Z) : Prop := (lo <= a <= hi /\ (a - lo) mod 2 = 0)%Z.
Lemma visited_dec : forall lo hi a, {visited lo hi a} + {~ visited lo hi a}.
Proof.
  intros lo hi a. unfold visited. destruct (Z_le_dec lo a); [| right; lia]. destruct (Z_le_dec a hi); [| right; lia].
  destruct (Z.eq_dec ((a - lo) mod 2) 0); [left; lia | right; lia].
Qed.
Definition relaxed (p : patch) (off a b c : Z) : Prop :=
  visited (rbgs_row_start p off b c) (ihi p) a /\ (jlo p <= b <= jhi p)%Z /\ (klo p <= c <= khi p)%Z.

Section Pass.
  Variables (p : patch) (dx dy dz : R) (o : coefs) (fl : sides) (rhs : arr3) (off : Z).
  Let body (k j i : Z) (s : arr3 * R) : arr3 * R :=
    let residual := residual_cell dx dy dz o fl rhs (fst s) i j k in
    let du := - residual * dudr dx dy dz o i j k in
    (upd3 (fst s) i j k (fst s i j k + du), if Rlt_dec (snd s) (Rabs residual) then Rabs residual else snd s).
  Let new (u : arr3) (i j k : Z) : R := u i j k + - residual_cell dx dy dz o fl rhs u i j k * dudr dx dy dz o i j k.
  Let resid (u : arr3) (i j k : Z) : R := Rabs (residual_cell dx dy dz o fl rhs u i j k).

  Lemma residual_local : forall u u' i j k, u i j k = u' i j k -> residual_cell dx dy dz o fl rhs u i j k = residual_cell dx dy dz o fl rhs u' i j k.
  Proof. intros u u' i j k H. unfold residual_cell. rewrite H. reflexivity. Qed.

  Definition done_inv (u : arr3) (m0 : R) (D : cset) (s : arr3 * R) : Prop :=
    (forall a b c, D a b c -> fst s a b c = new u a b c) /\ (forall a b c, ~ D a b c -> fst s a b c = u a b c) /\
    (forall M, snd s <= M <-> (m0 <= M /\ forall a b c, D a b c -> resid u a b c <= M)).
  Lemma done_ext : forall u m0 (D D' : cset) s, (forall a b c, D a b c <-> D' a b c) -> done_inv u m0 D s -> done_inv u m0 D' s.
  Proof.
    intros u m0 D D' s E (H1 & H2 & H3). split; [| split].
    - intros a b c H. apply H1, E, H.
    - intros a b c H. apply H2. rewrite E. exact H.
    - intro M. rewrite H3. split; intros [Ha Hb]; split; auto; intros a b c H; apply Hb; apply E; auto.
  Qed.
  Lemma body_adds : forall u m0 k j i, adds _ (done_inv u m0) (fun a b c => a = i /\ b = j /\ c = k) (body k j i).
  Proof.
    intros u m0 k j i D s Hn (H1 & H2 & H3). assert (Hn' : ~ D i j k) by (intro H; apply (Hn i j k H); auto).
    unfold body, done_inv. cbn [fst snd]. assert (E : fst s i j k = u i j k) by (apply H2; auto).
    rewrite (residual_local (fst s) u i j k E). split; [| split].
    - intros a b c [H | (-> & -> & ->)].
      + rewrite upd3_other; [auto |]. specialize (Hn a b c H). lia.
      + rewrite upd3_same, E. reflexivity.
    - intros a b c H. rewrite upd3_other; [apply H2; tauto |]. lia.
    - intro M. fold (resid u i j k). destruct (Rlt_dec (snd s) (resid u i j k)) as [L | L]; split.
      + intro H. assert (H' : snd s <= M) by lra. apply H3 in H'. destruct H' as [H4 H5]. split; auto.
        intros a b c [Hd | (-> & -> & ->)]; auto.
      + intros [_ H]. apply H. auto.
      + intro H. pose proof H as H'. apply H3 in H'. destruct H' as [H4 H5]. split; auto.
        intros a b c [Hd | (-> & -> & ->)]; auto. lra.
      + intros [H4 H5]. apply H3. split; auto.
  Qed.
  Lemma rbgs_inv : forall u, done_inv u 0 (relaxed p off) (rbgs p dx dy dz o fl rhs off u).
  Proof.
    intro u. pose proof (done_ext u 0) as EX.
    assert (A : adds _ (done_inv u 0) (relaxed p off) (fun s => do_loop (klo p) (khi p) (fun k => do_loop (jlo p) (jhi p) (fun j =>
      do_step (rbgs_row_start p off j k) (ihi p) 2%Z (body k j))) s)).
    { eapply adds_ext; [exact EX | | apply (loop_adds _ _ EX (klo p) (khi p) (fun k a b c =>
        exists j, (jlo p <= j <= jhi p)%Z /\ exists i, (rbgs_row_start p off j k <= i <= ihi p /\ (i - rbgs_row_start p off j k) mod 2 = 0)%Z /\ (a = i /\ b = j /\ c = k)))].
      - intros a b c. cbv beta. unfold relaxed, visited. split.
        + intros (k & Hk & j & Hj & i & Hi & -> & -> & ->). auto.
        + intros (Hi & Hj & Hk). exists c. split; [exact Hk |]. exists b. split; [exact Hj |]. exists a. auto.
      - intros k Hk. apply (loop_adds _ _ EX). 2: { intros n m a b c _ _ (i & _ & _ & E & _) (i' & _ & _ & E' & _). congruence. }
        intros j Hj. apply (step_adds _ _ EX); [lia | intros n _ _; apply body_adds |]. intros n m a b c _ _ _ _ (E & _) (E' & _). congruence.
      - intros n m a b c _ _ (j & _ & i & _ & _ & _ & E) (j' & _ & i' & _ & _ & _ & E'). congruence. }
    specialize (A (fun _ _ _ => False) (u, 0)). eapply EX; [| apply A].
    - intros a b c. cbv beta. tauto.
    - tauto.
    - split; [| split]; cbn [fst snd]; [tauto | reflexivity |]. intro M. split; [intro H; split; [exact H | tauto] | tauto].
  Qed.
  Lemma rbgs_relaxed : forall u a b c, relaxed p off a b c -> fst (rbgs p dx dy dz o fl rhs off u) a b c = new u a b c.
  Proof. intros u. apply (rbgs_inv u). Qed.
  Lemma rbgs_kept : forall u a b c, ~ relaxed p off a b c -> fst (rbgs p dx dy dz o fl rhs off u) a b c = u a b c.
  Proof. intros u. apply (rbgs_inv u). Qed.
  Lemma rbgs_max : forall u M, snd (rbgs p dx dy dz o fl rhs off u) <= M <-> (0 <= M /\ forall a b c, relaxed p off a b c -> resid u a b c <= M).
  Proof. intros u. apply (rbgs_inv u). Qed.
End Pass.

Lemma relaxed_dec : forall p off a b c, {relaxed p off a b c} + {~ relaxed p off a b c}.
Proof.
  intros p off a b c. unfold relaxed. destruct (visited_dec (rbgs_row_start p off b c) (ihi p) a); [| right; tauto].
  destruct (Z_le_dec (jlo p) b); [| right; lia]. destruct (Z_le_dec b (jhi p)); [| right; lia].
  destruct (Z_le_dec (klo p) c); [| right; lia]. destruct (Z_le_dec c (khi p)); [left; tauto | right; lia].
Qed.
Lemma row_start_cases : forall p off j k, (0 <= ilo p + j + k)%Z ->
  rbgs_row_start p off j k = if ((ilo p + j + k) mod 2 =? off)%Z then ilo p else (ilo p + 1)%Z.
Proof.
  intros p off j k H. unfold rbgs_row_start. rewrite Z.quot_div_nonneg by lia.
  replace (ilo p + j + k - (ilo p + j + k) / 2 * 2)%Z with ((ilo p + j + k) mod 2)%Z; [reflexivity |].
  pose proof (Z.div_mod (ilo p + j + k) 2). lia.
Qed.
Lemma relaxed_inside : forall p off i j k, relaxed p off i j k -> inside p i j k.
Proof.
  intros p off i j k [[H1 _] H2]. unfold inside. unfold rbgs_row_start in H1. destruct (_ =? off)%Z; lia.
Qed.
(** the colour of a cell: the same on every patch *)
Definition colour (i j k : Z) : Z := ((i + j + k) mod 2)%Z.
Lemma colour_cases : forall i j k, colour i j k = 0%Z \/ colour i j k = 1%Z.
Proof. intros. unfold colour. pose proof (Z.mod_pos_bound (i + j + k) 2). lia. Qed.
Lemma relaxed_iff : forall p off i j k, (0 <= ilo p + jlo p + klo p)%Z -> inside p i j k -> (off = 0 \/ off = 1)%Z -> (relaxed p off i j k <-> off = colour i j k).
Proof.
  intros p off i j k H (Hi & Hj & Hk) Ho. unfold relaxed, visited. rewrite row_start_cases by lia. unfold colour.
  pose proof (Z.mod_pos_bound (ilo p + j + k) 2). pose proof (Z.div_mod (ilo p + j + k) 2).
  pose proof (Z.mod_pos_bound (i + j + k) 2). pose proof (Z.div_mod (i + j + k) 2).
  destruct (Z.eqb_spec ((ilo p + j + k) mod 2) off) as [E | E].
  - pose proof (Z.mod_pos_bound (i - ilo p) 2). pose proof (Z.div_mod (i - ilo p) 2). lia.
  - pose proof (Z.mod_pos_bound (i - (ilo p + 1)) 2). pose proof (Z.div_mod (i - (ilo p + 1)) 2).
    split; [lia |]. intro E2. split; [| lia]. split; [| lia].
    destruct (Z.eq_dec i (ilo p)); [| lia]. exfalso. subst i. lia.
Qed.

Lemma inb_true : forall lo hi i, (lo <= i <= hi)%Z -> inb lo hi i = true.
Proof. intros lo hi i H. destruct (inb_spec lo hi i); [reflexivity | contradiction]. Qed.

(** * The fluxes and the residual without flux correction *)
Lemma compflux_x_val : forall p dx dc w f i j k, (ilo p <= i <= ihi p + 1)%Z -> (jlo p <= j <= jhi p)%Z -> (klo p <= k <= khi p)%Z ->
  compflux_x p dx dc w f i j k = 1 / dx * dc i j k * (w i j k - w (i - 1)%Z j k).
Proof.
  intros p dx dc w f i j k Hi Hj Hk. unfold compflux_x.
  rewrite (cells3_loop (ilo p) (ihi p + 1) (jlo p) (jhi p) (klo p) (khi p) (fun i j k _ => 1 / dx * dc i j k * (w i j k - w (i - 1)%Z j k))).
  rewrite !inb_true by lia. reflexivity.
Qed.
Lemma compflux_y_val : forall p dy dc w f i j k, (ilo p <= i <= ihi p)%Z -> (jlo p <= j <= jhi p + 1)%Z -> (klo p <= k <= khi p)%Z ->
  compflux_y p dy dc w f i j k = 1 / dy * dc i j k * (w i j k - w i (j - 1)%Z k).
Proof.
  intros p dx dc w f i j k Hi Hj Hk. unfold compflux_y.
  rewrite (cells3_loop (ilo p) (ihi p) (jlo p) (jhi p + 1) (klo p) (khi p) (fun i j k _ => 1 / dx * dc i j k * (w i j k - w i (j - 1)%Z k))).
  rewrite !inb_true by lia. reflexivity.
Qed.
Lemma compflux_z_val : forall p dz dc w f i j k, (ilo p <= i <= ihi p)%Z -> (jlo p <= j <= jhi p)%Z -> (klo p <= k <= khi p + 1)%Z ->
  compflux_z p dz dc w f i j k = 1 / dz * dc i j k * (w i j k - w i j (k - 1)%Z).
Proof.
  intros p dx dc w f i j k Hi Hj Hk. unfold compflux_z.
  rewrite (cells3_loop (ilo p) (ihi p) (jlo p) (jhi p) (klo p) (khi p + 1) (fun i j k _ => 1 / dx * dc i j k * (w i j k - w i j (k - 1)%Z))).
  rewrite !inb_true by lia. reflexivity.
Qed.
Lemma flux_plain : forall lv p o o0 w fl, plain lv ->
  flux_on_patch lv p o o0 w fl = mk_sides (compflux_x p (gdx lv) (xdc o) w (fx fl)) (compflux_y p (gdy lv) (ydc o) w (fy fl)) (compflux_z p (gdz lv) (zdc o) w (fz fl)).
Proof. intros lv p o o0 w fl H. unfold flux_on_patch. rewrite H. reflexivity. Qed.

Definition code_ax (lv : level) : R := 1 / (gdx lv * pdx lv).
Definition code_ay (lv : level) : R := 1 / (gdy lv * pdy lv).
Definition code_az (lv : level) : R := 1 / (gdz lv * pdz lv).
Lemma residual_operator : forall lv p o w fl rhs i j k, plain lv -> spacing lv -> inside p i j k ->
  residual_cell (pdx lv) (pdy lv) (pdz lv) o (flux_on_patch lv p o o w fl) rhs w i j k = rhs i j k - operator (code_ax lv) (code_ay lv) (code_az lv) o w i j k.
Proof.
  intros lv p o w fl rhs i j k Hp (H1 & H2 & H3) (Hi & Hj & Hk). unfold residual_cell. rewrite flux_plain by auto. cbn [fx fy fz].
  rewrite !compflux_x_val, !compflux_y_val, !compflux_z_val by lia.
  replace (i + 1 - 1)%Z with i by lia. replace (j + 1 - 1)%Z with j by lia. replace (k + 1 - 1)%Z with k by lia.
  unfold operator, code_ax, code_ay, code_az. field. repeat split; lra.
Qed.
Lemma one_spacing_spacing : forall lv, one_spacing lv -> spacing lv.
Proof. intros lv (H1 & H2 & H3 & E1 & E2 & E3). unfold spacing. rewrite E1, E2, E3. lra. Qed.
Lemma operator_level : forall lv o w i j k, one_spacing lv -> operator (code_ax lv) (code_ay lv) (code_az lv) o w i j k = level_operator lv o w i j k.
Proof. intros lv o w i j k (H1 & H2 & H3 & E1 & E2 & E3). unfold level_operator, code_ax, code_ay, code_az. rewrite E1, E2, E3. reflexivity. Qed.
Lemma dudr_eq : forall lv o i j k, spacing lv ->
  dudr (pdx lv) (pdy lv) (pdz lv) o i j k = 1 / (mob o i j k * ((xdc o (i + 1)%Z j k + xdc o i j k) / (pdx lv * pdx lv) + (ydc o i (j + 1)%Z k + ydc o i j k) / (pdy lv * pdy lv)
                 + (zdc o i j (k + 1)%Z + zdc o i j k) / (pdz lv * pdz lv)) - sfield o i j k).
Proof.
  intros lv o i j k (H1 & H2 & H3). unfold dudr. f_equal.
  replace (1 / pdx lv * (1 / pdx lv) * (xdc o (i + 1)%Z j k + xdc o i j k)) with ((xdc o (i + 1)%Z j k + xdc o i j k) / (pdx lv * pdx lv)) by (field; lra).
  replace (1 / pdy lv * (1 / pdy lv) * (ydc o i (j + 1)%Z k + ydc o i j k)) with ((ydc o i (j + 1)%Z k + ydc o i j k) / (pdy lv * pdy lv)) by (field; lra).
  replace (1 / pdz lv * (1 / pdz lv) * (zdc o i j (k + 1)%Z + zdc o i j k)) with ((zdc o i j (k + 1)%Z + zdc o i j k) / (pdz lv * pdz lv)) by (field; lra).
  reflexivity.
Qed.

(** * One colour on the level *)
Lemma fop_split : forall (A : Type) (R : A -> A -> Prop) l1 x l2, ForallOrdPairs R (l1 ++ x :: l2) ->
  (forall y, In y l1 -> R y x) /\ (forall y, In y l2 -> R x y).
Proof.
  induction l1 as [| a l1 IH]; intros x l2 H; inversion H; subst; clear H.
  - split; [contradiction |]. apply Forall_forall. auto.
  - destruct (IH x l2 H3) as [Ha Hb]. split; auto. intros y [-> | Hy]; auto.
    rewrite Forall_forall in H2. apply H2. apply in_or_app. right. left. reflexivity.
Qed.

Section Level.
  Variables (lv : level) (gh : Z -> Z -> Z -> ghost) (o : coefs) (rhs : arr3) (fl : sides).
  Let W u := fill lv gh u.
  Let F p u := flux_on_patch lv p o o (W u) fl.
  Let step off u (s : arr3 * R) p :=
    let f := flux_on_patch lv p o o (W u) fl in
    let r := rbgs p (pdx lv) (pdy lv) (pdz lv) o f rhs off (W u) in (store_patch p (fst r) (fst s), snd r).

  Lemma fill_cell : forall u i j k, cell lv i j k -> fill lv gh u i j k = u i j k.
  Proof. intros u i j k H. unfold fill. destruct (in_level_spec lv i j k); [reflexivity | contradiction]. Qed.
  Lemma fill_ghost : forall u i j k, ~ cell lv i j k ->
    fill lv gh u i j k = factor (gh i j k) * u (src0 (gh i j k)) (src1 (gh i j k)) (src2 (gh i j k)) + offset_value (gh i j k).
  Proof. intros u i j k H. unfold fill. destruct (in_level_spec lv i j k); [contradiction | reflexivity]. Qed.
  Lemma fill_extends : forall u, extends lv gh u (fill lv gh u).
  Proof. intro u. split; intros i j k H; [apply fill_cell | apply fill_ghost]; auto. Qed.
  Lemma extends_fill : forall u w, extends lv gh u w -> w = fill lv gh u.
  Proof.
    intros u w [H1 H2]. extensionality i. extensionality j. extensionality k. unfold fill. destruct (in_level_spec lv i j k) as [H | H]; auto.
  Qed.

  Lemma fold_out : forall off u l s i j k, (forall p, In p l -> ~ inside p i j k) ->
    fst (fold_left (step off u) l s) i j k = fst s i j k.
  Proof.
    induction l as [| q l IH]; intros s i j k H; [reflexivity |]. cbn [fold_left]. rewrite IH by (intros p Hp; apply H; right; auto).
    unfold step at 1. cbn [fst]. unfold store_patch. destruct (in_patch_spec q i j k) as [Hq | Hq]; [| reflexivity].
    exfalso. apply (H q); [left |]; auto.
  Qed.
  Lemma pass_cell : forall off u p i j k, disjoint lv -> In p (patches lv) -> inside p i j k ->
    fst (color_pass lv gh o rhs fl off u) i j k = fst (rbgs p (pdx lv) (pdy lv) (pdz lv) o (F p u) rhs off (W u)) i j k.
  Proof.
    intros off u p i j k Hd Hp Hi. unfold color_pass. fold (W u). fold (step off u).
    destruct (in_split p (patches lv) Hp) as (l1 & l2 & E). rewrite E. unfold disjoint in Hd. rewrite E in Hd.
    destruct (fop_split _ _ _ _ _ Hd) as [_ Hb]. rewrite fold_left_app. cbn [fold_left].
    rewrite fold_out by (intros q Hq Hiq; apply (Hb q Hq i j k); auto).
    unfold step at 1. cbn [fst]. unfold store_patch. destruct (in_patch_spec p i j k) as [_ | n]; [| contradiction]. reflexivity.
  Qed.
  Lemma pass_out : forall off u i j k, ~ cell lv i j k -> fst (color_pass lv gh o rhs fl off u) i j k = u i j k.
  Proof.
    intros off u i j k H. unfold color_pass. fold (W u). fold (step off u). rewrite fold_out; [reflexivity |].
    intros p Hp Hi. apply H. exists p. auto.
  Qed.

  (** the residual of the level in a cell *)
  Definition resid (u : arr3) (p : patch) (i j k : Z) : R := residual_cell (pdx lv) (pdy lv) (pdz lv) o (F p u) rhs (W u) i j k.
  Lemma pass_relaxed : forall off u p i j k, disjoint lv -> In p (patches lv) -> relaxed p off i j k ->
    fst (color_pass lv gh o rhs fl off u) i j k = u i j k - resid u p i j k * dudr (pdx lv) (pdy lv) (pdz lv) o i j k.
  Proof.
    intros off u p i j k Hd Hp Hr. pose proof (relaxed_inside _ _ _ _ _ Hr) as Hi. rewrite (pass_cell off u p i j k) by auto.
    rewrite rbgs_relaxed by auto. unfold W at 1. rewrite fill_cell by (exists p; auto). fold (resid u p i j k). unfold resid. ring.
  Qed.
  Lemma pass_kept : forall off u p i j k, disjoint lv -> In p (patches lv) -> inside p i j k -> ~ relaxed p off i j k ->
    fst (color_pass lv gh o rhs fl off u) i j k = u i j k.
  Proof.
    intros off u p i j k Hd Hp Hi Hr. rewrite (pass_cell off u p i j k) by auto. rewrite rbgs_kept by auto.
    unfold W. apply fill_cell. exists p. auto.
  Qed.

  Lemma residual_fold_out : forall l u (r : arr3) i j k, (forall p, In p l -> ~ inside p i j k) ->
    fold_left (fun r p => compres p (pdx lv) (pdy lv) (pdz lv) o (flux_on_patch lv p o o (W u) fl) rhs (W u) r) l r i j k = r i j k.
  Proof.
    induction l as [| q l IH]; intros u r i j k H; [reflexivity |]. cbn [fold_left]. rewrite IH by (intros p Hp; apply H; right; auto).
    unfold compres. rewrite (cells3_loop (ilo q) (ihi q) (jlo q) (jhi q) (klo q) (khi q)
      (fun i j k _ => residual_cell (pdx lv) (pdy lv) (pdz lv) o (flux_on_patch lv q o o (W u) fl) rhs (W u) i j k)).
    destruct (inb_spec (ilo q) (ihi q) i); [| reflexivity]. destruct (inb_spec (jlo q) (jhi q) j); [| reflexivity]. destruct (inb_spec (klo q) (khi q) k); [| reflexivity].
    exfalso. apply (H q); [left; auto | split; [auto | split; auto]].
  Qed.
  Lemma residual_val : forall u p res i j k, disjoint lv -> In p (patches lv) -> inside p i j k ->
    level_residual lv gh o rhs fl u res i j k = resid u p i j k.
  Proof.
    intros u p res i j k Hd Hp Hi. unfold level_residual. fold (W u).
    destruct (in_split p (patches lv) Hp) as (l1 & l2 & E). rewrite E. unfold disjoint in Hd. rewrite E in Hd.
    destruct (fop_split _ _ _ _ _ Hd) as [_ Hb]. rewrite fold_left_app. cbn [fold_left].
    rewrite residual_fold_out by (intros q Hq Hiq; apply (Hb q Hq i j k); auto).
    unfold compres at 1. rewrite (cells3_loop (ilo p) (ihi p) (jlo p) (jhi p) (klo p) (khi p)
      (fun i j k _ => residual_cell (pdx lv) (pdy lv) (pdz lv) o (flux_on_patch lv p o o (W u) fl) rhs (W u) i j k)).
    destruct Hi as (H1 & H2 & H3). rewrite !inb_true by auto.
    reflexivity.
  Qed.

  Definition sweep (u : arr3) : arr3 := fst (color_pass lv gh o rhs fl 1%Z (fst (color_pass lv gh o rhs fl 0%Z u))).
  Lemma dudr_neq0 : forall i j k, spacing lv -> cell lv i j k -> nonsingular lv o -> dudr (pdx lv) (pdy lv) (pdz lv) o i j k <> 0.
  Proof. intros i j k Hs Hc Hn. rewrite dudr_eq by exact Hs. unfold Rdiv at 1. rewrite Rmult_1_l. apply Rinv_neq_0_compat. apply Hn; auto. Qed.

  (** * Fixed points *)
  Lemma pass_zero_residual : forall off u, disjoint lv -> (forall p i j k, In p (patches lv) -> inside p i j k -> resid u p i j k = 0) ->
    fst (color_pass lv gh o rhs fl off u) = u.
  Proof.
    intros off u Hd H. extensionality i. extensionality j. extensionality k. destruct (in_level_spec lv i j k) as [(p & Hp & Hi) | Hc].
    - destruct (relaxed_dec p off i j k) as [Hr | Hr].
      + rewrite (pass_relaxed off u p i j k) by auto. rewrite H by auto. ring.
      + apply (pass_kept off u p i j k); auto.
    - apply pass_out. auto.
  Qed.
  Lemma sweep_fixed : forall u, disjoint lv -> spacing lv -> nonneg_corners lv -> nonsingular lv o ->
    (forall i j k, cell lv i j k -> sweep u i j k = u i j k) -> forall p i j k, In p (patches lv) -> inside p i j k -> resid u p i j k = 0.
  Proof.
    intros u Hd Hsp Hn Hs H.
    assert (Hred : fst (color_pass lv gh o rhs fl 0%Z u) = u).
    { extensionality i. extensionality j. extensionality k. destruct (in_level_spec lv i j k) as [(p & Hp & Hi) | Hc]; [| apply pass_out; auto].
      destruct (relaxed_dec p 0%Z i j k) as [Hr | Hr]; [| apply (pass_kept 0%Z u p i j k); auto].
      assert (Hb : ~ relaxed p 1%Z i j k).
      { intro Hb. apply relaxed_iff in Hb; auto. apply relaxed_iff in Hr; auto. lia. }
      rewrite <- (H i j k) by (exists p; auto). unfold sweep.
      symmetry. apply (pass_kept 1%Z _ p i j k); auto. }
    intros p i j k Hp Hi. assert (Hc : cell lv i j k) by (exists p; auto). specialize (H i j k Hc).
    unfold sweep in H. rewrite Hred in H.
    assert (G : forall off, relaxed p off i j k -> fst (color_pass lv gh o rhs fl off u) i j k = u i j k -> resid u p i j k = 0).
    { intros off Hr E. rewrite (pass_relaxed off u p i j k) in E by auto.
      assert (E2 : resid u p i j k * dudr (pdx lv) (pdy lv) (pdz lv) o i j k = 0) by lra.
      apply Rmult_integral in E2. destruct E2 as [E2 | E2]; auto. exfalso. apply (dudr_neq0 i j k Hsp Hc Hs E2). }
    destruct (colour_cases i j k) as [E | E].
    - apply (G 0%Z); [apply relaxed_iff; auto | rewrite Hred; reflexivity].
    - apply (G 1%Z); [apply relaxed_iff; auto | exact H].
  Qed.
End Level.

Lemma smooth_zero : forall lv gh o rhs fl n tol u, disjoint lv ->
  (forall p i j k, In p (patches lv) -> inside p i j k -> resid lv gh o rhs fl u p i j k = 0) ->
  smoothErrorByRedBlack lv gh o rhs fl n tol u = u.
Proof.
  induction n as [| n IH]; intros tol u Hd H; [reflexivity |]. cbn [smoothErrorByRedBlack].
  rewrite (pass_zero_residual lv gh o rhs fl 0%Z u Hd H), (pass_zero_residual lv gh o rhs fl 1%Z u Hd H), IH by auto.
  destruct (Rle_dec 0 tol); [destruct (Rlt_dec _ _) |]; reflexivity.
Qed.
Lemma smooth_one : forall lv gh o rhs fl tol u, smoothErrorByRedBlack lv gh o rhs fl 1%nat tol u = sweep lv gh o rhs fl u.
Proof. intros. cbn [smoothErrorByRedBlack]. unfold sweep. destruct (Rle_dec 0 tol); [destruct (Rlt_dec _ _) |]; reflexivity. Qed.

(** C82 *)
Lemma smoothing_fixed_points : forall lv gh o rhs fl res u,
  disjoint lv -> spacing lv -> nonneg_corners lv -> nonsingular lv o ->
  ((forall n tol, within lv (smoothErrorByRedBlack lv gh o rhs fl n tol u) u 0) <->
   (forall i j k, cell lv i j k -> level_residual lv gh o rhs fl u res i j k = 0)).
Proof.
  intros lv gh o rhs fl res u Hd Hsp Hn Hs. split.
  - intros H i j k (p & Hp & Hi). rewrite (residual_val _ _ _ _ _ u p) by auto.
    apply (sweep_fixed lv gh o rhs fl u); auto. intros a b c Hc. specialize (H 1%nat 0 a b c Hc). rewrite smooth_one in H.
    pose proof (Rabs_pos (sweep lv gh o rhs fl u a b c - u a b c)). apply Rminus_diag_uniq. apply Rabs_eq_0. lra.
  - intros H n tol i j k Hc. rewrite smooth_zero; auto.
    + rewrite Rminus_eq_0, Rabs_R0. lra.
    + intros p a b c Hp Hi. rewrite <- (residual_val _ _ _ _ _ u p res) by auto. apply H. exists p. auto.
Qed.
Lemma smoothing_one_sweep_fixed : forall lv gh o rhs fl res u tol,
  disjoint lv -> spacing lv -> nonneg_corners lv -> nonsingular lv o ->
  within lv (smoothErrorByRedBlack lv gh o rhs fl 1%nat tol u) u 0 ->
  forall i j k, cell lv i j k -> level_residual lv gh o rhs fl u res i j k = 0.
Proof.
  intros lv gh o rhs fl res u tol Hd Hsp Hn Hs H i j k (p & Hp & Hi). rewrite (residual_val _ _ _ _ _ u p) by auto.
  apply (sweep_fixed lv gh o rhs fl u); auto. intros a b c Hc. specialize (H a b c Hc). rewrite smooth_one in H.
  pose proof (Rabs_pos (sweep lv gh o rhs fl u a b c - u a b c)). apply Rminus_diag_uniq. apply Rabs_eq_0. lra.
Qed.


(** * Contraction *)
Lemma weighted_bound : forall t e E, 0 <= t -> Rabs e <= E -> - (t * E) <= t * e <= t * E.
Proof. intros t e E Ht He. apply Rabs_le_between in He. split; nra. Qed.
Lemma relax_bound : forall m d1 d2 d3 d4 d5 d6 C ax ay az px py pz e e1 e2 e3 e4 e5 e6 E K c0,
  0 <= m -> d1 <= 0 -> d2 <= 0 -> d3 <= 0 -> d4 <= 0 -> d5 <= 0 -> d6 <= 0 -> 0 < c0 -> c0 <= C -> 0 <= ax <= px -> 0 <= ay <= py -> 0 <= az <= pz ->
  Rabs e <= E -> Rabs e1 <= E -> Rabs e2 <= E -> Rabs e3 <= E -> Rabs e4 <= E -> Rabs e5 <= E -> Rabs e6 <= E ->
  - m * (px * (d1 + d2) + py * (d3 + d4) + pz * (d5 + d6)) <= K ->
  Rabs (e + (m * (ax * (d1 * (e1 - e) - d2 * (e - e2)) + ay * (d3 * (e3 - e) - d4 * (e - e4)) + az * (d5 * (e5 - e) - d6 * (e - e6))) + C * e)
            * (1 / (m * (px * (d1 + d2) + py * (d3 + d4) + pz * (d5 + d6)) - C))) <= K / (K + c0) * E.
Proof.
  intros m d1 d2 d3 d4 d5 d6 C ax ay az px py pz e e1 e2 e3 e4 e5 e6 E K c0 Hm H1 H2 H3 H4 H5 H6 Hc0 HC Hx Hy Hz He He1 He2 He3 He4 He5 He6 HK.
  assert (HE : 0 <= E) by (pose proof (Rabs_pos e); lra).
  set (A := - m * (px * (d1 + d2) + py * (d3 + d4) + pz * (d5 + d6))) in *.
  assert (P : forall d, d <= 0 -> 0 <= - m * d) by (intros; nra).
  pose proof (P d1 H1) as P1. pose proof (P d2 H2) as P2. pose proof (P d3 H3) as P3. pose proof (P d4 H4) as P4. pose proof (P d5 H5) as P5. pose proof (P d6 H6) as P6. clear P.
  set (b1 := - m * d1) in *. set (b2 := - m * d2) in *. set (b3 := - m * d3) in *. set (b4 := - m * d4) in *. set (b5 := - m * d5) in *. set (b6 := - m * d6) in *.
  assert (EA : A = px * (b1 + b2) + py * (b3 + b4) + pz * (b5 + b6)) by (unfold A, b1, b2, b3, b4, b5, b6; ring).
  assert (HA : 0 <= A). { rewrite EA. assert (0 <= px * (b1 + b2)) by (apply Rmult_le_pos; lra). assert (0 <= py * (b3 + b4)) by (apply Rmult_le_pos; lra). assert (0 <= pz * (b5 + b6)) by (apply Rmult_le_pos; lra). lra. }
  set (T := ax * (b1 + b2) + ay * (b3 + b4) + az * (b5 + b6)).
  assert (HT : T <= A).
  { rewrite EA. unfold T. assert (ax * (b1 + b2) <= px * (b1 + b2)) by (apply Rmult_le_compat_r; lra).
    assert (ay * (b3 + b4) <= py * (b3 + b4)) by (apply Rmult_le_compat_r; lra).
    assert (az * (b5 + b6) <= pz * (b5 + b6)) by (apply Rmult_le_compat_r; lra). lra. }
  set (num := (A - T) * e + (ax * b1) * e1 + (ax * b2) * e2 + (ay * b3) * e3 + (ay * b4) * e4 + (az * b5) * e5 + (az * b6) * e6).
  replace (e + (m * (ax * (d1 * (e1 - e) - d2 * (e - e2)) + ay * (d3 * (e3 - e) - d4 * (e - e4)) + az * (d5 * (e5 - e) - d6 * (e - e6))) + C * e)
            * (1 / (m * (px * (d1 + d2) + py * (d3 + d4) + pz * (d5 + d6)) - C))) with (num / (A + C)).
  2: { replace (m * (px * (d1 + d2) + py * (d3 + d4) + pz * (d5 + d6)) - C) with (- (A + C)) by (unfold A; ring).
       unfold num, T. unfold b1, b2, b3, b4, b5, b6. field. lra. }
  assert (HN : Rabs num <= A * E).
  { assert (Q : forall a b, 0 <= a -> 0 <= b -> 0 <= a * b) by (intros; apply Rmult_le_pos; auto).
    pose proof (weighted_bound (A - T) e E ltac:(lra) He).
    pose proof (weighted_bound (ax * b1) e1 E (Q ax b1 (proj1 Hx) P1) He1). pose proof (weighted_bound (ax * b2) e2 E (Q ax b2 (proj1 Hx) P2) He2).
    pose proof (weighted_bound (ay * b3) e3 E (Q ay b3 (proj1 Hy) P3) He3). pose proof (weighted_bound (ay * b4) e4 E (Q ay b4 (proj1 Hy) P4) He4).
    pose proof (weighted_bound (az * b5) e5 E (Q az b5 (proj1 Hz) P5) He5). pose proof (weighted_bound (az * b6) e6 E (Q az b6 (proj1 Hz) P6) He6).
    replace (A * E) with ((A - T) * E + ax * b1 * E + ax * b2 * E + ay * b3 * E + ay * b4 * E + az * b5 * E + az * b6 * E) by (unfold T; ring).
    apply Rabs_le. unfold num. lra. }
  unfold Rdiv. rewrite Rabs_mult, (Rabs_pos_eq (/ (A + C))) by (apply Rlt_le, Rinv_0_lt_compat; lra).
  apply Rle_trans with (A * E * / (A + C)).
  { apply Rmult_le_compat_r; auto. apply Rlt_le, Rinv_0_lt_compat. lra. }
  apply Rmult_le_reg_r with (A + C); [lra |]. replace (A * E * / (A + C) * (A + C)) with (A * E) by (field; lra).
  apply Rmult_le_reg_r with (K + c0); [lra |].
  replace (K * / (K + c0) * E * (A + C) * (K + c0)) with (K * E * (A + C)) by (field; lra).
  assert (A * c0 <= K * C) by (apply Rmult_le_compat; lra).
  assert (E * (A * c0) <= E * (K * C)) by (apply Rmult_le_compat_l; auto). nra.
Qed.
(** a residual bounds the error where the error is largest *)
Lemma residual_bound : forall m d1 d2 d3 d4 d5 d6 C ax ay az e e1 e2 e3 e4 e5 e6 c0,
  0 <= m -> d1 <= 0 -> d2 <= 0 -> d3 <= 0 -> d4 <= 0 -> d5 <= 0 -> d6 <= 0 -> c0 <= C -> 0 <= ax -> 0 <= ay -> 0 <= az -> 0 <= c0 ->
  Rabs e1 <= Rabs e -> Rabs e2 <= Rabs e -> Rabs e3 <= Rabs e -> Rabs e4 <= Rabs e -> Rabs e5 <= Rabs e -> Rabs e6 <= Rabs e ->
  c0 * Rabs e <= Rabs (m * (ax * (d1 * (e1 - e) - d2 * (e - e2)) + ay * (d3 * (e3 - e) - d4 * (e - e4)) + az * (d5 * (e5 - e) - d6 * (e - e6))) + C * e).
Proof.
  intros m d1 d2 d3 d4 d5 d6 C ax ay az e e1 e2 e3 e4 e5 e6 c0 Hm H1 H2 H3 H4 H5 H6 HC Hx Hy Hz Hc He1 He2 He3 He4 He5 He6.
  assert (P : forall a d, 0 <= a -> d <= 0 -> 0 <= a * (- m * d)) by (intros; apply Rmult_le_pos; nra).
  pose proof (P ax d1 Hx H1) as P1. pose proof (P ax d2 Hx H2) as P2. pose proof (P ay d3 Hy H3) as P3. pose proof (P ay d4 Hy H4) as P4.
  pose proof (P az d5 Hz H5) as P5. pose proof (P az d6 Hz H6) as P6. clear P.
  set (t1 := ax * (- m * d1)) in *. set (t2 := ax * (- m * d2)) in *. set (t3 := ay * (- m * d3)) in *. set (t4 := ay * (- m * d4)) in *.
  set (t5 := az * (- m * d5)) in *. set (t6 := az * (- m * d6)) in *.
  replace (m * (ax * (d1 * (e1 - e) - d2 * (e - e2)) + ay * (d3 * (e3 - e) - d4 * (e - e4)) + az * (d5 * (e5 - e) - d6 * (e - e6))) + C * e)
    with (C * e + t1 * (e - e1) + t2 * (e - e2) + t3 * (e - e3) + t4 * (e - e4) + t5 * (e - e5) + t6 * (e - e6)) by (unfold t1, t2, t3, t4, t5, t6; ring).
  assert (G : forall t a, 0 <= t -> Rabs a <= Rabs e -> 0 <= e -> 0 <= t * (e - a)).
  { intros t a Ht Ha Hp. apply Rmult_le_pos; auto. rewrite (Rabs_pos_eq e) in Ha by auto. apply Rabs_le_between in Ha. lra. }
  assert (G' : forall t a, 0 <= t -> Rabs a <= Rabs e -> e < 0 -> t * (e - a) <= 0).
  { intros t a Ht Ha Hp. rewrite (Rabs_left e) in Ha by auto. apply Rabs_le_between in Ha. nra. }
  destruct (Rle_dec 0 e) as [He | He].
  - pose proof (G _ _ P1 He1 He). pose proof (G _ _ P2 He2 He). pose proof (G _ _ P3 He3 He). pose proof (G _ _ P4 He4 He). pose proof (G _ _ P5 He5 He). pose proof (G _ _ P6 He6 He).
    assert (c0 * e <= C * e) by (apply Rmult_le_compat_r; auto). assert (0 <= c0 * e) by (apply Rmult_le_pos; auto).
    rewrite (Rabs_pos_eq e) by auto. rewrite Rabs_pos_eq; lra.
  - apply Rnot_le_lt in He. pose proof (G' _ _ P1 He1 He). pose proof (G' _ _ P2 He2 He). pose proof (G' _ _ P3 He3 He). pose proof (G' _ _ P4 He4 He). pose proof (G' _ _ P5 He5 He). pose proof (G' _ _ P6 He6 He).
    assert (C * e <= c0 * e) by nra. assert (c0 * e <= 0) by nra. rewrite (Rabs_left e) by auto. rewrite Rabs_left1; lra.
Qed.

Lemma code_ax_bounds : forall lv, spacing lv -> 0 <= code_ax lv <= 1 / (pdx lv * pdx lv) /\ 0 <= code_ay lv <= 1 / (pdy lv * pdy lv) /\ 0 <= code_az lv <= 1 / (pdz lv * pdz lv).
Proof.
  intros lv (H1 & H2 & H3).
  assert (G : forall a b, 0 < a <= b -> 0 <= 1 / (b * a) <= 1 / (a * a)).
  { intros a b Hab. assert (0 < b * a) by (apply Rmult_lt_0_compat; lra). split.
    - apply Rlt_le. unfold Rdiv. rewrite Rmult_1_l. apply Rinv_0_lt_compat. auto.
    - unfold Rdiv. rewrite !Rmult_1_l. apply Rinv_le_contravar; [apply Rmult_lt_0_compat; lra |].
      apply Rmult_le_compat_r; lra. }
  split; [| split]; apply G; lra.
Qed.
Lemma operator_minus : forall ax ay az o w z i j k, operator ax ay az o w i j k - operator ax ay az o z i j k = operator ax ay az o (fun a b c => w a b c - z a b c) i j k.
Proof. intros. unfold operator. ring. Qed.

Section Contraction.
  Variables (lv : level) (gh : Z -> Z -> Z -> ghost) (o : coefs) (rhs : arr3) (fl : sides) (c0 K : R).
  Hypotheses (Hd : disjoint lv) (Hn : nonneg_corners lv) (Hpl : plain lv) (Hsp : spacing lv) (Hgh : tame lv gh) (Hpos : positive_problem lv o c0 K).
  Let pass := color_pass lv gh o rhs fl.
  Let rho := K / (K + c0).

  Lemma fill_within : forall u v E, 0 <= E -> within lv u v E -> forall i j k, Rabs (fill lv gh u i j k - fill lv gh v i j k) <= E.
  Proof.
    intros u v E HE H i j k. destruct (in_level_spec lv i j k) as [Hc | Hc].
    - rewrite !fill_cell by auto. apply H; auto.
    - rewrite !fill_ghost by auto. destruct (Hgh i j k Hc) as [H1 H2].
      match goal with |- Rabs ?x <= _ => replace x with (factor (gh i j k) * (u (src0 (gh i j k)) (src1 (gh i j k)) (src2 (gh i j k)) - v (src0 (gh i j k)) (src1 (gh i j k)) (src2 (gh i j k)))) by ring end.
      rewrite Rabs_mult. destruct H2 as [-> | H2]; [rewrite Rabs_R0; lra |]. specialize (H _ _ _ H2).
      apply Rle_trans with (1 * E); [| lra]. apply Rmult_le_compat; auto; apply Rabs_pos.
  Qed.
  Lemma coupling_nonpos : forall i j k, cell lv i j k ->
    mob o i j k * ((xdc o (i + 1)%Z j k + xdc o i j k) / (pdx lv * pdx lv) + (ydc o i (j + 1)%Z k + ydc o i j k) / (pdy lv * pdy lv)
                 + (zdc o i j (k + 1)%Z + zdc o i j k) / (pdz lv * pdz lv)) <= 0.
  Proof.
    intros i j k Hc. destruct Hpos as [H0 H]. destruct (H i j k Hc) as (Hm & H1 & H2 & H3 & H4 & H5 & H6 & HC & _).
    destruct Hsp as (Hx & Hy & Hz). unfold Rdiv.
    assert (G : forall a b h, a <= 0 -> b <= 0 -> 0 < h -> (a + b) * / (h * h) <= 0).
    { intros a b h Ha Hb Hh. assert (0 < / (h * h)) by (apply Rinv_0_lt_compat; nra). nra. }
    pose proof (G _ _ (pdx lv) H2 H1 ltac:(lra)). pose proof (G _ _ (pdy lv) H4 H3 ltac:(lra)). pose proof (G _ _ (pdz lv) H6 H5 ltac:(lra)). nra.
  Qed.
  Lemma pos_nonsingular : nonsingular lv o.
  Proof.
    intros i j k Hc. pose proof (coupling_nonpos i j k Hc). destruct Hpos as [H0 HP]. destruct (HP i j k Hc) as (_ & _ & _ & _ & _ & _ & _ & HC & _).
    unfold nonsingular_at. lra.
  Qed.
  Lemma K_nonneg : forall i j k, cell lv i j k -> 0 <= K.
  Proof.
    intros i j k Hc. pose proof (coupling_nonpos i j k Hc). destruct Hpos as [H0 HP]. destruct (HP i j k Hc) as (_ & _ & _ & _ & _ & _ & _ & _ & HK). lra.
  Qed.

  Lemma resid_eq : forall u p i j k, inside p i j k -> resid lv gh o rhs fl u p i j k = rhs i j k - operator (code_ax lv) (code_ay lv) (code_az lv) o (fill lv gh u) i j k.
  Proof. intros u p i j k Hi. unfold resid. apply residual_operator; auto. Qed.

  Lemma pass_contracts : forall off u v E p i j k, 0 <= E -> within lv u v E -> In p (patches lv) -> relaxed p off i j k ->
    Rabs (fst (pass off u) i j k - fst (pass off v) i j k) <= rho * E.
  Proof.
    intros off u v E p i j k HE H Hp Hr. pose proof (relaxed_inside _ _ _ _ _ Hr) as Hi. assert (Hc : cell lv i j k) by (exists p; auto).
    unfold pass. rewrite (pass_relaxed lv gh o rhs fl off u p i j k), (pass_relaxed lv gh o rhs fl off v p i j k) by auto.
    rewrite !resid_eq by auto.
    match goal with |- Rabs ?x <= _ => replace x with ((u i j k - v i j k) +
      (operator (code_ax lv) (code_ay lv) (code_az lv) o (fill lv gh u) i j k - operator (code_ax lv) (code_ay lv) (code_az lv) o (fill lv gh v) i j k) * dudr (pdx lv) (pdy lv) (pdz lv) o i j k) by ring end.
    rewrite operator_minus. unfold operator.
    rewrite <- (fill_cell lv gh u i j k Hc), <- (fill_cell lv gh v i j k Hc).
    destruct Hpos as [H0 HP]. destruct (HP i j k Hc) as (Hm & H1 & H2 & H3 & H4 & H5 & H6 & HC & HK).
    destruct (code_ax_bounds lv Hsp) as (Bx & By & Bz). rewrite dudr_eq by exact Hsp.
    pose proof (fill_within u v E HE H) as G.
    pose proof (relax_bound (mob o i j k) (xdc o (i + 1)%Z j k) (xdc o i j k) (ydc o i (j + 1)%Z k) (ydc o i j k) (zdc o i j (k + 1)%Z) (zdc o i j k) (sfield o i j k)
      (code_ax lv) (code_ay lv) (code_az lv) (1 / (pdx lv * pdx lv)) (1 / (pdy lv * pdy lv)) (1 / (pdz lv * pdz lv))
      (fill lv gh u i j k - fill lv gh v i j k) (fill lv gh u (i + 1)%Z j k - fill lv gh v (i + 1)%Z j k)
      (fill lv gh u (i - 1)%Z j k - fill lv gh v (i - 1)%Z j k) (fill lv gh u i (j + 1)%Z k - fill lv gh v i (j + 1)%Z k)
      (fill lv gh u i (j - 1)%Z k - fill lv gh v i (j - 1)%Z k) (fill lv gh u i j (k + 1)%Z - fill lv gh v i j (k + 1)%Z)
      (fill lv gh u i j (k - 1)%Z - fill lv gh v i j (k - 1)%Z) E K c0 Hm H2 H1 H4 H3 H6 H5 H0 HC Bx By Bz
      (G _ _ _) (G _ _ _) (G _ _ _) (G _ _ _) (G _ _ _) (G _ _ _) (G _ _ _)) as Q.
    assert (EQ : forall a h : R, 0 < h -> 1 / (h * h) * a = a / (h * h)) by (intros a h Hh; field; lra).
    destruct Hsp as (Sx & Sy & Sz).
    rewrite !(EQ _ (pdx lv)), !(EQ _ (pdy lv)), !(EQ _ (pdz lv)) in Q by lra. exact (Q HK).
  Qed.
  Lemma rho_bounds : forall i j k, cell lv i j k -> 0 <= rho < 1.
  Proof.
    intros i j k Hc. pose proof (K_nonneg i j k Hc) as HK. destruct Hpos as [H0 _]. unfold rho. split.
    - apply Rmult_le_pos; auto. apply Rlt_le, Rinv_0_lt_compat. lra.
    - apply Rmult_lt_reg_r with (K + c0); [lra |]. unfold Rdiv. rewrite Rmult_assoc, Rinv_l by lra. lra.
  Qed.
  Lemma pass_nonexpansive : forall off u v E, 0 <= E -> within lv u v E -> within lv (fst (pass off u)) (fst (pass off v)) E.
  Proof.
    intros off u v E HE H i j k (p & Hp & Hi). assert (Hc : cell lv i j k) by (exists p; auto).
    destruct (relaxed_dec p off i j k) as [Hr | Hr].
    - eapply Rle_trans; [apply (pass_contracts off u v E p i j k); auto |]. pose proof (rho_bounds i j k Hc). nra.
    - unfold pass. rewrite (pass_kept lv gh o rhs fl off u p i j k), (pass_kept lv gh o rhs fl off v p i j k) by auto. apply H; auto.
  Qed.
  Lemma sweep_contracts : forall u v E, 0 <= E -> within lv u v E -> within lv (sweep lv gh o rhs fl u) (sweep lv gh o rhs fl v) (rho * E).
  Proof.
    intros u v E HE H i j k (p & Hp & Hi). assert (Hc : cell lv i j k) by (exists p; auto). pose proof (rho_bounds i j k Hc) as Hr.
    pose proof (pass_nonexpansive 0%Z u v E HE H) as H1. unfold sweep.
    destruct (colour_cases i j k) as [E0 | E0].
    - assert (~ relaxed p 1%Z i j k) by (intro R1; apply relaxed_iff in R1; auto; lia).
      rewrite (pass_kept lv gh o rhs fl 1%Z _ p i j k), (pass_kept lv gh o rhs fl 1%Z (fst (color_pass lv gh o rhs fl 0%Z v)) p i j k) by auto.
      apply (pass_contracts 0%Z u v E p i j k); auto. apply relaxed_iff; auto.
    - apply (pass_contracts 1%Z _ _ E p i j k); auto. apply relaxed_iff; auto.
  Qed.
  Fixpoint sweeps (n : nat) (u : arr3) : arr3 := match n with O => u | S n => sweeps n (sweep lv gh o rhs fl u) end.
  Lemma sweeps_S : forall n u, sweeps (S n) u = sweep lv gh o rhs fl (sweeps n u).
  Proof. induction n as [| n IH]; intro u; [reflexivity |]. change (sweeps (S (S n)) u) with (sweeps (S n) (sweep lv gh o rhs fl u)). rewrite IH. reflexivity. Qed.
  Lemma sweeps_contract : forall n u v E, 0 <= E -> within lv u v E -> within lv (sweeps n u) (sweeps n v) (rho ^ n * E).
  Proof.
    induction n as [| n IH]; intros u v E HE H.
    - intros i j k Hc. cbn [sweeps pow]. rewrite Rmult_1_l. apply H; auto.
    - intros i j k Hc. pose proof (rho_bounds i j k Hc). cbn [pow]. replace (rho * rho ^ n * E) with (rho ^ n * (rho * E)) by ring.
      cbn [sweeps]. apply IH; auto; [apply Rmult_le_pos; lra |]. apply sweep_contracts; auto.
  Qed.
  Lemma sweeps_smooth : forall n tol u, tol < 0 -> smoothErrorByRedBlack lv gh o rhs fl n tol u = sweeps n u.
  Proof.
    induction n as [| n IH]; intros tol u Ht; [reflexivity |]. cbn [smoothErrorByRedBlack sweeps].
    destruct (Rle_dec 0 tol); [lra |]. rewrite IH by auto. reflexivity.
  Qed.
  Lemma solves_resid : forall v, solves (code_ax lv) (code_ay lv) (code_az lv) lv gh o rhs v <->
    (forall p i j k, In p (patches lv) -> inside p i j k -> resid lv gh o rhs fl v p i j k = 0).
  Proof.
    intro v. split.
    - intros H p i j k Hp Hi. rewrite resid_eq by auto. rewrite (H (fill lv gh v) (fill_extends lv gh v) i j k) by (exists p; auto). ring.
    - intros H w Hw i j k (p & Hp & Hi). rewrite (extends_fill lv gh v w Hw). specialize (H p i j k Hp Hi). rewrite resid_eq in H by auto. lra.
  Qed.
  Lemma sweeps_solution : forall n v, solves (code_ax lv) (code_ay lv) (code_az lv) lv gh o rhs v -> sweeps n v = v.
  Proof.
    intros n v H0. pose proof (proj1 (solves_resid v) H0) as H. assert (E : sweep lv gh o rhs fl v = v).
    { unfold sweep. rewrite !(pass_zero_residual lv gh o rhs fl _ v Hd H). reflexivity. }
    induction n as [| n IH]; [reflexivity |]. cbn [sweeps]. rewrite E. exact IH.
  Qed.
  Lemma sweeps_error : forall n u v E, solves (code_ax lv) (code_ay lv) (code_az lv) lv gh o rhs v -> 0 <= E -> within lv u v E ->
    within lv (sweeps n u) v (rho ^ n * E).
  Proof. intros n u v E Hv HE H. pose proof (sweeps_contract n u v E HE H) as G. rewrite (sweeps_solution n v Hv) in G. exact G. Qed.
End Contraction.

(** * Finitely many cells *)
Definition cells_of (lv : level) : list (Z * Z * Z) :=
  flat_map (fun p => list_prod (list_prod (range (ilo p) (ihi p)) (range (jlo p) (jhi p))) (range (klo p) (khi p))) (patches lv).
Lemma in_cells_of : forall lv i j k, In (i, j, k) (cells_of lv) <-> cell lv i j k.
Proof.
  intros lv i j k. unfold cells_of, cell. rewrite in_flat_map. split; intros (p & Hp & H); exists p; split; auto.
  - apply in_prod_iff in H. destruct H as [H H3]. apply in_prod_iff in H. rewrite !in_range in *. unfold inside. tauto.
  - apply in_prod_iff. destruct H as (H1 & H2 & H3). split; [apply in_prod_iff |]; rewrite !in_range; auto.
Qed.
Definition at3 (f : Z -> Z -> Z -> R) (c : Z * Z * Z) : R := f (fst (fst c)) (snd (fst c)) (snd c).
Lemma level_bound : forall lv (f : Z -> Z -> Z -> R), exists M, 0 <= M /\ forall i j k, cell lv i j k -> f i j k <= M.
Proof.
  intros lv f.
  assert (G : forall l : list (Z * Z * Z), exists M, 0 <= M /\ forall c, In c l -> at3 f c <= M).
  { induction l as [| c l (M & H0 & H)]; [exists 0; split; [lra | contradiction] |].
    exists (Rmax M (at3 f c)). split; [eapply Rle_trans; [exact H0 | apply Rmax_l] |].
    intros d [<- | Hd]; [apply Rmax_r |]. eapply Rle_trans; [apply H; auto | apply Rmax_l]. }
  destruct (G (cells_of lv)) as (M & H0 & H). exists M. split; auto.
  intros i j k Hc. apply (H (i, j, k)). apply in_cells_of. auto.
Qed.
Lemma level_max : forall lv (f : Z -> Z -> Z -> R) a b c, cell lv a b c -> exists i0 j0 k0, cell lv i0 j0 k0 /\ forall i j k, cell lv i j k -> f i j k <= f i0 j0 k0.
Proof.
  intros lv f a b c Hab.
  assert (G : forall l : list (Z * Z * Z), l <> [] -> exists c, In c l /\ forall d, In d l -> at3 f d <= at3 f c).
  { clear. induction l as [| c l IH]; intro Hl; [contradiction |]. destruct l as [| c' l].
    - exists c. split; [left; auto |]. intros d [<- | []]. lra.
    - destruct IH as (m & Hm & H); [discriminate |]. destruct (Rle_dec (at3 f c) (at3 f m)) as [L | L].
      + exists m. split; [right; auto |]. intros d [<- | Hdd]; auto.
      + exists c. split; [left; auto |]. intros d [<- | Hdd]; [lra |]. specialize (H d Hdd). lra. }
  destruct (G (cells_of lv)) as (((i0, j0), k0) & Hc & H).
  - intro E. apply in_cells_of in Hab. rewrite E in Hab. contradiction.
  - exists i0, j0, k0. split; [apply in_cells_of; auto |]. intros i j k Hij. apply (H (i, j, k)). apply in_cells_of. auto.
Qed.

(** * The solution of the level *)
Lemma geometric_small : forall r E eps, 0 <= r < 1 -> 0 <= E -> 0 < eps -> exists N, forall n, (N <= n)%nat -> r ^ n * E < eps.
Proof.
  intros r E eps Hr HE He. assert (Hy : 0 < eps / (E + 1)) by (apply Rdiv_lt_0_compat; lra).
  destruct (pow_lt_1_zero r) with (y := eps / (E + 1)) as (N & H); [rewrite Rabs_pos_eq; lra | exact Hy |].
  exists N. intros n Hn. specialize (H n Hn). assert (0 <= r ^ n) by (apply pow_le; lra). rewrite Rabs_pos_eq in H by auto.
  assert (r ^ n * (E + 1) < eps). { apply Rmult_lt_compat_r with (r := E + 1) in H; [| lra]. replace (eps / (E + 1) * (E + 1)) with eps in H by (field; lra). lra. }
  lra.
Qed.

Section Existence.
  Variables (lv : level) (gh : Z -> Z -> Z -> ghost) (o : coefs) (rhs : arr3) (fl : sides) (c0 K : R).
  Hypotheses (Hd : disjoint lv) (Hn : nonneg_corners lv) (Hpl : plain lv) (Hsp : spacing lv) (Hgh : tame lv gh) (Hpos : positive_problem lv o c0 K).
  Let rho := K / (K + c0).
  Let U n := sweeps lv gh o rhs fl n (fun _ _ _ => 0).

  Lemma unique_solution : forall v v' : arr3, solves (code_ax lv) (code_ay lv) (code_az lv) lv gh o rhs v -> solves (code_ax lv) (code_ay lv) (code_az lv) lv gh o rhs v' -> within lv v v' 0.
  Proof.
    intros v v' H H' i j k Hc. pose proof (rho_bounds lv o c0 K Hsp Hpos i j k Hc) as Hr. fold rho in Hr.
    destruct (level_bound lv (fun a b c => Rabs (v a b c - v' a b c))) as (E & HE & HB).
    apply Rnot_lt_le. intro Hlt. destruct (geometric_small rho E _ Hr HE Hlt) as (N & HN).
    specialize (HN N (le_n N)).
    pose proof (sweeps_contract lv gh o rhs fl c0 K Hd Hn Hpl Hsp Hgh Hpos N v v' E HE HB i j k Hc) as G.
    rewrite (sweeps_solution lv gh o rhs fl Hd Hpl Hsp N v H), (sweeps_solution lv gh o rhs fl Hd Hpl Hsp N v' H') in G. unfold rho in HN. lra.
  Qed.

  Lemma U_step : exists E, 0 <= E /\ forall n, within lv (U (S n)) (U n) (rho ^ n * E).
  Proof.
    destruct (level_bound lv (fun a b c => Rabs (U 1%nat a b c - U 0%nat a b c))) as (E & HE & HB). exists E. split; auto.
    intros n. unfold U. change (sweeps lv gh o rhs fl (S n) (fun _ _ _ => 0)) with (sweeps lv gh o rhs fl n (U 1%nat)).
    apply (sweeps_contract lv gh o rhs fl c0 K); auto.
  Qed.
  Lemma U_tail : forall E, 0 <= E -> (forall n, within lv (U (S n)) (U n) (rho ^ n * E)) ->
    forall m n i j k, cell lv i j k -> Rabs (U (n + m)%nat i j k - U n i j k) <= rho ^ n * (E / (1 - rho)).
  Proof.
    intros E HE H m n i j k Hc. pose proof (rho_bounds lv o c0 K Hsp Hpos i j k Hc) as Hr. fold rho in Hr.
    assert (G : Rabs (U (n + m)%nat i j k - U n i j k) <= rho ^ n * (E / (1 - rho)) * (1 - rho ^ m)).
    { induction m as [| m IH].
      - rewrite Nat.add_0_r, Rminus_eq_0, Rabs_R0. cbn [pow]. lra.
      - rewrite Nat.add_succ_r. specialize (H (n + m)%nat i j k Hc).
        replace (U (S (n + m)) i j k - U n i j k) with ((U (S (n + m)) i j k - U (n + m)%nat i j k) + (U (n + m)%nat i j k - U n i j k)) by ring.
        eapply Rle_trans; [apply Rabs_triang |]. rewrite pow_add in H. cbn [pow].
        assert (EQ : rho ^ n * (E / (1 - rho)) * (1 - rho * rho ^ m) = rho ^ n * rho ^ m * E + rho ^ n * (E / (1 - rho)) * (1 - rho ^ m)) by (field; lra).
        rewrite EQ. lra. }
    eapply Rle_trans; [exact G |]. assert (0 <= rho ^ m) by (apply pow_le; lra). assert (0 <= rho ^ n) by (apply pow_le; lra).
    assert (0 <= E / (1 - rho)) by (apply Rmult_le_pos; auto; apply Rlt_le, Rinv_0_lt_compat; lra).
    assert (0 <= rho ^ n * (E / (1 - rho))) by (apply Rmult_le_pos; auto). nra.
  Qed.

  Lemma solution_exists : exists v, solves (code_ax lv) (code_ay lv) (code_az lv) lv gh o rhs v.
  Proof.
    destruct U_step as (E & HE & HS). pose proof (U_tail E HE HS) as HT.
    pose (L := fun i j k => real (Lim_seq (fun n => U n i j k))).
    assert (HL : forall i j k, cell lv i j k -> is_lim_seq (fun n => U n i j k) (L i j k)).
    { intros i j k Hc. apply Lim_seq_correct'. apply ex_lim_seq_cauchy_corr. intro eps.
      pose proof (rho_bounds lv o c0 K Hsp Hpos i j k Hc) as Hr. fold rho in Hr.
      assert (HE2 : 0 <= E / (1 - rho)) by (apply Rmult_le_pos; auto; apply Rlt_le, Rinv_0_lt_compat; lra).
      destruct (geometric_small rho (E / (1 - rho)) (eps / 2) Hr HE2) as (N & HN); [destruct eps; cbn; lra |].
      exists N. intros n m Hnn Hmm. specialize (HN N (le_n N)).
      pose proof (HT (n - N)%nat N i j k Hc) as H1. pose proof (HT (m - N)%nat N i j k Hc) as H2.
      replace (N + (n - N))%nat with n in H1 by lia. replace (N + (m - N))%nat with m in H2 by lia.
      apply Rabs_le_between in H1. apply Rabs_le_between in H2. apply Rabs_lt_between. lra. }
    assert (HB : forall n, within lv L (U n) (rho ^ n * (E / (1 - rho)))).
    { intros n i j k Hc. pose proof (HL i j k Hc) as Hl.
      assert (Hl2 : is_lim_seq (fun m => Rabs (U (n + m)%nat i j k - U n i j k)) (Rabs (L i j k - U n i j k))).
      { apply (is_lim_seq_abs _ (Finite (L i j k - U n i j k))). apply is_lim_seq_minus'; [| apply is_lim_seq_const].
        apply (is_lim_seq_ext (fun m => U (m + n)%nat i j k)); [intro m; replace (m + n)%nat with (n + m)%nat by lia; reflexivity |]. apply (is_lim_seq_incr_n (fun m => U m i j k)). exact Hl. }
      apply (is_lim_seq_le _ _ _ _ (fun m => HT m n i j k Hc) Hl2 (is_lim_seq_const _)). }
    exists L. apply (proj2 (solves_resid lv gh o rhs fl Hpl Hsp L)). intros p i j k Hp Hi.
    refine (sweep_fixed lv gh o rhs fl L Hd Hsp Hn (pos_nonsingular lv o c0 K Hsp Hpos) _ p i j k Hp Hi).
    intros a b c Hc. pose proof (rho_bounds lv o c0 K Hsp Hpos a b c Hc) as Hr. fold rho in Hr.
    assert (HE2 : 0 <= E / (1 - rho)) by (apply Rmult_le_pos; auto; apply Rlt_le, Rinv_0_lt_compat; lra).
    apply Rminus_diag_uniq. apply Rabs_eq_0. apply Rle_antisym; [| apply Rabs_pos]. apply Rnot_lt_le. intro Hlt.
    destruct (geometric_small rho (E / (1 - rho)) (Rabs (sweep lv gh o rhs fl L a b c - L a b c) / 2) Hr HE2) as (N & HN); [lra |].
    pose proof (HN N (le_n N)) as H1. pose proof (HN (S N) (le_S _ _ (le_n N))) as H2.
    assert (HP : 0 <= rho ^ N * (E / (1 - rho))) by (apply Rmult_le_pos; auto; apply pow_le; lra).
    pose proof (sweep_contracts lv gh o rhs fl c0 K Hd Hn Hpl Hsp Hgh Hpos L (U N) _ HP (HB N) a b c Hc) as H3. fold rho in H3.
    pose proof (HB (S N) a b c Hc) as H4. unfold U in H4. rewrite sweeps_S in H4. fold (U N) in H4.
    apply Rabs_le_between in H3. apply Rabs_le_between in H4. cbn [pow] in H2, H4.
    revert H1 H2. unfold Rabs. destruct (Rcase_abs _); intros; lra.
  Qed.
End Existence.

(** C83 *)
Lemma smoothing_converges : forall lv gh o rhs fl c0 K,
  disjoint lv -> nonneg_corners lv -> plain lv -> spacing lv -> tame lv gh -> positive_problem lv o c0 K ->
  exists v, solves (code_ax lv) (code_ay lv) (code_az lv) lv gh o rhs v /\
    (forall v', solves (code_ax lv) (code_ay lv) (code_az lv) lv gh o rhs v' -> within lv v v' 0) /\
    (forall n tol u E, tol < 0 -> 0 <= E -> within lv u v E -> within lv (smoothErrorByRedBlack lv gh o rhs fl n tol u) v ((K / (K + c0)) ^ n * E)) /\
    (forall u eps, 0 < eps -> exists N, forall n, (N <= n)%nat -> within lv (smoothErrorByRedBlack lv gh o rhs fl n (-1) u) v eps).
Proof.
  intros lv gh o rhs fl c0 K Hd Hn Hpl Hsp Hgh Hpos.
  destruct (solution_exists lv gh o rhs fl c0 K Hd Hn Hpl Hsp Hgh Hpos) as (v & Hv). exists v.
  assert (H3 : forall n tol u E, tol < 0 -> 0 <= E -> within lv u v E -> within lv (smoothErrorByRedBlack lv gh o rhs fl n tol u) v ((K / (K + c0)) ^ n * E)).
  { intros n tol u E Ht HE H. rewrite sweeps_smooth by auto. apply (sweeps_error lv gh o rhs fl c0 K); auto. }
  split; [exact Hv |]. split; [intros v' H'; apply (unique_solution lv gh o rhs fl c0 K Hd Hn Hpl Hsp Hgh Hpos v v' Hv H') |]. split; [exact H3 |].
  intros u eps He. destruct (level_bound lv (fun a b c => Rabs (u a b c - v a b c))) as (E & HE & HB).
  destruct (cells_of lv) as [| ((a, b), c) l] eqn:EC.
  - exists 0%nat. intros n _ i j k Hc. apply in_cells_of in Hc. rewrite EC in Hc. contradiction.
  - assert (Hab : cell lv a b c) by (apply in_cells_of; rewrite EC; left; auto).
    destruct (geometric_small (K / (K + c0)) E eps (rho_bounds lv o c0 K Hsp Hpos a b c Hab) HE He) as (N & HN).
    exists N. intros n Hnn i j k Hc. eapply Rle_trans; [apply (H3 n (-1) u E ltac:(lra) HE HB i j k Hc) |]. apply Rlt_le, HN, Hnn.
Qed.
Lemma smoothing_converges_coarsest : forall lv gh o rhs fl c0 K,
  disjoint lv -> nonneg_corners lv -> finer lv = false -> one_spacing lv ->
  tame lv gh -> positive_problem lv o c0 K ->
  exists v, solves (1 / (pdx lv * pdx lv)) (1 / (pdy lv * pdy lv)) (1 / (pdz lv * pdz lv)) lv gh o rhs v /\
    (forall v', solves (1 / (pdx lv * pdx lv)) (1 / (pdy lv * pdy lv)) (1 / (pdz lv * pdz lv)) lv gh o rhs v' -> within lv v v' 0) /\
    (forall n tol u E, tol < 0 -> 0 <= E -> within lv u v E -> within lv (smoothErrorByRedBlack lv gh o rhs fl n tol u) v ((K / (K + c0)) ^ n * E)) /\
    (forall u eps, 0 < eps -> exists N, forall n, (N <= n)%nat -> within lv (smoothErrorByRedBlack lv gh o rhs fl n (-1) u) v eps).
Proof.
  intros lv gh o rhs fl c0 K Hd Hn Hf Ho Hgh Hpos.
  assert (Hpl : plain lv) by (unfold plain; rewrite Hf; apply andb_false_r).
  pose proof (one_spacing_spacing lv Ho) as Hsp.
  pose proof (smoothing_converges lv gh o rhs fl c0 K Hd Hn Hpl Hsp Hgh Hpos) as H. unfold code_ax, code_ay, code_az in H.
  destruct Ho as (_ & _ & _ & E1 & E2 & E3). rewrite E1, E2, E3 in H. exact H.
Qed.

(** * Early end *)
Lemma early_end_error : forall lv gh o rhs fl c0 K p v u tol, patches lv = [p] ->
  disjoint lv -> nonneg_corners lv -> plain lv -> spacing lv -> tame lv gh -> positive_problem lv o c0 K ->
  solves (code_ax lv) (code_ay lv) (code_az lv) lv gh o rhs v ->
  snd (color_pass lv gh o rhs fl 0%Z u) <= tol ->
  snd (color_pass lv gh o rhs fl 1%Z (fst (color_pass lv gh o rhs fl 0%Z u))) <= tol ->
  within lv u v (tol / c0).
Proof.
  intros lv gh o rhs fl c0 K p v u tol Ep Hd Hn Hpl Hsp Hgh Hpos Hv Hr Hb i j k Hc.
  set (red := fst (color_pass lv gh o rhs fl 0%Z u)) in *.
  assert (Hp : In p (patches lv)) by (rewrite Ep; left; auto).
  assert (HR : forall off x, snd (color_pass lv gh o rhs fl off x) <= tol -> forall a b c, relaxed p off a b c -> Rabs (resid lv gh o rhs fl x p a b c) <= tol).
  { intros off x H a b c Hrel. unfold color_pass in H. rewrite Ep in H. cbn [fold_left snd] in H. apply rbgs_max in H. apply (proj2 H a b c Hrel). }
  destruct (level_max lv (fun a b c => Rabs (u a b c - v a b c)) i j k Hc) as (a & b & c & Hab & Hmax).
  set (E := Rabs (u a b c - v a b c)) in *. assert (HE : 0 <= E) by apply Rabs_pos.
  assert (Hu : within lv u v E) by (intros x y z Hxy; apply Hmax; auto).
  assert (Hi : inside p a b c). { destruct Hab as (q & Hq & Hi). rewrite Ep in Hq. destruct Hq as [<- | []]. exact Hi. }
  pose proof (proj1 (solves_resid lv gh o rhs fl Hpl Hsp v) Hv) as Hv0.
  assert (Hred : within lv red v E).
  { pose proof (pass_nonexpansive lv gh o rhs fl c0 K Hd Hpl Hsp Hgh Hpos 0%Z u v E HE Hu) as G.
    rewrite (pass_zero_residual lv gh o rhs fl 0%Z v Hd Hv0) in G. exact G. }
  destruct Hpos as [H0 HP]. destruct (HP a b c Hab) as (Hm & D1 & D2 & D3 & D4 & D5 & D6 & HC & _).
  destruct (code_ax_bounds lv Hsp) as (Bx & By & Bz).
  assert (G : forall x, within lv x v E -> x a b c = u a b c -> Rabs (resid lv gh o rhs fl x p a b c) <= tol -> c0 * E <= tol).
  { intros x Hx Exu Hres. rewrite (resid_eq lv gh o rhs fl Hpl Hsp x p a b c Hi) in Hres.
    pose proof (Hv (fill lv gh v) (fill_extends lv gh v) a b c Hab) as Ev. rewrite <- Ev in Hres.
    rewrite operator_minus in Hres. rewrite <- Rabs_Ropp in Hres.
    pose proof (fill_within lv gh Hgh x v E HE Hx) as F.
    assert (F' : forall x1 x2 x3, Rabs (fill lv gh v x1 x2 x3 - fill lv gh x x1 x2 x3) <= Rabs (fill lv gh v a b c - fill lv gh x a b c)).
    { intros x1 x2 x3. rewrite (fill_cell lv gh v a b c Hab), (fill_cell lv gh x a b c Hab), Exu, (Rabs_minus_sym (v a b c)), (Rabs_minus_sym (fill lv gh v x1 x2 x3)). apply F. }
    pose proof (residual_bound (mob o a b c) (xdc o (a + 1)%Z b c) (xdc o a b c) (ydc o a (b + 1)%Z c) (ydc o a b c) (zdc o a b (c + 1)%Z) (zdc o a b c) (sfield o a b c)
      (code_ax lv) (code_ay lv) (code_az lv) (fill lv gh v a b c - fill lv gh x a b c) (fill lv gh v (a + 1)%Z b c - fill lv gh x (a + 1)%Z b c)
      (fill lv gh v (a - 1)%Z b c - fill lv gh x (a - 1)%Z b c) (fill lv gh v a (b + 1)%Z c - fill lv gh x a (b + 1)%Z c)
      (fill lv gh v a (b - 1)%Z c - fill lv gh x a (b - 1)%Z c) (fill lv gh v a b (c + 1)%Z - fill lv gh x a b (c + 1)%Z)
      (fill lv gh v a b (c - 1)%Z - fill lv gh x a b (c - 1)%Z) c0 Hm D2 D1 D4 D3 D6 D5 HC (proj1 Bx) (proj1 By) (proj1 Bz) ltac:(lra) (F' _ _ _) (F' _ _ _) (F' _ _ _) (F' _ _ _) (F' _ _ _) (F' _ _ _)) as Q.
    rewrite (fill_cell lv gh v a b c Hab), (fill_cell lv gh x a b c Hab), Exu, (Rabs_minus_sym (v a b c)) in Q at 1. fold E in Q.
    eapply Rle_trans; [exact Q |]. rewrite Rabs_Ropp in Hres.
    unfold operator in Hres. exact Hres. }
  assert (Hfin : c0 * E <= tol).
  { destruct (colour_cases a b c) as [Ec | Ec].
    - apply (G u Hu eq_refl). apply (HR 0%Z u Hr). apply relaxed_iff; auto.
    - assert (Hnr : ~ relaxed p 0%Z a b c) by (intro R0; apply relaxed_iff in R0; auto; lia).
      apply (G red Hred); [unfold red; apply (pass_kept lv gh o rhs fl 0%Z u p a b c); auto |].
      apply (HR 1%Z red Hb). apply relaxed_iff; auto. }
  eapply Rle_trans; [apply Hu; auto |]. apply Rmult_le_reg_l with c0; [lra |]. replace (c0 * (tol / c0)) with tol by (field; lra). exact Hfin.
Qed.

(** C84 *)
Lemma early_end : forall lv gh o rhs fl c0 K p v, patches lv = [p] ->
  nonneg_corners lv -> plain lv -> spacing lv -> tame lv gh -> positive_problem lv o c0 K ->
  solves (code_ax lv) (code_ay lv) (code_az lv) lv gh o rhs v ->
  forall n tol u E, 0 <= tol -> 0 <= E -> within lv u v E ->
  within lv (smoothErrorByRedBlack lv gh o rhs fl n tol u) v (tol / c0) \/
  within lv (smoothErrorByRedBlack lv gh o rhs fl n tol u) v ((K / (K + c0)) ^ n * E).
Proof.
  intros lv gh o rhs fl c0 K p v Ep Hn Hpl Hsp Hgh Hpos Hv.
  assert (Hd : disjoint lv) by (unfold disjoint; rewrite Ep; repeat constructor).
  induction n as [| n IH]; intros tol u E Ht HE H.
  - right. cbn [smoothErrorByRedBlack pow]. intros i j k Hc. rewrite Rmult_1_l. apply H; auto.
  - cbn [smoothErrorByRedBlack].
    set (red := color_pass lv gh o rhs fl 0%Z u). set (blk := color_pass lv gh o rhs fl 1%Z (fst red)).
    destruct (Rle_dec 0 tol); [| contradiction].
    destruct (cells_of lv) as [| ((a, b), c) l] eqn:EC.
    { left. intros i j k Hc. apply in_cells_of in Hc. rewrite EC in Hc. contradiction. }
    assert (Hab : cell lv a b c) by (apply in_cells_of; rewrite EC; left; auto).
    pose proof (rho_bounds lv o c0 K Hsp Hpos a b c Hab) as Hr.
    destruct (Rlt_dec tol (Rmax (snd red) (snd blk))) as [L | L].
    + destruct (IH tol (fst blk) (K / (K + c0) * E) Ht) as [G | G].
      * apply Rmult_le_pos; lra.
      * pose proof (sweeps_error lv gh o rhs fl c0 K Hd Hn Hpl Hsp Hgh Hpos 1%nat u v E Hv HE H) as G. cbn [pow] in G. rewrite Rmult_1_r in G. exact G.
      * left. exact G.
      * right. cbn [pow]. intros i j k Hc. specialize (G i j k Hc). lra.
    + left. apply Rnot_lt_le in L. pose proof (Rmax_l (snd red) (snd blk)). pose proof (Rmax_r (snd red) (snd blk)).
      assert (G : within lv u v (tol / c0)) by (exact (early_end_error lv gh o rhs fl c0 K p v u tol Ep Hd Hn Hpl Hsp Hgh Hpos Hv (Rle_trans _ _ _ H0 L) (Rle_trans _ _ _ H1 L))).
      assert (Hq : 0 <= tol / c0) by (destruct Hpos as [H0' _]; apply Rmult_le_pos; auto; apply Rlt_le, Rinv_0_lt_compat; lra).
      pose proof (sweeps_error lv gh o rhs fl c0 K Hd Hn Hpl Hsp Hgh Hpos 1%nat u v _ Hv Hq G) as G2. cbn [pow] in G2. rewrite Rmult_1_r in G2.
      intros i j k Hc. specialize (G2 i j k Hc). cbn [sweeps] in G2. unfold sweep in G2. fold red in G2. fold blk in G2. nra.
Qed.

(** * Every cell once, and the colours *)
Lemma sweep_covers : forall lv p o w fl rhs i j k, In p (patches lv) -> (0 <= ilo p + jlo p + klo p)%Z -> inside p i j k ->
  plain lv -> one_spacing lv -> nonsingular_at lv o i j k ->
  exists c, (c = 0 \/ c = 1)%Z /\ (c = (i + j + k) mod 2)%Z /\
    level_operator lv o (upd3 w i j k (fst (rbgs p (pdx lv) (pdy lv) (pdz lv) o (flux_on_patch lv p o o w fl) rhs c w) i j k)) i j k = rhs i j k /\
    fst (rbgs p (pdx lv) (pdy lv) (pdz lv) o (flux_on_patch lv p o o w fl) rhs (1 - c)%Z w) i j k = w i j k.
Proof.
  intros lv p o w fl rhs i j k _ Hp Hi Hpl Ho Hns. exists (colour i j k). pose proof (colour_cases i j k) as Hc.
  split; [exact Hc |]. split; [reflexivity |]. pose proof (one_spacing_spacing lv Ho) as Hsp. split.
  - rewrite rbgs_relaxed by (apply relaxed_iff; auto). rewrite residual_operator by auto. rewrite operator_level by auto.
    rewrite dudr_eq by auto. set (v := w i j k + _). unfold level_operator, operator. rewrite !upd3_same. rewrite !upd3_other by lia.
    unfold v, level_operator, operator. unfold nonsingular_at in Hns. revert Hns. set (g := mob o i j k * _ - sfield o i j k). intro Hns.
    assert (Eg : sfield o i j k = mob o i j k * ((xdc o (i + 1)%Z j k + xdc o i j k) / (pdx lv * pdx lv) + (ydc o i (j + 1)%Z k + ydc o i j k) / (pdy lv * pdy lv)
                 + (zdc o i j (k + 1)%Z + zdc o i j k) / (pdz lv * pdz lv)) - g) by (unfold g; ring).
    rewrite Eg. destruct Hsp as (Sx & Sy & Sz). field. repeat split; auto; lra.
  - apply rbgs_kept. intro R1. apply relaxed_iff in R1; auto; destruct Hc as [Hc | Hc]; rewrite Hc in *; lia.
Qed.

Lemma pass_solves_colour : forall lv gh o rhs fl off u, (off = 0 \/ off = 1)%Z ->
  disjoint lv -> nonneg_corners lv -> plain lv -> one_spacing lv -> checkerboard lv gh -> nonsingular lv o ->
  let u' := fst (color_pass lv gh o rhs fl off u) in
  (forall w, extends lv gh u' w -> forall i j k, cell lv i j k -> ((i + j + k) mod 2 = off)%Z -> level_operator lv o w i j k = rhs i j k) /\
  (forall i j k, cell lv i j k -> ((i + j + k) mod 2 <> off)%Z -> u' i j k = u i j k).
Proof.
  intros lv gh o rhs fl off u Hoff Hd Hn Hpl Ho Hcb Hns u'.
  assert (HK : forall i j k, cell lv i j k -> ((i + j + k) mod 2 <> off)%Z -> u' i j k = u i j k).
  { intros i j k (p & Hp & Hi) Hc. apply (pass_kept lv gh o rhs fl off u p i j k); auto.
    intro R. apply relaxed_iff in R; auto. }
  split; [| exact HK]. intros w Hw i j k Hcell Hc. rewrite (extends_fill _ _ _ _ Hw). clear w Hw.
  pose proof (one_spacing_spacing lv Ho) as Hsp.
  assert (Nb : forall a b c, ((a + b + c) mod 2 <> off)%Z -> fill lv gh u' a b c = fill lv gh u a b c).
  { intros a b c Hab. destruct (in_level_spec lv a b c) as [H | H].
    - rewrite !fill_cell by auto. apply HK; auto.
    - rewrite !fill_ghost by auto. destruct (Hcb a b c H) as [-> | [Hs He]]; [ring |]. rewrite HK; auto.
      intro E. apply Hab. rewrite <- E. rewrite !Zmod_even, He. reflexivity. }
  assert (Par : forall m, ((i + j + k) mod 2 = off -> (m = i + j + k + 1 \/ m = i + j + k - 1) -> m mod 2 <> off)%Z).
  { intros m E Hm. pose proof (Z.div_mod (i + j + k) 2 ltac:(lia)). pose proof (Z.div_mod m 2 ltac:(lia)). lia. }
  assert (P1 := Nb (i + 1)%Z j k (Par (i + 1 + j + k)%Z Hc ltac:(lia))). assert (P2 := Nb (i - 1)%Z j k (Par (i - 1 + j + k)%Z Hc ltac:(lia))).
  assert (P3 := Nb i (j + 1)%Z k (Par (i + (j + 1) + k)%Z Hc ltac:(lia))). assert (P4 := Nb i (j - 1)%Z k (Par (i + (j - 1) + k)%Z Hc ltac:(lia))).
  assert (P5 := Nb i j (k + 1)%Z (Par (i + j + (k + 1))%Z Hc ltac:(lia))). assert (P6 := Nb i j (k - 1)%Z (Par (i + j + (k - 1))%Z Hc ltac:(lia))).
  pose proof Hcell as (p & Hp & Hi).
  assert (P0 : fill lv gh u' i j k = fill lv gh u i j k - (rhs i j k - level_operator lv o (fill lv gh u) i j k) *
     (1 / (mob o i j k * ((xdc o (i + 1)%Z j k + xdc o i j k) / (pdx lv * pdx lv) + (ydc o i (j + 1)%Z k + ydc o i j k) / (pdy lv * pdy lv)
                 + (zdc o i j (k + 1)%Z + zdc o i j k) / (pdz lv * pdz lv)) - sfield o i j k))).
  { rewrite !fill_cell by auto. unfold u'. rewrite (pass_relaxed lv gh o rhs fl off u p i j k) by (auto; apply relaxed_iff; auto).
    unfold resid. rewrite residual_operator, operator_level, dudr_eq by auto. reflexivity. }
  specialize (Hns i j k Hcell). unfold nonsingular_at in Hns.
  unfold level_operator, operator in *. rewrite P1, P2, P3, P4, P5, P6, P0. clear P0 P1 P2 P3 P4 P5 P6.
  revert Hns. set (g := mob o i j k * ((xdc o (i + 1)%Z j k + xdc o i j k) / _ + _ + _) - sfield o i j k). intro Hns.
  assert (Eg : sfield o i j k = mob o i j k * ((xdc o (i + 1)%Z j k + xdc o i j k) / (pdx lv * pdx lv) + (ydc o i (j + 1)%Z k + ydc o i j k) / (pdy lv * pdy lv)
                 + (zdc o i j (k + 1)%Z + zdc o i j k) / (pdz lv * pdz lv)) - g) by (unfold g; ring).
  rewrite Eg. destruct Hsp as (Sx & Sy & Sz). field. repeat split; auto; lra.
Qed.

Lemma odd_quot : forall s, (s < 0)%Z -> (s mod 2 = 1)%Z -> (s - Z.quot s 2 * 2 = -1)%Z.
Proof.
  intros s H1 H2. pose proof (Z.div_mod s 2 ltac:(lia)) as E. rewrite H2 in E.
  replace s with (- (- s))%Z at 2 by lia. rewrite Z.quot_opp_l by lia. rewrite Z.quot_div_nonneg by lia.
  replace (- s)%Z with (1 + (- (s / 2) - 1) * 2)%Z by lia. rewrite Z.div_add by lia. change (1 / 2)%Z with 0%Z. lia.
Qed.
Lemma negative_rows : forall p, (ilo p + jlo p + klo p < 0)%Z -> (ilo p <= ihi p)%Z -> (jlo p < jhi p)%Z -> (klo p <= khi p)%Z ->
  exists i j k, inside p i j k /\ forall dx dy dz o fl rhs w off, (off = 0 \/ off = 1)%Z -> fst (rbgs p dx dy dz o fl rhs off w) i j k = w i j k.
Proof.
  intros p H1 H2 H3 H4.
  assert (G : forall j, (jlo p <= j <= jhi p)%Z -> (ilo p + j + klo p < 0)%Z -> ((ilo p + j + klo p) mod 2 = 1)%Z ->
    exists i j k, inside p i j k /\ forall dx dy dz o fl rhs w off, (off = 0 \/ off = 1)%Z -> fst (rbgs p dx dy dz o fl rhs off w) i j k = w i j k).
  { intros j Hj Hneg Hodd. exists (ilo p), j, (klo p). split; [unfold inside; lia |].
    intros dx dy dz o fl rhs w off Hoff. apply rbgs_kept. intros [[Hv _] _]. unfold rbgs_row_start in Hv.
    rewrite (odd_quot _ Hneg Hodd) in Hv. destruct (Z.eqb_spec (-1) off); lia. }
  pose proof (Z.div_mod (ilo p + jlo p + klo p) 2 ltac:(lia)) as E. pose proof (Z.mod_pos_bound (ilo p + jlo p + klo p) 2 ltac:(lia)) as B.
  destruct (Z.eq_dec ((ilo p + jlo p + klo p) mod 2) 1) as [M | M]; [apply (G (jlo p)); lia |].
  apply (G (jlo p + 1)%Z); try lia. replace (ilo p + (jlo p + 1) + klo p)%Z with (1 + (ilo p + jlo p + klo p) / 2 * 2)%Z by lia.
  rewrite Z.mod_add by lia. reflexivity.
Qed.

(** * Two patches *)
Lemma pass_snd_last : forall lv gh o rhs fl off u q l, patches lv = l ++ [q] ->
  snd (color_pass lv gh o rhs fl off u) = snd (rbgs q (pdx lv) (pdy lv) (pdz lv) o (flux_on_patch lv q o o (fill lv gh u) fl) rhs off (fill lv gh u)).
Proof. intros lv gh o rhs fl off u q l E. unfold color_pass. rewrite E, fold_left_app. reflexivity. Qed.

Definition ex_a : patch := mk_patch 0 1 0 0 0 0 [].
Definition ex_b : patch := mk_patch 4 4 0 0 0 0 [].
Definition ex_level : level := mk_level [ex_a; ex_b] 1 1 1 1 1 1 1 1 1 false true.
Definition ex_gh : Z -> Z -> Z -> ghost := fun _ _ _ => mk_ghost 0 0 0 0 0.
Definition ex_coefs : coefs := mk_coefs (fun _ _ _ => -1) (fun _ _ _ => -1) (fun _ _ _ => -1) (fun _ _ _ => 1) (fun _ _ _ => 1).
Definition ex_rhs : arr3 := upd3 (fun _ _ _ => 0) 0%Z 0%Z 0%Z 100.
Definition ex_solution : arr3 := upd3 (upd3 (fun _ _ _ => 0) 0%Z 0%Z 0%Z (175 / 12)) 1%Z 0%Z 0%Z (25 / 12).
Lemma ex_cells : forall i j k, cell ex_level i j k <-> (i = 0 \/ i = 1 \/ i = 4)%Z /\ j = 0%Z /\ k = 0%Z.
Proof.
  intros i j k. split.
  - intros (p & [<- | [<- | []]] & (H1 & H2 & H3)); cbn in H1, H2, H3; lia.
  - intros [[-> | [-> | ->]] [-> ->]]; [exists ex_a | exists ex_a | exists ex_b]; (split; [cbn; auto | unfold inside; cbn; lia]).
Qed.
Lemma ex_disjoint : disjoint ex_level.
Proof.
  unfold disjoint. cbn [ex_level patches]. repeat constructor. intros i j k (H1 & H2 & H3) (H4 & H5 & H6). cbn in *. lia.
Qed.
Lemma ex_positive : positive_problem ex_level ex_coefs 1 6.
Proof. split; [lra |]. intros i j k _. cbn. lra. Qed.
Lemma ex_fill : forall u i j k, fill ex_level ex_gh u i j k = if in_level ex_level i j k then u i j k else 0.
Proof. intros u i j k. unfold fill. destruct (in_level ex_level i j k); auto. unfold ex_gh. cbn [factor offset_value]. ring. Qed.
Ltac ex_fills := rewrite !ex_fill; repeat match goal with |- context [in_level ex_level ?a ?b ?c] =>
  let v := eval vm_compute in (in_level ex_level a b c) in change (in_level ex_level a b c) with v end; cbv iota.
Ltac zeq_red := repeat match goal with |- context [Z.eqb ?a ?b] => let v := eval vm_compute in (Z.eqb a b) in change (Z.eqb a b) with v end; cbn [andb]; cbv iota.
Lemma ex_one : one_spacing ex_level.
Proof. unfold one_spacing. cbn. lra. Qed.
Lemma ex_resid : forall u p i j k fl, inside p i j k -> resid ex_level ex_gh ex_coefs ex_rhs fl u p i j k =
  ex_rhs i j k - (7 * fill ex_level ex_gh u i j k - fill ex_level ex_gh u (i + 1)%Z j k - fill ex_level ex_gh u (i - 1)%Z j k
     - fill ex_level ex_gh u i (j + 1)%Z k - fill ex_level ex_gh u i (j - 1)%Z k - fill ex_level ex_gh u i j (k + 1)%Z - fill ex_level ex_gh u i j (k - 1)%Z).
Proof.
  intros u p i j k fl Hi. unfold resid. rewrite residual_operator by (auto; try reflexivity; apply one_spacing_spacing; apply ex_one).
  unfold operator, code_ax, code_ay, code_az. cbn [ex_level ex_coefs gdx gdy gdz pdx pdy pdz mob xdc ydc zdc sfield]. field.
Qed.
Lemma early_end_two_patches : exists lv gh o rhs v tol c0 K u,
  disjoint lv /\ nonneg_corners lv /\ finer lv = false /\ one_spacing lv /\
  tame lv gh /\ positive_problem lv o c0 K /\ solves (1 / (pdx lv * pdx lv)) (1 / (pdy lv * pdy lv)) (1 / (pdz lv * pdz lv)) lv gh o rhs v /\ 0 <= tol /\
  forall fl n, (1 <= n)%nat -> exists i j k, cell lv i j k /\ tol / c0 < Rabs (smoothErrorByRedBlack lv gh o rhs fl n tol u i j k - v i j k) /\
    smoothErrorByRedBlack lv gh o rhs fl n tol u = smoothErrorByRedBlack lv gh o rhs fl 1 tol u.
Proof.
  exists ex_level, ex_gh, ex_coefs, ex_rhs, ex_solution, (1 / 100), 1, 6, (fun _ _ _ => 0).
  assert (Hn : nonneg_corners ex_level) by (intros p [<- | [<- | []]]; cbn; lia).
  split; [apply ex_disjoint |]. split; [exact Hn |]. split; [reflexivity |]. split; [apply ex_one |].
  split; [intros i j k _; cbn; rewrite Rabs_R0; split; [lra | left; reflexivity] |]. split; [apply ex_positive |]. split.
  { intros w Hw i j k Hc. rewrite (extends_fill _ _ _ _ Hw). unfold operator. cbn [ex_level pdx pdy pdz ex_coefs mob xdc ydc zdc sfield].
    apply ex_cells in Hc. destruct Hc as [[-> | [-> | ->]] [-> ->]]; ex_fills; unfold ex_rhs, ex_solution, upd3; zeq_red; field. }
  split; [lra |]. intros fl n Hnn.
  set (u0 := fun _ _ _ : Z => 0).
  set (red := color_pass ex_level ex_gh ex_coefs ex_rhs fl 0%Z u0).
  set (blk := color_pass ex_level ex_gh ex_coefs ex_rhs fl 1%Z (fst red)).
  assert (Hib : forall i j k, inside ex_b i j k -> i = 4%Z /\ j = 0%Z /\ k = 0%Z) by (intros i j k (H1 & H2 & H3); cbn in H1, H2, H3; lia).
  assert (Hr : snd red <= 1 / 100).
  { unfold red. rewrite (pass_snd_last _ _ _ _ _ _ _ ex_b [ex_a]) by reflexivity. apply rbgs_max. split; [lra |].
    intros a b c Hr. pose proof (relaxed_inside _ _ _ _ _ Hr) as Hi. fold (resid ex_level ex_gh ex_coefs ex_rhs fl u0 ex_b a b c).
    rewrite ex_resid by auto. destruct (Hib a b c Hi) as (-> & -> & ->). ex_fills. unfold ex_rhs, upd3, u0. zeq_red.
    match goal with |- Rabs ?x <= _ => replace x with 0 by ring end. rewrite Rabs_R0. lra. }
  assert (H40 : fst red 4%Z 0%Z 0%Z = 0).
  { unfold red. destruct (relaxed_dec ex_b 0%Z 4%Z 0%Z 0%Z) as [R | R].
    - rewrite (pass_relaxed _ _ _ _ _ 0%Z u0 ex_b 4%Z 0%Z 0%Z ex_disjoint) by (cbn; auto).
      rewrite ex_resid by (unfold inside; cbn; lia). ex_fills. unfold ex_rhs, upd3, u0. zeq_red. ring.
    - apply (pass_kept _ _ _ _ _ 0%Z u0 ex_b); [apply ex_disjoint | cbn; auto | unfold inside; cbn; lia | exact R]. }
  assert (Hb : snd blk <= 1 / 100).
  { unfold blk. rewrite (pass_snd_last _ _ _ _ _ _ _ ex_b [ex_a]) by reflexivity. apply rbgs_max. split; [lra |].
    intros a b c Hrb. pose proof (relaxed_inside _ _ _ _ _ Hrb) as Hi. fold (resid ex_level ex_gh ex_coefs ex_rhs fl (fst red) ex_b a b c).
    rewrite ex_resid by auto. destruct (Hib a b c Hi) as (-> & -> & ->). ex_fills. rewrite H40. unfold ex_rhs, upd3. zeq_red.
    match goal with |- Rabs ?x <= _ => replace x with 0 by ring end. rewrite Rabs_R0. lra. }
  assert (Hstop : forall m, smoothErrorByRedBlack ex_level ex_gh ex_coefs ex_rhs fl (S m) (1 / 100) u0 = fst blk).
  { intro m. cbn [smoothErrorByRedBlack]. fold red. fold blk. destruct (Rle_dec 0 (1 / 100)) as [_ | HH]; [| lra].
    destruct (Rlt_dec (1 / 100) (Rmax (snd red) (snd blk))) as [L |]; [| reflexivity].
    exfalso. apply (Rlt_irrefl (1 / 100)). eapply Rlt_le_trans; [exact L |]. apply Rmax_lub; auto. }
  destruct n as [| n]; [lia |]. rewrite !Hstop. exists 0%Z, 0%Z, 0%Z. split; [apply ex_cells; auto |]. split; [| reflexivity].
  assert (E : fst blk 0%Z 0%Z 0%Z = 100 / 7).
  { unfold blk. rewrite (pass_kept _ _ _ _ _ 1%Z _ ex_a).
    - unfold red. rewrite (pass_relaxed _ _ _ _ _ 0%Z u0 ex_a 0%Z 0%Z 0%Z ex_disjoint).
      + rewrite ex_resid by (unfold inside; cbn; lia). ex_fills. unfold dudr, ex_coefs, ex_rhs, upd3, u0. zeq_red. cbn [ex_level pdx pdy pdz mob xdc ydc zdc sfield]. field.
      + cbn; auto.
      + apply relaxed_iff; [cbn; lia | unfold inside; cbn; lia | lia | reflexivity].
    - apply ex_disjoint.
    - cbn; auto.
    - unfold inside; cbn; lia.
    - intro R. apply relaxed_iff in R; [cbn in R; discriminate | cbn; lia | unfold inside; cbn; lia | lia]. }
  rewrite E. unfold ex_solution, upd3. zeq_red.
  rewrite Rabs_left1; lra.
Qed.

(** * Consistency *)
Lemma operator_ext : forall ax ay az o w w' i j k, w i j k = w' i j k -> w (i + 1)%Z j k = w' (i + 1)%Z j k -> w (i - 1)%Z j k = w' (i - 1)%Z j k ->
  w i (j + 1)%Z k = w' i (j + 1)%Z k -> w i (j - 1)%Z k = w' i (j - 1)%Z k -> w i j (k + 1)%Z = w' i j (k + 1)%Z -> w i j (k - 1)%Z = w' i j (k - 1)%Z ->
  operator ax ay az o w i j k = operator ax ay az o w' i j k.
Proof. intros ax ay az o w w' i j k H1 H2 H3 H4 H5 H6 H7. unfold operator. rewrite H1, H2, H3, H4, H5, H6, H7. reflexivity. Qed.
Lemma residual_quadratic : forall lv gh o rhs fl res q d0 d1 d2 d3 i j k,
  disjoint lv -> plain lv -> spacing lv -> cell lv i j k -> quadratic_problem lv gh o q d0 d1 d2 d3 ->
  level_residual lv gh o rhs fl (quad_cells q (pdx lv) (pdy lv) (pdz lv)) res i j k =
  rhs i j k - continuum (mob o i j k) d0 d1 d2 d3 (sfield o i j k) (pdx lv / gdx lv) (pdy lv / gdy lv) (pdz lv / gdz lv) q (centre i (pdx lv)) (centre j (pdy lv)) (centre k (pdz lv)).
Proof.
  intros lv gh o rhs fl res q d0 d1 d2 d3 i j k Hd Hpl Hsp Hc (Hgh & Ex & Ey & Ez). destruct Hc as (p & Hp & Hi).
  rewrite (residual_val lv gh o rhs fl _ p) by auto. unfold resid. rewrite residual_operator by auto.
  assert (W : forall a b c, fill lv gh (quad_cells q (pdx lv) (pdy lv) (pdz lv)) a b c = quad_cells q (pdx lv) (pdy lv) (pdz lv) a b c).
  { intros a b c. destruct (in_level_spec lv a b c) as [Hc | Hc]; [apply fill_cell; auto |]. rewrite fill_ghost by auto.
    destruct (Hgh a b c Hc) as [-> ->]. ring. }
  rewrite (operator_ext _ _ _ _ _ (quad_cells q (pdx lv) (pdy lv) (pdz lv))) by apply W.
  unfold operator, code_ax, code_ay, code_az, continuum. rewrite Ex, Ey, Ez. unfold linear_x, linear_y, linear_z, quad_cells, quad_at, centre.
  rewrite !plus_IZR, !minus_IZR. destruct Hsp as (Sx & Sy & Sz). field. lra.
Qed.
Lemma consistent : forall lv gh o rhs fl res q d0 d1 d2 d3 i j k,
  disjoint lv -> plain lv -> one_spacing lv -> cell lv i j k -> quadratic_problem lv gh o q d0 d1 d2 d3 ->
  level_residual lv gh o rhs fl (quad_cells q (pdx lv) (pdy lv) (pdz lv)) res i j k =
  rhs i j k - continuum (mob o i j k) d0 d1 d2 d3 (sfield o i j k) 1 1 1 q (centre i (pdx lv)) (centre j (pdy lv)) (centre k (pdz lv)).
Proof.
  intros lv gh o rhs fl res q d0 d1 d2 d3 i j k Hd Hpl Ho Hc Hq.
  rewrite (residual_quadratic lv gh o rhs fl res q d0 d1 d2 d3) by (auto; apply one_spacing_spacing; auto).
  destruct Ho as (Hx & Hy & Hz & Ex & Ey & Ez). rewrite Ex, Ey, Ez. f_equal. f_equal; field; lra.
Qed.
Lemma inconsistent_refined : forall lv r, disjoint lv -> plain lv -> 0 < pdx lv -> 0 < pdy lv -> 0 < pdz lv -> 1 < r ->
  gdx lv = r * pdx lv -> gdy lv = r * pdy lv -> gdz lv = r * pdz lv ->
  exists gh o q, quadratic_problem lv gh o q 1 0 0 0 /\
    (forall fl res i j k, cell lv i j k ->
       level_residual lv gh o (fun i j k => continuum 1 1 0 0 0 0 1 1 1 q (centre i (pdx lv)) (centre j (pdy lv)) (centre k (pdz lv))) fl
         (quad_cells q (pdx lv) (pdy lv) (pdz lv)) res i j k <> 0) /\
    (forall i j k, mob o i j k = 1 /\ sfield o i j k = 0).
Proof.
  intros lv r Hd Hpl Hx Hy Hz Hr Ex Ey Ez. set (q := mk_quadratic 1 0 0 0 0 0 0 0 0 0).
  exists (fun a b c => mk_ghost 0 0 0 0 (quad_cells q (pdx lv) (pdy lv) (pdz lv) a b c)),
    (mk_coefs (linear_x 1 0 0 0 (pdx lv) (pdy lv) (pdz lv)) (linear_y 1 0 0 0 (pdx lv) (pdy lv) (pdz lv)) (linear_z 1 0 0 0 (pdx lv) (pdy lv) (pdz lv)) (fun _ _ _ => 0) (fun _ _ _ => 1)), q.
  assert (Q : forall h, 0 < h -> 0 < h <= r * h) by (intros h Hh; split; nra).
  split; [| split].
  - split; [intros a b c _; split; reflexivity |]. split; [reflexivity | split; reflexivity].
  - intros fl res i j k Hc.
    rewrite (residual_quadratic lv _ _ _ fl res q 1 0 0 0).
    + rewrite Ex, Ey, Ez. unfold continuum, quad_at, q. cbn [qxx qyy qzz qxy qxz qyz qx qy qz q0 mob sfield].
      assert (Q' : pdx lv / (r * pdx lv) = / r) by (field; lra). rewrite Q'.
      assert (/ r < 1) by (rewrite <- Rinv_1; apply Rinv_lt_contravar; lra). lra.
    + auto.
    + auto.
    + unfold spacing. rewrite Ex, Ey, Ez. split; [| split]; apply Q; auto.
    + auto.
    + split; [intros a b c _; split; reflexivity |]. split; [reflexivity | split; reflexivity].
  - intros i j k. split; reflexivity.
Qed.

(** * The flux correction between levels *)
Definition opposite (tb r t : Z) : Z := (tb + (t - tb) / r * r + (r - (t - tb) mod r - 1))%Z.
Section Blocks.
  Variables (I0 I1 I2 : Z -> Z -> Z) (pu pv : Z -> Z -> Z -> Z) (G : Z -> Z -> Z -> Z -> R -> R) (ub ue ru vb ve rv : Z) (f : arr3).
  Hypotheses (Hu : forall u v, pu (I0 u v) (I1 u v) (I2 u v) = u) (Hv : forall u v, pv (I0 u v) (I1 u v) (I2 u v) = v) (Hru : (0 < ru)%Z) (Hrv : (0 < rv)%Z).
  Hypotheses (Mu : (ue + 1 - ub) mod ru = 0%Z) (Mv : (ve + 1 - vb) mod rv = 0%Z).
  Definition put (u v uq vq : Z) (s : arr3) : arr3 := upd3 s (I0 u v) (I1 u v) (I2 u v) (G u v uq vq (s (I0 u v) (I1 u v) (I2 u v))).
  Let isat (u v a b c : Z) : Prop := a = I0 u v /\ b = I1 u v /\ c = I2 u v.
  Let val (a b c : Z) : R := G (pu a b c) (pv a b c) (opposite ub ru (pu a b c)) (opposite vb rv (pv a b c)) (f a b c).
  Definition written (D : cset) (s : arr3) : Prop := forall a b c, (D a b c -> s a b c = val a b c) /\ (~ D a b c -> s a b c = f a b c).
  Lemma written_ext : forall (D D' : cset) s, (forall a b c, D a b c <-> D' a b c) -> written D s -> written D' s.
  Proof. intros D D' s E H a b c. rewrite <- (E a b c). apply H. Qed.
  Lemma put_adds : forall u v, adds _ written (isat u v) (put u v (opposite ub ru u) (opposite vb rv v)).
  Proof.
    intros u v D s Hn I a b c. unfold put.
    assert (Dec : isat u v a b c \/ ~ isat u v a b c).
    { unfold isat. destruct (Z.eq_dec a (I0 u v)), (Z.eq_dec b (I1 u v)), (Z.eq_dec c (I2 u v)); tauto. }
    destruct Dec as [Hb | Hb].
    - assert (Hd : ~ D a b c) by (intro Hd; exact (Hn a b c Hd Hb)). split; [intros _ | tauto].
      destruct Hb as (-> & -> & ->). rewrite upd3_same. unfold val. rewrite Hu, Hv. f_equal. apply (I _ _ _), Hd.
    - rewrite upd3_other by (unfold isat in Hb; lia). split; [intros [H | H]; [apply I, H | contradiction] | intro H; apply I; tauto].
  Qed.
  Lemma block_unique : forall tb r n m x y, (0 < r)%Z -> ((n - tb) mod r = 0)%Z -> ((m - tb) mod r = 0)%Z -> (0 <= x <= r - 1)%Z -> (0 <= y <= r - 1)%Z ->
    (n + x = m + y)%Z -> n = m.
  Proof.
    intros tb r n m x y Hr Hn Hm Hx Hy E. pose proof (Z.div_mod (n - tb) r ltac:(lia)) as D1. pose proof (Z.div_mod (m - tb) r ltac:(lia)) as D2. rewrite Hn in D1. rewrite Hm in D2.
    set (a := ((n - tb) / r)%Z) in *. set (b := ((m - tb) / r)%Z) in *. assert (a = b) by nia. subst a. lia.
  Qed.
  Lemma opposite_block : forall tb r n x, (0 < r)%Z -> ((n - tb) mod r = 0)%Z -> (0 <= x <= r - 1)%Z -> (opposite tb r (n + x) = n + (r - x - 1))%Z.
  Proof.
    intros tb r n x Hr Hn Hx. unfold opposite. pose proof (Z.div_mod (n - tb) r ltac:(lia)) as E. rewrite Hn in E.
    replace (n + x - tb)%Z with (x + (n - tb) / r * r)%Z by lia. rewrite Z.div_add, Z.mod_add by lia. rewrite Z.div_small, Z.mod_small by lia. lia.
  Qed.
  Lemma blocks_adds : adds _ written
    (fun a b c => exists u, (ub <= u <= ue /\ (u - ub) mod ru = 0)%Z /\ exists v, (vb <= v <= ve /\ (v - vb) mod rv = 0)%Z /\
       exists up, (0 <= up <= ru - 1)%Z /\ exists vp, (0 <= vp <= rv - 1)%Z /\ isat (u + up) (v + vp) a b c)
    (do_blocks ub ue ru vb ve rv put).
  Proof.
    assert (Hi : forall u v u' v' a b c, isat u v a b c -> isat u' v' a b c -> u = u' /\ v = v').
    { intros u v u' v' a b c (A1 & A2 & A3) (B1 & B2 & B3). split.
      - rewrite <- (Hu u v), <- A1, <- A2, <- A3, B1, B2, B3. apply Hu.
      - rewrite <- (Hv u v), <- A1, <- A2, <- A3, B1, B2, B3. apply Hv. }
    unfold do_blocks. apply (step_adds _ _ written_ext ub ue ru (fun u a b c => exists v, (vb <= v <= ve /\ (v - vb) mod rv = 0)%Z /\
       exists up, (0 <= up <= ru - 1)%Z /\ exists vp, (0 <= vp <= rv - 1)%Z /\ isat (u + up) (v + vp) a b c)); auto.
    - intros u _ Hum.
      apply (step_adds _ _ written_ext vb ve rv (fun v a b c => exists up, (0 <= up <= ru - 1)%Z /\ exists vp, (0 <= vp <= rv - 1)%Z /\ isat (u + up) (v + vp) a b c)); auto.
      + intros v _ Hvm.
        apply (loop_adds _ _ written_ext 0%Z (ru - 1)%Z (fun up a b c => exists vp, (0 <= vp <= rv - 1)%Z /\ isat (u + up) (v + vp) a b c)).
        * intros up Hup. apply (loop_adds _ _ written_ext 0%Z (rv - 1)%Z (fun vp a b c => isat (u + up) (v + vp) a b c)).
          -- intros vp Hvp. pose proof (put_adds (u + up)%Z (v + vp)%Z) as P.
             rewrite (opposite_block ub ru u up), (opposite_block vb rv v vp) in P by auto. exact P.
          -- intros x y a b c _ _ H1 H2. destruct (Hi _ _ _ _ _ _ _ H1 H2). lia.
        * intros x y a b c _ _ (v1 & _ & H1) (v2 & _ & H2). destruct (Hi _ _ _ _ _ _ _ H1 H2). lia.
      + intros n m a b c _ _ Hnm Hmm (u1 & _ & v1 & Hv1 & H1) (u2 & _ & v2 & Hv2 & H2). destruct (Hi _ _ _ _ _ _ _ H1 H2) as [_ E].
        apply (block_unique vb rv n m v1 v2); auto.
    - intros n m a b c _ _ Hnm Hmm (q1 & _ & u1 & Hu1 & v1 & _ & H1) (q2 & _ & u2 & Hu2 & v2 & _ & H2). destruct (Hi _ _ _ _ _ _ _ H1 H2) as [E _].
      apply (block_unique ub ru n m u1 u2); auto.
  Qed.
  Lemma block_of : forall tb te r t, (0 < r)%Z -> ((te + 1 - tb) mod r = 0)%Z ->
    ((tb <= t <= te)%Z <-> exists n, (tb <= n <= te /\ (n - tb) mod r = 0)%Z /\ exists x, (0 <= x <= r - 1)%Z /\ t = (n + x)%Z).
  Proof.
    intros tb te r t Hr Hm. pose proof (Z.div_mod (te + 1 - tb) r ltac:(lia)) as E. rewrite Hm in E. split.
    - intro Ht. exists (tb + (t - tb) / r * r)%Z. pose proof (Z.div_mod (t - tb) r ltac:(lia)). pose proof (Z.mod_pos_bound (t - tb) r Hr).
      assert (0 <= (t - tb) / r)%Z by (apply Z.div_pos; lia). split.
      + split; [nia |]. replace (tb + (t - tb) / r * r - tb)%Z with ((t - tb) / r * r)%Z by lia. apply Z.mod_mul. lia.
      + exists ((t - tb) mod r)%Z. split; lia.
    - intros (n & [Hn Hnm] & x & Hx & ->). pose proof (Z.div_mod (n - tb) r ltac:(lia)) as E2. rewrite Hnm in E2.
      set (a := ((n - tb) / r)%Z) in *. set (b := ((te + 1 - tb) / r)%Z) in *. assert (a < b)%Z by nia. assert ((a + 1) * r <= b * r)%Z by nia. lia.
  Qed.
  Lemma blocks_value : let s := do_blocks ub ue ru vb ve rv put f in
    (forall u v, (ub <= u <= ue)%Z -> (vb <= v <= ve)%Z ->
       s (I0 u v) (I1 u v) (I2 u v) = G u v (opposite ub ru u) (opposite vb rv v) (f (I0 u v) (I1 u v) (I2 u v))) /\
    (forall a b c, (forall u v, (ub <= u <= ue)%Z -> (vb <= v <= ve)%Z -> ~ (a = I0 u v /\ b = I1 u v /\ c = I2 u v)) -> s a b c = f a b c).
  Proof.
    intro s. assert (W : written (fun _ _ _ => False) f) by (intros a b c; split; [contradiction | reflexivity]).
    pose proof (blocks_adds (fun _ _ _ => False) f ltac:(intros; contradiction) W) as B. fold s in B. split.
    - intros u v Hur Hvr. destruct (B (I0 u v) (I1 u v) (I2 u v)) as [B1 _]. rewrite B1.
      + unfold val. rewrite Hu, Hv. reflexivity.
      + right. apply (block_of ub ue ru u Hru Mu) in Hur. apply (block_of vb ve rv v Hrv Mv) in Hvr.
        destruct Hur as (u0 & U & up & Up & ->). destruct Hvr as (v0 & V & vp & Vp & ->).
        exists u0. split; auto. exists v0. split; auto. exists up. split; auto. exists vp. split; auto. repeat split.
    - intros a b c H. destruct (B a b c) as [_ B2]. apply B2. intros [[] | (u0 & U & v0 & V & up & Up & vp & Vp & E)].
      apply (H (u0 + up)%Z (v0 + vp)%Z); auto.
      + apply (block_of ub ue ru _ Hru Mu). exists u0. split; auto. exists up. auto.
      + apply (block_of vb ve rv _ Hrv Mv). exists v0. split; auto. exists vp. auto.
  Qed.
End Blocks.
Lemma aligned_length : forall lo hi r, (0 < r)%Z -> aligned lo hi r -> ((hi + 1 - lo) mod r = 0)%Z.
Proof. intros lo hi r Hr [H1 H2]. rewrite Zminus_mod, H1, H2. apply Z.mod_0_l. lia. Qed.

Lemma ewing_x_val : forall p bb r0 r1 r2 dx dc soln f i j k, (0 < r1)%Z -> (0 < r2)%Z ->
  (((Z.min (bhi1 bb) (jhi p)) + 1 - (Z.max (blo1 bb) (jlo p))) mod r1 = 0)%Z -> (((Z.min (bhi2 bb) (khi p)) + 1 - (Z.max (blo2 bb) (klo p))) mod r2 = 0)%Z ->
  (corrects_x p bb i j k ->
   ewing_x p bb r0 r1 r2 dx dc soln f i j k =
   2 * (1 / (1 + IZR r0)) * f i j k +
   (if (location bb =? 0)%Z then 1 else -1) * (1 / (1 + IZR r0) * dc i j k * (soln (if (location bb =? 0)%Z then i else (i - 1)%Z) (opposite (Z.max (blo1 bb) (jlo p)) r1 j) (opposite (Z.max (blo2 bb) (klo p)) r2 k) - soln (if (location bb =? 0)%Z then i else (i - 1)%Z) j k) / dx)) /\
  (~ corrects_x p bb i j k -> ewing_x p bb r0 r1 r2 dx dc soln f i j k = f i j k).
Proof.
  intros p bb r0 r1 r2 dx dc soln f i j k P1 P2 M1 M2. unfold corrects_x, along1, along2, ewing_x. cbv zeta.
  destruct (Z.eqb_spec (location bb) 0) as [E | E]; [| destruct (Z.eqb_spec (location bb) 1) as [E1 | E1]].
  - destruct (blocks_value (fun u v : Z => (bhi0 bb + 1)%Z) (fun u v : Z => v) (fun u v : Z => u) (fun i j k : Z => k) (fun i j k : Z => j) (fun u v uq vq x => 2 * (1 / (1 + IZR r0)) * x + 1 / (1 + IZR r0) * dc (bhi0 bb + 1)%Z v u * (soln (bhi0 bb + 1)%Z vq uq - soln (bhi0 bb + 1)%Z v u) / dx) (Z.max (blo2 bb) (klo p)) (Z.min (bhi2 bb) (khi p)) r2 (Z.max (blo1 bb) (jlo p)) (Z.min (bhi1 bb) (jhi p)) r1 f (fun _ _ => eq_refl) (fun _ _ => eq_refl) P2 P1 M2 M1) as [B1 B2]. unfold put in B1, B2. cbv beta in B1, B2. split.
    + intros [[[_ ->] | [H _]] [Hj Hk]]; [| lia]. etransitivity; [exact (B1 k j Hk Hj) |]. rewrite Rmult_1_l. reflexivity.
    + intro H. apply B2. intros u v Hu Hv (E1 & E2 & E3). subst. apply H. split; [left; split; auto | split; auto].
  - destruct (blocks_value (fun u v : Z => (blo0 bb)) (fun u v : Z => v) (fun u v : Z => u) (fun i j k : Z => k) (fun i j k : Z => j) (fun u v uq vq x => 2 * (1 / (1 + IZR r0)) * x - 1 / (1 + IZR r0) * dc (blo0 bb) v u * (soln (blo0 bb - 1)%Z vq uq - soln (blo0 bb - 1)%Z v u) / dx) (Z.max (blo2 bb) (klo p)) (Z.min (bhi2 bb) (khi p)) r2 (Z.max (blo1 bb) (jlo p)) (Z.min (bhi1 bb) (jhi p)) r1 f (fun _ _ => eq_refl) (fun _ _ => eq_refl) P2 P1 M2 M1) as [B1 B2]. unfold put in B1, B2. cbv beta in B1, B2. split.
    + intros [[[H _] | [_ ->]] [Hj Hk]]; [lia |]. etransitivity; [exact (B1 k j Hk Hj) |]. lra.
    + intro H. apply B2. intros u v Hu Hv (E1' & E2 & E3). subst. apply H. split; [right; split; auto | split; auto].
  - split; [intros [[[H _] | [H _]] _]; contradiction | reflexivity].
Qed.
Lemma ewing_x_skip : forall p bb r0 r1 r2 dx dc soln f, location bb <> 0%Z -> location bb <> 1%Z -> ewing_x p bb r0 r1 r2 dx dc soln f = f.
Proof. intros p bb r0 r1 r2 dx dc soln f H0 H1. unfold ewing_x. destruct (Z.eqb_spec (location bb) 0); [contradiction |]. destruct (Z.eqb_spec (location bb) 1); [contradiction |]. reflexivity. Qed.
Lemma ewing_x_not : forall p bb r0 r1 r2 dx dc soln f i j k, (0 < r1)%Z -> (0 < r2)%Z -> placed p r0 r1 r2 bb -> ~ corrects_x p bb i j k ->
  ewing_x p bb r0 r1 r2 dx dc soln f i j k = f i j k.
Proof.
  intros p bb r0 r1 r2 dx dc soln f i j k P1 P2 Hpl Hn. destruct Hpl as [(_ & [Ha Hl] & [Hb Hm]) | [([[H _] | [H _]] & _) | ([[H _] | [H _]] & _)]];
  [apply (ewing_x_val p bb r0 r1 r2 dx dc soln f i j k P1 P2 (aligned_length _ _ _ P1 Ha) (aligned_length _ _ _ P2 Hb)); auto | rewrite ewing_x_skip by lia; reflexivity | rewrite ewing_x_skip by lia; reflexivity | rewrite ewing_x_skip by lia; reflexivity | rewrite ewing_x_skip by lia; reflexivity].
Qed.
Lemma fold_ewing_x : forall p r0 r1 r2 dx dc soln i j k l f, (0 < r1)%Z -> (0 < r2)%Z -> (forall bb, In bb l -> placed p r0 r1 r2 bb) -> (forall bb, In bb l -> ~ corrects_x p bb i j k) ->
  fold_left (fun f bb => ewing_x p bb r0 r1 r2 dx dc soln f) l f i j k = f i j k.
Proof.
  induction l as [| b l IH]; intros f P1 P2 Hp Hn; [reflexivity |]. cbn [fold_left]. rewrite IH; auto.
  - apply ewing_x_not; auto; [apply Hp | apply Hn]; left; auto.
  - intros; apply Hp; right; auto.
  - intros; apply Hn; right; auto.
Qed.
Lemma corrected_once_x : forall lv p bb o o0 w fl i j k, ewing lv = true -> finer lv = true -> cf_boundary_ok lv p -> In bb (cf_boundary p) -> corrects_x p bb i j k ->
  fx (flux_on_patch lv p o o0 w fl) i j k = ewing_x p bb (ratio0 lv) (ratio1 lv) (ratio2 lv) (gdx lv) (xdc o0) w (compflux_x p (gdx lv) (xdc o) w (fx fl)) i j k.
Proof.
  intros lv p bb o o0 w fl i j k He Hf ((Hr0 & Hr1 & Hr2) & _ & _ & _ & _ & Hp & Hord) Hb Hc. unfold flux_on_patch. rewrite He, Hf. cbn [andb fx].
  destruct (in_split bb _ Hb) as (l1 & l2 & E). rewrite E in *. destruct (fop_split _ _ _ _ _ Hord) as [O1 O2].
  rewrite fold_left_app. cbn [fold_left].
  assert (P1 : (0 < ratio1 lv)%Z) by lia. assert (P2 : (0 < ratio2 lv)%Z) by lia.
  rewrite fold_ewing_x; [| auto | auto | intros b Hin; apply Hp, in_or_app; right; right; auto | intros b Hin Hcb; pose proof (O2 b Hin) as O; apply (proj1 (O i j k)); auto].
  assert (EQ : forall f g, f i j k = g i j k -> ewing_x p bb (ratio0 lv) (ratio1 lv) (ratio2 lv) (gdx lv) (xdc o0) w f i j k = ewing_x p bb (ratio0 lv) (ratio1 lv) (ratio2 lv) (gdx lv) (xdc o0) w g i j k).
  { intros f g Efg. assert (Hpl : placed p (ratio0 lv) (ratio1 lv) (ratio2 lv) bb) by (apply Hp, in_or_app; right; left; auto).
    destruct Hpl as [(_ & [Ha Hl] & [Hb' Hm]) | [([[H _] | [H _]] & _) | ([[H _] | [H _]] & _)]];
    [rewrite (proj1 (ewing_x_val p bb (ratio0 lv) (ratio1 lv) (ratio2 lv) (gdx lv) (xdc o0) w f i j k P1 P2 (aligned_length _ _ _ P1 Ha) (aligned_length _ _ _ P2 Hb')) Hc); rewrite (proj1 (ewing_x_val p bb (ratio0 lv) (ratio1 lv) (ratio2 lv) (gdx lv) (xdc o0) w g i j k P1 P2 (aligned_length _ _ _ P1 Ha) (aligned_length _ _ _ P2 Hb')) Hc); rewrite Efg; reflexivity | rewrite !ewing_x_skip by lia; exact Efg | rewrite !ewing_x_skip by lia; exact Efg | rewrite !ewing_x_skip by lia; exact Efg | rewrite !ewing_x_skip by lia; exact Efg]. }
  apply EQ. apply fold_ewing_x; [auto | auto | intros b Hin; apply Hp, in_or_app; left; auto | intros b Hin Hcb; pose proof (O1 b Hin) as O; apply (proj1 (O i j k)); auto].
Qed.

Lemma ewing_y_val : forall p bb r0 r1 r2 dy dc soln f i j k, (0 < r0)%Z -> (0 < r2)%Z ->
  (((Z.min (bhi0 bb) (ihi p)) + 1 - (Z.max (blo0 bb) (ilo p))) mod r0 = 0)%Z -> (((Z.min (bhi2 bb) (khi p)) + 1 - (Z.max (blo2 bb) (klo p))) mod r2 = 0)%Z ->
  (corrects_y p bb i j k ->
   ewing_y p bb r0 r1 r2 dy dc soln f i j k =
   2 * (1 / (1 + IZR r1)) * f i j k +
   (if (location bb =? 2)%Z then 1 else -1) * (1 / (1 + IZR r1) * dc i j k * (soln (opposite (Z.max (blo0 bb) (ilo p)) r0 i) (if (location bb =? 2)%Z then j else (j - 1)%Z) (opposite (Z.max (blo2 bb) (klo p)) r2 k) - soln i (if (location bb =? 2)%Z then j else (j - 1)%Z) k) / dy)) /\
  (~ corrects_y p bb i j k -> ewing_y p bb r0 r1 r2 dy dc soln f i j k = f i j k).
Proof.
  intros p bb r0 r1 r2 dy dc soln f i j k P1 P2 M1 M2. unfold corrects_y, along0, along2, ewing_y. cbv zeta.
  destruct (Z.eqb_spec (location bb) 2) as [E | E]; [| destruct (Z.eqb_spec (location bb) 3) as [E1 | E1]].
  - destruct (blocks_value (fun u v : Z => u) (fun u v : Z => (bhi1 bb + 1)%Z) (fun u v : Z => v) (fun i j k : Z => i) (fun i j k : Z => k) (fun u v uq vq x => 2 * (1 / (1 + IZR r1)) * x + 1 / (1 + IZR r1) * dc u (bhi1 bb + 1)%Z v * (soln uq (bhi1 bb + 1)%Z vq - soln u (bhi1 bb + 1)%Z v) / dy) (Z.max (blo0 bb) (ilo p)) (Z.min (bhi0 bb) (ihi p)) r0 (Z.max (blo2 bb) (klo p)) (Z.min (bhi2 bb) (khi p)) r2 f (fun _ _ => eq_refl) (fun _ _ => eq_refl) P1 P2 M1 M2) as [B1 B2]. unfold put in B1, B2. cbv beta in B1, B2. split.
    + intros [[[_ ->] | [H _]] [Hj Hk]]; [| lia]. etransitivity; [exact (B1 i k Hj Hk) |]. rewrite Rmult_1_l. reflexivity.
    + intro H. apply B2. intros u v Hu Hv (E1 & E2 & E3). subst. apply H. split; [left; split; auto | split; auto].
  - destruct (blocks_value (fun u v : Z => u) (fun u v : Z => (blo1 bb)) (fun u v : Z => v) (fun i j k : Z => i) (fun i j k : Z => k) (fun u v uq vq x => 2 * (1 / (1 + IZR r1)) * x - 1 / (1 + IZR r1) * dc u (blo1 bb) v * (soln uq (blo1 bb - 1)%Z vq - soln u (blo1 bb - 1)%Z v) / dy) (Z.max (blo0 bb) (ilo p)) (Z.min (bhi0 bb) (ihi p)) r0 (Z.max (blo2 bb) (klo p)) (Z.min (bhi2 bb) (khi p)) r2 f (fun _ _ => eq_refl) (fun _ _ => eq_refl) P1 P2 M1 M2) as [B1 B2]. unfold put in B1, B2. cbv beta in B1, B2. split.
    + intros [[[H _] | [_ ->]] [Hj Hk]]; [lia |]. etransitivity; [exact (B1 i k Hj Hk) |]. lra.
    + intro H. apply B2. intros u v Hu Hv (E1' & E2 & E3). subst. apply H. split; [right; split; auto | split; auto].
  - split; [intros [[[H _] | [H _]] _]; contradiction | reflexivity].
Qed.
Lemma ewing_y_skip : forall p bb r0 r1 r2 dx dc soln f, location bb <> 2%Z -> location bb <> 3%Z -> ewing_y p bb r0 r1 r2 dx dc soln f = f.
Proof. intros p bb r0 r1 r2 dx dc soln f H0 H1. unfold ewing_y. destruct (Z.eqb_spec (location bb) 2); [contradiction |]. destruct (Z.eqb_spec (location bb) 3); [contradiction |]. reflexivity. Qed.
Lemma ewing_y_not : forall p bb r0 r1 r2 dx dc soln f i j k, (0 < r0)%Z -> (0 < r2)%Z -> placed p r0 r1 r2 bb -> ~ corrects_y p bb i j k ->
  ewing_y p bb r0 r1 r2 dx dc soln f i j k = f i j k.
Proof.
  intros p bb r0 r1 r2 dx dc soln f i j k P1 P2 Hpl Hn. destruct Hpl as [([[H _] | [H _]] & _) | [(_ & [Ha Hl] & [Hb Hm]) | ([[H _] | [H _]] & _)]];
  [rewrite ewing_y_skip by lia; reflexivity | rewrite ewing_y_skip by lia; reflexivity | apply (ewing_y_val p bb r0 r1 r2 dx dc soln f i j k P1 P2 (aligned_length _ _ _ P1 Ha) (aligned_length _ _ _ P2 Hb)); auto | rewrite ewing_y_skip by lia; reflexivity | rewrite ewing_y_skip by lia; reflexivity].
Qed.
Lemma fold_ewing_y : forall p r0 r1 r2 dx dc soln i j k l f, (0 < r0)%Z -> (0 < r2)%Z -> (forall bb, In bb l -> placed p r0 r1 r2 bb) -> (forall bb, In bb l -> ~ corrects_y p bb i j k) ->
  fold_left (fun f bb => ewing_y p bb r0 r1 r2 dx dc soln f) l f i j k = f i j k.
Proof.
  induction l as [| b l IH]; intros f P1 P2 Hp Hn; [reflexivity |]. cbn [fold_left]. rewrite IH; auto.
  - apply ewing_y_not; auto; [apply Hp | apply Hn]; left; auto.
  - intros; apply Hp; right; auto.
  - intros; apply Hn; right; auto.
Qed.
Lemma corrected_once_y : forall lv p bb o o0 w fl i j k, ewing lv = true -> finer lv = true -> cf_boundary_ok lv p -> In bb (cf_boundary p) -> corrects_y p bb i j k ->
  fy (flux_on_patch lv p o o0 w fl) i j k = ewing_y p bb (ratio0 lv) (ratio1 lv) (ratio2 lv) (gdy lv) (ydc o0) w (compflux_y p (gdy lv) (ydc o) w (fy fl)) i j k.
Proof.
  intros lv p bb o o0 w fl i j k He Hf ((Hr0 & Hr1 & Hr2) & _ & _ & _ & _ & Hp & Hord) Hb Hc. unfold flux_on_patch. rewrite He, Hf. cbn [andb fy].
  destruct (in_split bb _ Hb) as (l1 & l2 & E). rewrite E in *. destruct (fop_split _ _ _ _ _ Hord) as [O1 O2].
  rewrite fold_left_app. cbn [fold_left].
  assert (P1 : (0 < ratio0 lv)%Z) by lia. assert (P2 : (0 < ratio2 lv)%Z) by lia.
  rewrite fold_ewing_y; [| auto | auto | intros b Hin; apply Hp, in_or_app; right; right; auto | intros b Hin Hcb; pose proof (O2 b Hin) as O; apply (proj1 (proj2 (O i j k))); auto].
  assert (EQ : forall f g, f i j k = g i j k -> ewing_y p bb (ratio0 lv) (ratio1 lv) (ratio2 lv) (gdy lv) (ydc o0) w f i j k = ewing_y p bb (ratio0 lv) (ratio1 lv) (ratio2 lv) (gdy lv) (ydc o0) w g i j k).
  { intros f g Efg. assert (Hpl : placed p (ratio0 lv) (ratio1 lv) (ratio2 lv) bb) by (apply Hp, in_or_app; right; left; auto).
    destruct Hpl as [([[H _] | [H _]] & _) | [(_ & [Ha Hl] & [Hb' Hm]) | ([[H _] | [H _]] & _)]];
    [rewrite !ewing_y_skip by lia; exact Efg | rewrite !ewing_y_skip by lia; exact Efg | rewrite (proj1 (ewing_y_val p bb (ratio0 lv) (ratio1 lv) (ratio2 lv) (gdy lv) (ydc o0) w f i j k P1 P2 (aligned_length _ _ _ P1 Ha) (aligned_length _ _ _ P2 Hb')) Hc); rewrite (proj1 (ewing_y_val p bb (ratio0 lv) (ratio1 lv) (ratio2 lv) (gdy lv) (ydc o0) w g i j k P1 P2 (aligned_length _ _ _ P1 Ha) (aligned_length _ _ _ P2 Hb')) Hc); rewrite Efg; reflexivity | rewrite !ewing_y_skip by lia; exact Efg | rewrite !ewing_y_skip by lia; exact Efg]. }
  apply EQ. apply fold_ewing_y; [auto | auto | intros b Hin; apply Hp, in_or_app; left; auto | intros b Hin Hcb; pose proof (O1 b Hin) as O; apply (proj1 (proj2 (O i j k))); auto].
Qed.

Lemma ewing_z_val : forall p bb r0 r1 r2 dz dc soln f i j k, (0 < r0)%Z -> (0 < r1)%Z ->
  (((Z.min (bhi0 bb) (ihi p)) + 1 - (Z.max (blo0 bb) (ilo p))) mod r0 = 0)%Z -> (((Z.min (bhi1 bb) (jhi p)) + 1 - (Z.max (blo1 bb) (jlo p))) mod r1 = 0)%Z ->
  (corrects_z p bb i j k ->
   ewing_z p bb r0 r1 r2 dz dc soln f i j k =
   2 * (1 / (1 + IZR r2)) * f i j k +
   (if (location bb =? 4)%Z then 1 else -1) * (1 / (1 + IZR r2) * dc i j k * (soln (opposite (Z.max (blo0 bb) (ilo p)) r0 i) (opposite (Z.max (blo1 bb) (jlo p)) r1 j) (if (location bb =? 4)%Z then k else (k - 1)%Z) - soln i j (if (location bb =? 4)%Z then k else (k - 1)%Z)) / dz)) /\
  (~ corrects_z p bb i j k -> ewing_z p bb r0 r1 r2 dz dc soln f i j k = f i j k).
Proof.
  intros p bb r0 r1 r2 dz dc soln f i j k P1 P2 M1 M2. unfold corrects_z, along0, along1, ewing_z. cbv zeta.
  destruct (Z.eqb_spec (location bb) 4) as [E | E]; [| destruct (Z.eqb_spec (location bb) 5) as [E1 | E1]].
  - destruct (blocks_value (fun u v : Z => u) (fun u v : Z => v) (fun u v : Z => (bhi2 bb + 1)%Z) (fun i j k : Z => i) (fun i j k : Z => j) (fun u v uq vq x => 2 * (1 / (1 + IZR r2)) * x + 1 / (1 + IZR r2) * dc u v (bhi2 bb + 1)%Z * (soln uq vq (bhi2 bb + 1)%Z - soln u v (bhi2 bb + 1)%Z) / dz) (Z.max (blo0 bb) (ilo p)) (Z.min (bhi0 bb) (ihi p)) r0 (Z.max (blo1 bb) (jlo p)) (Z.min (bhi1 bb) (jhi p)) r1 f (fun _ _ => eq_refl) (fun _ _ => eq_refl) P1 P2 M1 M2) as [B1 B2]. unfold put in B1, B2. cbv beta in B1, B2. split.
    + intros [[[_ ->] | [H _]] [Hj Hk]]; [| lia]. etransitivity; [exact (B1 i j Hj Hk) |]. rewrite Rmult_1_l. reflexivity.
    + intro H. apply B2. intros u v Hu Hv (E1 & E2 & E3). subst. apply H. split; [left; split; auto | split; auto].
  - destruct (blocks_value (fun u v : Z => u) (fun u v : Z => v) (fun u v : Z => (blo2 bb)) (fun i j k : Z => i) (fun i j k : Z => j) (fun u v uq vq x => 2 * (1 / (1 + IZR r2)) * x - 1 / (1 + IZR r2) * dc u v (blo2 bb) * (soln uq vq (blo2 bb - 1)%Z - soln u v (blo2 bb - 1)%Z) / dz) (Z.max (blo0 bb) (ilo p)) (Z.min (bhi0 bb) (ihi p)) r0 (Z.max (blo1 bb) (jlo p)) (Z.min (bhi1 bb) (jhi p)) r1 f (fun _ _ => eq_refl) (fun _ _ => eq_refl) P1 P2 M1 M2) as [B1 B2]. unfold put in B1, B2. cbv beta in B1, B2. split.
    + intros [[[H _] | [_ ->]] [Hj Hk]]; [lia |]. etransitivity; [exact (B1 i j Hj Hk) |]. lra.
    + intro H. apply B2. intros u v Hu Hv (E1' & E2 & E3). subst. apply H. split; [right; split; auto | split; auto].
  - split; [intros [[[H _] | [H _]] _]; contradiction | reflexivity].
Qed.
Lemma ewing_z_skip : forall p bb r0 r1 r2 dx dc soln f, location bb <> 4%Z -> location bb <> 5%Z -> ewing_z p bb r0 r1 r2 dx dc soln f = f.
Proof. intros p bb r0 r1 r2 dx dc soln f H0 H1. unfold ewing_z. destruct (Z.eqb_spec (location bb) 4); [contradiction |]. destruct (Z.eqb_spec (location bb) 5); [contradiction |]. reflexivity. Qed.
Lemma ewing_z_not : forall p bb r0 r1 r2 dx dc soln f i j k, (0 < r0)%Z -> (0 < r1)%Z -> placed p r0 r1 r2 bb -> ~ corrects_z p bb i j k ->
  ewing_z p bb r0 r1 r2 dx dc soln f i j k = f i j k.
Proof.
  intros p bb r0 r1 r2 dx dc soln f i j k P1 P2 Hpl Hn. destruct Hpl as [([[H _] | [H _]] & _) | [([[H _] | [H _]] & _) | (_ & [Ha Hl] & [Hb Hm])]];
  [rewrite ewing_z_skip by lia; reflexivity | rewrite ewing_z_skip by lia; reflexivity | rewrite ewing_z_skip by lia; reflexivity | rewrite ewing_z_skip by lia; reflexivity | apply (ewing_z_val p bb r0 r1 r2 dx dc soln f i j k P1 P2 (aligned_length _ _ _ P1 Ha) (aligned_length _ _ _ P2 Hb)); auto].
Qed.
Lemma fold_ewing_z : forall p r0 r1 r2 dx dc soln i j k l f, (0 < r0)%Z -> (0 < r1)%Z -> (forall bb, In bb l -> placed p r0 r1 r2 bb) -> (forall bb, In bb l -> ~ corrects_z p bb i j k) ->
  fold_left (fun f bb => ewing_z p bb r0 r1 r2 dx dc soln f) l f i j k = f i j k.
Proof.
  induction l as [| b l IH]; intros f P1 P2 Hp Hn; [reflexivity |]. cbn [fold_left]. rewrite IH; auto.
  - apply ewing_z_not; auto; [apply Hp | apply Hn]; left; auto.
  - intros; apply Hp; right; auto.
  - intros; apply Hn; right; auto.
Qed.
Lemma corrected_once_z : forall lv p bb o o0 w fl i j k, ewing lv = true -> finer lv = true -> cf_boundary_ok lv p -> In bb (cf_boundary p) -> corrects_z p bb i j k ->
  fz (flux_on_patch lv p o o0 w fl) i j k = ewing_z p bb (ratio0 lv) (ratio1 lv) (ratio2 lv) (gdz lv) (zdc o0) w (compflux_z p (gdz lv) (zdc o) w (fz fl)) i j k.
Proof.
  intros lv p bb o o0 w fl i j k He Hf ((Hr0 & Hr1 & Hr2) & _ & _ & _ & _ & Hp & Hord) Hb Hc. unfold flux_on_patch. rewrite He, Hf. cbn [andb fz].
  destruct (in_split bb _ Hb) as (l1 & l2 & E). rewrite E in *. destruct (fop_split _ _ _ _ _ Hord) as [O1 O2].
  rewrite fold_left_app. cbn [fold_left].
  assert (P1 : (0 < ratio0 lv)%Z) by lia. assert (P2 : (0 < ratio1 lv)%Z) by lia.
  rewrite fold_ewing_z; [| auto | auto | intros b Hin; apply Hp, in_or_app; right; right; auto | intros b Hin Hcb; pose proof (O2 b Hin) as O; apply (proj2 (proj2 (O i j k))); auto].
  assert (EQ : forall f g, f i j k = g i j k -> ewing_z p bb (ratio0 lv) (ratio1 lv) (ratio2 lv) (gdz lv) (zdc o0) w f i j k = ewing_z p bb (ratio0 lv) (ratio1 lv) (ratio2 lv) (gdz lv) (zdc o0) w g i j k).
  { intros f g Efg. assert (Hpl : placed p (ratio0 lv) (ratio1 lv) (ratio2 lv) bb) by (apply Hp, in_or_app; right; left; auto).
    destruct Hpl as [([[H _] | [H _]] & _) | [([[H _] | [H _]] & _) | (_ & [Ha Hl] & [Hb' Hm])]];
    [rewrite !ewing_z_skip by lia; exact Efg | rewrite !ewing_z_skip by lia; exact Efg | rewrite !ewing_z_skip by lia; exact Efg | rewrite !ewing_z_skip by lia; exact Efg | rewrite (proj1 (ewing_z_val p bb (ratio0 lv) (ratio1 lv) (ratio2 lv) (gdz lv) (zdc o0) w f i j k P1 P2 (aligned_length _ _ _ P1 Ha) (aligned_length _ _ _ P2 Hb')) Hc); rewrite (proj1 (ewing_z_val p bb (ratio0 lv) (ratio1 lv) (ratio2 lv) (gdz lv) (zdc o0) w g i j k P1 P2 (aligned_length _ _ _ P1 Ha) (aligned_length _ _ _ P2 Hb')) Hc); rewrite Efg; reflexivity]. }
  apply EQ. apply fold_ewing_z; [auto | auto | intros b Hin; apply Hp, in_or_app; left; auto | intros b Hin Hcb; pose proof (O1 b Hin) as O; apply (proj2 (proj2 (O i j k))); auto].
Qed.
Lemma mod_zero_mul : forall a r, (0 < r)%Z -> (a mod r = 0)%Z -> (a = r * (a / r))%Z.
Proof. intros a r Hr H. pose proof (Z.div_mod a r). lia. Qed.
Lemma opposite_in : forall tb te r t, (0 < r)%Z -> aligned tb te r -> (tb <= t <= te)%Z -> (tb <= opposite tb r t <= te)%Z.
Proof.
  intros tb te r t Hr [H1 H2] Ht. unfold opposite. pose proof (Z.mod_pos_bound (t - tb) r Hr). pose proof (Z.div_mod (t - tb) r).
  pose proof (mod_zero_mul _ _ Hr H1). pose proof (mod_zero_mul _ _ Hr H2).
  assert (0 <= (t - tb) / r)%Z by (apply Z.div_pos; lia).
  split; [nia |]. set (k := ((t - tb) / r)%Z) in *. set (m := (tb / r)%Z) in *. set (n := ((te + 1) / r)%Z) in *.
  assert (k + m < n)%Z by nia. nia.
Qed.
Lemma opposite_centre : forall tb r t h, (0 < r)%Z -> (tb mod r = 0)%Z -> centre (opposite tb r t) h = 2 * coarse_centre t r h - centre t h.
Proof.
  intros tb r t h Hr H. unfold centre, coarse_centre, opposite.
  pose proof (mod_zero_mul _ _ Hr H) as E. pose proof (Z.div_mod (t - tb) r ltac:(lia)) as D.
  assert (Q : (t / r = (t - tb) / r + tb / r)%Z).
  { replace t with ((t - tb) + tb / r * r)%Z at 1 by lia. rewrite Z.div_add by lia. reflexivity. }
  rewrite Q. set (k := ((t - tb) / r)%Z) in *. set (m := (tb / r)%Z) in *. set (e := ((t - tb) mod r)%Z) in *.
  replace (tb + k * r + (r - e - 1))%Z with (2 * (k + m) * r + r - 1 - t)%Z by lia.
  rewrite !minus_IZR, !plus_IZR, !mult_IZR, !plus_IZR. field.
Qed.
Lemma coarse_below : forall t r h, (0 < r)%Z -> (t mod r = 0)%Z -> coarse_centre (t - 1) r h = IZR t * h - IZR r * h / 2.
Proof.
  intros t r h Hr H. unfold coarse_centre. pose proof (mod_zero_mul _ _ Hr H) as E.
  assert (Q : ((t - 1) / r = t / r - 1)%Z).
  { replace (t - 1)%Z with ((r - 1) + (t / r - 1) * r)%Z by lia. rewrite Z.div_add by lia. rewrite Z.div_small by lia. lia. }
  rewrite Q, minus_IZR. rewrite E at 2. rewrite mult_IZR. field.
Qed.
Lemma coarse_above : forall t r h, (0 < r)%Z -> (t mod r = 0)%Z -> coarse_centre t r h = IZR t * h + IZR r * h / 2.
Proof.
  intros t r h Hr H. unfold coarse_centre. pose proof (mod_zero_mul _ _ Hr H) as E. rewrite E at 2. rewrite mult_IZR. field.
Qed.


Lemma ewing_linear_x : forall lv p bb o o0 w fl a sx sy sz i j k, ewing lv = true -> finer lv = true -> cf_boundary_ok lv p -> In bb (cf_boundary p) ->
  0 < pdx lv -> 0 < gdx lv -> linear_inside lv p w a sx sy sz -> coarse_ghosts lv p bb w a sx sy sz -> corrects_x p bb i j k ->
  fx (flux_on_patch lv p o o0 w fl) i j k = xdc o i j k * sx * (pdx lv / gdx lv)
    + (if (location bb =? 0)%Z then 1 else -1) * (2 / (1 + IZR (ratio0 lv)) / gdx lv)
      * (sy * (centre j (pdy lv) - coarse_centre j (ratio1 lv) (pdy lv)) + sz * (centre k (pdz lv) - coarse_centre k (ratio2 lv) (pdz lv)))
      * (xdc o i j k - xdc o0 i j k).
Proof.
  intros lv p bb o o0 w fl a sx sy sz i j k He Hf Hok Hb Hx Hg Hlin Hgh Hc.
  rewrite (corrected_once_x lv p bb o o0 w fl i j k He Hf Hok Hb Hc).
  destruct Hok as ((Hr0 & Hr1 & Hr2) & (Hne & Hne2 & Hne3) & (Al1 & Al2) & (Al3 & Al4) & (Al5 & Al6) & Hp & _).
  assert (P0 : (0 < ratio0 lv)%Z) by lia. assert (P1 : (0 < ratio1 lv)%Z) by lia. assert (P2 : (0 < ratio2 lv)%Z) by lia.
  assert (R0 : 0 < 1 + IZR (ratio0 lv)) by (apply (IZR_lt 0) in P0; lra).
  destruct (Hp bb Hb) as [(Hloc & [Ha Hl] & [Hb' Hm]) | [(Hloc & _) | (Hloc & _)]]; [| destruct Hc as [Hc _]; exfalso; lia | destruct Hc as [Hc _]; exfalso; lia].
  rewrite (proj1 (ewing_x_val p bb (ratio0 lv) (ratio1 lv) (ratio2 lv) (gdx lv) (xdc o0) w _ i j k P1 P2 (aligned_length _ _ _ P1 Ha) (aligned_length _ _ _ P2 Hb')) Hc).
  destruct Hc as [Hc [Hj Hk]]. pose proof Hj as Hj0. pose proof Hk as Hk0. unfold along1 in Hj. unfold along2 in Hk.
  set (b1 := Z.max (blo1 bb) (jlo p)) in *. set (e1 := Z.min (bhi1 bb) (jhi p)) in *.
  set (b2 := Z.max (blo2 bb) (klo p)) in *. set (e2 := Z.min (bhi2 bb) (khi p)) in *.
  pose proof (opposite_in b1 e1 (ratio1 lv) j P1 Ha Hj) as Ho1. pose proof (opposite_in b2 e2 (ratio2 lv) k P2 Hb' Hk) as Ho2.
  assert (I1 : (jlo p <= j <= jhi p)%Z) by (unfold b1, e1 in Hj; lia). assert (I2 : (klo p <= k <= khi p)%Z) by (unfold b2, e2 in Hk; lia).
  assert (O1 : (jlo p <= opposite b1 (ratio1 lv) j <= jhi p)%Z) by (unfold b1, e1 in Ho1 |- *; lia).
  assert (O2 : (klo p <= opposite b2 (ratio2 lv) k <= khi p)%Z) by (unfold b2, e2 in Ho2 |- *; lia).
  pose proof (opposite_centre b1 (ratio1 lv) j (pdy lv) P1 (proj1 Ha)) as Ec1. pose proof (opposite_centre b2 (ratio2 lv) k (pdz lv) P2 (proj1 Hb')) as Ec2.
  destruct Hc as [[L0 Ei] | [L1 Ei]].
  - rewrite L0, !Z.eqb_refl. destruct Hloc as [[_ Eb] | [Hl0 _]]; [| lia]. assert (Eii : i = ilo p) by lia. clear Ei. subst i.
    rewrite compflux_x_val by lia.
    rewrite (Hlin (ilo p) j k) by (unfold inside; lia). rewrite (Hlin (ilo p) (opposite b1 (ratio1 lv) j) (opposite b2 (ratio2 lv) k)) by (unfold inside; lia).
    rewrite (Hgh (ilo p - 1)%Z j k) by (left; split; [left; split; lia | split; [exact Hj0 | exact Hk0]]). rewrite (coarse_below (ilo p)) by auto.
    unfold linear_at. rewrite Ec1, Ec2. unfold centre. field. lra.
  - destruct Hloc as [[Hl0 _] | [_ Eb]]; [lia |]. destruct (Z.eqb_spec (location bb) 0); [lia |]. assert (Eii : i = (ihi p + 1)%Z) by lia. clear Ei. subst i.
    replace (ihi p + 1 - 1)%Z with (ihi p) by lia.
    rewrite compflux_x_val by lia. replace (ihi p + 1 - 1)%Z with (ihi p) by lia.
    rewrite (Hlin (ihi p) j k) by (unfold inside; lia). rewrite (Hlin (ihi p) (opposite b1 (ratio1 lv) j) (opposite b2 (ratio2 lv) k)) by (unfold inside; lia).
    rewrite (Hgh (ihi p + 1)%Z j k) by (left; split; [right; split; lia | split; [exact Hj0 | exact Hk0]]). rewrite (coarse_above (ihi p + 1)%Z) by auto.
    unfold linear_at. rewrite Ec1, Ec2. unfold centre. rewrite plus_IZR. field. lra.
Qed.

Lemma ewing_linear_y : forall lv p bb o o0 w fl a sx sy sz i j k, ewing lv = true -> finer lv = true -> cf_boundary_ok lv p -> In bb (cf_boundary p) ->
  0 < pdy lv -> 0 < gdy lv -> linear_inside lv p w a sx sy sz -> coarse_ghosts lv p bb w a sx sy sz -> corrects_y p bb i j k ->
  fy (flux_on_patch lv p o o0 w fl) i j k = ydc o i j k * sy * (pdy lv / gdy lv)
    + (if (location bb =? 2)%Z then 1 else -1) * (2 / (1 + IZR (ratio1 lv)) / gdy lv)
      * (sx * (centre i (pdx lv) - coarse_centre i (ratio0 lv) (pdx lv)) + sz * (centre k (pdz lv) - coarse_centre k (ratio2 lv) (pdz lv)))
      * (ydc o i j k - ydc o0 i j k).
Proof.
  intros lv p bb o o0 w fl a sx sy sz i j k He Hf Hok Hb Hx Hg Hlin Hgh Hc.
  rewrite (corrected_once_y lv p bb o o0 w fl i j k He Hf Hok Hb Hc).
  destruct Hok as ((Hr0 & Hr1 & Hr2) & (Hne & Hne2 & Hne3) & (Al1 & Al2) & (Al3 & Al4) & (Al5 & Al6) & Hp & _).
  assert (P0 : (0 < ratio1 lv)%Z) by lia. assert (P1 : (0 < ratio0 lv)%Z) by lia. assert (P2 : (0 < ratio2 lv)%Z) by lia.
  assert (R0 : 0 < 1 + IZR (ratio1 lv)) by (apply (IZR_lt 0) in P0; lra).
  destruct (Hp bb Hb) as [(Hloc & _) | [(Hloc & [Ha Hl] & [Hb' Hm]) | (Hloc & _)]]; [destruct Hc as [Hc _]; exfalso; lia | | destruct Hc as [Hc _]; exfalso; lia].
  rewrite (proj1 (ewing_y_val p bb (ratio0 lv) (ratio1 lv) (ratio2 lv) (gdy lv) (ydc o0) w _ i j k P1 P2 (aligned_length _ _ _ P1 Ha) (aligned_length _ _ _ P2 Hb')) Hc).
  destruct Hc as [Hc [Hj Hk]]. pose proof Hj as Hj0. pose proof Hk as Hk0. unfold along0 in Hj. unfold along2 in Hk.
  set (b1 := Z.max (blo0 bb) (ilo p)) in *. set (e1 := Z.min (bhi0 bb) (ihi p)) in *.
  set (b2 := Z.max (blo2 bb) (klo p)) in *. set (e2 := Z.min (bhi2 bb) (khi p)) in *.
  pose proof (opposite_in b1 e1 (ratio0 lv) i P1 Ha Hj) as Ho1. pose proof (opposite_in b2 e2 (ratio2 lv) k P2 Hb' Hk) as Ho2.
  assert (I1 : (ilo p <= i <= ihi p)%Z) by (unfold b1, e1 in Hj; lia). assert (I2 : (klo p <= k <= khi p)%Z) by (unfold b2, e2 in Hk; lia).
  assert (O1 : (ilo p <= opposite b1 (ratio0 lv) i <= ihi p)%Z) by (unfold b1, e1 in Ho1 |- *; lia).
  assert (O2 : (klo p <= opposite b2 (ratio2 lv) k <= khi p)%Z) by (unfold b2, e2 in Ho2 |- *; lia).
  pose proof (opposite_centre b1 (ratio0 lv) i (pdx lv) P1 (proj1 Ha)) as Ec1. pose proof (opposite_centre b2 (ratio2 lv) k (pdz lv) P2 (proj1 Hb')) as Ec2.
  destruct Hc as [[L0 Ei] | [L1 Ei]].
  - rewrite L0, !Z.eqb_refl. destruct Hloc as [[_ Eb] | [Hl0 _]]; [| lia]. assert (Eii : j = jlo p) by lia. clear Ei. subst j.
    rewrite compflux_y_val by lia.
    rewrite (Hlin i (jlo p) k) by (unfold inside; lia). rewrite (Hlin (opposite b1 (ratio0 lv) i) (jlo p) (opposite b2 (ratio2 lv) k)) by (unfold inside; lia).
    rewrite (Hgh i (jlo p - 1)%Z k) by (right; left; split; [left; split; lia | split; [exact Hj0 | exact Hk0]]). rewrite (coarse_below (jlo p)) by auto.
    unfold linear_at. rewrite Ec1, Ec2. unfold centre. field. lra.
  - destruct Hloc as [[Hl0 _] | [_ Eb]]; [lia |]. destruct (Z.eqb_spec (location bb) 2); [lia |]. assert (Eii : j = (jhi p + 1)%Z) by lia. clear Ei. subst j.
    replace (jhi p + 1 - 1)%Z with (jhi p) by lia.
    rewrite compflux_y_val by lia. replace (jhi p + 1 - 1)%Z with (jhi p) by lia.
    rewrite (Hlin i (jhi p) k) by (unfold inside; lia). rewrite (Hlin (opposite b1 (ratio0 lv) i) (jhi p) (opposite b2 (ratio2 lv) k)) by (unfold inside; lia).
    rewrite (Hgh i (jhi p + 1)%Z k) by (right; left; split; [right; split; lia | split; [exact Hj0 | exact Hk0]]). rewrite (coarse_above (jhi p + 1)%Z) by auto.
    unfold linear_at. rewrite Ec1, Ec2. unfold centre. rewrite plus_IZR. field. lra.
Qed.

Lemma ewing_linear_z : forall lv p bb o o0 w fl a sx sy sz i j k, ewing lv = true -> finer lv = true -> cf_boundary_ok lv p -> In bb (cf_boundary p) ->
  0 < pdz lv -> 0 < gdz lv -> linear_inside lv p w a sx sy sz -> coarse_ghosts lv p bb w a sx sy sz -> corrects_z p bb i j k ->
  fz (flux_on_patch lv p o o0 w fl) i j k = zdc o i j k * sz * (pdz lv / gdz lv)
    + (if (location bb =? 4)%Z then 1 else -1) * (2 / (1 + IZR (ratio2 lv)) / gdz lv)
      * (sx * (centre i (pdx lv) - coarse_centre i (ratio0 lv) (pdx lv)) + sy * (centre j (pdy lv) - coarse_centre j (ratio1 lv) (pdy lv)))
      * (zdc o i j k - zdc o0 i j k).
Proof.
  intros lv p bb o o0 w fl a sx sy sz i j k He Hf Hok Hb Hx Hg Hlin Hgh Hc.
  rewrite (corrected_once_z lv p bb o o0 w fl i j k He Hf Hok Hb Hc).
  destruct Hok as ((Hr0 & Hr1 & Hr2) & (Hne & Hne2 & Hne3) & (Al1 & Al2) & (Al3 & Al4) & (Al5 & Al6) & Hp & _).
  assert (P0 : (0 < ratio2 lv)%Z) by lia. assert (P1 : (0 < ratio0 lv)%Z) by lia. assert (P2 : (0 < ratio1 lv)%Z) by lia.
  assert (R0 : 0 < 1 + IZR (ratio2 lv)) by (apply (IZR_lt 0) in P0; lra).
  destruct (Hp bb Hb) as [(Hloc & _) | [(Hloc & _) | (Hloc & [Ha Hl] & [Hb' Hm])]]; [destruct Hc as [Hc _]; exfalso; lia | destruct Hc as [Hc _]; exfalso; lia |].
  rewrite (proj1 (ewing_z_val p bb (ratio0 lv) (ratio1 lv) (ratio2 lv) (gdz lv) (zdc o0) w _ i j k P1 P2 (aligned_length _ _ _ P1 Ha) (aligned_length _ _ _ P2 Hb')) Hc).
  destruct Hc as [Hc [Hj Hk]]. pose proof Hj as Hj0. pose proof Hk as Hk0. unfold along0 in Hj. unfold along1 in Hk.
  set (b1 := Z.max (blo0 bb) (ilo p)) in *. set (e1 := Z.min (bhi0 bb) (ihi p)) in *.
  set (b2 := Z.max (blo1 bb) (jlo p)) in *. set (e2 := Z.min (bhi1 bb) (jhi p)) in *.
  pose proof (opposite_in b1 e1 (ratio0 lv) i P1 Ha Hj) as Ho1. pose proof (opposite_in b2 e2 (ratio1 lv) j P2 Hb' Hk) as Ho2.
  assert (I1 : (ilo p <= i <= ihi p)%Z) by (unfold b1, e1 in Hj; lia). assert (I2 : (jlo p <= j <= jhi p)%Z) by (unfold b2, e2 in Hk; lia).
  assert (O1 : (ilo p <= opposite b1 (ratio0 lv) i <= ihi p)%Z) by (unfold b1, e1 in Ho1 |- *; lia).
  assert (O2 : (jlo p <= opposite b2 (ratio1 lv) j <= jhi p)%Z) by (unfold b2, e2 in Ho2 |- *; lia).
  pose proof (opposite_centre b1 (ratio0 lv) i (pdx lv) P1 (proj1 Ha)) as Ec1. pose proof (opposite_centre b2 (ratio1 lv) j (pdy lv) P2 (proj1 Hb')) as Ec2.
  destruct Hc as [[L0 Ei] | [L1 Ei]].
  - rewrite L0, !Z.eqb_refl. destruct Hloc as [[_ Eb] | [Hl0 _]]; [| lia]. assert (Eii : k = klo p) by lia. clear Ei. subst k.
    rewrite compflux_z_val by lia.
    rewrite (Hlin i j (klo p)) by (unfold inside; lia). rewrite (Hlin (opposite b1 (ratio0 lv) i) (opposite b2 (ratio1 lv) j) (klo p)) by (unfold inside; lia).
    rewrite (Hgh i j (klo p - 1)%Z) by (right; right; split; [left; split; lia | split; [exact Hj0 | exact Hk0]]). rewrite (coarse_below (klo p)) by auto.
    unfold linear_at. rewrite Ec1, Ec2. unfold centre. field. lra.
  - destruct Hloc as [[Hl0 _] | [_ Eb]]; [lia |]. destruct (Z.eqb_spec (location bb) 4); [lia |]. assert (Eii : k = (khi p + 1)%Z) by lia. clear Ei. subst k.
    replace (khi p + 1 - 1)%Z with (khi p) by lia.
    rewrite compflux_z_val by lia. replace (khi p + 1 - 1)%Z with (khi p) by lia.
    rewrite (Hlin i j (khi p)) by (unfold inside; lia). rewrite (Hlin (opposite b1 (ratio0 lv) i) (opposite b2 (ratio1 lv) j) (khi p)) by (unfold inside; lia).
    rewrite (Hgh i j (khi p + 1)%Z) by (right; right; split; [right; split; lia | split; [exact Hj0 | exact Hk0]]). rewrite (coarse_above (khi p + 1)%Z) by auto.
    unfold linear_at. rewrite Ec1, Ec2. unfold centre. rewrite plus_IZR. field. lra.
Qed.

Lemma ewing_exact : forall lv p bb o w fl a sx sy sz, ewing lv = true -> finer lv = true -> cf_boundary_ok lv p -> In bb (cf_boundary p) ->
  one_spacing lv -> linear_inside lv p w a sx sy sz -> coarse_ghosts lv p bb w a sx sy sz ->
  (forall i j k, corrects_x p bb i j k -> fx (flux_on_patch lv p o o w fl) i j k = xdc o i j k * sx) /\
  (forall i j k, corrects_y p bb i j k -> fy (flux_on_patch lv p o o w fl) i j k = ydc o i j k * sy) /\
  (forall i j k, corrects_z p bb i j k -> fz (flux_on_patch lv p o o w fl) i j k = zdc o i j k * sz).
Proof.
  intros lv p bb o w fl a sx sy sz He Hf Hok Hb (Hx & Hy & Hz & Ex & Ey & Ez) Hl Hg. split; [| split]; intros i j k Hc.
  - rewrite (ewing_linear_x lv p bb o o w fl a sx sy sz) by (auto; lra). rewrite Ex, Rminus_eq_0, Rmult_0_r. field. lra.
  - rewrite (ewing_linear_y lv p bb o o w fl a sx sy sz) by (auto; lra). rewrite Ey, Rminus_eq_0, Rmult_0_r. field. lra.
  - rewrite (ewing_linear_z lv p bb o o w fl a sx sy sz) by (auto; lra). rewrite Ez, Rminus_eq_0, Rmult_0_r. field. lra.
Qed.
(** with the spacing of the grid geometry, as in the code, the flux is too small by the ratio to level 0 *)
Lemma ewing_spacing : forall lv p bb o w fl a sx sy sz r, ewing lv = true -> finer lv = true -> cf_boundary_ok lv p -> In bb (cf_boundary p) ->
  0 < pdx lv -> 0 < pdy lv -> 0 < pdz lv -> 1 < r -> gdx lv = r * pdx lv -> gdy lv = r * pdy lv -> gdz lv = r * pdz lv ->
  linear_inside lv p w a sx sy sz -> coarse_ghosts lv p bb w a sx sy sz ->
  (forall i j k, corrects_x p bb i j k -> fx (flux_on_patch lv p o o w fl) i j k = xdc o i j k * sx / r) /\
  (forall i j k, corrects_y p bb i j k -> fy (flux_on_patch lv p o o w fl) i j k = ydc o i j k * sy / r) /\
  (forall i j k, corrects_z p bb i j k -> fz (flux_on_patch lv p o o w fl) i j k = zdc o i j k * sz / r) /\
  (forall d, d <> 0 -> d / r <> d).
Proof.
  intros lv p bb o w fl a sx sy sz r He Hf Hok Hb Hx Hy Hz Hr Ex Ey Ez Hl Hg.
  assert (Q : / r < 1) by (rewrite <- Rinv_1; apply Rinv_lt_contravar; lra).
  assert (Qx : 0 < gdx lv) by (rewrite Ex; apply Rmult_lt_0_compat; lra). assert (Qy : 0 < gdy lv) by (rewrite Ey; apply Rmult_lt_0_compat; lra).
  assert (Qz : 0 < gdz lv) by (rewrite Ez; apply Rmult_lt_0_compat; lra).
  split; [| split; [| split]]; [intros i j k Hc .. | intros d Hne E].
  - rewrite (ewing_linear_x lv p bb o o w fl a sx sy sz) by auto. rewrite Ex, Rminus_eq_0, Rmult_0_r, Rplus_0_r. field. lra.
  - rewrite (ewing_linear_y lv p bb o o w fl a sx sy sz) by auto. rewrite Ey, Rminus_eq_0, Rmult_0_r, Rplus_0_r. field. lra.
  - rewrite (ewing_linear_z lv p bb o o w fl a sx sy sz) by auto. rewrite Ez, Rminus_eq_0, Rmult_0_r, Rplus_0_r. field. lra.
  - unfold Rdiv in E. assert (G : d * (1 - / r) = 0) by lra. apply Rmult_integral in G. destruct G; [auto | lra].
Qed.
(** the other components are corrected with the diffusion of the first *)
Lemma ewing_component : forall lv p bb o o0 w fl a sx sy sz i j k, ewing lv = true -> finer lv = true -> cf_boundary_ok lv p -> In bb (cf_boundary p) ->
  one_spacing lv -> linear_inside lv p w a sx sy sz -> coarse_ghosts lv p bb w a sx sy sz -> corrects_x p bb i j k ->
  sy * (centre j (pdy lv) - coarse_centre j (ratio1 lv) (pdy lv)) + sz * (centre k (pdz lv) - coarse_centre k (ratio2 lv) (pdz lv)) <> 0 ->
  xdc o i j k <> xdc o0 i j k ->
  fx (flux_on_patch lv p o o0 w fl) i j k <> xdc o i j k * sx.
Proof.
  intros lv p bb o o0 w fl a sx sy sz i j k He Hf Hok Hb (Hx & Hy & Hz & Ex & Ey & Ez) Hl Hg Hc Hcc Hne E.
  rewrite (ewing_linear_x lv p bb o o0 w fl a sx sy sz) in E by (auto; lra). rewrite Ex in E.
  assert (R0 : 0 < 1 + IZR (ratio0 lv)) by (destruct Hok as ((H0 & _) & _); apply IZR_le in H0; lra).
  replace (xdc o i j k * sx * (pdx lv / pdx lv)) with (xdc o i j k * sx) in E by (field; lra).
  revert Hcc E. set (m := sy * _ + _). intros Hcc E.
  assert (G : (if (location bb =? 0)%Z then 1 else -1) * (2 / (1 + IZR (ratio0 lv)) / pdx lv) * m * (xdc o i j k - xdc o0 i j k) = 0) by lra.
  assert (0 < 2 / (1 + IZR (ratio0 lv)) / pdx lv) by (apply Rdiv_lt_0_compat; [apply Rdiv_lt_0_compat; lra | lra]).
  destruct (location bb =? 0)%Z; repeat (apply Rmult_integral in G; destruct G as [G | G]; try lra).
Qed.

(** * The phase block *)
Lemma well_below : forall x, -16 <= 32 * (1 + 6 * x * (x - 1)).
Proof. intro x. pose proof (pow2_ge_0 (2 * x - 1)). nra. Qed.
Lemma phase_coefs_val : forall p phi m eps gamma W t cold o i j k, phase_coefs p phi m eps gamma W t cold = Some o -> inside p i j k ->
  (forall a b c, xdc o a b c = - gamma * eps * eps) /\ (forall a b c, ydc o a b c = - gamma * eps * eps) /\ (forall a b c, zdc o a b c = - gamma * eps * eps) /\ mob o = m /\
  exists g, second_deriv_well_func (phi i j k) t = Some g /\ sfield o i j k = 1 + gamma * m i j k * W * g.
Proof.
  intros p phi m eps gamma W t cold o i j k E (Hi & Hj & Hk). unfold phase_coefs in E.
  destruct (second_deriv_well_func 0 t) eqn:E0; [| discriminate]. injection E as <-. cbn [xdc ydc zdc mob sfield]. split; [auto |]. split; [auto |]. split; [auto |]. split; [auto |].
  assert (Q : exists g : R -> R, forall x, second_deriv_well_func x t = Some (g x)).
  { unfold second_deriv_well_func in E0 |- *.
    destruct t as [[] [] [] [] [] [] [] []]; try discriminate; eexists; intro x; reflexivity. }
  destruct Q as (g & Q). exists (g (phi i j k)). split; [apply Q |].
  replace (fun i0 j0 k0 s => match second_deriv_well_func (phi i0 j0 k0) t with Some g0 => upd3 s i0 j0 k0 (1 + gamma * m i0 j0 k0 * W * g0) | None => s end)
    with (fun i0 j0 k0 (s : arr3) => upd3 s i0 j0 k0 ((fun a b c (_ : R) => 1 + gamma * m a b c * W * g (phi a b c)) i0 j0 k0 (s i0 j0 k0)))
    by (do 4 (apply functional_extensionality; intro); rewrite Q; reflexivity).
  rewrite (cells3_loop _ _ _ _ _ _ (fun a b c (_ : R) => 1 + gamma * m a b c * W * g (phi a b c))), !inb_true by lia. reflexivity.
Qed.
Lemma phase_block_solvable : forall lv gh p phi m eps gamma W Mmax cold o rhs fl,
  finer lv = false -> one_spacing lv -> patches lv = [p] -> (0 <= ilo p + jlo p + klo p)%Z -> tame lv gh -> 0 <= gamma -> 0 <= W ->
  (forall i j k, inside p i j k -> 0 <= m i j k <= Mmax) -> 0 <= Mmax -> 16 * gamma * Mmax * W < 1 ->
  phase_coefs p phi m eps gamma W "d" cold = Some o ->
  exists v, solves (1 / (pdx lv * pdx lv)) (1 / (pdy lv * pdy lv)) (1 / (pdz lv * pdz lv)) lv gh o rhs v /\
    (forall v', solves (1 / (pdx lv * pdx lv)) (1 / (pdy lv * pdy lv)) (1 / (pdz lv * pdz lv)) lv gh o rhs v' -> within lv v v' 0) /\
    (forall u eps', 0 < eps' -> exists N, forall n, (N <= n)%nat -> within lv (smoothErrorByRedBlack lv gh o rhs fl n (-1) u) v eps').
Proof.
  intros lv gh p phi m eps gamma W Mmax cold o rhs fl Hf Ho Ep Hc0 Hgh Hg HW Hm HM Hsmall Eo.
  pose (S3 := 2 / (pdx lv * pdx lv) + 2 / (pdy lv * pdy lv) + 2 / (pdz lv * pdz lv)).
  pose proof Ho as (Hx & Hy & Hz & _).
  assert (HS : 0 <= S3).
  { unfold S3. assert (Q : forall h, 0 < h -> 0 <= 2 / (h * h)) by (intros h Hh; apply Rlt_le, Rdiv_lt_0_compat; nra).
    pose proof (Q _ Hx). pose proof (Q _ Hy). pose proof (Q _ Hz). lra. }
  assert (HP : positive_problem lv o (1 - 16 * gamma * Mmax * W) (Mmax * (gamma * eps * eps) * S3)).
  { split; [lra |]. intros i j k (q & Hq & Hi). rewrite Ep in Hq. destruct Hq as [<- | []].
    destruct (phase_coefs_val p phi m eps gamma W "d" cold o i j k Eo Hi) as (Dx & Dy & Dz & Em & g & Eg & Es).
    rewrite !Dx, !Dy, !Dz, Em, Es. pose proof (Hm i j k Hi) as Hmi.
    assert (Ge : 0 <= gamma * eps * eps) by (rewrite Rmult_assoc; apply Rmult_le_pos; [auto | nra]).
    assert (Eg' : g = 32 * (1 + 6 * phi i j k * (phi i j k - 1))) by (cbn in Eg; injection Eg as <-; ring).
    pose proof (well_below (phi i j k)) as Wb. rewrite <- Eg' in Wb.
    assert (T : 0 <= gamma * m i j k * W) by (apply Rmult_le_pos; [apply Rmult_le_pos |]; lra).
    assert (T2 : gamma * m i j k * W <= gamma * Mmax * W) by (apply Rmult_le_compat_r; [lra |]; apply Rmult_le_compat_l; lra).
    split; [lra |]. do 6 (split; [lra |]). split; [nra |].
    replace (- m i j k * ((- gamma * eps * eps + - gamma * eps * eps) / (pdx lv * pdx lv) + (- gamma * eps * eps + - gamma * eps * eps) / (pdy lv * pdy lv)
       + (- gamma * eps * eps + - gamma * eps * eps) / (pdz lv * pdz lv))) with (m i j k * (gamma * eps * eps) * S3) by (unfold S3; field; lra).
    apply Rmult_le_compat_r; [auto |]. apply Rmult_le_compat_r; lra. }
  assert (Hd : disjoint lv) by (unfold disjoint; rewrite Ep; repeat constructor).
  assert (Hn : nonneg_corners lv) by (intros q Hq; rewrite Ep in Hq; destruct Hq as [<- | []]; exact Hc0).
  destruct (smoothing_converges_coarsest lv gh o rhs fl _ _ Hd Hn Hf Ho Hgh HP) as (v & H1 & H2 & _ & H4). exists v. auto.
Qed.

Lemma smoothing_converges_levels : forall lv gh o rhs fl c0 K,
  disjoint lv -> nonneg_corners lv -> plain lv -> spacing lv -> tame lv gh -> positive_problem lv o c0 K ->
  exists v, solves (1 / (gdx lv * pdx lv)) (1 / (gdy lv * pdy lv)) (1 / (gdz lv * pdz lv)) lv gh o rhs v /\
    (forall v', solves (1 / (gdx lv * pdx lv)) (1 / (gdy lv * pdy lv)) (1 / (gdz lv * pdz lv)) lv gh o rhs v' -> within lv v v' 0) /\
    (forall n tol u E, tol < 0 -> 0 <= E -> within lv u v E -> within lv (smoothErrorByRedBlack lv gh o rhs fl n tol u) v ((K / (K + c0)) ^ n * E)) /\
    (forall u eps, 0 < eps -> exists N, forall n, (N <= n)%nat -> within lv (smoothErrorByRedBlack lv gh o rhs fl n (-1) u) v eps).
Proof. exact smoothing_converges. Qed.
Lemma early_end_levels : forall lv gh o rhs fl c0 K p v, patches lv = [p] ->
  nonneg_corners lv -> plain lv -> spacing lv -> tame lv gh -> positive_problem lv o c0 K ->
  solves (1 / (gdx lv * pdx lv)) (1 / (gdy lv * pdy lv)) (1 / (gdz lv * pdz lv)) lv gh o rhs v ->
  forall n tol u E, 0 <= tol -> 0 <= E -> within lv u v E ->
  within lv (smoothErrorByRedBlack lv gh o rhs fl n tol u) v (tol / c0) \/
  within lv (smoothErrorByRedBlack lv gh o rhs fl n tol u) v ((K / (K + c0)) ^ n * E).
Proof. exact early_end. Qed.
(** a pass of one colour on a level makes the residual zero in the cells of that colour *)
Lemma pass_no_residual : forall lv gh o rhs fl off u res i j k, (off = 0 \/ off = 1)%Z ->
  disjoint lv -> nonneg_corners lv -> plain lv -> one_spacing lv -> checkerboard lv gh -> nonsingular lv o ->
  cell lv i j k -> ((i + j + k) mod 2 = off)%Z ->
  level_residual lv gh o rhs fl (fst (color_pass lv gh o rhs fl off u)) res i j k = 0.
Proof.
  intros lv gh o rhs fl off u res i j k Hoff Hd Hn Hpl Ho Hcb Hns Hc Hm.
  destruct (pass_solves_colour lv gh o rhs fl off u Hoff Hd Hn Hpl Ho Hcb Hns) as [H _].
  pose proof Hc as (p & Hp & Hi). rewrite (residual_val lv gh o rhs fl _ p) by auto. unfold resid.
  rewrite residual_operator, operator_level by (auto; apply one_spacing_spacing; auto).
  rewrite (H _ (fill_extends lv gh _) i j k Hc Hm). ring.
Qed.
