From Coq Require Import Reals ZArith List Bool Ascii Lia Lra Psatz FunctionalExtensionality.
From Coquelicot Require Import Coquelicot.
From Verif Require Import Grid_Model Grid_Proofs Functions_Model Elliptic_Model Elliptic_Spec.
Import ListNotations.
Open Scope R_scope.

(** * Loops *)
Lemma in_patch_iff : forall p i j, in_patch p i j = true <-> inside p i j.
Proof.
  intros p i j. unfold in_patch, inside. rewrite !andb_true_iff, !Z.leb_le. lia.
Qed.
Lemma in_patch_spec : forall p i j, reflect (inside p i j) (in_patch p i j).
Proof. intros p i j. apply iff_reflect. symmetry. apply in_patch_iff. Qed.
Lemma in_level_iff : forall lv i j, in_level lv i j = true <-> cell lv i j.
Proof.
  intros lv i j. unfold in_level, cell. rewrite existsb_exists. split; intros (p & H1 & H2); exists p; split; auto; apply in_patch_iff; auto.
Qed.
Lemma in_level_spec : forall lv i j, reflect (cell lv i j) (in_level lv i j).
Proof. intros. apply iff_reflect. symmetry. apply in_level_iff. Qed.

(** the cells of a row that a pass visits *)
Definition visited (lo hi a : Z) : Prop := (lo <= a <= hi /\ (a - lo) mod 2 = 0)%Z.
Lemma visited_dec : forall lo hi a, {visited lo hi a} + {~ visited lo hi a}.
Proof.
  intros lo hi a. unfold visited. destruct (Z_le_dec lo a); [| right; lia]. destruct (Z_le_dec a hi); [| right; lia].
  destruct (Z.eq_dec ((a - lo) mod 2) 0); [left; lia | right; lia].
Qed.

Section Pass.
  Variables (p : patch) (dx dy : R) (o : coefs) (fl : arr2 * arr2) (rhs : arr2) (off : Z).
  Let body (j i : Z) (s : arr2 * R) : arr2 * R :=
    let residual := residual_cell dx dy o fl rhs (fst s) i j in
    let du := - residual * dudr dx dy o i j in
    (upd2 (fst s) i j (fst s i j + du), if Rlt_dec (snd s) (Rabs residual) then Rabs residual else snd s).
  Let new (u : arr2) (i j : Z) : R := u i j + - residual_cell dx dy o fl rhs u i j * dudr dx dy o i j.
  Let resid (u : arr2) (i j : Z) : R := Rabs (residual_cell dx dy o fl rhs u i j).

  Lemma residual_local : forall u u' i j, u i j = u' i j -> residual_cell dx dy o fl rhs u i j = residual_cell dx dy o fl rhs u' i j.
  Proof. intros u u' i j H. unfold residual_cell. rewrite H. reflexivity. Qed.

  (** the invariant of the loops: P holds for the cells done *)
  Definition done_inv (u : arr2) (D : Z -> Z -> Prop) (s : arr2 * R) (m0 : R) : Prop :=
    (forall a b, D a b -> fst s a b = new u a b) /\ (forall a b, ~ D a b -> fst s a b = u a b) /\
    (forall M, snd s <= M <-> (m0 <= M /\ forall a b, D a b -> resid u a b <= M)).

  Lemma body_inv : forall u (D : Z -> Z -> Prop) s m0 i j, ~ D i j -> done_inv u D s m0 ->
    done_inv u (fun a b => D a b \/ (a = i /\ b = j)) (body j i s) m0.
  Proof.
    intros u D s m0 i j Hn (H1 & H2 & H3). unfold body, done_inv. cbn [fst snd].
    assert (E : fst s i j = u i j) by (apply H2; auto).
    rewrite (residual_local (fst s) u i j E). split; [| split].
    - intros a b [H | [-> ->]].
      + rewrite upd2_other; [auto |]. destruct (Z.eq_dec a i); [| left; auto]. destruct (Z.eq_dec b j); [| right; auto]. subst. contradiction.
      + rewrite upd2_same, E. reflexivity.
    - intros a b H. rewrite upd2_other; [apply H2; tauto |].
      destruct (Z.eq_dec a i); [| left; auto]. destruct (Z.eq_dec b j); [| right; auto]. subst. exfalso. tauto.
    - intro M. fold (resid u i j). destruct (Rlt_dec (snd s) (resid u i j)) as [L | L]; split.
      + intro H. assert (H' : snd s <= M) by lra. apply H3 in H'. destruct H' as [H4 H5]. split; auto.
        intros a b [Hd | [-> ->]]; auto.
      + intros [_ H]. apply H. auto.
      + intro H. pose proof H as H'. apply H3 in H'. destruct H' as [H4 H5]. split; auto.
        intros a b [Hd | [-> ->]]; auto. lra.
      + intros [H4 H5]. apply H3. split; auto.
  Qed.
  Lemma inv_ext : forall u (D D' : Z -> Z -> Prop) s m0, (forall a b, D a b <-> D' a b) -> done_inv u D s m0 -> done_inv u D' s m0.
  Proof.
    intros u D D' s m0 E (H1 & H2 & H3). split; [| split].
    - intros a b H. apply H1, E, H.
    - intros a b H. apply H2. rewrite E. exact H.
    - intro M. rewrite H3. split; intros [Ha Hb]; split; auto; intros a b H; apply Hb; apply E; auto.
  Qed.

  Lemma row_inv : forall u (D : Z -> Z -> Prop) s m0 lo hi j, (forall a, ~ D a j) -> done_inv u D s m0 ->
    done_inv u (fun a b => D a b \/ (visited lo hi a /\ b = j)) (do_step lo hi 2%Z (body j) s) m0.
  Proof.
    intros u D s m0 lo hi j Hn H. unfold do_step.
    pose proof (do_loop_ind _ (fun k s => done_inv u (fun a b => D a b \/ ((lo <= a <= lo + k * 2 /\ (a - lo) mod 2 = 0)%Z /\ b = j)) s m0)
      0%Z ((hi - lo) / 2)%Z (fun k => body j (lo + k * 2)%Z) s) as I.
    refine (inv_ext _ _ _ _ _ _ (I _ _)).
    - intros a b. unfold visited. split; intros [Hd | [[H1 H2] ->]]; auto; right; split; auto; split; auto.
      + destruct (Z.max_spec (0 - 1) ((hi - lo) / 2)) as [[Ha Hb] | [Ha Hb]]; rewrite Hb in H1; [| lia].
        pose proof (Z.mul_div_le (hi - lo) 2). lia.
      + assert (0 <= (hi - lo) / 2)%Z by (apply Z.div_pos; lia). rewrite Z.max_r by lia.
        pose proof (Z.div_mod (a - lo) 2). assert ((a - lo) / 2 <= (hi - lo) / 2)%Z by (apply Z.div_le_mono; lia). lia.
    - eapply inv_ext; [| exact H]. intros a b. split; [auto |]. intros [Hd | [[H1 _] _]]; auto. lia.
    - intros k s' Hk IH. eapply inv_ext; [| apply body_inv; [| exact IH]].
      + intros a b. cbv beta. split.
        * intros [[Hd | [[H1 H2] ->]] | [-> ->]]; auto; right; split; auto; try lia.
          split; [lia |]. replace (lo + k * 2 - lo)%Z with (k * 2)%Z by lia. apply Z.mod_mul. lia.
        * intros [Hd | [[H1 H2] ->]]; auto.
          destruct (Z_le_dec a (lo + (k - 1) * 2)); [left; right; split; auto; lia |].
          right. split; auto. pose proof (Z.div_mod (a - lo) 2). lia.
      + cbv beta. intros [Hd | [[H1 _] _]]; [apply (Hn _ Hd) | lia].
  Qed.

  Definition relaxed (a b : Z) : Prop := visited (rbgs_row_start p off b) (ihi p) a /\ (jlo p <= b <= jhi p)%Z.
  Lemma rbgs_inv : forall u, done_inv u relaxed (rbgs p dx dy o fl rhs off u) 0.
  Proof.
    intro u. unfold rbgs.
    pose proof (do_loop_ind _ (fun j s => done_inv u (fun a b => visited (rbgs_row_start p off b) (ihi p) a /\ (jlo p <= b <= j)%Z) s 0)
      (jlo p) (jhi p) (fun j => do_step (rbgs_row_start p off j) (ihi p) 2%Z (body j)) (u, 0)) as I.
    refine (inv_ext _ _ _ _ _ _ (I _ _)).
    - intros a b. unfold relaxed. destruct (Z.max_spec (jlo p - 1) (jhi p)) as [[Ha Hb] | [Ha Hb]]; rewrite Hb; intuition lia.
    - split; [| split]; cbn [fst snd].
      + intros a b H. lia.
      + reflexivity.
      + intro M. split; [intro H; split; auto; intros a b [_ H']; lia | intros [H _]; exact H].
    - intros j s Hj IH. eapply inv_ext; [| apply row_inv; [| exact IH]].
      + intros a b. cbv beta. split.
        * intros [[H1 H2] | [H1 ->]]; split; auto; lia.
        * intros [H1 H2]. destruct (Z.eq_dec b j) as [-> | Hb]; [right | left]; split; auto. lia.
      + cbv beta. intros a [_ H]. lia.
  Qed.
  Lemma rbgs_relaxed : forall u a b, relaxed a b -> fst (rbgs p dx dy o fl rhs off u) a b = new u a b.
  Proof. intros u. apply (rbgs_inv u). Qed.
  Lemma rbgs_kept : forall u a b, ~ relaxed a b -> fst (rbgs p dx dy o fl rhs off u) a b = u a b.
  Proof. intros u. apply (rbgs_inv u). Qed.
  Lemma rbgs_max : forall u M, snd (rbgs p dx dy o fl rhs off u) <= M <-> (0 <= M /\ forall a b, relaxed a b -> resid u a b <= M).
  Proof. intros u. apply (rbgs_inv u). Qed.
End Pass.

Lemma relaxed_dec : forall p off a b, {relaxed p off a b} + {~ relaxed p off a b}.
Proof.
  intros p off a b. unfold relaxed. destruct (visited_dec (rbgs_row_start p off b) (ihi p) a); [| right; tauto].
  destruct (Z_le_dec (jlo p) b); [| right; lia]. destruct (Z_le_dec b (jhi p)); [left; tauto | right; lia].
Qed.
Lemma row_start_cases : forall p off j, (0 <= jlo p)%Z -> (jlo p <= j)%Z ->
  rbgs_row_start p off j = if ((jlo p + j) mod 2 =? off)%Z then ilo p else (ilo p + 1)%Z.
Proof.
  intros p off j H1 H2. unfold rbgs_row_start. rewrite Z.quot_div_nonneg by lia.
  replace (jlo p + j - (jlo p + j) / 2 * 2)%Z with ((jlo p + j) mod 2)%Z; [reflexivity |].
  pose proof (Z.div_mod (jlo p + j) 2). lia.
Qed.
Lemma relaxed_inside : forall p off i j, relaxed p off i j -> inside p i j.
Proof.
  intros p off i j [[H1 _] H2]. split; auto. unfold rbgs_row_start in H1. destruct (_ =? off)%Z; lia.
Qed.
(** the colour of a cell *)
Definition colour (p : patch) (i j : Z) : Z := ((jlo p + j + (i - ilo p)) mod 2)%Z.
Lemma colour_cases : forall p i j, colour p i j = 0%Z \/ colour p i j = 1%Z.
Proof. intros. unfold colour. pose proof (Z.mod_pos_bound (jlo p + j + (i - ilo p)) 2). lia. Qed.
Lemma relaxed_iff : forall p off i j, (0 <= jlo p)%Z -> inside p i j -> (off = 0 \/ off = 1)%Z -> (relaxed p off i j <-> off = colour p i j).
Proof.
  intros p off i j H (Hi & Hj) Ho. unfold relaxed, visited. rewrite row_start_cases by lia. unfold colour.
  pose proof (Z.mod_pos_bound (jlo p + j) 2). pose proof (Z.div_mod (jlo p + j) 2).
  pose proof (Z.mod_pos_bound (jlo p + j + (i - ilo p)) 2). pose proof (Z.div_mod (jlo p + j + (i - ilo p)) 2).
  destruct (Z.eqb_spec ((jlo p + j) mod 2) off) as [E | E].
  - pose proof (Z.mod_pos_bound (i - ilo p) 2). pose proof (Z.div_mod (i - ilo p) 2). lia.
  - pose proof (Z.mod_pos_bound (i - (ilo p + 1)) 2). pose proof (Z.div_mod (i - (ilo p + 1)) 2).
    split; [lia |]. intro E2. split; [| lia]. split; [| lia].
    destruct (Z.eq_dec i (ilo p)); [| lia]. exfalso. subst i. lia.
Qed.

(** * The fluxes and the residual without flux correction *)
Lemma compflux_x_val : forall p dx dc w f i j, (ilo p <= i <= ihi p + 1)%Z -> (jlo p <= j <= jhi p)%Z ->
  compflux_x p dx dc w f i j = 1 / dx * dc i j * (w i j - w (i - 1)%Z j).
Proof.
  intros p dx dc w f i j Hi Hj. unfold compflux_x.
  rewrite (cells_loop (ilo p) (ihi p + 1) (jlo p) (jhi p) (fun i j _ => 1 / dx * dc i j * (w i j - w (i - 1)%Z j))).
  destruct (inb_spec (ilo p) (ihi p + 1) i); [| lia]. destruct (inb_spec (jlo p) (jhi p) j); [| lia]. reflexivity.
Qed.
Lemma compflux_y_val : forall p dy dc w f i j, (ilo p <= i <= ihi p)%Z -> (jlo p <= j <= jhi p + 1)%Z ->
  compflux_y p dy dc w f i j = 1 / dy * dc i j * (w i j - w i (j - 1)%Z).
Proof.
  intros p dx dc w f i j Hi Hj. unfold compflux_y.
  rewrite (cells_loop (ilo p) (ihi p) (jlo p) (jhi p + 1) (fun i j _ => 1 / dx * dc i j * (w i j - w i (j - 1)%Z))).
  destruct (inb_spec (ilo p) (ihi p) i); [| lia]. destruct (inb_spec (jlo p) (jhi p + 1) j); [| lia]. reflexivity.
Qed.
Lemma flux_plain : forall lv p o o0 w fl, plain lv ->
  flux_on_patch lv p o o0 w fl = (compflux_x p (gdx lv) (xdc o) w (fst fl), compflux_y p (gdy lv) (ydc o) w (snd fl)).
Proof. intros lv p o o0 w fl H. unfold flux_on_patch. rewrite H. reflexivity. Qed.

Definition code_ax (lv : level) : R := 1 / (gdx lv * pdx lv).
Definition code_ay (lv : level) : R := 1 / (gdy lv * pdy lv).
Lemma residual_operator : forall lv p o w fl rhs i j, plain lv -> gdx lv <> 0 -> gdy lv <> 0 -> pdx lv <> 0 -> pdy lv <> 0 ->
  inside p i j ->
  residual_cell (pdx lv) (pdy lv) o (flux_on_patch lv p o o w fl) rhs w i j = rhs i j - operator (code_ax lv) (code_ay lv) o w i j.
Proof.
  intros lv p o w fl rhs i j Hp H1 H2 H3 H4 (Hi & Hj). unfold residual_cell. rewrite flux_plain by auto. cbn [fst snd].
  rewrite !compflux_x_val, !compflux_y_val by lia. replace (i + 1 - 1)%Z with i by lia. replace (j + 1 - 1)%Z with j by lia.
  unfold operator, code_ax, code_ay. field. repeat split; auto.
Qed.

(** * One colour on the level *)
Lemma fop_split : forall (A : Type) (R : A -> A -> Prop) l1 x l2, ForallOrdPairs R (l1 ++ x :: l2) ->
  (forall y, In y l1 -> R y x) /\ (forall y, In y l2 -> R x y).
Proof.
  induction l1 as [| a l1 IH]; intros x l2 H; inversion H; subst; clear H.
  - split; [contradiction |]. apply Forall_forall. auto.
  - destruct (IH x l2 H3) as [Ha Hb]. split; auto. intros y [-> | Hy]; auto.
    rewrite Forall_forall in H2. apply H2. apply in_or_app. right. left. reflexivity.
Qed.

Section Level.
  Variables (lv : level) (gh : Z -> Z -> ghost) (o : coefs) (rhs : arr2) (fl : arr2 * arr2).
  Let W u := fill lv gh u.
  Let F p u := flux_on_patch lv p o o (W u) fl.
  Let step off u (s : arr2 * R) p :=
    let f := flux_on_patch lv p o o (W u) fl in
    let r := rbgs p (pdx lv) (pdy lv) o f rhs off (W u) in (store_patch p (fst r) (fst s), snd r).

  Lemma fill_cell : forall u i j, cell lv i j -> fill lv gh u i j = u i j.
  Proof. intros u i j H. unfold fill. destruct (in_level_spec lv i j); [reflexivity | contradiction]. Qed.
  Lemma fill_ghost : forall u i j, ~ cell lv i j ->
    fill lv gh u i j = factor (gh i j) * u (src0 (gh i j)) (src1 (gh i j)) + offset_value (gh i j).
  Proof. intros u i j H. unfold fill. destruct (in_level_spec lv i j); [contradiction | reflexivity]. Qed.
  Lemma fill_extends : forall u, extends lv gh u (fill lv gh u).
  Proof. intro u. split; intros i j H; [apply fill_cell | apply fill_ghost]; auto. Qed.
  Lemma extends_fill : forall u w, extends lv gh u w -> w = fill lv gh u.
  Proof.
    intros u w [H1 H2]. extensionality i. extensionality j. unfold fill. destruct (in_level_spec lv i j) as [H | H]; auto.
  Qed.

  Lemma fold_out : forall off u l s i j, (forall p, In p l -> ~ inside p i j) ->
    fst (fold_left (step off u) l s) i j = fst s i j.
  Proof.
    induction l as [| q l IH]; intros s i j H; [reflexivity |]. cbn [fold_left]. rewrite IH by (intros p Hp; apply H; right; auto).
    unfold step at 1. cbn [fst]. unfold store_patch. destruct (in_patch_spec q i j) as [Hq | Hq]; [| reflexivity].
    exfalso. apply (H q); [left |]; auto.
  Qed.
  Lemma pass_cell : forall off u p i j, disjoint lv -> In p (patches lv) -> inside p i j ->
    fst (color_pass lv gh o rhs fl off u) i j = fst (rbgs p (pdx lv) (pdy lv) o (F p u) rhs off (W u)) i j.
  Proof.
    intros off u p i j Hd Hp Hi. unfold color_pass. fold (W u). fold (step off u).
    destruct (in_split p (patches lv) Hp) as (l1 & l2 & E). rewrite E. unfold disjoint in Hd. rewrite E in Hd.
    destruct (fop_split _ _ _ _ _ Hd) as [_ Hb]. rewrite fold_left_app. cbn [fold_left].
    rewrite fold_out by (intros q Hq Hiq; apply (Hb q Hq i j); auto).
    unfold step at 1. cbn [fst]. unfold store_patch. destruct (in_patch_spec p i j) as [_ | n]; [| contradiction]. reflexivity.
  Qed.
  Lemma pass_out : forall off u i j, ~ cell lv i j -> fst (color_pass lv gh o rhs fl off u) i j = u i j.
  Proof.
    intros off u i j H. unfold color_pass. fold (W u). fold (step off u). rewrite fold_out; [reflexivity |].
    intros p Hp Hi. apply H. exists p. auto.
  Qed.

  (** the residual of the level in a cell *)
  Definition resid (u : arr2) (p : patch) (i j : Z) : R := residual_cell (pdx lv) (pdy lv) o (F p u) rhs (W u) i j.
  Lemma pass_relaxed : forall off u p i j, disjoint lv -> In p (patches lv) -> relaxed p off i j ->
    fst (color_pass lv gh o rhs fl off u) i j = u i j - resid u p i j * dudr (pdx lv) (pdy lv) o i j.
  Proof.
    intros off u p i j Hd Hp Hr. pose proof (relaxed_inside _ _ _ _ Hr) as Hi. rewrite (pass_cell off u p i j) by auto.
    rewrite rbgs_relaxed by auto. unfold W at 1. rewrite fill_cell by (exists p; auto). fold (resid u p i j). unfold resid. ring.
  Qed.
  Lemma pass_kept : forall off u p i j, disjoint lv -> In p (patches lv) -> inside p i j -> ~ relaxed p off i j ->
    fst (color_pass lv gh o rhs fl off u) i j = u i j.
  Proof.
    intros off u p i j Hd Hp Hi Hr. rewrite (pass_cell off u p i j) by auto. rewrite rbgs_kept by auto.
    unfold W. apply fill_cell. exists p. auto.
  Qed.

  Lemma residual_fold_out : forall l u (r : arr2) i j, (forall p, In p l -> ~ inside p i j) ->
    fold_left (fun r p => compres p (pdx lv) (pdy lv) o (flux_on_patch lv p o o (W u) fl) rhs (W u) r) l r i j = r i j.
  Proof.
    induction l as [| q l IH]; intros u r i j H; [reflexivity |]. cbn [fold_left]. rewrite IH by (intros p Hp; apply H; right; auto).
    unfold compres. rewrite (cells_loop (ilo q) (ihi q) (jlo q) (jhi q)
      (fun i j _ => residual_cell (pdx lv) (pdy lv) o (flux_on_patch lv q o o (W u) fl) rhs (W u) i j)).
    destruct (inb_spec (ilo q) (ihi q) i); [| reflexivity]. destruct (inb_spec (jlo q) (jhi q) j); [| reflexivity].
    exfalso. apply (H q); [left; auto | split; auto].
  Qed.
  Lemma residual_val : forall u p res i j, disjoint lv -> In p (patches lv) -> inside p i j ->
    level_residual lv gh o rhs fl u res i j = resid u p i j.
  Proof.
    intros u p res i j Hd Hp Hi. unfold level_residual. fold (W u).
    destruct (in_split p (patches lv) Hp) as (l1 & l2 & E). rewrite E. unfold disjoint in Hd. rewrite E in Hd.
    destruct (fop_split _ _ _ _ _ Hd) as [_ Hb]. rewrite fold_left_app. cbn [fold_left].
    rewrite residual_fold_out by (intros q Hq Hiq; apply (Hb q Hq i j); auto).
    unfold compres at 1. rewrite (cells_loop (ilo p) (ihi p) (jlo p) (jhi p)
      (fun i j _ => residual_cell (pdx lv) (pdy lv) o (flux_on_patch lv p o o (W u) fl) rhs (W u) i j)).
    destruct Hi as [H1 H2]. destruct (inb_spec (ilo p) (ihi p) i); [| contradiction]. destruct (inb_spec (jlo p) (jhi p) j); [| contradiction].
    reflexivity.
  Qed.

  Definition sweep (u : arr2) : arr2 := fst (color_pass lv gh o rhs fl 1%Z (fst (color_pass lv gh o rhs fl 0%Z u))).
  Lemma dudr_neq0 : forall i j, cell lv i j -> nonsingular lv o -> dudr (pdx lv) (pdy lv) o i j <> 0.
  Proof. intros i j Hc Hn. unfold dudr, Rdiv. rewrite Rmult_1_l. apply Rinv_neq_0_compat. apply Hn; auto. Qed.

  (** * Fixed points *)
  Lemma pass_zero_residual : forall off u, disjoint lv -> (forall p i j, In p (patches lv) -> inside p i j -> resid u p i j = 0) ->
    fst (color_pass lv gh o rhs fl off u) = u.
  Proof.
    intros off u Hd H. extensionality i. extensionality j. destruct (in_level_spec lv i j) as [(p & Hp & Hi) | Hc].
    - destruct (relaxed_dec p off i j) as [Hr | Hr].
      + rewrite (pass_relaxed off u p i j) by auto. rewrite H by auto. ring.
      + apply (pass_kept off u p i j); auto.
    - apply pass_out. auto.
  Qed.
  Lemma sweep_fixed : forall u, disjoint lv -> nonneg_rows lv -> nonsingular lv o ->
    (forall i j, cell lv i j -> sweep u i j = u i j) -> forall p i j, In p (patches lv) -> inside p i j -> resid u p i j = 0.
  Proof.
    intros u Hd Hn Hs H.
    assert (Hred : fst (color_pass lv gh o rhs fl 0%Z u) = u).
    { extensionality i. extensionality j. destruct (in_level_spec lv i j) as [(p & Hp & Hi) | Hc]; [| apply pass_out; auto].
      destruct (relaxed_dec p 0%Z i j) as [Hr | Hr]; [| apply (pass_kept 0%Z u p i j); auto].
      assert (Hb : ~ relaxed p 1%Z i j).
      { intro Hb. apply relaxed_iff in Hb; auto. apply relaxed_iff in Hr; auto. lia. }
      rewrite <- (H i j) by (exists p; auto). unfold sweep.
      symmetry. apply (pass_kept 1%Z _ p i j); auto. }
    intros p i j Hp Hi. assert (Hc : cell lv i j) by (exists p; auto). specialize (H i j Hc).
    unfold sweep in H. rewrite Hred in H.
    assert (G : forall off, relaxed p off i j -> fst (color_pass lv gh o rhs fl off u) i j = u i j -> resid u p i j = 0).
    { intros off Hr E. rewrite (pass_relaxed off u p i j) in E by auto.
      assert (E2 : resid u p i j * dudr (pdx lv) (pdy lv) o i j = 0) by lra.
      apply Rmult_integral in E2. destruct E2 as [E2 | E2]; auto. exfalso. apply (dudr_neq0 i j Hc Hs E2). }
    destruct (colour_cases p i j) as [E | E].
    - apply (G 0%Z); [apply relaxed_iff; auto | rewrite Hred; reflexivity].
    - apply (G 1%Z); [apply relaxed_iff; auto | exact H].
  Qed.
End Level.

Lemma smooth_zero : forall lv gh o rhs fl n tol u, disjoint lv ->
  (forall p i j, In p (patches lv) -> inside p i j -> resid lv gh o rhs fl u p i j = 0) ->
  smoothErrorByRedBlack lv gh o rhs fl n tol u = u.
Proof.
  induction n as [| n IH]; intros tol u Hd H; [reflexivity |]. cbn [smoothErrorByRedBlack].
  rewrite (pass_zero_residual lv gh o rhs fl 0%Z u Hd H), (pass_zero_residual lv gh o rhs fl 1%Z u Hd H), IH by auto.
  destruct (Rle_dec 0 tol); [destruct (Rlt_dec _ _) |]; reflexivity.
Qed.
Lemma smooth_one : forall lv gh o rhs fl tol u, smoothErrorByRedBlack lv gh o rhs fl 1%nat tol u = sweep lv gh o rhs fl u.
Proof. intros. cbn [smoothErrorByRedBlack]. unfold sweep. destruct (Rle_dec 0 tol); [destruct (Rlt_dec _ _) |]; reflexivity. Qed.

(** C82 *)
Lemma smoothing_fixed_points : forall lv gh o rhs fl res u,
  disjoint lv -> nonneg_rows lv -> nonsingular lv o ->
  ((forall n tol, within lv (smoothErrorByRedBlack lv gh o rhs fl n tol u) u 0) <->
   (forall i j, cell lv i j -> level_residual lv gh o rhs fl u res i j = 0)).
Proof.
  intros lv gh o rhs fl res u Hd Hn Hs. split.
  - intros H i j (p & Hp & Hi). rewrite (residual_val _ _ _ _ _ u p) by auto.
    apply (sweep_fixed lv gh o rhs fl u); auto. intros a b Hc. specialize (H 1%nat 0 a b Hc). rewrite smooth_one in H.
    pose proof (Rabs_pos (sweep lv gh o rhs fl u a b - u a b)). apply Rminus_diag_uniq. apply Rabs_eq_0. lra.
  - intros H n tol i j Hc. rewrite smooth_zero; auto.
    + rewrite Rminus_eq_0, Rabs_R0. lra.
    + intros p a b Hp Hi. rewrite <- (residual_val _ _ _ _ _ u p res) by auto. apply H. exists p. auto.
Qed.
Lemma smoothing_one_sweep_fixed : forall lv gh o rhs fl res u tol,
  disjoint lv -> nonneg_rows lv -> nonsingular lv o ->
  within lv (smoothErrorByRedBlack lv gh o rhs fl 1%nat tol u) u 0 ->
  forall i j, cell lv i j -> level_residual lv gh o rhs fl u res i j = 0.
Proof.
  intros lv gh o rhs fl res u tol Hd Hn Hs H i j (p & Hp & Hi). rewrite (residual_val _ _ _ _ _ u p) by auto.
  apply (sweep_fixed lv gh o rhs fl u); auto. intros a b Hc. specialize (H a b Hc). rewrite smooth_one in H.
  pose proof (Rabs_pos (sweep lv gh o rhs fl u a b - u a b)). apply Rminus_diag_uniq. apply Rabs_eq_0. lra.
Qed.

(** * Contraction *)
Lemma weighted_bound : forall t e E, 0 <= t -> Rabs e <= E -> - (t * E) <= t * e <= t * E.
Proof. intros t e E Ht He. apply Rabs_le_between in He. split; nra. Qed.
Lemma relax_bound : forall m d1 d2 d3 d4 C ax ay px py e e1 e2 e3 e4 E K c0,
  0 <= m -> d1 <= 0 -> d2 <= 0 -> d3 <= 0 -> d4 <= 0 -> 0 < c0 -> c0 <= C -> 0 <= ax <= px -> 0 <= ay <= py ->
  Rabs e <= E -> Rabs e1 <= E -> Rabs e2 <= E -> Rabs e3 <= E -> Rabs e4 <= E ->
  - m * (px * (d1 + d2) + py * (d3 + d4)) <= K ->
  Rabs (e + (m * (ax * (d1 * (e1 - e) - d2 * (e - e2)) + ay * (d3 * (e3 - e) - d4 * (e - e4))) + C * e)
            * (1 / (m * (px * (d1 + d2) + py * (d3 + d4)) - C))) <= K / (K + c0) * E.
Proof.
  intros m d1 d2 d3 d4 C ax ay px py e e1 e2 e3 e4 E K c0 Hm H1 H2 H3 H4 Hc0 HC Hx Hy He He1 He2 He3 He4 HK.
  assert (HE : 0 <= E) by (pose proof (Rabs_pos e); lra).
  set (A := - m * (px * (d1 + d2) + py * (d3 + d4))) in *.
  assert (P : forall d, d <= 0 -> 0 <= - m * d) by (intros; nra).
  pose proof (P d1 H1) as P1. pose proof (P d2 H2) as P2. pose proof (P d3 H3) as P3. pose proof (P d4 H4) as P4. clear P.
  set (b1 := - m * d1) in *. set (b2 := - m * d2) in *. set (b3 := - m * d3) in *. set (b4 := - m * d4) in *.
  assert (EA : A = px * (b1 + b2) + py * (b3 + b4)) by (unfold A, b1, b2, b3, b4; ring).
  assert (HA : 0 <= A). { rewrite EA. assert (0 <= px * (b1 + b2)) by (apply Rmult_le_pos; lra). assert (0 <= py * (b3 + b4)) by (apply Rmult_le_pos; lra). lra. }
  set (T := ax * (b1 + b2) + ay * (b3 + b4)).
  assert (HT : T <= A).
  { rewrite EA. unfold T. assert (ax * (b1 + b2) <= px * (b1 + b2)) by (apply Rmult_le_compat_r; lra).
    assert (ay * (b3 + b4) <= py * (b3 + b4)) by (apply Rmult_le_compat_r; lra). lra. }
  set (num := (A - T) * e + (ax * b1) * e1 + (ax * b2) * e2 + (ay * b3) * e3 + (ay * b4) * e4).
  replace (e + (m * (ax * (d1 * (e1 - e) - d2 * (e - e2)) + ay * (d3 * (e3 - e) - d4 * (e - e4))) + C * e)
            * (1 / (m * (px * (d1 + d2) + py * (d3 + d4)) - C))) with (num / (A + C)).
  2: { replace (m * (px * (d1 + d2) + py * (d3 + d4)) - C) with (- (A + C)) by (unfold A; ring).
       unfold num, T. unfold b1, b2, b3, b4. field. lra. }
  assert (HN : Rabs num <= A * E).
  { assert (Q : forall a b, 0 <= a -> 0 <= b -> 0 <= a * b) by (intros; apply Rmult_le_pos; auto).
    pose proof (weighted_bound (A - T) e E ltac:(lra) He).
    pose proof (weighted_bound (ax * b1) e1 E (Q ax b1 (proj1 Hx) P1) He1). pose proof (weighted_bound (ax * b2) e2 E (Q ax b2 (proj1 Hx) P2) He2).
    pose proof (weighted_bound (ay * b3) e3 E (Q ay b3 (proj1 Hy) P3) He3). pose proof (weighted_bound (ay * b4) e4 E (Q ay b4 (proj1 Hy) P4) He4).
    replace (A * E) with ((A - T) * E + ax * b1 * E + ax * b2 * E + ay * b3 * E + ay * b4 * E) by (unfold T; ring).
    apply Rabs_le. unfold num. lra. }
  unfold Rdiv. rewrite Rabs_mult, (Rabs_pos_eq (/ (A + C))) by (apply Rlt_le, Rinv_0_lt_compat; lra).
  apply Rle_trans with (A * E * / (A + C)).
  { apply Rmult_le_compat_r; auto. apply Rlt_le, Rinv_0_lt_compat. lra. }
  apply Rmult_le_reg_r with (A + C); [lra |]. replace (A * E * / (A + C) * (A + C)) with (A * E) by (field; lra).
  apply Rmult_le_reg_r with (K + c0); [lra |].
  replace (K * / (K + c0) * E * (A + C) * (K + c0)) with (K * E * (A + C)) by (field; lra).
  assert (A * c0 <= K * C) by (apply Rmult_le_compat; lra).
  assert (E * (A * c0) <= E * (K * C)) by (apply Rmult_le_compat_l; auto). nra.
Qed.
(** a residual bounds the error where the error is largest *)
Lemma residual_bound : forall m d1 d2 d3 d4 C ax ay e e1 e2 e3 e4 c0,
  0 <= m -> d1 <= 0 -> d2 <= 0 -> d3 <= 0 -> d4 <= 0 -> c0 <= C -> 0 <= ax -> 0 <= ay -> 0 <= c0 ->
  Rabs e1 <= Rabs e -> Rabs e2 <= Rabs e -> Rabs e3 <= Rabs e -> Rabs e4 <= Rabs e ->
  c0 * Rabs e <= Rabs (m * (ax * (d1 * (e1 - e) - d2 * (e - e2)) + ay * (d3 * (e3 - e) - d4 * (e - e4))) + C * e).
Proof.
  intros m d1 d2 d3 d4 C ax ay e e1 e2 e3 e4 c0 Hm H1 H2 H3 H4 HC Hx Hy Hc He1 He2 He3 He4.
  assert (P : forall a d, 0 <= a -> d <= 0 -> 0 <= a * (- m * d)) by (intros; apply Rmult_le_pos; nra).
  pose proof (P ax d1 Hx H1) as P1. pose proof (P ax d2 Hx H2) as P2. pose proof (P ay d3 Hy H3) as P3. pose proof (P ay d4 Hy H4) as P4. clear P.
  set (t1 := ax * (- m * d1)) in *. set (t2 := ax * (- m * d2)) in *. set (t3 := ay * (- m * d3)) in *. set (t4 := ay * (- m * d4)) in *.
  replace (m * (ax * (d1 * (e1 - e) - d2 * (e - e2)) + ay * (d3 * (e3 - e) - d4 * (e - e4))) + C * e)
    with (C * e + t1 * (e - e1) + t2 * (e - e2) + t3 * (e - e3) + t4 * (e - e4)) by (unfold t1, t2, t3, t4; ring).
  assert (G : forall t a, 0 <= t -> Rabs a <= Rabs e -> 0 <= e -> 0 <= t * (e - a)).
  { intros t a Ht Ha Hp. apply Rmult_le_pos; auto. rewrite (Rabs_pos_eq e) in Ha by auto. apply Rabs_le_between in Ha. lra. }
  assert (G' : forall t a, 0 <= t -> Rabs a <= Rabs e -> e < 0 -> t * (e - a) <= 0).
  { intros t a Ht Ha Hp. rewrite (Rabs_left e) in Ha by auto. apply Rabs_le_between in Ha. nra. }
  destruct (Rle_dec 0 e) as [He | He].
  - pose proof (G _ _ P1 He1 He). pose proof (G _ _ P2 He2 He). pose proof (G _ _ P3 He3 He). pose proof (G _ _ P4 He4 He).
    assert (c0 * e <= C * e) by (apply Rmult_le_compat_r; auto). assert (0 <= c0 * e) by (apply Rmult_le_pos; auto).
    rewrite (Rabs_pos_eq e) by auto. rewrite Rabs_pos_eq; lra.
  - apply Rnot_le_lt in He. pose proof (G' _ _ P1 He1 He). pose proof (G' _ _ P2 He2 He). pose proof (G' _ _ P3 He3 He). pose proof (G' _ _ P4 He4 He).
    assert (C * e <= c0 * e) by nra. assert (c0 * e <= 0) by nra. rewrite (Rabs_left e) by auto. rewrite Rabs_left1; lra.
Qed.

Lemma code_ax_bounds : forall lv, spacing lv -> 0 <= code_ax lv <= 1 / pdx lv * (1 / pdx lv) /\ 0 <= code_ay lv <= 1 / pdy lv * (1 / pdy lv).
Proof.
  intros lv [[H1 H2] [H3 H4]].
  assert (G : forall a b, 0 < a <= b -> 0 <= 1 / (b * a) <= 1 / a * (1 / a)).
  { intros a b Hab. assert (0 < b * a) by (apply Rmult_lt_0_compat; lra). split.
    - apply Rlt_le. unfold Rdiv. rewrite Rmult_1_l. apply Rinv_0_lt_compat. auto.
    - unfold Rdiv. rewrite !Rmult_1_l. rewrite <- Rinv_mult. apply Rinv_le_contravar; [apply Rmult_lt_0_compat; lra |].
      apply Rmult_le_compat_r; lra. }
  split; apply G; lra.
Qed.
Lemma operator_minus : forall ax ay o w z i j, operator ax ay o w i j - operator ax ay o z i j = operator ax ay o (fun a b => w a b - z a b) i j.
Proof. intros. unfold operator. ring. Qed.

Section Contraction.
  Variables (lv : level) (gh : Z -> Z -> ghost) (o : coefs) (rhs : arr2) (fl : arr2 * arr2) (c0 K : R).
  Hypotheses (Hd : disjoint lv) (Hn : nonneg_rows lv) (Hpl : plain lv) (Hsp : spacing lv) (Hgh : tame lv gh) (Hpos : positive_problem lv o c0 K).
  Let pass := color_pass lv gh o rhs fl.
  Let rho := K / (K + c0).

  Lemma fill_within : forall u v E, 0 <= E -> within lv u v E -> forall i j, Rabs (fill lv gh u i j - fill lv gh v i j) <= E.
  Proof.
    intros u v E HE H i j. destruct (in_level_spec lv i j) as [Hc | Hc].
    - rewrite !fill_cell by auto. apply H; auto.
    - rewrite !fill_ghost by auto. destruct (Hgh i j Hc) as [H1 H2].
      match goal with |- Rabs ?x <= _ => replace x with (factor (gh i j) * (u (src0 (gh i j)) (src1 (gh i j)) - v (src0 (gh i j)) (src1 (gh i j)))) by ring end.
      rewrite Rabs_mult. destruct H2 as [-> | H2]; [rewrite Rabs_R0; lra |]. specialize (H _ _ H2).
      apply Rle_trans with (1 * E); [| lra]. apply Rmult_le_compat; auto; apply Rabs_pos.
  Qed.
  Lemma pos_nonsingular : nonsingular lv o.
  Proof.
    intros i j Hc. destruct Hpos as [H0 H]. destruct (H i j Hc) as (Hm & H1 & H2 & H3 & H4 & HC & _).
    destruct Hsp as [[Hx _] [Hy _]].
    assert (Gx : 0 < 1 / pdx lv) by (unfold Rdiv; rewrite Rmult_1_l; apply Rinv_0_lt_compat; auto).
    assert (Gy : 0 < 1 / pdy lv) by (unfold Rdiv; rewrite Rmult_1_l; apply Rinv_0_lt_compat; auto).
    set (a := 1 / pdx lv) in *. set (b := 1 / pdy lv) in *.
    assert (0 <= a * a) by nra. assert (0 <= b * b) by nra.
    assert (a * a * (xdc o (i + 1)%Z j + xdc o i j) <= 0) by nra. assert (b * b * (ydc o i (j + 1)%Z + ydc o i j) <= 0) by nra.
    nra.
  Qed.
  Lemma K_nonneg : forall i j, cell lv i j -> 0 <= K.
  Proof.
    intros i j Hc. destruct Hpos as [H0 H]. destruct (H i j Hc) as (Hm & H1 & H2 & H3 & H4 & HC & HK).
    destruct Hsp as [[Hx _] [Hy _]]. eapply Rle_trans; [| exact HK]. unfold Rdiv.
    assert (Gx : 0 < / (pdx lv * pdx lv)) by (apply Rinv_0_lt_compat; nra).
    assert (Gy : 0 < / (pdy lv * pdy lv)) by (apply Rinv_0_lt_compat; nra).
    set (a := / (pdx lv * pdx lv)) in *. set (b := / (pdy lv * pdy lv)) in *.
    assert ((xdc o (i + 1)%Z j + xdc o i j) * a <= 0) by nra. assert ((ydc o i (j + 1)%Z + ydc o i j) * b <= 0) by nra. nra.
  Qed.

  Lemma resid_eq : forall u p i j, inside p i j -> resid lv gh o rhs fl u p i j = rhs i j - operator (code_ax lv) (code_ay lv) o (fill lv gh u) i j.
  Proof. intros u p i j Hi. unfold resid. apply residual_operator; auto; destruct Hsp as [[? ?] [? ?]]; lra. Qed.

  Lemma pass_contracts : forall off u v E p i j, 0 <= E -> within lv u v E -> In p (patches lv) -> relaxed p off i j ->
    Rabs (fst (pass off u) i j - fst (pass off v) i j) <= rho * E.
  Proof.
    intros off u v E p i j HE H Hp Hr. pose proof (relaxed_inside _ _ _ _ Hr) as Hi. assert (Hc : cell lv i j) by (exists p; auto).
    unfold pass. rewrite (pass_relaxed lv gh o rhs fl off u p i j), (pass_relaxed lv gh o rhs fl off v p i j) by auto.
    rewrite !resid_eq by auto.
    match goal with |- Rabs ?x <= _ => replace x with ((u i j - v i j) +
      (operator (code_ax lv) (code_ay lv) o (fill lv gh u) i j - operator (code_ax lv) (code_ay lv) o (fill lv gh v) i j) * dudr (pdx lv) (pdy lv) o i j) by ring end.
    rewrite operator_minus. unfold operator.
    rewrite <- (fill_cell lv gh u i j Hc), <- (fill_cell lv gh v i j Hc).
    destruct Hpos as [H0 HP]. destruct (HP i j Hc) as (Hm & H1 & H2 & H3 & H4 & HC & HK).
    destruct (code_ax_bounds lv Hsp) as [Bx By]. unfold dudr.
    pose proof (fill_within u v E HE H) as G.
    pose proof (relax_bound (mob o i j) (xdc o (i + 1)%Z j) (xdc o i j) (ydc o i (j + 1)%Z) (ydc o i j) (sfield o i j)
      (code_ax lv) (code_ay lv) (1 / pdx lv * (1 / pdx lv)) (1 / pdy lv * (1 / pdy lv))
      (fill lv gh u i j - fill lv gh v i j) (fill lv gh u (i + 1)%Z j - fill lv gh v (i + 1)%Z j)
      (fill lv gh u (i - 1)%Z j - fill lv gh v (i - 1)%Z j) (fill lv gh u i (j + 1)%Z - fill lv gh v i (j + 1)%Z)
      (fill lv gh u i (j - 1)%Z - fill lv gh v i (j - 1)%Z) E K c0 Hm H2 H1 H4 H3 H0 HC Bx By (G _ _) (G _ _) (G _ _) (G _ _) (G _ _)) as Q.
    apply Q. clear Q. destruct Hsp as [[? ?] [? ?]].
    replace (1 / pdx lv * (1 / pdx lv) * (xdc o (i + 1)%Z j + xdc o i j)) with ((xdc o (i + 1)%Z j + xdc o i j) / (pdx lv * pdx lv)) by (field; lra).
    replace (1 / pdy lv * (1 / pdy lv) * (ydc o i (j + 1)%Z + ydc o i j)) with ((ydc o i (j + 1)%Z + ydc o i j) / (pdy lv * pdy lv)) by (field; lra).
    exact HK.
  Qed.
  Lemma rho_bounds : forall i j, cell lv i j -> 0 <= rho < 1.
  Proof.
    intros i j Hc. pose proof (K_nonneg i j Hc) as HK. destruct Hpos as [H0 _]. unfold rho. split.
    - apply Rmult_le_pos; auto. apply Rlt_le, Rinv_0_lt_compat. lra.
    - apply Rmult_lt_reg_r with (K + c0); [lra |]. unfold Rdiv. rewrite Rmult_assoc, Rinv_l by lra. lra.
  Qed.
  Lemma pass_nonexpansive : forall off u v E, 0 <= E -> within lv u v E -> within lv (fst (pass off u)) (fst (pass off v)) E.
  Proof.
    intros off u v E HE H i j (p & Hp & Hi). assert (Hc : cell lv i j) by (exists p; auto).
    destruct (relaxed_dec p off i j) as [Hr | Hr].
    - eapply Rle_trans; [apply (pass_contracts off u v E p i j); auto |]. pose proof (rho_bounds i j Hc). nra.
    - unfold pass. rewrite (pass_kept lv gh o rhs fl off u p i j), (pass_kept lv gh o rhs fl off v p i j) by auto. apply H; auto.
  Qed.
  Lemma sweep_contracts : forall u v E, 0 <= E -> within lv u v E -> within lv (sweep lv gh o rhs fl u) (sweep lv gh o rhs fl v) (rho * E).
  Proof.
    intros u v E HE H i j (p & Hp & Hi). assert (Hc : cell lv i j) by (exists p; auto). pose proof (rho_bounds i j Hc) as Hr.
    pose proof (pass_nonexpansive 0%Z u v E HE H) as H1. unfold sweep.
    destruct (colour_cases p i j) as [E0 | E0].
    - assert (~ relaxed p 1%Z i j) by (intro R1; apply relaxed_iff in R1; auto; lia).
      rewrite (pass_kept lv gh o rhs fl 1%Z _ p i j), (pass_kept lv gh o rhs fl 1%Z (fst (color_pass lv gh o rhs fl 0%Z v)) p i j) by auto.
      apply (pass_contracts 0%Z u v E p i j); auto. apply relaxed_iff; auto.
    - apply (pass_contracts 1%Z _ _ E p i j); auto. apply relaxed_iff; auto.
  Qed.
  Fixpoint sweeps (n : nat) (u : arr2) : arr2 := match n with O => u | S n => sweeps n (sweep lv gh o rhs fl u) end.
  Lemma sweeps_S : forall n u, sweeps (S n) u = sweep lv gh o rhs fl (sweeps n u).
  Proof. induction n as [| n IH]; intro u; [reflexivity |]. change (sweeps (S (S n)) u) with (sweeps (S n) (sweep lv gh o rhs fl u)). rewrite IH. reflexivity. Qed.
  Lemma sweeps_contract : forall n u v E, 0 <= E -> within lv u v E -> within lv (sweeps n u) (sweeps n v) (rho ^ n * E).
  Proof.
    induction n as [| n IH]; intros u v E HE H.
    - intros i j Hc. cbn [sweeps pow]. rewrite Rmult_1_l. apply H; auto.
    - intros i j Hc. pose proof (rho_bounds i j Hc). cbn [pow]. replace (rho * rho ^ n * E) with (rho ^ n * (rho * E)) by ring.
      cbn [sweeps]. apply IH; auto; [apply Rmult_le_pos; lra |]. apply sweep_contracts; auto.
  Qed.
  Lemma sweeps_smooth : forall n tol u, tol < 0 -> smoothErrorByRedBlack lv gh o rhs fl n tol u = sweeps n u.
  Proof.
    induction n as [| n IH]; intros tol u Ht; [reflexivity |]. cbn [smoothErrorByRedBlack sweeps].
    destruct (Rle_dec 0 tol); [lra |]. rewrite IH by auto. reflexivity.
  Qed.
  Lemma solves_resid : forall v, solves (code_ax lv) (code_ay lv) lv gh o rhs v <->
    (forall p i j, In p (patches lv) -> inside p i j -> resid lv gh o rhs fl v p i j = 0).
  Proof.
    intro v. split.
    - intros H p i j Hp Hi. rewrite resid_eq by auto. rewrite (H (fill lv gh v) (fill_extends lv gh v) i j) by (exists p; auto). ring.
    - intros H w Hw i j (p & Hp & Hi). rewrite (extends_fill lv gh v w Hw). specialize (H p i j Hp Hi). rewrite resid_eq in H by auto. lra.
  Qed.
  Lemma sweeps_solution : forall n v, solves (code_ax lv) (code_ay lv) lv gh o rhs v -> sweeps n v = v.
  Proof.
    intros n v H0. pose proof (proj1 (solves_resid v) H0) as H. assert (E : sweep lv gh o rhs fl v = v).
    { unfold sweep. rewrite !(pass_zero_residual lv gh o rhs fl _ v Hd H). reflexivity. }
    induction n as [| n IH]; [reflexivity |]. cbn [sweeps]. rewrite E. exact IH.
  Qed.
  Lemma sweeps_error : forall n u v E, solves (code_ax lv) (code_ay lv) lv gh o rhs v -> 0 <= E -> within lv u v E ->
    within lv (sweeps n u) v (rho ^ n * E).
  Proof. intros n u v E Hv HE H. pose proof (sweeps_contract n u v E HE H) as G. rewrite (sweeps_solution n v Hv) in G. exact G. Qed.
End Contraction.

(** * Finitely many cells *)
Definition cells_of (lv : level) : list (Z * Z) := flat_map (fun p => list_prod (range (ilo p) (ihi p)) (range (jlo p) (jhi p))) (patches lv).
Lemma in_cells_of : forall lv i j, In (i, j) (cells_of lv) <-> cell lv i j.
Proof.
  intros lv i j. unfold cells_of, cell. rewrite in_flat_map. split; intros (p & Hp & H); exists p; split; auto.
  - apply in_prod_iff in H. rewrite !in_range in H. exact H.
  - apply in_prod_iff. rewrite !in_range. exact H.
Qed.
Lemma level_bound : forall lv (f : Z -> Z -> R), exists M, 0 <= M /\ forall i j, cell lv i j -> f i j <= M.
Proof.
  intros lv f.
  assert (G : forall l : list (Z * Z), exists M, 0 <= M /\ forall c, In c l -> f (fst c) (snd c) <= M).
  { induction l as [| c l (M & H0 & H)]; [exists 0; split; [lra | contradiction] |].
    exists (Rmax M (f (fst c) (snd c))). split; [eapply Rle_trans; [exact H0 | apply Rmax_l] |].
    intros d [<- | Hd]; [apply Rmax_r |]. eapply Rle_trans; [apply H; auto | apply Rmax_l]. }
  destruct (G (cells_of lv)) as (M & H0 & H). exists M. split; auto.
  intros i j Hc. apply (H (i, j)). apply in_cells_of. auto.
Qed.
Lemma level_max : forall lv (f : Z -> Z -> R) a b, cell lv a b -> exists i0 j0, cell lv i0 j0 /\ forall i j, cell lv i j -> f i j <= f i0 j0.
Proof.
  intros lv f a b Hab.
  assert (G : forall l : list (Z * Z), l <> [] -> exists c, In c l /\ forall d, In d l -> f (fst d) (snd d) <= f (fst c) (snd c)).
  { induction l as [| c l IH]; intro Hl; [contradiction |]. destruct l as [| c' l].
    - exists c. split; [left; auto |]. intros d [<- | []]. lra.
    - destruct IH as (m & Hm & H); [discriminate |]. destruct (Rle_dec (f (fst c) (snd c)) (f (fst m) (snd m))) as [L | L].
      + exists m. split; [right; auto |]. intros d [<- | Hdd]; auto.
      + exists c. split; [left; auto |]. intros d [<- | Hdd]; [lra |]. specialize (H d Hdd). lra. }
  destruct (G (cells_of lv)) as ((i0, j0) & Hc & H).
  - intro E. apply in_cells_of in Hab. rewrite E in Hab. contradiction.
  - exists i0, j0. split; [apply in_cells_of; auto |]. intros i j Hij. apply (H (i, j)). apply in_cells_of. auto.
Qed.

(** * The solution of the level *)
Lemma geometric_small : forall r E eps, 0 <= r < 1 -> 0 <= E -> 0 < eps -> exists N, forall n, (N <= n)%nat -> r ^ n * E < eps.
Proof.
  intros r E eps Hr HE He. assert (Hy : 0 < eps / (E + 1)) by (apply Rdiv_lt_0_compat; lra).
  destruct (pow_lt_1_zero r) with (y := eps / (E + 1)) as (N & H); [rewrite Rabs_pos_eq; lra | exact Hy |].
  exists N. intros n Hn. specialize (H n Hn). assert (0 <= r ^ n) by (apply pow_le; lra). rewrite Rabs_pos_eq in H by auto.
  assert (r ^ n * (E + 1) < eps). { apply Rmult_lt_compat_r with (r := E + 1) in H; [| lra]. replace (eps / (E + 1) * (E + 1)) with eps in H by (field; lra). lra. }
  lra.
Qed.

Section Existence.
  Variables (lv : level) (gh : Z -> Z -> ghost) (o : coefs) (rhs : arr2) (fl : arr2 * arr2) (c0 K : R).
  Hypotheses (Hd : disjoint lv) (Hn : nonneg_rows lv) (Hpl : plain lv) (Hsp : spacing lv) (Hgh : tame lv gh) (Hpos : positive_problem lv o c0 K).
  Let rho := K / (K + c0).
  Let U n := sweeps lv gh o rhs fl n (fun _ _ => 0).

  Lemma unique_solution : forall v v' : arr2, solves (code_ax lv) (code_ay lv) lv gh o rhs v -> solves (code_ax lv) (code_ay lv) lv gh o rhs v' -> within lv v v' 0.
  Proof.
    intros v v' H H' i j Hc. pose proof (rho_bounds lv o c0 K Hsp Hpos i j Hc) as Hr. fold rho in Hr.
    destruct (level_bound lv (fun a b => Rabs (v a b - v' a b))) as (E & HE & HB).
    apply Rnot_lt_le. intro Hlt. destruct (geometric_small rho E _ Hr HE Hlt) as (N & HN).
    specialize (HN N (le_n N)).
    pose proof (sweeps_contract lv gh o rhs fl c0 K Hd Hn Hpl Hsp Hgh Hpos N v v' E HE HB i j Hc) as G.
    rewrite (sweeps_solution lv gh o rhs fl Hd Hpl Hsp N v H), (sweeps_solution lv gh o rhs fl Hd Hpl Hsp N v' H') in G. unfold rho in HN. lra.
  Qed.

  Lemma U_step : exists E, 0 <= E /\ forall n, within lv (U (S n)) (U n) (rho ^ n * E).
  Proof.
    destruct (level_bound lv (fun a b => Rabs (U 1%nat a b - U 0%nat a b))) as (E & HE & HB). exists E. split; auto.
    intros n. unfold U. change (sweeps lv gh o rhs fl (S n) (fun _ _ => 0)) with (sweeps lv gh o rhs fl n (U 1%nat)).
    apply (sweeps_contract lv gh o rhs fl c0 K); auto.
  Qed.
  Lemma U_tail : forall E, 0 <= E -> (forall n, within lv (U (S n)) (U n) (rho ^ n * E)) ->
    forall k n i j, cell lv i j -> Rabs (U (n + k)%nat i j - U n i j) <= rho ^ n * (E / (1 - rho)).
  Proof.
    intros E HE H k n i j Hc. pose proof (rho_bounds lv o c0 K Hsp Hpos i j Hc) as Hr. fold rho in Hr.
    assert (G : Rabs (U (n + k)%nat i j - U n i j) <= rho ^ n * (E / (1 - rho)) * (1 - rho ^ k)).
    { induction k as [| k IH].
      - rewrite Nat.add_0_r, Rminus_eq_0, Rabs_R0. cbn [pow]. lra.
      - rewrite Nat.add_succ_r. specialize (H (n + k)%nat i j Hc).
        replace (U (S (n + k)) i j - U n i j) with ((U (S (n + k)) i j - U (n + k)%nat i j) + (U (n + k)%nat i j - U n i j)) by ring.
        eapply Rle_trans; [apply Rabs_triang |]. rewrite pow_add in H. cbn [pow].
        assert (EQ : rho ^ n * (E / (1 - rho)) * (1 - rho * rho ^ k) = rho ^ n * rho ^ k * E + rho ^ n * (E / (1 - rho)) * (1 - rho ^ k)) by (field; lra).
        rewrite EQ. lra. }
    eapply Rle_trans; [exact G |]. assert (0 <= rho ^ k) by (apply pow_le; lra). assert (0 <= rho ^ n) by (apply pow_le; lra).
    assert (0 <= E / (1 - rho)) by (apply Rmult_le_pos; auto; apply Rlt_le, Rinv_0_lt_compat; lra).
    assert (0 <= rho ^ n * (E / (1 - rho))) by (apply Rmult_le_pos; auto). nra.
  Qed.

  Lemma solution_exists : exists v, solves (code_ax lv) (code_ay lv) lv gh o rhs v.
  Proof.
    destruct U_step as (E & HE & HS). pose proof (U_tail E HE HS) as HT.
    pose (L := fun i j => real (Lim_seq (fun n => U n i j))).
    assert (HL : forall i j, cell lv i j -> is_lim_seq (fun n => U n i j) (L i j)).
    { intros i j Hc. apply Lim_seq_correct'. apply ex_lim_seq_cauchy_corr. intro eps.
      pose proof (rho_bounds lv o c0 K Hsp Hpos i j Hc) as Hr. fold rho in Hr.
      assert (HE2 : 0 <= E / (1 - rho)) by (apply Rmult_le_pos; auto; apply Rlt_le, Rinv_0_lt_compat; lra).
      destruct (geometric_small rho (E / (1 - rho)) (eps / 2) Hr HE2) as (N & HN); [destruct eps; cbn; lra |].
      exists N. intros n m Hnn Hmm. specialize (HN N (le_n N)).
      pose proof (HT (n - N)%nat N i j Hc) as H1. pose proof (HT (m - N)%nat N i j Hc) as H2.
      replace (N + (n - N))%nat with n in H1 by lia. replace (N + (m - N))%nat with m in H2 by lia.
      apply Rabs_le_between in H1. apply Rabs_le_between in H2. apply Rabs_lt_between. lra. }
    assert (HB : forall n, within lv L (U n) (rho ^ n * (E / (1 - rho)))).
    { intros n i j Hc. pose proof (HL i j Hc) as Hl.
      assert (Hl2 : is_lim_seq (fun k => Rabs (U (n + k)%nat i j - U n i j)) (Rabs (L i j - U n i j))).
      { apply (is_lim_seq_abs _ (Finite (L i j - U n i j))). apply is_lim_seq_minus'; [| apply is_lim_seq_const].
        apply (is_lim_seq_ext (fun k => U (k + n)%nat i j)); [intro k; f_equal; lia |]. apply (is_lim_seq_incr_n (fun k => U k i j)). exact Hl. }
      apply (is_lim_seq_le _ _ _ _ (fun k => HT k n i j Hc) Hl2 (is_lim_seq_const _)). }
    exists L. apply (proj2 (solves_resid lv gh o rhs fl Hpl Hsp L)). intros p i j Hp Hi.
    refine (sweep_fixed lv gh o rhs fl L Hd Hn (pos_nonsingular lv o c0 K Hsp Hpos) _ p i j Hp Hi).
    intros a b Hc. pose proof (rho_bounds lv o c0 K Hsp Hpos a b Hc) as Hr. fold rho in Hr.
    assert (HE2 : 0 <= E / (1 - rho)) by (apply Rmult_le_pos; auto; apply Rlt_le, Rinv_0_lt_compat; lra).
    apply Rminus_diag_uniq. apply Rabs_eq_0. apply Rle_antisym; [| apply Rabs_pos]. apply Rnot_lt_le. intro Hlt.
    destruct (geometric_small rho (E / (1 - rho)) (Rabs (sweep lv gh o rhs fl L a b - L a b) / 2) Hr HE2) as (N & HN); [lra |].
    pose proof (HN N (le_n N)) as H1. pose proof (HN (S N) (le_S _ _ (le_n N))) as H2.
    assert (HP : 0 <= rho ^ N * (E / (1 - rho))) by (apply Rmult_le_pos; auto; apply pow_le; lra).
    pose proof (sweep_contracts lv gh o rhs fl c0 K Hd Hn Hpl Hsp Hgh Hpos L (U N) _ HP (HB N) a b Hc) as H3. fold rho in H3.
    pose proof (HB (S N) a b Hc) as H4. unfold U in H4. rewrite sweeps_S in H4. fold (U N) in H4.
    apply Rabs_le_between in H3. apply Rabs_le_between in H4. cbn [pow] in H2, H4.
    revert H1 H2. unfold Rabs. destruct (Rcase_abs _); intros; lra.
  Qed.
End Existence.

(** C83 *)
Lemma smoothing_converges : forall lv gh o rhs fl c0 K,
  disjoint lv -> nonneg_rows lv -> plain lv -> spacing lv -> tame lv gh -> positive_problem lv o c0 K ->
  exists v, solves (1 / (gdx lv * pdx lv)) (1 / (gdy lv * pdy lv)) lv gh o rhs v /\
    (forall v', solves (1 / (gdx lv * pdx lv)) (1 / (gdy lv * pdy lv)) lv gh o rhs v' -> within lv v v' 0) /\
    (forall n tol u E, tol < 0 -> 0 <= E -> within lv u v E -> within lv (smoothErrorByRedBlack lv gh o rhs fl n tol u) v ((K / (K + c0)) ^ n * E)) /\
    (forall u eps, 0 < eps -> exists N, forall n, (N <= n)%nat -> within lv (smoothErrorByRedBlack lv gh o rhs fl n (-1) u) v eps).
Proof.
  intros lv gh o rhs fl c0 K Hd Hn Hpl Hsp Hgh Hpos.
  destruct (solution_exists lv gh o rhs fl c0 K Hd Hn Hpl Hsp Hgh Hpos) as (v & Hv). exists v.
  assert (H3 : forall n tol u E, tol < 0 -> 0 <= E -> within lv u v E -> within lv (smoothErrorByRedBlack lv gh o rhs fl n tol u) v ((K / (K + c0)) ^ n * E)).
  { intros n tol u E Ht HE H. rewrite sweeps_smooth by auto. apply (sweeps_error lv gh o rhs fl c0 K); auto. }
  split; [exact Hv |]. split; [intros v' H'; apply (unique_solution lv gh o rhs fl c0 K Hd Hn Hpl Hsp Hgh Hpos v v' Hv H') |]. split; [exact H3 |].
  intros u eps He. destruct (level_bound lv (fun a b => Rabs (u a b - v a b))) as (E & HE & HB).
  destruct (cells_of lv) as [| (a, b) l] eqn:EC.
  - exists 0%nat. intros n _ i j Hc. apply in_cells_of in Hc. rewrite EC in Hc. contradiction.
  - assert (Hab : cell lv a b) by (apply in_cells_of; rewrite EC; left; auto).
    destruct (geometric_small (K / (K + c0)) E eps (rho_bounds lv o c0 K Hsp Hpos a b Hab) HE He) as (N & HN).
    exists N. intros n Hnn i j Hc. eapply Rle_trans; [apply (H3 n (-1) u E ltac:(lra) HE HB i j Hc) |]. apply Rlt_le, HN, Hnn.
Qed.
Lemma smoothing_converges_coarsest : forall lv gh o rhs fl c0 K,
  disjoint lv -> nonneg_rows lv -> finer lv = false -> 0 < pdx lv -> 0 < pdy lv -> gdx lv = pdx lv -> gdy lv = pdy lv ->
  tame lv gh -> positive_problem lv o c0 K ->
  exists v, solves (1 / (pdx lv * pdx lv)) (1 / (pdy lv * pdy lv)) lv gh o rhs v /\
    (forall v', solves (1 / (pdx lv * pdx lv)) (1 / (pdy lv * pdy lv)) lv gh o rhs v' -> within lv v v' 0) /\
    (forall n tol u E, tol < 0 -> 0 <= E -> within lv u v E -> within lv (smoothErrorByRedBlack lv gh o rhs fl n tol u) v ((K / (K + c0)) ^ n * E)) /\
    (forall u eps, 0 < eps -> exists N, forall n, (N <= n)%nat -> within lv (smoothErrorByRedBlack lv gh o rhs fl n (-1) u) v eps).
Proof.
  intros lv gh o rhs fl c0 K Hd Hn Hf Hx Hy Ex Ey Hgh Hpos.
  assert (Hpl : plain lv) by (unfold plain; rewrite Hf; apply andb_false_r).
  assert (Hsp : spacing lv) by (unfold spacing; rewrite Ex, Ey; lra).
  pose proof (smoothing_converges lv gh o rhs fl c0 K Hd Hn Hpl Hsp Hgh Hpos) as H. rewrite Ex, Ey in H. exact H.
Qed.

(** * Early end *)
Lemma early_end_error : forall lv gh o rhs fl c0 K p v u tol, patches lv = [p] ->
  disjoint lv -> nonneg_rows lv -> plain lv -> spacing lv -> tame lv gh -> positive_problem lv o c0 K ->
  solves (code_ax lv) (code_ay lv) lv gh o rhs v ->
  snd (color_pass lv gh o rhs fl 0%Z u) <= tol ->
  snd (color_pass lv gh o rhs fl 1%Z (fst (color_pass lv gh o rhs fl 0%Z u))) <= tol ->
  within lv u v (tol / c0).
Proof.
  intros lv gh o rhs fl c0 K p v u tol Ep Hd Hn Hpl Hsp Hgh Hpos Hv Hr Hb i j Hc.
  set (red := fst (color_pass lv gh o rhs fl 0%Z u)) in *.
  assert (Hp : In p (patches lv)) by (rewrite Ep; left; auto).
  assert (HR : forall off x, snd (color_pass lv gh o rhs fl off x) <= tol -> forall a b, relaxed p off a b -> Rabs (resid lv gh o rhs fl x p a b) <= tol).
  { intros off x H a b Hrel. unfold color_pass in H. rewrite Ep in H. cbn [fold_left snd] in H. apply rbgs_max in H. apply (proj2 H a b Hrel). }
  destruct (level_max lv (fun a b => Rabs (u a b - v a b)) i j Hc) as (a & b & Hab & Hmax).
  set (E := Rabs (u a b - v a b)) in *. assert (HE : 0 <= E) by apply Rabs_pos.
  assert (Hu : within lv u v E) by (intros x y Hxy; apply Hmax; auto).
  assert (Hi : inside p a b). { destruct Hab as (q & Hq & Hi). rewrite Ep in Hq. destruct Hq as [<- | []]. exact Hi. }
  pose proof (proj1 (solves_resid lv gh o rhs fl Hpl Hsp v) Hv) as Hv0.
  assert (Hred : within lv red v E).
  { pose proof (pass_nonexpansive lv gh o rhs fl c0 K Hd Hpl Hsp Hgh Hpos 0%Z u v E HE Hu) as G.
    rewrite (pass_zero_residual lv gh o rhs fl 0%Z v Hd Hv0) in G. exact G. }
  destruct Hpos as [H0 HP]. destruct (HP a b Hab) as (Hm & D1 & D2 & D3 & D4 & HC & _).
  destruct (code_ax_bounds lv Hsp) as [Bx By].
  assert (G : forall x, within lv x v E -> x a b = u a b -> Rabs (resid lv gh o rhs fl x p a b) <= tol -> c0 * E <= tol).
  { intros x Hx Exu Hres. rewrite (resid_eq lv gh o rhs fl Hpl Hsp x p a b Hi) in Hres.
    pose proof (Hv (fill lv gh v) (fill_extends lv gh v) a b Hab) as Ev. rewrite <- Ev in Hres.
    rewrite operator_minus in Hres. rewrite <- Rabs_Ropp in Hres.
    pose proof (fill_within lv gh Hgh x v E HE Hx) as F.
    assert (F' : forall k l, Rabs (fill lv gh v k l - fill lv gh x k l) <= Rabs (fill lv gh v a b - fill lv gh x a b)).
    { intros k l. rewrite (fill_cell lv gh v a b Hab), (fill_cell lv gh x a b Hab), Exu, (Rabs_minus_sym (v a b)), (Rabs_minus_sym (fill lv gh v k l)). apply F. }
    pose proof (residual_bound (mob o a b) (xdc o (a + 1)%Z b) (xdc o a b) (ydc o a (b + 1)%Z) (ydc o a b) (sfield o a b)
      (code_ax lv) (code_ay lv) (fill lv gh v a b - fill lv gh x a b) (fill lv gh v (a + 1)%Z b - fill lv gh x (a + 1)%Z b)
      (fill lv gh v (a - 1)%Z b - fill lv gh x (a - 1)%Z b) (fill lv gh v a (b + 1)%Z - fill lv gh x a (b + 1)%Z)
      (fill lv gh v a (b - 1)%Z - fill lv gh x a (b - 1)%Z) c0 Hm D2 D1 D4 D3 HC (proj1 Bx) (proj1 By) ltac:(lra) (F' _ _) (F' _ _) (F' _ _) (F' _ _)) as Q.
    rewrite (fill_cell lv gh v a b Hab), (fill_cell lv gh x a b Hab), Exu, (Rabs_minus_sym (v a b)) in Q at 1. fold E in Q.
    eapply Rle_trans; [exact Q |]. rewrite Rabs_Ropp in Hres.
    unfold operator in Hres. exact Hres. }
  assert (Hfin : c0 * E <= tol).
  { destruct (colour_cases p a b) as [Ec | Ec].
    - apply (G u Hu eq_refl). apply (HR 0%Z u Hr). apply relaxed_iff; auto.
    - assert (Hnr : ~ relaxed p 0%Z a b) by (intro R0; apply relaxed_iff in R0; auto; lia).
      apply (G red Hred); [unfold red; apply (pass_kept lv gh o rhs fl 0%Z u p a b); auto |].
      apply (HR 1%Z red Hb). apply relaxed_iff; auto. }
  eapply Rle_trans; [apply Hu; auto |]. apply Rmult_le_reg_l with c0; [lra |]. replace (c0 * (tol / c0)) with tol by (field; lra). exact Hfin.
Qed.

(** C84 *)
Lemma early_end : forall lv gh o rhs fl c0 K p v, patches lv = [p] ->
  nonneg_rows lv -> plain lv -> spacing lv -> tame lv gh -> positive_problem lv o c0 K ->
  solves (1 / (gdx lv * pdx lv)) (1 / (gdy lv * pdy lv)) lv gh o rhs v ->
  forall n tol u E, 0 <= tol -> 0 <= E -> within lv u v E ->
  within lv (smoothErrorByRedBlack lv gh o rhs fl n tol u) v (tol / c0) \/
  within lv (smoothErrorByRedBlack lv gh o rhs fl n tol u) v ((K / (K + c0)) ^ n * E).
Proof.
  intros lv gh o rhs fl c0 K p v Ep Hn Hpl Hsp Hgh Hpos Hv.
  assert (Hd : disjoint lv) by (unfold disjoint; rewrite Ep; repeat constructor).
  induction n as [| n IH]; intros tol u E Ht HE H.
  - right. cbn [smoothErrorByRedBlack pow]. intros i j Hc. rewrite Rmult_1_l. apply H; auto.
  - cbn [smoothErrorByRedBlack].
    set (red := color_pass lv gh o rhs fl 0%Z u). set (blk := color_pass lv gh o rhs fl 1%Z (fst red)).
    destruct (Rle_dec 0 tol); [| contradiction].
    destruct (cells_of lv) as [| (a, b) l] eqn:EC.
    { left. intros i j Hc. apply in_cells_of in Hc. rewrite EC in Hc. contradiction. }
    assert (Hab : cell lv a b) by (apply in_cells_of; rewrite EC; left; auto).
    pose proof (rho_bounds lv o c0 K Hsp Hpos a b Hab) as Hr.
    destruct (Rlt_dec tol (Rmax (snd red) (snd blk))) as [L | L].
    + destruct (IH tol (fst blk) (K / (K + c0) * E) Ht) as [G | G].
      * apply Rmult_le_pos; lra.
      * pose proof (sweeps_error lv gh o rhs fl c0 K Hd Hn Hpl Hsp Hgh Hpos 1%nat u v E Hv HE H) as G. cbn [pow] in G. rewrite Rmult_1_r in G. exact G.
      * left. exact G.
      * right. cbn [pow]. intros i j Hc. specialize (G i j Hc). lra.
    + left. apply Rnot_lt_le in L. pose proof (Rmax_l (snd red) (snd blk)). pose proof (Rmax_r (snd red) (snd blk)).
      assert (G : within lv u v (tol / c0)) by (exact (early_end_error lv gh o rhs fl c0 K p v u tol Ep Hd Hn Hpl Hsp Hgh Hpos Hv (Rle_trans _ _ _ H0 L) (Rle_trans _ _ _ H1 L))).
      assert (Hq : 0 <= tol / c0) by (destruct Hpos as [H0' _]; apply Rmult_le_pos; auto; apply Rlt_le, Rinv_0_lt_compat; lra).
      pose proof (sweeps_error lv gh o rhs fl c0 K Hd Hn Hpl Hsp Hgh Hpos 1%nat u v _ Hv Hq G) as G2. cbn [pow] in G2. rewrite Rmult_1_r in G2.
      intros i j Hc. specialize (G2 i j Hc). cbn [sweeps] in G2. unfold sweep in G2. fold red in G2. fold blk in G2. nra.
Qed.

(** * C81: every cell once *)
Lemma sweep_covers : forall p i j, (0 <= jlo p)%Z -> inside p i j -> exists c, (c = 0 \/ c = 1)%Z /\
  (forall lv o w fl rhs, plain lv -> 0 < pdx lv -> 0 < pdy lv -> gdx lv = pdx lv -> gdy lv = pdy lv ->
     mob o i j * (1 / pdx lv * (1 / pdx lv) * (xdc o (i + 1)%Z j + xdc o i j) + 1 / pdy lv * (1 / pdy lv) * (ydc o i (j + 1)%Z + ydc o i j))
       - sfield o i j <> 0 ->
     operator (1 / (pdx lv * pdx lv)) (1 / (pdy lv * pdy lv)) o
       (upd2 w i j (fst (rbgs p (pdx lv) (pdy lv) o (flux_on_patch lv p o o w fl) rhs c w) i j)) i j = rhs i j) /\
  (forall lv o w fl rhs, fst (rbgs p (pdx lv) (pdy lv) o (flux_on_patch lv p o o w fl) rhs (1 - c)%Z w) i j = w i j).
Proof.
  intros p i j Hp Hi. exists (colour p i j). pose proof (colour_cases p i j) as Hc. split; [exact Hc |]. split.
  - intros lv o w fl rhs Hpl Hx Hy Ex Ey Hns. rewrite rbgs_relaxed by (apply relaxed_iff; auto).
    rewrite residual_operator by (auto; lra). unfold code_ax, code_ay. rewrite Ex, Ey.
    set (v := w i j + _). unfold operator. rewrite !upd2_same. rewrite !upd2_other by lia. unfold v, operator, dudr.
    revert Hns. set (g := mob o i j * _ - sfield o i j). intro Hns.
    assert (Eg : sfield o i j = mob o i j * (1 / (pdx lv * pdx lv) * (xdc o (i + 1)%Z j + xdc o i j) + 1 / (pdy lv * pdy lv) * (ydc o i (j + 1)%Z + ydc o i j)) - g).
    { unfold g. field. lra. }
    rewrite Eg. field. repeat split; auto; lra.
  - intros lv o w fl rhs. apply rbgs_kept. intro R1. apply relaxed_iff in R1; auto; destruct Hc as [Hc | Hc]; rewrite Hc in *; lia.
Qed.
Lemma negative_rows : forall p, (jlo p < 0)%Z -> (ilo p <= ihi p)%Z -> (jlo p < jhi p)%Z ->
  exists i j, inside p i j /\ forall dx dy o fl rhs w off, (off = 0 \/ off = 1)%Z -> fst (rbgs p dx dy o fl rhs off w) i j = w i j.
Proof.
  intros p H1 H2 H3. exists (ilo p), (jlo p + 1)%Z. split; [split; lia |].
  intros dx dy o fl rhs w off Hoff. apply rbgs_kept. intros [[Hv _] _]. unfold rbgs_row_start in Hv.
  assert (Eq : Z.quot (jlo p + (jlo p + 1)) 2 = (jlo p + 1)%Z).
  { replace (jlo p + (jlo p + 1))%Z with (- (- (2 * jlo p + 1)))%Z by lia. rewrite Z.quot_opp_l by lia.
    rewrite Z.quot_div_nonneg by lia. replace (- (2 * jlo p + 1))%Z with (1 + (- jlo p - 1) * 2)%Z by lia.
    rewrite Z.div_add by lia. change (1 / 2)%Z with 0%Z. lia. }
  rewrite Eq in Hv. destruct (Z.eqb_spec (jlo p + (jlo p + 1) - (jlo p + 1) * 2) off); lia.
Qed.

(** * C84: two patches *)
Lemma pass_snd_last : forall lv gh o rhs fl off u q l, patches lv = l ++ [q] ->
  snd (color_pass lv gh o rhs fl off u) = snd (rbgs q (pdx lv) (pdy lv) o (flux_on_patch lv q o o (fill lv gh u) fl) rhs off (fill lv gh u)).
Proof. intros lv gh o rhs fl off u q l E. unfold color_pass. rewrite E, fold_left_app. reflexivity. Qed.

Definition ex_a : patch := mk_patch 0 1 0 0 [].
Definition ex_b : patch := mk_patch 4 4 0 0 [].
Definition ex_level : level := mk_level [ex_a; ex_b] 1 1 1 1 1 1 false true.
Definition ex_gh : Z -> Z -> ghost := fun _ _ => mk_ghost 0 0 0 0.
Definition ex_coefs : coefs := mk_coefs (fun _ _ => -1) (fun _ _ => -1) (fun _ _ => 1) (fun _ _ => 1).
Definition ex_rhs : arr2 := upd2 (fun _ _ => 0) 0%Z 0%Z 100.
Definition ex_solution : arr2 := upd2 (upd2 (fun _ _ => 0) 0%Z 0%Z (125 / 6)) 1%Z 0%Z (25 / 6).
Lemma ex_cells : forall i j, cell ex_level i j <-> (i = 0 \/ i = 1 \/ i = 4)%Z /\ j = 0%Z.
Proof.
  intros i j. split.
  - intros (p & [<- | [<- | []]] & [H1 H2]); cbn in H1, H2; lia.
  - intros [[-> | [-> | ->]] ->]; [exists ex_a | exists ex_a | exists ex_b]; (split; [cbn; auto | split; cbn; lia]).
Qed.
Lemma ex_disjoint : disjoint ex_level.
Proof.
  unfold disjoint. cbn [ex_level patches]. repeat constructor. intros i j [H1 H2] [H3 H4]. cbn in *. lia.
Qed.
Lemma ex_positive : positive_problem ex_level ex_coefs 1 4.
Proof. split; [lra |]. intros i j _. cbn. lra. Qed.
Lemma ex_fill : forall u i j, fill ex_level ex_gh u i j = if in_level ex_level i j then u i j else 0.
Proof. intros u i j. unfold fill. destruct (in_level ex_level i j); auto. unfold ex_gh. cbn [factor offset_value]. ring. Qed.
Ltac ex_fills := rewrite !ex_fill; repeat match goal with |- context [in_level ex_level ?a ?b] =>
  let v := eval vm_compute in (in_level ex_level a b) in change (in_level ex_level a b) with v end; cbv iota.
Lemma ex_resid : forall u p i j fl, inside p i j -> resid ex_level ex_gh ex_coefs ex_rhs fl u p i j =
  ex_rhs i j - (5 * fill ex_level ex_gh u i j - fill ex_level ex_gh u (i + 1)%Z j - fill ex_level ex_gh u (i - 1)%Z j
     - fill ex_level ex_gh u i (j + 1)%Z - fill ex_level ex_gh u i (j - 1)%Z).
Proof.
  intros u p i j fl Hi. unfold resid. rewrite residual_operator by (auto; try reflexivity; cbn; lra).
  unfold operator, code_ax, code_ay. cbn [ex_level ex_coefs gdx gdy pdx pdy mob xdc ydc sfield]. field.
Qed.
Lemma early_end_two_patches : exists lv gh o rhs v tol c0 K u,
  disjoint lv /\ nonneg_rows lv /\ finer lv = false /\ 0 < pdx lv /\ 0 < pdy lv /\ gdx lv = pdx lv /\ gdy lv = pdy lv /\
  tame lv gh /\ positive_problem lv o c0 K /\ solves (1 / (pdx lv * pdx lv)) (1 / (pdy lv * pdy lv)) lv gh o rhs v /\ 0 <= tol /\
  forall fl n, (1 <= n)%nat -> exists i j, cell lv i j /\ tol / c0 < Rabs (smoothErrorByRedBlack lv gh o rhs fl n tol u i j - v i j) /\
    smoothErrorByRedBlack lv gh o rhs fl n tol u = smoothErrorByRedBlack lv gh o rhs fl 1 tol u.
Proof.
  exists ex_level, ex_gh, ex_coefs, ex_rhs, ex_solution, (1 / 100), 1, 4, (fun _ _ => 0).
  assert (Hn : nonneg_rows ex_level) by (intros p [<- | [<- | []]]; cbn; lia).
  split; [apply ex_disjoint |]. split; [exact Hn |]. split; [reflexivity |].
  cbn [ex_level pdx pdy gdx gdy]. split; [lra |]. split; [lra |]. split; [reflexivity |]. split; [reflexivity |]. fold ex_level.
  split; [intros i j _; cbn; rewrite Rabs_R0; split; [lra | left; reflexivity] |]. split; [apply ex_positive |]. split.
  { intros w Hw i j Hc. rewrite (extends_fill _ _ _ _ Hw). unfold operator. cbn [ex_coefs mob xdc ydc sfield].
    apply ex_cells in Hc. destruct Hc as [[-> | [-> | ->]] ->]; rewrite !ex_fill; cbn; unfold ex_rhs, ex_solution, upd2; cbn; field. }
  split; [lra |]. intros fl n Hnn.
  set (u0 := fun _ _ : Z => 0).
  set (red := color_pass ex_level ex_gh ex_coefs ex_rhs fl 0%Z u0).
  set (blk := color_pass ex_level ex_gh ex_coefs ex_rhs fl 1%Z (fst red)).
  assert (Hib : forall i j, inside ex_b i j -> i = 4%Z /\ j = 0%Z) by (intros i j [H1 H2]; cbn in H1, H2; lia).
  assert (Hr : snd red <= 1 / 100).
  { unfold red. rewrite (pass_snd_last _ _ _ _ _ _ _ ex_b [ex_a]) by reflexivity. apply rbgs_max. split; [lra |].
    intros a b Hr. pose proof (relaxed_inside _ _ _ _ Hr) as Hi. fold (resid ex_level ex_gh ex_coefs ex_rhs fl u0 ex_b a b).
    rewrite ex_resid by auto. destruct (Hib a b Hi) as [-> ->]. rewrite !ex_fill. cbn. unfold ex_rhs, upd2, u0. cbn.
    match goal with |- Rabs ?x <= _ => replace x with 0 by ring end. rewrite Rabs_R0. lra. }
  assert (H40 : fst red 4%Z 0%Z = 0).
  { unfold red. destruct (relaxed_dec ex_b 0%Z 4%Z 0%Z) as [R | R].
    - rewrite (pass_relaxed _ _ _ _ _ 0%Z u0 ex_b 4%Z 0%Z ex_disjoint) by (cbn; auto).
      rewrite ex_resid by (split; cbn; lia). rewrite !ex_fill. cbn. unfold ex_rhs, upd2, u0. cbn. ring.
    - apply (pass_kept _ _ _ _ _ 0%Z u0 ex_b); [apply ex_disjoint | cbn; auto | split; cbn; lia | exact R]. }
  assert (Hb : snd blk <= 1 / 100).
  { unfold blk. rewrite (pass_snd_last _ _ _ _ _ _ _ ex_b [ex_a]) by reflexivity. apply rbgs_max. split; [lra |].
    intros a b Hrb. pose proof (relaxed_inside _ _ _ _ Hrb) as Hi. fold (resid ex_level ex_gh ex_coefs ex_rhs fl (fst red) ex_b a b).
    rewrite ex_resid by auto. destruct (Hib a b Hi) as [-> ->]. ex_fills. rewrite H40. unfold ex_rhs, upd2. cbn [Z.eqb andb].
    match goal with |- Rabs ?x <= _ => replace x with 0 by ring end. rewrite Rabs_R0. lra. }
  assert (Hstop : forall m, smoothErrorByRedBlack ex_level ex_gh ex_coefs ex_rhs fl (S m) (1 / 100) u0 = fst blk).
  { intro m. cbn [smoothErrorByRedBlack]. fold red. fold blk. destruct (Rle_dec 0 (1 / 100)) as [_ | HH]; [| lra].
    destruct (Rlt_dec (1 / 100) (Rmax (snd red) (snd blk))) as [L |]; [| reflexivity].
    exfalso. apply (Rlt_irrefl (1 / 100)). eapply Rlt_le_trans; [exact L |]. apply Rmax_lub; auto. }
  destruct n as [| n]; [lia |]. rewrite !Hstop. exists 0%Z, 0%Z. split; [apply ex_cells; auto |]. split; [| reflexivity].
  assert (E : fst blk 0%Z 0%Z = 20).
  { unfold blk. rewrite (pass_kept _ _ _ _ _ 1%Z _ ex_a).
    - unfold red. rewrite (pass_relaxed _ _ _ _ _ 0%Z u0 ex_a 0%Z 0%Z ex_disjoint).
      + rewrite ex_resid by (split; cbn; lia). rewrite !ex_fill. cbn. unfold dudr, ex_coefs, ex_rhs, upd2, u0. cbn. field.
      + cbn; auto.
      + apply relaxed_iff; [cbn; lia | split; cbn; lia | lia | reflexivity].
    - apply ex_disjoint.
    - cbn; auto.
    - split; cbn; lia.
    - intro R. apply relaxed_iff in R; [cbn in R; discriminate | cbn; lia | split; cbn; lia | lia]. }
  rewrite E. unfold ex_solution, upd2. cbn.
  rewrite Rabs_left1; lra.
Qed.

(** * C85: consistency *)
Lemma operator_ext : forall ax ay o w w' i j, w i j = w' i j -> w (i + 1)%Z j = w' (i + 1)%Z j -> w (i - 1)%Z j = w' (i - 1)%Z j ->
  w i (j + 1)%Z = w' i (j + 1)%Z -> w i (j - 1)%Z = w' i (j - 1)%Z -> operator ax ay o w i j = operator ax ay o w' i j.
Proof. intros ax ay o w w' i j H1 H2 H3 H4 H5. unfold operator. rewrite H1, H2, H3, H4, H5. reflexivity. Qed.
Lemma residual_quadratic : forall lv gh o rhs fl res q m d0 d1 d2 c i j,
  disjoint lv -> plain lv -> 0 < pdx lv -> 0 < pdy lv -> 0 < gdx lv -> 0 < gdy lv -> cell lv i j ->
  (forall a b, ~ cell lv a b -> factor (gh a b) = 0 /\ offset_value (gh a b) = quad_cells q (pdx lv) (pdy lv) a b) ->
  xdc o = linear_x d0 d1 d2 (pdx lv) (pdy lv) -> ydc o = linear_y d0 d1 d2 (pdx lv) (pdy lv) -> mob o i j = m -> sfield o i j = c ->
  level_residual lv gh o rhs fl (quad_cells q (pdx lv) (pdy lv)) res i j =
  rhs i j - (m * (pdx lv / gdx lv * ((d0 + d1 * centre i (pdx lv) + d2 * centre j (pdy lv)) * (2 * qxx q)
                                     + d1 * (2 * qxx q * centre i (pdx lv) + qxy q * centre j (pdy lv) + qx q))
                + pdy lv / gdy lv * ((d0 + d1 * centre i (pdx lv) + d2 * centre j (pdy lv)) * (2 * qyy q)
                                     + d2 * (qxy q * centre i (pdx lv) + 2 * qyy q * centre j (pdy lv) + qy q)))
             + c * quad_at q (centre i (pdx lv)) (centre j (pdy lv))).
Proof.
  intros lv gh o rhs fl res q m d0 d1 d2 c i j Hd Hpl Hx Hy Hgx Hgy Hc Hgh Ex Ey Em Ec. destruct Hc as (p & Hp & Hi).
  rewrite (residual_val lv gh o rhs fl _ p) by auto. unfold resid. rewrite residual_operator by (auto; lra).
  assert (W : forall a b, fill lv gh (quad_cells q (pdx lv) (pdy lv)) a b = quad_cells q (pdx lv) (pdy lv) a b).
  { intros a b. destruct (in_level_spec lv a b) as [Hc | Hc]; [apply fill_cell; auto |]. rewrite fill_ghost by auto.
    destruct (Hgh a b Hc) as [-> ->]. ring. }
  rewrite (operator_ext _ _ _ _ (quad_cells q (pdx lv) (pdy lv))) by apply W.
  unfold operator, code_ax, code_ay. rewrite Ex, Ey, Em, Ec. unfold linear_x, linear_y, quad_cells, quad_at, centre.
  rewrite !plus_IZR, !minus_IZR. field. lra.
Qed.
Lemma consistent : forall lv gh o rhs fl res q m d0 d1 d2 c i j,
  disjoint lv -> plain lv -> 0 < pdx lv -> 0 < pdy lv -> gdx lv = pdx lv -> gdy lv = pdy lv -> cell lv i j ->
  (forall a b, ~ cell lv a b -> factor (gh a b) = 0 /\ offset_value (gh a b) = quad_cells q (pdx lv) (pdy lv) a b) ->
  xdc o = linear_x d0 d1 d2 (pdx lv) (pdy lv) -> ydc o = linear_y d0 d1 d2 (pdx lv) (pdy lv) -> mob o i j = m -> sfield o i j = c ->
  level_residual lv gh o rhs fl (quad_cells q (pdx lv) (pdy lv)) res i j =
  rhs i j - continuum m d0 d1 d2 c q (centre i (pdx lv)) (centre j (pdy lv)).
Proof.
  intros lv gh o rhs fl res q m d0 d1 d2 c i j Hd Hpl Hx Hy Ex Ey Hc Hgh Dx Dy Em Ec.
  rewrite (residual_quadratic lv gh o rhs fl res q m d0 d1 d2 c) by (auto; lra). rewrite Ex, Ey. unfold continuum. field. lra.
Qed.
Lemma inconsistent_refined : forall lv r, disjoint lv -> plain lv -> 0 < pdx lv -> 0 < pdy lv -> 1 < r -> gdx lv = r * pdx lv -> gdy lv = r * pdy lv ->
  exists gh o q, (forall a b, ~ cell lv a b -> factor (gh a b) = 0 /\ offset_value (gh a b) = quad_cells q (pdx lv) (pdy lv) a b) /\
    (forall fl res i j, cell lv i j ->
       level_residual lv gh o (fun i j => continuum 1 1 0 0 0 q (centre i (pdx lv)) (centre j (pdy lv))) fl (quad_cells q (pdx lv) (pdy lv)) res i j <> 0) /\
    (forall i j, xdc o i j = 1 /\ ydc o i j = 1 /\ mob o i j = 1 /\ sfield o i j = 0).
Proof.
  intros lv r Hd Hpl Hx Hy Hr Ex Ey. set (q := mk_quadratic 1 0 0 0 0 0).
  exists (fun a b => mk_ghost 0 0 0 (quad_cells q (pdx lv) (pdy lv) a b)),
    (mk_coefs (linear_x 1 0 0 (pdx lv) (pdy lv)) (linear_y 1 0 0 (pdx lv) (pdy lv)) (fun _ _ => 0) (fun _ _ => 1)), q.
  split; [intros a b _; split; reflexivity |]. split.
  - intros fl res i j Hc.
    assert (0 < gdx lv) by (rewrite Ex; apply Rmult_lt_0_compat; lra). assert (0 < gdy lv) by (rewrite Ey; apply Rmult_lt_0_compat; lra).
    rewrite (residual_quadratic lv _ _ _ fl res q 1 1 0 0 0) by (auto; intros; split; reflexivity).
    rewrite Ex, Ey. unfold continuum, quad_at, q. cbn [qxx qxy qyy qx qy q0].
    assert (Q : pdx lv / (r * pdx lv) = / r) by (field; lra). rewrite Q.
    assert (/ r < 1) by (rewrite <- Rinv_1; apply Rinv_lt_contravar; lra). lra.
  - intros i j. cbn [xdc ydc mob sfield]. unfold linear_x, linear_y. repeat split; lra.
Qed.

(** * C86: the flux correction between levels *)
Section Blocks.
  Variables (idx : Z -> Z * Z) (G : Z -> Z -> R -> R) (r : Z).
  Hypotheses (Hinj : forall a b, idx a = idx b -> a = b) (Hr : (0 < r)%Z).
  Let put t0 tp (s : arr2) : arr2 := upd2 s (fst (idx (t0 + tp)%Z)) (snd (idx (t0 + tp)%Z)) (G t0 tp (s (fst (idx (t0 + tp)%Z)) (snd (idx (t0 + tp)%Z)))).
  Lemma put_same : forall t0 tp s, put t0 tp s (fst (idx (t0 + tp)%Z)) (snd (idx (t0 + tp)%Z)) = G t0 tp (s (fst (idx (t0 + tp)%Z)) (snd (idx (t0 + tp)%Z))).
  Proof. intros. unfold put. apply upd2_same. Qed.
  Lemma put_other : forall t0 tp s a b, (a, b) <> idx (t0 + tp)%Z -> put t0 tp s a b = s a b.
  Proof.
    intros t0 tp s a b H. unfold put. apply upd2_other. destruct (idx (t0 + tp)%Z) as (c, d). cbn.
    destruct (Z.eq_dec a c); [right | left; auto]. intro. apply H. congruence.
  Qed.
  Lemma block_inner : forall t0 n f a b, (-1 <= n)%Z ->
    let s := do_loop 0%Z n (put t0) f in
    (forall tp, (0 <= tp <= n)%Z -> (a, b) = idx (t0 + tp)%Z -> s a b = G t0 tp (f a b)) /\
    ((forall tp, (0 <= tp <= n)%Z -> (a, b) <> idx (t0 + tp)%Z) -> s a b = f a b).
  Proof.
    intros t0 n f a b Hn s. unfold s. clear s.
    pose proof (do_loop_ind _ (fun n (s : arr2) => (forall tp, (0 <= tp <= n)%Z -> (a, b) = idx (t0 + tp)%Z -> s a b = G t0 tp (f a b)) /\
      ((forall tp, (0 <= tp <= n)%Z -> (a, b) <> idx (t0 + tp)%Z) -> s a b = f a b)) 0%Z n (put t0) f) as I.
    rewrite Z.max_r in I by lia. apply I; clear I.
    - split; [intros; lia | reflexivity].
    - intros k s Hk [I1 I2]. split.
      + intros tp Ht E. destruct (Z.eq_dec tp k) as [-> | Hne].
        * pose proof (put_same t0 k s) as P. rewrite <- E in P. cbn [fst snd] in P. rewrite P. f_equal. apply I2.
          intros tq Hq Eq. rewrite E in Eq. apply Hinj in Eq. lia.
        * rewrite put_other; [apply I1; auto; lia |]. intro Eq. rewrite E in Eq. apply Hinj in Eq. lia.
      + intro H. rewrite put_other by (apply H; lia). apply I2. intros tp Ht. apply H. lia.
  Qed.
  Lemma blocks : forall tb te f, (te + 1 - tb) mod r = 0%Z -> (tb - 1 <= te)%Z ->
    let s := do_step tb te r (fun t0 => do_loop 0%Z (r - 1)%Z (put t0)) f in
    (forall t, (tb <= t <= te)%Z ->
       s (fst (idx t)) (snd (idx t)) = G (tb + (t - tb) / r * r)%Z ((t - tb) mod r)%Z (f (fst (idx t)) (snd (idx t)))) /\
    (forall a b, (forall t, (tb <= t <= te)%Z -> (a, b) <> idx t) -> s a b = f a b).
  Proof.
    intros tb te f Hmod Hle s. unfold s, do_step. clear s.
    set (n := ((te + 1 - tb) / r)%Z).
    assert (En : (te + 1 - tb = r * n)%Z) by (unfold n; pose proof (Z.div_mod (te + 1 - tb) r); lia).
    assert (Hn : (0 <= n)%Z) by (unfold n; apply Z.div_pos; lia).
    assert (Eq : ((te - tb) / r = n - 1)%Z).
    { replace (te - tb)%Z with ((r - 1) + (n - 1) * r)%Z by lia. rewrite Z.div_add by lia. rewrite Z.div_small by lia. lia. }
    rewrite Eq.
    pose proof (do_loop_ind _ (fun k (s : arr2) =>
      (forall t, (tb <= t < tb + (k + 1) * r)%Z -> s (fst (idx t)) (snd (idx t)) = G (tb + (t - tb) / r * r)%Z ((t - tb) mod r)%Z (f (fst (idx t)) (snd (idx t)))) /\
      (forall a b, (forall t, (tb <= t < tb + (k + 1) * r)%Z -> (a, b) <> idx t) -> s a b = f a b))
      0%Z (n - 1)%Z (fun k => do_loop 0%Z (r - 1)%Z (put (tb + k * r)%Z)) f) as I.
    rewrite Z.max_r in I by lia. replace (n - 1 + 1)%Z with n in I by lia.
    destruct I as [I1 I2].
    - split; [intros; lia | reflexivity].
    - intros k s Hk [J1 J2]. replace (k - 1 + 1)%Z with k in J1, J2 by lia. split.
      + intros t Ht. destruct (block_inner (tb + k * r)%Z (r - 1)%Z s (fst (idx t)) (snd (idx t)) ltac:(lia)) as [B1 B2].
        destruct (Z_lt_dec t (tb + k * r)) as [L | L].
        * rewrite B2; [apply J1; lia |]. intros tp Hp Et. rewrite <- surjective_pairing in Et. apply Hinj in Et. lia.
        * assert (Ed : ((t - tb) / r = k)%Z). { replace (t - tb)%Z with ((t - tb - k * r) + k * r)%Z by lia. rewrite Z.div_add by lia. rewrite Z.div_small by lia. lia. }
          assert (Em : ((t - tb) mod r = t - tb - k * r)%Z) by (pose proof (Z.div_mod (t - tb) r); lia).
          rewrite Ed, Em. rewrite (B1 (t - tb - k * r)%Z); [| lia |].
          -- f_equal. apply J2. intros t' Ht' Et. rewrite <- surjective_pairing in Et. apply Hinj in Et. lia.
          -- rewrite <- surjective_pairing. f_equal. lia.
      + intros a b H. destruct (block_inner (tb + k * r)%Z (r - 1)%Z s a b ltac:(lia)) as [_ B2].
        rewrite B2 by (intros tp Hp; apply H; lia). apply J2. intros t Ht. apply H. lia.
    - split; [intros t Ht; apply I1; lia | intros a b H; apply I2; intros t Ht; apply H; lia].
  Qed.
End Blocks.

(** the fine cell opposite to t in its coarse cell *)
Definition opposite (tb r t : Z) : Z := (tb + (t - tb) / r * r + (r - (t - tb) mod r - 1))%Z.
Lemma pair_inj_r : forall i a b : Z, (i, a) = (i, b) -> a = b.
Proof. congruence. Qed.
Lemma pair_inj_l : forall i a b : Z, (a, i) = (b, i) -> a = b.
Proof. congruence. Qed.
Lemma base_index : forall tb r t, (0 < r)%Z -> (tb + (t - tb) / r * r + (t - tb) mod r = t)%Z.
Proof. intros tb r t Hr. pose proof (Z.div_mod (t - tb) r). lia. Qed.

Lemma ewing_x_val : forall p bb r0 r1 dx dc soln f i j, (0 < r1)%Z ->
  (Z.min (bhi1 bb) (jhi p) + 1 - Z.max (blo1 bb) (jlo p)) mod r1 = 0%Z -> (Z.max (blo1 bb) (jlo p) - 1 <= Z.min (bhi1 bb) (jhi p))%Z ->
  (corrects_x p bb i j ->
   ewing_x p bb r0 r1 dx dc soln f i j =
   2 * (1 / (1 + IZR r0)) * f i j +
   (if (location bb =? 0)%Z then 1 else -1) * (1 / (1 + IZR r0) * dc i j *
     (soln (if (location bb =? 0)%Z then i else (i - 1)%Z) (opposite (Z.max (blo1 bb) (jlo p)) r1 j)
      - soln (if (location bb =? 0)%Z then i else (i - 1)%Z) j) / dx)) /\
  (~ corrects_x p bb i j -> ewing_x p bb r0 r1 dx dc soln f i j = f i j).
Proof.
  intros p bb r0 r1 dx dc soln f i j Hr Hm Hle. unfold corrects_x, ewing_x.
  set (jb := Z.max (blo1 bb) (jlo p)) in *. set (je := Z.min (bhi1 bb) (jhi p)) in *.
  destruct (Z.eqb_spec (location bb) 0) as [E | E]; [| destruct (Z.eqb_spec (location bb) 1) as [E1 | E1]].
  - pose proof (blocks (fun t => ((bhi0 bb + 1)%Z, t))
      (fun t0 tp x => 2 * (1 / (1 + IZR r0)) * x + 1 / (1 + IZR r0) * dc (bhi0 bb + 1)%Z (t0 + tp)%Z * (soln (bhi0 bb + 1)%Z (t0 + (r1 - tp - 1))%Z - soln (bhi0 bb + 1)%Z (t0 + tp)%Z) / dx)
      r1 (pair_inj_r _) Hr jb je f Hm Hle) as [B1 B2]. cbn [fst snd] in B1, B2. cbv zeta. split.
    + intros [[[_ ->] | [H _]] Hj]; [| lia]. rewrite (B1 j Hj). rewrite base_index by auto. unfold opposite. rewrite Rmult_1_l. reflexivity.
    + intro H. apply B2. intros t Ht Et. apply H. split; [left; split; congruence |]. replace j with t by congruence. exact Ht.
  - pose proof (blocks (fun t => (blo0 bb, t))
      (fun t0 tp x => 2 * (1 / (1 + IZR r0)) * x - 1 / (1 + IZR r0) * dc (blo0 bb) (t0 + tp)%Z * (soln (blo0 bb - 1)%Z (t0 + (r1 - tp - 1))%Z - soln (blo0 bb - 1)%Z (t0 + tp)%Z) / dx)
      r1 (pair_inj_r _) Hr jb je f Hm Hle) as [B1 B2]. cbn [fst snd] in B1, B2. cbv zeta. split.
    + intros [[[H _] | [_ ->]] Hj]; [lia |]. rewrite (B1 j Hj). rewrite base_index by auto. unfold opposite. lra.
    + intro H. apply B2. intros t Ht Et. apply H. split; [right; split; congruence |]. replace j with t by congruence. exact Ht.
  - split; [intros [[[H _] | [H _]] _]; contradiction | reflexivity].
Qed.
Lemma ewing_y_val : forall p bb r0 r1 dy dc soln f i j, (0 < r0)%Z ->
  (Z.min (bhi0 bb) (ihi p) + 1 - Z.max (blo0 bb) (ilo p)) mod r0 = 0%Z -> (Z.max (blo0 bb) (ilo p) - 1 <= Z.min (bhi0 bb) (ihi p))%Z ->
  (corrects_y p bb i j ->
   ewing_y p bb r0 r1 dy dc soln f i j =
   2 * (1 / (1 + IZR r1)) * f i j +
   (if (location bb =? 2)%Z then 1 else -1) * (1 / (1 + IZR r1) * dc i j *
     (soln (opposite (Z.max (blo0 bb) (ilo p)) r0 i) (if (location bb =? 2)%Z then j else (j - 1)%Z)
      - soln i (if (location bb =? 2)%Z then j else (j - 1)%Z)) / dy)) /\
  (~ corrects_y p bb i j -> ewing_y p bb r0 r1 dy dc soln f i j = f i j).
Proof.
  intros p bb r0 r1 dx dc soln f i j Hr Hm Hle. unfold corrects_y, ewing_y.
  set (jb := Z.max (blo0 bb) (ilo p)) in *. set (je := Z.min (bhi0 bb) (ihi p)) in *.
  destruct (Z.eqb_spec (location bb) 2) as [E | E]; [| destruct (Z.eqb_spec (location bb) 3) as [E1 | E1]].
  - pose proof (blocks (fun t => (t, (bhi1 bb + 1)%Z))
      (fun t0 tp x => 2 * (1 / (1 + IZR r1)) * x + 1 / (1 + IZR r1) * dc (t0 + tp)%Z (bhi1 bb + 1)%Z * (soln (t0 + (r0 - tp - 1))%Z (bhi1 bb + 1)%Z - soln (t0 + tp)%Z (bhi1 bb + 1)%Z) / dx)
      r0 (pair_inj_l _) Hr jb je f Hm Hle) as [B1 B2]. cbn [fst snd] in B1, B2. cbv zeta. split.
    + intros [[[_ ->] | [H _]] Hj]; [| lia]. rewrite (B1 i Hj). rewrite base_index by auto. unfold opposite. rewrite Rmult_1_l. reflexivity.
    + intro H. apply B2. intros t Ht Et. apply H. split; [left; split; congruence |]. replace i with t by congruence. exact Ht.
  - pose proof (blocks (fun t => (t, blo1 bb))
      (fun t0 tp x => 2 * (1 / (1 + IZR r1)) * x - 1 / (1 + IZR r1) * dc (t0 + tp)%Z (blo1 bb) * (soln (t0 + (r0 - tp - 1))%Z (blo1 bb - 1)%Z - soln (t0 + tp)%Z (blo1 bb - 1)%Z) / dx)
      r0 (pair_inj_l _) Hr jb je f Hm Hle) as [B1 B2]. cbn [fst snd] in B1, B2. cbv zeta. split.
    + intros [[[H _] | [_ ->]] Hj]; [lia |]. rewrite (B1 i Hj). rewrite base_index by auto. unfold opposite. lra.
    + intro H. apply B2. intros t Ht Et. apply H. split; [right; split; congruence |]. replace i with t by congruence. exact Ht.
  - split; [intros [[[H _] | [H _]] _]; contradiction | reflexivity].
Qed.

Lemma aligned_length : forall lo hi r, (0 < r)%Z -> aligned lo hi r -> ((hi + 1 - lo) mod r = 0)%Z.
Proof. intros lo hi r Hr [H1 H2]. rewrite Zminus_mod, H1, H2. apply Z.mod_0_l. lia. Qed.
(** for a box on another side the x correction does nothing *)
Lemma ewing_x_skip : forall p bb r0 r1 dx dc soln f, location bb <> 0%Z -> location bb <> 1%Z -> ewing_x p bb r0 r1 dx dc soln f = f.
Proof. intros p bb r0 r1 dx dc soln f H0 H1. unfold ewing_x. destruct (Z.eqb_spec (location bb) 0); [contradiction |]. destruct (Z.eqb_spec (location bb) 1); [contradiction |]. reflexivity. Qed.
Lemma ewing_y_skip : forall p bb r0 r1 dx dc soln f, location bb <> 2%Z -> location bb <> 3%Z -> ewing_y p bb r0 r1 dx dc soln f = f.
Proof. intros p bb r0 r1 dx dc soln f H0 H1. unfold ewing_y. destruct (Z.eqb_spec (location bb) 2); [contradiction |]. destruct (Z.eqb_spec (location bb) 3); [contradiction |]. reflexivity. Qed.

Lemma ewing_x_not : forall p bb r0 r1 dx dc soln f i j, (0 < r1)%Z -> placed p r0 r1 bb -> ~ corrects_x p bb i j ->
  ewing_x p bb r0 r1 dx dc soln f i j = f i j.
Proof.
  intros p bb r0 r1 dx dc soln f i j Hr [(_ & Ha & Hle) | ([[H _] | [H _]] & _)] Hn.
  - apply (ewing_x_val p bb r0 r1 dx dc soln f i j Hr (aligned_length _ _ _ Hr Ha) ltac:(lia)). auto.
  - rewrite ewing_x_skip by lia. reflexivity.
  - rewrite ewing_x_skip by lia. reflexivity.
Qed.
Lemma ewing_y_not : forall p bb r0 r1 dx dc soln f i j, (0 < r0)%Z -> placed p r0 r1 bb -> ~ corrects_y p bb i j ->
  ewing_y p bb r0 r1 dx dc soln f i j = f i j.
Proof.
  intros p bb r0 r1 dx dc soln f i j Hr [([[H _] | [H _]] & _) | (_ & Ha & Hle)] Hn.
  - rewrite ewing_y_skip by lia. reflexivity.
  - rewrite ewing_y_skip by lia. reflexivity.
  - apply (ewing_y_val p bb r0 r1 dx dc soln f i j Hr (aligned_length _ _ _ Hr Ha) ltac:(lia)). auto.
Qed.
Lemma fold_ewing_x : forall p r0 r1 dx dc soln i j l f, (0 < r1)%Z -> (forall bb, In bb l -> placed p r0 r1 bb) -> (forall bb, In bb l -> ~ corrects_x p bb i j) ->
  fold_left (fun f bb => ewing_x p bb r0 r1 dx dc soln f) l f i j = f i j.
Proof.
  induction l as [| b l IH]; intros f Hr Hp Hn; [reflexivity |]. cbn [fold_left]. rewrite IH; auto.
  - apply ewing_x_not; auto; [apply Hp | apply Hn]; left; auto.
  - intros; apply Hp; right; auto.
  - intros; apply Hn; right; auto.
Qed.
Lemma fold_ewing_y : forall p r0 r1 dx dc soln i j l f, (0 < r0)%Z -> (forall bb, In bb l -> placed p r0 r1 bb) -> (forall bb, In bb l -> ~ corrects_y p bb i j) ->
  fold_left (fun f bb => ewing_y p bb r0 r1 dx dc soln f) l f i j = f i j.
Proof.
  induction l as [| b l IH]; intros f Hr Hp Hn; [reflexivity |]. cbn [fold_left]. rewrite IH; auto.
  - apply ewing_y_not; auto; [apply Hp | apply Hn]; left; auto.
  - intros; apply Hp; right; auto.
  - intros; apply Hn; right; auto.
Qed.
Lemma corrected_once_x : forall lv p bb o o0 w fl i j, ewing lv = true -> finer lv = true -> cf_boundary_ok lv p -> In bb (cf_boundary p) -> corrects_x p bb i j ->
  fst (flux_on_patch lv p o o0 w fl) i j = ewing_x p bb (ratio0 lv) (ratio1 lv) (gdx lv) (xdc o0) w (compflux_x p (gdx lv) (xdc o) w (fst fl)) i j.
Proof.
  intros lv p bb o o0 w fl i j He Hf ((Hr0 & Hr1) & _ & _ & _ & Hp & Hord) Hb Hc. unfold flux_on_patch. rewrite He, Hf. cbn [andb fst].
  destruct (in_split bb _ Hb) as (l1 & l2 & E). rewrite E in *. destruct (fop_split _ _ _ _ _ Hord) as [O1 O2].
  rewrite fold_left_app. cbn [fold_left].
  rewrite fold_ewing_x; [| lia | intros b Hin; apply Hp, in_or_app; right; right; auto | intros b Hin Hcb; apply (proj1 (O2 b Hin i j)); auto].
  assert (EQ : forall f g, f i j = g i j -> ewing_x p bb (ratio0 lv) (ratio1 lv) (gdx lv) (xdc o0) w f i j = ewing_x p bb (ratio0 lv) (ratio1 lv) (gdx lv) (xdc o0) w g i j).
  { intros f g Efg. assert (Hpl : placed p (ratio0 lv) (ratio1 lv) bb) by (apply Hp, in_or_app; right; left; auto).
    destruct Hpl as [(_ & Ha & Hle) | (Hloc & _)].
    - assert (P : (0 < ratio1 lv)%Z) by lia. assert (Hle' : (Z.max (blo1 bb) (jlo p) - 1 <= Z.min (bhi1 bb) (jhi p))%Z) by lia.
      rewrite (proj1 (ewing_x_val p bb (ratio0 lv) (ratio1 lv) (gdx lv) (xdc o0) w f i j P (aligned_length _ _ _ P Ha) Hle') Hc).
      rewrite (proj1 (ewing_x_val p bb (ratio0 lv) (ratio1 lv) (gdx lv) (xdc o0) w g i j P (aligned_length _ _ _ P Ha) Hle') Hc).
      rewrite Efg. reflexivity.
    - rewrite !ewing_x_skip by lia. exact Efg. }
  apply EQ. apply fold_ewing_x; [lia | intros b Hin; apply Hp, in_or_app; left; auto | intros b Hin Hcb; apply (proj1 (O1 b Hin i j)); auto].
Qed.
Lemma corrected_once_y : forall lv p bb o o0 w fl i j, ewing lv = true -> finer lv = true -> cf_boundary_ok lv p -> In bb (cf_boundary p) -> corrects_y p bb i j ->
  snd (flux_on_patch lv p o o0 w fl) i j = ewing_y p bb (ratio0 lv) (ratio1 lv) (gdy lv) (ydc o0) w (compflux_y p (gdy lv) (ydc o) w (snd fl)) i j.
Proof.
  intros lv p bb o o0 w fl i j He Hf ((Hr0 & Hr1) & _ & _ & _ & Hp & Hord) Hb Hc. unfold flux_on_patch. rewrite He, Hf. cbn [andb snd].
  destruct (in_split bb _ Hb) as (l1 & l2 & E). rewrite E in *. destruct (fop_split _ _ _ _ _ Hord) as [O1 O2].
  rewrite fold_left_app. cbn [fold_left].
  rewrite fold_ewing_y; [| lia | intros b Hin; apply Hp, in_or_app; right; right; auto | intros b Hin Hcb; apply (proj2 (O2 b Hin i j)); auto].
  assert (EQ : forall f g, f i j = g i j -> ewing_y p bb (ratio0 lv) (ratio1 lv) (gdy lv) (ydc o0) w f i j = ewing_y p bb (ratio0 lv) (ratio1 lv) (gdy lv) (ydc o0) w g i j).
  { intros f g Efg. assert (Hpl : placed p (ratio0 lv) (ratio1 lv) bb) by (apply Hp, in_or_app; right; left; auto).
    destruct Hpl as [(Hloc & _) | (_ & Ha & Hle)].
    - rewrite !ewing_y_skip by lia. exact Efg.
    - assert (P : (0 < ratio0 lv)%Z) by lia. assert (Hle' : (Z.max (blo0 bb) (ilo p) - 1 <= Z.min (bhi0 bb) (ihi p))%Z) by lia.
      rewrite (proj1 (ewing_y_val p bb (ratio0 lv) (ratio1 lv) (gdy lv) (ydc o0) w f i j P (aligned_length _ _ _ P Ha) Hle') Hc).
      rewrite (proj1 (ewing_y_val p bb (ratio0 lv) (ratio1 lv) (gdy lv) (ydc o0) w g i j P (aligned_length _ _ _ P Ha) Hle') Hc).
      rewrite Efg. reflexivity. }
  apply EQ. apply fold_ewing_y; [lia | intros b Hin; apply Hp, in_or_app; left; auto | intros b Hin Hcb; apply (proj2 (O1 b Hin i j)); auto].
Qed.

Lemma mod_zero_mul : forall a r, (0 < r)%Z -> (a mod r = 0)%Z -> (a = r * (a / r))%Z.
Proof. intros a r Hr H. pose proof (Z.div_mod a r). lia. Qed.
Lemma opposite_in : forall tb te r t, (0 < r)%Z -> aligned tb te r -> (tb <= t <= te)%Z -> (tb <= opposite tb r t <= te)%Z.
Proof.
  intros tb te r t Hr [H1 H2] Ht. unfold opposite. pose proof (Z.mod_pos_bound (t - tb) r Hr). pose proof (Z.div_mod (t - tb) r).
  pose proof (mod_zero_mul _ _ Hr H1). pose proof (mod_zero_mul _ _ Hr H2).
  assert (0 <= (t - tb) / r)%Z by (apply Z.div_pos; lia).
  split; [nia |]. set (k := ((t - tb) / r)%Z) in *. set (m := (tb / r)%Z) in *. set (n := ((te + 1) / r)%Z) in *.
  assert (k + m < n)%Z by nia. nia.
Qed.
Lemma opposite_centre : forall tb r t h, (0 < r)%Z -> (tb mod r = 0)%Z -> centre (opposite tb r t) h = 2 * coarse_centre t r h - centre t h.
Proof.
  intros tb r t h Hr H. unfold centre, coarse_centre, opposite.
  pose proof (mod_zero_mul _ _ Hr H) as E. pose proof (Z.div_mod (t - tb) r ltac:(lia)) as D.
  assert (Q : (t / r = (t - tb) / r + tb / r)%Z).
  { replace t with ((t - tb) + tb / r * r)%Z at 1 by lia. rewrite Z.div_add by lia. reflexivity. }
  rewrite Q. set (k := ((t - tb) / r)%Z) in *. set (m := (tb / r)%Z) in *. set (e := ((t - tb) mod r)%Z) in *.
  replace (tb + k * r + (r - e - 1))%Z with (2 * (k + m) * r + r - 1 - t)%Z by lia.
  rewrite !minus_IZR, !plus_IZR, !mult_IZR, !plus_IZR. field.
Qed.
Lemma coarse_below : forall t r h, (0 < r)%Z -> (t mod r = 0)%Z -> coarse_centre (t - 1) r h = IZR t * h - IZR r * h / 2.
Proof.
  intros t r h Hr H. unfold coarse_centre. pose proof (mod_zero_mul _ _ Hr H) as E.
  assert (Q : ((t - 1) / r = t / r - 1)%Z).
  { replace (t - 1)%Z with ((r - 1) + (t / r - 1) * r)%Z by lia. rewrite Z.div_add by lia. rewrite Z.div_small by lia. lia. }
  rewrite Q, minus_IZR. rewrite E at 2. rewrite mult_IZR. field.
Qed.
Lemma coarse_above : forall t r h, (0 < r)%Z -> (t mod r = 0)%Z -> coarse_centre t r h = IZR t * h + IZR r * h / 2.
Proof.
  intros t r h Hr H. unfold coarse_centre. pose proof (mod_zero_mul _ _ Hr H) as E. rewrite E at 2. rewrite mult_IZR. field.
Qed.

Lemma ewing_linear_x : forall lv p bb o o0 w fl a sx sy i j, ewing lv = true -> finer lv = true -> cf_boundary_ok lv p -> In bb (cf_boundary p) ->
  0 < pdx lv -> 0 < gdx lv -> linear_inside p w a sx sy (pdx lv) (pdy lv) -> coarse_ghosts lv p bb w a sx sy -> corrects_x p bb i j ->
  fst (flux_on_patch lv p o o0 w fl) i j = xdc o i j * sx * (pdx lv / gdx lv)
    + (if (location bb =? 0)%Z then 1 else -1) * (2 / (1 + IZR (ratio0 lv)) / gdx lv) * sy * (centre j (pdy lv) - coarse_centre j (ratio1 lv) (pdy lv)) * (xdc o i j - xdc o0 i j).
Proof.
  intros lv p bb o o0 w fl a sx sy i j He Hf Hok Hb Hx Hg Hlin Hgh Hc.
  rewrite (corrected_once_x lv p bb o o0 w fl i j He Hf Hok Hb Hc).
  destruct Hok as ((Hr0 & Hr1) & (Hne & Hne2) & (Al1 & Al2) & (Al3 & Al4) & Hp & _).
  assert (P0 : (0 < ratio0 lv)%Z) by lia. assert (P : (0 < ratio1 lv)%Z) by lia.
  assert (R0 : 0 < 1 + IZR (ratio0 lv)) by (apply (IZR_lt 0) in P0; lra).
  destruct (Hp bb Hb) as [(Hloc & Ha & Hle) | (Hloc & _)]; [| destruct Hc as [Hc _]; exfalso; lia].
  assert (Hle' : (Z.max (blo1 bb) (jlo p) - 1 <= Z.min (bhi1 bb) (jhi p))%Z) by lia.
  rewrite (proj1 (ewing_x_val p bb (ratio0 lv) (ratio1 lv) (gdx lv) (xdc o0) w _ i j P (aligned_length _ _ _ P Ha) Hle') Hc).
  destruct Hc as [Hc Hj]. set (jb := Z.max (blo1 bb) (jlo p)) in *. set (je := Z.min (bhi1 bb) (jhi p)) in *.
  pose proof (opposite_in jb je (ratio1 lv) j P Ha Hj) as Ho.
  assert (Hjin : (jlo p <= j <= jhi p)%Z) by (unfold jb, je in Hj; lia).
  assert (Hoin : (jlo p <= opposite jb (ratio1 lv) j <= jhi p)%Z) by (unfold jb, je in Ho |- *; lia).
  pose proof (opposite_centre jb (ratio1 lv) j (pdy lv) P (proj1 Ha)) as Ec.
  destruct Hc as [[L0 Ei] | [L1 Ei]].
  - rewrite L0, !Z.eqb_refl. destruct Hloc as [[_ Eb] | [Hl _]]; [| lia]. assert (Eii : i = ilo p) by lia. clear Ei. subst i.
    rewrite compflux_x_val by lia.
    rewrite (Hlin (ilo p) j) by (split; lia). rewrite (Hlin (ilo p) (opposite jb (ratio1 lv) j)) by (split; lia).
    rewrite (Hgh (ilo p - 1)%Z j) by (left; split; [left; split; lia | exact Hj]). rewrite coarse_below by auto.
    unfold linear_at. rewrite Ec. unfold centre. field. lra.
  - destruct Hloc as [[Hl _] | [_ Eb]]; [lia |]. destruct (Z.eqb_spec (location bb) 0); [lia |]. assert (Eii : i = (ihi p + 1)%Z) by lia. clear Ei. subst i.
    replace (ihi p + 1 - 1)%Z with (ihi p) by lia.
    rewrite compflux_x_val by lia. replace (ihi p + 1 - 1)%Z with (ihi p) by lia.
    rewrite (Hlin (ihi p) j) by (split; lia). rewrite (Hlin (ihi p) (opposite jb (ratio1 lv) j)) by (split; lia).
    rewrite (Hgh (ihi p + 1)%Z j) by (left; split; [right; split; lia | exact Hj]). rewrite coarse_above by auto.
    unfold linear_at. rewrite Ec. unfold centre. rewrite plus_IZR. field. lra.
Qed.
Lemma ewing_linear_y : forall lv p bb o o0 w fl a sx sy i j, ewing lv = true -> finer lv = true -> cf_boundary_ok lv p -> In bb (cf_boundary p) ->
  0 < pdy lv -> 0 < gdy lv -> linear_inside p w a sx sy (pdx lv) (pdy lv) -> coarse_ghosts lv p bb w a sx sy -> corrects_y p bb i j ->
  snd (flux_on_patch lv p o o0 w fl) i j = ydc o i j * sy * (pdy lv / gdy lv)
    + (if (location bb =? 2)%Z then 1 else -1) * (2 / (1 + IZR (ratio1 lv)) / gdy lv) * sx * (centre i (pdx lv) - coarse_centre i (ratio0 lv) (pdx lv)) * (ydc o i j - ydc o0 i j).
Proof.
  intros lv p bb o o0 w fl a sx sy i j He Hf Hok Hb Hx Hg Hlin Hgh Hc.
  rewrite (corrected_once_y lv p bb o o0 w fl i j He Hf Hok Hb Hc).
  destruct Hok as ((Hr0 & Hr1) & (Hne & Hne2) & (Al1 & Al2) & (Al3 & Al4) & Hp & _).
  assert (P0 : (0 < ratio1 lv)%Z) by lia. assert (P : (0 < ratio0 lv)%Z) by lia.
  assert (R0 : 0 < 1 + IZR (ratio1 lv)) by (apply (IZR_lt 0) in P0; lra).
  destruct (Hp bb Hb) as [(Hloc & _) | (Hloc & Ha & Hle)]; [destruct Hc as [Hc _]; exfalso; lia |].
  assert (Hle' : (Z.max (blo0 bb) (ilo p) - 1 <= Z.min (bhi0 bb) (ihi p))%Z) by lia.
  rewrite (proj1 (ewing_y_val p bb (ratio0 lv) (ratio1 lv) (gdy lv) (ydc o0) w _ i j P (aligned_length _ _ _ P Ha) Hle') Hc).
  destruct Hc as [Hc Hj]. set (jb := Z.max (blo0 bb) (ilo p)) in *. set (je := Z.min (bhi0 bb) (ihi p)) in *.
  pose proof (opposite_in jb je (ratio0 lv) i P Ha Hj) as Ho.
  assert (Hjin : (ilo p <= i <= ihi p)%Z) by (unfold jb, je in Hj; lia).
  assert (Hoin : (ilo p <= opposite jb (ratio0 lv) i <= ihi p)%Z) by (unfold jb, je in Ho |- *; lia).
  pose proof (opposite_centre jb (ratio0 lv) i (pdx lv) P (proj1 Ha)) as Ec.
  destruct Hc as [[L0 Ei] | [L1 Ei]].
  - rewrite L0, !Z.eqb_refl. destruct Hloc as [[_ Eb] | [Hl _]]; [| lia]. assert (Eii : j = jlo p) by lia. clear Ei. subst j.
    rewrite compflux_y_val by lia.
    rewrite (Hlin i (jlo p)) by (split; lia). rewrite (Hlin (opposite jb (ratio0 lv) i) (jlo p)) by (split; lia).
    rewrite (Hgh i (jlo p - 1)%Z) by (right; split; [left; split; lia | exact Hj]). rewrite (coarse_below (jlo p)) by auto.
    unfold linear_at. rewrite Ec. unfold centre. field. lra.
  - destruct Hloc as [[Hl _] | [_ Eb]]; [lia |]. destruct (Z.eqb_spec (location bb) 2); [lia |]. assert (Eii : j = (jhi p + 1)%Z) by lia. clear Ei. subst j.
    replace (jhi p + 1 - 1)%Z with (jhi p) by lia.
    rewrite compflux_y_val by lia. replace (jhi p + 1 - 1)%Z with (jhi p) by lia.
    rewrite (Hlin i (jhi p)) by (split; lia). rewrite (Hlin (opposite jb (ratio0 lv) i) (jhi p)) by (split; lia).
    rewrite (Hgh i (jhi p + 1)%Z) by (right; split; [right; split; lia | exact Hj]). rewrite (coarse_above (jhi p + 1)%Z) by auto.
    unfold linear_at. rewrite Ec. unfold centre. rewrite plus_IZR. field. lra.
Qed.

(** C86 *)
Lemma ewing_exact : forall lv p bb o w fl a sx sy, ewing lv = true -> finer lv = true -> cf_boundary_ok lv p -> In bb (cf_boundary p) ->
  0 < pdx lv -> 0 < pdy lv -> gdx lv = pdx lv -> gdy lv = pdy lv ->
  linear_inside p w a sx sy (pdx lv) (pdy lv) -> coarse_ghosts lv p bb w a sx sy ->
  (forall i j, corrects_x p bb i j -> fst (flux_on_patch lv p o o w fl) i j = xdc o i j * sx) /\
  (forall i j, corrects_y p bb i j -> snd (flux_on_patch lv p o o w fl) i j = ydc o i j * sy).
Proof.
  intros lv p bb o w fl a sx sy He Hf Hok Hb Hx Hy Ex Ey Hl Hg. split; intros i j Hc.
  - rewrite (ewing_linear_x lv p bb o o w fl a sx sy) by (auto; lra). rewrite Ex, Rminus_eq_0, Rmult_0_r. field. lra.
  - rewrite (ewing_linear_y lv p bb o o w fl a sx sy) by (auto; lra). rewrite Ey, Rminus_eq_0, Rmult_0_r. field. lra.
Qed.
(** with the spacing of the grid geometry, as in the code, the flux is too small by the ratio to level 0 *)
Lemma ewing_spacing : forall lv p bb o w fl a sx sy r, ewing lv = true -> finer lv = true -> cf_boundary_ok lv p -> In bb (cf_boundary p) ->
  0 < pdx lv -> 0 < pdy lv -> 1 < r -> gdx lv = r * pdx lv -> gdy lv = r * pdy lv ->
  linear_inside p w a sx sy (pdx lv) (pdy lv) -> coarse_ghosts lv p bb w a sx sy ->
  (forall i j, corrects_x p bb i j -> xdc o i j * sx <> 0 -> fst (flux_on_patch lv p o o w fl) i j <> xdc o i j * sx) /\
  (forall i j, corrects_y p bb i j -> ydc o i j * sy <> 0 -> snd (flux_on_patch lv p o o w fl) i j <> ydc o i j * sy).
Proof.
  intros lv p bb o w fl a sx sy r He Hf Hok Hb Hx Hy Hr Ex Ey Hl Hg.
  assert (Q : / r < 1) by (rewrite <- Rinv_1; apply Rinv_lt_contravar; lra). split; intros i j Hc Hne.
  - assert (0 < gdx lv) by (rewrite Ex; apply Rmult_lt_0_compat; lra).
    rewrite (ewing_linear_x lv p bb o o w fl a sx sy) by auto. rewrite Ex, Rminus_eq_0, Rmult_0_r, Rplus_0_r.
    replace (pdx lv / (r * pdx lv)) with (/ r) by (field; lra). intro E. apply Hne.
    assert (xdc o i j * sx * (1 - / r) = 0) by lra. apply Rmult_integral in H0. destruct H0; [auto | lra].
  - assert (0 < gdy lv) by (rewrite Ey; apply Rmult_lt_0_compat; lra).
    rewrite (ewing_linear_y lv p bb o o w fl a sx sy) by auto. rewrite Ey, Rminus_eq_0, Rmult_0_r, Rplus_0_r.
    replace (pdy lv / (r * pdy lv)) with (/ r) by (field; lra). intro E. apply Hne.
    assert (ydc o i j * sy * (1 - / r) = 0) by lra. apply Rmult_integral in H0. destruct H0; [auto | lra].
Qed.
(** the second component is corrected with the diffusion of the first *)
Lemma ewing_component : forall lv p bb o o0 w fl a sx sy i j, ewing lv = true -> finer lv = true -> cf_boundary_ok lv p -> In bb (cf_boundary p) ->
  0 < pdx lv -> 0 < pdy lv -> gdx lv = pdx lv -> gdy lv = pdy lv ->
  linear_inside p w a sx sy (pdx lv) (pdy lv) -> coarse_ghosts lv p bb w a sx sy ->
  corrects_x p bb i j -> sy <> 0 -> centre j (pdy lv) <> coarse_centre j (ratio1 lv) (pdy lv) -> xdc o i j <> xdc o0 i j ->
  fst (flux_on_patch lv p o o0 w fl) i j <> xdc o i j * sx.
Proof.
  intros lv p bb o o0 w fl a sx sy i j He Hf Hok Hb Hx Hy Ex Ey Hl Hg Hc Hsy Hcc Hne E.
  rewrite (ewing_linear_x lv p bb o o0 w fl a sx sy) in E by (auto; lra). rewrite Ex in E.
  assert (R0 : 0 < 1 + IZR (ratio0 lv)) by (destruct Hok as ((H0 & _) & _); apply IZR_le in H0; lra).
  replace (xdc o i j * sx * (pdx lv / pdx lv)) with (xdc o i j * sx) in E by (field; lra).
  assert (G : (if (location bb =? 0)%Z then 1 else -1) * (2 / (1 + IZR (ratio0 lv)) / pdx lv) * sy * (centre j (pdy lv) - coarse_centre j (ratio1 lv) (pdy lv)) * (xdc o i j - xdc o0 i j) = 0) by lra.
  assert (0 < 2 / (1 + IZR (ratio0 lv)) / pdx lv) by (apply Rdiv_lt_0_compat; [apply Rdiv_lt_0_compat; lra | lra]).
  destruct (location bb =? 0)%Z; repeat (apply Rmult_integral in G; destruct G as [G | G]; try lra).
Qed.
