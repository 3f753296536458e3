(** Proofs about the diffusion coefficients computed by C++ loops. *)
From Coq Require Import Reals ZArith List Bool Ascii Lia Lra FunctionalExtensionality.
From Verif Require Import Grid_Model Grid_Spec Grid_Proofs Functions_Model Functions_Proofs PhaseFlow_Model Trap3_Model Trap3_Proofs.
From Verif Require Import Coupl_Model Diff3_Spec Coupl_Spec Coupl_Proofs PtrDiff_Model PtrDiff_Spec.
Import ListNotations.
Open Scope R_scope.
Set Bullet Behavior "Strict Subproofs".

(** ** storing a matrix *)
Lemma store_all_val : forall n2 idx v p e,
  store_all n2 idx v p e = if ((0 <=? e) && (e <? n2))%Z%bool then store (p e) idx (v e) else p e.
Proof.
  intros n2 idx v p e. unfold store_all. destruct (Z.leb_spec 0 e) as [L | L]; cbn [andb].
  - destruct (Z.ltb_spec e n2) as [U | U].
    + destruct (loop_once fields (fun s s' => s e = s' e) 0 (n2 - 1) e (fun e s => store_at s e idx (v e)) p) as (s0 & E0 & E1); try lia.
      * reflexivity.
      * intros x y z A B. congruence.
      * intros i s _ N. unfold store_at. destruct (Z.eqb_spec e i); [lia | reflexivity].
      * rewrite <- E1. unfold store_at. rewrite Z.eqb_refl. rewrite E0. reflexivity.
    + symmetry. apply (loop_never fields (fun s s' => s e = s' e) 0 (n2 - 1) (fun e s => store_at s e idx (v e)) p).
      * reflexivity.
      * intros x y z A B. congruence.
      * intros i s B. unfold store_at. destruct (Z.eqb_spec e i); [lia | reflexivity].
  - symmetry. apply (loop_never fields (fun s s' => s e = s' e) 0 (n2 - 1) (fun e s => store_at s e idx (v e)) p).
    + reflexivity.
    + intros x y z A B. congruence.
    + intros i s B. unfold store_at. destruct (Z.eqb_spec e i); [lia | reflexivity].
Qed.

(** ** loops over the sides of one direction *)
Definition side_loop {S : Type} (d : dir3) (nd3 : bool) (b : box3) (body : Z -> Z -> Z -> S -> S) (s : S) : S :=
  match d with FX => x_loop nd3 b body s | FY => y_loop nd3 b body s | FZ => z_loop nd3 b body s end.
Lemma side_loop_cells : forall S d nd3 b (body : Z -> Z -> Z -> S -> S) s, (d = FZ -> nd3 = true) ->
  side_loop d nd3 b body s =
  do_cells3 (xl b) (match d with FX => xu b + 1 | _ => xu b end)%Z (yl b) (match d with FY => yu b + 1 | _ => yu b end)%Z
          (k_lo nd3 b) (match d with FZ => k_hi nd3 b + 1 | _ => k_hi nd3 b end)%Z body s.
Proof. intros S d nd3 b body s D. destruct d; [reflexivity | reflexivity |]. unfold side_loop, z_loop. rewrite (D eq_refl). reflexivity. Qed.
Lemma side_loop_proj : forall S T (pr : S -> T) d nd3 b (body : Z -> Z -> Z -> S -> S) (body' : Z -> Z -> Z -> T -> T) s,
  (forall i j k s, pr (body i j k s) = body' i j k (pr s)) -> pr (side_loop d nd3 b body s) = side_loop d nd3 b body' (pr s).
Proof.
  intros S T pr d nd3 b body body' s H. destruct d.
  - apply cells3_proj. exact H.
  - apply cells3_proj. exact H.
  - unfold side_loop, z_loop. destruct nd3; [apply cells3_proj; exact H | reflexivity].
Qed.
(** one value per side *)
Lemma ptr_at : forall d nd3 b g (v : Z -> Z -> Z -> R) (o : ptr) i j k, room nd3 g b 0 -> on_side nd3 b d i j k ->
  side_loop d nd3 b (fun i j k s => store s (sidx d nd3 g i j k) (v i j k)) o (side_place nd3 d g i j k) = v i j k.
Proof.
  intros d nd3 b g v o i j k R H. assert (D := side_dir _ _ _ _ _ _ H). apply loop_sides in H; auto.
  assert (F := loop_flat _ _ _ _ _ _ D H). rewrite side_loop_cells by auto. rewrite <- sidx_place by auto.
  apply (stored_at _ _ _ _ _ _ (fun i j k => sidx d nd3 g i j k) v).
  - intros. eapply side_inj; eauto.
  - exact H.
Qed.
Lemma ptr_else : forall d nd3 b g (v : Z -> Z -> Z -> R) (o : ptr) m, no_side nd3 b d g m ->
  side_loop d nd3 b (fun i j k s => store s (sidx d nd3 g i j k) (v i j k)) o m = o m.
Proof.
  intros d nd3 b g v o m H. destruct (dir_cases nd3 d) as [D | [-> ->]]; [| reflexivity]. rewrite side_loop_cells by auto.
  apply (stored_else _ _ _ _ _ _ (fun i j k => sidx d nd3 g i j k) v).
  intros i j k B. rewrite sidx_place; [apply H; apply loop_sides; [exact D | exact B] | exact D | eapply (loop_flat nd3 b d); [exact D | exact B]].
Qed.
(** two matrices per side *)
Definition pair_body (n2 : Z) (idx : Z -> Z -> Z -> Z) (vl va : Z -> Z -> Z -> Z -> R) (i j k : Z) (s : fields * fields) : fields * fields :=
  (store_all n2 (idx i j k) (vl i j k) (fst s), store_all n2 (idx i j k) (va i j k) (snd s)).
Lemma side_loop_id : forall S d nd3 b (s : S), side_loop d nd3 b (fun _ _ _ s => s) s = s.
Proof.
  intros S d nd3 b s. assert (L : forall lo hi (t : S), do_loop lo hi (fun _ t => t) t = t).
  { intros lo hi t. unfold do_loop. induction (range lo hi); auto. }
  assert (C : forall a a' c c' e e' (t : S), do_cells3 a a' c c' e e' (fun _ _ _ t => t) t = t).
  { intros. unfold do_cells3. rewrite <- (L e e' t) at 2. f_equal. extensionality k. extensionality u.
    rewrite <- (L c c' u) at 2. f_equal. extensionality j. extensionality w. apply L. }
  destruct d; [apply C | apply C |]. unfold side_loop, z_loop. destruct nd3; [apply C | reflexivity].
Qed.
Lemma pair_fst : forall d nd3 b n2 idx vl va s e, (0 <= e < n2)%Z ->
  fst (side_loop d nd3 b (pair_body n2 idx vl va) s) e = side_loop d nd3 b (fun i j k p => store p (idx i j k) (vl i j k e)) (fst s e).
Proof.
  intros d nd3 b n2 idx vl va s e E. apply (side_loop_proj _ _ (fun s : fields * fields => fst s e)).
  intros i j k t. cbn [pair_body fst]. rewrite store_all_val. rewrite (proj2 (Z.leb_le 0 e)), (proj2 (Z.ltb_lt e n2)) by lia. reflexivity.
Qed.
Lemma pair_snd : forall d nd3 b n2 idx vl va s e, (0 <= e < n2)%Z ->
  snd (side_loop d nd3 b (pair_body n2 idx vl va) s) e = side_loop d nd3 b (fun i j k p => store p (idx i j k) (va i j k e)) (snd s e).
Proof.
  intros d nd3 b n2 idx vl va s e E. apply (side_loop_proj _ _ (fun s : fields * fields => snd s e)).
  intros i j k t. cbn [pair_body snd]. rewrite store_all_val. rewrite (proj2 (Z.leb_le 0 e)), (proj2 (Z.ltb_lt e n2)) by lia. reflexivity.
Qed.
Lemma not_range : forall e n2 : Z, ~ (0 <= e < n2)%Z -> ((0 <=? e) && (e <? n2))%Z%bool = false.
Proof. intros e n2 H. destruct (Z.leb_spec 0 e); cbn [andb]; [| reflexivity]. apply Z.ltb_ge. lia. Qed.
Lemma pair_out : forall d nd3 b n2 idx vl va s e, ~ (0 <= e < n2)%Z ->
  fst (side_loop d nd3 b (pair_body n2 idx vl va) s) e = fst s e /\ snd (side_loop d nd3 b (pair_body n2 idx vl va) s) e = snd s e.
Proof.
  intros d nd3 b n2 idx vl va s e E. split.
  - rewrite (side_loop_proj _ _ (fun s : fields * fields => fst s e) d nd3 b _ (fun _ _ _ s => s)); [apply side_loop_id |].
    intros i j k t. cbn [pair_body fst]. rewrite store_all_val, not_range by auto. reflexivity.
  - rewrite (side_loop_proj _ _ (fun s : fields * fields => snd s e) d nd3 b _ (fun _ _ _ s => s)); [apply side_loop_id |].
    intros i j k t. cbn [pair_body snd]. rewrite store_all_val, not_range by auto. reflexivity.
Qed.
Definition two (d : dir3) (l a : sides) : fields * fields := (dir_of d l, dir_of d a).
(** a pair of results that is such a loop in each direction *)
Definition loops (nd3 : bool) (b : box3) (g : gbox) (n2 : Z) (vl va : dir3 -> Z -> Z -> Z -> Z -> R) (ol oa l a : sides) : Prop :=
  forall d, two d l a = side_loop d nd3 b (pair_body n2 (sidx d nd3 g) (vl d) (va d)) (two d ol oa).
Lemma loops_at : forall nd3 b g n2 vl va ol oa l a, loops nd3 b g n2 vl va ol oa l a -> room nd3 g b 0 ->
  (forall d i j k e, on_side nd3 b d i j k -> (0 <= e < n2)%Z -> entry nd3 d g l e i j k = vl d i j k e /\ entry nd3 d g a e i j k = va d i j k e)
  /\ kept nd3 b g n2 l ol /\ kept nd3 b g n2 a oa.
Proof.
  intros nd3 b g n2 vl va ol oa l a L R.
  assert (L1 : forall d, dir_of d l = fst (side_loop d nd3 b (pair_body n2 (sidx d nd3 g) (vl d) (va d)) (two d ol oa))) by (intro d; rewrite <- L; reflexivity).
  assert (L2 : forall d, dir_of d a = snd (side_loop d nd3 b (pair_body n2 (sidx d nd3 g) (vl d) (va d)) (two d ol oa))) by (intro d; rewrite <- L; reflexivity).
  split; [| split].
  - intros d i j k e H E. unfold entry. rewrite L1, L2, pair_fst, pair_snd by auto.
    split; [exact (ptr_at d nd3 b g (fun i j k => vl d i j k e) _ i j k R H) | exact (ptr_at d nd3 b g (fun i j k => va d i j k e) _ i j k R H)].
  - intros d e m H. rewrite L1. destruct (Z_le_dec 0 e) as [E0 |]; [destruct (Z_lt_dec e n2) as [E1 |] |].
    2, 3: rewrite (proj1 (pair_out d nd3 b n2 _ (vl d) (va d) (two d ol oa) e ltac:(lia))); reflexivity.
    destruct H as [H | H]; [lia |]. rewrite pair_fst by lia. exact (ptr_else d nd3 b g (fun i j k => vl d i j k e) _ m H).
  - intros d e m H. rewrite L2. destruct (Z_le_dec 0 e) as [E0 |]; [destruct (Z_lt_dec e n2) as [E1 |] |].
    2, 3: rewrite (proj2 (pair_out d nd3 b n2 _ (vl d) (va d) (two d ol oa) e ltac:(lia))); reflexivity.
    destruct H as [H | H]; [lia |]. rewrite pair_snd by lia. exact (ptr_else d nd3 b g (fun i j k => va d i j k e) _ m H).
Qed.

(** ** the guard, any state *)
Section Guard.
Variables (S : Type) (a0 a1 b0 b1 c0 c1 : Z) (ok : Z -> Z -> Z -> bool) (body : Z -> Z -> Z -> S -> S).
Let guarded (i j k : Z) (s : option S) : option S := match s with None => None | Some p => if ok i j k then Some (body i j k p) else None end.
Lemma guard_value : forall s r, do_cells3 a0 a1 b0 b1 c0 c1 guarded (Some s) = Some r -> r = do_cells3 a0 a1 b0 b1 c0 c1 body s.
Proof.
  intros s r E. assert (H := par_cells3 (option S) S (fun o p => forall q, o = Some q -> q = p) a0 a1 b0 b1 c0 c1 guarded body (Some s) s).
  cbv beta in H. apply H; auto.
  - intros q Q. injection Q as ->. reflexivity.
  - intros i j k a b _ IH q. unfold guarded. destruct a as [p |]; [| discriminate]. destruct (ok i j k); [| discriminate].
    intro Q. injection Q as <-. rewrite (IH p eq_refl). reflexivity.
Qed.
Lemma guard_runs : forall s, (forall i j k, in_box3 a0 a1 b0 b1 c0 c1 i j k -> ok i j k = true) ->
  do_cells3 a0 a1 b0 b1 c0 c1 guarded (Some s) = Some (do_cells3 a0 a1 b0 b1 c0 c1 body s).
Proof.
  intros s O. apply (par_cells3 (option S) S (fun o p => o = Some p) a0 a1 b0 b1 c0 c1 guarded body (Some s) s); auto.
  intros i j k a b B ->. unfold guarded. rewrite O by auto. reflexivity.
Qed.
Lemma guard_stops : forall s i j k, in_box3 a0 a1 b0 b1 c0 c1 i j k -> ok i j k = false -> do_cells3 a0 a1 b0 b1 c0 c1 guarded (Some s) = None.
Proof.
  intros s i j k B O.
  destruct (cells3_once (option S) (fun x y => x = None -> y = None) a0 a1 b0 b1 c0 c1 i j k guarded (Some s)) as (s0 & _ & E); auto.
  - intros i' j' k' s' _ _ ->. reflexivity.
  - apply E. unfold guarded. destruct s0; [rewrite O |]; reflexivity.
Qed.
End Guard.

(** ** coefficients of the phases *)
Definition mid (nd3 : bool) (g : gbox) (p : ptr) (d : dir3) (i j k : Z) : R :=
  1 / 2 * (p (idx_cell nd3 g i j k) + p (idx_cell nd3 g i j k - stride nd3 g d)%Z).
Definition phase_val (nd3 : bool) (gc gt : gbox) (n : Z) (mat : dmat) (temp : ptr) (c : fields) (d : dir3) (i j k : Z) : Z -> R :=
  mat (mid nd3 gt temp d i j k) (vec n (fun ic => mid nd3 gc (c ic) d i j k)).
Definition x_sound (nd3 : bool) (gc : gbox) (n : Z) (c_l : fields) (i j k : Z) : bool :=
  forallb (fun ic => tolerated (c_l ic (idx_cell nd3 gc i j k)) && tolerated (c_l ic (idx_cell nd3 gc i j k - 1)%Z)) (range 0 (n - 1)).
Lemma phase_loops : forall nd3 ch b gd gc gt n ml ma temp c_l c_a ol oa l a,
  phase_coeffs nd3 ch b gd gc gt n ml ma temp c_l c_a ol oa = Some (l, a) ->
  loops nd3 b gd (n * n) (phase_val nd3 gc gt n ml temp c_l) (phase_val nd3 gc gt n ma temp c_a) ol oa l a.
Proof.
  intros nd3 ch b gd gc gt n ml ma temp c_l c_a [[lx ly] lz] [[ax ay] az] l a E d. unfold phase_coeffs in E. cbv zeta in E.
  match type of E with context [x_loop nd3 b ?bd ?s] => destruct (x_loop nd3 b bd s) as [[lx' ax'] |] eqn:X end; [| discriminate].
  apply guard_value in X.
  match type of E with context [y_loop nd3 b ?bd ?s] => destruct (y_loop nd3 b bd s) as [ly' ay'] eqn:Y end.
  match type of E with context [z_loop nd3 b ?bd ?s] => destruct (z_loop nd3 b bd s) as [lz' az'] eqn:W end.
  injection E as <- <-. destruct d; unfold two; cbn [dir_of fst snd].
  - exact X.
  - symmetry. exact Y.
  - symmetry. exact W.
Qed.
Lemma mid_mean : forall nd3 g p d i j k, flat_k nd3 k -> (d = FZ -> nd3 = true) -> mid nd3 g p d i j k = side_mean nd3 g p d i j k.
Proof.
  intros nd3 g p d i j k F D. unfold mid, side_mean. rewrite low_place_idx, cell_place_idx, low3_at by auto. unfold cell_at, mean. field.
Qed.
Lemma phase_val_is : forall nd3 b gc gt n mat temp c d i j k, on_side nd3 b d i j k ->
  phase_val nd3 gc gt n mat temp c d i j k = mat (side_mean nd3 gt temp d i j k) (side_comp nd3 gc n c d i j k).
Proof.
  intros nd3 b gc gt n mat temp c d i j k H. assert (D := side_dir _ _ _ _ _ _ H). apply loop_sides in H; auto. assert (F := loop_flat _ _ _ _ _ _ D H).
  unfold phase_val. rewrite mid_mean by auto. f_equal. extensionality ic. unfold vec, side_comp. destruct (_ && _); [apply mid_mean; auto | reflexivity].
Qed.
Lemma tolerated_spec : forall c, tolerated c = true <-> sound c.
Proof. intro c. unfold tolerated, sound. destruct (Rle_dec _ c), (Rle_dec c _); cbn; split; intros; try discriminate; auto; lra. Qed.
Lemma x_sound_spec : forall nd3 b gc n c_l i j k, on_side nd3 b FX i j k ->
  (x_sound nd3 gc n c_l i j k = true <-> forall ic, (0 <= ic < n)%Z -> sound (cell_at nd3 gc (c_l ic) i j k) /\ sound (cell_at nd3 gc (c_l ic) (i - 1) j k)).
Proof.
  intros nd3 b gc n c_l i j k H. apply loop_sides in H; [| discriminate]. assert (F := loop_flat nd3 b FX i j k ltac:(discriminate) H).
  assert (P := low_place_idx nd3 gc FX i j k F ltac:(discriminate)). cbn [stride low3] in P.
  unfold x_sound. rewrite forallb_forall, P, cell_place_idx by auto. split.
  - intros A ic I. assert (Q := A ic). rewrite andb_true_iff, !tolerated_spec in Q. apply Q. apply in_range. lia.
  - intros A ic I. apply in_range in I. rewrite andb_true_iff, !tolerated_spec. apply A. lia.
Qed.
Definition checked (nd3 : bool) (b : box3) (gc : gbox) (n : Z) (c_l : fields) : Prop := forall i j k ic, on_side nd3 b FX i j k -> (0 <= ic < n)%Z ->
  sound (cell_at nd3 gc (c_l ic) i j k) /\ sound (cell_at nd3 gc (c_l ic) (i - 1) j k).
Lemma phase_runs : forall nd3 (ch : bool) b gd gc gt n ml ma temp c_l c_a ol oa,
  (ch = true -> forall i j k ic, on_side nd3 b FX i j k -> (0 <= ic < n)%Z -> sound (cell_at nd3 gc (c_l ic) i j k) /\ sound (cell_at nd3 gc (c_l ic) (i - 1) j k)) ->
  exists l a, phase_coeffs nd3 ch b gd gc gt n ml ma temp c_l c_a ol oa = Some (l, a).
Proof.
  intros nd3 ch b gd gc gt n ml ma temp c_l c_a [[lx ly] lz] [[ax ay] az] K. unfold phase_coeffs. cbv zeta. unfold x_loop.
  match goal with |- context [do_cells3 ?a ?a' ?b ?b' ?c ?c' (fun ii jj kk ss => match ss with None => None | Some pp => if @?ok ii jj kk then Some (@?bd ii jj kk pp) else None end) (Some ?s)] =>
    rewrite (guard_runs _ a a' b b' c c' ok bd s) end.
  - destruct (do_cells3 _ _ _ _ _ _ _ (lx, ax)) as [lx' ax']. destruct (y_loop _ _ _ _) as [ly' ay']. destruct (z_loop _ _ _ _) as [lz' az']. eauto.
  - intros i j k B. cbv beta. destruct ch; [| reflexivity]. cbn [negb orb].
    assert (H : loop_box nd3 b FX i j k) by exact B. apply loop_sides in H; [| discriminate].
    apply (proj2 (x_sound_spec nd3 b gc n c_l i j k H)). intros ic I. apply K; auto.
Qed.
Lemma phase_stops : forall nd3 b gd gc gt n ml ma temp c_l c_a ol oa i j k ic, on_side nd3 b FX i j k -> (0 <= ic < n)%Z ->
  ~ (sound (cell_at nd3 gc (c_l ic) i j k) /\ sound (cell_at nd3 gc (c_l ic) (i - 1) j k)) ->
  phase_coeffs nd3 true b gd gc gt n ml ma temp c_l c_a ol oa = None.
Proof.
  intros nd3 b gd gc gt n ml ma temp c_l c_a [[lx ly] lz] [[ax ay] az] i j k ic H I N. unfold phase_coeffs. cbv zeta. unfold x_loop.
  match goal with |- context [do_cells3 ?a ?a' ?b ?b' ?c ?c' (fun ii jj kk ss => match ss with None => None | Some pp => if @?ok ii jj kk then Some (@?bd ii jj kk pp) else None end) (Some ?s)] =>
    rewrite (guard_stops _ a a' b b' c c' ok bd s i j k) end.
  - reflexivity.
  - assert (B := H). apply loop_sides in B; [exact B | discriminate].
  - cbv beta. cbn [negb orb]. fold (x_sound nd3 gc n c_l i j k). destruct (x_sound nd3 gc n c_l i j k) eqn:X; [| reflexivity].
    elim N. apply (proj1 (x_sound_spec nd3 b gc n c_l i j k H) X ic I).
Qed.

(** ** weighted coefficients *)
Definition h_of (nd3 : bool) (gp : gbox) (phi : ptr) (it at_ : ascii) (d : dir3) (i j k : Z) : R :=
  val (interp_func (val (average_func (phi (idx_cell nd3 gp i j k)) (phi (idx_cell nd3 gp i j k - stride nd3 gp d)%Z) at_)) it).
Lemma weighted_loops : forall nd3 b gd gw gp n phi dl da it at_ ol oa l a,
  weighted_coeffs nd3 b gd gw gp n phi dl da it at_ ol oa = Some (l, a) ->
  loops nd3 b gw (n * n) (fun d i j k e => (1 - h_of nd3 gp phi it at_ d i j k) * dir_of d dl e (sidx d nd3 gd i j k))
    (fun d i j k e => h_of nd3 gp phi it at_ d i j k * dir_of d da e (sidx d nd3 gd i j k)) ol oa l a.
Proof.
  intros nd3 b gd gw gp n phi [[dlx dly] dlz] [[dax day] daz] it at_ [[lx ly] lz] [[ax ay] az] l a E d. unfold weighted_coeffs in E. cbv zeta in E.
  destruct (known_interp it at_); [| discriminate].
  match type of E with context [x_loop nd3 b ?bd ?s] => destruct (x_loop nd3 b bd s) as [lx' ax'] eqn:X end.
  match type of E with context [y_loop nd3 b ?bd ?s] => destruct (y_loop nd3 b bd s) as [ly' ay'] eqn:Y end.
  match type of E with context [z_loop nd3 b ?bd ?s] => destruct (z_loop nd3 b bd s) as [lz' az'] eqn:W end.
  injection E as <- <-. destruct d; unfold two; cbn [dir_of fst snd].
  - symmetry. exact X.
  - symmetry. exact Y.
  - symmetry. exact W.
Qed.
Lemma h_is : forall nd3 b gp phi it at_ d i j k, on_side nd3 b d i j k -> h_of nd3 gp phi it at_ d i j k = solid_part nd3 gp phi it at_ d i j k.
Proof.
  intros nd3 b gp phi it at_ d i j k H. assert (D := side_dir _ _ _ _ _ _ H). apply loop_sides in H; auto. assert (F := loop_flat _ _ _ _ _ _ D H).
  unfold h_of, solid_part, weight, averaged. rewrite low_place_idx, cell_place_idx, low3_at, average_symmetric by auto. reflexivity.
Qed.
Lemma weighted_runs : forall nd3 b gd gw gp n phi dl da it at_ ol oa, In it interps -> In at_ avgs ->
  exists l a, weighted_coeffs nd3 b gd gw gp n phi dl da it at_ ol oa = Some (l, a).
Proof.
  intros nd3 b gd gw gp n phi [[dlx dly] dlz] [[dax day] daz] it at_ [[lx ly] lz] [[ax ay] az] I A. unfold weighted_coeffs.
  rewrite known_interp_in by auto. cbv zeta. destruct (x_loop _ _ _ _). destruct (y_loop _ _ _ _). destruct (z_loop _ _ _ _). eauto.
Qed.

(** ** the claims *)
Lemma phase_coefficients : forall nd3 (ch : bool) b gd gc gt n ml ma temp c_l c_a ol oa, room nd3 gd b 0 ->
  (ch = true -> forall i j k ic, on_side nd3 b FX i j k -> (0 <= ic < n)%Z -> sound (cell_at nd3 gc (c_l ic) i j k) /\ sound (cell_at nd3 gc (c_l ic) (i - 1) j k)) ->
  exists l a, phase_coeffs nd3 ch b gd gc gt n ml ma temp c_l c_a ol oa = Some (l, a) /\
    (forall d i j k e, on_side nd3 b d i j k -> (0 <= e < n * n)%Z ->
       entry nd3 d gd l e i j k = ml (side_mean nd3 gt temp d i j k) (side_comp nd3 gc n c_l d i j k) e /\
       entry nd3 d gd a e i j k = ma (side_mean nd3 gt temp d i j k) (side_comp nd3 gc n c_a d i j k) e) /\
    kept nd3 b gd (n * n) l ol /\ kept nd3 b gd (n * n) a oa.
Proof.
  intros nd3 ch b gd gc gt n ml ma temp c_l c_a ol oa R K. destruct (phase_runs nd3 ch b gd gc gt n ml ma temp c_l c_a ol oa K) as (l & a & E).
  exists l, a. split; [exact E |]. destruct (loops_at _ _ _ _ _ _ _ _ _ _ (phase_loops _ _ _ _ _ _ _ _ _ _ _ _ _ _ _ _ E) R) as (V & K1 & K2).
  split; [| split; [exact K1 | exact K2]]. intros d i j k e H I. destruct (V d i j k e H I) as [V1 V2].
  rewrite V1, V2, !(phase_val_is nd3 b) by exact H. split; reflexivity.
Qed.
Lemma phase_checks : forall nd3 b gd gc gt n ml ma temp c_l c_a ol oa,
  phase_coeffs nd3 true b gd gc gt n ml ma temp c_l c_a ol oa = None <->
  exists i j k ic, on_side nd3 b FX i j k /\ (0 <= ic < n)%Z /\ ~ (sound (cell_at nd3 gc (c_l ic) i j k) /\ sound (cell_at nd3 gc (c_l ic) (i - 1) j k)).
Proof.
  intros nd3 b gd gc gt n ml ma temp c_l c_a ol oa. split.
  - intro E. apply Classical_Prop.NNPP. intro N.
    destruct (phase_runs nd3 true b gd gc gt n ml ma temp c_l c_a ol oa) as (l & a & E'); [| congruence].
    intros _ i j k ic H I. apply Classical_Prop.NNPP. intro M. apply N. exists i, j, k, ic. auto.
  - intros (i & j & k & ic & H & I & N). exact (phase_stops nd3 b gd gc gt n ml ma temp c_l c_a ol oa i j k ic H I N).
Qed.
Lemma weighted_coefficients : forall nd3 b gd gw gp n phi dl da it at_ ol oa, room nd3 gw b 0 -> In it interps -> In at_ avgs ->
  exists l a, weighted_coeffs nd3 b gd gw gp n phi dl da it at_ ol oa = Some (l, a) /\
    (forall d i j k e, on_side nd3 b d i j k -> (0 <= e < n * n)%Z ->
       let h := solid_part nd3 gp phi it at_ d i j k in
       entry nd3 d gw l e i j k = (1 - h) * entry nd3 d gd dl e i j k /\ entry nd3 d gw a e i j k = h * entry nd3 d gd da e i j k) /\
    kept nd3 b gw (n * n) l ol /\ kept nd3 b gw (n * n) a oa.
Proof.
  intros nd3 b gd gw gp n phi dl da it at_ ol oa R I A. destruct (weighted_runs nd3 b gd gw gp n phi dl da it at_ ol oa I A) as (l & a & E).
  exists l, a. split; [exact E |]. destruct (loops_at _ _ _ _ _ _ _ _ _ _ (weighted_loops _ _ _ _ _ _ _ _ _ _ _ _ _ _ _ E) R) as (V & K1 & K2).
  split; [| split; [exact K1 | exact K2]]. intros d i j k e H J h. destruct (V d i j k e H J) as [V1 V2].
  rewrite V1, V2, (h_is nd3 b) by exact H. assert (D := side_dir _ _ _ _ _ _ H). assert (B := H). apply loop_sides in B; auto. assert (F := loop_flat _ _ _ _ _ _ D B).
  unfold entry. rewrite sidx_place by auto. split; reflexivity.
Qed.
Lemma weight_unit : forall it x, In it interps -> 0 <= x <= 1 -> 0 <= weight it x <= 1.
Proof.
  intros it x I X. destruct I as [<- | [<- | [<- | []]]].
  - rewrite weight_p by auto. split.
    + apply Rmult_le_pos; [apply Rmult_le_pos; [apply Rmult_le_pos |] |]; try lra. assert (0 <= x * x) by (apply Rmult_le_pos; lra). nra.
    + assert (E : 1 - x * x * x * (10 - 15 * x + 6 * x * x) = (1 - x) * (1 - x) * (1 - x) * (1 + 3 * x + 6 * x * x)) by ring.
      assert (0 <= (1 - x) * (1 - x) * (1 - x) * (1 + 3 * x + 6 * x * x)); [| lra].
      assert (0 <= x * x) by (apply Rmult_le_pos; lra). repeat apply Rmult_le_pos; lra.
  - rewrite weight_l by auto. exact X.
  - rewrite weight_h by auto. assert (0 <= x * x) by (apply Rmult_le_pos; lra). split.
    + apply Rmult_le_pos; lra.
    + assert (E : 1 - x * x * (3 - 2 * x) = (1 - x) * (1 - x) * (1 + 2 * x)) by ring.
      assert (0 <= (1 - x) * (1 - x) * (1 + 2 * x)) by (repeat apply Rmult_le_pos; lra). lra.
Qed.
Lemma patch_diffusion : forall nd3 (ch : bool) b gd gw gc gt gp n ml ma temp phi c_l c_a it at_ dold out,
  room nd3 gd b 0 -> room nd3 gw b 0 -> In it interps -> In at_ avgs ->
  (ch = true -> forall i j k ic, on_side nd3 b FX i j k -> (0 <= ic < n)%Z -> sound (cell_at nd3 gc (c_l ic) i j k) /\ sound (cell_at nd3 gc (c_l ic) (i - 1) j k)) ->
  exists l a, set_diffusion nd3 ch b gd gw gc gt gp n ml ma temp phi c_l c_a it at_ dold out = Some (l, a) /\
    (forall d i j k e, on_side nd3 b d i j k -> (0 <= e < n * n)%Z ->
       let h := solid_part nd3 gp phi it at_ d i j k in let t := side_mean nd3 gt temp d i j k in
       entry nd3 d gw l e i j k = (1 - h) * ml t (side_comp nd3 gc n c_l d i j k) e /\
       entry nd3 d gw a e i j k = h * ma t (side_comp nd3 gc n c_a d i j k) e /\
       (0 <= cell_at nd3 gp phi i j k <= 1 -> 0 <= low3 (cell_at nd3 gp phi) d i j k <= 1 -> 0 <= h <= 1)) /\
    kept nd3 b gw (n * n) l (fst out) /\ kept nd3 b gw (n * n) a (snd out).
Proof.
  intros nd3 ch b gd gw gc gt gp n ml ma temp phi c_l c_a it at_ dold out Rd Rw I A K. unfold set_diffusion.
  destruct (phase_coefficients nd3 ch b gd gc gt n ml ma temp c_l c_a (fst dold) (snd dold) Rd K) as (dl & da & -> & V & _).
  destruct (weighted_coefficients nd3 b gd gw gp n phi dl da it at_ (fst out) (snd out) Rw I A) as (l & a & -> & W & K1 & K2).
  exists l, a. split; [reflexivity |]. split; [| split; [exact K1 | exact K2]]. intros d i j k e H J. cbv zeta.
  destruct (W d i j k e H J) as [W1 W2]. destruct (V d i j k e H J) as [V1 V2]. rewrite W1, W2, V1, V2. split; [reflexivity |]. split; [reflexivity |].
  intros P Q. apply weight_unit; auto. apply averaged_unit; auto.
Qed.
(** reads and writes stay inside the arrays *)
Lemma agree_mean : forall nd3 b g p q d i j k, room nd3 g b 1 -> agree (cells_of nd3 g) p q -> on_side nd3 b d i j k ->
  cell_at nd3 g p i j k = cell_at nd3 g q i j k /\ low3 (cell_at nd3 g p) d i j k = low3 (cell_at nd3 g q) d i j k.
Proof.
  intros nd3 b g p q d i j k R A H. assert (D := side_dir _ _ _ _ _ _ H). apply loop_sides in H; auto.
  destruct (cell_bound nd3 g b d i j k D R H) as [P1 P2]. rewrite <- !low3_at. unfold cell_at. rewrite (A _ P1), (A _ P2). split; reflexivity.
Qed.
Lemma agree_comp : forall nd3 b g n c c' d i j k, room nd3 g b 1 -> (forall ic, (0 <= ic < n)%Z -> agree (cells_of nd3 g) (c ic) (c' ic)) -> on_side nd3 b d i j k ->
  side_comp nd3 g n c d i j k = side_comp nd3 g n c' d i j k.
Proof.
  intros nd3 b g n c c' d i j k R A H. extensionality ic. unfold side_comp. destruct (Z.leb_spec 0 ic); cbn [andb]; [| reflexivity].
  destruct (Z.ltb_spec ic n); [| reflexivity]. unfold side_mean. destruct (agree_mean nd3 b g (c ic) (c' ic) d i j k R (A ic ltac:(lia)) H) as [E1 E2]. rewrite E1, E2. reflexivity.
Qed.
Lemma patch_memory : forall nd3 ch b gd gw gc gt gp n ml ma temp phi c_l c_a temp' phi' c_l' c_a' it at_ dold dold' out l a l' a',
  room nd3 gd b 0 -> room nd3 gw b 0 -> room nd3 gc b 1 -> room nd3 gt b 1 -> room nd3 gp b 1 -> In it interps -> In at_ avgs ->
  agree (cells_of nd3 gt) temp temp' -> agree (cells_of nd3 gp) phi phi' ->
  (forall ic, (0 <= ic < n)%Z -> agree (cells_of nd3 gc) (c_l ic) (c_l' ic) /\ agree (cells_of nd3 gc) (c_a ic) (c_a' ic)) ->
  set_diffusion nd3 ch b gd gw gc gt gp n ml ma temp phi c_l c_a it at_ dold out = Some (l, a) ->
  set_diffusion nd3 ch b gd gw gc gt gp n ml ma temp' phi' c_l' c_a' it at_ dold' out = Some (l', a') ->
  (forall d i j k e, on_side nd3 b d i j k -> (0 <= e < n * n)%Z ->
     entry nd3 d gw l e i j k = entry nd3 d gw l' e i j k /\ entry nd3 d gw a e i j k = entry nd3 d gw a' e i j k) /\
  (forall d e m, ~ (0 <= m < sides_of nd3 d gw)%Z -> dir_of d l e m = dir_of d (fst out) e m /\ dir_of d a e m = dir_of d (snd out) e m).
Proof.
  intros nd3 ch b gd gw gc gt gp n ml ma temp phi c_l c_a temp' phi' c_l' c_a' it at_ dold dold' out l a l' a' Rd Rw Rc Rt Rp I A At Ap Ac E E'.
  assert (U : forall temp phi c_l c_a dold l a, set_diffusion nd3 ch b gd gw gc gt gp n ml ma temp phi c_l c_a it at_ dold out = Some (l, a) ->
    (forall d i j k e, on_side nd3 b d i j k -> (0 <= e < n * n)%Z ->
       let h := solid_part nd3 gp phi it at_ d i j k in let t := side_mean nd3 gt temp d i j k in
       entry nd3 d gw l e i j k = (1 - h) * ml t (side_comp nd3 gc n c_l d i j k) e /\
       entry nd3 d gw a e i j k = h * ma t (side_comp nd3 gc n c_a d i j k) e) /\
    kept nd3 b gw (n * n) l (fst out) /\ kept nd3 b gw (n * n) a (snd out)).
  { clear - Rd Rw I A. intros temp phi c_l c_a dold l a E.
    destruct (patch_diffusion nd3 ch b gd gw gc gt gp n ml ma temp phi c_l c_a it at_ dold out Rd Rw I A) as (l0 & a0 & E0 & V & K1 & K2).
    - intros -> i j k ic H J. apply Classical_Prop.NNPP. intro N. unfold set_diffusion in E.
      rewrite (phase_stops nd3 b gd gc gt n ml ma temp c_l c_a _ _ i j k ic H J N) in E. discriminate.
    - rewrite E in E0. injection E0 as <- <-. split; [| split; assumption]. intros d i j k e H J h t. destruct (V d i j k e H J) as (V1 & V2 & _). split; assumption. }
  destruct (U _ _ _ _ _ _ _ E) as (V & K1 & K2). destruct (U _ _ _ _ _ _ _ E') as (V' & _ & _). split.
  - intros d i j k e H J. destruct (V d i j k e H J) as [-> ->]. destruct (V' d i j k e H J) as [-> ->].
    destruct (agree_mean nd3 b gt temp temp' d i j k Rt At H) as [T1 T2]. destruct (agree_mean nd3 b gp phi phi' d i j k Rp Ap H) as [P1 P2].
    unfold solid_part, side_mean. rewrite T1, T2, P1, P2.
    rewrite (agree_comp nd3 b gc n c_l c_l' d i j k Rc (fun ic J => proj1 (Ac ic J)) H), (agree_comp nd3 b gc n c_a c_a' d i j k Rc (fun ic J => proj2 (Ac ic J)) H). split; reflexivity.
  - intros d e m M. assert (N : no_side nd3 b d gw m).
    { intros i j k H ->. apply M. assert (D := side_dir _ _ _ _ _ _ H). apply loop_sides in H; auto. assert (F := loop_flat _ _ _ _ _ _ D H).
      rewrite <- sidx_place by auto. apply (side_bound nd3 b); auto. }
    split; [apply K1 | apply K2]; right; exact N.
Qed.
(** a composition that only a y side reads is not checked *)
Lemma checks_refuted : exists (c : fields) l a, on_side false unit_box FY 0 1 0 /\ ~ sound (cell_at false (grown unit_box 1) (c 0%Z) 0 1 0) /\
  side_comp false (grown unit_box 1) 1 c FY 0 1 0 0%Z = 1 /\
  phase_coeffs false true unit_box (grown unit_box 0) (grown unit_box 1) (grown unit_box 1) 1 (fun _ x => x) (fun _ x => x) (fun _ => 0) c c
    (fun _ _ => 0, fun _ _ => 0, fun _ _ => 0) (fun _ _ => 0, fun _ _ => 0, fun _ _ => 0) = Some (l, a).
Proof.
  exists (fun _ m => if (m =? 7)%Z then 2 else 0).
  destruct (phase_runs false true unit_box (grown unit_box 0) (grown unit_box 1) (grown unit_box 1) 1 (fun _ x => x) (fun _ x => x) (fun _ => 0)
    (fun _ m => if (m =? 7)%Z then 2 else 0) (fun _ m => if (m =? 7)%Z then 2 else 0)
    (fun _ _ => 0, fun _ _ => 0, fun _ _ => 0) (fun _ _ => 0, fun _ _ => 0, fun _ _ => 0)) as (l & a & E).
  - intros _ i j k ic [H ->] _. unfold in_box in H. cbn [xl xu yl yu unit_box] in H. assert (j = 0)%Z by lia. subst j.
    assert (C : (i = 0 \/ i = 1)%Z) by lia. destruct C as [-> | ->]; unfold cell_at, sound; cbn -[IZR Rdiv]; lra.
  - exists l, a. split; [cbn; unfold in_box; lia |]. split; [unfold cell_at, sound; cbn -[IZR Rdiv]; lra |]. split; [| exact E].
    unfold side_comp, side_mean, mean, cell_at. cbn -[IZR Rdiv]. lra.
Qed.

(** ** spinodal decomposition *)
Lemma spinodal_pick : forall nd3 b gd gc gt n d0 temp c out d,
  pick3 d (spinodal_coeffs nd3 b gd gc gt n d0 temp c out) =
  side_loop d nd3 b (fun i j k s => store s (sidx d nd3 gd i j k) (d0 (mid nd3 gt temp d i j k) (vec n (fun ic => mid nd3 gc (c ic) d i j k)))) (pick3 d out).
Proof. intros nd3 b gd gc gt n d0 temp c [[ox oy] oz] d. destruct d; reflexivity. Qed.
Lemma spinodal_coefficient : forall nd3 b gd gc gt n d0 temp c out, room nd3 gd b 0 ->
  let f := spinodal_coeffs nd3 b gd gc gt n d0 temp c out in
  (forall d i j k, on_side nd3 b d i j k -> side_at nd3 d gd f i j k = d0 (side_mean nd3 gt temp d i j k) (side_comp nd3 gc n c d i j k)) /\
  (forall d m, no_side nd3 b d gd m -> pick3 d f m = pick3 d out m).
Proof.
  intros nd3 b gd gc gt n d0 temp c out R f. unfold f. split.
  - intros d i j k H. unfold side_at. rewrite spinodal_pick.
    rewrite (ptr_at d nd3 b gd (fun i j k => d0 (mid nd3 gt temp d i j k) (vec n (fun ic => mid nd3 gc (c ic) d i j k))) _ i j k R H).
    exact (f_equal (fun g => g 0%Z) (phase_val_is nd3 b gc gt n (fun t x _ => d0 t x) temp c d i j k H)).
  - intros d m N. rewrite spinodal_pick.
    exact (ptr_else d nd3 b gd (fun i j k => d0 (mid nd3 gt temp d i j k) (vec n (fun ic => mid nd3 gc (c ic) d i j k))) _ m N).
Qed.
Lemma upd2_twice : forall (a : arr2) i j v w x y, upd2 (upd2 a i j v) i j w x y = upd2 a i j w x y.
Proof. intros. unfold upd2. destruct (_ && _); reflexivity. Qed.
Lemma upd2_self : forall (a : arr2) i j v, upd2 a i j v i j = v.
Proof. intros. unfold upd2. rewrite !Z.eqb_refl. reflexivity. Qed.
Lemma spinodal_value : forall lo0 hi0 lo1 hi1 h0 h1 conc ca cb d0 d1 eta kappa f,
  (forall i j, (lo0 <= i <= hi0 + 1)%Z -> (lo1 <= j <= hi1)%Z -> fst (spinodal_flux lo0 hi0 lo1 hi1 h0 h1 conc ca cb d0 d1 eta kappa f) i j =
     1 / h0 * (d0 i j * (conc i j - conc (i - 1)%Z j) - kappa * (1 / 2 * (ca (i - 1)%Z j + ca i j) - 1 / 2 * (cb (i - 1)%Z j + cb i j)) * (eta i j - eta (i - 1)%Z j))) /\
  (forall i j, (lo0 <= i <= hi0)%Z -> (lo1 <= j <= hi1 + 1)%Z -> snd (spinodal_flux lo0 hi0 lo1 hi1 h0 h1 conc ca cb d0 d1 eta kappa f) i j =
     1 / h1 * (d1 i j * (conc i j - conc i (j - 1)%Z) - kappa * (1 / 2 * (ca i (j - 1)%Z + ca i j) - 1 / 2 * (cb i (j - 1)%Z + cb i j)) * (eta i j - eta i (j - 1)%Z))).
Proof.
  intros lo0 hi0 lo1 hi1 h0 h1 conc ca cb d0 d1 eta kappa [f0 f1]. unfold spinodal_flux. cbv zeta. cbn [fst snd]. split; intros i j I J.
  - rewrite (set_loop2 _ _ _ _ (fun i j => 1 / h0 * (d0 i j * (conc i j - conc (i - 1)%Z j) - kappa * (1 / 2 * (ca (i - 1)%Z j + ca i j) - 1 / 2 * (cb (i - 1)%Z j + cb i j)) * (eta i j - eta (i - 1)%Z j)))).
    + rewrite !inbT by auto. reflexivity.
    + intros a c s x y. rewrite upd2_twice, upd2_self, Rplus_0_l. reflexivity.
  - rewrite (set_loop2 _ _ _ _ (fun i j => 1 / h1 * (d1 i j * (conc i j - conc i (j - 1)%Z) - kappa * (1 / 2 * (ca i (j - 1)%Z + ca i j) - 1 / 2 * (cb i (j - 1)%Z + cb i j)) * (eta i j - eta i (j - 1)%Z)))).
    + rewrite !inbT by auto. reflexivity.
    + intros a c s x y. rewrite upd2_twice, upd2_self, Rplus_0_l. reflexivity.
Qed.
Lemma patch_flux_value : forall s b ng cells coeffs f d i j k, on_side false b d i j k ->
  let g := grown b ng in
  flux2_at (spinodal_patch_flux s b ng cells coeffs f) d i j =
  spinodal_law (spacing b d) (side_at false d (grown b 0) (coeffs (id_diff s)) i j k) (s_kappa s) (both false g (cells (id_conc s)) d i j k)
    (both false g (cells (id_a s)) d i j k) (both false g (cells (id_b s)) d i j k) (both false g (cells (id_eta s)) d i j k).
Proof.
  intros s b ng cells coeffs f d i j k H g. unfold spinodal_patch_flux. cbv zeta.
  match goal with |- context [spinodal_flux ?a ?b ?c ?d ?e ?f ?g ?h ?i ?j ?k ?l ?m ?n] => destruct (spinodal_value a b c d e f g h i j k l m n) as [SX SY] end.
  rewrite <- f_side_at. destruct d; cbn [on_side] in H; [| | elim H]; destruct H as [[H1 H2] ->]; cbn [flux2_at at_face3].
  - rewrite SX by auto. rewrite !f_cell_at. unfold g, spinodal_law, both, mean, low3, spacing, Rdiv. cbn [fst snd]. ring.
  - rewrite SY by auto. rewrite !f_cell_at. unfold g, spinodal_law, both, mean, low3, spacing, Rdiv. cbn [fst snd]. ring.
Qed.
(** the coefficients and the flux of a patch: the order parameter of the flux is the phase *)
Lemma spinodal_patch : forall conc phase eta n a bb diff kappa s b ng gt d0 temp cells coeffs out f d i j k,
  make_spinodal conc phase eta n a bb diff kappa = Some s -> on_side false b d i j k ->
  let g := grown b ng in
  coeffs diff = spinodal_coeffs false b (grown b 0) g gt 1 d0 temp (fun _ => cells conc) out ->
  flux2_at (spinodal_patch_flux s b ng cells coeffs f) d i j =
  spinodal_law (spacing b d) (d0 (side_mean false gt temp d i j k) (side_comp false g 1 (fun _ => cells conc) d i j k)) kappa (both false g (cells conc) d i j k)
    (both false g (cells a) d i j k) (both false g (cells bb) d i j k) (both false g (cells phase) d i j k).
Proof.
  intros conc phase eta n a bb diff kappa s b ng gt d0 temp cells coeffs out f d i j k M H g C.
  unfold make_spinodal in M. destruct (_ && _ && _ && _ && _); [| discriminate]. injection M as <-.
  rewrite (patch_flux_value _ b ng cells coeffs f d i j k H). cbn [id_conc id_eta id_a id_b id_diff s_kappa]. rewrite C.
  destruct (spinodal_coefficient false b (grown b 0) g gt 1 d0 temp (fun _ => cells conc) out) as [V _].
  - apply room_grown. lia.
  - rewrite (V d i j k H). reflexivity.
Qed.
Lemma spinodal_accepts : forall conc phase eta n a b diff kappa,
  (exists s, make_spinodal conc phase eta n a b diff kappa = Some s) <-> (0 <= eta /\ 0 <= a /\ 0 <= b /\ 0 <= diff /\ 0 < n)%Z.
Proof.
  intros. unfold make_spinodal. split.
  - intros [s E]. destruct (Z.ltb_spec (-1) eta), (Z.ltb_spec (-1) a), (Z.ltb_spec (-1) b), (Z.ltb_spec (-1) diff), (Z.ltb_spec 0 n); cbn in E; try discriminate. lia.
  - intros (A & B & C & D & E). rewrite (proj2 (Z.ltb_lt (-1) eta)), (proj2 (Z.ltb_lt (-1) a)), (proj2 (Z.ltb_lt (-1) b)), (proj2 (Z.ltb_lt (-1) diff)), (proj2 (Z.ltb_lt 0 n)) by lia.
    cbn [andb]. eauto.
Qed.
(** the data of eta do not matter, where the law needs them *)
Lemma spinodal_eta_refuted : forall conc phase eta n a b diff kappa s, make_spinodal conc phase eta n a b diff kappa = Some s ->
  ~ In eta [conc; phase; a; b] -> a <> b -> kappa <> 0 ->
  (forall bx ng cells cells' coeffs f, (forall id, id <> eta -> cells id = cells' id) ->
     spinodal_patch_flux s bx ng cells coeffs f = spinodal_patch_flux s bx ng cells' coeffs f) /\
  exists cells coeffs, let g := grown unit_box 1 in
    flux2_at (spinodal_patch_flux s unit_box 1 cells coeffs (fun _ _ => 0, fun _ _ => 0)) FX 0 0 <>
    spinodal_law (spacing unit_box FX) (side_at false FX (grown unit_box 0) (coeffs diff) 0 0 0) kappa (both false g (cells conc) FX 0 0 0)
      (both false g (cells a) FX 0 0 0) (both false g (cells b) FX 0 0 0) (both false g (cells eta) FX 0 0 0).
Proof.
  intros conc phase eta n a b diff kappa s M N AB K. unfold make_spinodal in M. destruct (_ && _ && _ && _ && _); [| discriminate]. injection M as <-.
  cbn [In] in N. split.
  - intros bx ng cells cells' coeffs f E. unfold spinodal_patch_flux. cbn [id_conc id_eta id_a id_b id_diff s_kappa].
    rewrite (E conc), (E phase), (E a), (E b) by tauto. reflexivity.
  - exists (fun id => if (id =? a)%Z then fun _ => 1 else if (id =? eta)%Z then fun m => if (m =? 4)%Z then 1 else 0 else fun _ => 0), (fun _ => zeros).
    cbv zeta. assert (H : on_side false unit_box FX 0 0 0) by (cbn; unfold in_box; lia). rewrite (patch_flux_value _ _ _ _ _ _ _ _ _ _ H).
    cbn [id_conc id_eta id_a id_b id_diff s_kappa]. rewrite !Z.eqb_refl.
    destruct (Z.eqb_spec b a) as [E | _]; [congruence |]. destruct (Z.eqb_spec eta a) as [E | _]; [exfalso; apply N; auto |].
    destruct (Z.eqb_spec b eta) as [E | _]; [exfalso; apply N; auto |].
    destruct (Z.eqb_spec phase eta) as [E | _]; [exfalso; apply N; auto |].
    unfold spinodal_law, both, mean, low3, cell_at. destruct (phase =? a)%Z; destruct (conc =? a)%Z; destruct (Z.eqb_spec conc eta) as [E | _]; try (exfalso; apply N; auto; fail);
      cbn -[IZR Rdiv]; lra.
Qed.
