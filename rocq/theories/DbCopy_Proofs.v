From Coq Require Import ZArith Reals String Ascii List Bool Lia Lra.
From Flocq Require Import Core Relative.
From Verif Require Import DbCopy_Model DbCopy_Spec.
Import ListNotations.
Open Scope R_scope.
Open Scope string_scope.
Set Bullet Behavior "Strict Subproofs".

(* ------------------------------------------------------------------ *)
(* Induction on entries                                                 *)

Section Induction.
Variable P : entry -> Prop.
Hypothesis HS : forall l, Forall (fun ke => P (snd ke)) l -> P (Section l).
Hypothesis HB : forall b, P (Bools b).
Hypothesis HC : forall b, P (Chars b).
Hypothesis HI : forall b, P (Ints b).
Hypothesis HD : forall b, P (Doubles b).
Hypothesis HF : forall b, P (Floats b).
Hypothesis HT : forall b, P (Strings b).
Hypothesis HO : P Other.
Fixpoint entry_ind' (e : entry) : P e :=
  match e with
  | Section l => HS l ((fix go (l : list (string * entry)) : Forall (fun ke => P (snd ke)) l :=
      match l with [] => Forall_nil _ | (k, f) :: r => Forall_cons (P := fun ke => P (snd ke)) (k, f) (entry_ind' f) (go r) end) l)
  | Bools b => HB b | Chars b => HC b | Ints b => HI b | Doubles b => HD b
  | Floats b => HF b | Strings b => HT b | Other => HO
  end.
End Induction.

(* ------------------------------------------------------------------ *)
(* Paths                                                                *)

Lemma append_assoc : forall a b c : string, (a ++ b) ++ c = a ++ (b ++ c).
Proof. induction a as [|x a IH]; intros b c; cbn; [reflexivity|]. rewrite IH. reflexivity. Qed.
Lemma append_nil : forall a : string, a ++ "" = a.
Proof. induction a as [|x a IH]; cbn; [reflexivity|]. rewrite IH. reflexivity. Qed.

Lemma fragments_from_plain : forall s acc, (forall a b, s <> a ++ "." ++ b) -> fragments_from acc s = [acc ++ s].
Proof.
  induction s as [|c s IH]; intros acc H; cbn [fragments_from].
  - rewrite append_nil. reflexivity.
  - destruct (Ascii.eqb c ".") eqn:E.
    + exfalso. apply Ascii.eqb_eq in E. subst c. apply (H "" s). reflexivity.
    + rewrite IH.
      * rewrite append_assoc. reflexivity.
      * intros a b ->. apply (H (String c a) b). reflexivity.
Qed.
Lemma fragments_plain : forall k, plain_key k -> fragments k = [k].
Proof.
  intros k [N H]. unfold fragments. destruct k as [|c k]; [congruence|].
  rewrite fragments_from_plain by exact H. reflexivity.
Qed.

Lemma at_child_new : forall k f l, ~ In k (map fst l) -> at_child k f l = (l ++ [(k, f empty_tree)])%list.
Proof.
  induction l as [|[k' t] l IH]; intros N; cbn; [reflexivity|].
  destruct (String.eqb k k') eqn:E.
  - apply String.eqb_eq in E. subst. exfalso. apply N. left. reflexivity.
  - rewrite IH; [reflexivity|]. intro I. apply N. right. exact I.
Qed.
Lemma put_new : forall k v d l, plain_key k -> ~ In k (map fst l) -> put k v (Node d l) = Node d (l ++ [(k, Node v [])])%list.
Proof. intros k v d l H N. unfold put. rewrite fragments_plain by exact H. cbn. rewrite at_child_new by exact N. reflexivity. Qed.
Lemma add_new : forall k u d l, plain_key k -> add_child k u (Node d l) = Node d (l ++ [(k, u)])%list.
Proof. intros k u d l H. unfold add_child. rewrite fragments_plain by exact H. reflexivity. Qed.

(* ------------------------------------------------------------------ *)
(* The tree of a database                                               *)

Definition array_image {A : Type} (f : A -> text) (l : list A) : tree :=
  match l with [v] => Node (f v) [] | _ => nodes (map f l) end.
Fixpoint image (e : entry) : tree :=
  match e with
  | Section l => Node no_text (flat_map (fun ke => let '(k, e') := ke in if readableb e' then [(k, image e')] else []) l)
  | Chars c => array_image char_text c
  | Ints i => array_image int_text i
  | Doubles x => array_image double_text x
  | Floats x => array_image float_text x
  | Strings s => array_image Letters s
  | Bools _ | Other => empty_tree
  end.
Definition images (l : list (string * entry)) : list (string * tree) :=
  flat_map (fun ke => let '(k, e') := ke in if readableb e' then [(k, image e')] else []) l.

Lemma images_cons : forall k e l, images ((k, e) :: l) = ((if readableb e then [(k, image e)] else []) ++ images l)%list.
Proof. reflexivity. Qed.
Lemma image_section : forall l, image (Section l) = Node no_text (images l).
Proof. reflexivity. Qed.

Lemma images_keys : forall l, map fst (images l) = map fst (filter (fun ke => readableb (snd ke)) l).
Proof.
  induction l as [|[k e] l IH]; [reflexivity|]. rewrite images_cons. cbn [filter snd].
  destruct (readableb e); cbn; rewrite IH; reflexivity.
Qed.
Lemma images_in : forall l k t, In (k, t) (images l) <-> exists e, In (k, e) l /\ readableb e = true /\ t = image e.
Proof.
  induction l as [|[k0 e0] l IH]; intros k t.
  - cbn. split; [tauto|]. intros (e & [] & _).
  - rewrite images_cons, in_app_iff, IH. split.
    + intros [I | (e & I & R & E)].
      * destruct (readableb e0) eqn:R0; [|destruct I]. destruct I as [I|[]]. injection I as -> <-.
        exists e0. split; [left; reflexivity|]. split; [exact R0|reflexivity].
      * exists e. split; [right; exact I|]. split; assumption.
    + intros (e & [I|I] & R & E).
      * injection I as -> ->. left. rewrite R. left. subst t. reflexivity.
      * right. exists e. repeat split; assumption.
Qed.
Lemma images_keys_incl : forall l k, In k (map fst (images l)) -> In k (map fst l).
Proof.
  intros l k I. apply in_map_iff in I. destruct I as ([k' t] & E & I). cbn in E. subst k'.
  apply images_in in I. destruct I as (e & I & _). apply in_map_iff. exists (k, e). split; [reflexivity|exact I].
Qed.

Lemma well_formed_keys : forall l, well_formed (Section l) -> NoDup (map fst l) /\ Forall plain_key (map fst l).
Proof. intros l W. apply (W [] l). constructor. Qed.
Lemma well_formed_in : forall l k e, well_formed (Section l) -> In (k, e) l -> well_formed e.
Proof. intros l k e W I p l' H. apply (W (k :: p) l'). econstructor; eassumption. Qed.

Lemma copy_array_new : forall (A : Type) (f : A -> text) k (v : list A) d l, plain_key k -> ~ In k (map fst l) ->
  copy_array f k v (Node d l) = Node d (l ++ [(k, array_image f v)])%list.
Proof.
  intros A f k v d l H N. destruct v as [|a [|b v]]; unfold copy_array, array_image.
  - apply add_new, H.
  - apply put_new; assumption.
  - apply add_new, H.
Qed.

Definition copies_to_image (e : entry) : Prop :=
  well_formed e -> forall k d l, plain_key k -> ~ In k (map fst l) ->
  copy_entry k e (Node d l) = Node d (l ++ (if readableb e then [(k, image e)] else []))%list.

Lemma copy_entries_images : forall l, Forall (fun ke => copies_to_image (snd ke)) l ->
  NoDup (map fst l) -> Forall plain_key (map fst l) -> (forall k e, In (k, e) l -> well_formed e) ->
  forall d c, (forall k, In k (map fst l) -> ~ In k (map fst c)) ->
  fold_left (fun u ke => let '(k', e') := ke in copy_entry k' e' u) l (Node d c) = Node d (c ++ images l)%list.
Proof.
  induction l as [|[k e] l IH]; intros F N K W d c D.
  - cbn. rewrite app_nil_r. reflexivity.
  - cbn [fold_left]. inversion F as [|? ? Fe Fl]; subst. inversion N as [|? ? Ne Nl]; subst. inversion K as [|? ? Ke Kl]; subst.
    cbn [snd] in Fe. rewrite Fe.
    + rewrite IH; try assumption.
      * rewrite images_cons, app_assoc. reflexivity.
      * intros k' e' I. apply (W k' e'). right. exact I.
      * intros k' I. rewrite map_app, in_app_iff. intros [J|J].
        -- apply (D k'); [right; exact I | exact J].
        -- destruct (readableb e); [|destruct J]. destruct J as [J|[]]. cbn in J. subst k'. contradiction.
    + apply (W k e). left. reflexivity.
    + exact Ke.
    + apply D. left. reflexivity.
Qed.

Lemma all_copies_to_image : forall e, copies_to_image e.
Proof.
  induction e as [l F| | | | | | |] using entry_ind'; intros W k d c K N; cbn [copy_entry readableb image];
    try (apply copy_array_new; assumption); try (rewrite app_nil_r; reflexivity).
  rewrite add_new by exact K. f_equal. f_equal. f_equal. f_equal.
  destruct (well_formed_keys l W) as [ND PK].
  unfold empty_tree. rewrite copy_entries_images; try assumption.
  - reflexivity.
  - intros k' e' I. exact (well_formed_in l k' e' W I).
  - intros k' _ [].
Qed.

Lemma copy_is_image : forall l, well_formed (Section l) -> copyDatabase l = Node no_text (images l).
Proof.
  intros l W. unfold copyDatabase, copy_entries, empty_tree.
  destruct (well_formed_keys l W) as [ND PK].
  rewrite copy_entries_images; try assumption.
  - reflexivity.
  - apply Forall_forall. intros ke _. apply all_copies_to_image.
  - intros k e I. exact (well_formed_in l k e W I).
  - intros k _ [].
Qed.

(* ------------------------------------------------------------------ *)
(* Finding entries                                                      *)

Lemma find_child_in : forall k l t, NoDup (map fst l) -> (find_child k l = Some t <-> In (k, t) l).
Proof.
  induction l as [|[k' t'] l IH]; intros t N.
  - cbn. split; [discriminate|tauto].
  - inversion N as [|? ? Na Nl]; subst. cbn [find_child In]. destruct (String.eqb k k') eqn:E.
    + apply String.eqb_eq in E. subst k'. split.
      * intros H. injection H as ->. left. reflexivity.
      * intros [H|H]; [injection H as ->; reflexivity|]. exfalso. apply Na. apply in_map_iff. exists (k, t). split; [reflexivity|exact H].
    + apply String.eqb_neq in E. rewrite IH by exact Nl. split; [tauto|].
      intros [H|H]; [injection H as -> ->; congruence | exact H].
Qed.
Lemma NoDup_filter_map : forall (l : list (string * entry)) f, NoDup (map fst l) -> NoDup (map fst (filter f l)).
Proof.
  intros l f. induction l as [|a l IH]; intros N; [constructor|]. inversion N as [|? ? Na Nl]; subst. cbn.
  destruct (f a); [|apply IH, Nl]. cbn. constructor; [|apply IH, Nl].
  intro I. apply Na. apply in_map_iff in I. destruct I as (b & E & I). apply filter_In in I.
  apply in_map_iff. exists b. split; [exact E|apply I].
Qed.
Lemma images_nodup : forall l, NoDup (map fst l) -> NoDup (map fst (images l)).
Proof. intros l N. rewrite images_keys. apply NoDup_filter_map, N. Qed.

Lemma readableb_spec : forall e, readableb e = true <-> readable e.
Proof.
  intros e. unfold readable. destruct e; cbn; split; intros H; try discriminate; try reflexivity;
    try (split; [intros b' ?|intro]; discriminate).
  - exfalso. destruct H as [H _]. exact (H b eq_refl).
  - exfalso. destruct H as [_ H]. exact (H eq_refl).
Qed.

Lemma found_image : forall e p f, inside e p f -> well_formed e -> readableb f = true -> get_child (image e) p = Some (image f).
Proof.
  intros e p f I. induction I as [e|l k e p f I J IH]; intros W R; [reflexivity|].
  cbn [get_child]. rewrite image_section. cbn [children].
  assert (E : readableb e = true). { inversion J; subst; [exact R|reflexivity]. }
  assert (H : find_child k (images l) = Some (image e)).
  { apply find_child_in.
    - apply images_nodup. apply well_formed_keys, W.
    - apply images_in. exists e. repeat split; assumption. }
  rewrite H. apply IH; [|exact R]. exact (well_formed_in l k e W I).
Qed.

(* ------------------------------------------------------------------ *)
(* Ten digits                                                           *)

Lemma ten_format : forall x, ten_digits x <-> generic_format ten (FLX_exp 10) x.
Proof.
  intros x. split.
  - intros (m & e & -> & B). apply generic_format_FLX. exists (Float ten m e); [|exact B].
    unfold F2R. cbn [Fnum Fexp]. f_equal. symmetry. apply bpow_powerRZ.
  - intros F. apply FLX_format_generic in F; [|now unfold Prec_gt_0]. destruct F as [[m e] E B]. cbn [Fnum] in B.
    exists m, e. split; [|exact B]. rewrite E. unfold F2R. cbn [Fnum Fexp]. f_equal. apply bpow_powerRZ.
Qed.

#[local] Instance prec10 : Prec_gt_0 10 := eq_refl.
#[local] Instance prec53 : Prec_gt_0 53 := eq_refl.

Lemma rounds_nearest : forall x, nearest_ten x (ten_digits_of x).
Proof.
  intros x. destruct (round_N_pt ten (FLX_exp 10) (fun n => negb (Z.even n)) x) as [F N]. split.
  - apply ten_format. exact F.
  - intros d H. apply N. apply ten_format, H.
Qed.

Lemma gap_pos : forall a b, ten_digits a -> ten_digits b -> 0 <= a -> a < b -> a + a / 10 ^ 10 <= b.
Proof.
  intros a b Fa Fb P L. apply ten_format in Fa, Fb.
  pose proof (succ_le_lt ten (FLX_exp 10) a b Fa Fb L) as S. rewrite succ_eq_pos in S by exact P.
  pose proof (ulp_FLX_ge ten 10 a) as U. rewrite Rabs_pos_eq in U by exact P.
  replace (bpow ten (- (10))) with (/ 10 ^ 10) in U.
  - unfold Rdiv. lra.
  - rewrite bpow_powerRZ. rewrite powerRZ_neg'. reflexivity.
Qed.
Lemma ten_opp : forall a, ten_digits a -> ten_digits (- a).
Proof. intros a H. apply ten_format. apply generic_format_opp. apply ten_format, H. Qed.

Lemma gap : forall a b, ten_digits a -> ten_digits b -> a <> b -> Rmin (Rabs a) (Rabs b) / 10 ^ 10 <= Rabs (a - b).
Proof.
  assert (K : forall a b, ten_digits a -> ten_digits b -> a < b -> Rmin (Rabs a) (Rabs b) / 10 ^ 10 <= b - a).
  { intros a b Fa Fb L. destruct (Rle_or_lt 0 a) as [P|P].
    - pose proof (gap_pos a b Fa Fb P L) as G. pose proof (Rmin_l (Rabs a) (Rabs b)) as M. assert (A : Rabs a = a) by (apply Rabs_pos_eq, P). lra.
    - destruct (Rle_or_lt b 0) as [Q|Q].
      + pose proof (gap_pos (- b) (- a) (ten_opp b Fb) (ten_opp a Fa) ltac:(lra) ltac:(lra)) as G.
        pose proof (Rmin_r (Rabs a) (Rabs b)) as M. assert (A : Rabs b = - b) by (apply Rabs_left1, Q). lra.
      + pose proof (Rmin_r (Rabs a) (Rabs b)) as M. assert (A : Rabs b = b) by (apply Rabs_pos_eq; lra). lra. }
  intros a b Fa Fb N. destruct (Rtotal_order a b) as [L|[E|L]]; [| congruence |].
  - rewrite (Rabs_left1 (a - b)) by lra. specialize (K a b Fa Fb L). lra.
  - rewrite (Rabs_pos_eq (a - b)) by lra. specialize (K b a Fb Fa L). rewrite Rmin_comm. lra.
Qed.

Lemma rounds_to_near : forall x y, ten_digits x -> Rabs (y - x) <= Rabs x / 10 ^ 11 -> ten_digits_of y = x.
Proof.
  intros x y F H. destruct (rounds_nearest y) as [Fz N]. specialize (N x F).
  destruct (Req_dec (ten_digits_of y) x) as [E|E]; [exact E|]. exfalso.
  set (z := ten_digits_of y) in *.
  pose proof (gap z x Fz F E) as G.
  assert (D : Rabs (z - x) <= 2 * (Rabs x / 10 ^ 11)).
  { replace (z - x) with ((z - y) + (y - x)) by ring. eapply Rle_trans; [apply Rabs_triang|].
    rewrite (Rabs_minus_sym x y) in N. lra. }
  assert (X : 0 < Rabs x).
  { destruct (Req_dec x 0) as [->|X]; [|apply Rabs_pos_lt, X]. exfalso. rewrite Rabs_R0 in D.
    apply E. pose proof (Rabs_pos (z - 0)). assert (A : Rabs (z - 0) = 0) by lra.
    destruct (Req_dec (z - 0) 0) as [B|B]; [lra|]. apply Rabs_no_R0 in B. lra. }
  assert (Z1 : Rabs x * (1 / 2) <= Rabs z).
  { pose proof (Rabs_triang_inv x z) as T. rewrite Rabs_minus_sym in T. lra. }
  assert (M : Rabs x * (1 / 2) <= Rmin (Rabs z) (Rabs x)) by (apply Rmin_glb; lra).
  lra.
Qed.

Lemma double_error : forall x, / powerRZ 2 1022 <= Rabs x -> Rabs (to_double x - x) <= Rabs x / 2 ^ 53.
Proof.
  intros x H. unfold to_double.
  pose proof (relative_error_N_FLT two (-1074) 53 eq_refl (fun n => negb (Z.even n)) x) as E.
  assert (B : bpow two (-1074 + 53 - 1) <= Rabs x).
  { rewrite bpow_powerRZ. change (-1074 + 53 - 1)%Z with (- (1022))%Z. rewrite powerRZ_neg'. exact H. }
  specialize (E B). eapply Rle_trans; [exact E|].
  rewrite bpow_powerRZ. change (- (53) + 1)%Z with (- (52))%Z. rewrite powerRZ_neg'.
  cbn [IZR two]. change (radix_val two) with 2%Z. right.
  replace (powerRZ 2 52) with (2 ^ 52) by reflexivity. field.
Qed.
Lemma double_zero : to_double 0 = 0.
Proof. unfold to_double. apply round_0. typeclasses eauto. Qed.

Lemma ordinary_kept : forall x, ordinary x -> ten_digits_of (to_double x) = x.
Proof.
  intros x [F [->|B]].
  - rewrite double_zero. unfold ten_digits_of. apply round_0. typeclasses eauto.
  - apply rounds_to_near; [exact F|]. eapply Rle_trans; [apply double_error, B|].
    pose proof (Rabs_pos x). lra.
Qed.

Lemma ten_error : forall x, Rabs (ten_digits_of x - x) <= Rabs x * (5 / 10 ^ 10).
Proof.
  intros x. unfold ten_digits_of.
  pose proof (relative_error_N_FLX ten 10 eq_refl (fun n => negb (Z.even n)) x) as E.
  eapply Rle_trans; [exact E|]. right. cbn -[Rinv IZR Z.pow_pos Z.mul]. change (Z.pow_pos 10 9) with 1000000000%Z. field.
Qed.

(* ------------------------------------------------------------------ *)
(* C138                                                                 *)

Lemma leaf_node : forall v, leaf v = Node v [].
Proof. reflexivity. Qed.

Lemma array_represents : forall (A : Type) (f : A -> text) (l : list A) v, v = map f l ->
  (exists w, v = [w] /\ only_text w (array_image f l)) \/
  (length v <> 1%nat /\ data (array_image f l) = Letters "" /\ Forall2 (fun w kt => fst kt = "" /\ only_text w (snd kt)) v (children (array_image f l))).
Proof.
  intros A f l v ->. destruct l as [|a [|b l]]; cbn [array_image].
  - right. cbn. split; [discriminate|]. split; [reflexivity|constructor].
  - left. exists (f a). split; [reflexivity|]. split; reflexivity.
  - right. split; [cbn; discriminate|]. split; [reflexivity|]. unfold nodes. cbn [children].
    induction (map f (a :: b :: l)) as [|w r IH]; cbn [map]; constructor.
    + split; [reflexivity|]. split; reflexivity.
    + exact IH.
Qed.

Lemma image_represents : forall e, readableb e = true -> represents e (image e).
Proof.
  intros e R. destruct e; try discriminate R; cbn [represents image].
  - split; [reflexivity|]. cbn [children]. apply images_keys.
  - exists (map char_text c). split; [constructor|]. apply (array_represents _ char_text c _ eq_refl).
  - exists (map int_text i). split; [constructor|]. apply (array_represents _ int_text i _ eq_refl).
  - exists (map double_text x). split.
    + replace (map double_text x) with (map Digits (map ten_digits_of x)) by (rewrite map_map; reflexivity).
      constructor. clear R. induction x as [|v x IH]; [constructor|]. constructor; [apply rounds_nearest | exact IH].
    + apply (array_represents _ double_text x _ eq_refl).
  - exists (map float_text x). split; [constructor|]. apply (array_represents _ float_text x _ eq_refl).
  - exists (map Letters s). split; [constructor|]. apply (array_represents _ Letters s _ eq_refl).
Qed.

Lemma found : forall l p e, well_formed (Section l) -> inside (Section l) p e -> readable e ->
  exists t, get_child (copyDatabase l) p = Some t /\ represents e t.
Proof.
  intros l p e W I R. apply readableb_spec in R. exists (image e). split.
  - rewrite copy_is_image by exact W. apply (found_image (Section l)); assumption.
  - apply image_represents, R.
Qed.

Lemma array_no_child : forall (A : Type) (f : A -> text) (l : list A) k, k <> "" -> find_child k (children (array_image f l)) = None.
Proof.
  intros A f l k N. assert (H : forall v : list text, find_child k (map (fun v => ("", leaf v)) v) = None).
  { induction v as [|w v IH]; [reflexivity|]. cbn [map find_child]. apply String.eqb_neq in N. rewrite N. exact IH. }
  destruct l as [|a [|b l]]; cbn [array_image]; [reflexivity|reflexivity|]. unfold nodes. cbn [children]. apply H.
Qed.

Lemma only_images : forall e, readableb e = true -> forall p t, well_formed e -> Forall (fun k => k <> "") p -> get_child (image e) p = Some t ->
  exists f, inside e p f /\ readableb f = true /\ t = image f.
Proof.
  induction e as [l F| | | | | | |] using entry_ind'; intros R p t W P G; try discriminate R;
    (destruct p as [|k p]; cbn [get_child] in G;
     [injection G as <-; eexists; split; [constructor|]; split; [exact R|reflexivity] |];
     inversion P as [|? ? Pk Pp]; subst).
  - rewrite image_section in G. cbn [children] in G. destruct (find_child k (images l)) as [u|] eqn:E; [|discriminate].
    apply find_child_in in E; [|apply images_nodup, well_formed_keys, W].
    apply images_in in E. destruct E as (e & I & Re & ->).
    rewrite Forall_forall in F. destruct (F (k, e) I Re p t (well_formed_in l k e W I) Pp G) as (f & J & Rf & E).
    exists f. split; [econstructor; eassumption|]. split; assumption.
  - cbn [image] in G. rewrite array_no_child in G by exact Pk. discriminate.
  - cbn [image] in G. rewrite array_no_child in G by exact Pk. discriminate.
  - cbn [image] in G. rewrite array_no_child in G by exact Pk. discriminate.
  - cbn [image] in G. rewrite array_no_child in G by exact Pk. discriminate.
  - cbn [image] in G. rewrite array_no_child in G by exact Pk. discriminate.
Qed.

Lemma nothing_else : forall l p t, well_formed (Section l) -> Forall (fun k => k <> "") p -> get_child (copyDatabase l) p = Some t ->
  exists e, inside (Section l) p e /\ readable e /\ represents e t.
Proof.
  intros l p t W P G. rewrite copy_is_image in G by exact W.
  destruct (only_images (Section l) eq_refl p t W P G) as (e & I & R & ->).
  exists e. split; [exact I|]. split; [apply readableb_spec, R|apply image_represents, R].
Qed.

Lemma inside_unique : forall e p f, inside e p f -> forall g, well_formed e -> inside e p g -> f = g.
Proof.
  intros e p f I. induction I as [e|l k e p f I J IH]; intros g W H.
  - inversion H; reflexivity.
  - inversion H as [|? ? e' ? ? I' J']; subst.
    assert (E : e' = e).
    { destruct (well_formed_keys l W) as [N _]. clear - N I I'. induction l as [|[k0 e0] l IH]; [destruct I|].
      inversion N as [|? ? Na Nl]; subst. destruct I as [I|I], I' as [I'|I'].
      - congruence.
      - exfalso. injection I as -> ->. apply Na. apply in_map_iff. exists (k, e'). split; [reflexivity|exact I'].
      - exfalso. injection I' as -> ->. apply Na. apply in_map_iff. exists (k, e). split; [reflexivity|exact I].
      - apply IH; assumption. }
    subst e'. apply IH; [exact (well_formed_in l k e W I)|exact J'].
Qed.

Lemma inside_nonempty : forall e p f, inside e p f -> well_formed e -> Forall (fun k => k <> "") p.
Proof.
  intros e p f I. induction I as [e|l k e p f I J IH]; intros W; constructor.
  - destruct (well_formed_keys l W) as [_ K]. rewrite Forall_forall in K.
    apply (K k). apply in_map_iff. exists (k, e). split; [reflexivity|exact I].
  - apply IH. exact (well_formed_in l k e W I).
Qed.

Lemma booleans_lost : forall l p b, well_formed (Section l) -> inside (Section l) p (Bools b) -> get_child (copyDatabase l) p = None.
Proof.
  intros l p b W I. destruct (get_child (copyDatabase l) p) as [t|] eqn:G; [|reflexivity]. exfalso.
  destruct (nothing_else l p t W (inside_nonempty _ _ _ I W) G) as (e & J & [R _] & _).
  apply (R b). exact (inside_unique _ _ _ J (Bools b) W I).
Qed.

(* ------------------------------------------------------------------ *)
(* C139                                                                 *)

Lemma inside_parse : forall e p f, inside e p f -> inside (parse e) p (parse f).
Proof.
  intros e p f I. induction I as [e|l k e p f I J IH]; [constructor|].
  cbn [parse]. apply inside_down with (e := parse e); [|exact IH].
  apply in_map_iff. exists (k, e). split; [reflexivity|exact I].
Qed.
Lemma inside_parse_section : forall e p l, inside (parse e) p (Section l) -> exists l', inside e p (Section l') /\ map fst l' = map fst l.
Proof.
  induction e as [l0 F| | | | | | |] using entry_ind'; intros p l I; cbn [parse] in I;
    try (inversion I; fail).
  inversion I as [|l1 k e p' f J H]; subst.
  - exists l0. split; [constructor|]. rewrite map_map. apply map_ext. intros [k e]. reflexivity.
  - apply in_map_iff in J. destruct J as ([k' e'] & E & J). injection E as -> <-.
    rewrite Forall_forall in F. destruct (F (k, e') J p' l H) as (l' & K & M).
    exists l'. split; [econstructor; eassumption|exact M].
Qed.
Lemma well_formed_parse : forall e, well_formed e -> well_formed (parse e).
Proof.
  intros e W p l I. destruct (inside_parse_section e p l I) as (l' & J & <-). exact (W p l' J).
Qed.

Lemma double_tree : forall l l' p x, well_formed (Section l) -> parse (Section l) = Section l' -> inside (Section l) p (Doubles x) ->
  get_child (copyDatabase l') p = Some (array_image double_text (map to_double x)).
Proof.
  intros l l' p x W E I. pose proof (well_formed_parse _ W) as W'. rewrite E in W'.
  rewrite copy_is_image by exact W'. apply inside_parse in I. rewrite E in I. cbn [parse] in I.
  exact (found_image (Section l') p (Doubles (map to_double x)) I W' eq_refl).
Qed.

Lemma array_children : forall (A : Type) (f : A -> text) (l : list A), length l <> 1%nat ->
  children (array_image f l) = map (fun a => ("", Node (f a) [])) l.
Proof.
  intros A f l N. destruct l as [|a [|b l]]; [reflexivity | cbn in N; congruence |].
  cbn [array_image]. unfold nodes. cbn [children]. rewrite map_map. reflexivity.
Qed.

Lemma exact_numbers : forall l l' p x, well_formed (Section l) -> parse (Section l) = Section l' ->
  inside (Section l) p (Doubles x) -> Forall ordinary x ->
  exists t, get_child (copyDatabase l') p = Some t /\
    (forall v, x = [v] -> get_double t = Some (to_double v)) /\
    (length x <> 1%nat -> map (fun kt => get_double (snd kt)) (children t) = map (fun v => Some (to_double v)) x).
Proof.
  intros l l' p x W E I O. eexists. split; [exact (double_tree l l' p x W E I)|]. split.
  - intros v ->. inversion O as [|? ? Ov _]; subst. cbn [map array_image]. unfold get_double, double_text. cbn [data].
    rewrite ordinary_kept by exact Ov. reflexivity.
  - intros N. rewrite array_children by (rewrite map_length; exact N). rewrite !map_map. cbn [snd].
    apply map_ext_in. intros v J. rewrite Forall_forall in O. unfold get_double, double_text. cbn [data].
    rewrite ordinary_kept by (apply O, J). reflexivity.
Qed.

Lemma delivered_close : forall v, / powerRZ 2 1021 <= Rabs v -> Rabs (to_double (ten_digits_of v) - v) <= Rabs v * (5001 / 10 ^ 13).
Proof.
  intros v B. pose proof (ten_error v) as T. set (d := ten_digits_of v) in *.
  assert (D : Rabs v * (1 / 2) <= Rabs d).
  { pose proof (Rabs_triang_inv v d) as A. rewrite Rabs_minus_sym in A. pose proof (Rabs_pos v). lra. }
  assert (D2 : Rabs d <= Rabs v * 2).
  { pose proof (Rabs_triang_inv d v) as A. pose proof (Rabs_pos v). lra. }
  assert (P : / powerRZ 2 1022 <= Rabs d).
  { eapply Rle_trans; [|exact D]. replace (/ powerRZ 2 1022) with (/ powerRZ 2 1021 * (1 / 2)).
    - apply Rmult_le_compat_r; [lra|exact B].
    - change 1022%Z with (1021 + 1)%Z. rewrite powerRZ_add by lra. rewrite powerRZ_1.
      pose proof (powerRZ_lt 2 1021 ltac:(lra)). remember (powerRZ 2 1021) as q. field. lra. }
  pose proof (double_error d P) as Q.
  replace (to_double d - v) with ((to_double d - d) + (d - v)) by ring.
  eapply Rle_trans; [apply Rabs_triang|]. lra.
Qed.

Lemma close_numbers : forall l p x, well_formed (Section l) -> inside (Section l) p (Doubles x) ->
  Forall (fun v => / powerRZ 2 1021 <= Rabs v) x ->
  exists t, get_child (copyDatabase l) p = Some t /\
    (forall v, x = [v] -> exists g, get_double t = Some g /\ Rabs (g - v) <= Rabs v * (5001 / 10 ^ 13)) /\
    (length x <> 1%nat -> Forall2 (fun kt v => exists g, get_double (snd kt) = Some g /\ Rabs (g - v) <= Rabs v * (5001 / 10 ^ 13)) (children t) x).
Proof.
  intros l p x W I B. exists (array_image double_text x). split.
  - rewrite copy_is_image by exact W. exact (found_image (Section l) p (Doubles x) I W eq_refl).
  - split.
    + intros v ->. inversion B as [|? ? Bv _]; subst. exists (to_double (ten_digits_of v)). split; [reflexivity|].
      apply delivered_close, Bv.
    + intros N. rewrite array_children by exact N. clear - B. induction x as [|v x IH]; [constructor|].
      inversion B as [|? ? Bv Bx]; subst. cbn [map]. constructor; [|apply IH, Bx].
      exists (to_double (ten_digits_of v)). split; [reflexivity|]. apply delivered_close, Bv.
Qed.

Definition eleven : R := 1 + / 2 ^ 40.
Lemma one_ten : ten_digits 1.
Proof. exists 1%Z, 0%Z. split; [cbn; lra | lia]. Qed.
Lemma eleven_double : to_double eleven = eleven.
Proof.
  unfold to_double. apply round_generic; [typeclasses eauto|]. apply generic_format_FLT.
  exists (Float two (2 ^ 40 + 1) (-40)); cbn [Fnum Fexp]; [|reflexivity|lia].
  unfold F2R, eleven. cbn [Fnum Fexp]. rewrite bpow_powerRZ. change (-40)%Z with (- (40))%Z. rewrite powerRZ_neg'.
  change (powerRZ (IZR two) 40) with (2 ^ 40). replace (IZR (2 ^ 40 + 1)) with (2 ^ 40 + 1).
  - remember (2 ^ 40) as q. assert (q <> 0) by (subst q; apply pow_nonzero; lra). field. assumption.
  - rewrite plus_IZR. f_equal. cbn [pow]. lra.
Qed.
Lemma one_double : to_double 1 = 1.
Proof.
  unfold to_double. apply round_generic; [typeclasses eauto|]. apply generic_format_FLT.
  exists (Float two 1 0); cbn [Fnum Fexp]; [|reflexivity|lia]. unfold F2R. cbn. lra.
Qed.
Lemma eleven_cut : ten_digits_of eleven = 1.
Proof.
  apply rounds_to_near; [exact one_ten|]. rewrite Rabs_R1. unfold eleven.
  assert (P : 0 < / 2 ^ 40) by (apply Rinv_0_lt_compat, pow_lt; lra).
  replace (1 + / 2 ^ 40 - 1) with (/ 2 ^ 40) by ring. rewrite Rabs_pos_eq by (left; exact P).
  unfold Rdiv. rewrite Rmult_1_l. apply Rinv_le_contravar; [apply pow_lt; lra|]. cbn [pow]. lra.
Qed.
Lemma numbers_change : exists v, to_double v = v /\ forall k, plain_key k ->
  exists t, get_child (copyDatabase [(k, Doubles [v])]) [k] = Some t /\ get_double t = Some 1 /\ v <> 1.
Proof.
  exists eleven. split; [exact eleven_double|]. intros k K.
  exists (array_image double_text [eleven]). split; [|split].
  - unfold copyDatabase, copy_entries. cbn [fold_left copy_entry]. unfold empty_tree.
    rewrite copy_array_new; [|exact K|intros []]. cbn. rewrite String.eqb_refl. reflexivity.
  - unfold get_double, array_image, double_text. cbn [data]. rewrite eleven_cut, one_double. reflexivity.
  - assert (P : 0 < / 2 ^ 40) by (apply Rinv_0_lt_compat, pow_lt; lra). unfold eleven. lra.
Qed.

(* ------------------------------------------------------------------ *)
(* C140                                                                 *)

Definition writes_back (t : tree) : Prop := exists j, write_node t = Some j /\ read_json j = t.

Lemma sequence_back : forall l : list (string * tree), Forall (fun kt => writes_back (snd kt)) l ->
  exists js, sequence (map (fun kt => write_node (snd kt)) l) = Some js /\ map read_json js = map snd l.
Proof.
  induction l as [|[k t] l IH]; intros F.
  - exists []. split; reflexivity.
  - inversion F as [|? ? (j & Hj & Rj) Fl]; subst. destruct (IH Fl) as (js & Hs & Rs).
    exists (j :: js). cbn [map sequence snd] in *. rewrite Hj, Hs. split; [reflexivity|]. cbn [map]. rewrite Rj, Rs. reflexivity.
Qed.
Lemma combine_back : forall (l : list (string * tree)) js, map read_json js = map snd l ->
  map (fun kv => let '(k, v) := kv in (k, read_json v)) (combine (map fst l) js) = l.
Proof.
  induction l as [|[k t] l IH]; intros [|j js] E; try discriminate E; [reflexivity|].
  injection E as Ej Es. cbn [map fst combine]. rewrite Ej, IH by exact Es. reflexivity.
Qed.
Lemma map_let : forall l : list (string * tree), map (fun kt => let '(k, t') := kt in write_node t') l = map (fun kt => write_node (snd kt)) l.
Proof. intros l. apply map_ext. intros [k t]. reflexivity. Qed.

Lemma node_back : forall l : list (string * tree), Forall (fun kt => writes_back (snd kt)) l ->
  (forall k, In k (map fst l) -> k <> "") \/ Forall (fun kt => fst kt = "") l -> writes_back (Node no_text l).
Proof.
  intros l F K. destruct l as [|[k t] l].
  - exists (JText no_text). split; reflexivity.
  - destruct (sequence_back _ F) as (js & Hs & Rs).
    unfold writes_back. cbn [write_node]. change (has_text no_text) with false. cbv iota.
    rewrite map_let. rewrite Hs. destruct K as [K|K].
    + cbn [forallb fst]. assert (E : String.eqb k "" = false) by (apply String.eqb_neq, K; left; reflexivity).
      rewrite E. cbn [andb]. eexists. split; [reflexivity|]. cbn [read_json]. f_equal. apply combine_back, Rs.
    + assert (E : forallb (fun kt : string * tree => String.eqb (fst kt) "") ((k, t) :: l) = true).
      { apply forallb_forall. rewrite Forall_forall in K. intros kt I. rewrite (K kt I). reflexivity. }
      rewrite E. eexists. split; [reflexivity|]. cbn [read_json]. f_equal.
      clear - Rs K. revert js Rs. induction ((k, t) :: l) as [|[k0 t0] r IH]; intros [|j js] Rs; try discriminate Rs; [reflexivity|].
      injection Rs as Ej Es. inversion K as [|? ? K0 Kr]; subst. cbn [fst] in K0. subst k0.
      cbn [map]. f_equal; [apply IH; assumption].
Qed.
Lemma text_back : forall v, writes_back (Node v []).
Proof. intros v. exists (JText v). split; reflexivity. Qed.
Lemma array_back : forall (A : Type) (f : A -> text) (l : list A), writes_back (array_image f l).
Proof.
  intros A f l. assert (H : writes_back (nodes (map f l))).
  { apply node_back; [|right]; apply Forall_forall; intros kt I; apply in_map_iff in I; destruct I as (v & <- & _); [apply text_back|reflexivity]. }
  destruct l as [|a [|b l]]; [exact H | apply text_back | exact H].
Qed.

Lemma images_nonempty : forall l k, well_formed (Section l) -> In k (map fst (images l)) -> k <> "".
Proof.
  intros l k W I. destruct (well_formed_keys l W) as [_ K]. rewrite Forall_forall in K.
  apply (K k). apply images_keys_incl, I.
Qed.
Lemma image_back : forall e, well_formed e -> writes_back (image e).
Proof.
  induction e as [l F| | | | | | |] using entry_ind'; intros W; try (apply array_back); try (apply text_back).
  rewrite image_section. apply node_back.
  - apply Forall_forall. intros [k t] I. apply images_in in I. destruct I as (e & I & _ & ->). cbn [snd].
    rewrite Forall_forall in F. apply (F (k, e) I). exact (well_formed_in l k e W I).
  - left. intros k. apply images_nonempty, W.
Qed.

Lemma converted_file : forall l, well_formed (Section l) -> exists j, convert l = Some j /\ read_json j = copyDatabase l.
Proof.
  intros l W. unfold convert. rewrite copy_is_image by exact W. unfold write_json. cbn [data children].
  change (has_text no_text) with false. cbv iota.
  destruct (sequence_back (images l)) as (js & Hs & Rs).
  - apply Forall_forall. intros [k t] I. apply images_in in I. destruct I as (e & I & _ & ->). cbn [snd].
    apply image_back. exact (well_formed_in l k e W I).
  - rewrite Hs. eexists. split; [reflexivity|]. cbn [read_json]. f_equal. apply combine_back, Rs.
Qed.

Lemma same_image : forall e j, same_content e j -> image (parse e) = read_json j.
Proof.
  induction e as [l F| | | | | | |] using entry_ind'; intros j H; inversion H; subst; cbn [parse image read_json array_image];
    try reflexivity.
  - f_equal. clear H. match goal with H : Forall2 _ l ?q |- _ => rename H into G; revert G; revert q end.
    induction l as [|[k e] l IH]; intros q G; inversion G as [|? [k' j'] ? q' [Ek Ej] Gl]; subst; [reflexivity|].
    inversion F as [|? ? Fe Fl]; subst. cbn [map flat_map fst snd] in *. subst k'.
    assert (Re : readableb (parse e) = true) by (inversion Ej; reflexivity).
    rewrite Re. cbn [app]. f_equal.
    + f_equal. apply Fe, Ej.
    + apply IH; assumption.
  - match goal with H : length b <> 1%nat |- _ => rename H into N end. destruct b as [|a [|c b]]; [reflexivity|cbn in N; congruence|].
    cbn [array_image]. unfold nodes. rewrite !map_map. reflexivity.
  - match goal with H : ordinary _ |- _ => rename H into O end. cbn [map array_image]. unfold double_text. rewrite ordinary_kept by exact O. reflexivity.
  - match goal with H : length b <> 1%nat |- _ => rename H into N end. match goal with H : Forall ordinary b |- _ => rename H into O end.
    assert (E : nodes (map double_text (map to_double b)) = Node no_text (map (fun v => ("", read_json v)) (map JNum b))).
    { unfold nodes. f_equal. rewrite !map_map. apply map_ext_in. intros v I. rewrite Forall_forall in O.
      unfold double_text. rewrite ordinary_kept by (apply O, I). reflexivity. }
    destruct b as [|a [|c b]]; [reflexivity|cbn in N; congruence|]. exact E.
  - match goal with H : length b <> 1%nat |- _ => rename H into N end. destruct b as [|a [|c b]]; [reflexivity|cbn in N; congruence|].
    cbn [array_image]. unfold nodes. rewrite !map_map. reflexivity.
Qed.

Lemma same_tree : forall l l' j, well_formed (Section l) -> same_content (Section l) j -> parse (Section l) = Section l' ->
  copyDatabase l' = read_json j.
Proof.
  intros l l' j W H E. pose proof (well_formed_parse _ W) as W'. rewrite E in W'.
  rewrite copy_is_image by exact W'. rewrite <- image_section, <- E. apply same_image, H.
Qed.

Lemma copy_single : forall k e, plain_key k -> (forall l, e <> Section l) -> copyDatabase [(k, e)] = Node no_text (if readableb e then [(k, image e)] else []).
Proof.
  intros k e K N. unfold copyDatabase, copy_entries. cbn [fold_left]. unfold empty_tree.
  destruct e; try (cbn [copy_entry readableb image]; rewrite ?copy_array_new by (try exact K; intros []); reflexivity).
  exfalso. exact (N l eq_refl).
Qed.

Lemma one_element : forall k x, plain_key k ->
  (exists t u, get_child (copyDatabase [(k, Doubles [x])]) [k] = Some t /\ get_child (read_json (JObj [(k, JArr [JNum x])])) [k] = Some u /\
    length (children t) = 0%nat /\ length (children u) = 1%nat) /\
  (get_child (copyDatabase [(k, Bools [true])]) [k] = None /\ get_child (read_json (JObj [(k, JBool true)])) [k] = Some (Node (Letters "true") [])).
Proof.
  intros k x K. split.
  - do 2 eexists. split; [|split].
    + rewrite copy_single; [|exact K|intros l; discriminate]. cbn. rewrite String.eqb_refl. reflexivity.
    + cbn. rewrite String.eqb_refl. reflexivity.
    + split; reflexivity.
  - rewrite copy_single; [|exact K|intros l; discriminate]. split; [reflexivity|]. cbn. rewrite String.eqb_refl. reflexivity.
Qed.

(* ------------------------------------------------------------------ *)
(* C141                                                                 *)

Lemma length_append : forall a b, String.length (a ++ b) = (String.length a + String.length b)%nat.
Proof. induction a as [|c a IH]; intros b; cbn; [reflexivity|]. rewrite IH. reflexivity. Qed.
Lemma substring_append : forall a b m, substring (String.length a) m (a ++ b) = substring 0 m b.
Proof. induction a as [|c a IH]; intros b m; cbn; [reflexivity|]. apply IH. Qed.
Lemma substring_split : forall n m s, (n + m = String.length s)%nat -> s = substring 0 n s ++ substring n m s.
Proof.
  induction n as [|n IH]; intros m s H.
  - cbn in H. subst m. replace (substring 0 0 s) with "" by (destruct s; reflexivity). cbn [append].
    symmetry. clear. induction s as [|c s IH]; [reflexivity|]. cbn. rewrite IH. reflexivity.
  - destruct s as [|c s]; [cbn in H; lia|]. cbn. rewrite <- IH by (cbn in H; lia). reflexivity.
Qed.
Lemma named_json_true : forall n, named_json n = Some true <-> json_name n.
Proof.
  intros n. unfold named_json, json_name. split.
  - destruct (String.length n <? 4)%nat eqn:L; [discriminate|]. intros H. injection H as H. apply String.eqb_eq in H.
    apply Nat.ltb_ge in L. exists (substring 0 (String.length n - 4) n). rewrite <- H. apply substring_split. lia.
  - intros (a & ->). rewrite length_append. cbn [String.length].
    replace (String.length a + 4 <? 4)%nat with false by (symmetry; apply Nat.ltb_ge; lia).
    replace (String.length a + 4 - 4)%nat with (String.length a) by lia.
    rewrite substring_append. reflexivity.
Qed.
Lemma named_json_cases : forall n, (named_json n = None /\ ~ long_enough n /\ ~ json_name n) \/
  (named_json n = Some true /\ long_enough n /\ json_name n) \/ (named_json n = Some false /\ long_enough n /\ ~ json_name n).
Proof.
  intros n. pose proof (named_json_true n) as T. assert (L : json_name n -> long_enough n).
  { intros (a & ->). unfold long_enough. rewrite length_append. cbn. lia. }
  destruct (named_json n) as [[|]|] eqn:E.
  - right. left. split; [reflexivity|]. assert (J : json_name n) by (apply T; reflexivity). split; [apply L, J|exact J].
  - right. right. split; [reflexivity|]. split.
    + unfold named_json in E. destruct (String.length n <? 4)%nat eqn:M; [discriminate|]. apply Nat.ltb_ge in M. exact M.
    + intros J. apply T in J. discriminate.
  - left. split; [reflexivity|].
    assert (M : ~ long_enough n).
    { unfold named_json in E. destruct (String.length n <? 4)%nat eqn:M; [|discriminate]. apply Nat.ltb_lt in M. unfold long_enough. lia. }
    split; [exact M|]. intros J. apply M, L, J.
Qed.

Ltac start_cases c n f :=
  destruct (named_json_cases n) as [(E & L & J)|[(E & L & J)|(E & L & J)]];
  unfold start, free_energy, phase_concentrations, kim_mobility, aziz_partition, newton_tree_aziz, by_name, as_input; rewrite E;
  destruct c as [[|] [|] [|] [|] [|] [nw|]]; destruct f as [l|j]; cbn.

Lemma same_data : forall c n f ts, start c n f = Some ts -> ts <> [] /\ forall t u, In t ts -> In u ts -> t = u.
Proof.
  intros c n f ts. start_cases c n f; intros H; try discriminate H; injection H as <-;
    (split; [discriminate|]); intros t u I K; cbn in I, K; intuition congruence.
Qed.

Lemma starts : forall c n f, start c n f <> None <->
  long_enough n /\ (kim c = true -> ctd c = false) /\ (aziz c = true -> newton c <> None) /\
  ((json_name n /\ (exists j, f = JsonFile j) /\ ternary c = false /\ ctd c = false /\ aziz c = false) \/
   (~ json_name n /\ exists l, f = DatabaseFile l)).
Proof.
  intros c n f. start_cases c n f; (split; [intros H|intros (HL & HK & HA & H)]);
    try (exfalso; apply H; reflexivity); try discriminate;
    try (exfalso; apply L; exact HL);
    try (destruct H as [(HJ & (j0 & Hf) & H1 & H2 & H3)|(HJ & l0 & Hf)]; first [discriminate | contradiction | (exfalso; apply HA; reflexivity) | (specialize (HK eq_refl); discriminate)]);
    try (split; [exact L|]; split; [intros; first [reflexivity|discriminate]|]; split; [intros; discriminate|];
         first [left; split; [exact J|]; split; [eexists; reflexivity|]; repeat split; reflexivity | right; split; [exact J|eexists; reflexivity]]).
Qed.

Lemma json_stops : forall c n j, ternary c = true \/ ctd c = true \/ aziz c = true -> start c n (JsonFile j) = None.
Proof.
  intros c n j H. destruct (start c n (JsonFile j)) as [ts|] eqn:E; [|reflexivity]. exfalso.
  assert (N : start c n (JsonFile j) <> None) by (rewrite E; discriminate).
  apply starts in N. destruct N as (_ & _ & _ & [(_ & _ & A & B & D)|(_ & l & F)]); [|discriminate].
  rewrite A, B, D in H. intuition discriminate.
Qed.

(* ------------------------------------------------------------------ *)
(* C142                                                                 *)

Fixpoint clean (e : entry) : entry :=
  match e with
  | Section l => Section (flat_map (fun ke => let '(k, e') := ke in match e' with Other => [] | _ => [(k, clean e')] end) l)
  | _ => e
  end.
Definition cleans (l : list (string * entry)) : list (string * entry) :=
  flat_map (fun ke => let '(k, e') := ke in match e' with Other => [] | _ => [(k, clean e')] end) l.
Definition keepb (e : entry) : bool := match e with Other => false | _ => true end.
Lemma cleans_cons : forall k e l, cleans ((k, e) :: l) = ((if keepb e then [(k, clean e)] else []) ++ cleans l)%list.
Proof. intros k e l. destruct e; reflexivity. Qed.

Lemma replace_new : forall k e l, ~ In k (map fst l) -> replace_entry k e l = (l ++ [(k, e)])%list.
Proof.
  induction l as [|[k' e'] l IH]; intros N; [reflexivity|]. cbn [replace_entry].
  destruct (String.eqb k k') eqn:E.
  - apply String.eqb_eq in E. subst. exfalso. apply N. left. reflexivity.
  - rewrite IH; [reflexivity|]. intros I. apply N. right. exact I.
Qed.
Definition db_copies (e : entry) : Prop := well_formed e -> forall k l, ~ In k (map fst l) ->
  db_copy_entry k e l = (l ++ (if keepb e then [(k, clean e)] else []))%list.
Lemma db_copies_list : forall l, Forall (fun ke => db_copies (snd ke)) l -> NoDup (map fst l) -> (forall k e, In (k, e) l -> well_formed e) ->
  forall c, (forall k, In k (map fst l) -> ~ In k (map fst c)) ->
  fold_left (fun u ke => let '(k, e) := ke in db_copy_entry k e u) l c = (c ++ cleans l)%list.
Proof.
  induction l as [|[k e] l IH]; intros F N W c D.
  - cbn. rewrite app_nil_r. reflexivity.
  - inversion F as [|? ? Fe Fl]; subst. inversion N as [|? ? Ne Nl]; subst. cbn [fold_left snd] in *. rewrite Fe.
    + rewrite IH; try assumption.
      * rewrite cleans_cons, app_assoc. reflexivity.
      * intros k' e' I. apply (W k' e'). right. exact I.
      * intros k' I. rewrite map_app, in_app_iff. intros [J|J]; [apply (D k'); [right; exact I|exact J]|].
        destruct (keepb e); [|destruct J]. destruct J as [J|[]]. cbn in J. subst k'. contradiction.
    + apply (W k e). left. reflexivity.
    + apply D. left. reflexivity.
Qed.
Lemma db_copies_all : forall e, db_copies e.
Proof.
  induction e as [l F| | | | | | |] using entry_ind'; intros W k c N; cbn [db_copy_entry keepb clean];
    try (apply replace_new, N); try (rewrite app_nil_r; reflexivity).
  rewrite replace_new by exact N. f_equal. f_equal. f_equal. f_equal.
  rewrite (db_copies_list l F).
  - reflexivity.
  - apply well_formed_keys, W.
  - intros k' e' I. exact (well_formed_in l k' e' W I).
  - intros k' _ [].
Qed.
Lemma db_copy_clean : forall l, well_formed (Section l) -> db_copy l = cleans l.
Proof.
  intros l W. unfold db_copy. rewrite db_copies_list; [reflexivity | | | |].
  - apply Forall_forall. intros ke _. apply db_copies_all.
  - apply well_formed_keys, W.
  - intros k e I. exact (well_formed_in l k e W I).
  - intros k _ [].
Qed.
Lemma clean_same : forall e, (forall p, ~ inside e p Other) -> clean e = e.
Proof.
  induction e as [l F| | | | | | |] using entry_ind'; intros H; try reflexivity.
  cbn [clean]. f_equal. change (cleans l = l). induction l as [|[k e] l IH]; [reflexivity|].
  inversion F as [|? ? Fe Fl]; subst. rewrite cleans_cons. cbn [snd] in Fe.
  assert (He : forall p, ~ inside e p Other) by (intros p I; apply (H (k :: p)); apply inside_down with (e := e); [left; reflexivity|exact I]).
  assert (K : keepb e = true) by (destruct e; try reflexivity; exfalso; apply (He []); constructor).
  rewrite K, Fe by exact He. cbn [app]. f_equal. apply IH; [exact Fl|].
  intros p I. inversion I as [|? k' e' p' ? In1 J]; subst. apply (H (k' :: p')). apply inside_down with (e := e'); [right; exact In1|exact J].
Qed.
Lemma exact_copy : forall l, well_formed (Section l) -> (forall p, ~ inside (Section l) p Other) -> db_copy l = l.
Proof.
  intros l W H. rewrite db_copy_clean by exact W. apply clean_same in H. cbn [clean] in H. injection H as H. exact H.
Qed.
Lemma cleans_in : forall l k f, In (k, f) (cleans l) <-> exists e, In (k, e) l /\ e <> Other /\ f = clean e.
Proof.
  induction l as [|[k0 e0] l IH]; intros k f.
  - cbn. split; [tauto|]. intros (e & [] & _).
  - rewrite cleans_cons, in_app_iff, IH. split.
    + intros [I|(e & I & N & E)].
      * destruct (keepb e0) eqn:K; [|destruct I]. destruct I as [I|[]]. injection I as -> <-.
        exists e0. split; [left; reflexivity|]. split; [intros ->; discriminate|reflexivity].
      * exists e. split; [right; exact I|]. split; assumption.
    + intros (e & [I|I] & N & E).
      * injection I as -> ->. left. destruct e; try (left; subst f; reflexivity). congruence.
      * right. exists e. repeat split; assumption.
Qed.
Lemma inside_clean : forall e p f, (forall l, f <> Section l) -> e <> Other -> (inside (clean e) p f <-> inside e p f /\ f <> Other).
Proof.
  induction e as [l F| | | | | | |] using entry_ind'; intros p f NS NO; try congruence;
    try (cbn [clean]; split; [intros I; split; [exact I|]; inversion I; subst; discriminate | intros [I _]; exact I]).
  cbn [clean]. change (flat_map _ l) with (cleans l). split.
  - intros I. inversion I as [|? k e p' ? In1 J]; subst; [exfalso; exact (NS _ eq_refl)|].
    apply cleans_in in In1. destruct In1 as (e' & In1 & N & ->). rewrite Forall_forall in F.
    apply (F (k, e') In1 p' f NS N) in J. destruct J as [J O]. split; [|exact O].
    apply inside_down with (e := e'); assumption.
  - intros [I O]. inversion I as [|? k e p' ? In1 J]; subst; [exfalso; exact (NS _ eq_refl)|].
    assert (N : e <> Other). { intros ->. inversion J; subst. congruence. }
    apply inside_down with (e := clean e).
    + apply cleans_in. exists e. repeat split; assumption.
    + rewrite Forall_forall in F. apply (F (k, e) In1 p' f NS N). split; assumption.
Qed.
Lemma copied_entries : forall l p e, well_formed (Section l) -> (forall l', e <> Section l') ->
  (inside (Section (db_copy l)) p e <-> inside (Section l) p e /\ e <> Other).
Proof.
  intros l p e W NS. rewrite db_copy_clean by exact W. change (Section (cleans l)) with (clean (Section l)).
  apply inside_clean; [exact NS|discriminate].
Qed.

(* ------------------------------------------------------------------ *)
(* A small database for the examples                                    *)

Fixpoint has_dot (s : string) : bool := match s with EmptyString => false | String c r => Ascii.eqb c "." || has_dot r end.
Lemma no_dot_plain : forall k, k <> "" -> has_dot k = false -> plain_key k.
Proof.
  intros k N H. split; [exact N|]. clear N. induction k as [|c k IH]; intros [|d a] b E; cbn in E; try discriminate.
  - injection E as -> _. discriminate H.
  - injection E as -> ->. cbn [has_dot] in H. apply orb_false_iff in H. exact (IH (proj2 H) a b eq_refl).
Qed.
Definition gold : list (string * entry) :=
  [("name", Strings ["Au"]); ("PhaseL", Section [("Tc", Doubles [298; 1337]); ("verbose", Bools [true]); ("a", Doubles [5613])])].
Lemma gold_ok : well_formed (Section gold).
Proof.
  intros p l I. inversion I as [|? k e p' ? In1 J]; subst.
  - split.
    + repeat constructor; cbn; intuition discriminate.
    + repeat constructor; apply no_dot_plain; try discriminate; reflexivity.
  - destruct In1 as [E|[E|[]]]; injection E as <- <-.
    + inversion J.
    + inversion J as [|? k e p'' ? In2 J2]; subst.
      * split.
        -- repeat constructor; cbn; intuition discriminate.
        -- repeat constructor; apply no_dot_plain; try discriminate; reflexivity.
      * destruct In2 as [E|[E|[E|[]]]]; injection E as <- <-; inversion J2.
Qed.
Lemma integer_ordinary : forall z, (0 < z < 10 ^ 10)%Z -> ordinary (IZR z).
Proof.
  intros z H. split.
  - exists z, 0%Z. split; [cbn; ring|lia].
  - right. rewrite Rabs_pos_eq by (apply IZR_le; lia). apply Rle_trans with 1.
    + change (powerRZ 2 1022) with (2 ^ Pos.to_nat 1022). assert (A : 1 <= 2 ^ Pos.to_nat 1022) by (apply pow_R1_Rle; lra).
      apply Rle_trans with (/ 1); [apply Rinv_le_contravar; [lra|exact A] | lra].
    + apply IZR_le. lia.
Qed.
