(** Proofs for the ghost cells of the physical boundary. *)
From Coq Require Import Reals ZArith List Bool Lra Lia FunctionalExtensionality Permutation.
From Verif Require Import Grid_Model Grid_Spec Grid_Proofs Transport_Model Transport_Spec Stencils_Model Stencils_Proofs.
From Verif Require Import PhaseFlow_Model PhaseFlow_Spec PhaseFlow_Proofs Sintering_Model Sintering_Spec Sintering_Proofs.
From Verif Require Import BcFill_Model BcFill_Spec.
Import ListNotations.
Open Scope R_scope.
Set Bullet Behavior "Strict Subproofs".

Lemma each_plane : forall (f : arr2 -> arr2) depth (u : arr3) i j e,
  do_loop 0 (depth - 1) (fun d (u : arr3) => set_plane u d (f (plane u d))) u i j e =
  if ((0 <=? e) && (e <? depth))%Z then f (plane u e) i j else u i j e.
Proof.
  intros f depth u i j e.
  pose (P := fun (k : Z) (s : arr3) => forall e i j, s i j e = if ((0 <=? e) && (e <=? k))%Z then f (plane u e) i j else u i j e).
  assert (H : P (Z.max (0 - 1) (depth - 1)) (do_loop 0 (depth - 1) (fun d (u : arr3) => set_plane u d (f (plane u d))) u)).
  { apply do_loop_ind; unfold P; clear P.
    - intros e' i' j'. destruct (Z.leb_spec 0 e'); destruct (Z.leb_spec e' (0 - 1)); cbn [andb]; auto; lia.
    - intros k s Hk Hs e' i' j'. unfold set_plane. destruct (Z.eqb_spec e' k) as [-> | N].
      + assert (E : plane s k = plane u k).
        { apply functional_extensionality; intro a. apply functional_extensionality; intro c. unfold plane. rewrite Hs.
          destruct (Z.leb_spec k (k - 1)); [lia |]. rewrite andb_false_r. reflexivity. }
        rewrite E. destruct (Z.leb_spec 0 k); [| lia]. rewrite Z.leb_refl. reflexivity.
      + rewrite Hs. replace (e' <=? k)%Z with (e' <=? k - 1)%Z; [reflexivity |].
        destruct (Z.leb_spec e' (k - 1)); destruct (Z.leb_spec e' k); auto; lia. }
  unfold P in H. rewrite H.
  destruct (Z.leb_spec 0 e); destruct (Z.ltb_spec e depth); destruct (Z.leb_spec e (Z.max (0 - 1) (depth - 1))); cbn [andb]; auto; lia.
Qed.
Lemma column_fill : forall lo hi g n (F : Z -> R -> R) (f : arr2) a c, g <> n ->
  do_loop lo hi (fun j (u : arr2) => upd2 u g j (F j (u n j))) f a c =
  if ((a =? g) && inb lo hi c)%Z then F c (f n c) else f a c.
Proof.
  intros lo hi g n F f a c N. revert a c. revert lo hi.
  apply (Zinterval_ind (fun lo hi => forall a c, do_loop lo hi (fun j (u : arr2) => upd2 u g j (F j (u n j))) f a c =
    if ((a =? g) && inb lo hi c)%Z then F c (f n c) else f a c)).
  - intros lo hi H a c. rewrite do_loop_empty by auto. unfold inb.
    destruct (Z.leb_spec lo c); destruct (Z.leb_spec c hi); cbn [andb]; rewrite ?andb_false_r; auto; lia.
  - intros lo hi H IH a c. rewrite do_loop_snoc by auto. unfold upd2 at 1.
    destruct (Z.eqb_spec a g) as [-> | A]; cbn [andb].
    + destruct (Z.eqb_spec c hi) as [-> | C]; cbn [andb].
      * rewrite IH. unfold inb. destruct (Z.eqb_spec n g); [congruence |]. cbn [andb].
        destruct (Z.leb_spec lo hi); [| lia]. rewrite Z.leb_refl. reflexivity.
      * rewrite IH. rewrite Z.eqb_refl. cbn [andb]. unfold inb.
        replace (c <=? hi)%Z with (c <=? hi - 1)%Z; [reflexivity |]. destruct (Z.leb_spec c (hi - 1)); destruct (Z.leb_spec c hi); auto; lia.
    + rewrite IH. destruct (Z.eqb_spec a g); [congruence |]. reflexivity.
Qed.
Lemma row_fill : forall lo hi g n (F : Z -> R -> R) (f : arr2) a c, g <> n ->
  do_loop lo hi (fun i (u : arr2) => upd2 u i g (F i (u i n))) f a c =
  if (inb lo hi a && (c =? g))%Z then F a (f a n) else f a c.
Proof.
  intros lo hi g n F f a c N. revert a c. revert lo hi.
  apply (Zinterval_ind (fun lo hi => forall a c, do_loop lo hi (fun i (u : arr2) => upd2 u i g (F i (u i n))) f a c =
    if (inb lo hi a && (c =? g))%Z then F a (f a n) else f a c)).
  - intros lo hi H a c. rewrite do_loop_empty by auto. unfold inb.
    destruct (Z.leb_spec lo a); destruct (Z.leb_spec a hi); cbn [andb]; auto; lia.
  - intros lo hi H IH a c. rewrite do_loop_snoc by auto. unfold upd2 at 1.
    destruct (Z.eqb_spec c g) as [-> | A]; rewrite ?andb_true_r, ?andb_false_r.
    + destruct (Z.eqb_spec a hi) as [-> | C]; cbn [andb].
      * rewrite IH. unfold inb. destruct (Z.eqb_spec n g); [congruence |]. rewrite andb_false_r.
        destruct (Z.leb_spec lo hi); [| lia]. rewrite Z.leb_refl. reflexivity.
      * rewrite IH. rewrite Z.eqb_refl, andb_true_r. unfold inb.
        replace (a <=? hi)%Z with (a <=? hi - 1)%Z; [reflexivity |]. destruct (Z.leb_spec a (hi - 1)); destruct (Z.leb_spec a hi); auto; lia.
    + rewrite IH. destruct (Z.eqb_spec c g); [congruence |]. rewrite andb_false_r. reflexivity.
Qed.

(** value written into cell (i,j) of side l *)
Definition wval (b : pbox) (co : bcoefs) (zerog : bool) (l i j : Z) (f : arr2) : R :=
  let at_ (x : arr2) := at_cell l (side_face b l) (along l i j) x in
  ghost_value (at_ (acf co l)) (at_ (bcf co l)) (if zerog then 0 else at_ (gcf co l)) (spacing b l) (at_cell l (inner b l) (along l i j) f).
Definition in_bboxb (s : bbox) (i j : Z) : bool := (inb (bl0 s) (bu0 s) i && inb (bl1 s) (bu1 s) j)%Z.
Lemma in_bboxb_spec : forall s i j, in_bboxb s i j = true <-> in_bbox s i j.
Proof.
  intros s i j. unfold in_bboxb, in_bbox. rewrite andb_true_iff.
  destruct (inb_spec (bl0 s) (bu0 s) i); destruct (inb_spec (bl1 s) (bu1 s) j); intuition (try discriminate; auto).
Qed.
Definition side_ok (b : pbox) (s : bbox) : Prop := is_loc (loc s) /\
    (if (loc s / 2 =? 0)%Z then bl0 s = outer b (loc s) /\ bu0 s = outer b (loc s) else bl1 s = outer b (loc s) /\ bu1 s = outer b (loc s)).
Lemma trimmed_ok : forall b ng0 ng1 co s, side_ok b s -> side_ok b (trimmed b ng0 ng1 co s) /\ loc (trimmed b ng0 ng1 co s) = loc s.
Proof.
  intros b ng0 ng1 co s [L H]. unfold side_ok, trimmed, trim.
  destruct (1 <=? extensions co)%Z; destruct (loc s / 2 =? 0)%Z eqn:E; cbn [loc bl0 bu0 bl1 bu1]; rewrite ?E; tauto.
Qed.
Lemma fill_side_val : forall b ng0 ng1 co zerog depth s u, side_ok b s ->
  exists u', fill_side b ng0 ng1 co zerog depth s u = Some u' /\
    forall i j d, u' i j d = if ((0 <=? d) && (d <? depth))%Z && in_bboxb (trimmed b ng0 ng1 co s) i j
                             then wval b co zerog (loc s) i j (plane u d) else u i j d.
Proof.
  intros b ng0 ng1 co zerog depth s u Hs. destruct (trimmed_ok b ng0 ng1 co s Hs) as [Ht El].
  unfold fill_side. cbv zeta. set (t := trimmed b ng0 ng1 co s) in *. destruct Ht as [L Ht]. rewrite El in Ht, L.
  assert (S2 : forall g x y, (inb g g x && y = (x =? g)%Z && y)%bool).
  { intros g x y. f_equal. unfold inb. destruct (Z.leb_spec g x); destruct (Z.leb_spec x g); destruct (Z.eqb_spec x g); cbn [andb]; auto; lia. }
  destruct L as [L | [L | [L | L]]]; rewrite L in *; cbn [Z.eqb Pos.eqb Z.div Z.div_eucl] in *;
    change (0 / 2)%Z with 0%Z in *; change (1 / 2)%Z with 0%Z in *; change (2 / 2)%Z with 1%Z in *; change (3 / 2)%Z with 1%Z in *;
    cbn [Z.eqb Pos.eqb] in Ht |- *; destruct Ht as [Ha Hb];
    (eexists; split; [reflexivity |]); intros i j d; (eapply eq_trans; [apply (each_plane (fun data => settype1cells2d data _ _ _ _ _ _ _ _ _ _ _ _ _)) |]); cbv beta;
    destruct ((0 <=? d) && (d <? depth))%Z; cbn [andb]; auto;
    unfold settype1cells2d, wval, at_cell, along, spacing, side_face, in_bboxb;
    change (0 / 2 =? 0)%Z with true; change (1 / 2 =? 0)%Z with true; change (2 / 2 =? 0)%Z with false; change (3 / 2 =? 0)%Z with false; cbv iota beta.
  - change (outer b 0) with (lo0 b - 1)%Z in *. change (inner b 0) with (lo0 b).
    rewrite (column_fill _ _ _ _ (fun j x => ghost_value (acf co 0 (bl0 t + 1)%Z j) (bcf co 0 (bl0 t + 1)%Z j) (if zerog then 0 else gcf co 0 (bl0 t + 1)%Z j) (h1 b) x)) by lia.
    rewrite Ha, Hb, S2. replace (Z.max (lo0 b - 1) (lo0 b)) with (lo0 b) by lia. replace (lo0 b - 1 + 1)%Z with (lo0 b) by lia. reflexivity.
  - change (outer b 1) with (hi0 b + 1)%Z in *. change (inner b 1) with (hi0 b).
    rewrite (column_fill _ _ _ _ (fun j x => ghost_value (acf co 1 (bl0 t) j) (bcf co 1 (bl0 t) j) (if zerog then 0 else gcf co 1 (bl0 t) j) (h1 b) x)) by lia.
    rewrite Ha, Hb, S2. replace (Z.max (hi0 b + 1) (hi0 b)) with (hi0 b + 1)%Z by lia. replace (hi0 b + 1 - 1)%Z with (hi0 b) by lia. reflexivity.
  - change (outer b 2) with (lo1 b - 1)%Z in *. change (inner b 2) with (lo1 b).
    rewrite (row_fill _ _ _ _ (fun j x => ghost_value (acf co 2 j (bl1 t + 1)%Z) (bcf co 2 j (bl1 t + 1)%Z) (if zerog then 0 else gcf co 2 j (bl1 t + 1)%Z) (h2 b) x)) by lia.
    rewrite Ha, Hb, (andb_comm _ (inb (lo1 b - 1) _ _)), S2, (andb_comm (_ =? _)%Z). replace (Z.max (lo1 b - 1) (lo1 b)) with (lo1 b) by lia. replace (lo1 b - 1 + 1)%Z with (lo1 b) by lia. reflexivity.
  - change (outer b 3) with (hi1 b + 1)%Z in *. change (inner b 3) with (hi1 b).
    rewrite (row_fill _ _ _ _ (fun j x => ghost_value (acf co 3 j (bl1 t)) (bcf co 3 j (bl1 t)) (if zerog then 0 else gcf co 3 j (bl1 t)) (h2 b) x)) by lia.
    rewrite Ha, Hb, (andb_comm _ (inb (hi1 b + 1) _ _)), S2, (andb_comm (_ =? _)%Z). replace (Z.max (hi1 b + 1) (hi1 b)) with (hi1 b + 1)%Z by lia. replace (hi1 b + 1 - 1)%Z with (hi1 b) by lia. reflexivity.
Qed.

Ltac loc_cases L := destruct L as [L | [L | [L | L]]]; rewrite ?L in *;
  repeat (change (0 / 2 =? 0)%Z with true in *); repeat (change (1 / 2 =? 0)%Z with true in *);
  repeat (change (2 / 2 =? 0)%Z with false in *); repeat (change (3 / 2 =? 0)%Z with false in *); cbv iota beta in *.
Lemma trimmed_sub : forall b ng0 ng1 co s i j, in_bbox (trimmed b ng0 ng1 co s) i j -> in_bbox s i j.
Proof.
  intros b ng0 ng1 co s i j. unfold in_bbox, trimmed, trim, grow_ibox, patch_ibox.
  destruct (1 <=? extensions co)%Z; destruct (loc s / 2 =? 0)%Z; cbn [bl0 bu0 bl1 bu1 il0 iu0 il1 iu1]; lia.
Qed.
Lemma outer_out : forall b l, nonempty_box b -> is_loc l ->
  if (l / 2 =? 0)%Z then ~ (lo0 b <= outer b l <= hi0 b)%Z else ~ (lo1 b <= outer b l <= hi1 b)%Z.
Proof. intros b l [H0 H1] L. loc_cases L; subst; unfold outer; cbn [Z.eqb Pos.eqb]; lia. Qed.
Lemma side_out : forall b s i j, nonempty_box b -> side_ok b s -> in_bbox s i j -> ~ in_cells b i j.
Proof.
  intros b s i j N [L Hs] [Hi Hj] [Pi Pj]. pose proof (outer_out b (loc s) N L) as O.
  destruct (loc s / 2 =? 0)%Z; destruct Hs as [Ha Hb]; rewrite Ha, Hb in *.
  - assert (i = outer b (loc s)) by lia. subst i. tauto.
  - assert (j = outer b (loc s)) by lia. subst j. tauto.
Qed.
(** ghost cell of side l at index t *)
Definition gx (b : pbox) (l t : Z) : Z := if (l / 2 =? 0)%Z then outer b l else t.
Definition gy (b : pbox) (l t : Z) : Z := if (l / 2 =? 0)%Z then t else outer b l.
Definition nx (b : pbox) (l t : Z) : Z := if (l / 2 =? 0)%Z then inner b l else t.
Definition ny (b : pbox) (l t : Z) : Z := if (l / 2 =? 0)%Z then t else inner b l.
Lemma inner_in : forall b l t, nonempty_box b -> is_loc l -> along_patch b l t -> in_cells b (nx b l t) (ny b l t).
Proof.
  intros b l t [H0 H1] L A. unfold in_cells, in_box, nx, ny, along_patch in *. loc_cases L; subst; unfold inner; cbn [Z.eqb Pos.eqb]; lia.
Qed.
Lemma same_side : forall b s l t, nonempty_box b -> side_ok b s -> is_loc l -> along_patch b l t -> in_bbox s (gx b l t) (gy b l t) -> loc s = l.
Proof.
  intros b s l t [H0 H1] [Ls Hs] L A [Hi Hj]. unfold gx, gy, along_patch, outer in *.
  loc_cases L; loc_cases Ls; subst; cbn [Z.eqb Pos.eqb] in *; try congruence; exfalso; lia.
Qed.
Lemma along_ghost : forall b l t, along l (gx b l t) (gy b l t) = t.
Proof. intros b l t. unfold along, gx, gy. destruct (l / 2 =? 0)%Z; reflexivity. Qed.
Lemma wval_ext : forall b co z l i j f g, at_cell l (inner b l) (along l i j) f = at_cell l (inner b l) (along l i j) g ->
  wval b co z l i j f = wval b co z l i j g.
Proof. intros b co z l i j f g H. unfold wval. cbv zeta. rewrite H. reflexivity. Qed.
Lemma at_inner : forall b l t f, at_cell l (inner b l) t f = f (nx b l t) (ny b l t).
Proof. intros b l t f. unfold at_cell, nx, ny. destruct (l / 2 =? 0)%Z; reflexivity. Qed.
Lemma at_outer : forall b l t f, at_cell l (outer b l) t f = f (gx b l t) (gy b l t).
Proof. intros b l t f. unfold at_cell, gx, gy. destruct (l / 2 =? 0)%Z; reflexivity. Qed.
Lemma sides_ok_each : forall b sides, sides_ok b sides <-> Forall (side_ok b) sides.
Proof. intros b sides. unfold sides_ok, side_ok. rewrite Forall_forall. tauto. Qed.
Definition tang (s : bbox) (l t : Z) : Prop := loc s = l /\ if (l / 2 =? 0)%Z then (bl1 s <= t <= bu1 s)%Z else (bl0 s <= t <= bu0 s)%Z.
Lemma tang_trimmed : forall b ng0 ng1 co s l t, (0 <= ng0)%Z -> (0 <= ng1)%Z -> side_ok b s -> along_patch b l t -> tang s l t ->
  in_bbox (trimmed b ng0 ng1 co s) (gx b l t) (gy b l t).
Proof.
  intros b ng0 ng1 co s l t N0 N1 [L Hs] A [El Ht]. unfold in_bbox, trimmed, trim, grow_ibox, patch_ibox, gx, gy, along_patch in *. subst l.
  destruct (1 <=? extensions co)%Z; destruct (loc s / 2 =? 0)%Z; cbn [bl0 bu0 bl1 bu1 il0 iu0 il1 iu1] in *; lia.
Qed.
Lemma bbox_tang : forall b s l t, nonempty_box b -> side_ok b s -> is_loc l -> along_patch b l t -> in_bbox s (gx b l t) (gy b l t) -> tang s l t.
Proof.
  intros b s l t N Hs L A H. pose proof (same_side b s l t N Hs L A H) as E. split; [exact E |]. destruct H as [H1 H2]. unfold gx, gy in *.
  destruct (l / 2 =? 0)%Z; lia.
Qed.

Lemma fill_sides_val : forall b ng0 ng1 gcw0 gcw1 co zerog depth sides u, nonempty_box b -> Forall (side_ok b) sides ->
  exists u', fill_sides b ng0 ng1 gcw0 gcw1 co zerog depth sides u = Some u' /\
    (forall i j d, ~ (0 <= d < depth)%Z \/ (forall s, In s sides -> ~ in_bbox s i j) -> u' i j d = u i j d) /\
    (forall l t d, gcw0 <> 0%Z -> gcw1 <> 0%Z -> (0 <= ng0)%Z -> (0 <= ng1)%Z -> is_loc l -> along_patch b l t -> (0 <= d < depth)%Z -> covers sides l t ->
       u' (gx b l t) (gy b l t) d = wval b co zerog l (gx b l t) (gy b l t) (plane u d)).
Proof.
  intros b ng0 ng1 gcw0 gcw1 co zerog depth sides u N F. revert u. induction F as [| s sides Hs F IH]; intro u; cbn [fill_sides].
  - exists u. split; [reflexivity |]. split; [reflexivity |]. intros l t d _ _ _ _ _ _ _ (s & [] & _).
  - destruct (((if (loc s / 2 =? 0)%Z then gcw0 else gcw1) =? 0)%Z) eqn:Z0.
    + destruct (IH u) as (u' & E & U & V). exists u'. split; [exact E |]. split.
      * intros i j d [H | H]; [apply U; left; exact H | apply U; right; intros s' Hin; apply H; right; exact Hin].
      * intros l t d G0 G1. exfalso. apply Z.eqb_eq in Z0. destruct (loc s / 2 =? 0)%Z; congruence.
    + destruct (fill_side_val b ng0 ng1 co zerog depth s u Hs) as (v & E1 & V1). rewrite E1.
      destruct (IH v) as (u' & E & U & V). exists u'. split; [exact E |].
      assert (K : forall i j d, ~ (0 <= d < depth)%Z \/ ~ in_bbox s i j -> v i j d = u i j d).
      { intros i j d H. rewrite V1. destruct (((0 <=? d) && (d <? depth))%Z && in_bboxb (trimmed b ng0 ng1 co s) i j) eqn:B; auto. exfalso.
        apply andb_true_iff in B. destruct B as [B1 B2]. apply andb_true_iff in B1. destruct B1 as [B1 B3].
        apply Z.leb_le in B1. apply Z.ltb_lt in B3. apply in_bboxb_spec in B2. apply trimmed_sub in B2. destruct H as [H | H]; [lia | tauto]. }
      split.
      * intros i j d H. rewrite U.
        -- apply K. destruct H as [H | H]; [left; exact H | right; apply H; left; reflexivity].
        -- destruct H as [H | H]; [left; exact H | right; intros s' Hin; apply H; right; exact Hin].
      * intros l t d G0 G1 N0 N1 L A Hd C.
        assert (Iv : plane v d (nx b l t) (ny b l t) = plane u d (nx b l t) (ny b l t)).
        { apply K. right. intro B. exact (side_out b s _ _ N Hs B (inner_in b l t N L A)). }
        assert (W : wval b co zerog l (gx b l t) (gy b l t) (plane v d) = wval b co zerog l (gx b l t) (gy b l t) (plane u d)).
        { apply wval_ext. rewrite along_ghost, !at_inner. exact Iv. }
        assert (D : covers sides l t \/ ~ covers sides l t).
        { assert (X : forall q, Forall (side_ok b) q -> covers q l t \/ ~ covers q l t).
          { induction q as [| q0 q IHq]; intro Fq.
            - right. intros (x & [] & _).
            - inversion Fq; subst. destruct (IHq H2) as [Y | Y].
              + left. destruct Y as (x & Hx & R0). exists x. split; [right; exact Hx | exact R0].
              + assert (T0 : tang q0 l t \/ ~ tang q0 l t).
                { unfold tang. destruct (Z.eq_dec (loc q0) l); [| right; tauto]. destruct (l / 2 =? 0)%Z; lia. }
                destruct T0 as [T0 | T0].
                * left. exists q0. split; [left; reflexivity | exact T0].
                * right. intros (x & [-> | Hx] & R0); [apply T0; exact R0 | apply Y; exists x; auto]. }
          apply X. exact F. }
        destruct D as [D | D].
        -- rewrite (V l t d G0 G1 N0 N1 L A Hd D). exact W.
        -- assert (T0 : tang s l t). { destruct C as (x & [<- | Hx] & R0); [exact R0 | exfalso; apply D; exists x; auto]. }
           rewrite U.
           ++ rewrite V1. replace ((0 <=? d) && (d <? depth))%Z with true.
              2:{ symmetry. apply andb_true_iff. split; [apply Z.leb_le | apply Z.ltb_lt]; lia. }
              replace (in_bboxb (trimmed b ng0 ng1 co s) (gx b l t) (gy b l t)) with true.
              2:{ symmetry. apply in_bboxb_spec. apply tang_trimmed; auto. }
              cbn [andb]. destruct T0 as [-> _]. reflexivity.
           ++ right. intros s' Hin B. apply D. exists s'. split; [exact Hin |].
              apply (bbox_tang b s' l t N); auto. rewrite Forall_forall in F. apply F. exact Hin.
Qed.

(** ** Corners *)
Lemma type2_val : forall b n f, is_loc (loc n) -> bl0 n = corner_x b (loc n) -> bu0 n = corner_x b (loc n) ->
    bl1 n = corner_y b (loc n) -> bu1 n = corner_y b (loc n) ->
  settype2cells2d f (bl0 n) (bl1 n) (bu0 n) (bu1 n) (loc n) =
  upd2 f (corner_x b (loc n)) (corner_y b (loc n))
    (f (inner_x b (loc n)) (corner_y b (loc n)) + f (corner_x b (loc n)) (inner_y b (loc n)) - f (inner_x b (loc n)) (inner_y b (loc n))).
Proof.
  intros b n f L -> -> -> ->. unfold settype2cells2d. cbv zeta. set (k := loc n) in *. clearbody k.
  destruct L as [-> | [-> | [-> | ->]]]; cbn [Z.eqb Pos.eqb];
    unfold corner_x, corner_y, inner_x, inner_y, outer, inner; cbn [Z.even Z.ltb Z.compare Pos.compare Pos.compare_cont Z.eqb Pos.eqb].
  - replace (lo0 b - 1 + 1)%Z with (lo0 b) by lia. replace (lo1 b - 1 + 1)%Z with (lo1 b) by lia. reflexivity.
  - replace (hi0 b + 1 + -1)%Z with (hi0 b) by lia. replace (lo1 b - 1 + 1)%Z with (lo1 b) by lia. reflexivity.
  - replace (lo0 b - 1 + 1)%Z with (lo0 b) by lia. replace (hi1 b + 1 + -1)%Z with (hi1 b) by lia. reflexivity.
  - replace (hi0 b + 1 + -1)%Z with (hi0 b) by lia. replace (hi1 b + 1 + -1)%Z with (hi1 b) by lia. reflexivity.
Qed.
Definition fold_nodes (l : list bbox) (f : arr2) : arr2 := fold_left (fun f n => settype2cells2d f (bl0 n) (bl1 n) (bu0 n) (bu1 n) (loc n)) l f.
Definition a_corner (b : pbox) (i j : Z) : Prop := ~ (lo0 b <= i <= hi0 b)%Z /\ ~ (lo1 b <= j <= hi1 b)%Z.
Lemma corner_is : forall b k, nonempty_box b -> is_loc k -> a_corner b (corner_x b k) (corner_y b k).
Proof.
  intros b k [H0 H1] L. unfold a_corner. destruct L as [-> | [-> | [-> | ->]]]; unfold corner_x, corner_y, outer;
    cbn [Z.even Z.ltb Z.compare Pos.compare Pos.compare_cont Z.eqb Pos.eqb]; lia.
Qed.
Lemma inner_xy : forall b k, nonempty_box b -> is_loc k -> (lo0 b <= inner_x b k <= hi0 b)%Z /\ (lo1 b <= inner_y b k <= hi1 b)%Z.
Proof.
  intros b k [H0 H1] L. destruct L as [-> | [-> | [-> | ->]]]; unfold inner_x, inner_y, inner;
    cbn [Z.even Z.ltb Z.compare Pos.compare Pos.compare_cont Z.eqb Pos.eqb]; lia.
Qed.
Lemma corner_inj : forall b k k', nonempty_box b -> is_loc k -> is_loc k' -> corner_x b k = corner_x b k' -> corner_y b k = corner_y b k' -> k = k'.
Proof.
  intros b k k' [H0 H1] L L'. destruct L as [-> | [-> | [-> | ->]]]; destruct L' as [-> | [-> | [-> | ->]]]; unfold corner_x, corner_y, outer;
    cbn [Z.even Z.ltb Z.compare Pos.compare Pos.compare_cont Z.eqb Pos.eqb]; lia.
Qed.
Lemma upd2_at : forall (f : arr2) i j v a c, upd2 f i j v a c = if Z.eq_dec a i then if Z.eq_dec c j then v else f a c else f a c.
Proof.
  intros f i j v a c. unfold upd2. destruct (Z.eqb_spec a i); destruct (Z.eq_dec a i); try congruence; cbn [andb]; auto.
  destruct (Z.eqb_spec c j); destruct (Z.eq_dec c j); congruence.
Qed.
Lemma nodes_val : forall b nodes f, nonempty_box b -> nodes_ok b nodes ->
  (forall i j, (forall k, has_corner nodes k -> ~ (i = corner_x b k /\ j = corner_y b k)) -> fold_nodes nodes f i j = f i j) /\
  (forall k, has_corner nodes k -> fold_nodes nodes f (corner_x b k) (corner_y b k) =
     f (inner_x b k) (corner_y b k) + f (corner_x b k) (inner_y b k) - f (inner_x b k) (inner_y b k)).
Proof.
  intros b nodes f N. revert f. induction nodes as [| n nodes IH]; intros f H; unfold fold_nodes; cbn [fold_left].
  - split; [reflexivity |]. intros k (n & [] & _).
  - destruct (H n (or_introl eq_refl)) as (L & A & B & C & D). rewrite (type2_val b n f L A B C D).
    assert (H' : nodes_ok b nodes) by (intros m Hm; apply H; right; exact Hm).
    set (v := f (inner_x b (loc n)) (corner_y b (loc n)) + f (corner_x b (loc n)) (inner_y b (loc n)) - f (inner_x b (loc n)) (inner_y b (loc n))).
    destruct (IH (upd2 f (corner_x b (loc n)) (corner_y b (loc n)) v) H') as [I1 I2]. fold (fold_nodes nodes (upd2 f (corner_x b (loc n)) (corner_y b (loc n)) v)).
    assert (U : forall i j, (lo0 b <= i <= hi0 b)%Z \/ (lo1 b <= j <= hi1 b)%Z -> upd2 f (corner_x b (loc n)) (corner_y b (loc n)) v i j = f i j).
    { intros i j P. apply upd2_other. pose proof (corner_is b (loc n) N L) as [Q1 Q2].
      destruct (Z.eq_dec i (corner_x b (loc n))); destruct (Z.eq_dec j (corner_y b (loc n))); auto. subst. exfalso. lia. }
    split.
    + intros i j P. rewrite I1.
      * rewrite upd2_at. destruct (Z.eq_dec i (corner_x b (loc n))); auto. destruct (Z.eq_dec j (corner_y b (loc n))); auto.
        exfalso. apply (P (loc n)); [exists n; split; [left; reflexivity | reflexivity] | auto].
      * intros k (m & Hm & Em). apply P. exists m. split; [right; exact Hm | exact Em].
    + intros k Hk.
      assert (Lk : is_loc k) by (destruct Hk as (m & Hm & <-); apply (H m Hm)).
      assert (Dk : has_corner nodes k \/ ~ has_corner nodes k).
      { clear. induction nodes as [| q nodes IHn]; [right; intros (m & [] & _) |]. destruct IHn as [(m & Hm & Em) | X].
        - left. exists m. split; [right; exact Hm | exact Em].
        - destruct (Z.eq_dec (loc q) k); [left; exists q; split; [left; reflexivity | auto] |].
          right. intros (m & [<- | Hm] & Em); [congruence | apply X; exists m; auto]. }
      destruct (inner_xy b k N Lk) as [X1 X2].
      destruct Dk as [Dk | Dk].
      * rewrite (I2 k Dk). rewrite !U by tauto. reflexivity.
      * assert (Ek : loc n = k). { destruct Hk as (m & [<- | Hm] & Em); [exact Em | exfalso; apply Dk; exists m; auto]. }
        rewrite I1.
        -- unfold v. rewrite Ek. rewrite upd2_same. reflexivity.
        -- intros k' (m & Hm & Em) [Y1 Y2]. apply Dk. exists m. split; [exact Hm |]. rewrite Em. symmetry.
           apply (corner_inj b k k' N Lk); auto. rewrite <- Em. apply (H' m Hm).
Qed.

(** ** The whole fill *)
Lemma fill_val : forall b ng0 ng1 req0 req1 co hom depth sides nodes u, nonempty_box b -> sides_ok b sides -> nodes_ok b nodes ->
  exists u', setBoundaryValuesInCells b ng0 ng1 req0 req1 co hom depth sides nodes u = Some u' /\
    (forall i j d, ~ (0 <= d < depth)%Z \/
        ((forall s, In s sides -> ~ in_bbox s i j) /\ (forall k, has_corner nodes k -> ~ (i = corner_x b k /\ j = corner_y b k))) ->
        u' i j d = u i j d) /\
    ((1 <= ng0)%Z -> (1 <= ng1)%Z -> (1 <= req0)%Z -> (1 <= req1)%Z ->
      (forall l t d, is_loc l -> along_patch b l t -> (0 <= d < depth)%Z -> covers sides l t ->
        u' (gx b l t) (gy b l t) d = wval b co hom l (gx b l t) (gy b l t) (plane u d)) /\
      (forall k d, has_corner nodes k -> (0 <= d < depth)%Z -> u' (corner_x b k) (corner_y b k) d =
        u' (inner_x b k) (corner_y b k) d + u' (corner_x b k) (inner_y b k) d - u' (inner_x b k) (inner_y b k) d)).
Proof.
  intros b ng0 ng1 req0 req1 co hom depth sides nodes u N S K. unfold setBoundaryValuesInCells. cbv zeta.
  destruct ((Z.min ng0 req0 =? 0) && (Z.min ng1 req1 =? 0))%Z eqn:E0.
  { exists u. split; [reflexivity |]. split; [reflexivity |]. intros. exfalso. apply andb_true_iff in E0. destruct E0 as [E0 _]. apply Z.eqb_eq in E0. lia. }
  destruct (fill_sides_val b ng0 ng1 (Z.min ng0 req0) (Z.min ng1 req1) co hom depth sides u N (proj1 (sides_ok_each b sides) S)) as (v & E & U & V).
  rewrite E. eexists. split; [reflexivity |].
  assert (P : forall i j d, fill_nodes depth nodes v i j d = if ((0 <=? d) && (d <? depth))%Z then fold_nodes nodes (plane v d) i j else v i j d).
  { intros i j d. unfold fill_nodes. apply (each_plane (fold_nodes nodes)). }
  split.
  - intros i j d H. rewrite P. destruct H as [H | [H1 H2]].
    + destruct (Z.leb_spec 0 d); destruct (Z.ltb_spec d depth); try (exfalso; lia); cbn [andb]; apply U; left; exact H.
    + assert (Ev : v i j d = u i j d) by (apply U; right; exact H1).
      destruct ((0 <=? d) && (d <? depth))%Z; [| exact Ev].
      rewrite (proj1 (nodes_val b nodes (plane v d) N K) i j H2). exact Ev.
  - intros G0 G1 R0 R1. assert (Q : forall i j d, (0 <= d < depth)%Z -> fill_nodes depth nodes v i j d = fold_nodes nodes (plane v d) i j).
    { intros i j d Hd. rewrite P. destruct (Z.leb_spec 0 d); destruct (Z.ltb_spec d depth); try (exfalso; lia). reflexivity. }
    assert (W : forall i j d, (0 <= d < depth)%Z -> (lo0 b <= i <= hi0 b)%Z \/ (lo1 b <= j <= hi1 b)%Z -> fill_nodes depth nodes v i j d = v i j d).
    { intros i j d Hd Hij. rewrite Q by exact Hd. apply (proj1 (nodes_val b nodes (plane v d) N K)). intros k (m & Hm & Em) [-> ->].
      pose proof (corner_is b k N) as X. assert (Lk : is_loc k) by (rewrite <- Em; apply (K m Hm)). destruct (X Lk). lia. }
    split.
    + intros l t d L A Hd C. rewrite W; [apply V; auto; lia | exact Hd |].
      unfold gx, gy, along_patch in *. destruct (l / 2 =? 0)%Z; [right | left]; exact A.
    + intros k d Hk Hd. rewrite Q at 1 by exact Hd. rewrite (proj2 (nodes_val b nodes (plane v d) N K) k Hk).
      assert (Lk : is_loc k) by (destruct Hk as (m & Hm & <-); apply (K m Hm)). destruct (inner_xy b k N Lk) as [X1 X2].
      rewrite !W by (try exact Hd; tauto). reflexivity.
Qed.
Lemma fill_inside : forall b ng0 ng1 req0 req1 co hom depth sides nodes u u', nonempty_box b -> sides_ok b sides -> nodes_ok b nodes ->
  setBoundaryValuesInCells b ng0 ng1 req0 req1 co hom depth sides nodes u = Some u' ->
  forall i j d, in_cells b i j \/ ~ (0 <= d < depth)%Z \/
    ((forall s, In s sides -> ~ in_bbox s i j) /\ (forall n, In n nodes -> ~ in_bbox n i j)) -> u' i j d = u i j d.
Proof.
  intros b ng0 ng1 req0 req1 co hom depth sides nodes u u' N S K E i j d H.
  destruct (fill_val b ng0 ng1 req0 req1 co hom depth sides nodes u N S K) as (v & Ev & U & _). rewrite E in Ev. inversion Ev; subst v.
  apply U. destruct H as [H | [H | [H1 H2]]].
  - right. split.
    + intros s Hin B. apply (side_out b s i j N (S s Hin) B H).
    + intros k (m & Hm & Em) [-> ->]. assert (Lk : is_loc k) by (rewrite <- Em; apply (K m Hm)). destruct (corner_is b k N Lk) as [X _]. destruct H. tauto.
  - left. exact H.
  - right. split; [exact H1 |]. intros k (m & Hm & Em) [-> ->]. apply (H2 m Hm). destruct (K m Hm) as (_ & A & B & C & D). rewrite Em in *.
    unfold in_bbox. lia.
Qed.
Lemma condition_met : forall a b g h ui, h <> 0 -> b + a * (h / 2) <> 0 -> condition a b g h (ghost_value a b g h ui) ui.
Proof. intros a b g h ui Hh D. unfold condition, ghost_value. field. split; [| exact Hh]. lra. Qed.
Lemma fill_condition : forall b ng0 ng1 req0 req1 co hom depth sides nodes u, nonempty_box b -> sides_ok b sides -> nodes_ok b nodes ->
  (1 <= ng0)%Z -> (1 <= ng1)%Z -> (1 <= req0)%Z -> (1 <= req1)%Z ->
  exists u', setBoundaryValuesInCells b ng0 ng1 req0 req1 co hom depth sides nodes u = Some u' /\
  forall l t d, is_loc l -> along_patch b l t -> covers sides l t -> (0 <= d < depth)%Z ->
    let at_face f := at_cell l (side_face b l) t f in
    spacing b l <> 0 -> at_face (bcf co l) + at_face (acf co l) * (spacing b l / 2) <> 0 ->
    condition (at_face (acf co l)) (at_face (bcf co l)) (if hom then 0 else at_face (gcf co l)) (spacing b l)
      (at_cell l (outer b l) t (plane u' d)) (at_cell l (inner b l) t (plane u' d)) /\
    at_cell l (inner b l) t (plane u' d) = at_cell l (inner b l) t (plane u d).
Proof.
  intros b ng0 ng1 req0 req1 co hom depth sides nodes u N S K N0 N1 R0 R1.
  destruct (fill_val b ng0 ng1 req0 req1 co hom depth sides nodes u N S K) as (u' & E & U & V). exists u'. split; [exact E |].
  destruct (V N0 N1 R0 R1) as [V1 _]. intros l t d L A C Hd at_face Hh D.
  assert (I : at_cell l (inner b l) t (plane u' d) = at_cell l (inner b l) t (plane u d)).
  { rewrite !at_inner. apply (fill_inside b ng0 ng1 req0 req1 co hom depth sides nodes u u' N S K E). left. apply inner_in; auto. }
  split; [| exact I]. rewrite I, at_outer. unfold plane at 1. rewrite (V1 l t d L A Hd C). unfold wval. cbv zeta. rewrite along_ghost.
  apply condition_met; auto.
Qed.
Lemma fill_corner : forall b ng0 ng1 req0 req1 co hom depth sides nodes u u', nonempty_box b -> sides_ok b sides -> nodes_ok b nodes ->
  (1 <= ng0)%Z -> (1 <= ng1)%Z -> (1 <= req0)%Z -> (1 <= req1)%Z ->
  setBoundaryValuesInCells b ng0 ng1 req0 req1 co hom depth sides nodes u = Some u' ->
  forall k d, has_corner nodes k -> (0 <= d < depth)%Z ->
    u' (corner_x b k) (corner_y b k) d + u' (inner_x b k) (inner_y b k) d =
    u' (inner_x b k) (corner_y b k) d + u' (corner_x b k) (inner_y b k) d.
Proof.
  intros b ng0 ng1 req0 req1 co hom depth sides nodes u u' N S K N0 N1 R0 R1 E k d Hk Hd.
  destruct (fill_val b ng0 ng1 req0 req1 co hom depth sides nodes u N S K) as (v & Ev & _ & V). rewrite E in Ev. inversion Ev; subst v.
  destruct (V N0 N1 R0 R1) as [_ V2]. rewrite (V2 k d Hk Hd). ring.
Qed.
Lemma covers_perm : forall s s' l t, Permutation s s' -> covers s l t -> covers s' l t.
Proof. intros s s' l t P (x & Hx & H). exists x. split; [exact (Permutation_in x P Hx) | exact H]. Qed.
Lemma corner_perm : forall s s' k, Permutation s s' -> has_corner s k -> has_corner s' k.
Proof. intros s s' k P (x & Hx & H). exists x. split; [exact (Permutation_in x P Hx) | exact H]. Qed.
Lemma in_bbox_dec : forall s i j, in_bbox s i j \/ ~ in_bbox s i j.
Proof. intros s i j. unfold in_bbox. lia. Qed.
Lemma some_bbox : forall l i j, (exists s, In s l /\ in_bbox s i j) \/ (forall s, In s l -> ~ in_bbox s i j).
Proof.
  induction l as [| s l IH]; intros i j; [right; intros s [] |]. destruct (in_bbox_dec s i j) as [H | H].
  - left. exists s. split; [left; reflexivity | exact H].
  - destruct (IH i j) as [(x & Hx & B) | H2]; [left; exists x; split; [right; exact Hx | exact B] |]. right. intros x [<- | Hx]; auto.
Qed.
Lemma fill_order : forall b ng0 ng1 req0 req1 co hom depth sides nodes sides' nodes' u, nonempty_box b -> sides_ok b sides -> nodes_ok b nodes ->
  (1 <= ng0)%Z -> (1 <= ng1)%Z -> (1 <= req0)%Z -> (1 <= req1)%Z -> ends_in_corners b sides nodes ->
  Permutation sides sides' -> Permutation nodes nodes' ->
  setBoundaryValuesInCells b ng0 ng1 req0 req1 co hom depth sides nodes u = setBoundaryValuesInCells b ng0 ng1 req0 req1 co hom depth sides' nodes' u.
Proof.
  intros b ng0 ng1 req0 req1 co hom depth sides nodes sides' nodes' u N S K N0 N1 R0 R1 EC P Q.
  assert (S' : sides_ok b sides') by (intros s Hs; apply S; exact (Permutation_in s (Permutation_sym P) Hs)).
  assert (K' : nodes_ok b nodes') by (intros s Hs; apply K; exact (Permutation_in s (Permutation_sym Q) Hs)).
  destruct (fill_val b ng0 ng1 req0 req1 co hom depth sides nodes u N S K) as (v & E & U & V). destruct (V N0 N1 R0 R1) as [V1 V2].
  destruct (fill_val b ng0 ng1 req0 req1 co hom depth sides' nodes' u N S' K') as (v' & E' & U' & V'). destruct (V' N0 N1 R0 R1) as [V1' V2'].
  pose proof (fill_inside _ _ _ _ _ _ _ _ _ _ _ _ N S K E) as I. pose proof (fill_inside _ _ _ _ _ _ _ _ _ _ _ _ N S' K' E') as I'.
  rewrite E, E'. f_equal. apply functional_extensionality; intro i. apply functional_extensionality; intro j. apply functional_extensionality; intro d.
  assert (D : (0 <= d < depth)%Z \/ ~ (0 <= d < depth)%Z) by lia. destruct D as [D | D]; [| rewrite U, U' by auto; reflexivity].
  assert (Side : forall l t, is_loc l -> along_patch b l t -> v (gx b l t) (gy b l t) d = v' (gx b l t) (gy b l t) d).
  { intros l t L A. destruct (some_bbox sides (gx b l t) (gy b l t)) as [(s & Hs & B) | H].
    - assert (C : covers sides l t) by (exists s; split; [exact Hs |]; exact (bbox_tang b s l t N (S s Hs) L A B)).
      rewrite V1, V1' by (auto; exact (covers_perm _ _ _ _ P C)). reflexivity.
    - assert (Ho : (lo0 b <= gx b l t <= hi0 b)%Z \/ (lo1 b <= gy b l t <= hi1 b)%Z)
        by (unfold gx, gy, along_patch in *; destruct (l / 2 =? 0)%Z; [right | left]; exact A).
      assert (X : forall q, nodes_ok b q -> forall k, has_corner q k -> ~ (gx b l t = corner_x b k /\ gy b l t = corner_y b k)).
      { intros q Kq k (m & Hm & Em) [Y1 Y2]. assert (Lk : is_loc k) by (rewrite <- Em; apply (Kq m Hm)).
        destruct (corner_is b k N Lk) as [Z1 Z2]. rewrite Y1, Y2 in Ho. tauto. }
      rewrite U, U'; [reflexivity | |]; right; split; auto.
      + intros s Hs. apply H. exact (Permutation_in s (Permutation_sym P) Hs).
      + apply X. exact K'.
      + apply X. exact K. }
  assert (Corner : forall k, has_corner nodes k -> v (corner_x b k) (corner_y b k) d = v' (corner_x b k) (corner_y b k) d).
  { intros k Hk. assert (Lk : is_loc k) by (destruct Hk as (m & Hm & <-); apply (K m Hm)).
    rewrite V2, V2' by (auto; exact (corner_perm _ _ _ Q Hk)). destruct (inner_xy b k N Lk) as [X1 X2].
    f_equal; [f_equal |].
    - assert (Y := Side (if (k <? 2)%Z then 2 else 3)%Z (inner_x b k)). unfold gx, gy, along_patch in Y.
      destruct (k <? 2)%Z eqn:Ek; [change (2 / 2 =? 0)%Z with false in Y | change (3 / 2 =? 0)%Z with false in Y]; cbv iota in Y;
        (unfold corner_y; rewrite Ek; apply Y; [unfold is_loc; tauto | exact X1]).
    - assert (Y := Side (if Z.even k then 0 else 1)%Z (inner_y b k)). unfold gx, gy, along_patch in Y.
      destruct (Z.even k) eqn:Ek; [change (0 / 2 =? 0)%Z with true in Y | change (1 / 2 =? 0)%Z with true in Y]; cbv iota in Y;
        (unfold corner_x; rewrite Ek; apply Y; [unfold is_loc; tauto | exact X2]).
    - rewrite I, I' by (left; split; auto). reflexivity. }
  destruct (some_bbox sides i j) as [(s & Hs & B) | H].
  - destruct (EC s i j Hs B) as [A | (k & Hk & Lk & -> & ->)]; [| apply Corner; exact Hk].
    destruct (S s Hs) as [L Hb]. pose proof (Side (loc s) (along (loc s) i j) L A) as Y. unfold gx, gy, along in Y. destruct B as [B1 B2].
    destruct (loc s / 2 =? 0)%Z; destruct Hb as [Ha Hb]; [replace (outer b (loc s)) with i in Y by lia | replace (outer b (loc s)) with j in Y by lia]; exact Y.
  - assert (Dk : (exists k, has_corner nodes k /\ i = corner_x b k /\ j = corner_y b k) \/ forall k, has_corner nodes k -> ~ (i = corner_x b k /\ j = corner_y b k)).
    { clear - K. induction nodes as [| n nodes IHn]; [right; intros k (m & [] & _) |].
      assert (K2 : nodes_ok b nodes) by (intros m Hm; apply K; right; exact Hm). destruct (IHn K2) as [(k & (m & Hm & Em) & H) | H].
      - left. exists k. split; [exists m; split; [right; exact Hm | exact Em] | exact H].
      - assert (T : (i = corner_x b (loc n) /\ j = corner_y b (loc n)) \/ ~ (i = corner_x b (loc n) /\ j = corner_y b (loc n))) by lia.
        destruct T as [T | T]; [left; exists (loc n); split; [exists n; split; [left; reflexivity | reflexivity] | exact T] |].
        right. intros k (m & [<- | Hm] & <-); [exact T | apply H; exists m; auto]. }
    destruct Dk as [(k & Hk & -> & ->) | Dk]; [apply Corner; exact Hk |].
    rewrite U, U'; [reflexivity | |]; right; split; auto.
    + intros s Hs. apply H. exact (Permutation_in s (Permutation_sym P) Hs).
    + intros k Hk. apply Dk. exact (corner_perm _ _ _ (Permutation_sym Q) Hk).
Qed.

(** ** Patches surrounded by the physical boundary *)
Lemma first_layer_cases : forall b i j, nonempty_box b -> in_first_layer b i j ->
  in_cells b i j \/ (exists l t, is_loc l /\ along_patch b l t /\ i = gx b l t /\ j = gy b l t) \/
  (exists k, is_loc k /\ i = corner_x b k /\ j = corner_y b k).
Proof.
  intros b i j [H0 H1] [Hi Hj]. unfold is_loc.
  destruct (Z_lt_le_dec i (lo0 b)); [| destruct (Z_lt_le_dec (hi0 b) i)];
  (destruct (Z_lt_le_dec j (lo1 b)); [| destruct (Z_lt_le_dec (hi1 b) j)]).
  - right; right. exists 0%Z. unfold corner_x, corner_y, outer. cbn. lia.
  - right; right. exists 2%Z. unfold corner_x, corner_y, outer. cbn. lia.
  - right; left. exists 0%Z, j. unfold along_patch, gx, gy, outer. cbn. lia.
  - right; right. exists 1%Z. unfold corner_x, corner_y, outer. cbn. lia.
  - right; right. exists 3%Z. unfold corner_x, corner_y, outer. cbn. lia.
  - right; left. exists 1%Z, j. unfold along_patch, gx, gy, outer. cbn. lia.
  - right; left. exists 2%Z, i. unfold along_patch, gx, gy, outer. cbn. lia.
  - right; left. exists 3%Z, i. unfold along_patch, gx, gy, outer. cbn. lia.
  - left. split; lia.
Qed.
Lemma whole_layer : forall b ng0 ng1 req0 req1 co hom depth sides nodes u u' d (T : arr2), nonempty_box b -> whole_boundary b sides nodes ->
  (1 <= ng0)%Z -> (1 <= ng1)%Z -> (1 <= req0)%Z -> (1 <= req1)%Z -> (0 <= d < depth)%Z ->
  setBoundaryValuesInCells b ng0 ng1 req0 req1 co hom depth sides nodes u = Some u' ->
  (forall i j, in_cells b i j -> u i j d = T i j) ->
  (forall l t, is_loc l -> along_patch b l t -> wval b co hom l (gx b l t) (gy b l t) T = T (gx b l t) (gy b l t)) ->
  (forall k, is_loc k -> T (corner_x b k) (corner_y b k) = T (inner_x b k) (corner_y b k) + T (corner_x b k) (inner_y b k) - T (inner_x b k) (inner_y b k)) ->
  forall i j, in_first_layer b i j -> u' i j d = T i j.
Proof.
  intros b ng0 ng1 req0 req1 co hom depth sides nodes u u' d T N (S & K & Cv & Hc) N0 N1 R0 R1 Hd E I W C i j Hij.
  destruct (fill_val b ng0 ng1 req0 req1 co hom depth sides nodes u N S K) as (v & Ev & _ & V). rewrite E in Ev. inversion Ev; subst v.
  destruct (V N0 N1 R0 R1) as [V1 V2]. pose proof (fill_inside _ _ _ _ _ _ _ _ _ _ _ _ N S K E) as In'.
  assert (Side : forall l t, is_loc l -> along_patch b l t -> u' (gx b l t) (gy b l t) d = T (gx b l t) (gy b l t)).
  { intros l t L A. rewrite (V1 l t d L A Hd (Cv l t L A)). rewrite <- (W l t L A). apply wval_ext. rewrite along_ghost, !at_inner.
    apply I. apply inner_in; auto. }
  destruct (first_layer_cases b i j N Hij) as [H | [(l & t & L & A & -> & ->) | (k & Lk & -> & ->)]].
  - rewrite In' by auto. apply I. exact H.
  - apply Side; auto.
  - rewrite (V2 k d (Hc k Lk) Hd), (C k Lk). destruct (inner_xy b k N Lk) as [X1 X2]. f_equal; [f_equal |].
    + assert (Y := Side (if (k <? 2)%Z then 2 else 3)%Z (inner_x b k)). unfold gx, gy, along_patch in Y.
      destruct (k <? 2)%Z eqn:Ek; [change (2 / 2 =? 0)%Z with false in Y | change (3 / 2 =? 0)%Z with false in Y]; cbv iota in Y;
        (unfold corner_y; rewrite Ek; apply Y; [unfold is_loc; tauto | exact X1]).
    + assert (Y := Side (if Z.even k then 0 else 1)%Z (inner_y b k)). unfold gx, gy, along_patch in Y.
      destruct (Z.even k) eqn:Ek; [change (0 / 2 =? 0)%Z with true in Y | change (1 / 2 =? 0)%Z with true in Y]; cbv iota in Y;
        (unfold corner_x; rewrite Ek; apply Y; [unfold is_loc; tauto | exact X2]).
    + rewrite In' by (left; split; auto). apply I. split; auto.
Qed.
Lemma clamp_in : forall lo hi i, (lo <= i <= hi)%Z -> clamp lo hi i = i.
Proof. intros. unfold clamp. lia. Qed.
Lemma fill_mirror : forall b ng0 ng1 req0 req1 co hom depth sides nodes u u' d, nonempty_box b -> whole_boundary b sides nodes ->
  (1 <= ng0)%Z -> (1 <= ng1)%Z -> (1 <= req0)%Z -> (1 <= req1)%Z -> (0 <= d < depth)%Z -> no_flux co ->
  setBoundaryValuesInCells b ng0 ng1 req0 req1 co hom depth sides nodes u = Some u' ->
  (forall i j, in_first_layer b i j -> u' i j d = u (clamp (lo0 b) (hi0 b) i) (clamp (lo1 b) (hi1 b) j) d) /\
  filled ZeroFlux ZeroFlux b (plane u' d).
Proof.
  intros b ng0 ng1 req0 req1 co hom depth sides nodes u u' d N WB N0 N1 R0 R1 Hd Nf E.
  assert (G : forall i j, in_first_layer b i j -> u' i j d = u (clamp (lo0 b) (hi0 b) i) (clamp (lo1 b) (hi1 b) j) d).
  { apply (whole_layer b ng0 ng1 req0 req1 co hom depth sides nodes u u' d (fun i j => u (clamp (lo0 b) (hi0 b) i) (clamp (lo1 b) (hi1 b) j) d) N WB); auto.
    - intros i j [Hi Hj]. rewrite !clamp_in by auto. reflexivity.
    - intros l t L A. unfold wval. cbv zeta. rewrite along_ghost. unfold ghost_value, at_cell.
      assert (X : forall i j, acf co l i j = 0 /\ bcf co l i j = 1 /\ gcf co l i j = 0) by (intros; apply Nf; auto).
      destruct N as [H0 H1]. unfold along_patch, gx, gy in *.
      destruct (X (side_face b l) t) as (-> & -> & ->). destruct (X t (side_face b l)) as (-> & -> & ->).
      loc_cases L; subst; unfold inner, outer; cbn [Z.eqb Pos.eqb]; destruct hom; unfold clamp.
      all: match goal with |- (_ + _ * ?w ?x ?y ?e) / _ = ?w ?x' ?y' ?e => replace x' with x by lia; replace y' with y by lia; field end.
    - intros k L. destruct N as [H0 H1]. destruct L as [-> | [-> | [-> | ->]]]; unfold corner_x, corner_y, inner_x, inner_y, outer, inner;
        cbn [Z.even Z.ltb Z.compare Pos.compare Pos.compare_cont Z.eqb Pos.eqb]; unfold clamp.
      all: match goal with |- ?w ?x ?y ?e = ?w ?x1 ?y1 ?e + ?w ?x2 ?y2 ?e - ?w ?x3 ?y3 ?e =>
             replace x1 with x by lia; replace x2 with x by lia; replace x3 with x by lia; replace y1 with y by lia; replace y2 with y by lia; replace y3 with y by lia; ring end. }
  split; [exact G |]. unfold filled, filled1, plane, in_first_layer, in_box in *. destruct N as [H0 H1].
  split; intros t Ht; split; rewrite !G by lia; unfold clamp; f_equal; lia.
Qed.
Lemma ghost_exact : forall a b vf s h, b + a * (h / 2) <> 0 -> ghost_value a b (a * vf + b * s) h (vf - s * (h / 2)) = vf + s * (h / 2).
Proof. intros a b vf s h D. unfold ghost_value. field. lra. Qed.
Lemma fill_affine : forall b ng0 ng1 req0 req1 co depth sides nodes u u' d c0 c1 c2, nonempty_box b -> whole_boundary b sides nodes ->
  (1 <= ng0)%Z -> (1 <= ng1)%Z -> (1 <= req0)%Z -> (1 <= req1)%Z -> (0 <= d < depth)%Z ->
  (forall l t, is_loc l -> along_patch b l t -> let on_face f := at_cell l (side_face b l) t f in
    on_face (bcf co l) + on_face (acf co l) * (spacing b l / 2) <> 0 /\
    on_face (gcf co l) = on_face (acf co l) * on_face (affine_face b c0 c1 c2 l) + on_face (bcf co l) * affine_slope c1 c2 l) ->
  (forall i j, in_cells b i j -> u i j d = affine b c0 c1 c2 i j) ->
  setBoundaryValuesInCells b ng0 ng1 req0 req1 co false depth sides nodes u = Some u' ->
  forall i j, in_first_layer b i j -> u' i j d = affine b c0 c1 c2 i j.
Proof.
  intros b ng0 ng1 req0 req1 co depth sides nodes u u' d c0 c1 c2 N WB N0 N1 R0 R1 Hd G I E.
  apply (whole_layer b ng0 ng1 req0 req1 co false depth sides nodes u u' d (affine b c0 c1 c2) N WB); auto.
  - intros l t L A. unfold wval. cbv zeta. rewrite along_ghost.
    destruct (G l t L A) as [D X]. rewrite X. replace (at_cell l (inner b l) t (affine b c0 c1 c2)) with (at_cell l (side_face b l) t (affine_face b c0 c1 c2 l) - affine_slope c1 c2 l * (spacing b l / 2)).
    + rewrite ghost_exact.
      * unfold at_cell, gx, gy, affine, affine_face, affine_slope, side_face, spacing, outer, inner.
        loc_cases L; subst; cbn [Z.eqb Pos.eqb]; rewrite ?Z.max_r, ?Z.max_l by lia; rewrite ?minus_IZR, ?plus_IZR; field.
      * exact D.
    + unfold at_cell, affine, affine_face, affine_slope, side_face, spacing, outer, inner.
      loc_cases L; subst; cbn [Z.eqb Pos.eqb]; rewrite ?Z.max_r, ?Z.max_l by lia; rewrite ?minus_IZR, ?plus_IZR; field.
  - intros k _. unfold affine. ring.
Qed.

(** ** Change of unit *)
Lemma rescaled_g_val : forall c g l, 0 < c -> is_loc l -> rescaled_g c g l = c * g l.
Proof.
  intros c g l Hc L. unfold rescaled_g. destruct (Rlt_dec 0 c); [| contradiction].
  do 4 (rewrite do_loop_cons by lia). rewrite do_loop_empty by lia.
  destruct L as [-> | [-> | [-> | ->]]]; cbn; ring.
Qed.
Lemma type2_scaled : forall c n f g, (forall i j, g i j = c * f i j) ->
  forall i j, settype2cells2d g (bl0 n) (bl1 n) (bu0 n) (bu1 n) (loc n) i j = c * settype2cells2d f (bl0 n) (bl1 n) (bu0 n) (bu1 n) (loc n) i j.
Proof.
  intros c n f g H i j. unfold settype2cells2d. cbv zeta.
  destruct (loc n =? 0)%Z; [| destruct (loc n =? 1)%Z; [| destruct (loc n =? 2)%Z]]; rewrite !upd2_at, !H;
    repeat match goal with |- context [Z.eq_dec ?x ?y] => destruct (Z.eq_dec x y) end; ring.
Qed.
Lemma fold_scaled : forall c nodes f g, (forall i j, g i j = c * f i j) -> forall i j, fold_nodes nodes g i j = c * fold_nodes nodes f i j.
Proof.
  intros c nodes. induction nodes as [| n nodes IH]; intros f g H; [exact H |]. unfold fold_nodes. cbn [fold_left].
  apply IH. apply type2_scaled. exact H.
Qed.
Lemma fill_rescaled : forall b ng0 ng1 req0 req1 a be g n c hom depth sides nodes u u', nonempty_box b -> sides_ok b sides -> 0 < c ->
  setBoundaryValuesInCells b ng0 ng1 req0 req1 (location_coefs a be g n) hom depth sides nodes u = Some u' ->
  exists v, setBoundaryValuesInCells b ng0 ng1 req0 req1 (location_coefs a be (rescaled_g c g) n) hom depth sides nodes (fun i j d => c * u i j d) = Some v /\
    forall i j d, v i j d = c * u' i j d.
Proof.
  intros b ng0 ng1 req0 req1 a be g n c hom depth sides nodes u u' N S Hc. unfold setBoundaryValuesInCells. cbv zeta.
  destruct ((Z.min ng0 req0 =? 0) && (Z.min ng1 req1 =? 0))%Z.
  { intro E. inversion E; subst. eexists. split; reflexivity. }
  set (g0 := Z.min ng0 req0). set (g1 := Z.min ng1 req1).
  assert (X : forall sides, Forall (side_ok b) sides -> forall u w, (forall i j d, w i j d = c * u i j d) ->
    match fill_sides b ng0 ng1 g0 g1 (location_coefs a be g n) hom depth sides u, fill_sides b ng0 ng1 g0 g1 (location_coefs a be (rescaled_g c g) n) hom depth sides w with
    | Some p, Some q => forall i j d, q i j d = c * p i j d | _, _ => False end).
  { clear - Hc. intros sides F. induction F as [| s sides Hs F IH]; intros u w H; cbn [fill_sides]; [exact H |].
    destruct ((if (loc s / 2 =? 0)%Z then g0 else g1) =? 0)%Z; [apply IH; exact H |].
    destruct (fill_side_val b ng0 ng1 (location_coefs a be g n) hom depth s u Hs) as (p & -> & P).
    destruct (fill_side_val b ng0 ng1 (location_coefs a be (rescaled_g c g) n) hom depth s w Hs) as (q & -> & Q).
    apply IH. intros i j d. rewrite P, Q. change (trimmed b ng0 ng1 (location_coefs a be (rescaled_g c g) n) s) with (trimmed b ng0 ng1 (location_coefs a be g n) s).
    destruct (((0 <=? d) && (d <? depth))%Z && in_bboxb (trimmed b ng0 ng1 (location_coefs a be g n) s) i j); [| apply H].
    unfold wval. cbv zeta. unfold at_cell, location_coefs, plane. cbn [acf bcf gcf]. destruct Hs as [L _].
    rewrite (rescaled_g_val c g (loc s) Hc L).
    rewrite !H. unfold ghost_value. destruct (loc s / 2 =? 0)%Z; destruct hom; unfold Rdiv; ring.
  }
  pose proof (X sides (proj1 (sides_ok_each b sides) S) u (fun i j d => c * u i j d) (fun _ _ _ => eq_refl)) as Y.
  destruct (fill_sides b ng0 ng1 g0 g1 (location_coefs a be g n) hom depth sides u) as [p |]; [| contradiction].
  destruct (fill_sides b ng0 ng1 g0 g1 (location_coefs a be (rescaled_g c g) n) hom depth sides (fun i j d => c * u i j d)) as [q |]; [| contradiction].
  intro E. inversion E; subst u'. eexists. split; [reflexivity |]. intros i j d.
  assert (P : forall v, fill_nodes depth nodes v i j d = if ((0 <=? d) && (d <? depth))%Z then fold_nodes nodes (plane v d) i j else v i j d).
  { intro v. unfold fill_nodes. apply (each_plane (fold_nodes nodes)). }
  rewrite !P. destruct ((0 <=? d) && (d <? depth))%Z; [| apply Y]. apply fold_scaled. intros i' j'. apply Y.
Qed.

(** ** What the rates depend on *)
Lemma fill_agree : forall b n co hom depth sides nodes u1 u2 v1 v2 d, nonempty_box b -> whole_boundary b sides nodes -> (1 <= n)%Z ->
  refill b n co hom depth sides nodes u1 v1 -> refill b n co hom depth sides nodes u2 v2 -> same_patch b depth u1 u2 -> (0 <= d < depth)%Z ->
  forall i j, in_first_layer b i j -> v1 i j d = v2 i j d.
Proof.
  intros b n co hom depth sides nodes u1 u2 v1 v2 d N WB Hn E1 E2 Sm Hd. destruct WB as (S & K & Cv & Hc).
  destruct (fill_val b n n n n co hom depth sides nodes u2 N S K) as (v & Ev & _ & V). unfold refill in E2. rewrite E2 in Ev. inversion Ev; subst v.
  destruct (V Hn Hn Hn Hn) as [V1 V2]. pose proof (fill_inside _ _ _ _ _ _ _ _ _ _ _ _ N S K E2) as I2.
  apply (whole_layer b n n n n co hom depth sides nodes u1 v1 d (plane v2 d) N (conj S (conj K (conj Cv Hc)))); auto.
  - intros i j Hij. unfold plane. rewrite I2 by auto. apply Sm; auto.
  - intros l t L A. unfold plane at 2. rewrite (V1 l t d L A Hd (Cv l t L A)). apply wval_ext. rewrite along_ghost, !at_inner.
    unfold plane. apply I2. left. apply inner_in; auto.
  - intros k L. unfold plane. apply V2; auto.
Qed.
Lemma flux_local : forall k b eps f g old i j,
  (forall a c, (Z.abs (a - i) <= 1)%Z -> (Z.abs (c - j) <= 1)%Z -> f a c = g a c) ->
  (x_face b i j -> flux_x k b eps f old i j = flux_x k b eps g old i j) /\ (y_face b i j -> flux_y k b eps f old i j = flux_y k b eps g old i j).
Proof.
  intros k b eps f g old i j H. split; intro F; destruct k; cbn [flux_x flux_y];
    unfold gradient_flux_x, gradient_flux_y, isotropic_flux_x, isotropic_flux_y, anisotropic_flux_x, anisotropic_flux_y; cbv zeta;
    rewrite ?(xfaces_val b _ old i j F), ?(yfaces_val b _ old i j F); rewrite !H by lia; reflexivity.
Qed.
Lemma layer_near : forall b i j a c, in_cells b i j -> (Z.abs (a - i) <= 1)%Z -> (Z.abs (c - j) <= 1)%Z -> in_first_layer b a c.
Proof. intros b i j a c [Hi Hj] Ha Hc. unfold in_first_layer, in_box. lia. Qed.
Lemma phase_determined : forall p f g fold rold r1 r2, (forall i j, in_first_layer (pb p) i j -> f i j = g i j) ->
  evaluatePhaseRHS p f fold rold = Some r1 -> evaluatePhaseRHS p g fold rold = Some r2 ->
  forall i j, in_cells (pb p) i j -> r1 i j = r2 i j.
Proof.
  intros p f g fold rold r1 r2 H E1 E2 i j Hij. rewrite (rhs_val _ _ _ _ _ _ _ E1 Hij), (rhs_val _ _ _ _ _ _ _ E2 Hij). f_equal.
  assert (Hc : f i j = g i j) by (apply H; apply (layer_near (pb p) i j); auto; lia).
  assert (D : div_term p f fold i j = div_term p g fold i j).
  { unfold div_term. cbv zeta. destruct Hij as [Hi Hj].
    assert (L : forall x y, (lo0 (pb p) <= x <= hi0 (pb p) + 1 /\ lo1 (pb p) <= y <= hi1 (pb p) \/ lo0 (pb p) <= x <= hi0 (pb p) /\ lo1 (pb p) <= y <= hi1 (pb p) + 1)%Z -> True) by auto.
    clear L.
    assert (X : forall x y, x_face (pb p) x y -> flux_x (pflux p) (pb p) (peps p) f fold x y = flux_x (pflux p) (pb p) (peps p) g fold x y).
    { intros x y F. destruct F as [Fx Fy]. unfold flux_x. destruct (pflux p); unfold gradient_flux_x, isotropic_flux_x, anisotropic_flux_x; cbv zeta;
        rewrite !xfaces_val by (split; auto); rewrite !(H x), !(H (x - 1)%Z) by (unfold in_first_layer, in_box; lia); reflexivity. }
    assert (Y : forall x y, y_face (pb p) x y -> flux_y (pflux p) (pb p) (peps p) f fold x y = flux_y (pflux p) (pb p) (peps p) g fold x y).
    { intros x y F. destruct F as [Fx Fy]. unfold flux_y. destruct (pflux p); unfold gradient_flux_y, isotropic_flux_y, anisotropic_flux_y; cbv zeta;
        rewrite !yfaces_val by (split; auto); rewrite ?(H x), ?(H (x - 1)%Z), ?(H (x + 1)%Z) by (unfold in_first_layer, in_box; lia); reflexivity. }
    rewrite !X, !Y by (split; lia). reflexivity. }
  unfold force. rewrite D. unfold third_term, orient_term, drive_term. rewrite Hc. reflexivity.
Qed.
Lemma temp_determined : forall b D L cp pr old f g, (forall i j, in_first_layer b i j -> f i j = g i j) ->
  forall i j, in_cells b i j -> computerhstemp b D L f cp pr old i j = computerhstemp b D L g cp pr old i j.
Proof.
  intros b D L cp pr old f g H i j Hij. rewrite !temp_val by auto. f_equal. f_equal. unfold lap.
  rewrite !H by (apply (layer_near b i j); auto; lia). reflexivity.
Qed.
Lemma advect_determined : forall b up vel nfield data1 data2 rhs, nonempty_box b -> (forall f i j, (0 <= f < nfield)%Z -> in_first_layer b i j -> data1 f i j = data2 f i j) ->
  forall f i j, in_cells b i j ->
  advect_fields up (lo0 b) (hi0 b) (lo1 b) (hi1 b) (h1 b) vel true nfield data1 rhs f i j =
  advect_fields up (lo0 b) (hi0 b) (lo1 b) (hi1 b) (h1 b) vel true nfield data2 rhs f i j.
Proof.
  intros b up vel nfield data1 data2 rhs [N0 N1] H f i j Hij. unfold advect_fields. destruct up.
  - rewrite (fields_loop nfield (fun f r => addvdphidx_upwind3 (lo0 b) (hi0 b) (lo1 b) (hi1 b) (h1 b) (data1 f) vel r 1%Z)).
    rewrite (fields_loop nfield (fun f r => addvdphidx_upwind3 (lo0 b) (hi0 b) (lo1 b) (hi1 b) (h1 b) (data2 f) vel r 1%Z)).
    destruct (inb_spec 0 (nfield - 1) f); [| reflexivity]. rewrite !adv3_value by auto.
    destruct (inb (lo0 b) (hi0 b) i && inb (lo1 b) (hi1 b) j); [| reflexivity]. f_equal. change (1 =? 1)%Z with true. cbn [andb].
    destruct Hij as [Hi Hj]. unfold in_first_layer, in_box in H. destruct (Z.eqb_spec i (hi0 b)); rewrite !H by lia; reflexivity.
  - rewrite (fields_loop nfield (fun f r => addvdphidx (lo0 b) (hi0 b) (lo1 b) (hi1 b) (h1 b) (data1 f) vel r)).
    rewrite (fields_loop nfield (fun f r => addvdphidx (lo0 b) (hi0 b) (lo1 b) (hi1 b) (h1 b) (data2 f) vel r)).
    destruct (inb_spec 0 (nfield - 1) f); [| reflexivity]. rewrite !adv2_value.
    destruct (inb (lo0 b) (hi0 b) i && inb (lo1 b) (hi1 b) j); [| reflexivity]. f_equal.
    destruct Hij as [Hi Hj]. unfold in_first_layer, in_box in H. rewrite !H by lia. reflexivity.
Qed.
Lemma fourth_determined : forall b n d0 d1 (data1 data2 : arr3) physb flux, nonempty_box b -> (forall k, (1 <= k <= 4)%Z -> physb k = 1%Z) ->
  (forall i j m, (1 <= m <= n)%Z -> in_first_layer b i j -> data1 i j m = data2 i j m) ->
  let go data := add_flux_4th (lo0 b) (hi0 b) (lo1 b) (hi1 b) n (h1 b) (h2 b) data d0 d1 physb flux in
  forall i j p, fst (go data1) i j p = fst (go data2) i j p /\ snd (go data1) i j p = snd (go data2) i j p.
Proof.
  intros b n d0 d1 data1 data2 physb flux [N0 N1] P H go i j p. unfold go. rewrite !add_flux_4th_x, !add_flux_4th_y by auto.
  rewrite !P by lia. unfold in_first_layer, in_box in H. split; f_equal; unfold gain.
  - destruct (inb 1 n p); [| reflexivity]. apply sumZ_ext. intros m Hm.
    destruct (inb_spec (lo0 b) (hi0 b + 1) i); cbn [andb]; [| reflexivity]. destruct (inb_spec (lo1 b) (hi1 b) j); [| reflexivity].
    unfold Stencils_Proofs.mixed, on_side. change (1 =? 1)%Z with true. cbn [andb].
    destruct (Z.eqb_spec i (lo0 b)); cbn [orb]; [rewrite !H by lia; reflexivity |].
    destruct (Z.eqb_spec i (hi0 b + 1)); rewrite !H by lia; reflexivity.
  - destruct (inb 1 n p); [| reflexivity]. apply sumZ_ext. intros m Hm.
    destruct (inb_spec (lo0 b) (hi0 b) i); cbn [andb]; [| reflexivity]. destruct (inb_spec (lo1 b) (hi1 b + 1) j); [| reflexivity].
    unfold Stencils_Proofs.mixed, on_side. change (1 =? 1)%Z with true. cbn [andb].
    destruct (Z.eqb_spec j (lo1 b)); cbn [orb]; [rewrite !H by lia; reflexivity |].
    destruct (Z.eqb_spec j (hi1 b + 1)); rewrite !H by lia; reflexivity.
Qed.

(** ** The second ghost layer *)
Definition spiked (b : pbox) (c : arr2) (s : R) : arr3 := fun i j _ =>
  if inb (lo0 b) (hi0 b) i && inb (lo1 b) (hi1 b) j then c i j else if ((i =? lo0 b - 2) && (j =? lo1 b))%Z then s else 0.
Lemma all_whole : forall b, nonempty_box b -> whole_boundary b (all_sides b) (all_corners b).
Proof.
  intros b [N0 N1]. unfold whole_boundary. split; [| split; [| split]].
  - intros s Hs. unfold all_sides in Hs. cbn [In] in Hs. destruct Hs as [<- | [<- | [<- | [<- | []]]]];
      unfold is_loc, outer; cbn [loc bl0 bu0 bl1 bu1]; split; auto 6; split; reflexivity.
  - intros s Hs. unfold all_corners in Hs. cbn [In] in Hs. destruct Hs as [<- | [<- | [<- | [<- | []]]]];
      unfold is_loc, corner_x, corner_y, outer; cbn [loc bl0 bu0 bl1 bu1]; (split; [auto 6 |]); repeat split; reflexivity.
  - intros l t L A. unfold covers, all_sides.
    destruct L as [-> | [-> | [-> | ->]]]; unfold along_patch in A;
      [exists (mk_bbox 0 (lo0 b - 1) (lo0 b - 1) (lo1 b) (hi1 b)) | exists (mk_bbox 1 (hi0 b + 1) (hi0 b + 1) (lo1 b) (hi1 b))
      | exists (mk_bbox 2 (lo0 b) (hi0 b) (lo1 b - 1) (lo1 b - 1)) | exists (mk_bbox 3 (lo0 b) (hi0 b) (hi1 b + 1) (hi1 b + 1))];
      (split; [cbn [In]; auto 8 | split; [reflexivity | exact A]]).
  - intros k L. unfold has_corner, all_corners.
    destruct L as [-> | [-> | [-> | ->]]];
      [exists (mk_bbox 0 (lo0 b - 1) (lo0 b - 1) (lo1 b - 1) (lo1 b - 1)) | exists (mk_bbox 1 (hi0 b + 1) (hi0 b + 1) (lo1 b - 1) (lo1 b - 1))
      | exists (mk_bbox 2 (lo0 b - 1) (lo0 b - 1) (hi1 b + 1) (hi1 b + 1)) | exists (mk_bbox 3 (hi0 b + 1) (hi0 b + 1) (hi1 b + 1) (hi1 b + 1))];
      (split; [cbn [In]; auto 8 | reflexivity]).
Qed.
Lemma all_boxes_in : forall b s i j, nonempty_box b -> In s (all_sides b) \/ In s (all_corners b) -> in_bbox s i j -> in_first_layer b i j.
Proof.
  intros b s i j [N0 N1] Hs Hb. unfold all_sides, all_corners in Hs. cbn [In] in Hs. unfold in_bbox in Hb. unfold in_first_layer, in_box.
  destruct Hs as [[<- | [<- | [<- | [<- | []]]]] | [<- | [<- | [<- | [<- | []]]]]]; cbn [bl0 bu0 bl1 bu1] in Hb; lia.
Qed.
Lemma refill_some : forall b n co hom depth u, nonempty_box b ->
  exists v, refill b n co hom depth (all_sides b) (all_corners b) u v.
Proof.
  intros b n co hom depth u N. destruct (all_whole b N) as (S & K & _).
  destruct (fill_val b n n n n co hom depth (all_sides b) (all_corners b) u N S K) as (v & E & _). exists v. exact E.
Qed.
Lemma beyond : forall b n co hom depth u v, nonempty_box b -> refill b n co hom depth (all_sides b) (all_corners b) u v ->
  forall i j d, ~ in_first_layer b i j -> v i j d = u i j d.
Proof.
  intros b n co hom depth u v N E i j d H. destruct (all_whole b N) as (S & K & _).
  apply (fill_inside b n n n n co hom depth _ _ u v N S K E). right. right. split; intros s Hs Hb; apply H; apply (all_boxes_in b s i j N); auto.
Qed.
Lemma spike_val : forall b n co hom c s v0 v, nonempty_box b -> (1 <= n)%Z ->
  refill b n co hom 1 (all_sides b) (all_corners b) (spiked b c 0) v0 -> refill b n co hom 1 (all_sides b) (all_corners b) (spiked b c s) v ->
  forall i j, plane v 0 i j = plane v0 0 i j + (if ((i =? lo0 b - 2) && (j =? lo1 b))%Z then s else 0).
Proof.
  intros b n co hom c s v0 v N Hn E0 E i j. unfold plane.
  assert (D : in_first_layer b i j \/ ~ in_first_layer b i j) by (unfold in_first_layer, in_box; lia). destruct D as [D | D].
  - rewrite (fill_agree b n co hom 1 _ _ _ _ v v0 0 N (all_whole b N) Hn E E0); [| | lia | exact D].
    + destruct (Z.eqb_spec i (lo0 b - 2)); cbn [andb]; [| lra]. unfold in_first_layer, in_box in D. lia.
    + intros x y d [Hx Hy] _. unfold spiked. destruct (inb_spec (lo0 b) (hi0 b) x); [| lia]. destruct (inb_spec (lo1 b) (hi1 b) y); [reflexivity | lia].
  - rewrite (beyond _ _ _ _ _ _ _ N E), (beyond _ _ _ _ _ _ _ N E0) by auto. unfold spiked.
    destruct N as [N0 N1]. destruct (Z.eqb_spec i (lo0 b - 2)); cbn [andb]; [| destruct (inb (lo0 b) (hi0 b) i && inb (lo1 b) (hi1 b) j); lra].
    destruct (inb_spec (lo0 b) (hi0 b) i); [lia |]. cbn [andb]. destruct (j =? lo1 b)%Z; lra.
Qed.
Lemma spike_rate : forall b (W : R -> Z -> Z -> R) kappa M0 M1 (f g : arr2) s,
  (forall i j, f i j = g i j + (if ((i =? lo0 b - 2) && (j =? lo1 b))%Z then s else 0)) -> h1 b <> 0 -> h2 b <> 0 ->
  let mu (c : arr2) i j := W (c i j) i j - kappa * laplace (h1 b) (h2 b) c i j in
  let rate c := diverg (h1 b) (h2 b) (mdiff0 b M0 (mu c)) (mdiff1 b M1 (mu c)) (lo0 b) (lo1 b) in
  rate f = rate g - M0 (lo0 b) (lo1 b) * kappa / h1 b ^ 4 * s.
Proof.
  intros b W kappa M0 M1 f g s H H1 H2 mu rate.
  assert (F : forall i j, (i <> lo0 b - 2)%Z -> f i j = g i j).
  { intros i j Hi. rewrite H. destruct (Z.eqb_spec i (lo0 b - 2)); [contradiction |]. cbn [andb]. lra. }
  assert (G : f (lo0 b - 2)%Z (lo1 b) = g (lo0 b - 2)%Z (lo1 b) + s) by (rewrite H, !Z.eqb_refl; cbn [andb]; lra).
  assert (X : forall i j, (lo0 b <= i)%Z -> mu f i j = mu g i j) by (intros i j Hi; unfold mu, laplace; rewrite !F by lia; reflexivity).
  assert (Y : mu f (lo0 b - 1)%Z (lo1 b) = mu g (lo0 b - 1)%Z (lo1 b) - kappa * (s / h1 b ^ 2)).
  { unfold mu, laplace. rewrite !(F (lo0 b - 1 + 1)%Z), !(F (lo0 b - 1)%Z) by lia. replace (lo0 b - 1 - 1)%Z with (lo0 b - 2)%Z by lia. rewrite G. field. auto. }
  unfold rate, diverg, mdiff0, mdiff1. rewrite !(X (lo0 b)), !(X (lo0 b + 1)%Z), Y by lia. replace (lo0 b + 1 - 1)%Z with (lo0 b) by lia.
  rewrite !(X (lo0 b)) by lia. field. auto.
Qed.
Lemma ch_stale : forall b n co hom m ca cb kappa ws c rhs r, nonempty_box b -> (1 <= n)%Z -> h1 b <> 0 -> h2 b <> 0 -> m <> 0 -> kappa <> 0 ->
  exists u v, (forall i j, in_cells b i j -> u i j 0%Z = c i j) /\
    refill b n co hom 1 (all_sides b) (all_corners b) u v /\
    cahn_hilliard_rhs b m ca cb kappa ws (plane v 0) rhs (lo0 b) (lo1 b) = r.
Proof.
  intros b n co hom m ca cb kappa ws c rhs r N Hn H1 H2 Hm Hk.
  destruct (refill_some b n co hom 1 (spiked b c 0) N) as (v0 & E0).
  set (A := cahn_hilliard_rhs b m ca cb kappa ws (plane v0 0) rhs (lo0 b) (lo1 b)).
  set (s := (A - r) * h1 b ^ 4 / (m * kappa)).
  destruct (refill_some b n co hom 1 (spiked b c s) N) as (v & E). exists (spiked b c s), v.
  assert (Hc : in_cells b (lo0 b) (lo1 b)) by (destruct N; split; lia).
  split; [| split; [exact E |]].
  - intros i j [Hi Hj]. unfold spiked. destruct (inb_spec (lo0 b) (hi0 b) i); [| lia]. destruct (inb_spec (lo1 b) (hi1 b) j); [reflexivity | lia].
  - pose proof (spike_rate b (fun x _ _ => 2 * ws * (x - ca) * (cb - x) * (cb + ca - 2 * x)) kappa (fun _ _ => 1) (fun _ _ => 1) _ _ s
      (spike_val b n co hom c s v0 v N Hn E0 E) H1 H2) as Q. cbv zeta in Q.
    assert (EA : A = m * diverg (h1 b) (h2 b) (mdiff0 b (fun _ _ => 1) (ch_mu b ca cb kappa ws (plane v0 0))) (mdiff1 b (fun _ _ => 1) (ch_mu b ca cb kappa ws (plane v0 0))) (lo0 b) (lo1 b))
      by (unfold A; apply ch_rhs_val; auto).
    rewrite ch_rhs_val by auto. unfold ch_mu in EA |- *. rewrite Q, Rmult_minus_distr_l, <- EA. unfold s. field. repeat split; auto.
Qed.
Lemma wang_stale : forall p n co hom c phi w rhs r, let b := sb p in nonempty_box b -> (1 <= n)%Z -> (1 <= sn p)%Z -> h1 b <> 0 -> h2 b <> 0 ->
  scm p <> 0 -> skappa p <> 0 -> sd0 p (lo0 b) (lo1 b) <> 0 ->
  exists u v, (forall i j, in_cells b i j -> u i j 0%Z = c i j) /\
    refill b n co hom 1 (all_sides b) (all_corners b) u v /\
    wang_conc_rhs p (plane v 0) phi w rhs (lo0 b) (lo1 b) = r.
Proof.
  intros p n co hom c phi w rhs r b N Hn Hs H1 H2 Hm Hk Hd. 
  destruct (refill_some b n co hom 1 (spiked b c 0) N) as (v0 & E0).
  set (A := wang_conc_rhs p (plane v0 0) phi w rhs (lo0 b) (lo1 b)).
  set (s := (A - r) * h1 b ^ 4 / (scm p * (scm p * sd0 p (lo0 b) (lo1 b)) * skappa p)).
  destruct (refill_some b n co hom 1 (spiked b c s) N) as (v & E). exists (spiked b c s), v.
  assert (Hc : in_cells b (lo0 b) (lo1 b)) by (destruct N; split; lia).
  split; [| split; [exact E |]].
  - intros i j [Hi Hj]. unfold spiked. destruct (inb_spec (lo0 b) (hi0 b) i); [| lia]. destruct (inb_spec (lo1 b) (hi1 b) j); [reflexivity | lia].
  - pose proof (spike_rate b (fun x i j => 2 * sA p * x * (1 - x) * (1 - 2 * x) + 2 * sB p * (x - 3 * sq_sum (sn p) (phi i j) + 2 * cu_sum (sn p) (phi i j)))
      (skappa p) (fun i j => scm p * sd0 p i j) (fun i j => scm p * sd1 p i j) _ _ s (spike_val b n co hom c s v0 v N Hn E0 E) H1 H2) as Q. cbv zeta in Q.
    assert (EA : A = scm p * diverg (h1 b) (h2 b) (mdiff0 b (fun i j => scm p * sd0 p i j) (wang_mu p (plane v0 0) phi)) (mdiff1 b (fun i j => scm p * sd1 p i j) (wang_mu p (plane v0 0) phi)) (lo0 b) (lo1 b))
      by (unfold A; apply wang_conc_val; auto).
    rewrite wang_conc_val by auto. unfold wang_mu in EA |- *. fold b in EA |- *. rewrite Q, Rmult_minus_distr_l, <- EA. unfold s. field. repeat split; auto.
Qed.

(** ** Rates after the fill *)
Lemma phase_rate_determined : forall p n co hom depth sides nodes u1 u2 v1 v2 d fold rold r1 r2, let b := pb p in
  nonempty_box b -> whole_boundary b sides nodes -> (1 <= n)%Z -> (0 <= d < depth)%Z -> same_patch b depth u1 u2 ->
  refill b n co hom depth sides nodes u1 v1 -> refill b n co hom depth sides nodes u2 v2 ->
  evaluatePhaseRHS p (plane v1 d) fold rold = Some r1 -> evaluatePhaseRHS p (plane v2 d) fold rold = Some r2 ->
  forall i j, in_cells b i j -> r1 i j = r2 i j.
Proof.
  intros p n co hom depth sides nodes u1 u2 v1 v2 d fold rold r1 r2 b N WB Hn Hd Sm E1 E2 R1 R2.
  apply (phase_determined p (plane v1 d) (plane v2 d) fold rold r1 r2); auto. intros i j Hij.
  apply (fill_agree b n co hom depth sides nodes u1 u2 v1 v2 d); auto.
Qed.
Lemma temp_rate_determined : forall b n co hom depth sides nodes u1 u2 v1 v2 d D L cp pr old,
  nonempty_box b -> whole_boundary b sides nodes -> (1 <= n)%Z -> (0 <= d < depth)%Z -> same_patch b depth u1 u2 ->
  refill b n co hom depth sides nodes u1 v1 -> refill b n co hom depth sides nodes u2 v2 ->
  forall i j, in_cells b i j -> computerhstemp b D L (plane v1 d) cp pr old i j = computerhstemp b D L (plane v2 d) cp pr old i j.
Proof.
  intros b n co hom depth sides nodes u1 u2 v1 v2 d D L cp pr old N WB Hn Hd Sm E1 E2.
  apply temp_determined. intros i j Hij. apply (fill_agree b n co hom depth sides nodes u1 u2 v1 v2 d); auto.
Qed.
Lemma advection_determined : forall b n co hom depth sides nodes u1 u2 v1 v2 up vel rhs,
  nonempty_box b -> whole_boundary b sides nodes -> (1 <= n)%Z -> same_patch b depth u1 u2 ->
  refill b n co hom depth sides nodes u1 v1 -> refill b n co hom depth sides nodes u2 v2 ->
  forall f i j, in_cells b i j ->
  advect_fields up (lo0 b) (hi0 b) (lo1 b) (hi1 b) (h1 b) vel true depth (plane v1) rhs f i j =
  advect_fields up (lo0 b) (hi0 b) (lo1 b) (hi1 b) (h1 b) vel true depth (plane v2) rhs f i j.
Proof.
  intros b n co hom depth sides nodes u1 u2 v1 v2 up vel rhs N WB Hn Sm E1 E2.
  apply advect_determined; auto. intros f i j Hf Hij. apply (fill_agree b n co hom depth sides nodes u1 u2 v1 v2 f); auto.
Qed.
Lemma fourth_order_determined : forall b n co hom depth sides nodes u1 u2 v1 v2 d0 d1 physb flux,
  nonempty_box b -> whole_boundary b sides nodes -> (1 <= n)%Z -> same_patch b depth u1 u2 -> (forall k, (1 <= k <= 4)%Z -> physb k = 1%Z) ->
  refill b n co hom depth sides nodes u1 v1 -> refill b n co hom depth sides nodes u2 v2 ->
  let go (v : arr3) := add_flux_4th (lo0 b) (hi0 b) (lo1 b) (hi1 b) depth (h1 b) (h2 b) (fun i j m => v i j (m - 1)%Z) d0 d1 physb flux in
  forall i j p, fst (go v1) i j p = fst (go v2) i j p /\ snd (go v1) i j p = snd (go v2) i j p.
Proof.
  intros b n co hom depth sides nodes u1 u2 v1 v2 d0 d1 physb flux N WB Hn Sm P E1 E2.
  apply fourth_determined; auto. intros i j m Hm Hij. apply (fill_agree b n co hom depth sides nodes u1 u2 v1 v2 (m - 1)); auto. lia.
Qed.
