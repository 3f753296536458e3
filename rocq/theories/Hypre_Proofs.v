From Coq Require Import Reals ZArith List Bool Lia Lra Psatz FunctionalExtensionality.
From Verif Require Import Grid_Model Grid_Proofs Elliptic_Model Elliptic_Spec Elliptic_Proofs Hypre_Model Hypre_Spec.
Import ListNotations.
Set Bullet Behavior "Strict Subproofs".
Open Scope R_scope.

(** * Packing *)
Section Pack.
  Variables ndim actual nx ny nz len : Z.
  Variables fx fy fz fd : Z -> R.
  Hypothesis Hnx : (1 <= nx)%Z.
  Hypothesis Hny : (1 <= ny)%Z.
  Hypothesis Hnz : (1 <= nz)%Z.
  Hypothesis Ha : (0 <= actual)%Z.
  Variables hy hz : bool.
  Hypothesis Ehy : (1 <? actual)%Z = hy.
  Hypothesis Ehz : (2 <? ndim)%Z = hz.
  Definition w : Z := (2 + (if hy then 1 else 0) + (if hz then 1 else 0))%Z.
  Definition ypos (c : Z) : Z := (c + if hz then nx * (c / (nx * ny)) else 0)%Z.

  Definition content (s : pstate) (c : Z) : Prop :=
    buf s (w * c)%Z = fx (c + c / nx)%Z /\ (hy = true -> buf s (w * c + 1)%Z = fy (ypos c)) /\
    (hz = true -> buf s (w * c + 1 + (if hy then 1 else 0))%Z = fz c) /\ buf s (w * c + w - 1)%Z = fd c.
  Definition Inv (c rx ry : Z) (s : pstate) : Prop :=
    pos s = (w * c)%Z /\ cnt s = c /\ px s = (c + rx)%Z /\ (hy = true -> py s = (c + ry)%Z) /\ (hz = true -> pz s = c) /\
    (forall c', (0 <= c' < c)%Z -> content s c') /\ (fits s = true <-> (w * c <= len)%Z).

  Lemma cell_inv : forall c ry s, (0 <= c)%Z -> Inv c (c / nx) ry s -> ypos c = (c + ry)%Z ->
    Inv (c + 1) (c / nx) ry (pack_cell ndim actual len fx fy fz fd s).
  Proof.
    intros c ry s Hc (Ep & Ec & Ex & Ey & Ez & Hb & Hf) Yc. unfold pack_cell. rewrite Ehy, Ehz.
    destruct s as [bf ps cn x y z ft]. cbn [pos cnt px py pz fits buf] in *. subst ps cn x.
    unfold Inv, content, ypos in *. cbn [pos cnt px py pz fits buf] in *.
    assert (A : forall c', (0 <= c' < c + 1)%Z -> c' = c \/ (0 <= c' < c)%Z) by (intros; lia).
    unfold w in *.
    destruct hy; destruct hz; cbn [pos cnt px py pz fits buf put];
      try specialize (Ey eq_refl); try specialize (Ez eq_refl); try subst y; try subst z;
      (split; [lia |]); (split; [lia |]); (split; [lia |]); (split; [intro Q; first [discriminate Q | lia] |]); (split; [intro Q; first [discriminate Q | lia] |]);
      (split; [| rewrite ?andb_true_iff, ?Z.ltb_lt, Hf; lia]);
      (intros c' Hc'; destruct (A c' Hc') as [-> | Hlt];
      [ repeat split; intros; try discriminate; cbn [buf put];
        repeat match goal with |- context [(?a =? ?b)%Z] => destruct (Z.eqb_spec a b); try lia end; try (f_equal; lia)
      | destruct (Hb c' Hlt) as (B0 & B1 & B2 & B3);
        repeat split; intros; try discriminate; cbn [buf put];
        repeat match goal with |- context [(?a =? ?b)%Z] => destruct (Z.eqb_spec a b); try lia end; auto ]).
  Qed.
  Lemma row_inv : forall r ry s, (0 <= r)%Z -> Inv (r * nx) r ry s -> (forall i, (0 <= i < nx)%Z -> ypos (r * nx + i) = (r * nx + i + ry)%Z) ->
    Inv ((r + 1) * nx) r ry (do_loop 0%Z (nx - 1)%Z (fun _ s => pack_cell ndim actual len fx fy fz fd s) s).
  Proof.
    intros r ry s Hr H0 Hy.
    pose proof (do_loop_ind pstate (fun i s => Inv (r * nx + i + 1) r ry s) 0 (nx - 1) (fun _ s => pack_cell ndim actual len fx fy fz fd s) s) as G.
    cbv beta in G. replace ((r + 1) * nx)%Z with (r * nx + Z.max (0 - 1) (nx - 1) + 1)%Z by lia. apply G.
    - replace (r * nx + (0 - 1) + 1)%Z with (r * nx)%Z by lia. exact H0.
    - intros i s' Hi HI. replace (r * nx + (i - 1) + 1)%Z with (r * nx + i)%Z in HI by lia.
      assert (D : ((r * nx + i) / nx = r)%Z) by (rewrite Z.div_add_l by lia; rewrite Z.div_small by lia; lia).
      rewrite <- D in HI at 2. replace (r * nx + i + 1)%Z with ((r * nx + i) + 1)%Z by lia. rewrite <- D at 2. apply cell_inv; [nia | exact HI |].
      rewrite Hy by lia. lia.
  Qed.
  Lemma plane_inv : forall k s, (0 <= k)%Z -> Inv (k * ny * nx) (k * ny) (if hz then k * nx else 0) s ->
    (hz = false -> k = 0%Z) ->
    Inv ((k + 1) * ny * nx) ((k + 1) * ny) (if hz then k * nx else 0)
      (do_loop 0%Z (ny - 1)%Z (fun _ s =>
      let s := do_loop 0%Z (nx - 1)%Z (fun _ s => pack_cell ndim actual len fx fy fz fd s) s in
      mk_pstate (buf s) (pos s) (cnt s) (px s + 1) (py s) (pz s) (fits s)) s).
  Proof.
    intros k s Hk H0 Hkz.
    pose proof (do_loop_ind pstate (fun j s => Inv ((k * ny + j + 1) * nx) (k * ny + j + 1) (if hz then k * nx else 0) s) 0 (ny - 1) (fun _ s =>
      let s := do_loop 0%Z (nx - 1)%Z (fun _ s => pack_cell ndim actual len fx fy fz fd s) s in
      mk_pstate (buf s) (pos s) (cnt s) (px s + 1) (py s) (pz s) (fits s)) s) as G.
    cbv beta in G. replace (((k + 1) * ny) * nx)%Z with ((k * ny + Z.max (0 - 1) (ny - 1) + 1) * nx)%Z by (rewrite Z.max_r by lia; ring).
    replace ((k + 1) * ny)%Z with (k * ny + Z.max (0 - 1) (ny - 1) + 1)%Z by (rewrite Z.max_r by lia; ring). apply G.
    - replace (k * ny + (0 - 1) + 1)%Z with (k * ny)%Z by lia. exact H0.
    - intros j s' Hj HI. replace (k * ny + (j - 1) + 1)%Z with (k * ny + j)%Z in HI by lia.
      pose proof (row_inv (k * ny + j) _ s' ltac:(nia) HI) as (Ep & Ec & Ex & Ey & Ez & Hb & Hf).
      { intros i Hi. unfold ypos. destruct hz eqn:E; [| lia]. f_equal. rewrite Z.mul_comm. f_equal.
        replace ((k * ny + j) * nx + i)%Z with (k * (nx * ny) + (j * nx + i))%Z by ring.
        rewrite Z.div_add_l by nia. rewrite Z.div_small by nia. lia. }
      unfold Inv. cbn [buf pos cnt px py pz fits].
      split; [exact Ep |]. split; [exact Ec |]. split; [rewrite Ex; lia |]. split; [exact Ey |]. split; [exact Ez |]. split; [exact Hb | exact Hf].
  Qed.
  Lemma pack_inv : (hz = false -> nz = 1%Z) -> len = ((actual + 1) * (nx * ny * nz))%Z ->
    exists rx ry, Inv (nz * ny * nx) rx ry (pack ndim actual nx ny nz fx fy fz fd).
  Proof.
    intros Hz1 El. unfold pack. rewrite <- El. rewrite Ehz.
    exists (nz * ny)%Z, (if hz then (nz * nx)%Z else 0%Z).
    match goal with |- context [do_loop 0 (nz - 1) ?bb ?ss] => pose proof (do_loop_ind pstate (fun k s => Inv ((k + 1) * ny * nx) ((k + 1) * ny) (if hz then (k + 1) * nx else 0) s) 0 (nz - 1) bb ss) as G end.
    cbv beta in G. rewrite Z.max_r in G by lia. replace (nz - 1 + 1)%Z with nz in G by lia. apply G.
    - unfold Inv. cbn [buf pos cnt px py pz fits].
      assert (0 <= len)%Z by (rewrite El; apply Z.mul_nonneg_nonneg; [lia |]; repeat apply Z.mul_nonneg_nonneg; lia).
      repeat split; intros; try lia; destruct hz; lia.
    - intros k s Hk HI. replace (k - 1 + 1)%Z with k in HI by lia.
      pose proof (plane_inv k s ltac:(lia) HI ltac:(intro E; specialize (Hz1 E); lia)) as (Ep & Ec & Ex & Ey & Ez & Hb & Hf).
      destruct hz eqn:E.
      + unfold Inv. cbn [buf pos cnt px py pz fits]. split; [exact Ep |]. split; [exact Ec |]. split; [exact Ex |].
        split; [intro Q; etransitivity; [exact (f_equal (fun z => z + nx)%Z (Ey Q)) | lia] |]. split; [exact (fun _ => Ez eq_refl) |]. split; [exact Hb | exact Hf].
      + split; [exact Ep |]. split; [exact Ec |]. split; [exact Ex |]. split; [exact Ey |]. split; [intro Q; congruence |]. split; [exact Hb | exact Hf].
  Qed.
End Pack.

(** every entry is where HYPRE expects it, in three dimensions *)
Lemma pack3 : forall nx ny nz fx fy fz fd, (1 <= nx)%Z -> (1 <= ny)%Z -> (1 <= nz)%Z ->
  let s := pack 3 3 nx ny nz fx fy fz fd in
  fits s = true /\
  forall i j k, (0 <= i < nx)%Z -> (0 <= j < ny)%Z -> (0 <= k < nz)%Z ->
    let c := ((k * ny + j) * nx + i)%Z in
    buf s (4 * c)%Z = fx ((k * ny + j) * (nx + 1) + i)%Z /\ buf s (4 * c + 1)%Z = fy ((k * (ny + 1) + j) * nx + i)%Z /\
    buf s (4 * c + 2)%Z = fz ((k * ny + j) * nx + i)%Z /\ buf s (4 * c + 3)%Z = fd ((k * ny + j) * nx + i)%Z.
Proof.
  intros nx ny nz fx fy fz fd Hx Hy Hz s.
  destruct (pack_inv 3 3 nx ny nz (4 * (nx * ny * nz)) fx fy fz fd Hx Hy Hz ltac:(lia) true true eq_refl eq_refl ltac:(discriminate) ltac:(lia))
    as (rx & ry & (_ & _ & _ & _ & _ & Hb & Hf)). fold s in Hb, Hf.
  split; [apply Hf; unfold w; lia |].
  intros i j k Hi Hj Hk c.
  assert (R0 : (0 <= k * ny + j <= nz * ny - 1)%Z) by nia.
  assert (0 <= c < nz * ny * nx)%Z by (unfold c; revert R0; generalize (k * ny + j)%Z (nz * ny)%Z; intros r q R0; nia).
  destruct (Hb c H) as (B0 & B1 & B2 & B3). unfold w in *. specialize (B1 eq_refl). specialize (B2 eq_refl).
  assert (D1 : (c / nx = k * ny + j)%Z) by (unfold c; rewrite Z.div_add_l by lia; rewrite Z.div_small by lia; lia).
  assert (D2 : (c / (nx * ny) = k)%Z).
  { unfold c. replace ((k * ny + j) * nx + i)%Z with (k * (nx * ny) + (j * nx + i))%Z by ring. rewrite Z.div_add_l by nia. rewrite Z.div_small by nia. lia. }
  unfold ypos in B1. rewrite D1 in B0. rewrite D2 in B1.
  replace (4 * c)%Z with ((2 + 1 + 1) * c)%Z by ring. split; [| split; [| split]].
  - rewrite B0. f_equal. unfold c. ring.
  - rewrite B1. f_equal. unfold c. ring.
  - replace ((2 + 1 + 1) * c + 2)%Z with ((2 + 1 + 1) * c + 1 + 1)%Z by lia. exact B2.
  - replace ((2 + 1 + 1) * c + 3)%Z with ((2 + 1 + 1) * c + (2 + 1 + 1) - 1)%Z by lia. exact B3.
Qed.
(** a level one cell thick along an axis makes a three-dimensional run write behind the end of the buffer *)
Lemma pack3_thin : forall ex ey ez fx fy fz fd, (0 <= ex)%Z -> (0 <= ey)%Z -> (0 <= ez)%Z -> (ex = 0 \/ ey = 0 \/ ez = 0)%Z ->
  fits (pack 3 (actual_dim [(0, ex); (0, ey); (0, ez)])%Z (ex + 1) (ey + 1) (ez + 1) fx fy fz fd) = false.
Proof.
  intros ex ey ez fx fy fz fd Hx Hy Hz Ht.
  assert (A : (0 <= actual_dim [(0, ex); (0, ey); (0, ez)] <= 2)%Z).
  { unfold actual_dim. cbn [fold_left fst snd]. destruct (Z.ltb_spec 0 ex), (Z.ltb_spec 0 ey), (Z.ltb_spec 0 ez); lia. }
  set (ad := actual_dim _) in *.
  destruct (pack_inv 3 ad (ex + 1) (ey + 1) (ez + 1) ((ad + 1) * ((ex + 1) * (ey + 1) * (ez + 1))) fx fy fz fd ltac:(lia) ltac:(lia) ltac:(lia) ltac:(lia) (1 <? ad)%Z true eq_refl eq_refl ltac:(discriminate) ltac:(lia))
    as (rx & ry & (_ & _ & _ & _ & _ & _ & Hf)).
  destruct (fits _); [| reflexivity]. exfalso. apply proj1 in Hf. specialize (Hf eq_refl). unfold w in Hf.
  assert (P : (1 <= (ex + 1) * (ey + 1) * (ez + 1))%Z) by nia. replace ((ez + 1) * (ey + 1) * (ex + 1))%Z with ((ex + 1) * (ey + 1) * (ez + 1))%Z in Hf by ring.
  destruct (Z.ltb_spec 1 ad); nia.
Qed.
Lemma stencil_values : forall p actual d i j, (actual = 1 \/ actual = 2)%Z -> inside p i j ->
  stencil_value p actual d 0 i j = offx d i j /\ (actual = 2%Z -> stencil_value p actual d 1 i j = offy d i j) /\ stencil_value p actual d actual i j = diag d i j.
Proof.
  intros p actual d i j Ha (Hi & Hj). unfold stencil_value, box_values.
  set (nx := (ihi p - ilo p + 1)%Z). set (ny := (jhi p - jlo p + 1)%Z).
  destruct (pack_inv 2 actual nx ny 1 ((actual + 1) * (nx * ny * 1)) (flat_x p (offx d)) (flat_d p (offy d)) (fun _ => 0) (flat_d p (diag d))
    ltac:(unfold nx; lia) ltac:(unfold ny; lia) ltac:(lia) ltac:(lia) (1 <? actual)%Z false eq_refl eq_refl ltac:(reflexivity) eq_refl) as (rx & ry & (_ & _ & _ & _ & _ & Hb & _)).
  set (c := ((j - jlo p) * nx + (i - ilo p))%Z).
  assert (Hc : (0 <= c < 1 * ny * nx)%Z) by (unfold c, nx, ny; nia).
  destruct (Hb c Hc) as (B0 & B1 & _ & B3). unfold w, ypos in *.
  assert (D1 : (c / nx = j - jlo p)%Z) by (unfold c; rewrite Z.div_add_l by (unfold nx; lia); rewrite Z.div_small by (unfold nx; lia); lia).
  assert (M1 : (c mod nx = i - ilo p)%Z) by (unfold c; rewrite Z.add_comm, Z_mod_plus_full; apply Z.mod_small; unfold nx; lia).
  assert (X : flat_x p (offx d) (c + c / nx) = offx d i j).
  { unfold flat_x. rewrite D1. replace (ihi p - ilo p + 2)%Z with (nx + 1)%Z by (unfold nx; lia).
    replace (c + (j - jlo p))%Z with ((j - jlo p) * (nx + 1) + (i - ilo p))%Z by (unfold c; ring).
    rewrite Z.div_add_l by (unfold nx; lia). rewrite (Z.div_small (i - ilo p)) by (unfold nx; lia).
    rewrite Z.add_comm with (n := ((j - jlo p) * (nx + 1))%Z), Z_mod_plus_full, Z.mod_small by (unfold nx; lia). f_equal; lia. }
  assert (F : forall a, flat_d p a c = a i j).
  { intro a. unfold flat_d. fold nx. rewrite D1, M1. f_equal; lia. }
  split; [| split].
  - destruct Ha as [-> | ->]; cbn [Z.ltb Z.compare Pos.compare Pos.compare_cont] in *; rewrite <- X, <- B0; f_equal; lia.
  - intros ->. cbn [Z.ltb Z.compare Pos.compare Pos.compare_cont] in *. specialize (B1 eq_refl). rewrite <- (F (offy d)). replace c with (c + 0)%Z at 2 by lia. rewrite <- B1. f_equal; lia.
  - rewrite <- (F (diag d)), <- B3. destruct Ha as [-> | ->]; cbn [Z.ltb Z.compare Pos.compare Pos.compare_cont]; f_equal; lia.
Qed.

(** * Entries of a patch *)
Lemma adjust_x_val : forall h f si ci d,
  let d' := adjust_x h f si ci d in
  (forall a b, offx d' a b = if (a =? si)%Z && inb (bbeg f) (bend f) b then 0 else offx d a b) /\
  (forall a b, offy d' a b = offy d a b) /\
  (forall a b, diag d' a b = if (a =? ci)%Z && inb (bbeg f) (bend f) b then diag d a b + k1 h f b * offx d si b else diag d a b) /\
  (forall a b, ak0 d' a b = if (a =? bloc f)%Z && inb (bbeg f) (bend f) b then - (k0 h f b * offx d si b) else ak0 d a b).
Proof.
  intros h f si ci d d'. unfold d', adjust_x.
  pose (P := fun (n : Z) (s : hdata) =>
    (forall a b, offx s a b = if (a =? si)%Z && inb (bbeg f) n b then 0 else offx d a b) /\
    (forall a b, offy s a b = offy d a b) /\
    (forall a b, diag s a b = if (a =? ci)%Z && inb (bbeg f) n b then diag d a b + k1 h f b * offx d si b else diag d a b) /\
    (forall a b, ak0 s a b = if (a =? bloc f)%Z && inb (bbeg f) n b then - (k0 h f b * offx d si b) else ak0 d a b)).
  match goal with |- context [do_loop _ _ ?bb d] => assert (G : P (Z.max (bbeg f - 1) (bend f)) (do_loop (bbeg f) (bend f) bb d)) end.
  { apply do_loop_ind.
    - unfold P. repeat split; intros a b; destruct (inb_spec (bbeg f) (bbeg f - 1) b); try lia; rewrite andb_false_r; reflexivity.
    - intros t s Ht (A & B & C & D). unfold P. cbn [offx offy diag ak0]. unfold upd2.
      split; [| split; [exact B | split]]; intros a b.
      + rewrite A. destruct (Z.eqb_spec b t) as [-> | Hb]; repeat match goal with |- context [inb ?x ?y ?z] => destruct (inb_spec x y z); try lia end;
          rewrite ?andb_true_r, ?andb_false_r; cbn [andb]; destruct (Z.eqb_spec a si); reflexivity.
      + rewrite !C, !A. destruct (Z.eqb_spec b t) as [-> | Hb]; repeat match goal with |- context [inb ?x ?y ?z] => destruct (inb_spec x y z); try lia end;
          rewrite ?andb_true_r, ?andb_false_r; cbn [andb]; destruct (Z.eqb_spec a ci) as [-> |]; reflexivity.
      + rewrite !D, !A. destruct (Z.eqb_spec b t) as [-> | Hb]; repeat match goal with |- context [inb ?x ?y ?z] => destruct (inb_spec x y z); try lia end;
          rewrite ?andb_true_r, ?andb_false_r; cbn [andb]; destruct (Z.eqb_spec a (bloc f)) as [-> |]; reflexivity. }
  assert (E : forall b, inb (bbeg f) (Z.max (bbeg f - 1) (bend f)) b = inb (bbeg f) (bend f) b).
  { intro b. destruct (inb_spec (bbeg f) (Z.max (bbeg f - 1) (bend f)) b); destruct (inb_spec (bbeg f) (bend f) b); auto; lia. }
  destruct G as (A & B & C & D). repeat split; intros a b; [rewrite A | rewrite B | rewrite C | rewrite D]; rewrite ?E; reflexivity.
Qed.
Lemma adjust_y_val : forall h f sj cj d,
  let d' := adjust_y h f sj cj d in
  (forall a b, offx d' a b = offx d a b) /\
  (forall a b, offy d' a b = if (b =? sj)%Z && inb (bbeg f) (bend f) a then 0 else offy d a b) /\
  (forall a b, diag d' a b = if (b =? cj)%Z && inb (bbeg f) (bend f) a then diag d a b + k1 h f a * offy d a sj else diag d a b) /\
  (forall a b, ak0 d' a b = if (a =? bloc f)%Z && inb (bbeg f) (bend f) b then - (k0 h f b * offy d b sj) else ak0 d a b).
Proof.
  intros h f sj cj d d'. unfold d', adjust_y.
  pose (P := fun (n : Z) (s : hdata) =>
    (forall a b, offx s a b = offx d a b) /\
    (forall a b, offy s a b = if (b =? sj)%Z && inb (bbeg f) n a then 0 else offy d a b) /\
    (forall a b, diag s a b = if (b =? cj)%Z && inb (bbeg f) n a then diag d a b + k1 h f a * offy d a sj else diag d a b) /\
    (forall a b, ak0 s a b = if (a =? bloc f)%Z && inb (bbeg f) n b then - (k0 h f b * offy d b sj) else ak0 d a b)).
  match goal with |- context [do_loop _ _ ?bb d] => assert (G : P (Z.max (bbeg f - 1) (bend f)) (do_loop (bbeg f) (bend f) bb d)) end.
  { apply do_loop_ind.
    - unfold P. repeat split; intros a b;
      repeat match goal with |- context [inb ?x ?y ?z] => destruct (inb_spec x y z); try lia end; rewrite ?andb_false_r; reflexivity.
    - intros t s Ht (A & B & C & D). unfold P. cbn [offx offy diag ak0]. unfold upd2.
      split; [exact A |]. split; [| split]; intros a b.
      + rewrite B. destruct (Z.eqb_spec a t) as [-> | Ha]; repeat match goal with |- context [inb ?x ?y ?z] => destruct (inb_spec x y z); try lia end;
          rewrite ?andb_true_r, ?andb_false_r; cbn [andb]; destruct (Z.eqb_spec b sj); reflexivity.
      + rewrite !C, !B. destruct (Z.eqb_spec a t) as [-> | Ha]; repeat match goal with |- context [inb ?x ?y ?z] => destruct (inb_spec x y z); try lia end;
          rewrite ?andb_true_r, ?andb_false_r; cbn [andb]; destruct (Z.eqb_spec b cj) as [-> |]; reflexivity.
      + rewrite !D, !B. destruct (Z.eqb_spec b t) as [-> | Hb]; repeat match goal with |- context [inb ?x ?y ?z] => destruct (inb_spec x y z); try lia end;
          rewrite ?andb_true_r, ?andb_false_r; cbn [andb]; destruct (Z.eqb_spec a (bloc f)) as [-> |]; reflexivity. }
  assert (E : forall b, inb (bbeg f) (Z.max (bbeg f - 1) (bend f)) b = inb (bbeg f) (bend f) b).
  { intro b. destruct (inb_spec (bbeg f) (Z.max (bbeg f - 1) (bend f)) b); destruct (inb_spec (bbeg f) (bend f) b); auto; lia. }
  destruct G as (A & B & C & D). repeat split; intros a b; [rewrite A | rewrite B | rewrite C | rewrite D]; rewrite ?E; reflexivity.
Qed.

(** one boundary box, in any place *)
Definition hit (f : bface) (l t : Z) : bool := (bloc f =? l)%Z && inb (bbeg f) (bend f) t.
Definition face_at (fs : list bface) (l t : Z) : option bface := find (fun f => hit f l t) fs.
Definition bent (h : R) (fs : list bface) (l t : Z) (x : R) : R := match face_at fs l t with Some f => k1 h f t * x | None => 0 end.
Lemma hit_covers : forall f l t, hit f l t = true <-> covers f l t.
Proof. intros f l t. unfold hit, covers. rewrite andb_true_iff, Z.eqb_eq. destruct (inb_spec (bbeg f) (bend f) t); intuition (try discriminate; try lia). Qed.
Lemma adjust_val : forall p hx hy d f, (ilo p <= ihi p)%Z -> (jlo p <= jhi p)%Z ->
  let d' := adjust p hx hy d f in
  (forall a b, offx d' a b = if ((a =? ilo p)%Z && hit f 0 b) || ((a =? ihi p + 1)%Z && hit f 1 b) then 0 else offx d a b) /\
  (forall a b, offy d' a b = if ((b =? jlo p)%Z && hit f 2 a) || ((b =? jhi p + 1)%Z && hit f 3 a) then 0 else offy d a b) /\
  (forall a b, diag d' a b = diag d a b
     + (if (a =? ilo p)%Z && hit f 0 b then k1 hx f b * offx d (ilo p) b else 0)
     + (if (a =? ihi p)%Z && hit f 1 b then k1 hx f b * offx d (ihi p + 1)%Z b else 0)
     + (if (b =? jlo p)%Z && hit f 2 a then k1 hy f a * offy d a (jlo p) else 0)
     + (if (b =? jhi p)%Z && hit f 3 a then k1 hy f a * offy d a (jhi p + 1)%Z else 0)) /\
  (forall t, ak0 d' 0%Z t = if hit f 0 t then - (k0 hx f t * offx d (ilo p) t) else ak0 d 0%Z t) /\
  (forall t, ak0 d' 1%Z t = if hit f 1 t then - (k0 hx f t * offx d (ihi p + 1)%Z t) else ak0 d 1%Z t) /\
  (forall t, ak0 d' 2%Z t = if hit f 2 t then - (k0 hy f t * offy d t (jlo p)) else ak0 d 2%Z t) /\
  (forall t, ak0 d' 3%Z t = if hit f 3 t then - (k0 hy f t * offy d t (jhi p + 1)%Z) else ak0 d 3%Z t).
Proof.
  intros p hx hy d f Hi Hj d'. unfold d', adjust, hit.
  destruct (Z.eqb_spec (bloc f) 0) as [E | N0]; [| destruct (Z.eqb_spec (bloc f) 1) as [E | N1]; [| destruct (Z.eqb_spec (bloc f) 2) as [E | N2]; [| destruct (Z.eqb_spec (bloc f) 3) as [E | N3]]]].
  - rewrite ?E. match goal with |- context [adjust_x ?h f ?s ?c d] => destruct (adjust_x_val h f s c d) as (A & B & C & D) end.
    cbn [Z.eqb Pos.eqb andb]. rewrite E in D.
    repeat split; intros; rewrite ?A, ?B, ?C, ?D; cbn [Z.eqb Pos.eqb andb]; rewrite ?andb_false_r, ?orb_false_r, ?orb_false_l; try reflexivity;
    match goal with |- (if ?q then _ else _) = _ => destruct q end; ring.
  - rewrite ?E. match goal with |- context [adjust_x ?h f ?s ?c d] => destruct (adjust_x_val h f s c d) as (A & B & C & D) end.
    cbn [Z.eqb Pos.eqb andb]. rewrite E in D.
    repeat split; intros; rewrite ?A, ?B, ?C, ?D; cbn [Z.eqb Pos.eqb andb]; rewrite ?andb_false_r, ?orb_false_r, ?orb_false_l; try reflexivity;
    match goal with |- (if ?q then _ else _) = _ => destruct q end; ring.
  - rewrite ?E. match goal with |- context [adjust_y ?h f ?s ?c d] => destruct (adjust_y_val h f s c d) as (A & B & C & D) end.
    cbn [Z.eqb Pos.eqb andb]. rewrite E in D.
    repeat split; intros; rewrite ?A, ?B, ?C, ?D; cbn [Z.eqb Pos.eqb andb]; rewrite ?andb_false_r, ?orb_false_r, ?orb_false_l; try reflexivity;
    match goal with |- (if ?q then _ else _) = _ => destruct q end; ring.
  - rewrite ?E. match goal with |- context [adjust_y ?h f ?s ?c d] => destruct (adjust_y_val h f s c d) as (A & B & C & D) end.
    cbn [Z.eqb Pos.eqb andb]. rewrite E in D.
    repeat split; intros; rewrite ?A, ?B, ?C, ?D; cbn [Z.eqb Pos.eqb andb]; rewrite ?andb_false_r, ?orb_false_r, ?orb_false_l; try reflexivity;
    match goal with |- (if ?q then _ else _) = _ => destruct q end; ring.
  - cbn [andb]. repeat split; intros; rewrite ?andb_false_r; cbn [orb]; ring.
Qed.
Definition away (f g : bface) : Prop := forall l t, ~ (covers f l t /\ covers g l t).
Lemma face_none : forall f fs l t, Forall (away f) fs -> hit f l t = true -> face_at fs l t = None.
Proof.
  intros f fs l t A H. unfold face_at. induction A as [| g fs Ag _ IH]; [reflexivity |]. cbn [find].
  destruct (hit g l t) eqn:E; [| exact IH]. exfalso. apply (Ag l t). split; apply hit_covers; assumption.
Qed.
Definition is_some {T : Type} (o : option T) : bool := match o with Some _ => true | None => false end.
Lemma faces_val : forall p hx hy fs d, (ilo p <= ihi p)%Z -> (jlo p <= jhi p)%Z -> ForallOrdPairs away fs ->
  let d' := fold_left (adjust p hx hy) fs d in
  (forall a b, offx d' a b = if ((a =? ilo p)%Z && is_some (face_at fs 0 b)) || ((a =? ihi p + 1)%Z && is_some (face_at fs 1 b)) then 0 else offx d a b) /\
  (forall a b, offy d' a b = if ((b =? jlo p)%Z && is_some (face_at fs 2 a)) || ((b =? jhi p + 1)%Z && is_some (face_at fs 3 a)) then 0 else offy d a b) /\
  (forall a b, diag d' a b = diag d a b
     + (if (a =? ilo p)%Z then bent hx fs 0 b (offx d (ilo p) b) else 0)
     + (if (a =? ihi p)%Z then bent hx fs 1 b (offx d (ihi p + 1)%Z b) else 0)
     + (if (b =? jlo p)%Z then bent hy fs 2 a (offy d a (jlo p)) else 0)
     + (if (b =? jhi p)%Z then bent hy fs 3 a (offy d a (jhi p + 1)%Z) else 0)) /\
  (forall t f, face_at fs 0 t = Some f -> ak0 d' 0%Z t = - (k0 hx f t * offx d (ilo p) t)) /\
  (forall t f, face_at fs 1 t = Some f -> ak0 d' 1%Z t = - (k0 hx f t * offx d (ihi p + 1)%Z t)) /\
  (forall t f, face_at fs 2 t = Some f -> ak0 d' 2%Z t = - (k0 hy f t * offy d t (jlo p))) /\
  (forall t f, face_at fs 3 t = Some f -> ak0 d' 3%Z t = - (k0 hy f t * offy d t (jhi p + 1)%Z)) /\
  (forall l t, (0 <= l <= 3)%Z -> face_at fs l t = None -> ak0 d' l t = ak0 d l t).
Proof.
  intros p hx hy fs d Hi Hj F. revert d. induction F as [| f fs Af _ IH]; intros d d'.
  - unfold d'. cbn [fold_left]. unfold bent, face_at. cbn [find is_some]. repeat split; intros; rewrite ?andb_false_r; cbn [orb]; try reflexivity; try discriminate.
    repeat match goal with |- context [if ?q then 0 else 0] => destruct q end; ring.
  - unfold d'. cbn [fold_left].
    destruct (adjust_val p hx hy d f Hi Hj) as (A & B & C & D0 & D1 & D2 & D3). set (d1 := adjust p hx hy d f) in *.
    destruct (IH d1) as (A' & B' & C' & D0' & D1' & D2' & D3' & N').
    assert (FA : forall l t, face_at (f :: fs) l t = if hit f l t then Some f else face_at fs l t) by reflexivity.
    assert (FN : forall l t, hit f l t = true -> face_at fs l t = None) by (intros; apply (face_none f); assumption).
    assert (G0 : (ilo p =? ihi p + 1)%Z = false) by (apply Z.eqb_neq; lia). assert (G1 : (ihi p + 1 =? ilo p)%Z = false) by (apply Z.eqb_neq; lia).
    assert (G2 : (jlo p =? jhi p + 1)%Z = false) by (apply Z.eqb_neq; lia). assert (G3 : (jhi p + 1 =? jlo p)%Z = false) by (apply Z.eqb_neq; lia).
    split; [| split; [| split; [| split; [| split; [| split; [| split]]]]]].
    + intros a b. rewrite A', A, !FA. pose proof (FN 0%Z b). pose proof (FN 1%Z b).
      destruct (hit f 0 b), (hit f 1 b), (face_at fs 0 b), (face_at fs 1 b), (a =? ilo p)%Z, (a =? ihi p + 1)%Z; cbn [andb orb is_some]; reflexivity.
    + intros a b. rewrite B', B, !FA.
      destruct (hit f 2 a), (hit f 3 a), (face_at fs 2 a), (face_at fs 3 a), (b =? jlo p)%Z, (b =? jhi p + 1)%Z; cbn [andb orb is_some]; reflexivity.
    + intros a b. rewrite C', C, !A, !B. unfold bent. rewrite !FA, !Z.eqb_refl, G0, G1, G2, G3. cbn [andb orb].
      pose proof (FN 0%Z b) as M0. pose proof (FN 1%Z b) as M1. pose proof (FN 2%Z a) as M2. pose proof (FN 3%Z a) as M3. rewrite ?orb_false_r.
      assert (L : forall (h : R) (c hb : bool) (ff : option bface) (t : Z) (x : R), (hb = true -> ff = None) ->
        (if c then match (if hb then Some f else ff) with Some g => k1 h g t * x | None => 0 end else 0)
        = (if c && hb then k1 h f t * x else 0) + (if c then match ff with Some g => k1 h g t * (if hb then 0 else x) | None => 0 end else 0)).
      { intros h c hb ff t x Q. destruct c; [| cbn [andb]; ring]. destruct hb; [rewrite Q by reflexivity |]; cbn [andb]; ring. }
      rewrite (L hx _ (hit f 0 b)), (L hx _ (hit f 1 b)), (L hy _ (hit f 2 a)), (L hy _ (hit f 3 a)) by assumption. ring.
    + intros t g. rewrite FA. destruct (hit f 0 t) eqn:E.
      * intro Q. injection Q as <-. rewrite N' by (lia || auto). rewrite D0, E. reflexivity.
      * intro Q. rewrite (D0' t g Q), A, Z.eqb_refl, G0, E. reflexivity.
    + intros t g. rewrite FA. destruct (hit f 1 t) eqn:E.
      * intro Q. injection Q as <-. rewrite N' by (lia || auto). rewrite D1, E. reflexivity.
      * intro Q. rewrite (D1' t g Q), A, Z.eqb_refl, G1, E. reflexivity.
    + intros t g. rewrite FA. destruct (hit f 2 t) eqn:E.
      * intro Q. injection Q as <-. rewrite N' by (lia || auto). rewrite D2, E. reflexivity.
      * intro Q. rewrite (D2' t g Q), B, Z.eqb_refl, G2, E. reflexivity.
    + intros t g. rewrite FA. destruct (hit f 3 t) eqn:E.
      * intro Q. injection Q as <-. rewrite N' by (lia || auto). rewrite D3, E. reflexivity.
      * intro Q. rewrite (D3' t g Q), B, Z.eqb_refl, G3, E. reflexivity.
    + intros l t Hl. rewrite FA. destruct (hit f l t) eqn:E; [discriminate |]. intro Q. rewrite (N' l t Hl Q).
      assert (l = 0 \/ l = 1 \/ l = 2 \/ l = 3)%Z as [-> | [-> | [-> | ->]]] by lia; [rewrite D0 | rewrite D1 | rewrite D2 | rewrite D3]; rewrite E; reflexivity.
Qed.

(** * Entries of the matrix *)
Definition gx (ms : mspec) (i j : Z) : R := match ms with ConstantM m => m | VariableM m => sqrt (m (i - 1)%Z j) * sqrt (m i j) end.
Definition gy (ms : mspec) (i j : Z) : R := match ms with ConstantM m => m | VariableM m => sqrt (m i (j - 1)%Z) * sqrt (m i j) end.
Definition ex (hx : R) (dx : arr2) (ms : mspec) (i j : Z) : R := 1 / (hx * hx) * dx i j * gx ms i j.
Definition ey (hy : R) (dy : arr2) (ms : mspec) (i j : Z) : R := 1 / (hy * hy) * dy i j * gy ms i j.
Lemma inb_true' : forall a b i, (a <= i <= b)%Z -> inb a b i = true.
Proof. intros a b i H. destruct (inb_spec a b i); [reflexivity | lia]. Qed.
Lemma base_val : forall p hx hy dx dy c ms i j,
  let d := times_m p ms c (off_diagonals p hx hy dx dy c) in
  ((ilo p <= i <= ihi p + 1)%Z -> (jlo p <= j <= jhi p)%Z -> offx d i j = ex hx dx ms i j) /\
  ((ilo p <= i <= ihi p)%Z -> (jlo p <= j <= jhi p + 1)%Z -> offy d i j = ey hy dy ms i j) /\
  (inside p i j -> diag d i j = c i j - mvalue ms i j *
     (1 / (hx * hx) * dx i j + 1 / (hx * hx) * dx (i + 1)%Z j + 1 / (hy * hy) * dy i j + 1 / (hy * hy) * dy i (j + 1)%Z)) /\
  (forall l t, ak0 d l t = 0).
Proof.
  intros p hx hy dx dy c ms i j d.
  assert (X : forall a b, (ilo p <= a <= ihi p + 1)%Z -> (jlo p <= b <= jhi p)%Z -> offx (off_diagonals p hx hy dx dy c) a b = 1 / (hx * hx) * dx a b).
  { intros a b Ha Hb. unfold off_diagonals. cbn [offx]. rewrite (cells_loop _ _ _ _ (fun i j _ => 1 / (hx * hx) * dx i j)). rewrite !inb_true' by lia. reflexivity. }
  assert (Y : forall a b, (ilo p <= a <= ihi p)%Z -> (jlo p <= b <= jhi p + 1)%Z -> offy (off_diagonals p hx hy dx dy c) a b = 1 / (hy * hy) * dy a b).
  { intros a b Ha Hb. unfold off_diagonals. cbn [offy]. rewrite (cells_loop _ _ _ _ (fun i j _ => 1 / (hy * hy) * dy i j)). rewrite !inb_true' by lia. reflexivity. }
  assert (D : inside p i j -> diag (off_diagonals p hx hy dx dy c) i j = c i j -
     (1 / (hx * hx) * dx i j + 1 / (hx * hx) * dx (i + 1)%Z j + 1 / (hy * hy) * dy i j + 1 / (hy * hy) * dy i (j + 1)%Z)).
  { intros (Hi & Hj). rewrite <- !X, <- !Y by lia. unfold off_diagonals. cbn [offx offy diag].
    set (ox := do_cells (ilo p) (ihi p + 1) _ _ _ _). set (oy := do_cells (ilo p) (ihi p) (jlo p) (jhi p + 1) _ _).
    rewrite (cells_loop _ _ _ _ (fun i j _ => 1 * c i j - 1 * (ox i j + ox (i + 1)%Z j + oy i j + oy i (j + 1)%Z))). rewrite !inb_true' by lia. cbn [andb]. ring. }
  unfold d, times_m, ex, ey, gx, gy. split; [| split; [| split]].
  - intros Hi Hj. destruct ms as [m | m]; cbn [offx].
    + rewrite (cells_loop _ _ _ _ (fun i j v => m * v)), !inb_true' by lia. cbn [andb]. rewrite X by lia. ring.
    + cbn [msqrt]. rewrite (cells_loop _ _ _ _ (fun i j v => v * sqrt (m (i - 1)%Z j) * sqrt (m i j))), !inb_true' by lia. cbn [andb]. rewrite X by lia. ring.
  - intros Hi Hj. destruct ms as [m | m]; cbn [offy].
    + rewrite (cells_loop _ _ _ _ (fun i j v => m * v)), !inb_true' by lia. cbn [andb]. rewrite Y by lia. ring.
    + cbn [msqrt]. rewrite (cells_loop _ _ _ _ (fun i j v => v * sqrt (m i (j - 1)%Z) * sqrt (m i j))), !inb_true' by lia. cbn [andb]. rewrite Y by lia. ring.
  - intros H. specialize (D H). destruct H as (Hi & Hj).
    assert (E : do_cells (ilo p) (ihi p) (jlo p) (jhi p) (fun i j s => upd2 s i j ((s i j - c i j) * mvalue ms i j + c i j)) (diag (off_diagonals p hx hy dx dy c)) i j
      = (diag (off_diagonals p hx hy dx dy c) i j - c i j) * mvalue ms i j + c i j).
    { rewrite (cells_loop _ _ _ _ (fun i j v => (v - c i j) * mvalue ms i j + c i j)), !inb_true' by lia. reflexivity. }
    rewrite D in E. destruct ms; cbn [diag]; (etransitivity; [exact E | ring]).
  - intros l t. destruct ms; reflexivity.
Qed.

(** the value a fold over the patches leaves in a cell *)
Lemma fold_pick : forall (T : Type) (proj : T -> R) (step : T -> hpatch -> T) (value : hpatch -> R) i j,
  (forall A hp, proj (step A hp) = if in_patch (box hp) i j then value hp else proj A) ->
  forall hps A hp, ForallOrdPairs (fun p q => forall i j, inside p i j -> inside q i j -> False) (map box hps) -> In hp hps -> inside (box hp) i j ->
  proj (fold_left step hps A) = value hp.
Proof.
  intros T proj step value i j Hs hps. 
  assert (O : forall hps A, (forall hp, In hp hps -> ~ inside (box hp) i j) -> proj (fold_left step hps A) = proj A).
  { induction hps0 as [| q l IH]; intros A H; [reflexivity |]. cbn [fold_left]. rewrite IH by (intros hp Hh; apply H; right; exact Hh).
    rewrite Hs. destruct (in_patch_spec (box q) i j) as [Q |]; [| reflexivity]. exfalso. apply (H q); [left; reflexivity | exact Q]. }
  induction hps as [| q l IH]; intros A hp F Hin Hi; [contradiction |]. cbn [fold_left map] in *. inversion F as [| x y Fq Fl]; subst.
  destruct Hin as [-> | Hin].
  - rewrite O.
    + rewrite Hs. destruct (in_patch_spec (box hp) i j); [reflexivity | contradiction].
    + intros hp' Hh Hi'. rewrite Forall_forall in Fq. apply (Fq (box hp') (in_map box l hp' Hh) i j); assumption.
  - apply IH; assumption.
Qed.

(** the right-hand side, over the boundary boxes *)
Definition rbent (a0 : arr2) (fs : list bface) (l t : Z) : R := match face_at fs l t with Some f => a0 l t * gcoef f t | None => 0 end.
Lemma line_x : forall lo hi c (q : Z -> R) (s : arr2) a b,
  do_loop lo hi (fun t s => upd2 s c t (s c t + q t)) s a b = if (a =? c)%Z && inb lo hi b then s a b + q b else s a b.
Proof.
  intros lo hi c q s a b.
  assert (G : forall a b, do_loop lo hi (fun t s => upd2 s c t (s c t + q t)) s a b = if (a =? c)%Z && inb lo (Z.max (lo - 1) hi) b then s a b + q b else s a b).
  { pose (P := fun (n : Z) (r : arr2) => forall a b, r a b = if (a =? c)%Z && inb lo n b then s a b + q b else s a b).
    apply (do_loop_ind _ P).
    - unfold P. intros x y. destruct (inb_spec lo (lo - 1) y); try lia. rewrite andb_false_r. reflexivity.
    - intros t r Ht Hr x y. unfold upd2. rewrite !Hr. destruct (Z.eqb_spec y t) as [-> |];
        repeat match goal with |- context [inb ?u ?v ?z] => destruct (inb_spec u v z); try lia end; rewrite ?andb_true_r, ?andb_false_r; destruct (Z.eqb_spec x c) as [-> |]; reflexivity. }
  rewrite G. replace (inb lo (Z.max (lo - 1) hi) b) with (inb lo hi b) by (destruct (inb_spec lo (Z.max (lo - 1) hi) b), (inb_spec lo hi b); auto; lia). reflexivity.
Qed.
Lemma line_y : forall lo hi c (q : Z -> R) (s : arr2) a b,
  do_loop lo hi (fun t s => upd2 s t c (s t c + q t)) s a b = if (b =? c)%Z && inb lo hi a then s a b + q a else s a b.
Proof.
  intros lo hi c q s a b.
  assert (G : forall a b, do_loop lo hi (fun t s => upd2 s t c (s t c + q t)) s a b = if (b =? c)%Z && inb lo (Z.max (lo - 1) hi) a then s a b + q a else s a b).
  { pose (P := fun (n : Z) (r : arr2) => forall a b, r a b = if (b =? c)%Z && inb lo n a then s a b + q a else s a b).
    apply (do_loop_ind _ P).
    - unfold P. intros x y. destruct (inb_spec lo (lo - 1) x); try lia. rewrite andb_false_r. reflexivity.
    - intros t r Ht Hr x y. unfold upd2. rewrite !Hr. destruct (Z.eqb_spec x t) as [-> |];
        repeat match goal with |- context [inb ?u ?v ?z] => destruct (inb_spec u v z); try lia end; rewrite ?andb_true_r, ?andb_false_r; cbn [andb]; destruct (Z.eqb_spec y c) as [-> |]; reflexivity. }
  rewrite G. replace (inb lo (Z.max (lo - 1) hi) a) with (inb lo hi a) by (destruct (inb_spec lo (Z.max (lo - 1) hi) a), (inb_spec lo hi a); auto; lia). reflexivity.
Qed.
Lemma rhs_fold : forall p a0 fs r i j, ForallOrdPairs away fs ->
  fold_left (adjust_rhs p a0) fs r i j = r i j
    + (if (i =? ilo p)%Z then rbent a0 fs 0 j else 0) + (if (i =? ihi p)%Z then rbent a0 fs 1 j else 0)
    + (if (j =? jlo p)%Z then rbent a0 fs 2 i else 0) + (if (j =? jhi p)%Z then rbent a0 fs 3 i else 0).
Proof.
  intros p a0 fs r i j F. revert r. induction F as [| f fs Af _ IH]; intro r.
  - cbn [fold_left]. unfold rbent, face_at. cbn [find]. repeat match goal with |- context [if ?q then 0 else 0] => destruct q end; ring.
  - cbn [fold_left]. rewrite IH. clear IH.
    assert (FA : forall l t, face_at (f :: fs) l t = if hit f l t then Some f else face_at fs l t) by reflexivity.
    assert (L : forall (c : bool) l t, (if c then rbent a0 (f :: fs) l t else 0) = (if c then rbent a0 fs l t else 0) + (if c && hit f l t then a0 l t * gcoef f t else 0)).
    { intros c l t. destruct c; [| cbn [andb]; ring]. unfold rbent. rewrite FA. destruct (hit f l t) eqn:E; [rewrite (face_none f fs l t Af E) |]; cbn [andb]; ring. }
    rewrite !L.
    assert (S : adjust_rhs p a0 r f i j = r i j + (if (i =? ilo p)%Z && hit f 0 j then a0 0%Z j * gcoef f j else 0) + (if (i =? ihi p)%Z && hit f 1 j then a0 1%Z j * gcoef f j else 0)
      + (if (j =? jlo p)%Z && hit f 2 i then a0 2%Z i * gcoef f i else 0) + (if (j =? jhi p)%Z && hit f 3 i then a0 3%Z i * gcoef f i else 0)).
    { unfold adjust_rhs, hit.
      destruct (Z.eqb_spec (bloc f) 0) as [E | N0]; [| destruct (Z.eqb_spec (bloc f) 1) as [E | N1]; [| destruct (Z.eqb_spec (bloc f) 2) as [E | N2]; [| destruct (Z.eqb_spec (bloc f) 3) as [E | N3]]]].
      - rewrite ?E. cbn [Z.eqb Pos.eqb andb]. rewrite (line_x _ _ _ (fun t => a0 0%Z t * gcoef f t)), ?andb_false_r. destruct ((i =? ilo p)%Z && _); ring.
      - rewrite ?E. cbn [Z.eqb Pos.eqb andb]. rewrite (line_x _ _ _ (fun t => a0 1%Z t * gcoef f t)), ?andb_false_r. destruct ((i =? ihi p)%Z && _); ring.
      - rewrite ?E. cbn [Z.eqb Pos.eqb andb]. rewrite (line_y _ _ _ (fun t => a0 2%Z t * gcoef f t)), ?andb_false_r. destruct ((j =? jlo p)%Z && _); ring.
      - rewrite ?E. cbn [Z.eqb Pos.eqb andb]. rewrite (line_y _ _ _ (fun t => a0 3%Z t * gcoef f t)), ?andb_false_r. destruct ((j =? jhi p)%Z && _); ring.
      - cbn [andb]. rewrite ?andb_false_r. ring. }
    rewrite S. ring.
Qed.

(** * Rows of the matrix *)
Lemma image_x_back : forall lv per i j a, cell lv i j -> image_x lv per (i + 1)%Z j = Some a -> image_x lv per (a - 1)%Z j <> None.
Proof.
  intros lv per i j a Hc. apply in_level_iff in Hc. unfold image_x.
  destruct (in_level lv (i + 1) j) eqn:E1; [intro Q; injection Q as <-; replace (i + 1 - 1)%Z with i by lia; rewrite Hc; discriminate |].
  destruct (per =? 0)%Z; cbn [negb andb]; [discriminate |].
  destruct (in_level lv (i + 1 + per) j) eqn:E2.
  - intro Q. injection Q as <-. destruct (in_level lv (i + 1 + per - 1) j); [discriminate |]. destruct (in_level lv (i + 1 + per - 1 + per) j); [discriminate |].
    replace (i + 1 + per - 1 - per)%Z with i by lia. rewrite Hc. discriminate.
  - destruct (in_level lv (i + 1 - per) j) eqn:E3; [| discriminate].
    intro Q. injection Q as <-. destruct (in_level lv (i + 1 - per - 1) j); [discriminate |].
    replace (i + 1 - per - 1 + per)%Z with i by lia. rewrite Hc. discriminate.
Qed.
Lemma image_y_back : forall lv per i j b, cell lv i j -> image_y lv per i (j + 1)%Z = Some b -> image_y lv per i (b - 1)%Z <> None.
Proof.
  intros lv per i j b Hc. apply in_level_iff in Hc. unfold image_y.
  destruct (in_level lv i (j + 1)) eqn:E1; [intro Q; injection Q as <-; replace (j + 1 - 1)%Z with j by lia; rewrite Hc; discriminate |].
  destruct (per =? 0)%Z; cbn [negb andb]; [discriminate |].
  destruct (in_level lv i (j + 1 + per)) eqn:E2.
  - intro Q. injection Q as <-. destruct (in_level lv i (j + 1 + per - 1)); [discriminate |]. destruct (in_level lv i (j + 1 + per - 1 + per)); [discriminate |].
    replace (j + 1 + per - 1 - per)%Z with j by lia. rewrite Hc. discriminate.
  - destruct (in_level lv i (j + 1 - per)) eqn:E3; [| discriminate].
    intro Q. injection Q as <-. destruct (in_level lv i (j + 1 - per - 1)); [discriminate |].
    replace (j + 1 - per - 1 + per)%Z with j by lia. rewrite Hc. discriminate.
Qed.
Lemma image_x_cell : forall lv per i j a, image_x lv per i j = Some a -> cell lv a j.
Proof.
  intros lv per i j a. unfold image_x. destruct (in_level lv i j) eqn:E1; [intro Q; injection Q as <-; apply in_level_iff, E1 |].
  destruct (negb (per =? 0)%Z && in_level lv (i + per) j) eqn:E2; [intro Q; injection Q as <-; apply andb_prop in E2; apply in_level_iff, E2 |].
  destruct (negb (per =? 0)%Z && in_level lv (i - per) j) eqn:E3; [intro Q; injection Q as <-; apply andb_prop in E3; apply in_level_iff, E3 | discriminate].
Qed.
Lemma image_y_cell : forall lv per i j a, image_y lv per i j = Some a -> cell lv i a.
Proof.
  intros lv per i j a. unfold image_y. destruct (in_level lv i j) eqn:E1; [intro Q; injection Q as <-; apply in_level_iff, E1 |].
  destruct (negb (per =? 0)%Z && in_level lv i (j + per)) eqn:E2; [intro Q; injection Q as <-; apply andb_prop in E2; apply in_level_iff, E2 |].
  destruct (negb (per =? 0)%Z && in_level lv i (j - per)) eqn:E3; [intro Q; injection Q as <-; apply andb_prop in E3; apply in_level_iff, E3 | discriminate].
Qed.
Lemma image_x_self : forall lv per i j, cell lv i j -> image_x lv per i j = Some i.
Proof. intros lv per i j H. unfold image_x. apply in_level_iff in H. rewrite H. reflexivity. Qed.
Lemma image_y_self : forall lv per i j, cell lv i j -> image_y lv per i j = Some j.
Proof. intros lv per i j H. unfold image_y. apply in_level_iff in H. rewrite H. reflexivity. Qed.

Section Row.
  Variables (lv : level) (hps : list hpatch) (per0 per1 actual : Z) (hx hy : R) (dx dy c : arr2) (ms : mspec).
  Hypothesis Hok : boundary_ok lv hps per0 per1 hx hy.
  Hypothesis Hdis : disjoint lv.
  Hypothesis Hper : periodic_data lv per0 per1 dx dy (mvalue ms).
  Hypothesis Hm : positive_m lv ms.
  Hypothesis H12 : (actual = 1 \/ actual = 2)%Z.
  Hypothesis Hax : axes_ok lv per1 actual.
  Let A := level_matrix hps actual hx hy dx dy c ms.
  Let ms2 := msqrt ms.

  Lemma has_cell : forall hp i j, In hp hps -> inside (box hp) i j -> cell lv i j.
  Proof. intros hp i j Hh Hi. exists (box hp). split; [| exact Hi]. rewrite (proj1 Hok). apply in_map, Hh. Qed.
  Lemma cell_has : forall i j, cell lv i j -> exists hp, In hp hps /\ inside (box hp) i j.
  Proof. intros i j (p & Hp & Hi). rewrite (proj1 Hok) in Hp. apply in_map_iff in Hp. destruct Hp as (hp & <- & Hh). exists hp. split; assumption. Qed.
  Lemma aways : forall hp, In hp hps -> ForallOrdPairs away (faces hp).
  Proof. intros hp Hh. exact (proj2 (proj1 (proj2 Hok hp Hh))). Qed.

  (** the entries of a cell before HYPRE, at the patch *)
  Lemma patch_entries : forall hp i j, In hp hps -> inside (box hp) i j ->
    let d := patch_matrix hp hx hy dx dy c ms in let p := box hp in let fs := faces hp in
    offx d i j = (if (i =? ilo p)%Z && is_some (face_at fs 0 j) then 0 else ex hx dx ms i j) /\
    offy d i j = (if (j =? jlo p)%Z && is_some (face_at fs 2 i) then 0 else ey hy dy ms i j) /\
    diag d i j = c i j - mvalue ms i j * (1 / (hx * hx) * dx i j + 1 / (hx * hx) * dx (i + 1)%Z j + 1 / (hy * hy) * dy i j + 1 / (hy * hy) * dy i (j + 1)%Z)
      + (if (i =? ilo p)%Z then bent hx fs 0 j (ex hx dx ms i j) else 0) + (if (i =? ihi p)%Z then bent hx fs 1 j (ex hx dx ms (i + 1)%Z j) else 0)
      + (if (j =? jlo p)%Z then bent hy fs 2 i (ey hy dy ms i j) else 0) + (if (j =? jhi p)%Z then bent hy fs 3 i (ey hy dy ms i (j + 1)%Z) else 0) /\
    (forall f, face_at fs 0 j = Some f -> ak0 d 0%Z j = - (k0 hx f j * ex hx dx ms (ilo p) j)) /\
    (forall f, face_at fs 1 j = Some f -> ak0 d 1%Z j = - (k0 hx f j * ex hx dx ms (ihi p + 1)%Z j)) /\
    (forall f, face_at fs 2 i = Some f -> ak0 d 2%Z i = - (k0 hy f i * ey hy dy ms i (jlo p))) /\
    (forall f, face_at fs 3 i = Some f -> ak0 d 3%Z i = - (k0 hy f i * ey hy dy ms i (jhi p + 1)%Z)).
  Proof.
    intros hp i j Hh Hi d p fs. pose proof Hi as Hi'. destruct Hi' as (Ri & Rj). fold p in Ri, Rj.
    pose proof (base_val p hx hy dx dy c ms) as BV.
    destruct (faces_val p hx hy fs (times_m p ms c (off_diagonals p hx hy dx dy c)) ltac:(lia) ltac:(lia) (aways hp Hh)) as (Fx & Fy & Fd & F0 & F1 & F2 & F3 & _).
    fold d in Fx, Fy, Fd, F0, F1, F2, F3. change (fold_left (adjust p hx hy) fs (times_m p ms c (off_diagonals p hx hy dx dy c))) with d in Fx, Fy, Fd, F0, F1, F2, F3.
    set (b := times_m p ms c (off_diagonals p hx hy dx dy c)) in *.
    assert (X : forall i j, (ilo p <= i <= ihi p + 1)%Z -> (jlo p <= j <= jhi p)%Z -> offx b i j = ex hx dx ms i j) by (intros x y; apply (proj1 (BV x y))).
    assert (Y : forall i j, (ilo p <= i <= ihi p)%Z -> (jlo p <= j <= jhi p + 1)%Z -> offy b i j = ey hy dy ms i j) by (intros x y; apply (proj1 (proj2 (BV x y)))).
    split; [| split; [| split; [| split; [| split; [| split]]]]].
    - rewrite Fx, X by lia. replace (i =? ihi p + 1)%Z with false by (symmetry; apply Z.eqb_neq; lia). cbn [andb]. rewrite orb_false_r. reflexivity.
    - rewrite Fy, Y by lia. replace (j =? jhi p + 1)%Z with false by (symmetry; apply Z.eqb_neq; lia). cbn [andb]. rewrite orb_false_r. reflexivity.
    - rewrite Fd, !X, !Y by lia. rewrite (proj1 (proj2 (proj2 (BV i j))) Hi).
      destruct (Z.eqb_spec i (ilo p)) as [<- |], (Z.eqb_spec i (ihi p)) as [<- |], (Z.eqb_spec j (jlo p)) as [<- |], (Z.eqb_spec j (jhi p)) as [<- |]; reflexivity.
    - intros f Hf. rewrite (F0 j f Hf), X by lia. reflexivity.
    - intros f Hf. rewrite (F1 j f Hf), X by lia. reflexivity.
    - intros f Hf. rewrite (F2 i f Hf), Y by lia. reflexivity.
    - intros f Hf. rewrite (F3 i f Hf), Y by lia. reflexivity.
  Qed.
  Lemma boxes_disjoint : ForallOrdPairs (fun p q => forall i j, inside p i j -> inside q i j -> False) (map box hps).
  Proof. rewrite <- (proj1 Hok). exact Hdis. Qed.
  Lemma entries : forall hp i j, In hp hps -> inside (box hp) i j ->
    let d := patch_matrix hp hx hy dx dy c ms in
    mx A i j = offx d i j /\ (actual = 2%Z -> my A i j = offy d i j) /\ md A i j = diag d i j.
  Proof.
    intros hp i j Hh Hi d. destruct (stencil_values (box hp) actual d i j H12 Hi) as (S0 & S1 & S2).
    split; [| split].
    - rewrite <- S0. unfold A, level_matrix. apply (fold_pick hmatrix (fun M => mx M i j) _ (fun hp => stencil_value (box hp) actual (patch_matrix hp hx hy dx dy c ms) 0 i j) i j);
        [intros; reflexivity | apply boxes_disjoint | exact Hh | exact Hi].
    - intro E. rewrite <- (S1 E). unfold A, level_matrix. apply (fold_pick hmatrix (fun M => my M i j) _ (fun hp => stencil_value (box hp) actual (patch_matrix hp hx hy dx dy c ms) 1 i j) i j);
        [intros B q; cbn [my]; rewrite E; cbn [Z.ltb Z.compare Pos.compare Pos.compare_cont]; rewrite andb_true_r; reflexivity | apply boxes_disjoint | exact Hh | exact Hi].
    - rewrite <- S2. unfold A, level_matrix. apply (fold_pick hmatrix (fun M => md M i j) _ (fun hp => stencil_value (box hp) actual (patch_matrix hp hx hy dx dy c ms) actual i j) i j);
        [intros; reflexivity | apply boxes_disjoint | exact Hh | exact Hi].
  Qed.

  Lemma no_face : forall hp l t, (forall f, In f (faces hp) -> ~ covers f l t) -> face_at (faces hp) l t = None.
  Proof.
    intros hp l t H. unfold face_at. destruct (find _ _) as [f |] eqn:E; [| reflexivity]. apply find_some in E. destruct E as (I & Hf).
    exfalso. apply (H f I). apply hit_covers. exact Hf.
  Qed.
  Lemma some_face : forall hp l t, (exists f, In f (faces hp) /\ covers f l t) -> exists f, face_at (faces hp) l t = Some f /\ In f (faces hp) /\ covers f l t.
  Proof.
    intros hp l t (f & I & Hc). unfold face_at. destruct (find (fun f => hit f l t) (faces hp)) as [g |] eqn:E.
    - apply find_some in E. destruct E as (Ig & Hg). exists g. split; [reflexivity |]. split; [exact Ig | apply hit_covers; exact Hg].
    - exfalso. pose proof (find_none _ _ E f I) as N. cbn beta in N. apply hit_covers in Hc. rewrite Hc in N. discriminate.
  Qed.

  (** what a side of a cell contributes to the row, less its part of the right-hand side *)
  Definition side (e : R) (f : option bface) (h : R) (t : Z) (image : option R) (vi : R) (hom : bool) : R :=
    match image with
    | Some vn => e * vn
    | None => match f with Some f => k1 h f t * e * vi + (if hom then 0 else k0 h f t * e * gcoef f t) | None => 0 end
    end.
  Lemma row : forall (v f : arr2) (hom : bool) hp i j, In hp hps -> inside (box hp) i j ->
    hypre_apply lv per0 per1 actual A v i j - (level_rhs hps hx hy dx dy c ms hom f i j - f i j / ms2 i j) =
    (c i j - mvalue ms i j * (1 / (hx * hx) * dx i j + 1 / (hx * hx) * dx (i + 1)%Z j + 1 / (hy * hy) * dy i j + 1 / (hy * hy) * dy i (j + 1)%Z)) * v i j
    + side (ex hx dx ms i j) (face_at (faces hp) 0 j) hx j (option_map (fun a => v a j) (image_x lv per0 (i - 1)%Z j)) (v i j) hom
    + side (ex hx dx ms (i + 1)%Z j) (face_at (faces hp) 1 j) hx j (option_map (fun a => v a j) (image_x lv per0 (i + 1)%Z j)) (v i j) hom
    + side (ey hy dy ms i j) (face_at (faces hp) 2 i) hy i (option_map (fun b => v i b) (image_y lv per1 i (j - 1)%Z)) (v i j) hom
    + side (ey hy dy ms i (j + 1)%Z) (face_at (faces hp) 3 i) hy i (option_map (fun b => v i b) (image_y lv per1 i (j + 1)%Z)) (v i j) hom.
  Proof.
    intros v f hom hp i j Hh Hi. pose proof (has_cell hp i j Hh Hi) as Hc.
    destruct (proj2 Hok hp Hh) as (_ & Bx & By). pose proof Hi as Hi2. destruct Hi2 as (Ri & Rj).
    destruct (Bx j Rj) as (B0 & B1). destruct (By i Ri) as (B2 & B3).
    destruct (patch_entries hp i j Hh Hi) as (Ox & Oy & Od & K0 & K1 & K2 & K3).
    destruct (entries hp i j Hh Hi) as (Ex & Ey & Ed).
    set (fs := faces hp) in *. set (p := box hp) in *. set (d := patch_matrix hp hx hy dx dy c ms) in *.
    (* the right-hand side *)
    assert (RH : level_rhs hps hx hy dx dy c ms hom f i j - f i j / ms2 i j = if hom then 0 else
       (if (i =? ilo p)%Z then rbent (ak0 d) fs 0 j else 0) + (if (i =? ihi p)%Z then rbent (ak0 d) fs 1 j else 0)
       + (if (j =? jlo p)%Z then rbent (ak0 d) fs 2 i else 0) + (if (j =? jhi p)%Z then rbent (ak0 d) fs 3 i else 0)).
    { assert (E : level_rhs hps hx hy dx dy c ms hom f i j = patch_rhs hp hx hy dx dy c ms hom f i j).
      { unfold level_rhs. apply (fold_pick arr2 (fun b => b i j) _ (fun hp => patch_rhs hp hx hy dx dy c ms hom f i j) i j);
          [intros; reflexivity | apply boxes_disjoint | exact Hh | exact Hi]. }
      rewrite E. unfold patch_rhs. fold p fs d.
      set (r := match ms with ConstantM _ => f | VariableM _ => _ end).
      assert (Er : r i j = f i j / ms2 i j).
      { unfold r, ms2. destruct ms as [m | m]; cbn [msqrt]; [field |].
        rewrite (cells_loop _ _ _ _ (fun i j s => s / sqrt (m i j))), !inb_true' by lia. reflexivity. }
      destruct hom; [rewrite Er; ring |]. rewrite rhs_fold by (apply aways; exact Hh). rewrite Er. ring. }
    rewrite RH. clear RH.
    (* the sides *)
    assert (W : match image_x lv per0 (i - 1)%Z j with Some a => mx A i j * v a j | None => 0 end
        + (if (i =? ilo p)%Z then bent hx fs 0 j (ex hx dx ms i j) else 0) * v i j - (if hom then 0 else if (i =? ilo p)%Z then rbent (ak0 d) fs 0 j else 0)
        = side (ex hx dx ms i j) (face_at fs 0 j) hx j (option_map (fun a => v a j) (image_x lv per0 (i - 1)%Z j)) (v i j) hom).
    { rewrite Ex, Ox. unfold bent, rbent, side. destruct (Z.eqb_spec i (ilo p)) as [E | N].
      - rewrite E in *. destruct (image_x lv per0 (ilo p - 1)%Z j); cbn [faced option_map] in *.
        + pose proof (no_face hp 0 j B0) as NF; fold fs in NF; rewrite NF. cbn [is_some andb]. destruct hom; ring.
        + destruct (some_face hp 0 j) as (g & Fg & _); [destruct B0 as (g & I & Cg & _); exists g; split; assumption |]. fold fs in Fg. rewrite (K0 g Fg), Fg. destruct hom; ring.
      - rewrite image_x_self by (apply (has_cell hp); [exact Hh | unfold inside; fold p; lia]). cbn [option_map andb]. destruct hom; ring. }
    assert (S : (if (1 <? actual)%Z then match image_y lv per1 i (j - 1)%Z with Some b => my A i j * v i b | None => 0 end else 0)
        + (if (j =? jlo p)%Z then bent hy fs 2 i (ey hy dy ms i j) else 0) * v i j - (if hom then 0 else if (j =? jlo p)%Z then rbent (ak0 d) fs 2 i else 0)
        = side (ey hy dy ms i j) (face_at fs 2 i) hy i (option_map (fun b => v i b) (image_y lv per1 i (j - 1)%Z)) (v i j) hom).
    { assert (Q : (if (1 <? actual)%Z then match image_y lv per1 i (j - 1)%Z with Some b => my A i j * v i b | None => 0 end else 0)
        = match image_y lv per1 i (j - 1)%Z with Some b => offy d i j * v i b | None => 0 end).
      { destruct Hax as [E | (E & Th)]; rewrite E; cbn [Z.ltb Z.compare Pos.compare Pos.compare_cont]; [rewrite (Ey E); reflexivity | rewrite (proj1 (Th i j Hc)); reflexivity]. }
      rewrite Q, Oy. unfold bent, rbent, side. destruct (Z.eqb_spec j (jlo p)) as [E | N].
      - rewrite E in *. destruct (image_y lv per1 i (jlo p - 1)%Z); cbn [faced option_map] in *.
        + pose proof (no_face hp 2 i B2) as NF; fold fs in NF; rewrite NF. cbn [is_some andb]. destruct hom; ring.
        + destruct (some_face hp 2 i) as (g & Fg & _); [destruct B2 as (g & I & Cg & _); exists g; split; assumption |]. fold fs in Fg. rewrite (K2 g Fg), Fg. destruct hom; ring.
      - rewrite image_y_self by (apply (has_cell hp); [exact Hh | unfold inside; fold p; lia]). cbn [option_map andb]. destruct hom; ring. }
    assert (NX : forall a, image_x lv per0 (i + 1)%Z j = Some a -> mx A a j = ex hx dx ms (i + 1)%Z j).
    { intros a Ha. pose proof (image_x_cell _ _ _ _ _ Ha) as Ca. destruct (cell_has a j Ca) as (hq & Hq & Iq).
      destruct (entries hq a j Hq Iq) as (E1 & _). destruct (patch_entries hq a j Hq Iq) as (E2 & _). rewrite E1, E2.
      assert (Z0 : ((a =? ilo (box hq))%Z && is_some (face_at (faces hq) 0 j)) = false).
      { destruct (Z.eqb_spec a (ilo (box hq))) as [Ea |]; [| reflexivity]. cbn [andb].
        destruct (proj2 Hok hq Hq) as (_ & Bq & _). destruct (Bq j (proj2 Iq)) as (Bq0 & _). rewrite <- Ea in Bq0.
        pose proof (image_x_back lv per0 i j a Hc Ha) as NN. destruct (image_x lv per0 (a - 1)%Z j); [| contradiction]. cbn [faced] in Bq0.
        rewrite (no_face hq 0 j Bq0). reflexivity. }
      rewrite Z0. destruct (Hper i j Hc) as (P1 & _). destruct (P1 a Ha) as (Q1 & Q2 & Q3).
      unfold ex, gx. rewrite Q1. destruct ms as [m | m]; [reflexivity |]. cbn [mvalue] in Q2, Q3. replace (i + 1 - 1)%Z with i by lia. rewrite Q2, Q3. reflexivity. }
    assert (NY : actual = 2%Z -> forall b, image_y lv per1 i (j + 1)%Z = Some b -> my A i b = ey hy dy ms i (j + 1)%Z).
    { intros Ea b Hb. pose proof (image_y_cell _ _ _ _ _ Hb) as Cb. destruct (cell_has i b Cb) as (hq & Hq & Iq).
      destruct (entries hq i b Hq Iq) as (_ & E1 & _). destruct (patch_entries hq i b Hq Iq) as (_ & E2 & _). rewrite (E1 Ea), E2.
      assert (Z0 : ((b =? jlo (box hq))%Z && is_some (face_at (faces hq) 2 i)) = false).
      { destruct (Z.eqb_spec b (jlo (box hq))) as [Eb |]; [| reflexivity]. cbn [andb].
        destruct (proj2 Hok hq Hq) as (_ & _ & Bq). destruct (Bq i (proj1 Iq)) as (Bq0 & _). rewrite <- Eb in Bq0.
        pose proof (image_y_back lv per1 i j b Hc Hb) as NN. destruct (image_y lv per1 i (b - 1)%Z); [| contradiction]. cbn [faced] in Bq0.
        rewrite (no_face hq 2 i Bq0). reflexivity. }
      rewrite Z0. destruct (Hper i j Hc) as (_ & _ & P1 & _). destruct (P1 b Hb) as (Q1 & Q2 & Q3).
      unfold ey, gy. rewrite Q1. destruct ms as [m | m]; [reflexivity |]. cbn [mvalue] in Q2, Q3. replace (j + 1 - 1)%Z with j by lia. rewrite Q2, Q3. reflexivity. }
    assert (E : match image_x lv per0 (i + 1)%Z j with Some a => mx A a j * v a j | None => 0 end
        + (if (i =? ihi p)%Z then bent hx fs 1 j (ex hx dx ms (i + 1)%Z j) else 0) * v i j - (if hom then 0 else if (i =? ihi p)%Z then rbent (ak0 d) fs 1 j else 0)
        = side (ex hx dx ms (i + 1)%Z j) (face_at fs 1 j) hx j (option_map (fun a => v a j) (image_x lv per0 (i + 1)%Z j)) (v i j) hom).
    { unfold bent, rbent, side. destruct (Z.eqb_spec i (ihi p)) as [E | N].
      - rewrite E in *. destruct (image_x lv per0 (ihi p + 1)%Z j) as [a |]; cbn [faced option_map] in *.
        + rewrite (NX a eq_refl). pose proof (no_face hp 1 j B1) as NF; fold fs in NF; rewrite NF. destruct hom; ring.
        + destruct (some_face hp 1 j) as (g & Fg & _); [destruct B1 as (g & I & Cg & _); exists g; split; assumption |]. fold fs in Fg. rewrite (K1 g Fg), Fg. destruct hom; ring.
      - assert (Cn : cell lv (i + 1) j) by (apply (has_cell hp); [exact Hh | unfold inside; fold p; lia]).
        rewrite (image_x_self _ _ _ _ Cn) in *. rewrite (NX _ eq_refl). cbn [option_map]. destruct hom; ring. }
    assert (N : (if (1 <? actual)%Z then match image_y lv per1 i (j + 1)%Z with Some b => my A i b * v i b | None => 0 end else 0)
        + (if (j =? jhi p)%Z then bent hy fs 3 i (ey hy dy ms i (j + 1)%Z) else 0) * v i j - (if hom then 0 else if (j =? jhi p)%Z then rbent (ak0 d) fs 3 i else 0)
        = side (ey hy dy ms i (j + 1)%Z) (face_at fs 3 i) hy i (option_map (fun b => v i b) (image_y lv per1 i (j + 1)%Z)) (v i j) hom).
    { assert (Q : (if (1 <? actual)%Z then match image_y lv per1 i (j + 1)%Z with Some b => my A i b * v i b | None => 0 end else 0)
        = match image_y lv per1 i (j + 1)%Z with Some b => ey hy dy ms i (j + 1)%Z * v i b | None => 0 end).
      { destruct Hax as [Ea | (Ea & Th)].
        - replace (1 <? actual)%Z with true by (rewrite Ea; reflexivity). destruct (image_y lv per1 i (j + 1)%Z) as [b |] eqn:Eb; [rewrite (NY Ea b eq_refl); reflexivity | reflexivity].
        - rewrite Ea. cbn [Z.ltb Z.compare Pos.compare Pos.compare_cont]. rewrite (proj2 (Th i j Hc)). reflexivity. }
      rewrite Q. clear NY Q. unfold bent, rbent, side. destruct (Z.eqb_spec j (jhi p)) as [Ej | Nj].
      - rewrite Ej in *. destruct (image_y lv per1 i (jhi p + 1)%Z) as [b |]; cbn [faced option_map] in *.
        + pose proof (no_face hp 3 i B3) as NF; fold fs in NF; rewrite NF. destruct hom; ring.
        + destruct (some_face hp 3 i) as (g & Fg & _); [destruct B3 as (g & I & Cg & _); exists g; split; assumption |]. fold fs in Fg. rewrite (K3 g Fg), Fg. destruct hom; ring.
      - rewrite image_y_self by (apply (has_cell hp); [exact Hh | unfold inside; fold p; lia]). cbn [option_map]. destruct hom; ring. }
    rewrite <- W, <- S, <- E, <- N. unfold hypre_apply. rewrite Ed, Od.
    destruct (1 <? actual)%Z; destruct hom; ring.
  Qed.
End Row.

(** * The equations *)
Lemma side_op : forall e0 si sn mi g (image : option R) f h t vi (hom : bool) wn, si <> 0 -> si * g = mi * sn ->
  match image with
  | Some vn => wn = vn * sn
  | None => exists f', f = Some f' /\ wn = sn / si * k1 h f' t * (vi * si) + (if hom then 0 else sn) * k0 h f' t * gcoef f' t
  end -> si * side (e0 * g) f h t image vi hom = mi * e0 * wn.
Proof.
  intros e0 si sn mi g image f h t vi hom wn Hs Hg H. unfold side. destruct image as [vn |].
  - rewrite H. replace (si * (e0 * g * vn)) with (e0 * vn * (si * g)) by ring. rewrite Hg. ring.
  - destruct H as (f' & -> & ->). replace (sn / si * k1 h f' t * (vi * si)) with (sn * k1 h f' t * vi) by (field; exact Hs).
    destruct hom.
    + replace (si * (k1 h f' t * (e0 * g) * vi + 0)) with (k1 h f' t * e0 * vi * (si * g)) by ring. rewrite Hg. ring.
    + replace (si * (k1 h f' t * (e0 * g) * vi + k0 h f' t * (e0 * g) * gcoef f' t)) with ((k1 h f' t * e0 * vi + k0 h f' t * e0 * gcoef f' t) * (si * g)) by ring. rewrite Hg. ring.
Qed.
Lemma result_val : forall ms v i j, result_of ms v i j = v i j * msqrt ms i j.
Proof. intros [m | m] v i j; cbn [result_of msqrt]; ring. Qed.
Lemma msqrt_pos : forall lv ms i j, positive_m lv ms -> cell lv i j -> 0 < msqrt ms i j.
Proof. intros lv [m | m] i j H Hc; cbn [msqrt positive_m] in *; [lra | apply sqrt_lt_R0, H, Hc]. Qed.
Lemma weights : forall lv ms i j, positive_m lv ms -> cell lv i j ->
  msqrt ms i j * gx ms i j = mvalue ms i j * msqrt ms (i - 1)%Z j /\ msqrt ms i j * gx ms (i + 1)%Z j = mvalue ms i j * msqrt ms (i + 1)%Z j /\
  msqrt ms i j * gy ms i j = mvalue ms i j * msqrt ms i (j - 1)%Z /\ msqrt ms i j * gy ms i (j + 1)%Z = mvalue ms i j * msqrt ms i (j + 1)%Z.
Proof.
  intros lv [m | m] i j H Hc; cbn [msqrt positive_m mvalue gx gy] in *; [repeat split; ring |].
  assert (E : m i j = sqrt (m i j) * sqrt (m i j)) by (symmetry; apply sqrt_sqrt; apply Rlt_le, H, Hc).
  replace (i + 1 - 1)%Z with i by lia. replace (j + 1 - 1)%Z with j by lia.
  repeat split; rewrite E at 3 || rewrite E at 2; rewrite ?sqrt_square by apply sqrt_pos; try ring.
Qed.
Lemma axes_12 : forall lv per1 actual, axes_ok lv per1 actual -> (actual = 1 \/ actual = 2)%Z.
Proof. intros lv per1 actual [-> | (-> & _)]; auto. Qed.
Lemma periodic_sqrt : forall lv per0 per1 dx dy ms i j, periodic_data lv per0 per1 dx dy (mvalue ms) -> cell lv i j ->
  (forall a, image_x lv per0 (i - 1)%Z j = Some a -> msqrt ms a j = msqrt ms (i - 1)%Z j) /\ (forall a, image_x lv per0 (i + 1)%Z j = Some a -> msqrt ms a j = msqrt ms (i + 1)%Z j) /\
  (forall b, image_y lv per1 i (j - 1)%Z = Some b -> msqrt ms i b = msqrt ms i (j - 1)%Z) /\ (forall b, image_y lv per1 i (j + 1)%Z = Some b -> msqrt ms i b = msqrt ms i (j + 1)%Z).
Proof.
  intros lv per0 per1 dx dy ms i j H Hc. destruct (H i j Hc) as (P1 & P2 & P3 & P4). destruct ms as [m | m]; cbn [mvalue msqrt] in *; [repeat split; reflexivity |].
  split; [| split; [| split]]; intros a Ha; f_equal; [apply P2 | apply P1 | apply P4 | apply P3]; exact Ha.
Qed.
Lemma row_operator : forall lv hps per0 per1 actual hx hy dx dy c ms hom f v gh w i j,
  boundary_ok lv hps per0 per1 hx hy -> disjoint lv -> periodic_data lv per0 per1 dx dy (mvalue ms) -> positive_m lv ms -> axes_ok lv per1 actual ->
  ghosts_follow lv hps per0 per1 hx hy (scaled ms) (scaled_off ms hom) gh -> extends lv gh (result_of ms v) w -> cell lv i j ->
  msqrt ms i j * (hypre_apply lv per0 per1 actual (level_matrix hps actual hx hy dx dy c ms) v i j - level_rhs hps hx hy dx dy c ms hom f i j)
  = operator (1 / (hx * hx)) (1 / (hy * hy)) (mk_coefs dx dy c (mvalue ms)) w i j - f i j.
Proof.
  intros lv hps per0 per1 actual hx hy dx dy c ms hom f v gh w i j Hok Hd Hp Hm Hax Hgh (W1 & W2) Hc.
  destruct (cell_has lv hps per0 per1 hx hy Hok i j Hc) as (hp & Hh & Hi).
  pose proof (row lv hps per0 per1 actual hx hy dx dy c ms Hok Hd Hp Hm (axes_12 _ _ _ Hax) Hax v f hom hp i j Hh Hi) as RW. cbv zeta in RW.
  pose proof (msqrt_pos lv ms i j Hm Hc) as Ps. destruct (weights lv ms i j Hm Hc) as (G0 & G1 & G2 & G3).
  destruct (periodic_sqrt lv per0 per1 dx dy ms i j Hp Hc) as (Q0 & Q1 & Q2 & Q3).
  destruct (Hgh hp i j Hh Hi) as (H0 & H1 & H2 & H3).
  destruct (proj2 Hok hp Hh) as (_ & Bx & By). pose proof Hi as Hi2. destruct Hi2 as (Ri & Rj).
  destruct (Bx j Rj) as (B0 & B1). destruct (By i Ri) as (B2 & B3).
  assert (Sf : forall h l t, faced hp h l t None -> exists f, face_at (faces hp) l t = Some f /\ In f (faces hp) /\ covers f l t).
  { intros h l t (g & I & Cg & _). apply some_face. exists g. split; assumption. }
  assert (IN : forall a b, inside (box hp) a b -> cell lv a b) by (intros a b; apply (has_cell lv hps per0 per1 hx hy Hok); exact Hh).
  assert (S0 : msqrt ms i j * side (ex hx dx ms i j) (face_at (faces hp) 0 j) hx j (option_map (fun a => v a j) (image_x lv per0 (i - 1)%Z j)) (v i j) hom
    = mvalue ms i j * (1 / (hx * hx) * dx i j) * w (i - 1)%Z j).
  { unfold ex. apply (side_op _ _ (msqrt ms (i - 1)%Z j)); [lra | exact G0 |].
    destruct (in_level_spec lv (i - 1) j) as [Cn | Nn].
    - rewrite (image_x_self _ _ _ _ Cn). cbn [option_map]. rewrite W1 by exact Cn. apply result_val.
    - specialize (H0 Nn). rewrite W2 by exact Nn. destruct (image_x lv per0 (i - 1)%Z j) as [a |] eqn:Ea; cbn [option_map ghost_beside] in *.
      + rewrite H0. cbn [factor src0 src1 offset_value]. rewrite result_val, (Q0 a eq_refl). ring.
      + assert (i = ilo (box hp)) by (destruct (Z.eq_dec i (ilo (box hp))); [assumption | exfalso; apply Nn, IN; unfold inside; lia]). 
        rewrite <- H, Ea in B0. destruct (Sf hx 0%Z j B0) as (g & Fg & I & Cg). exists g. split; [exact Fg |]. rewrite (H0 g I Cg). cbn [factor src0 src1 offset_value].
        rewrite result_val. unfold scaled, scaled_off, k0, k1. reflexivity. }
  assert (S1 : msqrt ms i j * side (ex hx dx ms (i + 1)%Z j) (face_at (faces hp) 1 j) hx j (option_map (fun a => v a j) (image_x lv per0 (i + 1)%Z j)) (v i j) hom
    = mvalue ms i j * (1 / (hx * hx) * dx (i + 1)%Z j) * w (i + 1)%Z j).
  { unfold ex. apply (side_op _ _ (msqrt ms (i + 1)%Z j)); [lra | exact G1 |].
    destruct (in_level_spec lv (i + 1) j) as [Cn | Nn].
    - rewrite (image_x_self _ _ _ _ Cn). cbn [option_map]. rewrite W1 by exact Cn. apply result_val.
    - specialize (H1 Nn). rewrite W2 by exact Nn. destruct (image_x lv per0 (i + 1)%Z j) as [a |] eqn:Ea; cbn [option_map ghost_beside] in *.
      + rewrite H1. cbn [factor src0 src1 offset_value]. rewrite result_val, (Q1 a eq_refl). ring.
      + assert (i = ihi (box hp)) by (destruct (Z.eq_dec i (ihi (box hp))); [assumption | exfalso; apply Nn, IN; unfold inside; lia]). 
        rewrite <- H, Ea in B1. destruct (Sf hx 1%Z j B1) as (g & Fg & I & Cg). exists g. split; [exact Fg |]. rewrite (H1 g I Cg). cbn [factor src0 src1 offset_value].
        rewrite result_val. unfold scaled, scaled_off, k0, k1. reflexivity. }
  assert (S2 : msqrt ms i j * side (ey hy dy ms i j) (face_at (faces hp) 2 i) hy i (option_map (fun b => v i b) (image_y lv per1 i (j - 1)%Z)) (v i j) hom
    = mvalue ms i j * (1 / (hy * hy) * dy i j) * w i (j - 1)%Z).
  { unfold ey. apply (side_op _ _ (msqrt ms i (j - 1)%Z)); [lra | exact G2 |].
    destruct (in_level_spec lv i (j - 1)) as [Cn | Nn].
    - rewrite (image_y_self _ _ _ _ Cn). cbn [option_map]. rewrite W1 by exact Cn. apply result_val.
    - specialize (H2 Nn). rewrite W2 by exact Nn. destruct (image_y lv per1 i (j - 1)%Z) as [a |] eqn:Ea; cbn [option_map ghost_beside] in *.
      + rewrite H2. cbn [factor src0 src1 offset_value]. rewrite result_val, (Q2 a eq_refl). ring.
      + assert (j = jlo (box hp)) by (destruct (Z.eq_dec j (jlo (box hp))); [assumption | exfalso; apply Nn, IN; unfold inside; lia]). 
        rewrite <- H, Ea in B2. destruct (Sf hy 2%Z i B2) as (g & Fg & I & Cg). exists g. split; [exact Fg |]. rewrite (H2 g I Cg). cbn [factor src0 src1 offset_value].
        rewrite result_val. unfold scaled, scaled_off, k0, k1. reflexivity. }
  assert (S3 : msqrt ms i j * side (ey hy dy ms i (j + 1)%Z) (face_at (faces hp) 3 i) hy i (option_map (fun b => v i b) (image_y lv per1 i (j + 1)%Z)) (v i j) hom
    = mvalue ms i j * (1 / (hy * hy) * dy i (j + 1)%Z) * w i (j + 1)%Z).
  { unfold ey. apply (side_op _ _ (msqrt ms i (j + 1)%Z)); [lra | exact G3 |].
    destruct (in_level_spec lv i (j + 1)) as [Cn | Nn].
    - rewrite (image_y_self _ _ _ _ Cn). cbn [option_map]. rewrite W1 by exact Cn. apply result_val.
    - specialize (H3 Nn). rewrite W2 by exact Nn. destruct (image_y lv per1 i (j + 1)%Z) as [a |] eqn:Ea; cbn [option_map ghost_beside] in *.
      + rewrite H3. cbn [factor src0 src1 offset_value]. rewrite result_val, (Q3 a eq_refl). ring.
      + assert (j = jhi (box hp)) by (destruct (Z.eq_dec j (jhi (box hp))); [assumption | exfalso; apply Nn, IN; unfold inside; lia]). 
        rewrite <- H, Ea in B3. destruct (Sf hy 3%Z i B3) as (g & Fg & I & Cg). exists g. split; [exact Fg |]. rewrite (H3 g I Cg). cbn [factor src0 src1 offset_value].
        rewrite result_val. unfold scaled, scaled_off, k0, k1. reflexivity. }
  set (AP := hypre_apply lv per0 per1 actual _ v i j) in *. set (RH := level_rhs hps hx hy dx dy c ms hom f i j) in *.
  set (t0 := side (ex hx dx ms i j) _ _ _ _ _ _) in *. set (t1 := side (ex hx dx ms (i + 1)%Z j) _ _ _ _ _ _) in *.
  set (t2 := side (ey hy dy ms i j) _ _ _ _ _ _) in *. set (t3 := side (ey hy dy ms i (j + 1)%Z) _ _ _ _ _ _) in *.
  assert (Ww : w i j = v i j * msqrt ms i j) by (rewrite W1 by exact Hc; apply result_val).
  replace (msqrt ms i j * (AP - RH)) with (msqrt ms i j * (AP - (RH - f i j / msqrt ms i j)) - f i j) by (field; lra).
  rewrite RW. unfold operator. cbn [mob xdc ydc sfield]. rewrite Ww.
  set (D0 := _ - _ * (1 / (hx * hx) * dx i j + _ + _ + _)).
  replace (msqrt ms i j * (D0 * v i j + t0 + t1 + t2 + t3)) with (D0 * (v i j * msqrt ms i j) + msqrt ms i j * t0 + msqrt ms i j * t1 + msqrt ms i j * t2 + msqrt ms i j * t3) by ring.
  rewrite S0, S1, S2, S3. unfold D0. ring.
Qed.
(** HYPRE's equations are the equations of the problem, with a boundary rule scaled by the roots of the mobility *)
Lemma hypre_problem : forall lv hps per0 per1 actual hx hy dx dy c ms hom f v gh,
  boundary_ok lv hps per0 per1 hx hy -> disjoint lv -> periodic_data lv per0 per1 dx dy (mvalue ms) -> positive_m lv ms -> axes_ok lv per1 actual ->
  ghosts_follow lv hps per0 per1 hx hy (scaled ms) (scaled_off ms hom) gh ->
  (hypre_solution lv hps per0 per1 actual hx hy dx dy c ms hom f v <->
   solves (1 / (hx * hx)) (1 / (hy * hy)) lv gh (mk_coefs dx dy c (mvalue ms)) f (result_of ms v)).
Proof.
  intros lv hps per0 per1 actual hx hy dx dy c ms hom f v gh Hok Hd Hp Hm Hax Hgh. split.
  - intros H w Hw i j Hc. pose proof (row_operator lv hps per0 per1 actual hx hy dx dy c ms hom f v gh w i j Hok Hd Hp Hm Hax Hgh Hw Hc) as R. rewrite (H i j Hc) in R.
    replace (msqrt ms i j * (level_rhs hps hx hy dx dy c ms hom f i j - level_rhs hps hx hy dx dy c ms hom f i j)) with 0 in R by ring. lra.
  - intros H i j Hc. pose proof (fill_extends lv gh (result_of ms v)) as Hw.
    pose proof (row_operator lv hps per0 per1 actual hx hy dx dy c ms hom f v gh _ i j Hok Hd Hp Hm Hax Hgh Hw Hc) as R. rewrite (H _ Hw i j Hc) in R.
    pose proof (msqrt_pos lv ms i j Hm Hc) as Ps. replace (f i j - f i j) with 0 in R by ring. apply Rmult_integral in R. destruct R; lra.
Qed.
(** the rule of the user, where the mobility allows it *)
Lemma rule_even : forall lv hps per0 per1 hx hy ms hom gh, boundary_ok lv hps per0 per1 hx hy -> positive_m lv ms ->
  match ms with ConstantM _ => True | VariableM m => even_mobility lv per0 per1 m /\ (hom = true \/ unit_mobility lv per0 per1 m) end ->
  robin_ghosts lv hps per0 per1 hx hy hom gh -> ghosts_follow lv hps per0 per1 hx hy (scaled ms) (scaled_off ms hom) gh.
Proof.
  intros lv hps per0 per1 hx hy ms hom gh Hok Hm He H hp i j Hh Hi.
  pose proof (has_cell lv hps per0 per1 hx hy Hok hp i j Hh Hi) as Hc. pose proof (msqrt_pos lv ms i j Hm Hc) as Ps.
  assert (FA : forall a b, (match ms with ConstantM _ => True | VariableM m => m a b = m i j end) -> scaled ms a b i j = 1).
  { intros a b Q. unfold scaled. destruct ms as [m | m]; cbn [msqrt] in *; [field | rewrite Q; field; lra]. }
  assert (FO : forall a b, (match ms with ConstantM _ => True | VariableM m => hom = true \/ m a b = 1 end) -> scaled_off ms hom a b i j = if hom then 0 else 1).
  { intros a b Q. unfold scaled_off. destruct hom; [reflexivity |]. destruct ms as [m | m]; cbn [msqrt] in *; [reflexivity |]. destruct Q as [Q | ->]; [discriminate | apply sqrt_1]. }
  assert (Z4 : (image_x lv per0 (i - 1)%Z j = None -> scaled ms (i - 1)%Z j i j = 1 /\ scaled_off ms hom (i - 1)%Z j i j = if hom then 0 else 1) /\
    (image_x lv per0 (i + 1)%Z j = None -> scaled ms (i + 1)%Z j i j = 1 /\ scaled_off ms hom (i + 1)%Z j i j = if hom then 0 else 1) /\
    (image_y lv per1 i (j - 1)%Z = None -> scaled ms i (j - 1)%Z i j = 1 /\ scaled_off ms hom i (j - 1)%Z i j = if hom then 0 else 1) /\
    (image_y lv per1 i (j + 1)%Z = None -> scaled ms i (j + 1)%Z i j = 1 /\ scaled_off ms hom i (j + 1)%Z i j = if hom then 0 else 1)).
  { destruct ms as [m | m]; [repeat split; first [apply FA | apply FO]; exact I |].
    destruct He as (E & U). destruct (E i j Hc) as (E0 & E1 & E2 & E3).
    split; [| split; [| split]]; intro Q; (split; [apply FA; auto | apply FO; destruct U as [U | U]; [left; exact U | right; destruct (U i j Hc) as (U0 & U1 & U2 & U3); auto]]). }
  destruct Z4 as (Z0 & Z1 & Z2 & Z3). destruct (H hp i j Hh Hi) as (H0 & H1 & H2 & H3).
  split; [| split; [| split]]; intro N.
  - specialize (H0 N). destruct (image_x lv per0 (i - 1)%Z j); [exact H0 |]. destruct (Z0 eq_refl) as (-> & ->). exact H0.
  - specialize (H1 N). destruct (image_x lv per0 (i + 1)%Z j); [exact H1 |]. destruct (Z1 eq_refl) as (-> & ->). exact H1.
  - specialize (H2 N). destruct (image_y lv per1 i (j - 1)%Z); [exact H2 |]. destruct (Z2 eq_refl) as (-> & ->). exact H2.
  - specialize (H3 N). destruct (image_y lv per1 i (j + 1)%Z); [exact H3 |]. destruct (Z3 eq_refl) as (-> & ->). exact H3.
Qed.

(** C190 *)
Lemma homogeneous_right : forall lv hps per0 per1 actual hx hy dx dy c ms f v gh,
  boundary_ok lv hps per0 per1 hx hy -> disjoint lv -> periodic_data lv per0 per1 dx dy (mvalue ms) -> positive_m lv ms -> axes_ok lv per1 actual ->
  match ms with ConstantM _ => True | VariableM m => even_mobility lv per0 per1 m end -> robin_ghosts lv hps per0 per1 hx hy true gh ->
  (hypre_solution lv hps per0 per1 actual hx hy dx dy c ms true f v <->
   solves (1 / (hx * hx)) (1 / (hy * hy)) lv gh (mk_coefs dx dy c (mvalue ms)) f (result_of ms v)).
Proof.
  intros lv hps per0 per1 actual hx hy dx dy c ms f v gh Hok Hd Hp Hm Hax He Hg. apply hypre_problem; try assumption.
  apply rule_even; try assumption. destruct ms; [exact I | split; [exact He | left; reflexivity]].
Qed.
(** C192 *)
Lemma inhomogeneous_right : forall lv hps per0 per1 actual hx hy dx dy c ms f v gh,
  boundary_ok lv hps per0 per1 hx hy -> disjoint lv -> periodic_data lv per0 per1 dx dy (mvalue ms) -> positive_m lv ms -> axes_ok lv per1 actual ->
  match ms with ConstantM _ => True | VariableM m => even_mobility lv per0 per1 m /\ unit_mobility lv per0 per1 m end -> robin_ghosts lv hps per0 per1 hx hy false gh ->
  (hypre_solution lv hps per0 per1 actual hx hy dx dy c ms false f v <->
   solves (1 / (hx * hx)) (1 / (hy * hy)) lv gh (mk_coefs dx dy c (mvalue ms)) f (result_of ms v)).
Proof.
  intros lv hps per0 per1 actual hx hy dx dy c ms f v gh Hok Hd Hp Hm Hax He Hg. apply hypre_problem; try assumption.
  apply rule_even; try assumption. destruct ms; [exact I | destruct He; split; [assumption | right; assumption]].
Qed.
(** C191 *)
Lemma result_onto : forall lv ms u, positive_m lv ms -> exists v, forall i j, cell lv i j -> result_of ms v i j = u i j.
Proof.
  intros lv ms u Hm. exists (fun i j => u i j / msqrt ms i j). intros i j Hc. rewrite result_val. pose proof (msqrt_pos lv ms i j Hm Hc). field. lra.
Qed.
Lemma solves_ext : forall ax ay lv gh o f u u', tame lv gh -> (forall i j, cell lv i j -> u i j = u' i j) -> solves ax ay lv gh o f u -> solves ax ay lv gh o f u'.
Proof.
  intros ax ay lv gh o f u u' T E H w (W1 & W2). apply H. split; intros i j Hc; [rewrite W1, E by exact Hc; reflexivity |].
  rewrite W2 by exact Hc. destruct (T i j Hc) as (_ & [Z0 | Z0]); [rewrite Z0; ring | rewrite E by exact Z0; reflexivity].
Qed.
Lemma direct_is_limit : forall lv hps per0 per1 actual dx dy c ms f gh c0 K fl,
  boundary_ok lv hps per0 per1 (pdx lv) (pdy lv) -> disjoint lv -> periodic_data lv per0 per1 dx dy (mvalue ms) -> positive_m lv ms -> axes_ok lv per1 actual ->
  match ms with ConstantM _ => True | VariableM m => even_mobility lv per0 per1 m end -> robin_ghosts lv hps per0 per1 (pdx lv) (pdy lv) true gh ->
  nonneg_rows lv -> finer lv = false -> 0 < pdx lv -> 0 < pdy lv -> gdx lv = pdx lv -> gdy lv = pdy lv -> tame lv gh ->
  positive_problem lv (mk_coefs dx dy c (mvalue ms)) c0 K ->
  (exists v, hypre_solution lv hps per0 per1 actual (pdx lv) (pdy lv) dx dy c ms true f v) /\
  forall v, hypre_solution lv hps per0 per1 actual (pdx lv) (pdy lv) dx dy c ms true f v ->
    (forall v', hypre_solution lv hps per0 per1 actual (pdx lv) (pdy lv) dx dy c ms true f v' -> within lv v v' 0) /\
    forall u eps, 0 < eps -> exists N, forall n, (N <= n)%nat ->
      within lv (smoothErrorByRedBlack lv gh (mk_coefs dx dy c (mvalue ms)) f fl n (-1) u) (result_of ms v) eps.
Proof.
  intros lv hps per0 per1 actual dx dy c ms f gh c0 K fl Hok Hd Hp Hm Hax He Hg Hn Hf Px Py Gx Gy T P.
  pose proof (fun v => homogeneous_right lv hps per0 per1 actual (pdx lv) (pdy lv) dx dy c ms f v gh Hok Hd Hp Hm Hax He Hg) as EQ.
  destruct (smoothing_converges_coarsest lv gh (mk_coefs dx dy c (mvalue ms)) f fl c0 K Hd Hn Hf Px Py Gx Gy T P) as (u0 & Su & Un & _ & Cv).
  assert (Z0 : forall x y, Rabs (x - y) <= 0 -> x = y) by (intros x y H; unfold Rabs in H; destruct Rcase_abs; lra).
  split.
  - destruct (result_onto lv ms u0 Hm) as (v & Hv). exists v. apply EQ. apply (solves_ext _ _ _ _ _ _ u0); [exact T | | exact Su]. intros i j Hc. symmetry. apply Hv, Hc.
  - intros v Sv. apply EQ in Sv. pose proof (Un _ Sv) as W. split.
    + intros v' Sv'. apply EQ in Sv'. pose proof (Un _ Sv') as W'. intros i j Hc. pose proof (Z0 _ _ (W i j Hc)) as E1. pose proof (Z0 _ _ (W' i j Hc)) as E2.
      rewrite E1, !result_val in E2. pose proof (msqrt_pos lv ms i j Hm Hc). apply Rmult_eq_reg_r in E2; [| lra]. rewrite E2, Rminus_diag_eq by reflexivity. rewrite Rabs_R0. lra.
    + intros u eps Hep. destruct (Cv u eps Hep) as (N & HN). exists N. intros n Hnn i j Hc. rewrite <- (Z0 _ _ (W i j Hc)). apply HN; assumption.
Qed.
(** the return value *)
Lemma return_value : forall norms tol, solve_coarsest norms tol = 0%Z <-> Forall (fun n => n <= tol) norms.
Proof.
  intros norms tol. unfold solve_coarsest.
  assert (G : forall l r, fold_left (fun r n => if (0 <? converged n tol)%Z then r else 0%Z) l r = (if forallb (fun n => if Rle_dec n tol then true else false) l then r else 0%Z)).
  { induction l as [| n l IH]; intro r; [reflexivity |]. cbn [fold_left forallb]. rewrite IH. unfold converged. destruct (Rle_dec n tol); cbn [Z.ltb Z.compare andb]; destruct (forallb _ l); reflexivity. }
  rewrite G. assert (B : forallb (fun n => if Rle_dec n tol then true else false) norms = true <-> Forall (fun n => n <= tol) norms).
  { rewrite forallb_forall, Forall_forall. split; intros H n Hn; specialize (H n Hn); destruct (Rle_dec n tol); auto; discriminate. }
  destruct (forallb _ norms); cbn [Z.eqb]; split; intro H; try reflexivity; try (apply B; reflexivity); try discriminate. apply B in H. discriminate.
Qed.
(** a level one cell wide in x: all cells share one point of HYPRE's grid *)
Lemma one_cell_wide : forall ny j j', (1 <= ny)%Z -> actual_dim [(0, 0); (0, ny)]%Z = 1%Z /\ grid_point (actual_dim [(0, 0); (0, ny)]%Z) 0 j = grid_point (actual_dim [(0, 0); (0, ny)]%Z) 0 j'.
Proof.
  intros ny j j' H. assert (E : actual_dim [(0, 0); (0, ny)]%Z = 1%Z) by (unfold actual_dim; cbn [fold_left fst snd]; destruct (Z.ltb_spec 0 ny); [reflexivity | lia]).
  rewrite E. split; reflexivity.
Qed.

(** two by two cells between four walls *)
Definition one_box := mk_patch 0 1 0 1 [].
Definition one_level := mk_level [one_box] 1 1 1 1 1 1 false true.
Definition wall (l : Z) (g : R) : bface := mk_bface l 0 1 (fun _ => 1) (fun _ => 0) (fun _ => g).
Definition one_hp (g : R) := mk_hpatch one_box [wall 0 g; wall 1 g; wall 2 g; wall 3 g].
Definition clamp (i : Z) : Z := Z.max 0 (Z.min i 1).
Definition one_gh (fac off : R) : Z -> Z -> ghost := fun i j => mk_ghost fac (clamp i) (clamp j) off.
Definition one_m (m mg : R) : arr2 := fun i j => if in_patch one_box i j then m else mg.
Lemma one_cell : forall i j, cell one_level i j <-> (0 <= i <= 1 /\ 0 <= j <= 1)%Z.
Proof. intros i j. split; [intros (p & [<- | []] & H); unfold inside in H; cbn in H; lia | intros H; exists one_box; split; [left; reflexivity | unfold inside; cbn; lia]]. Qed.
Lemma one_none : forall i j, ~ (0 <= i <= 1 /\ 0 <= j <= 1)%Z -> image_x one_level 0 i j = None /\ image_y one_level 0 i j = None.
Proof.
  intros i j N. unfold image_x, image_y. assert (E : in_level one_level i j = false) by (destruct (in_level_spec one_level i j) as [H |]; [apply one_cell in H; contradiction | reflexivity]).
  rewrite E. split; reflexivity.
Qed.
Lemma wall_covers : forall l g k t, covers (wall l g) k t <-> k = l /\ (0 <= t <= 1)%Z.
Proof. intros l g k t. unfold covers. cbn. split; intros (A & B); split; lia. Qed.
Lemma one_ok : forall g, boundary_ok one_level [one_hp g] 0 0 1 1.
Proof.
  intro g. split; [reflexivity |]. intros hp [<- | []]. split; [split |].
  - intros f [<- | [<- | [<- | [<- | []]]]]; cbn; lia.
  - repeat constructor; intros l t (A & B); apply wall_covers in A; apply wall_covers in B; lia.
  - assert (Q : forall l t im, im = None -> (0 <= l <= 3)%Z -> (0 <= t <= 1)%Z -> faced (one_hp g) 1 l t im).
    { intros l t im -> Hl Ht. cbn [faced]. exists (wall l g). split; [| split; [apply wall_covers; auto | cbn; lra]].
      assert (l = 0 \/ l = 1 \/ l = 2 \/ l = 3)%Z as [-> | [-> | [-> | ->]]] by lia; cbn; auto. }
    cbn [one_hp box one_box ilo ihi jlo jhi]. split; intros t Ht; (split; (apply Q; [apply one_none; lia | lia | lia])).
Qed.
Lemma one_disjoint : disjoint one_level.
Proof. constructor; constructor. Qed.
Lemma one_beside : forall fac off g (F O : Z -> Z -> Z -> Z -> R),
  (forall a b i j, ~ cell one_level a b -> cell one_level i j -> F a b i j * -1 = fac /\ O a b i j * 2 * g = off) ->
  ghosts_follow one_level [one_hp g] 0 0 1 1 F O (one_gh fac off).
Proof.
  intros fac off g F O H hp i j [<- | []] Hi. assert (Hc : cell one_level i j) by (apply one_cell; unfold inside in Hi; cbn in Hi; lia). pose proof Hc as Hr. apply one_cell in Hr.
  assert (Q : forall a b l t im, ~ cell one_level a b -> (clamp a = i /\ clamp b = j) -> im = None -> ghost_beside (one_hp g) 1 l t a b i j (F a b i j) (O a b i j) im (one_gh fac off a b)).
  { intros a b l t im N (Ca & Cb) ->. cbn [ghost_beside]. intros f Hf _.
    assert (Ef : exists k, f = wall k g) by (destruct Hf as [<- | [<- | [<- | [<- | []]]]]; eexists; reflexivity). destruct Ef as (k & ->). cbn [wall bcoef acoef gcoef].
    destruct (H a b i j N Hc) as (E1 & E2). unfold one_gh. rewrite Ca, Cb.
    replace ((0 - 1 * 1 / 2) / (0 + 1 * 1 / 2)) with (-1) by field. replace (1 / (0 + 1 * 1 / 2)) with 2 by field. rewrite E1, E2. reflexivity. }
  split; [| split; [| split]]; intro N; (apply Q; [exact N | rewrite one_cell in N; unfold clamp; lia |]); rewrite one_cell in N;
    match goal with |- option_map _ ?o = None => assert (E : o = None) by (apply one_none; lia); rewrite E; reflexivity end.
Qed.
Lemma one_robin : forall g hom, robin_ghosts one_level [one_hp g] 0 0 1 1 hom (one_gh (-1) (if hom then 0 else 2 * g)).
Proof. intros g hom. apply (one_beside _ _ g). intros a b i j _ _. destruct hom; split; ring. Qed.
Lemma one_periodic : forall dx dy m, periodic_data one_level 0 0 dx dy m.
Proof.
  intros dx dy m i j Hc.
  assert (X : forall x y a, image_x one_level 0 x y = Some a -> a = x).
  { intros x y a. unfold image_x. cbn [Z.eqb negb andb]. destruct (in_level one_level x y); [intro Q; injection Q; auto | discriminate]. }
  assert (Y : forall x y a, image_y one_level 0 x y = Some a -> a = y).
  { intros x y a. unfold image_y. cbn [Z.eqb negb andb]. destruct (in_level one_level x y); [intro Q; injection Q; auto | discriminate]. }
  split; [| split; [| split]]; intros a Ha; [apply X in Ha | apply X in Ha | apply Y in Ha | apply Y in Ha]; subst a; rewrite ?Z.add_simpl_r; auto.
Qed.
(** the rule HYPRE uses, for mobility m in the cells and mg around them *)
Lemma one_scaled : forall m mg g hom, 0 < m -> ghosts_follow one_level [one_hp g] 0 0 1 1 (scaled (VariableM (one_m m mg))) (scaled_off (VariableM (one_m m mg)) hom)
  (one_gh (- (sqrt mg / sqrt m)) (if hom then 0 else 2 * sqrt mg * g)).
Proof.
  intros m mg g hom Pm. apply (one_beside _ _ g). intros a b i j N Hc.
  assert (E1 : one_m m mg a b = mg) by (unfold one_m; destruct (in_patch_spec one_box a b) as [Q |]; [exfalso; apply N; exists one_box; split; [left; reflexivity | exact Q] | reflexivity]).
  assert (E2 : one_m m mg i j = m) by (unfold one_m; destruct (in_patch_spec one_box i j) as [Q | Q]; [reflexivity | exfalso; apply Q; destruct Hc as (p & [<- | []] & Hq); exact Hq]).
  unfold scaled, scaled_off. cbn [msqrt]. rewrite E1, E2. split; [ring |]. destruct hom; ring.
Qed.
Lemma one_inside : forall m mg i j, cell one_level i j -> one_m m mg i j = m.
Proof. intros m mg i j (p & [<- | []] & Hq). unfold one_m. destruct (in_patch_spec one_box i j); [reflexivity | contradiction]. Qed.
Lemma one_positive : forall m mg, 0 < m -> positive_m one_level (VariableM (one_m m mg)).
Proof. intros m mg H i j Hc. rewrite (one_inside m mg i j Hc). exact H. Qed.
Lemma one_solves : forall fac off m mg dd cc ff (x : arr2) x0, (forall i j, cell one_level i j -> x i j = x0) ->
  (solves (1 / (1 * 1)) (1 / (1 * 1)) one_level (one_gh fac off) (mk_coefs (fun _ _ => dd) (fun _ _ => dd) (fun _ _ => cc) (one_m m mg)) (fun _ _ => ff) x <->
   m * dd * 2 * (fac * x0 + off - x0) + cc * x0 = ff).
Proof.
  intros fac off m mg dd cc ff x x0 Hx.
  assert (E : forall w i j, cell one_level i j -> extends one_level (one_gh fac off) x w -> operator (1 / (1 * 1)) (1 / (1 * 1)) (mk_coefs (fun _ _ => dd) (fun _ _ => dd) (fun _ _ => cc) (one_m m mg)) w i j
    = m * dd * 2 * (fac * x0 + off - x0) + cc * x0).
  { intros w i j Hc (W1 & W2).
    assert (G : forall a b, w a b = if in_level one_level a b then x0 else fac * x0 + off).
    { intros a b. destruct (in_level_spec one_level a b) as [C1 | C1]; [rewrite W1, Hx by exact C1; reflexivity |]. rewrite W2 by exact C1. cbn [one_gh factor src0 src1 offset_value].
      rewrite Hx by (apply one_cell; unfold clamp; lia). reflexivity. }
    unfold operator. cbn [mob xdc ydc sfield]. rewrite !G, (one_inside m mg i j Hc). apply one_cell in Hc.
    assert (i = 0 \/ i = 1)%Z as [-> | ->] by lia; assert (j = 0 \/ j = 1)%Z as [-> | ->] by lia; cbn -[Rplus Rmult Rminus Rdiv]; field. }
  split.
  - intro H. rewrite <- (H _ (fill_extends one_level _ x) 0%Z 0%Z ltac:(apply one_cell; lia)). symmetry. apply E; [apply one_cell; lia | apply fill_extends].
  - intros H w Hw i j Hc. rewrite (E w i j Hc Hw). exact H.
Qed.
Lemma one_problem : forall m mg K, 0 < m -> 4 * m <= K -> positive_problem one_level (mk_coefs (fun _ _ => -1) (fun _ _ => -1) (fun _ _ => 1) (one_m m mg)) 1 K.
Proof. intros m mg K Pm HK. split; [lra |]. intros i j Hc. cbn [mob xdc ydc sfield one_level pdx pdy]. rewrite (one_inside m mg i j Hc). lra. Qed.
Lemma one_tame : forall off, tame one_level (one_gh (-1) off).
Proof. intros off i j _. cbn. split; [rewrite Rabs_left; lra | right; apply one_cell; unfold clamp; lia]. Qed.
(** a mobility that differs across a Dirichlet wall changes the result *)
Lemma homogeneous_wrong : exists lv hps per0 per1 dx dy c m f v gh,
  boundary_ok lv hps per0 per1 (pdx lv) (pdy lv) /\ disjoint lv /\ periodic_data lv per0 per1 dx dy m /\ positive_m lv (VariableM m) /\
  (forall i j, cell lv i j <-> (0 <= i <= 1 /\ 0 <= j <= 1)%Z) /\
  (forall i j, 0 < m i j) /\ robin_ghosts lv hps per0 per1 (pdx lv) (pdy lv) true gh /\
  (exists c0 K, positive_problem lv (mk_coefs dx dy c m) c0 K) /\ tame lv gh /\
  hypre_solution lv hps per0 per1 (actual_dim [(0, 1); (0, 1)])%Z (pdx lv) (pdy lv) dx dy c (VariableM m) true f v /\
  ~ solves (1 / (pdx lv * pdx lv)) (1 / (pdy lv * pdy lv)) lv gh (mk_coefs dx dy c m) f (result_of (VariableM m) v).
Proof.
  exists one_level, [one_hp 0], 0%Z, 0%Z, (fun _ _ => -1), (fun _ _ => -1), (fun _ _ => 1), (one_m 1 4), (fun _ _ => 7), (fun _ _ => 1), (one_gh (-1) 0).
  cbn [one_level pdx pdy]. fold one_level.
  assert (S4 : sqrt 4 = 2) by (replace 4 with (2 * 2) by ring; apply sqrt_square; lra).
  assert (V : forall i j, cell one_level i j -> result_of (VariableM (one_m 1 4)) (fun _ _ => 1) i j = 1) by (intros i j Hc; rewrite result_val; cbn [msqrt]; rewrite (one_inside 1 4 i j Hc), sqrt_1; ring).
  split; [apply one_ok |]. split; [apply one_disjoint |]. split; [apply one_periodic |]. split; [apply one_positive; lra |]. split; [apply one_cell |].
  split; [intros i j; unfold one_m; destruct (in_patch one_box i j); lra |]. split; [apply (one_robin 0 true) |].
  split; [exists 1, 4; apply one_problem; lra |]. split; [apply one_tame |].
  split.
  - apply (hypre_problem one_level [one_hp 0] 0 0 2 1 1 _ _ _ (VariableM (one_m 1 4)) true _ _ _ (one_ok 0) one_disjoint (one_periodic _ _ _) (one_positive 1 4 ltac:(lra)) (or_introl eq_refl) (one_scaled 1 4 0 true ltac:(lra))).
    apply (one_solves _ _ 1 4 _ _ _ _ 1 V). rewrite S4, sqrt_1. lra.
  - intro H. apply (one_solves _ _ 1 4 _ _ _ _ 1 V) in H. lra.
Qed.
(** a boundary value is multiplied by the root of the mobility *)
Lemma inhomogeneous_wrong : exists lv hps per0 per1 dx dy c m f v gh,
  boundary_ok lv hps per0 per1 (pdx lv) (pdy lv) /\ disjoint lv /\ periodic_data lv per0 per1 dx dy m /\ positive_m lv (VariableM m) /\
  (forall i j, cell lv i j <-> (0 <= i <= 1 /\ 0 <= j <= 1)%Z) /\
  (exists m0, 0 < m0 /\ forall i j, m i j = m0) /\ robin_ghosts lv hps per0 per1 (pdx lv) (pdy lv) false gh /\
  (exists c0 K, positive_problem lv (mk_coefs dx dy c m) c0 K) /\ tame lv gh /\
  hypre_solution lv hps per0 per1 (actual_dim [(0, 1); (0, 1)])%Z (pdx lv) (pdy lv) dx dy c (VariableM m) false f v /\
  ~ solves (1 / (pdx lv * pdx lv)) (1 / (pdy lv * pdy lv)) lv gh (mk_coefs dx dy c m) f (result_of (VariableM m) v).
Proof.
  exists one_level, [one_hp 1], 0%Z, 0%Z, (fun _ _ => -1), (fun _ _ => -1), (fun _ _ => 1), (one_m 4 4), (fun _ _ => 2), (fun _ _ => 1), (one_gh (-1) (2 * 1)).
  cbn [one_level pdx pdy]. fold one_level.
  assert (S4 : sqrt 4 = 2) by (replace 4 with (2 * 2) by ring; apply sqrt_square; lra).
  assert (V : forall i j, cell one_level i j -> result_of (VariableM (one_m 4 4)) (fun _ _ => 1) i j = 2) by (intros i j Hc; rewrite result_val; cbn [msqrt]; rewrite (one_inside 4 4 i j Hc), S4; ring).
  split; [apply one_ok |]. split; [apply one_disjoint |]. split; [apply one_periodic |]. split; [apply one_positive; lra |]. split; [apply one_cell |].
  split; [exists 4; split; [lra |]; intros i j; unfold one_m; destruct (in_patch one_box i j); reflexivity |]. split; [apply (one_robin 1 false) |].
  split; [exists 1, 16; apply one_problem; lra |]. split; [apply one_tame |].
  split.
  - apply (hypre_problem one_level [one_hp 1] 0 0 2 1 1 _ _ _ (VariableM (one_m 4 4)) false _ _ _ (one_ok 1) one_disjoint (one_periodic _ _ _) (one_positive 4 4 ltac:(lra)) (or_introl eq_refl) (one_scaled 4 4 1 false ltac:(lra))).
    apply (one_solves _ _ 4 4 _ _ _ _ 2 V). rewrite S4. lra.
  - intro H. apply (one_solves _ _ 4 4 _ _ _ _ 2 V) in H. lra.
Qed.
(** boundary values enter multiplied by the root of the mobility of the ghost cell: the exact problem solved *)
Lemma thin_values : forall p d i j, inside p i j -> stencil_value p 1 d 0 i j = offx d i j /\ stencil_value p 1 d 1 i j = diag d i j.
Proof. intros p d i j H. destruct (stencil_values p 1 d i j (or_introl eq_refl) H) as (A & _ & B). split; assumption. Qed.
(** a level one cell high, periodic across: the matrix keeps the couplings across on its diagonal *)
Definition flat_box := mk_patch 0 1 0 0 [].
Definition flat_level := mk_level [flat_box] 1 1 1 1 1 1 false true.
Definition flat_hp := mk_hpatch flat_box [].
Definition flat_gh : Z -> Z -> ghost := fun i j => mk_ghost 1 (i mod 2)%Z 0 0.
Lemma flat_cell : forall i j, cell flat_level i j <-> (0 <= i <= 1 /\ j = 0)%Z.
Proof. intros i j. split; [intros (p & [<- | []] & H); unfold inside in H; cbn in H; lia | intros H; exists flat_box; split; [left; reflexivity | unfold inside; cbn; lia]]. Qed.
Lemma flat_periodic_wrong : exists lv hps per0 per1 dx dy c m f v gh,
  boundary_ok lv hps per0 per1 (pdx lv) (pdy lv) /\ disjoint lv /\ periodic_data lv per0 per1 dx dy (mvalue (ConstantM m)) /\
  (forall i j, cell lv i j <-> (0 <= i <= 1 /\ j = 0)%Z) /\ per0 = 2%Z /\ per1 = 1%Z /\
  robin_ghosts lv hps per0 per1 (pdx lv) (pdy lv) true gh /\
  (exists c0 K, positive_problem lv (mk_coefs dx dy c (mvalue (ConstantM m))) c0 K) /\ tame lv gh /\
  hypre_solution lv hps per0 per1 (actual_dim [(0, 1); (0, 0)])%Z (pdx lv) (pdy lv) dx dy c (ConstantM m) true f v /\
  ~ solves (1 / (pdx lv * pdx lv)) (1 / (pdy lv * pdy lv)) lv gh (mk_coefs dx dy c (mvalue (ConstantM m))) f (result_of (ConstantM m) v).
Proof.
  exists flat_level, [flat_hp], 2%Z, 1%Z, (fun _ _ => -1), (fun _ _ => -1), (fun _ _ => 1), 1, (fun _ _ => 3), (fun _ _ => 1), flat_gh.
  cbn [flat_level pdx pdy]. fold flat_level.
  assert (FI : forall i j, inside flat_box i j <-> (0 <= i <= 1 /\ j = 0)%Z) by (intros; unfold inside; cbn; lia).
  assert (OK : boundary_ok flat_level [flat_hp] 2 1 1 1).
  { split; [reflexivity |]. intros hp [<- | []]. split; [split; [intros f [] | constructor] |]. cbn [flat_hp box flat_box ilo ihi jlo jhi].
    split; intros t Ht; [assert (t = 0%Z) as -> by lia | assert (t = 0 \/ t = 1)%Z as [-> | ->] by lia]; split; cbn; intros f []. }
  assert (DJ : disjoint flat_level) by (constructor; constructor).
  split; [exact OK |]. split; [exact DJ |]. split; [intros i j _; repeat split |]. split; [apply flat_cell |]. split; [reflexivity |]. split; [reflexivity |].
  split.
  { intros hp i j [<- | []] Hi. apply FI in Hi. assert (j = 0%Z) as -> by lia. assert (i = 0 \/ i = 1)%Z as [-> | ->] by lia;
      (split; [| split; [| split]]); intro N; try (exfalso; apply N; apply flat_cell; lia); reflexivity. }
  split; [exists 1, 4; split; [lra |]; intros i j _; cbn; lra |].
  split; [intros i j _; cbn; split; [rewrite Rabs_right; lra | right; apply flat_cell; pose proof (Z.mod_pos_bound i 2 ltac:(lia)); lia] |].
  split.
  - intros i j Hc. apply flat_cell in Hc. assert (Hi : inside (box flat_hp) i j) by (apply FI; lia).
    destruct (entries flat_level [flat_hp] 2 1 1 1 1 (fun _ _ => -1) (fun _ _ => -1) (fun _ _ => 1) (ConstantM 1) OK DJ (or_introl eq_refl) flat_hp i j (or_introl eq_refl) Hi) as (E1 & _ & E2).
    destruct (patch_entries flat_level [flat_hp] 2 1 1 1 (fun _ _ => -1) (fun _ _ => -1) (fun _ _ => 1) (ConstantM 1) OK flat_hp i j (or_introl eq_refl) Hi) as (E3 & _ & E4 & _).
    assert (MX : forall a, (0 <= a <= 1)%Z -> mx (level_matrix [flat_hp] 1 1 1 (fun _ _ => -1) (fun _ _ => -1) (fun _ _ => 1) (ConstantM 1)) a 0%Z = -1).
    { intros a Ha. assert (Ia : inside (box flat_hp) a 0) by (apply FI; lia).
      destruct (entries flat_level [flat_hp] 2 1 1 1 1 (fun _ _ => -1) (fun _ _ => -1) (fun _ _ => 1) (ConstantM 1) OK DJ (or_introl eq_refl) flat_hp a 0%Z (or_introl eq_refl) Ia) as (F1 & _).
      destruct (patch_entries flat_level [flat_hp] 2 1 1 1 (fun _ _ => -1) (fun _ _ => -1) (fun _ _ => 1) (ConstantM 1) OK flat_hp a 0%Z (or_introl eq_refl) Ia) as (F3 & _).
      rewrite F1, F3. cbn [flat_hp faces face_at find is_some]. rewrite andb_false_r. unfold ex, gx. field. }
    change (actual_dim [(0, 1); (0, 0)])%Z with 1%Z. unfold hypre_apply. cbn [Z.ltb Z.compare Pos.compare Pos.compare_cont]. rewrite E2, E4.
    assert (RHS : level_rhs [flat_hp] 1 1 (fun _ _ => -1) (fun _ _ => -1) (fun _ _ => 1) (ConstantM 1) true (fun _ _ => 3) i j = 3).
    { unfold level_rhs. cbn [fold_left]. destruct (in_patch_spec (box flat_hp) i j); [reflexivity | contradiction]. }
    rewrite RHS. unfold bent. cbn [flat_hp faces face_at find mvalue]. assert (j = 0%Z) as -> by lia.
    repeat match goal with |- context [if ?q then 0 else 0] => replace (if q then 0 else 0) with 0 by (destruct q; reflexivity) end.
    assert (i = 0 \/ i = 1)%Z as [-> | ->] by lia.
    + change (image_x flat_level 2 (0 - 1) 0) with (Some 1%Z). change (image_x flat_level 2 (0 + 1) 0) with (Some 1%Z). rewrite !MX by lia. field.
    + change (image_x flat_level 2 (1 - 1) 0) with (Some 0%Z). change (image_x flat_level 2 (1 + 1) 0) with (Some 0%Z). rewrite !MX by lia. field.
  - intro H. pose proof (H _ (fill_extends flat_level flat_gh _) 0%Z 0%Z ltac:(apply flat_cell; lia)) as Q. revert Q. unfold operator, fill. cbn -[Rplus Rmult Rminus Rdiv IZR]. lra.
Qed.
