From Coq Require Import Reals ZArith List Lra Lia Bool.
From Coquelicot Require Import Coquelicot.
From Verif Require Import Grid_Model Grid_Spec Grid_Proofs AntiTrap_Model.
From Verif Require AntiTrap_Spec AntiTrap_Proofs Transport_Model Transport_Proofs.
From Verif Require Import Transport_Spec Trap3_Model Trap3_Spec.
Open Scope R_scope.

Lemma inbT : forall lo hi i, (lo <= i <= hi)%Z -> inb lo hi i = true.
Proof. intros. destruct (inb_spec lo hi i); auto; lia. Qed.
Lemma sum_box3_single : forall lo0 hi0 lo1 hi1 lo2 hi2 a b c (v : Z -> Z -> Z -> R),
  sum_box3 lo0 hi0 lo1 hi1 lo2 hi2 (fun i j k => if ((i =? a) && (j =? b) && (k =? c))%Z then v i j k else 0) =
  if inb lo0 hi0 a && inb lo1 hi1 b && inb lo2 hi2 c then v a b c else 0.
Proof.
  intros. unfold sum_box3.
  rewrite (sumZ_ext lo2 hi2 _ (fun k => if (k =? c)%Z then (if inb lo0 hi0 a && inb lo1 hi1 b then v a b k else 0) else 0)).
  - rewrite (sumZ_single lo2 hi2 c (fun k => if inb lo0 hi0 a && inb lo1 hi1 b then v a b k else 0)).
    destruct (inb lo0 hi0 a); destruct (inb lo1 hi1 b); destruct (inb lo2 hi2 c); reflexivity.
  - intros k _. match goal with |- _ = ?r => change (sum_box lo0 hi0 lo1 hi1 (fun i j => if ((i =? a) && (j =? b) && (k =? c))%Z then v i j k else 0) = r) end.
    destruct (Z.eqb_spec k c) as [-> | N].
    + rewrite (sum_box_ext _ _ _ _ _ (fun i j => if ((i =? a) && (j =? b))%Z then v i j c else 0)).
      * apply (sum_box_single lo0 hi0 lo1 hi1 a b (fun i j => v i j c)).
      * intros i j _. rewrite andb_true_r. reflexivity.
    + rewrite (sum_box_ext _ _ _ _ _ (fun i j => 0)); [apply sum_box_zero |]. intros i j _. rewrite andb_false_r. reflexivity.
Qed.

(** values of the face loops *)
Lemma xfaces3_val : forall b f a i j k, xfaces3 b f a i j k =
  if inb (xl b) (xu b + 1) i && inb (yl b) (yu b) j && inb (zl b) (zu b) k then f i j k (a i j k) else a i j k.
Proof. intros. unfold xfaces3. apply cells3_loop. Qed.
Lemma yfaces3_val : forall b f a i j k, yfaces3 b f a i j k =
  if inb (xl b) (xu b) i && inb (yl b) (yu b + 1) j && inb (zl b) (zu b) k then f i j k (a i j k) else a i j k.
Proof. intros. unfold yfaces3. apply cells3_loop. Qed.
Lemma zfaces3_val : forall b f a i j k, zfaces3 b f a i j k =
  if inb (xl b) (xu b) i && inb (yl b) (yu b) j && inb (zl b) (zu b + 1) k then f i j k (a i j k) else a i j k.
Proof. intros. unfold zfaces3. apply cells3_loop. Qed.

(** ** composition flux *)
Lemma conc_turn : forall b conc phi diff coupl flux,
  same3 (concentrationflux3 (turn_box b) (turn conc) (turn phi) (turn_faces diff) (turn_faces coupl) (turn_faces flux))
        (turn_faces (concentrationflux3 b conc phi diff coupl flux)).
Proof.
  intros b conc phi [[d0 d1] d2] [[c0 c1] c2] [[f0 f1] f2] i j k. unfold turn_faces, flux0, flux1, flux2, concentrationflux3. cbn [fst snd].
  rewrite xfaces3_val, yfaces3_val, zfaces3_val. unfold turn. rewrite xfaces3_val, yfaces3_val, zfaces3_val.
  unfold turn_box. cbn [xl xu yl yu zl zu hx hy hz].
  repeat split; repeat match goal with |- context [inb ?a ?b ?c] => destruct (inb a b c) end; reflexivity.
Qed.
Lemma conc_swap : forall b conc phi diff coupl flux,
  same3 (concentrationflux3 (swap_box b) (swap conc) (swap phi) (swap_faces diff) (swap_faces coupl) (swap_faces flux))
        (swap_faces (concentrationflux3 b conc phi diff coupl flux)).
Proof.
  intros b conc phi [[d0 d1] d2] [[c0 c1] c2] [[f0 f1] f2] i j k. unfold swap_faces, flux0, flux1, flux2, concentrationflux3. cbn [fst snd].
  rewrite xfaces3_val, yfaces3_val, zfaces3_val. unfold swap. rewrite xfaces3_val, yfaces3_val, zfaces3_val.
  unfold swap_box. cbn [xl xu yl yu zl zu hx hy hz].
  repeat split; repeat match goal with |- context [inb ?a ?b ?c] => destruct (inb a b c) end; reflexivity.
Qed.
Lemma conc_flat : forall b conc phi d0 d1 d2 c0 c1 c2 f0 f1 f2,
  let two := Transport_Model.concentrationflux (xl b) (xu b) (yl b) (yu b) (hx b) (hy b) conc phi d0 d1 c0 c1 f0 f1 in
  let three := concentrationflux3 b (flat conc) (flat phi) (flat d0, flat d1, d2) (flat c0, flat c1, c2) (flat f0, flat f1, f2) in
  forall i j k, ((zl b <= k <= zu b)%Z -> flux0 three i j k = fst two i j /\ flux1 three i j k = snd two i j) /\
    (on_z b i j k -> flux2 three i j k = 0).
Proof.
  intros b conc phi d0 d1 d2 c0 c1 c2 f0 f1 f2 two three i j k. unfold two, three, Transport_Model.concentrationflux, concentrationflux3, flux0, flux1, flux2.
  cbn [fst snd]. rewrite xfaces3_val, yfaces3_val, zfaces3_val. split.
  - intro K. rewrite (inbT (zl b) (zu b) k) by auto. rewrite !andb_true_r. split.
    + rewrite (cells_loop (xl b) (xu b + 1) (yl b) (yu b) (fun i j _ => 1 / hx b * (d0 i j * (conc i j - conc (i - 1)%Z j) + c0 i j * (phi i j - phi (i - 1)%Z j)))). reflexivity.
    + rewrite (cells_loop (xl b) (xu b) (yl b) (yu b + 1) (fun i j _ => 1 / hy b * (d1 i j * (conc i j - conc i (j - 1)%Z) + c1 i j * (phi i j - phi i (j - 1)%Z)))). reflexivity.
  - intros (I & J & K). rewrite !inbT by auto. cbn [andb]. unfold flat. ring.
Qed.

(** ** the potential scattered to the faces *)
Lemma grown_obs : forall S (obs : S -> R) b (C : Z -> Z -> Z -> R) (body : Z -> Z -> Z -> S -> S) s,
  (forall i j k s, obs (body i j k s) = obs s + C i j k) ->
  obs (grown b body s) = obs s + sum_box3 (xl b - 1) (xu b + 1) (yl b - 1) (yu b + 1) (zl b - 1) (zu b + 1) C.
Proof. intros S obs b C body s H. unfold grown. apply obs_cells3. intros. apply H. Qed.
Definition in_grown (b : box3) (i j k : Z) : bool :=
  inb (xl b - 1) (xu b + 1) i && inb (yl b - 1) (yu b + 1) j && inb (zl b - 1) (zu b + 1) k.
Lemma grown_pick : forall b a c d (v : Z -> Z -> Z -> R),
  sum_box3 (xl b - 1) (xu b + 1) (yl b - 1) (yu b + 1) (zl b - 1) (zu b + 1)
    (fun i j k => if ((i =? a) && (j =? c) && (k =? d))%Z then v i j k else 0) = if in_grown b a c d then v a c d else 0.
Proof. intros. apply sum_box3_single. Qed.
Lemma upd3_eq : forall f i j k v a b c, upd3 f i j k v a b c = if ((i =? a) && (j =? b) && (k =? c))%Z then v else f a b c.
Proof. intros. unfold upd3. rewrite (Z.eqb_sym a i), (Z.eqb_sym b j), (Z.eqb_sym c k). reflexivity. Qed.
Lemma eqb_shift : forall i a, (i + 1 =? a)%Z = (i =? a - 1)%Z.
Proof. intros. destruct (Z.eqb_spec (i + 1) a); destruct (Z.eqb_spec i (a - 1)); auto; lia. Qed.

Definition scat (f : arr3) (m : arr3) (h : R) (mu : arr3) (P Q : bool) (i j k i' j' k' : Z) : R :=
  f i j k + ((if P then m i j k * (1 / h) * mu i j k else 0) - (if Q then m i j k * (1 / h) * mu i' j' k' else 0)).
Lemma two_upd : forall (f : arr3) i j k i' j' k' u w a b c, (i' <> i \/ j' <> j \/ k' <> k) ->
  upd3 (upd3 f i j k (f i j k + u)) i' j' k' (upd3 f i j k (f i j k + u) i' j' k' - w) a b c =
  f a b c + ((if ((i =? a) && (j =? b) && (k =? c))%Z then u else 0) + (if ((i' =? a) && (j' =? b) && (k' =? c))%Z then - w else 0)).
Proof.
  intros f i j k i' j' k' u w a b c N. rewrite (upd3_other f i j k) by auto. rewrite !upd3_eq.
  destruct (Z.eqb_spec i' a) as [-> |]; destruct (Z.eqb_spec j' b) as [-> |]; destruct (Z.eqb_spec k' c) as [-> |]; cbn [andb];
    try (destruct (Z.eqb_spec i a) as [-> |]; destruct (Z.eqb_spec j b) as [-> |]; destruct (Z.eqb_spec k c) as [-> |]; cbn [andb]; try ring).
  exfalso. destruct N as [N | [N | N]]; apply N; reflexivity.
Qed.
Lemma pick_if : forall (B : bool) (x y : R), (if B then x else 0) + (if B then y else 0) = if B then x + y else 0.
Proof. intros [|] x y; ring. Qed.
Section Scatter.
Variables (b : box3) (m0 m1 m2 mu : arr3).
Lemma scatter_0 : forall fl i j k,
  flux0 (grown b (fun i j k flux => scatter b m0 m1 m2 i j k (mu i j k) flux) fl) i j k =
  scat (flux0 fl) m0 (hx b) mu (in_grown b i j k) (in_grown b (i - 1) j k) i j k (i - 1) j k.
Proof.
  intros fl a c d. rewrite (grown_obs _ (fun s => flux0 s a c d) b (fun i j k =>
    (if ((i =? a) && (j =? c) && (k =? d))%Z then m0 i j k * (1 / hx b) * mu i j k else 0)
    + (if ((i =? a - 1) && (j =? c) && (k =? d))%Z then - (m0 (i + 1)%Z j k * (1 / hx b) * mu i j k) else 0))).
  - rewrite sum_box3_plus, !grown_pick. cbv beta. unfold scat. replace (a - 1 + 1)%Z with a by lia.
    destruct (in_grown b a c d); destruct (in_grown b (a - 1) c d); apply Rplus_eq_compat_l; unfold Rdiv; ring.
  - intros i j k [[g0 g1] g2]. unfold scatter, flux0. cbn [fst snd]. rewrite two_upd by lia. rewrite eqb_shift. reflexivity.
Qed.
Lemma scatter_1 : forall fl i j k,
  flux1 (grown b (fun i j k flux => scatter b m0 m1 m2 i j k (mu i j k) flux) fl) i j k =
  scat (flux1 fl) m1 (hy b) mu (in_grown b i j k) (in_grown b i (j - 1) k) i j k i (j - 1) k.
Proof.
  intros fl a c d. rewrite (grown_obs _ (fun s => flux1 s a c d) b (fun i j k =>
    (if ((i =? a) && (j =? c) && (k =? d))%Z then m1 i j k * (1 / hy b) * mu i j k else 0)
    + (if ((i =? a) && (j =? c - 1) && (k =? d))%Z then - (m1 i (j + 1)%Z k * (1 / hy b) * mu i j k) else 0))).
  - rewrite sum_box3_plus, !grown_pick. cbv beta. unfold scat. replace (c - 1 + 1)%Z with c by lia.
    destruct (in_grown b a c d); destruct (in_grown b a (c - 1) d); apply Rplus_eq_compat_l; unfold Rdiv; ring.
  - intros i j k [[g0 g1] g2]. unfold scatter, flux1. cbn [fst snd]. rewrite two_upd by lia. rewrite eqb_shift. reflexivity.
Qed.
Lemma scatter_2 : forall fl i j k,
  flux2 (grown b (fun i j k flux => scatter b m0 m1 m2 i j k (mu i j k) flux) fl) i j k =
  scat (flux2 fl) m2 (hz b) mu (in_grown b i j k) (in_grown b i j (k - 1)) i j k i j (k - 1).
Proof.
  intros fl a c d. rewrite (grown_obs _ (fun s => flux2 s a c d) b (fun i j k =>
    (if ((i =? a) && (j =? c) && (k =? d))%Z then m2 i j k * (1 / hz b) * mu i j k else 0)
    + (if ((i =? a) && (j =? c) && (k =? d - 1))%Z then - (m2 i j (k + 1)%Z * (1 / hz b) * mu i j k) else 0))).
  - rewrite sum_box3_plus, !grown_pick. cbv beta. unfold scat. replace (d - 1 + 1)%Z with d by lia.
    destruct (in_grown b a c d); destruct (in_grown b a c (d - 1)); apply Rplus_eq_compat_l; unfold Rdiv; ring.
  - intros i j k [[g0 g1] g2]. unfold scatter, flux2. cbn [fst snd]. rewrite two_upd by lia. rewrite eqb_shift. reflexivity.
Qed.
Lemma scatter_gains : forall fl, hx b <> 0 -> hy b <> 0 -> hz b <> 0 ->
  gains b m0 m1 m2 mu fl (grown b (fun i j k flux => scatter b m0 m1 m2 i j k (mu i j k) flux) fl).
Proof.
  intros fl X Y Z i j k. unfold on_x, on_y, on_z, in_box3. repeat split; intros (I & J & K);
    [rewrite scatter_0 | rewrite scatter_1 | rewrite scatter_2]; unfold scat, in_grown; rewrite !inbT by lia; cbn [andb]; field; assumption.
Qed.
End Scatter.
Lemma in_grown_turn : forall b i j k, in_grown (turn_box b) i j k = in_grown b k i j.
Proof. intros. unfold in_grown, turn_box. cbn [xl xu yl yu zl zu]. rewrite andb_comm, andb_assoc. reflexivity. Qed.
Lemma in_grown_swap : forall b i j k, in_grown (swap_box b) i j k = in_grown b j i k.
Proof. intros. unfold in_grown, swap_box. cbn [xl xu yl yu zl zu]. f_equal. apply andb_comm. Qed.
Lemma scat_ext : forall f m h mu P Q i j k i' j' k' f' m' mu' a b c a' b' c',
  f i j k = f' a b c -> m i j k = m' a b c -> (P = true -> mu i j k = mu' a b c) -> (Q = true -> mu i' j' k' = mu' a' b' c') ->
  scat f m h mu P Q i j k i' j' k' = scat f' m' h mu' P Q a b c a' b' c'.
Proof. intros f m h mu P Q i j k i' j' k' f' m' mu' a b c a' b' c' F M U V. unfold scat. rewrite F, M. destruct P, Q; rewrite ?U, ?V by reflexivity; reflexivity. Qed.

Definition ch_mu (b : box3) (conc : arr3) (ca cb ws kappa : R) : arr3 := fun i j k =>
  2 * ws * (conc i j k - ca) * (cb - conc i j k) * (cb + ca - 2 * conc i j k) - kappa * lap7 b conc i j k.
Lemma ch_grown : forall b conc mob ca cb ws kappa fl,
  add_cahnhilliard_flux3 b conc mob ca cb ws kappa fl =
  grown b (fun i j k flux => scatter b (fun _ _ _ => mob) (fun _ _ _ => mob) (fun _ _ _ => mob) i j k (ch_mu b conc ca cb ws kappa i j k) flux) fl.
Proof. reflexivity. Qed.
Lemma lap7_turn : forall b c i j k, lap7 (turn_box b) (turn c) i j k = lap7 b c k i j.
Proof. intros. unfold lap7, turn_box, turn. cbn [hx hy hz]. unfold Rdiv. ring. Qed.
Lemma lap7_swap : forall b c i j k, lap7 (swap_box b) (swap c) i j k = lap7 b c j i k.
Proof. intros. unfold lap7, swap_box, swap. cbn [hx hy hz]. unfold Rdiv. ring. Qed.
Ltac turned := match goal with
  | |- ?l = flux0 (turn_faces ?G) ?i ?j ?k => change (l = flux1 G k i j)
  | |- ?l = flux1 (turn_faces ?G) ?i ?j ?k => change (l = flux2 G k i j)
  | |- ?l = flux2 (turn_faces ?G) ?i ?j ?k => change (l = flux0 G k i j)
  | |- ?l = flux0 (turn_faces4 ?G) ?i ?j ?k ?c => change (l = flux1 G k i j c)
  | |- ?l = flux1 (turn_faces4 ?G) ?i ?j ?k ?c => change (l = flux2 G k i j c)
  | |- ?l = flux2 (turn_faces4 ?G) ?i ?j ?k ?c => change (l = flux0 G k i j c)
  | |- ?l = flux0 (swap_faces ?G) ?i ?j ?k => change (l = flux1 G j i k)
  | |- ?l = flux1 (swap_faces ?G) ?i ?j ?k => change (l = flux0 G j i k)
  | |- ?l = flux2 (swap_faces ?G) ?i ?j ?k => change (l = flux2 G j i k)
  | |- ?l = flux0 (swap_faces4 ?G) ?i ?j ?k ?c => change (l = flux1 G j i k c)
  | |- ?l = flux1 (swap_faces4 ?G) ?i ?j ?k ?c => change (l = flux0 G j i k c)
  | |- ?l = flux2 (swap_faces4 ?G) ?i ?j ?k ?c => change (l = flux2 G j i k c)
  end.
Lemma scatter_turn : forall b m0 m1 m2 mu m0' m1' m2' mu' fl,
  (forall i j k, m0' i j k = m1 k i j) -> (forall i j k, m1' i j k = m2 k i j) -> (forall i j k, m2' i j k = m0 k i j) ->
  (forall i j k, in_grown b k i j = true -> mu' i j k = mu k i j) ->
  same3 (grown (turn_box b) (fun i j k flux => scatter (turn_box b) m0' m1' m2' i j k (mu' i j k) flux) (turn_faces fl))
        (turn_faces (grown b (fun i j k flux => scatter b m0 m1 m2 i j k (mu i j k) flux) fl)).
Proof.
  intros b m0 m1 m2 mu m0' m1' m2' mu' fl M0 M1 M2 MU i j k. repeat split; turned.
  - rewrite scatter_0, scatter_1, !in_grown_turn. apply scat_ext; auto.
  - rewrite scatter_1, scatter_2, !in_grown_turn. apply scat_ext; auto.
  - rewrite scatter_2, scatter_0, !in_grown_turn. apply scat_ext; auto.
Qed.
Lemma scatter_swap : forall b m0 m1 m2 mu m0' m1' m2' mu' fl,
  (forall i j k, m0' i j k = m1 j i k) -> (forall i j k, m1' i j k = m0 j i k) -> (forall i j k, m2' i j k = m2 j i k) ->
  (forall i j k, in_grown b j i k = true -> mu' i j k = mu j i k) ->
  same3 (grown (swap_box b) (fun i j k flux => scatter (swap_box b) m0' m1' m2' i j k (mu' i j k) flux) (swap_faces fl))
        (swap_faces (grown b (fun i j k flux => scatter b m0 m1 m2 i j k (mu i j k) flux) fl)).
Proof.
  intros b m0 m1 m2 mu m0' m1' m2' mu' fl M0 M1 M2 MU i j k. repeat split; turned.
  - rewrite scatter_0, scatter_1, !in_grown_swap. apply scat_ext; auto.
  - rewrite scatter_1, scatter_0, !in_grown_swap. apply scat_ext; auto.
  - rewrite !scatter_2, !in_grown_swap. apply scat_ext; auto.
Qed.
Lemma ch_turn : forall b conc mob ca cb ws kappa fl,
  same3 (add_cahnhilliard_flux3 (turn_box b) (turn conc) mob ca cb ws kappa (turn_faces fl))
        (turn_faces (add_cahnhilliard_flux3 b conc mob ca cb ws kappa fl)).
Proof.
  intros b conc mob ca cb ws kappa fl. rewrite !ch_grown. apply scatter_turn; auto.
  intros. unfold ch_mu. rewrite lap7_turn. reflexivity.
Qed.
Lemma ch_swap : forall b conc mob ca cb ws kappa fl,
  same3 (add_cahnhilliard_flux3 (swap_box b) (swap conc) mob ca cb ws kappa (swap_faces fl))
        (swap_faces (add_cahnhilliard_flux3 b conc mob ca cb ws kappa fl)).
Proof.
  intros b conc mob ca cb ws kappa fl. rewrite !ch_grown. apply scatter_swap; auto.
  intros. unfold ch_mu. rewrite lap7_swap. reflexivity.
Qed.
(** ** the potential is the derivative of the energy *)
Lemma lap7_laplace : forall b c i j k, hx b <> 0 -> hy b <> 0 -> hz b <> 0 -> lap7 b c i j k = laplace3 b c i j k.
Proof. intros. unfold lap7, laplace3. field. auto. Qed.
Lemma ch_deriv : forall ca cb ws c, derivable_pt_lim (ch_energy ca cb ws) c (2 * ws * (c - ca) * (cb - c) * (cb + ca - 2 * c)).
Proof.
  intros ca cb ws c. apply is_derive_Reals. unfold ch_energy. auto_derive; auto. ring.
Qed.
Lemma ch_potential : forall b conc mob ca cb ws kappa fl, hx b <> 0 -> hy b <> 0 -> hz b <> 0 ->
  exists mu,
    (forall i j k, exists d, derivable_pt_lim (ch_energy ca cb ws) (conc i j k) d /\
       mu i j k = d - kappa * laplace3 b conc i j k) /\
    gains b (fun _ _ _ => mob) (fun _ _ _ => mob) (fun _ _ _ => mob) mu fl
      (add_cahnhilliard_flux3 b conc mob ca cb ws kappa fl).
Proof.
  intros b conc mob ca cb ws kappa fl X Y Z. exists (ch_mu b conc ca cb ws kappa). split.
  - intros i j k. eexists. split; [apply ch_deriv |]. unfold ch_mu. rewrite lap7_laplace by auto. reflexivity.
  - rewrite ch_grown. apply scatter_gains; auto.
Qed.

(** ** the sums of powers *)
Lemma add_obs : forall (f g : Z -> Z -> Z -> R) b (s : arr3 * arr3) i j k,
  let s' := grown b (fun i j k (s : arr3 * arr3) => let (p, q) := s in (upd3 p i j k (p i j k + f i j k), upd3 q i j k (q i j k + g i j k))) s in
  fst s' i j k = fst s i j k + (if in_grown b i j k then f i j k else 0) /\
  snd s' i j k = snd s i j k + (if in_grown b i j k then g i j k else 0).
Proof.
  intros f g b s a c d s'. unfold s'. split.
  - rewrite (grown_obs _ (fun s => fst s a c d) b (fun i j k => if ((i =? a) && (j =? c) && (k =? d))%Z then f i j k else 0)).
    + rewrite grown_pick. reflexivity.
    + intros i j k [p q]. cbn [fst]. rewrite upd3_eq.
      destruct (Z.eqb_spec i a) as [-> |]; destruct (Z.eqb_spec j c) as [-> |]; destruct (Z.eqb_spec k d) as [-> |]; cbn [andb]; ring.
  - rewrite (grown_obs _ (fun s => snd s a c d) b (fun i j k => if ((i =? a) && (j =? c) && (k =? d))%Z then g i j k else 0)).
    + rewrite grown_pick. reflexivity.
    + intros i j k [p q]. cbn [snd]. rewrite upd3_eq.
      destruct (Z.eqb_spec i a) as [-> |]; destruct (Z.eqb_spec j c) as [-> |]; destruct (Z.eqb_spec k d) as [-> |]; cbn [andb]; ring.
Qed.
Lemma fold_pair : forall A (l : list Z) (w : Z -> A * A -> A * A) (u v : Z -> A -> A) x y, (forall i x y, w i (x, y) = (u i x, v i y)) ->
  fold_left (fun s i => w i s) l (x, y) = (fold_left (fun s i => u i s) l x, fold_left (fun s i => v i s) l y).
Proof. intros A l w u v x y H. revert x y. induction l as [| a l IH]; intros x y; [reflexivity |]. cbn [fold_left]. rewrite H. apply IH. Qed.
Lemma pair_loop : forall (f g : Z -> Z -> Z -> R) b (s : arr3 * arr3) i j k,
  let s' := grown b (fun i j k (s : arr3 * arr3) => let (p, q) := s in (upd3 p i j k (f i j k), upd3 q i j k (g i j k))) s in
  fst s' i j k = (if in_grown b i j k then f i j k else fst s i j k) /\
  snd s' i j k = (if in_grown b i j k then g i j k else snd s i j k).
Proof.
  intros f g b [p q] i j k s'.
  assert (E : s' = (grown b (fun i j k s => upd3 s i j k (f i j k)) p, grown b (fun i j k s => upd3 s i j k (g i j k)) q)).
  { unfold s', grown, do_cells3, do_loop.
    apply (fold_pair arr3 _ _ (fun k s => fold_left (fun s j => fold_left (fun s i => upd3 s i j k (f i j k)) (range (xl b - 1) (xu b + 1)) s) (range (yl b - 1) (yu b + 1)) s)
                      (fun k s => fold_left (fun s j => fold_left (fun s i => upd3 s i j k (g i j k)) (range (xl b - 1) (xu b + 1)) s) (range (yl b - 1) (yu b + 1)) s)).
    intros k0 x y. apply (fold_pair arr3 _ _ (fun j s => fold_left (fun s i => upd3 s i j k0 (f i j k0)) (range (xl b - 1) (xu b + 1)) s)
                      (fun j s => fold_left (fun s i => upd3 s i j k0 (g i j k0)) (range (xl b - 1) (xu b + 1)) s)).
    intros j0 x0 y0. apply (fold_pair arr3 _ _ (fun i s => upd3 s i j0 k0 (f i j0 k0)) (fun i s => upd3 s i j0 k0 (g i j0 k0))). reflexivity. }
  rewrite E. cbn [fst snd]. unfold grown.
  rewrite (cells3_loop _ _ _ _ _ _ (fun i j k _ => f i j k)), (cells3_loop _ _ _ _ _ _ (fun i j k _ => g i j k)). split; reflexivity.
Qed.
Lemma powers_val : forall b n phi s i j k, (1 <= n)%Z -> in_grown b i j k = true ->
  fst (phi_powers3 b n phi s) i j k = sq_sum n (phi i j k) /\ snd (phi_powers3 b n phi s) i j k = cu_sum n (phi i j k).
Proof.
  intros b n phi s i j k N G. unfold phi_powers3.
  pose proof (pair_loop (fun i j k => phi i j k 1%Z * phi i j k 1%Z) (fun i j k => phi i j k 1%Z * phi i j k 1%Z * phi i j k 1%Z) b s i j k) as P.
  cbv zeta in P. rewrite G in P. destruct P as [P1 P2].
  split.
  - rewrite (obs_loop _ (fun s : arr3 * arr3 => fst s i j k) 2 n (fun ip => phi i j k ip * phi i j k ip)).
    + rewrite P1. unfold sq_sum. rewrite (sumZ_cons 1 n) by lia. replace (1 + 1)%Z with 2%Z by lia. f_equal; [ring |].
      apply sumZ_ext. intros. ring.
    + intros ip s' _. rewrite (proj1 (add_obs (fun i j k => phi i j k ip * phi i j k ip) (fun i j k => phi i j k ip * phi i j k ip * phi i j k ip) b s' i j k)).
      rewrite G. reflexivity.
  - rewrite (obs_loop _ (fun s : arr3 * arr3 => snd s i j k) 2 n (fun ip => phi i j k ip * phi i j k ip * phi i j k ip)).
    + rewrite P2. unfold cu_sum. rewrite (sumZ_cons 1 n) by lia. replace (1 + 1)%Z with 2%Z by lia. f_equal; [ring |].
      apply sumZ_ext. intros. ring.
    + intros ip s' _. rewrite (proj2 (add_obs (fun i j k => phi i j k ip * phi i j k ip) (fun i j k => phi i j k ip * phi i j k ip * phi i j k ip) b s' i j k)).
      rewrite G. reflexivity.
Qed.
Definition wang_mu (b : box3) (conc : arr3) (A B kappa : R) (w : arr3 * arr3) : arr3 := fun i j k =>
  2 * A * conc i j k * (1 - conc i j k) * (1 - 2 * conc i j k)
  + 2 * B * (conc i j k - 3 * fst w i j k + 2 * snd w i j k) - kappa * lap7 b conc i j k.
Lemma wang_grown : forall b conc d n phi mob A B kappa w fl,
  add_wang_sintering_flux3 b conc d n phi mob A B kappa w fl =
  grown b (fun i j k flux => scatter b (fun i j k => mob * flux0 d i j k) (fun i j k => mob * flux1 d i j k) (fun i j k => mob * flux2 d i j k) i j k
    (wang_mu b conc A B kappa (phi_powers3 b n phi w) i j k) flux) fl.
Proof. intros. destruct d as [[d0 d1] d2]. unfold add_wang_sintering_flux3, wang_mu. destruct (phi_powers3 b n phi w) as [p q]. reflexivity. Qed.
Lemma wang_turn : forall b conc d n phi mob A B kappa w w' fl, (1 <= n)%Z ->
  same3 (add_wang_sintering_flux3 (turn_box b) (turn conc) (turn_faces d) n (turn4 phi) mob A B kappa w' (turn_faces fl))
        (turn_faces (add_wang_sintering_flux3 b conc d n phi mob A B kappa w fl)).
Proof.
  intros. rewrite !wang_grown. apply scatter_turn; auto.
  intros i j k G. unfold wang_mu. rewrite lap7_turn.
  destruct (powers_val (turn_box b) n (turn4 phi) w' i j k H) as [-> ->]; [rewrite in_grown_turn; exact G |].
  destruct (powers_val b n phi w k i j H G) as [-> ->]. reflexivity.
Qed.
Lemma wang_swap : forall b conc d n phi mob A B kappa w w' fl, (1 <= n)%Z ->
  same3 (add_wang_sintering_flux3 (swap_box b) (swap conc) (swap_faces d) n (swap4 phi) mob A B kappa w' (swap_faces fl))
        (swap_faces (add_wang_sintering_flux3 b conc d n phi mob A B kappa w fl)).
Proof.
  intros. rewrite !wang_grown. apply scatter_swap; auto.
  intros i j k G. unfold wang_mu. rewrite lap7_swap.
  destruct (powers_val (swap_box b) n (swap4 phi) w' i j k H) as [-> ->]; [rewrite in_grown_swap; exact G |].
  destruct (powers_val b n phi w j i k H G) as [-> ->]. reflexivity.
Qed.
Lemma wang_deriv : forall A B n phi c,
  derivable_pt_lim (sintering_energy A B n phi) c (2 * A * c * (1 - c) * (1 - 2 * c) + 2 * B * (c - 3 * sq_sum n phi + 2 * cu_sum n phi)).
Proof. intros. apply is_derive_Reals. unfold sintering_energy. auto_derive; auto. ring. Qed.
Lemma wang_potential : forall b conc d n phi mob A B kappa w fl, (1 <= n)%Z -> hx b <> 0 -> hy b <> 0 -> hz b <> 0 ->
  exists mu,
    (forall i j k, in_box3 (xl b - 1) (xu b + 1) (yl b - 1) (yu b + 1) (zl b - 1) (zu b + 1) i j k ->
       exists e, derivable_pt_lim (sintering_energy A B n (phi i j k)) (conc i j k) e /\
       mu i j k = e - kappa * laplace3 b conc i j k) /\
    gains b (fun i j k => mob * flux0 d i j k) (fun i j k => mob * flux1 d i j k) (fun i j k => mob * flux2 d i j k) mu fl
      (add_wang_sintering_flux3 b conc d n phi mob A B kappa w fl).
Proof.
  intros b conc d n phi mob A B kappa w fl N X Y Z. exists (wang_mu b conc A B kappa (phi_powers3 b n phi w)). split.
  - intros i j k (I & J & K). eexists. split; [apply wang_deriv |]. unfold wang_mu. rewrite lap7_laplace by auto.
    destruct (powers_val b n phi w i j k N) as [-> ->]; [unfold in_grown; rewrite !inbT by lia |]; reflexivity.
  - rewrite wang_grown. apply scatter_gains; auto.
Qed.
(** ** fields that do not vary along z *)
Lemma laplace_flat : forall b c i j k, laplace3 b (flat c) i j k = laplace (hx b) (hy b) c i j.
Proof. intros. unfold laplace3, laplace, flat, Rdiv. ring. Qed.
Lemma ch_flat : forall b conc mob ca cb ws kappa f0 f1 f2, hx b <> 0 -> hy b <> 0 -> hz b <> 0 ->
  let two := Transport_Model.add_cahnhilliard_flux (xl b) (xu b) (yl b) (yu b) (hx b) (hy b) conc mob ca cb ws kappa (f0, f1) in
  let three := add_cahnhilliard_flux3 b (flat conc) mob ca cb ws kappa (flat f0, flat f1, f2) in
  forall i j k, (on_x b i j k -> flux0 three i j k = fst two i j) /\ (on_y b i j k -> flux1 three i j k = snd two i j) /\
    (on_z b i j k -> flux2 three i j k = f2 i j k).
Proof.
  intros b conc mob ca cb ws kappa f0 f1 f2 X Y Z two three.
  destruct (Transport_Proofs.cahn_hilliard_flux (xl b) (xu b) (yl b) (yu b) (hx b) (hy b) conc mob ca cb ws kappa (f0, f1) X Y) as (mu & D & F0 & F1).
  destruct (ch_potential b (flat conc) mob ca cb ws kappa (flat f0, flat f1, f2) X Y Z) as (mu3 & D3 & G).
  assert (E : forall i j k, mu3 i j k = mu i j).
  { intros i j k. destruct (D i j) as (d & P & ->). destruct (D3 i j k) as (d3 & P3 & ->). rewrite laplace_flat.
    rewrite (uniqueness_limite _ _ _ _ P P3). reflexivity. }
  intros i j k. destruct (G i j k) as (G0 & G1 & G2). fold three in G0, G1, G2. fold two in F0, F1. repeat split; intro H.
  - rewrite (G0 H), F0, !E by (destruct H as (? & ? & ?); split; assumption). reflexivity.
  - rewrite (G1 H), F1, !E by (destruct H as (? & ? & ?); split; assumption). reflexivity.
  - rewrite (G2 H), !E. unfold flux2. cbn [snd]. unfold Rdiv. ring.
Qed.
Lemma wang_flat : forall b conc d0 d1 d2 n phi mob A B kappa w w3 f0 f1 f2, (1 <= n)%Z -> hx b <> 0 -> hy b <> 0 -> hz b <> 0 ->
  let two := Transport_Model.add_wang_sintering_flux (xl b) (xu b) (yl b) (yu b) (hx b) (hy b) conc d0 d1 n phi mob A B kappa w (f0, f1) in
  let three := add_wang_sintering_flux3 b (flat conc) (flat d0, flat d1, d2) n (flat4 phi) mob A B kappa w3 (flat f0, flat f1, f2) in
  forall i j k, (on_x b i j k -> flux0 three i j k = fst two i j) /\ (on_y b i j k -> flux1 three i j k = snd two i j) /\
    (on_z b i j k -> flux2 three i j k = f2 i j k).
Proof.
  intros b conc d0 d1 d2 n phi mob A B kappa w w3 f0 f1 f2 N X Y Z two three.
  destruct (Transport_Proofs.sintering_flux (xl b) (xu b) (yl b) (yu b) (hx b) (hy b) conc d0 d1 n phi mob A B kappa w (f0, f1) N X Y) as (mu & D & F0 & F1).
  destruct (wang_potential b (flat conc) (flat d0, flat d1, d2) n (flat4 phi) mob A B kappa w3 (flat f0, flat f1, f2) N X Y Z) as (mu3 & D3 & G).
  assert (E : forall i j k, in_box3 (xl b - 1) (xu b + 1) (yl b - 1) (yu b + 1) (zl b - 1) (zu b + 1) i j k -> mu3 i j k = mu i j).
  { intros i j k I. destruct (D i j) as (d & P & ->). { destruct I as (? & ? & ?). split; assumption. }
    destruct (D3 i j k I) as (d3 & P3 & ->). rewrite laplace_flat.
    rewrite (uniqueness_limite _ _ _ _ P P3). reflexivity. }
  intros i j k. destruct (G i j k) as (G0 & G1 & G2). fold three in G0, G1, G2. fold two in F0, F1. repeat split; intro H.
  - rewrite (G0 H), F0 by (destruct H as (? & ? & ?); split; assumption).
    rewrite !E by (destruct H as (? & ? & ?); unfold in_box3; lia). reflexivity.
  - rewrite (G1 H), F1 by (destruct H as (? & ? & ?); split; assumption).
    rewrite !E by (destruct H as (? & ? & ?); unfold in_box3; lia). reflexivity.
  - rewrite (G2 H), !E by (destruct H as (? & ? & ?); unfold in_box3; lia). unfold flux2. cbn [snd]. unfold Rdiv. ring.
Qed.

(** ** anti-trapping, two phases *)
Definition contrib3 (gx gy gz g alpha dc dpdt : R) : R :=
  if gtb (gx * gx + gy * gy + gz * gz) at_tol2 then alpha * (g / sqrt (gx * gx + gy * gy + gz * gz)) * dc * dpdt else 0.
Lemma sq3_pos : forall x y z, 0 <= x * x + y * y + z * z.
Proof. intros. pose proof (Rle_0_sqr x). pose proof (Rle_0_sqr y). pose proof (Rle_0_sqr z). unfold Rsqr in *. lra. Qed.
Lemma gtb_abs3 : forall x y z, gtb (Rabs (x * x + y * y + z * z)) at_tol2 = gtb (x * x + y * y + z * z) at_tol2.
Proof. intros. rewrite Rabs_right; auto. pose proof (sq3_pos x y z). lra. Qed.
Lemma contrib3_cycle : forall x y z g a dc dp, contrib3 x y z g a dc dp = contrib3 z x y g a dc dp.
Proof. intros. unfold contrib3. replace (z * z + x * x + y * y) with (x * x + y * y + z * z) by ring. reflexivity. Qed.
Lemma contrib3_swap : forall x y z g a dc dp, contrib3 x y z g a dc dp = contrib3 y x z g a dc dp.
Proof. intros. unfold contrib3. replace (y * y + x * x + z * z) with (x * x + y * y + z * z) by ring. reflexivity. Qed.
Lemma upd4_eq : forall f i j k l v a b c d, upd4 f i j k l v a b c d = if ((i =? a) && (j =? b) && (k =? c) && (l =? d))%Z then v else f a b c d.
Proof. intros. unfold upd4. rewrite (Z.eqb_sym a i), (Z.eqb_sym b j), (Z.eqb_sym c k), (Z.eqb_sym d l). reflexivity. Qed.
Lemma loop_upd4 : forall n (v : Z -> R) (f : arr4) i j k a b c d,
  do_loop 1 n (fun ic f => upd4 f i j k ic (f i j k ic + v ic)) f a b c d =
  f a b c d + (if ((i =? a) && (j =? b) && (k =? c))%Z then (if inb 1 n d then v d else 0) else 0).
Proof.
  intros n v f i j k a b c d.
  rewrite (obs_loop _ (fun s : arr4 => s a b c d) 1 n (fun ic => if (ic =? d)%Z then (if ((i =? a) && (j =? b) && (k =? c))%Z then v ic else 0) else 0)).
  - f_equal. rewrite (sumZ_single 1 n d (fun ic => if ((i =? a) && (j =? b) && (k =? c))%Z then v ic else 0)).
    destruct ((i =? a) && (j =? b) && (k =? c))%Z; destruct (inb 1 n d); reflexivity.
  - intros ic s _. rewrite upd4_eq.
    destruct (Z.eqb_spec i a) as [-> |]; destruct (Z.eqb_spec j b) as [-> |]; destruct (Z.eqb_spec k c) as [-> |]; destruct (Z.eqb_spec ic d) as [-> |]; cbn [andb]; ring.
Qed.
Lemma trap_face_val : forall alpha gx gy gz g dpdt n cl ca i j k i' j' k' (f : arr4) a b c d,
  trap_face alpha gx gy gz g dpdt n cl ca i j k i' j' k' f a b c d =
  f a b c d + (if ((i =? a) && (j =? b) && (k =? c))%Z then
     (if inb 1 n d then contrib3 gx gy gz g alpha (mean (cl i' j' k' d) (cl i j k d) - mean (ca i' j' k' d) (ca i j k d)) dpdt else 0) else 0).
Proof.
  intros. unfold trap_face, contrib3. cbv zeta. rewrite gtb_abs3. destruct (gtb _ at_tol2).
  - rewrite (loop_upd4 n (fun ic => alpha * (g / sqrt (gx * gx + gy * gy + gz * gz)) * (1 / 2 * (cl i' j' k' ic + cl i j k ic) - 1 / 2 * (ca i' j' k' ic + ca i j k ic)) * dpdt)).
    destruct ((i =? a) && (j =? b) && (k =? c))%Z; destruct (inb 1 n d); auto. unfold mean, Rdiv. ring.
  - destruct ((i =? a) && (j =? b) && (k =? c))%Z; destruct (inb 1 n d); ring.
Qed.
Section Two.
Variables (b : box3) (phase : arr3) (cl ca : arr4) (ncomp : Z) (dphidt : arr3) (alpha : R).
Definition two_x i j k d := contrib3 (xx b phase i j k) (xy b phase i j k) (xz b phase i j k) (xx b phase i j k) alpha
  (mean (cl (i - 1)%Z j k d) (cl i j k d) - mean (ca (i - 1)%Z j k d) (ca i j k d)) (mean (dphidt (i - 1)%Z j k) (dphidt i j k)).
Definition two_y i j k d := contrib3 (yx b phase i j k) (yy b phase i j k) (yz b phase i j k) (yy b phase i j k) alpha
  (mean (cl i (j - 1)%Z k d) (cl i j k d) - mean (ca i (j - 1)%Z k d) (ca i j k d)) (mean (dphidt i (j - 1)%Z k) (dphidt i j k)).
Definition two_z i j k d := contrib3 (zx b phase i j k) (zy b phase i j k) (zz b phase i j k) (zz b phase i j k) alpha
  (mean (cl i j (k - 1)%Z d) (cl i j k d) - mean (ca i j (k - 1)%Z d) (ca i j k d)) (mean (dphidt i j (k - 1)%Z) (dphidt i j k)).
Lemma half_mean : forall x y, 1 / 2 * (x + y) = mean x y.
Proof. intros. unfold mean. field. Qed.
Lemma two_0 : forall fl i j k d, flux0 (antitrapping_3d b phase cl ca ncomp dphidt alpha fl) i j k d = flux0 fl i j k d +
  (if inb (xl b) (xu b + 1) i && inb (yl b) (yu b) j && inb (zl b) (zu b) k then (if inb 1 ncomp d then two_x i j k d else 0) else 0).
Proof.
  intros [[f0 f1] f2] a c e d. unfold antitrapping_3d, flux0. cbn [fst].
  rewrite (obs_cells3 _ (fun s : arr4 => s a c e d) (xl b) (xu b + 1) (yl b) (yu b) (zl b) (zu b)
    (fun i j k => if ((i =? a) && (j =? c) && (k =? e))%Z then (if inb 1 ncomp d then two_x i j k d else 0) else 0)).
  - f_equal. apply (sum_box3_single _ _ _ _ _ _ a c e (fun i j k => if inb 1 ncomp d then two_x i j k d else 0)).
  - intros i j k s _. rewrite trap_face_val, half_mean. reflexivity.
Qed.
Lemma two_1 : forall fl i j k d, flux1 (antitrapping_3d b phase cl ca ncomp dphidt alpha fl) i j k d = flux1 fl i j k d +
  (if inb (xl b) (xu b) i && inb (yl b) (yu b + 1) j && inb (zl b) (zu b) k then (if inb 1 ncomp d then two_y i j k d else 0) else 0).
Proof.
  intros [[f0 f1] f2] a c e d. unfold antitrapping_3d, flux1. cbn [fst snd].
  rewrite (obs_cells3 _ (fun s : arr4 => s a c e d) (xl b) (xu b) (yl b) (yu b + 1) (zl b) (zu b)
    (fun i j k => if ((i =? a) && (j =? c) && (k =? e))%Z then (if inb 1 ncomp d then two_y i j k d else 0) else 0)).
  - f_equal. apply (sum_box3_single _ _ _ _ _ _ a c e (fun i j k => if inb 1 ncomp d then two_y i j k d else 0)).
  - intros i j k s _. rewrite trap_face_val, half_mean. reflexivity.
Qed.
Lemma two_2 : forall fl i j k d, flux2 (antitrapping_3d b phase cl ca ncomp dphidt alpha fl) i j k d = flux2 fl i j k d +
  (if inb (xl b) (xu b) i && inb (yl b) (yu b) j && inb (zl b) (zu b + 1) k then (if inb 1 ncomp d then two_z i j k d else 0) else 0).
Proof.
  intros [[f0 f1] f2] a c e d. unfold antitrapping_3d, flux2. cbn [fst snd].
  rewrite (obs_cells3 _ (fun s : arr4 => s a c e d) (xl b) (xu b) (yl b) (yu b) (zl b) (zu b + 1)
    (fun i j k => if ((i =? a) && (j =? c) && (k =? e))%Z then (if inb 1 ncomp d then two_z i j k d else 0) else 0)).
  - f_equal. apply (sum_box3_single _ _ _ _ _ _ a c e (fun i j k => if inb 1 ncomp d then two_z i j k d else 0)).
  - intros i j k s _. rewrite trap_face_val, half_mean. reflexivity.
Qed.
End Two.
(** gradients after renaming the axes *)
Lemma turn_grads : forall b p i j k,
  xx (turn_box b) (turn p) i j k = yy b p k i j /\ xy (turn_box b) (turn p) i j k = yz b p k i j /\ xz (turn_box b) (turn p) i j k = yx b p k i j /\
  yy (turn_box b) (turn p) i j k = zz b p k i j /\ yx (turn_box b) (turn p) i j k = zy b p k i j /\ yz (turn_box b) (turn p) i j k = zx b p k i j /\
  zz (turn_box b) (turn p) i j k = xx b p k i j /\ zx (turn_box b) (turn p) i j k = xy b p k i j /\ zy (turn_box b) (turn p) i j k = xz b p k i j.
Proof. intros. unfold xx, xy, xz, yy, yx, yz, zz, zx, zy, turn, turn_box, Rdiv. cbn [hx hy hz]. repeat split; ring. Qed.
Lemma swap_grads : forall b p i j k,
  xx (swap_box b) (swap p) i j k = yy b p j i k /\ xy (swap_box b) (swap p) i j k = yx b p j i k /\ xz (swap_box b) (swap p) i j k = yz b p j i k /\
  yy (swap_box b) (swap p) i j k = xx b p j i k /\ yx (swap_box b) (swap p) i j k = xy b p j i k /\ yz (swap_box b) (swap p) i j k = xz b p j i k /\
  zz (swap_box b) (swap p) i j k = zz b p j i k /\ zx (swap_box b) (swap p) i j k = zy b p j i k /\ zy (swap_box b) (swap p) i j k = zx b p j i k.
Proof. intros. unfold xx, xy, xz, yy, yx, yz, zz, zx, zy, swap, swap_box, Rdiv. cbn [hx hy hz]. repeat split; ring. Qed.
Ltac inbs := repeat match goal with |- context [inb ?a ?b ?c] => destruct (inb a b c) end; cbn [andb].
Lemma two_turn : forall b phase cl ca n dphidt alpha fl,
  same4 (antitrapping_3d (turn_box b) (turn phase) (turn4 cl) (turn4 ca) n (turn dphidt) alpha (turn_faces4 fl))
        (turn_faces4 (antitrapping_3d b phase cl ca n dphidt alpha fl)).
Proof.
  intros b phase cl ca n dphidt alpha fl i j k d.
  destruct (turn_grads b phase i j k) as (E1 & E2 & E3 & E4 & E5 & E6 & E7 & E8 & E9).
  assert (X : two_x (turn_box b) (turn phase) (turn4 cl) (turn4 ca) (turn dphidt) alpha i j k d = two_y b phase cl ca dphidt alpha k i j d).
  { unfold two_x, two_y. rewrite E1, E2, E3, contrib3_cycle. reflexivity. }
  assert (Y : two_y (turn_box b) (turn phase) (turn4 cl) (turn4 ca) (turn dphidt) alpha i j k d = two_z b phase cl ca dphidt alpha k i j d).
  { unfold two_y, two_z. rewrite E4, E5, E6, contrib3_cycle. reflexivity. }
  assert (Z : two_z (turn_box b) (turn phase) (turn4 cl) (turn4 ca) (turn dphidt) alpha i j k d = two_x b phase cl ca dphidt alpha k i j d).
  { unfold two_z, two_x. rewrite E7, E8, E9, contrib3_cycle. reflexivity. }
  repeat split; turned.
  - rewrite two_0, two_1, X. unfold turn_faces4, turn_box, flux0, flux1, turn4. cbn [fst snd xl xu yl yu zl zu]. inbs; reflexivity.
  - rewrite two_1, two_2, Y. unfold turn_faces4, turn_box, flux2, flux1, turn4. cbn [fst snd xl xu yl yu zl zu]. inbs; reflexivity.
  - rewrite two_2, two_0, Z. unfold turn_faces4, turn_box, flux0, flux2, turn4. cbn [fst snd xl xu yl yu zl zu]. inbs; reflexivity.
Qed.
Lemma two_swap : forall b phase cl ca n dphidt alpha fl,
  same4 (antitrapping_3d (swap_box b) (swap phase) (swap4 cl) (swap4 ca) n (swap dphidt) alpha (swap_faces4 fl))
        (swap_faces4 (antitrapping_3d b phase cl ca n dphidt alpha fl)).
Proof.
  intros b phase cl ca n dphidt alpha fl i j k d.
  destruct (swap_grads b phase i j k) as (E1 & E2 & E3 & E4 & E5 & E6 & E7 & E8 & E9).
  assert (X : two_x (swap_box b) (swap phase) (swap4 cl) (swap4 ca) (swap dphidt) alpha i j k d = two_y b phase cl ca dphidt alpha j i k d).
  { unfold two_x, two_y. rewrite E1, E2, E3, contrib3_swap. reflexivity. }
  assert (Y : two_y (swap_box b) (swap phase) (swap4 cl) (swap4 ca) (swap dphidt) alpha i j k d = two_x b phase cl ca dphidt alpha j i k d).
  { unfold two_y, two_x. rewrite E4, E5, E6, contrib3_swap. reflexivity. }
  assert (Z : two_z (swap_box b) (swap phase) (swap4 cl) (swap4 ca) (swap dphidt) alpha i j k d = two_z b phase cl ca dphidt alpha j i k d).
  { unfold two_z. rewrite E7, E8, E9, contrib3_swap. reflexivity. }
  repeat split; turned.
  - rewrite two_0, two_1, X. unfold swap_faces4, swap_box, flux0, flux1, swap4. cbn [fst snd xl xu yl yu zl zu]. inbs; reflexivity.
  - rewrite two_1, two_0, Y. unfold swap_faces4, swap_box, flux0, flux1, swap4. cbn [fst snd xl xu yl yu zl zu]. inbs; reflexivity.
  - rewrite !two_2, Z. unfold swap_faces4, swap_box, flux0, flux2, swap4. cbn [fst snd xl xu yl yu zl zu]. inbs; reflexivity.
Qed.
Lemma flat_grads : forall b p i j k,
  xx b (flat p) i j k = xface_dx (hx b) p i j /\ xy b (flat p) i j k = xface_dy (hy b) p i j /\ xz b (flat p) i j k = 0 /\
  yy b (flat p) i j k = yface_dy (hy b) p i j /\ yx b (flat p) i j k = yface_dx (hx b) p i j /\ yz b (flat p) i j k = 0 /\
  zz b (flat p) i j k = 0.
Proof. intros. unfold xx, xy, xz, yy, yx, yz, zz, xface_dx, xface_dy, yface_dx, yface_dy, flat, Rdiv. repeat split; ring. Qed.
Lemma contrib3_flat : forall x y g a dc dp, contrib3 x y 0 g a dc dp = AntiTrap_Proofs.contrib x y g a dc dp.
Proof. intros. unfold contrib3, AntiTrap_Proofs.contrib. replace (x * x + y * y + 0 * 0) with (x * x + y * y) by ring. reflexivity. Qed.
Lemma contrib3_zero : forall x y z a dc dp, contrib3 x y z 0 a dc dp = 0.
Proof. intros. unfold contrib3. destruct (gtb _ _); unfold Rdiv; ring. Qed.
Lemma two_flat : forall b phase cl ca n dphidt alpha f0 f1 f2,
  let two := antitrapping (xl b) (xu b) (yl b) (yu b) (hx b) (hy b) phase cl ca n dphidt alpha (f0, f1) in
  let three := antitrapping_3d b (flat phase) (flat4 cl) (flat4 ca) n (flat dphidt) alpha (flat4 f0, flat4 f1, f2) in
  forall i j k c, ((zl b <= k <= zu b)%Z -> flux0 three i j k c = fst two i j c /\ flux1 three i j k c = snd two i j c) /\
    flux2 three i j k c = f2 i j k c.
Proof.
  intros b phase cl ca n dphidt alpha f0 f1 f2 two three i j k c.
  destruct (flat_grads b phase i j k) as (E1 & E2 & E3 & E4 & E5 & E6 & E7). split; [intro K; split |].
  - unfold two, three. rewrite two_0, AntiTrap_Proofs.two_fst, (inbT (zl b) (zu b) k), andb_true_r by auto.
    unfold two_x, AntiTrap_Proofs.two_x. rewrite E1, E2, E3, contrib3_flat. reflexivity.
  - unfold two, three. rewrite two_1, AntiTrap_Proofs.two_snd, (inbT (zl b) (zu b) k), andb_true_r by auto.
    unfold two_y, AntiTrap_Proofs.two_y. rewrite E4, E5, E6, contrib3_flat. reflexivity.
  - unfold three. rewrite two_2. unfold two_z. rewrite E7, contrib3_zero. unfold flux2. cbn [snd]. inbs; ring.
Qed.
(** ** bound, direction, interface at rest: two phases *)
Lemma comp_le_norm3 : forall x y z, 0 < x * x + y * y + z * z -> Rabs (x / sqrt (x * x + y * y + z * z)) <= 1.
Proof.
  intros x y z H. pose proof (sqrt_lt_R0 _ H) as HS. unfold Rdiv. rewrite Rabs_mult, (Rabs_right (/ _)) by (left; apply Rinv_0_lt_compat; auto).
  apply Rmult_le_reg_r with (sqrt (x * x + y * y + z * z)); auto.
  rewrite Rmult_assoc, Rinv_l, Rmult_1_r, Rmult_1_l by lra.
  rewrite <- sqrt_Rsqr_abs. apply sqrt_le_1_alt. unfold Rsqr. pose proof (Rle_0_sqr y). pose proof (Rle_0_sqr z). unfold Rsqr in *. lra.
Qed.
Lemma contrib3_bound : forall x y z alpha dc dpdt, Rabs (contrib3 x y z x alpha dc dpdt) <= Rabs alpha * Rabs dc * Rabs dpdt.
Proof.
  intros. unfold contrib3. destruct (gtb _ at_tol2) eqn:E.
  - apply AntiTrap_Proofs.gtb_true in E. pose proof AntiTrap_Proofs.at_tol2_pos.
    rewrite !Rabs_mult. pose proof (comp_le_norm3 x y z ltac:(lra)) as B.
    assert (0 <= Rabs alpha * Rabs dc * Rabs dpdt) by (repeat apply Rmult_le_pos; apply Rabs_pos).
    set (q := Rabs (x / sqrt (x * x + y * y + z * z))) in *.
    replace (Rabs alpha * q * Rabs dc * Rabs dpdt) with (q * (Rabs alpha * Rabs dc * Rabs dpdt)) by ring.
    rewrite <- (Rmult_1_l (Rabs alpha * Rabs dc * Rabs dpdt)) at 2. apply Rmult_le_compat_r; auto.
  - rewrite Rabs_R0. repeat apply Rmult_le_pos; apply Rabs_pos.
Qed.
Lemma bound_case : forall (q r : bool) v old B, 0 <= B -> Rabs v <= B -> Rabs (old + (if q then (if r then v else 0) else 0) - old) <= B.
Proof. intros q r v old B P H. destruct q; [destruct r |]; match goal with |- Rabs ?x <= _ => first [replace x with v by ring; exact H | replace x with 0 by ring; rewrite Rabs_R0; exact P] end. Qed.
Lemma two3_bounded : forall b phase cl ca ncomp dphidt alpha fl i j k c,
  let fl' := antitrapping_3d b phase cl ca ncomp dphidt alpha fl in
  Rabs (flux0 fl' i j k c - flux0 fl i j k c) <=
    Rabs alpha * Rabs (mean (cl (i - 1)%Z j k c) (cl i j k c) - mean (ca (i - 1)%Z j k c) (ca i j k c)) * Rabs (mean (dphidt (i - 1)%Z j k) (dphidt i j k)) /\
  Rabs (flux1 fl' i j k c - flux1 fl i j k c) <=
    Rabs alpha * Rabs (mean (cl i (j - 1)%Z k c) (cl i j k c) - mean (ca i (j - 1)%Z k c) (ca i j k c)) * Rabs (mean (dphidt i (j - 1)%Z k) (dphidt i j k)) /\
  Rabs (flux2 fl' i j k c - flux2 fl i j k c) <=
    Rabs alpha * Rabs (mean (cl i j (k - 1)%Z c) (cl i j k c) - mean (ca i j (k - 1)%Z c) (ca i j k c)) * Rabs (mean (dphidt i j (k - 1)%Z) (dphidt i j k)).
Proof.
  intros. unfold fl'. rewrite two_0, two_1, two_2. unfold two_x, two_y, two_z. repeat split; apply bound_case;
    try (repeat apply Rmult_le_pos; apply Rabs_pos).
  - apply contrib3_bound.
  - rewrite contrib3_swap. apply contrib3_bound.
  - rewrite contrib3_cycle. apply contrib3_bound.
Qed.
Lemma contrib3_pos : forall g y z alpha dc dp, 0 < alpha -> 0 < dc -> 0 < dp -> at_tol < g -> 0 < contrib3 g y z g alpha dc dp.
Proof.
  intros g y z alpha dc dp A D P G. unfold contrib3.
  assert (Ht : 0 < at_tol) by (unfold at_tol; apply Rinv_0_lt_compat; apply pow_lt; lra).
  assert (Hn : at_tol2 < g * g + y * y + z * z).
  { pose proof (Rle_0_sqr y). pose proof (Rle_0_sqr z). unfold Rsqr in *. unfold at_tol2.
    assert (at_tol * at_tol < g * g) by (apply Rmult_gt_0_lt_compat; lra). lra. }
  destruct (gtb _ at_tol2) eqn:E; [| exfalso; apply AntiTrap_Proofs.gtb_true in Hn; congruence].
  assert (0 < sqrt (g * g + y * y + z * z)) by (apply sqrt_lt_R0; pose proof AntiTrap_Proofs.at_tol2_pos; lra).
  assert (0 < g / sqrt (g * g + y * y + z * z)) by (apply Rdiv_lt_0_compat; lra).
  apply Rmult_lt_0_compat; [apply Rmult_lt_0_compat; [apply Rmult_lt_0_compat |] |]; lra.
Qed.
Lemma steep : forall h p q, 0 < h -> at_tol * h < p - q -> at_tol < 1 / h * (p - q).
Proof. intros. apply Rmult_lt_reg_l with h; auto. replace (h * (1 / h * (p - q))) with (p - q) by (field; lra). lra. Qed.
Lemma two3_direction : forall b phase cl ca ncomp dphidt alpha fl i j k c, 0 < alpha -> (1 <= c <= ncomp)%Z ->
  let fl' := antitrapping_3d b phase cl ca ncomp dphidt alpha fl in
  (0 < hx b -> on_x b i j k -> mean (ca (i - 1)%Z j k c) (ca i j k c) < mean (cl (i - 1)%Z j k c) (cl i j k c) ->
     0 < mean (dphidt (i - 1)%Z j k) (dphidt i j k) -> at_tol * hx b < phase i j k - phase (i - 1)%Z j k ->
     flux0 fl i j k c < flux0 fl' i j k c) /\
  (0 < hy b -> on_y b i j k -> mean (ca i (j - 1)%Z k c) (ca i j k c) < mean (cl i (j - 1)%Z k c) (cl i j k c) ->
     0 < mean (dphidt i (j - 1)%Z k) (dphidt i j k) -> at_tol * hy b < phase i j k - phase i (j - 1)%Z k ->
     flux1 fl i j k c < flux1 fl' i j k c) /\
  (0 < hz b -> on_z b i j k -> mean (ca i j (k - 1)%Z c) (ca i j k c) < mean (cl i j (k - 1)%Z c) (cl i j k c) ->
     0 < mean (dphidt i j (k - 1)%Z) (dphidt i j k) -> at_tol * hz b < phase i j k - phase i j (k - 1)%Z ->
     flux2 fl i j k c < flux2 fl' i j k c).
Proof.
  intros b phase cl ca ncomp dphidt alpha fl i j k c A C fl'. unfold fl'. rewrite two_0, two_1, two_2.
  repeat split; intros H O D P G; destruct O as (O0 & O1 & O2); rewrite !inbT by auto; cbn [andb];
    match goal with |- ?a < _ => rewrite <- (Rplus_0_r a) at 1 end; apply Rplus_lt_compat_l.
  - unfold two_x. apply contrib3_pos; auto; [lra |]. apply steep; auto.
  - unfold two_y. rewrite contrib3_swap. apply contrib3_pos; auto; [lra |]. apply steep; auto.
  - unfold two_z. rewrite contrib3_cycle. apply contrib3_pos; auto; [lra |]. apply steep; auto.
Qed.

(** ** three phases *)
Definition contrib33 (lx ly lz l sx sy sz alpha dc dpdt : R) : R :=
  if gtb (lx * lx + ly * ly + lz * lz) at_tol2 then
    if gtb (sx * sx + sy * sy + sz * sz) at_tol2 then
      alpha * (- 1 * (sx * lx + sy * ly + sz * lz) / (sqrt (sx * sx + sy * sy + sz * sz) * sqrt (lx * lx + ly * ly + lz * lz)))
        * (l / sqrt (lx * lx + ly * ly + lz * lz)) * dc * dpdt else 0
  else 0.
Lemma contrib33_cycle : forall x y z l x' y' z' a dc dp, contrib33 x y z l x' y' z' a dc dp = contrib33 z x y l z' x' y' a dc dp.
Proof. intros. unfold contrib33. replace (z * z + x * x + y * y) with (x * x + y * y + z * z) by ring. replace (z' * z' + x' * x' + y' * y') with (x' * x' + y' * y' + z' * z') by ring.
  replace (z' * z + x' * x + y' * y) with (x' * x + y' * y + z' * z) by ring. reflexivity. Qed.
Lemma contrib33_swap : forall x y z l x' y' z' a dc dp, contrib33 x y z l x' y' z' a dc dp = contrib33 y x z l y' x' z' a dc dp.
Proof. intros. unfold contrib33. replace (y * y + x * x + z * z) with (x * x + y * y + z * z) by ring. replace (y' * y' + x' * x' + z' * z') with (x' * x' + y' * y' + z' * z') by ring.
  replace (y' * y + x' * x + z' * z) with (x' * x + y' * y + z' * z) by ring. reflexivity. Qed.
Lemma trap3_val : forall alpha (gx gy gz : Z -> R) n rate ac old,
  trap3_face alpha (fun p => (gx p, gy p, gz p)) n rate ac old =
  old + (contrib33 (gx 1%Z) (gy 1%Z) (gz 1%Z) (n (gx 1%Z, gy 1%Z, gz 1%Z)) (gx 2%Z) (gy 2%Z) (gz 2%Z) alpha (ac 1%Z - ac 2%Z) (rate 2%Z)
       + contrib33 (gx 1%Z) (gy 1%Z) (gz 1%Z) (n (gx 1%Z, gy 1%Z, gz 1%Z)) (gx 3%Z) (gy 3%Z) (gz 3%Z) alpha (ac 1%Z - ac 3%Z) (rate 3%Z)).
Proof.
  intros. unfold trap3_face. rewrite gtb_abs3.
  set (C := fun p => contrib33 (gx 1%Z) (gy 1%Z) (gz 1%Z) (n (gx 1%Z, gy 1%Z, gz 1%Z)) (gx p) (gy p) (gz p) alpha (ac 1%Z - ac p) (rate p)).
  destruct (gtb (gx 1%Z * _ + _ + _) at_tol2) eqn:E.
  - rewrite (obs_loop _ (fun s : R => s) 2 3 C).
    + rewrite !(sumZ_cons _ 3) by lia. rewrite sumZ_empty by lia. change (2 + 1)%Z with 3%Z. unfold C. ring.
    + intros p s _. rewrite gtb_abs3. unfold C, contrib33. rewrite E. destruct (gtb (gx p * _ + _ + _) at_tol2); unfold Rdiv; ring.
  - unfold contrib33. rewrite E. ring.
Qed.
Definition conc33 (cl ca cb : arr3) (p : Z) : arr3 := if (p =? 1)%Z then cl else if (p =? 2)%Z then ca else cb.
Lemma ac33 : forall (cl ca cb : arr3) p i j k i' j' k',
  ac3 (1 / 2 * (cl i' j' k' + cl i j k)) (1 / 2 * (ca i' j' k' + ca i j k)) (1 / 2 * (cb i' j' k' + cb i j k)) p
  = mean (conc33 cl ca cb p i' j' k') (conc33 cl ca cb p i j k).
Proof. intros. unfold ac3, conc33, mean. destruct (p =? 1)%Z; [field |]. destruct (p =? 2)%Z; field. Qed.
Section Three.
Variables (b : box3) (phase : arr4) (cl ca cb : arr3) (dphidt : arr4) (alpha : R).
Definition th_x p i j k := let g q := part phase q in
  contrib33 (xx b (g 1%Z) i j k) (xy b (g 1%Z) i j k) (xz b (g 1%Z) i j k) (xx b (g 1%Z) i j k) (xx b (g p) i j k) (xy b (g p) i j k) (xz b (g p) i j k) alpha
  (mean (cl (i - 1)%Z j k) (cl i j k) - mean (conc33 cl ca cb p (i - 1)%Z j k) (conc33 cl ca cb p i j k)) (mean (dphidt (i - 1)%Z j k p) (dphidt i j k p)).
Definition th_y p i j k := let g q := part phase q in
  contrib33 (yx b (g 1%Z) i j k) (yy b (g 1%Z) i j k) (yz b (g 1%Z) i j k) (yy b (g 1%Z) i j k) (yx b (g p) i j k) (yy b (g p) i j k) (yz b (g p) i j k) alpha
  (mean (cl i (j - 1)%Z k) (cl i j k) - mean (conc33 cl ca cb p i (j - 1)%Z k) (conc33 cl ca cb p i j k)) (mean (dphidt i (j - 1)%Z k p) (dphidt i j k p)).
Definition th_z p i j k := let g q := part phase q in
  contrib33 (zx b (g 1%Z) i j k) (zy b (g 1%Z) i j k) (zz b (g 1%Z) i j k) (zz b (g 1%Z) i j k) (zx b (g p) i j k) (zy b (g p) i j k) (zz b (g p) i j k) alpha
  (mean (cl i j (k - 1)%Z) (cl i j k) - mean (conc33 cl ca cb p i j (k - 1)%Z) (conc33 cl ca cb p i j k)) (mean (dphidt i j (k - 1)%Z p) (dphidt i j k p)).
Lemma th_0 : forall fl i j k, flux0 (antitrapping3_3d b phase cl ca cb dphidt alpha fl) i j k = flux0 fl i j k +
  (if inb (xl b) (xu b + 1) i && inb (yl b) (yu b) j && inb (zl b) (zu b) k then th_x 2 i j k + th_x 3 i j k else 0).
Proof.
  intros [[f0 f1] f2] i j k. unfold antitrapping3_3d, flux0. cbn [fst]. rewrite xfaces3_val. destruct (_ && _ && _); [| ring].
  rewrite (trap3_val alpha (fun p => xx b (part phase p) i j k) (fun p => xy b (part phase p) i j k) (fun p => xz b (part phase p) i j k)), !ac33, !half_mean. reflexivity.
Qed.
Lemma th_1 : forall fl i j k, flux1 (antitrapping3_3d b phase cl ca cb dphidt alpha fl) i j k = flux1 fl i j k +
  (if inb (xl b) (xu b) i && inb (yl b) (yu b + 1) j && inb (zl b) (zu b) k then th_y 2 i j k + th_y 3 i j k else 0).
Proof.
  intros [[f0 f1] f2] i j k. unfold antitrapping3_3d, flux1. cbn [fst snd]. rewrite yfaces3_val. destruct (_ && _ && _); [| ring].
  rewrite (trap3_val alpha (fun p => yx b (part phase p) i j k) (fun p => yy b (part phase p) i j k) (fun p => yz b (part phase p) i j k)), !ac33, !half_mean. reflexivity.
Qed.
Lemma th_2 : forall fl i j k, flux2 (antitrapping3_3d b phase cl ca cb dphidt alpha fl) i j k = flux2 fl i j k +
  (if inb (xl b) (xu b) i && inb (yl b) (yu b) j && inb (zl b) (zu b + 1) k then th_z 2 i j k + th_z 3 i j k else 0).
Proof.
  intros [[f0 f1] f2] i j k. unfold antitrapping3_3d, flux2. cbn [fst snd]. rewrite zfaces3_val. destruct (_ && _ && _); [| ring].
  rewrite (trap3_val alpha (fun p => zx b (part phase p) i j k) (fun p => zy b (part phase p) i j k) (fun p => zz b (part phase p) i j k)), !ac33, !half_mean. reflexivity.
Qed.
End Three.
Lemma conc33_turn : forall cl ca cb p i j k, conc33 (turn cl) (turn ca) (turn cb) p i j k = conc33 cl ca cb p k i j.
Proof. intros. unfold conc33. destruct (p =? 1)%Z; [| destruct (p =? 2)%Z]; reflexivity. Qed.
Lemma conc33_swap : forall cl ca cb p i j k, conc33 (swap cl) (swap ca) (swap cb) p i j k = conc33 cl ca cb p j i k.
Proof. intros. unfold conc33. destruct (p =? 1)%Z; [| destruct (p =? 2)%Z]; reflexivity. Qed.
Lemma th_turn : forall b phase cl ca cb dphidt alpha fl,
  same3 (antitrapping3_3d (turn_box b) (turn4 phase) (turn cl) (turn ca) (turn cb) (turn4 dphidt) alpha (turn_faces fl))
        (turn_faces (antitrapping3_3d b phase cl ca cb dphidt alpha fl)).
Proof.
  intros b phase cl ca cb dphidt alpha fl i j k.
  assert (X : forall p, th_x (turn_box b) (turn4 phase) (turn cl) (turn ca) (turn cb) (turn4 dphidt) alpha p i j k = th_y b phase cl ca cb dphidt alpha p k i j).
  { intro p. unfold th_x, th_y. cbv zeta.
    destruct (turn_grads b (part phase 1) i j k) as (E1 & E2 & E3 & E4 & E5 & E6 & E7 & E8 & E9).
    destruct (turn_grads b (part phase p) i j k) as (F1 & F2 & F3 & F4 & F5 & F6 & F7 & F8 & F9).
    change (part (turn4 phase) 1) with (turn (part phase 1)). change (part (turn4 phase) p) with (turn (part phase p)).
    rewrite E1, E2, E3, F1, F2, F3, contrib33_cycle, !conc33_turn. reflexivity. }
  assert (Y : forall p, th_y (turn_box b) (turn4 phase) (turn cl) (turn ca) (turn cb) (turn4 dphidt) alpha p i j k = th_z b phase cl ca cb dphidt alpha p k i j).
  { intro p. unfold th_z, th_y. cbv zeta.
    destruct (turn_grads b (part phase 1) i j k) as (E1 & E2 & E3 & E4 & E5 & E6 & E7 & E8 & E9).
    destruct (turn_grads b (part phase p) i j k) as (F1 & F2 & F3 & F4 & F5 & F6 & F7 & F8 & F9).
    change (part (turn4 phase) 1) with (turn (part phase 1)). change (part (turn4 phase) p) with (turn (part phase p)).
    rewrite E4, E5, E6, F4, F5, F6, contrib33_cycle, !conc33_turn. reflexivity. }
  assert (Z : forall p, th_z (turn_box b) (turn4 phase) (turn cl) (turn ca) (turn cb) (turn4 dphidt) alpha p i j k = th_x b phase cl ca cb dphidt alpha p k i j).
  { intro p. unfold th_z, th_x. cbv zeta.
    destruct (turn_grads b (part phase 1) i j k) as (E1 & E2 & E3 & E4 & E5 & E6 & E7 & E8 & E9).
    destruct (turn_grads b (part phase p) i j k) as (F1 & F2 & F3 & F4 & F5 & F6 & F7 & F8 & F9).
    change (part (turn4 phase) 1) with (turn (part phase 1)). change (part (turn4 phase) p) with (turn (part phase p)).
    rewrite E7, E8, E9, F7, F8, F9, contrib33_cycle, !conc33_turn. reflexivity. }
  repeat split; turned.
  - rewrite th_0, th_1, !X. unfold turn_faces, turn_box, flux0, flux1, turn. cbn [fst snd xl xu yl yu zl zu]. inbs; reflexivity.
  - rewrite th_1, th_2, !Y. unfold turn_faces, turn_box, flux2, flux1, turn. cbn [fst snd xl xu yl yu zl zu]. inbs; reflexivity.
  - rewrite th_2, th_0, !Z. unfold turn_faces, turn_box, flux0, flux2, turn. cbn [fst snd xl xu yl yu zl zu]. inbs; reflexivity.
Qed.
Lemma th_swap : forall b phase cl ca cb dphidt alpha fl,
  same3 (antitrapping3_3d (swap_box b) (swap4 phase) (swap cl) (swap ca) (swap cb) (swap4 dphidt) alpha (swap_faces fl))
        (swap_faces (antitrapping3_3d b phase cl ca cb dphidt alpha fl)).
Proof.
  intros b phase cl ca cb dphidt alpha fl i j k.
  assert (X : forall p, th_x (swap_box b) (swap4 phase) (swap cl) (swap ca) (swap cb) (swap4 dphidt) alpha p i j k = th_y b phase cl ca cb dphidt alpha p j i k).
  { intro p. unfold th_x, th_y. cbv zeta.
    destruct (swap_grads b (part phase 1) i j k) as (E1 & E2 & E3 & E4 & E5 & E6 & E7 & E8 & E9).
    destruct (swap_grads b (part phase p) i j k) as (F1 & F2 & F3 & F4 & F5 & F6 & F7 & F8 & F9).
    change (part (swap4 phase) 1) with (swap (part phase 1)). change (part (swap4 phase) p) with (swap (part phase p)).
    rewrite E1, E2, E3, F1, F2, F3, contrib33_swap, !conc33_swap. reflexivity. }
  assert (Y : forall p, th_y (swap_box b) (swap4 phase) (swap cl) (swap ca) (swap cb) (swap4 dphidt) alpha p i j k = th_x b phase cl ca cb dphidt alpha p j i k).
  { intro p. unfold th_x, th_y. cbv zeta.
    destruct (swap_grads b (part phase 1) i j k) as (E1 & E2 & E3 & E4 & E5 & E6 & E7 & E8 & E9).
    destruct (swap_grads b (part phase p) i j k) as (F1 & F2 & F3 & F4 & F5 & F6 & F7 & F8 & F9).
    change (part (swap4 phase) 1) with (swap (part phase 1)). change (part (swap4 phase) p) with (swap (part phase p)).
    rewrite E4, E5, E6, F4, F5, F6, contrib33_swap, !conc33_swap. reflexivity. }
  assert (Z : forall p, th_z (swap_box b) (swap4 phase) (swap cl) (swap ca) (swap cb) (swap4 dphidt) alpha p i j k = th_z b phase cl ca cb dphidt alpha p j i k).
  { intro p. unfold th_z, th_x. cbv zeta.
    destruct (swap_grads b (part phase 1) i j k) as (E1 & E2 & E3 & E4 & E5 & E6 & E7 & E8 & E9).
    destruct (swap_grads b (part phase p) i j k) as (F1 & F2 & F3 & F4 & F5 & F6 & F7 & F8 & F9).
    change (part (swap4 phase) 1) with (swap (part phase 1)). change (part (swap4 phase) p) with (swap (part phase p)).
    rewrite E7, E8, E9, F7, F8, F9, contrib33_swap, !conc33_swap. reflexivity. }
  repeat split; turned.
  - rewrite th_0, th_1, !X. unfold swap_faces, swap_box, flux0, flux1, swap. cbn [fst snd xl xu yl yu zl zu]. inbs; reflexivity.
  - rewrite th_1, th_0, !Y. unfold swap_faces, swap_box, flux0, flux1, swap. cbn [fst snd xl xu yl yu zl zu]. inbs; reflexivity.
  - rewrite !th_2, !Z. unfold swap_faces, swap_box, flux0, flux2, swap. cbn [fst snd xl xu yl yu zl zu]. inbs; reflexivity.
Qed.
Lemma contrib33_flat : forall x y l x' y' a dc dp, contrib33 x y 0 l x' y' 0 a dc dp = AntiTrap_Proofs.contrib3 a x y l x' y' dc dp.
Proof. intros. unfold contrib33, AntiTrap_Proofs.contrib3. replace (x * x + y * y + 0 * 0) with (x * x + y * y) by ring. replace (x' * x' + y' * y' + 0 * 0) with (x' * x' + y' * y') by ring.
  replace (x' * x + y' * y + 0 * 0) with (x' * x + y' * y) by ring. reflexivity. Qed.
Lemma contrib33_zero : forall x y z x' y' z' a dc dp, contrib33 x y z 0 x' y' z' a dc dp = 0.
Proof. intros. unfold contrib33. destruct (gtb _ _); auto. destruct (gtb _ _); unfold Rdiv; ring. Qed.
Lemma th_flat : forall b phase cl ca cb dphidt alpha f0 f1 f2,
  let two := antitrapping3 (xl b) (xu b) (yl b) (yu b) (hx b) (hy b) phase cl ca cb dphidt alpha (f0, f1) in
  let three := antitrapping3_3d b (flat4 phase) (flat cl) (flat ca) (flat cb) (flat4 dphidt) alpha (flat f0, flat f1, f2) in
  forall i j k, ((zl b <= k <= zu b)%Z -> flux0 three i j k = fst two i j /\ flux1 three i j k = snd two i j) /\
    flux2 three i j k = f2 i j k.
Proof.
  intros b phase cl ca cb dphidt alpha f0 f1 f2 two three i j k.
  destruct (flat_grads b (comp phase 1) i j k) as (E1 & E2 & E3 & E4 & E5 & E6 & E7).
  assert (P : forall p, part (flat4 phase) p = flat (comp phase p)) by reflexivity.
  assert (C : forall p i' j' k', conc33 (flat cl) (flat ca) (flat cb) p i' j' k' = AntiTrap_Proofs.conc3 cl ca cb p i' j').
  { intros. unfold conc33, AntiTrap_Proofs.conc3. destruct (p =? 1)%Z; [| destruct (p =? 2)%Z]; reflexivity. }
  split; [intro K; split |].
  - unfold two, three. rewrite th_0, AntiTrap_Proofs.three_fst, (inbT (zl b) (zu b) k), andb_true_r by auto.
    assert (T : forall p, th_x b (flat4 phase) (flat cl) (flat ca) (flat cb) (flat4 dphidt) alpha p i j k = AntiTrap_Proofs.three_x (hx b) (hy b) phase cl ca cb dphidt alpha p i j).
    { intro p. destruct (flat_grads b (comp phase p) i j k) as (F1 & F2 & F3 & F4 & F5 & F6 & F7).
      unfold th_x, AntiTrap_Proofs.three_x. cbv zeta. rewrite !P, E1, E2, E3, F1, F2, F3, contrib33_flat, !C. reflexivity. }
    rewrite !T. reflexivity.
  - unfold two, three. rewrite th_1, AntiTrap_Proofs.three_snd, (inbT (zl b) (zu b) k), andb_true_r by auto.
    assert (T : forall p, th_y b (flat4 phase) (flat cl) (flat ca) (flat cb) (flat4 dphidt) alpha p i j k = AntiTrap_Proofs.three_y (hx b) (hy b) phase cl ca cb dphidt alpha p i j).
    { intro p. destruct (flat_grads b (comp phase p) i j k) as (F1 & F2 & F3 & F4 & F5 & F6 & F7).
      unfold th_y, AntiTrap_Proofs.three_y. cbv zeta. rewrite !P, E4, E5, E6, F4, F5, F6, contrib33_flat, !C. reflexivity. }
    rewrite !T. reflexivity.
  - unfold three. rewrite th_2. unfold th_z. cbv zeta. rewrite !P, E7, !contrib33_zero. unfold flux2. cbn [snd]. inbs; ring.
Qed.
Lemma contrib33_two : forall x y z g alpha dc dp, contrib33 (- x) (- y) (- z) (- g) x y z alpha dc dp = - contrib3 x y z g alpha dc dp.
Proof.
  intros. unfold contrib33, contrib3. replace (- x * - x + - y * - y + - z * - z) with (x * x + y * y + z * z) by ring.
  destruct (gtb _ _) eqn:E; [| ring]. apply AntiTrap_Proofs.gtb_true in E. pose proof AntiTrap_Proofs.at_tol2_pos.
  assert (HS : 0 < sqrt (x * x + y * y + z * z)) by (apply sqrt_lt_R0; lra).
  pose proof (sqrt_sqrt (x * x + y * y + z * z) ltac:(lra)) as HQ.
  replace (- 1 * (x * - x + y * - y + z * - z) / (sqrt (x * x + y * y + z * z) * sqrt (x * x + y * y + z * z))) with 1; [unfold Rdiv; ring |].
  rewrite HQ. field. lra.
Qed.
Lemma contrib33_none : forall x y z l alpha dc dp, contrib33 x y z l 0 0 0 alpha dc dp = 0.
Proof.
  intros. unfold contrib33. destruct (gtb _ _); auto. destruct (gtb (0 * 0 + 0 * 0 + 0 * 0) at_tol2) eqn:E; auto.
  apply AntiTrap_Proofs.gtb_true in E. pose proof AntiTrap_Proofs.at_tol2_pos. lra.
Qed.
Lemma neg_grads : forall b p q i j k, (forall i j k, p i j k = 1 - q i j k) ->
  xx b p i j k = - xx b q i j k /\ xy b p i j k = - xy b q i j k /\ xz b p i j k = - xz b q i j k /\
  yy b p i j k = - yy b q i j k /\ yx b p i j k = - yx b q i j k /\ yz b p i j k = - yz b q i j k /\
  zz b p i j k = - zz b q i j k /\ zx b p i j k = - zx b q i j k /\ zy b p i j k = - zy b q i j k.
Proof. intros b p q i j k H. unfold xx, xy, xz, yy, yx, yz, zz, zx, zy, Rdiv. rewrite !H. repeat split; ring. Qed.
Lemma no_grads : forall b p i j k, (forall i j k, p i j k = 0) ->
  xx b p i j k = 0 /\ xy b p i j k = 0 /\ xz b p i j k = 0 /\ yy b p i j k = 0 /\ yx b p i j k = 0 /\ yz b p i j k = 0 /\
  zz b p i j k = 0 /\ zx b p i j k = 0 /\ zy b p i j k = 0.
Proof. intros b p i j k H. unfold xx, xy, xz, yy, yx, yz, zz, zx, zy, Rdiv. rewrite !H. repeat split; ring. Qed.
Lemma th_opposite : forall b phase cl ca cb dphidt alpha f0 f1 f2 i j k,
  (forall i j k, phase i j k 3%Z = 0) -> (forall i j k, phase i j k 1%Z = 1 - phase i j k 2%Z) ->
  let two := antitrapping_3d b (part phase 2) (one_part cl) (one_part ca) 1 (part dphidt 2) alpha (one_part f0, one_part f1, one_part f2) in
  let three := antitrapping3_3d b phase cl ca cb dphidt alpha (f0, f1, f2) in
  flux0 three i j k - f0 i j k = - (flux0 two i j k 1%Z - f0 i j k) /\
  flux1 three i j k - f1 i j k = - (flux1 two i j k 1%Z - f1 i j k) /\
  flux2 three i j k - f2 i j k = - (flux2 two i j k 1%Z - f2 i j k).
Proof.
  intros b phase cl ca cb dphidt alpha f0 f1 f2 i j k H3 H1 two three. unfold two, three.
  rewrite th_0, th_1, th_2, two_0, two_1, two_2. change (inb 1 1 1) with true. cbv iota.
  unfold th_x, th_y, th_z, two_x, two_y, two_z. cbv zeta.
  destruct (neg_grads b (part phase 1) (part phase 2) i j k H1) as (E1 & E2 & E3 & E4 & E5 & E6 & E7 & E8 & E9).
  destruct (no_grads b (part phase 3) i j k H3) as (F1 & F2 & F3 & F4 & F5 & F6 & F7 & F8 & F9).
  rewrite E1, E2, E3, E4, E5, E6, E7, E8, E9, F1, F2, F3, F4, F5, F6, F7, F8, F9, !contrib33_two, !contrib33_none.
  unfold conc33. change ((2 =? 1)%Z) with false. change ((2 =? 2)%Z) with true. cbv iota. unfold part, one_part, flux0, flux1, flux2. cbn [fst snd].
  repeat split; inbs; ring.
Qed.
(** ** several order parameters *)
Lemma corner_along_z : forall b u p i j k, fst (corner_z b (part (along_z u) p) i j k) = 0 /\ snd (corner_z b (part (along_z u) p) i j k) = 0.
Proof. intros. unfold corner_z, part, along_z. cbn [fst snd]. split; unfold Rdiv; ring. Qed.
Lemma keep_x : forall (g1 g2 : bool) old a q c t, q = 0 -> (if g1 then if g2 then old - a * q * c * t else old else old) = old.
Proof. intros. subst. destruct g1; auto. destruct g2; auto. ring. Qed.
Lemma multi_front_z : forall b u n cl ca dphidt alpha fl,
  same3 (antitrapping_multi_3d b (along_z u) n cl ca dphidt alpha fl) fl.
Proof.
  intros b u n cl ca dphidt alpha [[f0 f1] f2] i j k. unfold antitrapping_multi_3d, flux0, flux1, flux2. cbn [fst snd].
  rewrite xfaces3_val, yfaces3_val, zfaces3_val. repeat split.
  - destruct (_ && _ && _); auto. destruct (corner_x b (part (along_z u) n) i j k) as [dy dz]. cbv zeta.
    apply keep_x. unfold along_z. unfold Rdiv at 1. replace (1 / hx b * (u k n - u k n)) with 0 by ring. ring.
  - destruct (_ && _ && _); auto. destruct (corner_y b (part (along_z u) n) i j k) as [dx dz]. cbv zeta.
    apply keep_x. unfold along_z. unfold Rdiv at 1. replace (1 / hy b * (u k n - u k n)) with 0 by ring. ring.
  - destruct (_ && _ && _); auto. destruct (corner_along_z b u n i j k) as (C1 & C2).
    destruct (corner_z b (part (along_z u) n) i j k) as [dx dy]. cbn [fst snd] in C1, C2. cbv zeta. subst.
    apply keep_x. unfold Rdiv. ring.
Qed.
Lemma rest : forall (g1 g2 : bool) old a q c t, t = 0 -> (if g1 then if g2 then old - a * q * c * t else old else old) = old.
Proof. intros. subst. destruct g1; auto. destruct g2; auto. ring. Qed.
(** values the loops end with *)
Lemma run_x : forall b phase dphidt n i j k dy dz, (2 <= n)%Z ->
  let r := do_loop 1 (n - 1) (fun ip r =>
        let '(dphiy, dphiz) := corner_x b (part phase ip) i j k in
        mk_running (rx r + 1 / hx b * (phase i j k ip - phase (i - 1)%Z j k ip)) (ry r) (rz r)
          (rdt r + 1 / 2 * (dphidt (i - 1)%Z j k ip + dphidt i j k ip)) dphiy dphiz)
        (mk_running 0 0 0 0 dy dz) in
  rx r = sumZ 1 (n - 1) (fun ip => 1 / hx b * (phase i j k ip - phase (i - 1)%Z j k ip)) /\ ry r = 0 /\
  rdt r = sumZ 1 (n - 1) (fun ip => 1 / 2 * (dphidt (i - 1)%Z j k ip + dphidt i j k ip)) /\
  ldz r = snd (corner_x b (part phase (n - 1)) i j k).
Proof.
  intros b phase dphidt n i j k dy dz N r. unfold r. repeat split.
  - rewrite (obs_loop _ rx 1 (n - 1) (fun ip => 1 / hx b * (phase i j k ip - phase (i - 1)%Z j k ip))); [cbn [rx]; ring |].
    intros ip s _. destruct (corner_x b (part phase ip) i j k). reflexivity.
  - rewrite (obs_loop _ ry 1 (n - 1) (fun _ => 0)); [cbn [ry]; rewrite sumZ_zero; ring |].
    intros ip s _. destruct (corner_x b (part phase ip) i j k). cbn [ry]. ring.
  - rewrite (obs_loop _ rdt 1 (n - 1) (fun ip => 1 / 2 * (dphidt (i - 1)%Z j k ip + dphidt i j k ip))); [cbn [rdt]; ring |].
    intros ip s _. destruct (corner_x b (part phase ip) i j k). reflexivity.
  - rewrite do_loop_snoc by lia. destruct (corner_x b (part phase (n - 1)) i j k). reflexivity.
Qed.
Lemma run_y : forall b phase dphidt n i j k dy dz,
  let r := do_loop 1 (n - 1) (fun ip r =>
        let '(vx, vz) := corner_y b (part phase ip) i j k in
        mk_running (rx r + vx) (ry r + 1 / hy b * (phase i j k ip - phase i (j - 1)%Z k ip)) (rz r + vz)
          (rdt r + 1 / 2 * (dphidt i (j - 1)%Z k ip + dphidt i j k ip)) (ldy r) (ldz r))
        (mk_running 0 0 0 0 dy dz) in
  rx r = sumZ 1 (n - 1) (fun ip => fst (corner_y b (part phase ip) i j k)) /\
  ry r = sumZ 1 (n - 1) (fun ip => 1 / hy b * (phase i j k ip - phase i (j - 1)%Z k ip)) /\
  rdt r = sumZ 1 (n - 1) (fun ip => 1 / 2 * (dphidt i (j - 1)%Z k ip + dphidt i j k ip)).
Proof.
  intros b phase dphidt n i j k dy dz r. unfold r. repeat split.
  - rewrite (obs_loop _ rx 1 (n - 1) (fun ip => fst (corner_y b (part phase ip) i j k))); [cbn [rx]; ring |].
    intros ip s _. destruct (corner_y b (part phase ip) i j k). reflexivity.
  - rewrite (obs_loop _ ry 1 (n - 1) (fun ip => 1 / hy b * (phase i j k ip - phase i (j - 1)%Z k ip))); [cbn [ry]; ring |].
    intros ip s _. destruct (corner_y b (part phase ip) i j k). reflexivity.
  - rewrite (obs_loop _ rdt 1 (n - 1) (fun ip => 1 / 2 * (dphidt i (j - 1)%Z k ip + dphidt i j k ip))); [cbn [rdt]; ring |].
    intros ip s _. destruct (corner_y b (part phase ip) i j k). reflexivity.
Qed.
Lemma run_z : forall b phase dphidt n i j k dy dz,
  let r := do_loop 1 (n - 1) (fun ip r =>
        let '(vx, vy) := corner_z b (part phase ip) i j k in
        mk_running (rx r + vx) (ry r + vy) (rz r + 1 / hz b * (phase i j k ip - phase i j (k - 1)%Z ip))
          (rdt r + 1 / 2 * (dphidt i (j - 1)%Z k ip + dphidt i j k ip)) (ldy r) (ldz r))
        (mk_running 0 0 0 0 dy dz) in
  rx r = sumZ 1 (n - 1) (fun ip => fst (corner_z b (part phase ip) i j k)) /\
  ry r = sumZ 1 (n - 1) (fun ip => snd (corner_z b (part phase ip) i j k)) /\
  rdt r = sumZ 1 (n - 1) (fun ip => 1 / 2 * (dphidt i (j - 1)%Z k ip + dphidt i j k ip)).
Proof.
  intros b phase dphidt n i j k dy dz r. unfold r. repeat split.
  - rewrite (obs_loop _ rx 1 (n - 1) (fun ip => fst (corner_z b (part phase ip) i j k))); [cbn [rx]; ring |].
    intros ip s _. destruct (corner_z b (part phase ip) i j k). reflexivity.
  - rewrite (obs_loop _ ry 1 (n - 1) (fun ip => snd (corner_z b (part phase ip) i j k))); [cbn [ry]; ring |].
    intros ip s _. destruct (corner_z b (part phase ip) i j k). reflexivity.
  - rewrite (obs_loop _ rdt 1 (n - 1) (fun ip => 1 / 2 * (dphidt i (j - 1)%Z k ip + dphidt i j k ip))); [cbn [rdt]; ring |].
    intros ip s _. destruct (corner_z b (part phase ip) i j k). reflexivity.
Qed.
(** what a face gets *)
Definition cm (lx ly lz l sx sy sz alpha dc rate : R) : R :=
  if gtb (lx * lx + ly * ly + lz * lz) at_tol2 then
    if gtb (sx * sx + sy * sy + sz * sz) at_tol2 then - (alpha * (l / sqrt (lx * lx + ly * ly + lz * lz)) * dc * rate) else 0
  else 0.
Section Multi.
Variables (b : box3) (phase : arr4) (n : Z) (cl ca : arr3) (dphidt : arr4) (alpha : R).
Definition mu_x i j k := let c p := corner_x b (part phase p) i j k in
  cm (xx b (part phase n) i j k) (fst (c n)) (snd (c n)) (xx b (part phase n) i j k)
     (sumZ 1 (n - 1) (fun p => xx b (part phase p) i j k)) 0 (snd (c (n - 1)%Z)) alpha
     (mean (cl (i - 1)%Z j k) (cl i j k) - mean (ca (i - 1)%Z j k) (ca i j k)) (sumZ 1 (n - 1) (fun p => mean (dphidt (i - 1)%Z j k p) (dphidt i j k p))).
Definition mu_y i j k := let c p := corner_y b (part phase p) i j k in
  cm (fst (c n)) (yy b (part phase n) i j k) (snd (c n)) (yy b (part phase n) i j k)
     (sumZ 1 (n - 1) (fun p => fst (c p))) (sumZ 1 (n - 1) (fun p => yy b (part phase p) i j k)) 0 alpha
     (mean (cl i (j - 1)%Z k) (cl i j k) - mean (ca i (j - 1)%Z k) (ca i j k)) (sumZ 1 (n - 1) (fun p => mean (dphidt i (j - 1)%Z k p) (dphidt i j k p))).
Definition mu_z i j k := let c p := corner_z b (part phase p) i j k in
  cm (fst (c n)) (snd (c n)) (zz b (part phase n) i j k) (snd (c n))
     (sumZ 1 (n - 1) (fun p => fst (c p))) (sumZ 1 (n - 1) (fun p => snd (c p))) 0 alpha
     (mean (cl i j (k - 1)%Z) (cl i j k) - mean (ca i j (k - 1)%Z) (ca i j k)) (sumZ 1 (n - 1) (fun p => mean (dphidt i (j - 1)%Z k p) (dphidt i j k p))).
Lemma sum_mean : forall m (u v : Z -> R), sumZ 1 m (fun p => 1 / 2 * (u p + v p)) = sumZ 1 m (fun p => mean (u p) (v p)).
Proof. intros. apply sumZ_ext. intros. apply half_mean. Qed.
Lemma mu_0 : forall fl i j k, (2 <= n)%Z -> flux0 (antitrapping_multi_3d b phase n cl ca dphidt alpha fl) i j k = flux0 fl i j k +
  (if inb (xl b) (xu b + 1) i && inb (yl b) (yu b) j && inb (zl b) (zu b) k then mu_x i j k else 0).
Proof.
  intros [[f0 f1] f2] i j k N. unfold antitrapping_multi_3d, flux0. cbn [fst]. rewrite xfaces3_val. destruct (inb _ _ _ && _ && _); [| ring].
  unfold mu_x. cbv zeta. destruct (corner_x b (part phase n) i j k) as [dy dz]. cbn [fst snd].
  destruct (run_x b phase dphidt n i j k dy dz N) as (R1 & R2 & R3 & R4).
  rewrite R1, R2, R3, R4, sum_mean, !half_mean. unfold cm.
  change (1 / hx b * (phase i j k n - phase (i - 1)%Z j k n)) with (xx b (part phase n) i j k).
  change (fun ip => 1 / hx b * (phase i j k ip - phase (i - 1)%Z j k ip)) with (fun p => xx b (part phase p) i j k).
  destruct (gtb _ _); [| ring]. destruct (gtb _ _); ring.
Qed.
Lemma mu_1 : forall fl i j k, flux1 (antitrapping_multi_3d b phase n cl ca dphidt alpha fl) i j k = flux1 fl i j k +
  (if inb (xl b) (xu b) i && inb (yl b) (yu b + 1) j && inb (zl b) (zu b) k then mu_y i j k else 0).
Proof.
  intros [[f0 f1] f2] i j k. unfold antitrapping_multi_3d, flux1. cbn [fst snd]. rewrite yfaces3_val. destruct (inb _ _ _ && _ && _); [| ring].
  unfold mu_y. cbv zeta. destruct (corner_y b (part phase n) i j k) as [dx dz]. cbn [fst snd].
  destruct (run_y b phase dphidt n i j k (1 / hy b * (phase i j k n - phase i (j - 1)%Z k n)) dz) as (R1 & R2 & R3).
  rewrite R1, R2, R3, sum_mean, !half_mean. unfold cm.
  change (1 / hy b * (phase i j k n - phase i (j - 1)%Z k n)) with (yy b (part phase n) i j k).
  change (fun ip => 1 / hy b * (phase i j k ip - phase i (j - 1)%Z k ip)) with (fun p => yy b (part phase p) i j k).
  rewrite !Rmult_0_l, !Rplus_0_r. destruct (gtb _ _); [| ring]. destruct (gtb _ _); ring.
Qed.
Lemma mu_2 : forall fl i j k, flux2 (antitrapping_multi_3d b phase n cl ca dphidt alpha fl) i j k = flux2 fl i j k +
  (if inb (xl b) (xu b) i && inb (yl b) (yu b) j && inb (zl b) (zu b + 1) k then mu_z i j k else 0).
Proof.
  intros [[f0 f1] f2] i j k. unfold antitrapping_multi_3d, flux2. cbn [fst snd]. rewrite zfaces3_val. destruct (inb _ _ _ && _ && _); [| ring].
  unfold mu_z. cbv zeta. destruct (corner_z b (part phase n) i j k) as [dx dy]. cbn [fst snd].
  destruct (run_z b phase dphidt n i j k dy (1 / hz b * (phase i j k n - phase i j (k - 1)%Z n))) as (R1 & R2 & R3).
  rewrite R1, R2, R3, sum_mean, !half_mean. unfold cm.
  change (1 / hz b * (phase i j k n - phase i j (k - 1)%Z n)) with (zz b (part phase n) i j k).
  rewrite !Rmult_0_l, !Rplus_0_r. destruct (gtb _ _); [| ring]. destruct (gtb _ _); ring.
Qed.
End Multi.
Lemma cm_zero : forall x y z x' y' z' a dc t, cm x y z 0 x' y' z' a dc t = 0.
Proof. intros. unfold cm. destruct (gtb _ _); auto. destruct (gtb _ _); unfold Rdiv; ring. Qed.
Lemma cm_rest : forall x y z l x' y' z' a dc, cm x y z l x' y' z' a dc 0 = 0.
Proof. intros. unfold cm. destruct (gtb _ _); auto. destruct (gtb _ _); ring. Qed.
Lemma cm_flat : forall x y l x' y' a dc t, cm x y 0 l x' y' 0 a dc t = AntiTrap_Proofs.contribm a x y l x' y' dc t.
Proof. intros. unfold cm, AntiTrap_Proofs.contribm. replace (x * x + y * y + 0 * 0) with (x * x + y * y) by ring. replace (x' * x' + y' * y' + 0 * 0) with (x' * x' + y' * y') by ring. reflexivity. Qed.
Lemma sum_means : forall n (u v : arr3) i j i' j', sumZ 1 n (fun p => mean (u i' j' p) (v i j p)) = mean (AntiTrap_Spec.total n u i' j') (AntiTrap_Spec.total n v i j).
Proof. intros. etransitivity; [| exact (AntiTrap_Proofs.sum_half n (fun p => u i' j' p) (fun p => v i j p))]. apply sumZ_ext. intros. symmetry. apply half_mean. Qed.

(** nothing moves: no flux *)
Lemma stationary3 : forall b alpha,
  (forall phase cl ca ncomp fl, same4 (antitrapping_3d b phase cl ca ncomp (fun _ _ _ => 0) alpha fl) fl) /\
  (forall phase cl ca cb fl, same3 (antitrapping3_3d b phase cl ca cb (fun _ _ _ _ => 0) alpha fl) fl) /\
  (forall phase n cl ca fl, (2 <= n)%Z -> same3 (antitrapping_multi_3d b phase n cl ca (fun _ _ _ _ => 0) alpha fl) fl).
Proof.
  intros b alpha. assert (M0 : mean 0 0 = 0) by (unfold mean; field). repeat split; intros.
  1-3: rewrite ?two_0, ?two_1, ?two_2; unfold two_x, two_y, two_z, contrib3; rewrite M0; destruct (gtb _ _); inbs; ring.
  1-3: rewrite ?th_0, ?th_1, ?th_2; unfold th_x, th_y, th_z, contrib33; rewrite M0; cbv zeta; repeat destruct (gtb _ _); inbs; ring.
  all: rewrite ?mu_0, ?mu_1, ?mu_2 by auto; unfold mu_x, mu_y, mu_z; cbv zeta; rewrite M0, sumZ_zero, cm_rest; inbs; ring.
Qed.
(** planar fronts along x and y agree with the two-dimensional kernel *)
Lemma multi_front_x : forall b u n cl ca dphidt alpha f0 f1 f2 i j k, (2 <= n)%Z -> (zl b <= k <= zu b)%Z ->
  let two := antitrapping_multi (xl b) (xu b) (yl b) (yu b) (hx b) (hy b) (fun i _ p => u i p) n
      (fun i j => cl i j k) (fun i j => ca i j k) (fun i j p => dphidt i j k p) alpha (fun i j => f0 i j k, fun i j => f1 i j k) in
  let three := antitrapping_multi_3d b (along_x u) n cl ca dphidt alpha (f0, f1, f2) in
  flux0 three i j k = fst two i j /\ flux1 three i j k = snd two i j /\ flux2 three i j k = f2 i j k.
Proof.
  intros b u n cl ca dphidt alpha f0 f1 f2 i j k N K two three. unfold two, three.
  assert (CX : forall p, fst (corner_x b (part (along_x u) p) i j k) = 0 /\ snd (corner_x b (part (along_x u) p) i j k) = 0).
  { intro. unfold corner_x, part, along_x. cbn [fst snd]. split; unfold Rdiv; ring. }
  repeat split.
  - rewrite mu_0, AntiTrap_Proofs.multi_fst, (inbT (zl b) (zu b) k), andb_true_r by auto. unfold flux0. cbn [fst]. f_equal.
    destruct (_ && _); auto. unfold mu_x. cbv zeta. destruct (CX n) as (-> & ->). destruct (CX (n - 1)%Z) as (_ & ->).
    rewrite cm_flat. unfold AntiTrap_Proofs.multi_x.
    rewrite (sum_means (n - 1) (fun i j p => dphidt i j k p) (fun i j p => dphidt i j k p) i j (i - 1) j).
    replace (xface_dy (hy b) (comp (fun i _ p => u i p) n) i j) with 0 by (unfold xface_dy, comp, Rdiv; ring).
    replace (xface_dy (hy b) (AntiTrap_Spec.total (n - 1) (fun i _ p => u i p)) i j) with 0 by (unfold xface_dy, AntiTrap_Spec.total, Rdiv; ring).
    rewrite <- AntiTrap_Proofs.sum_xdx. reflexivity.
  - rewrite mu_1, AntiTrap_Proofs.multi_snd, (inbT (zl b) (zu b) k), andb_true_r by auto. unfold flux1. cbn [fst snd]. f_equal.
    destruct (_ && _); auto. unfold mu_y, AntiTrap_Proofs.multi_y. cbv zeta.
    replace (yy b (part (along_x u) n) i j k) with 0 by (unfold yy, part, along_x; ring).
    replace (yface_dy (hy b) (comp (fun i _ p => u i p) n) i j) with 0 by (unfold yface_dy, comp; ring).
    rewrite cm_zero. unfold AntiTrap_Proofs.contribm. destruct (gtb _ _); auto. destruct (gtb _ _); auto. unfold Rdiv. ring.
  - rewrite mu_2. unfold mu_z. cbv zeta.
    replace (snd (corner_z b (part (along_x u) n) i j k)) with 0 by (unfold corner_z, part, along_x, Rdiv; cbn [snd]; ring).
    rewrite cm_zero. unfold flux2. cbn [snd]. inbs; ring.
Qed.
Lemma multi_front_y : forall b u n cl ca dphidt alpha f0 f1 f2 i j k, (2 <= n)%Z -> (zl b <= k <= zu b)%Z ->
  let two := antitrapping_multi (xl b) (xu b) (yl b) (yu b) (hx b) (hy b) (fun _ j p => u j p) n
      (fun i j => cl i j k) (fun i j => ca i j k) (fun i j p => dphidt i j k p) alpha (fun i j => f0 i j k, fun i j => f1 i j k) in
  let three := antitrapping_multi_3d b (along_y u) n cl ca dphidt alpha (f0, f1, f2) in
  flux0 three i j k = fst two i j /\ flux1 three i j k = snd two i j.
Proof.
  intros b u n cl ca dphidt alpha f0 f1 f2 i j k N K two three. unfold two, three.
  assert (CY : forall p, fst (corner_y b (part (along_y u) p) i j k) = 0 /\ snd (corner_y b (part (along_y u) p) i j k) = 0).
  { intro. unfold corner_y, part, along_y. cbn [fst snd]. split; unfold Rdiv; ring. }
  repeat split.
  - rewrite mu_0, AntiTrap_Proofs.multi_fst, (inbT (zl b) (zu b) k), andb_true_r by auto. unfold flux0. cbn [fst]. f_equal.
    destruct (_ && _); auto. unfold mu_x, AntiTrap_Proofs.multi_x. cbv zeta.
    replace (xx b (part (along_y u) n) i j k) with 0 by (unfold xx, part, along_y; ring).
    replace (xface_dx (hx b) (comp (fun _ j p => u j p) n) i j) with 0 by (unfold xface_dx, comp; ring).
    rewrite cm_zero. unfold AntiTrap_Proofs.contribm. destruct (gtb _ _); auto. destruct (gtb _ _); auto. unfold Rdiv. ring.
  - rewrite mu_1, AntiTrap_Proofs.multi_snd, (inbT (zl b) (zu b) k), andb_true_r by auto. unfold flux1. cbn [fst snd]. f_equal.
    destruct (_ && _); auto. unfold mu_y. cbv zeta. destruct (CY n) as (-> & ->).
    rewrite (sumZ_ext _ _ (fun p => fst (corner_y b (part (along_y u) p) i j k)) (fun _ => 0)) by (intros; apply CY). rewrite sumZ_zero.
    rewrite cm_flat. unfold AntiTrap_Proofs.multi_y.
    rewrite (sum_means (n - 1) (fun i j p => dphidt i j k p) (fun i j p => dphidt i j k p) i j i (j - 1)).
    replace (yface_dx (hx b) (comp (fun _ j p => u j p) n) i j) with 0 by (unfold yface_dx, comp, Rdiv; ring).
    replace (yface_dx (hx b) (AntiTrap_Spec.total (n - 1) (fun _ j p => u j p)) i j) with 0 by (unfold yface_dx, AntiTrap_Spec.total, Rdiv; ring).
    rewrite <- AntiTrap_Proofs.sum_ydy. reflexivity.
Qed.
Lemma sum_one : forall f, sumZ 1 1 f = f 1%Z.
Proof. intro. rewrite sumZ_cons, sumZ_empty by lia. ring. Qed.
(** but fluxes appear across faces nothing varies across *)
Lemma multi_leak : forall b s cl ca dphidt alpha f0 f1 f2 i j k, 0 < hy b -> on_z b i j k -> 2 * at_tol * hy b < s j - s (j - 1)%Z ->
  let phase := along_y (fun j p => if (p =? 1)%Z then s j else 1 - s j) in
  flux2 (antitrapping_multi_3d b phase 2 cl ca dphidt alpha (f0, f1, f2)) i j k =
  f2 i j k + alpha * (mean (cl i j (k - 1)%Z) (cl i j k) - mean (ca i j (k - 1)%Z) (ca i j k)) * mean (dphidt i (j - 1)%Z k 1%Z) (dphidt i j k 1%Z).
Proof.
  intros b s cl ca dphidt alpha f0 f1 f2 i j k H O G phase. rewrite mu_2. destruct O as (O0 & O1 & O2). rewrite !inbT by auto. cbn [andb].
  unfold flux2. cbn [snd]. f_equal. unfold mu_z. cbv zeta. change (2 - 1)%Z with 1%Z.
  rewrite !sum_one.
  set (g := (s j - s (j - 1)%Z) / (2 * hy b)).
  assert (Gp : at_tol < g) by (unfold g; apply Rmult_lt_reg_r with (2 * hy b); [lra |]; unfold Rdiv; rewrite Rmult_assoc, Rinv_l, Rmult_1_r by lra; lra).
  assert (T : 0 < at_tol) by (unfold at_tol; apply Rinv_0_lt_compat; apply pow_lt; lra).
  replace (fst (corner_z b (part phase 2) i j k)) with 0 by (unfold corner_z, part, phase, along_y, Rdiv; cbn [fst Z.eqb Pos.eqb]; ring).
  replace (snd (corner_z b (part phase 2) i j k)) with (- g) by (unfold g, corner_z, part, phase, along_y; cbn [snd Z.eqb Pos.eqb]; field; lra).
  replace (fst (corner_z b (part phase 1) i j k)) with 0 by (unfold corner_z, part, phase, along_y, Rdiv; cbn [fst Z.eqb Pos.eqb]; ring).
  replace (snd (corner_z b (part phase 1) i j k)) with g by (unfold g, corner_z, part, phase, along_y; cbn [snd Z.eqb Pos.eqb]; field; lra).
  replace (zz b (part phase 2) i j k) with 0 by (unfold zz, part, phase, along_y; ring).
  unfold cm. replace (0 * 0 + - g * - g + 0 * 0) with (g * g) by ring. replace (0 * 0 + g * g + 0 * 0) with (g * g) by ring.
  assert (L : at_tol2 < g * g) by (unfold at_tol2; apply Rmult_gt_0_lt_compat; lra).
  apply AntiTrap_Proofs.gtb_true in L. rewrite L, sqrt_square by lra. replace (- g / g) with (- (1)) by (field; lra). cbv beta. ring.
Qed.
(** and an oblique front gets another direction than in two dimensions *)
Lemma multi_oblique : forall b p q cl ca dphidt alpha f0 f1 f2 i j k, hx b <> 0 -> hy b <> 0 -> on_x b i j k -> at_tol < p -> q <> 0 -> alpha <> 0 ->
  cl (i - 1)%Z j + cl i j <> ca (i - 1)%Z j + ca i j -> dphidt (i - 1)%Z j 1%Z + dphidt i j 1%Z <> 0 ->
  let s : arr2 := fun i j => p * (hx b * IZR i) + q * (hy b * IZR j) in
  let phase : arr3 := fun i j c => if (c =? 1)%Z then s i j else 1 - s i j in
  flux0 (antitrapping_multi_3d b (flat4 phase) 2 (flat cl) (flat ca) (flat4 dphidt) alpha (flat f0, flat f1, f2)) i j k <>
  fst (antitrapping_multi (xl b) (xu b) (yl b) (yu b) (hx b) (hy b) phase 2 cl ca dphidt alpha (f0, f1)) i j.
Proof.
  intros b p q cl ca dphidt alpha f0 f1 f2 i j k HX HY O P Q A C D s phase.
  rewrite mu_0, AntiTrap_Proofs.multi_fst by lia. destruct O as (O0 & O1 & O2). rewrite !inbT by auto. cbn [andb].
  unfold flux0, flat at 1. cbn [fst]. intro E. apply Rplus_eq_reg_l in E. revert E.
  assert (T : 0 < at_tol) by (unfold at_tol; apply Rinv_0_lt_compat; apply pow_lt; lra).
  unfold mu_x, AntiTrap_Proofs.multi_x, AntiTrap_Spec.total. cbv zeta. change (2 - 1)%Z with 1%Z.
  assert (I1 : forall z, IZR (z - 1) = IZR z - 1) by (intro; rewrite minus_IZR; ring).
  assert (I2 : forall z, IZR (z + 1) = IZR z + 1) by (intro; rewrite plus_IZR; ring).
  rewrite !sum_one.
  replace (xx b (part (flat4 phase) 2) i j k) with (- p) by (unfold xx, part, flat4, phase, s; cbn [Z.eqb Pos.eqb]; rewrite I1; field; auto).
  replace (xx b (part (flat4 phase) 1) i j k) with p by (unfold xx, part, flat4, phase, s; cbn [Z.eqb Pos.eqb]; rewrite I1; field; auto).
  replace (fst (corner_x b (part (flat4 phase) 2) i j k)) with (- (q / 2)) by (unfold corner_x, part, flat4, phase, s; cbn [fst Z.eqb Pos.eqb]; rewrite !I1; field; auto).
  replace (snd (corner_x b (part (flat4 phase) 2) i j k)) with 0 by (unfold corner_x, part, flat4, phase, s, Rdiv; cbn [snd Z.eqb Pos.eqb]; ring).
  replace (snd (corner_x b (part (flat4 phase) 1) i j k)) with 0 by (unfold corner_x, part, flat4, phase, s, Rdiv; cbn [snd Z.eqb Pos.eqb]; ring).
  replace (xface_dx (hx b) (comp phase 2) i j) with (- p) by (unfold xface_dx, comp, phase, s; cbn [Z.eqb Pos.eqb]; rewrite I1; field; auto).
  replace (xface_dy (hy b) (comp phase 2) i j) with (- q) by (unfold xface_dy, comp, phase, s; cbn [Z.eqb Pos.eqb]; rewrite !I1, !I2; field; auto).
  replace (xface_dx (hx b) (fun i0 j0 => sumZ 1 1 (fun p0 => phase i0 j0 p0)) i j) with p
    by (unfold xface_dx, phase, s; rewrite !sum_one; cbn [Z.eqb Pos.eqb]; rewrite I1; field; auto).
  replace (xface_dy (hy b) (fun i0 j0 => sumZ 1 1 (fun p0 => phase i0 j0 p0)) i j) with q
    by (unfold xface_dy, phase, s; rewrite !sum_one; cbn [Z.eqb Pos.eqb]; rewrite !I1, !I2; field; auto).
  unfold cm, AntiTrap_Proofs.contribm, flat, flat4.
  assert (L : at_tol2 < p * p) by (unfold at_tol2; apply Rmult_gt_0_lt_compat; lra).
  assert (QQ : 0 < q * q) by (apply Rsqr_pos_lt in Q; exact Q).
  assert (N1 : at_tol2 < - p * - p + - (q / 2) * - (q / 2) + 0 * 0) by lra.
  assert (N2 : at_tol2 < - p * - p + - q * - q) by lra.
  assert (N3 : at_tol2 < p * p + 0 * 0 + 0 * 0) by lra.
  assert (N4 : at_tol2 < p * p + q * q) by lra.
  apply AntiTrap_Proofs.gtb_true in N1, N2, N3, N4. rewrite N1, N2, N3, N4.
  apply AntiTrap_Proofs.gtb_true in N1, N2. pose proof AntiTrap_Proofs.at_tol2_pos as TP.
  set (a1 := - p * - p + - (q / 2) * - (q / 2) + 0 * 0) in *. set (a2 := - p * - p + - q * - q) in *.
  change (AntiTrap_Spec.mean) with mean.
  set (dc := mean (cl (i - 1)%Z j) (cl i j) - mean (ca (i - 1)%Z j) (ca i j)).
  assert (DC : dc <> 0) by (unfold dc, mean; intro X0; apply C; lra).
  set (r := mean (dphidt (i - 1)%Z j 1%Z) (dphidt i j 1%Z)).
  assert (RR : r <> 0) by (unfold r, mean; intro X0; apply D; lra).
  assert (S1 : 0 < sqrt a1) by (apply sqrt_lt_R0; lra). assert (S2 : 0 < sqrt a2) by (apply sqrt_lt_R0; lra).
  assert (LT : sqrt a1 < sqrt a2) by (apply sqrt_lt_1_alt; unfold a1, a2; lra).
  intro E.
  assert (E2 : alpha * p * dc * r * (/ sqrt a1 - / sqrt a2) = 0) by (unfold Rdiv in E; lra).
  apply Rmult_integral in E2. destruct E2 as [E2 | E2].
  - repeat (apply Rmult_integral in E2; destruct E2 as [E2 | E2]); try contradiction; lra.
  - assert (/ sqrt a2 < / sqrt a1) by (apply Rinv_lt_contravar; auto; apply Rmult_lt_0_compat; auto). lra.
Qed.
(** ** spinodal fluxes *)
Lemma loop_proj : forall S T (pr : S -> T) lo hi (body : Z -> S -> S) (body' : Z -> T -> T) s,
  (forall i s, pr (body i s) = body' i (pr s)) -> pr (do_loop lo hi body s) = do_loop lo hi body' (pr s).
Proof.
  intros S T pr lo hi body body' s H. unfold do_loop. revert s. induction (range lo hi) as [| a l IH]; intro s; cbn [fold_left]; auto.
  rewrite IH, H. reflexivity.
Qed.
Lemma cells3_proj : forall S T (pr : S -> T) a b c d e f (body : Z -> Z -> Z -> S -> S) (body' : Z -> Z -> Z -> T -> T) s,
  (forall i j k s, pr (body i j k s) = body' i j k (pr s)) -> pr (do_cells3 a b c d e f body s) = do_cells3 a b c d e f body' (pr s).
Proof. intros. unfold do_cells3. apply loop_proj. intros. apply loop_proj. intros. apply loop_proj. auto. Qed.
Section Spinodal.
Variables (b : box3) (conc conca concb : arr3) (diff : arr3x3) (eta : arr3) (kappa : R).
Definition sp_x (i j k : Z) : R := 1 / hx b * (flux0 diff i j k * (conc i j k - conc (i - 1)%Z j k)
  - kappa * (mean (conca (i - 1)%Z j k) (conca i j k) - mean (concb (i - 1)%Z j k) (concb i j k)) * (eta i j k - eta (i - 1)%Z j k)).
Definition sp_y (i j k : Z) : R := 1 / hy b * (flux1 diff i j k * (conc i j k - conc i (j - 1)%Z k)
  - kappa * (mean (conca i (j - 1)%Z k) (conca i j k) - mean (concb i (j - 1)%Z k) (concb i j k)) * (eta i j k - eta i (j - 1)%Z k)).
Definition sp_z (i j k : Z) : R := 1 / hz b * (flux2 diff i j k * (conc i j k - conc i j (k - 1)%Z)
  - kappa * (mean (conca i j (k - 1)%Z) (conca i j k) - mean (concb i j (k - 1)%Z) (concb i j k)) * (eta i j k - eta i j (k - 1)%Z)).
Lemma upd3_self : forall (a : arr3) i j k v, upd3 a i j k v i j k = v.
Proof. intros. unfold upd3. rewrite !Z.eqb_refl. reflexivity. Qed.
Lemma upd3_twice : forall (a : arr3) i j k v w x y z, upd3 (upd3 a i j k v) i j k w x y z = upd3 a i j k w x y z.
Proof. intros. unfold upd3. destruct (_ && _ && _); reflexivity. Qed.
Lemma set_loop3 : forall a0 b0 a1 b1 a2 b2 (v : Z -> Z -> Z -> R) (body : Z -> Z -> Z -> arr3 -> arr3) (s : arr3) x y z,
  (forall i j k s x y z, body i j k s x y z = upd3 s i j k (v i j k) x y z) ->
  do_cells3 a0 b0 a1 b1 a2 b2 body s x y z = if inb a0 b0 x && inb a1 b1 y && inb a2 b2 z then v x y z else s x y z.
Proof.
  intros a0 b0 a1 b1 a2 b2 v body s x y z H.
  rewrite <- (cells3_loop a0 b0 a1 b1 a2 b2 (fun i j k _ => v i j k) s x y z). revert x y z.
  assert (E : forall S (r1 r2 : S -> arr3 -> arr3) l (s1 s2 : arr3), (forall x y z, s1 x y z = s2 x y z) ->
     (forall e s1 s2, (forall x y z, s1 x y z = s2 x y z) -> forall x y z, r1 e s1 x y z = r2 e s2 x y z) ->
     forall x y z, fold_left (fun s e => r1 e s) l s1 x y z = fold_left (fun s e => r2 e s) l s2 x y z).
  { intros S r1 r2 l. induction l as [| e l IH]; intros s1 s2 Q W x y z; cbn [fold_left]; [apply Q | apply IH; auto]. }
  unfold do_cells3, do_loop. apply E; auto. intros k s1 s2 Q. apply E; auto. intros j s3 s4 Q2. apply E; auto. intros i s5 s6 Q3 x y z.
  rewrite H. unfold upd3. destruct (_ && _ && _); auto.
Qed.
Lemma sp_0 : forall fl i j k, flux0 (spinodal_flux3 b conc conca concb diff eta kappa fl) i j k =
  if inb (xl b) (xu b + 1) i && inb (yl b) (yu b) j && inb (zl b) (zu b) k then sp_x i j k else flux0 fl i j k.
Proof.
  intros [[f0 f1] f2] i j k. unfold spinodal_flux3. destruct diff as [[d0 d1] d2] eqn:D.
  destruct (do_cells3 (xl b) (xu b) (yl b) (yu b) (zl b) (zu b + 1) _ _) as [g1 g2]. unfold flux0 at 1. cbn [fst].
  rewrite (set_loop3 _ _ _ _ _ _ sp_x); [reflexivity |]. intros a c e s x y z. rewrite upd3_twice, upd3_self.
  unfold sp_x. rewrite D, <- !half_mean. unfold flux0. cbn [fst]. rewrite Rplus_0_l. reflexivity.
Qed.
Lemma sp_1 : forall fl i j k, flux1 (spinodal_flux3 b conc conca concb diff eta kappa fl) i j k =
  if inb (xl b) (xu b) i && inb (yl b) (yu b) j && inb (zl b) (zu b + 1) k then 0
  else if inb (xl b) (xu b) i && inb (yl b) (yu b + 1) j && inb (zl b) (zu b) k then sp_y i j k else flux1 fl i j k.
Proof.
  intros [[f0 f1] f2] i j k. unfold spinodal_flux3. destruct diff as [[d0 d1] d2] eqn:D.
  match goal with |- context [do_cells3 (xl b) (xu b) (yl b) (yu b) (zl b) (zu b + 1) ?bd ?s] =>
    pose proof (cells3_proj _ _ fst (xl b) (xu b) (yl b) (yu b) (zl b) (zu b + 1) bd (fun i0 j0 k0 s0 => upd3 s0 i0 j0 k0 0) s) as P;
    destruct (do_cells3 (xl b) (xu b) (yl b) (yu b) (zl b) (zu b + 1) bd s) as [g1 g2] eqn:G end.
  unfold flux1 at 1. cbn [fst snd] in *. rewrite P by (intros ? ? ? [? ?]; reflexivity). clear P G.
  rewrite (set_loop3 _ _ _ _ _ _ (fun _ _ _ => 0)) by reflexivity.
  rewrite (set_loop3 _ _ _ _ _ _ sp_y); [reflexivity |]. intros a c e s x y z. rewrite upd3_twice, upd3_self.
  unfold sp_y. rewrite D, <- !half_mean. unfold flux1. cbn [fst snd]. rewrite Rplus_0_l. reflexivity.
Qed.
Lemma sp_2 : forall fl i j k, flux2 (spinodal_flux3 b conc conca concb diff eta kappa fl) i j k =
  if inb (xl b) (xu b) i && inb (yl b) (yu b) j && inb (zl b) (zu b + 1) k then sp_z i j k else flux2 fl i j k.
Proof.
  intros [[f0 f1] f2] i j k. unfold spinodal_flux3. destruct diff as [[d0 d1] d2] eqn:D.
  match goal with |- context [do_cells3 (xl b) (xu b) (yl b) (yu b) (zl b) (zu b + 1) ?bd ?s] =>
    pose proof (cells3_proj _ _ snd (xl b) (xu b) (yl b) (yu b) (zl b) (zu b + 1) bd (fun i0 j0 k0 s0 => upd3 s0 i0 j0 k0 (sp_z i0 j0 k0)) s) as P;
    destruct (do_cells3 (xl b) (xu b) (yl b) (yu b) (zl b) (zu b + 1) bd s) as [g1 g2] eqn:G end.
  unfold flux2 at 1. cbn [fst snd] in *. rewrite P.
  - clear P G. apply set_loop3. reflexivity.
  - intros ? ? ? [? ?]. cbn [snd]. rewrite upd3_self. unfold sp_z. rewrite D, <- !half_mean. unfold flux2. cbn [snd]. rewrite Rplus_0_l. reflexivity.
Qed.
End Spinodal.
Lemma set_loop2 : forall a0 b0 a1 b1 (v : Z -> Z -> R) (body : Z -> Z -> arr2 -> arr2) (s : arr2) x y,
  (forall i j s x y, body i j s x y = upd2 s i j (v i j) x y) ->
  do_cells a0 b0 a1 b1 body s x y = if inb a0 b0 x && inb a1 b1 y then v x y else s x y.
Proof.
  intros a0 b0 a1 b1 v body s x y H.
  rewrite <- (cells_loop a0 b0 a1 b1 (fun i j _ => v i j) s x y). revert x y.
  assert (E : forall S (r1 r2 : S -> arr2 -> arr2) l (s1 s2 : arr2), (forall x y, s1 x y = s2 x y) ->
     (forall e s1 s2, (forall x y, s1 x y = s2 x y) -> forall x y, r1 e s1 x y = r2 e s2 x y) ->
     forall x y, fold_left (fun s e => r1 e s) l s1 x y = fold_left (fun s e => r2 e s) l s2 x y).
  { intros S r1 r2 l. induction l as [| e l IH]; intros s1 s2 Q W x y; cbn [fold_left]; [apply Q | apply IH; auto]. }
  unfold do_cells, do_loop. apply E; auto. intros j s3 s4 Q2. apply E; auto. intros i s5 s6 Q3 x y.
  rewrite H. unfold upd2. destruct (_ && _); auto.
Qed.
Lemma spinodal_flat : forall b conc conca concb d0 d1 d2 eta kappa f0 f1 f2,
  let two := spinodal_flux (xl b) (xu b) (yl b) (yu b) (hx b) (hy b) conc conca concb d0 d1 eta kappa (f0, f1) in
  let three := spinodal_flux3 b (flat conc) (flat conca) (flat concb) (flat d0, flat d1, d2) (flat eta) kappa (flat f0, flat f1, f2) in
  forall i j k, (on_x b i j k -> flux0 three i j k = fst two i j) /\ (on_z b i j k -> flux2 three i j k = 0) /\
    (on_y b i j k -> (j <= yu b)%Z -> flux1 three i j k = 0) /\
    (on_y b i j k -> j = (yu b + 1)%Z -> flux1 three i j k = snd two i j).
Proof.
  intros b conc conca concb d0 d1 d2 eta kappa f0 f1 f2 two three i j k. unfold two, three. rewrite sp_0, sp_1, sp_2.
  assert (U2 : forall (a : arr2) i j v, upd2 a i j v i j = v) by (intros; unfold upd2; rewrite !Z.eqb_refl; reflexivity).
  assert (UU : forall (a : arr2) i j v w x y, upd2 (upd2 a i j v) i j w x y = upd2 a i j w x y) by (intros; unfold upd2; destruct (_ && _); reflexivity).
  repeat split.
  - intros (O0 & O1 & O2). rewrite !inbT by auto. cbn [andb]. unfold spinodal_flux. cbn [fst].
    rewrite (set_loop2 _ _ _ _ (fun i j => sp_x b (flat conc) (flat conca) (flat concb) (flat d0, flat d1, d2) (flat eta) kappa i j k)).
    + rewrite !inbT by auto. reflexivity.
    + intros. rewrite UU, U2. unfold sp_x. rewrite <- !half_mean. unfold flux0, flat. cbn [fst]. rewrite Rplus_0_l. reflexivity.
  - intros (O0 & O1 & O2). rewrite !inbT by auto. cbn [andb]. unfold sp_z, flat. unfold Rdiv, Rminus. ring.
  - intros (O0 & O1 & O2) J. rewrite (inbT (xl b)), (inbT (yl b) (yu b)), (inbT (zl b)) by lia. reflexivity.
  - intros (O0 & O1 & O2) J. destruct (inb_spec (yl b) (yu b) j); [lia |]. rewrite andb_false_r. cbn [andb]. rewrite !inbT by auto. cbn [andb].
    unfold spinodal_flux. cbn [snd].
    rewrite (set_loop2 _ _ _ _ (fun i j => sp_y b (flat conc) (flat conca) (flat concb) (flat d0, flat d1, d2) (flat eta) kappa i j k)).
    + rewrite !inbT by auto. reflexivity.
    + intros. rewrite UU, U2. unfold sp_y. rewrite <- !half_mean. unfold flux1, flat. cbn [fst snd]. rewrite Rplus_0_l. reflexivity.
Qed.
Lemma spinodal_shared : forall b m conc conca concb diff eta kappa fl i k,
  (yl b <= m < yu b)%Z -> (xl b <= i <= xu b)%Z -> (zl b <= k <= zu b)%Z ->
  let below := spinodal_flux3 (below b m) conc conca concb diff eta kappa fl in
  let above := spinodal_flux3 (above b m) conc conca concb diff eta kappa fl in
  flux1 above i (m + 1)%Z k = 0 /\
  flux1 below i (m + 1)%Z k = 1 / hy b * (flux1 diff i (m + 1)%Z k * (conc i (m + 1)%Z k - conc i m k)
     - kappa * (mean (conca i m k) (conca i (m + 1)%Z k) - mean (concb i m k) (concb i (m + 1)%Z k)) * (eta i (m + 1)%Z k - eta i m k)).
Proof.
  intros b m conc conca concb diff eta kappa fl i k M I K lo up. unfold lo, up. rewrite !sp_1. cbn [xl xu yl yu zl zu hx hy hz below above]. split.
  - rewrite !inbT by lia. reflexivity.
  - destruct (inb_spec (yl b) m (m + 1)); [lia |]. rewrite andb_false_r. cbn [andb]. rewrite !inbT by lia. cbn [andb].
    unfold sp_y. cbn [hy below]. replace (m + 1 - 1)%Z with m by lia. reflexivity.
Qed.
Lemma spinodal_other : forall b conc conca concb diff eta kappa fl,
  let fl' := spinodal_flux3 b conc conca concb diff eta kappa fl in
  forall i j k,
  (on_x b i j k -> flux0 fl' i j k = flux0 diff i j k * ((conc i j k - conc (i - 1)%Z j k) / hx b)
     - kappa * (mean (conca (i - 1)%Z j k) (conca i j k) - mean (concb (i - 1)%Z j k) (concb i j k)) * ((eta i j k - eta (i - 1)%Z j k) / hx b)) /\
  (on_z b i j k -> flux2 fl' i j k = flux2 diff i j k * ((conc i j k - conc i j (k - 1)%Z) / hz b)
     - kappa * (mean (conca i j (k - 1)%Z) (conca i j k) - mean (concb i j (k - 1)%Z) (concb i j k)) * ((eta i j k - eta i j (k - 1)%Z) / hz b)).
Proof.
  intros b conc conca concb diff eta kappa fl fl' i j k. unfold fl'. rewrite sp_0, sp_2.
  split; intros (O0 & O1 & O2); rewrite !inbT by auto; cbn [andb]; unfold sp_x, sp_z, Rdiv; ring.
Qed.
