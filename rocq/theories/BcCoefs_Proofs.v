From Coq Require Import Reals ZArith List Bool Lra Lia.
From Verif Require Import BcCoefs_Model BcCoefs_Spec.
Import ListNotations.
Open Scope R_scope.

Lemma increasing_tail x l : increasing (x :: l) -> increasing l.
Proof. destruct l; cbn; [auto|tauto]. Qed.
Lemma increasing_head x l y : increasing (x :: l) -> In y l -> x < y.
Proof.
  revert x. induction l as [|z l IH]; intros x H Hin; [destruct Hin|]. cbn [increasing] in H. destruct H as [H1 H2].
  destruct Hin as [<-|Hin]; [auto|]. pose proof (IH z H2 Hin). lra.
Qed.
Lemma increasing_nth l i j a b : increasing l -> (i < j)%nat -> nth_error l i = Some a -> nth_error l j = Some b -> a < b.
Proof.
  revert i j. induction l as [|x l IH]; intros i j H Hij Ha Hb; [destruct i; discriminate|].
  destruct j as [|j]; [lia|]. destruct i as [|i]; cbn in *.
  - injection Ha as ->. apply (increasing_head a l); auto. eapply nth_error_In; eauto.
  - apply (IH i j); auto; [eapply increasing_tail; eauto|lia].
Qed.
Lemma slot_unique l x p q : increasing l -> slot_of l x p -> slot_of l x q -> p = q.
Proof.
  intros H (a & b & Pa & Pb & Hp) (c & d & Qc & Qd & Hq).
  destruct (Nat.lt_trichotomy p q) as [L|[E|L]]; [exfalso|auto|exfalso].
  - destruct (Nat.eq_dec (S p) q) as [<-|N].
    + rewrite Pb in Qc. injection Qc as ->. lra.
    + assert (b < c) by (eapply (increasing_nth l (S p) q); eauto; lia). lra.
  - destruct (Nat.eq_dec (S q) p) as [<-|N].
    + rewrite Qd in Pa. injection Pa as ->. lra.
    + assert (d < a) by (eapply (increasing_nth l (S q) p); eauto; lia). lra.
Qed.
Lemma covers_slot l x : covers l x -> exists p, slot_of l x p.
Proof.
  intros (a & Ha & Hax & b & Hb & Hxb). revert a Ha Hax.
  induction l as [|y l IH]; intros a Ha Hax; [destruct Hb|]. cbn in Ha. injection Ha as ->.
  destruct l as [|z l].
  - destruct Hb as [->|[]]. lra.
  - destruct (Rle_dec z x) as [L|N].
    + destruct Hb as [->|Hb]; [lra|]. destruct (IH Hb z eq_refl L) as (p & c & d & P1 & P2 & P3).
      exists (S p), c, d. auto.
    + exists 0%nat, a, z. cbn. repeat split; auto. lra.
Qed.

(** the loop *)
Lemma scan_some l x s r : scan l x s = Some r -> exists k t, r = (s + Z.of_nat k)%Z /\ nth_error l k = Some t /\ x < t /\ forall i u, (i < k)%nat -> nth_error l i = Some u -> u <= x.
Proof.
  revert s. induction l as [|t l IH]; intros s E; cbn in E; [discriminate|]. destruct (Rle_dec t x) as [L|N].
  - destruct (IH _ E) as (k & u & -> & H1 & H2 & H3). exists (S k), u. split; [lia|]. split; [auto|split; [auto|]].
    intros [|i] w Hi Hw; cbn in Hw; [injection Hw as <-; auto|]. apply (H3 i); auto. lia.
  - injection E as <-. exists 0%nat, t. split; [lia|]. split; [auto|split; [lra|]]. intros i u Hi. lia.
Qed.
Lemma scan_none l x s : scan l x s = None -> forall u, In u l -> u <= x.
Proof.
  revert s. induction l as [|t l IH]; intros s E u Hu; [destruct Hu|]. cbn in E. destruct (Rle_dec t x) as [L|N]; [|discriminate].
  destruct Hu as [<-|Hu]; [auto|eauto].
Qed.
Lemma scan_all l x s : (forall u, In u l -> u <= x) -> scan l x s = None.
Proof.
  revert s. induction l as [|t l IH]; intros s H; cbn; [auto|]. destruct (Rle_dec t x) as [L|N]; [apply IH; intros; apply H; cbn; auto|].
  exfalso; apply N, H; cbn; auto.
Qed.
Lemma nth_skipn (l : list R) m k : nth_error (skipn m l) k = nth_error l (m + k).
Proof. revert l. induction m as [|m IH]; intros l; [auto|]. destruct l; cbn; [destruct k; auto|apply IH]. Qed.
Lemma at_slot_nat l n : at_slot l (Z.of_nat n) = nth_error l n.
Proof. unfold at_slot. rewrite (proj2 (Z.leb_le _ _)) by lia. rewrite Nat2Z.id. auto. Qed.
Lemma nth_length (l l' : list R) p a : length l = length l' -> nth_error l p = Some a -> exists b, nth_error l' p = Some b.
Proof.
  intros H Ha. assert (p < length l')%nat by (rewrite <- H; apply nth_error_Some; rewrite Ha; discriminate).
  destruct (nth_error l' p) as [b|] eqn:E; [eauto|]. apply nth_error_None in E. lia.
Qed.

(** one call with a slot that lies in the table *)
Lemma one_call c i x slots p q : increasing (t_map c i) -> full c i -> slot_of (t_map c i) x p -> slots i = Z.of_nat q -> (q + 1 < length (t_map c i))%nat ->
  exists o slots', setBcCoefs c i x slots = (o, slots') /\ (forall j, j <> i -> slots' j = slots j) /\
    ((q <= p + 11)%nat -> slots' i = Z.of_nat p /\ exists a b g, o = Values a b g /\
       interpolated (t_map c i) (a_map c i) x a /\ interpolated (t_map c i) (b_map c i) x b /\ interpolated (t_map c i) (g_map c i) x g) /\
    ((p + 11 < q)%nat -> slots' i = Z.of_nat (q - 11) /\ o = Stop).
Proof.
  intros Hinc (La & Lb & Lg) Hs Hq Hlen. pose proof Hs as (tp & tn & Hp & Hn & Hx).
  unfold setBcCoefs, search_range. rewrite Hq. set (t := t_map c i) in *.
  set (start := Z.max (Z.of_nat q - 10) 1). set (m := Z.to_nat start).
  assert (Em : start = Z.of_nat m) by (unfold m; lia).
  destruct (scan (skipn m t) x start) as [r|] eqn:E.
  2:{ exfalso. assert (S p < length t)%nat by (apply nth_error_Some; rewrite Hn; discriminate).
      assert (In tn (skipn m t) \/ S p < m)%nat as [H1|H1].
      { destruct (le_lt_dec m (S p)) as [L|L]; [left|right; auto]. apply nth_error_In with (n := (S p - m)%nat). rewrite nth_skipn. replace (m + (S p - m))%nat with (S p) by lia. auto. }
      - pose proof (scan_none _ _ _ E tn H1). lra.
      - assert (Hm : (m < length t)%nat) by lia. destruct (nth_error t m) as [u|] eqn:Eu; [|apply nth_error_None in Eu; lia].
        assert (In u (skipn m t)) by (apply nth_error_In with (n := 0%nat); rewrite nth_skipn; replace (m + 0)%nat with m by lia; auto).
        pose proof (scan_none _ _ _ E u H0). assert (tn < u) by (eapply (increasing_nth t (S p) m); eauto). lra. }
  apply scan_some in E. destruct E as (k & u & -> & Hk & Hu & Hb). rewrite nth_skipn in Hk.
  assert (Hm1 : (1 <= m)%nat) by lia.
  assert (EP : (start + Z.of_nat k - 1)%Z = Z.of_nat (m + k - 1)) by lia.
  assert (EN : (start + Z.of_nat k - 1 + 1)%Z = Z.of_nat (m + k)) by lia.
  rewrite EN, EP, !at_slot_nat, Hk.
  assert (Hk' : exists w, nth_error t (m + k - 1) = Some w).
  { destruct (nth_error t (m + k - 1)) as [w|] eqn:Ew; [eauto|]. apply nth_error_None in Ew.
    assert (m + k < length t)%nat by (apply nth_error_Some; rewrite Hk; discriminate). lia. }
  destruct Hk' as (w & Hw). rewrite Hw.
  destruct (le_lt_dec q (p + 11)) as [Good|Bad].
  - (* the bracket is found *)
    assert (Hstart : (m <= S p)%nat) by lia.
    assert (Ew : w <= x).
    { destruct k as [|k].
      - assert (Es : m = S p).
        { destruct (Nat.eq_dec m (S p)); auto. exfalso. assert (m < S p)%nat by lia.
          destruct (Nat.eq_dec m p) as [E'|E'].
          - replace (m + 0)%nat with p in Hk by lia. rewrite Hk in Hp. injection Hp as ->. lra.
          - assert (u < tp) by (eapply (increasing_nth t (m + 0) p); eauto; lia). lra. }
        replace (m + 0 - 1)%nat with p in Hw by lia. rewrite Hw in Hp. injection Hp as ->. lra.
      - apply (Hb k); [lia|]. rewrite nth_skipn. replace (m + k)%nat with (m + S k - 1)%nat by lia. auto. }
    assert (Ep : (m + k - 1)%nat = p).
    { apply (slot_unique t x); auto. exists w, u. replace (S (m + k - 1)) with (m + k)%nat by lia. repeat split; auto; lra. }
    destruct (Rgt_dec w x); [lra|]. destruct (Rlt_dec u x); [lra|].
    assert (Ep' : (m + k)%nat = S p) by lia. rewrite Ep in Hw. rewrite Ep' in Hk. rewrite Ep, Ep'.
    rewrite Hw in Hp. injection Hp as ->. rewrite Hk in Hn. injection Hn as ->.
    destruct (nth_length t (a_map c i) p tp (eq_sym La) Hw) as (ap & Hap). destruct (nth_length t (a_map c i) (S p) tn (eq_sym La) Hk) as (an & Han).
    destruct (nth_length t (b_map c i) p tp (eq_sym Lb) Hw) as (bp & Hbp). destruct (nth_length t (b_map c i) (S p) tn (eq_sym Lb) Hk) as (bn & Hbn).
    destruct (nth_length t (g_map c i) p tp (eq_sym Lg) Hw) as (gp & Hgp). destruct (nth_length t (g_map c i) (S p) tn (eq_sym Lg) Hk) as (gn & Hgn).
    rewrite Hap, Han, Hbp, Hbn, Hgp, Hgn. eexists; eexists; split; [reflexivity|]. split; [|split; [|intros; lia]].
    + intros j Hj. unfold set_slot. rewrite (proj2 (Z.eqb_neq _ _)); auto.
    + intros _. split; [unfold set_slot; rewrite Z.eqb_refl; auto|]. do 3 eexists; split; [reflexivity|].
      assert (tn - tp <> 0) by lra.
      split; [|split]; [exists p, tp, tn, ap, an | exists p, tp, tn, bp, bn | exists p, tp, tn, gp, gn]; repeat split; auto; try lra; field; auto.
  - (* too far back *)
    assert (Es : m = (q - 10)%nat) by lia.
    assert (Bw : x < w).
    { destruct (Nat.eq_dec (m + k - 1) (S p)) as [E'|E'].
      - rewrite E' in Hw. rewrite Hw in Hn. injection Hn as ->. lra.
      - assert (tn < w) by (eapply (increasing_nth t (S p) (m + k - 1)); eauto; lia). lra. }
    assert (k = 0)%nat.
    { destruct k as [|k]; auto. exfalso. assert (w <= x); [|lra]. apply (Hb k); [lia|]. rewrite nth_skipn. replace (m + k)%nat with (m + S k - 1)%nat by lia. auto. }
    subst k. destruct (Rgt_dec w x) as [G|G]; [|lra]. eexists; eexists; split; [reflexivity|]. split; [|split; [intros; lia|]].
    + intros j Hj. unfold set_slot. rewrite (proj2 (Z.eqb_neq _ _)); auto.
    + intros _. split; auto. unfold set_slot. rewrite Z.eqb_refl. lia.
Qed.

Definition ok_slots (c : coefs) (slots : Z -> Z) : Prop := forall i, exists q, slots i = Z.of_nat q /\ (q = 0%nat \/ (q + 1 < length (t_map c i))%nat).
Lemma ok_slots0 c : ok_slots c slots0.
Proof. intros i. exists 0%nat. auto. Qed.
Lemma slot_length l x p : slot_of l x p -> (p + 1 < length l)%nat.
Proof. intros (a & b & _ & Hb & _). assert (S p < length l)%nat by (apply nth_error_Some; rewrite Hb; discriminate). lia. Qed.

Lemma ok_call c i x slots : increasing (t_map c i) -> full c i -> covers (t_map c i) x -> ok_slots c slots ->
  ok_slots c (snd (setBcCoefs c i x slots)) /\
  (fst (setBcCoefs c i x slots) = Stop \/ exists a b g, fst (setBcCoefs c i x slots) = Values a b g /\
       interpolated (t_map c i) (a_map c i) x a /\ interpolated (t_map c i) (b_map c i) x b /\ interpolated (t_map c i) (g_map c i) x g).
Proof.
  intros Hinc Hf Hc Hok. destruct (covers_slot _ _ Hc) as (p & Hp). destruct (Hok i) as (q & Hq & Hql). pose proof (slot_length _ _ _ Hp) as Lp.
  assert (Lq : (q + 1 < length (t_map c i))%nat) by (destruct Hql; lia).
  destruct (one_call c i x slots p q Hinc Hf Hp Hq Lq) as (o & s' & E & Ho & G & B). rewrite E; cbn [fst snd].
  destruct (le_lt_dec q (p + 11)) as [L|L].
  - destruct (G L) as (Es & V). split; [|right; auto]. intros j. destruct (Z.eq_dec j i) as [->|N]; [exists p; auto|]. rewrite (Ho _ N). apply Hok.
  - destruct (B L) as (Es & V). split; [|left; auto]. intros j. destruct (Z.eq_dec j i) as [->|N]; [exists (q - 11)%nat; split; [auto|right; lia]|]. rewrite (Ho _ N). apply Hok.
Qed.

Lemma history : forall c l, (forall i x, In (i, x) l -> increasing (t_map c i) /\ full c i /\ covers (t_map c i) x) ->
  Forall2 (fun ix o => o = Stop \/ exists a b g, o = Values a b g /\ interpolated (t_map c (fst ix)) (a_map c (fst ix)) (snd ix) a /\
     interpolated (t_map c (fst ix)) (b_map c (fst ix)) (snd ix) b /\ interpolated (t_map c (fst ix)) (g_map c (fst ix)) (snd ix) g) l (fst (calls c l slots0)).
Proof.
  intros c. assert (G : forall l slots, ok_slots c slots -> (forall i x, In (i, x) l -> increasing (t_map c i) /\ full c i /\ covers (t_map c i) x) ->
    Forall2 (fun ix o => o = Stop \/ exists a b g, o = Values a b g /\ interpolated (t_map c (fst ix)) (a_map c (fst ix)) (snd ix) a /\
     interpolated (t_map c (fst ix)) (b_map c (fst ix)) (snd ix) b /\ interpolated (t_map c (fst ix)) (g_map c (fst ix)) (snd ix) g) l (fst (calls c l slots))).
  { induction l as [|[i x] l IH]; intros slots Hok H; [constructor|]. cbn [calls].
    destruct (H i x ltac:(cbn; auto)) as (H1 & H2 & H3). pose proof (ok_call c i x slots H1 H2 H3 Hok) as (A & B).
    destruct (setBcCoefs c i x slots) as [o s'] eqn:E. cbn [fst snd] in A, B.
    specialize (IH s' A ltac:(intros; apply H; cbn; auto)). destruct (calls c l s') as [os s''] eqn:E2. cbn [fst] in *. constructor; auto. }
  intros l H. apply G; [apply ok_slots0|auto].
Qed.

(** interpolation has one value *)
Lemma interpolated_unique ts vs x v w : increasing ts -> interpolated ts vs x v -> interpolated ts vs x w -> v = w.
Proof.
  intros Hi (p & tp & tn & vp & vn & A1 & A2 & A3 & A4 & A5 & ->) (q & sp & sn & wp & wn & B1 & B2 & B3 & B4 & B5 & ->).
  assert (p = q) as <- by (apply (slot_unique ts x); auto; [exists tp, tn|exists sp, sn]; auto).
  rewrite A1 in B1. rewrite A2 in B2. rewrite A3 in B3. rewrite A4 in B4. injection B1 as ->. injection B2 as ->. injection B3 as ->. injection B4 as ->. auto.
Qed.

Lemma calls_app c l l' slots : calls c (l ++ l') slots = let '(os, s) := calls c l slots in let '(os', s') := calls c l' s in (os ++ os', s').
Proof.
  revert slots. induction l as [|[i x] l IH]; intros slots; cbn [calls app].
  - destruct (calls c l' slots); auto.
  - destruct (setBcCoefs c i x slots) as [o s]. rewrite IH. destruct (calls c l s) as [os s1]. destruct (calls c l' s1). auto.
Qed.
Lemma calls_slots c l slots : ok_slots c slots -> (forall i x, In (i, x) l -> increasing (t_map c i) /\ full c i /\ covers (t_map c i) x) -> ok_slots c (snd (calls c l slots)).
Proof.
  revert slots. induction l as [|[i x] l IH]; intros slots Hok H; [auto|]. cbn [calls].
  destruct (H i x ltac:(cbn; auto)) as (H1 & H2 & H3). pose proof (ok_call c i x slots H1 H2 H3 Hok) as (A & _).
  destruct (setBcCoefs c i x slots) as [o s']. cbn [snd] in A. specialize (IH s' A ltac:(intros; apply H; cbn; auto)). destruct (calls c l s'); auto.
Qed.

(** a call right after one on the same face: the answer does not depend on what came before *)
Lemma two_calls : forall c before i y x p q, (forall j z, In (j, z) before -> increasing (t_map c j) /\ full c j /\ covers (t_map c j) z) ->
  increasing (t_map c i) -> full c i -> slot_of (t_map c i) y q -> slot_of (t_map c i) x p ->
  let slots := snd (calls c before slots0) in
  fst (setBcCoefs c i y slots) <> Stop ->
  let '(o, _) := setBcCoefs c i x (snd (setBcCoefs c i y slots)) in (o = Stop <-> (p + 11 < q)%nat).
Proof.
  intros c before i y x p q Hb Hinc Hf Hq Hp slots Hns.
  assert (Hok : ok_slots c slots) by (apply calls_slots; auto; apply ok_slots0).
  destruct (Hok i) as (q0 & Hq0 & Hql0). pose proof (slot_length _ _ _ Hq) as Lq. assert (Lq0 : (q0 + 1 < length (t_map c i))%nat) by (destruct Hql0; lia).
  destruct (one_call c i y slots q q0 Hinc Hf Hq Hq0 Lq0) as (o & s' & E & Ho & G & B). rewrite E in *; cbn [fst snd] in *.
  destruct (le_lt_dec q0 (q + 11)) as [L|L]; [|destruct (B L); contradiction]. destruct (G L) as (Es & _).
  destruct (one_call c i x s' p q Hinc Hf Hp Es Lq) as (o2 & s2 & E2 & _ & G2 & B2). rewrite E2.
  destruct (le_lt_dec q (p + 11)) as [L2|L2].
  - destruct (G2 L2) as (_ & a & b & g & -> & _). split; [discriminate|lia].
  - destruct (B2 L2) as (_ & ->). split; auto.
Qed.

(** moving forward in time never stops the run *)
Lemma slot_monotone l x y p q : increasing l -> slot_of l x p -> slot_of l y q -> x <= y -> (p <= q)%nat.
Proof.
  intros H (a & b & Pa & Pb & Hp) (c & d & Qc & Qd & Hq) Hxy. destruct (le_lt_dec p q) as [L|L]; [auto|exfalso].
  destruct (Nat.eq_dec (S q) p) as [<-|N]; [rewrite Qd in Pa; injection Pa as ->; lra|]. assert (d < a) by (eapply (increasing_nth l (S q) p); eauto; lia). lra.
Qed.
Lemma forward : forall c l, (forall i x, In (i, x) l -> increasing (t_map c i) /\ full c i /\ covers (t_map c i) x) ->
  nondecreasing_from (fun _ => None) l -> Forall (fun o => exists a b g, o = Values a b g) (fst (calls c l slots0)).
Proof.
  intros c.
  assert (G : forall l slots m, (forall i, match m i with Some y => exists q, slots i = Z.of_nat q /\ slot_of (t_map c i) y q | None => slots i = 0%Z end) ->
    (forall i x, In (i, x) l -> increasing (t_map c i) /\ full c i /\ covers (t_map c i) x) -> nondecreasing_from m l ->
    Forall (fun o => exists a b g, o = Values a b g) (fst (calls c l slots))).
  { induction l as [|[i x] l IH]; intros slots m Hm H Hn; [constructor|]. cbn [calls]. destruct Hn as [Hx Hn].
    destruct (H i x ltac:(cbn; auto)) as (H1 & H2 & H3). destruct (covers_slot _ _ H3) as (p & Hp). pose proof (slot_length _ _ _ Hp) as Lp.
    assert (exists q, slots i = Z.of_nat q /\ (q + 1 < length (t_map c i))%nat /\ (q <= p + 11)%nat) as (q & Hq & Lq & Q).
    { specialize (Hm i). destruct (m i) as [y|].
      - destruct Hm as (q & Hq & Hs). exists q. split; [auto|]. split; [eapply slot_length; eauto|]. pose proof (slot_monotone _ _ _ _ _ H1 Hs Hp Hx). lia.
      - exists 0%nat. repeat split; auto; lia. }
    destruct (one_call c i x slots p q H1 H2 Hp Hq Lq) as (o & s' & E & Ho & G & _). destruct (G Q) as (Es & a & b & g & -> & _). rewrite E.
    specialize (IH s' (fun j => if (j =? i)%Z then Some x else m j)).
    destruct (calls c l s') as [os s''] eqn:E2. cbn [fst] in *. constructor; [eauto|]. apply IH; auto.
    - intros j. destruct (Z.eqb_spec j i) as [->|N]; [exists p; auto|]. specialize (Hm j). rewrite (Ho _ N). auto.
    - intros; apply H; cbn; auto. }
  intros l H Hn. apply (G l slots0 (fun _ => None)); auto.
Qed.

(** the tables read from a file *)
Lemma Forall2_weaken (A B : Type) (P Q : A -> B -> Prop) l l' : (forall a b, P a b -> Q a b) -> Forall2 P l l' -> Forall2 Q l l'.
Proof. intros H F. induction F; constructor; auto. Qed.
Lemma map_interp (A : Type) (f g : A -> R) (l : list A) x k : (forall y, g y = k) -> forall v, interpolated (map f l) (map g l) x v -> v = k.
Proof.
  intros Hk v (p & tp & tn & vp & vn & A1 & A2 & A3 & A4 & A5 & ->).
  assert (B : forall n u, nth_error (map g l) n = Some u -> u = k).
  { intros n u Hu. apply nth_error_In in Hu. apply in_map_iff in Hu. destruct Hu as (z & <- & _). auto. }
  rewrite (B _ _ A3), (B _ _ A4). field. lra.
Qed.
Lemma file_history : forall files l, let c := getFromInput files in
  (forall i x, In (i, x) l -> increasing (map fst (snd (files i))) /\ covers (map fst (snd (files i))) x) ->
  Forall2 (fun ix o => let '(i, x) := ix in o = Stop \/ exists a b g, o = Values a b g /\
     (a, b) = match fst (files i) with Value => (1, 0) | Slope => (0, 1) end /\ interpolated (map fst (snd (files i))) (map snd (snd (files i))) x g) l (fst (calls c l slots0)).
Proof.
  intros files l c H. assert (F := history c l). eapply Forall2_weaken; [|apply F].
  - intros [i x] o [->|(a & b & g & -> & A & B & G)]; [left; auto|right]. exists a, b, g. split; [auto|].
    cbn [fst snd c getFromInput a_map b_map g_map t_map] in A, B, G. split; [|exact G].
    destruct (fst (files i)).
    + rewrite (map_interp (R * R) fst (fun _ => 1) (snd (files i)) x 1 (fun _ => eq_refl) a A), (map_interp (R * R) fst (fun _ => 0) (snd (files i)) x 0 (fun _ => eq_refl) b B). auto.
    + rewrite (map_interp (R * R) fst (fun _ => 0) (snd (files i)) x 0 (fun _ => eq_refl) a A), (map_interp (R * R) fst (fun _ => 1) (snd (files i)) x 1 (fun _ => eq_refl) b B). auto.
  - intros i x Hin. destruct (H i x Hin). unfold full, c, getFromInput; cbn. rewrite !map_length. auto.
Qed.

(** what happens outside the table *)
Lemma below_table c i x slots q a : increasing (t_map c i) -> nth_error (t_map c i) 0 = Some a -> x < a -> slots i = Z.of_nat q -> (q + 1 < length (t_map c i))%nat ->
  fst (setBcCoefs c i x slots) = Stop.
Proof.
  intros Hinc Ha Hx Hq Hlen. unfold setBcCoefs, search_range. rewrite Hq. set (t := t_map c i) in *. set (start := Z.max (Z.of_nat q - 10) 1). set (m := Z.to_nat start).
  assert (Em : start = Z.of_nat m) by (unfold m; lia). assert (Hm : (1 <= m < length t)%nat) by lia.
  assert (Big : forall n u, nth_error t n = Some u -> x < u).
  { intros [|n] u Hu; [rewrite Hu in Ha; injection Ha as ->; auto|]. assert (a < u) by (eapply (increasing_nth t 0 (S n)); eauto; lia). lra. }
  destruct (nth_error t m) as [u|] eqn:Eu; [|apply nth_error_None in Eu; lia].
  assert (E : scan (skipn m t) x start = Some start).
  { assert (Es := nth_skipn t m 0). destruct (skipn m t) as [|u' r]; cbn in Es; rewrite Nat.add_0_r, Eu in Es; [discriminate|]. injection Es as ->. cbn.
    destruct (Rle_dec u x) as [L|L]; auto. pose proof (Big _ _ Eu). lra. }
  rewrite E. replace (start - 1)%Z with (Z.of_nat (m - 1)) by lia. replace (Z.of_nat (m - 1) + 1)%Z with (Z.of_nat m) by lia. rewrite !at_slot_nat, Eu.
  destruct (nth_error t (m - 1)) as [w|] eqn:Ew; [|apply nth_error_None in Ew; lia].
  destruct (Rgt_dec w x) as [G|G]; auto. exfalso. apply G. pose proof (Big _ _ Ew). lra.
Qed.
Lemma history_safe : forall c l i x, (forall j y, In (j, y) l -> increasing (t_map c j) /\ full c j /\ covers (t_map c j) y) ->
  increasing (t_map c i) -> full c i -> (2 <= length (t_map c i))%nat -> (exists b, In b (t_map c i) /\ x < b) ->
  fst (setBcCoefs c i x (snd (calls c l slots0))) <> Ub /\ (forall a, nth_error (t_map c i) 0 = Some a -> x < a -> fst (setBcCoefs c i x (snd (calls c l slots0))) = Stop).
Proof.
  intros c l i x H Hinc Hf Hlen Hb. assert (Hok : ok_slots c (snd (calls c l slots0))) by (apply calls_slots; auto; apply ok_slots0).
  assert (S : forall a, nth_error (t_map c i) 0 = Some a -> x < a -> fst (setBcCoefs c i x (snd (calls c l slots0))) = Stop).
  { intros a Ha Hx. destruct (Hok i) as (q & Hq & Hl). eapply below_table; eauto. destruct Hl; lia. }
  split; [|auto]. destruct (nth_error (t_map c i) 0) as [a|] eqn:Ea; [|apply nth_error_None in Ea; lia].
  destruct (Rlt_dec x a) as [L|L]; [rewrite (S a eq_refl L); discriminate|].
  destruct (ok_call c i x (snd (calls c l slots0)) Hinc Hf) as (_ & [E|(u & v & w & E & _)]); auto; [exists a; split; [auto|split; [lra|auto]]| |]; rewrite E; discriminate.
Qed.
Lemma above_table : forall c i x slots, (forall b, In b (t_map c i) -> b <= x) -> fst (setBcCoefs c i x slots) = Ub.
Proof.
  intros c i x slots H. unfold setBcCoefs, search_range. rewrite scan_all; auto. intros u Hu.
  apply H. rewrite <- (firstn_skipn (Z.to_nat (Z.max (slots i - 10) 1)) (t_map c i)). apply in_or_app; auto.
Qed.
Lemma single_entry : forall c i x slots, (length (t_map c i) <= 1)%nat -> fst (setBcCoefs c i x slots) = Ub.
Proof. intros c i x slots H. unfold setBcCoefs, search_range. rewrite skipn_all2 by lia. reflexivity. Qed.

Definition clock (n : nat) : list (R * R) := map (fun k => (INR k, 0)) (seq 0 n).
Lemma clock_nth n k : (k < n)%nat -> nth_error (map fst (clock n)) k = Some (INR k).
Proof.
  intros H. unfold clock. rewrite map_map. cbn [fst]. rewrite nth_error_map. rewrite (nth_error_nth' _ 0%nat) by (rewrite seq_length; auto). rewrite seq_nth by auto. auto.
Qed.
Lemma clock_increasing n : increasing (map fst (clock n)).
Proof.
  unfold clock. rewrite map_map. cbn [fst]. generalize 0%nat. induction n as [|n IH]; intros k; cbn [seq map]; [exact I|]. destruct n; [exact I|].
  split; [apply lt_INR; lia|apply (IH (S k))].
Qed.
Lemma clock_slot n k x : (k + 1 < n)%nat -> INR k <= x < INR (k + 1) -> slot_of (map fst (clock n)) x k.
Proof. intros H Hx. exists (INR k), (INR (k + 1)). rewrite !clock_nth by lia. replace (S k) with (k + 1)%nat by lia. auto. Qed.
Lemma shared_slots : exists files files' x x', let c := getFromInput files in let c' := getFromInput files' in
  increasing (t_map c 0) /\ covers (t_map c 0) x /\ increasing (t_map c' 0) /\ covers (t_map c' 0) x' /\
  fst (setBcCoefs c' 0 x' (snd (setBcCoefs c 0 x slots0))) = Ub.
Proof.
  exists (fun _ => (Value, clock 14)), (fun _ => (Value, clock 2)), (25 / 2), (1 / 2). cbv zeta.
  assert (S1 : slot_of (map fst (clock 14)) (25 / 2) 12) by (apply clock_slot; [lia|cbn; lra]).
  destruct (one_call (getFromInput (fun _ => (Value, clock 14))) 0 (25 / 2) slots0 12 0) as (o & s' & E & _ & G & _); auto.
  - apply clock_increasing.
  - unfold full; cbn; auto.
  - cbn [t_map getFromInput snd]. unfold clock. rewrite !map_length, seq_length. lia.
  - destruct (G ltac:(lia)) as (Es & _). cbn [t_map getFromInput snd fst]. split; [apply clock_increasing|]. split; [|split; [apply clock_increasing|split]].
    + exists (INR 0). split; [apply (clock_nth 14 0); lia|]. split; [cbn; lra|]. exists (INR 13). split; [apply nth_error_In with (n := 13%nat); apply clock_nth; lia|cbn; lra].
    + exists (INR 0). split; [apply (clock_nth 2 0); lia|]. split; [cbn; lra|]. exists (INR 1). split; [apply nth_error_In with (n := 1%nat); apply clock_nth; lia|cbn; lra].
    + rewrite E. unfold setBcCoefs, search_range. cbn [snd]. rewrite Es. reflexivity.
Qed.

(** assignment and rescaling *)
Lemma assign_same_times : forall dim target r i x slots, (0 <= i < 2 * dim)%Z -> t_map target i = t_map r i ->
  setBcCoefs (assign dim target r) i x slots = setBcCoefs r i x slots.
Proof.
  intros dim target r i x slots Hi Ht. unfold setBcCoefs, assign; cbn [a_map b_map g_map t_map]. rewrite Ht.
  rewrite (proj2 (Z.leb_le _ _)), (proj2 (Z.ltb_lt _ _)) by lia. reflexivity.
Qed.
Lemma assign_differs : exists files files' x, let r := getFromInput files in let c := assign 2 (getFromInput files') r in
  increasing (t_map r 0) /\ covers (t_map r 0) x /\ full r 0 /\ full c 0 /\ increasing (t_map c 0) /\ covers (t_map c 0) x /\
  fst (setBcCoefs r 0 x slots0) = Values 1 0 10 /\ fst (setBcCoefs c 0 x slots0) = Values 1 0 5.
Proof.
  exists (fun _ => (Value, [(0, 0); (1, 10); (2, 20)])), (fun _ => (Value, [(0, 7); (2, 7); (4, 7)])), 1. cbv zeta.
  set (r := getFromInput (fun _ => (Value, [(0, 0); (1, 10); (2, 20)]))). set (c := assign 2 (getFromInput (fun _ => (Value, [(0, 7); (2, 7); (4, 7)]))) r).
  assert (I1 : increasing (t_map r 0)) by (cbn; lra). assert (I2 : increasing (t_map c 0)) by (cbn; lra).
  assert (F1 : full r 0) by (unfold full; cbn; auto). assert (F2 : full c 0) by (unfold full; cbn; auto).
  assert (S1 : slot_of (t_map r 0) 1 1) by (exists 1, 2; cbn; repeat split; auto; lra).
  assert (S2 : slot_of (t_map c 0) 1 0) by (exists 0, 2; cbn; repeat split; auto; lra).
  split; [auto|]. split; [exists 0; cbn; repeat split; auto; [lra|exists 2; split; [auto|lra]]|]. split; [auto|]. split; [auto|]. split; [auto|].
  split; [exists 0; cbn; repeat split; auto; [lra|exists 2; split; [auto|lra]]|].
  assert (U : forall ts vs x v w, increasing ts -> interpolated ts vs x v -> interpolated ts vs x w -> v = w) by (intros; eapply interpolated_unique; eauto).
  split.
  - destruct (one_call r 0 1 slots0 1 0 I1 F1 S1) as (o & s' & E & _ & G & _); [auto|cbn; lia|]. destruct (G ltac:(lia)) as (_ & a & b & g & -> & A & B & C). rewrite E; cbn [fst].
    f_equal; [apply (U _ _ _ _ _ I1 A)|apply (U _ _ _ _ _ I1 B)|apply (U _ _ _ _ _ I1 C)];
      [exists 1%nat, 1, 2, 1, 1|exists 1%nat, 1, 2, 0, 0|exists 1%nat, 1, 2, 10, 20]; cbn; repeat split; auto; try lra; field.
  - destruct (one_call c 0 1 slots0 0 0 I2 F2 S2) as (o & s' & E & _ & G & _); [auto|cbn; lia|]. destruct (G ltac:(lia)) as (_ & a & b & g & -> & A & B & C). rewrite E; cbn [fst].
    f_equal; [apply (U _ _ _ _ _ I2 A)|apply (U _ _ _ _ _ I2 B)|apply (U _ _ _ _ _ I2 C)];
      [exists 0%nat, 0, 2, 1, 1|exists 0%nat, 0, 2, 0, 0|exists 0%nat, 0, 2, 0, 10]; cbn; repeat split; auto; try lra; field.
Qed.
Lemma rescaled : forall dim factor c i x slots, (0 <= i < 2 * dim)%Z ->
  setBcCoefs (rescale dim factor c) i x slots =
  (match fst (setBcCoefs c i x slots) with Values a b g => Values a b (g * factor) | o => o end, snd (setBcCoefs c i x slots)).
Proof.
  intros dim factor c i x slots Hi. unfold setBcCoefs, rescale; cbn [a_map b_map g_map t_map]. rewrite (proj2 (Z.leb_le _ _)), (proj2 (Z.ltb_lt _ _)) by lia. cbn [andb].
  destruct (scan _ x _) as [s|]; [|auto]. destruct (at_slot (t_map c i) (s - 1)) as [tp|]; [|auto]. destruct (at_slot (t_map c i) (s - 1 + 1)) as [tn|]; [|auto].
  destruct (Rgt_dec tp x); [auto|]. destruct (Rlt_dec tn x); [auto|].
  assert (M : forall n, at_slot (map (fun g => g * factor) (g_map c i)) n = option_map (fun g => g * factor) (at_slot (g_map c i) n)).
  { intros k. unfold at_slot. destruct (0 <=? k)%Z; [apply nth_error_map|auto]. }
  rewrite !M. destruct (at_slot (a_map c i) (s - 1)); [|auto]. destruct (at_slot (a_map c i) (s - 1 + 1)); [|auto]. destruct (at_slot (b_map c i) (s - 1)); [|auto].
  destruct (at_slot (b_map c i) (s - 1 + 1)); [|auto]. destruct (at_slot (g_map c i) (s - 1)); cbn [option_map]; [|auto]. destruct (at_slot (g_map c i) (s - 1 + 1)); cbn [option_map fst snd]; [|auto].
  f_equal. f_equal. ring.
Qed.
