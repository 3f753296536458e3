From Coq Require Import ZArith List Bool Ascii Lia.
From Verif Require Import RunName_Model RunName_Spec.
Import ListNotations.
Open Scope Z_scope.

Lemma last_pos_none c s : ~ In c s -> last_pos c s = None.
Proof.
  induction s as [|x s IH]; intros H; [auto|]. cbn. rewrite IH by (intros K; apply H; cbn; auto). destruct (Ascii.eqb_spec x c) as [->|N]; [exfalso; apply H; cbn; auto|auto].
Qed.
Lemma last_pos_app c a b : ~ In c b -> last_pos c (a ++ c :: b) = Some (length a).
Proof.
  intros H. induction a as [|x a IH]; cbn.
  - rewrite last_pos_none by auto. rewrite Ascii.eqb_refl. auto.
  - rewrite IH. auto.
Qed.
Lemma last_pos_split c s n : last_pos c s = Some n -> exists a b, s = a ++ c :: b /\ length a = n /\ ~ In c b.
Proof.
  revert n. induction s as [|x s IH]; intros n E; [discriminate|]. cbn in E. destruct (last_pos c s) as [m|] eqn:L.
  - injection E as <-. destruct (IH _ eq_refl) as (a & b & -> & <- & H). exists (x :: a), b. auto.
  - destruct (Ascii.eqb_spec x c) as [->|]; [|discriminate]. injection E as <-. exists [], s. repeat split; auto.
    intros K. clear IH. revert L K. induction s as [|y s IH]; cbn; [auto|]. destruct (last_pos c s) eqn:E; [discriminate|]. destruct (Ascii.eqb_spec y c) as [->|N]; [discriminate|]. intros _ [->|K]; [contradiction|auto].
Qed.
Lemma last_pos_lt c s n : last_pos c s = Some n -> (n < length s)%nat.
Proof. intros E. destruct (last_pos_split _ _ _ E) as (a & b & -> & <- & _). rewrite app_length; cbn. lia. Qed.

(** what follows the directory, d = number of characters skipped *)
Lemma tail_name (dir base stem : list ascii) : 2 * Z.of_nat (length (dir ++ base)) < 2 ^ 64 -> stem_of base stem ->
  substr (dir ++ base) (Z.of_nat (length dir)) ((rfind dot (dir ++ base) - Z.of_nat (length dir)) mod 2 ^ 64) = Some stem.
Proof.
  intros Hl Hs. rewrite app_length in Hl. unfold substr. rewrite app_length. rewrite (proj2 (Z.ltb_ge _ _)) by lia. f_equal. rewrite Nat2Z.id, skipn_app, skipn_all, Nat.sub_diag. cbn [app skipn].
  destruct Hs as [(ext & -> & He)|[Hn ->]].
  - unfold rfind. rewrite app_assoc, last_pos_app by auto. rewrite !app_length in *. cbn [length] in *.
    rewrite Z.mod_small by lia. replace (Z.to_nat _) with (length stem + 0)%nat by lia. rewrite firstn_app_2. cbn. rewrite app_nil_r. auto.
  - assert (E : (Z.of_nat (length base) <= (rfind dot (dir ++ base) - Z.of_nat (length dir)) mod 2 ^ 64)).
    { unfold rfind. destruct (last_pos dot (dir ++ base)) as [n|] eqn:E.
      - assert (n < length dir)%nat.
        { destruct (last_pos_split _ _ _ E) as (x & y & Ex & <- & Hy). destruct (le_lt_dec (length dir) (length x)) as [L|L]; [exfalso|auto]. apply Hn.
          assert (K : base = skipn (length dir) (x ++ dot :: y)) by (rewrite <- Ex, skipn_app, skipn_all, Nat.sub_diag; auto).
          rewrite K, skipn_app. replace (length dir - length x)%nat with 0%nat by lia. apply in_or_app; right; cbn; auto. }
        replace (Z.of_nat n - Z.of_nat (length dir)) with ((2 ^ 64 + Z.of_nat n - Z.of_nat (length dir)) + (-1) * 2 ^ 64) by lia. rewrite Z.mod_add by lia. rewrite Z.mod_small by lia. lia.
      - unfold npos. rewrite Z.mod_small by lia. lia. }
    rewrite Z.min_r by lia. apply firstn_all2. lia.
Qed.

Lemma name_in_directory : forall dir base stem, dir <> [] -> ~ In slash base -> 2 * Z.of_nat (length (dir ++ slash :: base)) < 2 ^ 64 -> stem_of base stem ->
  run_name None (dir ++ slash :: base) = Some stem /\ ~ In slash stem.
Proof.
  intros dir base stem Hd Hb Hl Hs. split.
  - unfold run_name. assert (R : rfind slash (dir ++ slash :: base) = Z.of_nat (length dir)) by (unfold rfind; rewrite last_pos_app; auto). rewrite R.
    destruct (Z.eqb_spec (Z.of_nat (length dir)) npos) as [E|_]; [unfold npos in E; rewrite app_length in Hl; cbn [length] in Hl; lia|].
    assert (0 < Z.of_nat (length dir)) by (destruct dir; [contradiction|cbn; lia]). rewrite (proj2 (Z.ltb_lt _ _)) by lia.
    replace (dir ++ slash :: base) with ((dir ++ [slash]) ++ base) in * by (rewrite <- app_assoc; auto).
    replace (Z.of_nat (length dir) + 1) with (Z.of_nat (length (dir ++ [slash]))) by (rewrite app_length; cbn; lia). apply tail_name; auto.
  - destruct Hs as [(ext & -> & _)|[_ ->]]; auto. intros K. apply Hb. apply in_or_app; auto.
Qed.
Lemma name_in_cwd : forall base stem, ~ In slash base -> 2 * Z.of_nat (length base) < 2 ^ 64 -> stem_of base stem ->
  run_name None base = Some stem /\ ~ In slash stem.
Proof.
  intros base stem Hb Hl Hs. split.
  - unfold run_name. assert (R : rfind slash base = npos) by (unfold rfind; rewrite last_pos_none; auto). rewrite R, Z.eqb_refl. change (0 <? 0) with false. cbv iota.
    apply (tail_name [] base stem); auto.
  - destruct Hs as [(ext & -> & _)|[_ ->]]; auto. intros K. apply Hb. apply in_or_app; auto.
Qed.
Lemma name_in_root : forall base stem, ~ In slash base -> 2 * Z.of_nat (length (slash :: base)) < 2 ^ 64 -> stem_of base stem -> run_name None (slash :: base) = Some (slash :: stem).
Proof.
  intros base stem Hb Hl Hs. unfold run_name. assert (R : rfind slash (slash :: base) = 0) by (unfold rfind; change (slash :: base) with ([] ++ slash :: base); rewrite last_pos_app; auto). rewrite R. change (0 =? npos) with false. change (0 <? 0) with false. cbv iota.
  apply (tail_name [] (slash :: base) (slash :: stem)); auto. destruct Hs as [(ext & -> & He)|[Hn ->]]; [left; exists ext; auto|right; split; auto].
  intros [K|K]; [discriminate|auto].
Qed.
Lemma stem_exists base : exists stem, stem_of base stem.
Proof.
  destruct (in_dec ascii_dec dot base) as [H|H]; [|exists base; right; auto].
  destruct (last_pos dot base) as [n|] eqn:E.
  - destruct (last_pos_split _ _ _ E) as (a & b & -> & _ & Hb). exists a. left. exists b. auto.
  - exfalso. clear - E H. induction base as [|x b IH]; [destruct H|]. cbn in E. destruct (last_pos dot b) eqn:L; [discriminate|]. destruct (Ascii.eqb_spec x dot) as [->|N]; [discriminate|]. destruct H as [->|H]; [contradiction|]. auto.
Qed.
