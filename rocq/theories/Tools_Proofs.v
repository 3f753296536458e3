From Coq Require Import Reals ZArith List Bool Sorted Permutation Lia Lra.
From Verif Require Import Tools_Model Tools_Spec.
Import ListNotations.
Open Scope R_scope.

(** add_to *)
Lemma add_to_get : forall m k v j, get (add_to m k v) j = get m j + (if (k =? j)%Z then v else 0).
Proof.
  induction m as [| [k' v'] m IH]; intros k v j; cbn [add_to get].
  - destruct (k =? j)%Z; ring.
  - destruct (Z.ltb_spec k k'); [cbn [get]; destruct (Z.eqb_spec k j); destruct (Z.eqb_spec k' j); ring |].
    destruct (Z.eqb_spec k k') as [-> |]; cbn [get]; [destruct (k' =? j)%Z; ring |]. rewrite IH. ring.
Qed.
Lemma add_to_keys : forall m k v j, has_key (add_to m k v) j <-> has_key m j \/ j = k.
Proof.
  induction m as [| [k' v'] m IH]; intros k v j; unfold has_key in *; cbn [add_to map fst In].
  - intuition.
  - destruct (Z.ltb_spec k k'); [cbn [map fst In]; intuition |].
    destruct (Z.eqb_spec k k') as [-> |]; cbn [map fst In]; [intuition |]. rewrite IH. intuition.
Qed.
Lemma add_to_map : forall m k v, is_map m -> is_map (add_to m k v).
Proof.
  unfold is_map. induction m as [| [k' v'] m IH]; intros k v H; cbn [add_to map fst].
  - repeat constructor.
  - inversion H as [| a l S F]; subst. destruct (Z.ltb_spec k k').
    + cbn [map fst]. constructor; [exact H |]. constructor; [auto |]. eapply Forall_impl; [| exact F]. intros; lia.
    + destruct (Z.eqb_spec k k') as [-> |]; cbn [map fst]; [exact H |]. constructor; [apply IH; auto |].
      apply Forall_forall. intros j Hj. apply add_to_keys in Hj. destruct Hj as [Hj | ->]; [| lia].
      rewrite Forall_forall in F. apply F. exact Hj.
Qed.
Lemma add_to_total : forall m k v, total (add_to m k v) = total m + v.
Proof.
  induction m as [| [k' v'] m IH]; intros k v; unfold total in *; cbn [add_to fold_right snd]; [ring |].
  destruct (k <? k')%Z; [cbn [fold_right snd]; ring |]. destruct (k =? k')%Z; cbn [fold_right snd]; [ring |]. rewrite IH. ring.
Qed.

(** gathering *)
Lemma fold_add : forall l c, fold_left (fun c x => (c + x)%nat) l c = (c + fold_right Nat.add 0 l)%nat.
Proof. induction l as [| x l IH]; intro c; cbn [fold_left fold_right]; [lia |]. rewrite IH. lia. Qed.
Lemma store_at : forall A (pre : list (option A)) a post x, store (pre ++ a :: post) (length pre) x = Some (pre ++ Some x :: post).
Proof. induction pre as [| b pre IH]; intros; cbn [app length store]; [reflexivity |]. rewrite IH. reflexivity. Qed.
Lemma store_block_at : forall A (xs : list A) pre n,
  store_block (pre ++ repeat None (length xs + n)) (length pre) xs = Some (pre ++ map Some xs ++ repeat None n).
Proof.
  induction xs as [| x xs IH]; intros pre n; cbn [length Nat.add repeat store_block map app]; [reflexivity |].
  rewrite store_at. specialize (IH (pre ++ [Some x]) n). rewrite app_length in IH. cbn [length] in IH.
  replace (length pre + 1)%nat with (S (length pre)) in IH by lia. rewrite <- !app_assoc in IH. exact IH.
Qed.
Lemma place_all : forall A (xss : list (list A)) pre,
  place (pre ++ repeat None (fold_right Nat.add 0%nat (map (@length A) xss))) (displacements (length pre) (map (@length A) xss)) xss =
  Some (pre ++ map Some (concat xss)).
Proof.
  induction xss as [| xs xss IH]; intro pre; cbn [map fold_right displacements place concat repeat]; [reflexivity |].
  rewrite store_block_at. specialize (IH (pre ++ map Some xs)). rewrite app_length, map_length in IH. rewrite <- app_assoc in IH. rewrite IH.
  rewrite map_app, app_assoc. reflexivity.
Qed.
Lemma gather_all : forall A (xss : list (list A)), allGatherv xss (fold_right Nat.add 0%nat (map (@length A) xss)) = Some (map Some (concat xss)).
Proof.
  intros A xss. unfold allGatherv, allGatherSetup. rewrite fold_add. cbn [Nat.add]. rewrite Nat.eqb_refl. apply (place_all A xss []).
Qed.
Lemma gather_size : forall A (xss : list (list A)) n, allGatherv xss n = None <-> n <> fold_right Nat.add 0%nat (map (@length A) xss).
Proof.
  intros A xss n. split.
  - intros H ->. rewrite gather_all in H. discriminate.
  - intro H. unfold allGatherv, allGatherSetup. rewrite fold_add. cbn [Nat.add].
    destruct (Nat.eqb_spec (fold_right Nat.add 0%nat (map (@length A) xss)) n); [congruence | reflexivity].
Qed.
Lemma gather_exact : forall A (xss : list (list A)) n buf, allGatherv xss n = Some buf -> buf = map Some (concat xss).
Proof.
  intros A xss n buf H. destruct (Nat.eq_dec n (fold_right Nat.add 0%nat (map (@length A) xss))) as [-> | N].
  - rewrite gather_all in H. congruence.
  - apply gather_size in N. congruence.
Qed.

(** the loop over the gathered entries *)
Lemma entries_loop : forall (es pre : imap) m,
  fold_left (add_entry (map (fun e => Some (fst e)) (pre ++ es)) (map (fun e => Some (snd e)) (pre ++ es))) (seq (length pre) (length es)) (Some m) =
  Some (fold_left (fun m e => add_to m (fst e) (snd e)) es m).
Proof.
  induction es as [| e es IH]; intros pre m; cbn [length seq fold_left]; [reflexivity |].
  assert (N : forall B (f : Z * R -> B), nth_error (map f (pre ++ e :: es)) (length pre) = Some (f e)).
  { intros B f. rewrite map_app. rewrite nth_error_app2 by (rewrite map_length; lia). rewrite map_length, Nat.sub_diag. reflexivity. }
  unfold add_entry at 2. rewrite (N _ (fun e => Some (fst e))), (N _ (fun e => Some (snd e))).
  specialize (IH (pre ++ [e]) (add_to m (fst e) (snd e))). rewrite app_length in IH. cbn [length] in IH.
  replace (length pre + 1)%nat with (S (length pre)) in IH by lia. rewrite <- !app_assoc in IH. exact IH.
Qed.
Lemma sum_lengths : forall A B (f : A -> B) (ls : list (list A)), fold_right Nat.add 0%nat (map (@length B) (map (map f) ls)) = fold_right Nat.add 0%nat (map (@length A) ls).
Proof. intros A B f ls. induction ls as [| l ls IH]; cbn [map fold_right]; [reflexivity |]. rewrite map_length, IH. reflexivity. Qed.
Lemma length_sum : forall A (ls : list (list A)), length (concat ls) = fold_right Nat.add 0%nat (map (@length A) ls).
Proof. intros A ls. induction ls as [| l ls IH]; cbn [concat map fold_right length]; [reflexivity |]. rewrite app_length, IH. reflexivity. Qed.
Lemma global_fold : forall lcls gbl, listLocalToGlobal lcls gbl = Some (fold_left (fun m e => add_to m (fst e) (snd e)) (concat lcls) gbl).
Proof.
  intros lcls gbl. unfold listLocalToGlobal, sumReduction.
  rewrite <- (sum_lengths _ _ fst lcls) at 1. rewrite gather_all. rewrite <- (sum_lengths _ _ snd lcls) at 1. rewrite gather_all.
  rewrite <- !concat_map, !map_map, <- length_sum. apply (entries_loop (concat lcls) []).
Qed.
Lemma fold_get : forall es m k, get (fold_left (fun m e => add_to m (fst e) (snd e)) es m) k = get m k + get es k.
Proof.
  induction es as [| [n v] es IH]; intros m k; cbn [fold_left get]; [ring |]. rewrite IH, add_to_get. cbn [fst snd]. ring.
Qed.
Lemma fold_keys : forall es m k, has_key (fold_left (fun m e => add_to m (fst e) (snd e)) es m) k <-> has_key m k \/ has_key es k.
Proof.
  induction es as [| [n v] es IH]; intros m k; cbn [fold_left fst snd].
  - unfold has_key. cbn. tauto.
  - rewrite IH, add_to_keys. unfold has_key. cbn [map fst In]. intuition.
Qed.
Lemma fold_map_ok : forall es m, is_map m -> is_map (fold_left (fun m e => add_to m (fst e) (snd e)) es m).
Proof. induction es as [| [n v] es IH]; intros m H; cbn [fold_left]; [exact H |]. apply IH, add_to_map, H. Qed.
Lemma fold_total : forall es m, total (fold_left (fun m e => add_to m (fst e) (snd e)) es m) = total m + total es.
Proof. induction es as [| [n v] es IH]; intros m; cbn [fold_left fst snd]; [unfold total; cbn; ring |]. rewrite IH, add_to_total. unfold total. cbn. ring. Qed.
Lemma get_concat : forall ms k, get (concat ms) k = contributions ms k.
Proof.
  assert (A : forall a b k, get (a ++ b) k = get a k + get b k). { induction a as [| [n v] a IH]; intros b k; cbn [app get]; [ring |]. rewrite IH. ring. }
  intros ms k. unfold contributions. induction ms as [| m ms IH]; cbn [concat fold_right]; [reflexivity |]. rewrite A, IH. reflexivity.
Qed.
Lemma total_concat : forall ms, total (concat ms) = grand_total ms.
Proof.
  assert (A : forall a b, total (a ++ b) = total a + total b). { unfold total. induction a as [| [n v] a IH]; intros b; cbn [app fold_right]; [ring |]. rewrite IH. ring. }
  intros ms. unfold grand_total. induction ms as [| m ms IH]; cbn [concat fold_right]; [reflexivity |]. rewrite A, IH. reflexivity.
Qed.
Lemma keys_concat : forall ms k, has_key (concat ms) k <-> exists m, In m ms /\ has_key m k.
Proof.
  intros ms k. unfold has_key. rewrite concat_map, in_concat. split.
  - intros (l & Hl & Hk). apply in_map_iff in Hl. destruct Hl as (m & <- & Hm). eauto.
  - intros (m & Hm & Hk). exists (map fst m). split; [apply in_map; exact Hm | exact Hk].
Qed.
Lemma local_to_global : forall lcls gbl, is_map gbl -> exists res, listLocalToGlobal lcls gbl = Some res /\ is_map res /\
  (forall k, has_key res k <-> has_key gbl k \/ exists m, In m lcls /\ has_key m k) /\
  (forall k, get res k = get gbl k + contributions lcls k).
Proof.
  intros lcls gbl H. eexists. split; [apply global_fold |]. split; [apply fold_map_ok; auto |]. split; intro k.
  - rewrite fold_keys, keys_concat. tauto.
  - rewrite fold_get, get_concat. reflexivity.
Qed.
Lemma local_to_global_total : forall lcls gbl res, listLocalToGlobal lcls gbl = Some res -> total res = total gbl + grand_total lcls.
Proof. intros lcls gbl res H. rewrite global_fold in H. assert (E : res = fold_left (fun m e => add_to m (fst e) (snd e)) (concat lcls) gbl) by congruence. rewrite E, fold_total, total_concat. reflexivity. Qed.
(** the order of the ranks does not matter: two maps with the same keys and values are equal *)
Lemma map_ext_eq : forall a b, is_map a -> is_map b -> (forall k, has_key a k <-> has_key b k) -> (forall k, get a k = get b k) -> a = b.
Proof.
  assert (Z0 : forall (m : imap) k, Forall (Z.lt k) (map fst m) -> get m k = 0).
  { induction m as [| [n v] m IH]; intros k F; cbn [get map fst] in *; [reflexivity |]. inversion F; subst.
    destruct (Z.eqb_spec n k); [lia |]. rewrite IH by auto. ring. }
  unfold is_map, has_key. induction a as [| [n v] a IH]; intros [| [n' v'] b] Ha Hb K G; cbn [map fst] in *; auto.
  - destruct (proj2 (K n') (or_introl eq_refl)).
  - destruct (proj1 (K n) (or_introl eq_refl)).
  - inversion Ha as [| x l Sa Fa]; inversion Hb as [| x' l' Sb Fb]; subst.
    assert (n = n').
    { rewrite Forall_forall in Fa, Fb. destruct (proj1 (K n) (or_introl eq_refl)) as [-> | H]; auto.
      destruct (proj2 (K n') (or_introl eq_refl)) as [-> | H']; auto. apply Fb in H. apply Fa in H'. lia. }
    subst n'. pose proof (G n) as Gn. cbn [get] in Gn. rewrite Z.eqb_refl, !Z0 in Gn by auto. assert (v = v') by lra. subst v'. f_equal.
    apply IH; auto.
    + intro k. specialize (K k). cbn [In] in K. destruct (Z.eq_dec k n) as [-> |].
      * split; intro H; [rewrite Forall_forall in Fa; apply Fa in H; lia | rewrite Forall_forall in Fb; apply Fb in H; lia].
      * intuition congruence.
    + intro k. specialize (G k). cbn [get] in G. lra.
Qed.
Lemma contributions_perm : forall lcls lcls' k, Permutation lcls lcls' -> contributions lcls k = contributions lcls' k.
Proof. intros lcls lcls' k P. unfold contributions. induction P; cbn [fold_right]; lra. Qed.
Lemma rank_order : forall lcls lcls', Permutation lcls lcls' -> listLocalToGlobal lcls [] = listLocalToGlobal lcls' [].
Proof.
  intros lcls lcls' P. assert (E : is_map []) by constructor.
  destruct (local_to_global lcls [] E) as (r & -> & M & K & G). destruct (local_to_global lcls' [] E) as (r' & -> & M' & K' & G'). f_equal.
  apply map_ext_eq; auto.
  - intro k. rewrite K, K'. assert (X : (exists m, In m lcls /\ has_key m k) <-> (exists m, In m lcls' /\ has_key m k)); [| tauto].
    split; intros (m & Hm & Hk); exists m; split; auto; [eapply Permutation_in; eauto | eapply Permutation_in; [apply Permutation_sym |]; eauto].
  - intro k. rewrite G, G', (contributions_perm lcls lcls' k P). reflexivity.
Qed.
