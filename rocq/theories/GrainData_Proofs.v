(** Proofs about grain volumes and grain concentrations, and about the extension of orientations. *)
From Coq Require Import Reals Lra Lia ZArith List Bool Permutation Sorted.
From Verif Require Import Weights_Model Grains_Model Grains_Spec Grains_Proofs Tools_Model Tools_Spec Tools_Proofs GrainData_Model GrainData_Spec.
Import ListNotations.
Open Scope Z_scope.

(** * Sums over cells *)
Section Sums.
Variables (num : fields) (wgt : data).

Definition visit_list (val : data) (l : list (nat * cell)) (m : imap) : imap := fold_left (fun m lc => visit num wgt val (fst lc) m (snd lc)) l m.

Lemma fold_map_pair (val : data) ln cs : forall m, fold_left (visit num wgt val ln) cs m = visit_list val (map (pair ln) cs) m.
Proof. unfold visit_list. induction cs; intros m; cbn; auto. Qed.

Lemma local_list val p : local_map num wgt val p = visit_list val (flat_map (fun lb => map (pair (fst lb)) (cells (snd lb))) p) [].
Proof.
  unfold local_map. generalize (@nil (Z * R)). induction p as [|[ln b] p IH]; intros m; [reflexivity|].
  cbn [fold_left flat_map fst snd]. rewrite IH, fold_map_pair. unfold visit_list. rewrite fold_left_app. reflexivity.
Qed.

Lemma visit_get val ln m c n : 0 <= n -> get (visit num wgt val ln m c) n =
  (get m n + (if (num ln c =? n)%Z then if Rlt_dec 0 (wgt ln c) then val ln c else 0 else 0))%R.
Proof.
  intros Hn. unfold visit, posb. destruct (Rlt_dec 0 (wgt ln c)).
  - rewrite andb_true_r. destruct (Z.leb_spec 0 (num ln c)).
    + rewrite add_to_get. reflexivity.
    + destruct (Z.eqb_spec (num ln c) n); [lia|]. ring.
  - rewrite andb_false_r. destruct (num ln c =? n); ring.
Qed.

Lemma visit_list_get val n l : 0 <= n -> forall m, get (visit_list val l m) n = (get m n + grain_sum num wgt n val l)%R.
Proof.
  intros Hn. induction l as [|[ln c] l IH]; intros m; cbn [visit_list fold_left grain_sum fst snd].
  - cbn. rewrite Rplus_0_r. reflexivity.
  - change (fold_left (fun m lc => visit num wgt val (fst lc) m (snd lc)) l (visit num wgt val ln m c)) with (visit_list val l (visit num wgt val ln m c)).
    rewrite IH, visit_get by auto. ring.
Qed.

Lemma visit_list_keys val n l : forall m, has_key (visit_list val l m) n <->
  has_key m n \/ (0 <= n /\ exists ln c, In (ln, c) l /\ num ln c = n /\ (0 < wgt ln c)%R).
Proof.
  induction l as [|[ln c] l IH]; intros m.
  - cbn. split; [auto|intros [H|(_ & ? & ? & [] & _)]; auto].
  - change (visit_list val ((ln, c) :: l) m) with (visit_list val l (visit num wgt val ln m c)). rewrite IH.
    assert (E : has_key (visit num wgt val ln m c) n <-> has_key m n \/ (0 <= n /\ num ln c = n /\ (0 < wgt ln c)%R)).
    { unfold visit, posb. destruct (Rlt_dec 0 (wgt ln c)) as [W|W].
      - rewrite andb_true_r. destruct (Z.leb_spec 0 (num ln c)).
        + rewrite add_to_keys. split; intros [H0|H0]; auto; right; [subst n; auto|symmetry; tauto].
        + split; [auto|intros [H0|(H0 & H1 & _)]; [auto|lia]].
      - rewrite andb_false_r. split; [auto|intros [H0|(_ & _ & H0)]; [auto|contradiction]]. }
    rewrite E. split.
    + intros [[H|(H & H0 & H1)]|(H & ln' & c' & H0 & H1)].
      * auto.
      * right. split; [auto|]. exists ln, c. split; [left; reflexivity|auto].
      * right. split; [auto|]. exists ln', c'. split; [right; auto|auto].
    + intros [H|(H & ln' & c' & [H0|H0] & H1 & H2)]; [auto| |].
      * inversion H0; subst ln' c'. left; right; auto.
      * right. split; [auto|]. exists ln', c'. auto.
Qed.

Lemma visit_total val ln m c : total (visit num wgt val ln m c) = (total m + (if (0 <=? num ln c)%Z then if Rlt_dec 0 (wgt ln c) then val ln c else 0 else 0))%R.
Proof.
  unfold visit, posb. destruct (Rlt_dec 0 (wgt ln c)).
  - rewrite andb_true_r. destruct (0 <=? num ln c); [apply add_to_total|ring].
  - rewrite andb_false_r. destruct (0 <=? num ln c); ring.
Qed.

Lemma visit_list_total val l : forall m, total (visit_list val l m) = (total m + grains_sum num wgt val l)%R.
Proof.
  induction l as [|[ln c] l IH]; intros m.
  - cbn. rewrite Rplus_0_r. reflexivity.
  - change (visit_list val ((ln, c) :: l) m) with (visit_list val l (visit num wgt val ln m c)). rewrite IH, visit_total. cbn [grains_sum]. ring.
Qed.

Lemma grain_sum_app n f a b : grain_sum num wgt n f (a ++ b) = (grain_sum num wgt n f a + grain_sum num wgt n f b)%R.
Proof. induction a as [|[ln c] a IH]; cbn [app grain_sum]; [ring|rewrite IH; ring]. Qed.
Lemma grains_sum_app f a b : grains_sum num wgt f (a ++ b) = (grains_sum num wgt f a + grains_sum num wgt f b)%R.
Proof. induction a as [|[ln c] a IH]; cbn [app grains_sum]; [ring|rewrite IH; ring]. Qed.

Lemma contributions_sum val n ps : 0 <= n -> contributions (map (local_map num wgt val) ps) n = grain_sum num wgt n val (all_cells ps).
Proof.
  intros Hn. unfold all_cells. induction ps as [|p ps IH]; [reflexivity|].
  cbn [map flat_map]. rewrite grain_sum_app, <- IH. cbn [contributions fold_right]. rewrite local_list, visit_list_get by auto. cbn [get]. unfold contributions. ring.
Qed.

Lemma grand_total_sum val ps : grand_total (map (local_map num wgt val) ps) = grains_sum num wgt val (all_cells ps).
Proof.
  unfold all_cells. induction ps as [|p ps IH]; [reflexivity|].
  cbn [map flat_map]. rewrite grains_sum_app, <- IH. cbn [grand_total fold_right]. rewrite local_list, visit_list_total. cbn [total fold_right]. unfold grand_total. ring.
Qed.

Lemma keys_sum val n ps : (exists m, In m (map (local_map num wgt val) ps) /\ has_key m n) <-> present num wgt ps n.
Proof.
  unfold present, all_cells. split.
  - intros (m & Hm & Hk). apply in_map_iff in Hm as (p & <- & Hp). rewrite local_list in Hk. apply visit_list_keys in Hk as [[]|(Hn & ln & c & Hc & H)].
    split; auto. exists ln, c. split; auto. apply in_flat_map. exists p; auto.
  - intros (Hn & ln & c & Hc & H). apply in_flat_map in Hc as (p & Hp & Hc). exists (local_map num wgt val p). split; [apply in_map; auto|].
    rewrite local_list. apply visit_list_keys. right. split; auto. exists ln, c; auto.
Qed.

(** the reduced map *)
Lemma global_spec val ps : exists m, global_map num wgt val ps = Some m /\ is_map m /\
  (forall n, has_key m n <-> present num wgt ps n) /\
  (forall n, 0 <= n -> get m n = grain_sum num wgt n val (all_cells ps)) /\ total m = grains_sum num wgt val (all_cells ps).
Proof.
  unfold global_map. destruct (local_to_global (map (local_map num wgt val) ps) []) as (m & E & M & K & G); [constructor|].
  exists m. split; [exact E|]. split; [exact M|]. split; [|split].
  - intros n. rewrite K, keys_sum. split; [intros [[]|H]; auto|auto].
  - intros n Hn. rewrite G, contributions_sum by auto. cbn [get]. ring.
  - rewrite (local_to_global_total _ _ _ E), grand_total_sum. cbn. ring.
Qed.

Lemma lookup_get m k : is_map m -> lookup m k = get m k.
Proof.
  intros M. induction m as [|[k' v] m IH]; [reflexivity|]. cbn [lookup get]. unfold is_map in *. cbn [map fst] in M. inversion M; subst.
  destruct (Z.eqb_spec k' k) as [->|N].
  - assert (get m k = 0%R) as ->; [|ring]. clear -H2. induction m as [|[j w] m IH]; [reflexivity|]. cbn [map fst] in H2. inversion H2; subst. cbn [get].
    destruct (Z.eqb_spec j k); [lia|]. rewrite IH; auto. ring.
  - rewrite IH by auto. ring.
Qed.

Lemma owned_iff ps ln c : owned ps ln c = true <-> In (ln, c) (all_cells ps).
Proof.
  unfold owned, all_cells. rewrite existsb_exists, in_flat_map. split; intros (p & Hp & H); exists p; (split; [auto|]).
  - apply existsb_exists in H as ([ln' b] & Hb & E). cbn [fst snd] in E. apply andb_true_iff in E as [E C]. apply Nat.eqb_eq in E; subst ln'.
    apply in_flat_map. exists (ln, b). split; auto. cbn [fst snd]. apply in_map. apply cells_in, cell_in_iff; auto.
  - apply in_flat_map in H as ([ln' b] & Hb & E). cbn [fst snd] in E. apply in_map_iff in E as (c' & E & C). inversion E; subst.
    apply existsb_exists. exists (ln, b). split; auto. cbn [fst snd]. rewrite Nat.eqb_refl. cbn [andb]. apply cell_in_iff, cells_in; auto.
Qed.

Lemma volumes_spec ps old : exists v vis, computeGrainVolumes ps num wgt old = Some (v, vis) /\ is_map v /\
  (forall n, has_key v n <-> present num wgt ps n) /\
  (forall n, 0 <= n -> get v n = grain_sum num wgt n wgt (all_cells ps)) /\ total v = grains_sum num wgt wgt (all_cells ps) /\
  (forall ln c, In (ln, c) (all_cells ps) -> 0 <= num ln c -> vis ln c = grain_sum num wgt (num ln c) wgt (all_cells ps)) /\
  (forall ln c, In (ln, c) (all_cells ps) -> num ln c < 0 -> vis ln c = 0%R) /\
  (forall ln c, ~ In (ln, c) (all_cells ps) -> vis ln c = old ln c).
Proof.
  destruct (global_spec wgt ps) as (v & E & M & K & G & T). unfold computeGrainVolumes. rewrite E. eexists _, _. split; [reflexivity|].
  split; [exact M|]. split; [exact K|]. split; [exact G|]. split; [exact T|]. split; [|split].
  - intros ln c H Hn. apply owned_iff in H. rewrite H. destruct (Z.leb_spec 0 (num ln c)); [|lia]. rewrite lookup_get by auto. apply G; auto.
  - intros ln c H Hn. apply owned_iff in H. rewrite H. destruct (Z.leb_spec 0 (num ln c)); [lia|reflexivity].
  - intros ln c H. destruct (owned ps ln c) eqn:O; [apply owned_iff in O; contradiction|reflexivity].
Qed.

Lemma grain_sum_perm n f a b : Permutation a b -> grain_sum num wgt n f a = grain_sum num wgt n f b.
Proof. induction 1 as [|[ln c]|[ln c] [ln' c']|]; cbn [grain_sum]; [auto|rewrite IHPermutation; auto|ring|congruence]. Qed.

Lemma grain_sum_pos n l : (exists ln c, In (ln, c) l /\ num ln c = n /\ (0 < wgt ln c)%R) -> (0 < grain_sum num wgt n wgt l)%R.
Proof.
  assert (P : forall l, (0 <= grain_sum num wgt n wgt l)%R).
  { clear l. induction l as [|[ln c] l IH]; cbn [grain_sum]; [lra|]. destruct (num ln c =? n); [|lra]. destruct (Rlt_dec 0 (wgt ln c)); lra. }
  induction l as [|[ln c] l IH]; intros (ln' & c' & H & E & W); [destruct H|]. cbn [grain_sum]. specialize (P l). destruct H as [H|H].
  - inversion H; subst. rewrite Z.eqb_refl. destruct (Rlt_dec 0 (wgt ln' c')); [lra|contradiction].
  - assert (0 < grain_sum num wgt n wgt l)%R by (apply IH; exists ln', c'; auto). destruct (num ln c =? n); [|lra]. destruct (Rlt_dec 0 (wgt ln c)); lra.
Qed.

Lemma grain_sum_bounds n f a b l : (forall ln c, In (ln, c) l -> num ln c = n -> (0 < wgt ln c)%R -> (a <= f ln c <= b)%R) ->
  (a * grain_sum num wgt n wgt l <= grain_sum num wgt n (fun ln c => f ln c * wgt ln c) l <= b * grain_sum num wgt n wgt l)%R.
Proof.
  induction l as [|[ln c] l IH]; intros H; cbn [grain_sum]; [lra|].
  specialize (IH (fun ln' c' h => H ln' c' (or_intror h))). pose proof (H ln c (or_introl eq_refl)) as B.
  destruct (Z.eqb_spec (num ln c) n); [|lra]. destruct (Rlt_dec 0 (wgt ln c)) as [W|]; [|lra]. specialize (B e W).
  assert (a * wgt ln c <= f ln c * wgt ln c)%R by (apply Rmult_le_compat_r; lra).
  assert (f ln c * wgt ln c <= b * wgt ln c)%R by (apply Rmult_le_compat_r; lra). lra.
Qed.

Lemma grain_sum_lin n f g k m l : grain_sum num wgt n (fun ln c => k * f ln c + m * g ln c)%R l = (k * grain_sum num wgt n f l + m * grain_sum num wgt n g l)%R.
Proof. induction l as [|[ln c] l IH]; cbn [grain_sum]; [ring|]. rewrite IH. destruct (num ln c =? n); [|ring]. destruct (Rlt_dec 0 (wgt ln c)); ring. Qed.

Lemma grain_sum_ext n f g l : (forall ln c, num ln c = n -> f ln c = g ln c) -> grain_sum num wgt n f l = grain_sum num wgt n g l.
Proof. intros H. induction l as [|[ln c] l IH]; cbn [grain_sum]; [auto|]. rewrite IH. destruct (Z.eqb_spec (num ln c) n); [|auto]. rewrite (H ln c) by auto. auto. Qed.

Lemma grain_sum_nonneg n f l : (forall ln c, (0 < wgt ln c)%R -> (0 <= f ln c)%R) -> (0 <= grain_sum num wgt n f l)%R.
Proof. intros H. induction l as [|[ln c] l IH]; cbn [grain_sum]; [lra|]. destruct (num ln c =? n); [|lra]. destruct (Rlt_dec 0 (wgt ln c)) as [W|]; [|lra]. specialize (H ln c W). lra. Qed.

Lemma grain_sum_zero n f l : (forall ln c, (0 < wgt ln c)%R -> (0 <= f ln c)%R) -> grain_sum num wgt n f l = 0%R ->
  forall ln c, In (ln, c) l -> num ln c = n -> (0 < wgt ln c)%R -> f ln c = 0%R.
Proof.
  intros P. induction l as [|[ln c] l IH]; intros Z ln' c' H E W; [destruct H|]; destruct H as [H|H]; cbn [grain_sum] in Z; pose proof (grain_sum_nonneg n f l P) as N.
  - inversion H; subst. rewrite Z.eqb_refl in Z. destruct (Rlt_dec 0 (wgt ln' c')); [|contradiction]. specialize (P ln' c' W). lra.
  - apply IH; auto. destruct (num ln c =? n); [|lra]. destruct (Rlt_dec 0 (wgt ln c)) as [W'|]; [|lra]. specialize (P ln c W'). lra.
Qed.

Lemma map_key_in (m : imap) f k : has_key (map (fun kv => (fst kv, f (fst kv) : R)) m) k <-> has_key m k.
Proof. unfold has_key. rewrite map_map. cbn [fst]. reflexivity. Qed.
Lemma map_is_map (m : imap) f : is_map m -> is_map (map (fun kv => (fst kv, f (fst kv) : R)) m).
Proof. unfold is_map. rewrite map_map. cbn [fst]. auto. Qed.
Lemma map_lookup (m : imap) f k : has_key m k -> lookup (map (fun kv => (fst kv, f (fst kv) : R)) m) k = f k.
Proof.
  unfold has_key. induction m as [|[k' v] m IH]; intros H; [destruct H|]. cbn [map fst lookup] in *. destruct (Z.eqb_spec k' k); [subst; auto|].
  apply IH. destruct H; [contradiction|auto].
Qed.

Lemma sum_keys (c m : imap) : is_map m -> (forall k, has_key c k <-> has_key m k) -> is_map c ->
  forall a, fold_left (fun a kv => (a + lookup m (fst kv))%R) c a = (a + total m)%R.
Proof.
  intros M K C. assert (E : map fst c = map fst m).
  { apply (Sorted.StronglySorted_Sorted) in C as C'. clear C'. unfold is_map in *. revert C M K. unfold has_key. generalize (map fst c) (map fst m).
    induction l as [|x l IH]; intros l' C M K.
    - destruct l' as [|y l']; auto. destruct (proj2 (K y)); left; auto.
    - destruct l' as [|y l']; [destruct (proj1 (K x)); left; auto|]. inversion C as [|? ? C' Fx]; inversion M as [|? ? M' Fy]; subst.
      rewrite Forall_forall in Fx, Fy. assert (x = y).
      { destruct (proj1 (K x) (or_introl eq_refl)) as [|Hx]; auto. destruct (proj2 (K y) (or_introl eq_refl)) as [|Hy]; auto. specialize (Fx _ Hy). specialize (Fy _ Hx). lia. }
      subst y. f_equal. apply IH; auto. intros k. split; intros Hk.
      + destruct (proj1 (K k) (or_intror Hk)); auto. specialize (Fx _ Hk). lia.
      + destruct (proj2 (K k) (or_intror Hk)); auto. specialize (Fy _ Hk). lia. }
  assert (G : forall ks : list Z, forall a, fold_left (fun a k => (a + lookup m k)%R) ks a = (a + fold_right (fun k s => (lookup m k + s)%R) 0%R ks)%R).
  { induction ks as [|k ks IH]; intros a; cbn [fold_left fold_right]; [ring|rewrite IH; ring]. }
  assert (F : forall (l : imap) a, fold_left (fun a kv => (a + lookup m (fst kv))%R) l a = fold_left (fun a k => (a + lookup m k)%R) (map fst l) a).
  { induction l as [|x l IH]; intros a; cbn [fold_left map]; auto. }
  intros a. rewrite F, E, G. f_equal.
  assert (S : forall l, (forall k v, In (k, v) l -> lookup m k = v) -> fold_right (fun k s => (lookup m k + s)%R) 0%R (map fst l) = total l).
  { induction l as [|[k v] l IH]; intros H; cbn [map fst fold_right total snd]; [auto|]. rewrite (H k v) by (left; auto). rewrite IH; [unfold total; auto|intros; apply H; right; auto]. }
  apply S. intros k v Hkv. clear -M Hkv. induction m as [|[j w] m IH]; [destruct Hkv|]. unfold is_map in M. cbn [map fst] in M. inversion M as [|? ? M' F']; subst. cbn [lookup].
  destruct Hkv as [H|H]; [inversion H; subst; rewrite Z.eqb_refl; auto|]. destruct (Z.eqb_spec j k); [|apply IH; auto].
  subst. rewrite Forall_forall in F'. assert (In k (map fst m)) by (apply in_map_iff; exists (k, v); auto). specialize (F' _ H0). lia.
Qed.

Lemma fold_pair (c w : imap) : forall l a b, fold_left (fun (a : R * R) (kv : Z * R) => (fst a + lookup c (fst kv), snd a + lookup w (fst kv))%R) l (a, b) =
  (fold_left (fun a kv => (a + lookup c (fst kv))%R) l a, fold_left (fun a kv => (a + lookup w (fst kv))%R) l b).
Proof. induction l as [|x l IH]; intros a b; cbn [fold_left fst snd]; auto. Qed.

Lemma concentrations_spec ps conc : exists avg all dev, computeGrainConcentrations ps num wgt conc = Some (avg, all, dev) /\
  is_map avg /\ is_map dev /\ (forall n, has_key avg n <-> present num wgt ps n) /\ (forall n, has_key dev n <-> present num wgt ps n) /\
  let S n f := grain_sum num wgt n f (all_cells ps) in
  (forall n, present num wgt ps n -> get avg n = (S n (fun ln c => conc ln c * wgt ln c) / S n wgt)%R /\
     get dev n = (S n (fun ln c => wgt ln c * ((conc ln c - get avg n) * (conc ln c - get avg n))) / S n wgt)%R) /\
  all = match avg with [] => None | _ => Some (grains_sum num wgt (fun ln c => conc ln c * wgt ln c) (all_cells ps) / grains_sum num wgt wgt (all_cells ps))%R end.
Proof.
  destruct (global_spec (fun ln c => conc ln c * wgt ln c)%R ps) as (gc & Ec & Mc & Kc & Gc & Tc).
  destruct (global_spec wgt ps) as (gw & Ew & Mw & Kw & Gw & Tw).
  unfold computeGrainConcentrations. rewrite Ec, Ew.
  set (cdev := fun ln c => let cdiff := (conc ln c - lookup (averages gc gw) (num ln c))%R in (wgt ln c * (cdiff * cdiff))%R).
  destruct (global_spec cdev ps) as (gd & Ed & Md & Kd & Gd & Td). cbv zeta. fold cdev. rewrite Ed.
  eexists _, _, _. split; [reflexivity|].
  assert (Ma : is_map (averages gc gw)) by (apply (map_is_map gc (fun k => lookup gc k / lookup gw k)%R); auto).
  assert (LA : forall n, present num wgt ps n -> lookup (averages gc gw) n = (grain_sum num wgt n (fun ln c => conc ln c * wgt ln c) (all_cells ps) / grain_sum num wgt n wgt (all_cells ps))%R).
  { intros n Hn. unfold averages. rewrite (map_lookup gc (fun k => lookup gc k / lookup gw k)%R) by (apply Kc; auto).
    rewrite !lookup_get by auto. rewrite Gc, Gw by apply Hn. reflexivity. }
  split; [exact Ma|]. split; [apply (map_is_map gd (fun k => lookup gd k / lookup gw k)%R); auto|].
  split; [intros n; unfold averages; rewrite (map_key_in gc (fun k => lookup gc k / lookup gw k)%R); apply Kc|].
  split; [intros n; rewrite (map_key_in gd (fun k => lookup gd k / lookup gw k)%R); apply Kd|].
  split.
  - intros n Hn. rewrite <- !lookup_get by (auto; apply (map_is_map gd (fun k => lookup gd k / lookup gw k)%R); auto). split; [apply LA; auto|].
    rewrite (map_lookup gd (fun k => lookup gd k / lookup gw k)%R) by (apply Kd; auto).
    rewrite (lookup_get gd), (lookup_get gw) by auto. rewrite Gd, Gw by apply Hn. f_equal. apply grain_sum_ext. intros ln c E. unfold cdev. rewrite E. reflexivity.
  - unfold all_average, averages. destruct gc as [|kv gc]; [reflexivity|]. cbn [map]. rewrite fold_pair. cbn [fst snd].
    rewrite (sum_keys (kv :: gc) (kv :: gc)), (sum_keys (kv :: gc) gw); auto; [|intros k; rewrite Kc, Kw; reflexivity|reflexivity].
    rewrite Tc, Tw. rewrite !Rplus_0_l. reflexivity.
Qed.
End Sums.

(** * Extension of orientations: the loop over cells *)
Section Ext.
Context {A : Type}.
Variables (nprocs : nat) (rank : nat -> box -> nat) (qavg : ratio3 -> (cell -> A) -> cell -> A) (jf : nat -> cell -> Z) (jq : nat -> cell -> A).

Section OneSweep.
Variables (nd ln : nat) (fs : cell -> Z) (qs : cell -> A).
(** the value an untagged cell takes *)
Definition ext (c : cell) : option A := if fs c =? 0 then tagged_neighbour fs qs c (seq 0 nd) else None.
Definition stays (c : cell) : bool := (fs c =? 0) && match tagged_neighbour fs qs c (seq 0 nd) with None => true | Some _ => false end.

Lemma put_same {B} (g : cell -> B) c v : put g c v c = v.
Proof. unfold put. rewrite cell_eqb_refl. reflexivity. Qed.
Lemma put_other {B} (g : cell -> B) c v a : a <> c -> put g c v a = g a.
Proof. unfold put. intros N. destruct (cell_eqb a c) eqn:E; [apply cell_eqb_iff in E; contradiction|reflexivity]. Qed.

Lemma cells_fold cs : forall flag quat u, exists flag' quat', fold_left (extend_cell nd fs qs) cs (flag, quat, u) = (flag', quat', u || existsb stays cs) /\
  forall c, (In c cs -> flag' c = match ext c with Some _ => 1 | None => flag c end /\ quat' c = match ext c with Some v => v | None => quat c end) /\
            (~ In c cs -> flag' c = flag c /\ quat' c = quat c).
Proof.
  induction cs as [|a cs IH]; intros flag quat u.
  - exists flag, quat. split; [cbn; rewrite orb_false_r; reflexivity|]. intros c. split; [intros []|auto].
  - cbn [fold_left existsb]. destruct (fs a =? 0) eqn:F.
    + destruct (tagged_neighbour fs qs a (seq 0 nd)) as [v|] eqn:T.
      * assert (Ea : ext a = Some v) by (unfold ext; rewrite F; auto).
        assert (Sa : stays a = false) by (unfold stays; rewrite F, T; auto).
        destruct (IH (put flag a 1) (put quat a v) u) as (f' & q' & E & H). exists f', q'. split.
        { unfold extend_cell at 2. rewrite F, T, E, Sa. reflexivity. }
        intros c. destruct (H c) as [H1 H2]. split.
        { intros I0. destruct (in_dec cell_dec c cs) as [I|I].
          - destruct (H1 I) as [-> ->]. destruct (cell_dec c a) as [->|N]; [rewrite Ea; auto|]. rewrite !put_other by auto. auto.
          - destruct (H2 I) as [-> ->]. destruct (cell_dec c a) as [->|N]; [rewrite Ea, !put_same; auto|].
            exfalso. destruct I0 as [I0|I0]; [congruence|contradiction]. }
        { intros N. destruct (H2 (fun h => N (or_intror h))) as [-> ->]. rewrite !put_other; auto; intros ->; apply N; left; auto. }
      * assert (Ea : ext a = None) by (unfold ext; rewrite F; auto).
        assert (Sa : stays a = true) by (unfold stays; rewrite F, T; auto).
        destruct (IH flag quat true) as (f' & q' & E & H). exists f', q'. split.
        { unfold extend_cell at 2. rewrite F, T, E, Sa. cbn [orb]. rewrite orb_true_r. reflexivity. }
        intros c. destruct (H c) as [H1 H2]. split; [|intros N; apply H2; intros h; apply N; right; auto].
        intros [->|I]; [|auto]. destruct (in_dec cell_dec c cs) as [I|I]; [auto|]. rewrite Ea. apply H2; auto.
    + assert (Ea : ext a = None) by (unfold ext; rewrite F; auto).
      assert (Sa : stays a = false) by (unfold stays; rewrite F; auto).
      destruct (IH flag quat u) as (f' & q' & E & H). exists f', q'. split.
      { unfold extend_cell at 2. rewrite F, E, Sa. reflexivity. }
      intros c. destruct (H c) as [H1 H2]. split; [|intros N; apply H2; intros h; apply N; right; auto].
      intros [->|I]; [|auto]. destruct (in_dec cell_dec c cs) as [I|I]; [auto|]. rewrite Ea. apply H2; auto.
Qed.

(** all patches of a level; for every process the outcome of its last patch *)
Definition last_unset (bs : list box) (unset : nat -> bool) (p : nat) : bool :=
  fold_left (fun u b => if Nat.eqb p (rank ln b) then existsb stays (cells b) else u) bs (unset p).
Lemma patches_fold bs : forall flag quat unset, exists flag' quat' unset', fold_left (extend_patch rank nd ln fs qs) bs (flag, quat, unset) = (flag', quat', unset') /\
  (forall p, unset' p = last_unset bs unset p) /\
  forall c, ((exists b, In b bs /\ inside b c) -> flag' c = match ext c with Some _ => 1 | None => flag c end /\ quat' c = match ext c with Some v => v | None => quat c end) /\
            (~ (exists b, In b bs /\ inside b c) -> flag' c = flag c /\ quat' c = quat c).
Proof.
  induction bs as [|b bs IH]; intros flag quat unset.
  - exists flag, quat, unset. split; [reflexivity|]. split; [reflexivity|]. intros c. split; [intros (b & [] & _)|auto].
  - cbn [fold_left]. destruct (cells_fold (cells b) flag quat false) as (f1 & q1 & E1 & H1).
    destruct (IH f1 q1 (fun p => if Nat.eqb p (rank ln b) then existsb stays (cells b) else unset p)) as (f2 & q2 & u2 & E2 & U2 & H2).
    exists f2, q2, u2. split; [|split].
    + unfold extend_patch at 2. rewrite E1. exact E2.
    + intros p. rewrite U2. reflexivity.
    + intros c. destruct (H1 c) as [P1 P2]. destruct (H2 c) as [Q1 Q2].
      assert (D : (exists b', In b' bs /\ inside b' c) \/ ~ (exists b', In b' bs /\ inside b' c)).
      { destruct (existsb (fun b' => cell_in b' c) bs) eqn:X.
        - left. apply existsb_exists in X as (b' & I & X'). exists b'. split; auto. apply cell_in_iff; auto.
        - right. intros (b' & I & X'). apply cell_in_iff in X'. assert (existsb (fun b' => cell_in b' c) bs = true) by (apply existsb_exists; eauto). congruence. }
      assert (D' : inside b c \/ ~ inside b c) by (rewrite <- cell_in_iff; destruct (cell_in b c); auto). rewrite cells_in in P1, P2.
      split.
      * intros (b' & I & X). destruct D' as [D'|D'].
        { destruct (P1 D') as [F1 G1]. destruct D as [D|D]; [destruct (Q1 D) as [-> ->]|destruct (Q2 D) as [-> ->]; auto]. rewrite F1, G1. destruct (ext c); auto. }
        { destruct (P2 D') as [F1 G1]. destruct I as [->|I]; [contradiction|]. destruct (Q1 (ex_intro _ b' (conj I X))) as [-> ->]. rewrite F1, G1. auto. }
      * intros N. destruct D' as [D'|D']; [destruct N; exists b; split; [left|]; auto|]. destruct D as [(b' & I & X)|D]; [destruct N; exists b'; split; [right|]; auto|].
        destruct (P2 D') as [<- <-]. apply Q2; auto.
Qed.

Lemma tn_some c : forall dirs v, tagged_neighbour fs qs c dirs = Some v -> exists d e, In d dirs /\ (e = 1 \/ e = -1) /\ fs (shift d e c) = 1 /\ v = qs (shift d e c).
Proof.
  induction dirs as [|d dirs IH]; cbn [tagged_neighbour]; intros v H; [discriminate|].
  destruct (Z.eqb_spec (fs (shift d 1 c)) 1); [exists d, 1; inversion H; repeat split; auto; left; auto|].
  destruct (Z.eqb_spec (fs (shift d (-1) c)) 1); [exists d, (-1); inversion H; repeat split; auto; left; auto|].
  destruct (IH v H) as (d' & e & I & R). exists d', e. split; [right|]; auto.
Qed.
Lemma tn_none c : forall dirs, tagged_neighbour fs qs c dirs = None -> forall d e, In d dirs -> e = 1 \/ e = -1 -> fs (shift d e c) <> 1.
Proof.
  induction dirs as [|d dirs IH]; cbn [tagged_neighbour]; intros H d' e I He; [destruct I|].
  destruct (Z.eqb_spec (fs (shift d 1 c)) 1); [discriminate|]. destruct (Z.eqb_spec (fs (shift d (-1) c)) 1); [discriminate|].
  destruct I as [->|I]; [destruct He; subst; auto|]. apply (IH H); auto.
Qed.
End OneSweep.

(** * One level *)
Section Level.
Variables (h : ghier) (l : glevel).
Hypothesis T : tiled h l.
Hypothesis clean : clean_ghosts jf.

Lemma t_lev : lev h 0 = l.
Proof. destruct T as (E & _). unfold lev. rewrite E. reflexivity. Qed.
Lemma t_dim : (ndim h <= 3)%nat.
Proof. destruct T as (_ & [D|(D & _)] & _); lia. Qed.
Lemma t_patches c : in_patches l c = true <-> inside (gdom l) c.
Proof. destruct T as (_ & _ & I & C). rewrite in_patches_iff. split; [intros (b & B & H); eauto|auto]. Qed.

Lemma scr_inside {B} (junk g : nat -> cell -> B) c : inside (gdom l) c -> fill_scr h junk g 0 c = g 0%nat c.
Proof.
  intros H. unfold fill_scr. cbv zeta. rewrite t_lev, image_id by auto. rewrite (proj2 (cell_in_iff (gdom l) c) H), (proj2 (t_patches c) H). reflexivity.
Qed.
Lemma scr_image {B} (junk g : nat -> cell -> B) c : inside (gdom l) (image h l c) -> fill_scr h junk g 0 c = g 0%nat (image h l c).
Proof.
  intros H. unfold fill_scr. cbv zeta. rewrite t_lev. rewrite (proj2 (cell_in_iff (gdom l) _) H), (proj2 (t_patches _) H). reflexivity.
Qed.
Lemma scr_outside {B} (junk g : nat -> cell -> B) c : ~ inside (gdom l) (image h l c) -> fill_scr h junk g 0 c = junk 0%nat c.
Proof.
  intros H. unfold fill_scr. cbv zeta. rewrite t_lev. destruct (cell_in (gdom l) (image h l c)) eqn:E; [apply cell_in_iff in E; contradiction|]. reflexivity.
Qed.

Definition sweep_ext (g : fields) (q : @quats A) (c : cell) : option A := ext (ndim h) (fill_scr h jf g 0) (fill_scr h jq q 0) c.
Definition sweep_stays (g : fields) (q : @quats A) (c : cell) : bool := stays (ndim h) (fill_scr h jf g 0) (fill_scr h jq q 0) c.

Lemma sweep_one g q : exists g' q' unset, extend_sweep rank qavg jf jq h g q = (g', q', unset) /\
  (forall p, unset p = last_unset (ndim h) 0 (fill_scr h jf g 0) (fill_scr h jq q 0) (gpatches l) (fun _ => true) p) /\
  (forall c, inside (gdom l) c -> g' 0%nat c = match sweep_ext g q c with Some _ => 1 | None => g 0%nat c end /\
                                  q' 0%nat c = match sweep_ext g q c with Some v => v | None => q 0%nat c end) /\
  (forall c, ~ inside (gdom l) c -> q' 0%nat c = q 0%nat c) /\ (forall ln, ln <> 0%nat -> q' ln = q ln).
Proof.
  unfold extend_sweep. destruct T as (E & D & I & C). rewrite E. cbn [length seq fold_left]. unfold extend_level. cbv beta iota zeta. rewrite t_lev.
  destruct (patches_fold (ndim h) 0 (fill_scr h jf g 0) (fill_scr h jq q 0) (gpatches l) (g 0%nat) (q 0%nat) (fun _ => true)) as (f' & q' & u' & F & U & P).
  lazymatch goal with |- context [fold_left ?f (gpatches l) ?s] => replace (fold_left f (gpatches l) s) with (f', q', u') by (symmetry; exact F) end.
  eexists _, _, _. split; [reflexivity|]. split; [exact U|]. split; [|split].
  - intros c Hc. unfold set_level, set_quats. cbn [Nat.eqb]. apply (proj1 (P c)). auto.
  - intros c Hc. unfold set_quats. cbn [Nat.eqb]. apply (proj2 (P c)). intros (b & B & X). eauto.
  - intros ln N. unfold set_quats. destruct (Nat.eqb_spec ln 0); [contradiction|reflexivity].
Qed.

(** what n sweeps have done *)
Definition extended (q0 : @quats A) (n : nat) (g : fields) (q : @quats A) : Prop :=
  (forall c, inside (gdom l) c ->
    (exists k gr, (k <= n)%nat /\ nearest h l k gr c /\ g 0%nat c = 1 /\ q 0%nat c = q0 0%nat gr) \/
    (far h l n c /\ g 0%nat c = 0 /\ q 0%nat c = q0 0%nat c)) /\
  (forall c, ~ inside (gdom l) c -> q 0%nat c = q0 0%nat c) /\ (forall ln, ln <> 0%nat -> q ln = q0 ln).

Lemma steps_inside n a c : steps h l n a c -> inside (gdom l) c.
Proof. destruct 1; auto. Qed.

Lemma extended_init q0 : extended q0 0 (tag_grains h) q0.
Proof.
  split; [|split; auto]. intros c Hc. unfold tag_grains. destruct T as (E & _). rewrite E. cbn [length seq fold_left tag_level]. unfold set_level. cbn [Nat.eqb].
  rewrite t_lev, (proj2 (t_patches c) Hc). cbn [andb]. destruct (solid l c) eqn:S.
  - left. exists 0%nat, c. split; [lia|]. split; [|auto]. split; [split; auto|]. split; [constructor; auto|]. intros; lia.
  - right. split; [|auto]. intros j g Hj [_ G] H. assert (j = 0)%nat by lia. subst j. inversion H; subst. congruence.
Qed.

Lemma extended_step q0 n g q g' q' unset : extended q0 n g q -> extend_sweep rank qavg jf jq h g q = (g', q', unset) -> extended q0 (S n) g' q'.
Proof.
  intros (X & Y & Z0) E. destruct (sweep_one g q) as (g1 & q1 & u1 & E1 & _ & P & O & L). rewrite E in E1. inversion E1; subst g1 q1 u1. clear E1.
  split; [|split; [intros c Hc; rewrite O; auto|intros ln N; rewrite L; auto]].
  intros c Hc. destruct (P c Hc) as [Pg Pq]. rewrite Pg, Pq. clear Pg Pq.
  destruct (X c Hc) as [(k & gr & Hk & N & G & Q)|(F & G & Q)].
  - assert (sweep_ext g q c = None) as ->; [|left; exists k, gr; split; [lia|auto]].
    unfold sweep_ext, ext. rewrite scr_inside, G by auto. reflexivity.
  - assert (sweep_ext g q c = tagged_neighbour (fill_scr h jf g 0) (fill_scr h jq q 0) c (seq 0 (ndim h))) as ->.
    { unfold sweep_ext, ext. rewrite scr_inside, G by auto. reflexivity. }
    destruct (tagged_neighbour _ _ c _) as [v|] eqn:TN.
    + left. apply tn_some in TN as (d & e & Id & He & Ft & ->). apply in_seq in Id.
      assert (Hi : inside (gdom l) (image h l (shift d e c))).
      { destruct (cell_in (gdom l) (image h l (shift d e c))) eqn:CI; [apply cell_in_iff; auto|].
        rewrite scr_outside in Ft by (rewrite <- cell_in_iff; congruence). destruct (clean 0%nat (shift d e c) Ft). }
      rewrite scr_image in Ft by auto. rewrite (scr_image jq) by auto. set (c' := image h l (shift d e c)) in *.
      destruct (X c' Hi) as [(k & gr & Hk & (Gr & St & Mn) & _ & Qc)|(_ & G0 & _)]; [|congruence].
      assert (St' : steps h l (S k) gr c) by (eapply steps_S; [exact St| |auto]; apply neighbour_sym; apply image_neighbour; auto; [lia|apply t_dim]).
      assert (k = n) by (destruct (Nat.eq_dec k n); [auto|]; exfalso; apply (F (S k) gr); auto; lia). subst k.
      exists (S n), gr. split; [lia|]. split; [|auto]. split; [auto|]. split; [auto|]. intros j g'' Hj Gr' St''. apply (F j g''); auto. lia.
    + right. split; [|auto]. intros j gr Hj Gr St. inversion St as [|j' a b c0 St' Nb Ic]; subst; [apply (F 0%nat c (Nat.le_0_l _) Gr); constructor; auto|].
      destruct (Nat.eq_dec j' n) as [->|]; [|apply (F (S j') gr); auto; lia].
      assert (Ib : inside (gdom l) b) by (eapply steps_inside; eauto).
      destruct (neighbour_image h l c b t_dim Hc Ib (neighbour_sym _ _ _ _ Nb)) as (d & e & Hd & He & Im & _).
      pose proof (tn_none _ _ _ _ TN d e ltac:(apply in_seq; lia) He) as NT. rewrite scr_image in NT by (rewrite Im; auto). rewrite Im in NT.
      destruct (X b Ib) as [(k & gr' & _ & _ & G1 & _)|(Fb & _)]; [contradiction|]. apply (Fb n gr); auto.
Qed.

(** a process is done iff the cells of its last patch are all within reach *)
Lemma stays_far q0 n g q g' q' unset c : extended q0 n g q -> extend_sweep rank qavg jf jq h g q = (g', q', unset) -> inside (gdom l) c ->
  sweep_stays g q c = true <-> far h l (S n) c.
Proof.
  intros X E Hc. pose proof (extended_step _ _ _ _ _ _ _ X E) as (X' & _). destruct (sweep_one g q) as (g1 & q1 & u1 & E1 & _ & P & _). rewrite E in E1. inversion E1; subst g1 q1 u1. clear E1.
  destruct (P c Hc) as [Pg _]. destruct X as (X & _). destruct (X c Hc) as [(k & gr & Hk & N & G & Q)|(F & G & Q)].
  - unfold sweep_stays, stays. rewrite scr_inside, G by auto. cbn. split; [discriminate|]. intros F. destruct N as (N1 & N2 & _). destruct (F k gr); auto.
  - unfold sweep_stays, stays. unfold sweep_ext, ext in Pg. rewrite scr_inside, G in * by auto. cbn [Z.eqb andb] in *.
    destruct (tagged_neighbour _ _ c _).
    + split; [discriminate|]. intros F'. destruct (X' c Hc) as [(k & gr & Hk & (N1 & N2 & _) & _)|(_ & G' & _)]; [destruct (F' k gr); auto|congruence].
    + split; [intros _|auto]. destruct (X' c Hc) as [(k & gr & Hk & _ & G' & _)|(F' & _)]; [congruence|auto].
Qed.

Lemma loop_spec q0 : forall fuel n g q, extended q0 n g q -> exists n' g' q' nn conv, extend_loop nprocs rank qavg jf jq h fuel (Z.of_nat n) g q = (g', q', nn, conv) /\
  extended q0 n' g' q' /\ (if conv then (Z.of_nat n' = nn + 1 /\ (n < n' <= n + fuel)%nat) else n' = (n + fuel)%nat).
Proof.
  induction fuel as [|fuel IH]; intros n g q X; cbn [extend_loop].
  - exists n, g, q, (Z.of_nat n), false. split; [reflexivity|]. split; [exact X|]. lia.
  - destruct (extend_sweep rank qavg jf jq h g q) as [[g' q'] unset] eqn:E. pose proof (extended_step _ _ _ _ _ _ _ X E) as X'.
    destruct (existsb unset (seq 0 nprocs)).
    + replace (Z.of_nat n + 1) with (Z.of_nat (S n)) by lia. destruct (IH (S n) g' q' X') as (n' & g2 & q2 & nn & conv & E2 & X2 & C). exists n', g2, q2, nn, conv.
      split; [exact E2|]. split; [exact X2|]. destruct conv; lia.
    + exists (S n), g', q', (Z.of_nat n), true. split; [reflexivity|]. split; [exact X'|]. lia.
Qed.

(** processes with one patch each *)
Hypothesis one_patch : NoDup (map (rank 0) (gpatches l)).
Hypothesis ranks : forall b, In b (gpatches l) -> (rank 0%nat b < nprocs)%nat.

Lemma last_unset_one nd fs qs : forall bs u, NoDup (map (rank 0) bs) -> forall b, In b bs -> last_unset nd 0 fs qs bs u (rank 0%nat b) = existsb (stays nd fs qs) (cells b).
Proof.
  unfold last_unset. induction bs as [|b' bs IH]; intros u D b I; [destruct I|]. cbn [map] in D. inversion D as [|? ? N D']; subst. cbn [fold_left].
  destruct I as [->|I].
  - rewrite Nat.eqb_refl. generalize (existsb (stays nd fs qs) (cells b)). clear IH D D'. induction bs as [|b'' bs IH]; intros v; cbn [fold_left]; auto.
    destruct (Nat.eqb_spec (rank 0 b) (rank 0 b'')) as [E|_]; [destruct N; rewrite E; left; auto|]. apply IH. intros H. apply N. right; auto.
  - destruct (Nat.eqb_spec (rank 0 b) (rank 0 b')) as [E|_]; [destruct N; rewrite <- E; apply in_map; auto|]. apply (IH u D' b I).
Qed.

Lemma unset_false q0 n g q g' q' unset : extended q0 n g q -> extend_sweep rank qavg jf jq h g q = (g', q', unset) -> existsb unset (seq 0 nprocs) = false ->
  forall c, inside (gdom l) c -> ~ far h l (S n) c.
Proof.
  intros X E U c Hc F. destruct T as (_ & _ & _ & Cv). destruct (Cv c Hc) as (b & B & Ib).
  assert (existsb unset (seq 0 nprocs) = true); [|congruence]. apply existsb_exists. exists (rank 0%nat b). split; [apply in_seq; specialize (ranks b B); lia|].
  destruct (sweep_one g q) as (g1 & q1 & u1 & E1 & U1 & _). rewrite E in E1. inversion E1; subst g1 q1 u1.
  rewrite U1, last_unset_one by auto. apply existsb_exists. exists c. split; [apply cells_in; auto|]. apply (stays_far q0 n g q g' q' unset c X E Hc); auto.
Qed.

Hypothesis all_busy : forall p, (p < nprocs)%nat -> exists b, In b (gpatches l) /\ rank 0%nat b = p.
Lemma unset_true q0 n g q g' q' unset : extended q0 n g q -> extend_sweep rank qavg jf jq h g q = (g', q', unset) -> existsb unset (seq 0 nprocs) = true ->
  exists c, inside (gdom l) c /\ far h l (S n) c.
Proof.
  intros X E U. apply existsb_exists in U as (p & Ip & Up). apply in_seq in Ip. destruct (all_busy p ltac:(lia)) as (b & B & <-).
  destruct (sweep_one g q) as (g1 & q1 & u1 & E1 & U1 & _). rewrite E in E1. inversion E1; subst g1 q1 u1.
  rewrite U1, last_unset_one in Up by auto. apply existsb_exists in Up as (c & Ic & Sc). apply cells_in in Ic. destruct T as (_ & _ & In' & _).
  exists c. split; [eauto|]. apply (stays_far q0 n g q g' q' unset c X E); eauto.
Qed.
Lemma near_all n : (forall c, inside (gdom l) c -> ~ far h l n c) -> forall q0 g q, extended q0 n g q ->
  forall c, inside (gdom l) c -> exists k gr, (k <= n)%nat /\ nearest h l k gr c /\ q 0%nat c = q0 0%nat gr.
Proof. intros N q0 g q (X & _) c Hc. destruct (X c Hc) as [(k & gr & Hk & Ne & _ & Q)|(F & _)]; [exists k, gr; auto|destruct (N c Hc F)]. Qed.

Lemma loop_one q0 : forall fuel n g q, extended q0 n g q -> exists n' g' q' nn conv, extend_loop nprocs rank qavg jf jq h fuel (Z.of_nat n) g q = (g', q', nn, conv) /\
  extended q0 n' g' q' /\
  (if conv then Z.of_nat n' = nn + 1 /\ (n < n')%nat /\ (forall c, inside (gdom l) c -> ~ far h l n' c) /\ (n' = S n \/ exists c, inside (gdom l) c /\ far h l (n' - 1) c)
   else n' = (n + fuel)%nat /\ (fuel = 0%nat \/ exists c, inside (gdom l) c /\ far h l n' c)).
Proof.
  induction fuel as [|fuel IH]; intros n g q X; cbn [extend_loop].
  - exists n, g, q, (Z.of_nat n), false. split; [reflexivity|]. split; [exact X|]. split; [lia|auto].
  - destruct (extend_sweep rank qavg jf jq h g q) as [[g' q'] unset] eqn:E. pose proof (extended_step _ _ _ _ _ _ _ X E) as X'.
    destruct (existsb unset (seq 0 nprocs)) eqn:U.
    + pose proof (unset_true _ _ _ _ _ _ _ X E U) as FC.
      replace (Z.of_nat n + 1) with (Z.of_nat (S n)) by lia. destruct (IH (S n) g' q' X') as (n' & g2 & q2 & nn & conv & E2 & X2 & C). exists n', g2, q2, nn, conv.
      split; [exact E2|]. split; [exact X2|]. destruct conv.
      * destruct C as (C1 & C2 & C3 & C4). split; [auto|]. split; [lia|]. split; [auto|]. right. destruct C4 as [->|C4]; [|auto]. replace (S (S n) - 1)%nat with (S n) by lia. auto.
      * destruct C as (C1 & C2). split; [lia|]. right. destruct C2 as [->|C2]; [|auto]. rewrite C1, Nat.add_0_r. auto.
    + exists (S n), g', q', (Z.of_nat n), true. split; [reflexivity|]. split; [exact X'|]. split; [lia|]. split; [lia|]. split; [|auto].
      exact (unset_false _ _ _ _ _ _ _ X E U).
Qed.
End Level.
End Ext.

(** * Statements *)
Lemma iterations_one h l : glevels h = [l] -> dim_ok h l -> extend_iterations h = fold_left Z.max (map (fun d => width d (gdom l)) (seq 0 (ndim h))) 0.
Proof.
  intros E D. unfold extend_iterations. rewrite E. cbn [fold_left]. generalize 0. induction (seq 0 (ndim h)) as [|d ds IH]; intros m; cbn [fold_left map]; [reflexivity|].
  rewrite IH. f_equal. cbv zeta. destruct (Z.ltb_spec m (width d (gdom l))); lia.
Qed.

Lemma extension_nearest : forall A nprocs rank qavg jf (jq : nat -> cell -> A) h l q q' rep, tiled h l -> clean_ghosts jf ->
  extendGrainOrientation nprocs rank qavg jf jq h q = (q', rep) ->
  exists n, (forall nn, rep = Some nn -> nn + 1 = Z.of_nat n) /\ (rep = None -> n = Z.to_nat (extend_iterations h)) /\ Z.of_nat n <= Z.max 0 (extend_iterations h) /\
  forall c, inside (gdom l) c ->
    (forall k g, (k <= n)%nat -> nearest h l k g c -> exists g', nearest h l k g' c /\ q' 0%nat c = q 0%nat g') /\
    (far h l n c -> q' 0%nat c = q 0%nat c).
Proof.
  intros A nprocs rank qavg jf jq h l q q' rep T clean E. unfold extendGrainOrientation in E.
  destruct (loop_spec nprocs rank qavg jf jq h l T clean q (Z.to_nat (extend_iterations h)) 0 (tag_grains h) q (extended_init h l T q)) as (n & g1 & q1 & nn & conv & L & X & C).
  cbn [Z.of_nat] in L. rewrite L in E. destruct T as (E1 & _). rewrite E1 in E. cbn [length Nat.sub seq rev fold_left] in E. inversion E; subst q' rep. clear E.
  exists n. split; [|split; [|split]].
  - destruct conv; [intros m [= ->]; lia|discriminate].
  - destruct conv; [discriminate|intros _; cbn in C; lia].
  - destruct conv; lia.
  - destruct X as (X & _). intros c Hc. destruct (X c Hc) as [(k & gr & Hk & (N1 & N2 & N3) & _ & Q)|(F & _ & Q)].
    + split.
      * intros k' g Hk' (M1 & M2 & M3). assert (k' = k) as ->.
        { destruct (Nat.lt_trichotomy k' k) as [H|[H|H]]; [destruct (N3 k' g H M1 M2)|auto|destruct (M3 k gr H N1 N2)]. }
        exists gr. split; [split; auto|auto].
      * intros F. destruct (F k gr Hk N1 N2).
    + split; [|auto]. intros k g Hk (M1 & M2 & _). destruct (F k g Hk M1 M2).
Qed.

Lemma extension_one_patch : forall A nprocs rank qavg jf (jq : nat -> cell -> A) h l q q' nn, tiled h l -> clean_ghosts jf ->
  NoDup (map (rank 0%nat) (gpatches l)) -> (forall b, In b (gpatches l) -> (rank 0%nat b < nprocs)%nat) ->
  extendGrainOrientation nprocs rank qavg jf jq h q = (q', Some nn) ->
  forall c, inside (gdom l) c -> exists k g, Z.of_nat k <= nn + 1 /\ nearest h l k g c /\ q' 0%nat c = q 0%nat g.
Proof.
  intros A nprocs rank qavg jf jq h l q q' nn T clean ND RK E. unfold extendGrainOrientation in E.
  assert (LL : forall fuel n g q1, extended h l q n g q1 -> forall g2 q2 nn2, extend_loop nprocs rank qavg jf jq h fuel (Z.of_nat n) g q1 = (g2, q2, nn2, true) ->
    exists n', Z.of_nat n' = nn2 + 1 /\ extended h l q n' g2 q2 /\ forall c, inside (gdom l) c -> ~ far h l n' c).
  { induction fuel as [|fuel IH]; intros n g q1 X g2 q2 nn2 L; cbn [extend_loop] in L; [discriminate|].
    destruct (extend_sweep rank qavg jf jq h g q1) as [[g' q1'] unset] eqn:SW. pose proof (extended_step rank qavg jf jq h l T clean _ _ _ _ _ _ _ X SW) as X'.
    destruct (existsb unset (seq 0 nprocs)) eqn:U.
    - replace (Z.of_nat n + 1) with (Z.of_nat (S n)) in L by lia. eapply IH; eauto.
    - inversion L; subst. exists (S n). split; [lia|]. split; [exact X'|]. exact (unset_false nprocs rank qavg jf jq h l T clean ND RK _ _ _ _ _ _ _ X SW U). }
  destruct (extend_loop nprocs rank qavg jf jq h (Z.to_nat (extend_iterations h)) 0 (tag_grains h) q) as [[[g2 q2] nn2] conv] eqn:L.
  destruct T as (E1 & T'). rewrite E1 in E. cbn [length Nat.sub seq rev fold_left] in E. destruct conv; [|discriminate]. inversion E; subst q' nn2. clear E.
  destruct (LL _ 0%nat _ _ (extended_init h l (conj E1 T') q) _ _ _ L) as (n' & En & X & N).
  intros c Hc. destruct (near_all h l n' N q g2 q2 X c Hc) as (k & gr & Hk & Ne & Q). exists k, gr. split; [lia|auto].
Qed.

Lemma extension_converges : forall A nprocs rank qavg jf (jq : nat -> cell -> A) h l q q' rep, tiled h l -> clean_ghosts jf ->
  NoDup (map (rank 0%nat) (gpatches l)) -> (forall b, In b (gpatches l) -> (rank 0%nat b < nprocs)%nat) -> (forall p, (p < nprocs)%nat -> exists b, In b (gpatches l) /\ rank 0%nat b = p) ->
  0 < extend_iterations h -> extendGrainOrientation nprocs rank qavg jf jq h q = (q', rep) ->
  ((forall c, inside (gdom l) c -> exists k g, Z.of_nat k <= extend_iterations h /\ nearest h l k g c) <-> rep <> None) /\
  (forall nn, rep = Some nn -> (forall c, inside (gdom l) c -> ~ far h l (Z.to_nat (nn + 1)) c) /\ (0 < nn -> exists c, inside (gdom l) c /\ far h l (Z.to_nat nn) c)).
Proof.
  intros A nprocs rank qavg jf jq h l q q' rep T clean ND RK AB Pos E. unfold extendGrainOrientation in E.
  destruct (loop_one nprocs rank qavg jf jq h l T clean ND RK AB q (Z.to_nat (extend_iterations h)) 0 (tag_grains h) q (extended_init h l T q)) as (n & g1 & q1 & nn & conv & L & X & C).
  cbn [Z.of_nat] in L. rewrite L in E.
  destruct (loop_spec nprocs rank qavg jf jq h l T clean q (Z.to_nat (extend_iterations h)) 0 (tag_grains h) q (extended_init h l T q)) as (n2 & g2 & q2 & nn2 & conv2 & L2 & X2 & C2).
  cbn [Z.of_nat] in L2. rewrite L in L2. inversion L2; subst g2 q2 nn2 conv2. clear L2.
  assert (R : rep = if conv then Some nn else None) by congruence. subst rep. clear E. destruct conv.
  - destruct C as (C1 & C2' & C3 & C4). split.
    + split; [discriminate|]. intros _ c Hc. destruct (near_all h l n C3 q g1 q1 X c Hc) as (k & gr & Hk & Ne & _). exists k, gr. split; [lia|auto].
    + intros m [= <-]. replace (Z.to_nat (nn + 1)) with n by lia. split; [exact C3|]. intros Hm. destruct C4 as [->|C4]; [lia|]. replace (Z.to_nat nn) with (n - 1)%nat by lia. exact C4.
  - destruct C as (C1 & [C3|(c & Hc & F)]); [lia|]. split; [|discriminate]. split; [|congruence]. intros H. destruct (H c Hc) as (k & gr & Hk & (N1 & N2 & _)).
    destruct (F k gr ltac:(lia) N1 N2).
Qed.

(** any number of levels: grain cells that are not covered keep their orientation *)
Lemma coarsen_quats_uncovered A (qavg : ratio3 -> (cell -> A) -> cell -> A) h m q ln c : (S m < length (glevels h))%nat -> (m = ln -> uncovered h ln c) -> coarsen_quats qavg h m q ln c = q ln c.
Proof.
  intros Hm U. unfold coarsen_quats, set_quats. destruct (Nat.eqb_spec ln m) as [->|]; [|reflexivity].
  destruct (existsb _ (gpatches (lev h (S m)))) eqn:E; [|reflexivity]. apply existsb_exists in E as (f & F & C). apply cell_in_iff in C. destruct (U eq_refl Hm f F C).
Qed.
Lemma coarsen_flag_uncovered h m g ln c : levels_ok h -> (S m < length (glevels h))%nat -> (m = ln -> uncovered h ln c) -> coarsen_data h m g ln c = g ln c.
Proof. intros L Hm U. destruct (Nat.eq_dec m ln) as [->|N]; [apply coarsen_uncovered; auto|apply coarsen_other; auto]. Qed.

Lemma grain_cells_keep : forall A nprocs rank qavg jf (jq : nat -> cell -> A) h q ln c, levels_ok h -> (ln < length (glevels h))%nat ->
  (exists b, In b (gpatches (lev h ln)) /\ inside b c) -> uncovered h ln c -> solid (lev h ln) c = true ->
  fst (extendGrainOrientation nprocs rank qavg jf jq h q) ln c = q ln c.
Proof.
  intros A nprocs rank qavg jf jq h q ln c L Hl (b & B & Ib) U So.
  assert (Hin : inside (gdom (lev h ln)) c) by (destruct L as (_ & L); apply (proj2 (L ln Hl) b); auto).
  assert (Hp : in_patches (lev h ln) c = true) by (apply in_patches_iff; eauto).
  assert (Tag : tag_grains h ln c = 1).
  { unfold tag_grains. assert (G : forall k, (k <= length (glevels h))%nat -> (ln < k)%nat -> fold_left (tag_level h) (seq 0 k) (fun _ _ => 0) ln c = 1).
    { induction k as [|k IH]; intros Hk Hlt; [lia|]. rewrite seq_S, fold_left_app. cbn [fold_left Nat.add].
      set (g := fold_left (tag_level h) (seq 0 k) (fun _ _ => 0)) in *. unfold tag_level.
      set (g' := set_level g k _). assert (G' : g' ln c = 1).
      { unfold g', set_level. destruct (Nat.eqb_spec ln k) as [->|N]; [rewrite Hp, So; reflexivity|apply IH; lia]. }
      destruct k as [|m]; [exact G'|]. rewrite coarsen_flag_uncovered; auto; try lia. }
    apply (G (length (glevels h))); lia. }
  assert (Lev : forall m s, (m < length (glevels h))%nat -> fst (fst s) ln c = 1 -> snd (fst s) ln c = q ln c ->
    let s' := extend_level rank qavg jf jq h s m in fst (fst s') ln c = 1 /\ snd (fst s') ln c = q ln c).
  { intros m [[g q1] unset] Hm G Q. cbn [fst snd] in G, Q. cbv zeta. unfold extend_level.
    destruct (patches_fold rank (ndim h) m (fill_scr h jf g m) (fill_scr h jq q1 m) (gpatches (lev h m)) (g m) (q1 m) unset) as (f' & q' & u' & F & _ & P).
    cbv zeta. lazymatch goal with |- context [fold_left ?f (gpatches (lev h m)) ?s] => replace (fold_left f (gpatches (lev h m)) s) with (f', q', u') by (symmetry; exact F) end.
    assert (G' : set_level g m f' ln c = 1 /\ set_quats q1 m q' ln c = q ln c).
    { unfold set_level, set_quats. destruct (Nat.eqb_spec ln m) as [<-|N]; [|auto]. destruct (P c) as [P1 _].
      assert (E : ext (ndim h) (fill_scr h jf g ln) (fill_scr h jq q1 ln) c = None).
      { unfold ext. assert (fill_scr h jf g ln c = 1) as ->; [|reflexivity]. unfold fill_scr. cbv zeta. rewrite image_id by auto. rewrite (proj2 (cell_in_iff _ _) Hin), Hp. exact G. }
      destruct (P1 (ex_intro _ b (conj B Ib))) as [F1 Q1]. rewrite E in F1, Q1. rewrite F1, Q1. auto. }
    destruct m as [|m]; cbn [fst snd]; [exact G'|]. rewrite coarsen_flag_uncovered, coarsen_quats_uncovered by (auto; lia). exact G'. }
  assert (Sw : forall g q1, g ln c = 1 -> q1 ln c = q ln c -> let s' := extend_sweep rank qavg jf jq h g q1 in fst (fst s') ln c = 1 /\ snd (fst s') ln c = q ln c).
  { intros g q1 G Q. unfold extend_sweep. assert (K : forall k, (k <= length (glevels h))%nat -> let s' := fold_left (extend_level rank qavg jf jq h) (seq 0 k) (g, q1, fun _ => true) in fst (fst s') ln c = 1 /\ snd (fst s') ln c = q ln c).
    { induction k as [|k IH]; intros Hk; [auto|]. rewrite seq_S, fold_left_app. cbn [fold_left Nat.add]. destruct (IH ltac:(lia)). apply Lev; auto; lia. }
    apply K; auto. }
  assert (Lp : forall fuel nn g q1, g ln c = 1 -> q1 ln c = q ln c -> snd (fst (fst (extend_loop nprocs rank qavg jf jq h fuel nn g q1))) ln c = q ln c).
  { induction fuel as [|fuel IH]; intros nn g q1 G Q; cbn [extend_loop]; [exact Q|]. destruct (Sw g q1 G Q) as [G' Q']. destruct (extend_sweep rank qavg jf jq h g q1) as [[g' q'] unset]. cbn [fst snd] in G', Q'.
    destruct (existsb unset (seq 0 nprocs)); [apply IH; auto|exact Q']. }
  specialize (Lp (Z.to_nat (extend_iterations h)) 0 (tag_grains h) q Tag eq_refl). unfold extendGrainOrientation.
  destruct (extend_loop nprocs rank qavg jf jq h (Z.to_nat (extend_iterations h)) 0 (tag_grains h) q) as [[[g' q'] nn] conv]. cbn [fst snd] in Lp |- *.
  assert (C : forall ms q1, (forall m, In m ms -> (S m < length (glevels h))%nat) -> fold_left (fun q ln => coarsen_quats qavg h ln q) ms q1 ln c = q1 ln c).
  { induction ms as [|m ms IH]; intros q1 H; [reflexivity|]. cbn [fold_left]. rewrite IH by (intros; apply H; right; auto). apply coarsen_quats_uncovered; [apply H; left; auto|intros ->; auto]. }
  rewrite C; [exact Lp|]. intros m Hm. apply in_rev, in_seq in Hm. lia.
Qed.

(** * Concrete runs *)
Definition no_average {A} (r : ratio3) (f : cell -> A) : cell -> A := f.
Definition zero_junk : nat -> cell -> Z := fun _ _ => 0.
(** a row of six cells in two patches, a grain at either end *)
Definition strip : glevel :=
  mk_glevel ((0, 5), (0, 0), (0, 0)) 1 (1, 1, 1) [((0, 4), (0, 0), (0, 0)); ((5, 5), (0, 0), (0, 0))] (fun c => (coord 0 c =? 0) || (coord 0 c =? 5)) (fun _ => true).
Definition start (ln : nat) (c : cell) : Z := 10 * coord 0 c + coord 1 c.

Lemma strip_tiled : tiled (run2d strip) strip.
Proof.
  split; [reflexivity|]. split; [right; split; reflexivity|]. split.
  - intros b [[i j] k] [<-|[<-|[]]] H; apply inside_iff in H; apply inside_iff; cbn in *; lia.
  - intros [[i j] k] H. apply inside_iff in H. cbn in H. destruct (Z.le_gt_cases i 4).
    + eexists. split; [left; reflexivity|]. apply inside_iff. cbn. lia.
    + eexists. split; [right; left; reflexivity|]. apply inside_iff. cbn. lia.
Qed.
Lemma plane_tiled nx ny mask : tiled (run2d (plane nx ny mask)) (plane nx ny mask).
Proof. destruct (plane_one nx ny mask) as (E & D & _ & I & C & _). split; [exact E|]. split; [exact D|]. auto. Qed.

Lemma two_patches_stop : let h := run2d strip in
  tiled h strip /\ clean_ghosts zero_junk /\ grain_cell strip (0, 0, 0) /\ steps h strip 2 (0, 0, 0) (2, 0, 0) /\
  let r := extendGrainOrientation 1 (fun _ _ => 0%nat) no_average zero_junk zero_junk h start in
  snd r = Some 0 /\ fst r 0%nat (1, 0, 0) = start 0 (0, 0, 0) /\ fst r 0%nat (2, 0, 0) = start 0 (2, 0, 0) /\ fst r 0%nat (3, 0, 0) = start 0 (3, 0, 0).
Proof.
  cbv zeta. split; [apply strip_tiled|]. split; [intros ln c; discriminate|]. split; [split; [apply cell_in_iff|]; reflexivity|]. split.
  - assert (N : forall i, neighbour (run2d strip) strip (i, 0, 0) (i + 1, 0, 0)).
    { intros i. exists 0%nat. split; [cbn; lia|]. split; [intros [|[|[|e]]] H N; cbn; lia|]. left. reflexivity. }
    eapply steps_S; [eapply steps_S; [constructor|apply (N 0)|]|apply (N 1)|]; apply cell_in_iff; reflexivity.
  - vm_compute. repeat split.
Qed.

Lemma limit_stop : let l := plane 3 3 (cell_eqb (0, 0, 0)) in let h := run2d l in
  tiled h l /\ clean_ghosts zero_junk /\ grain_cell l (0, 0, 0) /\ steps h l 4 (0, 0, 0) (2, 2, 0) /\
  let r := extendGrainOrientation 1 (fun _ _ => 0%nat) no_average zero_junk zero_junk h start in
  snd r = None /\ fst r 0%nat (2, 1, 0) = start 0 (0, 0, 0) /\ fst r 0%nat (2, 2, 0) = start 0 (2, 2, 0).
Proof.
  cbv zeta. split; [apply plane_tiled|]. split; [intros ln c; discriminate|]. split; [split; [apply cell_in_iff|]; reflexivity|]. split.
  - set (l := plane 3 3 (cell_eqb (0, 0, 0))). assert (N : forall i j, neighbour (run2d l) l (i, j, 0) (i + 1, j, 0)).
    { intros i j. exists 0%nat. split; [cbn; lia|]. split; [intros [|[|[|e]]] H N; cbn; lia|]. left. reflexivity. }
    assert (M : forall i j, neighbour (run2d l) l (i, j, 0) (i, j + 1, 0)).
    { intros i j. exists 1%nat. split; [cbn; lia|]. split; [intros [|[|[|e]]] H M; cbn; lia|]. left. reflexivity. }
    eapply steps_S; [eapply steps_S; [eapply steps_S; [eapply steps_S; [constructor|apply (N 0 0)|]|apply (N 1 0)|]|apply (M 2 0)|]|apply (M 2 1)|]; apply cell_in_iff; reflexivity.
  - vm_compute. repeat split.
Qed.

Lemma junk_taken : forall A (v w : A), let l := plane 2 1 (fun _ => false) in let h := run2d l in
  tiled h l /\ (forall c, ~ grain_cell l c) /\
  let r := extendGrainOrientation 1 (fun _ _ => 0%nat) no_average (fun _ _ => 1) (fun _ _ => v) h (fun _ _ => w) in
  snd r = Some 0 /\ forall c, inside (gdom l) c -> fst r 0%nat c = v.
Proof.
  intros A v w. cbv zeta. split; [apply plane_tiled|]. split; [intros c [_ H]; discriminate|]. split; [vm_compute; reflexivity|].
  intros [[i j] k] H. apply inside_iff in H. cbn in H. assert (j = 0) as -> by lia. assert (k = 0) as -> by lia. assert (i = 0 \/ i = 1) as [-> | ->] by lia; vm_compute; reflexivity.
Qed.

Lemma idle_process_warns : let l := plane 2 1 (fun _ => true) in let h := run2d l in
  tiled h l /\ clean_ghosts zero_junk /\ (forall c, inside (gdom l) c -> grain_cell l c) /\
  snd (extendGrainOrientation 1 (fun _ _ => 0%nat) no_average zero_junk zero_junk h start) = Some 0 /\
  snd (extendGrainOrientation 2 (fun _ _ => 0%nat) no_average zero_junk zero_junk h start) = None.
Proof.
  cbv zeta. split; [apply plane_tiled|]. split; [intros ln c; discriminate|]. split; [intros c H; split; auto|]. vm_compute. auto.
Qed.

(** * Volumes of the grains found by the numbering *)
Lemma all_grains_reported : forall h l fuel num n ps wgt old, one_level h l -> find_grains h fuel = (num, n, true) ->
  (forall c, inside (gdom l) c -> (0 < wgt 0%nat c)%R) -> (forall ln c, In (ln, c) (all_cells ps) <-> ln = 0%nat /\ inside (gdom l) c) ->
  exists v vis, computeGrainVolumes ps num wgt old = Some (v, vis) /\ (forall k, has_key v k <-> 0 <= k < n) /\ (forall k, 0 <= k < n -> (0 < get v k)%R) /\
    forall c c', grain_cell l c -> grain_cell l c' -> vis 0%nat c = get v (num 0%nat c) /\ (num 0%nat c = num 0%nat c' <-> linked h l c c').
Proof.
  intros h l fuel num n ps wgt old O E W C. destruct (volumes_spec num wgt ps old) as (v & vis & V & M & K & G & _ & Vi & _). exists v, vis. split; [exact V|].
  pose proof (one_level_numbers h l fuel O) as N. rewrite E in N. cbn [fst snd] in N. specialize (N eq_refl). destruct N as (N1 & N2 & N3 & N4).
  assert (P : forall k, present num wgt ps k <-> 0 <= k < n).
  { intros k. unfold present. split.
    - intros (Hk & ln & c & Hc & Ek & _). apply C in Hc as (-> & Hc). destruct (solid l c) eqn:S; [|specialize (N2 c Hc S); lia]. specialize (N1 c (conj Hc S)). lia.
    - intros Hk. destruct (N4 k Hk) as (c & Gc & Ek). split; [lia|]. exists 0%nat, c. split; [apply C; split; [auto|apply Gc]|]. split; [auto|]. apply W, Gc. }
  split; [intros k; rewrite K; apply P|]. split.
  - intros k Hk. rewrite G by lia. apply grain_sum_pos. destruct (proj2 (P k) Hk) as (_ & H). exact H.
  - intros c c' Gc Gc'. split; [|auto]. pose proof (N1 c Gc). rewrite G by lia. apply Vi; [apply C; split; [auto|apply Gc]|lia].
Qed.
Lemma volumes_any_distribution : forall num wgt ps ps' old old' v v' vis vis', Permutation (all_cells ps) (all_cells ps') ->
  computeGrainVolumes ps num wgt old = Some (v, vis) -> computeGrainVolumes ps' num wgt old' = Some (v', vis') -> v = v' /\ forall ln c, In (ln, c) (all_cells ps) -> vis ln c = vis' ln c.
Proof.
  intros num wgt ps ps' old old' v v' vis vis' P E E'.
  destruct (volumes_spec num wgt ps old) as (v1 & vi1 & V1 & M1 & K1 & G1 & _ & A1 & B1 & _). rewrite E in V1. inversion V1; subst v1 vi1.
  destruct (volumes_spec num wgt ps' old') as (v2 & vi2 & V2 & M2 & K2 & G2 & _ & A2 & B2 & _). rewrite E' in V2. inversion V2; subst v2 vi2.
  assert (Pr : forall n, present num wgt ps n <-> present num wgt ps' n).
  { intros n. unfold present. split; intros (Hn & ln & c & H & R); (split; [auto|]); exists ln, c; (split; [|auto]); [apply (Permutation_in _ P)|apply (Permutation_in _ (Permutation_sym P))]; auto. }
  split.
  - apply map_ext_eq; auto; [intros k; rewrite K1, K2; auto|]. intros k. destruct (Z.le_gt_cases 0 k).
    + rewrite G1, G2 by auto. apply grain_sum_perm; auto.
    + assert (Z : forall m, (forall j, has_key m j <-> present num wgt ps j) -> get m k = 0%R).
      { intros m Hm. assert (NK : ~ has_key m k) by (rewrite Hm; intros (? & _); lia). clear -NK. unfold has_key in NK. induction m as [|[j w] m IH]; [reflexivity|]. cbn [map fst get] in *.
        destruct (Z.eqb_spec j k); [destruct NK; left; auto|]. rewrite IH; [ring|]. intros H. apply NK; right; auto. }
      rewrite (Z v K1), (Z v'); auto. intros j. rewrite K2. symmetry. apply Pr.
  - intros ln c H. pose proof (Permutation_in _ P H) as H'. destruct (Z.le_gt_cases 0 (num ln c)).
    + rewrite A1, A2 by auto. apply grain_sum_perm; auto.
    + rewrite B1, B2 by auto. reflexivity.
Qed.

(** * Concentrations *)
Lemma concentration_bounds : forall num wgt ps conc avg all dev, computeGrainConcentrations ps num wgt conc = Some (avg, all, dev) ->
  forall n a b, present num wgt ps n -> (forall ln c, In (ln, c) (all_cells ps) -> num ln c = n -> (0 < wgt ln c)%R -> (a <= conc ln c <= b)%R) -> (a <= get avg n <= b)%R.
Proof.
  intros num wgt ps conc avg all dev E n a b P B. destruct (concentrations_spec num wgt ps conc) as (avg1 & all1 & dev1 & E1 & _ & _ & _ & _ & G & _). rewrite E in E1. inversion E1; subst avg1 all1 dev1.
  destruct (G n P) as [-> _]. pose proof (grain_sum_bounds num wgt n conc a b (all_cells ps) B) as [L U]. pose proof (grain_sum_pos num wgt n (all_cells ps) (proj2 P)) as W.
  split; [apply Rmult_le_reg_r with (1 := W)|apply Rmult_le_reg_r with (1 := W)]; unfold Rdiv; rewrite Rmult_assoc, Rinv_l, Rmult_1_r by lra; auto.
Qed.

Lemma deviation_variance : forall num wgt ps conc avg all dev, computeGrainConcentrations ps num wgt conc = Some (avg, all, dev) ->
  forall n, present num wgt ps n ->
  get dev n = (grain_sum num wgt n (fun ln c => wgt ln c * (conc ln c * conc ln c)) (all_cells ps) / grain_sum num wgt n wgt (all_cells ps) - get avg n * get avg n)%R /\
  (0 <= get dev n)%R /\
  (get dev n = 0%R <-> forall ln c, In (ln, c) (all_cells ps) -> num ln c = n -> (0 < wgt ln c)%R -> conc ln c = get avg n).
Proof.
  intros num wgt ps conc avg all dev E n P. destruct (concentrations_spec num wgt ps conc) as (avg1 & all1 & dev1 & E1 & _ & _ & _ & _ & G & _). rewrite E in E1. inversion E1; subst avg1 all1 dev1.
  destruct (G n P) as [Ga Gd]. pose proof (grain_sum_pos num wgt n (all_cells ps) (proj2 P)) as W. set (a := get avg n) in *.
  set (W0 := grain_sum num wgt n wgt (all_cells ps)) in *.
  assert (NN : forall ln c, (0 < wgt ln c)%R -> (0 <= wgt ln c * ((conc ln c - a) * (conc ln c - a)))%R).
  { intros ln c Hw. apply Rmult_le_pos; [lra|]. apply Rle_0_sqr. }
  split; [|split].
  - rewrite Gd. rewrite (grain_sum_ext num wgt n _ (fun ln c => 1 * (wgt ln c * (conc ln c * conc ln c)) + 1 * (- (2 * a) * (conc ln c * wgt ln c) + a * a * wgt ln c))%R) by (intros; ring).
    rewrite grain_sum_lin. rewrite (grain_sum_lin num wgt n (fun ln c => conc ln c * wgt ln c)%R wgt (- (2 * a)) (a * a)). fold W0. rewrite Ga. fold W0.
    set (X := grain_sum num wgt n (fun ln c => conc ln c * wgt ln c)%R (all_cells ps)). set (Y := grain_sum num wgt n _ (all_cells ps)). field. lra.
  - rewrite Gd. apply Rmult_le_pos; [apply grain_sum_nonneg; auto|]. left. apply Rinv_0_lt_compat; auto.
  - rewrite Gd. split.
    + intros Z. assert (S0 : grain_sum num wgt n (fun ln c => wgt ln c * ((conc ln c - a) * (conc ln c - a)))%R (all_cells ps) = 0%R).
      { apply Rmult_eq_reg_r with (r := (/ W0)%R); [|apply Rinv_neq_0_compat; lra]. rewrite Rmult_0_l. exact Z. }
      intros ln c Hc En Hw. pose proof (grain_sum_zero num wgt n _ _ NN S0 ln c Hc En Hw) as Q. apply Rmult_integral in Q as [Q|Q]; [lra|]. apply Rsqr_0_uniq in Q. lra.
    + intros U. assert (S0 : forall l, (forall ln c, In (ln, c) l -> num ln c = n -> (0 < wgt ln c)%R -> conc ln c = a) -> grain_sum num wgt n (fun ln c => wgt ln c * ((conc ln c - a) * (conc ln c - a)))%R l = 0%R).
      { induction l as [|[ln c] l IH]; intros H; cbn [grain_sum]; [reflexivity|]. rewrite IH by (intros; apply H; auto; right; auto). destruct (Z.eqb_spec (num ln c) n); [|ring].
        destruct (Rlt_dec 0 (wgt ln c)) as [Hw|]; [|ring]. rewrite (H ln c) by (auto; left; auto). ring. }
      rewrite S0 by exact U. unfold Rdiv. ring.
Qed.

(** * Closed forms *)
Lemma volumes_all : forall num wgt ps old, exists v vis, computeGrainVolumes ps num wgt old = Some (v, vis) /\ is_map v /\
  (forall n, has_key v n <-> present num wgt ps n) /\
  (forall n, 0 <= n -> get v n = grain_sum num wgt n wgt (all_cells ps)) /\ total v = grains_sum num wgt wgt (all_cells ps) /\
  (forall ln c, In (ln, c) (all_cells ps) -> 0 <= num ln c -> vis ln c = grain_sum num wgt (num ln c) wgt (all_cells ps)) /\
  (forall ln c, In (ln, c) (all_cells ps) -> num ln c < 0 -> vis ln c = 0%R) /\
  (forall ln c, ~ In (ln, c) (all_cells ps) -> vis ln c = old ln c).
Proof. intros. apply volumes_spec. Qed.

Lemma concentrations_all : forall num wgt ps conc, exists avg all dev, computeGrainConcentrations ps num wgt conc = Some (avg, all, dev) /\
  is_map avg /\ is_map dev /\ (forall n, has_key avg n <-> present num wgt ps n) /\ (forall n, has_key dev n <-> present num wgt ps n) /\
  let S n f := grain_sum num wgt n f (all_cells ps) in
  (forall n, present num wgt ps n -> get avg n = (S n (fun ln c => conc ln c * wgt ln c) / S n wgt)%R /\
     get dev n = (S n (fun ln c => wgt ln c * ((conc ln c - get avg n) * (conc ln c - get avg n))) / S n wgt)%R) /\
  all = match avg with [] => None | _ => Some (grains_sum num wgt (fun ln c => conc ln c * wgt ln c) (all_cells ps) / grains_sum num wgt wgt (all_cells ps))%R end.
Proof. intros. apply concentrations_spec. Qed.

Lemma iterations_width : forall h l, glevels h = [l] -> dim_ok h l -> extend_iterations h = fold_left Z.max (map (fun d => width d (gdom l)) (seq 0 (ndim h))) 0.
Proof. intros h l. apply iterations_one. Qed.
