(** Lemmas on plotted diffusion coefficients. *)
From Coq Require Import Reals ZArith List Bool Lra Lia.
From Verif Require Import Grid_Model Grid_Spec Grid_Proofs DiffVisit_Model DiffVisit_Spec.
Import ListNotations.
Open Scope R_scope.

Lemma inb_spec : forall lo hi a, inb lo hi a = true <-> (lo <= a <= hi)%Z.
Proof. intros lo hi a. unfold inb. rewrite andb_true_iff, !Z.leb_le. reflexivity. Qed.
Lemma kernel2_in : forall b s c i j, inside2 b i j -> side2cell2 b s c i j = average (sides2 s i j).
Proof.
  intros b s c i j [H0 H1]. unfold side2cell2.
  rewrite (cells_loop _ _ _ _ (fun i j _ => 25 / 100 * (s 0%Z i j + s 0%Z (i + 1)%Z j + s 1%Z i j + s 1%Z i (j + 1)%Z))).
  rewrite (proj2 (inb_spec _ _ _) H0), (proj2 (inb_spec _ _ _) H1). cbn [andb]. unfold average, sides2. cbn. field.
Qed.
Lemma kernel2_out : forall b s c i j, ~ inside2 b i j -> side2cell2 b s c i j = c i j.
Proof.
  intros b s c i j H. unfold side2cell2.
  rewrite (cells_loop _ _ _ _ (fun i j _ => 25 / 100 * (s 0%Z i j + s 0%Z (i + 1)%Z j + s 1%Z i j + s 1%Z i (j + 1)%Z))).
  destruct (inb (p0 b) (q0 b) i && inb (p1 b) (q1 b) j) eqn:E; [| reflexivity]. exfalso. apply H.
  apply andb_true_iff in E. destruct E as [E0 E1]. apply inb_spec in E0. apply inb_spec in E1. split; assumption.
Qed.
Lemma kernel3_in : forall b s c i j k, inside3 b i j k -> side2cell3 b s c i j k = average (sides3 s i j k).
Proof.
  intros b s c i j k [H0 [H1 H2]]. unfold side2cell3. cbv zeta.
  rewrite (cells3_loop _ _ _ _ _ _ (fun i j k _ => 1 / 6 * (s 0%Z i j k + s 0%Z (i + 1)%Z j k + s 1%Z i j k + s 1%Z i (j + 1)%Z k + s 2%Z i j k + s 2%Z i j (k + 1)%Z))).
  rewrite (proj2 (inb_spec _ _ _) H0), (proj2 (inb_spec _ _ _) H1), (proj2 (inb_spec _ _ _) H2). cbn [andb]. unfold average, sides3. cbn. field.
Qed.
Lemma kernel3_out : forall b s c i j k, ~ inside3 b i j k -> side2cell3 b s c i j k = c i j k.
Proof.
  intros b s c i j k H. unfold side2cell3. cbv zeta.
  rewrite (cells3_loop _ _ _ _ _ _ (fun i j k _ => 1 / 6 * (s 0%Z i j k + s 0%Z (i + 1)%Z j k + s 1%Z i j k + s 1%Z i (j + 1)%Z k + s 2%Z i j k + s 2%Z i j (k + 1)%Z))).
  destruct (inb (lo0 b) (hi0 b) i && inb (lo1 b) (hi1 b) j && inb (lo2 b) (hi2 b) k) eqn:E; [| reflexivity]. exfalso. apply H.
  apply andb_true_iff in E. destruct E as [E E2]. apply andb_true_iff in E. destruct E as [E0 E1].
  apply inb_spec in E0. apply inb_spec in E1. apply inb_spec in E2. split; [exact E0 | split; assumption].
Qed.

Lemma visit_l : forall (B A : Type) (kernel : B -> (Z -> A) -> A -> A) extra ebs alloc h, allocated ebs alloc -> exists out,
  setDiffusionVisit kernel extra ebs alloc h = Some out /\ length out = length h /\
  forall n p, nth_error h n = Some p -> exists p', nth_error out n = Some p' /\ pbox p' = pbox p /\ diff p' = diff p /\
    forall c, visit p' c = if shown extra ebs (alloc CB) c then kernel (pbox p) (diff p c 0%Z) (visit p c) else visit p c.
Proof.
  intros B A kernel extra ebs alloc h H. unfold setDiffusionVisit. destruct extra; cbn [negb].
  2:{ exists h. split; [reflexivity |]. split; [reflexivity |]. intros n p N. exists p. repeat split; assumption. }
  destruct ebs.
  - destruct H as [-> ->]. cbn [andb]. cbv zeta. destruct (alloc CB).
    + eexists. split; [reflexivity |]. unfold sideToCell. rewrite !map_length. split; [reflexivity |].
      intros n p N. eexists. split; [rewrite !nth_error_map, N; reflexivity |]. split; [reflexivity |]. split; [reflexivity |]. intros []; reflexivity.
    + eexists. split; [reflexivity |]. unfold sideToCell. rewrite !map_length. split; [reflexivity |].
      intros n p N. eexists. split; [rewrite !nth_error_map, N; reflexivity |]. split; [reflexivity |]. split; [reflexivity |]. intros []; reflexivity.
  - cbn in H. rewrite H. eexists. split; [reflexivity |]. unfold sideToCell. rewrite !map_length. split; [reflexivity |].
    intros n p N. eexists. split; [rewrite nth_error_map, N; reflexivity |]. split; [reflexivity |]. split; [reflexivity |]. intros []; reflexivity.
Qed.
Lemma plot2 : forall extra ebs alloc (h : list (patch ibox2 arr2)), allocated ebs alloc -> exists out,
  setDiffusionVisit side2cell2 extra ebs alloc h = Some out /\ length out = length h /\
  forall n p, nth_error h n = Some p -> exists p', nth_error out n = Some p' /\ pbox p' = pbox p /\ diff p' = diff p /\
    forall c i j, (shown extra ebs (alloc CB) c = true -> inside2 (pbox p) i j -> visit p' c i j = average (sides2 (diff p c 0%Z) i j)) /\
                  (shown extra ebs (alloc CB) c = false \/ ~ inside2 (pbox p) i j -> visit p' c i j = visit p c i j).
Proof.
  intros extra ebs alloc h H. destruct (visit_l _ _ side2cell2 extra ebs alloc h H) as [out [E [L V]]]. exists out. split; [exact E |]. split; [exact L |].
  intros n p N. destruct (V n p N) as [p' [N' [P [D W]]]]. exists p'. split; [exact N' |]. split; [exact P |]. split; [exact D |]. intros c i j. rewrite W. split.
  - intros -> I. apply kernel2_in. exact I.
  - intros [-> | O]; [reflexivity |]. destruct (shown extra ebs (alloc CB) c); [apply kernel2_out; exact O | reflexivity].
Qed.
Lemma plot3 : forall extra ebs alloc (h : list (patch ibox3 arr3)), allocated ebs alloc -> exists out,
  setDiffusionVisit side2cell3 extra ebs alloc h = Some out /\ length out = length h /\
  forall n p, nth_error h n = Some p -> exists p', nth_error out n = Some p' /\ pbox p' = pbox p /\ diff p' = diff p /\
    forall c i j k, (shown extra ebs (alloc CB) c = true -> inside3 (pbox p) i j k -> visit p' c i j k = average (sides3 (diff p c 0%Z) i j k)) /\
                  (shown extra ebs (alloc CB) c = false \/ ~ inside3 (pbox p) i j k -> visit p' c i j k = visit p c i j k).
Proof.
  intros extra ebs alloc h H. destruct (visit_l _ _ side2cell3 extra ebs alloc h H) as [out [E [L V]]]. exists out. split; [exact E |]. split; [exact L |].
  intros n p N. destruct (V n p N) as [p' [N' [P [D W]]]]. exists p'. split; [exact N' |]. split; [exact P |]. split; [exact D |]. intros c i j k. rewrite W. split.
  - intros -> I. apply kernel3_in. exact I.
  - intros [-> | O]; [reflexivity |]. destruct (shown extra ebs (alloc CB) c); [apply kernel3_out; exact O | reflexivity].
Qed.
(** kernels *)
Lemma bounds2_l : forall b s c i j lo hi, inside2 b i j -> (forall v, In v (sides2 s i j) -> lo <= v <= hi) -> lo <= side2cell2 b s c i j <= hi.
Proof.
  intros b s c i j lo hi I H. rewrite kernel2_in by exact I. unfold average, sides2 in *. cbn [fold_right length INR].
  pose proof (H _ (or_introl eq_refl)). pose proof (H _ (or_intror (or_introl eq_refl))). pose proof (H _ (or_intror (or_intror (or_introl eq_refl)))).
  pose proof (H _ (or_intror (or_intror (or_intror (or_introl eq_refl))))). lra.
Qed.
Lemma bounds3_l : forall b s c i j k lo hi, inside3 b i j k -> (forall v, In v (sides3 s i j k) -> lo <= v <= hi) -> lo <= side2cell3 b s c i j k <= hi.
Proof.
  intros b s c i j k lo hi I H. rewrite kernel3_in by exact I. unfold average, sides3 in *. cbn [fold_right length INR].
  pose proof (H _ (or_introl eq_refl)). pose proof (H _ (or_intror (or_introl eq_refl))). pose proof (H _ (or_intror (or_intror (or_introl eq_refl)))).
  pose proof (H _ (or_intror (or_intror (or_intror (or_introl eq_refl))))). pose proof (H _ (or_intror (or_intror (or_intror (or_intror (or_introl eq_refl)))))).
  pose proof (H _ (or_intror (or_intror (or_intror (or_intror (or_intror (or_introl eq_refl))))))). lra.
Qed.
Lemma affine2_l : forall b s v i j a0 a1 a2, inside2 b i j -> samples2 a0 a1 a2 s ->
  side2cell2 b s v i j = affine a0 a1 a2 0 (IZR i + 1 / 2) (IZR j + 1 / 2) 0.
Proof.
  intros b s v i j a0 a1 a2 I Q. rewrite kernel2_in by exact I. unfold average, sides2.
  rewrite (proj1 (Q i j)), (proj1 (Q (i + 1)%Z j)), (proj2 (Q i j)), (proj2 (Q i (j + 1)%Z)). unfold affine. rewrite !plus_IZR. cbn. field.
Qed.
Lemma affine3_l : forall b s v i j k a0 a1 a2 a3, inside3 b i j k -> samples3 a0 a1 a2 a3 s ->
  side2cell3 b s v i j k = affine a0 a1 a2 a3 (IZR i + 1 / 2) (IZR j + 1 / 2) (IZR k + 1 / 2).
Proof.
  intros b s v i j k a0 a1 a2 a3 I Q. rewrite kernel3_in by exact I. unfold average, sides3.
  destruct (Q i j k) as [-> [-> ->]]. destruct (Q (i + 1)%Z j k) as [-> _]. destruct (Q i (j + 1)%Z k) as [_ [-> _]]. destruct (Q i j (k + 1)%Z) as [_ [_ ->]].
  unfold affine. rewrite !plus_IZR. cbn. field.
Qed.
