(** Proofs about Cahn-Hilliard and sintering runs. *)
From Coq Require Import Reals ZArith List Bool Lia Lra Psatz.
Import ListNotations.
From Coquelicot Require Import Coquelicot.
From Verif Require Import Grid_Model Grid_Spec Grid_Proofs Transport_Model Transport_Spec Transport_Proofs Forces_Model Forces_Spec Forces_Proofs.
From Verif Require Import PhaseFlow_Model PhaseFlow_Spec PhaseFlow_Proofs Sintering_Model Sintering_Spec.
Import ListNotations.
Open Scope R_scope.

(** * Derivatives of sums *)
Lemma sumZ_deriv : forall lo hi (f : R -> Z -> R) (d : Z -> R) t,
  (forall i, (lo <= i <= hi)%Z -> derivable_pt_lim (fun s => f s i) t (d i)) ->
  derivable_pt_lim (fun s => sumZ lo hi (f s)) t (sumZ lo hi d).
Proof.
  intros lo hi f d t. unfold sumZ. remember (Z.to_nat (hi - lo + 1)) as n eqn:E. revert lo E.
  induction n as [| n IH]; intros lo E H; cbn [sum_from].
  - apply derivable_pt_lim_const.
  - apply (derivable_pt_lim_plus (fun s => f s lo) (fun s => sum_from (lo + 1) n (f s))).
    + apply H. lia.
    + apply IH; [lia |]. intros i Hi. apply H. lia.
Qed.
Lemma cells_deriv : forall b (f : R -> arr2) (d : arr2) t,
  (forall i j, in_cells b i j -> derivable_pt_lim (fun s => f s i j) t (d i j)) ->
  derivable_pt_lim (fun s => sum_cells b (f s)) t (sum_cells b d).
Proof.
  intros b f d t H. unfold sum_cells, sum_box. apply (sumZ_deriv _ _ (fun s j => sumZ (lo0 b) (hi0 b) (fun i => f s i j))). intros j Hj.
  apply (sumZ_deriv _ _ (fun s i => f s i j)). intros i Hi. apply H. split; auto.
Qed.

(** * Summation by parts *)
(** flux difference of a row; F is the flux at the lower face of a cell *)
Definition row_flux_ok (c : bc) (lo hi : Z) (F : Z -> R) : Prop :=
  match c with Periodic => F (hi + 1)%Z = F lo | ZeroFlux => F (hi + 1)%Z = 0 /\ F lo = 0 end.
Lemma parts1 : forall c lo hi (u F : Z -> R), (lo <= hi)%Z -> filled1 c lo hi u -> row_flux_ok c lo hi F ->
  sumZ lo hi (fun i => u i * (F (i + 1)%Z - F i)) = - sumZ lo hi (fun i => F i * (u i - u (i - 1)%Z)).
Proof.
  intros c lo hi u F H Hu HF.
  assert (E : sumZ lo hi (fun i => u i * (F (i + 1)%Z - F i) + F i * (u i - u (i - 1)%Z)) = 0).
  { rewrite (sumZ_ext lo hi _ (fun i => (fun k => u (k - 1)%Z * F k) (i + 1)%Z - (fun k => u (k - 1)%Z * F k) i)).
    - rewrite (sumZ_telescope lo hi (fun k => u (k - 1)%Z * F k)) by lia. cbv beta. replace (hi + 1 - 1)%Z with hi by lia.
      destruct c; cbn in Hu, HF; destruct Hu as [U1 U2]; [rewrite U1, HF | destruct HF as [-> ->]]; ring.
    - intros i _. cbv beta. replace (i + 1 - 1)%Z with i by lia. ring. }
  rewrite sumZ_plus in E. lra.
Qed.
Lemma no_source1 : forall c lo hi (F : Z -> R), (lo <= hi)%Z -> row_flux_ok c lo hi F -> sumZ lo hi (fun i => F (i + 1)%Z - F i) = 0.
Proof. intros c lo hi F H HF. rewrite sumZ_telescope by lia. destruct c; [rewrite HF | destruct HF as [-> ->]]; ring. Qed.

Definition flux_ok (cx cy : bc) (b : pbox) (f0 f1 : arr2) : Prop :=
  (forall j, (lo1 b <= j <= hi1 b)%Z -> row_flux_ok cx (lo0 b) (hi0 b) (fun i => f0 i j)) /\
  (forall i, (lo0 b <= i <= hi0 b)%Z -> row_flux_ok cy (lo1 b) (hi1 b) (fun j => f1 i j)).
Lemma split_cells : forall b (f g : arr2) a c,
  sum_cells b (fun i j => f i j / a + g i j / c) =
  / a * sumZ (lo1 b) (hi1 b) (fun j => sumZ (lo0 b) (hi0 b) (fun i => f i j)) +
  / c * sumZ (lo0 b) (hi0 b) (fun i => sumZ (lo1 b) (hi1 b) (fun j => g i j)).
Proof.
  intros b f g a c. unfold sum_cells, sum_box. rewrite <- (sumZ_swap (lo0 b) (hi0 b) (lo1 b) (hi1 b) g).
  rewrite <- !sumZ_scal, <- sumZ_plus. apply sumZ_ext. intros j _. rewrite <- !sumZ_scal, <- sumZ_plus. apply sumZ_ext.
  intros i _. unfold Rdiv. ring.
Qed.
Lemma parts : forall cx cy b (u f0 f1 : arr2), nonempty b -> filled cx cy b u -> flux_ok cx cy b f0 f1 ->
  sum_cells b (fun i j => u i j * diverg (h1 b) (h2 b) f0 f1 i j) =
  - sum_cells b (fun i j => f0 i j * ((u i j - u (i - 1)%Z j) / h1 b) + f1 i j * ((u i j - u i (j - 1)%Z) / h2 b)).
Proof.
  intros cx cy b u f0 f1 [N0 N1] [U0 U1] [F0 F1].
  rewrite (sum_cells_ext b _ (fun i j => (u i j * (f0 (i + 1)%Z j - f0 i j)) / h1 b + (u i j * (f1 i (j + 1)%Z - f1 i j)) / h2 b))
    by (intros; unfold diverg, Rdiv; ring).
  rewrite (sum_cells_ext b (fun i j => f0 i j * ((u i j - u (i - 1)%Z j) / h1 b) + f1 i j * ((u i j - u i (j - 1)%Z) / h2 b))
    (fun i j => (f0 i j * (u i j - u (i - 1)%Z j)) / h1 b + (f1 i j * (u i j - u i (j - 1)%Z)) / h2 b))
    by (intros; unfold Rdiv; ring).
  rewrite (split_cells b (fun i j => u i j * (f0 (i + 1)%Z j - f0 i j)) (fun i j => u i j * (f1 i (j + 1)%Z - f1 i j))).
  rewrite (split_cells b (fun i j => f0 i j * (u i j - u (i - 1)%Z j)) (fun i j => f1 i j * (u i j - u i (j - 1)%Z))).
  rewrite (sumZ_ext (lo1 b) (hi1 b) _ (fun j => - sumZ (lo0 b) (hi0 b) (fun i => f0 i j * (u i j - u (i - 1)%Z j)))).
  2: { intros j Hj. apply (parts1 cx (lo0 b) (hi0 b) (fun i => u i j) (fun i => f0 i j)); auto. }
  rewrite (sumZ_ext (lo0 b) (hi0 b) (fun i => sumZ (lo1 b) (hi1 b) (fun j => u i j * _)) (fun i => - sumZ (lo1 b) (hi1 b) (fun j => f1 i j * (u i j - u i (j - 1)%Z)))).
  2: { intros i Hi. apply (parts1 cy (lo1 b) (hi1 b) (fun j => u i j) (fun j => f1 i j)); auto. }
  rewrite !sumZ_opp. ring.
Qed.
Lemma no_source : forall cx cy b (f0 f1 : arr2), nonempty b -> flux_ok cx cy b f0 f1 ->
  sum_cells b (fun i j => diverg (h1 b) (h2 b) f0 f1 i j) = 0.
Proof.
  intros cx cy b f0 f1 [N0 N1] [F0 F1].
  rewrite (sum_cells_ext b _ (fun i j => (f0 (i + 1)%Z j - f0 i j) / h1 b + (f1 i (j + 1)%Z - f1 i j) / h2 b)) by (intros; reflexivity).
  rewrite (split_cells b (fun i j => f0 (i + 1)%Z j - f0 i j) (fun i j => f1 i (j + 1)%Z - f1 i j)).
  rewrite (sumZ_ext (lo1 b) (hi1 b) _ (fun _ => 0)). 2: { intros j Hj. apply (no_source1 cx (lo0 b) (hi0 b) (fun i => f0 i j)); auto. }
  rewrite (sumZ_ext (lo0 b) (hi0 b) _ (fun _ => 0)). 2: { intros i Hi. apply (no_source1 cy (lo1 b) (hi1 b) (fun j => f1 i j)); auto. }
  rewrite !sumZ_zero. ring.
Qed.

(** * Extended fields *)
Lemma extended1_filled : forall c lo hi f, extended1 c lo hi f -> filled1 c lo hi f.
Proof.
  intros c lo hi f H. unfold filled1, extended1 in *. destruct c.
  - split; [rewrite <- (H (lo - 1)%Z); f_equal; lia | rewrite <- (H lo); f_equal; lia].
  - destruct H as [A B]. split; [rewrite <- (A lo); f_equal; lia | rewrite <- (B hi); f_equal; lia].
Qed.
Lemma extended_filled : forall cx cy b f, extended cx cy b f -> filled cx cy b f.
Proof. intros cx cy b f [A B]. split; intros; apply extended1_filled; auto. Qed.
(** pointwise functions of extended fields, Laplacians of extended fields *)
Lemma extended_map : forall cx cy b n (g : R -> (Z -> R) -> R) (f : arr2) (h : arr3), extended cx cy b f ->
  (forall k, (1 <= k <= n)%Z -> extended cx cy b (fun i j => h i j k)) ->
  (forall x u v, (forall k, (1 <= k <= n)%Z -> u k = v k) -> g x u = g x v) -> extended cx cy b (fun i j => g (f i j) (h i j)).
Proof.
  intros cx cy b n g f h [F0 F1] H G. split.
  - intro j. specialize (F0 j). unfold extended, extended1 in *. destruct cx.
    + intro i. rewrite F0. apply G. intros k Hk. destruct (H k Hk) as [A _]. apply (A j i).
    + split; intro i; [rewrite (proj1 F0) | rewrite (proj2 F0)]; apply G; intros k Hk; destruct (H k Hk) as [A _]; apply (A j).
  - intro i. specialize (F1 i). unfold extended, extended1 in *. destruct cy.
    + intro j. rewrite F1. apply G. intros k Hk. destruct (H k Hk) as [_ A]. apply (A i j).
    + split; intro j; [rewrite (proj1 F1) | rewrite (proj2 F1)]; apply G; intros k Hk; destruct (H k Hk) as [_ A]; apply (A i).
Qed.
Lemma extended1_shift : forall c lo hi f, extended1 c lo hi f ->
  match c with
  | Periodic => forall i, f (i + (hi - lo + 1) + 1)%Z = f (i + 1)%Z /\ f (i + (hi - lo + 1) - 1)%Z = f (i - 1)%Z
  | ZeroFlux => forall i, f (2 * lo - 1 - i + 1)%Z = f (i - 1)%Z /\ f (2 * lo - 1 - i - 1)%Z = f (i + 1)%Z /\
                          f (2 * hi + 1 - i + 1)%Z = f (i - 1)%Z /\ f (2 * hi + 1 - i - 1)%Z = f (i + 1)%Z
  end.
Proof.
  intros c lo hi f H. unfold extended1 in H. destruct c; intro i.
  - split; [rewrite <- (H (i + 1)%Z) | rewrite <- (H (i - 1)%Z)]; f_equal; lia.
  - destruct H as [A B]. repeat split; [rewrite <- (A (i - 1)%Z) | rewrite <- (A (i + 1)%Z) | rewrite <- (B (i - 1)%Z) | rewrite <- (B (i + 1)%Z)]; f_equal; lia.
Qed.
Lemma extended_lap : forall cx cy b f, extended cx cy b f -> extended cx cy b (laplace (h1 b) (h2 b) f).
Proof.
  intros cx cy b f [F0 F1]. split.
  - intro j. pose proof (F0 j) as E. pose proof (F0 (j + 1)%Z) as E1. pose proof (F0 (j - 1)%Z) as E2.
    pose proof (extended1_shift _ _ _ _ E) as S. unfold laplace. unfold extended1 in *. destruct cx.
    + intro i. destruct (S i) as [S1 S2]. rewrite S1, S2, E, E1, E2. reflexivity.
    + destruct E as [Ea Eb], E1 as [E1a E1b], E2 as [E2a E2b].
      split; intro i; destruct (S i) as (S1 & S2 & S3 & S4); [rewrite S1, S2, Ea, E1a, E2a | rewrite S3, S4, Eb, E1b, E2b]; f_equal; f_equal; ring.
  - intro i. pose proof (F1 i) as E. pose proof (F1 (i + 1)%Z) as E1. pose proof (F1 (i - 1)%Z) as E2.
    pose proof (extended1_shift _ _ _ _ E) as S. unfold laplace. unfold extended1 in *. destruct cy.
    + intro j. destruct (S j) as [S1 S2]. rewrite S1, S2, E, E1, E2. reflexivity.
    + destruct E as [Ea Eb], E1 as [E1a E1b], E2 as [E2a E2b].
      split; intro j; destruct (S j) as (S1 & S2 & S3 & S4); [rewrite S1, S2, Ea, E1a, E2a | rewrite S3, S4, Eb, E1b, E2b]; f_equal; f_equal; ring.
Qed.

(** * Derivative of the gradient energy *)
Definition wrap (c : bc) (lo hi i : Z) : Z :=
  match c with
  | Periodic => if (i <? lo)%Z then hi else if (hi <? i)%Z then lo else i
  | ZeroFlux => if (i <? lo)%Z then lo else if (hi <? i)%Z then hi else i
  end.
Lemma wrap_in : forall c lo hi i, (lo <= i <= hi)%Z -> wrap c lo hi i = i.
Proof. intros c lo hi i H. unfold wrap. destruct (Z.ltb_spec i lo); [lia |]. destruct (Z.ltb_spec hi i); [lia |]. destruct c; reflexivity. Qed.
Lemma wrap_range : forall c lo hi i, (lo <= hi)%Z -> (lo <= wrap c lo hi i <= hi)%Z.
Proof. intros c lo hi i H. unfold wrap. destruct c; destruct (Z.ltb_spec i lo); destruct (Z.ltb_spec hi i); lia. Qed.
Lemma wrap_val : forall c lo hi f i, (lo <= hi)%Z -> filled1 c lo hi f -> (lo - 1 <= i <= hi + 1)%Z -> f (wrap c lo hi i) = f i.
Proof.
  intros c lo hi f i H F Hi. unfold wrap. destruct c; destruct F as [F1 F2]; (destruct (Z.ltb_spec i lo);
    [replace i with (lo - 1)%Z by lia; auto | destruct (Z.ltb_spec hi i); [replace i with (hi + 1)%Z by lia; auto | reflexivity]]).
Qed.
Lemma wrap_filled : forall c lo hi v, (lo <= hi)%Z -> filled1 c lo hi (fun i => v (wrap c lo hi i)).
Proof.
  intros c lo hi v H. unfold filled1, wrap.
  destruct c; (split; [rewrite (proj2 (Z.ltb_lt _ _)) by lia | rewrite (proj2 (Z.ltb_ge _ _)) by lia; rewrite (proj2 (Z.ltb_lt _ _)) by lia]);
    rewrite ?(proj2 (Z.ltb_ge hi lo)), ?(proj2 (Z.ltb_ge lo lo)), ?(proj2 (Z.ltb_ge hi hi)) by lia; auto.
Qed.
Definition wrapped (cx cy : bc) (b : pbox) (v : arr2) : arr2 :=
  fun i j => v (wrap cx (lo0 b) (hi0 b) i) (wrap cy (lo1 b) (hi1 b) j).
Lemma wrapped_in : forall cx cy b v i j, in_cells b i j -> wrapped cx cy b v i j = v i j.
Proof. intros cx cy b v i j [Hi Hj]. unfold wrapped. rewrite !wrap_in by auto. reflexivity. Qed.
Lemma wrapped_filled : forall cx cy b v, nonempty b -> filled cx cy b (wrapped cx cy b v).
Proof.
  intros cx cy b v [N0 N1]. split.
  - intros j _. apply (wrap_filled cx (lo0 b) (hi0 b) (fun k => v k (wrap cy (lo1 b) (hi1 b) j))); auto.
  - intros i _. apply (wrap_filled cy (lo1 b) (hi1 b) (fun l => v (wrap cx (lo0 b) (hi0 b) i) l)); auto.
Qed.
Lemma face_diff_ok : forall cx cy b f, h1 b <> 0 -> h2 b <> 0 -> filled cx cy b f ->
  flux_ok cx cy b (fun i j => (f i j - f (i - 1)%Z j) / h1 b) (fun i j => (f i j - f i (j - 1)%Z) / h2 b).
Proof.
  intros cx cy b f H1 H2 [F0 F1]. split.
  - intros j Hj. specialize (F0 j Hj). unfold row_flux_ok. destruct cx; destruct F0 as [A B]; replace (hi0 b + 1 - 1)%Z with (hi0 b) by lia; rewrite A, B; [reflexivity |].
    unfold Rdiv. split; ring.
  - intros i Hi. specialize (F1 i Hi). unfold row_flux_ok. destruct cy; destruct F1 as [A B]; replace (hi1 b + 1 - 1)%Z with (hi1 b) by lia; rewrite A, B; [reflexivity |].
    unfold Rdiv. split; ring.
Qed.
Lemma diverg_diff : forall b f i j,
  diverg (h1 b) (h2 b) (fun i j => (f i j - f (i - 1)%Z j) / h1 b) (fun i j => (f i j - f i (j - 1)%Z) / h2 b) i j = laplace (h1 b) (h2 b) f i j.
Proof.
  intros b f i j. unfold diverg, laplace. replace (i + 1 - 1)%Z with i by lia. replace (j + 1 - 1)%Z with j by lia.
  unfold Rdiv. rewrite !inv_sq. ring.
Qed.
Lemma gradient_deriv : forall cx cy b (f : R -> arr2) v t, nonempty b -> h1 b <> 0 -> h2 b <> 0 ->
  (forall s, filled cx cy b (f s)) ->
  (forall i j, in_cells b i j -> derivable_pt_lim (fun s => f s i j) t (v i j)) ->
  derivable_pt_lim (fun s => gradient_energy b (f s)) t (- sum_cells b (fun i j => v i j * laplace (h1 b) (h2 b) (f t) i j)).
Proof.
  intros cx cy b f v t N H1 H2 F D. pose proof N as [N0 N1]. set (u := wrapped cx cy b v).
  assert (Dx : forall i j, (lo0 b - 1 <= i <= hi0 b + 1)%Z -> (lo1 b <= j <= hi1 b)%Z -> derivable_pt_lim (fun s => f s i j) t (u i j)).
  { intros i j Hi Hj. unfold u, wrapped. rewrite (wrap_in cy) by auto.
    apply (derivable_pt_lim_ext (fun s => f s (wrap cx (lo0 b) (hi0 b) i) j)).
    - intro s. apply (wrap_val cx (lo0 b) (hi0 b) (fun i => f s i j)); auto. apply (proj1 (F s)); auto.
    - apply D. split; [apply wrap_range; auto | auto]. }
  assert (Dy : forall i j, (lo0 b <= i <= hi0 b)%Z -> (lo1 b - 1 <= j <= hi1 b + 1)%Z -> derivable_pt_lim (fun s => f s i j) t (u i j)).
  { intros i j Hi Hj. unfold u, wrapped. rewrite (wrap_in cx) by auto.
    apply (derivable_pt_lim_ext (fun s => f s i (wrap cy (lo1 b) (hi1 b) j))).
    - intro s. apply (wrap_val cy (lo1 b) (hi1 b) (fun j => f s i j)); auto. apply (proj2 (F s)); auto.
    - apply D. split; [auto | apply wrap_range; auto]. }
  rewrite (sum_cells_ext b (fun i j => v i j * _) (fun i j => u i j *
    diverg (h1 b) (h2 b) (fun i j => (f t i j - f t (i - 1)%Z j) / h1 b) (fun i j => (f t i j - f t i (j - 1)%Z) / h2 b) i j)).
  2: { intros i j Hij. rewrite diverg_diff. unfold u. rewrite wrapped_in by auto. reflexivity. }
  rewrite (parts cx cy); auto; [| apply wrapped_filled; auto | apply face_diff_ok; auto].
  rewrite Ropp_involutive. unfold gradient_energy.
  replace (sum_cells b (fun i j => _ * ((u i j - u (i - 1)%Z j) / h1 b) + _)) with
    (1 / 2 * sum_cells b (fun i j => 2 * ((f t i j - f t (i - 1)%Z j) / h1 b * ((u i j - u (i - 1)%Z j) / h1 b)) + 2 * ((f t i j - f t i (j - 1)%Z) / h2 b * ((u i j - u i (j - 1)%Z) / h2 b)))).
  2: { rewrite <- sum_cells_scal. apply sum_cells_ext. intros. field. split; auto. }
  apply (derivable_pt_lim_scal (fun s => sum_cells b (fun i j => ((f s i j - f s (i - 1)%Z j) / h1 b) ^ 2 + ((f s i j - f s i (j - 1)%Z) / h2 b) ^ 2))).
  apply (cells_deriv b (fun s i j => ((f s i j - f s (i - 1)%Z j) / h1 b) ^ 2 + ((f s i j - f s i (j - 1)%Z) / h2 b) ^ 2)).
  intros i j [Hi Hj].
  assert (Q : forall (g k : R -> R) dg dk h, h <> 0 -> derivable_pt_lim g t dg -> derivable_pt_lim k t dk ->
    derivable_pt_lim (fun s => ((g s - k s) / h) ^ 2) t (2 * ((g t - k t) / h * ((dg - dk) / h)))).
  { intros g k dg dk h Hh Hg Hk. pose proof (derivable_pt_lim_minus _ _ _ _ _ Hg Hk) as M.
    pose proof (derivable_pt_lim_scal _ (/ h ^ 2) _ _ (derivable_pt_lim_mult _ _ _ _ _ M M)) as S.
    refine (derivable_pt_lim_ext _ _ t _ _ _); [| replace (2 * _) with (/ h ^ 2 * ((dg - dk) * (g - k)%F t + (g - k)%F t * (dg - dk))); [exact S |]].
    - intro s. unfold mult_real_fct, mult_fct, minus_fct. field. auto.
    - unfold minus_fct. field. auto. }
  apply (derivable_pt_lim_plus (fun s => ((f s i j - f s (i - 1)%Z j) / h1 b) ^ 2) (fun s => ((f s i j - f s i (j - 1)%Z) / h2 b) ^ 2)).
  - apply (Q (fun s => f s i j) (fun s => f s (i - 1)%Z j)); auto; apply Dx; auto; lia.
  - apply (Q (fun s => f s i j) (fun s => f s i (j - 1)%Z)); auto; apply Dy; auto; lia.
Qed.

(** * Values of the right-hand sides *)
Definition mdiff0 (b : pbox) (M : arr2) (mu : arr2) : arr2 := fun i j => M i j * ((mu i j - mu (i - 1)%Z j) / h1 b).
Definition mdiff1 (b : pbox) (M : arr2) (mu : arr2) : arr2 := fun i j => M i j * ((mu i j - mu i (j - 1)%Z) / h2 b).
Definition ch_mu (b : pbox) (ca cb kappa ws : R) (c : arr2) : arr2 :=
  fun i j => 2 * ws * (c i j - ca) * (cb - c i j) * (cb + ca - 2 * c i j) - kappa * laplace (h1 b) (h2 b) c i j.
Definition wang_mu (p : sinter) (c : arr2) (phi : arr3) : arr2 :=
  fun i j => 2 * sA p * c i j * (1 - c i j) * (1 - 2 * c i j) + 2 * sB p * (c i j - 3 * sq_sum (sn p) (phi i j) + 2 * cu_sum (sn p) (phi i j))
             - skappa p * laplace (h1 (sb p)) (h2 (sb p)) c i j.
Definition wang_slope (n : Z) (c : R) (u : Z -> R) (k : Z) : R := (1 - c) * u k - (2 - c) * u k * u k + sq_sum n u * u k.

Lemma conc_rhs_from_faces : forall b m M0 M1 mu s rhs i j, in_cells b i j ->
  face_flux (lo0 b) (hi0 b) (lo1 b) (hi1 b) (h1 b) (h2 b) M0 M1 mu (fun _ _ => 0, fun _ _ => 0) s ->
  computerhsconcentration (lo0 b) (hi0 b) (lo1 b) (hi1 b) (h1 b) (h2 b) (fst s) (snd s) m rhs i j =
  m * diverg (h1 b) (h2 b) (mdiff0 b M0 mu) (mdiff1 b M1 mu) i j.
Proof.
  intros b m M0 M1 mu s rhs i j Hij [F0 F1]. pose proof Hij as [Hi Hj].
  rewrite (proj1 (rhs_conc_value _ _ _ _ _ _ _ _ _ _ i j) Hij). unfold diverg.
  rewrite !F0, !F1 by (split; lia). cbn [fst snd]. unfold mdiff0, mdiff1. unfold Rdiv. ring.
Qed.
Lemma ch_rhs_val : forall b m ca cb kappa ws c rhs i j, h1 b <> 0 -> h2 b <> 0 -> in_cells b i j ->
  cahn_hilliard_rhs b m ca cb kappa ws c rhs i j =
  m * diverg (h1 b) (h2 b) (mdiff0 b (fun _ _ => 1) (ch_mu b ca cb kappa ws c)) (mdiff1 b (fun _ _ => 1) (ch_mu b ca cb kappa ws c)) i j.
Proof.
  intros b m ca cb kappa ws c rhs i j H1 H2 Hij. unfold cahn_hilliard_rhs. cbv zeta.
  destruct (cahn_hilliard_flux (lo0 b) (hi0 b) (lo1 b) (hi1 b) (h1 b) (h2 b) c 1 ca cb ws kappa (fun _ _ => 0, fun _ _ => 0) H1 H2) as (mu & Hm & F).
  apply conc_rhs_from_faces; auto. clear - F Hm.
  assert (E : forall i j, mu i j = ch_mu b ca cb kappa ws c i j).
  { intros i j. destruct (Hm i j) as (d & D & ->). rewrite (uniqueness_limite _ _ _ _ D (ch_deriv ca cb ws (c i j))). reflexivity. }
  destruct F as [F0 F1]. split; intros i j Hij; [rewrite F0 by auto | rewrite F1 by auto]; rewrite !E; reflexivity.
Qed.
Lemma wang_conc_val : forall p c phi w rhs i j, (1 <= sn p)%Z -> h1 (sb p) <> 0 -> h2 (sb p) <> 0 -> in_cells (sb p) i j ->
  wang_conc_rhs p c phi w rhs i j =
  scm p * diverg (h1 (sb p)) (h2 (sb p)) (mdiff0 (sb p) (fun i j => scm p * sd0 p i j) (wang_mu p c phi))
            (mdiff1 (sb p) (fun i j => scm p * sd1 p i j) (wang_mu p c phi)) i j.
Proof.
  intros p c phi w rhs i j Hn H1 H2 Hij. unfold wang_conc_rhs. cbv zeta. set (b := sb p) in *.
  destruct (sintering_flux (lo0 b) (hi0 b) (lo1 b) (hi1 b) (h1 b) (h2 b) c (sd0 p) (sd1 p) (sn p) phi (scm p) (sA p) (sB p) (skappa p) w
    (fun _ _ => 0, fun _ _ => 0) Hn H1 H2) as (mu & Hm & F).
  apply conc_rhs_from_faces; auto. clear - F Hm.
  assert (E : forall i j, in_box (lo0 b - 1) (hi0 b + 1) (lo1 b - 1) (hi1 b + 1) i j -> mu i j = wang_mu p c phi i j).
  { intros i j Hij. destruct (Hm i j Hij) as (d & D & ->). rewrite (uniqueness_limite _ _ _ _ D (sinter_deriv_c _ _ _ _ _)). reflexivity. }
  destruct F as [F0 F1]. split; intros i j Hij; pose proof Hij as [Hi Hj]; [rewrite F0 by auto | rewrite F1 by auto]; rewrite !E by (split; lia); reflexivity.
Qed.
Lemma times_val : forall b n mob rhs i j k, in_cells b i j -> (1 <= k <= n)%Z -> times_mobility b n mob rhs i j k = rhs i j k * mob i j.
Proof.
  intros b n mob rhs i j k [Hi Hj] Hk. unfold times_mobility.
  refine (eq_trans (cells3_loop (lo0 b) (hi0 b) (lo1 b) (hi1 b) 1 n (fun i j _ x => x * mob i j) rhs i j k) _).
  rewrite !inb_true by lia. reflexivity.
Qed.
Lemma components_val : forall n f phi old i j k, (1 <= k <= n)%Z ->
  components n f phi old i j k = f (fun a c => phi a c k) (fun a c => old a c k) i j.
Proof. intros n f phi old i j k [H1 H2]. unfold components. rewrite (proj2 (Z.leb_le _ _) H1), (proj2 (Z.leb_le _ _) H2). reflexivity. Qed.
(** divergence of the fluxes of one component *)
Definition component_div (p : sinter) (phi : arr3) (fx fy : arr3) (k i j : Z) : R :=
  diverg (h1 (sb p)) (h2 (sb p))
    (flux_x (skind p) (sb p) (flux_epsilon (seps p) (sn p) false) (fun a c => phi a c k) (fun a c => fx a c k))
    (flux_y (skind p) (sb p) (flux_epsilon (seps p) (sn p) false) (fun a c => phi a c k) (fun a c => fy a c k)) i j.
Lemma wang_phase_val : forall p c phi fx fy w rhs i j k, (1 <= k <= sn p)%Z -> h1 (sb p) <> 0 -> h2 (sb p) <> 0 -> in_cells (sb p) i j ->
  wang_phase_rhs p c phi fx fy w rhs i j k =
  spm p i j * (seps p * component_div p phi fx fy k i j - 12 * sB p * wang_slope (sn p) (c i j) (phi i j) k).
Proof.
  intros p c phi fx fy w rhs i j k Hk H1 H2 Hij. unfold wang_phase_rhs. cbv zeta. rewrite times_val by auto.
  match goal with |- computerhs_wang_sintering ?a ?b ?c ?d ?n ?x ?y ?f0 ?f1 ?be ?B ?ph ?co ?wk ?r i j k * _ = _ =>
    destruct (sintering_rhs a b c d n x y f0 f1 be B ph co wk r ltac:(lia) H1 H2 i j k 0 Hij Hk) as (dd & D & E) end.
  rewrite E, (uniqueness_limite _ _ _ _ D (sinter_deriv_phi _ _ _ _ _ _ Hk)).
  unfold component_div, wang_slope, diverg. rewrite !components_val by auto. ring.
Qed.
Lemma epsilon_multi : forall eps n, (1 < n)%Z -> flux_epsilon eps n false ^ 2 = eps ^ 2 / 2.
Proof.
  intros eps n Hn. unfold flux_epsilon. rewrite (proj2 (Z.ltb_lt _ _) Hn). cbn [negb andb].
  assert (Q : sqrt 2 * sqrt 2 = 2) by (apply sqrt_sqrt; lra). assert (sqrt 2 <> 0) by (intro H; rewrite H in Q; lra).
  replace ((eps / sqrt 2) ^ 2) with (eps ^ 2 / (sqrt 2 * sqrt 2)) by (field; auto).
  rewrite Q. reflexivity.
Qed.
Lemma simple_div : forall p phi fx fy k i j, skind p = FluxSimple -> in_cells (sb p) i j ->
  component_div p phi fx fy k i j = flux_epsilon (seps p) (sn p) false ^ 2 * laplace (h1 (sb p)) (h2 (sb p)) (fun a c => phi a c k) i j.
Proof.
  intros p phi fx fy k i j E [Hi Hj]. unfold component_div, diverg, laplace. rewrite E. cbn [flux_x flux_y]. unfold gradient_flux_x, gradient_flux_y.
  rewrite !xfaces_val, !yfaces_val by (split; lia). replace (i + 1 - 1)%Z with i by lia. replace (j + 1 - 1)%Z with j by lia.
  unfold Rdiv. rewrite !inv_sq. ring.
Qed.
Lemma wang_phase_simple : forall p c phi fx fy w rhs i j k, (1 < sn p)%Z -> skind p = FluxSimple -> (1 <= k <= sn p)%Z ->
  h1 (sb p) <> 0 -> h2 (sb p) <> 0 -> in_cells (sb p) i j ->
  wang_phase_rhs p c phi fx fy w rhs i j k =
  spm p i j * (seps p ^ 3 / 2 * laplace (h1 (sb p)) (h2 (sb p)) (fun a c => phi a c k) i j
               - 12 * sB p * wang_slope (sn p) (c i j) (phi i j) k).
Proof.
  intros p c phi fx fy w rhs i j k Hn E Hk H1 H2 Hij. rewrite wang_phase_val, simple_div, epsilon_multi by auto. field.
Qed.

(** * Dissipation *)
Lemma mdiff_ok : forall cx cy b M0 M1 mu, faces_match cx cy b M0 M1 -> filled cx cy b mu -> flux_ok cx cy b (mdiff0 b M0 mu) (mdiff1 b M1 mu).
Proof.
  intros cx cy b M0 M1 mu [X0 X1] [F0 F1]. split.
  - intros j Hj. specialize (F0 j Hj). unfold row_flux_ok, mdiff0. destruct cx; destruct F0 as [A B]; replace (hi0 b + 1 - 1)%Z with (hi0 b) by lia; rewrite A, B.
    + rewrite X0 by auto. reflexivity.
    + unfold Rdiv. split; ring.
  - intros i Hi. specialize (F1 i Hi). unfold row_flux_ok, mdiff1. destruct cy; destruct F1 as [A B]; replace (hi1 b + 1 - 1)%Z with (hi1 b) by lia; rewrite A, B.
    + rewrite X1 by auto. reflexivity.
    + unfold Rdiv. split; ring.
Qed.
Lemma sum_cells_nonneg : forall b f, (forall i j, in_cells b i j -> 0 <= f i j) -> 0 <= sum_cells b f.
Proof.
  intros b f H. unfold sum_cells, sum_box.
  assert (N : forall lo hi g, (forall i, (lo <= i <= hi)%Z -> 0 <= g i) -> 0 <= sumZ lo hi g).
  { clear. intros lo hi g H. unfold sumZ. remember (Z.to_nat (hi - lo + 1)) as n eqn:E. revert lo E H. induction n as [| n IH]; intros lo E H; cbn [sum_from]; [lra |].
    assert (0 <= g lo) by (apply H; lia). assert (0 <= sum_from (lo + 1) n g) by (apply IH; [lia | intros; apply H; lia]). lra. }
  apply N. intros j Hj. apply N. intros i Hi. apply H. split; auto.
Qed.
(** potential times divergence of its mobile flux *)
Lemma dissipates : forall cx cy b M0 M1 mu, nonempty b -> faces_match cx cy b M0 M1 -> filled cx cy b mu ->
  (forall i j, x_face b i j -> 0 <= M0 i j) -> (forall i j, y_face b i j -> 0 <= M1 i j) ->
  sum_cells b (fun i j => mu i j * diverg (h1 b) (h2 b) (mdiff0 b M0 mu) (mdiff1 b M1 mu) i j) <= 0.
Proof.
  intros cx cy b M0 M1 mu N X F P0 P1. rewrite (parts cx cy) by (auto; apply mdiff_ok; auto).
  match goal with |- - ?x <= 0 => enough (0 <= x) by lra end. apply sum_cells_nonneg. intros i j [Hi Hj].
  unfold mdiff0, mdiff1. assert (0 <= M0 i j) by (apply P0; split; lia). assert (0 <= M1 i j) by (apply P1; split; lia).
  pose proof (pow2_ge_0 ((mu i j - mu (i - 1)%Z j) / h1 b)). pose proof (pow2_ge_0 ((mu i j - mu i (j - 1)%Z) / h2 b)).
  apply Rplus_le_le_0_compat.
  - replace (M0 i j * _ * _) with (M0 i j * ((mu i j - mu (i - 1)%Z j) / h1 b) ^ 2) by ring. apply Rmult_le_pos; auto.
  - replace (M1 i j * _ * _) with (M1 i j * ((mu i j - mu i (j - 1)%Z) / h2 b) ^ 2) by ring. apply Rmult_le_pos; auto.
Qed.
Lemma nonincreasing : forall f T, (forall t, 0 <= t <= T -> exists d, derivable_pt_lim f t d /\ d <= 0) ->
  forall s t, 0 <= s <= t -> t <= T -> f t <= f s.
Proof.
  intros f T H s t Hs Ht. destruct (Req_dec s t) as [-> | Hne]; [lra |].
  destruct (MVT_gen f s t (Derive f)) as (x & Hx & E).
  - intros x Hx. rewrite Rmin_left, Rmax_right in Hx by lra. destruct (H x ltac:(lra)) as (d & D & _). apply Derive_correct. exists d. apply is_derive_Reals; auto.
  - intros x Hx. rewrite Rmin_left, Rmax_right in Hx by lra. destruct (H x ltac:(lra)) as (d & D & _). apply derivable_continuous_pt. exists d. exact D.
  - rewrite Rmin_left, Rmax_right in Hx by lra. destruct (H x ltac:(lra)) as (d & D & Hd). apply is_derive_Reals in D. apply is_derive_unique in D.
    rewrite D in E. assert (d * (t - s) <= 0); [| lra]. assert (0 <= (- d) * (t - s)) by (apply Rmult_le_pos; lra). lra.
Qed.

(** Cahn-Hilliard *)
Lemma ch_mu_filled : forall cx cy b ca cb kappa ws c, extended cx cy b c -> filled cx cy b (ch_mu b ca cb kappa ws c).
Proof.
  intros cx cy b ca cb kappa ws c E. apply extended_filled. pose proof (extended_lap _ _ _ _ E) as L.
  apply (extended_map cx cy b 1 (fun x u => 2 * ws * (x - ca) * (cb - x) * (cb + ca - 2 * x) - kappa * u 1%Z) c (fun i j _ => laplace (h1 b) (h2 b) c i j)); auto.
  intros x u v H. rewrite (H 1%Z) by lia. reflexivity.
Qed.
Lemma ch_descends : forall cx cy b m ca cb kappa ws T c old, nonempty b -> h1 b <> 0 -> h2 b <> 0 -> 0 <= m ->
  (forall t, extended cx cy b (c t)) ->
  follows b T c (fun t => cahn_hilliard_rhs b m ca cb kappa ws (c t) (old t)) ->
  forall s t, 0 <= s <= t -> t <= T ->
    sum_cells b (c t) = sum_cells b (c s) /\ ch_total b ca cb kappa ws (c t) <= ch_total b ca cb kappa ws (c s).
Proof.
  intros cx cy b m ca cb kappa ws T c old N H1 H2 Hm E Fo s t Hs Ht.
  set (mu := fun t => ch_mu b ca cb kappa ws (c t)). set (one := fun _ _ : Z => 1).
  set (r := fun t i j => m * diverg (h1 b) (h2 b) (mdiff0 b one (mu t)) (mdiff1 b one (mu t)) i j).
  assert (D : forall t i j, 0 <= t <= T -> in_cells b i j -> derivable_pt_lim (fun s => c s i j) t (r t i j)).
  { intros u i j Hu Hij. pose proof (Fo u i j Hu Hij) as D. cbv beta in D. rewrite ch_rhs_val in D by auto. exact D. }
  assert (X : faces_match cx cy b one one) by (split; intros; reflexivity).
  assert (G : forall t, filled cx cy b (mu t)) by (intro u; apply ch_mu_filled; auto).
  split.
  - apply Rle_antisym; [| apply Ropp_le_cancel].
    + apply (nonincreasing (fun t => sum_cells b (c t)) T); auto. intros u Hu. exists (sum_cells b (r u)). split; [apply cells_deriv; auto |].
      unfold r. rewrite sum_cells_scal, (no_source cx cy) by (auto; apply mdiff_ok; auto). lra.
    + apply (nonincreasing (fun t => - sum_cells b (c t)) T); auto. intros u Hu. exists (- sum_cells b (r u)).
      split; [apply (derivable_pt_lim_opp (fun t => sum_cells b (c t))), cells_deriv; auto |].
      unfold r. rewrite sum_cells_scal, (no_source cx cy) by (auto; apply mdiff_ok; auto). lra.
  - apply (nonincreasing (fun t => ch_total b ca cb kappa ws (c t)) T); auto. intros u Hu.
    exists (sum_cells b (fun i j => mu u i j * r u i j)). split.
    + replace (sum_cells b (fun i j => mu u i j * r u i j)) with
        (sum_cells b (fun i j => 2 * ws * (c u i j - ca) * (cb - c u i j) * (cb + ca - 2 * c u i j) * r u i j)
         + kappa * - sum_cells b (fun i j => r u i j * laplace (h1 b) (h2 b) (c u) i j)).
      2: { rewrite <- (Rmult_1_l (sum_cells b (fun i j => r u i j * _))), Ropp_mult_distr_l, <- !sum_cells_scal, <- sum_cells_plus.
           apply sum_cells_ext. intros i j _. unfold mu, ch_mu. ring. }
      unfold ch_total. apply (derivable_pt_lim_plus (fun t => sum_cells b (fun i j => ch_energy ca cb ws (c t i j))) (fun t => kappa * gradient_energy b (c t))).
      * apply (cells_deriv b (fun t i j => ch_energy ca cb ws (c t i j))). intros i j Hij.
        rewrite Rmult_comm. rewrite <- (Rmult_comm (2 * ws * (c u i j - ca) * (cb - c u i j) * (cb + ca - 2 * c u i j))).
        apply (derivable_pt_lim_comp (fun t => c t i j) (ch_energy ca cb ws)); [auto | apply ch_deriv].
      * apply derivable_pt_lim_scal. apply (gradient_deriv cx cy); auto. intro v. apply extended_filled; auto.
    + rewrite (sum_cells_ext b _ (fun i j => m * (mu u i j * diverg (h1 b) (h2 b) (mdiff0 b one (mu u)) (mdiff1 b one (mu u)) i j)))
        by (intros; unfold r; ring).
      rewrite sum_cells_scal. assert (A : sum_cells b (fun i j => mu u i j * diverg (h1 b) (h2 b) (mdiff0 b one (mu u)) (mdiff1 b one (mu u)) i j) <= 0).
      { apply (dissipates cx cy); auto; intros; unfold one; lra. }
      assert (0 <= m * - sum_cells b (fun i j => mu u i j * diverg (h1 b) (h2 b) (mdiff0 b one (mu u)) (mdiff1 b one (mu u)) i j)) by (apply Rmult_le_pos; lra). lra.
Qed.

(** * Sintering: dissipation *)
Lemma energy_along : forall A B (c S2 S3 : R -> R) dc d2 d3 t, derivable_pt_lim c t dc -> derivable_pt_lim S2 t d2 -> derivable_pt_lim S3 t d3 ->
  derivable_pt_lim (fun s => A * c s ^ 2 * (1 - c s) ^ 2 + B * (c s ^ 2 + 6 * (1 - c s) * S2 s - 4 * (2 - c s) * S3 s + 3 * S2 s ^ 2)) t
    ((2 * A * c t * (1 - c t) * (1 - 2 * c t) + 2 * B * (c t - 3 * S2 t + 2 * S3 t)) * dc
     + B * (6 * (1 - c t) * d2 - 4 * (2 - c t) * d3 + 6 * S2 t * d2)).
Proof.
  intros A B c S2 S3 dc d2 d3 t Hc H2 H3. apply is_derive_Reals in Hc, H2, H3. apply is_derive_Reals.
  evar_last.
  - auto_derive; [repeat split; eexists; eassumption | reflexivity].
  - change (fun x => c x) with c. change (fun x => S2 x) with S2. change (fun x => S3 x) with S3.
    rewrite (is_derive_unique _ _ _ Hc), (is_derive_unique _ _ _ H2), (is_derive_unique _ _ _ H3). cbn. ring.
Qed.
Lemma pow_along : forall (f : R -> R) d t, derivable_pt_lim f t d ->
  derivable_pt_lim (fun s => f s ^ 2) t (2 * f t * d) /\ derivable_pt_lim (fun s => f s ^ 3) t (3 * f t ^ 2 * d).
Proof.
  intros f d t H. apply is_derive_Reals in H. split; apply is_derive_Reals; (evar_last; [auto_derive; [repeat split; eexists; eassumption | reflexivity] |]);
    change (fun x => f x) with f; rewrite (is_derive_unique _ _ _ H); cbn; ring.
Qed.
Lemma sinter_energy_deriv : forall A B n (c : R -> R) (phi : R -> Z -> R) dc dphi t, derivable_pt_lim c t dc ->
  (forall k, (1 <= k <= n)%Z -> derivable_pt_lim (fun s => phi s k) t (dphi k)) ->
  derivable_pt_lim (fun s => sintering_energy A B n (phi s) (c s)) t
    ((2 * A * c t * (1 - c t) * (1 - 2 * c t) + 2 * B * (c t - 3 * sq_sum n (phi t) + 2 * cu_sum n (phi t))) * dc
     + sumZ 1 n (fun k => 12 * B * wang_slope n (c t) (phi t) k * dphi k)).
Proof.
  intros A B n c phi dc dphi t Hc Hp. unfold sintering_energy.
  assert (H2 : derivable_pt_lim (fun s => sq_sum n (phi s)) t (sumZ 1 n (fun k => 2 * phi t k * dphi k))).
  { apply (sumZ_deriv 1 n (fun s k => phi s k ^ 2)). intros k Hk. apply (pow_along (fun s => phi s k)). auto. }
  assert (H3 : derivable_pt_lim (fun s => cu_sum n (phi s)) t (sumZ 1 n (fun k => 3 * phi t k ^ 2 * dphi k))).
  { apply (sumZ_deriv 1 n (fun s k => phi s k ^ 3)). intros k Hk. apply (pow_along (fun s => phi s k)). auto. }
  pose proof (energy_along A B c (fun s => sq_sum n (phi s)) (fun s => cu_sum n (phi s)) _ _ _ t Hc H2 H3) as E. cbv beta in E.
  replace (sumZ 1 n (fun k => 12 * B * wang_slope n (c t) (phi t) k * dphi k)) with
    (B * (6 * (1 - c t) * sumZ 1 n (fun k => 2 * phi t k * dphi k) - 4 * (2 - c t) * sumZ 1 n (fun k => 3 * phi t k ^ 2 * dphi k)
          + 6 * sq_sum n (phi t) * sumZ 1 n (fun k => 2 * phi t k * dphi k))); [exact E |].
  unfold Rminus. rewrite Ropp_mult_distr_l. rewrite !Rmult_plus_distr_l. rewrite <- !Rmult_assoc. rewrite <- !sumZ_scal, <- !sumZ_plus. apply sumZ_ext. intros k _. unfold wang_slope. ring.
Qed.
Lemma cells_sumZ : forall b n (g : Z -> Z -> Z -> R),
  sum_cells b (fun i j => sumZ 1 n (fun k => g i j k)) = sumZ 1 n (fun k => sum_cells b (fun i j => g i j k)).
Proof.
  intros b n g. unfold sum_cells, sum_box.
  rewrite (sumZ_ext (lo1 b) (hi1 b) _ (fun j => sumZ 1 n (fun k => sumZ (lo0 b) (hi0 b) (fun i => g i j k)))).
  - apply (sumZ_swap 1 n (lo1 b) (hi1 b) (fun k j => sumZ (lo0 b) (hi0 b) (fun i => g i j k))).
  - intros j _. apply (sumZ_swap 1 n (lo0 b) (hi0 b) (fun k i => g i j k)).
Qed.
Lemma wang_mu_filled : forall cx cy p c phi, (1 < sn p)%Z -> extended cx cy (sb p) c ->
  (forall k, (1 <= k <= sn p)%Z -> extended cx cy (sb p) (fun i j => phi i j k)) -> filled cx cy (sb p) (wang_mu p c phi).
Proof.
  intros cx cy p c phi Pos E P. apply extended_filled. pose proof (extended_lap _ _ _ _ E) as L.
  (* component 0 holds the Laplacian *)
  set (h := fun i j k => if (k =? sn p + 1)%Z then laplace (h1 (sb p)) (h2 (sb p)) c i j else phi i j k).
  assert (G : extended cx cy (sb p) (fun i j => (fun x u => 2 * sA p * x * (1 - x) * (1 - 2 * x)
    + 2 * sB p * (x - 3 * sq_sum (sn p) u + 2 * cu_sum (sn p) u) - skappa p * u (sn p + 1)%Z) (c i j) (h i j))).
  { apply (extended_map cx cy (sb p) (sn p + 1) (fun x u => 2 * sA p * x * (1 - x) * (1 - 2 * x)
        + 2 * sB p * (x - 3 * sq_sum (sn p) u + 2 * cu_sum (sn p) u) - skappa p * u (sn p + 1)%Z)); auto.
      + intros k Hk. unfold h. destruct (Z.eqb_spec k (sn p + 1)); [exact L | apply P; lia].
      + intros x u v H. rewrite (H (sn p + 1)%Z) by lia. unfold sq_sum, cu_sum.
        rewrite (sumZ_ext 1 (sn p) (fun k => u k ^ 2) (fun k => v k ^ 2)) by (intros; rewrite H by lia; reflexivity).
        rewrite (sumZ_ext 1 (sn p) (fun k => u k ^ 3) (fun k => v k ^ 3)) by (intros; rewrite H by lia; reflexivity). reflexivity. }
  refine (eq_ind _ (extended cx cy (sb p)) G _ _).
  apply FunctionalExtensionality.functional_extensionality; intro i. apply FunctionalExtensionality.functional_extensionality; intro j.
  unfold wang_mu, h. rewrite Z.eqb_refl. unfold sq_sum, cu_sum.
  rewrite (sumZ_ext 1 (sn p) (fun k => (if (k =? sn p + 1)%Z then _ else _) ^ 2) (fun k => phi i j k ^ 2)) by (intros k Hk; destruct (Z.eqb_spec k (sn p + 1)); [lia | reflexivity]).
  rewrite (sumZ_ext 1 (sn p) (fun k => (if (k =? sn p + 1)%Z then _ else _) ^ 3) (fun k => phi i j k ^ 3)) by (intros k Hk; destruct (Z.eqb_spec k (sn p + 1)); [lia | reflexivity]).
  reflexivity.
Qed.
Lemma sumZ_nonpos : forall lo hi g, (forall i, (lo <= i <= hi)%Z -> g i <= 0) -> sumZ lo hi g <= 0.
Proof.
  intros lo hi g. unfold sumZ. remember (Z.to_nat (hi - lo + 1)) as n eqn:E. revert lo E. induction n as [| n IH]; intros lo E H; cbn [sum_from]; [lra |].
  assert (g lo <= 0) by (apply H; lia). assert (sum_from (lo + 1) n g <= 0) by (apply IH; [lia | intros; apply H; lia]). lra.
Qed.
Lemma sinter_descends : forall cx cy p T m d0 d1 c phi, nonempty (sb p) -> h1 (sb p) <> 0 -> h2 (sb p) <> 0 -> (1 < sn p)%Z -> skind p = FluxSimple ->
  (forall t, 0 <= t <= T -> dissipative (sb p) (m t) (d0 t) (d1 t) /\ faces_match cx cy (sb p) (d0 t) (d1 t)) ->
  (forall t, extended cx cy (sb p) (c t)) -> (forall t k, (1 <= k <= sn p)%Z -> extended cx cy (sb p) (fun i j => phi t i j k)) ->
  sinter_run p T m d0 d1 c phi ->
  forall s t, 0 <= s <= t -> t <= T ->
    sum_cells (sb p) (c t) = sum_cells (sb p) (c s) /\
    sinter_total (sb p) (sA p) (sB p) (sn p) (skappa p) (seps p ^ 3 / 2) (c t) (phi t) <=
    sinter_total (sb p) (sA p) (sB p) (sn p) (skappa p) (seps p ^ 3 / 2) (c s) (phi s).
Proof.
  intros cx cy p T m d0 d1 c phi N H1 H2 Hn Hk Co Ec Ep (ws & w & cold & fx & fy & pold & Fc & Fp) s t Hs Ht.
  set (b := sb p) in *. set (q := fun t => at_time p (m t) (d0 t) (d1 t)).
  set (mu := fun t => wang_mu p (c t) (phi t)). set (M0 := fun t i j => scm p * d0 t i j). set (M1 := fun t i j => scm p * d1 t i j).
  set (r := fun t i j => scm p * diverg (h1 b) (h2 b) (mdiff0 b (M0 t) (mu t)) (mdiff1 b (M1 t) (mu t)) i j).
  set (nu := fun t k i j => 12 * sB p * wang_slope (sn p) (c t i j) (phi t i j) k - seps p ^ 3 / 2 * laplace (h1 b) (h2 b) (fun a e => phi t a e k) i j).
  assert (D : forall t i j, 0 <= t <= T -> in_cells b i j -> derivable_pt_lim (fun s => c s i j) t (r t i j)).
  { intros u i j Hu Hij. pose proof (Fc u i j Hu Hij) as D. cbv beta in D. rewrite wang_conc_val in D by (cbn [at_time sn sb]; auto; lia). exact D. }
  assert (Dp : forall t i j k, 0 <= t <= T -> in_cells b i j -> (1 <= k <= sn p)%Z -> derivable_pt_lim (fun s => phi s i j k) t (- (m t i j * nu t k i j))).
  { intros u i j k Hu Hij Kk. pose proof (Fp k Kk u i j Hu Hij) as D'. cbv beta in D'. rewrite wang_phase_simple in D' by (cbn [at_time sn sb skind]; auto; lia).
    cbn [at_time spm seps sb sB sn] in D'. unfold nu. replace (- _) with (m u i j *
       (seps p ^ 3 / 2 * laplace (h1 (sb p)) (h2 (sb p)) (fun a c : Z => phi u a c k) i j - 12 * sB p * wang_slope (sn p) (c u i j) (phi u i j) k)) by (unfold b; ring). exact D'. }
  assert (X : forall t, 0 <= t <= T -> faces_match cx cy b (M0 t) (M1 t)).
  { intros u Hu. destruct (Co u Hu) as [_ [A B]]. unfold M0, M1. split; intros; [rewrite A by auto | rewrite B by auto]; reflexivity. }
  assert (G : forall t, filled cx cy b (mu t)) by (intro u; apply wang_mu_filled; auto).
  split.
  - apply Rle_antisym; [| apply Ropp_le_cancel].
    + apply (nonincreasing (fun t => sum_cells b (c t)) T); auto. intros u Hu. exists (sum_cells b (r u)). split; [apply cells_deriv; auto |].
      unfold r. rewrite sum_cells_scal, (no_source cx cy) by (auto; apply mdiff_ok; auto). lra.
    + apply (nonincreasing (fun t => - sum_cells b (c t)) T); auto. intros u Hu. exists (- sum_cells b (r u)).
      split; [apply (derivable_pt_lim_opp (fun t => sum_cells b (c t))), cells_deriv; auto |].
      unfold r. rewrite sum_cells_scal, (no_source cx cy) by (auto; apply mdiff_ok; auto). lra.
  - apply (nonincreasing (fun t => sinter_total b (sA p) (sB p) (sn p) (skappa p) (seps p ^ 3 / 2) (c t) (phi t)) T); auto. intros u Hu.
    exists (sum_cells b (fun i j => mu u i j * r u i j) + sumZ 1 (sn p) (fun k => sum_cells b (fun i j => - (m u i j * nu u k i j ^ 2)))). split.
    + replace (sum_cells b (fun i j => mu u i j * r u i j) + _) with
        (sum_cells b (fun i j => (2 * sA p * c u i j * (1 - c u i j) * (1 - 2 * c u i j)
            + 2 * sB p * (c u i j - 3 * sq_sum (sn p) (phi u i j) + 2 * cu_sum (sn p) (phi u i j))) * r u i j
            + sumZ 1 (sn p) (fun k => 12 * sB p * wang_slope (sn p) (c u i j) (phi u i j) k * - (m u i j * nu u k i j)))
         + skappa p * - sum_cells b (fun i j => r u i j * laplace (h1 b) (h2 b) (c u) i j)
         + seps p ^ 3 / 2 * sumZ 1 (sn p) (fun k => - sum_cells b (fun i j => - (m u i j * nu u k i j) * laplace (h1 b) (h2 b) (fun a e => phi u a e k) i j))).
      2: { rewrite sum_cells_plus, cells_sumZ. rewrite sumZ_opp.
           rewrite <- (Rmult_1_l (sum_cells b (fun i j => r u i j * _))), Ropp_mult_distr_l. rewrite <- Rmult_assoc.
           rewrite <- (sum_cells_scal b (skappa p * -1)).
           replace (seps p ^ 3 / 2 * - sumZ 1 (sn p) (fun k => sum_cells b (fun i j => - (m u i j * nu u k i j) * laplace (h1 b) (h2 b) (fun a e => phi u a e k) i j)))
             with (sumZ 1 (sn p) (fun k => sum_cells b (fun i j => seps p ^ 3 / 2 * (m u i j * nu u k i j) * laplace (h1 b) (h2 b) (fun a e => phi u a e k) i j))).
           2: { rewrite Ropp_mult_distr_r_reverse, Ropp_mult_distr_l, <- sumZ_scal. apply sumZ_ext. intros k _. rewrite <- sum_cells_scal. apply sum_cells_ext. intros. ring. }
           match goal with |- ?a + ?b' + ?c' + ?d' = _ => replace (a + b' + c' + d') with ((a + c') + (b' + d')) by ring end. f_equal.
           - rewrite <- sum_cells_plus. apply sum_cells_ext. intros i j _. unfold mu, wang_mu. fold b. ring.
           - rewrite <- sumZ_plus. apply sumZ_ext. intros k _. rewrite <- sum_cells_plus. apply sum_cells_ext. intros i j _. unfold nu. ring. }
      unfold sinter_total.
      apply (derivable_pt_lim_plus (fun t => sum_cells b (fun i j => sintering_energy (sA p) (sB p) (sn p) (phi t i j) (c t i j)) + skappa p * gradient_energy b (c t))
        (fun t => seps p ^ 3 / 2 * sumZ 1 (sn p) (fun k => gradient_energy b (fun i j => phi t i j k)))).
      * apply (derivable_pt_lim_plus (fun t => sum_cells b (fun i j => sintering_energy (sA p) (sB p) (sn p) (phi t i j) (c t i j))) (fun t => skappa p * gradient_energy b (c t))).
        -- apply (cells_deriv b (fun t i j => sintering_energy (sA p) (sB p) (sn p) (phi t i j) (c t i j))). intros i j Hij.
           apply (sinter_energy_deriv (sA p) (sB p) (sn p) (fun t => c t i j) (fun t => phi t i j) (r u i j) (fun k => - (m u i j * nu u k i j))); auto.
        -- apply derivable_pt_lim_scal. apply (gradient_deriv cx cy); auto. intro v. apply extended_filled; auto.
      * apply derivable_pt_lim_scal. apply (sumZ_deriv 1 (sn p) (fun t k => gradient_energy b (fun i j => phi t i j k))). intros k Kk.
        apply (gradient_deriv cx cy b (fun t i j => phi t i j k) (fun i j => - (m u i j * nu u k i j))); auto. intro v. apply extended_filled; auto.
    + destruct (Co u Hu) as [(Pm & P0 & P1) _].
      assert (A : sumZ 1 (sn p) (fun k => sum_cells b (fun i j => - (m u i j * nu u k i j ^ 2))) <= 0).
      { apply sumZ_nonpos. intros k _. rewrite (sum_cells_ext b _ (fun i j => -1 * (m u i j * nu u k i j ^ 2))) by (intros; ring). rewrite sum_cells_scal.
        assert (0 <= sum_cells b (fun i j => m u i j * nu u k i j ^ 2)) by (apply sum_cells_nonneg; intros; apply Rmult_le_pos; [auto | apply pow2_ge_0]). lra. }
      assert (B : sum_cells b (fun i j => mu u i j * r u i j) <= 0); [| lra].
      (* both factors of the mobility: the square *)
      set (Q0 := fun i j => scm p ^ 2 * d0 u i j). set (Q1 := fun i j => scm p ^ 2 * d1 u i j).
      rewrite (sum_cells_ext b _ (fun i j => mu u i j * diverg (h1 b) (h2 b) (mdiff0 b Q0 (mu u)) (mdiff1 b Q1 (mu u)) i j)).
      2: { intros i j _. unfold r, diverg, mdiff0, mdiff1, M0, M1, Q0, Q1, Rdiv. ring. }
      apply (dissipates cx cy); auto.
      * destruct (X u Hu) as [X0 X1]. destruct (Co u Hu) as [_ [Y0 Y1]]. unfold Q0, Q1. split; intros; [rewrite Y0 by auto | rewrite Y1 by auto]; reflexivity.
      * intros i j Hij. apply Rmult_le_pos; [apply pow2_ge_0 | auto].
      * intros i j Hij. apply Rmult_le_pos; [apply pow2_ge_0 | auto].
Qed.

(** * Parameters *)
Lemma scaled_rates : forall p c phi fx fy w w' rhs rhs' s i j k, (1 < sn p)%Z -> (1 <= k <= sn p)%Z -> h1 (sb p) <> 0 -> h2 (sb p) <> 0 -> in_cells (sb p) i j ->
  wang_phase_rhs (at_time p (fun i j => s * spm p i j) (sd0 p) (sd1 p)) c phi fx fy w rhs i j k = s * wang_phase_rhs p c phi fx fy w rhs i j k /\
  wang_conc_rhs (at_time p (spm p) (fun i j => s * sd0 p i j) (fun i j => s * sd1 p i j)) c phi w' rhs' i j = s * wang_conc_rhs p c phi w' rhs' i j.
Proof.
  intros p c phi fx fy w w' rhs rhs' s i j k Hn Hk H1 H2 Hij. split.
  - rewrite !wang_phase_val by auto. unfold component_div. cbn [at_time sb sn seps sB skind spm]. ring.
  - rewrite !wang_conc_val by (cbn [at_time sn sb]; auto; lia). unfold diverg, mdiff0, mdiff1, wang_mu. cbn [at_time sb sn sA sB skappa scm sd0 sd1]. unfold Rdiv. ring.
Qed.
Lemma squared_mobility : forall p c phi w rhs s i j, (1 <= sn p)%Z -> h1 (sb p) <> 0 -> h2 (sb p) <> 0 -> in_cells (sb p) i j ->
  wang_conc_rhs (with_mobility p (s * scm p)) c phi w rhs i j = s ^ 2 * wang_conc_rhs p c phi w rhs i j.
Proof.
  intros p c phi w rhs s i j Hn H1 H2 Hij.
  rewrite !wang_conc_val by (cbn [with_mobility sn sb]; auto; lia). unfold diverg, mdiff0, mdiff1, wang_mu. cbn [with_mobility sb sn sA sB skappa scm sd0 sd1]. unfold Rdiv. ring.
Qed.
Lemma step_value : forall cm w rhs, wang_conc_rhs (step_problem cm) step_conc (fun _ _ _ => 0) w rhs 0%Z 0%Z = 2 * cm ^ 2.
Proof.
  intros cm w rhs. rewrite wang_conc_val by (cbn; try lra; try lia; unfold in_cells, in_box; cbn; lia).
  unfold step_conc, diverg, mdiff0, mdiff1, wang_mu, laplace, sq_sum, cu_sum. cbn [step_problem sb sn sA sB skappa scm sd0 sd1 h1 h2].
  rewrite !sumZ_cons, !sumZ_empty by lia. cbn [Z.leb Z.add Z.sub Z.opp Z.pos_sub Z.compare Pos.succ Pos.compare Pos.compare_cont]. field.
Qed.

(** the coefficient of the Laplacian decides the width of a flat grain boundary *)
Lemma gb_derivs : forall w x, w <> 0 ->
  derivable_pt_lim (gb_profile w) x (gb_profile w x * (1 - gb_profile w x) / w) /\
  derivable_pt_lim (fun y => gb_profile w y * (1 - gb_profile w y) / w) x
    (gb_profile w x * (1 - gb_profile w x) * (1 - 2 * gb_profile w x) / w ^ 2).
Proof.
  intros w x Hw.
  assert (P : forall y, 1 + exp (- (y / w)) <> 0) by (intro y; pose proof (exp_pos (- (y / w))); lra).
  assert (D : forall y, is_derive (gb_profile w) y (gb_profile w y * (1 - gb_profile w y) / w)).
  { intro y. unfold gb_profile. auto_derive; [specialize (P y); unfold Rdiv in P; exact P |]. unfold Rdiv. specialize (P y). unfold Rdiv in P.
    field. split; auto. }
  split; [apply is_derive_Reals, D |].
  apply is_derive_Reals. evar_last.
  - auto_derive; [repeat split; eexists; apply D | reflexivity].
  - change (fun x => gb_profile w x) with (gb_profile w). rewrite (is_derive_unique _ _ _ (D x)). field. auto.
Qed.
Lemma slope_gb : forall f, wang_slope 2 1 (fun k => if (k =? 1)%Z then f else 1 - f) 1 = f * (1 - f) * (1 - 2 * f).
Proof.
  intro f. unfold wang_slope, sq_sum. rewrite !sumZ_cons, sumZ_empty by lia. change ((1 =? 1)%Z) with true. change ((1 + 1 =? 1)%Z) with false. cbv iota. ring.
Qed.
Lemma gb_force : forall A B f, let u := fun k => if (k =? 1)%Z then f else 1 - f in
  derivable_pt_lim (fun s => sintering_energy A B 2 (setZ u 1 s) 1) (u 1%Z) (12 * B * (f * (1 - f) * (1 - 2 * f))).
Proof. intros A B f u. rewrite <- (slope_gb f). exact (sinter_deriv_phi A B 2 u 1 1 ltac:(lia)). Qed.
Lemma balance : forall kappa A B w, 0 < w -> (balanced kappa A B w <-> kappa = 12 * B * w ^ 2).
Proof.
  intros kappa A B w Hw. assert (Wn : w <> 0) by lra. split.
  - intro H. specialize (H w _ _ (ex_intro _ _ (conj (fun y => proj1 (gb_derivs w y Wn)) (proj2 (gb_derivs w w Wn)))) (gb_force A B (gb_profile w w))).
    set (g := gb_profile w w) in *.
    assert (G : 1 / 2 < g < 1).
    { unfold g, gb_profile. replace (- (w / w)) with (Ropp 1) by (field; auto). pose proof (exp_pos (Ropp 1)).
      pose proof (exp_increasing (Ropp 1) 0 ltac:(lra)) as X1. rewrite exp_0 in X1. set (x1 := exp (Ropp 1)) in *. split.
      - unfold Rdiv. rewrite Rmult_1_l. apply Rinv_lt_contravar; [apply Rmult_lt_0_compat |]; lra.
      - apply (Rmult_lt_reg_l (1 + x1)); [lra |]. rewrite Rinv_r; lra. }
    assert (Q : (kappa - 12 * B * w ^ 2) * (g * (1 - g) * (1 - 2 * g)) = 0).
    { apply (Rmult_eq_reg_r (/ w ^ 2)); [| apply Rinv_neq_0_compat, pow_nonzero; auto]. rewrite Rmult_0_l.
      transitivity (kappa * (g * (1 - g) * (1 - 2 * g) / w ^ 2) - 12 * B * (g * (1 - g) * (1 - 2 * g))); [field; auto | rewrite H; ring]. }
    apply Rmult_integral in Q. destruct Q as [Q | Q]; [lra |].
    assert (g * (1 - g) <> 0) by (apply Rmult_integral_contrapositive; lra).
    apply Rmult_integral in Q. destruct Q; [contradiction | lra].
  - intros -> x d2 e0 (d1 & D1 & D2) u Fe.
    assert (E : d1 = fun y => gb_profile w y * (1 - gb_profile w y) / w).
    { apply FunctionalExtensionality.functional_extensionality; intro y. apply (uniqueness_limite _ _ _ _ (D1 y) (proj1 (gb_derivs w y Wn))). }
    subst d1. rewrite (uniqueness_limite _ _ _ _ D2 (proj2 (gb_derivs w x Wn))), (uniqueness_limite _ _ _ _ Fe (gb_force A B (gb_profile w x))). field. auto.
Qed.
Lemma input_relaxes : forall b sigma delta a b_in be cm m d0 d1, h1 b <> 0 -> h2 b <> 0 ->
  relaxes (sinter_of_input b sigma delta a b_in be cm m d0 d1) (interface_epsilon sigma delta ^ 3 / 2).
Proof.
  intros b sigma delta a b_in be cm m d0 d1 H1 H2. unfold sinter_of_input. destruct (read_wang sigma delta a b_in be) as [[A B] K].
  intros c phi fx fy w rhs i j k e Hk Hij D. cbn [sn sb] in *. rewrite wang_phase_simple by (cbn [sn sb skind]; auto; lia). cbn [sn sb seps sA sB spm] in *.
  rewrite (uniqueness_limite _ _ _ _ D (sinter_deriv_phi A B 2 (phi i j) k (c i j) Hk)). reflexivity.
Qed.
Lemma width_of_input : forall b sigma delta a b_in be cm m d0 d1, h1 b <> 0 -> h2 b <> 0 -> 0 < sigma -> 0 < delta ->
  let p := sinter_of_input b sigma delta a b_in be cm m d0 d1 in
  exists kappa, relaxes p kappa /\ forall w, 0 < w -> (balanced kappa (sA p) (sB p) w <-> w ^ 4 = 6 * sigma * delta * delta ^ 4).
Proof.
  intros b sigma delta a b_in be cm m d0 d1 H1 H2 Hs Hd p. exists (interface_epsilon sigma delta ^ 3 / 2). split; [apply input_relaxes; auto |].
  intros w Hw. rewrite balance by auto. unfold p, sinter_of_input, read_wang. destruct (Rlt_dec 0 sigma); [| lra]. destruct (Rlt_dec 0 delta); [| lra].
  cbn [sB]. unfold interface_epsilon.
  assert (P : 0 < 6 * sigma * delta) by (apply Rmult_lt_0_compat; lra).
  set (e := sqrt (6 * sigma * delta)). assert (E2 : e * e = 6 * sigma * delta) by (apply sqrt_sqrt; lra).
  assert (Ep : 0 < e) by (apply sqrt_lt_R0; auto).
  assert (A : e ^ 3 / 2 = 3 * sigma / delta * (e * delta ^ 2)).
  { replace (e ^ 3 / 2) with ((e * e) * e / 2) by (cbn; field). rewrite E2. field. lra. }
  replace (12 * (sigma / (4 * delta)) * w ^ 2) with (3 * sigma / delta * w ^ 2) by (field; lra). rewrite A.
  assert (K : 3 * sigma / delta <> 0) by (apply Rgt_not_eq, Rdiv_lt_0_compat; lra).
  split.
  - intro H. apply Rmult_eq_reg_l in H; auto. replace (w ^ 4) with (w ^ 2 * w ^ 2) by ring. rewrite <- H.
    transitivity (e * e * delta ^ 4); [ring | rewrite E2; ring].
  - intro H. f_equal. assert (X : w ^ 2 * w ^ 2 = (e * delta ^ 2) * (e * delta ^ 2)).
    { transitivity (w ^ 4); [ring |]. rewrite H. transitivity (e * e * delta ^ 4); [rewrite E2; ring | ring]. }
    assert (0 < w ^ 2) by (apply pow_lt; auto). assert (0 < e * delta ^ 2) by (apply Rmult_lt_0_compat; [auto | apply pow_lt; auto]).
    assert (Y : (w ^ 2 - e * delta ^ 2) * (w ^ 2 + e * delta ^ 2) = 0).
    { transitivity (w ^ 2 * w ^ 2 - (e * delta ^ 2) * (e * delta ^ 2)); [ring | lra]. }
    apply Rmult_integral in Y. lra.
Qed.

Lemma width_wrong : forall b a b_in be cm m d0 d1, h1 b <> 0 -> h2 b <> 0 ->
  let p := sinter_of_input b 1 1 a b_in be cm m d0 d1 in exists kappa, relaxes p kappa /\ ~ balanced kappa (sA p) (sB p) 1.
Proof.
  intros b a b_in be cm m d0 d1 H1 H2 p. destruct (width_of_input b 1 1 a b_in be cm m d0 d1 H1 H2 ltac:(lra) ltac:(lra)) as (kappa & R & W).
  exists kappa. split; [exact R |]. intro Q. apply W in Q; lra.
Qed.
Lemma mobility_wrong : exists p c phi w rhs i j, (1 < sn p)%Z /\ in_cells (sb p) i j /\
  wang_conc_rhs (with_mobility p (2 * scm p)) c phi w rhs i j <> 2 * wang_conc_rhs p c phi w rhs i j.
Proof.
  exists (step_problem 1), step_conc, (fun _ _ _ => 0), (fun _ _ => 0, fun _ _ => 0), (fun _ _ => 0), 0%Z, 0%Z.
  split; [cbn; lia |]. split; [unfold in_cells, in_box; cbn; lia |]. change (with_mobility (step_problem 1) (2 * scm (step_problem 1))) with (step_problem (2 * 1)).
  rewrite !step_value. lra.
Qed.

(** * Minima *)
Lemma largest : forall n (u : Z -> R), (forall k, (1 <= k <= n)%Z -> 0 <= u k <= 1) ->
  exists m, 0 <= m <= 1 /\ m ^ 2 <= sq_sum n u /\ cu_sum n u <= m * sq_sum n u /\ 0 <= cu_sum n u.
Proof.
  intros n u. destruct (Z_lt_le_dec n 0) as [Neg | Pos].
  { intros _. exists 0. unfold sq_sum, cu_sum. rewrite !sumZ_empty by lia. lra. }
  revert n Pos. apply (natlike_ind (fun n => (forall k, (1 <= k <= n)%Z -> 0 <= u k <= 1) ->
    exists m, 0 <= m <= 1 /\ m ^ 2 <= sq_sum n u /\ cu_sum n u <= m * sq_sum n u /\ 0 <= cu_sum n u)).
  - intros _. exists 0. unfold sq_sum, cu_sum. rewrite !sumZ_empty by lia. lra.
  - intros n Hn IH H. destruct IH as (m & Hm & M1 & M2 & M3); [intros k Hk; apply H; lia |].
    unfold Z.succ. unfold sq_sum, cu_sum in *. rewrite !(sumZ_snoc 1 (n + 1)) by lia. replace (n + 1 - 1)%Z with n by lia.
    set (S := sumZ 1 n (fun k => u k ^ 2)) in *. set (T := sumZ 1 n (fun k => u k ^ 3)) in *. set (x := u (n + 1)%Z).
    assert (Hx : 0 <= x <= 1) by (apply H; lia).
    assert (Sp : 0 <= S) by (pose proof (pow2_ge_0 m); lra).
    assert (X2 : 0 <= x ^ 2) by apply pow2_ge_0.
    assert (X3 : x ^ 3 = x * x ^ 2) by ring.
    destruct (Rle_dec x m) as [L | L].
    + exists m. repeat split; try lra.
      * rewrite X3, Rmult_plus_distr_l. apply Rplus_le_compat; auto. apply Rmult_le_compat_r; auto.
      * rewrite X3. apply Rplus_le_le_0_compat; auto. apply Rmult_le_pos; lra.
    + exists x. repeat split; try lra.
      * rewrite X3, Rmult_plus_distr_l. apply Rplus_le_compat_r. apply Rle_trans with (m * S); auto. apply Rmult_le_compat_r; lra.
      * rewrite X3. apply Rplus_le_le_0_compat; auto. apply Rmult_le_pos; lra.
Qed.
(** for S <= 1 the bracket is at least g(T), a concave function of T *)
Lemma corner : forall m S, 0 <= m <= 1 -> m ^ 2 <= S -> S <= 1 -> 0 <= 3 - 4 * m + S * (- 2 * m ^ 2 + 6 * m - 3).
Proof.
  intros m S Hm L U. set (q := - 2 * m ^ 2 + 6 * m - 3).
  destruct (Rle_dec 0 q) as [Q | Q].
  - apply Rle_trans with (3 - 4 * m + m ^ 2 * q).
    + unfold q. replace (3 - 4 * m + m ^ 2 * (-2 * m ^ 2 + 6 * m - 3)) with ((1 - m) ^ 2 * (3 + 2 * (m * (1 - m)))) by ring.
      apply Rmult_le_pos; [apply pow2_ge_0 |]. assert (0 <= m * (1 - m)) by (apply Rmult_le_pos; lra). lra.
    + apply Rplus_le_compat_l, Rmult_le_compat_r; auto.
  - apply Rle_trans with (3 - 4 * m + 1 * q).
    + unfold q. replace (3 - 4 * m + 1 * (-2 * m ^ 2 + 6 * m - 3)) with (2 * (m * (1 - m))) by ring. assert (0 <= m * (1 - m)) by (apply Rmult_le_pos; lra). lra.
    + apply Rplus_le_compat_l. assert (0 <= (1 - S) * - q) by (apply Rmult_le_pos; lra). nra.
Qed.
Lemma bracket_nonneg : forall c S T m, 0 <= c <= 1 -> 0 <= m <= 1 -> m ^ 2 <= S -> T <= m * S -> 0 <= T ->
  0 <= c ^ 2 + 6 * (1 - c) * S - 4 * (2 - c) * T + 3 * S ^ 2 /\
  (c ^ 2 + 6 * (1 - c) * S - 4 * (2 - c) * T + 3 * S ^ 2 = 0 -> c = 3 * S - 2 * T /\ S <= 1 /\ (T = 0 /\ S * (1 - S) = 0 \/ T = S)).
Proof.
  intros c S T m Hc Hm M2 Tm Tp.
  assert (Sp : 0 <= S) by (pose proof (pow2_ge_0 m); lra).
  assert (TS : T <= S) by (assert (0 <= (1 - m) * S) by (apply Rmult_le_pos; lra); lra).
  destruct (Rle_dec S 1) as [L | L].
  - set (g := - 4 * T ^ 2 + 12 * S * T - 8 * T - 6 * S ^ 2 + 6 * S).
    assert (E : c ^ 2 + 6 * (1 - c) * S - 4 * (2 - c) * T + 3 * S ^ 2 = (c - (3 * S - 2 * T)) ^ 2 + g) by (unfold g; ring).
    set (K := 3 - 4 * m + S * (- 2 * m ^ 2 + 6 * m - 3)). assert (Kp : 0 <= K) by (apply corner; auto).
    (* S m * g = (S m - T) * (6 S (1 - S) m) + T * (2 S K) + 4 S m T (S m - T) when divided by S m; keep it multiplied out *)
    assert (G : (m * S) * g = (m * S - T) * (6 * S * (1 - S)) + T * (2 * S * K) + 4 * (m * S) * (T * (m * S - T))) by (unfold g, K; ring).
    assert (P1 : 0 <= S * (1 - S)) by (apply Rmult_le_pos; lra).
    assert (G1 : 0 <= (m * S - T) * (6 * S * (1 - S))) by (apply Rmult_le_pos; lra).
    assert (G2 : 0 <= T * (2 * S * K)) by (apply Rmult_le_pos; auto; apply Rmult_le_pos; lra).
    assert (mS : 0 <= m * S) by (apply Rmult_le_pos; lra).
    assert (G3 : 0 <= 4 * (m * S) * (T * (m * S - T))) by (apply Rmult_le_pos; [lra | apply Rmult_le_pos; lra]).
    destruct (Req_dec (m * S) 0) as [Z | Z].
    + assert (T0 : T = 0) by lra. assert (Eg : g = 6 * (S * (1 - S))) by (unfold g; rewrite T0; ring).
      rewrite E, Eg. pose proof (pow2_ge_0 (c - (3 * S - 2 * T))) as Q. split; [lra |]. intro H0.
      assert (H1 : (c - (3 * S - 2 * T)) ^ 2 = 0) by lra. assert (H2 : S * (1 - S) = 0) by lra.
      split; [| split; [exact L | left; auto]]. assert (c - (3 * S - 2 * T) = 0); [| lra].
      replace ((c - (3 * S - 2 * T)) ^ 2) with (Rsqr (c - (3 * S - 2 * T))) in H1 by (unfold Rsqr; ring). apply Rsqr_0_uniq; auto.
    + assert (mSp : 0 < m * S) by lra.
      assert (gp : 0 <= g). { apply Rmult_le_reg_l with (m * S); auto. lra. }
      rewrite E. pose proof (pow2_ge_0 (c - (3 * S - 2 * T))) as Q. split; [lra |]. intro H0.
      assert (H1 : (c - (3 * S - 2 * T)) ^ 2 = 0) by lra. assert (H2 : g = 0) by lra. rewrite H2 in G.
      assert (Z1 : (m * S - T) * (6 * S * (1 - S)) = 0) by lra. assert (Z2 : T * (2 * S * K) = 0) by lra. assert (Z3 : 4 * (m * S) * (T * (m * S - T)) = 0) by lra.
      split; [| split; [exact L |]].
      { assert (c - (3 * S - 2 * T) = 0); [| lra]. replace ((c - (3 * S - 2 * T)) ^ 2) with (Rsqr (c - (3 * S - 2 * T))) in H1 by (unfold Rsqr; ring). apply Rsqr_0_uniq; auto. }
      assert (Sn : S <> 0) by (intro; subst S; lra).
      apply Rmult_integral in Z3. destruct Z3 as [Z3 | Z3]; [lra |]. apply Rmult_integral in Z3. destruct Z3 as [T0 | TmS].
      * left. split; auto. rewrite T0 in Z1. assert (6 * (m * S) * (S * (1 - S)) = 0) by lra. apply Rmult_integral in H. destruct H; [lra | auto].
      * right. assert (Te : T = m * S) by lra.
        apply Rmult_integral in Z2. destruct Z2 as [| Z2]; [lra |]. assert (K0 : K = 0). { apply Rmult_integral in Z2. destruct Z2; [lra | auto]. }
        (* K = 0 forces m = 1 (or m = 0, excluded) *)
        assert (m = 1); [| subst m; lra].
        destruct (Req_dec m 1) as [| Ne]; auto. exfalso. assert (m1 : 0 < 1 - m) by lra. assert (mp : 0 < m) by (destruct (Req_dec m 0); [subst m; lra | lra]).
        set (q := - 2 * m ^ 2 + 6 * m - 3) in *. assert (Mm : 0 < m * (1 - m)) by (apply Rmult_lt_0_compat; lra).
        destruct (Rle_dec 0 q) as [Qp | Qp].
        -- assert (3 - 4 * m + m ^ 2 * q <= K) by (unfold K; apply Rplus_le_compat_l, Rmult_le_compat_r; auto).
           assert (0 < 3 - 4 * m + m ^ 2 * q); [| lra].
           replace (3 - 4 * m + m ^ 2 * q) with ((1 - m) ^ 2 * (3 + 2 * (m * (1 - m)))) by (unfold q; ring). apply Rmult_lt_0_compat; [apply pow_lt; auto | lra].
        -- assert (A : 0 <= (1 - S) * - q) by (apply Rmult_le_pos; lra).
           assert (K = 2 * (m * (1 - m)) + (1 - S) * - q) by (unfold K, q; ring). lra.
  - assert (E : c ^ 2 + 6 * (1 - c) * S - 4 * (2 - c) * T + 3 * S ^ 2 = (1 - 4 * T + 3 * S ^ 2) + (1 - c) * (6 * S - 4 * T - 1 - c)) by ring.
    assert (A : 0 <= (1 - c) * (6 * S - 4 * T - 1 - c)) by (apply Rmult_le_pos; lra).
    assert (B : 0 < (S - 1) * (3 * S - 1)) by (apply Rmult_lt_0_compat; lra).
    assert (B' : (S - 1) * (3 * S - 1) = 1 - 4 * S + 3 * S ^ 2) by ring. rewrite E. split; [lra |]. intro. exfalso. lra.
Qed.
Lemma sumZ_zero_terms : forall lo hi (f : Z -> R), (forall k, (lo <= k <= hi)%Z -> 0 <= f k) -> sumZ lo hi f = 0 -> forall k, (lo <= k <= hi)%Z -> f k = 0.
Proof.
  intros lo hi f P E k Hk. assert (A : forall a b, (lo <= a)%Z -> (b <= hi)%Z -> 0 <= sumZ a b f).
  { intros a b Ha Hb. pose proof (sumZ_nonpos a b (fun i => - f i)) as Q. rewrite sumZ_opp in Q. enough (- sumZ a b f <= 0) by lra. apply Q. intros i Hi. specialize (P i ltac:(lia)). lra. }
  rewrite (sumZ_split lo (k - 1) hi) in E by lia. replace (k - 1 + 1)%Z with k in E by lia. rewrite (sumZ_cons k hi) in E by lia.
  pose proof (A lo (k - 1)%Z ltac:(lia) ltac:(lia)). pose proof (A (k + 1)%Z hi ltac:(lia) ltac:(lia)). specialize (P k Hk). lra.
Qed.
Lemma one_grain : forall n (u : Z -> R), (forall k, (1 <= k <= n)%Z -> u k = 0 \/ u k = 1) -> sq_sum n u = 1 ->
  exists k, (1 <= k <= n)%Z /\ u k = 1 /\ forall q, (1 <= q <= n)%Z -> q <> k -> u q = 0.
Proof.
  intros n u H E. destruct (Z_lt_le_dec n 0) as [Neg | Pos]; [unfold sq_sum in E; rewrite sumZ_empty in E by lia; lra |].
  revert n Pos H E. apply (natlike_ind (fun n => (forall k, (1 <= k <= n)%Z -> u k = 0 \/ u k = 1) -> sq_sum n u = 1 ->
    exists k, (1 <= k <= n)%Z /\ u k = 1 /\ forall q, (1 <= q <= n)%Z -> q <> k -> u q = 0)).
  - intros _ E. unfold sq_sum in E. rewrite sumZ_empty in E by lia. lra.
  - intros n Hn IH H E. unfold Z.succ in *. unfold sq_sum in *. rewrite (sumZ_snoc 1 (n + 1)) in E by lia. replace (n + 1 - 1)%Z with n in E by lia.
    destruct (H (n + 1)%Z ltac:(lia)) as [Z | O].
    + rewrite Z in E. destruct IH as (k & Hk & K1 & K2); [intros; apply H; lia | lra |].
      exists k. split; [lia | split; auto]. intros q Hq Nq. destruct (Z.eq_dec q (n + 1)); [subst q; auto | apply K2; lia].
    + exists (n + 1)%Z. split; [lia | split; auto]. intros q Hq Nq. rewrite O in E.
      assert (Z0 : sumZ 1 n (fun k => u k ^ 2) = 0) by lra.
      pose proof (sumZ_zero_terms 1 n (fun k => u k ^ 2) ltac:(intros; apply pow2_ge_0) Z0 q ltac:(lia)) as Q. cbv beta in Q.
      replace (u q ^ 2) with (Rsqr (u q)) in Q by (unfold Rsqr; ring). apply Rsqr_0_uniq; auto.
Qed.
Lemma state_sums : forall n k u, (1 <= k <= n)%Z -> u k = 1 -> (forall q, (1 <= q <= n)%Z -> q <> k -> u q = 0) -> sq_sum n u = 1 /\ cu_sum n u = 1.
Proof.
  intros n k u Hk K1 K2. unfold sq_sum, cu_sum.
  rewrite (sumZ_ext 1 n (fun p => u p ^ 2) (fun p => if (p =? k)%Z then 1 else 0)) by (intros p Hp; destruct (Z.eqb_spec p k); [subst p; rewrite K1; ring | rewrite (K2 p) by auto; ring]).
  rewrite (sumZ_ext 1 n (fun p => u p ^ 3) (fun p => if (p =? k)%Z then 1 else 0)) by (intros p Hp; destruct (Z.eqb_spec p k); [subst p; rewrite K1; ring | rewrite (K2 p) by auto; ring]).
  pose proof (sumZ_single 1 n k (fun _ => 1)) as E. cbv beta in E. rewrite E. destruct (inb_spec 1 n k); [auto | lia].
Qed.
Lemma minima : forall A B n c phi, 0 <= A -> 0 < B -> 0 <= c <= 1 -> (forall k, (1 <= k <= n)%Z -> 0 <= phi k <= 1) ->
  0 <= sintering_energy A B n phi c /\
  (sintering_energy A B n phi c = 0 <-> void_state n c phi \/ exists k, (1 <= k <= n)%Z /\ grain_state n k c phi).
Proof.
  intros A B n c phi HA HB Hc Hp. destruct (largest n phi Hp) as (m & Hm & M2 & M3 & M0).
  destruct (bracket_nonneg c (sq_sum n phi) (cu_sum n phi) m Hc Hm M2 M3 M0) as [N Z].
  assert (PA : 0 <= A * c ^ 2 * (1 - c) ^ 2) by (apply Rmult_le_pos; [apply Rmult_le_pos; [auto | apply pow2_ge_0] | apply pow2_ge_0]).
  unfold sintering_energy. set (br := c ^ 2 + 6 * (1 - c) * sq_sum n phi - 4 * (2 - c) * cu_sum n phi + 3 * sq_sum n phi ^ 2) in *.
  assert (PB : 0 <= B * br) by (apply Rmult_le_pos; lra). split; [lra |]. split.
  - intro E. assert (Eb : B * br = 0) by lra. apply Rmult_integral in Eb. destruct Eb as [| Eb]; [lra |]. destruct (Z Eb) as (Ec & Sl & [[T0 S0] | TS]).
    + left. assert (V : forall k, (1 <= k <= n)%Z -> phi k = 0).
      { intros k Hk. pose proof (sumZ_zero_terms 1 n (fun k => phi k ^ 3)) as Q.
        assert (phi k ^ 3 = 0) by (apply Q; auto; intros q Hq; apply pow_le; apply Hp; auto).
        destruct (Req_dec (phi k) 0) as [| Ne]; auto. exfalso. apply (pow_nonzero _ 3) in Ne. auto. }
      split; auto. rewrite Ec, T0. unfold sq_sum. rewrite (sumZ_ext 1 n _ (fun _ => 0)) by (intros; rewrite V by auto; ring). rewrite sumZ_zero. ring.
    + assert (U : forall k, (1 <= k <= n)%Z -> phi k = 0 \/ phi k = 1).
      { intros k Hk. pose proof (sumZ_zero_terms 1 n (fun k => phi k ^ 2 - phi k ^ 3)) as Q.
        assert (Y : phi k ^ 2 - phi k ^ 3 = 0).
        { apply Q; auto. - intros q Hq. replace (phi q ^ 2 - phi q ^ 3) with (phi q ^ 2 * (1 - phi q)) by ring. apply Rmult_le_pos; [apply pow2_ge_0 |]. specialize (Hp q Hq). lra.
          - rewrite sumZ_minus. unfold sq_sum, cu_sum in TS. lra. }
        replace (phi k ^ 2 - phi k ^ 3) with (phi k ^ 2 * (1 - phi k)) in Y by ring. apply Rmult_integral in Y. destruct Y as [Y | Y]; [left | right; lra].
        replace (phi k ^ 2) with (Rsqr (phi k)) in Y by (unfold Rsqr; ring). apply Rsqr_0_uniq; auto. }
      (* c = S in [0,1], and the bracket is (1-S)(c-dependent) so S is 0 or 1 *)
      rewrite TS in Ec. assert (Ec' : c = sq_sum n phi) by lra.
      assert (Y : sq_sum n phi * (1 - sq_sum n phi) = 0).
      { unfold br in Eb. rewrite TS, <- Ec' in Eb. rewrite <- Ec'. assert (c ^ 2 + 6 * (1 - c) * c - 4 * (2 - c) * c + 3 * c ^ 2 = Ropp 2 * (c * (1 - c))) by ring. lra. }
      apply Rmult_integral in Y. destruct Y as [Y | Y].
      * left. split; [lra |]. intros k Hk. pose proof (sumZ_zero_terms 1 n (fun k => phi k ^ 2) ltac:(intros; apply pow2_ge_0) Y k Hk) as Q. cbv beta in Q.
        replace (phi k ^ 2) with (Rsqr (phi k)) in Q by (unfold Rsqr; ring). apply Rsqr_0_uniq; auto.
      * right. destruct (one_grain n phi U ltac:(lra)) as (k & Hk & K1 & K2). exists k. repeat split; auto; try lra; lia.
  - intros [[V0 V1] | (k & Hk & G0 & G1 & G2)].
    + unfold br, sq_sum, cu_sum. rewrite (sumZ_ext 1 n (fun p => phi p ^ 2) (fun _ => 0)), (sumZ_ext 1 n (fun p => phi p ^ 3) (fun _ => 0)) by (intros; rewrite V1 by auto; ring).
      rewrite sumZ_zero, V0. ring.
    + destruct (state_sums n k phi Hk G1 G2) as [S T]. unfold br. rewrite S, T, G0. ring.
Qed.
Lemma stationary : forall p c phi c0 phi0 fx fy w w' rhs rhs' i j k, (1 < sn p)%Z -> (1 <= k <= sn p)%Z -> skind p = FluxSimple ->
  h1 (sb p) <> 0 -> h2 (sb p) <> 0 -> in_cells (sb p) i j -> uniform_state c phi c0 phi0 ->
  void_state (sn p) c0 phi0 \/ (exists q, (1 <= q <= sn p)%Z /\ grain_state (sn p) q c0 phi0) ->
  wang_phase_rhs p c phi fx fy w rhs i j k = 0 /\ wang_conc_rhs p c phi w' rhs' i j = 0.
Proof.
  intros p c phi c0 phi0 fx fy w w' rhs rhs' i j k Hn Hk Ki H1 H2 Hij U St.
  assert (Uc : c = fun _ _ => c0) by (apply FunctionalExtensionality.functional_extensionality; intro a; apply FunctionalExtensionality.functional_extensionality; intro b; apply U).
  assert (Up : phi = fun _ _ => phi0) by (apply FunctionalExtensionality.functional_extensionality; intro a; apply FunctionalExtensionality.functional_extensionality; intro b;
    apply FunctionalExtensionality.functional_extensionality; intro q; apply U).
  subst c phi. split.
  - rewrite wang_phase_simple by auto. unfold laplace. cbv beta.
    assert (S : wang_slope (sn p) c0 phi0 k = 0); [| rewrite S; unfold Rdiv; ring]. unfold wang_slope.
    destruct St as [[V0 V1] | (q & Hq & G0 & G1 & G2)]; [rewrite V1 by auto; ring |].
    destruct (state_sums _ _ _ Hq G1 G2) as [S _]. rewrite S, G0. destruct (Z.eq_dec k q) as [-> |]; [rewrite G1 | rewrite (G2 k) by auto]; ring.
  - rewrite wang_conc_val by (auto; lia). unfold diverg, mdiff0, mdiff1, wang_mu, laplace. unfold Rdiv. ring.
Qed.

(** * Bounds *)
Lemma filled_near : forall cx cy b f i j, nonempty b -> filled cx cy b f -> in_cells b i j ->
  (exists a e, in_cells b a e /\ f (i + 1)%Z j = f a e) /\ (exists a e, in_cells b a e /\ f (i - 1)%Z j = f a e) /\
  (exists a e, in_cells b a e /\ f i (j + 1)%Z = f a e) /\ (exists a e, in_cells b a e /\ f i (j - 1)%Z = f a e).
Proof.
  intros cx cy b f i j [N0 N1] [F0 F1] [Hi Hj]. unfold in_cells, in_box.
  assert (X : filled1 cx (lo0 b) (hi0 b) (fun i => f i j)) by (apply F0; lia).
  assert (Y : filled1 cy (lo1 b) (hi1 b) (fun j => f i j)) by (apply F1; lia).
  repeat split.
  - destruct (Z.eq_dec i (hi0 b)) as [-> | Ne]; [| exists (i + 1)%Z, j; split; [lia | auto]]. destruct cx; destruct X as [_ X]; cbv beta in X; rewrite X; eexists _, j; (split; [| reflexivity]); lia.
  - destruct (Z.eq_dec i (lo0 b)) as [-> | Ne]; [| exists (i - 1)%Z, j; split; [lia | auto]]. destruct cx; destruct X as [X _]; cbv beta in X; rewrite X; eexists _, j; (split; [| reflexivity]); lia.
  - destruct (Z.eq_dec j (hi1 b)) as [-> | Ne]; [| exists i, (j + 1)%Z; split; [lia | auto]]. destruct cy; destruct Y as [_ Y]; cbv beta in Y; rewrite Y; eexists i, _; (split; [| reflexivity]); lia.
  - destruct (Z.eq_dec j (lo1 b)) as [-> | Ne]; [| exists i, (j - 1)%Z; split; [lia | auto]]. destruct cy; destruct Y as [Y _]; cbv beta in Y; rewrite Y; eexists i, _; (split; [| reflexivity]); lia.
Qed.
Lemma lap_at_min : forall cx cy b f i j, nonempty b -> h1 b <> 0 -> h2 b <> 0 -> filled cx cy b f -> in_cells b i j -> (forall k l, in_cells b k l -> f i j <= f k l) ->
  0 <= laplace (h1 b) (h2 b) f i j.
Proof.
  intros cx cy b f i j N H1 H2 F Hij M. destruct (filled_near _ _ _ _ _ _ N F Hij) as ((a1 & e1 & I1 & E1) & (a2 & e2 & I2 & E2) & (a3 & e3 & I3 & E3) & (a4 & e4 & I4 & E4)).
  apply M in I1, I2, I3, I4. unfold laplace, Rdiv. rewrite E1, E2, E3, E4.
  assert (P1 : 0 < / h1 b ^ 2) by (apply Rinv_0_lt_compat; replace (h1 b ^ 2) with (Rsqr (h1 b)) by (unfold Rsqr; ring); apply Rsqr_pos_lt; auto).
  assert (P2 : 0 < / h2 b ^ 2) by (apply Rinv_0_lt_compat; replace (h2 b ^ 2) with (Rsqr (h2 b)) by (unfold Rsqr; ring); apply Rsqr_pos_lt; auto).
  apply Rplus_le_le_0_compat; apply Rmult_le_pos; lra.
Qed.
Lemma lap_at_max : forall cx cy b f i j, nonempty b -> h1 b <> 0 -> h2 b <> 0 -> filled cx cy b f -> in_cells b i j -> (forall k l, in_cells b k l -> f k l <= f i j) ->
  laplace (h1 b) (h2 b) f i j <= 0.
Proof.
  intros cx cy b f i j N H1 H2 F Hij M. destruct (filled_near _ _ _ _ _ _ N F Hij) as ((a1 & e1 & I1 & E1) & (a2 & e2 & I2 & E2) & (a3 & e3 & I3 & E3) & (a4 & e4 & I4 & E4)).
  apply M in I1, I2, I3, I4. unfold laplace, Rdiv. rewrite E1, E2, E3, E4.
  assert (P1 : 0 < / h1 b ^ 2) by (apply Rinv_0_lt_compat; replace (h1 b ^ 2) with (Rsqr (h1 b)) by (unfold Rsqr; ring); apply Rsqr_pos_lt; auto).
  assert (P2 : 0 < / h2 b ^ 2) by (apply Rinv_0_lt_compat; replace (h2 b ^ 2) with (Rsqr (h2 b)) by (unfold Rsqr; ring); apply Rsqr_pos_lt; auto).
  assert (0 <= - (f a1 e1 - 2 * f i j + f a2 e2) * / h1 b ^ 2) by (apply Rmult_le_pos; lra).
  assert (0 <= - (f a3 e3 - 2 * f i j + f a4 e4) * / h2 b ^ 2) by (apply Rmult_le_pos; lra). lra.
Qed.
(** a field that is differentiable in time on [0,T] in each of the cells is bounded there *)
Lemma bounded_in_time : forall (f : R -> R) T, 0 <= T -> (forall t, 0 <= t <= T -> exists d, derivable_pt_lim f t d) ->
  exists C, forall t, 0 <= t <= T -> Rabs (f t) <= C.
Proof.
  intros f T HT D. assert (Ct : forall t, 0 <= t <= T -> continuity_pt f t).
  { intros t Ht. destruct (D t Ht) as [d Hd]. apply derivable_continuous_pt. exists d. exact Hd. }
  destruct (continuity_ab_maj f 0 T HT Ct) as (M & HM & _). destruct (continuity_ab_min f 0 T HT Ct) as (m & Hm & _).
  exists (Rabs (f M) + Rabs (f m)). intros t Ht. specialize (HM t Ht). specialize (Hm t Ht).
  pose proof (Rle_abs (f M)). pose proof (Rle_abs (- f m)). rewrite Rabs_Ropp in *. pose proof (Rabs_pos (f M)). pose proof (Rabs_pos (f m)).
  apply Rabs_le. lra.
Qed.
Lemma bounded_cells : forall (cs : list (Z * Z)) (f : R -> arr2) T, 0 <= T ->
  (forall t i j, 0 <= t <= T -> In (i, j) cs -> exists d, derivable_pt_lim (fun s => f s i j) t d) ->
  exists C, 0 <= C /\ forall t i j, 0 <= t <= T -> In (i, j) cs -> Rabs (f t i j) <= C.
Proof.
  intros cs f T HT. induction cs as [| [a e] cs IH]; intro D.
  - exists 0. split; [lra |]. intros t i j _ [].
  - destruct IH as (C & C0 & HC); [intros; apply D; [auto | right; auto] |].
    destruct (bounded_in_time (fun s => f s a e) T HT) as [C' HC']; [intros; apply D; [auto | left; auto] |].
    exists (Rmax C C'). pose proof (Rmax_l C C'). pose proof (Rmax_r C C'). split; [lra |]. intros t i j Ht [E | Hin].
    + injection E as <- <-. specialize (HC' t Ht). cbv beta in HC'. lra.
    + specialize (HC t i j Ht Hin). lra.
Qed.
Lemma sq_term : forall n u k, (1 <= k <= n)%Z -> u k ^ 2 <= sq_sum n u.
Proof.
  intros n u k Hk. unfold sq_sum. rewrite (sumZ_split 1 (k - 1) n) by lia. replace (k - 1 + 1)%Z with k by lia. rewrite (sumZ_cons k n) by lia.
  assert (A : forall a b, 0 <= sumZ a b (fun p => u p ^ 2)).
  { intros a b. pose proof (sumZ_nonpos a b (fun i => - u i ^ 2)) as Q. rewrite sumZ_opp in Q. enough (- sumZ a b (fun i => u i ^ 2) <= 0) by lra. apply Q. intros i Hi. pose proof (pow2_ge_0 (u i)). lra. }
  pose proof (A 1%Z (k - 1)%Z). pose proof (A (k + 1)%Z n). lra.
Qed.
Lemma stay_bounded : forall cx cy p T Mb m d0 d1 c phi, nonempty (sb p) -> h1 (sb p) <> 0 -> h2 (sb p) <> 0 -> (1 < sn p)%Z -> skind p = FluxSimple ->
  0 <= seps p -> 0 <= sB p -> 0 <= T ->
  (forall t i j, 0 <= t <= T -> in_cells (sb p) i j -> 0 <= m t i j <= Mb) ->
  (forall t k, 0 <= t <= T -> (1 <= k <= sn p)%Z -> filled cx cy (sb p) (fun i j => phi t i j k)) ->
  sinter_run p T m d0 d1 c phi ->
  forall k, (1 <= k <= sn p)%Z -> (forall i j, in_cells (sb p) i j -> 0 <= phi 0 i j k <= 1) ->
  forall t i j, 0 <= t <= T -> in_cells (sb p) i j -> 0 <= phi t i j k <= 1.
Proof.
  intros cx cy p T Mb m d0 d1 c phi N H1 H2 Hn Ki He HB HT Hm Hf (ws & w & cold & fx & fy & pold & Fc & Fp) k Hk P0 t i j Ht Hij.
  set (b := sb p) in *.
  destruct (bounded_cells (cell_list b) c T HT) as (C & C0 & HC).
  { intros s a e Hs Hin. apply in_cell_list in Hin. eexists. apply (Fc s a e Hs Hin). }
  assert (HC' : forall s a e, 0 <= s <= T -> in_cells b a e -> - C <= c s a e <= C).
  { intros s a e Hs Hin. apply in_cell_list in Hin. specialize (HC s a e Hs Hin). unfold Rabs in HC. destruct (Rcase_abs (c s a e)); lra. }
  assert (Mp : 0 <= Mb) by (specialize (Hm 0 i j ltac:(lra) Hij); lra).
  set (kp := seps p ^ 3 / 2). assert (Kp : 0 <= kp) by (unfold kp; apply Rmult_le_pos; [apply pow_le; auto | lra]).
  set (L := fun s i j => laplace (h1 b) (h2 b) (fun a e => phi s a e k) i j).
  set (F := fun s i j => m s i j * (kp * L s i j - 12 * sB p * wang_slope (sn p) (c s i j) (phi s i j) k)).
  assert (D : forall s i j, 0 <= s <= T -> in_cells b i j -> derivable_pt_lim (fun s => phi s i j k) s (F s i j)).
  { intros s a e Hs Hae. pose proof (Fp k Hk s a e Hs Hae) as D'. cbv beta in D'. rewrite wang_phase_simple in D' by (cbn [at_time sn sb skind]; auto; lia). exact D'. }
  set (K := 12 * sB p * Mb * (3 + 2 * C)). assert (KK : 0 <= K) by (unfold K; apply Rmult_le_pos; [apply Rmult_le_pos; lra | lra]).
  assert (Q0 : forall x, 0 <= 12 * sB p * x <-> 0 <= 12 * sB p * x) by tauto. clear Q0.
  split.
  - apply (stays_nonneg (cell_list b) (fun s i j => phi s i j k) F T K 1); auto; try lra.
    + intros s a e Hs Hae. apply in_cell_list in Hae. auto.
    + intros s a e Hs Hae Hu Hmin. apply in_cell_list in Hae.
      assert (Lp : 0 <= L s a e). { apply (lap_at_min cx cy b (fun a e => phi s a e k)); auto. intros u v Huv. apply Hmin, in_cell_list; auto. }
      specialize (Hm s a e Hs Hae). specialize (HC' s a e Hs Hae). unfold F, wang_slope.
      set (x := phi s a e k) in *. set (y := c s a e) in *. set (S := sq_sum (sn p) (phi s a e)). assert (Sp : 0 <= S) by (pose proof (sq_term (sn p) (phi s a e) k Hk); pose proof (pow2_ge_0 (phi s a e k)); unfold S; lra).
      (* q >= - (3 + 2C) *)
      assert (Qb : - (3 + 2 * C) <= (1 - y) - (2 - y) * x + S).
      { assert (- (2 + C) <= - (2 - y) * x); [| lra]. assert (A1 : 0 <= (2 + C - (2 - y)) * - x) by (apply Rmult_le_pos; lra).
        assert (A2 : 0 <= (2 + C) * (1 + x)) by (apply Rmult_le_pos; lra).
        assert (A3 : 0 <= (2 - y + (2 + C)) * - x) by (apply Rmult_le_pos; [| lra]; lra). lra. }
      set (q := (1 - y) - (2 - y) * x + S) in *.
      replace (m s a e * (kp * L s a e - 12 * sB p * ((1 - y) * x - (2 - y) * x * x + S * x))) with (m s a e * (kp * L s a e) + 12 * sB p * (m s a e * (q * - x))) by (unfold q; ring).
      assert (T1 : 0 <= m s a e * (kp * L s a e)) by (apply Rmult_le_pos; [lra | apply Rmult_le_pos; auto]).
      assert (T2 : 12 * sB p * (Mb * ((3 + 2 * C) * x)) <= 12 * sB p * (m s a e * (q * - x))).
      { apply Rmult_le_compat_l; [lra |]. assert (B1 : 0 <= (q + (3 + 2 * C)) * - x) by (apply Rmult_le_pos; lra).
        assert (B2 : 0 <= m s a e * ((q + (3 + 2 * C)) * - x)) by (apply Rmult_le_pos; lra).
        assert (B3 : 0 <= (Mb - m s a e) * ((3 + 2 * C) * - x)) by (apply Rmult_le_pos; [lra | apply Rmult_le_pos; lra]). lra. }
      unfold K. lra.
    + intros a e Hae. apply in_cell_list in Hae. apply P0; auto.
    + apply in_cell_list; auto.
  - enough (0 <= 1 - phi t i j k) by lra.
    apply (stays_nonneg (cell_list b) (fun s i j => 1 - phi s i j k) (fun s i j => - F s i j) T K 1); auto; try lra.
    + intros s a e Hs Hae. apply in_cell_list in Hae. replace (- F s a e) with (0 - F s a e) by ring.
      apply (derivable_pt_lim_minus (fun _ => 1) (fun s => phi s a e k)); [apply derivable_pt_lim_const | auto].
    + intros s a e Hs Hae Hu Hmin. apply in_cell_list in Hae.
      assert (Lp : L s a e <= 0). { apply (lap_at_max cx cy b (fun a e => phi s a e k)); auto. intros u v Huv. apply in_cell_list in Huv. specialize (Hmin u v Huv). lra. }
      specialize (Hm s a e Hs Hae). specialize (HC' s a e Hs Hae). unfold F, wang_slope. pose proof (sq_term (sn p) (phi s a e) k Hk) as Sp.
      set (x := phi s a e k) in *. set (y := c s a e) in *. set (S := sq_sum (sn p) (phi s a e)) in *.
      assert (Qb : - (C * (x - 1)) <= (1 - y) - (2 - y) * x + S).
      { assert (0 <= (x - 1) * (x - 1 + y + C)) by (apply Rmult_le_pos; lra).
        assert ((x - 1) * (x - 1 + y + C) = (1 - y) - (2 - y) * x + x ^ 2 + C * (x - 1)) by ring. lra. }
      set (q := (1 - y) - (2 - y) * x + S) in *.
      replace (- (m s a e * (kp * L s a e - 12 * sB p * ((1 - y) * x - (2 - y) * x * x + S * x)))) with (m s a e * (kp * - L s a e) + 12 * sB p * (m s a e * (q * x))) by (unfold q; ring).
      assert (T1 : 0 <= m s a e * (kp * - L s a e)) by (apply Rmult_le_pos; [lra | apply Rmult_le_pos; lra]).
      assert (T2 : 12 * sB p * (Mb * ((3 + 2 * C) * (1 - x))) <= 12 * sB p * (m s a e * (q * x))).
      { apply Rmult_le_compat_l; [lra |]. assert (B1 : 0 <= (q + C * (x - 1)) * x) by (apply Rmult_le_pos; lra).
        assert (B2 : 0 <= m s a e * ((q + C * (x - 1)) * x)) by (apply Rmult_le_pos; lra).
        assert (B3 : 0 <= (Mb - m s a e) * ((3 + 2 * C) * (x - 1))) by (apply Rmult_le_pos; [lra | apply Rmult_le_pos; lra]).
        assert (B4 : 0 <= m s a e * ((x - 1) * (3 + 2 * C - C * x))).
        { apply Rmult_le_pos; [lra |]. apply Rmult_le_pos; [lra |]. assert (0 <= C * (2 - x)) by (apply Rmult_le_pos; lra). lra. }
        lra. }
      unfold K. lra.
    + intros a e Hae. apply in_cell_list in Hae. specialize (P0 a e Hae). lra.
    + apply in_cell_list; auto.
Qed.

(** * Rigid motion *)
Lemma rb_phase_gen : forall b m v phi rhs i j k, (0 <= m)%Z ->
  do_loop 1 m (fun p r => fun i j q =>
    if (q =? p)%Z then addrbmotion (lo0 b) (hi0 b) (lo1 b) (hi1 b) (h1 b) (h2 b) (fun k l => phi k l p) (v p 0%Z) (v p 1%Z) (fun k l => r k l p) i j
    else r i j q) rhs i j k =
  if ((1 <=? k) && (k <=? m))%Z then addrbmotion (lo0 b) (hi0 b) (lo1 b) (hi1 b) (h1 b) (h2 b) (fun a l => phi a l k) (v k 0%Z) (v k 1%Z) (fun a l => rhs a l k) i j
  else rhs i j k.
Proof.
  intros b m v phi rhs i j k Hm. revert i j k. revert m Hm.
  apply (natlike_ind (fun m => forall i j k, do_loop 1 m (fun p r => fun i j q =>
    if (q =? p)%Z then addrbmotion (lo0 b) (hi0 b) (lo1 b) (hi1 b) (h1 b) (h2 b) (fun k l => phi k l p) (v p 0%Z) (v p 1%Z) (fun k l => r k l p) i j
    else r i j q) rhs i j k = if ((1 <=? k) && (k <=? m))%Z then addrbmotion (lo0 b) (hi0 b) (lo1 b) (hi1 b) (h1 b) (h2 b) (fun a l => phi a l k) (v k 0%Z) (v k 1%Z) (fun a l => rhs a l k) i j
  else rhs i j k)).
  - intros i j k. rewrite do_loop_empty by lia. destruct (Z.leb_spec 1 k), (Z.leb_spec k 0); try lia; reflexivity.
  - intros m Hm IH i j k. unfold Z.succ. rewrite do_loop_snoc by lia. replace (m + 1 - 1)%Z with m by lia.
    destruct (Z.eqb_spec k (m + 1)) as [-> | Ne].
    + rewrite (proj2 (Z.leb_le 1 (m + 1))), Z.leb_refl by lia. cbn [andb]. f_equal.
      apply FunctionalExtensionality.functional_extensionality; intro a. apply FunctionalExtensionality.functional_extensionality; intro e. rewrite IH.
      destruct (Z.leb_spec (m + 1) m); [lia |]. rewrite Bool.andb_false_r. reflexivity.
    + rewrite IH. destruct (Z.leb_spec 1 k), (Z.leb_spec k m), (Z.leb_spec k (m + 1)); try lia; reflexivity.
Qed.
Lemma rb_phase_value : forall b n v phi rhs i j k, (1 <= n)%Z -> in_cells b i j ->
  rb_phase b n v phi rhs i j k = rhs i j k - (if ((1 <=? k) && (k <=? n - 1))%Z then v k 0%Z * cgrad b (fun a e => phi a e k) 0 i j + v k 1%Z * cgrad b (fun a e => phi a e k) 1 i j else 0).
Proof.
  intros b n v phi rhs i j k Hn Hij. unfold rb_phase. rewrite rb_phase_gen by lia.
  destruct ((1 <=? k) && (k <=? n - 1))%Z; [| ring].
  rewrite (proj1 (rb_value _ _ _ _ _ _ _ _ _ _ i j) Hij). unfold grad2, cgrad. change ((0 =? 0)%Z) with true. change ((1 =? 0)%Z) with false. cbv iota. ring.
Qed.
Lemma rb_conc_gen : forall b m v phi rhs i j, (0 <= m)%Z -> in_cells b i j ->
  do_loop 1 m (fun p r => addrbmotion (lo0 b) (hi0 b) (lo1 b) (hi1 b) (h1 b) (h2 b) (fun k l => phi k l p) (v p 0%Z) (v p 1%Z) r) rhs i j =
  rhs i j - sumZ 1 m (fun k => v k 0%Z * cgrad b (fun a e => phi a e k) 0 i j + v k 1%Z * cgrad b (fun a e => phi a e k) 1 i j).
Proof.
  intros b m v phi rhs i j Hm Hij. revert m Hm.
  apply (natlike_ind (fun m => do_loop 1 m (fun p r => addrbmotion (lo0 b) (hi0 b) (lo1 b) (hi1 b) (h1 b) (h2 b) (fun k l => phi k l p) (v p 0%Z) (v p 1%Z) r) rhs i j =
  rhs i j - sumZ 1 m (fun k => v k 0%Z * cgrad b (fun a e => phi a e k) 0 i j + v k 1%Z * cgrad b (fun a e => phi a e k) 1 i j))).
  - rewrite do_loop_empty, sumZ_empty by lia. ring.
  - intros m Hm IH. unfold Z.succ. rewrite do_loop_snoc, sumZ_snoc by lia. replace (m + 1 - 1)%Z with m by lia.
    rewrite (proj1 (rb_value _ _ _ _ _ _ _ _ _ _ i j) Hij), IH. unfold grad2, cgrad. change ((0 =? 0)%Z) with true. change ((1 =? 0)%Z) with false. cbv iota. ring.
Qed.
Lemma rb_conc_value : forall b n v phi rhs i j, (1 <= n)%Z -> in_cells b i j ->
  rb_conc b n v phi rhs i j = rhs i j - sumZ 1 (n - 1) (fun k => v k 0%Z * cgrad b (fun a e => phi a e k) 0 i j + v k 1%Z * cgrad b (fun a e => phi a e k) 1 i j).
Proof. intros. unfold rb_conc. apply rb_conc_gen; [lia | auto]. Qed.
Lemma rb_sums_gen : forall b m v phi rhs, (0 <= m)%Z -> nonempty b -> (forall k, (1 <= k <= m)%Z -> extended Periodic Periodic b (fun i j => phi i j k)) ->
  sum_cells b (do_loop 1 m (fun p r => addrbmotion (lo0 b) (hi0 b) (lo1 b) (hi1 b) (h1 b) (h2 b) (fun k l => phi k l p) (v p 0%Z) (v p 1%Z) r) rhs) = sum_cells b rhs.
Proof.
  intros b m v phi rhs Hm [N0 N1]. revert m Hm.
  apply (natlike_ind (fun m => (forall k, (1 <= k <= m)%Z -> extended Periodic Periodic b (fun i j => phi i j k)) ->
    sum_cells b (do_loop 1 m (fun p r => addrbmotion (lo0 b) (hi0 b) (lo1 b) (hi1 b) (h1 b) (h2 b) (fun k l => phi k l p) (v p 0%Z) (v p 1%Z) r) rhs) = sum_cells b rhs)).
  - intros _. rewrite do_loop_empty by lia. reflexivity.
  - intros m Hm IH E. unfold Z.succ in *. rewrite do_loop_snoc by lia. replace (m + 1 - 1)%Z with m by lia. destruct (E (m + 1)%Z ltac:(lia)) as [E0 E1].
    unfold sum_cells. rewrite (rb_volume (lo0 b) (hi0 b) (lo1 b) (hi1 b) (h1 b) (h2 b) (fun k l => phi k l (m + 1)%Z) (v (m + 1)%Z 0%Z) (v (m + 1)%Z 1%Z) _ N0 N1 (fun i j => E0 j i) E1). apply IH. intros; apply E; lia.
Qed.
Lemma rb_mass : forall b n v phi rhs, (1 <= n)%Z -> nonempty b -> (forall k, (1 <= k < n)%Z -> extended Periodic Periodic b (fun i j => phi i j k)) ->
  sum_cells b (rb_conc b n v phi rhs) = sum_cells b rhs /\
  forall k, (1 <= k <= n)%Z -> sum_cells b (fun i j => rb_phase b n v phi (fun i j q => rhs i j) i j k) = sum_cells b rhs.
Proof.
  intros b n v phi rhs Hn N E. split.
  - apply rb_sums_gen; auto; [lia |]. intros; apply E; lia.
  - intros k Hk. unfold rb_phase.
    rewrite (sum_cells_ext b _ (fun i j => if ((1 <=? k) && (k <=? n - 1))%Z then addrbmotion (lo0 b) (hi0 b) (lo1 b) (hi1 b) (h1 b) (h2 b) (fun a l => phi a l k) (v k 0%Z) (v k 1%Z) rhs i j else rhs i j)).
    2: { intros i j _. apply (rb_phase_gen b (n - 1) v phi (fun i j _ => rhs i j) i j k). lia. }
    destruct (Z.leb_spec 1 k), (Z.leb_spec k (n - 1)); cbn [andb]; try reflexivity.
    destruct N as [N0 N1]. destruct (E k ltac:(lia)) as [E0 E1]. unfold sum_cells. apply rb_volume; [exact N0 | exact N1 | intros; apply E0 | intros; apply E1].
Qed.
(** forces *)
Lemma rb_force_val : forall n nop ext pair i d, (i <= n - 1)%Z ->
  rb_force n nop ext pair i d = ext d + sumZ 1 nop (fun j => if (j =? i)%Z then 0 else pair i j d).
Proof.
  intros n nop ext pair i d Hi. unfold rb_force. rewrite (proj2 (Z.leb_le _ _) Hi).
  rewrite (do_loop_ext _ 1 nop _ (fun j s => s + (if (j =? i)%Z then 0 else pair i j d))); [apply loop_sum |].
  intros j s _. destruct (j =? i)%Z; ring.
Qed.
Lemma anti_total : forall m (f : Z -> Z -> R), (forall i j, (1 <= i <= m)%Z -> (1 <= j <= m)%Z -> f i j = - f j i) -> sumZ 1 m (fun i => sumZ 1 m (fun j => f i j)) = 0.
Proof.
  intros m f H. assert (E : sumZ 1 m (fun i => sumZ 1 m (fun j => f i j)) = - sumZ 1 m (fun i => sumZ 1 m (fun j => f i j))); [| lra].
  rewrite sumZ_swap at 1. rewrite <- sumZ_opp. apply sumZ_ext. intros i Hi. rewrite <- sumZ_opp. apply sumZ_ext. intros j Hj. apply H; auto.
Qed.
Lemma rb_balance : forall n ext pair mob b weight phi d, (1 <= n)%Z ->
  (forall i j, (1 <= i <= n - 1)%Z -> (1 <= j <= n - 1)%Z -> pair i j d = - pair j i d) ->
  (forall i, (1 <= i <= n - 1)%Z -> grain_volume b weight phi i <> 0) ->
  sumZ 1 (n - 1) (fun i => grain_volume b weight phi i * rb_velocity n (n - 1) mob b weight phi ext pair i d) = mob * (IZR (n - 1) * ext d).
Proof.
  intros n ext pair mob b weight phi d Hn A V.
  rewrite (sumZ_ext 1 (n - 1) _ (fun i => mob * (ext d + sumZ 1 (n - 1) (fun j => if (j =? i)%Z then 0 else pair i j d)))).
  - rewrite sumZ_scal, sumZ_plus, sumZ_const by lia. rewrite (anti_total (n - 1) (fun i j => if (j =? i)%Z then 0 else pair i j d)).
    + replace (n - 1 - 1 + 1)%Z with (n - 1)%Z by lia. ring.
    + intros i j Hi Hj. rewrite (Z.eqb_sym i j). destruct (j =? i)%Z; [ring | apply A; auto].
  - intros i Hi. unfold rb_velocity. rewrite rb_force_val by lia. field. apply V; auto.
Qed.

Lemma norder_default : forall n, (2 <= n)%Z -> let '(na, nb) := read_norder n None in (na + nb)%Z = (n - 1)%Z.
Proof.
  intros n Hn. unfold read_norder. destruct (Z.eqb_spec n 1); [lia |]. destruct (Z.ltb_spec 0 (n - 1)); [| lia].
  destruct (Z.ltb_spec (n - (n - 1) - 1) 0); lia.
Qed.
Lemma volume_val : forall b weight phi i, grain_volume b weight phi i = sum_cells b (fun k l => phi k l i * weight k l).
Proof.
  intros b weight phi i. unfold grain_volume, sum_cells, sum_box.
  rewrite (do_loop_ext _ (lo1 b) (hi1 b) _ (fun l s => s + sumZ (lo0 b) (hi0 b) (fun k => phi k l i * weight k l))) by (intros l s _; apply loop_sum).
  rewrite loop_sum. ring.
Qed.
Lemma velocity_val : forall n nop mob b weight phi ext pair i d, (1 <= i < n)%Z ->
  rb_velocity n nop mob b weight phi ext pair i d =
  mob / sum_cells b (fun k l => phi k l i * weight k l) * (ext d + sumZ 1 nop (fun j => if (j =? i)%Z then 0 else pair i j d)).
Proof. intros. unfold rb_velocity. rewrite rb_force_val, volume_val by lia. ring. Qed.
Lemma default_momentum : forall n ext pair mob b weight phi d, (2 <= n)%Z ->
  (forall i j, (1 <= i < n)%Z -> (1 <= j < n)%Z -> pair i j d = - pair j i d) ->
  (forall i, (1 <= i < n)%Z -> sum_cells b (fun k l => phi k l i * weight k l) <> 0) ->
  let '(na, nb) := read_norder n None in
  sumZ 1 (n - 1) (fun i => sum_cells b (fun k l => phi k l i * weight k l) * rb_velocity n (na + nb) mob b weight phi ext pair i d) = mob * (IZR (n - 1) * ext d).
Proof.
  intros n ext pair mob b weight phi d Hn A V. pose proof (norder_default n Hn) as Q. destruct (read_norder n None) as [na nb]. rewrite Q.
  rewrite <- (rb_balance n ext pair mob b weight phi d) by (try lia; intros; try (rewrite volume_val; apply V; lia); apply A; lia).
  apply sumZ_ext. intros i _. rewrite volume_val. reflexivity.
Qed.
(** two dense grains that overlap in one cell *)
Definition touching : patch2 :=
  Patch2 0 0 0 0 1 1 (fun i _ p => if (p =? 1)%Z then (1 - IZR i) / 2 else (1 + IZR i) / 2) (fun _ _ _ => 1) (fun _ _ => 1).
Definition touching_pair (i j d : Z) : R := pair_force (wang_forces2 2 1 (1 / 2) (1 / 4)) 2 2 8 (cons (cons touching nil) nil) (i - 1) (j - 1) d.
Lemma touching_forces : touching_pair 1 2 0 = Ropp 2 /\ touching_pair 2 1 0 = 2.
Proof.
  unfold touching_pair, touching. rewrite !wang2_pair_value by lia. change ((1 - 1 =? 2 - 1)%Z) with false. change ((2 - 1 =? 1 - 1)%Z) with false. cbv iota.
  cbn [sum_over fold_right]. unfold wang_pair2, sum_box, grad2. cbn [plo0 pup0 plo1 pup1 pdx0 pdx1 pphi pconc pweight].
  assert (S : smooth_step (1 / 2) = 1 / 2) by (unfold smooth_step; destruct (Rle_dec (1 / 2) 0); [lra |]; destruct (Rle_dec 1 (1 / 2)); lra).
  assert (M : Rmin (1 + 0) 1 = 1) by (rewrite Rmin_right; lra).
  split; rewrite !sumZ_cons, !sumZ_empty by lia; change ((0 =? 0)%Z) with true; change ((1 - 1 + 1 =? 1)%Z) with true; change ((2 - 1 + 1 =? 1)%Z) with false; cbv iota;
    rewrite M, ?plus_IZR, ?minus_IZR;
    match goal with |- context [smooth_step ?x] => replace x with (1 / 2) by lra end; rewrite S; lra.
Qed.
Lemma last_grain : 
  (forall b n v phi rhs i j, (1 <= n)%Z -> in_cells b i j -> rb_phase b n v phi rhs i j n = rhs i j n) /\
  (let '(na, nb) := read_norder 2 (Some 2%Z) in let F := rb_force 2 (na + nb) (fun _ => 0) touching_pair in
   touching_pair 1 2 0 = - touching_pair 2 1 0 /\ F 1%Z 0%Z = Ropp 2 /\ F 2%Z 0%Z = 0).
Proof.
  split.
  - intros b n v phi rhs i j Hn Hij. rewrite rb_phase_value by auto. destruct (Z.leb_spec n (n - 1)); [lia |]. rewrite andb_false_r. ring.
  - cbn [read_norder Z.ltb Z.compare Z.sub Z.opp Z.pos_sub Z.add Pos.pred_double]. destruct touching_forces as [A B]. 
    split; [rewrite A, B; ring |]. split.
    + rewrite rb_force_val by lia. rewrite !sumZ_cons, sumZ_empty by (cbn; lia). cbn [Z.eqb Z.add Pos.eqb Pos.add]. change ((1 =? 1)%Z) with true. cbv iota. change (1 + 1)%Z with 2%Z. rewrite A. ring.
    + unfold rb_force. reflexivity.
Qed.
