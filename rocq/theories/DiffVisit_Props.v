(** C210: plotted diffusion coefficients. *)
From Coq Require Import Reals ZArith List Bool Lra Lia.
From Verif Require Import Grid_Model Grid_Spec DiffVisit_Model DiffVisit_Spec DiffVisit_Proofs.
Import ListNotations.
Open Scope R_scope.

(** C210: in two dimensions, exactly the coefficients of the chosen strategy are plotted; every cell of every patch shows the mean over its sides; all else stays. *)
Theorem C210_plot_2d : forall extra ebs alloc (h : list (patch ibox2 arr2)), allocated ebs alloc -> exists out,
  setDiffusionVisit side2cell2 extra ebs alloc h = Some out /\ length out = length h /\
  forall n p, nth_error h n = Some p -> exists p', nth_error out n = Some p' /\ pbox p' = pbox p /\ diff p' = diff p /\
    forall c i j, (shown extra ebs (alloc CB) c = true -> inside2 (pbox p) i j -> visit p' c i j = average (sides2 (diff p c 0%Z) i j)) /\
                  (shown extra ebs (alloc CB) c = false \/ ~ inside2 (pbox p) i j -> visit p' c i j = visit p c i j).
Proof. exact plot2. Qed.
Print Assumptions C210_plot_2d.

(** C210: in three dimensions. *)
Theorem C210_plot_3d : forall extra ebs alloc (h : list (patch ibox3 arr3)), allocated ebs alloc -> exists out,
  setDiffusionVisit side2cell3 extra ebs alloc h = Some out /\ length out = length h /\
  forall n p, nth_error h n = Some p -> exists p', nth_error out n = Some p' /\ pbox p' = pbox p /\ diff p' = diff p /\
    forall c i j k, (shown extra ebs (alloc CB) c = true -> inside3 (pbox p) i j k -> visit p' c i j k = average (sides3 (diff p c 0%Z) i j k)) /\
                  (shown extra ebs (alloc CB) c = false \/ ~ inside3 (pbox p) i j k -> visit p' c i j k = visit p c i j k).
Proof. exact plot3. Qed.
Print Assumptions C210_plot_3d.

(** C210: the plotted value lies between the values on the sides of the cell. *)
Theorem C210_bounds_2d : forall b s c i j lo hi, inside2 b i j -> (forall v, In v (sides2 s i j) -> lo <= v <= hi) -> lo <= side2cell2 b s c i j <= hi.
Proof. exact bounds2_l. Qed.
Print Assumptions C210_bounds_2d.

(** C210: in three dimensions. *)
Theorem C210_bounds_3d : forall b s c i j k lo hi, inside3 b i j k -> (forall v, In v (sides3 s i j k) -> lo <= v <= hi) -> lo <= side2cell3 b s c i j k <= hi.
Proof. exact bounds3_l. Qed.
Print Assumptions C210_bounds_3d.

(** C210: a coefficient that is affine in the position is plotted exactly. *)
Theorem C210_affine_2d : forall b s v i j a0 a1 a2, inside2 b i j -> samples2 a0 a1 a2 s ->
  side2cell2 b s v i j = affine a0 a1 a2 0 (IZR i + 1 / 2) (IZR j + 1 / 2) 0.
Proof. exact affine2_l. Qed.
Print Assumptions C210_affine_2d.

(** C210: in three dimensions. *)
Theorem C210_affine_3d : forall b s v i j k a0 a1 a2 a3, inside3 b i j k -> samples3 a0 a1 a2 a3 s ->
  side2cell3 b s v i j k = affine a0 a1 a2 a3 (IZR i + 1 / 2) (IZR j + 1 / 2) (IZR k + 1 / 2).
Proof. exact affine3_l. Qed.
Print Assumptions C210_affine_3d.

(** one cell with coefficients 1 and 3 on the x sides and 5 and 7 on the y sides *)
Example C210_ex : exists out p', setDiffusionVisit side2cell2 true true (fun _ => true)
    [mk_patch (mk_ibox2 0 0 0 0) (fun _ _ d i j => if (d =? 0)%Z then 1 + 2 * IZR i else 5 + 2 * IZR j) (fun _ _ _ => -1)] = Some out /\
  nth_error out 0 = Some p' /\ visit p' CA 0%Z 0%Z = 4 /\ visit p' CA 1%Z 0%Z = -1 /\ visit p' CD 0%Z 0%Z = -1.
Proof.
  destruct (C210_plot_2d true true (fun _ => true)
    [mk_patch (mk_ibox2 0 0 0 0) (fun _ _ d i j => if (d =? 0)%Z then 1 + 2 * IZR i else 5 + 2 * IZR j) (fun _ _ _ => -1)] (conj eq_refl eq_refl)) as [out [E [_ V]]].
  destruct (V 0%nat _ eq_refl) as [p' [N [_ [_ W]]]]. exists out, p'. split; [exact E |]. split; [exact N |]. split; [| split].
  - rewrite (proj1 (W CA 0%Z 0%Z) eq_refl) by (split; cbn; lia). unfold average, sides2. cbn. field.
  - rewrite (proj2 (W CA 1%Z 0%Z)); [reflexivity |]. right. intros [A _]. cbn in A. lia.
  - rewrite (proj2 (W CD 0%Z 0%Z)); [reflexivity |]. left. reflexivity.
Qed.
(** an affine coefficient in three dimensions *)
Example C210_ex_affine : side2cell3 (mk_ibox3 0 3 0 3 0 3)
    (fun d i j k => 1 + 2 * (IZR k + if (d =? 2)%Z then 0 else 1 / 2)) (fun _ _ _ => 0) 2%Z 1%Z 3%Z = 8.
Proof.
  rewrite (C210_affine_3d _ _ _ _ _ _ 1 0 0 2).
  - unfold affine. lra.
  - repeat split; cbn; lia.
  - intros i j k. unfold affine. cbn. repeat split; lra.
Qed.
