(** C35: refinement tags. *)
From Coq Require Import Reals ZArith List Bool Lra Lia.
From Verif Require Import Grid_Model Grid_Spec Grid_Proofs Tagging_Model Tagging_Spec Tagging_Proofs.
Open Scope R_scope.

(** C35, 2D: a cell is tagged iff the change across it of a monitored field reaches its threshold, whatever the mesh spacing. Of several order parameters only the first is meant here, see below. *)
Theorem C35_tags_2d_partial : forall m lo0 hi0 lo1 hi1 h f i j, fst h <> 0 -> snd h <> 0 -> in_box lo0 hi0 lo1 hi1 i j ->
  (detector2 m lo0 hi0 lo1 hi1 h f i j = 1%Z \/ detector2 m lo0 hi0 lo1 hi1 h f i j = 0%Z) /\
  (detector2 m lo0 hi0 lo1 hi1 h f i j = 1%Z <-> steep2 m f i j).
Proof. exact tags2. Qed.
Print Assumptions C35_tags_2d_partial.

(** C35: nothing outside the patch is tagged. *)
Theorem C35_only_patch : forall m lo0 hi0 lo1 hi1 h f i j, ~ in_box lo0 hi0 lo1 hi1 i j -> detector2 m lo0 hi0 lo1 hi1 h f i j = 0%Z.
Proof. exact tags_outside2. Qed.
Print Assumptions C35_only_patch.

(** C35, 3D. *)
Theorem C35_tags_3d_partial : forall m lo0 hi0 lo1 hi1 lo2 hi2 h1 h2 h3 f i j k, h1 <> 0 -> h2 <> 0 -> h3 <> 0 -> in_box3 lo0 hi0 lo1 hi1 lo2 hi2 i j k ->
  let tag := detector3 m lo0 hi0 lo1 hi1 lo2 hi2 (h1, h2, h3) f i j k in
  (tag = 1%Z \/ tag = 0%Z) /\ (tag = 1%Z <-> steep3 m f i j k).
Proof. exact tags3. Qed.
Print Assumptions C35_tags_3d_partial.

(** C35: monitoring more fields never removes a tag. *)
Theorem C35_monotone_2d : forall m m' lo0 hi0 lo1 hi1 h f i j, fst h <> 0 -> snd h <> 0 -> in_box lo0 hi0 lo1 hi1 i j -> extends m m' ->
  detector2 m lo0 hi0 lo1 hi1 h f i j = 1%Z -> detector2 m' lo0 hi0 lo1 hi1 h f i j = 1%Z.
Proof. exact tags_monotone2. Qed.
Print Assumptions C35_monotone_2d.

(** C35, 3D. *)
Theorem C35_monotone_3d : forall m m' lo0 hi0 lo1 hi1 lo2 hi2 h1 h2 h3 f i j k, h1 <> 0 -> h2 <> 0 -> h3 <> 0 -> in_box3 lo0 hi0 lo1 hi1 lo2 hi2 i j k -> extends m m' ->
  detector3 m lo0 hi0 lo1 hi1 lo2 hi2 (h1, h2, h3) f i j k = 1%Z -> detector3 m' lo0 hi0 lo1 hi1 lo2 hi2 (h1, h2, h3) f i j k = 1%Z.
Proof. exact tags_monotone3. Qed.
Print Assumptions C35_monotone_3d.

(** C35: a cell where another order parameter than the first is steep is missed. *)
Theorem C35_other_order_parameters_refuted : exists thr, 0 < thr /\ thr <= sqrt (change2_sq (f2_phase two_orders 1%Z) 5 5) /\
  detector2 (mk_monitors (Some thr) None None) 0 9 0 9 (1, 1) two_orders 5%Z 5%Z = 0%Z.
Proof. exact second_order_missed. Qed.
Print Assumptions C35_other_order_parameters_refuted.

Example C35_ex : (* at the step, and away from it *)
  let f := mk_fields2 (fun _ => step_field) zero2 (fun _ => zero2) 0 in
  let tags := detector2 (mk_monitors (Some (1 / 4)) None None) 0 9 0 9 (1 / 10, 1 / 20) f in tags 5%Z 3%Z = 1%Z /\ tags 7%Z 3%Z = 0%Z.
Proof.
  cbv zeta.
  set (f := mk_fields2 (fun _ => step_field) zero2 (fun _ => zero2) 0).
  destruct (tags2 (mk_monitors (Some (1 / 4)) None None) 0 9 0 9 (1 / 10, 1 / 20) f 5 3) as [_ A]; [cbn; lra | cbn; lra | split; lia |].
  destruct (tags2 (mk_monitors (Some (1 / 4)) None None) 0 9 0 9 (1 / 10, 1 / 20) f 7 3) as [B B']; [cbn; lra | cbn; lra | split; lia |].
  split.
  - apply A. left. exists (1 / 4). split; [reflexivity |]. rewrite Rabs_right by lra.
    unfold change2_sq, step_field; cbn. replace (_ + _) with ((1 / 2) * (1 / 2)) by field. rewrite sqrt_square; lra.
  - destruct B as [B | B]; [exfalso | exact B]. apply B' in B. destruct B as [(t & E & H) | [(t & E & H) | (t & E & H)]]; [| discriminate | discriminate].
    cbn in E. injection E as <-. revert H. unfold change2_sq, step_field; cbn. replace (_ + _) with 0 by field. rewrite sqrt_0, Rabs_right; lra.
Qed.
