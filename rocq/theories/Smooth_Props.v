(** C119-C120: smoothing of orientations after grains have been extended. *)
From Coq Require Import Reals ZArith Bool Lra Lia.
From Verif Require Import Grid_Model Grid_Spec Grid_Proofs Quat_Model Quat_Spec QuatFlow_Model QuatFlow_Spec Smooth_Model Smooth_Spec Smooth_Proofs.
Open Scope R_scope.

(** C119: in 2D a cell below the threshold gets half its own orientation plus an eighth of that of each neighbour; all other cells keep theirs. *)
Theorem C119_average : forall p t phase q old, exists out, smoothQuat None p t phase q old = Some out /\
  (forall i j m, ~ (in_patch p i j /\ phase i j < t /\ (1 <= m <= depth p)%Z) -> out i j m = q i j m) /\
  (forall i j m, in_patch p i j -> phase i j < t -> (1 <= m <= depth p)%Z ->
     out i j m = 1 / 2 * q i j m + 1 / 8 * (q (i - 1)%Z j m + q (i + 1)%Z j m + q i (j - 1)%Z m + q i (j + 1)%Z m)).
Proof. exact smooth_plain. Qed.
Print Assumptions C119_average.

(** C119: no component leaves the range it had before, whatever the phase. *)
Theorem C119_range : forall p t phase q old out, smoothQuat None p t phase q old = Some out ->
  forall i j m a b, (forall i' j', in_ghosts p i' j' -> a <= q i' j' m <= b) -> in_patch p i j -> a <= out i j m <= b.
Proof. exact smooth_range. Qed.
Print Assumptions C119_range.

(** C119: no orientation gets longer than the longest one was. *)
Theorem C119_length : forall p t phase q old out B, smoothQuat None p t phase q old = Some out ->
  (forall i j, in_ghosts p i j -> dotv (depth p) (q i j) (q i j) <= B) -> forall i j, in_patch p i j -> dotv (depth p) (out i j) (out i j) <= B.
Proof. exact smooth_norm. Qed.
Print Assumptions C119_length.

(** C119: the sum of squared differences across faces decreases by at least eight times the squared change. *)
Theorem C119_smoother : forall p t phase q old out, (lo0 p <= hi0 p)%Z -> (lo1 p <= hi1 p)%Z -> smoothQuat None p t phase q old = Some out ->
  roughness p out + 8 * sum_box (lo0 p) (hi0 p) (lo1 p) (hi1 p) (fun i j => dotv (depth p) (fun m => out i j m - q i j m) (fun m => out i j m - q i j m)) <= roughness p q.
Proof. exact smooth_rough. Qed.
Print Assumptions C119_smoother.

(** C119: an oscillation from cell to cell is removed in one step. *)
Theorem C119_oscillation : forall p t phase b a old out, smoothQuat None p t phase (fun i j m => b m + alternating a i j m) old = Some out ->
  forall i j m, in_patch p i j -> phase i j < t -> (1 <= m <= depth p)%Z -> out i j m = b m.
Proof. exact oscillation_removed. Qed.
Print Assumptions C119_oscillation.

(** C119: in 3D the new orientation is the mean of the six neighbours. *)
Theorem C119_average_3d : forall p t phase q i j k m, in_patch3 p i j k -> phase i j k < t -> (1 <= m <= depth3 p)%Z ->
  smoothQuat3 p t phase q i j k m = 1 / 6 * (q (i - 1)%Z j k m + q (i + 1)%Z j k m + q i (j - 1)%Z k m + q i (j + 1)%Z k m + q i j (k - 1)%Z m + q i j (k + 1)%Z m).
Proof. exact smooth3_val. Qed.
Print Assumptions C119_average_3d.

(** C119: in 3D all other cells keep their orientation. *)
Theorem C119_keep_3d : forall p t phase q i j k m, ~ (in_patch3 p i j k /\ phase i j k < t /\ (1 <= m <= depth3 p)%Z) -> smoothQuat3 p t phase q i j k m = q i j k m.
Proof. exact smooth3_keep. Qed.
Print Assumptions C119_keep_3d.

(** C119: in 3D no component leaves the range of the cell and its neighbours. *)
Theorem C119_range_3d : forall p t phase q i j k m a b, (forall x y z, (Z.abs (x - i) + Z.abs (y - j) + Z.abs (z - k) <= 1)%Z -> a <= q x y z m <= b) ->
  a <= smoothQuat3 p t phase q i j k m <= b.
Proof. exact smooth3_range. Qed.
Print Assumptions C119_range_3d.

(** C119: but in 3D an oscillation from cell to cell is not reduced at all, it only changes its sign. *)
Theorem C119_oscillation_3d_refuted : forall p t phase b a i j k m, let q := fun i j k m => b m + alternating a i (j + k) m in
  in_patch3 p i j k -> phase i j k < t -> (1 <= m <= depth3 p)%Z ->
  smoothQuat3 p t phase q i j k m - b m = - (q i j k m - b m).
Proof. exact oscillation_stays. Qed.
Print Assumptions C119_oscillation_3d_refuted.

(** one cell with value 1 among zeros becomes one half *)
Definition spike (i j m : Z) : R := if ((i =? 0) && (j =? 0))%Z%bool then 1 else 0.
Example C119_ex : exists out, smoothQuat None one_cell 1 (fun _ _ => 0) spike spike = Some out /\ out 0%Z 0%Z 1%Z = 1 / 2 /\ out 1%Z 0%Z 1%Z = 0.
Proof.
  destruct (C119_average one_cell 1 (fun _ _ => 0) spike spike) as (out & E & K & V). exists out. split; [exact E |]. split.
  - rewrite V; [unfold spike; cbn -[IZR]; lra | split; cbn; lia | lra | cbn; lia].
  - rewrite K; [reflexivity |]. intros ([H _] & _). cbn in H. lia.
Qed.
Example C119_ex_3d : exists p phase b a, in_patch3 p 0 0 0 /\ phase 0%Z 0%Z 0%Z < 1 /\ smoothQuat3 p 1 phase (fun i j k m => b m + alternating a i (j + k) m) 0%Z 0%Z 0%Z 1%Z = - (1).
Proof.
  exists (mk_patch3 0 0 0 0 0 0 1), (fun _ _ _ => 0), (fun _ => 0), (fun _ => 1). split; [unfold in_patch3; cbn; lia |]. split; [lra |].
  pose proof (C119_oscillation_3d_refuted (mk_patch3 0 0 0 0 0 0 1) 1 (fun _ _ _ => 0) (fun _ => 0) (fun _ => 1) 0%Z 0%Z 0%Z 1%Z) as H. cbv zeta beta in H.
  assert (Q : alternating (fun _ => 1) 0%Z (0 + 0)%Z 1%Z = 1) by reflexivity. rewrite Q in H.
  assert (H' := H ltac:(unfold in_patch3; cbn; lia) ltac:(lra) ltac:(cbn; lia)). lra.
Qed.

(** C120: orientations keep unit length only where all four neighbours have the same orientation. *)
Theorem C120_unit_only_if_uniform : forall p t phase q old out, smoothQuat None p t phase q old = Some out -> unit_field p q ->
  forall i j, in_patch p i j -> phase i j < t ->
  (dotv (depth p) (out i j) (out i j) = 1 <-> four i j (fun i' j' => same (depth p) (q i' j') (q i j))).
Proof. exact smooth_unit. Qed.
Print Assumptions C120_unit_only_if_uniform.

(** C120: with symmetry, each cell moves by the differences as stored on its faces; those on the upper faces are not rotated back. *)
Theorem C120_symmetric : forall p t phase q old rx ry, multi (depth p) \/ depth p = 1%Z -> rotations_ok p rx ry ->
  exists out, smoothQuat (Some (rx, ry)) p t phase q old = Some out /\
  (forall i j m, ~ (in_patch p i j /\ phase i j < t /\ (1 <= m <= depth p)%Z) -> out i j m = q i j m) /\
  (forall i j m, in_patch p i j -> phase i j < t -> (1 <= m <= depth p)%Z ->
     out i j m = q i j m + 1 / 8 * ((image (depth p) (rx i j) (q (i - 1)%Z j) m - q i j m) + (q (i + 1)%Z j m - image (depth p) (rx (i + 1)%Z j) (q i j) m)
       + (image (depth p) (ry i j) (q i (j - 1)%Z) m - q i j m) + (q i (j + 1)%Z m - image (depth p) (ry i (j + 1)%Z) (q i j) m))).
Proof. exact smooth_symm. Qed.
Print Assumptions C120_symmetric.

(** C120: where the rotations change nothing, smoothing is the same with and without symmetry. *)
Theorem C120_no_rotation_partial : forall p t phase q old rx ry, multi (depth p) \/ depth p = 1%Z -> rotations_ok p rx ry ->
  (forall i j, x_side p i j -> same (depth p) (image (depth p) (rx i j) (q (i - 1)%Z j)) (q (i - 1)%Z j)) ->
  (forall i j, y_side p i j -> same (depth p) (image (depth p) (ry i j) (q i (j - 1)%Z)) (q i (j - 1)%Z)) ->
  exists o1 o2, smoothQuat (Some (rx, ry)) p t phase q old = Some o1 /\ smoothQuat None p t phase q old = Some o2 /\
    forall i j, in_patch p i j -> same (depth p) (o1 i j) (o2 i j).
Proof. exact smooth_no_rotation. Qed.
Print Assumptions C120_no_rotation_partial.

(** C120: across a face with a rotation the result depends on which of the equivalent orientations was stored, and can even be longer than all orientations it was made from. *)
Theorem C120_representative_refuted : let p := one_cell in
  multi (depth p) /\ unit_field p wall /\ unit_field p wall' /\ regauged p (fun i _ => if (i <=? 0)%Z then 1%Z else 4%Z) wall wall' /\
  best_rotations p wall wall_x none /\ best_rotations p wall' none none /\
  forall old old', exists o o', smoothQuat (Some (wall_x, none)) p 1 (fun _ _ => 0) wall old = Some o /\
    smoothQuat (Some (none, none)) p 1 (fun _ _ => 0) wall' old' = Some o' /\
    1 < dotv (depth p) (o 0%Z 0%Z) (o 0%Z 0%Z) /\ dotv (depth p) (o' 0%Z 0%Z) (o' 0%Z 0%Z) < 1 /\ ~ equivalent (depth p) (o 0%Z 0%Z) (o' 0%Z 0%Z).
Proof. exact upper_not_rotated. Qed.
Print Assumptions C120_representative_refuted.

(** two unit orientations meet: the length of the mean is less than one *)
Example C120_ex : exists out, smoothQuat None one_cell 1 (fun _ _ => 0) wall wall = Some out /\ dotv 2 (out 0%Z 0%Z) (out 0%Z 0%Z) <> 1.
Proof.
  destruct (C119_average one_cell 1 (fun _ _ => 0) wall wall) as (out & E & K & V). exists out. split; [exact E |]. intros U.
  apply (C120_unit_only_if_uniform one_cell 1 (fun _ _ => 0) wall wall out E) in U; [| apply upper_not_rotated | split; cbn; lia | lra].
  destruct U as (_ & U & _). specialize (U 1%Z ltac:(cbn; lia)). unfold wall in U. cbn -[IZR] in U. lra.
Qed.
