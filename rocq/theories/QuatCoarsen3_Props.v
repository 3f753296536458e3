(** C201-C202: transfer of orientations between levels in three dimensions; the refinement operator. *)
From Coq Require Import Reals ZArith List Lra Lia.
From Verif Require Import Quat_Model Quat_Spec QuatCoarsen_Model QuatCoarsen_Spec QuatCoarsen3_Model QuatCoarsen3_Spec QuatCoarsen3_Proofs.
Import ListNotations.
Open Scope R_scope.

(** C201: coarsening quaternions gives in every cell of the box the unit vector along the mean of the covered fine cells, and writes no other cell. *)
Theorem C201_mean_quaternion : forall F r0 r1 r2 d0 d1 d2 b coarse, (0 < r0)%Z -> (0 < r1)%Z -> (0 < r2)%Z -> 0 < d0 -> 0 < d1 -> 0 < d2 ->
  exists out, quatcoarsen3 false 4 r0 r1 r2 d0 d1 d2 (IZR r0 * d0) (IZR r1 * d1) (IZR r2 * d2) (fun i j k => lst4 (F i j k)) b coarse = Some out /\
    (forall i j k, within b i j k -> exists p, out i j k = lst4 p /\ unit_along4 (mean4 r0 r1 r2 i j k F) p) /\
    (forall i j k, ~ within b i j k -> out i j k = coarse i j k).
Proof. exact mean_quaternion. Qed.
Print Assumptions C201_mean_quaternion.

(** C201: the same for orientations with two components. *)
Theorem C201_mean_complex : forall F r0 r1 r2 d0 d1 d2 b coarse, (0 < r0)%Z -> (0 < r1)%Z -> (0 < r2)%Z -> 0 < d0 -> 0 < d1 -> 0 < d2 ->
  exists out, quatcoarsen3 false 2 r0 r1 r2 d0 d1 d2 (IZR r0 * d0) (IZR r1 * d1) (IZR r2 * d2) (fun i j k => lst2 (F i j k)) b coarse = Some out /\
    (forall i j k, within b i j k -> exists p, out i j k = lst2 p /\ unit_along2 (mean2 r0 r1 r2 i j k F) p) /\
    (forall i j k, ~ within b i j k -> out i j k = coarse i j k).
Proof. exact mean_complex. Qed.
Print Assumptions C201_mean_complex.

(** C201: an angle becomes the mean angle. *)
Theorem C201_mean_angle : forall F r0 r1 r2 d0 d1 d2 b coarse, (0 < r0)%Z -> (0 < r1)%Z -> (0 < r2)%Z -> 0 < d0 -> 0 < d1 -> 0 < d2 ->
  exists out, quatcoarsen3 false 1 r0 r1 r2 d0 d1 d2 (IZR r0 * d0) (IZR r1 * d1) (IZR r2 * d2) (fun i j k => [F i j k]) b coarse = Some out /\
    (forall i j k, within b i j k -> out i j k = [average3 r0 r1 r2 i j k F]) /\
    (forall i j k, ~ within b i j k -> out i j k = coarse i j k).
Proof. exact mean_angle. Qed.
Print Assumptions C201_mean_angle.

(** C201: a coarse cell inside a grain with one orientation gets that orientation exactly. *)
Theorem C201_grain : forall F u r0 r1 r2 d0 d1 d2 b coarse, (0 < r0)%Z -> (0 < r1)%Z -> (0 < r2)%Z -> 0 < d0 -> 0 < d1 -> 0 < d2 -> unit4 u ->
  exists out, quatcoarsen3 false 4 r0 r1 r2 d0 d1 d2 (IZR r0 * d0) (IZR r1 * d1) (IZR r2 * d2) (fun i j k => lst4 (F i j k)) b coarse = Some out /\
    forall i j k, within b i j k -> (forall x y z, covered3 r0 r1 r2 i j k x y z -> F x y z = u) -> out i j k = lst4 u.
Proof. exact uniform. Qed.
Print Assumptions C201_grain.

(** C201: the result depends only on the fine cells below the box, at any depth, with or without symmetry. *)
Theorem C201_local : forall symm depth r0 r1 r2 a0 a1 a2 b0 b1 b2 f g b coarse,
  (forall c0 c1 c2 i j k, within b c0 c1 c2 -> covered3 r0 r1 r2 c0 c1 c2 i j k -> f i j k = g i j k) ->
  quatcoarsen3 symm depth r0 r1 r2 a0 a1 a2 b0 b1 b2 f b coarse = quatcoarsen3 symm depth r0 r1 r2 a0 a1 a2 b0 b1 b2 g b coarse.
Proof. exact local. Qed.
Print Assumptions C201_local.

Example C201_ex : exists out,
  quatcoarsen3 false 1 2 2 2 (1 / 2) (1 / 2) (1 / 2) (IZR 2 * (1 / 2)) (IZR 2 * (1 / 2)) (IZR 2 * (1 / 2)) (fun i j k => [IZR i + 10 * IZR j + 100 * IZR k])
    (mk_ibox (-1) 0 0 0 0 0) (fun _ _ _ => [7]) = Some out /\ out (-1)%Z 0%Z 0%Z = [107 / 2] /\ out 1%Z 0%Z 0%Z = [7].
Proof.
  destruct (C201_mean_angle (fun i j k => IZR i + 10 * IZR j + 100 * IZR k) 2 2 2 (1 / 2) (1 / 2) (1 / 2) (mk_ibox (-1) 0 0 0 0 0) (fun _ _ _ => [7]))
    as (out & E & V & O); [lia | lia | lia | lra | lra | lra |].
  exists out. split; [exact E |]. split.
  - rewrite V by (unfold within; cbn; lia). f_equal. unfold average3.
    change (Z.to_nat 2) with 2%nat. cbn [sumn]. cbn [Z.of_nat Pos.of_succ_nat Z.mul Z.add Z.opp Z.pos_sub Pos.mul Pos.pred_double]. cbn -[IZR]. lra.
  - apply O. unfold within. cbn. lia.
Qed.

(** C202: symmetry aware coarsening in three dimensions stops the run, for any ratio that coarsens and any box with a cell. *)
Theorem C202_coarsening_stops_refuted : forall depth r0 r1 r2 a0 a1 a2 b0 b1 b2 fine b coarse,
  (0 < r0)%Z -> (0 < r1)%Z -> (0 < r2)%Z -> (1 < r0 * r1 * r2)%Z -> (exists i j k, within b i j k) ->
  quatcoarsen3 true depth r0 r1 r2 a0 a1 a2 b0 b1 b2 fine b coarse = None.
Proof. exact symm3_stops. Qed.
Print Assumptions C202_coarsening_stops_refuted.

(** C202: the symmetry aware refinement operator, in two and three dimensions, stops the run if a box of the overlap is at least two cells wide along every axis, and otherwise returns without having written any cell. *)
Theorem C202_refinement_refuted : forall nd3 s coarse boxes fine,
  (Exists (thick nd3) boxes -> refine nd3 s coarse boxes fine = None) /\
  (Forall (fun b => ~ thick nd3 b) boxes -> refine nd3 s coarse boxes fine = Some fine).
Proof. exact refinement. Qed.
Print Assumptions C202_refinement_refuted.

(** an overlap of one layer of four cells is not filled, one of 2 x 2 cells stops the run *)
Example C202_ex : forall s coarse,
  refine false s coarse [mk_ibox 0 0 0 3 0 0] (fun _ _ _ => [1; 0; 0; 0]) = Some (fun _ _ _ => [1; 0; 0; 0]) /\
  refine false s coarse [mk_ibox 0 0 0 3 0 0; mk_ibox 4 0 0 5 1 0] (fun _ _ _ => [1; 0; 0; 0]) = None.
Proof.
  intros s coarse. split; apply C202_refinement_refuted.
  - constructor; [unfold thick; cbn; lia | constructor].
  - right. left. unfold thick. cbn. lia.
Qed.
