(** C18, C19, C53: orientation transfer between levels, source/fortran/2d/quatcoarsen.m4 and quatlinrefine.m4. *)
From Coq Require Import Reals ZArith List Lra Lia.
From Verif Require Import Quat_Model Quat_Spec Quat_Proofs QuatCoarsen_Model QuatCoarsen_Spec QuatCoarsen_Proofs.
Import ListNotations.
Open Scope R_scope.

(** C18: symmetry-aware coarsening by any real ratio never returns. *)
Theorem C18_coarsening_stops_refuted : forall depth r0 r1 dxf0 dxf1 dxc0 dxc1 fine cells,
  (0 < r0)%Z -> (0 < r1)%Z -> (1 < r0 * r1)%Z -> cells <> [] ->
  quatcoarsen true depth r0 r1 dxf0 dxf1 dxc0 dxc1 fine cells = None.
Proof. exact symm_coarsen_stops. Qed.
Print Assumptions C18_coarsening_stops_refuted.

(** C18: symmetry-aware linear refinement never returns either. *)
Theorem C18_refinement_stops_refuted : forall r0 r1 dxc0 dxf0 dxc1 dxf1 coarse if0 if1,
  refine_cell r0 r1 dxc0 dxf0 dxc1 dxf1 coarse 0 if0 if1 = None.
Proof. exact refine_stops. Qed.
Print Assumptions C18_refinement_stops_refuted.

Example C18_ex : quatcoarsen true 4 2 2 (1/2) (1/2) 1 1 (fun _ _ => lst4 (Q4 1 0 0 0)) [(0, 0)%Z] = None.
Proof. apply C18_coarsening_stops_refuted; try lia. discriminate. Qed.

(** C19: plain coarsening of quaternions: unit vector along the arithmetic mean of the covered cells. *)
Theorem C19_mean_quaternion : forall F r0 r1 dxf0 dxf1 cells, (0 < r0)%Z -> (0 < r1)%Z -> 0 < dxf0 -> 0 < dxf1 ->
  exists out,
    quatcoarsen false 4 r0 r1 dxf0 dxf1 (IZR r0 * dxf0) (IZR r1 * dxf1) (fun i j => lst4 (F i j)) cells =
    Some (map (fun c => lst4 (out (fst c) (snd c))) cells) /\
  forall ic0 ic1,
    let avg := Q4 (average r0 r1 ic0 ic1 (fun i j => qa (F i j))) (average r0 r1 ic0 ic1 (fun i j => qb (F i j)))
                  (average r0 r1 ic0 ic1 (fun i j => qc (F i j))) (average r0 r1 ic0 ic1 (fun i j => qd (F i j))) in
    (tiny <= quatmagn4 avg -> exists s, 0 < s /\ out ic0 ic1 = scale4 s avg /\ unit4 (out ic0 ic1)) /\
    (quatmagn4 avg < tiny -> out ic0 ic1 = Q4 0 0 0 0).
Proof. exact quatcoarsen4. Qed.
Print Assumptions C19_mean_quaternion.

(** C19: two components. *)
Theorem C19_mean_complex : forall F r0 r1 dxf0 dxf1 cells, (0 < r0)%Z -> (0 < r1)%Z -> 0 < dxf0 -> 0 < dxf1 ->
  exists out,
    quatcoarsen false 2 r0 r1 dxf0 dxf1 (IZR r0 * dxf0) (IZR r1 * dxf1) (fun i j => lst2 (F i j)) cells =
    Some (map (fun c => lst2 (out (fst c) (snd c))) cells) /\
  forall ic0 ic1,
    let avg := Q2 (average r0 r1 ic0 ic1 (fun i j => ca (F i j))) (average r0 r1 ic0 ic1 (fun i j => cb (F i j))) in
    (tiny <= quatmagn2 avg -> exists s, 0 < s /\ out ic0 ic1 = scale2 s avg /\ unit2 (out ic0 ic1)) /\
    (quatmagn2 avg < tiny -> out ic0 ic1 = Q2 0 0).
Proof. exact quatcoarsen2. Qed.
Print Assumptions C19_mean_complex.

(** C19: one angle: the plain mean. *)
Theorem C19_mean_angle : forall F r0 r1 dxf0 dxf1 cells, (0 < r0)%Z -> (0 < r1)%Z -> 0 < dxf0 -> 0 < dxf1 ->
  quatcoarsen false 1 r0 r1 dxf0 dxf1 (IZR r0 * dxf0) (IZR r1 * dxf1) (fun i j => [F i j]) cells =
  Some (map (fun c => [average r0 r1 (fst c) (snd c) F]) cells).
Proof. exact quatcoarsen1. Qed.
Print Assumptions C19_mean_angle.

(** C19: a uniform unit orientation is reproduced exactly. *)
Theorem C19_uniform : forall u r0 r1 dxf0 dxf1 cells, unit4 u -> (0 < r0)%Z -> (0 < r1)%Z -> 0 < dxf0 -> 0 < dxf1 ->
  quatcoarsen false 4 r0 r1 dxf0 dxf1 (IZR r0 * dxf0) (IZR r1 * dxf1) (fun _ _ => lst4 u) cells =
  Some (map (fun _ => lst4 u) cells).
Proof. exact coarsen_constant. Qed.
Print Assumptions C19_uniform.

(** C19: a coarse cell depends only on the fine cells it covers (also on negative indices). *)
Theorem C19_local : forall symm depth r0 r1 dxf0 dxf1 dxc0 dxc1 f g iq ic0 ic1,
  (forall i j, covered r0 r1 ic0 ic1 i j -> f i j = g i j) ->
  coarsen_cell symm depth r0 r1 dxf0 dxf1 dxc0 dxc1 f iq ic0 ic1 =
  coarsen_cell symm depth r0 r1 dxf0 dxf1 dxc0 dxc1 g iq ic0 ic1.
Proof. exact coarsen_local. Qed.
Print Assumptions C19_local.

Example C19_ex :
  quatcoarsen false 1 2 2 (1/2) (1/2) (IZR 2 * (1/2)) (IZR 2 * (1/2)) (fun i j => [IZR i + 10 * IZR j]) [(0, 0)%Z; (-1, 0)%Z] =
  Some [[11 / 2]; [7 / 2]].
Proof.
  rewrite (C19_mean_angle (fun i j => IZR i + 10 * IZR j)) by (lia || lra).
  unfold average, sum_covered. cbn [map fst snd]. change (Z.to_nat 2) with 2%nat. cbn [sumn].
  repeat match goal with |- context [Z.of_nat ?n] => let v := eval vm_compute in (Z.of_nat n) in change (Z.of_nat n) with v end.
  rewrite !plus_IZR, !mult_IZR. do 2 f_equal; [| f_equal]; f_equal; field.
Qed.

(** C53: the refinement index and weight locate the fine centre between two neighbouring coarse centres, for every sign of the index. *)
Theorem C53_position : forall r i dxf, (1 <= r <= 16)%Z -> 0 < dxf ->
  exists ic x, refine_index r i (IZR r * dxf) dxf = Some (ic, x) /\ 0 <= x < 1 /\
    (IZR i + / 2) * dxf = (IZR ic + / 2 + x) * (IZR r * dxf).
Proof. exact refine_index_ok. Qed.
Print Assumptions C53_position.

(** C53: hence interpolating any affine profile between the two coarse centres gives its exact value. *)
Theorem C53_affine_exact : forall r i dxf a b, (1 <= r <= 16)%Z -> 0 < dxf ->
  exists ic x, refine_index r i (IZR r * dxf) dxf = Some (ic, x) /\
    let g k := a + b * ((IZR k + / 2) * (IZR r * dxf)) in
    g ic + (g (ic + 1)%Z - g ic) * x = a + b * ((IZR i + / 2) * dxf).
Proof. exact refine_affine. Qed.
Print Assumptions C53_affine_exact.

Example C53_ex : exists ic x, refine_index 2 (-3) (IZR 2 * 1) 1 = Some (ic, x) /\ 0 <= x < 1 /\ (IZR ic + / 2 + x) * 2 = - 5 / 2.
Proof.
  destruct (C53_position 2 (-3) 1 ltac:(lia) ltac:(lra)) as (ic & x & E & Hx & Hp).
  exists ic, x. split; [exact E |]. split; [exact Hx |]. lra.
Qed.
