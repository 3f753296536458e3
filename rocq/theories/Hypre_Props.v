(** C190-C193: the direct solve of the coarsest level by HYPRE. *)
From Coq Require Import Reals ZArith List Bool Lia Lra FunctionalExtensionality.
From Verif Require Import Grid_Model Elliptic_Model Elliptic_Spec Elliptic_Proofs Hypre_Model Hypre_Spec Hypre_Proofs.
Import ListNotations.
Open Scope R_scope.

(** C190: for homogeneous boundary conditions (the only ones EllipticFACOps asks for) and a mobility that is a constant or does not change across the physical boundary, a vector satisfies the equations given to HYPRE exactly when the returned field solves m div(D grad u) + C u = f with the user's boundary conditions: every patch decomposition, Robin condition, periodic axis and number of cells. *)
Theorem C190_equations : forall lv hps per0 per1 actual hx hy dx dy c ms f v gh,
  boundary_ok lv hps per0 per1 hx hy -> disjoint lv -> periodic_data lv per0 per1 dx dy (mvalue ms) -> positive_m lv ms -> axes_ok lv per1 actual ->
  match ms with ConstantM _ => True | VariableM m => even_mobility lv per0 per1 m end -> robin_ghosts lv hps per0 per1 hx hy true gh ->
  (hypre_solution lv hps per0 per1 actual hx hy dx dy c ms true f v <->
   solves (1 / (hx * hx)) (1 / (hy * hy)) lv gh (mk_coefs dx dy c (mvalue ms)) f (result_of ms v)).
Proof. exact homogeneous_right. Qed.
Print Assumptions C190_equations.

(** C190: for any mobility, the problem HYPRE solves is the one whose boundary rule is scaled by the roots of the mobility in the ghost cell and in the cell. *)
Theorem C190_problem_solved : forall lv hps per0 per1 actual hx hy dx dy c ms hom f v gh,
  boundary_ok lv hps per0 per1 hx hy -> disjoint lv -> periodic_data lv per0 per1 dx dy (mvalue ms) -> positive_m lv ms -> axes_ok lv per1 actual ->
  ghosts_follow lv hps per0 per1 hx hy (scaled ms) (scaled_off ms hom) gh ->
  (hypre_solution lv hps per0 per1 actual hx hy dx dy c ms hom f v <->
   solves (1 / (hx * hx)) (1 / (hy * hy)) lv gh (mk_coefs dx dy c (mvalue ms)) f (result_of ms v)).
Proof. exact hypre_problem. Qed.
Print Assumptions C190_problem_solved.

(** C190: refuted in general: with a mobility that differs between a cell and the ghost cell across a Dirichlet wall the returned field does not solve the problem. *)
Theorem C190_mobility_refuted : exists lv hps per0 per1 dx dy c m f v gh,
  boundary_ok lv hps per0 per1 (pdx lv) (pdy lv) /\ disjoint lv /\ periodic_data lv per0 per1 dx dy m /\ positive_m lv (VariableM m) /\
  (forall i j, cell lv i j <-> (0 <= i <= 1 /\ 0 <= j <= 1)%Z) /\
  (forall i j, 0 < m i j) /\ robin_ghosts lv hps per0 per1 (pdx lv) (pdy lv) true gh /\
  (exists c0 K, positive_problem lv (mk_coefs dx dy c m) c0 K) /\ tame lv gh /\
  hypre_solution lv hps per0 per1 (actual_dim [(0, 1); (0, 1)])%Z (pdx lv) (pdy lv) dx dy c (VariableM m) true f v /\
  ~ solves (1 / (pdx lv * pdx lv)) (1 / (pdy lv * pdy lv)) lv gh (mk_coefs dx dy c m) f (result_of (VariableM m) v).
Proof. exact homogeneous_wrong. Qed.
Print Assumptions C190_mobility_refuted.

Example C190_ex :
  hypre_solution one_level [one_hp 0] 0 0 2 1 1 (fun _ _ => -1) (fun _ _ => -1) (fun _ _ => 1) (VariableM (one_m 4 4)) true (fun _ _ => 34) (fun _ _ => 1) /\
  solves 1 1 one_level (one_gh (-1) 0) (mk_coefs (fun _ _ => -1) (fun _ _ => -1) (fun _ _ => 1) (one_m 4 4)) (fun _ _ => 34) (fun _ _ => 2).
Proof.
  assert (S4 : sqrt 4 = 2) by (replace 4 with (2 * 2) by ring; apply sqrt_square; lra).
  assert (V : forall i j, cell one_level i j -> result_of (VariableM (one_m 4 4)) (fun _ _ => 1) i j = 2) by (intros i j Hc; rewrite result_val; cbn [msqrt]; rewrite (one_inside 4 4 i j Hc), S4; ring).
  split.
  - refine (proj2 (homogeneous_right one_level [one_hp 0] 0 0 2 1 1 _ _ _ (VariableM (one_m 4 4)) _ _ (one_gh (-1) 0) (one_ok 0) one_disjoint (one_periodic _ _ _) (one_positive 4 4 ltac:(lra)) (or_introl eq_refl) _ _) _).
    + intros i j Hc. unfold one_m. repeat split; intros _; repeat match goal with |- context [in_patch ?p ?a ?b] => destruct (in_patch p a b) end; reflexivity.
    + apply (one_robin 0 true).
    + apply (one_solves _ _ 4 4 _ _ _ _ 2 V). lra.
  - replace (solves 1 1) with (solves (1 / (1 * 1)) (1 / (1 * 1))) by (f_equal; field). apply (one_solves _ _ 4 4 _ _ _ _ 2); [reflexivity | lra].
Qed.

(** C191: for the sign of the preconditioner's problems HYPRE's equations have exactly one solution on the cells of the level, and the field made of it is the limit of the red-black smoother: both choices of the coarse solver mean the same. *)
Theorem C191_smoother_limit : forall lv hps per0 per1 actual dx dy c ms f gh c0 K fl,
  boundary_ok lv hps per0 per1 (pdx lv) (pdy lv) -> disjoint lv -> periodic_data lv per0 per1 dx dy (mvalue ms) -> positive_m lv ms -> axes_ok lv per1 actual ->
  match ms with ConstantM _ => True | VariableM m => even_mobility lv per0 per1 m end -> robin_ghosts lv hps per0 per1 (pdx lv) (pdy lv) true gh ->
  nonneg_rows lv -> finer lv = false -> 0 < pdx lv -> 0 < pdy lv -> gdx lv = pdx lv -> gdy lv = pdy lv -> tame lv gh ->
  positive_problem lv (mk_coefs dx dy c (mvalue ms)) c0 K ->
  (exists v, hypre_solution lv hps per0 per1 actual (pdx lv) (pdy lv) dx dy c ms true f v) /\
  forall v, hypre_solution lv hps per0 per1 actual (pdx lv) (pdy lv) dx dy c ms true f v ->
    (forall v', hypre_solution lv hps per0 per1 actual (pdx lv) (pdy lv) dx dy c ms true f v' -> within lv v v' 0) /\
    forall u eps, 0 < eps -> exists N, forall n, (N <= n)%nat ->
      within lv (smoothErrorByRedBlack lv gh (mk_coefs dx dy c (mvalue ms)) f fl n (-1) u) (result_of ms v) eps.
Proof. exact direct_is_limit. Qed.
Print Assumptions C191_smoother_limit.

(** C191: the solve of all components reports success exactly when every one converged. *)
Theorem C191_return : forall norms tol, solve_coarsest norms tol = 0%Z <-> Forall (fun n => n <= tol) norms.
Proof. exact return_value. Qed.
Print Assumptions C191_return.

Example C191_ex : forall fl u eps, 0 < eps -> exists N, forall n, (N <= n)%nat ->
  within one_level (smoothErrorByRedBlack one_level (one_gh (-1) 0) (mk_coefs (fun _ _ => -1) (fun _ _ => -1) (fun _ _ => 1) (one_m 4 4)) (fun _ _ => 34) fl n (-1) u) (fun _ _ => 2) eps.
Proof.
  intros fl u eps He.
  assert (S4 : sqrt 4 = 2) by (replace 4 with (2 * 2) by ring; apply sqrt_square; lra).
  destruct (direct_is_limit one_level [one_hp 0] 0 0 2 (fun _ _ => -1) (fun _ _ => -1) (fun _ _ => 1) (VariableM (one_m 4 4)) (fun _ _ => 34) (one_gh (-1) 0) 1 16 fl) as (_ & L);
    try reflexivity; try (cbn; lra).
  - apply (one_ok 0).
  - apply one_disjoint.
  - apply one_periodic.
  - apply one_positive; lra.
  - left; reflexivity.
  - intros i j Hc. unfold one_m. repeat split; intros _; repeat match goal with |- context [in_patch ?p ?a ?b] => destruct (in_patch p a b) end; reflexivity.
  - apply (one_robin 0 true).
  - intros p [<- | []]. cbn. lia.
  - apply one_tame.
  - apply one_problem; lra.
  - destruct (L _ (proj1 C190_ex)) as (_ & C). destruct (C u eps He) as (N & HN). exists N. intros n Hn i j Hc.
    pose proof (HN n Hn i j Hc) as Q. rewrite result_val in Q. cbn [msqrt] in Q. rewrite (one_inside 4 4 i j Hc), S4 in Q. replace (1 * 2) with 2 in Q by ring. exact Q.
Qed.
Example C191_return_ex : solve_coarsest [1; 3; 1] 2 = 1%Z /\ solve_coarsest [1; 2] 2 = 0%Z.
Proof.
  split; [| apply return_value; repeat constructor; lra].
  unfold solve_coarsest, converged. cbn [fold_left]. destruct (Rle_dec 3 2); [lra |]. destruct (Rle_dec 1 2); [| lra]. reflexivity.
Qed.

(** C192: boundary values: with a constant mobility, or one that is 1 beside the physical boundary, the returned field solves the problem with the user's inhomogeneous Robin conditions. *)
Theorem C192_boundary_values : forall lv hps per0 per1 actual hx hy dx dy c ms f v gh,
  boundary_ok lv hps per0 per1 hx hy -> disjoint lv -> periodic_data lv per0 per1 dx dy (mvalue ms) -> positive_m lv ms -> axes_ok lv per1 actual ->
  match ms with ConstantM _ => True | VariableM m => even_mobility lv per0 per1 m /\ unit_mobility lv per0 per1 m end -> robin_ghosts lv hps per0 per1 hx hy false gh ->
  (hypre_solution lv hps per0 per1 actual hx hy dx dy c ms false f v <->
   solves (1 / (hx * hx)) (1 / (hy * hy)) lv gh (mk_coefs dx dy c (mvalue ms)) f (result_of ms v)).
Proof. exact inhomogeneous_right. Qed.
Print Assumptions C192_boundary_values.

(** C192: refuted for other mobility fields: even with one value everywhere, given as a field, the boundary value used is the user's times the root of the mobility. *)
Theorem C192_mobility_refuted : exists lv hps per0 per1 dx dy c m f v gh,
  boundary_ok lv hps per0 per1 (pdx lv) (pdy lv) /\ disjoint lv /\ periodic_data lv per0 per1 dx dy m /\ positive_m lv (VariableM m) /\
  (forall i j, cell lv i j <-> (0 <= i <= 1 /\ 0 <= j <= 1)%Z) /\
  (exists m0, 0 < m0 /\ forall i j, m i j = m0) /\ robin_ghosts lv hps per0 per1 (pdx lv) (pdy lv) false gh /\
  (exists c0 K, positive_problem lv (mk_coefs dx dy c m) c0 K) /\ tame lv gh /\
  hypre_solution lv hps per0 per1 (actual_dim [(0, 1); (0, 1)])%Z (pdx lv) (pdy lv) dx dy c (VariableM m) false f v /\
  ~ solves (1 / (pdx lv * pdx lv)) (1 / (pdy lv * pdy lv)) lv gh (mk_coefs dx dy c m) f (result_of (VariableM m) v).
Proof. exact inhomogeneous_wrong. Qed.
Print Assumptions C192_mobility_refuted.

Example C192_ex : hypre_solution one_level [one_hp 1] 0 0 2 1 1 (fun _ _ => -1) (fun _ _ => -1) (fun _ _ => 1) (ConstantM 4) false (fun _ _ => 1) (fun _ _ => 1).
Proof.
  apply (inhomogeneous_right one_level [one_hp 1] 0 0 2 1 1 _ _ _ (ConstantM 4) _ _ _ (one_ok 1) one_disjoint (one_periodic _ _ _) I (or_introl eq_refl) I (one_robin 1 false)).
  replace (mvalue (ConstantM 4)) with (one_m 4 4) by (apply functional_extensionality; intro i; apply functional_extensionality; intro j; unfold one_m; destruct (in_patch one_box i j); reflexivity).
  apply (one_solves _ _ 4 4 _ _ _ _ 1); [reflexivity | lra].
Qed.

(** C193: packing in three dimensions: every stencil entry of every cell is where HYPRE expects it and no write is outside of the buffer. *)
Theorem C193_packing : forall nx ny nz fx fy fz fd, (1 <= nx)%Z -> (1 <= ny)%Z -> (1 <= nz)%Z ->
  let s := pack 3 3 nx ny nz fx fy fz fd in
  fits s = true /\
  forall i j k, (0 <= i < nx)%Z -> (0 <= j < ny)%Z -> (0 <= k < nz)%Z ->
    let c := ((k * ny + j) * nx + i)%Z in
    buf s (4 * c)%Z = fx ((k * ny + j) * (nx + 1) + i)%Z /\ buf s (4 * c + 1)%Z = fy ((k * (ny + 1) + j) * nx + i)%Z /\
    buf s (4 * c + 2)%Z = fz ((k * ny + j) * nx + i)%Z /\ buf s (4 * c + 3)%Z = fd ((k * ny + j) * nx + i)%Z.
Proof. exact pack3. Qed.
Print Assumptions C193_packing.

(** C193: packing in two dimensions (one or two axes for HYPRE): the entries HYPRE reads are those of the cell. *)
Theorem C193_packing_plane : forall p actual d i j, (actual = 1 \/ actual = 2)%Z -> inside p i j ->
  stencil_value p actual d 0 i j = offx d i j /\ (actual = 2%Z -> stencil_value p actual d 1 i j = offy d i j) /\ stencil_value p actual d actual i j = diag d i j.
Proof. exact stencil_values. Qed.
Print Assumptions C193_packing_plane.

(** C193: refuted for a level one cell thick in a three-dimensional run: the packing writes behind the end of its buffer. *)
Theorem C193_thin_refuted : forall ex ey ez fx fy fz fd, (0 <= ex)%Z -> (0 <= ey)%Z -> (0 <= ez)%Z -> (ex = 0 \/ ey = 0 \/ ez = 0)%Z ->
  fits (pack 3 (actual_dim [(0, ex); (0, ey); (0, ez)])%Z (ex + 1) (ey + 1) (ez + 1) fx fy fz fd) = false.
Proof. exact pack3_thin. Qed.
Print Assumptions C193_thin_refuted.

(** C193: refuted for a level one cell wide along x: all its cells are the same point of HYPRE's grid. *)
Theorem C193_column_refuted : forall ny j j', (1 <= ny)%Z -> actual_dim [(0, 0); (0, ny)]%Z = 1%Z /\ grid_point (actual_dim [(0, 0); (0, ny)]%Z) 0 j = grid_point (actual_dim [(0, 0); (0, ny)]%Z) 0 j'.
Proof. exact one_cell_wide. Qed.
Print Assumptions C193_column_refuted.

(** C193: refuted for a level one cell high and periodic across: the diagonal keeps couplings that cancel in the problem, and the result is not its solution. *)
Theorem C193_row_refuted : exists lv hps per0 per1 dx dy c m f v gh,
  boundary_ok lv hps per0 per1 (pdx lv) (pdy lv) /\ disjoint lv /\ periodic_data lv per0 per1 dx dy (mvalue (ConstantM m)) /\
  (forall i j, cell lv i j <-> (0 <= i <= 1 /\ j = 0)%Z) /\ per0 = 2%Z /\ per1 = 1%Z /\
  robin_ghosts lv hps per0 per1 (pdx lv) (pdy lv) true gh /\
  (exists c0 K, positive_problem lv (mk_coefs dx dy c (mvalue (ConstantM m))) c0 K) /\ tame lv gh /\
  hypre_solution lv hps per0 per1 (actual_dim [(0, 1); (0, 0)])%Z (pdx lv) (pdy lv) dx dy c (ConstantM m) true f v /\
  ~ solves (1 / (pdx lv * pdx lv)) (1 / (pdy lv * pdy lv)) lv gh (mk_coefs dx dy c (mvalue (ConstantM m))) f (result_of (ConstantM m) v).
Proof. exact flat_periodic_wrong. Qed.
Print Assumptions C193_row_refuted.

Example C193_ex : forall fx fy fz fd, let s := pack 3 3 2 2 2 fx fy fz fd in
  buf s 28%Z = fx 10%Z /\ buf s 29%Z = fy 9%Z /\ buf s 30%Z = fz 7%Z /\ buf s 31%Z = fd 7%Z.
Proof.
  intros fx fy fz fd s. destruct (pack3 2 2 2 fx fy fz fd ltac:(lia) ltac:(lia) ltac:(lia)) as (_ & B). exact (B 1%Z 1%Z 1%Z ltac:(lia) ltac:(lia) ltac:(lia)).
Qed.
Example C193_thin_ex : fits (pack 3 (actual_dim [(0, 3); (0, 3); (0, 0)])%Z 4 4 1 (fun _ => 0) (fun _ => 0) (fun _ => 0) (fun _ => 0)) = false.
Proof. exact (pack3_thin 3 3 0 (fun _ => 0) (fun _ => 0) (fun _ => 0) (fun _ => 0) ltac:(lia) ltac:(lia) ltac:(lia) ltac:(lia)). Qed.
