(** C93-C96: the linear solver of the orientation block. *)
From Coq Require Import Reals ZArith List Bool Lra Lia.
From Verif Require Import Grid_Model Grid_Spec Grid_Proofs PhaseFlow_Model PhaseFlow_Spec PhaseFlow_Proofs QuatSolver_Model QuatSolver_Spec QuatSolver_Proofs.
Import ListNotations.
Open Scope R_scope.

(** C93: in every cell of the level the residual kernel and the assembled hypre system agree, boundary conditions included, if at a physical boundary the mobility of the ghost cell is that of the cell inside; nothing is asked at a coarse-fine boundary. *)
Theorem C93_system_is_residual_partial : forall lv o m0 v0 p fl q rhs old i j, good_level lv -> In p (qpatches lv) -> in_qpatch p i j = true ->
  on_boundary lv a_between -> on_boundary lv (robin lv q) -> on_boundary lv (mobility_ok lv o) ->
  q_residual (box_of lv p) o fl q rhs old i j = system_rhs lv o m0 false rhs i j - matvec lv o m0 v0 q i j.
Proof. exact hypre_row. Qed.
Print Assumptions C93_system_is_residual_partial.

(** C93: with another mobility in the ghost cell of a physical boundary they differ. *)
Theorem C93_ghost_mobility_refuted : exists lv o m0 v0 p fl q rhs old i j, good_level lv /\ In p (qpatches lv) /\ in_qpatch p i j = true /\
  on_boundary lv a_between /\ on_boundary lv (robin lv q) /\ (forall a b, 0 < sm o a b) /\ 0 < gam o /\ (forall a b, fcx o a b < 0 /\ fcy o a b < 0) /\
  q_residual (box_of lv p) o fl q rhs old i j <> system_rhs lv o m0 false rhs i j - matvec lv o m0 v0 q i j.
Proof. exact ghost_mobility. Qed.
Print Assumptions C93_ghost_mobility_refuted.

(** three cells in two patches, unit coefficients, no-flux conditions, q = 0, 1, 2 *)
Definition ex_op : qop := mk_qop 1 (fun _ _ => 1) (fun _ _ => -1) (fun _ _ => -1).
Definition ex_q : arr2 := fun i _ => IZR (Z.max 0 (Z.min i 2)).
Definition ex_m0 : mat := mk_mat (fun _ _ => 5) (fun _ _ => 6) (fun _ _ => 7) (fun _ _ _ => 8).
Lemma ex_rows : matvec two_patches ex_op ex_m0 (fun _ => 9) ex_q 0%Z 0%Z = -1 /\ matvec two_patches ex_op ex_m0 (fun _ => 9) ex_q 1%Z 0%Z = 1 /\
  matvec two_patches ex_op ex_m0 (fun _ => 9) ex_q 2%Z 0%Z = 3.
Proof.
  pose proof two_patches_good as G.
  rewrite (matvec_at two_patches (strip 0 0 true false) _ _ _ _ 0%Z 0%Z), (matvec_at two_patches (strip 1 2 false true) _ _ _ _ 1%Z 0%Z),
    (matvec_at two_patches (strip 1 2 false true) _ _ _ _ 2%Z 0%Z) by (auto; try reflexivity; (left; reflexivity) || (right; left; reflexivity)).
  unfold sum_sides, nb, off0, face_coef, ex_q. cbn [out0 out1 face0 face1 spacing two_patches hx hy ex_op gam sm fcx fcy].
  cbn [bnd matrix_boundaries bbox_at strip physical ln app find covers no_flux loc side_loc bl0 bl1 bu0 bu1 Z.eqb Pos.eqb andb Z.leb Z.compare Z.add Z.sub Z.opp Z.ltb].
  unfold ka, k1, no_flux. cbn [acoef spacing two_patches hx hy]. cbn. lra.
Qed.
Example C93_ex : forall fl rhs old, q_residual (box_of two_patches (strip 0 0 true false)) ex_op fl ex_q rhs old 0%Z 0%Z = rhs 0%Z 0%Z + 1.
Proof.
  intros fl rhs old. rewrite (residual_at two_patches) by (try exact two_patches_good; reflexivity).
  unfold sum_sides, nb, off0, face_coef, ex_q. cbn [out0 out1 face0 face1 spacing two_patches hx hy ex_op gam sm fcx fcy]. cbn. lra.
Qed.
Example C93_ex_system : good_level two_patches /\ on_boundary two_patches a_between /\ on_boundary two_patches (robin two_patches ex_q) /\
  on_boundary two_patches (mobility_ok two_patches ex_op) /\ matvec two_patches ex_op ex_m0 (fun _ => 9) ex_q 0%Z 0%Z = -1.
Proof.
  split; [exact two_patches_good |]. split; [| split; [| split; [intros p bb s i j _ _ _; left; reflexivity | apply ex_rows]]].
  - intros p bb s i j Hp Hb _. destruct (strip_flat two_patches p bb (or_intror eq_refl) Hp Hb) as [E _]. unfold a_between. rewrite E. lra.
  - intros p bb s i j Hp Hb C. destruct (strip_flat two_patches p bb (or_intror eq_refl) Hp Hb) as [E F]. unfold robin. rewrite E, F.
    assert (K : ex_q (out0 s i) (out1 s j) = ex_q i j).
    { unfold ex_q. f_equal. cbn in Hp. destruct Hp as [<- | [<- | []]]; cbn in Hb; destruct Hb as [<- | [<- | [<- | []]]];
        unfold covers in C; destruct s; cbn in C; try discriminate; cbn [out0 out1]; revert C; dz; discriminate. }
    rewrite K. field. destruct s; cbn; lra.
Qed.

(** C94: the assembled matrix is symmetric. *)
Theorem C94_symmetric : forall lv o m0 v0 x y, good_level lv -> inner lv x (matvec lv o m0 v0 y) = inner lv y (matvec lv o m0 v0 x).
Proof. exact symmetric_closed. Qed.
Print Assumptions C94_symmetric.

(** C94: it is positive definite, with smallest eigenvalue at least one. *)
Theorem C94_positive_definite : forall lv o m0 v0 x, good_level lv -> 0 <= gam o -> (forall i j, in_qlevel lv i j = true -> forall s, face_coef o s i j <= 0) ->
  on_boundary lv a_between -> inner lv x x <= inner lv x (matvec lv o m0 v0 x).
Proof. exact coercive_closed. Qed.
Print Assumptions C94_positive_definite.

(** C94: so the system has at most one solution. *)
Theorem C94_unique_solution : forall lv o m0 v0 x y, good_level lv -> 0 <= gam o -> (forall i j, in_qlevel lv i j = true -> forall s, face_coef o s i j <= 0) ->
  on_boundary lv a_between ->
  (forall i j, in_qlevel lv i j = true -> matvec lv o m0 v0 x i j = matvec lv o m0 v0 y i j) ->
  forall i j, in_qlevel lv i j = true -> x i j = y i j.
Proof. exact unique_closed. Qed.
Print Assumptions C94_unique_solution.

Example C94_ex : inner two_patches ex_q (matvec two_patches ex_op ex_m0 (fun _ => 9) ex_q) = 7 /\ inner two_patches ex_q ex_q = 5.
Proof.
  unfold inner. change (level_cells two_patches) with [(0, 0); (1, 0); (2, 0)]%Z. rewrite !sum_over_cons.
  destruct ex_rows as (E0 & E1 & E2). rewrite E0, E1, E2. unfold ex_q. cbn. split; lra.
Qed.

(** C95: the residual of the symmetric system, times the square root of the mobility, is the residual of the implicit equation. *)
Theorem C95_residual : forall lv p gamma M Dx Dy fl rhs old z i j, good_level lv -> in_qpatch p i j = true ->
  (forall a b, 0 < M a b) ->
  let o := mk_qop gamma (sqrt_mobility M) (fun a b => - Dx a b) (fun a b => - Dy a b) in
  implicit_operator gamma (hx lv) (hy lv) M Dx Dy (multiplyMobilitySqrt o z) i j
  = rhs i j - sqrt (M i j) * q_residual (box_of lv p) o fl z (divideMobilitySqrt o rhs) old i j.
Proof. exact change_of_variables. Qed.
Print Assumptions C95_residual.

(** C95: an exact solver gives the solution of the implicit equation. *)
Theorem C95_solution : forall lv p gamma M Dx Dy fl rhs old fac_solver i j, good_level lv -> in_qpatch p i j = true ->
  (forall a b, 0 < M a b) ->
  let o := mk_qop gamma (sqrt_mobility M) (fun a b => - Dx a b) (fun a b => - Dy a b) in
  q_residual (box_of lv p) o fl (fac_solver (divideMobilitySqrt o rhs)) (divideMobilitySqrt o rhs) old i j = 0 ->
  implicit_operator gamma (hx lv) (hy lv) M Dx Dy (solve_system o fac_solver rhs) i j = rhs i j.
Proof. exact solve_system_solves. Qed.
Print Assumptions C95_solution.

(** mobility 4: the right hand side 2 i^2 - 16 has the solution q = 2 i^2 *)
Example C95_ex : forall fl old,
  let o := mk_qop 1 (sqrt_mobility (fun _ _ => 4)) (fun _ _ => Ropp 1) (fun _ _ => Ropp 1) in
  let rhs := fun i _ => 2 * IZR i * IZR i - 16 in
  q_residual (box_of two_patches (strip 1 2 false true)) o fl (fun i _ => IZR i * IZR i) (divideMobilitySqrt o rhs) old 1%Z 0%Z = 0 /\
  implicit_operator 1 1 1 (fun _ _ => 4) (fun _ _ => 1) (fun _ _ => 1) (solve_system o (fun _ i _ => IZR i * IZR i) rhs) 1%Z 0%Z = -14.
Proof.
  intros fl old o rhs.
  assert (S : sqrt 4 = 2) by (replace 4 with (2 * 2) by lra; apply sqrt_square; lra).
  assert (E : q_residual (box_of two_patches (strip 1 2 false true)) o fl (fun i _ => IZR i * IZR i) (divideMobilitySqrt o rhs) old 1%Z 0%Z = 0).
  { rewrite (residual_at two_patches) by (try exact two_patches_good; reflexivity).
    unfold sum_sides, nb, off0, face_coef, divideMobilitySqrt, rhs, o, sqrt_mobility. cbn [out0 out1 face0 face1 spacing two_patches hx hy gam sm fcx fcy].
    rewrite S. cbn. lra. }
  split; [exact E |].
  pose proof (C95_solution two_patches (strip 1 2 false true) 1 (fun _ _ => 4) (fun _ _ => 1) (fun _ _ => 1) fl rhs old (fun _ i _ => IZR i * IZR i) 1%Z 0%Z two_patches_good eq_refl) as C.
  cbn zeta in C. change (hx two_patches) with 1 in C. change (hy two_patches) with 1 in C. refine (eq_trans (C _ E) _); [intros; lra | unfold rhs; lra].
Qed.

(** C96: solver types 0 and 1 solve every component and report convergence exactly when all of them converged. *)
Theorem C96_components_partial : forall t tol rs, t = 0%Z \/ t = 1%Z -> 0 <= tol ->
  exists r ok, level_solve t tol rs = Some (map (fun _ => true) rs, r, ok) /\ (ok = true <-> Forall (fun x => x <= tol) rs).
Proof. exact all_components. Qed.
Print Assumptions C96_components_partial.

(** C96: types 2 and 3 solve the first component only and report success. *)
Theorem C96_amg_refuted : exists rs tol b r, 0 < tol /\ level_solve 2 tol rs = Some (b, r, true) /\ level_solve 3 tol rs = Some (b, r, true) /\
  b <> map (fun _ => true) rs /\ ~ Forall (fun x => x <= tol) rs.
Proof. exact first_only. Qed.
Print Assumptions C96_amg_refuted.

Example C96_ex : exists r ok, level_solve 0%Z (1 / 2) [0; 1] = Some ([true; true], r, ok) /\ ok = false.
Proof.
  destruct (C96_components_partial 0%Z (1 / 2) [0; 1] (or_introl eq_refl)) as (r & ok & E & K); [lra |].
  exists r, ok. split; [exact E |]. destruct ok; [| reflexivity]. exfalso. pose proof (proj1 K eq_refl) as F.
  inversion F as [| ? ? _ F']. inversion F'. lra.
Qed.
