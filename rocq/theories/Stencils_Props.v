(** C27: the composition flux schemes are consistent with D grad c.
    C44: the moving-frame term is velocity times slope. *)
From Coq Require Import Reals ZArith List Lra Lia.
From Coquelicot Require Import Coquelicot.
From Verif Require Import Grid_Model Grid_Spec Grid_Proofs Stencils_Model Stencils_Spec Stencils_Proofs.
Import ListNotations.
Open Scope R_scope.

(** C27: second-order scheme, x-faces: exact D grad c, all species coupled, for profiles up to quadratic (point values or cell averages). *)
Theorem C27_second_order_x : forall if0 il0 if1 il1 n dx0 dx1 conc d0 d1 flux i j p u s, dx0 <> 0 ->
  in_box if0 (il0 + 1) if1 il1 i j -> (1 <= p <= n)%Z ->
  (forall m, (1 <= m <= n)%Z -> line_data 2 dx0 (i - 1) i i (u m) (fun k => conc k j m) (s m)) ->
  fst (add_flux if0 il0 if1 il1 n dx0 dx1 conc d0 d1 flux) i j p =
  fst flux i j p + fick n (fun m => d0 i j (p + (m - 1) * n)%Z) s.
Proof. exact flux_exact_x. Qed.
Print Assumptions C27_second_order_x.

(** C27: the same for y-faces. *)
Theorem C27_second_order_y : forall if0 il0 if1 il1 n dx0 dx1 conc d0 d1 flux i j p u s, dx1 <> 0 ->
  in_box if0 il0 if1 (il1 + 1) i j -> (1 <= p <= n)%Z ->
  (forall m, (1 <= m <= n)%Z -> line_data 2 dx1 (j - 1) j j (u m) (fun k => conc i k m) (s m)) ->
  snd (add_flux if0 il0 if1 il1 n dx0 dx1 conc d0 d1 flux) i j p =
  snd flux i j p + fick n (fun m => d1 i j (p + (m - 1) * n)%Z) s.
Proof. exact flux_exact_y. Qed.
Print Assumptions C27_second_order_y.

(** C27: isotropic scheme: the exact flux averaged over three rows. *)
Theorem C27_isotropic_x : forall if0 il0 if1 il1 n dx0 dx1 conc d0 d1 flux i j p u s, dx0 <> 0 ->
  in_box if0 (il0 + 1) if1 il1 i j -> (1 <= p <= n)%Z ->
  (forall m e, (1 <= m <= n)%Z -> (j - 1 <= e <= j + 1)%Z -> line_data 2 dx0 (i - 1) i i (u m e) (fun k => conc k e m) (s m e)) ->
  fst (add_flux_iso if0 il0 if1 il1 n dx0 dx1 conc d0 d1 flux) i j p =
  fst flux i j p + row_average (fun e => fick n (fun m => d0 i e (p + (m - 1) * n)%Z) (fun m => s m e)) j.
Proof. exact iso_exact_x. Qed.
Print Assumptions C27_isotropic_x.

(** C27: isotropic scheme, y-faces. *)
Theorem C27_isotropic_y : forall if0 il0 if1 il1 n dx0 dx1 conc d0 d1 flux i j p u s, dx1 <> 0 ->
  in_box if0 il0 if1 (il1 + 1) i j -> (1 <= p <= n)%Z ->
  (forall m e, (1 <= m <= n)%Z -> (i - 1 <= e <= i + 1)%Z -> line_data 2 dx1 (j - 1) j j (u m e) (fun k => conc e k m) (s m e)) ->
  snd (add_flux_iso if0 il0 if1 il1 n dx0 dx1 conc d0 d1 flux) i j p =
  snd flux i j p + row_average (fun e => fick n (fun m => d1 e j (p + (m - 1) * n)%Z) (fun m => s m e)) i.
Proof. exact iso_exact_y. Qed.
Print Assumptions C27_isotropic_y.

(** C27: isotropic scheme in 3D: the exact flux averaged over a cross of five faces. *)
Theorem C27_isotropic3_x : forall if0 il0 if1 il1 if2 il2 n dx0 dx1 dx2 conc d0 d1 d2 flux i j k p u s, dx0 <> 0 ->
  in_box3 if0 (il0 + 1) if1 il1 if2 il2 i j k -> (1 <= p <= n)%Z ->
  (forall m y z, (1 <= m <= n)%Z -> in_cross j k y z -> line_data 2 dx0 (i - 1) i i (u m y z) (fun l => conc l y z m) (s m y z)) ->
  fst (fst (add_flux_iso3 if0 il0 if1 il1 if2 il2 n dx0 dx1 dx2 conc d0 d1 d2 flux)) i j k p =
  fst (fst flux) i j k p + cross_average (fun y z => fick n (fun m => d0 i y z (p + (m - 1) * n)%Z) (fun m => s m y z)) j k.
Proof. exact iso3_exact_x. Qed.
Print Assumptions C27_isotropic3_x.

(** C27: 3D, y-faces. *)
Theorem C27_isotropic3_y : forall if0 il0 if1 il1 if2 il2 n dx0 dx1 dx2 conc d0 d1 d2 flux i j k p u s, dx1 <> 0 ->
  in_box3 if0 il0 if1 (il1 + 1) if2 il2 i j k -> (1 <= p <= n)%Z ->
  (forall m x z, (1 <= m <= n)%Z -> in_cross i k x z -> line_data 2 dx1 (j - 1) j j (u m x z) (fun l => conc x l z m) (s m x z)) ->
  snd (fst (add_flux_iso3 if0 il0 if1 il1 if2 il2 n dx0 dx1 dx2 conc d0 d1 d2 flux)) i j k p =
  snd (fst flux) i j k p + cross_average (fun x z => fick n (fun m => d1 x j z (p + (m - 1) * n)%Z) (fun m => s m x z)) i k.
Proof. exact iso3_exact_y. Qed.
Print Assumptions C27_isotropic3_y.

(** C27: 3D, z-faces. *)
Theorem C27_isotropic3_z : forall if0 il0 if1 il1 if2 il2 n dx0 dx1 dx2 conc d0 d1 d2 flux i j k p u s, dx2 <> 0 ->
  in_box3 if0 il0 if1 il1 if2 (il2 + 1) i j k -> (1 <= p <= n)%Z ->
  (forall m x y, (1 <= m <= n)%Z -> in_cross i j x y -> line_data 2 dx2 (k - 1) k k (u m x y) (fun l => conc x y l m) (s m x y)) ->
  snd (add_flux_iso3 if0 il0 if1 il1 if2 il2 n dx0 dx1 dx2 conc d0 d1 d2 flux) i j k p =
  snd flux i j k p + cross_average (fun x y => fick n (fun m => d2 x y k (p + (m - 1) * n)%Z) (fun m => s m x y)) i j.
Proof. exact iso3_exact_z. Qed.
Print Assumptions C27_isotropic3_z.

(** C27: fourth-order scheme away from physical boundaries: exact for cell averages of quartics. *)
Theorem C27_fourth_order_x : forall if0 il0 if1 il1 n dx0 dx1 conc d0 d1 physb flux i j p u s, dx0 <> 0 -> (if0 <= il0)%Z ->
  in_box if0 (il0 + 1) if1 il1 i j -> (1 <= p <= n)%Z -> (i = if0 -> physb 1%Z <> 1%Z) -> (i = il0 + 1 -> physb 2 <> 1)%Z ->
  (forall m, (1 <= m <= n)%Z -> line_averages 4 dx0 (i - 2) (i + 1) i (u m) (fun k => conc k j m) (s m)) ->
  fst (add_flux_4th if0 il0 if1 il1 n dx0 dx1 conc d0 d1 physb flux) i j p =
  fst flux i j p + fick n (fun m => d0 i j (p + (m - 1) * n)%Z) s.
Proof. exact fourth_exact_x. Qed.
Print Assumptions C27_fourth_order_x.

(** C27: fourth-order scheme, y-faces. *)
Theorem C27_fourth_order_y : forall if0 il0 if1 il1 n dx0 dx1 conc d0 d1 physb flux i j p u s, dx1 <> 0 -> (if1 <= il1)%Z ->
  in_box if0 il0 if1 (il1 + 1) i j -> (1 <= p <= n)%Z -> (j = if1 -> physb 3%Z <> 1%Z) -> (j = il1 + 1 -> physb 4 <> 1)%Z ->
  (forall m, (1 <= m <= n)%Z -> line_averages 4 dx1 (j - 2) (j + 1) j (u m) (fun k => conc i k m) (s m)) ->
  snd (add_flux_4th if0 il0 if1 il1 n dx0 dx1 conc d0 d1 physb flux) i j p =
  snd flux i j p + fick n (fun m => d1 i j (p + (m - 1) * n)%Z) s.
Proof. exact fourth_exact_y. Qed.
Print Assumptions C27_fourth_order_y.

(** C27: fourth-order scheme on physical boundary faces: second order, from the two adjacent cells. *)
Theorem C27_fourth_boundary_x : forall if0 il0 if1 il1 n dx0 dx1 conc d0 d1 physb flux i j p u s, dx0 <> 0 -> (if0 <= il0)%Z ->
  (if1 <= j <= il1)%Z -> (1 <= p <= n)%Z -> (i = if0 /\ physb 1 = 1 \/ i = il0 + 1 /\ physb 2 = 1)%Z ->
  (forall m, (1 <= m <= n)%Z -> line_data 2 dx0 (i - 1) i i (u m) (fun k => conc k j m) (s m)) ->
  fst (add_flux_4th if0 il0 if1 il1 n dx0 dx1 conc d0 d1 physb flux) i j p =
  fst flux i j p + fick n (fun m => d0 i j (p + (m - 1) * n)%Z) s.
Proof. exact fourth_bdry_x. Qed.
Print Assumptions C27_fourth_boundary_x.

(** C27: fourth-order scheme, boundary y-faces. *)
Theorem C27_fourth_boundary_y : forall if0 il0 if1 il1 n dx0 dx1 conc d0 d1 physb flux i j p u s, dx1 <> 0 -> (if1 <= il1)%Z ->
  (if0 <= i <= il0)%Z -> (1 <= p <= n)%Z -> (j = if1 /\ physb 3 = 1 \/ j = il1 + 1 /\ physb 4 = 1)%Z ->
  (forall m, (1 <= m <= n)%Z -> line_data 2 dx1 (j - 1) j j (u m) (fun k => conc i k m) (s m)) ->
  snd (add_flux_4th if0 il0 if1 il1 n dx0 dx1 conc d0 d1 physb flux) i j p =
  snd flux i j p + fick n (fun m => d1 i j (p + (m - 1) * n)%Z) s.
Proof. exact fourth_bdry_y. Qed.
Print Assumptions C27_fourth_boundary_y.

(** C27: whatever the scheme, nothing outside the faces of the patch and the components 1..n is touched. *)
Theorem C27_only_patch_faces : forall t if0 il0 if1 il1 n dx0 dx1 physb conc d0 d1 flux i j p, (if0 <= il0)%Z -> (if1 <= il1)%Z ->
  (~ (in_box if0 (il0 + 1) if1 il1 i j /\ (1 <= p <= n)%Z) ->
   fst (d_add_flux t if0 il0 if1 il1 n dx0 dx1 physb conc d0 d1 flux) i j p = fst flux i j p) /\
  (~ (in_box if0 il0 if1 (il1 + 1) i j /\ (1 <= p <= n)%Z) ->
   snd (d_add_flux t if0 il0 if1 il1 n dx0 dx1 physb conc d0 d1 flux) i j p = snd flux i j p).
Proof. exact flux_only. Qed.
Print Assumptions C27_only_patch_faces.

(** C27: the flux of the composition equation, whatever the scheme and the earlier content of the flux array, is the sum over the phases of D grad c (x-faces). *)
Theorem C27_composition_flux_x : forall t if0 il0 if1 il1 n dx0 dx1 touches l a b flux i j p ul ua ub sl sa sb, dx0 <> 0 -> (if0 <= il0)%Z ->
  in_box if0 (il0 + 1) if1 il1 i j -> (1 <= p <= n)%Z ->
  uniform_x n p i j 2 dx0 (fst (fst l)) (snd (fst l)) ul sl -> uniform_x n p i j 2 dx0 (fst (fst a)) (snd (fst a)) ua sa ->
  (forall ph, b = Some ph -> uniform_x n p i j 2 dx0 (fst (fst ph)) (snd (fst ph)) ub sb) ->
  fst (ebs_flux t if0 il0 if1 il1 n dx0 dx1 touches l a b flux) i j p =
  fick n (fun m => snd (fst l) i j (p + (m - 1) * n)%Z) sl + fick n (fun m => snd (fst a) i j (p + (m - 1) * n)%Z) sa +
  match b with Some ph => fick n (fun m => snd (fst ph) i j (p + (m - 1) * n)%Z) sb | None => 0 end.
Proof. exact ebs_exact_x. Qed.
Print Assumptions C27_composition_flux_x.

(** C27: composition flux, y-faces. *)
Theorem C27_composition_flux_y : forall t if0 il0 if1 il1 n dx0 dx1 touches l a b flux i j p ul ua ub sl sa sb, dx1 <> 0 -> (if1 <= il1)%Z ->
  in_box if0 il0 if1 (il1 + 1) i j -> (1 <= p <= n)%Z ->
  uniform_y n p i j 2 dx1 (fst (fst l)) (snd l) ul sl -> uniform_y n p i j 2 dx1 (fst (fst a)) (snd a) ua sa ->
  (forall ph, b = Some ph -> uniform_y n p i j 2 dx1 (fst (fst ph)) (snd ph) ub sb) ->
  snd (ebs_flux t if0 il0 if1 il1 n dx0 dx1 touches l a b flux) i j p =
  fick n (fun m => snd l i j (p + (m - 1) * n)%Z) sl + fick n (fun m => snd a i j (p + (m - 1) * n)%Z) sa +
  match b with Some ph => fick n (fun m => snd ph i j (p + (m - 1) * n)%Z) sb | None => 0 end.
Proof. exact ebs_exact_y. Qed.
Print Assumptions C27_composition_flux_y.

(** C27: with the fourth-order scheme it is exact for quartics on faces that are not on a side touching the boundary. *)
Theorem C27_composition_flux_fourth_x : forall if0 il0 if1 il1 n dx0 dx1 (touches : Z -> Z -> bool) l a b flux i j p ul ua ub sl sa sb, dx0 <> 0 -> (if0 <= il0)%Z ->
  in_box if0 (il0 + 1) if1 il1 i j -> (1 <= p <= n)%Z -> (i = if0 -> touches 0%Z 0%Z = false) -> (i = (il0 + 1)%Z -> touches 0%Z 1%Z = false) ->
  along_x n i j 4 dx0 (fst (fst l)) ul sl -> along_x n i j 4 dx0 (fst (fst a)) ua sa ->
  (forall ph, b = Some ph -> along_x n i j 4 dx0 (fst (fst ph)) ub sb) ->
  fst (ebs_flux FluxFourth if0 il0 if1 il1 n dx0 dx1 touches l a b flux) i j p =
  fick n (fun m => snd (fst l) i j (p + (m - 1) * n)%Z) sl + fick n (fun m => snd (fst a) i j (p + (m - 1) * n)%Z) sa +
  match b with Some ph => fick n (fun m => snd (fst ph) i j (p + (m - 1) * n)%Z) sb | None => 0 end.
Proof. exact ebs_fourth_x. Qed.
Print Assumptions C27_composition_flux_fourth_x.

(** C27: the same for y-faces. *)
Theorem C27_composition_flux_fourth_y : forall if0 il0 if1 il1 n dx0 dx1 (touches : Z -> Z -> bool) l a b flux i j p ul ua ub sl sa sb, dx1 <> 0 -> (if1 <= il1)%Z ->
  in_box if0 il0 if1 (il1 + 1) i j -> (1 <= p <= n)%Z -> (j = if1 -> touches 1%Z 0%Z = false) -> (j = (il1 + 1)%Z -> touches 1%Z 1%Z = false) ->
  along_y n i j 4 dx1 (fst (fst l)) ul sl -> along_y n i j 4 dx1 (fst (fst a)) ua sa ->
  (forall ph, b = Some ph -> along_y n i j 4 dx1 (fst (fst ph)) ub sb) ->
  snd (ebs_flux FluxFourth if0 il0 if1 il1 n dx0 dx1 touches l a b flux) i j p =
  fick n (fun m => snd l i j (p + (m - 1) * n)%Z) sl + fick n (fun m => snd a i j (p + (m - 1) * n)%Z) sa +
  match b with Some ph => fick n (fun m => snd ph i j (p + (m - 1) * n)%Z) sb | None => 0 end.
Proof. exact ebs_fourth_y. Qed.
Print Assumptions C27_composition_flux_fourth_y.

(** C27: on a side touching the boundary only the two adjacent cells are read. *)
Theorem C27_composition_flux_boundary_x : forall if0 il0 if1 il1 n dx0 dx1 (touches : Z -> Z -> bool) l a b l' a' b' flux i j p, (if0 <= il0)%Z ->
  (i = if0 /\ touches 0%Z 0%Z = true \/ i = (il0 + 1)%Z /\ touches 0%Z 1%Z = true) ->
  let agrees (ph ph' : arr3 * arr3 * arr3) := snd (fst ph) = snd (fst ph') /\ forall k m, (i - 1 <= k <= i)%Z -> fst (fst ph) k j m = fst (fst ph') k j m in
  agrees l l' -> agrees a a' -> agrees b b' ->
  fst (ebs_flux FluxFourth if0 il0 if1 il1 n dx0 dx1 touches l a (Some b) flux) i j p =
  fst (ebs_flux FluxFourth if0 il0 if1 il1 n dx0 dx1 touches l' a' (Some b') flux) i j p.
Proof. exact ebs_bdry_x. Qed.
Print Assumptions C27_composition_flux_boundary_x.

(** C27: the same for y-faces. *)
Theorem C27_composition_flux_boundary_y : forall if0 il0 if1 il1 n dx0 dx1 (touches : Z -> Z -> bool) l a b l' a' b' flux i j p, (if1 <= il1)%Z ->
  (j = if1 /\ touches 1%Z 0%Z = true \/ j = (il1 + 1)%Z /\ touches 1%Z 1%Z = true) ->
  let agrees (ph ph' : arr3 * arr3 * arr3) := snd ph = snd ph' /\ forall k m, (j - 1 <= k <= j)%Z -> fst (fst ph) i k m = fst (fst ph') i k m in
  agrees l l' -> agrees a a' -> agrees b b' ->
  snd (ebs_flux FluxFourth if0 il0 if1 il1 n dx0 dx1 touches l a (Some b) flux) i j p =
  snd (ebs_flux FluxFourth if0 il0 if1 il1 n dx0 dx1 touches l' a' (Some b') flux) i j p.
Proof. exact ebs_bdry_y. Qed.
Print Assumptions C27_composition_flux_boundary_y.

(** C27: the Laplacian is exact up to cubics and leaves other cells alone. *)
Theorem C27_laplacian : forall if0 il0 if1 il1 dx0 dx1 coeff field rhs i j a0 a1 a2 a3 b1 b2 b3 r, dx0 <> 0 -> dx1 <> 0 ->
  in_box if0 il0 if1 il1 i j ->
  (forall k l, in_cross i j k l -> field k l = poly [a0; a1; a2; a3] (centre dx0 k) + poly [0; b1; b2; b3] (centre dx1 l) + r * centre dx0 k * centre dx1 l) ->
  laplacian if0 il0 if1 il1 dx0 dx1 coeff field rhs i j =
  coeff * ((2 * a2 + 6 * a3 * centre dx0 i) + (2 * b2 + 6 * b3 * centre dx1 j)).
Proof. exact laplacian_exact. Qed.
Print Assumptions C27_laplacian.

(** C27: the Laplacian leaves other cells alone. *)
Theorem C27_laplacian_only : forall if0 il0 if1 il1 dx0 dx1 coeff field rhs i j, ~ in_box if0 il0 if1 il1 i j ->
  laplacian if0 il0 if1 il1 dx0 dx1 coeff field rhs i j = rhs i j.
Proof. exact laplacian_other. Qed.
Print Assumptions C27_laplacian_only.

Example C27_ex : (* c = x^4 in cell averages on a unit mesh, face 3: the fourth-order flux is 2*4*27, the second-order one is not *)
  let c := fun i j m : Z => ((IZR i + 1) ^ 5 - IZR i ^ 5) / 5 in
  let d := fun i j m : Z => 2 in
  fst (add_flux_4th 0 7 0 0 1 1 1 c d d (fun _ => 0%Z) (fun _ _ _ => 5, fun _ _ _ => 0)) 3%Z 0%Z 1%Z = 5 + 2 * (4 * 27) /\
  fst (add_flux 0 7 0 0 1 1 1 c d d (fun _ _ _ => 5, fun _ _ _ => 0)) 3%Z 0%Z 1%Z = 5 + 2 * (4 * 27 + 6) /\
  (exists U, (forall x, derivable_pt_lim U x (poly [0; 0; 0; 0; 1] x)) /\
    forall k, c k 0%Z 1%Z = (U (face 1 (k + 1)) - U (face 1 k)) / 1).
Proof.
  cbv zeta. repeat apply conj.
  - rewrite add_flux_4th_x by lia. unfold gain, inb, mixed, on_side. cbn [Z.leb Z.compare Pos.compare Pos.compare_cont andb orb Z.eqb Pos.eqb Z.add Pos.add Pos.succ].
    rewrite !sumZ_cons, !sumZ_empty by lia. cbn [fst]. replace (3 - 1)%Z with 2%Z by lia. replace (3 - 2)%Z with 1%Z by lia. lra.
  - rewrite add_flux_x. unfold gain, inb. cbn [Z.leb Z.compare Pos.compare Pos.compare_cont andb orb Z.eqb Pos.eqb Z.add Pos.add Pos.succ].
    rewrite !sumZ_cons, !sumZ_empty by lia. cbn [fst]. replace (3 - 1)%Z with 2%Z by lia. lra.
  - exists (fun x => x ^ 5 / 5). split.
    + intro x. apply is_derive_Reals. evar_last; [auto_derive; [exact I | reflexivity] |]. cbn. field.
    + intro k. unfold face. rewrite plus_IZR. field.
Qed.

Example C27_boundary_ex : (* the same data on a side that touches the boundary: second order *)
  let c := fun i j m : Z => ((IZR i + 1) ^ 5 - IZR i ^ 5) / 5 in
  let d := fun i j m : Z => 2 in
  fst (add_flux_4th 3 7 0 0 1 1 1 c d d (fun _ => 1%Z) (fun _ _ _ => 5, fun _ _ _ => 0)) 3%Z 0%Z 1%Z = 5 + 2 * (4 * 27 + 6).
Proof.
  cbv zeta. rewrite add_flux_4th_x by lia. unfold gain, inb, mixed, on_side. cbn [Z.leb Z.compare Pos.compare Pos.compare_cont andb orb Z.eqb Pos.eqb Z.add Pos.add Pos.succ].
  rewrite !sumZ_cons, !sumZ_empty by lia. cbn [fst]. replace (3 - 1)%Z with 2%Z by lia. lra.
Qed.

(** C44: centred stencil, every field component: velocity*slope for profiles up to quadratic. *)
Theorem C44_centred : forall if0 il0 if1 il1 dx1 vel right nfield data rhs f i j u s, dx1 <> 0 -> (0 <= f < nfield)%Z ->
  in_box if0 il0 if1 il1 i j -> degree_le 2 u -> holds_values dx1 (poly u) (i - 1) (i + 1) (fun k => data f k j) ->
  derivable_pt_lim (poly u) (centre dx1 i) s ->
  advect_fields false if0 il0 if1 il1 dx1 vel right nfield data rhs f i j = rhs f i j + vel * s.
Proof. exact advect_centred. Qed.
Print Assumptions C44_centred.

(** C44: upwind stencil: velocity*slope for profiles up to cubic, away from a right physical boundary. *)
Theorem C44_upwind : forall if0 il0 if1 il1 dx1 vel (right : bool) nfield data rhs f i j u s, dx1 <> 0 -> (0 <= f < nfield)%Z ->
  in_box if0 il0 if1 il1 i j -> (i = il0 -> right = false) -> degree_le 3 u ->
  holds_values dx1 (poly u) (i - 1) (i + 2) (fun k => data f k j) -> derivable_pt_lim (poly u) (centre dx1 i) s ->
  advect_fields true if0 il0 if1 il1 dx1 vel right nfield data rhs f i j = rhs f i j + vel * s.
Proof. exact advect_upwind. Qed.
Print Assumptions C44_upwind.

(** C44: upwind stencil in the last column at a right physical boundary: exact up to quadratic, one ghost cell. *)
Theorem C44_upwind_boundary : forall if0 il0 if1 il1 dx1 vel nfield data rhs f j u s, dx1 <> 0 -> (0 <= f < nfield)%Z ->
  in_box if0 il0 if1 il1 il0 j -> degree_le 2 u ->
  holds_values dx1 (poly u) (il0 - 1) (il0 + 1) (fun k => data f k j) -> derivable_pt_lim (poly u) (centre dx1 il0) s ->
  advect_fields true if0 il0 if1 il1 dx1 vel true nfield data rhs f il0 j = rhs f il0 j + vel * s.
Proof. exact advect_upwind_bdry. Qed.
Print Assumptions C44_upwind_boundary.

(** C44: cells outside the patch and other arrays are not touched. *)
Theorem C44_only_patch : forall upwind if0 il0 if1 il1 dx1 vel right nfield data rhs f i j, (if0 <= il0)%Z ->
  ~ ((0 <= f < nfield)%Z /\ in_box if0 il0 if1 il1 i j) ->
  advect_fields upwind if0 il0 if1 il1 dx1 vel right nfield data rhs f i j = rhs f i j.
Proof. exact advect_only. Qed.
Print Assumptions C44_only_patch.

(** C44: a frame at rest changes nothing. *)
Theorem C44_at_rest : forall upwind if0 il0 if1 il1 dx1 right nfield data rhs f i j, (if0 <= il0)%Z ->
  advect_fields upwind if0 il0 if1 il1 dx1 0 right nfield data rhs f i j = rhs f i j.
Proof. exact advect_rest. Qed.
Print Assumptions C44_at_rest.

Example C44_ex : (* phi = x^3 at half-integer points, cell 0: slope 3/4; the centred rule gives 3/4 + 1 *)
  let phi := fun (f : Z) (i j : Z) => (IZR i + 1 / 2) ^ 3 in
  advect_fields true 0 3 0 0 1 2 true 1 phi (fun _ _ _ => 7) 0%Z 0%Z 0%Z = 7 + 2 * (3 / 4) /\
  advect_fields false 0 3 0 0 1 2 true 1 phi (fun _ _ _ => 7) 0%Z 0%Z 0%Z = 7 + 2 * (3 / 4 + 1).
Proof.
  cbv zeta. split; unfold advect_fields.
  - rewrite (fields_loop 1 (fun f r => addvdphidx_upwind3 0 3 0 0 1 ((fun (f : Z) (i j : Z) => (IZR i + 1 / 2) ^ 3) f) 2 r 1%Z)).
    unfold inb at 1. cbn [Z.leb Z.compare andb Z.sub Z.add Z.opp Z.pos_sub Pos.compare].
    rewrite adv3_value by lia. unfold inb. cbn [Z.leb Z.compare Pos.compare Pos.compare_cont andb Z.eqb Pos.eqb Z.sub Z.add Z.opp Z.pos_sub]. lra.
  - rewrite (fields_loop 1 (fun f r => addvdphidx 0 3 0 0 1 ((fun (f : Z) (i j : Z) => (IZR i + 1 / 2) ^ 3) f) 2 r)).
    unfold inb at 1. cbn [Z.leb Z.compare andb Z.sub Z.add Z.opp Z.pos_sub Pos.compare].
    rewrite adv2_value. unfold inb. cbn [Z.leb Z.compare Pos.compare Pos.compare_cont andb Z.eqb Pos.eqb Z.sub Z.add Z.opp Z.pos_sub]. lra.
Qed.
