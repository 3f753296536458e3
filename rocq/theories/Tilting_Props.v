(** C42: three-phase tilting functions. *)
From Coq Require Import Reals Lra.
From Verif Require Import Tilting_Model Tilting_Spec Tilting_Proofs.
Open Scope R_scope.

(** C42: both families: the three functions are in [0,1] and add up to one. *)
Theorem C42_partition : forall T p0 p1 p2, on_simplex p0 p1 p2 ->
  0 <= g0 T p0 p1 p2 <= 1 /\ g0 T p0 p1 p2 + g0 T p1 p0 p2 + g0 T p2 p0 p1 = 1.
Proof. exact (fun T p0 p1 p2 H => conj (tilt_range T p0 p1 p2 H) (tilt_sum T p0 p1 p2 H)). Qed.
Print Assumptions C42_partition.

(** C42: one in the pure phase, zero where the phase is absent, symmetric in the other two. *)
Theorem C42_pure : forall T p0 p1 p2, g0 T 1 0 0 = 1 /\ g0 T 0 p1 p2 = 0 /\ g0 T p0 p1 p2 = g0 T p0 p2 p1.
Proof. exact (fun T p0 p1 p2 => conj (proj1 (tilt_pure T p1 p2)) (conj (proj2 (tilt_pure T p1 p2)) (tilt_swap T p0 p1 p2))). Qed.
Print Assumptions C42_pure.

(** C42: the derivative routines give the gradient along the plane of constant sum, up to and including the edges and corners of the simplex. *)
Theorem C42_derivatives : forall T p0 p1 p2, on_simplex p0 p1 p2 ->
  constrained_gradient (g0 T) p0 p1 p2 (dg0dp0 T p0 p1 p2) (dg0dp1 T p0 p1 p2) (dg0dp1 T p0 p2 p1).
Proof. exact tilt_gradient. Qed.
Print Assumptions C42_derivatives.

(** C42: so does the triple well, for all values. *)
Theorem C42_triple_well : forall p0 p1 p2, constrained_gradient triple_well p0 p1 p2
  (deriv_triple_well_func p0 p1 p2) (deriv_triple_well_func p1 p2 p0) (deriv_triple_well_func p2 p0 p1).
Proof. exact well_gradient. Qed.
Print Assumptions C42_triple_well.

(** C42: this determines the three values. *)
Theorem C42_gradient_unique : forall F p0 p1 p2 a0 a1 a2 b0 b1 b2,
  constrained_gradient F p0 p1 p2 a0 a1 a2 -> constrained_gradient F p0 p1 p2 b0 b1 b2 -> a0 = b0 /\ a1 = b1 /\ a2 = b2.
Proof. exact gradient_unique. Qed.
Print Assumptions C42_gradient_unique.

(** C42: overshoots of a phase fraction give no driving force. *)
Theorem C42_outside : forall p0 p1 p2,
  (p0 < 0 -> forall T, g0 T p0 p1 p2 = 0 /\ dg0dp0 T p0 p1 p2 = 0 /\ dg0dp1 T p0 p1 p2 = 0) /\
  (1 < p0 -> g0 FolchPlapp p0 p1 p2 = 1 /\ dg0dp0 FolchPlapp p0 p1 p2 = 0 /\ dg0dp1 FolchPlapp p0 p1 p2 = 0) /\
  (p1 < 0 \/ 1 < p1 -> dg0dp1 FolchPlapp p0 p1 p2 = 0).
Proof. exact tilt_outside. Qed.
Print Assumptions C42_outside.

Example C42_ex : (* two phases at equal parts: weights 1/2; the derivative of the Folch-Plapp weight there is 15/16 *)
  on_simplex (1 / 2) (1 / 2) 0 /\ g0 FolchPlapp (1 / 2) (1 / 2) 0 = 1 / 2 /\ dg0dp0 FolchPlapp (1 / 2) (1 / 2) 0 = 15 / 16 /\
  dg0dp1 FolchPlapp (1 / 2) 0 (1 / 2) = 0 /\ g0 Moelans (1 / 2) (1 / 4) (1 / 4) = 2 / 3.
Proof.
  split; [unfold on_simplex; lra |]. cbn [g0 dg0dp0 dg0dp1]. split; [rewrite fp_value; lra |]. split; [rewrite fp_d0; lra |].
  split; [rewrite fp_d1, fp_d0; lra | rewrite mo_value; [field | lra]].
Qed.
