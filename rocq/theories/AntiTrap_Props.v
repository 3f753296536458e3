(** C56: anti-trapping fluxes, source/fortran/2d/concentrationrhs.m4. *)
From Coq Require Import Reals ZArith List Lra Lia.
From Verif Require Import Grid_Model Grid_Spec Grid_Proofs AntiTrap_Model AntiTrap_Spec AntiTrap_Proofs.
Open Scope R_scope.

(** C56: the correction is never larger than alpha*|cl-ca|*|rate|, on every face and for every component. *)
Theorem C56_bounded : forall lo0 hi0 lo1 hi1 dx0 dx1 phase cl ca ncomp dphidt alpha flux a b c,
  let flux' := antitrapping lo0 hi0 lo1 hi1 dx0 dx1 phase cl ca ncomp dphidt alpha flux in
  Rabs (fst flux' a b c - fst flux a b c) <=
    Rabs alpha * Rabs (mean (cl (a - 1)%Z b c) (cl a b c) - mean (ca (a - 1)%Z b c) (ca a b c)) * Rabs (mean (dphidt (a - 1)%Z b) (dphidt a b)) /\
  Rabs (snd flux' a b c - snd flux a b c) <=
    Rabs alpha * Rabs (mean (cl a (b - 1)%Z c) (cl a b c) - mean (ca a (b - 1)%Z c) (ca a b c)) * Rabs (mean (dphidt a (b - 1)%Z) (dphidt a b)).
Proof. exact two_bounded. Qed.
Print Assumptions C56_bounded.

(** C56: solid growing into a richer liquid pushes the flux along the solid gradient. *)
Theorem C56_direction : forall lo0 hi0 lo1 hi1 dx0 dx1 phase cl ca ncomp dphidt alpha flux a b c,
  0 < dx0 -> 0 < alpha -> in_box lo0 (hi0 + 1) lo1 hi1 a b -> (1 <= c <= ncomp)%Z ->
  mean (ca (a - 1)%Z b c) (ca a b c) < mean (cl (a - 1)%Z b c) (cl a b c) ->
  0 < mean (dphidt (a - 1)%Z b) (dphidt a b) -> at_tol * dx0 < phase a b - phase (a - 1)%Z b ->
  fst flux a b c < fst (antitrapping lo0 hi0 lo1 hi1 dx0 dx1 phase cl ca ncomp dphidt alpha flux) a b c.
Proof. exact two_direction. Qed.
Print Assumptions C56_direction.

(** C56: an interface at rest gets no correction from any of the three kernels. *)
Theorem C56_stationary : forall lo0 hi0 lo1 hi1 dx0 dx1 alpha,
  (forall phase cl ca ncomp flux a b c,
     let f := antitrapping lo0 hi0 lo1 hi1 dx0 dx1 phase cl ca ncomp (fun _ _ => 0) alpha flux in
     fst f a b c = fst flux a b c /\ snd f a b c = snd flux a b c) /\
  (forall phase cl ca cb flux a b,
     let f := antitrapping3 lo0 hi0 lo1 hi1 dx0 dx1 phase cl ca cb (fun _ _ _ => 0) alpha flux in
     fst f a b = fst flux a b /\ snd f a b = snd flux a b) /\
  (forall phase n cl ca flux a b,
     let f := antitrapping_multi lo0 hi0 lo1 hi1 dx0 dx1 phase n cl ca (fun _ _ _ => 0) alpha flux in
     fst f a b = fst flux a b /\ snd f a b = snd flux a b).
Proof. exact stationary_no_flux. Qed.
Print Assumptions C56_stationary.

(** C56: any number of grains: the multi-order kernel equals the two-phase kernel for the solid fraction. *)
Theorem C56_multiorder_matches_two_phase : forall lo0 hi0 lo1 hi1 dx0 dx1 phase n cl ca dphidt alpha flux a b,
  (forall i j, phase i j n = 1 - total (n - 1) phase i j) ->
  let two := antitrapping lo0 hi0 lo1 hi1 dx0 dx1 (total (n - 1) phase) (as_comp cl) (as_comp ca) 1 (total (n - 1) dphidt) alpha
      (as_comp (fst flux), as_comp (snd flux)) in
  let multi := antitrapping_multi lo0 hi0 lo1 hi1 dx0 dx1 phase n cl ca dphidt alpha flux in
  fst multi a b = fst two a b 1%Z /\ snd multi a b = snd two a b 1%Z.
Proof. exact multi_is_two. Qed.
Print Assumptions C56_multiorder_matches_two_phase.

(** C56: with the third phase absent the three-phase kernel adds exactly the opposite of the two-phase correction. *)
Theorem C56_three_phase_reduces_refuted : forall lo0 hi0 lo1 hi1 dx0 dx1 phase cl ca cb dphidt alpha flux a b,
  (forall i j, phase i j 3%Z = 0) -> (forall i j, phase i j 1%Z = 1 - phase i j 2%Z) ->
  let two := antitrapping lo0 hi0 lo1 hi1 dx0 dx1 (comp phase 2) (as_comp cl) (as_comp ca) 1 (comp dphidt 2) alpha
      (as_comp (fst flux), as_comp (snd flux)) in
  let three := antitrapping3 lo0 hi0 lo1 hi1 dx0 dx1 phase cl ca cb dphidt alpha flux in
  fst three a b - fst flux a b = - (fst two a b 1%Z - fst flux a b) /\
  snd three a b - snd flux a b = - (snd two a b 1%Z - snd flux a b).
Proof. exact three_opposite. Qed.
Print Assumptions C56_three_phase_reduces_refuted.

Example C56_ex : (* planar solid (cells 1,2,..) growing: two-phase adds a positive flux, three-phase a negative one *)
  let ph : arr3 := fun i _ p => if (p =? 3)%Z then 0 else if (p =? 2)%Z then (if (i <=? 0)%Z then 0 else 1) else (if (i <=? 0)%Z then 1 else 0) in
  let z : arr2 := fun _ _ => 0 in
  0 < fst (antitrapping 0 1 0 0 1 1 (comp ph 2) (as_comp (fun _ _ => 2)) (as_comp (fun _ _ => 1)) 1 (fun _ _ => 1) 1 (as_comp z, as_comp z)) 1%Z 0%Z 1%Z /\
  fst (antitrapping3 0 1 0 0 1 1 ph (fun _ _ => 2) (fun _ _ => 1) z (fun _ _ _ => 1) 1 (z, z)) 1%Z 0%Z < 0.
Proof.
  cbv zeta. set (ph := fun i _ p : Z => _). set (z := fun _ _ : Z => 0).
  assert (P : 0 < fst (antitrapping 0 1 0 0 1 1 (comp ph 2) (as_comp (fun _ _ => 2)) (as_comp (fun _ _ => 1)) 1 (fun _ _ => 1) 1 (as_comp z, as_comp z)) 1%Z 0%Z 1%Z).
  { apply (C56_direction 0 1 0 0 1 1 (comp ph 2) (as_comp (fun _ _ => 2)) (as_comp (fun _ _ => 1)) 1 (fun _ _ => 1) 1 (as_comp z, as_comp z) 1%Z 0%Z 1%Z);
      unfold as_comp, mean, at_tol, comp, ph; cbn; try lra; try (split; lia); lia. }
  split; [exact P |].
  destruct (C56_three_phase_reduces_refuted 0 1 0 0 1 1 ph (fun _ _ => 2) (fun _ _ => 1) z (fun _ _ _ => 1) 1 (z, z) 1%Z 0%Z) as [E _].
  - reflexivity.
  - intros i j. unfold ph. cbn. destruct (i <=? 0)%Z; lra.
  - cbn [fst snd] in E. change (comp (fun _ _ _ : Z => 1) 2) with (fun _ _ : Z => 1) in E. assert (A : forall a b w, w = 0 -> a - w = - (b - w) -> 0 < b -> a < 0) by (intros; lra). exact (A _ _ (z 1%Z 0%Z) eq_refl E P).
Qed.
