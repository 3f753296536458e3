(** C31-C34: coarsening of labels, numbering of connected grains, its iteration limit, uniqueness of labels. *)
From Coq Require Import ZArith List Bool Lia.
From Verif Require Import Weights_Model Grains_Model Grains_Spec Grains_Proofs.
Import ListNotations.
Open Scope Z_scope.

(** C31: a coarsened cell gets the smallest non-negative label it covers, -1 if there is none; other cells are untouched. *)
Theorem C31_smallest : forall fine b r coarse c, positive3 r ->
  (inside b c -> smallest_label (covers r c) fine (min_coarsen fine b r coarse c)) /\
  (~ inside b c -> min_coarsen fine b r coarse c = coarse c).
Proof. exact min_coarsen_smallest. Qed.
Print Assumptions C31_smallest.

(** C31: the result depends on the covered fine cells only. *)
Theorem C31_local : forall fine fine' b r coarse coarse' c, positive3 r -> inside b c ->
  (forall f, covers r c f -> fine f = fine' f) -> min_coarsen fine b r coarse c = min_coarsen fine' b r coarse' c.
Proof. exact min_coarsen_local. Qed.
Print Assumptions C31_local.

Example C31_ex :
  let fine := fun c : cell => if coord 0 c =? 2 then 7 else if coord 1 c =? 1 then coord 0 c + 3 else -1 in
  map (min_coarsen fine ((0, 2), (0, 0), (0, 0)) (2, 2, 1) (fun _ => 99)) [(0, 0, 0); (1, 0, 0); (2, 0, 0); (3, 0, 0)] = [3; 6; 7; 99].
Proof. vm_compute. reflexivity. Qed.

(** C32, one level: once the propagation has stopped by itself, equal numbers mean connected cells and the numbers are 0 .. N-1. Missing: several levels, where it is false. *)
Theorem C32_one_level_partial : forall h l fuel, one_level h l -> snd (find_grains h fuel) = true ->
  numbers_grains h l (fst (fst (find_grains h fuel)) 0%nat) (snd (fst (find_grains h fuel))).
Proof. exact one_level_numbers. Qed.
Print Assumptions C32_one_level_partial.

(** C32: with two levels, a coarse and a fine cell far apart, the only grain cells there are, are counted as one grain although the propagation has stopped by itself. *)
Theorem C32_two_levels_refuted : let h := two_levels (cell_eqb (1, 1, 0)) (cell_eqb (8, 0, 0)) in
  let r := findAndNumberGrains h in
  label h 0 (1, 1, 0) = label h 1 (8, 0, 0) /\ snd r = true /\ snd (fst r) = 1 /\
  fst (fst r) 0%nat (1, 1, 0) = 0 /\ fst (fst r) 1%nat (8, 0, 0) = 0.
Proof. exact two_levels_merge. Qed.
Print Assumptions C32_two_levels_refuted.

Example C32_ex : (* a ring, a dot inside it and a strip: three grains *)
  let mask := fun c : cell => let '(i, j, _) := c in
    ((i =? 0) || (i =? 4) || (j =? 0) || (j =? 4)) && (i <=? 4) && (j <=? 4) || (i =? 2) && (j =? 2) || (i =? 6) in
  let r := findAndNumberGrains (run2d (plane 7 5 mask)) in
  one_level (run2d (plane 7 5 mask)) (plane 7 5 mask) /\ snd r = true /\ snd (fst r) = 3 /\
  map (fst (fst r) 0%nat) [(0, 0, 0); (4, 3, 0); (2, 2, 0); (6, 4, 0); (1, 1, 0)] = [0; 0; 2; 1; -1].
Proof. cbv zeta. split; [apply plane_one|]. vm_compute. repeat split. Qed.
Example C32_ex_periodic : (* two cells meeting across a periodic boundary *)
  let d := ((0, 4), (0, 0), (0, 0)) in
  let l := mk_glevel d 1 (1, 1, 1) [((0, 2), (0, 0), (0, 0)); ((3, 4), (0, 0), (0, 0))] (fun c => negb (coord 0 c =? 2)) (fun _ => true) in
  let r := findAndNumberGrains (mk_ghier 2 (fun d => Nat.eqb d 0) [l]) in
  snd r = true /\ snd (fst r) = 1 /\ map (fst (fst r) 0%nat) (cells d) = [0; 0; -1; 0; 0].
Proof. vm_compute. repeat split. Qed.

(** C32, any number of levels: once the propagation has stopped by itself, neighbouring grain cells of one level that carry labels of their own have the same number. Missing: neighbours on different levels, and that different grains differ, which is false. *)
Theorem C32_levels_partial : forall h fuel, levels_ok h -> snd (find_grains h fuel) = true ->
  forall ln c c', (ln < length (glevels h))%nat -> visible h ln c -> visible h ln c' -> neighbour h (lev h ln) c c' ->
    0 <= fst (fst (find_grains h fuel)) ln c -> 0 <= fst (fst (find_grains h fuel)) ln c' ->
    fst (fst (find_grains h fuel)) ln c = fst (fst (find_grains h fuel)) ln c'.
Proof. exact neighbours_share_number. Qed.
Print Assumptions C32_levels_partial.

Example C32_levels_ex : let h := two_levels (fun c => coord 1 c =? 2) (fun c => coord 1 c =? 9) in
  levels_ok h /\ snd (findAndNumberGrains h) = true /\ visible h 0 (1, 2, 0) /\ visible h 0 (2, 2, 0) /\ visible h 1 (10, 9, 0) /\ visible h 1 (11, 9, 0) /\
  map (fst (fst (findAndNumberGrains h)) 0%nat) [(1, 2, 0); (2, 2, 0)] = [0; 0] /\ map (fst (fst (findAndNumberGrains h)) 1%nat) [(10, 9, 0); (11, 9, 0)] = [1; 1].
Proof.
  cbv zeta. assert (U : forall c, uncovered (two_levels (fun c => coord 1 c =? 2) (fun c => coord 1 c =? 9)) 1 c) by (intros c H; cbn in H; lia).
  assert (U0 : forall i j, i < 4 -> uncovered (two_levels (fun c => coord 1 c =? 2) (fun c => coord 1 c =? 9)) 0 (i, j, 0)).
  { intros i j Hi _ f [<- | []]. rewrite inside_iff. cbn. lia. }
  split; [| split; [vm_compute; reflexivity |]].
  - split; [left; reflexivity |]. intros ln H. cbn in H. assert (C : (ln = 0 \/ ln = 1)%nat) by lia. destruct C as [-> | ->]; (split; [cbn; lia |]); intros b [[i j] k] [<- | []];
      rewrite !inside_iff; cbn; lia.
  - repeat apply conj; try (vm_compute; reflexivity).
    all: try (eexists; split; [left; reflexivity |]; rewrite inside_iff; cbn; lia). all: try apply U; apply U0; lia.
Qed.

(** C33: some number of sweeps is always enough. Missing: that the built-in limit is, which is false. *)
Theorem C33_enough_sweeps_partial : forall h l, one_level h l -> exists limit, forall fuel, (limit <= fuel)%nat -> snd (find_grains h fuel) = true.
Proof. exact enough_sweeps. Qed.
Print Assumptions C33_enough_sweeps_partial.

(** C33: on a 10 x 20 domain a winding grain is cut in two by the built-in limit. *)
Theorem C33_limit_refuted : let l := plane 10 20 serpentine in let h := run2d l in
  let num := fst (fst (findAndNumberGrains h)) 0%nat in
  one_level h l /\ linked h l (0, 0, 0) (0, 19, 0) /\ num (0, 0, 0) = 0 /\ num (0, 19, 0) = 1 /\
  snd (fst (findAndNumberGrains h)) = 2 /\ snd (findAndNumberGrains h) = false.
Proof. exact serpentine_split. Qed.
Print Assumptions C33_limit_refuted.

Example C33_ex : max_iteration_count (run2d (plane 10 20 serpentine)) = 40 /\ snd (find_grains (run2d (plane 10 20 serpentine)) 60) = true.
Proof. vm_compute. split; reflexivity. Qed.

(** C34: labels are pairwise different on each level. Missing: across levels, where it is false. *)
Theorem C34_level_partial : forall h ln c c', (ln < length (glevels h))%nat -> dim_ok h (lev h ln) ->
  inside (gdom (lev h ln)) c -> inside (gdom (lev h ln)) c' -> label h ln c = label h ln c' -> c = c'.
Proof. exact label_injective. Qed.
Print Assumptions C34_level_partial.

(** C34: not across levels; with the levels of C32_two_levels_refuted, two cells of positive weight in patches of their levels share a label. *)
Theorem C34_levels_refuted : exists h c c', (length (glevels h) = 2)%nat /\ ndim h = 2%nat /\
  in_patches (lev h 0) c = true /\ wpos (lev h 0) c = true /\ solid (lev h 0) c = true /\
  in_patches (lev h 1) c' = true /\ wpos (lev h 1) c' = true /\ solid (lev h 1) c' = true /\ label h 0 c = label h 1 c'.
Proof. exists (two_levels (cell_eqb (1, 1, 0)) (cell_eqb (8, 0, 0))), (1, 1, 0), (8, 0, 0). vm_compute. repeat split. Qed.
Print Assumptions C34_levels_refuted.

(** C34: every call writes one entry past the end of the table of strides. *)
Theorem C34_overflow_refuted : forall h, glevels h <> [] -> ndim h = 2%nat \/ ndim h = 3%nat ->
  In (Z.of_nat (length (glevels h)) * Z.of_nat (ndim h)) (snd (level_stride h)).
Proof. exact stride_overflow. Qed.
Print Assumptions C34_overflow_refuted.

Example C34_ex : map (label (two_levels (fun _ => true) (fun _ => true)) 1) [(8, 0, 0); (9, 0, 0); (8, 1, 0)] = [9; 10; 25].
Proof. vm_compute. reflexivity. Qed.
