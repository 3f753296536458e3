(** C116-C118: volumes and concentrations of grains, extension of their orientations. *)
From Coq Require Import Reals Lra Lia ZArith List Bool Permutation.
From Verif Require Import Weights_Model Grains_Model Grains_Spec Grains_Proofs Tools_Model Tools_Spec GrainData_Model GrainData_Spec GrainData_Proofs.
Import ListNotations.
Open Scope Z_scope.

(** C116: the volumes reported are the sums of the control volumes of the cells of each grain over all levels, patches and processes; grains without such cells are not reported; every cell of a grain gets the volume of its grain, other cells zero. *)
Theorem C116_volumes : forall num wgt ps old, exists v vis, computeGrainVolumes ps num wgt old = Some (v, vis) /\ is_map v /\
  (forall n, has_key v n <-> present num wgt ps n) /\
  (forall n, 0 <= n -> get v n = grain_sum num wgt n wgt (all_cells ps)) /\ total v = grains_sum num wgt wgt (all_cells ps) /\
  (forall ln c, In (ln, c) (all_cells ps) -> 0 <= num ln c -> vis ln c = grain_sum num wgt (num ln c) wgt (all_cells ps)) /\
  (forall ln c, In (ln, c) (all_cells ps) -> num ln c < 0 -> vis ln c = 0%R) /\
  (forall ln c, ~ In (ln, c) (all_cells ps) -> vis ln c = old ln c).
Proof. exact volumes_all. Qed.
Print Assumptions C116_volumes.

(** C116: with the numbering of C32 on one level, each grain is reported exactly once and has positive volume. *)
Theorem C116_every_grain : forall h l fuel num n ps wgt old, one_level h l -> find_grains h fuel = (num, n, true) ->
  (forall c, inside (gdom l) c -> (0 < wgt 0%nat c)%R) -> (forall ln c, In (ln, c) (all_cells ps) <-> ln = 0%nat /\ inside (gdom l) c) ->
  exists v vis, computeGrainVolumes ps num wgt old = Some (v, vis) /\ (forall k, has_key v k <-> 0 <= k < n) /\ (forall k, 0 <= k < n -> (0 < get v k)%R) /\
    forall c c', grain_cell l c -> grain_cell l c' -> vis 0%nat c = get v (num 0%nat c) /\ (num 0%nat c = num 0%nat c' <-> linked h l c c').
Proof. exact all_grains_reported. Qed.
Print Assumptions C116_every_grain.

(** C116: the distribution of the patches over processes does not matter. *)
Theorem C116_any_distribution : forall num wgt ps ps' old old' v v' vis vis', Permutation (all_cells ps) (all_cells ps') ->
  computeGrainVolumes ps num wgt old = Some (v, vis) -> computeGrainVolumes ps' num wgt old' = Some (v', vis') -> v = v' /\ forall ln c, In (ln, c) (all_cells ps) -> vis ln c = vis' ln c.
Proof. exact volumes_any_distribution. Qed.
Print Assumptions C116_any_distribution.

(** three cells on two processes; grain 0 has the two outer cells, one on each process; the cell in the middle is liquid *)
Definition two_processes : list process := [[(0%nat, ((0, 1), (0, 0), (0, 0)))]; [(0%nat, ((2, 2), (0, 0), (0, 0)))]].
Lemma two_processes_cells : all_cells two_processes = [(0%nat, (0, 0, 0)); (0%nat, (1, 0, 0)); (0%nat, (2, 0, 0))].
Proof. reflexivity. Qed.
Definition outer : fields := fun _ c => if coord 0 c =? 1 then -1 else 0.
Example C116_ex : exists v vis, computeGrainVolumes two_processes outer (fun _ _ => 2%R) (fun _ _ => 7%R) = Some (v, vis) /\
  get v 0 = 4%R /\ ~ has_key v 1 /\ vis 0%nat (2, 0, 0) = 4%R /\ vis 0%nat (1, 0, 0) = 0%R /\ vis 0%nat (3, 0, 0) = 7%R.
Proof.
  destruct (C116_volumes outer (fun _ _ => 2%R) two_processes (fun _ _ => 7%R)) as (v & vis & E & M & K & G & _ & V1 & V2 & V3).
  assert (S : grain_sum outer (fun _ _ => 2%R) 0 (fun _ _ => 2%R) (all_cells two_processes) = 4%R).
  { rewrite two_processes_cells. cbn [grain_sum]. unfold outer. cbn [coord Z.eqb Pos.eqb]. destruct (Rlt_dec 0 2); [| lra]. lra. }
  exists v, vis. split; [exact E |]. split; [rewrite G by lia; exact S |]. split.
  - intros H. apply K in H. destruct H as (_ & ln & c & _ & H & _). unfold outer in H. destruct (coord 0 c =? 1); discriminate.
  - rewrite two_processes_cells in V1, V2, V3, S. split; [rewrite V1; [exact S | cbn; auto | discriminate] |].
    split; [apply V2; [cbn; auto | reflexivity] |]. apply V3. cbn. intuition discriminate.
Qed.

(** C117: the average of a grain is its volume average, the deviation the volume average of the squared difference from it, for exactly the grains that are present; the overall average is over the cells of all grains. *)
Theorem C117_averages : forall num wgt ps conc, exists avg all dev, computeGrainConcentrations ps num wgt conc = Some (avg, all, dev) /\
  is_map avg /\ is_map dev /\ (forall n, has_key avg n <-> present num wgt ps n) /\ (forall n, has_key dev n <-> present num wgt ps n) /\
  let S n f := grain_sum num wgt n f (all_cells ps) in
  (forall n, present num wgt ps n -> get avg n = (S n (fun ln c => conc ln c * wgt ln c) / S n wgt)%R /\
     get dev n = (S n (fun ln c => wgt ln c * ((conc ln c - get avg n) * (conc ln c - get avg n))) / S n wgt)%R) /\
  all = match avg with [] => None | _ => Some (grains_sum num wgt (fun ln c => conc ln c * wgt ln c) (all_cells ps) / grains_sum num wgt wgt (all_cells ps))%R end.
Proof. exact concentrations_all. Qed.
Print Assumptions C117_averages.

(** C117: averages lie between the smallest and the largest composition in the grain. *)
Theorem C117_bounds : forall num wgt ps conc avg all dev, computeGrainConcentrations ps num wgt conc = Some (avg, all, dev) ->
  forall n a b, present num wgt ps n -> (forall ln c, In (ln, c) (all_cells ps) -> num ln c = n -> (0 < wgt ln c)%R -> (a <= conc ln c <= b)%R) -> (a <= get avg n <= b)%R.
Proof. exact concentration_bounds. Qed.
Print Assumptions C117_bounds.

(** C117: deviations are the mean square minus the squared mean; they are zero exactly in grains of uniform composition. *)
Theorem C117_deviation : forall num wgt ps conc avg all dev, computeGrainConcentrations ps num wgt conc = Some (avg, all, dev) ->
  forall n, present num wgt ps n ->
  get dev n = (grain_sum num wgt n (fun ln c => wgt ln c * (conc ln c * conc ln c)) (all_cells ps) / grain_sum num wgt n wgt (all_cells ps) - get avg n * get avg n)%R /\
  (0 <= get dev n)%R /\
  (get dev n = 0%R <-> forall ln c, In (ln, c) (all_cells ps) -> num ln c = n -> (0 < wgt ln c)%R -> conc ln c = get avg n).
Proof. exact deviation_variance. Qed.
Print Assumptions C117_deviation.

(** compositions 0 and 1 in the two cells of the grain, volumes 1 and 3 *)
Definition volume : data := fun _ c => if coord 0 c =? 2 then 3%R else 1%R.
Definition composition : data := fun _ c => if coord 0 c =? 2 then 1%R else 0%R.
Example C117_ex : exists avg all dev, computeGrainConcentrations two_processes outer volume composition = Some (avg, all, dev) /\
  get avg 0 = (3 / 4)%R /\ all = Some (3 / 4)%R /\ get dev 0 = (3 / 16)%R.
Proof.
  destruct (C117_averages outer volume two_processes composition) as (avg & all & dev & E & _ & _ & K & _ & P & A).
  assert (P0 : present outer volume two_processes 0).
  { split; [lia |]. exists 0%nat, (0, 0, 0). split; [rewrite two_processes_cells; left; reflexivity |]. split; [reflexivity |]. unfold volume. cbn [coord Z.eqb Pos.eqb]. lra. }
  destruct (P 0 P0) as [Pa Pd].
  assert (Ea : get avg 0 = (3 / 4)%R).
  { rewrite Pa, two_processes_cells. cbn [grain_sum]. unfold outer, volume, composition. cbn [coord Z.eqb Pos.eqb]. destruct (Rlt_dec 0 1); [| lra]. destruct (Rlt_dec 0 3); [| lra]. lra. }
  exists avg, all, dev. split; [exact E |]. split; [exact Ea |]. split.
  - rewrite A. destruct avg as [| kv avg].
    + exfalso. apply K in P0. destruct P0.
    + f_equal. rewrite two_processes_cells. cbn [grains_sum]. unfold outer, volume, composition. cbn [coord Z.eqb Pos.eqb Z.leb Z.compare]. destruct (Rlt_dec 0 1); [| lra]. destruct (Rlt_dec 0 3); [| lra]. lra.
  - rewrite Pd, Ea, two_processes_cells. cbn [grain_sum]. unfold outer, volume, composition. cbn [coord Z.eqb Pos.eqb]. destruct (Rlt_dec 0 1); [| lra]. destruct (Rlt_dec 0 3); [| lra]. lra.
Qed.

(** C118: after n iterations exactly the cells within n steps of a grain have the orientation of a nearest grain cell; cells further away keep theirs. The run reports n-1 or, if it warns, n is the iteration limit. *)
Theorem C118_nearest : forall A nprocs rank qavg jf (jq : nat -> cell -> A) h l q q' rep, tiled h l -> clean_ghosts jf ->
  extendGrainOrientation nprocs rank qavg jf jq h q = (q', rep) ->
  exists n, (forall nn, rep = Some nn -> nn + 1 = Z.of_nat n) /\ (rep = None -> n = Z.to_nat (extend_iterations h)) /\ Z.of_nat n <= Z.max 0 (extend_iterations h) /\
  forall c, inside (gdom l) c ->
    (forall k g, (k <= n)%nat -> nearest h l k g c -> exists g', nearest h l k g' c /\ q' 0%nat c = q 0%nat g') /\
    (far h l n c -> q' 0%nat c = q 0%nat c).
Proof. exact extension_nearest. Qed.
Print Assumptions C118_nearest.

(** C118: if no process has two patches and convergence is reported, every cell has the orientation of a nearest grain cell. *)
Theorem C118_complete_partial : forall A nprocs rank qavg jf (jq : nat -> cell -> A) h l q q' nn, tiled h l -> clean_ghosts jf ->
  NoDup (map (rank 0%nat) (gpatches l)) -> (forall b, In b (gpatches l) -> (rank 0%nat b < nprocs)%nat) ->
  extendGrainOrientation nprocs rank qavg jf jq h q = (q', Some nn) ->
  forall c, inside (gdom l) c -> exists k g, Z.of_nat k <= nn + 1 /\ nearest h l k g c /\ q' 0%nat c = q 0%nat g.
Proof. exact extension_one_patch. Qed.
Print Assumptions C118_complete_partial.

(** C118: if every process has exactly one patch, convergence is reported exactly if all cells are within the iteration limit of a grain cell, after as many iterations as needed. *)
Theorem C118_converges_partial : forall A nprocs rank qavg jf (jq : nat -> cell -> A) h l q q' rep, tiled h l -> clean_ghosts jf ->
  NoDup (map (rank 0%nat) (gpatches l)) -> (forall b, In b (gpatches l) -> (rank 0%nat b < nprocs)%nat) -> (forall p, (p < nprocs)%nat -> exists b, In b (gpatches l) /\ rank 0%nat b = p) ->
  0 < extend_iterations h -> extendGrainOrientation nprocs rank qavg jf jq h q = (q', rep) ->
  ((forall c, inside (gdom l) c -> exists k g, Z.of_nat k <= extend_iterations h /\ nearest h l k g c) <-> rep <> None) /\
  (forall nn, rep = Some nn -> (forall c, inside (gdom l) c -> ~ far h l (Z.to_nat (nn + 1)) c) /\ (0 < nn -> exists c, inside (gdom l) c /\ far h l (Z.to_nat nn) c)).
Proof. exact extension_converges. Qed.
Print Assumptions C118_converges_partial.

(** C118: the iteration limit is the largest width of the domain in cells. *)
Theorem C118_limit : forall h l, glevels h = [l] -> dim_ok h l -> extend_iterations h = fold_left Z.max (map (fun d => width d (gdom l)) (seq 0 (ndim h))) 0.
Proof. exact iterations_width. Qed.
Print Assumptions C118_limit.

(** C118: cells of grains keep their orientation, on any hierarchy of levels. *)
Theorem C118_grains_keep : forall A nprocs rank qavg jf (jq : nat -> cell -> A) h q ln c, levels_ok h -> (ln < length (glevels h))%nat ->
  (exists b, In b (gpatches (lev h ln)) /\ inside b c) -> uncovered h ln c -> solid (lev h ln) c = true ->
  fst (extendGrainOrientation nprocs rank qavg jf jq h q) ln c = q ln c.
Proof. exact grain_cells_keep. Qed.
Print Assumptions C118_grains_keep.

(** C118: a process with two patches stops as soon as the second one is done: the first patch is left unfinished and convergence is reported. *)
Theorem C118_two_patches_refuted : let h := run2d strip in
  tiled h strip /\ clean_ghosts zero_junk /\ grain_cell strip (0, 0, 0) /\ steps h strip 2 (0, 0, 0) (2, 0, 0) /\
  let r := extendGrainOrientation 1 (fun _ _ => 0%nat) no_average zero_junk zero_junk h start in
  snd r = Some 0 /\ fst r 0%nat (1, 0, 0) = start 0 (0, 0, 0) /\ fst r 0%nat (2, 0, 0) = start 0 (2, 0, 0) /\ fst r 0%nat (3, 0, 0) = start 0 (3, 0, 0).
Proof. exact two_patches_stop. Qed.
Print Assumptions C118_two_patches_refuted.

(** C118: in more than one dimension the limit can be too small: the corner opposite to the only grain cell is not reached. *)
Theorem C118_limit_refuted : let l := plane 3 3 (cell_eqb (0, 0, 0)) in let h := run2d l in
  tiled h l /\ clean_ghosts zero_junk /\ grain_cell l (0, 0, 0) /\ steps h l 4 (0, 0, 0) (2, 2, 0) /\
  let r := extendGrainOrientation 1 (fun _ _ => 0%nat) no_average zero_junk zero_junk h start in
  snd r = None /\ fst r 0%nat (2, 1, 0) = start 0 (0, 0, 0) /\ fst r 0%nat (2, 2, 0) = start 0 (2, 2, 0).
Proof. exact limit_stop. Qed.
Print Assumptions C118_limit_refuted.

(** C118: ghost cells outside the domain are never filled; if they happen to hold ones, cells get whatever orientation the ghost cells hold, even without any grain. *)
Theorem C118_ghosts_refuted : forall A (v w : A), let l := plane 2 1 (fun _ => false) in let h := run2d l in
  tiled h l /\ (forall c, ~ grain_cell l c) /\
  let r := extendGrainOrientation 1 (fun _ _ => 0%nat) no_average (fun _ _ => 1) (fun _ _ => v) h (fun _ _ => w) in
  snd r = Some 0 /\ forall c, inside (gdom l) c -> fst r 0%nat c = v.
Proof. exact junk_taken. Qed.
Print Assumptions C118_ghosts_refuted.

(** C118: with a process that has no patch, convergence is never reported. *)
Theorem C118_idle_process_refuted : let l := plane 2 1 (fun _ => true) in let h := run2d l in
  tiled h l /\ clean_ghosts zero_junk /\ (forall c, inside (gdom l) c -> grain_cell l c) /\
  snd (extendGrainOrientation 1 (fun _ _ => 0%nat) no_average zero_junk zero_junk h start) = Some 0 /\
  snd (extendGrainOrientation 2 (fun _ _ => 0%nat) no_average zero_junk zero_junk h start) = None.
Proof. exact idle_process_warns. Qed.
Print Assumptions C118_idle_process_refuted.

(** a row of four cells, the first one a grain: its orientation 0 reaches the last one after three iterations *)
Example C118_ex : let r := extendGrainOrientation 1 (fun _ _ => 0%nat) no_average zero_junk zero_junk (run2d (plane 4 1 (cell_eqb (0, 0, 0)))) start in
  snd r = Some 2 /\ fst r 0%nat (3, 0, 0) = 0 /\ start 0%nat (3, 0, 0) = 30.
Proof. vm_compute. auto. Qed.
Example C118_ex_hypotheses : let l := plane 4 1 (cell_eqb (0, 0, 0)) in tiled (run2d l) l /\ clean_ghosts zero_junk /\ 0 < extend_iterations (run2d l).
Proof. cbv zeta. split; [apply plane_tiled |]. split; [intros ln c; discriminate | vm_compute; reflexivity]. Qed.
