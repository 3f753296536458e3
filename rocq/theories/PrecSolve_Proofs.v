From Coq Require Import Reals List Bool Arith ZArith Lra Lia FunctionalExtensionality.
From Verif Require Import PrecSolve_Model PrecSolve_Spec.
Import ListNotations.
Open Scope R_scope.

(** ** the FAC driver *)

Lemma at_same : forall v ln x, on_level v ln x ln = x.
Proof. intros. unfold on_level. rewrite Nat.eqb_refl. reflexivity. Qed.
Lemma at_other : forall v ln x k, k <> ln -> on_level v ln x k = v k.
Proof. intros v ln x k H. unfold on_level. apply Nat.eqb_neq in H. rewrite H. reflexivity. Qed.
Lemma on_level_id : forall v ln, on_level v ln (v ln) = v.
Proof. intros. apply functional_extensionality. intros k. unfold on_level. destruct (Nat.eqb_spec k ln); [subst|]; reflexivity. Qed.

Lemma ascent_last : forall o s t ln a,
  ascent o s (S t) ln a = (fun b => if (ln + t =? 0)%nat then bottom o b else ascend o s (ln + t) b) (ascent o s t ln a).
Proof.
  intros o s t. induction t as [|t IH]; intros ln a.
  - cbn. rewrite Nat.add_0_r. reflexivity.
  - change (ascent o s (S (S t)) ln a) with (ascent o s (S t) (S ln) (if (ln =? 0)%nat then bottom o a else ascend o s ln a)).
    rewrite IH. cbn -[Nat.add]. replace (S ln + t)%nat with (ln + S t)%nat by lia. reflexivity.
Qed.

Lemma rec_is_loops : forall o s n a, facCycle_Recursive o s n a = ascent o s (S n) 0 (descent o s n a).
Proof.
  intros o s n. induction n as [|n IH]; intros a; [reflexivity|].
  rewrite ascent_last. cbn -[ascent]. rewrite IH. reflexivity.
Qed.

Lemma same_cycles : forall o s a, facCycle o s a = facCycle_Recursive o s (finest s) a.
Proof. intros. rewrite rec_is_loops. reflexivity. Qed.

(** the temporary array does not matter *)
Lemma rec_tmp : forall o s n a t, err (facCycle_Recursive o s n a) = err (facCycle_Recursive o s n {| err := err a; res := res a; tmp_res := t |}) /\
  res (facCycle_Recursive o s n a) = res (facCycle_Recursive o s n {| err := err a; res := res a; tmp_res := t |}).
Proof.
  intros o s n. induction n as [|n IH]; intros a t; [split; reflexivity|].
  cbn [facCycle_Recursive]. unfold ascend. cbn [err res].
  destruct (IH (descend o s (S n) a) (tmp_res (descend o s (S n) {| err := err a; res := res a; tmp_res := t |}))) as [E R].
  rewrite E, R.
  replace {| err := err (descend o s (S n) a); res := res (descend o s (S n) a);
             tmp_res := tmp_res (descend o s (S n) {| err := err a; res := res a; tmp_res := t |}) |}
    with (descend o s (S n) {| err := err a; res := res a; tmp_res := t |}).
  - split; reflexivity.
  - unfold descend. cbn [err res tmp_res]. rewrite !at_same. reflexivity.
Qed.

Definition alike (x y : loop_state) : Prop :=
  sol_u x = sol_u y /\ sol_r x = sol_r y /\ sol_norm x = sol_norm y /\ cycles x = cycles y.

Lemma one_cycle_alike : forall o s f x y, alike x y -> alike (one_cycle o s f x) (one_cycle o s f y).
Proof.
  intros o s f x y (U & R & N & C). unfold one_cycle. rewrite U, R, C.
  destruct (rec_tmp o s (finest s) {| err := zero; res := sol_r y; tmp_res := sol_tmp x |} (sol_tmp y)) as [E R'].
  cbn [err res] in E, R'. rewrite E, R'. repeat split.
Qed.

Lemma loop_alike : forall o s f tol left x y, alike x y -> alike (do_loop o s f tol left x) (do_loop o s f tol left y).
Proof.
  intros o s f tol left. induction left as [|l IH]; intros x y H; cbn [do_loop].
  - apply one_cycle_alike, H.
  - pose proof (one_cycle_alike o s f x y H) as H1. pose proof H1 as (_ & _ & N & _). rewrite N.
    destruct (Rlt_dec tol (sol_norm (one_cycle o s f y))); [|exact H1].
    destruct l; [exact H1|]. apply IH, H1.
Qed.

Lemma tmp_unused : forall o s tol u f t t',
  sol_u (fst (solveSystem o s tol u f t)) = sol_u (fst (solveSystem o s tol u f t')) /\
  snd (solveSystem o s tol u f t) = snd (solveSystem o s tol u f t').
Proof.
  intros. unfold solveSystem. cbn [fst snd].
  destruct (loop_alike o s f (effective_tolerance o s tol f) (max_cycles s)
    {| sol_u := fst (full_residual o s u f zero); sol_r := snd (full_residual o s u f zero); sol_tmp := t;
       sol_norm := norm o (snd (full_residual o s u f zero)); cycles := 0 |}
    {| sol_u := fst (full_residual o s u f zero); sol_r := snd (full_residual o s u f zero); sol_tmp := t';
       sol_norm := norm o (snd (full_residual o s u f zero)); cycles := 0 |}) as (U & _ & N & _); [repeat split|].
  rewrite U, N. split; reflexivity.
Qed.

(** residual of the synchronized solution *)
Definition out_zero (n : nat) (r : vec) : Prop := forall l, (n < l)%nat -> r l = fun _ => 0.

Lemma residual_down_spec : forall o f n ln u r, (ln <= n)%nat ->
  (forall l, (l < ln)%nat -> u l = restrict_sol o (u (S l)) (u l)) ->
  fst (residual_down o f ln (u, r)) = u /\
  (forall l, (ln <= l)%nat -> snd (residual_down o f ln (u, r)) l = r l) /\
  (forall l, (l < ln)%nat -> snd (residual_down o f ln (u, r)) l = restrict_res o (snd (residual_down o f ln (u, r)) (S l)) (resid o l u f)).
Proof.
  intros o f n ln. induction ln as [|k IH]; intros u r L S; cbn [residual_down].
  - split; [reflexivity|]. split; [reflexivity|intros l Hl; lia].
  - assert (E : on_level u k (restrict_sol o (u (Datatypes.S k)) (u k)) = u).
    { rewrite <- (S k) by lia. apply on_level_id. }
    rewrite E. set (r2 := on_level _ _ _). destruct (IH u r2 ltac:(lia) ltac:(intros l Hl; apply S; lia)) as (A & B & C).
    split; [exact A|]. split.
    + intros l Hl. rewrite B by lia. unfold r2. rewrite !at_other by lia. reflexivity.
    + intros l Hl. destruct (Nat.eq_dec l k) as [->|N].
      * rewrite !B by lia. unfold r2. rewrite at_same, at_same, !at_other by lia. reflexivity.
      * apply C. lia.
Qed.

Lemma synchronize_spec : forall o n, keeps o -> forall u,
  synchronized o n (synchronize o n u) /\ (forall l, (n <= l)%nat -> synchronize o n u l = u l).
Proof.
  intros o n K. induction n as [|k IH]; intros u; cbn [synchronize].
  - split; [intros l Hl; lia|reflexivity].
  - set (u1 := on_level _ _ _). destruct (IH u1) as [A B]. split.
    + intros l Hl. destruct (Nat.eq_dec l k) as [->|N]; [|apply A; lia].
      rewrite !B by lia. unfold u1. rewrite at_same, at_other by lia. rewrite K. reflexivity.
    + intros l Hl. rewrite B by lia. unfold u1. apply at_other. lia.
Qed.

Lemma full_residual_spec : forall o s u f r, synchronized o (finest s) u -> out_zero (finest s) r ->
  fst (full_residual o s u f r) = u /\ is_residual o (finest s) u f (snd (full_residual o s u f r)).
Proof.
  intros o s u f r S Z. unfold full_residual.
  destruct (residual_down_spec o f (finest s) (finest s) u (on_level r (finest s) (resid o (finest s) u f)) (le_n _) S) as (A & B & C).
  split; [exact A|]. split; [rewrite B by lia; apply at_same|]. split; [exact C|].
  intros l Hl. rewrite B by lia. rewrite at_other by lia. apply Z, Hl.
Qed.

Lemma residual_down_out : forall o f n ln u r, (ln <= n)%nat -> out_zero n r -> out_zero n (snd (residual_down o f ln (u, r))).
Proof.
  intros o f n ln. induction ln as [|k IH]; intros u r L Z; [exact Z|]. cbn [residual_down].
  apply IH; [lia|]. intros l Hl. rewrite !at_other by lia. apply Z, Hl.
Qed.

Lemma rec_out : forall o s n ln a, (ln <= n)%nat -> out_zero n (res a) -> out_zero n (res (facCycle_Recursive o s ln a)).
Proof.
  intros o s n ln. induction ln as [|k IH]; intros a L Z; [exact Z|].
  cbn [facCycle_Recursive ascend res]. apply IH; [lia|]. unfold descend. cbn [res].
  intros l Hl. rewrite at_other by lia. apply Z, Hl.
Qed.

Definition settled (o : facops) (s : settings) (f : vec) (st : loop_state) : Prop :=
  synchronized o (finest s) (sol_u st) /\ is_residual o (finest s) (sol_u st) f (sol_r st) /\ sol_norm st = norm o (sol_r st).

Lemma one_cycle_settled : forall o s f st, keeps o -> out_zero (finest s) (sol_r st) -> settled o s f (one_cycle o s f st).
Proof.
  intros o s f st K Z. unfold settled, one_cycle. cbn [sol_u sol_r sol_norm].
  set (u1 := synchronize _ _ _). set (r := res _).
  destruct (full_residual_spec o s u1 f r) as [A B].
  - apply (synchronize_spec o (finest s) K).
  - apply rec_out; [lia|exact Z].
  - rewrite A. split; [apply (synchronize_spec o (finest s) K)|]. split; [exact B|reflexivity].
Qed.

Lemma do_loop_inv : forall o s f tol (P : loop_state -> Prop),
  (forall st, P (one_cycle o s f st) -> P (one_cycle o s f (one_cycle o s f st))) ->
  forall left st, P (one_cycle o s f st) -> P (do_loop o s f tol left st).
Proof.
  intros o s f tol P H left. induction left as [|l IH]; intros st H0; cbn [do_loop]; [exact H0|].
  destruct (Rlt_dec tol (sol_norm (one_cycle o s f st))); [|exact H0]. destruct l; [exact H0|]. apply IH, H, H0.
Qed.

Lemma do_loop_settled : forall o s f tol left st, keeps o -> out_zero (finest s) (sol_r st) ->
  settled o s f (do_loop o s f tol left st).
Proof.
  intros o s f tol left st K Z. apply (do_loop_inv o s f tol (settled o s f)).
  - intros st' (_ & (_ & _ & Z') & _). apply one_cycle_settled; [exact K|exact Z'].
  - apply one_cycle_settled; assumption.
Qed.

Lemma is_residual_unique : forall o n u f r r', is_residual o n u f r -> is_residual o n u f r' -> r = r'.
Proof.
  intros o n u f r r' (A & B & C) (A' & B' & C'). apply functional_extensionality. intros l.
  destruct (le_lt_dec l n) as [L|L]; [|rewrite C, C' by lia; reflexivity].
  assert (H : forall k, (k <= n)%nat -> r (n - k)%nat = r' (n - k)%nat).
  { induction k as [|k IH]; intros Hk.
    - rewrite Nat.sub_0_r. congruence.
    - rewrite B, B' by lia. replace (S (n - S k)) with (n - k)%nat by lia. rewrite IH by lia. reflexivity. }
  specialize (H (n - l)%nat ltac:(lia)). replace (n - (n - l))%nat with l in H by lia. exact H.
Qed.

Lemma tolerance_spec : forall o s tol f x, x < effective_tolerance o s tol f <->
  (x < tol \/ (0 <= relative_tol s /\ x < norm o f * relative_tol s)).
Proof.
  intros o s tol f x. unfold effective_tolerance. destruct (Rle_dec 0 (relative_tol s)) as [L|L].
  - destruct (Rlt_dec tol (norm o f * relative_tol s)); split; intros H.
    + right. split; [exact L|exact H].
    + destruct H as [H|[_ H]]; lra.
    + left. exact H.
    + destruct H as [H|[_ H]]; lra.
  - split; [left; assumption|]. intros [H|[H _]]; [exact H|contradiction].
Qed.

Lemma start_zero : forall o s u f, out_zero (finest s) (snd (full_residual o s u f zero)).
Proof.
  intros. apply residual_down_out; [lia|]. intros l Hl. rewrite at_other by lia. reflexivity.
Qed.

Lemma solve_settled : forall o s tol u f t, keeps o -> settled o s f (fst (solveSystem o s tol u f t)).
Proof. intros. apply do_loop_settled; [assumption|]. cbn [sol_r]. apply start_zero. Qed.

Lemma truthful : forall o s tol u f t st b, keeps o -> solveSystem o s tol u f t = (st, b) ->
  synchronized o (finest s) (sol_u st) /\ (b = true <-> within o s tol (sol_u st) f).
Proof.
  intros o s tol u f t st b K E. pose proof (solve_settled o s tol u f t K) as H.
  assert (B : b = snd (solveSystem o s tol u f t)) by (rewrite E; reflexivity).
  rewrite E in H. cbn [fst] in H. destruct H as (Sy & Re & No). split; [exact Sy|].
  assert (B' : b = true <-> sol_norm st < effective_tolerance o s tol f).
  { rewrite B. unfold solveSystem in *. cbn [snd]. injection E as <- _.
    destruct (Rlt_dec _ _) as [L|L]; split; intros H; [exact L|reflexivity|discriminate|contradiction]. }
  rewrite B', tolerance_spec, No. split.
  - intros H. exists (sol_r st). split; assumption.
  - intros (r & R & H). rewrite (is_residual_unique _ _ _ _ _ _ Re R). exact H.
Qed.

Lemma loop_count : forall o s f tol left st, (1 <= left)%nat ->
  (cycles st < cycles (do_loop o s f tol left st) <= cycles st + left)%nat /\
  (tol < sol_norm (do_loop o s f tol left st) -> cycles (do_loop o s f tol left st) = (cycles st + left)%nat).
Proof.
  intros o s f tol left. induction left as [|l IH]; intros st H; [lia|]. cbn [do_loop].
  assert (C : cycles (one_cycle o s f st) = S (cycles st)) by reflexivity.
  destruct (Rlt_dec tol (sol_norm (one_cycle o s f st))) as [L|L].
  - destruct l as [|l'].
    + rewrite C. split; [lia|intros _; lia].
    + destruct (IH (one_cycle o s f st) ltac:(lia)) as [A B]. rewrite C in A, B. split; [lia|]. intros H'. rewrite (B H'). lia.
  - rewrite C. split; [lia|]. intros H'. contradiction.
Qed.

Lemma cycle_count : forall o s tol u f t st b, (1 <= max_cycles s)%nat -> solveSystem o s tol u f t = (st, b) ->
  (1 <= cycles st <= max_cycles s)%nat /\
  (b = false -> cycles st = max_cycles s \/ sol_norm st = effective_tolerance o s tol f).
Proof.
  intros o s tol u f t st b M E. unfold solveSystem in E. injection E as <- <-.
  destruct (loop_count o s f (effective_tolerance o s tol f) (max_cycles s)
    {| sol_u := fst (full_residual o s u f zero); sol_r := snd (full_residual o s u f zero); sol_tmp := t;
       sol_norm := norm o (snd (full_residual o s u f zero)); cycles := 0 |} M) as [A B].
  cbn [cycles] in A, B. split; [lia|]. destruct (Rlt_dec _ _) as [L|L]; [discriminate|]. intros _.
  apply Rnot_lt_le in L. destruct L as [L|L]; [left; apply B, L|right; symmetry; exact L].
Qed.

Lemma cycles_used : forall o s tol u f t st b, keeps o -> (1 <= max_cycles s)%nat -> solveSystem o s tol u f t = (st, b) ->
  (1 <= cycles st <= max_cycles s)%nat /\
  (b = false -> cycles st = max_cycles s \/ on_edge o s tol (sol_u st) f).
Proof.
  intros o s tol u f t st b K M E. destruct (cycle_count _ _ _ _ _ _ _ _ M E) as [A B]. split; [exact A|].
  intros H. destruct (B H) as [C|C]; [left; exact C|right].
  pose proof (solve_settled o s tol u f t K) as S. rewrite E in S. cbn [fst] in S. destruct S as (_ & Re & No).
  exists (sol_r st). split; [exact Re|]. rewrite <- No, C. unfold effective_tolerance.
  destruct (Rle_dec 0 (relative_tol s)); [|reflexivity]. unfold Rmax.
  destruct (Rlt_dec tol (norm o f * relative_tol s)), (Rle_dec tol (norm o f * relative_tol s)); lra.
Qed.

(** on one level with an exact coarsest solver *)
Lemma one_level_exact : forall o A s tol u f t, exact_block o A -> finest s = 0%nat -> (1 <= max_cycles s)%nat -> 0 < tol ->
  exists st, solveSystem o s tol u f t = (st, true) /\ cycles st = 1%nat /\ A (sol_u st 0%nat) = f 0%nat.
Proof.
  intros o A s tol u f t (R & L & C & N) F M T.
  assert (A0 : A (fun _ => 0) = fun _ => 0).
  { pose proof (L (fun _ => 0) (fun _ => 0)) as H. cbn in H.
    replace (fun _ : nat => 0 + 0) with (fun _ : nat => 0) in H by (apply functional_extensionality; intros; ring).
    apply functional_extensionality. intros i. apply (f_equal (fun g => g i)) in H. cbn in H. lra. }
  unfold solveSystem. set (st0 := {| sol_u := _; sol_r := _; sol_tmp := _; sol_norm := _; cycles := _ |}).
  set (st1 := one_cycle o s f st0).
  assert (U : A (sol_u st1 0%nat) = f 0%nat).
  { unfold st1, one_cycle. rewrite F. unfold full_residual. rewrite F. cbn [synchronize facCycle_Recursive residual_down fst sol_u].
    unfold vadd. change (fun i => ?a 0%nat i + ?b 0%nat i) with (fun i => a 0%nat i + b 0%nat i).
    rewrite L. unfold bottom. cbn [err res]. rewrite at_same, C by reflexivity.
    unfold st0. cbn [sol_r sol_u]. unfold full_residual. rewrite F. cbn [residual_down fst snd]. rewrite at_same, R.
    apply functional_extensionality. intros i. ring. }
  assert (E0 : sol_norm st1 = 0).
  { change (sol_norm st1) with (norm o (sol_r st1)). apply N. intros l i.
    destruct l as [|l].
    - assert (H : sol_r st1 0%nat = resid o 0 (sol_u st1) f).
      { unfold st1, one_cycle, full_residual. rewrite F. cbn [synchronize facCycle_Recursive residual_down fst snd sol_u sol_r].
        apply at_same. }
      rewrite H, R, U. ring.
    - assert (H : sol_r st1 (S l) = fun _ => 0).
      { unfold st1, one_cycle, full_residual. rewrite F. cbn [synchronize facCycle_Recursive residual_down fst snd sol_u sol_r].
        rewrite at_other by lia. unfold bottom. cbn [res]. apply start_zero. rewrite F. lia. }
      rewrite H. reflexivity. }
  assert (T' : 0 < effective_tolerance o s tol f) by (apply tolerance_spec; left; exact T).
  assert (D : do_loop o s f (effective_tolerance o s tol f) (max_cycles s) st0 = st1).
  { destruct (max_cycles s) as [|l]; [lia|]. cbn [do_loop]. fold st1. rewrite E0. destruct (Rlt_dec _ 0); [lra|reflexivity]. }
  exists st1. rewrite D, E0. split; [|split; [reflexivity|exact U]].
  destruct (Rlt_dec 0 _); [reflexivity|contradiction].
Qed.

(** ** the blocks *)

Lemma sol_set : forall m b v, sol (set_sol m b v) b = v.
Proof. intros m b v. cbn. destruct b; reflexivity. Qed.
Lemma rhs_set : forall m b v, rhs (set_rhs m b v) b = v.
Proof. intros m b v. cbn. destruct b; reflexivity. Qed.
Lemma z_set : forall m b d v, z (set_z m b d v) b d = v.
Proof. intros m b d v. cbn. rewrite Nat.eqb_refl. destruct b; reflexivity. Qed.
Lemma z_set_other : forall m b d v b' d', (b' <> b \/ d' <> d) -> z (set_z m b d v) b' d' = z m b' d'.
Proof.
  intros m b d v b' d' H. cbn. destruct (block_eqb b' b) eqn:E; [|reflexivity].
  assert (b' = b) by (destruct b', b; discriminate || reflexivity). subst.
  destruct (Nat.eqb_spec d' d); [destruct H; contradiction|reflexivity].
Qed.

(** what the solve of a block gives, without the memory *)
Definition solution (K : kernels) (delta : R) (b : block) (f : vec) : vec := sol_u (fst (solveSystem (ops K b) (set K b) delta zero f zero)).
Definition converges (K : kernels) (delta : R) (b : block) (f : vec) : bool := snd (solveSystem (ops K b) (set K b) delta zero f zero).

Lemma solve_block_spec : forall K delta b m,
  snd (solve_block K delta b m) = converges K delta b (rhs m b) /\
  sol (fst (solve_block K delta b m)) b = solution K delta b (rhs m b) /\
  (forall b', b' <> b -> sol (fst (solve_block K delta b m)) b' = sol m b') /\
  rhs (fst (solve_block K delta b m)) = rhs m /\ z (fst (solve_block K delta b m)) = z m.
Proof.
  intros K delta b m. unfold solve_block, solution, converges. cbn [fst snd].
  assert (E : sol (set_sol m b zero) b = zero) by apply sol_set. rewrite E.
  change (rhs (set_sol m b zero) b) with (rhs m b).
  destruct (tmp_unused (ops K b) (set K b) delta zero (rhs m b) (tmp (set_sol m b zero) b) zero) as [U C].
  split; [exact C|]. split; [rewrite <- U; cbn; destruct b; reflexivity|]. split; [|split; reflexivity].
  intros b' N. cbn. destruct (block_eqb b' b) eqn:E'; [|reflexivity].
  exfalso. apply N. destruct b', b; discriminate || reflexivity.
Qed.

Lemma solution_within : forall K delta b f, keeps (ops K b) ->
  (converges K delta b f = true <-> within (ops K b) (set K b) delta (solution K delta b f) f).
Proof.
  intros K delta b f H. unfold converges, solution.
  destruct (solveSystem (ops K b) (set K b) delta zero f zero) as [st c] eqn:E.
  destruct (truthful _ _ _ _ _ _ _ _ H E) as [_ T]. exact T.
Qed.

Definition cact (c : config) (b : block) : bool :=
  match b with
  | Phase => with_phase c | Eta => with_third_phase c | Quat => evolve_quat c
  | Temp => with_unsteady_temperature c | Conc => with_concentration c
  end.
Definition cdepth (c : config) (b : block) : nat := match b with Phase => norderp c | _ => 1%nat end.

(** phase correction seen by the other blocks *)
Definition phi_last (c : config) (K : kernels) (r : vector) (delta : R) : vec :=
  if phase_solver c then solution K delta Phase (r Phase (norderp c - 1)%nat) else r Phase (norderp c - 1)%nat.
(** right-hand side given to the solver of a block *)
Definition given (c : config) (K : kernels) (r : vector) (delta gamma : R) (b : block) (d : nat) : vec :=
  scaled K b (coupled c K gamma (phi_last c K r delta) b (r b d)).
Definition unscaled (K : kernels) (b : block) (x : vec) : vec :=
  match b with Quat => fun k i => x k i * sqrtM K k i | _ => x end.
(** components of the result *)
Definition zval (c : config) (K : kernels) (r : vector) (delta gamma : R) (b : block) (d : nat) : vec :=
  if solved c b then unscaled K b (solution K delta b (given c K r delta gamma b d)) else r b d.
Definition okb (c : config) (K : kernels) (r : vector) (delta gamma : R) (b : block) : Prop :=
  forall d, (d < cdepth c b)%nat -> solved c b = true -> converges K delta b (given c K r delta gamma b d) = true.

Definition is_code (k : Z) : Prop := k = 0%Z \/ k = 1%Z.

Lemma merge_spec : forall a b, is_code (merge a b) /\ (merge a b = 0%Z <-> a = 0%Z /\ b = 0%Z).
Proof.
  intros a b. unfold merge, is_code. destruct (Z.eqb_spec a 0), (Z.eqb_spec b 0); cbn; (split; [auto|]); split; intros H; try lia; try (split; assumption).
Qed.

Lemma block_eqb_refl : forall b, block_eqb b b = true.
Proof. destruct b; reflexivity. Qed.
Lemma block_eqb_other : forall a b, a <> b -> block_eqb a b = false.
Proof. intros a b H. destruct a, b; try reflexivity; exfalso; apply H; reflexivity. Qed.

Lemma phase_depths_spec : forall c K r delta, has_dPhidT c = false -> forall todo d m n,
  let mn := phase_depths c K r delta todo d m n in
  (forall b e, (b <> Phase \/ (e < d)%nat) -> z (fst mn) b e = z m b e) /\
  (forall e, (d <= e < d + todo)%nat -> z (fst mn) Phase e = solution K delta Phase (r Phase e)) /\
  ((0 < todo)%nat -> sol (fst mn) Phase = solution K delta Phase (r Phase (d + todo - 1)%nat)) /\
  (snd mn <= n + todo)%nat /\
  (snd mn = (n + todo)%nat <-> forall e, (d <= e < d + todo)%nat -> converges K delta Phase (r Phase e) = true).
Proof.
  intros c K r delta NT todo. induction todo as [|t IH]; intros d m n mn.
  - cbn in mn. subst mn. cbn [fst snd]. repeat split; try reflexivity; intros; try lia.
  - subst mn. cbn [phase_depths]. rewrite NT.
    set (m1 := set_rhs m Phase (r Phase d)).
    destruct (solve_block_spec K delta Phase m1) as (C & S & _ & _ & Zm).
    set (mb := solve_block K delta Phase m1) in *.
    assert (Rh : rhs m1 Phase = r Phase d) by apply rhs_set. rewrite Rh in C, S.
    set (m2 := set_z (fst mb) Phase d (sol (fst mb) Phase)).
    destruct (IH (Datatypes.S d) m2 (if snd mb then Datatypes.S n else n)) as (A1 & A2 & A3 & A4 & A5).
    repeat split.
    + intros b e H. rewrite A1 by (destruct H; [left; assumption|right; lia]). unfold m2.
      rewrite z_set_other by (destruct H; [left; assumption|right; lia]). rewrite Zm. reflexivity.
    + intros e H. destruct (Nat.eq_dec e d) as [->|N].
      * rewrite A1 by (right; lia). unfold m2. rewrite z_set. exact S.
      * apply A2. lia.
    + intros _. destruct t as [|t'].
      * cbn [phase_depths fst]. unfold m2. cbn [set_z sol]. rewrite S. do 2 f_equal. lia.
      * rewrite A3 by lia. do 2 f_equal. lia.
    + destruct (snd mb); lia.
    + intros H e He. rewrite C in *. destruct (converges K delta Phase (r Phase d)) eqn:E.
      * destruct (Nat.eq_dec e d) as [->|N]; [exact E|]. apply A5; [lia|lia].
      * exfalso. lia.
    + intros H. rewrite C in *. rewrite (H d) in * by lia. 
      assert (G : snd (phase_depths c K r delta t (Datatypes.S d) m2 (Datatypes.S n)) = (Datatypes.S n + t)%nat).
      { apply A5. intros e He. apply H. lia. }
      lia.
Qed.

(** what holds after some blocks: [D] are the blocks done *)
Definition Inv (c : config) (K : kernels) (r : vector) (delta gamma : R) (D : block -> bool) (x : option (mem * Z)) : Prop :=
  forall m k, x = Some (m, k) ->
  (forall b d, D b = true -> cact c b = true -> (d < cdepth c b)%nat -> z m b d = zval c K r delta gamma b d) /\
  (D Phase = true -> with_phase c = true -> has_dquatdphi c || has_dTdphi c = true -> sol m Phase = phi_last c K r delta) /\
  is_code k /\
  (k = 0%Z <-> forall b, D b = true -> cact c b = true -> okb c K r delta gamma b).

Definition also (D : block -> bool) (b : block) : block -> bool := fun b' => D b' || block_eqb b' b.

(** a step that works on block B only *)
Lemma step_inv : forall c K r delta gamma D B x f, B <> Phase -> D B = false ->
  Inv c K r delta gamma D x ->
  (forall m m' k, sol m Phase = phi_last c K r delta \/ D Phase = false \/ with_phase c = false \/ has_dquatdphi c || has_dTdphi c = false ->
     f m = Some (m', k) -> 
     (forall b d, b <> B -> z m' b d = z m b d) /\ sol m' Phase = sol m Phase /\ is_code k /\
     z m' B 0%nat = zval c K r delta gamma B 0 /\
     (k = 0%Z <-> okb c K r delta gamma B)) ->
  Inv c K r delta gamma (also D B) (if cact c B then then_ x f else x).
Proof.
  intros c K r delta gamma D B x f NP DB I F m k E.
  assert (DP : also D B Phase = D Phase).
  { unfold also. rewrite (block_eqb_other Phase B) by congruence. apply orb_false_r. }
  assert (CD : cdepth c B = 1%nat) by (destruct B; try reflexivity; contradiction).
  destruct (cact c B) eqn:A.
  - unfold then_ in E. destruct x as [[m0 k0]|]; [|discriminate]. destruct (f m0) as [[m1 k1]|] eqn:E1; [|discriminate].
    injection E as <- <-. destruct (I m0 k0 eq_refl) as (I1 & I2 & I3 & I4).
    destruct (F m0 m1 k1) as (F1 & F2 & F3 & F4 & F5); [|exact E1|].
    { destruct (D Phase) eqn:E2; [|tauto]. destruct (with_phase c) eqn:E3; [|tauto].
      destruct (has_dquatdphi c || has_dTdphi c) eqn:E4; [|tauto]. left. apply I2; reflexivity. }
    destruct (merge_spec k1 k0) as [M1 M2].
    split; [|split; [|split; [exact M1|]]].
    + intros b d Hb Ha Hd. unfold also in Hb. destruct (block_eqb b B) eqn:Eb.
      * assert (b = B) by (destruct b, B; discriminate || reflexivity). subst b.
        rewrite CD in Hd. assert (d = 0%nat) by lia. subst d. exact F4.
      * rewrite orb_false_r in Hb. rewrite F1; [apply I1; assumption|].
        intros ->. rewrite block_eqb_refl in Eb. discriminate.
    + rewrite DP. intros Hd Hw Hc. rewrite F2. apply I2; assumption.
    + rewrite M2, F5, I4. split.
      * intros [H1 H2] b Hb Ha. unfold also in Hb. destruct (block_eqb b B) eqn:Eb.
        -- assert (b = B) by (destruct b, B; discriminate || reflexivity). subst b. exact H1.
        -- rewrite orb_false_r in Hb. apply H2; assumption.
      * intros H. split.
        -- apply H; [unfold also; rewrite block_eqb_refl; apply orb_true_r|exact A].
        -- intros b Hb Ha. apply H; [unfold also; rewrite Hb; reflexivity|exact Ha].
  - destruct (I m k E) as (I1 & I2 & I3 & I4).
    assert (Q : forall b, also D B b = true -> cact c b = true -> D b = true).
    { intros b Hb Ha. unfold also in Hb. destruct (block_eqb b B) eqn:Eb.
      - assert (b = B) by (destruct b, B; discriminate || reflexivity). subst b. congruence.
      - rewrite orb_false_r in Hb. exact Hb. }
    split; [|split; [|split; [exact I3|]]].
    + intros b d Hb Ha Hd. apply I1; auto.
    + rewrite DP. exact I2.
    + rewrite I4. split; intros H b Hb Ha; apply H; auto. unfold also. rewrite Hb. reflexivity.
Qed.

Lemma code_spec : forall b, is_code (code b) /\ (code b = 0%Z <-> b = true).
Proof. intros [|]; unfold is_code; cbn; split; auto; split; intros; try lia; try discriminate; reflexivity. Qed.

Lemma one_depth : forall c K r delta gamma b, b <> Phase -> solved c b = true ->
  (okb c K r delta gamma b <-> converges K delta b (given c K r delta gamma b 0) = true).
Proof.
  intros c K r delta gamma b N S. assert (cdepth c b = 1%nat) by (destruct b; try reflexivity; contradiction). unfold okb. rewrite H. split.
  - intros Q. apply Q; [lia|exact S].
  - intros Q d Hd _. assert (d = 0%nat) by lia. subst. exact Q.
Qed.
Lemma not_solved : forall c K r delta gamma b, solved c b = false -> okb c K r delta gamma b.
Proof. intros c K r delta gamma b H d _ H'. congruence. Qed.

Lemma phase_step : forall c K r delta gamma m m' k, has_dPhidT c = false -> (1 <= norderp c)%nat ->
  applyPhasePreconditioner c K r delta gamma m = Some (m', k) ->
  (forall b d, b <> Phase -> z m' b d = z m b d) /\
  (forall d, (d < norderp c)%nat -> z m' Phase d = zval c K r delta gamma Phase d) /\
  (has_dquatdphi c || has_dTdphi c = true -> sol m' Phase = phi_last c K r delta) /\
  is_code k /\ (k = 0%Z <-> okb c K r delta gamma Phase).
Proof.
  intros c K r delta gamma m m' k NT N1 E. unfold applyPhasePreconditioner in E.
  destruct (phase_solver c) eqn:S.
  - unfold PhasePrecondSolve in E. rewrite NT in E. injection E as <- <-.
    destruct (phase_depths_spec c K r delta NT (norderp c) 0 m 0) as (A1 & A2 & A3 & A4 & A5).
    split; [intros b d H; apply A1; left; exact H|].
    split; [intros d H; rewrite A2 by lia; unfold zval; cbn [solved]; rewrite S; reflexivity|].
    split; [intros _; unfold phi_last; rewrite S; rewrite A3 by lia; reflexivity|].
    split; [apply merge_spec|]. rewrite (proj2 (merge_spec _ _)).
    split.
    + intros [H _] d Hd _. cbn [cdepth] in Hd. destruct (Nat.eqb_spec (snd (phase_depths c K r delta (norderp c) 0 m 0)) (norderp c)) as [E|E]; [|discriminate].
      apply A5; [exact E|lia].
    + intros H. split; [|reflexivity].
      assert (E : snd (phase_depths c K r delta (norderp c) 0 m 0) = norderp c).
      { apply A5. intros e He. apply H; [cbn; lia|exact S]. }
      rewrite E, Nat.eqb_refl. reflexivity.
  - assert (ZV : forall d, zval c K r delta gamma Phase d = r Phase d) by (intros; unfold zval; cbn [solved]; rewrite S; reflexivity).
    assert (P0 : (norderp c =? 1)%nat = true -> phi_last c K r delta = r Phase 0%nat).
    { intros H. unfold phi_last. rewrite S. apply Nat.eqb_eq in H. rewrite H. reflexivity. }
    destruct (has_dquatdphi c || has_dTdphi c) eqn:Cp.
    + destruct (norderp c =? 1)%nat eqn:O1; [|discriminate]. injection E as <- <-.
      split; [intros b d H; cbn; rewrite (block_eqb_other b Phase H); reflexivity|].
      split; [intros d _; rewrite ZV; reflexivity|].
      split; [intros _; rewrite sol_set; cbn; symmetry; apply P0; reflexivity|].
      split; [left; reflexivity|]. split; [intros _; apply not_solved; exact S|reflexivity].
    + injection E as <- <-.
      split; [intros b d H; cbn; rewrite (block_eqb_other b Phase H); reflexivity|].
      split; [intros d _; rewrite ZV; reflexivity|].
      split; [discriminate|].
      split; [left; reflexivity|]. split; [intros _; apply not_solved; exact S|reflexivity].
Qed.

Lemma simple_solve : forall c K r delta gamma b m f, b <> Phase -> solved c b = true -> f = given c K r delta gamma b 0 ->
  let mb := solve_block K delta b (set_rhs m b f) in
  sol (fst mb) b = solution K delta b (given c K r delta gamma b 0) /\
  sol (fst mb) Phase = sol m Phase /\ z (fst mb) = z m /\
  is_code (code (snd mb)) /\ (code (snd mb) = 0%Z <-> okb c K r delta gamma b).
Proof.
  intros c K r delta gamma b m f N S -> mb.
  destruct (solve_block_spec K delta b (set_rhs m b (given c K r delta gamma b 0))) as (A1 & A2 & A3 & _ & A5).
  rewrite rhs_set in A1, A2. fold mb in A1, A2, A3, A5.
  split; [exact A2|]. split; [apply A3; congruence|]. split; [exact A5|]. split; [apply code_spec|].
  rewrite (proj2 (code_spec _)), A1, one_depth by assumption. reflexivity.
Qed.

(** what a block other than the phase does *)
Definition does (c : config) (K : kernels) (r : vector) (delta gamma : R) (B : block) (m m' : mem) (k : Z) : Prop :=
  (forall b d, b <> B -> z m' b d = z m b d) /\ sol m' Phase = sol m Phase /\ is_code k /\
  z m' B 0%nat = zval c K r delta gamma B 0 /\ (k = 0%Z <-> okb c K r delta gamma B).

Lemma does_solve : forall c K r delta gamma B m f, B = Eta \/ B = Temp \/ B = Conc -> solved c B = true -> f = given c K r delta gamma B 0 ->
  let mb := solve_block K delta B (set_rhs m B f) in
  does c K r delta gamma B m (set_z (fst mb) B 0 (sol (fst mb) B)) (code (snd mb)).
Proof.
  intros c K r delta gamma B m f HB S F mb.
  assert (N : B <> Phase) by (destruct HB as [->|[->| ->]]; discriminate).
  destruct (simple_solve c K r delta gamma B m f N S F) as (A1 & A2 & A3 & A4 & A5). fold mb in A1, A2, A3, A4, A5.
  split; [intros b d H; rewrite z_set_other by (left; exact H); rewrite A3; reflexivity|].
  split; [exact A2|]. split; [exact A4|]. split; [|exact A5].
  rewrite z_set, A1. unfold zval. rewrite S. destruct HB as [->|[->| ->]]; reflexivity.
Qed.

Lemma does_copy : forall c K r delta gamma B m, solved c B = false -> does c K r delta gamma B m (set_z m B 0 (r B 0%nat)) 0.
Proof.
  intros c K r delta gamma B m S. split; [intros b d H; apply z_set_other; left; exact H|].
  split; [reflexivity|]. split; [left; reflexivity|].
  split; [rewrite z_set; unfold zval; rewrite S; reflexivity|].
  split; [intros _; apply not_solved; exact S|reflexivity].
Qed.

Lemma merge_0 : forall k, is_code k -> merge k 0 = k.
Proof. intros k [-> | ->]; reflexivity. Qed.

Lemma temp_step : forall c K r delta gamma m m' k, has_dPhidT c = false ->
  (has_dTdphi c = true -> with_phase c = true -> sol m Phase = phi_last c K r delta) ->
  applyTemperaturePreconditioner c K r delta gamma m = Some (m', k) -> does c K r delta gamma Temp m m' k.
Proof.
  intros c K r delta gamma m m' k NT SP E. unfold applyTemperaturePreconditioner in E.
  destruct (temperature_solver c) eqn:S.
  - unfold TemperaturePrecondSolve in E.
    assert (Q : forall f, f = given c K r delta gamma Temp 0 -> forall mb, mb = solve_block K delta Temp (set_rhs m Temp f) ->
      Some (set_z (fst mb) Temp 0 (sol (fst mb) Temp), merge (code (snd mb)) 0) = Some (m', k) -> does c K r delta gamma Temp m m' k).
    { intros f F mb Mb E'. injection E' as <- <-. rewrite merge_0 by apply code_spec. subst mb.
      apply (does_solve c K r delta gamma Temp m f); [right; left; reflexivity|exact S|exact F]. }
    destruct (has_dTdphi c) eqn:T.
    + destruct (with_phase c) eqn:W; [|discriminate].
      eapply Q; [|reflexivity|exact E]. rewrite (SP eq_refl eq_refl). unfold given, scaled, coupled. rewrite T.
      apply functional_extensionality. intros l. apply functional_extensionality. intros i. unfold axpy. ring.
    + eapply Q; [|reflexivity|exact E]. unfold given, scaled, coupled. rewrite T. reflexivity.
  - rewrite NT in E. injection E as <- <-. apply does_copy. exact S.
Qed.

Lemma quat_step : forall c K r delta gamma m m' k,
  (has_dquatdphi c = true -> sol m Phase = phi_last c K r delta) ->
  (if precondition_quat c then QuatPrecondSolve c K r delta gamma m else Some (set_z m Quat 0 (r Quat 0%nat), 0%Z)) = Some (m', k) ->
  does c K r delta gamma Quat m m' k.
Proof.
  intros c K r delta gamma m m' k SP E. destruct (precondition_quat c) eqn:S.
  - unfold QuatPrecondSolve in E.
    assert (Q : forall m0 f, divide (rhs m0 Quat) (sqrtM K) = f -> f = given c K r delta gamma Quat 0 -> z m0 = z m -> sol m0 = sol m ->
      forall mb, mb = solve_block K delta Quat (set_rhs m0 Quat f) ->
      forall m2, m2 = set_sol (fst mb) Quat (multiply (sol (fst mb) Quat) (sqrtM K)) ->
      Some (set_z m2 Quat 0 (sol m2 Quat), code (snd mb)) = Some (m', k) -> does c K r delta gamma Quat m m' k).
    { intros m0 f D F Zm Sm mb Mb m2 M2 E'. injection E' as <- <-.
      destruct (simple_solve c K r delta gamma Quat m0 f ltac:(discriminate) S F) as (A1 & A2 & A3 & A4 & A5).
      rewrite <- Mb in A1, A2, A3, A4, A5. subst m2.
      split; [intros b d H; rewrite z_set_other by (left; exact H); cbn [set_sol z]; rewrite A3, Zm; reflexivity|].
      split; [cbn [set_z set_sol sol]; cbn [block_eqb]; rewrite A2, Sm; reflexivity|].
      split; [exact A4|]. split; [|exact A5].
      rewrite z_set, sol_set, A1. unfold zval. cbn [solved]. rewrite S. reflexivity. }
    destruct (has_dquatdphi c) eqn:T.
    + destruct (use_gradq_for_flux c); [discriminate|].
      eapply Q; [reflexivity| | | |reflexivity|reflexivity|exact E]; [|reflexivity|reflexivity].
      rewrite rhs_set, (SP eq_refl). unfold given, scaled, coupled, divide, axpy. rewrite T.
      apply functional_extensionality. intros l. apply functional_extensionality. intros i. f_equal. ring.
    + eapply Q; [reflexivity| | | |reflexivity|reflexivity|exact E]; [|reflexivity|reflexivity].
      rewrite rhs_set. unfold given, scaled, coupled, divide. rewrite T. reflexivity.
  - injection E as <- <-. apply does_copy. exact S.
Qed.

Lemma closed_form : forall c K r gamma delta lr m m' k,
  has_dPhidT c = false -> (1 <= norderp c)%nat -> (has_dquatdphi c = true -> with_phase c = true) ->
  lr = 1%Z \/ lr = 2%Z -> CVSpgmrPrecondSolve c K r gamma delta lr m = Some (m', k) ->
  (forall b d, cact c b = true -> (d < cdepth c b)%nat -> z m' b d = zval c K r delta gamma b d) /\
  is_code k /\ (k = 0%Z <-> forall b, cact c b = true -> okb c K r delta gamma b).
Proof.
  intros c K r gamma delta lr m m' k NT N1 QP LR E. unfold CVSpgmrPrecondSolve in E.
  destruct (use_preconditioner c); [|discriminate]. cbn [negb] in E.
  assert (L : ((lr =? 1) || (lr =? 2))%Z = true) by (destruct LR as [-> | ->]; reflexivity). rewrite L in E.
  rewrite NT in E. rewrite andb_false_r, andb_true_r in E. cbv zeta in E.
  pose (D0 := fun _ : block => false).
  assert (I0 : Inv c K r delta gamma D0 (Some (m, 0%Z))).
  { intros m0 k0 H. injection H as <- <-. split; [discriminate|]. split; [discriminate|]. split; [left; reflexivity|].
    split; [intros _ b Hb; discriminate|reflexivity]. }
  set (x0 := Some (m, 0%Z)) in *.
  pose (D1 := also D0 Phase).
  set (x1 := if with_phase c then _ else x0) in E.
  assert (I1 : Inv c K r delta gamma D1 x1).
  { intros m1 k1 H. unfold x1 in H. destruct (with_phase c) eqn:W.
    - unfold then_, x0 in H. destruct (applyPhasePreconditioner c K r delta gamma m) as [[ma ka]|] eqn:Ea; [|discriminate].
      injection H as <- <-. destruct (phase_step _ _ _ _ _ _ _ _ NT N1 Ea) as (_ & A2 & A3 & A4 & A5).
      rewrite merge_0 by exact A4.
      split; [intros b d Hb Ha Hd; destruct b; try discriminate Hb; apply A2; exact Hd|].
      split; [intros _ _; exact A3|]. split; [exact A4|]. rewrite A5.
      split; [intros H b Hb _; destruct b; try discriminate Hb; exact H|intros H; apply H; [reflexivity|exact W]].
    - unfold x0 in H. injection H as <- <-.
      assert (V : forall b, D1 b = true -> cact c b = true -> False).
      { intros b Hb Ha. destruct b; try discriminate Hb. cbn in Ha. congruence. }
      split; [intros b d Hb Ha; exfalso; eauto|]. split; [congruence|]. split; [left; reflexivity|].
      split; [intros _ b Hb Ha; exfalso; eauto|reflexivity]. }
  set (x2 := if with_third_phase c then _ else x1) in E.
  pose proof (step_inv c K r delta gamma D1 Eta x1
    (fun m => Some (if eta_solver c then EtaPrecondSolve K r delta m else (set_z m Eta 0 (r Eta 0%nat), 0%Z)))
    ltac:(discriminate) eq_refl I1) as I2. cbn [cact] in I2. fold x2 in I2.
  assert (J2 : Inv c K r delta gamma (also D1 Eta) x2).
  { apply I2. clear. intros m m' k _ E. destruct (eta_solver c) eqn:S; injection E as <- <-.
    - apply (does_solve c K r delta gamma Eta m (r Eta 0%nat)); [left; reflexivity|exact S|reflexivity].
    - apply does_copy. exact S. }
  clear I2. set (D2 := also D1 Eta) in *.
  set (x3 := if evolve_quat c then _ else x2) in E.
  pose proof (step_inv c K r delta gamma D2 Quat x2
    (fun m => if precondition_quat c then QuatPrecondSolve c K r delta gamma m else Some (set_z m Quat 0 (r Quat 0%nat), 0%Z))
    ltac:(discriminate) eq_refl J2) as I3. cbn [cact] in I3. fold x3 in I3.
  assert (J3 : Inv c K r delta gamma (also D2 Quat) x3).
  { apply I3. clear - QP. intros m m' k S E. apply quat_step; [|exact E]. intros T.
    destruct S as [S|[S|[S|S]]]; [exact S|discriminate S|rewrite QP in S by exact T; discriminate|rewrite T in S; discriminate]. }
  clear I3. set (D3 := also D2 Quat) in *.
  set (x4 := if with_unsteady_temperature c then _ else x3) in E.
  pose proof (step_inv c K r delta gamma D3 Temp x3 (applyTemperaturePreconditioner c K r delta gamma)
    ltac:(discriminate) eq_refl J3) as I4. cbn [cact] in I4. fold x4 in I4.
  assert (J4 : Inv c K r delta gamma (also D3 Temp) x4).
  { apply I4. clear - NT. intros m m' k S E. apply temp_step; [exact NT| |exact E]. intros T W.
    destruct S as [S|[S|[S|S]]]; [exact S|discriminate S|congruence|rewrite T, orb_true_r in S; discriminate]. }
  clear I4. set (D4 := also D3 Temp) in *.
  pose proof (step_inv c K r delta gamma D4 Conc x4 (fun m => Some (applyConcentrationPreconditioner c K r delta m))
    ltac:(discriminate) eq_refl J4) as I5. cbn [cact] in I5.
  assert (J5 : Inv c K r delta gamma (also D4 Conc) (Some (m', k))).
  { rewrite <- E. apply I5. clear. intros m m' k _ E. unfold applyConcentrationPreconditioner in E.
    destruct (conc_solver c) eqn:S; injection E as <- <-.
    - apply (does_solve c K r delta gamma Conc m (r Conc 0%nat)); [right; right; reflexivity|exact S|reflexivity].
    - apply does_copy. exact S. }
  destruct (J5 m' k eq_refl) as (A1 & _ & A3 & A4).
  assert (All : forall b, also D4 Conc b = true) by (destruct b; reflexivity).
  split; [intros b d Ha Hd; apply A1; auto|]. split; [exact A3|]. rewrite A4.
  split; intros H b; [intros Ha|intros _ Ha]; apply H; auto.
Qed.

(** ** when the callback runs *)

Definition never (f : mem -> option (mem * Z)) (P : Prop) : Prop := forall m, f m <> None <-> P.

Lemma then_never : forall x f P, never f P -> (then_ x f <> None <-> x <> None /\ P).
Proof.
  intros x f P H. unfold then_. destruct x as [[m k]|].
  - specialize (H m). destruct (f m) as [[m' k']|].
    + split; intros _; [split; [discriminate|apply H; discriminate]|discriminate].
    + split; [intros N; contradiction|]. intros [_ Q]. apply H in Q. contradiction.
  - split; [intros N; contradiction|intros [N _]; contradiction].
Qed.

Lemma phase_never : forall c K r delta gamma, never (applyPhasePreconditioner c K r delta gamma)
  ((phase_solver c = false -> has_dquatdphi c || has_dTdphi c = true -> norderp c = 1%nat) /\
   (phase_solver c = true -> has_dPhidT c = true -> norderp c = 1%nat /\ delta_temperature c = true)).
Proof.
  intros c K r delta gamma m. unfold applyPhasePreconditioner, PhasePrecondSolve.
  destruct (phase_solver c).
  - destruct (has_dPhidT c).
    + destruct (Nat.eqb_spec (norderp c) 1), (delta_temperature c); cbn [andb]; split; intros H; try discriminate; try contradiction;
        try (split; [discriminate|auto]); try (destruct H as [_ H]; destruct (H eq_refl eq_refl); congruence).
    + split; [intros _; split; discriminate|discriminate].
  - destruct (has_dquatdphi c || has_dTdphi c).
    + destruct (Nat.eqb_spec (norderp c) 1); split; intros H; try discriminate; try contradiction; try (split; [auto|discriminate]).
      destruct H as [H _]. specialize (H eq_refl eq_refl). contradiction.
    + split; [intros _; split; discriminate|discriminate].
Qed.

Lemma temp_never : forall c K r delta gamma, never (applyTemperaturePreconditioner c K r delta gamma)
  (temperature_solver c = true -> has_dTdphi c = true -> with_phase c = true).
Proof.
  intros c K r delta gamma m. unfold applyTemperaturePreconditioner, TemperaturePrecondSolve.
  destruct (temperature_solver c).
  - destruct (has_dTdphi c), (with_phase c); split; intros H; try discriminate; try contradiction; auto; specialize (H eq_refl eq_refl); discriminate.
  - split; [discriminate|]. intros _. destruct (has_dPhidT c); discriminate.
Qed.

Lemma quat_never : forall c K r delta gamma,
  never (fun m => if precondition_quat c then QuatPrecondSolve c K r delta gamma m else Some (set_z m Quat 0 (r Quat 0%nat), 0%Z))
  (precondition_quat c = true -> has_dquatdphi c = true -> use_gradq_for_flux c = false).
Proof.
  intros c K r delta gamma m. unfold QuatPrecondSolve. destruct (precondition_quat c); [|split; discriminate].
  destruct (has_dquatdphi c); [|split; [discriminate|discriminate]].
  destruct (use_gradq_for_flux c); split; intros H; try discriminate; try contradiction; auto. specialize (H eq_refl eq_refl). discriminate.
Qed.

Lemma always_never : forall f : mem -> mem * Z, never (fun m => Some (f m)) True.
Proof. intros f m. split; [auto|discriminate]. Qed.

Lemma if_never : forall (b : bool) x f P, never f P -> ((if b then then_ x f else x) <> None <-> x <> None /\ (b = true -> P)).
Proof.
  intros b x f P H. destruct b; [rewrite then_never by exact H; intuition|]. split; [intros N; split; [exact N|discriminate]|intros [N _]; exact N].
Qed.

Lemma callback_runs : forall c K r gamma delta lr m, lr = 1%Z \/ lr = 2%Z ->
  (CVSpgmrPrecondSolve c K r gamma delta lr m <> None <-> runs c).
Proof.
  intros c K r gamma delta lr m LR. unfold CVSpgmrPrecondSolve, runs.
  assert (L : ((lr =? 1) || (lr =? 2))%Z = true) by (destruct LR as [-> | ->]; reflexivity). rewrite L.
  destruct (use_preconditioner c); cbn [negb]; [|split; [intros N; contradiction|intros [H _]; discriminate]].
  rewrite (if_never _ _ _ _ (always_never _)).
  rewrite (if_never _ _ _ _ (temp_never _ _ _ _ _)).
  rewrite (if_never _ _ _ _ (quat_never _ _ _ _ _)).
  rewrite (if_never _ _ _ _ (always_never _)).
  rewrite (if_never _ _ _ _ (phase_never _ _ _ _ _)).
  rewrite (if_never _ _ _ _ (temp_never _ _ _ _ _)).
  destruct (with_unsteady_temperature c), (has_dPhidT c); cbn [andb negb]; intuition discriminate.
Qed.

(** ** the statements *)

Lemma setup_active : forall p inp b, cact (setupPreconditioners p inp) b = active p b.
Proof. intros p inp b. destruct b; reflexivity. Qed.
Lemma setup_depth : forall p inp b, cdepth (setupPreconditioners p inp) b = depth p b.
Proof. intros p inp b. destruct b; reflexivity. Qed.
Lemma setup_dquatdphi : forall p inp, has_dquatdphi (setupPreconditioners p inp) = true -> p_phase p = true.
Proof. intros p inp. cbn. unfold read_flags. destruct (p_phase p); [reflexivity|discriminate]. Qed.

Lemma scaled_unscaled : forall K b x, (forall k i, sqrtM K k i <> 0) -> scaled K b (unscaled K b x) = x.
Proof.
  intros K b x H. destruct b; try reflexivity. cbn. apply functional_extensionality. intros k. apply functional_extensionality. intros i.
  field. apply H.
Qed.

Lemma given_last : forall p inp K r gamma delta lr m m' k b d, let c := setupPreconditioners p inp in
  has_dPhidT c = false -> (1 <= p_norderp p)%nat -> lr = 1%Z \/ lr = 2%Z ->
  CVSpgmrPrecondSolve c K r gamma delta lr m = Some (m', k) -> active p b = true -> solved c b = true ->
  given c K r delta gamma b d = scaled K b (coupled c K gamma (z m' Phase (p_norderp p - 1)%nat) b (r b d)).
Proof.
  intros p inp K r gamma delta lr m m' k b d c NT N1 LR E Ab Sb.
  destruct (closed_form c K r gamma delta lr m m' k NT N1 (setup_dquatdphi p inp) LR E) as (A & _ & _).
  assert (Rn : runs c) by (apply (callback_runs c K r gamma delta lr m LR); rewrite E; discriminate).
  destruct Rn as (_ & _ & RT & _ & _).
  unfold given. f_equal.
  assert (Ph : p_phase p = true -> phi_last c K r delta = z m' Phase (p_norderp p - 1)%nat).
  { intros W. rewrite A; [|exact W|cbn; lia]. unfold zval, phi_last. cbn [solved]. destruct (phase_solver c); reflexivity. }
  destruct b; try reflexivity; cbn [coupled].
  - destruct (has_dquatdphi c) eqn:T; [|reflexivity]. rewrite Ph; [reflexivity|]. apply (setup_dquatdphi p inp T).
  - destruct (has_dTdphi c) eqn:T; [|reflexivity]. rewrite Ph; [reflexivity|]. apply RT; [exact Ab|exact Sb|reflexivity].
Qed.

Lemma rows_last : forall p inp K r gamma delta lr m m' k, let c := setupPreconditioners p inp in
  good_kernels K -> has_dPhidT c = false -> (1 <= p_norderp p)%nat -> lr = 1%Z \/ lr = 2%Z ->
  CVSpgmrPrecondSolve c K r gamma delta lr m = Some (m', k) ->
  (forall b d, active p b = true -> (d < depth p b)%nat -> solved c b = false -> z m' b d = r b d) /\
  (k = 0%Z \/ k = 1%Z) /\
  (k = 0%Z <-> forall b d, active p b = true -> (d < depth p b)%nat -> solved c b = true ->
     within (ops K b) (PrecSolve_Model.set K b) delta (scaled K b (z m' b d))
       (scaled K b (coupled c K gamma (z m' Phase (p_norderp p - 1)%nat) b (r b d)))).
Proof.
  intros p inp K r gamma delta lr m m' k c [KK KM] NT N1 LR E.
  destruct (closed_form c K r gamma delta lr m m' k NT N1 (setup_dquatdphi p inp) LR E) as (A & B & C).
  split; [|split; [exact B|]].
  - intros b d Ha Hd Hs. rewrite A; [unfold zval; rewrite Hs; reflexivity|exact (eq_trans (setup_active p inp b) Ha)|].
    unfold c. rewrite setup_depth. exact Hd.
  - assert (Eq : forall b d, active p b = true -> (d < depth p b)%nat -> solved c b = true ->
      (converges K delta b (given c K r delta gamma b d) = true <->
       within (ops K b) (PrecSolve_Model.set K b) delta (scaled K b (z m' b d))
         (scaled K b (coupled c K gamma (z m' Phase (p_norderp p - 1)%nat) b (r b d))))).
    { intros b d Ha Hd Hs. rewrite solution_within by apply KK.
      rewrite A; [|exact (eq_trans (setup_active p inp b) Ha)|unfold c; rewrite setup_depth; exact Hd].
      unfold zval. rewrite Hs, scaled_unscaled by exact KM.
      unfold c. rewrite (given_last p inp K r gamma delta lr m m' k b d NT N1 LR E Ha Hs). reflexivity. }
    rewrite C. split.
    + intros H b d Ha Hd Hs. apply Eq; try assumption. apply H; [exact (eq_trans (setup_active p inp b) Ha)| |exact Hs].
      unfold c. rewrite setup_depth. exact Hd.
    + intros H b Ha d Hd Hs. unfold c in Ha, Hd. rewrite setup_active in Ha. rewrite setup_depth in Hd.
      apply Eq; try assumption. apply H; assumption.
Qed.

Lemma rows : forall p inp K r gamma delta lr m m' k, let c := setupPreconditioners p inp in
  good_kernels K -> has_dPhidT c = false -> p_norderp p = 1%nat -> lr = 1%Z \/ lr = 2%Z ->
  CVSpgmrPrecondSolve c K r gamma delta lr m = Some (m', k) ->
  (forall b d, active p b = true -> (d < depth p b)%nat -> solved c b = false -> z m' b d = r b d) /\
  (k = 0%Z \/ k = 1%Z) /\
  (k = 0%Z <-> forall b d, active p b = true -> (d < depth p b)%nat -> solved c b = true ->
     within (ops K b) (PrecSolve_Model.set K b) delta (scaled K b (z m' b d))
       (scaled K b (coupled c K gamma (z m' Phase 0%nat) b (r b d)))).
Proof.
  intros p inp K r gamma delta lr m m' k c GK NT N1 LR E.
  pose proof (rows_last p inp K r gamma delta lr m m' k GK NT ltac:(lia) LR E) as H. rewrite N1 in H. exact H.
Qed.

Lemma rows_uncoupled : forall p inp K r gamma delta lr m m' k, let c := setupPreconditioners p inp in
  good_kernels K -> has_dPhidT c = false -> couples p c = false -> (1 <= p_norderp p)%nat -> lr = 1%Z \/ lr = 2%Z ->
  CVSpgmrPrecondSolve c K r gamma delta lr m = Some (m', k) ->
  (k = 0%Z <-> forall b d, active p b = true -> (d < depth p b)%nat -> solved c b = true ->
     within (ops K b) (PrecSolve_Model.set K b) delta (scaled K b (z m' b d)) (scaled K b (r b d))).
Proof.
  intros p inp K r gamma delta lr m m' k c GK NT Cp N1 LR E.
  destruct (rows_last p inp K r gamma delta lr m m' k GK NT N1 LR E) as (_ & _ & H). fold c in H.
  assert (Q : forall b phi f, active p b = true -> solved c b = true -> coupled c K gamma phi b f = f).
  { intros b phi f Ha Hs. unfold couples in Cp. apply orb_false_iff in Cp. destruct Cp as [C1 C2].
    destruct b; try reflexivity; cbn [coupled].
    - cbn [solved] in Hs. rewrite Ha, Hs in C2. cbn [andb] in C2. rewrite C2. reflexivity.
    - cbn [solved] in Hs. rewrite Ha, Hs in C1. cbn [andb] in C1. rewrite C1. reflexivity. }
  rewrite H. split; intros G b d Ha Hd Hs; specialize (G b d Ha Hd Hs); rewrite Q in * by assumption; exact G.
Qed.

Lemma exact_rows : forall p inp K A r gamma delta lr m m' k, let c := setupPreconditioners p inp in
  (forall b, exact_block (ops K b) (A b) /\ finest (PrecSolve_Model.set K b) = 0%nat /\ (1 <= max_cycles (PrecSolve_Model.set K b))%nat) ->
  (forall k i, sqrtM K k i <> 0) -> 0 < delta ->
  has_dPhidT c = false -> p_norderp p = 1%nat -> lr = 1%Z \/ lr = 2%Z ->
  CVSpgmrPrecondSolve c K r gamma delta lr m = Some (m', k) ->
  k = 0%Z /\
  forall b d, active p b = true -> (d < depth p b)%nat -> solved c b = true ->
    A b (scaled K b (z m' b d) 0%nat) = scaled K b (coupled c K gamma (z m' Phase 0%nat) b (r b d)) 0%nat.
Proof.
  intros p inp K A r gamma delta lr m m' k c HK KM D0 NT N1 LR E.
  destruct (closed_form c K r gamma delta lr m m' k NT ltac:(cbn; lia) (setup_dquatdphi p inp) LR E) as (Z1 & _ & C).
  assert (S : forall b f, converges K delta b f = true /\ A b (solution K delta b f 0%nat) = f 0%nat).
  { intros b f. destruct (HK b) as (H1 & H2 & H3).
    destruct (one_level_exact (ops K b) (A b) (PrecSolve_Model.set K b) delta zero f zero H1 H2 H3 D0) as (st & Q1 & _ & Q3).
    unfold converges, solution. rewrite Q1. split; [reflexivity|exact Q3]. }
  split.
  - apply C. intros b _ d _ _. apply S.
  - intros b d Ha Hd Hs.
    rewrite Z1; [|exact (eq_trans (setup_active p inp b) Ha)|unfold c; rewrite setup_depth; exact Hd].
    unfold zval at 1. rewrite Hs, scaled_unscaled by exact KM. destruct (S b (given c K r delta gamma b d)) as [_ S2]. rewrite S2.
    unfold c. rewrite (given_last p inp K r gamma delta lr m m' k b d NT ltac:(lia) LR E Ha Hs), N1. reflexivity.
Qed.

Lemma codes_equal : forall (P : Prop) k k', is_code k -> is_code k' -> (k = 0%Z <-> P) -> (k' = 0%Z <-> P) -> k = k'.
Proof.
  intros P k k' [-> | ->] [-> | ->] H H'; try reflexivity; exfalso.
  - assert (Q : P) by (apply H; reflexivity). apply H' in Q. discriminate.
  - assert (Q : P) by (apply H'; reflexivity). apply H in Q. discriminate.
Qed.

Lemma memory_free : forall p inp K r gamma delta lr m1 m2 m1' m2' k1 k2, let c := setupPreconditioners p inp in
  has_dPhidT c = false -> (1 <= p_norderp p)%nat -> lr = 1%Z \/ lr = 2%Z ->
  CVSpgmrPrecondSolve c K r gamma delta lr m1 = Some (m1', k1) ->
  CVSpgmrPrecondSolve c K r gamma delta lr m2 = Some (m2', k2) ->
  k1 = k2 /\ same_components p (z m1') (z m2').
Proof.
  intros p inp K r gamma delta lr m1 m2 m1' m2' k1 k2 c NT N1 LR E1 E2.
  destruct (closed_form c K r gamma delta lr m1 m1' k1 NT N1 (setup_dquatdphi p inp) LR E1) as (A1 & B1 & C1).
  destruct (closed_form c K r gamma delta lr m2 m2' k2 NT N1 (setup_dquatdphi p inp) LR E2) as (A2 & B2 & C2).
  split; [eapply codes_equal; eassumption|].
  intros b d Ha Hd. rewrite <- (setup_active p inp) in Ha. rewrite <- (setup_depth p inp) in Hd.
  rewrite A1, A2 by assumption. reflexivity.
Qed.

Lemma last_only : forall p inp K r1 r2 gamma delta lr m1 m2 m1' m2' k1 k2, let c := setupPreconditioners p inp in
  has_dPhidT c = false -> (1 <= p_norderp p)%nat -> lr = 1%Z \/ lr = 2%Z ->
  (forall b, b <> Phase -> r1 b = r2 b) -> r1 Phase (p_norderp p - 1)%nat = r2 Phase (p_norderp p - 1)%nat ->
  CVSpgmrPrecondSolve c K r1 gamma delta lr m1 = Some (m1', k1) ->
  CVSpgmrPrecondSolve c K r2 gamma delta lr m2 = Some (m2', k2) ->
  forall b d, b <> Phase -> active p b = true -> (d < depth p b)%nat -> z m1' b d = z m2' b d.
Proof.
  intros p inp K r1 r2 gamma delta lr m1 m2 m1' m2' k1 k2 c NT N1 LR Eb Ep E1 E2 b d Nb Ha Hd.
  destruct (closed_form c K r1 gamma delta lr m1 m1' k1 NT N1 (setup_dquatdphi p inp) LR E1) as (A1 & _ & _).
  destruct (closed_form c K r2 gamma delta lr m2 m2' k2 NT N1 (setup_dquatdphi p inp) LR E2) as (A2 & _ & _).
  rewrite <- (setup_active p inp) in Ha. rewrite <- (setup_depth p inp) in Hd.
  rewrite A1, A2 by assumption. unfold zval, given, phi_last. rewrite (Eb b Nb).
  change (norderp c) with (p_norderp p). rewrite Ep. reflexivity.
Qed.

(** ** with the block dPhi/dT *)

Lemma solve_block_z : forall K delta b m, z (fst (solve_block K delta b m)) = z m.
Proof. intros. apply solve_block_spec. Qed.

Definition leaves (f : mem -> option (mem * Z)) : Prop := forall m m' k, f m = Some (m', k) -> z m' Phase = z m Phase.

Lemma then_leaves : forall (b : bool) x f m k, leaves f -> (if b then then_ x f else x) = Some (m, k) ->
  exists m0 k0, x = Some (m0, k0) /\ z m Phase = z m0 Phase.
Proof.
  intros b x f m k L E. destruct b; [|exists m, k; split; [exact E|reflexivity]].
  unfold then_ in E. destruct x as [[m0 k0]|]; [|discriminate]. destruct (f m0) as [[m1 k1]|] eqn:E1; [|discriminate].
  injection E as <- <-. exists m0, k0. split; [reflexivity|]. apply (L _ _ _ E1).
Qed.

Lemma z_phase_other : forall m b d v, b <> Phase -> z (set_z m b d v) Phase = z m Phase.
Proof. intros m b d v N. destruct b; [contradiction N; reflexivity|reflexivity..]. Qed.

Lemma temp_leaves : forall c K r delta gamma, leaves (applyTemperaturePreconditioner c K r delta gamma).
Proof.
  intros c K r delta gamma m m' k E. unfold applyTemperaturePreconditioner, TemperaturePrecondSolve in E.
  destruct (temperature_solver c).
  - destruct (has_dTdphi c); [destruct (with_phase c); [|discriminate]|]; injection E as <- <-;
      reflexivity.
  - destruct (has_dPhidT c); injection E as <- <-; apply z_phase_other; discriminate.
Qed.

Lemma quat_leaves : forall c K r delta gamma,
  leaves (fun m => if precondition_quat c then QuatPrecondSolve c K r delta gamma m else Some (set_z m Quat 0 (r Quat 0%nat), 0%Z)).
Proof.
  intros c K r delta gamma m m' k E. unfold QuatPrecondSolve in E. destruct (precondition_quat c).
  - destruct (has_dquatdphi c); [destruct (use_gradq_for_flux c); [discriminate|]|]; injection E as <- <-;
      reflexivity.
  - injection E as <- <-. apply z_phase_other. discriminate.
Qed.

Lemma eta_leaves : forall c K r delta,
  leaves (fun m => Some (if eta_solver c then EtaPrecondSolve K r delta m else (set_z m Eta 0 (r Eta 0%nat), 0%Z))).
Proof.
  intros c K r delta m m' k E. unfold EtaPrecondSolve in E. destruct (eta_solver c); injection E as <- <-;
    reflexivity.
Qed.

Lemma conc_leaves : forall c K r delta, leaves (fun m => Some (applyConcentrationPreconditioner c K r delta m)).
Proof.
  intros c K r delta m m' k E. unfold applyConcentrationPreconditioner in E. destruct (conc_solver c); injection E as <- <-;
    reflexivity.
Qed.

(** the phase part of the result comes from the phase part of r and what was in z *)
Definition phase_part (c : config) (K : kernels) (r : vector) (delta gamma : R) (z0 : vec) : vec :=
  if phase_solver c then solution K delta Phase (axpy (-1 * gamma) (applydPhidTBlock K zero z0) (r Phase 0%nat)) else r Phase 0%nat.

Lemma phase_dPhidT : forall c K r gamma delta lr m m' k, has_dPhidT c = true -> with_phase c = true -> lr = 1%Z \/ lr = 2%Z ->
  CVSpgmrPrecondSolve c K r gamma delta lr m = Some (m', k) ->
  z m' Phase 0%nat = phase_part c K r delta gamma (z m Phase 0%nat).
Proof.
  intros c K r gamma delta lr m m' k T W LR E. unfold CVSpgmrPrecondSolve in E.
  destruct (use_preconditioner c); [|discriminate]. cbn [negb] in E.
  assert (L : ((lr =? 1) || (lr =? 2))%Z = true) by (destruct LR as [-> | ->]; reflexivity). rewrite L in E.
  rewrite T, W in E. rewrite andb_false_r, andb_true_r in E. cbv zeta in E.
  apply (then_leaves _ _ _ _ _ (conc_leaves _ _ _ _)) in E. destruct E as (m5 & k5 & E & ->).
  apply (then_leaves _ _ _ _ _ (quat_leaves _ _ _ _ _)) in E. destruct E as (m4 & k4 & E & ->).
  apply (then_leaves _ _ _ _ _ (eta_leaves _ _ _ _)) in E. destruct E as (m3 & k3 & E & ->).
  unfold then_ at 1 in E.
  set (x1 := if with_unsteady_temperature c then _ else _) in E.
  destruct x1 as [[m1 k1]|] eqn:E1; [|discriminate]. unfold x1 in E1.
  apply (then_leaves _ _ _ _ _ (temp_leaves _ _ _ _ _)) in E1. destruct E1 as (m0 & k0 & E0 & Z1). injection E0 as <- <-.
  destruct (applyPhasePreconditioner c K r delta gamma m1) as [[m2 k2]|] eqn:E2; [|discriminate]. injection E as <- <-.
  rewrite <- Z1. unfold applyPhasePreconditioner in E2. unfold phase_part. destruct (phase_solver c).
  - unfold PhasePrecondSolve in E2. rewrite T in E2.
    destruct (Nat.eqb_spec (norderp c) 1) as [N|N]; cbn [andb] in E2; [|discriminate].
    destruct (delta_temperature c); [|discriminate]. rewrite N in E2. cbn [phase_depths fst snd] in E2. rewrite T in E2.
    injection E2 as <- <-. rewrite z_set.
    destruct (solve_block_spec K delta Phase (set_rhs m1 Phase (axpy (-1 * gamma) (applydPhidTBlock K (sol m1 Temp) (z m1 Phase 0%nat)) (r Phase 0%nat))))
      as (_ & S & _). rewrite rhs_set in S. exact S.
  - destruct (has_dquatdphi c || has_dTdphi c); [destruct (norderp c =? 1)%nat; [|discriminate]|]; injection E2 as <- <-; reflexivity.
Qed.

Lemma temperature_ignored : forall c K r1 r2 gamma delta lr m m1 m2 k1 k2,
  has_dPhidT c = true -> with_phase c = true -> lr = 1%Z \/ lr = 2%Z ->
  (forall b, b <> Temp -> r1 b = r2 b) ->
  CVSpgmrPrecondSolve c K r1 gamma delta lr m = Some (m1, k1) ->
  CVSpgmrPrecondSolve c K r2 gamma delta lr m = Some (m2, k2) ->
  z m1 Phase 0%nat = z m2 Phase 0%nat.
Proof.
  intros c K r1 r2 gamma delta lr m m1 m2 k1 k2 T W LR Eb E1 E2.
  rewrite (phase_dPhidT _ _ _ _ _ _ _ _ _ T W LR E1), (phase_dPhidT _ _ _ _ _ _ _ _ _ T W LR E2).
  unfold phase_part. rewrite (Eb Phase) by discriminate. reflexivity.
Qed.

(** ** a small instance *)

(** one level, every operator is the multiplication by 2 *)
Definition twice_ops : facops :=
  {| resid := fun ln u f i => f ln i - 2 * u ln i; err_resid := fun ln u f i => f ln i - 2 * u ln i;
     smooth := fun _ ln e _ => e ln; coarsest := fun _ r i => r 0%nat i / 2; prolong := fun ln e => e ln;
     restrict_sol := fun _ c => c; restrict_res := fun _ c => c; norm := fun r => Rabs (r 0%nat 0%nat) |}.
Definition one_level : settings := {| finest := 0; max_cycles := 10; relative_tol := -1; pre_sweeps := 1; post_sweeps := 1 |}.
Definition small_kernels : kernels :=
  {| ops := fun _ => twice_ops; PrecSolve_Model.set := fun _ => one_level; mulT := fun v => v; mulQ := fun v => v; sqrtM := fun _ _ => 3;
     deriv_interp := fun x => x; alpha := 1 |}.
Definition clean : mem := {| sol := fun _ => zero; rhs := fun _ => zero; tmp := fun _ => zero; z := fun _ _ => zero |}.
Definition ones : vec := fun _ _ => 1.
Definition dirty : mem := {| sol := fun _ => ones; rhs := fun _ => ones; tmp := fun _ => ones; z := fun _ _ => ones |}.
(** a pure material that solidifies, with temperature *)
Definition melt (n : nat) : physics :=
  {| p_phase := true; p_third_phase := false; p_quat := false; p_heat := true; p_steady := false; p_conc := false;
     p_norderp := n; p_gradq_for_flux := false; p_delta_temperature := true; p_kks := false |}.
(** the same with grains *)
Definition grains (flux : bool) : physics :=
  {| p_phase := true; p_third_phase := false; p_quat := true; p_heat := true; p_steady := false; p_conc := false;
     p_norderp := 1; p_gradq_for_flux := flux; p_delta_temperature := true; p_kks := false |}.
Definition with_couplings (qphi tphi phit : bool) : option section :=
  Some {| in_enabled := None; in_phase := None; in_quat := None; in_eta := None; in_conc := None; in_temperature := None;
     in_dquatdphi := Some qphi; in_dTdphi := Some tphi; in_dPhidT := Some phit |}.

Lemma twice_exact : exact_block twice_ops (fun x i => 2 * x i).
Proof.
  repeat split.
  - intros x y. apply functional_extensionality. intros i. ring.
  - intros e r _. apply functional_extensionality. intros i. cbn. field.
  - intros r H. cbn. rewrite H. apply Rabs_R0.
Qed.
Lemma twice_keeps : keeps twice_ops.
Proof. intros a b. reflexivity. Qed.
Lemma small_good : good_kernels small_kernels.
Proof. split; [intros b; apply twice_keeps|]. intros k i. cbn. lra. Qed.
Lemma small_solution : forall delta b f i, 0 < delta -> solution small_kernels delta b f 0%nat i = f 0%nat i / 2.
Proof.
  intros delta b f i D.
  destruct (one_level_exact twice_ops (fun x i => 2 * x i) one_level delta zero f zero twice_exact eq_refl ltac:(cbn; lia) D) as (st & E & _ & A).
  unfold solution. change (ops small_kernels b) with twice_ops. change (PrecSolve_Model.set small_kernels b) with one_level. rewrite E. cbn [fst].
  apply (f_equal (fun g => g i)) in A. cbn in A. lra.
Qed.

(** the content of z before the call changes the result *)
Lemma old_z_matters : exists p inp K r m1 m2 m1' m2' k1 k2, let c := setupPreconditioners p inp in
  good_kernels K /\ p_norderp p = 1%nat /\ sol m1 = sol m2 /\ rhs m1 = rhs m2 /\ tmp m1 = tmp m2 /\
  CVSpgmrPrecondSolve c K r 1 1 1 m1 = Some (m1', k1) /\ CVSpgmrPrecondSolve c K r 1 1 1 m2 = Some (m2', k2) /\
  active p Phase = true /\ z m1' Phase 0%nat 0%nat 0%nat <> z m2' Phase 0%nat 0%nat 0%nat.
Proof.
  pose (c := setupPreconditioners (melt 1) (with_couplings false false true)).
  pose (m2 := {| sol := fun _ => zero; rhs := fun _ => zero; tmp := fun _ => zero; z := fun _ _ => ones |}).
  assert (Rn : runs c) by (unfold runs; cbn; repeat split; try discriminate).
  pose (r := fun (_ : block) (_ : nat) => zero).
  destruct (CVSpgmrPrecondSolve c small_kernels r 1 1 1 clean) as [[m1' k1]|] eqn:E1;
    [|exfalso; revert E1; apply (callback_runs c small_kernels r 1 1 1%Z clean (or_introl eq_refl)); exact Rn].
  destruct (CVSpgmrPrecondSolve c small_kernels r 1 1 1 m2) as [[m2' k2]|] eqn:E2;
    [|exfalso; revert E2; apply (callback_runs c small_kernels r 1 1 1%Z m2 (or_introl eq_refl)); exact Rn].
  exists (melt 1), (with_couplings false false true), small_kernels, r, clean, m2, m1', m2', k1, k2.
  split; [apply small_good|]. do 4 (split; [reflexivity|]). split; [exact E1|]. split; [exact E2|]. split; [reflexivity|].
  rewrite (phase_dPhidT c _ _ _ _ _ _ _ _ eq_refl eq_refl (or_introl eq_refl) E1).
  rewrite (phase_dPhidT c _ _ _ _ _ _ _ _ eq_refl eq_refl (or_introl eq_refl) E2).
  unfold phase_part. change (phase_solver c) with true. cbv iota. rewrite !small_solution by lra.
  cbn. unfold axpy, applydPhidTBlock, r, zero, ones. cbn. lra.
Qed.

(** the correction of the phase of the previous call changes the result *)
Definition old_phase : mem := {| sol := fun b => if block_eqb b Phase then ones else zero; rhs := fun _ => zero; tmp := fun _ => zero; z := fun _ _ => zero |}.
Lemma melt_temperature : forall r gamma delta m m' k, 0 < delta ->
  CVSpgmrPrecondSolve (setupPreconditioners (melt 1) (with_couplings false true true)) small_kernels r gamma delta 1 m = Some (m', k) ->
  z m' Temp 0%nat 0%nat 0%nat = (r Temp 0%nat 0%nat 0%nat + gamma * sol m Phase 0%nat 0%nat) / 2.
Proof.
  intros r gamma delta m m' k D E. set (c := setupPreconditioners (melt 1) (with_couplings false true true)) in *.
  unfold CVSpgmrPrecondSolve in E. change (use_preconditioner c) with true in E. cbn [negb] in E.
  change (((1 =? 1) || (1 =? 2))%Z) with true in E. cbv iota zeta in E.
  change (with_concentration c) with false in E. change (has_dPhidT c) with true in E.
  change (with_unsteady_temperature c) with true in E. change (evolve_quat c) with false in E.
  change (with_third_phase c) with false in E. change (with_phase c) with true in E. cbn [andb negb] in E. cbv iota in E.
  unfold then_ in E. unfold applyTemperaturePreconditioner in E. change (temperature_solver c) with true in E. cbv iota in E.
  unfold TemperaturePrecondSolve in E. change (has_dTdphi c) with true in E. change (with_phase c) with true in E. cbv iota zeta in E.
  set (m0 := set_rhs m Temp _) in E.
  destruct (solve_block_spec small_kernels delta Temp m0) as (_ & S & _).
  set (m1 := set_z _ _ _ _) in E.
  assert (Z1 : z m1 Temp 0%nat 0%nat 0%nat = (r Temp 0%nat 0%nat 0%nat + gamma * sol m Phase 0%nat 0%nat) / 2).
  { unfold m1. rewrite z_set, S, small_solution by exact D. unfold m0. rewrite rhs_set. unfold axpy. cbn [mulT small_kernels]. lra. }
  unfold applyPhasePreconditioner in E. change (phase_solver c) with true in E. cbv iota in E.
  unfold PhasePrecondSolve in E. change (has_dPhidT c) with true in E. change (norderp c) with 1%nat in E.
  change (delta_temperature c) with true in E. cbn [Nat.eqb andb] in E. cbv iota zeta in E.
  cbn [phase_depths fst snd] in E. change (has_dPhidT c) with true in E. cbv iota zeta in E.
  apply (f_equal (fun x => match x with Some (a, _) => a | None => m end)) in E. cbv beta iota in E. rewrite <- E. clear E.
  rewrite z_set_other by (left; discriminate). rewrite solve_block_z. exact Z1.
Qed.
Lemma old_solution_matters : exists p inp K r m1 m2 m1' m2' k1 k2, let c := setupPreconditioners p inp in
  good_kernels K /\ p_norderp p = 1%nat /\ rhs m1 = rhs m2 /\ tmp m1 = tmp m2 /\ z m1 = z m2 /\
  CVSpgmrPrecondSolve c K r 1 1 1 m1 = Some (m1', k1) /\ CVSpgmrPrecondSolve c K r 1 1 1 m2 = Some (m2', k2) /\
  active p Temp = true /\ z m1' Temp 0%nat 0%nat 0%nat <> z m2' Temp 0%nat 0%nat 0%nat.
Proof.
  pose (c := setupPreconditioners (melt 1) (with_couplings false true true)).
  assert (Rn : runs c) by (unfold runs; cbn; repeat split; try discriminate).
  pose (r := fun (_ : block) (_ : nat) => zero).
  destruct (CVSpgmrPrecondSolve c small_kernels r 1 1 1 clean) as [[m1' k1]|] eqn:E1;
    [|exfalso; revert E1; apply (callback_runs c small_kernels r 1 1 1%Z clean (or_introl eq_refl)); exact Rn].
  destruct (CVSpgmrPrecondSolve c small_kernels r 1 1 1 old_phase) as [[m2' k2]|] eqn:E2;
    [|exfalso; revert E2; apply (callback_runs c small_kernels r 1 1 1%Z old_phase (or_introl eq_refl)); exact Rn].
  exists (melt 1), (with_couplings false true true), small_kernels, r, clean, old_phase, m1', m2', k1, k2.
  split; [apply small_good|]. do 4 (split; [reflexivity|]). split; [exact E1|]. split; [exact E2|]. split; [reflexivity|].
  rewrite (melt_temperature r 1 1 clean m1' k1 ltac:(lra) E1), (melt_temperature r 1 1 old_phase m2' k2 ltac:(lra) E2).
  unfold r, zero. cbn. unfold ones, zero. lra.
Qed.

(** a solver that halves the residual in each cycle stops after one cycle when half of it is the tolerance *)
Definition slow_ops : facops :=
  {| resid := fun ln u f i => f ln i - 2 * u ln i; err_resid := fun ln u f i => f ln i - 2 * u ln i;
     smooth := fun _ ln e _ => e ln; coarsest := fun _ r i => r 0%nat i / 4; prolong := fun ln e => e ln;
     restrict_sol := fun _ c => c; restrict_res := fun _ c => c; norm := fun r => Rabs (r 0%nat 0%nat) |}.
Lemma slow_start : forall tol, solveSystem slow_ops one_level tol zero ones zero =
  let st0 := {| sol_u := zero; sol_r := snd (full_residual slow_ops one_level zero ones zero); sol_tmp := zero;
                sol_norm := norm slow_ops (snd (full_residual slow_ops one_level zero ones zero)); cycles := 0 |} in
  let st := do_loop slow_ops one_level ones tol 10 st0 in (st, if Rlt_dec (sol_norm st) tol then true else false).
Proof.
  intros tol. unfold solveSystem, effective_tolerance. cbn [relative_tol one_level].
  destruct (Rle_dec 0 (-1)) as [H|_]; [lra|]. reflexivity.
Qed.
Lemma slow_norm : forall st, sol_norm (one_cycle slow_ops one_level ones st) = Rabs (1 - 2 * (sol_u st 0%nat 0%nat + sol_r st 0%nat 0%nat / 4)).
Proof. intros st. unfold one_cycle. cbn. unfold vadd, on_level, ones. cbn. reflexivity. Qed.
Lemma stops_on_edge : exists o s tol u f t st, keeps o /\ 0 < tol /\ (1 <= max_cycles s)%nat /\
  solveSystem o s tol u f t = (st, false) /\ (cycles st < max_cycles s)%nat.
Proof.
  exists slow_ops, one_level, (1 / 2), zero, ones, zero.
  rewrite slow_start. cbv zeta. cbn [do_loop]. rewrite slow_norm.
  assert (V : Rabs (1 - 2 * (sol_u {| sol_u := zero; sol_r := snd (full_residual slow_ops one_level zero ones zero); sol_tmp := zero;
    sol_norm := norm slow_ops (snd (full_residual slow_ops one_level zero ones zero)); cycles := 0 |} 0%nat 0%nat
    + sol_r {| sol_u := zero; sol_r := snd (full_residual slow_ops one_level zero ones zero); sol_tmp := zero;
    sol_norm := norm slow_ops (snd (full_residual slow_ops one_level zero ones zero)); cycles := 0 |} 0%nat 0%nat / 4)) = 1 / 2).
  { cbn. unfold on_level, ones, zero. cbn. rewrite Rabs_pos_eq by lra. lra. }
  rewrite V. destruct (Rlt_dec (1 / 2) (1 / 2)) as [H|_]; [lra|].
  rewrite slow_norm, V. destruct (Rlt_dec (1 / 2) (1 / 2)) as [H|_]; [lra|].
  eexists. split; [intros a b; reflexivity|]. split; [lra|]. split; [cbn; lia|]. split; [reflexivity|]. cbn. lia.
Qed.

(** ** the input file *)

Lemma identity_otherwise : forall c K r gamma delta lr m, use_preconditioner c = true -> lr <> 1%Z -> lr <> 2%Z ->
  exists m', CVSpgmrPrecondSolve c K r gamma delta lr m = Some (m', 0%Z) /\ z m' = r.
Proof.
  intros c K r gamma delta lr m U A B. unfold CVSpgmrPrecondSolve. rewrite U. cbn [negb].
  apply Z.eqb_neq in A, B. rewrite A, B. cbn [orb]. eexists. split; reflexivity.
Qed.
Lemma disabled : forall p s, in_enabled s = Some false ->
  let c := setupPreconditioners p (Some s) in use_preconditioner c = false /\ forall b, solved c b = false.
Proof.
  intros p s E c.
  assert (U : f_use (read_flags p (Some s)) = false) by (unfold read_flags; rewrite E; cbn; destruct (p_phase p); reflexivity).
  assert (Q : f_quat (read_flags p (Some s)) = false) by (unfold read_flags; rewrite E; cbn; destruct (p_phase p); reflexivity).
  split; [exact U|]. intros b. unfold c, setupPreconditioners. destruct b; cbn [solved phase_solver eta_solver precondition_quat temperature_solver conc_solver];
    rewrite ?U, ?Q; reflexivity.
Qed.
Lemma which_blocks : forall p s b, getBool (in_enabled s) true = true -> active p b = true ->
  solved (setupPreconditioners p (Some s)) b = getBool (entry_of s b) true.
Proof.
  intros p s b E A.
  assert (St : active p Temp = true -> negb (p_steady p) = true) by (cbn; intros H; apply andb_true_iff in H; apply H).
  unfold setupPreconditioners, read_flags. rewrite E.
  destruct b; cbn [active] in A, St; cbn [solved phase_solver eta_solver precondition_quat temperature_solver conc_solver entry_of]; try rewrite A;
    destruct (p_phase p); cbn [f_use f_phase f_quat f_eta f_conc f_temperature andb]; rewrite ?A, ?(St A); try reflexivity; discriminate.
Qed.
Lemma without_section : forall p b, active p b = true -> solved (setupPreconditioners p None) b = true.
Proof.
  intros p b A. unfold setupPreconditioners, read_flags.
  assert (St : active p Temp = true -> negb (p_steady p) = true) by (cbn; intros H; apply andb_true_iff in H; apply H).
  destruct b; cbn [active] in A, St; cbn [solved phase_solver eta_solver precondition_quat temperature_solver conc_solver];
    destruct (p_phase p); cbn [f_use f_phase f_quat f_eta f_conc f_temperature andb]; rewrite ?A, ?(St A); try reflexivity; discriminate.
Qed.
Lemma empty_differs : forall p,
  setupPreconditioners p (Some empty_section) = setupPreconditioners p None <-> p_kks p = true \/ p_phase p = false.
Proof.
  intros p. unfold setupPreconditioners, read_flags, empty_section, getBool.
  cbn [in_enabled in_phase in_quat in_eta in_conc in_temperature in_dquatdphi in_dTdphi in_dPhidT].
  destruct (p_phase p).
  - cbn [f_use f_phase f_quat f_eta f_conc f_temperature f_dquatdphi f_dTdphi f_dPhidT]. split.
    + intros H. left. injection H as H. exact H.
    + intros [-> | H]; [reflexivity|discriminate].
  - split; [intros _; right; reflexivity|intros _; reflexivity].
Qed.
Lemma default_stops : forall p K r gamma delta lr m, lr = 1%Z \/ lr = 2%Z ->
  (CVSpgmrPrecondSolve (setupPreconditioners p None) K r gamma delta lr m = None <->
   p_phase p = true /\ p_quat p = true /\ p_gradq_for_flux p = true).
Proof.
  intros p K r gamma delta lr m LR. pose proof (callback_runs (setupPreconditioners p None) K r gamma delta lr m LR) as H.
  assert (Rn : runs (setupPreconditioners p None) <-> (p_quat p = true -> p_phase p = true -> p_gradq_for_flux p = false)).
  { unfold runs, setupPreconditioners, read_flags. destruct (p_phase p); cbn; intuition discriminate. }
  rewrite Rn in H.
  assert (N : CVSpgmrPrecondSolve (setupPreconditioners p None) K r gamma delta lr m = None <->
    ~ (CVSpgmrPrecondSolve (setupPreconditioners p None) K r gamma delta lr m <> None)).
  { destruct (CVSpgmrPrecondSolve _ _ _ _ _ _ _); split; try congruence; try (intros F; contradiction F; discriminate).  }
  rewrite N, H. destruct (p_phase p), (p_quat p), (p_gradq_for_flux p); split; intros F; try (repeat split; reflexivity); 
    try (exfalso; apply F; intros; congruence); try (destruct F as (? & ? & ?); discriminate); intros G; specialize (G eq_refl eq_refl); discriminate.
Qed.
Lemma empty_runs : forall p K r gamma delta lr m, lr = 1%Z \/ lr = 2%Z -> p_kks p = false ->
  CVSpgmrPrecondSolve (setupPreconditioners p (Some empty_section)) K r gamma delta lr m <> None.
Proof.
  intros p K r gamma delta lr m LR KK. apply callback_runs; [exact LR|].
  unfold runs, setupPreconditioners, read_flags, empty_section, getBool.
  cbn [in_enabled in_phase in_quat in_eta in_conc in_temperature in_dquatdphi in_dTdphi in_dPhidT]. rewrite KK.
  destruct (p_phase p); cbn; intuition discriminate.
Qed.

(** with two order parameters the first one does not reach the temperature *)
Definition first_only : vector := fun b d => if block_eqb b Phase && (d =? 0)%nat then ones else zero.
Lemma first_ignored : exists p inp K r m m' k, let c := setupPreconditioners p inp in
  good_kernels K /\ p_norderp p = 2%nat /\ temperature_solver c = true /\ has_dTdphi c = true /\ (forall v, mulT K v = v) /\
  CVSpgmrPrecondSolve c K r 1 1 1 m = Some (m', k) /\
  z m' Phase 0%nat 0%nat 0%nat = 1 / 2 /\ z m' Temp 0%nat 0%nat 0%nat = 0.
Proof.
  pose (c := setupPreconditioners (melt 2) (with_couplings false true false)).
  assert (Rn : runs c) by (unfold runs; cbn; repeat split; try discriminate).
  destruct (CVSpgmrPrecondSolve c small_kernels first_only 1 1 1 clean) as [[m' k]|] eqn:E;
    [|exfalso; revert E; apply (callback_runs c small_kernels first_only 1 1 1%Z clean (or_introl eq_refl)); exact Rn].
  exists (melt 2), (with_couplings false true false), small_kernels, first_only, clean, m', k.
  split; [apply small_good|]. do 4 (split; [reflexivity|]). split; [exact E|].
  destruct (closed_form c _ _ _ _ _ _ _ _ eq_refl ltac:(cbn; lia) (setup_dquatdphi (melt 2) _) (or_introl eq_refl) E) as (A & _ & _).
  split.
  - rewrite A; [|reflexivity|cbn; lia]. unfold zval. change (solved c Phase) with true. cbv iota. cbn [unscaled]. rewrite small_solution by lra. cbn. unfold ones. lra.
  - rewrite A; [|reflexivity|cbn; lia]. unfold zval. change (solved c Temp) with true. cbv iota. cbn [unscaled]. rewrite small_solution by lra.
    unfold given. cbn [scaled coupled]. change (has_dTdphi c) with true. cbv iota. unfold phi_last. change (phase_solver c) with true. cbv iota.
    cbn [mulT small_kernels]. change (norderp c) with 2%nat.
    change (first_only Phase (2 - 1)%nat) with zero.
    fold (solution small_kernels 1 Phase zero). rewrite small_solution by lra. cbn. unfold zero. lra.
Qed.
