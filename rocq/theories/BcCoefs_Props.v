(** C37-C39: time-dependent boundary coefficients. *)
From Coq Require Import Reals ZArith List Bool Lra Lia.
From Verif Require Import BcCoefs_Model BcCoefs_Spec BcCoefs_Proofs.
Import ListNotations.
Open Scope R_scope.

(** C37: whatever was asked before, a call inside the table gives the linear interpolation or stops the run. *)
Theorem C37_interpolation : forall c l, (forall i x, In (i, x) l -> increasing (t_map c i) /\ full c i /\ covers (t_map c i) x) ->
  Forall2 (fun ix o => o = Stop \/ exists a b g, o = Values a b g /\ interpolated (t_map c (fst ix)) (a_map c (fst ix)) (snd ix) a /\
     interpolated (t_map c (fst ix)) (b_map c (fst ix)) (snd ix) b /\ interpolated (t_map c (fst ix)) (g_map c (fst ix)) (snd ix) g) l (fst (calls c l slots0)).
Proof. exact history. Qed.
Print Assumptions C37_interpolation.

(** C37, for tables read from files: the kind of condition (Dirichlet a=1,b=0 or Neumann a=0,b=1) is exact. *)
Theorem C37_files : forall files l, let c := getFromInput files in
  (forall i x, In (i, x) l -> increasing (map fst (snd (files i))) /\ covers (map fst (snd (files i))) x) ->
  Forall2 (fun ix o => let '(i, x) := ix in o = Stop \/ exists a b g, o = Values a b g /\
     (a, b) = match fst (files i) with Value => (1, 0) | Slope => (0, 1) end /\ interpolated (map fst (snd (files i))) (map snd (snd (files i))) x g) l (fst (calls c l slots0)).
Proof. exact file_history. Qed.
Print Assumptions C37_files.

(** C37: when the run stops: iff the time asked for lies more than 11 slots before the previous one. *)
Theorem C37_stop_iff : forall c before i y x p q, (forall j z, In (j, z) before -> increasing (t_map c j) /\ full c j /\ covers (t_map c j) z) ->
  increasing (t_map c i) -> full c i -> slot_of (t_map c i) y q -> slot_of (t_map c i) x p ->
  let slots := snd (calls c before slots0) in
  fst (setBcCoefs c i y slots) <> Stop ->
  let '(o, _) := setBcCoefs c i x (snd (setBcCoefs c i y slots)) in (o = Stop <-> (p + 11 < q)%nat).
Proof. exact two_calls. Qed.
Print Assumptions C37_stop_iff.

(** C37: as long as the time does not go back on a face, the run is never stopped. *)
Theorem C37_forward : forall c l, (forall i x, In (i, x) l -> increasing (t_map c i) /\ full c i /\ covers (t_map c i) x) ->
  nondecreasing_from (fun _ => None) l -> Forall (fun o => exists a b g, o = Values a b g) (fst (calls c l slots0)).
Proof. exact forward. Qed.
Print Assumptions C37_forward.

(** C37: rescaling multiplies the right-hand side only. *)
Theorem C37_rescale : forall dim factor c i x slots, (0 <= i < 2 * dim)%Z ->
  setBcCoefs (rescale dim factor c) i x slots =
  (match fst (setBcCoefs c i x slots) with Values a b g => Values a b (g * factor) | o => o end, snd (setBcCoefs c i x slots)).
Proof. exact rescaled. Qed.
Print Assumptions C37_rescale.

(** C38: below the last table time, after any calls inside the table: no access outside the table, and a stop before the first time. What is missing are times from the last entry on and tables of one entry, see below. *)
Theorem C38_inside_partial : forall c l i x, (forall j y, In (j, y) l -> increasing (t_map c j) /\ full c j /\ covers (t_map c j) y) ->
  increasing (t_map c i) -> full c i -> (2 <= length (t_map c i))%nat -> (exists b, In b (t_map c i) /\ x < b) ->
  fst (setBcCoefs c i x (snd (calls c l slots0))) <> Ub /\ (forall a, nth_error (t_map c i) 0 = Some a -> x < a -> fst (setBcCoefs c i x (snd (calls c l slots0))) = Stop).
Proof. exact history_safe. Qed.
Print Assumptions C38_inside_partial.

(** C38: at and after the last table time the search runs past the end. *)
Theorem C38_end_refuted : forall c i x slots, (forall b, In b (t_map c i) -> b <= x) -> fst (setBcCoefs c i x slots) = Ub.
Proof. exact above_table. Qed.
Print Assumptions C38_end_refuted.

(** C38: with a single entry (a constant condition) every call reads outside. *)
Theorem C38_single_refuted : forall c i x slots, (length (t_map c i) <= 1)%nat -> fst (setBcCoefs c i x slots) = Ub.
Proof. exact single_entry. Qed.
Print Assumptions C38_single_refuted.

(** C38: the slots are shared between objects: two objects with tables of different lengths, both asked inside their table. *)
Theorem C38_shared_refuted : exists files files' x x', let c := getFromInput files in let c' := getFromInput files' in
  increasing (t_map c 0) /\ covers (t_map c 0) x /\ increasing (t_map c' 0) /\ covers (t_map c' 0) x' /\
  fst (setBcCoefs c' 0 x' (snd (setBcCoefs c 0 x slots0))) = Ub.
Proof. exact shared_slots. Qed.
Print Assumptions C38_shared_refuted.

(** C39: the copy agrees if the times already agreed. *)
Theorem C39_same_times_partial : forall dim target r i x slots, (0 <= i < 2 * dim)%Z -> t_map target i = t_map r i ->
  setBcCoefs (assign dim target r) i x slots = setBcCoefs r i x slots.
Proof. exact assign_same_times. Qed.
Print Assumptions C39_same_times_partial.

(** C39: otherwise the copy combines the old times with the new values. *)
Theorem C39_refuted : exists files files' x, let r := getFromInput files in let c := assign 2 (getFromInput files') r in
  increasing (t_map r 0) /\ covers (t_map r 0) x /\ full r 0 /\ full c 0 /\ increasing (t_map c 0) /\ covers (t_map c 0) x /\
  fst (setBcCoefs r 0 x slots0) = Values 1 0 10 /\ fst (setBcCoefs c 0 x slots0) = Values 1 0 5.
Proof. exact assign_differs. Qed.
Print Assumptions C39_refuted.

Example C37_ex : (* halfway between the first two entries, then after the second *)
  let c := getFromInput (fun _ => (Value, [(0, 300); (2, 400); (3, 500)])) in
  exists o o' s, calls c [(1%Z, 1); (1%Z, 2)] slots0 = ([o; o'], s) /\ o = Values 1 0 350 /\ o' = Values 1 0 400.
Proof.
  cbv zeta. set (c := getFromInput _).
  assert (I : increasing (t_map c 1)) by (cbn; lra). assert (F : full c 1) by (unfold full; cbn; auto).
  assert (S1 : slot_of (t_map c 1) 1 0) by (exists 0, 2; cbn; repeat split; auto; lra).
  assert (S2 : slot_of (t_map c 1) 2 1) by (exists 2, 3; cbn; repeat split; auto; lra).
  destruct (one_call c 1 1 slots0 0 0 I F S1) as (o & s' & E & _ & G & _); [auto|cbn; lia|]. destruct (G ltac:(lia)) as (Es & a & b & g & -> & A & B & C).
  destruct (one_call c 1 2 s' 1 0 I F S2) as (o & s2 & E2 & _ & G2 & _); [auto|cbn; lia|]. destruct (G2 ltac:(lia)) as (_ & a' & b' & g' & -> & A' & B' & C').
  do 3 eexists. split; [cbn [calls]; rewrite E, E2; reflexivity|]. split.
  - f_equal; [apply (interpolated_unique _ _ _ _ _ I A)|apply (interpolated_unique _ _ _ _ _ I B)|apply (interpolated_unique _ _ _ _ _ I C)];
      [exists 0%nat, 0, 2, 1, 1|exists 0%nat, 0, 2, 0, 0|exists 0%nat, 0, 2, 300, 400]; cbn; repeat split; auto; try lra; field.
  - f_equal; [apply (interpolated_unique _ _ _ _ _ I A')|apply (interpolated_unique _ _ _ _ _ I B')|apply (interpolated_unique _ _ _ _ _ I C')];
      [exists 1%nat, 2, 3, 1, 1|exists 1%nat, 2, 3, 0, 0|exists 1%nat, 2, 3, 400, 500]; cbn; repeat split; auto; try lra; field.
Qed.
Example C37_ex_stop : (* twelve slots back *)
  let c := getFromInput (fun _ => (Value, clock 20)) in
  fst (setBcCoefs c 0 (1 / 2) (snd (setBcCoefs c 0 (25 / 2) slots0))) = Stop /\ exists a b g, fst (setBcCoefs c 0 (3 / 2) (snd (setBcCoefs c 0 (25 / 2) slots0))) = Values a b g.
Proof.
  cbv zeta. set (c := getFromInput _).
  assert (I : increasing (t_map c 0)) by apply clock_increasing. assert (F : full c 0) by (unfold full; cbn; auto).
  assert (S0 : slot_of (t_map c 0) (25 / 2) 12) by (apply clock_slot; [lia|cbn; lra]).
  assert (S1 : slot_of (t_map c 0) (1 / 2) 0) by (apply clock_slot; [lia|cbn; lra]).
  assert (S2 : slot_of (t_map c 0) (3 / 2) 1) by (apply clock_slot; [lia|cbn; lra]).
  assert (L : (12 + 1 < length (t_map c 0))%nat) by (cbn [t_map c getFromInput snd]; unfold clock; rewrite !map_length, seq_length; lia).
  destruct (one_call c 0 (25 / 2) slots0 12 0 I F S0) as (o & s' & E & _ & G & _); [auto|lia|]. destruct (G ltac:(lia)) as (Es & _). rewrite E; cbn [snd].
  destruct (one_call c 0 (1 / 2) s' 0 12 I F S1 Es L) as (o1 & s1 & E1 & _ & _ & B1). destruct (one_call c 0 (3 / 2) s' 1 12 I F S2 Es L) as (o2 & s2 & E2 & _ & G2 & _).
  rewrite E1, E2. cbn [fst]. split; [apply B1; lia|]. destruct (G2 ltac:(lia)) as (_ & a & b & g & -> & _). eauto.
Qed.
