(** C138-C142: what of a database file reaches the free energy functions. *)
From Coq Require Import Reals ZArith String List Bool Lra Lia.
From Verif Require Import DbCopy_Model DbCopy_Spec DbCopy_Proofs.
Import ListNotations.
Open Scope R_scope.
Open Scope string_scope.

(** C138: every section and every array of characters, numbers or strings is found in the tree under its own path. *)
Theorem C138_found : forall l p e, well_formed (Section l) -> inside (Section l) p e -> readable e ->
  exists t, get_child (copyDatabase l) p = Some t /\ represents e t.
Proof. exact found. Qed.
Print Assumptions C138_found.

(** C138: nothing else is found. *)
Theorem C138_nothing_else : forall l p t, well_formed (Section l) -> Forall (fun k => k <> "") p -> get_child (copyDatabase l) p = Some t ->
  exists e, inside (Section l) p e /\ readable e /\ represents e t.
Proof. exact nothing_else. Qed.
Print Assumptions C138_nothing_else.

(** C138: a boolean is not found, so that the reader uses its default. *)
Theorem C138_booleans_refuted : forall l p b, well_formed (Section l) -> inside (Section l) p (Bools b) -> get_child (copyDatabase l) p = None.
Proof. exact booleans_lost. Qed.
Print Assumptions C138_booleans_refuted.

Example C138_ex : (exists t, get_child (copyDatabase gold) ["PhaseL"] = Some t /\ map fst (children t) = ["Tc"; "a"]) /\
  get_child (copyDatabase gold) ["PhaseL"; "verbose"] = None /\ get_child (copyDatabase gold) ["PhaseL"; "b"] = None.
Proof.
  assert (S : inside (Section gold) ["PhaseL"] (Section [("Tc", Doubles [298; 1337]); ("verbose", Bools [true]); ("a", Doubles [5613])])).
  { eapply inside_down; [right; left; reflexivity|constructor]. }
  split; [|split].
  - destruct (C138_found gold _ _ gold_ok S) as (t & G & R).
    + split; [intros b; discriminate|discriminate].
    + exists t. split; [exact G|]. destruct R as [_ R]. exact R.
  - apply (C138_booleans_refuted gold _ [true] gold_ok). eapply inside_down; [right; left; reflexivity|].
    eapply inside_down; [right; left; reflexivity|constructor].
  - destruct (get_child (copyDatabase gold) ["PhaseL"; "b"]) as [t|] eqn:G; [|reflexivity]. exfalso.
    destruct (C138_nothing_else gold ["PhaseL"; "b"] t gold_ok ltac:(repeat constructor; discriminate) G) as (e & I & _).
    inversion I as [|? ? ? ? ? I1 J]; subst. destruct I1 as [E|[E|[]]]; injection E; [discriminate|]. intros <-.
    inversion J as [|? ? ? ? ? I2 _]; subst. destruct I2 as [E2|[E2|[E2|[]]]]; discriminate.
Qed.

(** C139: numbers written with at most ten digits arrive as the same double. *)
Theorem C139_exact : forall l l' p x, well_formed (Section l) -> parse (Section l) = Section l' ->
  inside (Section l) p (Doubles x) -> Forall ordinary x ->
  exists t, get_child (copyDatabase l') p = Some t /\
    (forall v, x = [v] -> get_double t = Some (to_double v)) /\
    (length x <> 1%nat -> map (fun kt => get_double (snd kt)) (children t) = map (fun v => Some (to_double v)) x).
Proof. exact exact_numbers. Qed.
Print Assumptions C139_exact.

(** C139: any other number arrives to within 5.001e-10 of its size. *)
Theorem C139_close : forall l p x, well_formed (Section l) -> inside (Section l) p (Doubles x) ->
  Forall (fun v => / powerRZ 2 1021 <= Rabs v) x ->
  exists t, get_child (copyDatabase l) p = Some t /\
    (forall v, x = [v] -> exists g, get_double t = Some g /\ Rabs (g - v) <= Rabs v * (5001 / 10 ^ 13)) /\
    (length x <> 1%nat -> Forall2 (fun kt v => exists g, get_double (snd kt) = Some g /\ Rabs (g - v) <= Rabs v * (5001 / 10 ^ 13)) (children t) x).
Proof. exact close_numbers. Qed.
Print Assumptions C139_close.

(** C139: a number with more digits does not arrive unchanged, though the database holds it exactly. *)
Theorem C139_unchanged_refuted : exists v, to_double v = v /\ forall k, plain_key k ->
  exists t, get_child (copyDatabase [(k, Doubles [v])]) [k] = Some t /\ get_double t = Some 1 /\ v <> 1.
Proof. exact numbers_change. Qed.
Print Assumptions C139_unchanged_refuted.

Example C139_ex : exists l' t, parse (Section gold) = Section l' /\ get_child (copyDatabase l') ["PhaseL"; "Tc"] = Some t /\
  map (fun kt => get_double (snd kt)) (children t) = [Some (to_double 298); Some (to_double 1337)].
Proof.
  assert (S : inside (Section gold) ["PhaseL"; "Tc"] (Doubles [298; 1337])).
  { eapply inside_down; [right; left; reflexivity|]. eapply inside_down; [left; reflexivity|constructor]. }
  destruct (C139_exact gold _ _ _ gold_ok eq_refl S) as (t & G & _ & A).
  - constructor; [apply (integer_ordinary 298); lia|]. constructor; [apply (integer_ordinary 1337); lia|constructor].
  - eexists. exists t. split; [reflexivity|]. split; [exact G|]. apply A. discriminate.
Qed.

(** C140: the program that converts a database file to JSON never refuses, and reading the JSON file gives the same tree as reading the database file. *)
Theorem C140_converted : forall l, well_formed (Section l) -> exists j, convert l = Some j /\ read_json j = copyDatabase l.
Proof. exact converted_file. Qed.
Print Assumptions C140_converted.

(** C140: so does a JSON file written by hand with the same content, if one number is written without brackets. *)
Theorem C140_same_content_partial : forall l l' j, well_formed (Section l) -> same_content (Section l) j -> parse (Section l) = Section l' ->
  copyDatabase l' = read_json j.
Proof. exact same_tree. Qed.
Print Assumptions C140_same_content_partial.

(** C140: with brackets the reader sees one element in the JSON file and none in the database file; a boolean is in one tree and not in the other. *)
Theorem C140_one_element_refuted : forall k x, plain_key k ->
  (exists t u, get_child (copyDatabase [(k, Doubles [x])]) [k] = Some t /\ get_child (read_json (JObj [(k, JArr [JNum x])])) [k] = Some u /\
    length (children t) = 0%nat /\ length (children u) = 1%nat) /\
  (get_child (copyDatabase [(k, Bools [true])]) [k] = None /\ get_child (read_json (JObj [(k, JBool true)])) [k] = Some (Node (Letters "true") [])).
Proof. exact one_element. Qed.
Print Assumptions C140_one_element_refuted.

Example C140_ex : exists l', parse (Section [("a", Doubles [5613]); ("Tc", Doubles [298; 1337])]) = Section l' /\
  copyDatabase l' = read_json (JObj [("a", JNum 5613); ("Tc", JArr [JNum 298; JNum 1337])]).
Proof.
  eexists. split; [reflexivity|].
  apply (C140_same_content_partial [("a", Doubles [5613]); ("Tc", Doubles [298; 1337])]); [| |reflexivity].
  - intros p l I. inversion I as [|? k e p' ? In1 J]; subst.
    + split; [repeat constructor; cbn; intuition discriminate|].
      repeat constructor; apply no_dot_plain; try discriminate; reflexivity.
    + destruct In1 as [E|[E|[]]]; injection E as <- <-; inversion J.
  - constructor. constructor; [|constructor; [|constructor]]; split; try reflexivity.
    + constructor. apply (integer_ordinary 5613). lia.
    + apply (same_doubles [298; 1337]); [discriminate|]. constructor; [apply (integer_ordinary 298); lia|]. constructor; [apply (integer_ordinary 1337); lia|constructor].
Qed.

(** C141: all components that open the thermodynamic file are given the same data. *)
Theorem C141_same_data : forall c n f ts, start c n f = Some ts -> ts <> [] /\ forall t u, In t ts -> In u ts -> t = u.
Proof. exact same_data. Qed.
Print Assumptions C141_same_data.

(** C141: exactly these runs start. *)
Theorem C141_starts : forall c n f, start c n f <> None <->
  long_enough n /\ (kim c = true -> ctd c = false) /\ (aziz c = true -> newton c <> None) /\
  ((json_name n /\ (exists j, f = JsonFile j) /\ ternary c = false /\ ctd c = false /\ aziz c = false) \/
   (~ json_name n /\ exists l, f = DatabaseFile l)).
Proof. exact starts. Qed.
Print Assumptions C141_starts.

(** C141: a JSON file, whatever its name, stops every run with a ternary alloy, with diffusion from atomic mobilities or with the Aziz partition coefficient. *)
Theorem C141_json_refuted : forall c n j, ternary c = true \/ ctd c = true \/ aziz c = true -> start c n (JsonFile j) = None.
Proof. exact json_stops. Qed.
Print Assumptions C141_json_refuted.

Example C141_ex : start (mk_setup false true true false false None) "calphadAuNi.dat" (DatabaseFile gold) =
    Some [(copyDatabase gold, empty_tree); (copyDatabase gold, empty_tree); (copyDatabase gold, empty_tree)] /\
  start (mk_setup false true false false false None) "dat" (DatabaseFile gold) = None /\
  start (mk_setup true true false false false None) "x.json" (JsonFile (JObj [])) = None.
Proof.
  split; [reflexivity|]. split.
  - destruct (start (mk_setup false true false false false None) "dat" (DatabaseFile gold)) eqn:E; [|reflexivity]. exfalso.
    assert (N : start (mk_setup false true false false false None) "dat" (DatabaseFile gold) <> None) by (rewrite E; discriminate).
    apply C141_starts in N. destruct N as [L _]. unfold long_enough in L. cbn in L. lia.
  - apply C141_json_refuted. left. reflexivity.
Qed.

(** C142: copying a database into an empty database gives the same database, if it holds no complex numbers or boxes. *)
Theorem C142_exact : forall l, well_formed (Section l) -> (forall p, ~ inside (Section l) p Other) -> db_copy l = l.
Proof. exact exact_copy. Qed.
Print Assumptions C142_exact.

(** C142: in any case it keeps exactly the entries of the other kinds. *)
Theorem C142_entries_partial : forall l p e, well_formed (Section l) -> (forall l', e <> Section l') ->
  (inside (Section (db_copy l)) p e <-> inside (Section l) p e /\ e <> Other).
Proof. exact copied_entries. Qed.
Print Assumptions C142_entries_partial.

Example C142_ex : db_copy gold = gold /\ db_copy [("b", Other); ("c", Bools [true])] = [("c", Bools [true])].
Proof.
  split; [|reflexivity]. apply (C142_exact gold gold_ok). intros p I.
  inversion I as [|? ? ? ? ? I1 J]; subst. destruct I1 as [E|[E|[]]]; injection E; intros; subst; inversion J as [|? ? ? ? ? I2 K]; subst.
  destruct I2 as [E2|[E2|[E2|[]]]]; injection E2; intros; subst; inversion K.
Qed.
