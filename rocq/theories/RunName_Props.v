(** C45: default run name. *)
From Coq Require Import String ZArith List Bool Ascii Lia.
From Verif Require Import RunName_Model RunName_Spec RunName_Proofs.
Import ListNotations.
Open Scope Z_scope.

(** C45: for a file in a directory the run name is the base name without its last extension and has no slash. What is missing is the root directory, see below. *)
Theorem C45_directory_partial : forall dir base stem, dir <> [] -> ~ In slash base -> 2 * Z.of_nat (length (dir ++ slash :: base)) < 2 ^ 64 -> stem_of base stem ->
  run_name None (dir ++ slash :: base) = Some stem /\ ~ In slash stem.
Proof. exact name_in_directory. Qed.
Print Assumptions C45_directory_partial.

(** C45, without a directory. *)
Theorem C45_cwd_partial : forall base stem, ~ In slash base -> 2 * Z.of_nat (length base) < 2 ^ 64 -> stem_of base stem ->
  run_name None base = Some stem /\ ~ In slash stem.
Proof. exact name_in_cwd. Qed.
Print Assumptions C45_cwd_partial.

(** C45: for a file in the root directory the slash stays in the run name. *)
Theorem C45_root_refuted : forall base stem, ~ In slash base -> 2 * Z.of_nat (length (slash :: base)) < 2 ^ 64 -> stem_of base stem -> run_name None (slash :: base) = Some (slash :: stem).
Proof. exact name_in_root. Qed.
Print Assumptions C45_root_refuted.

Definition str := list_ascii_of_string.
Example C45_ex : run_name None (str "runs.1/cube.2.input") = Some (str "cube.2").
Proof.
  apply (name_in_directory (str "runs.1") (str "cube.2.input") (str "cube.2")); [discriminate | cbn; intuition discriminate | cbn; lia | left; exists (str "input"); split; [reflexivity | cbn; intuition discriminate]].
Qed.
Example C45_ex_no_ext : run_name None (str "./runs/cube") = Some (str "cube").
Proof. apply (name_in_directory (str "./runs") (str "cube") (str "cube")); [discriminate | cbn; intuition discriminate | cbn; lia | right; split; [cbn; intuition discriminate | reflexivity]]. Qed.
Example C45_ex_root : run_name None (str "/cube.input") = Some (str "/cube").
Proof. apply (name_in_root (str "cube.input") (str "cube")); [cbn; intuition discriminate | cbn; lia | left; exists (str "input"); split; [reflexivity | cbn; intuition discriminate]]. Qed.

(** C45: a run name that is given is used as it is, whatever the input path. *)
Theorem C45_given : forall name path, run_name (Some name) path = Some name.
Proof. reflexivity. Qed.
Print Assumptions C45_given.
