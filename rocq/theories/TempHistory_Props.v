(** C40: temperature history. *)
From Coq Require Import Reals ZArith List Bool Lra Lia.
From Verif Require Import BcCoefs_Spec TempHistory_Model TempHistory_Spec TempHistory_Proofs.
Import ListNotations.
Open Scope R_scope.

(** C40: bilinear interpolation. What is missing: the last tabulated time and the first tabulated position, see below. *)
Theorem C40_bilinear_partial : forall h t x t0 tl x0 xl, table_ok h -> nth_error (d_times h) 0 = Some t0 -> last_of (d_times h) tl -> t0 <= t < tl ->
  nth_error (d_positions h) 0 = Some x0 -> last_of (d_positions h) xl -> x0 < x <= xl ->
  exists T g, getTandGradT h t x = Found T g /\ bilinear h t x T.
Proof. exact lookup_bilinear. Qed.
Print Assumptions C40_bilinear_partial.

(** C40: the temperature stays between the tabulated ones and the gradient between the tabulated slopes. *)
Theorem C40_bounds : forall h t x T g lo hi, table_ok h -> getTandGradT h t x = Found T g ->
  ((forall i j v, entry h i j v -> lo <= v <= hi) -> lo <= T <= hi) /\ ((forall i j s, row_slope h i j s -> lo <= s <= hi) -> lo <= g <= hi).
Proof. exact lookup_bounds. Qed.
Print Assumptions C40_bounds.

(** C40: data that are bilinear in time and position are reproduced, with their gradient. *)
Theorem C40_exact : forall h t x T g a b c d, table_ok h -> samples h (fun t x => a + b * x + c * t + d * (x * t)) -> getTandGradT h t x = Found T g ->
  T = a + b * x + c * t + d * (x * t) /\ g = b + d * t.
Proof. exact lookup_exact. Qed.
Print Assumptions C40_exact.

(** C40: tabulated values are reproduced at table points. *)
Theorem C40_points_partial : forall h i j t x v, table_ok h -> nth_error (d_times h) i = Some t -> nth_error (d_positions h) j = Some x -> entry h i j v ->
  (S i < length (d_times h))%nat -> (0 < j)%nat -> exists g, getTandGradT h t x = Found v g.
Proof. exact lookup_points. Qed.
Print Assumptions C40_points_partial.

(** C40, from the file: column c of the line of a time gives the temperature at column c of the first line. *)
Theorem C40_file_partial : forall first rows h i time row c x v, readCSV (first :: rows) = Some h -> increasing (rev first) -> increasing (d_times h) ->
  (2 <= length first)%nat -> (Z.of_nat (length first) < 2 ^ 32)%Z -> (Z.of_nat (length rows) < 2 ^ 32)%Z ->
  nth_error rows i = Some (time :: row) -> nth_error first c = Some x -> nth_error row c = Some v ->
  (S i < length rows)%nat -> (S c < length first)%nat -> exists g, getTandGradT h time x = Found v g.
Proof. exact file_lookup. Qed.
Print Assumptions C40_file_partial.

(** C40: earlier times are rejected. *)
Theorem C40_early : forall h t x t0, table_ok h -> nth_error (d_times h) 0 = Some t0 -> t < t0 -> getTandGradT h t x = Rejected.
Proof. exact early. Qed.
Print Assumptions C40_early.

(** C40: positions outside are rejected. *)
Theorem C40_outside : forall h t x x0 xl, table_ok h -> nth_error (d_positions h) 0 = Some x0 -> last_of (d_positions h) xl -> x < x0 \/ xl < x -> getTandGradT h t x = Rejected.
Proof. exact outside. Qed.
Print Assumptions C40_outside.

(** C40: later times are rejected - and the last tabulated time with them. *)
Theorem C40_last_time_refuted : forall h t x tl, table_ok h -> last_of (d_times h) tl -> tl <= t -> getTandGradT h t x = Rejected.
Proof. exact late. Qed.
Print Assumptions C40_last_time_refuted.

(** C40: at the first tabulated position the unsigned index wraps around and the table is read outside. *)
Theorem C40_first_position_refuted : forall h t x0 t0 tl, table_ok h -> nth_error (d_positions h) 0 = Some x0 -> nth_error (d_times h) 0 = Some t0 -> last_of (d_times h) tl ->
  t0 <= t < tl -> getTandGradT h t x0 = OutOfTable.
Proof. exact first_position. Qed.
Print Assumptions C40_first_position_refuted.

Definition C40_table : history := mk_history [0; 10] [0; 1; 3] [[300; 310; 350]; [300; 320; 400]].
Lemma C40_table_ok : table_ok C40_table.
Proof. unfold table_ok, C40_table; cbn. repeat split; auto; try lra; try lia. Qed.
Example C40_ex : exists g, getTandGradT C40_table 0 1 = Found 310 g.
Proof. apply (lookup_points C40_table 0 1); [apply C40_table_ok | reflexivity | reflexivity | exists [300; 310; 350]; auto | cbn; lia | lia]. Qed.
Example C40_ex_mid : exists T g, getTandGradT C40_table 5 2 = Found T g /\ T = 345.
Proof.
  destruct (lookup_bilinear C40_table 5 2 0 10 0 3 C40_table_ok eq_refl eq_refl ltac:(lra) eq_refl eq_refl ltac:(lra)) as (T & g & E & i & j & tm & tp & xm & xp & a & b & c & d & P1 & P2 & P3 & P4 & P5 & P6 & (r1 & A1 & A2) & (r2 & B1 & B2) & (r3 & C1 & C2) & (r4 & D1 & D2) & P7).
  exists T, g. split; [exact E|]. cbn in *. destruct i as [|[|i]]; cbn in *; [|discriminate|destruct i; discriminate].
  destruct j as [|[|[|j]]]; cbn in *; [| |discriminate|destruct j; discriminate]; injection P1 as <-; injection P2 as <-; injection P3 as <-; injection P4 as <-; [lra|].
  injection A1 as <-. injection B1 as <-. injection C1 as <-. injection D1 as <-. cbn in *. injection A2 as <-. injection B2 as <-. injection C2 as <-. injection D2 as <-. lra.
Qed.
Example C40_ex_wrap : getTandGradT C40_table 5 0 = OutOfTable.
Proof. apply (first_position C40_table 5 0 0 10); try reflexivity; [apply C40_table_ok | lra]. Qed.
Example C40_ex_file : exists h g, readCSV [[3; 1; 0]; [0; 350; 310; 300]; [10; 400; 320; 300]] = Some h /\ getTandGradT h 0 3 = Found 350 g.
Proof.
  exists C40_table. destruct (file_lookup [3; 1; 0] [[0; 350; 310; 300]; [10; 400; 320; 300]] C40_table 0 0 [350; 310; 300] 0 3 350) as (g & E); try reflexivity; cbn; try lra; try lia.
  exists g. split; [reflexivity | exact E].
Qed.
