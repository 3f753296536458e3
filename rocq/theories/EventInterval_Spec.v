(** Vocabulary for the properties of schedules: histories of queries with their
    answers.  Only uses the query operation of the model as a black box. *)
From Coq Require Import Reals ZArith List.
From Verif Require Import EventInterval_Model.
Import ListNotations.
Open Scope R_scope.

(** [history s h s'] : starting from object state [s] the queries listed in [h]
    were made, each with the recorded answer, ending in state [s']. *)
Inductive history : ei -> list (ei_op * bool) -> ei -> Prop :=
| history_nil : forall s, history s [] s
| history_cons : forall s o b s1 h s2,
    ei_query s o = Ok (b, s1) -> history s1 h s2 -> history s ((o, b) :: h) s2.

(** query times never decrease, and start at or after [t0] *)
Fixpoint times_from (t0 : R) (h : list (ei_op * bool)) : Prop :=
  match h with
  | [] => True
  | (o, _) :: h' => t0 <= op_time o /\ times_from (op_time o) h'
  end.

(** number of 'yes' answers given for time [t] *)
Fixpoint yes_at (t : R) (h : list (ei_op * bool)) : nat :=
  match h with
  | [] => 0%nat
  | (o, b) :: h' =>
      ((if b then if Req_EM_T (op_time o) t then 1 else 0 else 0) + yes_at t h')%nat
  end.

(** some integer multiple of [I] lies in the half-open interval (a, b] *)
Definition crosses (I a b : R) : Prop := exists m : Z, a < IZR m * I <= b.

(** the object is configured to fire at all *)
Definition interval_positive (s : ei) : Prop :=
  match ei_type s with CYCLE => (0 < ei_int s)%Z | TIME => 0 < ei_dbl s end.

(** only hasIntervalPassed queries *)
Definition all_steps (h : list (ei_op * bool)) : Prop :=
  forall o b, In (o, b) h -> exists n, o = QStep n (op_time o).

(** time of the last query in [h], or [t0] *)
Fixpoint final_time (t0 : R) (h : list (ei_op * bool)) : R :=
  match h with [] => t0 | (o, _) :: h' => final_time (op_time o) h' end.

(** equal settings of two schedule objects *)
Definition same_config (a b : ei) : Prop :=
  ei_int a = ei_int b /\ ei_dbl a = ei_dbl b /\ ei_type a = ei_type b /\
  ei_first_flag a = ei_first_flag b /\ ei_last_flag a = ei_last_flag b.

Fixpoint strictly_after (t0 : R) (h : list (ei_op * bool)) : Prop :=
  match h with
  | [] => True
  | (o, _) :: h' => t0 < op_time o /\ strictly_after (op_time o) h'
  end.

(** a schedule object as the constructor leaves it (no query made yet) *)
Definition fresh (e : ei) : ei :=
  mkEI (ei_int e) (ei_dbl e) (ei_type e) (-1) (-1) (ei_first_flag e) (ei_last_flag e).

