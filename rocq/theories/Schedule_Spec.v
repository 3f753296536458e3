(** Vocabulary: what an input deck says about a schedule. *)
From Coq Require Import Reals ZArith String List.
From Verif Require Import EventInterval_Model EventInterval_Spec Run_Model Run_Spec.
Open Scope R_scope.

(** value of a key: the entry of the deck if there is one, else the default *)
Definition setting {A : Type} (key : ei_db -> option A) (db : option ei_db) (default : A) : A :=
  match db with
  | None => default
  | Some d => match key d with Some x => x | None => default end
  end.
Definition says_cycle (db : option ei_db) (default_type : string) : Prop :=
  setting db_type db default_type = "step"%string \/ setting db_type db default_type = "cycle"%string.
Definition says_time (db : option ei_db) (default_type : string) : Prop :=
  setting db_type db default_type = "time"%string \/ setting db_type db default_type = "dt"%string.
(** the integer interval is n: given in the deck, or the default value is the integer n *)
Definition interval_is (db : option ei_db) (default_value : R) (n : Z) : Prop :=
  match db with
  | Some (mkDB _ _ _ (Some m) _) => n = m
  | _ => default_value = IZR n
  end.

(** first choice that is given *)
Fixpoint first_of {A : Type} (l : list (option A)) (default : A) : A :=
  match l with nil => default | cons (Some x) _ => x | cons None r => first_of r default end.
(** a run taking steps c0+1, c0+2, ... from time t0 until a step ends at or after
    [t_end] or cycle [limit] is reached *)
Definition runs_between (c0 : Z) (t0 t_end : R) (limit : Z) (dts : nat -> R) (tr : list action) : Prop :=
  steps_from c0 t0 dts 0 (steps tr) /\
  (forall c t dt, In (c, t, dt) (steps tr) -> t < t_end /\ (c <= limit)%Z) /\
  (t_end <= end_of_steps t0 (steps tr) \/ (limit <= c0 + Z.of_nat (length (steps tr)))%Z).
