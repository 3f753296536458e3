(** Model of source/EventInterval.cc and of the main loop PFModel::Run
    (source/PFModel.cc).  Times are exact reals instead of IEEE doubles. *)
From Coq Require Import Reals ZArith String.
Open Scope R_scope.

(** Outcome of a C++ routine: a value, undefined behaviour, or TBOX_ERROR. *)
Inductive outcome (A : Type) : Type :=
| Ok (a : A)
| UB
| Err.
Arguments Ok {A} a.
Arguments UB {A}.
Arguments Err {A}.

Definition bind {A B : Type} (o : outcome A) (f : A -> outcome B) : outcome B :=
  match o with Ok a => f a | UB => UB | Err => Err end.

(** C++ [(int)x] for a double [x]: truncation towards zero, undefined behaviour
    when the truncated value does not fit in a 32 bit int
    (EventInterval.cc:25,160,161). *)
Definition rtrunc (x : R) : Z :=
  if Rle_dec 0 x then Int_part x else (- Int_part (- x))%Z.

Definition cast_int (x : R) : outcome Z :=
  let n := rtrunc x in
  if ((- 2 ^ 31 <=? n) && (n <=? 2 ^ 31 - 1))%Z%bool then Ok n else UB.

(** EventInterval.h:24 [INTERVAL_TYPE] *)
Inductive interval_type := CYCLE | TIME.

(** EventInterval.h:45-52, the data members (d_name is only used in messages). *)
Record ei := mkEI {
  ei_int : Z;              (* d_int_interval_value *)
  ei_dbl : R;              (* d_dbl_interval_value *)
  ei_type : interval_type; (* d_interval_type *)
  ei_prev : R;             (* d_previous_time *)
  ei_last : R;             (* d_time_at_last_event *)
  ei_first_flag : bool;    (* d_include_first_step *)
  ei_last_flag : bool      (* d_include_last_step *)
}.

(** The entries of the input sub-database that the constructor looks at
    (EventInterval.cc:31-48,60-64,70-74); [None] = key absent.  The real code
    reads the same key "interval" with getInteger or getDouble according to the
    type; here the two readings are two fields. *)
Record ei_db := mkDB {
  db_type : option string;
  db_first : option bool;
  db_last : option bool;
  db_int : option Z;
  db_dbl : option R
}.

Definition opt {A} (o : option A) (d : A) : A := match o with Some a => a | None => d end.

(** EventInterval.cc:17-79, the constructor. [db = None] when there is no
    sub-database of that name.  [Err] is TBOX_ERROR at line 52. *)
Definition ei_new (db : option ei_db) (default_value : R) (default_type : string)
    (include_first include_last : bool) : outcome ei :=
  bind (cast_int (default_value + 1 / 2)) (fun dint =>
  let ty := match db with Some d => opt (db_type d) default_type | None => default_type end in
  let first := match db with Some d => opt (db_first d) include_first | None => include_first end in
  let last := match db with Some d => opt (db_last d) include_last | None => include_last end in
  if (String.eqb ty "step" || String.eqb ty "cycle")%bool then
    let n := match db with Some d => opt (db_int d) dint | None => dint end in
    Ok (mkEI n 0 CYCLE (-1) (-1) first last)
  else if (String.eqb ty "time" || String.eqb ty "dt")%bool then
    let x := match db with Some d => opt (db_dbl d) default_value | None => default_value end in
    Ok (mkEI 0%Z x TIME (-1) (-1) first last)
  else Err).

(** EventInterval.cc:81-90 *)
Definition is_active (s : ei) : bool :=
  match ei_type s with
  | CYCLE => (0 <? ei_int s)%Z
  | TIME => if Rlt_dec 0 (ei_dbl s) then true else false
  end.

(** EventInterval.cc:92-95 *)
Definition record_event (s : ei) (t : R) : ei :=
  mkEI (ei_int s) (ei_dbl s) (ei_type s) (ei_prev s) t (ei_first_flag s) (ei_last_flag s).

(** the assignment [d_previous_time = current_time] (lines 120,136,168) *)
Definition set_prev (s : ei) (t : R) : ei :=
  mkEI (ei_int s) (ei_dbl s) (ei_type s) t (ei_last s) (ei_first_flag s) (ei_last_flag s).

(** EventInterval.cc:97-107 *)
Definition event_occurred_at (s : ei) (t : R) : bool :=
  andb (is_active s) (if Req_EM_T (ei_last s) t then true else false).

(** EventInterval.cc:109-123 *)
Definition include_initial (s : ei) (t : R) : bool * ei :=
  if (is_active s && ei_first_flag s && negb (event_occurred_at s t))%bool
  then (true, set_prev (record_event s t) t)
  else (false, set_prev s t).

(** EventInterval.cc:125-139 *)
Definition include_final (s : ei) (t : R) : bool * ei :=
  if (is_active s && ei_last_flag s && negb (event_occurred_at s t))%bool
  then (true, set_prev (record_event s t) t)
  else (false, set_prev s t).

(** EventInterval.cc:141-175.  The casts at lines 160-161 may be undefined. *)
Definition has_interval_passed (s : ei) (step : Z) (t : R) : outcome (bool * ei) :=
  let passed :=
    if (is_active s && negb (event_occurred_at s t))%bool then
      if (ei_first_flag s && (if Rlt_dec (ei_prev s) 0 then true else false))%bool then Ok true
      else match ei_type s with
      | CYCLE => Ok (Z.rem step (ei_int s) =? 0)%Z
      | TIME =>
          if Rle_dec 0 (ei_prev s) then
            bind (cast_int (ei_prev s / ei_dbl s)) (fun n_prev =>
            bind (cast_int (t / ei_dbl s)) (fun n =>
            Ok (n_prev <? n)%Z))
          else Ok false
      end
    else Ok false in
  bind passed (fun b =>
    let s' := set_prev s t in
    Ok (b, if b then record_event s' t else s')).

(** The public query operations of the class, as one step function. *)
Inductive ei_op := QInitial (t : R) | QStep (step : Z) (t : R) | QFinal (t : R).

Definition op_time (o : ei_op) : R :=
  match o with QInitial t => t | QStep _ t => t | QFinal t => t end.

Definition ei_query (s : ei) (o : ei_op) : outcome (bool * ei) :=
  match o with
  | QInitial t => Ok (include_initial s t)
  | QStep n t => has_interval_passed s n t
  | QFinal t => Ok (include_final s t)
  end.
