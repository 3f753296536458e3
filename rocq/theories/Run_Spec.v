(** What a user observes of a run: the files and lines written, with cycle and
    time stamps, and the steps taken. *)
From Coq Require Import Reals ZArith List.
From Verif Require Import EventInterval_Model EventInterval_Spec Run_Model.
Import ListNotations.
Open Scope R_scope.

Fixpoint plot_files (tr : list action) : list (Z * R) :=
  match tr with [] => [] | AVisit c t :: r => (c, t) :: plot_files r | _ :: r => plot_files r end.

Fixpoint restart_files (tr : list action) : list (Z * R) :=
  match tr with [] => [] | ARestart c t :: r => (c, t) :: restart_files r | _ :: r => restart_files r end.

Fixpoint regrids (tr : list action) : list (Z * R) :=
  match tr with [] => [] | ARegrid c t :: r => (c, t) :: regrids r | _ :: r => regrids r end.

(** the steps: (cycle number, start time, step size) *)
Fixpoint steps (tr : list action) : list (Z * R * R) :=
  match tr with [] => [] | AAdvance c t dt :: r => (c, t, dt) :: steps r | _ :: r => steps r end.

(** [steps_from c t dts k l]: the steps in [l] are numbered c+1, c+2, ..., each
    starts where the previous one ended, the first at [t], and they use the step
    sizes dts k, dts (k+1), ... *)
Fixpoint steps_from (c : Z) (t : R) (dts : nat -> R) (k : nat) (l : list (Z * R * R)) : Prop :=
  match l with
  | [] => True
  | (c', t', dt) :: r => c' = (c + 1)%Z /\ t' = t /\ dt = dts k /\
                         steps_from (c + 1)%Z (t + dt) dts (S k) r
  end.

(** end time of the steps in [l] when started at [t] *)
Fixpoint end_of_steps (t : R) (l : list (Z * R * R)) : R :=
  match l with [] => t | (_, _, dt) :: r => end_of_steps (t + dt) r end.

(** the input deck of a restarted run that overrides nothing *)
Definition no_override : deck := mkDeck None None None None None None.

Definition fresh_schedules (s : pf) : schedules :=
  mkSch (fresh (pf_visit s)) (fresh (pf_info s)) (fresh (pf_restart s)) (fresh (pf_regrid s))
        (fresh (pf_grain s)) (fresh (pf_scalar s)).

(** the state of a run that was stopped in state [s] and restarted from the file
    written there, with the same input deck *)
Definition restarted (s : pf) : pf :=
  get_from_restart (put_to_restart s) no_override (fresh_schedules s).

(** [reaches en dts k s k' s']: the loop, about to take its k-th step in state
    [s], gets to the loop test in state [s'] having taken steps k .. k'-1 *)
Inductive reaches (en : env) (dts : nat -> R) : nat -> pf -> nat -> pf -> Prop :=
| reaches_here : forall k s, reaches en dts k s k s
| reaches_step : forall k s tr s1 f k' s',
    run_continues s = true ->
    run_after_advance en (advance s (dts k)) = Ok (tr, s1, f) ->
    reaches en dts (S k) s1 k' s' -> reaches en dts k s k' s'.

(** a run as it is when the program has just read its input: nothing fired yet *)
Definition just_started (s : pf) : Prop :=
  0 <= pf_time s /\
  forall e, In e [pf_visit s; pf_info s; pf_restart s; pf_regrid s; pf_grain s; pf_scalar s] ->
            e = fresh e.
