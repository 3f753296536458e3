(** Model of the main loop PFModel::Run with the QuatModel diagnostics hooks,
    and of putToRestart/getFromRestart/getFromInput (source/PFModel.cc,
    source/QuatModel.cc).  The integrator is an oracle: [dts k] is the step
    size returned by the k-th call of Advance() in this run.  Field data,
    gridding and file output are not modelled; a call is recorded as an action
    in a trace. *)
From Coq Require Import Reals ZArith List Bool.
From Verif Require Import EventInterval_Model.
Import ListNotations.
Open Scope R_scope.

(** PFModel.h data members used by Run, plus QuatModel's d_scalar_diag_interval. *)
Record pf := mkPF {
  pf_cycle : Z; pf_time : R; pf_prev_dt : R;
  pf_max_cycles : Z; pf_start : R; pf_end : R; pf_amr : bool;
  pf_visit : ei; pf_info : ei; pf_restart : ei; pf_regrid : ei; pf_grain : ei;
  pf_scalar : ei
}.

(** constant surroundings: verbosity and number of levels *)
Record env := mkEnv { not_silent : bool; multilevel : bool }.

(** Observable actions with the cycle and time at which they happen. *)
Inductive action :=
| AVisit (c : Z) (t : R)     (* d_visit_data_writer->writePlotData *)
| AInfo (c : Z) (t : R)      (* cycle/time line *)
| ARestart (c : Z) (t : R)   (* writeRestartFile *)
| AGrain (c : Z) (t : R)     (* computeGrainDiagnostics *)
| AScalar (c : Z) (t : R)    (* printScalarDiagnostics *)
| ARegrid (c : Z) (t : R)    (* Regrid *)
| AAdvance (c : Z) (t : R) (dt : R). (* Advance(): cycle number, start time, dt *)

Definition set_visit (s : pf) (e : ei) := mkPF (pf_cycle s) (pf_time s) (pf_prev_dt s) (pf_max_cycles s) (pf_start s) (pf_end s) (pf_amr s) e (pf_info s) (pf_restart s) (pf_regrid s) (pf_grain s) (pf_scalar s).
Definition set_info (s : pf) (e : ei) := mkPF (pf_cycle s) (pf_time s) (pf_prev_dt s) (pf_max_cycles s) (pf_start s) (pf_end s) (pf_amr s) (pf_visit s) e (pf_restart s) (pf_regrid s) (pf_grain s) (pf_scalar s).
Definition set_restart (s : pf) (e : ei) := mkPF (pf_cycle s) (pf_time s) (pf_prev_dt s) (pf_max_cycles s) (pf_start s) (pf_end s) (pf_amr s) (pf_visit s) (pf_info s) e (pf_regrid s) (pf_grain s) (pf_scalar s).
Definition set_regrid (s : pf) (e : ei) := mkPF (pf_cycle s) (pf_time s) (pf_prev_dt s) (pf_max_cycles s) (pf_start s) (pf_end s) (pf_amr s) (pf_visit s) (pf_info s) (pf_restart s) e (pf_grain s) (pf_scalar s).
Definition set_grain (s : pf) (e : ei) := mkPF (pf_cycle s) (pf_time s) (pf_prev_dt s) (pf_max_cycles s) (pf_start s) (pf_end s) (pf_amr s) (pf_visit s) (pf_info s) (pf_restart s) (pf_regrid s) e (pf_scalar s).
Definition set_scalar (s : pf) (e : ei) := mkPF (pf_cycle s) (pf_time s) (pf_prev_dt s) (pf_max_cycles s) (pf_start s) (pf_end s) (pf_amr s) (pf_visit s) (pf_info s) (pf_restart s) (pf_regrid s) (pf_grain s) e.

Definition when (b : bool) (a : action) : list action := if b then [a] else [].

(** PFModel.cc:440-459 with QuatModel.cc:2431 (preRunDiagnostics).  Note that
    the initial writeRestartFile is guarded by d_regrid_interval (line 453). *)
Definition run_init (en : env) (s : pf) : list action * pf :=
  let c := pf_cycle s in let t := pf_time s in
  let (b0, e0) := include_initial (pf_scalar s) t in
  let s := set_scalar s e0 in
  let (b1, e1) := include_initial (pf_visit s) t in
  let s := set_visit s e1 in
  let (b2, s) := if not_silent en
                 then let (b, e) := include_initial (pf_info s) t in (b, set_info s e)
                 else (false, s) in
  let (b3, e3) := include_initial (pf_regrid s) t in
  let s := set_regrid s e3 in
  let (b4, e4) := include_initial (pf_grain s) t in
  let s := set_grain s e4 in
  (when b0 (AScalar c t) ++ when b1 (AVisit c t) ++ when b2 (AInfo c t) ++
   when b3 (ARestart c t) ++ when b4 (AGrain c t), s).

(** PFModel.cc:464-468 with QuatModel.cc:2356-2358 (Advance adds dt to d_time) *)
Definition advance (s : pf) (dt : R) : pf :=
  mkPF (pf_cycle s + 1)%Z (pf_time s + dt) dt (pf_max_cycles s) (pf_start s) (pf_end s)
       (pf_amr s) (pf_visit s) (pf_info s) (pf_restart s) (pf_regrid s) (pf_grain s) (pf_scalar s).

(** PFModel.cc:470-503, the part of the loop body after Advance(), with
    QuatModel.cc:2370 (postAdvanceDiagnostics).  Returns the trace, the new
    state and flag_visit_dump. *)
Definition run_after_advance (en : env) (s : pf) : outcome (list action * pf * bool) :=
  let c := pf_cycle s in let t := pf_time s in
  bind (if not_silent en then has_interval_passed (pf_info s) c t else Ok (false, pf_info s))
  (fun '(b1, e1) => let s := set_info s e1 in
  bind (has_interval_passed (pf_restart s) c t) (fun '(b2, e2) => let s := set_restart s e2 in
  bind (has_interval_passed (pf_grain s) c t) (fun '(b3, e3) => let s := set_grain s e3 in
  bind (has_interval_passed (pf_scalar s) c t) (fun '(b4, e4) => let s := set_scalar s e4 in
  bind (has_interval_passed (pf_visit s) c t) (fun '(b5, e5) => let s := set_visit s e5 in
  bind (if multilevel en then has_interval_passed (pf_regrid s) c t else Ok (false, pf_regrid s))
  (fun '(b6, e6) => let s := set_regrid s e6 in
  Ok (when b1 (AInfo c t) ++ when b2 (ARestart c t) ++ when b3 (AGrain c t) ++
      when b4 (AScalar c t) ++ when b5 (AVisit c t) ++ when b6 (ARegrid c t), s, b5))))))).

(** PFModel.cc:462 loop condition *)
Definition run_continues (s : pf) : bool :=
  ((if Rlt_dec (pf_time s) (pf_end s) then true else false) && (pf_cycle s <? pf_max_cycles s)%Z)%bool.

(** PFModel.cc:461-504, the while loop; [k] counts calls of Advance.  [None] =
    out of fuel. *)
Fixpoint run_loop (fuel : nat) (en : env) (dts : nat -> R) (k : nat) (s : pf) (flag : bool)
    : option (outcome (list action * pf * bool)) :=
  if run_continues s then
    match fuel with
    | O => None
    | S fuel' =>
        let s1 := advance s (dts k) in
        match run_after_advance en s1 with
        | Ok (tr, s2, flag') =>
            match run_loop fuel' en dts (S k) s2 flag' with
            | Some (Ok (tr', s3, f3)) =>
                Some (Ok ((AAdvance (pf_cycle s1) (pf_time s) (dts k) :: tr) ++ tr', s3, f3))
            | r => r
            end
        | UB => Some UB
        | Err => Some Err
        end
    end
  else Some (Ok ([], s, flag)).

(** PFModel.cc:508-518 with QuatModel.cc:2538 (postRunDiagnostics) *)
Definition run_final (s : pf) (flag : bool) : list action * pf :=
  let c := pf_cycle s in let t := pf_time s in
  let (b0, e0) := include_final (pf_scalar s) t in
  let s := set_scalar s e0 in
  let (b1, e1) := include_final (pf_visit s) t in
  let s := set_visit s e1 in
  let (b2, e2) := include_final (pf_restart s) t in
  let s := set_restart s e2 in
  (when b0 (AScalar c t) ++ when (b1 && negb flag) (AVisit c t) ++ when b2 (ARestart c t), s).

(** PFModel.cc:436-537 *)
Definition run (fuel : nat) (en : env) (dts : nat -> R) (s : pf)
    : option (outcome (list action * pf)) :=
  let (tr0, s0) := run_init en s in
  match run_loop fuel en dts 0 s0 true with
  | Some (Ok (tr1, s1, flag)) =>
      let (tr2, s2) := run_final s1 flag in Some (Ok (tr0 ++ tr1 ++ tr2, s2))
  | Some UB => Some UB
  | Some Err => Some Err
  | None => None
  end.

(** ** Restart files *)

(** PFModel.cc:607-619 the entries written *)
Record restart_file := mkRF {
  rf_max_cycles : Z; rf_start : R; rf_end : R; rf_time : R; rf_cycle : Z;
  rf_prev_dt : R; rf_amr : bool
}.

Definition put_to_restart (s : pf) : restart_file :=
  mkRF (pf_max_cycles s) (pf_start s) (pf_end s) (pf_time s) (pf_cycle s) (pf_prev_dt s) (pf_amr s).

(** Input deck entries consulted by getFromInput/getFromRestart *)
Record deck := mkDeck {
  dk_max_cycles : option Z; dk_max_timesteps : option Z; dk_max_delta : option Z;
  dk_start : option R; dk_end : option R; dk_amr : option bool
  (* dk_amr: None = no Amr database; Some b = Amr database with enabled=b *)
}.

(** the six schedules, rebuilt from the input deck on every start
    (PFModel.cc:90,127,134,225,240; QuatModel.cc:519) *)
Record schedules := mkSch {
  sc_visit : ei; sc_info : ei; sc_restart : ei; sc_regrid : ei; sc_grain : ei; sc_scalar : ei
}.

(** PFModel.cc:653-720; the legacy key names (max_timesteps, loop_time,
    iteration_number) and missing optional keys of old files are not modelled:
    the file is one written by put_to_restart. *)
Definition get_from_restart (f : restart_file) (d : deck) (sc : schedules) : pf :=
  let m0 := match dk_max_delta d with Some x => (rf_cycle f + x)%Z | None => rf_max_cycles f end in
  let m1 := match dk_max_cycles d with
            | Some x => x
            | None => match dk_max_timesteps d with Some x => x | None => m0 end
            end in
  let e := match dk_end d with Some x => x | None => rf_end f end in
  mkPF (rf_cycle f) (rf_time f) (rf_prev_dt f) m1 (rf_start f) e (rf_amr f)
       (sc_visit sc) (sc_info sc) (sc_restart sc) (sc_regrid sc) (sc_grain sc) (sc_scalar sc).

(** PFModel.cc:115-119,621-650; [None] = TBOX_ERROR when end_time is missing *)
Definition get_from_input (d : deck) (sc : schedules) : option pf :=
  let m0 := match dk_max_cycles d with
            | Some x => x
            | None => match dk_max_timesteps d with Some x => x | None => (2 ^ 31 - 1)%Z end
            end in
  let m1 := match dk_max_delta d with Some x => x | None => m0 end in
  let st := match dk_start d with Some x => x | None => 0 end in
  match dk_end d with
  | None => None
  | Some e => Some (mkPF 0 st 0 m1 st e (match dk_amr d with Some b => b | None => false end)
      (sc_visit sc) (sc_info sc) (sc_restart sc) (sc_regrid sc) (sc_grain sc) (sc_scalar sc))
  end.
