(** Model of source/TiltingFolchPlapp2005.cc, source/TiltingMoelans2011.cc and
    deriv_triple_well_func of source/fortran/functions.f.  Exact reals. *)
From Coq Require Import Reals.
Open Scope R_scope.

(** TiltingFolchPlapp2005.cc:17-26 *)
Definition fp_g0 (p0 p1 p2 : R) : R :=
  if Rlt_dec p0 0 then 0 else
  if Rlt_dec 1 p0 then 1 else
  (1 / 4) * p0 * p0 *
    (15 * (1 - p0) * (1 + p0 - (p2 - p1) * (p2 - p1)) + p0 * (9 * p0 * p0 - 5)).

(** TiltingFolchPlapp2005.cc:30-41 *)
Definition fp_dg0dp0 (p0 p1 p2 : R) : R :=
  if Rlt_dec p0 0 then 0 else
  if Rlt_dec 1 p0 then 0 else
  (5 / 2) * p0 * ((p2 - p1) * (p2 - p1) * (3 * p0 - 2) + (1 - p0) * (1 - p0) * (3 * p0 + 2)).

(** TiltingFolchPlapp2005.cc:43-53 *)
Definition fp_dg0dp1 (p0 p1 p2 : R) : R :=
  if Rlt_dec p0 0 then 0 else
  if Rlt_dec 1 p0 then 0 else
  if Rlt_dec p1 0 then 0 else
  if Rlt_dec 1 p1 then 0 else
  - (1 / 2) * fp_dg0dp0 p1 p0 p2 + (15 / 2) * (p1 * p1 * (1 - p1) * (p2 - p0)).

(** TiltingMoelans2011.cc:17-22; the division by zero at (0,0,0) is not modelled *)
Definition mo_g0 (p0 p1 p2 : R) : R :=
  if Rlt_dec p0 0 then 0 else p0 * p0 / (p0 * p0 + p1 * p1 + p2 * p2).

(** TiltingMoelans2011.cc:26-34 *)
Definition mo_dg0dp0 (p0 p1 p2 : R) : R :=
  if Rlt_dec p0 0 then 0 else
  let a := p0 * p0 + p1 * p1 + p2 * p2 in
  2 * p0 * (2 * p1 * p1 + 2 * p2 * p2 + p0 * p1 + p0 * p2) / (3 * a * a).

(** TiltingMoelans2011.cc:36-43 *)
Definition mo_dg0dp1 (p0 p1 p2 : R) : R :=
  if Rlt_dec p0 0 then 0 else
  let a := p0 * p0 + p1 * p1 + p2 * p2 in
  2 * p0 * (p0 * (p2 - 2 * p1) - (p1 * p1 + p2 * p2)) / (3 * a * a).

(** the template parameter TiltingFunction of CALPHADFreeEnergyStrategyBinaryThreePhase *)
Inductive tilting := FolchPlapp | Moelans.
Definition g0 (T : tilting) := match T with FolchPlapp => fp_g0 | Moelans => mo_g0 end.
Definition dg0dp0 (T : tilting) := match T with FolchPlapp => fp_dg0dp0 | Moelans => mo_dg0dp0 end.
Definition dg0dp1 (T : tilting) := match T with FolchPlapp => fp_dg0dp1 | Moelans => mo_dg0dp1 end.

(** functions.f:609-622 *)
Definition deriv_triple_well_func (p0 p1 p2 : R) : R :=
  32 * (1 / 3) *
    (2 * p0 * (1 - p0) * (1 - 2 * p0) - p1 * (1 - p1) * (1 - 2 * p1) - p2 * (1 - p2) * (1 - 2 * p2)).
