(** TemperatureHistory.cc.  Vectors are lists; `unsigned` arithmetic is modulo 2^32; a vector access outside gives
    OutOfTable.  Text parsing is left out: readCSV starts from the numbers of the file, comments removed. *)
From Coq Require Import Reals ZArith List Bool.
From Verif Require Import BcCoefs_Model.
Import ListNotations.
Open Scope R_scope.

Record history := mk_history { d_times : list R; d_positions : list R; d_temperatures : list (list R) }.
Inductive lookup := Found (temperature gradT : R) | Rejected | OutOfTable.

(** readCSV (14-66); None = failed assert (row of the wrong length, or no first row).  An empty later row has no time. *)
Fixpoint read_rows (n : nat) (rows : list (list R)) : option (list R * list (list R)) :=
  match rows with
  | [] => Some ([], [])
  | [] :: _ => None
  | (time :: row) :: rows =>
      if Nat.eqb (length row) n then match read_rows n rows with Some (ts, vs) => Some (time :: ts, rev row :: vs) | None => None end else None
  end.
Definition readCSV (rows : list (list R)) : option history :=
  match rows with
  | [] => None
  | first :: rows => match read_rows (length first) rows with Some (ts, vs) => Some (mk_history ts (rev first) vs) | None => None end
  end.

(** `for (auto t : d_times) if (time >= t) itime++; else break;` (82-88), and with > (108-114) *)
Fixpoint count_ge (time : R) (l : list R) : Z := match l with [] => 0%Z | t :: l => if Rge_dec time t then (1 + count_ge time l)%Z else 0%Z end.
Fixpoint count_gt (position : R) (l : list R) : Z := match l with [] => 0%Z | x :: l => if Rgt_dec position x then (1 + count_gt position l)%Z else 0%Z end.
Definition u32 (n : Z) : Z := (n mod 2 ^ 32)%Z.
Definition at2 (l : list (list R)) (i j : Z) : option R :=
  if (0 <=? i)%Z then match nth_error l (Z.to_nat i) with Some row => at_slot row j | None => None end else None.
Definition need {A : Type} (o : option A) (f : A -> lookup) : lookup := match o with Some a => f a | None => OutOfTable end.

(** getTandGradT (68-171) *)
Definition getTandGradT (h : history) (time position : R) : lookup :=
  need (at_slot (d_times h) 0) (fun t0 =>
  if Rlt_dec time t0 then Rejected else
  let itime := u32 (count_ge time (d_times h) - 1) in
  if (Z.of_nat (length (d_times h)) <=? u32 (itime + 1))%Z then Rejected else
  need (at_slot (d_times h) itime) (fun tm => need (at_slot (d_times h) (u32 (itime + 1))) (fun tp =>
  let tfrac := (time - tm) / (tp - tm) in
  need (at_slot (d_positions h) 0) (fun x0 =>
  if Rlt_dec position x0 then Rejected else
  let ipos := u32 (count_gt position (d_positions h) - 1) in
  if (Z.of_nat (length (d_positions h)) <=? u32 (ipos + 1))%Z then Rejected else
  need (at_slot (d_positions h) ipos) (fun xm => need (at_slot (d_positions h) (u32 (ipos + 1))) (fun xp =>
  let xfrac := (position - xm) / (xp - xm) in
  let temp i j := at2 (d_temperatures h) (u32 i) (u32 j) in
  need (temp itime ipos) (fun temp_tm_xm => need (temp itime (ipos + 1)%Z) (fun temp_tm_xp =>
  need (temp (itime + 1)%Z ipos) (fun temp_tp_xm => need (temp (itime + 1)%Z (ipos + 1)%Z) (fun temp_tp_xp =>
  let temperature := (1 - tfrac) * ((1 - xfrac) * temp_tm_xm + xfrac * temp_tm_xp) + tfrac * ((1 - xfrac) * temp_tp_xm + xfrac * temp_tp_xp) in
  let grad_tm := (temp_tm_xp - temp_tm_xm) / (xp - xm) in
  let grad_tp := (temp_tp_xp - temp_tp_xm) / (xp - xm) in
  if (0 <? ipos)%Z && (if Rlt_dec xfrac (1 / 2) then true else false) then
    need (at_slot (d_positions h) (ipos - 1)) (fun xmm =>
    need (temp itime (ipos - 1)%Z) (fun temp_tm_xmm => need (temp (itime + 1)%Z (ipos - 1)%Z) (fun temp_tp_xmm =>
    let grad_tm_xm := (temp_tm_xm - temp_tm_xmm) / (xm - xmm) in
    let grad_tp_xm := (temp_tp_xm - temp_tp_xmm) / (xm - xmm) in
    let grad_tm := (1 / 2 + xfrac) * grad_tm + (1 / 2 - xfrac) * grad_tm_xm in
    let grad_tp := (1 / 2 + xfrac) * grad_tp + (1 / 2 - xfrac) * grad_tp_xm in
    Found temperature ((1 - tfrac) * grad_tm + tfrac * grad_tp))))
  else if (u32 (ipos + 2) <? Z.of_nat (length (d_positions h)))%Z && (if Rgt_dec xfrac (1 / 2) then true else false) then
    need (at_slot (d_positions h) (u32 (ipos + 2))) (fun xpp =>
    need (temp itime (ipos + 2)%Z) (fun temp_tm_xpp => need (temp (itime + 1)%Z (ipos + 2)%Z) (fun temp_tp_xpp =>
    let grad_tm_xp := (temp_tm_xpp - temp_tm_xp) / (xpp - xp) in
    let grad_tp_xp := (temp_tp_xpp - temp_tp_xp) / (xpp - xp) in
    let grad_tm := (3 / 2 - xfrac) * grad_tm + (xfrac - 1 / 2) * grad_tm_xp in
    let grad_tp := (3 / 2 - xfrac) * grad_tp + (xfrac - 1 / 2) * grad_tp_xp in
    Found temperature ((1 - tfrac) * grad_tm + tfrac * grad_tp))))
  else Found temperature ((1 - tfrac) * grad_tm + tfrac * grad_tp))))))))))).
