(** TimeLocationIndexRobinBcCoefs.cc.
    The four arrays of vectors are functions from the face to a list; the function-static slots are an explicit
    state, one entry per face, shared by all objects.  Reading past the end of a vector (or a failed assert) gives
    Ub, TBOX_ERROR gives Stop.  The null checks on the three destination arrays are left out: all three
    coefficients are wanted. *)
From Coq Require Import Reals ZArith List Bool.
Import ListNotations.
Open Scope R_scope.

Record coefs := mk_coefs { a_map : Z -> list R; b_map : Z -> list R; g_map : Z -> list R; t_map : Z -> list R }.
Inductive outcome := Values (a b g : R) | Stop | Ub.

(** std::vector operator[] *)
Definition at_slot (l : list R) (i : Z) : option R := if (0 <=? i)%Z then nth_error l (Z.to_nat i) else None.

(** one file per face: its type and the entries time_0, time_1, ... (63-109) *)
Inductive bc_type := Value | Slope.
Definition getFromInput (files : Z -> bc_type * list (R * R)) : coefs :=
  mk_coefs (fun i => map (fun _ => match fst (files i) with Value => 1 | Slope => 0 end) (snd (files i)))
           (fun i => map (fun _ => match fst (files i) with Value => 0 | Slope => 1 end) (snd (files i)))
           (fun i => map snd (snd (files i))) (fun i => map fst (snd (files i))).

(** the while loop (160-163): rest is the table from slot on *)
Fixpoint scan (rest : list R) (fill_time : R) (slot : Z) : option Z :=
  match rest with
  | [] => None
  | t :: rest => if Rle_dec t fill_time then scan rest fill_time (slot + 1) else Some slot
  end.

Definition search_range : Z := 10.
Definition set_slot (prev_time_slot : Z -> Z) (location v : Z) : Z -> Z := fun i => if (i =? location)%Z then v else prev_time_slot i.

(** setBcCoefs (128-217); next_time_slot is always recomputed, so only prev_time_slot is kept *)
Definition setBcCoefs (c : coefs) (location : Z) (fill_time : R) (prev_time_slot : Z -> Z) : outcome * (Z -> Z) :=
  let t := t_map c location in
  let start := Z.max (prev_time_slot location - search_range) 1 in
  match scan (skipn (Z.to_nat start) t) fill_time start with
  | None => (Ub, prev_time_slot)
  | Some slot =>
      let p := (slot - 1)%Z in
      let n := (p + 1)%Z in
      let slots := set_slot prev_time_slot location p in
      match at_slot t p, at_slot t n with
      | Some tp, Some tn =>
          if Rgt_dec tp fill_time then (Stop, slots) else if Rlt_dec tn fill_time then (Stop, slots) else
          let dtinv := 1 / (tn - tp) in
          let wl := dtinv * (fill_time - tp) in
          let wr := dtinv * (tn - fill_time) in
          match at_slot (a_map c location) p, at_slot (a_map c location) n, at_slot (b_map c location) p, at_slot (b_map c location) n,
                at_slot (g_map c location) p, at_slot (g_map c location) n with
          | Some ap, Some an, Some bp, Some bn, Some gp, Some gn =>
              (Values (wr * ap + wl * an) (wr * bp + wl * bn) (wr * gp + wl * gn), slots)
          | _, _, _, _, _, _ => (Ub, slots)
          end
      | _, _ => (Ub, slots)
      end
  end.

(** initial value of the static (146) *)
Definition slots0 : Z -> Z := fun _ => 0%Z.
(** a sequence of calls on the same object *)
Fixpoint calls (c : coefs) (l : list (Z * R)) (slots : Z -> Z) : list outcome * (Z -> Z) :=
  match l with
  | [] => ([], slots)
  | (face, x) :: l => let '(o, slots) := setBcCoefs c face x slots in let '(os, slots) := calls c l slots in (o :: os, slots)
  end.

(** rescaleGcoefficients (219-229) and operator= (247-258), dim = 2 or 3 *)
Definition rescale (dim : Z) (factor : R) (c : coefs) : coefs :=
  mk_coefs (a_map c) (b_map c) (fun i => if ((0 <=? i) && (i <? 2 * dim))%Z then map (fun g => g * factor) (g_map c i) else g_map c i) (t_map c).
Definition assign (dim : Z) (target r : coefs) : coefs :=
  let copy (m m' : Z -> list R) := fun i => if ((0 <=? i) && (i <? 2 * dim))%Z then m' i else m i in
  mk_coefs (copy (a_map target) (a_map r)) (copy (b_map target) (b_map r)) (copy (g_map target) (g_map r)) (t_map target).
