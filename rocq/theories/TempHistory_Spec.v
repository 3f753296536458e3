(** Vocabulary for C40. *)
From Coq Require Import Reals ZArith List.
From Verif Require Import BcCoefs_Spec TempHistory_Model.
Import ListNotations.
Open Scope R_scope.

(** a usable table: both axes strictly increasing with at least two entries, one row per time, one entry per position *)
Definition table_ok (h : history) : Prop :=
  increasing (d_times h) /\ increasing (d_positions h) /\ (2 <= length (d_times h))%nat /\ (2 <= length (d_positions h))%nat /\
  (Z.of_nat (length (d_times h)) < 2 ^ 32)%Z /\ (Z.of_nat (length (d_positions h)) < 2 ^ 32)%Z /\
  length (d_temperatures h) = length (d_times h) /\ Forall (fun row => length row = length (d_positions h)) (d_temperatures h).
(** entry of the table for the i-th time and the j-th position *)
Definition entry (h : history) (i j : nat) (v : R) : Prop := exists row, nth_error (d_temperatures h) i = Some row /\ nth_error row j = Some v.
(** last element *)
Definition last_of (l : list R) (x : R) : Prop := nth_error l (length l - 1) = Some x.
(** bilinear interpolation in the cell [tm,tp) x (xm,xp] of the table *)
Definition bilinear (h : history) (t x T : R) : Prop :=
  exists i j tm tp xm xp a b c d, nth_error (d_times h) i = Some tm /\ nth_error (d_times h) (S i) = Some tp /\
    nth_error (d_positions h) j = Some xm /\ nth_error (d_positions h) (S j) = Some xp /\ tm <= t < tp /\ xm < x <= xp /\
    entry h i j a /\ entry h i (S j) b /\ entry h (S i) j c /\ entry h (S i) (S j) d /\
    T * ((tp - tm) * (xp - xm)) = (tp - t) * ((xp - x) * a + (x - xm) * b) + (t - tm) * ((xp - x) * c + (x - xm) * d).
(** s is the slope of the i-th row between the j-th position and the next *)
Definition row_slope (h : history) (i j : nat) (s : R) : Prop :=
  exists xm xp a b, nth_error (d_positions h) j = Some xm /\ nth_error (d_positions h) (S j) = Some xp /\ entry h i j a /\ entry h i (S j) b /\ s = (b - a) / (xp - xm).
(** the data are the given bilinear function *)
Definition samples (h : history) (f : R -> R -> R) : Prop :=
  forall i j t x v, nth_error (d_times h) i = Some t -> nth_error (d_positions h) j = Some x -> entry h i j v -> v = f t x.
