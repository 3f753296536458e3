(** Model of source/fortran/2d/quatcoarsen.m4 and 2d/quatlinrefine.m4: transfer of an
    orientation field between AMR levels.  A field maps a cell (i0,i1) to the list
    of its [depth] components.  Doubles are exact reals.  [None] is the Fortran
    [stop]. *)
From Coq Require Import Reals ZArith List Bool.
From Verif Require Import Quat_Model.
Import ListNotations.
Open Scope R_scope.

Definition field := Z -> Z -> list R.

(** quat.f:41-70 quatsymmrotate, dispatch on qlen (the length of the list) *)
Definition quatsymmrotate (q : list R) (iq : Z) : option (Z * list R) :=
  match q with
  | [a; b; c; d] =>
      match quatsymmrotate4 (Q4 a b c d) iq with
      | Some (i, p) => Some (i, [qa p; qb p; qc p; qd p]) | None => None end
  | [a; b] =>
      match quatsymmrotate2 (Q2 a b) iq with
      | Some (i, p) => Some (i, [ca p; cb p]) | None => None end
  | [a] =>
      match quatsymmrotate1 a iq with
      | Some (i, p) => Some (i, [p]) | None => None end
  | _ => None
  end.

(** quat.f:1043-1066 quatnorm *)
Definition quatnorm (q : list R) : option (list R) :=
  match q with
  | [a; b; c; d] => let p := quatnorm4 (Q4 a b c d) in Some [qa p; qb p; qc p; qd p]
  | [a; b] => let p := quatnorm2 (Q2 a b) in Some [ca p; cb p]
  | [a] => Some [a]
  | _ => None
  end.

(** component-wise update of the accumulator: 2d/quatcoarsen.m4:95-98 *)
Fixpoint accum (acc q : list R) (w : R) : list R :=
  match acc, q with
  | a :: acc', x :: q' => (a + x * w) :: accum acc' q' w
  | _, _ => []
  end.

(** the (ir0,ir1) pairs in loop order, ir1 outer: 2d/quatcoarsen.m4:70-71 *)
Definition sub_cells (r0 r1 : Z) : list (Z * Z) :=
  flat_map (fun ir1 => map (fun ir0 => (Z.of_nat ir0, Z.of_nat ir1)) (seq 0 (Z.to_nat r0)))
           (seq 0 (Z.to_nat r1)).

(** 2d/quatcoarsen.m4:70-101, body of the sub-cell loop; [iq] is threaded because
    quatsymmrotate may overwrite it *)
Fixpoint coarsen_loop (symm : bool) (fine : field) (f0 f1 : Z) (dVf : R)
  (cells : list (Z * Z)) (iq : Z) (acc : list R) : option (Z * list R) :=
  match cells with
  | [] => Some (iq, acc)
  | (ir0, ir1) :: rest =>
      let q := fine (f0 + ir0)%Z (f1 + ir1)%Z in
      if symm then
        if ((ir1 =? 0) && (ir0 =? 0))%Z then
          coarsen_loop symm fine f0 f1 dVf rest iq (accum acc q dVf)
        else
          match quatsymmrotate q iq with
          | None => None
          | Some (iq', q') => coarsen_loop symm fine f0 f1 dVf rest iq' (accum acc q' dVf)
          end
      else coarsen_loop symm fine f0 f1 dVf rest iq (accum acc q dVf)
  end.

(** 2d/quatcoarsen.m4:60-112 for one coarse cell; the local array bounds of the fine
    array are not modelled *)
Definition coarsen_cell (symm : bool) (depth : nat) (r0 r1 : Z) (dxf0 dxf1 dxc0 dxc1 : R)
  (fine : field) (iq : Z) (ic0 ic1 : Z) : option (Z * list R) :=
  let dVf := dxf0 * dxf1 in
  let dVcinv := 1 / (dxc0 * dxc1) in
  match coarsen_loop symm fine (ic0 * r0)%Z (ic1 * r1)%Z dVf (sub_cells r0 r1) iq (repeat 0 depth) with
  | None => None
  | Some (iq', acc) =>
      match quatnorm (map (fun x => x * dVcinv) acc) with
      | None => None
      | Some q => Some (iq', q)
      end
  end.

(** 2d/quatcoarsen.m4:55-116, all cells of the coarse box in loop order; starts with
    iq = 0 (line 49).  Returns the coarse values in that order. *)
Fixpoint coarsen_cells (symm : bool) (depth : nat) (r0 r1 : Z) (dxf0 dxf1 dxc0 dxc1 : R)
  (fine : field) (iq : Z) (cells : list (Z * Z)) : option (list (list R)) :=
  match cells with
  | [] => Some []
  | (ic0, ic1) :: rest =>
      match coarsen_cell symm depth r0 r1 dxf0 dxf1 dxc0 dxc1 fine iq ic0 ic1 with
      | None => None
      | Some (iq', q) =>
          match coarsen_cells symm depth r0 r1 dxf0 dxf1 dxc0 dxc1 fine iq' rest with
          | None => None
          | Some l => Some (q :: l)
          end
      end
  end.
Definition quatcoarsen (symm : bool) (depth : nat) (r0 r1 : Z) (dxf0 dxf1 dxc0 dxc1 : R)
  (fine : field) (cells : list (Z * Z)) : option (list (list R)) :=
  coarsen_cells symm depth r0 r1 dxf0 dxf1 dxc0 dxc1 fine 0 cells.

(** 2d/quatlinrefine.m4:62-76 (and 77-88): coarse cell and weight of fine index [i] in one
    direction.  [Z.quot] is Fortran integer division.  deltax has bounds 0:15
    (line 42): [None] for a ratio that overruns it. *)
Definition refine_index (r i : Z) (dxc dxf : R) : option (Z * R) :=
  (if 16 <? r then None
   else
     let ic := if i <? 0 then Z.quot (i + 1) r - 1 else Z.quot i r in
     let ir := i - ic * r in
     let x := (((IZR ir + / 2) * dxf - dxc * / 2) / dxc)%R in
     if Rlt_dec x 0 then Some (ic - 1, (x + 1)%R) else Some (ic, x))%Z.

(** 2d/quatlinrefine.m4:89-113: value of one fine cell; iq = 0 from line 52 *)
Definition lin_combine (q1 q2 q3 q4 : list R) (x y : R) : list R :=
  map (fun t => let '(a1, a2, a3, a4) := t in (a1 + (a3 - a1) * x) * (1 - y) + (a2 + (a4 - a2) * x) * y)
      (combine (combine (combine q1 q2) q3) q4).
Definition refine_cell (r0 r1 : Z) (dxc0 dxf0 dxc1 dxf1 : R) (coarse : field) (iq : Z) (if0 if1 : Z)
  : option (Z * list R) :=
  match refine_index r1 if1 dxc1 dxf1, refine_index r0 if0 dxc0 dxf0 with
  | Some (ic1, y), Some (ic0, x) =>
      match quatsymmrotate (coarse ic0 ic1) iq with
      | None => None
      | Some (iq1, q1) =>
      match quatsymmrotate (coarse ic0 (ic1 + 1)%Z) iq1 with
      | None => None
      | Some (iq2, q2) =>
      match quatsymmrotate (coarse (ic0 + 1)%Z ic1) iq2 with
      | None => None
      | Some (iq3, q3) =>
      match quatsymmrotate (coarse (ic0 + 1)%Z (ic1 + 1)%Z) iq3 with
      | None => None
      | Some (iq4, q4) =>
          match quatnorm (lin_combine q1 q2 q3 q4 x y) with
          | None => None
          | Some q => Some (iq4, q)
          end
      end end end end
  | _, _ => None
  end.
