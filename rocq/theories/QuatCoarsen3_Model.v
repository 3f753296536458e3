(** Model of the transfer of an orientation field between AMR levels in three dimensions, source/fortran/3d/quatcoarsen.m4
    and 3d/quatlinrefine.m4, and of the refinement operator QuatLinearRefine.cc in two and three dimensions.  A field maps
    a cell to the list of its [depth] components.  Doubles are exact reals; array bounds are not modelled.  [None] is the
    Fortran [stop]. *)
From Coq Require Import Reals ZArith List Bool.
From Verif Require Import Grid_Model Quat_Model QuatCoarsen_Model.
Import ListNotations.
Open Scope R_scope.

Definition field3 := Z -> Z -> Z -> list R.
Definition put (f : field3) (i j k : Z) (q : list R) : field3 :=
  fun i' j' k' => if ((i' =? i) && (j' =? j) && (k' =? k))%Z%bool then q else f i' j' k'.
(** hier::Box *)
Record ibox := mk_ibox { lo0 : Z; lo1 : Z; lo2 : Z; hi0 : Z; hi1 : Z; hi2 : Z }.
(** the cells of a box in the order of the loops, first index innermost: 3d/quatcoarsen.m4:63-65, 3d/quatlinrefine.m4:77-101 *)
Definition box_cells (b : ibox) : list (Z * Z * Z) :=
  flat_map (fun k => flat_map (fun j => map (fun i => (i, j, k)) (range (lo0 b) (hi0 b))) (range (lo1 b) (hi1 b))) (range (lo2 b) (hi2 b)).
(** a loop over cells that stores one value per cell; [iq] is kept between cells because quatsymmrotate may overwrite it *)
Fixpoint run_cells (cell : Z -> Z -> Z -> Z -> option (Z * list R)) (cells : list (Z * Z * Z)) (iq : Z) (f : field3) : option (Z * field3) :=
  match cells with
  | [] => Some (iq, f)
  | (i, j, k) :: rest =>
      match cell iq i j k with None => None | Some (iq', q) => run_cells cell rest iq' (put f i j k q) end
  end.
Definition result (s : option (Z * field3)) : option field3 := match s with None => None | Some (_, f) => Some f end.

(** ** coarsening *)
(** the (ir0,ir1,ir2) in loop order: 3d/quatcoarsen.m4:75-77 *)
Definition sub_cells3 (r0 r1 r2 : Z) : list (Z * Z * Z) := box_cells (mk_ibox 0 0 0 (r0 - 1) (r1 - 1) (r2 - 1)).
(** 3d/quatcoarsen.m4:75-110, body of the loop over the fine cells of a coarse cell *)
Fixpoint coarsen_loop3 (symm : bool) (fine : field3) (f0 f1 f2 : Z) (dVf : R) (cells : list (Z * Z * Z)) (iq : Z) (acc : list R)
    : option (Z * list R) :=
  match cells with
  | [] => Some (iq, acc)
  | (ir0, ir1, ir2) :: rest =>
      let q := fine (f0 + ir0)%Z (f1 + ir1)%Z (f2 + ir2)%Z in
      if symm then
        if ((ir0 =? 0) && (ir1 =? 0) && (ir2 =? 0))%Z then coarsen_loop3 symm fine f0 f1 f2 dVf rest iq (accum acc q dVf)
        else match quatsymmrotate q iq with
             | None => None
             | Some (iq', q') => coarsen_loop3 symm fine f0 f1 f2 dVf rest iq' (accum acc q' dVf)
             end
      else coarsen_loop3 symm fine f0 f1 f2 dVf rest iq (accum acc q dVf)
  end.
(** 3d/quatcoarsen.m4:60-61, 67-122, one coarse cell *)
Definition coarsen_cell3 (symm : bool) (depth : nat) (r0 r1 r2 : Z) (dxf0 dxf1 dxf2 dxc0 dxc1 dxc2 : R) (fine : field3) (iq ic0 ic1 ic2 : Z)
    : option (Z * list R) :=
  let dVf := dxf0 * dxf1 * dxf2 in
  let dVcinv := 1 / (dxc0 * dxc1 * dxc2) in
  match coarsen_loop3 symm fine (ic0 * r0)%Z (ic1 * r1)%Z (ic2 * r2)%Z dVf (sub_cells3 r0 r1 r2) iq (repeat 0 depth) with
  | None => None
  | Some (iq', acc) => match quatnorm (map (fun x => x * dVcinv) acc) with None => None | Some q => Some (iq', q) end
  end.
(** 3d/quatcoarsen.m4:56-126, called by QuatWeightedAverage::coarsen, QuatWeightedAverage.cc:92-171; iq = 0 from line 56 *)
Definition quatcoarsen3 (symm : bool) (depth : nat) (r0 r1 r2 : Z) (dxf0 dxf1 dxf2 dxc0 dxc1 dxc2 : R) (fine : field3) (b : ibox) (coarse : field3)
    : option field3 :=
  result (run_cells (coarsen_cell3 symm depth r0 r1 r2 dxf0 dxf1 dxf2 dxc0 dxc1 dxc2 fine) (box_cells b) 0 coarse).

(** ** refinement *)
(** a sequence of calls of quatsymmrotate that share iq *)
Fixpoint rotate_all (qs : list (list R)) (iq : Z) : option (Z * list (list R)) :=
  match qs with
  | [] => Some (iq, [])
  | q :: rest =>
      match quatsymmrotate q iq with
      | None => None
      | Some (iq', p) => match rotate_all rest iq' with None => None | Some (iq'', ps) => Some (iq'', p :: ps) end
      end
  end.
(** 3d/quatlinrefine.m4:77-153, one fine cell; position and weight along an axis as in two dimensions (lines 78-89) *)
Definition refine_cell3 (r0 r1 r2 : Z) (dxc0 dxf0 dxc1 dxf1 dxc2 dxf2 : R) (coarse : field3) (iq if0 if1 if2 : Z) : option (Z * list R) :=
  match refine_index r2 if2 dxc2 dxf2, refine_index r1 if1 dxc1 dxf1, refine_index r0 if0 dxc0 dxf0 with
  | Some (ic2, z), Some (ic1, y), Some (ic0, x) =>
      match rotate_all [coarse ic0 ic1 ic2; coarse ic0 (ic1 + 1)%Z ic2; coarse (ic0 + 1)%Z ic1 ic2; coarse (ic0 + 1)%Z (ic1 + 1)%Z ic2;
                        coarse ic0 ic1 (ic2 + 1)%Z; coarse ic0 (ic1 + 1)%Z (ic2 + 1)%Z; coarse (ic0 + 1)%Z ic1 (ic2 + 1)%Z;
                        coarse (ic0 + 1)%Z (ic1 + 1)%Z (ic2 + 1)%Z] iq with
      | Some (iq', [q1; q2; q3; q4; q5; q6; q7; q8]) =>
          match quatnorm (map (fun t => fst t * (1 - z) + snd t * z) (combine (lin_combine q1 q2 q3 q4 x y) (lin_combine q5 q6 q7 q8 x y))) with
          | None => None
          | Some q => Some (iq', q)
          end
      | _ => None
      end
  | _, _, _ => None
  end.
(** Box::growUpper(IntVector(dim, -1)), QuatLinearRefine.cc:104; in two dimensions boxes have one layer, index 0 *)
Definition cut_upper (nd3 : bool) (b : ibox) : ibox :=
  mk_ibox (lo0 b) (lo1 b) (lo2 b) (hi0 b - 1) (hi1 b - 1) (if nd3 then hi2 b - 1 else hi2 b)%Z.
Record sizes := mk_sizes { r0 : Z; r1 : Z; r2 : Z; dxc0 : R; dxf0 : R; dxc1 : R; dxf1 : R; dxc2 : R; dxf2 : R }.
(** refine on one box, QuatLinearRefine.cc:109-174; iq = 0 at the start of each call (3d/quatlinrefine.m4:60, 2d:52) *)
Definition refine_box (nd3 : bool) (s : sizes) (coarse : field3) (b : ibox) (fine : field3) : option field3 :=
  let cell iq i j k :=
    if nd3 then refine_cell3 (r0 s) (r1 s) (r2 s) (dxc0 s) (dxf0 s) (dxc1 s) (dxf1 s) (dxc2 s) (dxf2 s) coarse iq i j k
    else refine_cell (r0 s) (r1 s) (dxc0 s) (dxf0 s) (dxc1 s) (dxf1 s) (fun i j => coarse i j 0%Z) iq i j in
  result (run_cells cell (box_cells b) 0 fine).
(** refine on the boxes of an overlap, QuatLinearRefine.cc:90-107; the boxes are boxes of cells *)
Fixpoint refine (nd3 : bool) (s : sizes) (coarse : field3) (boxes : list ibox) (fine : field3) : option field3 :=
  match boxes with
  | [] => Some fine
  | b :: rest => match refine_box nd3 s coarse (cut_upper nd3 b) fine with None => None | Some f => refine nd3 s coarse rest f end
  end.
