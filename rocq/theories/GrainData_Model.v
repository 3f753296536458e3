(** Volumes and concentrations of grains, and the extension of the orientation of the grains into the rest of the domain
    (Grains.cc:642-1087).  Cells, levels and the filling of ghost cells as in Grains_Model; double is R, int is Z.
    All processes are modelled at once.  An orientation is copied as a whole, so it is a value of any type. *)
From Coq Require Import Reals ZArith List Bool.
From Verif Require Import Weights_Model Grains_Model Tools_Model.
Import ListNotations.
Open Scope Z_scope.

(** * Volumes and concentrations *)
(** what one process holds: for each of its patches, coarsest level first, the level and the box *)
Definition process := list (nat * box).
Definition data := nat -> cell -> R.
Definition posb (x : R) : bool := if Rlt_dec 0 x then true else false.
(** the loops over levels, patches and cells of Grains.cc:658-689, 761-799, 830-864; what is added for a cell is [val] *)
Definition visit (num : fields) (wgt : data) (val : nat -> cell -> R) (ln : nat) (m : imap) (c : cell) : imap :=
  if (0 <=? num ln c) && posb (wgt ln c) then add_to m (num ln c) (val ln c) else m.
Definition local_map (num : fields) (wgt : data) (val : nat -> cell -> R) (p : process) : imap :=
  fold_left (fun m lb => fold_left (visit num wgt val (fst lb)) (cells (snd lb)) m) p [].
(** the local maps of all processes reduced, Grains.cc:691-692, 801-804, 866-867 *)
Definition global_map (num : fields) (wgt : data) (val : nat -> cell -> R) (ps : list process) : option imap :=
  listLocalToGlobal (map (local_map num wgt val) ps) [].
(** std::map::operator[] on a missing key gives 0 *)
Fixpoint lookup (m : imap) (k : Z) : R := match m with [] => 0%R | (k', v) :: m => if k' =? k then v else lookup m k end.
(** computeGrainVolumes, Grains.cc:647-735: the volumes printed, and d_grain_volume_id where it is written *)
Definition owned (ps : list process) (ln : nat) (c : cell) : bool :=
  existsb (existsb (fun lb => Nat.eqb (fst lb) ln && cell_in (snd lb) c)) ps.
Definition computeGrainVolumes (ps : list process) (num : fields) (wgt old : data) : option (imap * data) :=
  match global_map num wgt wgt ps with
  | None => None
  | Some v => Some (v, fun ln c => if owned ps ln c then if 0 <=? num ln c then lookup v (num ln c) else 0%R else old ln c)
  end.
(** computeGrainConcentrations, Grains.cc:742-875: averages, average over all grains (if there are any), deviations *)
Definition averages (c w : imap) : imap := map (fun kv => (fst kv, (lookup c (fst kv) / lookup w (fst kv))%R)) c.
Definition all_average (c w : imap) : option R :=
  match c with
  | [] => None
  | _ => let r := fold_left (fun a kv => (fst a + lookup c (fst kv), snd a + lookup w (fst kv))%R) c (0, 0)%R in Some (fst r / snd r)%R
  end.
Definition computeGrainConcentrations (ps : list process) (num : fields) (wgt conc : data) : option (imap * option R * imap) :=
  match global_map num wgt (fun ln c => conc ln c * wgt ln c)%R ps, global_map num wgt wgt ps with
  | Some gc, Some gw =>
      let avg := averages gc gw in
      let cdev ln c := let cdiff := (conc ln c - lookup avg (num ln c))%R in (wgt ln c * (cdiff * cdiff))%R in
      match global_map num wgt cdev ps with
      | Some gd => Some (avg, all_average gc gw, map (fun kv => (fst kv, (lookup gd (fst kv) / lookup gw (fst kv))%R)) gd)
      | None => None
      end
  | _, _ => None
  end.

(** * Extension of orientations *)
Section Extension.
Context {A : Type}.
(** number of processes and owner of a patch *)
Variable nprocs : nat.
Variable rank : nat -> box -> nat.
(** what the quaternion coarsening operator makes of the fine values in a coarse cell *)
Variable quat_average : ratio3 -> (cell -> A) -> cell -> A.
(** contents of the ghost cells of the two scratch variables outside the domain: allocated at Grains.cc:902-910, never
    filled (no physical boundary strategy, Grains.cc:1134-1141) *)
Variable junk_flag : nat -> cell -> Z.
Variable junk_quat : nat -> cell -> A.

Definition quats := nat -> cell -> A.
Definition set_quats (q : quats) (ln : nat) (f : cell -> A) : quats := fun m => if Nat.eqb m ln then f else q m.
(** d_grain_quat_coarsen_sched[ln]->coarsenData(): level ln+1 into ln *)
Definition coarsen_quats (h : ghier) (ln : nat) (q : quats) : quats :=
  let l := lev h (S ln) in
  set_quats q ln (fun c => if existsb (fun f => cell_in (box_coarsen (gratio l) f) c) (gpatches l)
                           then quat_average (gratio l) (q (S ln)) c else q ln c).
(** max_iteration_count, Grains.cc:919-933 *)
Definition extend_iterations (h : ghier) : Z :=
  fold_left (fun m l => fold_left (fun m dd => let w := width dd (gdom l) in if m <? w then w else m) (seq 0 (ndim h)) m) (glevels h) 0.
(** tagging of the grain cells, Grains.cc:937-970; level by level, each coarsened into the one below when it is tagged *)
Definition tag_level (h : ghier) (g : fields) (ln : nat) : fields :=
  let g := set_level g ln (fun c => if in_patches (lev h ln) c && solid (lev h ln) c then 1 else 0) in
  match ln with O => g | S m => coarsen_data h m g end.
Definition tag_grains (h : ghier) : fields := fold_left (tag_level h) (seq 0 (length (glevels h))) (fun _ _ => 0).
(** fillData of the scratch variables, Grains.cc:982-986: own level, else CONSTANT_REFINE from the coarser one *)
Definition fill_scr {B} (h : ghier) (junk : nat -> cell -> B) (g : nat -> cell -> B) (ln : nat) : cell -> B := fun c =>
  let l := lev h ln in
  let c' := image h l c in
  if cell_in (gdom l) c' then
    if in_patches l c' then g ln c' else match ln with O => junk ln c | S m => g m (coarse_cell (gratio l) c') end
  else junk ln c.
(** the loop over directions for one untagged cell, Grains.cc:1020-1043 *)
Fixpoint tagged_neighbour (fs : cell -> Z) (qs : cell -> A) (c : cell) (dirs : list nat) : option A :=
  match dirs with
  | [] => None
  | dd :: dirs => if fs (shift dd 1 c) =? 1 then Some (qs (shift dd 1 c))
                  else if fs (shift dd (-1) c) =? 1 then Some (qs (shift dd (-1) c))
                  else tagged_neighbour fs qs c dirs
  end.
Definition put {B} (g : cell -> B) (c : cell) (v : B) : cell -> B := fun a => if cell_eqb a c then v else g a.
(** one cell, Grains.cc:1010-1048; the state is flag, quat and one_still_unset of the patch *)
Definition extend_cell (nd : nat) (fs : cell -> Z) (qs : cell -> A) (s : (cell -> Z) * (cell -> A) * bool) (c : cell) :=
  let '(flag, quat, unset) := s in
  if fs c =? 0 then
    match tagged_neighbour fs qs c (seq 0 nd) with
    | Some v => (put flag c 1, put quat c v, unset)
    | None => (flag, quat, true)
    end
  else s.
(** one patch, Grains.cc:988-1049: one_still_unset of its process starts anew *)
Definition estate := (fields * quats * (nat -> bool))%type.
Definition extend_patch (nd : nat) (ln : nat) (fs : cell -> Z) (qs : cell -> A) (s : (cell -> Z) * (cell -> A) * (nat -> bool)) (b : box) :=
  let '(flag, quat, unset) := s in
  let '(flag, quat, u) := fold_left (extend_cell nd fs qs) (cells b) (flag, quat, false) in
  (flag, quat, fun p => if Nat.eqb p (rank ln b) then u else unset p).
(** one level, Grains.cc:978-1056 *)
Definition extend_level (h : ghier) (s : estate) (ln : nat) : estate :=
  let '(g, q, unset) := s in
  let l := lev h ln in
  let '(flag, quat, unset) := fold_left (extend_patch (ndim h) ln (fill_scr h junk_flag g ln) (fill_scr h junk_quat q ln)) (gpatches l) (g ln, q ln, unset) in
  let g := set_level g ln flag in
  let q := set_quats q ln quat in
  match ln with O => (g, q, unset) | S m => (coarsen_data h m g, coarsen_quats h m q, unset) end.
(** one iteration; one_still_unset starts at 1 on every process; MPI_MAX, Grains.cc:976, 1058-1060 *)
Definition extend_sweep (h : ghier) (g : fields) (q : quats) : estate :=
  fold_left (extend_level h) (seq 0 (length (glevels h))) (g, q, fun _ => true).
(** the loop, Grains.cc:975-1061: tags, orientations, nn, whether left by the break *)
Fixpoint extend_loop (h : ghier) (fuel : nat) (nn : Z) (g : fields) (q : quats) : fields * quats * Z * bool :=
  match fuel with
  | O => (g, q, nn, false)
  | S fuel => let '(g', q', unset) := extend_sweep h g q in
              if existsb unset (seq 0 nprocs) then extend_loop h fuel (nn + 1) g' q' else (g', q', nn, true)
  end.
(** extendGrainOrientation, Grains.cc:881-1087: the orientations, and the iterations reported ("converged in nn iterations") or None (warning) *)
Definition extendGrainOrientation (h : ghier) (q : quats) : quats * option Z :=
  let '(_, q', nn, conv) := extend_loop h (Z.to_nat (extend_iterations h)) 0 (tag_grains h) q in
  (fold_left (fun q ln => coarsen_quats h ln q) (rev (seq 0 (length (glevels h) - 1))) q', if conv then Some nn else None).
End Extension.
