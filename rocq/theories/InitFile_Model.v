(** Files of initial conditions: FieldsWriter (written by WriteInitialConditionsFile, QuatModel.cc:3614-3623) and
    FieldsInitializer (read at start-up, QuatModel.cc:600-640), the branches HAVE_NETCDF4; 2D and 3D, any number of processes and
    patches.  netCDF itself is modelled by its documented effect: a file is a list of named 3D arrays, putVar and getVar move a
    block between such an array and a contiguous buffer and throw if the block leaves the array.  Doubles are exact reals, a store
    into an ncFloat variable or into a buffer of floats rounds to single precision (without overflow).  The fields have no ghost
    cells (QuatModel.cc:1375, 1525, 1574, 1636, 1804).  with_third_phase() is never true (QuatModelParameters.cc:120 is the only
    assignment), so the variable eta does not occur.  None = TBOX_ERROR, exception, failed assertion or undefined behaviour. *)
From Coq Require Import Reals ZArith String List Bool DecimalString DecimalNat.
From Flocq Require Import Core.
Import ListNotations.
Open Scope Z_scope.

Definition bind {A B : Type} (x : option A) (f : A -> option B) : option B := match x with Some a => f a | None => None end.
Fixpoint sequence {A : Type} (l : list (option A)) : option (list A) :=
  match l with nil => Some nil | x :: r => bind x (fun a => bind (sequence r) (fun s => Some (a :: s))) end.
(** std::ostringstream << int for an int >= 0 *)
Definition dec (n : nat) : string := NilEmpty.string_of_uint (Nat.to_uint n).
(** conversion double to float, round to nearest even *)
Definition single (x : R) : R := round radix2 (FLT_exp (-149) 24) ZnearestE x.

(** ** Boxes, fields, patches *)
(** index box; in 2D the third direction has the single index 0 *)
Record zbox := mk_zbox { zl0 : Z; zu0 : Z; zl1 : Z; zu1 : Z; zl2 : Z; zu2 : Z }.
Definition nx (b : zbox) : Z := zu0 b - zl0 b + 1.
Definition ny (b : zbox) : Z := zu1 b - zl1 b + 1.
(** nz = 1 without NDIM == 3 *)
Definition nz (d3 : bool) (b : zbox) : Z := if d3 then zu2 b - zl2 b + 1 else 1.
Definition inbox (b : zbox) (i j k : Z) : bool :=
  (zl0 b <=? i) && (i <=? zu0 b) && (zl1 b <=? j) && (j <=? zu1 b) && (zl2 b <=? k) && (k <=? zu2 b).
(** hier::Box::refine *)
Definition refine_box (d3 : bool) (r : Z * Z * Z) (b : zbox) : zbox :=
  let '(r0, r1, r2) := r in
  mk_zbox (zl0 b * r0) (zu0 b * r0 + r0 - 1) (zl1 b * r1) (zu1 b * r1 + r1 - 1)
          (if d3 then zl2 b * r2 else zl2 b) (if d3 then zu2 b * r2 + r2 - 1 else zu2 b).
Definition cell_data := Z -> Z -> Z -> R.
Inductive field := Phase | Temp | Quat | Conc.
(** field, depth, cell *)
Definition fields := field -> nat -> cell_data.
Definition field_eqb (a b : field) : bool :=
  match a, b with Phase, Phase | Temp, Temp | Quat, Quat | Conc, Conc => true | _, _ => false end.
Definition set_field (F : fields) (f : field) (d : nat) (g : cell_data) : fields :=
  fun f' d' => if field_eqb f f' && Nat.eqb d d' then g else F f' d'.
Record patch := mk_patch { p_box : zbox; p_data : fields }.
(** CellData::getPointer(depth): column-major over the box *)
Definition pointer (b : zbox) (g : cell_data) (n : Z) : R :=
  g (zl0 b + n mod nx b) (zl1 b + (n / nx b) mod ny b) (zl2 b + n / (nx b * ny b)).

(** ** Model parameters *)
(** QuatModelParameters: p_norderp_A = None if norderp_A is not in the input; p_rescale = rescale_factorT if with_rescaled_temperature() *)
Record params := mk_params {
  p_with_phase : bool; p_three_phases : bool; p_norderp : Z; p_norderp_A : option Z; p_orientation : bool; p_qlen : nat;
  p_ncomp : nat; p_T_constant : bool; p_rescale : option R }.
(** QuatModelParameters.cc:818-827 *)
Definition norderpA (m : params) : Z :=
  match p_norderp_A m with Some a => a | None => if p_norderp m =? 1 then 1 else p_norderp m - 1 end.
Definition norderpB (m : params) : Z := if 0 <? norderpA m then Z.max (p_norderp m - norderpA m - 1) 0 else -1.
(** QuatModelParameters.h:82, the depth of the phase variable *)
Definition phase_depth (m : params) : Z := if p_three_phases m then 3 else p_norderp m.
(** QuatModel.cc:616-619 *)
Definition nphases (m : params) : Z := if p_three_phases m then 3 else norderpA m + norderpB m.
(** QuatModel.cc:615: with_orientation() and this test are both H_parameter >= 0 (QuatModelParameters.h:90) *)
Definition quats (m : params) : nat := if p_orientation m then p_qlen m else O.

(** ** netCDF *)
Record ncvar := mk_ncvar { v_double : bool; v_nz : Z; v_ny : Z; v_nx : Z; v_at : Z -> Z -> Z -> R }.
Definition ncfile := list (string * ncvar).
Fixpoint getVar (f : ncfile) (n : string) : option ncvar :=
  match f with nil => None | (m, v) :: r => if String.eqb m n then Some v else getVar r n end.
(** NC_FILL_FLOAT *)
Definition nc_fill : R := 9969209968386869046778552952102584320%R.
Definition addVar (d : Z * Z * Z) (n : string) (f : ncfile) : option ncfile :=
  match getVar f n with
  | Some _ => None
  | None => let '(z, y, x) := d in Some (f ++ [(n, mk_ncvar false z y x (fun _ _ _ => nc_fill))])
  end.
Definition block_ok (v : ncvar) (s0 s1 s2 c0 c1 c2 : Z) : bool :=
  (0 <=? s0) && (s0 + c0 <=? v_nz v) && (0 <=? s1) && (s1 + c1 <=? v_ny v) && (0 <=? s2) && (s2 + c2 <=? v_nx v).
(** NcVar::putVar(startp, countp, const double* ) *)
Definition putVar (s0 s1 s2 c0 c1 c2 : Z) (p : Z -> R) (v : ncvar) : option ncvar :=
  if block_ok v s0 s1 s2 c0 c1 c2 then
    Some (mk_ncvar (v_double v) (v_nz v) (v_ny v) (v_nx v) (fun z y x =>
      if (s0 <=? z) && (z <? s0 + c0) && (s1 <=? y) && (y <? s1 + c1) && (s2 <=? x) && (x <? s2 + c2)
      then let a := p (((z - s0) * c1 + (y - s1)) * c2 + (x - s2)) in if v_double v then a else single a
      else v_at v z y x))
  else None.
(** NcVar::getVar(startp, countp, T* ), T = float or double *)
Definition getBlock (to_double : bool) (s0 s1 s2 c0 c1 c2 : Z) (v : ncvar) : option (Z -> R) :=
  if block_ok v s0 s1 s2 c0 c1 c2 then
    Some (fun n => let a := v_at v (s0 + n / (c2 * c1)) (s1 + (n / c2) mod c1) (s2 + n mod c2) in if to_double then a else single a)
  else None.
Fixpoint updVar (f : ncfile) (n : string) (u : ncvar -> option ncvar) : option ncfile :=
  match f with
  | nil => None
  | (m, v) :: r => if String.eqb m n then bind (u v) (fun w => Some ((m, w) :: r)) else bind (updVar r n u) (fun s => Some ((m, v) :: s))
  end.

(** ** Writing *)
Definition quat_name (d : nat) : string := String.append "quat" (dec (S d)).
(** FieldsWriter.cc:189-192: the number is appended for more than one composition *)
Definition conc_name (ncomp d : nat) : string := if Nat.ltb 1 ncomp then String.append "concentration" (dec d) else "concentration"%string.
Definition phase_vars (m : params) : list (string * (field * nat)) :=
  if p_three_phases m then [("phase0", (Phase, 0%nat)); ("phase1", (Phase, 1%nat)); ("phase2", (Phase, 2%nat))]%string
  else [("phase", (Phase, 0%nat))]%string.
Definition quat_vars (m : params) : list (string * (field * nat)) := map (fun d => (quat_name d, (Quat, d))) (seq 0 (quats m)).
Definition conc_vars (m : params) : list (string * (field * nat)) := map (fun d => (conc_name (p_ncomp m) d, (Conc, d))) (seq 0 (p_ncomp m)).
Definition temp_vars : list (string * (field * nat)) := [("temperature", (Temp, 0%nat))]%string.
(** FieldsWriter.cc:161-198: the variables added by the first process, in this order *)
Definition added_vars (m : params) : list (string * (field * nat)) := phase_vars m ++ quat_vars m ++ conc_vars m ++ temp_vars.
(** FieldsWriter.cc:361-468: the variables written for a patch, in this order *)
Definition put_vars (m : params) : list (string * (field * nat)) := phase_vars m ++ temp_vars ++ quat_vars m ++ conc_vars m.
Fixpoint add_all (d : Z * Z * Z) (l : list (string * (field * nat))) (f : ncfile) : option ncfile :=
  match l with nil => Some f | (n, _) :: r => bind (addVar d n f) (add_all d r) end.
Definition put_one (d3 : bool) (p : patch) (e : string * (field * nat)) (f : ncfile) : option ncfile :=
  let b := p_box p in
  let '(n, (fld, d)) := e in
  updVar f n (putVar (if d3 then zl2 b else 0) (zl1 b) (zl0 b) (nz d3 b) (ny b) (nx b) (pointer b (p_data p fld d))).
Fixpoint put_all (d3 : bool) (p : patch) (l : list (string * (field * nat))) (f : ncfile) : option ncfile :=
  match l with nil => Some f | e :: r => bind (put_one d3 p e f) (put_all d3 p r) end.
(** lines 361-468, one patch; without phase getPatchData(-1) fails *)
Definition write_patch (m : params) (d3 : bool) (p : patch) (f : ncfile) : option ncfile :=
  if p_with_phase m then put_all d3 p (put_vars m) f else None.
Fixpoint write_patches (m : params) (d3 : bool) (l : list patch) (f : ncfile) : option ncfile :=
  match l with nil => Some f | p :: r => bind (write_patch m d3 p f) (write_patches m d3 r) end.
(** lines 322-358: every variable has to be there *)
Definition all_vars (m : params) (f : ncfile) : bool :=
  forallb (fun e => match getVar f (fst e) with Some _ => true | None => false end) (put_vars m).
(** lines 84-471: the processes in turn, the first one replaces the file, the others open it *)
Fixpoint write_others (m : params) (d3 : bool) (ranks : list (list patch)) (f : ncfile) : option ncfile :=
  match ranks with
  | nil => Some f
  | l :: r => if all_vars m f then bind (write_patches m d3 l f) (write_others m d3 r) else None
  end.
(** lines 54-471: ranks = the local patches of the flattened level, domain = the physical domain, ratio = ratio of that level to level zero *)
Definition writeInitialConditionsFile (m : params) (d3 : bool) (domain : zbox) (ratio : Z * Z * Z) (ranks : list (list patch)) : option ncfile :=
  let bf := refine_box d3 ratio domain in
  bind (add_all (nz d3 bf, ny bf, nx bf) (added_vars m) nil) (write_others m d3 ranks).
(** FieldsWriter.cc:495-522: the boxes of the flattened level are the boxes of level zero, refined *)
Definition flattened_boxes (d3 : bool) (ratio : Z * Z * Z) (l : list (list zbox)) : list (list zbox) := map (map (refine_box d3 ratio)) l.

(** ** Reading *)
(** the database InitialConditions, PFModel.cc:342-406: init_q, init_c empty and init_t = -1 if absent, slice_index default -1 *)
Record init_input := mk_init { in_q : list R; in_c : list R; in_t : R; in_slice : Z }.
(** FieldsInitializer.h readQ, readC, readT; QuatModel.cc:624-626 *)
Definition readQ (m : params) (u : init_input) : bool := Nat.ltb 0 (quats m) && match in_q u with nil => true | _ => false end.
Definition readC (m : params) (u : init_input) : bool := Nat.ltb 0 (p_ncomp m) && match in_c u with nil => true | _ => false end.
Definition readT (u : init_input) : bool := if Rle_dec 0 (in_t u) then false else true.
(** FieldsInitializer.cc:150-165, netCDF 4 *)
Definition phase_var (f : ncfile) (i : nat) : option ncvar :=
  match getVar f "phase" with Some v => Some v | None => getVar f (String.append "phase" (dec i)) end.
Definition read_phases (m : params) (f : ncfile) : option (list ncvar) :=
  if p_with_phase m then sequence (map (phase_var f) (seq 0 (Z.to_nat (nphases m)))) else Some nil.
(** lines 174-181 *)
Definition read_temp (m : params) (u : init_input) (f : ncfile) : option (option ncvar) :=
  if readT u && p_T_constant m then bind (getVar f "temperature") (fun v => Some (Some v)) else Some None.
(** lines 182-190 *)
Fixpoint count_quats (f : ncfile) (ii : nat) (left : nat) : nat :=
  match left with
  | O => O
  | S n => match getVar f (quat_name ii) with None => O | Some _ => S (count_quats f (S ii) n) end
  end.
(** lines 192-226: sizes (nz, ny, nx) of the file *)
Definition file_dims (m : params) (u : init_input) (prob : Z * Z * Z) (ph : list ncvar) (t : option ncvar) : option (Z * Z * Z) :=
  if p_with_phase m then match ph with v :: _ => Some (v_nz v, v_ny v, v_nx v) | nil => None end
  else if readT u then match t with Some v => Some (v_nz v, v_ny v, v_nx v) | None => None end
  else Some prob.
(** lines 228-237 *)
Definition islice (d3 : bool) (u : init_input) (nz_file : Z) : Z := if d3 then 0 else if in_slice u <? 0 then nz_file / 2 else 0.
(** lines 666-708 *)
Definition dims_ok (m : params) (u : init_input) (prob file : Z * Z * Z) (qlen_file : nat) : bool :=
  let '(z, y, x) := prob in
  let '(z', y', x') := file in
  (x' =? x) && (y' =? y) && (z' =? z) && (if readQ m u then Nat.eqb qlen_file (quats m) else true).
(** lines 258-272 *)
Definition read_quats (m : params) (u : init_input) (f : ncfile) : option (list ncvar) :=
  if readQ m u then sequence (map (fun d => getVar f (quat_name d)) (seq 0 (quats m))) else Some nil.
(** lines 297-317 *)
Definition conc_var (m : params) (f : ncfile) (d : nat) : option ncvar :=
  match getVar f (conc_name (p_ncomp m) d) with
  | Some v => Some v
  | None => if Nat.eqb (p_ncomp m) 1 then getVar f "concentration0" else None
  end.
Definition read_concs (m : params) (u : init_input) (f : ncfile) : option (list ncvar) :=
  if readC m u then sequence (map (conc_var m f) (seq 0 (p_ncomp m))) else Some nil.
(** lines 325-337: type of the buffer, float (false) unless the phase (temperature) has type double *)
Definition buffer_type (m : params) (u : init_input) (ph : list ncvar) (t : option ncvar) : bool :=
  if p_with_phase m then match ph with v :: _ => v_double v | nil => false end
  else if readT u then match t with Some v => v_double v | None => false end else false.
(** loops over the cells of the box *)
Definition fill_cells (b : zbox) (g : cell_data) (old : cell_data) : cell_data := fun i j k => if inbox b i j k then g i j k else old i j k.
(** lines 368-446: one variable into one depth of one field *)
Definition read_var (dbl d3 : bool) (isl : Z) (b : zbox) (v : ncvar) : option cell_data :=
  bind (getBlock dbl (if d3 then zl2 b else isl) (zl1 b) (zl0 b) (nz d3 b) (ny b) (nx b) v) (fun vals =>
  Some (fun i j k => vals (if d3 then nx b * ny b * (k - zl2 b) + nx b * (j - zl1 b) + (i - zl0 b) else nx b * (j - zl1 b) + (i - zl0 b)))).
Fixpoint read_depths (dbl d3 : bool) (isl : Z) (b : zbox) (fld : field) (d : nat) (l : list ncvar) (F : fields) : option fields :=
  match l with
  | nil => Some F
  | v :: r => bind (read_var dbl d3 isl b v) (fun g => read_depths dbl d3 isl b fld (S d) r (set_field F fld d (fill_cells b g (F fld d))))
  end.
Fixpoint set_depths (b : zbox) (fld : field) (d : nat) (l : list R) (F : fields) : fields :=
  match l with nil => F | a :: r => set_depths b fld (S d) r (set_field F fld d (fill_cells b (fun _ _ _ => a) (F fld d))) end.
Fixpoint sum_depths (F : fields) (n : nat) (i j k : Z) : R :=
  match n with O => 0%R | S n => (sum_depths F n i j k + F Phase n i j k)%R end.
(** lines 448-464 *)
Definition set_last (m : params) (b : zbox) (F : fields) : fields :=
  let n := Z.to_nat (nphases m) in
  if nphases m <? phase_depth m then set_field F Phase n (fill_cells b (fun i j k => 1 - sum_depths F n i j k)%R (F Phase n)) else F.
(** lines 400-464; reading beyond the depth of the data is an error *)
Definition init_phase (m : params) (dbl d3 : bool) (isl : Z) (b : zbox) (ph : list ncvar) (F : fields) : option fields :=
  if p_with_phase m then
    if phase_depth m <? nphases m then None
    else bind (read_depths dbl d3 isl b Phase 0 ph F) (fun F => Some (set_last m b F))
  else Some F.
(** lines 500-548 *)
Definition init_temp (m : params) (u : init_input) (dbl d3 : bool) (isl : Z) (b : zbox) (t : option ncvar) (F : fields) : option fields :=
  if readT u then match t with Some v => read_depths dbl d3 isl b Temp 0 [v] F | None => Some F end
  else if p_T_constant m then Some (set_field F Temp 0 (fill_cells b (fun _ _ _ => in_t u) (F Temp 0%nat))) else Some F.
(** lines 550-602 *)
Definition init_quat (m : params) (u : init_input) (dbl d3 : bool) (isl : Z) (b : zbox) (q : list ncvar) (F : fields) : option fields :=
  match quats m with
  | O => Some F
  | S _ => if readQ m u then read_depths dbl d3 isl b Quat 0 q F
           else if Nat.eqb (List.length (in_q u)) (quats m) then Some (set_depths b Quat 0 (in_q u) F) else None
  end.
Definition zrange (lo n : Z) : list Z := map (fun i => lo + Z.of_nat i) (seq 0 (Z.to_nat n)).
(** lines 633-640: the assertions on the values read *)
Definition conc_ok (b : zbox) (g : cell_data) : bool :=
  forallb (fun k => forallb (fun j => forallb (fun i => (if Rle_dec (g i j k) 1 then true else false) && (if Rle_dec 0 (g i j k) then true else false))
    (zrange (zl0 b) (nx b))) (zrange (zl1 b) (ny b))) (zrange (zl2 b) (zu2 b - zl2 b + 1)).
(** lines 604-662; [asserts] = assertions compiled in *)
Definition init_conc (asserts : bool) (m : params) (u : init_input) (dbl d3 : bool) (isl : Z) (b : zbox) (c : list ncvar) (F : fields) : option fields :=
  match p_ncomp m with
  | O => Some F
  | S _ => if readC m u then
             bind (read_depths dbl d3 isl b Conc 0 c F) (fun F =>
             if asserts && negb (forallb (fun d => conc_ok b (F Conc d)) (seq 0 (p_ncomp m))) then None else Some F)
           else if Nat.eqb (List.length (in_c u)) (p_ncomp m) then Some (set_depths b Conc 0 (in_c u) F) else None
  end.
(** lines 357-665 *)
Definition init_patch (asserts : bool) (m : params) (u : init_input) (dbl d3 : bool) (isl : Z) (ph : list ncvar) (t : option ncvar)
    (q c : list ncvar) (p : patch) : option patch :=
  let b := p_box p in
  bind (init_phase m dbl d3 isl b ph (p_data p)) (fun F =>
  bind (init_temp m u dbl d3 isl b t F) (fun F =>
  bind (init_quat m u dbl d3 isl b q F) (fun F =>
  bind (init_conc asserts m u dbl d3 isl b c F) (fun F => Some (mk_patch b F))))).
(** lines 77-355; patches = the patches of the initial level *)
Definition initializeLevelFromData (asserts : bool) (m : params) (u : init_input) (d3 : bool) (domain : zbox) (ratio : Z * Z * Z)
    (f : ncfile) (patches : list patch) : option (list patch) :=
  let bf := refine_box d3 ratio domain in
  let prob := (nz d3 bf, ny bf, nx bf) in
  bind (read_phases m f) (fun ph =>
  bind (read_temp m u f) (fun t =>
  bind (file_dims m u prob ph t) (fun dims =>
  if dims_ok m u prob dims (count_quats f 0 (quats m)) then
    bind (read_quats m u f) (fun q =>
    bind (read_concs m u f) (fun c =>
    sequence (map (init_patch asserts m u (buffer_type m u ph t) d3 (islice d3 u (fst (fst dims))) ph t q c) patches)))
  else None))).
(** QuatModel.cc:630-640: the temperature in reduced units *)
Definition rescale_patch (factor : R) (p : patch) : patch :=
  mk_patch (p_box p) (set_field (p_data p) Temp 0 (fill_cells (p_box p) (fun i j k => 1 / factor * p_data p Temp 0%nat i j k)%R (p_data p Temp 0%nat))).
Definition initialize (asserts : bool) (m : params) (u : init_input) (d3 : bool) (domain : zbox) (ratio : Z * Z * Z)
    (f : ncfile) (patches : list patch) : option (list patch) :=
  bind (initializeLevelFromData asserts m u d3 domain ratio f patches) (fun l =>
  Some match p_rescale m with Some t => map (rescale_patch t) l | None => l end).
