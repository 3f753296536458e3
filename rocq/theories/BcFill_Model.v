(** Ghost cells outside the physical boundary: CartesianRobinBcHelperWithDepth (2D) and the rescaling of the temperature
    conditions in QuatRefinePatchStrategy.  Cell data carry the depth as last index (from 0); total functions of the index, exact
    reals (x/0 = 0 in Coq).  SAMRAI supplies the list of boundary boxes and the kernels settype1cells2d and settype2cells2d,
    whose effect is assumed as stated in CartesianRobinBcHelperWithDepth.cc:163-172 and 466-470. *)
From Coq Require Import Reals ZArith List Bool.
From Verif Require Import Grid_Model PhaseFlow_Model.
Import ListNotations.
Open Scope R_scope.

(** boundary box: location index, lower and upper cell *)
Record bbox := mk_bbox { loc : Z; bl0 : Z; bu0 : Z; bl1 : Z; bu1 : Z }.
(** coefficient strategy: a, b, g of every location on its faces (CartesianRobinBcHelperWithDepth.cc:219-222 setBcCoefs), and the
    number of extensions it can fill (lines 205-206) *)
Record bcoefs := mk_bcoefs { acf : Z -> arr2; bcf : Z -> arr2; gcf : Z -> arr2; extensions : Z }.
(** index box *)
Record ibox := mk_ibox { il0 : Z; iu0 : Z; il1 : Z; iu1 : Z }.
Definition patch_ibox (b : pbox) : ibox := mk_ibox (lo0 b) (hi0 b) (lo1 b) (hi1 b).
Definition grow_ibox (g0 g1 : Z) (x : ibox) : ibox := mk_ibox (il0 x - g0) (iu0 x + g0) (il1 x - g1) (iu1 x + g1).

(** SAMRAI settype1cells2d, CartesianRobinBcHelperWithDepth.cc:163-172: value of the first ghost cell from a u + b u_n = g at
    the face and the value ui of the first interior cell *)
Definition ghost_value (a b g h ui : R) : R := (g * h + (b - a * (h / 2)) * ui) / (b + a * (h / 2)).
Definition settype1cells2d (data : arr2) (a b g : arr2) (ibeg iend jbeg jend face ghos inte location : Z) (h : R) (zerog : bool) : arr2 :=
  if (location / 2 =? 0)%Z
  then do_loop jbeg jend (fun j (u : arr2) => upd2 u ghos j (ghost_value (a face j) (b face j) (if zerog then 0 else g face j) h (u inte j))) data
  else do_loop ibeg iend (fun i (u : arr2) => upd2 u i ghos (ghost_value (a i face) (b i face) (if zerog then 0 else g i face) h (u i inte))) data.
(** SAMRAI settype2cells2d, CartesianRobinBcHelperWithDepth.cc:466-470: linear interpolation through the nearest interior cell and
    the two nearest edge values *)
Definition settype2cells2d (data : arr2) (lower0 lower1 upper0 upper1 location : Z) : arr2 :=
  let corner x y dx dy := upd2 data x y (data (x + dx)%Z y + data x (y + dy)%Z - data (x + dx)%Z (y + dy)%Z) in
  if (location =? 0)%Z then corner lower0 lower1 1%Z 1%Z
  else if (location =? 1)%Z then corner upper0 lower1 (-1)%Z 1%Z
  else if (location =? 2)%Z then corner lower0 upper1 1%Z (-1)%Z
  else corner upper0 upper1 (-1)%Z (-1)%Z.

(** trimBoundaryBox, CartesianRobinBcHelperWithDepth.cc:664-723, codimension 1 *)
Definition trim (s : bbox) (limit : ibox) : bbox :=
  if (loc s / 2 =? 0)%Z then mk_bbox (loc s) (bl0 s) (bu0 s) (Z.max (bl1 s) (il1 limit)) (Z.min (bu1 s) (iu1 limit))
  else mk_bbox (loc s) (Z.max (bl0 s) (il0 limit)) (Z.min (bu0 s) (iu0 limit)) (bl1 s) (bu1 s).
(** CartesianRobinBcHelperWithDepth.cc:202-207 *)
Definition trimmed (b : pbox) (ng0 ng1 : Z) (co : bcoefs) (s : bbox) : bbox :=
  if (1 <=? extensions co)%Z then trim s (grow_ibox ng0 ng1 (patch_ibox b)) else trim s (patch_ibox b).
(** one depth of data *)
Definition plane (u : arr3) (d : Z) : arr2 := fun i j => u i j d.
Definition set_plane (u : arr3) (d : Z) (f : arr2) : arr3 := fun i j e => if (e =? d)%Z then f i j else u i j e.
(** CartesianRobinBcHelperWithDepth.cc:232-310, one codimension 1 box: igho, ifac, iint of the four locations, every depth *)
Definition fill_side (b : pbox) (ng0 ng1 : Z) (co : bcoefs) (zerog : bool) (depth : Z) (s : bbox) (u : arr3) : option arr3 :=
  let t := trimmed b ng0 ng1 co s in
  let l := loc s in
  let each f := Some (do_loop 0 (depth - 1) (fun d (u : arr3) => set_plane u d (f (plane u d))) u) in
  let call ibeg iend jbeg jend face ghos inte h data :=
    settype1cells2d data (acf co l) (bcf co l) (gcf co l) ibeg iend jbeg jend face ghos inte l h zerog in
  if (l =? 0)%Z then let g := bl0 t in each (call g g (bl1 t) (bu1 t) (g + 1)%Z g (g + 1)%Z (h1 b))
  else if (l =? 1)%Z then let g := bl0 t in each (call g g (bl1 t) (bu1 t) g g (g - 1)%Z (h1 b))
  else if (l =? 2)%Z then let g := bl1 t in each (call (bl0 t) (bu0 t) g g (g + 1)%Z g (g + 1)%Z (h2 b))
  else if (l =? 3)%Z then let g := bl1 t in each (call (bl0 t) (bu0 t) g g g g (g - 1)%Z (h2 b))
  else None.
(** lines 194-457: the boxes in turn, those without ghost cells to fill are skipped *)
Fixpoint fill_sides (b : pbox) (ng0 ng1 gcw0 gcw1 : Z) (co : bcoefs) (zerog : bool) (depth : Z) (l : list bbox) (u : arr3) : option arr3 :=
  match l with
  | [] => Some u
  | s :: rest =>
      if ((if (loc s / 2 =? 0)%Z then gcw0 else gcw1) =? 0)%Z then fill_sides b ng0 ng1 gcw0 gcw1 co zerog depth rest u
      else match fill_side b ng0 ng1 co zerog depth s u with
           | Some u' => fill_sides b ng0 ng1 gcw0 gcw1 co zerog depth rest u'
           | None => None
           end
  end.
(** lines 473-488: the corners, for every depth all boxes *)
Definition fill_nodes (depth : Z) (l : list bbox) (u : arr3) : arr3 :=
  do_loop 0 (depth - 1) (fun d u => set_plane u d
    (fold_left (fun f n => settype2cells2d f (bl0 n) (bl1 n) (bu0 n) (bu1 n) (loc n)) l (plane u d))) u.
(** setBoundaryValuesInCells, CartesianRobinBcHelperWithDepth.cc:103-549: ng = ghost width of the data, req = width to fill *)
Definition setBoundaryValuesInCells (b : pbox) (ng0 ng1 req0 req1 : Z) (co : bcoefs) (homogeneous : bool) (depth : Z)
    (sides nodes : list bbox) (u : arr3) : option arr3 :=
  let gcw0 := Z.min ng0 req0 in
  let gcw1 := Z.min ng1 req1 in
  if ((gcw0 =? 0) && (gcw1 =? 0))%Z then Some u
  else match fill_sides b ng0 ng1 gcw0 gcw1 co homogeneous depth sides u with
       | Some u' => Some (fill_nodes depth nodes u')
       | None => None
       end.

(** LocationIndexRobinBcCoefs (SAMRAI): one triple per location; any number of extensions *)
Definition location_coefs (a b g : Z -> R) (n : Z) : bcoefs := mk_bcoefs (fun l _ _ => a l) (fun l _ _ => b l) (fun l _ _ => g l) n.
(** QuatRefinePatchStrategy.cc:122-141: the temperature conditions in rescaled units; 2 NDIM = 4 locations *)
Definition rescaled_g (coeff : R) (g : Z -> R) : Z -> R :=
  if Rlt_dec 0 coeff then do_loop 0 3 (fun n f => fun m => if (m =? n)%Z then f n * coeff else f m) g else g.
