(** Physical boundary of a patch: its ghost cells, the conditions they have to meet. *)
From Coq Require Import Reals ZArith List.
From Verif Require Import Grid_Model Grid_Spec PhaseFlow_Model PhaseFlow_Spec BcFill_Model.
Open Scope R_scope.

(** location 0 left, 1 right, 2 bottom, 3 top; t is the index along the side *)
Definition along (l x y : Z) : Z := if (l / 2 =? 0)%Z then y else x.
Definition outer (b : pbox) (l : Z) : Z :=
  if (l =? 0)%Z then (lo0 b - 1)%Z else if (l =? 1)%Z then (hi0 b + 1)%Z else if (l =? 2)%Z then (lo1 b - 1)%Z else (hi1 b + 1)%Z.
Definition inner (b : pbox) (l : Z) : Z :=
  if (l =? 0)%Z then lo0 b else if (l =? 1)%Z then hi0 b else if (l =? 2)%Z then lo1 b else hi1 b.
(** index of the face between the two *)
Definition side_face (b : pbox) (l : Z) : Z := Z.max (outer b l) (inner b l).
Definition at_cell (l n t : Z) (f : arr2) : R := if (l / 2 =? 0)%Z then f n t else f t n.
Definition spacing (b : pbox) (l : Z) : R := if (l / 2 =? 0)%Z then h1 b else h2 b.
(** index along the side belongs to the patch *)
Definition along_patch (b : pbox) (l t : Z) : Prop :=
  if (l / 2 =? 0)%Z then (lo1 b <= t <= hi1 b)%Z else (lo0 b <= t <= hi0 b)%Z.
Definition is_loc (l : Z) : Prop := l = 0%Z \/ l = 1%Z \/ l = 2%Z \/ l = 3%Z.
Definition nonempty_box (b : pbox) : Prop := (lo0 b <= hi0 b)%Z /\ (lo1 b <= hi1 b)%Z.

(** boundary boxes of a patch are one cell thick and lie just outside it *)
Definition sides_ok (b : pbox) (sides : list bbox) : Prop :=
  forall s, In s sides -> is_loc (loc s) /\
    (if (loc s / 2 =? 0)%Z then bl0 s = outer b (loc s) /\ bu0 s = outer b (loc s) else bl1 s = outer b (loc s) /\ bu1 s = outer b (loc s)).
(** the cell with index t along side l is in one of the boxes *)
Definition covers (sides : list bbox) (l t : Z) : Prop :=
  exists s, In s sides /\ loc s = l /\ if (l / 2 =? 0)%Z then (bl1 s <= t <= bu1 s)%Z else (bl0 s <= t <= bu0 s)%Z.
(** corner k: 0 bottom left, 1 bottom right, 2 top left, 3 top right; outer (o) and inner (i) coordinates *)
Definition corner_x (b : pbox) (k : Z) : Z := outer b (if Z.even k then 0 else 1)%Z.
Definition corner_y (b : pbox) (k : Z) : Z := outer b (if (k <? 2)%Z then 2 else 3)%Z.
Definition inner_x (b : pbox) (k : Z) : Z := inner b (if Z.even k then 0 else 1)%Z.
Definition inner_y (b : pbox) (k : Z) : Z := inner b (if (k <? 2)%Z then 2 else 3)%Z.
Definition nodes_ok (b : pbox) (nodes : list bbox) : Prop :=
  forall n, In n nodes -> is_loc (loc n) /\ bl0 n = corner_x b (loc n) /\ bu0 n = corner_x b (loc n) /\
    bl1 n = corner_y b (loc n) /\ bu1 n = corner_y b (loc n).
Definition has_corner (nodes : list bbox) (k : Z) : Prop := exists n, In n nodes /\ loc n = k.
(** cell of a boundary box *)
Definition in_bbox (s : bbox) (i j : Z) : Prop := (bl0 s <= i <= bu0 s)%Z /\ (bl1 s <= j <= bu1 s)%Z.

(** the condition a u + b du/dn = g on the face between an outer and an inner cell *)
Definition condition (a b g h uo ui : R) : Prop := a * ((uo + ui) / 2) + b * ((uo - ui) / h) = g.
(** an edge box sticks out of the patch only over a corner that is filled too *)
Definition ends_in_corners (b : pbox) (sides nodes : list bbox) : Prop :=
  forall s i j, In s sides -> in_bbox s i j -> along_patch b (loc s) (along (loc s) i j) \/
    exists k, has_corner nodes k /\ is_loc k /\ i = corner_x b k /\ j = corner_y b k.
(** the patch touches the physical boundary on all sides *)
Definition whole_boundary (b : pbox) (sides nodes : list bbox) : Prop :=
  sides_ok b sides /\ nodes_ok b nodes /\ (forall l t, is_loc l -> along_patch b l t -> covers sides l t) /\ (forall k, is_loc k -> has_corner nodes k).
(** cell indices up to one outside the patch *)
Definition in_first_layer (b : pbox) (i j : Z) : Prop := in_box (lo0 b - 1) (hi0 b + 1) (lo1 b - 1) (hi1 b + 1) i j.
Definition clamp (lo hi i : Z) : Z := Z.max lo (Z.min hi i).
(** the affine function c0 + c1 x + c2 y at cell centers; the origin is the lower corner of cell (0,0) *)
Definition affine (b : pbox) (c0 c1 c2 : R) (i j : Z) : R := c0 + c1 * ((IZR i + / 2) * h1 b) + c2 * ((IZR j + / 2) * h2 b).
(** its value and outward slope on a face: x faces at i h, y faces at j h *)
Definition affine_face (b : pbox) (c0 c1 c2 : R) (l i j : Z) : R :=
  if (l / 2 =? 0)%Z then c0 + c1 * (IZR i * h1 b) + c2 * ((IZR j + / 2) * h2 b) else c0 + c1 * ((IZR i + / 2) * h1 b) + c2 * (IZR j * h2 b).
Definition affine_slope (c1 c2 : R) (l : Z) : R :=
  if (l =? 0)%Z then - c1 else if (l =? 1)%Z then c1 else if (l =? 2)%Z then - c2 else c2.
(** no flux through the boundary *)
Definition no_flux (co : bcoefs) : Prop := forall l i j, is_loc l -> acf co l i j = 0 /\ bcf co l i j = 1 /\ gcf co l i j = 0.

(** the fill of data with n ghost cells of which all are requested, patch inside the physical boundary *)
Definition refill (b : pbox) (n : Z) (co : bcoefs) (hom : bool) (depth : Z) (sides nodes : list bbox) (u u' : arr3) : Prop :=
  setBoundaryValuesInCells b n n n n co hom depth sides nodes u = Some u'.
Definition same_patch (b : pbox) (depth : Z) (u v : arr3) : Prop := forall i j d, in_cells b i j -> (0 <= d < depth)%Z -> u i j d = v i j d.
(** boundary boxes of a patch that fills the domain: sides without and corners *)
Definition all_sides (b : pbox) : list bbox :=
  cons (mk_bbox 0 (lo0 b - 1) (lo0 b - 1) (lo1 b) (hi1 b)) (cons (mk_bbox 1 (hi0 b + 1) (hi0 b + 1) (lo1 b) (hi1 b))
  (cons (mk_bbox 2 (lo0 b) (hi0 b) (lo1 b - 1) (lo1 b - 1)) (cons (mk_bbox 3 (lo0 b) (hi0 b) (hi1 b + 1) (hi1 b + 1)) nil))).
Definition all_corners (b : pbox) : list bbox :=
  cons (mk_bbox 0 (lo0 b - 1) (lo0 b - 1) (lo1 b - 1) (lo1 b - 1)) (cons (mk_bbox 1 (hi0 b + 1) (hi0 b + 1) (lo1 b - 1) (lo1 b - 1))
  (cons (mk_bbox 2 (lo0 b - 1) (lo0 b - 1) (hi1 b + 1) (hi1 b + 1)) (cons (mk_bbox 3 (hi0 b + 1) (hi0 b + 1) (hi1 b + 1) (hi1 b + 1)) nil))).
