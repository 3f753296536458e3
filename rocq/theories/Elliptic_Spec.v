(** Words for the statements on the elliptic solver. *)
From Coq Require Import Reals ZArith List Bool.
From Verif Require Import Grid_Model Elliptic_Model.
Open Scope R_scope.

Definition inside (p : patch) (i j : Z) : Prop := (ilo p <= i <= ihi p /\ jlo p <= j <= jhi p)%Z.
Definition cell (lv : level) (i j : Z) : Prop := exists p, In p (patches lv) /\ inside p i j.
(** no two patches of the level overlap *)
Definition disjoint (lv : level) : Prop := ForallOrdPairs (fun p q => forall i j, inside p i j -> inside q i j -> False) (patches lv).

(** m div(D grad w) + C w in a cell, for the inverse squared spacings ax, ay *)
Definition operator (ax ay : R) (o : coefs) (w : arr2) (i j : Z) : R :=
  mob o i j * (ax * (xdc o (i + 1)%Z j * (w (i + 1)%Z j - w i j) - xdc o i j * (w i j - w (i - 1)%Z j))
             + ay * (ydc o i (j + 1)%Z * (w i (j + 1)%Z - w i j) - ydc o i j * (w i j - w i (j - 1)%Z)))
  + sfield o i j * w i j.

(** w continues u from the cells of the level to the cells around it *)
Definition extends (lv : level) (gh : Z -> Z -> ghost) (u w : arr2) : Prop :=
  (forall i j, cell lv i j -> w i j = u i j) /\
  (forall i j, ~ cell lv i j -> w i j = factor (gh i j) * u (src0 (gh i j)) (src1 (gh i j)) + offset_value (gh i j)).
Definition solves (ax ay : R) (lv : level) (gh : Z -> Z -> ghost) (o : coefs) (rhs u : arr2) : Prop :=
  forall w, extends lv gh u w -> forall i j, cell lv i j -> operator ax ay o w i j = rhs i j.

(** boundary rules that do not amplify *)
Definition tame (lv : level) (gh : Z -> Z -> ghost) : Prop :=
  forall i j, ~ cell lv i j -> Rabs (factor (gh i j)) <= 1 /\ (factor (gh i j) = 0 \/ cell lv (src0 (gh i j)) (src1 (gh i j))).
(** the sign of the preconditioner's problems (D = - gamma * diffusion, C >= c0 > 0); K bounds the coupling of a cell to
    its neighbours *)
Definition positive_problem (lv : level) (o : coefs) (c0 K : R) : Prop :=
  0 < c0 /\
  forall i j, cell lv i j ->
    0 <= mob o i j /\ xdc o i j <= 0 /\ xdc o (i + 1)%Z j <= 0 /\ ydc o i j <= 0 /\ ydc o i (j + 1)%Z <= 0 /\
    c0 <= sfield o i j /\
    - mob o i j * ((xdc o (i + 1)%Z j + xdc o i j) / (pdx lv * pdx lv) + (ydc o i (j + 1)%Z + ydc o i j) / (pdy lv * pdy lv)) <= K.
(** the coefficient the smoother divides by does not vanish *)
Definition nonsingular (lv : level) (o : coefs) : Prop :=
  forall i j, cell lv i j ->
    mob o i j * (1 / pdx lv * (1 / pdx lv) * (xdc o (i + 1)%Z j + xdc o i j) + 1 / pdy lv * (1 / pdy lv) * (ydc o i (j + 1)%Z + ydc o i j))
    - sfield o i j <> 0.
(** the patches of the level are at least as fine as the grid geometry *)
Definition spacing (lv : level) : Prop := 0 < pdx lv <= gdx lv /\ 0 < pdy lv <= gdy lv.
(** no flux correction on the level: the coarsest level, or a discretisation other than "Ewing" *)
Definition plain (lv : level) : Prop := (ewing lv && finer lv)%bool = false.
Definition nonneg_rows (lv : level) : Prop := forall p, In p (patches lv) -> (0 <= jlo p)%Z.
Definition within (lv : level) (u v : arr2) (e : R) : Prop := forall i j, cell lv i j -> Rabs (u i j - v i j) <= e.

(** a quadratic field, by its coefficients, at the centre of cell (i, j) for the given spacings *)
Record quadratic := mk_quadratic { qxx : R; qxy : R; qyy : R; qx : R; qy : R; q0 : R }.
Definition centre (i : Z) (h : R) : R := (IZR i + 1 / 2) * h.
Definition quad_at (q : quadratic) (x y : R) : R := qxx q * x * x + qxy q * x * y + qyy q * y * y + qx q * x + qy q * y + q0 q.
Definition quad_cells (q : quadratic) (hx hy : R) : arr2 := fun i j => quad_at q (centre i hx) (centre j hy).
(** a linear diffusion coefficient sampled on the sides *)
Definition linear_x (d0 d1 d2 hx hy : R) : arr2 := fun i j => d0 + d1 * (IZR i * hx) + d2 * centre j hy.
Definition linear_y (d0 d1 d2 hx hy : R) : arr2 := fun i j => d0 + d1 * centre i hx + d2 * (IZR j * hy).
(** m div(D grad q) + C q for D = d0 + d1 x + d2 y *)
Definition continuum (m d0 d1 d2 c : R) (q : quadratic) (x y : R) : R :=
  m * ((d0 + d1 * x + d2 * y) * (2 * qxx q + 2 * qyy q) + d1 * (2 * qxx q * x + qxy q * y + qx q) + d2 * (qxy q * x + 2 * qyy q * y + qy q))
  + c * quad_at q x y.

(** A patch next to a coarser level on one of its sides: the boundary box lies along the side, starts and ends at
    boundaries of coarse cells; the field is linear in the patch and the ghost cells hold the value of the linear field
    at the centre of the coarse cell they belong to. *)
Definition linear_at (a sx sy x y : R) : R := a + sx * x + sy * y.
(** the centre of the coarse cell that contains fine cell i *)
Definition coarse_centre (i r : Z) (h : R) : R := (IZR (i / r) + 1 / 2) * (IZR r * h).
Definition linear_inside (p : patch) (w : arr2) (a sx sy hx hy : R) : Prop :=
  forall i j, inside p i j -> w i j = linear_at a sx sy (centre i hx) (centre j hy).
Definition aligned (lo hi r : Z) : Prop := (lo mod r = 0 /\ (hi + 1) mod r = 0)%Z.
(** the sides that the correction of a boundary box is for *)
Definition corrects_x (p : patch) (bb : bbox) (i j : Z) : Prop :=
  ((location bb = 0 /\ i = bhi0 bb + 1 \/ location bb = 1 /\ i = blo0 bb) /\ Z.max (blo1 bb) (jlo p) <= j <= Z.min (bhi1 bb) (jhi p))%Z.
Definition corrects_y (p : patch) (bb : bbox) (i j : Z) : Prop :=
  ((location bb = 2 /\ j = bhi1 bb + 1 \/ location bb = 3 /\ j = blo1 bb) /\ Z.max (blo0 bb) (ilo p) <= i <= Z.min (bhi0 bb) (ihi p))%Z.
(** the coarse-fine boundary as SAMRAI builds it: boxes along the sides of the patch, made of whole coarse cells, that do
    not correct a side twice *)
Definition placed (p : patch) (r0 r1 : Z) (bb : bbox) : Prop :=
  ((location bb = 0 /\ bhi0 bb = ilo p - 1 \/ location bb = 1 /\ blo0 bb = ihi p + 1) /\
     aligned (Z.max (blo1 bb) (jlo p)) (Z.min (bhi1 bb) (jhi p)) r1 /\ Z.max (blo1 bb) (jlo p) <= Z.min (bhi1 bb) (jhi p) \/
   (location bb = 2 /\ bhi1 bb = jlo p - 1 \/ location bb = 3 /\ blo1 bb = jhi p + 1) /\
     aligned (Z.max (blo0 bb) (ilo p)) (Z.min (bhi0 bb) (ihi p)) r0 /\ Z.max (blo0 bb) (ilo p) <= Z.min (bhi0 bb) (ihi p))%Z.
Definition cf_boundary_ok (lv : level) (p : patch) : Prop :=
  (2 <= ratio0 lv /\ 2 <= ratio1 lv)%Z /\ (ilo p <= ihi p /\ jlo p <= jhi p)%Z /\ aligned (ilo p) (ihi p) (ratio0 lv) /\ aligned (jlo p) (jhi p) (ratio1 lv) /\
  (forall bb, In bb (cf_boundary p) -> placed p (ratio0 lv) (ratio1 lv) bb) /\
  ForallOrdPairs (fun a b => forall i j, ~ (corrects_x p a i j /\ corrects_x p b i j) /\ ~ (corrects_y p a i j /\ corrects_y p b i j)) (cf_boundary p).
(** the ghost cells along the box hold the linear field at the centres of the coarse cells *)
Definition coarse_ghosts (lv : level) (p : patch) (bb : bbox) (w : arr2) (a sx sy : R) : Prop :=
  forall i j,
    ((location bb = 0 /\ i = ilo p - 1 \/ location bb = 1 /\ i = ihi p + 1) /\ Z.max (blo1 bb) (jlo p) <= j <= Z.min (bhi1 bb) (jhi p) \/
     (location bb = 2 /\ j = jlo p - 1 \/ location bb = 3 /\ j = jhi p + 1) /\ Z.max (blo0 bb) (ilo p) <= i <= Z.min (bhi0 bb) (ihi p))%Z ->
    w i j = linear_at a sx sy (coarse_centre i (ratio0 lv) (pdx lv)) (coarse_centre j (ratio1 lv) (pdy lv)).
