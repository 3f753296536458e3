(** Words for the statements on the elliptic solver in three dimensions. *)
From Coq Require Import Reals ZArith List Bool.
From Verif Require Import Grid_Model Elliptic3_Model.
Open Scope R_scope.

Definition inside (p : patch) (i j k : Z) : Prop := (ilo p <= i <= ihi p /\ jlo p <= j <= jhi p /\ klo p <= k <= khi p)%Z.
Definition cell (lv : level) (i j k : Z) : Prop := exists p, In p (patches lv) /\ inside p i j k.
(** no two patches of the level overlap *)
Definition disjoint (lv : level) : Prop := ForallOrdPairs (fun p q => forall i j k, inside p i j k -> inside q i j k -> False) (patches lv).

(** m div(D grad w) + C w in a cell, for the inverse squared spacings ax, ay, az *)
Definition operator (ax ay az : R) (o : coefs) (w : arr3) (i j k : Z) : R :=
  mob o i j k * (ax * (xdc o (i + 1)%Z j k * (w (i + 1)%Z j k - w i j k) - xdc o i j k * (w i j k - w (i - 1)%Z j k))
               + ay * (ydc o i (j + 1)%Z k * (w i (j + 1)%Z k - w i j k) - ydc o i j k * (w i j k - w i (j - 1)%Z k))
               + az * (zdc o i j (k + 1)%Z * (w i j (k + 1)%Z - w i j k) - zdc o i j k * (w i j k - w i j (k - 1)%Z)))
  + sfield o i j k * w i j k.
(** the same for the spacings of the level *)
Definition level_operator (lv : level) : coefs -> arr3 -> arr3 :=
  operator (1 / (pdx lv * pdx lv)) (1 / (pdy lv * pdy lv)) (1 / (pdz lv * pdz lv)).

(** w continues u from the cells of the level to the cells around it *)
Definition extends (lv : level) (gh : Z -> Z -> Z -> ghost) (u w : arr3) : Prop :=
  (forall i j k, cell lv i j k -> w i j k = u i j k) /\
  (forall i j k, ~ cell lv i j k ->
     w i j k = factor (gh i j k) * u (src0 (gh i j k)) (src1 (gh i j k)) (src2 (gh i j k)) + offset_value (gh i j k)).
Definition solves (ax ay az : R) (lv : level) (gh : Z -> Z -> Z -> ghost) (o : coefs) (rhs u : arr3) : Prop :=
  forall w, extends lv gh u w -> forall i j k, cell lv i j k -> operator ax ay az o w i j k = rhs i j k.

(** boundary rules that do not amplify *)
Definition tame (lv : level) (gh : Z -> Z -> Z -> ghost) : Prop :=
  forall i j k, ~ cell lv i j k -> Rabs (factor (gh i j k)) <= 1 /\
    (factor (gh i j k) = 0 \/ cell lv (src0 (gh i j k)) (src1 (gh i j k)) (src2 (gh i j k))).
(** boundary rules that keep the colour of a cell: periodic images over an even number of cells, or fixed values *)
Definition checkerboard (lv : level) (gh : Z -> Z -> Z -> ghost) : Prop :=
  forall i j k, ~ cell lv i j k -> factor (gh i j k) = 0 \/
    (cell lv (src0 (gh i j k)) (src1 (gh i j k)) (src2 (gh i j k)) /\
     Z.even (src0 (gh i j k) + src1 (gh i j k) + src2 (gh i j k)) = Z.even (i + j + k)).
(** the sign of the preconditioner's problems (D = - gamma * diffusion, C >= c0 > 0); K bounds the coupling of a cell to
    its neighbours *)
Definition positive_problem (lv : level) (o : coefs) (c0 K : R) : Prop :=
  0 < c0 /\
  forall i j k, cell lv i j k ->
    0 <= mob o i j k /\ xdc o i j k <= 0 /\ xdc o (i + 1)%Z j k <= 0 /\ ydc o i j k <= 0 /\ ydc o i (j + 1)%Z k <= 0 /\
    zdc o i j k <= 0 /\ zdc o i j (k + 1)%Z <= 0 /\ c0 <= sfield o i j k /\
    - mob o i j k * ((xdc o (i + 1)%Z j k + xdc o i j k) / (pdx lv * pdx lv) + (ydc o i (j + 1)%Z k + ydc o i j k) / (pdy lv * pdy lv)
                     + (zdc o i j (k + 1)%Z + zdc o i j k) / (pdz lv * pdz lv)) <= K.
(** the coefficient the smoother divides by does not vanish *)
Definition nonsingular_at (lv : level) (o : coefs) (i j k : Z) : Prop :=
  mob o i j k * ((xdc o (i + 1)%Z j k + xdc o i j k) / (pdx lv * pdx lv) + (ydc o i (j + 1)%Z k + ydc o i j k) / (pdy lv * pdy lv)
                 + (zdc o i j (k + 1)%Z + zdc o i j k) / (pdz lv * pdz lv)) - sfield o i j k <> 0.
Definition nonsingular (lv : level) (o : coefs) : Prop := forall i j k, cell lv i j k -> nonsingular_at lv o i j k.
(** the patches of the level are at least as fine as the grid geometry *)
Definition spacing (lv : level) : Prop := 0 < pdx lv <= gdx lv /\ 0 < pdy lv <= gdy lv /\ 0 < pdz lv <= gdz lv.
(** one spacing: level 0 *)
Definition one_spacing (lv : level) : Prop :=
  0 < pdx lv /\ 0 < pdy lv /\ 0 < pdz lv /\ gdx lv = pdx lv /\ gdy lv = pdy lv /\ gdz lv = pdz lv.
(** no flux correction on the level: the coarsest level, or a discretisation other than "Ewing" *)
Definition plain (lv : level) : Prop := (ewing lv && finer lv)%bool = false.
(** the sum of the indices of the first cell of each patch is not negative *)
Definition nonneg_corners (lv : level) : Prop := forall p, In p (patches lv) -> (0 <= ilo p + jlo p + klo p)%Z.
Definition within (lv : level) (u v : arr3) (e : R) : Prop := forall i j k, cell lv i j k -> Rabs (u i j k - v i j k) <= e.

(** a quadratic field, by its coefficients, at the centre of cell (i, j, k) for the given spacings *)
Record quadratic := mk_quadratic { qxx : R; qyy : R; qzz : R; qxy : R; qxz : R; qyz : R; qx : R; qy : R; qz : R; q0 : R }.
Definition centre (i : Z) (h : R) : R := (IZR i + 1 / 2) * h.
Definition quad_at (q : quadratic) (x y z : R) : R :=
  qxx q * x * x + qyy q * y * y + qzz q * z * z + qxy q * x * y + qxz q * x * z + qyz q * y * z + qx q * x + qy q * y + qz q * z + q0 q.
Definition quad_cells (q : quadratic) (hx hy hz : R) : arr3 := fun i j k => quad_at q (centre i hx) (centre j hy) (centre k hz).
(** a linear diffusion coefficient sampled on the sides *)
Definition linear_x (d0 d1 d2 d3 hx hy hz : R) : arr3 := fun i j k => d0 + d1 * (IZR i * hx) + d2 * centre j hy + d3 * centre k hz.
Definition linear_y (d0 d1 d2 d3 hx hy hz : R) : arr3 := fun i j k => d0 + d1 * centre i hx + d2 * (IZR j * hy) + d3 * centre k hz.
Definition linear_z (d0 d1 d2 d3 hx hy hz : R) : arr3 := fun i j k => d0 + d1 * centre i hx + d2 * centre j hy + d3 * (IZR k * hz).
(** m (rx d/dx(D dq/dx) + ry d/dy(D dq/dy) + rz d/dz(D dq/dz)) + C q for D = d0 + d1 x + d2 y + d3 z *)
Definition continuum (m d0 d1 d2 d3 c rx ry rz : R) (q : quadratic) (x y z : R) : R :=
  m * (rx * ((d0 + d1 * x + d2 * y + d3 * z) * (2 * qxx q) + d1 * (2 * qxx q * x + qxy q * y + qxz q * z + qx q))
     + ry * ((d0 + d1 * x + d2 * y + d3 * z) * (2 * qyy q) + d2 * (qxy q * x + 2 * qyy q * y + qyz q * z + qy q))
     + rz * ((d0 + d1 * x + d2 * y + d3 * z) * (2 * qzz q) + d3 * (qxz q * x + qyz q * y + 2 * qzz q * z + qz q)))
  + c * quad_at q x y z.
(** the boundary values and coefficients of that problem *)
Definition quadratic_problem (lv : level) (gh : Z -> Z -> Z -> ghost) (o : coefs) (q : quadratic) (d0 d1 d2 d3 : R) : Prop :=
  (forall a b c, ~ cell lv a b c -> factor (gh a b c) = 0 /\ offset_value (gh a b c) = quad_cells q (pdx lv) (pdy lv) (pdz lv) a b c) /\
  xdc o = linear_x d0 d1 d2 d3 (pdx lv) (pdy lv) (pdz lv) /\ ydc o = linear_y d0 d1 d2 d3 (pdx lv) (pdy lv) (pdz lv) /\
  zdc o = linear_z d0 d1 d2 d3 (pdx lv) (pdy lv) (pdz lv).

(** A patch next to a coarser level on one of its sides: the boundary box lies along the side, starts and ends at
    boundaries of coarse cells; the field is linear in the patch and the ghost cells hold the value of the linear field
    at the centre of the coarse cell they belong to. *)
Definition linear_at (a sx sy sz x y z : R) : R := a + sx * x + sy * y + sz * z.
(** the centre of the coarse cell that contains fine cell i *)
Definition coarse_centre (i r : Z) (h : R) : R := (IZR (i / r) + 1 / 2) * (IZR r * h).
Definition linear_inside (lv : level) (p : patch) (w : arr3) (a sx sy sz : R) : Prop :=
  forall i j k, inside p i j k -> w i j k = linear_at a sx sy sz (centre i (pdx lv)) (centre j (pdy lv)) (centre k (pdz lv)).
Definition aligned (lo hi r : Z) : Prop := (lo mod r = 0 /\ (hi + 1) mod r = 0)%Z.
(** the part of the box along the patch, per direction *)
Definition along0 (p : patch) (bb : bbox) (i : Z) : Prop := (Z.max (blo0 bb) (ilo p) <= i <= Z.min (bhi0 bb) (ihi p))%Z.
Definition along1 (p : patch) (bb : bbox) (j : Z) : Prop := (Z.max (blo1 bb) (jlo p) <= j <= Z.min (bhi1 bb) (jhi p))%Z.
Definition along2 (p : patch) (bb : bbox) (k : Z) : Prop := (Z.max (blo2 bb) (klo p) <= k <= Z.min (bhi2 bb) (khi p))%Z.
(** the sides that the correction of a boundary box is for *)
Definition corrects_x (p : patch) (bb : bbox) (i j k : Z) : Prop :=
  (location bb = 0 /\ i = bhi0 bb + 1 \/ location bb = 1 /\ i = blo0 bb)%Z /\ along1 p bb j /\ along2 p bb k.
Definition corrects_y (p : patch) (bb : bbox) (i j k : Z) : Prop :=
  (location bb = 2 /\ j = bhi1 bb + 1 \/ location bb = 3 /\ j = blo1 bb)%Z /\ along0 p bb i /\ along2 p bb k.
Definition corrects_z (p : patch) (bb : bbox) (i j k : Z) : Prop :=
  (location bb = 4 /\ k = bhi2 bb + 1 \/ location bb = 5 /\ k = blo2 bb)%Z /\ along0 p bb i /\ along1 p bb j.
(** the part of the box along the patch is made of whole coarse cells, and there is some *)
Definition whole (lo hi plo phi r : Z) : Prop := aligned (Z.max lo plo) (Z.min hi phi) r /\ (Z.max lo plo <= Z.min hi phi)%Z.
(** the coarse-fine boundary as SAMRAI builds it: boxes along the sides of the patch, made of whole coarse cells, that do
    not correct a side twice *)
Definition placed (p : patch) (r0 r1 r2 : Z) (bb : bbox) : Prop :=
  (location bb = 0 /\ bhi0 bb = ilo p - 1 \/ location bb = 1 /\ blo0 bb = ihi p + 1)%Z /\
    whole (blo1 bb) (bhi1 bb) (jlo p) (jhi p) r1 /\ whole (blo2 bb) (bhi2 bb) (klo p) (khi p) r2 \/
  (location bb = 2 /\ bhi1 bb = jlo p - 1 \/ location bb = 3 /\ blo1 bb = jhi p + 1)%Z /\
    whole (blo0 bb) (bhi0 bb) (ilo p) (ihi p) r0 /\ whole (blo2 bb) (bhi2 bb) (klo p) (khi p) r2 \/
  (location bb = 4 /\ bhi2 bb = klo p - 1 \/ location bb = 5 /\ blo2 bb = khi p + 1)%Z /\
    whole (blo0 bb) (bhi0 bb) (ilo p) (ihi p) r0 /\ whole (blo1 bb) (bhi1 bb) (jlo p) (jhi p) r1.
Definition cf_boundary_ok (lv : level) (p : patch) : Prop :=
  (2 <= ratio0 lv /\ 2 <= ratio1 lv /\ 2 <= ratio2 lv)%Z /\ (ilo p <= ihi p /\ jlo p <= jhi p /\ klo p <= khi p)%Z /\
  aligned (ilo p) (ihi p) (ratio0 lv) /\ aligned (jlo p) (jhi p) (ratio1 lv) /\ aligned (klo p) (khi p) (ratio2 lv) /\
  (forall bb, In bb (cf_boundary p) -> placed p (ratio0 lv) (ratio1 lv) (ratio2 lv) bb) /\
  ForallOrdPairs (fun a b => forall i j k, ~ (corrects_x p a i j k /\ corrects_x p b i j k) /\
    ~ (corrects_y p a i j k /\ corrects_y p b i j k) /\ ~ (corrects_z p a i j k /\ corrects_z p b i j k)) (cf_boundary p).
(** the ghost cells along the box hold the linear field at the centres of the coarse cells *)
Definition beyond (p : patch) (bb : bbox) (i j k : Z) : Prop :=
  (location bb = 0 /\ i = ilo p - 1 \/ location bb = 1 /\ i = ihi p + 1)%Z /\ along1 p bb j /\ along2 p bb k \/
  (location bb = 2 /\ j = jlo p - 1 \/ location bb = 3 /\ j = jhi p + 1)%Z /\ along0 p bb i /\ along2 p bb k \/
  (location bb = 4 /\ k = klo p - 1 \/ location bb = 5 /\ k = khi p + 1)%Z /\ along0 p bb i /\ along1 p bb j.
Definition coarse_ghosts (lv : level) (p : patch) (bb : bbox) (w : arr3) (a sx sy sz : R) : Prop :=
  forall i j k, beyond p bb i j k ->
    w i j k = linear_at a sx sy sz (coarse_centre i (ratio0 lv) (pdx lv)) (coarse_centre j (ratio1 lv) (pdy lv)) (coarse_centre k (ratio2 lv) (pdz lv)).
