(** Words for the statements on the direct solve of the coarsest level. *)
From Coq Require Import Reals ZArith List Bool.
From Verif Require Import Grid_Model Elliptic_Model Elliptic_Spec Hypre_Model.
Open Scope R_scope.

(** the box of the physical boundary lies on side [l] (0 west, 1 east, 2 south, 3 north) at place [t] *)
Definition covers (f : bface) (l t : Z) : Prop := bloc f = l /\ (bbeg f <= t <= bend f)%Z.
(** the boundary boxes lie on the sides of the patch and do not overlap *)
Definition faces_fit (hp : hpatch) : Prop :=
  (forall f, In f (faces hp) -> (bbeg f <= bend f /\
     ((bloc f = 0 \/ bloc f = 1) /\ jlo (box hp) <= bbeg f /\ bend f <= jhi (box hp) \/
      (bloc f = 2 \/ bloc f = 3) /\ ilo (box hp) <= bbeg f /\ bend f <= ihi (box hp)))%Z) /\
  ForallOrdPairs (fun f g => forall l t, ~ (covers f l t /\ covers g l t)) (faces hp).
(** the boundary boxes are where the level ends: beside a neighbour (or a periodic image of one) there is none, beside
    nothing there is one, whose condition determines the ghost value *)
Definition faced (hp : hpatch) (h : R) (l t : Z) (neighbour : option Z) : Prop :=
  match neighbour with
  | Some _ => forall f, In f (faces hp) -> ~ covers f l t
  | None => exists f, In f (faces hp) /\ covers f l t /\ bcoef f t + h * acoef f t / 2 <> 0
  end.
Definition boundary_ok (lv : level) (hps : list hpatch) (per0 per1 : Z) (hx hy : R) : Prop :=
  patches lv = map box hps /\
  forall hp, In hp hps -> faces_fit hp /\
    (forall j, (jlo (box hp) <= j <= jhi (box hp))%Z ->
       faced hp hx 0 j (image_x lv per0 (ilo (box hp) - 1)%Z j) /\ faced hp hx 1 j (image_x lv per0 (ihi (box hp) + 1)%Z j)) /\
    (forall i, (ilo (box hp) <= i <= ihi (box hp))%Z ->
       faced hp hy 2 i (image_y lv per1 i (jlo (box hp) - 1)%Z) /\ faced hp hy 3 i (image_y lv per1 i (jhi (box hp) + 1)%Z)).
(** the coefficients repeat themselves across periodic boundaries *)
Definition periodic_data (lv : level) (per0 per1 : Z) (dx dy m : arr2) : Prop :=
  forall i j, cell lv i j ->
    (forall a, image_x lv per0 (i + 1)%Z j = Some a -> dx a j = dx (i + 1)%Z j /\ m (a - 1)%Z j = m i j /\ m a j = m (i + 1)%Z j) /\
    (forall a, image_x lv per0 (i - 1)%Z j = Some a -> m a j = m (i - 1)%Z j) /\
    (forall b, image_y lv per1 i (j + 1)%Z = Some b -> dy i b = dy i (j + 1)%Z /\ m i (b - 1)%Z = m i j /\ m i b = m i (j + 1)%Z) /\
    (forall b, image_y lv per1 i (j - 1)%Z = Some b -> m i b = m i (j - 1)%Z).

(** The value of a ghost cell (a, b) beside cell (i, j) across side [l]: that of the periodic image, or
    fac * k1 * u(i, j) + off * k0 * g from the Robin condition a u + b u_n = g *)
Definition ghost_beside (hp : hpatch) (h : R) (l t a b i j : Z) (fac off : R) (image : option (Z * Z)) (g : ghost) : Prop :=
  match image with
  | Some (c, d) => g = mk_ghost 1 c d 0
  | None => forall f, In f (faces hp) -> covers f l t ->
      g = mk_ghost (fac * ((bcoef f t - h * acoef f t / 2) / (bcoef f t + h * acoef f t / 2))) i j
                   (off * (h / (bcoef f t + h * acoef f t / 2)) * gcoef f t)
  end.
Definition ghosts_follow (lv : level) (hps : list hpatch) (per0 per1 : Z) (hx hy : R) (fac off : Z -> Z -> Z -> Z -> R) (gh : Z -> Z -> ghost) : Prop :=
  forall hp i j, In hp hps -> inside (box hp) i j ->
    (~ cell lv (i - 1) j -> ghost_beside hp hx 0 j (i - 1) j i j (fac (i - 1)%Z j i j) (off (i - 1)%Z j i j) (option_map (fun a => (a, j)) (image_x lv per0 (i - 1)%Z j)) (gh (i - 1)%Z j)) /\
    (~ cell lv (i + 1) j -> ghost_beside hp hx 1 j (i + 1) j i j (fac (i + 1)%Z j i j) (off (i + 1)%Z j i j) (option_map (fun a => (a, j)) (image_x lv per0 (i + 1)%Z j)) (gh (i + 1)%Z j)) /\
    (~ cell lv i (j - 1) -> ghost_beside hp hy 2 i i (j - 1) i j (fac i (j - 1)%Z i j) (off i (j - 1)%Z i j) (option_map (fun b => (i, b)) (image_y lv per1 i (j - 1)%Z)) (gh i (j - 1)%Z)) /\
    (~ cell lv i (j + 1) -> ghost_beside hp hy 3 i i (j + 1) i j (fac i (j + 1)%Z i j) (off i (j + 1)%Z i j) (option_map (fun b => (i, b)) (image_y lv per1 i (j + 1)%Z)) (gh i (j + 1)%Z)).
(** the boundary conditions as the user gives them *)
Definition robin_ghosts (lv : level) (hps : list hpatch) (per0 per1 : Z) (hx hy : R) (homogeneous : bool) (gh : Z -> Z -> ghost) : Prop :=
  ghosts_follow lv hps per0 per1 hx hy (fun _ _ _ _ => 1) (fun _ _ _ _ => if homogeneous then 0 else 1) gh.
(** beside the physical boundary the mobility has the same value in the ghost cell and in the cell *)
Definition even_mobility (lv : level) (per0 per1 : Z) (m : arr2) : Prop :=
  forall i j, cell lv i j ->
    (image_x lv per0 (i - 1)%Z j = None -> m (i - 1)%Z j = m i j) /\ (image_x lv per0 (i + 1)%Z j = None -> m (i + 1)%Z j = m i j) /\
    (image_y lv per1 i (j - 1)%Z = None -> m i (j - 1)%Z = m i j) /\ (image_y lv per1 i (j + 1)%Z = None -> m i (j + 1)%Z = m i j).
Definition unit_mobility (lv : level) (per0 per1 : Z) (m : arr2) : Prop :=
  forall i j, cell lv i j ->
    (image_x lv per0 (i - 1)%Z j = None -> m (i - 1)%Z j = 1) /\ (image_x lv per0 (i + 1)%Z j = None -> m (i + 1)%Z j = 1) /\
    (image_y lv per1 i (j - 1)%Z = None -> m i (j - 1)%Z = 1) /\ (image_y lv per1 i (j + 1)%Z = None -> m i (j + 1)%Z = 1).

(** the vector satisfies the equations given to HYPRE *)
Definition hypre_solution (lv : level) (hps : list hpatch) (per0 per1 actual : Z) (hx hy : R) (dx dy c : arr2) (ms : mspec) (homogeneous : bool) (f v : arr2) : Prop :=
  forall i j, cell lv i j ->
    hypre_apply lv per0 per1 actual (level_matrix hps actual hx hy dx dy c ms) v i j = level_rhs hps hx hy dx dy c ms homogeneous f i j.
(** the mobility is positive where it is used *)
Definition positive_m (lv : level) (ms : mspec) : Prop :=
  match ms with ConstantM _ => True | VariableM m => forall i j, cell lv i j -> 0 < m i j end.
(** the level has two axes for HYPRE, or it is one cell high and not periodic across *)
Definition axes_ok (lv : level) (per1 actual : Z) : Prop :=
  actual = 2%Z \/ actual = 1%Z /\ forall i j, cell lv i j -> image_y lv per1 i (j - 1)%Z = None /\ image_y lv per1 i (j + 1)%Z = None.
(** the ghost rule scaled by the roots of the mobility in the ghost cell and in the cell *)
Definition scaled (ms : mspec) (a b i j : Z) : R := msqrt ms a b / msqrt ms i j.
Definition scaled_off (ms : mspec) (hom : bool) (a b i j : Z) : R := if hom then 0 else msqrt ms a b.
