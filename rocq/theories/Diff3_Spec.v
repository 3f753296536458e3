(** What is claimed of the diffusion coefficients in three dimensions; phases, rates, fractions and interface diffusion of a
    cell as in Diffusion_Spec. *)
From Coq Require Import Reals ZArith List Bool Ascii.
From Verif Require Import Grid_Model Grid_Spec PhaseFlow_Model Trap3_Model.
From Verif Require Import Diffusion_Model Diffusion_Spec Diff3_Model.
Import ListNotations.
Open Scope R_scope.

(** faces normal to x, y and z; the face (i,j,k) separates the cell before it along its direction from the cell (i,j,k) *)
Inductive dir3 := FX | FY | FZ.
Definition at_face3 (f : arr3x3) (d : dir3) (i j k : Z) : R :=
  match d with FX => fst (fst f) i j k | FY => snd (fst f) i j k | FZ => snd f i j k end.
Definition low3 {A : Type} (f : Z -> Z -> Z -> A) (d : dir3) (i j k : Z) : A :=
  match d with FX => f (i - 1)%Z j k | FY => f i (j - 1)%Z k | FZ => f i j (k - 1)%Z end.
Definition on_face3 (b : box3) (d : dir3) (i j k : Z) : Prop :=
  match d with
  | FX => in_box3 (xl b) (xu b + 1) (yl b) (yu b) (zl b) (zu b) i j k
  | FY => in_box3 (xl b) (xu b) (yl b) (yu b + 1) (zl b) (zu b) i j k
  | FZ => in_box3 (xl b) (xu b) (yl b) (yu b) (zl b) (zu b + 1) i j k
  end.
(** the same with ng more layers along the face *)
Definition on_wide_face3 (b : box3) (ng : Z) (d : dir3) (i j k : Z) : Prop :=
  match d with
  | FX => in_box3 (xl b) (xu b + 1) (yl b - ng) (yu b + ng) (zl b - ng) (zu b + ng) i j k
  | FY => in_box3 (xl b - ng) (xu b + ng) (yl b) (yu b + 1) (zl b - ng) (zu b + ng) i j k
  | FZ => in_box3 (xl b - ng) (xu b + ng) (yl b - ng) (yu b + ng) (zl b) (zu b + 1) i j k
  end.

(** the axes renamed: the new x is the old y, the new y the old z, the new z the old x *)
Definition turn3 {A : Type} (f : Z -> Z -> Z -> A) : Z -> Z -> Z -> A := fun i j k => f k i j.
Definition turn_box3 (b : box3) : box3 := mk_box3 (yl b) (yu b) (zl b) (zu b) (xl b) (xu b) (hy b) (hz b) (hx b).
Definition turn_dir3 (d : dir3) : dir3 := match d with FX => FZ | FY => FX | FZ => FY end.
(** x and y exchanged *)
Definition swap3 {A : Type} (f : Z -> Z -> Z -> A) : Z -> Z -> Z -> A := fun i j k => f j i k.
Definition swap_box3 (b : box3) : box3 := mk_box3 (yl b) (yu b) (xl b) (xu b) (zl b) (zu b) (hy b) (hx b) (hz b).
Definition swap_dir3 (d : dir3) : dir3 := match d with FX => FY | FY => FX | FZ => FZ end.
(** seen in a mirror normal to x *)
Definition mirror3 {A : Type} (f : Z -> Z -> Z -> A) : Z -> Z -> Z -> A := fun i j k => f (- i)%Z j k.
Definition mirror_box3 (b : box3) : box3 := mk_box3 (- xu b) (- xl b) (yl b) (yu b) (zl b) (zu b) (hx b) (hy b) (hz b).
Definition mirror_face3 (d : dir3) (i : Z) : Z := match d with FX => 1 - i | _ => - i end%Z.

(** an operation from cell fields to face coefficients *)
Definition operation3 (A : Type) := box3 -> (Z -> Z -> Z -> A) -> arr3x3 -> option arr3x3.
(** the coefficient of a face does not depend on the patch that computes it or on what the array held before *)
Definition patch_free3 {A : Type} (K : operation3 A) : Prop := forall b b' s old old' f f' d i j k,
  K b s old = Some f -> K b' s old' = Some f' -> on_face3 b d i j k -> on_face3 b' d i j k -> at_face3 f d i j k = at_face3 f' d i j k.
(** renaming the axes of the fields renames the axes of the coefficients; the two renamings generate all six *)
Definition turn_free3 {A : Type} (K : operation3 A) : Prop := forall b s old old' f f' d i j k,
  K b s old = Some f -> K (turn_box3 b) (turn3 s) old' = Some f' -> on_face3 b d i j k -> at_face3 f' (turn_dir3 d) j k i = at_face3 f d i j k.
Definition swap_free3 {A : Type} (K : operation3 A) : Prop := forall b s old old' f f' d i j k,
  K b s old = Some f -> K (swap_box3 b) (swap3 s) old' = Some f' -> on_face3 b d i j k -> at_face3 f' (swap_dir3 d) j i k = at_face3 f d i j k.
Definition mirror_free3 {A : Type} (K : operation3 A) : Prop := forall b s old old' f f' d i j k,
  K b s old = Some f -> K (mirror_box3 b) (mirror3 s) old' = Some f' -> on_face3 b d i j k ->
  at_face3 f' d (mirror_face3 d i) j k = at_face3 f d i j k.
Definition isotropic3 {A : Type} (K : operation3 A) : Prop := turn_free3 K /\ swap_free3 K /\ mirror_free3 K.

(** a face of a three-dimensional run that separates the same two cells as a face of a two-dimensional one has the same
    coefficient, in every pair of directions the relation [R] allows, and one of the runs stops exactly if the other does *)
Definition as_in_plane {A : Type} (R : dir3 -> dir -> Prop) (K3 : operation3 A) (K2 : operation A) : Prop :=
  (forall b3 s3 old3 b2 s2 old2, K3 b3 s3 old3 = None <-> K2 b2 s2 old2 = None) /\
  (forall b3 s3 old3 f3 d3 i3 j3 k3 b2 s2 old2 f2 d2 i2 j2,
    K3 b3 s3 old3 = Some f3 -> K2 b2 s2 old2 = Some f2 -> on_face3 b3 d3 i3 j3 k3 -> on_face b2 d2 i2 j2 -> R d3 d2 ->
    low3 s3 d3 i3 j3 k3 = low s2 d2 i2 j2 -> s3 i3 j3 k3 = s2 i2 j2 -> at_face3 f3 d3 i3 j3 k3 = at_face f2 d2 i2 j2).
Definition any_face (d3 : dir3) (d2 : dir) : Prop := True.
Definition no_z_face (d3 : dir3) (d2 : dir) : Prop := d3 <> FZ.
Definition matching_face (d3 : dir3) (d2 : dir) : Prop := match d3, d2 with FX, DX | FY, DY => True | _, _ => False end.

(** the strategies as operations on the state of a cell: order parameters (and temperature, or composition) *)
Definition scalar_op3 (s : strategy) (depth : Z) : operation3 (Z -> R) := fun b st old => scalar_setDiffusion3 s b depth st old.
Definition T_op3 (s : strategy) (ng depth : Z) (x : ph) : operation3 ((Z -> R) * R) := fun b st old =>
  option_map (fun c => get33 c x)
    (T_setDiffusion3 s b ng depth (fun i j k => fst (st i j k)) (fun i j k => snd (st i j k)) (mk_coefs33 old old old)).
Definition wang_op3 (dl ds dla daa : R) (t : interp_type) (a : ascii) (depth : Z) : operation3 ((Z -> R) * R) := fun b st old =>
  wang_setDiffusion3 dl ds dla daa t a b depth (fun i j k => fst (st i j k)) (fun i j k => snd (st i j k)) old.
Definition kks_op3 (dl ql ds qs gasR : R) (it at_ : ascii) : operation3 (R * R) := fun b st old =>
  pfmdiffusion3 b (fun i j k => fst (st i j k)) (fun i j k => snd (st i j k)) dl ql ds qs gasR it at_ old.
Definition beckermann_op3 (dl ds : R) (it at_ : ascii) : operation3 (R * R) := fun b st old =>
  diffusion_beckermann3 b (fun i j k => fst (st i j k)) (fun i j k => snd (st i j k)) dl ds it at_ old.

(** what the cells inside the patch give to a face *)
Definition from_inside3 (b : box3) (f : Z -> Z -> Z -> R) (d : dir3) (i j k : Z) : R :=
  let cell i j k := if ((xl b <=? i) && (i <=? xu b) && ((yl b <=? j) && (j <=? yu b)) && ((zl b <=? k) && (k <=? zu b)))%Z then f i j k else 0 in
  mean (low3 cell d i j k) (cell i j k).
