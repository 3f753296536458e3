(** Vocabulary of the properties of the orientation dynamics in three dimensions. *)
From Coq Require Import Reals ZArith List Ascii.
From Verif Require Import Grid_Model Grid_Spec Trap3_Model.
From Verif Require QuatFlow_Spec.
From Verif Require Import QuatFlow3_Model.
Import ListNotations.
Open Scope R_scope.

Notation dotv := QuatFlow_Spec.dotv.
Notation multi := QuatFlow_Spec.multi.
Notation same := QuatFlow_Spec.same.
Notation image := QuatFlow_Spec.image.
Notation rotation_index := QuatFlow_Spec.rotation_index.
Notation equivalent := QuatFlow_Spec.equivalent.
Notation closest_unique := QuatFlow_Spec.closest_unique.

(** the three directions; the part of a triple belonging to one; mesh spacing along it *)
Inductive axis := AX | AY | AZ.
Definition pick {A : Type} (a : axis) (t : A * A * A) : A :=
  match a with AX => fst (fst t) | AY => snd (fst t) | AZ => snd t end.
Definition spacing (b : box3) (a : axis) : R := match a with AX => hx b | AY => hy b | AZ => hz b end.
(** value in the cell before and after the cell (i,j,k) along the axis *)
Definition before {B : Type} (a : axis) (f : Z -> Z -> Z -> B) (i j k : Z) : B :=
  match a with AX => f (i - 1)%Z j k | AY => f i (j - 1)%Z k | AZ => f i j (k - 1)%Z end.
Definition after {B : Type} (a : axis) (f : Z -> Z -> Z -> B) (i j k : Z) : B :=
  match a with AX => f (i + 1)%Z j k | AY => f i (j + 1)%Z k | AZ => f i j (k + 1)%Z end.

(** cells of the patch; with one layer of ghost cells; sides (i,j,k) between a cell and the one before it; those of the
    cells of the patch itself *)
Definition in_cells (b : box3) (i j k : Z) : Prop := in_box3 (xl b) (xu b) (yl b) (yu b) (zl b) (zu b) i j k.
Definition in_ghosts (b : box3) (i j k : Z) : Prop :=
  in_box3 (xl b - 1) (xu b + 1) (yl b - 1) (yu b + 1) (zl b - 1) (zu b + 1) i j k.
Definition on_side (b : box3) (a : axis) (i j k : Z) : Prop :=
  match a with
  | AX => in_box3 (xl b) (xu b + 1) (yl b - 1) (yu b + 1) (zl b - 1) (zu b + 1) i j k
  | AY => in_box3 (xl b - 1) (xu b + 1) (yl b) (yu b + 1) (zl b - 1) (zu b + 1) i j k
  | AZ => in_box3 (xl b - 1) (xu b + 1) (yl b - 1) (yu b + 1) (zl b) (zu b + 1) i j k
  end.
Definition on_face (b : box3) (a : axis) (i j k : Z) : Prop :=
  match a with
  | AX => in_box3 (xl b) (xu b + 1) (yl b) (yu b) (zl b) (zu b) i j k
  | AY => in_box3 (xl b) (xu b) (yl b) (yu b + 1) (zl b) (zu b) i j k
  | AZ => in_box3 (xl b) (xu b) (yl b) (yu b) (zl b) (zu b + 1) i j k
  end.

Definition unit_field (b : box3) (d : Z) (q : arr4) : Prop := forall i j k, in_ghosts b i j k -> dotv d (q i j k) (q i j k) = 1.
Definition rotations_ok (b : box3) (d : Z) (r : iarr3x3) : Prop :=
  forall a i j k, on_side b a i j k -> rotation_index d (pick a r i j k).
(** q' is q with every cell replaced by a symmetric image, S telling which one *)
Definition regauged (b : box3) (d : Z) (S : iarr3) (q q' : arr4) : Prop :=
  forall i j k, in_ghosts b i j k -> rotation_index d (S i j k) /\ same d (q' i j k) (image d (S i j k) (q i j k)).
(** no two different images of a neighbour are equally close to the orientation of the cell *)
Definition no_ties (b : box3) (d : Z) (q : arr4) : Prop :=
  forall a i j k, on_side b a i j k -> closest_unique d (q i j k) (before a q i j k).
(** all six neighbours of a cell are equivalent to it *)
Definition equivalent_around (d : Z) (q : arr4) (i j k : Z) : Prop :=
  forall a, equivalent d (q i j k) (before a q i j k) /\ equivalent d (after a q i j k) (q i j k).

(** squared difference across a side, the orientation before the side replaced by an image given by r, or taken as it is *)
Definition image_gap (d : Z) (r : iarr3x3) (q : arr4) (a : axis) (i j k : Z) : R :=
  let v := fun m => q i j k m - image d (pick a r i j k) (before a q i j k) m in dotv d v v.
Definition plain_gap (d : Z) (q : arr4) (a : axis) (i j k : Z) : R :=
  let v := fun m => q i j k m - before a q i j k m in dotv d v v.
(** interface energy with the face coefficients held fixed *)
Definition face_energy (b : box3) (fc : arr3x3) (gap : axis -> Z -> Z -> Z -> R) : R :=
  sum_box3 (xl b) (xu b + 1) (yl b) (yu b) (zl b) (zu b) (fun i j k => - pick AX fc i j k / 2 * (gap AX i j k / (hx b * hx b)))
  + sum_box3 (xl b) (xu b) (yl b) (yu b + 1) (zl b) (zu b) (fun i j k => - pick AY fc i j k / 2 * (gap AY i j k / (hy b * hy b)))
  + sum_box3 (xl b) (xu b) (yl b) (yu b) (zl b) (zu b + 1) (fun i j k => - pick AZ fc i j k / 2 * (gap AZ i j k / (hz b * hz b))).
(** q moved by t along r inside the patch, ghost cells unchanged *)
Definition moved (b : box3) (q r : arr4) (t : R) : arr4 := fun i j k m =>
  if ((xl b <=? i) && (i <=? xu b) && (yl b <=? j) && (j <=? yu b) && (zl b <=? k) && (k <=? zu b))%bool%Z
  then q i j k m + t * r i j k m else q i j k m.
(** squared norm of a gradient *)
Definition norm3 (d : Z) (g : arr4x3) (i j k : Z) : R :=
  dotv d (pick AX g i j k) (pick AX g i j k) + dotv d (pick AY g i j k) (pick AY g i j k) + dotv d (pick AZ g i j k) (pick AZ g i j k).
(** the field does not change along z *)
Definition flat (a : arr3) : arr4 := fun i j _ m => a i j m.
(** axes renamed in cycle: the new x is the old y *)
Definition turn4 (a : arr4) : arr4 := fun i j k m => a k i j m.
Definition turn3 {B : Type} (a : Z -> Z -> Z -> B) : Z -> Z -> Z -> B := fun i j k => a k i j.
Definition turn_box (b : box3) : box3 := mk_box3 (yl b) (yu b) (zl b) (zu b) (xl b) (xu b) (hy b) (hz b) (hx b).
Definition turn_triple {B : Type} (t : (Z -> Z -> Z -> B) * (Z -> Z -> Z -> B) * (Z -> Z -> Z -> B)) :=
  (turn3 (pick AY t), turn3 (pick AZ t), turn3 (pick AX t)).
(** the patch in two dimensions that is a section of the box; arrays that do not depend on z *)
Definition slab_patch (b : box3) (d : Z) : QuatFlow_Model.patch := QuatFlow_Model.mk_patch (xl b) (xu b) (yl b) (yu b) d (hx b) (hy b).
Definition flat2 {B : Type} (a : Z -> Z -> B) : Z -> Z -> Z -> B := fun i j _ => a i j.
(** options of the face coefficients: gradient floor, interpolations, average *)
Definition coef_ok (ft i1 i2 avg : ascii) : Prop := In ft ["m"; "t"; "s"]%char /\ In i1 ["p"; "h"; "l"; "m"; "q"; "w"; "3"; "c"]%char /\
  In i2 ["p"; "h"; "l"; "m"; "q"; "w"; "3"; "c"]%char /\ In avg ["a"; "h"]%char.
