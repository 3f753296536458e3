(** Vocabulary for the composition fluxes in three dimensions. *)
From Coq Require Import Reals ZArith List.
From Verif Require Import Grid_Model Grid_Spec Transport_Spec Trap3_Model.
Open Scope R_scope.

(** faces of the patch *)
Definition on_x (b : box3) (i j k : Z) : Prop := in_box3 (xl b) (xu b + 1) (yl b) (yu b) (zl b) (zu b) i j k.
Definition on_y (b : box3) (i j k : Z) : Prop := in_box3 (xl b) (xu b) (yl b) (yu b + 1) (zl b) (zu b) i j k.
Definition on_z (b : box3) (i j k : Z) : Prop := in_box3 (xl b) (xu b) (yl b) (yu b) (zl b) (zu b + 1) i j k.
Definition flux0 {A} (f : A * A * A) : A := fst (fst f).
Definition flux1 {A} (f : A * A * A) : A := snd (fst f).
Definition flux2 {A} (f : A * A * A) : A := snd f.

(** the axes renamed: the new x is the old y, the new y the old z, the new z the old x *)
Definition turn (a : arr3) : arr3 := fun i j k => a k i j.
Definition turn4 (a : arr4) : arr4 := fun i j k c => a k i j c.
Definition turn_box (b : box3) : box3 := mk_box3 (yl b) (yu b) (zl b) (zu b) (xl b) (xu b) (hy b) (hz b) (hx b).
Definition turn_faces (f : arr3x3) : arr3x3 := (turn (flux1 f), turn (flux2 f), turn (flux0 f)).
Definition turn_faces4 (f : arr4x3) : arr4x3 := (turn4 (flux1 f), turn4 (flux2 f), turn4 (flux0 f)).
(** x and y exchanged *)
Definition swap (a : arr3) : arr3 := fun i j k => a j i k.
Definition swap4 (a : arr4) : arr4 := fun i j k c => a j i k c.
Definition swap_box (b : box3) : box3 := mk_box3 (yl b) (yu b) (xl b) (xu b) (zl b) (zu b) (hy b) (hx b) (hz b).
Definition swap_faces (f : arr3x3) : arr3x3 := (swap (flux1 f), swap (flux0 f), swap (flux2 f)).
Definition swap_faces4 (f : arr4x3) : arr4x3 := (swap4 (flux1 f), swap4 (flux0 f), swap4 (flux2 f)).
(** equal at every index *)
Definition same3 (f g : arr3x3) : Prop :=
  forall i j k, flux0 f i j k = flux0 g i j k /\ flux1 f i j k = flux1 g i j k /\ flux2 f i j k = flux2 g i j k.
Definition same4 (f g : arr4x3) : Prop :=
  forall i j k c, flux0 f i j k c = flux0 g i j k c /\ flux1 f i j k c = flux1 g i j k c /\ flux2 f i j k c = flux2 g i j k c.

(** fields that do not vary along z *)
Definition flat (a : arr2) : arr3 := fun i j _ => a i j.
Definition flat4 (a : arr3) : arr4 := fun i j _ c => a i j c.
(** a field with one component, a field of one variable along each axis *)
Definition one_part (a : arr3) : arr4 := fun i j k _ => a i j k.
Definition along_x (u : Z -> Z -> R) : arr4 := fun i _ _ p => u i p.
Definition along_y (u : Z -> Z -> R) : arr4 := fun _ j _ p => u j p.
Definition along_z (u : Z -> Z -> R) : arr4 := fun _ _ k p => u k p.
Definition only_x (u : Z -> R) : arr3 := fun i _ _ => u i.
Definition only_y (u : Z -> R) : arr3 := fun _ j _ => u j.
Definition only_z (u : Z -> R) : arr3 := fun _ _ k => u k.

(** discrete Laplacian in three dimensions *)
Definition laplace3 (b : box3) (f : arr3) (i j k : Z) : R :=
  (f (i + 1)%Z j k - 2 * f i j k + f (i - 1)%Z j k) / hx b ^ 2
  + (f i (j + 1)%Z k - 2 * f i j k + f i (j - 1)%Z k) / hy b ^ 2
  + (f i j (k + 1)%Z - 2 * f i j k + f i j (k - 1)%Z) / hz b ^ 2.
(** every face of the patch gains the face mobility times the difference of [mu] over the spacing *)
Definition gains (b : box3) (M0 M1 M2 mu : arr3) (s s' : arr3x3) : Prop :=
  forall i j k,
  (on_x b i j k -> flux0 s' i j k = flux0 s i j k + M0 i j k * ((mu i j k - mu (i - 1)%Z j k) / hx b)) /\
  (on_y b i j k -> flux1 s' i j k = flux1 s i j k + M1 i j k * ((mu i j k - mu i (j - 1)%Z k) / hy b)) /\
  (on_z b i j k -> flux2 s' i j k = flux2 s i j k + M2 i j k * ((mu i j k - mu i j (k - 1)%Z) / hz b)).
Definition mean (a b : R) : R := (a + b) / 2.
(** the box the patch shares its face y = m with from below, and the box above it *)
Definition below (b : box3) (m : Z) : box3 := mk_box3 (xl b) (xu b) (yl b) m (zl b) (zu b) (hx b) (hy b) (hz b).
Definition above (b : box3) (m : Z) : box3 := mk_box3 (xl b) (xu b) (m + 1)%Z (yu b) (zl b) (zu b) (hx b) (hy b) (hz b).
