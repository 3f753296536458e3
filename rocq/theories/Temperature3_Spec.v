(** What users expect of prescribed temperatures and heat capacities in three dimensions. *)
From Coq Require Import Reals ZArith List Bool.
From Verif Require Import Grid_Model Grid_Spec Trap3_Model PhaseFlow_Model TempHistory_Model Temperature_Model Temperature_Spec Temperature3_Model.
Import ListNotations.
Open Scope R_scope.

(** cells of the patch and of ng layers around it *)
Definition in_grown3 (b : box3) (ng i j k : Z) : Prop :=
  in_box3 (xl b - ng) (xu b + ng) (yl b - ng) (yu b + ng) (zl b - ng) (zu b + ng) i j k.
Definition in_patch3 (b : box3) (i j k : Z) : Prop := in_box3 (xl b) (xu b) (yl b) (yu b) (zl b) (zu b) i j k.
(** lower corner of a patch of a grid with a given origin *)
Definition patch_corner3 (origin : Z -> R) (b : box3) (d : Z) : R :=
  if (d =? 0)%Z then origin 0%Z + hx b * IZR (xl b) else if (d =? 1)%Z then origin 1%Z + hy b * IZR (yl b) else origin 2%Z + hz b * IZR (zl b).

Definition gauss_profile3 (base peak dev d0 d1 d2 : R) : R := base + (peak - base) * exp (- ((d0 ^ 2 + d1 ^ 2 + d2 ^ 2) / (2 * dev ^ 2))).
(** the distances of the cell (i, j, k) from the center at that time, along the axes *)
Definition distances3 (g : gauss_temp) (origin : Z -> R) (b : box3) (time : R) (i j k : Z) (d0 d1 d2 : R) : Prop :=
  gauss_distance g time 0 (center_at (origin 0%Z) (hx b) i) d0 /\ gauss_distance g time 1 (center_at (origin 1%Z) (hy b) j) d1 /\
  gauss_distance g time 2 (center_at (origin 2%Z) (hz b) k) d2.
(** the field of the temperature is the profile of that time in ng layers around the patch *)
Definition gauss_field3 (g : gauss_temp) (origin : Z -> R) (b : box3) (ng : Z) (time : R) (f : arr3) : Prop :=
  forall i j k d0 d1 d2, in_grown3 b ng i j k -> distances3 g origin b time i j k d0 d1 d2 ->
    f i j k = gauss_profile3 (g_base g) (ramp (g_initial g) (g_rate g) (g_target g) time) (g_dev g) d0 d1 d2.
Definition near_patch3 (g : gauss_temp) (origin : Z -> R) (b : box3) (ng : Z) : Prop :=
  forall i j k, in_grown3 b ng i j k -> near_domain g 0 (center_at (origin 0%Z) (hx b) i) /\ near_domain g 1 (center_at (origin 1%Z) (hy b) j) /\
    near_domain g 2 (center_at (origin 2%Z) (hz b) k).

(** calls of setCurrentTemperature in turn *)
Fixpoint gauss_calls3 (fuel : nat) (g : gauss_temp) (b : box3) (xlo : Z -> R) (ng : Z) (times : list R) (f : temps3) : option temps3 :=
  match times with
  | [] => Some f
  | t :: r => match set_gauss3 fuel g b xlo ng t f with Some f' => gauss_calls3 fuel g b xlo ng r f' | None => None end
  end.

(** steady conduction: the discrete Laplacian balances the source (heat per volume and time) in every cell of the patch *)
Definition lap7 (b : box3) (f : arr3) (i j k : Z) : R :=
  (f (i + 1)%Z j k - 2 * f i j k + f (i - 1)%Z j k) / hx b ^ 2 + (f i (j + 1)%Z k - 2 * f i j k + f i (j - 1)%Z k) / hy b ^ 2 +
  (f i j (k + 1)%Z - 2 * f i j k + f i j (k - 1)%Z) / hz b ^ 2.
Definition steady3 (b : box3) (D : R) (cp temp source : arr3) : Prop :=
  forall i j k, in_patch3 b i j k -> cp i j k * D * lap7 b temp i j k + source i j k = 0.
(** the linear system M div (D grad T) + C T = rhs handed to the solver (TemperatureFACSolver.cc:25-42) *)
Definition solves3 (b : box3) (m c d : R) (temp rhs : arr3) : Prop :=
  forall i j k, in_patch3 b i j k -> m * (d * lap7 b temp i j k) + c * temp i j k = rhs i j k.
