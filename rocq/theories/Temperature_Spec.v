(** What users expect of prescribed temperatures and heat capacities. *)
From Coq Require Import Reals ZArith List Bool.
From Verif Require Import Grid_Model Grid_Spec PhaseFlow_Model PhaseFlow_Spec TempHistory_Model TempHistory_Spec Temperature_Model.
Import ListNotations.
Open Scope R_scope.

(** cells of the patch and of ng layers around it *)
Definition in_grown (b : pbox) (ng : Z) (i j : Z) : Prop := in_box (lo0 b - ng) (hi0 b + ng) (lo1 b - ng) (hi1 b + ng) i j.
(** center of cell i of a grid with a given origin, and the lower corner of a patch of that grid *)
Definition center_at (origin h : R) (i : Z) : R := origin + h * (IZR i + 1 / 2).
Definition patch_corner (origin : Z -> R) (b : pbox) (d : Z) : R :=
  if (d =? 0)%Z then origin 0%Z + h1 b * IZR (lo0 b) else origin 1%Z + h2 b * IZR (lo1 b).

(** heating or cooling with a given rate until the target is reached *)
Definition ramp (start rate target time : R) : R :=
  if Rlt_dec rate 0 then Rmax target (start + rate * time) else if Rlt_dec 0 rate then Rmin target (start + rate * time) else start.
(** the target lies ahead *)
Definition ahead (start rate target : R) : Prop := (rate < 0 -> target <= start) /\ (0 < rate -> start <= target).

(** smallest distance of a point to the images of another under shifts by multiples of a length *)
Definition nearest_image (ll y d : R) : Prop := (exists k : Z, d = Rabs (y + IZR k * ll)) /\ forall k : Z, d <= Rabs (y + IZR k * ll).
Definition gauss_profile (base peak dev d0 d1 : R) : R := base + (peak - base) * exp (- ((d0 ^ 2 + d1 ^ 2) / (2 * dev ^ 2))).
(** distance of coordinate x of direction d from the center at that time *)
Definition gauss_distance (g : gauss_temp) (time : R) (d : Z) (x dist : R) : Prop :=
  let y := x - (g_center0 g d + time * g_velocity g d) in
  if g_periodic g d then nearest_image (g_up g d - g_low g d) y dist else dist = Rabs y.
(** a coordinate not farther than half a period from the domain *)
Definition near_domain (g : gauss_temp) (d : Z) (x : R) : Prop :=
  g_periodic g d = true -> g_low g d - (g_up g d - g_low g d) / 2 <= x <= g_up g d + (g_up g d - g_low g d) / 2.
Definition periods_ok (g : gauss_temp) : Prop := forall d, g_periodic g d = true -> g_low g d < g_up g d.
(** the field of the temperature is the profile of that time in ng layers around the patch *)
Definition gauss_field (g : gauss_temp) (origin : Z -> R) (b : pbox) (ng : Z) (time : R) (f : arr2) : Prop :=
  forall i j d0 d1, in_grown b ng i j ->
    gauss_distance g time 0 (center_at (origin 0%Z) (h1 b) i) d0 -> gauss_distance g time 1 (center_at (origin 1%Z) (h2 b) j) d1 ->
    f i j = gauss_profile (g_base g) (ramp (g_initial g) (g_rate g) (g_target g) time) (g_dev g) d0 d1.
Definition near_patch (g : gauss_temp) (origin : Z -> R) (b : pbox) (ng : Z) : Prop :=
  forall i j, in_grown b ng i j -> near_domain g 0 (center_at (origin 0%Z) (h1 b) i) /\ near_domain g 1 (center_at (origin 1%Z) (h2 b) j).

(** calls of setCurrentTemperature in turn *)
Definition scalar_calls (s : scalar_temp) (b : pbox) (ng : Z) (times : list R) (f : temps) : temps :=
  fold_left (fun f t => set_scalar s b ng t f) times f.
Fixpoint gauss_calls (fuel : nat) (g : gauss_temp) (b : pbox) (xlo : Z -> R) (ng : Z) (times : list R) (f : temps) : option temps :=
  match times with
  | [] => Some f
  | t :: r => match set_gauss fuel g b xlo ng t f with Some f' => gauss_calls fuel g b xlo ng r f' | None => None end
  end.

(** distance travelled by the frame: velocity v0 from time t0 on, changed at given times *)
Fixpoint travelled (t0 v0 : R) (changes : list (R * R)) (t : R) : R :=
  match changes with
  | [] => v0 * (t - t0)
  | (t1, v1) :: r => v0 * (t1 - t0) + travelled t1 v1 r t
  end.
Definition with_changes (g : grad_temp) (changes : list (R * R)) : grad_temp :=
  fold_left (fun g tv => resetVelocity g (fst tv) (snd tv)) changes g.

(** largest and smallest value on the cells of a patch *)
Definition is_largest (b : pbox) (f : arr2) (m : R) : Prop := (exists i j, in_cells b i j /\ f i j = m) /\ forall i j, in_cells b i j -> f i j <= m.
Definition is_smallest (b : pbox) (f : arr2) (m : R) : Prop := (exists i j, in_cells b i j /\ f i j = m) /\ forall i j, in_cells b i j -> m <= f i j.

(** heat capacity of a species at temperature T *)
Definition capacity (sp : species) (T : R) : R := fold_right (fun pc v => snd pc * powerRZ T (fst pc) + v) 0 sp.
Definition keys_ok (sp : species) : Prop := NoDup (map fst sp).
(** mixture of nc compositions and the rest *)
Definition mixture (nc : Z) (c : Z -> R) (value : Z -> R) : R :=
  sumZ 1 nc (fun m => c m * value m) + (1 - sumZ 1 nc c) * value (nc + 1)%Z.
Definition in_simplex (nc : Z) (c : Z -> R) : Prop := (forall m, (1 <= m <= nc)%Z -> 0 <= c m) /\ sumZ 1 nc c <= 1.
Definition species_of (cps : list species) (m : Z) : species := nth (Z.to_nat (m - 1)) cps [].

(** steady conduction: the discrete Laplacian balances the source (heat per volume and time) in every cell of the patch *)
Definition lap5 (b : pbox) (f : arr2) (i j : Z) : R :=
  (f (i + 1)%Z j - 2 * f i j + f (i - 1)%Z j) / h1 b ^ 2 + (f i (j + 1)%Z - 2 * f i j + f i (j - 1)%Z) / h2 b ^ 2.
Definition steady (b : pbox) (D : R) (cp temp source : arr2) : Prop :=
  forall i j, in_cells b i j -> cp i j * D * lap5 b temp i j + source i j = 0.
(** the linear system M div (D grad T) + C T = rhs handed to the solver (TemperatureFACSolver.cc:25-42) *)
Definition solves (b : pbox) (m c d : R) (temp rhs : arr2) : Prop :=
  forall i j, in_cells b i j -> m * (d * lap5 b temp i j) + c * temp i j = rhs i j.
(** cells that share a face with a cell of the patch but are not in it *)
Definition beside (b : pbox) (i j : Z) : Prop :=
  ~ in_cells b i j /\ (in_cells b (i + 1) j \/ in_cells b (i - 1) j \/ in_cells b i (j + 1) \/ in_cells b i (j - 1)).
