(** Vocabulary for the three-phase model. *)
From Coq Require Import Reals ZArith List.
From Verif Require Import Grid_Model Grid_Spec Tilting_Model Tilting_Spec Transport_Spec.
Open Scope R_scope.

(** component k of v, with the mean of the three components removed *)
Definition mean_free (v : Z -> R) (k : Z) : R := v k - (v 1%Z + v 2%Z + v 3%Z) / 3.

(** local energy of the phase fractions: wells plus the tilted energies of the three phases *)
Definition phase_energy (T : tilting) (well_scale wl wa wb p0 p1 p2 : R) : R :=
  well_scale * triple_well p0 p1 p2 + (g0 T p0 p1 p2 * wl + g0 T p1 p0 p2 * wa + g0 T p2 p0 p1 * wb).

(** divergence in 3D *)
Definition diverg3 (dx0 dx1 dx2 : R) (f0 f1 f2 : arr3) (i j k : Z) : R :=
  (f0 (i + 1)%Z j k - f0 i j k) / dx0 + (f1 i (j + 1)%Z k - f1 i j k) / dx1 + (f2 i j (k + 1)%Z - f2 i j k) / dx2.

(** [c] added to the values [v] of depth n lands on sum one, moving all components by
    the same amount (shortest way), and not at all if the sum is one already *)
Definition projects_to_one (n : Z) (v c : Z -> R) : Prop :=
  sumZ 1 n (fun m => v m + c m) = 1 /\
  (forall m m', (1 <= m <= n)%Z -> (1 <= m' <= n)%Z -> c m = c m') /\
  (sumZ 1 n v = 1 -> forall m, (1 <= m <= n)%Z -> c m = 0).
(** [e'] is [e] with its component along (1,..,1) removed *)
Definition projects_to_zero (n : Z) (e e' : Z -> R) : Prop :=
  sumZ 1 n e' = 0 /\
  (forall m m', (1 <= m <= n)%Z -> (1 <= m' <= n)%Z -> e' m - e m = e' m' - e m') /\
  (sumZ 1 n e = 0 -> forall m, (1 <= m <= n)%Z -> e' m = e m).
