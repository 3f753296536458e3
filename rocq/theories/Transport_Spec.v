(** Vocabulary of the composition transport properties. *)
From Coq Require Import Reals ZArith List.
From Verif Require Import Grid_Model Grid_Spec.
Open Scope R_scope.

(** double-well energy density of the Cahn-Hilliard model *)
Definition ch_energy (ca cb ws c : R) : R := ws * (c - ca) ^ 2 * (cb - c) ^ 2.

(** sintering energy density (Wang 2006) of composition c and order parameters phi 1..n *)
Definition sq_sum (n : Z) (phi : Z -> R) : R := sumZ 1 n (fun k => phi k ^ 2).
Definition cu_sum (n : Z) (phi : Z -> R) : R := sumZ 1 n (fun k => phi k ^ 3).
Definition sintering_energy (A B : R) (n : Z) (phi : Z -> R) (c : R) : R :=
  A * c ^ 2 * (1 - c) ^ 2 +
  B * (c ^ 2 + 6 * (1 - c) * sq_sum n phi - 4 * (2 - c) * cu_sum n phi + 3 * sq_sum n phi ^ 2).

(** multi-order-parameter energy density (Moelans 2011) *)
Definition pair_sum (n : Z) (phi : Z -> R) : R :=
  sumZ 1 n (fun p => sumZ 1 n (fun q => if (p =? q)%Z then 0 else phi p ^ 2 * phi q ^ 2)).
Definition moelans_energy (m gamma : R) (n : Z) (phi : Z -> R) : R :=
  m * (sumZ 1 n (fun p => phi p ^ 4 / 4 - phi p ^ 2 / 2) + gamma * (/ 2 * pair_sum n phi) + 1 / 4).

Definition setZ (phi : Z -> R) (p : Z) (x : R) : Z -> R := fun q => if (q =? p)%Z then x else phi q.

(** discrete Laplacian *)
Definition laplace (dx0 dx1 : R) (f : arr2) (i j : Z) : R :=
  (f (i + 1)%Z j - 2 * f i j + f (i - 1)%Z j) / dx0 ^ 2 + (f i (j + 1)%Z - 2 * f i j + f i (j - 1)%Z) / dx1 ^ 2.
(** discrete divergence of face fluxes *)
Definition diverg (dx0 dx1 : R) (f0 f1 : arr2) (i j : Z) : R :=
  (f0 (i + 1)%Z j - f0 i j) / dx0 + (f1 i (j + 1)%Z - f1 i j) / dx1.

Definition periodic0 (n : Z) (f : arr2) : Prop := forall i j, f (i + n)%Z j = f i j.
Definition periodic1 (n : Z) (f : arr2) : Prop := forall i j, f i (j + n)%Z = f i j.

(** every face flux of the patch is increased by the face mobility times the face gradient of the potential [mu] *)
Definition face_flux (lo0 hi0 lo1 hi1 : Z) (dx0 dx1 : R) (M0 M1 : arr2) (mu : arr2) (s s' : arr2 * arr2) : Prop :=
  (forall i j, in_box lo0 (hi0 + 1) lo1 hi1 i j -> fst s' i j = fst s i j + M0 i j * ((mu i j - mu (i - 1)%Z j) / dx0)) /\
  (forall i j, in_box lo0 hi0 lo1 (hi1 + 1) i j -> snd s' i j = snd s i j + M1 i j * ((mu i j - mu i (j - 1)%Z) / dx1)).

