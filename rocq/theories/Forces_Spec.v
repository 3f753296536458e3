(** Vocabulary of the rigid-body force properties. *)
From Coq Require Import Reals ZArith List.
From Verif Require Import Grid_Model Grid_Spec Forces_Model.
Import ListNotations.
Open Scope R_scope.

(** quintic step *)
Definition smooth_step (x : R) : R :=
  if Rle_dec x 0 then 0 else if Rle_dec 1 x then 1 else x ^ 3 * (10 - 15 * x + 6 * x ^ 2).
(** central differences *)
Definition grad2 (dx0 dx1 : R) (f : arr2) (d i j : Z) : R :=
  if (d =? 0)%Z then (f (i + 1)%Z j - f (i - 1)%Z j) / (2 * dx0) else (f i (j + 1)%Z - f i (j - 1)%Z) / (2 * dx1).
Definition grad3 (dx0 dx1 dx2 : R) (f : arr3) (d i j k : Z) : R :=
  if (d =? 0)%Z then (f (i + 1)%Z j k - f (i - 1)%Z j k) / (2 * dx0)
  else if (d =? 1)%Z then (f i (j + 1)%Z k - f i (j - 1)%Z k) / (2 * dx1)
  else (f i j (k + 1)%Z - f i j (k - 1)%Z) / (2 * dx2).

(** force on grain a from grain b (grains counted from 1), direction d: integral over a patch of
    (min(c,1) - rho_e) * step(1/2 + 10(phi_a phi_b - threshold)) * grad(phi_a - phi_b) *)
Definition wang_pair2 (nc : Z) (rhoe cth : R) (p : patch2) (a b d : Z) : R :=
  sum_box (plo0 p) (pup0 p) (plo1 p) (pup1 p) (fun i j =>
    (Rmin (sumZ 1 nc (fun c => pconc p i j c)) 1 - rhoe) *
    smooth_step (1 / 2 + 10 * (pphi p i j a * pphi p i j b - cth)) *
    (grad2 (pdx0 p) (pdx1 p) (fun i j => pphi p i j a) d i j - grad2 (pdx0 p) (pdx1 p) (fun i j => pphi p i j b) d i j) *
    pweight p i j).
Definition wang_pair3 (nc : Z) (rhoe cth : R) (p : patch3) (a b d : Z) : R :=
  sum_box3 (qlo0 p) (qup0 p) (qlo1 p) (qup1 p) (qlo2 p) (qup2 p) (fun i j k =>
    (Rmin (sumZ 1 nc (fun c => qconc p i j k c)) 1 - rhoe) *
    smooth_step (1 / 2 + 10 * (qphi p i j k a * qphi p i j k b - cth)) *
    (grad3 (qdx0 p) (qdx1 p) (qdx2 p) (fun i j k => qphi p i j k a) d i j k
     - grad3 (qdx0 p) (qdx1 p) (qdx2 p) (fun i j k => qphi p i j k b) d i j k) *
    qweight p i j k).
(** integral of gamma*m*phi_a^2*phi_b*grad(phi_b) *)
Definition phiphi_pair2 (dgamma m : R) (p : patch2) (a b d : Z) : R :=
  sum_box (plo0 p) (pup0 p) (plo1 p) (pup1 p) (fun i j =>
    dgamma * m * pphi p i j a ^ 2 * pphi p i j b * grad2 (pdx0 p) (pdx1 p) (fun i j => pphi p i j b) d i j * pweight p i j).
Definition phiphi_pair3 (dgamma m : R) (p : patch3) (a b d : Z) : R :=
  sum_box3 (qlo0 p) (qup0 p) (qlo1 p) (qup1 p) (qlo2 p) (qup2 p) (fun i j k =>
    dgamma * m * qphi p i j k a ^ 2 * qphi p i j k b *
    grad3 (qdx0 p) (qdx1 p) (qdx2 p) (fun i j k => qphi p i j k b) d i j k * qweight p i j k).

Definition sum_over {A : Type} (f : A -> R) (l : list A) : R := fold_right (fun a s => f a + s) 0 l.

(** the same patch with other weights *)
Definition reweight3 (p : patch3) (w : arr3) : patch3 :=
  Patch3 (qlo0 p) (qup0 p) (qlo1 p) (qup1 p) (qlo2 p) (qup2 p) (qdx0 p) (qdx1 p) (qdx2 p) (qphi p) (qconc p) w.
Definition unweighted (p : patch3) : patch3 := reweight3 p (fun _ _ _ => 1).
