(** What is claimed of the diffusion coefficients computed by C++ loops. *)
From Coq Require Import Reals ZArith List Bool Ascii.
From Verif Require Import Grid_Model Grid_Spec Trap3_Model Coupl_Model Diff3_Spec Coupl_Spec PtrDiff_Model.
Import ListNotations.
Open Scope R_scope.

Definition dir_of (d : dir3) (f : sides) : fields := match d with FX => fst (fst f) | FY => snd (fst f) | FZ => snd f end.
(** entry e of the matrix of a side *)
Definition entry (nd3 : bool) (d : dir3) (g : gbox) (f : sides) (e i j k : Z) : R := dir_of d f e (side_place nd3 d g i j k).
(** the mean over the two cells of a side *)
Definition side_mean (nd3 : bool) (g : gbox) (p : ptr) (d : dir3) (i j k : Z) : R :=
  mean (low3 (cell_at nd3 g p) d i j k) (cell_at nd3 g p i j k).
(** the mean compositions; [n] of them *)
Definition side_comp (nd3 : bool) (g : gbox) (n : Z) (c : fields) (d : dir3) (i j k : Z) : Z -> R :=
  fun ic => if ((0 <=? ic) && (ic <? n))%Z%bool then side_mean nd3 g (c ic) d i j k else 0.
(** places of a piece of memory that are not a side of the patch *)
Definition no_side (nd3 : bool) (b : box3) (d : dir3) (g : gbox) (m : Z) : Prop :=
  forall i j k, on_side nd3 b d i j k -> m <> side_place nd3 d g i j k.
Definition kept (nd3 : bool) (b : box3) (g : gbox) (n2 : Z) (f out : sides) : Prop :=
  forall d e m, (~ (0 <= e < n2)%Z \/ no_side nd3 b d g m) -> dir_of d f e m = dir_of d out e m.
Definition sound (c : R) : Prop := - (5 / 100) <= c <= 105 / 100.
Definition solid_part (nd3 : bool) (gp : gbox) (phi : ptr) (it at_ : ascii) (d : dir3) (i j k : Z) : R :=
  weight it (averaged at_ (low3 (cell_at nd3 gp phi) d i j k) (cell_at nd3 gp phi i j k)).
(** the flux of a spinodal alloy across a side: gradient of the composition, and of the order parameter that separates the
    two compositions a and b *)
Definition spinodal_law (h coeff kappa : R) (c a b e : R * R) : R :=
  (coeff * (fst c - snd c) - kappa * (mean (snd a) (fst a) - mean (snd b) (fst b)) * (fst e - snd e)) / h.
(** the values of the two cells of a side: upper, lower *)
Definition both (nd3 : bool) (g : gbox) (p : ptr) (d : dir3) (i j k : Z) : R * R := (cell_at nd3 g p i j k, low3 (cell_at nd3 g p) d i j k).
Definition flux2_at (f : arr2 * arr2) (d : dir3) (i j : Z) : R := match d with FY => snd f i j | _ => fst f i j end.
