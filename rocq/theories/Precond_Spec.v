(** Words for the statements on the preconditioner. *)
From Coq Require Import Reals ZArith List Bool Ascii.
From Verif Require Import Grid_Model Functions_Model PhaseFlow_Model Elliptic_Model Elliptic_Spec.
Open Scope R_scope.

Definition value (o : option arr2) (i j : Z) : R := match o with Some a => a i j | None => 0 end.
Definition along (a v : arr2) (t : R) : arr2 := fun i j => a i j + t * v i j.
(** the patch seen by the right-hand side and by the solver *)
Definition same_patch (lv : level) (p : patch) (b : pbox) : Prop :=
  lo0 b = ilo p /\ hi0 b = ihi p /\ lo1 b = jlo p /\ hi1 b = jhi p /\ h1 b = pdx lv /\ h2 b = pdy lv.
(** the coarsest level, with the spacing of the grid geometry *)
Definition base_level (lv : level) : Prop := finer lv = false /\ 0 < pdx lv /\ 0 < pdy lv /\ gdx lv = pdx lv /\ gdy lv = pdy lv.
(** a phase equation with its gradient and well terms alone *)
Definition no_coupling (pr : phase_problem) : Prop := pflux pr = FluxSimple /\ porient pr = None /\ pthird pr = None /\ pdrive pr = NoDrive.
