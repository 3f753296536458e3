(** Vocabulary for files of initial conditions *)
From Coq Require Import Reals ZArith String List Bool.
From Verif Require Import InitFile_Model.
Import ListNotations.
Open Scope Z_scope.

(** cell (i, j, k) lies in a box *)
Definition cell_in (b : zbox) (i j k : Z) : Prop := zl0 b <= i <= zu0 b /\ zl1 b <= j <= zu1 b /\ zl2 b <= k <= zu2 b.
(** a box of cells of another one, not empty *)
Definition within (b dom : zbox) : Prop := cell_in dom (zl0 b) (zl1 b) (zl2 b) /\ cell_in dom (zu0 b) (zu1 b) (zu2 b) /\
  zl0 b <= zu0 b /\ zl1 b <= zu1 b /\ zl2 b <= zu2 b.
(** physical domains start at cell 0 *)
Definition domain_ok (d3 : bool) (dom : zbox) : Prop :=
  zl0 dom = 0 /\ zl1 dom = 0 /\ zl2 dom = 0 /\ 0 <= zu0 dom /\ 0 <= zu1 dom /\ 0 <= zu2 dom /\ (d3 = false -> zu2 dom = 0).
Definition ratio_ok (r : Z * Z * Z) : Prop := let '(a, b, c) := r in 0 < a /\ 0 < b /\ 0 < c.
(** the boxes cover the domain and no more *)
Definition covers (l : list zbox) (dom : zbox) : Prop :=
  (forall b, In b l -> within b dom) /\ (forall i j k, cell_in dom i j k -> exists b, In b l /\ cell_in b i j k).
(** fields on the whole domain: field, component, cell *)
Definition state := field -> nat -> Z -> Z -> Z -> R.
(** the fields of a run *)
Definition in_run (m : params) (f : field) (d : nat) : Prop :=
  match f with
  | Phase => (Z.of_nat d < phase_depth m)
  | Temp => d = 0%nat
  | Quat => p_orientation m = true /\ (d < p_qlen m)%nat
  | Conc => (d < p_ncomp m)%nat
  end.
(** the patch data of a run in this state *)
Definition holds (m : params) (S : state) (p : patch) : Prop :=
  forall f d i j k, in_run m f d -> cell_in (p_box p) i j k -> p_data p f d i j k = S f d i j k.
(** runs whose order parameters are all written: one order parameter, or the three phases model *)
Definition all_phases_written (m : params) : Prop :=
  p_with_phase m = true /\ (p_three_phases m = true \/ (p_norderp m = 1 /\ p_norderp_A m = None)).
(** runs with a phase variable, which is read completely or up to its last component *)
Definition readable (m : params) : Prop := p_with_phase m = true /\ 1 <= nphases m <= phase_depth m.
(** single precision error *)
Definition close (a x : R) : Prop := (Rabs (a - x) <= / 2 ^ 24 * Rabs x + / 2 ^ 150)%R.
(** fractions *)
Definition fractions (m : params) (dom : zbox) (S : state) : Prop :=
  forall d i j k, (d < p_ncomp m)%nat -> cell_in dom i j k -> (0 <= S Conc d i j k <= 1)%R.
(** everything from the file *)
Definition all_from_file (u : init_input) : Prop := in_q u = nil /\ in_c u = nil /\ (in_t u < 0)%R.
(** a variable of the file with the size of the domain and these values, indexed by cell *)
Definition stores (d3 : bool) (dom : zbox) (f : ncfile) (n : string) (g : Z -> Z -> Z -> R) : Prop :=
  exists v, getVar f n = Some v /\ v_double v = true /\ v_nx v = zu0 dom + 1 /\ v_ny v = zu1 dom + 1 /\ v_nz v = (if d3 then zu2 dom + 1 else 1) /\
    forall i j k, cell_in dom i j k -> v_at v k j i = g i j k.
(** two patches with the same box and the same fields except for the order parameters after the first *)
Definition same_first (p q : patch) : Prop :=
  p_box p = p_box q /\ forall f d, (f <> Phase \/ d = 0%nat) -> p_data p f d = p_data q f d.
(** the variables of a file besides the order parameters *)
Definition complete (m : params) (u : init_input) (d3 : bool) (dom : zbox) (f : ncfile) (g : state) : Prop :=
  (p_T_constant m = true -> (in_t u < 0)%R -> stores d3 dom f "temperature" (g Temp 0%nat)) /\
  (in_q u = nil -> p_orientation m = true -> forall d, (d < p_qlen m)%nat -> stores d3 dom f (quat_name d) (g Quat d)) /\
  (in_c u = nil -> forall d, (d < p_ncomp m)%nat -> stores d3 dom f (conc_name (p_ncomp m) d) (g Conc d)) /\
  (in_c u = nil -> fractions m dom g).
(** uniform values have one entry per component *)
Definition uniform_ok (m : params) (u : init_input) : Prop :=
  (in_q u <> nil -> p_orientation m = true -> List.length (in_q u) = p_qlen m) /\ (in_c u <> nil -> (0 < p_ncomp m)%nat -> List.length (in_c u) = p_ncomp m).
