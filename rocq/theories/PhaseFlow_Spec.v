(** Boundary conditions, energies and trajectories of the phase equation. *)
From Coq Require Import Reals ZArith List Ascii.
From Verif Require Import Grid_Model Grid_Spec Functions_Model PhaseFlow_Model.
From Verif Require Energy_Model.
Import ListNotations.
Open Scope R_scope.

Definition in_cells (b : pbox) (i j : Z) : Prop := in_box (lo0 b) (hi0 b) (lo1 b) (hi1 b) i j.
(** cells next to a cell, corners included *)
Definition near (i j k l : Z) : Prop := (Z.abs (k - i) <= 1 /\ Z.abs (l - j) <= 1)%Z.
Definition sum_cells (b : pbox) (f : arr2) : R := sum_box (lo0 b) (hi0 b) (lo1 b) (hi1 b) f.

(** ghost cells of a row of cells lo..hi *)
Inductive bc := Periodic | ZeroFlux.
Definition filled1 (c : bc) (lo hi : Z) (f : Z -> R) : Prop :=
  match c with
  | Periodic => f (lo - 1)%Z = f hi /\ f (hi + 1)%Z = f lo
  | ZeroFlux => f (lo - 1)%Z = f lo /\ f (hi + 1)%Z = f hi
  end.
Definition filled (cx cy : bc) (b : pbox) (f : arr2) : Prop :=
  (forall j, (lo1 b <= j <= hi1 b)%Z -> filled1 cx (lo0 b) (hi0 b) (fun i => f i j)) /\
  (forall i, (lo0 b <= i <= hi0 b)%Z -> filled1 cy (lo1 b) (hi1 b) (fun j => f i j)).

(** the patch and the parameters the energy evaluation receives for a phase field: no orientation, uniform weight w *)
Definition energy_patch (b : pbox) (w : R) (temp fl fa phi : arr2) : Energy_Model.epatch :=
  Energy_Model.mk_epatch (lo0 b) (hi0 b) (lo1 b) (hi1 b) (h1 b) (h2 b) (fun i j _ => phi i j) (fun _ _ _ => 0)
    (fun _ _ _ _ => 0) (fun _ _ _ _ => 0) temp (fun _ _ => w) fl fa.
Definition energy_params (eps anisotropy well_scale : R) (per_cell : bool) (itype wtype : ascii) : Energy_Model.eparams :=
  Energy_Model.mk_eparams 1 1 eps 0 anisotropy 4 0 well_scale per_cell itype wtype "q" "q" "a" "s" 0.
(** total energy reported for that field *)
Definition reported_energy (b : pbox) (eps anisotropy well_scale w : R) (per_cell : bool) (itype wtype : ascii) (temp fl fa phi : arr2) : R :=
  Energy_Model.t_energy (fst (Energy_Model.evaluate_patch (energy_params eps anisotropy well_scale per_cell itype wtype)
    (energy_patch b w temp fl fa phi) Energy_Model.zero_totals (fun _ _ => 0))).
Definition moved (phi v : arr2) (t : R) : arr2 := fun i j => phi i j + t * v i j.

(** phi t is a solution on [0,T] of the equation with right-hand side rhs (t, phi): ghost cells hold at all times either the
    value of a cell of the box (periodic, reflecting boundaries) or a value between lb and ub *)
Definition solution (b : pbox) (lb ub T : R) (rhs : R -> arr2 -> option arr2) (phi : R -> arr2) : Prop :=
  (forall t i j, 0 <= t <= T -> in_cells b i j ->
     exists r, rhs t (phi t) = Some r /\ derivable_pt_lim (fun s => phi s i j) t (r i j)) /\
  (forall t i j k l, 0 <= t <= T -> in_cells b i j -> near i j k l ->
     (exists a c, in_cells b a c /\ phi t k l = phi t a c) \/ lb <= phi t k l <= ub).

(** energy density of an interface with gradient (gx, gy) in a crystal turned by alpha, symmetry of order k *)
Definition interface_density (eps nu : R) (k : Z) (alpha gx gy : R) : R :=
  (eps * (1 + nu * cos (IZR k * (atan (gy / gx) - alpha)))) ^ 2 / 2 * (gx ^ 2 + gy ^ 2).
(** face gradients *)
Definition face_x_dx (b : pbox) (phi : arr2) (i j : Z) : R := (phi i j - phi (i - 1)%Z j) / h1 b.
Definition face_x_dy (b : pbox) (phi : arr2) (i j : Z) : R :=
  ((phi (i - 1)%Z (j + 1)%Z + phi i (j + 1)%Z) - (phi (i - 1)%Z (j - 1)%Z + phi i (j - 1)%Z)) / (4 * h2 b).
Definition face_y_dx (b : pbox) (phi : arr2) (i j : Z) : R :=
  ((phi (i + 1)%Z (j - 1)%Z + phi (i + 1)%Z j) - (phi (i - 1)%Z (j - 1)%Z + phi (i - 1)%Z j)) / (4 * h1 b).
Definition face_y_dy (b : pbox) (phi : arr2) (i j : Z) : R := (phi i j - phi i (j - 1)%Z) / h2 b.
Definition x_face (b : pbox) (i j : Z) : Prop := in_box (lo0 b) (hi0 b + 1) (lo1 b) (hi1 b) i j.
Definition y_face (b : pbox) (i j : Z) : Prop := in_box (lo0 b) (hi0 b) (lo1 b) (hi1 b + 1) i j.
(** first component of the orientation of a crystal turned by alpha in the plane *)
Definition first_component (qlen : Z) (alpha : R) : R := if (qlen =? 4)%Z then cos (alpha / 2) else if (qlen =? 2)%Z then cos alpha else alpha.

(** polynomials of degree at most 5 in two variables, as coefficients; derivatives *)
Definition poly := nat -> nat -> R.
Definition eval (c : poly) (x y : R) : R :=
  sum_f_R0 (fun m => sum_f_R0 (fun n => c m n * x ^ m * y ^ n) (5 - m)) 5.
Definition deg5 (c : poly) : Prop := forall m n, (5 < m + n)%nat -> c m n = 0.
Definition pdx (c : poly) : poly := fun m n => INR (S m) * c (S m) n.
Definition pdy (c : poly) : poly := fun m n => INR (S n) * c m (S n).
Definition plap (c : poly) : poly := fun m n => pdx (pdx c) m n + pdy (pdy c) m n.
(** phi holds the values of the polynomial at the centers of a cell and of the cells next to it *)
Definition sampled (c : poly) (x0 y0 h : R) (phi : arr2) (i j : Z) : Prop :=
  forall k l, near i j k l -> phi k l = eval c (x0 + IZR k * h) (y0 + IZR l * h).

(** bulk energy density of several order parameters, the last one liquid *)
Definition squares (n : Z) (u : Z -> R) : R := sumZ 1 n (fun p => u p ^ 2).
Definition multi_density (n : Z) (fl fa : R) (u : Z -> R) : R :=
  (squares (n - 1) u * fa + u n ^ 2 * fl) / squares n u.

(** interpolation types whose slope vanishes below 0, and on both sides of [0,1] *)
Definition floor_type (t : ascii) : Prop := In t ["q"; "p"; "h"; "w"; "m"; "3"; "s"; "c"]%char.
Definition clamped_type (t : ascii) : Prop := In t ["p"; "h"; "m"; "c"]%char.
(** settings for which the phase equation is claimed to keep the phase fraction between 0 and 1; B bounds the bias *)
Definition keeps_bounds (B : R) (p : phase_problem) : Prop :=
  let b := pb p in
  0 < h1 b /\ 0 < h2 b /\ 0 <= pwell p /\ (forall i j, in_cells b i j -> 0 <= pmob p i j) /\
  match pflux p with
  | FluxSimple => True
  | FluxIsotropic => h1 b ^ 2 <= 5 * h2 b ^ 2 /\ h2 b ^ 2 <= 5 * h1 b ^ 2
  | FluxAnisotropic _ _ _ _ => False
  end /\
  match porient p with
  | Some o => floor_type (otype1 o) /\ floor_type (otype2 o) /\ 0 <= misorientation o /\
              (forall i j, in_cells b i j -> 0 <= ptemp p i j /\ 0 <= ogm o i j)
  | None => True
  end /\
  match pthird p with Some e => floor_type (eta_interp e) /\ 0 <= eta_well_scale e | None => True end /\
  match pdrive p with
  | NoDrive => True
  | FreeEnergies _ _ it | DeltaTemperature _ _ it => clamped_type it
  | BiasUTRC alpha _ _ => forall i j, in_cells b i j -> pmob p i j * (Rabs alpha / 2) <= B
  | BiasBeckermann alpha te => forall i j, in_cells b i j -> pmob p i j * Rabs (alpha * (te i j - ptemp p i j)) <= B
  end.

(** heat content of a patch: specific heat cp, latent heat L released by the phase *)
Definition heat_content (b : pbox) (L : R) (cp temp phi : arr2) : R := sum_cells b (fun i j => cp i j * temp i j - L * phi i j).
(** the phase does not vary around a cell *)
Definition uniform_near (phi : arr2) (i j : Z) (x : R) : Prop := forall k l, near i j k l -> phi k l = x.
(** a problem without orientation, third phase *)
Definition plain (p : phase_problem) : Prop := porient p = None /\ pthird p = None.
(** density as a function of one of the order parameters *)
Definition with_component (u : Z -> R) (p : Z) (x : R) : Z -> R := fun q => if (q =? p)%Z then x else u q.
(** bias of the double well set by the free energy strategy in a cell *)
Definition bias (d : drive) (temp : arr2) (i j : Z) : R :=
  match d with
  | BiasUTRC alpha g te => alpha / PI * atan (g * (te i j - temp i j))
  | BiasBeckermann alpha te => alpha * (te i j - temp i j)
  | _ => 0
  end.
Definition biased (d : drive) : Prop := match d with BiasUTRC _ _ _ | BiasBeckermann _ _ => True | _ => False end.
