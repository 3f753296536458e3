(** What is claimed of the mobilities and of the composition dependent diffusion. *)
From Coq Require Import Reals ZArith String List Bool Ascii.
From Verif Require Import Grid_Model Grid_Spec Functions_Model PhaseFlow_Model PhaseFlow_Spec Stencils_Model Diffusion_Model Diffusion_Spec Mobility_Model.
Import ListNotations.
Open Scope R_scope.

(** ** Mobility databases *)
(** a coefficient (a0, a1) of the expansion, with optional coefficients of T ln T and 1/T *)
Definition term := ((R * R) * option (R * R))%type.
Definition good_pair (a : R * R) : Prop := 0 < snd a.
Definition good (t : term) : Prop := good_pair (fst t).
Definition entry (t : term) : list R := match snd t with None => [fst (fst t); snd (fst t)] | Some e => [fst (fst t); snd (fst t); fst e; snd e] end.
Definition pair_entry (a : R * R) : list R := [fst a; snd a].
(** interaction coefficients that are not given count as (0, 1) *)
Definition given (o : option (R * R)) : R * R := match o with Some a => a | None => (0, 1) end.
Definition two_species (db : database) (a b : term) (L : nat -> option (R * R)) : Prop :=
  db "qA"%string = Some (entry a) /\ db "qB"%string = Some (entry b) /\ db "qC"%string = None /\ db "qD"%string = None /\
  db "q0AB"%string = option_map pair_entry (L 0%nat) /\ db "q1AB"%string = option_map pair_entry (L 1%nat) /\
  db "q2AB"%string = option_map pair_entry (L 2%nat) /\ db "q3AB"%string = option_map pair_entry (L 3%nat).
Definition three_species (db : database) (a b c : term) (AB AC BC : nat -> option (R * R)) : Prop :=
  db "qA"%string = Some (entry a) /\ db "qB"%string = Some (entry b) /\ db "qC"%string = Some (entry c) /\ db "qD"%string = None /\
  db "q0AB"%string = option_map pair_entry (AB 0%nat) /\ db "q1AB"%string = option_map pair_entry (AB 1%nat) /\
  db "q2AB"%string = option_map pair_entry (AB 2%nat) /\ db "q3AB"%string = option_map pair_entry (AB 3%nat) /\
  db "q0AC"%string = option_map pair_entry (AC 0%nat) /\ db "q1AC"%string = option_map pair_entry (AC 1%nat) /\
  db "q2AC"%string = option_map pair_entry (AC 2%nat) /\ db "q3AC"%string = option_map pair_entry (AC 3%nat) /\
  db "q0BC"%string = option_map pair_entry (BC 0%nat) /\ db "q1BC"%string = option_map pair_entry (BC 1%nat) /\
  db "q2BC"%string = option_map pair_entry (BC 2%nat) /\ db "q3BC"%string = option_map pair_entry (BC 3%nat).
(** activation free energies in J/mol *)
Definition linear (gasR T : R) (a : R * R) : R := fst a + gasR * T * ln (snd a).
Definition barrier (gasR T : R) (t : term) : R :=
  linear gasR T (fst t) + match snd t with None => 0 | Some e => fst e * T * ln T + snd e / T end.
(** Redlich-Kister expansion of the interaction of two species to the order n *)
Definition interaction (gasR T : R) (L : nat -> option (R * R)) (n : nat) (x y : R) : R :=
  x * y * sum_f_R0 (fun k => linear gasR T (given (L k)) * (x - y) ^ k) n.
Definition binary_barrier (gasR T : R) (a b : term) (L : nat -> option (R * R)) (x : R) : R :=
  x * barrier gasR T a + (1 - x) * barrier gasR T b + interaction gasR T L 3 x (1 - x).
Definition ternary_barrier (gasR T : R) (a b c : term) (AB AC BC : nat -> option (R * R)) (n : nat) (x y z : R) : R :=
  x * barrier gasR T a + y * barrier gasR T b + z * barrier gasR T c
  + interaction gasR T AB n x y + interaction gasR T AC n x z + interaction gasR T BC n y z.
(** tracer diffusivity R T M of a mobility M *)
Definition tracer (gasR T m : R) : R := gasR * T * m.
(** the coefficient of the same data with the names of the two species exchanged *)
Definition opposite (a : R * R) : R * R := (- fst a, / snd a).
Definition exchanged (L : nat -> option (R * R)) (k : nat) : option (R * R) := if Nat.even k then L k else option_map opposite (L k).
Definition good_terms (L : nat -> option (R * R)) : Prop := forall k a, (k <= 3)%nat -> L k = Some a -> good_pair a.

(** ** Mobility matrices *)
Definition simplex (x y z : R) : Prop := 0 <= x /\ 0 <= y /\ 0 <= z /\ x + y + z = 1.
(** velocity of the lattice and fluxes seen from the frame where they add up to zero; x_k composition, m_k mobility, f_k force on species k *)
Definition lattice_flux (x m f : R) : R := x * m * f.
Definition frame_flux (x j total : R) : R := j - x * total.
(** forces allowed by Gibbs and Duhem *)
Definition gibbs_duhem (x y z f g h : R) : Prop := x * f + y * g + z * h = 0.
Definition quadratic (M : Z -> R) (u v : R) : R := M 0%Z * u * u + (M 1%Z + M 2%Z) * u * v + M 3%Z * v * v.
(** second derivative of the free energy of an ideal solution, two and three species *)
Definition ideal2 (gasR T x : R) : R := gasR * T / (x * (1 - x)).
Definition ideal3 (gasR : R) : hessian := fun T c e =>
  let z := 1 - c 0%Z - c 1%Z in
  gasR * T * (if (e =? 0)%Z then 1 / c 0%Z + 1 / z else if (e =? 3)%Z then 1 / c 1%Z + 1 / z else 1 / z).
Definition symmetric (F : hessian) : Prop := forall T c, F T c 1%Z = F T c 2%Z.
Definition convex_at (F : hessian) (T : R) (c : Z -> R) : Prop := forall u v, (u <> 0 \/ v <> 0) -> 0 < quadratic (F T c) u v.
(** product of two matrices stored by rows *)
Definition entry2 (A : Z -> R) (k i : Z) : R := A (2 * k + i)%Z.
Definition product2 (A B : Z -> R) (k i : Z) : R := entry2 A k 0 * entry2 B 0 i + entry2 A k 1 * entry2 B 1 i.

(** ** Fluxes *)
(** the value of an array at the cell below a face *)
Definition low3 (f : arr3) (d : dir) (i j : Z) : Z -> R := low f d i j.
Definition mean_c (f : arr3) (d : dir) (i j : Z) : Z -> R := fun k => mean (f i j k) (low f d i j k).
Definition mean_T (f : arr2) (d : dir) (i j : Z) : R := mean (f i j) (low f d i j).
Definition pick {A : Type} (d : dir) (p : A * A) : A := match d with DX => fst p | DY => snd p end.
Definition spacing (b : pbox) (d : dir) : R := match d with DX => h1 b | DY => h2 b end.
(** difference of a composition across a face, divided by the distance *)
Definition slope (b : pbox) (f : arr3) (d : dir) (i j k : Z) : R := (f i j k - low f d i j k) / spacing b d.
Definition coef_l (f : pfm) (d : dir) : arr3 := pick d (pl_x f, pl_y f).
Definition coef_a (f : pfm) (d : dir) : arr3 := pick d (pa_x f, pa_y f).
(** entropy production per RT of fluxes j under differences g of the compositions with Hessian F *)
Definition production (F : Z -> R) (j0 j1 g0 g1 : R) : R := j0 * (F 0%Z * g0 + F 1%Z * g1) + j1 * (F 2%Z * g0 + F 3%Z * g1).

(** ** Concrete databases *)
Definition of_list (l : list (string * list R)) : database := fun k =>
  match find (fun p => String.eqb (fst p) k) l with Some p => Some (snd p) | None => None end.
Definition no_terms : nat -> option (R * R) := fun _ => None.
Definition four_species (db : database) (a b c d : term) : Prop :=
  db "qA"%string = Some (entry a) /\ db "qB"%string = Some (entry b) /\ db "qC"%string = Some (entry c) /\ db "qD"%string = Some (entry d) /\
  forall k c d, db (qqkey k c d) = None.
(** diffusivity of a species in the pure first element: Arrhenius' law times a factor for the extra coefficients *)
Definition pure_law (gasR T : R) (t : term) : R :=
  rate (snd (fst t)) (- fst (fst t)) gasR T * match snd t with None => 1 | Some e => exp (fst e * ln T / gasR + snd e / (gasR * T * T)) end.
(** temperatures of the diagnostic tables *)
Definition table_T (tmin tmax : R) (k : nat) : R := tmin + INR k * ((tmax - tmin) / 99).
