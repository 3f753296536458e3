(** What users expect of the printed scalar diagnostics. *)
From Coq Require Import Reals ZArith List Bool.
From Verif Require Import Report_Model.
Import ListNotations.
Open Scope R_scope.

(** sums over the cells, and the mean with given control volumes *)
Definition total (f : cell -> R) (h : hier) : R := fold_right (fun c s => f c + s) 0 h.
Definition mean (w f : cell -> R) (h : hier) : R := total (fun c => f c * w c) h / total w h.
(** order parameter and composition of a cell *)
Definition op (i : Z) (c : cell) : R := nth (Z.to_nat i) (phase c) 0.
Definition composition (i : Z) (c : cell) : R := nth (Z.to_nat i) (conc c) 0.

(** the data have the configured depths, and control volumes add up to the volume of the domain (C28) *)
Definition depths_ok (p : params) (h : hier) : Prop :=
  forall c, In c h -> length (phase c) = Z.to_nat (norderp p) /\ length (conc c) = ncompositions p.
Definition volume (low up : list R) : R := fold_right (fun d v => (snd d - fst d) * v) 1 (combine low up).
Definition volumes_ok (low up : list R) (h : hier) : Prop := total weight h = volume low up /\ 0 < volume low up /\ forall c, In c h -> 0 <= weight c.

(** the numbers printed under a label *)
Definition fractions_of (out : list line) : list (Z * R) := flat_map (fun l => match l with Fraction i v => [(i, v)] | _ => [] end) out.
Definition solid_of (out : list line) : list R := flat_map (fun l => match l with Solid v => [v] | _ => [] end) out.
Definition eta_of (out : list line) : list R := flat_map (fun l => match l with Eta v => [v] | _ => [] end) out.
Definition integrals_of (out : list line) : list (Z * R) := flat_map (fun l => match l with Integral i v => [(i, v)] | _ => [] end) out.
Definition maxima_of (out : list line) : list (Z * R) := flat_map (fun l => match l with MaxConc i v => [(i, v)] | _ => [] end) out.
Definition coring_of (out : list line) : list (Z * R) := flat_map (fun l => match l with Cex i v => [(i, v)] | _ => [] end) out.
Definition density_of (out : list line) : list R := flat_map (fun l => match l with Density v => [v] | _ => [] end) out.
(** 0, ..., n - 1 *)
Definition indices (n : Z) : list Z := map Z.of_nat (seq 0 (Z.to_nat n)).
(** v is the largest value of f *)
Definition largest (f : cell -> R) (h : hier) (v : R) : Prop := (exists c, In c h /\ f c = v) /\ forall c, In c h -> f c <= v.
(** a choice of norderp_A that leaves room for the order parameter of the voids: grains of A, grains of B, voids *)
Definition room_for_voids (p : params) : Prop := match in_norderp_A p with Some a => (1 <= a <= in_norderp p - 1)%Z | None => (2 <= in_norderp p)%Z end.

(** solidification in a cell that exchanges no heat: the latent heat l of the change of the order parameter raises the temperature *)
Definition releases (l : R) (c c' : cell) : Prop :=
  weight c' = weight c /\ cp c' = cp c /\ cp c * (temperature c' - temperature c) = l * (op 0 c' - op 0 c).
(** temperatures divided by, and heat capacities multiplied by, a factor (rescaled temperature) *)
Definition rescaled (f : R) (c : cell) : cell := mk_cell (weight c) (weight_diag c) (phase c) (eta c) (conc c) (cp c * f) (temperature c / f).
