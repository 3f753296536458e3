(** Vocabulary of the driving force properties: mixtures of phases in local equilibrium. *)
From Coq Require Import Reals ZArith List Bool Ascii.
From Verif Require Import Grid_Model Grid_Spec Tilting_Model KKS_Model PhaseFlow_Spec.
Import ListNotations.
Open Scope R_scope.

(** sum over the phases present *)
Definition total (ks : list phase) (g : phase -> R) : R := fold_right (fun k a => g k + a) 0 ks.

(** near x *)
Definition around (x : R) (P : R -> Prop) : Prop := exists eps, 0 < eps /\ forall s, Rabs (s - x) < eps -> P s.
(** compositions comp k of the phases, followed as functions of one phase variable s around s = x: they share the given
    composition c with the weights W, have equal chemical potentials at x, and dmolar is the slope of molar there *)
Definition solved (lib : library) (t : R) (ks : list phase) (W : R -> phase -> R) (x c : R) (comp : phase -> R -> R) : Prop :=
  around x (fun s => total ks (fun k => W s k * comp k s) = c) /\
  (forall k, In k ks -> exists d, derivable_pt_lim (comp k) x d) /\
  (forall k, In k ks -> derivable_pt_lim (molar lib k t) (comp k x) (dmolar lib k t (comp k x))) /\
  (forall k k', In k ks -> In k' ks -> dmolar lib k t (comp k x) = dmolar lib k' t (comp k' x)).
(** two compositions; (m0, m1) is the gradient of f at (a, b): the slope along every differentiable curve *)
Definition gradient2 (f : R -> R -> R) (a b m0 m1 : R) : Prop :=
  forall u v x du dv, u x = a -> v x = b -> derivable_pt_lim u x du -> derivable_pt_lim v x dv ->
    derivable_pt_lim (fun s => f (u s) (v s)) x (m0 * du + m1 * dv).
Definition solved2 (lib : library2) (t : R) (ks : list phase) (W : R -> phase -> R) (x c0 c1 : R) (u0 u1 : phase -> R -> R) : Prop :=
  around x (fun s => total ks (fun k => W s k * u0 k s) = c0) /\ around x (fun s => total ks (fun k => W s k * u1 k s) = c1) /\
  (forall k, In k ks -> (exists d, derivable_pt_lim (u0 k) x d) /\ (exists d, derivable_pt_lim (u1 k) x d)) /\
  (forall k, In k ks -> gradient2 (molar2 lib k t) (u0 k x) (u1 k x) (fst (dmolar2 lib k t (u0 k x) (u1 k x))) (snd (dmolar2 lib k t (u0 k x) (u1 k x)))) /\
  (forall k k', In k ks -> In k' ks -> dmolar2 lib k t (u0 k x) (u1 k x) = dmolar2 lib k' t (u0 k' x) (u1 k' x)).

(** energy density of the mixture, conv the factor from J/mol *)
Definition density (lib : library) (t : R) (conv : phase -> R) (ks : list phase) (G : R -> phase -> R) (comp : phase -> R -> R) (s : R) : R :=
  total ks (fun k => G s k * (conv k * molar lib k t (comp k s))).
Definition density2 (lib : library2) (t : R) (conv : phase -> R) (ks : list phase) (G : R -> phase -> R) (u0 u1 : phase -> R -> R) (s : R) : R :=
  total ks (fun k => G s k * (conv k * molar2 lib k t (u0 k s) (u1 k s))).
(** weights of liquid and solid for an interpolation function h *)
Definition weights2 (h : R -> R) (s : R) (k : phase) : R := match k with PhL => 1 - h s | PhA => h s | PhB => 0 end.
(** weights of the phases in proportion to the squares of their order parameters 0..nA-1 (A), nA..n-2 (B), n-1 (liquid) *)
Definition square_sum (lo hi : Z) (u : Z -> R) : R := sumZ lo hi (fun q => u q ^ 2).
Definition square_weights (nA n : Z) (u : Z -> R) (k : phase) : R :=
  match k with PhL => u (n - 1)%Z ^ 2 | PhA => square_sum 0 (nA - 1) u | PhB => square_sum nA (n - 2) u end
  / square_sum 0 (n - 1) u.
(** [J/mol] to [pJ/micrometre^3] *)
Definition per_volume (vm : R) : R := / (1000000 * vm).
(** phase of an order parameter *)
Definition phase_of (nA n q : Z) : phase := if (q =? n - 1)%Z then PhL else if (q <? nA)%Z then PhA else PhB.
(** interpolation types with a slope at x that the Fortran derivative returns *)
Definition interp_slope_ok (it : ascii) (x : R) : Prop := In it ["p"; "h"]%char \/ it = "l"%char /\ 0 < x < 1.
(** weights of the phases given by a tilting function *)
Definition tilt_weights (T : tilting) (p0 p1 p2 : R) (k : phase) : R :=
  match k with PhL => g0 T p0 p1 p2 | PhA => g0 T p1 p0 p2 | PhB => g0 T p2 p0 p1 end.
(** order parameters of one solid grain with fraction s and its melt *)
Definition pair (s : R) (q : Z) : R := if (q =? 0)%Z then s else 1 - s.
