(** What is claimed of the diffusion coefficients. *)
From Coq Require Import Reals ZArith List Bool Ascii.
From Verif Require Import Grid_Model Grid_Spec PhaseFlow_Model PhaseFlow_Spec Diffusion_Model.
Import ListNotations.
Open Scope R_scope.

(** faces normal to x and y; the face (i,j) separates the cell below it, [lower], from the cell (i,j) *)
Inductive dir := DX | DY.
Definition at_face (f : faces) (d : dir) (i j : Z) : R := match d with DX => fst f i j | DY => snd f i j end.
Definition lower (d : dir) (i j : Z) : Z * Z := match d with DX => (i - 1, j)%Z | DY => (i, j - 1)%Z end.
Definition low {A : Type} (f : Z -> Z -> A) (d : dir) (i j : Z) : A := f (fst (lower d i j)) (snd (lower d i j)).
Definition on_face (b : pbox) (d : dir) (i j : Z) : Prop := match d with DX => x_face b i j | DY => y_face b i j end.

(** diffusion coefficient of a phase at temperature T *)
Definition rate (d q gasR T : R) : R := d * exp (- (q / (gasR * T))).
Definition mean (x y : R) : R := (x + y) / 2.
Definition between (a b x : R) : Prop := Rmin a b <= x <= Rmax a b.
Definition averages : list ascii := ["a"; "h"]%char.
Definition implemented (t : interp_type) : Prop := t = LINEAR \/ t = PBG.

(** fields seen with the two axes exchanged, and in a mirror *)
Definition turn {A : Type} (f : Z -> Z -> A) : Z -> Z -> A := fun i j => f j i.
Definition turn_box (b : pbox) : pbox := mk_pbox (lo1 b) (hi1 b) (lo0 b) (hi0 b) (h2 b) (h1 b).
Definition turn_dir (d : dir) : dir := match d with DX => DY | DY => DX end.
Definition mirror {A : Type} (f : Z -> Z -> A) : Z -> Z -> A := fun i j => f (- i)%Z j.
Definition mirror_box (b : pbox) : pbox := mk_pbox (- hi0 b) (- lo0 b) (lo1 b) (hi1 b) (h1 b) (h2 b).
Definition mirror_face (d : dir) (i : Z) : Z := match d with DX => 1 - i | DY => - i end%Z.

(** an operation from cell fields to face coefficients *)
Definition operation (A : Type) := pbox -> (Z -> Z -> A) -> faces -> option faces.
(** the coefficient of a face does not depend on the patch that computes it or on what the array held before *)
Definition patch_free {A : Type} (K : operation A) : Prop := forall b b' s old old' f f' d i j,
  K b s old = Some f -> K b' s old' = Some f' -> on_face b d i j -> on_face b' d i j -> at_face f d i j = at_face f' d i j.
(** exchanging the axes of the fields exchanges the axes of the coefficients *)
Definition axis_free {A : Type} (K : operation A) : Prop := forall b s old old' f f' d i j,
  K b s old = Some f -> K (turn_box b) (turn s) old' = Some f' -> on_face b d i j -> at_face f' (turn_dir d) j i = at_face f d i j.
(** mirrored fields have mirrored coefficients *)
Definition mirror_free {A : Type} (K : operation A) : Prop := forall b s old old' f f' d i j,
  K b s old = Some f -> K (mirror_box b) (mirror s) old' = Some f' -> on_face b d i j -> at_face f' d (mirror_face d i) j = at_face f d i j.

(** the strategies as operations on the state of a cell: order parameters (and temperature, or composition) *)
Definition scalar_op (s : strategy) (depth : Z) : operation (Z -> R) := fun b st old => scalar_setDiffusion s b depth st old.
Definition T_op (s : strategy) (ng depth : Z) (x : ph) : operation ((Z -> R) * R) := fun b st old =>
  option_map (fun c => get3 c x) (T_setDiffusion s b ng depth (fun i j => fst (st i j)) (fun i j => snd (st i j)) (mk_coefs3 old old old)).
Definition wang_op (dl ds dla daa : R) (t : interp_type) (a : ascii) (depth : Z) : operation ((Z -> R) * R) := fun b st old =>
  wang_setDiffusion dl ds dla daa t a b depth (fun i j => fst (st i j)) (fun i j => snd (st i j)) old.
Definition kks_op (dl ql ds qs gasR : R) (it at_ : ascii) : operation (R * R) := fun b st old =>
  pfmdiffusion b (fun i j => fst (st i j)) (fun i j => snd (st i j)) dl ql ds qs gasR it at_ old.
Definition beckermann_op (dl ds : R) (it at_ : ascii) : operation (R * R) := fun b st old =>
  diffusion_beckermann b (fun i j => fst (st i j)) (fun i j => snd (st i j)) dl ds it at_ old.

(** ** interface diffusion *)
(** how much of an order parameter counts, one at a half *)
Definition presence (p : R) : R := (Rmax 0 (p - 1 / 100) / (1 / 2 - 1 / 100)) ^ 2.
Definition total (n : Z) (p : Z -> R) : R := sumZ 1 n (fun k => presence (p k)).
(** pairs of order parameters of two phases *)
Definition contact (na : Z) (pa : Z -> R) (nb : Z) (pb : Z -> R) : R := total na pa * total nb pb.
(** unordered pairs of different order parameters of one phase *)
Definition own_contact (n : Z) (p : Z -> R) : R := (total n p ^ 2 - sumZ 1 n (fun k => presence (p k) ^ 2)) / 2.
(** the strategy without its interface diffusion *)
Definition no_pairs (s : strategy) : strategy :=
  mk_strategy (norderp s) (norderpA s) (norderpB s) (with3phases s) (with_phaseB s) (dbulk s) (qbulk s) (fun _ _ => 0) (qpair s) (gas_constant s)
    (itp s) (avg s).
(** order parameters of a phase in a cell *)
Definition of_phase (s : strategy) (x : ph) (p : Z -> R) : Z -> R := fun k => p (first_of s x + k - 1)%Z.
(** interface diffusion of one cell: each pair of phases with a positive coefficient *)
Definition active (s : strategy) (x y : ph) : R := Rmax 0 (dpair s x y).
Definition cell_interface (s : strategy) (p : Z -> R) : R :=
  active s PA PL * contact (norderpA s) (of_phase s PA p) 1 (of_phase s PL p) +
  active s PA PA * own_contact (norderpA s) (of_phase s PA p) +
  (if with_phaseB s then
     active s PB PL * contact (norderpB s) (of_phase s PB p) 1 (of_phase s PL p) +
     active s PB PA * contact (norderpB s) (of_phase s PB p) (norderpA s) (of_phase s PA p) +
     active s PB PB * own_contact (norderpB s) (of_phase s PB p)
   else 0).

(** ** phase fractions of several order parameters *)
Definition members (s : strategy) (x : ph) : Z := match x with PL => 1%Z | _ => if with3phases s then 1%Z else count_of s x end.
Definition fraction (s : strategy) (x : ph) (p : Z -> R) : R := sumZ 1 (members s x) (of_phase s x p).
(** order parameters numbered from 0, the last one is the liquid *)
Definition last_is_liquid (depth : Z) (p : Z -> R) : Prop := p (depth - 1)%Z + sumZ 0 (depth - 2) p = 1.
Definition no_interfaces (s : strategy) : Prop := forall x y, dpair s x y <= 0.

(** interface diffusion of phase x in one cell, at temperature T *)
Definition pair_rate (s : strategy) (x y : ph) (T : R) : R := active s x y * exp (- (qpair s x y / gas_constant s) * (1 / T)).
Definition cell_T_interface (s : strategy) (x : ph) (pT : (Z -> R) * R) : R :=
  let (p, T) := pT in
  let AL := pair_rate s PA PL T * contact (norderpA s) (of_phase s PA p) 1 (of_phase s PL p) in
  let AA := pair_rate s PA PA T * own_contact (norderpA s) (of_phase s PA p) in
  let BL := pair_rate s PB PL T * contact (norderpB s) (of_phase s PB p) 1 (of_phase s PL p) in
  let BA := pair_rate s PB PA T * contact (norderpB s) (of_phase s PB p) (norderpA s) (of_phase s PA p) in
  let BB := pair_rate s PB PB T * own_contact (norderpB s) (of_phase s PB p) in
  if with_phaseB s then match x with PL => AL + BL | PA => AL + AA + BA | PB => BL + BA + BB end
  else match x with PL => AL | PA => AL + AA | PB => 0 end.
(** what the cells inside the patch give to a face *)
Definition from_inside (b : pbox) (f : Z -> Z -> R) (d : dir) (i j : Z) : R :=
  let cell i j := if ((lo0 b <=? i) && (i <=? hi0 b) && ((lo1 b <=? j) && (j <=? hi1 b)))%Z then f i j else 0 in mean (low cell d i j) (cell i j).
(** the flux of the isotropic stencil on a face *)
Definition flux_at (f : arr3 * arr3) (d : dir) (i j : Z) : R := match d with DX => fst f i j 1%Z | DY => snd f i j 1%Z end.

(** order parameters of the phases fill 0..norderp-1 *)
Definition layout (s : strategy) : Prop :=
  (if with3phases s then with_phaseB s = true /\ norderpA s = 1 /\ norderpB s = 1 /\ norderp s = 3
   else 0 < norderpA s /\ 0 <= norderpB s /\ norderp s = norderpA s + (if with_phaseB s then norderpB s else 0) + 1)%Z.
(** position of member k of phase x among the order parameters *)
Definition position (s : strategy) (x : ph) (k : Z) : Z := (first_of s x + k - 1)%Z.
(** in this cell only the order parameters of the list m count *)
Definition only (s : strategy) (m : list Z) (p : Z -> R) : Prop := forall k, (0 <= k < norderp s)%Z -> ~ In k m -> p k <= 1 / 100.
Definition exchange (a b : Z) (p : Z -> R) : Z -> R := fun k => if (k =? a)%Z then p b else if (k =? b)%Z then p a else p k.
(** phase B exists only with three phases; the pairs of phases with an interface coefficient *)
Definition valid (s : strategy) (x : ph) : Prop := with_phaseB s = false -> x <> PB.
Definition pairs_of (s : strategy) : list (ph * ph) := [(PA, PL); (PA, PA)] ++ (if with_phaseB s then [(PB, PL); (PB, PA); (PB, PB)] else []).
