(** What is claimed of the phase coupling of the composition flux. *)
From Coq Require Import Reals ZArith List Bool Ascii.
From Verif Require Import Grid_Model Grid_Spec Functions_Model PhaseFlow_Model Trap3_Model Coupl_Model.
From Verif Require Import Diff3_Spec.
Import ListNotations.
Open Scope R_scope.

(** where patch data keep the value of the cell (i,j,k): column by column, box by box *)
Definition offset (nd3 : bool) (l0 n0 l1 n1 l2 i j k : Z) : Z := ((i - l0) + n0 * ((j - l1) + (if nd3 then n1 * (k - l2) else 0)))%Z.
Definition cell_place (nd3 : bool) (g : gbox) : Z -> Z -> Z -> Z := offset nd3 (g0 g) (m0 g) (g1 g) (m1 g) (g2 g).
(** side data have one more entry along their normal *)
Definition side_place (nd3 : bool) (d : dir3) (g : gbox) : Z -> Z -> Z -> Z :=
  offset nd3 (g0 g) (m0 g + match d with FX => 1 | _ => 0 end) (g1 g) (m1 g + match d with FY => 1 | _ => 0 end) (g2 g).
Definition cell_at (nd3 : bool) (g : gbox) (p : ptr) (i j k : Z) : R := p (cell_place nd3 g i j k).
Definition pick3 (d : dir3) (p : ptrs) : ptr := match d with FX => fst (fst p) | FY => snd (fst p) | FZ => snd p end.
Definition side_at (nd3 : bool) (d : dir3) (g : gbox) (p : ptrs) (i j k : Z) : R := pick3 d p (side_place nd3 d g i j k).
(** number of entries *)
Definition cells_of (nd3 : bool) (g : gbox) : Z := (m0 g * m1 g * (if nd3 then m2 g else 1))%Z.
Definition sides_of (nd3 : bool) (d : dir3) (g : gbox) : Z :=
  ((m0 g + match d with FX => 1 | _ => 0 end) * (m1 g + match d with FY => 1 | _ => 0 end)
   * (if nd3 then m2 g + match d with FZ => 1 | _ => 0 end else 1))%Z.

(** the sides of a patch; in two dimensions there is one layer, k = 0, and no z side *)
Definition on_side (nd3 : bool) (b : box3) (d : dir3) (i j k : Z) : Prop :=
  if nd3 then on_face3 b d i j k
  else match d with
       | FX => in_box (xl b) (xu b + 1) (yl b) (yu b) i j /\ k = 0%Z
       | FY => in_box (xl b) (xu b) (yl b) (yu b + 1) i j /\ k = 0%Z
       | FZ => False
       end.
(** a box that contains the patch and n more cells around it *)
Definition room (nd3 : bool) (g : gbox) (b : box3) (n : Z) : Prop :=
  (g0 g <= xl b - n /\ xu b + n < g0 g + m0 g /\ g1 g <= yl b - n /\ yu b + n < g1 g + m1 g /\
   (if nd3 then g2 g <= zl b - n /\ zu b + n < g2 g + m2 g else True))%Z.
Definition nonempty (b : box3) : Prop := (xl b <= xu b /\ yl b <= yu b /\ zl b <= zu b)%Z.

Definition mean (x y : R) : R := (x + y) / 2.
Definition averaged (at_ : ascii) (x y : R) : R := val (average_func x y at_).
Definition slope (it : ascii) (x : R) : R := val (deriv_interp_func x it).
Definition weight (it : ascii) (x : R) : R := val (interp_func x it).
Definition interps : list ascii := ["p"; "l"; "h"]%char.
Definition avgs : list ascii := ["a"; "h"]%char.

(** a mixture of a liquid and a solid: composition of a cell *)
Definition mixture (it : ascii) (phi cl ca : R) : R := (1 - weight it phi) * cl + weight it phi * ca.
Definition spacing (b : box3) (d : dir3) : R := match d with FX => hx b | FY => hy b | FZ => hz b end.
(** the flux across a side of the patch, in either dimension *)
Definition flux_at (nd3 : bool) (b : box3) (gc gp : gbox) (conc phi : ptr) (d0 coupl : ptrs) (d : dir3) (i j k : Z) (v : R) : Prop :=
  if nd3 then forall old, at_face3 (coupled_flux3 b gc gp conc phi d0 coupl old) d i j k = v
  else match d with
       | FX => forall old, fst (coupled_flux2 b gc gp conc phi d0 coupl old) i j = v
       | FY => forall old, snd (coupled_flux2 b gc gp conc phi d0 coupl old) i j = v
       | FZ => True
       end.
(** two pieces of memory agree in the first n entries *)
Definition agree (n : Z) (p q : ptr) : Prop := forall a, (0 <= a < n)%Z -> p a = q a.
