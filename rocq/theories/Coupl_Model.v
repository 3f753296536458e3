(** Model of the phase coupling of the composition flux: the coefficient of grad phi and the flux of
    KKSCompositionRHSStrategy and BeckermannCompositionRHSStrategy.  The C++ loops address patch data through pointers;
    memory is a total function from offsets to exact reals.  [nd3] is NDIM == 3.  A call with an unknown interpolation or
    average type stops the run (None).  Assertions other than those on the partition coefficient are not modelled. *)
From Coq Require Import Reals ZArith List Bool Ascii.
From Verif Require Import Grid_Model Functions_Model PhaseFlow_Model Trap3_Model.
From Verif Require Transport_Model.
Import ListNotations.
Open Scope R_scope.

Definition ptr : Type := Z -> R.
Definition ptrs : Type := ptr * ptr * ptr.
Definition store (p : ptr) (n : Z) (v : R) : ptr := fun a => if (a =? n)%Z then v else p a.

(** getGhostBox(): lower index and number of cells in each direction *)
Record gbox := mk_gbox { g0 : Z; m0 : Z; g1 : Z; m1 : Z; g2 : Z; m2 : Z }.
(** the box of data registered with n ghost cells, QuatModel.cc:1374-1380, 1420-1422, 1489-1492 *)
Definition grown (b : box3) (n : Z) : gbox :=
  mk_gbox (xl b - n) (xu b - xl b + 1 + 2 * n) (yl b - n) (yu b - yl b + 1 + 2 * n) (zl b - n) (zu b - zl b + 1 + 2 * n).

(** kmin_*, kp_*: zero in two dimensions, KKSCompositionRHSStrategy.cc:234-266, BeckermannCompositionRHSStrategy.cc:222-265 *)
Definition kmin_of (nd3 : bool) (g : gbox) : Z := if nd3 then g2 g else 0%Z.
Definition kp_of (nd3 : bool) (g : gbox) : Z := if nd3 then (m0 g * m1 g)%Z else 0%Z.
(** idx_pf, idx_c_i, idx_k, KKS:290-295 *)
Definition idx_cell (nd3 : bool) (g : gbox) (ii jj kk : Z) : Z :=
  ((ii - g0 g) + (jj - g1 g) * m0 g + (kk - kmin_of nd3 g) * kp_of nd3 g)%Z.
(** idx_dcoeff on the three kinds of sides, KKS:286-288, 318-320, 353-355 *)
Definition idx_x (nd3 : bool) (g : gbox) (ii jj kk : Z) : Z :=
  ((ii - g0 g) + (jj - g1 g) * (m0 g + 1) + (kk - kmin_of nd3 g) * (kp_of nd3 g + m1 g))%Z.
Definition idx_y (nd3 : bool) (g : gbox) (ii jj kk : Z) : Z :=
  ((ii - g0 g) + (jj - g1 g) * m0 g + (kk - kmin_of nd3 g) * (kp_of nd3 g + m0 g))%Z.
Definition idx_z (nd3 : bool) (g : gbox) (ii jj kk : Z) : Z :=
  ((ii - g0 g) + (jj - g1 g) * m0 g + (kk - kmin_of nd3 g) * kp_of nd3 g)%Z.
(** kmin, kmax of the loops, KKS:268-277 *)
Definition k_lo (nd3 : bool) (b : box3) : Z := if nd3 then zl b else 0%Z.
Definition k_hi (nd3 : bool) (b : box3) : Z := if nd3 then zu b else 0%Z.

(** the strings both functions accept *)
Definition known_slope (it at_ : ascii) : bool :=
  match deriv_interp_func 0 it, average_func 0 0 at_ with Some _, Some _ => true | _, _ => false end.
Definition known_interp (it at_ : ascii) : bool :=
  match interp_func 0 it, average_func 0 0 at_ with Some _, Some _ => true | _, _ => false end.

(** ** KKSCompositionRHSStrategy *)
(** the value of a side, :300-308 *)
Definition kks_value (it at_ : ascii) (phi phim c_l c_lm c_a c_am d0 : R) : R :=
  let phi := val (average_func phi phim at_) in
  let c_l := 1 / 2 * (c_l + c_lm) in
  let c_a := 1 / 2 * (c_a + c_am) in
  let hphi_prime := val (deriv_interp_func phi it) in
  d0 * hphi_prime * (c_l - c_a).
(** setDiffCoeffForPhaseOnPatch, :205-374; gd, gp, gc: boxes of the coefficients, of phi and of the phase compositions *)
Definition kks_coupling (nd3 : bool) (b : box3) (gd gp gc : gbox) (phi c_l c_a : ptr) (d0 : ptrs) (it at_ : ascii) (out : ptrs)
    : option ptrs :=
  if known_slope it at_ then
    let '(dx0, dy0, dz0) := d0 in
    let '(ox, oy, oz) := out in
    let side (idx : bool -> gbox -> Z -> Z -> Z -> Z) (sp sc : Z) (d : ptr) (ii jj kk : Z) (s : ptr) : ptr :=
      let idx_dcoeff := idx nd3 gd ii jj kk in
      let idx_pf := idx_cell nd3 gp ii jj kk in
      let idxm1_pf := (idx_pf - sp)%Z in
      let idx_c_i := idx_cell nd3 gc ii jj kk in
      let idxm1_c_i := (idx_c_i - sc)%Z in
      store s idx_dcoeff
        (kks_value it at_ (phi idx_pf) (phi idxm1_pf) (c_l idx_c_i) (c_l idxm1_c_i) (c_a idx_c_i) (c_a idxm1_c_i) (d idx_dcoeff)) in
    Some (do_cells3 (xl b) (xu b + 1) (yl b) (yu b) (k_lo nd3 b) (k_hi nd3 b) (side idx_x 1%Z 1%Z dx0) ox,
          do_cells3 (xl b) (xu b) (yl b) (yu b + 1) (k_lo nd3 b) (k_hi nd3 b) (side idx_y (m0 gp) (m0 gc) dy0) oy,
          if nd3 then do_cells3 (xl b) (xu b) (yl b) (yu b) (k_lo nd3 b) (k_hi nd3 b + 1) (side idx_z (kp_of nd3 gp) (kp_of nd3 gc) dz0) oz
          else oz)
  else None.

(** ** BeckermannCompositionRHSStrategy *)
(** the value of a side, :300-311 *)
Definition beckermann_value (it at_ : ascii) (phi phim c cm k km d0 : R) : R :=
  let phi := val (average_func phi phim at_) in
  let hphi := val (interp_func phi it) in
  let c := val (average_func c cm at_) in
  let k := val (average_func k km at_) in
  d0 * (1 - k) * c / (1 - hphi + k * hphi).
(** setDiffusionCoeffForPhaseOnPatch, :190-397.  The composition is addressed with the ghost box of the partition
    coefficient (c_i_gbox, :246), the previous partition coefficient is idx_k - 1 on all sides (:298, 337, 377), and only
    the x sides assert that it is in [0,1] (:307-308); [checks]: assertions are compiled in *)
Definition beckermann_coupling (nd3 checks : bool) (b : box3) (gd gp gk : gbox) (phi c k : ptr) (d0 : ptrs) (it at_ : ascii) (out : ptrs)
    : option ptrs :=
  if known_interp it at_ then
    let '(dx0, dy0, dz0) := d0 in
    let '(ox, oy, oz) := out in
    let gc := gk in
    let side (idx : bool -> gbox -> Z -> Z -> Z -> Z) (sp sc : Z) (d : ptr) (ii jj kk : Z) (s : ptr) : ptr :=
      let idx_dcoeff := idx nd3 gd ii jj kk in
      let idx_pf := idx_cell nd3 gp ii jj kk in
      let idxm1_pf := (idx_pf - sp)%Z in
      let idx_c_i := idx_cell nd3 gc ii jj kk in
      let idxm1_c_i := (idx_c_i - sc)%Z in
      let idx_k := idx_cell nd3 gk ii jj kk in
      let idxm1_k := (idx_k - 1)%Z in
      store s idx_dcoeff
        (beckermann_value it at_ (phi idx_pf) (phi idxm1_pf) (c idx_c_i) (c idxm1_c_i) (k idx_k) (k idxm1_k) (d idx_dcoeff)) in
    let asserted (ii jj kk : Z) : bool :=
      let idx_k := idx_cell nd3 gk ii jj kk in
      let kf := val (average_func (k idx_k) (k (idx_k - 1)%Z) at_) in
      negb checks || ((if Rle_dec 0 kf then true else false) && (if Rle_dec kf 1 then true else false)) in
    match do_cells3 (xl b) (xu b + 1) (yl b) (yu b) (k_lo nd3 b) (k_hi nd3 b)
            (fun ii jj kk s => match s with None => None | Some p => if asserted ii jj kk then Some (side idx_x 1%Z 1%Z dx0 ii jj kk p) else None end)
            (Some ox) with
    | None => None
    | Some ox =>
      Some (ox,
            do_cells3 (xl b) (xu b) (yl b) (yu b + 1) (k_lo nd3 b) (k_hi nd3 b) (side idx_y (m0 gp) (m0 gc) dy0) oy,
            if nd3 then do_cells3 (xl b) (xu b) (yl b) (yu b) (k_lo nd3 b) (k_hi nd3 b + 1) (side idx_z (kp_of nd3 gp) (kp_of nd3 gc) dz0) oz
            else oz)
    end
  else None.

(** ** the flux, computeFluxOnPatch of both, KKS:378-441, Beckermann:401-466 *)
(** dummy arrays of the Fortran kernel, declared CELL3d, SIDE3d0, SIDE3d1, SIDE3d2 (CELL2d, SIDE2d0, SIDE2d1) with a ghost width *)
Definition f_cell (nd3 : bool) (g : gbox) (p : ptr) : arr3 := fun i j k =>
  p ((i - g0 g) + m0 g * (j - g1 g) + (if nd3 then m0 g * m1 g * (k - g2 g) else 0))%Z.
Definition f_side (nd3 : bool) (g : gbox) (p : ptrs) : arr3x3 :=
  (f_cell nd3 (mk_gbox (g0 g) (m0 g + 1) (g1 g) (m1 g) (g2 g) (m2 g)) (fst (fst p)),
   f_cell nd3 (mk_gbox (g0 g) (m0 g) (g1 g) (m1 g + 1) (g2 g) (m2 g)) (snd (fst p)),
   f_cell nd3 (mk_gbox (g0 g) (m0 g) (g1 g) (m1 g) (g2 g) (m2 g + 1)) (snd p)).
(** gc, gp: boxes of conc and phase; both coefficients are passed with ghost width 0 *)
Definition coupled_flux3 (b : box3) (gc gp : gbox) (conc phi : ptr) (d0 coupl : ptrs) (flux : arr3x3) : arr3x3 :=
  concentrationflux3 b (f_cell true gc conc) (f_cell true gp phi) (f_side true (grown b 0) d0) (f_side true (grown b 0) coupl) flux.
Definition coupled_flux2 (b : box3) (gc gp : gbox) (conc phi : ptr) (d0 coupl : ptrs) (flux : arr2 * arr2) : arr2 * arr2 :=
  let sec (f : arr3) : arr2 := fun i j => f i j 0%Z in
  let d := f_side false (grown b 0) d0 in
  let c := f_side false (grown b 0) coupl in
  Transport_Model.concentrationflux (xl b) (xu b) (yl b) (yu b) (hx b) (hy b) (sec (f_cell false gc conc)) (sec (f_cell false gp phi))
    (sec (fst (fst d))) (sec (snd (fst d))) (sec (fst (fst c))) (sec (snd (fst c))) (fst flux) (snd flux).
