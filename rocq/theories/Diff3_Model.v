(** Model of the diffusion coefficients of the composition equation in three dimensions (3d/concentrationdiffusion.m4 and
    the drivers that call it), depth 0: the coefficient of one species.  Face (i,j,k) lies below cell (i,j,k) in its
    direction.  Exact reals; arrays are total functions; a kernel stops (None) on an unknown interpolation or average type.
    The functions of two neighbouring cells (hface, hface_sum, inv_T, arrhenius), the types and the members of the
    strategies are those of Diffusion_Model. *)
From Coq Require Import Reals ZArith List Bool Ascii.
From Verif Require Import Grid_Model Functions_Model PhaseFlow_Model Trap3_Model.
From Verif Require Import Diffusion_Model.
Import ListNotations.
Open Scope R_scope.

(** the loops over the faces normal to x, y and z; [fx], [fy], [fz] is the value assigned *)
Definition fill3 (b : box3) (fx fy fz : Z -> Z -> Z -> R) (old : arr3x3) : arr3x3 :=
  let '(old0, old1, old2) := old in
  (xfaces3 b (fun i j k _ => fx i j k) old0, yfaces3 b (fun i j k _ => fy i j k) old1, zfaces3 b (fun i j k _ => fz i j k) old2).
(** the same when all three loops have the same body, for the cell before the face and the cell after it *)
Definition fill3_same (b : box3) (coef : Z -> Z -> Z -> Z -> Z -> Z -> R) (old : arr3x3) : arr3x3 :=
  fill3 b (fun i j k => coef (i - 1)%Z j k i j k) (fun i j k => coef i (j - 1)%Z k i j k) (fun i j k => coef i j (k - 1)%Z i j k) old.

(** concentration_pfmdiffusion, 3d/concentrationdiffusion.m4:14-126 *)
Definition pfmdiffusion3 (b : box3) (phi temp : arr3) (d_liquid q0_liquid d_solid q0_solid gasR : R) (itype atype : ascii) (old : arr3x3)
    : option arr3x3 :=
  if known itype atype then
    Some (fill3_same b (fun i0 j0 k0 i j k =>
      let hphi := hface itype atype (phi i0 j0 k0) (phi i j k) in
      let invT := inv_T (temp i0 j0 k0) (temp i j k) in
      (1 - hphi) * arrhenius d_liquid q0_liquid gasR invT + hphi * arrhenius d_solid q0_solid gasR invT) old)
  else None.
(** concentration_pfmdiffusion_scalar, :130-199 *)
Definition pfmdiffusion_scalar3 (b : box3) (phi : arr3) (d_liquid d_solid : R) (itype atype : ascii) (old : arr3x3) : option arr3x3 :=
  if known itype atype then
    Some (fill3_same b (fun i0 j0 k0 i j k =>
      let hphi := hface itype atype (phi i0 j0 k0) (phi i j k) in (1 - hphi) * d_liquid + hphi * d_solid) old)
  else None.
(** concentration_pfmdiffusion_scalar_2phases, :203-303 *)
Definition pfmdiffusion_scalar_2phases3 (b : box3) (phiL : arr3) (phiA : arr4) (nA : Z) (d_liquid d_solid : R) (itype atype : ascii)
    (old : arr3x3) : option arr3x3 :=
  if known itype atype then
    Some (fill3_same b (fun i0 j0 k0 i j k =>
      hface itype atype (phiL i0 j0 k0) (phiL i j k) * d_liquid + hface_sum itype atype nA (phiA i0 j0 k0) (phiA i j k) * d_solid) old)
  else None.
(** concentration_pfmdiffusion_scalar_3phases, :605-733 *)
Definition pfmdiffusion_scalar_3phases3 (b : box3) (phiL : arr3) (phiA : arr4) (nA : Z) (phiB : arr4) (nB : Z)
    (d_liquid d_solidA d_solidB : R) (itype atype : ascii) (old : arr3x3) : option arr3x3 :=
  if known itype atype then
    Some (fill3_same b (fun i0 j0 k0 i j k =>
      hface itype atype (phiL i0 j0 k0) (phiL i j k) * d_liquid + hface_sum itype atype nA (phiA i0 j0 k0) (phiA i j k) * d_solidA
      + hface_sum itype atype nB (phiB i0 j0 k0) (phiB i j k) * d_solidB) old)
  else None.
(** the boxes of the loops that include ng ghost cells in the two directions along the face, :360-362, 384-386, 408-410 *)
Definition grow_x3 (b : box3) (ng : Z) : box3 := mk_box3 (xl b) (xu b) (yl b - ng) (yu b + ng) (zl b - ng) (zu b + ng) (hx b) (hy b) (hz b).
Definition grow_y3 (b : box3) (ng : Z) : box3 := mk_box3 (xl b - ng) (xu b + ng) (yl b) (yu b) (zl b - ng) (zu b + ng) (hx b) (hy b) (hz b).
Definition grow_z3 (b : box3) (ng : Z) : box3 := mk_box3 (xl b - ng) (xu b + ng) (yl b - ng) (yu b + ng) (zl b) (zu b) (hx b) (hy b) (hz b).
(** concentration_pfmdiffusion_of_temperature, :310-428: coefficients of the liquid and of the solid, with ngdiff ghosts *)
Definition pfmdiffusion_T3 (b : box3) (ng : Z) (phi temp : arr3) (d_liquid q0_liquid d_solid q0_solid gasR : R) (itype atype : ascii)
    (oldL oldA : arr3x3) : option (arr3x3 * arr3x3) :=
  if known itype atype then
    let cL i0 j0 k0 i j k :=
      (1 - hface itype atype (phi i0 j0 k0) (phi i j k)) * arrhenius d_liquid q0_liquid gasR (inv_T (temp i0 j0 k0) (temp i j k)) in
    let cA i0 j0 k0 i j k :=
      hface itype atype (phi i0 j0 k0) (phi i j k) * arrhenius d_solid q0_solid gasR (inv_T (temp i0 j0 k0) (temp i j k)) in
    let fill (c : Z -> Z -> Z -> Z -> Z -> Z -> R) (old : arr3x3) : arr3x3 :=
      let '(old0, old1, old2) := old in
      (xfaces3 (grow_x3 b ng) (fun i j k _ => c (i - 1)%Z j k i j k) old0,
       yfaces3 (grow_y3 b ng) (fun i j k _ => c i (j - 1)%Z k i j k) old1,
       zfaces3 (grow_z3 b ng) (fun i j k _ => c i j (k - 1)%Z i j k) old2) in
    Some (fill cL oldL, fill cA oldA)
  else None.
(** concentration_pfmdiffusion_of_temperature_multiphases, :920-1045; the liquid is the last order parameter.  On the y
    faces both arguments of its average are the cell before the face (:997-998), on the z faces the second one is the
    neighbour below in y of the cell after the face (:1026-1027) *)
Definition pfmdiffusion_T_multi3 (b : box3) (phi : arr4) (nphi : Z) (temp : arr3) (d_liquid q0_liquid d_solid q0_solid gasR : R)
    (itype atype : ascii) (oldL oldA : arr3x3) : option (arr3x3 * arr3x3) :=
  if known itype atype then
    let cL p q t1 t2 := hface itype atype p q * arrhenius d_liquid q0_liquid gasR (inv_T t1 t2) in
    let cA i0 j0 k0 i j k :=
      hface_sum itype atype (nphi - 1) (phi i0 j0 k0) (phi i j k) * arrhenius d_solid q0_solid gasR (inv_T (temp i0 j0 k0) (temp i j k)) in
    Some (fill3 b (fun i j k => cL (phi (i - 1)%Z j k nphi) (phi i j k nphi) (temp (i - 1)%Z j k) (temp i j k))
                  (fun i j k => cL (phi i (j - 1)%Z k nphi) (phi i (j - 1)%Z k nphi) (temp i (j - 1)%Z k) (temp i j k))
                  (fun i j k => cL (phi i j (k - 1)%Z nphi) (phi i (j - 1)%Z k nphi) (temp i j (k - 1)%Z) (temp i j k)) oldL,
          fill3_same b cA oldA)
  else None.
(** the loop :572-577 over the order parameters of B on the z faces does not add: the last average is kept, 0 if there is none *)
Definition hface_last (itype atype : ascii) (n : Z) (p q : Z -> R) : R :=
  val (interp_func (do_loop 1 n (fun ip _ => val (average_func (p ip) (q ip) atype)) 0) itype).
(** concentration_pfmdiffusion_of_temperature_threephases, :430-602 *)
Definition pfmdiffusion_T_three3 (b : box3) (phiL : arr3) (phiA : arr4) (nA : Z) (phiB : arr4) (nB : Z) (temp : arr3)
    (d_liquid q0_liquid d_solidA q0_solidA d_solidB q0_solidB gasR : R) (itype atype : ascii) (oldL oldA oldB : arr3x3)
    : option (arr3x3 * arr3x3 * arr3x3) :=
  if known itype atype then
    let T i0 j0 k0 i j k := inv_T (temp i0 j0 k0) (temp i j k) in
    let cL i0 j0 k0 i j k := hface itype atype (phiL i0 j0 k0) (phiL i j k) * arrhenius d_liquid q0_liquid gasR (T i0 j0 k0 i j k) in
    let cA i0 j0 k0 i j k := hface_sum itype atype nA (phiA i0 j0 k0) (phiA i j k) * arrhenius d_solidA q0_solidA gasR (T i0 j0 k0 i j k) in
    let cB i0 j0 k0 i j k := hface_sum itype atype nB (phiB i0 j0 k0) (phiB i j k) * arrhenius d_solidB q0_solidB gasR (T i0 j0 k0 i j k) in
    let cBz i0 j0 k0 i j k := hface_last itype atype nB (phiB i0 j0 k0) (phiB i j k) * arrhenius d_solidB q0_solidB gasR (T i0 j0 k0 i j k) in
    Some (fill3_same b cL oldL, fill3_same b cA oldA,
          fill3 b (fun i j k => cB (i - 1)%Z j k i j k) (fun i j k => cB i (j - 1)%Z k i j k) (fun i j k => cBz i j (k - 1)%Z i j k) oldB)
  else None.
(** concentrationdiffusion_beckermann, :737-828; k is the value of the cell after the face *)
Definition diffusion_beckermann3 (b : box3) (phi kpart : arr3) (d_liquid d_solid : R) (itype atype : ascii) (old : arr3x3) : option arr3x3 :=
  if known itype atype then
    Some (fill3_same b (fun i0 j0 k0 i j k =>
      let hphi := hface itype atype (phi i0 j0 k0) (phi i j k) in
      d_solid + (d_liquid - d_solid) * (1 - hphi) / (1 - hphi + kpart i j k * hphi)) old)
  else None.

(** ** interface diffusion *)
(** add v to the six sides of cell (i,j,k), :1109-1114 *)
Definition add_six (i j k : Z) (v : R) (d : arr3x3) : arr3x3 :=
  let '(d0, d1, d2) := d in
  let d0 := upd3 d0 i j k (d0 i j k + v) in
  let d0 := upd3 d0 (i + 1)%Z j k (d0 (i + 1)%Z j k + v) in
  let d1 := upd3 d1 i j k (d1 i j k + v) in
  let d1 := upd3 d1 i (j + 1)%Z k (d1 i (j + 1)%Z k + v) in
  let d2 := upd3 d2 i j k (d2 i j k + v) in
  let d2 := upd3 d2 i j (k + 1)%Z (d2 i j (k + 1)%Z + v) in
  (d0, d1, d2).
(** ab_diffusion_of_temperature, :1050-1144; diffB is left alone when both sides are the same phase *)
Definition ab_diffusion_T3 (b : box3) (phia : arr4) (na : Z) (phib : arr4) (nb : Z) (temp : arr3) (d0c q0 gasR : R) (same : bool)
    (dA dB : arr3x3) : arr3x3 * arr3x3 :=
  do_cells3 (xl b) (xu b) (yl b) (yu b) (zl b) (zu b) (fun i j k s =>
    let factorT := d0c * exp (- (q0 / gasR) * (1 / temp i j k)) in
    pairs_loop (phia i j k) na (phib i j k) nb same (fun pa pb (s : arr3x3 * arr3x3) =>
      let dAB := 1 / 2 * factor4 * pa * pa * pb * pb * factorT in
      (add_six i j k dAB (fst s), if same then snd s else add_six i j k dAB (snd s))) s) (dA, dB).
(** add_ab_diffusion, :1197-1264: one ghost layer included *)
Definition add_ab_diffusion3 (b : box3) (phia : arr4) (na : Z) (phib : arr4) (nb : Z) (d0c : R) (same : bool) (d : arr3x3) : arr3x3 :=
  let factor := 1 / 2 * d0c * factor4 in
  do_cells3 (xl b - 1) (xu b + 1) (yl b - 1) (yu b + 1) (zl b - 1) (zu b + 1) (fun i j k s =>
    pairs_loop (phia i j k) na (phib i j k) nb same (fun pa pb s => add_six i j k (factor * pa * pa * pb * pb) s) s) d.
(** add_ab_diffusion_single, :1148-1192 *)
Definition add_ab_diffusion_single3 (b : box3) (phi : arr3) (d0c : R) (d : arr3x3) : arr3x3 :=
  let factor := 1 / 2 * d0c * 2 ^ 4 in
  do_cells3 (xl b - 1) (xu b + 1) (yl b - 1) (yu b + 1) (zl b - 1) (zu b + 1) (fun i j k s =>
    let pa := phi i j k in let pb := 1 - pa in add_six i j k (factor * pa * pa * pb * pb) s) d.

(** ** drivers, NDIM 3 *)
(** phi->getPointer(...) of a phase, ScalarCompositionDiffusionStrategy.cc:102-111 *)
Definition pointer3 (s : strategy) (phi : arr4) (x : ph) : arr4 := fun i j k ip => phi i j k (first_of s x + ip - 1)%Z.
(** ScalarCompositionDiffusionStrategy::setDiffusionInterfaces, :85-154 *)
Definition scalar_interfaces3 (s : strategy) (b : box3) (phi : arr4) (d : arr3x3) : option arr3x3 :=
  if pairs_ok s then
    Some (fold_left (fun d xy => add_ab_diffusion3 b (pointer3 s phi (fst xy)) (count_of s (fst xy)) (pointer3 s phi (snd xy)) (count_of s (snd xy))
                                   (dpair s (fst xy) (snd xy)) (same_ph (fst xy) (snd xy)) d) (pair_list s) d)
  else None.
(** ScalarCompositionDiffusionStrategy::setDiffusion on a patch, :156-238; depth is the number of order parameters of phi *)
Definition scalar_setDiffusion3 (s : strategy) (b : box3) (depth : Z) (phi : arr4) (old : arr3x3) : option arr3x3 :=
  bind (interpChar (itp s)) (fun c =>
  let phiL := fun i j k => pointer3 s phi PL i j k 1%Z in
  let nA := if with3phases s then 1%Z else norderpA s in
  if with_phaseB s then
    if (depth =? norderp s)%Z then
      bind (pfmdiffusion_scalar_3phases3 b phiL (pointer3 s phi PA) nA (pointer3 s phi PB) (if with3phases s then 1%Z else norderpB s)
              (dbulk s PL) (dbulk s PA) (dbulk s PB) c (avg s) old) (scalar_interfaces3 s b phi)
    else None
  else if (1 <? depth)%Z then
    bind (pfmdiffusion_scalar_2phases3 b phiL (pointer3 s phi PA) nA (dbulk s PL) (dbulk s PA) c (avg s) old) (scalar_interfaces3 s b phi)
  else pfmdiffusion_scalar3 b (fun i j k => phi i j k 0%Z) (dbulk s PL) (dbulk s PA) c (avg s) old).

(** coefficients of the three phases *)
Record coefs33 := mk_coefs33 { dL : arr3x3; dA : arr3x3; dB : arr3x3 }.
Definition get33 (d : coefs33) (x : ph) : arr3x3 := match x with PL => dL d | PA => dA d | PB => dB d end.
Definition set33 (d : coefs33) (x : ph) (f : arr3x3) : coefs33 :=
  match x with PL => mk_coefs33 f (dA d) (dB d) | PA => mk_coefs33 (dL d) f (dB d) | PB => mk_coefs33 (dL d) (dA d) f end.
(** TbasedCompositionDiffusionStrategy::setDiffusionInterfaces, :119-208 *)
Definition T_interfaces3 (s : strategy) (b : box3) (phi : arr4) (temp : arr3) (d : coefs33) : option coefs33 :=
  if pairs_ok s then
    Some (fold_left (fun d xy =>
      let (x, y) := (xy : ph * ph) in
      let r := ab_diffusion_T3 b (pointer3 s phi x) (count_of s x) (pointer3 s phi y) (count_of s y) temp (dpair s x y) (qpair s x y)
                 (gas_constant s) (same_ph x y) (get33 d x) (get33 d y) in
      if same_ph x y then set33 d x (fst r) else set33 (set33 d x (fst r)) y (snd r)) (pair_list s) d)
  else None.
(** TbasedCompositionDiffusionStrategy::setDiffusion on a patch, :210-331; ng is the ghost width of the coefficients *)
Definition T_setDiffusion3 (s : strategy) (b : box3) (ng depth : Z) (phi : arr4) (temp : arr3) (old : coefs33) : option coefs33 :=
  bind (interpChar (itp s)) (fun c =>
  let phiL := fun i j k => pointer3 s phi PL i j k 1%Z in
  if with_phaseB s then
    if (depth =? norderp s)%Z then
      bind (pfmdiffusion_T_three3 b phiL (pointer3 s phi PA) (if with3phases s then 1%Z else norderpA s) (pointer3 s phi PB)
              (if with3phases s then 1%Z else norderpB s) temp (dbulk s PL) (qbulk s PL) (dbulk s PA) (qbulk s PA) (dbulk s PB) (qbulk s PB)
              (gas_constant s) c (avg s) (dL old) (dA old) (dB old))
        (fun d => T_interfaces3 s b phi temp (mk_coefs33 (fst (fst d)) (snd (fst d)) (snd d)))
    else None
  else if (1 <? depth)%Z then
    bind (pfmdiffusion_T_multi3 b (fun i j k ip => phi i j k (ip - 1)%Z) depth temp (dbulk s PL) (qbulk s PL) (dbulk s PA) (qbulk s PA)
            (gas_constant s) c (avg s) (dL old) (dA old))
      (fun d => T_interfaces3 s b phi temp (mk_coefs33 (fst d) (snd d) (dB old)))
  else
    bind (pfmdiffusion_T3 b ng (fun i j k => phi i j k 0%Z) temp (dbulk s PL) (qbulk s PL) (dbulk s PA) (qbulk s PA) (gas_constant s) c (avg s)
            (dL old) (dA old))
      (fun d => Some (mk_coefs33 (fst d) (snd d) (dB old)))).
(** WangSinteringCompositionDiffusionStrategy::setDiffusion on a patch, :126-168, with setDiffusionInterfaces, :84-124 *)
Definition wang_setDiffusion3 (d_liquid d_solid d_LA d_AA : R) (t : interp_type) (a : ascii) (b : box3) (depth : Z) (phi : arr4) (conc : arr3)
    (old : arr3x3) : option arr3x3 :=
  bind (interpChar t) (fun c => bind (pfmdiffusion_scalar3 b conc d_liquid d_solid c a old) (fun d =>
    let p := fun i j k ip => phi i j k (ip - 1)%Z in
    Some (add_ab_diffusion_single3 b conc d_LA (add_ab_diffusion3 b p depth p depth d_AA true d)))).
