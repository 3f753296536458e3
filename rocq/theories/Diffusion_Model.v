(** Diffusion coefficients of the composition equation (2D, depth 0: the coefficient of one species; for ternary alloys
    the drivers copy it to the other diagonal entry).  Fields are total functions of the cell index; the arrays of
    coefficients are total functions of the face index, face (i,j) lying below cell (i,j) in its direction.  Exact reals.
    A kernel stops (None) on an unknown interpolation or average type. *)
From Coq Require Import Reals ZArith List Bool Ascii.
From Verif Require Import Grid_Model Functions_Model PhaseFlow_Model Stencils_Model.
Import ListNotations.
Open Scope R_scope.

(** the type strings both functions accept, functions.f:17-91, 332-367 *)
Definition known (itype atype : ascii) : bool :=
  match interp_func 0 itype, average_func 0 0 atype with Some _, Some _ => true | _, _ => false end.
(** vphi = average_func(...); hphi = interp_func(vphi, interp_type) *)
Definition hface (itype atype : ascii) (p q : R) : R := val (interp_func (val (average_func p q atype)) itype).
(** the same with the sum of the averages of n order parameters *)
Definition hface_sum (itype atype : ascii) (n : Z) (p q : Z -> R) : R :=
  val (interp_func (do_loop 1 n (fun ip s => s + val (average_func (p ip) (q ip) atype)) 0) itype).
(** invT and d*exp(-q0/R*invT) *)
Definition inv_T (t1 t2 : R) : R := 2 / (t1 + t2).
Definition arrhenius (d q0 gasR invT : R) : R := d * exp (- (q0 / gasR) * invT).

(** arrays on the x and y faces *)
Definition faces := (arr2 * arr2)%type.
Definition fill (b : pbox) (fx fy : Z -> Z -> R) (old : faces) : faces := (xfaces b fx (fst old), yfaces b fy (snd old)).

(** concentration_pfmdiffusion, 2d/concentrationdiffusion.m4:14-95 *)
Definition pfmdiffusion (b : pbox) (phi temp : arr2) (d_liquid q0_liquid d_solid q0_solid gasR : R) (itype atype : ascii) (old : faces) : option faces :=
  if known itype atype then
    let coef p q t1 t2 :=
      let hphi := hface itype atype p q in let invT := inv_T t1 t2 in
      (1 - hphi) * arrhenius d_liquid q0_liquid gasR invT + hphi * arrhenius d_solid q0_solid gasR invT in
    Some (fill b (fun i j => coef (phi (i - 1)%Z j) (phi i j) (temp (i - 1)%Z j) (temp i j))
                 (fun i j => coef (phi i (j - 1)%Z) (phi i j) (temp i (j - 1)%Z) (temp i j)) old)
  else None.
(** concentration_pfmdiffusion_scalar, :99-153 *)
Definition pfmdiffusion_scalar (b : pbox) (phi : arr2) (d_liquid d_solid : R) (itype atype : ascii) (old : faces) : option faces :=
  if known itype atype then
    let coef p q := let hphi := hface itype atype p q in (1 - hphi) * d_liquid + hphi * d_solid in
    Some (fill b (fun i j => coef (phi (i - 1)%Z j) (phi i j)) (fun i j => coef (phi i (j - 1)%Z) (phi i j)) old)
  else None.
(** concentration_pfmdiffusion_scalar_2phases, :157-229 *)
Definition pfmdiffusion_scalar_2phases (b : pbox) (phiL : arr2) (phiA : arr3) (nA : Z) (d_liquid d_solid : R) (itype atype : ascii)
    (old : faces) : option faces :=
  if known itype atype then
    let coef i0 j0 i j := hface itype atype (phiL i0 j0) (phiL i j) * d_liquid + hface_sum itype atype nA (phiA i0 j0) (phiA i j) * d_solid in
    Some (fill b (fun i j => coef (i - 1)%Z j i j) (fun i j => coef i (j - 1)%Z i j) old)
  else None.
(** concentration_pfmdiffusion_scalar_3phases, :643-732 *)
Definition pfmdiffusion_scalar_3phases (b : pbox) (phiL : arr2) (phiA : arr3) (nA : Z) (phiB : arr3) (nB : Z) (d_liquid d_solidA d_solidB : R)
    (itype atype : ascii) (old : faces) : option faces :=
  if known itype atype then
    let coef i0 j0 i j := hface itype atype (phiL i0 j0) (phiL i j) * d_liquid + hface_sum itype atype nA (phiA i0 j0) (phiA i j) * d_solidA
                          + hface_sum itype atype nB (phiB i0 j0) (phiB i j) * d_solidB in
    Some (fill b (fun i j => coef (i - 1)%Z j i j) (fun i j => coef i (j - 1)%Z i j) old)
  else None.
(** the boxes of the loops that include ng ghost rows (x faces) and columns (y faces) *)
Definition grow_x (b : pbox) (ng : Z) : pbox := mk_pbox (lo0 b) (hi0 b) (lo1 b - ng) (hi1 b + ng) (h1 b) (h2 b).
Definition grow_y (b : pbox) (ng : Z) : pbox := mk_pbox (lo0 b - ng) (hi0 b + ng) (lo1 b) (hi1 b) (h1 b) (h2 b).
(** concentration_pfmdiffusion_of_temperature, :341-426: coefficients of the liquid and of the solid, with ngdiff ghosts *)
Definition pfmdiffusion_T (b : pbox) (ng : Z) (phi temp : arr2) (d_liquid q0_liquid d_solid q0_solid gasR : R) (itype atype : ascii)
    (oldL oldA : faces) : option (faces * faces) :=
  if known itype atype then
    let cL p q t1 t2 := (1 - hface itype atype p q) * arrhenius d_liquid q0_liquid gasR (inv_T t1 t2) in
    let cA p q t1 t2 := hface itype atype p q * arrhenius d_solid q0_solid gasR (inv_T t1 t2) in
    let on_x (c : R -> R -> R -> R -> R) i j := c (phi (i - 1)%Z j) (phi i j) (temp (i - 1)%Z j) (temp i j) in
    let on_y (c : R -> R -> R -> R -> R) i j := c (phi i (j - 1)%Z) (phi i j) (temp i (j - 1)%Z) (temp i j) in
    Some ((xfaces (grow_x b ng) (on_x cL) (fst oldL), yfaces (grow_y b ng) (on_y cL) (snd oldL)),
          (xfaces (grow_x b ng) (on_x cA) (fst oldA), yfaces (grow_y b ng) (on_y cA) (snd oldA)))
  else None.
(** concentration_pfmdiffusion_of_temperature_multiphases, :430-518; the liquid is the last order parameter.  On the y faces
    both arguments of the average of the liquid are the lower cell (:499-500) *)
Definition pfmdiffusion_T_multi (b : pbox) (phi : arr3) (nphi : Z) (temp : arr2) (d_liquid q0_liquid d_solid q0_solid gasR : R)
    (itype atype : ascii) (oldL oldA : faces) : option (faces * faces) :=
  if known itype atype then
    let cL p q t1 t2 := hface itype atype p q * arrhenius d_liquid q0_liquid gasR (inv_T t1 t2) in
    let cA p q t1 t2 := hface_sum itype atype (nphi - 1) p q * arrhenius d_solid q0_solid gasR (inv_T t1 t2) in
    Some (fill b (fun i j => cL (phi (i - 1)%Z j nphi) (phi i j nphi) (temp (i - 1)%Z j) (temp i j))
                 (fun i j => cL (phi i (j - 1)%Z nphi) (phi i (j - 1)%Z nphi) (temp i (j - 1)%Z) (temp i j)) oldL,
          fill b (fun i j => cA (phi (i - 1)%Z j) (phi i j) (temp (i - 1)%Z j) (temp i j))
                 (fun i j => cA (phi i (j - 1)%Z) (phi i j) (temp i (j - 1)%Z) (temp i j)) oldA)
  else None.
(** concentration_pfmdiffusion_of_temperature_threephases, :523-639 *)
Definition pfmdiffusion_T_three (b : pbox) (phiL : arr2) (phiA : arr3) (nA : Z) (phiB : arr3) (nB : Z) (temp : arr2)
    (d_liquid q0_liquid d_solidA q0_solidA d_solidB q0_solidB gasR : R) (itype atype : ascii) (oldL oldA oldB : faces)
    : option (faces * faces * faces) :=
  if known itype atype then
    let cL i0 j0 i j := hface itype atype (phiL i0 j0) (phiL i j) * arrhenius d_liquid q0_liquid gasR (inv_T (temp i0 j0) (temp i j)) in
    let cA i0 j0 i j := hface_sum itype atype nA (phiA i0 j0) (phiA i j) * arrhenius d_solidA q0_solidA gasR (inv_T (temp i0 j0) (temp i j)) in
    let cB i0 j0 i j := hface_sum itype atype nB (phiB i0 j0) (phiB i j) * arrhenius d_solidB q0_solidB gasR (inv_T (temp i0 j0) (temp i j)) in
    let fill2 (c : Z -> Z -> Z -> Z -> R) old := fill b (fun i j => c (i - 1)%Z j i j) (fun i j => c i (j - 1)%Z i j) old in
    Some (fill2 cL oldL, fill2 cA oldA, fill2 cB oldB)
  else None.
(** concentrationdiffusion_beckermann, :736-804; k is the value of the upper cell *)
Definition diffusion_beckermann (b : pbox) (phi k : arr2) (d_liquid d_solid : R) (itype atype : ascii) (old : faces) : option faces :=
  if known itype atype then
    let coef p q k := let hphi := hface itype atype p q in d_solid + (d_liquid - d_solid) * (1 - hphi) / (1 - hphi + k * hphi) in
    Some (fill b (fun i j => coef (phi (i - 1)%Z j) (phi i j) (k i j)) (fun i j => coef (phi i (j - 1)%Z) (phi i j) (k i j)) old)
  else None.

(** ** interface diffusion *)
(** threshold = 1.0d-2; factor = (1/(0.5-threshold))**4, :919-921, :1045-1048 *)
Definition threshold : R := 1 / 100.
Definition factor4 : R := (1 / (1 / 2 - threshold)) ^ 4.
(** add v to the four sides of cell (i,j), :946-949 *)
Definition add_four (i j : Z) (v : R) (d : faces) : faces :=
  let d0 := upd2 (fst d) i j (fst d i j + v) in
  let d0 := upd2 d0 (i + 1)%Z j (d0 (i + 1)%Z j + v) in
  let d1 := upd2 (snd d) i j (snd d i j + v) in
  let d1 := upd2 d1 i (j + 1)%Z (d1 i (j + 1)%Z + v) in
  (d0, d1).
(** the loops over the pairs of order parameters of one cell; act takes the contribution of a pair *)
Definition pairs_loop {S : Type} (pa : Z -> R) (na : Z) (pb : Z -> R) (nb : Z) (same : bool) (act : R -> R -> S -> S) (s : S) : S :=
  do_loop 1 na (fun ipa s =>
    if Rlt_dec threshold (pa ipa) then
      do_loop (if same then ipa + 1 else 1)%Z nb (fun ipb s =>
        if Rlt_dec threshold (pb ipb) then act (pa ipa - threshold) (pb ipb - threshold) s else s) s
    else s) s.
(** ab_diffusion_of_temperature, :883-968; diffB is left alone when both sides are the same phase *)
Definition ab_diffusion_T (b : pbox) (phia : arr3) (na : Z) (phib : arr3) (nb : Z) (temp : arr2) (d0c q0 gasR : R) (same : bool)
    (dA dB : faces) : faces * faces :=
  do_cells (lo0 b) (hi0 b) (lo1 b) (hi1 b) (fun i j s =>
    let factorT := d0c * exp (- (q0 / gasR) * (1 / temp i j)) in
    pairs_loop (phia i j) na (phib i j) nb same (fun pa pb (s : faces * faces) =>
      let dAB := 1 / 2 * factor4 * pa * pa * pb * pb * factorT in
      (add_four i j dAB (fst s), if same then snd s else add_four i j dAB (snd s))) s) (dA, dB).
(** add_ab_diffusion, :1014-1078: one ghost layer included *)
Definition add_ab_diffusion (b : pbox) (phia : arr3) (na : Z) (phib : arr3) (nb : Z) (d0c : R) (same : bool) (d : faces) : faces :=
  let factor := 1 / 2 * d0c * factor4 in
  do_cells (lo0 b - 1) (hi0 b + 1) (lo1 b - 1) (hi1 b + 1) (fun i j s =>
    pairs_loop (phia i j) na (phib i j) nb same (fun pa pb s => add_four i j (factor * pa * pa * pb * pb) s) s) d.
(** add_ab_diffusion_single, :970-1010 *)
Definition add_ab_diffusion_single (b : pbox) (phi : arr2) (d0c : R) (d : faces) : faces :=
  let factor := 1 / 2 * d0c * 2 ^ 4 in
  do_cells (lo0 b - 1) (hi0 b + 1) (lo1 b - 1) (hi1 b + 1) (fun i j s =>
    let pa := phi i j in let pb := 1 - pa in add_four i j (factor * pa * pa * pb * pb) s) d.

(** ** drivers *)
(** DiffusionInterpolationType and interpChar, CompositionDiffusionStrategy.h:18-46; UNDEFINED is an error *)
Inductive interp_type := LINEAR | PBG | BIASED | UNDEFINED.
Definition interpChar (t : interp_type) : option ascii :=
  match t with LINEAR => Some "l"%char | PBG => Some "p"%char | BIASED => Some "b"%char | UNDEFINED => None end.
(** reading diffusion_interp_func_type, QuatModelParameters.cc:1014-1034 *)
Definition read_interp (c : ascii) : interp_type :=
  if (c =? "l")%char || (c =? "L")%char then LINEAR else if (c =? "p")%char || (c =? "P")%char then PBG
  else if (c =? "b")%char then BIASED else UNDEFINED.

Inductive ph := PL | PA | PB.
(** members of ScalarCompositionDiffusionStrategy and TbasedCompositionDiffusionStrategy; dpair x y is D0_xy, x above y;
    the gas constant is Thermo4PFM's *)
Record strategy := mk_strategy {
  norderp : Z; norderpA : Z; norderpB : Z; with3phases : bool; with_phaseB : bool;
  dbulk : ph -> R; qbulk : ph -> R; dpair : ph -> ph -> R; qpair : ph -> ph -> R; gas_constant : R;
  itp : interp_type; avg : ascii }.
(** phi->getPointer(...) of a phase: the first order parameter of the phase is number 1,
    ScalarCompositionDiffusionStrategy.cc:102-111, TbasedCompositionDiffusionStrategy.cc:134-143 *)
Definition first_of (s : strategy) (x : ph) : Z :=
  match x with
  | PL => if with3phases s then 0 else norderp s - 1
  | PA => if with3phases s then 1 else 0
  | PB => if with3phases s then 2 else norderpA s
  end%Z.
Definition pointer (s : strategy) (phi : arr3) (x : ph) : arr3 := fun i j ip => phi i j (first_of s x + ip - 1)%Z.
Definition count_of (s : strategy) (x : ph) : Z := match x with PL => 1 | PA => norderpA s | PB => norderpB s end%Z.
Definition same_ph (x y : ph) : bool := match x, y with PL, PL => true | PA, PA => true | PB, PB => true | _, _ => false end.
(** the loop over i and j <= i, Scalar :129-156, Tbased :171-207; d0[0][0] = 0 *)
Definition pair_list (s : strategy) : list (ph * ph) :=
  filter (fun xy => if Rlt_dec 0 (dpair s (fst xy) (snd xy)) then true else false)
    ([(PA, PL); (PA, PA)] ++ (if with_phaseB s then [(PB, PL); (PB, PA); (PB, PB)] else [])).
(** assert(norderp[i] > 0) *)
Definition pairs_ok (s : strategy) : bool :=
  forallb (fun xy => (0 <? count_of s (fst xy))%Z && (0 <? count_of s (snd xy))%Z) (pair_list s).

(** ScalarCompositionDiffusionStrategy::setDiffusionInterfaces, :87-160 *)
Definition scalar_interfaces (s : strategy) (b : pbox) (phi : arr3) (d : faces) : option faces :=
  if pairs_ok s then
    Some (fold_left (fun d xy => add_ab_diffusion b (pointer s phi (fst xy)) (count_of s (fst xy)) (pointer s phi (snd xy)) (count_of s (snd xy))
                                   (dpair s (fst xy) (snd xy)) (same_ph (fst xy) (snd xy)) d) (pair_list s) d)
  else None.
(** ScalarCompositionDiffusionStrategy::setDiffusion on a patch, :162-248; depth is the number of order parameters of phi *)
Definition bind {A B : Type} (o : option A) (f : A -> option B) : option B := match o with Some x => f x | None => None end.
Definition scalar_setDiffusion (s : strategy) (b : pbox) (depth : Z) (phi : arr3) (old : faces) : option faces :=
  bind (interpChar (itp s)) (fun c =>
  let phiL := fun i j => pointer s phi PL i j 1%Z in
  let nA := if with3phases s then 1%Z else norderpA s in
  if with_phaseB s then
    if (depth =? norderp s)%Z then
      bind (pfmdiffusion_scalar_3phases b phiL (pointer s phi PA) nA (pointer s phi PB) (if with3phases s then 1%Z else norderpB s)
              (dbulk s PL) (dbulk s PA) (dbulk s PB) c (avg s) old) (scalar_interfaces s b phi)
    else None
  else if (1 <? depth)%Z then
    bind (pfmdiffusion_scalar_2phases b phiL (pointer s phi PA) nA (dbulk s PL) (dbulk s PA) c (avg s) old) (scalar_interfaces s b phi)
  else pfmdiffusion_scalar b (fun i j => phi i j 0%Z) (dbulk s PL) (dbulk s PA) c (avg s) old).

(** coefficients of the three phases *)
Record coefs3 := mk_coefs3 { cL : faces; cA : faces; cB : faces }.
Definition get3 (d : coefs3) (x : ph) : faces := match x with PL => cL d | PA => cA d | PB => cB d end.
Definition set3 (d : coefs3) (x : ph) (f : faces) : coefs3 :=
  match x with PL => mk_coefs3 f (cA d) (cB d) | PA => mk_coefs3 (cL d) f (cB d) | PB => mk_coefs3 (cL d) (cA d) f end.
(** TbasedCompositionDiffusionStrategy::setDiffusionInterfaces, :119-208 *)
Definition T_interfaces (s : strategy) (b : pbox) (phi : arr3) (temp : arr2) (d : coefs3) : option coefs3 :=
  if pairs_ok s then
    Some (fold_left (fun d xy =>
      let (x, y) := (xy : ph * ph) in
      let r := ab_diffusion_T b (pointer s phi x) (count_of s x) (pointer s phi y) (count_of s y) temp (dpair s x y) (qpair s x y)
                 (gas_constant s) (same_ph x y) (get3 d x) (get3 d y) in
      if same_ph x y then set3 d x (fst r) else set3 (set3 d x (fst r)) y (snd r)) (pair_list s) d)
  else None.
(** TbasedCompositionDiffusionStrategy::setDiffusion on a patch, :210-331; ng is the ghost width of the coefficients *)
Definition T_setDiffusion (s : strategy) (b : pbox) (ng depth : Z) (phi : arr3) (temp : arr2) (old : coefs3) : option coefs3 :=
  bind (interpChar (itp s)) (fun c =>
  let phiL := fun i j => pointer s phi PL i j 1%Z in
  if with_phaseB s then
    if (depth =? norderp s)%Z then
      bind (pfmdiffusion_T_three b phiL (pointer s phi PA) (if with3phases s then 1%Z else norderpA s) (pointer s phi PB)
              (if with3phases s then 1%Z else norderpB s) temp (dbulk s PL) (qbulk s PL) (dbulk s PA) (qbulk s PA) (dbulk s PB) (qbulk s PB)
              (gas_constant s) c (avg s) (cL old) (cA old) (cB old))
        (fun d => T_interfaces s b phi temp (mk_coefs3 (fst (fst d)) (snd (fst d)) (snd d)))
    else None
  else if (1 <? depth)%Z then
    bind (pfmdiffusion_T_multi b (fun i j ip => phi i j (ip - 1)%Z) depth temp (dbulk s PL) (qbulk s PL) (dbulk s PA) (qbulk s PA)
            (gas_constant s) c (avg s) (cL old) (cA old))
      (fun d => T_interfaces s b phi temp (mk_coefs3 (fst d) (snd d) (cB old)))
  else
    bind (pfmdiffusion_T b ng (fun i j => phi i j 0%Z) temp (dbulk s PL) (qbulk s PL) (dbulk s PA) (qbulk s PA) (gas_constant s) c (avg s)
            (cL old) (cA old))
      (fun d => Some (mk_coefs3 (fst d) (snd d) (cB old)))).
(** WangSinteringCompositionDiffusionStrategy::setDiffusion on a patch, :126-168, with setDiffusionInterfaces, :84-124;
    d_LA and d_AA are added without testing their sign *)
Definition wang_setDiffusion (d_liquid d_solid d_LA d_AA : R) (t : interp_type) (a : ascii) (b : pbox) (depth : Z) (phi : arr3) (conc : arr2)
    (old : faces) : option faces :=
  bind (interpChar t) (fun c => bind (pfmdiffusion_scalar b conc d_liquid d_solid c a old) (fun d =>
    let p := fun i j ip => phi i j (ip - 1)%Z in
    Some (add_ab_diffusion_single b conc d_LA (add_ab_diffusion b p depth p depth d_AA true d)))).
(** the flux of the phases with the isotropic stencil, EBSCompositionRHSStrategy::computeFluxOnPatch, EBSCompositionRHSStrategy.cc:185-341,
    binary alloy, phases l and a *)
Definition one (d : arr2) : arr3 := fun i j _ => d i j.
Definition ebs_isotropic_flux (b : pbox) (cl ca : arr2) (d : coefs3) : arr3 * arr3 :=
  let add (c : arr2) (f : faces) := add_flux_iso (lo0 b) (hi0 b) (lo1 b) (hi1 b) 1 (h1 b) (h2 b) (one c) (one (fst f)) (one (snd f)) in
  add ca (cA d) (add cl (cL d) (fun _ _ _ => 0, fun _ _ _ => 0)).
