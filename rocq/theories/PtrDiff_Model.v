(** Model of the diffusion coefficients that C++ loops compute on a patch in two and three dimensions:
    MobilityCompositionDiffusionStrategy and SpinodalCompositionRHSStrategy.  Patch data are addressed through pointers,
    as in Coupl_Model: memory is a total function from offsets to exact reals, one for every depth; [nd3] is NDIM == 3.
    The matrix of diffusion coefficients of a phase at a temperature and composition is an input: it is modelled in
    Mobility_Model (localDiffusionMatrix).  An unknown interpolation or average type, or a failed assertion on a
    composition, stops the run (None); other assertions are not modelled. *)
From Coq Require Import Reals ZArith List Bool Ascii.
From Verif Require Import Grid_Model Functions_Model PhaseFlow_Model Trap3_Model Coupl_Model.
Import ListNotations.
Open Scope R_scope.

(** getPointer(e) for every depth e; getPointer(d, e) of side data for the directions d = 0, 1, 2 *)
Definition fields : Type := Z -> ptr.
Definition sides : Type := fields * fields * fields.
(** d_local_dmat as a function of the temperature and the compositions *)
Definition dmat : Type := R -> (Z -> R) -> Z -> R.
(** ptr[e][n] = v *)
Definition store_at (p : fields) (e n : Z) (v : R) : fields := fun e' => if (e' =? e)%Z then store (p e) n v else p e'.
(** for (int ic = 0; ic < nc2; ic++) ptr[ic][idx] = v[ic], MobilityCompositionDiffusionStrategy.cc:322-323, 326-327 *)
Definition store_all (n2 idx : Z) (v : Z -> R) (p : fields) : fields := do_loop 0 (n2 - 1) (fun e s => store_at s e idx (v e)) p.
(** std::vector<double> c(n) *)
Definition vec (n : Z) (f : Z -> R) : Z -> R := fun ic => if ((0 <=? ic) && (ic <? n))%Z%bool then f ic else 0.
(** the loops over the sides of the patch along x, y and z; the loop along z in three dimensions only *)
Definition x_loop {S : Type} (nd3 : bool) (b : box3) (body : Z -> Z -> Z -> S -> S) : S -> S :=
  do_cells3 (xl b) (xu b + 1) (yl b) (yu b) (k_lo nd3 b) (k_hi nd3 b) body.
Definition y_loop {S : Type} (nd3 : bool) (b : box3) (body : Z -> Z -> Z -> S -> S) : S -> S :=
  do_cells3 (xl b) (xu b) (yl b) (yu b + 1) (k_lo nd3 b) (k_hi nd3 b) body.
Definition z_loop {S : Type} (nd3 : bool) (b : box3) (body : Z -> Z -> Z -> S -> S) (s : S) : S :=
  if nd3 then do_cells3 (xl b) (xu b) (yl b) (yu b) (k_lo nd3 b) (k_hi nd3 b + 1) body s else s.

(** ** MobilityCompositionDiffusionStrategy *)
(** the assertions on a liquid composition, :313-316 *)
Definition tolerated (c : R) : bool := (if Rle_dec (- (5 / 100)) c then true else false) && (if Rle_dec c (105 / 100) then true else false).
(** setDiffCoeffInEachPhaseOnPatch, :197-404; gd, gc, gt: boxes of the coefficients, of the phase compositions and of the
    temperature; [checks]: assertions are compiled in; they are in the loop over the x sides only *)
Definition phase_coeffs (nd3 checks : bool) (b : box3) (gd gc gt : gbox) (n : Z) (mat_l mat_a : dmat) (temp : ptr) (c_l c_a : fields)
    (out_l out_a : sides) : option (sides * sides) :=
  let n2 := (n * n)%Z in
  let side (idx : bool -> gbox -> Z -> Z -> Z -> Z) (sc st : Z) (ii jj kk : Z) (s : fields * fields) : fields * fields :=
    let idx_dcoeff := idx nd3 gd ii jj kk in
    let idx_c := idx_cell nd3 gc ii jj kk in
    let idxm1_c := (idx_c - sc)%Z in
    let idx_temp := idx_cell nd3 gt ii jj kk in
    let idxm1_temp := (idx_temp - st)%Z in
    let t := 1 / 2 * (temp idx_temp + temp idxm1_temp) in
    let cl := vec n (fun ic => 1 / 2 * (c_l ic idx_c + c_l ic idxm1_c)) in
    let ca := vec n (fun ic => 1 / 2 * (c_a ic idx_c + c_a ic idxm1_c)) in
    (store_all n2 idx_dcoeff (mat_l t cl) (fst s), store_all n2 idx_dcoeff (mat_a t ca) (snd s)) in
  let asserted (ii jj kk : Z) : bool :=
    let idx_c := idx_cell nd3 gc ii jj kk in
    negb checks || forallb (fun ic => tolerated (c_l ic idx_c) && tolerated (c_l ic (idx_c - 1)%Z)) (range 0 (n - 1)) in
  let '(lx, ly, lz) := out_l in
  let '(ax, ay, az) := out_a in
  match x_loop nd3 b (fun ii jj kk s => match s with None => None
                        | Some p => if asserted ii jj kk then Some (side idx_x 1%Z 1%Z ii jj kk p) else None end) (Some (lx, ax)) with
  | None => None
  | Some (lx, ax) =>
    let (ly, ay) := y_loop nd3 b (side idx_y (m0 gc) (m0 gt)) (ly, ay) in
    let (lz, az) := z_loop nd3 b (side idx_z (kp_of nd3 gc) (kp_of nd3 gt)) (lz, az) in
    Some ((lx, ly, lz), (ax, ay, az))
  end.
(** setPFMDiffOnPatch, :408-611; gd, gw, gp: boxes of the coefficients of the phases, of the weighted ones and of the phase *)
Definition weighted_coeffs (nd3 : bool) (b : box3) (gd gw gp : gbox) (n : Z) (phi : ptr) (d_l d_a : sides) (it at_ : ascii)
    (out_l out_a : sides) : option (sides * sides) :=
  if known_interp it at_ then
    let n2 := (n * n)%Z in
    let side (idx : bool -> gbox -> Z -> Z -> Z -> Z) (sp : Z) (dl da : fields) (ii jj kk : Z) (s : fields * fields) : fields * fields :=
      let idx_dcoeff := idx nd3 gd ii jj kk in
      let idx_dpf := idx nd3 gw ii jj kk in
      let idx_pf := idx_cell nd3 gp ii jj kk in
      let idxm1_pf := (idx_pf - sp)%Z in
      let phi_ := val (average_func (phi idx_pf) (phi idxm1_pf) at_) in
      let hphi := val (interp_func phi_ it) in
      (store_all n2 idx_dpf (fun ic => (1 - hphi) * dl ic idx_dcoeff) (fst s), store_all n2 idx_dpf (fun ic => hphi * da ic idx_dcoeff) (snd s)) in
    let '(lx, ly, lz) := out_l in
    let '(ax, ay, az) := out_a in
    let '(dlx, dly, dlz) := d_l in
    let '(dax, day, daz) := d_a in
    let (lx, ax) := x_loop nd3 b (side idx_x 1%Z dlx dax) (lx, ax) in
    let (ly, ay) := y_loop nd3 b (side idx_y (m0 gp) dly day) (ly, ay) in
    let (lz, az) := z_loop nd3 b (side idx_z (kp_of nd3 gp) dlz daz) (lz, az) in
    Some ((lx, ly, lz), (ax, ay, az))
  else None.
(** setDiffusion, :98-147, on one patch: the coefficients of the phases are kept in patch data [d], then weighted into [out] *)
Definition set_diffusion (nd3 checks : bool) (b : box3) (gd gw gc gt gp : gbox) (n : Z) (mat_l mat_a : dmat) (temp phi : ptr) (c_l c_a : fields)
    (it at_ : ascii) (d out : sides * sides) : option (sides * sides) :=
  match phase_coeffs nd3 checks b gd gc gt n mat_l mat_a temp c_l c_a (fst d) (snd d) with
  | None => None
  | Some (d_l, d_a) => weighted_coeffs nd3 b gd gw gp n phi d_l d_a it at_ (fst out) (snd out)
  end.

(** ** SpinodalCompositionRHSStrategy: the header of its base class is not in the repository and no factory constructs it *)
(** setDiffusionCoeffForConcOnPatch, SpinodalCompositionRHSStrategy.cc:186-365; [d0] is mobmat[0] * d2f[0] (:296); only the
    first depth is written *)
Definition spinodal_coeffs (nd3 : bool) (b : box3) (gd gc gt : gbox) (n : Z) (d0 : R -> (Z -> R) -> R) (temp : ptr) (c : fields) (out : ptrs) : ptrs :=
  let side (idx : bool -> gbox -> Z -> Z -> Z -> Z) (sc st : Z) (ii jj kk : Z) (s : ptr) : ptr :=
    let idx_dcoeff := idx nd3 gd ii jj kk in
    let idx_c := idx_cell nd3 gc ii jj kk in
    let idxm1_c := (idx_c - sc)%Z in
    let idx_temp := idx_cell nd3 gt ii jj kk in
    let idxm1_temp := (idx_temp - st)%Z in
    let t := 1 / 2 * (temp idx_temp + temp idxm1_temp) in
    store s idx_dcoeff (d0 t (vec n (fun ic => 1 / 2 * (c ic idx_c + c ic idxm1_c)))) in
  let '(ox, oy, oz) := out in
  (x_loop nd3 b (side idx_x 1%Z 1%Z) ox, y_loop nd3 b (side idx_y (m0 gc) (m0 gt)) oy,
   z_loop nd3 b (side idx_z (kp_of nd3 gc) (kp_of nd3 gt)) oz).
(** the patch data indices the strategy holds, SpinodalCompositionRHSStrategy.h:42-51 *)
Record spinodal := mk_spinodal { id_conc : Z; id_phase : Z; id_eta : Z; id_a : Z; id_b : Z; id_diff : Z; s_kappa : R }.
(** the constructor, :21-56, stops on a failed assertion; line 46 assigns phase_scratch_id to d_eta_scratch_id *)
Definition make_spinodal (conc phase eta ncomp a b diff : Z) (kappa : R) : option spinodal :=
  if ((-1 <? eta) && (-1 <? a) && (-1 <? b) && (-1 <? diff) && (0 <? ncomp))%Z%bool
  then Some (mk_spinodal conc phase phase a b diff kappa) else None.
(** computeFluxOnPatch, :60-125, in two dimensions: cell data of an index with [ng] = NGHOSTS ghost cells, the coefficients
    of an index passed with ghost width 0 *)
Definition spinodal_patch_flux (s : spinodal) (b : box3) (ng : Z) (cells : Z -> ptr) (coeffs : Z -> ptrs) (flux : arr2 * arr2) : arr2 * arr2 :=
  let cell (id : Z) : arr2 := fun i j => f_cell false (grown b ng) (cells id) i j 0%Z in
  let d := f_side false (grown b 0) (coeffs (id_diff s)) in
  spinodal_flux (xl b) (xu b) (yl b) (yu b) (hx b) (hy b) (cell (id_conc s)) (cell (id_a s)) (cell (id_b s))
    (fun i j => fst (fst d) i j 0%Z) (fun i j => snd (fst d) i j 0%Z) (cell (id_eta s)) (s_kappa s) flux.
