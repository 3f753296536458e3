(** Model of the composition fluxes in three dimensions, source/fortran/3d/concentrationrhs.m4, and of
    concentrationflux_spinodal in two dimensions.  Exact reals, the single-precision constants 1.e-8 and 0.5 are exact;
    arrays are total functions, ghost widths are not modelled.  Face (i,j,k) of flux0 is between cells i-1 and i,
    of flux1 between j-1 and j, of flux2 between k-1 and k. *)
From Coq Require Import Reals ZArith List.
From Verif Require Import Grid_Model AntiTrap_Model.
Open Scope R_scope.

(** index box of a patch and mesh spacing dx(0:2) *)
Record box3 := mk_box3 { xl : Z; xu : Z; yl : Z; yu : Z; zl : Z; zu : Z; hx : R; hy : R; hz : R }.
Definition arr3x3 : Type := arr3 * arr3 * arr3.
Definition arr4x3 : Type := arr4 * arr4 * arr4.

(** loops over the faces normal to x, y, z (e.g. 3d/concentrationrhs.m4:56-58, 71-73, 86-88); [f] gets the old value *)
Definition xfaces3 (b : box3) (f : Z -> Z -> Z -> R -> R) (a : arr3) : arr3 :=
  do_cells3 (xl b) (xu b + 1) (yl b) (yu b) (zl b) (zu b) (fun i j k s => upd3 s i j k (f i j k (s i j k))) a.
Definition yfaces3 (b : box3) (f : Z -> Z -> Z -> R -> R) (a : arr3) : arr3 :=
  do_cells3 (xl b) (xu b) (yl b) (yu b + 1) (zl b) (zu b) (fun i j k s => upd3 s i j k (f i j k (s i j k))) a.
Definition zfaces3 (b : box3) (f : Z -> Z -> Z -> R -> R) (a : arr3) : arr3 :=
  do_cells3 (xl b) (xu b) (yl b) (yu b) (zl b) (zu b + 1) (fun i j k s => upd3 s i j k (f i j k (s i j k))) a.

(** :14-100 concentrationflux *)
Definition concentrationflux3 (b : box3) (conc phi : arr3) (diff coupl flux : arr3x3) : arr3x3 :=
  let '(diff0, diff1, diff2) := diff in
  let '(coupl0, coupl1, coupl2) := coupl in
  let '(flux0, flux1, flux2) := flux in
  let dxinv := 1 / hx b in
  let flux0 := xfaces3 b (fun i j k _ =>
    dxinv * (diff0 i j k * (conc i j k - conc (i - 1)%Z j k) + coupl0 i j k * (phi i j k - phi (i - 1)%Z j k))) flux0 in
  let dyinv := 1 / hy b in
  let flux1 := yfaces3 b (fun i j k _ =>
    dyinv * (diff1 i j k * (conc i j k - conc i (j - 1)%Z k) + coupl1 i j k * (phi i j k - phi i (j - 1)%Z k))) flux1 in
  let dzinv := 1 / hz b in
  let flux2 := zfaces3 b (fun i j k _ =>
    dzinv * (diff2 i j k * (conc i j k - conc i j (k - 1)%Z) + coupl2 i j k * (phi i j k - phi i j (k - 1)%Z))) flux2 in
  (flux0, flux1, flux2).

(** :145-150 and :250-255 seven point Laplacian *)
Definition lap7 (b : box3) (conc : arr3) (i j k : Z) : R :=
  let dxinv := 1 / hx b in
  let dyinv := 1 / hy b in
  let dzinv := 1 / hz b in
  let dxinv2 := dxinv * dxinv in
  let dyinv2 := dyinv * dyinv in
  let dzinv2 := dzinv * dzinv in
  dxinv2 * (- 2 * conc i j k + conc (i - 1)%Z j k + conc (i + 1)%Z j k)
  + dyinv2 * (- 2 * conc i j k + conc i (j - 1)%Z k + conc i (j + 1)%Z k)
  + dzinv2 * (- 2 * conc i j k + conc i j (k - 1)%Z + conc i j (k + 1)%Z).

(** :155-167 and :261-272: a cell adds its potential to its six faces; [m0 m1 m2] multiplies the face *)
Definition scatter (b : box3) (m0 m1 m2 : arr3) (i j k : Z) (mu : R) (flux : arr3x3) : arr3x3 :=
  let dxinv := 1 / hx b in
  let dyinv := 1 / hy b in
  let dzinv := 1 / hz b in
  let '(flux0, flux1, flux2) := flux in
  let flux0 := upd3 flux0 i j k (flux0 i j k + m0 i j k * dxinv * mu) in
  let flux0 := upd3 flux0 (i + 1)%Z j k (flux0 (i + 1)%Z j k - m0 (i + 1)%Z j k * dxinv * mu) in
  let flux1 := upd3 flux1 i j k (flux1 i j k + m1 i j k * dyinv * mu) in
  let flux1 := upd3 flux1 i (j + 1)%Z k (flux1 i (j + 1)%Z k - m1 i (j + 1)%Z k * dyinv * mu) in
  let flux2 := upd3 flux2 i j k (flux2 i j k + m2 i j k * dzinv * mu) in
  let flux2 := upd3 flux2 i j (k + 1)%Z (flux2 i j (k + 1)%Z - m2 i j (k + 1)%Z * dzinv * mu) in
  (flux0, flux1, flux2).
(** :142-144, 222-224, 234-236, 247-249: the box grown by one cell *)
Definition grown {S : Type} (b : box3) : (Z -> Z -> Z -> S -> S) -> S -> S :=
  do_cells3 (xl b - 1) (xu b + 1) (yl b - 1) (yu b + 1) (zl b - 1) (zu b + 1).

(** :106-172 add_cahnhilliarddoublewell_flux *)
Definition add_cahnhilliard_flux3 (b : box3) (conc : arr3) (mobility ca cb well_scale kappa : R) (flux : arr3x3) : arr3x3 :=
  grown b (fun i j k flux =>
    let lap := lap7 b conc i j k in
    let c := conc i j k in
    let mu := 2 * well_scale * (c - ca) * (cb - c) * (cb + ca - 2 * c) - kappa * lap in
    let m := fun _ _ _ => mobility in
    scatter b m m m i j k mu flux) flux.

(** :219-245 the work arrays of powers; fourth index of phi: the order parameter *)
Definition phi_powers3 (b : box3) (norder : Z) (phi : arr4) (s : arr3 * arr3) : arr3 * arr3 :=
  let s := grown b (fun i j k (s : arr3 * arr3) =>
    let (phi2sum, phi3sum) := s in
    (upd3 phi2sum i j k (phi i j k 1%Z * phi i j k 1%Z),
     upd3 phi3sum i j k (phi i j k 1%Z * phi i j k 1%Z * phi i j k 1%Z))) s in
  do_loop 2 norder (fun ip => grown b (fun i j k (s : arr3 * arr3) =>
    let (phi2sum, phi3sum) := s in
    (upd3 phi2sum i j k (phi2sum i j k + phi i j k ip * phi i j k ip),
     upd3 phi3sum i j k (phi3sum i j k + phi i j k ip * phi i j k ip * phi i j k ip)))) s.
(** :177-278 add_wang_sintering_flux *)
Definition add_wang_sintering_flux3 (b : box3) (conc : arr3) (diff : arr3x3) (norder : Z) (phi : arr4)
  (mobility parameter_a parameter_b kappa : R) (work : arr3 * arr3) (flux : arr3x3) : arr3x3 :=
  let '(diff0, diff1, diff2) := diff in
  let (phi2sum, phi3sum) := phi_powers3 b norder phi work in
  grown b (fun i j k flux =>
    let lap := lap7 b conc i j k in
    let c := conc i j k in
    let mu := 2 * parameter_a * c * (1 - c) * (1 - 2 * c)
              + 2 * parameter_b * (c - 3 * phi2sum i j k + 2 * phi3sum i j k) - kappa * lap in
    scatter b (fun i j k => mobility * diff0 i j k) (fun i j k => mobility * diff1 i j k)
      (fun i j k => mobility * diff2 i j k) i j k mu flux) flux.

(** 2d/concentrationrhs.m4:231-325 concentrationflux_spinodal, for the one component its arrays are declared for *)
Definition spinodal_flux (lo0 hi0 lo1 hi1 : Z) (dx0 dx1 : R) (conc conca concb diff0 diff1 eta : arr2) (kappa : R)
  (flux : arr2 * arr2) : arr2 * arr2 :=
  let (flux0, flux1) := flux in
  let dxinv := 1 / dx0 in
  let dyinv := 1 / dx1 in
  let flux0 := do_cells lo0 (hi0 + 1) lo1 hi1 (fun i j s =>
    let s := upd2 s i j 0 in
    let sideca := 1 / 2 * (conca (i - 1)%Z j + conca i j) in
    let sidecb := 1 / 2 * (concb (i - 1)%Z j + concb i j) in
    upd2 s i j (s i j + dxinv * (diff0 i j * (conc i j - conc (i - 1)%Z j)
                                 - kappa * (sideca - sidecb) * (eta i j - eta (i - 1)%Z j)))) flux0 in
  let flux1 := do_cells lo0 hi0 lo1 (hi1 + 1) (fun i j s =>
    let s := upd2 s i j 0 in
    let sideca := 1 / 2 * (conca i (j - 1)%Z + conca i j) in
    let sidecb := 1 / 2 * (concb i (j - 1)%Z + concb i j) in
    upd2 s i j (s i j + dyinv * (diff1 i j * (conc i j - conc i (j - 1)%Z)
                                 - kappa * (sideca - sidecb) * (eta i j - eta i (j - 1)%Z)))) flux1 in
  (flux0, flux1).
(** :284-406 concentrationflux_spinodal; the third loop clears and reads flux1 (lines 384 and 391) *)
Definition spinodal_flux3 (b : box3) (conc conca concb : arr3) (diff : arr3x3) (eta : arr3) (kappa : R)
  (flux : arr3x3) : arr3x3 :=
  let '(diff0, diff1, diff2) := diff in
  let '(flux0, flux1, flux2) := flux in
  let dxinv := 1 / hx b in
  let dyinv := 1 / hy b in
  let dzinv := 1 / hz b in
  let flux0 := do_cells3 (xl b) (xu b + 1) (yl b) (yu b) (zl b) (zu b) (fun i j k s =>
    let s := upd3 s i j k 0 in
    let sideca := 1 / 2 * (conca (i - 1)%Z j k + conca i j k) in
    let sidecb := 1 / 2 * (concb (i - 1)%Z j k + concb i j k) in
    upd3 s i j k (s i j k + dxinv * (diff0 i j k * (conc i j k - conc (i - 1)%Z j k)
                                     - kappa * (sideca - sidecb) * (eta i j k - eta (i - 1)%Z j k)))) flux0 in
  let flux1 := do_cells3 (xl b) (xu b) (yl b) (yu b + 1) (zl b) (zu b) (fun i j k s =>
    let s := upd3 s i j k 0 in
    let sideca := 1 / 2 * (conca i (j - 1)%Z k + conca i j k) in
    let sidecb := 1 / 2 * (concb i (j - 1)%Z k + concb i j k) in
    upd3 s i j k (s i j k + dyinv * (diff1 i j k * (conc i j k - conc i (j - 1)%Z k)
                                     - kappa * (sideca - sidecb) * (eta i j k - eta i (j - 1)%Z k)))) flux1 in
  let '(flux1, flux2) := do_cells3 (xl b) (xu b) (yl b) (yu b) (zl b) (zu b + 1) (fun i j k (s : arr3 * arr3) =>
    let '(flux1, flux2) := s in
    let flux1 := upd3 flux1 i j k 0 in
    let sideca := 1 / 2 * (conca i j (k - 1)%Z + conca i j k) in
    let sidecb := 1 / 2 * (concb i j (k - 1)%Z + concb i j k) in
    let flux2 := upd3 flux2 i j k (flux1 i j k + dzinv * (diff2 i j k * (conc i j k - conc i j (k - 1)%Z)
                                     - kappa * (sideca - sidecb) * (eta i j k - eta i j (k - 1)%Z))) in
    (flux1, flux2)) (flux1, flux2) in
  (flux0, flux1, flux2).

(** :598-607, :746-756, :769-783: gradient at an x-face *)
Definition xx (b : box3) (p : arr3) (i j k : Z) : R := 1 / hx b * (p i j k - p (i - 1)%Z j k).
Definition xy (b : box3) (p : arr3) (i j k : Z) : R :=
  1 / hy b * (1 / 4) * (p i (j + 1)%Z k - p i (j - 1)%Z k + p (i - 1)%Z (j + 1)%Z k - p (i - 1)%Z (j - 1)%Z k).
Definition xz (b : box3) (p : arr3) (i j k : Z) : R :=
  1 / hz b * (1 / 4) * (p i j (k + 1)%Z - p i j (k - 1)%Z + p (i - 1)%Z j (k + 1)%Z - p (i - 1)%Z j (k - 1)%Z).
(** :631-640, :806-815, :826-841: gradient at a y-face *)
Definition yy (b : box3) (p : arr3) (i j k : Z) : R := 1 / hy b * (p i j k - p i (j - 1)%Z k).
Definition yx (b : box3) (p : arr3) (i j k : Z) : R :=
  1 / hx b * (1 / 4) * (p (i + 1)%Z (j - 1)%Z k - p (i - 1)%Z (j - 1)%Z k + p (i + 1)%Z j k - p (i - 1)%Z j k).
Definition yz (b : box3) (p : arr3) (i j k : Z) : R :=
  1 / hz b * (1 / 4) * (p i (j - 1)%Z (k + 1)%Z - p i (j - 1)%Z (k - 1)%Z + p i j (k + 1)%Z - p i j (k - 1)%Z).
(** :662-671, :865-874, :885-900: gradient at a z-face *)
Definition zz (b : box3) (p : arr3) (i j k : Z) : R := 1 / hz b * (p i j k - p i j (k - 1)%Z).
Definition zx (b : box3) (p : arr3) (i j k : Z) : R :=
  1 / hx b * (1 / 4) * (p (i + 1)%Z j (k - 1)%Z - p (i - 1)%Z j (k - 1)%Z + p (i + 1)%Z j k - p (i - 1)%Z j k).
Definition zy (b : box3) (p : arr3) (i j k : Z) : R :=
  1 / hy b * (1 / 4) * (p i (j + 1)%Z (k - 1)%Z - p i (j - 1)%Z (k - 1)%Z + p i (j + 1)%Z k - p i (j - 1)%Z k).

(** component of a field *)
Definition part (a : arr4) (c : Z) : arr3 := fun i j k => a i j k c.
(** :609-624, :642-655, :673-687: one face of the two-phase kernel, all components; [g] is the gradient component along
    the normal, (i',j',k') the cell on the other side *)
Definition trap_face (alpha gx gy gz g : R) (dpdt : R) (ncomp : Z) (cl ca : arr4) (i j k i' j' k' : Z) (flux : arr4) : arr4 :=
  let dphi2 := gx * gx + gy * gy + gz * gz in
  if gtb (Rabs dphi2) at_tol2 then
    let dphin := sqrt dphi2 in
    do_loop 1 ncomp (fun ic flux =>
      let acl := 1 / 2 * (cl i' j' k' ic + cl i j k ic) in
      let aca := 1 / 2 * (ca i' j' k' ic + ca i j k ic) in
      upd4 flux i j k ic (flux i j k ic + alpha * (g / dphin) * (acl - aca) * dpdt)) flux
  else flux.
(** :556-692 addconcentrationfluxfromantitrapping *)
Definition antitrapping_3d (b : box3) (phase : arr3) (cl ca : arr4) (ncomp : Z) (dphidt : arr3) (alpha : R) (flux : arr4x3) : arr4x3 :=
  let '(flux0, flux1, flux2) := flux in
  let flux0 := do_cells3 (xl b) (xu b + 1) (yl b) (yu b) (zl b) (zu b) (fun i j k =>
    trap_face alpha (xx b phase i j k) (xy b phase i j k) (xz b phase i j k) (xx b phase i j k)
      (1 / 2 * (dphidt (i - 1)%Z j k + dphidt i j k)) ncomp cl ca i j k (i - 1)%Z j k) flux0 in
  let flux1 := do_cells3 (xl b) (xu b) (yl b) (yu b + 1) (zl b) (zu b) (fun i j k =>
    trap_face alpha (yx b phase i j k) (yy b phase i j k) (yz b phase i j k) (yy b phase i j k)
      (1 / 2 * (dphidt i (j - 1)%Z k + dphidt i j k)) ncomp cl ca i j k i (j - 1)%Z k) flux1 in
  let flux2 := do_cells3 (xl b) (xu b) (yl b) (yu b) (zl b) (zu b + 1) (fun i j k =>
    trap_face alpha (zx b phase i j k) (zy b phase i j k) (zz b phase i j k) (zz b phase i j k)
      (1 / 2 * (dphidt i j (k - 1)%Z + dphidt i j k)) ncomp cl ca i j k i j (k - 1)%Z) flux2 in
  (flux0, flux1, flux2).

(** :758-796, :817-855, :876-914: one face of the three-phase kernel; [g p] is the gradient of phase p, [n] selects the
    component along the normal, [rate p] the averaged rate, [ac p] the averaged compositions *)
Definition trap3_face (alpha : R) (g : Z -> R * R * R) (n : R * R * R -> R) (rate ac : Z -> R) (old : R) : R :=
  let '(dphix, dphiy, dphiz) := g 1%Z in
  let dphi2 := dphix * dphix + dphiy * dphiy + dphiz * dphiz in
  if gtb (Rabs dphi2) at_tol2 then
    let dphin := sqrt dphi2 in
    do_loop 2 3 (fun ip f =>
      let dpdt := rate ip in
      let '(dphipx, dphipy, dphipz) := g ip in
      let dphip2 := dphipx * dphipx + dphipy * dphipy + dphipz * dphipz in
      if gtb (Rabs dphip2) at_tol2 then
        let dphipn := sqrt dphip2 in
        let factor := - 1 * (dphipx * dphix + dphipy * dphiy + dphipz * dphiz) / (dphipn * dphin) in
        f + alpha * factor * (n (g 1%Z) / dphin) * (ac 1%Z - ac ip) * dpdt
      else f) old
  else old.
Definition n0 (v : R * R * R) : R := fst (fst v).
Definition n1 (v : R * R * R) : R := snd (fst v).
Definition n2 (v : R * R * R) : R := snd v.
(** :700-921 addconcentrationfluxfromantitrapping3phases; fourth index of phase, dphidt: the phase, 1 is the liquid *)
Definition antitrapping3_3d (b : box3) (phase : arr4) (cl ca cb : arr3) (dphidt : arr4) (alpha : R) (flux : arr3x3) : arr3x3 :=
  let '(flux0, flux1, flux2) := flux in
  let flux0 := xfaces3 b (fun i j k => trap3_face alpha
    (fun p => (xx b (part phase p) i j k, xy b (part phase p) i j k, xz b (part phase p) i j k)) n0
    (fun p => 1 / 2 * (dphidt (i - 1)%Z j k p + dphidt i j k p))
    (ac3 (1 / 2 * (cl (i - 1)%Z j k + cl i j k)) (1 / 2 * (ca (i - 1)%Z j k + ca i j k)) (1 / 2 * (cb (i - 1)%Z j k + cb i j k)))) flux0 in
  let flux1 := yfaces3 b (fun i j k => trap3_face alpha
    (fun p => (yx b (part phase p) i j k, yy b (part phase p) i j k, yz b (part phase p) i j k)) n1
    (fun p => 1 / 2 * (dphidt i (j - 1)%Z k p + dphidt i j k p))
    (ac3 (1 / 2 * (cl i (j - 1)%Z k + cl i j k)) (1 / 2 * (ca i (j - 1)%Z k + ca i j k)) (1 / 2 * (cb i (j - 1)%Z k + cb i j k)))) flux1 in
  let flux2 := zfaces3 b (fun i j k => trap3_face alpha
    (fun p => (zx b (part phase p) i j k, zy b (part phase p) i j k, zz b (part phase p) i j k)) n2
    (fun p => 1 / 2 * (dphidt i j (k - 1)%Z p + dphidt i j k p))
    (ac3 (1 / 2 * (cl i j (k - 1)%Z + cl i j k)) (1 / 2 * (ca i j (k - 1)%Z + ca i j k)) (1 / 2 * (cb i j (k - 1)%Z + cb i j k)))) flux2 in
  (flux0, flux1, flux2).

(** :977-986 (and 1004-1013): averages over an x-face of the cells j-1..j, k-1..k, and the differences formed from them;
    first result along y, second along z *)
Definition corner_x (b : box3) (p : arr3) (i j k : Z) : R * R :=
  let vmm := 1 / 2 * (p (i - 1)%Z (j - 1)%Z (k - 1)%Z + p i (j - 1)%Z (k - 1)%Z) in
  let vmp := 1 / 2 * (p (i - 1)%Z (j - 1)%Z k + p i (j - 1)%Z k) in
  let vpm := 1 / 2 * (p (i - 1)%Z j (k - 1)%Z + p i j (k - 1)%Z) in
  let vpp := 1 / 2 * (p (i - 1)%Z j k + p i j k) in
  (1 / hy b * (1 / 4) * (vpp + vpm - vmm - vmp), 1 / hz b * (1 / 4) * (vpp + vmp - vpm - vmm)).
(** :1036-1045, 1062-1071: y-face; along x, along z *)
Definition corner_y (b : box3) (p : arr3) (i j k : Z) : R * R :=
  let vmm := 1 / 2 * (p (i - 1)%Z (j - 1)%Z (k - 1)%Z + p (i - 1)%Z j (k - 1)%Z) in
  let vmp := 1 / 2 * (p (i - 1)%Z (j - 1)%Z k + p (i - 1)%Z j k) in
  let vpm := 1 / 2 * (p i (j - 1)%Z (k - 1)%Z + p i j (k - 1)%Z) in
  let vpp := 1 / 2 * (p i (j - 1)%Z k + p i j k) in
  (1 / hx b * (1 / 4) * (vpp + vpm - vmm - vmp), 1 / hz b * (1 / 4) * (vpp + vmp - vpm - vmm)).
(** :1094-1103, 1120-1129: z-face; along x, along y *)
Definition corner_z (b : box3) (p : arr3) (i j k : Z) : R * R :=
  let vmm := 1 / 2 * (p (i - 1)%Z (j - 1)%Z (k - 1)%Z + p (i - 1)%Z (j - 1)%Z k) in
  let vmp := 1 / 2 * (p (i - 1)%Z j (k - 1)%Z + p (i - 1)%Z j k) in
  let vpm := 1 / 2 * (p i (j - 1)%Z (k - 1)%Z + p i (j - 1)%Z k) in
  let vpp := 1 / 2 * (p i j (k - 1)%Z + p i j k) in
  (1 / hx b * (1 / 4) * (vpp + vpm - vmm - vmp), 1 / hy b * (1 / 4) * (vpp + vmp - vpm - vmm)).

(** the running values of the loop over the solid order parameters: dphipx, dphipy, dphipz, dpdt, dphiy, dphiz *)
Record running := mk_running { rx : R; ry : R; rz : R; rdt : R; ldy : R; ldz : R }.
(** :928-1146 addconcentrationfluxfromantitrappingmultiorderp; the last order parameter is the liquid.
    x-faces: the loop overwrites dphiy, dphiz (1012-1013) and the test uses dphiz (1017);
    y-faces: the test leaves out z (1075); z-faces: the test leaves out z (1133), the rate is averaged along y (1130-1131),
    the direction is dphiy/dphin (1138) *)
Definition antitrapping_multi_3d (b : box3) (phase : arr4) (norderp : Z) (cl ca : arr3) (dphidt : arr4) (alpha : R)
  (flux : arr3x3) : arr3x3 :=
  let '(flux0, flux1, flux2) := flux in
  let flux0 := xfaces3 b (fun i j k old =>
    let dphix := 1 / hx b * (phase i j k norderp - phase (i - 1)%Z j k norderp) in
    let '(dphiy, dphiz) := corner_x b (part phase norderp) i j k in
    let dphi2 := dphix * dphix + dphiy * dphiy + dphiz * dphiz in
    if gtb dphi2 at_tol2 then
      let dphin := sqrt dphi2 in
      let ac1 := 1 / 2 * (cl (i - 1)%Z j k + cl i j k) in
      let ac2 := 1 / 2 * (ca (i - 1)%Z j k + ca i j k) in
      let r := do_loop 1 (norderp - 1) (fun ip r =>
        let '(dphiy, dphiz) := corner_x b (part phase ip) i j k in
        mk_running (rx r + 1 / hx b * (phase i j k ip - phase (i - 1)%Z j k ip)) (ry r) (rz r)
          (rdt r + 1 / 2 * (dphidt (i - 1)%Z j k ip + dphidt i j k ip)) dphiy dphiz)
        (mk_running 0 0 0 0 dphiy dphiz) in
      let dphip2 := rx r * rx r + ry r * ry r + ldz r * ldz r in
      if gtb dphip2 at_tol2 then old - alpha * (dphix / dphin) * (ac1 - ac2) * rdt r else old
    else old) flux0 in
  let flux1 := yfaces3 b (fun i j k old =>
    let dphiy := 1 / hy b * (phase i j k norderp - phase i (j - 1)%Z k norderp) in
    let '(dphix, dphiz) := corner_y b (part phase norderp) i j k in
    let dphi2 := dphix * dphix + dphiy * dphiy + dphiz * dphiz in
    if gtb dphi2 at_tol2 then
      let dphin := sqrt dphi2 in
      let ac1 := 1 / 2 * (cl i (j - 1)%Z k + cl i j k) in
      let ac2 := 1 / 2 * (ca i (j - 1)%Z k + ca i j k) in
      let r := do_loop 1 (norderp - 1) (fun ip r =>
        let '(vx, vz) := corner_y b (part phase ip) i j k in
        mk_running (rx r + vx) (ry r + 1 / hy b * (phase i j k ip - phase i (j - 1)%Z k ip)) (rz r + vz)
          (rdt r + 1 / 2 * (dphidt i (j - 1)%Z k ip + dphidt i j k ip)) (ldy r) (ldz r))
        (mk_running 0 0 0 0 dphiy dphiz) in
      let dphip2 := rx r * rx r + ry r * ry r in
      if gtb dphip2 at_tol2 then old - alpha * (dphiy / dphin) * (ac1 - ac2) * rdt r else old
    else old) flux1 in
  let flux2 := zfaces3 b (fun i j k old =>
    let dphiz := 1 / hz b * (phase i j k norderp - phase i j (k - 1)%Z norderp) in
    let '(dphix, dphiy) := corner_z b (part phase norderp) i j k in
    let dphi2 := dphix * dphix + dphiy * dphiy + dphiz * dphiz in
    if gtb dphi2 at_tol2 then
      let dphin := sqrt dphi2 in
      let ac1 := 1 / 2 * (cl i j (k - 1)%Z + cl i j k) in
      let ac2 := 1 / 2 * (ca i j (k - 1)%Z + ca i j k) in
      let r := do_loop 1 (norderp - 1) (fun ip r =>
        let '(vx, vy) := corner_z b (part phase ip) i j k in
        mk_running (rx r + vx) (ry r + vy) (rz r + 1 / hz b * (phase i j k ip - phase i j (k - 1)%Z ip))
          (rdt r + 1 / 2 * (dphidt i (j - 1)%Z k ip + dphidt i j k ip)) (ldy r) (ldz r))
        (mk_running 0 0 0 0 dphiy dphiz) in
      let dphip2 := rx r * rx r + ry r * ry r in
      if gtb dphip2 at_tol2 then old - alpha * (dphiy / dphin) * (ac1 - ac2) * rdt r else old
    else old) flux2 in
  (flux0, flux1, flux2).
