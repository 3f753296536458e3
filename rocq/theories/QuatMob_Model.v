(** The mobility of the orientation: input, the Fortran kernels for its value and its derivative, the mobility of the second
    order parameter eta, and the product of the preconditioner block d(orientation)/d(phase) with a change of the phase.
    Exact reals, except that exp overflows as in double precision: its result is then infinite.
    None = Fortran stop, TBOX_ERROR, an access outside of an array, or (where said) a division by zero. *)
From Coq Require Import Reals ZArith List Bool String Ascii.
From Verif Require Import Grid_Model Functions_Model Quat_Model Noise_Model QuatFlow_Model.
Import ListNotations.
Open Scope R_scope.

(** ** Doubles with infinities *)
Inductive dbl := Real (x : R) | PInf | MInf | NaN.
(** exp of a double: the largest double is just below 2^1024; rounding not modelled *)
Definition dexp (x : R) : dbl := if Rlt_dec x (1024 * ln 2) then Real (exp x) else PInf.
(** 1 - a *)
Definition one_minus (a : dbl) : dbl := match a with Real x => Real (1 - x) | PInf => MInf | MInf => PInf | NaN => NaN end.
(** a / b; the zero divisors of this file are +0 *)
Definition ddiv (a b : dbl) : dbl :=
  match a, b with
  | NaN, _ | _, NaN => NaN
  | Real x, Real y => if Req_EM_T y 0 then (if Req_EM_T x 0 then NaN else if Rlt_dec 0 x then PInf else MInf) else Real (x / y)
  | Real _, _ => Real 0
  | PInf, Real y => if Rle_dec 0 y then PInf else MInf
  | MInf, Real y => if Rle_dec 0 y then MInf else PInf
  | _, _ => NaN
  end.
(** a * b *)
Definition dmul (a : R) (b : dbl) : dbl :=
  match b with
  | Real x => Real (a * x)
  | NaN => NaN
  | PInf => if Req_EM_T a 0 then NaN else if Rlt_dec 0 a then PInf else MInf
  | MInf => if Req_EM_T a 0 then NaN else if Rlt_dec 0 a then MInf else PInf
  end.
(** a + b *)
Definition dadd (a : R) (b : dbl) : dbl := match b with Real x => Real (a + x) | _ => b end.

(** ** Input *)
Record orient_db := mk_orient_db {
  db_orient_mobility : option R; db_quat_mobility : option R; db_tau_quat : option R;
  db_min_orient : option R; db_min_quat : option R;
  db_func_quat : option string; db_func_orient : option string;
  db_max_orient : option R; db_max_quat : option R; db_exp_orient : option R; db_exp_quat : option R }.
(** quat_mobility, min_quat_mobility, first letter of quat_mobility_func_type, max_quat_mobility, exp_scale_quat_mobility;
    the last two keep the signaling NaN of the constructor when they are not read: None *)
Record orient_par := mk_orient_par { op_scale : R; op_min : R; op_type : ascii; op_max : option R; op_exp : option R }.
Definition first_of (a b : option R) (d : R) : R := match a, b with Some x, _ => x | None, Some x => x | None, None => d end.
(** first character of a string; an empty one has the terminating zero *)
Definition first_char (s : string) : ascii := match s with String c _ => c | EmptyString => zero end.
(** initializeOrientation, QuatModelParameters.cc:638-657, 723-762 (when H_parameter > 0); tau_quat = 0 divides by zero *)
Definition readOrientation (db : orient_db) : option orient_par :=
  let scale := match db_orient_mobility db, db_quat_mobility db, db_tau_quat db with
               | Some m, _, _ => Some m
               | None, Some m, _ => Some m
               | None, None, Some tau => if Req_EM_T tau 0 then None else Some (1 / tau)
               | None, None, None => None
               end in
  let min := first_of (db_min_orient db) (db_min_quat db) (/ 10 ^ 6) in
  let type := first_char (match db_func_quat db, db_func_orient db with
                          | Some s, _ => s | None, Some s => s | None, None => "pbg"%string end) in
  match scale with
  | None => None
  | Some scale =>
      if (negb (Ascii.eqb type "p") && negb (Ascii.eqb type "i") && negb (Ascii.eqb type "e"))%bool then None
      else Some (mk_orient_par scale min type
        (if Ascii.eqb type "i" then Some (first_of (db_max_orient db) (db_max_quat db) (10 ^ 6)) else None)
        (if (Ascii.eqb type "e" || Ascii.eqb type "E")%bool then Some (first_of (db_exp_orient db) (db_exp_quat db) (10 ^ 6)) else None))
  end.
(** quatMobilityScaleFactor, QuatModelParameters.cc:1207-1219 *)
Definition quatMobilityScaleFactor (p : orient_par) : option R :=
  if (Ascii.eqb (op_type p) "e" || Ascii.eqb (op_type p) "E")%bool then op_exp p
  else if (Ascii.eqb (op_type p) "i" || Ascii.eqb (op_type p) "I")%bool then op_max p
  else None.

(** ** Value and derivative in one cell *)
(** qfunc, 2d/mobility.m4:45-85 and 3d/mobility.m4:46-88; [alt] = None is a NaN *)
Definition qfunc (type : ascii) (alt : option R) (phase : R) : option dbl :=
  match type with
  | "p" | "P" =>
      let phi := Rmax 0 (Rmin 1 phase) in
      let q := phi * phi * phi * (10 - 15 * phi + 6 * phi * phi) in
      Some (Real (1 - q))
  | "e" | "E" =>
      match alt with
      | None => Some NaN
      | Some c =>
          let phi := Rmax 0 (Rmin 1 phase) in
          let q := ddiv (one_minus (dexp (c * phi))) (one_minus (dexp c)) in
          Some (one_minus q)
      end
  | "i" | "I" =>
      match alt with
      | None => Some NaN
      | Some alt =>
          let phi := Rmax (/ 10 ^ 6) (Rmin 1 phase) in
          let q := Rmax 0 ((1 - phi) / (phi * phi)) in
          Some (Real (Rmin q alt))
      end
  | _ => None
  end%char.
(** 2d/mobility.m4:87-88, 3d/mobility.m4:90-91 *)
Definition orient_mobility (scale min : R) (type : ascii) (alt : option R) (phase : R) : option dbl :=
  match qfunc type alt phase with Some q => Some (dadd min (dmul (scale - min) q)) | None => None end.
(** dqfunc, 2d/mobility.m4:129-163, 3d/mobility.m4:134-168 *)
Definition dqfunc (type : ascii) (alt : option R) (phase : R) : option dbl :=
  match type with
  | "p" | "P" =>
      let phi := Rmax 0 (Rmin 1 phase) in
      Some (Real (- (30) * phi * phi * (1 - phi) * (1 - phi)))
  | "e" | "E" =>
      match alt with
      | None => Some NaN
      | Some c =>
          let phi := Rmax 0 (Rmin 1 phase) in
          Some (ddiv (dmul c (dexp (c * phi))) (one_minus (dexp c)))
      end
  | "i" | "I" =>
      let phi := Rmax (/ 10 ^ 6) (Rmin 1 phase) in
      Some (Real ((phi - 2) / (phi * phi * phi)))
  | _ => None
  end%char.
(** 2d/mobility.m4:165-166, 3d/mobility.m4:170-171 *)
Definition orient_mobility_deriv (scale min : R) (type : ascii) (alt : option R) (phase : R) : option dbl :=
  match dqfunc type alt phase with Some q => Some (dmul (scale - min) q) | None => None end.

(** ** Kernels *)
(** arrays of doubles with three indices; in two dimensions the third is always 0 *)
Definition darr := Z -> Z -> Z -> dbl.
Definition dupd (f : darr) (i j k : Z) (v : dbl) : darr :=
  fun a b c => if ((a =? i) && (b =? j) && (c =? k))%Z then v else f a b c.
Definition in_array (b : pbox) (g : gwidth) (i j k : Z) : bool :=
  let w := ghost_box b g in
  ((Noise_Model.lo0 w <=? i) && (i <=? Noise_Model.hi0 w) && (Noise_Model.lo1 w <=? j) && (j <=? Noise_Model.hi1 w) &&
   (Noise_Model.lo2 w <=? k) && (k <=? Noise_Model.hi2 w))%Z.
(** the loops over the cells of box [w]; the phase is declared with ghosts [gp] *)
Definition over_cells (value : R -> option dbl) (b w : pbox) (gp : gwidth) (phase : arr3) (old : darr) : option darr :=
  do_cells3 (Noise_Model.lo0 w) (Noise_Model.hi0 w) (Noise_Model.lo1 w) (Noise_Model.hi1 w) (Noise_Model.lo2 w) (Noise_Model.hi2 w)
    (fun i j k s => match s with
     | None => None
     | Some f => if in_array b gp i j k then match value (phase i j k) with Some v => Some (dupd f i j k v) | None => None end else None
     end) (Some old).
(** the width [n] in every direction of an array in two or three dimensions *)
Definition width (three_d : bool) (n : Z) : gwidth := mk_gwidth n n (if three_d then n else 0%Z).
(** quatmobility, 2d/mobility.m4:12-95, 3d/mobility.m4:12-99 *)
Definition quatmobility (three_d : bool) (b : pbox) (phase : arr3) (ngphase : Z) (mobility : darr) (ngmobility : Z)
    (scale min : R) (type : ascii) (alt : option R) : option darr :=
  over_cells (orient_mobility scale min type alt) b (ghost_box b (width three_d ngmobility)) (width three_d ngphase) phase mobility.
(** quatmobilityderiv, 2d/mobility.m4:97-172, 3d/mobility.m4:102-178 *)
Definition quatmobilityderiv (three_d : bool) (b : pbox) (phase : arr3) (ngphase : Z) (dmobility : darr)
    (scale min : R) (type : ascii) (alt : option R) : option darr :=
  over_cells (orient_mobility_deriv scale min type alt) b b (width three_d ngphase) phase dmobility.
(** computeQuatMobility on one patch, QuatModel.cc:4542-4571; the mobility has one ghost (QuatModel.cc:1735-1737) *)
Definition computeQuatMobility (three_d : bool) (p : orient_par) (b : pbox) (phase : arr3) (ngphase : Z) (mobility : darr) : option darr :=
  quatmobility three_d b phase ngphase mobility 1 (op_scale p) (op_min p) (op_type p) (quatMobilityScaleFactor p).
(** computeQuatMobilityDeriv on one patch, QuatModel.cc:4609-4639 *)
Definition computeQuatMobilityDeriv (three_d : bool) (p : orient_par) (b : pbox) (phase : arr3) (ngphase : Z) (dmobility : darr) : option darr :=
  quatmobilityderiv three_d b phase ngphase dmobility (op_scale p) (op_min p) (op_type p) (quatMobilityScaleFactor p).

(** ** Mobility of eta *)
Record eta_par := mk_eta_par { ep_mobility : R; ep_min : R; ep_q0 : R }.
(** initializeEta, QuatModelParameters.cc:773-777 *)
Definition readEta (eta_mobility min_eta_mobility q0_eta_mobility : option R) : option eta_par :=
  match eta_mobility with
  | None => None
  | Some m => Some (mk_eta_par m (match min_eta_mobility with Some x => x | None => m end) (match q0_eta_mobility with Some x => x | None => 0 end))
  end.
(** QuatModel.cc:4491-4501; a temperature 0 divides by zero *)
Definition eta_value (gasR : R) (p : eta_par) (t phi : R) : option R :=
  match interp_func phi "p" with
  | None => None
  | Some h_phi =>
      let Rt := t * gasR in
      if Req_EM_T Rt 0 then None else
      let m := ep_mobility p * exp (- ep_q0 p / Rt) in
      Some (m - h_phi * (m - ep_min p))
  end.
(** a flat array over its ghost box, first index fastest *)
Definition flat_index (three_d : bool) (gbox : pbox) (ii jj kk : Z) : Z :=
  let jp := cells0 gbox in
  let kmin := if three_d then Noise_Model.lo2 gbox else 0%Z in
  let kp := if three_d then (jp * cells1 gbox)%Z else 0%Z in
  ((ii - Noise_Model.lo0 gbox) + (jj - Noise_Model.lo1 gbox) * jp + (kk - kmin) * kp)%Z.
Definition in_flat (gbox : pbox) (n : Z) : bool := ((0 <=? n) && (n <? array_size gbox))%Z.
(** computeEtaMobilityPatch, QuatModel.cc:4425-4505 *)
Definition computeEtaMobilityPatch (three_d : bool) (gasR : R) (p : eta_par) (b : pbox) (gt gm gp : gwidth) (temp phi mob : Z -> R) : option (Z -> R) :=
  let kmin := if three_d then Noise_Model.lo2 b else 0%Z in
  let kmax := if three_d then Noise_Model.hi2 b else 0%Z in
  do_cells3 (Noise_Model.lo0 b) (Noise_Model.hi0 b) (Noise_Model.lo1 b) (Noise_Model.hi1 b) kmin kmax
    (fun ii jj kk s => match s with
     | None => None
     | Some m =>
         let idx_temp := flat_index three_d (ghost_box b gt) ii jj kk in
         let idx_m := flat_index three_d (ghost_box b gm) ii jj kk in
         let idx_phi := flat_index three_d (ghost_box b gp) ii jj kk in
         if (in_flat (ghost_box b gt) idx_temp && in_flat (ghost_box b gm) idx_m && in_flat (ghost_box b gp) idx_phi)%bool then
           match eta_value gasR p (temp idx_temp) (phi idx_phi) with
           | Some v => Some (store m idx_m v)
           | None => None
           end
         else None
     end) (Some mob).
(** computeEtaMobility on one patch, QuatModel.cc:4410-4419; fillAll sets the whole array *)
Definition computeEtaMobility (three_d : bool) (gasR : R) (p : eta_par) (b : pbox) (gt gm gp : gwidth) (temp phi mob : Z -> R) : option (Z -> R) :=
  if Req_EM_T (ep_min p) (ep_mobility p) then
    if Req_EM_T (ep_q0 p) 0 then Some (fun _ => ep_mobility p)
    else computeEtaMobilityPatch three_d gasR p b gt gm gp temp phi mob
  else computeEtaMobilityPatch three_d gasR p b gt gm gp temp phi mob.

(** ** The block d(orientation)/d(phase) *)
(** parameters of the orientation terms: epsilon_q, H_parameter, gradient floor, letters of the floor, of the two interpolations and of the average *)
Record quat_par := mk_quat_par { qp_eps : R; qp_H : R; qp_floor : R; qp_ftype : ascii; qp_interp1 : ascii; qp_interp2 : ascii; qp_avg : ascii }.
(** the loops n, m that sum the squared components of the gradient on a face, e.g. 2d/quatfacops.m4:78-85 *)
Definition grad_sum (depth : Z) (gq : arr4) (i j : Z) : R :=
  do_loop 1 2 (fun n s => do_loop 1 depth (fun m s => s + gq i j m n * gq i j m n) s) 0.
(** compute_face_coef2d, 2d/quatfacops.m4:65-119, called with 2 H (QuatFaceCoeff.cc:97-107) *)
Definition face_coefs_x (p : patch) (c : quat_par) (phi temp : arr2) (gq : arr4) (old : arr2) : option arr2 :=
  ocells (lo0 p) (hi0 p + 1) (lo1 p) (hi1 p) (fun i j s =>
    match face_coef (qp_eps c) (2 * qp_H c) (qp_floor c) (qp_ftype c) (qp_interp1 c) (qp_interp2 c) (qp_avg c)
            (phi (i - 1)%Z j) (phi i j) (temp (i - 1)%Z j) (temp i j) (grad_sum (depth p) gq i j) with
    | Some v => Some (upd2 s i j v) | None => None end) old.
Definition face_coefs_y (p : patch) (c : quat_par) (phi temp : arr2) (gq : arr4) (old : arr2) : option arr2 :=
  ocells (lo0 p) (hi0 p) (lo1 p) (hi1 p + 1) (fun i j s =>
    match face_coef (qp_eps c) (2 * qp_H c) (qp_floor c) (qp_ftype c) (qp_interp1 c) (qp_interp2 c) (qp_avg c)
            (phi i (j - 1)%Z) (phi i j) (temp i (j - 1)%Z) (temp i j) (grad_sum (depth p) gq i j) with
    | Some v => Some (upd2 s i j v) | None => None end) old.
(** jlf_threshold, 2d/quatdiffusion.m4:52 *)
Definition jlf_threshold : R := / 10 ^ 16.
(** one face of quatdiffusionderiv, 2d/quatdiffusion.m4:66-102 and 108-145 *)
Definition face_deriv (factor gradient_floor : R) (floor_type interp avg : ascii) (phi1 phi2 t1 t2 g2 : R) : option (R * R) :=
  if Rlt_dec phi1 jlf_threshold then Some (0, 0) else if Rlt_dec phi2 jlf_threshold then Some (0, 0) else
  match average_func phi1 phi2 avg with
  | None => None
  | Some phi =>
      let t := (1 / 2) * (t1 + t2) in
      match deriv_interp_func phi interp,
            eval_grad_normi g2 floor_type (gradient_floor * gradient_floor) (1 / gradient_floor),
            deriv_average_func phi phi1 avg, deriv_average_func phi phi2 avg with
      | Some di, Some gi, Some d1, Some d2 =>
          let d_deriv := factor * t * di in
          let fac := gi * d_deriv in
          Some (fac * d1, fac * d2)
      | _, _, _, _ => None
      end
  end.
(** quatdiffusionderiv, 2d/quatdiffusion.m4:11-151, called with 2 H and the first interpolation (DerivDiffusionCoeffForQuat.cc:129-147,
    QuatIntegrator.cc:1954-1957); the array [d] holds both entries *)
Definition diffusion_deriv_x (p : patch) (c : quat_par) (phi temp : arr2) (gq : arr4) (d : arr3) : option arr3 :=
  ocells (lo0 p) (hi0 p + 1) (lo1 p) (hi1 p) (fun i j s =>
    match face_deriv (2 * qp_H c) (qp_floor c) (qp_ftype c) (qp_interp1 c) (qp_avg c)
            (phi (i - 1)%Z j) (phi i j) (temp (i - 1)%Z j) (temp i j) (grad_sum (depth p) gq i j) with
    | Some (v1, v2) => Some (upd3 (upd3 s i j 1 v1) i j 2 v2) | None => None end) d.
Definition diffusion_deriv_y (p : patch) (c : quat_par) (phi temp : arr2) (gq : arr4) (d : arr3) : option arr3 :=
  ocells (lo0 p) (hi0 p) (lo1 p) (hi1 p + 1) (fun i j s =>
    match face_deriv (2 * qp_H c) (qp_floor c) (qp_ftype c) (qp_interp1 c) (qp_avg c)
            (phi i (j - 1)%Z) (phi i j) (temp i (j - 1)%Z) (temp i j) (grad_sum (depth p) gq i j) with
    | Some (v1, v2) => Some (upd3 (upd3 s i j 1 v1) i j 2 v2) | None => None end) d.
(** compute_dquatdphi_face_coef2d, 2d/quatfacops.m4:124-171 *)
Definition dquatdphi_x (p : patch) (d : arr3) (dphi old : arr2) : arr2 :=
  do_cells (lo0 p) (hi0 p + 1) (lo1 p) (hi1 p) (fun i j s => upd2 s i j (- d i j 1%Z * dphi (i - 1)%Z j - d i j 2%Z * dphi i j)) old.
Definition dquatdphi_y (p : patch) (d : arr3) (dphi old : arr2) : arr2 :=
  do_cells (lo0 p) (hi0 p) (lo1 p) (hi1 p + 1) (fun i j s => upd2 s i j (- d i j 1%Z * dphi i (j - 1)%Z - d i j 2%Z * dphi i j)) old.
(** compute_flux2d, 2d/quatfacops.m4:173-230 *)
Definition cflux_x (p : patch) (fc : arr2) (q old : arr3) : arr3 :=
  mcells (depth p) (lo0 p) (hi0 p + 1) (lo1 p) (hi1 p) (fun i j m _ => fc i j * (1 / h1 p) * (q i j m - q (i - 1)%Z j m)) old.
Definition cflux_y (p : patch) (fc : arr2) (q old : arr3) : arr3 :=
  mcells (depth p) (lo0 p) (hi0 p) (lo1 p) (hi1 p + 1) (fun i j m _ => fc i j * (1 / h2 p) * (q i j m - q i (j - 1)%Z m)) old.
(** multicomponent_multiply2d, 2d/quatfacops.m4:1022-1049 *)
Definition multicomponent_multiply (p : patch) (factor : arr2) (var : arr3) : arr3 :=
  mcells (depth p) (lo0 p) (hi0 p) (lo1 p) (hi1 p) (fun i j _ v => v * factor i j) var.
(** accumulateOperatorOnLevel without projection, QuatFACOps.cc:1959-2112, one level and patch with filled ghosts; [fx], [fy] hold old fluxes *)
Definition accumulate (p : patch) (mob fcx fcy : arr2) (q fx fy out : arr3) : arr3 :=
  add_quat_op p mob (cflux_x p fcx q fx) (cflux_y p fcy q fy) out.
Definition zeros : arr3 := fun _ _ _ => 0.
(** evaluateRHS with use_gradq_for_flux = false and one component (the projection is then skipped), QuatFACOps.cc:1861-1889 *)
Definition evaluateRHS1 (p : patch) (c : quat_par) (phi temp mob : arr2) (gqx gqy : arr4) (q : arr3) (old2 : arr2) (old3 : arr3) : option arr3 :=
  match face_coefs_x p c phi temp gqx old2, face_coefs_y p c phi temp gqy old2 with
  | Some fcx, Some fcy => Some (accumulate p mob fcx fcy q old3 old3 zeros)
  | _, _ => None
  end.
(** setOperatorCoefficients, QuatFACOps.cc:744-814, followed by multiplyDQuatDPhiBlock, QuatFACOps.cc:1892-1956;
    [dmob]: derivative of the mobility, [dphi]: the change of the phase *)
Definition multiplyDQuatDPhiBlock (p : patch) (c : quat_par) (phi temp mob dmob : arr2) (gqx gqy : arr4) (q : arr3) (dphi : arr2)
    (old2 : arr2) (old3 : arr3) : option arr3 :=
  match face_coefs_x p c phi temp gqx old2, face_coefs_y p c phi temp gqy old2,
        diffusion_deriv_x p c phi temp gqx old3, diffusion_deriv_y p c phi temp gqy old3 with
  | Some fcx, Some fcy, Some dx, Some dy =>
      let sqrt_m : arr2 := fun i j => sqrt (mob i j) in
      let out := accumulate p dmob fcx fcy q old3 old3 zeros in
      let out := multicomponent_multiply p dphi out in
      Some (accumulate p sqrt_m (dquatdphi_x p dx dphi old2) (dquatdphi_y p dy dphi old2) q old3 old3 out)
  | _, _, _, _ => None
  end.
