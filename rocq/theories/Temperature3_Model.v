(** Prescribed temperatures and heat capacities in three dimensions: GaussianTemperatureStrategy, GradientTemperatureStrategy and
    NKRHeatCapacityStrategy with the kernels of 3d/temperature.m4; one patch, exact reals.  The parameters, the center and the
    clock of the strategies are those of Temperature_Model.v, their code does not depend on the dimension.  Fields are total
    functions of the cell index; two copies of the temperature are kept: the field and the scratch data with ghost cells. *)
From Coq Require Import Reals ZArith List Bool.
From Verif Require Import Grid_Model Trap3_Model PhaseFlow_Model TempHistory_Model Temperature_Model.
Import ListNotations.
Open Scope R_scope.

(** (temperature, scratch) *)
Definition temps3 := (arr3 * arr3)%type.
(** loop over a patch and ng layers of ghost cells, 3d/temperature.m4:79, 86, 93 and 303, 306, 309 *)
Definition cells_grown3 (b : box3) (ng : Z) (g : Z -> Z -> Z -> R -> R) (f : arr3) : arr3 :=
  do_cells3 (xl b - ng) (xu b + ng) (yl b - ng) (yu b + ng) (zl b - ng) (zu b + ng) (fun i j k s => upd3 s i j k (g i j k (s i j k))) f.
(** a double[3] *)
Definition three (v0 v1 v2 : R) (d : Z) : R := if (d =? 0)%Z then v0 else if (d =? 1)%Z then v1 else v2.

(** 3d/temperature.m4:48-110 initgaussian *)
Definition initgaussian3 (b : box3) (xlo : Z -> R) (ng : Z) (center ll : Z -> R) (dev base peak : R) (var : arr3) : arr3 :=
  let deltaT := peak - base in
  let factor := 1 / (2 * dev * dev) in
  cells_grown3 b ng (fun i j k _ =>
    let x2 := image_distance (cell_coord (xlo 2%Z) (hz b) (zl b) k) (center 2%Z) (ll 2%Z) in
    let x1 := image_distance (cell_coord (xlo 1%Z) (hy b) (yl b) j) (center 1%Z) (ll 1%Z) in
    let x0 := image_distance (cell_coord (xlo 0%Z) (hx b) (xl b) i) (center 0%Z) (ll 0%Z) in
    base + deltaT * exp (- (x0 ^ 2 + x1 ^ 2 + x2 ^ 2) * factor)) var.
(** GaussianTemperatureStrategy.cc:111-150 and 168-192: the center follows the time, the fields are set only if the peak changes or
    the time is zero *)
Definition set_gauss3 (fuel : nat) (g : gauss_temp) (b : box3) (xlo : Z -> R) (ng : Z) (time : R) (f : temps3) : option temps3 :=
  match gauss_center fuel g time 0, gauss_center fuel g time 1, gauss_center fuel g time 2 with
  | Some (c0, l0), Some (c1, l1), Some (c2, l2) =>
      let center := three c0 c1 c2 in
      let ll := three l0 l1 l2 in
      let set := (initgaussian3 b xlo 0 center ll (g_dev g) (g_base g) (gaussCurrentTemperature g time) (fst f),
                  initgaussian3 b xlo ng center ll (g_dev g) (g_base g) (gaussCurrentTemperature g time) (snd f)) in
      Some (if Req_EM_T (g_rate g) 0 then if Req_EM_T time 0 then set else f else set)
  | _, _, _ => None
  end.

(** 3d/temperature.m4:279-323 initgradient *)
Definition initgradient3 (b : box3) (xlo : Z -> R) (ng : Z) (position : Z -> R) (temperature : R) (gradient : Z -> R) (var : arr3) : arr3 :=
  cells_grown3 b ng (fun i j k _ =>
    let x2 := cell_coord (xlo 2%Z) (hz b) (zl b) k - position 2%Z in
    let x1 := cell_coord (xlo 1%Z) (hy b) (yl b) j - position 1%Z in
    let x0 := cell_coord (xlo 0%Z) (hx b) (xl b) i - position 0%Z in
    temperature + x0 * gradient 0%Z + x1 * gradient 1%Z + x2 * gradient 2%Z) var.
(** GradientTemperatureStrategy.cc:104-169 and 173-211; d_center of the other directions stays at the reference *)
Definition set_grad3 (g : grad_temp) (b : box3) (xlo : Z -> R) (ng : Z) (time : R) (f : temps3) : option temps3 :=
  match r_history g with
  | Some h =>
      let center := set_dir0 (r_ref_center g) (r_ref_center g 0%Z + (time - r_ref_time g) * r_velocity g) in
      match getTandGradT h time (center 0%Z) with
      | Found t gradT =>
          let moved d := xlo d + (center d - r_init_center g d) in
          let gradient := three gradT 0 0 in
          Some (initgradient3 b moved 0 center t gradient (fst f), initgradient3 b moved ng center t gradient (snd f))
      | _ => None
      end
  | None =>
      let center := set_dir0 (r_ref_center g) (r_ref_center g 0%Z - (time - r_ref_time g) * r_velocity g) in
      if Rgt_dec (r_temperature0 g) 0 then
        let t := r_temperature0 g + r_rate g * time in
        Some (initgradient3 b xlo 0 center t (r_gradient g) (fst f), initgradient3 b xlo ng center t (r_gradient g) (snd f))
      else None
  end.

(** 3d/temperature.m4:114-175 heat_capacity_nkr; the compositions are the fourth index *)
Definition heat_capacity_nkr3 (b : box3) (nc : Z) (conc : arr4) (temp : arr3) (powers : list Z) (coeffs : list R) (cp : arr3) : arr3 :=
  let npow := Z.of_nat (length powers) in
  let coef k := nth (Z.to_nat (k - 1)) coeffs 0 in
  let power p := nth (Z.to_nat (p - 1)) powers 0%Z in
  let poly te m := do_loop 1 npow (fun p v => v + coef (m * npow + p)%Z * powerRZ te (power p)) 0 in
  cells_grown3 b 0 (fun i j k _ =>
    let te := temp i j k in
    let s := do_loop 1 nc (fun m (s : R * R) => (fst s - conc i j k m, snd s + poly te (m - 1)%Z * conc i j k m)) (1, 0) in
    snd s + poly te nc * fst s) cp.
(** NKRHeatCapacityStrategy.cc:25-125 *)
Definition set_heat_capacity3 (b : box3) (nc : Z) (cps : list species) (conc : arr4) (temp cp : arr3) : arr3 :=
  heat_capacity_nkr3 b nc conc temp (all_powers cps) (cp_coeffs cps) cp.
(** 3d/temperature.m4:12-46 source_temperature *)
Definition source_temperature3 (b : box3) (conc cp : arr3) (source1 source2 : R) (rhs : arr3) : arr3 :=
  cells_grown3 b 0 (fun i j k _ => (source1 * conc i j k + source2 * (1 - conc i j k)) / cp i j k) rhs.
(** 3d/temperature.m4:179-240 initgaussiansource *)
Definition initgaussiansource3 (b : box3) (xlo : Z -> R) (cp : arr3) (center ll : Z -> R) (dev heat_peak : R) (rhs : arr3) : arr3 :=
  let factor := 1 / (2 * dev * dev) in
  cells_grown3 b 0 (fun i j k _ =>
    let x2 := image_distance (cell_coord (xlo 2%Z) (hz b) (zl b) k) (center 2%Z) (ll 2%Z) in
    let x1 := image_distance (cell_coord (xlo 1%Z) (hy b) (yl b) j) (center 1%Z) (ll 1%Z) in
    let x0 := image_distance (cell_coord (xlo 0%Z) (hx b) (xl b) i) (center 0%Z) (ll 0%Z) in
    heat_peak * exp (- (x0 ^ 2 + x1 ^ 2 + x2 ^ 2) * factor) / cp i j k) rhs.
(** coefficients (M, C, D) of the operator and right-hand side of the linear system for the temperature.
    SteadyStateTemperatureCompositionSource.cc:44-94 *)
Definition composition_system3 (b : box3) (diffusivity : R) (conc cp : arr3) (source1 source2 : R) (rhs : arr3) : (R * R * R) * arr3 :=
  ((1, 0, -1 * diffusivity), source_temperature3 b conc cp source1 source2 rhs).
(** SteadyStateTemperatureGaussianSource.cc:45-46 and 73-154, as gaussian_system of Temperature_Model.v *)
Definition gaussian_system3 (fuel : nat) (g : gauss_temp) (b : box3) (xlo : Z -> R) (diffusivity max_power dev pulse_time pulse_width time : R)
    (cp rhs : arr3) : option ((R * R * R) * arr3) :=
  let d_source_peak := max_power * 10 in
  let factor := exp (- (time - pulse_time) * (time - pulse_time) / (2 * pulse_width * pulse_width)) in
  let source_peak := factor * d_source_peak in
  match gauss_center fuel g time 0, gauss_center fuel g time 1, gauss_center fuel g time 2 with
  | Some (c0, l0), Some (c1, l1), Some (c2, l2) =>
      let scaled_diffusivity := 1 / 1000000 * diffusivity in
      let scaled_source_peak := 1 / 1000000 * source_peak in
      Some ((1, 0, -1 * scaled_diffusivity), initgaussiansource3 b xlo cp (three c0 c1 c2) (three l0 l1 l2) dev scaled_source_peak rhs)
  | _, _, _ => None
  end.
