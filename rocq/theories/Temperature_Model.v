(** Prescribed temperatures: ScalarTemperatureStrategy, GaussianTemperatureStrategy, GradientTemperatureStrategy,
    the heat capacity of a mixture (NKRHeatCapacityStrategy) and the sources of steady heat conduction; 2D, one patch,
    exact reals.  Fields are total functions of the cell index; a while loop takes a bound on the number of its turns, None = not
    finished.  Two copies of the temperature are kept: the field and the scratch data with ghost cells. *)
From Coq Require Import Reals ZArith List Bool.
From Verif Require Import Grid_Model PhaseFlow_Model TempHistory_Model.
Import ListNotations.
Open Scope R_scope.

(** ** Uniform temperature *)
(** ScalarTemperatureStrategy.cc:19-36; target default 0 *)
Record scalar_temp := mk_scalar { s_temperature0 : R; s_rate : R; s_target : R }.
(** lines 62-79 *)
Definition scalarCurrentTemperature (s : scalar_temp) (time : R) : R :=
  let t := s_temperature0 s + s_rate s * time in
  if Rlt_dec (s_rate s) 0
  then if Rlt_dec t (s_target s) then s_target s else t
  else if Rlt_dec 0 (s_target s) then if Rlt_dec 0 (s_rate s) then if Rgt_dec t (s_target s) then s_target s else t else t else t.
(** (temperature, scratch) *)
Definition temps := (arr2 * arr2)%type.
Definition cells_grown (b : pbox) (ng : Z) (g : Z -> Z -> R -> R) (f : arr2) : arr2 :=
  do_cells (lo0 b - ng) (hi0 b + ng) (lo1 b - ng) (hi1 b + ng) (fun i j f => upd2 f i j (g i j (f i j))) f.
(** lines 81-95: the field in the patch, the scratch data with ng ghost cells *)
Definition set_scalar (s : scalar_temp) (b : pbox) (ng : Z) (time : R) (f : temps) : temps :=
  if Req_EM_T (s_rate s) 0
  then if Req_EM_T time 0
       then (cells_grown b 0 (fun _ _ _ => scalarCurrentTemperature s time) (fst f), cells_grown b ng (fun _ _ _ => scalarCurrentTemperature s time) (snd f))
       else f
  else (cells_grown b 0 (fun _ _ _ => scalarCurrentTemperature s time) (fst f), cells_grown b ng (fun _ _ _ => scalarCurrentTemperature s time) (snd f)).

(** ** Gaussian temperature *)
(** GaussianTemperatureStrategy.cc:21-67; index 0 or 1 for the directions; g_low, g_up corners of the domain *)
Record gauss_temp := mk_gauss {
  g_base : R; g_initial : R; g_target : R; g_rate : R; g_dev : R;
  g_center0 : Z -> R; g_velocity : Z -> R; g_periodic : Z -> bool; g_low : Z -> R; g_up : Z -> R }.
(** lines 94-109 *)
Definition gaussCurrentTemperature (g : gauss_temp) (time : R) : R :=
  let peak := g_initial g + g_rate g * time in
  if Rlt_dec (g_rate g) 0 then if Rlt_dec peak (g_target g) then g_target g else peak
  else if Rlt_dec 0 (g_rate g) then if Rgt_dec peak (g_target g) then g_target g else peak
  else peak.
(** lines 122-125: while (center < low) center += ll; while (center > up) center -= ll; *)
Fixpoint raise (fuel : nat) (low ll c : R) : option R :=
  if Rlt_dec c low then match fuel with O => None | S n => raise n low ll (c + ll) end else Some c.
Fixpoint lower (fuel : nat) (up ll c : R) : option R :=
  if Rgt_dec c up then match fuel with O => None | S n => lower n up ll (c - ll) end else Some c.
(** lines 117-130: center and period length of one direction, -1 = not periodic *)
Definition gauss_center (fuel : nat) (g : gauss_temp) (time : R) (d : Z) : option (R * R) :=
  let c := g_center0 g d + time * g_velocity g d in
  if g_periodic g d then
    let ll := g_up g d - g_low g d in
    match raise fuel (g_low g d) ll c with
    | Some c => match lower fuel (g_up g d) ll c with Some c => Some (c, ll) | None => None end
    | None => None
    end
  else Some (c, -1).
(** 2d/temperature.m4:46-99 initgaussian: distance of one direction, profile; xlo is the lower corner of the patch *)
Definition image_distance (x center ll : R) : R :=
  let d := Rabs (x - center) in
  if Rgt_dec ll 0 then Rmin (Rmin d (Rabs (x - center + ll))) (Rabs (x - center - ll)) else d.
Definition cell_coord (xlo h : R) (lo i : Z) : R := xlo + h * (IZR (i - lo) + 1 / 2).
Definition initgaussian (b : pbox) (xlo : Z -> R) (ng : Z) (center ll : Z -> R) (dev base peak : R) (var : arr2) : arr2 :=
  let deltaT := peak - base in
  let factor := 1 / (2 * dev * dev) in
  cells_grown b ng (fun i j _ =>
    let x1 := image_distance (cell_coord (xlo 1%Z) (h2 b) (lo1 b) j) (center 1%Z) (ll 1%Z) in
    let x0 := image_distance (cell_coord (xlo 0%Z) (h1 b) (lo0 b) i) (center 0%Z) (ll 0%Z) in
    base + deltaT * exp (- (x0 ^ 2 + x1 ^ 2) * factor)) var.
(** lines 111-150: the center follows the time, the fields are set only if the peak changes or the time is zero *)
Definition set_gauss (fuel : nat) (g : gauss_temp) (b : pbox) (xlo : Z -> R) (ng : Z) (time : R) (f : temps) : option temps :=
  match gauss_center fuel g time 0, gauss_center fuel g time 1 with
  | Some (c0, l0), Some (c1, l1) =>
      let center d := if (d =? 0)%Z then c0 else c1 in
      let ll d := if (d =? 0)%Z then l0 else l1 in
      let set := (initgaussian b xlo 0 center ll (g_dev g) (g_base g) (gaussCurrentTemperature g time) (fst f),
                  initgaussian b xlo ng center ll (g_dev g) (g_base g) (gaussCurrentTemperature g time) (snd f)) in
      Some (if Req_EM_T (g_rate g) 0 then if Req_EM_T time 0 then set else f else set)
  | _, _ => None
  end.

(** ** Frozen gradient *)
(** GradientTemperatureStrategy.cc:21-67, GradientTemperatureStrategy.h:66-87; r_gradient of the input, used without a file *)
Record grad_temp := mk_grad {
  r_temperature0 : R; r_rate : R; r_gradient : Z -> R; r_history : option history;
  r_init_center : Z -> R; r_ref_center : Z -> R; r_ref_time : R; r_velocity : R }.
(** constructor; frame_velocity is QuatModelParameters::movingVelocity (TemperatureStrategyFactory.cc:118-123) *)
Definition new_grad (temperature0 rate : R) (gradient : Z -> R) (hist : option history) (center : Z -> R) (frame_velocity : R) : grad_temp :=
  mk_grad temperature0 rate gradient hist center center 0 frame_velocity.
Definition set_dir0 (f : Z -> R) (v : R) : Z -> R := fun d => if (d =? 0)%Z then v else f d.
(** resetVelocity, GradientTemperatureStrategy.h:35-47, called by QuatIntegrator.cc:2209-2212 *)
Definition resetVelocity (g : grad_temp) (time velocity : R) : grad_temp :=
  let c := match r_history g with
           | Some _ => r_ref_center g 0%Z + (time - r_ref_time g) * r_velocity g
           | None => r_ref_center g 0%Z - (time - r_ref_time g) * r_velocity g
           end in
  mk_grad (r_temperature0 g) (r_rate g) (r_gradient g) (r_history g) (r_init_center g) (set_dir0 (r_ref_center g) c) time velocity.
(** 2d/temperature.m4:240-290 initgradient *)
Definition initgradient (b : pbox) (xlo : Z -> R) (ng : Z) (position : Z -> R) (temperature : R) (gradient : Z -> R) (var : arr2) : arr2 :=
  cells_grown b ng (fun i j _ =>
    let x1 := cell_coord (xlo 1%Z) (h2 b) (lo1 b) j - position 1%Z in
    let x0 := cell_coord (xlo 0%Z) (h1 b) (lo0 b) i - position 0%Z in
    temperature + x0 * gradient 0%Z + x1 * gradient 1%Z) var.
(** GradientTemperatureStrategy.cc:104-169 and 173-211; d_center of the other directions stays at the reference *)
Definition set_grad (g : grad_temp) (b : pbox) (xlo : Z -> R) (ng : Z) (time : R) (f : temps) : option temps :=
  match r_history g with
  | Some h =>
      let center := set_dir0 (r_ref_center g) (r_ref_center g 0%Z + (time - r_ref_time g) * r_velocity g) in
      match getTandGradT h time (center 0%Z) with
      | Found t gradT =>
          let moved d := xlo d + (center d - r_init_center g d) in
          let gradient := set_dir0 (fun _ => 0) gradT in
          Some (initgradient b moved 0 center t gradient (fst f), initgradient b moved ng center t gradient (snd f))
      | _ => None
      end
  | None =>
      let center := set_dir0 (r_ref_center g) (r_ref_center g 0%Z - (time - r_ref_time g) * r_velocity g) in
      if Rgt_dec (r_temperature0 g) 0 then
        let t := r_temperature0 g + r_rate g * time in
        Some (initgradient b xlo 0 center t (r_gradient g) (fst f), initgradient b xlo ng center t (r_gradient g) (snd f))
      else None
  end.

(** ** Heat capacity and sources *)
(** std::map from power to coefficient, as list of pairs; std::set as sorted list *)
Definition species := list (Z * R).
Fixpoint insert_power (p : Z) (l : list Z) : list Z :=
  match l with
  | [] => [p]
  | q :: r => if (p <? q)%Z then p :: l else if (p =? q)%Z then l else q :: insert_power p r
  end.
(** NKRHeatCapacityStrategy.cc:32-41 *)
Definition all_powers (cp : list species) : list Z :=
  fold_left (fun s sp => fold_left (fun s pc => insert_power (fst pc) s) sp s) cp [].
(** lines 56-78: coefficient of species and power; zero where the species lacks the power *)
Definition coefficient (sp : species) (p : Z) : R := fold_left (fun v pc => if (p =? fst pc)%Z then snd pc else v) sp 0.
Definition cp_coeffs (cp : list species) : list R := flat_map (fun sp => map (coefficient sp) (all_powers cp)) cp.
(** 2d/temperature.m4:103-152 heat_capacity_nkr; arrays from 1, conc with nc depths, te**n with integer n *)
Definition heat_capacity_nkr (b : pbox) (nc : Z) (conc : arr3) (temp : arr2) (powers : list Z) (coeffs : list R) (cp : arr2) : arr2 :=
  let npow := Z.of_nat (length powers) in
  let coef k := nth (Z.to_nat (k - 1)) coeffs 0 in
  let power p := nth (Z.to_nat (p - 1)) powers 0%Z in
  let poly te m := do_loop 1 npow (fun p v => v + coef (m * npow + p)%Z * powerRZ te (power p)) 0 in
  do_cells (lo0 b) (hi0 b) (lo1 b) (hi1 b) (fun i j cp =>
    let te := temp i j in
    let s := do_loop 1 nc (fun m (s : R * R) => (fst s - conc i j m, snd s + poly te (m - 1)%Z * conc i j m)) (1, 0) in
    upd2 cp i j (snd s + poly te nc * fst s)) cp.
Definition set_heat_capacity (b : pbox) (nc : Z) (cps : list species) (conc : arr3) (temp cp : arr2) : arr2 :=
  heat_capacity_nkr b nc conc temp (all_powers cps) (cp_coeffs cps) cp.
(** QuatModelParameters.cc:18-31 readSpeciesCP (in the order of the map) *)
Definition readSpeciesCP (a : R) (b dm2 : option R) : species :=
  match dm2 with Some d => [(-2, d)%Z] | None => [] end ++ [(0%Z, a)] ++ match b with Some b => [(1%Z, b)] | None => [] end.
(** QuatModelParameters.cc:530-537 and 551-571: conversion of the units, and with the factor if the temperature is rescaled *)
Definition convert_cp (molar_volume : R) (rescale : option R) (sp : species) : species :=
  let sp := map (fun pc => (fst pc, snd pc * (1 / 1000000 / molar_volume))) sp in
  match rescale with Some f => map (fun pc => (fst pc, snd pc * f)) sp | None => sp end.
(** QuatModelParameters.cc:530: whether and by what the temperature is rescaled *)
Definition rescale_factor (steady : bool) (meltingT : R) : option R := if steady then None else if Rgt_dec meltingT 0 then Some meltingT else None.

(** 2d/temperature.m4:12-42 source_temperature *)
Definition source_temperature (b : pbox) (conc cp : arr2) (source1 source2 : R) (rhs : arr2) : arr2 :=
  cells_grown b 0 (fun i j _ => (source1 * conc i j + source2 * (1 - conc i j)) / cp i j) rhs.
(** 2d/temperature.m4:156-205 initgaussiansource *)
Definition initgaussiansource (b : pbox) (xlo : Z -> R) (cp : arr2) (center ll : Z -> R) (dev heat_peak : R) (rhs : arr2) : arr2 :=
  let factor := 1 / (2 * dev * dev) in
  cells_grown b 0 (fun i j _ =>
    let x1 := image_distance (cell_coord (xlo 1%Z) (h2 b) (lo1 b) j) (center 1%Z) (ll 1%Z) in
    let x0 := image_distance (cell_coord (xlo 0%Z) (h1 b) (lo0 b) i) (center 0%Z) (ll 0%Z) in
    heat_peak * exp (- (x0 ^ 2 + x1 ^ 2) * factor) / cp i j) rhs.
(** coefficients (M, C, D) of the operator and right-hand side of the linear system for the temperature.
    SteadyStateTemperatureCompositionSource.cc:44-94 *)
Definition composition_system (b : pbox) (diffusivity : R) (conc cp : arr2) (source1 source2 : R) (rhs : arr2) : (R * R * R) * arr2 :=
  ((1, 0, -1 * diffusivity), source_temperature b conc cp source1 source2 rhs).
(** SteadyStateTemperatureGaussianSource.cc:45-46 and 73-154; max_power as given in the input; center as for the Gaussian
    temperature (same loop, lines 92-103), here g_center0, g_velocity, g_periodic, g_low, g_up of g *)
Definition gaussian_system (fuel : nat) (g : gauss_temp) (b : pbox) (xlo : Z -> R) (diffusivity max_power dev pulse_time pulse_width time : R)
    (cp rhs : arr2) : option ((R * R * R) * arr2) :=
  let d_source_peak := max_power * 10 in
  let factor := exp (- (time - pulse_time) * (time - pulse_time) / (2 * pulse_width * pulse_width)) in
  let source_peak := factor * d_source_peak in
  match gauss_center fuel g time 0, gauss_center fuel g time 1 with
  | Some (c0, l0), Some (c1, l1) =>
      let center d := if (d =? 0)%Z then c0 else c1 in
      let ll d := if (d =? 0)%Z then l0 else l1 in
      let scaled_diffusivity := 1 / 1000000 * diffusivity in
      let scaled_source_peak := 1 / 1000000 * source_peak in
      Some ((1, 0, -1 * scaled_diffusivity), initgaussiansource b xlo cp center ll dev scaled_source_peak rhs)
  | _, _ => None
  end.
