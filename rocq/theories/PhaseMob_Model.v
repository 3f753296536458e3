(** The mobility of the order parameter: input, Kim's formulas, and the loops over cells with running indices
    (Kim's mobility and the phase compositions of a dilute alloy).
    Exact reals; None = assert, TBOX_ERROR or undefined behaviour.  The Hessian of the free energy of the liquid comes
    from outside of the repository (Thermo4PFM): it is an argument, as is the gas constant.
    Arrays of a patch are flat over the ghost box, first index fastest; an access outside is an error. *)
From Coq Require Import Reals ZArith List Bool String.
From Verif Require Import Grid_Model Noise_Model Partition_Model.
Import ListNotations.
Open Scope R_scope.
Definition bind {A B : Type} (o : option A) (f : A -> option B) : option B := match o with Some x => f x | None => None end.

(** ** Input *)
(** the database PhaseMobility; doubles and arrays of three doubles *)
Record mob_db := mk_mob_db {
  db_type : option string; db_value : option R; db_beta : option R; db_intmob : option R;
  db_zeta : option (R * R * R); db_zetaLA : option (R * R * R); db_zetaLB : option (R * R * R); db_Tref : option R }.
(** parameters read before: molar volume of the liquid, melting temperature, slope of the liquidus, d_keq; an unset value is a
    signaling NaN in the code, caught by the asserts at :1158-1159 and :1175, and None here.  A dilute alloy sets the last three
    (readDiluteAlloy, QuatModelParameters.cc:404-410), a CALPHAD alloy never sets the slope *)
Record alloy := mk_alloy { al_mv : option R; al_Tm : option R; al_slope : option R; al_keq : option R }.
(** d_phi_mobility_type, d_phase_mobility, d_interface_mobility, d_zetaTref, d_zetaKimMobilityLA and LB (None = never set) *)
Inductive phase_mob :=
| Scalar (m : R)
| Kim (intmob tref : R) (zLA zLB : option (R * R * R)).
Definition get (o : option R) (d : R) : R := match o with Some x => x | None => d end.
(** readPhaseMobility, QuatModelParameters.cc:1119-1178.  A division by zero (melting temperature 0, keq 1) gives an
    infinite mobility in the code and None here *)
Definition readPhaseMobility (gasR : R) (al : alloy) (db : mob_db) : option phase_mob :=
  let type := match db_type db with Some s => s | None => "scalar"%string end in
  if String.eqb type "scalar" then match db_value db with Some v => Some (Scalar v) | None => None end
  else
    let type := if String.eqb type "Kim" then "kim"%string else type in
    if String.eqb type "kim" then
      let beta := get (db_beta db) (-1) in
      if Rlt_dec beta 0 then
        let intmob := get (db_intmob db) (-1) in
        match db_zeta db, db_zetaLA db with
        | None, None => Some (Kim intmob (-1) None None)
        | Some z, _ | None, Some z => bind (db_Tref db) (fun tref => Some (Kim intmob tref (Some z) (db_zetaLB db)))
        end
      else if Rlt_dec 0 beta then
        bind (al_Tm al) (fun Tm => bind (al_slope al) (fun slope => bind (al_mv al) (fun mv => bind (al_keq al) (fun keq =>
        if Rlt_dec slope 0 then if Req_EM_T (gasR * Tm) 0 then None else if Req_EM_T keq 1 then None else
          let m := mv / (gasR * Tm) in
          let m := m * 10 ^ 6 in
          let m := m * (-1 * slope) in
          let m := m / (1 - keq) in
          Some (Kim (m / beta) (-1) None None)
        else None))))
      else None
    else None.
(** the same with phi_mobility given outside of a PhaseMobility database, :1107-1116 *)
Definition readMobility (gasR : R) (al : alloy) (db : option mob_db) (phi_mobility : option R) : option phase_mob :=
  match db with Some d => readPhaseMobility gasR al d | None => match phi_mobility with Some m => Some (Scalar m) | None => None end end.
(** zetaFactorLA and LB, QuatModelParameters.h:476-494 *)
Definition zeta_at (tref : R) (z : option (R * R * R)) (temp : R) : option R :=
  if Rlt_dec tref 0 then Some (-1) else match z with Some (z0, z1, z2) => Some (zetaFactor tref z0 z1 z2 temp) | None => None end.

(** ** Formulas *)
(** Thermo4PFM::EnergyInterpolationType *)
Inductive energy_interp := PBG | HARMONIC | OTHER.
(** kks_mobility_factor, KKStools.cc:13-30 *)
Definition kks_mobility_factor (t : energy_interp) (epsilon well : R) : option R :=
  match t with
  | PBG => Some (16 * well / (3 * epsilon * epsilon * (47 / 60)))
  | HARMONIC => Some (16 * well / (3 * epsilon * epsilon * (1 / 2)))
  | OTHER => None
  end.
(** d_alpha, KimMobilityStrategyFiniteMob.cc:34-36, KimMobilityStrategyFiniteMobAntiTrap.cc:46-48 *)
Definition alpha_of (epsilon well intmob : R) : R := let xi := epsilon / sqrt (16 * well) in 3 * sqrt 2 * xi / intmob.
(** KimMobilityStrategyFiniteMob::evaluateMobility, KimMobilityStrategyFiniteMob.h:29-38 *)
Definition finite_mob (epsilon well intmob : R) : R := 1 / alpha_of epsilon well intmob.
(** the loop for zeta, KimMobilityStrategyInfMob.cc:70-73, KimMobilityStrategyFiniteMobAntiTrap.cc:69-72 *)
Definition zeta_sum (n : Z) (F cl cs : Z -> R) : R :=
  do_loop 0 (n - 1) (fun i s => do_loop 0 (n - 1) (fun j s => s + (cl i - cs i) * F (2 * i + j)%Z * (cl j - cs j)) s) 0.
(** the part common to both, KimMobilityStrategyInfMob.cc:65-77, KimMobilityStrategyFiniteMobAntiTrap.cc:66-77: F T c = second
    derivatives in the liquid.  [asserts]: only the former checks the temperature and the diffusion; without the check a
    temperature or diffusion 0 divides by zero, None here *)
Definition zeta_value (asserts : bool) (gasR : R) (n : Z) (F : R -> (Z -> R) -> Z -> R) (tref : R) (zLA : option (R * R * R)) (DL Q0 mv temp : R) (cl cs : Z -> R) : option R :=
  bind (zeta_at tref zLA temp) (fun zf =>
  let ok x := if asserts then if Rlt_dec 0 x then true else false else if Req_EM_T x 0 then false else true in
  bind (if Rlt_dec zf 0 then
          if (ok temp && ok DL)%bool then Some (zeta_sum n (F temp cl) cl cs / (DL * exp (- Q0 / (gasR * temp)))) else None
        else Some zf) (fun zf => Some (zf * (1 / 10 ^ 6 / mv)))).
(** a double that may be infinite *)
Inductive ext := Fin (x : R) | Inf.
(** KimMobilityStrategyInfMob::evaluateMobility, KimMobilityStrategyInfMob.cc:48-83; the assert refuses NaN only *)
Definition inf_mob (gasR : R) (n : Z) (F : R -> (Z -> R) -> Z -> R) (factor tref : R) (zLA : option (R * R * R)) (DL Q0 mv temp : R) (cl cs : Z -> R) : option ext :=
  bind (zeta_value true gasR n F tref zLA DL Q0 mv temp cl cs) (fun z =>
  if Req_EM_T z 0 then if Req_EM_T factor 0 then None else Some Inf else Some (Fin (factor / z))).
(** KimMobilityStrategyFiniteMobAntiTrap::evaluateMobility, KimMobilityStrategyFiniteMobAntiTrap.cc:53-80, with d_beta = 1/factor *)
Definition antitrap_mob (gasR : R) (n : Z) (F : R -> (Z -> R) -> Z -> R) (alpha factor tref : R) (zLA : option (R * R * R)) (DL Q0 mv temp : R) (cl cs : Z -> R) : option ext :=
  bind (zeta_value false gasR n F tref zLA DL Q0 mv temp cl cs) (fun z =>
  let d := alpha + 1 / factor * z in if Req_EM_T d 0 then Some Inf else Some (Fin (1 / d))).

(** ** Choice of the strategy *)
(** conc_model: first letter of ConcentrationModel/model *)
Inductive conc_model := Calphad | OtherModel.
Inductive strategy := UniformMob | FiniteMob | FiniteMobAntiTrap | InfMob | InfMob3Phases.
(** MobilityFactory::create and createInternal, MobilityFactory.h:29-162 *)
Definition choose (p : phase_mob) (ctd antitrapping three_phases : bool) (m : conc_model) (ncompositions : Z) : option strategy :=
  match p with
  | Scalar _ => Some UniformMob
  | Kim intmob _ _ _ =>
      if ctd then None else
      let two := if Rlt_dec 0 intmob then if antitrapping then FiniteMobAntiTrap else FiniteMob else InfMob in
      match m with
      | Calphad => if (1 <? ncompositions)%Z then Some two else if three_phases then Some InfMob3Phases else Some two
      | OtherModel => Some two
      end
  end.
(** parameters of a run *)
Record run_par := mk_run_par {
  r_gasR : R; r_n : Z; r_F : R -> (Z -> R) -> Z -> R; r_interp : energy_interp; r_eps : R; r_well : R; r_DL : R; r_Q0 : R; r_mv : R }.
(** evaluateMobility of the chosen strategy with the asserts of the constructors; cb is not used by any.  A phase_well_scale 0
    passes the asserts and divides by zero, it is not modelled (None) *)
Definition evaluateMobility (p : phase_mob) (s : strategy) (r : run_par) (temp : R) (cl ca : Z -> R) (phi : R * R * R) : option ext :=
  if Rlt_dec 0 (r_well r) then match s, p with
  | UniformMob, Scalar m => Some (Fin m)
  | FiniteMob, Kim intmob _ _ _ =>
      if Rlt_dec 0 (r_eps r) then if Rlt_dec 0 intmob then Some (Fin (finite_mob (r_eps r) (r_well r) intmob)) else None else None
  | FiniteMobAntiTrap, Kim intmob tref zLA _ =>
      if Rlt_dec 0 (r_eps r) then if Rlt_dec 0 intmob then if Rlt_dec 0 (r_mv r) then
        bind (kks_mobility_factor (r_interp r) (r_eps r) (r_well r)) (fun f =>
          antitrap_mob (r_gasR r) (r_n r) (r_F r) (alpha_of (r_eps r) (r_well r) intmob) f tref zLA (r_DL r) (r_Q0 r) (r_mv r) temp cl ca)
      else None else None else None
  | InfMob, Kim _ tref zLA _ =>
      if Rlt_dec 0 (r_eps r) then if Rlt_dec 0 (r_mv r) then
        bind (kks_mobility_factor (r_interp r) (r_eps r) (r_well r)) (fun f =>
          inf_mob (r_gasR r) (r_n r) (r_F r) f tref zLA (r_DL r) (r_Q0 r) (r_mv r) temp cl ca)
      else None else None
  | InfMob3Phases, Kim _ tref zLA zLB =>
      if Rlt_dec 0 (r_eps r) then if Rlt_dec 0 (r_mv r) then if (r_n r =? 1)%Z then
        bind (kks_mobility_factor PBG (r_eps r) (r_well r)) (fun f =>
        bind (zeta_at tref zLA temp) (fun a => bind (zeta_at tref zLB temp) (fun b =>
        let '(pL, pA, pB) := phi in bind (inf_mobility f (r_mv r) a b pL pA pB) (fun m => Some (Fin m)))))
      else None else None else None
  | _, _ => None
  end else match s, p with UniformMob, Scalar m => Some (Fin m) | _, _ => None end.

(** ** Loops with running indices *)
(** three nested loops over a box: every array has a running index, incremented in each cell, and shifted at the end of
    each row and each plane *)
Definition walk {S : Type} (B : pbox) (start row plane : list Z) (body : list Z -> S -> option S) (s : S) : option (list Z * S) :=
  let add (d : list Z) (st : option (list Z * S)) := bind st (fun p => Some (map (fun xy => (fst xy + snd xy)%Z) (combine (fst p) d), snd p)) in
  do_loop (lo2 B) (hi2 B) (fun _ st => add plane (do_loop (lo1 B) (hi1 B) (fun _ st => add row (do_loop (lo0 B) (hi0 B) (fun _ st =>
    bind st (fun p => bind (body (fst p) (snd p)) (fun s' => Some (map (Z.add 1) (fst p), s')))) st)) st)) (Some (start, s)).
(** first index of an array with ghost box G in a loop over B, in 2D the third direction has one plane with index 0 *)
Definition first_index (three_d : bool) (B G : pbox) : Z :=
  ((lo0 B - lo0 G) + (lo1 B - lo1 G) * cells0 G + (if three_d then (lo2 B - lo2 G) * (cells0 G * cells1 G) else 0))%Z.
Definition inside (G : pbox) (n : Z) : bool := ((0 <=? n) && (n <? array_size G))%Z.
(** storage of the depth ic of an array *)
Definition fields := Z -> Z -> R.
(** KimMobilityStrategy::update, KimMobilityStrategy.cc:208-306, ca has the ghost box of cl (:237): the temperature, phi (three phases only), the compositions of
    liquid and solid, the mobility; ev = evaluateMobility *)
Definition kim_update {V : Type} (three_d : bool) (b : pbox) (teg cig phig mog : gwidth) (with_b : bool)
    (ev : R -> (Z -> R) -> (Z -> R) -> R * R * R -> option V) (te : Z -> R) (cl ca phi : fields) (mob : Z -> V) : option (Z -> V) :=
  if ((gw0 mog <=? gw0 teg) && (gw0 mog <=? gw0 cig) && (negb with_b || (gw0 mog <=? gw0 phig)))%Z%bool then
    let TE := ghost_box b teg in let CI := ghost_box b cig in let PHI := ghost_box b phig in let MO := ghost_box b mog in
    let body (idx : list Z) (m : Z -> V) :=
      match idx with
      | [idx_te; idx_ci; idx_mo] =>
          if (inside TE idx_te && inside CI idx_ci && inside MO idx_mo && (negb with_b || inside PHI idx_ci))%bool then
            let phis := if with_b then (phi 0%Z idx_ci, phi 1%Z idx_ci, phi 2%Z idx_ci) else (0, 0, 0) in
            bind (ev (te idx_te) (fun ic => cl ic idx_ci) (fun ic => ca ic idx_ci) phis) (fun v =>
            Some (fun n => if (n =? idx_mo)%Z then v else m n))
          else None
      | _ => None
      end in
    bind (walk MO [first_index three_d MO TE; first_index three_d MO CI; 0%Z]
               [2 * (gw0 teg - gw0 mog); 2 * (gw0 cig - gw0 mog); 0]%Z
               [2 * cells0 TE * (gw1 teg - gw1 mog); 2 * cells0 CI * (gw1 cig - gw1 mog); 0]%Z body mob) (fun p => Some (snd p))
  else None.
(** KKSdiluteEquilibriumPhaseConcentrationsStrategy, KKSdiluteEquilibriumPhaseConcentrationsStrategy.cc:40-190, the
    composition has the ghost box of phi (:97-98), ca that of cl (:111-112): [solve] is
    computePhaseConcentrations of the free energy (temperature, composition, phi, initial guess) *)
Definition dilute_update (three_d : bool) (b : pbox) (teg pfg cig : gwidth) (solve : R -> R -> R -> R * R -> option (R * R))
    (te pf conc cl ca : Z -> R) : option ((Z -> R) * (Z -> R)) :=
  if ((gw0 cig <=? gw0 teg) && (gw0 cig <=? gw0 pfg))%Z%bool then
    let TE := ghost_box b teg in let PF := ghost_box b pfg in let CI := ghost_box b cig in
    let body (idx : list Z) (s : (Z -> R) * (Z -> R)) :=
      match idx with
      | [idx_pf; idx_te; idx_ci] =>
          if (inside PF idx_pf && inside TE idx_te && inside CI idx_ci)%bool then
            bind (solve (te idx_te) (conc idx_pf) (pf idx_pf) (fst s idx_ci, snd s idx_ci)) (fun x =>
            Some (fun n => if (n =? idx_ci)%Z then fst x else fst s n, fun n => if (n =? idx_ci)%Z then snd x else snd s n))
          else None
      | _ => None
      end in
    bind (walk CI [first_index three_d CI PF; first_index three_d CI TE; first_index three_d CI CI]
               [2 * (gw0 pfg - gw0 cig); 2 * (gw0 teg - gw0 cig); 0]%Z
               [2 * cells0 PF * (gw1 pfg - gw1 cig); 2 * cells0 TE * (gw1 teg - gw1 cig); 0]%Z body (cl, ca)) (fun p => Some (snd p))
  else None.
