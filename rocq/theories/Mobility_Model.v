(** Mobilities of the species and the composition dependent diffusion built from them (2D, one patch with given ghosts),
    and the thermal diffusion of the composition.  Exact reals; arrays are total functions of their indices.
    None = assert, TBOX_ERROR, abort, or undefined behaviour.  The Hessian of the free energy of a phase comes from
    outside of the repository (Thermo4PFM): it is an argument.  The gas constant is an argument. *)
From Coq Require Import Reals ZArith String List Bool Ascii.
From Verif Require Import Grid_Model Functions_Model PhaseFlow_Model Stencils_Model Diffusion_Model.
Import ListNotations.
Open Scope R_scope.

(** ** CALPHADMobility *)
(** tbox::Database: keyExists, getArraySize, getDoubleArray *)
Definition database := string -> option (list R).
(** index_map[c], CALPHADMobility.cc:22-25; operator[] inserts 0 for a letter that is not there *)
Definition index_map (c : ascii) : nat := if Ascii.eqb c "A" then 0 else if Ascii.eqb c "B" then 1 else if Ascii.eqb c "C" then 2 else 0.
(** d_nspecies, d_q, d_q_extra (None = empty), d_qq0 .. d_qq3, CALPHADMobility.h:34-44 *)
Record mobility := mk_mobility {
  nsp : nat; mq : nat -> R * R; mextra : option (nat -> R * R); mqq : nat -> nat -> nat -> R * R }.
Definition set1 {A : Type} (f : nat -> A) (i : nat) (v : A) : nat -> A := fun k => if Nat.eqb k i then v else f k.
Definition letters : list ascii := ["A"; "B"; "C"; "D"]%char.
(** the keys qA .. qD and qkAB, CALPHADMobility.cc:27-31, 63-68, 86-91, 109-114, 132-137 *)
Definition qkey (c : ascii) : string := String "q" (String c EmptyString).
Definition digit (k : nat) : ascii := ascii_of_nat (48 + k).
Definition qqkey (k : nat) (c d : ascii) : string := String "q" (String (digit k) (String c (String d EmptyString))).
(** count of the keys, :33-40 *)
Definition count_species (db : database) : nat := List.length (filter (fun c => match db (qkey c) with Some _ => true | None => false end) letters).
(** the loop over the first order terms, :42-61; resize gives pairs of zeros; tmp[3] is not set by an array of length 3 *)
Definition read_q (db : database) (n : nat) (c : ascii) (s : (nat -> R * R) * option (nat -> R * R))
    : option ((nat -> R * R) * option (nat -> R * R)) :=
  match db (qkey c) with
  | None => Some s
  | Some l =>
      let i := index_map c in
      if Nat.ltb i n then
        match l with
        | [a; b] => Some (set1 (fst s) i (a, b), snd s)
        | [a; b; e; f] =>
            let extra := match snd s with Some x => x | None => fun _ => (0, 0) end in
            Some (set1 (fst s) i (a, b), Some (set1 extra i (e, f)))
        | _ => None
        end
      else None
  end.
Fixpoint read_all {S : Type} (f : ascii -> S -> option S) (l : list ascii) (s : S) : option S :=
  match l with [] => Some s | c :: r => bind (f c s) (read_all f r) end.
(** the pairs of letters of the interaction terms, :63-68 *)
Definition pairs_of (n : nat) : list (ascii * ascii) :=
  if Nat.ltb 2 n then [("A", "B"); ("A", "C"); ("B", "C")]%char else [("A", "B")]%char.
(** one order k of interaction terms, :71-84 (94-107, 117-130, 140-153); getDoubleArray(key, tmp, 2) accepts two values only *)
Fixpoint read_pairs (db : database) (n k : nat) (l : list (ascii * ascii)) (s : nat -> nat -> R * R) : option (nat -> nat -> R * R) :=
  match l with
  | [] => Some s
  | (c, d) :: r =>
      let i := index_map c in let j := index_map d in
      if (Nat.ltb i n && Nat.ltb j n)%bool then
        match db (qqkey k c d) with
        | None => read_pairs db n k r (set1 s i (set1 (s i) j (0, 1)))
        | Some [a; b] => read_pairs db n k r (set1 s i (set1 (s i) j (a, b)))
        | Some _ => None
        end
      else None
  end.
(** initialize, CALPHADMobility.cc:20-154 *)
Definition initialize (db : database) : option mobility :=
  let n := count_species db in
  bind (read_all (read_q db n) letters (fun _ => (0, 0), None)) (fun qe =>
  let zero := fun _ _ : nat => (0, 0) in
  bind (read_pairs db n 0 (pairs_of n) zero) (fun q0 =>
  bind (read_pairs db n 1 (pairs_of n) zero) (fun q1 =>
  bind (read_pairs db n 2 (pairs_of n) zero) (fun q2 =>
  bind (read_pairs db n 3 (pairs_of n) zero) (fun q3 =>
  Some (mk_mobility n (fst qe) (snd qe) (fun k => match k with 0%nat => q0 | 1%nat => q1 | 2%nat => q2 | _ => q3 end))))))).

(** a0 + R*T*ln(a1), with the assert a1 > 0, CALPHADMobility.h:46-97 *)
Definition linear_T (gasR T : R) (a : R * R) : option R :=
  if Rlt_dec 0 (snd a) then Some (fst a + gasR * T * ln (snd a)) else None.
(** getQ, CALPHADMobility.h:46-59 *)
Definition getQ (gasR : R) (m : mobility) (i : nat) (T : R) : option R :=
  if Nat.ltb i (nsp m) then
    bind (linear_T gasR T (mq m i)) (fun v =>
      Some (match mextra m with None => v | Some e => v + (fst (e i) * T * ln T + snd (e i) / T) end))
  else None.
(** getQQ0 .. getQQ3, CALPHADMobility.h:61-97 *)
Definition getQQ (gasR : R) (m : mobility) (k i j : nat) (T : R) : option R :=
  if (Nat.ltb i (nsp m) && Nat.ltb j (nsp m))%bool then linear_T gasR T (mqq m k i j) else None.
(** getDeltaG for two species, CALPHADMobility.cc:158-168 *)
Definition getDeltaG2 (gasR : R) (m : mobility) (c0 c1 T : R) : option R :=
  let dc := c0 - c1 in
  bind (getQ gasR m 0 T) (fun a0 => bind (getQ gasR m 1 T) (fun a1 =>
  bind (getQQ gasR m 0 0 1 T) (fun b0 => bind (getQQ gasR m 1 0 1 T) (fun b1 =>
  bind (getQQ gasR m 2 0 1 T) (fun b2 => bind (getQQ gasR m 3 0 1 T) (fun b3 =>
  Some (c0 * a0 + c1 * a1 + c0 * c1 * (b0 + dc * (b1 + dc * (b2 + dc * b3)))))))))).
(** getDeltaG for three species, CALPHADMobility.cc:170-177 *)
Definition getDeltaG3 (gasR : R) (m : mobility) (c0 c1 c2 T : R) : option R :=
  bind (getQ gasR m 0 T) (fun a0 => bind (getQ gasR m 1 T) (fun a1 => bind (getQ gasR m 2 T) (fun a2 =>
  bind (getQQ gasR m 0 0 1 T) (fun b01 => bind (getQQ gasR m 1 0 1 T) (fun d01 =>
  bind (getQQ gasR m 0 0 2 T) (fun b02 => bind (getQQ gasR m 1 0 2 T) (fun d02 =>
  bind (getQQ gasR m 0 1 2 T) (fun b12 => bind (getQQ gasR m 1 1 2 T) (fun d12 =>
  Some (c0 * a0 + c1 * a1 + c2 * a2 + c0 * c1 * (b01 + (c0 - c1) * d01) + c0 * c2 * (b02 + (c0 - c2) * d02)
        + c1 * c2 * (b12 + (c1 - c2) * d12))))))))))).
(** exp(dG*rtinv)*rtinv *)
Definition from_dG (gasR T dG : R) : R := let rtinv := 1 / (gasR * T) in exp (dG * rtinv) * rtinv.
Definition unit_range (c : R) : bool := if Rle_dec 0 c then if Rle_dec c 1 then true else false else false.
(** getAtomicMobility for two species, CALPHADMobility.h:108-120 *)
Definition getAtomicMobility2 (gasR : R) (m : mobility) (c0 c1 T : R) : option R :=
  if Rlt_dec 0 T then
    if (unit_range c0 && unit_range c1)%bool then bind (getDeltaG2 gasR m c0 c1 T) (fun dG => Some (from_dG gasR T dG)) else None
  else None.
(** getAtomicMobility for three species, CALPHADMobility.h:122-130 *)
Definition getAtomicMobility3 (gasR : R) (m : mobility) (c0 c1 c2 T : R) : option R :=
  if Rlt_dec 0 T then bind (getDeltaG3 gasR m c0 c1 c2 T) (fun dG => Some (from_dG gasR T dG)) else None.

Definition m2toum2 : R := 10 ^ 12.
(** computeDiffusionMobilityBinaryPhase, CALPHADMobility.cc:200-219 *)
Definition mobilityBinary (gasR c0 T : R) (ms : list mobility) : option R :=
  match ms with
  | [a; b] =>
      if unit_range c0 then
        let c1 := 1 - c0 in
        bind (getAtomicMobility2 gasR a c0 c1 T) (fun m0 =>
        bind (getAtomicMobility2 gasR b c0 c1 T) (fun m1 =>
        let mm := c0 * m1 + c1 * m0 in
        Some (c0 * c1 * mm * m2toum2)))
      else None
  | _ => None
  end.
(** the entries of computeDiffusionMobilityTernaryPhase, CALPHADMobility.cc:237-246 *)
Definition ternary00 (c0 c1 c2 m0 m1 m2 : R) : R := c0 * ((1 - c0) * (1 - c0) * m0 + c0 * c1 * m1 + c0 * c2 * m2) * m2toum2.
Definition ternary01 (c0 c1 c2 m0 m1 m2 : R) : R := c0 * c1 * (- (1 - c0) * m0 - (1 - c1) * m1 + c2 * m2) * m2toum2.
Definition ternary11 (c0 c1 c2 m0 m1 m2 : R) : R := c1 * (c0 * c1 * m0 + (1 - c1) * (1 - c1) * m1 + c1 * c2 * m2) * m2toum2.
(** computeDiffusionMobilityTernaryPhase, CALPHADMobility.cc:221-247; the four entries by their position *)
Definition mobilityTernary (gasR c0 c1 T : R) (ms : list mobility) : option (Z -> R) :=
  match ms with
  | [a; b; c] =>
      let c2 := 1 - c0 - c1 in
      bind (getAtomicMobility3 gasR a c0 c1 c2 T) (fun m0 =>
      bind (getAtomicMobility3 gasR b c0 c1 c2 T) (fun m1 =>
      bind (getAtomicMobility3 gasR c c0 c1 c2 T) (fun m2 =>
      Some (fun e : Z => if (e =? 0)%Z then ternary00 c0 c1 c2 m0 m1 m2
                         else if (e =? 3)%Z then ternary11 c0 c1 c2 m0 m1 m2 else ternary01 c0 c1 c2 m0 m1 m2))))
  | _ => None
  end.
(** CompositionStrategyMobilities::computeDiffusionMobilityPhaseL and A, CompositionStrategyMobilities.cc:200-243; the
    assert of line 242 holds whenever the entry is not negative *)
Definition mobilityPhase (gasR : R) (n : Z) (c : Z -> R) (T : R) (ms : list mobility) : option (Z -> R) :=
  if (n =? 1)%Z then bind (mobilityBinary gasR (c 0%Z) T ms) (fun m => Some (fun _ => m))
  else if (n =? 2)%Z then mobilityTernary gasR (c 0%Z) (c 1%Z) T ms else None.

(** ** MobilityCompositionDiffusionStrategy *)
Definition upd1 (f : Z -> R) (i : Z) (v : R) : Z -> R := fun k => if (k =? i)%Z then v else f k.
(** small_mat_mult, MobilityCompositionDiffusionStrategy.cc:18-28 *)
Definition small_mat_mult (n : Z) (a b c : Z -> R) : Z -> R :=
  do_loop 0 (n - 1) (fun k => do_loop 0 (n - 1) (fun i s =>
    do_loop 0 (n - 1) (fun j s => upd1 s (n * k + i)%Z (s (n * k + i)%Z + a (n * k + j)%Z * b (n * j + i)%Z))
      (upd1 s (n * k + i)%Z 0))) c.
(** second derivatives of the free energy of a phase: temperature, compositions, position in the array *)
Definition hessian := R -> (Z -> R) -> Z -> R.
(** computeLocalDiffusionMatrixL and A, :57-96; the member d_local_dmat held [old] before *)
Definition localDiffusionMatrix (gasR : R) (n : Z) (F : hessian) (ms : list mobility) (T : R) (c old : Z -> R) : option (Z -> R) :=
  bind (mobilityPhase gasR n c T ms) (fun mobmat => Some (small_mat_mult n mobmat (F T c) old)).
(** a loop that writes all entries of a face, and stops if the matrix cannot be computed *)
Definition write (n2 : Z) (i j : Z) (v : Z -> R) (a : arr3) : arr3 :=
  fun i' j' e => if ((i' =? i) && (j' =? j) && (0 <=? e) && (e <? n2))%Z%bool then v e else a i' j' e.
Definition fill_opt (lo0 hi0 lo1 hi1 n2 : Z) (f : Z -> Z -> option (Z -> R)) (a : arr3) : option arr3 :=
  do_cells lo0 hi0 lo1 hi1 (fun i j s => bind s (fun s => bind (f i j) (fun v => Some (write n2 i j v s)))) (Some a).
(** the asserts on the liquid composition of the two cells, :313-316 *)
Definition tolerated (c : R) : bool := if Rle_dec (- (5 / 100)) c then if Rle_dec c (105 / 100) then true else false else false.
Definition all_tolerated (n : Z) (c : Z -> R) : bool := forallb (fun k => tolerated (c k)) (range 0 (n - 1)).
(** the mean of two cells *)
Definition half (a b : Z -> R) : Z -> R := fun k => 1 / 2 * (a k + b k).
(** arrays of the compositions are indexed by species from 0 here *)
Record diff_in := mk_diff_in { dn : Z; dF_l : hessian; dF_a : hessian; dms_l : list mobility; dms_a : list mobility }.
(** setDiffCoeffInEachPhaseOnPatch, :197-407, x faces (:293-330): liquid asserts, then both phases *)
Definition diffCoeff_x (gasR : R) (b : pbox) (p : diff_in) (temp : arr2) (cl ca : arr3) (old : arr3 * arr3) : option (arr3 * arr3) :=
  let n2 := (dn p * dn p)%Z in
  let T i j := 1 / 2 * (temp i j + temp (i - 1)%Z j) in
  bind (fill_opt (lo0 b) (hi0 b + 1) (lo1 b) (hi1 b) n2 (fun i j =>
          if (all_tolerated (dn p) (cl i j) && all_tolerated (dn p) (cl (i - 1)%Z j))%bool
          then localDiffusionMatrix gasR (dn p) (dF_l p) (dms_l p) (T i j) (half (cl i j) (cl (i - 1)%Z j)) (fun _ => 0) else None) (fst old)) (fun l =>
  bind (fill_opt (lo0 b) (hi0 b + 1) (lo1 b) (hi1 b) n2 (fun i j =>
          localDiffusionMatrix gasR (dn p) (dF_a p) (dms_a p) (T i j) (half (ca i j) (ca (i - 1)%Z j)) (fun _ => 0)) (snd old)) (fun a =>
  Some (l, a))).
(** y faces, :332-365 *)
Definition diffCoeff_y (gasR : R) (b : pbox) (p : diff_in) (temp : arr2) (cl ca : arr3) (old : arr3 * arr3) : option (arr3 * arr3) :=
  let n2 := (dn p * dn p)%Z in
  let T i j := 1 / 2 * (temp i j + temp i (j - 1)%Z) in
  bind (fill_opt (lo0 b) (hi0 b) (lo1 b) (hi1 b + 1) n2 (fun i j =>
          localDiffusionMatrix gasR (dn p) (dF_l p) (dms_l p) (T i j) (half (cl i j) (cl i (j - 1)%Z)) (fun _ => 0)) (fst old)) (fun l =>
  bind (fill_opt (lo0 b) (hi0 b) (lo1 b) (hi1 b + 1) n2 (fun i j =>
          localDiffusionMatrix gasR (dn p) (dF_a p) (dms_a p) (T i j) (half (ca i j) (ca i (j - 1)%Z)) (fun _ => 0)) (snd old)) (fun a =>
  Some (l, a))).
(** setPFMDiffOnPatch, :409-611: weights of the phases on the faces *)
Definition weigh_opt (lo0 hi0 lo1 hi1 n2 : Z) (w : Z -> Z -> R) (d : arr3) (a : arr3) : arr3 :=
  do_cells lo0 hi0 lo1 hi1 (fun i j s => write n2 i j (fun e => w i j * d i j e) s) a.
(** the coefficients of the two phases: liquid (x, y), solid (x, y) *)
Record pfm := mk_pfm { pl_x : arr3; pl_y : arr3; pa_x : arr3; pa_y : arr3 }.
(** setDiffusion, :98-147; the stored coefficients before weighting are [dold], the weighted ones [old] *)
Definition setDiffusion (gasR : R) (it : interp_type) (atype : ascii) (b : pbox) (p : diff_in) (phi temp : arr2) (cl ca : arr3) (dold old : pfm) : option pfm :=
  bind (interpChar it) (fun ic =>
  if known ic atype then
    bind (diffCoeff_x gasR b p temp cl ca (pl_x dold, pa_x dold)) (fun dx =>
    bind (diffCoeff_y gasR b p temp cl ca (pl_y dold, pa_y dold)) (fun dy =>
    let n2 := (dn p * dn p)%Z in
    let hx i j := hface ic atype (phi i j) (phi (i - 1)%Z j) in
    let hy i j := hface ic atype (phi i j) (phi i (j - 1)%Z) in
    let wx w d a := weigh_opt (lo0 b) (hi0 b + 1) (lo1 b) (hi1 b) n2 w d a in
    let wy w d a := weigh_opt (lo0 b) (hi0 b) (lo1 b) (hi1 b + 1) n2 w d a in
    Some (mk_pfm (wx (fun i j => 1 - hx i j) (fst dx) (pl_x old)) (wy (fun i j => 1 - hy i j) (fst dy) (pl_y old))
                 (wx hx (snd dx) (pa_x old)) (wy hy (snd dy) (pa_y old)))))
  else None).
(** computeFluxOnPatch of EBSCompositionRHSStrategy.cc:183-327 with the regular stencil, two phases: flux->fillAll(0.), liquid,
    solid; the Fortran kernel numbers species and entries from 1 (depth of the array + 1) *)
Definition from1 (f : arr3) : arr3 := fun i j k => f i j (k - 1)%Z.
Definition ebs_flux (b : pbox) (n : Z) (cl ca : arr3) (d : pfm) : arr3 * arr3 :=
  let add c dx dy f := add_flux (lo0 b) (hi0 b) (lo1 b) (hi1 b) n (h1 b) (h2 b) (from1 c) (from1 dx) (from1 dy) f in
  add ca (pa_x d) (pa_y d) (add cl (pl_x d) (pl_y d) (fun _ _ _ => 0, fun _ _ _ => 0)).

(** ** Diagnostics and input *)
(** printDiffusionVsTemperature, CALPHADMobility.cc:181-195: pairs (10000/T, m*T*R) *)
Definition diffusionVsTemperature (gasR : R) (m : mobility) (tmin tmax : R) : option (list (R * R)) :=
  let dtemp := (tmax - tmin) / (100 - 1) in
  fold_right (fun k acc =>
    let T := tmin + IZR k * dtemp in
    bind (getAtomicMobility2 gasR m 1 0 T) (fun mob => bind acc (fun l => Some ((10000 / T, mob * T * gasR) :: l))))
    (Some []) (range 0 99).
(** preRunDiagnosticsMobilityInPhases, diagnostics.cc:66-98: the four sections of D.dat, in the order of their titles:
    liquid species 0, liquid species 1, phase A species 0, phase A species 1 *)
Definition D_dat (gasR T : R) (m0L m1L m0A m1A : mobility) : list (option (list (R * R))) :=
  let tmin := T * (1 / 2) in let tmax := T * 2 in
  [diffusionVsTemperature gasR m0L tmin tmax; diffusionVsTemperature gasR m0L tmin tmax;
   diffusionVsTemperature gasR m0A tmin tmax; diffusionVsTemperature gasR m1A tmin tmax].

(** ** Thermal diffusion *)
(** ConcRHSstrategy as read, QuatModelParameters.cc:204-235 *)
Inductive rhs_form := KKS | EBS | SPINODAL | Beckermann | CahnHilliard | WangSintering.
(** classes derived from CompositionRHSStrategy *)
Inductive rhs_class := KKSRHS | EBSRHS | EBSWithGradT | BeckermannRHS | DoubleWellRHS | WangRHS.
(** CompositionRHSStrategyFactory::create, CompositionRHSStrategyFactory.h:44-101 *)
Definition create (f : rhs_form) : option rhs_class :=
  match f with KKS => Some KKSRHS | EBS => Some EBSRHS | Beckermann => Some BeckermannRHS | CahnHilliard => Some DoubleWellRHS
             | WangSintering => Some WangRHS | SPINODAL => None end.
(** gradT_Q0 and gradT_Q1, QuatModelParameters.cc:299-307 *)
Definition read_gradT (db : database) : option (option (R * R)) :=
  match db "gradT_Q0"%string with
  | None => Some None
  | Some [a] => match db "gradT_Q1"%string with Some [b] => Some (Some (a, b)) | _ => None end
  | Some _ => None
  end.
(** addconcentrationfluxfromgradt, 2d/concentrationrhs.m4:369-428 *)
Definition add_flux_gradT (b : pbox) (atype : ascii) (temp mq0 mq1 : arr2) (flux : faces) : option faces :=
  match average_func 0 0 atype with
  | None => None
  | Some _ =>
      let dxinv := 1 / h1 b in let dyinv := 1 / h2 b in
      let side p q := val (average_func p q atype) in
      Some (xfaces b (fun i j => fst flux i j - dxinv * mq0 i j * ((temp i j - temp (i - 1)%Z j) / side (temp (i - 1)%Z j) (temp i j))) (fst flux),
            yfaces b (fun i j => snd flux i j - dyinv * mq1 i j * ((temp i j - temp i (j - 1)%Z) / side (temp i (j - 1)%Z) (temp i j))) (snd flux))
  end.
(** addFluxFromGradTonPatch: CompositionRHSStrategy.cc:25-37 stops, only EBSCompositionRHSStrategyWithGradT.cc:492-533 overrides it *)
Definition addFluxFromGradT (c : rhs_class) (b : pbox) (atype : ascii) (temp mq0 mq1 : arr2) (flux : faces) : option faces :=
  match c with EBSWithGradT => add_flux_gradT b atype temp mq0 mq1 flux | _ => None end.
(** the fluxes of a patch, QuatIntegrator.cc:2601-2608, for the flux of computeFluxOnPatch *)
Definition flux_on_patch (f : rhs_form) (db : database) (b : pbox) (atype : ascii) (temp mq0 mq1 : arr2) (flux : faces) : option faces :=
  bind (create f) (fun c => bind (read_gradT db) (fun g =>
  match g with None => Some flux | Some _ => addFluxFromGradT c b atype temp mq0 mq1 flux end)).
(** setDiffusionCoeff of the class with thermal diffusion, EBSCompositionRHSStrategyWithGradT.cc:56-68, calls itself (the function
    of the base class is hidden by its own); [fuel] bounds the depth of the stack *)
Fixpoint setDiffusionCoeff (fuel : nat) {S : Type} (setForT : S -> S) (s : S) : option S :=
  match fuel with 0%nat => None | Datatypes.S k => setDiffusionCoeff k setForT (setForT s) end.
