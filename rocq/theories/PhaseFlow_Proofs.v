From Coq Require Import Reals ZArith List Bool Ascii Lra Lia.
From Coquelicot Require Import Coquelicot.
From Verif Require Import Grid_Model Grid_Spec Grid_Proofs Functions_Model Functions_Spec Functions_Proofs Stencils_Model
  PhaseFlow_Model PhaseFlow_Spec.
From Verif Require Energy_Model Energy_Spec Energy_Proofs QuatFlow_Proofs.
Import ListNotations.
Open Scope R_scope.

Lemma inb_true : forall lo hi i, (lo <= i <= hi)%Z -> inb lo hi i = true.
Proof. intros. destruct (inb_spec lo hi i); auto; lia. Qed.
Lemma cells_val : forall b f a i j, in_cells b i j -> cells b f a i j = f i j (a i j).
Proof. intros b f a i j [Hi Hj]. unfold cells. rewrite cells_loop, !inb_true by lia. reflexivity. Qed.
Lemma xfaces_val : forall b f a i j, x_face b i j -> xfaces b f a i j = f i j.
Proof. intros b f a i j [Hi Hj]. unfold xfaces. rewrite (cells_loop _ _ _ _ (fun i j _ => f i j)), !inb_true by lia. reflexivity. Qed.
Lemma yfaces_val : forall b f a i j, y_face b i j -> yfaces b f a i j = f i j.
Proof. intros b f a i j [Hi Hj]. unfold yfaces. rewrite (cells_loop _ _ _ _ (fun i j _ => f i j)), !inb_true by lia. reflexivity. Qed.

(** * Value of the right-hand side *)
Definition div_term (p : phase_problem) (phi fold : arr2) (i j : Z) : R :=
  let b := pb p in
  let fx := flux_x (pflux p) b (peps p) phi fold in let fy := flux_y (pflux p) b (peps p) phi fold in
  (fx (i + 1)%Z j - fx i j) / h1 b + (fy i (j + 1)%Z - fy i j) / h2 b.
Definition third_term (p : phase_problem) (phi : arr2) (i j : Z) : R :=
  match pthird p with
  | Some e => - (eta_well_scale e * val (deriv_interp_func (phi i j) (eta_interp e)) * val (well_func (eta e i j) (eta_well e)))
  | None => 0 end.
Definition orient_term (p : phase_problem) (phi : arr2) (i j : Z) : R :=
  match porient p with
  | Some o => - (misorientation o * ptemp p i j * val (deriv_interp_func (phi i j) (otype1 o)) * ogm o i j)
      - val (deriv_interp_func (phi i j) (otype2 o)) * (1 / 2 * epsilonq o * epsilonq o) * ogm o i j * ogm o i j
  | None => 0 end.
Definition wtemp (temp : arr2) (i j : Z) : R :=
  3 / 4 * temp i j + 1 / 16 * (temp (i - 1)%Z j + temp i (j - 1)%Z + temp (i + 1)%Z j + temp i (j + 1)%Z).
Definition drive_term (d : drive) (temp phi : arr2) (i j : Z) : R :=
  match d with
  | NoDrive => 0
  | FreeEnergies fl fa it => val (deriv_interp_func (phi i j) it) * (fl i j - fa i j)
  | DeltaTemperature tm lh it => lh / tm * (tm - wtemp temp i j) * val (deriv_interp_func (phi i j) it)
  | BiasUTRC alpha gamma te => alpha / PI * atan (gamma * (te i j - temp i j)) * phi i j * (1 - phi i j)
  | BiasBeckermann alpha te => alpha * (te i j - temp i j) * phi i j * (1 - phi i j)
  end.
Definition force (p : phase_problem) (phi fold : arr2) (i j : Z) : R :=
  div_term p phi fold i j - pwell p * (32 * phi i j * (1 - phi i j) * (1 - 2 * phi i j))
  + third_term p phi i j + orient_term p phi i j + drive_term (pdrive p) (ptemp p) phi i j.
Definition types_known (p : phase_problem) : bool :=
  (match pthird p with Some e => deriv_known (eta_interp e) && well_known (eta_well e) | None => true end
   && match porient p with Some o => deriv_known (otype1 o) && deriv_known (otype2 o) | None => true end
   && match pdrive p with FreeEnergies _ _ it => deriv_known it | DeltaTemperature _ _ it => deriv_known it | _ => true end)%bool.

Lemma pi_atan : 4 * atan 1 = PI.
Proof. rewrite atan_1. field. Qed.
Lemma rhs_value : forall p phi fold rold,
  if types_known p then exists rhs, evaluatePhaseRHS p phi fold rold = Some rhs /\
    forall i j, in_cells (pb p) i j -> rhs i j = pmob p i j * force p phi fold i j
  else evaluatePhaseRHS p phi fold rold = None.
Proof.
  intros p phi fold rold. unfold types_known, evaluatePhaseRHS, computerhspbg.
  set (k3 := match pthird p with Some _ => _ | None => true end).
  set (ko := match porient p with Some _ => _ | None => true end).
  change (well_known "d") with true. cbn [andb].
  destruct k3 eqn:E3; [| reflexivity]. destruct ko eqn:Eo; [| reflexivity]. cbn [andb].
  set (r3 := match porient p with Some _ => _ | None => _ end).
  assert (V : forall i j, in_cells (pb p) i j -> r3 i j =
    div_term p phi fold i j - pwell p * (32 * phi i j * (1 - phi i j) * (1 - 2 * phi i j)) + third_term p phi i j + orient_term p phi i j).
  { intros i j Hij. unfold r3, orient_term, third_term, div_term. clear r3 k3 ko E3 Eo.
    destruct (porient p) as [o |]; destruct (pthird p) as [e |]; rewrite !cells_val by auto; cbv beta zeta;
      cbn [deriv_well_func Energy_Model.val]; unfold Rdiv; ring. }
  clearbody r3. clear E3 Eo k3 ko.
  destruct (pdrive p) as [| fl fa it | tm lh it | alpha gamma te | alpha te] eqn:Ed; cbn [addDrivingForce];
    unfold phaserhs_fenergy, computerhsdeltatemperature, computerhsbiaswell, computerhsbiaswellbeckermann.
  - eexists. split; [reflexivity |]. intros i j Hij. rewrite !cells_val by auto. unfold force. rewrite V, Ed by auto. cbn [drive_term]. ring.
  - destruct (deriv_known it); [| reflexivity].
    eexists. split; [reflexivity |]. intros i j Hij. rewrite !cells_val by auto. unfold force. rewrite V, Ed by auto. cbn [drive_term]. ring.
  - destruct (deriv_known it); [| reflexivity].
    eexists. split; [reflexivity |]. intros i j Hij. rewrite !cells_val by auto. unfold force. rewrite V, Ed by auto. cbn [drive_term]. unfold wtemp. ring.
  - eexists. split; [reflexivity |]. intros i j Hij. rewrite !cells_val by auto. unfold force. rewrite V, Ed, pi_atan by auto. cbn [drive_term]. ring.
  - eexists. split; [reflexivity |]. intros i j Hij. rewrite !cells_val by auto. unfold force. rewrite V, Ed by auto. cbn [drive_term]. ring.
Qed.
Lemma rhs_val : forall p phi fold rold rhs i j, evaluatePhaseRHS p phi fold rold = Some rhs -> in_cells (pb p) i j ->
  rhs i j = pmob p i j * force p phi fold i j.
Proof.
  intros p phi fold rold rhs i j E H. pose proof (rhs_value p phi fold rold) as V. destruct (types_known p).
  - destruct V as (r & E' & V). rewrite E in E'. injection E' as <-. auto.
  - rewrite E in V. discriminate.
Qed.

(** second differences *)
Definition lap (b : pbox) (f : arr2) (i j : Z) : R :=
  (f (i + 1)%Z j - 2 * f i j + f (i - 1)%Z j) / h1 b ^ 2 + (f i (j + 1)%Z - 2 * f i j + f i (j - 1)%Z) / h2 b ^ 2.
Lemma inv_sq : forall h, / h ^ 2 = / h * / h.
Proof. intro h. replace (h ^ 2) with (h * h) by ring. apply Rinv_mult. Qed.
Lemma div_simple : forall p phi fold i j, pflux p = FluxSimple -> in_cells (pb p) i j ->
  div_term p phi fold i j = peps p ^ 2 * lap (pb p) phi i j.
Proof.
  intros p phi fold i j E [Hi Hj]. unfold div_term, lap. rewrite E. cbn [flux_x flux_y]. unfold gradient_flux_x, gradient_flux_y.
  rewrite !xfaces_val, !yfaces_val by (split; lia). replace (i + 1 - 1)%Z with i by lia. replace (j + 1 - 1)%Z with j by lia.
  unfold Rdiv. rewrite !inv_sq. ring.
Qed.
(** mixed second difference *)
Definition mixed (f : arr2) (i j : Z) : R :=
  f (i + 1)%Z (j + 1)%Z + f (i + 1)%Z (j - 1)%Z + f (i - 1)%Z (j + 1)%Z + f (i - 1)%Z (j - 1)%Z
  - 2 * (f (i + 1)%Z j + f (i - 1)%Z j + f i (j + 1)%Z + f i (j - 1)%Z) + 4 * f i j.
Lemma div_isotropic : forall p phi fold i j, pflux p = FluxIsotropic -> in_cells (pb p) i j ->
  div_term p phi fold i j = peps p ^ 2 * (lap (pb p) phi i j + mixed phi i j / 12 * (/ h1 (pb p) ^ 2 + / h2 (pb p) ^ 2)).
Proof.
  intros p phi fold i j E [Hi Hj]. unfold div_term, lap, mixed. rewrite E. cbn [flux_x flux_y]. unfold isotropic_flux_x, isotropic_flux_y.
  rewrite !xfaces_val, !yfaces_val by (split; lia). replace (i + 1 - 1)%Z with i by lia. replace (j + 1 - 1)%Z with j by lia.
  unfold Rdiv. rewrite !inv_sq. generalize (/ h1 (pb p)) (/ h2 (pb p)). intros u v. field.
Qed.

(** * Energy *)
Lemma sum_sym1 : forall c lo hi f g, (lo <= hi)%Z -> filled1 c lo hi f -> filled1 c lo hi g ->
  sumZ lo hi (fun i => g i * (f (i + 1)%Z - 2 * f i + f (i - 1)%Z)) = sumZ lo hi (fun i => f i * (g (i + 1)%Z - 2 * g i + g (i - 1)%Z)).
Proof.
  intros c lo hi f g H Hf Hg.
  set (w := fun i => g (i - 1)%Z * f i - f (i - 1)%Z * g i).
  assert (E : sumZ lo hi (fun i => g i * (f (i + 1)%Z - 2 * f i + f (i - 1)%Z) - f i * (g (i + 1)%Z - 2 * g i + g (i - 1)%Z)) = 0).
  { rewrite (sumZ_ext lo hi _ (fun i => w (i + 1)%Z - w i)).
    - rewrite sumZ_telescope by lia. unfold w. replace (hi + 1 - 1)%Z with hi by lia.
      destruct c; destruct Hf as [F1 F2]; destruct Hg as [G1 G2]; rewrite F1, F2, G1, G2; ring.
    - intros i _. unfold w. replace (i + 1 - 1)%Z with i by lia. ring. }
  rewrite sumZ_minus in E. lra.
Qed.
Lemma sum_sym : forall cx cy b f g, (lo0 b <= hi0 b)%Z -> (lo1 b <= hi1 b)%Z -> filled cx cy b f -> filled cx cy b g ->
  sum_cells b (fun i j => g i j * lap b f i j) = sum_cells b (fun i j => f i j * lap b g i j).
Proof.
  intros cx cy b f g H0 H1 [Fx Fy] [Gx Gy]. unfold sum_cells, sum_box, lap.
  assert (A : forall f g : arr2, sumZ (lo1 b) (hi1 b) (fun j => sumZ (lo0 b) (hi0 b) (fun i => g i j *
    ((f (i + 1)%Z j - 2 * f i j + f (i - 1)%Z j) / h1 b ^ 2 + (f i (j + 1)%Z - 2 * f i j + f i (j - 1)%Z) / h2 b ^ 2))) =
    / h1 b ^ 2 * sumZ (lo1 b) (hi1 b) (fun j => sumZ (lo0 b) (hi0 b) (fun i => g i j * (f (i + 1)%Z j - 2 * f i j + f (i - 1)%Z j))) +
    / h2 b ^ 2 * sumZ (lo0 b) (hi0 b) (fun i => sumZ (lo1 b) (hi1 b) (fun j => g i j * (f i (j + 1)%Z - 2 * f i j + f i (j - 1)%Z)))).
  { clear. intros f g. rewrite <- (sumZ_swap (lo0 b) (hi0 b) (lo1 b) (hi1 b) (fun i j => g i j * (f i (j + 1)%Z - 2 * f i j + f i (j - 1)%Z))). rewrite <- !sumZ_scal, <- sumZ_plus. apply sumZ_ext. intros j _.
    rewrite <- !sumZ_scal, <- sumZ_plus. apply sumZ_ext. intros i _. unfold Rdiv. ring. }
  rewrite (A f g), (A g f). f_equal; f_equal; apply sumZ_ext.
  - intros j Hj. apply (sum_sym1 cx (lo0 b) (hi0 b) (fun i => f i j) (fun i => g i j)); auto.
  - intros i Hi. apply (sum_sym1 cy (lo1 b) (hi1 b) (fun j => f i j) (fun j => g i j)); auto.
Qed.

Lemma sum_cells_ext : forall b f g, (forall i j, in_cells b i j -> f i j = g i j) -> sum_cells b f = sum_cells b g.
Proof. intros. apply sum_box_ext. auto. Qed.
Lemma sum_cells_plus : forall b f g, sum_cells b (fun i j => f i j + g i j) = sum_cells b f + sum_cells b g.
Proof. intros. apply sum_box_plus. Qed.
Lemma sum_cells_scal : forall b c f, sum_cells b (fun i j => c * f i j) = c * sum_cells b f.
Proof. intros. apply sum_box_scal. Qed.

Lemma sum_one : forall f : Z -> R, sumZ 1 1 f = f 1%Z.
Proof. intro f. rewrite (sumZ_cons 1 1), (sumZ_empty (1 + 1) 1) by lia. ring. Qed.
Lemma reported_value : forall b eps an ws w pc it wt temp fl fa phi, an <= 0 ->
  reported_energy b eps an ws w pc it wt temp fl fa phi =
  w * sum_cells b (fun i j => - (eps ^ 2 / 2) * phi i j * lap b phi i j + ws * val (well_func (phi i j) wt)
    + ((1 - val (interp_func (phi i j) it)) * fl i j + val (interp_func (phi i j) it) * fa i j)).
Proof.
  intros b eps an ws w pc it wt temp fl fa phi Han. unfold reported_energy. rewrite Energy_Proofs.patch_totals.
  cbn [Energy_Model.t_energy Energy_Model.zero_totals]. unfold Energy_Spec.over. cbn [energy_patch Energy_Model.elo0 Energy_Model.ehi0 Energy_Model.elo1 Energy_Model.ehi1 Energy_Model.eweight].
  rewrite Rplus_0_l. rewrite <- sum_cells_scal. apply sum_box_ext. intros i j _. f_equal.
  unfold Energy_Spec.density, Energy_Spec.all_phases, Energy_Spec.phase_density, Energy_Spec.orient_density, Energy_Spec.qint_density,
    Energy_Spec.well_density, Energy_Spec.bulk_density.
  cbn [energy_params energy_patch Energy_Model.nphases Energy_Model.anisotropy Energy_Model.misorientation Energy_Model.epsilon_phi
       Energy_Model.ephi Energy_Model.well_scale Energy_Model.phi_interp Energy_Model.phi_well Energy_Model.efl Energy_Model.efa Energy_Model.edx Energy_Model.edy].
  rewrite !sum_one. destruct (Rlt_dec 0 an); [lra |]. destruct (Rlt_dec 0 0); [lra |].
  unfold Energy_Spec.second, lap. cbv beta. cbn [energy_patch Energy_Model.edx Energy_Model.edy Energy_Model.efl Energy_Model.efa]. ring.
Qed.
Lemma lap_moved : forall b phi v t i j, lap b (moved phi v t) i j = lap b phi i j + t * lap b v i j.
Proof. intros. unfold lap, moved, Rdiv. ring. Qed.
Lemma derivative_val : forall f df x, derivative_at f df x -> derivable_pt_lim (fun y => val (f y)) x (val (df x)).
Proof.
  intros f df x (F & d & HF & Hd & D). rewrite Hd. cbn [Energy_Model.val].
  apply (derivable_pt_lim_ext F); [intro y; rewrite HF; reflexivity | exact D].
Qed.
Lemma along : forall F x v d, derivable_pt_lim F x d -> derivable_pt_lim (fun t => F (x + t * v)) 0 (d * v).
Proof.
  intros F x v d H. apply (derivable_pt_lim_comp (fun t => x + t * v) F).
  - apply is_derive_Reals. auto_derive; [auto | ring].
  - rewrite Rmult_0_l, Rplus_0_r. exact H.
Qed.
Lemma well_known_deriv : forall wt x, well_known wt = true -> derivative_at (fun y => well_func y wt) (fun y => deriv_well_func y wt) x.
Proof.
  intros wt x H. assert (In wt ["d"; "s"]%char) as Hin.
  { unfold well_known, deriv_well_func in H. destruct wt as [[] [] [] [] [] [] [] []]; try discriminate H; cbn; auto. }
  apply well_derivs; auto.
Qed.
(** derivative of the reported energy in a direction *)
Lemma reported_derivative : forall cx cy b eps an ws w pc it wt temp fl fa phi v,
  (lo0 b <= hi0 b)%Z -> (lo1 b <= hi1 b)%Z -> an <= 0 -> well_known wt = true ->
  (forall i j, in_cells b i j -> derivative_at (fun y => interp_func y it) (fun y => deriv_interp_func y it) (phi i j)) ->
  filled cx cy b phi -> filled cx cy b v ->
  derivable_pt_lim (fun t => reported_energy b eps an ws w pc it wt temp fl fa (moved phi v t)) 0
    (w * sum_cells b (fun i j => (- (eps ^ 2) * lap b phi i j + ws * val (deriv_well_func (phi i j) wt)
       + val (deriv_interp_func (phi i j) it) * (fa i j - fl i j)) * v i j)).
Proof.
  intros cx cy b eps an ws w pc it wt temp fl fa phi v H0 H1 Han Hw Hit Fp Fv.
  apply (derivable_pt_lim_ext (fun t => w * sum_cells b (fun i j =>
    - (eps ^ 2 / 2) * (phi i j + t * v i j) * (lap b phi i j + t * lap b v i j) + ws * val (well_func (phi i j + t * v i j) wt)
    + ((1 - val (interp_func (phi i j + t * v i j) it)) * fl i j + val (interp_func (phi i j + t * v i j) it) * fa i j)))).
  { intro t. rewrite reported_value by auto. f_equal. apply sum_cells_ext. intros i j _. rewrite lap_moved. reflexivity. }
  apply (derivable_pt_lim_scal (fun t => sum_cells b _)).
  assert (E : sum_cells b (fun i j => (- (eps ^ 2) * lap b phi i j + ws * val (deriv_well_func (phi i j) wt)
       + val (deriv_interp_func (phi i j) it) * (fa i j - fl i j)) * v i j) =
    sum_cells b (fun i j => - (eps ^ 2 / 2) * (v i j * lap b phi i j + phi i j * lap b v i j) + ws * (val (deriv_well_func (phi i j) wt) * v i j)
       + val (deriv_interp_func (phi i j) it) * v i j * (fa i j - fl i j))).
  { rewrite (sum_cells_ext b _ (fun i j => (- (eps ^ 2) * (v i j * lap b phi i j)) + (ws * (val (deriv_well_func (phi i j) wt) * v i j)
       + val (deriv_interp_func (phi i j) it) * v i j * (fa i j - fl i j)))) by (intros; ring).
    rewrite (sum_cells_ext b (fun i j => - (eps ^ 2 / 2) * (v i j * lap b phi i j + phi i j * lap b v i j) + ws * (val (deriv_well_func (phi i j) wt) * v i j)
       + val (deriv_interp_func (phi i j) it) * v i j * (fa i j - fl i j)) (fun i j => ((- (eps ^ 2 / 2)) * (v i j * lap b phi i j) + (- (eps ^ 2 / 2)) * (phi i j * lap b v i j)) + (ws * (val (deriv_well_func (phi i j) wt) * v i j)
       + val (deriv_interp_func (phi i j) it) * v i j * (fa i j - fl i j)))) by (intros; ring).
    rewrite (sum_cells_plus b (fun i j => - eps ^ 2 * (v i j * lap b phi i j))).
    rewrite (sum_cells_plus b (fun i j => - (eps ^ 2 / 2) * (v i j * lap b phi i j) + - (eps ^ 2 / 2) * (phi i j * lap b v i j))).
    rewrite (sum_cells_plus b (fun i j => - (eps ^ 2 / 2) * (v i j * lap b phi i j))), !(sum_cells_scal b (- (eps ^ 2 / 2))), (sum_cells_scal b (- eps ^ 2)).
    rewrite (sum_sym cx cy b v phi) by auto. field. }
  rewrite E. apply QuatFlow_Proofs.box_limit. intros i j Hij.
  pose proof (along _ _ (v i j) _ (derivative_val _ _ _ (well_known_deriv wt (phi i j) Hw))) as DW.
  pose proof (along _ _ (v i j) _ (derivative_val _ _ _ (Hit i j Hij))) as DI. cbv beta in DW, DI.
  apply is_derive_Reals in DW. apply is_derive_Reals in DI. apply is_derive_Reals.
  set (W := fun t => val (well_func (phi i j + t * v i j) wt)) in *. set (I := fun t => val (interp_func (phi i j + t * v i j) it)) in *.
  change (is_derive (fun t => - (eps ^ 2 / 2) * (phi i j + t * v i j) * (lap b phi i j + t * lap b v i j) + ws * W t
    + ((1 - I t) * fl i j + I t * fa i j)) 0 (- (eps ^ 2 / 2) * (v i j * lap b phi i j + phi i j * lap b v i j) + ws * (val (deriv_well_func (phi i j) wt) * v i j)
       + val (deriv_interp_func (phi i j) it) * v i j * (fa i j - fl i j))).
  auto_derive.
  - repeat split; eexists; eassumption.
  - change (Derive (fun x : R => W x) 0) with (Derive W 0). change (Derive (fun x : R => I x) 0) with (Derive I 0).
    rewrite (is_derive_unique _ _ _ DW), (is_derive_unique _ _ _ DI). field.
Qed.

Lemma phase_gradient : forall cx cy p fl fa it an w pc phi v fold rold rhs,
  (lo0 (pb p) <= hi0 (pb p))%Z -> (lo1 (pb p) <= hi1 (pb p))%Z -> an <= 0 ->
  pflux p = FluxSimple -> porient p = None -> pthird p = None -> pdrive p = FreeEnergies fl fa it ->
  (forall i j, in_cells (pb p) i j -> pmob p i j <> 0) ->
  In it ["p"; "h"]%char \/ it = "l"%char /\ (forall i j, in_cells (pb p) i j -> 0 < phi i j < 1) ->
  filled cx cy (pb p) phi -> filled cx cy (pb p) v ->
  evaluatePhaseRHS p phi fold rold = Some rhs ->
  derivable_pt_lim (fun t => reported_energy (pb p) (peps p) an (pwell p) w pc it "d" (ptemp p) fl fa (moved phi v t)) 0
    (- w * sum_cells (pb p) (fun i j => rhs i j / pmob p i j * v i j)).
Proof.
  intros cx cy p fl fa it an w pc phi v fold rold rhs H0 H1 Han Hf Ho H3 Hd Hm Hit Fp Fv E.
  assert (S : - w * sum_cells (pb p) (fun i j => rhs i j / pmob p i j * v i j) =
    w * sum_cells (pb p) (fun i j => (- (peps p ^ 2) * lap (pb p) phi i j + pwell p * val (deriv_well_func (phi i j) "d")
       + val (deriv_interp_func (phi i j) it) * (fa i j - fl i j)) * v i j)).
  { rewrite <- !sum_cells_scal. apply sum_cells_ext. intros i j Hij. rewrite (rhs_val p phi fold rold rhs i j E Hij).
    unfold force, third_term, orient_term. rewrite (div_simple p phi fold i j Hf Hij), H3, Ho, Hd. cbn [drive_term deriv_well_func Energy_Model.val].
    field. auto. }
  rewrite S. apply (reported_derivative cx cy); auto.
  intros i j Hij. destruct Hit as [Hit | [-> Hin]].
  - apply deriv_interp_ok. cbn in *. tauto.
  - apply deriv_interp_l. auto.
Qed.
Lemma phase_descent : forall cx cy p fl fa it an w pc phi v fold rold rhs,
  (lo0 (pb p) <= hi0 (pb p))%Z -> (lo1 (pb p) <= hi1 (pb p))%Z -> an <= 0 -> 0 <= w ->
  pflux p = FluxSimple -> porient p = None -> pthird p = None -> pdrive p = FreeEnergies fl fa it ->
  (forall i j, in_cells (pb p) i j -> 0 < pmob p i j) ->
  In it ["p"; "h"]%char \/ it = "l"%char /\ (forall i j, in_cells (pb p) i j -> 0 < phi i j < 1) ->
  filled cx cy (pb p) phi -> filled cx cy (pb p) v ->
  evaluatePhaseRHS p phi fold rold = Some rhs -> (forall i j, in_cells (pb p) i j -> v i j = rhs i j) ->
  exists rate, rate = - (w * sum_cells (pb p) (fun i j => rhs i j ^ 2 / pmob p i j)) /\ rate <= 0 /\
  derivable_pt_lim (fun t => reported_energy (pb p) (peps p) an (pwell p) w pc it "d" (ptemp p) fl fa (moved phi v t)) 0 rate.
Proof.
  intros cx cy p fl fa it an w pc phi v fold rold rhs H0 H1 Han Hw Hf Ho H3 Hd Hm Hit Fp Fv E Hv.
  exists (- (w * sum_cells (pb p) (fun i j => rhs i j ^ 2 / pmob p i j))). split; [reflexivity |]. split.
  - assert (0 <= sum_cells (pb p) (fun i j => rhs i j ^ 2 / pmob p i j)); [| nra].
    apply QuatFlow_Proofs.sumZ_nonneg. intros j Hj. apply QuatFlow_Proofs.sumZ_nonneg. intros i Hi.
    specialize (Hm i j ltac:(split; lia)). apply Rmult_le_pos; [apply pow2_ge_0 | apply Rlt_le, Rinv_0_lt_compat; auto].
  - replace (- (w * sum_cells (pb p) (fun i j => rhs i j ^ 2 / pmob p i j))) with (- w * sum_cells (pb p) (fun i j => rhs i j / pmob p i j * v i j)).
    + apply (phase_gradient cx cy p fl fa it an w pc phi v fold rold rhs); auto. intros i j Hij. specialize (Hm i j Hij). lra.
    + rewrite Ropp_mult_distr_l_reverse. do 2 f_equal. apply sum_cells_ext. intros i j Hij. rewrite (Hv i j Hij). unfold Rdiv. ring.
Qed.
(** the driving force of the temperature model differs from that of its energies by the smoothing of the temperature *)
Lemma delta_vs_energy : forall b tm lh it temp phi rhs o1 o2 r1 r2 i j,
  addDrivingForce (DeltaTemperature tm lh it) b phi temp rhs = Some r1 ->
  addDrivingForce (FreeEnergies (delta_fl b temp tm lh o1) (delta_fa b temp tm lh o2) it) b phi temp rhs = Some r2 ->
  in_cells b i j ->
  r1 i j - r2 i j = - (lh / tm) * val (deriv_interp_func (phi i j) it) *
    ((temp (i + 1)%Z j + temp (i - 1)%Z j + temp i (j + 1)%Z + temp i (j - 1)%Z) / 4 - temp i j) / 4.
Proof.
  intros b tm lh it temp phi rhs o1 o2 r1 r2 i j E1 E2 Hij. cbn [addDrivingForce] in E1, E2.
  unfold computerhsdeltatemperature in E1. unfold phaserhs_fenergy in E2. destruct (deriv_known it); [| discriminate].
  injection E1 as <-. injection E2 as <-. rewrite !cells_val by auto. unfold delta_fl, delta_fa, temperature_energy. rewrite !cells_val by auto.
  unfold Rdiv. generalize (/ tm). intro z. field.
Qed.

Definition unit_box : pbox := mk_pbox 0 0 0 0 1 1.
Definition zero2 : arr2 := fun _ _ => 0.
Definition one2 : arr2 := fun _ _ => 1.
Lemma unit_cell : forall i j, in_cells unit_box i j -> i = 0%Z /\ j = 0%Z.
Proof. intros i j [Hi Hj]. cbn in *. lia. Qed.
Lemma sum_unit : forall f, sum_cells unit_box f = f 0%Z 0%Z.
Proof.
  intro f. unfold sum_cells, sum_box. cbn [unit_box lo0 hi0 lo1 hi1].
  rewrite (sumZ_cons 0 0), (sumZ_empty (0 + 1) 0) by lia. rewrite (sumZ_cons 0 0), (sumZ_empty (0 + 1) 0) by lia. ring.
Qed.
Lemma single_well_wrong : exists p fl fa phi v rhs,
  pflux p = FluxSimple /\ porient p = None /\ pthird p = None /\ pdrive p = FreeEnergies fl fa "p" /\
  (forall i j, in_cells (pb p) i j -> 0 < pmob p i j) /\ filled Periodic Periodic (pb p) phi /\ filled Periodic Periodic (pb p) v /\
  evaluatePhaseRHS p phi zero2 zero2 = Some rhs /\ (forall i j, in_cells (pb p) i j -> v i j = rhs i j) /\
  exists rate, 0 < rate /\
  derivable_pt_lim (fun t => reported_energy (pb p) (peps p) (-1) (pwell p) 1 false "p" "s" (ptemp p) fl fa (moved phi v t)) 0 rate.
Proof.
  set (p := mk_problem unit_box FluxSimple 1 1 zero2 None None (FreeEnergies zero2 zero2 "p") one2).
  set (phi := (fun _ _ => 1 / 4) : arr2). set (v := (fun _ _ => -3) : arr2).
  pose proof (rhs_value p phi zero2 zero2) as V. change (types_known p) with true in V. destruct V as (rhs & E & V).
  assert (F : forall c : R, filled Periodic Periodic (pb p) (fun _ _ => c)) by (intro c; split; intros; split; reflexivity).
  exists p, zero2, zero2, phi, v, rhs. repeat (split; [reflexivity |]).
  split; [intros; cbn; unfold one2; lra |]. split; [apply F |]. split; [apply F |]. split; [exact E |]. split.
  - intros i j Hij. rewrite V by auto. unfold force. rewrite div_simple by auto. unfold lap, third_term, orient_term.
    cbn [p pb peps pwell pmob pdrive porient pthird ptemp drive_term unit_box h1 h2]. unfold phi, v, one2, zero2. field.
  - eexists. split; [| apply (reported_derivative Periodic Periodic); try apply F; try reflexivity; try (cbn; lia); try lra].
    + cbn [pb p]. rewrite sum_unit. unfold lap, phi, v, zero2. cbn [unit_box h1 h2 peps pwell p deriv_well_func Energy_Model.val]. lra.
    + intros. apply deriv_interp_ok. cbn. tauto.
Qed.
Definition box22 : pbox := mk_pbox 0 1 0 1 1 1.
Lemma cell22 : forall i j, in_cells box22 i j -> (i = 0 \/ i = 1)%Z /\ (j = 0 \/ j = 1)%Z.
Proof. intros i j [Hi Hj]. cbn in *. lia. Qed.
Lemma sum_22 : forall f, sum_cells box22 f = f 0%Z 0%Z + f 1%Z 0%Z + f 0%Z 1%Z + f 1%Z 1%Z.
Proof.
  assert (S : forall g, sumZ 0 1 g = g 0%Z + g 1%Z).
  { intro g. rewrite (sumZ_cons 0 1), (sumZ_cons (0 + 1) 1), (sumZ_empty (0 + 1 + 1) 1) by lia. change (0 + 1)%Z with 1%Z. ring. }
  intro f. unfold sum_cells, sum_box. cbn [box22 lo0 hi0 lo1 hi1]. rewrite S, !S. ring.
Qed.
Definition checker (a b : R) : arr2 := fun i j => if Z.even (i + j) then a else b.
Lemma checker_filled : forall a b, filled Periodic Periodic box22 (checker a b).
Proof.
  intros a b. split; intros k Hk; cbn [box22 lo0 hi0 lo1 hi1] in *; assert (Ek : (k = 0 \/ k = 1)%Z) by lia; destruct Ek as [-> | ->]; split; reflexivity.
Qed.
Lemma isotropic_wrong : exists p fl fa phi v rhs,
  pflux p = FluxIsotropic /\ porient p = None /\ pthird p = None /\ pdrive p = FreeEnergies fl fa "p" /\
  (forall i j, in_cells (pb p) i j -> 0 < pmob p i j) /\ filled Periodic Periodic (pb p) phi /\ filled Periodic Periodic (pb p) v /\
  evaluatePhaseRHS p phi zero2 zero2 = Some rhs /\ (forall i j, in_cells (pb p) i j -> v i j = rhs i j) /\
  exists rate, 0 < rate /\
  derivable_pt_lim (fun t => reported_energy (pb p) (peps p) (-1) (pwell p) 1 false "p" "d" (ptemp p) fl fa (moved phi v t)) 0 rate.
Proof.
  set (p := mk_problem box22 FluxIsotropic 1 (1 / 2) zero2 None None (FreeEnergies zero2 zero2 "p") one2).
  set (phi := checker (3 / 4) (1 / 4)). set (v := checker (1 / 6) (- (1 / 6))).
  pose proof (rhs_value p phi zero2 zero2) as V. change (types_known p) with true in V. destruct V as (rhs & E & V).
  exists p, zero2, zero2, phi, v, rhs. repeat (split; [reflexivity |]).
  split; [intros; cbn; unfold one2; lra |]. split; [apply checker_filled |]. split; [apply checker_filled |]. split; [exact E |]. split.
  - intros i j Hij. rewrite V by auto. unfold force. rewrite div_isotropic by auto. unfold lap, mixed, third_term, orient_term.
    destruct (cell22 i j Hij) as [[-> | ->] [-> | ->]]; cbn [p pb peps pwell pmob pdrive porient pthird ptemp drive_term box22 h1 h2];
      unfold phi, v, checker, one2, zero2; cbn [Z.add Z.sub Z.opp Z.even Z.pos_sub Pos.add Pos.succ Z.pred_double Pos.pred_double]; field.
  - eexists. split; [| apply (reported_derivative Periodic Periodic); try apply checker_filled; try reflexivity; try (cbn; lia); try lra].
    + cbn [pb p]. rewrite sum_22. unfold lap, phi, v, zero2, checker.
      cbn [box22 h1 h2 peps pwell p deriv_well_func Energy_Model.val Z.add Z.sub Z.opp Z.even Z.pos_sub Pos.add Pos.succ Z.pred_double Pos.pred_double]. lra.
    + intros. apply deriv_interp_ok. cbn. tauto.
Qed.

(** * Bounds along trajectories *)
Lemma real_induction : forall a b (P : R -> Prop), P a ->
  (forall x, a <= x < b -> (forall y, a <= y <= x -> P y) -> exists d, 0 < d /\ forall y, x < y < x + d -> P y) ->
  (forall x, a < x <= b -> (forall y, a <= y < x -> P y) -> P x) ->
  forall x, a <= x <= b -> P x.
Proof.
  intros a b P Ha Hs Hc x Hx.
  set (E := fun z => a <= z <= b /\ forall y, a <= y <= z -> P y).
  assert (Ea : E a) by (split; [lra |]; intros y Hy; replace y with a by lra; exact Ha).
  destruct (completeness E) as [m [Hub Hl]]; [exists b; intros z [Hz _]; lra | exists a; exact Ea |].
  assert (Hm : a <= m <= b) by (split; [apply Hub; exact Ea | apply Hl; intros z [Hz _]; lra]).
  assert (Below : forall y, a <= y < m -> P y).
  { intros y Hy. destruct (Rle_dec m y); [lra |].
    assert (N : ~ (forall z, E z -> z <= y)) by (intro Hn; apply Hl in Hn; lra).
    assert (X : exists z, E z /\ y < z).
    { apply Classical_Prop.NNPP. intro Hn. apply N. intros z Hz. destruct (Rle_dec z y); auto. exfalso. apply Hn. exists z. split; auto. lra. }
    destruct X as (z & [Hz Pz] & Hyz). apply Pz. lra. }
  assert (Pm : P m).
  { destruct (Req_dec m a) as [-> | Hne]; [exact Ha |]. apply Hc; [lra |]. exact Below. }
  assert (Em : forall y, a <= y <= m -> P y).
  { intros y Hy. destruct (Req_dec y m) as [-> | Hne]; [exact Pm |]. apply Below. lra. }
  destruct (Req_dec m b) as [-> | Hne]; [apply Em; auto |].
  destruct (Hs m) as (d & Hd & Hn); [lra | exact Em |].
  exfalso. assert (E' : E (Rmin b (m + d / 2))).
  { split; [split; [apply Rmin_glb; lra | apply Rmin_l] |].
    intros y [Hy1 Hy2]. destruct (Rle_dec y m); [apply Em; lra |]. apply Hn. split; [lra |]. pose proof (Rmin_r b (m + d / 2)). lra. }
  apply Hub in E'. assert (m < Rmin b (m + d / 2)) by (apply Rmin_glb_lt; lra). lra.
Qed.
Lemma positive_after : forall g x l, derivable_pt_lim g x l -> (0 < g x \/ g x = 0 /\ 0 < l) ->
  exists d, 0 < d /\ forall y, x < y < x + d -> 0 <= g y.
Proof.
  intros g x l D [H | [H Hl]].
  - destruct (derivable_continuous_pt g x (exist _ l D) (g x) H) as (d & Hd & Hc).
    exists d. split; [exact Hd |]. intros y Hy. specialize (Hc y). cbn in Hc. unfold R_dist in Hc.
    assert (Hy' : Rabs (g y - g x) < g x).
    { apply Hc. split; [split; [exact I | intro; lra] |]. rewrite Rabs_right; lra. }
    apply Rabs_def2 in Hy'. lra.
  - destruct (D l Hl) as ([d Hd] & Hc). exists d. split; [exact Hd |]. intros y Hy. cbn in Hc.
    specialize (Hc (y - x) ltac:(lra)). rewrite Rabs_right in Hc by lra. specialize (Hc ltac:(lra)).
    replace (x + (y - x)) with y in Hc by ring. rewrite H in Hc. apply Rabs_def2 in Hc. destruct Hc as [_ Hc].
    assert (Q : 0 < (g y - 0) / (y - x)) by lra.
    assert (0 < y - x) by lra. assert (Q2 : 0 < (g y - 0) / (y - x) * (y - x)) by (apply Rmult_lt_0_compat; auto).
    unfold Rdiv in Q2. rewrite Rmult_assoc, Rinv_l, Rmult_1_r in Q2; lra.
Qed.
Lemma common_delta : forall {A} (l : list A) (Q : A -> R -> Prop) x,
  (forall a, In a l -> exists d, 0 < d /\ forall y, x < y < x + d -> Q a y) ->
  exists d, 0 < d /\ forall a y, In a l -> x < y < x + d -> Q a y.
Proof.
  intros A l Q x. induction l as [| a l IH]; intro H.
  - exists 1. split; [lra |]. intros a y [].
  - destruct IH as (d & Hd & Hq); [intros; apply H; right; auto |].
    destruct (H a (or_introl eq_refl)) as (d' & Hd' & Hq').
    exists (Rmin d d'). split; [apply Rmin_glb_lt; auto |]. intros c y [<- | Hin] Hy.
    + apply Hq'. pose proof (Rmin_r d d'). lra.
    + apply Hq; auto. pose proof (Rmin_l d d'). lra.
Qed.
Lemma limit_nonneg : forall g x l, derivable_pt_lim g x l -> forall a, a < x -> (forall y, a <= y < x -> 0 <= g y) -> 0 <= g x.
Proof.
  intros g x l D a Ha H. destruct (Rle_dec 0 (g x)) as [| Hn]; [auto | exfalso].
  destruct (derivable_continuous_pt g x (exist _ l D) (- g x)) as (d & Hd & Hc); [lra |].
  set (y := Rmax a (x - d / 2)). assert (Hy : a <= y < x) by (split; [apply Rmax_l | apply Rmax_lub_lt; lra]).
  assert (Hy2 : x - d / 2 <= y) by apply Rmax_r.
  specialize (Hc y). cbn in Hc. unfold R_dist in Hc.
  assert (Hy' : Rabs (g y - g x) < - g x).
  { apply Hc. split; [split; [exact I | intro; lra] |]. rewrite Rabs_left; lra. }
  apply Rabs_def2 in Hy'. specialize (H y Hy). lra.
Qed.
Lemma stays_nonneg : forall (cs : list (Z * Z)) (u F : R -> Z -> Z -> R) T K d, 0 <= K -> 0 < d ->
  (forall t i j, 0 <= t <= T -> In (i, j) cs -> derivable_pt_lim (fun s => u s i j) t (F t i j)) ->
  (forall t i j, 0 <= t <= T -> In (i, j) cs -> - d <= u t i j < 0 -> (forall k l, In (k, l) cs -> u t i j <= u t k l) ->
     K * u t i j <= F t i j) ->
  (forall i j, In (i, j) cs -> 0 <= u 0 i j) ->
  forall t i j, 0 <= t <= T -> In (i, j) cs -> 0 <= u t i j.
Proof.
  intros cs u F T K d HK Hd D HF H0 t i j Ht Hin.
  assert (B : forall e, 0 < e -> e * exp ((K + 1) * T) <= d -> forall s, 0 <= s <= T -> forall k l, In (k, l) cs -> 0 <= u s k l + e * exp ((K + 1) * s)).
  { intros e He Hed. apply (real_induction 0 T (fun s => forall k l, In (k, l) cs -> 0 <= u s k l + e * exp ((K + 1) * s))).
    - intros k l Hkl. specialize (H0 k l Hkl). pose proof (exp_pos ((K + 1) * 0)). nra.
    - intros s Hs Hb.
      assert (G : exists dd, 0 < dd /\ forall (a : Z * Z) y, In a cs -> s < y < s + dd -> 0 <= u y (fst a) (snd a) + e * exp ((K + 1) * y)).
      { apply common_delta. intros [k l] Hkl. cbn [fst snd].
        apply (positive_after (fun y => u y k l + e * exp ((K + 1) * y)) s (F s k l + e * ((K + 1) * exp ((K + 1) * s)))).
        - apply derivable_pt_lim_plus; [apply D; [lra | auto] |].
          apply is_derive_Reals. auto_derive; [auto | ring].
        - pose proof (Hb s ltac:(lra) k l Hkl) as Hn. destruct (Req_dec (u s k l + e * exp ((K + 1) * s)) 0) as [Ez | Ez]; [right | left; lra].
          split; [exact Ez |]. pose proof (exp_pos ((K + 1) * s)) as Hp.
          assert (Hm : K * u s k l <= F s k l).
          { apply HF; [lra | auto | |].
            - split; [| nra]. assert (exp ((K + 1) * s) <= exp ((K + 1) * T)).
              { destruct (Req_dec s T) as [-> |]; [lra |]. apply Rlt_le, exp_increasing. apply Rmult_lt_compat_l; lra. }
              nra.
            - intros k' l' Hin'. pose proof (Hb s ltac:(lra) k' l' Hin'). lra. }
          assert (u s k l = - (e * exp ((K + 1) * s))) by lra.
          set (E := e * exp ((K + 1) * s)) in *. assert (0 < E) by (apply Rmult_lt_0_compat; auto).
          replace (e * ((K + 1) * exp ((K + 1) * s))) with ((K + 1) * E) by (unfold E; ring). nra. }
      destruct G as (dd & Hdd & G). exists dd. split; [auto |]. intros y Hy k l Hkl. exact (G (k, l) y Hkl Hy).
    - intros s Hs Hb k l Hkl.
      apply (limit_nonneg (fun y => u y k l + e * exp ((K + 1) * y)) s (F s k l + e * ((K + 1) * exp ((K + 1) * s))) ) with (a := 0); [| lra |].
      + apply derivable_pt_lim_plus; [apply D; [lra | auto] |]. apply is_derive_Reals. auto_derive; [auto | ring].
      + intros y Hy. apply Hb; [lra | auto]. }
  destruct (Rle_dec 0 (u t i j)) as [| Hn]; [auto | exfalso].
  pose proof (exp_pos ((K + 1) * T)) as HT. pose proof (exp_pos ((K + 1) * t)) as Hp.
  set (e := Rmin (d / exp ((K + 1) * T)) (- u t i j / 2 / exp ((K + 1) * t))).
  assert (He : 0 < e) by (apply Rmin_glb_lt; apply Rdiv_lt_0_compat; lra).
  assert (E1 : e * exp ((K + 1) * T) <= d).
  { apply Rle_trans with (d / exp ((K + 1) * T) * exp ((K + 1) * T)); [apply Rmult_le_compat_r; [lra | apply Rmin_l] |].
    right. field. lra. }
  assert (E2 : e * exp ((K + 1) * t) <= - u t i j / 2).
  { apply Rle_trans with (- u t i j / 2 / exp ((K + 1) * t) * exp ((K + 1) * t)); [apply Rmult_le_compat_r; [lra | apply Rmin_r] |].
    right. field. lra. }
  pose proof (B e He E1 t Ht i j Hin). lra.
Qed.

(** * The phase fraction stays between 0 and 1 *)
Ltac types H := unfold floor_type, clamped_type in H; cbn [In] in H;
  repeat (destruct H as [H | H]; [subst |]); [.. | contradiction].
Lemma tanh_nonneg : forall x, 0 <= x -> 0 <= tanh x.
Proof.
  intros x H. unfold tanh. apply Rmult_le_pos.
  - unfold sinh. assert (exp (- x) <= exp x). { destruct (Req_dec x 0) as [-> |]; [rewrite Ropp_0; lra | apply Rlt_le, exp_increasing; lra]. } lra.
  - apply Rlt_le, Rinv_0_lt_compat. unfold cosh. pose proof (exp_pos x). pose proof (exp_pos (- x)). lra.
Qed.
Lemma cosh_gamma : 1 < cosh gamma.
Proof.
  unfold cosh. pose proof (exp_ineq1 gamma ltac:(unfold gamma; intro; lra)) as E. pose proof (exp_pos (- gamma)). unfold gamma at 1 in E. lra.
Qed.
Lemma floor_low : forall t x, floor_type t -> x <= 0 -> val (deriv_interp_func x t) = 0.
Proof.
  intros t x H Hx. types H; cbn [deriv_interp_func Energy_Model.val]; rewrite ?pos_low, ?clamp01_low by auto; try field; try lra.
  rewrite Rmult_0_r. unfold tanh. rewrite sinh_0, cosh_0. field. pose proof cosh_gamma as C. apply ln_increasing in C; [| lra]. rewrite ln_1 in C. lra.
Qed.
Lemma floor_high : forall t x, floor_type t -> 1 <= x <= 5 / 4 -> 0 <= val (deriv_interp_func x t).
Proof.
  intros t x H Hx. types H; cbn [deriv_interp_func Energy_Model.val]; rewrite ?pos_high, ?clamp01_high by lra; try lra; try nra.
  apply Rmult_le_pos.
  - apply Rmult_le_pos; [unfold gamma; lra |]. apply tanh_nonneg. unfold gamma. lra.
  - apply Rlt_le, Rinv_0_lt_compat. pose proof cosh_gamma as C. apply ln_increasing in C; [| lra]. rewrite ln_1 in C. lra.
Qed.
Lemma clamped_out : forall t x, clamped_type t -> x <= 0 \/ 1 <= x -> val (deriv_interp_func x t) = 0.
Proof.
  intros t x H [Hx | Hx]; types H; cbn [deriv_interp_func Energy_Model.val]; rewrite ?clamp01_low, ?clamp01_high by auto; try field; lra.
Qed.
Lemma well_func_nonneg : forall x t, 0 <= val (well_func x t).
Proof.
  intros x t. destruct (well_func x t) as [v |] eqn:E; [| cbn; lra]. cbn [Energy_Model.val].
  unfold well_func in E. destruct t as [[] [] [] [] [] [] [] []]; try discriminate E; injection E as <-.
  - pose proof (Rle_0_sqr (1 - x)). unfold Rsqr in *. lra.
  - pose proof (Rle_0_sqr (x * (1 - x))). unfold Rsqr in *. nra.
Qed.
Lemma near_all : forall (P : Z -> Z -> Prop) i j, (forall k l, near i j k l -> P k l) ->
  P (i + 1)%Z j /\ P (i - 1)%Z j /\ P i (j + 1)%Z /\ P i (j - 1)%Z /\
  P (i + 1)%Z (j + 1)%Z /\ P (i + 1)%Z (j - 1)%Z /\ P (i - 1)%Z (j + 1)%Z /\ P (i - 1)%Z (j - 1)%Z.
Proof. intros P i j H. repeat split; apply H; unfold near; lia. Qed.
Lemma inv_sq_ratio : forall a b, 0 < a -> 0 < b -> a ^ 2 <= 5 * b ^ 2 -> / b ^ 2 <= 5 * / a ^ 2.
Proof.
  intros a b Ha Hb H. assert (0 < a ^ 2) by (apply pow_lt; auto). assert (0 < b ^ 2) by (apply pow_lt; auto).
  apply Rmult_le_reg_r with (a ^ 2 * b ^ 2); [apply Rmult_lt_0_compat; auto |].
  replace (/ b ^ 2 * (a ^ 2 * b ^ 2)) with (a ^ 2) by (field; lra).
  replace (5 * / a ^ 2 * (a ^ 2 * b ^ 2)) with (5 * b ^ 2) by (field; lra). exact H.
Qed.
Lemma div_at_min : forall B p phi fold i j, keeps_bounds B p -> in_cells (pb p) i j ->
  (forall k l, near i j k l -> phi i j <= phi k l) -> 0 <= div_term p phi fold i j.
Proof.
  intros B p phi fold i j H Hij Hn. destruct H as (h1p & h2p & _ & _ & Hf & _).
  pose proof (near_all (fun k l => phi i j <= phi k l) i j Hn) as N. cbv beta in N. destruct N as (N1 & N2 & N3 & N4 & N5 & N6 & N7 & N8).
  assert (A : 0 < / h1 (pb p) ^ 2) by (apply Rinv_0_lt_compat, pow_lt; auto).
  assert (C : 0 < / h2 (pb p) ^ 2) by (apply Rinv_0_lt_compat, pow_lt; auto).
  destruct (pflux p) eqn:E; [| | contradiction].
  - rewrite div_simple by auto. apply Rmult_le_pos; [apply pow2_ge_0 |]. unfold lap, Rdiv.
    apply Rplus_le_le_0_compat; apply Rmult_le_pos; lra.
  - rewrite div_isotropic by auto. apply Rmult_le_pos; [apply pow2_ge_0 |]. unfold lap, mixed, Rdiv.
    destruct Hf as [R1 R2]. apply inv_sq_ratio in R1; auto. apply inv_sq_ratio in R2; auto.
    set (a := / h1 (pb p) ^ 2) in *. set (c := / h2 (pb p) ^ 2) in *. clearbody a c.
    set (u := phi i j) in *.
    replace (_ + _) with ((5 * a - c) / 6 * (phi (i + 1)%Z j - u) + (5 * a - c) / 6 * (phi (i - 1)%Z j - u)
      + (5 * c - a) / 6 * (phi i (j + 1)%Z - u) + (5 * c - a) / 6 * (phi i (j - 1)%Z - u)
      + (a + c) / 12 * (phi (i + 1)%Z (j + 1)%Z - u) + (a + c) / 12 * (phi (i + 1)%Z (j - 1)%Z - u)
      + (a + c) / 12 * (phi (i - 1)%Z (j + 1)%Z - u) + (a + c) / 12 * (phi (i - 1)%Z (j - 1)%Z - u)) by field.
    repeat apply Rplus_le_le_0_compat; apply Rmult_le_pos; lra.
Qed.
Lemma xfaces_other : forall b f g a i j, x_face b i j -> xfaces b f a i j - xfaces b g a i j = f i j - g i j.
Proof. intros. rewrite !xfaces_val by auto. ring. Qed.
Lemma div_neg : forall B p phi fold i j, keeps_bounds B p -> in_cells (pb p) i j ->
  div_term p (fun k l => 1 - phi k l) fold i j = - div_term p phi fold i j.
Proof.
  intros B p phi fold i j H Hij. destruct H as (_ & _ & _ & _ & Hf & _). destruct (pflux p) eqn:E; [| | contradiction].
  - rewrite !div_simple by auto. unfold lap, Rdiv. ring.
  - rewrite !div_isotropic by auto. unfold lap, mixed, Rdiv. ring.
Qed.
Lemma atan_le : forall x, Rabs (atan x) <= PI / 2.
Proof. intro x. pose proof (atan_bound x). apply Rabs_le. lra. Qed.
Lemma bias_abs : forall a g : R, Rabs (a / PI * atan g) <= Rabs a / 2.
Proof.
  intros a g. pose proof PI_RGT_0. rewrite Rabs_mult. unfold Rdiv at 1. rewrite Rabs_mult, (Rabs_right (/ PI)).
  - pose proof (atan_le g). pose proof (Rabs_pos a).
    apply Rle_trans with (Rabs a * / PI * (PI / 2)); [| right; field; lra].
    apply Rmult_le_compat_l; [| auto]. apply Rmult_le_pos; auto. apply Rlt_le, Rinv_0_lt_compat; auto.
  - apply Rle_ge, Rlt_le, Rinv_0_lt_compat; auto.
Qed.
Lemma bias_low : forall M m B u, 0 <= M -> M * Rabs m <= B -> - (1 / 4) <= u < 0 -> 5 / 4 * B * u <= M * (m * u * (1 - u)).
Proof.
  intros M m B u HM HB Hu. assert (E : - B <= M * m <= B).
  { pose proof (Rle_abs m). pose proof (Rle_abs (- m)). rewrite Rabs_Ropp in *. split; nra. }
  replace (M * (m * u * (1 - u))) with (- (M * m * (- u * (1 - u)))) by ring.
  set (y := - u * (1 - u)). assert (0 <= y) by (apply Rmult_le_pos; lra).
  assert (y <= 5 / 4 * - u) by (unfold y; nra). assert (M * m * y <= B * y) by (apply Rmult_le_compat_r; lra).
  assert (B * y <= B * (5 / 4 * - u)) by (apply Rmult_le_compat_l; lra). lra.
Qed.
(** the bias term bounds *)
Lemma drive_low : forall B p phi i j, 0 <= B -> keeps_bounds B p -> in_cells (pb p) i j -> - (1 / 4) <= phi i j < 0 ->
  5 / 4 * B * phi i j <= pmob p i j * drive_term (pdrive p) (ptemp p) phi i j.
Proof.
  intros B p phi i j HB H Hij Hu. destruct H as (_ & _ & _ & Hm & _ & _ & _ & Hd). specialize (Hm i j Hij).
  destruct (pdrive p) as [| fl fa it | tm lh it | alpha g te | alpha te]; cbn [drive_term].
  - nra.
  - rewrite clamped_out by (auto; lra). nra.
  - rewrite clamped_out by (auto; lra). nra.
  - apply bias_low; auto. apply Rle_trans with (pmob p i j * (Rabs alpha / 2)); [| apply Hd; auto].
    apply Rmult_le_compat_l; [auto | apply bias_abs].
  - apply bias_low; auto.
Qed.
Lemma drive_high : forall B p phi i j, 0 <= B -> keeps_bounds B p -> in_cells (pb p) i j -> - (1 / 4) <= 1 - phi i j < 0 ->
  5 / 4 * B * (1 - phi i j) <= - (pmob p i j * drive_term (pdrive p) (ptemp p) phi i j).
Proof.
  intros B p phi i j HB H Hij Hu. destruct H as (_ & _ & _ & Hm & _ & _ & _ & Hd). specialize (Hm i j Hij).
  assert (F : forall m, pmob p i j * Rabs m <= B -> 5 / 4 * B * (1 - phi i j) <= - (pmob p i j * (m * phi i j * (1 - phi i j)))).
  { intros m Hb. pose proof (bias_low (pmob p i j) (- m) B (1 - phi i j) Hm) as L. rewrite Rabs_Ropp in L. specialize (L Hb Hu).
    eapply Rle_trans; [exact L |]. right. ring. }
  destruct (pdrive p) as [| fl fa it | tm lh it | alpha g te | alpha te]; cbn [drive_term].
  - nra.
  - rewrite clamped_out by (auto; lra). nra.
  - rewrite clamped_out by (auto; lra). nra.
  - apply F. apply Rle_trans with (pmob p i j * (Rabs alpha / 2)); [| apply Hd; auto].
    apply Rmult_le_compat_l; [auto | apply bias_abs].
  - apply F. auto.
Qed.
Lemma orient_third_low : forall B p phi i j, keeps_bounds B p -> phi i j < 0 -> third_term p phi i j = 0 /\ orient_term p phi i j = 0.
Proof.
  intros B p phi i j H Hu. destruct H as (_ & _ & _ & _ & _ & Ho & H3 & _). unfold third_term, orient_term. split.
  - destruct (pthird p); [| auto]. destruct H3. rewrite floor_low by (auto; lra). ring.
  - destruct (porient p); [| auto]. destruct Ho as (F1 & F2 & _). rewrite !floor_low by (auto; lra). ring.
Qed.
Lemma orient_third_high : forall B p phi i j, keeps_bounds B p -> in_cells (pb p) i j -> 1 < phi i j <= 5 / 4 ->
  third_term p phi i j <= 0 /\ orient_term p phi i j <= 0.
Proof.
  intros B p phi i j H Hij Hu. destruct H as (_ & _ & _ & _ & _ & Ho & H3 & _). unfold third_term, orient_term. split.
  - destruct (pthird p) as [e |]; [| lra]. destruct H3 as [F W]. pose proof (floor_high _ (phi i j) F ltac:(lra)).
    pose proof (well_func_nonneg (eta e i j) (eta_well e)). apply Ropp_le_cancel. rewrite Ropp_involutive, Ropp_0.
    repeat apply Rmult_le_pos; auto.
  - destruct (porient p) as [o |]; [| lra]. destruct Ho as (F1 & F2 & M & G). destruct (G i j Hij) as [T O].
    pose proof (floor_high _ (phi i j) F1 ltac:(lra)) as G1. pose proof (floor_high _ (phi i j) F2 ltac:(lra)) as G2.
    assert (0 <= misorientation o * ptemp p i j * val (deriv_interp_func (phi i j) (otype1 o)) * ogm o i j) by (repeat apply Rmult_le_pos; auto).
    assert (0 <= val (deriv_interp_func (phi i j) (otype2 o)) * (1 / 2 * epsilonq o * epsilonq o) * ogm o i j * ogm o i j).
    { assert (0 <= 1 / 2 * epsilonq o * epsilonq o) by (pose proof (Rle_0_sqr (epsilonq o)); unfold Rsqr in *; lra).
      set (q := 1 / 2 * epsilonq o * epsilonq o) in *. clearbody q. repeat apply Rmult_le_pos; auto. }
    lra.
Qed.
Lemma force_low : forall B p phi fold i j, 0 <= B -> keeps_bounds B p -> in_cells (pb p) i j -> - (1 / 4) <= phi i j < 0 ->
  (forall k l, near i j k l -> phi i j <= phi k l) -> 5 / 4 * B * phi i j <= pmob p i j * force p phi fold i j.
Proof.
  intros B p phi fold i j HB H Hij Hu Hn. unfold force. destruct (orient_third_low B p phi i j H) as [-> ->]; [lra |].
  pose proof (div_at_min B p phi fold i j H Hij Hn) as D. pose proof (drive_low B p phi i j HB H Hij Hu) as Dr.
  destruct H as (_ & _ & W & M & _). specialize (M i j Hij).
  assert (0 <= - (pwell p * (32 * phi i j * (1 - phi i j) * (1 - 2 * phi i j)))).
  { replace (- _) with (32 * pwell p * (- phi i j) * (1 - phi i j) * (1 - 2 * phi i j)) by ring. repeat apply Rmult_le_pos; lra. }
  set (dr := drive_term _ _ _ _ _) in *. set (dv := div_term _ _ _ _ _) in *.
  set (w := pwell p * _) in *. assert (0 <= pmob p i j * (dv - w)) by (apply Rmult_le_pos; lra).
  replace (pmob p i j * (dv - w + 0 + 0 + dr)) with (pmob p i j * (dv - w) + pmob p i j * dr) by ring. lra.
Qed.
Lemma force_high : forall B p phi fold i j, 0 <= B -> keeps_bounds B p -> in_cells (pb p) i j -> - (1 / 4) <= 1 - phi i j < 0 ->
  (forall k l, near i j k l -> 1 - phi i j <= 1 - phi k l) -> 5 / 4 * B * (1 - phi i j) <= - (pmob p i j * force p phi fold i j).
Proof.
  intros B p phi fold i j HB H Hij Hu Hn. unfold force. destruct (orient_third_high B p phi i j H Hij) as [T3 To]; [lra |].
  pose proof (div_at_min B p (fun k l => 1 - phi k l) fold i j H Hij Hn) as D. rewrite (div_neg B) in D by auto.
  pose proof (drive_high B p phi i j HB H Hij Hu) as Dr.
  destruct H as (_ & _ & W & M & _). specialize (M i j Hij).
  assert (0 <= pwell p * (32 * phi i j * (1 - phi i j) * (1 - 2 * phi i j))).
  { replace (pwell p * _) with (32 * pwell p * phi i j * (phi i j - 1) * (2 * phi i j - 1)) by ring. repeat apply Rmult_le_pos; lra. }
  set (dr := drive_term _ _ _ _ _) in *. set (dv := div_term _ _ _ _ _) in *. set (t3 := third_term _ _ _ _) in *. set (tO := orient_term _ _ _ _) in *.
  set (w := pwell p * _) in *. assert (0 <= pmob p i j * (- dv + w - t3 - tO)) by (apply Rmult_le_pos; lra).
  replace (- (pmob p i j * (dv - w + t3 + tO + dr))) with (pmob p i j * (- dv + w - t3 - tO) + - (pmob p i j * dr)) by ring. lra.
Qed.

Definition cell_list (b : pbox) : list (Z * Z) :=
  flat_map (fun i => map (fun j => (i, j)) (map (fun n => lo1 b + Z.of_nat n)%Z (seq 0 (Z.to_nat (hi1 b - lo1 b + 1)))))
    (map (fun n => lo0 b + Z.of_nat n)%Z (seq 0 (Z.to_nat (hi0 b - lo0 b + 1)))).
Lemma in_range_list : forall lo hi i, In i (map (fun n => lo + Z.of_nat n)%Z (seq 0 (Z.to_nat (hi - lo + 1)))) <-> (lo <= i <= hi)%Z.
Proof.
  intros lo hi i. rewrite in_map_iff. split.
  - intros (n & <- & H). apply in_seq in H. lia.
  - intro H. exists (Z.to_nat (i - lo)). split; [lia |]. apply in_seq. lia.
Qed.
Lemma in_cell_list : forall b i j, In (i, j) (cell_list b) <-> in_cells b i j.
Proof.
  intros b i j. unfold cell_list, in_cells, in_box. rewrite in_flat_map. split.
  - intros (k & Hk & H). apply in_map_iff in H. destruct H as (l & E & Hl). injection E as -> ->.
    apply in_range_list in Hk. apply in_range_list in Hl. lia.
  - intros [Hi Hj]. exists i. split; [apply in_range_list; auto |]. apply in_map_iff. exists j. split; auto. apply in_range_list; auto.
Qed.
Lemma phase_bounds : forall b B T (p : R -> phase_problem) fold rold phi, 0 <= B ->
  (forall t, 0 <= t <= T -> pb (p t) = b /\ keeps_bounds B (p t)) ->
  solution b 0 1 T (fun t f => evaluatePhaseRHS (p t) f (fold t) (rold t)) phi ->
  (forall i j, in_cells b i j -> 0 <= phi 0 i j <= 1) ->
  forall t i j, 0 <= t <= T -> in_cells b i j -> 0 <= phi t i j <= 1.
Proof.
  intros b B T p fold rold phi HB Hp [Heq Hg] H0.
  assert (D : forall t i j, 0 <= t <= T -> in_cells b i j ->
    derivable_pt_lim (fun s => phi s i j) t (pmob (p t) i j * force (p t) (phi t) (fold t) i j)).
  { intros t i j Ht Hij. destruct (Heq t i j Ht Hij) as (r & E & D). destruct (Hp t Ht) as [Eb _].
    rewrite (rhs_val _ _ _ _ _ i j E) in D by (rewrite Eb; auto). exact D. }
  intros t i j Ht Hij. split.
  - apply (stays_nonneg (cell_list b) phi (fun t i j => pmob (p t) i j * force (p t) (phi t) (fold t) i j) T (5 / 4 * B) (1 / 4));
      auto; try lra.
    + intros s k l Hs Hkl. apply in_cell_list in Hkl. auto.
    + intros s k l Hs Hkl Hu Hmin. apply in_cell_list in Hkl. destruct (Hp s Hs) as [Eb Kb]. apply force_low; auto; [rewrite Eb; auto |].
      intros k' l' Hn. destruct (Hg s k l k' l' Hs Hkl Hn) as [(a & c & Hac & ->) | Hb]; [| lra]. apply Hmin. apply in_cell_list; auto.
    + intros k l Hkl. apply in_cell_list in Hkl. apply H0; auto.
    + apply in_cell_list; auto.
  - enough (0 <= 1 - phi t i j) by lra.
    apply (stays_nonneg (cell_list b) (fun t i j => 1 - phi t i j) (fun t i j => - (pmob (p t) i j * force (p t) (phi t) (fold t) i j)) T (5 / 4 * B) (1 / 4));
      auto; try lra.
    + intros s k l Hs Hkl. apply in_cell_list in Hkl.
      replace (- _) with (0 - pmob (p s) k l * force (p s) (phi s) (fold s) k l) by ring.
      apply derivable_pt_lim_minus; [apply derivable_pt_lim_const | auto].
    + intros s k l Hs Hkl Hu Hmin. apply in_cell_list in Hkl. destruct (Hp s Hs) as [Eb Kb]. apply force_high; auto; [rewrite Eb; auto |].
      intros k' l' Hn. destruct (Hg s k l k' l' Hs Hkl Hn) as [(a & c & Hac & ->) | Hb]; [| lra]. apply Hmin. apply in_cell_list; auto.
    + intros k l Hkl. apply in_cell_list in Hkl. specialize (H0 k l Hkl). lra.
    + apply in_cell_list; auto.
Qed.

(** * Settings that leave the interval *)
Lemma goes_below : forall f l T, derivable_pt_lim f 0 l -> l < 0 -> 0 < T -> exists t, 0 < t <= T /\ f t < f 0.
Proof.
  intros f l T D Hl HT. destruct (D (- l) ltac:(lra)) as ([d Hd] & Hc). cbn in Hc.
  set (t := Rmin T (d / 2)). assert (Ht : 0 < t) by (apply Rmin_glb_lt; lra).
  assert (t <= T) by apply Rmin_l. assert (t <= d / 2) by apply Rmin_r.
  exists t. split; [lra |]. specialize (Hc t ltac:(lra)). rewrite Rabs_right in Hc by lra. specialize (Hc ltac:(lra)).
  rewrite Rplus_0_l in Hc. apply Rabs_def2 in Hc. destruct Hc as [Hc _].
  assert (Q : (f t - f 0) / t < 0) by lra.
  assert (Q2 : (f t - f 0) / t * t < 0) by nra.
  unfold Rdiv in Q2. rewrite Rmult_assoc, Rinv_l in Q2 by lra. lra.
Qed.
Lemma leaves_below : forall p fold rold phi T i j, in_cells (pb p) i j -> phi 0 i j = 0 -> 0 < T ->
  pmob p i j * force p (phi 0) fold i j < 0 ->
  solution (pb p) 0 1 T (fun _ f => evaluatePhaseRHS p f fold rold) phi -> exists t, 0 < t <= T /\ phi t i j < 0.
Proof.
  intros p fold rold phi T i j Hij H0 HT Hf [Heq _]. destruct (Heq 0 i j ltac:(lra) Hij) as (r & E & D).
  rewrite (rhs_val _ _ _ _ _ i j E Hij) in D. destruct (goes_below _ _ T D Hf HT) as (t & Ht & Hlt). exists t. split; auto. lra.
Qed.
Lemma linear_leaves : forall p fl fa fold rold phi T i j,
  pflux p = FluxSimple -> porient p = None -> pthird p = None -> pdrive p = FreeEnergies fl fa "l" ->
  in_cells (pb p) i j -> 0 < pmob p i j -> fl i j < fa i j -> (forall k l, near i j k l -> phi 0 k l = 0) -> 0 < T ->
  solution (pb p) 0 1 T (fun _ f => evaluatePhaseRHS p f fold rold) phi -> exists t, 0 < t <= T /\ phi t i j < 0.
Proof.
  intros p fl fa fold rold phi T i j Ef Eo E3 Ed Hij Hm Hlt Hn HT S.
  pose proof (near_all (fun k l => phi 0 k l = 0) i j Hn) as N. cbv beta in N. destruct N as (N1 & N2 & N3 & N4 & _).
  assert (N0 : phi 0 i j = 0) by (apply Hn; unfold near; lia).
  apply (leaves_below p fold rold phi T i j); auto.
  unfold force. rewrite div_simple by auto. unfold lap, third_term, orient_term. rewrite Eo, E3, Ed, N0, N1, N2, N3, N4. cbn [drive_term deriv_interp_func].
  rewrite N0. destruct (Rlt_dec 0 0); [lra |]. destruct (Rlt_dec 0 1); [| lra]. cbn [Energy_Model.val]. unfold Rdiv.
  assert (pmob p i j * (fl i j - fa i j) < 0) by nra.
  match goal with |- ?x < 0 => replace x with (pmob p i j * (fl i j - fa i j)) by ring end. auto.
Qed.
Lemma stretched_leaves : forall p fold rold phi T i j,
  pflux p = FluxIsotropic -> porient p = None -> pthird p = None -> pdrive p = NoDrive ->
  0 < h1 (pb p) -> 0 < h2 (pb p) -> 5 * h2 (pb p) ^ 2 < h1 (pb p) ^ 2 -> peps p <> 0 -> 0 < pmob p i j ->
  in_cells (pb p) i j -> phi 0 (i + 1)%Z j = 1 -> (forall k l, near i j k l -> (k, l) <> (i + 1, j)%Z -> phi 0 k l = 0) -> 0 < T ->
  solution (pb p) 0 1 T (fun _ f => evaluatePhaseRHS p f fold rold) phi -> exists t, 0 < t <= T /\ phi t i j < 0.
Proof.
  intros p fold rold phi T i j Ef Eo E3 Ed P1 P2 Hs He Hm Hij H1 Hn HT S.
  assert (Z0 : forall k l, near i j k l -> (k <> i + 1 \/ l <> j)%Z -> phi 0 k l = 0).
  { intros k l Hk Hne. apply Hn; auto. intro E. injection E as -> ->. lia. }
  apply (leaves_below p fold rold phi T i j); auto; [apply Z0; unfold near; lia |].
  unfold force. rewrite div_isotropic by auto. unfold lap, mixed, third_term, orient_term. rewrite Eo, E3, Ed. cbn [drive_term].
  rewrite H1. rewrite !Z0 by (unfold near; lia).
  assert (He2 : 0 < peps p ^ 2) by (rewrite <- Rsqr_pow2; apply Rsqr_pos_lt; auto).
  assert (C : 5 * / h1 (pb p) ^ 2 < / h2 (pb p) ^ 2).
  { assert (0 < h1 (pb p) ^ 2) by (apply pow_lt; auto). assert (0 < h2 (pb p) ^ 2) by (apply pow_lt; auto).
    apply Rmult_lt_reg_r with (h1 (pb p) ^ 2 * h2 (pb p) ^ 2); [apply Rmult_lt_0_compat; auto |].
    replace (5 * / h1 (pb p) ^ 2 * (h1 (pb p) ^ 2 * h2 (pb p) ^ 2)) with (5 * h2 (pb p) ^ 2) by (field; lra).
    replace (/ h2 (pb p) ^ 2 * (h1 (pb p) ^ 2 * h2 (pb p) ^ 2)) with (h1 (pb p) ^ 2) by (field; lra). exact Hs. }
  set (a := / h1 (pb p) ^ 2) in *. set (c := / h2 (pb p) ^ 2) in *. unfold Rdiv. fold a c.
  match goal with |- ?x < 0 => replace x with (- (pmob p i j * peps p ^ 2 * (c - 5 * a) / 6)) by field end.
  assert (0 < pmob p i j * peps p ^ 2 * (c - 5 * a) / 6).
  { apply Rdiv_lt_0_compat; [| lra]. apply Rmult_lt_0_compat; [apply Rmult_lt_0_compat; auto | lra]. }
  lra.
Qed.

(** the state of the anisotropic counterexample: cell (i,j+1) holds d, cell (i+1,j+1) holds 1, the others 0 *)
Definition corner_state (d : R) (i j : Z) : arr2 := fun k l =>
  if (l =? j + 1)%Z then if (k =? i)%Z then d else if (k =? i + 1)%Z then 1 else 0 else 0.
Lemma crystal_aligned : crystal_angle 4 1 1 = 0.
Proof.
  unfold crystal_angle. replace (1 / 2 * (1 + 1)) with 1 by field. destruct (Rlt_dec 1 1); [lra |]. destruct (Rlt_dec 1 (-1)); [lra |].
  cbn [Z.eqb Pos.eqb]. rewrite acos_1. ring.
Qed.
Definition corner_flux (eps nu d : R) : R :=
  let e := epstheta eps nu 4 (atan (4 * d)) 0 in e * e * d + e * depsdtheta eps nu 4 (atan (4 * d)) 0 * (1 / 4).
Lemma corner_negative : forall eps nu, eps <> 0 -> 1 / 15 < nu -> exists d, 0 < d <= 1 /\ corner_flux eps nu d < 0.
Proof.
  intros eps nu He Hn.
  destruct (goes_below (corner_flux eps nu) (eps ^ 2 * (1 + nu) * (1 - 15 * nu)) 1) as (d & Hd & Hlt).
  - apply is_derive_Reals. unfold corner_flux, epstheta, depsdtheta. auto_derive; [repeat split; auto |].
    replace (4 * (atan (4 * 0) + - 0)) with 0 by (rewrite Rmult_0_r, atan_0; ring). rewrite sin_0, cos_0. field.
  - assert (0 < eps ^ 2) by (rewrite <- Rsqr_pow2; apply Rsqr_pos_lt; auto). assert (0 < eps ^ 2 * (1 + nu)) by (apply Rmult_lt_0_compat; lra).
    set (z := eps ^ 2 * (1 + nu)) in *. assert (0 < z * (15 * nu - 1)) by (apply Rmult_lt_0_compat; lra). lra.
  - lra.
  - exists d. split; auto. replace (corner_flux eps nu 0) with 0 in Hlt; auto.
    unfold corner_flux, epstheta, depsdtheta. cbv zeta. replace (4 * (atan (4 * 0) - 0)) with 0 by (rewrite Rmult_0_r, atan_0; ring). rewrite sin_0. ring.
Qed.

Lemma anisotropic_leaves : forall nu p fold rold T i j, 1 / 15 < nu -> pflux p = FluxAnisotropic nu 4 4 one2 ->
  porient p = None -> pthird p = None -> pdrive p = NoDrive -> peps p <> 0 -> h1 (pb p) = 1 -> h2 (pb p) = 1 -> in_cells (pb p) i j -> 0 < pmob p i j -> 0 < T ->
  exists start : arr2, (forall k l, 0 <= start k l <= 1) /\ forall phi, (forall k l, near i j k l -> phi 0 k l = start k l) ->
      solution (pb p) 0 1 T (fun _ f => evaluatePhaseRHS p f fold rold) phi -> exists t, 0 < t <= T /\ phi t i j < 0.
Proof.
  intros nu p fold rold T i j Hnu Ef Eo E3 Ed He Eh1 Eh2 Hij Hm HT.
  destruct (corner_negative (peps p) nu He Hnu) as (d & Hd & Hneg). exists (corner_state d i j). split.
  { intros k l. unfold corner_state. destruct (l =? j + 1)%Z; [| lra]. destruct (k =? i)%Z; [lra |]. destruct (k =? i + 1)%Z; lra. }
  intros phi H0 S.
  assert (V : forall k l, near i j k l -> (l <> j + 1)%Z -> phi 0 k l = 0).
  { intros k l Hk Hl. rewrite H0 by auto. unfold corner_state. destruct (Z.eqb_spec l (j + 1)); [contradiction | reflexivity]. }
  assert (V1 : phi 0 i (j + 1)%Z = d).
  { rewrite H0 by (unfold near; lia). unfold corner_state. rewrite !Z.eqb_refl. reflexivity. }
  assert (V2 : phi 0 (i + 1)%Z (j + 1)%Z = 1).
  { rewrite H0 by (unfold near; lia). unfold corner_state. rewrite !Z.eqb_refl. destruct (Z.eqb_spec (i + 1) i); [lia | reflexivity]. }
  assert (V3 : phi 0 (i - 1)%Z (j + 1)%Z = 0).
  { rewrite H0 by (unfold near; lia). unfold corner_state. rewrite !Z.eqb_refl. destruct (Z.eqb_spec (i - 1) i); [lia |]. destruct (Z.eqb_spec (i - 1) (i + 1)); [lia | reflexivity]. }
  apply (leaves_below p fold rold phi T i j); auto; [apply V; unfold near; lia |].
  assert (Fq : forall eps dy a, a = 0 -> let e := epstheta eps nu 4 (1 / 2 * PI) a in
    e * e * 0 - e * depsdtheta eps nu 4 (1 / 2 * PI) a * dy = 0 /\ e * depsdtheta eps nu 4 (1 / 2 * PI) a * dy = 0).
  { intros eps dy a -> e. unfold depsdtheta. replace (4 * (1 / 2 * PI - 0)) with (2 * PI) by field. rewrite sin_2PI. split; ring. }
  assert (G0 : forall dy, grad_angle 0 dy = 1 / 2 * PI).
  { intro dy. unfold grad_angle. rewrite Rabs_R0. destruct (Rlt_dec (1 / 10 ^ 12) 0) as [Hl |]; [| reflexivity].
    exfalso. assert (0 < 1 / 10 ^ 12) by (apply Rdiv_lt_0_compat; [lra | apply pow_lt; lra]). lra. }
  assert (Dv : div_term p (phi 0) fold i j = corner_flux (peps p) nu d).
  { unfold div_term. rewrite Ef. cbn [flux_x flux_y]. unfold anisotropic_flux_x, anisotropic_flux_y. destruct Hij as [Hi Hj].
    rewrite !xfaces_val, !yfaces_val by (split; lia). cbv beta zeta. replace (i + 1 - 1)%Z with i by lia. replace (j + 1 - 1)%Z with j by lia.
    rewrite Eh1, Eh2. unfold one2. rewrite crystal_aligned. rewrite V1, V2, V3. rewrite !V by (unfold near; lia).
    replace ((0 - 0) * (1 / 1)) with 0 by field. replace (1 / 4 * (0 - 0 + 0 - 0) * (1 / 1)) with 0 by field.
    rewrite !G0. destruct (Fq (peps p) (1 / 4 * (d - 0 + 1 - 0) * (1 / 1)) 0 eq_refl) as [Fa _].
    destruct (Fq (peps p) (1 / 4 * (0 - 0 + d - 0) * (1 / 1)) 0 eq_refl) as [Fb _]. cbv zeta in Fa, Fb.
    replace ((d - 0) * (1 / 1)) with d by field. replace (1 / 4 * (0 - 0 + 1 - 0) * (1 / 1)) with (1 / 4) by field.
    unfold grad_angle. rewrite (Rabs_right (1 / 4)) by lra.
    destruct (Rlt_dec (1 / 10 ^ 12) (1 / 4)) as [| Hl]; [| exfalso; apply Hl; unfold Rdiv; rewrite !Rmult_1_l; apply Rinv_lt_contravar; lra].
    replace (d / (1 / 4)) with (4 * d) by field. rewrite Fa, Fb. unfold corner_flux. cbv zeta. field. }
  unfold force. rewrite Dv. unfold third_term, orient_term. rewrite Eo, E3, Ed. cbn [drive_term]. rewrite (V i j) by (unfold near; lia).
  assert (0 < pmob p i j * - corner_flux (peps p) nu d) by (apply Rmult_lt_0_compat; lra). lra.
Qed.

(** * Anisotropic flux *)
Lemma crystal_angle_val : forall qlen alpha, (qlen = 4%Z /\ 0 <= alpha <= 2 * PI) \/ (qlen = 2%Z /\ 0 <= alpha <= PI) ->
  crystal_angle qlen (first_component qlen alpha) (first_component qlen alpha) = alpha.
Proof.
  intros qlen alpha H.
  assert (Q : forall a, 0 <= a <= PI -> acos (let q := 1 / 2 * (cos a + cos a) in
     let q := if Rlt_dec 1 q then 1 else q in if Rlt_dec q (-1) then -1 else q) = a).
  { intros a Ha. cbv zeta. replace (1 / 2 * (cos a + cos a)) with (cos a) by field. pose proof (COS_bound a).
    destruct (Rlt_dec 1 (cos a)); [lra |]. destruct (Rlt_dec (cos a) (-1)); [lra |]. apply acos_cos; auto. }
  destruct H as [[-> Ha] | [-> Ha]]; unfold crystal_angle, first_component; cbn [Z.eqb Pos.eqb].
  - specialize (Q (alpha / 2) ltac:(lra)). cbv zeta in Q. rewrite Q. field.
  - apply Q. auto.
Qed.
Lemma density_dx : forall eps nu k alpha gx gy, gx <> 0 ->
  derivable_pt_lim (fun g => interface_density eps nu k alpha g gy) gx
    (let e := epstheta eps nu k (atan (gy / gx)) alpha in e * e * gx - e * depsdtheta eps nu k (atan (gy / gx)) alpha * gy).
Proof.
  intros eps nu k alpha gx gy H. assert (Hs : gx ^ 2 + gy ^ 2 <> 0) by (pose proof (Rsqr_pos_lt gx H); unfold Rsqr in *; nra).
  apply is_derive_Reals. unfold interface_density, epstheta, depsdtheta. auto_derive; [repeat split; auto |].
  unfold Rminus, Rdiv. set (A := IZR k * (atan (gy * / gx) + - alpha)). field. split; auto.
  intro E. apply Hs. replace (gx ^ 2 + gy ^ 2) with (gx * gx + gy * gy) in * by ring. lra.
Qed.
Lemma density_dy : forall eps nu k alpha gx gy, gx <> 0 ->
  derivable_pt_lim (fun g => interface_density eps nu k alpha gx g) gy
    (let e := epstheta eps nu k (atan (gy / gx)) alpha in e * e * gy + e * depsdtheta eps nu k (atan (gy / gx)) alpha * gx).
Proof.
  intros eps nu k alpha gx gy H. assert (Hs : gx ^ 2 + gy ^ 2 <> 0) by (pose proof (Rsqr_pos_lt gx H); unfold Rsqr in *; nra).
  apply is_derive_Reals. unfold interface_density, epstheta, depsdtheta. auto_derive; [repeat split; auto |].
  unfold Rminus, Rdiv. set (A := IZR k * (atan (gy * / gx) + - alpha)). field. split; auto.
  intro E. apply Hs. replace (gx ^ 2 + gy ^ 2) with (gx * gx + gy * gy) in * by ring. lra.
Qed.
Lemma grad_angle_far : forall gx gy, 1 / 10 ^ 12 < Rabs gx -> gx <> 0 /\ grad_angle gx gy = atan (gy / gx).
Proof.
  intros gx gy H. split.
  - intros ->. rewrite Rabs_R0 in H. assert (0 < 1 / 10 ^ 12) by (apply Rdiv_lt_0_compat; [lra | apply pow_lt; lra]). lra.
  - unfold grad_angle. destruct (Rlt_dec (1 / 10 ^ 12) (Rabs gx)); [reflexivity | contradiction].
Qed.
Lemma anisotropic_x : forall b eps nu k qlen phi quat old alpha i j, h1 b <> 0 -> h2 b <> 0 -> x_face b i j ->
  1 / 10 ^ 12 < Rabs (face_x_dx b phi i j) ->
  (qlen = 4%Z /\ 0 <= alpha <= 2 * PI) \/ (qlen = 2%Z /\ 0 <= alpha <= PI) ->
  quat (i - 1)%Z j = first_component qlen alpha -> quat i j = first_component qlen alpha ->
  derivable_pt_lim (fun g => interface_density eps nu k alpha g (face_x_dy b phi i j)) (face_x_dx b phi i j)
    (flux_x (FluxAnisotropic nu k qlen quat) b eps phi old i j).
Proof.
  intros b eps nu k qlen phi quat old alpha i j N1 N2 Hf Hg Ha Q1 Q2. cbn [flux_x]. unfold anisotropic_flux_x. rewrite xfaces_val by auto. cbv zeta.
  rewrite Q1, Q2, crystal_angle_val by auto.
  replace ((phi i j - phi (i - 1)%Z j) * (1 / h1 b)) with (face_x_dx b phi i j) by (unfold face_x_dx; field; auto).
  replace (1 / 4 * (phi (i - 1)%Z (j + 1)%Z - phi (i - 1)%Z (j - 1)%Z + phi i (j + 1)%Z - phi i (j - 1)%Z) * (1 / h2 b))
    with (face_x_dy b phi i j) by (unfold face_x_dy; field; auto).
  destruct (grad_angle_far _ (face_x_dy b phi i j) Hg) as [Hn ->]. exact (density_dx eps nu k alpha _ _ Hn).
Qed.
Lemma anisotropic_y : forall b eps nu k qlen phi quat old alpha i j, h1 b <> 0 -> h2 b <> 0 -> y_face b i j ->
  1 / 10 ^ 12 < Rabs (face_y_dx b phi i j) ->
  (qlen = 4%Z /\ 0 <= alpha <= 2 * PI) \/ (qlen = 2%Z /\ 0 <= alpha <= PI) ->
  quat i (j - 1)%Z = first_component qlen alpha -> quat i j = first_component qlen alpha ->
  derivable_pt_lim (fun g => interface_density eps nu k alpha (face_y_dx b phi i j) g) (face_y_dy b phi i j)
    (flux_y (FluxAnisotropic nu k qlen quat) b eps phi old i j).
Proof.
  intros b eps nu k qlen phi quat old alpha i j N1 N2 Hf Hg Ha Q1 Q2. cbn [flux_y]. unfold anisotropic_flux_y. rewrite yfaces_val by auto. cbv zeta.
  rewrite Q1, Q2, crystal_angle_val by auto.
  replace ((phi i j - phi i (j - 1)%Z) * (1 / h2 b)) with (face_y_dy b phi i j) by (unfold face_y_dy; field; auto).
  replace (1 / 4 * (phi (i + 1)%Z (j - 1)%Z - phi (i - 1)%Z (j - 1)%Z + phi (i + 1)%Z j - phi (i - 1)%Z j) * (1 / h1 b))
    with (face_y_dx b phi i j) by (unfold face_y_dx; field; auto).
  destruct (grad_angle_far _ (face_y_dy b phi i j) Hg) as [Hn ->]. exact (density_dy eps nu k alpha _ _ Hn).
Qed.
Lemma anisotropic_none : forall b eps k qlen phi quat old i j, h1 b <> 0 -> h2 b <> 0 ->
  (x_face b i j -> flux_x (FluxAnisotropic 0 k qlen quat) b eps phi old i j = flux_x FluxSimple b eps phi old i j) /\
  (y_face b i j -> flux_y (FluxAnisotropic 0 k qlen quat) b eps phi old i j = flux_y FluxSimple b eps phi old i j).
Proof.
  intros b eps k qlen phi quat old i j N1 N2. cbn [flux_x flux_y]. unfold anisotropic_flux_x, anisotropic_flux_y, gradient_flux_x, gradient_flux_y.
  split; intro H; [rewrite !xfaces_val by auto | rewrite !yfaces_val by auto]; cbv zeta; unfold epstheta, depsdtheta; field; auto.
Qed.
(** the flux of a crystal turned by -alpha, or stored with the opposite sign, or as an angle *)
Definition slope_state : arr2 := fun i _ => IZR i.
Lemma slope_flux_y : forall eps nu k qlen q old,
  flux_y (FluxAnisotropic nu k qlen (fun _ _ => q)) unit_box eps slope_state old 0%Z 0%Z =
  (eps * (1 + nu * cos (IZR k * (0 - crystal_angle qlen q q)))) * (- IZR k * eps * nu * sin (IZR k * (0 - crystal_angle qlen q q))).
Proof.
  intros. cbn [flux_y]. unfold anisotropic_flux_y. rewrite yfaces_val by (unfold y_face, in_box, unit_box; cbn; lia). cbv zeta. cbn [unit_box h1 h2]. unfold slope_state.
  replace (1 / 4 * (IZR (0 + 1) - IZR (0 - 1) + IZR (0 + 1) - IZR (0 - 1)) * (1 / 1)) with 1 by (cbn; field).
  replace ((0 - 0) * (1 / 1)) with 0 by field.
  assert (H1 : 1 / 10 ^ 12 < Rabs 1) by (rewrite Rabs_R1; unfold Rdiv; rewrite Rmult_1_l; rewrite <- Rinv_1; apply Rinv_lt_contravar; lra).
  destruct (grad_angle_far 1 0 H1) as [_ ->]. replace (0 / 1) with 0 by field. rewrite atan_0. unfold epstheta, depsdtheta. ring.
Qed.
Lemma slope_face : face_y_dx unit_box slope_state 0%Z 0%Z = 1 /\ face_y_dy unit_box slope_state 0%Z 0%Z = 0.
Proof. unfold face_y_dx, face_y_dy, slope_state, unit_box; cbn. split; field. Qed.
Lemma slope_density : forall eps nu alpha,
  derivable_pt_lim (fun g => interface_density eps nu 4 alpha 1 g) 0
    ((eps * (1 + nu * cos (4 * (0 - alpha)))) * (- 4 * eps * nu * sin (4 * (0 - alpha)))).
Proof.
  intros eps nu alpha. pose proof (density_dy eps nu 4 alpha 1 0 ltac:(lra)) as D. cbv zeta in D. replace (0 / 1) with 0 in D by field. rewrite atan_0 in D.
  replace (eps * (1 + nu * cos (4 * (0 - alpha))) * (- 4 * eps * nu * sin (4 * (0 - alpha)))) with
    (epstheta eps nu 4 0 alpha * epstheta eps nu 4 0 alpha * 0 + epstheta eps nu 4 0 alpha * depsdtheta eps nu 4 0 alpha * 1); auto.
  unfold epstheta, depsdtheta. ring.
Qed.
Lemma anisotropic_mirror : exists alpha d, - PI <= alpha < 0 /\
  derivable_pt_lim (fun g => interface_density 1 (1 / 4) 4 alpha (face_y_dx unit_box slope_state 0%Z 0%Z) g) (face_y_dy unit_box slope_state 0%Z 0%Z) d /\
  forall old, flux_y (FluxAnisotropic (1 / 4) 4 4 (fun _ _ => first_component 4 alpha)) unit_box 1 slope_state old 0%Z 0%Z <> d.
Proof.
  destruct slope_face as [-> ->]. exists (- (PI / 8)). eexists. pose proof PI_RGT_0 as Hpi. split; [lra |]. split; [apply slope_density |].
  intro old. rewrite slope_flux_y. replace (first_component 4 (- (PI / 8))) with (first_component 4 (PI / 8)).
  - rewrite (crystal_angle_val 4 (PI / 8)) by (left; split; [auto | lra]).
    replace (4 * (0 - PI / 8)) with (- (PI / 2)) by field. replace (4 * (0 - - (PI / 8))) with (PI / 2) by field.
    rewrite cos_neg, sin_neg, cos_PI2, sin_PI2. intro E. lra.
  - unfold first_component. cbn [Z.eqb Pos.eqb]. replace (- (PI / 8) / 2) with (- (PI / 8 / 2)) by field. rewrite cos_neg. reflexivity.
Qed.
Lemma anisotropic_sign : exists q, -1 <= q <= 1 /\ forall old,
  flux_y (FluxAnisotropic (1 / 4) 4 4 (fun _ _ => - q)) unit_box 1 slope_state old 0%Z 0%Z <>
  flux_y (FluxAnisotropic (1 / 4) 4 4 (fun _ _ => q)) unit_box 1 slope_state old 0%Z 0%Z.
Proof.
  exists (first_component 4 (PI / 8)). pose proof PI_RGT_0 as Hpi. split; [apply COS_bound |]. intro old. rewrite !slope_flux_y.
  replace (- first_component 4 (PI / 8)) with (first_component 4 (2 * PI - PI / 8)).
  - rewrite !crystal_angle_val by (left; split; [auto | lra]).
    replace (4 * (0 - PI / 8)) with (- (PI / 2)) by field. replace (4 * (0 - (2 * PI - PI / 8))) with (- (- (PI / 2) + 2 * INR 4 * PI)) by (cbn; field).
    rewrite !cos_neg, !sin_neg, cos_period, sin_period, cos_neg, sin_neg, cos_PI2, sin_PI2. intro E. lra.
  - unfold first_component. cbn [Z.eqb Pos.eqb]. replace ((2 * PI - PI / 8) / 2) with (- (PI / 8 / 2) + PI) by field.
    rewrite neg_cos, cos_neg. reflexivity.
Qed.
Lemma anisotropic_angle : exists alpha d, 0 <= alpha <= PI /\
  derivable_pt_lim (fun g => interface_density 1 (1 / 4) 4 alpha (face_y_dx unit_box slope_state 0%Z 0%Z) g) (face_y_dy unit_box slope_state 0%Z 0%Z) d /\
  forall old, flux_y (FluxAnisotropic (1 / 4) 4 1 (fun _ _ => first_component 1 alpha)) unit_box 1 slope_state old 0%Z 0%Z <> d.
Proof.
  destruct slope_face as [-> ->]. pose proof PI_RGT_0 as Hpi. pose proof PI2_3_2 as H4.
  exists (1 / 2). eexists. split; [lra |]. split; [apply slope_density |].
  intro old. rewrite slope_flux_y. change (first_component 1 (1 / 2)) with (1 / 2).
  assert (A : crystal_angle 1 (1 / 2) (1 / 2) = PI / 3).
  { unfold crystal_angle. replace (1 / 2 * (1 / 2 + 1 / 2)) with (1 / 2) by field. destruct (Rlt_dec 1 (1 / 2)); [lra |].
    destruct (Rlt_dec (1 / 2) (-1)); [lra |]. cbn [Z.eqb Pos.eqb]. rewrite <- cos_PI3. apply acos_cos. lra. }
  rewrite A. replace (4 * (0 - PI / 3)) with (- (PI / 3 + PI)) by field. replace (4 * (0 - 1 / 2)) with (Ropp 2) by field.
  rewrite !cos_neg, !sin_neg, neg_cos, neg_sin, cos_PI3, sin_PI3.
  assert (0 < sin 2) by (apply sin_gt_0; lra). pose proof (COS_bound 2). pose proof (sqrt_lt_R0 3 ltac:(lra)).
  set (s2 := sin 2) in *. set (c2 := cos 2) in *. set (q := sqrt 3) in *.
  assert (0 < (1 + 1 / 4 * c2) * s2) by (apply Rmult_lt_0_compat; lra). intro E. lra.
Qed.

(** * Isotropic stencil on polynomials *)
Lemma sampled_vals : forall c x0 y0 h phi i j, sampled c x0 y0 h phi i j ->
  let x := x0 + IZR i * h in let y := y0 + IZR j * h in
  phi i j = eval c x y /\
  phi (i + 1)%Z j = eval c (x + h) y /\ phi (i - 1)%Z j = eval c (x - h) y /\ phi i (j + 1)%Z = eval c x (y + h) /\ phi i (j - 1)%Z = eval c x (y - h) /\
  phi (i + 1)%Z (j + 1)%Z = eval c (x + h) (y + h) /\ phi (i + 1)%Z (j - 1)%Z = eval c (x + h) (y - h) /\
  phi (i - 1)%Z (j + 1)%Z = eval c (x - h) (y + h) /\ phi (i - 1)%Z (j - 1)%Z = eval c (x - h) (y - h).
Proof.
  intros c x0 y0 h phi i j H x y. repeat split; rewrite H by (unfold near; lia); f_equal; rewrite ?plus_IZR, ?minus_IZR; unfold x, y; ring.
Qed.
Ltac open_poly := unfold eval, plap, pdx, pdy; cbn [sum_f_R0 Nat.sub INR pow].
Ltac kill_high D := rewrite ?(D 0%nat 6%nat), ?(D 1%nat 5%nat), ?(D 2%nat 4%nat), ?(D 3%nat 3%nat), ?(D 4%nat 2%nat), ?(D 5%nat 1%nat), ?(D 6%nat 0%nat), ?(D 0%nat 7%nat), ?(D 1%nat 6%nat), ?(D 2%nat 5%nat), ?(D 3%nat 4%nat), ?(D 4%nat 3%nat), ?(D 5%nat 2%nat), ?(D 6%nat 1%nat), ?(D 7%nat 0%nat), ?(D 0%nat 8%nat), ?(D 1%nat 7%nat), ?(D 2%nat 6%nat), ?(D 3%nat 5%nat), ?(D 4%nat 4%nat), ?(D 5%nat 3%nat), ?(D 6%nat 2%nat), ?(D 7%nat 1%nat), ?(D 8%nat 0%nat), ?(D 0%nat 9%nat), ?(D 1%nat 8%nat), ?(D 2%nat 7%nat), ?(D 3%nat 6%nat), ?(D 4%nat 5%nat), ?(D 5%nat 4%nat), ?(D 6%nat 3%nat), ?(D 7%nat 2%nat), ?(D 8%nat 1%nat), ?(D 9%nat 0%nat) by (clear; lia).
Lemma stencil_lap : forall c h x y, deg5 c -> h <> 0 ->
  (eval c (x + h) y - 2 * eval c x y + eval c (x - h) y) / h ^ 2 + (eval c x (y + h) - 2 * eval c x y + eval c x (y - h)) / h ^ 2 =
  eval (plap c) x y + h ^ 2 / 12 * (eval (pdx (pdx (pdx (pdx c)))) x y + eval (pdy (pdy (pdy (pdy c)))) x y).
Proof.
  intros c h x y D H.
  assert (E : 12 * ((eval c (x + h) y - 2 * eval c x y + eval c (x - h) y) + (eval c x (y + h) - 2 * eval c x y + eval c x (y - h))) =
    12 * h ^ 2 * eval (plap c) x y + h ^ 4 * (eval (pdx (pdx (pdx (pdx c)))) x y + eval (pdy (pdy (pdy (pdy c)))) x y)).
  { open_poly. kill_high D. ring. }
  apply Rmult_eq_reg_l with (12 * h ^ 2); [| apply Rmult_integral_contrapositive; split; [lra | apply pow_nonzero; auto]].
  etransitivity; [etransitivity; [| exact E] |]; field; auto.
Qed.
Lemma stencil_mixed : forall c h x y, deg5 c ->
  eval c (x + h) (y + h) + eval c (x + h) (y - h) + eval c (x - h) (y + h) + eval c (x - h) (y - h)
  - 2 * (eval c (x + h) y + eval c (x - h) y + eval c x (y + h) + eval c x (y - h)) + 4 * eval c x y =
  h ^ 4 * eval (pdx (pdx (pdy (pdy c)))) x y.
Proof. intros c h x y D. open_poly. kill_high D. ring. Qed.
Lemma plap_twice : forall c x y, eval (plap (plap c)) x y =
  eval (pdx (pdx (pdx (pdx c)))) x y + eval (pdy (pdy (pdy (pdy c)))) x y + 2 * eval (pdx (pdx (pdy (pdy c)))) x y.
Proof. intros c x y. open_poly. ring. Qed.
Lemma isotropic_poly : forall p c x0 y0 h phi fold i j, pflux p = FluxIsotropic -> h1 (pb p) = h -> h2 (pb p) = h -> h <> 0 ->
  in_cells (pb p) i j -> deg5 c -> sampled c x0 y0 h phi i j ->
  let x := x0 + IZR i * h in let y := y0 + IZR j * h in
  div_term p phi fold i j = peps p ^ 2 * (eval (plap c) x y + h ^ 2 / 12 * eval (plap (plap c)) x y).
Proof.
  intros p c x0 y0 h phi fold i j Ef E1 E2 H Hij D S x y. rewrite div_isotropic by auto. unfold lap, mixed.
  destruct (sampled_vals c x0 y0 h phi i j S) as (-> & -> & -> & -> & -> & -> & -> & -> & ->). fold x y. rewrite E1, E2.
  rewrite stencil_lap, stencil_mixed, plap_twice by auto. field. auto.
Qed.
Lemma simple_poly : forall p c x0 y0 h phi fold i j, pflux p = FluxSimple -> h1 (pb p) = h -> h2 (pb p) = h -> h <> 0 ->
  in_cells (pb p) i j -> deg5 c -> sampled c x0 y0 h phi i j ->
  let x := x0 + IZR i * h in let y := y0 + IZR j * h in
  div_term p phi fold i j = peps p ^ 2 * (eval (plap c) x y + h ^ 2 / 12 * (eval (pdx (pdx (pdx (pdx c)))) x y + eval (pdy (pdy (pdy (pdy c)))) x y)).
Proof.
  intros p c x0 y0 h phi fold i j Ef E1 E2 H Hij D S x y. rewrite div_simple by auto. unfold lap.
  destruct (sampled_vals c x0 y0 h phi i j S) as (-> & -> & -> & -> & -> & _). fold x y. rewrite E1, E2.
  rewrite stencil_lap by auto. reflexivity.
Qed.

Lemma isotropic_rhs : forall p c x0 y0 h phi fold rold rhs i j, pflux p = FluxIsotropic -> h1 (pb p) = h -> h2 (pb p) = h -> h <> 0 ->
  plain p -> pdrive p = NoDrive -> pwell p = 0 ->
  in_cells (pb p) i j -> deg5 c -> sampled c x0 y0 h phi i j -> evaluatePhaseRHS p phi fold rold = Some rhs ->
  let x := x0 + IZR i * h in let y := y0 + IZR j * h in
  rhs i j = pmob p i j * peps p ^ 2 * (eval (plap c) x y + h ^ 2 / 12 * eval (plap (plap c)) x y).
Proof.
  intros p c x0 y0 h phi fold rold rhs i j Ef E1 E2 H [Eo E3] Ed Ew Hij D S E x y. rewrite (rhs_val _ _ _ _ _ i j E Hij).
  unfold force, third_term, orient_term. rewrite Eo, E3, Ed, Ew. cbn [drive_term].
  rewrite (isotropic_poly p c x0 y0 h phi fold i j) by auto. fold x y. ring.
Qed.
Lemma simple_rhs : forall p c x0 y0 h phi fold rold rhs i j, pflux p = FluxSimple -> h1 (pb p) = h -> h2 (pb p) = h -> h <> 0 ->
  plain p -> pdrive p = NoDrive -> pwell p = 0 ->
  in_cells (pb p) i j -> deg5 c -> sampled c x0 y0 h phi i j -> evaluatePhaseRHS p phi fold rold = Some rhs ->
  let x := x0 + IZR i * h in let y := y0 + IZR j * h in
  rhs i j = pmob p i j * peps p ^ 2 * (eval (plap c) x y + h ^ 2 / 12 * (eval (pdx (pdx (pdx (pdx c)))) x y + eval (pdy (pdy (pdy (pdy c)))) x y)).
Proof.
  intros p c x0 y0 h phi fold rold rhs i j Ef E1 E2 H [Eo E3] Ed Ew Hij D S E x y. rewrite (rhs_val _ _ _ _ _ i j E Hij).
  unfold force, third_term, orient_term. rewrite Eo, E3, Ed, Ew. cbn [drive_term].
  rewrite (simple_poly p c x0 y0 h phi fold i j) by auto. fold x y. ring.
Qed.

(** * Temperature *)
Lemma temp_val : forall b D L temp cp pr old i j, in_cells b i j ->
  computerhstemp b D L temp cp pr old i j = D * lap b temp i j + match pr with Some f => L / cp i j * f i j | None => 0 end.
Proof.
  intros b D L temp cp pr old i j Hij. unfold computerhstemp.
  set (g := fun (i j : Z) (_ : R) => D * ((temp (i - 1)%Z j - 2 * temp i j + temp (i + 1)%Z j) * (1 / (h1 b * h1 b)) +
    (temp i (j - 1)%Z - 2 * temp i j + temp i (j + 1)%Z) * (1 / (h2 b * h2 b)))).
  assert (E : laplacian (lo0 b) (hi0 b) (lo1 b) (hi1 b) (h1 b) (h2 b) D temp old = cells b g old) by reflexivity.
  assert (V : cells b g old i j = D * lap b temp i j).
  { rewrite cells_val by auto. unfold g, lap, Rdiv. rewrite !inv_sq, !Rinv_mult. ring. }
  rewrite E. destruct pr; [rewrite cells_val by auto |]; rewrite V; ring.
Qed.
Lemma sum_lap : forall cx cy b f, (lo0 b <= hi0 b)%Z -> (lo1 b <= hi1 b)%Z -> filled cx cy b f -> sum_cells b (lap b f) = 0.
Proof.
  intros cx cy b f H0 H1 F. rewrite (sum_cells_ext b (lap b f) (fun i j => 1 * lap b f i j)) by (intros; ring).
  rewrite (sum_sym cx cy b f (fun _ _ => 1)); auto.
  - rewrite (sum_cells_ext b _ (fun _ _ => 0 * 0)), sum_cells_scal; [ring |]. intros i j _. unfold lap, Rdiv. ring.
  - split; intros; destruct cx, cy; split; reflexivity.
Qed.
Lemma heat_rate : forall cx cy b D L c0 cp temp pr old, (lo0 b <= hi0 b)%Z -> (lo1 b <= hi1 b)%Z -> c0 <> 0 ->
  (forall i j, in_cells b i j -> cp i j = c0) -> filled cx cy b temp ->
  sum_cells b (fun i j => cp i j * computerhstemp b D L temp cp pr old i j) =
  match pr with Some f => L * sum_cells b f | None => 0 end.
Proof.
  intros cx cy b D L c0 cp temp pr old H0 H1 Hc Hcp F.
  rewrite (sum_cells_ext b _ (fun i j => c0 * D * lap b temp i j + match pr with Some f => L * f i j | None => 0 * 0 end)).
  - rewrite sum_cells_plus, sum_cells_scal. change (sum_cells b (fun i j => lap b temp i j)) with (sum_cells b (lap b temp)).
    rewrite (sum_lap cx cy) by auto. destruct pr; rewrite sum_cells_scal; [ring |]. ring.
  - intros i j Hij. rewrite temp_val, Hcp by auto. destruct pr; field; auto.
Qed.
Lemma constant_of_zero : forall f T, (forall t, 0 <= t <= T -> derivable_pt_lim f t 0) -> forall t, 0 <= t <= T -> f t = f 0.
Proof.
  intros f T H t Ht. destruct (Req_dec t 0) as [-> | Hne]; [reflexivity |].
  destruct (MVT_cor2 f (fun _ => 0) 0 t) as (c & Hc & _); [lra | intros c Hc; apply H; lra |]. lra.
Qed.
Lemma heat_conserved : forall cx cy b D L c0 cp T (temp phi dphi : R -> arr2) old, (lo0 b <= hi0 b)%Z -> (lo1 b <= hi1 b)%Z -> c0 <> 0 ->
  (forall i j, in_cells b i j -> cp i j = c0) ->
  (forall t, 0 <= t <= T -> filled cx cy b (temp t)) ->
  (forall t i j, 0 <= t <= T -> in_cells b i j -> derivable_pt_lim (fun s => phi s i j) t (dphi t i j)) ->
  (forall t i j, 0 <= t <= T -> in_cells b i j ->
     derivable_pt_lim (fun s => temp s i j) t (computerhstemp b D L (temp t) cp (Some (dphi t)) (old t) i j)) ->
  forall t, 0 <= t <= T -> heat_content b L cp (temp t) (phi t) = heat_content b L cp (temp 0) (phi 0).
Proof.
  intros cx cy b D L c0 cp T temp phi dphi old H0 H1 Hc Hcp F Dp Dt t Ht.
  apply (constant_of_zero (fun t => heat_content b L cp (temp t) (phi t)) T); auto.
  intros s Hs. replace 0 with (sum_cells b (fun i j => cp i j * computerhstemp b D L (temp s) cp (Some (dphi s)) (old s) i j + - L * dphi s i j)).
  - apply (QuatFlow_Proofs.box_limit (lo0 b) (hi0 b) (lo1 b) (hi1 b) (fun i j t => cp i j * temp t i j - L * phi t i j)).
    intros i j Hij. replace (_ + _) with (cp i j * computerhstemp b D L (temp s) cp (Some (dphi s)) (old s) i j - L * dphi s i j) by ring.
    apply derivable_pt_lim_minus; apply derivable_pt_lim_scal; auto.
  - rewrite sum_cells_plus, (heat_rate cx cy b D L c0), sum_cells_scal by auto.
    change (sum_cells b (fun i j => dphi s i j)) with (sum_cells b (dphi s)). ring.
Qed.
Lemma heat_not_conserved : exists b cp temp, filled ZeroFlux ZeroFlux b temp /\ forall old,
  sum_cells b (fun i j => cp i j * computerhstemp b 1 0 temp cp None old i j) <> 0.
Proof.
  exists (mk_pbox 0 1 0 0 1 1), (fun i _ => IZR (i + 1)), (fun i _ => if (i <=? 0)%Z then 0 else 1). split.
  - split; intros; split; reflexivity.
  - intro old. rewrite (sum_cells_ext _ _ (fun i j => IZR (i + 1) * lap (mk_pbox 0 1 0 0 1 1) (fun i _ => if (i <=? 0)%Z then 0 else 1) i j)).
    + unfold sum_cells, sum_box. cbn [lo0 hi0 lo1 hi1]. rewrite (sumZ_cons 0 0), (sumZ_empty (0 + 1) 0) by lia.
      rewrite (sumZ_cons 0 1), (sumZ_cons (0 + 1) 1), (sumZ_empty (0 + 1 + 1) 1) by lia. unfold lap. cbn. lra.
    + intros i j Hij. rewrite temp_val by auto. ring.
Qed.
Lemma temp_bounds : forall b D L cp lb ub T old temp, 0 <= D -> 0 < h1 b -> 0 < h2 b ->
  solution b lb ub T (fun t f => Some (computerhstemp b D L f cp None (old t))) temp ->
  (forall i j, in_cells b i j -> lb <= temp 0 i j <= ub) ->
  forall t i j, 0 <= t <= T -> in_cells b i j -> lb <= temp t i j <= ub.
Proof.
  intros b D L cp lb ub T old temp HD P1 P2 [Heq Hg] H0.
  assert (A : 0 < / h1 b ^ 2) by (apply Rinv_0_lt_compat, pow_lt; auto).
  assert (C : 0 < / h2 b ^ 2) by (apply Rinv_0_lt_compat, pow_lt; auto).
  assert (Dr : forall t i j, 0 <= t <= T -> in_cells b i j -> derivable_pt_lim (fun s => temp s i j) t (D * lap b (temp t) i j)).
  { intros t i j Ht Hij. destruct (Heq t i j Ht Hij) as (r & E & Dv). assert (Er : r = computerhstemp b D L (temp t) cp None (old t)) by congruence.
    rewrite Er, temp_val in Dv by auto.
    rewrite Rplus_0_r in Dv. exact Dv. }
  assert (M : forall f i j, (forall k l, near i j k l -> f i j <= f k l) -> 0 <= D * lap b f i j).
  { intros f i j Hn. pose proof (near_all (fun k l => f i j <= f k l) i j Hn) as N. cbv beta in N. destruct N as (N1 & N2 & N3 & N4 & _).
    apply Rmult_le_pos; auto. unfold lap, Rdiv. apply Rplus_le_le_0_compat; apply Rmult_le_pos; lra. }
  intros t i j Ht Hij. split.
  - enough (0 <= temp t i j - lb) by lra.
    apply (stays_nonneg (cell_list b) (fun t i j => temp t i j - lb) (fun t i j => D * lap b (temp t) i j) T 0 1); auto; try lra.
    + intros s k l Hs Hkl. apply in_cell_list in Hkl. replace (D * _) with (D * lap b (temp s) k l - 0) by ring.
      apply derivable_pt_lim_minus; [auto | apply derivable_pt_lim_const].
    + intros s k l Hs Hkl Hu Hmin. apply in_cell_list in Hkl. rewrite Rmult_0_l. apply M.
      intros k' l' Hn. destruct (Hg s k l k' l' Hs Hkl Hn) as [(a & c & Hac & ->) | Hb]; [| lra].
      assert (temp s k l - lb <= temp s a c - lb) by (apply Hmin; apply in_cell_list; auto). lra.
    + intros k l Hkl. apply in_cell_list in Hkl. specialize (H0 k l Hkl). lra.
    + apply in_cell_list; auto.
  - enough (0 <= ub - temp t i j) by lra.
    apply (stays_nonneg (cell_list b) (fun t i j => ub - temp t i j) (fun t i j => - (D * lap b (temp t) i j)) T 0 1); auto; try lra.
    + intros s k l Hs Hkl. apply in_cell_list in Hkl. replace (- _) with (0 - D * lap b (temp s) k l) by ring.
      apply derivable_pt_lim_minus; [apply derivable_pt_lim_const | auto].
    + intros s k l Hs Hkl Hu Hmin. apply in_cell_list in Hkl. rewrite Rmult_0_l.
      replace (- (D * lap b (temp s) k l)) with (D * lap b (fun i j => - temp s i j) k l) by (unfold lap, Rdiv; ring). apply M.
      intros k' l' Hn. destruct (Hg s k l k' l' Hs Hkl Hn) as [(a & c & Hac & ->) | Hb]; [| lra].
      assert (ub - temp s k l <= ub - temp s a c) by (apply Hmin; apply in_cell_list; auto). lra.
    + intros k l Hkl. apply in_cell_list in Hkl. specialize (H0 k l Hkl). lra.
    + apply in_cell_list; auto.
Qed.

(** * Bias of the double well *)
Lemma homogeneous_rhs : forall p phi fold rold rhs i j x, plain p -> 
  match pflux p with FluxAnisotropic _ _ _ _ => False | _ => True end ->
  in_cells (pb p) i j -> uniform_near phi i j x -> evaluatePhaseRHS p phi fold rold = Some rhs ->
  rhs i j = pmob p i j * (drive_term (pdrive p) (ptemp p) phi i j - pwell p * (32 * x * (1 - x) * (1 - 2 * x))).
Proof.
  intros p phi fold rold rhs i j x [Eo E3] Hf Hij Hu E. rewrite (rhs_val _ _ _ _ _ i j E Hij).
  unfold force, third_term, orient_term. rewrite Eo, E3.
  pose proof (near_all (fun k l => phi k l = x) i j Hu) as N. cbv beta in N. destruct N as (N1 & N2 & N3 & N4 & N5 & N6 & N7 & N8).
  assert (N0 : phi i j = x) by (apply Hu; unfold near; lia).
  assert (D : div_term p phi fold i j = 0).
  { destruct (pflux p) eqn:Ef; [rewrite div_simple by auto | rewrite div_isotropic by auto | contradiction];
      unfold lap, mixed, Rdiv; rewrite ?N0, ?N1, ?N2, ?N3, ?N4, ?N5, ?N6, ?N7, ?N8; ring. }
  rewrite D, N0. ring.
Qed.
Lemma biased_rhs : forall p phi fold rold rhs i j x, plain p -> biased (pdrive p) ->
  match pflux p with FluxAnisotropic _ _ _ _ => False | _ => True end ->
  in_cells (pb p) i j -> uniform_near phi i j x -> evaluatePhaseRHS p phi fold rold = Some rhs ->
  rhs i j = pmob p i j * (x * (1 - x) * (bias (pdrive p) (ptemp p) i j - 32 * pwell p * (1 - 2 * x))).
Proof.
  intros p phi fold rold rhs i j x Hp Hb Hf Hij Hu E. rewrite (homogeneous_rhs p phi fold rold rhs i j x) by auto.
  assert (N0 : phi i j = x) by (apply Hu; unfold near; lia).
  destruct (pdrive p); try contradiction Hb; cbn [drive_term bias]; rewrite N0; ring.
Qed.
Lemma sign_product : forall M x y, 0 < M -> 0 < x < 1 -> (0 < y -> 0 < M * (x * (1 - x) * y)) /\ (y < 0 -> M * (x * (1 - x) * y) < 0).
Proof.
  intros M x y HM Hx. assert (0 < x * (1 - x)) by (apply Rmult_lt_0_compat; lra). assert (P : 0 < M * (x * (1 - x))) by (apply Rmult_lt_0_compat; auto).
  replace (M * (x * (1 - x) * y)) with (M * (x * (1 - x)) * y) by ring. split; intro Hy.
  - apply Rmult_lt_0_compat; auto.
  - assert (0 < M * (x * (1 - x)) * - y) by (apply Rmult_lt_0_compat; lra). lra.
Qed.
Lemma bias_metastable : forall p i j m, plain p -> biased (pdrive p) ->
  match pflux p with FluxAnisotropic _ _ _ _ => False | _ => True end ->
  in_cells (pb p) i j -> 0 < pmob p i j -> 0 < pwell p -> bias (pdrive p) (ptemp p) i j = m -> Rabs m < 32 * pwell p ->
  let s := 1 / 2 - m / (64 * pwell p) in 0 < s < 1 /\
  forall phi fold rold rhs x, uniform_near phi i j x -> evaluatePhaseRHS p phi fold rold = Some rhs ->
    (0 < x < s -> rhs i j < 0) /\ (s < x < 1 -> 0 < rhs i j) /\ (x = 0 \/ x = s \/ x = 1 -> rhs i j = 0).
Proof.
  intros p i j m Hp Hb Hf Hij HM HW Em Hm s. apply Rabs_def2 in Hm.
  assert (Es : m = 32 * pwell p * (1 - 2 * s)) by (unfold s; field; lra).
  assert (S1 : 0 < s < 1).
  { destruct (Rle_dec s 0) as [Hs | Hs]; [exfalso; nra |]. destruct (Rle_dec 1 s); [exfalso; nra |]. lra. }
  split; [exact S1 |]. intros phi fold rold rhs x Hu E. rewrite (biased_rhs p phi fold rold rhs i j x) by auto. rewrite Em.
  replace (m - 32 * pwell p * (1 - 2 * x)) with (64 * pwell p * (x - s)) by (rewrite Es; ring). split; [| split].
  - intro Hx. apply (sign_product (pmob p i j) x _ HM); [lra |].
    assert (0 < 64 * pwell p * (s - x)) by (apply Rmult_lt_0_compat; lra). lra.
  - intro Hx. apply (sign_product (pmob p i j) x _ HM); [lra |]. apply Rmult_lt_0_compat; lra.
  - intros [-> | [-> | ->]]; ring.
Qed.
Lemma bias_runaway : forall p i j phi fold rold rhs x, plain p -> biased (pdrive p) ->
  match pflux p with FluxAnisotropic _ _ _ _ => False | _ => True end ->
  in_cells (pb p) i j -> 0 < pmob p i j -> 0 < pwell p -> 0 < x < 1 -> uniform_near phi i j x -> evaluatePhaseRHS p phi fold rold = Some rhs ->
  (32 * pwell p <= bias (pdrive p) (ptemp p) i j -> 0 < rhs i j) /\ (bias (pdrive p) (ptemp p) i j <= - (32 * pwell p) -> rhs i j < 0).
Proof.
  intros p i j phi fold rold rhs x Hp Hb Hf Hij HM HW Hx Hu E. rewrite (biased_rhs p phi fold rold rhs i j x) by auto.
  assert (0 < 64 * pwell p * x) by (apply Rmult_lt_0_compat; lra). assert (0 < 64 * pwell p * (1 - x)) by (apply Rmult_lt_0_compat; lra).
  split; intro Hm; apply (sign_product (pmob p i j) x _ HM); auto; lra.
Qed.
Lemma utrc_bounded : forall alpha g te temp i j W, 0 < alpha -> alpha <= 64 * W -> Rabs (bias (BiasUTRC alpha g te) temp i j) < 32 * W.
Proof.
  intros alpha g te temp i j W Ha HW. cbn [bias]. pose proof (atan_bound (g * (te i j - temp i j))) as B. pose proof PI_RGT_0 as P.
  assert (Q : 0 < alpha / PI) by (apply Rdiv_lt_0_compat; auto).
  assert (E : alpha / PI * (PI / 2) = alpha / 2) by (field; lra).
  assert (alpha / PI * atan (g * (te i j - temp i j)) < alpha / PI * (PI / 2)) by (apply Rmult_lt_compat_l; lra).
  assert (alpha / PI * - atan (g * (te i j - temp i j)) < alpha / PI * (PI / 2)) by (apply Rmult_lt_compat_l; lra).
  apply Rabs_def1; lra.
Qed.
Lemma atan_pos : forall x, 0 < x -> 0 < atan x.
Proof. intros x H. rewrite <- atan_0. apply atan_increasing. auto. Qed.
Lemma bias_sign : forall d temp i j, biased d ->
  match d with BiasUTRC a g _ => 0 < a /\ 0 < g | BiasBeckermann a _ => 0 < a | _ => True end ->
  let te := match d with BiasUTRC _ _ te => te i j | BiasBeckermann _ te => te i j | _ => 0 end in
  (temp i j < te -> 0 < bias d temp i j) /\ (temp i j = te -> bias d temp i j = 0) /\ (te < temp i j -> bias d temp i j < 0).
Proof.
  intros d temp i j Hb Hs. pose proof PI_RGT_0 as P. destruct d as [| | | a g te | a te]; try contradiction Hb; cbn [bias]; cbv zeta.
  - destruct Hs as [Ha Hg]. assert (Q : 0 < a / PI) by (apply Rdiv_lt_0_compat; auto). split; [| split]; intro H.
    + apply Rmult_lt_0_compat; auto. apply atan_pos. apply Rmult_lt_0_compat; lra.
    + rewrite H. replace (g * (te i j - te i j)) with 0 by ring. rewrite atan_0. ring.
    + assert (0 < a / PI * atan (g * (temp i j - te i j))).
      { apply Rmult_lt_0_compat; auto. apply atan_pos. apply Rmult_lt_0_compat; lra. }
      replace (g * (te i j - temp i j)) with (- (g * (temp i j - te i j))) by ring. rewrite atan_opp. lra.
  - split; [| split]; intro H; [apply Rmult_lt_0_compat; lra | rewrite H; ring |].
    assert (0 < a * (temp i j - te i j)) by (apply Rmult_lt_0_compat; lra). lra.
Qed.

(** * Several order parameters *)
Lemma loop_squares : forall n (u : Z -> R), do_loop 1 n (fun ip acc => acc + u ip * u ip) 0 = squares n u.
Proof.
  intros n u. rewrite loop_sum. unfold squares. rewrite Rplus_0_l. apply sumZ_ext. intros. ring.
Qed.

Definition multi_force (n : Z) (fl fa : R) (u : Z -> R) (p : Z) : R :=
  if (p =? n)%Z then 2 * u n * squares (n - 1) u * (fa - fl) / squares n u ^ 2
  else 2 * u p * u n ^ 2 * (fl - fa) / squares n u ^ 2.
Lemma squares_split : forall n u, (1 <= n)%Z -> squares n u = squares (n - 1) u + u n ^ 2.
Proof. intros n u H. unfold squares. apply sumZ_snoc. lia. Qed.
Lemma multi_val : forall b n fl fa phi rhs i j p, (1 <= n)%Z -> in_cells b i j -> (1 <= p <= n)%Z -> squares n (phi i j) <> 0 ->
  phaserhs_fenergy_multiorderp b n fl fa phi rhs i j p = rhs i j p + multi_force n (fl i j) (fa i j) (phi i j) p.
Proof.
  intros b n fl fa phi rhs i j p Hn Hij Hp Hs. unfold phaserhs_fenergy_multiorderp.
  set (T := fun s s' : arr3 => s' i j p = s i j p).
  destruct (cells_once arr3 T (lo0 b) (hi0 b) (lo1 b) (hi1 b) i j (fun i j s =>
    let hphis := do_loop 1 (n - 1) (fun ip acc => acc + phi i j ip * phi i j ip) 0 in
    let hphil := phi i j n * phi i j n in
    let suminv2 := 1 / (hphis + hphil) in
    let hphis := hphis * suminv2 in let hphil := hphil * suminv2 in
    let s := do_loop 1 (n - 1) (fun ip s => upd3 s i j ip (s i j ip + 2 * phi i j ip * hphil * suminv2 * (fl i j - fa i j))) s in
    upd3 s i j n (s i j n + 2 * phi i j n * hphis * suminv2 * (fa i j - fl i j))) rhs) as (s0 & T0 & T1); auto.
  - intros s. reflexivity.
  - intros x y z H1 H2. unfold T in *. congruence.
  - intros k l s _ Hne. unfold T. cbv zeta. rewrite upd3_other by lia. symmetry.
    apply (loop_never arr3 (fun s s' => s i j p = s' i j p)); [reflexivity | congruence |].
    intros ip s' _. rewrite upd3_other by lia. reflexivity.
  - unfold T in T0, T1. rewrite T1. clear T1. cbv zeta. rewrite loop_squares.
    assert (E : squares (n - 1) (phi i j) + phi i j n * phi i j n = squares n (phi i j)) by (rewrite (squares_split n) by auto; ring).
    rewrite E. unfold multi_force. destruct (Z.eqb_spec p n) as [-> | Hne].
    + rewrite upd3_same. rewrite <- T0.
      assert (L : forall s, do_loop 1 (n - 1) (fun ip s => upd3 s i j ip (s i j ip + 2 * phi i j ip * (phi i j n * phi i j n * (1 / squares n (phi i j))) * (1 / squares n (phi i j)) * (fl i j - fa i j))) s i j n = s i j n).
      { intro s. apply (loop_never arr3 (fun s s' => s' i j n = s i j n)); [reflexivity | congruence |].
        intros ip s' Hip. rewrite upd3_other by lia. reflexivity. }
      rewrite L. field. auto.
    + rewrite upd3_other by lia. rewrite <- T0.
      destruct (loop_once arr3 T 1 (n - 1) p (fun ip s => upd3 s i j ip (s i j ip + 2 * phi i j ip * (phi i j n * phi i j n * (1 / squares n (phi i j))) * (1 / squares n (phi i j)) * (fl i j - fa i j))) s0) as (s1 & U0 & U1).
      * intro s. reflexivity.
      * intros x y z H1 H2. unfold T in *. congruence.
      * lia.
      * intros ip s _ Hip. unfold T. rewrite upd3_other by lia. reflexivity.
      * unfold T in U0, U1. rewrite U1, upd3_same, U0. field. auto.
Qed.
Lemma squares_component : forall n u p x, (1 <= p <= n)%Z -> squares n (with_component u p x) = squares n u - u p ^ 2 + x ^ 2.
Proof.
  intros n u p x Hp. unfold squares. rewrite (sumZ_split 1 (p - 1) n), (sumZ_split 1 (p - 1) n (fun p => u p ^ 2)) by lia.
  replace (p - 1 + 1)%Z with p by lia. rewrite (sumZ_cons p n), (sumZ_cons p n (fun p => u p ^ 2)) by lia.
  rewrite (sumZ_ext 1 (p - 1) (fun q => with_component u p x q ^ 2) (fun q => u q ^ 2)).
  2: { intros q Hq. unfold with_component. destruct (Z.eqb_spec q p); [lia | reflexivity]. }
  rewrite (sumZ_ext (p + 1) n (fun q => with_component u p x q ^ 2) (fun q => u q ^ 2)).
  2: { intros q Hq. unfold with_component. destruct (Z.eqb_spec q p); [lia | reflexivity]. }
  unfold with_component at 1. rewrite Z.eqb_refl. ring.
Qed.
Lemma squares_above : forall n u p x, (n < p)%Z -> squares n (with_component u p x) = squares n u.
Proof. intros n u p x Hp. unfold squares. apply sumZ_ext. intros q Hq. unfold with_component. destruct (Z.eqb_spec q p); [lia | reflexivity]. Qed.
Lemma multi_density_derivative : forall n fl fa u p, (1 <= p <= n)%Z -> squares n u <> 0 ->
  derivable_pt_lim (fun x => multi_density n fl fa (with_component u p x)) (u p) (- multi_force n fl fa u p).
Proof.
  intros n fl fa u p Hp Hs. set (S := squares n u) in *. set (A := squares (n - 1) u).
  assert (ES : S = A + u n ^ 2) by (apply squares_split; lia).
  unfold multi_force. fold S A. destruct (Z.eqb_spec p n) as [-> | Hne].
  - apply (derivable_pt_lim_ext (fun x => (A * fa + x ^ 2 * fl) / (S - u n ^ 2 + x ^ 2))).
    + intro x. unfold multi_density. rewrite (squares_component n), (squares_above (n - 1)) by lia. unfold with_component. rewrite Z.eqb_refl. reflexivity.
    + apply is_derive_Reals. auto_derive; [intro E; apply Hs; lra |].
      replace (S + - u n ^ 2 + u n ^ 2) with S by ring. replace (S + - (u n * (u n * 1)) + u n * (u n * 1)) with S by ring.
      rewrite ES in *. field. auto.
  - apply (derivable_pt_lim_ext (fun x => ((A - u p ^ 2 + x ^ 2) * fa + u n ^ 2 * fl) / (S - u p ^ 2 + x ^ 2))).
    + intro x. unfold multi_density. rewrite (squares_component n), (squares_component (n - 1)) by lia. unfold with_component. destruct (Z.eqb_spec n p); [lia |]. reflexivity.
    + apply is_derive_Reals. auto_derive; [intro E; apply Hs; lra |].
      replace (S + - (u p * (u p * 1)) + u p * (u p * 1)) with S by ring.
      rewrite ES in *. field. auto.
Qed.
Lemma multi_gradient : forall b n fl fa phi rhs i j p, (1 <= p <= n)%Z -> in_cells b i j -> squares n (phi i j) <> 0 ->
  derivable_pt_lim (fun x => multi_density n (fl i j) (fa i j) (with_component (phi i j) p x)) (phi i j p)
    (- (phaserhs_fenergy_multiorderp b n fl fa phi rhs i j p - rhs i j p)).
Proof.
  intros b n fl fa phi rhs i j p Hp Hij Hs. rewrite multi_val by (auto; lia).
  replace (- (_ - _)) with (- multi_force n (fl i j) (fa i j) (phi i j) p) by ring. apply multi_density_derivative; auto.
Qed.
Lemma multi_balance : forall b n fl fa phi rhs i j, (1 <= n)%Z -> in_cells b i j -> squares n (phi i j) <> 0 ->
  sumZ 1 n (fun p => phi i j p * (phaserhs_fenergy_multiorderp b n fl fa phi rhs i j p - rhs i j p)) = 0.
Proof.
  intros b n fl fa phi rhs i j Hn Hij Hs.
  set (S := squares n (phi i j)) in *. set (A := squares (n - 1) (phi i j)). set (c := 2 * phi i j n ^ 2 * (fl i j - fa i j) / S ^ 2).
  rewrite (sumZ_snoc 1 n) by lia. rewrite (sumZ_ext 1 (n - 1) _ (fun p => c * phi i j p ^ 2)).
  - rewrite sumZ_scal. change (sumZ 1 (n - 1) (fun p => phi i j p ^ 2)) with A. rewrite multi_val by (auto; lia). unfold multi_force. rewrite Z.eqb_refl.
    fold S A. unfold c. field. auto.
  - intros p Hp. rewrite multi_val by (auto; lia). unfold multi_force. destruct (Z.eqb_spec p n); [lia |]. fold S. unfold c. field. auto.
Qed.
Lemma multi_others : forall b n fl fa phi rhs i j p, ~ (in_cells b i j /\ (1 <= p <= n)%Z) -> (1 <= n)%Z ->
  phaserhs_fenergy_multiorderp b n fl fa phi rhs i j p = rhs i j p.
Proof.
  intros b n fl fa phi rhs i j p H Hn. unfold phaserhs_fenergy_multiorderp.
  apply (cells_never arr3 (fun s s' => s' i j p = s i j p)); [reflexivity | congruence |].
  intros k l s Hkl. cbv zeta.
  assert (N : forall q, (1 <= q <= n)%Z -> (i <> k \/ j <> l \/ p <> q)%Z).
  { intros q Hq. destruct (Z.eq_dec i k) as [-> |]; [| auto]. destruct (Z.eq_dec j l) as [-> |]; [| auto].
    right; right. intros ->. apply H. split; auto. }
  rewrite upd3_other by (apply N; lia).
  apply (loop_never arr3 (fun s s' => s' i j p = s i j p)); [reflexivity | congruence |].
  intros ip s' Hip. rewrite upd3_other by (apply N; lia). reflexivity.
Qed.
