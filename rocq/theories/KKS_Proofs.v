(** Proofs about the driving force in alloys. *)
From Coq Require Import Reals ZArith List Bool Ascii Lra Lia.
From Coquelicot Require Import Coquelicot.
From Verif Require Import Grid_Model Grid_Spec Grid_Proofs Functions_Model Functions_Spec Functions_Proofs Tilting_Model Tilting_Spec Tilting_Proofs
  ThreePhase_Model ThreePhase_Proofs PhaseFlow_Model PhaseFlow_Spec PhaseFlow_Proofs KKS_Model KKS_Spec.
From Verif Require Energy_Model.
Import ListNotations.
Open Scope R_scope.

Lemma total_ext : forall ks g h, (forall k, In k ks -> g k = h k) -> total ks g = total ks h.
Proof. induction ks as [| k ks IH]; intros g h E; cbn [total fold_right]; [reflexivity |]. fold (total ks g) (total ks h). rewrite (E k) by (left; reflexivity). rewrite (IH g h); [reflexivity |]. intros k' K. apply E. right. exact K. Qed.
Lemma total_plus : forall ks g h, total ks (fun k => g k + h k) = total ks g + total ks h.
Proof. induction ks as [| k ks IH]; intros g h; cbn [total fold_right]; [ring |]. fold (total ks g) (total ks h) (total ks (fun k => g k + h k)). rewrite IH. ring. Qed.
Lemma total_scal : forall ks a g, total ks (fun k => a * g k) = a * total ks g.
Proof. induction ks as [| k ks IH]; intros a g; cbn [total fold_right]; [ring |]. fold (total ks g) (total ks (fun k => a * g k)). rewrite IH. ring. Qed.
Lemma total_lim : forall ks (f : phase -> R -> R) d x, (forall k, In k ks -> derivable_pt_lim (f k) x (d k)) ->
  derivable_pt_lim (fun s => total ks (fun k => f k s)) x (total ks d).
Proof.
  induction ks as [| k ks IH]; intros f d x H; cbn [total fold_right].
  - apply (derivable_pt_lim_const 0).
  - apply (derivable_pt_lim_plus (f k) (fun s => fold_right (fun k a => f k s + a) 0 ks)); [apply H; left; reflexivity |].
    apply IH. intros k' K. apply H. right. exact K.
Qed.

Lemma around_all : forall x (P : R -> Prop), (forall s, P s) -> around x P.
Proof. intros x P H. exists 1. split; [lra | auto]. Qed.
Lemma around_impl : forall x (P Q : R -> Prop), around x P -> (forall s, P s -> Q s) -> around x Q.
Proof. intros x P Q (e & E & HP) H. exists e. split; auto. Qed.
Lemma around_and : forall x (P Q T : R -> Prop), (forall s, P s -> Q s -> T s) -> around x P -> around x Q -> around x T.
Proof.
  intros x P Q T H (e & E & HP) (e' & E' & HQ). exists (Rmin e e'). split; [apply Rmin_pos; auto |].
  intros s S. apply H; [apply HP | apply HQ]; apply (Rlt_le_trans _ _ _ S); [apply Rmin_l | apply Rmin_r].
Qed.
Lemma around_lim : forall (f g : R -> R) x d, around x (fun s => f s = g s) -> derivable_pt_lim f x d -> derivable_pt_lim g x d.
Proof.
  intros f g x d (e & E & H) D eps Heps. destruct (D eps Heps) as [dl Hdl].
  exists (mkposreal (Rmin e dl) (Rmin_pos _ _ E (cond_pos dl))). intros h Hh Hs. cbn [pos] in Hs.
  rewrite <- (H (x + h)), <- (H x).
  - apply Hdl; auto. apply (Rlt_le_trans _ _ _ Hs), Rmin_r.
  - replace (x - x) with 0 by ring. rewrite Rabs_R0. exact E.
  - replace (x + h - x) with h by ring. apply (Rlt_le_trans _ _ _ Hs), Rmin_l.
Qed.
Lemma around_interval : forall a b x (P : R -> Prop), a < x < b -> (forall s, a < s < b -> P s) -> around x P.
Proof.
  intros a b x P H HP. exists (Rmin (x - a) (b - x)). split; [apply Rmin_pos; lra |]. intros s S. apply HP.
  pose proof (Rmin_l (x - a) (b - x)). pose proof (Rmin_r (x - a) (b - x)).
  apply Rabs_def2 in S. lra.
Qed.

(** envelope: moving the weights while the phases stay in equilibrium changes the energy by the grand potentials *)
Lemma envelope : forall ks (w e a b : phase -> R -> R) (dw da db : phase -> R) x m0 m1 A B,
  (forall k, In k ks -> derivable_pt_lim (w k) x (dw k)) ->
  (forall k, In k ks -> derivable_pt_lim (a k) x (da k)) ->
  (forall k, In k ks -> derivable_pt_lim (b k) x (db k)) ->
  (forall k, In k ks -> derivable_pt_lim (e k) x (m0 * da k + m1 * db k)) ->
  around x (fun s => total ks (fun k => w k s * a k s) = A) -> around x (fun s => total ks (fun k => w k s * b k s) = B) ->
  derivable_pt_lim (fun s => total ks (fun k => w k s * e k s)) x (total ks (fun k => dw k * (e k x - m0 * a k x - m1 * b k x))).
Proof.
  intros ks w e a b dw da db x m0 m1 A B Hw Ha Hb He HA HB.
  assert (Z : forall (y dy : phase -> _) (Y : R), (forall k, In k ks -> derivable_pt_lim (y k) x (dy k)) ->
    around x (fun s => total ks (fun k => w k s * y k s) = Y) -> total ks (fun k => dw k * y k x) + total ks (fun k => w k x * dy k) = 0).
  { intros y dy Y Hy HY. rewrite <- total_plus.
    apply (uniqueness_limite (fun s => total ks (fun k => w k s * y k s)) x).
    - apply (total_lim ks (fun k s => w k s * y k s) (fun k => dw k * y k x + w k x * dy k)). intros k K.
      apply (derivable_pt_lim_mult (w k) (y k)); [apply Hw | apply Hy]; exact K.
    - apply (around_lim (fun _ => Y)); [| apply derivable_pt_lim_const]. apply (around_and x _ _ _ (fun s H _ => eq_sym H) HY HY). }
  pose proof (Z a da A Ha HA) as ZA. pose proof (Z b db B Hb HB) as ZB.
  assert (E : derivable_pt_lim (fun s => total ks (fun k => w k s * e k s)) x (total ks (fun k => dw k * e k x + w k x * (m0 * da k + m1 * db k)))).
  { apply (total_lim ks (fun k s => w k s * e k s) (fun k => dw k * e k x + w k x * (m0 * da k + m1 * db k))). intros k K.
    apply (derivable_pt_lim_mult (w k) (e k)); [apply Hw | apply He]; exact K. }
  replace (total ks (fun k => dw k * (e k x - m0 * a k x - m1 * b k x)))
    with (total ks (fun k => dw k * e k x + w k x * (m0 * da k + m1 * db k))); [exact E |].
  rewrite (total_ext ks (fun k => dw k * (e k x - m0 * a k x - m1 * b k x))
    (fun k => (dw k * e k x + w k x * (m0 * da k + m1 * db k)) +
              ((- m0) * (dw k * a k x + w k x * da k) + (- m1) * (dw k * b k x + w k x * db k)))) by (intros; ring).
  rewrite (total_plus ks (fun k => dw k * e k x + w k x * (m0 * da k + m1 * db k))).
  rewrite (total_plus ks (fun k => - m0 * (dw k * a k x + w k x * da k))), !total_scal.
  rewrite !total_plus in *. rewrite ZA, ZB. ring.
Qed.

Lemma inv_vm_eq : forall vm, inv_vm vm = per_volume vm.
Proof. intros vm. unfold inv_vm, per_volume, Rdiv. replace (10 ^ 6) with 1000000 by ring. rewrite Rinv_mult. reflexivity. Qed.

(** choice of derivative values *)
Lemma pick_slopes : forall ks (f : phase -> R -> R) x, (forall k, In k ks -> exists d, derivable_pt_lim (f k) x d) ->
  exists d, forall k, In k ks -> derivable_pt_lim (f k) x (d k).
Proof.
  induction ks as [| k ks IH]; intros f x H.
  - exists (fun _ => 0). intros k [].
  - destruct (H k (or_introl eq_refl)) as [d D]. destruct (IH f x) as [d' D'].
    { intros k' K. apply H. right. exact K. }
    assert (dec : forall u v : phase, {u = v} + {u <> v}) by decide equality.
    exists (fun q => if dec q k then d else d' q). intros q Q. destruct (dec q k) as [-> | N]; [exact D |].
    apply D'. destruct Q as [E | Q]; [congruence | exact Q].
Qed.

Lemma share : forall ks (w : phase -> R -> R) (W : R -> phase -> R) (y : phase -> R -> R) c s,
  total ks (fun k => W s k * y k s) = c -> (forall k, In k ks -> w k s = W s k) -> total ks (fun k => w k s * y k s) = c.
Proof. intros ks w W y c s E H. rewrite <- E. apply total_ext. intros k K. rewrite (H k K). reflexivity. Qed.
Lemma solved_slope : forall lib t ks W x c comp (w : phase -> R -> R) dw conv k0, solved lib t ks W x c comp -> In k0 ks ->
  around x (fun s => forall k, In k ks -> w k s = W s k) -> (forall k, In k ks -> derivable_pt_lim (w k) x (dw k)) ->
  derivable_pt_lim (density lib t (fun _ => conv) ks (fun s k => w k s) comp) x
    (total ks (fun k => dw k * (conv * molar lib k t (comp k x) - conv * dmolar lib k0 t (comp k0 x) * comp k x))).
Proof.
  intros lib t ks W x c comp w dw conv k0 (Hm & Hd & Hl & Hu) K0 Hw Hdw.
  destruct (pick_slopes ks comp x Hd) as [da Da].
  pose proof (envelope ks w (fun k s => conv * molar lib k t (comp k s)) comp (fun _ _ => 0) dw da (fun _ => 0) x
    (conv * dmolar lib k0 t (comp k0 x)) 0 c 0 Hdw Da) as E.
  unfold density. rewrite (total_ext ks _ (fun k => dw k * (conv * molar lib k t (comp k x) - conv * dmolar lib k0 t (comp k0 x) * comp k x - 0 * 0))) by (intros; ring).
  apply E.
  - intros. apply (derivable_pt_lim_const 0).
  - intros k K. rewrite Rmult_0_l, Rplus_0_r.
    replace (conv * dmolar lib k0 t (comp k0 x) * da k) with (conv * (dmolar lib k t (comp k x) * da k)) by (rewrite (Hu k k0 K K0); ring).
    apply (derivable_pt_lim_scal (fun s => molar lib k t (comp k s)) conv). apply (derivable_pt_lim_comp (comp k) (molar lib k t)); [apply Da; exact K | apply Hl; exact K].
  - apply (around_and x _ _ _ (share ks w (fun s k => W s k) comp c) Hm Hw).
  - apply around_all. intros s. rewrite (total_ext ks _ (fun k => 0 * w k s)) by (intros; ring). rewrite total_scal. ring.
Qed.
Lemma solved2_slope : forall lib t ks W x c0 c1 u0 u1 (w : phase -> R -> R) dw conv k0, solved2 lib t ks W x c0 c1 u0 u1 -> In k0 ks ->
  around x (fun s => forall k, In k ks -> w k s = W s k) -> (forall k, In k ks -> derivable_pt_lim (w k) x (dw k)) ->
  derivable_pt_lim (density2 lib t (fun _ => conv) ks (fun s k => w k s) u0 u1) x
    (total ks (fun k => dw k * (conv * molar2 lib k t (u0 k x) (u1 k x)
       - conv * fst (dmolar2 lib k0 t (u0 k0 x) (u1 k0 x)) * u0 k x - conv * snd (dmolar2 lib k0 t (u0 k0 x) (u1 k0 x)) * u1 k x))).
Proof.
  intros lib t ks W x c0 c1 u0 u1 w dw conv k0 (Hm0 & Hm1 & Hd & Hl & Hu) K0 Hw Hdw.
  destruct (pick_slopes ks u0 x (fun k K => proj1 (Hd k K))) as [da Da].
  destruct (pick_slopes ks u1 x (fun k K => proj2 (Hd k K))) as [db Db].
  apply (envelope ks w (fun k s => conv * molar2 lib k t (u0 k s) (u1 k s)) u0 u1 dw da db x _ _ c0 c1 Hdw Da Db).
  - intros k K. rewrite <- (Hu k k0 K K0).
    replace (conv * fst (dmolar2 lib k t (u0 k x) (u1 k x)) * da k + conv * snd (dmolar2 lib k t (u0 k x) (u1 k x)) * db k)
      with (conv * (fst (dmolar2 lib k t (u0 k x) (u1 k x)) * da k + snd (dmolar2 lib k t (u0 k x) (u1 k x)) * db k)) by ring.
    apply (derivable_pt_lim_scal (fun s => molar2 lib k t (u0 k s) (u1 k s)) conv).
    apply (Hl k K (u0 k) (u1 k) x); [reflexivity | reflexivity | apply Da; exact K | apply Db; exact K].
  - apply (around_and x _ _ _ (share ks w (fun s k => W s k) u0 c0) Hm0 Hw).
  - apply (around_and x _ _ _ (share ks w (fun s k => W s k) u1 c1) Hm1 Hw).
Qed.

(** ** one phase field *)
Lemma slope_interp : forall it x, interp_slope_ok it x ->
  derivable_pt_lim (fun s => val (interp_func s it)) x (val (deriv_interp_func x it)).
Proof.
  intros it x H. assert (D : derivative_at (fun y => interp_func y it) (fun y => deriv_interp_func y it) x)
    by (destruct H as [H | [-> H]]; [apply deriv_interp_ok; cbn in *; tauto | apply deriv_interp_l; exact H]).
  destruct D as (F & d & E1 & E2 & D). rewrite E2. cbn [Energy_Model.val].
  apply (derivable_pt_lim_ext F); [intros y; rewrite E1; reflexivity | exact D].
Qed.
Lemma slope_weights : forall h dh x k, derivable_pt_lim h x dh ->
  derivable_pt_lim (fun s => weights2 h s k) x (match k with PhL => - dh | PhA => dh | PhB => 0 end).
Proof.
  intros h dh x k D. destruct k; cbn [weights2].
  - replace (- dh) with (0 - dh) by ring. apply (derivable_pt_lim_minus (fun _ => 1) h); [apply derivable_pt_lim_const | exact D].
  - exact D.
  - apply derivable_pt_lim_const.
Qed.
Lemma energy_val : forall lib ph vm b temp c f i j, in_cells b i j ->
  computeFreeEnergy lib ph vm b temp c f i j = per_volume vm * molar lib ph (temp i j) (c i j).
Proof. intros. unfold computeFreeEnergy. rewrite cells_val by assumption. rewrite inv_vm_eq. ring. Qed.
Lemma energy2_val : forall lib ph vm b temp c0 c1 f i j, in_cells b i j ->
  computeFreeEnergy2 lib ph vm b temp c0 c1 f i j = per_volume vm * molar2 lib ph (temp i j) (c0 i j) (c1 i j).
Proof. intros. unfold computeFreeEnergy2. rewrite cells_val by assumption. rewrite inv_vm_eq. ring. Qed.
Lemma kks_val : forall s lib vml vma it b temp phi cl ca fl fa rhs rhs' i j, in_cells b i j ->
  kks_rhs s lib vml vma it b temp phi cl ca fl fa rhs = Some rhs' ->
  rhs' i j - rhs i j = val (deriv_interp_func (phi i j) it) *
    ((per_volume vml * molar lib PhL (temp i j) (cl i j) - per_volume vma * molar lib PhA (temp i j) (ca i j))
     - match mu_phase s with PhL => per_volume vml * dmolar lib PhL (temp i j) (cl i j) | _ => per_volume vma * dmolar lib PhA (temp i j) (ca i j) end
       * (cl i j - ca i j)).
Proof.
  intros s lib vml vma it b temp phi cl ca fl fa rhs rhs' i j H E. unfold kks_rhs, addDrivingForce2 in E. cbv zeta in E.
  destruct (deriv_known it); [| discriminate]. assert (E' : rhs' = cells b (fun i j r =>
      r + val (deriv_interp_func (phi i j) it) * (computeFreeEnergy lib PhL vml b temp cl fl i j - computeFreeEnergy lib PhA vma b temp ca fa i j -
      match mu_phase s with PhL => computeMu lib PhL vml (temp i j) (cl i j) | _ => computeMu lib PhA vma (temp i j) (ca i j) end * (cl i j - ca i j))) rhs) by congruence.
  rewrite E', cells_val by exact H. rewrite !energy_val by exact H. unfold computeMu. rewrite !inv_vm_eq. destruct s; cbn [mu_phase]; ring.
Qed.

Lemma kks_gradient : forall s lib vm it b temp phi cl ca fl fa rhs rhs' i j c comp,
  in_cells b i j -> interp_slope_ok it (phi i j) ->
  solved lib (temp i j) [PhL; PhA] (split2 it) (phi i j) c comp ->
  cl i j = comp PhL (phi i j) -> ca i j = comp PhA (phi i j) ->
  kks_rhs s lib vm vm it b temp phi cl ca fl fa rhs = Some rhs' ->
  derivable_pt_lim (density lib (temp i j) (fun _ => per_volume vm) [PhL; PhA] (weights2 (fun x => val (interp_func x it))) comp) (phi i j)
    (- (rhs' i j - rhs i j)).
Proof.
  intros s lib vm it b temp phi cl ca fl fa rhs rhs' i j c comp H Hit Hs Hl Ha E.
  rewrite (kks_val s lib vm vm it b temp phi cl ca fl fa rhs rhs' i j H E), Hl, Ha.
  pose proof (solved_slope lib (temp i j) [PhL; PhA] (split2 it) (phi i j) c comp (fun k x => weights2 (fun x => val (interp_func x it)) x k)
    (fun k => match k with PhL => - val (deriv_interp_func (phi i j) it) | PhA => val (deriv_interp_func (phi i j) it) | PhB => 0 end)
    (per_volume vm) (mu_phase s) Hs) as D.
  match type of D with ?a -> ?b -> ?c -> _ => assert (Da : a) end. { destruct s; cbn; auto. }
  specialize (D Da). match type of D with ?b -> ?c -> _ => assert (Db : b) end. { apply around_all. intros x k _. destruct k; reflexivity. }
  specialize (D Db). match type of D with ?c -> _ => assert (Dc : c) end. { intros k _. apply slope_weights. apply slope_interp. exact Hit. }
  specialize (D Dc). cbn [total fold_right] in D. unfold density in *.
  match type of D with derivable_pt_lim _ _ ?d => replace (- _) with d; [exact D |] end.
  destruct s; cbn [mu_phase]; ring.
Qed.

Lemma ternary_gradient : forall lib vm it b temp phi cl0 cl1 ca0 ca1 fl fa rhs rhs' i j c0 c1 u0 u1,
  in_cells b i j -> interp_slope_ok it (phi i j) ->
  solved2 lib (temp i j) [PhL; PhA] (split2 it) (phi i j) c0 c1 u0 u1 ->
  cl0 i j = u0 PhL (phi i j) -> ca0 i j = u0 PhA (phi i j) -> cl1 i j = u1 PhL (phi i j) -> ca1 i j = u1 PhA (phi i j) ->
  kks_rhs_ternary lib vm vm it b temp phi cl0 cl1 ca0 ca1 fl fa rhs = Some rhs' ->
  derivable_pt_lim (density2 lib (temp i j) (fun _ => per_volume vm) [PhL; PhA] (weights2 (fun x => val (interp_func x it))) u0 u1) (phi i j)
    (- (rhs' i j - rhs i j)).
Proof.
  intros lib vm it b temp phi cl0 cl1 ca0 ca1 fl fa rhs rhs' i j c0 c1 u0 u1 H Hit Hs Hl0 Ha0 Hl1 Ha1 E.
  unfold kks_rhs_ternary in E. cbv zeta in E. destruct (deriv_known it); [| discriminate].
  assert (V : rhs' i j - rhs i j = val (deriv_interp_func (phi i j) it) *
    ((per_volume vm * molar2 lib PhL (temp i j) (cl0 i j) (cl1 i j) - per_volume vm * molar2 lib PhA (temp i j) (ca0 i j) (ca1 i j))
     - per_volume vm * fst (dmolar2 lib PhA (temp i j) (ca0 i j) (ca1 i j)) * (cl0 i j - ca0 i j)
     - per_volume vm * snd (dmolar2 lib PhA (temp i j) (ca0 i j) (ca1 i j)) * (cl1 i j - ca1 i j))).
  { apply (f_equal (fun o => match o with Some r => r i j | None => 0 end)) in E. cbv beta iota in E. rewrite <- E.
    rewrite cells_val by exact H. rewrite !energy2_val by exact H. unfold computeMu2. cbn [fst snd]. rewrite !inv_vm_eq. ring. }
  rewrite V, Hl0, Ha0, Hl1, Ha1.
  pose proof (solved2_slope lib (temp i j) [PhL; PhA] (split2 it) (phi i j) c0 c1 u0 u1 (fun k x => weights2 (fun x => val (interp_func x it)) x k)
    (fun k => match k with PhL => - val (deriv_interp_func (phi i j) it) | PhA => val (deriv_interp_func (phi i j) it) | PhB => 0 end)
    (per_volume vm) PhA Hs) as D.
  match type of D with ?a -> ?b -> ?c -> _ => assert (Da : a) end. { cbn; auto. }
  specialize (D Da). match type of D with ?b -> ?c -> _ => assert (Db : b) end. { apply around_all. intros x k _. destruct k; reflexivity. }
  specialize (D Db). match type of D with ?c -> _ => assert (Dc : c) end. { intros k _. apply slope_weights. apply slope_interp. exact Hit. }
  specialize (D Dc). cbn [total fold_right] in D. unfold density2 in *.
  match type of D with derivable_pt_lim _ _ ?d => replace (- _) with d; [exact D |] end. ring.
Qed.

(** nothing outside the patch is written *)
Lemma cells_out : forall b f a i j, ~ in_cells b i j -> cells b f a i j = a i j.
Proof.
  intros b f a i j H. unfold cells. rewrite cells_loop. destruct (inb_spec (lo0 b) (hi0 b) i) as [I | I]; [| reflexivity].
  destruct (inb_spec (lo1 b) (hi1 b) j) as [J | J]; [| reflexivity]. exfalso. apply H. split; auto.
Qed.
Lemma kks_only : forall s lib vml vma it b temp phi cl ca fl fa rhs rhs' i j, ~ in_cells b i j ->
  kks_rhs s lib vml vma it b temp phi cl ca fl fa rhs = Some rhs' -> rhs' i j = rhs i j.
Proof.
  intros s lib vml vma it b temp phi cl ca fl fa rhs rhs' i j N E. unfold kks_rhs, addDrivingForce2 in E. cbv zeta in E.
  destruct (deriv_known it); [| discriminate]. apply (f_equal (fun o => match o with Some r => r i j | None => 0 end)) in E. cbv beta iota in E. rewrite <- E.
  apply cells_out. exact N.
Qed.

(** direction of the force *)
Lemma kks_direction : forall s lib vml vma it b temp phi cl ca fl fa rhs rhs' i j m, in_cells b i j -> 0 < phi i j < 1 -> In it ["l"; "p"; "h"]%char ->
  per_volume vml * dmolar lib PhL (temp i j) (cl i j) = m -> per_volume vma * dmolar lib PhA (temp i j) (ca i j) = m ->
  kks_rhs s lib vml vma it b temp phi cl ca fl fa rhs = Some rhs' ->
  let gl := per_volume vml * molar lib PhL (temp i j) (cl i j) - m * cl i j in
  let ga := per_volume vma * molar lib PhA (temp i j) (ca i j) - m * ca i j in
  (ga < gl <-> rhs i j < rhs' i j) /\ (gl < ga <-> rhs' i j < rhs i j) /\
  ((forall x, per_volume vml * molar lib PhL (temp i j) (cl i j) + m * (x - cl i j) = per_volume vma * molar lib PhA (temp i j) (ca i j) + m * (x - ca i j)) <->
   rhs' i j = rhs i j).
Proof.
  intros s lib vml vma it b temp phi cl ca fl fa rhs rhs' i j m H Hp Hit Ml Ma E gl ga.
  pose proof (kks_val s lib vml vma it b temp phi cl ca fl fa rhs rhs' i j H E) as V. rewrite Ml, Ma in V.
  assert (P : 0 < val (deriv_interp_func (phi i j) it)).
  { assert (C : forall y, 0 < y < 1 -> clamp01 y = y) by (intros y Y; unfold clamp01; rewrite Rmin_right by lra; apply Rmax_right; lra).
    destruct Hit as [<- | [<- | [<- | []]]]; cbn [deriv_interp_func Energy_Model.val]; rewrite ?(C _ Hp).
    - destruct (Rlt_dec 0 (phi i j)); lra.
    - repeat apply Rmult_lt_0_compat; lra.
    - repeat apply Rmult_lt_0_compat; lra. }
  set (k := val (deriv_interp_func (phi i j) it)) in *.
  assert (V' : rhs' i j - rhs i j = k * (gl - ga)) by (rewrite V; unfold gl, ga; destruct s; cbn [mu_phase]; ring).
  clearbody k. clear V E. unfold gl, ga in *. clear gl ga.
  set (Fl := per_volume vml * molar lib PhL (temp i j) (cl i j)) in *. set (Fa := per_volume vma * molar lib PhA (temp i j) (ca i j)) in *.
  set (d := Fl - m * cl i j - (Fa - m * ca i j)) in *.
  split; [| split].
  - split; intro X.
    + assert (0 < k * d) by (apply Rmult_lt_0_compat; unfold d; lra). lra.
    + destruct (Rlt_le_dec 0 d) as [D | D]; [unfold d in D; lra |]. assert (0 <= k * - d) by (apply Rmult_le_pos; lra). lra.
  - split; intro X.
    + assert (0 < k * - d) by (apply Rmult_lt_0_compat; unfold d; lra). lra.
    + destruct (Rlt_le_dec d 0) as [D | D]; [unfold d in D; lra |]. assert (0 <= k * d) by (apply Rmult_le_pos; lra). lra.
  - split; intro X.
    + specialize (X 0). assert (d = 0) by (unfold d; lra). rewrite H0 in V'. lra.
    + assert (Z : k * d = 0) by lra. apply Rmult_integral in Z. destruct Z as [Z | Z]; [lra |]. intros x. unfold d in Z. lra.
Qed.
(** the smooth interpolations give no force in the pure phases and beyond *)
Lemma kks_pure : forall s lib vml vma it b temp phi cl ca fl fa rhs rhs' i j, in_cells b i j -> phi i j <= 0 \/ 1 <= phi i j -> In it ["p"; "h"]%char ->
  kks_rhs s lib vml vma it b temp phi cl ca fl fa rhs = Some rhs' -> rhs' i j = rhs i j.
Proof.
  intros s lib vml vma it b temp phi cl ca fl fa rhs rhs' i j H Hp Hit E.
  pose proof (kks_val s lib vml vma it b temp phi cl ca fl fa rhs rhs' i j H E) as V.
  assert (P : val (deriv_interp_func (phi i j) it) = 0).
  { assert (C : clamp01 (phi i j) = 0 \/ clamp01 (phi i j) = 1).
    { unfold clamp01. destruct Hp as [Hp | Hp].
      - left. rewrite Rmin_right by lra. apply Rmax_left. lra.
      - right. rewrite Rmin_left by lra. apply Rmax_right. lra. }
    destruct Hit as [<- | [<- | []]]; cbn [deriv_interp_func Energy_Model.val]; destruct C as [-> | ->]; ring. }
  rewrite P in V. lra.
Qed.

(** ** several order parameters *)
Lemma group_sum : forall lo hi u, group lo hi u = square_sum lo hi u.
Proof. intros. unfold group, square_sum. rewrite loop_sum, Rplus_0_l. apply sumZ_ext. intros. ring. Qed.
Lemma square_sum_all : forall nA n u, (0 <= nA <= n - 1)%Z ->
  square_sum 0 (n - 1) u = u (n - 1)%Z ^ 2 + square_sum 0 (nA - 1) u + square_sum nA (n - 2) u.
Proof.
  intros nA n u H. unfold square_sum. rewrite (sumZ_snoc 0 (n - 1)) by lia. replace (n - 1 - 1)%Z with (n - 2)%Z by lia.
  rewrite (sumZ_split 0 (nA - 1) (n - 2)) by lia. replace (nA - 1 + 1)%Z with nA by lia. ring.
Qed.
Lemma split_multi3_weights : forall nA n u k, (0 <= nA <= n - 1)%Z -> split_multi3 nA n u k = square_weights nA n u k.
Proof.
  intros nA n u k H. unfold split_multi3, square_weights. cbv zeta. rewrite !group_sum. rewrite (square_sum_all nA n u H).
  replace (u (n - 1)%Z * u (n - 1)%Z) with (u (n - 1)%Z ^ 2) by ring. unfold Rdiv. destruct k; ring.
Qed.
Lemma store_loop : forall lo hi g v q, do_loop lo hi (fun i v => store v i (g i)) v q = if inb lo hi q then g q else v q.
Proof.
  intros lo hi g v q. destruct (inb_spec lo hi q) as [Q | Q].
  - destruct (loop_once (Z -> R) (fun s s' => s' q = s q) lo hi q (fun i v => store v i (g i)) v) as (s1 & U0 & U1); auto.
    + intros x y z H1 H2. congruence.
    + intros i s _ Hi. unfold store. destruct (Z.eqb_spec q i); [congruence | reflexivity].
    + rewrite U1. unfold store. rewrite Z.eqb_refl. reflexivity.
  - apply (loop_never (Z -> R) (fun s s' => s' q = s q)); [reflexivity | congruence |].
    intros i s Hi. unfold store. destruct (Z.eqb_spec q i); [lia | reflexivity].
Qed.
Definition of_phase {A} (l a b : A) (k : phase) : A := match k with PhL => l | PhA => a | PhB => b end.
Lemma multi_forces3_val : forall nA n u dfl dfa dfb v q, (0 <= nA <= n - 1)%Z -> (0 <= q <= n - 1)%Z ->
  multi_forces3 nA n u dfl dfa dfb v q =
    2 * u q / square_sum 0 (n - 1) u * (of_phase dfl dfa dfb (phase_of nA n q)
      - total [PhL; PhA; PhB] (fun k => square_weights nA n u k * of_phase dfl dfa dfb k)).
Proof.
  intros nA n u dfl dfa dfb v q H Q. unfold multi_forces3. cbv zeta. rewrite !group_sum.
  replace (u (n - 1)%Z * u (n - 1)%Z) with (u (n - 1)%Z ^ 2) by ring.
  unfold square_weights. rewrite <- (square_sum_all nA n u H).
  unfold store at 1. unfold phase_of. cbn [total fold_right of_phase]. unfold Rdiv. set (S := / square_sum 0 (n - 1) u).
  destruct (Z.eqb_spec q (n - 1)) as [-> | N]; [cbn [of_phase]; ring |].
  rewrite store_loop. destruct (Z.ltb_spec q nA) as [L | L].
  - destruct (inb_spec nA (n - 2) q); [lia |]. rewrite store_loop, inb_true by lia. cbn [of_phase]. ring.
  - rewrite inb_true by lia. cbn [of_phase]. ring.
Qed.
Lemma multi_cells_val : forall b n F rhs i j q, in_cells b i j -> (0 <= q <= n - 1)%Z -> multi_cells b n F rhs i j q = rhs i j q - F i j q.
Proof.
  intros b n F rhs i j p Hij Hp. unfold multi_cells. set (T := fun s s' : arr3 => s' i j p = s i j p).
  destruct (cells_once arr3 T (lo0 b) (hi0 b) (lo1 b) (hi1 b) i j (fun i j s =>
    let v := F i j in do_loop 0 (n - 1) (fun p s => upd3 s i j p (s i j p - v p)) s) rhs) as (s0 & T0 & T1); auto.
  - intros s. reflexivity.
  - intros x y z H1 H2. unfold T in *. congruence.
  - intros k l s _ Hne. unfold T. cbv zeta. symmetry.
    apply (loop_never arr3 (fun s s' => s i j p = s' i j p)); [reflexivity | congruence |].
    intros ip s' _. rewrite upd3_other by lia. reflexivity.
  - unfold T in T0, T1. rewrite T1. clear T1. cbv zeta.
    destruct (loop_once arr3 T 0 (n - 1) p (fun p s => upd3 s i j p (s i j p - F i j p)) s0) as (s1 & U0 & U1).
    + intro s. reflexivity.
    + intros x y z H1 H2. unfold T in *. congruence.
    + lia.
    + intros ip s _ Hip. unfold T. rewrite upd3_other by lia. reflexivity.
    + unfold T in U0, U1. rewrite U1, upd3_same, U0, T0. reflexivity.
Qed.
Lemma multi_cells_others : forall b n F rhs i j q, ~ (in_cells b i j /\ (0 <= q <= n - 1)%Z) -> multi_cells b n F rhs i j q = rhs i j q.
Proof.
  intros b n F rhs i j p H. unfold multi_cells. apply (cells_never arr3 (fun s s' => s' i j p = s i j p)); [reflexivity | congruence |].
  intros k l s Hkl. cbv zeta. apply (loop_never arr3 (fun s s' => s' i j p = s i j p)); [reflexivity | congruence |].
  intros ip s' Hip. apply upd3_other.
  destruct (Z.eq_dec i k) as [-> |]; [| auto]. destruct (Z.eq_dec j l) as [-> |]; [| auto]. right; right. intros ->. apply H. split; auto.
Qed.
(** slope of the weights of the squares *)
Lemma square_sum_component : forall lo hi u p x, square_sum lo hi (with_component u p x) = square_sum lo hi u + (if inb lo hi p then x ^ 2 - u p ^ 2 else 0).
Proof.
  intros lo hi u p x. unfold square_sum. destruct (inb_spec lo hi p) as [P | P].
  - rewrite (sumZ_split lo (p - 1) hi), (sumZ_split lo (p - 1) hi (fun p => u p ^ 2)) by lia.
    replace (p - 1 + 1)%Z with p by lia. rewrite (sumZ_cons p hi), (sumZ_cons p hi (fun p => u p ^ 2)) by lia.
    rewrite (sumZ_ext lo (p - 1) (fun q => with_component u p x q ^ 2) (fun q => u q ^ 2)).
    2: { intros q Hq. unfold with_component. destruct (Z.eqb_spec q p); [lia | reflexivity]. }
    rewrite (sumZ_ext (p + 1) hi (fun q => with_component u p x q ^ 2) (fun q => u q ^ 2)).
    2: { intros q Hq. unfold with_component. destruct (Z.eqb_spec q p); [lia | reflexivity]. }
    unfold with_component at 1. rewrite Z.eqb_refl. ring.
  - rewrite (sumZ_ext lo hi (fun q => with_component u p x q ^ 2) (fun q => u q ^ 2)); [ring |].
    intros q Hq. unfold with_component. destruct (Z.eqb_spec q p); [lia | reflexivity].
Qed.
Definition same_phase (k k' : phase) : R := match k, k' with PhL, PhL | PhA, PhA | PhB, PhB => 1 | _, _ => 0 end.
Lemma square_weights_component : forall nA n u p x k, (0 <= nA <= n - 1)%Z -> (0 <= p <= n - 1)%Z ->
  square_weights nA n (with_component u p x) k =
    (of_phase (u (n - 1)%Z ^ 2) (square_sum 0 (nA - 1) u) (square_sum nA (n - 2) u) k + same_phase k (phase_of nA n p) * (x ^ 2 - u p ^ 2))
    / (square_sum 0 (n - 1) u + (x ^ 2 - u p ^ 2)).
Proof.
  intros nA n u p x k H P. unfold square_weights. rewrite !square_sum_component. rewrite (inb_true 0 (n - 1) p) by lia. f_equal.
  unfold with_component, phase_of. destruct k; cbn [of_phase].
  - rewrite Z.eqb_sym. destruct (Z.eqb_spec p (n - 1)) as [-> | N]; cbn [same_phase]; [ring |]. destruct (p <? nA)%Z; cbn [same_phase]; ring.
  - destruct (Z.eqb_spec p (n - 1)) as [-> | N]; cbn [same_phase].
    + destruct (inb_spec 0 (nA - 1) (n - 1)); [lia | ring].
    + destruct (Z.ltb_spec p nA); cbn [same_phase]; destruct (inb_spec 0 (nA - 1) p); try lia; ring.
  - destruct (Z.eqb_spec p (n - 1)) as [-> | N]; cbn [same_phase].
    + destruct (inb_spec nA (n - 2) (n - 1)); [lia | ring].
    + destruct (Z.ltb_spec p nA); cbn [same_phase]; destruct (inb_spec nA (n - 2) p); try lia; ring.
Qed.
Lemma square_weights_slope : forall nA n u p k, (0 <= nA <= n - 1)%Z -> (0 <= p <= n - 1)%Z -> square_sum 0 (n - 1) u <> 0 ->
  derivable_pt_lim (fun x => square_weights nA n (with_component u p x) k) (u p)
    (2 * u p / square_sum 0 (n - 1) u * (same_phase k (phase_of nA n p) - square_weights nA n u k)).
Proof.
  intros nA n u p k H P S.
  apply (derivable_pt_lim_ext (fun x => (of_phase (u (n - 1)%Z ^ 2) (square_sum 0 (nA - 1) u) (square_sum nA (n - 2) u) k
    + same_phase k (phase_of nA n p) * (x ^ 2 - u p ^ 2)) / (square_sum 0 (n - 1) u + (x ^ 2 - u p ^ 2)))).
  - intros x. symmetry. apply square_weights_component; auto.
  - unfold square_weights. change (match k with PhL => _ | PhA => _ | PhB => _ end) with
      (of_phase (u (n - 1)%Z ^ 2) (square_sum 0 (nA - 1) u) (square_sum nA (n - 2) u) k).
    set (N := of_phase _ _ _ k). set (Q := square_sum 0 (n - 1) u) in *. set (e := same_phase k (phase_of nA n p)). clearbody N Q e.
    apply is_derive_Reals. auto_derive.
    + replace (_ + _) with Q by ring. exact S.
    + replace (Q + (u p * (u p * 1) + - (u p ^ 2))) with Q by ring. field. exact S.
Qed.
Lemma total_pick : forall k0 g, total [PhL; PhA; PhB] (fun k => same_phase k k0 * g k) = g k0.
Proof. intros k0 g. destruct k0; cbn [total fold_right same_phase]; ring. Qed.
Definition triple {A} (g : phase -> A) (k : phase) : A := of_phase (g PhL) (g PhA) (g PhB) k.
Lemma triple_eq : forall A (g : phase -> A) k, of_phase (g PhL) (g PhA) (g PhB) k = g k.
Proof. intros A g k. destruct k; reflexivity. Qed.
Lemma weighted_slope : forall (w : phase -> R) k0 g c,
  total [PhL; PhA; PhB] (fun k => c * (same_phase k k0 - w k) * g k) = c * (g k0 - total [PhL; PhA; PhB] (fun k => w k * g k)).
Proof. intros w k0 g c. destruct k0; cbn [total fold_right same_phase]; ring. Qed.

Lemma multi3_gradient : forall lib vm b nA n temp phi comps fl fa fb rhs i j p c comp, in_cells b i j -> (0 <= nA <= n - 1)%Z -> (0 <= p <= n - 1)%Z ->
  square_sum 0 (n - 1) (phi i j) <> 0 ->
  solved lib (temp i j) [PhL; PhA; PhB] (fun s => split_multi3 nA n (with_component (phi i j) p s)) (phi i j p) c comp ->
  (forall k, comps k i j = comp k (phi i j p)) ->
  derivable_pt_lim (density lib (temp i j) (fun _ => per_volume vm) [PhL; PhA; PhB] (fun s => square_weights nA n (with_component (phi i j) p s)) comp) (phi i j p)
    (- (calphad_multi lib vm vm b nA n temp phi (comps PhL) (comps PhA) (Some (vm, comps PhB, fb)) fl fa rhs i j p - rhs i j p)).
Proof.
  intros lib vm b nA n temp phi comps fl fa fb rhs i j p c comp H HA P S Hs Hc.
  unfold calphad_multi. cbv zeta. rewrite multi_cells_val by auto. rewrite multi_forces3_val by auto.
  replace (- (rhs i j p - _ - rhs i j p)) with (2 * phi i j p / square_sum 0 (n - 1) (phi i j) *
    (of_phase (per_volume vm * molar lib PhL (temp i j) (comp PhL (phi i j p)) - per_volume vm * dmolar lib PhL (temp i j) (comp PhL (phi i j p)) * comp PhL (phi i j p))
       (per_volume vm * molar lib PhA (temp i j) (comp PhA (phi i j p)) - per_volume vm * dmolar lib PhL (temp i j) (comp PhL (phi i j p)) * comp PhA (phi i j p))
       (per_volume vm * molar lib PhB (temp i j) (comp PhB (phi i j p)) - per_volume vm * dmolar lib PhL (temp i j) (comp PhL (phi i j p)) * comp PhB (phi i j p)) (phase_of nA n p)
     - total [PhL; PhA; PhB] (fun k => square_weights nA n (phi i j) k *
         (per_volume vm * molar lib k (temp i j) (comp k (phi i j p)) - per_volume vm * dmolar lib PhL (temp i j) (comp PhL (phi i j p)) * comp k (phi i j p))))).
  2: { rewrite !energy_val by exact H. unfold computeMu. rewrite !inv_vm_eq, !Hc. cbn [total fold_right of_phase].
       destruct (phase_of nA n p); cbn [of_phase]; ring. }
  rewrite (triple_eq R (fun k => per_volume vm * molar lib k (temp i j) (comp k (phi i j p)) - per_volume vm * dmolar lib PhL (temp i j) (comp PhL (phi i j p)) * comp k (phi i j p))).
  rewrite <- (weighted_slope (square_weights nA n (phi i j)) (phase_of nA n p)
    (fun k => per_volume vm * molar lib k (temp i j) (comp k (phi i j p)) - per_volume vm * dmolar lib PhL (temp i j) (comp PhL (phi i j p)) * comp k (phi i j p))).
  apply (solved_slope lib (temp i j) [PhL; PhA; PhB] (fun s => split_multi3 nA n (with_component (phi i j) p s)) (phi i j p) c comp
    (fun k s => square_weights nA n (with_component (phi i j) p s) k)
    (fun k => 2 * phi i j p / square_sum 0 (n - 1) (phi i j) * (same_phase k (phase_of nA n p) - square_weights nA n (phi i j) k)) (per_volume vm) PhL Hs).
  - left. reflexivity.
  - apply around_all. intros s k _. symmetry. apply split_multi3_weights. exact HA.
  - intros k _. apply square_weights_slope; auto.
Qed.
Lemma ternary_multi_gradient : forall lib vm b nA n temp phi k0 k1 f rhs i j p c0 c1 u0 u1, in_cells b i j -> (0 <= nA <= n - 1)%Z -> (0 <= p <= n - 1)%Z ->
  square_sum 0 (n - 1) (phi i j) <> 0 ->
  solved2 lib (temp i j) [PhL; PhA; PhB] (fun s => split_multi3 nA n (with_component (phi i j) p s)) (phi i j p) c0 c1 u0 u1 ->
  (forall k, k0 k i j = u0 k (phi i j p)) -> (forall k, k1 k i j = u1 k (phi i j p)) ->
  derivable_pt_lim (density2 lib (temp i j) (fun _ => per_volume vm) [PhL; PhA; PhB] (fun s => square_weights nA n (with_component (phi i j) p s)) u0 u1) (phi i j p)
    (- (ternary_multi lib (fun _ => vm) b nA n temp phi k0 k1 f rhs i j p - rhs i j p)).
Proof.
  intros lib vm b nA n temp phi k0 k1 f rhs i j p c0 c1 u0 u1 H HA P S Hs H0 H1.
  unfold ternary_multi. cbv zeta. rewrite multi_cells_val by auto. rewrite multi_forces3_val by auto.
  assert (M : forall k, dmolar2 lib k (temp i j) (u0 k (phi i j p)) (u1 k (phi i j p)) = dmolar2 lib PhL (temp i j) (u0 PhL (phi i j p)) (u1 PhL (phi i j p))).
  { destruct Hs as (_ & _ & _ & _ & U). intros k. apply U; destruct k; cbn; auto. }
  set (g := fun k => per_volume vm * molar2 lib k (temp i j) (u0 k (phi i j p)) (u1 k (phi i j p))
    - per_volume vm * fst (dmolar2 lib PhL (temp i j) (u0 PhL (phi i j p)) (u1 PhL (phi i j p))) * u0 k (phi i j p)
    - per_volume vm * snd (dmolar2 lib PhL (temp i j) (u0 PhL (phi i j p)) (u1 PhL (phi i j p))) * u1 k (phi i j p)).
  assert (G : forall k, computeFreeEnergy2 lib k vm b temp (k0 k) (k1 k) (f k) i j
    - fst (computeMu2 lib k vm (temp i j) (k0 k i j) (k1 k i j)) * k0 k i j - snd (computeMu2 lib k vm (temp i j) (k0 k i j) (k1 k i j)) * k1 k i j = g k).
  { intros k. rewrite energy2_val by exact H. unfold computeMu2. cbv zeta. cbn [fst snd]. rewrite !inv_vm_eq, !H0, !H1, (M k). unfold g. ring. }
  rewrite !G. rewrite (triple_eq R g).
  replace (- (rhs i j p - _ - rhs i j p)) with (2 * phi i j p / square_sum 0 (n - 1) (phi i j) *
    (g (phase_of nA n p) - total [PhL; PhA; PhB] (fun k => square_weights nA n (phi i j) k * g k))).
  2: { cbn [total fold_right of_phase]. ring. }
  rewrite <- (weighted_slope (square_weights nA n (phi i j)) (phase_of nA n p) g).
  apply (solved2_slope lib (temp i j) [PhL; PhA; PhB] (fun s => split_multi3 nA n (with_component (phi i j) p s)) (phi i j p) c0 c1 u0 u1
    (fun k s => square_weights nA n (with_component (phi i j) p s) k)
    (fun k => 2 * phi i j p / square_sum 0 (n - 1) (phi i j) * (same_phase k (phase_of nA n p) - square_weights nA n (phi i j) k)) (per_volume vm) PhL Hs).
  - left. reflexivity.
  - apply around_all. intros s k _. symmetry. apply split_multi3_weights. exact HA.
  - intros k _. apply square_weights_slope; auto.
Qed.

(** the forces do not drive the common amplitude of the order parameters *)
Lemma forces3_balance : forall nA n u dfl dfa dfb v, (0 <= nA <= n - 1)%Z -> square_sum 0 (n - 1) u <> 0 ->
  sumZ 0 (n - 1) (fun q => u q * multi_forces3 nA n u dfl dfa dfb v q) = 0.
Proof.
  intros nA n u dfl dfa dfb v H S. set (m := total [PhL; PhA; PhB] (fun k => square_weights nA n u k * of_phase dfl dfa dfb k)).
  set (Q := square_sum 0 (n - 1) u) in *.
  assert (G : forall lo hi k, (forall q, (lo <= q <= hi)%Z -> (0 <= q <= n - 1)%Z /\ phase_of nA n q = k) ->
    sumZ lo hi (fun q => u q * multi_forces3 nA n u dfl dfa dfb v q) = 2 / Q * (of_phase dfl dfa dfb k - m) * square_sum lo hi u).
  { intros lo hi k K. unfold square_sum. rewrite <- sumZ_scal. apply sumZ_ext. intros q Hq. destruct (K q Hq) as [Kq Ke].
    rewrite multi_forces3_val by auto. rewrite Ke. fold m Q. unfold Rdiv. ring. }
  rewrite (sumZ_snoc 0 (n - 1)) by lia. replace (n - 1 - 1)%Z with (n - 2)%Z by lia.
  rewrite (sumZ_split 0 (nA - 1) (n - 2)) by lia. replace (nA - 1 + 1)%Z with nA by lia.
  assert (GA : forall q, (0 <= q <= nA - 1)%Z -> (0 <= q <= n - 1)%Z /\ phase_of nA n q = PhA).
  { intros q Hq. split; [lia |]. unfold phase_of. destruct (Z.eqb_spec q (n - 1)); [lia |]. destruct (Z.ltb_spec q nA); [reflexivity | lia]. }
  assert (GB : forall q, (nA <= q <= n - 2)%Z -> (0 <= q <= n - 1)%Z /\ phase_of nA n q = PhB).
  { intros q Hq. split; [lia |]. unfold phase_of. destruct (Z.eqb_spec q (n - 1)); [lia |]. destruct (Z.ltb_spec q nA); [lia | reflexivity]. }
  rewrite (G _ _ _ GA), (G _ _ _ GB), multi_forces3_val by lia.
  unfold phase_of. rewrite Z.eqb_refl. fold m Q. cbn [of_phase].
  assert (E : m * Q = u (n - 1)%Z ^ 2 * dfl + square_sum 0 (nA - 1) u * dfa + square_sum nA (n - 2) u * dfb).
  { unfold m, square_weights. fold Q. cbn [total fold_right of_phase]. field. exact S. }
  pose proof (square_sum_all nA n u H) as A. fold Q in A.
  apply (Rmult_eq_reg_r Q); [| exact S]. rewrite Rmult_0_l.
  transitivity (2 * (u (n - 1)%Z ^ 2 * dfl + square_sum 0 (nA - 1) u * dfa + square_sum nA (n - 2) u * dfb
     - m * (u (n - 1)%Z ^ 2 + square_sum 0 (nA - 1) u + square_sum nA (n - 2) u))).
  - field. exact S.
  - rewrite <- A, <- E. ring.
Qed.

(** one solid phase: the forces are those of an empty phase B *)
Lemma multi_forces2_eq : forall n u dfl dfs v q, (1 <= n)%Z -> (0 <= q <= n - 1)%Z -> square_sum 0 (n - 1) u <> 0 ->
  multi_forces2 n u dfl dfs v q = multi_forces3 (n - 1) n u dfl dfs 0 v q.
Proof.
  intros n u dfl dfs v q Hn Q S. rewrite multi_forces3_val by lia. unfold multi_forces2. cbv zeta. rewrite !group_sum.
  replace (u (n - 1)%Z * u (n - 1)%Z) with (u (n - 1)%Z ^ 2) by ring.
  pose proof (square_sum_all (n - 1) n u ltac:(lia)) as A. replace (n - 1 - 1)%Z with (n - 2)%Z in A by lia.
  unfold square_weights. replace (n - 1 - 1)%Z with (n - 2)%Z by lia.
  assert (Z0 : square_sum (n - 1) (n - 2) u = 0) by (unfold square_sum; apply sumZ_empty; lia).
  rewrite Z0 in *. unfold phase_of, store at 1. cbn [total fold_right of_phase].
  set (L := u (n - 1)%Z ^ 2) in *. set (B := square_sum 0 (n - 2) u) in *. set (K := square_sum 0 (n - 1) u) in *.
  assert (E : K = L + B) by lra. rewrite E in *. clear E A.
  destruct (Z.eqb_spec q (n - 1)) as [-> | N]; [cbn [of_phase]; field; exact S |].
  rewrite store_loop, inb_true by lia. destruct (Z.ltb_spec q (n - 1)); [| lia]. cbn [of_phase]. field. exact S.
Qed.
Lemma calphad_balance : forall lib vml vma b nA n temp phi cl ca B fl fa rhs i j, in_cells b i j -> (0 <= nA <= n - 1)%Z -> square_sum 0 (n - 1) (phi i j) <> 0 ->
  sumZ 0 (n - 1) (fun q => phi i j q * (calphad_multi lib vml vma b nA n temp phi cl ca B fl fa rhs i j q - rhs i j q)) = 0.
Proof.
  intros lib vml vma b nA n temp phi cl ca B fl fa rhs i j H HA S. unfold calphad_multi. cbv zeta.
  match goal with |- sumZ _ _ (fun q => _ * (multi_cells _ _ ?F _ _ _ _ - _)) = 0 => set (G := F) end.
  rewrite (sumZ_ext 0 (n - 1) _ (fun q => (-1) * (phi i j q * G i j q))) by (intros; rewrite multi_cells_val by auto; ring).
  rewrite sumZ_scal. unfold G. rewrite forces3_balance by auto. ring.
Qed.
Lemma quadratic_balance : forall lib vml vma b n temp phi cl ca fl fa rhs i j, in_cells b i j -> (1 <= n)%Z -> square_sum 0 (n - 1) (phi i j) <> 0 ->
  sumZ 0 (n - 1) (fun q => phi i j q * (quadratic_multi lib vml vma b n temp phi cl ca fl fa rhs i j q - rhs i j q)) = 0.
Proof.
  intros lib vml vma b n temp phi cl ca fl fa rhs i j H HA S. unfold quadratic_multi. cbv zeta.
  match goal with |- sumZ _ _ (fun q => _ * (multi_cells _ _ ?F _ _ _ _ - _)) = 0 => set (G := F) end.
  rewrite (sumZ_ext 0 (n - 1) _ (fun q => (-1) * (phi i j q * G i j q))) by (intros; rewrite multi_cells_val by auto; ring).
  rewrite sumZ_scal. unfold G.
  match goal with |- _ * sumZ _ _ (fun q => _ * multi_forces2 n ?u ?dl ?ds ?v q) = 0 =>
    rewrite (sumZ_ext 0 (n - 1) _ (fun q => u q * multi_forces3 (n - 1) n u dl ds 0 v q)) by (intros; rewrite multi_forces2_eq by (auto; lia); reflexivity) end.
  rewrite forces3_balance by (auto; lia). ring.
Qed.
Lemma ternary_balance : forall lib vm b nA n temp phi c0 c1 f rhs i j, in_cells b i j -> (0 <= nA <= n - 1)%Z -> square_sum 0 (n - 1) (phi i j) <> 0 ->
  sumZ 0 (n - 1) (fun q => phi i j q * (ternary_multi lib vm b nA n temp phi c0 c1 f rhs i j q - rhs i j q)) = 0.
Proof.
  intros lib vm b nA n temp phi c0 c1 f rhs i j H HA S. unfold ternary_multi. cbv zeta.
  match goal with |- sumZ _ _ (fun q => _ * (multi_cells _ _ ?F _ _ _ _ - _)) = 0 => set (G := F) end.
  rewrite (sumZ_ext 0 (n - 1) _ (fun q => (-1) * (phi i j q * G i j q))) by (intros; rewrite multi_cells_val by auto; ring).
  rewrite sumZ_scal. unfold G. rewrite forces3_balance by auto. ring.
Qed.
Lemma multi_only : forall lib lib2 vml vma vm b nA n temp phi cl ca B fl fa c0 c1 f rhs i j q, ~ (in_cells b i j /\ (0 <= q <= n - 1)%Z) ->
  calphad_multi lib vml vma b nA n temp phi cl ca B fl fa rhs i j q = rhs i j q /\
  quadratic_multi lib vml vma b n temp phi cl ca fl fa rhs i j q = rhs i j q /\
  ternary_multi lib2 vm b nA n temp phi c0 c1 f rhs i j q = rhs i j q.
Proof. intros. split; [| split]; apply multi_cells_others; assumption. Qed.

(** a single solid grain and its melt *)
Lemma pair_weights : forall s, square_weights 1 2 (pair s) PhL = (1 - s) ^ 2 / (s ^ 2 + (1 - s) ^ 2) /\ square_weights 1 2 (pair s) PhA = s ^ 2 / (s ^ 2 + (1 - s) ^ 2)
  /\ square_sum 0 1 (pair s) = s ^ 2 + (1 - s) ^ 2 /\ square_weights 1 2 (pair s) PhB = 0.
Proof.
  intros s. assert (S : square_sum 0 1 (pair s) = s ^ 2 + (1 - s) ^ 2).
  { unfold square_sum. rewrite (sumZ_cons 0 1) by lia. rewrite (sumZ_cons 1 1) by lia. rewrite sumZ_empty by lia. unfold pair. cbn [Z.add Z.eqb]. ring. }
  unfold square_weights. change (2 - 1)%Z with 1%Z. change (1 - 1)%Z with 0%Z. change (2 - 2)%Z with 0%Z. rewrite S. repeat split.
  - unfold square_sum. rewrite (sumZ_cons 0 0) by lia. rewrite sumZ_empty by lia. unfold pair. cbn [Z.eqb]. rewrite Rplus_0_r. reflexivity.
  - unfold square_sum. rewrite sumZ_empty by lia. unfold Rdiv. ring.
Qed.
Lemma pair_pos : forall s, 0 < s ^ 2 + (1 - s) ^ 2.
Proof. intros s. replace (s ^ 2 + (1 - s) ^ 2) with (2 * (s - 1 / 2) ^ 2 + 1 / 2) by field. pose proof (pow2_ge_0 (s - 1 / 2)). lra. Qed.
Lemma split_pair : forall s k, 0 < s < 1 -> k <> PhB -> split_multi2 "m" 2 (pair s) k = square_weights 1 2 (pair s) k.
Proof.
  intros s k H K. destruct (pair_weights s) as (EL & EA & _ & _). pose proof (pair_pos s) as P.
  assert (C : clamp01 s = s) by (unfold clamp01; rewrite Rmin_right by lra; apply Rmax_right; lra).
  assert (G : split_multi2 "m" 2 (pair s) k = match k with PhL => 1 - s * s / (2 * s * (s - 1) + 1) | PhA => s * s / (2 * s * (s - 1) + 1) | PhB => 0 end).
  { unfold split_multi2. change (2 - 2)%Z with 0%Z. rewrite loop_sum. rewrite (sumZ_cons 0 0), sumZ_empty by lia.
    unfold pair. cbn [Z.eqb]. replace (0 + (s + 0)) with s by ring. cbn [interp_func]. rewrite C. reflexivity. }
  assert (D : 2 * s * (s - 1) + 1 = s ^ 2 + (1 - s) ^ 2) by ring.
  destruct k; [rewrite EL, G, D | rewrite EA, G, D | contradiction]; field; lra.
Qed.
Lemma pair_slope : forall x k, derivable_pt_lim (fun s => square_weights 1 2 (pair s) k) x
  (of_phase (- (2 * x * (1 - x))) (2 * x * (1 - x)) 0 k / (x ^ 2 + (1 - x) ^ 2) ^ 2).
Proof.
  intros x k. pose proof (pair_pos x) as P. destruct k; cbn [of_phase].
  - apply (derivable_pt_lim_ext (fun s => (1 - s) ^ 2 / (s ^ 2 + (1 - s) ^ 2))); [intros s; symmetry; apply pair_weights |].
    apply is_derive_Reals. auto_derive; [replace (x * (x * 1) + (1 + - x) * ((1 + - x) * 1)) with (x ^ 2 + (1 - x) ^ 2) by ring; lra | field; lra].
  - apply (derivable_pt_lim_ext (fun s => s ^ 2 / (s ^ 2 + (1 - s) ^ 2))); [intros s; symmetry; apply pair_weights |].
    apply is_derive_Reals. auto_derive; [replace (x * (x * 1) + (1 + - x) * ((1 + - x) * 1)) with (x ^ 2 + (1 - x) ^ 2) by ring; lra | field; lra].
  - replace (0 / _) with 0 by (field; lra). apply (derivable_pt_lim_ext (fun _ => 0)); [intros s; symmetry; apply pair_weights | apply derivable_pt_lim_const].
Qed.
Lemma forces_pair : forall x u dfl dfa v, u 0%Z = x -> u 1%Z = 1 - x ->
  multi_forces3 1 2 u dfl dfa 0 v 0 - multi_forces3 1 2 u dfl dfa 0 v 1 = 2 * x * (1 - x) / (x ^ 2 + (1 - x) ^ 2) ^ 2 * (dfa - dfl).
Proof.
  intros x u dfl dfa v U0 U1. pose proof (pair_pos x) as P.
  assert (S : square_sum 0 (2 - 1) u = x ^ 2 + (1 - x) ^ 2).
  { change (2 - 1)%Z with 1%Z. unfold square_sum. rewrite (sumZ_cons 0 1) by lia. rewrite (sumZ_cons 1 1) by lia. rewrite sumZ_empty by lia.
    change (0 + 1)%Z with 1%Z. rewrite U0, U1. ring. }
  rewrite !multi_forces3_val by lia. unfold square_weights. rewrite !S. unfold phase_of.
  change (0 =? 2 - 1)%Z with false. change (1 =? 2 - 1)%Z with true. change (0 <? 1)%Z with true. cbv iota. change (2 - 1)%Z with 1%Z. change (1 - 1)%Z with 0%Z. change (2 - 2)%Z with 0%Z.
  rewrite U0, U1. cbn [total fold_right of_phase]. unfold square_sum. rewrite (sumZ_cons 0 0), (sumZ_empty (0 + 1)) by lia. rewrite (sumZ_empty 1 0) by lia. rewrite U0. field. lra.
Qed.
Definition two_phase_slope (lib : library) (vm t x : R) (comp : phase -> R -> R) : R :=
  2 * x * (1 - x) / (x ^ 2 + (1 - x) ^ 2) ^ 2 *
    ((per_volume vm * molar lib PhA t (comp PhA x) - per_volume vm * dmolar lib PhL t (comp PhL x) * comp PhA x)
     - (per_volume vm * molar lib PhL t (comp PhL x) - per_volume vm * dmolar lib PhL t (comp PhL x) * comp PhL x)).
Lemma pair_forces_calphad : forall lib vm b temp phi cl ca fl fa rhs i j x comp, in_cells b i j ->
  phi i j 0%Z = x -> phi i j 1%Z = 1 - x -> cl i j = comp PhL x -> ca i j = comp PhA x ->
  - ((calphad_multi lib vm vm b 1 2 temp phi cl ca None fl fa rhs i j 0%Z - rhs i j 0%Z)
     - (calphad_multi lib vm vm b 1 2 temp phi cl ca None fl fa rhs i j 1%Z - rhs i j 1%Z)) = two_phase_slope lib vm (temp i j) x comp.
Proof.
  intros lib vm b temp phi cl ca fl fa rhs i j x comp H U0 U1 Hl Ha. unfold calphad_multi. cbv zeta. rewrite !multi_cells_val by (auto; lia).
  match goal with |- - ((_ - ?a - _) - (_ - ?b - _)) = _ => replace (- _) with (a - b) by ring end.
  rewrite (forces_pair x) by auto. rewrite !energy_val by exact H. unfold computeMu. rewrite inv_vm_eq, Hl, Ha. unfold two_phase_slope. ring.
Qed.
Lemma pair_forces_quadratic : forall lib vm b temp phi cl ca fl fa rhs i j x comp, in_cells b i j ->
  phi i j 0%Z = x -> phi i j 1%Z = 1 - x -> cl i j = comp PhL x -> ca i j = comp PhA x ->
  - ((quadratic_multi lib vm vm b 2 temp phi cl ca fl fa rhs i j 0%Z - rhs i j 0%Z)
     - (quadratic_multi lib vm vm b 2 temp phi cl ca fl fa rhs i j 1%Z - rhs i j 1%Z)) = two_phase_slope lib vm (temp i j) x comp.
Proof.
  intros lib vm b temp phi cl ca fl fa rhs i j x comp H U0 U1 Hl Ha. unfold quadratic_multi. cbv zeta. rewrite !multi_cells_val by (auto; lia).
  match goal with |- - ((_ - ?a - _) - (_ - ?b - _)) = _ => replace (- _) with (a - b) by ring end.
  assert (S : square_sum 0 (2 - 1) (phi i j) <> 0).
  { change (2 - 1)%Z with 1%Z. unfold square_sum. rewrite (sumZ_cons 0 1) by lia. rewrite (sumZ_cons 1 1) by lia. rewrite sumZ_empty by lia.
    change (0 + 1)%Z with 1%Z. rewrite U0, U1. pose proof (pair_pos x). lra. }
  rewrite !multi_forces2_eq by (auto; lia). change (2 - 1)%Z with 1%Z.
  rewrite (forces_pair x) by auto. rewrite !energy_val by exact H. unfold computeMu. rewrite inv_vm_eq, Hl, Ha. unfold two_phase_slope. ring.
Qed.
Lemma pair_gradient : forall lib vm b temp phi cl ca fl fa rhs i j x c comp, in_cells b i j -> 0 < x < 1 ->
  phi i j 0%Z = x -> phi i j 1%Z = 1 - x -> solved lib (temp i j) [PhL; PhA] (fun s => split_multi2 "m" 2 (pair s)) x c comp ->
  cl i j = comp PhL x -> ca i j = comp PhA x ->
  let e := density lib (temp i j) (fun _ => per_volume vm) [PhL; PhA] (fun s => square_weights 1 2 (pair s)) comp in
  let r1 := calphad_multi lib vm vm b 1 2 temp phi cl ca None fl fa rhs in
  let r2 := quadratic_multi lib vm vm b 2 temp phi cl ca fl fa rhs in
  derivable_pt_lim e x (- ((r1 i j 0%Z - rhs i j 0%Z) - (r1 i j 1%Z - rhs i j 1%Z))) /\
  derivable_pt_lim e x (- ((r2 i j 0%Z - rhs i j 0%Z) - (r2 i j 1%Z - rhs i j 1%Z))).
Proof.
  intros lib vm b temp phi cl ca fl fa rhs i j x c comp H X U0 U1 Hs Hl Ha e r1 r2. unfold r1, r2.
  rewrite (pair_forces_calphad lib vm b temp phi cl ca fl fa rhs i j x comp), (pair_forces_quadratic lib vm b temp phi cl ca fl fa rhs i j x comp) by auto.
  assert (D : derivable_pt_lim e x (two_phase_slope lib vm (temp i j) x comp)); [| split; exact D].
  pose proof (solved_slope lib (temp i j) [PhL; PhA] (fun s => split_multi2 "m" 2 (pair s)) x c comp (fun k s => square_weights 1 2 (pair s) k)
    (fun k => of_phase (- (2 * x * (1 - x))) (2 * x * (1 - x)) 0 k / (x ^ 2 + (1 - x) ^ 2) ^ 2) (per_volume vm) PhL Hs) as D.
  match type of D with ?a -> ?b -> ?c -> _ => assert (Da : a); [cbn; auto |] end.
  specialize (D Da). match type of D with ?b -> ?c -> _ => assert (Db : b) end.
  { apply (around_interval 0 1); auto. intros s S k K. symmetry. apply split_pair; auto. destruct K as [<- | [<- | []]]; discriminate. }
  specialize (D Db). match type of D with ?c -> _ => assert (Dc : c); [intros k _; apply pair_slope |] end.
  specialize (D Dc). cbn [total fold_right of_phase] in D. fold e in D.
  match type of D with derivable_pt_lim _ _ ?d => replace (two_phase_slope lib vm (temp i j) x comp) with d; [exact D |] end.
  unfold two_phase_slope. pose proof (pair_pos x). field. lra.
Qed.

(** two parabolas with minima at 0 (liquid) and 1 (solid) *)
Definition parab : library := mk_library
  (fun k _ c => match k with PhA => (c - 1) ^ 2 / 2 | _ => c ^ 2 / 2 end) (fun k _ c => match k with PhA => c - 1 | _ => c end).
Definition split_comp (c : R) (w : R -> R) (k : phase) (s : R) : R := match k with PhA => c - w s + 1 | _ => c - w s end.
Lemma parab_slope : forall k t c, derivable_pt_lim (molar parab k t) c (dmolar parab k t c).
Proof. intros k t c. apply is_derive_Reals. destruct k; cbn [molar dmolar parab]; auto_derive; auto; field. Qed.
Lemma parab_solved : forall c t x w W dw, derivable_pt_lim w x dw -> around x (fun s => W s PhL = 1 - w s /\ W s PhA = w s) ->
  solved parab t [PhL; PhA] W x c (split_comp c w).
Proof.
  intros c t x w W dw D H. split; [| split; [| split]].
  - apply (around_impl x _ _ H). intros s [E1 E2]. cbn [total fold_right split_comp]. rewrite E1, E2. ring.
  - assert (G : derivable_pt_lim (fun s => c - w s) x (0 - dw)) by (apply (derivable_pt_lim_minus (fun _ => c) w); [apply derivable_pt_lim_const | exact D]).
    intros k _. destruct k; cbn [split_comp]; [exists (0 - dw); exact G | exists (0 - dw + 0) | exists (0 - dw); exact G].
    apply (derivable_pt_lim_plus (fun s => c - w s) (fun _ => 1)); [exact G | apply derivable_pt_lim_const].
  - intros k _. apply parab_slope.
  - intros k k' _ _. destruct k, k'; cbn [dmolar parab split_comp]; ring.
Qed.
(** the energy of the mixture of the two parabolas is that of the liquid *)
Lemma parab_density : forall c t conv x w G dw, derivable_pt_lim w x dw -> around x (fun s => G s PhL + G s PhA = 1) ->
  derivable_pt_lim (density parab t (fun _ => conv) [PhL; PhA] G (split_comp c w)) x (- (conv * (c - w x) * dw)).
Proof.
  intros c t conv x w G dw D H. apply (around_lim (fun s => conv * ((c - w s) ^ 2 / 2))).
  - apply (around_impl x _ _ H). intros s A. unfold density. cbn [total fold_right split_comp molar parab]. replace (G s PhL) with (1 - G s PhA) by lra. field.
  - pose proof (derivable_pt_lim_minus (fun _ => c) w x 0 dw (derivable_pt_lim_const c x) D) as E.
    pose proof (derivable_pt_lim_comp (fun s => c - w s) (fun y => conv * (y ^ 2 / 2)) x (0 - dw) (conv * (c - w x)) E) as F.
    replace (- (conv * (c - w x) * dw)) with (conv * (c - w x) * (0 - dw)) by ring. apply F.
    apply is_derive_Reals. auto_derive; auto. field.
Qed.

Lemma per_volume_micro : forall a, a <> 0 -> per_volume (/ (1000000 * a)) = a.
Proof. intros a H. unfold per_volume. field. exact H. Qed.
Lemma not_slope : forall f x d e, derivable_pt_lim f x d -> d <> e -> ~ derivable_pt_lim f x e.
Proof. intros f x d e D N E. apply N. apply (uniqueness_limite f x); auto. Qed.
Lemma half_l : val (interp_func (1 / 2) "l") = 1 / 2.
Proof. cbn [interp_func Energy_Model.val]. unfold pos, clamp01. rewrite ?Rmin_right, ?Rmax_right by (rewrite ?Rmin_right, ?Rmax_right; lra). reflexivity. Qed.
Lemma half_deriv : val (deriv_interp_func (1 / 2) "l") = 1 /\ val (deriv_interp_func (1 / 2) "p") = 15 / 8.
Proof.
  split; cbn [deriv_interp_func Energy_Model.val].
  - destruct (Rlt_dec 0 (1 / 2)); [reflexivity | lra].
  - assert (C : clamp01 (1 / 2) = 1 / 2) by (unfold clamp01; rewrite Rmin_right by lra; apply Rmax_right; lra). rewrite C. field.
Qed.
Lemma half_p : val (interp_func (1 / 2) "p") = 1 / 2.
Proof.
  cbn [interp_func Energy_Model.val]. assert (C : clamp01 (1 / 2) = 1 / 2) by (unfold clamp01; rewrite Rmin_right by lra; apply Rmax_right; lra). rewrite C. field.
Qed.
Definition unit_box : pbox := mk_pbox 0 0 0 0 1 1.
Lemma unit_in : in_cells unit_box 0 0.
Proof. split; cbn; lia. Qed.

Lemma kks_two_types : exists lib vm b temp phi cl ca fl fa rhs rhs' i j c comp, 0 < vm /\ in_cells b i j /\ 0 < phi i j < 1 /\
  solved lib (temp i j) [PhL; PhA] (split2 "l") (phi i j) c comp /\ cl i j = comp PhL (phi i j) /\ ca i j = comp PhA (phi i j) /\
  kks_rhs Calphad lib vm vm "p" b temp phi cl ca fl fa rhs = Some rhs' /\
  forall t, In t ["l"; "p"]%char ->
  ~ derivable_pt_lim (density lib (temp i j) (fun _ => per_volume vm) [PhL; PhA] (weights2 (fun x => val (interp_func x t))) comp) (phi i j) (- (rhs' i j - rhs i j)).
Proof.
  set (w := fun s => val (interp_func s "l")).
  exists parab, (/ (1000000 * 1)), unit_box, (fun _ _ => 0), (fun _ _ => 1 / 2), (fun _ _ => split_comp 1 w PhL (1 / 2)), (fun _ _ => split_comp 1 w PhA (1 / 2)),
    (fun _ _ => 0), (fun _ _ => 0), (fun _ _ => 0).
  assert (D : derivable_pt_lim w (1 / 2) 1).
  { pose proof (slope_interp "l" (1 / 2)) as D. rewrite (proj1 half_deriv) in D. apply D. right. split; [reflexivity | lra]. }
  destruct (kks_rhs Calphad parab (/ (1000000 * 1)) (/ (1000000 * 1)) "p" unit_box (fun _ _ => 0) (fun _ _ => 1 / 2) (fun _ _ => split_comp 1 w PhL (1 / 2)) (fun _ _ => split_comp 1 w PhA (1 / 2)) (fun _ _ => 0) (fun _ _ => 0) (fun _ _ => 0)) as [rhs' |] eqn:E; [| discriminate E].
  exists rhs', 0%Z, 0%Z, 1, (split_comp 1 w).
  split; [apply Rinv_0_lt_compat; lra |]. split; [exact unit_in |]. split; [lra |]. split; [| split; [reflexivity | split; [reflexivity | split; [reflexivity |]]]].
  - apply (parab_solved 1 0 (1 / 2) w (split2 "l") 1 D). apply around_all. intros s. split; reflexivity.
  - intros t _. rewrite (kks_val _ _ _ _ _ _ _ _ _ _ _ _ _ _ _ _ unit_in E). rewrite (proj2 half_deriv).
    cbn [mu_phase molar dmolar parab split_comp]. rewrite !per_volume_micro by lra.
    apply (not_slope _ _ (- (1 * (1 - w (1 / 2)) * 1))).
    + apply (parab_density 1 0 1 (1 / 2) w _ 1 D). apply around_all. intros s. cbn [weights2]. ring.
    + unfold w. rewrite half_l. lra.
Qed.
Lemma kks_volumes : exists lib vml vma b temp phi cl ca fl fa rhs i j c comp, 0 < vml /\ 0 < vma /\ in_cells b i j /\ 0 < phi i j < 1 /\
  solved lib (temp i j) [PhL; PhA] (split2 "l") (phi i j) c comp /\ cl i j = comp PhL (phi i j) /\ ca i j = comp PhA (phi i j) /\
  forall s, exists rhs', kks_rhs s lib vml vma "l" b temp phi cl ca fl fa rhs = Some rhs' /\
  ~ derivable_pt_lim (density lib (temp i j) (fun k => per_volume (match k with PhL => vml | _ => vma end)) [PhL; PhA] (weights2 (fun x => val (interp_func x "l"))) comp)
    (phi i j) (- (rhs' i j - rhs i j)).
Proof.
  set (w := fun s => val (interp_func s "l")).
  exists parab, (/ (1000000 * 1)), (/ (1000000 * 2)), unit_box, (fun _ _ => 0), (fun _ _ => 1 / 2), (fun _ _ => split_comp 1 w PhL (1 / 2)), (fun _ _ => split_comp 1 w PhA (1 / 2)),
    (fun _ _ => 0), (fun _ _ => 0), (fun _ _ => 0), 0%Z, 0%Z, 1, (split_comp 1 w).
  assert (D : derivable_pt_lim w (1 / 2) 1).
  { pose proof (slope_interp "l" (1 / 2)) as D. rewrite (proj1 half_deriv) in D. apply D. right. split; [reflexivity | lra]. }
  split; [apply Rinv_0_lt_compat; lra |]. split; [apply Rinv_0_lt_compat; lra |]. split; [exact unit_in |]. split; [lra |]. split; [| split; [reflexivity | split; [reflexivity |]]].
  - apply (parab_solved 1 0 (1 / 2) w (split2 "l") 1 D). apply around_all. intros s. split; reflexivity.
  - intros s.
    destruct (kks_rhs s parab (/ (1000000 * 1)) (/ (1000000 * 2)) "l" unit_box (fun _ _ => 0) (fun _ _ => 1 / 2) (fun _ _ => split_comp 1 w PhL (1 / 2)) (fun _ _ => split_comp 1 w PhA (1 / 2)) (fun _ _ => 0) (fun _ _ => 0) (fun _ _ => 0)) as [rhs' |] eqn:E; [| discriminate E].
    exists rhs'. split; [reflexivity |]. rewrite (kks_val _ _ _ _ _ _ _ _ _ _ _ _ _ _ _ _ unit_in E). rewrite (proj1 half_deriv).
    assert (W : w (1 / 2) = 1 / 2) by apply half_l.
    apply (not_slope _ _ (- (5 / 8))).
    + apply (derivable_pt_lim_ext (fun s => (1 + w s) * ((1 - w s) ^ 2 / 2))).
      * intros y. unfold density. cbn [total fold_right split_comp molar parab weights2]. rewrite !per_volume_micro by lra. fold (w y). field.
      * pose proof (derivable_pt_lim_comp w (fun y => (1 + y) * ((1 - y) ^ 2 / 2)) (1 / 2) 1 (- (5 / 8)) D) as F.
        replace (- (5 / 8)) with (- (5 / 8) * 1) by ring. apply F. rewrite W. apply is_derive_Reals. auto_derive; auto. field.
    + destruct s; cbn [mu_phase molar dmolar parab split_comp]; rewrite ?per_volume_micro by lra; rewrite W; lra.
Qed.
Lemma pair_types : exists lib vm b temp phi cl ca fl fa rhs i j x c comp, 0 < vm /\ in_cells b i j /\ 0 < x < 1 /\
  phi i j 0%Z = x /\ phi i j 1%Z = 1 - x /\ solved lib (temp i j) [PhL; PhA] (fun s => split_multi2 "p" 2 (pair s)) x c comp /\
  cl i j = comp PhL x /\ ca i j = comp PhA x /\
  forall G, In G [fun s => square_weights 1 2 (pair s); fun s => split_multi2 "p" 2 (pair s)] ->
  let e := density lib (temp i j) (fun _ => per_volume vm) [PhL; PhA] G comp in
  let r1 := calphad_multi lib vm vm b 1 2 temp phi cl ca None fl fa rhs in
  let r2 := quadratic_multi lib vm vm b 2 temp phi cl ca fl fa rhs in
  ~ derivable_pt_lim e x (- ((r1 i j 0%Z - rhs i j 0%Z) - (r1 i j 1%Z - rhs i j 1%Z))) /\
  ~ derivable_pt_lim e x (- ((r2 i j 0%Z - rhs i j 0%Z) - (r2 i j 1%Z - rhs i j 1%Z))).
Proof.
  set (w := fun s => val (interp_func s "p")).
  exists parab, (/ (1000000 * 1)), unit_box, (fun _ _ => 0), (fun _ _ => pair (1 / 2)), (fun _ _ => split_comp 1 w PhL (1 / 2)), (fun _ _ => split_comp 1 w PhA (1 / 2)),
    (fun _ _ => 0), (fun _ _ => 0), (fun _ _ _ => 0), 0%Z, 0%Z, (1 / 2), 1, (split_comp 1 w).
  assert (D : derivable_pt_lim w (1 / 2) (15 / 8)).
  { pose proof (slope_interp "p" (1 / 2)) as D. rewrite (proj2 half_deriv) in D. apply D. left. left. reflexivity. }
  assert (W : forall s, split_multi2 "p" 2 (pair s) PhL = 1 - w s /\ split_multi2 "p" 2 (pair s) PhA = w s).
  { intros s. assert (E : do_loop 0 (2 - 2) (fun i acc => acc + pair s i) 0 = s).
    { change (2 - 2)%Z with 0%Z. rewrite loop_sum. rewrite (sumZ_cons 0 0), sumZ_empty by lia. unfold pair. cbn [Z.eqb]. ring. }
    unfold split_multi2. cbv zeta. rewrite E. split; reflexivity. }
  split; [apply Rinv_0_lt_compat; lra |]. split; [exact unit_in |]. split; [lra |]. split; [reflexivity |]. split; [reflexivity |].
  split; [| split; [reflexivity | split; [reflexivity |]]].
  - apply (parab_solved 1 0 (1 / 2) w _ (15 / 8) D). apply around_all. exact W.
  - intros G HG e r1 r2. unfold r1, r2.
    assert (E1 : forall z, z = two_phase_slope parab (/ (1000000 * 1)) 0 (1 / 2) (split_comp 1 w) -> ~ derivable_pt_lim e (1 / 2) z);
      [| split; apply E1; [apply pair_forces_calphad | apply pair_forces_quadratic]; auto using unit_in].
    intros z ->.
    apply (not_slope _ _ (- (1 * (1 - w (1 / 2)) * (15 / 8)))).
    + unfold e. rewrite per_volume_micro by lra. apply (parab_density 1 0 1 (1 / 2) w G (15 / 8) D). apply around_all. intros s.
      destruct HG as [<- | [<- | []]].
      * destruct (pair_weights s) as (-> & -> & _). field. pose proof (pair_pos s). lra.
      * destruct (W s) as [-> ->]. ring.
    + unfold two_phase_slope. rewrite per_volume_micro by lra. cbn [molar dmolar parab split_comp]. unfold w. rewrite half_p. lra.
Qed.

(** ** three phase fields *)
Lemma three_val : forall T lib vm b temp phi c f rhs i j q, in_cells b i j -> (1 <= q <= 3)%Z ->
  calphad_three T lib vm b temp phi c f rhs i j q = rhs i j q
    - pick (driving_force_cell T (phi i j 1%Z) (phi i j 2%Z) (phi i j 3%Z)
        (per_volume (vm PhL) * molar lib PhL (temp i j) (c PhL i j)) (per_volume (vm PhA) * molar lib PhA (temp i j) (c PhA i j))
        (per_volume (vm PhB) * molar lib PhB (temp i j) (c PhB i j)) (c PhL i j) (c PhA i j) (c PhB i j)
        (per_volume (vm PhA) * dmolar lib PhA (temp i j) (c PhA i j))) q.
Proof.
  intros T lib vm b temp phi c f rhs i j q H Q. unfold calphad_three. cbv zeta.
  rewrite df_ok by (auto; lia). f_equal. f_equal. unfold dfc. cbn [ch_fl ch_fa ch_fb ch_cl ch_ca ch_cb ch_mu].
  rewrite !energy_val by exact H. unfold computeMu. rewrite inv_vm_eq, (Rmult_comm (dmolar _ _ _ _)). reflexivity.
Qed.
Lemma tilt_slopes : forall T p0 p1 p2 v0 v1 v2, on_simplex p0 p1 p2 -> v0 + v1 + v2 = 0 ->
  exists dw, forall k, derivable_pt_lim (fun s => tilt_weights T (p0 + s * v0) (p1 + s * v1) (p2 + s * v2) k) 0 (dw k).
Proof.
  intros T p0 p1 p2 v0 v1 v2 H V.
  assert (Ha : on_simplex p1 p0 p2) by (unfold on_simplex in *; lra).
  assert (Hb : on_simplex p2 p0 p1) by (unfold on_simplex in *; lra).
  pose proof (proj2 (tilt_gradient T _ _ _ H) v0 v1 v2 V) as D0.
  pose proof (proj2 (tilt_gradient T _ _ _ Ha) v1 v0 v2 ltac:(lra)) as D1.
  pose proof (proj2 (tilt_gradient T _ _ _ Hb) v2 v0 v1 ltac:(lra)) as D2.
  eexists (of_phase _ _ _). intros k. destruct k; cbn [of_phase tilt_weights]; [exact D0 | exact D1 | exact D2].
Qed.
Definition three_gradient_at (T : tilting) (lib : library) (vm : R) (b : pbox) (temp : arr2) (phi : arr3) (comps f : phase -> arr2) (rhs : arr3) (i j : Z)
    (v0 v1 v2 : R) (comp : phase -> R -> R) : Prop :=
  let d q := calphad_three T lib (fun _ => vm) b temp phi comps f rhs i j q - rhs i j q in
  d 1%Z + d 2%Z + d 3%Z = 0 /\
  derivable_pt_lim (density lib (temp i j) (fun _ => per_volume vm) [PhL; PhA; PhB]
    (fun s => tilt_weights T (phi i j 1%Z + s * v0) (phi i j 2%Z + s * v1) (phi i j 3%Z + s * v2)) comp) 0
    (- (d 1%Z * v0 + d 2%Z * v1 + d 3%Z * v2)).
Lemma three_gradient_gen : forall T lib vm b temp phi comps f rhs i j c comp v0 v1 v2 W, in_cells b i j ->
  on_simplex (phi i j 1%Z) (phi i j 2%Z) (phi i j 3%Z) -> v0 + v1 + v2 = 0 ->
  around 0 (fun s => forall k, tilt_weights T (phi i j 1%Z + s * v0) (phi i j 2%Z + s * v1) (phi i j 3%Z + s * v2) k = W s k) ->
  solved lib (temp i j) [PhL; PhA; PhB] W 0 c comp -> (forall k, comps k i j = comp k 0) ->
  three_gradient_at T lib vm b temp phi comps f rhs i j v0 v1 v2 comp.
Proof.
  intros T lib vm b temp phi comps f rhs i j c comp v0 v1 v2 W H S V HW Hs Hc. unfold three_gradient_at. cbv zeta.
  rewrite !three_val by (auto; lia). cbv beta. rewrite !Hc.
  set (p0 := phi i j 1%Z) in *. set (p1 := phi i j 2%Z) in *. set (p2 := phi i j 3%Z) in *.
  set (mu := per_volume vm * dmolar lib PhA (temp i j) (comp PhA 0)).
  set (o := fun k => per_volume vm * molar lib k (temp i j) (comp k 0) - mu * comp k 0).
  pose proof (tilted_gradient T p0 p1 p2 (per_volume vm * molar lib PhL (temp i j) (comp PhL 0)) (per_volume vm * molar lib PhA (temp i j) (comp PhA 0))
    (per_volume vm * molar lib PhB (temp i j) (comp PhB 0)) (comp PhL 0) (comp PhA 0) (comp PhB 0) mu S) as G. cbv zeta in G.
  set (d := driving_force_cell _ _ _ _ _ _ _ _ _ _ _) in *. clearbody d. destruct G as [GS GD]. split; [lra |].
  specialize (GD v0 v1 v2 V). destruct (tilt_slopes T p0 p1 p2 v0 v1 v2 S V) as [dw Dw].
  pose proof (total_lim [PhL; PhA; PhB] (fun k s => tilt_weights T (p0 + s * v0) (p1 + s * v1) (p2 + s * v2) k * o k) (fun k => dw k * o k) 0) as L.
  match type of L with ?a -> _ => assert (La : a) end.
  { intros k _. pose proof (derivable_pt_lim_mult (fun s => tilt_weights T (p0 + s * v0) (p1 + s * v1) (p2 + s * v2) k) (fct_cte (o k)) 0 (dw k) 0 (Dw k) (derivable_pt_lim_const (o k) 0)) as K.
    unfold fct_cte in K. replace (dw k * o k + _ * 0) with (dw k * o k) in K by ring. exact K. }
  specialize (L La).
  assert (E : total [PhL; PhA; PhB] (fun k => dw k * o k) = pick d 1 * v0 + pick d 2 * v1 + pick d 3 * v2).
  { apply (uniqueness_limite _ _ _ _ L). apply (derivable_pt_lim_ext (fun t => g0 T (p0 + t * v0) (p1 + t * v1) (p2 + t * v2) * o PhL
      + g0 T (p1 + t * v1) (p0 + t * v0) (p2 + t * v2) * o PhA + g0 T (p2 + t * v2) (p0 + t * v0) (p1 + t * v1) * o PhB)); [| exact GD].
    intros t. cbn [total fold_right tilt_weights]. ring. }
  replace (- _) with (total [PhL; PhA; PhB] (fun k => dw k * o k)) by (rewrite E; ring).
  apply (solved_slope lib (temp i j) [PhL; PhA; PhB] W 0 c comp (fun k s => tilt_weights T (p0 + s * v0) (p1 + s * v1) (p2 + s * v2) k) dw (per_volume vm) PhA Hs).
  - cbn; auto.
  - apply (around_impl 0 _ _ HW). intros s A k _. apply A.
  - intros k _. apply Dw.
Qed.
Lemma three_gradient : forall T lib vm b temp phi comps f rhs i j c comp v0 v1 v2, in_cells b i j ->
  on_simplex (phi i j 1%Z) (phi i j 2%Z) (phi i j 3%Z) -> v0 + v1 + v2 = 0 ->
  solved lib (temp i j) [PhL; PhA; PhB] (fun s => tilt_weights T (phi i j 1%Z + s * v0) (phi i j 2%Z + s * v1) (phi i j 3%Z + s * v2)) 0 c comp ->
  (forall k, comps k i j = comp k 0) ->
  let d q := calphad_three T lib (fun _ => vm) b temp phi comps f rhs i j q - rhs i j q in
  d 1%Z + d 2%Z + d 3%Z = 0 /\
  derivable_pt_lim (density lib (temp i j) (fun _ => per_volume vm) [PhL; PhA; PhB]
    (fun s => tilt_weights T (phi i j 1%Z + s * v0) (phi i j 2%Z + s * v1) (phi i j 3%Z + s * v2)) comp) 0
    (- (d 1%Z * v0 + d 2%Z * v1 + d 3%Z * v2)).
Proof.
  intros T lib vm b temp phi comps f rhs i j c comp v0 v1 v2 H S V Hs Hc.
  refine (three_gradient_gen T lib vm b temp phi comps f rhs i j c comp v0 v1 v2 _ H S V _ Hs Hc). apply around_all. reflexivity.
Qed.
(** on the edges of the triangle the solver's weights with 'p' are those of Folch and Plapp *)
Lemma edge_weights : forall x k, 0 <= x <= 1 ->
  split3 "p" (1 - x) x 0 k = tilt_weights FolchPlapp (1 - x) x 0 k /\ split3 "p" (1 - x) 0 x k = tilt_weights FolchPlapp (1 - x) 0 x k /\
  split3 "p" 0 (1 - x) x k = tilt_weights FolchPlapp 0 (1 - x) x k.
Proof.
  intros x k H.
  assert (I : forall y, 0 <= y <= 1 -> val (interp_func y "p") = y * y * y * (10 - 15 * y + 6 * y * y)).
  { intros y Y. cbn [interp_func Energy_Model.val]. assert (C : clamp01 y = y) by (unfold clamp01; rewrite Rmin_right by lra; apply Rmax_right; lra). rewrite C. ring. }
  assert (G : forall p q r, 0 <= p <= 1 -> fp_g0 p q r = (1 / 4) * p * p * (15 * (1 - p) * (1 + p - (r - q) * (r - q)) + p * (9 * p * p - 5))).
  { intros p q r P. unfold fp_g0. destruct (Rlt_dec p 0); [lra |]. destruct (Rlt_dec 1 p); [lra |]. reflexivity. }
  repeat split; unfold split3, tilt_weights; cbn [g0]; destruct k; rewrite I, G by lra; field.
Qed.
Lemma three_edge : forall lib vm b temp phi comps f rhs i j c comp x, in_cells b i j -> 0 < x < 1 ->
  phi i j 1%Z = 1 - x -> phi i j 2%Z = x -> phi i j 3%Z = 0 ->
  solved lib (temp i j) [PhL; PhA; PhB] (fun s => split3 "p" (1 - (x + s)) (x + s) 0) 0 c comp -> (forall k, comps k i j = comp k 0) ->
  let d q := calphad_three FolchPlapp lib (fun _ => vm) b temp phi comps f rhs i j q - rhs i j q in
  d 1%Z + d 2%Z + d 3%Z = 0 /\
  derivable_pt_lim (density lib (temp i j) (fun _ => per_volume vm) [PhL; PhA; PhB] (fun s => split3 "p" (1 - (x + s)) (x + s) 0) comp) 0 (- (d 2%Z - d 1%Z)).
Proof.
  intros lib vm b temp phi comps f rhs i j c comp x H X P1 P2 P3 Hs Hc d.
  assert (A : around 0 (fun s => forall k, tilt_weights FolchPlapp (phi i j 1%Z + s * -1) (phi i j 2%Z + s * 1) (phi i j 3%Z + s * 0) k = split3 "p" (1 - (x + s)) (x + s) 0 k)).
  { apply (around_interval (- x) (1 - x)); [lra |]. intros s Y k. rewrite P1, P2, P3. replace (1 - x + s * -1) with (1 - (x + s)) by ring.
    replace (x + s * 1) with (x + s) by ring. replace (0 + s * 0) with 0 by ring. symmetry. apply edge_weights. lra. }
  assert (S : on_simplex (phi i j 1%Z) (phi i j 2%Z) (phi i j 3%Z)) by (rewrite P1, P2, P3; unfold on_simplex; lra).
  destruct (three_gradient_gen FolchPlapp lib vm b temp phi comps f rhs i j c comp (-1) 1 0 (fun s => split3 "p" (1 - (x + s)) (x + s) 0) H S ltac:(lra) A Hs Hc) as [G1 G2].
  - split; [exact G1 |]. fold d in G1. cbv zeta in G2.
    apply (around_lim (density lib (temp i j) (fun _ => per_volume vm) [PhL; PhA; PhB] (fun s => tilt_weights FolchPlapp (phi i j 1%Z + s * -1) (phi i j 2%Z + s * 1) (phi i j 3%Z + s * 0)) comp)).
    + apply (around_impl 0 _ _ A). intros s E. unfold density. apply total_ext. intros k _. rewrite E. reflexivity.
    + match type of G2 with derivable_pt_lim _ _ ?z => replace (- (d 2%Z - d 1%Z)) with z; [exact G2 |] end. unfold d. ring.
Qed.
(** inside the triangle they do not sum to one: three identical phases are given a wrong composition *)
Lemma three_weights : exists p0 p1 p2, on_simplex p0 p1 p2 /\ total [PhL; PhA; PhB] (split3 "p" p0 p1 p2) <> 1 /\
  forall c x, c <> 0 -> total [PhL; PhA; PhB] (fun k => split3 "p" p0 p1 p2 k * x) = c -> x <> c.
Proof.
  exists (1 / 3), (1 / 3), (1 / 3).
  assert (E : total [PhL; PhA; PhB] (split3 "p" (1 / 3) (1 / 3) (1 / 3)) = 17 / 27).
  { cbn [total fold_right split3]. unfold split3. cbn [interp_func Energy_Model.val].
    assert (C : clamp01 (1 / 3) = 1 / 3) by (unfold clamp01; rewrite Rmin_right by lra; apply Rmax_right; lra). rewrite C. field. }
  split; [unfold on_simplex; lra |]. split; [rewrite E; lra |]. intros c x Hc Hx ->.
  rewrite (total_ext _ _ (fun k => c * split3 "p" (1 / 3) (1 / 3) (1 / 3) k)) in Hx by (intros; ring). rewrite total_scal, E in Hx. lra.
Qed.

(** ** library classes *)
Lemma classes_agree : forall p, (1 <= norderp_in p)%Z ->
  (energy_class p = composition_class p <->
   ~ (model p = CALPHAD /\ ncompositions p = 1%Z /\ (1 < norderp_in p)%Z /\ (withPhaseB p = false \/ sublattice p = true))).
Proof.
  intros p H. unfold energy_class, composition_class, withMultipleOrderP, norderp.
  destruct (model p); [| split; [intros _ (E & _); discriminate | reflexivity] | split; [intros _ (E & _); discriminate | reflexivity]].
  destruct (Z.eqb_spec (ncompositions p) 1) as [C | C]; [| split; [intros _ (_ & E & _); auto | reflexivity]].
  destruct (Z.ltb_spec 1 (norderp_in p)) as [M | M].
  - destruct (withPhaseB p) eqn:W.
    + destruct (sublattice p); split; intro E; try discriminate E; try reflexivity; try (intros (_ & _ & _ & [X | X]); discriminate X). exfalso. apply E. auto.
    + assert (three_phases p = false) as -> by (unfold withPhaseB in W; destruct (three_phases p); [discriminate W | reflexivity]).
      destruct (Z.ltb_spec 1 (norderp_in p)); [| lia]. split; intro E; [discriminate E | exfalso; apply E; auto].
  - destruct (withPhaseB p) eqn:W.
    + split; [intros _ (_ & _ & X & _); lia | reflexivity].
    + assert (three_phases p = false) as -> by (unfold withPhaseB in W; destruct (three_phases p); [discriminate W | reflexivity]).
      destruct (Z.ltb_spec 1 (norderp_in p)); [lia |]. split; [intros _ (_ & _ & X & _); lia | reflexivity].
Qed.
Lemma classes_differ : exists p q, (1 <= norderp_in p)%Z /\ (1 <= norderp_in q)%Z /\
  sublattice p = false /\ energy_class p = Binary2Ph1Sl /\ composition_class p = Binary /\
  sublattice q = true /\ energy_class q = BinaryThreePhase /\ composition_class q = Binary3Ph2Sl.
Proof.
  exists (mk_alloy 3 None false 1 CALPHAD false), (mk_alloy 3 (Some 1%Z) false 1 CALPHAD true). repeat split; cbn; lia.
Qed.
