(** C41: adaptive frame velocity. *)
From Coq Require Import Reals ZArith List Bool Lra Lia.
From Verif Require Import BcCoefs_Spec MovingFrame_Model MovingFrame_Spec MovingFrame_Proofs.
Import ListNotations.
Open Scope R_scope.

(** C41: the first call changes nothing. *)
Theorem C41_first : forall low up v0 t vol, exists f', adapt (new_frame low up v0) true v0 [(t, vol)] = Some (v0, f').
Proof. exact first_call. Qed.
Print Assumptions C41_first.

(** C41: after n calls the velocity is within n-1 times its initial magnitude of the initial one (a frame that starts at rest never moves). *)
Theorem C41_bound : forall low up v0 l, exists v f, adapt (new_frame low up v0) true v0 l = Some (v, f) /\ Rabs (v - v0) <= INR (length l - 1) * Rabs v0.
Proof. exact frame_bound. Qed.
Print Assumptions C41_bound.

(** C41: one call moves the velocity by at most the initial magnitude, in the direction in which the solid volume changed, and by exactly the front's relative speed when that is small enough. *)
Theorem C41_step : forall low up v0 l tp volp t vol, in_order (l ++ [(tp, volp); (t, vol)]) ->
  let vol0 := fold_left (fun v lu => v * (snd lu - fst lu)) (combine low up) 1 in let Lx := nth 0 up 0 - nth 0 low 0 in
  exists v f v' f', adapt (new_frame low up v0) true v0 (l ++ [(tp, volp)]) = Some (v, f) /\ adapt (new_frame low up v0) true v0 (l ++ [(tp, volp); (t, vol)]) = Some (v', f') /\
    Rabs (v' - v) <= Rabs v0 /\
    (0 < vol0 -> 0 < Lx -> (volp < vol -> v <= v' /\ (v0 <> 0 -> v < v')) /\ (vol < volp -> v' <= v /\ (v0 <> 0 -> v' < v)) /\ (vol = volp -> v' = v) /\
     (Rabs (Lx * ((vol - volp) / vol0) / (t - tp)) <= Rabs v0 -> v' = v + Lx * ((vol - volp) / vol0) / (t - tp))).
Proof. exact frame_step. Qed.
Print Assumptions C41_step.

Example C41_ex : (* unit domain of length 4: the solid fraction grows by 1/8 in one time unit, then stays *)
  exists f, adapt (new_frame [0; 0] [4; 1] 2) true 2 [(0, 1); (1, 3 / 2); (2, 3 / 2)] = Some (5 / 2, f).
Proof.
  destruct (frame_step [0; 0] [4; 1] 2 [] 0 1 1 (3 / 2)) as (v & f & v' & f' & E & E' & _ & S); [unfold in_order; cbn; lra|].
  destruct (frame_step [0; 0] [4; 1] 2 [(0, 1)] 1 (3 / 2) 2 (3 / 2)) as (w & k & w' & k' & F & F' & _ & S'); [unfold in_order; cbn; lra|].
  cbn [app] in *. rewrite F in E'. injection E' as -> ->. exists k'. rewrite F'. f_equal. f_equal.
  destruct (S' ltac:(cbn; lra) ltac:(cbn; lra)) as (_ & _ & Q & _). rewrite (Q eq_refl).
  destruct (S ltac:(cbn; lra) ltac:(cbn; lra)) as (_ & _ & _ & P). cbn in P.
  cbn in E. injection E as <- _. rewrite P; [field|]. replace (_ / (1 - 0)) with (1 / 2) by field. rewrite !Rabs_right; lra.
Qed.
(** the first-call flag is shared by all objects: a second object would use members that were never set *)
Example C41_ex_second : adapt (new_frame [0; 0] [4; 1] 2) false 2 [(0, 1)] = None.
Proof. reflexivity. Qed.
