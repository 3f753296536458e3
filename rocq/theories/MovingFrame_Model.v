(** AdaptMovingFrame.cc.  The solid volume (QuatModel::evaluateVolumeSolid, see C26-C30 for such integrals) is an input.
    first_time is a function-static flag, so a separate argument; the members written by the first call are options
    (None = never written; using them gives None). *)
From Coq Require Import Reals List Bool.
Import ListNotations.
Open Scope R_scope.

Record frame := mk_frame { d_max_accel : R; d_vol_inv : R; d_Lx : R; d_previous : option (R * R) }.

(** constructor (15-27); low and up are the corners of the domain *)
Definition new_frame (low up : list R) (frame_velocity : R) : frame :=
  mk_frame (Rabs frame_velocity) (1 / fold_left (fun vol lu => vol * (snd lu - fst lu)) (combine low up) 1)
           (nth 0 up 0 - nth 0 low 0) None.

(** adaptVelocity (29-67) *)
Definition adaptVelocity (f : frame) (first_time : bool) (time volume current_frame_velocity : R) : option (R * frame) :=
  let fs := volume * d_vol_inv f in
  let f' := mk_frame (d_max_accel f) (d_vol_inv f) (d_Lx f) (Some (time, fs)) in
  if first_time then Some (current_frame_velocity + 0, f') else
  match d_previous f with
  | None => None
  | Some (previous_time, previous_fs) =>
      let dfsk := fs - previous_fs in
      let dtinv := 1 / (time - previous_time) in
      let deltavk := d_Lx f * dfsk * dtinv in
      let acceleration := if Rgt_dec (Rabs deltavk) (d_max_accel f) then deltavk * (d_max_accel f / Rabs deltavk) else deltavk in
      Some (current_frame_velocity + acceleration, f')
  end.

(** successive calls (QuatIntegrator.cc:2199-2204), each starting from the velocity of the one before *)
Fixpoint adapt (f : frame) (first_time : bool) (v : R) (l : list (R * R)) : option (R * frame) :=
  match l with
  | [] => Some (v, f)
  | (time, volume) :: l => match adaptVelocity f first_time time volume v with Some (v, f) => adapt f false v l | None => None end
  end.
