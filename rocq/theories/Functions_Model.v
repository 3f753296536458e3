(** Model of source/fortran/functions.f (pointwise functions).  Doubles are exact
    reals.  [None] is the Fortran [stop] on an unknown type character. *)
From Coq Require Import Reals ZArith Ascii.
Open Scope R_scope.

(** max( 0.d0, min( 1.d0, phi ) ) *)
Definition clamp01 (x : R) : R := Rmax 0 (Rmin 1 x).
(** max( 0.d0, phi ) *)
Definition pos (x : R) : R := Rmax 0 x.

(** functions.f:25,97 gamma *)
Definition gamma : R := 10.

(** functions.f:16-85 interp_func; type is the first character of the Fortran string *)
Definition interp_func (phi : R) (type : ascii) : option R :=
  match type with
  | "q" => Some (pos phi * pos phi)
  | "p" => let t := clamp01 phi in Some (t * t * t * (10 - 15 * t + 6 * t * t))
  | "h" => let t := clamp01 phi in Some (t * t * (3 - 2 * t))
  | "w" => let t := pos phi in Some (t * t * (2 - t))
  | "l" => Some (Rmin 1 (Rmax 0 phi))
  | "m" => let t := clamp01 phi in Some (t * t / (2 * t * (t - 1) + 1))
  | "3" => let t := pos phi in Some (t * t * t)
  | "s" => Some (ln (cosh (gamma * phi)) / ln (cosh gamma))
  | "c" => Some 1
  | _ => None
  end%char.

(** functions.f:89-162 deriv_interp_func.  The test of type 'l' at lines 129-130 is
    [phi > 0 .or. phi < 1]. *)
Definition deriv_interp_func (phi : R) (type : ascii) : option R :=
  match type with
  | "q" => Some (2 * pos phi)
  | "p" => let t := clamp01 phi in Some (30 * t * t * (1 - t) * (1 - t))
  | "h" => let t := clamp01 phi in Some (6 * t * (1 - t))
  | "w" => let t := pos phi in Some (t * (4 - 3 * t))
  | "l" => Some (if Rlt_dec 0 phi then 1 else if Rlt_dec phi 1 then 1 else 0)
  | "m" => let t := clamp01 phi in let tmp := 2 * t * (t - 1) + 1 in
           Some (2 * t * (1 - t) / (tmp * tmp))
  | "3" => let t := pos phi in Some (3 * t * t)
  | "s" => Some (gamma * tanh (gamma * pos phi) / ln (cosh gamma))
  | "c" => Some 0
  | _ => None
  end%char.

(** functions.f:166-232 second_deriv_interp_func; the literals of type 'a' are
    0.08333333333333333d0 and 0.9166666666666666d0, taken as 1/12 and 11/12. *)
Definition second_deriv_interp_func (phi : R) (type : ascii) : option R :=
  match type with
  | "q" => Some (if Rle_dec 0 phi then 2 else 0)
  | "p" => let t := clamp01 phi in Some (60 * t * (1 - 3 * t + 2 * t * t))
  | "h" => let t := clamp01 phi in Some (6 * (1 - 2 * t))
  | "w" => let t := pos phi in Some (4 - 6 * t)
  | "l" => Some 0
  | "a" => Some (if Rlt_dec phi (1 / 12) then 324 * Rmax 0 phi
                 else if Rlt_dec (11 / 12) phi then - 324 * (1 - Rmin 1 phi) else 0)
  | "c" => Some 0
  | _ => None
  end%char.

(** functions.f:236-264 *)
Definition well_func (phi : R) (type : ascii) : option R :=
  match type with
  | "d" => Some (16 * phi * phi * (1 - phi) * (1 - phi))
  | "s" => Some ((1 - phi) * (1 - phi))
  | _ => None
  end%char.

(** functions.f:268-296 *)
Definition deriv_well_func (phi : R) (type : ascii) : option R :=
  match type with
  | "d" => Some (32 * phi * (1 - phi) * (1 - 2 * phi))
  | "s" => Some (2 * (phi - 1))
  | _ => None
  end%char.

(** functions.f:300-328 *)
Definition second_deriv_well_func (phi : R) (type : ascii) : option R :=
  match type with
  | "d" => Some (32 * (1 + 6 * phi * (phi - 1)))
  | "s" => Some 2
  | _ => None
  end%char.

(** threshold=1.0d-16, functions.f:340,378 *)
Definition avg_threshold : R := / 10 ^ 16.

(** functions.f:332-367 *)
Definition average_func (phi1 phi2 : R) (type : ascii) : option R :=
  match type with
  | "a" => Some (/ 2 * (phi1 + phi2))
  | "h" => Some (if Rlt_dec phi1 avg_threshold then 0
                 else if Rlt_dec phi2 avg_threshold then 0
                 else 2 / (1 / phi1 + 1 / phi2))
  | _ => None
  end%char.

(** functions.f:371-402 *)
Definition deriv_average_func (avg_phi next_phi : R) (type : ascii) : option R :=
  match type with
  | "a" => Some (/ 2)
  | "h" => Some (if Rlt_dec avg_phi avg_threshold then 0
                 else / 2 * next_phi * next_phi / (avg_phi * avg_phi))
  | _ => None
  end%char.

(** functions.f:408-423 *)
Definition single_index_stiffness2d (i j : Z) : Z := (if i =? j then i else 3)%Z.
(** functions.f:430-445 *)
Definition single_index_stiffness3d (i j : Z) : Z := (if i =? j then i else - i - j + 9)%Z.

(** functions.f:452-474; Fortran integer division truncates *)
Definition storage_index_stiffness2d (i j : Z) : Z :=
  (let '(ii, jj) := if j <=? i then (j, i) else (i, j) in
   let n := 4 - ii in 7 - Z.quot (n * (n + 1)) 2 + (jj - ii))%Z.
(** functions.f:481-503 *)
Definition storage_index_stiffness3d (i j : Z) : Z :=
  (let '(ii, jj) := if j <=? i then (j, i) else (i, j) in
   let n := 7 - ii in 22 - Z.quot (n * (n + 1)) 2 + (jj - ii))%Z.

(** functions.f:507-527 *)
Definition limitedinverse (val : R) : R :=
  if Rlt_dec (/ 10 ^ 4) (Rabs val) then 1 / val else 10 ^ 4.

(** functions.f:531-564 *)
Definition interp_ratio_func (phi : R) (type1 type2 : ascii) : option R :=
  if Ascii.eqb type1 type2 then Some 1
  else if Ascii.eqb type1 "p" then
    if Ascii.eqb type2 "l" then
      let t := clamp01 phi in Some (t * t * (10 - 15 * t + 6 * t * t))
    else None
  else None.

(** functions.f:568-607 *)
Definition compl_interp_ratio_func (phi : R) (type1 type2 : ascii) : option R :=
  if Ascii.eqb type1 type2 then Some 1
  else if Ascii.eqb type1 "p" then
    if Ascii.eqb type2 "p" then Some 1
    else if Ascii.eqb type2 "l" then
      let t := clamp01 phi in Some ((1 - t) * (1 - t) * (1 + 3 * t + 6 * t * t))
    else None
  else None.

(** functions.f:612-623 *)
Definition deriv_triple_well_func (p0 p1 p2 : R) : R :=
  32 * (1 / 3) *
  (2 * p0 * (1 - p0) * (1 - 2 * p0) - p1 * (1 - p1) * (1 - 2 * p1) - p2 * (1 - p2) * (1 - 2 * p2)).
