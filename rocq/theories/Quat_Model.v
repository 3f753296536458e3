(** Model of source/fortran/quat.f.  Doubles are exact reals; [None] is the
    Fortran [stop].  The saved first_pass tables are recomputed at each call
    (same values each time). *)
From Coq Require Import Reals ZArith List Ascii.
Import ListNotations.
Open Scope R_scope.

Record q4 := Q4 { qa : R; qb : R; qc : R; qd : R }.
Record q2 := Q2 { ca : R; cb : R }.

(** quat.f:837-851 quatsub4, 853-864 quatsub2 *)
Definition quatsub4 (p q : q4) : q4 := Q4 (qa p - qa q) (qb p - qb q) (qc p - qc q) (qd p - qd q).
Definition quatsub2 (p q : q2) : q2 := Q2 (ca p - ca q) (cb p - cb q).

(** quat.f:867-895 *)
Definition quatmult4 (p q : q4) : q4 :=
  Q4 (qa p * qa q - qb p * qb q - qc p * qc q - qd p * qd q)
     (qa p * qb q + qb p * qa q + qc p * qd q - qd p * qc q)
     (qa p * qc q + qc p * qa q + qd p * qb q - qb p * qd q)
     (qa p * qd q + qd p * qa q + qb p * qc q - qc p * qb q).
(** quat.f:898-912 *)
Definition quatmult2 (p q : q2) : q2 :=
  Q2 (ca p * ca q - cb p * cb q) (ca p * cb q + cb p * ca q).

(** quat.f:915-942 *)
Definition quatconj (q : q4) : q4 := Q4 (qa q) (- qb q) (- qc q) (- qd q).
Definition quatconj2 (q : q2) : q2 := Q2 (ca q) (- cb q).

(** quat.f:971-994 *)
Definition quatmagsq4 (q : q4) : R := qa q * qa q + qb q * qb q + qc q * qc q + qd q * qd q.
Definition quatmagsq2 (q : q2) : R := ca q * ca q + cb q * cb q.
(** quat.f:945-968 *)
Definition quatmagn4 (q : q4) : R := sqrt (quatmagsq4 q).
Definition quatmagn2 (q : q2) : R := sqrt (quatmagsq2 q).

(** the 1.d-15 of quat.f:1007,1030 *)
Definition tiny : R := / 10 ^ 15.
(** quat.f:997-1040 *)
Definition quatmaginv4 (q : q4) : R := if Rlt_dec (quatmagn4 q) tiny then 0 else 1 / quatmagn4 q.
Definition quatmaginv2 (q : q2) : R := if Rlt_dec (quatmagn2 q) tiny then 0 else 1 / quatmagn2 q.

(** quat.f:1069-1084, 1087-1100 *)
Definition quatnorm4 (q : q4) : q4 :=
  let m := quatmaginv4 q in Q4 (qa q * m) (qb q * m) (qc q * m) (qd q * m).
Definition quatnorm2 (q : q2) : q2 :=
  let m := quatmaginv2 q in Q2 (ca q * m) (cb q * m).

(** Fortran [int]: truncation towards zero; [Int_part] is the floor *)
Definition ftrunc (x : R) : Z := if Rle_dec 0 x then Int_part x else (- Int_part (- x))%Z.
(** Fortran [mod(a,p)] = a - int(a/p)*p *)
Definition fmod (a p : R) : R := a - IZR (ftrunc (a / p)) * p.
(** quat.f:1105-1128 *)
Definition quatnorm1 (q : R) : R :=
  if Rle_dec 0 q then fmod (q + PI) (2 * PI) - PI else fmod (q - PI) (2 * PI) + PI.

(** quat.f:1171-1197, 1203-1225 *)
Definition quatdiffsq4 (p q : q4) : R := quatmagsq4 (quatsub4 (quatnorm4 q) (quatnorm4 p)).
Definition quatdiffsq2 (p q : q2) : R := quatmagsq2 (quatsub2 (quatnorm2 q) (quatnorm2 p)).
(** quat.f:1228-1238 *)
Definition quatdiffabs1 (p q : R) : R := Rabs (q - p).

(** quat.f:165-283 setqr: arguments of quatset, in table order *)
Definition qr_int : list (Z * Z * Z * Z) := [
  (1, 0, 0, 0); (0, 1, 0, 0); (0, 0, 1, 0); (0, 0, 0, 1);
  (-1, 0, 0, 0); (0, -1, 0, 0); (0, 0, -1, 0); (0, 0, 0, -1);
  (1, 1, 0, 0); (1, 0, 1, 0); (1, 0, 0, 1); (0, 1, 1, 0);
  (0, 1, 0, 1); (0, 0, 1, 1); (-1, 1, 0, 0); (-1, 0, 1, 0);
  (-1, 0, 0, 1); (0, -1, 1, 0); (0, -1, 0, 1); (0, 0, -1, 1);
  (1, -1, 0, 0); (1, 0, -1, 0); (1, 0, 0, -1); (0, 1, -1, 0);
  (0, 1, 0, -1); (0, 0, 1, -1); (-1, -1, 0, 0); (-1, 0, -1, 0);
  (-1, 0, 0, -1); (0, -1, -1, 0); (0, -1, 0, -1); (0, 0, -1, -1);
  (1, 1, 1, 1); (-1, 1, 1, 1); (1, -1, 1, 1); (1, 1, -1, 1);
  (1, 1, 1, -1); (-1, -1, 1, 1); (-1, 1, -1, 1); (-1, 1, 1, -1);
  (1, -1, -1, 1); (1, -1, 1, -1); (1, 1, -1, -1); (1, -1, -1, -1);
  (-1, 1, -1, -1); (-1, -1, 1, -1); (-1, -1, -1, 1); (-1, -1, -1, -1)]%Z.

(** quat.f:701-715 quatset normalises its arguments *)
Definition quatset (v : Z * Z * Z * Z) : q4 :=
  let '(w, x, y, z) := v in quatnorm4 (Q4 (IZR w) (IZR x) (IZR y) (IZR z)).

(** qr(:,i), i in 1..48 *)
Definition qr4 (i : Z) : q4 := quatset (nth (Z.to_nat (i - 1)) qr_int (0, 0, 0, 0)%Z).

(** quat.f:235-282 iq_qr_conj *)
Definition conj4_tab : list Z := [1; 6; 7; 8; 5; 2; 3; 4; 21; 22; 23; 30; 31; 32; 27; 28; 29; 24; 25; 26;
  9; 10; 11; 18; 19; 20; 15; 16; 17; 12; 13; 14; 44; 48; 43; 42; 41; 45; 46; 47; 37; 36; 35; 33; 38; 39;
  40; 34]%Z.
Definition conj4 (i : Z) : Z := nth (Z.to_nat (i - 1)) conj4_tab 0%Z.

(** quat.f:718-730 quatset2; table of 403-406 *)
Definition quatset2 (v : Z * Z) : q2 := quatnorm2 (Q2 (IZR (fst v)) (IZR (snd v))).
Definition qr2_int : list (Z * Z) := [(1, 0); (0, 1); (-1, 0); (0, -1)]%Z.
Definition qr2 (i : Z) : q2 := quatset2 (nth (Z.to_nat (i - 1)) qr2_int (0, 0)%Z).
(** quat.f:409-412 *)
Definition conj2 (i : Z) : Z := nth (Z.to_nat (i - 1)) [1; 4; 3; 2]%Z 0%Z.

(** quat.f:560-568, table of angles *)
Definition qr1 (i : Z) : R :=
  nth (Z.to_nat (i - 1))
    [0; 1 / 2 * PI; - (1 / 2 * PI); PI; - PI; 3 / 2 * PI; - (3 / 2 * PI); 2 * PI; - (2 * PI)] 0.
(** quat.f:571-579 *)
Definition conj1 (i : Z) : Z := nth (Z.to_nat (i - 1)) [1; 3; 2; 5; 4; 7; 6; 9; 8]%Z 0%Z.

(** The q2_prime candidate of rotation [n]: unrotated copy for n = 1, else product (or
    sum); quat.f:126-131, 140-145 (4), 423-428, 437-442 (2), 590-595, 603-608 (1). *)
Definition cand4 (q : q4) (n : Z) : q4 := if (n =? 1)%Z then q else quatmult4 q (qr4 n).
Definition cand2 (q : q2) (n : Z) : q2 := if (n =? 1)%Z then q else quatmult2 q (qr2 n).
Definition cand1 (q : R) (n : Z) : R := if (n =? 1)%Z then q else q + qr1 n.

(** Entry normalisation of the guess, quat.f:120-123 / 417-420 / 584-587 *)
Definition find_start (N : Z) (conj : Z -> Z) (iq : Z) : Z :=
  let iq := if ((iq =? 0) || (N <? iq) || (iq <? - N))%bool%Z then 1%Z else iq in
  if (iq <? 0)%Z then conj (- iq)%Z else iq.

(** The do loop over nn with [exit], quat.f:138-153 / 435-450 / 601-614; [mn] is
    (min_iq, min_q2_prime), [dist] the distance of a candidate. *)
Fixpoint find_loop {A} (cand : Z -> A) (dist : A -> R) (thr : R) (iq : Z) (nns : list Z) (mn : Z * A)
  : Z * A :=
  match nns with
  | [] => mn
  | nn :: rest =>
      if (nn =? iq)%Z then find_loop cand dist thr iq rest mn
      else
        let c := cand nn in
        let mn' := if Rlt_dec (dist c) (dist (snd mn)) then (nn, c) else mn in
        if Rle_dec (dist c) thr then mn' else find_loop cand dist thr iq rest mn'
  end.

(** quat.f:73-162 and its 2- and 1-component twins 343-446, 522-625: returns iq and q2_prime.
    [min_dsq] is recomputed from the stored candidate (same value). *)
Definition find_symm {A} (N : Z) (conj : Z -> Z) (cand : Z -> A) (dist : A -> R) (thr : R) (iq : Z)
  : Z * A :=
  let i := find_start N conj iq in
  if Rle_dec (dist (cand i)) thr then (i, cand i)
  else find_loop cand dist thr i (map Z.of_nat (seq 1 (Z.to_nat N))) (i, cand i).

Definition quatfindsymm4 (p q : q4) (iq : Z) : Z * q4 :=
  find_symm 48 conj4 (cand4 q) (quatdiffsq4 p) ((2 * sin (PI / 16)) * (2 * sin (PI / 16))) iq.
Definition quatfindsymm2 (p q : q2) (iq : Z) : Z * q2 :=
  find_symm 4 conj2 (cand2 q) (quatdiffsq2 p) ((2 * sin (PI / 8)) * (2 * sin (PI / 8))) iq.
Definition quatfindsymm1 (p q : R) (iq : Z) : Z * R :=
  find_symm 9 conj1 (cand1 q) (quatdiffabs1 p) (1 / 4 * PI) iq.

(** quat.f:290-340, 449-519, 628-698; also returns the (possibly replaced) iq *)
Definition rot_index (N : Z) (conj : Z -> Z) (iq : Z) : option Z :=
  if ((iq =? 0) || (N <? iq) || (iq <? - N))%bool%Z then None
  else Some (if (iq <? 0)%Z then conj (- iq)%Z else iq).
Definition quatsymmrotate4 (q : q4) (iq : Z) : option (Z * q4) :=
  match rot_index 48 conj4 iq with None => None | Some i => Some (i, cand4 q i) end.
Definition quatsymmrotate2 (q : q2) (iq : Z) : option (Z * q2) :=
  match rot_index 4 conj2 iq with None => None | Some i => Some (i, cand2 q i) end.
Definition quatsymmrotate1 (q : R) (iq : Z) : option (Z * R) :=
  match rot_index 9 conj1 iq with None => None | Some i => Some (i, q + qr1 i) end.

(** quat.f:1315-1339; (row, column), 1-based *)
Definition quatrotationmatrix (q : q4) (i j : Z) : R :=
  match i, j with
  | 1%Z, 1%Z => qa q * qa q + qb q * qb q - qc q * qc q - qd q * qd q
  | 2%Z, 1%Z => 2 * (qa q * qd q + qb q * qc q)
  | 3%Z, 1%Z => 2 * (qb q * qd q - qa q * qc q)
  | 1%Z, 2%Z => 2 * (qb q * qc q - qa q * qd q)
  | 2%Z, 2%Z => qa q * qa q - qb q * qb q + qc q * qc q - qd q * qd q
  | 3%Z, 2%Z => 2 * (qa q * qb q + qc q * qd q)
  | 1%Z, 3%Z => 2 * (qa q * qc q + qb q * qd q)
  | 2%Z, 3%Z => 2 * (qc q * qd q - qa q * qb q)
  | 3%Z, 3%Z => qa q * qa q - qb q * qb q - qc q * qc q + qd q * qd q
  | _, _ => 0
  end.

(** quat.f:1344-1403 *)
Definition derivquatrotationmatrixdq (q : q4) (i j k : Z) : R :=
  match k, i, j with
  | 1%Z, 1%Z, 1%Z => 2 * qa q | 1%Z, 2%Z, 1%Z => 2 * qd q | 1%Z, 3%Z, 1%Z => -2 * qc q
  | 1%Z, 1%Z, 2%Z => -2 * qd q | 1%Z, 2%Z, 2%Z => 2 * qa q | 1%Z, 3%Z, 2%Z => 2 * qb q
  | 1%Z, 1%Z, 3%Z => 2 * qc q | 1%Z, 2%Z, 3%Z => -2 * qb q | 1%Z, 3%Z, 3%Z => 2 * qa q
  | 2%Z, 1%Z, 1%Z => 2 * qb q | 2%Z, 2%Z, 1%Z => 2 * qc q | 2%Z, 3%Z, 1%Z => 2 * qd q
  | 2%Z, 1%Z, 2%Z => 2 * qc q | 2%Z, 2%Z, 2%Z => -2 * qb q | 2%Z, 3%Z, 2%Z => 2 * qb q
  | 2%Z, 1%Z, 3%Z => 2 * qd q | 2%Z, 2%Z, 3%Z => -2 * qa q | 2%Z, 3%Z, 3%Z => -2 * qb q
  | 3%Z, 1%Z, 1%Z => -2 * qc q | 3%Z, 2%Z, 1%Z => 2 * qb q | 3%Z, 3%Z, 1%Z => 2 * qa q
  | 3%Z, 1%Z, 2%Z => 2 * qb q | 3%Z, 2%Z, 2%Z => 2 * qc q | 3%Z, 3%Z, 2%Z => 2 * qd q
  | 3%Z, 1%Z, 3%Z => 2 * qa q | 3%Z, 2%Z, 3%Z => 2 * qd q | 3%Z, 3%Z, 3%Z => -2 * qc q
  | 4%Z, 1%Z, 1%Z => -2 * qd q | 4%Z, 2%Z, 1%Z => 2 * qa q | 4%Z, 3%Z, 1%Z => 2 * qb q
  | 4%Z, 1%Z, 2%Z => -2 * qa q | 4%Z, 2%Z, 2%Z => -2 * qd q | 4%Z, 3%Z, 2%Z => 2 * qc q
  | 4%Z, 1%Z, 3%Z => 2 * qb q | 4%Z, 2%Z, 3%Z => 2 * qc q | 4%Z, 3%Z, 3%Z => 2 * qd q
  | _, _, _ => 0
  end.

(** quat.f:1410-1433 *)
Definition complexrotationmatrix (q : q2) (i j : Z) : R :=
  match i, j with
  | 1%Z, 1%Z => ca q | 2%Z, 1%Z => cb q | 1%Z, 2%Z => - cb q | 2%Z, 2%Z => ca q | 3%Z, 3%Z => 1
  | _, _ => 0
  end.
(** quat.f:1438-1472 *)
Definition derivcomplexrotationmatrixdq (q : q2) (i j k : Z) : R :=
  match k, i, j with
  | 1%Z, 1%Z, 1%Z => 1 | 1%Z, 2%Z, 2%Z => 1 | 2%Z, 2%Z, 1%Z => 1 | 2%Z, 1%Z, 2%Z => - 1
  | _, _, _ => 0
  end.

(** quat.f:1479-1493 *)
Definition rotationtensorijkl (M : Z -> Z -> R) (i j k l : Z) : R :=
  M i 1%Z * M j 1%Z * M k 1%Z * M l 1%Z + M i 2%Z * M j 2%Z * M k 2%Z * M l 2%Z
  + M i 3%Z * M j 3%Z * M k 3%Z * M l 3%Z.

(** quat.f:1497-1537; x**(-0.5d0) is 1/sqrt x.  The arguments floor_grad_norm2 and
    max_grad_normi are gradient_floor**2 and 1/gradient_floor at both call sites
    (2d/quatdiffusion.m4:60-62, 2d/quatfacops.m4:60-63). *)
Definition eval_grad_normi (grad_norm2 : R) (floor_type : ascii) (floor_grad_norm2 max_grad_normi : R)
  : option R :=
  match floor_type with
  | "m" => Some (if Rlt_dec floor_grad_norm2 grad_norm2 then / sqrt grad_norm2 else max_grad_normi)
  | "t" => let gng2 := grad_norm2 * max_grad_normi * max_grad_normi in
           Some (if Rlt_dec (/ 100) gng2 then tanh (max_grad_normi * sqrt grad_norm2) / sqrt grad_norm2
                 else max_grad_normi * (1 - gng2 * (5 - 2 * gng2) / 15))
  | "s" => Some (/ sqrt (grad_norm2 + floor_grad_norm2))
  | _ => None
  end%char.
