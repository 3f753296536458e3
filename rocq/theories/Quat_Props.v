(** C12-C17, C51, C52: orientation algebra of source/fortran/quat.f. *)
From Coq Require Import Reals ZArith Ascii List Lra Lia.
From Verif Require Import Quat_Model Quat_Spec Quat_Proofs Quat_DerivProofs.
Import ListNotations.
Open Scope R_scope.

(** C12: quatmult4 is Hamilton's bilinear product. *)
Theorem C12_hamilton_product : let i := Q4 0 1 0 0 in let j := Q4 0 0 1 0 in let k := Q4 0 0 0 1 in
  quatmult4 i i = Q4 (-1) 0 0 0 /\ quatmult4 j j = Q4 (-1) 0 0 0 /\ quatmult4 k k = Q4 (-1) 0 0 0 /\
  quatmult4 i j = k /\ quatmult4 j k = i /\ quatmult4 k i = j /\
  (forall s p q, quatmult4 (scale4 s p) q = scale4 s (quatmult4 p q) /\
                 quatmult4 p (scale4 s q) = scale4 s (quatmult4 p q)) /\
  (forall p q r, quatmult4 (add4 p q) r = add4 (quatmult4 p r) (quatmult4 q r) /\
                 quatmult4 r (add4 p q) = add4 (quatmult4 r p) (quatmult4 r q)).
Proof. exact hamilton. Qed.
Print Assumptions C12_hamilton_product.

(** C12: and it is associative. *)
Theorem C12_associative : forall p q r, quatmult4 (quatmult4 p q) r = quatmult4 p (quatmult4 q r).
Proof. exact mult4_assoc. Qed.
Print Assumptions C12_associative.

(** C12: the 48 tabulated rotations are unit and pairwise different; entry 1 is the identity. *)
Theorem C12_table : (forall i, in_table 48 i -> unit4 (qr4 i)) /\
  (forall i j, in_table 48 i -> in_table 48 j -> qr4 i = qr4 j -> i = j) /\
  qr4 1 = Q4 1 0 0 0.
Proof. exact (conj qr4_unit (conj qr4_distinct qr4_one)). Qed.
Print Assumptions C12_table.

(** C12: the table is closed under multiplication. *)
Theorem C12_closed : forall i j, in_table 48 i -> in_table 48 j ->
  exists k, in_table 48 k /\ quatmult4 (qr4 i) (qr4 j) = qr4 k.
Proof. exact group_closed. Qed.
Print Assumptions C12_closed.

(** C12: the conjugate index table lists the inverses. *)
Theorem C12_inverses : forall i, in_table 48 i ->
  in_table 48 (conj4 i) /\
  quatmult4 (qr4 i) (qr4 (conj4 i)) = Q4 1 0 0 0 /\ quatmult4 (qr4 (conj4 i)) (qr4 i) = Q4 1 0 0 0.
Proof. exact (fun i H => conj (proj1 (conj4_range i H)) (conj4_inverse i H)). Qed.
Print Assumptions C12_inverses.

Example C12_ex : exists k, in_table 48 k /\ quatmult4 (qr4 17) (qr4 40) = qr4 k.
Proof. apply C12_closed; unfold in_table; lia. Qed.

(** C13: the search returns an equivalent orientation and no equivalent one is closer, whatever the starting index. *)
Theorem C13_search_quaternion : forall p q iq, unit4 p -> unit4 q ->
  let (i, q') := quatfindsymm4 p q iq in
  in_table 48 i /\ q' = quatmult4 q (qr4 i) /\
  forall n, in_table 48 n -> dist4 p q' <= dist4 p (quatmult4 q (qr4 n)).
Proof. exact findsymm4_unit. Qed.
Print Assumptions C13_search_quaternion.

(** C13: for arguments of any magnitude, in the code's own distance. *)
Theorem C13_search_quaternion_any : forall p q iq,
  let (i, q') := quatfindsymm4 p q iq in
  in_table 48 i /\ q' = quatmult4 q (qr4 i) /\
  forall n, in_table 48 n -> quatdiffsq4 p q' <= quatdiffsq4 p (quatmult4 q (qr4 n)).
Proof. exact findsymm4_ok. Qed.
Print Assumptions C13_search_quaternion_any.

(** C13: two-component orientations. *)
Theorem C13_search_complex : forall p q iq, unit2 p -> unit2 q ->
  let (i, q') := quatfindsymm2 p q iq in
  in_table 4 i /\ q' = quatmult2 q (qr2 i) /\
  forall n, in_table 4 n -> dist2 p q' <= dist2 p (quatmult2 q (qr2 n)).
Proof. exact findsymm2_unit. Qed.
Print Assumptions C13_search_complex.

(** C13: one angle. *)
Theorem C13_search_angle : forall p q iq,
  let (i, q') := quatfindsymm1 p q iq in
  in_table 9 i /\ q' = q + qr1 i /\
  forall n, in_table 9 n -> Rabs (q' - p) <= Rabs (q + qr1 n - p).
Proof. exact findsymm1_ok. Qed.
Print Assumptions C13_search_angle.

(** C13: for angles in [-pi,pi] the result is within an eighth of a turn. *)
Theorem C13_angle_eighth_turn : forall p q iq, - PI <= p <= PI -> - PI <= q <= PI ->
  Rabs (snd (quatfindsymm1 p q iq) - p) <= PI / 4.
Proof. exact findsymm1_close. Qed.
Print Assumptions C13_angle_eighth_turn.

Lemma C12_exists_minus_i : exists n, in_table 48 n /\ qr4 n = Q4 0 (-1) 0 0.
Proof.
  exists 6%Z. split; [unfold in_table; lia |]. rewrite qr4_scale by (unfold in_table; lia).
  change (zn (zq 6)) with 1%Z. rewrite sqrt_1. change (q4_of (zq 6)) with (Q4 0 (-1) 0 0).
  unfold scale4. cbn [qa qb qc qd]. f_equal; field.
Qed.
Example C13_ex : exists i, in_table 48 i /\ quatmult4 (Q4 0 1 0 0) (qr4 i) = Q4 1 0 0 0.
Proof.
  pose proof (C13_search_quaternion (Q4 1 0 0 0) (Q4 0 1 0 0) 7) as H.
  assert (U1 : unit4 (Q4 1 0 0 0)) by (unfold unit4; cbn [qa qb qc qd]; lra).
  assert (U2 : unit4 (Q4 0 1 0 0)) by (unfold unit4; cbn [qa qb qc qd]; lra).
  specialize (H U1 U2). destruct (quatfindsymm4 (Q4 1 0 0 0) (Q4 0 1 0 0) 7) as [i q'].
  destruct H as (Hi & Hq & Hmin). exists i. split; [exact Hi |].
  (* i times -i is 1, and -i is in the table: distance 0 is attained *)
  destruct C12_exists_minus_i as (n & Hn & En).
  specialize (Hmin n Hn). rewrite En in Hmin.
  replace (quatmult4 (Q4 0 1 0 0) (Q4 0 (-1) 0 0)) with (Q4 1 0 0 0) in Hmin
    by (unfold quatmult4; cbn [qa qb qc qd]; f_equal; ring).
  rewrite <- Hq. destruct q' as [a b c d]. unfold dist4 in Hmin. cbn [qa qb qc qd] in Hmin.
  assert (Ha : (1 - a) ^ 2 = 0 /\ (0 - b) ^ 2 = 0 /\ (0 - c) ^ 2 = 0 /\ (0 - d) ^ 2 = 0).
  { pose proof (pow2_ge_0 (1 - a)). pose proof (pow2_ge_0 (0 - b)). pose proof (pow2_ge_0 (0 - c)).
    pose proof (pow2_ge_0 (0 - d)). repeat split; lra. }
  destruct Ha as (Ha & Hb & Hc & Hd).
  assert (Z2 : forall x, x ^ 2 = 0 -> x = 0) by (intros x Hx; apply Rsqr_0_uniq; unfold Rsqr; lra).
  apply Z2 in Ha, Hb, Hc, Hd. f_equal; lra.
Qed.

(** C14: applying index i and then -i restores the value and reports the conjugate index; magnitude unchanged. *)
Theorem C14_roundtrip_quaternion : forall q i, in_table 48 i ->
  exists q', quatsymmrotate4 q i = Some (i, q') /\ quatsymmrotate4 q' (- i) = Some (conj4 i, q) /\
    quatmagsq4 q' = quatmagsq4 q.
Proof. exact rotate4_roundtrip. Qed.
Print Assumptions C14_roundtrip_quaternion.

(** C14: two components. *)
Theorem C14_roundtrip_complex : forall q i, in_table 4 i ->
  exists q', quatsymmrotate2 q i = Some (i, q') /\ quatsymmrotate2 q' (- i) = Some (conj2 i, q) /\
    quatmagsq2 q' = quatmagsq2 q.
Proof. exact rotate2_roundtrip. Qed.
Print Assumptions C14_roundtrip_complex.

(** C14: one angle; the shift is a multiple of a quarter turn. *)
Theorem C14_roundtrip_angle : forall q i, in_table 9 i ->
  exists q', quatsymmrotate1 q i = Some (i, q') /\ quatsymmrotate1 q' (- i) = Some (conj1 i, q) /\
    exists k, q' - q = IZR k * (PI / 2).
Proof. exact rotate1_roundtrip. Qed.
Print Assumptions C14_roundtrip_angle.

(** C14: rotating two orientations by the same index keeps their distance. *)
Theorem C14_isometry : forall p q i j p' q', quatsymmrotate4 p i = Some (j, p') -> quatsymmrotate4 q i = Some (j, q') ->
  dist4 p' q' = dist4 p q.
Proof. exact rotate4_isometry. Qed.
Print Assumptions C14_isometry.

(** C14: exactly the indices 0 and beyond the table are refused. *)
Theorem C14_rejects : forall p r x i,
  (quatsymmrotate4 p i = None <-> (i = 0 \/ i > 48 \/ i < -48)%Z) /\
  (quatsymmrotate2 r i = None <-> (i = 0 \/ i > 4 \/ i < -4)%Z) /\
  (quatsymmrotate1 x i = None <-> (i = 0 \/ i > 9 \/ i < -9)%Z).
Proof. exact rotate_reject. Qed.
Print Assumptions C14_rejects.

Example C14_ex : exists q', quatsymmrotate4 (Q4 1 2 3 4) 23 = Some (23%Z, q') /\ quatmagsq4 q' = 30.
Proof.
  destruct (C14_roundtrip_quaternion (Q4 1 2 3 4) 23 ltac:(unfold in_table; lia)) as (q' & H & _ & Hm).
  exists q'. split; [exact H |]. rewrite Hm. unfold quatmagsq4. cbn [qa qb qc qd]. lra.
Qed.

(** C15: the matrix of a unit quaternion is a proper rotation. *)
Theorem C15_proper : forall q, unit4 q -> proper_rotation (quatrotationmatrix q).
Proof. exact rot_proper. Qed.
Print Assumptions C15_proper.

(** C15: products of quaternions give products of matrices. *)
Theorem C15_homomorphism : forall p q i j, idx3 i -> idx3 j ->
  quatrotationmatrix (quatmult4 p q) i j = mmul (quatrotationmatrix p) (quatrotationmatrix q) i j.
Proof. exact rot_hom. Qed.
Print Assumptions C15_homomorphism.

(** C15: q and -q give the same matrix; the conjugate gives the transpose. *)
Theorem C15_sign_and_conjugate : (forall q i j, quatrotationmatrix (scale4 (-1) q) i j = quatrotationmatrix q i j) /\
  (forall q i j, quatrotationmatrix (quatconj q) i j = transpose (quatrotationmatrix q) i j).
Proof. exact (conj rot_even rot_conj). Qed.
Print Assumptions C15_sign_and_conjugate.

(** C15: the same for the in-plane two-component orientation. *)
Theorem C15_complex : (forall q, unit2 q -> proper_rotation (complexrotationmatrix q)) /\
  (forall p q i j, idx3 i -> idx3 j ->
     complexrotationmatrix (quatmult2 p q) i j = mmul (complexrotationmatrix p) (complexrotationmatrix q) i j).
Proof. exact (conj crot_proper crot_hom). Qed.
Print Assumptions C15_complex.

Example C15_ex : proper_rotation (quatrotationmatrix (Q4 (1/2) (1/2) (1/2) (1/2))) /\
  quatrotationmatrix (Q4 (1/2) (1/2) (1/2) (1/2)) 2 1 = 1.
Proof.
  split; [apply C15_proper; unfold unit4; cbn [qa qb qc qd]; lra |].
  cbn [quatrotationmatrix qa qb qc qd]. lra.
Qed.

(** C16: 34 of the 36 entries are the derivative of the matrix. *)
Theorem C16_derivative_partial : forall q i j k, idx3 i -> idx3 j -> (1 <= k <= 4)%Z ->
  (i, j, k) <> (3, 2, 2)%Z -> (i, j, k) <> (3, 1, 3)%Z ->
  derivable_pt_lim (fun x => quatrotationmatrix (set_comp q k x) i j) (comp q k) (derivquatrotationmatrixdq q i j k).
Proof. exact deriv_rot_ok. Qed.
Print Assumptions C16_derivative_partial.

(** C16: entry (3,2,2) is right exactly when the first two components agree. *)
Theorem C16_entry_322 : forall q,
  derivable_pt_lim (fun x => quatrotationmatrix (set_comp q 2 x) 3 2) (comp q 2) (derivquatrotationmatrixdq q 3 2 2) <->
  qa q = qb q.
Proof. exact deriv_rot_322. Qed.
Print Assumptions C16_entry_322.

(** C16: entry (3,1,3) is right exactly when the first component vanishes. *)
Theorem C16_entry_313 : forall q,
  derivable_pt_lim (fun x => quatrotationmatrix (set_comp q 3 x) 3 1) (comp q 3) (derivquatrotationmatrixdq q 3 1 3) <->
  qa q = 0.
Proof. exact deriv_rot_313. Qed.
Print Assumptions C16_entry_313.

(** C16: so the property fails for some unit quaternion. *)
Theorem C16_derivative_refuted : exists q i j k, unit4 q /\ idx3 i /\ idx3 j /\ (1 <= k <= 4)%Z /\
  ~ derivable_pt_lim (fun x => quatrotationmatrix (set_comp q k x) i j) (comp q k) (derivquatrotationmatrixdq q i j k).
Proof. exact deriv_rot_refuted. Qed.
Print Assumptions C16_derivative_refuted.

(** C16: the two-component version is right in every entry. *)
Theorem C16_complex_derivative : forall q i j k, idx3 i -> idx3 j -> (1 <= k <= 2)%Z ->
  derivable_pt_lim (fun x => complexrotationmatrix (set_comp2 q k x) i j) (comp2 q k) (derivcomplexrotationmatrixdq q i j k).
Proof. exact deriv_crot_ok. Qed.
Print Assumptions C16_complex_derivative.

Example C16_ex : derivable_pt_lim (fun x => quatrotationmatrix (Q4 1 2 x 4) 1 2) 3 (derivquatrotationmatrixdq (Q4 1 2 3 4) 1 2 3).
Proof.
  apply (C16_derivative_partial (Q4 1 2 3 4) 1 2 3); unfold idx3; try lia; intro E; discriminate E.
Qed.

(** C17: normalisation keeps the direction and gives unit length, for every magnitude above the threshold. *)
Theorem C17_unit : (forall q, tiny <= quatmagn4 q -> exists s, 0 < s /\ quatnorm4 q = scale4 s q /\ unit4 (quatnorm4 q)) /\
  (forall q, tiny <= quatmagn2 q -> exists s, 0 < s /\ quatnorm2 q = scale2 s q /\ unit2 (quatnorm2 q)).
Proof. exact (conj norm4_unit norm2_unit). Qed.
Print Assumptions C17_unit.

(** C17: below the threshold the result is zero, not a division by zero. *)
Theorem C17_zero : (forall q, quatmagn4 q < tiny -> quatnorm4 q = Q4 0 0 0 0) /\
  (forall q, quatmagn2 q < tiny -> quatnorm2 q = Q2 0 0).
Proof. exact (conj norm4_zero norm2_zero). Qed.
Print Assumptions C17_zero.

(** C17: normalising a unit value changes nothing. *)
Theorem C17_idempotent : (forall q, unit4 q -> quatnorm4 q = q) /\ (forall q, unit2 q -> quatnorm2 q = q).
Proof. exact (conj norm4_of_unit norm2_of_unit). Qed.
Print Assumptions C17_idempotent.

(** C17: angles are brought to [-pi,pi] by whole turns. *)
Theorem C17_angle : forall q, - PI <= quatnorm1 q <= PI /\ exists k, quatnorm1 q = q + IZR k * (2 * PI).
Proof. exact quatnorm1_ok. Qed.
Print Assumptions C17_angle.

Example C17_ex : exists s, 0 < s /\ quatnorm4 (Q4 2 0 0 0) = scale4 s (Q4 2 0 0 0) /\ unit4 (quatnorm4 (Q4 2 0 0 0)).
Proof.
  apply (proj1 C17_unit). unfold quatmagn4, quatmagsq4. cbn [qa qb qc qd].
  replace (2 * 2 + 0 * 0 + 0 * 0 + 0 * 0) with (2 * 2) by ring. rewrite sqrt_square by lra.
  unfold tiny. lra.
Qed.

(** C51: the inverse gradient norm is positive and at most the inverse floor, and never over-normalises. *)
Theorem C51_inverse_norm_bounds : forall type g f, In type ["m"; "t"; "s"]%char -> 0 < f -> 0 <= g ->
  exists r, eval_grad_normi g type (f * f) (1 / f) = Some r /\ 0 < r <= 1 / f /\ r * sqrt g <= 1.
Proof. exact grad_normi_bounds. Qed.
Print Assumptions C51_inverse_norm_bounds.

(** C51: with floor type 'm' it is the exact inverse norm above the floor. *)
Theorem C51_inverse_norm_exact : forall g f, 0 < f -> f * f < g -> eval_grad_normi g "m" (f * f) (1 / f) = Some (1 / sqrt g).
Proof. exact grad_normi_exact. Qed.
Print Assumptions C51_inverse_norm_exact.

Example C51_ex : eval_grad_normi 4 "m" (1 * 1) (1 / 1) = Some (1 / sqrt 4).
Proof. apply C51_inverse_norm_exact; lra. Qed.

(** C52: the cubic anisotropy tensor is unchanged when the orientation is replaced by a crystal-equivalent one. *)
Theorem C52_cubic_invariance : forall q n i j k l, in_table 48 n -> idx3 i -> idx3 j -> idx3 k -> idx3 l ->
  rotationtensorijkl (quatrotationmatrix (quatmult4 q (qr4 n))) i j k l =
  rotationtensorijkl (quatrotationmatrix q) i j k l.
Proof. exact cubic_tensor_invariant. Qed.
Print Assumptions C52_cubic_invariance.

(** C52: and it is totally symmetric in its indices. *)
Theorem C52_total_symmetry : forall M i j k l,
  rotationtensorijkl M i j k l = rotationtensorijkl M j i k l /\
  rotationtensorijkl M i j k l = rotationtensorijkl M i k j l /\
  rotationtensorijkl M i j k l = rotationtensorijkl M i j l k.
Proof. exact cubic_tensor_symmetric. Qed.
Print Assumptions C52_total_symmetry.

Example C52_ex : rotationtensorijkl (quatrotationmatrix (quatmult4 (Q4 1 2 3 4) (qr4 9))) 1 1 2 2 =
  rotationtensorijkl (quatrotationmatrix (Q4 1 2 3 4)) 1 1 2 2.
Proof. apply C52_cubic_invariance; unfold in_table, idx3; lia. Qed.
