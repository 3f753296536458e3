(** Vocabulary for C35: change of a field across a cell, monitored fields that are steep. *)
From Coq Require Import Reals ZArith List Bool.
From Verif Require Import Grid_Model Grid_Spec Tagging_Model.
Open Scope R_scope.

(** squared change across the cell, per unit cell: half the difference of the two neighbours in each direction *)
Definition change2_sq (v : arr2) (i j : Z) : R :=
  ((v (i + 1)%Z j - v (i - 1)%Z j) / 2) ^ 2 + ((v i (j + 1)%Z - v i (j - 1)%Z) / 2) ^ 2.
Definition change3_sq (v : arr3) (i j k : Z) : R :=
  ((v (i + 1)%Z j k - v (i - 1)%Z j k) / 2) ^ 2 + ((v i (j + 1)%Z k - v i (j - 1)%Z k) / 2) ^ 2 + ((v i j (k + 1)%Z - v i j (k - 1)%Z) / 2) ^ 2.
(** a change (given squared) reaches the threshold of a monitored field *)
Definition reaches (thr : option R) (change_sq : R) : Prop := exists t, thr = Some t /\ Rabs t <= sqrt change_sq.
(** one of the monitored fields (first order parameter, eta, orientation) is steep in a cell *)
Definition steep2 (m : monitors) (f : fields2) (i j : Z) : Prop :=
  reaches (mon_phase m) (change2_sq (f2_phase f 0%Z) i j) \/ reaches (mon_eta m) (change2_sq (f2_eta f) i j) \/
  reaches (mon_quat m) (sumZ 1 (f2_qlen f) (fun q => change2_sq (f2_quat f q) i j)).
Definition steep3 (m : monitors) (f : fields3) (i j k : Z) : Prop :=
  reaches (mon_phase m) (change3_sq (f3_phase f 0%Z) i j k) \/ reaches (mon_eta m) (change3_sq (f3_eta f) i j k) \/
  reaches (mon_quat m) (sumZ 1 (f3_qlen f) (fun q => change3_sq (f3_quat f q) i j k)).
(** m' monitors everything m does, with the same thresholds *)
Definition extends (m m' : monitors) : Prop :=
  (forall t, mon_phase m = Some t -> mon_phase m' = Some t) /\ (forall t, mon_eta m = Some t -> mon_eta m' = Some t) /\
  (forall t, mon_quat m = Some t -> mon_quat m' = Some t).
