(** C36: the noise field. *)
From Coq Require Import Reals ZArith List Bool Lra Lia.
From Verif Require Import Grid_Model Grid_Spec Grid_Proofs Noise_Model Noise_Spec Noise_Proofs.
Open Scope R_scope.

(** C36: every access stays inside its array, every cell of the written array (ghosts included) gets the value computed from the order parameter of that same cell, with one generator call per cell, and nothing else is written. *)
Theorem C36_storage : forall three_d b cdg phig gen phi cd, box_ok three_d b -> ghosts_ok three_d cdg -> ghosts_ok three_d phig -> at_least phig cdg ->
  exists s, setField three_d b cdg phig gen phi cd = Some s /\
    (forall i j k, in_pbox (ghost_box b cdg) i j k ->
       let p := phi (stored_at (ghost_box b phig) i j k) in
       data s (stored_at (ghost_box b cdg) i j k) = (gen (stored_at (ghost_box b cdg) i j k) * 4 * p * (1 - p))%R) /\
    (forall n, (n < 0 \/ array_size (ghost_box b cdg) <= n)%Z -> data s n = cd n) /\ calls s = array_size (ghost_box b cdg).
Proof. exact noise_field. Qed.
Print Assumptions C36_storage.

(** C36: the amplitude is at most that of the generator where the order parameter is in [0,1], and pure phases get no noise. *)
Theorem C36_amplitude : forall three_d b cdg phig gen phi cd s i j k, box_ok three_d b -> ghosts_ok three_d cdg -> ghosts_ok three_d phig -> at_least phig cdg ->
  setField three_d b cdg phig gen phi cd = Some s -> in_pbox (ghost_box b cdg) i j k ->
  let p := phi (stored_at (ghost_box b phig) i j k) in let d := data s (stored_at (ghost_box b cdg) i j k) in
  (0 <= p <= 1 -> Rabs d <= Rabs (gen (stored_at (ghost_box b cdg) i j k)))%R /\ (p = 0 \/ p = 1 -> d = 0)%R.
Proof. exact noise_bounded. Qed.
Print Assumptions C36_amplitude.

Example C36_ex : (* 3x2 cells, no ghosts in the noise, one in the order parameter *)
  exists s, setField false (mk_pbox 4 6 2 3 0 0) (mk_gwidth 0 0 0) (mk_gwidth 1 1 0) (fun _ => 1) (fun n => if (n =? 7)%Z then 1 / 2 else 0) (fun _ => 9) = Some s /\
    data s 1%Z = 1 /\ data s 0%Z = 0 /\ data s 6%Z = 9.
Proof.
  destruct (noise_field false (mk_pbox 4 6 2 3 0 0) (mk_gwidth 0 0 0) (mk_gwidth 1 1 0) (fun _ => 1) (fun n => if (n =? 7)%Z then 1 / 2 else 0) (fun _ => 9)) as (s & E & D & O & _).
  - split; [cbn; lia|auto].
  - split; [cbn; lia|auto].
  - split; [cbn; lia|auto].
  - unfold at_least; cbn; lia.
  - exists s. split; [exact E|]. split; [|split].
    + specialize (D 5%Z 2%Z 0%Z ltac:(unfold in_pbox; cbn; lia)). cbn in D. rewrite D. field.
    + specialize (D 4%Z 2%Z 0%Z ltac:(unfold in_pbox; cbn; lia)). cbn in D. rewrite D. field.
    + apply O. right. vm_compute. discriminate.
Qed.
(** the assert in the code looks at the first direction only: that is not enough *)
Example C36_ex_narrow : setField false (mk_pbox 0 0 0 0 0 0) (mk_gwidth 0 1 0) (mk_gwidth 0 0 0) (fun _ => 1) (fun _ => 0) (fun _ => 0) = None.
Proof. reflexivity. Qed.
