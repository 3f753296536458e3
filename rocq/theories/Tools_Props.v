(** C43: keyed values gathered from all ranks. *)
From Coq Require Import Reals ZArith List Bool Sorted Permutation Lra Lia.
From Verif Require Import Tools_Model Tools_Spec Tools_Proofs.
Import ListNotations.
Open Scope R_scope.

(** C43: the reduction never fails; every rank ends with a map holding exactly the keys of all ranks (and of its previous map), with the sums of all contributions. *)
Theorem C43_sums : forall lcls gbl, is_map gbl -> exists res, listLocalToGlobal lcls gbl = Some res /\ is_map res /\
  (forall k, has_key res k <-> has_key gbl k \/ exists m, In m lcls /\ has_key m k) /\
  (forall k, get res k = get gbl k + contributions lcls k).
Proof. exact local_to_global. Qed.
Print Assumptions C43_sums.

(** C43: nothing is lost or counted twice. *)
Theorem C43_total : forall lcls gbl res, listLocalToGlobal lcls gbl = Some res -> total res = total gbl + grand_total lcls.
Proof. exact local_to_global_total. Qed.
Print Assumptions C43_total.

(** C43: the result does not depend on the numbering of the ranks. *)
Theorem C43_rank_order : forall lcls lcls', Permutation lcls lcls' -> listLocalToGlobal lcls [] = listLocalToGlobal lcls' [].
Proof. exact rank_order. Qed.
Print Assumptions C43_rank_order.

(** C43: gathering returns the data of the ranks one after another, every entry of the receive buffer being set, *)
Theorem C43_gather : forall A (xss : list (list A)) n buf, allGatherv xss n = Some buf -> buf = map Some (concat xss).
Proof. exact gather_exact. Qed.
Print Assumptions C43_gather.

(** C43: and stops with an error iff the announced total size is wrong. *)
Theorem C43_gather_size : forall A (xss : list (list A)) n, allGatherv xss n = None <-> n <> fold_right Nat.add 0%nat (map (@length A) xss).
Proof. exact gather_size. Qed.
Print Assumptions C43_gather_size.

Example C43_ex : (* three ranks, one without data *)
  exists res, listLocalToGlobal [[(2%Z, 1); (5%Z, 3)]; []; [(0%Z, 7); (5%Z, 4)]] [] = Some res /\ map fst res = [0; 2; 5]%Z /\ get res 5 = 7 /\ get res 1 = 0.
Proof.
  eexists. split; [reflexivity |]. split; [reflexivity |]. split; cbn; ring.
Qed.
