(** Noise::setField (Noise.cc:18-72).
    CellData storage is a flat array over the ghost box, first index fastest (SAMRAI ArrayData); an access outside
    the array is an error (None).  gen n = result of the n-th call of the generator.  In 2D the third direction has
    one cell with index 0 and no ghosts. *)
From Coq Require Import Reals ZArith List Bool.
From Verif Require Import Grid_Model.
Open Scope R_scope.

(** patch box and ghost widths *)
Record pbox := mk_pbox { lo0 : Z; hi0 : Z; lo1 : Z; hi1 : Z; lo2 : Z; hi2 : Z }.
Record gwidth := mk_gwidth { gw0 : Z; gw1 : Z; gw2 : Z }.
(** getGhostBox *)
Definition ghost_box (b : pbox) (g : gwidth) : pbox :=
  (mk_pbox (lo0 b - gw0 g) (hi0 b + gw0 g) (lo1 b - gw1 g) (hi1 b + gw1 g) (lo2 b - gw2 g) (hi2 b + gw2 g))%Z.
Definition cells0 (b : pbox) : Z := (hi0 b - lo0 b + 1)%Z.
Definition cells1 (b : pbox) : Z := (hi1 b - lo1 b + 1)%Z.
Definition cells2 (b : pbox) : Z := (hi2 b - lo2 b + 1)%Z.
Definition array_size (b : pbox) : Z := (cells0 b * cells1 b * cells2 b)%Z.

Record nstate := mk_nstate { idx : Z; idx_phi : Z; calls : Z; data : Z -> R }.
Definition store (a : Z -> R) (i : Z) (v : R) : Z -> R := fun n => if (n =? i)%Z then v else a n.
Definition bind_state (s : option nstate) (f : nstate -> option nstate) : option nstate := match s with Some s => f s | None => None end.

(** Noise.cc:34-72; three_d = (NDIM == 3) *)
Definition setField (three_d : bool) (b : pbox) (cdg phig : gwidth) (gen : Z -> R) (phi cd : Z -> R) : option nstate :=
  let gbox := ghost_box b cdg in
  let phi_gbox := ghost_box b phig in
  let imin2 := if three_d then lo2 gbox else 0%Z in
  let imax2 := if three_d then hi2 gbox else 0%Z in
  let min_phi2 := if three_d then lo2 phi_gbox else 0%Z in
  let inc_j_phi := cells0 phi_gbox in
  let inc_k_phi := (if three_d then inc_j_phi * cells1 phi_gbox else 0)%Z in
  let start := ((lo0 gbox - lo0 phi_gbox) + (lo1 gbox - lo1 phi_gbox) * inc_j_phi + (imin2 - min_phi2) * inc_k_phi)%Z in
  do_loop imin2 imax2 (fun kk s =>
    let s := do_loop (lo1 gbox) (hi1 gbox) (fun jj s =>
      let s := do_loop (lo0 gbox) (hi0 gbox) (fun ii s =>
        bind_state s (fun s =>
          if ((0 <=? idx s) && (idx s <? array_size gbox) && (0 <=? idx_phi s) && (idx_phi s <? array_size phi_gbox))%Z
          then Some (mk_nstate (idx s + 1) (idx_phi s + 1) (calls s + 1)
                       (store (data s) (idx s) (gen (calls s) * 4 * phi (idx_phi s) * (1 - phi (idx_phi s)))))
          else None)) s in
      bind_state s (fun s => Some (mk_nstate (idx s) (idx_phi s + 2 * (gw0 phig - gw0 cdg)) (calls s) (data s)))) s in
    bind_state s (fun s => Some (mk_nstate (idx s) (idx_phi s + 2 * inc_j_phi * (gw1 phig - gw1 cdg)) (calls s) (data s))))
  (Some (mk_nstate 0 start 0 cd)).
