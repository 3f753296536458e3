From Coq Require Import Reals ZArith List Bool Lra Lia.
From Verif Require Import Grid_Model Grid_Spec Grid_Proofs Noise_Model Noise_Spec.
Open Scope Z_scope.

Lemma stored_inj b i j k i' j' k' : in_pbox b i j k -> in_pbox b i' j' k' -> stored_at b i j k = stored_at b i' j' k' -> i = i' /\ j = j' /\ k = k'.
Proof.
  unfold in_pbox, stored_at. intros (A & B & C) (A' & B' & C').
  set (n := hi0 b - lo0 b + 1). set (m := hi1 b - lo1 b + 1). set (x := j - lo1 b + m * (k - lo2 b)). set (x' := j' - lo1 b + m * (k' - lo2 b)). intros H.
  assert (x = x') by nia. assert (i = i') by nia. unfold x, x' in *. assert (k = k') by nia. subst. repeat split; lia.
Qed.
Lemma stored_range b i j k : in_pbox b i j k -> 0 <= stored_at b i j k < array_size b.
Proof.
  unfold in_pbox, stored_at, array_size, cells0, cells1, cells2. intros (A & B & C).
  set (n := hi0 b - lo0 b + 1) in *. set (m := hi1 b - lo1 b + 1) in *. set (p := hi2 b - lo2 b + 1) in *.
  assert (H1 : 0 <= (j - lo1 b) + m * (k - lo2 b) <= m * p - 1) by nia. nia.
Qed.

Section Run.
  Context (three_d : bool) (b : pbox) (cdg phig : gwidth) (gen phi cd : Z -> R).
  Context (Hb : box_ok three_d b) (Hcd : ghosts_ok three_d cdg) (Hphi : ghosts_ok three_d phig) (Hge : at_least phig cdg).
  Let gbox := ghost_box b cdg.
  Let pgbox := ghost_box b phig.
  Definition noise (i j k : Z) : R := let p := phi (stored_at pgbox i j k) in (gen (stored_at gbox i j k) * 4 * p * (1 - p))%R.

  (** state reached before cell (i,j,k) *)
  Definition at_cell (i j k : Z) (s : option nstate) : Prop := exists st, s = Some st /\
    idx st = stored_at gbox i j k /\ idx_phi st = stored_at pgbox i j k /\ calls st = idx st /\
    (forall a c d, in_pbox gbox a c d -> stored_at gbox a c d < idx st -> data st (stored_at gbox a c d) = noise a c d) /\
    (forall n, n < 0 \/ idx st <= n -> data st n = cd n).

  Definition zlo : Z := if three_d then lo2 gbox else 0.
  Definition zhi : Z := if three_d then hi2 gbox else 0.
  Lemma z_bounds : zlo = lo2 gbox /\ zhi = hi2 gbox.
  Proof.
    unfold zlo, zhi, gbox, ghost_box; cbn. destruct three_d; [auto|]. destruct Hb as (_ & H). destruct Hcd as (_ & G). destruct (H eq_refl). rewrite (G eq_refl). lia.
  Qed.
  Lemma sub_box i j k : in_pbox gbox i j k -> in_pbox pgbox i j k.
  Proof. unfold in_pbox, gbox, pgbox, ghost_box; cbn. destruct Hge as (? & ? & ?). lia. Qed.

  Definition cell_body (s : option nstate) : option nstate :=
    bind_state s (fun s =>
      if ((0 <=? idx s) && (idx s <? array_size gbox) && (0 <=? idx_phi s) && (idx_phi s <? array_size pgbox))%Z
      then Some (mk_nstate (idx s + 1) (idx_phi s + 1) (calls s + 1)
                   (store (data s) (idx s) (gen (calls s) * 4 * phi (idx_phi s) * (1 - phi (idx_phi s)))%R))
      else None).

  Lemma cell_step i j k s : in_pbox gbox i j k -> at_cell i j k s -> at_cell (i + 1) j k (cell_body s).
  Proof.
    intros Hin (st & -> & E1 & E2 & E3 & D1 & D2). unfold cell_body; cbn [bind_state].
    pose proof (stored_range gbox i j k Hin). pose proof (stored_range pgbox i j k (sub_box _ _ _ Hin)).
    rewrite E1, E2. rewrite (proj2 (Z.leb_le _ _)), (proj2 (Z.ltb_lt _ _)), (proj2 (Z.leb_le _ _)), (proj2 (Z.ltb_lt _ _)) by lia. cbn [andb].
    eexists; split; [reflexivity|]. cbn [idx idx_phi calls data].
    assert (S1 : forall B, stored_at B (i + 1) j k = stored_at B i j k + 1) by (intros; unfold stored_at; lia).
    rewrite !S1. split; [auto|split; [auto|split; [lia|split]]].
    - intros a c d Ha Hlt. unfold store. destruct (Z.eqb_spec (stored_at gbox a c d) (stored_at gbox i j k)) as [E|E].
      + destruct (stored_inj _ _ _ _ _ _ _ Ha Hin E) as (-> & -> & ->). rewrite E3, E1. reflexivity.
      + apply D1; auto. lia.
    - intros n Hn. unfold store. destruct (Z.eqb_spec n (stored_at gbox i j k)); [lia|]. apply D2. lia.
  Qed.

  Definition shift_phi (d : Z) (s : option nstate) : option nstate :=
    bind_state s (fun s => Some (mk_nstate (idx s) (idx_phi s + d) (calls s) (data s))).
  Lemma shift_cell i j k i' j' k' d s : stored_at gbox i' j' k' = stored_at gbox i j k -> stored_at pgbox i' j' k' = stored_at pgbox i j k + d ->
    at_cell i j k s -> at_cell i' j' k' (shift_phi d s).
  Proof.
    intros G1 G2 (st & -> & E1 & E2 & E3 & D1 & D2). eexists; split; [reflexivity|]. cbn [idx idx_phi calls data]. rewrite G1, G2. repeat split; auto; lia.
  Qed.

  Definition row_body (s : option nstate) : option nstate :=
    shift_phi (2 * (gw0 phig - gw0 cdg)) (do_loop (lo0 gbox) (hi0 gbox) (fun _ => cell_body) s).
  Lemma row_step j k s : lo1 gbox <= j <= hi1 gbox -> lo2 gbox <= k <= hi2 gbox -> at_cell (lo0 gbox) j k s -> at_cell (lo0 gbox) (j + 1) k (row_body s).
  Proof.
    intros Hj Hk H. unfold row_body.
    assert (R : at_cell (hi0 gbox + 1) j k (do_loop (lo0 gbox) (hi0 gbox) (fun _ => cell_body) s)).
    { replace (hi0 gbox) with (Z.max (lo0 gbox - 1) (hi0 gbox)) at 1 by (destruct Hb as ((? & ? & ?) & _); destruct Hcd as ((? & ? & ?) & _); unfold gbox, ghost_box; cbn; lia).
      apply (do_loop_ind (option nstate) (fun i s => at_cell (i + 1) j k s)).
      - replace (lo0 gbox - 1 + 1) with (lo0 gbox) by lia. auto.
      - intros i s' Hi Hs. apply cell_step; [split; lia|]. replace (i - 1 + 1) with i in Hs by lia. auto. }
    eapply shift_cell; [| |exact R]; unfold stored_at, gbox, pgbox, ghost_box; cbn [lo0 hi0 lo1 hi1 lo2 hi2]; lia.
  Qed.

  Definition plane_body (s : option nstate) : option nstate :=
    shift_phi (2 * cells0 pgbox * (gw1 phig - gw1 cdg)) (do_loop (lo1 gbox) (hi1 gbox) (fun _ => row_body) s).
  Lemma plane_step k s : lo2 gbox <= k <= hi2 gbox -> at_cell (lo0 gbox) (lo1 gbox) k s -> at_cell (lo0 gbox) (lo1 gbox) (k + 1) (plane_body s).
  Proof.
    intros Hk H. unfold plane_body.
    assert (R : at_cell (lo0 gbox) (hi1 gbox + 1) k (do_loop (lo1 gbox) (hi1 gbox) (fun _ => row_body) s)).
    { replace (hi1 gbox) with (Z.max (lo1 gbox - 1) (hi1 gbox)) at 1 by (destruct Hb as ((? & ? & ?) & _); destruct Hcd as ((? & ? & ?) & _); unfold gbox, ghost_box; cbn; lia).
      apply (do_loop_ind (option nstate) (fun j s => at_cell (lo0 gbox) (j + 1) k s)).
      - replace (lo1 gbox - 1 + 1) with (lo1 gbox) by lia. auto.
      - intros j s' Hj Hs. apply row_step; [lia|lia|]. replace (j - 1 + 1) with j in Hs by lia. auto. }
    eapply shift_cell; [| |exact R]; unfold stored_at, cells0, gbox, pgbox, ghost_box; cbn [lo0 hi0 lo1 hi1 lo2 hi2]; ring.
  Qed.

  Lemma run : at_cell (lo0 gbox) (lo1 gbox) (hi2 gbox + 1) (setField three_d b cdg phig gen phi cd).
  Proof.
    unfold setField. cbv zeta. fold gbox pgbox. fold zlo zhi. destruct z_bounds as [-> ->].
    set (start := _ + _ + _).
    change (at_cell (lo0 gbox) (lo1 gbox) (hi2 gbox + 1) (do_loop (lo2 gbox) (hi2 gbox) (fun _ => plane_body) (Some (mk_nstate 0 start 0 cd)))).
    replace (hi2 gbox) with (Z.max (lo2 gbox - 1) (hi2 gbox)) at 1 by (destruct Hb as ((? & ? & ?) & _); destruct Hcd as ((? & ? & ?) & _); unfold gbox, ghost_box; cbn; lia).
    apply (do_loop_ind (option nstate) (fun k s => at_cell (lo0 gbox) (lo1 gbox) (k + 1) s)).
    - replace (lo2 gbox - 1 + 1) with (lo2 gbox) by lia.
      assert (Z0 : stored_at gbox (lo0 gbox) (lo1 gbox) (lo2 gbox) = 0) by (unfold stored_at; lia).
      eexists; split; [reflexivity|]. cbn [idx idx_phi calls data]. rewrite Z0. split; [auto|]. split; [|split; [auto|split; [|auto]]].
      + unfold start, stored_at. destruct three_d; [unfold cells0, cells1; ring|].
        assert (E : lo2 gbox = lo2 pgbox).
        { unfold gbox, pgbox, ghost_box; cbn. destruct Hcd as (_ & G). destruct Hphi as (_ & G'). rewrite (G eq_refl), (G' eq_refl). auto. }
        rewrite E. unfold cells0. ring.
      + intros a c d Ha Hlt. pose proof (stored_range _ _ _ _ Ha). lia.
    - intros k s Hk Hs. apply plane_step; [lia|]. replace (k - 1 + 1) with k in Hs by lia. auto.
  Qed.
End Run.

Lemma noise_field : forall three_d b cdg phig gen phi cd, box_ok three_d b -> ghosts_ok three_d cdg -> ghosts_ok three_d phig -> at_least phig cdg ->
  exists s, setField three_d b cdg phig gen phi cd = Some s /\
    (forall i j k, in_pbox (ghost_box b cdg) i j k ->
       let p := phi (stored_at (ghost_box b phig) i j k) in
       data s (stored_at (ghost_box b cdg) i j k) = (gen (stored_at (ghost_box b cdg) i j k) * 4 * p * (1 - p))%R) /\
    (forall n, (n < 0 \/ array_size (ghost_box b cdg) <= n)%Z -> data s n = cd n) /\ calls s = array_size (ghost_box b cdg).
Proof.
  intros three_d b cdg phig gen phi cd Hb Hcd Hphi Hge.
  destruct (run three_d b cdg phig gen phi cd Hb Hcd Hphi Hge) as (s & E & E1 & _ & E3 & D1 & D2).
  exists s. split; [exact E|].
  assert (N : idx s = array_size (ghost_box b cdg)).
  { rewrite E1. unfold stored_at, array_size, cells0, cells1, cells2. ring. }
  split; [|split].
  - intros i j k Hin p. rewrite D1; auto. rewrite N. apply stored_range; auto.
  - intros n Hn. apply D2. lia.
  - lia.
Qed.

Lemma noise_bounded : forall three_d b cdg phig gen phi cd s i j k, box_ok three_d b -> ghosts_ok three_d cdg -> ghosts_ok three_d phig -> at_least phig cdg ->
  setField three_d b cdg phig gen phi cd = Some s -> in_pbox (ghost_box b cdg) i j k ->
  let p := phi (stored_at (ghost_box b phig) i j k) in let d := data s (stored_at (ghost_box b cdg) i j k) in
  (0 <= p <= 1 -> Rabs d <= Rabs (gen (stored_at (ghost_box b cdg) i j k)))%R /\ (p = 0 \/ p = 1 -> d = 0)%R.
Proof.
  intros three_d b cdg phig gen phi cd s i j k Hb Hcd Hphi Hge E Hin p d.
  destruct (noise_field three_d b cdg phig gen phi cd Hb Hcd Hphi Hge) as (s' & E' & D & _). rewrite E in E'. injection E' as <-.
  assert (Ed : d = (gen (stored_at (ghost_box b cdg) i j k) * 4 * p * (1 - p))%R) by (apply D; auto). rewrite Ed. split.
  - intros Hp. replace (gen (stored_at (ghost_box b cdg) i j k) * 4 * p * (1 - p))%R with (gen (stored_at (ghost_box b cdg) i j k) * (4 * p * (1 - p)))%R by ring.
    rewrite Rabs_mult. rewrite <- (Rmult_1_r (Rabs (gen _))) at 2. apply Rmult_le_compat_l; [apply Rabs_pos|].
    assert (0 <= p * (1 - p))%R by (apply Rmult_le_pos; lra). pose proof (Rle_0_sqr (p - 1 / 2)%R) as Q. unfold Rsqr in Q. rewrite Rabs_right; lra.
  - intros [-> | ->]; ring.
Qed.
