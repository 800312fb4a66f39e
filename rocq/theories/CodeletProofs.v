(** The base cases satisfy the contracts the series algorithms rely on. *)
From Coq Require Import ZArith List Bool Lia Setoid Morphisms Ring Field.
From Verif Require Import Base Field FPS SeriesModel SeriesSpec SeriesProofs AlgoProofs NewtonProofs CodeletModel.
From Coq Require Import ZifyBool ZifyNat.
Ltac Zify.zify_post_hook ::= Z.div_mod_to_equations.
Import ListNotations.
Open Scope Z_scope.

Section CP.
Variable F : Fld.
Notation KK := (K F).
Notation ser := (series F).
Add Field KFieldCP : (kfield F).
Add Ring fps_ringCP : (fps_ring_theory F) (setoid (feq_Equiv F) (fps_ring_ext F)).

Lemma ksum_app : forall a b : list KK, ksum F (a ++ b) = kadd (ksum F a) (ksum F b).
Proof.
  unfold ksum. induction a as [|v a IH]; intros b; cbn [app fold_right]; [ring|].
  rewrite IH. ring.
Qed.

Lemma naive_terms_sum : forall xs ys i n,
  ksum F (naive_terms F xs ys i n) = sumto (fun j => kmul (poly xs j) (poly ys (i - j)%nat)) n.
Proof.
  intros xs ys i n. induction n as [|n IH]; [reflexivity|].
  cbn [naive_terms sumto]. rewrite ksum_app, IH. f_equal. unfold poly.
  destruct (Nat.ltb_spec n (length xs)); cbn [andb].
  - destruct (Nat.ltb_spec (i - n)%nat (length ys)); unfold ksum; cbn [fold_right]; [ring|].
    rewrite (nth_overflow ys) by lia. ring.
  - unfold ksum; cbn [fold_right]. rewrite (nth_overflow xs) by lia. ring.
Qed.

Lemma naive_mul_ok : forall nz xs ys, exists p, naive_mul F nz xs ys = Ok p /\ length p = nz /\
  eqn nz (poly p) (fmul (poly xs) (poly ys)).
Proof.
  intros nz xs ys. eexists. split; [reflexivity|]. split; [rewrite map_length, seq_length; reflexivity|].
  intros i Hi. unfold poly at 1.
  rewrite (nth_indep _ k0 (ksum F (naive_terms F xs ys 0 1))) by (rewrite map_length, seq_length; lia).
  rewrite (map_nth (fun i => ksum F (naive_terms F xs ys i (S i)))).
  rewrite seq_nth by lia. rewrite naive_terms_sum. reflexivity.
Qed.

Lemma naive_kernel_ok : kernel_ok (naive_kernel F).
Proof. split; intros; apply naive_mul_ok. Qed.

Lemma one_cell : forall (y : ser) v, 1 <= limit y ->
  exists y', (y1 <- set_counts F y 1 1 ;; c <- write_cells F [v] (cells y1) ;; Ok (mkS c 1 1)) = Ok y' /\
   valid y' /\ limit y' = limit y /\ known y' = 1 /\ nonzero y' = 1 /\ den y' O = v.
Proof.
  intros y v Hl. rewrite set_counts_ok by lia. cbn [bind cells]. unfold limit in Hl.
  destruct (write_cells_ok F [v] (cells y) ltac:(cbn [length]; lia)) as (r & Hr & Hlen & Hlo & _).
  rewrite Hr. cbn [bind]. eexists. split; [reflexivity|].
  destruct (mk_valid F r 1 1 (fun j => nth j [v] k0)) as (V & D); try lia.
  { intros j Hj. apply Hlo. cbn [length]. lia. }
  split; [exact V|]. cbn [known nonzero]. rsplit.
  - unfold limit. cbn [cells]. lia.
  - rewrite D by lia. reflexivity.
Qed.

Lemma simple_bases_ok : bases_ok (simple_bases F).
Proof.
  split; cbn [inv_base exp_base simple_bases].
  - intros y x Hx Hn Hsm H0 Hl. unfold simple_inv_base. pose proof Hx as (X0 & X1 & X2 & X3).
    destruct (one_cell y (kinv (den x O)) ltac:(lia)) as (y' & E & V & L & K & N & D).
    exists y'. split.
    + rewrite <- E. destruct (set_counts F y 1 1); cbn [bind]; auto.
      destruct (Z.eqb_spec (nonzero x) 0); [lia|]. rewrite valid_rd by (auto; lia). reflexivity.
    + rsplit; auto; try lia. rewrite K. intros i Hi. assert (i = O) by lia. subst i.
      rewrite fmul_coef0, D. unfold f1, fC. field. exact H0.
  - intros y x Hx Hn Hsm H0 Hl. unfold simple_exp_base. pose proof Hx as (X0 & X1 & X2 & X3).
    destruct (one_cell y k1 ltac:(lia)) as (y' & E & V & L & K & N & D).
    exists y'. split.
    + rewrite <- E. destruct (set_counts F y 1 1); cbn [bind]; auto.
      destruct (Z.eqb_spec (nonzero x) 0); [reflexivity|]. rewrite valid_rd by (auto; lia). reflexivity.
    + rsplit; auto; try lia. rewrite K. intros i Hi. assert (i = O) by lia. subst i.
      rewrite D, fexp_coef0. reflexivity.
Qed.

Lemma read_ext_ok : forall cnt lead i (x : ser), valid x -> small (nonzero x) -> 0 <= i ->
  (forall j, (j < lead)%nat -> den x (Z.to_nat i + j)%nat = k0) ->
  exists vs, read_ext F lead cnt i x = Ok vs /\ length vs = cnt /\
    forall j, (j < cnt)%nat -> nth j vs k0 = den x (Z.to_nat i + j)%nat.
Proof.
  induction cnt as [|cnt IH]; intros lead i x Hx Hs Hi Hz; cbn [read_ext].
  - exists []. rsplit. intros j Hj. lia.
  - assert (Hv : (match lead with
            | S _ => Ok k0
            | O => if i <? to_i32 (nonzero x) then rd F (cells x) i else Ok k0
            end) = Ok (den x (Z.to_nat i))).
    { unfold small in Hs. pose proof Hx as (X0 & _). destruct lead as [|l].
      - rewrite to_i32_id by lia. destruct (Z.ltb_spec i (nonzero x)).
        + apply valid_rd; auto; lia.
        + rewrite den_out by lia. reflexivity.
      - specialize (Hz O ltac:(lia)). rewrite Nat.add_0_r in Hz. rewrite Hz. reflexivity. }
    rewrite Hv. cbn [bind].
    destruct (IH (pred lead) (i + 1) x Hx Hs ltac:(lia)) as (vs & E & L & N).
    { intros j Hj. replace (Z.to_nat (i + 1) + j)%nat with (Z.to_nat i + S j)%nat by lia. apply Hz. lia. }
    rewrite E. cbn [bind]. eexists. split; [reflexivity|]. cbn [length]. split; [lia|].
    intros j Hj. destruct j as [|j]; cbn [nth].
    + rewrite Nat.add_0_r. reflexivity.
    + rewrite N by lia. f_equal. lia.
Qed.

Lemma base_arg_ok : forall xs (a : fps F), length xs = 5%nat ->
  (forall j, (j < 5)%nat -> nth j xs k0 = a j) ->
  valid (base_arg F xs) /\ eqn 5 (den (base_arg F xs)) a.
Proof.
  intros xs a Hl Hn. unfold base_arg.
  destruct (mk_valid F (map Some xs) base_n base_n a) as (V & D); unfold base_n in *; try lia.
  - rewrite map_length. lia.
  - intros j Hj. rewrite <- Hn by lia. rewrite nth_error_map.
    rewrite (nth_error_nth' xs k0) by lia. reflexivity.
  - split; [exact V|]. intros j Hj. apply D. lia.
Qed.

(** *** The product written over an operand *)
Lemma set_cell_ok : forall (c : list (option KK)) i v, (i < length c)%nat ->
  exists r, set_cell F c i v = Ok r /\ length r = length c /\ nth_error r i = Some (Some v) /\
    (forall j, j <> i -> nth_error r j = nth_error c j).
Proof.
  induction c as [|o c IH]; intros i v Hi; cbn [length] in Hi; [lia|].
  destruct i as [|i]; cbn [set_cell].
  - eexists. split; [reflexivity|]. cbn [length nth_error]. rsplit. intros [|j] Hj; [lia|reflexivity].
  - destruct (IH i v ltac:(lia)) as (r & E & L & N & O'). rewrite E. cbn [bind].
    eexists. split; [reflexivity|]. cbn [length nth_error]. rsplit; [lia|exact N|].
    intros [|j] Hj; cbn [nth_error]; [reflexivity|]. apply O'. lia.
Qed.

(** An operand holding the series a when z is about to be written at index i. *)
Definition op_holds (z : list (option KK)) (o : operand F) (a : fps F) (i : nat) : Prop :=
  forall j, (j <= i)%nat -> ((j < op_len F o)%nat -> op_rd F z o j = Ok (a j)) /\ ((op_len F o <= j)%nat -> a j = k0).

Lemma in_terms_ok : forall z ox oy a b i, op_holds z ox a i -> op_holds z oy b i ->
  forall n, (n <= S i)%nat -> exists ts, in_terms F z ox oy i n = Ok ts /\
    ksum F ts = sumto (fun j => kmul (a j) (b (i - j)%nat)) n.
Proof.
  intros z ox oy a b i Ha Hb. induction n as [|n IH]; intros Hn; cbn [in_terms sumto].
  - exists []. split; reflexivity.
  - destruct (IH ltac:(lia)) as (ts & E & S). rewrite E. cbn [bind].
    destruct (Ha n ltac:(lia)) as (A1 & A2). destruct (Hb (i - n)%nat ltac:(lia)) as (B1 & B2).
    destruct (Nat.ltb_spec n (op_len F ox)); cbn [andb].
    + destruct (Nat.ltb_spec (i - n)%nat (op_len F oy)).
      * rewrite A1, B1 by lia. cbn [bind]. eexists. split; [reflexivity|]. rewrite ksum_app, S.
        unfold ksum. cbn [fold_right]. ring.
      * eexists. split; [reflexivity|]. rewrite S, B2 by lia. ring.
    + eexists. split; [reflexivity|]. rewrite S, A2 by lia. ring.
Qed.

(** What an operand must satisfy for the whole loop; p is the product. *)
Definition op_good (nz : nat) (z0 : list (option KK)) (p : fps F) (o : operand F) (a : fps F) : Prop :=
  match o with
  | Apart _ xs => forall j, (j < nz)%nat -> poly xs j = a j
  | InDst _ n => (forall j, (j < nz)%nat -> (j < n)%nat -> nth_error z0 j = Some (Some (a j))) /\
      (forall j, (j < nz)%nat -> (n <= j)%nat -> a j = k0) /\
      (forall j, (S j < nz)%nat -> p j = a j)
  end.

Lemma op_good_holds : forall nz z0 p o a z i, op_good nz z0 p o a -> (i < nz)%nat ->
  (forall j, (j < i)%nat -> nth_error z j = Some (Some (p j))) ->
  (forall j, (i <= j)%nat -> nth_error z j = nth_error z0 j) -> op_holds z o a i.
Proof.
  intros nz z0 p o a z i Hg Hi Hlo Hhi j Hj. destruct o as [xs|n]; cbn [op_good op_len op_rd] in *.
  - split; intros H.
    + rewrite (nth_error_nth' xs k0) by lia. rewrite <- Hg by lia. reflexivity.
    + rewrite <- Hg by lia. unfold poly. apply nth_overflow. lia.
  - destruct Hg as (G1 & G2 & G3). split; intros H.
    + destruct (Nat.eq_dec j i) as [->|Hne].
      * rewrite Hhi, G1 by lia. reflexivity.
      * rewrite Hlo, G3 by lia. reflexivity.
    + apply G2; lia.
Qed.

Lemma in_loop_ok : forall nz z0 ox oy (a b : fps F), op_good nz z0 (fmul a b) ox a -> op_good nz z0 (fmul a b) oy b ->
  forall cnt i z, (i + cnt = nz)%nat -> (nz <= length z)%nat ->
  (forall j, (j < i)%nat -> nth_error z j = Some (Some (fmul a b j))) ->
  (forall j, (i <= j)%nat -> nth_error z j = nth_error z0 j) ->
  exists z', in_loop F cnt i ox oy z = Ok z' /\ length z' = length z /\
    (forall j, (j < nz)%nat -> nth_error z' j = Some (Some (fmul a b j))) /\
    (forall j, (nz <= j)%nat -> nth_error z' j = nth_error z0 j).
Proof.
  intros nz z0 ox oy a b Ga Gb. induction cnt as [|cnt IH]; intros i z Hi Hl Hlo Hhi; cbn [in_loop].
  - replace i with nz in * by lia. exists z. rsplit; auto.
  - pose proof (op_good_holds _ _ _ _ _ z i Ga ltac:(lia) Hlo Hhi) as Ha.
    pose proof (op_good_holds _ _ _ _ _ z i Gb ltac:(lia) Hlo Hhi) as Hb.
    destruct (in_terms_ok z ox oy a b i Ha Hb (S i) (le_n _)) as (ts & E & S). rewrite E. cbn [bind].
    destruct (set_cell_ok z i (ksum F ts) ltac:(lia)) as (z1 & E1 & L1 & N1 & O1). rewrite E1. cbn [bind].
    destruct (IH (Datatypes.S i) z1) as (z' & E2 & L2 & Lo2 & Hi2); try lia.
    + intros j Hj. destruct (Nat.eq_dec j i) as [->|Hne].
      * rewrite N1, S. reflexivity.
      * rewrite O1 by auto. apply Hlo. lia.
    + intros j Hj. rewrite O1 by lia. apply Hhi. lia.
    + exists z'. rsplit; auto. lia.
Qed.

Lemma opnd_good : forall o (w z : ser) nz (p : fps F), valid w -> 0 <= nz ->
  (o = None -> w = z /\ forall j, Z.of_nat (S j) < nz -> p j = den w j) ->
  exists q, opnd F o w nz = Ok q /\ op_good (Z.to_nat nz) (cells z) p q (den w).
Proof.
  intros o w z nz p Hw Hnz Ho. pose proof Hw as (W0 & _). unfold opnd. destruct o as [x|].
  - destruct (low_span_ok F w nz Hw) as (xs & E & L & P). rewrite E. cbn [bind].
    eexists. split; [reflexivity|]. cbn [op_good]. intros j Hj. apply P. unfold relu. lia.
  - destruct (Ho eq_refl) as (-> & Hp). eexists. split; [reflexivity|]. unfold relu. cbn [op_good]. rsplit.
    + intros j Hj Hn. apply valid_cell; auto. lia.
    + intros j Hj Hn. apply den_out. lia.
    + intros j Hj. apply Hp. lia.
Qed.

(** Same conclusion as [set_mul_ok]; an operand that is overwritten must agree with the
    product except in the last coefficient. *)
Lemma set_mul_in_ok : forall (z : ser) ox oy,
  let x := match ox with Some x => x | None => z end in
  let y := match oy with Some y => y | None => z end in
  let nk := Z.min (known x) (known y) in
  let nz := Z.min nk (relu (nonzero x + nonzero y - 1)) in
  valid x -> valid y -> small nk -> both_pos x y -> nz <= limit z ->
  (ox = None -> forall j, Z.of_nat (S j) < nz -> fmul (den x) (den y) j = den x j) ->
  (oy = None -> forall j, Z.of_nat (S j) < nz -> fmul (den x) (den y) j = den y j) ->
  exists z', set_mul_in F z ox oy = Ok z' /\ valid z' /\ known z' = nk /\ limit z' = limit z /\
    nonzero z' = nz /\ eqn (Z.to_nat nk) (den z') (fmul (den x) (den y)).
Proof.
  intros z ox oy x y nk nz Hx Hy Hsm Hbp Hl Hox Hoy.
  pose proof Hy as (Y0 & Y1 & Y2 & Y3). pose proof Hx as (X0 & X1 & X2 & X3).
  unfold set_mul_in. fold x y. fold nk. fold nz. unfold small in Hsm. unfold both_pos in Hbp.
  assert (Hnz : 0 <= nz <= nk) by (unfold nz, nk, relu; lia).
  rewrite set_counts_ok by lia. cbn [bind cells].
  destruct (opnd_good ox x z nz (fmul (den x) (den y)) Hx ltac:(lia)) as (px & Ex & Gx).
  { intros ->. split; [reflexivity|]. apply Hox. reflexivity. }
  rewrite Ex. cbn [bind].
  destruct (opnd_good oy y z nz (fmul (den x) (den y)) Hy ltac:(lia)) as (py & Ey & Gy).
  { intros ->. split; [reflexivity|]. apply Hoy. reflexivity. }
  rewrite Ey. cbn [bind]. unfold limit in Hl.
  destruct (in_loop_ok _ _ _ _ _ _ Gx Gy (Z.to_nat nz) 0%nat (cells z)) as (r & E & L & Lo & _); try lia.
  { intros j Hj. reflexivity. }
  rewrite E. cbn [bind]. eexists. split; [reflexivity|].
  assert (Hrp : reps (mkS r nk nz) nk (fmul (den x) (den y))).
  { apply mk_eqn with (g := fmul (den x) (den y)); auto; try lia.
    - intros j Hj. apply Lo. lia.
    - intros j Hj Hk. apply (fmul_support F (den x) (den y) (Z.to_nat (nonzero x)) (Z.to_nat (nonzero y))).
      + intros i Hi. apply den_out. lia.
      + intros i Hi. apply den_out. lia.
      + unfold nz, relu in *. lia. }
  destruct Hrp as (V & K & D). cbn [known] in *. rsplit; auto. unfold limit. cbn [cells]. lia.
Qed.

(** A series vanishing below m0 and a factor with constant term 1: the product agrees
    with the series up to and including index m0. *)
Lemma low_unit : forall (a b : fps F) m0 j, eqn m0 a f0 -> b O = k1 -> (j <= m0)%nat -> fmul a b j = a j.
Proof.
  intros a b m0 j Ha Hb Hj. unfold fmul. cbn [sumto].
  rewrite sumto_0; [rewrite Nat.sub_diag, Hb; ring|].
  intros k Hk. rewrite (Ha k) by lia. unfold f0, fC. destruct k; ring.
Qed.
Lemma low_unit_r : forall (a b : fps F) m0 j, eqn m0 b f0 -> a O = k1 -> (j <= m0)%nat -> fmul a b j = b j.
Proof.
  intros a b m0 j Hb Ha Hj.
  replace (fmul a b j) with (fmul b a j) by (assert (H : feq (fmul b a) (fmul a b)) by ring; apply H).
  apply low_unit with (m0 := m0); auto.
Qed.

Lemma set_mul_apart_p : forall (z x y : ser) n, valid x -> valid y -> pos x -> pos y ->
  Z.min (known x) (known y) = n -> small n -> n <= limit z ->
  exists z', set_mul_in F z (Some x) (Some y) = Ok z' /\ valid z' /\ known z' = n /\ limit z' = limit z /\ pos z' /\
    eqn (Z.to_nat n) (den z') (fmul (den x) (den y)) /\ (full x \/ full y -> full z').
Proof.
  intros z x y n Hx Hy Px Py Hn Hs Hl. unfold pos, small in *.
  pose proof Hy as (Y0 & Y1 & Y2 & Y3). pose proof Hx as (X0 & X1 & X2 & X3).
  destruct (set_mul_in_ok z (Some x) (Some y) Hx Hy) as (z' & E & V & K & L & N & D); unfold small, both_pos; try lia; try discriminate.
  rewrite Hn in *. exists z'. unfold relu in N. rsplit; auto; unfold full; intros H; lia.
Qed.

(** *** The algorithms as the generator runs them, for at most five terms *)
Lemma gen_inv_step_ok : forall x ylim m0 k m r st, valid x -> 0 < nonzero x -> small (known x) -> known x <= ylim ->
  den x O = k1 -> m <= m0 + 2 ->
  0 < m0 -> m0 < m -> m0 <= k -> k <= m -> m <= 2 * m0 -> m <= known x -> inv_P F x ylim k st ->
  exists st', gen_inv_step F x m0 m r st = Ok st' /\ inv_P F x ylim m st'.
Proof.
  intros x ylim m0 k m r [y dy] Hx Hnx Hsm Hlim Hx0 Hm3 H0 Hlt Hk Hkm Hm2 Hmn (Hy & HK & HL & HN & HLd & HE & HF).
  unfold small in *. unfold gen_inv_step.
  assert (Hy0 : den y O = k1).
  { pose proof (eqn_at F _ _ _ O HE ltac:(lia)) as H. rewrite fmul_coef0, Hx0 in H. unfold f1, fC in H. rewrite <- H. ring. }
  destruct (set_known_up F y m Hy ltac:(lia)) as (y1 & E1 & V1 & K1 & L1 & N1 & D1). rewrite E1. cbn [bind].
  destruct (set_mul_in_ok dy (Some x) (Some y1) Hx V1) as (d1 & E2 & V2 & K2 & L2 & N2 & D2); unfold small, both_pos; try lia; try discriminate.
  rewrite E2. cbn [bind]. unfold relu in N2.
  destruct (sub1_ok F d1 V2 ltac:(lia)) as (d2 & E3 & V3 & K3 & L3 & N3 & D3). rewrite E3. cbn [bind].
  replace (Z.min (known x) (known y1)) with m in * by lia.
  assert (Hd2 : eqn (Z.to_nat m) (den d2) (fsub (fmul (den x) (den y)) f1)).
  { rewrite D3. apply fsub_e; [|reflexivity]. etransitivity; [exact D2|]. apply feq_eqn. rewrite D1. reflexivity. }
  assert (Hlow : eqn (Z.to_nat m0) (den d2) f0).
  { transitivity (fsub (fmul (den x) (den y)) f1).
    - apply eqn_mono with (n := Z.to_nat m); [lia|exact Hd2].
    - apply -> eqn_sub0. apply eqn_mono with (n := Z.to_nat k); [lia|exact HE]. }
  destruct (set_mul_in_ok d2 None (Some y1) V3 V1) as (d3 & E4 & V4 & K4 & L4 & N4 & D4); unfold small, both_pos; try lia; try discriminate.
  { intros _ j Hj. apply low_unit with (m0 := Z.to_nat m0); [exact Hlow|rewrite (D1 O); exact Hy0|lia]. }
  rewrite E4. cbn [bind].
  replace (Z.min (known d2) (known y1)) with m in * by lia.
  assert (Hd3 : eqn (Z.to_nat m) (den d3) (fmul (fsub (fmul (den x) (den y)) f1) (den y))).
  { etransitivity; [exact D4|]. apply fmul_e; [|apply feq_eqn; exact D1]. exact Hd2. }
  destruct (high_sub_ok F y1 d3 m0) as (y2 & E5 & V5 & K5 & L5 & N5 & D5 & F5); auto; unfold small; try lia.
  { transitivity (fmul (fsub (fmul (den x) (den y)) f1) (den y)).
    - apply eqn_mono with (n := Z.to_nat m); [lia|exact Hd3].
    - transitivity (fmul (@f0 F) (den y)); [|apply feq_eqn; ring].
      apply fmul_e; [|reflexivity]. apply -> eqn_sub0. apply eqn_mono with (n := Z.to_nat k); [lia|exact HE]. }
  rewrite E5. cbn [bind]. eexists. split; [reflexivity|]. unfold inv_P. rsplit; auto; try lia.
  2:{ intros Hfx. apply F5; [lia|]. unfold full in *. unfold relu in *. lia. }
  transitivity (fmul (den x) (fsub (den y) (fmul (fsub (fmul (den x) (den y)) f1) (den y)))).
  - apply fmul_e; [reflexivity|]. replace (known y1) with m in D5 by lia. etransitivity; [exact D5|].
    apply fsub_e; [apply feq_eqn; exact D1|exact Hd3].
  - apply eqn_mono with (n := (Z.to_nat k + Z.to_nat k)%nat); [lia|]. apply inv_newton. exact HE.
Qed.

Lemma gen_set_inv_ok : forall y x : ser, valid x -> 0 < nonzero x -> den x O = k1 -> known x <= 5 ->
  known x <= limit y ->
  exists y', gen_set_inv F y x = Ok y' /\ result y y' (known x) /\
    eqn (Z.to_nat (known x)) (fmul (den x) (den y')) f1 /\ (full x -> full y').
Proof.
  intros y x Hx Hn Hc H5 Hl. pose proof Hx as (X0 & X1 & X2 & X3). unfold gen_set_inv.
  destruct (Z.eqb_spec (known x) 0) as [H0|H0]; [lia|].
  rewrite slow_assert_true by lia. cbn [bind].
  assert (Hsm : small (known x)) by (unfold small; lia).
  assert (Hnz : den x O <> k0) by (rewrite Hc; apply k1_nz).
  destruct (ib_ok _ _ simple_bases_ok y x Hx Hn Hsm Hnz Hl) as (y1 & E1 & V1 & L1 & K1 & N1 & D1 & F1).
  cbn [inv_base simple_bases] in E1. rewrite E1. cbn [bind].
  destruct (newton_iterate_ind (gen_inv_step F x) (known x) (inv_P F x (limit y))) with (n0 := known y1) (st := (y1, new_series (F:=F) (known x)))
    as ((y2 & d2) & E2 & (V2 & K2 & L2 & N2 & _ & D2 & F2)); try lia.
  + intros m0 m st A1 A2 A3 A4 HP. apply gen_inv_step_ok with (k := m0); auto; lia.
  + intros m0 m st A1 A2 A3 A4 HP. apply gen_inv_step_ok with (k := m); auto; lia.
  + unfold inv_P. rsplit; auto. rewrite new_series_limit. unfold relu. lia.
  + rewrite E2. cbn [bind fst]. eexists. split; [reflexivity|]. split; [|split; [exact D2|exact F2]].
    unfold result, pos. rsplit; auto.
Qed.

Lemma gen_set_div_ok : forall y a b : ser, valid a -> valid b -> pos a -> 0 < nonzero b ->
  den b O = k1 -> known a = known b -> known b <= 5 -> known b <= limit y ->
  exists y', gen_set_div F y a b = Ok y' /\ result y y' (known b) /\
    eqn (Z.to_nat (known b)) (fmul (den b) (den y')) (den a) /\ (full a -> full y').
Proof.
  intros y a b Ha Hb Hpa Hnb Hc Hab H5 Hl. pose proof Hb as (B0 & B1 & B2 & B3).
  unfold gen_set_div. rewrite Hab, Z.min_id.
  set (n := known b) in *. assert (Hn : n = known b) by reflexivity. clearbody n.
  assert (Hpb : pos b) by (unfold pos; lia).
  destruct (low_valid F b n Hb) as (Vl & Kl & Nl & _ & Dl). unfold relu in Kl, Nl, Dl.
  replace (Z.min (Z.max n 0) (known b)) with n in Kl, Nl, Dl by lia.
  destruct (gen_set_inv_ok (new_series (F:=F) n) (low F b n) Vl) as (ib & E1 & (V1 & K1 & L1 & P1) & D1 & _); try lia.
  { rewrite (eqn_at F _ _ _ O Dl) by lia. exact Hc. }
  { rewrite new_series_limit. unfold relu. lia. }
  rewrite E1. cbn [bind]. rewrite Kl in *. clear Nl.
  assert (D1' : eqn (Z.to_nat n) (fmul (den b) (den ib)) f1).
  { etransitivity; [|exact D1]. symmetry. apply fmul_e; [exact Dl|reflexivity]. }
  destruct (set_mul_apart_p y a ib n Ha V1 Hpa P1) as (y1 & E2 & V2 & K2 & L2 & P2 & D2 & F2); unfold small; try lia.
  rewrite E2. cbn [bind].
  destruct (set_mul_apart_p (new_series (F:=F) n) b y1 n Hb V2 Hpb P2) as (d1 & E3 & V3 & K3 & L3 & P3 & D3 & F3);
    rewrite ?new_series_limit; unfold small, relu; try lia.
  rewrite E3. cbn [bind]. rewrite new_series_limit in L3. unfold relu in L3.
  destruct (sub_in_p F d1 a n V3 Ha P3) as (d2 & E4 & V4 & K4 & L4 & P4 & D4 & F4); unfold small; try lia.
  rewrite E4. cbn [bind].
  assert (Hby : eqn (Z.to_nat n) (fmul (den b) (den y1)) (den a)).
  { transitivity (fmul (den b) (fmul (den a) (den ib))); [apply fmul_e; [reflexivity|exact D2]|].
    transitivity (fmul (fmul (den b) (den ib)) (den a)); [apply feq_eqn; ring|].
    transitivity (fmul (@f1 F) (den a)); [apply fmul_e; [exact D1'|reflexivity]|apply feq_eqn; ring]. }
  assert (Hd2 : eqn (Z.to_nat n) (den d2) f0).
  { etransitivity; [exact D4|]. apply -> eqn_sub0. etransitivity; [exact D3|exact Hby]. }
  assert (Hib : den ib O = k1).
  { pose proof (eqn_at F _ _ _ O D1' ltac:(lia)) as H. rewrite fmul_coef0, Hc in H. unfold f1, fC in H. rewrite <- H. ring. }
  pose proof V4 as (W0 & W1 & W2 & W3). pose proof V1 as (I0 & I1 & I2 & I3). unfold pos in P4, P1.
  destruct (set_mul_in_ok d2 None (Some ib) V4 V1) as (d3 & E5 & V5 & K5 & L5 & N5 & D5); unfold small, both_pos, relu; try lia; try discriminate.
  { intros _ j Hj. apply low_unit with (m0 := Z.to_nat n); [exact Hd2|exact Hib|unfold relu in Hj; lia]. }
  rewrite E5. cbn [bind]. replace (Z.min (known d2) (known ib)) with n in * by lia.
  destruct (sub_in_p F y1 d3 n V2 V5 P2) as (y2 & E6 & V6 & K6 & L6 & P6 & D6 & F6); unfold small; try lia.
  rewrite E6. eexists. split; [reflexivity|]. split.
  { unfold result. rsplit; auto; lia. }
  split.
  2:{ intros Hf. apply F6. left. apply F2. left. exact Hf. }
  assert (Hd3 : eqn (Z.to_nat n) (den d3) f0).
  { etransitivity; [exact D5|]. transitivity (fmul (@f0 F) (den ib)); [apply fmul_e; [exact Hd2|reflexivity]|apply feq_eqn; ring]. }
  transitivity (fmul (den b) (fsub (den y1) (@f0 F))).
  + apply fmul_e; [reflexivity|]. etransitivity; [exact D6|]. apply fsub_e; [reflexivity|exact Hd3].
  + etransitivity; [|exact Hby]. apply feq_eqn. ring.
Qed.


Lemma gen_set_log_ok : forall y x : ser, valid x -> 0 < nonzero x -> den x O = k1 -> known x <= 5 ->
  known x <= limit y ->
  exists y', gen_set_log F y x = Ok y' /\ result y y' (known x) /\
    eqn (Z.to_nat (known x)) (den y') (flog (den x)) /\ (full x -> full y').
Proof.
  intros y x Hx Hn Hx0 H5 Hl. pose proof Hx as (X0 & X1 & X2 & X3). unfold gen_set_log.
  destruct (Z.eqb_spec (known x) 0) as [H0|H0]; [lia|].
  rewrite slow_assert_true by lia. cbn [bind].
  destruct (set_derivative_shift_ok F (new_series (F:=F) (known x)) x 0 Hx) as (dx & E1 & V1 & K1 & L1 & N1 & D1);
    rewrite ?new_series_limit; unfold small, relu; try lia.
  rewrite E1. cbn [bind].
  destruct (gen_set_div_ok y dx x V1 Hx) as (y1 & E2 & (V2 & K2 & L2 & P2) & D2 & F2); unfold pos; try lia; auto.
  rewrite E2. cbn [bind].
  pose proof V2 as (Y0 & Y1 & Y2 & Y3).
  destruct (set_integral_shift_ok F y1 y1 0 V2) as (y2 & E3 & V3 & K3 & L3 & N3 & D3); unfold small; try lia.
  rewrite E3. eexists. split; [reflexivity|]. split.
  + unfold result, pos in *. rsplit; auto; lia.
  + split.
    2:{ intros Hf. assert (Hfd : full dx) by (unfold full in *; lia). specialize (F2 Hfd). unfold full in *. lia. }
    assert (Hy0 : den y1 O = k0).
    { pose proof (eqn_at F _ _ _ O D2 ltac:(lia)) as H1. rewrite fmul_coef0, Hx0 in H1.
      rewrite (D1 O), (fdshift_0 F (den x) O), theta_coef0 in H1.
      rewrite <- H1. ring. }
    apply log_ode; auto.
    * rewrite (D3 O). unfold fishift. reflexivity.
    * transitivity (fmul (den x) (den y1)).
      { apply fmul_e; [reflexivity|]. apply feq_eqn. rewrite <- fdshift_0.
        rewrite (fdshift_feq F 0 _ _ D3). apply fdshift_fishift; auto. lia. }
      etransitivity; [exact D2|]. apply feq_eqn. rewrite D1. apply fdshift_0.
Qed.

Lemma gen_exp_step_ok : forall x ylim m0 k m r st, valid x -> den x O = k0 -> known x <= 5 -> known x <= ylim ->
  0 < m0 -> m0 < m -> m0 <= k -> k <= m -> m <= 2 * m0 -> m <= known x -> exp_P F x ylim k st ->
  exists st', gen_exp_step F x m0 m r st = Ok st' /\ exp_P F x ylim m st'.
Proof.
  intros x ylim m0 k m r [y dy] Hx Hx0 H5 Hlim H0 Hlt Hk Hkm Hm2 Hmn (Hy & HK & HL & HN & HLd & HE & HF).
  unfold gen_exp_step. pose proof Hx as (X0 & X1 & X2 & X3).
  destruct (set_known_up F y m Hy ltac:(lia)) as (y1 & E1 & V1 & K1 & L1 & N1 & D1). rewrite E1. cbn [bind].
  pose proof V1 as (Y0 & Y1 & Y2 & Y3).
  assert (Hy0 : den y O = k1).
  { rewrite (eqn_at F _ _ _ O HE) by lia. apply fexp_coef0. }
  destruct (gen_set_log_ok dy y1 V1) as (d1 & E2 & (V2 & K2 & L2 & P2) & D2 & F2); unfold pos in *; try lia.
  { rewrite (D1 O). exact Hy0. }
  rewrite E2. cbn [bind].
  destruct (sub_in_ok F d1 x V2 Hx) as (d2 & E3 & V3 & K3 & L3 & N3 & D3 & F3); unfold small; try lia.
  rewrite E3. cbn [bind]. replace (Z.min (known d1) (known x)) with m in * by lia.
  assert (Hd2 : eqn (Z.to_nat m) (den d2) (fsub (flog (den y)) (den x))).
  { etransitivity; [exact D3|]. apply fsub_e; [|reflexivity]. replace (known y1) with m in D2 by lia.
    etransitivity; [exact D2|]. apply feq_eqn. apply flog_f. exact D1. }
  assert (Hlog : eqn (Z.to_nat k) (fsub (flog (den y)) (den x)) f0).
  { apply -> eqn_sub0. transitivity (flog (fexp (den x))).
    - apply flog_e. exact HE.
    - apply feq_eqn. apply flog_exp. exact Hx0. }
  assert (Hlow : eqn (Z.to_nat m0) (den d2) f0).
  { transitivity (fsub (flog (den y)) (den x)).
    - apply eqn_mono with (n := Z.to_nat m); [lia|exact Hd2].
    - apply eqn_mono with (n := Z.to_nat k); [lia|exact Hlog]. }
  destruct (set_mul_in_ok d2 (Some y1) None V1 V3) as (d3 & E4 & V4 & K4 & L4 & N4 & D4); unfold small, both_pos; try lia; try discriminate.
  { intros _ j Hj. apply low_unit_r with (m0 := Z.to_nat m0); [exact Hlow|rewrite (D1 O); exact Hy0|lia]. }
  rewrite E4. cbn [bind].
  replace (Z.min (known y1) (known d2)) with m in * by lia.
  assert (Hd3 : eqn (Z.to_nat m) (den d3) (fmul (den y) (fsub (flog (den y)) (den x)))).
  { etransitivity; [exact D4|]. apply fmul_e; [apply feq_eqn; exact D1|exact Hd2]. }
  destruct (high_sub_ok F y1 d3 m0) as (y2 & E5 & V5 & K5 & L5 & N5 & D5 & F5); auto; unfold small; try lia.
  { transitivity (fmul (den y) (fsub (flog (den y)) (den x))).
    - apply eqn_mono with (n := Z.to_nat m); [lia|exact Hd3].
    - transitivity (fmul (den y) (@f0 F)); [|apply feq_eqn; ring].
      apply fmul_e; [reflexivity|]. apply -> eqn_sub0.
      transitivity (flog (fexp (den x))).
      + apply flog_e. apply eqn_mono with (n := Z.to_nat k); [lia|exact HE].
      + apply feq_eqn. apply flog_exp. exact Hx0. }
  rewrite E5. cbn [bind]. eexists. split; [reflexivity|]. unfold exp_P. rsplit; auto; try lia.
  2:{ intros Hfx. apply F5; [lia|]. specialize (F3 (or_intror Hfx)). unfold full, relu in *. lia. }
  transitivity (fsub (den y) (fmul (den y) (fsub (flog (den y)) (den x)))).
  - replace (known y1) with m in D5 by lia. etransitivity; [exact D5|].
    apply fsub_e; [apply feq_eqn; exact D1|exact Hd3].
  - apply eqn_mono with (n := (Z.to_nat k + Z.to_nat k)%nat); [lia|]. apply exp_newton; auto. lia.
Qed.


Lemma gen_set_exp_ok : forall y x : ser, valid x -> den x O = k0 -> 0 < known x -> known x <= 5 ->
  known x <= limit y ->
  exists y', gen_set_exp F y x = Ok y' /\ result y y' (known x) /\
    eqn (Z.to_nat (known x)) (den y') (fexp (den x)) /\ (full x -> full y').
Proof.
  intros y x Hx Hc Hpos H5 Hl. pose proof Hx as (X0 & X1 & X2 & X3). unfold gen_set_exp.
  destruct (Z.eqb_spec (known x) 0) as [H0|H0]; [lia|]. cbn [bind].
  assert (Hsm : small (known x)) by (unfold small; lia).
  destruct (eb_ok _ _ simple_bases_ok y x Hx ltac:(lia) Hsm Hc Hl) as (y1 & E1 & V1 & L1 & K1 & N1 & D1 & F1).
  cbn [exp_base simple_bases] in E1. rewrite E1. cbn [bind].
  destruct (newton_iterate_ind (gen_exp_step F x) (known x) (exp_P F x (limit y))) with (n0 := known y1) (st := (y1, new_series (F:=F) (known x)))
    as ((y2 & d2) & E2 & (V2 & K2 & L2 & N2 & _ & D2 & F2)); try lia.
  + intros m0 m st A1 A2 A3 A4 HP. apply gen_exp_step_ok with (k := m0); auto; lia.
  + intros m0 m st A1 A2 A3 A4 HP. apply gen_exp_step_ok with (k := m); auto; lia.
  + unfold exp_P. rsplit; auto; try lia. rewrite new_series_limit. unfold relu. lia.
  + rewrite E2. cbn [bind fst]. eexists. split; [reflexivity|]. split; [|split; [exact D2|exact F2]].
    unfold result, pos. rsplit; auto.
Qed.

Lemma gen_inv_ok : forall X : ser, valid X -> known X = 5 -> nonzero X = 5 -> den X O <> k0 ->
  exists Y, gen_inv F X = Ok Y /\ valid Y /\ nonzero Y = 5 /\ eqn 5 (fmul (den X) (den Y)) f1.
Proof.
  intros X HX HK HN H0. unfold gen_inv, gen_inv_n, base_n.
  rewrite valid_rd by (auto; lia). cbn [bind]. change (Z.to_nat 0) with O.
  set (r0 := kinv (den X O)).
  destruct (set_scalar_ok F (new_series 5) 5 r0) as (r & E1 & V1 & K1 & L1 & N1 & D1).
  { rewrite new_series_limit. unfold relu. lia. }
  rewrite E1. cbn [bind]. unfold relu in *. change (Z.max 5 0) with 5 in *. change (Z.to_nat 5) with 5%nat in *.
  assert (Pr : pos r) by (unfold pos; lia). assert (PX : pos X) by (unfold pos; lia).
  destruct (set_mul_apart_p (new_series 5) r X 5 V1 HX Pr PX) as (rx & E2 & V2 & K2 & L2 & P2 & D2 & F2);
    rewrite ?new_series_limit; unfold small, relu; try lia.
  rewrite E2. cbn [bind].
  assert (Frx : full rx) by (apply F2; right; unfold full; lia).
  assert (Drx : eqn 5 (den rx) (fmul (fC r0) (den X))).
  { change (Z.to_nat 5) with 5%nat in D2. etransitivity; [exact D2|]. apply fmul_e; [exact D1|reflexivity]. }
  destruct (gen_set_inv_ok (new_series 5) rx V2)
    as (ix & E3 & (V3 & K3 & L3 & P3) & D3 & F3); rewrite ?new_series_limit; unfold relu; try lia.
  { unfold pos in P2. lia. }
  { rewrite (eqn_at F _ _ _ O Drx) by lia. rewrite fmul_coef0. unfold fC, r0. field. exact H0. }
  rewrite E3. cbn [bind]. rewrite K2 in *. change (Z.to_nat 5) with 5%nat in D3.
  destruct (set_mul_apart_p (new_series 5) r ix 5 V1 V3 Pr P3) as (Y & E4 & V4 & K4 & L4 & P4 & D4 & F4);
    rewrite ?new_series_limit; unfold small, relu; try lia.
  rewrite E4. exists Y. rsplit; auto.
  - assert (full Y) by (apply F4; right; apply F3; exact Frx). unfold full in *. lia.
  - change (Z.to_nat 5) with 5%nat in D4.
    transitivity (fmul (den X) (fmul (fC r0) (den ix))).
    + apply fmul_e; [reflexivity|]. etransitivity; [exact D4|]. apply fmul_e; [exact D1|reflexivity].
    + transitivity (fmul (fmul (fC r0) (den X)) (den ix)); [apply feq_eqn; ring|].
      etransitivity; [|exact D3]. apply fmul_e; [symmetry; exact Drx|reflexivity].
Qed.

Lemma gen_exp_ok : forall X : ser, valid X -> known X = 5 -> nonzero X = 5 -> den X O = k0 ->
  exists Y, gen_exp F X = Ok Y /\ valid Y /\ nonzero Y = 5 /\ eqn 5 (den Y) (fexp (den X)).
Proof.
  intros X HX HK HN H0. unfold gen_exp, gen_exp_n, base_n.
  destruct (gen_set_exp_ok (new_series 5) X HX H0)
    as (Y & E & (V & K & L & P) & D & Ff); rewrite ?new_series_limit; unfold small, relu; try lia.
  exists Y. rsplit; auto.
  - assert (full Y) by (apply Ff; unfold full; lia). unfold full in *. lia.
  - rewrite HK in D. exact D.
Qed.

Lemma gen_base_ok : forall lead fn (y x : ser) (Q : fps F -> Prop), valid x -> 0 < known x -> small (known x) -> known x <= limit y ->
  (forall j, (j < lead)%nat -> den x j = k0) ->
  (forall X : ser, valid X -> known X = 5 -> nonzero X = 5 -> eqn 5 (den X) (den x) ->
     exists Y, fn X = Ok Y /\ valid Y /\ nonzero Y = 5 /\ Q (den Y)) ->
  exists y' q, gen_base F lead fn y x = Ok y' /\ valid y' /\ limit y' = limit y /\
    known y' = Z.min 5 (known x) /\ nonzero y' = known y' /\ Q q /\
    eqn (Z.to_nat (Z.min 5 (known x))) (den y') q.
Proof.
  intros lead fn y x Q Hx Hk Hs Hl Hz Hfn. unfold small in *. pose proof Hx as (X0 & X1 & X2 & X3).
  unfold gen_base, base_n. rewrite to_i32_id by lia. set (ny := Z.min 5 (known x)).
  assert (Hny : 0 < ny <= 5 /\ ny <= known x) by (unfold ny; lia).
  rewrite set_counts_ok by lia. cbn [bind cells].
  destruct (Z.eqb_spec ny 0); [lia|].
  destruct (read_ext_ok (Z.to_nat 5) lead 0 x Hx) as (xs & E1 & L1 & N1); unfold small; try lia.
  { exact Hz. }
  rewrite E1. cbn [bind].
  destruct (base_arg_ok xs (den x) L1 N1) as (VX & DX).
  destruct (Hfn (base_arg F xs) VX eq_refl eq_refl DX) as (Y & E2 & VY & NY & QY).
  rewrite E2. cbn [bind]. rewrite NY. change (5 <=? 5) with true. cbn iota.
  destruct (read_cells_ok F (Z.to_nat ny) (cells Y)) as (vs & E3 & L3 & N3).
  { intros j Hj. destruct VY as (_ & _ & _ & HY). apply HY. lia. }
  rewrite E3. cbn [bind]. unfold limit in Hl.
  destruct (write_cells_ok F vs (cells y)) as (r & E4 & L4 & N4 & _); [lia|].
  rewrite E4. cbn [bind]. exists (mkS r ny ny), (den Y). split; [reflexivity|].
  destruct (mk_valid F r ny ny (den Y)) as (V & D); try lia.
  { intros j Hj. rewrite N4 by lia. rewrite <- N3 by lia. apply valid_cell; auto. lia. }
  split; [exact V|]. cbn [known nonzero]. rsplit; auto.
  - unfold limit. cbn [cells]. lia.
  - intros j Hj. apply D. lia.
Qed.

(** The generated bases, for arguments whose term count fits in an int. *)
Lemma gen_inv_base_k : forall y x : ser, valid x -> 0 < nonzero x -> small (known x) -> den x O <> k0 -> known x <= limit y ->
    exists y', inv_base (gen_bases F) y x = Ok y' /\ valid y' /\ limit y' = limit y /\
      known y' = Z.min 5 (known x) /\ nonzero y' = known y' /\
      eqn (Z.to_nat (Z.min 5 (known x))) (fmul (den x) (den y')) f1.
Proof.
  intros y x Hx Hn Hs H0 Hl. pose proof Hx as (X0 & X1 & X2 & X3).
  destruct (gen_base_ok 0 (gen_inv F) y x (fun q => eqn 5 (fmul (den x) q) f1) Hx ltac:(lia) Hs Hl) as (y' & q & E & V & L & K & N & Q & D).
  - intros j Hj. lia.
  - intros X VX KX NX DX.
    destruct (gen_inv_ok X VX KX NX) as (Y & EY & VY & NY & QY).
    { rewrite (eqn_at F _ _ _ O DX) by lia. exact H0. }
    exists Y. rsplit; auto. etransitivity; [|exact QY]. apply fmul_e; [symmetry; exact DX|reflexivity].
  - exists y'. rsplit; auto; try lia.
    transitivity (fmul (den x) q); [apply fmul_e; [reflexivity|exact D]|].
    apply eqn_mono with (n := 5%nat); [lia|exact Q].
Qed.

Lemma gen_exp_base_k : forall y x : ser, valid x -> 0 < known x -> small (known x) -> den x O = k0 -> known x <= limit y ->
    exists y', exp_base (gen_bases F) y x = Ok y' /\ valid y' /\ limit y' = limit y /\
      known y' = Z.min 5 (known x) /\ nonzero y' = known y' /\
      eqn (Z.to_nat (Z.min 5 (known x))) (den y') (fexp (den x)).
Proof.
  intros y x Hx Hn Hs H0 Hl. pose proof Hx as (X0 & X1 & X2 & X3).
  destruct (gen_base_ok 1 (gen_exp F) y x (fun q => eqn 5 q (fexp (den x))) Hx ltac:(lia) Hs Hl) as (y' & q & E & V & L & K & N & Q & D).
  - intros j Hj. assert (j = O) by lia. subst j. exact H0.
  - intros X VX KX NX DX.
    destruct (gen_exp_ok X VX KX NX) as (Y & EY & VY & NY & QY).
    { rewrite (eqn_at F _ _ _ O DX) by lia. exact H0. }
    exists Y. rsplit; auto. etransitivity; [exact QY|]. apply fexp_e. exact DX.
  - exists y'. rsplit; auto; try lia.
    transitivity q; [exact D|].
    apply eqn_mono with (n := 5%nat); [lia|exact Q].
Qed.

Lemma gen_bases_ok : bases_ok (gen_bases F).
Proof.
  split.
  - intros y x Hx Hn Hs H0 Hl. pose proof Hx as (X0 & X1 & _).
    destruct (gen_inv_base_k y x Hx Hn Hs H0 Hl) as (y' & E & V & L & K & N & D).
    exists y'. rsplit; auto; try lia. rewrite K. exact D.
  - intros y x Hx Hn Hs H0 Hl. pose proof Hx as (X0 & X1 & _).
    destruct (gen_exp_base_k y x Hx Hn Hs H0 Hl) as (y' & E & V & L & K & N & D).
    exists y'. rsplit; auto; try lia. rewrite K. exact D.
Qed.

End CP.
