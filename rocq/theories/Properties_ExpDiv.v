(** Property C77: reciprocals and quotients of expansions (expansion.h:139-171).

    Real numbers enter through Flocq, so the standard library's axioms for the reals (and
    excluded middle) appear below. *)
From Coq Require Import ZArith List Bool Reals Lia Lra Arith.
From Flocq Require Import Core BinarySingleNaN.
From Verif Require Import Base ExpansionModel ExpansionFloat ExpansionProofs ExpansionMul ExpansionBasic ExpansionRange ExpansionDivModel ExpansionDiv Properties_Expansion.
Import ListNotations.
Open Scope R_scope.

(** * C77: reciprocals and quotients are accurate to about 98 bits *)

(** Every length: nothing throws, and the result has the length of the operands. *)
Lemma add_ok x y : length x = length y -> exists r, collange_add x y = Ok r /\ length r = length x.
Proof.
  intro E. rewrite collange_add_def by exact E. eexists. split; [reflexivity|].
  rewrite firstn_length, add_state_len, interleave_len by exact E. lia.
Qed.
Lemma sub_ok x y : length x = length y -> exists r, collange_sub x y = Ok r /\ length r = length x.
Proof. intro E. apply add_ok. rewrite neg_len. exact E. Qed.
Lemma loop_ok k : forall two x y, length two = length x -> length y = length x -> exists r, inv_loop k two x y = Ok r /\ length r = length x.
Proof.
  induction k as [|k IH]; intros two x y E F; [exists y; split; [reflexivity|exact F]|]. cbn [inv_loop]. unfold inv_step.
  destruct (C47_total x y (eq_sym F)) as (p & Rp & Lp). rewrite Rp. cbn [bind].
  destruct (sub_ok two p) as (t & Rt & Lt); [lia|]. rewrite Rt. cbn [bind].
  destruct (C47_total y t) as (z & Rz & Lz); [lia|]. rewrite Rz. cbn [bind]. apply IH; lia.
Qed.
Theorem C77_inv_total : forall x, x <> [] -> exists y, exp_inv x = Ok y /\ length y = length x.
Proof.
  intros [|x0 x] N; [contradiction|]. unfold exp_inv. apply loop_ok; unfold of_double; cbn [length]; rewrite repeat_length; lia.
Qed.
Print Assumptions C77_inv_total.
Theorem C77_div_total : forall a b, b <> [] -> length a = length b -> exists y, exp_div a b = Ok y /\ length y = length b.
Proof.
  intros a b N E. unfold exp_div. destruct (C77_inv_total b N) as (i & Ri & Li). rewrite Ri. cbn [bind].
  destruct (C47_total a i) as (q & Rq & Lq); [lia|]. rewrite Rq. cbn [bind].
  destruct (C47_total b q) as (p & Rp & Lp); [lia|]. rewrite Rp. cbn [bind].
  destruct (sub_ok p a) as (d & Rd & Ld); [lia|]. rewrite Rd. cbn [bind].
  destruct (C47_total d i) as (c & Rc & Lc); [lia|]. rewrite Rc. cbn [bind].
  destruct (sub_ok q c) as (y & Ry & Ly); [lia|]. exists y. split; [exact Ry|lia].
Qed.
Print Assumptions C77_div_total.

(** Two components, normalised, between [2^-300] and [2^300] in magnitude. *)
Lemma medium_of x0 x1 : valid [x0; x1] -> Forall fin [x0; x1] -> bpow radix2 (-300) <= Rabs (B2R x0) <= bpow radix2 300 -> medium x0 x1.
Proof.
  intros [V _] F H. inversion F as [|? ? F0 F']; subst. inversion F' as [|? ? F1 _]; subst.
  split; [exact F0|]. split; [exact F1|]. split; [exact H|]. pose proof (bpow_gt_0 radix2 (-300)).
  assert (N : B2R x0 <> 0) by (intro E; rewrite E, Rabs_R0 in H; lra). specialize (V N). inversion V as [|? ? V1 _]; subst.
  eapply Rle_trans; [exact V1|]. apply gulp_small, N.
Qed.
Lemma uu : bpow radix2 (-106) = u * u.
Proof. unfold u. rewrite <- bpow_plus. reflexivity. Qed.
Lemma val2 a b : val [a; b] = B2R a + B2R b.
Proof. rewrite !val_cons. change (val []) with 0. ring. Qed.

Theorem C77_inv : forall x0 x1, Forall fin [x0; x1] -> valid [x0; x1] -> bpow radix2 (-300) <= Rabs (B2R x0) <= bpow radix2 300 ->
  exists y0 y1, exp_inv [x0; x1] = Ok [y0; y1] /\ Forall fin [y0; y1] /\
    Rabs (val [x0; x1] * val [y0; y1] - 1) <= 211 * bpow radix2 (-106) /\ Rabs (B2R y1) <= bpow radix2 (-48) * Rabs (B2R y0).
Proof.
  intros x0 x1 F V H. pose proof (medium_of x0 x1 V F H) as MX. destruct (inv2 x0 x1 MX) as (y0 & y1 & E & F0 & F1 & K0 & K1 & Ke).
  exists y0, y1. split; [exact E|]. split; [repeat constructor; assumption|]. rewrite !val2, uu. split; [rewrite Rabs_minus_sym; exact Ke|].
  pose proof (medium_inv x0 x1 MX) as (Pa & _). cbv zeta in Pa. set (a := Rabs (B2R x0)) in *.
  assert (L : 1 - / 2 ^ 40 <= a * Rabs (B2R y0)).
  { unfold a. rewrite <- Rabs_mult. pose proof (Rabs_triang (- (B2R x0 * B2R y0 - 1)) (B2R x0 * B2R y0)) as T. rewrite Rabs_Ropp in T.
    replace (- (B2R x0 * B2R y0 - 1) + B2R x0 * B2R y0) with 1 in T by ring. rewrite (Rabs_pos_eq 1) in T by lra. lra. }
  apply Rmult_le_reg_l with a; [exact Pa|]. replace (a * (bpow radix2 (-48) * Rabs (B2R y0))) with (bpow radix2 (-48) * (a * Rabs (B2R y0))) by ring.
  replace (bpow radix2 (-48)) with (32 * u) by (unfold u; change 32 with (bpow radix2 5); rewrite <- bpow_plus; reflexivity).
  rewrite u_val in *. lra.
Qed.
Print Assumptions C77_inv.

(** The quotient, for any dividend: [s] bounds its leading component, and its second to 52 bits less. *)
Lemma junk b : Rabs b <= bpow radix2 300 -> 2 ^ 200 * ((1 + Rabs b) * hm) <= bpow radix2 (-574).
Proof.
  intro H. replace (bpow radix2 (-574)) with (2 ^ 200 * (bpow radix2 301 * hm)).
  - apply Rmult_le_compat_l; [apply pow_le; lra|]. apply Rmult_le_compat_r; [left; apply hm_pos|].
    change 301%Z with (1 + 300)%Z. rewrite bpow_plus. change (bpow radix2 1) with 2.
    assert (1 <= bpow radix2 300) by (change 1 with (bpow radix2 0); apply bpow_le; lia). lra.
  - unfold hm. change (2 ^ 200) with ((IZR radix2) ^ 200).
    replace (IZR radix2 ^ 200) with (bpow radix2 200) by (rewrite <- (IZR_Zpower radix2 200) by lia; rewrite pow_IZR; f_equal).
    rewrite <- !bpow_plus. reflexivity.
Qed.
Theorem C77_div_abs : forall a0 a1 b0 b1 s, Forall fin [b0; b1] -> valid [b0; b1] -> bpow radix2 (-300) <= Rabs (B2R b0) <= bpow radix2 300 ->
  Forall fin [a0; a1] -> Rabs (B2R a0) <= s -> Rabs (B2R a1) <= bpow radix2 (-52) * s -> bpow radix2 (-574) <= s <= bpow radix2 300 ->
  exists y0 y1, exp_div [a0; a1] [b0; b1] = Ok [y0; y1] /\ Forall fin [y0; y1] /\
    Rabs (val [y0; y1] - val [a0; a1] / val [b0; b1]) <= 261 * bpow radix2 (-106) * (s / Rabs (B2R b0)).
Proof.
  intros a0 a1 b0 b1 s Fb Vb Hb Fa H0 H1 Hs. inversion Fa as [|? ? F0 F']; subst. inversion F' as [|? ? F1 _]; subst.
  replace (bpow radix2 (-52)) with (2 * u) in H1 by (unfold u; change 2 with (bpow radix2 1); rewrite <- bpow_plus; reflexivity).
  destruct (div2 a0 a1 b0 b1 s (medium_of b0 b1 Vb Fb Hb) F0 F1 H0 H1) as (y0 & y1 & E & G0 & G1 & K); [lra| |].
  { pose proof (junk (B2R b0) ltac:(lra)). lra. }
  exists y0, y1. split; [exact E|]. split; [repeat constructor; assumption|]. rewrite !val2, uu. exact K.
Qed.
Print Assumptions C77_div_abs.

(** Relative to the quotient, for a normalised dividend that is not tiny. *)
Lemma rel2 a0 a1 b0 b1 : medium b0 b1 -> fin a0 -> fin a1 -> B2R a0 <> 0 -> Rabs (B2R a1) <= 2 * u * Rabs (B2R a0) ->
  bpow radix2 (-574) <= Rabs (B2R a0) <= bpow radix2 300 ->
  exists y0 y1, exp_div [a0; a1] [b0; b1] = Ok [y0; y1] /\ Forall fin [y0; y1] /\
    Rabs (val [y0; y1] - val [a0; a1] / val [b0; b1]) <= 262 * bpow radix2 (-106) * Rabs (val [a0; a1] / val [b0; b1]).
Proof.
  intros MX F0 F1 N H1 Ha. pose proof MX as (_ & _ & Hb & Hb1). pose proof (bpow_gt_0 radix2 (-300)) as P300.
  destruct (div2 a0 a1 b0 b1 (Rabs (B2R a0)) MX F0 F1 (Rle_refl _) H1) as (y0 & y1 & E & G0 & G1 & K); [lra| |].
  { pose proof (junk (B2R b0) ltac:(lra)). lra. }
  exists y0, y1. split; [exact E|]. split; [repeat constructor; assumption|]. rewrite (val2 y0), uu. rewrite (val2 a0), (val2 b0).
  eapply Rle_trans; [exact K|]. rewrite <- uu. pose proof u_val as Pu.
  set (A0 := B2R a0) in *. set (A1 := B2R a1) in *. set (B0 := B2R b0) in *. set (B1 := B2R b1) in *.
  assert (PA : 0 < Rabs A0) by (apply Rabs_pos_lt, N). assert (PB : 0 < Rabs B0) by lra.
  assert (LA : (1 - 2 * u) * Rabs A0 <= Rabs (A0 + A1)).
  { pose proof (Rabs_triang (A0 + A1) (- A1)) as T. rewrite Rabs_Ropp in T. replace (A0 + A1 + - A1) with A0 in T by ring. lra. }
  assert (UB_ : Rabs (B0 + B1) <= (1 + 2 * u) * Rabs B0) by (eapply Rle_trans; [apply Rabs_triang|]; lra).
  assert (LB : (1 - 2 * u) * Rabs B0 <= Rabs (B0 + B1)).
  { pose proof (Rabs_triang (B0 + B1) (- B1)) as T. rewrite Rabs_Ropp in T. replace (B0 + B1 + - B1) with B0 in T by ring. lra. }
  assert (PBB : 0 < Rabs (B0 + B1)) by (rewrite Pu in LB; lra).
  assert (NB : B0 + B1 <> 0) by (intro Z; rewrite Z, Rabs_R0 in PBB; lra).
  replace (262 * bpow radix2 (-106) * Rabs ((A0 + A1) / (B0 + B1))) with (261 * bpow radix2 (-106) * (262 / 261 * Rabs ((A0 + A1) / (B0 + B1)))) by field.
  apply Rmult_le_compat_l; [pose proof (bpow_gt_0 radix2 (-106)); lra|].
  unfold Rdiv at 3. rewrite Rabs_mult, Rabs_inv.
  apply Rmult_le_reg_r with (Rabs B0); [exact PB|]. unfold Rdiv at 1. rewrite Rmult_assoc, Rinv_l by lra. rewrite Rmult_1_r.
  apply Rmult_le_reg_r with (Rabs (B0 + B1)); [exact PBB|].
  replace (262 / 261 * (Rabs (A0 + A1) * / Rabs (B0 + B1)) * Rabs B0 * Rabs (B0 + B1)) with (262 / 261 * (Rabs (A0 + A1) * Rabs B0)) by (field; lra).
  apply Rle_trans with (Rabs A0 * ((1 + 2 * u) * Rabs B0)); [apply Rmult_le_compat_l; lra|].
  apply Rle_trans with (262 / 261 * ((1 - 2 * u) * Rabs A0 * Rabs B0)).
  - assert (0 <= Rabs A0 * Rabs B0) by (apply Rmult_le_pos; lra). rewrite Pu. lra.
  - apply Rmult_le_compat_l; [lra|]. apply Rmult_le_compat_r; lra.
Qed.
Theorem C77_div : forall a0 a1 b0 b1, Forall fin [b0; b1] -> valid [b0; b1] -> bpow radix2 (-300) <= Rabs (B2R b0) <= bpow radix2 300 ->
  Forall fin [a0; a1] -> valid [a0; a1] -> bpow radix2 (-574) <= Rabs (B2R a0) <= bpow radix2 300 ->
  exists y0 y1, exp_div [a0; a1] [b0; b1] = Ok [y0; y1] /\ Forall fin [y0; y1] /\
    Rabs (val [y0; y1] - val [a0; a1] / val [b0; b1]) <= 262 * bpow radix2 (-106) * Rabs (val [a0; a1] / val [b0; b1]).
Proof.
  intros a0 a1 b0 b1 Fb Vb Hb Fa [Va _] Ha. pose proof (bpow_gt_0 radix2 (-574)) as P574.
  assert (N : B2R a0 <> 0) by (intro E; rewrite E, Rabs_R0 in Ha; lra). specialize (Va N). inversion Va as [|? ? V1 _]; subst.
  inversion Fa as [|? ? F0 F']; subst. inversion F' as [|? ? F1 _]; subst.
  apply rel2; [exact (medium_of b0 b1 Vb Fb Hb)|exact F0|exact F1|exact N| |exact Ha].
  eapply Rle_trans; [exact V1|apply gulp_small, N].
Qed.
Print Assumptions C77_div.

(** Division by an integer that fits an int64 (but for the top 512, see C49). *)
Theorem C77_div_int : forall a0 a1 b, (- 2 ^ 63 <= b < 2 ^ 63 - 512)%Z -> b <> 0%Z ->
  Forall fin [a0; a1] -> valid [a0; a1] -> bpow radix2 (-574) <= Rabs (B2R a0) <= bpow radix2 300 ->
  exists y0 y1, exp_div_int [a0; a1] b = Ok [y0; y1] /\ Forall fin [y0; y1] /\
    Rabs (val [y0; y1] - val [a0; a1] / IZR b) <= 262 * bpow radix2 (-106) * Rabs (val [a0; a1] / IZR b).
Proof.
  intros a0 a1 b Hb Nb Fa Va Ha. unfold exp_div_int. cbn [length].
  destruct (int64_ok 2 b Hb) as (x & Ex & Fx & Vx & Lx). rewrite Ex. cbn [bind].
  assert (X0 : exists x1, x = [dofZ b; x1]).
  { unfold of_int64 in Ex. destruct (to_int64 (dofZ b)) as [z| |]; try discriminate. cbn [bind] in Ex.
    destruct (sub_int64 b z) as [d| |]; try discriminate. cbn [bind] in Ex. injection Ex as <-. eexists. reflexivity. }
  destruct X0 as [x1 ->]. inversion Fx as [|? ? F0 F']; subst. inversion F' as [|? ? F1 _]; subst.
  pose proof Vx as Vx'. rewrite val2 in Vx'.
  assert (E0 : B2R (dofZ b) = rn (IZR b)).
  { change (dofZ b) with (dlit b 0). rewrite lit_rn by exact F0. f_equal. unfold F2R. cbn [Fnum Fexp bpow]. ring. }
  pose proof (rn_err (IZR b)) as K. rewrite <- E0 in K.
  assert (B1 : 1 <= Rabs (IZR b)) by (rewrite <- abs_IZR; apply IZR_le; lia).
  assert (B2 : Rabs (IZR b) <= bpow radix2 63).
  { rewrite <- abs_IZR. rewrite <- (IZR_Zpower radix2 63) by lia. apply IZR_le. change (radix2 ^ 63)%Z with (2 ^ 63)%Z. lia. }
  assert (HS : hm <= / 2 ^ 200).
  { unfold hm. apply Rle_trans with (bpow radix2 (-200)); [apply bpow_le; lia|]. right.
    change (-200)%Z with (- (200))%Z. rewrite bpow_opp. f_equal. rewrite <- (IZR_Zpower radix2 200) by lia. rewrite pow_IZR. f_equal. }
  pose proof u_val as Pu.
  assert (U : Rabs (B2R (dofZ b)) <= 2 * Rabs (IZR b)).
  { replace (B2R (dofZ b)) with (IZR b + - (IZR b - B2R (dofZ b))) by ring. eapply Rle_trans; [apply Rabs_triang|]. rewrite Rabs_Ropp. rewrite Pu in K. lra. }
  assert (L : Rabs (IZR b) <= Rabs (B2R (dofZ b)) + (u * Rabs (IZR b) + hm)).
  { replace (IZR b) with (B2R (dofZ b) + (IZR b - B2R (dofZ b))) at 1 by ring. eapply Rle_trans; [apply Rabs_triang|]. lra. }
  assert (MX : medium (dofZ b) x1).
  { split; [exact F0|]. split; [exact F1|]. split; [split|].
    - apply Rle_trans with (/ 2); [change (/ 2) with (bpow radix2 (-1)); apply bpow_le; lia|]. rewrite Pu in *. lra.
    - apply Rle_trans with (bpow radix2 64); [|apply bpow_le; lia]. change 64%Z with (1 + 63)%Z. rewrite bpow_plus. change (bpow radix2 1) with 2. lra.
    - replace (B2R x1) with (IZR b - B2R (dofZ b)) by lra. rewrite Pu in *. lra. }
  rewrite <- Vx. clear Fx F'. destruct Va as [Va _].
  pose proof (bpow_gt_0 radix2 (-574)) as P574.
  assert (N : B2R a0 <> 0) by (intro E; rewrite E, Rabs_R0 in Ha; lra). specialize (Va N). inversion Va as [|? ? V1 _]; subst.
  inversion Fa as [|? ? G0 G']; subst. inversion G' as [|? ? G1 _]; subst.
  assert (H1 : Rabs (B2R a1) <= 2 * u * Rabs (B2R a0)) by (eapply Rle_trans; [exact V1|apply gulp_small, N]).
  destruct (rel2 a0 a1 (dofZ b) x1 MX G0 G1 N H1 Ha) as (y0 & y1 & E & G & Ky). exists y0, y1. split; [exact E|]. split; [exact G|exact Ky].
Qed.
Print Assumptions C77_div_int.

(** Zero divided by anything in range is zero. *)
Lemma mul2_zero x0 x1 y0 y1 r0 r1 : collange_mul [x0; x1] [y0; y1] = Ok [r0; r1] -> fin r0 -> fin r1 ->
  (B2R x0 = 0 /\ B2R x1 = 0) \/ (B2R y0 = 0 /\ B2R y1 = 0) -> B2R r0 = 0 /\ B2R r1 = 0.
Proof.
  intros E F0 F1 Z. rewrite mul2_def in E. injection E as <- <-.
  assert (Z00 : B2R x0 * B2R y0 = 0) by (destruct Z as [[-> _]|[-> _]]; ring).
  assert (Z10 : B2R x1 * B2R y0 = 0) by (destruct Z as [[_ ->]|[-> _]]; ring).
  assert (Z01 : B2R x0 * B2R y1 = 0) by (destruct Z as [[-> _]|[_ ->]]; ring).
  assert (E0 : B2R (dmul x0 y0) = 0) by (rewrite (mul_rn _ _ F0), Z00; apply rn_0). split; [exact E0|].
  destruct (fin_add _ _ F1) as [Fs Fq]. destruct (fin_add _ _ Fs) as [Fp Fe]. cbn [two_prod snd] in *.
  rewrite (add_rn _ _ F1), (add_rn _ _ Fs), (mul_rn _ _ Fq), (mul_rn _ _ Fp), (fma_rn _ _ _ Fe), B2R_neg, E0, Z00, Z10, Z01.
  replace (0 + - 0) with 0 by ring. rewrite !rn_0. replace (0 + 0) with 0 by ring. rewrite !rn_0. replace (0 + 0) with 0 by ring. apply rn_0.
Qed.
Lemma sub2_zero x0 x1 y0 y1 : fin x0 -> fin x1 -> fin y0 -> fin y1 -> B2R x0 = 0 -> B2R x1 = 0 -> B2R y0 = 0 -> B2R y1 = 0 ->
  exists r0 r1, collange_sub [x0; x1] [y0; y1] = Ok [r0; r1] /\ fin r0 /\ fin r1 /\ B2R r0 = 0 /\ B2R r1 = 0.
Proof.
  intros F0 F1 G0 G1 X0 X1 Y0 Y1. unfold collange_sub. change (exp_neg [y0; y1]) with [dneg y0; dneg y1].
  destruct (add2_gen x0 x1 (dneg y0) (dneg y1) 0) as (r0 & r1 & E & H0 & H1 & K1 & K); try assumption; try (apply fin_neg; assumption).
  { rewrite !B2R_neg, X0, X1, Y0, Y1, Ropp_0, Rabs_R0. lra. }
  { apply bpow_ge_0. }
  exists r0, r1. split; [exact E|]. split; [exact H0|]. split; [exact H1|].
  rewrite !B2R_neg, X0, X1, Y0, Y1 in K. rewrite Rmult_0_r in K, K1.
  assert (E1 : B2R r1 = 0). { destruct (Req_dec (B2R r1) 0) as [Z|Z]; [exact Z|]. apply Rabs_pos_lt in Z. lra. }
  split; [|exact E1]. rewrite E1 in K. replace (B2R r0 + 0 - (0 + 0 + (- 0 + - 0))) with (B2R r0) in K by ring.
  destruct (Req_dec (B2R r0) 0) as [Z|Z]; [exact Z|]. apply Rabs_pos_lt in Z. lra.
Qed.
Lemma mul2_fin_zero x0 x1 y0 y1 : fin x0 -> fin x1 -> fin y0 -> fin y1 ->
  (B2R x0 = 0 /\ B2R x1 = 0) \/ (B2R y0 = 0 /\ B2R y1 = 0) ->
  exists r0 r1, collange_mul [x0; x1] [y0; y1] = Ok [r0; r1] /\ fin r0 /\ fin r1 /\ B2R r0 = 0 /\ B2R r1 = 0.
Proof.
  intros F0 F1 G0 G1 Z. pose proof u_pos as U. pose proof (bpow_ge_0 radix2 900) as B.
  assert (S : forall t : R, Rabs t = u * (Rabs t / u)) by (intro t; field; lra).
  destruct Z as [[X0 X1]|[Y0 Y1]].
  - destruct (mul2_gen x0 x1 y0 y1 0 0 (Rabs (B2R y0)) (Rabs (B2R y1) / u)) as (r0 & r1 & E & H0 & H1 & _); try assumption;
      try (rewrite ?X0, ?X1, Rabs_R0; lra); try lra.
    { rewrite <- S. lra. }
    exists r0, r1. split; [exact E|]. split; [exact H0|]. split; [exact H1|]. exact (mul2_zero _ _ _ _ _ _ E H0 H1 (or_introl (Logic.conj X0 X1))).
  - destruct (mul2_gen x0 x1 y0 y1 (Rabs (B2R x0)) (Rabs (B2R x1) / u) 0 0) as (r0 & r1 & E & H0 & H1 & _); try assumption;
      try (rewrite ?Y0, ?Y1, Rabs_R0; lra); try lra.
    { rewrite <- S. lra. }
    exists r0, r1. split; [exact E|]. split; [exact H0|]. split; [exact H1|]. exact (mul2_zero _ _ _ _ _ _ E H0 H1 (or_intror (Logic.conj Y0 Y1))).
Qed.
Theorem C77_div_zero : forall a0 a1 b0 b1, Forall fin [b0; b1] -> valid [b0; b1] -> bpow radix2 (-300) <= Rabs (B2R b0) <= bpow radix2 300 ->
  Forall fin [a0; a1] -> B2R a0 = 0 -> B2R a1 = 0 ->
  exists y0 y1, exp_div [a0; a1] [b0; b1] = Ok [y0; y1] /\ Forall fin [y0; y1] /\ B2R y0 = 0 /\ B2R y1 = 0.
Proof.
  intros a0 a1 b0 b1 Fb Vb Hb Fa Z0 Z1. inversion Fa as [|? ? F0 F']; subst. inversion F' as [|? ? F1 _]; subst.
  destruct (medium_of b0 b1 Vb Fb Hb) as (Fb0 & Fb1 & _ & _).
  destruct (inv2 b0 b1 (medium_of b0 b1 Vb Fb Hb)) as (i0 & i1 & Ei & I0 & I1 & _). unfold exp_div. rewrite Ei. cbn [bind].
  destruct (mul2_fin_zero a0 a1 i0 i1 F0 F1 I0 I1) as (q0 & q1 & Eq & Fq0 & Fq1 & Zq0 & Zq1); [left; split; assumption|]. rewrite Eq. cbn [bind].
  destruct (mul2_fin_zero b0 b1 q0 q1 Fb0 Fb1 Fq0 Fq1) as (p0 & p1 & Ep & Fp0 & Fp1 & Zp0 & Zp1); [right; split; assumption|]. rewrite Ep. cbn [bind].
  destruct (sub2_zero p0 p1 a0 a1) as (d0 & d1 & Ed & Fd0 & Fd1 & Zd0 & Zd1); try assumption. rewrite Ed. cbn [bind].
  destruct (mul2_fin_zero d0 d1 i0 i1 Fd0 Fd1 I0 I1) as (c0 & c1 & Ec & Fc0 & Fc1 & Zc0 & Zc1); [left; split; assumption|]. rewrite Ec. cbn [bind].
  destruct (sub2_zero q0 q1 c0 c1) as (y0 & y1 & Ey & Fy0 & Fy1 & Zy0 & Zy1); try assumption.
  exists y0, y1. split; [exact Ey|]. split; [repeat constructor; assumption|]. split; assumption.
Qed.
Print Assumptions C77_div_zero.

(** The range matters: the reciprocals of zero and of the smallest positive double are not numbers. *)
Theorem C77_range_refuted : exists x y, Forall fin x /\ valid x /\ 0 < val x /\ exp_inv x = Ok y /\ Forall (fun a => is_nan a = true) y.
Proof.
  exists [p2 (-1074); dzero], [B754_nan; B754_nan]. split; [repeat constructor|]. split.
  { split; [|split; [constructor|exact Logic.I]]. intros _. constructor; [|constructor]. cbn [dzero B2R]. rewrite Rabs_R0. apply bpow_ge_0. }
  split. { rewrite val2. p2. cbn [dzero B2R]. pose proof (bpow_gt_0 radix2 (-1074)). lra. }
  split; [apply by_res; vm_compute; reflexivity|repeat constructor].
Qed.
Print Assumptions C77_range_refuted.

(** 1 / (3 + 2^-52) and (7 + 2^-52) / (3 + 2^-52): the hypotheses hold and the results are rounded; 1 / 10. *)
Lemma three_R : B2R (dofZ 3) = 3.
Proof.
  change (dofZ 3) with (dlit 3 0). assert (E : F2R (Float radix2 3 0) = 3) by (unfold F2R; cbn; lra).
  rewrite B2R_lit; [exact E|reflexivity|]. apply generic_format_FLT. exists (Float radix2 3 0); [reflexivity|cbn; lia|cbn; unfold emin; lia].
Qed.
Example C77_example : Forall fin [dofZ 3; p2 (-52)] /\ valid [dofZ 3; p2 (-52)] /\ bpow radix2 (-300) <= Rabs (B2R (dofZ 3)) <= bpow radix2 300 /\
  exp_inv [dofZ 3; p2 (-52)] = Ok [dlit 6004799503160661 (-54); dlit (-8006399337547546) (-110)] /\
  exp_div [dofZ 7; p2 (-52)] [dofZ 3; p2 (-52)] = Ok [dlit 5254199565265578 (-51); dlit 8006399337547548 (-105)] /\
  exp_div_int [dofZ 1; dzero] 10 = Ok [dlit 7205759403792794 (-56); dlit (-7205759403792794) (-110)].
Proof.
  split; [repeat constructor|]. split.
  { split; [|split; [constructor|exact Logic.I]]. intros _. constructor; [|constructor]. unfold gulp. rewrite three_R. p2.
    rewrite (Rabs_pos_eq (bpow radix2 (-52))) by apply bpow_ge_0. apply bpow_le.
    assert (M : (mag radix2 3 = 2 :> Z)%Z) by (apply mag_unique; rewrite Rabs_pos_eq by lra; cbn; lra). rewrite M. lia. }
  split. { rewrite three_R, Rabs_pos_eq by lra. split.
    - apply Rle_trans with (bpow radix2 0); [apply bpow_le; lia|cbn; lra].
    - apply Rle_trans with (bpow radix2 2); [cbn; lra|apply bpow_le; lia]. }
  split; [apply by_res; vm_compute; reflexivity|]. split; apply by_res; vm_compute; reflexivity.
Qed.
