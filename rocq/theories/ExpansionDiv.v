(** Accuracy of the reciprocal and the quotient of two-term expansions. *)
From Coq Require Import ZArith List Bool Reals Lia Lra Arith.
From Flocq Require Import Core Relative BinarySingleNaN.
From Verif Require Import Base ExpansionModel ExpansionFloat ExpansionProofs ExpansionMul ExpansionRange ExpansionDivModel.
Import ListNotations.
Open Scope R_scope.

(** Half the smallest positive double. *)
Definition hm : R := bpow radix2 (-1075).
Lemma hm_pos : 0 < hm. Proof. apply bpow_gt_0. Qed.
Lemma u_val : u = / 9007199254740992.
Proof. unfold u. cbn [bpow]. f_equal. Qed.

(** One rounding, underflow or not. *)
Lemma rn_err z : Rabs (z - rn z) <= u * Rabs z + hm.
Proof.
  destruct (error_N_FLT radix2 emin prec eq_refl (fun t => negb (Z.even t)) z) as (e & t & He & Ht & _ & E).
  rewrite E. replace (z - (z * (1 + e) + t)) with (- (e * z) + - t) by ring.
  eapply Rle_trans; [apply Rabs_triang|]. rewrite !Rabs_Ropp, Rabs_mult.
  apply Rplus_le_compat.
  - apply Rmult_le_compat_r; [apply Rabs_pos|]. eapply Rle_trans; [exact He|]. rewrite u_val. change (- prec + 1)%Z with (-52)%Z. cbn [bpow]. cbn [Z.pow_pos]. 
    change (Z.pow_pos radix2 52) with 4503599627370496%Z. lra.
  - eapply Rle_trans; [exact Ht|]. unfold hm, emin. change (-1075)%Z with (-1074 + -1)%Z. rewrite bpow_plus. change (bpow radix2 (-1)) with (/ 2). lra.
Qed.

Lemma rn_small z k : (0 <= k <= 1000)%Z -> Rabs z <= bpow radix2 k -> Rabs (rn z) < bpow radix2 emax.
Proof.
  intros Hk H. apply Rle_lt_trans with (bpow radix2 1000); [|apply bpow_lt; reflexivity].
  apply abs_round_le_generic; try typeclasses eauto.
  - apply generic_format_bpow. unfold FLT_exp, emin, prec. lia.
  - eapply Rle_trans; [exact H|]. apply bpow_le. lia.
Qed.
Lemma small_fin_mul a b : fin a -> fin b -> Rabs (B2R a * B2R b) <= bpow radix2 1000 -> fin (dmul a b).
Proof.
  intros Ha Hb L. pose proof (Bmult_correct prec emax _ _ mode_NE a b) as C.
  rewrite fexp_FLT in C. cbn [round_mode] in C. rewrite Rlt_bool_true in C by (apply (rn_small _ 1000); [lia|exact L]).
  destruct C as (_ & C & _). unfold fin, dmul. rewrite C, Ha, Hb. reflexivity.
Qed.
Lemma small_fin_fma a b c : fin a -> fin b -> fin c -> Rabs (B2R a * B2R b + B2R c) <= bpow radix2 1000 -> fin (dfma a b c).
Proof.
  intros Ha Hb Hc L. pose proof (Bfma_correct prec emax _ _ mode_NE a b c Ha Hb Hc) as C.
  cbv zeta in C. rewrite fexp_FLT in C. cbn [round_mode] in C. rewrite Rlt_bool_true in C by (apply (rn_small _ 1000); [lia|exact L]).
  apply C.
Qed.
Lemma small_fin_div a b : fin a -> B2R b <> 0 -> Rabs (B2R a / B2R b) <= bpow radix2 1000 ->
  fin (ddiv a b) /\ B2R (ddiv a b) = rn (B2R a / B2R b).
Proof.
  intros Ha Hb L. pose proof (Bdiv_correct prec emax _ _ mode_NE a b Hb) as C.
  rewrite fexp_FLT in C. cbn [round_mode] in C. rewrite Rlt_bool_true in C by (apply (rn_small _ 1000); [lia|exact L]).
  destruct C as (C1 & C2 & _). split; [|exact C1]. unfold fin, ddiv. rewrite C2. exact Ha.
Qed.

Lemma abs_mul_le a b A B : Rabs a <= A -> Rabs b <= B -> Rabs (a * b) <= A * B.
Proof. intros H K. rewrite Rabs_mult. apply Rmult_le_compat; try apply Rabs_pos; assumption. Qed.
Lemma abs_add_le a b A B : Rabs a <= A -> Rabs b <= B -> Rabs (a + b) <= A + B.
Proof. intros H K. eapply Rle_trans; [apply Rabs_triang|]. lra. Qed.
Lemma near a b E A : Rabs (a - b) <= E -> Rabs a <= A -> Rabs b <= A + E.
Proof. intros H K. replace b with (a + - (a - b)) by ring. eapply Rle_trans; [apply Rabs_triang|]. rewrite Rabs_Ropp. lra. Qed.

(** A product of two-term expansions with components of known sizes. *)
Lemma mul2_gen x0 x1 y0 y1 A A1 B B1 : fin x0 -> fin x1 -> fin y0 -> fin y1 ->
  Rabs (B2R x0) <= A -> Rabs (B2R x1) <= u * A1 -> Rabs (B2R y0) <= B -> Rabs (B2R y1) <= u * B1 ->
  A * B <= bpow radix2 900 -> A1 * B <= bpow radix2 900 -> A * B1 <= bpow radix2 900 ->
  exists r0 r1, collange_mul [x0; x1] [y0; y1] = Ok [r0; r1] /\ fin r0 /\ fin r1 /\
    Rabs (B2R r0 - B2R x0 * B2R y0) <= u * (A * B) + hm /\
    Rabs (B2R r1) <= (1 + / 2 ^ 50) * (u * (A * B + A1 * B + A * B1)) + 8 * hm /\
    Rabs (B2R r0 + B2R r1 - (B2R x0 + B2R x1) * (B2R y0 + B2R y1)) <=
      (1 + / 2 ^ 50) * (u * u) * (3 * (A * B) + 3 * (A1 * B) + 2 * (A * B1) + A1 * B1) + 8 * hm.
Proof.
  intros F0 F1 G0 G1 H0 H1 K0 K1 L00 L10 L01. rewrite mul2_def.
  set (X0 := B2R x0) in *. set (X1 := B2R x1) in *. set (Y0 := B2R y0) in *. set (Y1 := B2R y1) in *.
  pose proof hm_pos as HP.
  assert (HS : hm <= 1) by (unfold hm; change 1 with (bpow radix2 0); apply bpow_le; lia).
  assert (BIG : 16 * bpow radix2 900 + 16 <= bpow radix2 1000).
  { assert (1 <= bpow radix2 900) by (change 1 with (bpow radix2 0); apply bpow_le; lia).
    replace 1000%Z with (100 + 900)%Z by reflexivity. rewrite (bpow_plus _ 100 900).
    assert (1024 <= bpow radix2 100) by (change 1024 with (bpow radix2 10); apply bpow_le; lia). nra. }
  pose proof (abs_mul_le _ _ _ _ H0 K0) as Q00. pose proof (abs_mul_le _ _ _ _ H1 K0) as Q10.
  pose proof (abs_mul_le _ _ _ _ H0 K1) as Q01. pose proof (abs_mul_le _ _ _ _ H1 K1) as Q11.
  replace (u * A1 * B) with (u * (A1 * B)) in Q10 by ring. replace (A * (u * B1)) with (u * (A * B1)) in Q01 by ring.
  replace (u * A1 * (u * B1)) with (u * u * (A1 * B1)) in Q11 by ring.
  pose proof (Rle_trans _ _ _ (Rabs_pos _) Q00) as P00. pose proof (Rle_trans _ _ _ (Rabs_pos _) Q10) as P10.
  pose proof (Rle_trans _ _ _ (Rabs_pos _) Q01) as P01. pose proof (Rle_trans _ _ _ (Rabs_pos _) Q11) as P11.
  set (a := A * B) in *. set (b := A1 * B) in *. set (c := A * B1) in *. set (d := A1 * B1) in *.
  rewrite u_val in *. 
  set (M := bpow radix2 900) in *. set (N := bpow radix2 1000) in *.
  assert (E00 : fin (dmul x0 y0)) by (apply small_fin_mul; try assumption; fold X0 Y0 N; lra).
  assert (E10 : fin (dmul x1 y0)) by (apply small_fin_mul; try assumption; fold X1 Y0 N; lra).
  assert (E01 : fin (dmul x0 y1)) by (apply small_fin_mul; try assumption; fold X0 Y1 N; lra).
  pose proof (rn_err (X0 * Y0)) as R00. rewrite <- (mul_rn _ _ E00 : B2R (dmul x0 y0) = rn (X0 * Y0)) in R00.
  pose proof (rn_err (X1 * Y0)) as R10. rewrite <- (mul_rn _ _ E10 : B2R (dmul x1 y0) = rn (X1 * Y0)) in R10.
  pose proof (rn_err (X0 * Y1)) as R01. rewrite <- (mul_rn _ _ E01 : B2R (dmul x0 y1) = rn (X0 * Y1)) in R01.
  rewrite u_val in *.
  set (r := dmul x0 y0) in *. set (p := dmul x1 y0) in *. set (q := dmul x0 y1) in *.
  assert (V : Rabs (X0 * Y0 + B2R (dneg r)) <= / 9007199254740992 * a + hm).
  { rewrite B2R_neg. fold (X0 * Y0 - B2R r). lra. }
  assert (Ee : fin (snd (two_prod x0 y0))).
  { cbn [two_prod snd]. fold r. apply small_fin_fma; try assumption; [apply fin_neg; exact E00|]. fold X0 Y0 N. lra. }
  cbn [two_prod snd] in Ee |- *. fold r in Ee |- *.
  pose proof (rn_err (X0 * Y0 + B2R (dneg r))) as Re. rewrite <- (fma_rn _ _ _ Ee : _ = rn (X0 * Y0 + B2R (dneg r))) in Re.
  rewrite u_val in Re. set (e := dfma x0 y0 (dneg r)) in *.
  pose proof (near _ _ _ _ Re V) as Se. pose proof (near _ _ _ _ R10 Q10) as Sp. pose proof (near _ _ _ _ R01 Q01) as Sq.
  set (D := Rabs (X0 * Y0 + B2R (dneg r))) in *.
  pose proof (abs_add_le _ _ _ _ Sp Se) as W1.
  assert (Fs : fin (dadd p e)).
  { apply small_fin_add; try assumption. apply (rn_small _ 1000); [lia|]. fold N. lra. }
  pose proof (dadd_err p e Fs) as D1. rewrite u_val in D1. set (s := dadd p e) in *. set (S1 := Rabs (B2R p + B2R e)) in *.
  assert (Ss : Rabs (B2R s) <= S1 + / 9007199254740992 * S1) by (apply (near (B2R p + B2R e)); [exact D1|apply Rle_refl]).
  pose proof (abs_add_le _ _ _ _ Ss Sq) as W2.
  assert (Fr : fin (dadd s q)).
  { apply small_fin_add; try assumption. apply (rn_small _ 1000); [lia|]. fold N. lra. }
  pose proof (dadd_err s q Fr) as D2. rewrite u_val in D2. set (t := dadd s q) in *. set (S2 := Rabs (B2R s + B2R q)) in *.
  assert (St : Rabs (B2R t) <= S2 + / 9007199254740992 * S2) by (apply (near (B2R s + B2R q)); [exact D2|apply Rle_refl]).
  exists r, t. split; [reflexivity|]. split; [exact E00|]. split; [exact Fr|]. split; [|split].
  - rewrite Rabs_minus_sym. lra.
  - lra.
  - replace (B2R r + B2R t - (X0 + X1) * (Y0 + Y1)) with
      (- (X0 * Y0 + B2R (dneg r) - B2R e) + - (X1 * Y0 - B2R p) + - (X0 * Y1 - B2R q) + - (B2R p + B2R e - B2R s) + - (B2R s + B2R q - B2R t) + - (X1 * Y1))
      by (rewrite B2R_neg; ring).
    repeat (eapply Rle_trans; [apply Rabs_triang|]; rewrite ?Rabs_Ropp).
    eapply Rle_trans; [apply Rplus_le_compat_r; apply Rabs_triang|]. rewrite ?Rabs_Ropp.
    eapply Rle_trans; [apply Rplus_le_compat_r, Rplus_le_compat_r; apply Rabs_triang|]. rewrite ?Rabs_Ropp.
    eapply Rle_trans; [apply Rplus_le_compat_r, Rplus_le_compat_r, Rplus_le_compat_r; apply Rabs_triang|]. rewrite ?Rabs_Ropp.
    eapply Rle_trans; [apply Rplus_le_compat_r, Rplus_le_compat_r, Rplus_le_compat_r, Rplus_le_compat_r; apply Rabs_triang|]. rewrite ?Rabs_Ropp.
    lra.
Qed.

(** A sum of two-term expansions. *)
Lemma add2_gen x0 x1 y0 y1 M : fin x0 -> fin x1 -> fin y0 -> fin y1 ->
  Rabs (B2R x0) + Rabs (B2R x1) + Rabs (B2R y0) + Rabs (B2R y1) <= M -> M <= bpow radix2 1000 ->
  exists r0 r1, collange_add [x0; x1] [y0; y1] = Ok [r0; r1] /\ fin r0 /\ fin r1 /\
    Rabs (B2R r1) <= (3 + / 2 ^ 40) * u * M /\
    Rabs (B2R r0 + B2R r1 - (B2R x0 + B2R x1 + (B2R y0 + B2R y1))) <= (6 + / 2 ^ 40) * (u * u) * M.
Proof.
  intros F0 F1 G0 G1 H L.
  assert (F : Forall fin (add_state [x0; y0; x1; y1])).
  { apply add_range_ok; [repeat constructor; assumption| |].
    - replace (INR (length [x0; y0; x1; y1])) with 4 by (cbn; ring). rewrite u_val. lra.
    - rewrite !mags_cons. change (mags []) with 0. lra. }
  rewrite collange_add_def by reflexivity. cbn [interleave length firstn].
  pose proof (add_state_val _ F) as V. rewrite add_state_chain in F, V |- *.
  pose proof (chain_mags [y0; x1; y1] x0) as C.
  destruct (chain x0 [y0; x1; y1]) as [r0 es] eqn:E1. cbn [fst snd] in *.
  assert (Les : length es = 3%nat). { pose proof (chain_len [y0; x1; y1] x0) as Q. rewrite E1 in Q. exact Q. }
  inversion F as [|? ? Fr0 Fes]; subst. specialize (C (add_state_fin _ Fes)).
  destruct es as [|e0 [|e1 [|e2 [|? ?]]]]; try discriminate.
  pose proof (add_state_val _ Fes) as V2. rewrite add_state_chain in Fes, V, V2 |- *. pose proof (chain_mags [e1; e2] e0) as C2.
  destruct (chain e0 [e1; e2]) as [r1 fs] eqn:E2. cbn [fst snd] in *.
  inversion Fes as [|? ? Fr1 Ffs]; subst. specialize (C2 (add_state_fin _ Ffs)).
  exists r0, r1. split; [reflexivity|]. split; [exact Fr0|]. split; [exact Fr1|].
  pose proof (val_mags fs) as VM. rewrite !val_cons in V. rewrite (add_state_val _ Ffs) in V.
  rewrite !val_cons in V2. rewrite (add_state_val _ Ffs) in V2.
  pose proof (val_mags [e0; e1; e2]) as VM2. rewrite !val_cons in VM2. rewrite !mags_cons in C, C2, VM2.
  change (val []) with 0 in *. change (mags []) with 0 in *. cbn [length] in C, C2.
  replace (INR 3) with 3 in C by (cbn; ring). replace (INR 2) with 2 in C2 by (cbn; ring).
  set (m3 := Rabs (B2R e0) + (Rabs (B2R e1) + (Rabs (B2R e2) + 0))) in *.
  set (m4 := Rabs (B2R x0) + (Rabs (B2R y0) + (Rabs (B2R x1) + (Rabs (B2R y1) + 0)))) in *.
  assert (H4 : m4 <= M) by (unfold m4; lra).
  assert (P4 : 0 <= m4).
  { unfold m4. pose proof (Rabs_pos (B2R x0)). pose proof (Rabs_pos (B2R x1)). pose proof (Rabs_pos (B2R y0)). pose proof (Rabs_pos (B2R y1)). lra. }
  assert (P3 : 0 <= m3).
  { unfold m3. pose proof (Rabs_pos (B2R e0)). pose proof (Rabs_pos (B2R e1)). pose proof (Rabs_pos (B2R e2)). lra. }
  change (Rabs (B2R e0 + (B2R e1 + (B2R e2 + 0))) <= m3) in VM2.
  rewrite u_val in *.
  assert (C' : m3 <= 3 * / 9007199254740992 * (1 + / 2 ^ 50) * m4).
  { eapply Rle_trans; [exact C|]. apply Rmult_le_compat_r; [exact P4|]. lra. }
  assert (C2' : mags fs <= 2 * / 9007199254740992 * (1 + / 2 ^ 50) * m3).
  { eapply Rle_trans; [exact C2|]. apply Rmult_le_compat_r; [exact P3|]. lra. }
  clear C C2.
  split.
  - replace (B2R r1) with (B2R e0 + (B2R e1 + (B2R e2 + 0)) + - val fs) by lra.
    eapply Rle_trans; [apply Rabs_triang|]. rewrite Rabs_Ropp. lra.
  - replace (B2R r0 + B2R r1 - (B2R x0 + B2R x1 + (B2R y0 + B2R y1))) with (- val fs) by lra.
    rewrite Rabs_Ropp. lra.
Qed.

Lemma B2R_lit m e : fin (dlit m e) -> fmt (F2R (Float radix2 m e)) -> B2R (dlit m e) = F2R (Float radix2 m e).
Proof. intros H G. rewrite (lit_rn m e H). apply rn_id, G. Qed.
Lemma B2R_one : B2R (dofZ 1) = 1.
Proof.
  change (dofZ 1) with (dlit 1 0). assert (E : F2R (Float radix2 1 0) = bpow radix2 0) by (unfold F2R; cbn; lra).
  rewrite B2R_lit; [rewrite E; reflexivity|reflexivity|]. rewrite E. apply generic_format_bpow. unfold FLT_exp, emin, prec. lia.
Qed.
Lemma B2R_two : B2R (dofZ 2) = 2.
Proof.
  change (dofZ 2) with (dlit 2 0). assert (E : F2R (Float radix2 2 0) = bpow radix2 1) by (unfold F2R; cbn; lra).
  rewrite B2R_lit; [rewrite E; reflexivity|reflexivity|]. rewrite E. apply generic_format_bpow. unfold FLT_exp, emin, prec. lia.
Qed.

Lemma scale a i z K L : 0 <= a -> a * i = 1 -> Rabs z <= K * i + L * hm -> a * Rabs z <= K + L * (a * hm).
Proof.
  intros P E H. apply Rle_trans with (a * (K * i + L * hm)); [apply Rmult_le_compat_l; assumption|].
  apply Req_le. transitivity (K * (a * i) + L * (a * hm)); [ring|]. rewrite E. ring.
Qed.

(** What is known of an approximation y of 1/x: the sizes of its components and the residual. *)
Definition approx (x0 x1 y0 y1 : double) (c e : R) : Prop :=
  fin y0 /\ fin y1 /\ Rabs (B2R x0 * B2R y0 - 1) <= / 2 ^ 40 /\ Rabs (B2R x0) * Rabs (B2R y1) <= u * c /\
  Rabs (1 - (B2R x0 + B2R x1) * (B2R y0 + B2R y1)) <= e.

(** Expansions that are normalised and neither tiny nor huge. *)
Definition medium (x0 x1 : double) : Prop :=
  fin x0 /\ fin x1 /\ bpow radix2 (-300) <= Rabs (B2R x0) <= bpow radix2 300 /\ Rabs (B2R x1) <= 2 * u * Rabs (B2R x0).

Lemma medium_inv x0 x1 : medium x0 x1 -> let a := Rabs (B2R x0) in let i := / a in
  0 < a /\ a * i = 1 /\ 0 < i <= bpow radix2 300 /\ a * hm <= / 2 ^ 200.
Proof.
  intros (_ & _ & [L H] & _) a i. fold a in L, H. pose proof (bpow_gt_0 radix2 (-300)) as B.
  assert (P : 0 < a) by lra. split; [exact P|]. split; [unfold i; field; lra|]. split.
  - split; [apply Rinv_0_lt_compat, P|]. unfold i. change 300%Z with (- (-300))%Z. rewrite bpow_opp. apply Rinv_le; assumption.
  - apply Rle_trans with (bpow radix2 300 * hm); [apply Rmult_le_compat_r; [left; apply hm_pos|exact H]|].
    unfold hm. rewrite <- bpow_plus. apply Rle_trans with (bpow radix2 (-200)); [apply bpow_le; lia|]. right. 
    change (-200)%Z with (- (200))%Z. rewrite bpow_opp. f_equal. rewrite <- (IZR_Zpower radix2 200) by lia. rewrite pow_IZR. f_equal.
Qed.

Lemma newton2 x0 x1 y0 y1 c e : medium x0 x1 -> approx x0 x1 y0 y1 c e -> 0 <= c <= 16 -> e <= / 2 ^ 40 ->
  exists z0 z1, inv_step [dofZ 2; dzero] [x0; x1] [y0; y1] = Ok [z0; z1] /\
    approx x0 x1 z0 z1 (c + 101 / 10) (e * e + u * u * (481 / 10 + 161 / 10 * c)).
Proof.
  intros MX (G0 & G1 & K0 & K1 & Ke) Hc He. pose proof (medium_inv x0 x1 MX) as (Pa & Eai & Pi & Ha).
  destruct MX as (F0 & F1 & [Lx Hx] & Hx1).
  set (X0 := B2R x0) in *. set (X1 := B2R x1) in *. set (Y0 := B2R y0) in *. set (Y1 := B2R y1) in *.
  set (a := Rabs X0) in *. set (i := / a) in *. cbv zeta in *.
  pose proof hm_pos as HP. assert (HS : hm <= / 2 ^ 200).
  { unfold hm. apply Rle_trans with (bpow radix2 (-200)); [apply bpow_le; lia|]. right.
    change (-200)%Z with (- (200))%Z. rewrite bpow_opp. f_equal. rewrite <- (IZR_Zpower radix2 200) by lia. rewrite pow_IZR. f_equal. }
  assert (BIG : 1000 * bpow radix2 300 + 1000 <= bpow radix2 900).
  { assert (1 <= bpow radix2 300) by (change 1 with (bpow radix2 0); apply bpow_le; lia).
    change 900%Z with (600 + 300)%Z. rewrite (bpow_plus _ 600 300).
    assert (2048 <= bpow radix2 600) by (change 2048 with (bpow radix2 11); apply bpow_le; lia). nra. }
  assert (B9 : bpow radix2 900 <= bpow radix2 1000) by (apply bpow_le; lia).
  assert (Pu : u = / 9007199254740992) by exact u_val.
  set (k := 1 + / 2 ^ 40).
  assert (S0 : Rabs Y0 <= k * i).
  { assert (a * Rabs Y0 <= k).
    { unfold a. rewrite <- Rabs_mult. replace (X0 * Y0) with (1 + (X0 * Y0 - 1)) by ring.
      eapply Rle_trans; [apply Rabs_triang|]. rewrite (Rabs_pos_eq 1) by lra. unfold k. lra. }
    replace (Rabs Y0) with (a * Rabs Y0 * i) by (transitivity (Rabs Y0 * (a * i)); [ring|rewrite Eai; ring]).
    apply Rmult_le_compat_r; lra. }
  assert (S1 : Rabs Y1 <= u * (c * i)).
  { replace (Rabs Y1) with (a * Rabs Y1 * i) by (transitivity (Rabs Y1 * (a * i)); [ring|rewrite Eai; ring]).
    rewrite <- Rmult_assoc. apply Rmult_le_compat_r; lra. }
  assert (Q1 : a * (k * i) = k) by (transitivity (k * (a * i)); [ring|rewrite Eai; ring]).
  assert (Q2 : 2 * a * (k * i) = 2 * k) by (transitivity (2 * k * (a * i)); [ring|rewrite Eai; ring]).
  assert (Q3 : a * (c * i) = c) by (transitivity (c * (a * i)); [ring|rewrite Eai; ring]).
  assert (Q4 : 2 * a * (c * i) = 2 * c) by (transitivity (2 * c * (a * i)); [ring|rewrite Eai; ring]).
  assert (kB : 1 <= k <= 1 + / 2 ^ 40) by (unfold k; lra).
  assert (B1 : 1 <= bpow radix2 300) by (change 1 with (bpow radix2 0); apply bpow_le; lia).
  destruct (mul2_gen x0 x1 y0 y1 a (2 * a) (k * i) (c * i)) as (p0 & p1 & Ep & Fp0 & Fp1 & Bp0 & Bp1 & Bp); try assumption.
  { apply Rle_refl. } { fold X1. lra. } { rewrite Q1. lra. } { rewrite Q2. lra. } { rewrite Q3. lra. }
  rewrite Q1 in *. rewrite Q2 in *. rewrite Q3 in *. rewrite Q4 in *.
  fold X0 X1 Y0 Y1 in Bp0, Bp. set (XY := (X0 + X1) * (Y0 + Y1)) in *.
  unfold inv_step. rewrite Ep. cbn [bind]. unfold collange_sub. change (exp_neg [p0; p1]) with [dneg p0; dneg p1].
  assert (Sp0 : Rabs (B2R p0) <= k + (u * k + hm)).
  { apply (near (X0 * Y0)); [rewrite Rabs_minus_sym; exact Bp0|].
    replace (X0 * Y0) with (1 + (X0 * Y0 - 1)) by ring. eapply Rle_trans; [apply Rabs_triang|]. rewrite (Rabs_pos_eq 1) by lra. unfold k. lra. }
  destruct (add2_gen (dofZ 2) dzero (dneg p0) (dneg p1) (3 + / 2 ^ 38)) as (t0 & t1 & Et & Ft0 & Ft1 & Bt1 & Bt); try reflexivity; try (apply fin_neg; assumption).
  { rewrite !B2R_neg, !Rabs_Ropp, B2R_two. cbn [dzero B2R]. rewrite Rabs_R0, (Rabs_pos_eq 2) by lra. rewrite Pu in *. lra. }
  { lra. }
  rewrite !B2R_neg, B2R_two in Bt. cbn [dzero B2R] in Bt. rewrite Et. cbn [bind].
  set (P := B2R p0 + B2R p1) in *. set (T := B2R t0 + B2R t1) in *.
  assert (Bt' : Rabs (T - (2 - P)) <= (6 + / 2 ^ 40) * (u * u) * (3 + / 2 ^ 38)).
  { replace (T - (2 - P)) with (T - (2 + 0 + (- B2R p0 + - B2R p1))) by (unfold P; ring). exact Bt. }
  set (kt := 1 + / 2 ^ 39).
  assert (St0 : Rabs (B2R t0) <= kt).
  { replace (B2R t0) with (1 + ((1 - XY) + (- (P - XY) + ((T - (2 - P)) + - B2R t1)))) by (unfold T; ring).
    eapply Rle_trans; [apply Rabs_triang|]. eapply Rle_trans; [apply Rplus_le_compat_l, Rabs_triang|].
    eapply Rle_trans; [apply Rplus_le_compat_l, Rplus_le_compat_l, Rabs_triang|].
    eapply Rle_trans; [apply Rplus_le_compat_l, Rplus_le_compat_l, Rplus_le_compat_l, Rabs_triang|].
    rewrite !Rabs_Ropp, (Rabs_pos_eq 1) by lra. unfold kt. rewrite Pu in *. lra. }
  assert (St1 : Rabs (B2R t1) <= u * (901 / 100)) by (rewrite Pu in *; lra).
  assert (ci : 0 <= c * i <= 16 * bpow radix2 300).
  { split; [apply Rmult_le_pos; lra|]. apply Rmult_le_compat; lra. }
  destruct (mul2_gen y0 y1 t0 t1 (k * i) (c * i) kt (901 / 100)) as (z0 & z1 & Ez & Fz0 & Fz1 & Bz0 & Bz1 & Bz); try assumption.
  { unfold kt, k. lra. } { unfold kt. lra. } { unfold k. lra. }
  fold Y0 Y1 in Bz. fold T in Bz. set (Y := Y0 + Y1) in *.
  assert (Z1 : a * Rabs (B2R z1) <= u * (c + 101 / 10)).
  { apply Rle_trans with ((1 + / 2 ^ 50) * (u * (k * kt + c * kt + k * (901 / 100))) + 8 * (a * hm)).
    - apply (scale a i); [lra|exact Eai|]. eapply Rle_trans; [exact Bz1|]. right. ring.
    - unfold k, kt. rewrite Pu. lra. }
  assert (Z3 : a * Rabs (B2R z0 + B2R z1 - Y * T) <= u * u * (2103 / 100 + 1202 / 100 * c)).
  { apply Rle_trans with ((1 + / 2 ^ 50) * (u * u) * (3 * (k * kt) + 3 * (c * kt) + 2 * (k * (901 / 100)) + c * (901 / 100)) + 8 * (a * hm)).
    - apply (scale a i); [lra|exact Eai|]. eapply Rle_trans; [exact Bz|]. right. ring.
    - unfold k, kt. rewrite Pu. lra. }
  set (Z := B2R z0 + B2R z1) in *.
  assert (RES : Rabs (1 - (X0 + X1) * Z) <= e * e + u * u * (481 / 10 + 161 / 10 * c)).
  { replace (1 - (X0 + X1) * Z) with ((1 - XY) * (1 - XY) + (- (XY * ((T - (2 - P)) + - (P - XY))) + - ((X0 + X1) * (Z - Y * T)))) by (unfold XY; fold Y; ring).
    eapply Rle_trans; [apply Rabs_triang|]. apply Rplus_le_compat; [apply abs_mul_le; exact Ke|].
    eapply Rle_trans; [apply Rabs_triang|]. rewrite !Rabs_Ropp.
    assert (N1 : Rabs (XY * ((T - (2 - P)) + - (P - XY))) <= k * ((6 + / 2 ^ 40) * (u * u) * (3 + / 2 ^ 38) + ((1 + / 2 ^ 50) * (u * u) * (3 * k + 3 * (2 * k) + 2 * c + 2 * c) + 8 * hm))).
    { apply abs_mul_le.
      - replace XY with (1 + - (1 - XY)) by ring. eapply Rle_trans; [apply Rabs_triang|]. rewrite Rabs_Ropp, (Rabs_pos_eq 1) by lra. unfold k. lra.
      - eapply Rle_trans; [apply Rabs_triang|]. rewrite Rabs_Ropp. apply Rplus_le_compat; [exact Bt'|exact Bp]. }
    assert (N2 : Rabs ((X0 + X1) * (Z - Y * T)) <= (1 + 2 * u) * (u * u * (2103 / 100 + 1202 / 100 * c))).
    { rewrite Rabs_mult. apply Rle_trans with ((1 + 2 * u) * (a * Rabs (Z - Y * T))).
      - rewrite <- Rmult_assoc. apply Rmult_le_compat_r; [apply Rabs_pos|]. eapply Rle_trans; [apply Rabs_triang|]. fold a. lra.
      - apply Rmult_le_compat_l; [rewrite Pu; lra|exact Z3]. }
    unfold k in N1. rewrite Pu in *. lra. }
  exists z0, z1. split; [exact Ez|]. split; [exact Fz0|]. split; [exact Fz1|]. split; [|split; [exact Z1|exact RES]].
  (* the leading component *)
  fold X0.
  set (E := e * e + u * u * (481 / 10 + 161 / 10 * c)) in *.
  assert (e2 : E <= / 2 ^ 70).
  { assert (Pe : 0 <= e) by (eapply Rle_trans; [apply Rabs_pos|exact Ke]).
    assert (e * e <= / 2 ^ 40 * / 2 ^ 40) by (apply Rmult_le_compat; lra). unfold E. rewrite Pu. lra. }
  assert (W1 : Rabs (X1 * Z) <= 2 * u * Rabs (X0 * Z)).
  { rewrite !Rabs_mult. rewrite <- Rmult_assoc. apply Rmult_le_compat_r; [apply Rabs_pos|exact Hx1]. }
  assert (W2 : Rabs (X0 * Z - 1) <= E + Rabs (X1 * Z)).
  { replace (X0 * Z - 1) with (- (1 - (X0 + X1) * Z) + - (X1 * Z)) by ring. eapply Rle_trans; [apply Rabs_triang|]. rewrite !Rabs_Ropp. lra. }
  assert (W3 : Rabs (X0 * Z) <= 1 + Rabs (X0 * Z - 1)).
  { replace (X0 * Z) with (1 + (X0 * Z - 1)) at 1 by ring. eapply Rle_trans; [apply Rabs_triang|]. rewrite (Rabs_pos_eq 1) by lra. lra. }
  replace (X0 * B2R z0 - 1) with ((X0 * Z - 1) + - (X0 * B2R z1)) by (unfold Z; ring).
  eapply Rle_trans; [apply Rabs_triang|]. rewrite Rabs_Ropp, (Rabs_mult X0 (B2R z1)). fold a.
  rewrite Pu in *. lra.
Qed.

Lemma approx_le x0 x1 y0 y1 c e c' e' : approx x0 x1 y0 y1 c e -> c <= c' -> e <= e' -> approx x0 x1 y0 y1 c' e'.
Proof.
  intros (F0 & F1 & H0 & H1 & H2) Hc He. split; [exact F0|]. split; [exact F1|]. split; [exact H0|]. split; [|lra].
  eapply Rle_trans; [exact H1|]. apply Rmult_le_compat_l; [pose proof u_pos; lra|exact Hc].
Qed.

(** The first approximation, 1/x0. *)
Lemma base2 x0 x1 : medium x0 x1 -> approx x0 x1 (ddiv (dofZ 1) x0) dzero 0 (301 / 100 * u).
Proof.
  intro MX. pose proof (medium_inv x0 x1 MX) as (Pa & Eai & Pi & Ha). destruct MX as (F0 & F1 & [Lx Hx] & Hx1).
  set (X0 := B2R x0) in *. set (X1 := B2R x1) in *. set (a := Rabs X0) in *. set (i := / a) in *. cbv zeta in *.
  assert (N0 : X0 <> 0) by (intro E; unfold a in Pa; rewrite E, Rabs_R0 in Pa; lra).
  assert (Ai : Rabs (1 / X0) = i). { unfold Rdiv. rewrite Rmult_1_l. unfold i, a. rewrite Rabs_inv. reflexivity. }
  destruct (small_fin_div (dofZ 1) x0) as [Fd Ed]; [reflexivity|exact N0| |].
  { rewrite B2R_one. fold X0. rewrite Ai. apply Rle_trans with (bpow radix2 300); [lra|]. apply bpow_le. lia. }
  rewrite B2R_one in Ed. fold X0 in Ed. pose proof (rn_err (1 / X0)) as E. rewrite <- Ed, Ai in E.
  set (y := ddiv (dofZ 1) x0) in *. pose proof u_val as Pu. pose proof hm_pos as HP.
  assert (K : a * Rabs (1 / X0 - B2R y) <= u + 1 * (a * hm)) by (apply (scale a i); [lra|exact Eai|lra]).
  assert (K' : Rabs (X0 * B2R y - 1) <= u + a * hm).
  { rewrite Rabs_minus_sym. replace (1 - X0 * B2R y) with (X0 * (1 / X0 - B2R y)) by (field; exact N0). rewrite Rabs_mult. fold a. lra. }
  split; [exact Fd|]. split; [reflexivity|]. fold X0 X1. split; [rewrite Pu in *; lra|].
  cbn [dzero B2R]. rewrite Rabs_R0. split; [lra|].
  assert (S : Rabs (X0 * B2R y) <= 1 + (u + a * hm)).
  { replace (X0 * B2R y) with (1 + (X0 * B2R y - 1)) by ring. eapply Rle_trans; [apply Rabs_triang|]. rewrite (Rabs_pos_eq 1) by lra. lra. }
  assert (W1 : Rabs (X1 * B2R y) <= 2 * u * Rabs (X0 * B2R y)).
  { rewrite !Rabs_mult. rewrite <- Rmult_assoc. apply Rmult_le_compat_r; [apply Rabs_pos|exact Hx1]. }
  replace (1 - (X0 + X1) * (B2R y + 0)) with (- (X0 * B2R y - 1) + - (X1 * B2R y)) by ring.
  eapply Rle_trans; [apply Rabs_triang|]. rewrite !Rabs_Ropp. rewrite Pu in *. lra.
Qed.

Lemma inv2 x0 x1 : medium x0 x1 ->
  exists y0 y1, exp_inv [x0; x1] = Ok [y0; y1] /\ approx x0 x1 y0 y1 (202 / 10) (211 * (u * u)).
Proof.
  intro MX. unfold exp_inv. cbn [length]. change (of_double 2 (ddiv (dofZ 1) x0)) with [ddiv (dofZ 1) x0; dzero].
  change (of_double 2 (dofZ 2)) with [dofZ 2; dzero]. cbn [inv_loop]. pose proof u_val as Pu.
  destruct (newton2 x0 x1 _ _ _ _ MX (base2 x0 x1 MX)) as (z0 & z1 & E1 & A1); [lra|rewrite Pu; lra|].
  rewrite E1. cbn [bind].
  destruct (newton2 x0 x1 _ _ _ _ MX (approx_le _ _ _ _ _ _ (101 / 10) (58 * (u * u)) A1 ltac:(lra) ltac:(rewrite Pu; lra))) as (w0 & w1 & E2 & A2); [lra|rewrite Pu; lra|].
  rewrite E2. cbn [bind]. exists w0, w1. split; [reflexivity|].
  refine (approx_le _ _ _ _ _ _ _ _ A2 _ _); [lra|rewrite Pu; lra].
Qed.

Lemma div2 a0 a1 b0 b1 S : medium b0 b1 -> fin a0 -> fin a1 -> Rabs (B2R a0) <= S -> Rabs (B2R a1) <= 2 * u * S ->
  S <= bpow radix2 300 -> 2 ^ 200 * ((1 + Rabs (B2R b0)) * hm) <= S ->
  exists y0 y1, exp_div [a0; a1] [b0; b1] = Ok [y0; y1] /\ fin y0 /\ fin y1 /\
    Rabs (B2R y0 + B2R y1 - (B2R a0 + B2R a1) / (B2R b0 + B2R b1)) <= 261 * (u * u) * (S / Rabs (B2R b0)).
Proof.
  intros MX F0 F1 H0 H1 HS HJ. destruct (inv2 b0 b1 MX) as (i0 & i1 & Ei & G0 & G1 & K0 & K1 & Ke).
  pose proof (medium_inv b0 b1 MX) as (Pa & Eai & Pi & Ha). destruct MX as (Fb0 & Fb1 & [Lx Hx] & Hx1).
  set (X0 := B2R b0) in *. set (X1 := B2R b1) in *. set (I0 := B2R i0) in *. set (I1 := B2R i1) in *.
  set (A0 := B2R a0) in *. set (A1 := B2R a1) in *.
  set (a := Rabs X0) in *. unfold Rdiv at 2. set (i := / a) in *. cbv zeta in *. set (Rr := S * i) in *.
  pose proof hm_pos as HP. pose proof u_val as Pu.
  assert (PS : 0 <= S) by (eapply Rle_trans; [apply Rabs_pos|exact H0]).
  assert (PR : 0 <= Rr) by (apply Rmult_le_pos; lra).
  assert (aR : a * Rr = S) by (unfold Rr; transitivity (S * (a * i)); [ring|rewrite Eai; ring]).
  assert (J1 : hm <= / 2 ^ 200 * S /\ a * hm <= / 2 ^ 200 * S).
  { assert (0 <= a * hm) by (apply Rmult_le_pos; lra). assert (2 ^ 200 * hm + 2 ^ 200 * (a * hm) <= S) by lra. lra. }
  destruct J1 as [J1 J2].
  assert (J3 : hm <= / 2 ^ 200 * Rr).
  { unfold Rr. replace hm with (a * hm * i) by (transitivity (hm * (a * i)); [ring|rewrite Eai; ring]). rewrite <- Rmult_assoc. apply Rmult_le_compat_r; lra. }
  assert (J4 : hm * i <= / 2 ^ 200 * Rr) by (unfold Rr; rewrite <- Rmult_assoc; apply Rmult_le_compat_r; lra).
  assert (B1 : 1 <= bpow radix2 300) by (change 1 with (bpow radix2 0); apply bpow_le; lia).
  assert (RB : Rr <= bpow radix2 600).
  { unfold Rr. change 600%Z with (300 + 300)%Z. rewrite bpow_plus. apply Rmult_le_compat; lra. }
  assert (BIG : 1000 * bpow radix2 600 + 1000 * bpow radix2 300 + 1000 <= bpow radix2 900).
  { change 900%Z with (300 + 600)%Z. rewrite (bpow_plus _ 300 600).
    assert (bpow radix2 300 <= bpow radix2 600) by (apply bpow_le; lia).
    assert (4096 <= bpow radix2 300) by (change 4096 with (bpow radix2 12); apply bpow_le; lia). nra. }
  assert (B9 : bpow radix2 900 <= bpow radix2 1000) by (apply bpow_le; lia).
  set (M3 := bpow radix2 300) in *. set (M6 := bpow radix2 600) in *. set (M9 := bpow radix2 900) in *. set (M10 := bpow radix2 1000) in *.
  set (k := 1 + / 2 ^ 40).
  assert (S0 : Rabs I0 <= k * i).
  { assert (a * Rabs I0 <= k).
    { unfold a. rewrite <- Rabs_mult. replace (X0 * I0) with (1 + (X0 * I0 - 1)) by ring.
      eapply Rle_trans; [apply Rabs_triang|]. rewrite (Rabs_pos_eq 1) by lra. unfold k. lra. }
    replace (Rabs I0) with (a * Rabs I0 * i) by (transitivity (Rabs I0 * (a * i)); [ring|rewrite Eai; ring]).
    apply Rmult_le_compat_r; lra. }
  assert (S1 : Rabs I1 <= u * (202 / 10 * i)).
  { replace (Rabs I1) with (a * Rabs I1 * i) by (transitivity (Rabs I1 * (a * i)); [ring|rewrite Eai; ring]).
    rewrite <- Rmult_assoc. apply Rmult_le_compat_r; lra. }
  unfold exp_div. rewrite Ei. cbn [bind].
  (* q = a * inv_b *)
  assert (Q1 : S * (k * i) = k * Rr) by (unfold Rr; ring). assert (Q2 : 2 * S * (k * i) = 2 * k * Rr) by (unfold Rr; ring).
  assert (Q3 : S * (202 / 10 * i) = 202 / 10 * Rr) by (unfold Rr; field). assert (Q4 : 2 * S * (202 / 10 * i) = 404 / 10 * Rr) by (unfold Rr; field).
  destruct (mul2_gen a0 a1 i0 i1 S (2 * S) (k * i) (202 / 10 * i)) as (q0 & q1 & Eq & Fq0 & Fq1 & Bq0 & Bq1 & Bq); try assumption.
  { fold A1. lra. } { rewrite Q1. unfold k. fold M9. lra. } { rewrite Q2. unfold k. fold M9. lra. } { rewrite Q3. fold M9. lra. }
  rewrite Q1 in Bq0, Bq1, Bq. rewrite Q2 in Bq1, Bq. rewrite Q3 in Bq1, Bq. rewrite Q4 in Bq. fold A0 A1 I0 I1 in Bq0, Bq.
  rewrite Eq. cbn [bind]. set (A := A0 + A1) in *. set (Ii := I0 + I1) in *. set (Q := B2R q0 + B2R q1) in *.
  assert (Sq0 : Rabs (B2R q0) <= (1 + / 2 ^ 39) * Rr).
  { apply Rle_trans with (k * Rr + (u * (k * Rr) + hm)).
    - apply (near (A0 * I0)); [rewrite Rabs_minus_sym; exact Bq0|]. rewrite <- Q1. apply abs_mul_le; assumption.
    - unfold k. rewrite Pu. lra. }
  assert (Sq1 : Rabs (B2R q1) <= u * (233 / 10 * Rr)) by (unfold k in Bq1; rewrite Pu in *; lra).
  assert (SQ : Rabs (Q - A * Ii) <= 899 / 10 * (u * u) * Rr) by (unfold k in Bq; rewrite Pu in *; lra).
  clear Bq0 Bq1 Bq.
  (* p = b * q *)
  assert (R1 : a * ((1 + / 2 ^ 39) * Rr) = (1 + / 2 ^ 39) * S) by (rewrite <- aR; ring).
  assert (R2 : 2 * a * ((1 + / 2 ^ 39) * Rr) = 2 * (1 + / 2 ^ 39) * S) by (rewrite <- aR; ring).
  assert (R3 : a * (233 / 10 * Rr) = 233 / 10 * S) by (rewrite <- aR; ring).
  assert (R4 : 2 * a * (233 / 10 * Rr) = 466 / 10 * S) by (rewrite <- aR; field).
  destruct (mul2_gen b0 b1 q0 q1 a (2 * a) ((1 + / 2 ^ 39) * Rr) (233 / 10 * Rr)) as (p0 & p1 & Ep & Fp0 & Fp1 & Bp0 & Bp1 & Bp); try assumption.
  { apply Rle_refl. } { fold X1. lra. } { rewrite R1. fold M9. lra. } { rewrite R2. fold M9. lra. } { rewrite R3. fold M9. lra. }
  rewrite R1 in Bp0, Bp1, Bp. rewrite R2 in Bp1, Bp. rewrite R3 in Bp1, Bp. rewrite R4 in Bp. fold X0 X1 in Bp0, Bp. fold Q in Bp.
  rewrite Ep. cbn [bind]. set (X := X0 + X1) in *. set (P := B2R p0 + B2R p1) in *.
  assert (Sp0 : Rabs (B2R p0) <= (1 + / 2 ^ 38) * S).
  { apply Rle_trans with ((1 + / 2 ^ 39) * S + (u * ((1 + / 2 ^ 39) * S) + hm)).
    - apply (near (X0 * B2R q0)); [rewrite Rabs_minus_sym; exact Bp0|]. rewrite <- R1. apply abs_mul_le; [apply Rle_refl|assumption].
    - rewrite Pu. lra. }
  assert (Sp1 : Rabs (B2R p1) <= u * (264 / 10 * S)) by (rewrite Pu in *; lra).
  assert (SP : Rabs (P - X * Q) <= 1023 / 10 * (u * u) * S) by (rewrite Pu in *; lra).
  clear Bp0 Bp1 Bp.
  (* d = p - a *)
  unfold collange_sub at 1. change (exp_neg [a0; a1]) with [dneg a0; dneg a1].
  destruct (add2_gen p0 p1 (dneg a0) (dneg a1) ((2 + / 2 ^ 37) * S)) as (d0 & d1 & Ed & Fd0 & Fd1 & Bd1 & Bd); try assumption; try (apply fin_neg; assumption).
  { rewrite !B2R_neg, !Rabs_Ropp. fold A0 A1. rewrite Pu in *. lra. }
  { fold M10. lra. }
  rewrite !B2R_neg in Bd. fold A0 A1 in Bd. rewrite Ed. cbn [bind]. set (D := B2R d0 + B2R d1) in *.
  assert (SD : Rabs (D - (P - A)) <= 1201 / 100 * (u * u) * S).
  { replace (D - (P - A)) with (D - (B2R p0 + B2R p1 + (- A0 + - A1))) by (unfold P, A; ring). rewrite Pu in *. lra. }
  assert (Sd1 : Rabs (B2R d1) <= u * (601 / 100 * S)) by (rewrite Pu in *; lra).
  assert (SA : Rabs A <= (1 + 2 * u) * S) by (unfold A; eapply Rle_trans; [apply Rabs_triang|]; lra).
  assert (SX : Rabs X <= (1 + 2 * u) * a) by (unfold X; eapply Rle_trans; [apply Rabs_triang|]; fold a; lra).
  assert (SXQ : Rabs (X * Q - A) <= 302 * (u * u) * S).
  { replace (X * Q - A) with (X * (Q - A * Ii) + - (A * (1 - X * Ii))) by ring. eapply Rle_trans; [apply Rabs_triang|]. rewrite Rabs_Ropp.
    pose proof (abs_mul_le _ _ _ _ SX SQ) as T1. pose proof (abs_mul_le _ _ _ _ SA Ke) as T2.
    replace ((1 + 2 * u) * a * (899 / 10 * (u * u) * Rr)) with ((1 + 2 * u) * (899 / 10 * (u * u)) * (a * Rr)) in T1 by ring. rewrite aR in T1.
    rewrite Pu in *. lra. }
  assert (SDD : Rabs D <= 417 * (u * u) * S).
  { replace D with ((D - (P - A)) + ((P - X * Q) + (X * Q - A))) by ring. eapply Rle_trans; [apply Rabs_triang|]. eapply Rle_trans; [apply Rplus_le_compat_l, Rabs_triang|]. rewrite Pu in *. lra. }
  assert (Sd0 : Rabs (B2R d0) <= 602 / 100 * u * S).
  { replace (B2R d0) with (D + - B2R d1) by (unfold D; ring). eapply Rle_trans; [apply Rabs_triang|]. rewrite Rabs_Ropp. rewrite Pu in *. lra. }
  clear Bd1 Bd.
  (* c = d * inv_b *)
  assert (C1 : 602 / 100 * u * S * (k * i) = 602 / 100 * u * k * Rr) by (unfold Rr; ring).
  assert (C2 : 601 / 100 * S * (k * i) = 601 / 100 * k * Rr) by (unfold Rr; ring).
  assert (C3 : 602 / 100 * u * S * (202 / 10 * i) = 602 / 100 * u * (202 / 10) * Rr) by (unfold Rr; ring).
  assert (C4 : 601 / 100 * S * (202 / 10 * i) = 601 / 100 * (202 / 10) * Rr) by (unfold Rr; ring).
  destruct (mul2_gen d0 d1 i0 i1 (602 / 100 * u * S) (601 / 100 * S) (k * i) (202 / 10 * i)) as (c0 & c1 & Ec & Fc0 & Fc1 & Bc0 & Bc1 & Bc); try assumption.
  { rewrite C1. unfold k. rewrite Pu. fold M9. lra. } { rewrite C2. unfold k. fold M9. lra. } { rewrite C3. rewrite Pu. fold M9. lra. }
  rewrite C1 in Bc0, Bc1, Bc. rewrite C2 in Bc1, Bc. rewrite C3 in Bc1, Bc. rewrite C4 in Bc. fold I0 I1 in Bc0, Bc. fold D Ii in Bc.
  rewrite Ec. cbn [bind]. set (Cc := B2R c0 + B2R c1) in *.
  assert (Sc0 : Rabs (B2R c0) <= u * (7 * Rr)).
  { apply Rle_trans with (602 / 100 * u * k * Rr + (u * (602 / 100 * u * k * Rr) + hm)).
    - apply (near (B2R d0 * I0)); [rewrite Rabs_minus_sym; exact Bc0|]. rewrite <- C1. apply abs_mul_le; assumption.
    - unfold k. rewrite Pu. lra. }
  assert (Sc1 : Rabs (B2R c1) <= u * (7 * Rr)) by (unfold k in Bc1; rewrite Pu in *; lra).
  assert (SC : Rabs (Cc - D * Ii) <= 1396 / 10 * (u * u) * Rr) by (unfold k in Bc; rewrite Pu in *; lra).
  clear Bc0 Bc1 Bc.
  (* y = q - c *)
  unfold collange_sub. change (exp_neg [c0; c1]) with [dneg c0; dneg c1].
  destruct (add2_gen q0 q1 (dneg c0) (dneg c1) ((1 + / 2 ^ 37) * Rr)) as (y0 & y1 & Ey & Fy0 & Fy1 & _ & By); try assumption; try (apply fin_neg; assumption).
  { rewrite !B2R_neg, !Rabs_Ropp. rewrite Pu in *. lra. }
  { fold M10. lra. }
  rewrite !B2R_neg in By. exists y0, y1. split; [exact Ey|]. split; [exact Fy0|]. split; [exact Fy1|].
  set (Y := B2R y0 + B2R y1) in *.
  assert (SY : Rabs (Y - (Q - Cc)) <= 601 / 100 * (u * u) * Rr).
  { replace (Y - (Q - Cc)) with (Y - (B2R q0 + B2R q1 + (- B2R c0 + - B2R c1))) by (unfold Q, Cc; ring). rewrite Pu in *. lra. }
  clear By.
  (* the exact quotient *)
  assert (LX : (1 - 2 * u) * a <= Rabs X).
  { unfold X. replace a with (Rabs ((X0 + X1) + - X1)) at 1 by (unfold a; f_equal; ring).
    pose proof (Rabs_triang (X0 + X1) (- X1)) as T. rewrite Rabs_Ropp in T.
    assert (E : (1 - 2 * u) * Rabs (X0 + X1 + - X1) <= Rabs (X0 + X1 + - X1) - Rabs X1).
    { replace (X0 + X1 + - X1) with X0 by ring. fold a. lra. }
    lra. }
  assert (PX : 0 < Rabs X). { assert (0 < (1 - 2 * u) * a) by (apply Rmult_lt_0_compat; [rewrite Pu; lra|exact Pa]). lra. }
  assert (NX : X <> 0) by (intro E; rewrite E, Rabs_R0 in PX; lra).
  set (V := A / X). assert (VX : V * X = A) by (unfold V; field; exact NX).
  assert (SV : Rabs V <= (1 + 10 * u) * Rr).
  { apply Rmult_le_reg_r with (Rabs X); [exact PX|]. rewrite <- Rabs_mult, VX. eapply Rle_trans; [exact SA|].
    apply Rle_trans with ((1 + 10 * u) * Rr * ((1 - 2 * u) * a)).
    - replace ((1 + 10 * u) * Rr * ((1 - 2 * u) * a)) with ((1 + 10 * u) * (1 - 2 * u) * (a * Rr)) by ring. rewrite aR.
      apply Rmult_le_compat_r; [exact PS|]. rewrite Pu. lra.
    - apply Rmult_le_compat_l; [|exact LX]. apply Rmult_le_pos; [rewrite Pu; lra|exact PR]. }
  assert (SQV : Rabs (Q - V) <= 310 * (u * u) * Rr).
  { replace (Q - V) with ((Q - A * Ii) + - (V * (1 - X * Ii))) by (rewrite <- VX; ring). eapply Rle_trans; [apply Rabs_triang|]. rewrite Rabs_Ropp.
    pose proof (abs_mul_le _ _ _ _ SV Ke) as T. rewrite Pu in *. lra. }
  assert (SI : Rabs Ii <= (1 + / 2 ^ 38) * i).
  { unfold Ii. eapply Rle_trans; [apply Rabs_triang|]. unfold k in S0. rewrite Pu in *. lra. }
  assert (SE : Rabs (D - (X * Q - A)) <= 1144 / 10 * (u * u) * S).
  { replace (D - (X * Q - A)) with ((D - (P - A)) + (P - X * Q)) by ring. eapply Rle_trans; [apply Rabs_triang|]. rewrite Pu in *. lra. }
  replace (Y - V) with ((Y - (Q - Cc)) + (- (Cc - D * Ii) + (- ((D - (X * Q - A)) * Ii) + (Q - V) * (1 - X * Ii)))) by (rewrite <- VX; ring).
  eapply Rle_trans; [apply Rabs_triang|]. eapply Rle_trans; [apply Rplus_le_compat_l, Rabs_triang|].
  eapply Rle_trans; [apply Rplus_le_compat_l, Rplus_le_compat_l, Rabs_triang|]. rewrite !Rabs_Ropp.
  pose proof (abs_mul_le _ _ _ _ SE SI) as T1. pose proof (abs_mul_le _ _ _ _ SQV Ke) as T2.
  replace (1144 / 10 * (u * u) * S * ((1 + / 2 ^ 38) * i)) with (1144 / 10 * (u * u) * (1 + / 2 ^ 38) * Rr) in T1 by (unfold Rr; ring).
  rewrite Pu in *. lra.
Qed.
