(** Facts about doubles used for expansions: each operation rounds the exact result once, and a
    finite result means that the operands were finite and nothing overflowed. *)
From Coq Require Import ZArith List Bool Reals Lia Lra.
From Flocq Require Import Core Operations Plus_error Mult_error Relative BinarySingleNaN Pff2Flocq.
From Verif Require Import Base ExpansionModel.
Import ListNotations.
Open Scope R_scope.

Definition fin (a : double) : Prop := is_finite a = true.
Definition emin : Z := (-1074)%Z.
Notation fmt := (generic_format radix2 (FLT_exp emin prec)).
Notation rn := (round radix2 (FLT_exp emin prec) ZnearestE).
(** unit roundoff *)
Definition u : R := bpow radix2 (-53).

Lemma fexp_FLT : SpecFloat.fexp prec emax = FLT_exp emin prec.
Proof. reflexivity. Qed.

Lemma fmt_B2R a : fmt (B2R (a : double)).
Proof. rewrite <- fexp_FLT. apply generic_format_B2R. Qed.

Lemma overflow_inf (a : double) (s : bool) :
  B2SF a = binary_overflow prec emax mode_NE s -> is_finite a = false.
Proof. intro H. rewrite <- is_finite_SF_B2SF, H. reflexivity. Qed.

Lemma fin_add a b : fin (dadd a b) -> fin a /\ fin b.
Proof.
  unfold fin, dadd. destruct a as [s|s| |s m e H], b as [s'|s'| |s' m' e' H']; cbn;
    try discriminate; auto. destruct (Bool.eqb s s'); discriminate.
Qed.
Lemma fin_sub a b : fin (dsub a b) -> fin a /\ fin b.
Proof.
  unfold fin, dsub. destruct a as [s|s| |s m e H], b as [s'|s'| |s' m' e' H']; cbn;
    try discriminate; auto. destruct (Bool.eqb s (negb s')); discriminate.
Qed.
Lemma fin_mul a b : fin (dmul a b) -> fin a /\ fin b.
Proof.
  unfold fin, dmul. destruct a as [s|s| |s m e H], b as [s'|s'| |s' m' e' H']; cbn;
    try discriminate; auto.
Qed.
Lemma fin_fma a b c : fin (dfma a b c) -> fin a /\ fin b /\ fin c.
Proof.
  unfold fin, dfma. destruct a as [s|s| |s m e H], b as [s'|s'| |s' m' e' H'], c as [t|t| |t p f K];
    cbn; try discriminate; auto;
    match goal with |- is_finite (if ?x then _ else _) = _ -> _ => destruct x; discriminate | _ => idtac end.
Qed.
Lemma fin_neg a : fin (dneg a) <-> fin a.
Proof. unfold fin, dneg. rewrite is_finite_Bopp. tauto. Qed.
Lemma B2R_neg a : B2R (dneg a) = - B2R a.
Proof. apply B2R_Bopp. Qed.

Lemma add_rn a b : fin (dadd a b) -> B2R (dadd a b) = rn (B2R a + B2R b).
Proof.
  intro H. destruct (fin_add _ _ H) as [Ha Hb].
  pose proof (Bplus_correct prec emax _ _ mode_NE a b Ha Hb) as C.
  rewrite fexp_FLT in C. cbn [round_mode] in C.
  destruct Rlt_bool; [apply C|]. destruct C as [C _]. apply overflow_inf in C.
  unfold fin, dadd in H. rewrite H in C. discriminate.
Qed.
Lemma sub_rn a b : fin (dsub a b) -> B2R (dsub a b) = rn (B2R a - B2R b).
Proof.
  intro H. destruct (fin_sub _ _ H) as [Ha Hb].
  pose proof (Bminus_correct prec emax _ _ mode_NE a b Ha Hb) as C.
  rewrite fexp_FLT in C. cbn [round_mode] in C.
  destruct Rlt_bool; [apply C|]. destruct C as [C _]. apply overflow_inf in C.
  unfold fin, dsub in H. rewrite H in C. discriminate.
Qed.
Lemma mul_rn a b : fin (dmul a b) -> B2R (dmul a b) = rn (B2R a * B2R b).
Proof.
  intro H. destruct (fin_mul _ _ H) as [Ha Hb].
  pose proof (Bmult_correct prec emax _ _ mode_NE a b) as C.
  rewrite fexp_FLT in C. cbn [round_mode] in C.
  destruct Rlt_bool; [apply C|]. apply overflow_inf in C.
  unfold fin, dmul in H. rewrite H in C. discriminate.
Qed.
Lemma fma_rn a b c : fin (dfma a b c) -> B2R (dfma a b c) = rn (B2R a * B2R b + B2R c).
Proof.
  intro H. destruct (fin_fma _ _ _ H) as (Ha & Hb & Hc).
  pose proof (Bfma_correct prec emax _ _ mode_NE a b c Ha Hb Hc) as C.
  cbv zeta in C. rewrite fexp_FLT in C. cbn [round_mode] in C.
  destruct Rlt_bool; [apply C|]. apply overflow_inf in C.
  unfold fin, dfma in H. rewrite H in C. discriminate.
Qed.

Lemma lit_rn m e : fin (dlit m e) -> B2R (dlit m e) = rn (F2R (Float radix2 m e)).
Proof.
  intro H. pose proof (binary_normalize_correct prec emax _ _ mode_NE m e false) as C.
  cbv zeta in C. rewrite fexp_FLT in C. cbn [round_mode] in C.
  destruct Rlt_bool; [apply C|]. apply overflow_inf in C.
  unfold fin, dlit in H. rewrite H in C. discriminate.
Qed.

#[global] Instance valid_FLT : Valid_exp (FLT_exp emin prec).
Proof. apply FLT_exp_valid. reflexivity. Qed.

Lemma rn_id x : fmt x -> rn x = x.
Proof. apply round_generic. typeclasses eauto. Qed.
Lemma rn_0 : rn 0 = 0.
Proof. apply round_0. typeclasses eauto. Qed.
Lemma rn_opp x : rn (- x) = - rn x.
Proof. apply round_NE_opp. Qed.
Lemma fmt_rn x : fmt (rn x).
Proof. apply generic_format_round; typeclasses eauto. Qed.

(** Knuth's two_sum in exact arithmetic on representable numbers. *)
Lemma two_sum_R a b : fmt a -> fmt b ->
  let x := rn (a + b) in
  let v := rn (x - a) in
  x + rn (rn (a - rn (x - v)) + rn (b - v)) = a + b.
Proof.
  intros Ha Hb x v. subst x v.
  apply (TwoSum_correct emin prec (fun t => negb (Z.even t))); try reflexivity; try assumption.
  - discriminate.
  - intro t. rewrite Z.even_opp, Z.add_1_r, Z.even_succ, <- Z.negb_even, !negb_involutive. reflexivity.
Qed.

(** The error of one addition. *)
Lemma add_err a b : fmt a -> fmt b ->
  Rabs (a + b - rn (a + b)) <= u * Rabs (a + b).
Proof.
  intros Ha Hb.
  destruct (FLT_plus_error_N_ex radix2 emin prec (fun t => negb (Z.even t)) a b Ha Hb)
    as (eps & He & E).
  rewrite E. replace (a + b - (a + b) * (1 + eps)) with (- (eps * (a + b))) by ring.
  rewrite Rabs_Ropp, Rabs_mult. apply Rmult_le_compat_r; [apply Rabs_pos|].
  eapply Rle_trans; [exact He|].
  assert (U : u_ro radix2 prec = u).
  { unfold u_ro, u, prec. change (- (53) + 1)%Z with (-53 + 1)%Z.
    rewrite bpow_plus. change (bpow radix2 1) with 2. field. }
  rewrite U. assert (0 < u) by apply bpow_gt_0.
  apply Rmult_le_reg_r with (1 + u); [lra|].
  unfold Rdiv. rewrite Rmult_assoc, Rinv_l by lra. nra.
Qed.

(** The error of one multiplication that does not underflow. *)
Lemma mul_err z : (z = 0 \/ bpow radix2 (-1022) <= Rabs z) ->
  Rabs (z - rn z) <= u * Rabs z.
Proof.
  intros [->|H].
  - rewrite rn_0, Rminus_0_r, Rabs_R0. lra.
  - rewrite Rabs_minus_sym.
    eapply Rle_trans; [apply relative_error_N_FLT; [reflexivity|exact H]|].
    apply Rmult_le_compat_r; [apply Rabs_pos|]. unfold u, prec.
    change (- (53) + 1)%Z with (-53 + 1)%Z. rewrite bpow_plus.
    change (bpow radix2 1) with 2. apply Req_le. field.
Qed.

(** A product of doubles whose rounding error is a double: zero, or at least [2^-969]. *)
Definition no_underflow (a b : double) : Prop :=
  B2R a * B2R b = 0 \/ bpow radix2 (-969) <= Rabs (B2R a * B2R b).

Lemma no_underflow_rel a b : no_underflow a b ->
  Rabs (B2R a * B2R b - rn (B2R a * B2R b)) <= u * Rabs (B2R a * B2R b).
Proof.
  intros [H|H]; apply mul_err; [left; exact H|right].
  eapply Rle_trans; [|exact H]. apply bpow_le. lia.
Qed.

(** C45: two_sum. *)
Lemma two_sum_fin a b : fin (snd (two_sum a b)) -> fin a /\ fin b /\ fin (fst (two_sum a b)).
Proof.
  cbn [two_sum fst snd]. intro H.
  destruct (fin_add _ _ H) as [H1 H2]. destruct (fin_sub _ _ H1) as [H3 H4].
  destruct (fin_sub _ _ H2) as [H5 H6]. destruct (fin_sub _ _ H4) as [H7 H8]. auto.
Qed.
Lemma two_sum_exact a b : fin (snd (two_sum a b)) ->
  B2R (fst (two_sum a b)) = rn (B2R a + B2R b) /\
  B2R (fst (two_sum a b)) + B2R (snd (two_sum a b)) = B2R a + B2R b.
Proof.
  intro H. pose proof H as H0. cbn [two_sum fst snd] in *.
  destruct (fin_add _ _ H) as [H1 H2]. destruct (fin_sub _ _ H1) as [H3 H4].
  destruct (fin_sub _ _ H2) as [H5 H6]. destruct (fin_sub _ _ H4) as [H7 H8].
  split; [apply add_rn; exact H7|].
  rewrite (add_rn _ _ H), (sub_rn _ _ H1), (sub_rn _ _ H2), (sub_rn _ _ H4), (sub_rn _ _ H6),
    (add_rn _ _ H7).
  apply two_sum_R; apply fmt_B2R.
Qed.

(** C45: two_prod. *)
Lemma two_prod_fin a b : fin (snd (two_prod a b)) -> fin a /\ fin b /\ fin (fst (two_prod a b)).
Proof.
  cbn [two_prod fst snd]. intro H. destruct (fin_fma _ _ _ H) as (H1 & H2 & H3).
  rewrite fin_neg in H3. auto.
Qed.
Lemma two_prod_exact a b : fin (snd (two_prod a b)) -> no_underflow a b ->
  B2R (fst (two_prod a b)) = rn (B2R a * B2R b) /\
  B2R (fst (two_prod a b)) + B2R (snd (two_prod a b)) = B2R a * B2R b.
Proof.
  intros H U. pose proof (two_prod_fin a b H) as (Ha & Hb & Hx).
  cbn [two_prod fst snd] in *.
  split; [apply mul_rn; exact Hx|].
  rewrite (fma_rn _ _ _ H), B2R_neg, (mul_rn _ _ Hx).
  set (z := B2R a * B2R b) in *.
  assert (G : fmt (rn z - z)).
  { apply mult_error_FLT; try apply fmt_B2R; try typeclasses eauto.
    intro N. destruct U as [U|U]; [contradiction|exact U]. }
  replace (z + - rn z) with (- (rn z - z)) by ring.
  rewrite rn_opp, (rn_id _ G). ring.
Qed.
Lemma two_prod_err a b : fin (fst (two_prod a b)) -> no_underflow a b ->
  Rabs (B2R a * B2R b - B2R (fst (two_prod a b))) <= u * Rabs (B2R a * B2R b).
Proof.
  intros H U. cbn [two_prod fst] in *. rewrite (mul_rn _ _ H). apply no_underflow_rel, U.
Qed.
Lemma dadd_err a b : fin (dadd a b) ->
  Rabs (B2R a + B2R b - B2R (dadd a b)) <= u * Rabs (B2R a + B2R b).
Proof. intro H. rewrite (add_rn _ _ H). apply add_err; apply fmt_B2R. Qed.
