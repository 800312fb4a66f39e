(** Properties C45-C50: expansion arithmetic.

    Real numbers enter through Flocq, so the standard library's axioms for the reals (and
    excluded middle) appear below. *)
From Coq Require Import ZArith List Bool Reals Lia Lra Arith Ascii.
From Flocq Require Import Core Operations BinarySingleNaN.
From Verif Require Import Base ExpansionModel ExpansionFloat ExpansionProofs ExpansionMul ExpansionBasic ExpansionRange.
Import ListNotations.
Open Scope R_scope.

(** Powers of two as doubles, for the examples. *)
Definition p2 (e : Z) : double := dlit 1 e.
Lemma p2_R e : fin (p2 e) -> (-1074 <= e)%Z -> B2R (p2 e) = bpow radix2 e.
Proof.
  intros F H. unfold p2. rewrite (lit_rn 1 e F).
  replace (F2R (Float radix2 1 e)) with (bpow radix2 e) by (unfold F2R; cbn [Fnum Fexp]; ring).
  apply rn_id, generic_format_bpow. unfold FLT_exp, emin, prec. lia.
Qed.
(** Doubles carry proofs that do not compute well: compare sign, mantissa and exponent instead. *)
Lemma by_SF (a b : double) : B2SF a = B2SF b -> a = b.
Proof. apply B2SF_inj. Qed.
Lemma by_SFs (l m : list double) : map B2SF l = map B2SF m -> l = m.
Proof.
  revert m. induction l as [|a l IH]; intros [|b m] E; try discriminate; [reflexivity|].
  cbn [map] in E. injection E as E1 E2. f_equal; [apply by_SF, E1|apply IH, E2].
Qed.
Definition SFs (r : res (list double)) : option (list SpecFloat.spec_float) := match r with Ok l => Some (map B2SF l) | _ => None end.
Lemma by_res r l : SFs r = Some (map B2SF l) -> r = Ok l.
Proof. destruct r as [m| |]; try discriminate. intro E. f_equal. apply by_SFs. injection E as E. exact E. Qed.
Lemma by_pair (a : double * double) x y : B2SF (fst a) = B2SF x -> B2SF (snd a) = B2SF y -> a = (x, y).
Proof. destruct a as [b c]. cbn [fst snd]. intros E F. f_equal; apply by_SF; assumption. Qed.
Lemma by_oSFs (l m : list (option double)) : map (option_map B2SF) l = map (option_map B2SF) m -> l = m.
Proof.
  revert m. induction l as [|a l IH]; intros [|b m] E; try discriminate; [reflexivity|].
  cbn [map] in E. injection E as E1 E2. apply IH in E2. f_equal; [|exact E2].
  destruct a as [a|], b as [b|]; try discriminate; [|reflexivity]. cbn in E1. injection E1 as E1. f_equal. apply by_SF, E1.
Qed.
Definition oSFs (r : res (list (option double) * list (option double))) :=
  match r with Ok (l, m) => Some (map (option_map B2SF) l, map (option_map B2SF) m) | _ => None end.
Lemma by_full r l m : oSFs r = Some (map (option_map B2SF) l, map (option_map B2SF) m) -> r = Ok (l, m).
Proof.
  destruct r as [[a b]| |]; try discriminate. intro E. injection E as E F. f_equal. f_equal; apply by_oSFs; assumption.
Qed.
Ltac p2 := rewrite ?p2_R by (first [reflexivity|lia]).

(** * C45: two_sum and two_prod are error free *)
(** If nothing overflows (the second result is finite), the first is the rounded sum and the two
    together are the exact sum. *)
Theorem C45_two_sum : forall a b x y, two_sum a b = (x, y) -> is_finite y = true ->
  B2R x = round radix2 (FLT_exp (-1074) 53) ZnearestE (B2R a + B2R b) /\ B2R x + B2R y = B2R a + B2R b.
Proof.
  intros a b x y E F. pose proof (two_sum_exact a b) as H. rewrite E in H. exact (H F).
Qed.
Print Assumptions C45_two_sum.
(** Magnitudes up to [2^1000] do not overflow. *)
Theorem C45_two_sum_range : forall a b, is_finite a = true -> is_finite b = true ->
  Rabs (B2R a) + Rabs (B2R b) <= bpow radix2 1000 -> is_finite (snd (two_sum a b)) = true.
Proof.
  intros a b Fa Fb H. apply (two_sum_range a b _ Fa Fb H). change 128 with (bpow radix2 7).
  rewrite <- bpow_plus. apply bpow_lt. reflexivity.
Qed.
Print Assumptions C45_two_sum_range.
Theorem C45_two_prod : forall a b x y, two_prod a b = (x, y) -> is_finite y = true ->
  (B2R a * B2R b = 0 \/ bpow radix2 (-969) <= Rabs (B2R a * B2R b)) ->
  B2R x = round radix2 (FLT_exp (-1074) 53) ZnearestE (B2R a * B2R b) /\ B2R x + B2R y = B2R a * B2R b.
Proof.
  intros a b x y E F U. pose proof (two_prod_exact a b) as H. rewrite E in H. exact (H F U).
Qed.
Print Assumptions C45_two_prod.
(** When the product underflows the error is lost: the bound is needed. *)
Theorem C45_underflow_refuted : exists a b, is_finite (fst (two_prod a b)) = true /\ is_finite (snd (two_prod a b)) = true /\
  B2R (fst (two_prod a b)) + B2R (snd (two_prod a b)) <> B2R a * B2R b.
Proof.
  exists (p2 (-600)), (p2 (-600)). split; [reflexivity|]. split; [reflexivity|].
  assert (E1 : fst (two_prod (p2 (-600)) (p2 (-600))) = dzero) by (vm_compute; reflexivity).
  assert (E2 : snd (two_prod (p2 (-600)) (p2 (-600))) = dzero) by (vm_compute; reflexivity).
  rewrite E1, E2. p2. cbn [B2R dzero]. rewrite <- bpow_plus. pose proof (bpow_gt_0 radix2 (-600 + -600)). lra.
Qed.
Print Assumptions C45_underflow_refuted.
(** 1 and 3 * 2^-54: the sum is rounded up and the error is negative; (1 + 2^-52)^2. *)
Example C45_example :
  two_sum (p2 0) (dlit 3 (-54)) = (dlit (2 ^ 52 + 1) (-52), dlit (-1) (-54)) /\
  two_prod (dlit (2 ^ 52 + 1) (-52)) (dlit (2 ^ 52 + 1) (-52)) = (dlit (2 ^ 52 + 2) (-52), p2 (-104)).
Proof. split; apply by_pair; vm_compute; reflexivity. Qed.

(** * C46: expansion addition loses only the discarded tail *)
(** [val] is the exact value of an expansion, [mags] the sum of the magnitudes of its components.
    For every length: if none of the 2n components computed overflows, what is returned differs from
    the exact sum by the discarded components, which are tiny. *)
Theorem C46_add : forall x y, length x = length y -> Forall fin (add_state (interleave x y)) ->
  exists r d, collange_add x y = Ok r /\ length r = length x /\ length d = length x /\
    r ++ d = add_state (interleave x y) /\ val r + val d = val x + val y /\
    Rabs (val d) <= (INR (2 * length x) * u * (1 + u) ^ (2 * length x)) ^ length x * (mags x + mags y).
Proof.
  intros x y E F. rewrite (collange_add_def x y E). set (s := add_state (interleave x y)) in *.
  assert (L : length s = (2 * length x)%nat) by (unfold s; rewrite add_state_len, interleave_len; auto).
  exists (firstn (length x) s), (skipn (length x) s). split; [reflexivity|].
  split; [rewrite firstn_length; lia|]. split; [rewrite skipn_length; lia|].
  split; [apply firstn_skipn|]. split.
  - rewrite <- val_app, firstn_skipn. unfold s. rewrite add_state_val by exact F. apply interleave_val, E.
  - rewrite <- (interleave_mags x y E). apply skipn_val_le; [exact F|]. rewrite interleave_len by exact E. lia.
Qed.
Print Assumptions C46_add.
(** Nothing overflows when the magnitudes add up to at most [2^1000] (and n is below [2^50]). *)
Theorem C46_range : forall x y, length x = length y -> Forall fin x -> Forall fin y -> INR (2 * length x) * u <= / 4 ->
  mags x + mags y <= bpow radix2 1000 -> Forall fin (add_state (interleave x y)).
Proof.
  intros x y E Fx Fy N M. apply add_range_ok.
  - clear N M. revert y E Fy. induction Fx as [|a x Fa Fx IH]; intros [|b y] E Fy; try discriminate; [constructor|].
    inversion Fy; subst. cbn [interleave]. constructor; [assumption|]. constructor; [assumption|]. apply IH; [injection E as E; exact E|assumption].
  - rewrite interleave_len by exact E. exact N.
  - rewrite interleave_mags by exact E. exact M.
Qed.
Print Assumptions C46_range.
(** The bound for n = 2: [17 * 2^-106]. *)
Theorem C46_add2 : forall x0 x1 y0 y1, Forall fin (add_state [x0; y0; x1; y1]) ->
  exists r0 r1, collange_add [x0; x1] [y0; y1] = Ok [r0; r1] /\
    Rabs (B2R r0 + B2R r1 - (B2R x0 + B2R x1 + (B2R y0 + B2R y1))) <=
      17 * bpow radix2 (-106) * (Rabs (B2R x0) + Rabs (B2R x1) + Rabs (B2R y0) + Rabs (B2R y1)).
Proof.
  intros x0 x1 y0 y1 F. destruct (C46_add [x0; x1] [y0; y1] eq_refl F) as (r & d & R & Lr & _ & _ & V & B).
  destruct r as [|r0 [|r1 [|? ?]]]; try discriminate. exists r0, r1. split; [exact R|].
  rewrite !val_cons in V. rewrite !mags_cons in B. change (val []) with 0 in V. change (mags []) with 0 in B. rewrite !Rplus_0_r in *.
  replace (B2R r0 + B2R r1 - (B2R x0 + B2R x1 + (B2R y0 + B2R y1))) with (- val d) by lra.
  rewrite Rabs_Ropp. eapply Rle_trans; [exact B|]. cbn [length Nat.mul Nat.add].
  replace (Rabs (B2R x0) + Rabs (B2R x1) + Rabs (B2R y0) + Rabs (B2R y1)) with
    (Rabs (B2R x0) + Rabs (B2R x1) + (Rabs (B2R y0) + Rabs (B2R y1))) by ring.
  apply Rmult_le_compat_r.
  { pose proof (Rabs_pos (B2R x0)). pose proof (Rabs_pos (B2R x1)). pose proof (Rabs_pos (B2R y0)). pose proof (Rabs_pos (B2R y1)). lra. }
  replace (bpow radix2 (-106)) with (u * u) by (unfold u; rewrite <- bpow_plus; reflexivity).
  assert (U : u <= / 1024). { unfold u. change (/ 1024) with (bpow radix2 (-10)). apply bpow_le. lia. }
  pose proof u_pos as P. replace (INR 4) with 4 by (cbn; ring). cbn [pow]. rewrite !Rmult_1_r.
  set (w := (1 + u) * ((1 + u) * ((1 + u) * (1 + u)))).
  assert (W : 0 <= w <= 1.01). { unfold w. split; [repeat apply Rmult_le_pos; lra|].
    apply Rle_trans with ((1 + / 1024) * ((1 + / 1024) * ((1 + / 1024) * (1 + / 1024)))); [|lra].
    repeat (apply Rmult_le_compat; try lra; try (repeat apply Rmult_le_pos; lra)). }
  replace (4 * u * w * (4 * u * w)) with (16 * (w * w) * (u * u)) by ring.
  apply Rmult_le_compat_r; nra.
Qed.
Print Assumptions C46_add2.
(** Subtraction is addition of the negation, which is exact. *)
Theorem C46_sub : forall x y, length x = length y -> Forall fin (add_state (interleave x (exp_neg y))) ->
  exists r d, collange_sub x y = Ok r /\ length r = length x /\ val r + val d = val x - val y /\
    Rabs (val d) <= (INR (2 * length x) * u * (1 + u) ^ (2 * length x)) ^ length x * (mags x + mags y).
Proof.
  intros x y E F. destruct (C46_add x (exp_neg y)) as (r & d & R & L & _ & _ & V & B); [rewrite neg_len; exact E|exact F|].
  exists r, d. rewrite neg_val in V. rewrite neg_mags in B. split; [exact R|]. split; [exact L|]. split; [lra|exact B].
Qed.
Print Assumptions C46_sub.
(** Adding zero keeps the exact value, for every length. *)
Theorem C46_add_zero : forall x y, length x = length y -> Forall (fun a => B2R a = 0) y ->
  Forall fin (add_state (interleave x y)) -> exists r, collange_add x y = Ok r /\ val r = val x.
Proof. intros x y E Z F. eexists. split; [apply (collange_add_def x y E)|]. apply add_zero; assumption. Qed.
Print Assumptions C46_add_zero.
(** x - x is zero in every component, for every length and every finite x. *)
Theorem C46_sub_self : forall x, Forall fin x ->
  exists r, collange_sub x x = Ok r /\ length r = length x /\ Forall (fun a => is_finite a = true /\ B2R a = 0) r.
Proof.
  intros x F. unfold collange_sub. rewrite collange_add_def by (rewrite neg_len; reflexivity).
  eexists. split; [reflexivity|]. split.
  - rewrite firstn_length, add_state_len, interleave_len by (rewrite neg_len; reflexivity). lia.
  - apply Forall_forall. intros a Ha. apply (proj1 (Forall_forall _ _) (sub_self x F)). rewrite <- (firstn_skipn (length x)). apply in_or_app. left. exact Ha.
Qed.
Print Assumptions C46_sub_self.
(** But x + 0 == x is false for some valid x: the sum is renormalised, and operator== compares
    components.  Here x = (1, 2^-52). *)
Theorem C46_add_zero_eq_refuted : exists x r, valid x /\ Forall fin x /\ collange_add x [dzero; dzero] = Ok r /\ exp_eq r x = false.
Proof.
  exists [p2 0; p2 (-52)], [dlit (2 ^ 52 + 1) (-52); dzero].
  split; [|split; [repeat constructor|split; [apply by_res; vm_compute; reflexivity|vm_compute; reflexivity]]].
  split; [|split; [constructor|exact Logic.I]]. intros _. constructor; [|constructor].
  unfold gulp. p2. rewrite (Rabs_pos_eq (bpow radix2 (-52))) by apply bpow_ge_0. rewrite mag_bpow. apply bpow_le. lia.
Qed.
Print Assumptions C46_add_zero_eq_refuted.
(** (1, 2^-54) + (2^53, 3 * 2^-2): nothing overflows; one component is rounded away. *)
Example C46_example : Forall fin (add_state (interleave [p2 0; p2 (-54)] [p2 53; dlit 3 (-2)])) /\
  collange_add [p2 0; p2 (-54)] [p2 53; dlit 3 (-2)] = Ok [p2 53; dlit 7 (-2)] /\
  skipn 2 (add_state (interleave [p2 0; p2 (-54)] [p2 53; dlit 3 (-2)])) = [p2 (-54); dzero].
Proof. split; [repeat constructor|]. split; [apply by_res|apply by_SFs]; vm_compute; reflexivity. Qed.
(** The range condition holds for all lengths in use (n = 2, 3, 4). *)
Example C46_range_example : INR (2 * 4) * u <= / 4.
Proof.
  replace (INR (2 * 4)) with (bpow radix2 3) by (cbn; ring). unfold u. rewrite <- bpow_plus.
  change (/ 4) with (bpow radix2 (-2)). apply bpow_le. lia.
Qed.

(** * C47: expansion multiplication *)
(** The generator always terminates with n components when the lengths agree. *)
Theorem C47_total : forall x y, length x = length y -> exists r, collange_mul x y = Ok r /\ length r = length x.
Proof.
  intros x y E. destruct (mul_full_total x y E) as (pi & d & R & L). unfold collange_mul. rewrite R. cbn [bind].
  eexists. split; [reflexivity|]. rewrite map_length. exact L.
Qed.
Print Assumptions C47_total.
(** For every length: the exact product is the result plus everything discarded, and what is
    discarded is of order u^n.  [weigh 0 x] is the sum of |x_j| / u^j. *)
Theorem C47_mul : forall x y pi drop, collange_mul_full x y = Ok (pi, drop) ->
  (forall a b, In a x -> In b y -> no_underflow a b) -> Forall ofin pi -> Forall ofin drop ->
  exists r, collange_mul x y = Ok r /\ val r + oval drop = val x * val y /\
    Rabs (oval drop) <= u ^ length x * (2 * ((2 + u) ^ (2 * length x + 1)) ^ length x * (weigh 0 x * weigh 0 y)).
Proof.
  intros x y pi drop R NU Fp Fd. unfold collange_mul. rewrite R. cbn [bind]. eexists. split; [reflexivity|].
  destruct (mul_full_ok x y pi drop R NU Fp Fd) as (L & V & B). rewrite oval_olit. split; [exact V|].
  eapply Rle_trans; [apply oval_omags|]. fold (factor (length x)).
  assert (K : forall n, u ^ n * w ^ n = 1) by (intro n; rewrite <- Rpow_mult_distr, u_w; apply pow1).
  apply Rmult_le_reg_r with (w ^ length x); [pose proof (w_pow (length x)); lra|].
  eapply Rle_trans; [exact B|]. apply Req_le.
  rewrite <- (Rmult_1_l (2 * factor (length x) ^ length x * (weigh 0 x * weigh 0 y))), <- (K (length x)) at 1. ring.
Qed.
Print Assumptions C47_mul.
(** For n = 2 the error is the sum of five rounding terms, each bounded, and for nonoverlapping
    operands it is at most [17 * 2^-106] of the product of the leading components. *)
Theorem C47_mul2_terms : forall x0 x1 y0 y1 r0 r1, collange_mul [x0; x1] [y0; y1] = Ok [r0; r1] -> is_finite r1 = true ->
  no_underflow x0 y0 -> no_underflow x1 y0 -> no_underflow x0 y1 ->
  exists (s e : double) (d1 d2 d3 d4 : R), (B2R x0 + B2R x1) * (B2R y0 + B2R y1) = B2R r0 + B2R r1 + (d1 + d2 + d3 + d4 + B2R x1 * B2R y1) /\
    Rabs d1 <= u * Rabs (B2R (dmul x1 y0) + B2R e) /\ Rabs d2 <= u * Rabs (B2R s + B2R (dmul x0 y1)) /\
    Rabs d3 <= u * Rabs (B2R x1 * B2R y0) /\ Rabs d4 <= u * Rabs (B2R x0 * B2R y1) /\ Rabs (B2R e) <= u * Rabs (B2R x0 * B2R y0).
Proof.
  intros x0 x1 y0 y1 r0 r1 R F U00 U10 U01. rewrite mul2_def in R. injection R as <- <-.
  destruct (mul2_err x0 x1 y0 y1 F U00 U10 U01) as (d1 & d2 & d3 & d4 & E & B).
  exists (dadd (dmul x1 y0) (snd (two_prod x0 y0))), (snd (two_prod x0 y0)), d1, d2, d3, d4. split; [refine (eq_trans _ E); ring|exact B].
Qed.
Print Assumptions C47_mul2_terms.
Theorem C47_mul2 : forall x0 x1 y0 y1, valid [x0; x1] -> valid [y0; y1] -> B2R x0 <> 0 -> B2R y0 <> 0 ->
  no_underflow x0 y0 -> no_underflow x1 y0 -> no_underflow x0 y1 ->
  exists r0 r1, collange_mul [x0; x1] [y0; y1] = Ok [r0; r1] /\
    (is_finite r1 = true -> Rabs ((B2R x0 + B2R x1) * (B2R y0 + B2R y1) - (B2R r0 + B2R r1)) <=
      17 * bpow radix2 (-106) * Rabs (B2R x0 * B2R y0)).
Proof.
  intros x0 x1 y0 y1 Vx Vy Nx Ny U00 U10 U01. rewrite mul2_def. do 2 eexists. split; [reflexivity|]. intro F.
  destruct Vx as [Vx _]. specialize (Vx Nx). inversion Vx as [|? ? Vx1 _]; subst. destruct Vy as [Vy _]. specialize (Vy Ny). inversion Vy as [|? ? Vy1 _]; subst.
  replace (bpow radix2 (-106)) with (u * u) by (unfold u; rewrite <- bpow_plus; reflexivity).
  apply mul2_total; try assumption.
  - eapply Rle_trans; [exact Vx1|]. apply gulp_small, Nx.
  - eapply Rle_trans; [exact Vy1|]. apply gulp_small, Ny.
Qed.
Print Assumptions C47_mul2.
(** (1 + 2^-53) (1 + 2^-52 + 2^-80): every hypothesis holds and the result has an error. *)
Lemma nu_p2 a b : fin (p2 a) -> fin (p2 b) -> (-400 <= a)%Z -> (-400 <= b)%Z -> no_underflow (p2 a) (p2 b).
Proof.
  intros Fa Fb Ha Hb. right. rewrite !p2_R by (first [assumption|lia]). rewrite <- bpow_plus, Rabs_pos_eq by apply bpow_ge_0. apply bpow_le. lia.
Qed.
Example C47_example : valid [p2 0; p2 (-53)] /\ no_underflow (p2 0) (p2 0) /\ no_underflow (p2 (-53)) (p2 0) /\ B2R (p2 0) <> 0 /\
  collange_mul [p2 0; p2 (-53)] [p2 0; p2 (-53)] = Ok [p2 0; p2 (-52)] /\
  exists pi drop, collange_mul_full [p2 0; p2 (-53)] [p2 0; p2 (-53)] = Ok (pi, drop) /\ Forall ofin pi /\ Forall ofin drop /\
    In (Some (p2 (-106))) drop.
Proof.
  split. { split; [|split; [constructor|exact Logic.I]]. intros _. constructor; [|constructor]. unfold gulp. p2.
    rewrite (Rabs_pos_eq (bpow radix2 (-53))) by apply bpow_ge_0. rewrite mag_bpow. apply bpow_le. lia. }
  split; [apply nu_p2; (reflexivity || lia)|]. split; [apply nu_p2; (reflexivity || lia)|].
  split; [p2; pose proof (bpow_gt_0 radix2 0); lra|]. split; [apply by_res; vm_compute; reflexivity|].
  exists [Some (p2 0); Some (p2 (-52))], [Some (p2 (-106)); Some dzero; Some dzero; Some dzero; Some dzero; None; Some dzero; None].
  split; [apply by_full; vm_compute; reflexivity|]. split; [repeat constructor|]. split; [repeat constructor|]. left. reflexivity.
Qed.

(** * C48: sign, negation and scaling of expansions are exact *)
Theorem C48_sign : forall x, Forall fin x -> valid x -> sign x = match Rcompare (val x) 0 with Lt => -1 | Eq => 0 | Gt => 1 end%Z.
Proof. exact sign_ok. Qed.
Print Assumptions C48_sign.
Theorem C48_neg : forall x, val (exp_neg x) = - val x /\ (Forall fin x -> Forall fin (exp_neg x)).
Proof. intro x. split; [apply neg_val|]. intro F. apply Forall_map. eapply Forall_impl; [|exact F]. intros a Fa. apply fin_neg, Fa. Qed.
Print Assumptions C48_neg.
Theorem C48_abs : forall x, Forall fin x -> valid x -> Forall fin (exp_abs x) /\ val (exp_abs x) = Rabs (val x).
Proof. exact abs_ok. Qed.
Print Assumptions C48_abs.
(** [scales e a]: a * 2^e is zero or a normal number. *)
Theorem C48_half : forall x, Forall fin x -> Forall (scales (-1)) x -> Forall fin (exp_half x) /\ val (exp_half x) = / 2 * val x.
Proof. exact half_ok. Qed.
Print Assumptions C48_half.
Theorem C48_twice : forall x, Forall fin (exp_twice x) -> val (exp_twice x) = 2 * val x.
Proof. exact twice_ok. Qed.
Print Assumptions C48_twice.
Theorem C48_ldexp : forall x e, Forall fin (exp_ldexp x e) -> Forall (scales e) x -> val (exp_ldexp x e) = bpow radix2 e * val x.
Proof. exact ldexp_ok. Qed.
Print Assumptions C48_ldexp.
Theorem C48_bool : forall x, Forall fin x -> valid x -> exp_bool x = false <-> val x = 0.
Proof. exact bool_ok. Qed.
Print Assumptions C48_bool.
Theorem C48_eq : forall x y, Forall fin x -> Forall fin y -> length x = length y -> exp_eq x y = true <-> map B2R x = map B2R y.
Proof. exact (fun x y => eq_ok x y). Qed.
Print Assumptions C48_eq.
Theorem C48_eq_int : forall x a, Forall fin x -> valid x -> (- 2 ^ 31 <= a < 2 ^ 31)%Z -> exp_eq_int x a = true -> val x = IZR a.
Proof. intros x a F V H. apply eq_int_ok; [exact F|exact V|]. change (2 ^ 31)%Z with 2147483648%Z in H. change (2 ^ 53)%Z with 9007199254740992%Z. lia. Qed.
Print Assumptions C48_eq_int.
(** Conversion of a two-term expansion to double rounds its exact value once. *)
Theorem C48_double : forall a b, is_finite (to_double [a; b]) = true -> B2R (to_double [a; b]) = round radix2 (FLT_exp (-1074) 53) ZnearestE (val [a; b]).
Proof. exact double2_ok. Qed.
Print Assumptions C48_double.
(** Validity is needed: (1, -2) has the sign of 1. *)
Theorem C48_sign_invalid_refuted : exists x, Forall fin x /\ sign x = 1%Z /\ val x < 0.
Proof.
  exists [p2 0; dneg (p2 1)]. split; [repeat constructor|]. split; [reflexivity|].
  rewrite !val_cons, B2R_neg. p2. change (val []) with 0. cbn. lra.
Qed.
Print Assumptions C48_sign_invalid_refuted.
(** (0, -1, 2^-60): a leading zero component and a negative value. *)
Example C48_example : Forall fin [dzero; dneg (p2 0); p2 (-60)] /\ valid [dzero; dneg (p2 0); p2 (-60)] /\
  sign [dzero; dneg (p2 0); p2 (-60)] = (-1)%Z /\ exp_abs [dzero; dneg (p2 0); p2 (-60)] = [B754_zero true; p2 0; dneg (p2 (-60))] /\
  Forall (scales (-1)) [dzero; dneg (p2 0); p2 (-60)] /\ exp_half [dneg (p2 0); p2 (-60)] = [dneg (p2 (-1)); p2 (-61)].
Proof.
  split; [repeat constructor|]. split.
  { split; [intro N; exfalso; apply N; reflexivity|]. split; [|split; [constructor|exact Logic.I]]. intros _. constructor; [|constructor].
    unfold gulp. rewrite B2R_neg. p2. rewrite mag_opp, mag_bpow, (Rabs_pos_eq (bpow radix2 (-60))) by apply bpow_ge_0. apply bpow_le. lia. }
  split; [reflexivity|]. split; [apply by_SFs; vm_compute; reflexivity|]. split; [|apply by_SFs; vm_compute; reflexivity].
  constructor; [left; reflexivity|]. constructor; [right|constructor; [right|constructor]]; rewrite ?B2R_neg, ?Rabs_Ropp; p2; rewrite Rabs_pos_eq by apply bpow_ge_0;
    rewrite <- bpow_plus; apply bpow_le; lia.
Qed.

(** * C49: int64 to expansion conversion *)
Theorem C49_exact : forall n a, (- 2 ^ 63 <= a < 2 ^ 63 - 512)%Z ->
  exists x, of_int64 n a = Ok x /\ Forall fin x /\ val x = IZR a /\ length x = Nat.max n 2.
Proof. exact int64_ok. Qed.
Print Assumptions C49_exact.
(** For the top 512 values the code converts 2^63 back to int64, which is undefined. *)
Theorem C49_top_refuted : forall n a, (2 ^ 63 - 512 <= a < 2 ^ 63)%Z -> of_int64 n a = UB.
Proof. exact int64_ub. Qed.
Print Assumptions C49_top_refuted.
Example C49_example : of_int64 2 (2 ^ 62 + 1) = Ok [p2 62; p2 0] /\ of_int64 3 (- 2 ^ 63) = Ok [dneg (p2 63); dzero; dzero].
Proof. split; apply by_res; vm_compute; reflexivity. Qed.

(** * C50: safe() printing round-trips *)
(** The library contract: for the components of x, strtod reads back what "%.17g" printed, up to the
    separator that follows, and skips a leading space.  Whatever Arb does with the decimal form. *)
Theorem C50_safe : forall print17 print_exact strtod decimal x s, x <> [] ->
  (forall a, In a x -> forall c r, c = ","%char \/ c = "]"%char ->
    exists b, strtod (print17 a ++ c :: r) = Some (b, c :: r) /\ deq a b = true) ->
  (forall s, strtod (" "%char :: s) = strtod s) ->
  safe print17 print_exact strtod decimal x = Ok s ->
  exists y, parse strtod decimal (length x) s = Ok y /\ exp_eq x y = true.
Proof. exact safe_ok. Qed.
Print Assumptions C50_safe.
(** safe() does not fail as long as the decimal strings it tries can be read. *)
Theorem C50_total : forall print17 print_exact strtod decimal x,
  (forall p, exists y, parse strtod decimal (length x) (print_exact p x) = Ok y) ->
  exists s, safe print17 print_exact strtod decimal x = Ok s.
Proof. exact safe_total. Qed.
Print Assumptions C50_total.
(** A toy library: 1 prints as "u", anything else as "t" for 2^-60; decimals always read as (1, 0). *)
Definition toy_print (a : double) : list ascii := if deq a (p2 0) then ["u"%char] else ["t"%char].
Fixpoint toy_strtod (s : list ascii) : option (double * list ascii) :=
  match s with
  | c :: r => if Ascii.eqb c " " then toy_strtod r else if Ascii.eqb c "u" then Some (p2 0, r) else if Ascii.eqb c "t" then Some (p2 (-60), r) else None
  | [] => None
  end.
Definition toy_decimal (n : nat) (s : list ascii) : res (list double) := Ok [p2 0; dzero].
Example C50_example :
  (forall a, In a [p2 0; p2 (-60)] -> forall c r, c = ","%char \/ c = "]"%char ->
    exists b, toy_strtod (toy_print a ++ c :: r) = Some (b, c :: r) /\ deq a b = true) /\
  (forall s, toy_strtod (" "%char :: s) = toy_strtod s) /\
  safe toy_print (fun _ _ => ["1"%char]) toy_strtod toy_decimal [p2 0; p2 (-60)] = Ok ["["; "u"; ","; " "; "t"; "]"]%char /\
  safe toy_print (fun _ _ => ["1"%char]) toy_strtod toy_decimal [p2 0; dzero] = Ok ["1"%char].
Proof.
  split; [|split; [reflexivity|split; vm_compute; reflexivity]].
  intros a [<-|[<-|[]]] c r _; [exists (p2 0)|exists (p2 (-60))]; split; reflexivity.
Qed.
(** The list form accepts nothing else: numbers as strtod reads them, each followed by exactly one
    comma except the last, which is followed by the closing bracket and the end of the text. *)
Inductive listed (strtod : list ascii -> option (double * list ascii)) : list double -> list ascii -> Prop :=
| listed_last : forall a p, strtod p = Some (a, ["]"%char]) -> listed strtod [a] p
| listed_next : forall a x p q, strtod p = Some (a, ","%char :: q) -> listed strtod x q -> listed strtod (a :: x) p.
Theorem C50_list_form : forall strtod decimal n p, n <> O ->
  (forall x, parse strtod decimal n ("["%char :: p) = Ok x <-> listed strtod x p /\ length x = n) /\
  (parse strtod decimal n ("["%char :: p) = Throw \/ exists x, parse strtod decimal n ("["%char :: p) = Ok x).
Proof.
  intros strtod decimal n p Hn. unfold parse. change (Ascii.eqb "[" lbracket) with true. cbn match.
  assert (K : forall n p, n <> O -> (forall x q, parse_items strtod n p = Ok (x, q) -> q = [] -> listed strtod x p /\ length x = n) /\
    (forall x, listed strtod x p -> length x = n -> parse_items strtod n p = Ok (x, [])) /\ parse_items strtod n p <> UB).
  { clear. induction n as [|n IH]; intros p Hn; [contradiction|]. cbn [parse_items]. destruct (strtod p) as [[a e]|] eqn:Ep.
    2:{ split; [discriminate|]. split; [|discriminate]. intros x Hx _. inversion Hx; congruence. }
    destruct e as [|c e]. { split; [discriminate|]. split; [|discriminate]. intros x Hx _. inversion Hx; congruence. }
    destruct n as [|n].
    - cbn [parse_items bind]. destruct (Ascii.eqb_spec c rbracket) as [->|Hc]; cbn [slow_assert bind].
      + split; [|split; [|discriminate]].
        * intros x q H E. injection H as <- <-. subst e. split; [constructor; exact Ep|reflexivity].
        * intros x Hx L. inversion Hx as [a' p' E1|a' x' p' q' E1 E2]; subst; [rewrite E1 in Ep; injection Ep as <- <-; reflexivity|].
          inversion E2; subst; discriminate L.
      + split; [discriminate|]. split; [|discriminate]. intros x Hx L. inversion Hx as [a' p' E1|a' x' p' q' E1 E2]; subst.
        * rewrite E1 in Ep. injection Ep as _ <- _. exfalso. apply Hc. reflexivity.
        * inversion E2; subst; discriminate L.
    - destruct (Ascii.eqb_spec c comma) as [->|Hc]; cbn [slow_assert bind].
      + destruct (IH e ltac:(discriminate)) as (I1 & I2 & I3). split; [|split].
        * intros x q H E. destruct (parse_items strtod (S n) e) as [[y q']| |] eqn:Ey; try discriminate. cbn [bind] in H. injection H as <- <-.
          destruct (I1 y q' eq_refl E) as [H1 H2]. split; [econstructor; [exact Ep|exact H1]|cbn [length]; rewrite H2; reflexivity].
        * intros x Hx L. inversion Hx as [a' p' E1|a' x' p' q' E1 E2]; subst; [discriminate L|]. rewrite E1 in Ep. injection Ep as <- <-.
          rewrite (I2 x' E2) by (injection L as L; exact L). reflexivity.
        * destruct (parse_items strtod (S n) e) as [[y q']| |]; try discriminate. exact I3.
      + split; [discriminate|]. split; [|discriminate]. intros x Hx L. inversion Hx as [a' p' E1|a' x' p' q' E1 E2]; subst; [discriminate L|].
        rewrite E1 in Ep. injection Ep as _ <- _. exfalso. apply Hc. reflexivity. }
  destruct (K n p Hn) as (K1 & K2 & K3). split.
  - intros x. split.
    + intros H. destruct (parse_items strtod n p) as [[y q]| |]; try discriminate. cbn [bind] in H. destruct q; [|discriminate]. injection H as <-. exact (K1 y [] eq_refl eq_refl).
    + intros [H1 H2]. rewrite (K2 x H1 H2). reflexivity.
  - destruct (parse_items strtod n p) as [[y q]| |]; [|left; reflexivity|contradiction]. cbn [bind]. destruct q; [right; exists y; reflexivity|left; reflexivity].
Qed.
Print Assumptions C50_list_form.
Example C50_list_form_example :
  listed toy_strtod [p2 0; p2 (-60)] ["u"; ","; " "; "t"; "]"]%char /\
  parse toy_strtod toy_decimal 2 ["["; "u"; ","; "t"; "]"; "]"]%char = Throw /\ parse toy_strtod toy_decimal 2 ["["; "u"; "]"]%char = Throw.
Proof. split; [econstructor; [reflexivity|constructor; reflexivity]|split; reflexivity]. Qed.
