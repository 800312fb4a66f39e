(** The Newton schedule: series.h:318-349. *)
From Coq Require Import ZArith List Bool Lia.
From Verif Require Import Base SeriesModel.
From Coq Require Import ZifyBool ZifyNat.
Ltac Zify.zify_post_hook ::= Z.div_mod_to_equations.
Import ListNotations.
Open Scope Z_scope.

Lemma ctz_pow2 : forall k : nat, countr_zero64 (2 ^ Z.of_nat k) = Z.of_nat k.
Proof.
  induction k as [|k IH]; [reflexivity|].
  replace (2 ^ Z.of_nat (S k)) with (2 * 2 ^ Z.of_nat k)
    by (rewrite Nat2Z.inj_succ, Z.pow_succ_r; lia).
  destruct (2 ^ Z.of_nat k) as [|p|p] eqn:E.
  - pose proof (Z.pow_pos_nonneg 2 (Z.of_nat k)). lia.
  - change (1 + ctz_pos p = Z.of_nat (S k)). cbn [countr_zero64] in IH. rewrite IH. lia.
  - pose proof (Z.pow_pos_nonneg 2 (Z.of_nat k)). lia.
Qed.

(** ceil(n / 2^k) as the code computes it. *)
Definition cdiv2 (n : Z) (k : nat) : Z := Z.shiftr (n + Z.shiftl 1 (Z.of_nat k) - 1) (Z.of_nat k).

Lemma cdiv2_spec : forall n k, 0 < n ->
  n <= cdiv2 n k * 2 ^ Z.of_nat k /\ cdiv2 n k * 2 ^ Z.of_nat k < n + 2 ^ Z.of_nat k.
Proof.
  intros n k Hn. unfold cdiv2. rewrite Z.shiftl_1_l, Z.shiftr_div_pow2 by lia.
  assert (Hp : 0 < 2 ^ Z.of_nat k) by (apply Z.pow_pos_nonneg; lia).
  set (p := 2 ^ Z.of_nat k) in *.
  pose proof (Z.div_mod (n + p - 1) p ltac:(lia)).
  pose proof (Z.mod_pos_bound (n + p - 1) p Hp). nia.
Qed.

Lemma newton_steps_ok : forall n0 n, 0 < n0 -> n0 < n ->
  exists k : nat, newton_steps n0 n = Ok (Z.of_nat (S k)) /\
    n <= n0 * 2 ^ Z.of_nat (S k) /\ n0 * 2 ^ Z.of_nat k < n.
Proof.
  intros n0 n H0 Hn. unfold newton_steps.
  replace ((0 <? n0) && (n0 <=? n)) with true by lia. cbn [slow_assert bind].
  set (u := (n + n0 - 1) / n0).
  assert (Hu : n <= u * n0 /\ u * n0 < n + n0).
  { unfold u. pose proof (Z.div_mod (n + n0 - 1) n0 ltac:(lia)).
    pose proof (Z.mod_pos_bound (n + n0 - 1) n0 H0). nia. }
  assert (Hu2 : 1 < u) by nia.
  unfold bit_ceil. destruct (Z.leb_spec u 1); [lia|].
  pose proof (Z.log2_up_spec u Hu2) as (Hlo & Hhi).
  pose proof (Z.log2_up_pos u Hu2).
  destruct (Z.to_nat (Z.log2_up u)) as [|k] eqn:Ek; [lia|].
  assert (HL : Z.log2_up u = Z.of_nat (S k)) by lia.
  exists k. rewrite HL in *. rewrite ctz_pow2. split; [reflexivity|].
  replace (Z.pred (Z.of_nat (S k))) with (Z.of_nat k) in Hlo by lia.
  split; [nia|]. nia.
Qed.

Section Loop.
Context {A : Type}.
Variable step : Z -> Z -> bool -> A -> res A.
Variable n : Z.

Lemma newton_loop_two : forall k n0 st,
  newton_loop step n (2 * S k) n0 st =
  (st1 <- step n0 (cdiv2 n k) false st ;;
   st2 <- step n0 (cdiv2 n k) true st1 ;;
   newton_loop step n (2 * k) (cdiv2 n k) st2).
Proof.
  intros k n0 st. replace (2 * S k)%nat with (S (S (2 * k))) by lia.
  cbn [newton_loop].
  replace (Z.odd (Z.of_nat (S (2 * k)))) with true.
  2:{ replace (Z.of_nat (S (2 * k))) with (1 + 2 * Z.of_nat k) by lia.
      rewrite Z.odd_add_mul_2. reflexivity. }
  replace (Z.odd (Z.of_nat (2 * k))) with false.
  2:{ replace (Z.of_nat (2 * k)) with (0 + 2 * Z.of_nat k) by lia.
      rewrite Z.odd_add_mul_2. reflexivity. }
  replace (Z.shiftr (Z.of_nat (S (2 * k))) 1) with (Z.of_nat k).
  2:{ rewrite Z.shiftr_div_pow2 by lia. change (2 ^ 1) with 2. lia. }
  replace (Z.shiftr (Z.of_nat (2 * k)) 1) with (Z.of_nat k).
  2:{ rewrite Z.shiftr_div_pow2 by lia. change (2 ^ 1) with 2. lia. }
  cbn [negb]. reflexivity.
Qed.

Lemma cdiv2_next : forall k n0, 0 < n0 -> n <= n0 * 2 ^ Z.of_nat (S k) -> n0 * 2 ^ Z.of_nat k < n ->
  n0 < cdiv2 n k /\ cdiv2 n k <= 2 * n0 /\ cdiv2 n k <= n /\ n <= cdiv2 n k * 2 ^ Z.of_nat k /\
  (forall k', k = S k' -> cdiv2 n k * 2 ^ Z.of_nat k' < n).
Proof.
  intros k n0 H0 Hhi Hlo.
  assert (Hp : 0 < 2 ^ Z.of_nat k) by (apply Z.pow_pos_nonneg; lia).
  assert (Hs : 2 ^ Z.of_nat (S k) = 2 * 2 ^ Z.of_nat k)
    by (rewrite Nat2Z.inj_succ, Z.pow_succ_r; lia).
  rewrite Hs in Hhi.
  destruct (cdiv2_spec n k ltac:(nia)) as (Ha & Hb).
  split; [nia|]. split; [nia|]. split; [nia|]. split; [exact Ha|].
  intros k' ->.
  replace (2 ^ Z.of_nat (S k')) with (2 * 2 ^ Z.of_nat k') in *
    by (rewrite Nat2Z.inj_succ, Z.pow_succ_r; lia).
  nia.
Qed.

Variable P : Z -> A -> Prop.
Hypothesis Hext : forall m0 m st, 0 < m0 -> m0 < m -> m <= 2 * m0 -> m <= n -> P m0 st ->
  exists st', step m0 m false st = Ok st' /\ P m st'.
Hypothesis Href : forall m0 m st, 0 < m0 -> m0 < m -> m <= 2 * m0 -> m <= n -> P m st ->
  exists st', step m0 m true st = Ok st' /\ P m st'.

Lemma newton_loop_ind : forall k n0 st, 0 < n0 -> n <= n0 * 2 ^ Z.of_nat (S k) -> n0 * 2 ^ Z.of_nat k < n ->
  P n0 st -> exists st', newton_loop step n (2 * S k) n0 st = Ok st' /\ P n st'.
Proof.
  induction k as [|k IH]; intros n0 st H0 Hhi Hlo HP; rewrite newton_loop_two.
  - destruct (cdiv2_next 0 n0 H0 Hhi Hlo) as (A1 & A2 & A3 & A4 & _).
    assert (Hm : cdiv2 n 0 = n). { change (2 ^ Z.of_nat 0) with 1 in A4. lia. }
    rewrite Hm in *.
    destruct (Hext n0 n st) as (s1 & E1 & P1); auto; try lia. rewrite E1. cbn [bind].
    destruct (Href n0 n s1) as (s2 & E2 & P2); auto; try lia. rewrite E2. cbn [bind].
    exists s2. split; [reflexivity|exact P2].
  - destruct (cdiv2_next (S k) n0 H0 Hhi Hlo) as (A1 & A2 & A3 & A4 & A5).
    destruct (Hext n0 (cdiv2 n (S k)) st) as (s1 & E1 & P1); auto; try lia. rewrite E1. cbn [bind].
    destruct (Href n0 (cdiv2 n (S k)) s1) as (s2 & E2 & P2); auto; try lia. rewrite E2. cbn [bind].
    apply IH; auto; try lia.
Qed.

Lemma newton_iterate_ind : forall n0 st, 0 < n0 -> n0 <= n -> P n0 st ->
  exists st', newton_iterate n0 n step st = Ok st' /\ P n st'.
Proof.
  intros n0 st H0 Hn HP. unfold newton_iterate.
  destruct (Z.leb_spec n n0).
  - exists st. assert (n0 = n) by lia. rewrite <- H1. auto.
  - replace (0 <? n0) with true by lia. cbn [slow_assert bind].
    destruct (newton_steps_ok n0 n H0 ltac:(lia)) as (k & Ek & Hhi & Hlo).
    rewrite Ek. cbn [bind].
    replace (Z.to_nat (2 * Z.of_nat (S k))) with (2 * S k)%nat by lia.
    apply newton_loop_ind; auto.
Qed.

End Loop.
