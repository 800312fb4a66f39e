(** The primality filter of sig.cc. *)
From mathcomp Require Import all_ssreflect all_algebra.
From Coq Require Import ZArith List Bool Lia Znumtheory Zpow_facts.
From Verif Require Import Base SeriesModel SigModel SigProofs SigField SigRoots.
Set Implicit Arguments.
Unset Strict Implicit.
Import GRing.Theory.
Local Open Scope Z_scope.

Lemma fermat_Z : forall p a, Znumtheory.prime p -> 0 <= a -> ~ (p | a) -> a ^ (p - 1) mod p = 1.
Proof.
  move=> p a Hp Ha Hd. have B := prime_ge_2 p Hp. have PP := prime_ssr Hp.
  apply: (phi_inj Hp); [apply Z.mod_pos_bound; lia|lia|]. rewrite (phi_mod Hp); [|apply Z.pow_nonneg; lia].
  rewrite phi_pow; [|exact Ha|lia]. have -> : Z.to_nat (p - 1) = (Z.to_nat p).-1 by lia.
  rewrite fermat1 //. rewrite -(phi_mod Hp) //. apply: phi_neq0 => //.
  - apply Z.mod_pos_bound. lia.
  - move=> E. apply: Hd. apply Z.mod_divide; [lia|exact E].
Qed.
Close Scope ring_scope.

Lemma ctz_spec : forall q, 0 <= ctz_pos q /\ 2 ^ ctz_pos q * (Zpos q / 2 ^ ctz_pos q) = Zpos q.
Proof.
  elim=> [q IH|q IH|]; cbn [ctz_pos].
  - split; [lia|]. change (2 ^ 0) with 1. rewrite Z.div_1_r. lia.
  - destruct IH as [I1 I2]. split; [lia|]. rewrite Z.pow_add_r; [|lia|lia]. change (2 ^ 1) with 2.
    have -> : Z.pos q~0 = 2 * Z.pos q by lia. rewrite Z.div_mul_cancel_l; [|have := Z.pow_pos_nonneg 2 (ctz_pos q); lia|lia]. lia.
  - split; [lia|]. by [].
Qed.
Lemma ctz_shift : forall m, 0 < m < 2 ^ 64 ->
  let s := countr_zero64 m in 0 <= s < 64 /\ 0 < Z.shiftr m s /\ m = Z.shiftr m s * 2 ^ s.
Proof.
  move=> m Hm s. destruct m as [|q|q]; try lia. rewrite /s /countr_zero64. destruct (ctz_spec q) as [A E].
  rewrite Z.shiftr_div_pow2; [|exact A]. have Hp := Z.pow_pos_nonneg 2 (ctz_pos q) ltac:(lia) A.
  set d := Z.pos q / 2 ^ ctz_pos q in E |- *. have D : 0 < d by nia.
  split; [|split; [exact D|lia]]. split; [exact A|]. apply (Z.pow_lt_mono_r_iff 2); [lia|lia|]. nia.
Qed.
Lemma sq_pow : forall x k, 0 <= k -> x ^ 2 ^ (k + 1) = (x * x) ^ 2 ^ k.
Proof.
  move=> x k Hk. rewrite Z.pow_add_r; [|lia|lia]. change (2 ^ 1) with 2. rewrite (Z.mul_comm (2 ^ k)). rewrite Z.pow_mul_r; [|lia|apply Z.pow_nonneg; lia].
  by rewrite Z.pow_2_r.
Qed.
Lemma pow_mod : forall x k n, 0 < n -> 0 <= k -> (x mod n) ^ k mod n = x ^ k mod n.
Proof. move=> x k n Hn Hk. rewrite Zpower_mod; [|lia]. rewrite Z.mod_mod; [|lia]. by rewrite -Zpower_mod; [|lia]. Qed.

(** The loop terminates normally, and an accepting run exhibits x^(2^s) = 1. *)
Lemma sprp_loop_sound : forall n s x, 2 <= n < 2 ^ 64 -> 0 <= x < n ->
  exists b, sprp_loop n s x = Ok b /\ (b = true -> x ^ 2 ^ Z.of_nat s mod n = 1).
Proof.
  move=> n s. elim: s => [|k IH] x Hn Hx; cbn [sprp_loop]; [by exists false|].
  have S2 : x ^ 2 ^ Z.of_nat k.+1 mod n = (x * x mod n) ^ 2 ^ Z.of_nat k mod n.
  { rewrite pow_mod; [|lia|apply Z.pow_nonneg; lia]. rewrite Nat2Z.inj_succ -Z.add_1_r sq_pow //. lia. }
  destruct (Z.eqb_spec x (n - 1)) as [E|N].
  - exists true. split; [by []|]. move=> _. rewrite S2 E.
    have -> : (n - 1) * (n - 1) = 1 + (n - 2) * n by ring. rewrite Z.mod_add; [|lia]. rewrite (Z.mod_small 1 n); [|lia].
    rewrite Z.pow_1_l; [|apply Z.pow_nonneg; lia]. apply Z.mod_small. lia.
  - rewrite fp_mul_ok; [|lia|lia|lia]. cbn [bind]. have B := Z.mod_pos_bound (x * x) n ltac:(lia).
    destruct (IH _ Hn B) as [b [-> Hb]]. exists b. split; [by []|]. move=> /Hb <-. exact S2.
Qed.
Lemma sprp_loop_complete : forall n s x, Znumtheory.prime n -> n < 2 ^ 64 -> 0 <= x < n -> x <> 1 -> x ^ 2 ^ Z.of_nat s mod n = 1 ->
  sprp_loop n s x = Ok true.
Proof.
  move=> n s. elim: s => [|k IH] x Pn Hn Hx N1 E; have B := prime_ge_2 n Pn; cbn [sprp_loop].
  - exfalso. change (2 ^ Z.of_nat 0) with 1 in E. rewrite Z.pow_1_r Z.mod_small in E; lia.
  - destruct (Z.eqb_spec x (n - 1)) as [|N2]; [by []|]. rewrite fp_mul_ok; [|lia|lia|lia]. cbn [bind].
    apply: IH => //.
    + apply Z.mod_pos_bound. lia.
    + move=> X. have D : (n | (x - 1) * (x + 1)).
      { apply Z.mod_divide; [lia|]. have -> : (x - 1) * (x + 1) = x * x - 1 by ring. rewrite Zminus_mod X (Z.mod_small 1 n); [|lia]. by []. }
      apply prime_mult in D; [|exact Pn]. destruct D as [D|D].
      * destruct (Z.eq_dec x 0) as [X0|XN]; [rewrite X0 Z.mod_0_l in X; lia|]. apply Z.divide_pos_le in D; lia.
      * apply Z.divide_pos_le in D; lia.
    + rewrite pow_mod; [|lia|apply Z.pow_nonneg; lia]. rewrite -sq_pow; [|lia]. by rewrite Z.add_1_r -Nat2Z.inj_succ.
Qed.

Lemma is_sprp_sound : forall n a, 2 <= n < 2 ^ 64 -> 0 < a < 2 ^ 64 ->
  exists b, is_sprp n a = Ok b /\ (b = true -> n = a \/ a ^ (n - 1) mod n = 1).
Proof.
  move=> n a Hn Ha. rewrite /is_sprp. destruct (Z.eqb_spec a 0); [lia|]. destruct (Z.eqb_spec (n mod a) 0).
  { exists (n =? a). split; [by []|]. move/Z.eqb_eq. by left. }
  rewrite to_u64_id; [|lia]. have [S1 [S2 S3]] := @ctz_shift (n - 1) ltac:(lia).
  set s := countr_zero64 (n - 1) in S1 S2 S3 |- *. set d := Z.shiftr (n - 1) s in S2 S3 |- *.
  destruct (Z.leb_spec 64 s); [lia|]. rewrite fp_pow_ok; [|lia|lia|lia]. cbn [bind].
  have Hp := Z.pow_pos_nonneg 2 s ltac:(lia) ltac:(lia).
  destruct (Z.eqb_spec (a ^ d mod n) 1) as [E|N].
  - exists true. split; [by []|]. move=> _. right. rewrite S3 Z.pow_mul_r; [|lia|lia]. rewrite -pow_mod; [|lia|lia]. rewrite E Z.pow_1_l; [|lia]. apply Z.mod_small. lia.
  - have B := Z.mod_pos_bound (a ^ d) n ltac:(lia). destruct (@sprp_loop_sound n (Z.to_nat s) (a ^ d mod n) Hn B) as [b [-> Hb]].
    exists b. split; [by []|]. move/Hb. rewrite Z2Nat.id; [|lia]. rewrite pow_mod; [|lia|lia]. rewrite -Z.pow_mul_r; [|lia|lia]. rewrite -S3. by right.
Qed.
Lemma is_sprp_prime : forall n a, Znumtheory.prime n -> n < 2 ^ 64 -> 1 < a < 2 ^ 64 -> ~ (n | a) -> is_sprp n a = Ok true.
Proof.
  move=> n a Pn Hn Ha Nd. have B := prime_ge_2 n Pn. rewrite /is_sprp. destruct (Z.eqb_spec a 0); [lia|]. destruct (Z.eqb_spec (n mod a) 0) as [E|_].
  { exfalso. apply Z.mod_divide in E; [|lia]. destruct (prime_divisors n Pn a E) as [X|[X|[X|X]]]; try lia. apply: Nd. rewrite X. apply Z.divide_refl. }
  rewrite to_u64_id; [|lia]. have [S1 [S2 S3]] := @ctz_shift (n - 1) ltac:(lia).
  set s := countr_zero64 (n - 1) in S1 S2 S3 |- *. set d := Z.shiftr (n - 1) s in S2 S3 |- *.
  destruct (Z.leb_spec 64 s); [lia|]. rewrite fp_pow_ok; [|lia|lia|lia]. cbn [bind].
  destruct (Z.eqb_spec (a ^ d mod n) 1) as [E|N]; [by []|].
  have Hp := Z.pow_pos_nonneg 2 s ltac:(lia) ltac:(lia).
  apply: sprp_loop_complete => //; [apply Z.mod_pos_bound; lia|]. rewrite Z2Nat.id; [|lia]. rewrite pow_mod; [|lia|lia].
  rewrite -Z.pow_mul_r; [|lia|lia]. rewrite -S3. apply: fermat_Z => //. lia.
Qed.
Lemma sprp_loop_zero : forall n s, 2 <= n < 2 ^ 64 -> sprp_loop n s 0 = Ok false.
Proof.
  move=> n s Hn. elim: s => [//|k IH]. cbn [sprp_loop]. destruct (Z.eqb_spec 0 (n - 1)); [lia|].
  rewrite fp_mul_ok; [|lia|lia|lia]. cbn [bind]. rewrite Z.mod_0_l; [|lia]. exact IH.
Qed.
Lemma is_sprp_divides : forall n a, Znumtheory.prime n -> n < 2 ^ 64 -> 0 < a < 2 ^ 64 -> (n | a) -> n <> a -> is_sprp n a = Ok false.
Proof.
  move=> n a Pn Hn Ha D Na. have B := prime_ge_2 n Pn. have L := Z.divide_pos_le _ _ (proj1 Ha) D.
  rewrite /is_sprp. destruct (Z.eqb_spec a 0); [lia|]. rewrite Z.mod_small; [|lia]. destruct (Z.eqb_spec n 0); [lia|].
  rewrite to_u64_id; [|lia]. have [S1 [S2 S3]] := @ctz_shift (n - 1) ltac:(lia).
  set s := countr_zero64 (n - 1) in S1 S2 S3 |- *. set d := Z.shiftr (n - 1) s in S2 S3 |- *.
  destruct (Z.leb_spec 64 s); [lia|]. rewrite fp_pow_ok; [|lia|lia|lia]. cbn [bind].
  have -> : a ^ d mod n = 0.
  { rewrite -pow_mod; [|lia|lia]. have -> : a mod n = 0 by apply Z.mod_divide; [lia|]. rewrite Z.pow_0_l; [|lia]. apply Z.mod_0_l. lia. }
  destruct (Z.eqb_spec 0 1); [lia|]. apply sprp_loop_zero. lia.
Qed.

Lemma bases_range : forall a, In a sprp_bases -> 1 < a < 2 ^ 64.
Proof. move=> a. rewrite /sprp_bases. move=> H. repeat (destruct H as [<-|H]; [lia|]). by []. Qed.
Lemma sprp_all_sound : forall n l, 2 <= n < 2 ^ 64 -> (forall a, In a l -> 1 < a < 2 ^ 64) ->
  exists b, sprp_all n l = Ok b /\ (b = true -> forall a, In a l -> n = a \/ a ^ (n - 1) mod n = 1).
Proof.
  move=> n l Hn. elim: l => [|a t IH] Hl; cbn [sprp_all]; [by exists true|].
  have Ha := Hl a (or_introl erefl). destruct (@is_sprp_sound n a Hn ltac:(lia)) as [b [-> Hb]]. cbn [bind]. case: b Hb => Hb; [|by exists false].
  destruct IH as [c [-> Hc]]; [by move=> x Hx; apply: Hl; right|]. exists c. split; [by []|]. move=> Ec x [<-|I]; [exact: Hb|exact: Hc].
Qed.
Lemma sprp_all_prime : forall n l, Znumtheory.prime n -> n < 2 ^ 64 -> (forall a, In a l -> 1 < a < 2 ^ 64 /\ n <> a) ->
  exists b, sprp_all n l = Ok b /\ (b = true <-> forall a, In a l -> ~ (n | a)).
Proof.
  move=> n l Pn Hn. elim: l => [|a t IH] Hl; cbn [sprp_all]; [by exists true|].
  destruct (Hl a (or_introl erefl)) as [Ha Na]. have B := prime_ge_2 n Pn.
  destruct (Zdivide_dec n a) as [D|D].
  - rewrite is_sprp_divides //; [|lia]. exists false. split; [by []|]. split; [by []|]. by move/(_ a (or_introl erefl)).
  - rewrite is_sprp_prime //. cbn [bind]. destruct IH as [c [-> Hc]]; [by move=> x Hx; apply: Hl; right|]. exists c. split; [by []|].
    rewrite Hc. split; [move=> H x [<-//|I]; exact: H|]. by move=> H x I; apply: H; right.
Qed.

(** is_prime on every n > 1: total; on multiples of 2, 3, 5, 7 exact; acceptance implies the
    Fermat test for every base; and exact on primes. *)
Theorem is_prime_sound : forall n, 2 <= n < 2 ^ 64 ->
  exists b, is_prime n = Ok b /\
    (forall q, In q [:: 2; 3; 5; 7] -> n mod q = 0 -> (b = true <-> Znumtheory.prime n)) /\
    (b = true -> n = 2 \/ n = 3 \/ n = 5 \/ n = 7 \/ forall a, In a [:: 2; 325; 9375; 28178; 450775; 9780504; 1795265022] -> n = a \/ a ^ (n - 1) mod n = 1).
Proof.
  move=> n Hn. rewrite /is_prime.
  have P5 : Znumtheory.prime 5.
  { apply prime_intro; [lia|]. move=> x Hx. have : x = 1 \/ x = 2 \/ x = 3 \/ x = 4 by lia. move=> [->|[->|[->| ->]]]; apply Zgcd_1_rel_prime; reflexivity. }
  have P7 : Znumtheory.prime 7.
  { apply prime_intro; [lia|]. move=> x Hx. have : x = 1 \/ x = 2 \/ x = 3 \/ x = 4 \/ x = 5 \/ x = 6 by lia. move=> [->|[->|[->|[->|[->| ->]]]]]; apply Zgcd_1_rel_prime; reflexivity. }
  have PS : forall q, In q [:: 2; 3; 5; 7] -> Znumtheory.prime q.
  { move=> q [<-|[<-|[<-|[<-|[]]]]]; [exact prime_2|exact prime_3|exact P5|exact P7]. }
  have T : forall l, (forall q, In q l -> Znumtheory.prime q) ->
    match trial n l with
    | Some b => (b = true <-> Znumtheory.prime n) /\ (b = true -> In n l)
    | None => forall q, In q l -> n mod q <> 0
    end.
  { elim=> [|q t IH] Hq; cbn [trial]; [by move=> q []|]. have Pq := Hq q (or_introl erefl). destruct (Z.eqb_spec (n mod q) 0) as [E|N].
    - have G := prime_ge_2 q Pq. split; [|by move/Z.eqb_eq => ->; left]. rewrite Z.eqb_eq. split; [by move=> ->|].
      move=> Pn. apply Z.mod_divide in E; [|lia]. destruct (prime_divisors n Pn q E) as [X|[X|[X|X]]]; lia.
    - have {}IH := IH (fun q H => Hq q (or_intror H)). destruct (trial n t) as [b|]; [destruct IH as [I1 I2]; split; [exact I1|by move/I2; right]|].
      by move=> x [<-//|I]; exact: IH. }
  have {}T := T _ PS. rewrite -/small_primes in T. destruct (trial n small_primes) as [b|].
  - destruct T as [T1 T2]. exists b. split; [by []|]. split; [by []|]. move/T2. cbn. move=> H. intuition.
  - destruct (@sprp_all_sound n sprp_bases Hn (@bases_range)) as [b [-> Hb]]. exists b. split; [by []|]. split.
    + move=> q Iq E. by have := T q Iq.
    + move/Hb => H. by right; right; right; right.
Qed.
Theorem is_prime_prime : forall n, Znumtheory.prime n -> n < 2 ^ 64 ->
  exists b, is_prime n = Ok b /\
    (b = true <-> n <= 7 \/ forall a, In a [:: 2; 325; 9375; 28178; 450775; 9780504; 1795265022] -> ~ (n | a)).
Proof.
  move=> n Pn Hn. have B := prime_ge_2 n Pn. destruct (@is_prime_sound n ltac:(lia)) as [b [E [H1 H2]]].
  destruct (Z.le_gt_cases n 7) as [L|G].
  - exists b. split; [exact E|]. split; [by left|]. move=> _.
    have C : n = 2 \/ n = 3 \/ n = 5 \/ n = 7.
    { have : n = 2 \/ n = 3 \/ n = 4 \/ n = 5 \/ n = 6 \/ n = 7 by lia. move=> [X|[X|[X|[X|[X|X]]]]]; try lia; exfalso.
      - have D : (2 | n) by (exists 2; lia). destruct (prime_divisors n Pn 2 D) as [Y|[Y|[Y|Y]]]; lia.
      - have D : (2 | n) by (exists 3; lia). destruct (prime_divisors n Pn 2 D) as [Y|[Y|[Y|Y]]]; lia. }
    apply/(H1 n); [cbn; intuition|apply Z.mod_same; lia|exact Pn].
  - move: E. rewrite /is_prime.
    have T : trial n small_primes = None.
    { have Q : forall q, 2 <= q <= 7 -> (n mod q =? 0) = false.
      { move=> q Hq. apply/Z.eqb_neq => E. apply Z.mod_divide in E; [|lia]. destruct (prime_divisors n Pn q E) as [Y|[Y|[Y|Y]]]; lia. }
      rewrite /small_primes. cbn [trial]. rewrite !Q //; lia. }
    rewrite T. move=> E.
    have Nb : forall a, In a sprp_bases -> 1 < a < 2 ^ 64 /\ n <> a.
    { move=> a Ia. split; [exact: bases_range|]. move=> X.
      have K : forall q, 1 < q -> (q | a) -> a <> q -> False.
      { move=> q Hq D Nq. rewrite -X in D Nq. destruct (prime_divisors n Pn q D) as [Y|[Y|[Y|Y]]]; lia. }
      rewrite /sprp_bases in Ia.
      destruct Ia as [Ea|Ia]; [lia|].
      repeat (destruct Ia as [Ea|Ia]; [rewrite -Ea in K; solve [apply: (K 5); [lia|by apply Z.mod_divide|lia] | apply: (K 3); [lia|by apply Z.mod_divide|lia] | apply: (K 2); [lia|by apply Z.mod_divide|lia]]|]).
      by []. }
    destruct (@sprp_all_prime n sprp_bases Pn Hn Nb) as [c [Ec Hc]]. exists b. split; [exact E|].
    rewrite Ec in E. injection E as <-. rewrite Hc. rewrite /sprp_bases. split; [by right|]. move=> [|//]. lia.
Qed.
