(** Properties of sig.h / sig.cc: C53 - C56. *)
From Coq Require Import ZArith List Bool Lia Znumtheory.
From Verif Require Import Base SeriesModel SigModel SigProofs SigRoots SigPrime.
Import ListNotations.
Open Scope Z_scope.

(** * C53: the operations of Fp are exact modulo p, for every 64-bit modulus *)
Theorem C53_fp_ops : forall p a b, 0 < p < 2 ^ 64 -> 0 <= a < p -> 0 <= b < p ->
  fp_neg p a = (- a) mod p /\
  fp_add p a b = Ok ((a + b) mod p) /\
  fp_sub p a b = Ok ((a - b) mod p) /\
  fp_mul p a b = Ok ((a * b) mod p).
Proof.
  intros p a b Hp Ha Hb. split; [apply fp_neg_ok; lia|]. split; [apply fp_add_ok; lia|]. split; [apply fp_sub_ok; lia|apply fp_mul_ok; lia].
Qed.
Print Assumptions C53_fp_ops.
(** The largest modulus and operands. *)
Example C53_fp_ops_example :
  let p := 18446744073709551615 in
  fp_add p (p - 1) (p - 1) = Ok (p - 2) /\ fp_mul p (p - 1) (p - 1) = Ok 1 /\ fp_sub p 0 (p - 1) = Ok 1 /\ fp_neg p 1 = p - 1.
Proof. vm_compute. auto. Qed.

Theorem C53_pow : forall p a n, 1 < p < 2 ^ 64 -> 0 <= a < p -> 0 <= n < 2 ^ 64 -> fp_pow p a n = Ok (a ^ n mod p).
Proof. intros p a n Hp Ha Hn. apply fp_pow_ok; lia. Qed.
Print Assumptions C53_pow.
Example C53_pow_example : fp_pow 1000003 2 1000002 = Ok 1 /\ fp_pow 1000003 5 3 = Ok 125.
Proof. vm_compute. auto. Qed.
(** For p = 1 the zeroth power is not reduced, so p > 1 is needed. *)
Theorem C53_pow_one_refuted : exists a, 0 <= a < 1 /\ fp_pow 1 a 0 <> Ok (a ^ 0 mod 1).
Proof. exists 0. split; [lia|]. vm_compute. discriminate. Qed.
Print Assumptions C53_pow_one_refuted.

(** Signatures: each operation acts on every component modulo its own modulus, and the
    constructor from int gives the residues of that integer, negative ones included. *)
Theorem C53_sig_ops : forall fields s t, Forall modulus fields -> reduced fields s -> reduced fields t ->
  exists rn ra rs rm,
    sig_neg fields s = Ok rn /\ sig_add fields s t = Ok ra /\ sig_sub fields s t = Ok rs /\ sig_mul fields s t = Ok rm /\
    reduced fields rn /\ reduced fields ra /\ reduced fields rs /\ reduced fields rm /\
    forall i, (i < length fields)%nat ->
      nth i rn 0 = (- nth i s 0) mod nth i fields 0 /\
      nth i ra 0 = (nth i s 0 + nth i t 0) mod nth i fields 0 /\
      nth i rs 0 = (nth i s 0 - nth i t 0) mod nth i fields 0 /\
      nth i rm 0 = (nth i s 0 * nth i t 0) mod nth i fields 0.
Proof.
  intros fields s t Hf Hs Ht.
  destruct (sig_neg_ok fields s Hf Hs) as (rn & E1 & R1 & N1). destruct (sig_add_ok fields s t Hf Hs Ht) as (ra & E2 & R2 & N2).
  destruct (sig_sub_ok fields s t Hf Hs Ht) as (rs & E3 & R3 & N3). destruct (sig_mul_ok fields s t Hf Hs Ht) as (rm & E4 & R4 & N4).
  exists rn, ra, rs, rm. repeat (split; [assumption|]). intros i Hi. repeat split; auto.
Qed.
Print Assumptions C53_sig_ops.
Theorem C53_sig_int : forall fields a, Forall (fun p => 2 ^ 31 < p < 2 ^ 64) fields -> - 2 ^ 31 <= a < 2 ^ 31 ->
  sig_int fields a = map (fun p => a mod p) fields.
Proof. exact sig_int_ok. Qed.
Print Assumptions C53_sig_int.
(** unsmall recognises exactly the signatures of -32 .. 32 and returns that integer. *)
Theorem C53_unsmall : forall fields s, fields <> [] -> Forall (fun p => 2 ^ 31 < p < 2 ^ 64) fields ->
  exists o, unsmall fields s = Ok o /\ (forall i, o = Some i <-> Z.abs i <= 32 /\ s = map (fun p => i mod p) fields).
Proof.
  intros fields s N Hf. destruct (unsmall_spec fields s N Hf) as (o & E & H). exists o. split; [exact E|]. intros i. rewrite H.
  split; intros [B X]; (split; [exact B|]); rewrite X, sig_int_ok by (try assumption; lia); reflexivity.
Qed.
Print Assumptions C53_unsmall.
Example C53_sig_example :
  let fs := [18446744073709551557; 18446744073709551533] in
  Forall (fun p => 2 ^ 31 < p < 2 ^ 64) fs /\ sig_int fs (-3) = [18446744073709551554; 18446744073709551530] /\
  sig_add fs (sig_int fs (-3)) (sig_int fs 5) = Ok (sig_int fs 2) /\ unsmall fs (sig_int fs (-3)) = Ok (Some (-3)) /\ unsmall fs (sig_int fs 33) = Ok None.
Proof. split; [repeat constructor|]. vm_compute. auto. Qed.

(** * C54: modular inverse.  Never UB; the inverse exactly when there is one, an assertion failure otherwise. *)
Theorem C54_inv : forall p x, 2 <= p < 2 ^ 64 -> 0 <= x < p ->
  (Z.gcd x p = 1 -> exists r, fp_inv p x = Ok r /\ 0 <= r < p /\ (r * x) mod p = 1) /\
  (Z.gcd x p <> 1 -> fp_inv p x = Throw).
Proof. exact fp_inv_spec. Qed.
Print Assumptions C54_inv.
Theorem C54_inv_prime : forall p x, prime p -> p < 2 ^ 64 -> 0 < x < p ->
  exists r, fp_inv p x = Ok r /\ 0 < r < p /\ (r * x) mod p = 1.
Proof.
  intros p x Pp Hp Hx. pose proof (prime_ge_2 p Pp). destruct (fp_inv_spec p x ltac:(lia) ltac:(lia)) as [H1 _].
  destruct H1 as (r & E & B & M).
  - apply Zgcd_1_rel_prime. apply rel_prime_sym. apply prime_rel_prime; [exact Pp|]. intros D. apply Z.divide_pos_le in D; lia.
  - exists r. split; [exact E|]. split; [|exact M]. assert (r <> 0) by (intros ->; rewrite Z.mul_0_l, Z.mod_0_l in M; lia). lia.
Qed.
Print Assumptions C54_inv_prime.
Theorem C54_sig_inv : forall fields s, Forall (fun p => 2 <= p < 2 ^ 64) fields -> reduced fields s -> Forall2 (fun p x => Z.gcd x p = 1) fields s ->
  exists r, sig_inv fields s = Ok r /\ reduced fields r /\ (forall i, (i < length fields)%nat -> (nth i r 0 * nth i s 0) mod nth i fields 0 = 1).
Proof. exact sig_inv_ok. Qed.
Print Assumptions C54_sig_inv.
Example C54_inv_example :
  fp_inv 18446744073709551557 18446744073709551556 = Ok 18446744073709551556 /\ fp_inv 1000003 2 = Ok 500002 /\ fp_inv 15 6 = Throw /\ fp_inv 7 0 = Throw.
Proof. vm_compute. auto. Qed.

(** * C55: quadratic residues and square roots modulo an odd prime *)
Theorem C55_has_sqrt : forall p, prime p -> p < 2 ^ 64 -> p mod 2 = 1 -> forall a, 0 <= a < p ->
  exists b, has_sqrt p a = Ok b /\ (b = true <-> exists y, 0 <= y < p /\ (y * y) mod p = a).
Proof. intros p Pp Hp Ho a Ha. exact (@has_sqrt_spec p Pp Hp Ho a Ha). Qed.
Print Assumptions C55_has_sqrt.
(** Whatever is drawn, sqrt either is still searching, or returns the root in [0, p/2) of a square,
    or throws on a non-square. *)
Theorem C55_sqrt : forall p, prime p -> p < 2 ^ 64 -> p mod 2 = 1 -> forall n draws, 0 <= n < p -> Forall (fun a => 0 <= a < p) draws ->
  match fp_sqrt p n draws with
  | None => n <> 0 /\ (forall a, In a draws -> exists y, (y * y) mod p = (a * a - n) mod p)
  | Some (Ok r) => 0 <= r /\ 2 * r < p /\ (r * r) mod p = n
  | Some Throw => ~ exists y, (y * y) mod p = n
  | Some UB => False
  end.
Proof.
  intros p Pp Hp Ho n draws Hn Hd. pose proof (prime_ge_2 p Pp) as B.
  assert (S : forall a, is_square p a <-> exists y, (y * y) mod p = a).
  { intros a. split; intros [y Hy]; [exists y; apply Hy|]. exists (y mod p). split; [apply Z.mod_pos_bound; lia|]. rewrite <- Z.mul_mod by lia. exact Hy. }
  destruct (@fp_sqrt_spec p Pp Hp Ho n draws Hn Hd) as [(E & N & H)|[(Sq & r & E & H)|(NS & E)]]; rewrite E.
  - split; [exact N|]. intros a Ha. apply S. specialize (H a Ha). unfold good in H.
    destruct (@has_sqrt_spec p Pp Hp Ho ((a * a - n) mod p)) as (b & _ & Hb); [apply Z.mod_pos_bound; lia|]. destruct b; [apply Hb; reflexivity|].
    exfalso. apply H. intros X. apply Hb in X. discriminate X.
  - exact H.
  - rewrite <- S. exact NS.
Qed.
Print Assumptions C55_sqrt.
(** Two runs that finish agree, whatever their draws. *)
Theorem C55_sqrt_deterministic : forall p, prime p -> p < 2 ^ 64 -> p mod 2 = 1 -> forall n d1 d2 r1 r2, 0 <= n < p ->
  Forall (fun a => 0 <= a < p) d1 -> Forall (fun a => 0 <= a < p) d2 ->
  fp_sqrt p n d1 = Some (Ok r1) -> fp_sqrt p n d2 = Some r2 -> r2 = Ok r1.
Proof.
  intros p Pp Hp Ho n d1 d2 r1 r2 Hn H1 H2 E1 E2.
  pose proof (C55_sqrt p Pp Hp Ho n d1 Hn H1) as S1. pose proof (C55_sqrt p Pp Hp Ho n d2 Hn H2) as S2. rewrite E1 in S1. rewrite E2 in S2.
  destruct S1 as (A1 & A2 & A3). destruct r2 as [r2| |]; [|exfalso; apply S2; exists r1; exact A3|contradiction].
  destruct S2 as (B1 & B2 & B3). f_equal. eapply root_unique; eassumption.
Qed.
Print Assumptions C55_sqrt_deterministic.
(** Some draw ends the search. *)
Theorem C55_sqrt_draw : forall p, prime p -> p < 2 ^ 64 -> p mod 2 = 1 -> forall n, 0 <= n < p ->
  exists a, 0 <= a < p /\ forall draws, Forall (fun a => 0 <= a < p) draws -> In a draws -> fp_sqrt p n draws <> None.
Proof.
  intros p Pp Hp Ho n Hn. destruct (Z.eq_dec n 0) as [->|N].
  - exists 0. split; [lia|]. intros draws _ _. unfold fp_sqrt. discriminate.
  - destruct (@sqrt_draw_exists p Pp Ho n ltac:(lia)) as (a & Ha & G). exists a. split; [exact Ha|]. intros draws Hd Ia E.
    destruct (@fp_sqrt_spec p Pp Hp Ho n draws Hn Hd) as [(_ & _ & H)|[(_ & r & E' & _)|(_ & E')]]; try congruence.
    exact (H a Ia G).
Qed.
Print Assumptions C55_sqrt_draw.
Lemma prime_23 : prime 23.
Proof.
  apply prime_intro; [lia|]. intros n Hn. apply Zgcd_1_rel_prime.
  assert (D : forall k, (k <= 22)%nat -> (1 <= k)%nat -> Z.gcd (Z.of_nat k) 23 = 1).
  { intros k A B. do 23 (destruct k as [|k]; [try lia; reflexivity|]). lia. }
  rewrite <- (Z2Nat.id n) by lia. apply D; lia.
Qed.
Example C55_example : prime 23 /\ has_sqrt 23 2 = Ok true /\ has_sqrt 23 22 = Ok false /\
  fp_sqrt 23 2 [1; 0; 7] = Some (Ok 5) /\ fp_sqrt 23 2 [5] = None /\ fp_sqrt 23 22 [3; 0; 5] = Some Throw.
Proof. split; [exact prime_23|]. vm_compute. auto. Qed.

(** * C56: the primality filter *)
(** Total on n > 1; exact on the multiples of 2, 3, 5, 7; whatever it accepts passes the Fermat
    test for all seven bases. *)
Theorem C56_is_prime_sound : forall n, 2 <= n < 2 ^ 64 ->
  exists b, is_prime n = Ok b /\
    (forall q, In q [2; 3; 5; 7] -> n mod q = 0 -> (b = true <-> prime n)) /\
    (b = true -> n = 2 \/ n = 3 \/ n = 5 \/ n = 7 \/
       forall a, In a [2; 325; 9375; 28178; 450775; 9780504; 1795265022] -> n = a \/ a ^ (n - 1) mod n = 1).
Proof. exact @is_prime_sound. Qed.
Print Assumptions C56_is_prime_sound.
(** On primes: accepted exactly if at most 7 or dividing none of the bases. *)
Theorem C56_is_prime_prime : forall n, prime n -> n < 2 ^ 64 ->
  exists b, is_prime n = Ok b /\
    (b = true <-> n <= 7 \/ forall a, In a [2; 325; 9375; 28178; 450775; 9780504; 1795265022] -> ~ (n | a)).
Proof. exact @is_prime_prime. Qed.
Print Assumptions C56_is_prime_prime.
(** So every prime above the largest base is accepted. *)
Theorem C56_large_primes : forall n, prime n -> 1795265022 < n < 2 ^ 64 -> is_prime n = Ok true.
Proof.
  intros n Pn Hn. destruct (@is_prime_prime n Pn ltac:(lia)) as (b & E & H). rewrite E. f_equal. apply H. right. intros a Ia D.
  apply Z.divide_pos_le in D; cbn in Ia; lia.
Qed.
Print Assumptions C56_large_primes.
(** The unrestricted claim fails: 13 is rejected, since it divides the base 325. *)
Theorem C56_all_primes_refuted : exists n, prime n /\ is_prime n = Ok false.
Proof.
  exists 13. split; [|vm_compute; reflexivity]. apply prime_intro; [lia|]. intros n Hn. apply Zgcd_1_rel_prime.
  assert (D : forall k, (k <= 12)%nat -> (1 <= k)%nat -> Z.gcd (Z.of_nat k) 13 = 1).
  { intros k A B. do 13 (destruct k as [|k]; [try lia; reflexivity|]). lia. }
  rewrite <- (Z2Nat.id n) by lia. apply D; lia.
Qed.
Print Assumptions C56_all_primes_refuted.
Example C56_example : map is_prime [2; 9; 11; 23; 121; 561; 18446744073709551557; 18446744073709551559] =
  [Ok true; Ok false; Ok true; Ok true; Ok false; Ok false; Ok true; Ok false].
Proof. vm_compute. reflexivity. Qed.
