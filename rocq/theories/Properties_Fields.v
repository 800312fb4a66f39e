(** Properties of the moduli of signatures (sig.cc:141-159): C78. *)
From Coq Require Import ZArith List Bool Lia Znumtheory.
From Verif Require Import Base SeriesModel SigModel SigProofs SigRoots SigPrime SigFieldsModel Pocklington SigFields SigFieldsEnd Properties_Sig.
Import ListNotations.
Open Scope Z_scope.

(** Whatever the generator draws, a search that ends has found these four numbers: no draw makes it
    throw, run into undefined behaviour, or find others. *)
Theorem C78_fields : forall fuel bits, fields_run fuel bits = None \/
  fields_run fuel bits = Some (Ok [18446744073709551359; 18446744073709551263; 18446744073709549327; 18446744073709548503]).
Proof. exact fields_run_spec. Qed.
Print Assumptions C78_fields.

(** They are primes ... *)
Theorem C78_prime : Forall prime [18446744073709551359; 18446744073709551263; 18446744073709549327; 18446744073709548503].
Proof. apply Forall_forall. intros p Hp. apply candidates_prime, four_candidates, Hp. Qed.
Print Assumptions C78_prime.

(** ... and the largest ones of 64 bits that are 7 modulo 8 and have four successive least square
    roots of 2: sqrt 2 = r1 < p/2, sqrt r1 = r2 < p/2, sqrt r2 = r3 < p/2, sqrt r3 = r4 < p/2. *)
Theorem C78_largest : forall p, 18446744073709548503 <= p < 2 ^ 64 ->
  (In p [18446744073709551359; 18446744073709551263; 18446744073709549327; 18446744073709548503] <->
   prime p /\ p mod 8 = 7 /\
   exists r1 r2 r3 r4, (0 <= r1 /\ 2 * r1 < p /\ (r1 * r1) mod p = 2) /\ (0 <= r2 /\ 2 * r2 < p /\ (r2 * r2) mod p = r1) /\
     (0 <= r3 /\ 2 * r3 < p /\ (r3 * r3) mod p = r2) /\ (0 <= r4 /\ 2 * r4 < p /\ (r4 * r4) mod p = r3)).
Proof.
  intros p Hp. assert (Rt : rooted p 4 2 <-> exists r1 r2 r3 r4, (0 <= r1 /\ 2 * r1 < p /\ (r1 * r1) mod p = 2) /\ (0 <= r2 /\ 2 * r2 < p /\ (r2 * r2) mod p = r1) /\
     (0 <= r3 /\ 2 * r3 < p /\ (r3 * r3) mod p = r2) /\ (0 <= r4 /\ 2 * r4 < p /\ (r4 * r4) mod p = r3)).
  { cbn [rooted]. split.
    - intros (a & A1 & A2 & A3 & b & B1 & B2 & B3 & c & C1 & C2 & C3 & d & D1 & D2 & D3 & _). exists a, b, c, d. auto 10.
    - intros (a & b & c & d & (A1 & A2 & A3) & (B1 & B2 & B3) & (C1 & C2 & C3) & D1 & D2 & D3).
      exists a. do 3 (split; [assumption|]). exists b. do 3 (split; [assumption|]). exists c. do 3 (split; [assumption|]). exists d. auto. }
  rewrite <- Rt. change (In p four <-> prime p /\ p mod 8 = 7 /\ rooted p 4 2). split.
  - intros I. pose proof (four_candidates p I) as C. destruct (candidates_four p C) as (M & _ & E).
    split; [apply candidates_prime; exact C|]. split; [exact M|]. apply E. exact I.
  - intros (P & M & R). destruct (filter_range p Hp M) as (b & E & Hb). rewrite (accepted p ltac:(lia) P) in E. injection E as <-.
    assert (C : In p candidates) by (apply Hb; reflexivity). apply (candidates_four p C). exact R.
Qed.
Print Assumptions C78_largest.

(** The search ends on every stream of values that keeps offering good draws: for every prime of the
    searched range and n <> 0, at every position, some later value a has a^2 - n without a square root. *)
Theorem C78_ends : forall s : nat -> Z,
  (forall p n i, prime p -> p mod 8 = 7 -> 18446744073709548503 <= p < 2 ^ 64 -> 0 < n < p -> exists k, ~ exists y, 0 <= y < p /\ (y * y) mod p = ((s (i + k)%nat mod p) * (s (i + k)%nat mod p) - n) mod p) ->
  forall fuel, 3113 <= Z.of_nat fuel -> exists m, forall len, (m <= len)%nat ->
  fields_run fuel (map s (seq 0 len)) = Some (Ok [18446744073709551359; 18446744073709551263; 18446744073709549327; 18446744073709548503]).
Proof.
  intros s H fuel Hf. apply (fields_run_ends s); [|exact Hf]. intros p n i Ip Hn.
  destruct (candidates_four p Ip) as (M & B & _). exact (H p n i (candidates_prime p Ip) M B Hn).
Qed.
Print Assumptions C78_ends.
(** A stream with every natural number infinitely often is such a stream. *)
Definition all_values (n : nat) : Z := Z.of_nat (n - Nat.sqrt n * Nat.sqrt n).
Lemma all_values_hit : forall v i, exists k, all_values (i + k) = Z.of_nat v.
Proof.
  intros v i. set (m := (i + v)%nat). exists (m * m + v - i)%nat. assert (i <= m * m + v)%nat by (unfold m; nia).
  replace (i + (m * m + v - i))%nat with (m * m + v)%nat by lia. unfold all_values. rewrite (Nat.sqrt_unique (m * m + v) m) by (unfold m; nia).
  f_equal. lia.
Qed.
Example C78_ends_example : exists m, forall len, (m <= len)%nat ->
  fields_run (Z.to_nat 3113) (map all_values (seq 0 len)) = Some (Ok [18446744073709551359; 18446744073709551263; 18446744073709549327; 18446744073709548503]).
Proof.
  apply C78_ends; [|rewrite Z2Nat.id; lia]. intros p n i Pp M Hp Hn.
  destruct (@sqrt_draw_exists p Pp (odd_p p (mod84 p M)) n Hn) as (a & Ha & G). destruct (all_values_hit (Z.to_nat a) i) as (k & E).
  exists k. rewrite E, Z2Nat.id, (Z.mod_small a) by lia. exact G.
Qed.
(** A run on a small modulus: with 23 for p, 2 has a least root 5, which has none. *)
Example C78_small : takes 23 [1; 0; 7] = Some (Ok false, [0; 7]) /\ sqrt_from 23 2 [25; 23; 7] = Some (Ok 5, [7]) /\ rooted 23 1 2 /\ ~ rooted 23 2 2.
Proof.
  split; [vm_compute; reflexivity|]. split; [vm_compute; reflexivity|]. rewrite <- !(rooted_b_ok 23 prime_23 eq_refl) by lia. split; [|intros E]; vm_compute in *; congruence.
Qed.

(** -1 has no square root, so that x + i y has an inverse unless x = y = 0. *)
Theorem C78_complex : Forall (fun p => forall x y, 0 <= x < p -> 0 <= y < p -> (x * x + y * y) mod p = 0 -> x = 0 /\ y = 0)
  [18446744073709551359; 18446744073709551263; 18446744073709549327; 18446744073709548503].
Proof.
  apply Forall_forall. intros p Hp x y Hx Hy E. pose proof (four_candidates p Hp) as C. pose proof (candidates_prime p C) as P.
  destruct (candidates_four p C) as (M & B & _). pose proof (no_i p P (mod84 p M)) as NI. unfold last_field in B.
  assert (Y : y = 0).
  { destruct (Z.eq_dec y 0) as [|N]; [assumption|]. exfalso. apply NI.
    destruct (C54_inv_prime p y P (proj2 B) ltac:(lia)) as (v & _ & Hv & Ev). exists ((x * v) mod p). split; [apply Z.mod_pos_bound; lia|].
    rewrite <- Z.mul_mod by lia. apply Z.mod_divide in E; [|lia]. destruct E as [c Ec].
    assert (Q : (v * y * (v * y)) mod p = 1) by (rewrite Z.mul_mod, Ev by lia; apply Z.mod_1_l; lia).
    replace (x * v * (x * v)) with (- (v * y * (v * y)) + (c * v * v) * p) by (replace (c * v * v * p) with ((c * p) * (v * v)) by ring; rewrite <- Ec; ring).
    rewrite Z.mod_add by lia. rewrite Z_mod_nz_opp_full by (rewrite Q; lia). rewrite Q. reflexivity. }
  split; [|exact Y]. subst y. replace (x * x + 0 * 0) with (x * x) in E by ring. apply Z.mod_divide in E; [|lia].
  apply prime_mult in E; [|exact P]. destruct (Z.eq_dec x 0) as [|N]; [assumption|]. destruct E as [E|E]; apply Z.divide_pos_le in E; lia.
Qed.
Print Assumptions C78_complex.

(** With these moduli the operations on signatures form a field in every component: division by
    a signature without zero components inverts multiplication. *)
Theorem C78_sig_inv : let fields := [18446744073709551359; 18446744073709551263; 18446744073709549327; 18446744073709548503] in
  forall s, Forall2 (fun p x => 0 < x < p) fields s ->
  exists r, sig_inv fields s = Ok r /\ Forall2 (fun p x => 0 < x < p) fields r /\ sig_mul fields r s = Ok [1; 1; 1; 1].
Proof.
  cbv zeta. intros s H. pose proof C78_prime as P.
  repeat (match goal with H : Forall2 _ (_ :: _) _ |- _ => inversion H; clear H; subst end).
  match goal with H : Forall2 _ [] _ |- _ => inversion H; clear H; subst end.
  repeat (match goal with H : Forall _ (_ :: _) |- _ => inversion H; clear H; subst end).
  repeat (match goal with Hx : 0 < ?x < ?p, Pp : prime ?p |- _ =>
    let r := fresh "r" in let E := fresh "E" in let B := fresh "B" in let M := fresh "M" in
    destruct (C54_inv_prime p x Pp ltac:(lia) Hx) as (r & E & B & M); revert Hx; clear Pp end). intros.
  eexists. split; [unfold sig_inv; cbn [map2r]; repeat match goal with E : fp_inv ?p ?x = Ok _ |- _ => rewrite E; clear E; cbn [bind] end; reflexivity|].
  split; [repeat constructor; lia|]. unfold sig_mul. cbn [map2r].
  rewrite !fp_mul_ok by lia. cbn [bind]. repeat match goal with M : _ mod _ = 1 |- _ => rewrite M; clear M end. reflexivity.
Qed.
Print Assumptions C78_sig_inv.
Example C78_sig_inv_example :
  let fields := [18446744073709551359; 18446744073709551263; 18446744073709549327; 18446744073709548503] in
  Forall2 (fun p x => 0 < x < p) fields [2; 3; 5; 7] /\ sig_inv fields [2; 1; 1; 1] = Ok [9223372036854775680; 1; 1; 1].
Proof. split; [repeat constructor; lia|vm_compute; reflexivity]. Qed.

(** Two integers less than 2^255 apart with the same signature are equal. *)
Theorem C78_separates : forall a b, Z.abs (a - b) < 2 ^ 255 ->
  Forall (fun p => a mod p = b mod p) [18446744073709551359; 18446744073709551263; 18446744073709549327; 18446744073709548503] -> a = b.
Proof.
  intros a b Hab H. assert (D : (prodZ four | a - b)).
  { apply prod_divides; [exact C78_prime|vm_compute; reflexivity|]. intros q Iq. rewrite Forall_forall in H. specialize (H q Iq).
    assert (q <> 0) by (destruct Iq as [<- | [<- | [<- | [<- | []]]]]; lia).
    apply Z.mod_divide; [assumption|]. rewrite Zminus_mod, H, Z.sub_diag. apply Z.mod_0_l. assumption. }
  destruct D as [c Hc]. assert (Hb : 2 ^ 255 < prodZ four) by (vm_compute; reflexivity). destruct (Z.eq_dec c 0) as [->|N]; [lia|]. exfalso.
  assert (prodZ four <= Z.abs (a - b)); [|lia]. rewrite Hc, Z.abs_mul, (Z.abs_eq (prodZ four)) by lia. nia.
Qed.
Print Assumptions C78_separates.
Example C78_separates_example : let p := 18446744073709551359 in let q := 18446744073709551263 in
  (p * q) mod p = 0 mod p /\ (p * q) mod q = 0 mod q /\ (p * q) mod 18446744073709549327 <> 0.
Proof. vm_compute. repeat split. discriminate. Qed.
