(** Primality certificates: trial division and Pocklington's criterion. *)
From Coq Require Import ZArith List Bool Lia Znumtheory Zpow_facts.
From Verif Require Import SigProofs SigRoots SigPrime.
Import ListNotations.
Open Scope Z_scope.

Lemma prime_divisor : forall k n, 1 < n < Z.of_nat k -> exists r, prime r /\ (r | n).
Proof.
  induction k as [|k IH]; intros n Hn; [lia|]. destruct (prime_dec n) as [P|N].
  - exists n. split; [exact P|apply Z.divide_refl].
  - destruct (not_prime_divide n ltac:(lia) N) as (d & Hd & D). destruct (IH d ltac:(lia)) as (r & P & R).
    exists r. split; [exact P|]. eapply Z.divide_trans; eassumption.
Qed.
Lemma small_divisor : forall n, 1 < n -> ~ prime n -> exists r, prime r /\ (r | n) /\ r * r <= n.
Proof.
  intros n Hn N. destruct (not_prime_divide n ltac:(lia) N) as (d & Hd & [e He]).
  assert (E : 1 < e) by nia.
  assert (X : exists m, 1 < m /\ (m | n) /\ m * m <= n).
  { destruct (Z.le_gt_cases d e).
    - exists d. split; [lia|]. split; [exists e; exact He|]. nia.
    - exists e. split; [lia|]. split; [exists d; lia|]. nia. }
  destruct X as (m & M1 & M2 & M3). destruct (prime_divisor (S (Z.to_nat m)) m ltac:(lia)) as (r & P & R).
  exists r. split; [exact P|]. split; [eapply Z.divide_trans; eassumption|]. pose proof (prime_ge_2 r P).
  assert (r <= m) by (apply Z.divide_pos_le; [lia|exact R]). nia.
Qed.

(** ** Trial division *)
Fixpoint no_divisor (fuel : nat) (d n : Z) : bool :=
  match fuel with
  | O => false
  | S f => if n <? d * d then true else if n mod d =? 0 then false else no_divisor f (d + 1) n
  end.
Lemma no_divisor_ok : forall f d n, 2 <= d -> no_divisor f d n = true -> forall r, d <= r -> r * r <= n -> ~ (r | n).
Proof.
  induction f as [|f IH]; intros d n Hd H r Hr Hrr; cbn [no_divisor] in H; [discriminate H|].
  destruct (Z.ltb_spec n (d * d)); [nia|]. destruct (Z.eqb_spec (n mod d) 0) as [|Nz]; [discriminate H|].
  destruct (Z.eq_dec r d) as [->|]; [|apply (IH (d + 1)); lia || assumption].
  intros D. apply Nz. apply Z.mod_divide; [lia|exact D].
Qed.
Definition trial_prime (n : Z) : bool := (1 <? n) && no_divisor 500 2 n.
Lemma trial_prime_ok : forall n, trial_prime n = true -> prime n.
Proof.
  intros n H. apply andb_true_iff in H. destruct H as [H1 H2]. apply Z.ltb_lt in H1.
  destruct (prime_dec n) as [P|N]; [exact P|]. exfalso.
  destruct (small_divisor n H1 N) as (r & P & D & B). pose proof (prime_ge_2 r P).
  exact (no_divisor_ok 500 2 n ltac:(lia) H2 r ltac:(lia) B D).
Qed.

(** ** Pocklington *)
Lemma pow_mod_1 : forall b k r, 1 < r -> 0 <= k -> b mod r = 1 -> b ^ k mod r = 1.
Proof. intros b k r Hr Hk H. rewrite Zpower_mod, H by lia. rewrite Z.pow_1_l by lia. apply Z.mod_1_l. lia. Qed.

Lemma order_q : forall r q b, prime r -> prime q -> 0 <= b -> b ^ q mod r = 1 -> b mod r <> 1 -> (q | r - 1).
Proof.
  intros r q b Pr Pq Hb E N. pose proof (prime_ge_2 r Pr) as R2. pose proof (prime_ge_2 q Pq) as Q2.
  assert (ND : ~ (r | b)).
  { intros D. apply Z.mod_divide in D; [|lia]. rewrite Zpower_mod, D, Z.pow_0_l, Z.mod_0_l in E by lia. discriminate E. }
  pose proof (@fermat_Z r b Pr Hb ND) as F. destruct (Zdivide_dec q (r - 1)) as [D|D]; [exact D|]. exfalso.
  destruct (Z.eq_dec r 2) as [->|R3]; [change (2 - 1) with 1 in F; rewrite Z.pow_1_r in F; contradiction|].
  assert (RP : rel_prime q (r - 1)) by (apply prime_rel_prime; assumption).
  apply rel_prime_bezout in RP. destruct RP as [u v Huv].
  set (u' := u mod (r - 1)). pose proof (Z.mod_pos_bound u (r - 1) ltac:(lia)) as BU. fold u' in BU.
  set (k := u / (r - 1) * q + v).
  assert (EK : u' * q = 1 + (r - 1) * (- k)).
  { unfold u', k. rewrite Z.mod_eq by lia. transitivity ((u * q + v * (r - 1)) + (r - 1) * - (u / (r - 1) * q + v)); [ring|rewrite Huv; reflexivity]. }
  assert (K0 : 0 <= - k) by nia.
  assert (K1 : 0 <= (r - 1) * - k) by (apply Z.mul_nonneg_nonneg; lia).
  apply N. transitivity (b ^ (u' * q) mod r).
  - rewrite EK, Z.pow_add_r, Z.pow_1_r, Z.pow_mul_r by lia. rewrite Z.mul_mod, (pow_mod_1 (b ^ (r - 1)) (- k) r), Z.mul_1_r, Z.mod_mod by (lia || exact F). reflexivity.
  - rewrite (Z.mul_comm u' q), Z.pow_mul_r by lia. apply pow_mod_1; [lia|lia|exact E].
Qed.

Definition powmod (n a k : Z) : Z := Zpow_mod a k n.
Fixpoint prodZ (l : list Z) : Z := match l with [] => 1 | x :: t => x * prodZ t end.
Fixpoint distinct (l : list Z) : bool := match l with [] => true | x :: t => forallb (fun y => negb (x =? y)) t && distinct t end.
Definition pock (n a : Z) (qs : list Z) : bool :=
  (1 <? n) && (0 <? a) && (powmod n a (n - 1) =? 1) && distinct qs && (n <=? prodZ qs * prodZ qs) && (0 <? prodZ qs) &&
  forallb (fun q => ((n - 1) mod q =? 0) && (Z.gcd (powmod n a ((n - 1) / q) - 1) n =? 1)) qs.

Lemma prod_divides : forall m qs, Forall prime qs -> distinct qs = true -> (forall q, In q qs -> (q | m)) -> (prodZ qs | m).
Proof.
  intros m. induction qs as [|q t IH]; intros Hp Hd H; cbn [prodZ]; [apply Z.divide_1_l|].
  inversion Hp as [|? ? Pq Pt]; subst. cbn [distinct] in Hd. apply andb_true_iff in Hd. destruct Hd as [D1 D2].
  assert (T : (prodZ t | m)) by (apply IH; [exact Pt|exact D2|intros x Hx; apply H; right; exact Hx]).
  destruct T as [c Hc]. assert (Q : (q | c * prodZ t)) by (rewrite <- Hc; apply H; left; reflexivity).
  assert (NQ : ~ (q | prodZ t)).
  { clear IH H Hc Q D2 Hp. induction t as [|x t IH]; cbn [prodZ]; [intros D; apply Z.divide_1_r in D; pose proof (prime_ge_2 q Pq); lia|].
    cbn [forallb] in D1. apply andb_true_iff in D1. destruct D1 as [D1 D1']. inversion Pt as [|? ? Px Pt']; subst.
    intros D. apply prime_mult in D; [|exact Pq]. destruct D as [D|D]; [|exact (IH D1' Pt' D)].
    apply prime_div_prime in D; [|exact Pq|exact Px]. subst x. rewrite Z.eqb_refl in D1. discriminate D1. }
  apply prime_mult in Q; [|exact Pq]. destruct Q as [[d Hd]|Q]; [|contradiction]. exists d. rewrite Hc, Hd. ring.
Qed.

Theorem pock_ok : forall n a qs, pock n a qs = true -> Forall prime qs -> prime n.
Proof.
  intros n a qs H Hq. unfold pock in H. repeat (apply andb_true_iff in H; destruct H as [H ?]).
  rename H0 into HF, H1 into HP, H2 into HS, H3 into HD, H4 into HE, H5 into HA, H into HN.
  apply Z.ltb_lt in HN, HP, HA. apply Z.leb_le in HS. apply Z.eqb_eq in HE. unfold powmod in *. rewrite Zpow_mod_correct in HE by lia.
  rewrite forallb_forall in HF.
  destruct (prime_dec n) as [P|N]; [exact P|]. exfalso.
  destruct (small_divisor n HN N) as (r & Pr & D & B). pose proof (prime_ge_2 r Pr) as R2.
  assert (Dm : (prodZ qs | r - 1)).
  { apply prod_divides; [exact Hq|exact HD|]. intros q Iq. specialize (HF q Iq). apply andb_true_iff in HF. destruct HF as [F1 F2].
    apply Z.eqb_eq in F1, F2. rewrite Zpow_mod_correct in F2 by lia.
    assert (Pq : prime q) by (rewrite Forall_forall in Hq; apply Hq; exact Iq). pose proof (prime_ge_2 q Pq) as Q2.
    assert (Em : (n - 1) / q * q = n - 1). { pose proof (Z.div_mod (n - 1) q ltac:(lia)). lia. }
    apply (order_q r q (a ^ ((n - 1) / q)) Pr Pq); [apply Z.pow_nonneg; lia| |].
    - rewrite <- Z.pow_mul_r, Em by (try apply Z.div_pos; lia). rewrite (Zmod_div_mod r n) by (lia || exact D). rewrite HE. apply Z.mod_1_l. lia.
    - intros E1. assert (R1 : (r | 1)).
      { rewrite <- F2. apply Z.gcd_greatest; [|exact D]. apply Z.mod_divide; [lia|].
        rewrite Zminus_mod, <- (Zmod_div_mod r n) by (lia || exact D). rewrite E1, Z.mod_1_l by lia. reflexivity. }
      apply Z.divide_1_r_nonneg in R1; lia. }
  apply Z.divide_pos_le in Dm; [|lia]. nia.
Qed.

(** ** Lists of certificates, each using the earlier ones *)
Fixpoint check_certs (known : list Z) (cs : list (Z * Z * list Z)) : bool :=
  match cs with
  | [] => true
  | (n, a, qs) :: t => forallb (fun q => existsb (Z.eqb q) known || trial_prime q) qs && pock n a qs && check_certs (n :: known) t
  end.
Theorem check_certs_ok : forall cs known, Forall prime known -> check_certs known cs = true -> Forall (fun c => prime (fst (fst c))) cs.
Proof.
  induction cs as [|[[n a] qs] t IH]; intros known Hk H; [constructor|]. cbn [check_certs] in H.
  apply andb_true_iff in H. destruct H as [H H3]. apply andb_true_iff in H. destruct H as [H1 H2].
  assert (P : prime n).
  { apply (pock_ok n a qs H2). rewrite forallb_forall in H1. apply Forall_forall. intros q Iq. specialize (H1 q Iq).
    apply orb_true_iff in H1. destruct H1 as [H1|H1]; [|apply trial_prime_ok; exact H1].
    apply existsb_exists in H1. destruct H1 as (x & Ix & E). apply Z.eqb_eq in E. subst x. rewrite Forall_forall in Hk. apply Hk. exact Ix. }
  constructor; [exact P|]. apply (IH (n :: known)); [constructor; assumption|exact H3].
Qed.
