(** A ball arithmetic that encloses the roots of unity of order 2^k tightly: half-angle formulas and
    repeated products, on the intervals of NearestInst.v.  It shows that the hypotheses of C79 can be met. *)
From Coq Require Import ZArith List Bool Reals Lia Lra.
From Flocq Require Import Core BinarySingleNaN.
From Verif Require Import Base LoopsModel ExpansionModel ExpansionFloat ExpansionProofs NearestModel NearestProofs NearestInst.
Import ListNotations.
Open Scope R_scope.

Definition ihalf (x : ival) : ival := imul x (ipoint (1, -1)%Z).
Definition imul_c (x y : ival * ival) : ival * ival :=
  (isub (imul (fst x) (fst y)) (imul (snd x) (snd y)), iadd (imul (fst x) (snd y)) (imul (snd x) (fst y))).
(** exp(pi i / 2^k) for k >= 1 *)
Fixpoint unit (k : nat) : ival * ival :=
  match k with
  | O | S O => (ipoint (0, 0)%Z, ipoint (1, 0)%Z)
  | S j => let c := fst (unit j) in
      (isqrt (ihalf (iadd (ipoint (1, 0)%Z) c)) 100, isqrt (ihalf (isub (ipoint (1, 0)%Z) c)) 100)
  end.
Fixpoint ipow (z : ival * ival) (n : nat) : ival * ival :=
  match n with O => (ipoint (1, 0)%Z, ipoint (0, 0)%Z) | S n => imul_c (ipow z n) z end.
Definition icis2 (a b : Z) : ival * ival :=
  let k := Z.to_nat (Z.log2 b) in
  if (2 * a mod b =? 0)%Z then icis a b
  else if (0 <=? a)%Z && (b =? 2 ^ Z.of_nat k)%Z && (1 <=? k)%nat then ipow (unit k) (Z.to_nat a)
  else icis a b.

Lemma nR_half : nR (1, -1)%Z = / 2.
Proof. unfold nR. cbn [fst snd]. rewrite dy_mul. cbn. lra. Qed.
Lemma ihalf_mem x a : imem x a -> imem (ihalf x) (a / 2).
Proof. intros H. unfold Rdiv. rewrite <- nR_half. apply imul_mem; [exact H|apply ipoint_mem]. Qed.
Lemma unit_mem : forall k, (1 <= k)%nat -> imem (fst (unit k)) (cos (PI / 2 ^ k)) /\ imem (snd (unit k)) (sin (PI / 2 ^ k)).
Proof.
  induction k as [|k IH]; [lia|]. intros _. destruct k as [|k].
  - replace (PI / 2 ^ 1) with (PI / 2) by (cbn [pow]; field). rewrite cos_PI2, sin_PI2. split; apply iint_mem.
  - destruct (IH ltac:(lia)) as [C _]. clear IH. set (t := PI / 2 ^ S (S k)).
    assert (P0 : 0 < PI) by apply PI_RGT_0. assert (P2 : 2 <= 2 ^ S k) by (cbn [pow]; pose proof (pow_R1_Rle 2 k ltac:(lra)); lra).
    assert (Et : PI / 2 ^ S k = 2 * t) by (unfold t; cbn [pow]; field; apply pow_nonzero; lra).
    rewrite Et in C.
    assert (T0 : 0 < t) by (unfold t; apply Rdiv_lt_0_compat; [exact P0|apply pow_lt; lra]).
    assert (T1 : t <= PI / 2). { unfold t, Rdiv. apply Rmult_le_compat_l; [lra|]. apply Rinv_le_contravar; [lra|]. cbn [pow] in *. lra. }
    assert (C0 : 0 <= cos t) by (apply cos_ge_0; lra). assert (S0 : 0 <= sin t) by (apply sin_ge_0; lra).
    pose proof (cos_2a_cos t) as H1. pose proof (cos_2a_sin t) as H2.
    change (unit (S (S k))) with (isqrt (ihalf (iadd (ipoint (1, 0)%Z) (fst (unit (S k))))) 100, isqrt (ihalf (isub (ipoint (1, 0)%Z) (fst (unit (S k))))) 100).
    cbn [fst snd]. split.
    + rewrite <- (sqrt_square (cos t) C0). replace (cos t * cos t) with ((1 + cos (2 * t)) / 2) by lra.
      apply isqrt_mem; [lia|nra|]. apply ihalf_mem. apply iadd_mem; [apply iint_mem|exact C].
    + rewrite <- (sqrt_square (sin t) S0). replace (sin t * sin t) with ((1 - cos (2 * t)) / 2) by lra.
      apply isqrt_mem; [lia|nra|]. apply ihalf_mem. apply isub_mem; [apply iint_mem|exact C].
Qed.
Lemma ipow_mem z t : imem (fst z) (cos t) -> imem (snd z) (sin t) -> forall n,
  imem (fst (ipow z n)) (cos (INR n * t)) /\ imem (snd (ipow z n)) (sin (INR n * t)).
Proof.
  intros Hc Hs. induction n as [|n [I1 I2]].
  - cbn [INR ipow fst snd]. rewrite Rmult_0_l, cos_0, sin_0. split; apply iint_mem.
  - rewrite S_INR, Rmult_plus_distr_r, Rmult_1_l, cos_plus, sin_plus. cbn [ipow]. unfold imul_c. cbn [fst snd]. split.
    + apply isub_mem; now apply imul_mem.
    + rewrite Rplus_comm. apply iadd_mem; now apply imul_mem.
Qed.
Lemma icis2_mem a b : (1 <= b)%Z ->
  imem (fst (icis2 a b)) (cos (PI * IZR a / IZR b)) /\ imem (snd (icis2 a b)) (sin (PI * IZR a / IZR b)).
Proof.
  intros Hb. unfold icis2. cbv zeta. set (k := Z.to_nat (Z.log2 b)). destruct (2 * a mod b =? 0)%Z; [apply icis_mem; exact Hb|].
  destruct ((0 <=? a)%Z && (b =? 2 ^ Z.of_nat k)%Z && (1 <=? k)%nat) eqn:E; [|apply icis_mem; exact Hb].
  apply andb_prop in E. destruct E as [E E3]. apply andb_prop in E. destruct E as [E1 E2].
  apply Z.leb_le in E1. apply Z.eqb_eq in E2. apply Nat.leb_le in E3. destruct (unit_mem k E3) as [U1 U2].
  replace (PI * IZR a / IZR b) with (INR (Z.to_nat a) * (PI / 2 ^ k)).
  - exact (ipow_mem (unit k) (PI / 2 ^ k) U1 U2 (Z.to_nat a)).
  - rewrite INR_IZR_INZ, Z2Nat.id by lia. rewrite E2 at 1. rewrite <- pow_IZR. field. apply pow_nonzero. lra.
Qed.

Definition intervals2 : arb := {|
  ball := ival; bounds := bounds intervals; b_arf := b_arf intervals; b_d := b_d intervals; b_sub := b_sub intervals;
  b_pi := b_pi intervals; b_si := b_si intervals; b_div_ui := b_div_ui intervals; b_sqrt := b_sqrt intervals;
  b_cis := fun a b _ => icis2 a b;
  c_mul := c_mul intervals; b_exact := b_exact intervals; b_add := b_add intervals; b_sqr := b_sqr intervals;
  b_mul_si := b_mul_si intervals; b_mul := b_mul intervals; b_zero := b_zero intervals |}.
Theorem intervals2_ok : encloses intervals2 imem.
Proof.
  destruct intervals_ok. constructor; try assumption. intros a b p _ Hb. apply icis2_mem. lia.
Qed.
