(** Laws of the scalars used by the FFT, complex arithmetic, roots of unity and sums. *)
From Coq Require Import ZArith Arith ArithRing List Bool Lia Ring Reals Lra.
From Verif Require Import Base SeriesModel SeriesProofs FFTModel FFTLoop.
Import ListNotations.
Open Scope nat_scope.

(** The scalars form a commutative ring with 1/2 and a coherent system of 2^s-th roots of unity. *)
Record ops_ok (o : ops) : Prop := {
  ok_ring : ring_theory (z0 o) (z1 o) (add o) (mul o) (sub o) (opp o) (@eq (A o));
  ok_half : forall a, half o a = mul o (half o (z1 o)) a;
  ok_half1 : add o (half o (z1 o)) (half o (z1 o)) = z1 o;
  ok_inv : forall k, mul o (inv o (pow2_scalar o k)) (pow2_scalar o k) = z1 o;
  ok_sh : add o (mul o (sh o) (sh o)) (mul o (sh o) (sh o)) = z1 o;
  rt_add : forall s a b, root o s (a + b)%Z = cmul o (root o s a) (root o s b);
  rt_0 : forall s, root o s 0 = (z1 o, z0 o);
  rt_dbl : forall s j, root o (S s) (2 * j)%Z = root o s j;
  rt_conj : forall s j, root o s (- j)%Z = conj o (root o s j);
  rt_base0 : root o 0 1 = (z1 o, z0 o);
  rt_base1 : root o 1 1 = (opp o (z1 o), z0 o);
  rt_base2 : root o 2 1 = (z0 o, z1 o);
  rt_base3 : root o 3 1 = (sh o, sh o)
}.

Section M.
Variable o : ops.
Hypothesis Hok : ops_ok o.
Notation A := (A o).
Notation C := (FFTModel.A o * FFTModel.A o)%type.
Add Ring Aring : (ok_ring o Hok).
Notation cadd := (cadd o). Notation csub := (csub o). Notation cmul := (cmul o).
Notation conj := (conj o). Notation root := (root o). Notation c0 := (c0 o).
Definition c1 : C := (z1 o, z0 o).
Definition copp (a : C) : C := (opp o (fst a), opp o (snd a)).

Ltac cring := unfold FFTModel.diagp, FFTModel.diagm, FFTModel.cadd, FFTModel.csub, FFTModel.cmul, FFTModel.conj, FFTModel.c0, c1, copp, FFTModel.cscale,
  FFTModel.left, FFTModel.right in *; cbn [fst snd] in *; f_equal; ring.
Lemma C_ring : ring_theory c0 c1 cadd cmul csub copp (@eq C).
Proof. constructor; intros; repeat match goal with x : C |- _ => destruct x end; cring. Qed.
Add Ring Cring : C_ring.

Lemma conj_add : forall a b, conj (cadd a b) = cadd (conj a) (conj b). Proof. intros [] []; cring. Qed.
Lemma conj_sub : forall a b, conj (csub a b) = csub (conj a) (conj b). Proof. intros [] []; cring. Qed.
Lemma conj_mul : forall a b, conj (cmul a b) = cmul (conj a) (conj b). Proof. intros [] []; cring. Qed.
Lemma conj_conj : forall a, conj (conj a) = a. Proof. intros []; cring. Qed.
Lemma conj_0 : conj c0 = c0. Proof. cring. Qed.
Lemma conj_1 : conj c1 = c1. Proof. cring. Qed.

Definition ci : C := (z0 o, z1 o).
Lemma left_ci : forall a, left o a = cmul ci a. Proof. intros []. unfold ci. cring. Qed.
Lemma right_ci : forall a, right o a = cmul (copp ci) a. Proof. intros []. unfold ci. cring. Qed.
Lemma ci2 : cmul ci ci = copp c1. Proof. unfold ci. cring. Qed.
Lemma conj_ci : conj ci = copp ci. Proof. unfold ci. cring. Qed.
Definition w8 : C := (sh o, sh o).
Lemma diagp_w8 : forall a, diagp o (sh o) a = cmul w8 a. Proof. intros []. unfold w8. cring. Qed.
Lemma diagm_w8 : forall a, diagm o (sh o) a = cmul (conj w8) a. Proof. intros []. unfold w8. cring. Qed.
Lemma cscale_mul : forall a z, cscale o a z = cmul (a, z0 o) z. Proof. intros a []. cring. Qed.
Lemma csqr_mul : forall z, csqr o z = cmul z z.
Proof. intros []. unfold csqr, FFTModel.cmul. cbn [fst snd]. f_equal; ring. Qed.

(** ** Roots *)
Lemma rt_sub : forall s a b, root s (a - b)%Z = cmul (root s a) (conj (root s b)).
Proof. intros. unfold Z.sub. rewrite (rt_add o Hok), (rt_conj o Hok). reflexivity. Qed.
Lemma rt_unit : forall s a, cmul (root s a) (conj (root s a)) = c1.
Proof. intros. rewrite <- rt_sub, Z.sub_diag. apply (rt_0 o Hok). Qed.
Lemma rt_0_any : forall j, root 0 j = c1.
Proof.
  assert (Hp : forall n : nat, root 0 (Z.of_nat n) = c1).
  { induction n as [|n IH]; [apply (rt_0 o Hok)|]. rewrite Nat2Z.inj_succ. unfold Z.succ.
    rewrite (rt_add o Hok), IH, (rt_base0 o Hok). change (z1 o, z0 o) with c1. ring. }
  intros j. destruct (Z_le_gt_dec 0 j) as [H|H].
  - rewrite <- (Z2Nat.id j) by lia. apply Hp.
  - replace j with (- Z.of_nat (Z.to_nat (- j)))%Z by lia. rewrite (rt_conj o Hok), Hp. apply conj_1.
Qed.
Lemma rt_scale : forall k s j, root (k + s) (2 ^ Z.of_nat k * j)%Z = root s j.
Proof.
  induction k as [|k IH]; intros s j; [cbn [Nat.add]; f_equal; lia|].
  cbn [Nat.add]. rewrite Nat2Z.inj_succ, Z.pow_succ_r by lia.
  replace (2 * 2 ^ Z.of_nat k * j)%Z with (2 * (2 ^ Z.of_nat k * j))%Z by ring.
  rewrite (rt_dbl o Hok). apply IH.
Qed.
Lemma rt_period : forall s j k, root s (j + 2 ^ Z.of_nat s * k)%Z = root s j.
Proof.
  intros s j k. rewrite (rt_add o Hok). rewrite <- (Nat.add_0_r s) at 2. rewrite rt_scale, rt_0_any. ring.
Qed.
Lemma rt_mod : forall s j, root s (j mod 2 ^ Z.of_nat s)%Z = root s j.
Proof.
  intros s j. rewrite (Z.div_mod j (2 ^ Z.of_nat s)) at 2 by (apply Z.pow_nonzero; lia).
  rewrite Z.add_comm. rewrite rt_period. reflexivity.
Qed.
Lemma rt_half : forall s, root (S s) (2 ^ Z.of_nat s)%Z = copp c1.
Proof.
  intros s. replace (S s) with (s + 1) by lia. rewrite <- (Z.mul_1_r (2 ^ Z.of_nat s)). rewrite rt_scale.
  rewrite (rt_base1 o Hok). cring.
Qed.
Lemma rt_quarter : forall s, root (S (S s)) (2 ^ Z.of_nat s)%Z = ci.
Proof.
  intros s. replace (S (S s)) with (s + 2) by lia. rewrite <- (Z.mul_1_r (2 ^ Z.of_nat s)). rewrite rt_scale.
  apply (rt_base2 o Hok).
Qed.
Lemma rt_eighth : forall s, root (S (S (S s))) (2 ^ Z.of_nat s)%Z = w8.
Proof.
  intros s. replace (S (S (S s))) with (s + 3) by lia. rewrite <- (Z.mul_1_r (2 ^ Z.of_nat s)). rewrite rt_scale.
  apply (rt_base3 o Hok).
Qed.

(** Integer powers of -1 as roots: parity. *)
Lemma rt_sign : forall s (q : nat), root (S s) (2 ^ Z.of_nat s * Z.of_nat q)%Z = if Nat.even q then c1 else copp c1.
Proof.
  intros s q. replace (S s) with (s + 1) by lia. rewrite rt_scale. rewrite <- rt_mod.
  destruct (Nat.even q) eqn:E.
  - apply Nat.even_spec in E. destruct E as [k ->]. replace (Z.of_nat (2 * k) mod 2 ^ Z.of_nat 1)%Z with 0%Z; [apply (rt_0 o Hok)|].
    change (2 ^ Z.of_nat 1)%Z with 2%Z. rewrite Nat2Z.inj_mul. change (Z.of_nat 2) with 2%Z. rewrite Z.mul_comm, Z.mod_mul; lia.
  - assert (Ho : Nat.odd q = true) by (unfold Nat.odd; rewrite E; reflexivity). apply Nat.odd_spec in Ho. destruct Ho as [k ->].
    replace (Z.of_nat (2 * k + 1) mod 2 ^ Z.of_nat 1)%Z with 1%Z.
    + rewrite (rt_base1 o Hok). cring.
    + change (2 ^ Z.of_nat 1)%Z with 2%Z. rewrite Nat2Z.inj_add, Nat2Z.inj_mul. change (Z.of_nat 2) with 2%Z.
      rewrite Z.add_comm, Z.mul_comm, Z.mod_add by lia. reflexivity.
Qed.

(** ** Sums *)
Fixpoint csum (n : nat) (f : nat -> C) : C :=
  match n with O => c0 | S k => cadd (csum k f) (f k) end.
Lemma csum_ext : forall n f g, (forall i, i < n -> f i = g i) -> csum n f = csum n g.
Proof.
  induction n as [|n IH]; intros f g H; [reflexivity|]. cbn [csum]. rewrite (IH f g) by (intros i Hi; apply H; lia).
  rewrite H by lia. reflexivity.
Qed.
Lemma csum_add : forall n f g, csum n (fun i => cadd (f i) (g i)) = cadd (csum n f) (csum n g).
Proof. induction n as [|n IH]; intros f g; cbn [csum]; [ring|rewrite IH; ring]. Qed.
Lemma csum_mul : forall n a f, csum n (fun i => cmul a (f i)) = cmul a (csum n f).
Proof. induction n as [|n IH]; intros a f; cbn [csum]; [ring|rewrite IH; ring]. Qed.
Lemma csum_0 : forall n f, (forall i, i < n -> f i = c0) -> csum n f = c0.
Proof. induction n as [|n IH]; intros f H; cbn [csum]; [ring|]. rewrite IH by (intros; apply H; lia). rewrite H by lia. ring. Qed.
Lemma csum_conj : forall n f, conj (csum n f) = csum n (fun i => conj (f i)).
Proof. induction n as [|n IH]; intros f; cbn [csum]; [apply conj_0|]. rewrite conj_add, IH. reflexivity. Qed.
Lemma csum_first : forall n f, csum (S n) f = cadd (f 0) (csum n (fun i => f (S i))).
Proof. induction n as [|n IH]; intros f; [cbn [csum]; ring|]. cbn [csum] in *. rewrite IH. ring. Qed.
(** even and odd terms *)
Lemma csum_2 : forall n f, csum (2 * n) f = cadd (csum n (fun i => f (2 * i))) (csum n (fun i => f (2 * i + 1))).
Proof.
  induction n as [|n IH]; intros f; [change (c0 = cadd c0 c0); ring|].
  replace (2 * S n) with (S (S (2 * n))) by lia. cbn [csum]. rewrite IH.
  replace (2 * n + 1) with (S (2 * n)) by lia. ring.
Qed.
Lemma csum_app : forall n m f, csum (n + m) f = cadd (csum n f) (csum m (fun i => f (n + i))).
Proof.
  induction m as [|m IH]; intros f; [rewrite Nat.add_0_r; cbn [csum]; ring|].
  replace (n + S m) with (S (n + m)) by lia. cbn [csum]. rewrite IH. ring.
Qed.
Lemma csum_single : forall n f k, k < n -> (forall i, i < n -> i <> k -> f i = c0) -> csum n f = f k.
Proof.
  induction n as [|n IH]; intros f k Hk H; [lia|]. cbn [csum]. destruct (Nat.eq_dec k n) as [->|N].
  - rewrite csum_0 by (intros i Hi; apply H; lia). ring.
  - rewrite (IH f k) by (try lia; intros i Hi Hn; apply H; lia). rewrite (H n) by lia. ring.
Qed.
End M.

(** ** The reals *)
Open Scope R_scope.
Definition R_root (s : nat) (j : Z) : R * R :=
  (cos (2 * PI * IZR j / 2 ^ s), sin (2 * PI * IZR j / 2 ^ s)).
Definition R_ops : ops := {|
  A := R; z0 := 0; z1 := 1; add := Rplus; sub := Rminus; mul := Rmult; opp := Ropp;
  inv := Rinv; half := fun a => a / 2; sh := / sqrt 2; root := R_root |}.
Lemma R_ops_ok : ops_ok R_ops.
Proof.
  assert (P2 : forall s : nat, 2 ^ s <> 0) by (intros s; apply pow_nonzero; lra).
  constructor; cbn [A z0 z1 add sub mul opp inv half sh root R_ops].
  - constructor; intros; ring.
  - intros a. field.
  - field.
  - assert (Hp : forall k, 0 < pow2_scalar R_ops k).
    { induction k as [|k IH]; [cbn [pow2_scalar R_ops z1]; lra|].
      cbn [pow2_scalar]. cbv zeta. cbn [R_ops add]. cbn [A R_ops] in *. lra. }
    intros k. specialize (Hp k). cbn [A R_ops] in *. rewrite Rinv_l; lra.
  - assert (Hs : sqrt 2 * sqrt 2 = 2) by (apply sqrt_sqrt; lra).
    assert (Hp : 0 < sqrt 2) by (apply sqrt_lt_R0; lra).
    rewrite <- Rinv_mult. rewrite Hs. field.
  - intros s a b. unfold R_root, cmul. cbn [fst snd R_ops add sub mul]. rewrite plus_IZR.
    replace (2 * PI * (IZR a + IZR b) / 2 ^ s) with (2 * PI * IZR a / 2 ^ s + 2 * PI * IZR b / 2 ^ s) by (field; auto).
    rewrite cos_plus, sin_plus. apply f_equal2; ring.
  - intros s. unfold R_root. replace (2 * PI * 0 / 2 ^ s) with 0 by (field; auto). rewrite cos_0, sin_0. reflexivity.
  - intros s j. unfold R_root. rewrite mult_IZR. cbn [pow].
    replace (2 * PI * (2 * IZR j) / (2 * 2 ^ s)) with (2 * PI * IZR j / 2 ^ s) by (field; auto). reflexivity.
  - intros s j. unfold R_root, conj. cbn [fst snd R_ops opp]. rewrite opp_IZR.
    replace (2 * PI * - IZR j / 2 ^ s) with (- (2 * PI * IZR j / 2 ^ s)) by (field; auto).
    rewrite cos_neg, sin_neg. reflexivity.
  - unfold R_root. cbn [pow]. replace (2 * PI * 1 / 1) with (2 * PI) by field. rewrite cos_2PI, sin_2PI. reflexivity.
  - unfold R_root. cbn [pow]. replace (2 * PI * 1 / (2 * 1)) with PI by field. rewrite cos_PI, sin_PI. reflexivity.
  - unfold R_root. cbn [pow]. replace (2 * PI * 1 / (2 * (2 * 1))) with (PI / 2) by field. rewrite cos_PI2, sin_PI2. reflexivity.
  - unfold R_root. cbn [pow]. replace (2 * PI * 1 / (2 * (2 * (2 * 1)))) with (PI / 4) by field. rewrite cos_PI4, sin_PI4.
    unfold Rdiv. rewrite Rmult_1_l. reflexivity.
Qed.
