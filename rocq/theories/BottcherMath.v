(** Power series facts behind area.cc: the iteration R_0 = f, R_i = R_(i-1)^2 + z^(2^i-1) f,
    its logarithm and its derivative with respect to log f. *)
From Coq Require Import ZArith List Bool Lia Setoid Morphisms Ring Field.
From Verif Require Import Base Field FPS SeriesProofs AlgoProofs.
Import ListNotations.

Section BM.
Variable F : Fld.
Notation KK := (K F).
Add Field KFieldB : (kfield F).
Add Ring fps_ringB : (fps_ring_theory F) (setoid (feq_Equiv F) (fps_ring_ext F)).

(** The escape iteration: with c = 1/(z f(z)) the k-th iterate of w^2 + c is
    (z^(-2^k)) R_k up to normalisation. *)
Fixpoint escR (f : fps F) (i : nat) : fps F :=
  match i with
  | O => f
  | S j => fadd (fmul (escR f j) (escR f j)) (fshift (2 ^ (S j) - 1) f)
  end.

Definition P2 (i : nat) : fps F := fC (kpow2n i).
Definition I2 (i : nat) : fps F := fC (kinv (kpow2n i)).

Lemma kpow2n_nz : forall i, kpow2n (F:=F) i <> k0.
Proof. induction i; cbn [kpow2n]; [apply k1_nz|]. apply kmul_nz; [apply ktwo_nz|auto]. Qed.
Lemma P2_I2 : forall i, feq (fmul (P2 i) (I2 i)) f1.
Proof.
  intros i. unfold P2, I2. rewrite <- fC_mulC. unfold f1. intros j. unfold fC. destruct j; [|reflexivity].
  field. apply kpow2n_nz.
Qed.
Lemma P2_0 : feq (P2 0) f1. Proof. reflexivity. Qed.
Lemma P2_S : forall i, feq (P2 (S i)) (fmul (fadd f1 f1) (P2 i)).
Proof.
  intros i. unfold P2. cbn [kpow2n]. rewrite fC_mulC. apply fmul_f; [|reflexivity].
  unfold ktwo. rewrite fC_add. reflexivity.
Qed.

Definition escT (g h : fps F) (i : nat) : fps F := fsub (fmul (fsub f1 (P2 i)) g) (fmul (P2 i) h).
Definition escL (g h : fps F) (i : nat) : fps F := flog1p (fshift (2 ^ i - 1) (fexp (escT g h i))).
Fixpoint escH (g : fps F) (i : nat) : fps F :=
  match i with
  | O => f0
  | S j => fadd (escH g j) (fmul (I2 (S j)) (escL g (escH g j) (S j)))
  end.
Fixpoint escD (g dg : fps F) (i : nat) : fps F :=
  match i with
  | O => f0
  | S j => fadd (escD g dg j)
      (fmul (I2 (S j)) (fshift (2 ^ (S j) - 1)
         (fmul (fexp (fsub (escT g (escH g j) (S j)) (escL g (escH g j) (S j))))
               (escT dg (escD g dg j) (S j)))))
  end.

Lemma two_pow : forall j, (2 <= 2 ^ S j)%nat.
Proof. intros j. pose proof (Nat.pow_nonzero 2 j ltac:(lia)). cbn [Nat.pow]. lia. Qed.

Lemma coef0_add : forall a b : fps F, fadd a b O = kadd (a O) (b O). Proof. reflexivity. Qed.
Lemma coef0_sub : forall a b : fps F, fsub a b O = ksub (a O) (b O). Proof. reflexivity. Qed.
Lemma escH_0 : forall g i, escH g i O = k0.
Proof.
  intros g i. induction i as [|j IH]; [reflexivity|]. cbn [escH].
  rewrite coef0_add, fmul_coef0, IH. unfold escL. rewrite flog1p_coef0. ring.
Qed.
Lemma escD_0 : forall g dg i, escD g dg i O = k0.
Proof.
  intros g dg i. induction i as [|j IH]; [reflexivity|]. cbn [escD]. pose proof (two_pow j).
  rewrite coef0_add, fmul_coef0, IH, fshift_coef0 by lia. ring.
Qed.
Lemma escT_0 : forall g h i, g O = k0 -> h O = k0 -> escT g h i O = k0.
Proof. intros g h i H1 H2. unfold escT. rewrite coef0_sub, !fmul_coef0, H1, H2. ring. Qed.
Lemma escL_0 : forall g h i, escL g h i O = k0.
Proof. intros. apply flog1p_coef0. Qed.
Lemma fmul_0r : forall a b : fps F, b O = k0 -> fmul a b O = k0.
Proof. intros a b H. rewrite fmul_coef0, H. ring. Qed.

Lemma exp_log1p : forall u : fps F, u O = k0 -> feq (fexp (flog1p u)) (fadd f1 u).
Proof.
  intros u Hu. rewrite <- (fexp_log F (fadd f1 u)).
  - apply fexp_f. unfold flog. apply flog1p_f. ring.
  - rewrite coef0_add, Hu. unfold f1, fC. ring.
Qed.
Lemma exp_escL : forall g h i, feq (fexp (escL g h (S i))) (fadd f1 (fshift (2 ^ S i - 1) (fexp (escT g h (S i))))).
Proof. intros g h i. unfold escL. apply exp_log1p. apply fshift_coef0. pose proof (two_pow i). lia. Qed.

Lemma escR_exp : forall (g : fps F) i, g O = k0 ->
  feq (escR (fexp g) i) (fexp (fmul (P2 i) (fadd g (escH g i)))).
Proof.
  intros g i Hg. induction i as [|j IH].
  - cbn [escR escH]. apply fexp_f. rewrite P2_0. ring.
  - cbn [escR]. set (h := escH g j) in *. assert (Hh : h O = k0) by apply escH_0.
    rewrite IH. set (p := S j). pose proof (two_pow j).
    transitivity (fexp (fadd (fmul (P2 p) (fadd g h)) (escL g h p))).
    2:{ apply fexp_f. change (escH g p) with (fadd h (fmul (I2 p) (escL g h p))).
        transitivity (fadd (fmul (P2 p) (fadd g h)) (fmul (fmul (P2 p) (I2 p)) (escL g h p))); [rewrite P2_I2; ring|ring]. }
    assert (E1 : feq (fmul (fexp (fmul (P2 j) (fadd g h))) (fexp (fmul (P2 j) (fadd g h)))) (fexp (fmul (P2 p) (fadd g h)))).
    { rewrite <- fexp_add by (apply fmul_0r; rewrite coef0_add, Hg, Hh; ring).
      apply fexp_f. unfold p. rewrite P2_S. ring. }
    rewrite E1. rewrite fexp_add.
    + unfold p at 4. rewrite exp_escL. fold p.
      transitivity (fadd (fexp (fmul (P2 p) (fadd g h)))
         (fshift (2 ^ p - 1) (fmul (fexp (fmul (P2 p) (fadd g h))) (fexp (escT g h p))))).
      * apply fadd_f; [reflexivity|]. apply fshift_f.
        rewrite <- fexp_add.
        -- apply fexp_f. unfold escT. ring.
        -- apply fmul_0r. rewrite coef0_add, Hg, Hh. ring.
        -- apply escT_0; auto.
      * rewrite fshift_mul_r. ring.
    + apply fmul_0r. rewrite coef0_add, Hg, Hh. ring.
    + apply escL_0.
Qed.

(** exp(T - L) R_i = f. *)
Lemma escTL : forall (g : fps F) j, g O = k0 ->
  feq (fmul (fexp (fsub (escT g (escH g j) (S j)) (escL g (escH g j) (S j)))) (escR (fexp g) (S j))) (fexp g).
Proof.
  intros g j Hg. rewrite escR_exp by exact Hg. rewrite <- fexp_add.
  - apply fexp_f. cbn [escH]. unfold escT.
    set (h := escH g j). set (l := escL g h (S j)).
    transitivity (fadd (fsub g l) (fmul (fmul (P2 (S j)) (I2 (S j))) l)); [ring|]. rewrite P2_I2. ring.
  - rewrite coef0_sub, escL_0, escT_0; auto using escH_0. ring.
  - apply fmul_0r. rewrite coef0_add, Hg, escH_0. ring.
Qed.

Lemma escR_feq : forall i (a b : fps F), feq a b -> feq (escR a i) (escR b i).
Proof.
  induction i as [|j IH]; intros a b H; [exact H|]. cbn [escR].
  apply fadd_f; [|apply fshift_f; exact H]. apply fmul_f; apply IH; exact H.
Qed.
Lemma escR_eqn : forall i n (a b : fps F), eqn n a b -> eqn n (escR a i) (escR b i).
Proof.
  induction i as [|j IH]; intros n a b H; [exact H|]. cbn [escR].
  apply fadd_e.
  - apply fmul_e; apply IH; exact H.
  - apply eqn_mono with (n := (2 ^ S j - 1 + n)%nat); [lia|]. apply fshift_eqn. exact H.
Qed.

(** First-order expansion of the iteration. *)
Lemma escR_lin : forall (g dg d : fps F) i m, (1 <= m)%nat -> g O = k0 -> eqn m d f0 ->
  eqn (m + m) (escR (fexp (fadd g (fmul d dg))) i)
    (fmul (escR (fexp g) i) (fadd f1 (fmul (P2 i) (fmul (fadd dg (escD g dg i)) d)))).
Proof.
  intros g dg d i m Hm Hg Hd.
  assert (Hd0 : d O = k0) by (apply (Hd O); lia).
  assert (Hdd : eqn (m + m) (fmul d d) f0) by (apply eqn0_mul; exact Hd).
  assert (Hexp : eqn (m + m) (fexp (fadd g (fmul d dg))) (fmul (fexp g) (fadd f1 (fmul d dg)))).
  { rewrite fexp_add; [|exact Hg|rewrite fmul_coef0, Hd0; ring].
    apply fmul_e; [reflexivity|]. apply fexp_lin; [exact Hm|].
    transitivity (fmul f0 dg); [apply fmul_e; [exact Hd|reflexivity]|apply feq_eqn; ring]. }
  induction i as [|j IH].
  - cbn [escR escD]. etransitivity; [exact Hexp|]. apply feq_eqn. rewrite P2_0. ring.
  - cbn [escR]. set (s := (2 ^ S j - 1)%nat).
    transitivity (fadd
      (fmul (fmul (escR (fexp g) j) (fadd f1 (fmul (P2 j) (fmul (fadd dg (escD g dg j)) d))))
            (fmul (escR (fexp g) j) (fadd f1 (fmul (P2 j) (fmul (fadd dg (escD g dg j)) d)))))
      (fshift s (fmul (fexp g) (fadd f1 (fmul d dg))))).
    { apply fadd_e.
      - apply fmul_e; exact IH.
      - apply eqn_mono with (n := (s + (m + m))%nat); [lia|]. apply fshift_eqn. exact Hexp. }
    pose proof (escTL g j Hg) as HTL. cbn [escR] in HTL. fold s in HTL.
    cbn [escD]. fold s.
    set (E := fexp (fsub (escT g (escH g j) (S j)) (escL g (escH g j) (S j)))) in *.
    set (dj := escD g dg j) in *. set (r := escR (fexp g) j) in *. set (f := fexp g) in *.
    set (q := P2 j) in *.
    set (Rn := fadd (fmul r r) (fshift s f)) in *.
    transitivity (fadd Rn (fadd (fmul (fadd (fmul (fmul (fadd f1 f1) q) (fmul (fadd dg dj) (fmul r r))) (fmul (fshift s f) dg)) d)
        (fmul (fmul d d) (fmul (fmul r r) (fmul (fmul q q) (fmul (fadd dg dj) (fadd dg dj))))))).
    { apply feq_eqn. unfold Rn. rewrite fshift_mul_l. ring. }
    transitivity (fadd Rn (fmul (fadd (fmul (fmul (fadd f1 f1) q) (fmul (fadd dg dj) (fmul r r))) (fmul (fshift s f) dg)) d)).
    { apply fadd_e; [reflexivity|].
      transitivity (fadd (fmul (fadd (fmul (fmul (fadd f1 f1) q) (fmul (fadd dg dj) (fmul r r))) (fmul (fshift s f) dg)) d)
         (fmul f0 (fmul (fmul r r) (fmul (fmul q q) (fmul (fadd dg dj) (fadd dg dj)))))).
      - apply fadd_e; [reflexivity|]. apply fmul_e; [exact Hdd|reflexivity].
      - apply feq_eqn. ring. }
    apply feq_eqn.
    assert (EQ : feq (fmul (P2 (S j)) (fmul Rn (fadd dg (fadd dj (fmul (I2 (S j)) (fshift s (fmul E (escT dg dj (S j)))))))))
       (fadd (fmul (fmul (fadd f1 f1) q) (fmul (fadd dg dj) (fmul r r))) (fmul (fshift s f) dg))).
    { transitivity (fadd (fmul (P2 (S j)) (fmul Rn (fadd dg dj)))
        (fmul (fmul (P2 (S j)) (I2 (S j))) (fmul Rn (fshift s (fmul E (escT dg dj (S j))))))); [ring|].
      rewrite P2_I2.
      assert (E2 : feq (fmul Rn (fshift s (fmul E (escT dg dj (S j))))) (fmul (fshift s f) (escT dg dj (S j)))).
      { rewrite <- fshift_mul_r. transitivity (fshift s (fmul (fmul E Rn) (escT dg dj (S j)))).
        - apply fshift_f. ring.
        - rewrite <- fshift_mul_l. apply fshift_f. apply fmul_f; [exact HTL|reflexivity]. }
      rewrite E2. unfold escT. rewrite P2_S. fold q. unfold Rn. ring. }
    rewrite <- EQ. ring.
Qed.

(** The derivative of 2^-i log R_i starts with 1. *)
Lemma escR_0 : forall (f : fps F) i, f O = k1 -> escR f i O = k1.
Proof.
  intros f i Hf. induction i as [|j IH]; [exact Hf|]. cbn [escR]. pose proof (two_pow j).
  rewrite coef0_add, fmul_coef0, IH, fshift_coef0 by lia. ring.
Qed.

(** Correct to order 2^j carries over to the next residual. *)
Lemma escR_next : forall (f : fps F) j, eqn (2 ^ j) (escR f j) f1 -> eqn (2 ^ j) (escR f (S j)) f1.
Proof.
  intros f j H. cbn [escR].
  transitivity (fadd (fmul (f1 : fps F) f1) f0); [|apply feq_eqn; ring].
  apply fadd_e; [apply fmul_e; exact H|].
  apply eqn_mono with (n := (2 ^ S j - 1)%nat).
  - pose proof (Nat.pow_nonzero 2 j ltac:(lia)). cbn [Nat.pow]. lia.
  - apply fshift_low.
Qed.

(** At most one f modulo z^n solves R_i(f) = 1 modulo z^n. *)
Lemma escR_unique : forall (f f' : fps F) i n, f O = k1 -> f' O = k1 ->
  eqn n (escR f i) f1 -> eqn n (escR f' i) f1 -> eqn n f f'.
Proof.
  intros f f' i n Hf Hf' HR HR'.
  assert (Hm : forall m, (1 <= m)%nat -> eqn m (flog f) (flog f') -> eqn (Nat.min n (m + m)) (flog f) (flog f')).
  { intros m Hm H. set (g := flog f) in *. set (g' := flog f') in *. set (d := fsub g' g).
    assert (Hd : eqn m d f0) by (apply -> eqn_sub0; symmetry; exact H).
    pose proof (escR_lin g f1 d i m Hm (flog_coef0 F f) Hd) as HL.
    assert (E1 : feq (fexp (fadd g (fmul d f1))) f').
    { transitivity (fexp g'); [apply fexp_f; unfold d; ring|]. unfold g'. apply fexp_log. exact Hf'. }
    assert (E2 : feq (fexp g) f) by (apply fexp_log; exact Hf).
    rewrite (escR_feq i _ _ E1), (escR_feq i _ _ E2) in HL.
    set (N := Nat.min n (m + m)) in *.
    assert (HL' : eqn N f1 (fmul f1 (fadd f1 (fmul (P2 i) (fmul (fadd f1 (escD g f1 i)) d))))).
    { transitivity (escR f' i); [symmetry; apply eqn_mono with (n := n); [lia|exact HR']|].
      etransitivity; [apply eqn_mono with (n := (m + m)%nat); [lia|exact HL]|].
      apply fmul_e; [apply eqn_mono with (n := n); [lia|exact HR]|].
      apply fadd_e; [reflexivity|]. apply fmul_e; [reflexivity|]. apply fmul_e; [|reflexivity].
      apply fadd_e; [reflexivity|]. reflexivity. }
    assert (HZ : eqn N (fmul (fmul (P2 i) (fadd f1 (escD g f1 i))) d) (fmul (fmul (P2 i) (fadd f1 (escD g f1 i))) f0)).
    { transitivity (fsub (fmul f1 (fadd f1 (fmul (P2 i) (fmul (fadd f1 (escD g f1 i)) d)))) f1); [apply feq_eqn; ring|].
      transitivity (fsub (f1 : fps F) f1); [apply fsub_e; [symmetry; exact HL'|reflexivity]|apply feq_eqn; ring]. }
    apply eqn_cancel in HZ.
    - symmetry. apply <- eqn_sub0. exact HZ.
    - rewrite fmul_coef0, coef0_add, escD_0. unfold P2, f1, fC.
      replace (kadd k1 k0) with (k1 : KK) by ring. apply kmul_nz; [apply kpow2n_nz|apply k1_nz]. }
  assert (HA : forall t, eqn (Nat.min n (2 ^ t)) (flog f) (flog f')).
  { induction t as [|t IH].
    - intros j Hj. assert (j = O) by (change (2 ^ 0)%nat with 1%nat in Hj; lia). subst j. rewrite !flog_coef0. reflexivity.
    - pose proof (Nat.pow_nonzero 2 t ltac:(lia)). destruct (Nat.le_gt_cases n (2 ^ t)) as [Hle|Hgt].
      + rewrite Nat.min_l in IH by lia. apply eqn_mono with (n := n); [lia|exact IH].
      + rewrite Nat.min_r in IH by lia. apply Hm in IH; [|lia].
        eapply eqn_mono; [|exact IH]. cbn [Nat.pow]. lia. }
  assert (HB : eqn n (flog f) (flog f')).
  { eapply eqn_mono; [|exact (HA n)]. pose proof (Nat.pow_gt_lin_r 2 n ltac:(lia)). lia. }
  rewrite <- (fexp_log F f Hf), <- (fexp_log F f' Hf'). apply fexp_e. exact HB.
Qed.

(** Residual zero to order m when R_i = 1 to order m. *)
Lemma esc_phi_0 : forall (g : fps F) i m, g O = k0 -> eqn m (escR (fexp g) i) f1 -> eqn m (fadd g (escH g i)) f0.
Proof.
  intros g i m Hg H. rewrite escR_exp in H by exact Hg.
  assert (H1 : eqn m (fmul (P2 i) (fadd g (escH g i))) f0).
  { apply fexp_inj; [apply fmul_0r; rewrite coef0_add, Hg, escH_0; ring|reflexivity|]. rewrite fexp_0. exact H. }
  transitivity (fmul (I2 i) (fmul (P2 i) (fadd g (escH g i)))).
  - apply feq_eqn. transitivity (fmul (fmul (P2 i) (I2 i)) (fadd g (escH g i))); [rewrite P2_I2; ring|ring].
  - transitivity (fmul (I2 i) f0); [apply fmul_e; [reflexivity|exact H1]|apply feq_eqn; ring].
Qed.

(** One Newton step on the high terms. *)
Lemma esc_newton : forall (g q : fps F) i m, (1 <= m)%nat -> g O = k0 -> eqn m (escR (fexp g) i) f1 ->
  eqn m (fmul (fadd f1 (escD g f1 i)) q) (fhigh m (fadd g (escH g i))) ->
  eqn (m + m) (escR (fexp (fsub g (fshift m q))) i) f1.
Proof.
  intros g q i m Hm Hg HR Hq. set (phi := fadd g (escH g i)) in *. set (dphi := fadd f1 (escD g f1 i)) in *.
  assert (Hphi : eqn m phi f0) by (apply esc_phi_0; assumption).
  set (d := fopp (fshift m q)).
  assert (Hd : eqn m d f0).
  { unfold d. transitivity (fopp (f0 : fps F)); [apply fopp_e; apply fshift_low|apply feq_eqn; ring]. }
  pose proof (escR_lin g f1 d i m Hm Hg Hd) as HL. fold dphi in HL.
  assert (E1 : feq (fexp (fadd g (fmul d f1))) (fexp (fsub g (fshift m q)))) by (apply fexp_f; unfold d; ring).
  rewrite (escR_feq i _ _ E1) in HL. etransitivity; [exact HL|].
  assert (HP : eqn m (fmul (P2 i) phi) f0).
  { transitivity (fmul (P2 i) f0); [apply fmul_e; [reflexivity|exact Hphi]|apply feq_eqn; ring]. }
  transitivity (fmul (fadd f1 (fmul (P2 i) phi)) (fadd f1 (fmul (P2 i) (fmul dphi d)))).
  { apply fmul_e; [|reflexivity]. rewrite escR_exp by exact Hg. fold phi. apply fexp_lin; assumption. }
  assert (HZ : eqn (m + m) (fadd phi (fmul dphi d)) f0).
  { transitivity (fshift m (fsub (fhigh m phi) (fmul dphi q))).
    - apply feq_eqn. rewrite fshift_sub. rewrite <- (zp_mul F m (fhigh m phi)).
      rewrite <- (fshift_fhigh F m phi Hphi). rewrite fshift_mul_r. unfold d. ring.
    - transitivity (fshift m (f0 : fps F)).
      + apply fshift_eqn. transitivity (fsub (fhigh m phi) (fhigh m phi)); [apply fsub_e; [reflexivity|exact Hq]|apply feq_eqn; ring].
      + apply feq_eqn. rewrite <- zp_mul. ring. }
  transitivity (fadd (fadd f1 (fmul (P2 i) (fadd phi (fmul dphi d)))) (fmul (fmul (P2 i) phi) (fmul (fmul (P2 i) dphi) d))).
  { apply feq_eqn. ring. }
  transitivity (fadd (fadd f1 (fmul (P2 i) f0)) (f0 : fps F)); [|apply feq_eqn; ring].
  apply fadd_e.
  - apply fadd_e; [reflexivity|]. apply fmul_e; [reflexivity|exact HZ].
  - apply eqn0_mul; [exact HP|].
    transitivity (fmul (fmul (P2 i) dphi) f0); [apply fmul_e; [reflexivity|exact Hd]|apply feq_eqn; ring].
Qed.

End BM.
Arguments escR {F} _ _ _.
