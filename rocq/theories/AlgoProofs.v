(** Correctness of inv, inv1p, div, div1p, log, log1p, exp, expm1, log1p_exp. *)
From Coq Require Import ZArith List Bool Lia Setoid Morphisms Ring Field.
From Verif Require Import Base Field FPS SeriesModel SeriesSpec SeriesProofs NewtonProofs.
From Coq Require Import ZifyBool ZifyNat.
Ltac Zify.zify_post_hook ::= Z.div_mod_to_equations.
Import ListNotations.
Open Scope Z_scope.

Section FPSLemmas.
Variable F : Fld.
Notation KK := (K F).
Add Field KFieldA1 : (kfield F).
Add Ring fps_ringA1 : (fps_ring_theory F) (setoid (feq_Equiv F) (fps_ring_ext F)).

Lemma eqn_at : forall n (a b : fps F) i, eqn n a b -> (i < n)%nat -> a i = b i.
Proof. intros n a b i H Hi. exact (H i Hi). Qed.

Lemma fopp_e : forall n (a b : fps F), eqn n a b -> eqn n (fopp a) (fopp b).
Proof. intros n a b. exact (fopp_eqn F n a b). Qed.
Lemma fopp_f : forall (a b : fps F), feq a b -> feq (fopp a) (fopp b).
Proof. intros a b. exact (fopp_feq F a b). Qed.
Lemma fexp_e : forall n (a b : fps F), eqn n a b -> eqn n (fexp a) (fexp b).
Proof. intros n a b. exact (fexp_eqn F n a b). Qed.
Lemma fexp_f : forall (a b : fps F), feq a b -> feq (fexp a) (fexp b).
Proof. intros a b. exact (fexp_feq F a b). Qed.
Lemma flog_e : forall n (a b : fps F), eqn n a b -> eqn n (flog a) (flog b).
Proof. intros n a b. exact (flog_eqn F n a b). Qed.
Lemma flog_f : forall (a b : fps F), feq a b -> feq (flog a) (flog b).
Proof. intros a b. exact (flog_feq F a b). Qed.
Lemma flog1p_e : forall n (a b : fps F), eqn n a b -> eqn n (flog1p a) (flog1p b).
Proof. intros n a b. exact (flog1p_eqn F n a b). Qed.
Lemma flog1p_f : forall (a b : fps F), feq a b -> feq (flog1p a) (flog1p b).
Proof. intros a b. exact (flog1p_feq F a b). Qed.
Lemma fmul_e : forall n (a b c d : fps F), eqn n a b -> eqn n c d -> eqn n (fmul a c) (fmul b d).
Proof. intros n a b c d H1 H2. exact (fmul_eqn F n a b H1 c d H2). Qed.
Lemma fmul_f : forall (a b c d : fps F), feq a b -> feq c d -> feq (fmul a c) (fmul b d).
Proof. intros a b c d H1 H2. exact (fmul_feq F a b H1 c d H2). Qed.
Lemma fadd_e : forall n (a b c d : fps F), eqn n a b -> eqn n c d -> eqn n (fadd a c) (fadd b d).
Proof. intros n a b c d H1 H2. exact (fadd_eqn F n a b H1 c d H2). Qed.
Lemma fadd_f : forall (a b c d : fps F), feq a b -> feq c d -> feq (fadd a c) (fadd b d).
Proof. intros a b c d H1 H2. exact (fadd_feq F a b H1 c d H2). Qed.
Lemma fsub_e : forall n (a b c d : fps F), eqn n a b -> eqn n c d -> eqn n (fsub a c) (fsub b d).
Proof. intros n a b c d H1 H2. exact (fsub_eqn F n a b H1 c d H2). Qed.
Lemma fsub_f : forall (a b c d : fps F), feq a b -> feq c d -> feq (fsub a c) (fsub b d).
Proof. intros a b c d H1 H2. exact (fsub_feq F a b H1 c d H2). Qed.
Lemma fshift_eqn : forall s n (a b : fps F), eqn n a b -> eqn (s + n) (fshift s a) (fshift s b).
Proof. intros s n a b H. rewrite <- !zp_mul. apply eqn_zp_mul. exact H. Qed.
Lemma fshift_eqn_cancel : forall s n (a b : fps F), eqn (s + n) (fshift s a) (fshift s b) -> eqn n a b.
Proof. intros s n a b H. rewrite <- !zp_mul in H. apply eqn_zp_cancel in H. exact H. Qed.
Lemma fshift_fhigh_eqn : forall s n (a : fps F), eqn s a f0 -> eqn n (fshift s (fhigh s a)) a.
Proof. intros s n a H. rewrite <- zp_mul. rewrite <- (fshift_fhigh F s a H). reflexivity. Qed.
Lemma fscale_1 : forall a : fps F, feq (fscale k1 a) a.
Proof. intros a i. unfold fscale. ring. Qed.
Lemma fscale_m1 : forall a : fps F, feq (fscale (kopp k1) a) (fopp a).
Proof. intros a i. unfold fscale, fopp. ring. Qed.
Lemma fshift_coef0 : forall s (a : fps F), (0 < s)%nat -> fshift s a O = k0.
Proof. intros s a H. unfold fshift. destruct (Nat.ltb_spec O s); [reflexivity|lia]. Qed.
Global Instance fshift_feq s : Proper (feq ==> feq) (@fshift F s).
Proof. intros a b H. rewrite <- !zp_mul, H. reflexivity. Qed.
Lemma fshift_f : forall s (a b : fps F), feq a b -> feq (fshift s a) (fshift s b).
Proof. intros s a b. exact (fshift_feq s a b). Qed.
Lemma fshift_low : forall s (a : fps F), eqn s (fshift s a) f0.
Proof. intros s a. rewrite <- zp_mul. apply eqn_zp. Qed.
Lemma fshift_add : forall s (a b : fps F), feq (fshift s (fadd a b)) (fadd (fshift s a) (fshift s b)).
Proof. intros s a b. rewrite <- !zp_mul. ring. Qed.
Lemma fshift_sub : forall s (a b : fps F), feq (fshift s (fsub a b)) (fsub (fshift s a) (fshift s b)).
Proof. intros s a b. rewrite <- !zp_mul. ring. Qed.
Lemma fshift_opp : forall s (a : fps F), feq (fshift s (fopp a)) (fopp (fshift s a)).
Proof. intros s a. rewrite <- !zp_mul. ring. Qed.
Lemma fshift_mul_l : forall s (a b : fps F), feq (fshift s (fmul a b)) (fmul (fshift s a) b).
Proof. intros s a b. rewrite <- !zp_mul. ring. Qed.
Lemma fshift_mul_r : forall s (a b : fps F), feq (fshift s (fmul a b)) (fmul a (fshift s b)).
Proof. intros s a b. rewrite <- !zp_mul. ring. Qed.

(** Newton steps on power series. *)
Lemma inv_newton : forall m0 (x y : fps F), eqn m0 (fmul x y) f1 ->
  eqn (m0 + m0) (fmul x (fsub y (fmul (fsub (fmul x y) f1) y))) f1.
Proof.
  intros m0 x y H. apply eqn_sub0.
  transitivity (fopp (fmul (fsub (fmul x y) f1) (fsub (fmul x y) f1))).
  - apply feq_eqn. ring.
  - apply eqn_sub0 in H. pose proof (eqn0_mul F _ _ _ _ H H) as H2.
    transitivity (fopp (@f0 F)); [apply fopp_e; exact H2|apply feq_eqn; ring].
Qed.

(** Residual of inv1p: z^-s ((1 + z^s x)(1 + z^s y) - 1). *)
Definition res1p (s : Z) (x y : fps F) : fps F := fadd y (fmul x (one_plus s y)).

Lemma res1p_spec : forall s x y,
  feq (fmul (one_plus s x) (one_plus s y)) (one_plus s (res1p s x y)).
Proof. intros s x y. unfold res1p, one_plus. rewrite <- !zp_mul. ring. Qed.

Lemma inv1p_newton : forall s m0 (x y : fps F), eqn m0 (res1p s x y) f0 ->
  eqn (m0 + m0) (res1p s x (fsub y (fmul (res1p s x y) (one_plus s y)))) f0.
Proof.
  intros s m0 x y H.
  set (e := res1p s x y) in *.
  transitivity (fopp (fmul (zp (Z.to_nat s)) (fmul e e))).
  - apply feq_eqn. unfold e, res1p, one_plus. rewrite <- !zp_mul. ring.
  - pose proof (eqn0_mul F _ _ _ _ H H) as H2.
    transitivity (fopp (fmul (zp (Z.to_nat s)) (@f0 F))).
    + apply fopp_e. apply fmul_e; [reflexivity|exact H2].
    + apply feq_eqn. ring.
Qed.

Lemma exp_newton : forall k (x y : fps F), (1 <= k)%nat -> x O = k0 -> y O = k1 -> eqn k y (fexp x) ->
  eqn (k + k) (fsub y (fmul y (fsub (flog y) x))) (fexp x).
Proof.
  intros k x y Hk Hx Hy H.
  set (d := fsub (flog y) x).
  assert (Hd : eqn k d f0).
  { unfold d. apply -> eqn_sub0. transitivity (flog (fexp x)); [apply flog_e; exact H|].
    apply feq_eqn. apply flog_exp. exact Hx. }
  assert (Hd0 : d O = k0) by (apply (eqn_at k d f0 O Hd); lia).
  assert (Hy2 : feq y (fmul (fexp x) (fexp d))).
  { rewrite <- fexp_add by auto. rewrite <- (fexp_log F y Hy) at 1. apply fexp_f. unfold d. ring. }
  pose proof (fexp_lin F k d Hk Hd) as Hl.
  pose proof (eqn0_mul F _ _ _ _ Hd Hd) as H2.
  transitivity (fmul (fmul (fexp x) (fexp d)) (fsub f1 d)).
  { apply feq_eqn. rewrite <- Hy2. ring. }
  transitivity (fmul (fmul (fexp x) (fadd f1 d)) (fsub f1 d)).
  { apply fmul_e; [|reflexivity]. apply fmul_e; [reflexivity|exact Hl]. }
  transitivity (fsub (fexp x) (fmul (fexp x) (fmul d d))).
  { apply feq_eqn. ring. }
  transitivity (fsub (fexp x) (fmul (fexp x) (@f0 F))).
  { apply fsub_e; [reflexivity|]. apply fmul_e; [reflexivity|exact H2]. }
  apply feq_eqn. ring.
Qed.

(** theta (z^s a) = z^s (s a + theta a) *)
Lemma theta_fshift : forall s (a : fps F), feq (theta (fshift s a)) (fshift s (fdshift (Z.of_nat s) a)).
Proof.
  intros s a i. unfold theta, fshift, fdshift. destruct (Nat.ltb_spec i s); [ring|].
  rewrite <- Nat2Z.inj_add, kofZ_of_nat. replace (s + (i - s))%nat with i by lia. reflexivity.
Qed.

Lemma fdshift_fishift : forall s (a : fps F), (s = 0 -> a O = k0) -> 0 <= s -> feq (fdshift s (fishift s a)) a.
Proof.
  intros s a Ha Hs i. unfold fdshift, fishift.
  destruct (Z.eqb_spec (s + Z.of_nat i) 0) as [H|H].
  - assert (i = O) by lia. subst i. rewrite Ha by lia. ring.
  - field. apply kofZ_nz. auto.
Qed.

Lemma fdshift_0 : forall a : fps F, feq (fdshift 0 a) (theta a).
Proof. intros a i. unfold fdshift, theta. replace (0 + Z.of_nat i) with (Z.of_nat i) by lia. rewrite kofZ_of_nat. reflexivity. Qed.

Lemma log_ode : forall n (f y : fps F), f O = k1 -> y O = k0 ->
  eqn n (fmul f (theta y)) (theta f) -> eqn n y (flog f).
Proof.
  intros n f y Hf Hy H. apply theta_inj; [rewrite flog_coef0; exact Hy|].
  apply (eqn_cancel F n f); [rewrite Hf; apply k1_nz|].
  transitivity (theta f); [exact H|]. symmetry. apply feq_eqn. apply theta_log. exact Hf.
Qed.

Lemma expm1_newton : forall k (X Y D : fps F), (1 <= k)%nat -> X O = k0 -> Y O = k0 ->
  feq D (fsub (flog1p Y) X) -> eqn k Y (fsub (fexp X) f1) ->
  eqn k D f0 /\ eqn (k + k) (fsub Y (fmul (fadd f1 Y) D)) (fsub (fexp X) f1).
Proof.
  intros k X Y D Hk HX HY HD H.
  set (y := fadd f1 Y).
  assert (Hlog : feq (flog y) (flog1p Y)).
  { unfold flog. apply flog1p_f. unfold y. ring. }
  assert (Hy0 : y O = k1). { unfold y, fadd, f1, fC. rewrite HY. ring. }
  assert (Hy : eqn k y (fexp X)).
  { transitivity (fadd f1 (fsub (fexp X) f1)); [apply fadd_e; [reflexivity|exact H]|apply feq_eqn; ring]. }
  pose proof (exp_newton k X y Hk HX Hy0 Hy) as HN.
  split.
  - rewrite HD, <- Hlog. apply -> eqn_sub0. transitivity (flog (fexp X)); [apply flog_e; exact Hy|].
    apply feq_eqn. apply flog_exp. exact HX.
  - transitivity (fsub (fsub y (fmul y (fsub (flog y) X))) f1).
    + apply feq_eqn. rewrite HD, Hlog. unfold y. ring.
    + apply fsub_e; [exact HN|reflexivity].
Qed.

(** Y -> Y + z^s e^(x - Y) + e^(-Y) - 1 with G = log (1 + U). *)
Lemma log1p_exp_newton : forall k (Y U G : fps F), (1 <= k)%nat -> Y O = k0 -> U O = k0 ->
  feq G (flog1p U) -> eqn k Y G ->
  let N := fadd (fmul U (fexp (fopp Y))) (fsub (fexp (fopp Y)) f1) in
  eqn k N f0 /\ eqn (k + k) (fadd Y N) G.
Proof.
  intros k Y U G Hk HY HU HG H N.
  assert (HG0 : G O = k0). { rewrite (HG O). apply flog1p_coef0. }
  set (D := fsub Y G).
  assert (HD : eqn k D f0) by (apply eqn_sub0 in H; exact H).
  assert (HD0 : fopp D O = k0). { unfold D, fopp, fsub. rewrite HY, HG0. ring. }
  assert (HexpG : feq (fexp G) (fadd f1 U)).
  { assert (E : feq G (flog (fadd f1 U))).
    { rewrite HG. unfold flog. apply flog1p_f. ring. }
    rewrite (fexp_feq F _ _ E). apply fexp_log. unfold fadd, f1, fC. rewrite HU. ring. }
  assert (HN : feq N (fsub (fexp (fopp D)) f1)).
  { unfold N. transitivity (fsub (fmul (fadd f1 U) (fexp (fopp Y))) f1); [ring|].
    rewrite <- HexpG. rewrite <- fexp_add; [|exact HG0|unfold fopp; rewrite HY; ring].
    apply fsub_f; [|reflexivity]. apply fexp_f. unfold D. ring. }
  assert (HoD : eqn k (fopp D) f0).
  { transitivity (fopp (@f0 F)); [apply fopp_e; exact HD|apply feq_eqn; ring]. }
  pose proof (fexp_lin F k (fopp D) Hk HoD) as Hl.
  split.
  - rewrite HN. apply -> eqn_sub0. transitivity (fadd f1 (fopp D)).
    + apply eqn_mono with (n := (k + k)%nat); [lia|exact Hl].
    + transitivity (fadd f1 (@f0 F)); [apply fadd_e; [reflexivity|exact HoD]|apply feq_eqn; ring].
  - transitivity (fadd Y (fsub (fadd f1 (fopp D)) f1)).
    + rewrite HN. apply fadd_e; [reflexivity|]. apply fsub_e; [exact Hl|reflexivity].
    + apply feq_eqn. unfold D. ring.
Qed.

End FPSLemmas.

Section Algos.
Variable F : Fld.
Notation KK := (K F).
Notation ser := (series F).
Add Field KFieldA2 : (kfield F).
Add Ring fps_ringA2 : (fps_ring_theory F) (setoid (feq_Equiv F) (fps_ring_ext F)).
Variable kern : kernel F.
Hypothesis Hkern : kernel_ok kern.

Lemma set_known_up : forall (x : ser) kn, valid x -> known x <= kn ->
  exists x', set_known F x kn = Ok x' /\ valid x' /\ known x' = kn /\ limit x' = limit x /\
    nonzero x' = nonzero x /\ feq (den x') (den x).
Proof.
  intros x kn Hv Hk. pose proof Hv as (H0 & H1 & H2 & H3).
  destruct (set_known_valid F x kn Hv ltac:(lia)) as (x' & E & V & K & L & N & D).
  exists x'. rsplit; auto; [lia|].
  intros i. destruct (Z_lt_ge_dec (Z.of_nat i) kn).
  - apply D. lia.
  - rewrite !den_out by lia. reflexivity.
Qed.

(** Every known term is stored. *)
Definition full (x : ser) : Prop := nonzero x = known x.

Lemma high_sub_ok : forall (y d : ser) m0, valid y -> valid d -> known d = known y -> 0 <= m0 <= known y ->
  small (known y) -> known y <= limit y -> eqn (Z.to_nat m0) (den d) f0 ->
  exists y', high_sub F y m0 (high F d m0) = Ok y' /\ valid y' /\ known y' = known y /\
    limit y' = limit y /\ nonzero y <= nonzero y' /\ eqn (Z.to_nat (known y)) (den y') (fsub (den y) (den d)) /\
    (m0 < known y -> full d -> full y').
Proof.
  intros y d m0 Hy Hd Hk Hm Hsm Hl Hz. unfold high_sub, small in *.
  destruct (high_valid F d m0 Hd) as (HV & HK & HN & _ & HD).
  pose proof Hy as (Y0 & Y1 & Y2 & Y3). pose proof Hd as (D0 & D1 & D2 & D3).
  assert (Hr : relu m0 = m0) by (unfold relu; lia). rewrite Hr in *.
  destruct (high_addsub_ok F y (high F d m0) (-1) 0 m0) as (y' & E & V & K & L & N & P & _); auto; unfold small; try lia.
  - rewrite HN. unfold relu. lia.
  - exists y'. rewrite HK in *. rewrite HN in *. rsplit; auto.
    + unfold relu in *. lia.
    + destruct (relu (nonzero d - m0) =? 0); unfold relu in *; lia.
    + replace (Z.min (known y) (relu (known d - m0) + m0)) with (known y) in P by (unfold relu; lia).
      etransitivity; [exact P|].
      transitivity (fadd (den y) (fshift (Z.to_nat m0) (fopp (fhigh (Z.to_nat m0) (den d))))).
      { apply feq_eqn. apply fadd_f; [reflexivity|]. apply fshift_f.
        unfold hcoef. cbn [Z.ltb kpow2]. change (-1 <? 0) with true. cbn iota.
        rewrite fscale_m1. rewrite HD. reflexivity. }
      transitivity (fsub (den y) (fshift (Z.to_nat m0) (fhigh (Z.to_nat m0) (den d)))).
      { apply feq_eqn. rewrite fshift_opp. ring. }
      apply fsub_e; [reflexivity|]. apply fshift_fhigh_eqn. exact Hz.
    + intros Hlt Hf. unfold full in *. rewrite N, K. unfold relu.
      destruct (Z.eqb_spec (Z.max (nonzero d - m0) 0) 0); lia.
Qed.

Lemma high_add_ok : forall (y d : ser) m0, valid y -> valid d -> known d = known y -> 0 <= m0 <= known y ->
  small (known y) -> known y <= limit y -> eqn (Z.to_nat m0) (den d) f0 ->
  exists y', high_add F y m0 (high F d m0) = Ok y' /\ valid y' /\ known y' = known y /\
    limit y' = limit y /\ nonzero y <= nonzero y' /\ eqn (Z.to_nat (known y)) (den y') (fadd (den y) (den d)) /\
    (m0 < known y -> full d -> full y').
Proof.
  intros y d m0 Hy Hd Hk Hm Hsm Hl Hz. unfold high_add, small in *.
  destruct (high_valid F d m0 Hd) as (HV & HK & HN & _ & HD).
  pose proof Hy as (Y0 & Y1 & Y2 & Y3). pose proof Hd as (D0 & D1 & D2 & D3).
  assert (Hr : relu m0 = m0) by (unfold relu; lia). rewrite Hr in *.
  destruct (high_addsub_ok F y (high F d m0) 1 0 m0) as (y' & E & V & K & L & N & P & _); auto; unfold small; try lia.
  - rewrite HN. unfold relu. lia.
  - exists y'. rewrite HK in *. rewrite HN in *. rsplit; auto.
    + unfold relu in *. lia.
    + destruct (relu (nonzero d - m0) =? 0); unfold relu in *; lia.
    + replace (Z.min (known y) (relu (known d - m0) + m0)) with (known y) in P by (unfold relu; lia).
      etransitivity; [exact P|].
      transitivity (fadd (den y) (fshift (Z.to_nat m0) (fhigh (Z.to_nat m0) (den d)))).
      { apply feq_eqn. apply fadd_f; [reflexivity|]. apply fshift_f.
        unfold hcoef. cbn [Z.ltb kpow2]. change (1 <? 0) with false. cbn iota.
        rewrite fscale_1. rewrite HD. reflexivity. }
      apply fadd_e; [reflexivity|]. apply fshift_fhigh_eqn. exact Hz.
    + intros Hlt Hf. unfold full in *. rewrite N, K. unfold relu.
      destruct (Z.eqb_spec (Z.max (nonzero d - m0) 0) 0); lia.
Qed.

(** y +- x with no shift. *)
Lemma sub_in_ok : forall y x : ser, valid y -> valid x -> small (known y) -> small (known x) ->
  Z.min (known y) (known x) <= limit y ->
  exists y', sub_in F y x = Ok y' /\ valid y' /\ known y' = Z.min (known y) (known x) /\
    limit y' = limit y /\ (0 < known x -> 0 < nonzero y -> 0 < nonzero y') /\
    eqn (Z.to_nat (Z.min (known y) (known x))) (den y') (fsub (den y) (den x)) /\ (full y \/ full x -> full y').
Proof.
  intros y x Hy Hx Hsy Hsx Hl. unfold sub_in, small in *.
  pose proof Hy as (Y0 & Y1 & Y2 & Y3). pose proof Hx as (X0 & X1 & X2 & X3).
  destruct (high_addsub_ok F y x (-1) 0 0) as (y' & E & V & K & L & N & P & _); auto; unfold small; try lia.
  rewrite Z.add_0_r in *.
  exists y'. rsplit; auto.
  3:{ intros Hf. unfold full in *. rewrite N, K. destruct (Z.eqb_spec (nonzero x) 0); lia. }
  - intros Hkx Hny. rewrite N. destruct (nonzero x =? 0); lia.
  - etransitivity; [exact P|]. apply feq_eqn. intros i. unfold fadd, fsub, fshift, fscale, hcoef.
    change (Z.to_nat 0) with O. destruct (Nat.ltb_spec i O); [lia|].
    change (-1 <? 0) with true. cbn iota. cbn [kpow2]. rewrite Nat.sub_0_r. ring.
Qed.

Lemma add_in_ok : forall y x : ser, valid y -> valid x -> small (known y) -> small (known x) ->
  Z.min (known y) (known x) <= limit y ->
  exists y', add_in F y x = Ok y' /\ valid y' /\ known y' = Z.min (known y) (known x) /\
    limit y' = limit y /\ (0 < known x -> 0 < nonzero y -> 0 < nonzero y') /\
    eqn (Z.to_nat (Z.min (known y) (known x))) (den y') (fadd (den y) (den x)) /\ (full y \/ full x -> full y').
Proof.
  intros y x Hy Hx Hsy Hsx Hl. unfold add_in, small in *.
  pose proof Hy as (Y0 & Y1 & Y2 & Y3). pose proof Hx as (X0 & X1 & X2 & X3).
  destruct (high_addsub_ok F y x 1 0 0) as (y' & E & V & K & L & N & P & _); auto; unfold small; try lia.
  rewrite Z.add_0_r in *.
  exists y'. rsplit; auto.
  3:{ intros Hf. unfold full in *. rewrite N, K. destruct (Z.eqb_spec (nonzero x) 0); lia. }
  - intros Hkx Hny. rewrite N. destruct (nonzero x =? 0); lia.
  - etransitivity; [exact P|]. apply feq_eqn. intros i. unfold fadd, fsub, fshift, fscale, hcoef.
    change (Z.to_nat 0) with O. destruct (Nat.ltb_spec i O); [lia|].
    change (1 <? 0) with false. cbn iota. cbn [kpow2]. rewrite Nat.sub_0_r. ring.
Qed.

Lemma sub1_ok : forall x : ser, valid x -> 0 < nonzero x ->
  exists x', sub_int F x 1 = Ok x' /\ valid x' /\ known x' = known x /\ limit x' = limit x /\
    nonzero x' = nonzero x /\ feq (den x') (fsub (den x) f1).
Proof.
  intros x Hx Hn. unfold sub_int. destruct (add_scalar_ok F x (kofZ (-1)) Hx Hn) as (x' & E & V & K & L & N & D).
  exists x'. rsplit; auto. rewrite D. intros i. unfold fadd, fsub, f1, fC.
  destruct i; [|ring]. change (-1) with (Z.opp 1). cbn [Z.opp kofZ]. change (Pos.to_nat 1) with 1%nat. cbn [kofnat]. ring.
Qed.

Lemma new_valid : forall n, valid (new_series (F:=F) n).
Proof.
  intros n. unfold valid, limit, new_series. cbn [nonzero known cells]. rsplit; try lia.
Qed.

Lemma unknown_valid : forall y : ser, valid (set_unknown F y).
Proof. intros y. unfold valid, limit, set_unknown. cbn [nonzero known cells]. rsplit; try lia. Qed.

Variable base : bases F.
Hypothesis Hbase : bases_ok base.

(** Post-condition shared by all functions below. *)
Definition result (y y' : ser) (n : Z) : Prop :=
  valid y' /\ known y' = n /\ limit y' = limit y /\ pos y'.

Ltac vd H := let a := fresh "N0" in let b := fresh "N1" in let c := fresh "N2" in let d := fresh "N3" in
  pose proof H as (a & b & c & d).

(** *** inv *)
Definition inv_P (x : ser) (ylim : Z) (k : Z) (st : ser * ser) : Prop :=
  let (y, dy) := st in
  valid y /\ known y = k /\ limit y = ylim /\ 0 < nonzero y /\ limit dy = known x /\
  eqn (Z.to_nat k) (fmul (den x) (den y)) f1 /\ (full x -> full y).

Lemma inv_step_ok : forall x ylim m0 k m r st, valid x -> 0 < nonzero x -> small (known x) -> known x <= ylim ->
  0 < m0 -> m0 < m -> m0 <= k -> k <= m -> m <= 2 * m0 -> m <= known x -> inv_P x ylim k st ->
  exists st', inv_step F kern x m0 m r st = Ok st' /\ inv_P x ylim m st'.
Proof.
  intros x ylim m0 k m r [y dy] Hx Hnx Hsm Hlim H0 Hlt Hk Hkm Hm2 Hmn (Hy & HK & HL & HN & HLd & HE & HF).
  unfold small in *. unfold inv_step.
  destruct (set_known_up y m Hy ltac:(lia)) as (y1 & E1 & V1 & K1 & L1 & N1 & D1). rewrite E1. cbn [bind].
  destruct (set_mul_ok F kern Hkern dy x y1 Hx V1) as (d1 & E2 & V2 & K2 & L2 & N2 & D2); unfold small, both_pos; try lia.
  rewrite E2. cbn [bind]. unfold relu in N2.
  destruct (sub1_ok d1 V2 ltac:(lia)) as (d2 & E3 & V3 & K3 & L3 & N3 & D3). rewrite E3. cbn [bind].
  destruct (set_mul_ok F kern Hkern d2 d2 y1 V3 V1) as (d3 & E4 & V4 & K4 & L4 & N4 & D4); unfold small, both_pos; try lia.
  rewrite E4. cbn [bind].
  replace (Z.min (known x) (known y1)) with m in * by lia.
  replace (Z.min (known d2) (known y1)) with m in * by lia.
  assert (Hd3 : eqn (Z.to_nat m) (den d3) (fmul (fsub (fmul (den x) (den y)) f1) (den y))).
  { etransitivity; [exact D4|]. apply fmul_e; [|apply feq_eqn; exact D1].
    rewrite D3. apply fsub_e; [|reflexivity]. etransitivity; [exact D2|].
    apply feq_eqn. rewrite D1. reflexivity. }
  destruct (high_sub_ok y1 d3 m0) as (y2 & E5 & V5 & K5 & L5 & N5 & D5 & F5); auto; unfold small; try lia.
  { transitivity (fmul (fsub (fmul (den x) (den y)) f1) (den y)).
    - apply eqn_mono with (n := Z.to_nat m); [lia|exact Hd3].
    - transitivity (fmul (@f0 F) (den y)); [|apply feq_eqn; ring].
      apply fmul_e; [|reflexivity]. apply -> eqn_sub0. apply eqn_mono with (n := Z.to_nat k); [lia|exact HE]. }
  rewrite E5. cbn [bind]. eexists. split; [reflexivity|]. unfold inv_P. rsplit; auto; try lia.
  2:{ intros Hfx. apply F5; [lia|]. unfold full in *. unfold relu in *. lia. }
  transitivity (fmul (den x) (fsub (den y) (fmul (fsub (fmul (den x) (den y)) f1) (den y)))).
  - apply fmul_e; [reflexivity|]. replace (known y1) with m in D5 by lia. etransitivity; [exact D5|].
    apply fsub_e; [apply feq_eqn; exact D1|exact Hd3].
  - apply eqn_mono with (n := (Z.to_nat k + Z.to_nat k)%nat); [lia|]. apply inv_newton. exact HE.
Qed.

Lemma set_inv_ok : forall y x : ser, valid x -> pos x -> (0 < known x -> den x O <> k0) -> small (known x) ->
  known x <= limit y ->
  exists y', set_inv F kern base y x = Ok y' /\ result y y' (known x) /\
    eqn (Z.to_nat (known x)) (fmul (den x) (den y')) f1 /\ (full x -> full y').
Proof.
  intros y x Hx Hpos Hc Hsm Hl. pose proof Hx as (X0 & X1 & X2 & X3). unfold set_inv.
  destruct (Z.eqb_spec (known x) 0) as [H0|H0].
  - eexists. split; [reflexivity|]. split; [split; [apply unknown_valid|]|].
    + unfold set_unknown, limit, pos. cbn [known cells nonzero]. rsplit; lia.
    + split; [rewrite H0; intros i Hi; lia|reflexivity].
  - assert (Hn : 0 < nonzero x) by (apply Hpos; lia).
    rewrite slow_assert_true by lia. cbn [bind].
    destruct (ib_ok _ _ Hbase y x Hx Hn Hsm (Hc ltac:(lia)) Hl) as (y1 & E1 & V1 & L1 & K1 & N1 & D1 & F1).
    rewrite E1. cbn [bind].
    destruct (newton_iterate_ind (inv_step F kern x) (known x) (inv_P x (limit y))) with (n0 := known y1) (st := (y1, new_series (F:=F) (known x)))
      as ((y2 & d2) & E2 & (V2 & K2 & L2 & N2 & _ & D2 & F2)); try lia.
    + intros m0 m st A1 A2 A3 A4 HP. apply inv_step_ok with (k := m0); auto; lia.
    + intros m0 m st A1 A2 A3 A4 HP. apply inv_step_ok with (k := m); auto; lia.
    + unfold inv_P. rsplit; auto. rewrite new_series_limit. unfold relu. lia.
    + rewrite E2. cbn [bind fst]. eexists. split; [reflexivity|]. split; [|split; [exact D2|exact F2]].
      unfold result, pos. rsplit; auto.
Qed.

(** *** inv1p *)
Definition inv1p_P (x : ser) (s ylim : Z) (k : Z) (st : ser * ser) : Prop :=
  let (y, dy) := st in
  valid y /\ known y = k /\ limit y = ylim /\ 0 < nonzero y /\ limit dy = known x /\
  eqn (Z.to_nat k) (res1p F s (den x) (den y)) f0.

Lemma one_plus_eqn : forall s n (a b : fps F), eqn n a b -> eqn n (one_plus s a) (one_plus s b).
Proof.
  intros s n a b H. unfold one_plus. apply fadd_e; [reflexivity|]. rewrite <- !zp_mul.
  apply fmul_e; [reflexivity|exact H].
Qed.
Lemma one_plus_feq : forall s (a b : fps F), feq a b -> feq (one_plus s a) (one_plus s b).
Proof. intros s a b H. unfold one_plus. rewrite H. reflexivity. Qed.
Lemma res1p_eqn : forall s n (x a b : fps F), eqn n a b -> eqn n (res1p F s x a) (res1p F s x b).
Proof.
  intros s n x a b H. unfold res1p. apply fadd_e; [exact H|]. apply fmul_e; [reflexivity|].
  apply one_plus_eqn. exact H.
Qed.

Lemma inv1p_step_ok : forall x s ylim m0 k m r st, valid x -> 0 < nonzero x -> small (known x) -> known x <= ylim ->
  0 < s -> 0 < m0 -> m0 <= k -> k <= m -> m <= 2 * m0 -> m <= known x -> inv1p_P x s ylim k st ->
  exists st', inv1p_step F kern x s m0 m r st = Ok st' /\ inv1p_P x s ylim m st'.
Proof.
  intros x s ylim m0 k m r [y dy] Hx Hnx Hsm Hlim Hs H0 Hk Hkm Hm2 Hmn (Hy & HK & HL & HN & HLd & HE).
  unfold small in *. unfold inv1p_step.
  pose proof Hx as (X0 & X1 & X2 & X3).
  destruct (set_known_up y m Hy ltac:(lia)) as (y1 & E1 & V1 & K1 & L1 & N1 & D1). rewrite E1. cbn [bind].
  pose proof V1 as (Y0 & Y1 & Y2 & Y3).
  destruct (set_mul1p_ok F kern Hkern dy x y1 s Hx V1) as (d1 & E2 & V2 & K2 & L2 & N2 & D2); unfold small, both_pos1p; try lia.
  rewrite E2. cbn [bind].
  destruct (add_in_ok d1 y1 V2 V1) as (d2 & E3 & V3 & K3 & L3 & N3 & D3 & F3); unfold small; try lia. rewrite E3. cbn [bind].
  assert (Hkd2 : known d2 = m) by lia.
  pose proof V3 as (Z0 & Z1 & Z2 & Z3).
  destruct (set_mul1p_ok F kern Hkern d2 d2 y1 s V3 V1) as (d3 & E4 & V4 & K4 & L4 & N4 & D4); unfold small, both_pos1p; try lia.
  rewrite E4. cbn [bind].
  replace (Z.min (known d2) (known y1 + s)) with m in * by lia.
  replace (Z.min (known d1) (known y1)) with m in * by lia.
  set (e := res1p F s (den x) (den y)) in *.
  assert (Hd2 : eqn (Z.to_nat m) (den d2) e).
  { etransitivity; [exact D3|].
    transitivity (fadd (fmul (den x) (one_plus s (den y1))) (den y1)).
    - apply fadd_e; [|reflexivity]. apply eqn_mono with (n := Z.to_nat (Z.min (known x) (known y1 + s))); [lia|exact D2].
    - apply feq_eqn. rewrite (one_plus_feq s _ _ D1), D1. unfold e, res1p. ring. }
  assert (Hd3 : eqn (Z.to_nat m) (den d3) (fmul e (one_plus s (den y)))).
  { etransitivity; [exact D4|]. apply fmul_e; [exact Hd2|]. apply feq_eqn. apply one_plus_feq. exact D1. }
  destruct (high_sub_ok y1 d3 m0) as (y2 & E5 & V5 & K5 & L5 & N5 & D5 & F5); auto; unfold small; try lia.
  { transitivity (fmul e (one_plus s (den y))).
    - apply eqn_mono with (n := Z.to_nat m); [lia|exact Hd3].
    - transitivity (fmul (@f0 F) (one_plus s (den y))); [|apply feq_eqn; ring].
      apply fmul_e; [|reflexivity]. apply eqn_mono with (n := Z.to_nat k); [lia|exact HE]. }
  rewrite E5. cbn [bind]. eexists. split; [reflexivity|]. unfold inv1p_P. rsplit; auto; try lia.
  transitivity (res1p F s (den x) (fsub (den y) (fmul e (one_plus s (den y))))).
  - apply res1p_eqn. replace (known y1) with m in D5 by lia. etransitivity; [exact D5|].
    apply fsub_e; [apply feq_eqn; exact D1|exact Hd3].
  - apply eqn_mono with (n := (Z.to_nat k + Z.to_nat k)%nat); [lia|]. apply inv1p_newton. exact HE.
Qed.

Lemma set_inv1p_ok : forall (y x : ser) s, valid x -> pos x -> 0 < s -> small (known x) ->
  known x <= limit y ->
  exists y', set_inv1p F kern y x s = Ok y' /\ result y y' (known x) /\
    eqn (Z.to_nat (known x + s)) (fmul (one_plus s (den x)) (one_plus s (den y'))) f1.
Proof.
  intros y x s Hx Hpos Hs Hsm Hl. pose proof Hx as (X0 & X1 & X2 & X3). unfold set_inv1p.
  assert (Hfin : forall w, eqn (Z.to_nat (known x)) (res1p F s (den x) (den w)) f0 ->
     eqn (Z.to_nat (known x + s)) (fmul (one_plus s (den x)) (one_plus s (den w))) f1).
  { intros w Hw. rewrite res1p_spec.
    replace (Z.to_nat (known x + s)) with (Z.to_nat s + Z.to_nat (known x))%nat by lia.
    unfold one_plus. transitivity (fadd f1 (fshift (Z.to_nat s) (@f0 F))).
    - apply fadd_e; [reflexivity|]. apply fshift_eqn. exact Hw.
    - apply feq_eqn. rewrite <- zp_mul. ring. }
  destruct (Z.eqb_spec (known x) 0) as [H0|H0].
  - eexists. split; [reflexivity|]. split; [split; [apply unknown_valid|]|].
    + unfold set_unknown, limit, pos. cbn [known cells nonzero]. rsplit; lia.
    + apply Hfin. rewrite H0. intros i Hi. lia.
  - assert (Hn : 0 < nonzero x) by (apply Hpos; lia).
    rewrite slow_assert_true by lia. cbn [bind].
    destruct (low_valid F x s Hx) as (Vl & Kl & Nl & _ & Dl). unfold relu in *.
    destruct (set_neg_ok F y (low F x s) Vl) as (y1 & E1 & V1 & K1 & L1 & N1 & D1); unfold small in *; try lia.
    rewrite E1. cbn [bind].
    destruct (newton_iterate_ind (inv1p_step F kern x s) (known x) (inv1p_P x s (limit y))) with (n0 := known y1) (st := (y1, new_series (F:=F) (known x)))
      as ((y2 & d2) & E2 & (V2 & K2 & L2 & N2 & _ & D2)); try lia.
    + intros m0 m st A1 A2 A3 A4 HP. apply inv1p_step_ok with (k := m0); auto; lia.
    + intros m0 m st A1 A2 A3 A4 HP. apply inv1p_step_ok with (k := m); auto; lia.
    + unfold inv1p_P. rsplit; auto; try lia; [rewrite new_series_limit; unfold relu; lia|].
      assert (Hy1 : eqn (Z.to_nat (known y1)) (den y1) (fopp (den x))).
      { rewrite D1. apply fopp_e. replace (known y1) with (Z.min (Z.max s 0) (known x)) by lia. exact Dl. }
      transitivity (res1p F s (den x) (fopp (den x))); [apply res1p_eqn; exact Hy1|].
      transitivity (fshift (Z.to_nat s) (fopp (fmul (den x) (den x)))).
      { apply feq_eqn. unfold res1p, one_plus. rewrite <- !zp_mul. ring. }
      apply eqn_mono with (n := Z.to_nat s); [lia|]. apply fshift_low.
    + rewrite E2. cbn [bind fst]. eexists. split; [reflexivity|]. split; [|apply Hfin; exact D2].
      unfold result, pos. rsplit; auto.
Qed.

(** Forms of the product and difference lemmas with few count facts. *)
Lemma set_mul_p : forall (z x y : ser) n, valid x -> valid y -> pos x -> pos y ->
  Z.min (known x) (known y) = n -> small n -> n <= limit z ->
  exists z', set_mul F kern z x y = Ok z' /\ valid z' /\ known z' = n /\ limit z' = limit z /\ pos z' /\
    eqn (Z.to_nat n) (den z') (fmul (den x) (den y)) /\ (full x \/ full y -> full z').
Proof.
  intros z x y n Hx Hy Px Py Hn Hs Hl. unfold pos, small in *.
  pose proof Hy as (Y0 & Y1 & Y2 & Y3). pose proof Hx as (X0 & X1 & X2 & X3).
  destruct (set_mul_ok F kern Hkern z x y Hx Hy) as (z' & E & V & K & L & N & D); unfold small, both_pos; try lia.
  rewrite Hn in *. exists z'. unfold relu in N. rsplit; auto; unfold full; intros H; lia.
Qed.

Lemma set_mul1p_p : forall (z x y : ser) s n, valid x -> valid y -> pos x -> pos y -> 0 < s ->
  Z.min (known x) (known y + s) = n -> small (known x) -> n <= limit z ->
  exists z', set_mul1p F kern z x y s = Ok z' /\ valid z' /\ known z' = n /\ limit z' = limit z /\ pos z' /\
    eqn (Z.to_nat n) (den z') (fmul (den x) (one_plus s (den y))).
Proof.
  intros z x y s n Hx Hy Px Py Hs0 Hn Hs Hl. unfold pos, small in *.
  pose proof Hy as (Y0 & Y1 & Y2 & Y3). pose proof Hx as (X0 & X1 & X2 & X3).
  destruct (set_mul1p_ok F kern Hkern z x y s Hx Hy) as (z' & E & V & K & L & N & D); unfold small, both_pos1p; try lia.
  rewrite Hn in *. exists z'. rsplit; auto. intros H. lia.
Qed.

Lemma sub_in_p : forall (y x : ser) n, valid y -> valid x -> pos y -> small (known y) -> small (known x) ->
  Z.min (known y) (known x) = n -> n <= limit y ->
  exists y', sub_in F y x = Ok y' /\ valid y' /\ known y' = n /\ limit y' = limit y /\ pos y' /\
    eqn (Z.to_nat n) (den y') (fsub (den y) (den x)) /\ (full y \/ full x -> full y').
Proof.
  intros y x n Hy Hx Py Hsy Hsx Hn Hl. unfold pos in *.
  destruct (sub_in_ok y x Hy Hx Hsy Hsx) as (y' & E & V & K & L & N & D & FF); [lia|].
  rewrite Hn in *. exists y'. rsplit; auto. intros H. apply N; [lia|apply Py; lia].
Qed.

(** *** div *)
Lemma set_div_ok : forall y a b : ser, valid a -> valid b -> pos a -> pos b ->
  (0 < known b -> den b O <> k0) -> small (known a) -> small (known b) ->
  Z.min (known a) (known b) <= limit y ->
  exists y', set_div F kern base y a b = Ok y' /\ result y y' (Z.min (known a) (known b)) /\
    eqn (Z.to_nat (Z.min (known a) (known b))) (fmul (den b) (den y')) (den a) /\ (full a -> full y').
Proof.
  intros y a b Ha Hb Hpa Hpb Hc Hsa Hsb Hl. unfold small in *.
  assert (Hn0 : 0 <= Z.min (known a) (known b)).
  { destruct Ha as (? & ? & _), Hb as (? & ? & _). lia. }
  unfold set_div.
  set (n := Z.min (known a) (known b)) in *. assert (Hn : n = Z.min (known a) (known b)) by reflexivity. clearbody n.
  destruct (low_valid F b n Hb) as (Vl & Kl & Nl & _ & Dl). unfold relu in Kl, Nl, Dl.
  replace (Z.min (Z.max n 0) (known b)) with n in Kl, Nl, Dl by lia.
  assert (Pl : pos (low F b n)) by (unfold pos in *; lia). clear Nl.
  destruct (set_inv_ok (new_series (F:=F) n) (low F b n) Vl Pl) as (ib & E1 & (V1 & K1 & L1 & P1) & D1 & _); unfold small; try lia.
  { intros H. rewrite (eqn_at F _ _ _ O Dl) by lia. apply Hc. lia. }
  { rewrite new_series_limit. unfold relu. lia. }
  rewrite E1. cbn [bind]. rewrite Kl in *.
  assert (D1' : eqn (Z.to_nat n) (fmul (den b) (den ib)) f1).
  { etransitivity; [|exact D1]. symmetry. apply fmul_e; [exact Dl|reflexivity]. }
  destruct (set_mul_p y a ib n Ha V1 Hpa P1) as (y1 & E2 & V2 & K2 & L2 & P2 & D2 & F2); unfold small; try lia.
  rewrite E2. cbn [bind].
  destruct (set_mul_p (new_series (F:=F) n) b y1 n Hb V2 Hpb P2) as (d1 & E3 & V3 & K3 & L3 & P3 & D3 & F3);
    rewrite ?new_series_limit; unfold small, relu; try lia.
  rewrite E3. cbn [bind]. rewrite new_series_limit in L3. unfold relu in L3.
  destruct (sub_in_p d1 a n V3 Ha P3) as (d2 & E4 & V4 & K4 & L4 & P4 & D4 & F4); unfold small; try lia.
  rewrite E4. cbn [bind].
  destruct (set_mul_p d2 d2 ib n V4 V1 P4 P1) as (d3 & E5 & V5 & K5 & L5 & P5 & D5 & F5); unfold small; try lia.
  rewrite E5. cbn [bind].
  destruct (sub_in_p y1 d3 n V2 V5 P2) as (y2 & E6 & V6 & K6 & L6 & P6 & D6 & F6); unfold small; try lia.
  rewrite E6. eexists. split; [reflexivity|]. split.
  { unfold result. rsplit; auto; lia. }
  split.
  2:{ intros Hf. apply F6. left. apply F2. left. exact Hf. }
  - assert (Hby : eqn (Z.to_nat n) (fmul (den b) (den y1)) (den a)).
    { transitivity (fmul (den b) (fmul (den a) (den ib))); [apply fmul_e; [reflexivity|exact D2]|].
      transitivity (fmul (fmul (den b) (den ib)) (den a)); [apply feq_eqn; ring|].
      transitivity (fmul (@f1 F) (den a)); [apply fmul_e; [exact D1'|reflexivity]|apply feq_eqn; ring]. }
    assert (Hd2 : eqn (Z.to_nat n) (den d2) f0).
    { etransitivity; [exact D4|]. apply -> eqn_sub0. etransitivity; [exact D3|exact Hby]. }
    assert (Hd3 : eqn (Z.to_nat n) (den d3) f0).
    { etransitivity; [exact D5|]. transitivity (fmul (@f0 F) (den ib)); [apply fmul_e; [exact Hd2|reflexivity]|apply feq_eqn; ring]. }
    transitivity (fmul (den b) (fsub (den y1) (@f0 F))).
    + apply fmul_e; [reflexivity|]. etransitivity; [exact D6|]. apply fsub_e; [reflexivity|exact Hd3].
    + etransitivity; [|exact Hby]. apply feq_eqn. ring.
Qed.

(** *** div1p *)
Lemma set_div1p_ok : forall (y a b : ser) s, valid a -> valid b -> pos a -> pos b -> 0 < s ->
  small (known a) -> small (known b) ->
  Z.min (known a) (known b + s) <= limit y ->
  exists y', set_div1p F kern y a b s = Ok y' /\ result y y' (Z.min (known a) (known b + s)) /\
    eqn (Z.to_nat (Z.min (known a) (known b + s))) (fmul (one_plus s (den b)) (den y')) (den a).
Proof.
  intros y a b s Ha Hb Hpa Hpb Hs Hsa Hsb Hl. unfold small in *.
  assert (Hn0 : 0 <= Z.min (known a) (known b + s) /\ 0 <= known b).
  { destruct Ha as (? & ? & _), Hb as (? & ? & _). lia. }
  unfold set_div1p. rewrite slow_assert_true by lia. cbn [bind].
  set (n := Z.min (known a) (known b + s)) in *.
  assert (Hn : n = Z.min (known a) (known b + s)) by reflexivity. clearbody n.
  destruct (low_valid F b (n - s) Hb) as (Vl & Kl & Nl & _ & Dl). unfold relu in Kl, Nl, Dl.
  replace (Z.min (Z.max (n - s) 0) (known b)) with (Z.max (n - s) 0) in Kl, Nl, Dl by lia.
  set (w := Z.max (n - s) 0) in *. assert (Hw : w = Z.max (n - s) 0) by reflexivity. clearbody w.
  assert (Pl : pos (low F b (n - s))) by (unfold pos in *; lia). clear Nl.
  destruct (set_inv1p_ok (new_series (F:=F) (n - s)) (low F b (n - s)) s Vl Pl Hs) as (ib & E1 & (V1 & K1 & L1 & P1) & D1);
    rewrite ?new_series_limit; unfold small, relu; try lia.
  rewrite E1. cbn [bind]. rewrite Kl in *.
  assert (D1' : eqn (Z.to_nat n) (fmul (one_plus s (den b)) (one_plus s (den ib))) f1).
  { apply eqn_mono with (n := Z.to_nat (w + s)); [lia|].
    etransitivity; [|exact D1]. symmetry. apply fmul_e; [|reflexivity].
    unfold one_plus. apply fadd_e; [reflexivity|].
    replace (Z.to_nat (w + s)) with (Z.to_nat s + Z.to_nat w)%nat by lia.
    apply fshift_eqn. exact Dl. }
  destruct (set_mul1p_p y a ib s n Ha V1 Hpa P1 Hs) as (y1 & E2 & V2 & K2 & L2 & P2 & D2); unfold small; try lia.
  rewrite E2. cbn [bind].
  destruct (set_mul1p_p (new_series (F:=F) n) y1 b s n V2 Hb P2 Hpb Hs) as (d1 & E3 & V3 & K3 & L3 & P3 & D3);
    rewrite ?new_series_limit; unfold small, relu; try lia.
  rewrite E3. cbn [bind]. rewrite new_series_limit in L3. unfold relu in L3.
  destruct (sub_in_p d1 a n V3 Ha P3) as (d2 & E4 & V4 & K4 & L4 & P4 & D4 & F4); unfold small; try lia.
  rewrite E4. cbn [bind].
  destruct (set_mul1p_p d2 d2 ib s n V4 V1 P4 P1 Hs) as (d3 & E5 & V5 & K5 & L5 & P5 & D5); unfold small; try lia.
  rewrite E5. cbn [bind].
  destruct (sub_in_p y1 d3 n V2 V5 P2) as (y2 & E6 & V6 & K6 & L6 & P6 & D6 & F6); unfold small; try lia.
  rewrite E6. eexists. split; [reflexivity|]. split.
  - unfold result. rsplit; auto; lia.
  - set (B := one_plus s (den b)) in *. set (W := one_plus s (den ib)) in *.
    assert (Hby : eqn (Z.to_nat n) (fmul B (den y1)) (den a)).
    { transitivity (fmul B (fmul (den a) W)); [apply fmul_e; [reflexivity|exact D2]|].
      transitivity (fmul (fmul B W) (den a)); [apply feq_eqn; ring|].
      transitivity (fmul (@f1 F) (den a)); [apply fmul_e; [exact D1'|reflexivity]|apply feq_eqn; ring]. }
    assert (Hd2 : eqn (Z.to_nat n) (den d2) f0).
    { etransitivity; [exact D4|]. apply -> eqn_sub0. etransitivity; [exact D3|].
      etransitivity; [|exact Hby]. apply feq_eqn. ring. }
    assert (Hd3 : eqn (Z.to_nat n) (den d3) f0).
    { etransitivity; [exact D5|]. transitivity (fmul (@f0 F) W); [apply fmul_e; [exact Hd2|reflexivity]|apply feq_eqn; ring]. }
    transitivity (fmul B (fsub (den y1) (@f0 F))).
    + apply fmul_e; [reflexivity|]. etransitivity; [exact D6|]. apply fsub_e; [reflexivity|exact Hd3].
    + etransitivity; [|exact Hby]. apply feq_eqn. ring.
Qed.

(** *** log *)
Lemma fdshift_feq : forall s (a b : fps F), feq a b -> feq (fdshift s a) (fdshift s b).
Proof. intros s a b H i. unfold fdshift. rewrite (H i). reflexivity. Qed.
Lemma fdshift_eqn : forall s n (a b : fps F), eqn n a b -> eqn n (fdshift s a) (fdshift s b).
Proof. intros s n a b H i Hi. unfold fdshift. rewrite (H i Hi). reflexivity. Qed.

Lemma set_log_gen_ok : forall c (y x : ser), valid x -> pos x -> (0 < known x -> den x O = k1) -> small (known x) ->
  known x <= limit y ->
  exists y', set_log_gen F kern base c y x = Ok y' /\ result y y' (known x) /\
    eqn (Z.to_nat (known x)) (den y') (flog (den x)) /\ (full x -> full y').
Proof.
  intros c y x Hx Hpos Hc Hsm Hl. pose proof Hx as (X0 & X1 & X2 & X3). unfold set_log_gen, small in *.
  destruct (Z.eqb_spec (known x) 0) as [H0|H0].
  - eexists. split; [reflexivity|]. split; [split; [apply unknown_valid|]|].
    + unfold set_unknown, limit, pos. cbn [known cells nonzero]. rsplit; lia.
    + split; [rewrite H0; intros i Hi; lia|reflexivity].
  - assert (Hn : 0 < nonzero x) by (apply Hpos; lia).
    assert (Hx0 : den x O = k1) by (apply Hc; lia).
    rewrite slow_assert_true by lia. cbn [bind].
    rewrite valid_rd by (auto; lia). change (Z.to_nat 0) with O. rewrite Hx0.
    replace (if c then v <- Ok k1;; slow_assert (keqb v k1) else Ok tt) with (@Ok unit tt).
    2:{ destruct c; [|reflexivity]. cbn [bind].
        assert (Hk : keqb (@k1 F) k1 = true) by (apply keqb_ok; reflexivity). rewrite Hk. reflexivity. }
    cbn [bind].
    destruct (set_derivative_shift_ok F (new_series (F:=F) (known x)) x 0 Hx) as (dx & E1 & V1 & K1 & L1 & N1 & D1);
      rewrite ?new_series_limit; unfold small, relu; try lia.
    rewrite E1. cbn [bind].
    destruct (set_div_ok y dx x V1 Hx) as (y1 & E2 & (V2 & K2 & L2 & P2) & D2 & F2); unfold small, pos; try lia.
    { intros _. rewrite Hx0. apply k1_nz. }
    rewrite E2. cbn [bind]. replace (Z.min (known dx) (known x)) with (known x) in * by lia.
    pose proof V2 as (Y0 & Y1 & Y2 & Y3).
    destruct (set_integral_shift_ok F y1 y1 0 V2) as (y2 & E3 & V3 & K3 & L3 & N3 & D3); unfold small; try lia.
    rewrite E3. eexists. split; [reflexivity|]. split.
    + unfold result, pos in *. rsplit; auto; lia.
    + split.
      2:{ intros Hf. assert (Hfd : full dx) by (unfold full in *; lia). specialize (F2 Hfd). unfold full in *. lia. }
      assert (Hy0 : den y1 O = k0).
      { pose proof (eqn_at F _ _ _ O D2 ltac:(lia)) as H1. rewrite fmul_coef0, Hx0 in H1.
        rewrite (D1 O), (fdshift_0 F (den x) O), theta_coef0 in H1.
        rewrite <- H1. ring. }
      apply log_ode; auto.
      * rewrite (D3 O). unfold fishift. reflexivity.
      * transitivity (fmul (den x) (den y1)).
        { apply fmul_e; [reflexivity|]. apply feq_eqn. rewrite <- fdshift_0.
          rewrite (fdshift_feq 0 _ _ D3). apply fdshift_fishift; auto. lia. }
        etransitivity; [exact D2|]. apply feq_eqn. rewrite D1. apply fdshift_0.
Qed.

(** *** log1p *)
Lemma set_log1p_ok : forall (y x : ser) s, valid x -> pos x -> 0 < s -> small s -> small (known x) ->
  known x <= limit y ->
  exists y', set_log1p F kern y x s = Ok y' /\ result y y' (known x) /\
    eqn (Z.to_nat (known x + s)) (fshift (Z.to_nat s) (den y')) (flog1p (fshift (Z.to_nat s) (den x))).
Proof.
  intros y x s Hx Hpos Hs Hss Hsm Hl. pose proof Hx as (X0 & X1 & X2 & X3). unfold set_log1p, small in *.
  set (S := Z.to_nat s).
  set (f := fadd f1 (fshift S (den x))).
  assert (HS : (0 < S)%nat) by (unfold S; lia).
  assert (Hf0 : f O = k1). { unfold f, fadd, f1, fC. rewrite fshift_coef0 by auto. ring. }
  assert (Hlog : feq (flog f) (flog1p (fshift S (den x)))).
  { unfold flog. apply flog1p_f. unfold f. ring. }
  assert (Hfin : forall n (w : fps F), eqn n (fmul f (fdshift s w)) (fdshift s (den x)) ->
    eqn (S + n) (fshift S w) (flog1p (fshift S (den x)))).
  { intros n w Hw. rewrite <- Hlog. apply log_ode; auto.
    - apply fshift_coef0. auto.
    - transitivity (fshift S (fdshift s (den x))).
      + transitivity (fshift S (fmul f (fdshift s w))).
        * apply feq_eqn. rewrite theta_fshift. replace (Z.of_nat S) with s by (unfold S; lia).
          rewrite fshift_mul_r. reflexivity.
        * apply fshift_eqn. exact Hw.
      + apply feq_eqn. unfold f. rewrite theta_add, theta_1, theta_fshift.
        replace (Z.of_nat S) with s by (unfold S; lia). ring. }
  replace (Z.to_nat (known x + s)) with (S + Z.to_nat (known x))%nat by (unfold S; lia).
  destruct (Z.eqb_spec (known x) 0) as [H0|H0].
  - eexists. split; [reflexivity|]. split; [split; [apply unknown_valid|]|].
    + unfold set_unknown, limit, pos. cbn [known cells nonzero]. rsplit; lia.
    + apply Hfin. rewrite H0. intros i Hi. lia.
  - assert (Hn : 0 < nonzero x) by (apply Hpos; lia).
    rewrite slow_assert_true by lia. cbn [bind].
    destruct (set_derivative_shift_ok F (new_series (F:=F) (known x)) x s Hx) as (dx & E1 & V1 & K1 & L1 & N1 & D1);
      rewrite ?new_series_limit; unfold small, relu; try lia.
    rewrite E1. cbn [bind].
    destruct (set_div1p_ok y dx x s V1 Hx) as (y1 & E2 & (V2 & K2 & L2 & P2) & D2); unfold small, pos; try lia.
    rewrite E2. cbn [bind]. replace (Z.min (known dx) (known x + s)) with (known x) in * by lia.
    pose proof V2 as (Y0 & Y1 & Y2 & Y3).
    destruct (set_integral_shift_ok F y1 y1 s V2) as (y2 & E3 & V3 & K3 & L3 & N3 & D3); unfold small; try lia.
    rewrite E3. eexists. split; [reflexivity|]. split.
    + unfold result, pos in *. rsplit; auto; lia.
    + apply Hfin. transitivity (fmul f (den y1)).
      * apply fmul_e; [reflexivity|]. apply feq_eqn.
        rewrite (fdshift_feq s _ _ D3). apply fdshift_fishift; lia.
      * etransitivity; [|apply feq_eqn; exact D1]. exact D2.
Qed.

(** *** exp *)
Definition exp_P (x : ser) (ylim : Z) (k : Z) (st : ser * ser) : Prop :=
  let (y, dy) := st in
  valid y /\ known y = k /\ limit y = ylim /\ 0 < nonzero y /\ limit dy = known x /\
  eqn (Z.to_nat k) (den y) (fexp (den x)) /\ (full x -> full y).

Lemma exp_step_ok : forall c x ylim m0 k m r st, valid x -> den x O = k0 -> small (known x) -> known x <= ylim ->
  0 < m0 -> m0 < m -> m0 <= k -> k <= m -> m <= 2 * m0 -> m <= known x -> exp_P x ylim k st ->
  exists st', exp_step F kern base c x m0 m r st = Ok st' /\ exp_P x ylim m st'.
Proof.
  intros c x ylim m0 k m r [y dy] Hx Hx0 Hsm Hlim H0 Hlt Hk Hkm Hm2 Hmn (Hy & HK & HL & HN & HLd & HE & HF).
  unfold small in *. unfold exp_step. pose proof Hx as (X0 & X1 & X2 & X3).
  destruct (set_known_up y m Hy ltac:(lia)) as (y1 & E1 & V1 & K1 & L1 & N1 & D1). rewrite E1. cbn [bind].
  pose proof V1 as (Y0 & Y1 & Y2 & Y3).
  assert (Hy0 : den y O = k1).
  { rewrite (eqn_at F _ _ _ O HE) by lia. apply fexp_coef0. }
  destruct (set_log_gen_ok c dy y1 V1) as (d1 & E2 & (V2 & K2 & L2 & P2) & D2 & F2); unfold small, pos in *; try lia.
  { intros _. rewrite (D1 O). exact Hy0. }
  rewrite E2. cbn [bind].
  destruct (sub_in_ok d1 x V2 Hx) as (d2 & E3 & V3 & K3 & L3 & N3 & D3 & F3); unfold small; try lia.
  rewrite E3. cbn [bind]. replace (Z.min (known d1) (known x)) with m in * by lia.
  destruct (set_mul_ok F kern Hkern d2 y1 d2 V1 V3) as (d3 & E4 & V4 & K4 & L4 & N4 & D4); unfold small, both_pos; try lia.
  rewrite E4. cbn [bind].
  replace (Z.min (known y1) (known d2)) with m in * by lia.
  assert (Hd2 : eqn (Z.to_nat m) (den d2) (fsub (flog (den y)) (den x))).
  { etransitivity; [exact D3|]. apply fsub_e; [|reflexivity]. replace (known y1) with m in D2 by lia.
    etransitivity; [exact D2|]. apply feq_eqn. apply flog_f. exact D1. }
  assert (Hd3 : eqn (Z.to_nat m) (den d3) (fmul (den y) (fsub (flog (den y)) (den x)))).
  { etransitivity; [exact D4|]. apply fmul_e; [apply feq_eqn; exact D1|exact Hd2]. }
  destruct (high_sub_ok y1 d3 m0) as (y2 & E5 & V5 & K5 & L5 & N5 & D5 & F5); auto; unfold small; try lia.
  { transitivity (fmul (den y) (fsub (flog (den y)) (den x))).
    - apply eqn_mono with (n := Z.to_nat m); [lia|exact Hd3].
    - transitivity (fmul (den y) (@f0 F)); [|apply feq_eqn; ring].
      apply fmul_e; [reflexivity|]. apply -> eqn_sub0.
      transitivity (flog (fexp (den x))).
      + apply flog_e. apply eqn_mono with (n := Z.to_nat k); [lia|exact HE].
      + apply feq_eqn. apply flog_exp. exact Hx0. }
  rewrite E5. cbn [bind]. eexists. split; [reflexivity|]. unfold exp_P. rsplit; auto; try lia.
  2:{ intros Hfx. apply F5; [lia|]. specialize (F3 (or_intror Hfx)). unfold full, relu in *. lia. }
  transitivity (fsub (den y) (fmul (den y) (fsub (flog (den y)) (den x)))).
  - replace (known y1) with m in D5 by lia. etransitivity; [exact D5|].
    apply fsub_e; [apply feq_eqn; exact D1|exact Hd3].
  - apply eqn_mono with (n := (Z.to_nat k + Z.to_nat k)%nat); [lia|]. apply exp_newton; auto. lia.
Qed.

Lemma set_exp_gen_ok : forall c (y x : ser), valid x -> den x O = k0 -> small (known x) ->
  known x <= limit y ->
  exists y', set_exp_gen F kern base c y x = Ok y' /\ result y y' (known x) /\
    eqn (Z.to_nat (known x)) (den y') (fexp (den x)) /\ (full x -> full y').
Proof.
  intros c y x Hx Hc Hsm Hl. pose proof Hx as (X0 & X1 & X2 & X3). unfold set_exp_gen.
  destruct (Z.eqb_spec (known x) 0) as [H0|H0].
  - eexists. split; [reflexivity|]. split; [split; [apply unknown_valid|]|].
    + unfold set_unknown, limit, pos. cbn [known cells nonzero]. rsplit; lia.
    + split; [rewrite H0; intros i Hi; lia|reflexivity].
  - replace (if c && negb (nonzero x =? 0) then v <- rd F (cells x) 0;; slow_assert (keqb v k0) else Ok tt)
      with (@Ok unit tt).
    2:{ destruct (Z.eqb_spec (nonzero x) 0); [destruct c; reflexivity|].
        rewrite valid_rd by (auto; lia). change (Z.to_nat 0) with O. rewrite Hc. cbn [bind].
        assert (Hk : keqb (@k0 F) k0 = true) by (apply keqb_ok; reflexivity). rewrite Hk. destruct c; reflexivity. }
    cbn [bind].
    destruct (eb_ok _ _ Hbase y x Hx ltac:(lia) Hsm Hc Hl) as (y1 & E1 & V1 & L1 & K1 & N1 & D1 & F1).
    rewrite E1. cbn [bind].
    destruct (newton_iterate_ind (exp_step F kern base c x) (known x) (exp_P x (limit y))) with (n0 := known y1) (st := (y1, new_series (F:=F) (known x)))
      as ((y2 & d2) & E2 & (V2 & K2 & L2 & N2 & _ & D2 & F2)); try lia.
    + intros m0 m st A1 A2 A3 A4 HP. apply exp_step_ok with (k := m0); auto; lia.
    + intros m0 m st A1 A2 A3 A4 HP. apply exp_step_ok with (k := m); auto; lia.
    + unfold exp_P. rsplit; auto; try lia. rewrite new_series_limit. unfold relu. lia.
    + rewrite E2. cbn [bind fst]. eexists. split; [reflexivity|]. split; [|split; [exact D2|exact F2]].
      unfold result, pos. rsplit; auto.
Qed.

(** *** expm1 *)
(** a z^s x for a = 1 or -1 *)
Definition fsgn (a : Z) (x : fps F) : fps F := if 0 <? a then x else fopp x.

Lemma fsgn_fshift : forall a s x, feq (fshift s (fsgn a x)) (fsgn a (fshift s x)).
Proof. intros a s x. unfold fsgn. destruct (0 <? a); [reflexivity|apply fshift_opp]. Qed.
Lemma fsgn_eqn : forall a n x y, eqn n x y -> eqn n (fsgn a x) (fsgn a y).
Proof. intros a n x y H. unfold fsgn. destruct (0 <? a); [exact H|apply fopp_e; exact H]. Qed.

Definition expm1_P (x : ser) (a s ylim : Z) (k : Z) (st : ser * ser) : Prop :=
  let (y, dy) := st in
  valid y /\ known y = k /\ limit y = ylim /\ 0 < nonzero y /\ limit dy = known x /\
  eqn (Z.to_nat (k + s)) (fshift (Z.to_nat s) (den y)) (fsub (fexp (fsgn a (fshift (Z.to_nat s) (den x)))) f1).

Lemma expm1_step_ok : forall x a s ylim m0 k m r st, valid x -> small (known x) -> known x <= ylim ->
  Z.abs a = 1 -> 0 < s -> small s ->
  0 < m0 -> m0 <= k -> k <= m -> m <= 2 * m0 -> m <= known x -> expm1_P x a s ylim k st ->
  exists st', expm1_step F kern x a s m0 m r st = Ok st' /\ expm1_P x a s ylim m st'.
Proof.
  intros x a s ylim m0 k m r [y dy] Hx Hsm Hlim Ha Hs Hss H0 Hk Hkm Hm2 Hmn (Hy & HK & HL & HN & HLd & HE).
  unfold small in *. unfold expm1_step. pose proof Hx as (X0 & X1 & X2 & X3).
  set (S := Z.to_nat s) in *. assert (HS : (0 < S)%nat) by (unfold S; lia).
  set (X := fsgn a (fshift S (den x))) in *.
  assert (HX0 : X O = k0). { unfold X, fsgn. destruct (0 <? a); [|unfold fopp]; rewrite fshift_coef0 by auto; ring. }
  destruct (set_known_up y m Hy ltac:(lia)) as (y1 & E1 & V1 & K1 & L1 & N1 & D1). rewrite E1. cbn [bind].
  pose proof V1 as (Y0 & Y1 & Y2 & Y3).
  destruct (set_log1p_ok dy y1 s V1) as (d1 & E2 & (V2 & K2 & L2 & P2) & D2); unfold small, pos in *; try lia.
  rewrite E2. cbn [bind].
  assert (Hd2x : exists d2, (if 0 <? a then sub_in F d1 x else add_in F d1 x) = Ok d2 /\ valid d2 /\ known d2 = m /\
     limit d2 = limit d1 /\ 0 < nonzero d2 /\ eqn (Z.to_nat m) (den d2) (fsub (den d1) (fsgn a (den x)))).
  { unfold fsgn. destruct (0 <? a).
    - destruct (sub_in_ok d1 x V2 Hx) as (d2 & E3 & V3 & K3 & L3 & N3 & D3 & F3); unfold small; try lia.
      replace (Z.min (known d1) (known x)) with m in * by lia. exists d2. rsplit; auto; try lia.
    - destruct (add_in_ok d1 x V2 Hx) as (d2 & E3 & V3 & K3 & L3 & N3 & D3 & F3); unfold small; try lia.
      replace (Z.min (known d1) (known x)) with m in * by lia. exists d2. rsplit; auto; try lia.
      etransitivity; [exact D3|]. apply feq_eqn. ring. }
  destruct Hd2x as (d2 & E3 & V3 & K3 & L3 & N3 & D3). rewrite E3. cbn [bind].
  pose proof V3 as (Z0 & Z1 & Z2 & Z3).
  destruct (set_mul1p_ok F kern Hkern d2 d2 y1 s V3 V1) as (d3 & E4 & V4 & K4 & L4 & N4 & D4); unfold small, both_pos1p; try lia.
  rewrite E4. cbn [bind].
  replace (Z.min (known d2) (known y1 + s)) with m in * by lia.
  set (Y := fshift S (den y)) in *.
  assert (HY0 : Y O = k0) by (unfold Y; apply fshift_coef0; auto).
  set (D := fsub (flog1p Y) X).
  destruct (expm1_newton F (Z.to_nat (k + s)) X Y D ltac:(lia) HX0 HY0 (feq_refl F D) HE) as (HD & HN2).
  assert (Hd2 : eqn (S + Z.to_nat m) (fshift S (den d2)) D).
  { transitivity (fshift S (fsub (den d1) (fsgn a (den x)))); [apply fshift_eqn; exact D3|].
    transitivity (fsub (fshift S (den d1)) X).
    { apply feq_eqn. rewrite fshift_sub, fsgn_fshift. reflexivity. }
    unfold D. apply fsub_e; [|reflexivity].
    replace (Z.to_nat (known y1 + s)) with (S + Z.to_nat m)%nat in D2 by (unfold S; lia).
    etransitivity; [exact D2|]. apply feq_eqn. apply flog1p_f. unfold Y. apply fshift_f. exact D1. }
  assert (Hd3 : eqn (S + Z.to_nat m) (fshift S (den d3)) (fmul (fadd f1 Y) D)).
  { transitivity (fshift S (fmul (den d2) (one_plus s (den y1)))); [apply fshift_eqn; exact D4|].
    rewrite fshift_mul_l. transitivity (fmul D (fadd f1 Y)); [|apply feq_eqn; ring].
    apply fmul_e; [exact Hd2|]. apply feq_eqn. unfold one_plus. apply fadd_f; [reflexivity|].
    unfold Y. apply fshift_f. exact D1. }
  destruct (high_sub_ok y1 d3 m0) as (y2 & E5 & V5 & K5 & L5 & N5 & D5 & F5); auto; unfold small; try lia.
  { apply fshift_eqn_cancel with (s := S). transitivity (fmul (fadd f1 Y) D).
    - apply eqn_mono with (n := (S + Z.to_nat m)%nat); [lia|exact Hd3].
    - transitivity (fmul (fadd f1 Y) (@f0 F)).
      + apply fmul_e; [reflexivity|]. apply eqn_mono with (n := Z.to_nat (k + s)); [unfold S; lia|exact HD].
      + apply feq_eqn. rewrite <- zp_mul. ring. }
  rewrite E5. cbn [bind]. eexists. split; [reflexivity|]. unfold expm1_P. rsplit; auto; try lia.
  fold S. fold X. replace (Z.to_nat (m + s)) with (S + Z.to_nat m)%nat by (unfold S; lia).
  transitivity (fsub Y (fmul (fadd f1 Y) D)).
  - replace (known y1) with m in D5 by lia.
    transitivity (fshift S (fsub (den y1) (den d3))); [apply fshift_eqn; exact D5|].
    rewrite fshift_sub. apply fsub_e; [|exact Hd3]. apply feq_eqn. unfold Y. apply fshift_f. exact D1.
  - apply eqn_mono with (n := (Z.to_nat (k + s) + Z.to_nat (k + s))%nat); [unfold S; lia|]. exact HN2.
Qed.

Lemma set_expm1_ok : forall (y x : ser) a s, valid x -> pos x -> Z.abs a = 1 -> 0 < s -> small s ->
  small (known x) -> known x <= limit y ->
  exists y', set_expm1 F kern y x a s = Ok y' /\ result y y' (known x) /\
    eqn (Z.to_nat (known x + s)) (fshift (Z.to_nat s) (den y'))
      (fsub (fexp (fsgn a (fshift (Z.to_nat s) (den x)))) f1).
Proof.
  intros y x a s Hx Hpos Ha Hs Hss Hsm Hl. pose proof Hx as (X0 & X1 & X2 & X3). unfold set_expm1, small in *.
  rewrite slow_assert_true by lia. cbn [bind].
  set (S := Z.to_nat s). assert (HS : (0 < S)%nat) by (unfold S; lia).
  set (X := fsgn a (fshift S (den x))) in *.
  destruct (low_valid F x s Hx) as (Vl & Kl & Nl & _ & Dl). unfold relu in *.
  assert (Hb : exists y1, (if 0 <? a then assign F y (low F x s) else set_neg F y (low F x s)) = Ok y1 /\
    valid y1 /\ known y1 = Z.min s (known x) /\ limit y1 = limit y /\ (0 < known x -> 0 < nonzero y1) /\
    eqn (Z.to_nat (Z.min s (known x))) (den y1) (fsgn a (den x))).
  { unfold fsgn. replace (Z.min (Z.max s 0) (known x)) with (Z.min s (known x)) in * by lia.
    unfold pos in Hpos. destruct (0 <? a).
    - destruct (assign_ok F y (low F x s) Vl) as (y1 & E1 & V1 & K1 & L1 & N1 & D1 & _); [lia|].
      exists y1. rsplit; auto; try lia. rewrite D1. exact Dl.
    - destruct (set_neg_ok F y (low F x s) Vl) as (y1 & E1 & V1 & K1 & L1 & N1 & D1); unfold small; try lia.
      exists y1. rsplit; auto; try lia. rewrite D1. apply fopp_e. exact Dl. }
  destruct Hb as (y1 & E1 & V1 & K1 & L1 & N1 & D1). rewrite E1. cbn [bind].
  assert (HB : eqn (Z.to_nat (known y1 + s)) (fshift S (den y1)) (fsub (fexp X) f1)).
  { transitivity X.
    - replace (Z.to_nat (known y1 + s)) with (S + Z.to_nat (Z.min s (known x)))%nat by (unfold S; lia).
      transitivity (fshift S (fsgn a (den x))); [apply fshift_eqn; exact D1|].
      apply feq_eqn. apply fsgn_fshift.
    - assert (HX : eqn S X f0).
      { unfold X, fsgn. destruct (0 <? a); [apply fshift_low|].
        transitivity (fopp (@f0 F)); [apply fopp_e; apply fshift_low|apply feq_eqn; ring]. }
      apply eqn_mono with (n := (S + S)%nat); [unfold S; lia|].
      transitivity (fsub (fadd f1 X) f1); [apply feq_eqn; ring|].
      apply fsub_e; [|reflexivity]. symmetry. apply fexp_lin; auto. }
  destruct (Z.eq_dec (known x) 0) as [H0|H0].
  - unfold newton_iterate. destruct (Z.leb_spec (known x) (known y1)); [|lia]. cbn [bind fst].
    eexists. split; [reflexivity|]. split.
    + unfold result, pos. rsplit; auto; lia.
    + replace (known x) with (known y1) by lia. exact HB.
  - destruct (newton_iterate_ind (expm1_step F kern x a s) (known x) (expm1_P x a s (limit y))) with (n0 := known y1) (st := (y1, new_series (F:=F) (known x)))
      as ((y2 & d2) & E2 & (V2 & K2 & L2 & N2 & _ & D2)); try lia.
    + intros m0 m st A1 A2 A3 A4 HP. apply expm1_step_ok with (k := m0); auto; lia.
    + intros m0 m st A1 A2 A3 A4 HP. apply expm1_step_ok with (k := m); auto; lia.
    + unfold expm1_P. rsplit; auto; try lia. rewrite new_series_limit. unfold relu. lia.
    + rewrite E2. cbn [bind fst]. eexists. split; [reflexivity|]. split; [|exact D2].
      unfold result, pos. rsplit; auto.
Qed.

(** *** log1p_exp *)
Definition lpe_P (x : ser) (s ylim : Z) (k : Z) (st : ser * ser * ser) : Prop :=
  let '(y, ndy, t) := st in
  valid y /\ known y = k /\ limit y = ylim /\ 0 < nonzero y /\ limit ndy = known x /\ limit t = known x /\
  eqn (Z.to_nat (k + s)) (fshift (Z.to_nat s) (den y)) (flog1p (fshift (Z.to_nat s) (fexp (den x)))).

Lemma lpe_step_ok : forall x s ylim m0 k m r st, valid x -> den x O = k0 -> small (known x) -> known x <= ylim ->
  0 < s -> small s ->
  0 < m0 -> m0 <= k -> k <= m -> m <= 2 * m0 -> m <= known x -> lpe_P x s ylim k st ->
  exists st', log1p_exp_step F kern base x s m0 m r st = Ok st' /\ lpe_P x s ylim m st'.
Proof.
  intros x s ylim m0 k m r [[y ndy] t] Hx Hx0 Hsm Hlim Hs Hss H0 Hk Hkm Hm2 Hmn (Hy & HK & HL & HN & HLn & HLt & HE).
  unfold small in *. unfold log1p_exp_step. pose proof Hx as (X0 & X1 & X2 & X3).
  set (S := Z.to_nat s) in *. assert (HS : (0 < S)%nat) by (unfold S; lia).
  destruct (set_known_up y m Hy ltac:(lia)) as (y1 & E1 & V1 & K1 & L1 & N1 & D1). rewrite E1. cbn [bind].
  pose proof V1 as (Y0 & Y1 & Y2 & Y3).
  destruct (low_valid F x m Hx) as (Vl & Kl & Nl & _ & Dl). unfold relu in *.
  destruct (assign_ok F t (low F x m) Vl) as (t1 & E2 & V2 & K2 & L2 & N2 & D2 & _); [lia|].
  rewrite E2. cbn [bind]. pose proof V2 as (T0 & T1 & T2 & T3).
  unfold high_sub at 1.
  destruct (high_addsub_ok F t1 y1 (-1) 0 s V2 V1) as (t2 & E3 & V3 & K3 & L3 & N3 & D3 & _); unfold small; try lia.
  rewrite E3. cbn [bind]. replace (Z.min (known t1) (known y1 + s)) with m in * by lia.
  assert (Hmm : Z.min (Z.max m 0) (known x) = m) by lia.
  clear N2 N3 Nl Kl K2 T0 T1 T2 T3 X0 X1 X2 X3 Y0 Y1 Y2 Y3.
  set (Y := fshift S (den y)) in *.
  assert (HY0 : Y O = k0) by (unfold Y; apply fshift_coef0; auto).
  assert (Dt2 : eqn (Z.to_nat m) (den t2) (fsub (den x) Y)).
  { etransitivity; [exact D3|].
    transitivity (fadd (den x) (fshift S (fopp (den y1)))).
    - apply fadd_e.
      + rewrite D2. rewrite Hmm in Dl. exact Dl.
      + apply feq_eqn. apply fshift_f. unfold hcoef. change (-1 <? 0) with true. cbn iota. cbn [kpow2].
        apply fscale_m1.
    - apply feq_eqn. rewrite fshift_opp. unfold Y. rewrite (fshift_feq F S _ _ D1). ring. }
  clear Hmm Dl.
  assert (Ht20 : den t2 O = k0).
  { rewrite (eqn_at F _ _ _ O Dt2) by lia. unfold fsub. rewrite Hx0, HY0. ring. }
  unfold set_exp.
  destruct (set_exp_gen_ok true ndy t2 V3 Ht20) as (n1 & E4 & (V4 & K4 & L4 & P4) & D4 & F4); unfold small; try lia.
  rewrite E4. cbn [bind].
  destruct (set_expm1_ok t2 y1 (-1) s V1) as (t3 & E5 & (V5 & K5 & L5 & P5) & D5); unfold small, pos in *; try lia.
  rewrite E5. cbn [bind].
  destruct (add_in_ok n1 t3 V4 V5) as (n2 & E6 & V6 & K6 & L6 & N6 & D6 & F6); unfold small; try lia.
  rewrite E6. cbn [bind]. replace (Z.min (known n1) (known t3)) with m in * by lia.
  set (U := fshift S (fexp (den x))) in *.
  assert (HU0 : U O = k0) by (unfold U; apply fshift_coef0; auto).
  destruct (log1p_exp_newton F (Z.to_nat (k + s)) Y U (flog1p U) ltac:(lia) HY0 HU0 (feq_refl F _) HE) as (HN0 & HNN).
  set (N := fadd (fmul U (fexp (fopp Y))) (fsub (fexp (fopp Y)) f1)) in *.
  assert (Hn2 : eqn (S + Z.to_nat m) (fshift S (den n2)) N).
  { transitivity (fshift S (fadd (den n1) (den t3))); [apply fshift_eqn; exact D6|].
    rewrite fshift_add. unfold N. apply fadd_e.
    - transitivity (fshift S (fexp (fsub (den x) Y))).
      + apply fshift_eqn. replace (known t2) with m in D4 by lia. etransitivity; [exact D4|].
        apply fexp_e. exact Dt2.
      + apply feq_eqn. assert (Hs2 : feq (fsub (den x) Y) (fadd (den x) (fopp Y))) by ring.
        rewrite (fexp_feq F _ _ Hs2). rewrite fexp_add; [|exact Hx0|unfold fopp; rewrite HY0; ring].
        unfold U. apply fshift_mul_l.
    - replace (Z.to_nat (known y1 + s)) with (S + Z.to_nat m)%nat in D5 by (unfold S; lia).
      etransitivity; [exact D5|]. apply fsub_e; [|reflexivity]. apply fexp_e. apply feq_eqn.
      unfold fsgn. change (0 <? -1) with false. cbn iota. unfold Y, S. rewrite (fshift_feq F _ _ _ D1). reflexivity. }
  destruct (high_add_ok y1 n2 m0) as (y2 & E7 & V7 & K7 & L7 & N7 & D7 & F7); auto; unfold small; try lia.
  { apply fshift_eqn_cancel with (s := S). transitivity N.
    - apply eqn_mono with (n := (S + Z.to_nat m)%nat); [lia|exact Hn2].
    - transitivity (@f0 F).
      + apply eqn_mono with (n := Z.to_nat (k + s)); [unfold S; lia|exact HN0].
      + apply feq_eqn. rewrite <- zp_mul. ring. }
  rewrite E7. cbn [bind]. eexists. split; [reflexivity|]. unfold lpe_P. rsplit; auto; try lia.
  fold S. fold U. replace (Z.to_nat (m + s)) with (S + Z.to_nat m)%nat by (unfold S; lia).
  transitivity (fadd Y N).
  - replace (known y1) with m in D7 by lia.
    transitivity (fshift S (fadd (den y1) (den n2))); [apply fshift_eqn; exact D7|].
    rewrite fshift_add. apply fadd_e; [|exact Hn2]. apply feq_eqn. unfold Y. apply fshift_f. exact D1.
  - apply eqn_mono with (n := (Z.to_nat (k + s) + Z.to_nat (k + s))%nat); [unfold S; lia|]. exact HNN.
Qed.

Lemma set_log1p_exp_ok : forall (y x : ser) s, valid x -> den x O = k0 -> 0 < s -> small s ->
  small (known x) -> known x <= limit y ->
  exists y', set_log1p_exp F kern base y x s = Ok y' /\ result y y' (known x) /\
    eqn (Z.to_nat (known x + s)) (fshift (Z.to_nat s) (den y'))
      (flog1p (fshift (Z.to_nat s) (fexp (den x)))).
Proof.
  intros y x s Hx Hx0 Hs Hss Hsm Hl. pose proof Hx as (X0 & X1 & X2 & X3). unfold set_log1p_exp, small in *.
  set (S := Z.to_nat s). assert (HS : (0 < S)%nat) by (unfold S; lia).
  destruct (Z.eqb_spec (known x) 0) as [H0|H0].
  - eexists. split; [reflexivity|]. split; [split; [apply unknown_valid|]|].
    + unfold set_unknown, limit, pos. cbn [known cells nonzero]. rsplit; lia.
    + replace (Z.to_nat (known x + s)) with S by (unfold S; lia).
      assert (HU : eqn S (fshift S (fexp (den x))) f0) by apply fshift_low.
      transitivity (@f0 F); [apply fshift_low|].
      transitivity (fshift S (fexp (den x))); [symmetry; exact HU|].
      apply eqn_mono with (n := (S + S)%nat); [lia|]. symmetry. apply flog1p_lin; auto.
  - rewrite slow_assert_true by lia. cbn [bind].
    destruct (low_valid F x s Hx) as (Vl & Kl & Nl & _ & Dl). unfold relu in *.
    replace (Z.min (Z.max s 0) (known x)) with (Z.min s (known x)) in * by lia.
    unfold set_exp.
    destruct (set_exp_gen_ok true y (low F x s) Vl) as (y1 & E1 & (V1 & K1 & L1 & P1) & D1 & F1); unfold small, pos in *; try lia.
    { rewrite (eqn_at F _ _ _ O Dl) by lia. exact Hx0. }
    rewrite E1. cbn [bind].
    destruct (newton_iterate_ind (log1p_exp_step F kern base x s) (known x) (lpe_P x s (limit y)))
      with (n0 := known y1) (st := (y1, new_series (F:=F) (known x), new_series (F:=F) (known x)))
      as (((y2 & n2) & t2) & E2 & (V2 & K2 & L2 & N2 & _ & _ & D2)); try lia.
    + intros m0 m st A1 A2 A3 A4 HP. apply lpe_step_ok with (k := m0); auto; lia.
    + intros m0 m st A1 A2 A3 A4 HP. apply lpe_step_ok with (k := m); auto; lia.
    + unfold lpe_P. rsplit; auto; try lia; try (rewrite new_series_limit; unfold relu; lia).
      fold S. replace (Z.to_nat (known y1 + s)) with (S + Z.to_nat (Z.min s (known x)))%nat by (unfold S; lia).
      transitivity (fshift S (fexp (den x))).
      * apply fshift_eqn. rewrite Kl in D1. etransitivity; [exact D1|]. apply fexp_e. exact Dl.
      * apply eqn_mono with (n := (S + S)%nat); [unfold S; lia|].
        symmetry. apply flog1p_lin; auto. apply fshift_low.
    + rewrite E2. cbn [bind fst]. eexists. split; [reflexivity|]. split; [|exact D2].
      unfold result, pos. rsplit; auto.
Qed.

End Algos.

Arguments full {F} _.
Arguments result {F} _ _ _.
Arguments fsgn {F} _ _.
