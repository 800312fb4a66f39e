(** The shifted exponential functions of poly.cc without the last refinement, the quotients, and
    assertions: each either returns an enclosure or throws, and throws only where [thr] allows. *)
From Coq Require Import ZArith List Bool Lia Setoid Morphisms Ring Field.
From Verif Require Import Base Field FPS PolyModel PolySpec PolyProofs PolyAlias SeriesProofs AlgoProofs BottcherMath
  ArbAreaModel ArbAreaSpec.
From Coq Require Import ZifyBool ZifyNat.
Import ListNotations.
Open Scope nat_scope.

(** The outcome is a value with Q, or an exception if [thr]; never undefined. *)
Definition sat (thr : Prop) {X} (e : res X) (Q : X -> Prop) : Prop :=
  match e with Ok x => Q x | Throw => thr | UB => False end.
Lemma sat_bind thr {X Y} (e : res X) (k : X -> res Y) (Q : X -> Prop) (Q' : Y -> Prop) :
  sat thr e Q -> (forall x, e = Ok x -> Q x -> sat thr (k x) Q') -> sat thr (bind e k) Q'.
Proof. destruct e; cbn; auto. Qed.
Lemma sat_imp thr {X} (e : res X) (Q Q' : X -> Prop) : sat thr e Q -> (forall x, e = Ok x -> Q x -> Q' x) -> sat thr e Q'.
Proof. destruct e; cbn; auto. Qed.
Lemma sat_and thr {X} (e : res X) (Q Q' : X -> Prop) : sat thr e Q -> sat thr e Q' -> sat thr e (fun x => Q x /\ Q' x).
Proof. destruct e; cbn; auto. Qed.
Lemma sat_all thr {X Y} (e : res X) (C : Y -> Prop) (Q : Y -> X -> Prop) : (exists y, C y) ->
  (forall y, C y -> sat thr e (Q y)) -> sat thr e (fun x => forall y, C y -> Q y x).
Proof. intros [y Hy] H. pose proof (H y Hy). destruct e; cbn in *; auto. Qed.
Lemma sat_assert (thr : Prop) b : thr \/ b = true -> sat thr (slow_assert b) (fun _ => b = true).
Proof. destruct b; cbn; intros [H|H]; auto; discriminate. Qed.
Lemma sat_ok thr {X} (x : X) (Q : X -> Prop) : Q x -> sat thr (Ok x) Q.
Proof. auto. Qed.

(** When exceptions are not allowed, the last refinement is off and the tests are complete. *)
Definition allowed (F : Fld) (A : arb_poly) (mem : ball A -> K F -> Prop) (skip : bool) (thr : Prop) : Prop :=
  thr \/ (skip = true /\ tests_ok F A mem).

Section EP.
  Variable F : Fld.
  Variable kln : K F -> K F.
  Variable A : arb_poly.
  Variable mem : ball A -> K F -> Prop.
  Hypothesis HA : poly_ok F kln A mem.
  Variable M : arb_more A.
  Variable kpi : K F.
  Hypothesis HM : more_ok F A M mem kpi.
  Variable skip : bool.
  Variable thr : Prop.
  Notation encl := (encl F A mem).
  Notation P := (list (ball A)).
  Notation sat := (sat thr).

  Add Field ep_field : (kfield F).
  Add Ring ep_fps : (fps_ring_theory F) (setoid (feq_Equiv F) (fps_ring_ext F)).

  Lemma encl_f (f : P) n (a b : fps F) : feq a b -> encl f n a -> encl f n b.
  Proof. intros H. apply encl_eqn. now apply feq_eqn. Qed.

  (** ** No undefined behaviour in poly_intersect_sub and the refined quotient *)
  Lemma inter_loop_ub (a b : P) : forall c i, inter_loop A a b c i <> UB.
  Proof.
    induction c as [|x c IH]; intros i; cbn [inter_loop]; [discriminate|].
    destruct (b_overlaps A x _); cbn [slow_assert bind]; [|discriminate].
    destruct (inter_loop A a b c (S i)) eqn:E; cbn [bind]; try discriminate. destruct (IH _ E).
  Qed.
  Lemma intersect_ub (c a b : P) n : (0 <= n)%Z -> poly_intersect_sub A c a b n <> UB.
  Proof.
    intro H. unfold poly_intersect_sub, len. destruct (Z.ltb_spec (Z.min (Z.min n (Z.of_nat (length c)))
      (Z.max (Z.of_nat (length a)) (Z.of_nat (length b)))) 0); [lia|]. apply inter_loop_ub.
  Qed.
  Lemma inv_ub (x : P) n : poly_inv_refine A x n <> UB.
  Proof.
    unfold poly_inv_refine. destruct (n <=? 0)%Z eqn:E; [discriminate|]. apply intersect_ub. unfold len. lia.
  Qed.
  Lemma divr_ub (x y : P) n : poly_div_refine A x y n <> UB.
  Proof.
    unfold poly_div_refine. destruct (n <=? 0)%Z eqn:E; [discriminate|].
    destruct (poly_inv_refine A y n) eqn:E2; cbn [bind]; [apply intersect_ub; lia|discriminate|].
    destruct (inv_ub _ _ E2).
  Qed.
  Lemma log_ub (x : P) n : poly_log_refine A x n <> UB.
  Proof.
    unfold poly_log_refine. destruct (n <=? 0)%Z; [discriminate|]. destruct (b_positive A _); cbn [slow_assert bind]; [|discriminate].
    destruct (poly_div_refine A _ _ _) eqn:E2; cbn [bind]; try discriminate. destruct (divr_ub _ _ _ E2).
  Qed.
  Lemma expr_ub (x : P) n : poly_exp_refine A x n <> UB.
  Proof.
    unfold poly_exp_refine. destruct (n <=? 0)%Z eqn:E; [discriminate|].
    destruct (poly_log_refine A _ n) eqn:E2; cbn [bind]; [apply intersect_ub; lia|discriminate|]. destruct (log_ub _ _ E2).
  Qed.
  Lemma exp_ub (x : P) n : exp_ A skip x n <> UB.
  Proof. unfold exp_. destruct (n <=? 0)%Z; [discriminate|]. destruct skip; [discriminate|]. apply expr_ub. Qed.
  Lemma exp_len (x : P) n r : exp_ A skip x n = Ok r -> length r <= Z.to_nat n.
  Proof.
    unfold exp_. destruct (n <=? 0)%Z eqn:E.
    - intro H. injection H as <-. cbn. lia.
    - destruct skip; intro H; [injection H as <-; apply (mo_exp_len F A M mem kpi HM)|].
      unfold poly_exp_refine in H. rewrite E in H. destruct (poly_log_refine A _ n); cbn [bind] in H; try discriminate.
      apply (intersect_len F kln A mem HA) in H. pose proof (mo_exp_len F A M mem kpi HM x n). lia.
  Qed.

  Hypothesis Hthr : allowed F A mem skip thr.
  (** ** Quotient *)
  Lemma div_sat (f g : P) n k (a b q : fps F) : k <= Z.to_nat n -> encl f k a -> encl g k b -> b O <> 0%K ->
    eqn k (fmul b q) a -> sat (div_ A skip f g n) (fun r => encl r k q).
  Proof.
    intros Hk Ha Hb Hb0 Hq. unfold div_. destruct (n <=? 0)%Z eqn:E.
    - intros i Hi. lia.
    - destruct skip eqn:Es.
      + apply sat_ok. apply (ok_div F kln A mem HA f g n k a b q); auto.
      + destruct (poly_div_refine A f g n) as [r| |] eqn:D; cbn.
        * exact (div_refine_ok F kln A mem HA f g n r k a b q D Hk Ha Hb Hb0 Hq).
        * destruct Hthr as [H|[H _]]; [exact H|discriminate].
        * destruct (divr_ub _ _ _ D).
  Qed.

  (** ** log1p *)
  Lemma fhigh_log1p s (a : fps F) : feq (fmul (zp s) (fhigh s (flog1p (fshift s a)))) (flog1p (fshift s a)).
  Proof.
    symmetry. apply fshift_fhigh. destruct s as [|s]; [intros i Hi; lia|].
    assert (H : eqn (S s) (fshift (S s) a) f0) by apply fshift_low.
    transitivity (flog1p (f0 : fps F)); [apply flog1p_eqn; exact H|].
    apply feq_eqn. transitivity (flog (fexp (f0 : fps F))); [|apply flog_exp; reflexivity].
    unfold flog. apply flog1p_feq. rewrite fexp_0. ring.
  Qed.
  Lemma log1p_sat (x : P) s n k (a : fps F) : (1 <= s)%Z -> k <= Z.to_nat n -> encl x k a ->
    sat (log1p_shift A skip x s n) (fun r => encl r k (fhigh (Z.to_nat s) (flog1p (fshift (Z.to_nat s) a)))).
  Proof.
    intros Hs Hk Hx. unfold log1p_shift.
    destruct (n <=? 0)%Z eqn:Hn; [intros i Hi; lia|]. apply Z.leb_gt in Hn.
    replace (1 <=? s)%Z with true by lia. cbn [slow_assert bind].
    set (t := p_add_si A (p_trunc A (p_shl A x s) n) 1).
    set (y := map _ (seq 0 (Z.to_nat n))).
    set (sn := Z.to_nat s). set (Y := fhigh sn (flog1p (fshift sn a))).
    assert (KZ : forall i : nat, kofZ (F:=F) (s + Z.of_nat i) = kofnat (sn + i)).
    { intro i. replace (s + Z.of_nat i)%Z with (Z.of_nat (sn + i)) by (subst sn; lia). apply kofZ_of_nat. }
    assert (Ey : encl y k (scaled F sn a)).
    { intros i Hi. subst y. rewrite at_map_seq by lia. unfold scaled. rewrite <- KZ.
      apply (ok_mul_si F kln A mem HA). now apply Hx. }
    assert (Et : encl t k (fadd f1 (fshift sn a))).
    { assert (E1 := ok_shl F kln A mem HA x s k a ltac:(lia) Hx). fold sn in E1.
      apply (encl_le F A mem _ _ k) in E1; [|lia].
      assert (E2 := ok_trunc F kln A mem HA _ n k _ Hk E1).
      assert (E3 := ok_add_si F kln A mem HA _ 1 k _ E2). fold t in E3.
      refine (encl_f _ _ _ _ _ E3). rewrite fC_ofZ1. ring. }
    assert (H0 : fshift sn a O = 0%K) by (apply fshift_coef0; subst sn; lia).
    eapply sat_bind.
    { apply (div_sat y t n k (scaled F sn a) (fadd f1 (fshift sn a)) (scaled F sn Y)); auto.
      - unfold fadd. rewrite H0. cbn [f1 fC]. intro H. apply (k1_nz F). rewrite <- H. ring.
      - apply (eqn_zp_cancel F sn k). apply feq_eqn.
        transitivity (fmul (fadd f1 (fshift sn a)) (theta (fmul (zp sn) Y))).
        { rewrite theta_zp. ring. }
        transitivity (theta (fadd f1 (fshift sn a))).
        { unfold Y. rewrite fhigh_log1p.
          rewrite <- (theta_log F (fadd f1 (fshift sn a))).
          - apply fmul_feq; [reflexivity|]. apply theta_feq. unfold flog. apply flog1p_feq. ring.
          - unfold fadd. rewrite H0. cbn [f1 fC]. ring. }
        rewrite theta_add, theta_1, <- zp_mul, theta_zp. ring. }
    cbv beta. intros d _ D. apply sat_ok. intros i Hi. specialize (D i Hi).
    assert (NZ : kofnat (F:=F) (sn + i) <> 0%K) by (apply kofnat_nz; subst sn; lia).
    destruct (lt_dec i (length d)) as [H|H].
    - rewrite at_map_seq by exact H.
      pose proof (ok_div_si F kln A mem HA _ (s + Z.of_nat i) _ ltac:(lia) D) as S.
      rewrite KZ in S. unfold scaled in S.
      replace (Y i * kofnat (sn + i) / kofnat (sn + i))%K with (Y i) in S by (field; exact NZ). exact S.
    - rewrite at_out by (rewrite map_length, seq_length; lia).
      rewrite at_out in D by lia. apply (ok_zero F kln A mem HA) in D. apply (ok_zero F kln A mem HA).
      unfold scaled in D. apply (kdiv_eq F (kofnat (sn + i))); [exact NZ|].
      transitivity (Y i * kofnat (sn + i))%K; [ring|]. rewrite D. ring.
  Qed.

  (** ** Small pieces *)
  Lemma low_sat (f : P) n (a : fps F) : encl f (Z.to_nat n) a -> eqn (Z.to_nat n) a f0 ->
    sat (assert_low_zero A f n) (fun _ => True).
  Proof.
    intros Hf H0. unfold assert_low_zero. eapply sat_imp; [apply sat_assert|auto].
    destruct Hthr as [H|[_ [H _]]]; [now left|right]. apply forallb_forall. intros i Hi. apply in_seq in Hi.
    apply H. pose proof (Hf i ltac:(lia)) as G. rewrite (H0 i) in G by lia. exact G.
  Qed.
  Lemma mullow_encl (f g : P) n k (a b : fps F) : k <= Z.to_nat n -> encl f k a -> encl g k b ->
    encl (safe_mullow A f g n) k (fmul a b).
  Proof.
    intros Hk Ha Hb. unfold safe_mullow. destruct (0 <? n)%Z eqn:E; [|intros i Hi; lia].
    apply (ok_mullow F kln A mem HA); auto.
  Qed.
  Lemma encl_long (f : P) n m (a : fps F) : length f <= n -> encl f n a -> encl f m (ftrunc n a).
  Proof.
    intros L H i Hi. unfold ftrunc. destruct (i <? n) eqn:E; [apply H; lia|].
    rewrite at_out by lia. now apply (ok_zero F kln A mem HA).
  Qed.

  (** ** newton_iterate *)
  Lemma iterate_sat (Q : Z -> P -> Prop) n (step : Z -> Z -> P -> res P) (y : P) : (1 <= n)%Z -> Q 1%Z y ->
    (forall m0 m y, (1 <= m0)%Z -> (m0 < m <= 2 * m0)%Z -> (m <= n)%Z -> Q m0 y -> sat (step m0 m y) (Q m)) ->
    sat (iterate A n step y) (Q n).
  Proof.
    intros Hn H1 Hs. unfold iterate.
    destruct (newton_ok 1 n (S (Z.to_nat n))) as (l & E & R & _); [lia|lia|]. rewrite E.
    replace (Z.max 1 n) with n in R by lia.
    assert (G : forall l a y, (1 <= a)%Z -> reaches a l n -> Q a y -> sat (run_steps A step l y) (Q n)).
    { clear - Hs. induction l as [|[x z] l IH]; intros a y Ha R Hy; cbn [reaches run_steps] in *.
      - subst. exact Hy.
      - destruct R as (-> & B & R). eapply sat_bind.
        + apply Hs; auto. assert (z <= n)%Z; [|lia].
          clear - R B Ha. assert (1 <= z)%Z as Hz by lia. clear B Ha. revert z R Hz.
          induction l as [|[x z'] l IH]; intros z R Hz; cbn [reaches] in R; [lia|].
          destruct R as (-> & B & R). apply IH in R; lia.
        + intros y' _ Hy'. cbv beta in Hy'. apply IH with z; auto. lia. }
    apply G with 1%Z; auto. lia.
  Qed.

  (** ** expm1 *)
  Definition m1 (a : Z) (s : nat) (v : fps F) : fps F := fhigh s (fsub (fexp (fsgn a (fshift s v))) f1).
  Lemma sgn_low a s (v : fps F) : eqn s (fsgn a (fshift s v)) f0.
  Proof.
    unfold fsgn. destruct (0 <? a)%Z; [apply fshift_low|].
    transitivity (fopp (@f0 F)); [apply fopp_eqn; apply fshift_low|apply feq_eqn; ring].
  Qed.
  Lemma sgn_0 a s (v : fps F) : 1 <= s -> fsgn a (fshift s v) O = 0%K.
  Proof. intro H. exact (sgn_low a s v O H). Qed.
  Lemma m1_shift a s (v : fps F) : 1 <= s -> feq (fshift s (m1 a s v)) (fsub (fexp (fsgn a (fshift s v))) f1).
  Proof.
    intro Hs. unfold m1. rewrite <- zp_mul. symmetry. apply fshift_fhigh.
    transitivity (fsub (fexp (f0 : fps F)) f1).
    - apply fsub_eqn; [|reflexivity]. apply fexp_eqn. apply sgn_low.
    - apply feq_eqn. rewrite fexp_0. ring.
  Qed.
  Lemma m1_0 a s (v : fps F) : 1 <= s -> m1 a s v O = fsgn a v O.
  Proof.
    intro Hs. assert (H : eqn 1 (m1 a s v) (fsgn a v)); [|exact (H O ltac:(lia))].
    apply fshift_eqn_cancel with s. rewrite (m1_shift a s v Hs).
    apply eqn_mono with (s + s); [lia|].
    transitivity (fsub (fadd f1 (fsgn a (fshift s v))) f1).
    - apply fsub_eqn; [|reflexivity]. apply fexp_lin; [lia|apply sgn_low].
    - apply feq_eqn. rewrite fsgn_fshift. ring.
  Qed.

  (** One step, from a member of [y0] that agrees with the truth to order m0. *)
  Lemma expm1_delta_sat (x : P) a s (y0 y : P) m0 m (v w w' : fps F) : Z.abs a = 1%Z -> (1 <= s)%Z ->
    (0 <= m0)%Z -> (m0 <= m)%Z ->
    encl x (Z.to_nat m) v -> encl y0 (Z.to_nat m) w -> encl y (Z.to_nat m) w' ->
    eqn (Z.to_nat m0) w (m1 a (Z.to_nat s) v) ->
    let t := fsub (fhigh (Z.to_nat s) (flog1p (fshift (Z.to_nat s) w))) (fsgn a v) in
    eqn (Z.to_nat m0) t f0 /\
    sat (expm1_delta A M skip x a s y0 y m0 m)
      (fun dy => encl dy (Z.to_nat m) (fmul t (fadd f1 (fshift (Z.to_nat s) w')))).
  Proof.
    intros Ha Hs H0 Hm Hx Hy0 Hy Hw t. set (sn := Z.to_nat s) in *. set (N := Z.to_nat m) in *. set (N0 := Z.to_nat m0) in *.
    assert (Ht : eqn N0 t f0).
    { apply -> (eqn_sub0 F). apply fshift_eqn_cancel with sn.
      transitivity (flog1p (fshift sn w)); [apply feq_eqn; rewrite <- zp_mul; apply fhigh_log1p|].
      transitivity (flog1p (fshift sn (m1 a sn v))); [apply flog1p_eqn; apply fshift_eqn; exact Hw|].
      apply feq_eqn. rewrite m1_shift by lia. change (flog1p (fsub (fexp (fsgn a (fshift sn v))) f1)) with (flog (fexp (fsgn a (fshift sn v)))).
      rewrite flog_exp by (apply sgn_0; lia). symmetry. apply fsgn_fshift. }
    split; [exact Ht|]. unfold expm1_delta.
    eapply sat_bind; [apply (log1p_sat y0 s m N w Hs); auto|]. cbv beta. intros l _ Hl. fold sn in Hl.
    set (t1 := if (0 <? a)%Z then p_sub A l x m else p_add M l x m).
    assert (Ht1 : encl t1 N t).
    { unfold t1, t, fsgn. destruct (0 <? a)%Z.
      - apply (ok_psub F kln A mem HA); auto.
      - refine (encl_f _ _ _ _ _ (mo_padd F A M mem kpi HM l x m N _ _ _ Hl Hx)); [ring|lia]. }
    eapply sat_bind.
    { apply (low_sat t1 m0 t); [|exact Ht]. apply (encl_le F A mem _ N); [lia|exact Ht1]. }
    intros _ _ _. apply sat_ok.
    assert (Hsh : encl (p_shr M t1 m0) (N - N0) (fhigh N0 t)).
    { apply (mo_shr F A M mem kpi HM); [lia|]. apply (encl_le F A mem _ N); [lia|exact Ht1]. }
    assert (Hu : encl (p_trunc A (p_add_si A (p_shl A y s) 1) m) N (fadd f1 (fshift sn w'))).
    { apply (ok_trunc F kln A mem HA); [lia|].
      refine (encl_f _ _ _ _ _ (ok_add_si F kln A mem HA (p_shl A y s) 1 N (fshift sn w') _)).
      - rewrite fC_ofZ1. ring.
      - apply (encl_le F A mem _ (sn + N)); [lia|]. apply (ok_shl F kln A mem HA); auto. lia. }
    assert (Hd : encl (safe_mullow A (p_shr M t1 m0) (p_trunc A (p_add_si A (p_shl A y s) 1) m) (m - m0)) (N - N0)
      (fmul (fhigh N0 t) (fadd f1 (fshift sn w')))).
    { apply mullow_encl; [lia|exact Hsh|]. apply (encl_le F A mem _ N); [lia|exact Hu]. }
    pose proof (ok_shl F kln A mem HA _ m0 _ _ ltac:(lia) Hd) as Hf. fold N0 in Hf.
    replace (N0 + (N - N0)) with N in Hf by lia.
    refine (encl_f _ _ _ _ _ Hf). rewrite fshift_mul_l, <- zp_mul, <- (fshift_fhigh F N0 t Ht). reflexivity.
  Qed.

  (** The Newton step: agreement to order m0 becomes agreement to order m <= 2 m0. *)
  Lemma expm1_next a s (v w : fps F) m0 m : 1 <= s -> 1 <= m0 -> m <= m0 + m0 -> eqn m0 w (m1 a s v) ->
    eqn m (fsub w (fmul (fsub (fhigh s (flog1p (fshift s w))) (fsgn a v)) (fadd f1 (fshift s w)))) (m1 a s v).
  Proof.
    intros Hs H1 Hm Hw.
    set (Y := fshift s w). set (X := fsgn a (fshift s v)). set (D := fsub (flog1p Y) X).
    assert (HX0 : X O = 0%K) by (apply sgn_0; lia).
    assert (HY0 : Y O = 0%K) by (apply fshift_coef0; lia).
    assert (HE : eqn (s + m0) Y (fsub (fexp X) f1)).
    { transitivity (fshift s (m1 a s v)); [apply fshift_eqn; exact Hw|apply feq_eqn; apply m1_shift; lia]. }
    destruct (expm1_newton F (s + m0) X Y D ltac:(lia) HX0 HY0 (feq_refl F D) HE) as (_ & HN).
    apply fshift_eqn_cancel with s.
    transitivity (fsub Y (fmul (fadd f1 Y) D)).
    - apply feq_eqn. rewrite fshift_sub. apply fsub_feq; [reflexivity|].
      rewrite fshift_mul_l, fshift_sub.
      assert (E1 : feq (fshift s (fhigh s (flog1p Y))) (flog1p Y)) by (rewrite <- zp_mul; apply fhigh_log1p).
      rewrite E1, fsgn_fshift. fold X. unfold D. ring.
    - transitivity (fsub (fexp X) f1); [|apply feq_eqn; symmetry; apply m1_shift; lia].
      apply eqn_mono with (s + m0 + (s + m0)); [lia|exact HN].
  Qed.

  Lemma expm1_iter_sat (x : P) a s n (v : fps F) : Z.abs a = 1%Z -> (1 <= s)%Z -> (1 <= n)%Z -> encl x (Z.to_nat n) v ->
    sat (iterate A n (fun m0 m y => dy <- expm1_delta A M skip x a s y y m0 m ;; Ok (p_sub A y dy m))
           (if (a <? 0)%Z then p_neg M (p_trunc A x 1) else p_trunc A x 1))
      (fun r => encl r (Z.to_nat n) (m1 a (Z.to_nat s) v) /\ length r <= Z.to_nat n).
  Proof.
    intros Ha Hs Hn Hx. set (sn := Z.to_nat s).
    apply (iterate_sat (fun m y => encl y (Z.to_nat m) (m1 a sn v) /\ length y <= Z.to_nat m)); [exact Hn| |].
    - pose proof (mo_trunc_len F A M mem kpi HM x 1) as L1.
      assert (H1 : encl (p_trunc A x 1) 1 v).
      { apply (ok_trunc F kln A mem HA); [lia|]. apply (encl_le F A mem _ (Z.to_nat n)); [lia|exact Hx]. }
      change (Z.to_nat 1) with 1 in *. split.
      + intros i Hi. replace i with 0 by lia. rewrite m1_0 by lia. unfold fsgn.
        destruct (a <? 0)%Z eqn:E.
        * replace (0 <? a)%Z with false by lia. apply (mo_pneg F A M mem kpi HM _ 1 v H1). lia.
        * replace (0 <? a)%Z with true by lia. apply H1. lia.
      + destruct (a <? 0)%Z; [rewrite (mo_neg_len F A M mem kpi HM)|]; exact L1.
    - intros m0 m y H0 Hm Hmn (Hy & Ly).
      set (w := ftrunc (Z.to_nat m0) (m1 a sn v)).
      assert (Hw : eqn (Z.to_nat m0) w (m1 a sn v)) by apply ftrunc_eqn.
      assert (Ey : encl y (Z.to_nat m) w) by (apply encl_long; auto).
      destruct (expm1_delta_sat x a s y y m0 m v w w) as (Ht & Hd); auto; try lia.
      { apply (encl_le F A mem _ (Z.to_nat n)); [lia|exact Hx]. }
      eapply sat_bind; [exact Hd|]. cbv beta. intros dy _ Hdy. apply sat_ok. split.
      + eapply encl_eqn; [|apply (ok_psub F kln A mem HA y dy m (Z.to_nat m) _ _ ltac:(lia) Ey Hdy)].
        apply expm1_next with (m0 := Z.to_nat m0); auto; lia.
      + apply (mo_sub_len F A M mem kpi HM).
  Qed.
  Lemma expm1_sat (x : P) a s n (v : fps F) : skip = true -> Z.abs a = 1%Z -> (1 <= s)%Z -> encl x (Z.to_nat n) v ->
    sat (expm1_shift A M skip x a s n) (fun r => encl r (Z.to_nat n) (m1 a (Z.to_nat s) v)).
  Proof.
    intros Hsk Ha Hs Hx. unfold expm1_shift. destruct (n <=? 0)%Z eqn:En; [intros i Hi; lia|].
    replace (Z.abs a =? 1)%Z with true by lia. replace (1 <=? s)%Z with true by lia. cbn [slow_assert bind].
    eapply sat_bind; [apply expm1_iter_sat; eauto; lia|]. cbv beta. intros y _ (Hy & _). rewrite Hsk. exact Hy.
  Qed.

  (** ** log1p_exp *)
  Definition lpe (s : nat) (v : fps F) : fps F := fhigh s (flog1p (fshift s (fexp v))).
  Lemma lpe_shift s (v : fps F) : feq (fshift s (lpe s v)) (flog1p (fshift s (fexp v))).
  Proof. unfold lpe. rewrite <- zp_mul. apply fhigh_log1p. Qed.
  Lemma lpe_0 s (v : fps F) : 1 <= s -> lpe s v O = 1%K.
  Proof.
    intro Hs. assert (H : eqn 1 (lpe s v) (fexp v)); [|rewrite (H O) by lia; apply fexp_coef0].
    apply fshift_eqn_cancel with s. rewrite lpe_shift. apply eqn_mono with (s + s); [lia|].
    apply flog1p_lin; [lia|apply fshift_low].
  Qed.
  (** -N of log1p_exp_newton divided by z^s *)
  Definition lpe_step (s : nat) (v w : fps F) : fps F :=
    fopp (fadd (m1 (-1) s w) (fexp (fsub v (fshift s w)))).
  Lemma lpe_step_shift s (v w : fps F) : 1 <= s -> v O = 0%K ->
    let Y := fshift s w in let U := fshift s (fexp v) in
    feq (fshift s (lpe_step s v w)) (fopp (fadd (fmul U (fexp (fopp Y))) (fsub (fexp (fopp Y)) f1))).
  Proof.
    intros Hs Hv Y U. assert (HY0 : Y O = 0%K) by (apply fshift_coef0; lia).
    unfold lpe_step. rewrite fshift_opp, fshift_add, m1_shift by lia.
    change (fsgn (-1) (fshift s w)) with (fopp Y).
    assert (E : feq (fexp (fsub v (fshift s w))) (fmul (fexp v) (fexp (fopp Y)))).
    { rewrite <- fexp_add; [|exact Hv|unfold fopp; rewrite HY0; ring]. apply fexp_feq. unfold Y. ring. }
    rewrite (fshift_f F s _ _ E), fshift_mul_l. fold U. ring.
  Qed.
  Lemma lpe_next s (v w : fps F) m0 m : 1 <= s -> v O = 0%K -> 1 <= m0 -> m <= m0 + m0 -> eqn m0 w (lpe s v) ->
    eqn m0 (lpe_step s v w) f0 /\ eqn m (fsub w (lpe_step s v w)) (lpe s v).
  Proof.
    intros Hs Hv H1 Hm Hw.
    set (Y := fshift s w). set (U := fshift s (fexp v)).
    assert (HU0 : U O = 0%K) by (apply fshift_coef0; lia).
    assert (HY0 : Y O = 0%K) by (apply fshift_coef0; lia).
    assert (HE : eqn (s + m0) Y (flog1p U)).
    { transitivity (fshift s (lpe s v)); [apply fshift_eqn; exact Hw|apply feq_eqn; apply lpe_shift]. }
    destruct (log1p_exp_newton F (s + m0) Y U (flog1p U) ltac:(lia) HY0 HU0 (feq_refl F _) HE) as (HN0 & HN).
    pose proof (lpe_step_shift s v w Hs Hv) as HS. cbv zeta in HS. fold Y U in HS.
    set (Nn := fadd (fmul U (fexp (fopp Y))) (fsub (fexp (fopp Y)) f1)) in *. split.
    - apply fshift_eqn_cancel with s. rewrite HS.
      transitivity (fopp (@f0 F)); [apply fopp_eqn; exact HN0|]. apply feq_eqn. rewrite <- zp_mul. ring.
    - apply fshift_eqn_cancel with s. rewrite fshift_sub, HS, lpe_shift. fold Y U.
      transitivity (fadd Y Nn); [apply feq_eqn; ring|]. apply eqn_mono with (s + m0 + (s + m0)); [lia|exact HN].
  Qed.

  Definition exp_sat : Prop := forall x n k a, k <= Z.to_nat n -> encl x k a -> a O = 0%K ->
    sat (exp_ A skip x n) (fun r => encl r k (fexp a)).
  Definition expm1_all : Prop := forall x a s n v, Z.abs a = 1%Z -> (1 <= s)%Z -> encl x (Z.to_nat n) v ->
    sat (expm1_shift A M skip x a s n) (fun r => encl r (Z.to_nat n) (m1 a (Z.to_nat s) v)).
  Definition lpe_sat : Prop := forall x s n a, (1 <= s)%Z -> encl x (Z.to_nat n) a -> a O = 0%K ->
    sat (log1p_exp_shift A M skip x s n) (fun r => encl r (Z.to_nat n) (lpe (Z.to_nat s) a)).

  Lemma lpe_delta_sat (x : P) s (y : P) m0 m (v w : fps F) : exp_sat -> expm1_all -> (1 <= s)%Z ->
    (0 <= m0 <= m)%Z -> v O = 0%K ->
    encl x (Z.to_nat m) v -> encl y (Z.to_nat m) w -> eqn (Z.to_nat m0) (lpe_step (Z.to_nat s) v w) f0 ->
    sat (lpe_delta A M skip x s y m0 m) (fun dy => encl dy (Z.to_nat m) (lpe_step (Z.to_nat s) v w)).
  Proof.
    intros He Hm1 Hs Hm Hv Hx Hy H0. unfold lpe_delta. set (sn := Z.to_nat s) in *. set (N := Z.to_nat m) in *.
    eapply sat_bind; [apply (Hm1 y (-1)%Z s m w); auto|]. cbv beta. fold sn N. intros d _ Hd.
    eapply sat_bind.
    { apply (He _ m N (fsub v (fshift sn w))); [lia| |].
      - apply (ok_psub F kln A mem HA); auto. apply (encl_le F A mem _ (sn + N)); [lia|].
        apply (ok_shl F kln A mem HA); auto. lia.
      - unfold fsub. rewrite Hv, fshift_coef0 by lia. ring. }
    cbv beta. intros e _ Hee.
    assert (HF : encl (p_neg M (p_add M d e m)) N (lpe_step sn v w)).
    { apply (mo_pneg F A M mem kpi HM). apply (mo_padd F A M mem kpi HM); auto. }
    eapply sat_bind.
    { apply (low_sat _ m0 (lpe_step sn v w)); [|exact H0]. apply (encl_le F A mem _ N); [lia|exact HF]. }
    intros _ _ _. exact HF.
  Qed.
  Lemma lpe_iter_sat (x : P) s n (v : fps F) : exp_sat -> expm1_all -> (1 <= s)%Z -> (1 <= n)%Z -> v O = 0%K ->
    encl x (Z.to_nat n) v ->
    sat (iterate A n (fun m0 m y => dy <- lpe_delta A M skip x s y m0 m ;; Ok (p_sub A y dy m)) [b_exp M (at_ A x 0)])
      (fun r => encl r (Z.to_nat n) (lpe (Z.to_nat s) v) /\ length r <= Z.to_nat n).
  Proof.
    intros He Hm1 Hs Hn Hv Hx. set (sn := Z.to_nat s).
    apply (iterate_sat (fun m y => encl y (Z.to_nat m) (lpe sn v) /\ length y <= Z.to_nat m)); [exact Hn| |].
    - change (Z.to_nat 1) with 1. split; [|cbn; lia]. intros i Hi. replace i with 0 by lia.
      rewrite lpe_0 by lia. cbn [at_ nth]. apply (mo_exp F A M mem kpi HM). rewrite <- Hv. apply Hx. lia.
    - intros m0 m y H0 Hm Hmn (Hy & Ly).
      set (w := ftrunc (Z.to_nat m0) (lpe sn v)).
      assert (Hw : eqn (Z.to_nat m0) w (lpe sn v)) by apply ftrunc_eqn.
      assert (Ey : encl y (Z.to_nat m) w) by (apply encl_long; auto).
      destruct (lpe_next sn v w (Z.to_nat m0) (Z.to_nat m)) as (Hz & HN); auto; try lia.
      eapply sat_bind.
      { apply (lpe_delta_sat x s y m0 m v w); auto; try lia. apply (encl_le F A mem _ (Z.to_nat n)); [lia|exact Hx]. }
      cbv beta. fold sn. intros dy _ Hdy. apply sat_ok. split.
      + eapply encl_eqn; [exact HN|]. apply (ok_psub F kln A mem HA); auto.
      + apply (mo_sub_len F A M mem kpi HM).
  Qed.

  (** Without the last step everything follows from the contract. *)
  Lemma exp_sat_skip : skip = true -> exp_ok F A mem -> exp_sat.
  Proof.
    intros Hsk He x n k a Hk Hx Ha. unfold exp_. destruct (n <=? 0)%Z eqn:E; [intros i Hi; lia|].
    rewrite Hsk. apply He; auto.
  Qed.
  Lemma lpe_sat_skip : skip = true -> exp_ok F A mem -> lpe_sat.
  Proof.
    intros Hsk He x s n a Hs Hx Ha. unfold log1p_exp_shift. destruct (n <=? 0)%Z eqn:En; [intros i Hi; lia|].
    eapply sat_bind.
    { apply lpe_iter_sat; eauto; try lia.
      - apply exp_sat_skip; auto.
      - intros x' a' s' n' v' H1 H2 H3. apply expm1_sat; auto. }
    cbv beta. intros y _ (Hy & _). rewrite Hsk. exact Hy.
  Qed.
End EP.
