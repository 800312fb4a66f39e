(** The mean value theorem behind the refinement step of arb_areas, over the reals: between two members of
    an enclosure, phi(u) - phi(v) = d (u - v) where each coefficient of d is that coefficient of the derivative
    of phi at some member. *)
From Coq Require Import ZArith List Bool Lia Setoid Morphisms Ring Field Reals Lra.
From Coquelicot Require Import Coquelicot.
From Verif Require Import Base Field FieldInst FPS PolyModel PolySpec SeriesProofs AlgoProofs BottcherMath AreaProofs
  ArbAreaModel ArbAreaSpec ArbExpProofs ArbAreaProofs.
Open Scope nat_scope.

Add Field mean_field : (kfield RF).
Add Ring mean_fps : (fps_ring_theory RF) (setoid (feq_Equiv RF) (fps_ring_ext RF)).

(** Balls are intervals. *)
Definition convex {B : Type} (mem : B -> R -> Prop) : Prop :=
  forall b x y t, mem b x -> mem b y -> (0 <= t <= 1)%R -> mem b (y + t * (x - y))%R.

Definition Dv (a a' : R -> fps RF) : Prop := forall (i : nat) (t : R), is_derive (fun t => (a t i : R)) t (a' t i : R).
Definition Cv (a : R -> fps RF) : Prop := forall (i : nat) (t : R), continuous (fun t => (a t i : R)) t.

Lemma Dv_ext a b a' b' : (forall t, feq (a t) (b t)) -> (forall t, feq (a' t) (b' t)) -> Dv a a' -> Dv b b'.
Proof.
  intros H H' D i t. specialize (D i t). assert (E : (b' t i : R) = a' t i) by (symmetry; apply H'). rewrite E.
  refine (is_derive_ext (fun t => (a t i : R)) _ t _ _ D). intro s. apply H.
Qed.
Lemma Cv_ext a b : (forall t, feq (a t) (b t)) -> Cv a -> Cv b.
Proof. intros H C i t. refine (continuous_ext (fun t => (a t i : R)) _ t _ (C i t)). intro s. apply H. Qed.
Lemma Dv_Cv a a' : Dv a a' -> Cv a.
Proof. intros D i t. apply (ex_derive_continuous (fun t => (a t i : R))). exists (a' t i). apply D. Qed.

Lemma Dv_const a : Dv (fun _ => a) (fun _ => f0).
Proof. intros i t. apply (is_derive_const (a i : R)). Qed.
Lemma Cv_const a : Cv (fun _ => a).
Proof. intros i t. apply continuous_const. Qed.
Lemma Dv_add a b a' b' : Dv a a' -> Dv b b' -> Dv (fun t => fadd (a t) (b t)) (fun t => fadd (a' t) (b' t)).
Proof. intros H1 H2 i t. exact (is_derive_plus _ _ t _ _ (H1 i t) (H2 i t)). Qed.
Lemma Dv_sub a b a' b' : Dv a a' -> Dv b b' -> Dv (fun t => fsub (a t) (b t)) (fun t => fsub (a' t) (b' t)).
Proof. intros H1 H2 i t. exact (is_derive_minus _ _ t _ _ (H1 i t) (H2 i t)). Qed.
Lemma Cv_add a b : Cv a -> Cv b -> Cv (fun t => fadd (a t) (b t)).
Proof. intros H1 H2 i t. exact (continuous_plus (fun t => (a t i : R)) (fun t => (b t i : R)) t (H1 i t) (H2 i t)). Qed.
Lemma Cv_sub a b : Cv a -> Cv b -> Cv (fun t => fsub (a t) (b t)).
Proof. intros H1 H2 i t. exact (continuous_minus (fun t => (a t i : R)) (fun t => (b t i : R)) t (H1 i t) (H2 i t)). Qed.

Lemma derive_sum (f f' : nat -> R -> R) t : forall n, (forall j, j < n -> is_derive (f j) t (f' j t)) ->
  is_derive (fun t => sumto (F:=RF) (fun j => f j t) n : R) t (sumto (F:=RF) (fun j => f' j t) n : R).
Proof.
  induction n as [|n IH]; intro H; cbn [sumto].
  - apply (is_derive_const (0%R : R)).
  - refine (is_derive_plus _ _ t _ _ (IH _) (H n _)); [intros; apply H; lia|lia].
Qed.
Lemma cont_sum (f : nat -> R -> R) t : forall n, (forall j, j < n -> continuous (f j) t) ->
  continuous (fun t => sumto (F:=RF) (fun j => f j t) n : R) t.
Proof.
  induction n as [|n IH]; intro H; cbn [sumto].
  - apply continuous_const.
  - apply (continuous_plus (fun t => sumto (F:=RF) (fun j => f j t) n : R) (f n)); [apply IH; intros; apply H; lia|apply H; lia].
Qed.
Lemma Dv_mul a b a' b' : Dv a a' -> Dv b b' ->
  Dv (fun t => fmul (a t) (b t)) (fun t => fadd (fmul (a' t) (b t)) (fmul (a t) (b' t))).
Proof.
  intros H1 H2 i t. unfold fmul, fadd.
  pose proof (derive_sum (fun j t => (a t j : R) * (b t (i - j)%nat : R))%R
    (fun j t => (a' t j : R) * (b t (i - j)%nat : R) + (a t j : R) * (b' t (i - j)%nat : R))%R t (S i)) as G.
  match goal with |- is_derive ?f t ?v => match type of G with _ -> is_derive _ t ?w => assert (E : v = w) end end.
  { symmetry. apply (sumto_add RF). }
  rewrite E. apply G. intros j Hj. exact (is_derive_mult (fun t => (a t j : R)) (fun t => (b t (i - j)%nat : R)) t _ _ (H1 j t) (H2 (i - j) t) Rmult_comm).
Qed.
Lemma Cv_mul a b : Cv a -> Cv b -> Cv (fun t => fmul (a t) (b t)).
Proof.
  intros H1 H2 i t. unfold fmul. apply (cont_sum (fun j t => (a t j : R) * (b t (i - j)%nat : R))%R). intros j Hj.
  apply (continuous_mult (fun t => (a t j : R)) (fun t => (b t (i - j)%nat : R))); auto.
Qed.
Lemma Dv_shift s a a' : Dv a a' -> Dv (fun t => fshift s (a t)) (fun t => fshift s (a' t)).
Proof.
  intros H i t. unfold fshift. destruct (i <? s); [apply (is_derive_const (0%R : R))|apply H].
Qed.
Lemma Cv_shift s a : Cv a -> Cv (fun t => fshift s (a t)).
Proof. intros H i t. unfold fshift. destruct (i <? s); [apply continuous_const|apply H]. Qed.

(** ** Composition *)
Lemma Dv_scale c a a' : Dv a a' -> Dv (fun t => fmul c (a t)) (fun t => fmul c (a' t)).
Proof.
  intro H. refine (Dv_ext _ _ _ _ _ _ (Dv_mul _ _ _ _ (Dv_const c) H)); intro t; [reflexivity|ring].
Qed.
Lemma Dv_pow x x' : Dv x x' -> forall k, Dv (fun t => fpow (x t) (S k))
  (fun t => fmul (fC (kofnat (S k))) (fmul (x' t) (fpow (x t) k))).
Proof.
  intro H. induction k as [|k IH].
  - refine (Dv_ext _ _ _ _ _ _ H); intro t; cbn [fpow]; [ring|]. rewrite kofnat_1. change (fC (1%K : K RF)) with (f1 (F:=RF)). ring.
  - refine (Dv_ext _ _ _ _ _ _ (Dv_mul _ _ _ _ H IH)); intro t; cbn [fpow]; [reflexivity|].
    rewrite (kofnat_S RF (S k)), fC_add. change (fC (1%K : K RF)) with (f1 (F:=RF)). ring.
Qed.
Lemma Dv_psum (c : nat -> K RF) x x' : Dv x x' -> forall N, Dv (fun t => psum RF c (x t) (S N))
  (fun t => fmul (x' t) (psum RF (fun k => kofnat (S k) * c (S k))%K (x t) N)).
Proof.
  intro H. induction N as [|N IH].
  - refine (Dv_ext _ _ _ _ _ _ (Dv_const (fC (c O)))); intro t; cbn [psum fpow]; ring.
  - refine (Dv_ext _ _ _ _ _ _ (Dv_add _ _ _ _ IH (Dv_scale (fC (c (S N))) _ _ (Dv_pow x x' H N)))); intro t; cbn [psum]; [reflexivity|].
    rewrite fC_mulC. ring.
Qed.
Lemma Dv_fcomp (c : nat -> K RF) x x' : (forall t, x t O = 0%K) -> (forall t, x' t O = 0%K) -> Dv x x' ->
  Dv (fun t => fcomp c (x t)) (fun t => fmul (x' t) (fcomp (fun k => kofnat (S k) * c (S k))%K (x t))).
Proof.
  intros H0 H0' H i t.
  assert (E : (fmul (x' t) (fcomp (fun k => kofnat (S k) * c (S k))%K (x t)) i : R) =
              fmul (x' t) (psum RF (fun k => kofnat (S k) * c (S k))%K (x t) i) i).
  { assert (G : eqn (1 + i) (fmul (x' t) (fsub (fcomp (fun k => kofnat (S k) * c (S k))%K (x t))
        (psum RF (fun k => kofnat (S k) * c (S k))%K (x t) i))) f0).
    { apply eqn0_mul; [intros [|j] Hj; [apply H0'|lia]|]. apply -> (eqn_sub0 RF). apply fcomp_psum. apply H0. }
    assert (G2 : eqn (1 + i) (fmul (x' t) (fcomp (fun k => kofnat (S k) * c (S k))%K (x t)))
       (fmul (x' t) (psum RF (fun k => kofnat (S k) * c (S k))%K (x t) i))).
    { apply (eqn_sub0 RF). etransitivity; [|exact G]. apply feq_eqn. ring. }
    apply G2. lia. }
  rewrite E.
  refine (is_derive_ext (fun t => (psum RF c (x t) (S i) i : R)) _ t _ _ (Dv_psum c x x' H i i t)).
  intro s. symmetry. apply (fcomp_psum RF c (x s) (S i) (H0 s)). lia.
Qed.
Lemma Dv_exp x x' : (forall t, x t O = 0%K) -> (forall t, x' t O = 0%K) -> Dv x x' ->
  Dv (fun t => fexp (x t)) (fun t => fmul (x' t) (fexp (x t))).
Proof.
  intros H0 H0' H. refine (Dv_ext _ _ _ _ _ _ (Dv_fcomp (fun k => 1 / kfact RF k)%K x x' H0 H0' H)); intro t; [reflexivity|].
  apply fmul_feq; [reflexivity|]. apply (fcomp_ext RF). intro k. cbn [kfact].
  field. split; [apply kfact_nz|apply (kofnat_nz RF (S k)); lia].
Qed.
Definition geo (u : fps RF) : fps RF := fcomp (ksign RF) u.
Lemma Dv_log1p x x' : (forall t, x t O = 0%K) -> (forall t, x' t O = 0%K) -> Dv x x' ->
  Dv (fun t => flog1p (x t)) (fun t => fmul (x' t) (geo (x t))).
Proof.
  intros H0 H0' H. refine (Dv_ext _ _ _ _ _ _ (Dv_fcomp (fun k => match k with O => 0%K | S k' => (ksign RF k' / kofnat k)%K end) x x' H0 H0' H)); intro t; [reflexivity|].
  apply fmul_feq; [reflexivity|]. apply (fcomp_ext RF). intro k. field. apply (kofnat_nz RF (S k)). lia.
Qed.

(** ** The derivative of the iteration *)
Lemma exp_sub_log (T U : fps RF) : T O = 0%K -> U O = 0%K ->
  feq (fexp (fsub T (flog1p U))) (fmul (fexp T) (geo U)).
Proof.
  intros HT HU. assert (HL : fopp (flog1p U) O = 0%K) by (unfold fopp; rewrite flog1p_coef0; ring).
  transitivity (fmul (fexp T) (fexp (fopp (flog1p U)))).
  - rewrite <- fexp_add by assumption. apply fexp_feq. ring.
  - apply fmul_feq; [reflexivity|].
    transitivity (fmul (fexp (fopp (flog1p U))) (fmul (fadd f1 U) (geo U))).
    + unfold geo. rewrite (geom RF U HU). ring.
    + transitivity (fmul (fmul (fexp (flog1p U)) (fexp (fopp (flog1p U)))) (geo U)).
      * rewrite (exp_log1p RF U HU). ring.
      * rewrite (fexp_opp RF (flog1p U) (flog1p_coef0 RF U)). ring.
Qed.
Lemma Dv_T g g' h h' i : Dv g g' -> Dv h h' -> Dv (fun t => escT RF (g t) (h t) i) (fun t => escT RF (g' t) (h' t) i).
Proof. intros H1 H2. apply Dv_sub; apply Dv_scale; assumption. Qed.
Lemma Dv_H g g' : (forall t, g t O = 0%K) -> (forall t, g' t O = 0%K) -> Dv g g' ->
  forall i, Dv (fun t => escH RF (g t) i) (fun t => escD RF (g t) (g' t) i).
Proof.
  intros H0 H0' H. induction i as [|j IH]; [exact (Dv_const f0)|].
  cbn [escH escD]. apply Dv_add; [exact IH|]. apply Dv_scale.
  set (s := 2 ^ S j - 1). assert (Hs : 1 <= s) by (pose proof (two_pow j); subst s; lia).
  set (T := fun t => escT RF (g t) (escH RF (g t) j) (S j)).
  set (T' := fun t => escT RF (g' t) (escD RF (g t) (g' t) j) (S j)).
  assert (T0 : forall t, T t O = 0%K) by (intro t; apply escT_0; [apply H0|apply escH_0]).
  assert (T0' : forall t, T' t O = 0%K) by (intro t; apply escT_0; [apply H0'|apply escD_0]).
  assert (DT : Dv T T') by (apply Dv_T; assumption).
  refine (Dv_ext _ _ _ _ _ _ (Dv_log1p (fun t => fshift s (fexp (T t))) (fun t => fshift s (fmul (T' t) (fexp (T t)))) _ _ _)).
  - intro t. reflexivity.
  - intro t. change (escL RF (g t) (escH RF (g t) j) (S j)) with (flog1p (fshift s (fexp (T t)))).
    fold (T t). fold (T' t). rewrite <- fshift_mul_l. apply fshift_f.
    rewrite exp_sub_log; [ring|apply T0|apply fshift_coef0; lia].
  - intro t. apply fshift_coef0. lia.
  - intro t. apply fshift_coef0. lia.
  - apply Dv_shift. apply Dv_exp; assumption.
Qed.
Lemma escD_mul (g dg d : fps RF) : forall i, feq (escD RF g (fmul dg d) i) (fmul (escD RF g dg i) d).
Proof.
  induction i as [|j IH]; cbn [escD]; [ring|].
  assert (E : feq (escT RF (fmul dg d) (escD RF g (fmul dg d) j) (S j)) (fmul (escT RF dg (escD RF g dg j) (S j)) d)).
  { unfold escT. rewrite IH. ring. }
  set (X := fexp _).
  assert (E2 : feq (fmul X (escT RF (fmul dg d) (escD RF g (fmul dg d) j) (S j)))
     (fmul (fmul X (escT RF dg (escD RF g dg j) (S j))) d)) by (rewrite E; ring).
  transitivity (fadd (fmul (escD RF g dg j) d) (fmul (I2 RF (S j)) (fshift (2 ^ S j - 1) (fmul (fmul X (escT RF dg (escD RF g dg j) (S j))) d)))).
  - apply fadd_feq; [exact IH|]. apply fmul_feq; [reflexivity|]. apply fshift_f. exact E2.
  - rewrite fshift_mul_l. ring.
Qed.
Lemma Cv_D g g' : (forall t, g t O = 0%K) -> (forall t, g' t O = 0%K) -> Dv g g' -> forall dg i, Cv (fun t => escD RF (g t) dg i).
Proof.
  intros H0 H0' H dg. induction i as [|j IH]; [exact (Cv_const f0)|].
  cbn [escD]. apply Cv_add; [exact IH|]. apply Cv_mul; [apply Cv_const|]. apply Cv_shift. apply Cv_mul.
  - set (s := 2 ^ S j - 1). assert (Hs : 1 <= s) by (pose proof (two_pow j); subst s; lia).
    set (T := fun t => escT RF (g t) (escH RF (g t) j) (S j)).
    set (T' := fun t => escT RF (g' t) (escD RF (g t) (g' t) j) (S j)).
    assert (T0 : forall t, T t O = 0%K) by (intro t; apply escT_0; [apply H0|apply escH_0]).
    assert (T0' : forall t, T' t O = 0%K) by (intro t; apply escT_0; [apply H0'|apply escD_0]).
    assert (DT : Dv T T') by (apply Dv_T; [exact H|apply Dv_H; assumption]).
    assert (DL : Dv (fun t => flog1p (fshift s (fexp (T t)))) (fun t => fmul (fshift s (fmul (T' t) (fexp (T t)))) (geo (fshift s (fexp (T t)))))).
    { apply (Dv_log1p (fun t => fshift s (fexp (T t))) (fun t => fshift s (fmul (T' t) (fexp (T t))))).
      - intro t. apply fshift_coef0. lia.
      - intro t. apply fshift_coef0. lia.
      - apply Dv_shift. apply Dv_exp; assumption. }
    eapply Dv_Cv. apply (Dv_exp (fun t => fsub (T t) (flog1p (fshift s (fexp (T t)))))
      (fun t => fsub (T' t) (fmul (fshift s (fmul (T' t) (fexp (T t)))) (geo (fshift s (fexp (T t))))))).
    + intro t. unfold fsub. rewrite T0, flog1p_coef0. ring.
    + intro t. unfold fsub. rewrite T0', fmul_coef0, fshift_coef0 by lia. ring.
    + apply Dv_sub; assumption.
  - unfold escT. apply Cv_sub; apply Cv_mul; try apply Cv_const. exact IH.
Qed.

(** ** Mean values *)
Lemma mean_1 (f : R -> R) : (forall t, continuous f t) ->
  exists c, (0 <= c <= 1)%R /\ is_RInt f 0 1 (f c).
Proof.
  intro C.
  assert (I : forall b, ex_RInt f 0 b) by (intro b; apply (ex_RInt_continuous f); intros; apply C).
  destruct (MVT_gen (fun b => RInt f 0 b) 0 1 f) as (c & Hc & E).
  - intros x _. apply (is_derive_RInt f (fun b => RInt f 0 b) 0 x); [|apply C].
    apply filter_forall. intro b. apply (RInt_correct (V:=R_CompleteNormedModule)). apply I.
  - intros x _. apply continuity_pt_filterlim. apply (ex_derive_continuous (fun b => RInt f 0 b)).
    exists (f x). apply (is_derive_RInt f (fun b => RInt f 0 b) 0 x); [|apply C].
    apply filter_forall. intro b. apply (RInt_correct (V:=R_CompleteNormedModule)). apply I.
  - rewrite Rmin_left, Rmax_right in Hc by lra. exists c. split; [exact Hc|].
    rewrite RInt_point in E.
    assert (E' : @eq R (f c) (RInt f 0 1)).
    { change (@zero R_CompleteNormedModule) with 0%R in E. set (z := RInt f 0 1) in *. change (z - 0 = f c * (1 - 0))%R in E. lra. }
    rewrite E'. apply (RInt_correct (V:=R_CompleteNormedModule)). apply I.
Qed.
Lemma RInt_sum (f : nat -> R -> R) (v : nat -> R) : forall n, (forall j, j < n -> is_RInt (f j) 0 1 (v j)) ->
  is_RInt (fun t => sumto (F:=RF) (fun j => f j t) n : R) 0 1 (sumto (F:=RF) v n : R).
Proof.
  induction n as [|n IH]; intro H; cbn [sumto].
  - pose proof (is_RInt_const 0 1 (0%R : R)) as G. unfold scal in G. cbn in G. unfold mult in G. cbn in G.
    replace ((1 - 0) * 0)%R with 0%R in G by ring. exact G.
  - refine (is_RInt_plus _ _ 0 1 _ _ (IH _) (H n _)); [intros; apply H; lia|lia].
Qed.

Theorem mean_value_R (A : arb_poly) (mem : ball A -> R -> Prop) : convex mem -> mean_value RF A mem.
Proof.
  intros HC g N k u v Hu Hv Hu0 Hv0.
  set (de := fsub u v). set (w := fun t : R => fadd v (fscale (F:=RF) t de)).
  assert (w0 : forall t, w t O = 0%K).
  { intro t. unfold w, fadd, fscale, de, fsub. rewrite Hu0, Hv0. ring. }
  assert (de0 : de O = 0%K) by (unfold de, fsub; rewrite Hu0, Hv0; ring).
  assert (Dw : Dv w (fun _ => de)).
  { intros i t. unfold w, fadd, fscale.
    assert (G : forall a b : R, is_derive (fun t : R => (a + t * b)%R) t b) by (intros a b; auto_derive; [trivial|ring]).
    exact (G (v i) (de i)). }
  assert (Dphi : Dv (fun t => phi (w t) k) (fun t => fmul (dphi (w t) k) de)).
  { refine (Dv_ext _ _ _ _ _ _ (Dv_add _ _ _ _ Dw (Dv_H w (fun _ => de) w0 (fun _ => de0) Dw k))); intro t; [reflexivity|].
    assert (E : feq de (fmul f1 de)) by ring.
    unfold dphi. rewrite (escD_feq RF k (w t) de (fmul f1 de) E), escD_mul. ring. }
  assert (Cd : Cv (fun t => dphi (w t) k)).
  { unfold dphi. apply Cv_add; [apply Cv_const|]. apply (Cv_D w (fun _ => de)); auto. }
  (* the mean coefficients *)
  assert (HP : forall j : nat, exists c, (0 <= c <= 1)%R /\ is_RInt (fun t => (dphi (w t) k j : R)) 0 1 (dphi (w c) k j : R)).
  { intro j. apply (mean_1 (fun t => (dphi (w t) k j : R))). intro t. apply Cd. }
  assert (HP' : exists cs : nat -> R, forall j, (j < N + 1)%nat ->
     (0 <= cs j <= 1)%R /\ is_RInt (fun t => (dphi (w t) k j : R)) 0 1 (dphi (w (cs j)) k j : R)).
  { clear - HP. induction (N + 1) as [|n (cs & IH)]; [exists (fun _ => 0%R); intros; lia|].
    destruct (HP n) as (c & Hc). exists (fun j => if j =? n then c else cs j). intros j Hj.
    destruct (j =? n) eqn:E; [apply Nat.eqb_eq in E; subst; exact Hc|apply Nat.eqb_neq in E; apply IH; lia]. }
  destruct HP' as (cs & Hcs).
  exists (fun j => dphi (w (cs j)) k j). split; [|split].
  - unfold dphi, fadd. rewrite escD_0. cbn [f1 fC]. intro E. apply (k1_nz RF). rewrite <- E. ring.
  - intros i Hi.
    assert (I1 : is_RInt (fun t => (fmul (dphi (w t) k) de i : R)) 0 1 (fmul (fun j => dphi (w (cs j)) k j) de i : R)).
    { unfold fmul. apply (RInt_sum (fun j t => (dphi (w t) k j : R) * (de (i - j)%nat : R))%R
        (fun j => (dphi (w (cs j)) k j : R) * (de (i - j)%nat : R))%R).
      intros j Hj. destruct (Hcs j ltac:(lia)) as (_ & G).
      pose proof (is_RInt_scal _ 0 1 (de (i - j)%nat : R) _ G) as G2.
      refine (is_RInt_ext _ _ 0 1 _ _ _).
      2:{ match type of G2 with is_RInt _ _ _ ?l => replace (dphi (w (cs j)) k j * de (i - j)%nat)%R with l end; [exact G2|].
          unfold scal. cbn. unfold mult. cbn. apply Rmult_comm. }
      intros x _. unfold scal. cbn. unfold mult. cbn. apply Rmult_comm. }
    assert (I2 : is_RInt (fun t => (fmul (dphi (w t) k) de i : R)) 0 1 (minus (phi (w 1%R) k i : R) (phi (w 0%R) k i : R))).
    { apply (is_RInt_derive (fun t => (phi (w t) k i : R)) (fun t => (fmul (dphi (w t) k) de i : R))).
      - intros x _. apply Dphi.
      - intros x _. apply (Cv_mul _ _ Cd (Cv_const de)). }
    pose proof (is_RInt_unique _ _ _ _ I1) as U1. pose proof (is_RInt_unique _ _ _ _ I2) as U2.
    rewrite U1 in U2.
    assert (W1 : feq (w 1%R) u).
    { intro j. unfold w, fadd, fscale, de, fsub. cbn. lra. }
    assert (W0 : feq (w 0%R) v).
    { intro j. unfold w, fadd, fscale, de, fsub. cbn. lra. }
    assert (PE : forall a b : fps RF, feq a b -> phi a k i = phi b k i).
    { intros a b E. unfold phi, fadd. rewrite (E i). f_equal.
      clear - E. revert i. change (feq (escH RF a k) (escH RF b k)). induction k as [|j IH]; [reflexivity|].
      cbn [escH]. apply fadd_feq; [exact IH|]. apply fmul_feq; [reflexivity|]. unfold escL. apply flog1p_feq. apply fshift_f.
      apply fexp_feq. unfold escT. apply fsub_feq; apply fmul_feq; try reflexivity; assumption. }
    rewrite (PE _ _ W1), (PE _ _ W0) in U2. exact U2.
  - intros j Hj. destruct (Hcs j ltac:(lia)) as (Hc & _). exists (w (cs j)). split; [|split; [apply w0|reflexivity]].
    intros i Hi. unfold w, fadd, fscale, de, fsub. apply HC; [now apply Hu|now apply Hv|exact Hc].
Qed.
