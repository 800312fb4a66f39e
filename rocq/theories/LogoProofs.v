(** Proofs about the colours of logo.cc. *)
From Coq Require Import ZArith QArith Qround List Bool Lia Lqa Permutation.
From Verif Require Import Base LoopsModel LogoModel.
Import ListNotations.
Open Scope Q_scope.

(** ** Specification *)

(** Equal numbers, component by component. *)
Definition ceq (a b : color) : Prop :=
  red a == red b /\ green a == green b /\ blue a == blue b /\ alpha a == alpha b.
Definition unit_q (x : Q) : Prop := 0 <= x <= 1.
(** A colour with all components in [0,1]. *)
Definition valid (c : color) : Prop :=
  unit_q (red c) /\ unit_q (green c) /\ unit_q (blue c) /\ unit_q (alpha c).

(** ** over *)
Definition mixed (sa sb x y : Q) : Q :=
  (if Qeq_bool (sa + sb) 0 then 0 else 1 / (sa + sb)) * (sa * x + sb * y).

Lemma over_eq a b : over a b =
  mkC (mixed (alpha a) ((1 - alpha a) * alpha b) (red a) (red b))
      (mixed (alpha a) ((1 - alpha a) * alpha b) (green a) (green b))
      (mixed (alpha a) ((1 - alpha a) * alpha b) (blue a) (blue b))
      (alpha a + (1 - alpha a) * alpha b).
Proof. reflexivity. Qed.

Lemma mixed_pre sa sb x y : 0 <= sa -> 0 <= sb ->
  (sa + sb) * mixed sa sb x y == sa * x + sb * y.
Proof.
  intros Ha Hb. unfold mixed. destruct (Qeq_bool (sa + sb) 0) eqn:E.
  - apply Qeq_bool_iff in E. assert (Ea : sa == 0) by lra. assert (Eb : sb == 0) by lra.
    rewrite Ea, Eb. ring.
  - apply Qeq_bool_neq in E. field. exact E.
Qed.

Lemma mixed_range sa sb x y l h : 0 <= sa -> 0 <= sb -> ~ sa + sb == 0 ->
  l <= x <= h -> l <= y <= h -> l <= mixed sa sb x y <= h.
Proof.
  intros Ha Hb N Hx Hy. pose proof (mixed_pre sa sb x y Ha Hb) as P.
  assert (0 < sa + sb) by (apply Qnot_le_lt; intro; apply N; lra).
  set (m := mixed sa sb x y) in *. clearbody m.
  split; apply Qnot_lt_le; intro; nra.
Qed.

Lemma mixed_zero sa sb x y : sa + sb == 0 -> mixed sa sb x y == 0.
Proof.
  intro E. unfold mixed. apply Qeq_bool_iff in E. rewrite E. ring.
Qed.

Lemma weights a b : unit_q (alpha a) -> unit_q (alpha b) ->
  0 <= alpha a /\ 0 <= (1 - alpha a) * alpha b /\ alpha a + (1 - alpha a) * alpha b <= 1.
Proof. unfold unit_q. intros. split; [|split]; nra. Qed.

Lemma over_valid a b : valid a -> valid b -> valid (over a b).
Proof.
  intros (R1 & G1 & B1 & A1) (R2 & G2 & B2 & A2).
  destruct (weights a b A1 A2) as (W1 & W2 & W3). rewrite over_eq.
  assert (M : forall x y, unit_q x -> unit_q y ->
    unit_q (mixed (alpha a) ((1 - alpha a) * alpha b) x y)).
  { intros x y Hx Hy. destruct (Qeq_dec (alpha a + (1 - alpha a) * alpha b) 0) as [E|N].
    - unfold unit_q. rewrite (mixed_zero _ _ x y E). lra.
    - now apply mixed_range. }
  unfold valid. cbn [red green blue alpha]. split; [|split; [|split]]; auto. unfold unit_q. lra.
Qed.

(** Each colour component stays between those of the two colours. *)
Lemma over_between a b l h : unit_q (alpha a) -> unit_q (alpha b) -> ~ alpha (over a b) == 0 ->
  (l <= red a <= h -> l <= red b <= h -> l <= red (over a b) <= h) /\
  (l <= green a <= h -> l <= green b <= h -> l <= green (over a b) <= h) /\
  (l <= blue a <= h -> l <= blue b <= h -> l <= blue (over a b) <= h).
Proof.
  intros A1 A2 N. destruct (weights a b A1 A2) as (W1 & W2 & W3).
  rewrite over_eq in N |- *. cbn [red green blue alpha] in *.
  split; [|split]; intros; now apply mixed_range.
Qed.

Lemma mixed_left sa sb x y : ~ sa == 0 -> sb == 0 -> mixed sa sb x y == x.
Proof.
  intros N Z. unfold mixed. destruct (Qeq_bool (sa + sb) 0) eqn:E.
  - apply Qeq_bool_iff in E. exfalso. apply N. lra.
  - rewrite Z. field. exact N.
Qed.
Lemma mixed_right sa sb x y : sa == 0 -> ~ sb == 0 -> mixed sa sb x y == y.
Proof.
  intros Z N. unfold mixed. destruct (Qeq_bool (sa + sb) 0) eqn:E.
  - apply Qeq_bool_iff in E. exfalso. apply N. lra.
  - rewrite Z. field. exact N.
Qed.

Lemma over_opaque a b : alpha a == 1 -> ceq (over a b) a.
Proof.
  intro E. rewrite over_eq. unfold ceq. cbn [red green blue alpha].
  assert (N : ~ alpha a == 0) by (rewrite E; discriminate).
  assert (Z : (1 - alpha a) * alpha b == 0) by (rewrite E; ring).
  repeat split; try (now apply mixed_left). rewrite Z. ring.
Qed.
Lemma over_clear_r a : ~ alpha a == 0 -> ceq (over a clear) a.
Proof.
  intro N. rewrite over_eq. unfold ceq. cbn [red green blue alpha clear].
  assert (Z : (1 - alpha a) * 0 == 0) by ring.
  repeat split; try (now apply mixed_left). ring.
Qed.
Lemma over_clear_l b : ~ alpha b == 0 -> ceq (over clear b) b.
Proof.
  intro N. rewrite over_eq. unfold ceq. cbn [red green blue alpha clear].
  assert (Z : ~ (1 - 0) * alpha b == 0) by (intro H; apply N; lra).
  repeat split; try (now apply mixed_right). ring.
Qed.
Lemma over_transparent a b : alpha a == 0 -> alpha b == 0 -> ceq (over a b) clear.
Proof.
  intros E F. rewrite over_eq. unfold ceq. cbn [red green blue alpha clear].
  assert (Z : alpha a + (1 - alpha a) * alpha b == 0) by (rewrite E, F; ring).
  repeat split; try (now apply mixed_zero). exact Z.
Qed.

Lemma mixed_assoc sa sb sc x y z : unit_q sa -> unit_q sb -> unit_q sc ->
  mixed (sa + (1 - sa) * sb) ((1 - (sa + (1 - sa) * sb)) * sc) (mixed sa ((1 - sa) * sb) x y) z ==
  mixed sa ((1 - sa) * (sb + (1 - sb) * sc)) x (mixed sb ((1 - sb) * sc) y z).
Proof.
  unfold unit_q. intros Ha Hb Hc.
  assert (0 <= (1 - sa) * sb) by nra.
  assert (0 <= (1 - sb) * sc) by nra.
  assert (Q1 : sa + (1 - sa) * sb <= 1) by nra.
  assert (0 <= (1 - (sa + (1 - sa) * sb)) * sc) by nra.
  assert (Q2 : sb + (1 - sb) * sc <= 1) by nra.
  assert (0 <= (1 - sa) * (sb + (1 - sb) * sc)) by nra.
  set (u := mixed sa ((1 - sa) * sb) x y).
  set (v := mixed sb ((1 - sb) * sc) y z).
  pose proof (mixed_pre sa ((1 - sa) * sb) x y ltac:(lra) ltac:(lra)) as P1. fold u in P1.
  pose proof (mixed_pre sb ((1 - sb) * sc) y z ltac:(lra) ltac:(lra)) as P2. fold v in P2.
  pose proof (mixed_pre (sa + (1 - sa) * sb) ((1 - (sa + (1 - sa) * sb)) * sc) u z ltac:(lra) ltac:(lra)) as P3.
  pose proof (mixed_pre sa ((1 - sa) * (sb + (1 - sb) * sc)) x v ltac:(lra) ltac:(lra)) as P4.
  set (p := mixed (sa + (1 - sa) * sb) _ u z) in *. set (q := mixed sa _ x v) in *.
  assert (Es : sa + (1 - sa) * sb + (1 - (sa + (1 - sa) * sb)) * sc ==
               sa + (1 - sa) * (sb + (1 - sb) * sc)) by ring.
  destruct (Qeq_dec (sa + (1 - sa) * (sb + (1 - sb) * sc)) 0) as [Z|N].
  - subst p q. rewrite !mixed_zero; [reflexivity|exact Z|]. rewrite Es. exact Z.
  - apply Qmult_inj_l with (sa + (1 - sa) * (sb + (1 - sb) * sc)); [exact N|].
    rewrite <- Es at 1. rewrite P3, P4, P1.
    setoid_replace ((1 - sa) * (sb + (1 - sb) * sc) * v) with ((1 - sa) * (sb * y + (1 - sb) * sc * z))
      by (rewrite <- P2; ring). ring.
Qed.

Lemma over_assoc a b c : valid a -> valid b -> valid c ->
  ceq (over (over a b) c) (over a (over b c)).
Proof.
  intros (_ & _ & _ & A1) (_ & _ & _ & A2) (_ & _ & _ & A3).
  rewrite !over_eq. unfold ceq. cbn [red green blue alpha].
  repeat split; try (now apply mixed_assoc). ring.
Qed.

(** ** average *)
Definition wsum (f : color -> Q) (cs : list color) : Q :=
  fold_right (fun c r => f c * alpha c + r) 0 cs.
Definition asum (cs : list color) : Q := fold_right (fun c r => alpha c + r) 0 cs.

Lemma color_sum_eq cs : 
  red (color_sum cs) == wsum red cs /\ green (color_sum cs) == wsum green cs /\
  blue (color_sum cs) == wsum blue cs /\ alpha (color_sum cs) == asum cs.
Proof.
  unfold color_sum.
  assert (G : forall s,
    let r := fold_left (fun sum c =>
      mkC (red sum + red c * alpha c) (green sum + green c * alpha c)
          (blue sum + blue c * alpha c) (alpha sum + alpha c)) cs s in
    red r == red s + wsum red cs /\ green r == green s + wsum green cs /\
    blue r == blue s + wsum blue cs /\ alpha r == alpha s + asum cs).
  { induction cs as [|c cs IH]; intros s r; subst r.
    - cbn. repeat split; ring.
    - cbn [fold_left wsum asum fold_right]. fold (wsum red cs) (wsum green cs) (wsum blue cs) (asum cs).
      destruct (IH (mkC (red s + red c * alpha c) (green s + green c * alpha c)
          (blue s + blue c * alpha c) (alpha s + alpha c))) as (H1 & H2 & H3 & H4).
      cbn [red green blue alpha] in *. repeat split; [rewrite H1|rewrite H2|rewrite H3|rewrite H4]; ring. }
  specialize (G clear). cbv zeta in G. cbn [red green blue alpha clear] in G.
  destruct G as (H1 & H2 & H3 & H4). repeat split; [rewrite H1|rewrite H2|rewrite H3|rewrite H4]; ring.
Qed.

Lemma wsum_range f cs l h : Forall (fun c => 0 <= alpha c /\ l <= f c <= h) cs ->
  0 <= asum cs /\ l * asum cs <= wsum f cs <= h * asum cs.
Proof.
  induction 1 as [|c cs H HF IH]; cbn [asum wsum fold_right]; [lra|].
  fold (asum cs) (wsum f cs). nra.
Qed.
Lemma asum_le cs : Forall (fun c => alpha c <= 1) cs -> asum cs <= inject_Z (Z.of_nat (length cs)).
Proof.
  induction 1 as [|c cs H HF IH]; cbn [asum fold_right length]; [unfold Qle; cbn; lia|].
  fold (asum cs). rewrite Nat2Z.inj_succ. unfold Z.succ. rewrite inject_Z_plus.
  change (inject_Z 1) with 1. lra.
Qed.

Definition weighted (a s : Q) : Q := (if Qeq_bool a 0 then 0 else 1 / a) * s.
Lemma average_eq cs : average cs = 
  mkC (weighted (alpha (color_sum cs)) (red (color_sum cs)))
      (weighted (alpha (color_sum cs)) (green (color_sum cs)))
      (weighted (alpha (color_sum cs)) (blue (color_sum cs)))
      (alpha (color_sum cs) / inject_Z (Z.of_nat (length cs))).
Proof. reflexivity. Qed.

Lemma weighted_range a s l h : 0 <= a -> ~ a == 0 -> l * a <= s <= h * a -> l <= weighted a s <= h.
Proof.
  intros Ha N H. unfold weighted. destruct (Qeq_bool a 0) eqn:E.
  - apply Qeq_bool_iff in E. contradiction.
  - assert (0 < a) by (apply Qnot_le_lt; intro; apply N; lra).
    assert (M : a * (1 / a * s) == s) by (field; exact N).
    set (m := 1 / a * s) in *. clearbody m. split; apply Qnot_lt_le; intro; nra.
Qed.
Lemma weighted_zero a s : a == 0 -> weighted a s == 0.
Proof. intro E. unfold weighted. apply Qeq_bool_iff in E. rewrite E. ring. Qed.

Lemma average_between cs l h : Forall (fun c => unit_q (alpha c)) cs -> ~ alpha (average cs) == 0 ->
  (Forall (fun c => l <= red c <= h) cs -> l <= red (average cs) <= h) /\
  (Forall (fun c => l <= green c <= h) cs -> l <= green (average cs) <= h) /\
  (Forall (fun c => l <= blue c <= h) cs -> l <= blue (average cs) <= h).
Proof.
  intros A N. rewrite average_eq in *. cbn [red green blue alpha] in *.
  destruct (color_sum_eq cs) as (E1 & E2 & E3 & E4).
  assert (N' : ~ alpha (color_sum cs) == 0).
  { intro Z. apply N. rewrite Z. unfold Qdiv. ring. }
  assert (G : forall f s, s == wsum f cs -> Forall (fun c => l <= f c <= h) cs ->
    l <= weighted (alpha (color_sum cs)) s <= h).
  { intros f s Es F. destruct (wsum_range f cs l h) as [P W].
    - rewrite Forall_forall in *. intros c Hc. specialize (A c Hc). specialize (F c Hc).
      unfold unit_q in A. lra.
    - apply weighted_range; [rewrite E4; exact P|exact N'|]. rewrite Es, E4. exact W. }
  split; [|split]; intro F; eapply G; eauto.
Qed.

Lemma average_valid cs : cs <> [] -> Forall valid cs -> valid (average cs).
Proof.
  intros Hn F.
  assert (A : Forall (fun c => unit_q (alpha c)) cs).
  { eapply Forall_impl; [|exact F]. intros c (_ & _ & _ & H). exact H. }
  assert (L : 0 < inject_Z (Z.of_nat (length cs))).
  { destruct cs; [congruence|]. unfold Qlt. cbn. lia. }
  destruct (color_sum_eq cs) as (E1 & E2 & E3 & E4).
  assert (U : unit_q (alpha (average cs))).
  { rewrite average_eq. cbn [alpha]. destruct (wsum_range (fun _ => 0) cs 0 0) as [P _].
    - eapply Forall_impl; [|exact A]. unfold unit_q. intros. lra.
    - assert (Q : asum cs <= inject_Z (Z.of_nat (length cs))).
      { apply asum_le. eapply Forall_impl; [|exact A]. unfold unit_q. intros. lra. }
      rewrite <- E4 in P, Q. unfold unit_q.
      split; [apply Qle_shift_div_l; lra|apply Qle_shift_div_r; lra]. }
  destruct (Qeq_dec (alpha (average cs)) 0) as [Z|N].
  - rewrite average_eq in Z. cbn [alpha] in Z.
    assert (Z' : alpha (color_sum cs) == 0).
    { assert (alpha (color_sum cs) / inject_Z (Z.of_nat (length cs)) * inject_Z (Z.of_nat (length cs)) == 0)
        by (rewrite Z; ring). rewrite Qmult_comm, Qmult_div_r in H; [exact H|]. lra. }
    split; [|split; [|split; [|exact U]]]; rewrite average_eq; cbn [red green blue]; unfold unit_q;
      rewrite (weighted_zero _ _ Z'); lra.
  - destruct (average_between cs 0 1 A N) as (R & G & B).
    split; [|split; [|split; [|exact U]]].
    + apply R. eapply Forall_impl; [|exact F]. intros c H. apply H.
    + apply G. eapply Forall_impl; [|exact F]. intros c (_ & H & _). apply H.
    + apply B. eapply Forall_impl; [|exact F]. intros c (_ & _ & H & _). apply H.
Qed.

(** Copies of one colour. *)
Lemma sum_repeat f c n : wsum f (repeat c n) == inject_Z (Z.of_nat n) * (f c * alpha c) /\
  asum (repeat c n) == inject_Z (Z.of_nat n) * alpha c.
Proof.
  induction n as [|n [IH1 IH2]]; [split; cbn; ring|].
  cbn [repeat wsum asum fold_right]. fold (wsum f (repeat c n)) (asum (repeat c n)).
  rewrite Nat2Z.inj_succ. unfold Z.succ. rewrite inject_Z_plus. change (inject_Z 1) with 1.
  rewrite IH1, IH2. split; ring.
Qed.
Lemma average_repeat c n : (0 < n)%nat -> ~ alpha c == 0 -> ceq (average (repeat c n)) c.
Proof.
  intros Hn N. rewrite average_eq, repeat_length. unfold ceq. cbn [red green blue alpha].
  destruct (color_sum_eq (repeat c n)) as (E1 & E2 & E3 & E4).
  assert (P : ~ inject_Z (Z.of_nat n) == 0) by (unfold Qeq; cbn; lia).
  destruct (sum_repeat red c n) as [S1 S4]. destruct (sum_repeat green c n) as [S2 _].
  destruct (sum_repeat blue c n) as [S3 _]. rewrite S4 in E4. rewrite S1 in E1. rewrite S2 in E2. rewrite S3 in E3.
  assert (N' : ~ alpha (color_sum (repeat c n)) == 0).
  { rewrite E4. intro H. apply Qmult_integral in H. tauto. }
  assert (W : forall s x, s == inject_Z (Z.of_nat n) * (x * alpha c) ->
    weighted (alpha (color_sum (repeat c n))) s == x).
  { intros s x Es. unfold weighted. destruct (Qeq_bool _ 0) eqn:E; [apply Qeq_bool_iff in E; contradiction|].
    rewrite Es, E4. field. auto. }
  repeat split; auto. rewrite E4. field. auto.
Qed.

(** The order of the samples does not matter. *)
Lemma sum_perm f cs cs' : Permutation cs cs' -> wsum f cs == wsum f cs' /\ asum cs == asum cs'.
Proof.
  induction 1 as [|c l l' P [H1 H2]|c d l|l l' l'' P1 [H1 H2] P2 [H3 H4]]; cbn [wsum asum fold_right];
    unfold wsum, asum in *.
  - split; reflexivity.
  - rewrite H1, H2. split; reflexivity.
  - split; ring.
  - split; [rewrite H1|rewrite H2]; assumption.
Qed.
Lemma average_perm cs cs' : Permutation cs cs' -> ceq (average cs) (average cs').
Proof.
  intro P. rewrite !average_eq. unfold ceq. cbn [red green blue alpha].
  destruct (color_sum_eq cs) as (E1 & E2 & E3 & E4).
  destruct (color_sum_eq cs') as (F1 & F2 & F3 & F4).
  assert (A : alpha (color_sum cs) == alpha (color_sum cs')).
  { rewrite E4, F4. apply (sum_perm red _ _ P). }
  assert (W : forall f s s', s == wsum f cs -> s' == wsum f cs' ->
    weighted (alpha (color_sum cs)) s == weighted (alpha (color_sum cs')) s').
  { intros f s s' Es Es'. assert (Ess : s == s') by (rewrite Es, Es'; apply (sum_perm f _ _ P)).
    unfold weighted. 
    destruct (Qeq_bool (alpha (color_sum cs)) 0) eqn:X, (Qeq_bool (alpha (color_sum cs')) 0) eqn:Y.
    - ring.
    - apply Qeq_bool_iff in X. apply Qeq_bool_neq in Y. exfalso. apply Y. rewrite <- A. exact X.
    - apply Qeq_bool_iff in Y. apply Qeq_bool_neq in X. exfalso. apply X. rewrite A. exact Y.
    - rewrite A, Ess. reflexivity. }
  repeat split; [eapply W; eauto|eapply W; eauto|eapply W; eauto|].
  rewrite A, (Permutation_length P). reflexivity.
Qed.

(** ** Bytes *)
Lemma rint_near q : inject_Z (rint q) - (1 # 2) <= q <= inject_Z (rint q) + (1 # 2).
Proof.
  unfold rint. pose proof (Qfloor_le q) as L. pose proof (Qlt_floor q) as U.
  rewrite inject_Z_plus in U. change (inject_Z 1) with 1 in U.
  destruct (Qcompare (q - inject_Z (Qfloor q)) (1 # 2)) eqn:C.
  - apply Qeq_alt in C. destruct (Z.even (Qfloor q)); [|rewrite inject_Z_plus; change (inject_Z 1) with 1]; lra.
  - apply Qlt_alt in C. lra.
  - apply Qgt_alt in C. rewrite inject_Z_plus. change (inject_Z 1) with 1. lra.
Qed.

Lemma byte_ok q : unit_q q -> exists b, byte q = Ok b /\ (0 <= b <= 255)%Z /\
  inject_Z b - (1 # 2) <= 255 * q <= inject_Z b + (1 # 2).
Proof.
  intros [H0 H1]. pose proof (rint_near (255 * q)) as R. set (r := rint (255 * q)) in *.
  assert (0 <= r <= 255)%Z.
  { split.
    - assert (- (1) < inject_Z r) by lra. unfold Qlt in H. cbn in H. lia.
    - assert (inject_Z r < 256) by lra. unfold Qlt in H. cbn in H. lia. }
  exists r. unfold byte. fold r. unfold as_int.
  replace ((- 2 ^ 31 <=? r)%Z && (r <? 2 ^ 31)%Z) with true by (symmetry; apply andb_true_iff; lia).
  cbn [bind]. replace (Z.max 0 (Z.min 255 r)) with r by lia. auto.
Qed.
