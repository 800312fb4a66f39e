(** Rounding error of sums of products evaluated as trees, and the run of mul_base and sqr_base on doubles. *)
From Coq Require Import String ZArith Arith List Bool Lia Reals Lra.
From Flocq Require Import Core Relative Mult_error BinarySingleNaN.
From Verif Require Import Base ExpModel ExpansionModel ExpansionFloat ExpansionProofs ExpansionDiv NearestModel NearestProofs FFTRoundD GenCheck BaseGenModel BaseGenRun BaseRoundModel.
Import ListNotations.
Open Scope R_scope.

Notation big := (bpow radix2 1000).

(** Trees of sums of products of two inputs, and doubled trees. *)
Inductive tree := Prod (i j : nat) | Plus (a b : tree) | Dbl (a : tree).
Section Tree.
Variables X Y : nat -> double.
Fixpoint dtree (t : tree) : double :=
  match t with Prod i j => dmul (X i) (Y j) | Plus a b => dadd (dtree a) (dtree b) | Dbl a => dmul (dofZ 2) (dtree a) end.
(** Value, value with absolute terms, depth, number of products. *)
Fixpoint rtree (t : tree) : R :=
  match t with Prod i j => B2R (X i) * B2R (Y j) | Plus a b => rtree a + rtree b | Dbl a => 2 * rtree a end.
Fixpoint atree (t : tree) : R :=
  match t with Prod i j => Rabs (B2R (X i) * B2R (Y j)) | Plus a b => atree a + atree b | Dbl a => 2 * atree a end.
Fixpoint depth (t : tree) : nat := match t with Prod _ _ => 1 | Plus a b => S (Nat.max (depth a) (depth b)) | Dbl a => depth a end%nat.
Fixpoint leaves (t : tree) : nat := match t with Prod _ _ => 1 | Plus a b => leaves a + leaves b | Dbl a => 2 * leaves a end%nat.
Fixpoint inputs (P : nat -> Prop) (t : tree) : Prop := match t with Prod i j => P i /\ P j | Plus a b => inputs P a /\ inputs P b | Dbl a => inputs P a end.

Lemma atree_pos : forall t, 0 <= atree t.
Proof. induction t; cbn [atree]; [apply Rabs_pos|lra|lra]. Qed.
Lemma rtree_abs : forall t, Rabs (rtree t) <= atree t.
Proof.
  induction t; cbn [atree rtree]; [lra| |].
  - eapply Rle_trans; [apply Rabs_triang|lra].
  - rewrite Rabs_mult, (Rabs_pos_eq 2) by lra. lra.
Qed.
Definition grow (k : nat) : R := (1 + u) ^ k.
Lemma grow_1 : forall k, 1 <= grow k.
Proof. intros k. apply pow_R1_Rle. rewrite u_val. lra. Qed.
Lemma grow_S : forall k, grow (S k) = (1 + u) * grow k. Proof. reflexivity. Qed.
Lemma grow_mono : forall j k, (j <= k)%nat -> grow j <= grow k.
Proof. intros j k H. apply Rle_pow; [rewrite u_val; lra|exact H]. Qed.
Lemma hm_pos : 0 < hm. Proof. apply bpow_gt_0. Qed.

Definition near (k c : nat) (d : double) (v a : R) : Prop :=
  fin d /\ Rabs (B2R d - v) <= (grow k - 1) * a + INR c * hm * grow k.
Lemma near_mono : forall j k c d v a, (j <= k)%nat -> 0 <= a -> near j c d v a -> near k c d v a.
Proof.
  intros j k c d v a H Ha [F E]. split; [exact F|]. eapply Rle_trans; [exact E|]. pose proof (grow_mono j k H). pose proof (pos_INR c). pose proof hm_pos.
  apply Rplus_le_compat; [apply Rmult_le_compat_r; lra|]. apply Rmult_le_compat_l; [apply Rmult_le_pos; lra|lra].
Qed.
Lemma near_abs : forall k c d v a, Rabs v <= a -> near k c d v a -> Rabs (B2R d) <= grow k * a + INR c * hm * grow k.
Proof.
  intros k c d v a Hv [F E]. replace (B2R d) with ((B2R d - v) + v) by ring. eapply Rle_trans; [apply Rabs_triang|]. nra.
Qed.
Lemma B2R_two : fin (dofZ 2) /\ B2R (dofZ 2) = 2.
Proof. split; [reflexivity|]. cbv. lra. Qed.
Lemma fmt_double : forall x, fmt x -> fmt (2 * x).
Proof.
  intros x H. replace (2 * x) with (x * bpow radix2 1) by (cbn; ring). apply mult_bpow_pos_exact_FLT; [exact H|lia].
Qed.
Lemma dbl_exact : forall d, fin d -> 2 * Rabs (B2R d) <= big -> fin (dmul (dofZ 2) d) /\ B2R (dmul (dofZ 2) d) = 2 * B2R d.
Proof.
  intros d F L. destruct B2R_two as [F2 E2].
  assert (L' : Rabs (B2R (dofZ 2) * B2R d) <= big) by (rewrite E2, Rabs_mult, (Rabs_pos_eq 2) by lra; exact L).
  assert (Fm := small_fin_mul _ _ F2 F L'). split; [exact Fm|]. rewrite (mul_rn _ _ Fm), E2. apply round_generic; [apply valid_rnd_N|]. apply fmt_double, fmt_B2R.
Qed.
(** No tree in use is deeper than 8 or has more than 100 products. *)
Lemma size_ok : forall k c a, (k <= 8)%nat -> (c <= 100)%nat -> 0 <= a <= bpow radix2 990 -> 2 * (grow k * a + INR c * hm * grow k) <= big.
Proof.
  intros k c a Hk Hc [Ha0 Ha]. pose proof (grow_mono k 8 Hk) as G. pose proof (grow_1 k) as G1. assert (G8 : grow 8 <= 2) by (unfold grow; rewrite u_val; lra).
  assert (HC : INR c <= 100) by (rewrite INR_IZR_INZ; apply IZR_le; lia). pose proof (pos_INR c) as HC0. pose proof hm_pos as Hh. pose proof hm_small as Hs.
  assert (Hs1 : hm <= 1) by (eapply Rle_trans; [exact Hs|]; rewrite pow_200; lra).
  assert (B : bpow radix2 1000 = 1024 * bpow radix2 990) by (replace 1000%Z with (10 + 990)%Z by lia; rewrite bpow_plus; f_equal; cbn; lra).
  assert (B1 : 1 <= bpow radix2 990) by (change 1 with (bpow radix2 0); apply bpow_le; lia).
  assert (P1 : grow k * a <= 2 * bpow radix2 990) by (apply Rmult_le_compat; lra).
  assert (P2 : INR c * hm <= 100) by (replace 100 with (100 * 1) by ring; apply Rmult_le_compat; lra).
  assert (P3 : INR c * hm * grow k <= 100 * 2) by (apply Rmult_le_compat; try lra; apply Rmult_le_pos; lra).
  lra.
Qed.
Lemma tree_near : forall t, inputs (fun i => fin (X i) /\ fin (Y i)) t -> (depth t <= 8)%nat -> (leaves t <= 100)%nat -> atree t <= bpow radix2 990 ->
  near (depth t) (leaves t) (dtree t) (rtree t) (atree t).
Proof.
  induction t as [i j|a IHa b IHb|a IHa]; cbn [inputs depth leaves atree rtree dtree]; intros Hi Hd Hc Ha.
  - destruct Hi as [[Fx _] [_ Fy]].
    assert (L : Rabs (B2R (X i) * B2R (Y j)) <= big) by (eapply Rle_trans; [exact Ha|]; apply bpow_le; lia).
    destruct (small_mul _ _ Fx Fy L) as [F E]. split; [exact F|]. eapply Rle_trans; [exact E|].
    unfold grow. cbn [INR pow]. pose proof hm_pos. assert (0 <= u) by (rewrite u_val; lra). nra.
  - destruct Hi as [Hi1 Hi2]. pose proof (atree_pos a) as Pa. pose proof (atree_pos b) as Pb.
    assert (A1 := near_mono _ (Nat.max (depth a) (depth b)) _ _ _ _ (Nat.le_max_l _ _) Pa (IHa Hi1 ltac:(lia) ltac:(lia) ltac:(lra))).
    assert (A2 := near_mono _ (Nat.max (depth a) (depth b)) _ _ _ _ (Nat.le_max_r _ _) Pb (IHb Hi2 ltac:(lia) ltac:(lia) ltac:(lra))).
    assert (Hk : (Nat.max (depth a) (depth b) <= 8)%nat) by lia. set (k := Nat.max (depth a) (depth b)) in *.
    pose proof (near_abs _ _ _ _ _ (rtree_abs a) A1) as S1. pose proof (near_abs _ _ _ _ _ (rtree_abs b) A2) as S2.
    destruct A1 as [F1 E1], A2 as [F2 E2].
    pose proof (size_ok k (leaves a + leaves b) (atree a + atree b) Hk Hc ltac:(lra)) as Z. rewrite plus_INR in Z.
    pose proof (grow_1 k) as G1. pose proof hm_pos as Hh. pose proof (pos_INR (leaves a)). pose proof (pos_INR (leaves b)).
    assert (N1 : 0 <= INR (leaves a) * hm * grow k) by (apply Rmult_le_pos; [apply Rmult_le_pos|]; lra).
    assert (N2 : 0 <= INR (leaves b) * hm * grow k) by (apply Rmult_le_pos; [apply Rmult_le_pos|]; lra).
    assert (Q : Rabs (B2R (dtree a)) + Rabs (B2R (dtree b)) <= big).
    { pose proof (Rabs_pos (B2R (dtree a))). pose proof (Rabs_pos (B2R (dtree b))). rewrite !Rmult_plus_distr_l, !Rmult_plus_distr_r in Z. rewrite !Rmult_plus_distr_l in Z. lra. }
    destruct (small_add _ _ F1 F2 Q) as [F E]. split; [exact F|]. rewrite grow_S, plus_INR.
    replace (B2R (dadd (dtree a) (dtree b)) - (rtree a + rtree b)) with
      ((B2R (dadd (dtree a) (dtree b)) - (B2R (dtree a) + B2R (dtree b))) + ((B2R (dtree a) - rtree a) + (B2R (dtree b) - rtree b))) by ring.
    eapply Rle_trans; [apply Rabs_triang|]. eapply Rle_trans; [apply Rplus_le_compat; [exact E|apply Rabs_triang]|].
    assert (U : 0 <= u) by (rewrite u_val; lra).
    pose proof (Rmult_le_compat_l u _ _ U S1). pose proof (Rmult_le_compat_l u _ _ U S2). nra.
  - pose proof (IHa Hi Hd ltac:(lia) ltac:(pose proof (atree_pos a); lra)) as A. pose proof (near_abs _ _ _ _ _ (rtree_abs a) A) as S0. destruct A as [F E].
    pose proof (size_ok (depth a) (leaves a) (atree a) Hd ltac:(lia) ltac:(pose proof (atree_pos a); lra)) as Z.
    destruct (dbl_exact (dtree a) F ltac:(lra)) as [F2 E2]. split; [exact F2|]. rewrite E2. rewrite mult_INR. cbn [INR].
    replace (2 * B2R (dtree a) - 2 * rtree a) with (2 * (B2R (dtree a) - rtree a)) by ring. rewrite Rabs_mult, (Rabs_pos_eq 2) by lra. lra.
Qed.

(** Integers: no error below 2^53. *)
Definition whole (x : R) : Prop := exists z, x = IZR z.
Lemma whole_mul : forall x y, whole x -> whole y -> whole (x * y).
Proof. intros x y [a ->] [b ->]. exists (a * b)%Z. symmetry. apply mult_IZR. Qed.
Lemma whole_add : forall x y, whole x -> whole y -> whole (x + y).
Proof. intros x y [a ->] [b ->]. exists (a + b)%Z. symmetry. apply plus_IZR. Qed.
Lemma fmt_whole : forall x, whole x -> Rabs x <= bpow radix2 53 -> fmt x.
Proof.
  intros x [z ->] H. destruct (Req_dec (Rabs (IZR z)) (bpow radix2 53)) as [E|N].
  - destruct (Rle_or_lt 0 (IZR z)) as [P|P].
    + rewrite Rabs_pos_eq in E by exact P. rewrite E. apply generic_format_bpow. unfold FLT_exp. cbn. lia.
    + rewrite Rabs_left in E by exact P. replace (IZR z) with (- bpow radix2 53) by lra. apply generic_format_opp, generic_format_bpow. unfold FLT_exp. cbn. lia.
  - apply generic_format_FLT. exists (Float radix2 z 0).
    + unfold F2R. cbn. ring.
    + cbn. assert (Q : Rabs (IZR z) < bpow radix2 53) by lra. rewrite <- abs_IZR in Q. apply lt_IZR. exact Q.
    + vm_compute. discriminate.
Qed.
Lemma tree_whole : forall t, inputs (fun i => (fin (X i) /\ fin (Y i)) /\ whole (B2R (X i)) /\ whole (B2R (Y i))) t -> atree t <= bpow radix2 53 ->
  fin (dtree t) /\ B2R (dtree t) = rtree t /\ whole (rtree t).
Proof.
  assert (LB : forall a, a <= bpow radix2 53 -> a <= big) by (intros a H; eapply Rle_trans; [exact H|]; apply bpow_le; lia).
  assert (B53 : bpow radix2 53 * 2 <= big) by (change 2 with (bpow radix2 1); rewrite <- bpow_plus; apply bpow_le; lia).
  induction t as [i j|a IHa b IHb|a IHa]; cbn [inputs atree rtree dtree]; intros Hi Ha.
  - destruct Hi as [[[Fx _] [Wx _]] [[_ Fy] [_ Wy]]]. destruct (small_mul _ _ Fx Fy (LB _ Ha)) as [F _]. pose proof (whole_mul _ _ Wx Wy) as Wp.
    split; [exact F|]. split; [|exact Wp]. rewrite (mul_rn _ _ F). apply round_generic; [apply valid_rnd_N|]. apply fmt_whole; assumption.
  - destruct Hi as [Hi1 Hi2]. pose proof (atree_pos a) as Pa. pose proof (atree_pos b) as Pb.
    destruct (IHa Hi1 ltac:(lra)) as (F1 & E1 & W1). destruct (IHb Hi2 ltac:(lra)) as (F2 & E2 & W2).
    pose proof (rtree_abs a) as R1. pose proof (rtree_abs b) as R2.
    destruct (small_add _ _ F1 F2) as [F _]; [rewrite E1, E2; apply LB; lra|]. split; [exact F|]. pose proof (whole_add _ _ W1 W2) as Wp. split; [|exact Wp].
    rewrite (add_rn _ _ F), E1, E2. apply round_generic; [apply valid_rnd_N|]. apply fmt_whole; [exact Wp|]. eapply Rle_trans; [apply Rabs_triang|lra].
  - pose proof (atree_pos a) as Pa. destruct (IHa Hi ltac:(lra)) as (F1 & E1 & W1). pose proof (rtree_abs a) as R1.
    destruct (dbl_exact (dtree a) F1) as [F E]; [rewrite E1; lra|]. split; [exact F|]. split; [rewrite E, E1; reflexivity|]. apply whole_mul; [exists 2%Z; reflexivity|exact W1].
Qed.
End Tree.

(** ** The trees of mul_base and sqr_base *)
Fixpoint bal (fuel : nat) (l : list tree) : tree :=
  match fuel with
  | O => Prod 0 0
  | S f => match l with
           | [] => Prod 0 0
           | [t] => t
           | _ => let n := length l in Plus (bal f (firstn (n / 2) l)) (bal f (skipn (n - (n + 1) / 2) l))
           end
  end.
Definition prods (i n : nat) : list tree := map (fun j => Prod j (i - j)) (seq 0 n).
Definition mul_tree (i : nat) : tree := bal 9 (prods i (S i)).
Definition sqr_tree (i : nat) : tree :=
  match i with
  | O => Prod 0 0
  | _ => let t := Dbl (bal 9 (prods i ((i + 1) / 2))) in if Nat.even i then Plus t (Prod (i / 2) (i / 2)) else t
  end.
Fixpoint tree_text (x y : string) (t : tree) : text :=
  match t with
  | Prod i j => XMul (XVar (elem x i)) (XVar (elem y j))
  | Plus a b => XAdd (tree_text x y a) (tree_text x y b)
  | Dbl a => XMul (XInt 2) (tree_text x y a)
  end.
Definition loads (x : string) (is : list nat) : list tstmt := map (fun i => TLoad (elem x i) i ("n" ++ x) x) is.
Fixpoint stores (a c : string) (k : nat) (ts : list text) : list tstmt :=
  match ts with
  | [] => []
  | t :: r => match k with O => [] | S _ => [TRet c k] end ++ TStore a k t :: stores a c (S k) r
  end.
Lemma mul_text : written (mul_gen toyg toy_draw true 8) =
  TRet "nz" 0 :: loads "x" (seq 0 8) ++ loads "y" (seq 0 8) ++ stores "z" "nz" 0 (map (fun i => tree_text "x" "y" (mul_tree i)) (seq 0 8)).
Proof. vm_compute. reflexivity. Qed.
Lemma sqr_text : written (sqr_gen toyg toy_draw true 8) =
  TRet "ny" 0 :: loads "x" (seq 0 8) ++ stores "y" "ny" 0 (map (fun i => tree_text "x" "x" (sqr_tree i)) (seq 0 8)).
Proof. vm_compute. reflexivity. Qed.

(** ** The run *)
Section Run.
Variables (f : frame).
(** Element i of an array, zero beyond its end. *)
Definition entry (m : memd) (a c : string) (i : nat) : double :=
  if (Z.of_nat i <? f_int f c)%Z then match m (f_ptr f a + Z.of_nat i)%Z with Some v => v | None => dzero end else dzero.
Definition there (m : memd) (a c : string) (n : nat) : Prop := forall i, (i < n)%nat -> (Z.of_nat i < f_int f c)%Z -> m (f_ptr f a + Z.of_nat i)%Z <> None.
Definition declares (m : memd) (x : string) (is : list nat) (I : string -> option double) : string -> option double :=
  fold_left (fun I i => declare I (elem x i) (entry m x ("n" ++ x) i)) is I.
Lemma run_loads : forall m x rest is I, (forall i, In i is -> (Z.of_nat i < f_int f ("n" ++ x))%Z -> m (f_ptr f x + Z.of_nat i)%Z <> None) ->
  drun f (loads x is ++ rest) I m = drun f rest (declares m x is I) m.
Proof.
  intros m x rest. induction is as [|i is IH]; intros I H; [reflexivity|]. cbn [loads map app drun declares fold_left].
  assert (E : forall d, entry m x ("n" ++ x) i = d -> drun f (loads x is ++ rest) (declare I (elem x i) d) m = drun f rest (declares m x is (declare I (elem x i) (entry m x ("n" ++ x) i))) m).
  { intros d <-. apply IH. intros j Hj. apply H. right. exact Hj. }
  unfold loads, declares in E. specialize (H i (or_introl eq_refl)). unfold entry in E at 1.
  destruct (Z.of_nat i <? f_int f ("n" ++ x))%Z eqn:L; [|exact (E _ eq_refl)]. apply Z.ltb_lt in L.
  destruct (m (f_ptr f x + Z.of_nat i)%Z) as [v|] eqn:Em; [exact (E _ eq_refl)|]. exfalso. exact (H L eq_refl).
Qed.
Lemma run_stores : forall a c I ts k m, (k = O -> (0 < f_int f c)%Z) ->
  (forall t, In t ts -> dval I t <> None) ->
  (forall i, (k <= i < k + length ts)%nat -> (Z.of_nat i < f_int f c)%Z -> m (f_ptr f a + Z.of_nat i)%Z <> None) ->
  exists m', drun f (stores a c k ts) I m = Some m' /\
    (forall i, (i < length ts)%nat -> (Z.of_nat (k + i) < f_int f c)%Z -> m' (f_ptr f a + Z.of_nat (k + i))%Z = dval I (nth i ts XBad)) /\
    (forall p, (forall i, (i < length ts)%nat -> (Z.of_nat (k + i) < f_int f c)%Z -> p <> (f_ptr f a + Z.of_nat (k + i))%Z) -> m' p = m p).
Proof.
  intros a c I. induction ts as [|t ts IH]; intros k m Hk Ht Hm.
  - exists m. split; [reflexivity|]. split; [intros i Hi; cbn in Hi; lia|reflexivity].
  - destruct (Z_lt_le_dec (Z.of_nat k) (f_int f c)) as [L|L].
    + assert (Es : drun f (stores a c k (t :: ts)) I m = drun f (TStore a k t :: stores a c (S k) ts) I m).
      { cbn [stores]. destruct k as [|k]; [reflexivity|]. cbn [app drun]. destruct (f_int f c <=? Z.of_nat (S k))%Z eqn:Q; [apply Z.leb_le in Q; lia|reflexivity]. }
      rewrite Es. cbn [drun]. pose proof (Hm k ltac:(cbn; lia) L) as Hmk. destruct (m (f_ptr f a + Z.of_nat k)%Z) as [w|] eqn:Em; [|contradiction].
      pose proof (Ht t (or_introl eq_refl)) as Hd. destruct (dval I t) as [v|] eqn:Ed; [|contradiction].
      destruct (IH (S k) (poke m (f_ptr f a + Z.of_nat k)%Z v)) as (m' & E & V & U).
      * discriminate.
      * intros t' Hin. apply Ht. right. exact Hin.
      * intros i Hi Li. unfold poke. destruct (_ =? _)%Z; [discriminate|]. apply Hm; [cbn; lia|exact Li].
      * exists m'. split; [exact E|]. split.
        -- intros [|i] Hi Li.
           ++ rewrite Nat.add_0_r in *. cbn [nth]. rewrite U; [unfold poke; rewrite Z.eqb_refl; symmetry; exact Ed|]. intros j _ _. lia.
           ++ cbn [nth]. replace (k + S i)%nat with (S k + i)%nat in * by lia. apply V; [cbn in Hi; lia|exact Li].
        -- intros p Hp. rewrite U.
           ++ unfold poke. destruct (p =? f_ptr f a + Z.of_nat k)%Z eqn:Q; [|reflexivity]. apply Z.eqb_eq in Q. exfalso. apply (Hp O); [cbn; lia| |]; rewrite Nat.add_0_r; assumption.
           ++ intros i Hi Li. replace (S k + i)%nat with (k + S i)%nat in * by lia. apply Hp; [cbn; lia|exact Li].
    + exists m. split.
      { destruct k as [|k]; [specialize (Hk eq_refl); cbn in L; lia|]. cbn [stores app drun]. destruct (f_int f c <=? Z.of_nat (S k))%Z eqn:Q; [reflexivity|apply Z.leb_gt in Q; lia]. }
      split; [intros i Hi Li; lia|reflexivity].
Qed.
Lemma tree_val : forall I x y X Y t, inputs (fun i => I (elem x i) = Some (X i) /\ I (elem y i) = Some (Y i)) t -> dval I (tree_text x y t) = Some (dtree X Y t).
Proof.
  induction t as [i j|a IHa b IHb|a IHa]; cbn [inputs tree_text dval dtree].
  - intros [[A _] [_ B]]. rewrite A, B. reflexivity.
  - intros [A B]. rewrite IHa, IHb by assumption. reflexivity.
  - intros A. rewrite IHa by assumption. reflexivity.
Qed.
End Run.
Lemma small8 : forall (P : nat -> Prop), P 0%nat -> P 1%nat -> P 2%nat -> P 3%nat -> P 4%nat -> P 5%nat -> P 6%nat -> P 7%nat -> forall i, (i < 8)%nat -> P i.
Proof. intros P; intros. do 8 (destruct i as [|i]; [assumption|]). lia. Qed.
Lemma inputs_8 : forall (P : nat -> Prop) i, (i < 8)%nat -> (forall j, (j < 8)%nat -> P j) -> inputs P (mul_tree i) /\ inputs P (sqr_tree i).
Proof.
  intros P i Hi HP. assert (H := fun j (Hj : (j <? 8)%nat = true) => HP j (proj1 (Nat.ltb_lt _ _) Hj)). revert i Hi.
  apply small8; (split; [cbv [mul_tree prods bal map seq Nat.sub firstn skipn length Nat.div fst snd Nat.divmod Nat.add inputs]|cbv [sqr_tree prods bal map seq Nat.sub firstn skipn length Nat.div fst snd Nat.divmod Nat.add Nat.even inputs]];
    repeat split; apply H; reflexivity).
Qed.
Lemma shape_8 : forall i, (i < 8)%nat -> ((depth (mul_tree i) <= 4)%nat /\ (leaves (mul_tree i) <= 8)%nat) /\ ((depth (sqr_tree i) <= 4)%nat /\ (leaves (sqr_tree i) <= 8)%nat).
Proof. apply small8; vm_compute; repeat split; lia. Qed.
