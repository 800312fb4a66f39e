(** Rounding error of the multiplication base cases in double precision (C84).

    [standard_mul] and [standard_sqr] are the bodies that the generator writes when no two signatures
    collide by accident (C73 has the same condition, as [clean]); a run with other random draws that
    writes the same text is covered.  [u] is 2^-53. *)
From Coq Require Import String ZArith Arith List Bool Lia Reals Lra.
From Flocq Require Import Core BinarySingleNaN.
From Verif Require Import Base ExpModel ExpansionModel ExpansionFloat ExpansionProofs ExpansionDiv FFTRoundD GenCheck BaseGenModel BaseGenRun BaseRoundModel BaseRound.
Import ListNotations.
Open Scope R_scope.

Definition standard_mul : list tstmt := written (mul_gen toyg toy_draw true 8).
Definition standard_sqr : list tstmt := written (sqr_gen toyg toy_draw true 8).
(** Element i of the array a whose length is c, zero beyond its end. *)
Definition element (f : frame) (m : memd) (a c : string) (i : nat) : double :=
  if (Z.of_nat i <? f_int f c)%Z then match m (f_ptr f a + Z.of_nat i)%Z with Some v => v | None => dzero end else dzero.
(** The first eight elements of the array a of length c exist. *)
Definition exists8 (f : frame) (m : memd) (a c : string) : Prop :=
  forall i, (i < 8)%nat -> (Z.of_nat i < f_int f c)%Z -> m (f_ptr f a + Z.of_nat i)%Z <> None.
(** The exact coefficient of the product, and the sum of the absolute terms. *)
Definition coefficient (X Y : nat -> double) (i : nat) : R := fold_right Rplus 0 (map (fun j => B2R (X j) * B2R (Y (i - j)%nat)) (seq 0 (S i))).
Definition absolute (X Y : nat -> double) (i : nat) : R := fold_right Rplus 0 (map (fun j => Rabs (B2R (X j) * B2R (Y (i - j)%nat))) (seq 0 (S i))).
(** Exactly the first min(8, length) elements of a are written, element i with a value as P says. *)
Definition writes (f : frame) (m m' : memd) (a c : string) (P : nat -> double -> Prop) : Prop :=
  (forall i, (i < 8)%nat -> (Z.of_nat i < f_int f c)%Z -> exists v, m' (f_ptr f a + Z.of_nat i)%Z = Some v /\ P i v) /\
  (forall p, (forall i, (i < 8)%nat -> (Z.of_nat i < f_int f c)%Z -> p <> (f_ptr f a + Z.of_nat i)%Z) -> m' p = m p).
(** The double is an integer. *)
Definition integral (d : double) : Prop := exists z, B2R d = IZR z.
(** Every element of the input that is read is finite. *)
Definition finite8 (X : nat -> double) : Prop := forall i, (i < 8)%nat -> is_finite (X i) = true.

(** ** The trees compute the coefficients *)
Lemma mul_tree_sum : forall X Y i, (i < 8)%nat -> rtree X Y (mul_tree i) = coefficient X Y i /\ atree X Y (mul_tree i) = absolute X Y i.
Proof.
  intros X Y. apply small8; (split;
    [cbv [rtree coefficient mul_tree prods bal map seq Nat.sub firstn skipn length Nat.div fst snd Nat.divmod Nat.add fold_right]
    |cbv [atree absolute mul_tree prods bal map seq Nat.sub firstn skipn length Nat.div fst snd Nat.divmod Nat.add fold_right]]; ring).
Qed.
Lemma sqr_tree_sum : forall X i, (i < 8)%nat -> rtree X X (sqr_tree i) = coefficient X X i /\ atree X X (sqr_tree i) = absolute X X i.
Proof.
  intros X. apply small8; (split;
    [cbv [rtree coefficient sqr_tree prods bal map seq Nat.sub firstn skipn length Nat.div fst snd Nat.divmod Nat.add Nat.even fold_right]; ring
    |cbv [atree absolute sqr_tree prods bal map seq Nat.sub firstn skipn length Nat.div fst snd Nat.divmod Nat.add Nat.even fold_right]; rewrite !Rabs_mult; ring]).
Qed.
Lemma in_trees : forall x y (tr : nat -> tree) t, In t (map (fun i => tree_text x y (tr i)) (seq 0 8)) -> exists i, (i < 8)%nat /\ t = tree_text x y (tr i).
Proof. intros x y tr t H. apply in_map_iff in H. destruct H as (i & <- & Hi). apply in_seq in Hi. exists i. split; [lia|reflexivity]. Qed.
Lemma nth_trees : forall x y (tr : nat -> tree) i, (i < 8)%nat -> nth i (map (fun i => tree_text x y (tr i)) (seq 0 8)) XBad = tree_text x y (tr i).
Proof. intros x y tr. apply small8; reflexivity. Qed.

Lemma mul_run : forall f m, ((0 < f_int f "nz")%Z -> exists8 f m "x" "nx" /\ exists8 f m "y" "ny" /\ exists8 f m "z" "nz") ->
  exists m', call f standard_mul m = Some m' /\
    writes f m m' "z" "nz" (fun i v => v = dtree (element f m "x" "nx") (element f m "y" "ny") (mul_tree i)).
Proof.
  intros f m H. unfold call, standard_mul. rewrite mul_text. cbn [drun]. destruct (f_int f "nz" <=? Z.of_nat 0)%Z eqn:Q.
  { apply Z.leb_le in Q. exists m. split; [reflexivity|]. split; [intros i _ L; lia|reflexivity]. }
  apply Z.leb_gt in Q. destruct (H Q) as (Hx & Hy & Hz).
  rewrite run_loads by (intros i Hi L; apply in_seq in Hi; apply Hx; [lia|exact L]).
  rewrite run_loads by (intros i Hi L; apply in_seq in Hi; apply Hy; [lia|exact L]).
  set (I := declares f m "y" (seq 0 8) _).
  assert (HI : forall i, (i < 8)%nat -> I (elem "x" i) = Some (element f m "x" "nx" i) /\ I (elem "y" i) = Some (element f m "y" "ny" i)) by (apply small8; split; reflexivity).
  assert (HV : forall i, (i < 8)%nat -> dval I (tree_text "x" "y" (mul_tree i)) = Some (dtree (element f m "x" "nx") (element f m "y" "ny") (mul_tree i))).
  { intros i Hi. apply tree_val, (inputs_8 _ i Hi HI). }
  clearbody I. destruct (run_stores f "z" "nz" I (map (fun i => tree_text "x" "y" (mul_tree i)) (seq 0 8)) 0 m) as (m' & E & V & U).
  - intros _. exact Q.
  - intros t Ht. destruct (in_trees _ _ _ _ Ht) as (i & Hi & ->). rewrite (HV i Hi). discriminate.
  - intros i [_ Hi] L. apply Hz; [exact Hi|exact L].
  - exists m'. split; [exact E|]. split; [|exact U]. intros i Hi L. eexists. split; [|reflexivity].
    specialize (V i Hi L). rewrite (nth_trees _ _ _ i Hi), (HV i Hi) in V. exact V.
Qed.
Lemma sqr_run : forall f m, ((0 < f_int f "ny")%Z -> exists8 f m "x" "nx" /\ exists8 f m "y" "ny") ->
  exists m', call f standard_sqr m = Some m' /\
    writes f m m' "y" "ny" (fun i v => v = dtree (element f m "x" "nx") (element f m "x" "nx") (sqr_tree i)).
Proof.
  intros f m H. unfold call, standard_sqr. rewrite sqr_text. cbn [drun]. destruct (f_int f "ny" <=? Z.of_nat 0)%Z eqn:Q.
  { apply Z.leb_le in Q. exists m. split; [reflexivity|]. split; [intros i _ L; lia|reflexivity]. }
  apply Z.leb_gt in Q. destruct (H Q) as (Hx & Hy).
  rewrite run_loads by (intros i Hi L; apply in_seq in Hi; apply Hx; [lia|exact L]).
  set (I := declares f m "x" (seq 0 8) _).
  assert (HI : forall i, (i < 8)%nat -> I (elem "x" i) = Some (element f m "x" "nx" i) /\ I (elem "x" i) = Some (element f m "x" "nx" i)) by (apply small8; split; reflexivity).
  assert (HV : forall i, (i < 8)%nat -> dval I (tree_text "x" "x" (sqr_tree i)) = Some (dtree (element f m "x" "nx") (element f m "x" "nx") (sqr_tree i))).
  { intros i Hi. apply tree_val, (inputs_8 _ i Hi HI). }
  clearbody I. destruct (run_stores f "y" "ny" I (map (fun i => tree_text "x" "x" (sqr_tree i)) (seq 0 8)) 0 m) as (m' & E & V & U).
  - intros _. exact Q.
  - intros t Ht. destruct (in_trees _ _ _ _ Ht) as (i & Hi & ->). rewrite (HV i Hi). discriminate.
  - intros i [_ Hi] L. apply Hy; [exact Hi|exact L].
  - exists m'. split; [exact E|]. split; [|exact U]. intros i Hi L. eexists. split; [|reflexivity].
    specialize (V i Hi L). rewrite (nth_trees _ _ _ i Hi), (HV i Hi) in V. exact V.
Qed.
Lemma bound : forall k c d v a, (k <= 4)%nat -> (c <= 8)%nat -> 0 <= a -> near k c d v a -> is_finite d = true /\ Rabs (B2R d - v) <= 41 / 10 * u * a + bpow radix2 (-1071).
Proof.
  intros k c d v a Hk Hc Ha N. apply (near_mono _ 4 _ _ _ _ Hk Ha) in N. destruct N as [F E]. split; [exact F|]. eapply Rle_trans; [exact E|]. apply Rplus_le_compat.
  - apply Rmult_le_compat_r; [exact Ha|]. unfold grow. rewrite u_val. lra.
  - assert (HC : INR c <= 8) by (rewrite INR_IZR_INZ; apply IZR_le; lia). pose proof (pos_INR c). pose proof hm_pos.
    replace (bpow radix2 (-1071)) with (8 * hm * 2) by (unfold hm; replace (-1071)%Z with (4 + (-1075))%Z by lia; rewrite bpow_plus; change (bpow radix2 4) with 16; lra).
    assert (grow 4 <= 2) by (unfold grow; rewrite u_val; lra). pose proof (grow_1 4). apply Rmult_le_compat; try lra; [apply Rmult_le_pos; lra|apply Rmult_le_compat_r; lra].
Qed.
Lemma writes_impl : forall f m m' a c (P Q : nat -> double -> Prop), (forall i v, (i < 8)%nat -> (Z.of_nat i < f_int f c)%Z -> P i v -> Q i v) -> writes f m m' a c P -> writes f m m' a c Q.
Proof. intros f m m' a c P Q H [A B]. split; [|exact B]. intros i Hi L. destruct (A i Hi L) as (v & E & HP). exists v. split; [exact E|]. exact (H i v Hi L HP). Qed.

(** ** C84: mul_base and sqr_base on doubles *)
(** Each coefficient is within 4.1 u times the sum of its absolute terms, and 2^-1071 for underflow.
    The arrays may overlap; nothing else is written. *)
Theorem C84_mul : forall (G : SigOps) (draw : string -> G) lr, written (mul_gen G draw lr 8) = standard_mul ->
  forall f m, ((0 < f_int f "nz")%Z -> exists8 f m "x" "nx" /\ exists8 f m "y" "ny" /\ exists8 f m "z" "nz") ->
  let X := element f m "x" "nx" in let Y := element f m "y" "ny" in finite8 X -> finite8 Y ->
  (forall i, (i < 8)%nat -> (Z.of_nat i < f_int f "nz")%Z -> absolute X Y i <= bpow radix2 990) ->
  exists m', call f (written (mul_gen G draw lr 8)) m = Some m' /\
    writes f m m' "z" "nz" (fun i v => is_finite v = true /\ Rabs (B2R v - coefficient X Y i) <= 41 / 10 * u * absolute X Y i + bpow radix2 (-1071)).
Proof.
  intros G draw lr -> f m H X Y FX FY HA. destruct (mul_run f m H) as (m' & E & Wr). exists m'. split; [exact E|]. revert Wr. apply writes_impl. intros i v Hi L ->.
  specialize (HA i Hi L). destruct (mul_tree_sum X Y i Hi) as [R1 A1]. destruct (shape_8 i Hi) as [[D C] _]. rewrite <- A1 in *. rewrite <- R1. fold X Y.
  apply (bound (depth (mul_tree i)) (leaves (mul_tree i))); [exact D|exact C|apply atree_pos|]. refine (tree_near X Y (mul_tree i) _ (Nat.le_trans _ _ _ D _) (Nat.le_trans _ _ _ C _) HA); [|lia|lia].
  apply (inputs_8 _ i Hi). intros j Hj. split; [exact (FX j Hj)|exact (FY j Hj)].
Qed.
Print Assumptions C84_mul.
Theorem C84_sqr : forall (G : SigOps) (draw : string -> G) lr, written (sqr_gen G draw lr 8) = standard_sqr ->
  forall f m, ((0 < f_int f "ny")%Z -> exists8 f m "x" "nx" /\ exists8 f m "y" "ny") ->
  let X := element f m "x" "nx" in finite8 X ->
  (forall i, (i < 8)%nat -> (Z.of_nat i < f_int f "ny")%Z -> absolute X X i <= bpow radix2 990) ->
  exists m', call f (written (sqr_gen G draw lr 8)) m = Some m' /\
    writes f m m' "y" "ny" (fun i v => is_finite v = true /\ Rabs (B2R v - coefficient X X i) <= 41 / 10 * u * absolute X X i + bpow radix2 (-1071)).
Proof.
  intros G draw lr -> f m H X FX HA. destruct (sqr_run f m H) as (m' & E & Wr). exists m'. split; [exact E|]. revert Wr. apply writes_impl. intros i v Hi L ->.
  specialize (HA i Hi L). destruct (sqr_tree_sum X i Hi) as [R1 A1]. destruct (shape_8 i Hi) as [_ [D C]]. rewrite <- A1 in *. rewrite <- R1. fold X.
  apply (bound (depth (sqr_tree i)) (leaves (sqr_tree i))); [exact D|exact C|apply atree_pos|]. refine (tree_near X X (sqr_tree i) _ (Nat.le_trans _ _ _ D _) (Nat.le_trans _ _ _ C _) HA); [|lia|lia].
  apply (inputs_8 _ i Hi). intros j Hj. split; exact (FX j Hj).
Qed.
Print Assumptions C84_sqr.

(** On integers the coefficients are exact while the absolute terms sum to at most 2^53. *)
Theorem C84_mul_exact : forall (G : SigOps) (draw : string -> G) lr, written (mul_gen G draw lr 8) = standard_mul ->
  forall f m, ((0 < f_int f "nz")%Z -> exists8 f m "x" "nx" /\ exists8 f m "y" "ny" /\ exists8 f m "z" "nz") ->
  let X := element f m "x" "nx" in let Y := element f m "y" "ny" in finite8 X -> finite8 Y -> (forall i, (i < 8)%nat -> integral (X i) /\ integral (Y i)) ->
  (forall i, (i < 8)%nat -> (Z.of_nat i < f_int f "nz")%Z -> absolute X Y i <= bpow radix2 53) ->
  exists m', call f (written (mul_gen G draw lr 8)) m = Some m' /\ writes f m m' "z" "nz" (fun i v => is_finite v = true /\ B2R v = coefficient X Y i).
Proof.
  intros G draw lr -> f m H X Y FX FY HI HA. destruct (mul_run f m H) as (m' & E & Wr). exists m'. split; [exact E|]. revert Wr. apply writes_impl. intros i v Hi L ->.
  specialize (HA i Hi L). destruct (mul_tree_sum X Y i Hi) as [R1 A1]. rewrite <- A1 in HA. rewrite <- R1. fold X Y.
  destruct (tree_whole X Y (mul_tree i)) as (F & V & _); [|exact HA|exact (Logic.conj F V)].
  apply (inputs_8 _ i Hi). intros j Hj. split; [split; [exact (FX j Hj)|exact (FY j Hj)]|exact (HI j Hj)].
Qed.
Print Assumptions C84_mul_exact.
Theorem C84_sqr_exact : forall (G : SigOps) (draw : string -> G) lr, written (sqr_gen G draw lr 8) = standard_sqr ->
  forall f m, ((0 < f_int f "ny")%Z -> exists8 f m "x" "nx" /\ exists8 f m "y" "ny") ->
  let X := element f m "x" "nx" in finite8 X -> (forall i, (i < 8)%nat -> integral (X i)) ->
  (forall i, (i < 8)%nat -> (Z.of_nat i < f_int f "ny")%Z -> absolute X X i <= bpow radix2 53) ->
  exists m', call f (written (sqr_gen G draw lr 8)) m = Some m' /\ writes f m m' "y" "ny" (fun i v => is_finite v = true /\ B2R v = coefficient X X i).
Proof.
  intros G draw lr -> f m H X FX HI HA. destruct (sqr_run f m H) as (m' & E & Wr). exists m'. split; [exact E|]. revert Wr. apply writes_impl. intros i v Hi L ->.
  specialize (HA i Hi L). destruct (sqr_tree_sum X i Hi) as [R1 A1]. rewrite <- A1 in HA. rewrite <- R1. fold X.
  destruct (tree_whole X X (sqr_tree i)) as (F & V & _); [|exact HA|exact (Logic.conj F V)].
  apply (inputs_8 _ i Hi). intros j Hj. split; [split; exact (FX j Hj)|split; exact (HI j Hj)].
Qed.
Print Assumptions C84_sqr_exact.

(** ** Squaring is not multiplication of x by x, bit by bit *)
(** x = [1, 1, 1 + 2^-52] at address 0; the results go to address 8. *)
Definition frame3 (out : string) : frame := {| f_int := fun _ => 3%Z; f_ptr := fun s => if String.eqb s out then 8%Z else 0%Z |}.
Definition mem3 : memd := fun p =>
  if ((0 <=? p) && (p <? 2))%Z then Some (dofZ 1) else if (p =? 2)%Z then Some (dlit (2 ^ 52 + 1) (-52)) else
  if ((8 <=? p) && (p <? 11))%Z then Some dzero else None.
Definition x3 (i : nat) : double := match i with 0%nat | 1%nat => dofZ 1 | 2%nat => dlit (2 ^ 52 + 1) (-52) | _ => dzero end.
Lemma x3_in : forall out a, String.eqb a out = false -> forall i, (i < 8)%nat -> forall c, element (frame3 out) mem3 a c i = x3 i.
Proof. intros out a H. apply (small8 (fun i => forall c, element (frame3 out) mem3 a c i = x3 i)); intros c; unfold element, frame3; cbn [f_int f_ptr]; rewrite H; reflexivity. Qed.
Lemma dtree_ext : forall X Y X' Y' t, inputs (fun i => X i = X' i /\ Y i = Y' i) t -> dtree X Y t = dtree X' Y' t.
Proof.
  induction t as [i j|a IHa b IHb|a IHa]; cbn [inputs dtree].
  - intros [[-> _] [_ ->]]. reflexivity.
  - intros [A B]. rewrite IHa, IHb by assumption. reflexivity.
  - intros A. rewrite IHa by assumption. reflexivity.
Qed.
Lemma there3 : forall out a c, exists8 (frame3 out) mem3 a c.
Proof.
  intros out a c. unfold exists8, frame3. cbn [f_int f_ptr]. intros i _ L. destruct (String.eqb a out); (destruct i as [|[|[|i]]]; [discriminate|discriminate|discriminate|lia]).
Qed.
Lemma outputs_differ : B2SF (dtree x3 x3 (mul_tree 2)) <> B2SF (dtree x3 x3 (sqr_tree 2)).
Proof. vm_compute. discriminate. Qed.
Theorem C84_same_refuted : ~ (forall fm fs m m1 m2, f_int fm = f_int fs ->
  (forall i, (i < 8)%nat -> element fm m "y" "ny" i = element fm m "x" "nx" i /\ element fs m "x" "nx" i = element fm m "x" "nx" i) -> f_ptr fm "z" = f_ptr fs "y" ->
  call fm standard_mul m = Some m1 -> call fs standard_sqr m = Some m2 -> forall p, m1 p = m2 p).
Proof.
  intros H.
  destruct (mul_run (frame3 "z") mem3) as (m1 & E1 & [V1 _]); [intros _; split; [|split]; apply there3|].
  destruct (sqr_run (frame3 "y") mem3) as (m2 & E2 & [V2 _]); [intros _; split; apply there3|].
  destruct (V1 2%nat ltac:(lia) eq_refl) as (v1 & P1 & Q1). destruct (V2 2%nat ltac:(lia) eq_refl) as (v2 & P2 & Q2).
  assert (E : v1 = v2).
  { assert (S0 : Some v1 = Some v2); [|injection S0; trivial]. rewrite <- P1, <- P2. apply (H (frame3 "z") (frame3 "y") mem3 m1 m2); try assumption; try reflexivity.
    intros i Hi. rewrite !x3_in by (assumption || reflexivity). split; reflexivity. }
  apply outputs_differ. rewrite (dtree_ext _ _ x3 x3) in Q1, Q2.
  - rewrite <- Q1, <- Q2, E. reflexivity.
  - refine (proj2 (inputs_8 _ 2 ltac:(lia) _)). intros j Hj. rewrite !x3_in by (assumption || reflexivity). split; reflexivity.
  - refine (proj1 (inputs_8 _ 2 ltac:(lia) _)). intros j Hj. rewrite !x3_in by (assumption || reflexivity). split; reflexivity.
Qed.
Print Assumptions C84_same_refuted.

(** ** Cases *)
(** The generator writes this text also when the arguments of a call are evaluated right to left. *)
Example C84_example : written (mul_gen toyg toy_draw true 8) = standard_mul /\ written (sqr_gen toyg toy_draw true 8) = standard_sqr /\
  written (mul_gen toyg toy_draw false 8) = standard_mul /\ written (sqr_gen toyg toy_draw false 8) = standard_sqr.
Proof. do 3 (apply Logic.conj; [vm_compute; reflexivity|]). vm_compute. reflexivity. Qed.
(** The memory above meets the other hypotheses: three elements, not all integers, z apart from x = y. *)
Lemma x3_size : forall i, (i < 8)%nat -> is_finite (x3 i) = true /\ Rabs (B2R (x3 i)) <= 2.
Proof.
  assert (E0 : Rabs (B2R dzero) <= 2) by (change (B2R dzero) with 0; rewrite Rabs_R0; lra).
  assert (E1 : Rabs (B2R (dofZ 1)) <= 2) by (rewrite B2R_one, Rabs_pos_eq; lra).
  assert (E2 : Rabs (B2R (dlit (2 ^ 52 + 1) (-52))) <= 2).
  { rewrite <- SF2R_B2SF. let v := eval vm_compute in (B2SF (dlit (2 ^ 52 + 1) (-52))) in replace (B2SF (dlit (2 ^ 52 + 1) (-52))) with v by (vm_compute; reflexivity).
    cbn [SF2R cond_Zopp]. unfold F2R. cbn [Fnum Fexp]. cbn [bpow]. rewrite Rabs_pos_eq; [|apply Rmult_le_pos; [apply IZR_le; lia|apply Rlt_le, Rinv_0_lt_compat, IZR_lt; reflexivity]].
    match goal with |- _ * / IZR ?q <= 2 => let q' := eval vm_compute in q in change q with q' end. lra. }
  apply small8; (split; [reflexivity|assumption]).
Qed.
Lemma sum_small : forall (g : nat -> R) l, (forall j, In j l -> 0 <= g j <= 4) -> 0 <= fold_right Rplus 0 (map g l) <= 4 * INR (List.length l).
Proof.
  induction l as [|a l IH]; intros H; [cbn; lra|]. cbn [map fold_right List.length]. rewrite S_INR. pose proof (H a (or_introl eq_refl)). specialize (IH (fun j Hj => H j (or_intror Hj))). lra.
Qed.
Example C84_case : let f := frame3 "z" in let X := element f mem3 "x" "nx" in let Y := element f mem3 "y" "ny" in
  (exists8 f mem3 "x" "nx" /\ exists8 f mem3 "y" "ny" /\ exists8 f mem3 "z" "nz") /\ finite8 X /\ finite8 Y /\ (forall i, (i < 8)%nat -> absolute X Y i <= bpow radix2 990).
Proof.
  intros f X Y. assert (EX : forall i, (i < 8)%nat -> X i = x3 i) by (intros i Hi; apply x3_in; [reflexivity|exact Hi]).
  assert (EY : forall i, (i < 8)%nat -> Y i = x3 i) by (intros i Hi; apply x3_in; [reflexivity|exact Hi]).
  split; [split; [|split]; apply there3|]. split; [intros i Hi; rewrite (EX i Hi); apply x3_size, Hi|]. split; [intros i Hi; rewrite (EY i Hi); apply x3_size, Hi|].
  intros i Hi. unfold absolute. eapply Rle_trans; [apply sum_small|].
  - intros j Hj. apply in_seq in Hj. rewrite EX, EY by lia. rewrite Rabs_mult. pose proof (x3_size j ltac:(lia)) as [_ A]. pose proof (x3_size (i - j) ltac:(lia)) as [_ B].
    pose proof (Rabs_pos (B2R (x3 j))). pose proof (Rabs_pos (B2R (x3 (i - j)))). split; nra.
  - rewrite seq_length. apply Rle_trans with 32; [|replace 32 with (bpow radix2 5) by (cbn; lra); apply bpow_le; lia].
    assert (INR (S i) <= 8) by (rewrite INR_IZR_INZ; apply IZR_le; lia). lra.
Qed.
(** Integers: x = y = [1, 1] at addresses 0 and 1 (length 2), z of length 3 at 8. *)
Definition frame2 : frame := {| f_int := fun c => if String.eqb c "nz" then 3%Z else 2%Z; f_ptr := fun s => if String.eqb s "z" then 8%Z else 0%Z |}.
Definition x2 (i : nat) : double := match i with 0%nat | 1%nat => dofZ 1 | _ => dzero end.
Example C84_exact_case : let X := element frame2 mem3 "x" "nx" in let Y := element frame2 mem3 "y" "ny" in
  (exists8 frame2 mem3 "x" "nx" /\ exists8 frame2 mem3 "y" "ny" /\ exists8 frame2 mem3 "z" "nz") /\ finite8 X /\ finite8 Y /\
  (forall i, (i < 8)%nat -> integral (X i) /\ integral (Y i)) /\ (forall i, (i < 8)%nat -> absolute X Y i <= bpow radix2 53).
Proof.
  intros X Y. assert (EX : forall i, (i < 8)%nat -> X i = x2 i) by (apply small8; reflexivity). assert (EY : forall i, (i < 8)%nat -> Y i = x2 i) by (apply small8; reflexivity).
  assert (E0 : B2R dzero = 0) by reflexivity.
  assert (Sz : forall i, (i < 8)%nat -> is_finite (x2 i) = true /\ integral (x2 i) /\ Rabs (B2R (x2 i)) <= 1).
  { apply small8; cbn [x2]; (split; [reflexivity|]); rewrite ?B2R_one, ?E0; unfold integral; rewrite ?B2R_one, ?E0; (split; [(exists 1%Z; reflexivity) || (exists 0%Z; reflexivity)|rewrite Rabs_pos_eq; lra]). }
  split. { unfold exists8, frame2. cbn [f_int f_ptr]. cbn [String.eqb Ascii.eqb Bool.eqb]. repeat split; intros i _ L; (destruct i as [|[|[|i]]]; try discriminate; lia). }
  split; [intros i Hi; rewrite (EX i Hi); apply Sz, Hi|]. split; [intros i Hi; rewrite (EY i Hi); apply Sz, Hi|].
  split; [intros i Hi; rewrite (EX i Hi), (EY i Hi); split; apply Sz, Hi|].
  intros i Hi. unfold absolute. eapply Rle_trans; [apply sum_small|].
  - intros j Hj. apply in_seq in Hj. rewrite EX, EY by lia. rewrite Rabs_mult. destruct (Sz j ltac:(lia)) as (_ & _ & A). destruct (Sz (i - j)%nat ltac:(lia)) as (_ & _ & B).
    pose proof (Rabs_pos (B2R (x2 j))). pose proof (Rabs_pos (B2R (x2 (i - j)))). split; nra.
  - rewrite seq_length. apply Rle_trans with 32; [|replace 32 with (bpow radix2 5) by (cbn; lra); apply bpow_le; lia].
    assert (INR (S i) <= 8) by (rewrite INR_IZR_INZ; apply IZR_le; lia). lra.
Qed.
