(** fft_mul, fft_addmul and fft_sqr compute products (fft.cc:418-499). *)
From Coq Require Import ZArith Arith ArithRing List Bool Lia Ring.
From Verif Require Import Base SeriesModel SeriesProofs NewtonProofs FFTModel FFTLoop FFTMath FFTTwiddle FFTPerm FFTSpec FFTProofs FFTReal FFTShift FFTShift2 FFTShift3 FFTShift4 FFTMulSpec.
Import ListNotations.
Open Scope nat_scope.

Section S.
Variable o : ops.
Hypothesis Hok : ops_ok o.
Notation A := (FFTModel.A o).
Notation C := (FFTModel.A o * FFTModel.A o)%type.
Add Ring AringM : (ok_ring o Hok).
Add Ring CringM : (C_ring o Hok).
Notation cadd := (FFTModel.cadd o). Notation csub := (FFTModel.csub o). Notation cmul := (FFTModel.cmul o).
Notation conj := (FFTModel.conj o). Notation c0 := (FFTModel.c0 o). Notation c1 := (FFTMath.c1 o). Notation copp := (FFTMath.copp o).
Notation root := (FFTModel.root o). Notation csum := (FFTMath.csum o).
Notation sst := (FFTShift.sst o).
Notation at_ := (fun (y : list C) i => nth i y c0).
Notation za := (z0 o).
Notation rsum := (FFTMulSpec.rsum o). Notation pcoef := (FFTMulSpec.pcoef o). Notation ncoef := (FFTMulSpec.ncoef o).
Ltac cr := unfold FFTModel.cadd, FFTModel.csub, FFTModel.cmul, FFTModel.conj, FFTModel.c0, FFTMath.c1, FFTMath.copp, FFTMath.ci,
  FFTModel.left, FFTModel.right in *; cbn [fst snd] in *; apply f_equal2; ring.

(** ** Negacyclic convolution *)
Lemma rotate : forall n j (Y W : nat -> C), j <= n -> (forall m, m < j -> W (n + m) = copp (W m)) ->
  csum n (fun l => cmul (Y l) (W (j + l))) = csum n (fun i => cmul (if j <=? i then Y (i - j) else copp (Y (n + i - j))) (W i)).
Proof.
  intros n j Y W Hj HW. transitivity (csum (n - j + j) (fun l => cmul (Y l) (W (j + l)))); [f_equal; lia|].
  transitivity (csum (j + (n - j)) (fun i => cmul (if j <=? i then Y (i - j) else copp (Y (n + i - j))) (W i))); [|f_equal; lia].
  rewrite !(csum_app o Hok).
  rewrite (csum_ext o j (fun i => cmul (Y (n - j + i)) _) (fun i => cmul (if j <=? i then Y (i - j) else copp (Y (n + i - j))) (W i))).
  - rewrite (csum_ext o (n - j) (fun i => cmul (if j <=? j + i then _ else _) _) (fun l => cmul (Y l) (W (j + l)))).
    + ring.
    + intros i Hi. destruct (Nat.leb_spec j (j + i)); [|lia]. replace (j + i - j) with i by lia. reflexivity.
  - intros i Hi. destruct (Nat.leb_spec j i); [lia|]. replace (j + (n - j + i)) with (n + i) by lia. rewrite HW by exact Hi.
    replace (n - j + i) with (n + i - j) by lia. ring.
Qed.
Definition nc (n : nat) (X Y : nat -> C) (i : nat) : C := csum n (fun j => cmul (X j) (if j <=? i then Y (i - j) else copp (Y (n + i - j)))).
Lemma root_odd_half : forall p k m, root (S p) (- Z.of_nat ((2 ^ p + m) * (2 * k + 1))) = copp (root (S p) (- Z.of_nat (m * (2 * k + 1)))).
Proof.
  intros p k m. replace (- Z.of_nat ((2 ^ p + m) * (2 * k + 1)))%Z with (- Z.of_nat (2 ^ p) + (- (2 * Z.of_nat (2 ^ p * k)) + - Z.of_nat (m * (2 * k + 1))))%Z by lia.
  rewrite !(rt_add o Hok). rewrite (rt_conj o Hok _ (Z.of_nat (2 ^ p))), pow2_Z, (rt_half o Hok).
  replace (- (2 * Z.of_nat (2 ^ p * k)))%Z with (2 * - Z.of_nat (2 ^ p * k))%Z by lia. rewrite (rt_dbl o Hok).
  replace (root p (- Z.of_nat (2 ^ p * k))) with c1.
  - set (w := root _ _). clearbody w. destruct w. cr.
  - symmetry. replace (- Z.of_nat (2 ^ p * k))%Z with (0 + 2 ^ Z.of_nat p * (- Z.of_nat k))%Z by (rewrite <- pow2_Z; lia).
    rewrite (rt_period o Hok). apply (rt_0 o Hok).
Qed.
Lemma sdft_mul : forall p X Y k, cmul (sdft o p X k) (sdft o p Y k) = sdft o p (nc (2 ^ p) X Y) k.
Proof.
  intros p X Y k. unfold sdft. set (n := 2 ^ p). set (W := fun j => root (S p) (- Z.of_nat (j * (2 * k + 1)))).
  transitivity (csum n (fun j => csum n (fun i => cmul (cmul (X j) (if j <=? i then Y (i - j) else copp (Y (n + i - j)))) (W i)))).
  - transitivity (cmul (csum n (fun l => cmul (Y l) (W l))) (csum n (fun j => cmul (X j) (W j)))); [unfold W; ring|].
    rewrite <- (csum_mul o Hok). apply csum_ext. intros j Hj.
    transitivity (cmul (X j) (csum n (fun l => cmul (Y l) (W (j + l))))).
    + transitivity (cmul (X j) (cmul (W j) (csum n (fun l => cmul (Y l) (W l))))); [ring|]. rewrite <- (csum_mul o Hok). f_equal. apply csum_ext. intros l _.
      replace (W (j + l)) with (cmul (W j) (W l)); [ring|]. unfold W. rewrite <- (rt_add o Hok). f_equal. lia.
    + rewrite (rotate n j Y W) by (try lia; intros m Hm; unfold W, n; apply root_odd_half). rewrite <- (csum_mul o Hok). apply csum_ext. intros i _. ring.
  - rewrite (csum_swap o Hok). apply csum_ext. intros i _. unfold nc.
    transitivity (cmul (W i) (csum n (fun j => cmul (X j) (if j <=? i then Y (i - j) else copp (Y (n + i - j)))))); [|unfold W; ring].
    rewrite <- (csum_mul o Hok). apply csum_ext. intros j _. ring.
Qed.

(** ** Real coefficients *)
Lemma rsum_ext : forall n f g, (forall i, i < n -> f i = g i) -> rsum n f = rsum n g.
Proof.
  induction n as [|n IH]; intros f g H; [reflexivity|]. cbn [FFTMulSpec.rsum]. rewrite (IH f g) by (intros; apply H; lia). rewrite H by lia. reflexivity.
Qed.
Lemma rsum_0 : forall n f, (forall i, i < n -> f i = za) -> rsum n f = za.
Proof. induction n as [|n IH]; intros f H; [reflexivity|]. cbn [FFTMulSpec.rsum]. rewrite IH by (intros; apply H; lia). rewrite H by lia. ring. Qed.
Lemma rsum_app : forall n m f, rsum (n + m) f = add o (rsum n f) (rsum m (fun i => f (n + i))).
Proof.
  intros n m f. induction m as [|m IH]; [rewrite Nat.add_0_r; cbn [FFTMulSpec.rsum]; ring|]. rewrite Nat.add_succ_r. cbn [FFTMulSpec.rsum]. rewrite IH. ring.
Qed.
Lemma rsum_opp : forall n f, rsum n (fun i => opp o (f i)) = opp o (rsum n f).
Proof. induction n as [|n IH]; intros f; cbn [FFTMulSpec.rsum]; [ring|]. rewrite IH. ring. Qed.
Lemma csum_real : forall n f, csum n (fun i => (f i, za)) = (rsum n f, za).
Proof.
  induction n as [|n IH]; intros f; [reflexivity|]. cbn [FFTMath.csum FFTMulSpec.rsum]. rewrite IH. unfold FFTModel.cadd. cbn [fst snd]. apply f_equal2; ring.
Qed.
Lemma nc_real : forall n x y i, length x <= n -> length y <= n -> i < n -> nc n (realc o x) (realc o y) i = (ncoef n x y i, za).
Proof.
  intros n x y i Hx Hy Hi. unfold nc.
  rewrite (csum_ext o n _ (fun j => (mul o (nth j x za) (if j <=? i then nth (i - j) y za else opp o (nth (n + i - j) y za)), za))).
  2:{ intros j Hj. unfold realc. destruct (j <=? i); cr. }
  rewrite csum_real. apply f_equal2; [|reflexivity]. unfold FFTMulSpec.ncoef, FFTMulSpec.pcoef.
  replace n with (S i + (n - S i)) at 1 by lia. rewrite rsum_app.
  replace (S (n + i)) with (S i + (n - S i) + S i) by lia. rewrite !rsum_app.
  rewrite (rsum_ext (S i) (fun j => mul o (nth j x za) (if j <=? i then _ else _)) (fun j => mul o (nth j x za) (nth (i - j) y za))).
  2:{ intros j Hj. destruct (Nat.leb_spec j i); [reflexivity|lia]. }
  rewrite (rsum_ext (n - S i) _ (fun j => opp o (mul o (nth (S i + j) x za) (nth (n + i - (S i + j)) y za)))).
  2:{ intros j Hj. destruct (Nat.leb_spec (S i + j) i); [lia|]. ring. }
  rewrite rsum_opp.
  rewrite (rsum_0 (S i) (fun j => mul o (nth j x za) (nth (n + i - j) y za))).
  2:{ intros j Hj. rewrite (nth_overflow y) by lia. ring. }
  rewrite (rsum_0 (S i) (fun j => mul o (nth (S i + (n - S i) + j) x za) _)).
  2:{ intros j Hj. rewrite (nth_overflow x) by lia. ring. }
  ring.
Qed.
Lemma sdft_ext : forall p Y Z j, (forall k, k < 2 ^ p -> Y k = Z k) -> sdft o p Y j = sdft o p Z j.
Proof. intros p Y Z j H. apply csum_ext. intros k Hk. rewrite H by exact Hk. reflexivity. Qed.
Lemma sdft_scale : forall p a X k, sdft o p (fun i => cmul (a, za) (X i)) k = cmul (a, za) (sdft o p X k).
Proof. intros. unfold sdft. rewrite <- (csum_mul o Hok). apply csum_ext. intros i _. ring. Qed.
Definition nlist (a : A) (n : nat) (x y : list A) : list A := map (fun i => mul o a (ncoef n x y i)) (seq 0 n).
Lemma nlist_nth : forall a n x y i, i < n -> nth i (nlist a n x y) za = mul o a (ncoef n x y i).
Proof. intros. unfold nlist. rewrite (nth_map_lt za) by (rewrite seq_length; assumption). rewrite seq_nth by assumption. reflexivity. Qed.
Lemma sst_mul : forall a p x y b, 1 <= p -> length x <= 2 ^ p -> length y <= 2 ^ p ->
  cmul (cscale o a (sst p x p b 0)) (sst p y p b 0) = sst p (nlist a (2 ^ p) x y) p b 0.
Proof.
  intros a p x y b Hp Hx Hy. rewrite !(sst_final o) by exact Hp. rewrite (cscale_mul o Hok).
  set (k := kperm (p - 1) b). transitivity (cmul (a, za) (cmul (sdft o p (realc o x) k) (sdft o p (realc o y) k))); [ring|].
  rewrite sdft_mul, <- sdft_scale. apply sdft_ext. intros i Hi. rewrite nc_real by assumption. unfold realc. rewrite nlist_nth by exact Hi. cr.
Qed.
Lemma sst_sqr : forall a p x b, 1 <= p -> length x <= 2 ^ p ->
  cscale o a (csqr o (sst p x p b 0)) = sst p (nlist a (2 ^ p) x x) p b 0.
Proof.
  intros a p x b Hp Hx. rewrite (csqr_mul o Hok). rewrite <- sst_mul by assumption. rewrite !(cscale_mul o Hok). ring.
Qed.
(** at_sst with all levels done *)
Lemma at_sst_final : forall p x y, at_sst o p x y p <-> forall b, b < 2 ^ (p - 1) -> nth b y c0 = sst p x p b 0.
Proof.
  intros p x y. unfold at_sst. rewrite Nat.sub_diag. change (2 ^ 0) with 1. split; intros H.
  - intros b Hb. rewrite <- (H b 0 Hb) by lia. f_equal. lia.
  - intros b r Hb Hr. replace r with 0 by lia. rewrite <- H by exact Hb. f_equal. lia.
Qed.

(** no wrap when the whole product fits *)
Lemma pcoef_high : forall x y i, length x + length y - 1 <= i -> pcoef x y i = za.
Proof.
  intros x y i H. unfold FFTMulSpec.pcoef. apply rsum_0. intros j Hj. destruct (Nat.lt_ge_cases j (length x)) as [Hl|Hg].
  - rewrite (nth_overflow y) by lia. ring.
  - rewrite (nth_overflow x) by lia. ring.
Qed.
Lemma ncoef_exact : forall n x y i, length x + length y <= S n -> ncoef n x y i = pcoef x y i.
Proof. intros. unfold FFTMulSpec.ncoef. rewrite (pcoef_high x y (n + i)) by lia. ring. Qed.

(** ** The base cases of codelets.cc:308-369 *)
Lemma asum_rsum : forall n f, asum o (map f (seq 0 n)) = rsum n f.
Proof.
  intros n f. unfold asum. destruct n as [|n]; [reflexivity|]. cbn [seq map].
  assert (G : forall m, fold_left (add o) (map f (seq 1 m)) (f 0) = rsum (S m) f).
  { induction m as [|m IH]; [cbn; ring|]. rewrite seq_S, map_app, fold_left_app, IH. cbn [map fold_left Nat.add FFTMulSpec.rsum]. reflexivity. }
  apply G.
Qed.
Lemma ext_first : forall x i, i < 8 -> ext o (firstn 8 x) i = nth i x za.
Proof.
  intros x i Hi. unfold ext. revert x Hi. generalize 8. intros m. revert i. induction m as [|m IH]; intros i x Hi; [lia|].
  destruct x as [|a x]; [reflexivity|]. cbn [firstn]. destruct i as [|i]; [reflexivity|]. cbn [nth]. apply IH. lia.
Qed.
Lemma mul_coef_ok : forall x y i, i < 8 -> mul_coef o (firstn 8 x) (firstn 8 y) i = pcoef x y i.
Proof.
  intros x y i Hi. unfold mul_coef. rewrite asum_rsum. apply rsum_ext. intros j Hj. rewrite !ext_first by lia. reflexivity.
Qed.
Lemma rsum_rev : forall n f, rsum n f = rsum n (fun i => f (n - 1 - i)).
Proof.
  induction n as [|n IH]; intros f; [reflexivity|].
  transitivity (add o (f n) (rsum n (fun i => f (n - 1 - i)))).
  - cbn [FFTMulSpec.rsum]. rewrite IH. ring.
  - change (S n) with (1 + n). rewrite rsum_app. cbn [FFTMulSpec.rsum]. rewrite (rsum_ext n (fun i => f (1 + n - 1 - (1 + i))) (fun i => f (n - 1 - i))) by (intros; f_equal; lia).
    replace (1 + n - 1 - 0) with n by lia. ring.
Qed.
Lemma sqr_coef_ok : forall x i, i < 8 -> sqr_coef o (firstn 8 x) i = pcoef x x i.
Proof.
  intros x i Hi. unfold sqr_coef. rewrite asum_rsum. rewrite (rsum_ext _ _ (fun j => mul o (nth j x za) (nth (i - j) x za))).
  2:{ intros j Hj. rewrite !ext_first by lia. reflexivity. }
  unfold FFTMulSpec.pcoef. set (g := fun j => mul o (nth j x za) (nth (i - j) x za)).
  assert (Hsym : forall j, j <= i -> g (i - j) = g j). { intros j Hj. unfold g. replace (i - (i - j)) with j by lia. ring. }
  destruct (parity_split i) as [E|E]; set (h := i / 2) in *.
  - assert (Ev : Nat.even i = true) by (rewrite E, Nat.even_mul; reflexivity). rewrite Ev. replace ((i + 1) / 2) with h by lia.
    rewrite !ext_first by lia. fold h. replace (S i) with (h + 1 + h) by lia. rewrite !rsum_app.
    rewrite (rsum_rev h (fun j => g (h + 1 + j))). rewrite (rsum_ext h (fun j => g (h + 1 + (h - 1 - j))) g).
    + cbn [FFTMulSpec.rsum]. rewrite Nat.add_0_r. unfold g at 3. replace (i - h) with h by lia. ring.
    + intros j Hj. rewrite <- Hsym by lia. f_equal. lia.
  - assert (Ev : Nat.even i = false) by (rewrite E, Nat.even_add, Nat.even_mul; reflexivity). rewrite Ev. replace ((i + 1) / 2) with (S h) by lia.
    replace (S i) with (S h + S h) by lia. rewrite rsum_app.
    rewrite (rsum_rev (S h) (fun j => g (S h + j))). rewrite (rsum_ext (S h) (fun j => g (S h + (S h - 1 - j))) g).
    + ring.
    + intros j Hj. rewrite <- Hsym by lia. f_equal. lia.
Qed.
Lemma base_loop_ok : forall f n a z, a + n >= length z -> exists r, base_loop o f (seq a n) z = Ok r /\ length r = length z /\
  (forall i, a <= i < length z -> nth i r za = f i) /\ forall i, i < a -> nth i r za = nth i z za.
Proof.
  intros f n. induction n as [|n IH]; intros a z H; cbn [seq base_loop].
  - exists z. repeat split; auto. lia.
  - destruct (Nat.leb_spec (length z) a) as [Hl|Hl]; [exists z; repeat split; auto; lia|].
    unfold aset. destruct (Nat.ltb_spec a (length z)); [|lia]. cbn [bind].
    destruct (IH (S a) (upd z a (f a))) as (r & E & L & V & U); [rewrite upd_length; lia|]. rewrite upd_length in *.
    exists r. split; [exact E|]. split; [exact L|]. split; intros i Hi.
    + destruct (Nat.eq_dec i a) as [->|N]; [|apply V; lia]. rewrite U by lia. rewrite upd_nth by lia. rewrite Nat.eqb_refl. reflexivity.
    + rewrite U by lia. rewrite upd_nth by lia. destruct (Nat.eqb_spec i a); [lia|reflexivity].
Qed.
Lemma mul_base_ok : forall z x y, length z <= 8 -> exists r, mul_base o z x y = Ok r /\ length r = length z /\ forall i, i < length z -> nth i r za = pcoef x y i.
Proof.
  intros z x y H. destruct (base_loop_ok (mul_coef o (firstn 8 x) (firstn 8 y)) 8 0 z ltac:(lia)) as (r & E & L & V & _).
  exists r. split; [exact E|]. split; [exact L|]. intros i Hi. rewrite V by lia. apply mul_coef_ok. lia.
Qed.
Lemma sqr_base_ok : forall y x, length y <= 8 -> exists r, sqr_base o y x = Ok r /\ length r = length y /\ forall i, i < length y -> nth i r za = pcoef x x i.
Proof.
  intros y x H. destruct (base_loop_ok (sqr_coef o (firstn 8 x)) 8 0 y ltac:(lia)) as (r & E & L & V & _).
  exists r. split; [exact E|]. split; [exact L|]. intros i Hi. rewrite V by lia. apply sqr_coef_ok. lia.
Qed.

(** ** The elementwise passes *)
Variable ord : Z -> list nat.
Hypothesis Hord : sched_ok ord.
Lemma aset_ok' : forall (v : list C) i a, i < length v -> exists v', aset v i a = Ok v' /\ length v' = length v /\ nth i v' c0 = a /\ forall k, k <> i -> nth k v' c0 = nth k v c0.
Proof.
  intros v i a H. unfold aset. destruct (Nat.ltb_spec i (length v)); [|lia]. eexists. split; [reflexivity|]. split; [apply upd_length|].
  split; intros; rewrite upd_nth by exact H.
  - rewrite Nat.eqb_refl. reflexivity.
  - destruct (Nat.eqb_spec k i); [contradiction|reflexivity].
Qed.
Lemma cwise_pass : forall n (body : nat -> list C -> res (list C)) g fx, (Z.of_nat n < 2 ^ 31)%Z -> length fx = n ->
  (forall i v, i < n -> length v = n -> body i v = aset v i (g i (nth i v c0))) ->
  exists fx', def_loop ord n body fx = Ok fx' /\ length fx' = n /\ forall i, i < n -> nth i fx' c0 = g i (nth i fx c0).
Proof.
  intros n body g fx Hn Hf HB. destruct (def_loop_run ord _ n body fx Hord Hn) as (L & E & ND & HL). rewrite E.
  destruct (run_local c0 n body (fun j => [j]) (fun j i a => g i (a i)) L) with (y := fx) as (y' & E' & L' & V & _); auto.
  - intros j j' i _ _ [<-|[]] [<-|[]]. reflexivity.
  - intros j i a b _ [<-|[]] H. rewrite (H j) by (left; reflexivity). reflexivity.
  - intros j y Hj Hy. apply HL in Hj. rewrite HB by assumption. destruct (aset_ok' y j (g j (nth j y c0))) as (v & E1 & L1 & I1 & U1); [lia|].
    exists v. split; [exact E1|]. split; [lia|]. split.
    + intros i [<-|[]]. exact I1.
    + intros i Hi. apply U1. intros ->. apply Hi. left. reflexivity.
  - exists y'. split; [exact E'|]. split; [exact L'|]. intros i Hi. apply (V i i); [apply HL; exact Hi|left; reflexivity].
Qed.

(** ** Scaling *)
Lemma times2_scale : forall k a b, times2 o k (mul o a b) = mul o (mul o (pow2_scalar o k) a) b.
Proof.
  induction k as [|k IH]; intros a b; cbn [times2 pow2_scalar]; [ring|]. rewrite IH. cbv zeta. ring.
Qed.
Lemma times2_inv : forall k b, times2 o k (mul o (inv o (pow2_scalar o k)) b) = b.
Proof.
  intros k b. rewrite times2_scale. replace (mul o (pow2_scalar o k) (inv o (pow2_scalar o k))) with (z1 o); [ring|].
  rewrite <- (ok_inv o Hok k). ring.
Qed.
Lemma log2_pow : forall k, Nat.log2 (2 ^ k) = k.
Proof. intros. apply Nat.log2_pow2. lia. Qed.

(** bit_ceil(2 nz) is a power of two at least 2 nz (and less than 4 nz). *)
Lemma fft_size_ok : forall nz, 1 <= nz -> (Z.of_nat nz <= 2 ^ 28)%Z ->
  exists p, 1 <= p <= 29 /\ fft_size nz = 2 ^ p /\ 2 * nz <= 2 ^ p /\ 2 ^ p < 4 * nz.
Proof.
  intros nz Hnz Hs. unfold fft_size, bit_ceil. destruct (Z.leb_spec (2 * Z.of_nat nz) 1); [lia|].
  set (q := Z.log2_up (2 * Z.of_nat nz)). assert (Hq : (2 ^ Z.pred q < 2 * Z.of_nat nz <= 2 ^ q)%Z) by (apply Z.log2_up_spec; lia).
  assert (Q1 : (1 <= q)%Z). { apply (Z.log2_up_le_mono 2). lia. }
  assert (Q2 : (q <= 29)%Z). { apply (Z.log2_up_le_mono _ (2 ^ 29)). lia. }
  clearbody q. exists (Z.to_nat q). assert (Eq_ : Z.to_nat (2 ^ q) = 2 ^ Z.to_nat q). { rewrite Z2Nat.inj_pow by lia. reflexivity. }
  assert (Ep : (2 ^ q = 2 * 2 ^ Z.pred q)%Z). { rewrite <- Z.pow_succ_r by lia. f_equal. lia. }
  split; [lia|]. split; [exact Eq_|]. rewrite <- Eq_. lia.
Qed.
(** ** The transform-based product of fft.cc:445-448 *)
Variable junk : nat -> list C.
Hypothesis Hjunk : forall n, length (junk n) = n.
Definition fft_core (op : bool) (middle : list A -> res (list A)) (z x y : list A) : res (list A) :=
  let fn := fft_size (length z) in
  fx <- srfft_scramble o ord (junk (fn / 2)) x ;;
  fy <- srfft_scramble o ord (junk (fn / 2)) y ;;
  fx <- def_loop ord (fn / 2) (mul_cwise o fy (inv_scalar o (fn / 2))) fx ;;
  z <- middle z ;;
  ' r <- isrfft_scramble o ord op z fx ;;
  Ok (fst r).
Definition fft_core_sqr (z x : list A) : res (list A) :=
  let fn := fft_size (length z) in
  fx <- srfft_scramble o ord (junk (fn / 2)) x ;;
  fx <- def_loop ord (fn / 2) (sqr_cwise o (inv_scalar o (fn / 2))) fx ;;
  ' r <- isrfft_scramble o ord false z fx ;;
  Ok (fst r).
Lemma int_ok : forall p, p <= 29 -> (Z.of_nat (2 ^ (p - 1)) < 2 ^ 31)%Z.
Proof. intros p H. pose proof (pow_bound (p - 1) 30 ltac:(lia)) as Hb. change (Z.of_nat 30) with 30%Z in Hb. lia. Qed.
Lemma finish : forall op p (z z' : list A) fx x y, 1 <= p <= 29 -> length z' = length z -> 2 * length z <= 2 ^ p -> length fx = 2 ^ (p - 1) ->
  at_sst o p (nlist (inv_scalar o (2 ^ (p - 1))) (2 ^ p) x y) fx p ->
  exists r, (' q <- isrfft_scramble o ord op z' fx ;; Ok (fst q)) = Ok r /\ length r = length z /\
    forall i, i < length z -> nth i r za = stored o op (nth i z' za) (ncoef (2 ^ p) x y i).
Proof.
  intros op p z z' fx x y Hp Hz' Hz Hf HS. destruct (isrfft_scramble_ok o Hok ord Hord op p _ fx z' Hp Hf ltac:(lia) HS) as (r & fx' & E & L & _ & V & _).
  rewrite E. cbn [bind fst]. exists r. split; [reflexivity|]. split; [lia|]. intros i Hi. rewrite V by lia. f_equal. unfold FFTShift2.X.
  rewrite nlist_nth by lia. unfold inv_scalar. rewrite log2_pow. apply times2_inv.
Qed.
Lemma fft_core_ok : forall op middle z x y z', 1 <= length z -> (Z.of_nat (length z) <= 2 ^ 28)%Z ->
  length x <= fft_size (length z) -> length y <= fft_size (length z) -> middle z = Ok z' -> length z' = length z ->
  exists r, fft_core op middle z x y = Ok r /\ length r = length z /\
    forall i, i < length z -> nth i r za = stored o op (nth i z' za) (ncoef (fft_size (length z)) x y i).
Proof.
  intros op middle z x y z' Hz Hs Hx Hy Em Lz'. destruct (fft_size_ok (length z) Hz Hs) as (p & Hp & Ep & H2 & H4).
  unfold fft_core. rewrite Ep in *. rewrite (pow_half p) by lia.
  destruct (srfft_scramble_ok o Hok ord Hord p x (junk (2 ^ (p - 1))) Hp (Hjunk _) Hx) as (fx & E1 & L1 & V1). rewrite E1. cbn [bind].
  destruct (srfft_scramble_ok o Hok ord Hord p y (junk (2 ^ (p - 1))) Hp (Hjunk _) Hy) as (fy & E2 & L2 & V2). rewrite E2. cbn [bind].
  set (a := inv_scalar o (2 ^ (p - 1))).
  destruct (cwise_pass (2 ^ (p - 1)) (mul_cwise o fy a) (fun i u => cmul (cscale o a u) (nth i fy c0)) fx) as (fx' & E3 & L3 & V3).
  { apply int_ok. lia. } { exact L1. }
  { intros i v Hi Hv. unfold mul_cwise. rewrite !(aget_ok c0) by lia. reflexivity. }
  rewrite E3. cbn [bind]. rewrite Em. cbn [bind]. apply finish; auto.
  apply at_sst_final. intros b Hb. rewrite V3 by exact Hb. rewrite (proj1 (at_sst_final p x fx) V1 b Hb), (proj1 (at_sst_final p y fy) V2 b Hb).
  apply sst_mul; auto; lia.
Qed.
Lemma fft_core_sqr_ok : forall z x, 1 <= length z -> (Z.of_nat (length z) <= 2 ^ 28)%Z -> length x <= fft_size (length z) ->
  exists r, fft_core_sqr z x = Ok r /\ length r = length z /\ forall i, i < length z -> nth i r za = ncoef (fft_size (length z)) x x i.
Proof.
  intros z x Hz Hs Hx. destruct (fft_size_ok (length z) Hz Hs) as (p & Hp & Ep & H2 & H4).
  unfold fft_core_sqr. rewrite Ep in *. rewrite (pow_half p) by lia.
  destruct (srfft_scramble_ok o Hok ord Hord p x (junk (2 ^ (p - 1))) Hp (Hjunk _) Hx) as (fx & E1 & L1 & V1). rewrite E1. cbn [bind].
  set (a := inv_scalar o (2 ^ (p - 1))).
  destruct (cwise_pass (2 ^ (p - 1)) (sqr_cwise o a) (fun i u => cscale o a (csqr o u)) fx) as (fx' & E3 & L3 & V3).
  { apply int_ok. lia. } { exact L1. }
  { intros i v Hi Hv. unfold sqr_cwise. rewrite !(aget_ok c0) by lia. reflexivity. }
  rewrite E3. cbn [bind]. destruct (finish false p z z fx' x x Hp eq_refl H2 L3) as (r & E & L & V).
  { apply at_sst_final. intros b Hb. rewrite V3 by exact Hb. rewrite (proj1 (at_sst_final p x fx) V1 b Hb). apply sst_sqr; auto; lia. }
  exists r. split; [exact E|]. split; [exact L|]. intros i Hi. rewrite V by exact Hi. reflexivity.
Qed.
(** ** The three entry points *)
Lemma fft_mul_core : forall z x y, 8 < length z <= length x + length y - 1 -> fft_mul o ord junk z x y = fft_core false (fun z => Ok z) z x y.
Proof.
  intros z x y [H1 H2]. unfold fft_mul, fft_core. destruct (Nat.leb_spec (length z) (length x + length y - 1)); [|lia]. cbn [slow_assert bind].
  destruct (Nat.leb_spec (length z) 8); [lia|]. reflexivity.
Qed.
(** the value computed, whatever the lengths *)
Theorem fft_mul_value : forall z x y, 8 < length z <= length x + length y - 1 -> (Z.of_nat (length z) <= 2 ^ 28)%Z ->
  length x <= fft_size (length z) -> length y <= fft_size (length z) ->
  exists r, fft_mul o ord junk z x y = Ok r /\ length r = length z /\ forall i, i < length z -> nth i r za = ncoef (fft_size (length z)) x y i.
Proof.
  intros z x y H Hs Hx Hy. rewrite fft_mul_core by exact H. destruct (fft_core_ok false (fun z => Ok z) z x y z ltac:(lia) Hs Hx Hy eq_refl eq_refl) as (r & E & L & V).
  exists r. split; [exact E|]. split; [exact L|]. exact V.
Qed.
Lemma fft_size_ge : forall nz, 1 <= nz -> (Z.of_nat nz <= 2 ^ 28)%Z -> 2 * nz <= fft_size nz.
Proof. intros nz H1 H2. destruct (fft_size_ok nz H1 H2) as (p & _ & -> & H & _). exact H. Qed.
Lemma fft_mul_base : forall z x y, length z <= 8 -> length z <= length x + length y - 1 ->
  exists r, fft_mul o ord junk z x y = Ok r /\ length r = length z /\ forall i, i < length z -> nth i r za = pcoef x y i.
Proof.
  intros z x y H8 H. unfold fft_mul. destruct (Nat.leb_spec (length z) (length x + length y - 1)); [|lia]. cbn [slow_assert bind].
  destruct (Nat.leb_spec (length z) 8); [|lia]. apply mul_base_ok. exact H8.
Qed.
Theorem fft_mul_ok : forall z x y, length z <= length x + length y - 1 -> (Z.of_nat (length z) <= 2 ^ 28)%Z ->
  (length z <= 8 \/ (length x <= fft_size (length z) /\ length y <= fft_size (length z) /\ length x + length y <= S (fft_size (length z)))) ->
  exists r, fft_mul o ord junk z x y = Ok r /\ length r = length z /\ forall i, i < length z -> nth i r za = pcoef x y i.
Proof.
  intros z x y H Hs Hl. destruct (Nat.le_gt_cases (length z) 8) as [H8|H8]; [apply fft_mul_base; assumption|]. destruct Hl as [?|(Hx & Hy & Hxy)]; [lia|].
  destruct (fft_mul_value z x y ltac:(lia) Hs Hx Hy) as (r & E & L & V). exists r. split; [exact E|]. split; [exact L|]. intros i Hi. rewrite V by exact Hi. apply ncoef_exact. exact Hxy.
Qed.
Lemma slow_assert_false : forall (Y : Type) (k : unit -> res Y), (_ <- slow_assert false ;; k tt) = Throw.
Proof. reflexivity. Qed.
Theorem fft_mul_throw : forall z x y, length x + length y - 1 < length z -> fft_mul o ord junk z x y = Throw.
Proof. intros z x y H. unfold fft_mul. destruct (Nat.leb_spec (length z) (length x + length y - 1)); [lia|]. reflexivity. Qed.
Theorem fft_sqr_throw : forall y x, 2 * length x - 1 < length y -> fft_sqr o ord junk y x = Throw.
Proof. intros y x H. unfold fft_sqr. destruct (Nat.leb_spec (length y) (2 * length x - 1)); [lia|]. reflexivity. Qed.
Theorem fft_addmul_throw : forall m z x y, length x + length y - 1 < length z -> fft_addmul o ord junk m z x y = Throw.
Proof. intros m z x y H. unfold fft_addmul. destruct (Nat.leb_spec (length z) (length x + length y - 1)); [lia|]. reflexivity. Qed.
(** Inputs longer than the transform. *)
Lemma srfft_long : forall p x y, 1 <= p -> length y = 2 ^ (p - 1) -> 2 ^ p < length x -> srfft_scramble o ord y x = Throw.
Proof.
  intros p x y Hp Hy Hx. unfold srfft_scramble. rewrite Hy, ctz_2p, two_half by lia. pose proof (pow2_pos p).
  destruct (Nat.eqb_spec (2 ^ p) 0); [lia|]. destruct (Nat.leb_spec (length x) (2 ^ p)); [lia|]. rewrite andb_false_r. reflexivity.
Qed.
Theorem fft_mul_long : forall z x y, 8 < length z -> (Z.of_nat (length z) <= 2 ^ 28)%Z -> fft_size (length z) < length x ->
  length z <= length x + length y - 1 -> fft_mul o ord junk z x y = Throw.
Proof.
  intros z x y H8 Hs Hx H. rewrite fft_mul_core by lia. destruct (fft_size_ok (length z) ltac:(lia) Hs) as (p & Hp & Ep & _). unfold fft_core. rewrite Ep in *.
  rewrite (pow_half p) by lia. rewrite (srfft_long p) by (auto; lia). reflexivity.
Qed.
Theorem fft_addmul_ok : forall m z x y z', 1 <= length z -> length z <= length x + length y - 1 -> (Z.of_nat (length z) <= 2 ^ 28)%Z ->
  length x <= fft_size (length z) -> length y <= fft_size (length z) -> m z = Ok z' -> length z' = length z ->
  exists r, fft_addmul o ord junk m z x y = Ok r /\ length r = length z /\
    forall i, i < length z -> nth i r za = add o (nth i z' za) (ncoef (fft_size (length z)) x y i).
Proof.
  intros m z x y z' H1 H Hs Hx Hy Em Lz. unfold fft_addmul. destruct (Nat.leb_spec (length z) (length x + length y - 1)); [|lia]. cbn [slow_assert bind].
  destruct (fft_core_ok true m z x y z' H1 Hs Hx Hy Em Lz) as (r & E & L & V). exists r. split; [exact E|]. split; [exact L|]. exact V.
Qed.
Lemma run_nil : forall n (f : nat -> list C -> res (list C)) y, n = 0 -> def_loop ord n f y = Ok y.
Proof. intros n f y ->. reflexivity. Qed.
Theorem fft_addmul_nil : forall m x y, fft_addmul o ord junk m [] x y = m [].
Proof.
  intros m x y. unfold fft_addmul. cbn [length Nat.leb slow_assert bind]. change (fft_size 0) with 1. change (1 / 2) with 0.
  assert (E : junk 0 = []) by (apply length_zero_iff_nil; apply Hjunk). rewrite E. cbn. destruct (m []); reflexivity.
Qed.
Theorem fft_sqr_ok : forall y x, length y <= 2 * length x - 1 -> (Z.of_nat (length y) <= 2 ^ 28)%Z ->
  (length y <= 8 \/ length x <= fft_size (length y)) ->
  exists r, fft_sqr o ord junk y x = Ok r /\ length r = length y /\
    forall i, i < length y -> nth i r za = if length y <=? 8 then pcoef x x i else ncoef (fft_size (length y)) x x i.
Proof.
  intros y x H Hs Hl. unfold fft_sqr. destruct (Nat.leb_spec (length y) (2 * length x - 1)); [|lia]. cbn [slow_assert bind].
  destruct (Nat.leb_spec (length y) 8) as [H8|H8].
  - apply sqr_base_ok. exact H8.
  - apply fft_core_sqr_ok; try lia. 
Qed.
End S.
