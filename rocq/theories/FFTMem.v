(** Products over shared memory. *)
From Coq Require Import ZArith Arith ArithRing List Bool Lia Permutation.
From Verif Require Import Base SeriesModel FFTModel FFTLoop FFTMath FFTPerm FFTMulSpec FFTShift4 FFTMul FFTMemModel.
Import ListNotations.
Open Scope nat_scope.

(** ** Bits of a bit reversal *)
Lemma rv_testbit : forall p i t, t < p -> Nat.testbit (rv p i) t = Nat.testbit i (p - 1 - t).
Proof.
  induction p as [|p IH]; intros i t Ht; [lia|]. cbn [rv]. pose proof (rv_lt p (i / 2)) as Hl.
  destruct (Nat.eq_dec t p) as [->|N].
  - replace (S p - 1 - p) with 0 by lia. rewrite Nat.testbit_eqb. rewrite (Nat.mul_comm (2 ^ p)), Nat.div_add_l by (apply Nat.pow_nonzero; lia). rewrite (Nat.div_small (rv p (i / 2))) by exact Hl.
    rewrite Nat.add_0_r, Nat.mod_mod by lia. rewrite Nat.testbit_eqb, Nat.pow_0_r, Nat.div_1_r. reflexivity.
  - replace (S p - 1 - t) with (S (p - 1 - t)) by lia. rewrite <- Nat.div2_bits by lia. rewrite <- IH by lia.
    rewrite !Nat.testbit_eqb. rewrite (Nat.add_comm (2 ^ p * _)).
    replace (2 ^ p * (i mod 2)) with (2 ^ (p - t - 1) * (i mod 2) * 2 * 2 ^ t).
    + rewrite Nat.div_add by (apply Nat.pow_nonzero; lia). rewrite Nat.mod_add by lia. reflexivity.
    + replace (2 ^ p) with (2 ^ (p - t - 1) * 2 * 2 ^ t); [ring|]. replace p with (p - t - 1 + 1 + t) at 2 by lia. rewrite !Nat.pow_add_r. reflexivity.
Qed.
Lemma testbit_eq : forall p i j, i < 2 ^ p -> j < 2 ^ p -> (forall t, t < p -> Nat.testbit i t = Nat.testbit j t) -> i = j.
Proof.
  intros p i j Hi Hj H. apply Nat.bits_inj. intros t. destruct (Nat.lt_ge_cases t p) as [Ht|Ht]; [apply H; exact Ht|].
  assert (Z0 : forall a, a < 2 ^ p -> Nat.testbit a t = false).
  { intros a Ha. rewrite Nat.testbit_eqb. rewrite Nat.div_small; [reflexivity|]. apply Nat.lt_le_trans with (2 ^ p); [exact Ha|]. apply Nat.pow_le_mono_r; lia. }
  rewrite !Z0 by assumption. reflexivity.
Qed.
Theorem bitrev_spec : forall X (d : X) p (y : list X), 1 <= p <= 63 -> length y = 2 ^ p ->
  exists y', bitrev y = Ok y' /\ Permutation y y' /\
    (forall i j, i < 2 ^ p -> j < 2 ^ p -> (forall t, t < p -> Nat.testbit j t = Nat.testbit i (p - 1 - t)) -> nth j y' d = nth i y d) /\
    bitrev y' = Ok y.
Proof.
  intros X d p y Hp Hy. pose proof (bitrev_twice d p y Hp Hy) as HT. destruct (bitrev_ok d p y Hp Hy) as (y' & E & L & V). rewrite E in HT. cbn [bind] in HT.
  exists y'. split; [exact E|]. split; [|split; [|exact HT]].
  - apply (Permutation_nth y y' d). split; [lia|]. exists (rv p). rewrite Hy. split; [|split].
    + intros i Hi. apply rv_lt.
    + intros i j Hi Hj H. rewrite <- (rv_invol p i Hi), <- (rv_invol p j Hj), H. reflexivity.
    + intros i Hi. apply V. exact Hi.
  - intros i j Hi Hj H. rewrite V by exact Hj. f_equal. apply (testbit_eq p); [apply rv_lt|exact Hi|]. intros t Ht. rewrite rv_testbit by exact Ht. rewrite H by lia.
    f_equal. lia.
Qed.

Lemma kperm_inj : forall q a b, a < 2 ^ q -> b < 2 ^ q -> kperm q a = kperm q b -> a = b.
Proof.
  induction q as [|q IH]; intros a b Ha Hb H; [cbn in *; lia|]. rewrite Nat.pow_succ_r' in Ha, Hb.
  pose proof (Nat.div_mod_eq a 2) as Da. pose proof (Nat.div_mod_eq b 2) as Db.
  pose proof (Nat.mod_upper_bound a 2 ltac:(lia)). pose proof (Nat.mod_upper_bound b 2 ltac:(lia)).
  set (a' := a / 2) in *. set (b' := b / 2) in *. clearbody a' b'.
  pose proof (kperm_lt q a') as La. pose proof (kperm_lt q b') as Lb.
  assert (Ca : a = 2 * a' \/ a = 2 * a' + 1) by lia. assert (Cb : b = 2 * b' \/ b = 2 * b' + 1) by lia. clear Da Db.
  destruct Ca as [Ea|Ea]; destruct Cb as [Eb|Eb]; rewrite Ea, Eb in H; rewrite ?kperm_even, ?kperm_odd in H; rewrite ?Nat.pow_succ_r' in H.
  - rewrite Ea, Eb. f_equal. apply IH; lia.
  - exfalso. lia.
  - exfalso. lia.
  - rewrite Ea, Eb. f_equal. f_equal. apply IH; lia.
Qed.
Lemma shifted_permute_perm : forall X (d : X) q (y y' : list X), 1 <= q <= 63 -> length y = 2 ^ q -> shifted_permute y = Ok y' -> Permutation y y'.
Proof.
  intros X d q y y' Hq Hy E. destruct (shifted_permute_ok d q y Hq Hy) as (y1 & E1 & L & V). rewrite E in E1. injection E1 as <-.
  apply Permutation_sym. apply (Permutation_nth y' y d). split; [lia|]. exists (kperm q). rewrite L. split; [|split].
  - intros i Hi. apply kperm_lt.
  - intros i j Hi Hj. apply kperm_inj; assumption.
  - intros i Hi. symmetry. apply V. exact Hi.
Qed.

Section S.
Variable o : ops.
Hypothesis Hok : ops_ok o.
Variable ord : Z -> list nat.
Hypothesis Hord : sched_ok ord.
Variable junk : nat -> list (A o * A o).
Hypothesis Hjunk : forall n, length (junk n) = n.
Notation za := (z0 o).
Notation mem := (list (A o)).
Lemma load_ok : forall (m : mem) s, fst s + snd s <= length m -> exists v, load o m s = Ok v /\ length v = snd s /\ forall i, i < snd s -> nth i v za = nth (fst s + i) m za.
Proof.
  clear. intros m [a n] H. cbn [fst snd] in *. unfold load, in_mem. cbn [fst snd]. destruct (Nat.leb_spec (a + n) (length m)); [|lia].
  eexists. split; [reflexivity|]. split; [rewrite firstn_length, skipn_length; lia|]. intros i Hi.
  rewrite <- (firstn_skipn a m) at 2. rewrite app_nth2 by (rewrite firstn_length; lia). rewrite firstn_length, Nat.min_l by lia. replace (a + i - a) with i by lia.
  rewrite <- (firstn_skipn n (skipn a m)) at 2. rewrite app_nth1; [reflexivity|]. rewrite firstn_length, skipn_length. lia.
Qed.
Lemma store_ok : forall (m : mem) s v, fst s + snd s <= length m -> length v = snd s ->
  exists m', store o m s v = Ok m' /\ length m' = length m /\
    (forall i, i < snd s -> nth (fst s + i) m' za = nth i v za) /\
    (forall a, a < fst s \/ fst s + snd s <= a -> nth a m' za = nth a m za).
Proof.
  clear. intros m [a n] v H Hv. cbn [fst snd] in *. unfold store, in_mem. cbn [fst snd]. destruct (Nat.leb_spec (a + n) (length m)); [|lia].
  rewrite Hv, Nat.eqb_refl. cbn [andb]. eexists. split; [reflexivity|].
  split; [rewrite !app_length, firstn_length, skipn_length; lia|]. split.
  - intros i Hi. rewrite app_nth2 by (rewrite firstn_length; lia). rewrite firstn_length, Nat.min_l by lia. replace (a + i - a) with i by lia. apply app_nth1. lia.
  - intros b [Hb|Hb].
    + rewrite app_nth1 by (rewrite firstn_length; lia). rewrite <- (firstn_skipn a m) at 2. rewrite app_nth1 by (rewrite firstn_length; lia). reflexivity.
    + rewrite app_nth2 by (rewrite firstn_length; lia). rewrite app_nth2 by (rewrite firstn_length; lia). rewrite firstn_length, Nat.min_l, Hv by lia.
      rewrite <- (firstn_skipn (a + n) m) at 2. rewrite (app_nth2 (firstn (a + n) m)) by (rewrite firstn_length; lia). f_equal. rewrite firstn_length. lia.
Qed.
(** the contents of a span *)
Definition span_vals (m : mem) (s : spn) : list (A o) := firstn (snd s) (skipn (fst s) m).
Lemma load_vals : forall m s, fst s + snd s <= length m -> load o m s = Ok (span_vals m s) /\ length (span_vals m s) = snd s.
Proof.
  clear. intros m s H. unfold load, in_mem, span_vals. destruct (Nat.leb_spec (fst s + snd s) (length m)); [|lia]. split; [reflexivity|]. rewrite firstn_length, skipn_length. lia.
Qed.
Theorem fft_mul_mem_ok : forall m z x y, fst z + snd z <= length m -> fst x + snd x <= length m -> fst y + snd y <= length m ->
  (Z.of_nat (snd z) <= 2 ^ 28)%Z -> snd x <= snd z -> snd y <= snd z -> snd z <= snd x + snd y - 1 ->
  exists m', fft_mul_mem o ord junk m z x y = Ok m' /\ length m' = length m /\
    (forall i, i < snd z -> nth (fst z + i) m' za = pcoef o (span_vals m x) (span_vals m y) i) /\
    (forall a, a < fst z \/ fst z + snd z <= a -> nth a m' za = nth a m za).
Proof.
  intros m z x y Hz Hx Hy Hs Hxz Hyz H. unfold fft_mul_mem.
  destruct (load_vals m x Hx) as [-> Lx]. destruct (load_vals m y Hy) as [-> Ly]. destruct (load_vals m z Hz) as [-> Lz]. cbn [bind].
  destruct (fft_mul_ok o Hok ord Hord junk Hjunk (span_vals m z) (span_vals m x) (span_vals m y)) as (r & E & L & V); rewrite ?Lz, ?Lx, ?Ly in *; auto.
  { destruct (Nat.le_gt_cases (snd z) 8); [left; assumption|right]. pose proof (fft_size_ge (snd z) ltac:(lia) Hs). lia. }
  rewrite E. cbn [bind]. destruct (store_ok m z r Hz L) as (m' & E' & L' & I & U). exists m'. split; [exact E'|]. split; [exact L'|]. split; [|exact U].
  intros i Hi. rewrite I by exact Hi. apply V. exact Hi.
Qed.
Theorem fft_sqr_mem_ok : forall m z x, fst z + snd z <= length m -> fst x + snd x <= length m ->
  (Z.of_nat (snd z) <= 2 ^ 28)%Z -> snd x <= snd z -> snd z <= 2 * snd x - 1 ->
  exists m', fft_sqr_mem o ord junk m z x = Ok m' /\ length m' = length m /\
    (forall i, i < snd z -> nth (fst z + i) m' za = pcoef o (span_vals m x) (span_vals m x) i) /\
    (forall a, a < fst z \/ fst z + snd z <= a -> nth a m' za = nth a m za).
Proof.
  intros m z x Hz Hx Hs Hxz H. unfold fft_sqr_mem.
  destruct (load_vals m x Hx) as [-> Lx]. destruct (load_vals m z Hz) as [-> Lz]. cbn [bind].
  destruct (fft_sqr_ok o Hok ord Hord junk Hjunk (span_vals m z) (span_vals m x)) as (r & E & L & V); rewrite ?Lz, ?Lx in *; auto.
  { destruct (Nat.le_gt_cases (snd z) 8); [left; assumption|right]. pose proof (fft_size_ge (snd z) ltac:(lia) Hs). lia. }
  rewrite E. cbn [bind]. destruct (store_ok m z r Hz L) as (m' & E' & L' & I & U). exists m'. split; [exact E'|]. split; [exact L'|]. split; [|exact U].
  intros i Hi. rewrite I, V by exact Hi. destruct (Nat.leb_spec (snd z) 8); [reflexivity|]. apply (ncoef_exact o Hok).
  pose proof (fft_size_ge (snd z) ltac:(lia) Hs). lia.
Qed.
Theorem fft_addmul_mem_ok : forall middle m m1 z x y, fst z + snd z <= length m1 -> fst x + snd x <= length m -> fst y + snd y <= length m ->
  1 <= snd z -> (Z.of_nat (snd z) <= 2 ^ 28)%Z -> snd x <= snd z -> snd y <= snd z -> snd z <= snd x + snd y - 1 -> middle m = Ok m1 ->
  exists m', fft_addmul_mem o ord junk middle m z x y = Ok m' /\ length m' = length m1 /\
    (forall i, i < snd z -> nth (fst z + i) m' za = add o (nth (fst z + i) m1 za) (pcoef o (span_vals m x) (span_vals m y) i)) /\
    (forall a, a < fst z \/ fst z + snd z <= a -> nth a m' za = nth a m1 za).
Proof.
  intros middle m m1 z x y Hz Hx Hy H1 Hs Hxz Hyz H Hm. unfold fft_addmul_mem.
  destruct (Nat.leb_spec (snd z) (snd x + snd y - 1)); [|lia]. cbn [slow_assert bind].
  destruct (load_vals m x Hx) as [-> Lx]. destruct (load_vals m y Hy) as [-> Ly]. destruct (load_vals m1 z Hz) as [Ez Lz]. cbn [bind]. rewrite Hm. cbn [bind]. rewrite Ez.
  pose proof (fft_size_ge (snd z) H1 Hs) as HS.
  destruct (fft_core_ok o Hok ord Hord junk Hjunk true (fun w => Ok w) (span_vals m1 z) (span_vals m x) (span_vals m y) (span_vals m1 z)) as (r & E & L & V); rewrite ?Lz, ?Lx, ?Ly in *; auto; try lia.
  unfold fft_core in E. rewrite Lz in E.
  destruct (srfft_scramble o ord (junk (fft_size (snd z) / 2)) (span_vals m x)) as [fx| |]; cbn [bind] in *; try discriminate E.
  destruct (srfft_scramble o ord (junk (fft_size (snd z) / 2)) (span_vals m y)) as [fy| |]; cbn [bind] in *; try discriminate E.
  destruct (def_loop ord (fft_size (snd z) / 2) (mul_cwise o fy (inv_scalar o (fft_size (snd z) / 2))) fx) as [f2| |]; cbn [bind] in *; try discriminate E.
  destruct (isrfft_scramble o ord true (span_vals m1 z) f2) as [q| |]; cbn [bind] in *; try discriminate E. injection E as E. rewrite E.
  destruct (store_ok m1 z r Hz L) as (m' & E' & L' & I & U). exists m'. split; [exact E'|]. split; [exact L'|]. split; [|exact U].
  intros i Hi. rewrite I, V by exact Hi. unfold stored. rewrite (ncoef_exact o Hok) by lia. f_equal.
  destruct (load_ok m1 z Hz) as (v & Ev & _ & Vv). rewrite Ez in Ev. injection Ev as <-. apply Vv. exact Hi.
Qed.
End S.
