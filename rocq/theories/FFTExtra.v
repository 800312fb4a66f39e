(** isrfft in general, error cases, table bounds, and the multiplication kernel over the reals. *)
From Coq Require Import ZArith Arith ArithRing List Bool Lia Ring Permutation.
From Verif Require Import Base SeriesModel SeriesProofs NewtonProofs FFTModel FFTLoop FFTMath FFTTwiddle FFTPerm FFTSpec FFTProofs FFTReal FFTShift FFTShift2 FFTShift3 FFTShift4 FFTMulSpec FFTMul.
Import ListNotations.
Open Scope nat_scope.

Section S.
Variable o : ops.
Hypothesis Hok : ops_ok o.
Notation A := (FFTModel.A o).
Notation C := (FFTModel.A o * FFTModel.A o)%type.
Add Ring AringE : (ok_ring o Hok).
Add Ring CringE : (C_ring o Hok).
Notation cadd := (FFTModel.cadd o). Notation csub := (FFTModel.csub o). Notation cmul := (FFTModel.cmul o).
Notation conj := (FFTModel.conj o). Notation c0 := (FFTModel.c0 o). Notation c1 := (FFTMath.c1 o). Notation copp := (FFTMath.copp o).
Notation root := (FFTModel.root o). Notation csum := (FFTMath.csum o).
Notation sst := (FFTShift.sst o).
Notation za := (z0 o).
Ltac cr := unfold FFTModel.cadd, FFTModel.csub, FFTModel.cmul, FFTModel.conj, FFTModel.c0, FFTMath.c1, FFTMath.copp, FFTMath.ci,
  FFTModel.left, FFTModel.right in *; cbn [fst snd] in *; apply f_equal2; ring.

(** ** Every spectrum is the transform of a real sequence *)
(** sum_{k < 2^(p-1)} Y_k exp(2 pi i j (k + 1/2) / 2^p), whose real part isrfft computes *)
Definition isdft (p : nat) (Y : nat -> C) (j : nat) : C :=
  csum (2 ^ (p - 1)) (fun k => cmul (Y k) (root (S p) (Z.of_nat (j * (2 * k + 1))))).
Lemma sdft_isdft : forall p Y k, 1 <= p -> k < 2 ^ (p - 1) ->
  sdft o p (isdft p Y) k = cmul (cpow2 o p) (Y k).
Proof.
  intros p Y k Hp Hk. unfold sdft, isdft.
  rewrite (csum_ext o (2 ^ p) _ (fun j => csum (2 ^ (p - 1)) (fun l => cmul (Y l) (root p ((Z.of_nat l - Z.of_nat k) * Z.of_nat j))))).
  2:{ intros j _. transitivity (cmul (root (S p) (- Z.of_nat (j * (2 * k + 1)))) (csum (2 ^ (p - 1)) (fun l => cmul (Y l) (root (S p) (Z.of_nat (j * (2 * l + 1))))))); [ring|].
      rewrite <- (csum_mul o Hok). apply csum_ext. intros l _. rewrite <- (rt_dbl o Hok p ((Z.of_nat l - Z.of_nat k) * Z.of_nat j)).
      replace (2 * ((Z.of_nat l - Z.of_nat k) * Z.of_nat j))%Z with (Z.of_nat (j * (2 * l + 1)) + - Z.of_nat (j * (2 * k + 1)))%Z by lia. rewrite (rt_add o Hok). ring. }
  rewrite (csum_swap o Hok). rewrite (csum_ext o (2 ^ (p - 1)) _ (fun l => cmul (Y l) (if l =? k then cpow2 o p else c0))).
  2:{ intros l Hl. rewrite (csum_mul o Hok). apply f_equal2; [reflexivity|]. rewrite (orth o Hok). rewrite <- pow2_Z. pose proof (two_half p Hp) as H2.
      destruct (Nat.eqb_spec l k) as [->|N].
      - rewrite Z.sub_diag, Z.mod_0_l by (pose proof (pow2_pos p); lia). reflexivity.
      - destruct (Z.eqb_spec ((Z.of_nat l - Z.of_nat k) mod Z.of_nat (2 ^ p)) 0) as [E|_]; [|reflexivity]. exfalso.
        apply Z.mod_divide in E; [|pose proof (pow2_pos p); lia]. destruct E as [g Eg]. assert (g = 0 \/ g <= -1 \/ 1 <= g)%Z by lia. nia. }
  rewrite (csum_single o Hok (2 ^ (p - 1)) _ k Hk).
  - rewrite Nat.eqb_refl. ring.
  - intros l Hl Nl. destruct (Nat.eqb_spec l k); [contradiction|ring].
Qed.
Lemma sdft_conj_isdft : forall p Y k, 1 <= p -> k < 2 ^ (p - 1) -> sdft o p (fun j => conj (isdft p Y j)) k = c0.
Proof.
  intros p Y k Hp Hk. unfold sdft, isdft.
  rewrite (csum_ext o (2 ^ p) _ (fun j => csum (2 ^ (p - 1)) (fun l => cmul (conj (Y l)) (root p ((- (Z.of_nat l + Z.of_nat k + 1)) * Z.of_nat j))))).
  2:{ intros j _. rewrite (csum_conj o Hok).
      transitivity (cmul (root (S p) (- Z.of_nat (j * (2 * k + 1)))) (csum (2 ^ (p - 1)) (fun l => conj (cmul (Y l) (root (S p) (Z.of_nat (j * (2 * l + 1)))))))); [ring|].
      rewrite <- (csum_mul o Hok). apply csum_ext. intros l _. rewrite (conj_mul o Hok), <- (rt_conj o Hok). rewrite <- (rt_dbl o Hok p (- (Z.of_nat l + Z.of_nat k + 1) * Z.of_nat j)).
      replace (2 * (- (Z.of_nat l + Z.of_nat k + 1) * Z.of_nat j))%Z with (- Z.of_nat (j * (2 * l + 1)) + - Z.of_nat (j * (2 * k + 1)))%Z by lia. rewrite (rt_add o Hok). ring. }
  rewrite (csum_swap o Hok). apply (csum_0 o Hok). intros l Hl. rewrite (csum_mul o Hok), (orth o Hok), <- pow2_Z. pose proof (two_half p Hp) as H2.
  destruct (Z.eqb_spec (- (Z.of_nat l + Z.of_nat k + 1) mod Z.of_nat (2 ^ p)) 0) as [E|_]; [|ring]. exfalso.
  apply Z.mod_divide in E; [|pose proof (pow2_pos p); lia]. destruct E as [g Eg]. assert (g = 0 \/ g <= -1 \/ 1 <= g)%Z by lia. nia.
Qed.
Lemma sdft_add : forall p X Y k, sdft o p (fun i => cadd (X i) (Y i)) k = cadd (sdft o p X k) (sdft o p Y k).
Proof. intros. unfold sdft. rewrite <- (csum_add o Hok). apply csum_ext. intros i _. ring. Qed.
Lemma dbl_inj : forall a b : C, cadd a a = cadd b b -> a = b.
Proof. intros a b H. rewrite <- (chalf_twice o Hok a), <- (chalf_twice o Hok b), H. reflexivity. Qed.
(** the real sequence with spectrum Y *)
Definition preimage (p : nat) (Y : nat -> C) : list A :=
  map (fun j => mul o (inv o (pow2_scalar o (p - 1))) (fst (isdft p Y j))) (seq 0 (2 ^ p)).
Lemma preimage_nth : forall p Y i, i < 2 ^ p -> nth i (preimage p Y) za = mul o (inv o (pow2_scalar o (p - 1))) (fst (isdft p Y i)).
Proof. intros. unfold preimage. rewrite (nth_map_lt za) by (rewrite seq_length; assumption). rewrite seq_nth by assumption. reflexivity. Qed.
Lemma cpow2_scalar : forall k, cpow2 o k = (pow2_scalar o k, za).
Proof. induction k as [|k IH]; [reflexivity|]. cbn [cpow2 pow2_scalar]. rewrite IH. cbv zeta. cr. Qed.
Lemma sdft_preimage : forall p Y k, 1 <= p -> k < 2 ^ (p - 1) -> sdft o p (realc o (preimage p Y)) k = Y k.
Proof.
  intros p Y k Hp Hk. apply dbl_inj. set (a := inv o (pow2_scalar o (p - 1))).
  rewrite <- sdft_add.
  rewrite (sdft_ext o p _ (fun i => cmul (a, za) (cadd (isdft p Y i) (conj (isdft p Y i))))).
  2:{ intros i Hi. unfold realc. rewrite preimage_nth by exact Hi. fold a. destruct (isdft p Y i). cr. }
  rewrite (sdft_scale o Hok), sdft_add, sdft_isdft, sdft_conj_isdft by assumption.
  replace p with (S (p - 1)) at 1 by lia. cbn [cpow2]. rewrite cpow2_scalar. pose proof (ok_inv o Hok (p - 1)) as HI. fold a in HI.
  set (b := pow2_scalar o (p - 1)) in *. destruct (Y k) as [u v]. unfold FFTModel.cadd, FFTModel.cmul, FFTModel.c0. cbn [fst snd].
  apply f_equal2; ring [HI].
Qed.

Variable ord : Z -> list nat.
Hypothesis Hord : sched_ok ord.
(** isrfft in full: any spectrum, any number of outputs *)
Lemma unpermute_sst : forall p y, 2 <= p <= 29 -> length y = 2 ^ (p - 1) ->
  exists y1, shifted_unpermute y = Ok y1 /\ length y1 = 2 ^ (p - 1) /\ at_sst o p (preimage p (fun k => nth k y c0)) y1 p.
Proof.
  intros p y Hp Hy. pose proof (shifted_permute_unpermute c0 (p - 1) y ltac:(lia) Hy) as HP.
  assert (Hu : exists y1, shifted_unpermute y = Ok y1 /\ length y1 = 2 ^ (p - 1)).
  { unfold shifted_unpermute. assert (Ly : length (unreverses y) = 2 ^ (p - 1)) by (unfold unreverses; rewrite unreverses_len; exact Hy).
    destruct (bitrev_ok c0 (p - 1) (unreverses y) ltac:(lia) Ly) as (y1 & E & L & _). exists y1. split; [exact E|exact L]. }
  destruct Hu as (y1 & E1 & L1). exists y1. split; [exact E1|]. split; [exact L1|]. rewrite E1 in HP. cbn [bind] in HP.
  destruct (shifted_permute_ok c0 (p - 1) y1 ltac:(lia) L1) as (y2 & E2 & _ & V2). rewrite E2 in HP. injection HP as ->.
  apply at_sst_final. intros b Hb. rewrite (sst_final o) by lia. rewrite sdft_preimage by (try lia; apply kperm_lt). symmetry. apply V2. exact Hb.
Qed.
Theorem isrfft_ok : forall p y x, 2 <= p <= 29 -> length y = 2 ^ (p - 1) -> length x <= 2 * 2 ^ p ->
  exists x' y', isrfft o ord x y = Ok (x', y') /\ length x' = length x /\ length y' = length y /\
    (forall i, i < 2 ^ p -> i < length x -> nth i x' za = fst (isdft p (fun k => nth k y c0) i)) /\
    (forall i, 2 ^ p <= i -> nth i x' za = nth i x za).
Proof.
  intros p y x Hp Hy Hx. destruct (unpermute_sst p y Hp Hy) as (y1 & E1 & L1 & S1). unfold isrfft. rewrite E1. cbn [bind].
  destruct (isrfft_scramble_ok o Hok ord Hord false p _ y1 x ltac:(lia) L1 Hx S1) as (x' & y' & E & L & L' & V & U).
  exists x', y'. split; [exact E|]. split; [exact L|]. split; [lia|]. split; [|exact U]. intros i Hi Hil. rewrite V by assumption. cbn [stored].
  unfold stored, FFTShift2.X. rewrite preimage_nth by exact Hi. apply (times2_inv o Hok).
Qed.
(** the accumulate variant, on scrambled input, adds what the plain one stores *)
Theorem isrfft_scramble_add : forall p y x, 2 <= p <= 29 -> length y = 2 ^ (p - 1) -> length x <= 2 * 2 ^ p ->
  exists a b ya yb, isrfft_scramble o ord false x y = Ok (a, ya) /\ isrfft_scramble o ord true x y = Ok (b, yb) /\
    length a = length x /\ length b = length x /\
    (forall i, i < 2 ^ p -> i < length x -> nth i b za = add o (nth i x za) (nth i a za)) /\
    (forall i, 2 ^ p <= i -> nth i a za = nth i x za /\ nth i b za = nth i x za).
Proof.
  intros p y x Hp Hy Hx.
  destruct (shifted_permute_ok c0 (p - 1) y ltac:(lia) Hy) as (y2 & E2 & L2 & V2).
  pose proof (shifted_unpermute_permute c0 (p - 1) y ltac:(lia) Hy) as HU. rewrite E2 in HU. cbn [bind] in HU.
  destruct (unpermute_sst p y2 Hp L2) as (y1 & E1 & L1 & S1). rewrite E1 in HU. injection HU as ->.
  destruct (isrfft_scramble_ok o Hok ord Hord false p _ y x ltac:(lia) Hy Hx S1) as (a & ya & Ea & La & _ & Va & Ua).
  destruct (isrfft_scramble_ok o Hok ord Hord true p _ y x ltac:(lia) Hy Hx S1) as (b & yb & Eb & Lb & _ & Vb & Ub).
  exists a, b, ya, yb. split; [exact Ea|]. split; [exact Eb|]. split; [exact La|]. split; [exact Lb|]. split.
  - intros i Hi Hil. rewrite Va, Vb by assumption. reflexivity.
  - intros i Hi. split; [apply Ua|apply Ub]; exact Hi.
Qed.
Theorem isrfft_srfft : forall p x0 x y y', 2 <= p <= 29 -> length y = 2 ^ (p - 1) -> length x0 <= 2 ^ p -> length x <= 2 * 2 ^ p ->
  srfft o ord y x0 = Ok y' -> exists x' y2, isrfft o ord x y' = Ok (x', y2) /\ length x' = length x /\
    (forall i, i < 2 ^ p -> i < length x -> nth i x' za = times2 o (p - 1) (nth i x0 za)) /\
    (forall i, 2 ^ p <= i -> nth i x' za = nth i x za).
Proof.
  intros p x0 x y y' Hp Hy Hx0 Hx E. unfold srfft in E. destruct (srfft_scramble_ok o Hok ord Hord p x0 y ltac:(lia) Hy Hx0) as (y1 & E1 & L1 & S1).
  rewrite E1 in E. cbn [bind] in E. pose proof (shifted_unpermute_permute c0 (p - 1) y1 ltac:(lia) L1) as HU. rewrite E in HU. cbn [bind] in HU.
  unfold isrfft. rewrite HU. cbn [bind].
  destruct (isrfft_scramble_ok o Hok ord Hord false p x0 y1 x ltac:(lia) L1 Hx S1) as (x' & y2 & E2 & L2 & _ & V & U).
  exists x', y2. split; [exact E2|]. split; [exact L2|]. split; [|exact U]. intros i Hi Hil. rewrite V by assumption. reflexivity.
Qed.

(** ** Error cases *)
Definition is_pow2 (n : nat) : Prop := exists p, n = 2 ^ p.
Lemma not_pow2_Z : forall n p, ~ is_pow2 n -> (0 <= p)%Z -> (Z.of_nat n =? 2 ^ p)%Z = false.
Proof.
  intros n p H Hp. apply Z.eqb_neq. intros E. apply H. exists (Z.to_nat p). apply Nat2Z.inj. rewrite pow2_Z, Z2Nat.id by exact Hp. exact E.
Qed.
Lemma ctz_nonneg : forall z, (0 <= countr_zero64 z)%Z.
Proof. intros [|q|q]; cbn [countr_zero64]; try lia. induction q; cbn [ctz_pos]; lia. Qed.
Theorem fft_throws : forall y x, y <> [] -> (~ is_pow2 (length y) \/ 2 * length y < length x) -> fft o ord y x = Throw.
Proof.
  intros y x Hy H. unfold fft, fft_bitrev. destruct (Nat.eqb_spec (length y) 0) as [E|_]; [apply length_zero_iff_nil in E; contradiction|].
  destruct H as [H|H].
  - rewrite not_pow2_Z by (try assumption; apply ctz_nonneg). reflexivity.
  - destruct (Nat.leb_spec (length x) (2 * length y)); [lia|]. rewrite andb_false_r. reflexivity.
Qed.
Lemma not_pow2_half : forall n, n <> 0 -> ~ is_pow2 n -> ~ is_pow2 (2 * n).
Proof.
  intros n Hn H [p E]. destruct p as [|p]; [cbn in E; lia|]. rewrite Nat.pow_succ_r' in E. apply H. exists p. lia.
Qed.
Theorem srfft_throws : forall y x, y <> [] -> (~ is_pow2 (length y) \/ 2 * length y < length x) -> srfft o ord y x = Throw.
Proof.
  intros y x Hy H. unfold srfft, srfft_scramble. assert (Hl : length y <> 0) by (intros E; apply length_zero_iff_nil in E; contradiction).
  destruct (Nat.eqb_spec (2 * length y) 0) as [E|_]; [lia|]. destruct H as [H|H].
  - assert (E : (2 * length y =? 2 ^ Z.to_nat (countr_zero64 (Z.of_nat (2 * length y)))) = false).
    { apply Nat.eqb_neq. intros E. apply (not_pow2_half (length y) Hl H). eexists. exact E. }
    rewrite E. reflexivity.
  - destruct (Nat.leb_spec (length x) (2 * length y)); [lia|]. rewrite andb_false_r. reflexivity.
Qed.
Theorem rfft_throws : forall y x, y <> [] -> (~ is_pow2 (length y) \/ 2 * length y < length x) -> rfft o ord y x = Throw.
Proof.
  intros y x Hy H. pose proof (fft_throws y x Hy H) as HF. assert (Hl : length y <> 0) by (intros E; apply length_zero_iff_nil in E; contradiction).
  unfold rfft, rfft_bitrev. destruct (Nat.eqb_spec (2 * length y) 0) as [E|_]; [lia|].
  unfold fft in HF. destruct (fft_bitrev o ord y x) as [v| |] eqn:E; cbn [bind] in *; try reflexivity.
  - exfalso. unfold fft_bitrev in E. destruct (Nat.eqb_spec (length y) 0) as [|_]; [contradiction|]. destruct H as [H|H].
    + rewrite not_pow2_Z in E by (try assumption; apply ctz_nonneg). discriminate E.
    + destruct (Nat.leb_spec (length x) (2 * length y)); [lia|]. rewrite andb_false_r in E. discriminate E.
  - exact HF.
Qed.
(** Empty arrays: nothing happens. *)
Theorem fft_nil : forall x, fft o ord [] x = Ok []. Proof. reflexivity. Qed.
(** One element: the bit reversal shifts a 64-bit value by 64 (fft.cc:136-145). *)
Theorem fft_one : forall a x, length x <= 2 -> fft o ord [a] x = UB.
Proof.
  intros a x Hx. unfold fft, fft_bitrev. cbn [length Nat.eqb]. change (countr_zero64 (Z.of_nat 1)) with 0%Z. change (Z.of_nat 1 =? 2 ^ 0)%Z with true.
  destruct (Nat.leb_spec (length x) (2 * 1)); [|lia]. cbn [andb slow_assert bind].
  destruct (def_loop_run ord _ (2 * 1) (fft_butterfly_0 o x) [a] Hord ltac:(lia)) as (L & E & ND & HL). rewrite E.
  destruct (run_real o (fun i => nth i x za) (fft_butterfly_0 o x) L [a]) as (b & Eb & Lb & _).
  - intros i z. unfold fft_butterfly_0. destruct (Nat.ltb_spec i (length x)) as [HH|HH].
    + rewrite (aget_ok za) by exact HH. reflexivity.
    + cbn [bind]. rewrite nth_overflow by exact HH. reflexivity.
  - intros i Hi. apply HL in Hi. exact Hi.
  - rewrite Eb. cbn [bind Z.to_nat seq rev over]. destruct b as [|b [|? ?]]; try discriminate Lb. apply bitrev_one.
Qed.
Theorem srfft_one : forall a x, length x <= 2 -> srfft o ord [a] x = UB.
Proof.
  intros a x Hx. unfold srfft. destruct (srfft_scramble_ok o Hok ord Hord 1 x [a] ltac:(lia) eq_refl Hx) as (b & E & L & _). rewrite E. cbn [bind].
  destruct b as [|b [|? ?]]; try discriminate L. reflexivity.
Qed.
Theorem rfft_one : forall a x, length x <= 2 -> rfft o ord [a] x = UB.
Proof.
  intros a x Hx. pose proof (fft_one a x Hx) as HF. unfold fft in HF. unfold rfft, rfft_bitrev. change (2 * length [a] =? 0) with false.
  change (Z.to_nat (countr_zero64 (Z.of_nat (2 * length [a])))) with 1. cbv iota. change (1 =? 1) with true. cbv iota.
  destruct (fft_bitrev o ord [a] x) as [v| |] eqn:E; cbn [bind] in *; [|discriminate HF|reflexivity].
  destruct v as [|v [|? ?]].
  - discriminate HF.
  - reflexivity.
  - cbn [rfft_post_n2 aget nth_error bind]. exfalso.
    assert (Lx : forall n (body : nat -> list C -> res (list C)) y r, (forall i y r, body i y = Ok r -> length r = length y) -> def_loop ord n body y = Ok r -> length r = length y).
    { intros n body y r HB. unfold def_loop. destruct (Z.of_nat n =? 0)%Z; [intros H; injection H as <-; reflexivity|]. generalize (ord (to_i32 (Z.of_nat n))). intros ls. revert y.
      induction ls as [|i ls IH]; intros y H; cbn [run] in H; [injection H as <-; reflexivity|].
      destruct (body i y) as [z| |] eqn:Eb; cbn [bind] in H; try discriminate H. rewrite (IH z H). apply (HB _ _ _ Eb). }
    unfold fft_bitrev in E. change (length [a]) with 1 in E. change (1 =? 0) with false in E. cbv iota in E. change (countr_zero64 (Z.of_nat 1)) with 0%Z in E.
    destruct (slow_assert _) as [[]| |] in E; cbn [bind] in E; try discriminate E.
    destruct (def_loop ord (2 * 1) (fft_butterfly_0 o x) [a]) as [w| |] eqn:Ew; cbn [bind] in E; try discriminate E.
    cbn [Z.to_nat seq rev over] in E. injection E as ->. apply Lx in Ew; [discriminate Ew|]. clear. intros i y r. unfold fft_butterfly_0, set_real.
    intros H. destruct (if i <? length x then aget x i else Ok za) as [q| |]; cbn [bind] in H; try discriminate H.
    destruct (aget y (i / 2)) as [c| |]; cbn [bind] in H; try discriminate H.
    unfold aset in H. destruct (i / 2 <? length y); [|discriminate H]. injection H as <-. apply upd_length.
Qed.
Theorem inverse_one : forall a x, ifft o ord x [a] = UB /\ irfft o ord x [a] = UB /\ isrfft o ord x [a] = UB.
Proof. intros a x. repeat split; reflexivity. Qed.

(** ** At 2^30 reals the table [few] is read past its end (fft.cc:44, 73-78, 87-90) *)
Theorem srfft_table_oob : forall y x, length y = 2 ^ 29 -> length x <= 2 ^ 30 -> srfft_scramble o ord y x = UB.
Proof.
  assert (G : forall p y x, p = 30 -> length y = 2 ^ (p - 1) -> length x <= 2 ^ p -> srfft_scramble o ord y x = UB); [|intros y x Hy Hx; apply (G 30 y x eq_refl Hy Hx)].
  intros p y x Ep Hy' Hx. unfold srfft_scramble. rewrite Hy', ctz_2p, two_half by lia. pose proof (pow2_pos p).
  destruct (Nat.eqb_spec (2 ^ p) 0); [lia|]. rewrite Nat.eqb_refl. destruct (Nat.leb_spec (length x) (2 ^ p)); [|lia]. cbn [andb slow_assert bind].
  assert (Hp : exists q, p = S (S (S q))) by (exists (p - 3); lia). destruct Hp as [q Eq_]. rewrite Eq_. rewrite <- Eq_.
  change 8 with (2 ^ 3) at 1 2. rewrite npow_div by lia.
  destruct (def_loop_run ord _ (2 ^ (p - 3)) (srfft_first o 3 (big_slice o p) (2 ^ (p - 3)) x) y Hord) as (L & E & ND & HL).
  { pose proof (pow_bound (p - 3) 30 ltac:(lia)) as Hb. change (Z.of_nat 30) with 30%Z in Hb. lia. }
  rewrite E. destruct L as [|j L]; [exfalso; apply (proj2 (HL 0)); apply pow2_pos|]. cbn [run]. unfold srfft_first at 1.
  rewrite (mapr_ok _ _ _ (FFTShift2.X o x)) by (intros; apply getx_ok). cbn [bind]. change (2 ^ 3) with 8. unfold stride at 1. cbn [seq map bfly_01s].
  unfold bfly_1 at 1. rewrite (big_slice_oob o Hok) by lia. reflexivity.
Qed.
End S.
