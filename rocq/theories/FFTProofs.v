(** The complex and the real FFT. *)
From Coq Require Import ZArith Arith ArithRing List Bool Lia Ring.
From Verif Require Import Base SeriesModel SeriesProofs NewtonProofs FFTModel FFTLoop FFTMath FFTTwiddle FFTPerm FFTSpec.
Import ListNotations.
Open Scope nat_scope.

Section F.
Variable o : ops.
Hypothesis Hok : ops_ok o.
Variable ord : Z -> list nat.
Hypothesis Hord : sched_ok ord.
Notation A := (FFTModel.A o).
Notation C := (FFTModel.A o * FFTModel.A o)%type.
Add Ring AringF : (ok_ring o Hok).
Add Ring CringF : (C_ring o Hok).
Notation cadd := (FFTModel.cadd o). Notation csub := (FFTModel.csub o). Notation cmul := (FFTModel.cmul o).
Notation conj := (FFTModel.conj o). Notation c0 := (FFTModel.c0 o). Notation c1 := (FFTMath.c1 o). Notation copp := (FFTMath.copp o).
Notation root := (FFTModel.root o). Notation csum := (FFTMath.csum o).
Notation at_ := (fun (y : list C) i => nth i y c0).

Lemma pow2_Z : forall p, Z.of_nat (2 ^ p) = (2 ^ Z.of_nat p)%Z.
Proof. intros p. rewrite Nat2Z.inj_pow. reflexivity. Qed.
Lemma root_neg : forall s j, root s (- j)%Z = conj (root s j). Proof. intros. apply (rt_conj o Hok). Qed.

(** ** Real view of a complex array *)
Definition comp (y : list C) (i : nat) : A := if Nat.even i then fst (nth (i / 2) y c0) else snd (nth (i / 2) y c0).
Lemma half_lt : forall i n, i < 2 * n -> i / 2 < n.
Proof. intros i n H. apply Nat.div_lt_upper_bound; lia. Qed.
Lemma even_half : forall i k, i / 2 = k / 2 -> Nat.even i = Nat.even k -> i = k.
Proof.
  intros i k H E. destruct (parity_split i) as [Hi|Hi], (parity_split k) as [Hk|Hk]; rewrite H in Hi; try lia; exfalso; rewrite Hi, Hk in E.
  - rewrite Nat.even_add, !Nat.even_mul in E. discriminate E.
  - rewrite Nat.even_add, !Nat.even_mul in E. discriminate E.
Qed.
Lemma set_real_ok : forall y i v, i < 2 * length y -> exists y', set_real o y i v = Ok y' /\ length y' = length y /\
  forall k, comp y' k = if k =? i then v else comp y k.
Proof.
  intros y i v Hi. unfold set_real. pose proof (half_lt _ _ Hi) as H2. rewrite (aget_ok c0) by exact H2. cbn [bind].
  rewrite aset_ok by exact H2. eexists. split; [reflexivity|]. split; [apply upd_length|].
  intros k. unfold comp. rewrite upd_nth by exact H2.
  destruct (Nat.eqb_spec (k / 2) (i / 2)) as [E|E].
  - destruct (Nat.eqb_spec k i) as [->|Nk].
    + destruct (Nat.even i); reflexivity.
    + assert (Hp : Nat.even k = negb (Nat.even i)).
      { destruct (Nat.even k) eqn:Ek, (Nat.even i) eqn:Ei; try reflexivity; exfalso; apply Nk; apply even_half; congruence. }
      rewrite Hp, E. destruct (Nat.even i); reflexivity.
  - destruct (Nat.eqb_spec k i) as [->|Nk]; [congruence|reflexivity].
Qed.
Lemma run_real : forall (f : nat -> A) (body : nat -> list C -> res (list C)) L y,
  (forall i y, body i y = set_real o y i (f i)) -> (forall i, In i L -> i < 2 * length y) ->
  exists y', run L body y = Ok y' /\ length y' = length y /\ forall k, In k L -> comp y' k = f k.
Proof.
  intros f body L. induction L as [|i L IH]; intros y HB HL.
  - exists y. cbn [run]. split; [reflexivity|]. split; [reflexivity|]. intros k [].
  - cbn [run]. rewrite HB. destruct (set_real_ok y i (f i) (HL i (or_introl eq_refl))) as (y1 & E & L1 & V). rewrite E. cbn [bind].
    destruct (IH y1 HB) as (y2 & E2 & L2 & V2).
    { intros j Hj. rewrite L1. apply HL. right. exact Hj. }
    assert (Keep : forall k, ~ In k L -> comp y2 k = comp y1 k).
    { clear IH V2 L2 V. clear E. revert y1 E2 L1. induction L as [|j L IHL]; intros y1 E2 L1 k Hk.
      - cbn [run] in E2. injection E2 as <-. reflexivity.
      - cbn [run] in E2. rewrite HB in E2. destruct (set_real_ok y1 j (f j)) as (z & Ez & Lz & Vz).
        { rewrite L1. apply HL. right. left. reflexivity. }
        rewrite Ez in E2. cbn [bind] in E2. rewrite (IHL) with (y1 := z); auto.
        + rewrite Vz. destruct (Nat.eqb_spec k j) as [->|]; [|reflexivity]. exfalso. apply Hk. left. reflexivity.
        + intros m [Hm|Hm]; apply HL; [left|right; right]; auto.
        + lia.
        + intros Hc. apply Hk. right. exact Hc. }
    exists y2. split; [exact E2|]. split; [lia|]. intros k Hk.
    destruct (in_dec Nat.eq_dec k L) as [Hi|Hn]; [apply V2; exact Hi|].
    rewrite Keep by exact Hn. rewrite V. destruct Hk as [<-|Hk]; [rewrite Nat.eqb_refl; reflexivity|contradiction].
Qed.

Lemma ctz_p : forall p, countr_zero64 (Z.of_nat (2 ^ p)) = Z.of_nat p. Proof. exact ctz_nat. Qed.
Lemma pow_bound : forall p k, p <= k -> (Z.of_nat (2 ^ p) <= 2 ^ Z.of_nat k)%Z.
Proof. intros p k H. rewrite pow2_Z. apply Z.pow_le_mono_r; lia. Qed.

(** fft.cc:200 *)
Lemma load_ok : forall p x y, p <= 29 -> length y = 2 ^ p ->
  exists y', def_loop ord (2 * 2 ^ p) (fft_butterfly_0 o x) y = Ok y' /\ length y' = 2 ^ p /\
    forall i, i < 2 ^ p -> nth i y' c0 = packed o x i.
Proof.
  intros p x y Hp Hy. destruct (def_loop_run ord _ (2 * 2 ^ p) (fft_butterfly_0 o x) y Hord) as (L & E & ND & HL).
  { pose proof (pow_bound (S p) 30 ltac:(lia)) as H. rewrite Nat.pow_succ_r' in H. change (Z.of_nat 30) with 30%Z in H. lia. }
  rewrite E. destruct (run_real (fun i => nth i x (z0 o)) (fft_butterfly_0 o x) L y) as (y' & E' & L' & V).
  - intros i z. unfold fft_butterfly_0. destruct (Nat.ltb_spec i (length x)) as [H|H].
    + rewrite (aget_ok (z0 o)) by exact H. reflexivity.
    + cbn [bind]. rewrite nth_overflow by exact H. reflexivity.
  - intros i Hi. apply HL in Hi. lia.
  - exists y'. split; [exact E'|]. split; [lia|]. intros i Hi.
    pose proof (V (2 * i) ltac:(apply HL; lia)) as V0. pose proof (V (2 * i + 1) ltac:(apply HL; lia)) as V1.
    unfold comp in V0, V1. rewrite div2_0 in V0. rewrite div2_1 in V1.
    rewrite Nat.even_mul in V0. rewrite Nat.even_add, Nat.even_mul in V1. cbn in V0, V1.
    unfold packed. rewrite (surjective_pairing (nth i y' c0)). apply f_equal2; [rewrite V0|rewrite V1]; f_equal; lia.
Qed.

(** ** Forward passes: decimation in frequency *)
Definition stage (p : nat) (X : nat -> C) (t b r : nat) : C :=
  csum (2 ^ (p - t)) (fun q => cmul (X (q * 2 ^ t + r)) (root p (- Z.of_nat ((q * 2 ^ t + r) * rv (p - t) b)))).
Lemma stage_top : forall p X r, stage p X p 0 r = X r.
Proof.
  intros p X r. unfold stage. rewrite Nat.sub_diag. cbn [Nat.pow FFTMath.csum rv]. rewrite Nat.mul_0_r. cbn [Nat.mul Nat.add].
  change (- Z.of_nat 0)%Z with 0%Z. rewrite (rt_0 o Hok). change (z1 o, z0 o) with c1. ring.
Qed.
Lemma stage_even : forall p X s b r, s < p -> stage p X s (2 * b) r = cadd (stage p X (S s) b r) (stage p X (S s) b (r + 2 ^ s)).
Proof.
  intros p X s b r Hs. unfold stage. replace (p - s) with (S (p - S s)) by lia. set (u := p - S s).
  rewrite rv_even. rewrite Nat.pow_succ_r', (csum_2 o Hok). apply f_equal2; apply csum_ext; intros q _.
  - replace (2 * q * 2 ^ s + r) with (q * 2 ^ S s + r) by (rewrite Nat.pow_succ_r'; ring). reflexivity.
  - replace ((2 * q + 1) * 2 ^ s + r) with (q * 2 ^ S s + (r + 2 ^ s)) by (rewrite Nat.pow_succ_r'; ring). reflexivity.
Qed.
Lemma root_high : forall p s i, s < p -> root p (Z.of_nat (i * 2 ^ (p - S s))) = root (S s) (Z.of_nat i).
Proof.
  intros p s i Hs. rewrite Nat2Z.inj_mul, pow2_Z, Z.mul_comm. replace p with ((p - S s) + S s) at 1 by lia. apply rt_scale. exact Hok.
Qed.
Lemma root_flip : forall s q r, root (S s) (Z.of_nat (q * 2 ^ s + r)) = cmul (if Nat.even q then c1 else copp c1) (root (S s) (Z.of_nat r)).
Proof.
  intros s q r. rewrite Nat2Z.inj_add, (rt_add o Hok). apply f_equal2; [|reflexivity].
  rewrite Nat2Z.inj_mul, pow2_Z, Z.mul_comm. apply rt_sign. exact Hok.
Qed.
Lemma stage_odd : forall p X s b r, s < p ->
  stage p X s (2 * b + 1) r = cmul (csub (stage p X (S s) b r) (stage p X (S s) b (r + 2 ^ s))) (conj (root (S s) (Z.of_nat r))).
Proof.
  intros p X s b r Hs. unfold stage. replace (p - s) with (S (p - S s)) by lia. set (u := p - S s).
  rewrite rv_odd. rewrite Nat.pow_succ_r', (csum_2 o Hok).
  assert (Hr : forall i, root p (- Z.of_nat (i * (2 ^ u + rv u b))) = cmul (conj (root (S s) (Z.of_nat i))) (root p (- Z.of_nat (i * rv u b)))).
  { intros i. rewrite Nat.mul_add_distr_l, Nat2Z.inj_add, Z.opp_add_distr, (rt_add o Hok). rewrite (root_neg p (Z.of_nat (i * 2 ^ u))).
    unfold u. rewrite root_high by exact Hs. reflexivity. }
  rewrite (csum_ext o (2 ^ u) (fun i => cmul (X ((2 * i) * 2 ^ s + r)) _)
    (fun q => cmul (conj (root (S s) (Z.of_nat r))) (cmul (X (q * 2 ^ S s + r)) (root p (- Z.of_nat ((q * 2 ^ S s + r) * rv u b)))))).
  2:{ intros q _. rewrite Hr, root_flip. rewrite Nat.even_mul. cbn [Nat.even orb].
      replace (2 * q * 2 ^ s + r) with (q * 2 ^ S s + r) by (rewrite Nat.pow_succ_r'; ring).
      replace (cmul c1 (root (S s) (Z.of_nat r))) with (root (S s) (Z.of_nat r)) by ring. ring. }
  rewrite (csum_ext o (2 ^ u) (fun i => cmul (X ((2 * i + 1) * 2 ^ s + r)) _)
    (fun q => cmul (copp (conj (root (S s) (Z.of_nat r)))) (cmul (X (q * 2 ^ S s + (r + 2 ^ s))) (root p (- Z.of_nat ((q * 2 ^ S s + (r + 2 ^ s)) * rv u b)))))).
  2:{ intros q _. rewrite Hr, root_flip. rewrite Nat.even_add, Nat.even_mul. cbn [Nat.even orb Bool.eqb].
      replace ((2 * q + 1) * 2 ^ s + r) with (q * 2 ^ S s + (r + 2 ^ s)) by (rewrite Nat.pow_succ_r'; ring).
      rewrite conj_mul by exact Hok. replace (conj (copp c1)) with (copp c1); [ring|].
      unfold FFTModel.conj, FFTMath.copp, FFTMath.c1. cbn [fst snd]. apply f_equal2; ring. }
  rewrite !(csum_mul o Hok). ring.
Qed.

Lemma block1 : forall s b j, block_idx 1 s b j = [(2 * b) * 2 ^ s + j; (2 * b + 1) * 2 ^ s + j].
Proof.
  intros s b j. unfold block_idx. change (seq 0 (2 ^ 1)) with [0; 1]. cbn [map]. change (2 ^ 1) with 2.
  rewrite (Nat.mul_comm b 2), Nat.add_0_r. reflexivity.
Qed.
Lemma div_pow_half : forall p, 1 <= p -> 2 ^ p / 2 = 2 ^ (p - 1).
Proof. intros p H. replace p with (S (p - 1)) at 1 by lia. rewrite Nat.pow_succ_r'. apply div2_0. Qed.

(** A pass of pairs over 2^p elements. *)
Lemma pair_pass : forall p s (body : nat -> list C -> res (list C)) (f : C -> list C -> res (list C)) (g : C -> C -> C -> C * C),
  s < p <= 30 ->
  (forall jk y, body jk y = (v <- gets y (pair_idx s jk) ;; t <- slice o s (Z.of_nat (Nat.land jk (2 ^ s - 1))) ;; w <- f t v ;; sets y (pair_idx s jk) w)) ->
  (forall t a b, f t [a; b] = Ok [fst (g t a b); snd (g t a b)]) ->
  forall y, length y = 2 ^ p -> exists y', def_loop ord (2 ^ p / 2) body y = Ok y' /\ length y' = 2 ^ p /\
   forall b j, j < 2 ^ s -> b < 2 ^ (p - S s) ->
     let u := g (root (S s) (Z.of_nat j)) (nth ((2 * b) * 2 ^ s + j) y c0) (nth ((2 * b + 1) * 2 ^ s + j) y c0) in
     nth ((2 * b) * 2 ^ s + j) y' c0 = fst u /\ nth ((2 * b + 1) * 2 ^ s + j) y' c0 = snd u.
Proof.
  intros p s body f g Hs HB HF y Hy. rewrite div_pow_half by lia.
  destruct (radix_pass c0 ord p 1 s body (fun j v => t <- slice o s (Z.of_nat j) ;; f t v)
    (fun j v => match v with [a; b] => let u := g (root (S s) (Z.of_nat j)) a b in [fst u; snd u] | _ => [] end)) with (y := y) as (y' & E & L & V); auto; try lia.
  - intros jk z. rewrite HB, pair_idx_block, land_ones_mod. destruct (gets z (radix_idx 1 s jk)); cbn [bind]; auto.
    destruct (slice o s (Z.of_nat (jk mod 2 ^ s))); reflexivity.
  - intros j v Hj Hv. change (2 ^ 1) with 2 in *. destruct v as [|a [|b [|c v]]]; try discriminate Hv. rewrite (slice_ok o Hok). cbn [bind].
    rewrite HF. split; reflexivity.
  - exists y'. split; [exact E|]. split; [exact L|]. intros b j Hj Hb. specialize (V b j Hj). rewrite block1 in V. cbn [map] in V.
    replace (p - 1 - s) with (p - S s) in V by lia. specialize (V Hb). injection V as V0 V1. cbn zeta. split; assumption.
Qed.

Definition at_stage (p : nat) (y : list C) (S_ : nat -> nat -> nat -> C) (t : nat) : Prop :=
  forall b r, b < 2 ^ (p - t) -> r < 2 ^ t -> nth (b * 2 ^ t + r) y c0 = S_ t b r.

Lemma fft_pass : forall p X s y, s < p <= 30 -> length y = 2 ^ p -> at_stage p y (stage p X) (S s) ->
  exists y', def_loop ord (2 ^ p / 2) (fft_butterfly_s o s) y = Ok y' /\ length y' = 2 ^ p /\ at_stage p y' (stage p X) s.
Proof.
  intros p X s y Hs Hy HS.
  destruct (pair_pass p s (fft_butterfly_s o s) (fft_pair o) (fun t a b => (cadd a b, cmul (csub a b) (conj t)))) with (y := y) as (y' & E & L & V); auto.
  exists y'. split; [exact E|]. split; [exact L|]. intros b r Hb Hr.
  assert (Hb2 : b / 2 < 2 ^ (p - S s)). { apply half_lt. replace (p - s) with (S (p - S s)) in Hb by lia. rewrite Nat.pow_succ_r' in Hb. exact Hb. }
  destruct (V (b / 2) r Hr Hb2) as [V0 V1]. cbn [fst snd] in V0, V1.
  assert (R0 : nth (2 * (b / 2) * 2 ^ s + r) y c0 = stage p X (S s) (b / 2) r).
  { rewrite <- HS; [f_equal; rewrite Nat.pow_succ_r'; ring|exact Hb2|rewrite Nat.pow_succ_r'; lia]. }
  assert (R1 : nth ((2 * (b / 2) + 1) * 2 ^ s + r) y c0 = stage p X (S s) (b / 2) (r + 2 ^ s)).
  { rewrite <- HS; [f_equal; rewrite Nat.pow_succ_r'; ring|exact Hb2|rewrite Nat.pow_succ_r'; lia]. }
  rewrite R0, R1 in V0, V1. destruct (parity_split b) as [Eb|Eb]; rewrite Eb; set (c := b / 2) in *.
  - rewrite V0. symmetry. apply stage_even. lia.
  - rewrite V1. symmetry. apply stage_odd. lia.
Qed.
Lemma fft_passes : forall p X k y, k <= p <= 30 -> length y = 2 ^ p -> at_stage p y (stage p X) k ->
  exists y', over (rev (seq 0 k)) (fun s => def_loop ord (2 ^ p / 2) (fft_butterfly_s o s)) y = Ok y' /\ length y' = 2 ^ p /\ at_stage p y' (stage p X) 0.
Proof.
  intros p X k. induction k as [|k IH]; intros y Hk Hy HS.
  - exists y. cbn [seq rev over]. auto.
  - rewrite seq_S, rev_app_distr. cbn [rev app Nat.add over].
    destruct (fft_pass p X k y ltac:(lia) Hy HS) as (y1 & E & L & HS1). rewrite E. cbn [bind]. apply IH; auto. lia.
Qed.
Lemma fft_bitrev_ok : forall p x y, p <= 29 -> length y = 2 ^ p -> length x <= 2 * 2 ^ p ->
  exists y', fft_bitrev o ord y x = Ok y' /\ length y' = 2 ^ p /\ forall b, b < 2 ^ p -> nth b y' c0 = dft o p (packed o x) (rv p b).
Proof.
  intros p x y Hp Hy Hx. unfold fft_bitrev. rewrite Hy, ctz_p. destruct (Nat.eqb_spec (2 ^ p) 0) as [E|_]; [pose proof (pow2_pos p); lia|].
  rewrite pow2_Z, Z.eqb_refl. destruct (Nat.leb_spec (length x) (2 * 2 ^ p)); [|lia]. cbn [andb slow_assert bind].
  destruct (load_ok p x y Hp Hy) as (y1 & E1 & L1 & V1). rewrite E1. cbn [bind]. rewrite Nat2Z.id.
  destruct (fft_passes p (packed o x) p y1 ltac:(lia) L1) as (y2 & E2 & L2 & V2).
  { intros b r Hb Hr. rewrite Nat.sub_diag in Hb. cbn in Hb. replace b with 0 by lia. rewrite stage_top. cbn [Nat.mul Nat.add]. apply V1. exact Hr. }
  exists y2. split; [exact E2|]. split; [exact L2|]. intros b Hb. specialize (V2 b 0). rewrite Nat.sub_0_r in V2.
  specialize (V2 Hb (Nat.lt_0_1)). replace (b * 2 ^ 0 + 0) with b in V2 by (cbn; lia). rewrite V2. unfold stage, dft. rewrite Nat.sub_0_r.
  apply csum_ext. intros q Hq. replace (q * 2 ^ 0 + 0) with q by (cbn; lia). reflexivity.
Qed.
Theorem fft_ok : forall p x y, 1 <= p <= 29 -> length y = 2 ^ p -> length x <= 2 * 2 ^ p ->
  exists y', fft o ord y x = Ok y' /\ length y' = 2 ^ p /\ forall k, k < 2 ^ p -> nth k y' c0 = dft o p (packed o x) k.
Proof.
  intros p x y Hp Hy Hx. unfold fft. destruct (fft_bitrev_ok p x y ltac:(lia) Hy Hx) as (y1 & E1 & L1 & V1). rewrite E1. cbn [bind].
  destruct (bitrev_ok c0 p y1 ltac:(lia) L1) as (y2 & E2 & L2 & V2). exists y2. split; [exact E2|]. split; [exact L2|].
  intros k Hk. rewrite V2 by exact Hk. rewrite V1 by apply rv_lt. rewrite rv_invol by exact Hk. reflexivity.
Qed.

(** ** Inverse passes: decimation in time *)
Definition istage (y : nat -> C) (t b r : nat) : C :=
  csum (2 ^ t) (fun c => cmul (y (b * 2 ^ t + c)) (root t (Z.of_nat (r * rv t c)))).
Lemma istage_step : forall y s b r, istage y (S s) b r =
  cadd (istage y s (2 * b) r) (cmul (istage y s (2 * b + 1) r) (root (S s) (Z.of_nat r))).
Proof.
  intros y s b r. unfold istage. replace (2 ^ S s) with (2 ^ s + 2 ^ s) by (rewrite Nat.pow_succ_r'; lia). rewrite (csum_app o Hok).
  apply f_equal2.
  - apply csum_ext. intros c Hc. apply f_equal2; [f_equal; ring|]. rewrite rv_top0 by exact Hc.
    replace (Z.of_nat (r * (2 * rv s c))) with (2 * Z.of_nat (r * rv s c))%Z by lia. apply (rt_dbl o Hok).
  - transitivity (cmul (root (S s) (Z.of_nat r)) (csum (2 ^ s) (fun c => cmul (y ((2 * b + 1) * 2 ^ s + c)) (root s (Z.of_nat (r * rv s c)))))).
    2: ring.
    rewrite <- (csum_mul o Hok). apply csum_ext. intros c Hc. rewrite rv_top1 by exact Hc.
    replace (Z.of_nat (r * (2 * rv s c + 1))) with (2 * Z.of_nat (r * rv s c) + Z.of_nat r)%Z by lia. rewrite (rt_add o Hok), (rt_dbl o Hok).
    replace (b * (2 ^ s + 2 ^ s) + (2 ^ s + c)) with ((2 * b + 1) * 2 ^ s + c) by ring. ring.
Qed.
Lemma istage_period : forall y s b r, istage y s b (r + 2 ^ s) = istage y s b r.
Proof.
  intros y s b r. apply csum_ext. intros c Hc. apply f_equal2; [reflexivity|].
  replace (Z.of_nat ((r + 2 ^ s) * rv s c)) with (Z.of_nat (r * rv s c) + 2 ^ Z.of_nat s * Z.of_nat (rv s c))%Z.
  - apply rt_period. exact Hok.
  - rewrite <- pow2_Z. lia.
Qed.
Lemma root_shift_half : forall s r, root (S s) (Z.of_nat (r + 2 ^ s)) = copp (root (S s) (Z.of_nat r)).
Proof. intros s r. replace (r + 2 ^ s) with (1 * 2 ^ s + r) by lia. rewrite root_flip. cbn [Nat.even]. ring. Qed.
Lemma ifft_pass : forall p Y s y, s < p <= 30 -> length y = 2 ^ p -> at_stage p y (istage Y) s ->
  exists y', def_loop ord (2 ^ p / 2) (ifft_butterfly_s o s) y = Ok y' /\ length y' = 2 ^ p /\ at_stage p y' (istage Y) (S s).
Proof.
  intros p Y s y Hs Hy HS.
  destruct (pair_pass p s (ifft_butterfly_s o s) (ifft_pair o) (fun t a b => (cadd a (cmul b t), csub a (cmul b t)))) with (y := y) as (y' & E & L & V); auto.
  exists y'. split; [exact E|]. split; [exact L|]. intros b r Hb Hr.
  assert (Hq : 2 ^ (p - s) = 2 * 2 ^ (p - S s)) by (replace (p - s) with (S (p - S s)) by lia; apply Nat.pow_succ_r').
  assert (Step : forall j, j < 2 ^ s -> nth (b * 2 ^ S s + j) y' c0 = istage Y (S s) b j /\ nth (b * 2 ^ S s + (j + 2 ^ s)) y' c0 = istage Y (S s) b (j + 2 ^ s)).
  { intros j Hj. destruct (V b j Hj Hb) as [V0 V1]. cbn [fst snd] in V0, V1. rewrite !HS in V0, V1 by lia.
    replace (b * 2 ^ S s + j) with (2 * b * 2 ^ s + j) by (rewrite Nat.pow_succ_r'; ring).
    replace (b * 2 ^ S s + (j + 2 ^ s)) with ((2 * b + 1) * 2 ^ s + j) by (rewrite Nat.pow_succ_r'; ring).
    rewrite V0, V1, !istage_step, !istage_period, root_shift_half. split; ring. }
  destruct (Nat.lt_ge_cases r (2 ^ s)) as [Hl|Hg]; [apply Step; exact Hl|].
  rewrite Nat.pow_succ_r' in Hr. replace r with ((r - 2 ^ s) + 2 ^ s) by lia. apply Step. lia.
Qed.
Lemma ifft_passes : forall p Y k s y, s + k <= p -> p <= 30 -> length y = 2 ^ p -> at_stage p y (istage Y) s ->
  exists y', over (seq s k) (fun s => def_loop ord (2 ^ p / 2) (ifft_butterfly_s o s)) y = Ok y' /\ length y' = 2 ^ p /\ at_stage p y' (istage Y) (s + k).
Proof.
  intros p Y k. induction k as [|k IH]; intros s y Hk Hp Hy HS.
  - exists y. cbn [seq over]. rewrite Nat.add_0_r. auto.
  - cbn [seq over]. destruct (ifft_pass p Y s y ltac:(lia) Hy HS) as (y1 & E & L & HS1). rewrite E. cbn [bind].
    replace (s + S k) with (S s + k) by lia. apply IH; auto. lia.
Qed.
(** fft.cc:237 *)
Lemma store_ok : forall p x y, p <= 29 -> length y = 2 ^ p -> length x <= 2 * 2 ^ p ->
  exists x', def_loop ord (length x) (ifft_butterfly_0 o y) x = Ok x' /\ length x' = length x /\
    forall i, i < length x -> nth i x' (z0 o) = comp y i.
Proof.
  intros p x y Hp Hy Hx. destruct (def_loop_run ord _ (length x) (ifft_butterfly_0 o y) x Hord) as (L & E & ND & HL).
  { pose proof (pow_bound (S p) 30 ltac:(lia)) as H. rewrite Nat.pow_succ_r' in H. change (Z.of_nat 30) with 30%Z in H. lia. }
  rewrite E. destruct (run_local (z0 o) (length x) (ifft_butterfly_0 o y) (fun j => [j]) (fun j i a => comp y i) L) with (y := x) as (x' & E' & L' & V & _); auto.
  - intros j j' i _ _ [H|[]] [H'|[]]. congruence.
  - intros j z Hj Hz. apply HL in Hj. unfold ifft_butterfly_0, get_real. rewrite (aget_ok c0) by (rewrite Hy; apply half_lt; lia). cbn [bind].
    rewrite aset_ok by lia. eexists. split; [reflexivity|]. split; [rewrite upd_length; exact Hz|]. split.
    + intros i [<-|[]]. rewrite upd_nth by lia. rewrite Nat.eqb_refl. reflexivity.
    + intros i Hi. rewrite upd_nth by lia. destruct (Nat.eqb_spec i j) as [->|]; [exfalso; apply Hi; left; reflexivity|reflexivity].
  - exists x'. split; [exact E'|]. split; [exact L'|]. intros i Hi. apply (V i i); [apply HL; exact Hi|left; reflexivity].
Qed.
Lemma csum_rv : forall p f, csum (2 ^ p) (fun c => f (rv p c)) = csum (2 ^ p) f.
Proof.
  induction p as [|p IH]; intros f; [reflexivity|]. rewrite Nat.pow_succ_r', (csum_2 o Hok).
  rewrite (csum_ext o (2 ^ p) (fun i => f (rv (S p) (2 * i))) (fun i => f (rv p i))) by (intros i _; rewrite rv_even; reflexivity).
  rewrite (csum_ext o (2 ^ p) (fun i => f (rv (S p) (2 * i + 1))) (fun i => f (2 ^ p + rv p i))) by (intros i _; rewrite rv_odd; reflexivity).
  rewrite IH. rewrite (IH (fun c => f (2 ^ p + c))). replace (2 * 2 ^ p) with (2 ^ p + 2 ^ p) by lia. rewrite (csum_app o Hok). reflexivity.
Qed.
Definition part (i : nat) (z : C) : A := if Nat.even i then fst z else snd z.
Lemma ifft_bitrev_ok : forall p x y Y, p <= 29 -> length y = 2 ^ p -> length x <= 2 * 2 ^ p ->
  (forall b, b < 2 ^ p -> nth b y c0 = Y (rv p b)) ->
  exists x' y', ifft_bitrev o ord x y = Ok (x', y') /\ length x' = length x /\ length y' = length y /\
    forall i, i < length x -> nth i x' (z0 o) = part i (idft o p Y (i / 2)).
Proof.
  intros p x y Y Hp Hy Hx HY. unfold ifft_bitrev. rewrite Hy, ctz_p. destruct (Nat.eqb_spec (2 ^ p) 0) as [E|_]; [pose proof (pow2_pos p); lia|].
  rewrite pow2_Z, Z.eqb_refl. destruct (Nat.leb_spec (length x) (2 * 2 ^ p)); [|lia]. cbn [andb slow_assert bind]. rewrite Nat2Z.id.
  destruct (ifft_passes p (fun b => nth b y c0) p 0 y ltac:(lia) ltac:(lia) Hy) as (y1 & E1 & L1 & V1).
  { intros b r Hb Hr. cbn in Hr. replace r with 0 by lia. unfold istage. cbn [Nat.pow FFTMath.csum rv]. cbn [Nat.mul]. change (Z.of_nat 0) with 0%Z. rewrite (rt_0 o Hok).
    change (z1 o, z0 o) with c1. replace (b * 1 + 0) with b by lia. ring. }
  rewrite E1. cbn [bind]. destruct (store_ok p x y1 Hp L1 Hx) as (x' & E2 & L2 & V2). rewrite E2. cbn [bind].
  exists x', y1. split; [reflexivity|]. split; [exact L2|]. split; [exact L1|]. intros i Hi. rewrite V2 by exact Hi.
  cbn [Nat.add] in V1. specialize (V1 0 (i / 2)). rewrite Nat.sub_diag in V1. specialize (V1 Nat.lt_0_1 (half_lt i (2 ^ p) ltac:(lia))).
  cbn [Nat.mul Nat.add] in V1. unfold comp, part. rewrite V1.
  replace (istage (fun b => nth b y c0) p 0 (i / 2)) with (idft o p Y (i / 2)); [reflexivity|].
  unfold istage, idft. rewrite <- (csum_rv p (fun k => cmul (Y k) (root p (Z.of_nat (i / 2 * k))))).
  apply csum_ext. intros c Hc. cbn [Nat.mul Nat.add]. rewrite HY by exact Hc. reflexivity.
Qed.
Theorem ifft_ok : forall p x y, 1 <= p <= 29 -> length y = 2 ^ p -> length x <= 2 * 2 ^ p ->
  exists x' y', ifft o ord x y = Ok (x', y') /\ length x' = length x /\ length y' = length y /\
    forall i, i < length x -> nth i x' (z0 o) = part i (idft o p (fun k => nth k y c0) (i / 2)).
Proof.
  intros p x y Hp Hy Hx. unfold ifft. destruct (bitrev_ok c0 p y ltac:(lia) Hy) as (y1 & E1 & L1 & V1). rewrite E1. cbn [bind].
  destruct (ifft_bitrev_ok p x y1 (fun k => nth k y c0) ltac:(lia) L1 Hx V1) as (x' & y' & E & H1 & H2 & H3).
  exists x', y'. rewrite E. repeat (split; auto). lia.
Qed.

(** ** Orthogonality of the roots *)
Fixpoint cpow2 (p : nat) : C := match p with O => c1 | S q => cadd (cpow2 q) (cpow2 q) end.
Lemma csum_const1 : forall p, csum (2 ^ p) (fun _ => c1) = cpow2 p.
Proof.
  induction p as [|p IH]; [cbn [Nat.pow FFTMath.csum cpow2]; ring|]. rewrite Nat.pow_succ_r'. replace (2 * 2 ^ p) with (2 ^ p + 2 ^ p) by lia.
  rewrite (csum_app o Hok), IH. reflexivity.
Qed.
Lemma orth : forall p (e : Z), csum (2 ^ p) (fun k => root p (e * Z.of_nat k)) = if (e mod 2 ^ Z.of_nat p =? 0)%Z then cpow2 p else c0.
Proof.
  induction p as [|p IH]; intros e.
  - cbn [Nat.pow FFTMath.csum cpow2]. change (2 ^ Z.of_nat 0)%Z with 1%Z. rewrite Z.mod_1_r. cbn [Z.eqb]. rewrite rt_0_any by exact Hok. ring.
  - rewrite Nat.pow_succ_r'. replace (2 * 2 ^ p) with (2 ^ p + 2 ^ p) by lia. rewrite (csum_app o Hok).
    rewrite Nat2Z.inj_succ, Z.pow_succ_r by lia. pose proof (Z.pow_pos_nonneg 2 (Z.of_nat p) ltac:(lia) ltac:(lia)) as Hpos.
    pose proof (Z.div_mod e 2 ltac:(lia)) as De. pose proof (Z.mod_pos_bound e 2 ltac:(lia)) as Db.
    assert (He : (e = 2 * (e / 2) \/ e = 2 * (e / 2) + 1)%Z) by lia. clear De Db. destruct He as [He|He]; set (f := (e / 2)%Z) in *.
    + rewrite He. rewrite (csum_ext o (2 ^ p) (fun k => root (S p) (2 * f * Z.of_nat k)) (fun k => root p (f * Z.of_nat k))).
      2:{ intros k _. rewrite <- Z.mul_assoc. apply (rt_dbl o Hok). }
      rewrite (csum_ext o (2 ^ p) (fun k => root (S p) (2 * f * Z.of_nat (2 ^ p + k))) (fun k => root p (f * Z.of_nat k))).
      2:{ intros k _. rewrite <- Z.mul_assoc, (rt_dbl o Hok). rewrite Nat2Z.inj_add, pow2_Z.
          replace (f * (2 ^ Z.of_nat p + Z.of_nat k))%Z with (f * Z.of_nat k + 2 ^ Z.of_nat p * f)%Z by ring. apply rt_period. exact Hok. }
      rewrite IH. rewrite Z.mul_mod_distr_l by lia. replace (2 * (f mod 2 ^ Z.of_nat p) =? 0)%Z with (f mod 2 ^ Z.of_nat p =? 0)%Z.
      2:{ destruct (Z.eqb_spec (f mod 2 ^ Z.of_nat p) 0), (Z.eqb_spec (2 * (f mod 2 ^ Z.of_nat p)) 0); lia. }
      destruct (f mod 2 ^ Z.of_nat p =? 0)%Z; [reflexivity|ring].
    + rewrite (csum_ext o (2 ^ p) (fun k => root (S p) (e * Z.of_nat (2 ^ p + k))) (fun k => cmul (copp c1) (root (S p) (e * Z.of_nat k)))).
      2:{ intros k _. rewrite Nat2Z.inj_add, pow2_Z, Z.mul_add_distr_l, (rt_add o Hok). apply f_equal2; [|reflexivity].
          rewrite He. replace ((2 * f + 1) * 2 ^ Z.of_nat p)%Z with (2 ^ Z.of_nat p + 2 ^ Z.of_nat (S p) * f)%Z.
          - rewrite rt_period by exact Hok. apply rt_half. exact Hok.
          - rewrite Nat2Z.inj_succ, Z.pow_succ_r by lia. ring. }
      rewrite (csum_mul o Hok). destruct (Z.eqb_spec (e mod (2 * 2 ^ Z.of_nat p)) 0) as [Em|_]; [|ring].
      exfalso. apply Z.mod_divide in Em; [|lia]. destruct Em as [g Eg]. lia.
Qed.
Lemma csum_swap : forall n m f, csum n (fun i => csum m (f i)) = csum m (fun j => csum n (fun i => f i j)).
Proof.
  induction n as [|n IH]; intros m f.
  - cbn [FFTMath.csum]. rewrite csum_0; auto.
  - cbn [FFTMath.csum]. rewrite IH. rewrite <- (csum_add o Hok). reflexivity.
Qed.
Lemma idft_dft : forall p X j, j < 2 ^ p -> idft o p (dft o p X) j = cmul (cpow2 p) (X j).
Proof.
  intros p X j Hj. unfold idft, dft.
  rewrite (csum_ext o (2 ^ p) _ (fun k => csum (2 ^ p) (fun i => cmul (X i) (root p ((Z.of_nat j - Z.of_nat i) * Z.of_nat k))))).
  2:{ intros k _. transitivity (cmul (root p (Z.of_nat (j * k))) (csum (2 ^ p) (fun i => cmul (X i) (root p (- Z.of_nat (i * k)))))); [ring|].
      rewrite <- (csum_mul o Hok). apply csum_ext. intros i _.
      replace ((Z.of_nat j - Z.of_nat i) * Z.of_nat k)%Z with (Z.of_nat (j * k) + - Z.of_nat (i * k))%Z by lia.
      rewrite (rt_add o Hok). ring. }
  rewrite csum_swap. rewrite (csum_ext o (2 ^ p) _ (fun i => cmul (X i) (if i =? j then cpow2 p else c0))).
  2:{ intros i Hi. rewrite (csum_mul o Hok). apply f_equal2; [reflexivity|]. rewrite orth. rewrite <- pow2_Z.
      destruct (Nat.eqb_spec i j) as [->|N].
      - rewrite Z.sub_diag, Z.mod_0_l by (pose proof (pow2_pos p); lia). reflexivity.
      - destruct (Z.eqb_spec ((Z.of_nat j - Z.of_nat i) mod Z.of_nat (2 ^ p)) 0) as [E|_]; [|reflexivity]. exfalso.
        apply Z.mod_divide in E; [|pose proof (pow2_pos p); lia]. destruct E as [g Eg]. assert (g = 0 \/ g <= -1 \/ 1 <= g)%Z by lia. nia. }
  rewrite (csum_single o Hok (2 ^ p) _ j Hj).
  - rewrite Nat.eqb_refl. ring.
  - intros i Hi Ni. destruct (Nat.eqb_spec i j); [contradiction|ring].
Qed.
Lemma idft_ext : forall p Y Z j, (forall k, k < 2 ^ p -> Y k = Z k) -> idft o p Y j = idft o p Z j.
Proof. intros p Y Z j H. apply csum_ext. intros k Hk. rewrite H by exact Hk. reflexivity. Qed.
Lemma dft_ext : forall p Y Z j, (forall k, k < 2 ^ p -> Y k = Z k) -> dft o p Y j = dft o p Z j.
Proof. intros p Y Z j H. apply csum_ext. intros k Hk. rewrite H by exact Hk. reflexivity. Qed.
Lemma cpow2_times : forall p z, cmul (cpow2 p) z = (times2 o p (fst z), times2 o p (snd z)).
Proof.
  induction p as [|p IH]; intros z.
  - cbn [cpow2 times2]. rewrite <- surjective_pairing. ring.
  - cbn [cpow2 times2]. transitivity (cadd (cmul (cpow2 p) z) (cmul (cpow2 p) z)); [ring|]. rewrite IH. reflexivity.
Qed.
Theorem ifft_fft : forall p x0 x y y', 1 <= p <= 29 -> length y = 2 ^ p -> length x0 <= 2 * 2 ^ p -> length x <= 2 * 2 ^ p ->
  fft o ord y x0 = Ok y' -> exists x' y2, ifft o ord x y' = Ok (x', y2) /\ length x' = length x /\
    forall i, i < length x -> nth i x' (z0 o) = times2 o p (nth i x0 (z0 o)).
Proof.
  intros p x0 x y y' Hp Hy Hx0 Hx E. destruct (fft_ok p x0 y Hp Hy Hx0) as (y1 & E1 & L1 & V1). rewrite E1 in E. injection E as ->.
  destruct (ifft_ok p x y' Hp L1 Hx) as (x' & y2 & E2 & L2 & L3 & V2). exists x', y2. split; [exact E2|]. split; [exact L2|].
  intros i Hi. rewrite V2 by exact Hi. rewrite (idft_ext p _ (dft o p (packed o x0))) by exact V1.
  rewrite idft_dft by (apply half_lt; lia). rewrite cpow2_times. unfold part, packed. cbn [fst snd].
  destruct (parity_split i) as [Ei|Ei].
  - assert (Ev : Nat.even i = true) by (rewrite Ei, Nat.even_mul; reflexivity). rewrite Ev, <- Ei. reflexivity.
  - assert (Ev : Nat.even i = false) by (rewrite Ei, Nat.even_add, Nat.even_mul; reflexivity). rewrite Ev, <- Ei. reflexivity.
Qed.
End F.
