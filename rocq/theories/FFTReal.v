(** The real FFT and its inverse (fft.cc:251-344). *)
From Coq Require Import ZArith Arith ArithRing List Bool Lia Ring.
From Verif Require Import Base SeriesModel SeriesProofs NewtonProofs FFTModel FFTLoop FFTMath FFTTwiddle FFTPerm FFTSpec FFTProofs.
Import ListNotations.
Open Scope nat_scope.

(** ** Index pairs *)
Lemma rfft_idx_pos : forall j, 0 < j -> rfft_idx j = [2 * j; 2 * bitrev_neg j + 1].
Proof. intros j H. unfold rfft_idx. destruct (Nat.eqb_spec j 0); [lia|]. rewrite bneg_even by exact H. reflexivity. Qed.
Lemma bneg_pos : forall q i, 0 < i < 2 ^ q -> 0 < bitrev_neg i.
Proof. intros q i H. rewrite (bneg_rv q i H). apply rv_pos. pose proof (rv_pos q i H). pose proof (rv_lt q i). lia. Qed.
Lemma rfft_idx_in : forall q j i, j < 2 ^ q -> In i (rfft_idx j) -> i < 2 ^ S q.
Proof.
  intros q j i Hj Hi. rewrite Nat.pow_succ_r'. destruct (Nat.eq_dec j 0) as [->|N].
  - unfold rfft_idx in Hi. cbn in Hi. pose proof (pow2_pos q). lia.
  - rewrite rfft_idx_pos in Hi by lia. pose proof (bneg_lt q j ltac:(lia)). destruct Hi as [<-|[<-|[]]]; lia.
Qed.
Lemma rfft_idx_nodup : forall j, NoDup (rfft_idx j).
Proof.
  intros j. destruct (Nat.eq_dec j 0) as [->|N].
  - unfold rfft_idx. cbn. constructor; [intros [H|[]]; lia|]. constructor; [intros []|constructor].
  - rewrite rfft_idx_pos by lia. constructor; [intros [H|[]]; lia|]. constructor; [intros []|constructor].
Qed.
Lemma rfft_idx_disj : forall q j j' i, j < 2 ^ q -> j' < 2 ^ q -> In i (rfft_idx j) -> In i (rfft_idx j') -> j = j'.
Proof.
  intros q j j' i Hj Hj' Hi Hi'.
  assert (H0 : forall m, m < 2 ^ q -> In i (rfft_idx m) -> (i = 2 * m \/ (m = 0 /\ i = 1) \/ (0 < m /\ 0 < bitrev_neg m /\ i = 2 * bitrev_neg m + 1))).
  { intros m Hm Hin. destruct (Nat.eq_dec m 0) as [->|N].
    - unfold rfft_idx in Hin. cbn in Hin. lia.
    - rewrite rfft_idx_pos in Hin by lia. pose proof (bneg_pos q m ltac:(lia)). destruct Hin as [<-|[<-|[]]]; [left; reflexivity|right; right; lia]. }
  destruct (H0 j Hj Hi) as [E|[[E1 E2]|(E1 & E2 & E3)]], (H0 j' Hj' Hi') as [F|[[F1 F2]|(F1 & F2 & F3)]]; try lia.
  assert (Eb : bitrev_neg j = bitrev_neg j') by lia.
  rewrite <- (bneg_invol q j), <- (bneg_invol q j') by lia. rewrite Eb. reflexivity.
Qed.
Lemma rfft_idx_cover : forall q i, i < 2 ^ S q -> exists j, j < 2 ^ q /\ In i (rfft_idx j).
Proof.
  intros q i Hi. rewrite Nat.pow_succ_r' in Hi. destruct (parity_split i) as [E|E].
  - exists (i / 2). split; [lia|]. left. symmetry. exact E.
  - destruct (Nat.eq_dec (i / 2) 0) as [Z|N].
    + exists 0. split; [apply pow2_pos|]. right. left. cbn. lia.
    + exists (bitrev_neg (i / 2)). split; [apply bneg_lt; lia|]. rewrite rfft_idx_pos by (apply (bneg_pos q); lia).
      rewrite (bneg_invol q) by lia. right. left. symmetry. exact E.
Qed.

Section R.
Variable o : ops.
Hypothesis Hok : ops_ok o.
Variable ord : Z -> list nat.
Hypothesis Hord : sched_ok ord.
Notation A := (FFTModel.A o).
Notation C := (FFTModel.A o * FFTModel.A o)%type.
Add Ring AringR : (ok_ring o Hok).
Add Ring CringR : (C_ring o Hok).
Notation cadd := (FFTModel.cadd o). Notation csub := (FFTModel.csub o). Notation cmul := (FFTModel.cmul o).
Notation conj := (FFTModel.conj o). Notation c0 := (FFTModel.c0 o). Notation c1 := (FFTMath.c1 o). Notation copp := (FFTMath.copp o).
Notation ci := (FFTMath.ci o).
Notation root := (FFTModel.root o). Notation csum := (FFTMath.csum o).
Notation at_ := (fun (y : list C) i => nth i y c0).

Ltac cr := unfold FFTModel.cadd, FFTModel.csub, FFTModel.cmul, FFTModel.conj, FFTModel.c0, FFTMath.c1, FFTMath.copp, FFTMath.ci,
  FFTModel.left, FFTModel.right in *; cbn [fst snd] in *; apply f_equal2; ring.

Lemma half_twice : forall a : A, half o (add o a a) = a.
Proof.
  intros a. rewrite (ok_half o Hok). replace (mul o (half o (z1 o)) (add o a a)) with (mul o (add o (half o (z1 o)) (half o (z1 o))) a) by ring.
  rewrite (ok_half1 o Hok). ring.
Qed.
Lemma chalf_twice : forall z : C, chalf o (cadd z z) = z.
Proof. intros [a b]. unfold chalf, FFTModel.cadd. cbn [fst snd]. rewrite !half_twice. reflexivity. Qed.
Lemma twice_0 : forall a : A, add o a a = z0 o -> a = z0 o.
Proof. intros a H. rewrite <- (half_twice a), H. replace (z0 o) with (add o (z0 o) (z0 o)) at 1 by ring. rewrite half_twice. reflexivity. Qed.
Lemma conj_real : forall z : C, conj z = z -> snd z = z0 o.
Proof.
  intros [a b] H. unfold FFTModel.conj in H. cbn [fst snd] in *. injection H as H. apply twice_0.
  rewrite <- H at 1. ring.
Qed.

(** Half-length transforms of a real sequence. *)
Definition G (q : nat) (a : nat -> A) (k : nat) : C := csum (2 ^ q) (fun j => cmul (a j, z0 o) (root q (- Z.of_nat (j * k)))).
Lemma G_conj : forall q a k, k <= 2 ^ q -> conj (G q a k) = G q a (2 ^ q - k).
Proof.
  intros q a k Hk. unfold G. rewrite (csum_conj o Hok). apply csum_ext. intros j _. rewrite (conj_mul o Hok).
  apply f_equal2; [cr|]. rewrite <- (rt_conj o Hok), Z.opp_involutive.
  replace (- Z.of_nat (j * (2 ^ q - k)))%Z with (Z.of_nat (j * k) + 2 ^ Z.of_nat q * - Z.of_nat j)%Z.
  - symmetry. apply rt_period. exact Hok.
  - rewrite <- pow2_Z. nia.
Qed.
Lemma packed_split : forall q x k, dft o q (packed o x) k =
  cadd (G q (fun j => nth (2 * j) x (z0 o)) k) (cmul ci (G q (fun j => nth (2 * j + 1) x (z0 o)) k)).
Proof.
  intros q x k. unfold dft, G. rewrite <- (csum_mul o Hok), <- (csum_add o Hok). apply csum_ext. intros j _.
  unfold packed. set (w := root q _). destruct w as [wr wi]. cr.
Qed.
Lemma real_split : forall q x k, dft o (S q) (realc o x) k =
  cadd (G q (fun j => nth (2 * j) x (z0 o)) k) (cmul (conj (root (S q) (Z.of_nat k))) (G q (fun j => nth (2 * j + 1) x (z0 o)) k)).
Proof.
  intros q x k. unfold dft, G. rewrite Nat.pow_succ_r', (csum_2 o Hok). rewrite <- (csum_mul o Hok). apply f_equal2; apply csum_ext; intros j _; unfold realc.
  - apply f_equal2; [reflexivity|]. replace (- Z.of_nat (2 * j * k))%Z with (2 * - Z.of_nat (j * k))%Z by lia. apply (rt_dbl o Hok).
  - replace (- Z.of_nat ((2 * j + 1) * k))%Z with (2 * - Z.of_nat (j * k) + - Z.of_nat k)%Z by lia.
    rewrite (rt_add o Hok), (rt_dbl o Hok). rewrite (rt_conj o Hok _ (Z.of_nat k)). ring.
Qed.
Lemma root_co : forall q k, k <= 2 ^ q -> root (S q) (Z.of_nat (2 ^ q - k)) = copp (conj (root (S q) (Z.of_nat k))).
Proof.
  intros q k Hk. rewrite Nat2Z.inj_sub by exact Hk. rewrite (rt_sub o Hok), pow2_Z, (rt_half o Hok). ring.
Qed.

(** fft.cc:266 *)
Lemma rfft_tw : forall q j, j < 2 ^ q -> q <= 31 -> (bitreverse 32 (Z.of_nat j) / 2 ^ (34 - Z.of_nat (S (S q))) = Z.of_nat (rv (S q) (2 * j)))%Z.
Proof.
  intros q j Hj Hq. rewrite rv_even. replace 32 with (q + (32 - q)) by lia. rewrite bitreverse_rv by exact Hj.
  replace (34 - Z.of_nat (S (S q)))%Z with (Z.of_nat (32 - q)) by lia. rewrite Z.mul_comm, Z.div_mul by (apply Z.pow_nonzero; lia). reflexivity.
Qed.

Lemma quarter_cnt : forall q, 2 * 2 ^ S q / 4 = 2 ^ q.
Proof. intros q. rewrite Nat.pow_succ_r'. replace (2 * (2 * 2 ^ q)) with (2 ^ q * 4) by lia. apply Nat.div_mul. lia. Qed.
(** A pass over the index pairs. *)
Lemma rfft_pass : forall q (f : nat -> list C -> res (list C)) (g : nat -> C -> C -> C * C) (body : nat -> list C -> res (list C)),
  q <= 29 ->
  (forall j y, body j y = (v <- gets y (rfft_idx j) ;; w <- f j v ;; sets y (rfft_idx j) w)) ->
  (forall j a b, j < 2 ^ q -> f j [a; b] = Ok [fst (g j a b); snd (g j a b)]) ->
  forall y, length y = 2 ^ S q -> exists y', def_loop ord (2 * 2 ^ S q / 4) body y = Ok y' /\ length y' = 2 ^ S q /\
    (forall a b, g 0 (nth 0 y c0) (nth 1 y c0) = (a, b) -> nth 0 y' c0 = a /\ nth 1 y' c0 = b) /\
    (forall j, 0 < j < 2 ^ q -> let u := g j (nth (2 * j) y c0) (nth (bitrev_neg (2 * j)) y c0) in
       nth (2 * j) y' c0 = fst u /\ nth (bitrev_neg (2 * j)) y' c0 = snd u).
Proof.
  intros q f g body Hq HB HF y Hy. rewrite quarter_cnt.
  destruct (def_loop_run ord _ (2 ^ q) body y Hord) as (L & E & ND & HL).
  { pose proof (pow_bound q 30 ltac:(lia)) as H. change (Z.of_nat 30) with 30%Z in H. lia. }
  rewrite E.
  assert (Len2 : forall j, length (rfft_idx j) = 2) by reflexivity.
  destruct (run_gather c0 (2 ^ S q) body rfft_idx (fun j v => match v with [a; b] => [fst (g j a b); snd (g j a b)] | _ => v end) L) with (y := y)
    as (y' & E' & L' & V & _); auto.
  - intros j j' i Hj Hj'. apply rfft_idx_disj with (q := q); apply HL; assumption.
  - intros j Hj. split; [apply rfft_idx_nodup|]. intros i Hi. apply (rfft_idx_in q j); [apply HL; exact Hj|exact Hi].
  - intros j v Hj Hv. rewrite Len2 in *. destruct v as [|a [|b [|]]]; try discriminate Hv. reflexivity.
  - intros j z Hj Hz. rewrite HB. apply HL in Hj. rewrite (gets_ok c0) by (intros i Hi; rewrite Hz; apply (rfft_idx_in q j); assumption).
    cbn [bind]. unfold rfft_idx at 1. cbn [map]. rewrite HF by exact Hj. reflexivity.
  - exists y'. split; [exact E'|]. split; [exact L'|]. split.
    + intros a b Eg. pose proof (V 0 ltac:(apply HL; apply pow2_pos)) as V0. cbn in V0.
      rewrite Eg in V0. cbn [fst snd] in V0. injection V0 as V0 V1. auto.
    + intros j Hj. pose proof (V j ltac:(apply HL; lia)) as V0. unfold rfft_idx in V0. cbn [map] in V0. destruct (Nat.eqb_spec j 0); [lia|].
      injection V0 as V0 V1. cbn zeta. auto.
Qed.

(** ** rfft *)
Lemma rv_half : forall q, rv (S q) 1 = 2 ^ q.
Proof. intros q. pose proof (rv_odd q 0) as H. rewrite rv_0 in H. change (2 * 0 + 1) with 1 in H. lia. Qed.
Lemma cover_spec : forall q (P : nat -> Prop), P 1 -> (forall j, 0 < j < 2 ^ q -> P (2 * j) /\ P (bitrev_neg (2 * j))) -> forall b, 0 < b < 2 ^ S q -> P b.
Proof.
  intros q P P1 PJ b Hb. destruct (rfft_idx_cover q b ltac:(lia)) as (j & Hj & Hin). destruct (Nat.eq_dec j 0) as [->|N].
  - unfold rfft_idx in Hin. cbn in Hin. assert (b = 1) by lia. subst b. exact P1.
  - unfold rfft_idx in Hin. destruct (Nat.eqb_spec j 0); [lia|]. destruct (PJ j ltac:(lia)) as [Q0 Q1]. destruct Hin as [<-|[<-|[]]]; assumption.
Qed.
Definition spectrum (p : nat) (x : list A) (k : nat) : C := dft o p (realc o x) k.
Lemma rfft_bitrev_ok : forall q x y, q <= 28 -> length y = 2 ^ S q -> length x <= 2 * 2 ^ S q ->
  exists y', rfft_bitrev o ord y x = Ok y' /\ length y' = 2 ^ S q /\
    (forall b, 0 < b < 2 ^ S q -> nth b y' c0 = spectrum (S (S q)) x (rv (S q) b)) /\
    nth 0 y' c0 = (fst (spectrum (S (S q)) x 0), fst (spectrum (S (S q)) x (2 ^ S q))).
Proof.
  intros q x y Hq Hy Hx. unfold rfft_bitrev. rewrite Hy. pose proof (pow2_pos (S q)) as Hpos.
  destruct (Nat.eqb_spec (2 * 2 ^ S q) 0); [lia|].
  replace (Z.to_nat (countr_zero64 (Z.of_nat (2 * 2 ^ S q)))) with (S (S q)) by (rewrite <- (Nat.pow_succ_r' 2 (S q)), ctz_p, Nat2Z.id; reflexivity).
  destruct (fft_bitrev_ok o Hok ord Hord (S q) x y ltac:(lia) Hy Hx) as (y1 & E1 & L1 & V1). rewrite E1. cbn [bind].
  destruct (Nat.eqb_spec (S (S q)) 1); [lia|].
  pose (g := fun (j : nat) (a b : C) => if j =? 0 then ((add o (fst a) (snd a), sub o (fst a) (snd a)), conj b) else
     let e := left o (conj (root (S (S q)) (Z.of_nat (rv (S q) (2 * j))))) in
     let u := cadd a (conj b) in let v := cmul e (csub a (conj b)) in (chalf o (csub u v), chalf o (conj (cadd u v)))).
  destruct (rfft_pass q (rfft_pair o (S (S q))) g (rfft_post o (S (S q))) ltac:(lia)) with (y := y1) as (y2 & E2 & L2 & V0 & VJ); auto.
  { intros j a b Hj. unfold rfft_pair, g. destruct (Nat.eqb_spec j 0); [reflexivity|]. rewrite rfft_tw by lia.
    replace (S (S q) - 1) with (S q) by lia. rewrite (slice_ok o Hok). reflexivity. }
  exists y2. split; [exact E2|]. split; [exact L2|].
  set (Ev := G (S q) (fun j => nth (2 * j) x (z0 o))) in *. set (Od := G (S q) (fun j => nth (2 * j + 1) x (z0 o))) in *.
  assert (HE : forall k, k <= 2 ^ S q -> conj (Ev k) = Ev (2 ^ S q - k)) by (intros; apply G_conj; assumption).
  assert (HO : forall k, k <= 2 ^ S q -> conj (Od k) = Od (2 ^ S q - k)) by (intros; apply G_conj; assumption).
  assert (HZ : forall b, b < 2 ^ S q -> nth b y1 c0 = cadd (Ev (rv (S q) b)) (cmul ci (Od (rv (S q) b)))).
  { intros b Hb. rewrite V1 by exact Hb. apply packed_split. }
  assert (HS : forall k, spectrum (S (S q)) x k = cadd (Ev k) (cmul (conj (root (S (S q)) (Z.of_nat k))) (Od k))) by (intros; apply real_split).
  assert (E00 : snd (Ev 0) = z0 o /\ snd (Od 0) = z0 o).
  { assert (P : forall a, G (S q) a (2 ^ S q - 0) = G (S q) a 0).
    { intros a. rewrite Nat.sub_0_r. apply csum_ext. intros j _. apply f_equal2; [reflexivity|]. rewrite Nat.mul_0_r.
      replace (- Z.of_nat (j * 2 ^ S q))%Z with (- Z.of_nat 0 + 2 ^ Z.of_nat (S q) * - Z.of_nat j)%Z by (rewrite <- pow2_Z; lia). apply rt_period. exact Hok. }
    split; apply conj_real; [rewrite HE by lia|rewrite HO by lia]; apply P. }
  assert (EN : Ev (2 ^ S q) = Ev 0 /\ Od (2 ^ S q) = Od 0).
  { split; [rewrite <- (Nat.sub_0_r (2 ^ S q)), <- HE by lia|rewrite <- (Nat.sub_0_r (2 ^ S q)), <- HO by lia].
    - destruct E00 as [e _]. destruct (Ev 0) as [a b]. cbn [snd] in e. rewrite e. cr.
    - destruct E00 as [_ e]. destruct (Od 0) as [a b]. cbn [snd] in e. rewrite e. cr. }
  destruct (V0 _ _ eq_refl) as [W0 W1]. split.
  - apply cover_spec.
    + rewrite W1. rewrite HZ by (rewrite Nat.pow_succ_r'; pose proof (pow2_pos q); lia). rewrite rv_half, HS.
      rewrite pow2_Z, (rt_quarter o Hok), (conj_ci o Hok). rewrite (conj_add o Hok), (conj_mul o Hok), (conj_ci o Hok).
      assert (Hh : 2 ^ S q - 2 ^ q = 2 ^ q) by (rewrite Nat.pow_succ_r'; lia).
      rewrite HE, HO, Hh by (rewrite Nat.pow_succ_r'; lia). reflexivity.
    + intros j Hj. destruct (VJ j Hj) as [J0 J1]. assert (H2 : 0 < 2 * j < 2 ^ S q) by (rewrite Nat.pow_succ_r'; lia).
      pose proof (bneg_lt _ _ H2) as Hb. pose proof (bneg_rv_neg _ _ H2) as Hr. pose proof (rv_lt (S q) (2 * j)) as Hk.
      rewrite !HZ in J0, J1 by lia. rewrite Hr in J0, J1. set (k := rv (S q) (2 * j)) in *.
      unfold g in J0, J1. destruct (Nat.eqb_spec j 0); [lia|]. fold k in J0, J1.
      assert (HcB : conj (cadd (Ev (2 ^ S q - k)) (cmul ci (Od (2 ^ S q - k)))) = csub (Ev k) (cmul ci (Od k))).
      { rewrite (conj_add o Hok), (conj_mul o Hok), (conj_ci o Hok), HE, HO by lia. replace (2 ^ S q - (2 ^ S q - k)) with k by lia. ring. }
      cbn zeta in J0, J1. cbn [fst snd] in J0, J1. rewrite HcB in J0, J1. rewrite (left_ci o Hok) in J0, J1. set (w := root (S (S q)) (Z.of_nat k)) in *.
      assert (I2 : cmul ci ci = copp c1) by (apply (ci2 o Hok)).
      assert (Hv : cmul (cmul ci (conj w)) (csub (cadd (Ev k) (cmul ci (Od k))) (csub (Ev k) (cmul ci (Od k)))) =
                   copp (cadd (cmul (conj w) (Od k)) (cmul (conj w) (Od k)))).
      { transitivity (cadd (cmul (cmul (cmul ci ci) (conj w)) (Od k)) (cmul (cmul (cmul ci ci) (conj w)) (Od k))); [ring|]. rewrite I2. ring. }
      rewrite Hv in J0, J1. split.
      * rewrite J0, HS. fold k. fold w. transitivity (chalf o (cadd (cadd (Ev k) (cmul (conj w) (Od k))) (cadd (Ev k) (cmul (conj w) (Od k))))); [f_equal; ring|].
        apply chalf_twice.
      * rewrite J1, HS, Hr. fold k.
        replace (root (S (S q)) (Z.of_nat (2 ^ S q - k))) with (copp (conj w)) by (symmetry; apply root_co; lia).
        rewrite <- HE, <- HO by lia.
        transitivity (chalf o (cadd (conj (csub (Ev k) (cmul (conj w) (Od k)))) (conj (csub (Ev k) (cmul (conj w) (Od k)))))).
        { f_equal. rewrite <- (conj_add o Hok). f_equal. ring. }
        rewrite chalf_twice. rewrite (conj_sub o Hok), !(conj_mul o Hok), (conj_conj o Hok). set (e := conj (Ev k)). set (d := conj (Od k)). clearbody e d.
        destruct w as [wr wi], e as [er ei], d as [dr di]. cr.
  - rewrite W0. rewrite HZ by lia. rewrite rv_0. rewrite !HS. destruct EN as [-> ->]. destruct E00 as [e0 d0].
    rewrite pow2_Z, (rt_half o Hok). change (Z.of_nat 0) with 0%Z. rewrite (rt_0 o Hok).
    destruct (Ev 0) as [er ei], (Od 0) as [dr di]. cbn [snd] in e0, d0. rewrite e0, d0. cr.
Qed.
Theorem rfft_ok : forall q x y, q <= 28 -> length y = 2 ^ S q -> length x <= 2 * 2 ^ S q ->
  exists y', rfft o ord y x = Ok y' /\ length y' = 2 ^ S q /\
    (forall k, 0 < k < 2 ^ S q -> nth k y' c0 = spectrum (S (S q)) x k) /\
    nth 0 y' c0 = (fst (spectrum (S (S q)) x 0), fst (spectrum (S (S q)) x (2 ^ S q))).
Proof.
  intros q x y Hq Hy Hx. unfold rfft. destruct (rfft_bitrev_ok q x y Hq Hy Hx) as (y1 & E1 & L1 & V1 & W1). rewrite E1. cbn [bind].
  destruct (bitrev_ok c0 (S q) y1 ltac:(lia) L1) as (y2 & E2 & L2 & V2). exists y2. split; [exact E2|]. split; [exact L2|]. split.
  - intros k Hk. rewrite V2 by lia. pose proof (rv_pos _ _ Hk). rewrite V1 by (split; [lia|apply rv_lt]). rewrite rv_invol by lia. reflexivity.
  - rewrite V2 by apply pow2_pos. rewrite rv_0. exact W1.
Qed.

(** ** irfft *)
(** The full spectrum of 2^p coefficients held by half of it (fft.h:20-22). *)
Definition full (p : nat) (y : list C) (k : nat) : C :=
  if k =? 0 then (fst (nth 0 y c0), z0 o) else if k <? 2 ^ (p - 1) then nth k y c0
  else if k =? 2 ^ (p - 1) then (snd (nth 0 y c0), z0 o) else conj (nth (2 ^ p - k) y c0).
Lemma full_conj : forall q y k, 0 < k < 2 ^ S q -> full (S q) y (2 ^ S q - k) = conj (full (S q) y k).
Proof.
  intros q y k Hk. unfold full. rewrite Nat.pow_succ_r' in *. replace (S q - 1) with q by lia. pose proof (pow2_pos q).
  destruct (Nat.eqb_spec (2 * 2 ^ q - k) 0), (Nat.eqb_spec k 0); try lia.
  destruct (Nat.ltb_spec (2 * 2 ^ q - k) (2 ^ q)), (Nat.ltb_spec k (2 ^ q)), (Nat.eqb_spec (2 * 2 ^ q - k) (2 ^ q)), (Nat.eqb_spec k (2 ^ q)); try lia.
  - rewrite (conj_conj o Hok). reflexivity.
  - do 2 f_equal. lia.
  - unfold FFTModel.conj. cbn [fst snd]. apply f_equal2; [reflexivity|ring].
Qed.
Lemma csum_rev : forall m f, csum m f = csum m (fun i => f (m - 1 - i)).
Proof.
  induction m as [|m IH]; intros f; [reflexivity|]. rewrite (csum_first o Hok m (fun i => f (S m - 1 - i))). cbn [FFTMath.csum]. rewrite IH.
  replace (S m - 1 - 0) with m by lia. rewrite (csum_ext o m (fun i => f (S m - 1 - S i)) (fun i => f (m - 1 - i))); [ring|].
  intros i Hi. f_equal. lia.
Qed.
Lemma full_real : forall q y i, snd (idft o (S q) (full (S q) y) i) = z0 o.
Proof.
  intros q y i. apply conj_real. unfold idft. pose proof (pow2_pos (S q)) as Hp. set (n := 2 ^ S q) in *.
  replace n with (S (n - 1)) by lia. set (m := n - 1). rewrite !(csum_first o Hok). rewrite (conj_add o Hok). apply f_equal2.
  - rewrite Nat.mul_0_r. change (Z.of_nat 0) with 0%Z. rewrite (rt_0 o Hok). unfold full. cbn [Nat.eqb]. cr.
  - rewrite (csum_conj o Hok). rewrite csum_rev. apply csum_ext. intros k Hk. rewrite (conj_mul o Hok). 
    replace (S (m - 1 - k)) with (n - S k) by (unfold m in *; lia). unfold n. rewrite full_conj by (fold n; unfold m in *; lia). rewrite (conj_conj o Hok).
    apply f_equal2; [reflexivity|]. rewrite <- (rt_conj o Hok).
    replace (- Z.of_nat (i * (2 ^ S q - S k)))%Z with (Z.of_nat (i * S k) + 2 ^ Z.of_nat (S q) * - Z.of_nat i)%Z.
    + apply rt_period. exact Hok.
    + rewrite <- pow2_Z. fold n. unfold m in *. nia.
Qed.
(** What irfft_pre computes. *)
Definition pre (q : nat) (y : list C) (k : nat) : C :=
  let a := full (S q) y k in let b := full (S q) y (k + 2 ^ q) in
  cadd (cadd a b) (cmul ci (cmul (root (S q) (Z.of_nat k)) (csub a b))).
Lemma pre_idft : forall q y j, idft o q (pre q y) j =
  cadd (idft o (S q) (full (S q) y) (2 * j)) (cmul ci (idft o (S q) (full (S q) y) (2 * j + 1))).
Proof.
  intros q y j. unfold idft. replace (2 ^ S q) with (2 ^ q + 2 ^ q) by (rewrite Nat.pow_succ_r'; lia). rewrite !(csum_app o Hok).
  rewrite <- !(csum_add o Hok). rewrite <- (csum_mul o Hok), <- (csum_add o Hok). apply csum_ext. intros k _. unfold pre.
  replace (Z.of_nat (2 * j * k)) with (2 * Z.of_nat (j * k))%Z by lia. rewrite (rt_dbl o Hok).
  replace (Z.of_nat (2 * j * (2 ^ q + k))) with (2 * (Z.of_nat (j * k) + 2 ^ Z.of_nat q * Z.of_nat j))%Z by (rewrite <- pow2_Z; lia).
  rewrite (rt_dbl o Hok), (rt_period o Hok).
  replace (Z.of_nat ((2 * j + 1) * k)) with (2 * Z.of_nat (j * k) + Z.of_nat k)%Z by lia. rewrite (rt_add o Hok), (rt_dbl o Hok).
  replace (Z.of_nat ((2 * j + 1) * (2 ^ q + k))) with (2 * (Z.of_nat (j * k) + 2 ^ Z.of_nat q * Z.of_nat j) + Z.of_nat (k + 2 ^ q))%Z by (rewrite Nat2Z.inj_add, <- pow2_Z; lia).
  rewrite (rt_add o Hok), (rt_dbl o Hok), (rt_period o Hok), (root_shift_half o Hok). rewrite (Nat.add_comm k). ring.
Qed.
Lemma irfft_bitrev_ok : forall q x y z, q <= 28 -> length y = 2 ^ S q -> length x <= 2 * 2 ^ S q ->
  (forall b, b < 2 ^ S q -> nth b z c0 = nth (rv (S q) b) y c0) -> length z = 2 ^ S q ->
  exists x' y', irfft_bitrev o ord x z = Ok (x', y') /\ length x' = length x /\
    forall i, i < length x -> (nth i x' (z0 o), z0 o) = idft o (S (S q)) (full (S (S q)) y) i.
Proof.
  intros q x y z Hq Hy Hx Hz Lz. unfold irfft_bitrev. rewrite Lz. pose proof (pow2_pos (S q)) as Hpos. pose proof (pow2_pos q) as Hpos2.
  destruct (Nat.eqb_spec (2 * 2 ^ S q) 0); [lia|].
  replace (Z.to_nat (countr_zero64 (Z.of_nat (2 * 2 ^ S q)))) with (S (S q)) by (rewrite <- (Nat.pow_succ_r' 2 (S q)), ctz_p, Nat2Z.id; reflexivity).
  destruct (Nat.eqb_spec (S (S q)) 1); [lia|].
  pose (g := fun (j : nat) (s t : C) => if j =? 0 then ((add o (fst s) (snd s), sub o (fst s) (snd s)), ctwice o (conj t)) else
     let e := right o (root (S (S q)) (Z.of_nat (rv (S q) (2 * j)))) in
     let u := cadd (conj t) s in let v := cmul e (csub (conj t) s) in (cadd u v, conj (csub u v))).
  destruct (rfft_pass q (irfft_pair o (S (S q))) g (irfft_pre o (S (S q))) ltac:(lia)) with (y := z) as (y1 & E1 & L1 & V0 & VJ); auto.
  { intros j a b Hj. unfold irfft_pair, g. destruct (Nat.eqb_spec j 0); [reflexivity|]. rewrite rfft_tw by lia.
    replace (S (S q) - 1) with (S q) by lia. rewrite (slice_ok o Hok). reflexivity. }
  rewrite E1. cbn [bind].
  assert (Hpre : forall b, b < 2 ^ S q -> nth b y1 c0 = pre (S q) y (rv (S q) b)).
  { intros b Hb. destruct (V0 _ _ eq_refl) as [W0 W1]. destruct (Nat.eq_dec b 0) as [->|Nb].
    - rewrite W0, Hz by lia. rewrite rv_0. unfold pre. rewrite (rt_0 o Hok). unfold full. cbn [Nat.eqb Nat.add]. replace (S (S q) - 1) with (S q) by lia.
      destruct (Nat.eqb_spec (2 ^ S q) 0); [lia|]. rewrite Nat.ltb_irrefl, Nat.eqb_refl. cr.
    - assert (Hf : forall k, 0 < k < 2 ^ S q -> full (S (S q)) y k = nth k y c0 /\ full (S (S q)) y (k + 2 ^ S q) = conj (nth (2 ^ S q - k) y c0)).
      { intros k Hk. unfold full. replace (S (S q) - 1) with (S q) by lia. rewrite (Nat.pow_succ_r' 2 (S q)).
        destruct (Nat.eqb_spec k 0), (Nat.ltb_spec k (2 ^ S q)), (Nat.eqb_spec (k + 2 ^ S q) 0), (Nat.ltb_spec (k + 2 ^ S q) (2 ^ S q)), (Nat.eqb_spec (k + 2 ^ S q) (2 ^ S q)); try lia.
        split; [reflexivity|]. do 2 f_equal. lia. }
      assert (I2 : cmul ci ci = copp c1) by (apply (ci2 o Hok)).
      assert (Hb' : 0 < b < 2 ^ S q) by lia. clear Hb Nb. revert b Hb'. apply cover_spec.
      + rewrite W1, Hz by (rewrite Nat.pow_succ_r'; lia). rewrite rv_half. unfold pre.
        assert (Hq2 : 0 < 2 ^ q < 2 ^ S q) by (rewrite Nat.pow_succ_r'; lia).
        destruct (Hf _ Hq2) as [-> ->]. replace (2 ^ S q - 2 ^ q) with (2 ^ q) by (rewrite Nat.pow_succ_r'; lia).
        rewrite pow2_Z, (rt_quarter o Hok). set (a := nth (2 ^ q) y c0).
        transitivity (cadd (cadd a (conj a)) (cmul (cmul ci ci) (csub a (conj a)))); [|ring]. rewrite I2. unfold ctwice. destruct a as [ar ai]. cr.
      + intros j Hj. destruct (VJ j Hj) as [J0 J1]. assert (H2 : 0 < 2 * j < 2 ^ S q) by (rewrite Nat.pow_succ_r'; lia).
        pose proof (bneg_lt _ _ H2) as Hb. pose proof (bneg_rv_neg _ _ H2) as Hr. pose proof (rv_lt (S q) (2 * j)) as Hk. pose proof (rv_pos _ _ H2) as Hk0.
        rewrite !Hz in J0, J1 by lia. rewrite Hr in J0, J1. unfold pre. rewrite Hr. set (k := rv (S q) (2 * j)) in *.
        destruct (Hf k ltac:(lia)) as [-> ->]. destruct (Hf (2 ^ S q - k) ltac:(lia)) as [-> ->]. replace (2 ^ S q - (2 ^ S q - k)) with k by lia.
        unfold g in J0, J1. destruct (Nat.eqb_spec j 0); [lia|]. fold k in J0, J1. cbn zeta in J0, J1. cbn [fst snd] in J0, J1.
        rewrite root_co by lia. rewrite (right_ci o Hok) in J0, J1. set (w := root (S (S q)) (Z.of_nat k)) in *.
        set (a := nth k y c0) in *. set (b := nth (2 ^ S q - k) y c0) in *. rewrite J0, J1. split; [ring|].
        clearbody w a b. clear - Hok. destruct w as [wr wi], a as [ar ai], b as [br bi]. cr. }
  destruct (ifft_bitrev_ok o Hok ord Hord (S q) x y1 (pre (S q) y) ltac:(lia) L1 Hx Hpre) as (x' & y2 & E2 & L2 & _ & V2).
  exists x', y2. split; [exact E2|]. split; [exact L2|]. intros i Hi. rewrite V2 by exact Hi. rewrite pre_idft.
  pose proof (full_real (S q) y (2 * (i / 2))) as R0. pose proof (full_real (S q) y (2 * (i / 2) + 1)) as R1. unfold part.
  destruct (parity_split i) as [Ei|Ei].
  - assert (Ev : Nat.even i = true) by (rewrite Ei, Nat.even_mul; reflexivity). rewrite Ev, <- Ei in *. clear - R0 R1 Hok.
    destruct (idft o (S (S q)) (full (S (S q)) y) i) as [a b], (idft o (S (S q)) (full (S (S q)) y) (i + 1)) as [c e]. cbn [snd] in R0, R1. rewrite R0, R1. cr.
  - assert (Ev : Nat.even i = false) by (rewrite Ei, Nat.even_add, Nat.even_mul; reflexivity). rewrite Ev, <- Ei in *. clear - R0 R1 Hok.
    destruct (idft o (S (S q)) (full (S (S q)) y) i) as [a b], (idft o (S (S q)) (full (S (S q)) y) (2 * (i / 2))) as [c e]. cbn [snd] in R0, R1. rewrite R0, R1. cr.
Qed.
Theorem irfft_ok : forall q x y, q <= 28 -> length y = 2 ^ S q -> length x <= 2 * 2 ^ S q ->
  exists x' y', irfft o ord x y = Ok (x', y') /\ length x' = length x /\
    forall i, i < length x -> (nth i x' (z0 o), z0 o) = idft o (S (S q)) (full (S (S q)) y) i.
Proof.
  intros q x y Hq Hy Hx. unfold irfft. destruct (bitrev_ok c0 (S q) y ltac:(lia) Hy) as (y1 & E1 & L1 & V1). rewrite E1. cbn [bind].
  apply irfft_bitrev_ok; auto.
Qed.
Lemma spectrum_conj : forall p x k, k <= 2 ^ p -> spectrum p x (2 ^ p - k) = conj (spectrum p x k).
Proof.
  intros p x k Hk. symmetry. unfold spectrum, dft. change (csum (2 ^ p) (fun j => cmul (realc o x j) (root p (- Z.of_nat (j * k))))) with (G p (fun j => nth j x (z0 o)) k).
  rewrite G_conj by exact Hk. reflexivity.
Qed.
Theorem irfft_rfft : forall q x0 x y y', q <= 28 -> length y = 2 ^ S q -> length x0 <= 2 * 2 ^ S q -> length x <= 2 * 2 ^ S q ->
  rfft o ord y x0 = Ok y' -> exists x' y2, irfft o ord x y' = Ok (x', y2) /\ length x' = length x /\
    forall i, i < length x -> nth i x' (z0 o) = times2 o (S (S q)) (nth i x0 (z0 o)).
Proof.
  intros q x0 x y y' Hq Hy Hx0 Hx E. destruct (rfft_ok q x0 y Hq Hy Hx0) as (y1 & E1 & L1 & V1 & W1). rewrite E1 in E. injection E as ->.
  destruct (irfft_ok q x y' Hq L1 Hx) as (x' & y2 & E2 & L2 & V2). exists x', y2. split; [exact E2|]. split; [exact L2|].
  intros i Hi. pose proof (V2 i Hi) as V. rewrite (idft_ext o _ _ (spectrum (S (S q)) x0)) in V.
  - unfold spectrum in V. change (fun k => dft o (S (S q)) (realc o x0) k) with (dft o (S (S q)) (realc o x0)) in V.
    rewrite (idft_dft o Hok) in V by (rewrite Nat.pow_succ_r'; lia). rewrite (cpow2_times o Hok) in V. injection V as V _. exact V.
  - intros k Hk. pose proof (pow2_pos (S q)) as Hp. rewrite Nat.pow_succ_r' in Hk.
    assert (Hreal : snd (spectrum (S (S q)) x0 0) = z0 o /\ snd (spectrum (S (S q)) x0 (2 ^ S q)) = z0 o).
    { split; apply conj_real; rewrite <- spectrum_conj by (rewrite ?(Nat.pow_succ_r' 2 (S q)); lia).
      - rewrite Nat.sub_0_r. apply csum_ext. intros j _. apply f_equal2; [reflexivity|]. rewrite Nat.mul_0_r.
        replace (- Z.of_nat (j * 2 ^ S (S q)))%Z with (- Z.of_nat 0 + 2 ^ Z.of_nat (S (S q)) * - Z.of_nat j)%Z by (rewrite <- pow2_Z; lia). apply rt_period. exact Hok.
      - f_equal. rewrite (Nat.pow_succ_r' 2 (S q)). lia. }
    destruct Hreal as [R0 RN]. unfold full. replace (S (S q) - 1) with (S q) by lia.
    destruct (Nat.eqb_spec k 0) as [->|N0]; [|destruct (Nat.ltb_spec k (2 ^ S q)) as [Hl|Hg]; [|destruct (Nat.eqb_spec k (2 ^ S q)) as [->|Nn]]].
    + rewrite W1. cbn [fst]. rewrite <- R0 at 1. symmetry. apply surjective_pairing.
    + apply V1. lia.
    + rewrite W1. cbn [snd]. rewrite <- RN at 1. symmetry. apply surjective_pairing.
    + rewrite V1 by (rewrite (Nat.pow_succ_r' 2 (S q)); lia). rewrite spectrum_conj by (rewrite (Nat.pow_succ_r' 2 (S q)); lia). apply (conj_conj o Hok).
Qed.
End R.
