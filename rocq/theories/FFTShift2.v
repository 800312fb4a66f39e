(** First and last passes of the shifted real FFT, and its inverse (fft.cc:347-416). *)
From Coq Require Import ZArith Arith ArithRing List Bool Lia Ring.
From Verif Require Import Base SeriesModel SeriesProofs NewtonProofs FFTModel FFTLoop FFTMath FFTTwiddle FFTPerm FFTSpec FFTProofs FFTReal FFTShift.
Import ListNotations.
Open Scope nat_scope.

Section S.
Variable o : ops.
Hypothesis Hok : ops_ok o.
Notation A := (FFTModel.A o).
Notation C := (FFTModel.A o * FFTModel.A o)%type.
Add Ring AringS2 : (ok_ring o Hok).
Add Ring CringS2 : (C_ring o Hok).
Notation cadd := (FFTModel.cadd o). Notation csub := (FFTModel.csub o). Notation cmul := (FFTModel.cmul o).
Notation conj := (FFTModel.conj o). Notation c0 := (FFTModel.c0 o). Notation c1 := (FFTMath.c1 o). Notation copp := (FFTMath.copp o).
Notation ci := (FFTMath.ci o). Notation w8 := (FFTMath.w8 o).
Notation root := (FFTModel.root o). Notation csum := (FFTMath.csum o).
Notation sst := (FFTShift.sst o). Notation lev := (FFTShift.lev o). Notation tws := (FFTShift.tws o).
Notation at_ := (fun (y : list C) i => nth i y c0).
Notation za := (z0 o).
Ltac cr := unfold FFTModel.cadd, FFTModel.csub, FFTModel.cmul, FFTModel.conj, FFTModel.c0, FFTMath.c1, FFTMath.copp, FFTMath.ci,
  FFTModel.left, FFTModel.right in *; cbn [fst snd] in *; apply f_equal2; ring.

(** ** The first levels as functions *)
Definition b1 (t1 t3 y0 y1 : C) : C * C :=
  (cmul (conj t1) (cadd y0 (cmul (conj w8) y1)), conj (cmul t3 (csub y0 (cmul (conj w8) y1)))).
Lemma bfly_1_b1 : forall tw s j y0 y1, (forall i, tw i = Ok (root s i)) ->
  bfly_1 o tw j y0 y1 = Ok (b1 (root s j) (root s (3 * j)) y0 y1).
Proof. intros. unfold bfly_1. rewrite !H. cbn [bind]. rewrite (diagm_w8 o Hok). reflexivity. Qed.
(** j and nr are positions, p the logarithm of the number of reals *)
Definition FA (r p nr j : nat) (x : list A) : list C :=
  let T i := root (S p) (Z.of_nat i) in
  match r, x with
  | 1, [x0; x1] => [bfly_0 o x0 x1]
  | 2, [x0; x1; x2; x3] => let q := b1 (T j) (T (3 * j)) (bfly_0 o x0 x2) (bfly_0 o x1 x3) in [fst q; snd q]
  | 3, [x0; x1; x2; x3; x4; x5; x6; x7] =>
      let q := b1 (T j) (T (3 * j)) (bfly_0 o x0 x4) (bfly_0 o x2 x6) in
      let q' := b1 (T (j + nr)) (T (3 * (j + nr))) (bfly_0 o x1 x5) (bfly_0 o x3 x7) in
      let a := lev (T (8 * j)) (fst q) (fst q') in
      let b := lev (T (8 * j)) (snd q) (snd q') in
      [fst a; snd a; fst b; snd b]
  | _, _ => []
  end.
Lemma bfly_FA : forall r tw p nr j v, 1 <= r <= 3 -> (forall i, tw i = Ok (root (S p) i)) -> length v = 2 ^ r ->
  bfly_01s o r tw (Z.of_nat j) (Z.of_nat nr) v = Ok (FA r p nr j v) /\ length (FA r p nr j v) = 2 ^ r / 2.
Proof.
  intros r tw p nr j v Hr Ht Hv. assert (r = 1 \/ r = 2 \/ r = 3) as [->|[->| ->]] by lia.
  - change (2 ^ 1) with 2 in *. destruct v as [|a [|b [|? v]]]; try discriminate Hv. split; reflexivity.
  - change (2 ^ 2) with 4 in *. destruct v as [|a0 [|a1 [|a2 [|a3 [|? v]]]]]; try discriminate Hv. cbn [bfly_01s].
    rewrite (bfly_1_b1 tw (S p)) by exact Ht. cbn [bind FA]. replace (Z.of_nat (3 * j)) with (3 * Z.of_nat j)%Z by lia. split; reflexivity.
  - change (2 ^ 3) with 8 in *. destruct v as [|a0 [|a1 [|a2 [|a3 [|a4 [|a5 [|a6 [|a7 [|? v]]]]]]]]]; try discriminate Hv. cbn [bfly_01s].
    rewrite !(bfly_1_b1 tw (S p)) by exact Ht. cbn [bind FA]. unfold bfly_s1. rewrite Ht. cbn [bind].
    replace (Z.of_nat (3 * j)) with (3 * Z.of_nat j)%Z by lia. replace (Z.of_nat (3 * (j + nr))) with (3 * (Z.of_nat j + Z.of_nat nr))%Z by lia.
    replace (Z.of_nat (8 * j)) with (8 * Z.of_nat j)%Z by lia. rewrite !Nat2Z.inj_add. split; reflexivity.
Qed.

(** butterfly_0 and butterfly_1 in terms of the stages *)
Definition X (x : list A) (i : nat) : A := nth i x za.
Lemma bfly_0_sst : forall p x r, bfly_0 o (X x r) (X x (2 ^ p + r)) = cmul (root (S (S p)) (Z.of_nat r)) (sst (S p) x 1 0 r).
Proof.
  intros p x r. unfold FFTShift.sst, freq. change (2 ^ 1) with 2. cbn [FFTMath.csum]. change (2 * kperm (1 - 1) 0 + 1) with 1. rewrite !Nat.mul_1_r.
  replace (S p - 1) with p by lia. rewrite !Nat.mul_0_l, !Nat.mul_1_l, Nat.add_0_l.
  rewrite Nat2Z.inj_add, Z.opp_add_distr, (rt_add o Hok). rewrite !(rt_conj o Hok). rewrite pow2_Z, (rt_quarter o Hok), (conj_ci o Hok).
  pose proof (rt_unit o Hok (S (S p)) (Z.of_nat r)) as Hw. set (w := root (S (S p)) (Z.of_nat r)) in *. set (c := conj w) in *. unfold realc, bfly_0, X.
  transitivity (cadd (nth r x za, za) (cmul (nth (2 ^ p + r) x za, za) (copp ci))); [clear Hw; cr|].
  set (a := (nth r x za, za)). set (b := (nth (2 ^ p + r) x za, za)). clearbody a b w c. ring [Hw].
Qed.
Lemma b1_sst : forall s x r, let p := S (S s) in
  b1 (root (S p) (Z.of_nat r)) (root (S p) (Z.of_nat (3 * r)))
     (bfly_0 o (X x r) (X x (2 ^ S s + r))) (bfly_0 o (X x (2 ^ s + r)) (X x (2 ^ S s + (2 ^ s + r)))) = (sst p x 2 0 r, sst p x 2 1 r).
Proof.
  intros s x r p. rewrite !bfly_0_sst. fold p.
  pose proof (sst_lev o Hok p x 1 0 r s ltac:(lia) ltac:(reflexivity)) as H. change (2 * 0) with 0 in H. change (0 + 1) with 1 in H. rewrite <- H. clear H.
  unfold FFTShift.lev, b1. rewrite Nat2Z.inj_add, (rt_add o Hok), pow2_Z. change (root (S p) (2 ^ Z.of_nat s)%Z) with (root (S (S (S s))) (2 ^ Z.of_nat s)%Z). rewrite (rt_eighth o Hok).
  replace (root (S s) (Z.of_nat r)) with (root (S p) (4 * Z.of_nat r)).
  2:{ unfold p. replace (4 * Z.of_nat r)%Z with (2 * (2 * Z.of_nat r))%Z by lia. rewrite !(rt_dbl o Hok). reflexivity. }
  replace (Z.of_nat (3 * r)) with (3 * Z.of_nat r)%Z by lia. rewrite (root_pow4 o Hok), (root_pow3 o Hok).
  pose proof (rt_unit o Hok (S p) (Z.of_nat r)) as Hw. pose proof (e8_unit o Hok) as He. set (w := root (S p) (Z.of_nat r)) in *.
  set (u := sst p x 1 0 r). set (v := sst p x 1 0 (2 ^ s + r)). set (e := w8) in *.
  apply f_equal2.
  - set (c := conj w) in *. set (f := conj e) in *. clearbody w c e f u v. ring [Hw He].
  - apply f_equal. set (f := conj e) in *. clearbody w e f u v. ring [He].
Qed.
Definition ins (x : list A) (j nr k : nat) : list A := map (fun i => X x (i * nr + j)) (seq 0 k).
Lemma FA_ins : forall r p x j, 1 <= r <= 3 -> r <= p -> (r = 1 -> j = 0) ->
  FA r p (2 ^ (p - r)) j (ins x j (2 ^ (p - r)) (2 ^ r)) = map (fun b => sst p x r b j) (seq 0 (2 ^ r / 2)).
Proof.
  intros r p x j Hr Hp Hj. assert (r = 1 \/ r = 2 \/ r = 3) as [->|[->| ->]] by lia.
  - rewrite Hj by reflexivity. destruct p as [|p]; [lia|]. replace (S p - 1) with p by lia. change (2 ^ 1 / 2) with 1. change (2 ^ 1) with 2.
    unfold ins. cbn [map seq FA]. rewrite Nat.mul_0_l, Nat.mul_1_l, Nat.add_0_l, bfly_0_sst. change (Z.of_nat 0) with 0%Z. rewrite (rt_0 o Hok).
    change (z1 o, za) with c1. apply (f_equal2 (@cons C)); [ring|reflexivity].
  - destruct p as [|[|s]]; try lia. replace (S (S s) - 2) with s by lia. change (2 ^ 2 / 2) with 2. change (2 ^ 2) with 4.
    unfold ins. cbn [map seq FA]. pose proof (b1_sst s x j) as H. cbn zeta in H.
    replace (0 * 2 ^ s + j) with j by lia. replace (1 * 2 ^ s + j) with (2 ^ s + j) by lia.
    replace (2 * 2 ^ s + j) with (2 ^ S s + j) by (rewrite Nat.pow_succ_r'; lia). replace (3 * 2 ^ s + j) with (2 ^ S s + (2 ^ s + j)) by (rewrite Nat.pow_succ_r'; lia).
    rewrite H. reflexivity.
  - destruct p as [|[|[|s]]]; try lia. replace (S (S (S s)) - 3) with s by lia. change (2 ^ 3 / 2) with 4. change (2 ^ 3) with 8.
    unfold ins. cbn [map seq FA]. pose proof (b1_sst (S s) x j) as H. pose proof (b1_sst (S s) x (j + 2 ^ s)) as H'. cbn zeta in H, H'.
    replace (0 * 2 ^ s + j) with j by lia. replace (1 * 2 ^ s + j) with (j + 2 ^ s) by lia.
    replace (2 * 2 ^ s + j) with (2 ^ S s + j) by (rewrite Nat.pow_succ_r'; lia). replace (3 * 2 ^ s + j) with (2 ^ S s + (j + 2 ^ s)) by (rewrite Nat.pow_succ_r'; lia).
    replace (4 * 2 ^ s + j) with (2 ^ S (S s) + j) by (rewrite !Nat.pow_succ_r'; lia). replace (5 * 2 ^ s + j) with (2 ^ S (S s) + (j + 2 ^ s)) by (rewrite !Nat.pow_succ_r'; lia).
    replace (6 * 2 ^ s + j) with (2 ^ S (S s) + (2 ^ S s + j)) by (rewrite !Nat.pow_succ_r'; lia).
    replace (7 * 2 ^ s + j) with (2 ^ S (S s) + (2 ^ S s + (j + 2 ^ s))) by (rewrite !Nat.pow_succ_r'; lia).
    rewrite H, H'. cbn [fst snd]. clear H H'.
    replace (root (S (S (S (S s)))) (Z.of_nat (8 * j))) with (root (S s) (Z.of_nat j)).
    2:{ replace (Z.of_nat (8 * j)) with (2 * (2 * (2 * Z.of_nat j)))%Z by lia. rewrite !(rt_dbl o Hok). reflexivity. }
    rewrite (Nat.add_comm j).
    pose proof (sst_lev o Hok (S (S (S s))) x 2 0 j s ltac:(lia) ltac:(lia)) as H0. pose proof (sst_lev o Hok (S (S (S s))) x 2 1 j s ltac:(lia) ltac:(lia)) as H1.
    cbn [Nat.mul Nat.add] in H0, H1. rewrite H0, H1. reflexivity.
Qed.

(** ** First pass *)
Variable ord : Z -> list nat.
Hypothesis Hord : sched_ok ord.
Lemma mapr_ok : forall U V (f : U -> res V) (g : U -> V) l, (forall i, In i l -> f i = Ok (g i)) -> mapr f l = Ok (map g l).
Proof.
  intros U V f g l. induction l as [|a l IH]; intros H; cbn [mapr map]; [reflexivity|]. rewrite H by (left; reflexivity). cbn [bind].
  rewrite IH by (intros i Hi; apply H; right; exact Hi). reflexivity.
Qed.
Lemma getx_ok : forall x i, getx o x i = Ok (X x i).
Proof.
  intros x i. unfold getx, X. destruct (Nat.ltb_spec i (length x)) as [H|H]; [apply aget_ok; exact H|]. rewrite nth_overflow by exact H. reflexivity.
Qed.
Lemma in_stride : forall k j nr i, j < nr -> (In i (stride k j nr) <-> i mod nr = j /\ i / nr < k).
Proof.
  intros k j nr i Hj. unfold stride. rewrite in_map_iff. split.
  - intros (c & <- & Hc). apply in_seq in Hc. rewrite Nat.mod_add, Nat.div_add by lia. rewrite Nat.mod_small, Nat.div_small by lia. split; lia.
  - intros [Hm Hd]. exists (i / nr). split; [|apply in_seq; split; [apply Nat.le_0_l|exact Hd]]. rewrite <- Hm.
    rewrite (Nat.mul_comm (i / nr)), Nat.add_comm. symmetry. apply Nat.div_mod. apply Nat.neq_0_lt_0. apply Nat.le_lt_trans with j; [apply Nat.le_0_l|exact Hj].
Qed.
Lemma stride_nodup : forall k j nr, 0 < nr -> NoDup (stride k j nr).
Proof.
  intros k j nr Hn. unfold stride. apply FinFun.Injective_map_NoDup; [|apply seq_NoDup]. intros a b H. cbn beta in H.
  apply (proj1 (Nat.mul_cancel_r a b nr ltac:(lia))). lia.
Qed.
Lemma stride_lt : forall k j nr i, j < nr -> In i (stride k j nr) -> i < k * nr.
Proof. intros k j nr i Hj H. unfold stride in H. apply in_map_iff in H. destruct H as (c & <- & Hc). apply in_seq in Hc. nia. Qed.
Lemma pow_half : forall r, 1 <= r -> 2 ^ r / 2 = 2 ^ (r - 1).
Proof. exact div_pow_half. Qed.
Lemma first_pass : forall r p x tw L y, 1 <= r <= 3 -> r <= p -> (r = 1 -> p = 1) -> (forall i, tw i = Ok (root (S p) i)) ->
  length y = 2 ^ (p - 1) -> NoDup L -> (forall j, In j L <-> j < 2 ^ (p - r)) ->
  exists y', run L (srfft_first o r tw (2 ^ (p - r)) x) y = Ok y' /\ length y' = 2 ^ (p - 1) /\ at_sst o p x y' r.
Proof.
  intros r p x tw L y Hr Hp H1 Ht Hy ND HL. pose proof (pow2_pos (p - r)) as Hnr. set (nr := 2 ^ (p - r)) in *.
  assert (Hn : 2 ^ (p - 1) = 2 ^ r / 2 * nr). { rewrite pow_half by lia. unfold nr. rewrite <- Nat.pow_add_r. f_equal. lia. }
  destruct (run_local c0 (2 ^ (p - 1)) (srfft_first o r tw nr x) (fun j => stride (2 ^ r / 2) j nr) (fun j i _ => sst p x r (i / nr) j) L) with (y := y)
    as (y' & E & L' & V & _); auto.
  - intros j j' i Hj Hj' Hi Hi'. apply HL in Hj, Hj'. apply in_stride in Hi; [|exact Hj]. apply in_stride in Hi'; [|exact Hj']. lia.
  - intros j z Hj Hz. apply HL in Hj. unfold srfft_first. rewrite (mapr_ok _ _ _ (X x)) by (intros; apply getx_ok). cbn [bind].
    assert (Ei : map (X x) (stride (2 ^ r) j nr) = ins x j nr (2 ^ r)). { unfold stride, ins. rewrite map_map. apply map_ext. intros i. f_equal. lia. }
    rewrite Ei. destruct (bfly_FA r tw p nr j (ins x j nr (2 ^ r)) Hr Ht) as [E El]. { unfold ins. rewrite map_length, seq_length. reflexivity. }
    rewrite E. cbn [bind]. unfold nr. rewrite FA_ins by (auto; intros Hr1; specialize (H1 Hr1); unfold nr in Hj; rewrite Hr1, H1 in Hj; cbn in Hj; lia).
    fold nr.
    destruct (sets_ok c0 (stride (2 ^ r / 2) j nr) z (map (fun b => sst p x r b j) (seq 0 (2 ^ r / 2)))) as (z' & Ez & Lz & Mz & Uz).
    + apply stride_nodup. exact Hnr.
    + intros i Hi. rewrite Hz, Hn. apply stride_lt with (j := j); assumption.
    + unfold stride. rewrite !map_length. reflexivity.
    + exists z'. split; [exact Ez|]. split; [lia|]. split; [|exact Uz]. intros i Hi.
      unfold stride in Hi. apply in_map_iff in Hi. destruct Hi as (c & <- & Hc). apply in_seq in Hc. rewrite Nat.div_add, Nat.div_small by lia. cbn [Nat.add].
      assert (Mc : nth c (map (at_ z') (stride (2 ^ r / 2) j nr)) c0 = nth c (map (fun b => sst p x r b j) (seq 0 (2 ^ r / 2))) c0) by (rewrite Mz; reflexivity).
      unfold stride in Mc. rewrite map_map in Mc. rewrite !(nth_map_lt c0) in Mc by (rewrite seq_length; lia). rewrite !seq_nth in Mc by lia. exact Mc.
  - exists y'. split; [exact E|]. split; [exact L'|]. intros b j Hb Hj. fold nr in Hj |- *.
    rewrite (V j); [|apply HL; exact Hj|].
    + rewrite Nat.add_comm, Nat.div_add, Nat.div_small by lia. reflexivity.
    + apply in_stride; [exact Hj|]. rewrite Nat.add_comm, Nat.mod_add, Nat.div_add by lia. rewrite Nat.mod_small, Nat.div_small by exact Hj.
      split; [reflexivity|]. rewrite pow_half by lia. lia.
Qed.

Lemma ctz_2p : forall p, 1 <= p -> Z.to_nat (countr_zero64 (Z.of_nat (2 * 2 ^ (p - 1)))) = p.
Proof. intros p H. rewrite <- Nat.pow_succ_r'. replace (S (p - 1)) with p by lia. rewrite ctz_p, Nat2Z.id. reflexivity. Qed.
Lemma two_half : forall p, 1 <= p -> 2 * 2 ^ (p - 1) = 2 ^ p.
Proof. intros p H. rewrite <- Nat.pow_succ_r'. f_equal. lia. Qed.
Lemma const_tw_ok : forall s i, 1 <= s <= 3 -> const_tw o s i = Ok (root (S s) i).
Proof. intros s i H. unfold const_tw. assert (s = 1 \/ s = 2 \/ s = 3) as [->|[->| ->]] by lia; reflexivity. Qed.
Theorem srfft_scramble_ok : forall p x y, 1 <= p <= 29 -> length y = 2 ^ (p - 1) -> length x <= 2 ^ p ->
  exists y', srfft_scramble o ord y x = Ok y' /\ length y' = 2 ^ (p - 1) /\ at_sst o p x y' p.
Proof.
  intros p x y Hp Hy Hx. unfold srfft_scramble. rewrite Hy, ctz_2p, two_half by lia. pose proof (pow2_pos p).
  destruct (Nat.eqb_spec (2 ^ p) 0); [lia|]. rewrite Nat.eqb_refl. destruct (Nat.leb_spec (length x) (2 ^ p)); [|lia]. cbn [andb slow_assert bind].
  assert (First : forall L r tw, NoDup L -> 1 <= r <= 3 -> r <= p -> (r = 1 -> p = 1) -> (forall i, tw i = Ok (root (S p) i)) -> (forall j, In j L <-> j < 2 ^ (p - r)) ->
    p - 3 = p - r -> exists y', (y1 <- run L (srfft_first o r tw (2 ^ (p - r)) x) y ;; fwd_passes o ord (2 ^ p) (p - 3) y1) = Ok y' /\ length y' = 2 ^ (p - 1) /\ at_sst o p x y' p).
  { intros L r tw ND Hr Hrp H1 Ht HL Hc. destruct (first_pass r p x tw L y Hr Hrp H1 Ht Hy ND HL) as (y1 & E & L1 & V). rewrite E. cbn [bind].
    apply fwd_passes_ok; auto; try lia. rewrite Hc. replace (p - (p - r)) with r by lia. exact V. }
  destruct p as [|[|[|s]]]; [lia| | |].
  - destruct (First [0] 1 (const_tw o 1)) as (y' & E & R).
    { constructor; [intros []|constructor]. } { lia. } { lia. } { reflexivity. } { intros i. apply const_tw_ok. lia. }
    { intros j. cbn. lia. } { reflexivity. }
    exists y'. split; [|exact R]. cbn [run] in E. change (2 ^ (1 - 1)) with 1 in E. destruct (srfft_first o 1 (const_tw o 1) 1 x 0 y); exact E.
  - destruct (First [0] 2 (const_tw o 2)) as (y' & E & R).
    { constructor; [intros []|constructor]. } { lia. } { lia. } { lia. } { intros i. apply const_tw_ok. lia. }
    { intros j. cbn. lia. } { reflexivity. }
    exists y'. split; [|exact R]. cbn [run] in E. change (2 ^ (2 - 2)) with 1 in E. destruct (srfft_first o 2 (const_tw o 2) 1 x 0 y); exact E.
  - change 8 with (2 ^ 3) at 1 2. rewrite npow_div by lia.
    destruct (def_loop_run ord _ (2 ^ (S (S (S s)) - 3)) (srfft_first o 3 (big_slice o (S (S (S s)))) (2 ^ (S (S (S s)) - 3)) x) y Hord) as (L & E & ND & HL).
    { pose proof (pow_bound (S (S (S s)) - 3) 30 ltac:(lia)) as Hb. change (Z.of_nat 30) with 30%Z in Hb. lia. }
    rewrite E. apply First; auto; try lia. intros i. apply (big_slice_ok o Hok). lia.
Qed.
Lemma sst_final : forall p x b, 1 <= p -> sst p x p b 0 = sdft o p (realc o x) (kperm (p - 1) b).
Proof.
  intros p x b Hp. unfold FFTShift.sst, sdft, freq. apply csum_ext. intros c _. rewrite Nat.sub_diag. change (2 ^ 0) with 1.
  replace (c * 1 + 0) with c by lia. reflexivity.
Qed.
Lemma kperm_surj : forall q k, k < 2 ^ q -> exists b, b < 2 ^ q /\ kperm q b = k.
Proof.
  induction q as [|q IH]; intros k Hk.
  - exists 0. cbn in *. lia.
  - rewrite Nat.pow_succ_r' in Hk. destruct (Nat.lt_ge_cases k (2 ^ q)) as [Hl|Hg].
    + destruct (IH k Hl) as (b & Hb & E). exists (2 * b). rewrite kperm_even, Nat.pow_succ_r'. split; [lia|exact E].
    + destruct (IH (2 * 2 ^ q - 1 - k) ltac:(lia)) as (b & Hb & E). exists (2 * b + 1). rewrite kperm_odd, E, Nat.pow_succ_r'. lia.
Qed.
Theorem srfft_ok : forall p x y, 2 <= p <= 29 -> length y = 2 ^ (p - 1) -> length x <= 2 ^ p ->
  exists y', srfft o ord y x = Ok y' /\ length y' = 2 ^ (p - 1) /\ forall k, k < 2 ^ (p - 1) -> nth k y' c0 = sdft o p (realc o x) k.
Proof.
  intros p x y Hp Hy Hx. unfold srfft. destruct (srfft_scramble_ok p x y ltac:(lia) Hy Hx) as (y1 & E1 & L1 & V1). rewrite E1. cbn [bind].
  destruct (shifted_permute_ok c0 (p - 1) y1 ltac:(lia) L1) as (y2 & E2 & L2 & V2). exists y2. split; [exact E2|]. split; [exact L2|].
  intros k Hk. destruct (kperm_surj (p - 1) k Hk) as (b & Hb & <-). rewrite V2 by exact Hb. rewrite <- sst_final by lia.
  rewrite <- (V1 b 0 Hb).
  - f_equal. rewrite Nat.sub_diag. cbn. lia.
  - rewrite Nat.sub_diag. cbn. lia.
Qed.
End S.
