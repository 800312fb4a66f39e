(** Last pass of the inverse shifted real FFT and the round trip (fft.cc:375-416). *)
From Coq Require Import ZArith Arith ArithRing List Bool Lia Ring.
From Verif Require Import Base SeriesModel SeriesProofs NewtonProofs FFTModel FFTLoop FFTMath FFTTwiddle FFTPerm FFTSpec FFTProofs FFTReal FFTShift FFTShift2 FFTShift3.
Import ListNotations.
Open Scope nat_scope.

Section S.
Variable o : ops.
Hypothesis Hok : ops_ok o.
Notation A := (FFTModel.A o).
Notation C := (FFTModel.A o * FFTModel.A o)%type.
Add Ring AringS4 : (ok_ring o Hok).
Add Ring CringS4 : (C_ring o Hok).
Notation cadd := (FFTModel.cadd o). Notation csub := (FFTModel.csub o). Notation cmul := (FFTModel.cmul o).
Notation conj := (FFTModel.conj o). Notation c0 := (FFTModel.c0 o). Notation c1 := (FFTMath.c1 o). Notation copp := (FFTMath.copp o).
Notation ci := (FFTMath.ci o). Notation w8 := (FFTMath.w8 o).
Notation root := (FFTModel.root o). Notation csum := (FFTMath.csum o).
Notation sst := (FFTShift.sst o). Notation lev := (FFTShift.lev o). Notation tws := (FFTShift.tws o).
Notation ivl := (FFTShift3.ivl o). Notation dp := (FFTShift3.dp o). Notation dotr := (FFTShift3.dotr o). Notation dotc := (FFTModel.dotc o).
Notation dblc := (FFTShift3.dblc o). Notation b1 := (FFTShift2.b1 o). Notation bfly_0 := (FFTModel.bfly_0 o).
Notation at_ := (fun (y : list C) i => nth i y c0).
Notation za := (z0 o).
Notation X := (FFTShift2.X o).
Ltac cr := unfold FFTModel.cadd, FFTModel.csub, FFTModel.cmul, FFTModel.conj, FFTModel.c0, FFTMath.c1, FFTMath.copp, FFTMath.ci,
  FFTModel.left, FFTModel.right in *; cbn [fst snd] in *; apply f_equal2; ring.

Definition i0 (u : C) : A * A := (fst u, opp o (snd u)).
Lemma i0_adj : forall a b u, dp (bfly_0 a b) u = add o (mul o a (fst (i0 u))) (mul o b (snd (i0 u))).
Proof. intros a b []. unfold FFTShift3.dp, FFTModel.bfly_0, i0. cbn [fst snd]. ring. Qed.
Lemma i0_bfly : forall a b, i0 (bfly_0 a b) = (a, b).
Proof. intros. unfold i0, FFTModel.bfly_0. cbn [fst snd]. apply f_equal2; ring. Qed.
Lemma i0_dbl : forall u, i0 (dblc u) = (add o (fst (i0 u)) (fst (i0 u)), add o (snd (i0 u)) (snd (i0 u))).
Proof. intros []. unfold i0, FFTShift3.dblc, FFTModel.cadd. cbn [fst snd]. apply f_equal2; ring. Qed.
Definition ib (t1 t3 u0 u1 : C) : C * C :=
  (cadd (cmul t1 u0) (conj (cmul t3 u1)), cmul w8 (csub (cmul t1 u0) (conj (cmul t3 u1)))).
Lemma ib_adj : forall t1 t3 a b u0 u1, add o (dp (fst (b1 t1 t3 a b)) u0) (dp (snd (b1 t1 t3 a b)) u1) = add o (dp a (fst (ib t1 t3 u0 u1))) (dp b (snd (ib t1 t3 u0 u1))).
Proof.
  intros [] [] [] [] [] []. unfold FFTShift3.dp, FFTShift2.b1, ib, FFTModel.cadd, FFTModel.csub, FFTModel.conj, FFTModel.cmul. destruct w8. cbn [fst snd]. ring.
Qed.
Lemma ib_b1 : forall s i k a b, ib (root s i) (root s k) (fst (b1 (root s i) (root s k) a b)) (snd (b1 (root s i) (root s k) a b)) = (dblc a, dblc b).
Proof.
  intros s i k a b. unfold ib, FFTShift2.b1, FFTShift3.dblc. cbn [fst snd]. rewrite !(conj_mul o Hok (root s k) (conj _)), !(conj_conj o Hok).
  pose proof (rt_unit o Hok s i) as H1. pose proof (rt_unit o Hok s k) as H2. pose proof (e8_unit o Hok) as H3.
  set (t := root s i) in *. set (v := root s k) in *. set (ct := conj t) in *. set (cv := conj v) in *. set (e := w8) in *. set (ce := conj e) in *.
  clearbody t v ct cv e ce. apply f_equal2; ring [H1 H2 H3].
Qed.
Lemma ib_dbl : forall t v a b, ib t v (dblc a) (dblc b) = (dblc (fst (ib t v a b)), dblc (snd (ib t v a b))).
Proof.
  intros t v a b. unfold ib, FFTShift3.dblc. cbn [fst snd]. replace (cmul v (cadd b b)) with (cadd (cmul v b) (cmul v b)) by ring. rewrite (conj_add o Hok).
  apply f_equal2; ring.
Qed.
Definition GA (r p nr j : nat) (u : list C) : list A :=
  let T i := root (S p) (Z.of_nat i) in
  match r, u with
  | 1, [u0] => let a := i0 u0 in [fst a; snd a]
  | 2, [u0; u1] => let q := ib (T j) (T (3 * j)) u0 u1 in let a := i0 (fst q) in let b := i0 (snd q) in [fst a; fst b; snd a; snd b]
  | 3, [u0; u1; u2; u3] =>
      let g := ivl (T (8 * j)) u0 u1 in let h := ivl (T (8 * j)) u2 u3 in
      let q := ib (T j) (T (3 * j)) (fst g) (fst h) in
      let q' := ib (T (j + nr)) (T (3 * (j + nr))) (snd g) (snd h) in
      let a := i0 (fst q) in let b := i0 (fst q') in let c := i0 (snd q) in let d := i0 (snd q') in
      [fst a; fst b; fst c; fst d; snd a; snd b; snd c; snd d]
  | _, _ => []
  end.
Lemma GA_len : forall r p nr j u, 1 <= r <= 3 -> length u = 2 ^ r / 2 -> length (GA r p nr j u) = 2 ^ r.
Proof.
  intros r p nr j u Hr Hu. assert (r = 1 \/ r = 2 \/ r = 3) as [->|[->| ->]] by lia.
  - change (2 ^ 1 / 2) with 1 in *. destruct u as [|? [|? u]]; try discriminate Hu. reflexivity.
  - change (2 ^ 2 / 2) with 2 in *. destruct u as [|? [|? [|? u]]]; try discriminate Hu. reflexivity.
  - change (2 ^ 3 / 2) with 4 in *. destruct u as [|? [|? [|? [|? [|? u]]]]]; try discriminate Hu. reflexivity.
Qed.
Lemma dotr_cons : forall a v b u, dotr (a :: v) (b :: u) = add o (mul o a b) (dotr v u). Proof. reflexivity. Qed.
Lemma dotr_nil : forall u, dotr [] u = za. Proof. reflexivity. Qed.
Lemma GA_adj : forall r p nr j v u, 1 <= r <= 3 -> length v = 2 ^ r -> length u = 2 ^ r / 2 -> dotc (FA o r p nr j v) u = dotr v (GA r p nr j u).
Proof.
  intros r p nr j v u Hr Hv Hu. assert (r = 1 \/ r = 2 \/ r = 3) as [->|[->| ->]] by lia.
  - change (2 ^ 1 / 2) with 1 in *. change (2 ^ 1) with 2 in *. destruct v as [|x0 [|x1 [|? v]]]; try discriminate Hv. destruct u as [|u0 [|? u]]; try discriminate Hu.
    cbn [FA GA]. rewrite !(dotc_cons o), !(dotc_nil o), !dotr_cons, !dotr_nil. rewrite i0_adj. ring.
  - change (2 ^ 2 / 2) with 2 in *. change (2 ^ 2) with 4 in *. destruct v as [|x0 [|x1 [|x2 [|x3 [|? v]]]]]; try discriminate Hv. destruct u as [|u0 [|u1 [|? u]]]; try discriminate Hu.
    cbn [FA GA]. cbv zeta. rewrite !(dotc_cons o), !(dotc_nil o), !dotr_cons, !dotr_nil.
    set (t := root _ (Z.of_nat j)). set (t' := root _ (Z.of_nat (3 * j))).
    pose proof (ib_adj t t' (bfly_0 x0 x2) (bfly_0 x1 x3) u0 u1) as H. rewrite !i0_adj in H.
    transitivity (add o (dp (fst (b1 t t' (bfly_0 x0 x2) (bfly_0 x1 x3))) u0) (dp (snd (b1 t t' (bfly_0 x0 x2) (bfly_0 x1 x3))) u1)); [ring|].
    rewrite H. ring.
  - change (2 ^ 3 / 2) with 4 in *. change (2 ^ 3) with 8 in *. destruct v as [|x0 [|x1 [|x2 [|x3 [|x4 [|x5 [|x6 [|x7 [|? v]]]]]]]]]; try discriminate Hv.
    destruct u as [|u0 [|u1 [|u2 [|u3 [|? u]]]]]; try discriminate Hu.
    cbn [FA GA]. cbv zeta. rewrite !(dotc_cons o), !(dotc_nil o), !dotr_cons, !dotr_nil.
    set (t := root _ (Z.of_nat j)). set (t' := root _ (Z.of_nat (3 * j))). set (v := root _ (Z.of_nat (j + nr))). set (v' := root _ (Z.of_nat (3 * (j + nr)))).
    set (w := root _ (Z.of_nat (8 * j))).
    set (q := b1 t t' (bfly_0 x0 x4) (bfly_0 x2 x6)). set (q' := b1 v v' (bfly_0 x1 x5) (bfly_0 x3 x7)).
    pose proof (ivl_adj o Hok w (fst q) (fst q') u0 u1) as H1. pose proof (ivl_adj o Hok w (snd q) (snd q') u2 u3) as H2.
    set (g := ivl w u0 u1) in *. set (h := ivl w u2 u3) in *.
    pose proof (ib_adj t t' (bfly_0 x0 x4) (bfly_0 x2 x6) (fst g) (fst h)) as H3. pose proof (ib_adj v v' (bfly_0 x1 x5) (bfly_0 x3 x7) (snd g) (snd h)) as H4.
    fold q in H3. fold q' in H4. set (k := ib t t' (fst g) (fst h)) in *. set (l := ib v v' (snd g) (snd h)) in *. rewrite !i0_adj in H3, H4.
    transitivity (add o (add o (dp (fst (lev w (fst q) (fst q'))) u0) (dp (snd (lev w (fst q) (fst q'))) u1)) (add o (dp (fst (lev w (snd q) (snd q'))) u2) (dp (snd (lev w (snd q) (snd q'))) u3))); [ring|].
    rewrite H1, H2.
    transitivity (add o (add o (dp (fst q) (fst g)) (dp (snd q) (fst h))) (add o (dp (fst q') (snd g)) (dp (snd q') (snd h)))); [ring|].
    rewrite H3, H4. ring.
Qed.
Lemma GA_FA : forall r p nr j v, 1 <= r <= 3 -> length v = 2 ^ r -> GA r p nr j (FA o r p nr j v) = map (times2 o (r - 1)) v.
Proof.
  intros r p nr j v Hr Hv. assert (r = 1 \/ r = 2 \/ r = 3) as [->|[->| ->]] by lia.
  - change (2 ^ 1) with 2 in *. destruct v as [|x0 [|x1 [|? v]]]; try discriminate Hv. cbn [FA GA]. rewrite i0_bfly. reflexivity.
  - change (2 ^ 2) with 4 in *. destruct v as [|x0 [|x1 [|x2 [|x3 [|? v]]]]]; try discriminate Hv. cbn [FA GA]. rewrite ib_b1. cbn [fst snd].
    rewrite !i0_dbl, !i0_bfly. reflexivity.
  - change (2 ^ 3) with 8 in *. destruct v as [|x0 [|x1 [|x2 [|x3 [|x4 [|x5 [|x6 [|x7 [|? v]]]]]]]]]; try discriminate Hv. cbn [FA GA].
    rewrite !(ivl_lev2 o Hok). cbn [fst snd]. rewrite !ib_dbl, !ib_b1. cbn [fst snd]. rewrite !i0_dbl, !i0_bfly. reflexivity.
Qed.

(** ** Guarded stores *)
Definition stored (op : bool) (old v : A) : A := if op then add o old v else v.
Lemma setx_ok : forall op x i v, exists x', setx o op x i v = Ok x' /\ length x' = length x /\
  (i < length x -> nth i x' za = stored op (nth i x za) v) /\ forall k, k <> i -> nth k x' za = nth k x za.
Proof.
  intros op x i v. unfold setx. destruct (Nat.ltb_spec i (length x)) as [H|H].
  - rewrite (aget_ok za) by exact H. cbn [bind]. unfold aset. destruct (Nat.ltb_spec i (length x)); [|lia]. eexists. split; [reflexivity|].
    split; [apply upd_length|]. split; intros; rewrite upd_nth by exact H.
    + rewrite Nat.eqb_refl. reflexivity.
    + destruct (Nat.eqb_spec k i); [contradiction|reflexivity].
  - exists x. repeat split; auto. lia.
Qed.
Lemma setxs_ok : forall op T is x, NoDup is -> exists x', setxs o op x is (map T is) = Ok x' /\ length x' = length x /\
  (forall i, In i is -> nth i x' za = if i <? length x then stored op (nth i x za) (T i) else za) /\ forall i, ~ In i is -> nth i x' za = nth i x za.
Proof.
  intros op T is. induction is as [|a is IH]; intros x ND; cbn [setxs map].
  - exists x. repeat split; auto. intros i [].
  - inversion ND as [|? ? Ha ND']; subst. destruct (setx_ok op x a (T a)) as (x1 & E1 & L1 & I1 & U1). rewrite E1. cbn [bind].
    destruct (IH x1 ND') as (x2 & E2 & L2 & I2 & U2). exists x2. split; [exact E2|]. split; [lia|]. split.
    + intros i [<-|Hi].
      * rewrite U2 by exact Ha. destruct (Nat.ltb_spec a (length x)); [apply I1; assumption|]. apply nth_overflow. lia.
      * rewrite I2 by exact Hi. rewrite L1. rewrite U1 by (intros ->; contradiction). reflexivity.
    + intros i Hi. rewrite U2 by (intros H; apply Hi; right; exact H). apply U1. intros ->. apply Hi. left. reflexivity.
Qed.

(** ** Last pass *)
Variable ord : Z -> list nat.
Hypothesis Hord : sched_ok ord.
Lemma last_pass : forall op r p xx tw L y x, 1 <= r <= 3 -> r <= p -> (r = 1 -> p = 1) -> (forall i, tw i = Ok (root (S p) i)) ->
  length y = 2 ^ (p - 1) -> NoDup L -> (forall j, In j L <-> j < 2 ^ (p - r)) -> at_sst o p xx y r ->
  exists x', run L (isrfft_last o op r tw (2 ^ (p - r)) y) x = Ok x' /\ length x' = length x /\
    (forall i, i < 2 ^ p -> nth i x' za = if i <? length x then stored op (nth i x za) (times2 o (r - 1) (X xx i)) else za) /\
    (forall i, 2 ^ p <= i -> nth i x' za = nth i x za).
Proof.
  intros op r p xx tw L y x Hr Hp H1 Ht Hy ND HL HS. pose proof (pow2_pos (p - r)) as Hnr. set (nr := 2 ^ (p - r)) in *.
  assert (Hn : 2 ^ (p - 1) = 2 ^ r / 2 * nr). { rewrite pow_half by lia. unfold nr. rewrite <- Nat.pow_add_r. f_equal. lia. }
  assert (Hn2 : 2 ^ p = 2 ^ r * nr). { unfold nr. rewrite <- Nat.pow_add_r. f_equal. lia. }
  destruct (run_local za (length x) (isrfft_last o op r tw nr y) (fun j => stride (2 ^ r) j nr)
     (fun j i a => if i <? length x then stored op (a i) (times2 o (r - 1) (X xx i)) else za) L) with (y := x)
    as (x' & E & L' & V & U); auto.
  - intros j j' i Hj Hj' Hi Hi'. apply HL in Hj, Hj'. apply in_stride in Hi; [|exact Hj]. apply in_stride in Hi'; [|exact Hj']. lia.
  - intros j i a b Hj Hi Hab. rewrite (Hab i Hi). reflexivity.
  - intros j z Hj Hz. apply HL in Hj. unfold isrfft_last.
    rewrite (gets_ok c0) by (intros i Hi; rewrite Hy, Hn; apply stride_lt with (j := j); assumption). cbn [bind].
    assert (Ey : map (at_ y) (stride (2 ^ r / 2) j nr) = FA o r p nr j (ins o xx j nr (2 ^ r))).
    { unfold nr at 2 3. rewrite (FA_ins o Hok) by (auto; intros Hr1; specialize (H1 Hr1); unfold nr in Hj; rewrite Hr1, H1 in Hj; cbn in Hj; lia).
      unfold stride. rewrite map_map. apply map_ext_in. intros b Hb. apply in_seq in Hb. rewrite <- (HS b j).
      - fold nr. f_equal. lia.
      - rewrite pow_half in Hb by lia. lia.
      - exact Hj. }
    rewrite Ey.
    assert (Li : length (ins o xx j nr (2 ^ r)) = 2 ^ r) by (unfold ins; rewrite map_length, seq_length; reflexivity).
    assert (LF : length (FA o r p nr j (ins o xx j nr (2 ^ r))) = 2 ^ r / 2) by (apply (bfly_FA o Hok r tw p nr j _ Hr Ht Li)).
    rewrite (transpose_r_ok o Hok (2 ^ r) _ (FA o r p nr j) (GA r p nr j (FA o r p nr j (ins o xx j nr (2 ^ r))))).
    2:{ intros v Hv. apply (bfly_FA o Hok); assumption. }
    2:{ intros v Hv. apply GA_adj; assumption. }
    2:{ apply GA_len; assumption. }
    cbn [bind]. rewrite GA_FA by assumption.
    assert (Ei : map (times2 o (r - 1)) (ins o xx j nr (2 ^ r)) = map (fun i => times2 o (r - 1) (X xx i)) (stride (2 ^ r) j nr)).
    { unfold ins, stride. rewrite !map_map. apply map_ext. intros i. do 2 f_equal. lia. }
    rewrite Ei. destruct (setxs_ok op (fun i => times2 o (r - 1) (X xx i)) (stride (2 ^ r) j nr) z) as (z' & Ez & Lz & Iz & Uz).
    { apply stride_nodup. exact Hnr. }
    exists z'. rewrite Hz in *. auto.
  - exists x'. split; [exact E|]. split; [exact L'|]. split; intros i Hi.
    + assert (Hm : i mod nr < nr) by (apply Nat.mod_upper_bound; lia). apply (V (i mod nr)); [apply HL; exact Hm|].
      apply in_stride; [exact Hm|]. split; [reflexivity|]. apply Nat.div_lt_upper_bound; [lia|]. rewrite Nat.mul_comm, <- Hn2. exact Hi.
    + apply U. intros j Hj HI. apply HL in Hj. pose proof (stride_lt (2 ^ r) j nr i Hj HI). lia.
Qed.
Lemma times2_add : forall a b t, times2 o a (times2 o b t) = times2 o (a + b) t.
Proof. induction a as [|a IH]; intros b t; [reflexivity|]. cbn [times2 Nat.add]. rewrite IH. reflexivity. Qed.
Lemma run_one : forall (Y : Type) (f : nat -> Y -> res Y) y, run [0] f y = f 0 y.
Proof. intros. cbn [run]. destruct (f 0 y); reflexivity. Qed.
Theorem isrfft_scramble_ok : forall op p xx y x, 1 <= p <= 29 -> length y = 2 ^ (p - 1) -> length x <= 2 * 2 ^ p -> at_sst o p xx y p ->
  exists x' y', isrfft_scramble o ord op x y = Ok (x', y') /\ length x' = length x /\ length y' = length y /\
    (forall i, i < 2 ^ p -> i < length x -> nth i x' za = stored op (nth i x za) (times2 o (p - 1) (X xx i))) /\
    (forall i, 2 ^ p <= i -> nth i x' za = nth i x za).
Proof.
  intros op p xx y x Hp Hy Hx HS. unfold isrfft_scramble. rewrite Hy, ctz_2p, two_half by lia. pose proof (pow2_pos p).
  destruct (Nat.eqb_spec (2 ^ p) 0); [lia|]. rewrite Nat.eqb_refl. destruct (Nat.leb_spec (length x) (2 * 2 ^ p)); [|lia]. cbn [andb slow_assert bind].
  destruct (inv_passes_ok o Hok ord Hord p xx p 0 y) as (y1 & E1 & L1 & V1); auto; try lia.
  { replace (p - 0) with p by lia. exact HS. }
  rewrite E1. cbn [bind]. replace (p - 3 - 0) with (p - 3) in V1 by lia.
  assert (Last : forall L r tw, NoDup L -> 1 <= r <= 3 -> r <= p -> (r = 1 -> p = 1) -> (forall i, tw i = Ok (root (S p) i)) -> (forall j, In j L <-> j < 2 ^ (p - r)) ->
    p - 3 = p - r -> exists x' y', (x0 <- run L (isrfft_last o op r tw (2 ^ (p - r)) y1) x ;; Ok (x0, y1)) = Ok (x', y') /\ length x' = length x /\ length y' = 2 ^ (p - 1) /\
    (forall i, i < 2 ^ p -> i < length x -> nth i x' za = stored op (nth i x za) (times2 o (p - 1) (X xx i))) /\
    (forall i, 2 ^ p <= i -> nth i x' za = nth i x za)).
  { intros L r tw ND Hr Hrp H1 Ht HL Hc. destruct (last_pass op r p (xiter o (p - 3) xx) tw L y1 x Hr Hrp H1 Ht L1 ND HL) as (x' & E & L' & V & U).
    { rewrite Hc in V1. replace (p - (p - r)) with r in V1 by lia. rewrite Hc. exact V1. }
    rewrite E. cbn [bind]. exists x', y1. split; [reflexivity|]. split; [exact L'|]. split; [exact L1|]. split; [|exact U].
    intros i Hi Hil. rewrite V by exact Hi. destruct (Nat.ltb_spec i (length x)); [|lia]. f_equal. unfold FFTShift2.X. rewrite (nth_xiter o Hok), times2_add. f_equal. lia. }
  destruct p as [|[|[|s]]]; [lia| | |].
  - destruct (Last [0] 1 (const_tw o 1)) as (x' & y' & E & R).
    { constructor; [intros []|constructor]. } { lia. } { lia. } { reflexivity. } { intros i. apply const_tw_ok. lia. }
    { intros j. cbn. lia. } { reflexivity. }
    exists x', y'. split; [|exact R]. rewrite run_one in E. exact E.
  - destruct (Last [0] 2 (const_tw o 2)) as (x' & y' & E & R).
    { constructor; [intros []|constructor]. } { lia. } { lia. } { lia. } { intros i. apply const_tw_ok. lia. }
    { intros j. cbn. lia. } { reflexivity. }
    exists x', y'. split; [|exact R]. rewrite run_one in E. exact E.
  - change 8 with (2 ^ 3) at 1 2. rewrite npow_div by lia.
    destruct (def_loop_run ord _ (2 ^ (S (S (S s)) - 3)) (isrfft_last o op 3 (big_slice o (S (S (S s)))) (2 ^ (S (S (S s)) - 3)) y1) x Hord) as (L & E & ND & HL).
    { pose proof (pow_bound (S (S (S s)) - 3) 30 ltac:(lia)) as Hb. change (Z.of_nat 30) with 30%Z in Hb. lia. }
    rewrite E. apply Last; auto; try lia. intros i. apply (big_slice_ok o Hok). lia.
Qed.
End S.
