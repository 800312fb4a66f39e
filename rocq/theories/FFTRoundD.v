(** Rounding error of fft and ifft in double precision. *)
From Coq Require Import ZArith Arith List Bool Lia Reals Lra.
From Flocq Require Import Core Relative BinarySingleNaN.
From Coquelicot Require Import Complex.
From Verif Require Import Base SeriesModel ExpansionModel ExpansionFloat ExpansionProofs ExpansionDiv NearestModel NearestProofs NearestArea
  FFTModel FFTLoop FFTMath FFTTwiddle FFTPerm FFTSpec FFTProofs FFTRoundModel FFTRound.
Import ListNotations.
Open Scope R_scope.

Notation big := (bpow radix2 1000).
Lemma small_add a b : fin a -> fin b -> Rabs (B2R a) + Rabs (B2R b) <= big ->
  fin (dadd a b) /\ Rabs (B2R (dadd a b) - (B2R a + B2R b)) <= u * (Rabs (B2R a) + Rabs (B2R b)).
Proof.
  intros Ha Hb L. assert (L' : Rabs (B2R a + B2R b) <= big) by (eapply Rle_trans; [apply Rabs_triang|exact L]).
  pose proof (Bplus_correct prec emax _ _ mode_NE a b Ha Hb) as C. rewrite fexp_FLT in C. cbn [round_mode] in C.
  rewrite Rlt_bool_true in C by (apply (rn_small _ 1000); [lia|exact L']). destruct C as (_ & C & _).
  assert (F : fin (dadd a b)) by exact C. split; [exact F|]. rewrite Rabs_minus_sym. eapply Rle_trans; [apply (dadd_err a b F)|].
  apply Rmult_le_compat_l; [rewrite u_val; lra|apply Rabs_triang].
Qed.
Lemma small_sub a b : fin a -> fin b -> Rabs (B2R a) + Rabs (B2R b) <= big ->
  fin (dsub a b) /\ Rabs (B2R (dsub a b) - (B2R a - B2R b)) <= u * (Rabs (B2R a) + Rabs (B2R b)).
Proof.
  intros Ha Hb L. assert (T : Rabs (B2R a - B2R b) <= Rabs (B2R a) + Rabs (B2R b)) by (unfold Rminus; eapply Rle_trans; [apply Rabs_triang|]; rewrite Rabs_Ropp; lra).
  assert (L' : Rabs (B2R a - B2R b) <= big) by lra.
  pose proof (Bminus_correct prec emax _ _ mode_NE a b Ha Hb) as C. rewrite fexp_FLT in C. cbn [round_mode] in C.
  rewrite Rlt_bool_true in C by (apply (rn_small _ 1000); [lia|exact L']). destruct C as (_ & C & _).
  assert (F : fin (dsub a b)) by exact C. split; [exact F|]. rewrite Rabs_minus_sym, (sub_rn _ _ F).
  eapply Rle_trans; [|apply Rmult_le_compat_l; [rewrite u_val; lra|exact T]]. unfold Rminus at 2 3 4. rewrite <- B2R_neg. apply add_err; apply fmt_B2R.
Qed.
Lemma small_mul a b : fin a -> fin b -> Rabs (B2R a * B2R b) <= big ->
  fin (dmul a b) /\ Rabs (B2R (dmul a b) - B2R a * B2R b) <= u * Rabs (B2R a * B2R b) + hm.
Proof.
  intros Ha Hb L. assert (F := small_fin_mul a b Ha Hb L). split; [exact F|]. rewrite Rabs_minus_sym, (mul_rn _ _ F). apply rn_err.
Qed.

(** Entries of the tables. *)
Definition tau : R := u + 2 * hm.
Lemma hm_small : hm <= / 2 ^ 200.
Proof.
  unfold hm. replace (/ 2 ^ 200) with (bpow radix2 (-200)); [apply bpow_le; lia|]. change (-200)%Z with (- (200))%Z.
  rewrite bpow_opp. rewrite <- (IZR_Zpower radix2) by lia. rewrite pow_IZR. reflexivity.
Qed.
Lemma pow_200 : 2 ^ 200 = 1606938044258990275541962092341162602522202993782792835301376.
Proof. rewrite pow_IZR. reflexivity. Qed.
Lemma one_comp c (v : list double) : rounded Double c v -> Forall fin v -> fin (hd dzero v) /\ Rabs (B2R (hd dzero v) - c) <= u * Rabs c + hm.
Proof.
  intros [L Gr] F. destruct v as [|a [|b v]]; try discriminate L. cbn [hd greedy] in *. destruct Gr as [-> _]. inversion F; subst.
  split; [assumption|]. rewrite Rabs_minus_sym. apply rn_err.
Qed.
Lemma table_near B mem (HB : encloses B mem) p zs : (p <= 30)%nat -> tables B p zs -> forall s j, (s < p)%nat -> (0 <= j <= 2 ^ Z.of_nat s / 4)%Z ->
  near (D_ops zs) B2R fin tau (root (D_ops zs) (S s) j) (root R_ops (S s) j).
Proof.
  intros Hp HT s j Hs Hj. destruct (HT s Hs) as (fb & E & F).
  assert (P2 : (2 ^ Z.of_nat s <= 2 ^ 29)%Z) by (apply Z.pow_le_mono_r; lia). assert (P1 : (1 <= 2 ^ Z.of_nat s)%Z) by (pose proof (Z.pow_pos_nonneg 2 (Z.of_nat s)); lia).
  pose proof (Z.div_le_upper_bound (2 ^ Z.of_nat s) 4 (2 ^ 27) ltac:(lia) ltac:(lia)) as P3.
  pose proof (Z.div_pos (2 ^ Z.of_nat s) 4 ltac:(lia) ltac:(lia)) as P4.
  destruct (twiddles_ok B mem HB Double (2 ^ Z.of_nat s / 4 + 1)%Z (2 * 2 ^ Z.of_nat s)%Z 200 (zs s) fb ltac:(lia) ltac:(lia) ltac:(lia) E) as (L & _ & V).
  assert (Hl : (Z.to_nat j < length (zs s))%nat) by (rewrite L; lia).
  pose proof (nth_error_nth' (zs s) ([], []) Hl) as En. specialize (V _ _ En). rewrite Z2Nat.id in V by lia.
  rewrite Forall_forall in F. specialize (F _ (nth_In (zs s) ([], []) Hl)).
  set (z := nth (Z.to_nat j) (zs s) ([], [])) in *. destruct V as [V1 V2], F as [F1 F2].
  destruct (one_comp _ _ (V1 F1) F1) as [G1 D1]. destruct (one_comp _ _ (V2 F2) F2) as [G2 D2].
  cbn [root D_ops R_ops]. unfold entry_d. cbn [pred]. fold z. unfold near, cv. cbn [fst snd]. split; [split; assumption|].
  unfold R_root. assert (EA : 2 * PI * IZR j / 2 ^ S s = 2 * PI * IZR j / IZR (2 * 2 ^ Z.of_nat s)).
  { f_equal. rewrite mult_IZR, <- pow_IZR. reflexivity. }
  rewrite EA. unfold angle in D1, D2. change (Init.Nat.pred (S s)) with s. fold z. set (t := 2 * PI * IZR j / IZR (2 * 2 ^ Z.of_nat s)) in *. clearbody t.
  unfold Cminus, Cplus, Copp. cbn [fst snd]. eapply Rle_trans; [apply (Cmod_le _ _ _ _ D1 D2)|].
  replace (u * Rabs (cos t) + hm, u * Rabs (sin t) + hm) with (Cplus (Cmult (RtoC u) (Rabs (cos t), Rabs (sin t))) (hm, hm)) by (unfold Cplus, Cmult, RtoC; cbn [fst snd]; apply f_equal2; ring).
  eapply Rle_trans; [apply Cmod_triangle|]. rewrite Cmod_mult, Cmod_R, Cmod_abs.
  assert (M1 : Cmod (cos t, sin t) = 1). { unfold Cmod. cbn [fst snd]. pose proof (sin2_cos2 t) as H. unfold Rsqr in H. replace (cos t ^ 2 + sin t ^ 2) with 1 by lra. apply sqrt_1. }
  rewrite M1, Rabs_pos_eq by (rewrite u_val; lra). pose proof (Cmod_both hm hm hm ltac:(rewrite Rabs_pos_eq; pose proof hm_pos; lra) ltac:(rewrite Rabs_pos_eq; pose proof hm_pos; lra)).
  unfold tau. pose proof hm_pos. lra.
Qed.

Notation Kd := (K u tau).
Lemma tau_ok : 0 <= tau <= 1 / 1000.
Proof. unfold tau. pose proof hm_pos. pose proof hm_small as Hs. assert (/ 2 ^ 200 <= 1 / 10000) by (rewrite pow_200; lra). rewrite u_val. lra. Qed.
Lemma u_ok : 0 <= u <= 1 / 1000.
Proof. rewrite u_val. lra. Qed.
Lemma Kd_le : Kd <= 1 + 13 / 2 * u.
Proof.
  unfold K, G, tau. pose proof hm_pos. pose proof hm_small as H0. assert (H1 : / 2 ^ 200 <= u * u * / 1000) by (rewrite u_val, pow_200; lra).
  assert (H2 : hm <= u * u * / 1000) by lra. clear H0 H1. rewrite u_val in *. lra.
Qed.
Lemma Kd_pow : forall k, (k <= 58)%nat -> Kd ^ k <= 1 + 7 * INR k * u.
Proof.
  induction k as [|k IH]; intros Hk; [cbn; lra|]. specialize (IH ltac:(lia)). cbn [pow]. rewrite S_INR.
  assert (Kn : INR k <= 58) by (replace 58 with (INR 58) by (cbn; lra); apply le_INR; lia). pose proof (pos_INR k).
  pose proof Kd_le as L. pose proof (K_1 u tau u_ok tau_ok) as L1.
  eapply Rle_trans; [apply Rmult_le_compat; [lra|apply pow_le; lra|exact L|exact IH]|].
  rewrite u_val. lra.
Qed.
Definition mu : R := bpow radix2 (-1000).
Lemma mu_pos : 0 < mu. Proof. apply bpow_gt_0. Qed.
Lemma mu_under : 3 * hm <= u * mu.
Proof.
  unfold hm, u, mu. rewrite <- bpow_plus. apply Rle_trans with (bpow radix2 2 * bpow radix2 (-1075)).
  - pose proof (bpow_gt_0 radix2 (-1075)). change (bpow radix2 2) with 4. lra.
  - rewrite <- bpow_plus. apply bpow_le. lia.
Qed.
Lemma hm_le_mu : hm <= mu.
Proof. unfold hm, mu. apply bpow_le. lia. Qed.
Lemma range_990 : 16 * bpow radix2 990 <= big.
Proof. change 16 with (bpow radix2 4). rewrite <- bpow_plus. apply bpow_le. lia. Qed.
Lemma mu_990 : mu <= bpow radix2 990.
Proof. apply bpow_le. lia. Qed.
Lemma pow_2 p k : (p <= 58)%nat -> (k <= p)%nat -> Kd ^ k <= 2.
Proof.
  intros Hp Hk. eapply Rle_trans; [apply Kd_pow; lia|]. assert (Kn : INR k <= 58) by (replace 58 with (INR 58) by (cbn; lra); apply le_INR; lia).
  pose proof (pos_INR k). rewrite u_val. lra.
Qed.

Section D.
Variable B : arb.
Variable mem : ball B -> R -> Prop.
Hypothesis HB : encloses B mem.
Variable ord : Z -> list nat.
Hypothesis Hord : sched_ok ord.
Variable p : nat.
Variable zs : nat -> list (list double * list double).
Hypothesis Hp : (1 <= p <= 29)%nat.
Hypothesis HT : tables B p zs.
Notation O := (D_ops zs).
Definition size (x : list double) : R := total (2 ^ p) (fun j => Cmod (packed R_ops (map B2R x) j) + mu).
Lemma size_mu x : mu <= size x.
Proof.
  unfold size. replace (2 ^ p)%nat with (S (2 ^ p - 1)) by (pose proof (pow2_pos p); lia). generalize (2 ^ p - 1)%nat. intros n.
  rewrite total_S. pose proof (Cmod_ge_0 (packed R_ops (map B2R x) n)) as H.
  assert (0 <= total n (fun j => Cmod (packed R_ops (map B2R x) j) + mu)); [|lra].
  replace 0 with (total n (fun _ => 0)) by (rewrite total_const; ring). apply total_le. intros i _. pose proof (Cmod_ge_0 (packed R_ops (map B2R x) i)). pose proof mu_pos. lra.
Qed.
Lemma neg_ok : forall a, fin a -> fin (dneg a) /\ B2R (dneg a) = - B2R a.
Proof. intros a F. split; [apply fin_neg; exact F|apply B2R_neg]. Qed.
Lemma fft_d : forall x y, length y = (2 ^ p)%nat -> (length x <= 2 * 2 ^ p)%nat -> Forall fin x -> size x <= bpow radix2 990 ->
  exists y', fft O ord y x = Ok y' /\ length y' = (2 ^ p)%nat /\
    forall k, (k < 2 ^ p)%nat -> near O B2R fin (7 * INR p * u * size x) (nth k y' (c0 O)) (dft R_ops p (packed R_ops (map B2R x)) k).
Proof.
  intros x y Hy Hx Fx HS. pose proof (size_mu x) as SM. pose proof mu_pos as M0. pose proof hm_le_mu as HM. pose proof mu_990 as M9. pose proof range_990 as R9. pose proof (pow_2 29 p ltac:(lia) ltac:(lia)) as P2.
  pose proof (Kpow_1 u tau u_ok tau_ok p) as P1.
  destruct (fft_near O B2R fin u hm tau big u_ok ltac:(pose proof hm_pos; lra) tau_ok small_add small_sub small_mul neg_ok p (table_near B mem HB p zs ltac:(lia) HT) ord Hord
    ltac:(split; reflexivity) p x y mu Hp (Nat.le_refl p) Hy Hx Fx ltac:(lra) mu_under) as (y' & E & L & V).
  { cbv zeta. match goal with |- context [total ?a ?b] => change (total a b) with (size x) end. assert (Kd ^ p * size x <= 2 * size x) by (apply Rmult_le_compat_r; lra). lra. }
  exists y'. split; [exact E|]. split; [exact L|]. intros k Hk. eapply near_mono; [apply (V k Hk)|]. fold (size x).
  apply Rmult_le_compat_r; [lra|]. pose proof (Kd_pow p ltac:(lia)). lra.
Qed.
Definition isize (y : list (double * double)) : R := total (2 ^ p) (fun k => Cmod (cv O B2R (nth k y (c0 O))) + mu).
Lemma isize_mu y : mu <= isize y.
Proof.
  unfold isize. replace (2 ^ p)%nat with (S (2 ^ p - 1)) by (pose proof (pow2_pos p); lia). generalize (2 ^ p - 1)%nat. intros n.
  rewrite total_S. pose proof (Cmod_ge_0 (cv O B2R (nth n y (c0 O)))) as H.
  assert (0 <= total n (fun k => Cmod (cv O B2R (nth k y (c0 O))) + mu)); [|lra].
  replace 0 with (total n (fun _ => 0)) by (rewrite total_const; ring). apply total_le. intros i _. pose proof (Cmod_ge_0 (cv O B2R (nth i y (c0 O)))). pose proof mu_pos. lra.
Qed.
Lemma ifft_d : forall x y, length y = (2 ^ p)%nat -> (length x <= 2 * 2 ^ p)%nat -> Forall (fun a => fin (fst a) /\ fin (snd a)) y -> isize y <= bpow radix2 990 ->
  exists x' y', ifft O ord x y = Ok (x', y') /\ length x' = length x /\ length y' = length y /\
    forall i, (i < length x)%nat -> fin (nth i x' dzero) /\
      Rabs (B2R (nth i x' dzero) - part R_ops i (idft R_ops p (fun k => cv O B2R (nth k y (c0 O))) (i / 2)%nat)) <= 7 * INR p * u * isize y.
Proof.
  intros x y Hy Hx Fy HS. pose proof (isize_mu y) as SM. pose proof mu_pos as M0. pose proof hm_le_mu as HM. pose proof mu_990 as M9. pose proof range_990 as R9. pose proof (pow_2 29 p ltac:(lia) ltac:(lia)) as P2.
  pose proof (Kpow_1 u tau u_ok tau_ok p) as P1.
  destruct (ifft_near O B2R fin u hm tau big u_ok ltac:(pose proof hm_pos; lra) tau_ok small_add small_sub small_mul neg_ok p (table_near B mem HB p zs ltac:(lia) HT) ord Hord
    p x y mu Hp (Nat.le_refl p) Hy Hx Fy ltac:(lra) mu_under) as (x' & y' & E & L & L' & V).
  { cbv zeta. match goal with |- context [total ?a ?b] => change (total a b) with (isize y) end. assert (Kd ^ p * isize y <= 2 * isize y) by (apply Rmult_le_compat_r; lra). lra. }
  exists x', y'. split; [exact E|]. split; [exact L|]. split; [exact L'|]. intros i Hi. destruct (V i Hi) as [F D]. split; [exact F|].
  eapply Rle_trans; [exact D|]. fold (isize y). apply Rmult_le_compat_r; [lra|]. pose proof (Kd_pow p ltac:(lia)). lra.
Qed.
Lemma trip_d : forall x0 x y, length y = (2 ^ p)%nat -> (length x0 <= 2 * 2 ^ p)%nat -> (length x <= 2 * 2 ^ p)%nat -> Forall fin x0 -> size x0 <= bpow radix2 960 ->
  exists y' x' y2, fft O ord y x0 = Ok y' /\ ifft O ord x y' = Ok (x', y2) /\ length x' = length x /\
    forall i, (i < length x)%nat -> fin (nth i x' dzero) /\ Rabs (B2R (nth i x' dzero) - 2 ^ p * B2R (nth i x0 dzero)) <= 2 ^ p * (28 * INR p * u * size x0).
Proof.
  intros x0 x y Hy H0 Hx Fx HS. pose proof (size_mu x0) as SM. pose proof mu_pos as M0. pose proof hm_le_mu as HM. pose proof (pow_2 58 (2 * p) ltac:(lia) ltac:(lia)) as P2.
  pose proof (Kpow_1 u tau u_ok tau_ok (2 * p)) as P1. assert (N1 : 1 <= 2 ^ p) by (apply pow_R1_Rle; lra).
  assert (N2 : 2 ^ p <= bpow radix2 29). { replace (bpow radix2 29) with (2 ^ 29) by (rewrite <- (IZR_Zpower radix2) by lia; rewrite pow_IZR; reflexivity). apply Rle_pow; [lra|lia]. }
  assert (R9 : 32 * (bpow radix2 29 * bpow radix2 960) <= big). { change 32 with (bpow radix2 5). rewrite <- !bpow_plus. apply bpow_le. lia. }
  destruct (round_trip_near O B2R fin u hm tau big u_ok ltac:(pose proof hm_pos; lra) tau_ok small_add small_sub small_mul neg_ok p (table_near B mem HB p zs ltac:(lia) HT) ord Hord
    ltac:(split; reflexivity) p x0 x y mu Hp (Nat.le_refl p) Hy H0 Hx Fx ltac:(lra) mu_under) as (y' & x' & y2 & E & E2 & L & V).
  { cbv zeta. match goal with |- context [total ?a ?b] => change (total a b) with (size x0) end. assert (Q : Kd ^ (2 * p) * (size x0 + mu) <= 2 * (2 * size x0)) by (apply Rmult_le_compat; lra).
    assert (Q2 : 2 ^ p * (Kd ^ (2 * p) * (size x0 + mu)) <= bpow radix2 29 * (4 * bpow radix2 960)).
    { apply Rmult_le_compat; [lra|apply Rmult_le_pos; lra|exact N2|lra]. }
    assert (Q3 : hm <= bpow radix2 29 * bpow radix2 960). { rewrite <- bpow_plus. apply bpow_le. lia. }
    replace (bpow radix2 29 * (4 * bpow radix2 960)) with (4 * (bpow radix2 29 * bpow radix2 960)) in Q2 by ring.
    set (q := bpow radix2 29 * bpow radix2 960) in *. set (w := 2 ^ p * (Kd ^ (2 * p) * (size x0 + mu))) in *. pose proof hm_pos. clearbody q w. lra. }
  exists y', x', y2. split; [exact E|]. split; [exact E2|]. split; [exact L|]. intros i Hi. destruct (V i Hi) as [F D]. split; [exact F|].
  eapply Rle_trans; [exact D|]. match goal with |- context [total ?a ?b] => change (total a b) with (size x0) end. apply Rmult_le_compat_l; [lra|]. pose proof (Kd_pow (2 * p) ltac:(lia)) as Q. rewrite mult_INR in Q. change (INR 2) with 2 in Q.
  replace (28 * INR p * u * size x0) with ((14 * INR p * u) * (2 * size x0)) by ring. apply Rmult_le_compat; lra.
Qed.
End D.
