(** Rounding error of the complex transforms (fft.cc:174-248): when the scalar operations round, every
    pass multiplies the relative error by a constant.  The error is measured against the exact transform
    of C07 and C08 over the reals. *)
From Coq Require Import ZArith Arith List Bool Lia Reals Lra Psatz.
From Coquelicot Require Import Complex.
From Verif Require Import Base SeriesModel FFTModel FFTLoop FFTMath FFTTwiddle FFTPerm FFTSpec FFTProofs.
Import ListNotations.
Open Scope R_scope.

(** ** Moduli *)
Lemma Cmod_le : forall x y a b, Rabs x <= a -> Rabs y <= b -> Cmod (x, y) <= Cmod (a, b).
Proof.
  intros x y a b H1 H2. unfold Cmod. cbn [fst snd]. apply sqrt_le_1_alt. rewrite <- (pow2_abs x), <- (pow2_abs y).
  apply Rplus_le_compat; apply pow_incr; split; auto; apply Rabs_pos.
Qed.
Lemma Cmod_both : forall x y B, Rabs x <= B -> Rabs y <= B -> Cmod (x, y) <= 71 / 50 * B.
Proof.
  intros x y B H1 H2. assert (P : 0 <= B) by (eapply Rle_trans; [apply Rabs_pos|exact H1]).
  eapply Rle_trans; [apply (Cmod_le x y B B H1 H2)|]. unfold Cmod. cbn [fst snd].
  rewrite <- (sqrt_Rsqr (71 / 50 * B)) by lra. apply sqrt_le_1_alt. unfold Rsqr. nra.
Qed.
Lemma Cmod_abs : forall a b, Cmod (Rabs a, Rabs b) = Cmod (a, b).
Proof. intros a b. unfold Cmod. cbn [fst snd]. rewrite !pow2_abs. reflexivity. Qed.
Lemma Cmod_add_err : forall (a b : R * R) x y u, 0 <= u ->
  Rabs x <= u * (Rabs (fst a) + Rabs (fst b)) -> Rabs y <= u * (Rabs (snd a) + Rabs (snd b)) -> Cmod (x, y) <= u * (Cmod a + Cmod b).
Proof.
  intros [a1 a2] [b1 b2] x y u Hu H1 H2. cbn [fst snd] in *. eapply Rle_trans; [apply (Cmod_le _ _ _ _ H1 H2)|].
  assert (E : (u * (Rabs a1 + Rabs b1), u * (Rabs a2 + Rabs b2)) = Cmult (RtoC u) (Cplus (Rabs a1, Rabs a2) (Rabs b1, Rabs b2))).
  { unfold Cmult, Cplus, RtoC. cbn [fst snd]. apply f_equal2; ring. }
  rewrite E, Cmod_mult, Cmod_R, (Rabs_pos_eq u) by exact Hu. apply Rmult_le_compat_l; [exact Hu|].
  eapply Rle_trans; [apply Cmod_triangle|]. rewrite !Cmod_abs. lra.
Qed.
Lemma Cmod_parts : forall a b : R, Rabs a <= Cmod (a, b) /\ Rabs b <= Cmod (a, b).
Proof.
  intros a b. unfold Cmod. cbn [fst snd]. split; [rewrite <- (sqrt_Rsqr_abs a)|rewrite <- (sqrt_Rsqr_abs b)]; apply sqrt_le_1_alt; unfold Rsqr; nra.
Qed.
Lemma Cmod_dot : forall a b c d, Rabs (a * c) + Rabs (b * d) <= Cmod (a, b) * Cmod (c, d).
Proof.
  intros a b c d. rewrite !Rabs_mult. rewrite <- (Cmod_abs a b), <- (Cmod_abs c d).
  replace (Cmod (Rabs c, Rabs d)) with (Cmod (Rabs c, - Rabs d)) by (unfold Cmod; cbn [fst snd]; f_equal; ring).
  rewrite <- Cmod_mult. unfold Cmult. cbn [fst snd].
  pose proof (Cmod_parts (Rabs a * Rabs c - Rabs b * - Rabs d) (Rabs a * - Rabs d + Rabs b * Rabs c)) as [H _].
  pose proof (Rle_abs (Rabs a * Rabs c - Rabs b * - Rabs d)). lra.
Qed.
Lemma Cmod_root : forall s j, Cmod (root R_ops s j) = 1.
Proof.
  intros s j. cbn [R_ops root]. unfold R_root, Cmod. cbn [fst snd]. set (t := 2 * PI * IZR j / 2 ^ s) in *.
  pose proof (sin2_cos2 t) as H. unfold Rsqr in H. replace (cos _ ^ 2 + sin _ ^ 2) with 1 by (rewrite <- H; unfold t; ring). apply sqrt_1.
Qed.
Lemma Cmod_cj : forall z : R * R, Cmod (conj R_ops z) = Cmod z.
Proof. intros [x y]. unfold Cmod, conj. cbn [fst snd R_ops opp]. f_equal. ring. Qed.

(** f 0 + ... + f (n - 1) *)
Definition total (n : nat) (f : nat -> R) : R := fold_right Rplus 0 (map f (seq 0 n)).
Lemma total_S : forall n f, total (S n) f = total n f + f n.
Proof.
  intros n f. unfold total. rewrite seq_S, map_app, fold_right_app. cbn [map fold_right Nat.add]. generalize (map f (seq 0 n)).
  induction l as [|a l IH]; cbn [fold_right]; [ring|]. rewrite IH. ring.
Qed.
Lemma csum_total : forall n f, fst (csum R_ops n (fun q => (f q, 0))) = total n f.
Proof.
  induction n as [|n IH]; intros f; [reflexivity|]. rewrite total_S, <- IH. cbn [csum]. reflexivity.
Qed.

Section Rnd.
Variable o : ops.
Variable val : A o -> R.
Variable fin : A o -> Prop.
Variables u eta tau big : R.
Hypothesis Hu : 0 <= u <= 1 / 1000.
Hypothesis Heta : 0 <= eta.
Hypothesis Htau : 0 <= tau <= 1 / 1000.
Hypothesis Hadd : forall a b, fin a -> fin b -> Rabs (val a) + Rabs (val b) <= big ->
  fin (add o a b) /\ Rabs (val (add o a b) - (val a + val b)) <= u * (Rabs (val a) + Rabs (val b)).
Hypothesis Hsub : forall a b, fin a -> fin b -> Rabs (val a) + Rabs (val b) <= big ->
  fin (sub o a b) /\ Rabs (val (sub o a b) - (val a - val b)) <= u * (Rabs (val a) + Rabs (val b)).
Hypothesis Hmul : forall a b, fin a -> fin b -> Rabs (val a * val b) <= big ->
  fin (mul o a b) /\ Rabs (val (mul o a b) - val a * val b) <= u * Rabs (val a * val b) + eta.
Hypothesis Hopp : forall a, fin a -> fin (opp o a) /\ val (opp o a) = - val a.

Notation Co := (A o * A o)%type.
Definition cv (a : Co) : R * R := (val (fst a), val (snd a)).
(** Finite and within e of z. *)
Definition near (e : R) (a : Co) (z : R * R) : Prop :=
  (fin (fst a) /\ fin (snd a)) /\ Cmod (Cminus (cv a) z) <= e.

(** The tables up to 2^sl points. *)
Variable sl : nat.
Hypothesis Htab : forall s j, (s < sl)%nat -> (0 <= j <= 2 ^ Z.of_nat s / 4)%Z -> near tau (root o (S s) j) (root R_ops (S s) j).

Lemma near_mono : forall e e' a z, near e a z -> e <= e' -> near e' a z.
Proof. intros e e' a z [F H] L. split; [exact F|lra]. Qed.
Lemma near_pos : forall e a z, near e a z -> 0 <= e.
Proof. intros e a z [F H]. eapply Rle_trans; [apply Cmod_ge_0|exact H]. Qed.
Lemma near_size : forall e a z, near e a z -> Cmod (cv a) <= Cmod z + e.
Proof.
  intros e a z [F H]. replace (cv a) with (Cplus z (Cminus (cv a) z)) by ring. eapply Rle_trans; [apply Cmod_triangle|]. lra.
Qed.
Lemma err_split : forall (a b c : R * R) e f, Cmod (Cminus a b) <= e -> Cmod (Cminus b c) <= f -> Cmod (Cminus a c) <= e + f.
Proof.
  intros a b c e f H1 H2. replace (Cminus a c) with (Cplus (Cminus a b) (Cminus b c)) by ring.
  eapply Rle_trans; [apply Cmod_triangle|]. lra.
Qed.

Lemma near_add : forall E0 E1 M a b x y, near E0 a x -> near E1 b y -> Cmod x + E0 + (Cmod y + E1) <= M -> M <= big ->
  near (E0 + E1 + u * M) (cadd o a b) (Cplus x y).
Proof.
  intros E0 E1 M a b x y Ha Hb HM HB. pose proof (near_size _ _ _ Ha) as Sa. pose proof (near_size _ _ _ Hb) as Sb.
  destruct Ha as [[Fa Fa'] Ea], Hb as [[Fb Fb'] Eb]. unfold cadd.
  destruct (Cmod_parts (val (fst a)) (val (snd a))) as [A1 A2], (Cmod_parts (val (fst b)) (val (snd b))) as [B1 B2].
  fold (cv a) in A1, A2. fold (cv b) in B1, B2.
  destruct (Hadd (fst a) (fst b) Fa Fb ltac:(lra)) as [F1 G1]. destruct (Hadd (snd a) (snd b) Fa' Fb' ltac:(lra)) as [F2 G2].
  split; [split; assumption|].
  replace (E0 + E1 + u * M) with (u * M + (E0 + E1)) by ring. apply (err_split _ (Cplus (cv a) (cv b))).
  - eapply Rle_trans; [|apply Rmult_le_compat_l; [apply Hu|]; apply (Rle_trans _ (Cmod (cv a) + Cmod (cv b))); [apply Rle_refl|lra]].
    apply (Cmod_add_err (cv a) (cv b)); [apply Hu| |]; cbn [cv fst snd Cplus Copp Cminus]; assumption.
  - replace (Cminus (Cplus (cv a) (cv b)) (Cplus x y)) with (Cplus (Cminus (cv a) x) (Cminus (cv b) y)) by ring.
    eapply Rle_trans; [apply Cmod_triangle|]. lra.
Qed.
Lemma near_sub : forall E0 E1 M a b x y, near E0 a x -> near E1 b y -> Cmod x + E0 + (Cmod y + E1) <= M -> M <= big ->
  near (E0 + E1 + u * M) (csub o a b) (Cminus x y).
Proof.
  intros E0 E1 M a b x y Ha Hb HM HB. pose proof (near_size _ _ _ Ha) as Sa. pose proof (near_size _ _ _ Hb) as Sb.
  destruct Ha as [[Fa Fa'] Ea], Hb as [[Fb Fb'] Eb]. unfold csub.
  destruct (Cmod_parts (val (fst a)) (val (snd a))) as [A1 A2], (Cmod_parts (val (fst b)) (val (snd b))) as [B1 B2].
  fold (cv a) in A1, A2. fold (cv b) in B1, B2.
  destruct (Hsub (fst a) (fst b) Fa Fb ltac:(lra)) as [F1 G1]. destruct (Hsub (snd a) (snd b) Fa' Fb' ltac:(lra)) as [F2 G2].
  split; [split; assumption|].
  replace (E0 + E1 + u * M) with (u * M + (E0 + E1)) by ring. apply (err_split _ (Cminus (cv a) (cv b))).
  - eapply Rle_trans; [|apply Rmult_le_compat_l; [apply Hu|]; apply (Rle_trans _ (Cmod (cv a) + Cmod (cv b))); [apply Rle_refl|lra]].
    apply (Cmod_add_err (cv a) (cv b)); [apply Hu| |]; cbn [cv fst snd Cplus Copp Cminus]; assumption.
  - replace (Cminus (Cminus (cv a) (cv b)) (Cminus x y)) with (Cplus (Cminus (cv a) x) (Copp (Cminus (cv b) y))) by ring.
    eapply Rle_trans; [apply Cmod_triangle|]. rewrite Cmod_opp. lra.
Qed.

(** One product of reals, and a sum or difference of two. *)
Lemma two_err : forall p q r s t P, Rabs (p - q) <= u * Rabs q + eta -> Rabs (r - s) <= u * Rabs s + eta -> Rabs q + Rabs s <= P ->
  Rabs p + Rabs r <= (1 + u) * P + 2 * eta /\
  (Rabs (t - (p + r)) <= u * (Rabs p + Rabs r) -> Rabs (t - (q + s)) <= (2 * u + u * u) * P + (2 + 2 * u) * eta).
Proof.
  intros p q r s t P H1 H2 HP.
  assert (Hp : Rabs p <= Rabs q + (u * Rabs q + eta)).
  { replace p with (q + (p - q)) by ring. eapply Rle_trans; [apply Rabs_triang|]. lra. }
  assert (Hr : Rabs r <= Rabs s + (u * Rabs s + eta)).
  { replace r with (s + (r - s)) by ring. eapply Rle_trans; [apply Rabs_triang|]. lra. }
  assert (Q : Rabs p + Rabs r <= (1 + u) * P + 2 * eta).
  { pose proof (Rmult_le_compat_l u _ _ (proj1 Hu) HP). lra. }
  split; [exact Q|]. intros H3. replace (t - (q + s)) with ((t - (p + r)) + ((p - q) + (r - s))) by ring.
  eapply Rle_trans; [apply Rabs_triang|]. pose proof (Rabs_triang (p - q) (r - s)).
  pose proof (Rmult_le_compat_l u _ _ (proj1 Hu) HP). pose proof (Rmult_le_compat_l u _ _ (proj1 Hu) Q). lra.
Qed.
Lemma mul_err : forall a b P, fin (fst a) -> fin (snd a) -> fin (fst b) -> fin (snd b) -> Cmod (cv a) * Cmod (cv b) <= P -> 2 * P + 2 * eta <= big ->
  near (3 * u * P + 3 * eta) (cmul o a b) (Cmult (cv a) (cv b)).
Proof.
  intros [a b] [c d] P Fa Fb Fc Fd HP HB. unfold cv in *. cbn [fst snd] in *.
  pose proof (Cmod_dot (val a) (val b) (val c) (val d)) as D1.
  pose proof (Cmod_dot (val a) (val b) (val d) (val c)) as D2.
  replace (Cmod (val d, val c)) with (Cmod (val c, val d)) in D2 by (unfold Cmod; cbn [fst snd]; f_equal; ring).
  pose proof (Rabs_pos (val a * val c)). pose proof (Rabs_pos (val b * val d)). pose proof (Rabs_pos (val a * val d)). pose proof (Rabs_pos (val b * val c)).
  assert (P0 : 0 <= P) by lra. assert (uP : u * P <= P) by (pose proof (Rmult_le_compat_r P u 1 P0 ltac:(lra)); lra).
  destruct (Hmul a c Fa Fc ltac:(lra)) as [F1 E1]. destruct (Hmul b d Fb Fd ltac:(lra)) as [F2 E2].
  destruct (Hmul a d Fa Fd ltac:(lra)) as [F3 E3]. destruct (Hmul b c Fb Fc ltac:(lra)) as [F4 E4].
  assert (E2' : Rabs (- val (mul o b d) - - (val b * val d)) <= u * Rabs (- (val b * val d)) + eta).
  { replace (- val (mul o b d) - - (val b * val d)) with (- (val (mul o b d) - val b * val d)) by ring. rewrite !Rabs_Ropp. exact E2. }
  destruct (two_err _ _ _ _ (val (sub o (mul o a c) (mul o b d))) P E1 E2' ltac:(rewrite Rabs_Ropp; lra)) as [S1 T1].
  destruct (two_err _ _ _ _ (val (add o (mul o a d) (mul o b c))) P E3 E4 ltac:(lra)) as [S2 T2].
  rewrite Rabs_Ropp in S1, T1.
  destruct (Hsub _ _ F1 F2 ltac:(lra)) as [F5 E5]. destruct (Hadd _ _ F3 F4 ltac:(lra)) as [F6 E6].
  specialize (T2 E6). assert (T1' := T1 E5). clear T1.
  unfold cmul. cbn [fst snd]. split; [split; assumption|]. unfold cv, Cmult, Cminus, Cplus, Copp. cbn [fst snd].
  assert (U2 : u * u * P <= 1 / 1000 * (u * P)). { rewrite Rmult_assoc. apply Rmult_le_compat_r; [apply Rmult_le_pos; lra|lra]. }
  assert (Ue : u * eta <= 1 / 1000 * eta) by (apply Rmult_le_compat_r; lra).
  assert (u0P : 0 <= u * P) by (apply Rmult_le_pos; lra).
  eapply Rle_trans; [apply (Cmod_both _ _ ((2 * u + u * u) * P + (2 + 2 * u) * eta)); [|exact T2]|lra].
  exact T1'.
Qed.
Lemma near_mul : forall E M T a t x z, near E a x -> near T t z -> Cmod z = 1 -> T <= 1 / 1000 -> Cmod x + E <= M -> 4 * M + 4 * eta <= big ->
  near (E + M * T + 3 * u * (M * (1 + T)) + 3 * eta) (cmul o a t) (Cmult x z).
Proof.
  intros E M T a t x z Ha Ht Hz HT HM HB. pose proof (near_size _ _ _ Ha) as Sa. pose proof (near_size _ _ _ Ht) as St. rewrite Hz in St.
  pose proof (near_pos _ _ _ Ht) as T0. pose proof (Cmod_ge_0 (cv a)) as A0. pose proof (Cmod_ge_0 (cv t)) as t0. assert (M0 : 0 <= M) by lra.
  assert (P : Cmod (cv a) * Cmod (cv t) <= M * (1 + T)) by (apply Rmult_le_compat; lra).
  assert (MT : M * T <= 1 / 1000 * M) by (rewrite Rmult_comm; apply Rmult_le_compat_r; lra).
  destruct Ha as [[Fa Fa'] Ea], Ht as [[Ft Ft'] Et].
  destruct (mul_err a t (M * (1 + T)) Fa Fa' Ft Ft' P ltac:(lra)) as [F G]. split; [exact F|].
  replace (E + M * T + 3 * u * (M * (1 + T)) + 3 * eta) with ((3 * u * (M * (1 + T)) + 3 * eta) + (E + M * T)) by ring.
  apply (err_split _ (Cmult (cv a) (cv t))); [exact G|].
  replace (Cminus (Cmult (cv a) (cv t)) (Cmult x z)) with (Cplus (Cmult (Cminus (cv a) x) z) (Cmult (cv a) (Cminus (cv t) z))) by ring.
  eapply Rle_trans; [apply Cmod_triangle|]. rewrite !Cmod_mult, Hz. pose proof (Cmod_ge_0 (Cminus (cv t) z)).
  assert (Cmod (cv a) * Cmod (Cminus (cv t) z) <= M * T) by (apply Rmult_le_compat; lra). lra.
Qed.

(** ** Twiddle factors (fft.cc:94-113) *)
Lemma near_conj : forall e a z, near e a z -> near e (conj o a) (conj R_ops z).
Proof.
  intros e [a b] [x y] [[F F'] H]. unfold conj. cbn [fst snd] in *. destruct (Hopp b F') as [G V]. split; [split; assumption|].
  unfold cv in *. cbn [fst snd R_ops opp] in *. rewrite V. eapply Rle_trans; [|exact H]. apply Req_le.
  unfold Cmod, Cminus, Cplus, Copp. cbn [fst snd]. f_equal. ring.
Qed.
Lemma near_rflip : forall e a z, near e a z -> near e (opp o (fst a), snd a) (opp R_ops (fst z), snd z).
Proof.
  intros e [a b] [x y] [[F F'] H]. cbn [fst snd] in *. destruct (Hopp a F) as [G V]. split; [split; assumption|].
  unfold cv in *. cbn [fst snd R_ops opp] in *. rewrite V. eapply Rle_trans; [|exact H]. apply Req_le.
  unfold Cmod, Cminus, Cplus, Copp. cbn [fst snd]. f_equal. ring.
Qed.
Lemma near_swap : forall e a z, near e a z -> near e (snd a, fst a) (snd z, fst z).
Proof.
  intros e [a b] [x y] [[F F'] H]. cbn [fst snd] in *. split; [split; assumption|].
  unfold cv in *. cbn [fst snd] in *. eapply Rle_trans; [|exact H]. apply Req_le.
  unfold Cmod, Cminus, Cplus, Copp. cbn [fst snd]. f_equal. ring.
Qed.
Lemma slice_near : forall s j, (s < sl)%nat -> exists t, slice o s j = Ok t /\ near tau t (root R_ops (S s) j).
Proof.
  intros s j Hs. pose proof (slice_ok R_ops R_ops_ok s j) as E. unfold slice, table_get in *. cbv zeta in *.
  set (m := (2 ^ Z.of_nat s)%Z) in *. set (j0 := Z.land j (2 * m - 1)) in *.
  set (j1 := if (m <? j0)%Z then (2 * m - j0)%Z else j0) in *.
  set (j2 := if (m / 2 <? j1)%Z then (m - j1)%Z else j1) in *.
  set (j3 := if (m / 4 <? j2)%Z then (m / 2 - j2)%Z else j2) in *.
  destruct ((0 <=? j3)%Z && (j3 <? m / 4 + 1)%Z) eqn:B; cbn [bind] in *; [|discriminate E].
  apply andb_prop in B. destruct B as [B1 B2]. apply Z.leb_le in B1. apply Z.ltb_lt in B2.
  pose proof (Htab s j3 Hs ltac:(fold m; lia)) as N. eexists. split; [reflexivity|].
  match type of E with Ok ?a = Ok ?b => assert (E' : a = b) by congruence end. rewrite <- E'. clear E E'.
  assert (N3 := N). destruct (m / 4 <? j2)%Z; [apply near_swap in N3|]; (destruct (m / 2 <? j1)%Z; [apply near_rflip in N3|]);
    (destruct (m <? j0)%Z; [apply near_conj in N3|]); exact N3.
Qed.
Definition tw (s j : nat) : Co := match slice o s (Z.of_nat j) with Ok t => t | _ => c0 o end.
Lemma tw_ok : forall s j, (s < sl)%nat -> slice o s (Z.of_nat j) = Ok (tw s j) /\ near tau (tw s j) (root R_ops (S s) (Z.of_nat j)).
Proof. intros s j Hs. unfold tw. destruct (slice_near s (Z.of_nat j) Hs) as (t & -> & N). split; [reflexivity|exact N]. Qed.

(** ** One pair *)
Definition G : R := (1 + tau) * (1 + 3 * u) + u.
Definition K : R := (1 + u) * G.
Lemma G_1 : 1 <= G.
Proof. unfold G. nra. Qed.
Lemma K_1 : 1 <= K.
Proof. unfold K. pose proof G_1. nra. Qed.

Lemma fwd_pair : forall e w0 w1 a b x y t z, 1 <= e -> 0 <= w0 -> 0 <= w1 -> 3 * eta <= u * (w0 + w1) ->
  near ((e - 1) * w0) a x -> near ((e - 1) * w1) b y -> Cmod x <= w0 -> Cmod y <= w1 -> near tau t z -> Cmod z = 1 ->
  4 * (e * K * (w0 + w1)) + 4 * eta <= big ->
  near ((e * K - 1) * (w0 + w1)) (cadd o a b) (Cplus x y) /\ near ((e * K - 1) * (w0 + w1)) (cmul o (csub o a b) t) (Cmult (Cminus x y) z).
Proof.
  intros e w0 w1 a b x y t z He W0 W1 He1 Ha Hb Sx Sy Ht Hz HB. set (W := w0 + w1) in *. assert (HW : 0 <= W) by (unfold W; lra).
  pose proof K_1 as K1. pose proof G_1 as G1. assert (eW : 0 <= e * W) by (apply Rmult_le_pos; lra).
  assert (KW : (1 + u) * (e * W) <= e * K * W).
  { replace (e * K * W) with ((1 + u) * (e * W) * G) by (unfold K; ring). rewrite <- (Rmult_1_r ((1 + u) * (e * W))) at 1.
    apply Rmult_le_compat_l; [apply Rmult_le_pos; lra|exact G1]. }
  assert (eW1 : e * W <= (1 + u) * (e * W)). { pose proof (Rmult_le_pos u (e * W) (proj1 Hu) eW). lra. }
  assert (HM : Cmod x + (e - 1) * w0 + (Cmod y + (e - 1) * w1) <= e * W) by (unfold W; lra).
  assert (B1 : e * W <= big) by lra.
  split.
  - apply (near_mono _ _ _ _ (near_add _ _ (e * W) _ _ _ _ Ha Hb HM B1)).
    apply Rle_trans with ((1 + u) * (e * W) - W); [unfold W; lra|lra].
  - pose proof (near_sub _ _ (e * W) _ _ _ _ Ha Hb HM B1) as Hd.
    assert (Sd : Cmod (Cminus x y) <= W) by (unfold Cminus; eapply Rle_trans; [apply Cmod_triangle|]; rewrite Cmod_opp; unfold W; lra).
    eapply near_mono; [apply (near_mul _ ((1 + u) * (e * W)) tau _ _ _ _ Hd Ht Hz (proj2 Htau)); [unfold W in *; lra|lra]|].
    apply Rle_trans with ((1 + u) * (e * W) * ((1 + tau) * (1 + 3 * u)) - W + 3 * eta); [unfold W; lra|].
    replace ((e * K - 1) * W) with ((1 + u) * (e * W) * ((1 + tau) * (1 + 3 * u)) - W + u * ((1 + u) * (e * W))) by (unfold K, G; ring).
    assert (W <= (1 + u) * (e * W)). { pose proof (Rmult_le_compat_r W 1 e HW He). lra. }
    pose proof (Rmult_le_compat_l u _ _ (proj1 Hu) H). lra.
Qed.
Lemma inv_pair : forall e w0 w1 a b x y t z, 1 <= e -> 0 <= w0 -> 0 <= w1 -> 3 * eta <= u * w1 ->
  near ((e - 1) * w0) a x -> near ((e - 1) * w1) b y -> Cmod x <= w0 -> Cmod y <= w1 -> near tau t z -> Cmod z = 1 ->
  4 * (e * K * (w0 + w1)) + 4 * eta <= big ->
  near ((e * K - 1) * (w0 + w1)) (cadd o a (cmul o b t)) (Cplus x (Cmult y z)) /\ near ((e * K - 1) * (w0 + w1)) (csub o a (cmul o b t)) (Cminus x (Cmult y z)).
Proof.
  intros e w0 w1 a b x y t z He W0 W1 He1 Ha Hb Sx Sy Ht Hz HB.
  pose proof K_1 as K1. pose proof G_1 as G1. assert (e0 : 0 <= e * w0) by (apply Rmult_le_pos; lra). assert (e1 : 0 <= e * w1) by (apply Rmult_le_pos; lra).
  assert (Ge0 : e * w0 <= G * (e * w0)) by (pose proof (Rmult_le_compat_r (e * w0) 1 G e0 G1); lra).
  assert (Ge1 : e * w1 <= G * (e * w1)) by (pose proof (Rmult_le_compat_r (e * w1) 1 G e1 G1); lra).
  assert (EK : e * K * (w0 + w1) = G * (e * w0) + G * (e * w1) + u * (G * (e * w0) + G * (e * w1))) by (unfold K; ring).
  assert (uG : 0 <= u * (G * (e * w0) + G * (e * w1))) by (apply Rmult_le_pos; lra).
  assert (Hm : near (G * (e * w1) - w1) (cmul o b t) (Cmult y z)).
  { eapply near_mono; [apply (near_mul _ (e * w1) tau _ _ _ _ Hb Ht Hz (proj2 Htau)); lra|].
    replace (G * (e * w1)) with (e * w1 * ((1 + tau) * (1 + 3 * u)) + u * (e * w1)) by (unfold G; ring).
    pose proof (Rmult_le_compat_r w1 1 e W1 He). pose proof (Rmult_le_compat_l u _ _ (proj1 Hu) H). lra. }
  assert (Sm : Cmod (Cmult y z) <= w1) by (rewrite Cmod_mult, Hz; lra).
  assert (HM : Cmod x + (e - 1) * w0 + (Cmod (Cmult y z) + (G * (e * w1) - w1)) <= G * (e * w0) + G * (e * w1)) by lra.
  assert (B1 : G * (e * w0) + G * (e * w1) <= big) by lra.
  split.
  - apply (near_mono _ _ _ _ (near_add _ _ _ _ _ _ _ Ha Hm HM B1)). replace ((e * K - 1) * (w0 + w1)) with (e * K * (w0 + w1) - (w0 + w1)) by ring. rewrite EK. lra.
  - apply (near_mono _ _ _ _ (near_sub _ _ _ _ _ _ _ Ha Hm HM B1)). replace ((e * K - 1) * (w0 + w1)) with (e * K * (w0 + w1) - (w0 + w1)) by ring. rewrite EK. lra.
Qed.

(** ** Passes *)
Variable ord : Z -> list nat.
Hypothesis Hord : sched_ok ord.
Local Open Scope nat_scope.
Lemma pair_pass' : forall p s (body : nat -> list Co -> res (list Co)) (f : Co -> list Co -> res (list Co)) (g : Co -> Co -> Co -> Co * Co),
  s < p <= 30 -> p <= sl ->
  (forall jk y, body jk y = (v <- gets y (pair_idx s jk) ;; t <- slice o s (Z.of_nat (Nat.land jk (2 ^ s - 1))) ;; w <- f t v ;; sets y (pair_idx s jk) w)) ->
  (forall t a b, f t [a; b] = Ok [fst (g t a b); snd (g t a b)]) ->
  forall y, length y = 2 ^ p -> exists y', FFTModel.def_loop ord (2 ^ p / 2) body y = Ok y' /\ length y' = 2 ^ p /\
   forall b j, j < 2 ^ s -> b < 2 ^ (p - S s) ->
     let u := g (tw s j) (nth ((2 * b) * 2 ^ s + j) y (c0 o)) (nth ((2 * b + 1) * 2 ^ s + j) y (c0 o)) in
     nth ((2 * b) * 2 ^ s + j) y' (c0 o) = fst u /\ nth ((2 * b + 1) * 2 ^ s + j) y' (c0 o) = snd u.
Proof.
  intros p s body f g Hs Hsl HB HF y Hy. rewrite div_pow_half by lia.
  destruct (radix_pass (c0 o) ord p 1 s body (fun j v => t <- slice o s (Z.of_nat j) ;; f t v)
    (fun j v => match v with [a; b] => let u := g (tw s j) a b in [fst u; snd u] | _ => [] end)) with (y := y) as (y' & E & L & V); auto; try lia.
  - intros jk z. rewrite HB, pair_idx_block, land_ones_mod. destruct (gets z (radix_idx 1 s jk)); cbn [bind]; auto.
    destruct (slice o s (Z.of_nat (jk mod 2 ^ s))); reflexivity.
  - intros j v Hj Hv. change (2 ^ 1) with 2 in *. destruct v as [|a [|b [|c v]]]; try discriminate Hv. rewrite (proj1 (tw_ok s j ltac:(lia))). cbn [bind].
    rewrite HF. split; reflexivity.
  - exists y'. split; [exact E|]. split; [exact L|]. intros b j Hj Hb. specialize (V b j Hj). rewrite block1 in V. cbn [map] in V.
    replace (p - 1 - s) with (p - S s) in V by lia. specialize (V Hb). injection V as V0 V1. cbn zeta. split; assumption.
Qed.

(** ** Forward transform *)
Section Fwd.
Variable p : nat.
Variable X : nat -> R * R.
Variable w : nat -> R.
Variable mu : R.
Hypothesis Hp : p <= 29.
Hypothesis Hps : p <= sl.
Hypothesis HX : forall j, (Cmod (X j) <= w j)%R.
Hypothesis Hmu : (0 <= mu)%R.
Hypothesis Hw : forall j, (mu <= w j)%R.
Hypothesis Hunder : (3 * eta <= u * mu)%R.
Notation st := (stage R_ops p X).
Definition wt (s r : nat) : R := fst (stage R_ops p (fun j => (w j, 0%R)) s 0 r).
Lemma wt_top : forall r, wt p r = w r.
Proof. intros r. unfold wt. rewrite (stage_top R_ops R_ops_ok). reflexivity. Qed.
Lemma wt_step : forall s r, s < p -> wt s r = (wt (S s) r + wt (S s) (r + 2 ^ s))%R.
Proof. intros s r Hs. unfold wt. change 0 with (2 * 0) at 1. rewrite (stage_even R_ops R_ops_ok) by exact Hs. reflexivity. Qed.
Lemma wt_low : forall d s r, s + d = p -> (mu <= wt s r)%R.
Proof.
  induction d as [|d IH]; intros s r Hs.
  - replace s with p by lia. rewrite wt_top. apply Hw.
  - rewrite wt_step by lia. pose proof (IH (S s) r ltac:(lia)). pose proof (IH (S s) (r + 2 ^ s) ltac:(lia)). lra.
Qed.
Lemma stage_size : forall d s b r, s + d = p -> b < 2 ^ d -> (Cmod (st s b r) <= wt s r)%R.
Proof.
  induction d as [|d IH]; intros s b r Hs Hb.
  - replace s with p by lia. rewrite wt_top. cbn in Hb. replace b with 0 by lia. rewrite (stage_top R_ops R_ops_ok). apply HX.
  - rewrite wt_step by lia. assert (Hb2 : b / 2 < 2 ^ d) by (apply half_lt; rewrite Nat.pow_succ_r' in Hb; exact Hb).
    pose proof (IH (S s) (b / 2) r ltac:(lia) Hb2) as I1. pose proof (IH (S s) (b / 2) (r + 2 ^ s) ltac:(lia) Hb2) as I2.
    destruct (parity_split b) as [Eb|Eb]; rewrite Eb; set (c := b / 2) in *.
    + rewrite (stage_even R_ops R_ops_ok) by lia. eapply Rle_trans; [apply Cmod_triangle|]. lra.
    + rewrite (stage_odd R_ops R_ops_ok) by lia.
      change (Cmod (Cmult (Cminus (st (S s) c r) (st (S s) c (r + 2 ^ s))) (Cconj (root R_ops (S s) (Z.of_nat r)))) <= wt (S s) r + wt (S s) (r + 2 ^ s))%R.
      rewrite Cmod_mult. replace (Cmod (Cconj _)) with 1%R; [|rewrite <- (Cmod_root (S s) (Z.of_nat r)); unfold Cmod, Cconj; cbn [fst snd]; f_equal; ring].
      rewrite Rmult_1_r. unfold Cminus. eapply Rle_trans; [apply Cmod_triangle|]. rewrite Cmod_opp. lra.
Qed.
Lemma wt_total : forall s r, s <= p -> r < 2 ^ s -> (wt s r <= wt 0 0)%R.
Proof.
  induction s as [|s IH]; intros r Hs Hr.
  - cbn in Hr. replace r with 0 by lia. lra.
  - rewrite Nat.pow_succ_r' in Hr. destruct (Nat.lt_ge_cases r (2 ^ s)) as [Hl|Hg].
    + pose proof (IH r ltac:(lia) Hl) as H. rewrite wt_step in H by lia. pose proof (wt_low (p - S s) (S s) (r + 2 ^ s) ltac:(lia)). lra.
    + pose proof (IH (r - 2 ^ s) ltac:(lia) ltac:(lia)) as H. rewrite wt_step in H by lia. replace (r - 2 ^ s + 2 ^ s) with r in H by lia.
      pose proof (wt_low (p - S s) (S s) (r - 2 ^ s) ltac:(lia)). lra.
Qed.
Definition near_stage (y : list Co) (s : nat) : Prop :=
  forall b r, b < 2 ^ (p - s) -> r < 2 ^ s -> near ((K ^ (p - s) - 1) * wt s r)%R (nth (b * 2 ^ s + r) y (c0 o)) (st s b r).
Hypothesis Hbig : (4 * (K ^ p * wt 0 0) + 4 * eta <= big)%R.
Lemma Kpow_1 : forall k, (1 <= K ^ k)%R.
Proof. intros k. apply pow_R1_Rle. apply K_1. Qed.
Lemma Kpow_mono : forall j k, j <= k -> (K ^ j <= K ^ k)%R.
Proof. intros j k H. apply Rle_pow; [apply K_1|exact H]. Qed.
Lemma fwd_pass : forall s y, s < p -> length y = 2 ^ p -> near_stage y (S s) ->
  exists y', FFTModel.def_loop ord (2 ^ p / 2) (fft_butterfly_s o s) y = Ok y' /\ length y' = 2 ^ p /\ near_stage y' s.
Proof.
  intros s y Hs Hy HS.
  destruct (pair_pass' p s (fft_butterfly_s o s) (fft_pair o) (fun t a b => (cadd o a b, cmul o (csub o a b) (conj o t)))) with (y := y) as (y' & E & L & V); auto.
  exists y'. split; [exact E|]. split; [exact L|]. intros b r Hb Hr.
  assert (Hb2 : b / 2 < 2 ^ (p - S s)). { apply half_lt. replace (p - s) with (S (p - S s)) in Hb by lia. rewrite Nat.pow_succ_r' in Hb. exact Hb. }
  destruct (V (b / 2) r Hr Hb2) as [V0 V1]. cbn [fst snd] in V0, V1.
  assert (R0 := HS (b / 2) r Hb2 ltac:(rewrite Nat.pow_succ_r'; lia)). assert (R1 := HS (b / 2) (r + 2 ^ s) Hb2 ltac:(rewrite Nat.pow_succ_r'; lia)).
  replace (b / 2 * 2 ^ S s + r) with (2 * (b / 2) * 2 ^ s + r) in R0 by (rewrite Nat.pow_succ_r'; ring).
  replace (b / 2 * 2 ^ S s + (r + 2 ^ s)) with ((2 * (b / 2) + 1) * 2 ^ s + r) in R1 by (rewrite Nat.pow_succ_r'; ring).
  pose proof (near_conj _ _ _ (proj2 (tw_ok s r ltac:(lia)))) as Nt.
  assert (Hz : Cmod (conj R_ops (root R_ops (S s) (Z.of_nat r))) = 1%R).
  { rewrite <- (Cmod_root (S s) (Z.of_nat r)). apply Cmod_cj. }
  pose proof (wt_low (p - S s) (S s) r ltac:(lia)) as W0. pose proof (wt_low (p - S s) (S s) (r + 2 ^ s) ltac:(lia)) as W1.
  assert (EW : wt s r = (wt (S s) r + wt (S s) (r + 2 ^ s))%R) by (apply wt_step; exact Hs).
  assert (EK : (K ^ (p - S s) * K = K ^ (p - s))%R) by (replace (p - s) with (S (p - S s)) by lia; cbn [pow]; ring).
  pose proof (wt_total s r ltac:(lia) Hr) as WT.
  assert (HBB : (4 * (K ^ (p - S s) * K * (wt (S s) r + wt (S s) (r + 2 ^ s))) + 4 * eta <= big)%R).
  { rewrite EK, <- EW. assert (K ^ (p - s) * wt s r <= K ^ p * wt 0 0)%R; [|lra].
    apply Rmult_le_compat; [pose proof (Kpow_1 (p - s)); lra|lra|apply Kpow_mono; lia|exact WT]. }
  assert (HU : (3 * eta <= u * (wt (S s) r + wt (S s) (r + 2 ^ s)))%R).
  { eapply Rle_trans; [exact Hunder|]. apply Rmult_le_compat_l; [apply Hu|lra]. }
  destruct (fwd_pair (K ^ (p - S s)) (wt (S s) r) (wt (S s) (r + 2 ^ s)) _ _ _ _ _ _ (Kpow_1 _) ltac:(lra) ltac:(lra) HU R0 R1
    (stage_size (p - S s) (S s) _ r ltac:(lia) Hb2) (stage_size (p - S s) (S s) _ (r + 2 ^ s) ltac:(lia) Hb2) Nt Hz HBB) as [N0 N1].
  rewrite EK, <- EW in N0, N1. rewrite <- V0 in N0. rewrite <- V1 in N1.
  destruct (parity_split b) as [Eb|Eb]; rewrite Eb; set (c := b / 2) in *.
  - rewrite (stage_even R_ops R_ops_ok) by lia. exact N0.
  - rewrite (stage_odd R_ops R_ops_ok) by lia. exact N1.
Qed.
Lemma fwd_passes : forall k y, k <= p -> length y = 2 ^ p -> near_stage y k ->
  exists y', over (rev (seq 0 k)) (fun s => FFTModel.def_loop ord (2 ^ p / 2) (fft_butterfly_s o s)) y = Ok y' /\ length y' = 2 ^ p /\ near_stage y' 0.
Proof.
  intros k. induction k as [|k IH]; intros y Hk Hy HS.
  - exists y. cbn [seq rev over]. auto.
  - rewrite seq_S, rev_app_distr. cbn [rev app Nat.add over].
    destruct (fwd_pass k y ltac:(lia) Hy HS) as (y1 & E & L & HS1). rewrite E. cbn [bind]. apply IH; auto. lia.
Qed.
End Fwd.

(** ** Inverse transform *)
Section Inv.
Variable p : nat.
Variable Y : nat -> R * R.
Variable w : nat -> R.
Variable mu : R.
Hypothesis Hp : p <= 29.
Hypothesis Hps : p <= sl.
Hypothesis HY : forall j, (Cmod (Y j) <= w j)%R.
Hypothesis Hmu : (0 <= mu)%R.
Hypothesis Hw : forall j, (mu <= w j)%R.
Hypothesis Hunder : (3 * eta <= u * mu)%R.
Notation ist := (istage R_ops Y).
Definition iwt (s b : nat) : R := fst (istage R_ops (fun j => (w j, 0%R)) s b 0).
Lemma iwt_0 : forall b, iwt 0 b = w b.
Proof.
  intros b. unfold iwt, istage. cbn [Nat.pow csum]. change (Z.of_nat (0 * rv 0 0)) with 0%Z. rewrite (rt_0 R_ops R_ops_ok).
  replace (b * 1 + 0) with b by lia. unfold cadd, cmul, c0. cbn [fst snd R_ops add sub mul z0 z1]. ring.
Qed.
Lemma iwt_step : forall s b, iwt (S s) b = (iwt s (2 * b) + iwt s (2 * b + 1))%R.
Proof.
  intros s b. unfold iwt. rewrite (istage_step R_ops R_ops_ok). change (Z.of_nat 0) with 0%Z. rewrite (rt_0 R_ops R_ops_ok).
  unfold cadd, cmul. cbn [fst snd R_ops add sub mul z0 z1]. ring.
Qed.
Lemma iwt_low : forall s b, (mu <= iwt s b)%R.
Proof.
  induction s as [|s IH]; intros b; [rewrite iwt_0; apply Hw|]. rewrite iwt_step. pose proof (IH (2 * b)). pose proof (IH (2 * b + 1)). lra.
Qed.
Lemma istage_size : forall s b r, (Cmod (ist s b r) <= iwt s b)%R.
Proof.
  induction s as [|s IH]; intros b r.
  - rewrite iwt_0. unfold istage. cbn [Nat.pow csum]. replace (b * 1 + 0) with b by lia. cbn [rv]. rewrite Nat.mul_0_r. change (Z.of_nat 0) with 0%Z. rewrite (rt_0 R_ops R_ops_ok).
    replace (cadd R_ops (c0 R_ops) (cmul R_ops (Y b) (z1 R_ops, z0 R_ops))) with (Y b); [apply HY|].
    destruct (Y b) as [c d]. unfold cadd, cmul, c0. cbn [fst snd R_ops add sub mul z0 z1]. apply f_equal2; ring.
  - rewrite iwt_step, (istage_step R_ops R_ops_ok).
    change (Cmod (Cplus (ist s (2 * b) r) (Cmult (ist s (2 * b + 1) r) (root R_ops (S s) (Z.of_nat r)))) <= iwt s (2 * b) + iwt s (2 * b + 1))%R.
    eapply Rle_trans; [apply Cmod_triangle|]. rewrite Cmod_mult, Cmod_root, Rmult_1_r. pose proof (IH (2 * b) r). pose proof (IH (2 * b + 1) r). lra.
Qed.
Lemma iwt_total : forall d s b, s + d = p -> b < 2 ^ d -> (iwt s b <= iwt p 0)%R.
Proof.
  induction d as [|d IH]; intros s b Hs Hb.
  - cbn in Hb. replace b with 0 by lia. replace s with p by lia. lra.
  - rewrite Nat.pow_succ_r' in Hb. pose proof (IH (S s) (b / 2) ltac:(lia) (half_lt b _ Hb)) as H. rewrite iwt_step in H.
    pose proof (iwt_low s (2 * (b / 2))). pose proof (iwt_low s (2 * (b / 2) + 1)). destruct (parity_split b) as [Eb|Eb]; rewrite Eb; set (c := b / 2) in *; lra.
Qed.
Definition near_istage (y : list Co) (s : nat) : Prop :=
  forall b r, b < 2 ^ (p - s) -> r < 2 ^ s -> near ((K ^ s - 1) * iwt s b)%R (nth (b * 2 ^ s + r) y (c0 o)) (ist s b r).
Hypothesis Hbig : (4 * (K ^ p * iwt p 0) + 4 * eta <= big)%R.
Lemma bwd_pass : forall s y, s < p -> length y = 2 ^ p -> near_istage y s ->
  exists y', FFTModel.def_loop ord (2 ^ p / 2) (ifft_butterfly_s o s) y = Ok y' /\ length y' = 2 ^ p /\ near_istage y' (S s).
Proof.
  intros s y Hs Hy HS.
  destruct (pair_pass' p s (ifft_butterfly_s o s) (ifft_pair o) (fun t a b => (cadd o a (cmul o b t), csub o a (cmul o b t)))) with (y := y) as (y' & E & L & V); auto.
  exists y'. split; [exact E|]. split; [exact L|]. intros b r Hb Hr.
  assert (Hq : 2 ^ (p - s) = 2 * 2 ^ (p - S s)) by (replace (p - s) with (S (p - S s)) by lia; apply Nat.pow_succ_r').
  assert (Step : forall j, j < 2 ^ s -> near ((K ^ S s - 1) * iwt (S s) b)%R (nth (b * 2 ^ S s + j) y' (c0 o)) (ist (S s) b j) /\
    near ((K ^ S s - 1) * iwt (S s) b)%R (nth (b * 2 ^ S s + (j + 2 ^ s)) y' (c0 o)) (ist (S s) b (j + 2 ^ s))).
  { intros j Hj. destruct (V b j Hj Hb) as [V0 V1]. cbn [fst snd] in V0, V1.
    pose proof (HS (2 * b) j ltac:(lia) Hj) as R0. pose proof (HS (2 * b + 1) j ltac:(lia) Hj) as R1.
    pose proof (proj2 (tw_ok s j ltac:(lia))) as Nt. pose proof (Cmod_root (S s) (Z.of_nat j)) as Hz.
    pose proof (iwt_low s (2 * b)) as W0. pose proof (iwt_low s (2 * b + 1)) as W1.
    assert (EK : (K ^ s * K = K ^ S s)%R) by (cbn [pow]; ring).
    pose proof (iwt_total (p - S s) (S s) b ltac:(lia) Hb) as WT.
    assert (HBB : (4 * (K ^ s * K * (iwt s (2 * b) + iwt s (2 * b + 1))) + 4 * eta <= big)%R).
    { rewrite EK, <- iwt_step. assert (K ^ S s * iwt (S s) b <= K ^ p * iwt p 0)%R; [|lra].
      apply Rmult_le_compat; [pose proof (Kpow_1 (S s)); lra|pose proof (iwt_low (S s) b); lra|apply Kpow_mono; lia|exact WT]. }
    assert (HU : (3 * eta <= u * iwt s (2 * b + 1))%R).
    { eapply Rle_trans; [exact Hunder|]. apply Rmult_le_compat_l; [apply Hu|lra]. }
    destruct (inv_pair (K ^ s) (iwt s (2 * b)) (iwt s (2 * b + 1)) _ _ _ _ _ _ (Kpow_1 _) ltac:(lra) ltac:(lra) HU R0 R1
      (istage_size s _ _) (istage_size s _ _) Nt Hz HBB) as [N0 N1].
    rewrite EK, <- iwt_step in N0, N1. rewrite <- V0 in N0. rewrite <- V1 in N1.
    replace (b * 2 ^ S s + j) with (2 * b * 2 ^ s + j) by (rewrite Nat.pow_succ_r'; ring).
    replace (b * 2 ^ S s + (j + 2 ^ s)) with ((2 * b + 1) * 2 ^ s + j) by (rewrite Nat.pow_succ_r'; ring).
    rewrite !(istage_step R_ops R_ops_ok), !(istage_period R_ops R_ops_ok), (root_shift_half R_ops R_ops_ok). split; [exact N0|].
    set (zz := root R_ops (S s) (Z.of_nat j)) in *. set (xx := ist s (2 * b) j) in *. set (yy := ist s (2 * b + 1) j) in *.
    replace (cadd R_ops xx (cmul R_ops yy (copp R_ops zz))) with (Cminus xx (Cmult yy zz)); [exact N1|].
    clearbody xx yy zz. destruct xx, yy, zz. unfold cadd, cmul, copp, Cminus, Cmult, Cplus, Copp. cbn [fst snd R_ops add sub mul opp A]. apply f_equal2; cbn [R_ops A]; change (A R_ops) with R in *; ring. }
  destruct (Nat.lt_ge_cases r (2 ^ s)) as [Hl|Hg]; [apply Step; exact Hl|].
  rewrite Nat.pow_succ_r' in Hr. replace r with ((r - 2 ^ s) + 2 ^ s) by lia. apply Step. lia.
Qed.
Lemma bwd_passes : forall k s y, s + k <= p -> length y = 2 ^ p -> near_istage y s ->
  exists y', over (seq s k) (fun s => FFTModel.def_loop ord (2 ^ p / 2) (ifft_butterfly_s o s)) y = Ok y' /\ length y' = 2 ^ p /\ near_istage y' (s + k).
Proof.
  induction k as [|k IH]; intros s y Hk Hy HS.
  - exists y. cbn [seq over]. rewrite Nat.add_0_r. auto.
  - cbn [seq over]. destruct (bwd_pass s y ltac:(lia) Hy HS) as (y1 & E & L & HS1). rewrite E. cbn [bind].
    replace (s + S k) with (S s + k) by lia. apply IH; auto. lia.
Qed.
End Inv.

(** ** Whole transforms *)
Hypothesis Hz0 : fin (z0 o) /\ val (z0 o) = 0%R.
Lemma near_0 : near 0 (c0 o) (0%R, 0%R).
Proof.
  split; [split; apply Hz0|]. unfold cv, c0. cbn [fst snd]. rewrite (proj2 Hz0). apply Req_le.
  replace (Cminus (0%R, 0%R) (0%R, 0%R)) with (RtoC 0) by (unfold Cminus, Cplus, Copp, RtoC; cbn [fst snd]; apply f_equal2; ring). apply Cmod_0.
Qed.
Lemma near_self : forall e a, fin (fst a) -> fin (snd a) -> (0 <= e)%R -> near e a (cv a).
Proof.
  intros e a F1 F2 He. split; [split; assumption|]. replace (Cminus (cv a) (cv a)) with (RtoC 0) by ring. rewrite Cmod_0. exact He.
Qed.
Lemma fin_nth : forall x i, Forall fin x -> fin (nth i x (z0 o)).
Proof.
  intros x i H. destruct (Nat.lt_ge_cases i (length x)) as [L|L]; [|rewrite nth_overflow by lia; apply Hz0].
  rewrite Forall_forall in H. apply H. apply nth_In. exact L.
Qed.
Lemma packed_val : forall x j, packed R_ops (map val x) j = cv (packed o x j).
Proof.
  intros x j. unfold packed, cv. cbn [fst snd R_ops z0]. rewrite <- (proj2 Hz0). rewrite !(map_nth val x (z0 o)). reflexivity.
Qed.
Lemma fft_near : forall p x y mu, 1 <= p <= 29 -> p <= sl -> length y = 2 ^ p -> length x <= 2 * 2 ^ p -> Forall fin x -> (0 <= mu)%R -> (3 * eta <= u * mu)%R ->
  let T := total (2 ^ p) (fun j => Cmod (packed R_ops (map val x) j) + mu)%R in
  (4 * (K ^ p * T) + 4 * eta <= big)%R ->
  exists y', fft o ord y x = Ok y' /\ length y' = 2 ^ p /\
    forall k, k < 2 ^ p -> near ((K ^ p - 1) * T)%R (nth k y' (c0 o)) (dft R_ops p (packed R_ops (map val x)) k).
Proof.
  intros p x y mu Hp Hps Hy Hx Fx Hmu Hun T HT. set (X := packed R_ops (map val x)) in *. set (w := fun j => (Cmod (X j) + mu)%R) in *.
  assert (ET : wt p w 0 0 = T).
  { unfold wt, stage, T. rewrite Nat.sub_0_r. cbn [rv]. rewrite rv_0. rewrite <- csum_total. f_equal. apply csum_ext. intros q _. rewrite Nat.mul_0_r. change (- Z.of_nat 0)%Z with 0%Z.
    rewrite (rt_0 R_ops R_ops_ok). replace (q * 2 ^ 0 + 0) with q by (cbn; lia). unfold cmul. cbn [fst snd R_ops sub add mul z0 z1]. apply f_equal2; change (A R_ops) with R; ring. }
  assert (HX : forall j, (Cmod (X j) <= w j)%R) by (intros j; unfold w; lra).
  assert (Hw : forall j, (mu <= w j)%R) by (intros j; unfold w; pose proof (Cmod_ge_0 (X j)); lra).
  unfold fft, fft_bitrev. rewrite Hy, ctz_p. destruct (Nat.eqb_spec (2 ^ p) 0) as [E|_]; [pose proof (pow2_pos p); lia|].
  rewrite pow2_Z, Z.eqb_refl. destruct (Nat.leb_spec (length x) (2 * 2 ^ p)); [|lia]. cbn [andb slow_assert bind].
  destruct (load_ok o ord Hord p x y ltac:(lia) Hy) as (y1 & E1 & L1 & V1). rewrite E1. cbn [bind]. rewrite Nat2Z.id.
  destruct (fwd_passes p X w mu ltac:(lia) Hps HX Hmu Hw Hun ltac:(rewrite ET; exact HT) p y1 ltac:(lia) L1) as (y2 & E2 & L2 & V2).
  { intros b r Hb Hr. rewrite Nat.sub_diag in *. cbn in Hb. replace b with 0 by lia. rewrite (stage_top R_ops R_ops_ok). cbn [Nat.mul Nat.add]. rewrite V1 by exact Hr.
    unfold X. rewrite packed_val. apply near_self; [apply fin_nth; exact Fx|apply fin_nth; exact Fx|]. cbn [pow]. lra. }
  rewrite E2. cbn [bind]. destruct (bitrev_ok (c0 o) p y2 ltac:(lia) L2) as (y3 & E3 & L3 & V3). exists y3. split; [exact E3|]. split; [exact L3|].
  intros k Hk. rewrite V3 by exact Hk. specialize (V2 (rv p k) 0). rewrite Nat.sub_0_r in V2. specialize (V2 (rv_lt p k) Nat.lt_0_1).
  replace (rv p k * 2 ^ 0 + 0) with (rv p k) in V2 by (cbn; lia). rewrite ET in V2.
  replace (dft R_ops p X k) with (stage R_ops p X 0 (rv p k) 0); [exact V2|].
  unfold stage, dft. rewrite Nat.sub_0_r. apply csum_ext. intros q Hq. replace (q * 2 ^ 0 + 0) with q by (cbn; lia). rewrite rv_invol by exact Hk. reflexivity.
Qed.
Lemma ifft_near : forall p x y mu, 1 <= p <= 29 -> p <= sl -> length y = 2 ^ p -> length x <= 2 * 2 ^ p -> Forall (fun a => fin (fst a) /\ fin (snd a)) y ->
  (0 <= mu)%R -> (3 * eta <= u * mu)%R ->
  let T := total (2 ^ p) (fun k => Cmod (cv (nth k y (c0 o))) + mu)%R in
  (4 * (K ^ p * T) + 4 * eta <= big)%R ->
  exists x' y', ifft o ord x y = Ok (x', y') /\ length x' = length x /\ length y' = length y /\
    forall i, i < length x -> fin (nth i x' (z0 o)) /\
      (Rabs (val (nth i x' (z0 o)) - part R_ops i (idft R_ops p (fun k => cv (nth k y (c0 o))) (i / 2))) <= (K ^ p - 1) * T)%R.
Proof.
  intros p x y mu Hp Hps Hy Hx Fy Hmu Hun T HT. unfold ifft.
  destruct (bitrev_ok (c0 o) p y ltac:(lia) Hy) as (y1 & E1 & L1 & V1). rewrite E1. cbn [bind].
  set (Y := fun b => cv (nth b y1 (c0 o))) in *. set (w := fun b => (Cmod (Y b) + mu)%R) in *.
  assert (ET : iwt w p 0 = T).
  { unfold iwt, istage, T. rewrite <- csum_total.
    assert (Q := csum_rv R_ops R_ops_ok p (fun k => ((Cmod (cv (nth k y (c0 o))) + mu)%R, 0%R))). cbv beta in Q.
    refine (eq_trans _ (f_equal fst Q)). f_equal. apply csum_ext. intros q Hq.
    cbn [Nat.mul Nat.add]. change (Z.of_nat 0)%Z with 0%Z. rewrite (rt_0 R_ops R_ops_ok). unfold w, Y. rewrite V1 by exact Hq.
    unfold cmul. cbn [fst snd R_ops sub add mul z0 z1]. apply f_equal2; change (A R_ops) with R; ring. }
  assert (HY : forall j, (Cmod (Y j) <= w j)%R) by (intros j; unfold w; lra).
  assert (Hw : forall j, (mu <= w j)%R) by (intros j; unfold w; pose proof (Cmod_ge_0 (Y j)); lra).
  unfold ifft_bitrev. rewrite L1, ctz_p. destruct (Nat.eqb_spec (2 ^ p) 0) as [E|_]; [pose proof (pow2_pos p); lia|].
  rewrite pow2_Z, Z.eqb_refl. destruct (Nat.leb_spec (length x) (2 * 2 ^ p)); [|lia]. cbn [andb slow_assert bind]. rewrite Nat2Z.id.
  destruct (bwd_passes p Y w mu ltac:(lia) Hps HY Hmu Hw Hun ltac:(rewrite ET; exact HT) p 0 y1 ltac:(lia) L1) as (y2 & E2 & L2 & V2).
  { intros b r Hb Hr. cbn in Hr. replace r with 0 by lia. rewrite Nat.sub_0_r in Hb.
    replace (istage R_ops Y 0 b 0) with (Y b).
    - replace (b * 2 ^ 0 + 0) with b by (cbn; lia). unfold Y.
      assert (Fb : fin (fst (nth b y1 (c0 o))) /\ fin (snd (nth b y1 (c0 o)))).
      { rewrite V1 by exact Hb. rewrite Forall_forall in Fy. apply Fy. apply nth_In. rewrite Hy. apply rv_lt. }
      apply near_self; [apply Fb|apply Fb|]. cbn [pow]. lra.
    - unfold istage. cbn [Nat.pow csum]. replace (b * 1 + 0) with b by lia. change (Z.of_nat (0 * rv 0 0)) with 0%Z. rewrite (rt_0 R_ops R_ops_ok).
      destruct (Y b) as [c d]. unfold cadd, cmul, c0. cbn [fst snd R_ops add sub mul z0 z1]. apply f_equal2; ring. }
  rewrite E2. cbn [bind]. destruct (store_ok o ord Hord p x y2 ltac:(lia) L2 Hx) as (x' & E3 & L3 & V3). rewrite E3. cbn [bind].
  exists x', y2. split; [reflexivity|]. split; [exact L3|]. split; [lia|]. intros i Hi. rewrite V3 by exact Hi.
  cbn [Nat.add] in V2. specialize (V2 0 (i / 2)). rewrite Nat.sub_diag in V2. specialize (V2 Nat.lt_0_1 (half_lt i (2 ^ p) ltac:(lia))).
  cbn [Nat.mul Nat.add] in V2. rewrite ET in V2.
  replace (istage R_ops Y p 0 (i / 2)) with (idft R_ops p (fun k => cv (nth k y (c0 o))) (i / 2)) in V2.
  2:{ unfold istage, idft. rewrite <- (csum_rv R_ops R_ops_ok p (fun k => cmul R_ops (cv (nth k y (c0 o))) (root R_ops p (Z.of_nat (i / 2 * k))))).
      apply csum_ext. intros c Hc. cbn [Nat.mul Nat.add]. unfold Y. rewrite V1 by exact Hc. reflexivity. }
  unfold comp, part. set (z := idft R_ops p (fun k => cv (nth k y (c0 o))) (i / 2)) in *. clearbody z.
  destruct V2 as [[F1 F2] N]. destruct z as [z1' z2']. set (a := nth (i / 2) y2 (c0 o)) in *.
  pose proof (Cmod_parts (val (fst a) - z1') (val (snd a) - z2')) as [P1 P2].
  change (Cmod (val (fst a) - z1', val (snd a) - z2')%R <= (K ^ p - 1) * T)%R in N. cbn [fst snd].
  destruct (Nat.even i); (split; [assumption|]); [eapply Rle_trans; [exact P1|exact N]|eapply Rle_trans; [exact P2|exact N]].
Qed.

(** ** The round trip *)
Lemma total_le : forall n f g, (forall i, i < n -> (f i <= g i)%R) -> (total n f <= total n g)%R.
Proof.
  induction n as [|n IH]; intros f g H; [cbn; lra|]. rewrite !total_S. pose proof (IH f g (fun i Hi => H i (Nat.lt_lt_succ_r _ _ Hi))). pose proof (H n (Nat.lt_succ_diag_r n)). lra.
Qed.
Lemma total_const : forall n c, total n (fun _ => c) = (INR n * c)%R.
Proof. induction n as [|n IH]; intros c; [cbn; ring|]. rewrite total_S, IH, S_INR. ring. Qed.
Lemma csum_size : forall n f (g : nat -> R), (forall i, i < n -> (Cmod (f i) <= g i)%R) -> (Cmod (csum R_ops n f) <= total n g)%R.
Proof.
  induction n as [|n IH]; intros f g H.
  - change (csum R_ops 0 f) with (RtoC 0). rewrite Cmod_0. cbn. lra.
  - rewrite total_S. cbn [csum]. change (Cmod (Cplus (csum R_ops n f) (f n)) <= total n g + g n)%R. eapply Rle_trans; [apply Cmod_triangle|].
    pose proof (IH f g (fun i Hi => H i (Nat.lt_lt_succ_r _ _ Hi))). pose proof (H n (Nat.lt_succ_diag_r n)). lra.
Qed.
Lemma csum_diff : forall n f g, Cminus (csum R_ops n f) (csum R_ops n g) = csum R_ops n (fun i => Cminus (f i) (g i)).
Proof.
  induction n as [|n IH]; intros f g; cbn [csum].
  - change (c0 R_ops) with (RtoC 0). ring.
  - rewrite <- IH. change (Cminus (Cplus (csum R_ops n f) (f n)) (Cplus (csum R_ops n g) (g n)) = Cplus (Cminus (csum R_ops n f) (csum R_ops n g)) (Cminus (f n) (g n))). ring.
Qed.
Lemma cpow2_val : forall p, cpow2 R_ops p = RtoC (2 ^ p).
Proof.
  induction p as [|p IH]; [reflexivity|]. cbn [cpow2]. rewrite IH. cbn [pow].
  change (Cplus (RtoC (2 ^ p)) (RtoC (2 ^ p)) = RtoC (2 * 2 ^ p)). rewrite <- RtoC_plus. f_equal. ring.
Qed.
Lemma INR_pow2 : forall p, INR (2 ^ p) = (2 ^ p)%R.
Proof. intros p. rewrite pow_INR. reflexivity. Qed.
Lemma round_trip_near : forall p x0 x y mu, 1 <= p <= 29 -> p <= sl -> length y = 2 ^ p -> length x0 <= 2 * 2 ^ p -> length x <= 2 * 2 ^ p -> Forall fin x0 ->
  (0 <= mu)%R -> (3 * eta <= u * mu)%R ->
  let T := total (2 ^ p) (fun j => Cmod (packed R_ops (map val x0) j) + mu)%R in
  (4 * (2 ^ p * (K ^ (2 * p) * (T + mu))) + 4 * eta <= big)%R ->
  exists y' x' y2, fft o ord y x0 = Ok y' /\ ifft o ord x y' = Ok (x', y2) /\ length x' = length x /\
    forall i, i < length x -> fin (nth i x' (z0 o)) /\
      (Rabs (val (nth i x' (z0 o)) - 2 ^ p * val (nth i x0 (z0 o))) <= 2 ^ p * ((K ^ (2 * p) - 1) * (T + mu)))%R.
Proof.
  intros p x0 x y mu Hp Hps Hy Hx0 Hx Fx Hmu Hun T HT. set (X := packed R_ops (map val x0)) in *.
  assert (T0 : (0 <= T)%R). { replace 0%R with (total (2 ^ p) (fun _ => 0%R)) by (rewrite total_const; ring). apply total_le. intros i _. pose proof (Cmod_ge_0 (X i)). lra. }
  pose proof (Kpow_1 p) as K1. assert (N1 : (1 <= 2 ^ p)%R) by (apply pow_R1_Rle; lra).
  assert (KK : (K ^ (2 * p) = K ^ p * K ^ p)%R) by (replace (2 * p) with (p + p) by lia; apply pow_add).
  set (k := (K ^ p)%R) in *. set (n := (2 ^ p)%R) in *. rewrite KK in *. clear KK.
  assert (B0 : (k * T <= k * k * (T + mu))%R) by (rewrite Rmult_assoc; apply Rmult_le_compat_l; [lra|]; pose proof (Rmult_le_compat_r (T + mu) 1 k ltac:(lra) K1); lra).
  assert (B1 : (k * k * (T + mu) <= n * (k * k * (T + mu)))%R).
  { pose proof (Rmult_le_compat_r (k * k * (T + mu)) 1 n ltac:(apply Rmult_le_pos; [apply Rmult_le_pos|]; lra) N1). lra. }
  destruct (fft_near p x0 y mu Hp Hps Hy Hx0 Fx Hmu Hun) as (y' & E & L & V). { fold X. fold T. fold k. lra. }
  fold X in V. fold T in V. fold k in V.
  assert (SX : forall c, (Cmod (dft R_ops p X c) <= T)%R).
  { intros c. apply csum_size. intros i _. change (Cmod (Cmult (X i) (root R_ops p (- Z.of_nat (i * c)))) <= Cmod (X i) + mu)%R. rewrite Cmod_mult, Cmod_root. lra. }
  assert (SY : forall c, c < 2 ^ p -> (Cmod (cv (nth c y' (c0 o))) <= k * T)%R).
  { intros c Hc. pose proof (near_size _ _ _ (V c Hc)). pose proof (SX c). lra. }
  assert (FY : Forall (fun a => fin (fst a) /\ fin (snd a)) y').
  { apply Forall_forall. intros a Ha. apply (In_nth _ _ (c0 o)) in Ha. destruct Ha as (c & Hc & <-). rewrite L in Hc. apply (V c Hc). }
  assert (ST : (total (2 ^ p) (fun c => Cmod (cv (nth c y' (c0 o))) + mu) <= n * (k * T + mu))%R).
  { unfold n. rewrite <- INR_pow2, <- total_const. apply total_le. intros c Hc. pose proof (SY c Hc). lra. }
  set (T2 := total (2 ^ p) (fun c => Cmod (cv (nth c y' (c0 o))) + mu)%R) in *.
  assert (B2 : (k * (k * T + mu) <= k * k * (T + mu))%R).
  { pose proof (Rmult_le_compat_l (k * mu) 1 k ltac:(apply Rmult_le_pos; lra) K1). lra. }
  assert (B3 : (k * T2 <= n * (k * k * (T + mu)))%R).
  { apply Rle_trans with (k * (n * (k * T + mu)))%R; [apply Rmult_le_compat_l; lra|].
    replace (k * (n * (k * T + mu)))%R with (n * (k * (k * T + mu)))%R by ring. apply Rmult_le_compat_l; lra. }
  destruct (ifft_near p x y' mu Hp Hps L Hx FY Hmu Hun) as (x' & y2 & E2 & L2 & L3 & V2). { fold T2. fold k. lra. }
  exists y', x', y2. split; [exact E|]. split; [exact E2|]. split; [exact L2|]. intros i Hi. destruct (V2 i Hi) as [F D]. split; [exact F|].
  fold T2 in D. fold k in D. assert (Hi2 : i / 2 < 2 ^ p) by (apply half_lt; lia).
  assert (ED : (Cmod (Cminus (idft R_ops p (fun c => cv (nth c y' (c0 o))) (i / 2)) (idft R_ops p (dft R_ops p X) (i / 2))) <= n * ((k - 1) * T))%R).
  { unfold idft. rewrite csum_diff. unfold n. rewrite <- INR_pow2, <- total_const. apply csum_size. intros c Hc.
    change (Cmod (Cminus (Cmult (cv (nth c y' (c0 o))) (root R_ops p (Z.of_nat (i / 2 * c)))) (Cmult (dft R_ops p X c) (root R_ops p (Z.of_nat (i / 2 * c))))) <= (k - 1) * T)%R.
    set (zz := root R_ops p (Z.of_nat (i / 2 * c))). replace (Cminus (Cmult (cv (nth c y' (c0 o))) zz) (Cmult (dft R_ops p X c) zz)) with (Cmult (Cminus (cv (nth c y' (c0 o))) (dft R_ops p X c)) zz) by ring.
    rewrite Cmod_mult. unfold zz. rewrite Cmod_root, Rmult_1_r. apply (V c Hc). }
  rewrite (idft_dft R_ops R_ops_ok) in ED by exact Hi2. rewrite cpow2_val in ED.
  set (z := idft R_ops p (fun c => cv (nth c y' (c0 o))) (i / 2)) in *. clearbody z. destruct z as [za zb].
  assert (EX : (part R_ops i (cmul R_ops (RtoC (2 ^ p)) (X (i / 2)%nat)) = n * val (nth i x0 (z0 o)))%R).
  { unfold X. rewrite packed_val. unfold packed, cv, part, cmul, RtoC. cbn [fst snd R_ops add sub mul]. fold n.
    destruct (parity_split i) as [Ei|Ei].
    - assert (Ev : Nat.even i = true) by (rewrite Ei, Nat.even_mul; reflexivity). rewrite Ev, <- Ei. match goal with |- ?a = ?b => change (@eq R a b) end. ring.
    - assert (Ev : Nat.even i = false) by (rewrite Ei, Nat.even_add, Nat.even_mul; reflexivity). rewrite Ev, <- Ei. match goal with |- ?a = ?b => change (@eq R a b) end. ring. }
  assert (EP : (Rabs (part R_ops i (za, zb) - n * val (nth i x0 (z0 o))) <= n * ((k - 1) * T))%R).
  { rewrite <- EX. destruct (cmul R_ops (RtoC (2 ^ p)) (X (i / 2))) as [xa xb]. pose proof (Cmod_parts (za - xa) (zb - xb)) as [P1 P2].
    change (Cmod (za - xa, zb - xb)%R <= n * ((k - 1) * T))%R in ED. unfold part. cbn [fst snd]. destruct (Nat.even i); eapply Rle_trans; [exact P1|exact ED|exact P2|exact ED]. }
  set (pp := part R_ops i (za, zb)) in *. change (A R_ops) with R in pp. clearbody pp.
  replace (val (nth i x' (z0 o)) - n * val (nth i x0 (z0 o)))%R with ((val (nth i x' (z0 o)) - pp) + (pp - n * val (nth i x0 (z0 o))))%R by ring.
  eapply Rle_trans; [apply Rabs_triang|].
  apply Rle_trans with ((k - 1) * (n * (k * T + mu)) + n * ((k - 1) * T))%R.
  { pose proof (Rmult_le_compat_l (k - 1) _ _ ltac:(lra) ST). lra. }
  replace ((k - 1) * (n * (k * T + mu)) + n * ((k - 1) * T))%R with (n * ((k * k - 1) * T + (k - 1) * mu))%R by ring.
  apply Rmult_le_compat_l; [lra|]. assert ((k - 1) * mu <= (k * k - 1) * mu)%R; [|lra]. apply Rmult_le_compat_r; [exact Hmu|].
  pose proof (Rmult_le_compat_l k 1 k ltac:(lra) K1). lra.
Qed.
End Rnd.
