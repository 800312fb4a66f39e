(** The shifted real FFT (fft.cc:347-372, codelets.cc:668-831). *)
From Coq Require Import ZArith Arith ArithRing List Bool Lia Ring.
From Verif Require Import Base SeriesModel SeriesProofs NewtonProofs FFTModel FFTLoop FFTMath FFTTwiddle FFTPerm FFTSpec FFTProofs FFTReal.
Import ListNotations.
Open Scope nat_scope.

Section S.
Variable o : ops.
Hypothesis Hok : ops_ok o.
Notation A := (FFTModel.A o).
Notation C := (FFTModel.A o * FFTModel.A o)%type.
Add Ring AringS : (ok_ring o Hok).
Add Ring CringS : (C_ring o Hok).
Notation cadd := (FFTModel.cadd o). Notation csub := (FFTModel.csub o). Notation cmul := (FFTModel.cmul o).
Notation conj := (FFTModel.conj o). Notation c0 := (FFTModel.c0 o). Notation c1 := (FFTMath.c1 o). Notation copp := (FFTMath.copp o).
Notation ci := (FFTMath.ci o). Notation w8 := (FFTMath.w8 o).
Notation root := (FFTModel.root o). Notation csum := (FFTMath.csum o).
Notation at_ := (fun (y : list C) i => nth i y c0).
Ltac cr := unfold FFTModel.cadd, FFTModel.csub, FFTModel.cmul, FFTModel.conj, FFTModel.c0, FFTMath.c1, FFTMath.copp, FFTMath.ci,
  FFTModel.left, FFTModel.right in *; cbn [fst snd] in *; apply f_equal2; ring.

(** ** Radix-2 levels *)
(** One radix-2 level on a pair and the same levels on 2, 4 and 8 cells. *)
Definition lev (w a b : C) : C * C := (cadd a b, conj (cmul w (csub a b))).
Definition F1 (u a b : C) : list C := [fst (lev u a b); snd (lev u a b)].
Definition F2 (v : nat -> C) (u a0 a1 a2 a3 : C) : list C :=
  let p0 := lev (v 0) a0 a2 in let p1 := lev (v 1) a1 a3 in
  F1 u (fst p0) (fst p1) ++ F1 u (snd p0) (snd p1).
Definition F3 (w v : nat -> C) (u a0 a1 a2 a3 a4 a5 a6 a7 : C) : list C :=
  let p0 := lev (w 0) a0 a4 in let p1 := lev (w 1) a1 a5 in let p2 := lev (w 2) a2 a6 in let p3 := lev (w 3) a3 a7 in
  F2 v u (fst p0) (fst p1) (fst p2) (fst p3) ++ F2 v u (snd p0) (snd p1) (snd p2) (snd p3).
(** Twiddles of the level that merges blocks of size 2^s, from 2^i positions on. *)
Definition tws (s t : nat) (j : nat) (i : nat) : C := root (S s) (Z.of_nat (i * 2 ^ t + j)).

Lemma conj_copp : forall a : C, conj (copp a) = copp (conj a). Proof. intros [a b]. cr. Qed.
Lemma e8_2 : cmul w8 w8 = ci.
Proof. 
  unfold FFTMath.w8, FFTMath.ci, FFTModel.cmul. cbn [fst snd]. apply f_equal2; [ring|apply (ok_sh o Hok)].
Qed.
Lemma e8_unit : cmul w8 (conj w8) = c1.
Proof.
  unfold FFTMath.w8, FFTMath.c1, FFTModel.cmul, FFTModel.conj. cbn [fst snd]. apply f_equal2; [|ring].
  rewrite <- (ok_sh o Hok). ring.
Qed.
Lemma e8_4 : cmul (cmul (cmul w8 w8) w8) w8 = copp c1.
Proof. transitivity (cmul (cmul w8 w8) (cmul w8 w8)); [ring|]. rewrite e8_2. apply (ci2 o Hok). Qed.
Lemma e8_conj : conj w8 = copp (cmul (cmul w8 w8) w8).
Proof.
  transitivity (cmul (copp (cmul (cmul (cmul w8 w8) w8) w8)) (conj w8)); [rewrite e8_4; ring|].
  transitivity (cmul (copp (cmul (cmul w8 w8) w8)) (cmul w8 (conj w8))); [ring|]. rewrite e8_unit. ring.
Qed.

(** The level twiddles as powers. *)
Lemma tws_1 : forall s j i, tws s s j i = cmul (if Nat.even i then c1 else copp c1) (root (S s) (Z.of_nat j)).
Proof. intros. apply root_flip. exact Hok. Qed.
Lemma tws_quarter : forall s j, tws (S s) s j 1 = cmul ci (root (S (S s)) (Z.of_nat j)).
Proof.
  intros s j. unfold tws. rewrite Nat.mul_1_l, Nat2Z.inj_add, (rt_add o Hok), pow2_Z, (rt_quarter o Hok). reflexivity.
Qed.
Lemma tws_0 : forall s t j, tws s t j 0 = root (S s) (Z.of_nat j). Proof. reflexivity. Qed.
Lemma tws_S : forall s j i, tws (S (S s)) s j (S i) = cmul w8 (tws (S (S s)) s j i).
Proof.
  intros s j i. unfold tws. replace (S i * 2 ^ s + j) with (2 ^ s + (i * 2 ^ s + j)) by lia.
  rewrite Nat2Z.inj_add, (rt_add o Hok), pow2_Z, (rt_eighth o Hok). reflexivity.
Qed.
Lemma root_pow2 : forall s j, root s (2 * j)%Z = cmul (root s j) (root s j).
Proof. intros s j. replace (2 * j)%Z with (j + j)%Z by lia. apply (rt_add o Hok). Qed.
Lemma root_pow3 : forall s j, root s (3 * j)%Z = cmul (cmul (root s j) (root s j)) (root s j).
Proof. intros s j. replace (3 * j)%Z with (j + j + j)%Z by lia. rewrite !(rt_add o Hok). reflexivity. Qed.
Lemma root_pow4 : forall s j, root s (4 * j)%Z = cmul (cmul (cmul (root s j) (root s j)) (root s j)) (root s j).
Proof. intros s j. replace (4 * j)%Z with (j + j + j + j)%Z by lia. rewrite !(rt_add o Hok). reflexivity. Qed.

Ltac push := repeat first [rewrite (conj_mul o Hok) | rewrite (conj_add o Hok) | rewrite (conj_sub o Hok) | rewrite (conj_conj o Hok) | rewrite conj_copp].

(** ** The codelets are compositions of levels *)
Lemma bfly_s1_lev : forall tw s (j : nat) a b, (forall i, tw i = Ok (root (S s) i)) ->
  bfly_s o 1 tw (Z.of_nat j) [a; b] = Ok (F1 (root (S s) (Z.of_nat j)) a b).
Proof. intros tw s j a b H. cbn [bfly_s]. unfold bfly_s1. rewrite H. reflexivity. Qed.
Lemma bfly_s2_lev : forall tw s (j : nat) a0 a1 a2 a3, (forall i, tw i = Ok (root (S (S s)) i)) ->
  bfly_s o 2 tw (Z.of_nat j) [a0; a1; a2; a3] = Ok (F2 (tws (S s) s j) (root (S s) (Z.of_nat j)) a0 a1 a2 a3).
Proof.
  intros tw s j a0 a1 a2 a3 H. cbn [bfly_s]. unfold bfly_s2. rewrite !H. cbn [bind]. unfold F2, F1, lev. cbn [fst snd app].
  rewrite tws_0, tws_quarter. rewrite <- (rt_dbl o Hok (S s)). rewrite root_pow2. set (w := root (S (S s)) (Z.of_nat j)).
  assert (Hw : cmul w (conj w) = c1) by apply (rt_unit o Hok). rewrite !(left_ci o Hok). push. rewrite !(conj_ci o Hok).
  set (c := conj w) in *. clearbody w c.
  apply f_equal. repeat (apply (f_equal2 (@cons C)); [ring [Hw]|]). reflexivity.
Qed.
Lemma bfly_s3_lev : forall tw s (j : nat) a0 a1 a2 a3 a4 a5 a6 a7, (forall i, tw i = Ok (root (S (S (S s))) i)) ->
  bfly_s o 3 tw (Z.of_nat j) [a0; a1; a2; a3; a4; a5; a6; a7] =
  Ok (F3 (tws (S (S s)) s j) (tws (S s) s j) (root (S s) (Z.of_nat j)) a0 a1 a2 a3 a4 a5 a6 a7).
Proof.
  intros tw s j a0 a1 a2 a3 a4 a5 a6 a7 H. cbn [bfly_s]. unfold bfly_s3. rewrite !H. cbn [bind]. unfold F3, F2, F1, lev. cbn [fst snd app].
  rewrite !tws_S. rewrite !tws_0. rewrite tws_quarter. rewrite <- (rt_dbl o Hok (S s)). rewrite <- !(rt_dbl o Hok (S (S s))).
  replace (2 * (2 * Z.of_nat j))%Z with (4 * Z.of_nat j)%Z by lia.
  rewrite root_pow4, root_pow3, root_pow2. set (w := root (S (S (S s))) (Z.of_nat j)).
  assert (Hw : cmul w (conj w) = c1) by apply (rt_unit o Hok). rewrite !(left_ci o Hok), !(diagp_w8 o Hok), !(diagm_w8 o Hok). rewrite <- !e8_2. push. rewrite !e8_conj.
  set (c := conj w) in *. pose proof e8_4 as He. set (e := w8) in *. clearbody w c e.
  apply f_equal. repeat (apply (f_equal2 (@cons C)); [ring [Hw He]|]). reflexivity.
Qed.

(** ** The stages *)
Definition freq (u b : nat) : nat := 2 * kperm (u - 1) b + 1.
Definition sst (p : nat) (x : list A) (u b r : nat) : C :=
  csum (2 ^ u) (fun c => cmul (realc o x (c * 2 ^ (p - u) + r)) (root (S p) (- Z.of_nat ((c * 2 ^ (p - u) + r) * freq u b)))).
Lemma freq_even : forall u b, 1 <= u -> freq (S u) (2 * b) = freq u b.
Proof. intros u b H. unfold freq. replace (S u - 1) with (S (u - 1)) by lia. rewrite kperm_even. reflexivity. Qed.
Lemma freq_odd : forall u b, 1 <= u -> freq (S u) (2 * b + 1) + freq u b = 2 ^ S u.
Proof.
  intros u b H. destruct u as [|v]; [lia|]. unfold freq. replace (S (S v) - 1) with (S v) by lia. replace (S v - 1) with v by lia.
  rewrite kperm_odd. pose proof (kperm_lt v b). rewrite !Nat.pow_succ_r'. lia.
Qed.
Lemma sst_even : forall p x u b r s, 1 <= u -> p = S (u + s) ->
  sst p x (S u) (2 * b) r = cadd (sst p x u b r) (sst p x u b (2 ^ s + r)).
Proof.
  intros p x u b r s Hu Hp. unfold sst. rewrite freq_even by exact Hu. replace (p - u) with (S s) by lia. replace (p - S u) with s by lia.
  rewrite !Nat.pow_succ_r', (csum_2 o Hok). apply f_equal2; apply csum_ext; intros c _.
  - replace (2 * c * 2 ^ s + r) with (c * (2 * 2 ^ s) + r) by ring. reflexivity.
  - replace ((2 * c + 1) * 2 ^ s + r) with (c * (2 * 2 ^ s) + (2 ^ s + r)) by ring. reflexivity.
Qed.
Lemma conj_realc : forall x i, conj (realc o x i) = realc o x i.
Proof. intros. unfold realc. cr. Qed.
Lemma sst_odd : forall p x u b r s, 1 <= u -> p = S (u + s) ->
  sst p x (S u) (2 * b + 1) r = conj (cmul (root (S s) (Z.of_nat r)) (csub (sst p x u b r) (sst p x u b (2 ^ s + r)))).
Proof.
  intros p x u b r s Hu Hp. pose proof (freq_odd u b Hu) as Hf. unfold sst. replace (p - u) with (S s) by lia. replace (p - S u) with s by lia.
  set (f := freq u b) in *. set (g := freq (S u) (2 * b + 1)) in *.
  assert (Hr : forall i, root (S p) (- Z.of_nat (i * g)) = cmul (conj (root (S s) (Z.of_nat i))) (conj (root (S p) (- Z.of_nat (i * f))))).
  { intros i. rewrite <- !(rt_conj o Hok). rewrite Z.opp_involutive.
    replace (- Z.of_nat (i * g))%Z with (2 ^ Z.of_nat (S u) * - Z.of_nat i + Z.of_nat (i * f))%Z by (rewrite <- pow2_Z; nia).
    rewrite (rt_add o Hok). apply f_equal2; [|reflexivity]. replace (S p) with (S u + S s) by lia. apply rt_scale. exact Hok. }
  rewrite (conj_mul o Hok), (conj_sub o Hok), !(csum_conj o Hok).
  rewrite !Nat.pow_succ_r', (csum_2 o Hok).
  rewrite (csum_ext o (2 ^ u) (fun i => cmul (realc o x ((2 * i) * 2 ^ s + r)) _)
    (fun c => cmul (conj (root (S s) (Z.of_nat r))) (conj (cmul (realc o x (c * (2 * 2 ^ s) + r)) (root (S p) (- Z.of_nat ((c * (2 * 2 ^ s) + r) * f))))))).
  2:{ intros c _. rewrite Hr, (root_flip o Hok). rewrite Nat.even_mul. cbn [Nat.even orb]. rewrite (conj_mul o Hok _ (root (S p) _)), conj_realc.
      replace (2 * c * 2 ^ s + r) with (c * (2 * 2 ^ s) + r) by ring.
      replace (cmul c1 (root (S s) (Z.of_nat r))) with (root (S s) (Z.of_nat r)) by ring. ring. }
  rewrite (csum_ext o (2 ^ u) (fun i => cmul (realc o x ((2 * i + 1) * 2 ^ s + r)) _)
    (fun c => cmul (copp (conj (root (S s) (Z.of_nat r)))) (conj (cmul (realc o x (c * (2 * 2 ^ s) + (2 ^ s + r))) (root (S p) (- Z.of_nat ((c * (2 * 2 ^ s) + (2 ^ s + r)) * f))))))).
  2:{ intros c _. rewrite Hr, (root_flip o Hok). rewrite Nat.even_add, Nat.even_mul. cbn [Nat.even orb Bool.eqb]. rewrite (conj_mul o Hok _ (root (S p) _)), conj_realc.
      replace ((2 * c + 1) * 2 ^ s + r) with (c * (2 * 2 ^ s) + (2 ^ s + r)) by ring.
      rewrite (conj_mul o Hok (copp c1)), conj_copp, (conj_1 o Hok). ring. }
  rewrite !(csum_mul o Hok). ring.
Qed.
Lemma sst_lev : forall p x u b r s, 1 <= u -> p = S (u + s) ->
  lev (root (S s) (Z.of_nat r)) (sst p x u b r) (sst p x u b (2 ^ s + r)) = (sst p x (S u) (2 * b) r, sst p x (S u) (2 * b + 1) r).
Proof. intros. unfold lev. rewrite (sst_even p x u b r s), (sst_odd p x u b r s) by assumption. reflexivity. Qed.

(** 2^r levels at once *)
Definition cells (p : nat) (x : list A) (u b s j : nat) (k : nat) : list C := map (fun i => sst p x u b (i * 2 ^ s + j)) (seq 0 k).
Definition outs (p : nat) (x : list A) (u b j : nat) (k : nat) : list C := map (fun i => sst p x u (b * k + i) j) (seq 0 k).
Lemma lev_a : forall p x u b r r' s t, 1 <= u -> p = S (u + s) -> r' = 2 ^ s + r -> t = root (S s) (Z.of_nat r) ->
  lev t (sst p x u b r) (sst p x u b r') = (sst p x (S u) (2 * b) r, sst p x (S u) (2 * b + 1) r).
Proof. intros. subst t r'. apply sst_lev; assumption. Qed.
Lemma F1_cells : forall p x u b s j, 1 <= u -> p = u + (s + 1) ->
  F1 (root (S s) (Z.of_nat j)) (sst p x u b (0 * 2 ^ s + j)) (sst p x u b (1 * 2 ^ s + j)) = outs p x (u + 1) b j 2.
Proof.
  intros p x u b s j Hu Hp. unfold F1. rewrite (lev_a p x u b (0 * 2 ^ s + j) _ s) by (try lia; auto). cbn [fst snd].
  unfold outs. cbn [map seq]. rewrite !(Nat.add_1_r u), !(Nat.mul_comm b 2), Nat.add_0_r. reflexivity.
Qed.
Lemma F2_cells : forall p x u b s j, 1 <= u -> p = u + (s + 2) ->
  F2 (tws (S s) s j) (root (S s) (Z.of_nat j)) (sst p x u b (0 * 2 ^ s + j)) (sst p x u b (1 * 2 ^ s + j)) (sst p x u b (2 * 2 ^ s + j)) (sst p x u b (3 * 2 ^ s + j))
  = outs p x (u + 2) b j 4.
Proof.
  intros p x u b s j Hu Hp. unfold F2.
  rewrite (lev_a p x u b (0 * 2 ^ s + j) (2 * 2 ^ s + j) (S s)) by (try lia; auto; rewrite Nat.pow_succ_r'; lia).
  rewrite (lev_a p x u b (1 * 2 ^ s + j) (3 * 2 ^ s + j) (S s)) by (try lia; auto; rewrite Nat.pow_succ_r'; lia).
  cbn [fst snd]. rewrite !(F1_cells p x (S u)) by lia. unfold outs. cbn [map seq app]. replace (S u + 1) with (u + 2) by lia.
  repeat (apply (f_equal2 (@cons C)); [f_equal; lia|]). reflexivity.
Qed.
Lemma F3_cells : forall p x u b s j, 1 <= u -> p = u + (s + 3) ->
  F3 (tws (S (S s)) s j) (tws (S s) s j) (root (S s) (Z.of_nat j))
    (sst p x u b (0 * 2 ^ s + j)) (sst p x u b (1 * 2 ^ s + j)) (sst p x u b (2 * 2 ^ s + j)) (sst p x u b (3 * 2 ^ s + j))
    (sst p x u b (4 * 2 ^ s + j)) (sst p x u b (5 * 2 ^ s + j)) (sst p x u b (6 * 2 ^ s + j)) (sst p x u b (7 * 2 ^ s + j))
  = outs p x (u + 3) b j 8.
Proof.
  intros p x u b s j Hu Hp. unfold F3.
  rewrite (lev_a p x u b (0 * 2 ^ s + j) (4 * 2 ^ s + j) (S (S s))) by (try lia; auto; rewrite !Nat.pow_succ_r'; lia).
  rewrite (lev_a p x u b (1 * 2 ^ s + j) (5 * 2 ^ s + j) (S (S s))) by (try lia; auto; rewrite !Nat.pow_succ_r'; lia).
  rewrite (lev_a p x u b (2 * 2 ^ s + j) (6 * 2 ^ s + j) (S (S s))) by (try lia; auto; rewrite !Nat.pow_succ_r'; lia).
  rewrite (lev_a p x u b (3 * 2 ^ s + j) (7 * 2 ^ s + j) (S (S s))) by (try lia; auto; rewrite !Nat.pow_succ_r'; lia).
  cbn [fst snd]. rewrite !(F2_cells p x (S u)) by lia. unfold outs. cbn [map seq app]. replace (S u + 2) with (u + 3) by lia.
  repeat (apply (f_equal2 (@cons C)); [f_equal; lia|]). reflexivity.
Qed.

(** All radices together: the maps as functions on lists. *)
Definition FL (r s j : nat) (v : list C) : list C :=
  match r, v with
  | 1, [a; b] => F1 (root (S s) (Z.of_nat j)) a b
  | 2, [a0; a1; a2; a3] => F2 (tws (S s) s j) (root (S s) (Z.of_nat j)) a0 a1 a2 a3
  | 3, [a0; a1; a2; a3; a4; a5; a6; a7] => F3 (tws (S (S s)) s j) (tws (S s) s j) (root (S s) (Z.of_nat j)) a0 a1 a2 a3 a4 a5 a6 a7
  | _, _ => []
  end.
Lemma bfly_FL : forall r tw s j v, 1 <= r <= 3 -> (forall i, tw i = Ok (root (s + r) i)) -> length v = 2 ^ r ->
  bfly_s o r tw (Z.of_nat j) v = Ok (FL r s j v) /\ length (FL r s j v) = 2 ^ r.
Proof.
  intros r tw s j v Hr Ht Hv. assert (r = 1 \/ r = 2 \/ r = 3) as [->|[->| ->]] by lia.
  - change (2 ^ 1) with 2 in *. destruct v as [|a [|b [|? v]]]; try discriminate Hv. rewrite (bfly_s1_lev tw s).
    + split; reflexivity.
    + intros i. rewrite Ht. do 2 f_equal. lia.
  - change (2 ^ 2) with 4 in *. destruct v as [|a0 [|a1 [|a2 [|a3 [|? v]]]]]; try discriminate Hv. rewrite (bfly_s2_lev tw s).
    + split; reflexivity.
    + intros i. rewrite Ht. do 2 f_equal. lia.
  - change (2 ^ 3) with 8 in *. destruct v as [|a0 [|a1 [|a2 [|a3 [|a4 [|a5 [|a6 [|a7 [|? v]]]]]]]]]; try discriminate Hv. rewrite (bfly_s3_lev tw s).
    + split; reflexivity.
    + intros i. rewrite Ht. do 2 f_equal. lia.
Qed.
Lemma FL_cells : forall r p x u b s j, 1 <= r <= 3 -> 1 <= u -> p = u + (s + r) ->
  FL r s j (cells p x u b s j (2 ^ r)) = outs p x (u + r) b j (2 ^ r).
Proof.
  intros r p x u b s j Hr Hu Hp. assert (r = 1 \/ r = 2 \/ r = 3) as [->|[->| ->]] by lia; unfold cells.
  - change (2 ^ 1) with 2. cbn [seq map FL]. apply F1_cells; assumption.
  - change (2 ^ 2) with 4. cbn [seq map FL]. apply F2_cells; assumption.
  - change (2 ^ 3) with 8. cbn [seq map FL]. apply F3_cells; assumption.
Qed.

(** ** Passes *)
Variable ord : Z -> list nat.
Hypothesis Hord : sched_ok ord.
Definition at_sst (p : nat) (x : list A) (y : list C) (u : nat) : Prop :=
  forall b r, b < 2 ^ (u - 1) -> r < 2 ^ (p - u) -> nth (b * 2 ^ (p - u) + r) y c0 = sst p x u b r.
Lemma block_split : forall r i, i = (i / 2 ^ r) * 2 ^ r + i mod 2 ^ r /\ i mod 2 ^ r < 2 ^ r.
Proof.
  intros r i. pose proof (pow2_pos r). split; [rewrite Nat.mul_comm; apply Nat.div_mod; lia|apply Nat.mod_upper_bound; lia].
Qed.
Lemma srfft_pass : forall r p x u s tw y, 1 <= r <= 3 -> 1 <= u -> p = u + (s + r) -> p <= 31 ->
  (forall i, tw i = Ok (root (s + r) i)) -> length y = 2 ^ (p - 1) -> at_sst p x y u ->
  exists y', def_loop ord (2 ^ (p - 1 - r)) (srfft_s o r tw s) y = Ok y' /\ length y' = 2 ^ (p - 1) /\ at_sst p x y' (u + r).
Proof.
  intros r p x u s tw y Hr Hu Hp Hp30 Ht Hy HS.
  destruct (radix_pass c0 ord (p - 1) r s (srfft_s o r tw s) (fun j v => bfly_s o r tw (Z.of_nat j) v) (FL r s)) with (y := y) as (y' & E & L & V); auto; try lia.
  - intros jk z. unfold srfft_s. rewrite land_ones_mod. reflexivity.
  - intros j v Hj Hv. apply bfly_FL; auto.
  - exists y'. split; [exact E|]. split; [exact L|]. intros b r0 Hb Hr0.
    replace (p - (u + r)) with s in * by lia. destruct (block_split r b) as [Eb Hi]. set (c := b / 2 ^ r) in *. set (i := b mod 2 ^ r) in *.
    assert (Hc : c < 2 ^ (u - 1)).
    { unfold c. apply Nat.div_lt_upper_bound; [pose proof (pow2_pos r); lia|]. rewrite <- Nat.pow_add_r. replace (r + (u - 1)) with (u + r - 1) by lia. exact Hb. }
    specialize (V c r0 Hr0). replace (p - 1 - r - s) with (u - 1) in V by lia. specialize (V Hc).
    assert (In_ : map (at_ y) (block_idx r s c r0) = cells p x u c s r0 (2 ^ r)).
    { unfold block_idx, cells. rewrite map_map. apply map_ext_in. intros k Hk. apply in_seq in Hk. rewrite <- HS.
      - f_equal. replace (p - u) with (r + s) by lia. rewrite Nat.pow_add_r. ring.
      - exact Hc.
      - replace (p - u) with (r + s) by lia. rewrite Nat.pow_add_r. nia. }
    rewrite In_ in V. rewrite (FL_cells r p x u) in V by assumption.
    assert (Vi : nth i (map (at_ y') (block_idx r s c r0)) c0 = nth i (outs p x (u + r) c r0 (2 ^ r)) c0) by (rewrite V; reflexivity).
    unfold block_idx, outs in Vi. rewrite map_map in Vi. rewrite !(nth_map_lt c0) in Vi by (rewrite seq_length; exact Hi).
    rewrite !seq_nth in Vi by exact Hi. cbn [Nat.add] in Vi. rewrite <- Eb in Vi. exact Vi.
Qed.

(** fft.cc:364-371 *)
Lemma npow_div : forall p k, k <= p -> 2 ^ p / 2 ^ k = 2 ^ (p - k).
Proof. intros p k H. replace p with ((p - k) + k) at 1 by lia. rewrite Nat.pow_add_r, Nat.div_mul; [reflexivity|pose proof (pow2_pos k); lia]. Qed.
Lemma fwd_passes_ok : forall p x c y, p <= 31 -> c < p -> length y = 2 ^ (p - 1) -> at_sst p x y (p - c) ->
  exists y', fwd_passes o ord (2 ^ p) c y = Ok y' /\ length y' = 2 ^ (p - 1) /\ at_sst p x y' p.
Proof.
  intros p x c. induction c as [c IH] using lt_wf_ind. intros y Hp Hc Hy HS.
  destruct c as [|[|[|c]]].
  - cbn [fwd_passes]. exists y. rewrite Nat.sub_0_r in HS. auto.
  - cbn [fwd_passes]. change 4 with (2 ^ 2) at 1. rewrite npow_div by lia. replace (p - 2) with (p - 1 - 1) by lia.
    destruct (srfft_pass 1 p x (p - 1) 0 (slice o 0) y) as (y' & E & L & V); auto; try lia. { intros i. apply (slice_ok o Hok). }
    exists y'. split; [exact E|]. split; [exact L|]. replace (p - 1 + 1) with p in V by lia. exact V.
  - cbn [fwd_passes]. change 8 with (2 ^ 3) at 1. rewrite npow_div by lia. replace (p - 3) with (p - 1 - 2) by lia.
    destruct (srfft_pass 2 p x (p - 2) 0 (slice o 1) y) as (y' & E & L & V); auto; try lia. { intros i. apply (slice_ok o Hok). }
    exists y'. split; [exact E|]. split; [exact L|]. replace (p - 2 + 2) with p in V by lia. exact V.
  - cbn [fwd_passes]. change 16 with (2 ^ 4) at 1. rewrite npow_div by lia. replace (p - 4) with (p - 1 - 3) by lia.
    destruct (srfft_pass 3 p x (p - S (S (S c))) c (slice o (c + 2)) y) as (y' & E & L & V); auto; try lia.
    { intros i. rewrite (slice_ok o Hok). do 2 f_equal. lia. }
    rewrite E. cbn [bind]. apply IH; auto; try lia. replace (p - S (S (S c)) + 3) with (p - c) in V by lia. exact V.
Qed.
End S.
