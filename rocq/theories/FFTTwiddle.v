(** Twiddle lookups return the roots of unity. *)
From Coq Require Import ZArith Arith List Bool Lia Ring.
From Verif Require Import Base SeriesModel SeriesProofs FFTModel FFTLoop FFTMath.
Import ListNotations.
Open Scope Z_scope.

Lemma land_mod : forall j s : Z, 0 <= s -> Z.land j (2 ^ s - 1) = j mod 2 ^ s.
Proof. intros j s H. rewrite <- Z.land_ones by exact H. f_equal. rewrite Z.ones_equiv. lia. Qed.

Section T.
Variable o : ops.
Hypothesis Hok : ops_ok o.
Notation C := (FFTModel.A o * FFTModel.A o)%type.
Add Ring AringT : (ok_ring o Hok).
Add Ring CringT : (C_ring o Hok).
Notation root := (root o).

(** The flips of TwiddleSlice (fft.cc:100-111). *)
Lemma flip_i : forall s j, root (S s) (2 ^ Z.of_nat (S s) - j) = (fst (root (S s) j), opp o (snd (root (S s) j))).
Proof.
  intros s j. replace (2 ^ Z.of_nat (S s) - j) with (- j + 2 ^ Z.of_nat (S s) * 1) by ring.
  rewrite (rt_period o Hok), (rt_conj o Hok). reflexivity.
Qed.
Lemma flip_r : forall s j, root (S s) (2 ^ Z.of_nat s - j) = (opp o (fst (root (S s) j)), snd (root (S s) j)).
Proof.
  intros s j. rewrite (rt_sub o Hok), (rt_half o Hok). destruct (root (S s) j) as [a b].
  unfold cmul, conj, copp, c1. cbn [fst snd]. f_equal; ring.
Qed.
Lemma flip_d : forall s j, root (S (S s)) (2 ^ Z.of_nat s - j) = (snd (root (S (S s)) j), fst (root (S (S s)) j)).
Proof.
  intros s j. rewrite (rt_sub o Hok), (rt_quarter o Hok). destruct (root (S (S s)) j) as [a b].
  unfold cmul, conj, ci. cbn [fst snd]. f_equal; ring.
Qed.

Lemma slice_ok : forall s j, slice o s j = Ok (root (S s) j).
Proof.
  intros s j. unfold slice. set (m := 2 ^ Z.of_nat s).
  assert (Hm : 0 < m) by (apply Z.pow_pos_nonneg; lia).
  assert (H2m : 2 ^ Z.of_nat (S s) = 2 * m) by (rewrite Nat2Z.inj_succ, Z.pow_succ_r; [reflexivity|lia]).
  assert (Hj : Z.land j (2 * m - 1) = j mod (2 * m)) by (rewrite <- H2m; apply land_mod; lia).
  rewrite Hj. rewrite <- (rt_mod o Hok (S s) j). rewrite H2m.
  pose proof (Z.mod_pos_bound j (2 * m) ltac:(lia)) as Hb. set (a := j mod (2 * m)) in *. clearbody a. clear Hj j.
  cbv zeta.
  set (a1 := if m <? a then 2 * m - a else a).
  assert (Ha1 : 0 <= a1 <= m) by (unfold a1; destruct (Z.ltb_spec m a); lia).
  assert (E1 : root (S s) a = if m <? a then (fst (root (S s) a1), opp o (snd (root (S s) a1))) else root (S s) a1).
  { unfold a1. destruct (Z.ltb_spec m a); [|reflexivity]. rewrite <- flip_i. f_equal. lia. }
  rewrite E1. clear E1.
  set (a2 := if m / 2 <? a1 then m - a1 else a1).
  assert (E2 : root (S s) a1 = if m / 2 <? a1 then (opp o (fst (root (S s) a2)), snd (root (S s) a2)) else root (S s) a2).
  { unfold a2. destruct (Z.ltb_spec (m / 2) a1); [|reflexivity]. rewrite <- flip_r. fold m. f_equal. lia. }
  rewrite E2. clear E2.
  assert (Ha2 : 0 <= a2 /\ 2 * a2 <= m).
  { unfold a2. destruct (Z.ltb_spec (m / 2) a1); [|].
    - pose proof (Z.div_mod m 2 ltac:(lia)). pose proof (Z.mod_pos_bound m 2 ltac:(lia)). lia.
    - pose proof (Z.div_mod m 2 ltac:(lia)). pose proof (Z.mod_pos_bound m 2 ltac:(lia)). lia. }
  set (a3 := if m / 4 <? a2 then m / 2 - a2 else a2).
  assert (H3 : 0 <= a3 < m / 4 + 1 /\ root (S s) a2 = if m / 4 <? a2 then (snd (root (S s) a3), fst (root (S s) a3)) else root (S s) a3).
  { unfold a3. destruct (Z.ltb_spec (m / 4) a2) as [Hd|Hd]; [|split; [lia|reflexivity]].
    destruct s as [|s].
    - exfalso. assert (m = 1) by reflexivity. subst a3. replace (m / 4) with 0 in Hd by (rewrite H; reflexivity). lia.
    - assert (Hm2 : m = 2 * 2 ^ Z.of_nat s) by (unfold m; rewrite Nat2Z.inj_succ, Z.pow_succ_r; [reflexivity|lia]).
      assert (Hm2' : m / 2 = 2 ^ Z.of_nat s) by (rewrite Hm2, Z.mul_comm, Z.div_mul; lia).
      rewrite Hm2'. split.
      + pose proof (Z.div_mod m 4 ltac:(lia)). pose proof (Z.mod_pos_bound m 4 ltac:(lia)).
        set (q := m / 4) in *. set (h := 2 ^ Z.of_nat s) in *. clearbody q h. lia.
      + rewrite <- flip_d. f_equal. lia. }
  destruct H3 as [H3 E3]. rewrite E3.
  unfold table_get. fold m. replace ((0 <=? a3) && (a3 <? m / 4 + 1)) with true by (symmetry; apply andb_true_intro; split; [apply Z.leb_le|apply Z.ltb_lt]; lia).
  cbn [bind]. destruct (m / 4 <? a2), (m / 2 <? a1), (m <? a); reflexivity.
Qed.

Lemma few_ok : forall s r, (s < 30)%nat -> 0 <= r < 4 -> few_get o (4 * Z.of_nat s + r) = Ok (root (S s) r).
Proof.
  intros s r Hs Hr. unfold few_get.
  replace ((0 <=? 4 * Z.of_nat s + r) && (4 * Z.of_nat s + r <? 30 * 4)) with true
    by (symmetry; apply andb_true_intro; split; [apply Z.leb_le|apply Z.ltb_lt]; lia).
  replace (4 * Z.of_nat s + r) with (r + Z.of_nat s * 4) by ring.
  rewrite Z.div_add, Z.mod_add by lia. rewrite (Z.div_small r), (Z.mod_small r) by lia. rewrite Z.add_0_l, Nat2Z.id. reflexivity.
Qed.
Lemma big_slice_ok : forall s j, (2 <= s < 30)%nat -> big_slice o s j = Ok (root (S s) j).
Proof.
  intros s j Hs. unfold big_slice. replace (2 <=? s)%nat with true by (symmetry; apply Nat.leb_le; lia). cbn [slow_assert bind].
  rewrite slice_ok. cbn [bind].
  change 3 with (2 ^ 2 - 1). rewrite land_mod by lia. rewrite Z.shiftr_div_pow2 by lia. change (2 ^ 2) with 4.
  pose proof (Z.mod_pos_bound j 4 ltac:(lia)). rewrite few_ok by lia. cbn [bind].
  replace (root (S (s - 2)) (j / 4)) with (root (S s) (4 * (j / 4))).
  - rewrite <- (rt_add o Hok). f_equal. f_equal. symmetry. apply Z.div_mod. lia.
  - replace (S s) with (2 + S (s - 2))%nat by lia. change 4 with (2 ^ Z.of_nat 2) at 1. apply (rt_scale o Hok).
Qed.
Lemma big_slice_oob : forall s j, (30 <= s)%nat -> big_slice o s j = UB.
Proof.
  intros s j Hs. unfold big_slice. replace (2 <=? s)%nat with true by (symmetry; apply Nat.leb_le; lia). cbn [slow_assert bind].
  rewrite slice_ok. cbn [bind]. change 3 with (2 ^ 2 - 1). rewrite land_mod by lia.
  pose proof (Z.mod_pos_bound j (2 ^ 2) ltac:(lia)). unfold few_get.
  replace (4 * Z.of_nat s + j mod 2 ^ 2 <? 30 * 4) with false by (symmetry; apply Z.ltb_ge; lia). rewrite andb_false_r. reflexivity.
Qed.
End T.
