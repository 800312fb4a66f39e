(** Proofs about nearest_twiddles (nearest.cc) and area (area.cc). *)
From Coq Require Import ZArith List Bool Reals Lia Lra.
From Flocq Require Import Core BinarySingleNaN.
From Verif Require Import Base LoopsModel LoopsProofs ExpansionModel ExpansionFloat ExpansionProofs
  NearestModel NearestProofs.
Import ListNotations.
Open Scope R_scope.

(** ** The factorization of the index range *)

Lemma fmt_IZR z : (Z.abs z <= 2 ^ 53)%Z -> fmt (IZR z).
Proof.
  intro H. apply generic_format_FLT. destruct (Z.eq_dec (Z.abs z) (2 ^ 53)) as [E|NE].
  - exists (Float radix2 (z / 2) 1).
    + unfold F2R. cbn [Fnum Fexp]. change (bpow radix2 1) with (IZR 2). rewrite <- mult_IZR.
      f_equal. destruct (Z.abs_eq_or_opp z) as [E'|E']; rewrite E in E'.
      * rewrite <- E'. reflexivity.
      * replace z with (- 2 ^ 53)%Z by lia. reflexivity.
    + cbn [Fnum]. unfold prec. rewrite <- (Zpower_Zpower_nat) || idtac.
      destruct (Z.abs_eq_or_opp z) as [E'|E']; rewrite E in E'.
      * rewrite <- E'. reflexivity.
      * replace z with (- 2 ^ 53)%Z by lia. reflexivity.
    + cbn. unfold emin. lia.
  - exists (Float radix2 z 0).
    + unfold F2R. cbn [Fnum Fexp]. cbn [bpow]. ring.
    + cbn [Fnum]. unfold prec. change (Zpower radix2 53) with (2 ^ 53)%Z. lia.
    + cbn. unfold emin. lia.
Qed.

Lemma dofZ_exact z : (Z.abs z <= 2 ^ 53)%Z -> fin (dofZ z) /\ B2R (dofZ z) = IZR z.
Proof.
  intro H. pose proof (binary_normalize_correct prec emax _ _ mode_NE z 0 false) as C.
  cbv zeta in C. rewrite fexp_FLT in C. cbn [round_mode] in C.
  assert (E : F2R (Float radix2 z 0) = IZR z) by (unfold F2R; cbn; ring).
  rewrite E, (rn_id _ (fmt_IZR z H)) in C.
  rewrite Rlt_bool_true in C.
  - split; apply C.
  - rewrite <- abs_IZR. apply Rle_lt_trans with (IZR (2 ^ 53)); [now apply IZR_le|].
    change (IZR (2 ^ 53)) with (bpow radix2 53). apply bpow_lt. reflexivity.
Qed.

(** The first factor is the square root, rounded up, within one. *)
Lemma factor0_bounds n s : (1 <= s)%Z -> (s <= 2 ^ 26)%Z -> (s * s <= n)%Z -> (n <= (s + 1) * (s + 1))%Z ->
  (s <= factor0 n <= s + 1)%Z.
Proof.
  intros Hs Hb H1 H2.
  assert (Hn : (Z.abs n <= 2 ^ 53)%Z) by nia.
  destruct (dofZ_exact n Hn) as [F E].
  pose proof (Bsqrt_correct prec emax _ _ mode_NE (dofZ n)) as [C1 [C2 _]].
  rewrite fexp_FLT, E in C1. cbn [round_mode] in C1.
  assert (F' : fin (Bsqrt mode_NE (dofZ n))).
  { unfold fin. rewrite C2. unfold fin in F. destruct (dofZ n) as [?|?| |[] ? ? ?] eqn:D; try discriminate; auto.
    exfalso. assert (0 < IZR n) by (apply IZR_lt; lia). rewrite <- E in H. cbn [B2R] in H.
    match type of H with 0 < F2R (Float _ (cond_Zopp true (Zpos ?m)) _) =>
      pose proof (F2R_lt_0 radix2 (Float radix2 (Z.neg m) e)) end.
    cbn in H0. specialize (H0 ltac:(lia)). cbn [cond_Zopp Z.opp] in H. lra. }
  set (r := Bsqrt mode_NE (dofZ n)) in *.
  assert (Hs1 : IZR s <= sqrt (IZR n)).
  { rewrite <- (sqrt_square (IZR s)) by (apply IZR_le; lia).
    apply sqrt_le_1_alt. rewrite <- mult_IZR. apply IZR_le. lia. }
  assert (Hs2 : sqrt (IZR n) <= IZR (s + 1)).
  { rewrite <- (sqrt_square (IZR (s + 1))) by (apply IZR_le; lia).
    apply sqrt_le_1_alt. rewrite <- mult_IZR. apply IZR_le. lia. }
  apply rn_le in Hs1, Hs2. rewrite <- C1 in Hs1, Hs2.
  rewrite rn_id in Hs1, Hs2 by (apply fmt_IZR; lia).
  pose proof (Bnearbyint_correct prec emax _ mode_UP r) as (N1 & N2 & _).
  cbn [round_mode] in N1.
  assert (T : factor0 n = Zceil (B2R r)).
  { unfold factor0. fold r. apply eq_IZR. rewrite Btrunc_correct by reflexivity. rewrite N1.
    unfold round at 1. unfold F2R, scaled_mantissa, cexp, FIX_exp. cbn [Fnum Fexp bpow Z.opp].
    unfold round, F2R, scaled_mantissa, cexp, FIX_exp. cbn [Fnum Fexp bpow Z.opp].
    rewrite !Rmult_1_r, Ztrunc_IZR. reflexivity. }
  rewrite T. split.
  - apply le_IZR. eapply Rle_trans; [exact Hs1|]. apply Zceil_ub.
  - apply Zceil_glb. exact Hs2.
Qed.

(** For every table size that an int can count: both factors are in range, they cover the table,
    and nothing overflows. *)
Lemma factor0_ok n : (1 <= n < 2 ^ 31)%Z ->
  (1 <= factor0 n <= 46341)%Z /\
  (1 <= Z.quot (n + factor0 n - 1) (factor0 n) <= 46342)%Z /\
  (n <= factor0 n * Z.quot (n + factor0 n - 1) (factor0 n))%Z.
Proof.
  intro H. set (s := Z.sqrt n). pose proof (Z.sqrt_spec n ltac:(lia)) as [S1 S2]. fold s in S1, S2.
  assert (1 <= s)%Z by (apply Z.sqrt_le_square; lia).
  assert (s <= 46340)%Z by nia.
  pose proof (factor0_bounds n s ltac:(lia) ltac:(lia) ltac:(lia) ltac:(lia)) as B.
  set (n0 := factor0 n) in *.
  rewrite Z.quot_div_nonneg by lia.
  set (n1 := ((n + n0 - 1) / n0)%Z).
  pose proof (Z.div_mod (n + n0 - 1) n0 ltac:(lia)) as D. fold n1 in D.
  pose proof (Z.mod_pos_bound (n + n0 - 1) n0 ltac:(lia)) as M.
  repeat split; try lia; try nia.
Qed.

Lemma F2_len {A B} (P : A -> B -> Prop) l m : Forall2 P l m -> length l = length m.
Proof. induction 1; cbn; auto. Qed.

Lemma rounds_ok {A} (f : Z -> res A) : forall js l, rounds f js = Ok l ->
  Forall2 (fun j a => f j = Ok a) js l.
Proof.
  induction js as [|j js IH]; intros l E; cbn [rounds] in E; [injection E as <-; constructor|].
  destruct (f j) as [a| |] eqn:Ej; try discriminate. cbn [bind] in E.
  destruct (rounds f js) as [l'| |]; try discriminate. cbn [bind] in E.
  injection E as <-. constructor; auto.
Qed.

Lemma rounds_ub {A} (f : Z -> res A) : forall js, (forall j, In j js -> f j <> UB) ->
  rounds f js <> UB.
Proof.
  induction js as [|j js IH]; intros H; cbn [rounds]; [discriminate|].
  pose proof (H j (or_introl eq_refl)). specialize (IH (fun j Hj => H j (or_intror Hj))).
  destruct (f j); try discriminate; [|congruence]. cbn [bind].
  destruct (rounds f js); try discriminate; congruence.
Qed.

Lemma Forall2_nth {A B} (P : A -> B -> Prop) : forall l l', Forall2 P l l' ->
  forall i b, nth_error l' i = Some b -> exists a, nth_error l i = Some a /\ P a b.
Proof.
  induction 1 as [|x y l l' H HF IH]; intros [|i] b E; cbn in *; try discriminate; eauto.
  injection E as <-. eauto.
Qed.

Lemma int_loop_ok {A} n (f : Z -> res A) l : (0 <= n)%Z -> int_loop n f = Ok l ->
  length l = Z.to_nat n /\ forall i a, nth_error l i = Some a -> f (Z.of_nat i) = Ok a.
Proof.
  intros Hn E. unfold int_loop in E. destruct (2 ^ 31 <=? n)%Z; [discriminate|].
  apply rounds_ok in E. split.
  - apply F2_len in E. rewrite <- E, map_length, seq_length. reflexivity.
  - intros i a Ea. destruct (Forall2_nth _ _ _ E i a Ea) as (j & Ej & Hj).
    rewrite nth_error_map in Ej. destruct (nth_error (seq 0 (Z.to_nat n)) i) as [q|] eqn:Eq; [|discriminate].
    cbn in Ej. injection Ej as <-.
    assert (i < Z.to_nat n)%nat.
    { rewrite <- (seq_length (Z.to_nat n) 0). apply nth_error_Some. congruence. }
    apply nth_error_nth with (d := 0%nat) in Eq. rewrite seq_nth in Eq by assumption. subst q. exact Hj.
Qed.

Lemma int_loop_ub {A} n (f : Z -> res A) : (n < 2 ^ 31)%Z ->
  (forall j, (0 <= j < n)%Z -> f j <> UB) -> int_loop n f <> UB.
Proof.
  intros Hn H. unfold int_loop. destruct (2 ^ 31 <=? n)%Z eqn:E; [lia|].
  apply rounds_ub. intros j Hj. apply in_map_iff in Hj. destruct Hj as (i & <- & Hi).
  apply in_seq in Hi. apply H. lia.
Qed.

Section T.
  Variable A : arb.
  Variable mem : ball A -> R -> Prop.
  Hypothesis HA : encloses A mem.

  Definition angle (a b : Z) : R := 2 * PI * IZR a / IZR b.

  Lemma angle_pi a b : (1 <= b)%Z -> PI * IZR (2 * a) / IZR b = angle a b.
  Proof. intro H. unfold angle. rewrite mult_IZR. field. apply not_0_IZR. lia. Qed.

  Lemma angle_add a a' b : (1 <= b)%Z -> angle (a + a') b = angle a b + angle a' b.
  Proof. intro H. unfold angle. rewrite plus_IZR. field. apply not_0_IZR. lia. Qed.

  Lemma factor_ok n0 n1 b fast j z : (2 <= fast)%Z -> (1 <= b < 2 ^ 63)%Z ->
    factor A n0 n1 b fast j = Ok z ->
    let a := (if j <? n0 then j * n1 else j - n0)%Z in
    mem (fst z) (cos (angle a b)) /\ mem (snd z) (sin (angle a b)).
  Proof.
    intros Hf Hb E a. subst a. unfold factor in E. rewrite to_u64_id in E by assumption.
    rewrite <- angle_pi by lia.
    destruct (j <? n0)%Z eqn:Ej.
    - destruct (_ <=? _)%Z; [discriminate|]. injection E as <-.
      replace (2 * (j * n1))%Z with (2 * j * n1)%Z by lia.
      apply (e_cis A mem HA); lia.
    - injection E as <-. apply (e_cis A mem HA); lia.
  Qed.

  Lemma entry_ok k n0 n1 b fast factors j z fb : (2 <= fast)%Z -> (1 <= b < 2 ^ 63)%Z ->
    (1 <= n1)%Z -> (0 <= j < n0 * n1)%Z ->
    (forall i x, nth_error factors i = Some x -> factor A n0 n1 b fast (Z.of_nat i) = Ok x) ->
    entry A k n0 n1 b fast factors j = Ok (z, fb) ->
    (Forall fin (fst z) -> rounded k (cos (angle j b)) (fst z)) /\
    (Forall fin (snd z) -> rounded k (sin (angle j b)) (snd z)).
  Proof.
    intros Hf Hb H1 Hj HF E. unfold entry in E.
    rewrite Z.quot_div_nonneg in E by lia.
    set (j0 := (j / n1)%Z) in *. set (j1 := (j - j0 * n1)%Z) in *.
    pose proof (Z.div_mod j n1 ltac:(lia)) as D. fold j0 in D.
    pose proof (Z.mod_pos_bound j n1 ltac:(lia)) as M.
    assert (0 <= j0)%Z by (apply Z.div_pos; lia).
    assert (j0 < n0)%Z by (apply Z.div_lt_upper_bound; lia).
    assert (0 <= j1 < n1)%Z by (subst j1; lia).
    destruct (nth_error factors (Z.to_nat j0)) as [x|] eqn:Ex; [|discriminate].
    destruct (nth_error factors (Z.to_nat (n0 + j1))) as [y|] eqn:Ey; [|discriminate].
    apply HF in Ex, Ey. rewrite Z2Nat.id in Ex by lia. rewrite Z2Nat.id in Ey by lia.
    apply factor_ok in Ex; [|assumption..]. apply factor_ok in Ey; [|assumption..].
    cbv zeta in Ex, Ey.
    replace (j0 <? n0)%Z with true in Ex by lia.
    replace (n0 + j1 <? n0)%Z with false in Ey by lia.
    replace (n0 + j1 - n0)%Z with j1 in Ey by lia.
    destruct Ex as [X1 X2], Ey as [Y1 Y2].
    destruct (e_cmul A mem HA x y _ _ _ _ fast Hf X1 X2 Y1 Y2) as [P1 P2].
    rewrite <- cos_plus in P1.
    rewrite <- angle_add in P1 by lia.
    rewrite Rplus_comm, (Rmult_comm (cos _)) in P2.
    replace (sin (angle (j0 * n1) b) * cos (angle j1 b) + sin (angle j1 b) * cos (angle (j0 * n1) b))
      with (sin (angle (j0 * n1) b + angle j1 b)) in P2 by (rewrite sin_plus; ring).
    rewrite <- angle_add in P2 by lia.
    replace (j0 * n1 + j1)%Z with j in P1, P2 by (subst j1; lia).
    destruct (round_nearest_c A k (c_mul A x y fast) fast) as [[r|]| |] eqn:Er; try discriminate;
      cbn [bind] in E.
    - injection E as <- <-. eapply (round_nearest_c_ok A mem HA); eauto.
    - destruct (nearest_twiddle A k j b) as [w| |] eqn:Et; try discriminate. cbn [bind] in E.
      injection E as <- <-. eapply (nearest_twiddle_ok A mem HA); eauto.
  Qed.

  Lemma twiddles_ok k n b fast zs fb :
    (1 <= n < 2 ^ 31)%Z -> (1 <= b < 2 ^ 63)%Z -> (2 <= fast)%Z ->
    nearest_twiddles A k n b fast = Ok (zs, fb) ->
    length zs = Z.to_nat n /\ (0 <= fb <= n)%Z /\
    forall j z, nth_error zs j = Some z ->
      (Forall fin (fst z) -> rounded k (cos (angle (Z.of_nat j) b)) (fst z)) /\
      (Forall fin (snd z) -> rounded k (sin (angle (Z.of_nat j) b)) (snd z)).
  Proof.
    intros Hn Hb Hf E. unfold nearest_twiddles in E.
    destruct (factor0_ok n Hn) as (B0 & B1 & C).
    set (n0 := factor0 n) in *. set (n1 := Z.quot (n + n0 - 1) n0) in *.
    destruct (n0 =? 0)%Z; [discriminate|].
    destruct (int_loop (n0 + n1) _) as [factors| |] eqn:E1; try discriminate. cbn [bind] in E.
    destruct (int_loop n _) as [l| |] eqn:E2; try discriminate. cbn [bind] in E.
    injection E as <- <-.
    apply int_loop_ok in E1; [|lia]. destruct E1 as [L1 E1].
    apply int_loop_ok in E2; [|lia]. destruct E2 as [L2 E2].
    rewrite map_length. split; [exact L2|]. split.
    - assert (length (filter snd l) <= length l)%nat.
      { clear. induction l as [|[? []] l IH]; cbn; lia. }
      lia.
    - intros j z H.
      rewrite nth_error_map in H. destruct (nth_error l j) as [[w q]|] eqn:Ej; [|discriminate].
      cbn in H. injection H as <-. assert (j < length l)%nat by (apply nth_error_Some; congruence).
      apply E2 in Ej. eapply (entry_ok k n0 n1 b fast factors (Z.of_nat j) w q); eauto; lia.
  Qed.

  Lemma twiddles_ub k n b fast : (1 <= n < 2 ^ 31)%Z -> nearest_twiddles A k n b fast <> UB.
  Proof.
    intro Hn. unfold nearest_twiddles.
    destruct (factor0_ok n Hn) as (B0 & B1 & C).
    set (n0 := factor0 n) in *. set (n1 := Z.quot (n + n0 - 1) n0) in *.
    destruct (n0 =? 0)%Z eqn:E0; [lia|].
    assert (U1 : int_loop (n0 + n1) (factor A n0 n1 b fast) <> UB).
    { apply int_loop_ub; [lia|]. intros j Hj. unfold factor.
      destruct (j <? n0)%Z; [|discriminate]. destruct (2 ^ 31 <=? 2 * j)%Z eqn:E2; [lia|discriminate]. }
    destruct (int_loop (n0 + n1) _) as [factors| |] eqn:E1; try discriminate; [|congruence].
    cbn [bind]. apply int_loop_ok in E1; [|lia]. destruct E1 as [L1 E1].
    assert (U2 : int_loop n (entry A k n0 n1 b fast factors) <> UB).
    { apply int_loop_ub; [lia|]. intros j Hj. unfold entry.
      rewrite Z.quot_div_nonneg by lia.
      set (j0 := (j / n1)%Z). set (j1 := (j - j0 * n1)%Z).
      pose proof (Z.div_mod j n1 ltac:(lia)) as D. fold j0 in D.
      pose proof (Z.mod_pos_bound j n1 ltac:(lia)) as M.
      assert (0 <= j0)%Z by (apply Z.div_pos; lia).
      assert (j0 < n0)%Z by (apply Z.div_lt_upper_bound; lia).
      assert (0 <= j1 < n1)%Z by (subst j1; lia).
      destruct (nth_error factors (Z.to_nat j0)) as [x|] eqn:Ex;
        [|apply nth_error_None in Ex; lia].
      destruct (nth_error factors (Z.to_nat (n0 + j1))) as [y|] eqn:Ey;
        [|apply nth_error_None in Ey; lia].
      pose proof (round_nearest_c_ub A k (c_mul A x y fast) fast) as U.
      destruct (round_nearest_c A k (c_mul A x y fast) fast) as [[r|]| |]; try discriminate; try congruence.
      cbn [bind].
      pose proof (nearest_twiddle_ub A k j b ltac:(lia)) as U'.
      destruct (nearest_twiddle A k j b); try discriminate; congruence. }
    destruct (int_loop n _); try discriminate; congruence.
  Qed.

  (** ** area *)

  (** The two runs of map_reduce over balls and over the reals go in step. *)
  Section Step.
    Variable Y : Type.
    Variable rel : Y -> R -> Prop.
    Variables (redY : Y -> Y -> Y) (mapY : Z -> Y) (mapR : Z -> R).
    Hypothesis Hred : forall x y a b, rel x a -> rel y b -> rel (redY x y) (a + b).
    Hypothesis Hmap : forall i, rel (mapY i) (mapR i).

    Definition orel (a : option Y) (b : option R) : Prop :=
      match a, b with None, None => True | Some a, Some b => rel a b | _, _ => False end.

    Definition srel (a : mr_state Y) (b : mr_state R) : Prop :=
      pcs a = pcs b /\ Forall2 orel (partials a) (partials b).

    Lemma F2_set {P Q} (r : P -> Q -> Prop) : forall l l' i a b,
      Forall2 r l l' -> r a b -> Forall2 r (set_nth l i a) (set_nth l' i b).
    Proof.
      induction l as [|x l IH]; intros l' i a b H Hab; inversion H; subst; destruct i; cbn; auto.
    Qed.
    Lemma F2_firstn {P Q} (r : P -> Q -> Prop) : forall k l l', Forall2 r l l' ->
      Forall2 r (firstn k l) (firstn k l').
    Proof. induction k; intros l l' H; inversion H; subst; cbn; auto. Qed.
    Lemma F2_nth {P Q} (r : P -> Q -> Prop) : forall l l' i, Forall2 r l l' ->
      match nth_error l i, nth_error l' i with
      | Some a, Some b => r a b | None, None => True | _, _ => False end.
    Proof. induction l; intros l' i H; inversion H; subst; destruct i; cbn; auto. apply IHl; auto. Qed.

    Lemma step_rel n threads t a b : srel a b ->
      srel (thread_step Y redY mapY n threads t a) (thread_step R Rplus mapR n threads t b).
    Proof.
      intros (E & F). unfold thread_step. rewrite <- E.
      destruct (nth t (pcs a) Done) as [|s e|i s e| |] eqn:Et.
      - destruct (partition_loop n (Z.of_nat threads) (Z.of_nat t)) as [[s e]| |];
          (split; [cbn [pcs]; now rewrite E|exact F]).
      - split; [cbn [pcs]; now rewrite E|]. cbn [pcs partials].
        unfold resize. apply Forall2_app; [now apply F2_firstn|].
        apply F2_len in F. rewrite F. clear.
        induction (threads - length (partials b))%nat; cbn; constructor; [exact Logic.I|assumption].
      - pose proof (F2_nth _ _ _ t F) as N.
        destruct (nth_error (partials a) t) as [oa|], (nth_error (partials b) t) as [ob|]; try contradiction.
        + destruct (i =? s)%Z.
          * split; [cbn [pcs]; now rewrite E|]. cbn [pcs partials].
            apply F2_set; auto. cbn. apply Hmap.
          * destruct oa as [pa|], ob as [pb|]; try contradiction.
            -- split; [cbn [pcs]; now rewrite E|]. cbn [pcs partials].
               apply F2_set; auto. cbn. apply Hred; [exact N|]. apply Hmap.
            -- split; [cbn [pcs]; now rewrite E|]. exact F.
        + split; [cbn [pcs]; now rewrite E|]. exact F.
      - split; auto.
      - split; auto.
    Qed.

    Lemma run_rel n threads sched :
      srel (mr_run Y redY mapY n threads sched) (mr_run R Rplus mapR n threads sched).
    Proof.
      unfold mr_run.
      assert (G : forall sched a b, srel a b ->
        srel (fold_left (fun st t => thread_step Y redY mapY n threads t st) sched a)
             (fold_left (fun st t => thread_step R Rplus mapR n threads t st) sched b)).
      { clear sched. induction sched as [|t sched IH]; intros a b H; [exact H|].
        cbn [fold_left]. apply IH. now apply step_rel. }
      apply G. split; [reflexivity|constructor].
    Qed.

    Lemma combine_rel : forall ps qs y x, Forall2 orel ps qs -> rel y x ->
      rel (mr_combine Y redY y ps) (mr_combine R Rplus x qs).
    Proof.
      unfold mr_combine. induction ps as [|p ps IH]; intros qs y x H Hy; inversion H; subst; [exact Hy|].
      cbn [fold_left]. apply IH; auto. destruct p, y0; cbn in *; try contradiction; auto.
    Qed.

    (** So the ball contains the exact sum, whatever the threads do. *)
    Lemma map_reduce_rel n threads sched y x : (0 <= n)%Z -> (1 <= Z.of_nat threads < 2 ^ 31)%Z ->
      mr_joined Y (mr_run Y redY mapY n threads sched) -> rel y x ->
      rel (mr_combine Y redY y (partials (mr_run Y redY mapY n threads sched)))
          (serial R Rplus mapR x 0 (Z.to_nat n)).
    Proof.
      intros Hn Ht HJ Hy. destruct (run_rel n threads sched) as [E F].
      rewrite <- (map_reduce_correct R Rplus mapR n threads Hn Ht Rplus_assoc
                    sched x).
      - now apply combine_rel.
      - unfold mr_joined in *. now rewrite <- E.
    Qed.
  End Step.

  (** The exact value: the sum of (1-i) f_i^2. *)
  Fixpoint area_sum (i : Z) (f : list (list double)) : R :=
    match f with
    | [] => 0
    | x :: f => IZR (1 - i) * (val x * val x) + area_sum (i + 1) f
    end.

  Definition term (f : list (list double)) (i : Z) : R :=
    val (nth (Z.to_nat i) f []) * val (nth (Z.to_nat i) f []) * IZR (1 - i).

  Lemma sum_app : forall f g i, area_sum i (f ++ g) = area_sum i f + area_sum (i + Z.of_nat (length f)) g.
  Proof.
    induction f as [|x f IH]; intros g i; cbn [app area_sum length].
    - replace (i + Z.of_nat 0)%Z with i by lia. lra.
    - rewrite IH. replace (i + 1 + Z.of_nat (length f))%Z with (i + Z.of_nat (S (length f)))%Z by lia. lra.
  Qed.

  Lemma serial_area : forall f, serial R Rplus (term f) 0 0 (length f) = area_sum 0 f.
  Proof.
    intro f. induction f as [|x f IH] using rev_ind; [reflexivity|].
    rewrite app_length, Nat.add_comm. cbn [length Nat.add]. unfold serial. rewrite seq_S, fold_left_app.
    cbn [fold_left]. rewrite sum_app. cbn [area_sum].
    assert (E : fold_left (fun (y : R) (i : nat) => y + term (f ++ [x]) (0 + Z.of_nat i)) (seq 0 (length f)) 0
              = area_sum 0 f).
    { rewrite <- IH. unfold serial.
      assert (G : forall l y, (forall i, In i l -> (i < length f)%nat) ->
        fold_left (fun (y : R) (i : nat) => y + term (f ++ [x]) (0 + Z.of_nat i)) l y =
        fold_left (fun (y : R) (i : nat) => y + term f (0 + Z.of_nat i)) l y).
      { induction l as [|i l IHl]; intros y Hl; [reflexivity|]. cbn [fold_left].
        rewrite IHl by (intros; apply Hl; now right). f_equal. f_equal. unfold term.
        rewrite app_nth1; [reflexivity|]. specialize (Hl i (or_introl eq_refl)). lia. }
      apply G. intros i Hi. apply in_seq in Hi. lia. }
    rewrite E. unfold term. rewrite app_nth2 by lia.
    replace (Z.to_nat (0 + Z.of_nat (0 + length f)) - length f)%nat with 0%nat by lia. cbn [nth].
    replace (1 - (0 + Z.of_nat (0 + length f)))%Z with (1 - (0 + Z.of_nat (length f)))%Z by lia. ring.
  Qed.

  Lemma area_ball_ok threads sched f p : (2 <= p)%Z -> Forall (Forall fin) f ->
    (1 <= Z.of_nat (threads p) < 2 ^ 31)%Z ->
    mr_joined _ (mr_run _ (fun y x => b_add A y x p) (area_term A f p) (Z.of_nat (length f)) (threads p) (sched p)) ->
    mem (area_ball A threads sched f p) (PI * area_sum 0 f).
  Proof.
    intros Hp F Ht HJ. unfold area_ball. rewrite Rmult_comm.
    apply (e_mul A mem HA); [assumption| |now apply (e_pi A mem HA)].
    rewrite <- serial_area.
    replace (length f) with (Z.to_nat (Z.of_nat (length f))) at 2 by lia.
    apply map_reduce_rel with (rel := mem); auto; [| |lia|].
    - intros. now apply (e_add A mem HA).
    - intro i. unfold area_term, term. apply (e_mul_si A mem HA); auto. apply (e_sqr A mem HA); auto.
      apply (e_exact A mem HA).
      destruct (nth_in_or_default (Z.to_nat i) f []) as [H| ->]; [|constructor].
      rewrite Forall_forall in F. auto.
    - apply (e_zero A mem HA).
  Qed.

  (** Every run of the parallel region at one of the precisions ends. *)
  Definition joins (threads : Z -> nat) (sched : Z -> list nat) (f : list (list double)) : Prop :=
    forall p, In p precisions -> (1 <= Z.of_nat (threads p) < 2 ^ 31)%Z /\
      mr_joined _ (mr_run _ (fun y x => b_add A y x p) (area_term A f p) (Z.of_nat (length f))
                     (threads p) (sched p)).

  Lemma area_ok k threads sched f v : Forall (Forall fin) f -> joins threads sched f ->
    area A k threads sched f = Ok v -> Forall fin v -> rounded k (PI * area_sum 0 f) v.
  Proof.
    intros F J E Fv. unfold area in E. eapply (nearest_ok A mem HA); [|exact E|exact Fv].
    intros p Hp. destruct (J p Hp). apply area_ball_ok; auto. now apply precision_2.
  Qed.

  Lemma sum_nonpos : forall f i, (1 <= i)%Z -> area_sum i f <= 0.
  Proof.
    induction f as [|x f IH]; intros i Hi; cbn [area_sum]; [lra|].
    specialize (IH (i + 1)%Z ltac:(lia)).
    assert (IZR (1 - i) <= 0) by (apply IZR_le; lia).
    pose proof (Rle_0_sqr (val x)) as Q. unfold Rsqr in Q. nra.
  Qed.

  Lemma sum_decreases f g : f <> [] -> area_sum 0 (f ++ g) <= area_sum 0 f.
  Proof.
    intro H. rewrite sum_app.
    assert (1 <= 0 + Z.of_nat (length f))%Z by (destruct f; [congruence|cbn [length]; lia]).
    pose proof (sum_nonpos g _ H0). lra.
  Qed.
End T.
