(** Proofs about sign, negation, absolute value, scaling, conversion and printing of expansions. *)
From Coq Require Import ZArith List Bool Reals Lia Lra Arith Ascii.
From Flocq Require Import Core Operations Mult_error BinarySingleNaN.
From Verif Require Import Base ExpansionModel ExpansionFloat ExpansionProofs.
Import ListNotations.
Open Scope R_scope.

(** Goldberg's unit in the last place, ldexp(1, exponent(a) - 53). *)
Definition gulp (a : double) : R := bpow radix2 (mag radix2 (B2R a) - 53).

(** Ulp-nonoverlapping in decreasing order of magnitude (expansion.h:34, codelets.cc:189): every
    component after a nonzero one is at most its ulp. *)
Fixpoint valid (x : list double) : Prop :=
  match x with
  | [] => True
  | a :: x => (B2R a <> 0 -> Forall (fun b => Rabs (B2R b) <= gulp a) x) /\ valid x
  end.

Lemma gulp_small a : B2R a <> 0 -> gulp a <= 2 * u * Rabs (B2R a).
Proof.
  intro N. unfold gulp, u. change 2 with (bpow radix2 1). rewrite <- bpow_plus.
  pose proof (bpow_mag_le radix2 (B2R a) N) as M.
  replace (mag radix2 (B2R a) - 53)%Z with ((1 + -53) + (mag radix2 (B2R a) - 1))%Z by lia.
  rewrite bpow_plus. apply Rmult_le_compat_l; [apply bpow_ge_0|exact M].
Qed.

Lemma dnz_R a : fin a -> dnz a = true <-> B2R a <> 0.
Proof.
  destruct a as [s|s| |s m e H]; cbn [dnz fin]; unfold fin; cbn; try discriminate.
  - intros _. split; [discriminate|intro K; exfalso; apply K; reflexivity].
  - intros _. split; [intros _|reflexivity]. apply F2R_neq_0. destruct s; discriminate.
Qed.
Lemma dpos_R a : fin a -> dnz a = true -> if dpos a then 0 < B2R a else B2R a < 0.
Proof.
  destruct a as [s|s| |s m e H]; unfold fin; cbn [dnz dpos is_finite]; try discriminate.
  intros _ _. destruct s; cbn [B2R].
  - apply F2R_lt_0. reflexivity.
  - apply F2R_gt_0. reflexivity.
Qed.

Lemma tail_small x : forall B, 0 <= B -> valid x -> Forall (fun b => Rabs (B2R b) <= B) x ->
  mags x <= 2 * B.
Proof.
  induction x as [|a x IH]; intros B HB V H; [cbn; lra|].
  destruct V as [Va Vx]. inversion H as [|? ? Ha Hx]; subst. rewrite mags_cons.
  destruct (Req_EM_T (B2R a) 0) as [Z|N].
  - rewrite Z, Rabs_R0. specialize (IH B HB Vx Hx). lra.
  - specialize (Va N). pose proof (gulp_small a N) as G.
    assert (G0 : 0 <= gulp a) by apply bpow_ge_0.
    specialize (IH (gulp a) G0 Vx Va).
    assert (U : u <= / 4). { unfold u. change (/ 4) with (bpow radix2 (-2)). apply bpow_le. lia. }
    pose proof u_pos. pose proof (Rabs_pos (B2R a)). nra.
Qed.

Lemma head_wins a x : B2R a <> 0 -> valid (a :: x) -> Rabs (val x) < Rabs (B2R a).
Proof.
  intros N [Va Vx]. specialize (Va N).
  assert (G0 : 0 <= gulp a) by apply bpow_ge_0.
  pose proof (tail_small x (gulp a) G0 Vx Va) as T. pose proof (val_mags x) as M.
  pose proof (gulp_small a N) as G.
  assert (U : u <= / 8). { unfold u. change (/ 8) with (bpow radix2 (-3)). apply bpow_le. lia. }
  pose proof u_pos. pose proof (Rabs_pos_lt (B2R a) N). nra.
Qed.

Lemma sign_ok x : Forall fin x -> valid x ->
  sign x = match Rcompare (val x) 0 with Lt => -1 | Eq => 0 | Gt => 1 end%Z.
Proof.
  induction x as [|a x IH]; intros F V.
  - cbn. rewrite Rcompare_Eq by reflexivity. reflexivity.
  - inversion F as [|? ? Fa Fx]; subst. cbn [sign].
    destruct (dnz a) eqn:D.
    + pose proof (proj1 (dnz_R a Fa) D) as N. pose proof (head_wins a x N V) as W.
      pose proof (dpos_R a Fa D) as P. rewrite val_cons.
      destruct (dpos a).
      * rewrite Rcompare_Gt; [reflexivity|]. rewrite (Rabs_pos_eq (B2R a)) in W by lra.
        apply Rabs_lt_inv in W. lra.
      * rewrite Rcompare_Lt; [reflexivity|]. rewrite (Rabs_left (B2R a)) in W by lra.
        apply Rabs_lt_inv in W. lra.
    + assert (Z : B2R a = 0).
      { destruct (Req_EM_T (B2R a) 0) as [Z|N]; [exact Z|].
        apply (dnz_R a Fa) in N. rewrite N in D. discriminate. }
      rewrite val_cons, Z, Rplus_0_l. apply IH; [exact Fx|apply V].
Qed.

Lemma bool_ok x : Forall fin x -> valid x -> exp_bool x = false <-> val x = 0.
Proof.
  induction x as [|a x IH]; intros F V; [split; reflexivity|].
  inversion F as [|? ? Fa Fx]; subst. unfold exp_bool. cbn [existsb]. fold (exp_bool x).
  destruct (dnz a) eqn:D; cbn [orb].
  - pose proof (proj1 (dnz_R a Fa) D) as N. pose proof (head_wins a x N V) as W.
    split; [discriminate|]. rewrite val_cons. intro Q. exfalso.
    replace (val x) with (- B2R a) in W by lra. rewrite Rabs_Ropp in W. lra.
  - assert (Z : B2R a = 0).
    { destruct (Req_EM_T (B2R a) 0) as [Z|N]; [exact Z|].
      apply (dnz_R a Fa) in N. rewrite N in D. discriminate. }
    rewrite val_cons, Z, Rplus_0_l. apply IH; [exact Fx|apply V].
Qed.

(** ** Exact scaling *)
Lemma mul_exact s a z : fin s -> fin a -> B2R s * B2R a = z -> fmt z -> Rabs z < bpow radix2 emax ->
  fin (dmul s a) /\ B2R (dmul s a) = z.
Proof.
  intros Fs Fa E G L. pose proof (Bmult_correct prec emax _ _ mode_NE s a) as C.
  rewrite fexp_FLT in C. cbn [round_mode] in C. rewrite E, (rn_id _ G) in C.
  rewrite Rlt_bool_true in C by exact L. destruct C as (C1 & C2 & _).
  split; [|exact C1]. unfold fin, dmul. rewrite C2. unfold fin in *. rewrite Fs, Fa. reflexivity.
Qed.

Lemma map_val f c x : (forall a, In a x -> B2R (f a : double) = c * B2R a) ->
  val (map f x) = c * val x.
Proof.
  induction x as [|a x IH]; intro H; [cbn; ring|]. cbn [map]. rewrite !val_cons, IH, H; [ring| |].
  - left; reflexivity.
  - intros b Hb. apply H. right; exact Hb.
Qed.

Lemma small_int_fmt z : (Z.abs z <= 2 ^ 53)%Z -> fmt (IZR z).
Proof.
  intro H. destruct (Z.eq_dec (Z.abs z) (2 ^ 53)) as [E|N].
  - assert (P : fmt (bpow radix2 53)) by (apply generic_format_bpow; vm_compute; discriminate).
    destruct (Z.abs_spec z) as [[_ Q]|[_ Q]]; rewrite Q in E.
    + rewrite E. exact P.
    + replace z with (- 2 ^ 53)%Z by lia. rewrite opp_IZR. apply generic_format_opp. exact P.
  - apply generic_format_FLT. exists (Float radix2 z 0).
    + unfold F2R. cbn. ring.
    + change (radix2 ^ prec)%Z with (2 ^ 53)%Z. cbn [Fnum]. lia.
    + cbn. discriminate.
Qed.

Lemma dofZ_R z : fin (dofZ z) -> B2R (dofZ z) = rn (IZR z).
Proof.
  intro F. pose proof (lit_rn z 0 F) as H. change (dlit z 0) with (dofZ z) in H. rewrite H.
  f_equal. unfold F2R. cbn. ring.
Qed.
Lemma dofZ_fin z : Rabs (rn (IZR z)) < bpow radix2 emax -> fin (dofZ z).
Proof.
  intro L. pose proof (binary_normalize_correct prec emax _ _ mode_NE z 0 false) as C.
  cbv zeta in C. rewrite fexp_FLT in C. cbn [round_mode] in C.
  replace (F2R (Float radix2 z 0)) with (IZR z) in C by (unfold F2R; cbn; ring).
  rewrite Rlt_bool_true in C by exact L. apply C.
Qed.
Lemma dofZ_small z : (Z.abs z <= 2 ^ 53)%Z -> fin (dofZ z) /\ B2R (dofZ z) = IZR z.
Proof.
  intro H. pose proof (small_int_fmt z H) as G.
  assert (F : fin (dofZ z)).
  { apply dofZ_fin. rewrite (rn_id _ G), <- abs_IZR.
    apply Rle_lt_trans with (IZR (2 ^ 53)); [apply IZR_le, H|].
    change (IZR (2 ^ 53)) with (bpow radix2 53). apply bpow_lt. reflexivity. }
  split; [exact F|]. rewrite (dofZ_R z F). apply rn_id, G.
Qed.

Lemma sign_range x : (sign x = -1 \/ sign x = 0 \/ sign x = 1)%Z.
Proof. induction x as [|a x IH]; cbn; [auto|]. destruct (dnz a); [destruct (dpos a)|]; auto. Qed.

Lemma abs_ok x : Forall fin x -> valid x ->
  Forall fin (exp_abs x) /\ val (exp_abs x) = Rabs (val x).
Proof.
  intros F V. pose proof (sign_ok x F V) as S. pose proof (sign_range x) as R.
  assert (A : (Z.abs (sign x) <= 2 ^ 53)%Z) by (destruct R as [->|[->| ->]]; discriminate).
  destruct (dofZ_small (sign x) A) as [Fs Es].
  assert (K : forall a, In a x -> fin (dmul (dofZ (sign x)) a) /\
    B2R (dmul (dofZ (sign x)) a) = IZR (sign x) * B2R a).
  { intros a Ha. rewrite Forall_forall in F. apply mul_exact; [exact Fs|apply F, Ha| | |].
    - rewrite Es. reflexivity.
    - destruct R as [-> |[-> | ->]].
      + replace (-1 * B2R a) with (- B2R a) by ring. apply generic_format_opp, fmt_B2R.
      + rewrite Rmult_0_l. apply generic_format_0.
      + rewrite Rmult_1_l. apply fmt_B2R.
    - destruct R as [-> |[-> | ->]].
      + replace (-1 * B2R a) with (- B2R a) by ring. rewrite Rabs_Ropp. apply B2R_small.
      + rewrite Rmult_0_l. apply zero_small.
      + rewrite Rmult_1_l. apply B2R_small. }
  split.
  - apply Forall_forall. intros b Hb. unfold exp_abs in Hb. apply in_map_iff in Hb.
    destruct Hb as (a & <- & Ha). apply K, Ha.
  - unfold exp_abs. rewrite (map_val _ (IZR (sign x))) by (intros a Ha; apply K, Ha).
    rewrite S. destruct (Rcompare_spec (val x) 0) as [L|E|G].
    + rewrite Rabs_left by exact L. ring.
    + rewrite E, Rabs_R0. ring.
    + rewrite Rabs_pos_eq by lra. ring.
Qed.

(** [a * 2^e] is zero or not subnormal. *)
Definition scales (e : Z) (a : double) : Prop :=
  B2R a = 0 \/ bpow radix2 (-1022) <= Rabs (B2R a) * bpow radix2 e.

Lemma scale_fmt e a : scales e a -> fmt (B2R a * bpow radix2 e).
Proof.
  intros [Z|H].
  - rewrite Z, Rmult_0_l. apply generic_format_0.
  - apply mult_bpow_exact_FLT; [apply fmt_B2R|].
    assert (N : B2R a <> 0).
    { intro Z. rewrite Z, Rabs_R0, Rmult_0_l in H. pose proof (bpow_gt_0 radix2 (-1022)). lra. }
    assert (M : (-1022 < mag radix2 (B2R a * bpow radix2 e))%Z).
    { apply mag_gt_bpow. rewrite Rabs_mult, (Rabs_pos_eq (bpow radix2 e)) by apply bpow_ge_0. exact H. }
    rewrite (mag_mult_bpow _ _ _ N) in M. change (emin + prec)%Z with (-1021)%Z. lia.
Qed.

Lemma half_ok x : Forall fin x -> Forall (scales (-1)) x ->
  Forall fin (exp_half x) /\ val (exp_half x) = / 2 * val x.
Proof.
  intros F V.
  assert (Fh : fin (dlit 1 (-1))) by reflexivity.
  assert (Eh : B2R (dlit 1 (-1)) = / 2).
  { rewrite (lit_rn 1 (-1) Fh). replace (F2R (Float radix2 1 (-1))) with (bpow radix2 (-1))
      by (unfold F2R; cbn; ring).
    rewrite rn_id; [reflexivity|]. apply generic_format_bpow. vm_compute. discriminate. }
  assert (K : forall a, In a x -> fin (dmul (dlit 1 (-1)) a) /\ B2R (dmul (dlit 1 (-1)) a) = / 2 * B2R a).
  { intros a Ha. rewrite Forall_forall in F, V. apply mul_exact; [exact Fh|apply F, Ha| | |].
    - rewrite Eh. reflexivity.
    - replace (/ 2 * B2R a) with (B2R a * bpow radix2 (-1)) by (cbn; ring). apply scale_fmt, V, Ha.
    - rewrite Rabs_mult, (Rabs_pos_eq (/ 2)) by lra. pose proof (B2R_small a). pose proof (Rabs_pos (B2R a)). lra. }
  split.
  - apply Forall_forall. intros b Hb. unfold exp_half in Hb. apply in_map_iff in Hb.
    destruct Hb as (a & <- & Ha). apply K, Ha.
  - apply map_val. intros a Ha. apply K, Ha.
Qed.

Lemma twice_ok x : Forall fin (exp_twice x) -> val (exp_twice x) = 2 * val x.
Proof.
  intro F. apply map_val. intros a Ha.
  assert (Fa : fin (dadd a a)).
  { rewrite Forall_forall in F. apply F. unfold exp_twice. apply in_map_iff. exists a. auto. }
  rewrite (add_rn _ _ Fa). replace (B2R a + B2R a) with (B2R a * bpow radix2 1) by (cbn; ring).
  rewrite rn_id; [cbn; ring|]. apply mult_bpow_pos_exact_FLT; [apply fmt_B2R|lia].
Qed.

Lemma ldexp_ok x e : Forall fin (exp_ldexp x e) -> Forall (scales e) x ->
  val (exp_ldexp x e) = bpow radix2 e * val x.
Proof.
  intros F V. apply map_val. intros a Ha. rewrite Forall_forall in F, V.
  assert (Fa : fin (Bldexp mode_NE a e)).
  { apply F. unfold exp_ldexp. apply in_map_iff. exists a. auto. }
  pose proof (Bldexp_correct prec emax _ _ mode_NE a e) as C. rewrite fexp_FLT in C.
  cbn [round_mode] in C. rewrite (rn_id _ (scale_fmt e a (V a Ha))) in C.
  destruct Rlt_bool; [destruct C as [C _]; rewrite C; ring|].
  apply overflow_inf in C. unfold fin in Fa. rewrite Fa in C. discriminate.
Qed.

(** ** Equality and conversion to double *)
Lemma eq_ok x : forall y, Forall fin x -> Forall fin y -> length x = length y ->
  exp_eq x y = true <-> map B2R x = map B2R y.
Proof.
  induction x as [|a x IH]; intros [|b y] Fx Fy L; try discriminate; [split; reflexivity|].
  inversion Fx as [|? ? Fa Fx']; subst. inversion Fy as [|? ? Fb Fy']; subst.
  injection L as L. cbn [exp_eq map]. unfold deq. rewrite (Beqb_correct _ _ _ _ Fa Fb), andb_true_iff, IH by assumption.
  destruct (Req_bool_spec (B2R a) (B2R b)) as [E|N]; split.
  - intros [_ H]. rewrite E, H. reflexivity.
  - intro H. injection H as _ H. split; [reflexivity|exact H].
  - intros [H _]. discriminate.
  - intro H. injection H as H _. contradiction.
Qed.

Lemma double2_ok a b : fin (to_double [a; b]) -> B2R (to_double [a; b]) = rn (val [a; b]).
Proof.
  unfold to_double. cbn [rev app fold_left]. intro F. rewrite (add_rn _ _ F). f_equal. cbn. ring.
Qed.

Lemma eq_int_ok x a : Forall fin x -> valid x -> (Z.abs a <= 2 ^ 53)%Z ->
  exp_eq_int x a = true -> val x = IZR a.
Proof.
  intros F V Ha. destruct x as [|x0 x]; [discriminate|]. cbn [exp_eq_int].
  inversion F as [|? ? F0 Fx]; subst. destruct (dofZ_small a Ha) as [Fz Ez].
  rewrite andb_true_iff. unfold deq. rewrite (Beqb_correct _ _ _ _ F0 Fz), Ez.
  intros [H1 H2]. destruct (Req_bool_spec (B2R x0) (IZR a)) as [E|]; [|discriminate].
  fold (exp_bool x) in H2. apply negb_true_iff in H2. apply bool_ok in H2; [|exact Fx|apply V].
  rewrite val_cons, E, H2. ring.
Qed.

(** ** Conversion from int64 *)
Lemma rn_int z : exists r, rn (IZR z) = IZR r.
Proof.
  destruct (Z_le_gt_dec (Z.abs z) (2 ^ 53)) as [S|L].
  - exists z. apply rn_id, small_int_fmt, S.
  - unfold round. set (c := cexp radix2 (FLT_exp emin prec) (IZR z)).
    assert (C : (0 <= c)%Z).
    { unfold c, cexp, FLT_exp. assert (53 < mag radix2 (IZR z))%Z; [|unfold prec; lia].
      apply mag_gt_bpow. rewrite <- abs_IZR. change (bpow radix2 53) with (IZR (2 ^ 53)). apply IZR_le. lia. }
    exists (ZnearestE (scaled_mantissa radix2 (FLT_exp emin prec) (IZR z)) * 2 ^ c)%Z.
    unfold F2R. cbn [Fnum Fexp]. rewrite mult_IZR. f_equal.
    change 2%Z with (radix_val radix2). rewrite <- IZR_Zpower by exact C. reflexivity.
Qed.

Lemma trunc_int a r : B2R a = IZR r -> Btrunc (a : double) = r.
Proof.
  intro E. apply eq_IZR. rewrite (Btrunc_correct prec emax _ a), E.
  apply round_generic; [typeclasses eauto|]. apply generic_format_FIX.
  exists (Float radix2 r 0); [unfold F2R; cbn; ring|reflexivity].
Qed.

Lemma to_int64_int a r : fin a -> B2R a = IZR r -> (- 2 ^ 63 <= r < 2 ^ 63)%Z -> to_int64 a = Ok r.
Proof.
  intros F E H. pose proof (trunc_int a r E) as T.
  assert (G : (if ((- 2 ^ 63 <=? Btrunc a) && (Btrunc a <? 2 ^ 63))%Z then Ok (Btrunc a) else UB) = Ok r).
  { rewrite T. replace ((- 2 ^ 63 <=? r) && (r <? 2 ^ 63))%Z with true; [reflexivity|].
    symmetry. apply andb_true_iff. split; [apply Z.leb_le|apply Z.ltb_lt]; lia. }
  unfold fin in F. destruct a; try discriminate F; exact G.
Qed.

Lemma rn_mono x y : x <= y -> rn x <= rn y.
Proof. apply round_le; typeclasses eauto. Qed.

Lemma rn_pt z r : Btrunc (dofZ z) = r -> is_finite (dofZ z) = true -> rn (IZR z) = IZR r.
Proof.
  intros T F. rewrite <- (dofZ_R z F). destruct (rn_int z) as [r' E].
  rewrite (dofZ_R z F), E. f_equal. rewrite <- (trunc_int (dofZ z) r'); [exact T|].
  rewrite (dofZ_R z F). exact E.
Qed.

Lemma int64_ok n a : (- 2 ^ 63 <= a < 2 ^ 63 - 512)%Z ->
  exists x, of_int64 n a = Ok x /\ Forall fin x /\ val x = IZR a /\ length x = Nat.max n 2.
Proof.
  intro H. destruct (rn_int a) as [r Er].
  assert (P1 : rn (IZR (- 2 ^ 63)) = IZR (- 2 ^ 63)) by (apply rn_pt; vm_compute; reflexivity).
  assert (P2 : rn (IZR (2 ^ 63 - 513)) = IZR (2 ^ 63 - 1024)) by (apply rn_pt; vm_compute; reflexivity).
  assert (R1 : (- 2 ^ 63 <= r)%Z).
  { apply le_IZR. rewrite <- Er, <- P1. apply rn_mono, IZR_le. lia. }
  assert (R2 : (r <= 2 ^ 63 - 1024)%Z).
  { apply le_IZR. rewrite <- Er, <- P2. apply rn_mono, IZR_le. lia. }
  assert (F : fin (dofZ a)).
  { apply dofZ_fin. rewrite Er, <- abs_IZR. apply Rle_lt_trans with (IZR (2 ^ 63)); [apply IZR_le; lia|].
    change (IZR (2 ^ 63)) with (bpow radix2 63). apply bpow_lt. reflexivity. }
  pose proof (dofZ_R a F) as E. rewrite Er in E.
  assert (D : (Z.abs (a - r) <= 512)%Z).
  { destruct (Z.eq_dec a (- 2 ^ 63)) as [-> |N].
    - rewrite P1 in Er. apply eq_IZR in Er. lia.
    - apply le_IZR. rewrite abs_IZR, minus_IZR, <- Er, Rabs_minus_sym.
      eapply Rle_trans; [apply error_le_half_ulp; typeclasses eauto|].
      assert (UL : ulp radix2 (FLT_exp emin prec) (IZR a) <= bpow radix2 10).
      { destruct (Z.eq_dec a 0) as [-> |Na].
        - unfold ulp. rewrite Req_bool_true by reflexivity.
          destruct (negligible_exp (FLT_exp emin prec)) as [k|] eqn:Q; [|apply bpow_ge_0].
          pose proof (negligible_exp_spec' (FLT_exp emin prec)) as Sp. rewrite Q in Sp.
          destruct Sp as [[Sp _]|(k' & Sp & Sk)]; [discriminate|]. injection Sp as <-.
          apply bpow_le. unfold FLT_exp, emin, prec in *. lia.
        - rewrite ulp_neq_0 by (apply not_0_IZR; exact Na). apply bpow_le.
          unfold cexp, FLT_exp. assert (mag radix2 (IZR a) <= 63)%Z; [|unfold emin, prec; lia].
          apply mag_le_bpow; [apply not_0_IZR; exact Na|]. rewrite <- abs_IZR.
          change (bpow radix2 63) with (IZR (2 ^ 63)). apply IZR_lt. lia. }
      replace (IZR 512) with (/ 2 * bpow radix2 10) by (cbn; lra). lra. }
  unfold of_int64. rewrite (to_int64_int (dofZ a) r F E) by lia.
  cbn [bind]. unfold sub_int64.
  replace ((- 2 ^ 63 <=? a - r) && (a - r <? 2 ^ 63))%Z with true
    by (symmetry; apply andb_true_iff; split; [apply Z.leb_le|apply Z.ltb_lt]; lia).
  cbn [bind]. eexists. split; [reflexivity|].
  destruct (dofZ_small (a - r)) as [Fd Ed]; [lia|].
  assert (Z0 : forall k, val (repeat dzero k) = 0).
  { induction k as [|k IH]; [reflexivity|]. cbn [repeat]. rewrite val_cons, IH. cbn. ring. }
  split; [|split].
  - constructor; [exact F|]. constructor; [exact Fd|]. apply Forall_forall. intros b Hb.
    apply repeat_spec in Hb. subst b. reflexivity.
  - rewrite !val_cons, Z0, E, Ed, minus_IZR. ring.
  - cbn [length]. rewrite repeat_length. lia.
Qed.

Lemma int64_ub n a : (2 ^ 63 - 512 <= a < 2 ^ 63)%Z -> of_int64 n a = UB.
Proof.
  intro H.
  assert (P1 : rn (IZR (2 ^ 63 - 512)) = IZR (2 ^ 63)) by (apply rn_pt; vm_compute; reflexivity).
  assert (P2 : rn (IZR (2 ^ 63)) = IZR (2 ^ 63)) by (apply rn_pt; vm_compute; reflexivity).
  assert (E : rn (IZR a) = IZR (2 ^ 63)).
  { apply Rle_antisym.
    - rewrite <- P2. apply rn_mono, IZR_le. lia.
    - rewrite <- P1. apply rn_mono, IZR_le. lia. }
  assert (F : fin (dofZ a)).
  { apply dofZ_fin. rewrite E, <- abs_IZR. change (IZR (Z.abs (2 ^ 63))) with (bpow radix2 63).
    apply bpow_lt. reflexivity. }
  assert (T : Btrunc (dofZ a) = (2 ^ 63)%Z).
  { apply trunc_int. rewrite (dofZ_R a F). exact E. }
  unfold of_int64, to_int64. rewrite T. destruct (dofZ a); reflexivity.
Qed.

(** ** Printing and parsing *)
Section Text.
Variable print17 : double -> list ascii.
Variable print_exact : Z -> list double -> list ascii.
Variable strtod : list ascii -> option (double * list ascii).
Variable decimal : nat -> list ascii -> res (list double).

Lemma nice_ok x k : forall p s, nice_loop print_exact strtod decimal x p k = Ok s -> s <> [] ->
  exists y, parse strtod decimal (length x) s = Ok y /\ exp_eq x y = true.
Proof.
  induction k as [|k IH]; intros p s H N; cbn [nice_loop] in H.
  - injection H as <-. contradiction.
  - destruct (parse strtod decimal (length x) (print_exact p x)) as [y| |] eqn:P; try discriminate.
    cbn [bind] in H. destruct (exp_eq x y) eqn:E; [|exact (IH _ _ H N)].
    injection H as <-. exists y. split; assumption.
Qed.

Lemma items_ok x : x <> [] -> (forall a, In a x -> forall c r, c = comma \/ c = rbracket ->
    exists b, strtod (print17 a ++ c :: r) = Some (b, c :: r) /\ deq a b = true) ->
  (forall s, strtod (space :: s) = strtod s) ->
  forall r, exists y, parse_items strtod (length x) (print_items print17 x ++ rbracket :: r) = Ok (y, r) /\
    exp_eq x y = true.
Proof.
  intros N H1 H2. induction x as [|a x IH]; [contradiction|]. intro r.
  destruct x as [|a' x].
  - destruct (H1 a (or_introl eq_refl) rbracket r (or_intror eq_refl)) as (b & Sd & D).
    exists [b]. cbn [length parse_items print_items]. rewrite Sd. cbn [bind slow_assert].
    rewrite Ascii.eqb_refl. cbn [bind slow_assert exp_eq]. rewrite D. split; reflexivity.
  - destruct (IH ltac:(discriminate) (fun b Hb => H1 b (or_intror Hb)) r) as (y & P & E).
    destruct (H1 a (or_introl eq_refl) comma
      (space :: print_items print17 (a' :: x) ++ rbracket :: r) (or_introl eq_refl)) as (b & Sd & D).
    exists (b :: y). split; [|cbn [exp_eq]; rewrite D; exact E].
    change (print_items print17 (a :: a' :: x)) with
      (print17 a ++ comma :: space :: print_items print17 (a' :: x)).
    rewrite <- app_assoc. cbn [app].
    change (length (a :: a' :: x)) with (S (S (length x))). cbn [parse_items].
    rewrite Sd. rewrite Ascii.eqb_refl. cbn [slow_assert bind].
    change (parse_items strtod (S (length x)) (space :: print_items print17 (a' :: x) ++ rbracket :: r))
      with (parse_items strtod (length (a' :: x)) (space :: print_items print17 (a' :: x) ++ rbracket :: r)).
    assert (SP : forall k s, parse_items strtod (S k) (space :: s) = parse_items strtod (S k) s)
      by (intros k s; cbn [parse_items]; rewrite H2; reflexivity).
    match goal with |- bind ?q _ = _ => replace q with (Ok (y, r)); [reflexivity|] end.
    rewrite <- P. symmetry. apply (SP (length x)).
Qed.

Lemma safe_ok x s : x <> [] ->
  (forall a, In a x -> forall c r, c = comma \/ c = rbracket ->
    exists b, strtod (print17 a ++ c :: r) = Some (b, c :: r) /\ deq a b = true) ->
  (forall s, strtod (space :: s) = strtod s) ->
  safe print17 print_exact strtod decimal x = Ok s ->
  exists y, parse strtod decimal (length x) s = Ok y /\ exp_eq x y = true.
Proof.
  intros N H1 H2 H. unfold safe, maybe_nice_safe in H.
  destruct (nice_loop print_exact strtod decimal x (15 * Z.of_nat (length x) - 2) (15 * length x + 3))
    as [t| |] eqn:L; try discriminate.
  cbn [bind] in H. injection H as <-. destruct t as [|c t].
  - destruct (items_ok x N H1 H2 []) as (y & P & E). exists y. split; [|exact E].
    unfold print_list. cbn [parse]. rewrite Ascii.eqb_refl, P. reflexivity.
  - apply (nice_ok x _ _ _ L). discriminate.
Qed.

Lemma nice_total x k : forall p, (forall p, exists y, parse strtod decimal (length x) (print_exact p x) = Ok y) ->
  exists s, nice_loop print_exact strtod decimal x p k = Ok s.
Proof.
  induction k as [|k IH]; intros p H; cbn [nice_loop]; [eauto|].
  destruct (H p) as [y P]. rewrite P. cbn [bind]. destruct (exp_eq x y); [eauto|apply IH, H].
Qed.
Lemma safe_total x : (forall p, exists y, parse strtod decimal (length x) (print_exact p x) = Ok y) ->
  exists s, safe print17 print_exact strtod decimal x = Ok s.
Proof.
  intro H. unfold safe, maybe_nice_safe.
  destruct (nice_total x (15 * length x + 3) (15 * Z.of_nat (length x) - 2) H) as [s ->].
  cbn [bind]. eauto.
Qed.
End Text.
