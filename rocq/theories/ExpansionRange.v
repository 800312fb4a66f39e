(** No overflow in expansion addition for inputs of bounded magnitude. *)
From Coq Require Import ZArith List Bool Reals Lia Lra Arith.
From Flocq Require Import Core BinarySingleNaN.
From Verif Require Import Base ExpansionModel ExpansionFloat ExpansionProofs.
Import ListNotations.
Open Scope R_scope.

Lemma u_half : u <= / 2.
Proof. unfold u. change (/ 2) with (bpow radix2 (-1)). apply bpow_le. lia. Qed.

Lemma add_range a b T : fin a -> fin b -> Rabs (B2R a) + Rabs (B2R b) <= T ->
  2 * T < bpow radix2 emax -> fin (dadd a b) /\ Rabs (B2R (dadd a b)) <= 2 * T.
Proof.
  intros Fa Fb H L. pose proof (add_err (B2R a) (B2R b) (fmt_B2R _) (fmt_B2R _)) as A.
  pose proof (Rabs_triang (B2R a) (B2R b)) as S. pose proof u_half. pose proof u_pos.
  pose proof (Rabs_pos (B2R a + B2R b)).
  assert (Q : Rabs (rn (B2R a + B2R b)) <= 2 * T).
  { replace (rn (B2R a + B2R b)) with ((B2R a + B2R b) + - (B2R a + B2R b - rn (B2R a + B2R b))) by ring.
    eapply Rle_trans; [apply Rabs_triang|]. rewrite Rabs_Ropp. nra. }
  assert (F : fin (dadd a b)) by (apply small_fin_add; [exact Fa|exact Fb|lra]).
  split; [exact F|]. rewrite (add_rn _ _ F). exact Q.
Qed.
Lemma sub_range a b T : fin a -> fin b -> Rabs (B2R a) + Rabs (B2R b) <= T ->
  2 * T < bpow radix2 emax -> fin (dsub a b) /\ Rabs (B2R (dsub a b)) <= 2 * T.
Proof.
  intros Fa Fb H L.
  assert (Fm : fmt (- B2R b)) by (apply generic_format_opp, fmt_B2R).
  pose proof (add_err (B2R a) (- B2R b) (fmt_B2R _) Fm) as A.
  pose proof (Rabs_triang (B2R a) (- B2R b)) as S. rewrite Rabs_Ropp in S.
  pose proof u_half. pose proof u_pos.
  pose proof (Rabs_pos (B2R a + - B2R b)).
  assert (Q : Rabs (rn (B2R a - B2R b)) <= 2 * T).
  { unfold Rminus in *. replace (rn (B2R a + - B2R b)) with
      ((B2R a + - B2R b) + - (B2R a + - B2R b + - rn (B2R a + - B2R b))) by ring.
    eapply Rle_trans; [apply Rabs_triang|]. rewrite Rabs_Ropp. nra. }
  assert (F : fin (dsub a b)) by (apply small_fin_sub; [exact Fa|exact Fb|lra]).
  split; [exact F|]. rewrite (sub_rn _ _ F). exact Q.
Qed.

Lemma two_sum_range a b T : fin a -> fin b -> Rabs (B2R a) + Rabs (B2R b) <= T ->
  128 * T < bpow radix2 emax -> fin (snd (two_sum a b)).
Proof.
  intros Fa Fb H L. pose proof (Rabs_pos (B2R a)). pose proof (Rabs_pos (B2R b)). cbn [two_sum snd].
  destruct (add_range a b T Fa Fb H) as [Fx Bx]; [lra|]. set (x := dadd a b) in *.
  destruct (sub_range x a (3 * T) Fx Fa) as [Fv Bv]; [lra|lra|]. set (v := dsub x a) in *.
  destruct (sub_range x v (8 * T) Fx Fv) as [Fw Bw]; [lra|lra|]. set (w := dsub x v) in *.
  destruct (sub_range a w (17 * T) Fa Fw) as [Fp Bp]; [lra|lra|].
  destruct (sub_range b v (7 * T) Fb Fv) as [Fq Bq]; [lra|lra|].
  apply (add_range _ _ (48 * T) Fp Fq); lra.
Qed.

Lemma chain_range l : forall s, fin s -> Forall fin l ->
  128 * ((1 + u) ^ length l * (Rabs (B2R s) + mags l)) < bpow radix2 emax ->
  fin (fst (chain s l)) /\ Forall fin (snd (chain s l)).
Proof.
  pose proof u_pos as U.
  induction l as [|t l IH]; intros s Fs Fl H; [split; [exact Fs|constructor]|].
  inversion Fl as [|? ? Ft Fl']; subst. cbn [chain].
  pose proof (mags_pos l) as PM. pose proof (Rabs_pos (B2R s)) as Ps. pose proof (Rabs_pos (B2R t)) as Pt.
  rewrite mags_cons in H. cbn [length pow] in H.
  set (p := (1 + u) ^ length l) in *. assert (P : 1 <= p) by (apply pow_R1_Rle; lra).
  assert (R : Rabs (B2R t) + Rabs (B2R s) <= (1 + u) * p * (Rabs (B2R s) + (Rabs (B2R t) + mags l))).
  { assert (1 <= (1 + u) * p) by nra. nra. }
  pose proof (two_sum_range t s _ Ft Fs R H) as Fe.
  destruct (two_sum_fin t s Fe) as (_ & _ & Fx). destruct (two_sum_exact t s Fe) as [X Y].
  destruct (two_sum t s) as [s' e]. cbn [fst snd] in *.
  pose proof (add_err (B2R t) (B2R s) (fmt_B2R _) (fmt_B2R _)) as A. rewrite <- X in A.
  replace (B2R t + B2R s - B2R s') with (B2R e) in A by lra.
  pose proof (Rabs_triang (B2R t) (B2R s)) as T.
  assert (S1 : Rabs (B2R s') <= (1 + u) * (Rabs (B2R t) + Rabs (B2R s))).
  { replace (B2R s') with ((B2R t + B2R s) + - B2R e) by lra.
    eapply Rle_trans; [apply Rabs_triang|]. rewrite Rabs_Ropp. nra. }
  destruct (IH s' Fx Fl') as [G1 G2].
  { eapply Rle_lt_trans; [|exact H].
    apply Rmult_le_compat_l; [lra|]. rewrite (Rmult_comm (1 + u) p), Rmult_assoc.
    apply Rmult_le_compat_l; [lra|]. nra. }
  destruct (chain s' l) as [r es]. cbn [fst snd] in *. split; [exact G1|]. constructor; assumption.
Qed.

(** At most [2^51] inputs. *)
Lemma add_range_ok l : Forall fin l -> INR (length l) * u <= / 4 -> mags l <= bpow radix2 1000 ->
  Forall fin (add_state l).
Proof.
  pose proof u_pos as U.
  assert (PW : forall k, INR k * u <= / 4 -> (1 + u) ^ k <= 2).
  { assert (G : forall k, INR k * u <= / 4 -> (1 + u) ^ k <= 1 + 2 * (INR k * u)).
    { induction k as [|k IH]; intro H; [cbn; lra|]. rewrite S_INR in *.
      assert (H' : INR k * u <= / 4) by lra. specialize (IH H'). cbn [pow].
      pose proof (pos_INR k). assert (0 <= INR k * u) by nra. nra. }
    intros k H. specialize (G k H). lra. }
  remember (length l) as k eqn:E. revert l E.
  induction k as [|k IH]; intros [|t l] E F H M; try discriminate; [constructor|].
  rewrite add_state_chain. inversion F as [|? ? Ft Fl]; subst.
  assert (L : length l = k) by (cbn in E; lia). rewrite S_INR in H.
  assert (Hk : INR k * u <= / 4) by lra. pose proof (PW k Hk) as P2.
  rewrite mags_cons in M. set (m := Rabs (B2R t) + mags l) in *.
  assert (M0 : 0 <= m) by (unfold m; pose proof (mags_pos l); pose proof (Rabs_pos (B2R t)); lra).
  destruct (chain_range l t Ft Fl) as [G1 G2].
  { rewrite L. fold m. apply Rle_lt_trans with (256 * bpow radix2 1000).
    - assert ((1 + u) ^ k * m <= 2 * bpow radix2 1000).
      { apply Rmult_le_compat; try assumption. apply pow_le. lra. }
      lra.
    - change 256 with (bpow radix2 8). rewrite <- bpow_plus. apply bpow_lt. reflexivity. }
  constructor; [exact G1|]. apply IH; [rewrite chain_len; exact (eq_sym L)|exact G2|exact Hk|].
  eapply Rle_trans; [apply chain_mags, G2|]. rewrite L. fold m.
  apply Rle_trans with m; [|exact M].
  assert (Q : INR k * u * (1 + u) ^ k <= 1).
  { pose proof (pos_INR k). assert (0 <= INR k * u) by nra. assert (0 <= (1 + u) ^ k) by (apply pow_le; lra). nra. }
  nra.
Qed.
