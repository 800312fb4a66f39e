(** The distance between two series of doubles. *)
From Coq Require Import ZArith Arith List Bool Lia Reals Lra.
From Flocq Require Import Core Relative BinarySingleNaN.
From Verif Require Import Base ExpansionModel ExpansionFloat ExpansionProofs ExpansionDiv SeriesErrModel SeriesErrSpec.
Import ListNotations.
Open Scope R_scope.

(** ** Doubles *)
(** Not below zero and not a NaN: what the maximum is taken of. *)
Definition up (d : double) : Prop := d = dinf \/ (fin d /\ 0 <= B2R d).
Lemma dabs_up (a : double) : fin a -> up (dabs a) /\ fin (dabs a) /\ B2R (dabs a) = Rabs (B2R a).
Proof.
  intro F. assert (G : fin (dabs a)) by (unfold fin, dabs; rewrite is_finite_Babs; exact F).
  assert (E : B2R (dabs a) = Rabs (B2R a)) by (apply B2R_Babs). split; [|split; [exact G|exact E]].
  right. split; [exact G|]. rewrite E. apply Rabs_pos.
Qed.
Lemma less_fin a b : fin a -> fin b -> dless a b = Rlt_bool (B2R a) (B2R b).
Proof. intros. now apply Bltb_correct. Qed.
Lemma less_inf_r a : fin a -> dless a dinf = true.
Proof. intro F. destruct a as [s|s| |s m e B]; try discriminate F; try destruct s; reflexivity. Qed.
Lemma less_inf_l a : up a -> dless dinf a = false.
Proof. intros [->|[F _]]; [reflexivity|]. destruct a as [s|s| |s m e B]; try discriminate F; reflexivity. Qed.

Lemma dmax_up e d : up e -> up d -> up (dmax e d).
Proof. intros He Hd. unfold dmax. now destruct (dless e d). Qed.
Lemma dmax_fin e d : up e -> up d -> fin (dmax e d) -> fin e /\ fin d /\ B2R e <= B2R (dmax e d) /\ B2R d <= B2R (dmax e d).
Proof.
  intros [->|[Fe Pe]] Hd; unfold dmax.
  - rewrite less_inf_l by exact Hd. discriminate.
  - destruct Hd as [->|[Fd Pd]]; [rewrite less_inf_r by exact Fe; discriminate|].
    rewrite less_fin by assumption. destruct (Rlt_bool_spec (B2R e) (B2R d)); intro F; repeat split; auto; lra.
Qed.
Lemma dmax_bound e d : fin e -> fin d -> fin (dmax e d).
Proof. intros. unfold dmax. now destruct (dless e d). Qed.

(** The maximum of a list. *)
Definition maxl (l : list double) (e : double) : double := fold_left dmax l e.
Lemma maxl_up : forall l e, up e -> Forall up l -> up (maxl l e).
Proof.
  induction l as [|d l IH]; intros e He Hl; [exact He|]. inversion Hl; subst. cbn. apply IH; [|assumption]. now apply dmax_up.
Qed.
Lemma maxl_fin : forall l e, up e -> Forall up l -> fin (maxl l e) ->
  fin e /\ B2R e <= B2R (maxl l e) /\ forall d, In d l -> fin d /\ B2R d <= B2R (maxl l e).
Proof.
  induction l as [|d l IH]; intros e He Hl F; [cbn in *; split; [exact F|split; [lra|contradiction]]|].
  inversion Hl; subst. cbn in *. destruct (IH (dmax e d)) as (F1 & L1 & L2); auto; [now apply dmax_up|].
  destruct (dmax_fin e d) as (Fe & Fd & Le & Ld); auto. change (fold_left dmax l (dmax e d)) with (maxl l (dmax e d)) in *.
  split; [exact Fe|]. split; [lra|]. intros x [<-|Hx]; [split; [exact Fd|lra]|now apply L2].
Qed.
Lemma maxl_in : forall l e, maxl l e = e \/ In (maxl l e) l.
Proof.
  induction l as [|d l IH]; intros e; [now left|]. cbn. change (fold_left dmax l (dmax e d)) with (maxl l (dmax e d)).
  destruct (IH (dmax e d)) as [E|I]; [|auto]. rewrite E. unfold dmax. destruct (dless e d); auto.
Qed.
Lemma maxl_finite : forall l e, fin e -> Forall fin l -> fin (maxl l e).
Proof.
  induction l as [|d l IH]; intros e He Hl; [exact He|]. inversion Hl; subst. cbn. apply IH; [|assumption]. now apply dmax_bound.
Qed.

(** ** One coefficient *)
Lemma dist_abs x y : fin x -> fin y -> let d := dabs (dsub x y) in
  up d /\ (fin d -> B2R d = rn (Rabs (B2R x - B2R y))) /\ (Rabs (rn (B2R x - B2R y)) < bpow radix2 emax -> fin d).
Proof.
  intros Fx Fy d. pose proof (Bminus_correct prec emax _ _ mode_NE x y Fx Fy) as C. rewrite fexp_FLT in C. cbn [round_mode] in C.
  destruct (Rlt_bool_spec (Rabs (rn (B2R x - B2R y))) (bpow radix2 emax)) as [L|L].
  - destruct C as (E & F & _). destruct (dabs_up (dsub x y) F) as (U & G & V). split; [exact U|]. split; [|auto].
    intros _. unfold d. rewrite V. change (dsub x y) with (Bminus mode_NE x y). rewrite E. rewrite <- round_NE_abs; [reflexivity|]. apply FLT_exp_valid. reflexivity.
  - destruct C as (E & _). assert (D : exists s, dsub x y = B754_infinity s).
    { change (dsub x y) with (Bminus mode_NE x y). cbn [overflow_to_inf binary_overflow] in E.
      revert E. unfold dsub. destruct (Bminus mode_NE x y) as [s|s| |s m e B] eqn:X; cbn; intro E; try discriminate; eauto. }
    destruct D as (s & D). unfold d. rewrite D. split; [now left|]. split; [|intro; lra]. discriminate.
Qed.
Lemma u_pos : 0 < u. Proof. rewrite u_val. lra. Qed.
Lemma sub_rel X Y : fmt X -> fmt Y -> Rabs (rn (Rabs (X - Y)) - Rabs (X - Y)) <= u * Rabs (X - Y).
Proof.
  intros HX HY. assert (E : rn (Rabs (X - Y)) = Rabs (rn (X - Y))) by (apply round_NE_abs; apply FLT_exp_valid; reflexivity).
  rewrite E. eapply Rle_trans; [apply Rabs_triang_inv2|]. rewrite Rabs_minus_sym.
  unfold Rminus at 2 3. apply (add_err X (- Y)); [exact HX|apply generic_format_opp; exact HY].
Qed.
(** Two different doubles, the second at least 1, are apart by more than 2^-54 of it. *)
Lemma gap_rel X Y : fmt X -> fmt Y -> 1 <= Rabs Y -> X <> Y -> u / 2 * Rabs Y <= Rabs (X - Y).
Proof.
  intros HX HY H1 N. destruct (Rle_dec (Rabs Y / 2) (Rabs X)) as [L|L].
  - set (cx := cexp radix2 (FLT_exp emin prec) X). set (cy := cexp radix2 (FLT_exp emin prec) Y).
    assert (G : forall Z0, 0 < Rabs Z0 -> u * Rabs Z0 <= bpow radix2 (cexp radix2 (FLT_exp emin prec) Z0)).
    { intros Z0 P. unfold cexp, FLT_exp. destruct (mag radix2 Z0) as [e He]. cbn.
      assert (Z0 <> 0) by (intro E; rewrite E, Rabs_R0 in P; lra). specialize (He ltac:(assumption)).
      apply Rle_trans with (bpow radix2 (e - 53)); [|apply bpow_le; unfold prec; lia].
      unfold u. unfold Zminus. rewrite bpow_plus, Rmult_comm. apply Rmult_le_compat_r; [apply bpow_ge_0|]. lra. }
    assert (PX : 0 < Rabs X) by lra. assert (PY : 0 < Rabs Y) by lra.
    assert (M : bpow radix2 (Z.min cx cy) <= Rabs (X - Y)).
    { rewrite HX, HY. fold cx cy. set (mx := Ztrunc (scaled_mantissa radix2 (FLT_exp emin prec) X)). set (my := Ztrunc (scaled_mantissa radix2 (FLT_exp emin prec) Y)).
      unfold F2R. cbn [Fnum Fexp]. fold cx cy.
      replace (IZR mx * bpow radix2 cx - IZR my * bpow radix2 cy)
        with (IZR (mx * 2 ^ (cx - Z.min cx cy) - my * 2 ^ (cy - Z.min cx cy)) * bpow radix2 (Z.min cx cy)).
      - rewrite Rabs_mult, (Rabs_pos_eq (bpow radix2 _)) by apply bpow_ge_0.
        rewrite <- (Rmult_1_l (bpow radix2 _)) at 1. apply Rmult_le_compat_r; [apply bpow_ge_0|].
        rewrite <- abs_IZR. apply IZR_le.
        assert (NZ : (mx * 2 ^ (cx - Z.min cx cy) - my * 2 ^ (cy - Z.min cx cy) <> 0)%Z); [|lia].
        intro E. apply N. rewrite HX, HY. fold cx cy mx my. unfold F2R. cbn [Fnum Fexp]. fold cx cy.
        apply Rminus_diag_uniq.
        replace (IZR mx * bpow radix2 cx - IZR my * bpow radix2 cy)
          with (IZR (mx * 2 ^ (cx - Z.min cx cy) - my * 2 ^ (cy - Z.min cx cy)) * bpow radix2 (Z.min cx cy)); [rewrite E; ring|].
        rewrite minus_IZR, !mult_IZR. change 2%Z with (radix_val radix2). rewrite !(IZR_Zpower radix2) by lia.
        rewrite Rmult_minus_distr_r, !Rmult_assoc, <- !bpow_plus. f_equal; f_equal; f_equal; f_equal; lia.
      - rewrite minus_IZR, !mult_IZR. change 2%Z with (radix_val radix2). rewrite !(IZR_Zpower radix2) by lia.
        rewrite Rmult_minus_distr_r, !Rmult_assoc, <- !bpow_plus. f_equal; f_equal; f_equal; f_equal; lia. }
    pose proof (G X PX) as GX. pose proof (G Y PY) as GY. fold cx in GX. fold cy in GY. pose proof u_pos.
    destruct (Z.min_spec cx cy) as [[_ E]|[_ E]]; rewrite E in M; nra.
  - pose proof (Rabs_triang_inv Y X) as T. rewrite Rabs_minus_sym in T. pose proof u_pos. rewrite u_val in *. lra.
Qed.

(** What is known of the double computed for one coefficient. *)
Definition tracks (d : double) (D : R) : Prop := up d /\ (fin d -> (1 - 2 * u) * D <= B2R d <= (1 + 3 * u) * D).
Lemma tracks_exact d D : up d -> B2R d = D -> 0 <= D -> tracks d D.
Proof. intros U E P. split; [exact U|]. intros _. rewrite E. pose proof u_pos. split; nra. Qed.
Lemma one_fin : fin (dofZ 1). Proof. reflexivity. Qed.
Lemma scale_m y : fin y -> fin (dmax (dofZ 1) (dabs y)) /\ B2R (dmax (dofZ 1) (dabs y)) = Rmax 1 (Rabs (B2R y)).
Proof.
  intro F. destruct (dabs_up y F) as (_ & G & V). split; [now apply dmax_bound|].
  unfold dmax. rewrite less_fin by (exact one_fin || exact G). rewrite B2R_one, V.
  destruct (Rlt_bool_spec 1 (Rabs (B2R y))) as [L|L]; [rewrite V, Rmax_right by lra; reflexivity|].
  rewrite B2R_one, Rmax_left by lra. reflexivity.
Qed.
Lemma quot_inf m : fin m -> 0 < B2R m -> dquot dinf m = dinf.
Proof.
  intros F P. destruct m as [s|s| |s m e B]; try discriminate F; [cbn in P; lra|].
  destruct s; [|reflexivity]. exfalso. cbn in P. apply Rlt_not_le in P. apply P.
  apply F2R_le_0. cbn. lia.
Qed.
Lemma quot_fin d m : fin d -> 0 <= B2R d -> fin m -> 1 <= B2R m ->
  fin (dquot d m) /\ B2R (dquot d m) = rn (B2R d / B2R m).
Proof.
  intros Fd Pd Fm Pm. assert (Q0 : 0 <= B2R d / B2R m) by (apply Rmult_le_pos; [exact Pd|left; apply Rinv_0_lt_compat; lra]).
  assert (Q1 : B2R d / B2R m <= B2R d).
  { unfold Rdiv. rewrite <- (Rmult_1_r (B2R d)) at 2. apply Rmult_le_compat_l; [exact Pd|]. rewrite <- Rinv_1. apply Rinv_le; lra. }
  pose proof (Bdiv_correct prec emax _ _ mode_NE d m ltac:(lra)) as C. rewrite fexp_FLT in C. cbn [round_mode] in C.
  assert (V : Valid_exp (FLT_exp emin prec)) by (apply FLT_exp_valid; reflexivity).
  assert (L0 : 0 <= rn (B2R d / B2R m)) by (rewrite <- rn_0; apply round_le; [exact V|apply valid_rnd_N|exact Q0]).
  assert (L1 : rn (B2R d / B2R m) <= B2R d) by (rewrite <- (rn_id (B2R d)) at 2 by apply fmt_B2R; apply round_le; [exact V|apply valid_rnd_N|exact Q1]).
  rewrite Rlt_bool_true in C.
  - destruct C as (E & F & _). split; [unfold fin, dquot; rewrite F; exact Fd|exact E].
  - fold (rn (B2R d / B2R m)). rewrite Rabs_pos_eq by exact L0. eapply Rle_lt_trans; [exact L1|].
    pose proof (abs_B2R_lt_emax prec emax d) as A. rewrite Rabs_pos_eq in A by exact Pd. exact A.
Qed.
Lemma both_tracks rel x y : fin x -> fin y ->
  tracks (both_dist rel x y) (Rabs (B2R x - B2R y) / (if rel then Rmax 1 (Rabs (B2R y)) else 1)).
Proof.
  intros Fx Fy. unfold both_dist. destruct (dist_abs x y Fx Fy) as (U & E & _). set (d := dabs (dsub x y)) in *.
  set (D := Rabs (B2R x - B2R y)). assert (PD : 0 <= D) by apply Rabs_pos.
  pose proof (sub_rel (B2R x) (B2R y) (fmt_B2R x) (fmt_B2R y)) as S. fold D in S, E. apply Rabs_le_inv in S.
  pose proof u_pos as Pu. pose proof u_val as Vu.
  destruct rel; [|split; [exact U|]; intro F; specialize (E F); rewrite E; unfold Rdiv; rewrite Rinv_1; split; nra].
  destruct (scale_m y Fy) as (Fm & Em). set (m := dmax (dofZ 1) (dabs y)) in *.
  assert (M1 : 1 <= B2R m) by (rewrite Em; apply Rmax_l).
  destruct U as [->|[Fd Pd]].
  { rewrite quot_inf by (exact Fm || lra). split; [now left|]. discriminate. }
  specialize (E Fd). destruct (quot_fin d m Fd Pd Fm M1) as (Fq & Eq). split.
  { right. split; [exact Fq|]. rewrite Eq. rewrite <- rn_0. apply round_le; [apply FLT_exp_valid; reflexivity|apply valid_rnd_N|].
    apply Rmult_le_pos; [exact Pd|left; apply Rinv_0_lt_compat; lra]. }
  intros _. rewrite Eq, <- Em. set (M := B2R m) in *. clearbody M.
  assert (I0 : 0 < / M) by (apply Rinv_0_lt_compat; lra).
  assert (B : (1 - u) * (D / M) <= B2R d / M <= (1 + u) * (D / M)).
  { unfold Rdiv. rewrite <- !Rmult_assoc. split; apply Rmult_le_compat_r; lra. }
  assert (R1 : Rabs (rn (B2R d / M) - B2R d / M) <= u * Rabs (B2R d / M)).
  { destruct (Rle_dec (Rabs (B2R y)) 1) as [Ly|Ly].
    { rewrite Rmax_left in Em by exact Ly. rewrite Em. unfold Rdiv. rewrite Rinv_1, Rmult_1_r.
      rewrite rn_id by apply fmt_B2R. rewrite Rminus_diag_eq, Rabs_R0 by reflexivity. apply Rmult_le_pos; [lra|apply Rabs_pos]. }
    rewrite Rmax_right in Em by lra. rewrite Rabs_minus_sym. apply mul_err.
    destruct (Req_dec (B2R x) (B2R y)) as [X|X].
    { left. assert (D = 0) by (unfold D; rewrite X, Rminus_diag_eq, Rabs_R0 by reflexivity; reflexivity).
      rewrite E, H. rewrite rn_0. unfold Rdiv. ring. }
    right. pose proof (gap_rel _ _ (fmt_B2R x) (fmt_B2R y) ltac:(lra) X) as G. fold D in G. rewrite <- Em in G.
    assert (G2 : u / 2 <= D / M).
    { unfold Rdiv at 2. apply Rmult_le_reg_r with M; [lra|]. rewrite Rmult_assoc, Rinv_l by lra. lra. }
    rewrite Rabs_pos_eq by (apply Rmult_le_pos; lra).
    apply Rle_trans with (bpow radix2 (-55)); [apply bpow_le; lia|].
    assert (V55 : bpow radix2 (-55) = u / 4) by (unfold u; change (-55)%Z with (-53 + -2)%Z; rewrite bpow_plus; reflexivity).
    rewrite V55. nra. }
  assert (P0 : 0 <= B2R d / M) by (apply Rmult_le_pos; lra).
  rewrite (Rabs_pos_eq (B2R d / M)) in R1 by exact P0. apply Rabs_le_inv in R1.
  assert (P1 : 0 <= D / M) by (apply Rmult_le_pos; lra).
  set (q := B2R d / M) in *. set (g := D / M) in *. clearbody q g. split; nra.
Qed.
Lemma x_tracks (rel : bool) x : fin x -> tracks (dabs x) (Rabs (B2R x - 0) / (if rel then Rmax 1 (Rabs 0) else 1)).
Proof.
  intro F. destruct (dabs_up x F) as (U & _ & V). apply tracks_exact; [exact U| |].
  - rewrite V, Rminus_0_r, Rabs_R0. rewrite Rmax_left by lra. destruct rel; unfold Rdiv; rewrite Rinv_1; ring.
  - rewrite Rminus_0_r, Rabs_R0, Rmax_left by lra. destruct rel; unfold Rdiv; rewrite Rinv_1, Rmult_1_r; apply Rabs_pos.
Qed.
Definition y_dist (rel : bool) (b : double) : double := let d := dabs b in if rel then dmin d (dofZ 1) else d.
Lemma y_tracks (rel : bool) y : fin y -> tracks (y_dist rel y) (Rabs (0 - B2R y) / (if rel then Rmax 1 (Rabs (B2R y)) else 1)).
Proof.
  intro F. destruct (dabs_up y F) as (U & G & V). unfold Rminus. rewrite Rplus_0_l, Rabs_Ropp. unfold y_dist.
  destruct rel; [|apply tracks_exact; [exact U|rewrite V; unfold Rdiv; rewrite Rinv_1; ring|unfold Rdiv; rewrite Rinv_1, Rmult_1_r; apply Rabs_pos]].
  unfold dmin. rewrite less_fin by (exact one_fin || exact G). rewrite B2R_one, V.
  destruct (Rlt_bool_spec 1 (Rabs (B2R y))) as [L|L].
  - rewrite Rmax_right by lra. unfold Rdiv. rewrite Rinv_r by lra. apply tracks_exact; [right; split; [exact one_fin|rewrite B2R_one; lra]|exact B2R_one|lra].
  - rewrite Rmax_left by lra. unfold Rdiv. rewrite Rinv_1, Rmult_1_r. apply tracks_exact; [exact U|exact V|apply Rabs_pos].
Qed.

(** ** The three loops as one maximum *)
Fixpoint dists (rel : bool) (x y : list double) : list double :=
  match x, y with
  | a :: x, b :: y => both_dist rel a b :: dists rel x y
  | x, [] => map dabs x
  | [], y => map (y_dist rel) y
  end.
Lemma x_loop_maxl : forall x e, x_loop x e = maxl (map dabs x) e.
Proof. induction x as [|a x IH]; intro e; [reflexivity|]. cbn. apply IH. Qed.
Lemma y_loop_maxl : forall rel y e, y_loop rel y e = maxl (map (y_dist rel) y) e.
Proof. induction y as [|a y IH]; intro e; [reflexivity|]. cbn. apply IH. Qed.
Lemma loops_maxl : forall rel x y e, let both := Nat.min (length x) (length y) in
  y_loop rel (skipn both y) (x_loop (skipn both x) (both_loop rel x y e)) = maxl (dists rel x y) e.
Proof.
  induction x as [|a x IH]; intros [|b y] e; cbn [length Nat.min skipn both_loop dists].
  - reflexivity.
  - cbn [x_loop fold_left]. apply y_loop_maxl.
  - cbn [y_loop fold_left]. apply x_loop_maxl.
  - apply IH.
Qed.
Lemma error_maxl x y rel : dknown x = dknown y -> error x y rel = maxl (dists rel (dcoef x) (dcoef y)) dzero.
Proof. intro E. unfold error. rewrite (proj2 (Z.eqb_eq _ _) E). cbn [negb]. apply loops_maxl. Qed.

Lemma dists_length : forall rel x y, length (dists rel x y) = Nat.max (length x) (length y).
Proof. induction x as [|a x IH]; intros [|b y]; cbn; rewrite ?map_length; auto. Qed.
Definition gapl (rel : bool) (x y : list double) (i : nat) : R :=
  Rabs (B2R (nth i x dzero) - B2R (nth i y dzero)) / (if rel then Rmax 1 (Rabs (B2R (nth i y dzero))) else 1).
Lemma dists_tracks : forall rel x y, Forall fin x -> Forall fin y -> forall i, (i < Nat.max (length x) (length y))%nat ->
  tracks (nth i (dists rel x y) dzero) (gapl rel x y i).
Proof.
  unfold gapl. induction x as [|a x IH]; intros [|b y] Hx Hy i Hi.
  - cbn in Hi. lia.
  - cbn [length Nat.max] in Hi. cbn [dists]. rewrite (nth_indep _ dzero (y_dist rel dzero)) by (rewrite map_length; exact Hi).
    rewrite map_nth. replace (nth i (@nil double) dzero) with dzero by now destruct i. change (B2R dzero) with 0.
    apply y_tracks. rewrite Forall_forall in Hy. apply Hy. apply nth_In. exact Hi.
  - cbn [length Nat.max] in Hi. cbn [dists]. rewrite (nth_indep _ dzero (dabs dzero)) by (rewrite map_length; exact Hi).
    rewrite map_nth. replace (nth i (@nil double) dzero) with dzero by now destruct i. change (B2R dzero) with 0.
    apply x_tracks. rewrite Forall_forall in Hx. apply Hx. apply nth_In. exact Hi.
  - inversion Hx; inversion Hy; subst. destruct i as [|i]; cbn [dists nth]; [now apply both_tracks|].
    apply IH; auto. cbn in Hi. lia.
Qed.
Lemma gapl_out rel x y i : (Nat.max (length x) (length y) <= i)%nat -> gapl rel x y i = 0.
Proof.
  intro H. unfold gapl. rewrite !nth_overflow by lia. change (B2R dzero) with 0. rewrite Rminus_diag_eq, Rabs_R0 by reflexivity. unfold Rdiv. ring.
Qed.
Lemma gap_gapl rel x y i : gap rel x y i = gapl rel (dcoef x) (dcoef y) i. Proof. reflexivity. Qed.
Lemma gap_pos rel x y i : 0 <= gap rel x y i.
Proof.
  unfold gap. apply Rmult_le_pos; [apply Rabs_pos|]. left. apply Rinv_0_lt_compat. destruct rel; [|lra].
  apply Rlt_le_trans with 1; [lra|apply Rmax_l].
Qed.
Lemma dists_up rel x y : Forall fin x -> Forall fin y -> Forall up (dists rel x y).
Proof.
  intros Hx Hy. apply Forall_forall. intros d Hd. destruct (In_nth _ _ dzero Hd) as (i & Hi & <-).
  rewrite dists_length in Hi. exact (proj1 (dists_tracks rel x y Hx Hy i Hi)).
Qed.
Lemma zero_up : up dzero. Proof. right. split; [reflexivity|cbn; lra]. Qed.

Lemma error_up x y rel : finite x -> finite y -> dknown x = dknown y -> up (error x y rel).
Proof. intros Hx Hy E. rewrite error_maxl by exact E. apply maxl_up; [exact zero_up|now apply dists_up]. Qed.
Lemma error_above x y rel : finite x -> finite y -> dknown x = dknown y -> fin (error x y rel) ->
  forall i, (1 - 2 * u) * gap rel x y i <= B2R (error x y rel).
Proof.
  intros Hx Hy E F i. destruct (error_up x y rel Hx Hy E) as [U|[_ P]]; [rewrite U in F; discriminate|].
  rewrite gap_gapl. destruct (Nat.lt_ge_cases i (Nat.max (length (dcoef x)) (length (dcoef y)))) as [L|L];
    [|rewrite gapl_out by exact L; lra].
  destruct (dists_tracks rel _ _ Hx Hy i L) as (_ & T). rewrite error_maxl in * by exact E.
  destruct (maxl_fin _ _ zero_up (dists_up rel _ _ Hx Hy) F) as (_ & _ & M).
  destruct (M (nth i (dists rel (dcoef x) (dcoef y)) dzero)) as (Fd & Ld); [apply nth_In; rewrite dists_length; exact L|].
  specialize (T Fd). lra.
Qed.
Lemma error_below x y rel : finite x -> finite y -> dknown x = dknown y -> fin (error x y rel) ->
  exists i, B2R (error x y rel) <= (1 + 3 * u) * gap rel x y i.
Proof.
  intros Hx Hy E F. pose proof u_pos. rewrite error_maxl in * by exact E.
  destruct (maxl_in (dists rel (dcoef x) (dcoef y)) dzero) as [Z0|I].
  - exists 0%nat. rewrite Z0. change (B2R dzero) with 0. pose proof (gap_pos rel x y 0). nra.
  - destruct (In_nth _ _ dzero I) as (i & Hi & Ei). rewrite dists_length in Hi. exists i. rewrite gap_gapl.
    destruct (dists_tracks rel _ _ Hx Hy i Hi) as (_ & T). rewrite Ei in T. exact (proj2 (T F)).
Qed.

(** ** No overflow *)
Lemma both_fin rel x y : fin x -> fin y -> Rabs (B2R x - B2R y) <= bpow radix2 1023 -> fin (both_dist rel x y).
Proof.
  intros Fx Fy L. unfold both_dist. destruct (dist_abs x y Fx Fy) as (U & _ & G). set (d := dabs (dsub x y)) in *.
  assert (Fd : fin d).
  { apply G. assert (E : Rabs (rn (B2R x - B2R y)) = rn (Rabs (B2R x - B2R y))) by (symmetry; apply round_NE_abs; apply FLT_exp_valid; reflexivity).
    rewrite E. apply Rle_lt_trans with (bpow radix2 1023); [|apply bpow_lt; reflexivity].
    assert (B : fmt (bpow radix2 1023)) by (apply generic_format_FLT_bpow; [reflexivity|unfold emin; lia]).
    rewrite <- (rn_id _ B). apply round_le; [apply FLT_exp_valid; reflexivity|apply valid_rnd_N|exact L]. }
  destruct rel; [|exact Fd]. destruct (scale_m y Fy) as (Fm & Em). destruct U as [U|[_ Pd]]; [rewrite U in Fd; discriminate|].
  refine (proj1 (quot_fin d _ Fd Pd Fm _)). rewrite Em. apply Rmax_l.
Qed.
Lemma y_fin rel y : fin y -> fin (y_dist rel y).
Proof.
  intro F. destruct (dabs_up y F) as (_ & G & _). unfold y_dist, dmin. destruct rel; [|exact G].
  destruct (dless (dofZ 1) (dabs y)); [exact one_fin|exact G].
Qed.
Lemma dists_fin : forall rel x y, Forall fin x -> Forall fin y ->
  (forall i, Rabs (B2R (nth i x dzero) - B2R (nth i y dzero)) <= bpow radix2 1023) -> Forall fin (dists rel x y).
Proof.
  induction x as [|a x IH]; intros [|b y] Hx Hy H; cbn [dists].
  - constructor.
  - apply Forall_forall. intros d Hd. apply in_map_iff in Hd. destruct Hd as (c & <- & Hc). apply y_fin. rewrite Forall_forall in Hy. now apply Hy.
  - apply Forall_forall. intros d Hd. apply in_map_iff in Hd. destruct Hd as (c & <- & Hc). rewrite Forall_forall in Hx. apply dabs_up. now apply Hx.
  - inversion Hx; inversion Hy; subst. constructor; [apply both_fin; auto; exact (H 0%nat)|]. apply IH; auto. intro i. exact (H (S i)).
Qed.
Lemma error_fin x y rel : finite x -> finite y -> dknown x = dknown y ->
  (forall i, Rabs (coef x i - coef y i) <= bpow radix2 1023) -> fin (error x y rel).
Proof. intros Hx Hy E H. rewrite error_maxl by exact E. apply maxl_finite; [reflexivity|]. apply dists_fin; auto. Qed.

(** ** Zero *)
Lemma maxl_zero : forall l, Forall (fun d => fin d /\ B2R d <= 0) l -> maxl l dzero = dzero.
Proof.
  induction l as [|d l IH]; intro H; [reflexivity|]. inversion H as [|? ? (F & L) H']; subst. cbn.
  replace (dmax dzero d) with dzero; [now apply IH|]. unfold dmax. rewrite less_fin by (reflexivity || exact F).
  change (B2R dzero) with 0. rewrite Rlt_bool_false by exact L. reflexivity.
Qed.
Lemma gap_zero rel x y i : gap rel x y i = 0 <-> coef x i = coef y i.
Proof.
  unfold gap. set (m := if rel then _ else _). assert (M : 0 < m) by (unfold m; destruct rel; [apply Rlt_le_trans with 1; [lra|apply Rmax_l]|lra]).
  split; intro H.
  - apply Rmult_integral in H. destruct H as [H|H]; [|pose proof (Rinv_0_lt_compat _ M); lra].
    destruct (Req_dec (coef x i - coef y i) 0) as [Z0|Z0]; [lra|]. apply Rabs_no_R0 in Z0. contradiction.
  - rewrite H, Rminus_diag_eq, Rabs_R0 by reflexivity. unfold Rdiv. ring.
Qed.
Lemma error_zero x y rel : finite x -> finite y -> dknown x = dknown y ->
  (error x y rel = dzero <-> forall i, coef x i = coef y i).
Proof.
  intros Hx Hy E. pose proof u_val as V. split.
  - intros Z0 i. apply (gap_zero rel). pose proof (error_above x y rel Hx Hy E) as A. rewrite Z0 in A.
    specialize (A eq_refl i). change (B2R dzero) with 0 in A. pose proof (gap_pos rel x y i). nra.
  - intro H. assert (D : Forall fin (dists rel (dcoef x) (dcoef y))).
    { apply dists_fin; auto. intro i. pose proof (H i) as Hi. unfold coef in Hi. rewrite Hi, Rminus_diag_eq, Rabs_R0 by reflexivity. apply bpow_ge_0. }
    rewrite error_maxl by exact E. apply maxl_zero. apply Forall_forall. intros d Hd. rewrite Forall_forall in D. split; [now apply D|].
    specialize (D d Hd). destruct (In_nth _ _ dzero Hd) as (i & Hi & <-). rewrite dists_length in Hi.
    destruct (dists_tracks rel _ _ Hx Hy i Hi) as (_ & T). specialize (T D).
    pose proof (proj2 (gap_zero rel x y i) (H i)) as G. rewrite gap_gapl in G. rewrite G in T. lra.
Qed.

(** ** Symmetry *)
Lemma dist_sym a b : dabs (dsub a b) = dabs (dsub b a).
Proof.
  destruct (is_finite a) eqn:Fa; destruct (is_finite b) eqn:Fb.
  - destruct (dist_abs a b Fa Fb) as (U1 & E1 & G1). destruct (dist_abs b a Fb Fa) as (U2 & E2 & G2).
    rewrite (Rabs_minus_sym (B2R b)) in E2.
    assert (S : Rabs (rn (B2R a - B2R b)) = Rabs (rn (B2R b - B2R a))).
    { replace (B2R a - B2R b) with (- (B2R b - B2R a)) by ring. rewrite rn_opp. apply Rabs_Ropp. }
    assert (I : forall c : double, up (dabs c) -> ~ fin (dabs c) -> dabs c = dinf) by (intros c [U|[U _]] N; [exact U|contradiction]).
    assert (J : forall c d, fin (dabs (dsub c d)) -> fin c -> fin d -> Rabs (rn (B2R c - B2R d)) < bpow radix2 emax).
    { intros c d F Fc Fd. pose proof (Bminus_correct prec emax _ _ mode_NE c d Fc Fd) as C. rewrite fexp_FLT in C. cbn [round_mode] in C.
      fold (rn (B2R c - B2R d)) in C. destruct (Rlt_bool_spec (Rabs (rn (B2R c - B2R d))) (bpow radix2 emax)) as [L|L]; [exact L|].
      destruct C as (C & _). exfalso. change (Bminus mode_NE c d) with (dsub c d) in C.
      destruct (dsub c d); cbn in C, F; try discriminate. }
    destruct (is_finite (dabs (dsub a b))) eqn:F1.
    + assert (F2 : fin (dabs (dsub b a))) by (apply G2; rewrite <- S; now apply J).
      apply B2R_Bsign_inj; [exact F1|exact F2|rewrite E1, E2 by assumption; reflexivity|].
      unfold dabs, fin in *. clear - F1 F2. destruct (dsub a b), (dsub b a); try discriminate; reflexivity.
    + rewrite (I _ U1) by (unfold fin; congruence). rewrite (I _ U2); [reflexivity|]. intro F2.
      rewrite (G1 ltac:(rewrite S; now apply J)) in F1. discriminate.
  - destruct a as [?|?| |? ? ? ?], b as [?|[]| |? ? ? ?]; try discriminate; reflexivity.
  - destruct a as [?|[]| |? ? ? ?], b as [?|?| |? ? ? ?]; try discriminate; reflexivity.
  - destruct a as [?|[]| |? ? ? ?], b as [?|[]| |? ? ? ?]; try discriminate; reflexivity.
Qed.
Lemma dists_sym : forall x y, dists false x y = dists false y x.
Proof. induction x as [|a x IH]; intros [|b y]; cbn; try reflexivity. f_equal; [apply dist_sym|apply IH]. Qed.
Lemma error_sym x y : error x y false = error y x false.
Proof.
  destruct (Z.eq_dec (dknown x) (dknown y)) as [E|E].
  - rewrite !error_maxl by congruence. now rewrite dists_sym.
  - unfold error. rewrite !(proj2 (Z.eqb_neq _ _)) by congruence. reflexivity.
Qed.
Lemma error_known x y rel : dknown x <> dknown y -> error x y rel = dinf.
Proof. intro E. unfold error. rewrite (proj2 (Z.eqb_neq _ _)) by exact E. reflexivity. Qed.

(** ** NaNs do not count *)
Lemma dmax_nan e : dmax e B754_nan = e.
Proof. unfold dmax, dless. destruct e as [?|[]| |[] ? ? ?]; reflexivity. Qed.
Lemma both_nan rel y : both_dist rel B754_nan y = B754_nan.
Proof. destruct rel; [|reflexivity]. unfold both_dist. change (dabs (dsub B754_nan y)) with (B754_nan : double). reflexivity. Qed.
Lemma error_nan x y rel : dknown x = dknown y -> length (dcoef x) = length (dcoef y) ->
  (forall a, In a (dcoef x) -> a = B754_nan) -> error x y rel = dzero.
Proof.
  intros E L H. rewrite error_maxl by exact E. revert L H. generalize (dcoef x) as l, (dcoef y) as m. clear.
  induction l as [|a l IH]; intros [|b m] L H; try discriminate L; [reflexivity|].
  cbn. rewrite (H a) by now left. rewrite both_nan, dmax_nan. apply IH; [now injection L|]. intros c Hc. apply H. now right.
Qed.

(** ** Polynomials *)
Lemma error_poly_eq x mids rel : (Z.of_nat (length mids) <= dknown x)%Z ->
  error_poly x mids rel = Ok (error x (mkView (dknown x) (mids ++ repeat dzero (Z.to_nat (dknown x) - length mids))) rel).
Proof.
  intro H. unfold error_poly, approx. rewrite (proj2 (Z.ltb_ge _ _)) by exact H. rewrite (proj2 (Z.leb_le _ _)) by exact H. reflexivity.
Qed.
Lemma over_dec x y : (exists i, bpow radix2 1023 < Rabs (coef x i - coef y i)) \/
  (forall i, Rabs (coef x i - coef y i) <= bpow radix2 1023).
Proof.
  set (n := Nat.max (length (dcoef x)) (length (dcoef y))).
  destruct (Exists_dec (fun i => bpow radix2 1023 < Rabs (coef x i - coef y i)) (seq 0 n)) as [H|H]; [intro; apply Rlt_dec| |].
  - left. apply Exists_exists in H. destruct H as (i & _ & H). eauto.
  - right. intro i. destruct (Nat.lt_ge_cases i n) as [L|L].
    + apply Rnot_lt_le. intro G. apply H. apply Exists_exists. exists i. split; [apply in_seq; lia|exact G].
    + unfold coef. rewrite !nth_overflow by lia. rewrite Rminus_diag_eq, Rabs_R0 by reflexivity. apply bpow_ge_0.
Qed.
Lemma error_measures x y rel : finite x -> finite y -> dknown x = dknown y ->
  (fin (error x y rel) /\ (forall i, (1 - 2 * u) * gap rel x y i <= B2R (error x y rel)) /\
   exists i, B2R (error x y rel) <= (1 + 3 * u) * gap rel x y i) \/
  (error x y rel = dinf /\ exists i, bpow radix2 1023 < Rabs (coef x i - coef y i)).
Proof.
  intros Hx Hy E. destruct (error_up x y rel Hx Hy E) as [U|[F _]].
  - right. split; [exact U|]. destruct (over_dec x y) as [O|O]; [exact O|].
    pose proof (error_fin x y rel Hx Hy E O) as F. rewrite U in F. discriminate.
  - left. split; [exact F|]. split; [now apply error_above|now apply error_below].
Qed.
Lemma pad_coef k mids n i : coef (mkView k (mids ++ repeat dzero n)) i = coef (mkView k mids) i.
Proof.
  unfold coef. cbn [dcoef]. destruct (Nat.lt_ge_cases i (length mids)) as [L|L]; [now rewrite app_nth1|].
  rewrite app_nth2, (nth_overflow mids) by exact L. f_equal. generalize (i - length mids)%nat. induction n as [|n IH]; intros [|j]; cbn; auto.
Qed.
Lemma pad_finite k mids n : finite (mkView k mids) -> finite (mkView k (mids ++ repeat dzero n)).
Proof.
  intro H. apply Forall_app. split; [exact H|]. apply Forall_forall. intros a Ha. apply repeat_spec in Ha. now subst.
Qed.
Lemma pass_fin tol x y : fin tol -> finite x -> finite y -> tol_passes tol x y = true ->
  dknown x = dknown y /\ fin (error x y false) /\ B2R (error x y false) <= B2R tol.
Proof.
  intros Ft Hx Hy P. unfold tol_passes in P.
  assert (I : Bleb dinf tol = false) by (destruct tol as [?|?| |? ? ? ?]; try discriminate Ft; reflexivity).
  destruct (Z.eq_dec (dknown x) (dknown y)) as [E|E]; [|rewrite error_known in P by exact E; congruence].
  destruct (error_up x y false Hx Hy E) as [U|[F _]]; [rewrite U in P; congruence|].
  split; [exact E|]. split; [exact F|]. rewrite Bleb_correct in P by assumption.
  destruct (Rle_bool_spec (B2R (error x y false)) (B2R tol)); [assumption|discriminate].
Qed.
Lemma gap_abs x y i : gap false x y i = Rabs (coef x i - coef y i).
Proof. unfold gap, Rdiv. rewrite Rinv_1. ring. Qed.
Lemma pass_close tol x y : fin tol -> finite x -> finite y -> tol_passes tol x y = true ->
  dknown x = dknown y /\ forall i, Rabs (coef x i - coef y i) <= (1 + 3 * u) * B2R tol.
Proof.
  intros Ft Hx Hy P. destruct (pass_fin tol x y Ft Hx Hy P) as (E & F & L). split; [exact E|]. intro i.
  pose proof (error_above x y false Hx Hy E F i) as A. rewrite gap_abs in A. pose proof (Rabs_pos (coef x i - coef y i)).
  pose proof u_pos. pose proof u_val. set (g := Rabs _) in *. clearbody g. assert (g * (1 - 2 * u) <= B2R tol) by lra.
  assert (1 <= (1 + 3 * u) * (1 - 2 * u)) by nra. nra.
Qed.
Lemma pass_exact x y : finite x -> finite y ->
  (tol_passes dzero x y = true <-> dknown x = dknown y /\ forall i, coef x i = coef y i).
Proof.
  intros Hx Hy. split.
  - intro P. destruct (pass_close dzero x y eq_refl Hx Hy P) as (E & C). split; [exact E|]. intro i. specialize (C i).
    change (B2R dzero) with 0 in C. rewrite Rmult_0_r in C. pose proof (Rabs_pos (coef x i - coef y i)).
    destruct (Req_dec (coef x i - coef y i) 0) as [Z0|Z0]; [lra|]. apply Rabs_no_R0 in Z0. lra.
  - intros (E & H). unfold tol_passes. rewrite (proj2 (error_zero x y false Hx Hy E) H). reflexivity.
Qed.
