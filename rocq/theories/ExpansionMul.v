(** Proofs about expansion multiplication. *)
From Coq Require Import ZArith List Bool Reals Lia Lra Arith.
From Flocq Require Import Core BinarySingleNaN.
From Verif Require Import Base ExpansionModel ExpansionFloat ExpansionProofs.
Import ListNotations.
Open Scope R_scope.

Definition oR (o : option double) : R := match o with Some a => B2R a | None => 0 end.
Definition ofin (o : option double) : Prop := match o with Some a => fin a | None => True end.
Definition oval (l : list (option double)) : R := fold_right (fun a r => oR a + r) 0 l.

Lemma oval_cons a l : oval (a :: l) = oR a + oval l. Proof. reflexivity. Qed.
Lemma oval_app l m : oval (l ++ m) = oval l + oval m.
Proof. induction l as [|a l IH]; cbn [app]; [change (oval []) with 0; ring|].
  rewrite !oval_cons, IH. ring. Qed.

(** What one two_sum does to a pair, literal zeros included. *)
Lemma two_sum_o_ok a b : ofin (fst (two_sum_o a b)) -> ofin (snd (two_sum_o a b)) ->
  ofin a /\ ofin b /\
  oR (fst (two_sum_o a b)) + oR (snd (two_sum_o a b)) = oR a + oR b /\
  Rabs (oR (fst (two_sum_o a b))) <= (1 + u) * (Rabs (oR a) + Rabs (oR b)) /\
  Rabs (oR (snd (two_sum_o a b))) <= u * (Rabs (oR a) + Rabs (oR b)).
Proof.
  pose proof u_pos as U.
  destruct a as [a|], b as [b|]; cbn [two_sum_o fst snd ofin oR].
  - destruct (two_sum a b) as [x y] eqn:E. cbn [fst snd ofin oR]. intros Hx Hy.
    assert (Hy' : fin (snd (two_sum a b))) by (rewrite E; exact Hy).
    destruct (two_sum_fin _ _ Hy') as (Ha & Hb & _).
    destruct (two_sum_exact _ _ Hy') as [X S]. rewrite E in X, S. cbn [fst snd] in X, S.
    pose proof (add_err (B2R a) (B2R b) (fmt_B2R _) (fmt_B2R _)) as A. rewrite <- X in A.
    pose proof (Rabs_triang (B2R a) (B2R b)) as T.
    replace (B2R a + B2R b - B2R x) with (B2R y) in A by lra.
    assert (A2 : Rabs (B2R x) <= Rabs (B2R a + B2R b) + Rabs (B2R y)).
    { replace (B2R x) with ((B2R a + B2R b) + - B2R y) by lra.
      eapply Rle_trans; [apply Rabs_triang|]. rewrite Rabs_Ropp. lra. }
    repeat split; try assumption; nra.
  - intros Ha _. rewrite Rabs_R0. pose proof (Rabs_pos (B2R a)). repeat split; try assumption; nra.
  - intros Hb _. rewrite Rabs_R0. pose proof (Rabs_pos (B2R b)). repeat split; try assumption; nra.
  - intros _ _. rewrite Rabs_R0. repeat split; nra.
Qed.

(** ** Lengths and the number of sweeps *)
Lemma two_sums_len s : forall e, length s = length e ->
  length (fst (two_sums s e)) = length e /\ length (snd (two_sums s e)) = length e.
Proof.
  induction s as [|a s IH]; intros [|b e] E; try discriminate; [split; reflexivity|].
  cbn [two_sums]. destruct (two_sum_o a b) as [x y]. injection E as E. specialize (IH e E).
  destruct (two_sums s e) as [s' e']. cbn [fst snd length] in *. lia.
Qed.
Lemma mul_row_len yi x : forall s, length s = length x ->
  length (fst (fst (mul_row x yi s))) = length x /\
  length (snd (fst (mul_row x yi s))) = length x /\ length (snd (mul_row x yi s)) = length x.
Proof.
  induction x as [|a x IH]; intros [|b s] E; try discriminate; [repeat split|].
  cbn [mul_row]. destruct (two_prod a yi) as [p ej]. destruct (two_sum_o b (Some p)) as [sj epj].
  injection E as E. specialize (IH s E).
  destruct (mul_row x yi s) as [[s' e'] ep']. cbn [fst snd length] in *. lia.
Qed.
Lemma removelast_len {A} (l : list A) : length (removelast l) = Nat.pred (length l).
Proof.
  induction l as [|a l IH]; [reflexivity|]. destruct l as [|b l]; [reflexivity|].
  change (removelast (a :: b :: l)) with (a :: removelast (b :: l)).
  cbn [length] in *. rewrite IH. reflexivity.
Qed.

Lemma any_repeat k : any (repeat None k) = false.
Proof. induction k; [reflexivity|assumption]. Qed.
Lemma any_app l m : any (l ++ m) = any l || any m.
Proof. apply existsb_app. Qed.

Lemma two_sums_none k : forall s e, length s = (k + length e)%nat ->
  exists e', snd (two_sums s (repeat None k ++ e)) = repeat None k ++ e' /\ length e' = length e.
Proof.
  induction k as [|k IH]; intros s e L.
  - cbn [repeat app]. destruct (two_sums_len s e L) as [_ L2]. eexists; split; [reflexivity|exact L2].
  - destruct s as [|a s]; [cbn in L; lia|].
    cbn [repeat app two_sums]. destruct (IH s e) as (e' & E & L'); [cbn in L; lia|].
    assert (Z : two_sum_o a None = (a, None)) by (destruct a; reflexivity). rewrite Z.
    destruct (two_sums s (repeat None k ++ e)) as [s' t]. cbn [snd] in *.
    exists e'. rewrite E. split; [reflexivity|exact L'].
Qed.

Lemma removelast_app_ne {A} (l m : list A) : m <> [] -> removelast (l ++ m) = l ++ removelast m.
Proof. intro H. apply removelast_app, H. Qed.

Lemma sweep_total f : forall k e s drop, (length e <= f)%nat ->
  length s = (k + length e)%nat ->
  exists s' drop', sweep f s (repeat None k ++ e) drop = Ok (s', drop') /\ length s' = length s.
Proof.
  induction f as [|f IH]; intros k e s drop Lf L.
  - destruct e; [|cbn in Lf; lia]. cbn [sweep]. rewrite app_nil_r, any_repeat. eauto.
  - cbn [sweep]. rewrite any_app, any_repeat. cbn [orb].
    destruct (any e) eqn:A; [|eauto].
    destruct (two_sums_none k s e L) as (e' & E & L').
    assert (Ls : length s = length (repeat (@None double) k ++ e))
      by (rewrite app_length, repeat_length; exact L).
    destruct (two_sums_len s _ Ls) as [L1 _].
    destruct (two_sums s (repeat None k ++ e)) as [s1 e1]. cbn [fst snd] in *. subst e1.
    assert (N : e' <> []).
    { intro Z. subst e'. cbn in L'. destruct e; [discriminate A|discriminate L']. }
    rewrite removelast_app_ne by exact N.
    change (None :: repeat None k ++ removelast e') with (repeat None (S k) ++ removelast e').
    destruct (IH (S k) (removelast e') s1 (last (repeat None k ++ e') None :: drop))
      as (s' & d' & R & Ls').
    + rewrite removelast_len. lia.
    + rewrite removelast_len, L1, <- Ls, L. destruct e; [discriminate A|]. rewrite L'. cbn [length]. lia.
    + exists s', d'. split; [exact R|]. rewrite Ls', L1, <- Ls. reflexivity.
Qed.

Lemma mul_rows_total x : forall ys s pi drop, x <> [] -> length s = length x ->
  exists pi' drop', mul_rows x ys s pi drop = Ok (pi', drop') /\
    length pi' = (length pi + length ys)%nat.
Proof.
  induction ys as [|yi ys IH]; intros s pi drop Hx L; cbn [mul_rows].
  - exists pi, (s ++ drop). split; [reflexivity|]. cbn. lia.
  - destruct (mul_row_len yi x s L) as (L1 & L2 & L3).
    destruct (mul_row x yi s) as [[s1 e] ep]. cbn [fst snd] in *.
    destruct s1 as [|s0 s1]; [destruct x; [contradiction|discriminate]|].
    assert (La : length (s1 ++ [None]) = length x) by (rewrite app_length; cbn in *; lia).
    destruct (sweep_total (length x) 0 e (s1 ++ [None]) drop) as (s2 & d2 & E2 & Ls2); [lia|cbn; lia|].
    cbn [repeat app] in E2. rewrite E2. cbn [bind].
    destruct (sweep_total (length x) 0 ep s2 d2) as (s3 & d3 & E3 & Ls3); [lia|cbn; lia|].
    cbn [repeat app] in E3. rewrite E3. cbn [bind].
    destruct (IH s3 (pi ++ [s0]) d3) as (pi' & d' & E' & Lp); [exact Hx|lia|].
    exists pi', d'. split; [exact E'|]. rewrite Lp, app_length. cbn. lia.
Qed.

Lemma mul_full_total x y : length x = length y ->
  exists pi drop, collange_mul_full x y = Ok (pi, drop) /\ length pi = length x.
Proof.
  intro E. unfold collange_mul_full. rewrite E, Nat.eqb_refl. cbn [slow_assert bind].
  destruct x as [|a x].
  - destruct y; [|discriminate]. exists [], []. split; reflexivity.
  - destruct (mul_rows_total (a :: x) y (repeat None (length y)) [] []) as (pi & d & R & L).
    + discriminate.
    + rewrite repeat_length. symmetry. exact E.
    + cbn [length Nat.add] in L. rewrite R. cbn [bind]. rewrite L, Nat.eqb_refl. exists pi, d.
      split; [reflexivity|]. exact L.
Qed.

(** ** Nothing is lost unaccounted, and what is dropped is small

    [pot L l] weighs entry j of a list that sits at level L with [u^-(L+j)]. *)
Definition w : R := / u.
Lemma w_ge1 : 1 <= w.
Proof. unfold w, u. rewrite <- bpow_opp. apply (bpow_le radix2 0). lia. Qed.
Lemma u_w : u * w = 1.
Proof. unfold w. apply Rinv_r. pose proof u_pos. lra. Qed.
Fixpoint pot (L : nat) (l : list (option double)) : R :=
  match l with [] => 0 | a :: l => Rabs (oR a) * w ^ L + pot (S L) l end.
Lemma w_pow L : 1 <= w ^ L. Proof. apply pow_R1_Rle, w_ge1. Qed.
Lemma pot_pos l : forall L, 0 <= pot L l.
Proof. induction l as [|a l IH]; intro L; cbn [pot]; [lra|].
  pose proof (Rabs_pos (oR a)). pose proof (w_pow L). specialize (IH (S L)). nra. Qed.
Lemma pot_app l m : forall L, pot L (l ++ m) = pot L l + pot (L + length l) m.
Proof.
  induction l as [|a l IH]; intro L; cbn [app pot length].
  - rewrite Nat.add_0_r. ring.
  - rewrite IH. replace (S L + length l)%nat with (L + S (length l))%nat by lia. ring.
Qed.
Definition omags (l : list (option double)) : R := fold_right (fun a r => Rabs (oR a) + r) 0 l.
Lemma omags_cons a l : omags (a :: l) = Rabs (oR a) + omags l. Proof. reflexivity. Qed.
Lemma omags_pos l : 0 <= omags l.
Proof. induction l as [|a l IH]; [apply Rle_refl|]. rewrite omags_cons.
  pose proof (Rabs_pos (oR a)). lra. Qed.
Lemma omags_app l m : omags (l ++ m) = omags l + omags m.
Proof. induction l as [|a l IH]; cbn [app]; [change (omags []) with 0; ring|].
  rewrite !omags_cons, IH. ring. Qed.
Lemma pot_omags l : forall L, omags l * w ^ L <= pot L l.
Proof.
  induction l as [|a l IH]; intro L; [cbn; lra|]. rewrite omags_cons. cbn [pot].
  specialize (IH (S L)). cbn [pow] in IH.
  pose proof w_ge1. pose proof (w_pow L). pose proof (omags_pos l).
  assert (omags l * w ^ L <= omags l * (w * w ^ L)) by (apply Rmult_le_compat_l; [assumption|nra]).
  lra.
Qed.
Lemma oval_omags l : Rabs (oval l) <= omags l.
Proof. induction l as [|a l IH]; [cbn; rewrite Rabs_R0; lra|]. rewrite oval_cons, omags_cons.
  pose proof (Rabs_triang (oR a) (oval l)). lra. Qed.

Lemma two_sums_ok s : forall e L, length s = length e ->
  Forall ofin (fst (two_sums s e)) -> Forall ofin (snd (two_sums s e)) ->
  Forall ofin s /\ Forall ofin e /\
  oval (fst (two_sums s e)) + oval (snd (two_sums s e)) = oval s + oval e /\
  pot L (fst (two_sums s e)) + pot (S L) (snd (two_sums s e)) <= (2 + u) * (pot L s + pot L e).
Proof.
  pose proof u_pos as U.
  induction s as [|a s IH]; intros [|b e] L E; try discriminate.
  - cbn. repeat split; auto; lra.
  - cbn [two_sums]. pose proof (two_sum_o_ok a b) as T.
    destruct (two_sum_o a b) as [x y]. injection E as E. specialize (IH e (S L) E).
    destruct (two_sums s e) as [s' e']. cbn [fst snd] in *.
    intros H1 H2. inversion H1 as [|? ? X1 X2]; subst. inversion H2 as [|? ? Y1 Y2]; subst.
    destruct (IH X2 Y2) as (I1 & I2 & I3 & I4). destruct (T X1 Y1) as (T1 & T2 & T3 & T4 & T5).
    rewrite !oval_cons. cbn [pot].
    repeat split; try (constructor; assumption); [lra|].
    set (A := Rabs (oR a)) in *. set (B := Rabs (oR b)) in *.
    pose proof (w_pow L) as WL. pose proof u_w as UW. cbn [pow].
    assert (Q1 : Rabs (oR x) * w ^ L <= (1 + u) * (A + B) * w ^ L)
      by (apply Rmult_le_compat_r; lra).
    assert (Q2 : Rabs (oR y) * (w * w ^ L) <= (A + B) * w ^ L).
    { eapply Rle_trans; [apply Rmult_le_compat_r; [|exact T5]|].
      - apply Rmult_le_pos; [|lra]. pose proof w_ge1. lra.
      - apply Req_le. replace (u * (A + B) * (w * w ^ L)) with (u * w * ((A + B) * w ^ L)) by ring.
        rewrite UW. ring. }
    lra.
Qed.

Lemma removelast_last (l : list (option double)) : l <> [] -> l = removelast l ++ [last l None].
Proof. apply app_removelast_last. Qed.

Lemma sweep_ok f : forall s e drop s' drop' L K,
  sweep f s e drop = Ok (s', drop') -> length s = length e -> (K <= L + length s)%nat ->
  Forall ofin s' -> Forall ofin drop' ->
  Forall ofin s /\ Forall ofin e /\ Forall ofin drop /\ length s' = length s /\
  oval s' + oval drop' = oval s + oval e + oval drop /\
  pot L s' + omags drop' * w ^ K <=
    (2 + u) ^ f * (pot L s + pot L e + omags drop * w ^ K).
Proof.
  pose proof u_pos as U.
  assert (None_case : forall (s : list (option double)) e, any e = false -> length s = length e ->
    Forall ofin e /\ oval e = 0 /\ forall L, pot L e = 0).
  { intros s e A _. clear s. induction e as [|[b|] e IH]; try discriminate.
    - repeat split; constructor.
    - destruct (IH A) as (I1 & I2 & I3). repeat split.
      + constructor; [exact I|exact I1].
      + rewrite oval_cons, I2. cbn. ring.
      + intro L. cbn [pot]. rewrite I3. cbn [oR]. rewrite Rabs_R0. ring. }
  assert (P1 : forall k, 1 <= (2 + u) ^ k) by (intro k; apply pow_R1_Rle; lra).
  induction f as [|f IH]; intros s e drop s' drop' L K R E HK Fs Fd; cbn [sweep] in R.
  - destruct (any e) eqn:A; [discriminate|]. injection R as <- <-.
    destruct (None_case s e A E) as (N1 & N2 & N3). rewrite N2, N3.
    repeat split; try assumption; [lra|]. cbn [pow]. lra.
  - destruct (any e) eqn:A.
    + pose proof (two_sums_ok s e L E) as T. destruct (two_sums_len s e E) as [L1 L2].
      destruct (two_sums s e) as [s1 e1]. cbn [fst snd] in *.
      assert (N : e1 <> []).
      { intro Z. subst e1. destruct e; [discriminate A|discriminate L2]. }
      assert (E1 : length s1 = length (None :: removelast e1)).
      { cbn [length]. rewrite removelast_len. destruct e1; [contradiction|]. cbn [length] in *. lia. }
      destruct (IH _ _ _ _ _ L K R E1 ltac:(rewrite L1, <- E; exact HK) Fs Fd) as (I1 & I2 & I3 & I4 & I5 & I6).
      inversion I2 as [|? ? _ J2]; subst. inversion I3 as [|? ? J3 J4]; subst.
      pose proof (removelast_last e1 N) as RL.
      assert (F1 : Forall ofin e1).
      { rewrite RL. apply Forall_app. split; [exact J2|]. constructor; [exact J3|constructor]. }
      destruct (T I1 F1) as (T1 & T2 & T3 & T4).
      assert (OV : oval e1 = oval (removelast e1) + oR (last e1 None)).
      { rewrite RL at 1. rewrite oval_app, oval_cons. change (oval []) with 0. ring. }
      assert (PT : pot (S L) e1 = pot (S L) (removelast e1) + Rabs (oR (last e1 None)) * w ^ (L + length s)).
      { rewrite RL at 1. rewrite pot_app. cbn [pot]. rewrite removelast_len.
        replace (S L + Nat.pred (length e1))%nat with (L + length s)%nat; [ring|].
        destruct e1; [contradiction|]. cbn [length] in *. lia. }
      repeat split; try assumption.
      * lia.
      * rewrite I5, !oval_cons. cbn [oR]. lra.
      * eapply Rle_trans; [exact I6|].
        rewrite omags_cons. cbn [pot oR]. rewrite Rabs_R0.
        cbn [pow]. rewrite (Rmult_comm (2 + u)), Rmult_assoc.
        apply Rmult_le_compat_l; [specialize (P1 f); lra|].
        pose proof (omags_pos drop) as OD. pose proof (w_pow K) as WP.
        assert (WK : Rabs (oR (last e1 None)) * w ^ K <= Rabs (oR (last e1 None)) * w ^ (L + length s)).
        { apply Rmult_le_compat_l; [apply Rabs_pos|]. apply Rle_pow; [apply w_ge1|exact HK]. }
        set (W := w ^ K) in *. set (od := omags drop) in *.
        assert (0 <= od * W) by (apply Rmult_le_pos; lra).
        rewrite Rmult_plus_distr_r, Rmult_0_l, Rplus_0_l. nra.
    + injection R as <- <-. destruct (None_case s e A E) as (N1 & N2 & N3). rewrite N2, N3.
      repeat split; try assumption; [lra|].
      specialize (P1 (S f)). pose proof (pot_pos s L). pose proof (omags_pos drop).
      pose proof (w_pow K).
      assert (0 <= omags drop * w ^ K) by (apply Rmult_le_pos; lra). nra.
Qed.

(** Weighted magnitude of an expansion: [sum |x_j| / u^j], starting at level L. *)
Fixpoint weigh (L : nat) (x : list double) : R :=
  match x with [] => 0 | a :: x => Rabs (B2R a) * w ^ L + weigh (S L) x end.
Lemma weigh_pos x : forall L, 0 <= weigh L x.
Proof. induction x as [|a x IH]; intro L; cbn [weigh]; [lra|].
  pose proof (Rabs_pos (B2R a)). pose proof (w_pow L). specialize (IH (S L)). nra. Qed.

Lemma mul_row_ok yi x : forall s L, length s = length x ->
  Forall (fun a => no_underflow a yi) x ->
  Forall ofin (fst (fst (mul_row x yi s))) -> Forall ofin (snd (fst (mul_row x yi s))) ->
  Forall ofin (snd (mul_row x yi s)) ->
  Forall ofin s /\
  oval (fst (fst (mul_row x yi s))) + oval (snd (fst (mul_row x yi s))) + oval (snd (mul_row x yi s))
    = oval s + val x * B2R yi /\
  pot L (fst (fst (mul_row x yi s))) + pot (S L) (snd (fst (mul_row x yi s)))
    + pot (S L) (snd (mul_row x yi s)) <= (2 + u) * (pot L s + 2 * (weigh L x * Rabs (B2R yi))).
Proof.
  pose proof u_pos as U.
  induction x as [|a x IH]; intros [|b s] L E NU; try discriminate.
  - intros _ _ _. cbn. repeat split; auto; lra.
  - inversion NU as [|? ? Na Nx]; subst. cbn [mul_row].
    pose proof (two_prod_exact a yi) as TP. pose proof (two_prod_fin a yi) as TF.
    pose proof (two_prod_err a yi) as TE.
    destruct (two_prod a yi) as [p ej]. cbn [fst snd] in TP, TF, TE.
    pose proof (two_sum_o_ok b (Some p)) as TS.
    destruct (two_sum_o b (Some p)) as [sj epj]. cbn [fst snd] in TS.
    injection E as E. specialize (IH s (S L) E Nx).
    destruct (mul_row x yi s) as [[s' e'] ep']. cbn [fst snd] in *.
    intros H1 H2 H3. inversion H1 as [|? ? X1 X2]; subst. inversion H2 as [|? ? Y1 Y2]; subst.
    inversion H3 as [|? ? Z1 Z2]; subst.
    destruct (IH X2 Y2 Z2) as (I1 & I2 & I3).
    destruct (TS X1 Z1) as (T1 & T2 & T3 & T4 & T5). cbn [ofin oR] in *.
    destruct (TP Y1 Na) as [P1 P2]. destruct (TF Y1) as (_ & _ & P3). specialize (TE P3 Na).
    rewrite !oval_cons, val_cons. cbn [oR pot weigh].
    repeat split; [constructor; assumption|lra|].
    replace (B2R a * B2R yi - B2R p) with (B2R ej) in TE by lra.
    rewrite Rabs_mult in TE.
    set (q := Rabs (B2R a) * Rabs (B2R yi)) in *.
    assert (Q0 : 0 <= q) by (apply Rmult_le_pos; apply Rabs_pos).
    assert (PQ : Rabs (B2R p) <= (1 + u) * q).
    { replace (B2R p) with (B2R a * B2R yi + - B2R ej) by lra.
      eapply Rle_trans; [apply Rabs_triang|]. rewrite Rabs_Ropp, Rabs_mult. fold q. lra. }
    set (B := Rabs (oR b)) in *. assert (B0 : 0 <= B) by apply Rabs_pos.
    pose proof (w_pow L) as WL. pose proof u_w as UW. cbn [pow].
    set (W := w ^ L) in *.
    assert (U2 : u <= 1). { unfold u. apply (bpow_le radix2 _ 0). lia. }
    assert (C1 : Rabs (oR sj) <= (1 + u) * (B + (1 + u) * q)).
    { eapply Rle_trans; [exact T4|]. apply Rmult_le_compat_l; lra. }
    assert (C2 : Rabs (B2R ej) * (w * W) <= q * W).
    { eapply Rle_trans; [apply Rmult_le_compat_r; [|exact TE]|].
      - apply Rmult_le_pos; [pose proof w_ge1; lra|lra].
      - apply Req_le. replace (u * q * (w * W)) with (u * w * (q * W)) by ring. rewrite UW. ring. }
    assert (C3 : Rabs (oR epj) * (w * W) <= (B + (1 + u) * q) * W).
    { eapply Rle_trans; [apply Rmult_le_compat_r with (r2 := u * (B + (1 + u) * q))|].
      - apply Rmult_le_pos; [pose proof w_ge1; lra|lra].
      - eapply Rle_trans; [exact T5|]. apply Rmult_le_compat_l; lra.
      - apply Req_le. replace (u * (B + (1 + u) * q) * (w * W)) with
          (u * w * ((B + (1 + u) * q) * W)) by ring. rewrite UW. ring. }
    assert (C4 : Rabs (oR sj) * W <= (1 + u) * (B + (1 + u) * q) * W)
      by (apply Rmult_le_compat_r; lra).
    replace (Rabs (B2R a) * W + weigh (S L) x) with (weigh (S L) x + Rabs (B2R a) * W) by ring.
    replace ((weigh (S L) x + Rabs (B2R a) * W) * Rabs (B2R yi)) with
      (weigh (S L) x * Rabs (B2R yi) + q * W) by (unfold q; ring).
    set (r := weigh (S L) x * Rabs (B2R yi)) in *.
    assert (C5 : (1 + u) * (B + (1 + u) * q) * W + q * W + (B + (1 + u) * q) * W <=
                 (2 + u) * (B * W + 2 * (q * W))).
    { replace ((1 + u) * (B + (1 + u) * q) * W + q * W + (B + (1 + u) * q) * W) with
        (((2 + u) * B + (3 + 3 * u + u * u) * q) * W) by ring.
      replace ((2 + u) * (B * W + 2 * (q * W))) with (((2 + u) * B + (4 + 2 * u) * q) * W) by ring.
      apply Rmult_le_compat_r; [lra|]. assert (u * u <= 1 * 1 - u + u * u) by lra.
      assert (3 + 3 * u + u * u <= 4 + 2 * u). { assert (u <= / 4).
        { unfold u. change (/ 4) with (bpow radix2 (-2)). apply bpow_le. lia. } nra. }
      nra. }
    lra.
Qed.

Definition factor (n : nat) : R := (2 + u) ^ (2 * n + 1).
Lemma factor_ge1 n : 1 <= factor n.
Proof. pose proof u_pos. apply pow_R1_Rle. lra. Qed.

Lemma mul_rows_ok x : forall ys s pi drop pi' drop' i, x <> [] ->
  mul_rows x ys s pi drop = Ok (pi', drop') -> length s = length x ->
  (forall a b, In a x -> In b ys -> no_underflow a b) ->
  Forall ofin pi' -> Forall ofin drop' -> (i + length ys = length x)%nat ->
  Forall ofin s /\ Forall ofin pi /\ Forall ofin drop /\
  oval pi' + oval drop' = oval pi + oval s + oval drop + val x * val ys /\
  omags drop' * w ^ length x <= factor (length x) ^ length ys *
    (pot i s + omags drop * w ^ length x + 2 * (weigh 0 x * weigh i ys)).
Proof.
  pose proof u_pos as U.
  induction ys as [|yi ys IH]; intros s pi drop pi' drop' i Hx R Ls NU Fp Fd Li; cbn [mul_rows] in R.
  - injection R as <- <-. apply Forall_app in Fd. destruct Fd as [Fs Fd].
    rewrite oval_app, omags_app. change (val []) with 0. cbn [length pow weigh].
    repeat split; try assumption; [lra|].
    cbn [length] in Li. rewrite Nat.add_0_r in Li. subst i.
    pose proof (pot_omags s (length x)). lra.
  - destruct (mul_row_len yi x s Ls) as (L1 & L2 & L3).
    assert (NUx : Forall (fun a => no_underflow a yi) x).
    { apply Forall_forall. intros a Ha. apply NU; [exact Ha|left; reflexivity]. }
    pose proof (mul_row_ok yi x s i Ls NUx) as MR.
    destruct (mul_row x yi s) as [[s1 e] ep]. cbn [fst snd] in *.
    destruct s1 as [|s0 s1]; [discriminate|].
    destruct (sweep (length x) (s1 ++ [None]) e drop) as [[s2 d2]| |] eqn:E2; try discriminate.
    cbn [bind] in R.
    destruct (sweep (length x) s2 ep d2) as [[s3 d3]| |] eqn:E3; try discriminate.
    cbn [bind] in R.
    assert (La : length (s1 ++ [None]) = length e) by (rewrite app_length; cbn in *; lia).
    assert (Lx : length (s1 ++ [@None double]) = length x) by lia.
    (* lengths do not need finiteness *)
    destruct (sweep_total (length x) 0 e (s1 ++ [None]) drop) as (t2 & c2 & Q2 & Lt2); [lia|cbn; lia|].
    cbn [repeat app] in Q2. rewrite E2 in Q2. injection Q2 as <- <-.
    destruct (sweep_total (length x) 0 ep s2 d2) as (t3 & c3 & Q3 & Lt3); [lia|cbn; lia|].
    cbn [repeat app] in Q3. rewrite E3 in Q3. injection Q3 as <- <-.
    destruct (IH s3 (pi ++ [s0]) d3 pi' drop' (S i)) as (I1 & I2 & I3 & I4 & I5);
      try assumption; [lia| |cbn in Li; lia|].
    { intros a b Ha Hb. apply NU; [exact Ha|right; exact Hb]. }
    destruct (sweep_ok (length x) s2 ep d2 s3 d3 (S i) (length x) E3) as (A1 & A2 & A3 & A4 & A5 & A6);
      try assumption; try lia.
    destruct (sweep_ok (length x) (s1 ++ [None]) e drop s2 d2 (S i) (length x) E2)
      as (B1 & B2 & B3 & B4 & B5 & B6); try assumption; try lia.
    apply Forall_app in I2. destruct I2 as [I2 I2']. inversion I2' as [|? ? F0 _]; subst.
    apply Forall_app in B1. destruct B1 as [B1 _].
    destruct MR as (M1 & M2 & M3); try assumption; [constructor; assumption|].
    repeat split; try assumption.
    + rewrite I4. rewrite !oval_app, val_cons in *. rewrite !oval_cons in *.
      change (oval []) with 0 in *. cbn [oR] in *. lra.
    + eapply Rle_trans; [exact I5|]. cbn [length pow].
      rewrite (Rmult_comm (factor (length x))), Rmult_assoc.
      apply Rmult_le_compat_l; [pose proof (pow_R1_Rle _ (length ys) (factor_ge1 (length x))); lra|].
      cbn [pot] in M3. rewrite pot_app in B6. cbn [pot oR] in B6. rewrite Rabs_R0 in B6.
      cbn [weigh].
      set (f := (2 + u) ^ length x) in *.
      assert (F1 : 1 <= f) by (apply pow_R1_Rle; lra).
      assert (FF : factor (length x) = f * f * (2 + u)).
      { unfold factor, f. replace (2 * length x + 1)%nat with (length x + length x + 1)%nat by lia.
        rewrite !pow_add. cbn [pow]. ring. }
      rewrite FF.
      set (D := w ^ length x) in *. assert (D1 : 1 <= D) by apply w_pow.
      pose proof (omags_pos drop) as O1. pose proof (omags_pos d2) as O2.
      pose proof (pot_pos s i) as O3. pose proof (pot_pos ep (S i)) as O4.
      pose proof (pot_pos e (S i)) as O5. pose proof (pot_pos s1 (S i)) as O6.
      pose proof (weigh_pos x i) as O7. pose proof (weigh_pos ys (S i)) as O8.
      pose proof (weigh_pos x 0) as O9. pose proof (Rabs_pos (B2R yi)) as O10.
      assert (WX : weigh i x = weigh 0 x * w ^ i).
      { clear. assert (G : forall z j, weigh (i + j) z = weigh j z * w ^ i).
        { induction z as [|a z IH]; intro j; cbn [weigh]; [ring|].
          replace (S (i + j)) with (i + S j)%nat by lia. rewrite IH, pow_add. ring. }
        specialize (G x 0%nat). rewrite Nat.add_0_r in G. exact G. }
      rewrite WX in M3.
      set (Y := Rabs (B2R yi)) in *. set (Wi := w ^ i) in *. set (X := weigh 0 x) in *.
      set (YS := weigh (S i) ys) in *.
      assert (Wi1 : 1 <= Wi) by apply w_pow.
      assert (N0 : 0 <= Rabs (oR s0) * Wi) by (apply Rmult_le_pos; [apply Rabs_pos|lra]).
      assert (G1 : pot (S i) s3 + omags d3 * D <=
        f * (f * (pot (S i) s1 + pot (S i) e + pot (S i) ep + omags drop * D))).
      { eapply Rle_trans; [exact A6|]. apply Rmult_le_compat_l; [lra|].
        assert (B7 : pot (S i) s2 + omags d2 * D <= f * (pot (S i) s1 + pot (S i) e + omags drop * D)) by lra.
        assert (pot (S i) ep <= f * pot (S i) ep) by nra. lra. }
      assert (G2 : pot (S i) s1 + pot (S i) e + pot (S i) ep + omags drop * D <=
        (2 + u) * (pot i s + omags drop * D + 2 * (X * (Y * Wi)))).
      { assert (0 <= omags drop * D) by (apply Rmult_le_pos; lra).
        replace (X * (Y * Wi)) with (X * Wi * Y) by ring. nra. }
      assert (G3 : 0 <= 2 * (X * YS)) by (apply Rmult_le_pos; [lra|apply Rmult_le_pos; lra]).
      assert (G4 : 2 * (X * YS) <= f * f * (2 + u) * (2 * (X * YS))).
      { assert (1 <= f * f * (2 + u)) by nra. nra. }
      assert (G5 : f * (f * (pot (S i) s1 + pot (S i) e + pot (S i) ep + omags drop * D)) <=
        f * f * (2 + u) * (pot i s + omags drop * D + 2 * (X * (Y * Wi)))).
      { rewrite <- Rmult_assoc, (Rmult_assoc (f * f)). apply Rmult_le_compat_l; [nra|exact G2]. }
      replace (f * f * (2 + u) * (pot i s + omags drop * D + 2 * (X * (Y * Wi + YS)))) with
        (f * f * (2 + u) * (pot i s + omags drop * D + 2 * (X * (Y * Wi))) +
         f * f * (2 + u) * (2 * (X * YS))) by ring.
      lra.
Qed.

(** What collange_mul computes, for every length. *)
Lemma mul_full_ok x y pi drop :
  collange_mul_full x y = Ok (pi, drop) ->
  (forall a b, In a x -> In b y -> no_underflow a b) ->
  Forall ofin pi -> Forall ofin drop ->
  length x = length y /\
  oval pi + oval drop = val x * val y /\
  omags drop * w ^ length x <= 2 * factor (length x) ^ length x * (weigh 0 x * weigh 0 y).
Proof.
  intros R NU Fp Fd. unfold collange_mul_full in R.
  destruct (Nat.eqb_spec (length x) (length y)) as [E|]; [|discriminate].
  cbn [slow_assert bind] in R. split; [exact E|].
  destruct (mul_rows x y (repeat None (length x)) [] []) as [[p d]| |] eqn:M; try discriminate.
  cbn [bind] in R. destruct (Nat.eqb (length x) (length p)); [|discriminate].
  cbn [slow_assert bind] in R. injection R as -> ->.
  destruct x as [|a x].
  - destruct y; [|discriminate]. cbn in M. injection M as <- <-. cbn. split; [ring|]. lra.
  - destruct (mul_rows_ok (a :: x) y (repeat None (length (a :: x))) [] [] pi drop 0)
      as (_ & _ & _ & S & P); try assumption; try discriminate.
    + apply repeat_length.
    + lia.
    + assert (Z : forall k, oval (repeat None k) = 0).
      { induction k as [|k IH]; [reflexivity|]. cbn [repeat]. rewrite oval_cons, IH. cbn. ring. }
      assert (Z' : forall k L, pot L (repeat None k) = 0).
      { induction k as [|k IH]; intro L; [reflexivity|]. cbn [repeat pot]. rewrite IH. cbn [oR].
        rewrite Rabs_R0. ring. }
      rewrite Z in S. rewrite Z', <- E in P. change (oval []) with 0 in S.
      change (omags []) with 0 in P. split; [lra|].
      eapply Rle_trans; [exact P|]. apply Req_le. ring.
Qed.

Lemma oval_olit l : val (map olit l) = oval l.
Proof. induction l as [|[a|] l IH]; [reflexivity| |]; cbn [map]; rewrite val_cons, oval_cons, IH; reflexivity. Qed.

(** ** Length two *)
Lemma mul2_def x0 x1 y0 y1 :
  collange_mul [x0; x1] [y0; y1] =
  Ok [dmul x0 y0; dadd (dadd (dmul x1 y0) (snd (two_prod x0 y0))) (dmul x0 y1)].
Proof. reflexivity. Qed.

Lemma mul2_err x0 x1 y0 y1 :
  let p00 := dmul x0 y0 in let e00 := snd (two_prod x0 y0) in
  let p10 := dmul x1 y0 in let p01 := dmul x0 y1 in
  let s := dadd p10 e00 in let r := dadd s p01 in
  fin r -> no_underflow x0 y0 -> no_underflow x1 y0 -> no_underflow x0 y1 ->
  exists d1 d2 d3 d4,
    B2R x0 * B2R y0 + B2R x1 * B2R y0 + B2R x0 * B2R y1 + B2R x1 * B2R y1
      = B2R p00 + B2R r + (d1 + d2 + d3 + d4 + B2R x1 * B2R y1) /\
    Rabs d1 <= u * Rabs (B2R p10 + B2R e00) /\ Rabs d2 <= u * Rabs (B2R s + B2R p01) /\
    Rabs d3 <= u * Rabs (B2R x1 * B2R y0) /\ Rabs d4 <= u * Rabs (B2R x0 * B2R y1) /\
    Rabs (B2R e00) <= u * Rabs (B2R x0 * B2R y0).
Proof.
  intros p00 e00 p10 p01 s r Fr U00 U10 U01.
  destruct (fin_add _ _ Fr) as [Fs Fp01]. destruct (fin_add _ _ Fs) as [Fp10 Fe].
  destruct (two_prod_exact x0 y0 Fe U00) as [_ X]. destruct (two_prod_fin x0 y0 Fe) as (_ & _ & Fp).
  pose proof (two_prod_err x0 y0 Fp U00) as E0.
  pose proof (two_prod_err x1 y0 Fp10 U10) as E1. pose proof (two_prod_err x0 y1 Fp01 U01) as E2.
  change (B2R p00 + B2R e00 = B2R x0 * B2R y0) in X.
  cbn [two_prod fst] in E0, E1, E2. fold p00 in E0. fold p10 in E1. fold p01 in E2.
  pose proof (dadd_err p10 e00 Fs) as D1. fold s in D1. pose proof (dadd_err s p01 Fr) as D2. fold r in D2.
  exists (B2R p10 + B2R e00 - B2R s), (B2R s + B2R p01 - B2R r),
    (B2R x1 * B2R y0 - B2R p10), (B2R x0 * B2R y1 - B2R p01).
  repeat split; try assumption; [|].
  - clear - X. lra.
  - replace (B2R e00) with (B2R x0 * B2R y0 - B2R p00); [exact E0|]. lra.
Qed.

(** The total error of a product of two-term expansions. *)
Lemma mul2_total x0 x1 y0 y1 :
  let p00 := dmul x0 y0 in let e00 := snd (two_prod x0 y0) in
  let p10 := dmul x1 y0 in let p01 := dmul x0 y1 in
  let r := dadd (dadd p10 e00) p01 in
  fin r -> no_underflow x0 y0 -> no_underflow x1 y0 -> no_underflow x0 y1 ->
  Rabs (B2R x1) <= 2 * u * Rabs (B2R x0) -> Rabs (B2R y1) <= 2 * u * Rabs (B2R y0) ->
  Rabs ((B2R x0 + B2R x1) * (B2R y0 + B2R y1) - (B2R p00 + B2R r))
    <= 17 * (u * u) * Rabs (B2R x0 * B2R y0).
Proof.
  intros p00 e00 p10 p01 r Fr U00 U10 U01 Hx Hy.
  destruct (fin_add _ _ Fr) as [Fs Fp01]. destruct (fin_add _ _ Fs) as [Fp10 Fe].
  destruct (mul2_err x0 x1 y0 y1 Fr U00 U10 U01) as (d1 & d2 & d3 & d4 & S & B1 & B2 & B3 & B4 & B5).
  fold p00 e00 p10 p01 in S, B1, B2, B5. fold r in S.
  pose proof (dadd_err p10 e00 Fs) as D1.
  pose proof (two_prod_err x1 y0 Fp10 U10) as E1. pose proof (two_prod_err x0 y1 Fp01 U01) as E2.
  cbn [two_prod fst] in E1, E2. fold p10 in E1. fold p01 in E2.
  set (s := dadd p10 e00) in *.
  rewrite !Rabs_mult in *.
  set (a0 := Rabs (B2R x0)) in *. set (a1 := Rabs (B2R x1)) in *.
  set (b0 := Rabs (B2R y0)) in *. set (b1 := Rabs (B2R y1)) in *.
  assert (P0 : 0 <= a0) by apply Rabs_pos. assert (P1 : 0 <= a1) by apply Rabs_pos.
  assert (P2 : 0 <= b0) by apply Rabs_pos. assert (P3 : 0 <= b1) by apply Rabs_pos.
  pose proof u_pos as U.
  assert (U8 : u <= / 1024). { unfold u. change (/ 1024) with (bpow radix2 (-10)). apply bpow_le. lia. }
  set (q := a0 * b0) in *. assert (Q : 0 <= q) by (apply Rmult_le_pos; assumption).
  assert (Q1 : a1 * b0 <= 2 * u * q) by (unfold q; nra).
  assert (Q2 : a0 * b1 <= 2 * u * q) by (unfold q; nra).
  assert (Q3 : a1 * b1 <= 4 * (u * u) * q).
  { apply Rle_trans with ((2 * u * a0) * (2 * u * b0)); [apply Rmult_le_compat; assumption|].
    unfold q. apply Req_le. ring. }
  assert (T1 : Rabs (B2R p10) <= (1 + u) * (a1 * b0)).
  { replace (B2R p10) with (B2R x1 * B2R y0 + - (B2R x1 * B2R y0 - B2R p10)) by ring.
    eapply Rle_trans; [apply Rabs_triang|]. rewrite Rabs_Ropp, Rabs_mult. fold a1 b0. lra. }
  assert (T2 : Rabs (B2R p01) <= (1 + u) * (a0 * b1)).
  { replace (B2R p01) with (B2R x0 * B2R y1 + - (B2R x0 * B2R y1 - B2R p01)) by ring.
    eapply Rle_trans; [apply Rabs_triang|]. rewrite Rabs_Ropp, Rabs_mult. fold a0 b1. lra. }
  set (z := Rabs (B2R p10 + B2R e00)) in *.
  assert (T3 : z <= (3 + 2 * u) * u * q).
  { unfold z. eapply Rle_trans; [apply Rabs_triang|]. nra. }
  assert (T4 : Rabs (B2R s) <= (1 + u) * z).
  { replace (B2R s) with (B2R p10 + B2R e00 + - (B2R p10 + B2R e00 - B2R s)) by ring.
    eapply Rle_trans; [apply Rabs_triang|]. rewrite Rabs_Ropp. fold z. lra. }
  assert (T5 : Rabs (B2R s + B2R p01) <= (5 + / 50) * u * q).
  { eapply Rle_trans; [apply Rabs_triang|].
    assert (z <= (3 + / 500) * (u * q)).
    { eapply Rle_trans; [exact T3|]. assert (0 <= u * q) by nra. nra. }
    assert (0 <= u * q) by nra. nra. }
  replace ((B2R x0 + B2R x1) * (B2R y0 + B2R y1) - (B2R p00 + B2R r))
    with (d1 + d2 + d3 + d4 + B2R x1 * B2R y1) by lra.
  assert (A : Rabs (d1 + d2 + d3 + d4 + B2R x1 * B2R y1) <=
    Rabs d1 + Rabs d2 + Rabs d3 + Rabs d4 + a1 * b1).
  { eapply Rle_trans; [apply Rabs_triang|]. rewrite Rabs_mult. fold a1 b1.
    apply Rplus_le_compat_r. eapply Rle_trans; [apply Rabs_triang|].
    apply Rplus_le_compat_r. eapply Rle_trans; [apply Rabs_triang|].
    apply Rplus_le_compat_r. apply Rabs_triang. }
  eapply Rle_trans; [exact A|].
  assert (0 <= u * q) by nra. assert (K : 0 <= u * u * q) by nra.
  assert (C1 : Rabs d1 <= (3 + / 500) * (u * u * q)).
  { eapply Rle_trans; [exact B1|]. replace ((3 + / 500) * (u * u * q)) with
      (u * ((3 + / 500) * u * q)) by ring. apply Rmult_le_compat_l; nra. }
  assert (C2 : Rabs d2 <= (5 + / 50) * (u * u * q)).
  { eapply Rle_trans; [exact B2|]. replace ((5 + / 50) * (u * u * q)) with
      (u * ((5 + / 50) * u * q)) by ring. apply Rmult_le_compat_l; lra. }
  assert (C3 : Rabs d3 <= 2 * (u * u * q)) by (eapply Rle_trans; [exact B3|]; nra).
  assert (C4 : Rabs d4 <= 2 * (u * u * q)) by (eapply Rle_trans; [exact B4|]; nra).
  lra.
Qed.
