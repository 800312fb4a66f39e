(** Proofs about expansion addition, subtraction and multiplication. *)
From Coq Require Import ZArith List Bool Reals Lia Lra Arith.
From Flocq Require Import Core BinarySingleNaN.
From Verif Require Import Base ExpansionModel ExpansionFloat.
Import ListNotations.
Open Scope R_scope.

(** The exact value of an expansion and the sum of the magnitudes of its components. *)
Definition val (x : list double) : R := fold_right (fun a r => B2R a + r) 0 x.
Definition mags (x : list double) : R := fold_right (fun a r => Rabs (B2R a) + r) 0 x.

Lemma val_app x y : val (x ++ y) = val x + val y.
Proof. induction x as [|a x IH]; cbn [app].
  - change (val []) with 0. ring.
  - change (B2R a + val (x ++ y) = B2R a + val x + val y). rewrite IH. ring. Qed.
Lemma val_cons a x : val (a :: x) = B2R a + val x. Proof. reflexivity. Qed.
Lemma mags_cons a x : mags (a :: x) = Rabs (B2R a) + mags x. Proof. reflexivity. Qed.
Lemma mags_pos x : 0 <= mags x.
Proof. induction x as [|a x IH]; [apply Rle_refl|]. rewrite mags_cons.
  pose proof (Rabs_pos (B2R a)). lra. Qed.
Lemma val_mags x : Rabs (val x) <= mags x.
Proof. induction x as [|a x IH]; [cbn; rewrite Rabs_R0; lra|]. rewrite val_cons, mags_cons.
  pose proof (Rabs_triang (B2R a) (val x)). lra. Qed.
Lemma u_pos : 0 < u. Proof. apply bpow_gt_0. Qed.

(** ** Addition *)

(** One level of the network seen as a stream: running sum and the errors passed on. *)
Fixpoint chain (s : double) (l : list double) : double * list double :=
  match l with
  | [] => (s, [])
  | t :: l =>
      let '(s, e) := two_sum t s in
      let '(r, es) := chain s l in
      (r, e :: es)
  end.

Lemma fold_chain l : forall s st,
  fold_left (fun state t => insert t state) l (s :: st) =
  fst (chain s l) :: fold_left (fun state t => insert t state) (snd (chain s l)) st.
Proof.
  induction l as [|t l IH]; intros s st; [reflexivity|].
  cbn [fold_left chain insert].
  destruct (two_sum t s) as [s' e]. rewrite IH. destruct (chain s' l) as [r es]. reflexivity.
Qed.

Lemma add_state_chain t l : add_state (t :: l) = fst (chain t l) :: add_state (snd (chain t l)).
Proof. unfold add_state. cbn [fold_left insert]. apply fold_chain. Qed.

Lemma chain_len l : forall s, length (snd (chain s l)) = length l.
Proof.
  induction l as [|t l IH]; intro s; [reflexivity|]. cbn [chain].
  destruct (two_sum t s) as [s' e]. specialize (IH s'). destruct (chain s' l). cbn in *. lia.
Qed.

Lemma add_state_len l : length (add_state l) = length l.
Proof.
  remember (length l) as k eqn:E. revert l E.
  induction k as [|k IH]; intros [|t l] E; try discriminate; [reflexivity|].
  rewrite add_state_chain. cbn [length]. f_equal. apply IH. rewrite chain_len. cbn in E. lia.
Qed.

Lemma chain_fin l : forall s, Forall fin (snd (chain s l)) -> fin (fst (chain s l)) ->
  fin s /\ Forall fin l.
Proof.
  induction l as [|t l IH]; intros s H Hr; [split; [exact Hr|constructor]|].
  cbn [chain] in *. destruct (two_sum t s) as [s' e] eqn:E.
  specialize (IH s'). destruct (chain s' l) as [r es]. cbn [fst snd] in *.
  inversion H as [|? ? He Hes]; subst.
  destruct (two_sum_fin t s) as (Ht & Hs & _); [rewrite E; exact He|].
  destruct (IH Hes Hr) as [_ Hl]. auto.
Qed.

Lemma add_state_fin l : Forall fin (add_state l) -> Forall fin l.
Proof.
  remember (length l) as k eqn:E. revert l E.
  induction k as [|k IH]; intros [|t l] E H; try discriminate; [constructor|].
  rewrite add_state_chain in H. inversion H as [|? ? Hr Hs]; subst.
  apply IH in Hs; [|rewrite chain_len; cbn in E; lia].
  destruct (chain_fin _ _ Hs Hr). constructor; assumption.
Qed.

Lemma chain_val l : forall s, Forall fin (snd (chain s l)) ->
  B2R (fst (chain s l)) + val (snd (chain s l)) = B2R s + val l.
Proof.
  induction l as [|t l IH]; intros s H; [reflexivity|].
  cbn [chain] in *. destruct (two_sum t s) as [s' e] eqn:E.
  specialize (IH s'). destruct (chain s' l) as [r es]. cbn [fst snd] in *.
  inversion H as [|? ? He Hes]; subst. specialize (IH Hes).
  destruct (two_sum_exact t s) as [_ X]; [rewrite E; exact He|].
  rewrite E in X. cbn [fst snd] in X. rewrite !val_cons. lra.
Qed.

Lemma add_state_val l : Forall fin (add_state l) -> val (add_state l) = val l.
Proof.
  remember (length l) as k eqn:E. revert l E.
  induction k as [|k IH]; intros [|t l] E H; try discriminate; [reflexivity|].
  rewrite add_state_chain in *. inversion H as [|? ? Hr Hs]; subst.
  assert (L : k = length (snd (chain t l))) by (rewrite chain_len; cbn in E; lia).
  rewrite val_cons, (IH _ L Hs), val_cons.
  apply chain_val, add_state_fin, Hs.
Qed.

(** The errors that leave one level are small. *)
Lemma chain_mags l : forall s, Forall fin (snd (chain s l)) ->
  mags (snd (chain s l)) <= INR (length l) * u * (1 + u) ^ length l * (Rabs (B2R s) + mags l).
Proof.
  pose proof u_pos as U.
  induction l as [|t l IH]; intros s H; [cbn; lra|].
  cbn [chain] in *. destruct (two_sum t s) as [s' e] eqn:E.
  specialize (IH s'). destruct (chain s' l) as [r es]. cbn [fst snd] in *.
  inversion H as [|? ? He Hes]; subst. specialize (IH Hes).
  destruct (two_sum_exact t s) as [X Y]; [rewrite E; exact He|].
  rewrite E in X, Y. cbn [fst snd] in X, Y.
  pose proof (add_err (B2R t) (B2R s) (fmt_B2R _) (fmt_B2R _)) as A.
  rewrite <- X in A. replace (B2R t + B2R s - B2R s') with (B2R e) in A by lra.
  pose proof (Rabs_triang (B2R t) (B2R s)) as T.
  set (a := Rabs (B2R t + B2R s)) in *.
  assert (S1 : Rabs (B2R s') <= (1 + u) * (Rabs (B2R t) + Rabs (B2R s))).
  { replace (B2R s') with ((B2R t + B2R s) + - B2R e) by lra.
    eapply Rle_trans; [apply Rabs_triang|]. rewrite Rabs_Ropp. fold a. nra. }
  rewrite !mags_cons. cbn [length]. rewrite S_INR.
  set (m := length l) in *. set (M := mags l) in *.
  pose proof (mags_pos l) as PM. fold M in PM.
  cbn [pow]. set (p := (1 + u) ^ m) in *.
  assert (P : 1 <= p) by (apply pow_R1_Rle; lra).
  pose proof (pos_INR m) as Pm.
  pose proof (Rabs_pos (B2R t)) as Pt. pose proof (Rabs_pos (B2R s)) as Ps.
  set (tt := Rabs (B2R t)) in *. set (ss := Rabs (B2R s)) in *. set (n := INR m) in *.
  assert (A1 : mags es <= n * u * p * ((1 + u) * (tt + ss) + M)).
  { eapply Rle_trans; [exact IH|]. apply Rmult_le_compat_l; [|lra].
    apply Rmult_le_pos; [apply Rmult_le_pos|]; lra. }
  assert (A2 : n * u * p * ((1 + u) * (tt + ss) + M) <= n * u * ((1 + u) * p) * (ss + (tt + M))).
  { replace (n * u * ((1 + u) * p) * (ss + (tt + M)))
      with (n * u * p * ((1 + u) * (ss + (tt + M)))) by ring.
    apply Rmult_le_compat_l; [apply Rmult_le_pos; [apply Rmult_le_pos|]; lra|]. nra. }
  assert (A3 : u * a <= u * ((1 + u) * p) * (ss + (tt + M))).
  { rewrite Rmult_assoc. apply Rmult_le_compat_l; [lra|].
    assert (1 <= (1 + u) * p) by nra. nra. }
  replace ((n + 1) * u * ((1 + u) * p) * (ss + (tt + M))) with
    (n * u * ((1 + u) * p) * (ss + (tt + M)) + u * ((1 + u) * p) * (ss + (tt + M))) by ring.
  lra.
Qed.

(** The growth factor of the bound for [k] inputs. *)
Definition gain (k : nat) : R := INR k * u * (1 + u) ^ k.
Lemma gain_pos k : 0 <= gain k.
Proof. pose proof u_pos. apply Rmult_le_pos; [apply Rmult_le_pos; [apply pos_INR|lra]|].
  apply pow_le. lra. Qed.
Lemma gain_le j k : (j <= k)%nat -> gain j <= gain k.
Proof.
  intro H. pose proof u_pos. unfold gain.
  apply Rmult_le_compat.
  - apply Rmult_le_pos; [apply pos_INR|lra].
  - apply pow_le; lra.
  - apply Rmult_le_compat_r; [lra|]. apply le_INR, H.
  - apply Rle_pow; [lra|exact H].
Qed.

Lemma skipn_val_le n : forall l k, Forall fin (add_state l) -> (length l <= k)%nat ->
  Rabs (val (skipn n (add_state l))) <= gain k ^ n * mags l.
Proof.
  induction n as [|n IH]; intros l k H L.
  - cbn [skipn pow]. rewrite add_state_val by exact H. rewrite Rmult_1_l. apply val_mags.
  - destruct l as [|t l].
    + cbn. rewrite Rabs_R0. pose proof (gain_pos k) as G.
      assert (0 <= gain k * gain k ^ n) by (apply Rmult_le_pos; [exact G|apply pow_le, G]). lra.
    + rewrite add_state_chain in *. cbn [skipn]. inversion H as [|? ? Hr Hs]; subst.
      eapply Rle_trans; [apply (IH _ k Hs); rewrite chain_len; cbn in L; lia|].
      assert (F : Forall fin (snd (chain t l))) by (apply add_state_fin, Hs).
      pose proof (chain_mags l t F) as C. fold (gain (length l)) in C.
      assert (G : gain (length l) <= gain k) by (apply gain_le; cbn in L; lia).
      pose proof (gain_pos k) as GP.
      cbn [pow]. rewrite mags_cons.
      replace (gain k * gain k ^ n * (Rabs (B2R t) + mags l))
        with (gain k ^ n * (gain k * (Rabs (B2R t) + mags l))) by ring.
      apply Rmult_le_compat_l; [apply pow_le, GP|].
      eapply Rle_trans; [exact C|]. apply Rmult_le_compat_r; [|exact G].
      pose proof (mags_pos l). pose proof (Rabs_pos (B2R t)). lra.
Qed.

Lemma interleave_len x : forall y, length x = length y ->
  length (interleave x y) = (2 * length x)%nat.
Proof. induction x as [|a x IH]; intros [|b y] E; try discriminate; [reflexivity|].
  cbn [interleave length]. injection E as E. rewrite (IH _ E). lia. Qed.
Lemma interleave_val x : forall y, length x = length y ->
  val (interleave x y) = val x + val y.
Proof. induction x as [|a x IH]; intros [|b y] E; try discriminate; [cbn; ring|].
  cbn [interleave]. injection E as E. rewrite !val_cons, (IH _ E). ring. Qed.
Lemma interleave_mags x : forall y, length x = length y ->
  mags (interleave x y) = mags x + mags y.
Proof. induction x as [|a x IH]; intros [|b y] E; try discriminate; [cbn; ring|].
  cbn [interleave]. injection E as E. rewrite !mags_cons, (IH _ E). ring. Qed.

Lemma collange_add_def x y : length x = length y ->
  collange_add x y = Ok (firstn (length x) (add_state (interleave x y))).
Proof.
  intro E. unfold collange_add. rewrite E, Nat.eqb_refl. cbn [slow_assert bind].
  rewrite add_state_len, interleave_len, E, Nat.eqb_refl by exact E. reflexivity.
Qed.

Lemma neg_val y : val (exp_neg y) = - val y.
Proof. unfold exp_neg. induction y as [|b y IH]; [cbn; ring|].
  cbn [map]. rewrite !val_cons, IH, B2R_neg. ring. Qed.
Lemma neg_mags y : mags (exp_neg y) = mags y.
Proof. unfold exp_neg. induction y as [|b y IH]; [reflexivity|].
  cbn [map]. rewrite !mags_cons, IH, B2R_neg, Rabs_Ropp. reflexivity. Qed.
Lemma neg_len y : length (exp_neg y) = length y. Proof. apply map_length. Qed.

(** *** Adding zero *)
Lemma Beq0_dec (a : double) : {B2R a = 0} + {B2R a <> 0}.
Proof. apply Req_EM_T. Qed.
Definition cnt (l : list double) : nat :=
  length (filter (fun a => if Beq0_dec a then false else true) l).
Lemma cnt_cons a l : cnt (a :: l) = ((if Beq0_dec a then 0 else 1) + cnt l)%nat.
Proof. unfold cnt. cbn [filter]. destruct (Beq0_dec a); reflexivity. Qed.
Lemma cnt0 l : cnt l = 0%nat <-> Forall (fun a => B2R a = 0) l.
Proof.
  induction l as [|a l IH]; [split; [constructor|reflexivity]|]. rewrite cnt_cons.
  destruct (Beq0_dec a) as [z|z]; split; intro H.
  - constructor; [exact z|]. apply IH. exact H.
  - inversion H; subst. cbn. apply IH. assumption.
  - discriminate.
  - inversion H; contradiction.
Qed.

Lemma two_sum_z a b : fin (snd (two_sum a b)) -> B2R a = 0 \/ B2R b = 0 ->
  B2R (snd (two_sum a b)) = 0 /\ B2R (fst (two_sum a b)) = B2R a + B2R b.
Proof.
  intros H Z. destruct (two_sum_exact a b H) as [X Y].
  assert (B2R (fst (two_sum a b)) = B2R a + B2R b).
  { rewrite X. destruct Z as [Z|Z]; rewrite Z, ?Rplus_0_l, ?Rplus_0_r; apply rn_id, fmt_B2R. }
  split; [lra|assumption].
Qed.

Lemma chain_cnt l : forall s, Forall fin (snd (chain s l)) ->
  (cnt (snd (chain s l)) <= cnt l)%nat /\
  (B2R s = 0 -> (cnt (snd (chain s l)) <= Nat.pred (cnt l))%nat).
Proof.
  induction l as [|t l IH]; intros s H; [split; auto|].
  cbn [chain] in *. destruct (two_sum t s) as [s' e] eqn:E.
  specialize (IH s'). destruct (chain s' l) as [r es]. cbn [fst snd] in *.
  inversion H as [|? ? He Hes]; subst. destruct (IH Hes) as [I1 I2].
  rewrite !cnt_cons.
  pose proof (two_sum_z t s) as Z. rewrite E in Z. cbn [fst snd] in Z. specialize (Z He).
  destruct (Beq0_dec t) as [zt|nt]; destruct (Beq0_dec e) as [ze|ne].
  - split; [lia|]. intro zs. destruct (Z (or_introl zt)) as [_ Zs].
    assert (B2R s' = 0) by lra. specialize (I2 H0). lia.
  - destruct Z as [Ze _]; [left; exact zt|]. contradiction.
  - split; [lia|]. intro zs. lia.
  - split; [lia|]. intro zs. destruct Z as [Ze _]; [right; exact zs|]. contradiction.
Qed.

Lemma add_state_cnt n : forall l, Forall fin (add_state l) -> (cnt l <= n)%nat ->
  Forall (fun a => B2R a = 0) (skipn n (add_state l)).
Proof.
  induction n as [|n IH]; intros l H C.
  - cbn [skipn]. assert (Z : cnt l = 0%nat) by lia. clear C.
    remember (length l) as k eqn:E. revert l E H Z.
    induction k as [|k IH]; intros [|t l] E H Z; try discriminate; [constructor|].
    rewrite add_state_chain in *. inversion H as [|? ? Hr Hs]; subst.
    rewrite cnt_cons in Z. destruct (Beq0_dec t) as [zt|nt]; [|discriminate].
    assert (F : Forall fin (snd (chain t l))) by (apply add_state_fin, Hs).
    destruct (chain_cnt l t F) as [C1 _].
    assert (Ze : cnt (snd (chain t l)) = 0%nat) by lia.
    constructor; [|apply IH; [rewrite chain_len; cbn in E; lia|exact Hs|exact Ze]].
    pose proof (chain_val l t F) as V.
    assert (V0 : forall m, Forall (fun a => B2R a = 0) m -> val m = 0).
    { induction 1 as [|a m Ha Hm IHm]; [reflexivity|]. rewrite val_cons, Ha, IHm. ring. }
    rewrite (V0 (snd (chain t l))) in V by (apply cnt0, Ze).
    rewrite (V0 l) in V by (apply cnt0; cbn in Z; exact Z). lra.
  - destruct l as [|t l]; [constructor|].
    rewrite add_state_chain in *. cbn [skipn]. inversion H as [|? ? Hr Hs]; subst.
    assert (F : Forall fin (snd (chain t l))) by (apply add_state_fin, Hs).
    apply IH; [exact Hs|]. destruct (chain_cnt l t F) as [C1 C2].
    rewrite cnt_cons in C. destruct (Beq0_dec t) as [zt|nt]; [specialize (C2 zt)|]; lia.
Qed.

Lemma cnt_len l : (cnt l <= length l)%nat.
Proof. induction l as [|a l IH]; [apply Nat.le_refl|]. rewrite cnt_cons. cbn [length].
  destruct (Beq0_dec a); lia. Qed.
Lemma interleave_cnt x : forall y, Forall (fun a => B2R a = 0) y ->
  (cnt (interleave x y) <= length x)%nat.
Proof.
  induction x as [|a x IH]; intros [|b y] H; cbn [interleave]; try (cbn; lia).
  inversion H as [|? ? Hb Hy]; subst. rewrite !cnt_cons. cbn [length]. specialize (IH y Hy).
  destruct (Beq0_dec b); [|contradiction]. destruct (Beq0_dec a); lia.
Qed.
Lemma zeros_val y : Forall (fun a => B2R a = 0) y -> val y = 0.
Proof. induction 1 as [|a m Ha Hm IHm]; [reflexivity|]. rewrite val_cons, Ha, IHm. ring. Qed.

Lemma add_zero x y : length x = length y -> Forall (fun a => B2R a = 0) y ->
  Forall fin (add_state (interleave x y)) ->
  val (firstn (length x) (add_state (interleave x y))) = val x.
Proof.
  intros E Z H. pose proof (add_state_val _ H) as V.
  rewrite <- (firstn_skipn (length x) (add_state (interleave x y))), val_app in V.
  rewrite (zeros_val (skipn (length x) (add_state (interleave x y)))) in V
    by (apply add_state_cnt; [exact H|apply interleave_cnt, Z]).
  rewrite interleave_val, (zeros_val y Z) in V by exact E. lra.
Qed.

(** *** Subtracting an expansion from itself *)
Lemma small_fin_add a b : fin a -> fin b -> Rabs (rn (B2R a + B2R b)) < bpow radix2 emax ->
  fin (dadd a b).
Proof.
  intros Ha Hb L. pose proof (Bplus_correct prec emax _ _ mode_NE a b Ha Hb) as C.
  rewrite fexp_FLT in C. cbn [round_mode] in C. rewrite Rlt_bool_true in C by exact L. apply C.
Qed.
Lemma small_fin_sub a b : fin a -> fin b -> Rabs (rn (B2R a - B2R b)) < bpow radix2 emax ->
  fin (dsub a b).
Proof.
  intros Ha Hb L. pose proof (Bminus_correct prec emax _ _ mode_NE a b Ha Hb) as C.
  rewrite fexp_FLT in C. cbn [round_mode] in C. rewrite Rlt_bool_true in C by exact L. apply C.
Qed.
Lemma B2R_small (a : double) : Rabs (B2R a) < bpow radix2 emax.
Proof. apply abs_B2R_lt_emax. Qed.
Lemma zero_small : Rabs 0 < bpow radix2 emax.
Proof. rewrite Rabs_R0. apply bpow_gt_0. Qed.

Lemma two_sum_easy a b : fin a -> fin b -> B2R b = 0 \/ B2R a = - B2R b ->
  fin (snd (two_sum a b)).
Proof.
  intros Ha Hb Z. cbn [two_sum snd].
  assert (X : fin (dadd a b) /\ (B2R (dadd a b) = B2R a + B2R b)).
  { assert (E : rn (B2R a + B2R b) = B2R a + B2R b).
    { destruct Z as [Z|Z]; rewrite Z; [rewrite Rplus_0_r; apply rn_id, fmt_B2R|].
      replace (- B2R b + B2R b) with 0 by ring. apply rn_0. }
    assert (F : fin (dadd a b)).
    { apply small_fin_add; try assumption. rewrite E.
      destruct Z as [Z|Z]; rewrite Z; [rewrite Rplus_0_r; apply B2R_small|].
      replace (- B2R b + B2R b) with 0 by ring. apply zero_small. }
    split; [exact F|]. rewrite (add_rn _ _ F). exact E. }
  destruct X as [Fx X].
  assert (V : fin (dsub (dadd a b) a) /\ B2R (dsub (dadd a b) a) = B2R b).
  { assert (E : rn (B2R (dadd a b) - B2R a) = B2R b).
    { rewrite X. replace (B2R a + B2R b - B2R a) with (B2R b) by ring. apply rn_id, fmt_B2R. }
    assert (F : fin (dsub (dadd a b) a)).
    { apply small_fin_sub; try assumption. rewrite E. apply B2R_small. }
    split; [exact F|]. rewrite (sub_rn _ _ F). exact E. }
  destruct V as [Fv V]. set (x := dadd a b) in *. set (v := dsub x a) in *.
  assert (W : fin (dsub x v) /\ B2R (dsub x v) = B2R a).
  { assert (E : rn (B2R x - B2R v) = B2R a).
    { rewrite X, V. replace (B2R a + B2R b - B2R b) with (B2R a) by ring. apply rn_id, fmt_B2R. }
    assert (F : fin (dsub x v)).
    { apply small_fin_sub; try assumption. rewrite E. apply B2R_small. }
    split; [exact F|]. rewrite (sub_rn _ _ F). exact E. }
  destruct W as [Fw W]. set (w := dsub x v) in *.
  assert (G : forall c d : double, fin c -> fin d -> B2R c = B2R d ->
            fin (dsub c d) /\ B2R (dsub c d) = 0).
  { intros c d Hc Hd Q. assert (E : rn (B2R c - B2R d) = 0).
    { rewrite Q. replace (B2R d - B2R d) with 0 by ring. apply rn_0. }
    assert (F : fin (dsub c d)).
    { apply small_fin_sub; try assumption. rewrite E. apply zero_small. }
    split; [exact F|]. rewrite (sub_rn _ _ F). exact E. }
  destruct (G a w Ha Fw (eq_sym W)) as [F1 E1]. destruct (G b v Hb Fv (eq_sym V)) as [F2 E2].
  apply small_fin_add; try assumption. rewrite E1, E2, Rplus_0_r, rn_0. apply zero_small.
Qed.

(** A finite zero. *)
Definition fz (a : double) : Prop := fin a /\ B2R a = 0.

Lemma insert_zero t st : fz t -> Forall fz st -> Forall fz (insert t st).
Proof.
  revert t. induction st as [|s st IH]; intros t [Ft Zt] H.
  - constructor; [split; assumption|constructor].
  - inversion H as [|? ? [Fs Zs] Hst]; subst. cbn [insert].
    pose proof (two_sum_easy t s Ft Fs (or_introl Zs)) as F.
    destruct (two_sum_fin _ _ F) as (_ & _ & Fx).
    destruct (two_sum_z t s F (or_introl Zt)) as [E0 E1].
    destruct (two_sum t s) as [s' e]. cbn [fst snd] in *.
    constructor; [split; [exact Fx|lra]|]. apply IH; [split; assumption|exact Hst].
Qed.

Lemma insert_pair a st : fin a -> Forall fz st ->
  Forall fz (insert (dneg a) (insert a st)).
Proof.
  intros Fa H.
  assert (Fn : fin (dneg a)) by (apply fin_neg, Fa).
  assert (K : forall s st, fin s -> B2R s = B2R a -> Forall fz st ->
            Forall fz (insert (dneg a) (s :: st))).
  { clear st H. intros s st Fs Es Hst. cbn [insert].
    assert (Q : B2R (dneg a) = - B2R s) by (rewrite B2R_neg, Es; reflexivity).
    pose proof (two_sum_easy (dneg a) s Fn Fs (or_intror Q)) as F.
    destruct (two_sum_fin _ _ F) as (_ & _ & Fx).
    destruct (two_sum_exact _ _ F) as [X Y].
    assert (Z : B2R (fst (two_sum (dneg a) s)) = 0).
    { rewrite X, Q. replace (- B2R s + B2R s) with 0 by ring. apply rn_0. }
    assert (Z' : B2R (snd (two_sum (dneg a) s)) = 0) by lra.
    destruct (two_sum (dneg a) s) as [s' e]. cbn [fst snd] in *.
    constructor; [split; assumption|]. apply insert_zero; [split; assumption|exact Hst]. }
  destruct st as [|s st].
  - change (insert a []) with [a]. apply K; [exact Fa|reflexivity|constructor].
  - inversion H as [|? ? [Fs Zs] Hst]; subst.
    change (insert a (s :: st)) with (let '(s', t') := two_sum a s in s' :: insert t' st).
    pose proof (two_sum_easy a s Fa Fs (or_introl Zs)) as F.
    destruct (two_sum_fin _ _ F) as (_ & _ & Fx).
    destruct (two_sum_z a s F (or_intror Zs)) as [E0 E1].
    destruct (two_sum a s) as [s' e]. cbn [fst snd] in *.
    apply K; [exact Fx|lra|]. apply insert_zero; [split; assumption|exact Hst].
Qed.

Lemma sub_self x : Forall fin x -> Forall fz (add_state (interleave x (exp_neg x))).
Proof.
  unfold add_state. intro H.
  assert (G : forall st, Forall fz st ->
    Forall fz (fold_left (fun state t => insert t state) (interleave x (exp_neg x)) st)).
  { induction H as [|a x Fa Hx IH]; intros st Hst; [exact Hst|].
    cbn [exp_neg map interleave fold_left]. apply IH. apply insert_pair; assumption. }
  apply G. constructor.
Qed.
