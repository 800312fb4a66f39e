(** A ball arithmetic that satisfies the contract of PolySpec.v over the real numbers: midpoint and
    radius are rationals, [None] is the whole line.  It shows that the contract can be met; the examples
    and counterexamples of Properties_Poly.v run the model on it.  Nothing else depends on it. *)
From Coq Require Import ZArith QArith Qabs Qreals Qminmax List Bool Reals Lia Lra.
From Verif Require Import Base Field FieldInst FPS PolyModel PolySpec PolyProofs.
Import ListNotations.
Open Scope R_scope.
Close Scope Q_scope.

Definition bal : Type := option (Q * Q).
Definition bmem (b : bal) (x : R) : Prop :=
  match b with None => True | Some (m, r) => Rabs (x - Q2R m) <= Rabs (Q2R r) end.

Definition mk (m r : Q) : bal := Some (Qred m, Qred r).
Lemma mk_mem m r x : bmem (mk m r) x <-> Rabs (x - Q2R m) <= Rabs (Q2R r).
Proof. unfold bmem, mk. rewrite !(Qeq_eqR _ _ (Qred_correct _)). reflexivity. Qed.
Lemma Q2R_abs q : Q2R (Qabs q) = Rabs (Q2R q).
Proof.
  apply Qabs_case; intro H; apply Qle_Rle in H; rewrite RMicromega.Q2R_0 in H.
  - now rewrite Rabs_pos_eq.
  - rewrite Q2R_opp. now rewrite Rabs_left1.
Qed.

Definition zero_ : bal := Some (0, 0)%Q.
Definition lift2 (f : Q * Q -> Q * Q -> bal) (b c : bal) : bal :=
  match b, c with Some b, Some c => f b c | _, _ => None end.
Definition badd : bal -> bal -> bal :=
  lift2 (fun b c => mk (fst b + fst c)%Q (Qabs (snd b) + Qabs (snd c))%Q).
Definition bneg (b : bal) : bal := match b with Some (m, r) => Some (- m, r)%Q | None => None end.
Definition bsub (b c : bal) : bal := badd b (bneg c).
Definition bmul : bal -> bal -> bal :=
  lift2 (fun b c => mk (fst b * fst c)%Q
    (Qabs (fst b) * Qabs (snd c) + Qabs (fst c) * Qabs (snd b) + Qabs (snd b) * Qabs (snd c))%Q).
Definition bofZ (k : Z) : bal := Some (inject_Z k, 0)%Q.
Definition binv (b : bal) : bal :=
  match b with
  | None => None
  | Some (m, r) =>
      if Qle_bool (Qabs m) (Qabs r) then None
      else mk (m / (m * m - r * r))%Q (r / (m * m - r * r))%Q
  end.
Definition bmid_ (b : bal) : bal := match b with Some (m, r) => Some (m, 0%Q) | None => None end.
Definition low (b : Q * Q) : Q := (fst b - Qabs (snd b))%Q.
Definition high (b : Q * Q) : Q := (fst b + Qabs (snd b))%Q.
Definition boverlaps (b c : bal) : bool :=
  match b, c with
  | Some b, Some c => Qle_bool (low b) (high c) && Qle_bool (low c) (high b)
  | _, _ => true
  end.
Definition binter (b c : bal) : bal :=
  match b, c with
  | None, c => c
  | b, None => b
  | Some b, Some c =>
      let l := Qmax (low b) (low c) in
      let h := Qmin (high b) (high c) in
      if Qle_bool l h then mk ((l + h) / 2)%Q ((h - l) / 2)%Q else None
  end.
Definition bcontains0 (b : bal) : bool :=
  match b with Some b => Qle_bool (low b) 0 && Qle_bool 0 (high b) | None => true end.
Definition bpositive (b : bal) : bool :=
  match b with Some b => negb (Qle_bool (low b) 0) | None => false end.
Definition bequal1 (b : bal) : bool :=
  match b with Some b => Qeq_bool (fst b) 1 && Qeq_bool (snd b) 0 | None => false end.
Definition blog (b : bal) : bal := if bequal1 b then zero_ else None.

Definition nt (f : list bal) (i : nat) : bal := nth i f zero_.
Fixpoint bsum (h : nat -> bal) (n : nat) : bal :=
  match n with O => zero_ | S n => badd (bsum h n) (h n) end.
Definition tab (n : nat) (h : nat -> bal) : list bal := map h (seq 0 n).
Definition mullow (f g : list bal) (n : Z) : list bal :=
  tab (Z.to_nat n) (fun i => bsum (fun j => bmul (nt f j) (nt g (i - j))) (S i)).
Fixpoint inv_list (x : list bal) (n : nat) : list bal :=
  match n with
  | O => []
  | S n =>
      let y := inv_list x n in
      let i0 := binv (nt x 0) in
      y ++ [match n with
            | O => i0
            | _ => bmul (bneg i0) (bsum (fun j => bmul (nt x (S j)) (nt y (n - S j))) n)
            end]
  end.
Definition add_si (f : list bal) (c : Z) : list bal :=
  match f with [] => [bofZ c] | b :: f => badd b (bofZ c) :: f end.
Definition sub_series (f g : list bal) (n : Z) : list bal :=
  tab (Nat.min (Z.to_nat n) (Nat.max (length f) (length g))) (fun i => bsub (nt f i) (nt g i)).
Definition deriv (f : list bal) : list bal :=
  tab (length f - 1) (fun i => bmul (nt f (S i)) (bofZ (Z.of_nat (S i)))).
Definition integral (f : list bal) : list bal :=
  zero_ :: tab (length f) (fun i => bmul (nt f i) (binv (bofZ (Z.of_nat (S i))))).

Definition balls (pexp : list bal -> Z -> list bal) : arb_poly := {|
  ball := bal; b_zero := zero_; b_add := badd; b_sub := bsub;
  b_mul_si := fun b k => bmul b (bofZ k); b_div_si := fun b k => bmul b (binv (bofZ k));
  b_mid := bmid_; b_overlaps := boverlaps; b_inter := binter; b_contains0 := bcontains0;
  b_positive := bpositive; b_equal1 := bequal1; b_log := blog;
  p_mullow := mullow; p_inv := fun x n => inv_list x (Z.to_nat n);
  p_div := fun f g n => mullow f (inv_list g (Z.to_nat n)) n;
  p_add_si := add_si; p_sub := sub_series; p_deriv := deriv; p_int := integral; p_exp := pexp;
  p_shl := fun f s => match f with [] => [] | _ => repeat zero_ (Z.to_nat s) ++ f end;
  p_trunc := fun f n => firstn (Z.to_nat n) f |}.

(** ** Scalars *)
Lemma zero_mem x : bmem zero_ x <-> x = 0.
Proof.
  unfold bmem, zero_. rewrite RMicromega.Q2R_0, Rabs_R0, Rminus_0_r. split.
  - intro H. pose proof (Rabs_pos x). destruct (Req_dec x 0) as [E|N]; [exact E|].
    apply Rabs_pos_lt in N. lra.
  - intros ->. rewrite Rabs_R0. lra.
Qed.
Lemma badd_ok b c x y : bmem b x -> bmem c y -> bmem (badd b c) (x + y).
Proof.
  destruct b as [[m r]|], c as [[m' r']|]; cbn [badd lift2 fst snd]; try (intros; exact I).
  intros H1 H2. apply mk_mem. cbn [bmem] in H1, H2. rewrite !Q2R_plus, !Q2R_abs.
  rewrite (Rabs_pos_eq (_ + _)) by (apply Rplus_le_le_0_compat; apply Rabs_pos).
  replace (x + y - (Q2R m + Q2R m')) with ((x - Q2R m) + (y - Q2R m')) by ring.
  eapply Rle_trans; [apply Rabs_triang|]. lra.
Qed.
Lemma bneg_ok b x : bmem b x -> bmem (bneg b) (- x).
Proof.
  destruct b as [[m r]|]; cbn; [|auto]. intro H. rewrite Q2R_opp.
  replace (- x - - Q2R m) with (- (x - Q2R m)) by ring. now rewrite Rabs_Ropp.
Qed.
Lemma bsub_ok b c x y : bmem b x -> bmem c y -> bmem (bsub b c) (x - y).
Proof. intros H1 H2. unfold bsub, Rminus. apply badd_ok; [exact H1|now apply bneg_ok]. Qed.
Lemma bmul_ok b c x y : bmem b x -> bmem c y -> bmem (bmul b c) (x * y).
Proof.
  destruct b as [[m r]|], c as [[m' r']|]; cbn [bmul lift2 fst snd]; try (intros; exact I).
  intros H1 H2. apply mk_mem. cbn [bmem] in H1, H2. rewrite !Q2R_plus, !Q2R_mult, !Q2R_abs.
  set (M := Q2R m) in *. set (M' := Q2R m') in *. set (R0 := Q2R r) in *. set (R' := Q2R r') in *.
  pose proof (Rabs_pos M). pose proof (Rabs_pos M'). pose proof (Rabs_pos R0). pose proof (Rabs_pos R').
  assert (0 <= Rabs M * Rabs R') by (apply Rmult_le_pos; auto).
  assert (0 <= Rabs M' * Rabs R0) by (apply Rmult_le_pos; auto).
  assert (0 <= Rabs R0 * Rabs R') by (apply Rmult_le_pos; auto).
  rewrite (Rabs_pos_eq (_ + _)) by lra.
  replace (x * y - M * M') with (M * (y - M') + M' * (x - M) + (x - M) * (y - M')) by ring.
  pose proof (Rabs_pos (x - M)). pose proof (Rabs_pos (y - M')).
  assert (Rabs (M * (y - M')) <= Rabs M * Rabs R') by (rewrite Rabs_mult; apply Rmult_le_compat; lra).
  assert (Rabs (M' * (x - M)) <= Rabs M' * Rabs R0) by (rewrite Rabs_mult; apply Rmult_le_compat; lra).
  assert (Rabs ((x - M) * (y - M')) <= Rabs R0 * Rabs R') by (rewrite Rabs_mult; apply Rmult_le_compat; lra).
  pose proof (Rabs_triang (M * (y - M') + M' * (x - M)) ((x - M) * (y - M'))).
  pose proof (Rabs_triang (M * (y - M')) (M' * (x - M))). lra.
Qed.
Lemma bofZ_ok k : bmem (bofZ k) (IZR k).
Proof.
  unfold bmem, bofZ. rewrite RMicromega.Q2R_0. replace (Q2R (inject_Z k)) with (IZR k).
  - rewrite Rminus_diag_eq by reflexivity. rewrite Rabs_R0. lra.
  - unfold Q2R. cbn. field.
Qed.

Lemma inv_disc m r : Qle_bool (Qabs m) (Qabs r) = false -> Q2R r * Q2R r < Q2R m * Q2R m.
Proof.
  intro H. assert (L : (Qabs r < Qabs m)%Q).
  { apply Qnot_le_lt. intro G. apply Qle_bool_iff in G. congruence. }
  apply Qlt_Rlt in L. rewrite !Q2R_abs in L.
  pose proof (Rabs_pos (Q2R r)). apply Rsqr_lt_abs_1 in L. unfold Rsqr in L. exact L.
Qed.
Lemma Q2R_disc m r : Q2R (m * m - r * r)%Q = Q2R m * Q2R m - Q2R r * Q2R r.
Proof. rewrite Q2R_minus, !Q2R_mult. reflexivity. Qed.
Lemma Q2R_quot a m r : Q2R r * Q2R r < Q2R m * Q2R m ->
  Q2R (a / (m * m - r * r))%Q = Q2R a / (Q2R m * Q2R m - Q2R r * Q2R r).
Proof.
  intro L. rewrite Q2R_div, Q2R_disc; [reflexivity|].
  intro E. apply Qeq_eqR in E. rewrite Q2R_disc, RMicromega.Q2R_0 in E. lra.
Qed.
Lemma binv_ok b x : bmem b x -> x <> 0 -> bmem (binv b) (/ x).
Proof.
  destruct b as [[m r]|]; cbn [binv]; [|intros; exact I].
  destruct (Qle_bool (Qabs m) (Qabs r)) eqn:E; [intros; exact I|].
  intros H Nx. apply mk_mem. cbn [bmem] in H. pose proof (inv_disc m r E) as L.
  rewrite !Q2R_quot by exact L. set (M := Q2R m) in *. set (R0 := Q2R r) in *. clearbody M R0.
  set (D := M * M - R0 * R0) in *. assert (PD : 0 < D) by (subst D; lra).
  assert (S : Rsqr (x - M) <= Rsqr R0) by (apply Rsqr_le_abs_1; exact H).
  apply Rsqr_le_abs_0. 
  replace (/ x - M / D) with ((D - M * x) / (x * D)) by (field; split; lra).
  unfold Rdiv. rewrite !Rsqr_mult, !Rsqr_inv'. rewrite Rsqr_mult.
  assert (Sx : 0 < Rsqr x) by (apply Rlt_0_sqr; exact Nx).
  assert (SD : 0 < Rsqr D) by (apply Rlt_0_sqr; lra).
  assert (Q : Rsqr (D - M * x) <= Rsqr R0 * Rsqr x).
  { assert (Z : Rsqr R0 * Rsqr x - Rsqr (D - M * x) = (Rsqr R0 - Rsqr (x - M)) * D) by (subst D; unfold Rsqr; ring).
    assert (0 <= (Rsqr R0 - Rsqr (x - M)) * D) by (apply Rmult_le_pos; lra). lra. }
  rewrite Rinv_mult. rewrite <- Rmult_assoc.
  apply Rmult_le_compat_r; [left; now apply Rinv_0_lt_compat|].
  apply Rmult_le_reg_r with (Rsqr x); [exact Sx|]. rewrite Rmult_assoc, Rinv_l by lra. lra.
Qed.
Lemma binv_mid b : exists x, bmem (bmid_ (binv b)) x /\ x <> 0.
Proof.
  destruct b as [[m r]|]; cbn [binv]; [|exists 1; split; [exact I|lra]].
  destruct (Qle_bool (Qabs m) (Qabs r)) eqn:E; [exists 1; split; [exact I|lra]|].
  pose proof (inv_disc m r E) as L. exists (Q2R (m / (m * m - r * r))%Q). split.
  - unfold mk. cbn [bmid_ bmem]. rewrite (Qeq_eqR _ _ (Qred_correct _)), Rminus_diag_eq, Rabs_R0 by reflexivity.
    apply Rabs_pos.
  - rewrite Q2R_quot by exact L. unfold Rdiv. apply Rmult_integral_contrapositive. split.
    + intro Z. rewrite Z in L. pose proof (Rle_0_sqr (Q2R r)). unfold Rsqr in *. lra.
    + apply Rinv_neq_0_compat. lra.
Qed.

Lemma ends b x : bmem (Some b) x <-> Q2R (low b) <= x <= Q2R (high b).
Proof.
  destruct b as [m r]. unfold low, high. cbn [bmem fst snd]. rewrite Q2R_minus, Q2R_plus, Q2R_abs.
  set (a := Rabs (Q2R r)). split.
  - intro H. unfold Rabs in H. destruct (Rcase_abs _); lra.
  - intro H. apply Rabs_le. lra.
Qed.
Lemma binter_ok b c x : bmem b x -> bmem c x -> bmem (binter b c) x.
Proof.
  destruct b as [b|], c as [c|]; cbn [binter]; auto. intros H1 H2.
  destruct (Qle_bool _ _); [|exact I]. apply ends in H1, H2. apply mk_mem.
  set (l := Qmax (low b) (low c)). set (h := Qmin (high b) (high c)).
  assert (L : Q2R l <= x).
  { subst l. destruct (Q.max_spec (low b) (low c)) as [[_ ->]|[_ ->]]; lra. }
  assert (H : x <= Q2R h).
  { subst h. destruct (Q.min_spec (high b) (high c)) as [[_ ->]|[_ ->]]; lra. }
  rewrite !Q2R_div by discriminate. rewrite Q2R_plus, Q2R_minus.
  replace (Q2R 2) with 2 by (unfold Q2R; cbn; field).
  rewrite (Rabs_pos_eq ((_ - _) / 2)) by lra. apply Rabs_le. lra.
Qed.
Lemma bpositive_ok b x : bpositive b = true -> bmem b x -> 0 < x.
Proof.
  destruct b as [b|]; cbn [bpositive]; [|discriminate]. intros H M. apply ends in M.
  apply negb_true_iff in H. assert (L : (0 < low b)%Q).
  { apply Qnot_le_lt. intro G. apply Qle_bool_iff in G. congruence. }
  apply Qlt_Rlt in L. rewrite RMicromega.Q2R_0 in L. lra.
Qed.
Lemma bequal1_ok b x : bequal1 b = true -> bmem b x -> x = 1.
Proof.
  destruct b as [[m r]|]; cbn [bequal1 fst snd]; [|discriminate]. intros H M. apply andb_prop in H.
  destruct H as [H1 H2]. apply Qeq_bool_iff in H1, H2. apply Qeq_eqR in H1, H2.
  cbn [bmem] in M. rewrite H1, H2, RMicromega.Q2R_0, RMicromega.Q2R_1, Rabs_R0 in M.
  pose proof (Rabs_pos (x - 1)). destruct (Req_dec (x - 1) 0) as [E|N]; [lra|].
  apply Rabs_pos_lt in N. lra.
Qed.

(** ** Lists *)
Lemma nt_tab n h i : (i < n)%nat -> nt (tab n h) i = h i.
Proof.
  intro H. unfold nt, tab. rewrite nth_indep with (d' := h 0%nat) by (now rewrite map_length, seq_length).
  rewrite map_nth. f_equal. rewrite seq_nth by exact H. reflexivity.
Qed.
Lemma nt_out f i : (length f <= i)%nat -> nt f i = zero_.
Proof. intro H. unfold nt. now apply nth_overflow. Qed.
Lemma tab_len n h : length (tab n h) = n.
Proof. unfold tab. now rewrite map_length, seq_length. Qed.
Lemma bsum_ok h (g : nat -> R) : forall n, (forall j, (j < n)%nat -> bmem (h j) (g j)) ->
  bmem (bsum h n) (sumto (F:=RF) g n).
Proof.
  induction n as [|n IH]; intro H; cbn [bsum sumto].
  - now apply zero_mem.
  - apply badd_ok; [apply IH; intros; apply H; lia|apply H; lia].
Qed.

Notation enc f k a := (forall i, (i < k)%nat -> bmem (nt f i) (a i)).

Lemma mullow_ok f g n k (a b : fps RF) : (k <= Z.to_nat n)%nat -> enc f k a -> enc g k b ->
  enc (mullow f g n) k (fmul a b).
Proof.
  intros Hk Ha Hb i Hi. unfold mullow. rewrite nt_tab by lia. unfold fmul.
  apply (bsum_ok _ (fun j => a j * b (i - j)%nat)). intros j Hj. apply bmul_ok; [apply Ha|apply Hb]; lia.
Qed.

Lemma inv_list_len x : forall n, length (inv_list x n) = n.
Proof. induction n as [|n IH]; [reflexivity|]. cbn [inv_list]. rewrite app_length, IH. cbn. lia. Qed.
Lemma inv_list_ok x (a y : fps RF) k : enc x k a -> a O <> 0 -> eqn k (fmul a y) f1 ->
  forall n, enc (inv_list x n) (Nat.min k n) y.
Proof.
  intros Hx Ha Hy. induction n as [|n IH]; [intros i Hi; lia|].
  intros i Hi. cbn [inv_list]. unfold nt.
  destruct (Nat.eq_dec i n) as [->|N].
  - rewrite app_nth2 by (rewrite inv_list_len; lia). rewrite inv_list_len, Nat.sub_diag. cbn [nth].
    assert (I0 : bmem (binv (nt x 0)) (/ a O)) by (apply binv_ok; [apply Hx; lia|exact Ha]).
    specialize (Hy n ltac:(lia)). unfold fmul in Hy. rewrite sumto_first, Nat.sub_0_r in Hy.
    destruct n as [|n'].
    + cbn [sumto f1 fC] in Hy. change (a O * y O + 0 = 1) in Hy.
      replace (y O) with (/ a O); [exact I0|]. apply Rmult_eq_reg_l with (a O); [|exact Ha].
      rewrite Rinv_r by exact Ha. lra.
    + set (n := S n') in *.
      assert (Sm : bmem (bsum (fun j => bmul (nt x (S j)) (nt (inv_list x n) (n - S j))) n)
                        (sumto (F:=RF) (fun j => a (S j) * y (n - S j)%nat) n)).
      { apply (bsum_ok _ (fun j => a (S j) * y (n - S j)%nat)). intros j Hj.
        apply bmul_ok; [apply Hx; lia|apply IH; lia]. }
      set (s := sumto (F:=RF) (fun j => a (S j) * y (n - S j)%nat) n) in *.
      change (a O * y n + s = 0) in Hy.
      replace (y n) with (- / a O * s).
      * apply bmul_ok; [now apply bneg_ok|exact Sm].
      * apply Rmult_eq_reg_l with (a O); [|exact Ha]. field_simplify; [lra|exact Ha].
  - rewrite app_nth1 by (rewrite inv_list_len; lia). apply IH. lia.
Qed.

Lemma kofnat_R : forall n, kofnat (F:=RF) n = INR n.
Proof. induction n as [|n IH]; [reflexivity|]. rewrite S_INR. cbn [kofnat]. rewrite IH. cbn. ring. Qed.
Lemma kofZ_R z : kofZ (F:=RF) z = IZR z.
Proof.
  destruct z as [|p|p]; cbn [kofZ]; [reflexivity| |]; rewrite kofnat_R, INR_IZR_INZ, positive_nat_Z; reflexivity.
Qed.

Theorem balls_ok pexp : poly_ok RF ln (balls pexp) bmem.
Proof.
  constructor; unfold encl, at_; cbn [ball b_zero b_add b_sub b_mul_si b_div_si b_mid b_overlaps b_inter b_contains0
    b_positive b_equal1 b_log p_mullow p_inv p_div p_add_si p_sub p_deriv p_int p_exp p_shl p_trunc balls].
  - exact zero_mem.
  - intros x H. apply zero_mem. exact H.
  - exact ln_1.
  - exact badd_ok.
  - exact bsub_ok.
  - intros b k x H. rewrite kofZ_R. apply bmul_ok; [exact H|apply bofZ_ok].
  - intros b k x Hk H. rewrite kofZ_R. apply bmul_ok; [exact H|]. apply binv_ok; [apply bofZ_ok|].
    now apply not_0_IZR.
  - intros [[m r]|] x; cbn; [|auto]. rewrite RMicromega.Q2R_0, Rabs_R0. intro H.
    pose proof (Rabs_pos (Q2R r)). lra.
  - intros [[m r]|]; cbn; [|now exists 0]. exists (Q2R m). rewrite Rminus_diag_eq, Rabs_R0 by reflexivity.
    apply Rabs_pos.
  - exact binter_ok.
  - intros b x H M. pose proof (bpositive_ok b x H M). intro E. change (x = 0) in E. lra.
  - exact bequal1_ok.
  - intros b x _ M. unfold blog. destruct (bequal1 b) eqn:E; [|exact I].
    rewrite (bequal1_ok b x E M), ln_1. now apply zero_mem.
  - intros f g n k a b. apply mullow_ok.
  - intros f n k a y Hk Hf Ha Hy i Hi. apply (inv_list_ok f a y k Hf Ha Hy). lia.
  - intros f n Hn. destruct (Z.to_nat n) as [|m] eqn:E; [lia|].
    assert (N0 : nth 0 (inv_list f (S m)) zero_ = binv (nt f 0)).
    { clear. induction m as [|m IH]; [reflexivity|].
      change (inv_list f (S (S m))) with (inv_list f (S m) ++
        [bmul (bneg (binv (nt f 0))) (bsum (fun j => bmul (nt f (S j)) (nt (inv_list f (S m)) (S m - S j))) (S m))]).
      rewrite app_nth1; [exact IH|]. rewrite inv_list_len. lia. }
    rewrite N0. apply binv_mid.
  - intros f g n k a b q Hk Hf Hg Hb Hq i Hi.
    destruct (inv_exists_aux RF k b Hb) as [i0 Hi0].
    assert (G : enc (inv_list g (Z.to_nat n)) k i0).
    { intros j Hj. apply (inv_list_ok g b i0 k Hg Hb Hi0). lia. }
    pose proof (mullow_ok f (inv_list g (Z.to_nat n)) n k a i0 Hk Hf G i Hi) as M.
    assert (E : eqn k (fmul a i0) q).
    { rewrite <- Hq. rewrite (fmul_comm RF b q), <- (fmul_assoc RF q b i0), Hi0, (fmul_comm RF q f1).
      rewrite (fmul_1_l RF q). reflexivity. }
    rewrite <- E by exact Hi. exact M.
  - intros f c k a H [|i] Hi; specialize (H _ Hi); unfold add_si, fadd; destruct f as [|b f]; cbn [nth fC] in *.
    + apply zero_mem in H. rewrite kofZ_R, H. change (bmem (bofZ c) (0 + IZR c)). rewrite Rplus_0_l. apply bofZ_ok.
    + rewrite kofZ_R. apply badd_ok; [exact H|apply bofZ_ok].
    + assert (G : bmem zero_ (a (S i) + 0)) by (rewrite Rplus_0_r; exact H). destruct i; exact G.
    + change (bmem (nth i f zero_) (a (S i) + 0)). rewrite Rplus_0_r. exact H.
  - intros f g n k a b Hk Hf Hg i Hi. specialize (Hf i Hi). specialize (Hg i Hi).
    change (bmem (nt (sub_series f g n) i) (a i - b i)). unfold sub_series.
    destruct (lt_dec i (Nat.max (length f) (length g))) as [L|L].
    + rewrite nt_tab by lia. now apply bsub_ok.
    + rewrite nt_out by (rewrite tab_len; lia). rewrite nth_overflow in Hf, Hg by lia.
      apply zero_mem in Hf, Hg. apply zero_mem. rewrite Hf, Hg. ring.
  - intros f k a H i Hi. specialize (H (S i) ltac:(lia)).
    change (bmem (nt (deriv f) i) (kofnat (F:=RF) (S i) * a (S i))). rewrite kofnat_R, INR_IZR_INZ, Rmult_comm.
    unfold deriv. destruct (lt_dec i (length f - 1)) as [L|L].
    + rewrite nt_tab by exact L. apply bmul_ok; [exact H|apply bofZ_ok].
    + rewrite nt_out by (rewrite tab_len; lia). rewrite nth_overflow in H by lia.
      apply zero_mem in H. apply zero_mem. rewrite H. ring.
  - intros f k a H [|i] Hi; [now apply zero_mem|].
    change (bmem (nt (tab (length f) (fun i => bmul (nt f i) (binv (bofZ (Z.of_nat (S i)))))) i)
                 (a i / kofnat (F:=RF) (S i))).
    specialize (H i ltac:(lia)). rewrite kofnat_R, INR_IZR_INZ.
    assert (N : IZR (Z.of_nat (S i)) <> 0) by (apply not_0_IZR; lia).
    destruct (lt_dec i (length f)) as [L|L].
    + rewrite nt_tab by exact L. apply bmul_ok; [exact H|]. apply binv_ok; [apply bofZ_ok|exact N].
    + rewrite nt_out by (rewrite tab_len; lia). rewrite nth_overflow in H by lia.
      apply zero_mem in H. apply zero_mem. rewrite H. unfold Rdiv. ring.
  - intros f s k a Hs H i Hi. unfold fshift.
    assert (Z0 : forall j m, nth j (repeat zero_ m) zero_ = zero_).
    { intros j m. apply nth_repeat. }
    destruct f as [|b f].
    + destruct (i <? Z.to_nat s)%nat eqn:L; [destruct i; now apply zero_mem|]. apply Nat.ltb_ge in L.
      specialize (H (i - Z.to_nat s)%nat ltac:(lia)).
      destruct i, (_ - _)%nat; exact H.
    + destruct (i <? Z.to_nat s)%nat eqn:L.
      * apply Nat.ltb_lt in L. rewrite app_nth1 by (rewrite repeat_length; exact L). rewrite Z0. now apply zero_mem.
      * apply Nat.ltb_ge in L. rewrite app_nth2 by (rewrite repeat_length; exact L). rewrite repeat_length.
        apply H. lia.
  - intros f n k a Hk H i Hi. rewrite (nth_firstn zero_) by lia. now apply H.
Qed.
