(** The rational balls of PolyInst.v with the further operations of arb_area.cc and an exponential whose
    coefficients are widened by a given amount.  It shows that the contracts can be met; nothing else depends
    on it. *)
From Coq Require Import ZArith QArith Qabs Qreals Qminmax Qpower List Bool Reals Lia Lra.
From Verif Require Import Base Field FieldInst FPS PolyModel PolySpec PolyProofs PolyInst ArbAreaModel ArbAreaSpec ArbExpProofs
  ArbAreaProofs ArbMean ArbSound AreaProofs BottcherMath.
Import ListNotations.
Open Scope R_scope.
Close Scope Q_scope.

Definition wide (w : Q) (b : bal) : bal := match b with Some (m, r) => Some (m, Qabs r + Qabs w)%Q | None => None end.
Lemma wide_ok w b x : bmem b x -> bmem (wide w b) x.
Proof.
  destruct b as [[m r]|]; cbn [wide bmem]; [|auto]. intro H. rewrite Q2R_plus, !Q2R_abs.
  pose proof (Rabs_pos (Q2R r)). pose proof (Rabs_pos (Q2R w)). rewrite (Rabs_pos_eq (_ + _)) by lra. lra.
Qed.

Fixpoint exp_list (w : Q) (x : list bal) (n : nat) : list bal :=
  match n with
  | O => []
  | S n =>
      let y := exp_list w x n in
      y ++ [match n with
            | O => bofZ 1
            | _ => wide w (bmul (binv (bofZ (Z.of_nat n)))
                     (bsum (fun j => bmul (bmul (nt x (S j)) (bofZ (Z.of_nat (S j)))) (nt y (n - S j))) n))
            end]
  end.
Lemma exp_list_len w x : forall n, length (exp_list w x n) = n.
Proof. induction n as [|n IH]; [reflexivity|]. cbn [exp_list]. rewrite app_length, IH. cbn. lia. Qed.
Notation enc f k a := (forall i, (i < k)%nat -> bmem (nt f i) (a i)).
Lemma exp_list_ok w x (a : fps RF) k : enc x k a -> a O = 0 ->
  forall n, enc (exp_list w x n) (Nat.min k n) (fexp a).
Proof.
  intros Hx Ha. induction n as [|n IH]; [intros i Hi; lia|].
  intros i Hi. cbn [exp_list]. unfold nt.
  destruct (Nat.eq_dec i n) as [->|N].
  - rewrite app_nth2 by (rewrite exp_list_len; lia). rewrite exp_list_len, Nat.sub_diag. cbn [nth].
    destruct n as [|n'].
    + rewrite (fexp_coef0 RF a). exact (bofZ_ok 1).
    + set (n := S n') in *. apply wide_ok.
      pose proof (theta_exp RF a Ha n) as T. unfold theta at 1, fmul in T. rewrite sumto_first in T.
      unfold theta at 1 in T. cbn [kofnat] in T.
      set (s := sumto (F:=RF) (fun i => kmul (theta a (S i)) (fexp a (n - S i)%nat)) n) in T.
      assert (Sm : bmem (bsum (fun j => bmul (bmul (nt x (S j)) (bofZ (Z.of_nat (S j)))) (nt (exp_list w x n) (n - S j))) n) s).
      { apply (bsum_ok _ (fun j => (theta a (S j) : R) * (fexp a (n - S j)%nat : R))). intros j Hj.
        apply bmul_ok; [|apply IH; lia].
        unfold theta. rewrite kofnat_R, INR_IZR_INZ.
        change (bmem (bmul (nt x (S j)) (bofZ (Z.of_nat (S j)))) (IZR (Z.of_nat (S j)) * a (S j))%R). rewrite Rmult_comm.
        apply bmul_ok; [apply Hx; lia|apply bofZ_ok]. }
      rewrite kofnat_R, INR_IZR_INZ in T.
      assert (Nn : IZR (Z.of_nat n) <> 0) by (apply not_0_IZR; lia).
      replace (fexp a n : R) with (/ IZR (Z.of_nat n) * s)%R.
      * apply bmul_ok; [|exact Sm]. apply binv_ok; [apply bofZ_ok|exact Nn].
      * assert (T' : (IZR (Z.of_nat n) * fexp a n)%R = s).
        { etransitivity; [exact T|]. change (0 * a O * fexp a (n - 0)%nat + s = s)%R. ring. }
        rewrite <- T'. field. exact Nn.
  - rewrite app_nth1 by (rewrite exp_list_len; lia). apply IH. lia.
Qed.

Definition kballs (w : Q) : arb_poly := balls (fun x n => exp_list w x (Z.to_nat n)).
Definition q2 (e : Z) : Q := Qred (Qpower 2 e).
Definition bscale (e : Z) (b : bal) : bal := bmul (Some (q2 e, 0%Q)) b.
Definition bexp (b : bal) : bal := match b with Some b => if Qeq_bool (fst b) 0 && Qeq_bool (snd b) 0 then bofZ 1 else None | None => None end.
Definition add_series (f g : list bal) (n : Z) : list bal :=
  tab (Nat.min (Z.to_nat n) (Nat.max (length f) (length g))) (fun i => badd (nt f i) (nt g i)).
(** 3 +- 1 holds pi. *)
Definition kmore (w : Q) : arb_more (kballs w) := {|
  b_2exp := (fun b e => bscale e b) : ball (kballs w) -> Z -> ball (kballs w);
  b_neg := bneg : ball (kballs w) -> ball (kballs w);
  b_addmul_si := (fun c b k => badd c (bmul b (bofZ k))) : ball (kballs w) -> ball (kballs w) -> Z -> ball (kballs w);
  b_exp := bexp : ball (kballs w) -> ball (kballs w);
  b_sqr := (fun b => bmul b b) : ball (kballs w) -> ball (kballs w);
  b_mul := bmul : ball (kballs w) -> ball (kballs w) -> ball (kballs w);
  b_pi := Some (10 # 3, 2 # 3)%Q : ball (kballs w);
  b_pm := (fun b => match b with Some (m, r) => Some (0%Q, r) | None => None end) : ball (kballs w) -> ball (kballs w);
  p_add := add_series : list (ball (kballs w)) -> list (ball (kballs w)) -> Z -> list (ball (kballs w));
  p_neg := map bneg : list (ball (kballs w)) -> list (ball (kballs w));
  p_2exp := (fun f e => map (bscale e) f) : list (ball (kballs w)) -> Z -> list (ball (kballs w));
  p_shr := (fun f s => skipn (Z.to_nat s) f) : list (ball (kballs w)) -> Z -> list (ball (kballs w)) |}.

Lemma q2_ok e : Q2R (q2 e) = kpow2 (F:=RF) e.
Proof.
  unfold q2. rewrite (Qeq_eqR _ _ (Qred_correct _)).
  assert (P : forall n, Q2R (Qpower 2 (Z.of_nat n)) = kpow2n (F:=RF) n).
  { induction n as [|n IH]; [change (Q2R 1 = 1); apply RMicromega.Q2R_1|].
    rewrite Nat2Z.inj_succ, <- Z.add_1_r. rewrite (Qeq_eqR _ (Qpower 2 (Z.of_nat n) * 2)%Q).
    - rewrite Q2R_mult, IH. cbn [kpow2n]. replace (Q2R 2) with 2 by (unfold Q2R; cbn; field).
      change (ktwo (F:=RF)) with (1 + 1)%R. change (kpow2n (F:=RF) n * 2 = (1 + 1) * kpow2n (F:=RF) n)%R. ring.
    - rewrite Qpower_plus by discriminate. reflexivity. }
  destruct e as [|p|p].
  - apply RMicromega.Q2R_1.
  - pose proof (P (Pos.to_nat p)) as E. rewrite positive_nat_Z in E. exact E.
  - change (Zneg p) with (- Zpos p)%Z. rewrite (Qeq_eqR _ (/ Qpower 2 (Zpos p))%Q) by (apply Qpower_opp).
    rewrite Q2R_inv by (intro E; apply (Qpower_not_0 2 (Zpos p)); [discriminate|exact E]).
    pose proof (P (Pos.to_nat p)) as E. rewrite positive_nat_Z in E. rewrite E. reflexivity.
Qed.
Lemma bscale_ok e b x : bmem b x -> bmem (bscale e b) (kpow2 (F:=RF) e * x).
Proof.
  intro H. unfold bscale. apply bmul_ok; [|exact H]. cbn [bmem]. rewrite q2_ok, RMicromega.Q2R_0.
  rewrite Rminus_diag_eq by reflexivity. lra.
Qed.
Lemma only0_some m r : (forall x, bmem (Some (m, r)) x -> x = 0) -> Q2R m = 0 /\ Q2R r = 0.
Proof.
  intro H. assert (E1 : Q2R m = 0).
  { apply H. cbn. rewrite Rminus_diag_eq, Rabs_R0 by reflexivity. apply Rabs_pos. }
  split; [exact E1|].
  assert (E2 : Rabs (Q2R r) = 0).
  { apply H. cbn. rewrite E1, Rminus_0_r, Rabs_Rabsolu. lra. }
  destruct (Req_dec (Q2R r) 0) as [E|N]; [exact E|]. apply Rabs_no_R0 in N. lra.
Qed.
Lemma some_only0 m r x : Q2R m = 0 -> Q2R r = 0 -> bmem (Some (m, r)) x -> x = 0.
Proof.
  intros H1 H2 H. cbn in H. rewrite H1, H2, Rabs_R0, Rminus_0_r in H. pose proof (Rabs_pos x).
  destruct (Req_dec x 0) as [E|N]; [exact E|]. apply Rabs_no_R0 in N. lra.
Qed.
Lemma none_only0 : ~ forall x, bmem None x -> x = 0.
Proof. intro H. specialize (H 1 I). lra. Qed.

Lemma bsub_only0 b c : (forall x, bmem b x -> x = 0) -> (forall x, bmem c x -> x = 0) -> forall x, bmem (bsub b c) x -> x = 0.
Proof.
  intros Hb Hc. destruct b as [[m r]|]; [|destruct (none_only0 Hb)]. destruct c as [[m' r']|]; [|destruct (none_only0 Hc)].
  apply only0_some in Hb, Hc. destruct Hb as (E1 & E2), Hc as (E3 & E4). intros x H. unfold bsub in H. cbn [bneg badd lift2 fst snd] in H.
  apply (proj1 (mk_mem _ _ _)) in H. apply (some_only0 (m + - m') (Qabs r + Qabs r')); [| |exact H].
  - rewrite Q2R_plus, Q2R_opp, E1, E3. ring.
  - rewrite Q2R_plus, !Q2R_abs, E2, E4, Rabs_R0. ring.
Qed.
Lemma PI_bounds : Rabs (PI - Q2R (10 # 3)) <= Rabs (Q2R (2 # 3)).
Proof.
  pose proof (Alt_PI_ineq 0) as [H1 H2]. rewrite Alt_PI_eq in H1, H2.
  cbn [Nat.mul Nat.add sum_f_R0] in H1, H2. unfold tg_alt, PI_tg in H1, H2. cbn in H1, H2.
  replace (Q2R (10 # 3)) with (10 / 3) by (unfold Q2R; cbn; field). replace (Q2R (2 # 3)) with (2 / 3) by (unfold Q2R; cbn; field).
  rewrite (Rabs_pos_eq (2 / 3)) by lra. apply Rabs_le. lra.
Qed.

Theorem kmore_ok w : more_ok RF (kballs w) (kmore w) bmem PI.
Proof.
  constructor; unfold encl, only0, at_; cbn [ball b_zero b_sub b_overlaps b_inter p_sub p_trunc p_exp p_shl kballs balls kmore
     b_2exp b_neg b_addmul_si b_exp b_sqr b_mul b_pi p_add p_neg p_2exp p_shr].
  - intros b e x H. now apply bscale_ok.
  - exact bneg_ok.
  - intros c b k x y H1 H2. rewrite kofZ_R. apply badd_ok; [exact H1|]. apply bmul_ok; [exact H2|apply bofZ_ok].
  - intros [[m r]|] H; [|exact I]. unfold bexp. destruct (_ && _); [exact (bofZ_ok 1)|exact I].
  - intros b x H. now apply bmul_ok.
  - exact bmul_ok.
  - exact PI_bounds.
  - intros f g n k a b Hk Hf Hg i Hi. specialize (Hf i Hi). specialize (Hg i Hi).
    change (bmem (nt (add_series f g n) i) (a i + b i)). unfold add_series.
    destruct (lt_dec i (Nat.max (length f) (length g))) as [L|L].
    + rewrite nt_tab by lia. now apply badd_ok.
    + rewrite nt_out by (rewrite tab_len; lia). rewrite nth_overflow in Hf, Hg by lia.
      apply zero_mem in Hf, Hg. apply zero_mem. rewrite Hf, Hg. ring.
  - intros f k a H i Hi. specialize (H i Hi).
    destruct (lt_dec i (length f)) as [L|L].
    + rewrite nth_indep with (d' := bneg zero_) by (rewrite map_length; exact L). rewrite map_nth. now apply bneg_ok.
    + rewrite nth_overflow by (rewrite map_length; lia). rewrite nth_overflow in H by lia. apply zero_mem in H. apply zero_mem.
      unfold fopp. rewrite H. cbn. ring.
  - intros f e k a H i Hi. specialize (H i Hi).
    destruct (lt_dec i (length f)) as [L|L].
    + rewrite nth_indep with (d' := bscale e zero_) by (rewrite map_length; exact L). rewrite map_nth. now apply bscale_ok.
    + rewrite nth_overflow by (rewrite map_length; lia). rewrite nth_overflow in H by lia. apply zero_mem in H. apply zero_mem.
      unfold fscale. rewrite H. cbn. ring.
  - intros f s k a Hs H i Hi. unfold fhigh. specialize (H (Z.to_nat s + i)%nat ltac:(lia)).
    replace (nth i (skipn (Z.to_nat s) f) zero_) with (nth (Z.to_nat s + i) f zero_); [exact H|].
    clear. revert f. induction (Z.to_nat s) as [|n IH]; intros f; [reflexivity|]. destruct f as [|b f]; cbn; [now destruct i|apply IH].
  - intros f. apply map_length.
  - intros f g n. unfold sub_series. rewrite tab_len. lia.
  - intros f n. rewrite firstn_length. lia.
  - intros f n. rewrite exp_list_len. lia.
  - intros f g n Hf Hg. change (forall x, bmem (nt (sub_series f g n) 0) x -> x = 0). unfold sub_series.
    destruct (lt_dec 0 (Nat.min (Z.to_nat n) (Nat.max (length f) (length g)))) as [L|L].
    + rewrite nt_tab by exact L. apply bsub_only0; assumption.
    + rewrite nt_out by (rewrite tab_len; lia). intros x H. now apply zero_mem.
  - intros f s Hs x. destruct f as [|b f]; [intro H; now apply zero_mem|].
    destruct (Z.to_nat s) as [|n] eqn:E; [lia|]. cbn [repeat app nth]. intro H. now apply zero_mem.
  - intros b c Hb HO. destruct b as [[m r]|]; [|destruct (none_only0 Hb)]. destruct c as [c|]; [|exact Hb].
    apply only0_some in Hb. destruct Hb as (E1 & E2). cbn [boverlaps] in HO. apply andb_prop in HO. destruct HO as (O1 & O2).
    apply Qle_bool_iff, Qle_Rle in O1, O2.
    assert (L0 : Q2R (low (m, r)) = 0) by (unfold low; cbn [fst snd]; rewrite Q2R_minus, Q2R_abs, E1, E2, Rabs_R0; ring).
    assert (H0 : Q2R (high (m, r)) = 0) by (unfold high; cbn [fst snd]; rewrite Q2R_plus, Q2R_abs, E1, E2, Rabs_R0; ring).
    rewrite L0 in O1. rewrite H0 in O2. cbn [binter].
    assert (EL : Q2R (Qmax (low (m, r)) (low c)) = 0).
    { destruct (Q.max_spec (low (m, r)) (low c)) as [[Hl E]|[_ E]]; rewrite (Qeq_eqR _ _ E); [|exact L0].
      apply Qlt_Rlt in Hl. rewrite L0 in Hl. lra. }
    assert (EH : Q2R (Qmin (high (m, r)) (high c)) = 0).
    { destruct (Q.min_spec (high (m, r)) (high c)) as [[_ E]|[Hl E]]; rewrite (Qeq_eqR _ _ E); [exact H0|].
      apply Qle_Rle in Hl. rewrite H0 in Hl. lra. }
    assert (LE : Qle_bool (Qmax (low (m, r)) (low c)) (Qmin (high (m, r)) (high c)) = true).
    { apply Qle_bool_iff. apply Rle_Qle. rewrite EL, EH. lra. }
    rewrite LE. intros x Hx. apply (proj1 (mk_mem _ _ _)) in Hx.
    apply (some_only0 ((Qmax (low (m, r)) (low c) + Qmin (high (m, r)) (high c)) / 2)
        ((Qmin (high (m, r)) (high c) - Qmax (low (m, r)) (low c)) / 2)); [| |exact Hx].
    + rewrite Q2R_div, Q2R_plus, EL, EH by discriminate. unfold Rdiv. ring.
    + rewrite Q2R_div, Q2R_minus, EL, EH by discriminate. unfold Rdiv. ring.
Qed.
Theorem kexp_ok w : exp_ok RF (kballs w) bmem.
Proof.
  intros f n k a Hk Hf Ha i Hi. apply (exp_list_ok w f a k Hf Ha). lia.
Qed.
Theorem kconvex : convex bmem.
Proof.
  intros [[m r]|] x y t H1 H2 Ht; [|exact I]. apply ends in H1, H2. apply ends.
  set (l := Q2R (low (m, r))) in *. set (h := Q2R (high (m, r))) in *. clearbody l h. destruct Ht as (T0 & T1).
  pose proof (Rmult_le_pos t (x - l) T0 ltac:(lra)). pose proof (Rmult_le_pos t (h - x) T0 ltac:(lra)).
  pose proof (Rmult_le_pos (1 - t) (y - l) ltac:(lra) ltac:(lra)). pose proof (Rmult_le_pos (1 - t) (h - y) ltac:(lra) ltac:(lra)). nra.
Qed.
Theorem ktests w : tests_ok RF (kballs w) bmem.
Proof.
  split.
  - intros [b|] H; [|reflexivity]. apply ends in H. change (Q2R (low b) <= 0 <= Q2R (high b)) in H.
    cbn. apply andb_true_intro. rewrite !Qle_bool_iff. split; apply Rle_Qle; rewrite RMicromega.Q2R_0; lra.
  - intros [b|] [c|] x H1 H2; try reflexivity. apply ends in H1, H2. cbn.
    apply andb_true_intro. rewrite !Qle_bool_iff. split; apply Rle_Qle; lra.
Qed.

(** ** Balls whose intersections keep the first of the two: the last steps of the refinements then leave the
    enclosure as it was, so that the refined exponential functions enclose. *)
Definition keep (w : Q) : arb_poly := {|
  ball := bal; b_zero := zero_; b_add := badd; b_sub := bsub;
  b_mul_si := fun b k => bmul b (bofZ k); b_div_si := fun b k => bmul b (binv (bofZ k));
  b_mid := bmid_; b_overlaps := boverlaps; b_inter := fun b _ => b; b_contains0 := bcontains0;
  b_positive := bpositive; b_equal1 := bequal1; b_log := blog;
  p_mullow := mullow; p_inv := fun x n => inv_list x (Z.to_nat n);
  p_div := fun f g n => mullow f (inv_list g (Z.to_nat n)) n;
  p_add_si := add_si; p_sub := sub_series; p_deriv := deriv; p_int := integral;
  p_exp := fun x n => exp_list w x (Z.to_nat n);
  p_shl := fun f s => match f with [] => [] | _ => repeat zero_ (Z.to_nat s) ++ f end;
  p_trunc := fun f n => firstn (Z.to_nat n) f |}.
Definition keep_more (w : Q) : arb_more (keep w) := {|
  b_2exp := b_2exp (kmore w) : ball (keep w) -> Z -> ball (keep w);
  b_neg := b_neg (kmore w) : ball (keep w) -> ball (keep w);
  b_addmul_si := b_addmul_si (kmore w) : ball (keep w) -> ball (keep w) -> Z -> ball (keep w);
  b_exp := b_exp (kmore w) : ball (keep w) -> ball (keep w);
  b_sqr := b_sqr (kmore w) : ball (keep w) -> ball (keep w);
  b_mul := b_mul (kmore w) : ball (keep w) -> ball (keep w) -> ball (keep w);
  b_pi := b_pi (kmore w) : ball (keep w);
  b_pm := b_pm (kmore w) : ball (keep w) -> ball (keep w);
  p_add := p_add (kmore w) : list (ball (keep w)) -> list (ball (keep w)) -> Z -> list (ball (keep w));
  p_neg := p_neg (kmore w) : list (ball (keep w)) -> list (ball (keep w));
  p_2exp := p_2exp (kmore w) : list (ball (keep w)) -> Z -> list (ball (keep w));
  p_shr := p_shr (kmore w) : list (ball (keep w)) -> Z -> list (ball (keep w)) |}.
Theorem keep_ok w : poly_ok RF ln (keep w) bmem.
Proof.
  destruct (balls_ok (fun x n => exp_list w x (Z.to_nat n))). constructor; try assumption. intros b c x H _. exact H.
Qed.
Theorem keep_more_ok w : more_ok RF (keep w) (keep_more w) bmem PI.
Proof.
  destruct (kmore_ok w). constructor; try assumption. intros b c H _. exact H.
Qed.
Theorem keep_exp_ok w : exp_ok RF (keep w) bmem.
Proof. exact (kexp_ok w). Qed.
Lemma keep_loop w a b : forall c i r, inter_loop (keep w) a b c i = Ok r -> r = c.
Proof.
  induction c as [|x c IH]; intros i r; cbn [inter_loop]; [congruence|].
  destruct (b_overlaps (keep w) x _); cbn [slow_assert bind]; [|discriminate].
  destruct (inter_loop (keep w) a b c (S i)) as [r'| |] eqn:E; cbn [bind]; try discriminate.
  apply IH in E. subst r'. intro H. injection H as <-. reflexivity.
Qed.
Lemma keep_inter w c b n r : poly_intersect_sub (keep w) c (poly_mid (keep w) c) b n = Ok r -> r = firstn (Z.to_nat n) c.
Proof.
  unfold poly_intersect_sub. destruct (_ <? 0)%Z eqn:E; [discriminate|]. intro H. apply keep_loop in H. rewrite H.
  unfold len in *. unfold poly_mid in *. rewrite map_length in *.
  destruct (Z_le_dec n (Z.of_nat (length c))) as [L|L].
  - f_equal. lia.
  - rewrite !firstn_all2 by lia. reflexivity.
Qed.
Lemma encl_first w c n k (a : fps RF) : (k <= n)%nat -> encl RF (keep w) bmem c k a -> encl RF (keep w) bmem (firstn n c) k a.
Proof.
  intros Hk H. pose proof (ok_trunc RF ln (keep w) bmem (keep_ok w) c (Z.of_nat n) k a) as T.
  cbn [p_trunc keep] in T. rewrite Nat2Z.id in T. now apply T.
Qed.
Theorem keep_exp w : exp_sound RF (keep w) bmem false.
Proof.
  intros x n r k a E Hk Hx Ha. unfold exp_ in E. destruct (n <=? 0)%Z eqn:En; [intros i Hi; lia|].
  unfold poly_exp_refine in E. rewrite En in E. destruct (poly_log_refine _ _ _); cbn [bind] in E; try discriminate.
  apply keep_inter in E. subst r. apply encl_first; [exact Hk|]. apply keep_exp_ok; auto.
Qed.
Lemma keep_expm1 w : expm1_all RF (keep w) bmem (keep_more w) false True.
Proof.
  intros x a s n v Ha Hs Hx. unfold expm1_shift. destruct (n <=? 0)%Z eqn:En; [intros i Hi; lia|].
  replace (Z.abs a =? 1)%Z with true by lia. replace (1 <=? s)%Z with true by lia. cbn [slow_assert bind].
  eapply sat_bind; [apply (expm1_iter_sat RF ln (keep w) bmem (keep_ok w) (keep_more w) PI (keep_more_ok w) false True); eauto; [now left|lia]|].
  cbv beta. intros y _ (Hy & _).
  destruct (expm1_delta _ _ _ _ _ _ _ _ _ _) as [d| |] eqn:Ed; cbn [bind].
  - destruct (poly_intersect_sub _ _ _ _ _) as [r| |] eqn:Er; cbn; [|exact I|].
    + apply keep_inter in Er. subst r. apply encl_first; [lia|exact Hy].
    + exact (intersect_ub (keep w) _ _ _ n ltac:(lia) Er).
  - exact I.
  - pose proof (ArbSound.expm1_delta_fine (keep w) (keep_more w) false x a s (poly_mid (keep w) y) y 0 n) as N. now rewrite Ed in N.
Qed.
Theorem keep_lpe w : lpe_sound RF (keep w) (keep_more w) bmem false.
Proof.
  intros x s n r k a E Hs Hk Hx Ha. apply (encl_le RF (keep w) bmem _ (Z.to_nat n)); [exact Hk|].
  unfold log1p_exp_shift in E. destruct (n <=? 0)%Z eqn:En; [intros i Hi; lia|].
  pose proof (lpe_iter_sat RF ln (keep w) bmem (keep_ok w) (keep_more w) PI (keep_more_ok w) false True (or_introl I) x s n a
    (ArbSound.exp_sound_sat RF (keep w) bmem false (keep_exp w)) (keep_expm1 w) Hs ltac:(lia) Ha Hx) as S.
  destruct (iterate _ _ _ _) as [y| |]; cbn [bind sat] in *; try discriminate.
  destruct S as (Hy & _). destruct (lpe_delta _ _ _ _ _ _ _ _); cbn [bind] in E; try discriminate.
  destruct (exp_ _ _ _ _); cbn [bind] in E; try discriminate.
  apply keep_inter in E. subst r. apply encl_first; [lia|exact Hy].
Qed.
