(** Count invariants for arbitrary sequences of series operations. *)
From Coq Require Import ZArith List Bool Lia.
From Verif Require Import Base Field FPS SeriesModel SeriesSpec SeriesProofs CodeletModel SeriesOps.
From Coq Require Import ZifyBool ZifyNat.
Ltac Zify.zify_post_hook ::= Z.div_mod_to_equations.
Import ListNotations.
Open Scope Z_scope.

Section Inv.
Variable F : Fld.
Notation KK := (K F).
Notation ser := (series F).

Definition lim_ok (x : ser) : Prop := limit x <= 2 ^ 28.
Definition cnt (x : ser) : Prop :=
  0 <= nonzero x /\ nonzero x <= known x /\ nonzero x <= limit x /\ limit x <= 2 ^ 28 /\ known x <= 2 ^ 28.
Definition written (x : ser) : Prop :=
  forall i, Z.of_nat i < nonzero x -> exists v, nth_error (cells x) i = Some (Some v).
Definition good (x : ser) : Prop := cnt x /\ written x.

(** What an operation on destination [y] must give when it succeeds. *)
Definition gives (y : ser) (r : res ser) : Prop :=
  forall y', r = Ok y' -> good y' /\ limit y' = limit y.


Lemma bind_inv : forall (A B : Type) (r : res A) (k : A -> res B) b,
  bind r k = Ok b -> exists a, r = Ok a /\ k a = Ok b.
Proof. intros A B [a| |] k b E; cbn [bind] in E; try discriminate. exists a. auto. Qed.

Lemma assert_inv : forall b u, slow_assert b = Ok u -> b = true.
Proof. intros [] u E; [reflexivity|discriminate]. Qed.

Ltac inv_bind E :=
  let a := fresh "r" in let E1 := fresh "E" in
  apply bind_inv in E; destruct E as (a & E1 & E); cbv beta iota in E.

Lemma write_cells_inv : forall vs (c r : list (option KK)), write_cells F vs c = Ok r ->
  length r = length c /\ (length vs <= length c)%nat /\
  (forall j, (j < length vs)%nat -> exists v, nth_error r j = Some (Some v)) /\
  (forall j, (length vs <= j)%nat -> nth_error r j = nth_error c j).
Proof.
  induction vs as [|v vs IH]; intros c r E; cbn [write_cells] in E.
  - injection E as <-. cbn [length]. repeat split; auto; intros; lia.
  - destruct c as [|c0 c]; [discriminate|]. inv_bind E. injection E as <-.
    destruct (IH _ _ E0) as (L & L2 & W & U). cbn [length]. repeat split; try lia.
    + intros [|j] Hj; cbn [nth_error]; [eauto|]. apply W. lia.
    + intros [|j] Hj; [lia|]. cbn [nth_error]. apply U. lia.
Qed.

Lemma write_cells_mono : forall vs (c r : list (option KK)) j, write_cells F vs c = Ok r ->
  (exists v, nth_error c j = Some (Some v)) -> exists v, nth_error r j = Some (Some v).
Proof.
  intros vs c r j E H. destruct (write_cells_inv _ _ _ E) as (_ & _ & W & U).
  destruct (Nat.lt_ge_cases j (length vs)); [auto|]. rewrite U by lia. exact H.
Qed.

Lemma loop_cells_inv : forall n i body (y r : list (option KK)), loop_cells F n i body y = Ok r ->
  length r = length y /\ (n <= length y)%nat /\
  (forall j, (j < n)%nat -> exists v, nth_error r j = Some (Some v)).
Proof.
  induction n as [|n IH]; intros i body y r E; cbn [loop_cells] in E.
  - injection E as <-. repeat split; intros; lia.
  - destruct y as [|c y]; [discriminate|]. inv_bind E. inv_bind E. injection E as <-.
    destruct (IH _ _ _ _ E1) as (L & L2 & W). cbn [length]. repeat split; try lia.
    intros [|j] Hj; cbn [nth_error]; [eauto|]. apply W. lia.
Qed.

Lemma def_loop_inv : forall n body (y r : list (option KK)), 0 <= n <= 2 ^ 28 ->
  def_loop F n body y = Ok r ->
  length r = length y /\ (forall j, Z.of_nat j < n -> exists v, nth_error r j = Some (Some v)).
Proof.
  intros n body y r Hn E. unfold def_loop in E. destruct (Z.eqb_spec n 0).
  - injection E as <-. split; auto. intros. lia.
  - rewrite to_i32_id in E by lia. destruct (loop_cells_inv _ _ _ _ _ E) as (L & _ & W).
    split; auto. intros. apply W. lia.
Qed.

Lemma def_loop_inv2 : forall n k body (y r : list (option KK)), def_loop F n body y = Ok r ->
  0 <= n -> n <= k -> k <= 2 ^ 28 ->
  length r = length y /\ (forall j, Z.of_nat j < n -> exists v, nth_error r j = Some (Some v)).
Proof. intros n k body y r E H1 H2 H3. eapply def_loop_inv; [|exact E]. lia. Qed.

Lemma set_counts_inv : forall (y : ser) kn nz y', limit y <= 2 ^ 28 -> 0 <= kn <= 2 ^ 28 ->
  - 2 ^ 63 <= nz < 2 ^ 63 -> set_counts F y kn nz = Ok y' ->
  y' = mkS (cells y) kn nz /\ 0 <= nz /\ nz <= kn /\ nz <= limit y.
Proof.
  intros y kn nz y' Hl Hkn Hnz E. unfold set_counts in E. inv_bind E.
  apply assert_inv in E0. injection E as <-. split; auto.
  assert (Hle : 0 <= limit y) by (unfold limit; lia).
  unfold to_u64 in E0.
  rewrite (Z.mod_small (Z.min _ _)) in E0 by lia.
  destruct (Z.lt_ge_cases nz 0).
  - replace nz with (nz + 2 ^ 64 + -1 * 2 ^ 64) in E0 by lia. rewrite Z.mod_add in E0 by lia.
    rewrite Z.mod_small in E0 by lia. lia.
  - rewrite Z.mod_small in E0 by lia. lia.
Qed.

Lemma good_mk : forall (y : ser) c kn nz, limit y <= 2 ^ 28 -> length c = length (cells y) ->
  0 <= nz -> nz <= kn -> kn <= 2 ^ 28 -> nz <= limit y ->
  (forall j, Z.of_nat j < nz -> exists v, nth_error c j = Some (Some v)) ->
  good (mkS c kn nz) /\ limit (mkS c kn nz) = limit y.
Proof.
  intros y c kn nz H1 H2 H3 H4 H5 H6 H7. unfold good, cnt, written, limit in *. cbn [cells known nonzero].
  rewrite H2. repeat split; auto; lia.
Qed.

Lemma cnt_lim : forall x, cnt x -> lim_ok x.
Proof. unfold cnt, lim_ok. tauto. Qed.

Lemma limit_nonneg : forall x : ser, 0 <= limit x.
Proof. intros. unfold limit. lia. Qed.

Lemma scalar_gives : forall y kn a, lim_ok y -> kn <= 2 ^ 28 -> gives y (set_scalar F y kn a).
Proof.
  intros y kn a Hl Hkn y' E. unfold set_scalar in E. inv_bind E. apply assert_inv in E0.
  unfold lim_ok, relu in *. pose proof (limit_nonneg y).
  destruct (Z.eqb_spec (Z.max kn 0) 0).
  - injection E as <-. apply good_mk; try lia.
  - inv_bind E. injection E as <-. destruct (write_cells_inv _ _ _ E1) as (L & L2 & W & _).
    cbn [length] in *.
    destruct (Z.ltb_spec 0 (Z.max kn 0)); [|lia].
    apply good_mk; try lia. intros j Hj. apply W. lia.
Qed.

Lemma read_cells_length : forall n (c : list (option KK)) vs, read_cells F n c = Ok vs -> length vs = n.
Proof.
  induction n as [|n IH]; intros c vs E; cbn [read_cells] in E.
  - injection E as <-. reflexivity.
  - destruct c as [|[v|] c]; try discriminate. inv_bind E. injection E as <-. cbn [length]. f_equal. eauto.
Qed.

Lemma assign_gives : forall y g, lim_ok y -> cnt g -> gives y (assign F y g).
Proof.
  intros y g Hl Hg y' E. unfold assign in E. inv_bind E. apply assert_inv in E0. inv_bind E. inv_bind E.
  injection E as <-. apply read_cells_length in E1.
  destruct (write_cells_inv _ _ _ E2) as (L & L2 & W & _). unfold cnt, lim_ok in *.
  apply good_mk; try lia. intros j Hj. apply W. lia.
Qed.

Lemma set_known_cnt : forall y kn y', cnt y -> kn <= 2 ^ 28 -> set_known F y kn = Ok y' ->
  cnt y' /\ limit y' = limit y.
Proof.
  intros y kn y' Hc Hkn E. unfold set_known in E. inv_bind E. apply assert_inv in E0. injection E as <-.
  unfold cnt, limit in *. cbn [cells known nonzero]. lia.
Qed.
Lemma set_known_good : forall y kn, good y -> kn <= 2 ^ 28 -> gives y (set_known F y kn).
Proof.
  intros y kn (Hc & Hw) Hkn y' E. destruct (set_known_cnt _ _ _ Hc Hkn E) as (C & L).
  split; auto. split; auto. unfold set_known in E. inv_bind E. injection E as <-.
  intros i Hi. cbn [cells nonzero] in *. apply Hw. lia.
Qed.
Lemma reduce_known_cnt : forall y kn y', cnt y -> reduce_known F y kn = Ok y' ->
  cnt y' /\ limit y' = limit y.
Proof. intros y kn y' Hc E. eapply set_known_cnt; [exact Hc| |exact E]. unfold cnt in Hc. lia. Qed.
Lemma reduce_known_good : forall y kn, good y -> gives y (reduce_known F y kn).
Proof. intros y kn Hg. apply set_known_good; auto. destruct Hg as (Hc & _). unfold cnt in Hc. lia. Qed.

Lemma slice_len : forall a b (c : list (option KK)), (a + b <= length c)%nat ->
  length (firstn b (skipn a c)) = b.
Proof. intros. rewrite firstn_length, skipn_length. lia. Qed.

Lemma low_cnt : forall x n, cnt x -> cnt (low F x n).
Proof.
  intros x n H. unfold cnt, limit, low, relu in *. cbn [cells known nonzero].
  destruct (Z.eqb_spec (Z.min (Z.min (Z.max n 0) (known x)) (nonzero x)) 0); cbn [length];
    rewrite ?firstn_length; lia.
Qed.
Lemma high_cnt : forall x n, cnt x -> cnt (high F x n).
Proof.
  intros x n H. unfold cnt, limit, high, relu in *. cbn [cells known nonzero].
  destruct (Z.eqb_spec (Z.max (nonzero x - Z.max n 0) 0) 0); cbn [length];
    rewrite ?firstn_length, ?skipn_length; lia.
Qed.
Lemma view_cnt : forall x, cnt x -> cnt (view F x).
Proof.
  intros x H. unfold cnt, limit, view in *. cbn [cells known nonzero]. rewrite firstn_length. lia.
Qed.

Lemma add_scalar_gives : forall y a, good y -> gives y (add_scalar F y a).
Proof.
  intros y a (Hc & Hw) y' E. unfold add_scalar in E. inv_bind E. inv_bind E. inv_bind E. injection E as <-.
  destruct (write_cells_inv _ _ _ E2) as (L & L2 & W & _). unfold cnt in *.
  apply good_mk; try lia. intros j Hj. eapply write_cells_mono; [exact E2|]. apply Hw. exact Hj.
Qed.
Lemma add_scalar_cnt : forall y a y', cnt y -> add_scalar F y a = Ok y' -> cnt y' /\ limit y' = limit y.
Proof.
  intros y a y' Hc E. unfold add_scalar in E. inv_bind E. inv_bind E. inv_bind E. injection E as <-.
  destruct (write_cells_inv _ _ _ E2) as (L & L2 & W & _). unfold cnt, limit in *. cbn [cells known nonzero]. lia.
Qed.

Lemma high_gives : forall y sign b s x, cnt y -> cnt x -> 0 <= s -> gives y (high_addsub_ldexp F y sign b s x).
Proof.
  intros y sign b s x Hy Hx Hs y' E. unfold high_addsub_ldexp in E.
  set (nk := Z.min (known y) (known x + s)) in *.
  set (nz := Z.min nk (Z.max (nonzero y) (if nonzero x =? 0 then 0 else nonzero x + s))) in *.
  assert (H : 0 <= nz <= nk /\ nk <= 2 ^ 28).
  { unfold cnt in *. unfold nz, nk. destruct (Z.eqb_spec (nonzero x) 0); lia. }
  inv_bind E. inv_bind E. destruct (def_loop_inv nz _ _ _ ltac:(lia) E1) as (L & W).
  unfold cnt in *.
  apply set_counts_inv in E; unfold limit in *; cbn [cells] in *; try lia.
  destruct E as (-> & E2 & E3 & E4). apply good_mk; unfold limit; try lia. exact W.
Qed.

Lemma map_gives : forall f y x, lim_ok y -> cnt x -> gives y (map_loop F f y x).
Proof.
  intros f y x Hy Hx y' E. unfold map_loop, lim_ok, cnt in *. inv_bind E. inv_bind E. injection E as <-.
  apply set_counts_inv in E0; try lia. destruct E0 as (-> & A & B & C). cbn [cells known nonzero] in *.
  destruct (def_loop_inv (nonzero x) _ _ _ ltac:(lia) E1) as (L & W). apply good_mk; try lia. exact W.
Qed.

Lemma sub2exp_gives : forall z a x b y, lim_ok z -> cnt x -> cnt y -> gives z (set_sub_si_2exp F z a x b y).
Proof.
  intros z a x b y Hz Hx Hy z' E. unfold set_sub_si_2exp, lim_ok, cnt in *. inv_bind E. inv_bind E. injection E as <-.
  apply set_counts_inv in E0; try lia. destruct E0 as (-> & A & B & C). cbn [cells known nonzero] in *.
  destruct (def_loop_inv2 _ _ _ _ _ E1 A B ltac:(lia)) as (L & W).
  apply good_mk; try lia. exact W.
Qed.

(** ** Stores *)
Lemma put_length : forall (st : list ser) i x, length (put F st i x) = length st.
Proof. induction st as [|y st IH]; intros [|i] x; cbn [put length]; auto. Qed.
Lemma put_same : forall (st : list ser) i x, (i < length st)%nat -> nth_error (put F st i x) i = Some x.
Proof. induction st as [|y st IH]; intros [|i] x H; cbn [length put nth_error] in *; try lia; auto. apply IH. lia. Qed.
Lemma put_other : forall (st : list ser) i j x, i <> j -> nth_error (put F st i x) j = nth_error st j.
Proof.
  induction st as [|y st IH]; intros [|i] [|j] x H; cbn [put nth_error]; auto; try lia.
Qed.
Lemma put_all : forall (P : ser -> Prop) st i x, Forall P st -> P x -> Forall P (put F st i x).
Proof.
  intros P. induction st as [|y st IH]; intros [|i] x Hs Hx; cbn [put]; auto; inversion Hs; subst; constructor; auto.
Qed.
Lemma get_all : forall (P : ser -> Prop) st i x, Forall P st -> get F st i = Ok x -> P x.
Proof.
  intros P st i x Hs E. unfold get in E. destruct (nth_error st i) eqn:En; [|discriminate].
  injection E as <-. rewrite Forall_forall in Hs. apply Hs. eapply nth_error_In; eauto.
Qed.
Variable kern : kernel F.
Hypothesis Hk1 : forall nz xs ys p, k_mul kern nz xs ys = Ok p -> length p = nz.
Hypothesis Hk2 : forall nz xs ys p, k_addmul kern nz xs ys = Ok p -> length p = nz.
Hypothesis Hk3 : forall nz xs p, k_sqr kern nz xs = Ok p -> length p = nz.

Lemma mul_gives : forall z x y, lim_ok z -> cnt x -> cnt y -> gives z (set_mul F kern z x y).
Proof.
  intros z x y Hz Hx Hy z' E. unfold set_mul, lim_ok, cnt, relu in *.
  inv_bind E. inv_bind E. inv_bind E. inv_bind E. inv_bind E. injection E as <-.
  apply set_counts_inv in E0; try lia. destruct E0 as (-> & A & B & C). cbn [cells known nonzero] in *.
  apply Hk1 in E3. destruct (write_cells_inv _ _ _ E4) as (L & L2 & W & _).
  apply good_mk; try lia. intros j Hj. apply W. lia.
Qed.

Lemma sqr_gives : forall y x, lim_ok y -> cnt x -> gives y (set_sqr F kern y x).
Proof.
  intros y x Hz Hx z' E. unfold set_sqr, lim_ok, cnt, relu in *.
  set (nz := Z.min (known x) _) in *. assert (Hn : - 2 ^ 63 <= nz < 2 ^ 63) by (unfold nz; lia). clearbody nz.
  inv_bind E. inv_bind E. inv_bind E. inv_bind E. injection E as <-.
  apply set_counts_inv in E0; try lia. destruct E0 as (-> & A & B & C). cbn [cells known nonzero] in *.
  apply Hk3 in E2. destruct (write_cells_inv _ _ _ E3) as (L & L2 & W & _).
  apply good_mk; try lia. intros j Hj. apply W. lia.
Qed.

Lemma mul1p_gives : forall z x y s, lim_ok z -> cnt x -> cnt y -> gives z (set_mul1p F kern z x y s).
Proof.
  intros z x y s Hz Hx Hy z' E. unfold set_mul1p, lim_ok, cnt in *.
  inv_bind E. apply assert_inv in E0. inv_bind E. inv_bind E. inv_bind E. inv_bind E. inv_bind E. inv_bind E. inv_bind E.
  injection E as <-.
  destruct (Z.lt_ge_cases s (2 ^ 62)) as [Hs|Hs].
  2:{ (* a huge shift: nz is then bounded by nk *)
      assert (Hb : - 2 ^ 63 <= Z.min (Z.min (known x) (known y + s)) (nonzero x + nonzero y + s - 1) < 2 ^ 63) by lia.
      apply set_counts_inv in E1; try lia. destruct E1 as (-> & A & B & C). cbn [cells known nonzero] in *.
      destruct (def_loop_inv2 _ _ _ _ _ E5 A B ltac:(lia)) as (L & W).
      destruct (write_cells_inv _ _ _ E7) as (L1 & L2 & _).
      rewrite skipn_length in L1.
      apply good_mk; try lia.
      - rewrite app_length, firstn_length. lia.
      - intros j Hj. destruct (Nat.lt_ge_cases j (Z.to_nat s)).
        + rewrite nth_error_app1 by (rewrite firstn_length; unfold limit in C; lia).
          rewrite nth_error_firstn by lia. auto.
        + lia. }
  apply set_counts_inv in E1; try lia. destruct E1 as (-> & A & B & C). cbn [cells known nonzero] in *.
  destruct (def_loop_inv2 _ _ _ _ _ E5 A B ltac:(lia)) as (L & W).
  destruct (write_cells_inv _ _ _ E7) as (L1 & L2 & _).
  rewrite skipn_length in L1.
  apply good_mk; try lia.
  - rewrite app_length, firstn_length. lia.
  - intros j Hj. unfold limit in C. destruct (Nat.lt_ge_cases j (Z.to_nat s)).
    + rewrite nth_error_app1 by (rewrite firstn_length; lia).
      rewrite nth_error_firstn by lia. auto.
    + rewrite nth_error_app2 by (rewrite firstn_length; lia).
      rewrite firstn_length, (Nat.min_l (Z.to_nat s)) by lia.
      eapply write_cells_mono; [exact E7|]. rewrite nth_error_skipn.
      replace (Z.to_nat s + (j - Z.to_nat s))%nat with j by lia. auto.
Qed.

Lemma deriv_gives : forall y x s, lim_ok y -> cnt x -> gives y (set_derivative_shift F y x s).
Proof. intros. apply map_gives; auto. Qed.
Lemma integ_gives : forall y x s, lim_ok y -> cnt x -> gives y (set_integral_shift F y x s).
Proof. intros. apply map_gives; auto. Qed.

(** ** Composite functions *)
Variable base : bases F.
Hypothesis Hb1 : forall y x, lim_ok y -> cnt x -> gives y (inv_base base y x).
Hypothesis Hb2 : forall y x, lim_ok y -> cnt x -> gives y (exp_base base y x).

Lemma gives_lim : forall y r y', gives y r -> lim_ok y -> r = Ok y' -> good y' /\ cnt y' /\ lim_ok y' /\ limit y' = limit y.
Proof.
  intros y r y' G H E. destruct (G _ E) as (A & B). repeat split; auto; try apply A.
Qed.

Lemma new_cnt : forall n, n <= 2 ^ 28 -> cnt (new_series (F:=F) n) /\ lim_ok (new_series (F:=F) n) /\ good (new_series (F:=F) n).
Proof.
  intros n Hn. assert (H : cnt (new_series (F:=F) n)).
  { unfold cnt, limit, new_series, relu. cbn [cells known nonzero]. rewrite repeat_length. lia. }
  repeat split; try apply H. intros i Hi. cbn [new_series nonzero] in Hi. lia.
Qed.

Lemma unknown_gives : forall y : ser, lim_ok y -> good (set_unknown F y) /\ limit (set_unknown F y) = limit y.
Proof.
  intros y H. unfold set_unknown. apply good_mk; unfold lim_ok in H; pose proof (limit_nonneg y); try lia.
Qed.

Lemma newton_loop_inv : forall (A : Type) (I : A -> Prop) n step,
  (forall m0 m r st st', 0 <= m0 -> 0 <= m <= n -> I st -> step m0 m r st = Ok st' -> I st') -> 0 < n ->
  forall cnt n0 st st', 0 <= n0 -> I st -> newton_loop step n cnt n0 st = Ok st' -> I st'.
Proof.
  intros A I n step Hs Hn. induction cnt0 as [|c IH]; intros n0 st st' Hn0 HI E; cbn [newton_loop] in E.
  - injection E as <-. exact HI.
  - inv_bind E.
    set (m := Z.shiftr _ _) in E0.
    assert (Hm : 0 <= m <= n).
    { assert (Hk : 0 <= Z.shiftr (Z.of_nat c) 1) by (apply Z.shiftr_nonneg; lia).
      unfold m. set (k := Z.shiftr (Z.of_nat c) 1) in *.
      rewrite Z.shiftr_div_pow2, Z.shiftl_1_l by lia.
      assert (0 < 2 ^ k) by (apply Z.pow_pos_nonneg; lia).
      split; [apply Z.div_pos; lia|].
      apply Z.div_le_upper_bound; [lia|]. nia. }
    apply (Hs _ _ _ _ _ Hn0 Hm HI) in E0. fold m in E.
    eapply IH; [|exact E0|exact E]. destruct (negb _); lia.
Qed.

Lemma newton_inv : forall (A : Type) (I : A -> Prop) n0 n step st st',
  (forall m0 m r st st', 0 <= m0 -> 0 <= m <= n -> I st -> step m0 m r st = Ok st' -> I st') ->
  I st -> newton_iterate n0 n step st = Ok st' -> I st'.
Proof.
  intros A I n0 n step st st' Hs HI E. unfold newton_iterate in E.
  destruct (Z.leb_spec n n0); [injection E as <-; exact HI|].
  inv_bind E. apply assert_inv in E0. inv_bind E. eapply newton_loop_inv; eauto; lia.
Qed.

Definition pair_inv (ylim : Z) (st : ser * ser) : Prop :=
  good (fst st) /\ limit (fst st) = ylim /\ lim_ok (snd st).

Lemma good_lim : forall y, good y -> lim_ok y.
Proof. intros y (H & _). apply cnt_lim; auto. Qed.
Hint Resolve good_lim cnt_lim low_cnt high_cnt view_cnt : core.
Lemma good_cnt : forall y, good y -> cnt y.
Proof. intros y (H & _). auto. Qed.
Hint Resolve good_cnt : core.


Tactic Notation "use" constr(G) "in" hyp(E) "as" ident(g) ident(c) ident(l) ident(q) :=
  apply (gives_lim _ _ _ G) in E; [|solve [auto]]; destruct E as (g & c & l & q).

Lemma inv_step_inv : forall x ylim m0 m r st st', cnt x -> 0 <= m0 -> 0 <= m <= known x -> pair_inv ylim st ->
  inv_step F kern x m0 m r st = Ok st' -> pair_inv ylim st'.
Proof.
  intros x ylim m0 m r [y dy] st' Hx Hm0 Hm (Gy & Ly & Ldy) E. cbn [fst snd] in *. unfold inv_step in E.
  assert (m <= 2 ^ 28) by (unfold cnt in Hx; lia).
  inv_bind E. use (set_known_good _ _ Gy H) in E0 as G1 C1 L1 Q1.
  inv_bind E. use (mul_gives _ _ _ Ldy Hx C1) in E0 as G2 C2 L2 Q2.
  inv_bind E. use (add_scalar_gives _ (kofZ (- (1))) G2) in E0 as G3 C3 L3 Q3.
  inv_bind E. use (mul_gives _ _ _ L3 C3 C1) in E0 as G4 C4 L4 Q4.
  inv_bind E. use (high_gives _ (-1) 0 m0 _ C1 (high_cnt _ m0 C4) Hm0) in E0 as G5 C5 L5 Q5.
  injection E as <-. unfold pair_inv. cbn [fst snd]. repeat split; auto; try apply G5. congruence.
Qed.

Lemma inv_gives : forall y x, lim_ok y -> cnt x -> gives y (set_inv F kern base y x).
Proof.
  intros y x Hy Hx y' E. unfold set_inv in E. destruct (known x =? 0).
  - injection E as <-. apply unknown_gives; auto.
  - inv_bind E. inv_bind E. use (Hb1 _ _ Hy Hx) in E1 as G1 C1 L1 Q1.
    inv_bind E. injection E as <-.
    apply (newton_inv _ (pair_inv (limit y))) in E1.
    + destruct E1 as (A & B & _). auto.
    + intros. eapply (inv_step_inv x); eauto.
    + unfold pair_inv. cbn [fst snd]. repeat split; auto; try apply G1. apply new_cnt. unfold cnt in Hx; lia.
Qed.

Lemma inv1p_step_inv : forall x s ylim m0 m r st st', cnt x -> 0 <= m0 -> 0 <= m <= known x -> pair_inv ylim st ->
  inv1p_step F kern x s m0 m r st = Ok st' -> pair_inv ylim st'.
Proof.
  intros x s ylim m0 m r [y dy] st' Hx Hm0 Hm (Gy & Ly & Ldy) E. cbn [fst snd] in *. unfold inv1p_step in E.
  assert (m <= 2 ^ 28) by (unfold cnt in Hx; lia).
  inv_bind E. use (set_known_good _ _ Gy H) in E0 as G1 C1 L1 Q1.
  inv_bind E. use (mul1p_gives _ _ _ s Ldy Hx C1) in E0 as G2 C2 L2 Q2.
  inv_bind E. use (high_gives _ 1 0 0 _ C2 C1 (Z.le_refl _)) in E0 as G3 C3 L3 Q3.
  inv_bind E. use (mul1p_gives _ _ _ s L3 C3 C1) in E0 as G4 C4 L4 Q4.
  inv_bind E. use (high_gives _ (-1) 0 m0 _ C1 (high_cnt _ m0 C4) Hm0) in E0 as G5 C5 L5 Q5.
  injection E as <-. unfold pair_inv. cbn [fst snd]. repeat split; auto; try apply G5. congruence.
Qed.

Lemma inv1p_gives : forall y x s, lim_ok y -> cnt x -> gives y (set_inv1p F kern y x s).
Proof.
  intros y x s Hy Hx y' E. unfold set_inv1p in E. destruct (known x =? 0).
  - injection E as <-. apply unknown_gives; auto.
  - inv_bind E. inv_bind E. use (map_gives (fun _ v => kopp v) _ _ Hy (low_cnt _ s Hx)) in E1 as G1 C1 L1 Q1.
    inv_bind E. injection E as <-.
    apply (newton_inv _ (pair_inv (limit y))) in E1.
    + destruct E1 as (A & B & _). auto.
    + intros. eapply (inv1p_step_inv x s); eauto.
    + unfold pair_inv. cbn [fst snd]. repeat split; auto; try apply G1. apply new_cnt. unfold cnt in Hx; lia.
Qed.

Lemma div_gives : forall y a b, lim_ok y -> cnt a -> cnt b -> gives y (set_div F kern base y a b).
Proof.
  intros y a b Hy Ha Hb y' E. unfold set_div in E.
  destruct (new_cnt (Z.min (known a) (known b)) ltac:(unfold cnt in Ha; lia)) as (NC & NL & _).
  inv_bind E. use (inv_gives _ _ NL (low_cnt _ (Z.min (known a) (known b)) Hb)) in E0 as G1 C1 L1 Q1.
  inv_bind E. use (mul_gives _ _ _ Hy Ha C1) in E0 as G2 C2 L2 Q2.
  inv_bind E. use (mul_gives _ _ _ NL Hb C2) in E0 as G3 C3 L3 Q3.
  inv_bind E. use (high_gives _ (-1) 0 0 _ C3 Ha (Z.le_refl _)) in E0 as G4 C4 L4 Q4.
  inv_bind E. use (mul_gives _ _ _ L4 C4 C1) in E0 as G5 C5 L5 Q5.
  use (high_gives _ (-1) 0 0 _ C2 C5 (Z.le_refl _)) in E as G6 C6 L6 Q6.
  split; auto. congruence.
Qed.

Lemma div1p_gives : forall y a b s, lim_ok y -> cnt a -> cnt b -> gives y (set_div1p F kern y a b s).
Proof.
  intros y a b s Hy Ha Hb y' E. unfold set_div1p in E. inv_bind E. apply assert_inv in E0.
  set (n := Z.min (known a) (known b + s)) in *. assert (n <= 2 ^ 28) by (unfold n, cnt in *; lia).
  destruct (new_cnt (n - s) ltac:(lia)) as (NC & NL & _).
  destruct (new_cnt n ltac:(lia)) as (NC' & NL' & _).
  inv_bind E. use (inv1p_gives _ _ s NL (low_cnt _ (n - s) Hb)) in E1 as G1 C1 L1 Q1.
  inv_bind E. use (mul1p_gives _ _ _ s Hy Ha C1) in E1 as G2 C2 L2 Q2.
  inv_bind E. use (mul1p_gives _ _ _ s NL' C2 Hb) in E1 as G3 C3 L3 Q3.
  inv_bind E. use (high_gives _ (-1) 0 0 _ C3 Ha (Z.le_refl _)) in E1 as G4 C4 L4 Q4.
  inv_bind E. use (mul1p_gives _ _ _ s L4 C4 C1) in E1 as G5 C5 L5 Q5.
  use (high_gives _ (-1) 0 0 _ C2 C5 (Z.le_refl _)) in E as G6 C6 L6 Q6.
  split; auto. congruence.
Qed.

Lemma log_gives : forall c y x, lim_ok y -> cnt x -> gives y (set_log_gen F kern base c y x).
Proof.
  intros c y x Hy Hx y' E. unfold set_log_gen in E. destruct (known x =? 0).
  - injection E as <-. apply unknown_gives; auto.
  - destruct (new_cnt (known x) ltac:(unfold cnt in Hx; lia)) as (NC & NL & _).
    inv_bind E. inv_bind E. inv_bind E. use (deriv_gives _ _ 0 NL Hx) in E2 as G1 C1 L1 Q1.
    inv_bind E. use (div_gives _ _ _ Hy C1 Hx) in E2 as G2 C2 L2 Q2.
    use (integ_gives _ _ 0 L2 C2) in E as G3 C3 L3 Q3. split; auto. congruence.
Qed.

Lemma log1p_gives : forall y x s, lim_ok y -> cnt x -> gives y (set_log1p F kern y x s).
Proof.
  intros y x s Hy Hx y' E. unfold set_log1p in E. destruct (known x =? 0).
  - injection E as <-. apply unknown_gives; auto.
  - destruct (new_cnt (known x) ltac:(unfold cnt in Hx; lia)) as (NC & NL & _).
    inv_bind E. inv_bind E. use (deriv_gives _ _ s NL Hx) in E1 as G1 C1 L1 Q1.
    inv_bind E. use (div1p_gives _ _ _ s Hy C1 Hx) in E1 as G2 C2 L2 Q2.
    use (integ_gives _ _ s L2 C2) in E as G3 C3 L3 Q3. split; auto. congruence.
Qed.

Lemma exp_step_inv : forall c x ylim m0 m r st st', cnt x -> 0 <= m0 -> 0 <= m <= known x -> pair_inv ylim st ->
  exp_step F kern base c x m0 m r st = Ok st' -> pair_inv ylim st'.
Proof.
  intros c x ylim m0 m r [y dy] st' Hx Hm0 Hm (Gy & Ly & Ldy) E. cbn [fst snd] in *. unfold exp_step in E.
  assert (m <= 2 ^ 28) by (unfold cnt in Hx; lia).
  inv_bind E. use (set_known_good _ _ Gy H) in E0 as G1 C1 L1 Q1.
  inv_bind E. use (log_gives c _ _ Ldy C1) in E0 as G2 C2 L2 Q2.
  inv_bind E. use (high_gives _ (-1) 0 0 _ C2 Hx (Z.le_refl _)) in E0 as G3 C3 L3 Q3.
  inv_bind E. use (mul_gives _ _ _ L3 C1 C3) in E0 as G4 C4 L4 Q4.
  inv_bind E. use (high_gives _ (-1) 0 m0 _ C1 (high_cnt _ m0 C4) Hm0) in E0 as G5 C5 L5 Q5.
  injection E as <-. unfold pair_inv. cbn [fst snd]. repeat split; auto; try apply G5. congruence.
Qed.

Lemma exp_gives : forall c y x, lim_ok y -> cnt x -> gives y (set_exp_gen F kern base c y x).
Proof.
  intros c y x Hy Hx y' E. unfold set_exp_gen in E. destruct (known x =? 0).
  - injection E as <-. apply unknown_gives; auto.
  - inv_bind E. inv_bind E. use (Hb2 _ _ Hy Hx) in E1 as G1 C1 L1 Q1.
    inv_bind E. injection E as <-.
    apply (newton_inv _ (pair_inv (limit y))) in E1.
    + destruct E1 as (A & B & _). auto.
    + intros. eapply (exp_step_inv c x); eauto.
    + unfold pair_inv. cbn [fst snd]. repeat split; auto; try apply G1. apply new_cnt. unfold cnt in Hx; lia.
Qed.

Lemma expm1_step_inv : forall x a s ylim m0 m r st st', cnt x -> 0 <= m0 -> 0 <= m <= known x -> pair_inv ylim st ->
  expm1_step F kern x a s m0 m r st = Ok st' -> pair_inv ylim st'.
Proof.
  intros x a s ylim m0 m r [y dy] st' Hx Hm0 Hm (Gy & Ly & Ldy) E. cbn [fst snd] in *. unfold expm1_step in E.
  assert (m <= 2 ^ 28) by (unfold cnt in Hx; lia).
  inv_bind E. use (set_known_good _ _ Gy H) in E0 as G1 C1 L1 Q1.
  inv_bind E. use (log1p_gives _ _ s Ldy C1) in E0 as G2 C2 L2 Q2.
  inv_bind E.
  assert (E3 : gives r1 (if 0 <? a then sub_in F r1 x else add_in F r1 x)).
  { destruct (0 <? a); apply high_gives; auto; lia. }
  use E3 in E0 as G3 C3 L3 Q3.
  inv_bind E. use (mul1p_gives _ _ _ s L3 C3 C1) in E0 as G4 C4 L4 Q4.
  inv_bind E. use (high_gives _ (-1) 0 m0 _ C1 (high_cnt _ m0 C4) Hm0) in E0 as G5 C5 L5 Q5.
  injection E as <-. unfold pair_inv. cbn [fst snd]. repeat split; auto; try apply G5. congruence.
Qed.

Lemma expm1_gives : forall y x a s, lim_ok y -> cnt x -> gives y (set_expm1 F kern y x a s).
Proof.
  intros y x a s Hy Hx y' E. unfold set_expm1 in E. inv_bind E. inv_bind E.
  assert (E3 : gives y (if 0 <? a then assign F y (low F x s) else set_neg F y (low F x s))).
  { destruct (0 <? a); [apply assign_gives|apply map_gives]; auto. }
  use E3 in E1 as G1 C1 L1 Q1.
  inv_bind E. injection E as <-.
  apply (newton_inv _ (pair_inv (limit y))) in E1.
  + destruct E1 as (A & B & _). auto.
  + intros. eapply (expm1_step_inv x a s); eauto.
  + unfold pair_inv. cbn [fst snd]. repeat split; auto; try apply G1. apply new_cnt. unfold cnt in Hx; lia.
Qed.

Lemma log1p_exp_gives : forall y x s, lim_ok y -> cnt x -> gives y (set_log1p_exp F kern base y x s).
Proof.
  intros y x s Hy Hx y' E. unfold set_log1p_exp in E. destruct (known x =? 0).
  - injection E as <-. apply unknown_gives; auto.
  - destruct (new_cnt (known x) ltac:(unfold cnt in Hx; lia)) as (NC & NL & _).
    inv_bind E. apply assert_inv in E0. inv_bind E. use (exp_gives true _ _ Hy (low_cnt _ s Hx)) in E1 as G1 C1 L1 Q1.
    inv_bind E. injection E as <-.
    apply (newton_inv _ (fun st => good (fst (fst st)) /\ limit (fst (fst st)) = limit y /\ lim_ok (snd (fst st)) /\ lim_ok (snd st))) in E1.
    + destruct E1 as (A & B & _). auto.
    + clear E1. intros m0 m rf [[y1 ndy] t] st' Hm0 Hm (I1 & I2 & I3 & I4) E. cbn [fst snd] in *.
      unfold log1p_exp_step in E.
      assert (m <= 2 ^ 28) by (unfold cnt in Hx; lia).
      inv_bind E. use (set_known_good _ _ I1 H) in E1 as G2 C2 L2 Q2.
      inv_bind E. use (assign_gives _ _ I4 (low_cnt _ m Hx)) in E1 as G3 C3 L3 Q3.
      inv_bind E. use (high_gives _ (-1) 0 s _ C3 C2 ltac:(lia)) in E1 as G4 C4 L4 Q4.
      inv_bind E. use (exp_gives true _ _ I3 C4) in E1 as G5 C5 L5 Q5.
      inv_bind E. use (expm1_gives _ _ (-1) s L4 C2) in E1 as G6 C6 L6 Q6.
      inv_bind E. use (high_gives _ 1 0 0 _ C5 C6 (Z.le_refl _)) in E1 as G7 C7 L7 Q7.
      inv_bind E. use (high_gives _ 1 0 m0 _ C2 (high_cnt _ m0 C7) Hm0) in E1 as G8 C8 L8 Q8.
      injection E as <-. cbn [fst snd]. repeat split; auto; try apply G8. congruence.
    + cbn [fst snd]. repeat split; auto; try apply G1.
Qed.

Lemma get_src_cnt : forall st x v, Forall cnt st -> get_src F st x = Ok v -> cnt v.
Proof.
  intros st x v Hs E. unfold get_src in E. inv_bind E. injection E as <-.
  apply (get_all cnt) in E0; auto. destruct (sp x); auto.
Qed.

Lemma un_inv : forall (P : ser -> Prop) na st i x f st',
  (forall y, good y -> P y) ->
  Forall cnt st -> Forall P st -> (forall y v, cnt y -> cnt v -> gives y (f y v)) ->
  un F na st i x f = Ok st' -> Forall cnt st' /\ Forall P st'.
Proof.
  intros P na st i x f st' HP Hc Hs Hf E. unfold un in E. inv_bind E. inv_bind E. inv_bind E. inv_bind E.
  injection E as <-. apply (get_all cnt) in E0; auto. apply get_src_cnt in E1; auto.
  destruct (Hf _ _ E0 E1 _ E3) as (G & _). split; apply put_all; auto.
Qed.
Lemma bin_inv : forall (P : ser -> Prop) na st i x z f st',
  (forall y, good y -> P y) ->
  Forall cnt st -> Forall P st -> (forall y v w, cnt y -> cnt v -> cnt w -> gives y (f y v w)) ->
  bin F na st i x z f = Ok st' -> Forall cnt st' /\ Forall P st'.
Proof.
  intros P na st i x z f st' HP Hc Hs Hf E. unfold bin in E. inv_bind E. inv_bind E. inv_bind E. inv_bind E. inv_bind E.
  injection E as <-. apply (get_all cnt) in E0; auto. apply get_src_cnt in E1; auto. apply get_src_cnt in E2; auto.
  destruct (Hf _ _ _ E0 E1 E2 _ E4) as (G & _). split; apply put_all; auto.
Qed.
Lemma self_inv : forall (P : ser -> Prop) st i f st',
  Forall cnt st -> Forall P st -> (forall y y', cnt y -> P y -> f y = Ok y' -> cnt y' /\ P y') ->
  self F st i f = Ok st' -> Forall cnt st' /\ Forall P st'.
Proof.
  intros P st i f st' Hc Hs Hf E. unfold self in E. inv_bind E. inv_bind E. injection E as <-.
  pose proof (get_all _ _ _ _ Hc E0). pose proof (get_all _ _ _ _ Hs E0).
  destruct (Hf _ _ H H0 E1). split; apply put_all; auto.
Qed.

Lemma run_op_inv : forall (P : ser -> Prop) o st st', (forall y, good y -> P y) ->
  (P = cnt \/ (P = good /\ no_counts F o)) -> op_ok F o ->
  Forall cnt st -> Forall P st -> run_op F kern base st o = Ok st' -> Forall cnt st' /\ Forall P st'.
Proof.
  intros P o st st' HP HPP Ho Hc Hs E.
  destruct o; cbn [run_op op_ok no_counts] in *;
    try (eapply un_inv; [exact HP|exact Hc|exact Hs| |exact E]; intros; cbv beta;
         first [apply assign_gives|apply high_gives|apply map_gives|apply sqr_gives|apply inv_gives|apply inv1p_gives
               |apply log_gives|apply log1p_gives|apply exp_gives|apply expm1_gives|apply log1p_exp_gives]; auto; fail);
    try (eapply bin_inv; [exact HP|exact Hc|exact Hs| |exact E]; intros; cbv beta;
         first [apply sub2exp_gives|apply mul_gives|apply mul1p_gives|apply div_gives|apply div1p_gives]; auto; fail).
  - injection E as <-. destruct (new_cnt lim Ho) as (A & _ & B). rewrite !Forall_app. repeat split; auto.
  - eapply self_inv; [exact Hc|exact Hs| |exact E]. intros y y' Hy _ E1.
    apply scalar_gives in E1; auto. destruct E1. auto.
  - eapply self_inv; [exact Hc|exact Hs| |exact E]. intros y y' Hy _ E1. injection E1 as <-.
    destruct (unknown_gives y (cnt_lim _ Hy)). auto.
  - destruct HPP as [->|[-> []]].
    eapply self_inv; [exact Hc|exact Hs| |exact E]. intros y y' Hy _ E1.
    destruct Ho as (Hkn & Hnz). apply set_counts_inv in E1; auto; [|unfold cnt in Hy; lia].
    destruct E1 as (-> & A & B & C). unfold cnt, limit in *. cbn [cells known nonzero]. lia.
  - eapply self_inv; [exact Hc|exact Hs| |exact E]. intros y y' Hy Hp E1. cbv beta in E1.
    split; [eapply set_known_cnt; eauto|]. destruct HPP as [->|[-> _]].
    + eapply set_known_cnt; eauto.
    + eapply set_known_good; eauto.
  - eapply self_inv; [exact Hc|exact Hs| |exact E]. intros y y' Hy Hp E1. cbv beta in E1.
    split; [eapply reduce_known_cnt; eauto|]. destruct HPP as [->|[-> _]].
    + eapply reduce_known_cnt; eauto.
    + eapply reduce_known_good; eauto.
  - inv_bind E. inv_bind E. unfold swap in E. injection E as <-.
    pose proof (get_all _ _ _ _ Hc E0). pose proof (get_all _ _ _ _ Hs E0).
    pose proof (get_all _ _ _ _ Hc E1). pose proof (get_all _ _ _ _ Hs E1).
    split; apply put_all; auto; apply put_all; auto.
  - eapply self_inv; [exact Hc|exact Hs| |exact E]. intros y y' Hy Hp E1. cbv beta in E1.
    split; [eapply add_scalar_cnt; eauto|]. destruct HPP as [->|[-> _]].
    + eapply add_scalar_cnt; eauto.
    + eapply add_scalar_gives; eauto.
Qed.

Lemma run_ops_inv : forall (P : ser -> Prop) ops st st', (forall y, good y -> P y) ->
  (P = cnt \/ (P = good /\ Forall (no_counts F) ops)) -> Forall (op_ok F) ops ->
  Forall cnt st -> Forall P st -> run_ops F kern base st ops = Ok st' -> Forall cnt st' /\ Forall P st'.
Proof.
  intros P ops. unfold run_ops. induction ops as [|o ops IH]; intros st st' HP HPP Ho Hc Hs E; cbn [fold_left bind] in E.
  - injection E as <-. auto.
  - inversion Ho as [|? ? O1 O2]; subst.
    destruct (run_op F kern base st o) as [st1| |] eqn:E1.
    + apply (run_op_inv P) in E1; auto.
      * destruct E1. eapply IH; eauto. destruct HPP as [->|[-> Hn]]; auto. inversion Hn; auto.
      * destruct HPP as [->|[-> Hn]]; auto. inversion Hn; auto.
    + exfalso. revert E. clear. induction ops; cbn [fold_left bind]; [discriminate|auto].
    + exfalso. revert E. clear. induction ops; cbn [fold_left bind]; [discriminate|auto].
Qed.

End Inv.

Section Generated.
Variable F : Fld.

Lemma naive_len : forall nz (xs ys p : list (K F)), naive_mul F nz xs ys = Ok p -> length p = nz.
Proof. intros nz xs ys p E. injection E as <-. rewrite map_length, seq_length. reflexivity. Qed.

Lemma gen_base_gives : forall lead fn y x, lim_ok F y -> cnt F x -> gives F y (gen_base F lead fn y x).
Proof.
  intros lead fn y x Hy Hx y' E. unfold gen_base, base_n, lim_ok, cnt in *.
  rewrite to_i32_id in E by lia.
  apply bind_inv in E. destruct E as (y1 & E1 & E). apply set_counts_inv in E1; try lia.
  destruct E1 as (-> & A & B & C). cbn [cells] in E. destruct (Z.eqb_spec (Z.min 5 (known x)) 0).
  - injection E as <-. apply good_mk; try lia.
  - apply bind_inv in E. destruct E as (xs & _ & E). apply bind_inv in E. destruct E as (Y & _ & E).
    apply bind_inv in E. destruct E as (vs & E2 & E). apply bind_inv in E. destruct E as (c & E3 & E).
    injection E as <-. destruct (5 <=? nonzero Y); [|discriminate]. apply read_cells_length in E2.
    apply write_cells_inv in E3. destruct E3 as (L & L2 & W & _). apply good_mk; try lia.
    intros j Hj. apply W. lia.
Qed.

End Generated.
