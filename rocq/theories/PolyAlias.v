(** Proofs about poly_add_shift_series under aliasing and about newton_iterate's schedule. *)
From Coq Require Import ZArith List Bool Lia.
From Verif Require Import Base LoopsModel LoopsProofs PolyModel.
Import ListNotations.
Open Scope Z_scope.

Section Shift.
  Context {V : Type}.
  Variable zero : V.
  Variable op : V -> V -> V.
  Notation objs := (@objs V).
  Notation coeff := (@coeff V zero).

  (** A usable object: the length is within the array. *)
  Definition wf (o : obj V) : Prop := 0 <= olen o <= Z.of_nat (length (coeffs o)).

  Lemma upd_same (m : objs) h o : upd m h o h = o.
  Proof. unfold upd. now rewrite Nat.eqb_refl. Qed.
  Lemma upd_other (m : objs) h o k : k <> h -> upd m h o k = m k.
  Proof. intro H. unfold upd. now rewrite (proj2 (Nat.eqb_neq k h) H). Qed.

  Lemma set_nth_len {X} (v : X) : forall l i, length (set_nth l i v) = length l.
  Proof. induction l as [|x l IH]; intros [|i]; cbn; auto. Qed.
  Lemma set_nth_at {X} (d v : X) : forall l i j, (i < length l)%nat ->
    nth j (set_nth l i v) d = if Nat.eqb j i then v else nth j l d.
  Proof.
    induction l as [|x l IH]; intros [|i] [|j] H; cbn in *; try lia; auto. apply IH. lia.
  Qed.

  Lemma down_ok body lo (Q : Z -> objs -> Prop) : forall k m, Q (lo + Z.of_nat k) m ->
    (forall i m, lo <= i < lo + Z.of_nat k -> Q (i + 1) m -> exists m', body i m = Ok m' /\ Q i m') ->
    exists m', down body lo k m = Ok m' /\ Q lo m'.
  Proof.
    induction k as [|k IH]; intros m H0 HB.
    - exists m. split; [reflexivity|]. now replace lo with (lo + Z.of_nat 0) by lia.
    - cbn [down]. destruct (HB (lo + Z.of_nat k) m ltac:(lia)) as (m1 & E1 & Q1).
      { now replace (lo + Z.of_nat k + 1) with (lo + Z.of_nat (S k)) by lia. }
      rewrite E1. cbn [bind]. apply IH; [exact Q1|]. intros i m2 Hi. apply HB. lia.
  Qed.

  (** [m] is [m0] except that coefficients lo .. hi-1 of h hold [e]. *)
  Definition partly (m0 : objs) (h : nat) (e : Z -> V) (lo hi : Z) (m : objs) : Prop :=
    (forall k, k <> h -> m k = m0 k) /\ olen (m h) = olen (m0 h) /\
    length (coeffs (m h)) = length (coeffs (m0 h)) /\
    forall j, 0 <= j -> nth (Z.to_nat j) (coeffs (m h)) zero =
      if (lo <=? j) && (j <? hi) then e j else nth (Z.to_nat j) (coeffs (m0 h)) zero.

  Lemma partly_none m0 h e hi : partly m0 h e hi hi m0.
  Proof.
    split; [auto|]. split; [auto|]. split; [auto|]. intros j Hj.
    destruct (Z.leb_spec hi j), (Z.ltb_spec j hi); cbn; auto; lia.
  Qed.
  Lemma partly_store m0 h e hi i m v : partly m0 h e (i + 1) hi m -> 0 <= i < hi ->
    hi <= Z.of_nat (length (coeffs (m0 h))) -> v = e i ->
    exists m', store m h i v = Ok m' /\ partly m0 h e i hi m'.
  Proof.
    intros (P1 & P2 & P3 & P4) Hi Hl ->. unfold store.
    destruct (Z.ltb_spec i 0); [lia|]. destruct (Z.leb_spec (Z.of_nat (length (coeffs (m h)))) i); [lia|].
    cbn [orb]. eexists. split; [reflexivity|]. split; [|split; [|split]].
    - intros k Hk. rewrite upd_other by exact Hk. now apply P1.
    - rewrite upd_same. exact P2.
    - rewrite upd_same. cbn [coeffs]. now rewrite set_nth_len.
    - intros j Hj. rewrite upd_same. cbn [coeffs]. rewrite set_nth_at by lia.
      destruct (Nat.eqb_spec (Z.to_nat j) (Z.to_nat i)) as [E|E].
      + assert (j = i) by lia. subst j. destruct (Z.leb_spec i i), (Z.ltb_spec i hi); cbn; auto; lia.
      + rewrite P4 by exact Hj.
        destruct (Z.leb_spec (i + 1) j), (Z.leb_spec i j), (Z.ltb_spec j hi); cbn; auto; lia.
  Qed.
  (** Below [lo] nothing has changed yet. *)
  Lemma partly_coeff m0 h e lo hi m f i : partly m0 h e lo hi m -> i < lo -> coeff (m f) i = coeff (m0 f) i.
  Proof.
    intros (P1 & P2 & P3 & P4) Hi. destruct (Nat.eq_dec f h) as [->|N]; [|now rewrite P1].
    unfold PolyModel.coeff. rewrite P2. destruct (Z.leb_spec 0 i); [|reflexivity].
    destruct (Z.ltb_spec i (olen (m0 h))); [|reflexivity]. cbn [andb].
    rewrite P4 by lia. destruct (Z.leb_spec lo i); [lia|]. reflexivity.
  Qed.

  Lemma fit_len m h n : length (coeffs (fit_length zero m h n h)) = Nat.max (length (coeffs (m h))) (Z.to_nat n).
  Proof. unfold fit_length. rewrite upd_same. cbn [coeffs]. rewrite app_length, repeat_length. lia. Qed.
  Lemma fit_olen m h n : olen (fit_length zero m h n h) = olen (m h).
  Proof. unfold fit_length. now rewrite upd_same. Qed.
  Lemma fit_coeff m h n f i : wf (m f) -> coeff (fit_length zero m h n f) i = coeff (m f) i.
  Proof.
    intro W. destruct (Nat.eq_dec f h) as [->|N].
    - unfold fit_length. rewrite upd_same. unfold PolyModel.coeff. cbn [olen coeffs].
      destruct (Z.leb_spec 0 i); [|reflexivity]. destruct (Z.ltb_spec i (olen (m h))); [|reflexivity].
      cbn [andb]. rewrite app_nth1; [reflexivity|]. unfold wf in W. lia.
    - unfold fit_length. now rewrite upd_other.
  Qed.

  Definition shifted (f g : Z -> V) (s i : Z) : V := if i <? s then f i else op (f i) (g (i - s)).

  Theorem shift_ok (h f g : nat) s n (m : objs) : 0 <= s -> wf (m h) -> wf (m f) -> wf (m g) ->
    exists m', poly_shift_series zero op h f g s n m = Ok m' /\
      (forall k, k <> h -> m' k = m k) /\
      wf (m' h) /\
      olen (m' h) = (if n <=? s then Z.min (Z.max 0 n) (olen (m f)) else n) /\
      forall i, 0 <= i < n -> coeff (m' h) i = shifted (coeff (m f)) (coeff (m g)) s i.
  Proof.
    intros Hs Wh Wf Wg. unfold poly_shift_series. destruct (Z.leb_spec n s) as [L|L].
    - eexists. split; [reflexivity|]. unfold set_trunc. split; [|split; [|split]].
      + intros k Hk. now rewrite upd_other.
      + rewrite upd_same. unfold wf. cbn [olen coeffs]. rewrite map_length, seq_length. unfold wf in Wf. lia.
      + now rewrite upd_same.
      + intros i Hi. rewrite upd_same. unfold shifted. destruct (Z.ltb_spec i s); [|lia].
        unfold PolyModel.coeff at 1. cbn [olen coeffs].
        destruct (Z.leb_spec 0 i); [|lia].
        destruct (Z.ltb_spec i (Z.min (Z.max 0 n) (olen (m f)))) as [B|B]; cbn [andb].
        * rewrite nth_indep with (d' := coeff (m f) (Z.of_nat 0)) by (rewrite map_length, seq_length; lia).
          rewrite (map_nth (fun i => coeff (m f) (Z.of_nat i))), seq_nth by lia. f_equal. lia.
        * unfold PolyModel.coeff. destruct (Z.ltb_spec i (olen (m f))); [lia|]. now rewrite andb_false_r.
    - set (m1 := fit_length zero m h n).
      set (e := shifted (coeff (m f)) (coeff (m g)) s).
      assert (L1 : n <= Z.of_nat (length (coeffs (m1 h)))) by (subst m1; rewrite fit_len; lia).
      destruct (down_ok (fun i m => store m h i (op (coeff (m f) i) (coeff (m g) (i - s)))) s
                  (fun i m => partly m1 h e i n m) (Z.to_nat (n - s)) m1) as (m2 & E2 & P2).
      { replace (s + Z.of_nat (Z.to_nat (n - s))) with n by lia. apply partly_none. }
      { intros i m' Hi P. apply partly_store; try assumption; try lia.
        rewrite (partly_coeff _ _ _ _ _ _ f i P), (partly_coeff _ _ _ _ _ _ g (i - s) P) by lia.
        subst m1. rewrite !fit_coeff by assumption. subst e. unfold shifted.
        destruct (Z.ltb_spec i s); [lia|reflexivity]. }
      rewrite E2. cbn [bind].
      assert (X : exists m3 k, (if negb (h =? f)%nat
          then down (fun (i : Z) (m0 : PolyModel.objs) => store m0 h i (coeff (m0 f) i)) 0 (Z.to_nat s) m2
          else down (fun (i : Z) (m0 : PolyModel.objs) => store m0 h i zero) (olen (m2 h)) (Z.to_nat (s - olen (m2 h))) m2)
          = Ok m3 /\ partly m1 h e k n m3 /\ (forall i, 0 <= i < k -> nth (Z.to_nat i) (coeffs (m1 h)) zero = e i)).
      { destruct (Nat.eqb_spec h f) as [EQ|NE]; cbn [negb].
        - set (hn := olen (m2 h)). assert (Ehn : hn = olen (m h)).
          { subst hn. destruct P2 as (_ & -> & _). subst m1. apply fit_olen. }
          unfold wf in Wh.
          assert (KEEP : forall i, 0 <= i < hn -> i < s -> nth (Z.to_nat i) (coeffs (m1 h)) zero = e i).
          { intros i Hi Hlt. subst e. unfold shifted. destruct (Z.ltb_spec i s); [|lia]. subst f.
            unfold PolyModel.coeff. destruct (Z.leb_spec 0 i), (Z.ltb_spec i (olen (m h))); try lia. cbn [andb].
            subst m1. unfold fit_length. rewrite upd_same. cbn [coeffs]. rewrite app_nth1 by lia. reflexivity. }
          destruct (Z.le_gt_cases s hn) as [SH|SH].
          + exists m2, s. replace (Z.to_nat (s - hn)) with O by lia. split; [reflexivity|].
            split; [exact P2|]. intros i Hi. apply KEEP; lia.
          + destruct (down_ok (fun i m => store m h i zero) hn (fun i m => partly m1 h e i n m)
                        (Z.to_nat (s - hn)) m2) as (m3 & E3 & P3).
            * replace (hn + Z.of_nat (Z.to_nat (s - hn))) with s by lia. exact P2.
            * intros i m' Hi P. apply partly_store; try assumption; try lia.
              subst e. unfold shifted. destruct (Z.ltb_spec i s); [|lia]. subst f.
              unfold PolyModel.coeff. destruct (Z.ltb_spec i (olen (m h))); [lia|]. now rewrite andb_false_r.
            * exists m3, hn. split; [exact E3|]. split; [exact P3|]. intros i Hi. apply KEEP; lia.
        - destruct (down_ok (fun i m => store m h i (coeff (m f) i)) 0 (fun i m => partly m1 h e i n m)
                        (Z.to_nat s) m2) as (m3 & E3 & P3).
          + replace (0 + Z.of_nat (Z.to_nat s)) with s by lia. exact P2.
          + intros i m' Hi P. apply partly_store; try assumption; try lia.
            rewrite (partly_coeff _ _ _ _ _ _ f i P) by lia. subst m1. rewrite fit_coeff by assumption.
            subst e. unfold shifted. destruct (Z.ltb_spec i s); [reflexivity|lia].
          + exists m3, 0. split; [exact E3|]. split; [exact P3|]. intros i Hi. lia. }
      destruct X as (m3 & k & E3 & P3 & KEEP). cbv zeta. rewrite E3. cbn [bind].
      destruct P3 as (Q1 & Q2 & Q3 & Q4).
      eexists. split; [reflexivity|]. unfold set_length. split; [|split; [|split]].
      + intros j Hj. rewrite upd_other by exact Hj. rewrite Q1 by exact Hj. subst m1. unfold fit_length.
        now rewrite upd_other.
      + rewrite upd_same. unfold wf. cbn [olen coeffs]. rewrite Q3. lia.
      + now rewrite upd_same.
      + intros i Hi. rewrite upd_same. unfold PolyModel.coeff at 1. cbn [olen coeffs].
        destruct (Z.leb_spec 0 i), (Z.ltb_spec i n); try lia. cbn [andb]. rewrite Q4 by lia.
        destruct (Z.leb_spec k i), (Z.ltb_spec i n); cbn [andb]; try reflexivity; try lia.
        apply KEEP. lia.
  Qed.
End Shift.

(** ** The schedule *)

(** The calls take the size from a to b, each at most doubling it. *)
Fixpoint reaches (a : Z) (l : list (Z * Z)) (b : Z) : Prop :=
  match l with
  | [] => a = b
  | (x, y) :: l => x = a /\ x < y <= 2 * x /\ reaches y l b
  end.
Lemma reaches_app a l1 b l2 c : reaches a l1 b -> reaches b l2 c -> reaches a (l1 ++ l2) c.
Proof.
  revert a. induction l1 as [|[x y] l IH]; intros a H1 H2; cbn in *; [now subst|].
  destruct H1 as (E & B & H1). auto.
Qed.
Lemma reaches_bound : forall l a b, 0 <= a -> reaches a l b -> b <= a * 2 ^ Z.of_nat (length l).
Proof.
  induction l as [|[x y] l IH]; intros a b Ha H; cbn [reaches length] in *.
  - subst. rewrite Z.pow_0_r. lia.
  - destruct H as (-> & B & H). apply IH in H; [|lia].
    rewrite Nat2Z.inj_succ, Z.pow_succ_r by lia. nia.
Qed.

Lemma combine_snoc {X} : forall (l : list X) (a x : X),
  combine (a :: l ++ [x]) (l ++ [x]) = combine (a :: l) l ++ [(last (a :: l) a, x)].
Proof.
  induction l as [|y l IH]; intros a x; [reflexivity|].
  change (combine (a :: (y :: l) ++ [x]) ((y :: l) ++ [x])) with ((a, y) :: combine (y :: l ++ [x]) (l ++ [x])).
  rewrite IH. change (combine (a :: y :: l) (y :: l)) with ((a, y) :: combine (y :: l) l). cbn [app].
  f_equal. f_equal. f_equal. f_equal. change (last (y :: l) y = last (y :: l) a).
  clear. generalize y at 2 as d. revert y. induction l as [|z l IH]; intros y d; [reflexivity|].
  exact (IH z d).
Qed.

Lemma sizes_ok n0 : 1 <= n0 -> forall fuel m, (Z.to_nat m < fuel)%nat ->
  exists l, sizes fuel n0 m = Some l /\
    reaches n0 (combine (n0 :: rev l) (rev l)) (Z.max n0 m) /\
    last (n0 :: rev l) n0 = Z.max n0 m /\
    (l <> [] -> n0 * 2 ^ (Z.of_nat (length l) - 1) < m).
Proof.
  intros H0. induction fuel as [|fuel IH]; intros m Hf; [lia|]. cbn [sizes].
  destruct (Z.gtb_spec m n0) as [G|G].
  - pose proof (Z.div_mod (m + 1) 2 ltac:(lia)) as D. pose proof (Z.mod_pos_bound (m + 1) 2 ltac:(lia)) as B.
    destruct (IH ((m + 1) / 2)) as (l & E & R & LA & S); [lia|].
    rewrite E. exists (m :: l). split; [reflexivity|].
    cbn [rev]. rewrite combine_snoc, LA. split; [|split].
    + eapply reaches_app; [exact R|]. cbn [reaches]. lia.
    + rewrite app_comm_cons, last_last. lia.
    + intros _. cbn [length]. rewrite Nat2Z.inj_succ. replace (Z.succ _ - 1) with (Z.of_nat (length l)) by lia.
      destruct l as [|x l]; [cbn [length Z.of_nat]; rewrite Z.pow_0_r; lia|].
      specialize (S ltac:(discriminate)).
      replace (Z.of_nat (length (x :: l))) with (Z.succ (Z.of_nat (length (x :: l)) - 1)) by (cbn [length]; lia).
      rewrite Z.pow_succ_r by (cbn [length]; lia). lia.
  - exists []. split; [reflexivity|]. cbn. split; [lia|]. split; [lia|congruence].
Qed.

Theorem newton_ok n0 n fuel : 1 <= n0 -> (Z.to_nat n < fuel)%nat ->
  exists l, newton_steps fuel n0 n = Some l /\ reaches n0 l (Z.max n0 n) /\
    forall l', reaches n0 l' (Z.max n0 n) -> (length l <= length l')%nat.
Proof.
  intros H0 Hf. destruct (sizes_ok n0 H0 fuel n Hf) as (l & E & R & _ & S).
  unfold newton_steps. rewrite E. cbv zeta. eexists. split; [reflexivity|]. split; [exact R|].
  intros l' R'. apply reaches_bound in R'; [|lia].
  rewrite combine_length. cbn [length]. rewrite rev_length, Nat.min_r by lia.
  destruct l as [|x l]; [cbn; lia|]. specialize (S ltac:(discriminate)).
  destruct (le_lt_dec (length (x :: l)) (length l')) as [|B]; [assumption|exfalso].
  assert (P : 2 ^ Z.of_nat (length l') <= 2 ^ (Z.of_nat (length (x :: l)) - 1)) by (apply Z.pow_le_mono_r; lia).
  nia.
Qed.

(** From size 0 the list of sizes never ends. *)
Theorem newton_zero : forall fuel n, 1 <= n -> newton_steps fuel 0 n = None.
Proof.
  intros fuel n H. unfold newton_steps. enough (E : sizes fuel 0 n = None) by now rewrite E.
  revert n H. induction fuel as [|fuel IH]; intros n H; [reflexivity|]. cbn [sizes].
  destruct (Z.gtb_spec n 0); [|lia]. rewrite IH; [reflexivity|].
  apply Z.div_le_lower_bound; lia.
Qed.
