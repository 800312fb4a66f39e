(** Proofs about nearest.h and nearest.cc. *)
From Coq Require Import ZArith List Bool Reals Lia Lra.
From Flocq Require Import Core Relative BinarySingleNaN.
From Verif Require Import Base LoopsModel ExpansionModel ExpansionFloat ExpansionProofs NearestModel.
Import ListNotations.
Open Scope R_scope.

(** ** Specification *)

(** The real number [m * 2^e]. *)
Definition dy (m e : Z) : R := F2R (Float radix2 m e).

(** [a] is a lower (an upper) bound of [x].  NaN says nothing. *)
Definition below (a : arf) (x : R) : Prop :=
  match a with AFin m e => dy m e <= x | AInf true => True | AInf false => False | ANan => True end.
Definition above (b : arf) (x : R) : Prop :=
  match b with AFin m e => x <= dy m e | AInf true => False | AInf false => True | ANan => True end.
Definition finite_arf (a : arf) : Prop := match a with AFin _ _ => True | _ => False end.

(** The contract of Arb, [mem c x] being "the ball c contains x": every function maps balls to a
    ball that contains the images of their members. *)
Record encloses (A : arb) (mem : ball A -> R -> Prop) : Prop := {
  e_bounds : forall c x p, (2 <= p)%Z -> mem c x ->
    below (fst (bounds A c p)) x /\ above (snd (bounds A c p)) x;
  e_arf : forall m e, mem (b_arf A (AFin m e)) (dy m e);
  e_inf : forall a p, ~ finite_arf a -> ~ finite_arf (fst (bounds A (b_arf A a) p));
  e_d : forall x, fin x -> mem (b_d A x) (B2R x);
  e_sub : forall x y a b p, (2 <= p)%Z -> mem x a -> mem y b -> mem (b_sub A x y p) (a - b);
  e_pi : forall p, (2 <= p)%Z -> mem (b_pi A p) PI;
  e_si : forall a, mem (b_si A a) (IZR a);
  e_div : forall x a b p, (2 <= p)%Z -> (1 <= b < 2 ^ 64)%Z -> mem x a ->
    mem (b_div_ui A x b p) (a / IZR b);
  e_sqrt : forall x a p, (2 <= p)%Z -> 0 <= a -> mem x a -> mem (b_sqrt A x p) (sqrt a);
  e_cis : forall a b p, (2 <= p)%Z -> (1 <= b < 2 ^ 64)%Z ->
    mem (fst (b_cis A a b p)) (cos (PI * IZR a / IZR b)) /\
    mem (snd (b_cis A a b p)) (sin (PI * IZR a / IZR b));
  e_cmul : forall x y a b c d p, (2 <= p)%Z ->
    mem (fst x) a -> mem (snd x) b -> mem (fst y) c -> mem (snd y) d ->
    mem (fst (c_mul A x y p)) (a * c - b * d) /\ mem (snd (c_mul A x y p)) (a * d + b * c);
  e_exact : forall x, Forall fin x -> mem (b_exact A x) (val x);
  e_add : forall x y a b p, (2 <= p)%Z -> mem x a -> mem y b -> mem (b_add A x y p) (a + b);
  e_sqr : forall x a p, (2 <= p)%Z -> mem x a -> mem (b_sqr A x p) (a * a);
  e_mul_si : forall x a c p, (2 <= p)%Z -> mem x a -> mem (b_mul_si A x c p) (a * IZR c);
  e_mul : forall x y a b p, (2 <= p)%Z -> mem x a -> mem y b -> mem (b_mul A x y p) (a * b);
  e_zero : mem (b_zero A) 0
}.

(** [v] is the greedy expansion of [c]: the first component is [c] rounded to nearest (ties to
    even) and the others are the greedy expansion of what remains. *)
Fixpoint greedy (c : R) (v : list double) : Prop :=
  match v with
  | [] => True
  | x :: v => B2R x = rn c /\ greedy (c - B2R x) v
  end.

(** The result wanted for [c]: right number of components, and correctly rounded. *)
Definition rounded (k : kind) (c : R) (v : list double) : Prop :=
  length v = width k /\ greedy c v.

(** The precisions that may be used. *)
Definition precisions : list Z := [200; 400; 800; 1600; 3200]%Z.

(** ** Rounding *)

Lemma rn_le a b : a <= b -> rn a <= rn b.
Proof. apply round_le; typeclasses eauto. Qed.

Lemma rn_between a c b : a <= c -> c <= b -> rn a = rn b -> rn c = rn a.
Proof. intros H1 H2 E. apply rn_le in H1, H2. lra. Qed.

Lemma round_d_fin a : fin (round_d a) -> exists m e, a = AFin m e.
Proof. destruct a; cbn; intro H; [eauto|discriminate|discriminate]. Qed.

Lemma deq_fin a b : fin a -> deq a b = true -> fin b /\ B2R a = B2R b.
Proof.
  intros Ha H. assert (Hb : fin b).
  { unfold deq, Beqb, fin in *. destruct a as [s|s| |s m e P], b as [s'|s'| |s' m' e' P'];
      cbn in *; try discriminate; try reflexivity; destruct s, s'; discriminate. }
  split; [assumption|]. unfold deq in H. rewrite Beqb_correct in H by assumption.
  revert H. case Req_bool_spec; [auto|discriminate].
Qed.

Lemma all_finite_spec x : all_finite x = true <-> Forall fin x.
Proof. unfold all_finite. rewrite forallb_forall, Forall_forall. reflexivity. Qed.

Lemma same_value_fin : forall x y, Forall fin x -> same_value x y = true ->
  Forall fin y /\ map B2R x = map B2R y.
Proof.
  induction x as [|a x IH]; intros [|b y] H E; try discriminate; [now split|].
  cbn in E. apply andb_prop in E. destruct E as [E1 E2]. inversion H; subst.
  destruct (deq_fin _ _ H2 E1). destruct (IH _ H3 E2).
  split; [now constructor|]. cbn. congruence.
Qed.

Lemma greedy_ext : forall x y c, map B2R x = map B2R y -> greedy c x -> greedy c y.
Proof.
  induction x as [|a x IH]; intros [|b y] c E; try discriminate; [auto|].
  cbn in E |- *. injection E as E1 E2. rewrite <- E1. intros [H1 H2]. split; eauto.
Qed.

(** Two numbers with the same greedy expansion: so has everything between. *)
Lemma greedy_between : forall v a c b, a <= c -> c <= b -> greedy a v -> greedy b v -> greedy c v.
Proof.
  induction v as [|x v IH]; intros a c b H1 H2 Ha Hb; [exact I|].
  cbn in *. destruct Ha as [Ea Ha], Hb as [Eb Hb]. split.
  - rewrite (rn_between a c b); congruence.
  - apply (IH (a - B2R x) _ (b - B2R x)); auto; lra.
Qed.

(** A greedy expansion is determined by the number. *)
Lemma greedy_unique : forall v w c, length v = length w -> greedy c v -> greedy c w ->
  map B2R v = map B2R w.
Proof.
  induction v as [|x v IH]; intros [|y w] c L Hv Hw; try discriminate; [reflexivity|].
  cbn in *. destruct Hv as [E1 Hv], Hw as [E2 Hw].
  assert (E : B2R x = B2R y) by congruence. f_equal; [assumption|].
  rewrite E in Hv. eapply IH; eauto.
Qed.

(** Accuracy of a greedy expansion: [n] components leave a relative error of [u^n], up to the
    smallest subnormal. *)
Lemma rn_err c : Rabs (c - rn c) <= u * Rabs c + bpow radix2 (-1075).
Proof.
  destruct (error_N_FLT radix2 emin prec ltac:(reflexivity) (fun t => negb (Z.even t)) c)
    as (eps & eta & He & Ht & _ & E).
  rewrite E. replace (c - (c * (1 + eps) + eta)) with (- (c * eps + eta)) by ring.
  rewrite Rabs_Ropp. eapply Rle_trans; [apply Rabs_triang|].
  rewrite Rabs_mult, (Rmult_comm (Rabs c)).
  apply Rplus_le_compat.
  - apply Rmult_le_compat_r; [apply Rabs_pos|]. eapply Rle_trans; [exact He|].
    unfold u, prec. change (- (53) + 1)%Z with (-53 + 1)%Z. rewrite bpow_plus.
    change (bpow radix2 1) with 2. lra.
  - eapply Rle_trans; [exact Ht|]. unfold emin. change (-1074)%Z with (-1075 + 1)%Z.
    rewrite bpow_plus. change (bpow radix2 1) with 2. lra.
Qed.

Lemma u_small : 0 < u <= / 2.
Proof.
  split; [apply bpow_gt_0|]. unfold u. change (/ 2) with (bpow radix2 (-1)). apply bpow_le. lia.
Qed.

Lemma greedy_err_aux : forall v c, greedy c v ->
  Rabs (c - val v) <= u ^ length v * Rabs c + 2 * bpow radix2 (-1075) * (1 - u ^ length v).
Proof.
  pose proof u_small. assert (He : 0 < bpow radix2 (-1075)) by apply bpow_gt_0.
  set (eps := bpow radix2 (-1075)) in *.
  induction v as [|x v IH]; intros c G.
  - cbn [val fold_right length pow]. rewrite Rminus_0_r. lra.
  - destruct G as [E G]. specialize (IH _ G). cbn [val fold_right length]. fold (val v).
    replace (c - (B2R x + val v)) with (c - B2R x - val v) by ring.
    eapply Rle_trans; [exact IH|].
    pose proof (rn_err c) as R. fold eps in R. rewrite <- E in R.
    set (l := length v) in *.
    assert (P : 0 <= u ^ l) by (apply pow_le; lra).
    cbn [pow].
    assert (u ^ l * Rabs (c - B2R x) <= u ^ l * (u * Rabs c + eps)) by (apply Rmult_le_compat_l; lra).
    assert (0 <= u ^ l * eps * (/ 2 - u)) by (repeat apply Rmult_le_pos; lra). nra.
Qed.

Lemma greedy_err v c : greedy c v ->
  Rabs (c - val v) <= u ^ length v * Rabs c + bpow radix2 (-1074).
Proof.
  intro G. eapply Rle_trans; [apply (greedy_err_aux _ _ G)|].
  pose proof u_small. assert (He : 0 < bpow radix2 (-1075)) by apply bpow_gt_0.
  change (-1074)%Z with (-1075 + 1)%Z. rewrite (bpow_plus _ _ 1). change (bpow radix2 1) with 2.
  assert (P : 0 <= u ^ length v) by (apply pow_le; lra). nra.
Qed.

(** ** nearest *)
Section N.
  Variable A : arb.
  Variable mem : ball A -> R -> Prop.
  Hypothesis HA : encloses A mem.

  Lemma dlit_dy m e : fin (dlit m e) -> B2R (dlit m e) = rn (dy m e).
  Proof. apply lit_rn. Qed.

  Lemma round_nearest_d_ok c x p v : (2 <= p)%Z -> mem c x ->
    round_nearest_d A c p = Some v -> fin v -> B2R v = rn x.
  Proof.
    intros Hp M E F. unfold round_nearest_d in E.
    destruct (e_bounds A mem HA c x p Hp M) as [Lo Hi].
    destruct (bounds A c p) as [a b]. cbn [fst snd] in *.
    destruct (deq (round_d a) (round_d b)) eqn:D; cbn [orb] in E.
    - injection E as <-. destruct (deq_fin _ _ F D) as [F' E'].
      destruct (round_d_fin _ F) as (m & e & ->). destruct (round_d_fin _ F') as (m' & e' & ->).
      cbn [round_d below above] in *. rewrite dlit_dy in * by assumption.
      rewrite dlit_dy in E' by assumption. symmetry. eapply rn_between; eauto.
    - destruct (is_finite (round_d a)) eqn:Fa; cbn [negb] in E; [discriminate|].
      injection E as <-. unfold fin in F. congruence.
  Qed.

  Lemma round_terms_ok : forall n dc c p e, (2 <= p)%Z -> mem dc c ->
    round_terms A n dc p = Some e -> Forall fin e -> length e = n /\ greedy c e.
  Proof.
    induction n as [|n IH]; intros dc c p e Hp M E F; cbn [round_terms] in E.
    - injection E as <-. now split.
    - destruct (round_nearest_d A dc p) as [x|] eqn:Ex; [|discriminate].
      destruct (round_terms A n (b_sub A dc (b_d A x) p) p) as [l|] eqn:El; [|discriminate].
      injection E as <-. inversion F; subst.
      assert (M' : mem (b_sub A dc (b_d A x) p) (c - B2R x)).
      { apply (e_sub A mem HA); auto. now apply (e_d A mem HA). }
      destruct (IH _ (c - B2R x) p l Hp M' El H2) as [L G].
      cbn. repeat split; auto. eapply round_nearest_d_ok; eauto.
  Qed.

  Lemma round_terms_length : forall n dc p e, round_terms A n dc p = Some e -> length e = n.
  Proof.
    induction n as [|n IH]; intros dc p e E; cbn [round_terms] in E; [now injection E as <-|].
    destruct (round_nearest_d A dc p); [|discriminate].
    destruct (round_terms A n _ p) eqn:El; [|discriminate]. injection E as <-. cbn. f_equal. eauto.
  Qed.

  Lemma round_loop_some : forall fuel n c p v, round_loop A fuel n c p = Ok v ->
    exists q, (p <= q \/ p <= 0)%Z /\ round_terms A n (b_arf A c) q = Some v.
  Proof.
    induction fuel as [|fuel IH]; intros n c p v E; cbn [round_loop] in E;
      destruct (p <=? 10000)%Z eqn:Hp; try discriminate;
      destruct (round_terms A n (b_arf A c) p) as [e|] eqn:Et; try discriminate.
    - injection E as <-. exists p. split; [lia|assumption].
    - injection E as <-. exists p. split; [lia|assumption].
    - destruct (IH _ _ _ _ E) as (q & Hq & Eq). exists q. split; [lia|assumption].
  Qed.

  Lemma round_near_ok k m e v : round_near A k (AFin m e) = Ok v -> Forall fin v ->
    rounded k (dy m e) v.
  Proof.
    intros E F. destruct k as [|n]; cbn [round_near] in E.
    - injection E as <-. inversion F; subst. split; [reflexivity|]. cbn [greedy].
      split; [|exact I]. now apply dlit_dy.
    - unfold round_exp in E. apply round_loop_some in E. destruct E as (q & Hq & E).
      destruct n as [|n].
      + cbn in E. injection E as <-. now split.
      + eapply round_terms_ok with (p := q); eauto; [lia|]. now apply (e_arf A mem HA).
  Qed.

  Lemma round_near_length k a v : round_near A k a = Ok v -> length v = width k.
  Proof.
    destruct k as [|n]; cbn [round_near]; intro E; [now injection E as <-|].
    unfold round_exp in E. apply round_loop_some in E. destruct E as (q & Hq & E).
    now apply round_terms_length in E.
  Qed.

  Lemma round_near_fin k a v : round_near A k a = Ok v -> Forall fin v -> (0 < width k)%nat ->
    finite_arf a.
  Proof.
    intros E F W. destruct a as [m e|s|]; [exact I| |]; exfalso;
      (destruct k as [|n]; cbn [round_near] in E;
       [injection E as <-; inversion F; subst; discriminate|]);
      apply round_loop_some in E; destruct E as (q & Hq & E);
      (destruct n as [|n]; [cbn in W; lia|]); cbn [round_terms] in E;
      destruct (round_nearest_d A _ q) as [x|] eqn:Ex; try discriminate;
      destruct (round_terms A n _ q); try discriminate; injection E as <-; inversion F; subst.
    all: unfold round_nearest_d in Ex.
    1: pose proof (e_inf A mem HA (AInf s) q (fun H => H)) as NF.
    2: pose proof (e_inf A mem HA ANan q (fun H => H)) as NF.
    all: destruct (bounds A _ q) as [a b]; cbn [fst] in NF;
      destruct (_ || _); try discriminate; injection Ex as <-;
      destruct a; [now apply NF|discriminate|discriminate].
  Qed.

  Lemma round_nearest_ok k c x p v : (2 <= p)%Z -> mem c x ->
    round_nearest A k c p = Ok (Some v) -> Forall fin v -> rounded k x v.
  Proof.
    intros Hp M E F. unfold round_nearest in E.
    destruct (e_bounds A mem HA c x p Hp M) as [Lo Hi].
    destruct (bounds A c p) as [a b]. cbn [fst snd] in *.
    destruct (round_near A k a) as [a_| |] eqn:Ea; try discriminate.
    destruct (round_near A k b) as [b_| |] eqn:Eb; try discriminate.
    cbn [bind] in E.
    destruct (same_value a_ b_) eqn:S; cbn [orb] in E.
    - injection E as <-. destruct (same_value_fin _ _ F S) as [F' Em].
      split; [eapply round_near_length; eauto|].
      destruct (Nat.eq_dec (width k) 0) as [Z|NZ].
      { assert (a_ = []) as ->; [|exact I]. apply length_zero_iff_nil.
        rewrite <- Z. eapply round_near_length; eauto. }
      destruct a as [m e|?|]; [|exact (False_ind _ (round_near_fin _ _ _ Ea F ltac:(lia)))..].
      destruct b as [m' e'|?|]; [|exact (False_ind _ (round_near_fin _ _ _ Eb F' ltac:(lia)))..].
      destruct (round_near_ok _ _ _ _ Ea F) as [_ Ga].
      destruct (round_near_ok _ _ _ _ Eb F') as [_ Gb].
      cbn [below above] in *. eapply greedy_between; eauto.
      eapply greedy_ext; [symmetry; exact Em|assumption].
    - destruct (all_finite a_) eqn:Fa; cbn [negb] in E; [discriminate|].
      injection E as <-. apply all_finite_spec in F. congruence.
  Qed.

  Lemma round_nearest_c_ok k z x y p v : (2 <= p)%Z -> mem (fst z) x -> mem (snd z) y ->
    round_nearest_c A k z p = Ok (Some v) ->
    (Forall fin (fst v) -> rounded k x (fst v)) /\ (Forall fin (snd v) -> rounded k y (snd v)).
  Proof.
    intros Hp M1 M2 E. unfold round_nearest_c in E.
    destruct (round_nearest A k (fst z) p) as [[r|]| |] eqn:Er; try discriminate.
    cbn [bind] in E.
    destruct (round_nearest A k (snd z) p) as [[i|]| |] eqn:Ei; try discriminate.
    cbn [bind] in E. injection E as <-. cbn [fst snd].
    split; intro F; eapply round_nearest_ok; eauto.
  Qed.

  (** What the loop over precisions does. *)
  Lemma nearest_loop_ok {B V} (rnd : B -> Z -> res (option V)) f v :
    nearest_loop rnd f 4 200 = Ok v -> exists p, In p precisions /\ rnd (f p) p = Ok (Some v).
  Proof.
    cbn [nearest_loop].
    change (2 * 200)%Z with 400%Z. change (2 * 400)%Z with 800%Z.
    change (2 * 800)%Z with 1600%Z. change (2 * 1600)%Z with 3200%Z.
    change (2 * 3200)%Z with 6400%Z. cbn [Z.ltb Z.compare Pos.compare Pos.compare_cont].
    intro E.
    repeat match type of E with
    | bind (rnd (f ?p) ?p) _ = _ =>
        let H := fresh in
        destruct (rnd (f p) p) as [[w|]| |] eqn:H; cbn [bind] in E; try discriminate;
        try (injection E as <-; exists p; split; [unfold precisions; cbn; tauto|exact H])
    end.
  Qed.

  Lemma nearest_loop_ub {B V} (rnd : B -> Z -> res (option V)) f :
    (forall p, rnd (f p) p <> UB) -> nearest_loop rnd f 4 200 <> UB.
  Proof.
    intro H. cbn [nearest_loop].
    change (2 * 200)%Z with 400%Z. change (2 * 400)%Z with 800%Z.
    change (2 * 800)%Z with 1600%Z. change (2 * 1600)%Z with 3200%Z.
    change (2 * 3200)%Z with 6400%Z. cbn [Z.ltb Z.compare Pos.compare Pos.compare_cont].
    intro E.
    repeat match type of E with
    | bind (rnd (f ?p) ?p) _ = _ =>
        pose proof (H p);
        destruct (rnd (f p) p) as [[w|]| |]; cbn [bind] in E; try discriminate; try congruence
    end.
  Qed.

  Lemma nearest_loop_ext {B V} (rnd : B -> Z -> res (option V)) f g :
    (forall p, In p precisions -> f p = g p) ->
    nearest_loop rnd f 4 200 = nearest_loop rnd g 4 200.
  Proof.
    intro H. cbn [nearest_loop].
    change (2 * 200)%Z with 400%Z. change (2 * 400)%Z with 800%Z.
    change (2 * 800)%Z with 1600%Z. change (2 * 1600)%Z with 3200%Z.
    rewrite !H by (unfold precisions; cbn; tauto). reflexivity.
  Qed.

  Lemma precision_2 p : In p precisions -> (2 <= p)%Z.
  Proof. unfold precisions. cbn. intros [<-|[<-|[<-|[<-|[<-|[]]]]]]; lia. Qed.

  Lemma nearest_ok k f c v : (forall p, In p precisions -> mem (f p) c) ->
    nearest A k f = Ok v -> Forall fin v -> rounded k c v.
  Proof.
    intros M E F. apply nearest_loop_ok in E. destruct E as (p & Hp & E).
    eapply round_nearest_ok; eauto. now apply precision_2.
  Qed.

  Lemma nearest_c_ok k f x y v :
    (forall p, In p precisions -> mem (fst (f p)) x /\ mem (snd (f p)) y) ->
    nearest_c A k f = Ok v ->
    (Forall fin (fst v) -> rounded k x (fst v)) /\ (Forall fin (snd v) -> rounded k y (snd v)).
  Proof.
    intros M E. apply nearest_loop_ok in E. destruct E as (p & Hp & E).
    destruct (M p Hp). eapply round_nearest_c_ok; eauto. now apply precision_2.
  Qed.

  (** Nothing is undefined. *)
  Lemma round_loop_ub : forall fuel n c p, (0 < p)%Z -> (10000 < p * 2 ^ Z.of_nat fuel)%Z ->
    round_loop A fuel n c p <> UB.
  Proof.
    induction fuel as [|fuel IH]; intros n c p H0 H; cbn [round_loop];
      destruct (p <=? 10000)%Z eqn:Hp; try discriminate;
      destruct (round_terms A n (b_arf A c) p); try discriminate.
    - exfalso. cbn in H. lia.
    - apply IH; [lia|]. rewrite Nat2Z.inj_succ, Z.pow_succ_r in H by lia. lia.
  Qed.

  Lemma round_near_ub k c : round_near A k c <> UB.
  Proof.
    destruct k as [|[|n]]; cbn [round_near]; [discriminate|discriminate|].
    apply round_loop_ub; [lia|]. change (2 ^ Z.of_nat 8)%Z with 256%Z. lia.
  Qed.

  Lemma round_nearest_ub k c p : round_nearest A k c p <> UB.
  Proof.
    unfold round_nearest. destruct (bounds A c p) as [a b].
    pose proof (round_near_ub k a). pose proof (round_near_ub k b).
    destruct (round_near A k a); try discriminate; [|congruence].
    destruct (round_near A k b); try discriminate; congruence.
  Qed.

  Lemma round_nearest_c_ub k z p : round_nearest_c A k z p <> UB.
  Proof.
    unfold round_nearest_c.
    pose proof (round_nearest_ub k (fst z) p). pose proof (round_nearest_ub k (snd z) p).
    destruct (round_nearest A k (fst z) p) as [[r|]| |]; try discriminate; try congruence.
    cbn [bind].
    destruct (round_nearest A k (snd z) p) as [[i|]| |]; try discriminate; congruence.
  Qed.

  Lemma nearest_ub k f : nearest A k f <> UB.
  Proof. apply nearest_loop_ub. intro. apply round_nearest_ub. Qed.
  Lemma nearest_c_ub k f : nearest_c A k f <> UB.
  Proof. apply nearest_loop_ub. intro. apply round_nearest_c_ub. Qed.

  (** A tight enough enclosure makes it return (for double). *)
  Lemma round_nearest_double c p : exists r, round_nearest A Double c p = Ok r.
  Proof. unfold round_nearest. destruct (bounds A c p). cbn. eauto. Qed.

  Lemma nearest_returns f p a b : In p precisions -> bounds A (f p) p = (a, b) ->
    deq (round_d a) (round_d b) = true -> exists v, nearest A Double f = Ok v.
  Proof.
    intros Hp Eb D.
    assert (Ep : round_nearest A Double (f p) p = Ok (Some [round_d a])).
    { unfold round_nearest. rewrite Eb. cbn. rewrite D. reflexivity. }
    unfold nearest. cbn [nearest_loop].
    change (2 * 200)%Z with 400%Z. change (2 * 400)%Z with 800%Z.
    change (2 * 800)%Z with 1600%Z. change (2 * 1600)%Z with 3200%Z.
    change (2 * 3200)%Z with 6400%Z. cbn [Z.ltb Z.compare Pos.compare Pos.compare_cont].
    destruct (round_nearest_double (f 200%Z) 200) as [[w|] E1]; rewrite E1; cbn [bind]; [eauto|].
    destruct (round_nearest_double (f 400%Z) 400) as [[w|] E2]; rewrite E2; cbn [bind]; [eauto|].
    destruct (round_nearest_double (f 800%Z) 800) as [[w|] E3]; rewrite E3; cbn [bind]; [eauto|].
    destruct (round_nearest_double (f 1600%Z) 1600) as [[w|] E4]; rewrite E4; cbn [bind]; [eauto|].
    destruct (round_nearest_double (f 3200%Z) 3200) as [[w|] E5]; rewrite E5; cbn [bind]; [eauto|].
    exfalso. unfold precisions in Hp. cbn in Hp.
    destruct Hp as [<-|[<-|[<-|[<-|[<-|[]]]]]]; congruence.
  Qed.

  (** The constants. *)
  Lemma to_u64_id b : (1 <= b < 2 ^ 63)%Z -> to_u64 b = b.
  Proof. intro H. unfold to_u64. apply Z.mod_small. lia. Qed.

  Lemma nearest_sqrt_ok k a b v : (0 <= a)%Z -> (1 <= b < 2 ^ 63)%Z ->
    nearest_sqrt A k a b = Ok v -> Forall fin v -> rounded k (sqrt (IZR a / IZR b)) v.
  Proof.
    intros Ha Hb E F. unfold nearest_sqrt in E. rewrite to_u64_id in E by assumption.
    apply (nearest_ok k _ _ v) in E || eapply nearest_ok in E; eauto.
    intros p Hp. apply precision_2 in Hp. apply (e_sqrt A mem HA); auto.
    - apply Rmult_le_pos; [apply IZR_le; lia|]. apply Rlt_le, Rinv_0_lt_compat, IZR_lt. lia.
    - apply (e_div A mem HA); auto; [lia|]. now apply (e_si A mem HA).
  Qed.

  Lemma nearest_twiddle_ok k a b v : (1 <= b < 2 ^ 63)%Z ->
    nearest_twiddle A k a b = Ok v ->
    (Forall fin (fst v) -> rounded k (cos (2 * PI * IZR a / IZR b)) (fst v)) /\
    (Forall fin (snd v) -> rounded k (sin (2 * PI * IZR a / IZR b)) (snd v)).
  Proof.
    intros Hb E. unfold nearest_twiddle in E. destruct (_ || _); [discriminate|].
    rewrite to_u64_id in E by assumption.
    eapply nearest_c_ok; [|exact E].
    intros p Hp. apply precision_2 in Hp.
    replace (2 * PI * IZR a / IZR b) with (PI * IZR (2 * a) / IZR b).
    - apply (e_cis A mem HA); auto. lia.
    - rewrite mult_IZR. field. apply not_0_IZR. lia.
  Qed.

  Lemma nearest_twiddle_ub k a b : (- 2 ^ 62 <= a < 2 ^ 62)%Z -> nearest_twiddle A k a b <> UB.
  Proof.
    intro H. unfold nearest_twiddle.
    replace ((2 * a <? - 2 ^ 63)%Z || (2 ^ 63 <=? 2 * a)%Z) with false.
    - apply nearest_c_ub.
    - symmetry. apply orb_false_iff. lia.
  Qed.
End N.
