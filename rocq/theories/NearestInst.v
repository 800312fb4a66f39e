(** A ball arithmetic that satisfies the contract of NearestProofs.v: intervals whose ends are
    numbers [m * 2^e], with exact arithmetic.  It shows that the contract can be met, and the
    examples of Properties_Nearest.v run the model on it.  Nothing else depends on it. *)
From Coq Require Import ZArith QArith Qreals List Bool Reals Lia Lra Machin.
From Flocq Require Import Core BinarySingleNaN.
From Verif Require Import Base ExpansionModel ExpansionFloat ExpansionProofs NearestModel NearestProofs.
Import ListNotations.
Open Scope R_scope.

(** ** An enclosure of pi *)

(** The sum of the first terms of Machin's series in whole numbers, scaled by [2^pi_guard]: a lower
    and an upper bound.  [a] and [b] enclose the scaled odd powers of 1/3 and 1/7. *)
Definition pi_guard : Z := 280.
Definition mnext (k : Z) (a : Z * Z) : Z * Z := (fst a / k, snd a / k + 1)%Z.
Fixpoint mloop (n i : nat) (a b : Z * Z) : Z * Z :=
  match n with
  | O => (0, 0)%Z
  | S n =>
      let d := (2 * Z.of_nat i + 1)%Z in
      let tl := (2 * (fst a / d) + fst b / d)%Z in
      let th := (2 * (snd a / d + 1) + (snd b / d + 1))%Z in
      let r := mloop n (S i) (mnext 9 a) (mnext 49 b) in
      if Nat.even i then (tl + fst r, th + snd r)%Z else (fst r - th, snd r - tl)%Z
  end.
Definition msum (n : nat) : Z * Z :=
  mloop n 0 (2 ^ pi_guard / 3, 2 ^ pi_guard / 3 + 1)%Z (2 ^ pi_guard / 7, 2 ^ pi_guard / 7 + 1)%Z.

Definition zin (a : Z * Z) (x : R) : Prop := IZR (fst a) <= x <= IZR (snd a).
Lemma div_in z (k : Z) x : (0 < k)%Z -> x = IZR z / IZR k -> zin (z / k, z / k + 1)%Z x.
Proof.
  intros Hk ->. unfold zin. cbn [fst snd].
  pose proof (Z.div_mod z k ltac:(lia)) as D. pose proof (Z.mod_pos_bound z k Hk) as M.
  assert (P : 0 < IZR k) by (apply IZR_lt; exact Hk).
  assert (E : IZR z = IZR k * IZR (z / k) + IZR (z mod k)) by (rewrite <- mult_IZR, <- plus_IZR; f_equal; exact D).
  assert (M0 : 0 <= IZR (z mod k)) by (apply IZR_le; lia).
  assert (M1 : IZR (z mod k) <= IZR k) by (apply IZR_le; lia).
  rewrite plus_IZR. split.
  - apply Rmult_le_reg_r with (IZR k); [exact P|]. unfold Rdiv. rewrite Rmult_assoc, Rinv_l, E by lra. lra.
  - apply Rmult_le_reg_r with (IZR k); [exact P|]. unfold Rdiv. rewrite Rmult_assoc, Rinv_l, E by lra. lra.
Qed.
Lemma mnext_in k a x : (0 < k)%Z -> zin a x -> zin (mnext k a) (x / IZR k).
Proof.
  intros Hk [L H]. assert (P : 0 < IZR k) by (apply IZR_lt; exact Hk).
  pose proof (div_in (fst a) k _ Hk eq_refl) as [A _]. pose proof (div_in (snd a) k _ Hk eq_refl) as [_ B].
  cbn [fst snd] in *. unfold mnext, zin. cbn [fst snd].
  assert (I : 0 < / IZR k) by (apply Rinv_0_lt_compat; exact P). unfold Rdiv in *. split.
  - eapply Rle_trans; [exact A|]. apply Rmult_le_compat_r; lra.
  - eapply Rle_trans; [|exact B]. apply Rmult_le_compat_r; lra.
Qed.

Fixpoint rsum (f : nat -> R) (n i : nat) : R :=
  match n with O => 0 | S n => f i + rsum f n (S i) end.
Lemma rsum_last f : forall n i, rsum f (S n) i = rsum f n i + f (i + n)%nat.
Proof.
  induction n as [|n IH]; intro i.
  - cbn [rsum]. rewrite Nat.add_0_r. ring.
  - change (rsum f (S (S n)) i) with (f i + rsum f (S n) (S i)). rewrite IH.
    change (rsum f (S n) i) with (f i + rsum f n (S i)). replace (i + S n)%nat with (S i + n)%nat by lia. ring.
Qed.
Lemma rsum_f f : forall n, sum_f_R0 f n = rsum f (S n) 0.
Proof.
  induction n as [|n IH]; [cbn; ring|]. rewrite rsum_last, <- IH. cbn [sum_f_R0]. reflexivity.
Qed.

Lemma mloop_in G : forall n i a b,
  zin a (G * (/ 3) ^ (2 * i + 1)) -> zin b (G * (/ 7) ^ (2 * i + 1)) ->
  zin (mloop n i a b) (G * rsum (tg_alt PI_2_3_7_tg) n i).
Proof.
  induction n as [|n IH]; intros i a b Ha Hb; cbn [mloop rsum].
  - unfold zin. cbn [fst snd]. lra.
  - set (d := (2 * Z.of_nat i + 1)%Z). assert (Hd : (0 < d)%Z) by (subst d; lia).
    assert (Ed : IZR d = INR (2 * i + 1)).
    { subst d. rewrite plus_INR, mult_INR, plus_IZR, mult_IZR, <- INR_IZR_INZ. reflexivity. }
    destruct (mnext_in d a _ Hd Ha) as [A1 A2]. destruct (mnext_in d b _ Hd Hb) as [B1 B2].
    specialize (IH (S i) (mnext 9 a) (mnext 49 b)).
    replace (2 * S i + 1)%nat with (S (S (2 * i + 1))) in IH by lia. cbn [pow] in IH.
    assert (Ia : zin (mnext 9 a) (G * (/ 3 * (/ 3 * (/ 3) ^ (2 * i + 1))))).
    { replace (G * (/ 3 * (/ 3 * (/ 3) ^ (2 * i + 1)))) with (G * (/ 3) ^ (2 * i + 1) / 9) by field.
      apply mnext_in; [lia|exact Ha]. }
    assert (Ib : zin (mnext 49 b) (G * (/ 7 * (/ 7 * (/ 7) ^ (2 * i + 1))))).
    { replace (G * (/ 7 * (/ 7 * (/ 7) ^ (2 * i + 1)))) with (G * (/ 7) ^ (2 * i + 1) / 49) by field.
      apply mnext_in; [lia|exact Hb]. }
    destruct (IH Ia Ib) as [R1 R2]. clear IH.
    unfold mnext in A1, A2, B1, B2. cbn [fst snd] in A1, A2, B1, B2. rewrite Ed in *.
    unfold tg_alt at 1, PI_2_3_7_tg at 1, Ratan_seq.
    set (pa := (/ 3) ^ (2 * i + 1)) in *. set (pb := (/ 7) ^ (2 * i + 1)) in *.
    set (N := INR (2 * i + 1)) in *. set (r := mloop n (S i) (mnext 9 a) (mnext 49 b)) in *.
    set (rs := rsum (tg_alt PI_2_3_7_tg) n (S i)) in *. clearbody r rs pa pb. unfold zin.
    rewrite plus_IZR in A2, B2.
    destruct (Nat.even i) eqn:Ev; cbn [fst snd].
    + apply Nat.even_spec in Ev. destruct Ev as [k ->]. rewrite pow_1_even.
      rewrite !plus_IZR, !mult_IZR, !plus_IZR. unfold Rdiv in *. split; lra.
    + assert (O : Nat.odd i = true) by (unfold Nat.odd; now rewrite Ev).
      apply Nat.odd_spec in O. destruct O as [k ->]. rewrite Nat.add_1_r, pow_1_odd.
      rewrite !minus_IZR, !plus_IZR, !mult_IZR, !plus_IZR. unfold Rdiv in *. split; lra.
Qed.

Lemma msum_R n : zin (msum (S n)) (IZR (2 ^ pi_guard) * sum_f_R0 (tg_alt PI_2_3_7_tg) n).
Proof.
  rewrite rsum_f. unfold msum. apply mloop_in; cbn [Nat.mul Nat.add pow]; rewrite Rmult_1_r.
  - apply (div_in _ 3); [lia|reflexivity].
  - apply (div_in _ 7); [lia|reflexivity].
Qed.

Definition pi_bits : Z := 260.
Definition pi_lo : Z := Eval vm_compute in (4 * fst (msum 166) / 2 ^ (pi_guard - pi_bits))%Z.

Lemma pi_bounds : dy pi_lo (- pi_bits) <= PI <= dy (pi_lo + 1) (- pi_bits).
Proof.
  destruct (PI_2_3_7_ineq 82) as [L U].
  change (S (2 * 82)) with 165%nat in L. change (2 * 82)%nat with 164%nat in U.
  pose proof (proj1 (msum_R 165)) as L'. pose proof (proj2 (msum_R 164)) as U'.
  assert (CL : (pi_lo * 2 ^ (pi_guard - pi_bits) <= 4 * fst (msum 166))%Z)
    by (apply Z.leb_le; vm_compute; reflexivity).
  assert (CU : (4 * snd (msum 165) <= (pi_lo + 1) * 2 ^ (pi_guard - pi_bits))%Z)
    by (apply Z.leb_le; vm_compute; reflexivity).
  apply IZR_le in CL, CU. rewrite !mult_IZR in CL, CU.
  assert (G : IZR (2 ^ pi_guard) = bpow radix2 pi_guard) by (apply (IZR_Zpower radix2); discriminate).
  assert (G' : IZR (2 ^ (pi_guard - pi_bits)) = bpow radix2 pi_guard * bpow radix2 (- pi_bits)).
  { rewrite <- bpow_plus. apply (IZR_Zpower radix2). discriminate. }
  rewrite G' in CL, CU. rewrite G in L', U'.
  assert (P : 0 < bpow radix2 pi_guard) by apply bpow_gt_0.
  unfold dy, F2R. cbn [Fnum Fexp].
  set (g := bpow radix2 pi_guard) in *. set (h := bpow radix2 (- pi_bits)) in *. clearbody g h.
  set (s1 := sum_f_R0 (tg_alt PI_2_3_7_tg) 165) in *. set (s2 := sum_f_R0 (tg_alt PI_2_3_7_tg) 164) in *.
  set (z1 := IZR (fst (msum 166))) in *. set (z2 := IZR (snd (msum 165))) in *.
  clearbody s1 s2 z1 z2. clear G G'.
  set (p1 := IZR pi_lo) in *. set (p2 := IZR (pi_lo + 1)) in *. clearbody p1 p2.
  split; apply Rmult_le_reg_l with g; try exact P; nra.
Qed.

(** ** Numbers [m * 2^e] *)
Definition num : Type := Z * Z.
Definition nR (x : num) : R := dy (fst x) (snd x).

Lemma dy_mul m e : dy m e = IZR m * bpow radix2 e.
Proof. reflexivity. Qed.

Definition align (x : num) (e : Z) : Z := (fst x * 2 ^ (snd x - e))%Z.
Lemma align_R x e : (e <= snd x)%Z -> nR x = dy (align x e) e.
Proof.
  intro H. unfold nR, align. rewrite !dy_mul, mult_IZR.
  rewrite (IZR_Zpower radix2) by lia. rewrite Rmult_assoc, <- bpow_plus. f_equal. f_equal. lia.
Qed.
Definition low (x y : num) : Z := Z.min (snd x) (snd y).
Definition nadd (x y : num) : num := ((align x (low x y) + align y (low x y))%Z, low x y).
Definition nopp (x : num) : num := ((- fst x)%Z, snd x).
Definition nmul (x y : num) : num := ((fst x * fst y)%Z, (snd x + snd y)%Z).
Definition nle (x y : num) : bool := (align x (low x y) <=? align y (low x y))%Z.
Definition nmin (x y : num) : num := if nle x y then x else y.
Definition nmax (x y : num) : num := if nle x y then y else x.

Lemma nadd_R x y : nR (nadd x y) = nR x + nR y.
Proof.
  rewrite (align_R x (low x y)), (align_R y (low x y)) by (unfold low; lia).
  unfold nadd, nR. cbn [fst snd]. rewrite !dy_mul, plus_IZR. ring.
Qed.
Lemma nopp_R x : nR (nopp x) = - nR x.
Proof. unfold nopp, nR. cbn [fst snd]. rewrite !dy_mul, opp_IZR. ring. Qed.
Lemma nmul_R x y : nR (nmul x y) = nR x * nR y.
Proof. unfold nmul, nR. cbn [fst snd]. rewrite !dy_mul, mult_IZR, bpow_plus. ring. Qed.
Lemma nle_R x y : if nle x y then nR x <= nR y else nR y <= nR x.
Proof.
  unfold nle. rewrite (align_R x (low x y)), (align_R y (low x y)) by (unfold low; lia).
  rewrite !dy_mul. pose proof (bpow_gt_0 radix2 (low x y)).
  destruct (_ <=? _)%Z eqn:E; apply Rmult_le_compat_r; try lra; apply IZR_le; lia.
Qed.
Lemma nmin_R x y : nR (nmin x y) <= nR x /\ nR (nmin x y) <= nR y.
Proof. unfold nmin. pose proof (nle_R x y). destruct (nle x y); lra. Qed.
Lemma nmax_R x y : nR x <= nR (nmax x y) /\ nR y <= nR (nmax x y).
Proof. unfold nmax. pose proof (nle_R x y). destruct (nle x y); lra. Qed.

(** ** Intervals; [None] is the whole line *)
Definition ival : Type := option (num * num).
Definition imem (c : ival) (x : R) : Prop :=
  match c with None => True | Some (a, b) => nR a <= x <= nR b end.
Definition lift2 (f : num * num -> num * num -> num * num) (x y : ival) : ival :=
  match x, y with Some x, Some y => Some (f x y) | _, _ => None end.

Definition iadd := lift2 (fun x y => (nadd (fst x) (fst y), nadd (snd x) (snd y))).
Definition isub := lift2 (fun x y => (nadd (fst x) (nopp (snd y)), nadd (snd x) (nopp (fst y)))).
Definition imul := lift2 (fun x y =>
  let a := nmul (fst x) (fst y) in let b := nmul (fst x) (snd y) in
  let c := nmul (snd x) (fst y) in let d := nmul (snd x) (snd y) in
  (nmin (nmin a b) (nmin c d), nmax (nmax a b) (nmax c d))).
Definition ipoint (x : num) : ival := Some (x, x).
Definition idouble (x : double) : ival :=
  match x with
  | B754_zero _ => ipoint (0%Z, 0%Z)
  | B754_finite s m e _ => ipoint (cond_Zopp s (Zpos m), e)
  | _ => None
  end.
Definition iexact (x : list double) : ival :=
  fold_right (fun d c => iadd (idouble d) c) (ipoint (0%Z, 0%Z)) x.
Definition idiv (x : ival) (b p : Z) : ival :=
  match x with
  | None => None
  | Some ((m, e), (m', e')) =>
      Some (((m * 2 ^ p / b)%Z, (e - p)%Z), ((m' * 2 ^ p / b + 1)%Z, (e' - p)%Z))
  end.
Definition isqrt (x : ival) (p : Z) : ival :=
  match x with
  | None => None
  | Some (a, b) =>
      let q := Z.max p (Z.max (- snd a) (- snd b)) in
      Some ((Z.sqrt (align a (- (2 * q))), - q)%Z, ((Z.sqrt (align b (- (2 * q))) + 1)%Z, - q)%Z)
  end.
Definition icis (a b : Z) : ival * ival :=
  if (2 * a mod b =? 0)%Z then
    match (2 * a / b mod 4)%Z with
    | 0%Z => (ipoint (1, 0)%Z, ipoint (0, 0)%Z)
    | 1%Z => (ipoint (0, 0)%Z, ipoint (1, 0)%Z)
    | 2%Z => (ipoint (-1, 0)%Z, ipoint (0, 0)%Z)
    | _ => (ipoint (0, 0)%Z, ipoint (-1, 0)%Z)
    end
  else (Some ((-1, 0)%Z, (1, 0)%Z), Some ((-1, 0)%Z, (1, 0)%Z)).

Definition intervals : arb := {|
  ball := ival;
  bounds := fun c _ => match c with
    | None => (AInf true, AInf false)
    | Some (a, b) => (AFin (fst a) (snd a), AFin (fst b) (snd b)) end;
  b_arf := fun a => match a with AFin m e => ipoint (m, e) | _ => None end;
  b_d := idouble;
  b_sub := fun x y _ => isub x y;
  b_pi := fun _ => Some ((pi_lo, (- pi_bits)%Z), ((pi_lo + 1)%Z, (- pi_bits)%Z));
  b_si := fun a => ipoint (a, 0%Z);
  b_div_ui := idiv;
  b_sqrt := isqrt;
  b_cis := fun a b _ => icis a b;
  c_mul := fun x y _ => (isub (imul (fst x) (fst y)) (imul (snd x) (snd y)),
                         iadd (imul (fst x) (snd y)) (imul (snd x) (fst y)));
  b_exact := iexact;
  b_add := fun x y _ => iadd x y;
  b_sqr := fun x _ => imul x x;
  b_mul_si := fun x c _ => imul x (ipoint (c, 0%Z));
  b_mul := fun x y _ => imul x y;
  b_zero := ipoint (0, 0)%Z
|}.

Lemma ipoint_mem x : imem (ipoint x) (nR x).
Proof. cbn. lra. Qed.
Lemma nR_int a : nR (a, 0%Z) = IZR a.
Proof. unfold nR. cbn [fst snd]. rewrite dy_mul. cbn. ring. Qed.
Lemma iint_mem a : imem (ipoint (a, 0%Z)) (IZR a).
Proof. rewrite <- nR_int. apply ipoint_mem. Qed.

Lemma iadd_mem x y a b : imem x a -> imem y b -> imem (iadd x y) (a + b).
Proof.
  destruct x as [[x1 x2]|], y as [[y1 y2]|]; cbn; auto. rewrite !nadd_R. lra.
Qed.
Lemma isub_mem x y a b : imem x a -> imem y b -> imem (isub x y) (a - b).
Proof.
  destruct x as [[x1 x2]|], y as [[y1 y2]|]; cbn; auto. rewrite !nadd_R, !nopp_R. lra.
Qed.
Lemma between_mul a1 a a2 b : a1 <= a <= a2 ->
  (a1 * b <= a * b <= a2 * b) \/ (a2 * b <= a * b <= a1 * b).
Proof. intros. destruct (Rle_dec 0 b); [left|right]; nra. Qed.
Lemma imul_mem x y a b : imem x a -> imem y b -> imem (imul x y) (a * b).
Proof.
  destruct x as [[x1 x2]|], y as [[y1 y2]|]; cbn [imul lift2 imem fst snd]; auto. intros Ha Hb.
  pose proof (nmin_R (nmin (nmul x1 y1) (nmul x1 y2)) (nmin (nmul x2 y1) (nmul x2 y2))).
  pose proof (nmin_R (nmul x1 y1) (nmul x1 y2)). pose proof (nmin_R (nmul x2 y1) (nmul x2 y2)).
  pose proof (nmax_R (nmax (nmul x1 y1) (nmul x1 y2)) (nmax (nmul x2 y1) (nmul x2 y2))).
  pose proof (nmax_R (nmul x1 y1) (nmul x1 y2)). pose proof (nmax_R (nmul x2 y1) (nmul x2 y2)).
  rewrite !nmul_R in *.
  pose proof (between_mul (nR x1) a (nR x2) b Ha).
  pose proof (between_mul (nR y1) b (nR y2) (nR x1) Hb) as P1.
  pose proof (between_mul (nR y1) b (nR y2) (nR x2) Hb) as P2.
  rewrite !(Rmult_comm _ (nR x1)) in P1. rewrite !(Rmult_comm _ (nR x2)) in P2.
  rewrite (Rmult_comm b (nR x1)) in * || idtac. lra.
Qed.
Lemma idouble_mem x : fin x -> imem (idouble x) (B2R x).
Proof.
  destruct x as [s|s| |s m e H]; intro F; try discriminate; cbn [idouble].
  - cbn [B2R]. apply iint_mem.
  - apply ipoint_mem.
Qed.
Lemma iexact_mem x : Forall fin x -> imem (iexact x) (val x).
Proof.
  induction 1 as [|d x H HF IH]; cbn [iexact val fold_right].
  - apply iint_mem.
  - apply iadd_mem; [now apply idouble_mem|exact IH].
Qed.
Lemma idiv_mem x a b p : (2 <= p)%Z -> (1 <= b)%Z -> imem x a -> imem (idiv x b p) (a / IZR b).
Proof.
  intros Hp Hb. destruct x as [[[m e] [m' e']]|]; cbn [idiv imem]; auto. intros [H1 H2].
  unfold nR in *. cbn [fst snd] in *. rewrite !dy_mul in *.
  assert (Pb : 0 < IZR b) by (apply IZR_lt; lia).
  assert (G : forall m e, IZR m * bpow radix2 e / IZR b = IZR (m * 2 ^ p) / IZR b * bpow radix2 (e - p)).
  { intros n f. rewrite mult_IZR, (IZR_Zpower radix2) by lia. unfold Zminus. rewrite bpow_plus.
    rewrite bpow_opp. field. split; [apply Rgt_not_eq, bpow_gt_0|lra]. }
  assert (D : forall n, IZR (n / b) <= IZR n / IZR b <= IZR (n / b + 1)).
  { intro n. pose proof (Z.div_mod n b ltac:(lia)). pose proof (Z.mod_pos_bound n b ltac:(lia)).
    split; apply Rmult_le_reg_r with (IZR b); auto; unfold Rdiv; rewrite Rmult_assoc, Rinv_l, Rmult_1_r by lra;
      rewrite <- mult_IZR; apply IZR_le; lia. }
  pose proof (bpow_gt_0 radix2 (e - p)). pose proof (bpow_gt_0 radix2 (e' - p)).
  assert (Pi : 0 < / IZR b) by now apply Rinv_0_lt_compat.
  split.
  - apply Rle_trans with (IZR m * bpow radix2 e / IZR b).
    + rewrite G. apply Rmult_le_compat_r; [lra|]. apply D.
    + unfold Rdiv. apply Rmult_le_compat_r; lra.
  - apply Rle_trans with (IZR m' * bpow radix2 e' / IZR b).
    + unfold Rdiv. apply Rmult_le_compat_r; lra.
    + rewrite G. apply Rmult_le_compat_r; [lra|]. apply D.
Qed.

Lemma sqrt_dy m q : 0 <= IZR m -> sqrt (dy m (- (2 * q))) = sqrt (IZR m) * bpow radix2 (- q).
Proof.
  intro H. rewrite dy_mul, sqrt_mult_alt by assumption. f_equal.
  replace (- (2 * q))%Z with (- q + - q)%Z by lia. rewrite bpow_plus, sqrt_square; [reflexivity|].
  apply bpow_ge_0.
Qed.
Lemma isqrt_mem x a p : (2 <= p)%Z -> 0 <= a -> imem x a -> imem (isqrt x p) (sqrt a).
Proof.
  intros Hp Ha. destruct x as [[x y]|]; cbn [isqrt imem]; auto. intros [H1 H2].
  set (q := Z.max p (Z.max (- snd x) (- snd y))).
  rewrite (align_R x (- (2 * q))) in H1 by (subst q; lia).
  rewrite (align_R y (- (2 * q))) in H2 by (subst q; lia).
  set (m := align x (- (2 * q))) in *. set (n := align y (- (2 * q))) in *.
  unfold nR. cbn [fst snd]. rewrite !dy_mul.
  assert (P : 0 < bpow radix2 (- q)) by apply bpow_gt_0.
  split.
  - destruct (Z_lt_le_dec m 0) as [Hm|Hm].
    + rewrite Z.sqrt_neg by lia. rewrite Rmult_0_l. apply sqrt_pos.
    + apply sqrt_le_1_alt in H1. rewrite sqrt_dy in H1 by (apply IZR_le; lia).
      eapply Rle_trans; [|exact H1]. apply Rmult_le_compat_r; [lra|].
      pose proof (Z.sqrt_spec m Hm) as Sm. cbv zeta in Sm. rewrite <- (sqrt_square (IZR (Z.sqrt m))).
      * apply sqrt_le_1_alt. rewrite <- mult_IZR. apply IZR_le. lia.
      * apply IZR_le. apply Z.sqrt_nonneg.
  - assert (Hn : (0 <= n)%Z).
    { destruct (Z_lt_le_dec n 0) as [N|]; [exfalso|assumption].
      rewrite dy_mul in H2. assert (IZR n < 0) by (apply IZR_lt; lia).
      pose proof (bpow_gt_0 radix2 (- (2 * q))). nra. }
    apply sqrt_le_1_alt in H2. rewrite sqrt_dy in H2 by (apply IZR_le; lia).
    eapply Rle_trans; [exact H2|]. apply Rmult_le_compat_r; [lra|].
    pose proof (Z.sqrt_spec n Hn) as Sn. cbv zeta in Sn. unfold Z.succ in Sn. rewrite <- (sqrt_square (IZR (Z.sqrt n + 1))).
    + apply sqrt_le_1_alt. rewrite <- mult_IZR. apply IZR_le. lia.
    + apply IZR_le. pose proof (Z.sqrt_nonneg n). lia.
Qed.

Lemma icis_mem a b : (1 <= b)%Z ->
  imem (fst (icis a b)) (cos (PI * IZR a / IZR b)) /\
  imem (snd (icis a b)) (sin (PI * IZR a / IZR b)).
Proof.
  intro Hb. unfold icis. destruct (2 * a mod b =? 0)%Z eqn:E.
  - set (t := (2 * a / b)%Z).
    assert (Ht : (2 * a = t * b)%Z) by
      (apply Z.eqb_eq in E; apply Z.div_exact in E; [|lia]; rewrite E, Z.mul_comm; reflexivity).
    assert (A : PI * IZR a / IZR b = IZR t * (PI / 2)).
    { apply (f_equal IZR) in Ht. rewrite !mult_IZR in Ht.
      assert (IZR b <> 0) by (apply not_0_IZR; lia).
      replace (IZR a) with (IZR t * IZR b / 2) by lra. field. assumption. }
    pose proof (Z.div_mod t 4 ltac:(lia)) as D. pose proof (Z.mod_pos_bound t 4 ltac:(lia)) as M.
    set (r := (t mod 4)%Z) in *. set (w := (t / 4)%Z) in *.
    assert (A' : PI * IZR a / IZR b = IZR r * (PI / 2) + 2 * IZR w * PI).
    { rewrite A, D, plus_IZR, mult_IZR. field. }
    assert (Per : forall x, cos (x + 2 * IZR w * PI) = cos x /\ sin (x + 2 * IZR w * PI) = sin x).
    { intro x. destruct (Z_le_dec 0 w) as [Hw|Hw].
      - rewrite <- (Z2Nat.id w), <- INR_IZR_INZ by lia. split; [apply cos_period|apply sin_period].
      - set (y := x + 2 * IZR w * PI).
        assert (X : x = y + 2 * INR (Z.to_nat (- w)) * PI).
        { subst y. rewrite INR_IZR_INZ, Z2Nat.id by lia. rewrite opp_IZR. ring. }
        clearbody y. rewrite X, cos_period, sin_period. auto. }
    rewrite A'. destruct (Per (IZR r * (PI / 2))) as [-> ->]. clearbody r. clear - M.
    assert (r = 0 \/ r = 1 \/ r = 2 \/ r = 3)%Z as [-> | [-> | [-> | ->]]] by lia; cbn [fst snd].
    + rewrite Rmult_0_l, cos_0, sin_0. split; apply iint_mem.
    + rewrite Rmult_1_l, cos_PI2, sin_PI2. split; apply iint_mem.
    + replace (2 * (PI / 2)) with PI by field. rewrite cos_PI, sin_PI. split; apply iint_mem.
    + replace (3 * (PI / 2)) with (3 * PI / 2) by field. 
      replace (3 * PI / 2) with (PI / 2 + PI) by field.
      rewrite neg_cos, neg_sin, cos_PI2, sin_PI2, Ropp_0. split; [apply iint_mem|].
      change (- (1)) with (IZR (-1)). apply iint_mem.
  - cbn [fst snd imem]. rewrite !nR_int. pose proof (COS_bound (PI * IZR a / IZR b)).
    pose proof (SIN_bound (PI * IZR a / IZR b)). lra.
Qed.

Theorem intervals_ok : encloses intervals imem.
Proof.
  constructor; cbn [ball bounds b_arf b_d b_sub b_pi b_si b_div_ui b_sqrt b_cis c_mul b_exact b_add
                    b_sqr b_mul_si b_mul b_zero intervals].
  - intros [[a b]|] x p _ H; cbn [fst snd below above]; [exact H|auto].
  - intros m e. apply (ipoint_mem (m, e)).
  - intros [m e|s|] p H; cbn in *; auto.
  - apply idouble_mem.
  - intros. now apply isub_mem.
  - intros. exact pi_bounds.
  - intros. apply iint_mem.
  - intros. apply idiv_mem; auto; lia.
  - intros. now apply isqrt_mem.
  - intros. apply icis_mem. lia.
  - intros. cbn [fst snd]. split; [apply isub_mem|apply iadd_mem]; now apply imul_mem.
  - apply iexact_mem.
  - intros. now apply iadd_mem.
  - intros. now apply imul_mem.
  - intros. apply imul_mem; auto. apply iint_mem.
  - intros. now apply imul_mem.
  - apply iint_mem.
Qed.
