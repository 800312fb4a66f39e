(** C81: the distance that the tests of the series put into their assertions. *)
From Coq Require Import ZArith List Bool Reals Lra Lia.
From Flocq Require Import Core BinarySingleNaN.
From Verif Require Import Base ExpansionModel ExpansionFloat ExpansionDiv SeriesErrModel SeriesErrSpec SeriesErrProofs.
Import ListNotations.
Open Scope R_scope.

Lemma by_SF (a b : double) : B2SF a = B2SF b -> a = b. Proof. apply B2SF_inj. Qed.
Lemma by_ok (r : res double) b : match r with Ok a => Some (B2SF a) | _ => None end = Some (B2SF b) -> r = Ok b.
Proof. destruct r; intro H; try discriminate H. f_equal. apply by_SF. now injection H. Qed.
Ltac dbl := first [apply by_SF | apply by_ok | idtac]; vm_compute; reflexivity.
Lemma u_pow : u = / 2 ^ 53. Proof. rewrite u_val. f_equal. lra. Qed.
Lemma p1023 : bpow radix2 1023 = 2 ^ 1023. Proof. change 1023%Z with (Z.of_nat 1023). rewrite bpow_powerRZ, <- pow_powerRZ. reflexivity. Qed.

(** The double returned is the largest gap up to rounding, in both directions; it is infinite only
    if a difference is beyond 2^1023. *)
Theorem C81_measures : forall x y relative, finite x -> finite y -> dknown x = dknown y ->
  (is_finite (error x y relative) = true /\
   (forall i, (1 - 2 / 2 ^ 53) * gap relative x y i <= B2R (error x y relative)) /\
   exists i, B2R (error x y relative) <= (1 + 3 / 2 ^ 53) * gap relative x y i) \/
  (error x y relative = B754_infinity false /\ exists i, 2 ^ 1023 < Rabs (coef x i - coef y i)).
Proof. unfold Rdiv. rewrite <- u_pow, <- p1023. exact error_measures. Qed.
Print Assumptions C81_measures.

(** Zero means equal: every coefficient, however many of them are stored. *)
Theorem C81_zero : forall x y relative, finite x -> finite y -> dknown x = dknown y ->
  (error x y relative = B754_zero false <-> forall i, coef x i = coef y i).
Proof. exact error_zero. Qed.
Print Assumptions C81_zero.

(** The absolute distance is symmetric, bit by bit, for all doubles. *)
Theorem C81_symmetric : forall x y, error x y false = error y x false.
Proof. exact error_sym. Qed.
Print Assumptions C81_symmetric.

(** Different numbers of known coefficients are infinitely far apart. *)
Theorem C81_known : forall x y relative, dknown x <> dknown y -> error x y relative = B754_infinity false.
Proof. exact error_known. Qed.
Print Assumptions C81_known.

(** A list of doubles is compared as the series that knows exactly these coefficients. *)
Theorem C81_list : forall x ys, finite x -> Forall (fun a => is_finite a = true) ys -> forall relative,
  (error_list x ys relative = B754_zero false <->
   dknown x = Z.of_nat (length ys) /\ forall i, coef x i = B2R (nth i ys (B754_zero false))).
Proof.
  intros x ys Hx Hy relative. unfold error_list. set (y := mkView (Z.of_nat (length ys)) ys).
  destruct (Z.eq_dec (dknown x) (dknown y)) as [E|E].
  - eapply iff_trans; [exact (C81_zero x y relative Hx Hy E)|]. split; [intro H; split; [exact E|exact H]|intros (_ & H); exact H].
  - rewrite error_known by exact E. split; [discriminate|]. intros (H & _). contradiction.
Qed.
Print Assumptions C81_list.

(** Against a polynomial: never an assertion; infinite if it has more coefficients than are known,
    else the distance to its midpoints, padded by zeros. *)
Theorem C81_poly : forall x mids relative,
  exists e, error_poly x mids relative = Ok e /\
  ((dknown x < Z.of_nat (length mids))%Z -> e = B754_infinity false) /\
  (finite x -> Forall (fun a => is_finite a = true) mids -> (Z.of_nat (length mids) <= dknown x)%Z ->
   let y := mkView (dknown x) mids in
   (e = B754_zero false <-> forall i, coef x i = coef y i) /\
   ((is_finite e = true /\ (forall i, (1 - 2 / 2 ^ 53) * gap relative x y i <= B2R e) /\
     exists i, B2R e <= (1 + 3 / 2 ^ 53) * gap relative x y i) \/
    (e = B754_infinity false /\ exists i, 2 ^ 1023 < Rabs (coef x i - coef y i)))).
Proof.
  intros x mids relative. destruct (Z.lt_ge_cases (dknown x) (Z.of_nat (length mids))) as [L|L].
  - exists dinf. unfold error_poly. rewrite (proj2 (Z.ltb_lt _ _)) by exact L. split; [reflexivity|]. split; [reflexivity|]. intros; lia.
  - eexists. split; [apply error_poly_eq; exact L|]. split; [intros; lia|]. intros Hx Hm _ y.
    set (n := (Z.to_nat (dknown x) - length mids)%nat). set (z := mkView (dknown x) (mids ++ repeat dzero n)).
    assert (Hz : finite z) by (apply pad_finite; exact Hm).
    assert (Cz : forall i, coef z i = coef y i) by (intro i; apply pad_coef).
    assert (Gz : forall i, gap relative x z i = gap relative x y i) by (intro i; unfold gap; rewrite Cz; reflexivity).
    split.
    + eapply iff_trans; [exact (C81_zero x z relative Hx Hz eq_refl)|]. split; intros H i; rewrite H, Cz; reflexivity.
    + destruct (C81_measures x z relative Hx Hz eq_refl) as [(F & A & i & B)|(I & i & B)].
      * left. split; [exact F|]. split; [intro j; rewrite <- Gz; apply A|exists i; rewrite <- Gz; exact B].
      * right. split; [exact I|]. exists i. rewrite <- Cz. exact B.
Qed.
Print Assumptions C81_poly.

(** What a test has shown when ASSERT_TOL2 lets it go on. *)
Theorem C81_tolerance : forall tol x y, is_finite tol = true -> finite x -> finite y -> tol_passes tol x y = true ->
  dknown x = dknown y /\ forall i, Rabs (coef x i - coef y i) <= (1 + 3 / 2 ^ 53) * B2R tol.
Proof. unfold Rdiv. rewrite <- u_pow. exact pass_close. Qed.
Print Assumptions C81_tolerance.
Theorem C81_exact : forall x y, finite x -> finite y ->
  (tol_passes (B754_zero false) x y = true <-> dknown x = dknown y /\ forall i, coef x i = coef y i).
Proof. exact pass_exact. Qed.
Print Assumptions C81_exact.

(** Without finiteness the claim is false: a series of NaNs is at distance zero from every series
    of the same length, and passes every assertion. *)
Theorem C81_nan_refuted : forall x y relative, dknown x = dknown y -> length (dcoef x) = length (dcoef y) ->
  (forall a, In a (dcoef x) -> a = B754_nan) ->
  error x y relative = B754_zero false /\ tol_passes (B754_zero false) x y = true.
Proof. intros x y relative E L H. split; [|unfold tol_passes]; now rewrite error_nan. Qed.
Print Assumptions C81_nan_refuted.
(** Nor does the relative distance to an infinite coefficient depend on values only: 1 if the zero
    beside it is not stored, 0 if it is. *)
Theorem C81_infinite_refuted :
  error (mkView 1 []) (mkView 1 [B754_infinity false]) true = dofZ 1 /\
  error (mkView 1 [dzero]) (mkView 1 [B754_infinity false]) true = B754_zero false.
Proof. split; dbl. Qed.
Print Assumptions C81_infinite_refuted.

(** Cases: 1 + 3z against 1 + 5z - 8z^2. *)
Definition xs : dview := mkView 4 [dofZ 1; dofZ 3].
Definition ys : dview := mkView 4 [dofZ 1; dofZ 5; dofZ (-8)].
Example C81_case : finite xs /\ finite ys /\ dknown xs = dknown ys /\
  error xs ys false = dofZ 8 /\ error ys xs false = dofZ 8 /\ error xs ys true = dofZ 1 /\ error ys xs true = dofZ 8 /\
  tol_passes (dofZ 8) xs ys = true /\ tol_passes (dofZ 7) xs ys = false.
Proof. split; [repeat constructor|]. split; [repeat constructor|]. repeat match goal with |- _ /\ _ => split end; dbl. Qed.
Example C81_equal_case : error xs (mkView 4 [dofZ 1; dofZ 3; dneg dzero]) true = B754_zero false /\
  tol_passes dzero xs (mkView 4 [dofZ 1; dofZ 3; dneg dzero]) = true /\ error xs (mkView 3 [dofZ 1; dofZ 3]) true = B754_infinity false.
Proof. repeat match goal with |- _ /\ _ => split end; dbl. Qed.
Example C81_poly_case : error_poly xs [dofZ 1; dofZ 5; dofZ (-8)] false = Ok (dofZ 8) /\
  error_poly xs (repeat dzero 5) false = Ok (B754_infinity false) /\ error_list xs [dofZ 1; dofZ 3; dzero; dzero] false = dzero.
Proof. repeat match goal with |- _ /\ _ => split end; dbl. Qed.
Example C81_overflow_case : error (mkView 1 [dlit 1 1023]) (mkView 1 [dlit (-1) 1023]) true = B754_infinity false.
Proof. dbl. Qed.
Example C81_nan_case : error (mkView 2 [B754_nan; B754_nan]) (mkView 2 [dofZ 1; dofZ 2]) false = dzero.
Proof. exact (proj1 (C81_nan_refuted (mkView 2 [B754_nan; B754_nan]) (mkView 2 [dofZ 1; dofZ 2]) false eq_refl eq_refl
  (fun a H => match H with or_introl E => eq_sym E | or_intror (or_introl E) => eq_sym E | or_intror (or_intror F) => match F with end end))). Qed.
