(** C63-C66: refined ball power series (poly.cc).

    The theorems hold for every field of numbers and every ball arithmetic that meets [poly_ok]
    (PolySpec.v); [PolyInst.balls] is one over the real numbers, used by the examples. *)
From Coq Require Import ZArith QArith Qreals List Bool Reals Lra Lia Ring Field.
From Verif Require Import Base Field FieldInst FPS PolyModel PolySpec PolyProofs PolyInst PolyAlias.
Import ListNotations.
Open Scope nat_scope.
Close Scope Q_scope.

(** ** Test data *)
Definition pt (q : Q) : bal := Some (q, 0%Q).
Definition ser (l : list R) : fps RF := fun i => nth i l 0%R.
Definition whole (f : list bal) (n : Z) : list bal := repeat None (Z.to_nat n).
Definition BA := balls whole.


Lemma bmem_ends (b : bal) x :
  match b with Some c => (Q2R (low c) <= x <= Q2R (high c))%R | None => True end -> bmem b x.
Proof. destruct b; [apply ends|auto]. Qed.
Lemma encl_list pe (l : list bal) k v :
  (forall i, i < k -> match nth i l zero_ with
                      | Some c => (Q2R (low c) <= v i <= Q2R (high c))%R | None => True end) ->
  encl RF (balls pe) bmem l k v.
Proof. intros H i Hi. apply bmem_ends. now apply H. Qed.
Ltac pts := cbn; unfold low, high, Q2R; cbn; lra.
Ltac coefs := apply encl_list; intros i Hi; repeat (first [lia | destruct i as [|i]; [pts|]]).

(** ** C63 *)

(** If the true series lies in C and (coefficientwise) in A - B, it lies in the refined C. *)
Theorem C63_intersect (F : Fld) kln A mem (HA : poly_ok F kln A mem) (c a b : list (ball A)) n r v k :
  poly_intersect_sub A c a b n = Ok r -> k <= Z.to_nat n -> encl F A mem c k v ->
  (forall i, i < k -> mem (b_sub A (at_ A a i) (at_ A b i)) (v i)) ->
  encl F A mem r k v /\ length r <= length c.
Proof. exact (intersect_ok F kln A mem HA c a b n r v k). Qed.
Print Assumptions C63_intersect.

(** The refined reciprocal encloses 1/a for every series a in the input. *)
Theorem C63_inv (F : Fld) kln A mem (HA : poly_ok F kln A mem) (x : list (ball A)) n r k (a y : fps F) :
  poly_inv_refine A x n = Ok r -> k <= Z.to_nat n -> encl F A mem x k a -> a O <> 0%K ->
  eqn k (fmul a y) f1 -> encl F A mem r k y.
Proof. exact (inv_refine_ok F kln A mem HA x n r k a y). Qed.
Print Assumptions C63_inv.

(** The refined quotient encloses a/b for all series a, b in the inputs. *)
Theorem C63_div (F : Fld) kln A mem (HA : poly_ok F kln A mem) (f g : list (ball A)) n r k (a b q : fps F) :
  poly_div_refine A f g n = Ok r -> k <= Z.to_nat n -> encl F A mem f k a -> encl F A mem g k b ->
  b O <> 0%K -> eqn k (fmul b q) a -> encl F A mem r k q.
Proof. exact (div_refine_ok F kln A mem HA f g n r k a b q). Qed.
Print Assumptions C63_div.

(** A non-empty request always gives a result or a failed assertion, never undefined behaviour, and
    asking for nothing gives the empty polynomial. *)
Theorem C63_empty A (x y : list (ball A)) n : (n <= 0)%Z ->
  poly_inv_refine A x n = Ok [] /\ poly_div_refine A x y n = Ok [] /\ poly_log_refine A x n = Ok [] /\
  poly_log1p_refine A x n = Ok [] /\ poly_exp_refine A x n = Ok [].
Proof.
  intro H. apply Z.leb_le in H. unfold poly_inv_refine, poly_div_refine, poly_log_refine, poly_log1p_refine,
    poly_exp_refine. rewrite H. auto.
Qed.
Print Assumptions C63_empty.

Theorem C63_contract : poly_ok RF ln BA bmem.
Proof. exact (balls_ok whole). Qed.
Print Assumptions C63_contract.

(** 1/(2 + z) from a ball of radius 1/10 around 2. *)
Example C63_inv_case :
  exists r, poly_inv_refine BA [Some (2, 1#10)%Q; pt 1] 3 = Ok r /\
    forallb (fun b => match b with None => false | _ => true end) r = true /\ length r = 3 /\
    encl RF BA bmem r 3 (ser [1/2; -1/4; 1/8]%R).
Proof.
  eexists. split; [vm_compute; reflexivity|]. split; [reflexivity|]. split; [reflexivity|].
  apply (C63_inv RF ln BA bmem C63_contract [Some (2, 1#10)%Q; pt 1] 3 _ 3 (ser [2; 1]%R)).
  - vm_compute. reflexivity.
  - cbn. lia.
  - coefs.
  - cbn. lra.
  - intros i Hi. repeat (first [lia | destruct i as [|i]; [unfold fmul, ser; cbn; lra|]]).
Qed.
(** (1 + z)/(1 + z) from exact inputs: exactly 1. *)
Example C63_div_case : poly_div_refine BA [pt 1; pt 1] [pt 1; pt 1] 3 = Ok [pt 1; pt 0; pt 0].
Proof. vm_compute. reflexivity. Qed.
(** Refinement shrinks: [0, 2] met with [1, 1] - [0, 0]. *)
Example C63_intersect_case : poly_intersect_sub BA [Some (1, 1)%Q] [pt 1] [] 1 = Ok [pt 1].
Proof. vm_compute. reflexivity. Qed.
(** Disjoint balls are reported. *)
Example C63_intersect_throws : poly_intersect_sub BA [Some (1, 1)%Q] [pt 5] [] 1 = Throw.
Proof. vm_compute. reflexivity. Qed.

(** ** C64 *)

(** The refined logarithm encloses log a for every series a in the input: L 0 = ln (a 0) and L' a = a'. *)
Theorem C64_log (F : Fld) kln A mem (HA : poly_ok F kln A mem) (x : list (ball A)) n r k (a L : fps F) :
  poly_log_refine A x n = Ok r -> k <= Z.to_nat n -> encl F A mem x k a -> is_log F kln k a L ->
  encl F A mem r k L.
Proof. exact (log_refine_ok F kln A mem HA x n r k a L). Qed.
Print Assumptions C64_log.

(** In particular the formal logarithm when the constant term is 1. *)
Theorem C64_log_formal (F : Fld) kln A mem (HA : poly_ok F kln A mem) (x : list (ball A)) n r k (a : fps F) :
  poly_log_refine A x n = Ok r -> k <= Z.to_nat n -> encl F A mem x k a -> a O = 1%K ->
  encl F A mem r k (flog a).
Proof.
  intros E Hk Hx Ha. apply (C64_log F kln A mem HA x n r k a (flog a) E Hk Hx). split.
  - rewrite Ha, (flog_coef0 F). symmetry. exact (ok_ln1 F kln A mem HA).
  - intros i _. now apply (theta_log F a).
Qed.
Print Assumptions C64_log_formal.

Theorem C64_log1p (F : Fld) kln A mem (HA : poly_ok F kln A mem) (x : list (ball A)) n r k (a L : fps F) :
  poly_log1p_refine A x n = Ok r -> k <= Z.to_nat n -> encl F A mem x k a ->
  is_log F kln k (fadd a f1) L -> encl F A mem r k L.
Proof. exact (log1p_refine_ok F kln A mem HA x n r k a L). Qed.
Print Assumptions C64_log1p.

(** y = z^-s log(1 + z^s x): enclosed whenever z^s y is the logarithm of 1 + z^s a. *)
Theorem C64_log1p_shift (F : Fld) kln A mem (HA : poly_ok F kln A mem) (x : list (ball A)) s n r k (a y : fps F) :
  poly_log1p_shift_refine A x s n = Ok r -> k <= Z.to_nat n -> encl F A mem x k a ->
  is_log F kln (Z.to_nat s + k) (fadd f1 (fmul (zp (Z.to_nat s)) a)) (fmul (zp (Z.to_nat s)) y) ->
  encl F A mem r k y.
Proof. exact (log1p_shift_refine_ok F kln A mem HA x s n r k a y). Qed.
Print Assumptions C64_log1p_shift.

(** The exponential: the result encloses E = exp a provided the starting enclosure contains a mean w of
    the derivative, w (log y0 - a) = y0 - E, with y0 the midpoint. *)
Theorem C64_exp_mean (F : Fld) kln A mem (HA : poly_ok F kln A mem) (x : list (ball A)) n r k (a E y0 L w : fps F) :
  poly_exp_refine A x n = Ok r -> k <= Z.to_nat n -> encl F A mem x k a ->
  encl F A mem (p_exp A x n) k E -> encl F A mem (poly_mid A (p_exp A x n)) k y0 -> is_log F kln k y0 L ->
  encl F A mem (p_exp A x n) k w -> eqn k (fmul w (fsub L a)) (fsub y0 E) -> encl F A mem r k E.
Proof. exact (exp_refine_mean F kln A mem HA x n r k a E y0 L w). Qed.
Print Assumptions C64_exp_mean.

(** Without that, it does not: for x = z/2 exactly, and a starting enclosure that does contain exp(z/2),
    the refined coefficient of z^3 is the single point 5/48, while the truth is 1/48. *)
Definition half_z : list bal := [zero_; pt (1#2)].
Definition box : list bal := [pt 1; Some (-1#2, 1)%Q; pt (1#8); Some (-1#48, 1)%Q].
Definition bal_eqb (a b : bal) : bool :=
  match a, b with
  | Some (m, r), Some (m', r') => Qeq_bool m m' && Qeq_bool r r'
  | None, None => true
  | _, _ => false
  end.
Definition is_half_z (f : list bal) : bool :=
  match f with [a; b] => bal_eqb a zero_ && bal_eqb b (pt (1#2)) | _ => false end.
Definition box_exp (f : list bal) (n : Z) : list bal :=
  if is_half_z f && (n =? 4)%Z then box else whole f n.

Lemma bal_eqb_mem a b x : bal_eqb a b = true -> bmem a x -> bmem b x.
Proof.
  destruct a as [[m r]|], b as [[m' r']|]; cbn [bal_eqb bmem]; try discriminate; auto.
  intro H. apply andb_prop in H. destruct H as [H1 H2]. apply Qeq_bool_iff, Qeq_eqR in H1, H2.
  now rewrite H1, H2.
Qed.
Lemma exp_half : forall i, i < 4 -> fexp (ser [0; 1/2]%R) i = nth i [1; 1/2; 1/8; 1/48]%R 0%R.
Proof.
  intros i Hi. repeat (first [lia | destruct i as [|i]; [cbn; field|]]).
Qed.
Theorem C64_box_exp_ok : poly_ok RF ln (balls box_exp) bmem /\ exp_ok RF (balls box_exp) bmem.
Proof.
  split; [exact (balls_ok box_exp)|]. intros f n k a Hk Hf Ha i Hi.
  unfold at_. cbn [p_exp balls b_zero]. unfold box_exp. destruct (is_half_z f && (n =? 4)%Z) eqn:E.
  - apply andb_prop in E. destruct E as [E1 E2]. apply Z.eqb_eq in E2. subst n.
    destruct f as [|b0 [|b1 [|]]]; cbn [is_half_z] in E1; try discriminate.
    apply andb_prop in E1. destruct E1 as [E0 E1].
    assert (Q : eqn k a (ser [0; 1/2]%R)).
    { intros j Hj. specialize (Hf j Hj). unfold at_ in Hf. cbn [balls b_zero] in Hf. unfold ser.
      destruct j as [|[|j]]; cbn [nth] in *.
      - apply (bal_eqb_mem _ _ _ E0) in Hf. now apply zero_mem.
      - apply (bal_eqb_mem _ _ _ E1) in Hf. cbn in Hf. rewrite RMicromega.Q2R_0, Rabs_R0 in Hf.
        pose proof (Rabs_pos (a 1 - Q2R (1 # 2))). 
        assert (Z : (a 1%nat - Q2R (1#2) = 0)%R).
        { destruct (Req_dec (a 1%nat - Q2R (1#2)) 0) as [Z|Z]; [exact Z|]. apply Rabs_pos_lt in Z. lra. }
        unfold Q2R in Z. cbn in Z. lra.
      - destruct j; now apply zero_mem. }
    pose proof (fexp_eqn RF k _ _ Q i Hi) as X. rewrite X, exp_half by (cbn in Hk; lia).
    assert (I4 : i < 4) by (cbn in Hk; lia). clear -I4. apply bmem_ends. repeat (first [lia | destruct i as [|i]; [pts|]]).
  - unfold whole. assert (N : nth i (repeat (@None (Q * Q)) (Z.to_nat n)) zero_ = None).
    { rewrite nth_indep with (d' := None) by (rewrite repeat_length; lia). apply nth_repeat. }
    exact (eq_ind_r (fun b : bal => bmem b (fexp a i)) (I : bmem None (fexp a i)) N).
Qed.
Theorem C64_exp_refuted :
  exists (A : arb_poly) mem, poly_ok RF ln A mem /\ exp_ok RF A mem /\
  exists (x r : list (ball A)) (a : fps RF),
    encl RF A mem x 4 a /\ a O = 0%R /\ poly_exp_refine A x 4 = Ok r /\ ~ encl RF A mem r 4 (fexp a).
Proof.
  exists (balls box_exp), bmem. destruct C64_box_exp_ok as [H1 H2]. split; [exact H1|]. split; [exact H2|].
  exists half_z. eexists. exists (ser [0; 1/2]%R). split; [coefs|]. split; [reflexivity|].
  split; [vm_compute; reflexivity|]. intro C. specialize (C 3 ltac:(lia)). rewrite exp_half in C by lia.
  cbn in C. unfold Q2R in C. cbn in C. rewrite Rmult_0_l, Rabs_R0 in C.
  unfold Rabs in C. destruct (Rcase_abs _) in C; lra.
Qed.
Print Assumptions C64_exp_refuted.

(** log(1 + z) with an uncertain square term. *)
Example C64_log_case :
  exists r, poly_log_refine BA [pt 1; pt 1; Some (0, 1#100)%Q] 4 = Ok r /\
    forallb (fun b => match b with None => false | _ => true end) r = true /\ length r = 4 /\
    encl RF BA bmem r 4 (flog (ser [1; 1]%R)).
Proof.
  eexists. split; [vm_compute; reflexivity|]. split; [reflexivity|]. split; [reflexivity|].
  apply (C64_log_formal RF ln BA bmem C63_contract [pt 1; pt 1; Some (0, 1#100)%Q] 4).
  - vm_compute. reflexivity.
  - cbn. lia.
  - coefs.
  - reflexivity.
Qed.
(** z^-1 log(1 + z (1 + z)). *)
Example C64_log1p_shift_case :
  poly_log1p_shift_refine BA [pt 1; pt 1] 1 3 = Ok [pt 1; pt (1#2); pt (-2#3)].
Proof. vm_compute. reflexivity. Qed.
(** A negative constant term is reported. *)
Example C64_log_throws : poly_log_refine BA [pt (-1); pt 1] 2 = Throw.
Proof. vm_compute. reflexivity. Qed.
(** The refined exponential of a ball of radius 1/10 around z, and its member 11/10 z: the mean
    1 + 21/20 z lies in the starting enclosure. *)
Definition box2 : list bal := [pt 1; Some (1, 1#10)%Q; Some (1#2, 1#5)%Q].
Definition BE := balls (fun _ _ => box2).
Example C64_exp_case :
  exists r, poly_exp_refine BE [pt 0; Some (1, 1#10)%Q] 3 = Ok r /\
    forallb (fun b => match b with None => false | _ => true end) r = true /\ length r = 3 /\
    encl RF BE bmem r 3 (ser [1; 11/10; 121/200]%R).
Proof.
  eexists. split; [vm_compute; reflexivity|]. split; [reflexivity|]. split; [reflexivity|].
  apply (C64_exp_mean RF ln BE bmem (balls_ok _) [pt 0; Some (1, 1#10)%Q] 3 _ 3
           (ser [0; 11/10]%R) _ (ser [1; 1; 1/2]%R) (ser [0; 1]%R) (ser [1; 21/20; 1/2]%R)).
  - vm_compute. reflexivity.
  - cbn. lia.
  - coefs.
  - coefs.
  - coefs.
  - split; [cbn; now rewrite ln_1|].
    intros i Hi. repeat (first [lia | destruct i as [|i]; [unfold fmul, theta, ser; cbn; lra|]]).
  - coefs.
  - intros i Hi. repeat (first [lia | destruct i as [|i]; [unfold fmul, fsub, ser; cbn; lra|]]).
Qed.
(** log1p of a ball around z. *)
Example C64_log1p_case :
  exists r, poly_log1p_refine BA [pt 0; Some (1, 1#10)%Q] 3 = Ok r /\
    forallb (fun b => match b with None => false | _ => true end) r = true /\
    encl RF BA bmem r 3 (ser [0; 1; -1/2]%R).
Proof.
  eexists. split; [vm_compute; reflexivity|]. split; [reflexivity|].
  apply (C64_log1p RF ln BA bmem C63_contract [pt 0; Some (1, 1#10)%Q] 3 _ 3 (ser [0; 1]%R)).
  - vm_compute. reflexivity.
  - cbn. lia.
  - coefs.
  - split; [unfold fadd, ser; cbn; now rewrite Rplus_0_l, ln_1|].
    intros i Hi. repeat (first [lia | destruct i as [|i]; [unfold fmul, theta, fadd, ser; cbn; lra|]]).
Qed.

(** ** C65 *)

(** h = f +- z^s g below z^n whatever the three names share; nothing else changes. *)
Theorem C65_shift (V : Type) (zero : V) (op : V -> V -> V) (h f g : nat) (s n : Z) (m : @objs V) :
  (0 <= s)%Z -> wf (m h) -> wf (m f) -> wf (m g) ->
  exists m', poly_shift_series zero op h f g s n m = Ok m' /\
    (forall k, k <> h -> m' k = m k) /\
    wf (m' h) /\
    olen (m' h) = (if (n <=? s)%Z then Z.min (Z.max 0 n) (olen (m f)) else n) /\
    forall i, (0 <= i < n)%Z -> coeff zero (m' h) i =
      if (i <? s)%Z then coeff zero (m f) i else op (coeff zero (m f) i) (coeff zero (m g) (i - s)).
Proof. exact (shift_ok zero op h f g s n m). Qed.
Print Assumptions C65_shift.

(** With balls: the sum encloses a + z^s b for all members a of f and b of g. *)
Section Encl.
Variable F : Fld.
Add Field kf : (kfield F).
Theorem C65_encloses kln A mem (HA : poly_ok F kln A mem) (h f g : nat) (s n : Z) (m : @objs (ball A))
    (a b : fps F) :
  (0 <= s)%Z -> wf (m h) -> wf (m f) -> wf (m g) ->
  (forall i, i < Z.to_nat n -> mem (coeff (b_zero A) (m f) (Z.of_nat i)) (a i)) ->
  (forall i, i < Z.to_nat n -> mem (coeff (b_zero A) (m g) (Z.of_nat i)) (b i)) ->
  exists m', poly_shift_series (b_zero A) (b_add A) h f g s n m = Ok m' /\
    forall i, i < Z.to_nat n ->
      mem (coeff (b_zero A) (m' h) (Z.of_nat i)) (fadd a (fshift (Z.to_nat s) b) i).
Proof.
  intros Hs Wh Wf Wg Ha Hb.
  destruct (C65_shift _ (b_zero A) (b_add A) h f g s n m Hs Wh Wf Wg) as (m' & E & _ & _ & _ & C).
  exists m'. split; [exact E|]. intros i Hi. rewrite C by lia. unfold fadd, fshift.
  destruct (Z.ltb_spec (Z.of_nat i) s) as [L|L].
  - replace (i <? Z.to_nat s) with true by (symmetry; apply Nat.ltb_lt; lia).
    replace (a i + 0)%K with (a i) by ring. now apply Ha.
  - replace (i <? Z.to_nat s) with false by (symmetry; apply Nat.ltb_ge; lia).
    apply (ok_add F kln A mem HA); [now apply Ha|].
    replace (Z.of_nat i - s)%Z with (Z.of_nat (i - Z.to_nat s)) by lia. apply Hb. lia.
Qed.
End Encl.
Print Assumptions C65_encloses.

Definition objs3 : @objs Z := fun k =>
  match k with 0 => mkObj [1; 2; 99]%Z 2%Z | 1 => mkObj [10; 20; 30]%Z 3%Z | _ => mkObj [] 0%Z end.
(** h the same as both f and g: 1 + 2z + z (1 + 2z), with rubbish beyond the length. *)
Example C65_case :
  match poly_shift_series 0%Z Z.add 0 0 0 1 4 objs3 with
  | Ok m => coeffs (m 0) = [1; 3; 2; 0]%Z /\ olen (m 0) = 4%Z
  | _ => False
  end /\
  match poly_shift_series 0%Z Z.sub 0 1 0 2 4 objs3 with
  | Ok m => coeffs (m 0) = [10; 20; 29; -2]%Z
  | _ => False
  end /\
  match poly_shift_series 0%Z Z.add 0 0 1 3 5 objs3 with
  | Ok m => coeffs (m 0) = [1; 2; 0; 10; 20]%Z
  | _ => False
  end.
Proof. repeat split. Qed.

(** ** C66 *)

(** The calls of [step]: from n0 to max(n0, n), each at most doubling, and no other list of such calls
    is shorter. *)
Theorem C66_schedule n0 n fuel : (1 <= n0)%Z -> Z.to_nat n < fuel ->
  exists l, newton_steps fuel n0 n = Some l /\ reaches n0 l (Z.max n0 n) /\
    forall l', reaches n0 l' (Z.max n0 n) -> length l <= length l'.
Proof. exact (newton_ok n0 n fuel). Qed.
Print Assumptions C66_schedule.

(** From n0 = 0 the loop that collects sizes never ends. *)
Theorem C66_zero_refuted : forall fuel n, (1 <= n)%Z -> newton_steps fuel 0 n = None.
Proof. exact newton_zero. Qed.
Print Assumptions C66_zero_refuted.

Example C66_case : newton_steps 20 1 11 = Some [(1, 2); (2, 3); (3, 6); (6, 11)]%Z.
Proof. reflexivity. Qed.
