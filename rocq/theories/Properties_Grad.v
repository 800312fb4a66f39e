(** Properties of codelets.cc:496-546 [gradient]: C61. *)
From Coq Require Import String ZArith List Bool Lia QArith Qcanon Reals.
From Verif Require Import Base Field FieldInst ExpModel ExpProofs BlockProofs ExpToy GradSpec GradProofs GradReal.
Import ListNotations.
Open Scope Z_scope.

(** * C61: gradient is the transpose *)
(** For any outputs [ys] satisfying [circuit] (GradSpec.v: one expression per signature, no output
    repeated or below another) and any nodes [xs] occurring in them (variables, or fields of complex
    variables as for the Fourier transforms), [gradient] terminates within as many pops as there are
    subexpressions, fails no assertion, and returns one expression per input, whose value is the sum
    of dys_i * (d ys_i / d x), unless two expressions offered to the table collide.  Nothing in the
    table is lost. *)
Theorem C61_gradient : forall (F : Fld) (G : SigOps) (I : interp F), SigLaws G -> forall fuel lr unknown xs ys dys st,
  circuit ys -> (length (nodes ys) <= fuel)%nat -> wfe unknown -> Forall wfe dys -> length ys = length dys ->
  (forall x, In x xs -> In x (nodes ys)) -> Inv st ->
  exists ds st', gradient G fuel lr unknown xs ys dys st = Ok (Some ds, st') /\ length ds = length xs /\ Forall wfe ds /\ Inv st' /\ ext st st' /\
    (no_collision I (lg G st') ->
     Forall2 (fun x d => (forall y, In y ys -> smooth x y) -> eval I d = pullback I x ys dys) xs ds).
Proof.
  intros F G I HL fuel lr unknown xs ys dys st HC Hf Wu Wd Ly Hx Hst.
  destruct (gradient_ok F G I HL ys HC fuel lr unknown xs dys Hf Wu Wd Ly Hx st Hst) as (r & st' & E & I' & X & _ & (ds & -> & Ld & Wds) & V).
  exists ds, st'. split; [exact E|]. split; [exact Ld|]. split; [exact Wds|]. split; [exact I'|]. split; [exact X|]. intros N. apply (V N). reflexivity.
Qed.
Print Assumptions C61_gradient.

(** Over the reals: the derivatives are those of analysis along any motion [J] of the node x that
    leaves everything not involving x fixed. *)
Theorem C61_real : forall (G : SigOps) (I : interp RF), SigLaws G -> forall fuel lr unknown xs ys dys st,
  circuit ys -> (length (nodes ys) <= fuel)%nat -> wfe unknown -> Forall wfe dys -> length ys = length dys ->
  (forall x, In x xs -> In x (nodes ys)) -> Inv st ->
  exists ds st', gradient G fuel lr unknown xs ys dys st = Ok (Some ds, st') /\ length ds = length xs /\
    (no_collision I (lg G st') ->
     Forall2 (fun x d => (forall y, In y ys -> smooth x y) -> forall J, moves G I ys x J ->
       exists ls, Forall2 (fun y l => derivable_pt_lim (fun t => eval (J t) y : R) (eval I x) l) ys ls /\
                  eval I d = fold_right Rplus 0%R (map (fun p => (eval I (snd p) * fst p)%R) (combine ls dys))) xs ds).
Proof.
  intros G I HL fuel lr unknown xs ys dys st HC Hf Wu Wd Ly Hx Hst.
  destruct (C61_gradient RF G I HL fuel lr unknown xs ys dys st HC Hf Wu Wd Ly Hx Hst) as (ds & st' & E & Ld & _ & _ & _ & V).
  exists ds, st'. split; [exact E|]. split; [exact Ld|]. intros N. specialize (V N). clear E Ld.
  induction V as [|x d xs ds H V IH]; constructor; [|apply IH; intros z Hz; apply Hx; right; exact Hz]. clear IH V.
  intros Sm J HJ. exists (map (fun y => deriv I x y : R) ys). split.
  - assert (K : forall y, In y ys -> derivable_pt_lim (fun t => eval (J t) y : R) (eval I x) (deriv I x y)).
    { intros y Hy. apply (deriv_real G I ys HC x J); [apply Hx; left; reflexivity|exact HJ|apply ys_nodes; exact Hy|apply Sm; exact Hy]. }
    clear - K. induction ys as [|y l IH]; constructor; [apply K; left; reflexivity|]. apply IH. intros z Hz. apply K. right. exact Hz.
  - rewrite (H Sm). unfold pullback. clear. revert dys. induction ys as [|y l IH]; intros [|d dys]; try reflexivity. cbn [map combine fold_right]. rewrite IH. reflexivity.
Qed.
Print Assumptions C61_real.
(** Such motions exist for variables (one node per name) and for fields of variables (one node per
    field and value of the variable). *)
Theorem C61_inputs_move : forall (G : SigOps) (I : interp RF) (ys : list (exp G)) x, circuit ys -> In x (nodes ys) ->
  (forall v, op_of x = OVar v -> (forall z, In z (nodes ys) -> op_of z = OVar v -> z = x) -> moves G I ys x (fun t => set_iv I v t)) /\
  (forall f p s, x = E (OField f) [p] s -> (forall z a s', In z (nodes ys) -> z = E (OField f) [a] s' -> eval I a = eval I p -> z = x) ->
    moves G I ys x (fun t => set_field I f (eval I p) t)).
Proof.
  intros G I ys x HC Hx. split.
  - intros v Ov U. apply moves_var; assumption.
  - intros f p s Ex U. apply (moves_field G I ys HC x f p s); assumption.
Qed.
Print Assumptions C61_inputs_move.

(** Transpose: when every output is linear in the inputs [xs] (at every point of [K], which contains a
    motion of each input, the output is the dot product of its row with them), the result for the
    i-th input is the i-th column applied to dys. *)
Theorem C61_transpose : forall (G : SigOps) (I : interp RF), SigLaws G -> forall fuel lr unknown xs ys dys st rows (K : interp RF -> Prop),
  circuit ys -> (length (nodes ys) <= fuel)%nat -> wfe unknown -> Forall wfe dys -> length ys = length dys ->
  (forall x, In x xs -> In x (nodes ys)) -> Inv st ->
  Forall2 (fun y row => length row = length xs /\ forall J, K J -> eval J y = dot G xs row J) ys rows ->
  exists ds st', gradient G fuel lr unknown xs ys dys st = Ok (Some ds, st') /\ length ds = length xs /\
    (no_collision I (lg G st') -> forall i x d, nth_error xs i = Some x -> nth_error ds i = Some d ->
      (forall i' x', nth_error xs i' = Some x' -> i' <> i -> ~ mentions x x') -> (forall y, In y ys -> smooth x y) -> (exists J, moves G I ys x J /\ forall t, K (J t)) ->
      eval I d = fold_right Rplus 0%R (map (fun p => (eval I (snd p) * nth i (fst p) 0)%R) (combine rows dys))).
Proof.
  intros G I HL fuel lr unknown xs ys dys st rows K HC Hf Wu Wd Ly Hx Hst Lin.
  destruct (C61_gradient RF G I HL fuel lr unknown xs ys dys st HC Hf Wu Wd Ly Hx Hst) as (ds & st' & E & Ld & _ & _ & _ & V).
  exists ds, st'. split; [exact E|]. split; [exact Ld|]. intros N i x d Ix Id Ap Sm (J & HJ & KJ).
  assert (H : (forall y, In y ys -> smooth x y) -> eval I d = pullback I x ys dys).
  { specialize (V N). clear - V Ix Id. revert i Ix Id. induction V as [|a b xs ds H V IH]; intros [|i] Ix Id; try discriminate Ix.
    - cbn in Ix, Id. injection Ix as ->. injection Id as ->. exact H.
    - apply (IH i); assumption. }
  rewrite (H Sm). unfold pullback.
  assert (D : Forall2 (fun y row => deriv I x y = nth i row 0%R) ys rows).
  { assert (Y : forall y, In y ys -> In y (nodes ys)) by (intros y; apply ys_nodes). clear - Lin Y Sm HJ KJ Ap Ix HC Hx.
    assert (Q : forall l rs, Forall2 (fun y row => length row = length xs /\ forall J, K J -> eval J y = dot G xs row J) l rs -> (forall y, In y l -> In y ys) ->
      Forall2 (fun y row => deriv I x y = nth i row 0%R) l rs).
    { intros l rs F. induction F as [|y row l rs [L1 L2] F IH]; intros Hl; constructor; [|apply IH; intros z Hz; apply Hl; right; exact Hz].
      apply (deriv_linear G I ys HC xs row y i x J); try assumption; [apply Y|apply Sm|intros t; apply L2; apply KJ]; apply Hl; left; reflexivity. }
    apply Q; [exact Lin|auto]. }
  clear - D. revert dys. induction D as [|y row ys rows H D IH]; intros [|d dys]; try reflexivity. cbn [map combine fold_right fst snd]. rewrite IH, H. reflexivity.
Qed.
Print Assumptions C61_transpose.

(** An input no output depends on is refused, not given derivative zero. *)
Theorem C61_unreached : forall (F : Fld) (G : SigOps) (I : interp F), SigLaws G -> forall fuel lr unknown xs ys dys st x,
  circuit ys -> (length (nodes ys) <= fuel)%nat -> wfe unknown -> Forall wfe dys -> length ys = length dys -> Inv st ->
  In x xs -> (forall z, In z (nodes ys) -> sig_of z <> sig_of x) -> gradient G fuel lr unknown xs ys dys st = Throw.
Proof. intros F G I HL fuel lr unknown xs ys dys st x HC Hf Wu Wd Ly Hst Hx Nx. apply (gradient_unreached F G I HL ys HC fuel lr unknown xs dys x); assumption. Qed.
Print Assumptions C61_unreached.
Theorem C61_sizes : forall (G : SigOps) fuel lr unknown xs ys dys st, length ys <> length dys -> gradient G fuel lr unknown xs ys dys st = Throw.
Proof. intros G fuel lr unknown xs ys dys st H. unfold gradient. apply Nat.eqb_neq in H. rewrite H. reflexivity. Qed.
Print Assumptions C61_sizes.

(** ** Concrete case: a butterfly y0 = x0 + w x1, y1 = x0 - w x1 with w = twiddle(j).r *)
Ltac vmr := match goal with |- @eq ?T ?a ?b => let v := eval vm_compute in a in unify b v; vm_cast_no_check (@eq_refl T v) end.
Definition gx0 : exp toy := mkvar "x0" (q 100).
Definition gx1 : exp toy := mkvar "x1" (q 7001).
Definition gj : exp toy := mkvar "j" (q 50).
Definition gw : exp toy := E (OField "r") [E (OCall "twiddle") [gj] (q 50021)] (q 60013).
Definition gwx : exp toy := E OMul [gw; gx1] (q (60013 * 7001)).
Definition gy0 : exp toy := E OAdd [gx0; gwx] (q (100 + 60013 * 7001)).
Definition gy1 : exp toy := E OSub [gx0; gwx] (q (100 - 60013 * 7001)).
Definition gd0 : exp toy := mkvar "d0" (q 300).
Definition gd1 : exp toy := mkvar "d1" (q 900001).
Definition gunknown : exp toy := mkvar "unknown" (q 7777777).
(** The point at which every variable, the call and the field have their signature as value. *)
Definition genv : interp QcF := Build_interp QcF
  (iv (toy_env [("x0"%string, 100); ("x1"%string, 7001); ("j"%string, 50); ("d0"%string, 300); ("d1"%string, 900001); ("unknown"%string, 7777777)]))
  (fun _ => q 123) (fun _ _ => q 60013) (fun _ _ => q 50021).
Ltac nodes_of H := match type of H with In _ (nodes ?y) => let v := eval vm_compute in (nodes y) in let V := fresh in (assert (V : nodes y = v) by vmr; rewrite V in H; clear V) end.
Lemma butterfly_circuit : circuit [gy0; gy1].
Proof.
  constructor.
  - intros a b Ha Hb Q. nodes_of Ha. nodes_of Hb. cbn [In] in Ha, Hb.
    repeat (destruct Ha as [<-|Ha]; [repeat (destruct Hb as [<-|Hb]; [first [reflexivity|exfalso; apply Qc_eqb_ok in Q; vm_compute in Q; discriminate Q]|]); contradiction|]). contradiction.
  - intros a Ha. cbn in Ha. repeat (destruct Ha as [<-|Ha]; [cbn; auto|]). contradiction.
  - intros a Ha. cbn in Ha. repeat (destruct Ha as [<-|Ha]; [cbn; auto|]). contradiction.
  - constructor; [|constructor; [|constructor]]; cbn; intuition discriminate.
  - intros z a Hz Ha Q. cbn in Hz. repeat (destruct Hz as [<-|Hz]; [cbn in Ha; repeat (destruct Ha as [<-|Ha]; [cbn in Q; intuition discriminate|]); contradiction|]). contradiction.
Qed.
Ltac not_in := intros (z & Hz & Qz); cbn in Hz; repeat (destruct Hz as [<-|Hz]; [apply Qc_eqb_ok in Qz; vm_compute in Qz; discriminate Qz|]); contradiction.
Lemma gw_off : ~ mentions gx0 gw /\ ~ mentions gx1 gw /\ ~ mentions gx1 gx0 /\ ~ mentions gx0 gx1.
Proof. repeat split; not_in. Qed.
Ltac smooth_step := unfold gy0, gy1, gwx; cbn [smooth]; repeat match goal with |- context [if sg_eqb ?G ?a ?b then True else _] => let v := eval vm_compute in (sg_eqb G a b) in (replace (sg_eqb G a b) with v by vmr); cbv iota end.
Example C61_example : exists a b st, gradient toy 20 true gunknown [gx0; gx1] [gy0; gy1] [gd0; gd1] (cse0 toy true) = Ok (Some [a; b], st) /\
  eval genv a = q (300 + 900001) /\ eval genv b = q (60013 * (300 - 900001)) /\ no_collision genv (lg toy st) /\
  pullback genv gx1 [gy0; gy1] [gd0; gd1] = q (60013 * (300 - 900001)) /\ smooth gx1 gy0 /\ smooth gx1 gy1.
Proof.
  do 3 eexists. split; [vmr|]. split; [apply Qc_is_canon; vm_compute; reflexivity|]. split; [apply Qc_is_canon; vm_compute; reflexivity|].
  split; [apply honest_ok; vm_compute; reflexivity|]. split; [apply Qc_is_canon; vm_compute; reflexivity|].
  assert (S1 : ~ mentions gx1 gw) by apply gw_off. split; smooth_step; repeat split; apply smooth_off; assumption.
Qed.
(** The butterfly is linear in x0 and x1, with rows (1, w) and (1, -w). *)
Definition renv : interp RF := Build_interp RF (fun _ => 2%R) (fun _ => 0%R) (fun _ a => a) (fun _ l => fold_right Rplus 0%R l).
Example C61_linear_example :
  Forall2 (fun y row => length row = length [gx0; gx1] /\ forall J, moved toy renv [gy0; gy1] [gx0; gx1] J -> eval J y = dot toy [gx0; gx1] row J) [gy0; gy1] [[1%R; 2%R]; [1%R; (- (2))%R]] /\
  (forall x, In x [gx0; gx1] -> (forall y, In y [gy0; gy1] -> smooth x y) /\ exists J, moves toy renv [gy0; gy1] x J /\ forall t, moved toy renv [gy0; gy1] [gx0; gx1] (J t)).
Proof.
  destruct gw_off as (O1 & O2 & O3 & O4). split.
  - assert (K : forall J, moved toy renv [gy0; gy1] [gx0; gx1] J -> eval J gw = 2%R).
    { intros J H. rewrite H; [cbn; ring|cbn; tauto|]. intros x [<-|[<-|[]]]; assumption. }
    constructor; [|constructor; [|constructor]]; (split; [reflexivity|]); intros J HJ; specialize (K J HJ); unfold gy0, gy1, gwx, dot; cbn [eval map opval fold_right combine fst snd] in *; change (map (eval J) [gw; gx1]) with [eval J gw; eval J gx1];
      rewrite ?K; cbn; rewrite ?K; ring.
  -
    assert (mv : forall x J, In x [gx0; gx1] -> moves toy renv [gy0; gy1] x J -> moves toy renv [gy0; gy1] x J /\ forall t, moved toy renv [gy0; gy1] [gx0; gx1] (J t)).
    { intros x J Hx HJ. split; [exact HJ|]. intros t. eapply moves_moved; eassumption. }
    intros x [<-|[<-|[]]]; (split; [intros y [<-|[<-|[]]]; smooth_step; repeat split; apply smooth_off; assumption|]).
    + exists (fun t => set_iv renv "x0" t). apply (mv gx0); [cbn; tauto|]. apply (proj1 (C61_inputs_move toy renv [gy0; gy1] gx0 butterfly_circuit ltac:(cbn; tauto)) "x0"%string eq_refl).
      intros z Hz Oz. cbn in Hz. repeat (destruct Hz as [<-|Hz]; [first [reflexivity|discriminate Oz]|]). contradiction.
    + exists (fun t => set_iv renv "x1" t). apply (mv gx1); [cbn; tauto|]. apply (proj1 (C61_inputs_move toy renv [gy0; gy1] gx1 butterfly_circuit ltac:(cbn; tauto)) "x1"%string eq_refl).
      intros z Hz Oz. cbn in Hz. repeat (destruct Hz as [<-|Hz]; [first [reflexivity|discriminate Oz]|]). contradiction.
Qed.

(** ** Each condition matters *)
(** An output repeated: everything is counted twice for each. *)
Theorem C61_repeated_output_refuted : exists y d0 d1 a st, gradient toy 20 true gunknown [gx0] [y; y] [d0; d1] (cse0 toy true) = Ok (Some [a], st) /\
  no_collision genv (lg toy st) /\ pullback genv gx0 [y; y] [d0; d1] = q (300 + 900001) /\ eval genv a = q (2 * (300 + 900001)).
Proof.
  exists (E OAdd [gx0; gx1] (q 7101)), gd0, gd1. do 2 eexists. split; [vmr|]. split; [apply honest_ok; vm_compute; reflexivity|].
  split; apply Qc_is_canon; vm_compute; reflexivity.
Qed.
Print Assumptions C61_repeated_output_refuted.
(** An output used inside another: its own differential is counted twice. *)
Definition gsum : exp toy := E OAdd [gx0; gx1] (q 7101).
Definition gtop : exp toy := E OMul [gsum; gj] (q (7101 * 50)).
Theorem C61_nested_output_refuted : exists a st, gradient toy 20 true gunknown [gx0] [gtop; gsum] [gd0; gd1] (cse0 toy true) = Ok (Some [a], st) /\
  no_collision genv (lg toy st) /\ pullback genv gx0 [gtop; gsum] [gd0; gd1] = q (50 * 300 + 900001) /\ eval genv a = q (50 * 300 + 2 * 900001).
Proof.
  do 2 eexists. split; [vmr|]. split; [apply honest_ok; vm_compute; reflexivity|]. split; apply Qc_is_canon; vm_compute; reflexivity.
Qed.
Print Assumptions C61_nested_output_refuted.

(** Two expressions with one signature, as a negation and the reversed difference: both are built by
    the operators, since negations are not entered in the table; the second one is never visited. *)
Definition gneg : exp toy := E ONeg [E OSub [gx0; gx1] (q (100 - 7001))] (q (7001 - 100)).
Definition grev : exp toy := E OSub [gx1; gx0] (q (7001 - 100)).
Definition gu : exp toy := E OMul [gneg; gj] (q (50 * (7001 - 100))).
Definition gv : exp toy := E OMul [grev; gwx] (q ((7001 - 100) * 60013 * 7001)).
Theorem C61_shared_signature_refuted : sig_of gneg = sig_of grev /\ eval genv gneg = eval genv grev /\
  gradient toy 20 true gunknown [gx0] [gu; gv] [gd0; gd1] (cse0 toy true) = Throw.
Proof. split; [reflexivity|]. split; [apply Qc_is_canon; vm_compute; reflexivity|]. vm_compute. reflexivity. Qed.
Print Assumptions C61_shared_signature_refuted.
(** Both do arise from the operators in one table. *)
Example C61_shared_signature_arises : exists r1 r2 r3 st1 st2 st3, exp_sub toy gx0 gx1 (cse0 toy true) = Ok (r1, st1) /\
  exp_neg toy r1 st1 = Ok (r2, st2) /\ exp_sub toy gx1 gx0 st2 = Ok (r3, st3) /\ op_of r2 = ONeg /\ op_of r3 = OSub /\ sig_of r2 = sig_of r3.
Proof. do 6 eexists. split; [vmr|]. split; [vmr|]. split; [vmr|]. split; [reflexivity|]. split; [reflexivity|]. apply Qc_is_canon; vm_compute; reflexivity. Qed.
