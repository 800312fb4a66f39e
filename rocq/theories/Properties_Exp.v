(** Properties of exp.cc and of the code generation in codelets.cc: C57 - C60. *)
From Coq Require Import String ZArith List Bool Lia QArith Qcanon Znumtheory.
From Verif Require Import Base Field FieldInst SigModel ExpModel ExpProofs ExpSig BlockProofs ShowModel CppSpec ShowProofs ShowBuild ExpToy.
Import ListNotations.
Open Scope Z_scope.

(** * C57: the simplifying constructors compute what they say *)
(** [espec F G I m sg v]: from any table state the construction [m] succeeds; in exact mode the
    signature of the result is [sg]; and its value under [I] is [v] unless two expressions offered
    to the table collide (same signature, different values). *)
Theorem C57_operators : forall (F : Fld) (G : SigOps) (I : interp F), SigLaws G -> forall x y, wfe x -> wfe y ->
  espec F G I (exp_neg G x) (sg_neg G (sig_of x)) (kopp (eval I x)) /\
  espec F G I (exp_add G x y) (sg_add G (sig_of x) (sig_of y)) (kadd (eval I x) (eval I y)) /\
  espec F G I (exp_sub G x y) (sg_sub G (sig_of x) (sig_of y)) (ksub (eval I x) (eval I y)) /\
  espec F G I (exp_mul G x y) (sg_mul G (sig_of x) (sig_of y)) (kmul (eval I x) (eval I y)).
Proof.
  intros F G I HL x y Wx Wy. split; [apply neg_spec; assumption|]. split; [apply add_spec; assumption|]. split; [apply sub_spec; assumption|apply mul_spec; assumption].
Qed.
Print Assumptions C57_operators.
(** Division by an int: the signature times the divisor is the signature of the dividend. *)
Theorem C57_div : forall (F : Fld) (G : SigOps) (I : interp F), SigLaws G -> forall x a, wfe x -> a <> 0 -> - 2 ^ 31 < a < 2 ^ 31 ->
  exists sg, sg_mul G sg (sg_int G a) = sig_of x /\ espec F G I (exp_div G x a) sg (kdiv (eval I x) (kofZ a)).
Proof. intros F G I HL x a Wx Nz Ba. apply div_spec; assumption. Qed.
Print Assumptions C57_div.
Theorem C57_sum : forall (F : Fld) (G : SigOps) (I : interp F), SigLaws G -> forall lr xs, Forall wfe xs ->
  espec F G I (exp_sum G lr xs) (fold_right (sg_add G) (sg_int G 0) (map sig_of xs)) (fold_right kadd k0 (map (eval I) xs)).
Proof. intros F G I HL lr xs W. apply sum_spec; assumption. Qed.
Print Assumptions C57_sum.
(** The signatures of sig.cc, with any number of prime moduli above 2^31 and any hash, qualify. *)
Theorem C57_signatures : forall fields (Z0 : zeros_ok fields) sha, fields <> [] -> Forall (fun p => prime p /\ 2 ^ 31 < p < 2 ^ 64) fields ->
  SigLaws (sig_ops fields Z0 sha).
Proof. intros fields Z0 sha N H. apply sig_laws; assumption. Qed.
Print Assumptions C57_signatures.
(** Division by zero is refused. *)
Theorem C57_div_zero : forall G x st, exp_div G x 0 st = Throw.
Proof. reflexivity. Qed.
Print Assumptions C57_div_zero.

(** Evaluate the left side only: the type of the equation mentions [toy]. *)
Ltac vmr := match goal with |- @eq ?T ?a ?b => let v := eval vm_compute in a in unify b v; vm_cast_no_check (@eq_refl T v) end.
Definition x_ : exp toy := mkvar "x" (q 100).
Definition y_ : exp toy := mkvar "y" (q 7001).
Definition env : interp QcF := toy_env [("x"%string, 100); ("y"%string, 7001)].
(** (x - y) - (-(x * y)) built from an empty table: every step succeeds, value and signature agree. *)
Example C57_example :
  exists r1 r2 r3 r4 st1 st2 st3 st4,
    exp_sub toy x_ y_ (cse0 toy true) = Ok (r1, st1) /\ exp_mul toy x_ y_ st1 = Ok (r2, st2) /\ exp_neg toy r2 st2 = Ok (r3, st3) /\
    exp_sub toy r1 r3 st3 = Ok (r4, st4) /\ op_of r4 = OAdd /\ sig_of r4 = q (100 - 7001 + 100 * 7001) /\ eval env r4 = q (100 - 7001 + 100 * 7001) /\
    no_collision env (lg toy st4) /\ wfe r3 /\ wfe r4.
Proof.
  do 8 eexists. split; [vmr|]. split; [vmr|]. split; [vmr|]. split; [vmr|].
  split; [reflexivity|]. split; [apply Qc_is_canon; vm_compute; reflexivity|]. split; [apply Qc_is_canon; vm_compute; reflexivity|].
  split; [apply honest_ok; vm_compute; reflexivity|]. split; [|exact Logic.I]. split; [apply Qc_is_canon; vm_compute; reflexivity|exact Logic.I].
Qed.
Example C57_div_example : exists r st, exp_div toy x_ (-8) (cse0 toy true) = Ok (r, st) /\ op_of r = ONeg /\ eval env r = Q2Qc (-25 # 2).
Proof. do 2 eexists. split; [vmr|]. split; [reflexivity|]. apply Qc_is_canon. vm_compute. reflexivity. Qed.

(** * C58: common subexpression elimination is sound *)
(** Any history of constructions from an empty table (exact mode or not) succeeds, and every
    expression built has the value of the plain arithmetic history, unless two expressions offered
    to the table collide. *)
Theorem C58_history : forall (F : Fld) (G : SigOps) (I : interp F), SigLaws G -> forall ex cs, Forall cmd_ok cs ->
  exists es st, hist cs [] (cse0 G ex) = Ok (es, st) /\
    (no_collision I (lg G st) -> map (eval I) es = hist_val I cs []).
Proof.
  intros F G I HL ex cs Hc. destruct (hist_ok F G I HL cs [] (cse0 G ex) Hc (Forall_nil _) (inv0 G ex)) as (es & st & E & _ & _ & _ & _ & V).
  exists es, st. split; [exact E|exact V].
Qed.
Print Assumptions C58_history.
(** The table does share: once a signature has been answered, the same expression is answered for it
    ever after, whatever is built in between. *)
Theorem C58_sharing : forall (F : Fld) (G : SigOps) (I : interp F), SigLaws G -> forall e r st st1 cs regs regs' st2 e',
  Inv st -> cse_exp G e st = Ok (r, st1) -> Forall cmd_ok cs -> Forall wfe regs -> Inv st1 -> hist cs regs st1 = Ok (regs', st2) ->
  fast_op (op_of e) = false -> fast_op (op_of e') = false -> sig_of e' = sig_of e -> exists st3, cse_exp G e' st2 = Ok (r, st3).
Proof.
  intros F G I HL e r st st1 cs regs regs' st2 e' Hi Hr Hc Hw Hi1 Hh N1 N2 S.
  destruct (hist_ok F G I HL cs regs st1 Hc Hw Hi1) as (es & st' & E & _ & X & _). rewrite E in Hh. injection Hh as <- <-.
  exact (cse_stable G e r st st1 st' e' Hr X N1 N2 S).
Qed.
Print Assumptions C58_sharing.
(** x + y, then y + x, then (x + y) - (y + x): one node, and the difference is the literal 0. *)
Definition hist1 : list (cmd toy) := [CVar "x" (q 100); CVar "y" (q 7001); CAdd 0 1; CAdd 1 0; CMul 2 3; CSub 2 3; CSum true [0%nat; 1%nat; 2%nat]].
Example C58_history_example : Forall cmd_ok hist1 /\ exists es st, hist hist1 [] (cse0 toy true) = Ok (es, st) /\ no_collision env (lg toy st) /\
  nth 2 es (mkint 9) = nth 3 es (mkint 8) /\ op_of (nth 2 es (mkint 9)) = OAdd /\ op_of (nth 5 es (mkint 9)) = OInt 0 /\ length (tbl toy st) = 4%nat.
Proof.
  split; [repeat (constructor; cbn; auto)|]. do 2 eexists. split; [vmr|]. split; [apply honest_ok; vm_compute; reflexivity|].
  split; [reflexivity|]. split; [reflexivity|]. split; reflexivity.
Qed.
(** With assume_exact off, sums, differences and products of the same two operands get the same
    signature (exp.cc:35-37 do not hash the operator), so x - y and x * y come back as x + y. *)
Theorem C58_inexact_refuted : forall (G : SigOps) v w s t, v <> w -> sg_unsmall G (sg_arb G None [s; t]) = None ->
  exists es st, hist [CVar v s; CVar w t; CAdd 0 1; CSub 0 1; CMul 0 1] [] (cse0 G false) = Ok (es, st) /\
    nth 2 es (mkint 0) = E OAdd [mkvar v s; mkvar w t] (sg_arb G None [s; t]) /\
    nth 3 es (mkint 0) = nth 2 es (mkint 0) /\ nth 4 es (mkint 0) = nth 2 es (mkint 0).
Proof.
  intros G v w s t N U. assert (R : sg_eqb G (sg_arb G None [s; t]) (sg_arb G None [s; t]) = true) by (apply sg_eqb_ok; reflexivity).
  do 2 eexists. split.
  - unfold hist, mbind, ret, step_exp, cse0. cbn. unfold cse, cse_exp, exact, tbl, lg. cbn. rewrite U. cbn. rewrite U. cbn. rewrite R. cbn. rewrite U. cbn. rewrite R. cbn. reflexivity.
  - cbn. auto.
Qed.
Print Assumptions C58_inexact_refuted.
Example C58_inexact_example : sg_unsmall toy (sg_arb toy None [q 100; q 7001]) = None.
Proof. vm_compute. reflexivity. Qed.

(** * C59: generated straight-line code *)
(** Any sequence of input, now, use and compute on a new Block that does not throw: the
    declarations are well scoped (each name new, only earlier names used), executing them leaves the
    inputs alone, and every result evaluates to the expression asked for - in the environment before
    the declarations if it only mentions inputs. *)
Theorem C59_block : forall (F : Fld) (G : SigOps) (I : interp F) cs rs b S, brun cs (block0 G) = Ok (rs, b) -> along in_scope cs (block0 G) ->
  well_scoped (rev (inputs cs)) (lines G b) /\
  (forall n, In n (inputs cs) -> iv (run_lines (lines G b) I) n = iv I n) /\
  ((forall e, In e (asked cs) -> incl (subs e) S) -> faithful F G S (run_lines (lines G b) I) ->
    forall e y, In (e, y) rs ->
      eval (run_lines (lines G b) I) y = eval (run_lines (lines G b) I) e /\
      (incl (vars e) (inputs cs) -> eval (run_lines (lines G b) I) y = eval I e)).
Proof.
  intros F G I cs rs b S H Hs. destruct (run_scoped G cs [] (block0 G) rs b H Hs (scoped0 G)) as ((W & N & L) & _ & _ & _). rewrite app_nil_r in *.
  assert (K : forall n, In n (inputs cs) -> iv (run_lines (lines G b) I) n = iv I n).
  { intros n Hn. apply (run_lines_known F G _ (rev (inputs cs))); [exact W|]. apply in_rev in Hn. exact Hn. }
  split; [exact W|]. split; [exact K|]. intros HA HF e y Hin.
  assert (St : sat F G (run_lines (lines G b) I) b) by (intros v e0 Hv; apply (run_lines_sat F G _ (rev (inputs cs)) I W v e0 Hv)).
  assert (Lk : lets_ok F G S (run_lines (lines G b) I) (block0 G)) by (intros s v []).
  destruct (run_value F G S _ cs (block0 G) rs b HF HA H St Lk) as [_ V]. split; [apply V; exact Hin|].
  intros Hv. rewrite (V e y Hin). destruct (run_lines_rest F G (lines G b) I) as (R1 & R2 & R3). apply eval_agree; [|exact R1|exact R2|exact R3].
  intros v Hin'. apply K, Hv, Hin'.
Qed.
Print Assumptions C59_block.
(** compute never throws on subexpressions of what has been used, as long as no two different
    subexpressions share a signature. *)
Theorem C59_total : forall (G : SigOps) cs S, (forall e1 e2, In e1 S -> In e2 S -> sig_of e1 = sig_of e2 -> e1 = e2) ->
  (forall e x, In e S -> In x (args_of e) -> In x S) -> incl (used cs) S -> ready_run G cs [] (block0 G) ->
  exists rs b, brun cs (block0 G) = Ok (rs, b).
Proof.
  intros G cs S HC HK HU HR. apply (run_total G S cs [] (block0 G) HC HK); [exact HU|exact HR| | |].
  - intros e x _ Q. destruct (Q eq_refl).
  - intros s. cbn. discriminate.
  - intros e [].
Qed.
Print Assumptions C59_total.
(** (x*y + x*y*y) and x*y + y, sharing x*y: one declaration. *)
Definition xy : exp toy := E OMul [x_; y_] (q (100 * 7001)).
Definition xyy : exp toy := E OMul [xy; y_] (q (100 * 7001 * 7001)).
Definition e1 : exp toy := E OAdd [xy; xyy] (q (100 * 7001 + 100 * 7001 * 7001)).
Definition e2 : exp toy := E OAdd [xy; y_] (q (100 * 7001 + 7001)).
Definition cs1 : list (bcmd toy) := [BInput "x" (q 100); BInput "y" (q 7001); BUse e1; BUse e2; BCompute e1; BCompute e2].
Definition S1 : list (exp toy) := subs e1 ++ subs e2.
Lemma S1_canonical : forall a b, In a S1 -> In b S1 -> sig_of a = sig_of b -> a = b.
Proof.
  intros a b Ha Hb Q. let v := eval vm_compute in S1 in (assert (V : S1 = v) by vmr; rewrite V in Ha, Hb; clear V). cbn [In] in Ha, Hb.
  repeat (destruct Ha as [<-|Ha]; [repeat (destruct Hb as [<-|Hb]; [first [reflexivity|exfalso; apply Qc_eqb_ok in Q; vm_compute in Q; discriminate Q]|]); contradiction|]). contradiction.
Qed.
Example C59_example : along in_scope cs1 (block0 toy) /\ ready_run toy cs1 [] (block0 toy) /\ (forall e, In e (asked cs1) -> incl (subs e) S1) /\
  faithful QcF toy S1 env /\ (forall e x, In e S1 -> In x (args_of e) -> In x S1) /\
  exists rs b, brun cs1 (block0 toy) = Ok (rs, b) /\ map fst (lines toy b) = ["t"%string] /\ map snd (lines toy b) = [xy] /\
    map snd rs = [E OAdd [mkvar "t" (sig_of xy); E OMul [mkvar "t" (sig_of xy); y_] (sig_of xyy)] (sig_of e1); E OAdd [mkvar "t" (sig_of xy); y_] (sig_of e2)].
Proof.
  split; [cbn; repeat split; intros v Hv; cbn in Hv |- *; tauto|].
  split.
  { unfold cs1. repeat match goal with
    | |- ready_run _ (?c :: ?t) ?us ?b =>
        change (ready toy c us b /\ match bstep c b with Ok (_, b') => ready_run toy t (us ++ used [c]) b' | _ => True end);
        split; [|let v := eval vm_compute in (bstep c b) in let H := fresh in assert (H : bstep c b = v) by vmr; rewrite H; clear H; cbv beta iota]
    end; [cbn; intuition discriminate|cbn; intuition discriminate|exact Logic.I|exact Logic.I|apply in_flat_map; exists e1|apply in_flat_map; exists e2|exact Logic.I];
    (split; [cbn [used flat_map app In]; auto|left; reflexivity]). }
  split; [intros e [<-|[<-|[]]] z Hz; apply in_or_app; [left|right]; exact Hz|].
  split; [intros a b Ha Hb Q; rewrite (S1_canonical a b Ha Hb Q); reflexivity|].
  split; [intros e x He Hx; apply in_app_or in He; apply in_or_app; destruct He as [He|He]; [left|right]; eapply subs_closed; eassumption|].
  do 2 eexists. split; [vmr|]. split; [reflexivity|]. split; reflexivity.
Qed.
(** Without that, compute can fail an assertion on an expression that was used: a negation and a
    difference with the same signature count as one, and the operands of the second are missed.
    Both can exist at once because negations are not entered in the table. *)
Definition p_neg : exp toy := E ONeg [E OAdd [x_; y_] (q 7101)] (q (-7101)).
Definition p_sub : exp toy := E OSub [mkvar "u" (q 0); mkvar "v" (q 7101)] (q (-7101)).
Theorem C59_no_count_refuted :
  brun [BInput "x" (q 100); BInput "y" (q 7001); BInput "u" (q 0); BInput "v" (q 7101); BUse p_neg; BUse p_sub; BCompute p_sub] (block0 toy) = Throw.
Proof. vm_compute. reflexivity. Qed.
Print Assumptions C59_no_count_refuted.

(** * C60: printed expressions read back *)
(** Reading the printed text by C++ rules (CppSpec.v: longest lexemes, precedence, associativity,
    int arithmetic on literals) gives a tree whose value is that of the expression. *)
Theorem C60_show : forall (F : Fld) (G : SigOps) (I : interp F) e, show_ok G e -> sqr_ok F G I e ->
  exists a, reads_as (show G e 100) a /\ toK (pval I a) = eval I e.
Proof. exact show_back. Qed.
Print Assumptions C60_show.
(** Everything the constructors build from a tame history is of that kind. *)
Theorem C60_constructors : forall (G : SigOps) ex cs es st, hist cs [] (cse0 G ex) = Ok (es, st) -> hist_tame cs [] (cse0 G ex) -> Forall (show_ok G) es.
Proof. intros G ex cs es st H T. exact (proj1 (hist_keeps G cs [] (cse0 G ex) es st (Forall_nil _) (tame0 G ex) T H)). Qed.
Print Assumptions C60_constructors.
(** So is everything a Block writes: each declaration and each result reads back with its value. *)
Theorem C60_block : forall (F : Fld) (G : SigOps) (I : interp F) cs rs b S, brun cs (block0 G) = Ok (rs, b) -> along in_scope cs (block0 G) ->
  (forall e, In e (told G cs) -> incl (subs e) S /\ show_ok G e) -> faithful F G S (run_lines (lines G b) I) ->
  (forall v e, In (v, e) (lines G b) -> exists a, reads_as (show G e 100) a /\ toK (pval (run_lines (lines G b) I) a) = eval (run_lines (lines G b) I) e) /\
  (forall e y, In (e, y) rs -> exists a, reads_as (show G y 100) a /\ toK (pval (run_lines (lines G b) I) a) = eval (run_lines (lines G b) I) y).
Proof.
  intros F G I cs rs b S H Hs HT HF. destruct (run_scoped G cs [] (block0 G) rs b H Hs (scoped0 G)) as ((W & N & L) & _ & _ & _). rewrite app_nil_r in *.
  assert (St : sat F G (run_lines (lines G b) I) b) by (intros v e0 Hv; apply (run_lines_sat F G _ (rev (inputs cs)) I W v e0 Hv)).
  destruct (run_text G F S (run_lines (lines G b) I) HF cs (block0 G) rs b H HT) as [R1 R2]; [intros s v []|exact St|intros s v []|intros v e []|].
  split.
  - intros v e Hin. destruct (R1 v e Hin) as [A1 A2]. apply show_back; assumption.
  - intros e y Hin. destruct (R2 e y Hin) as [A1 A2]. apply show_back; assumption.
Qed.
Print Assumptions C60_block.
(** x - (y - x) * -y: parentheses where needed. *)
Definition hist2 : list (cmd toy) := [CVar "x" (q 100); CVar "y" (q 7001); CSub 1 0; CNeg 1; CMul 2 3; CSub 0 4; CNeg 5; CDiv 6 3; CMul 7 7; CAdd 0 8; CSub 0 9].
Example C60_example : exists es st, hist hist2 [] (cse0 toy true) = Ok (es, st) /\ hist_tame hist2 [] (cse0 toy true) /\
  map (fun e => text (show toy e 100)) es =
    ["x"; "y"; "y - x"; "-y"; "-((y - x) * y)"; "x + (y - x) * y"; "-(x + (y - x) * y)"; "-((x + (y - x) * y) / 3)"; "sqr((x + (y - x) * y) / 3)"; "x + sqr((x + (y - x) * y) / 3)"; "x - (x + sqr((x + (y - x) * y) / 3))"]%string /\
  sqr_ok QcF toy env (nth 8 es (mkint 0)).
Proof.
  do 2 eexists. split; [vmr|]. split; [|split; [vmr|]].
  - vm_compute. repeat match goal with |- _ /\ _ => split | |- True => exact Logic.I | |- _ -> False => intros HH | H : exists _, _ |- _ => destruct H | H : _ /\ _ |- _ => destruct H end; discriminate.
  - intros a b s Hin Q. match type of Hin with In _ ?l => let v := eval vm_compute in l in (assert (V : l = v) by vmr; rewrite V in Hin; clear V) end. cbn [In] in Hin. repeat (destruct Hin as [Hin|Hin]; [try discriminate Hin; injection Hin as <- <- _; try reflexivity; exfalso; apply Qc_eqb_ok in Q; vm_compute in Q; discriminate Q|]). contradiction.
Qed.
(** Division of a literal prints an integer division: Exp(1) / 3 prints "1 / 3", which C++ evaluates
    to 0. *)
Theorem C60_int_division_refuted : exists es st a, hist [CInt 1; CDiv 0 3] [] (cse0 toy true) = Ok (es, st) /\
  text (show toy (nth 1 es (mkint 0)) 100) = "1 / 3"%string /\ reads_as (show toy (nth 1 es (mkint 0)) 100) a /\
  pval env a = VI 0 /\ toK (pval env a) <> eval env (nth 1 es (mkint 0)).
Proof.
  do 3 eexists. split; [vmr|]. split; [vmr|]. split; [split; [vm_compute; auto|exists 20%nat; vm_compute; reflexivity]|].
  split; [reflexivity|]. intros Q. apply (proj2 (Qc_eqb_ok _ _)) in Q. vm_compute in Q. discriminate.
Qed.
Print Assumptions C60_int_division_refuted.
