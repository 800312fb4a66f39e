(** Proofs about the generated series base cases as programs. *)
From Coq Require Import String ZArith List Bool Lia Ring_theory Ring Field.
From Verif Require Import Base Field FPS ExpModel ExpProofs BlockProofs GenScope BaseGenModel BaseGenRun BaseGenProofs SeriesModel SeriesSpec SeriesProofs AlgoProofs CodeletModel CodeletProofs
  SerGenModel SerGenSim.
Import ListNotations.
Open Scope Z_scope.

(** Signatures identify only expressions of equal value, for the inputs in P. *)
Definition clean_on (F : Fld) (G : SigOps) (P : interp F -> Prop) (g : qst G) : Prop :=
  forall J : interp F, P J -> no_collision J (lg G (q_cse G g)) /\ faithful F G (flat_map subs (q_asked G g)) J.
(** The library's inv is the reciprocal. *)
Definition inverts (F : Fld) (J : interp F) : Prop := forall a : F, icall J "inv" [a] = kinv a.

Section P.
Variables (F : Fld) (G : SigOps).
Hypothesis HL : SigLaws G.
Variables (draw : string -> G) (lr : bool) (f : frame).
Notation exp := (exp G).
Notation seg := (seg G).

(** ** "if (ny == i) return;" between consecutive assignments is "if (ny <= i) return;" *)
Definition stmts' (a c : string) (s : seg) : list (sstmt G) :=
  (match s_i G s with O => [] | S _ => [QStop c (s_i G s)] end) ++ map (fun p => QLet (fst p) (snd p)) (s_lets G s) ++ [QStore a (s_i G s) (s_y G s)].
Lemma stop_ret : forall a c l k (I : interp F) m, map (s_i G) l = seq k (length l) -> Z.of_nat k <= f_int f c -> 0 < f_int f c ->
  exec f (flat_map (stmts' a c) l) I m = exec f (flat_map (stmts G a c) l) I m.
Proof.
  intros a c l. induction l as [|s l IH]; intros k I m E Hk H0; [reflexivity|]. cbn [map length seq] in E. injection E as Ei E. cbn [flat_map]. unfold stmts' at 1, stmts at 1. rewrite Ei, <- !app_assoc.
  assert (K : Z.of_nat k < f_int f c -> exec f (map (fun p => QLet (fst p) (snd p)) (s_lets G s) ++ [QStore a k (s_y G s)] ++ flat_map (stmts' a c) l) I m =
    exec f (map (fun p => QLet (fst p) (snd p)) (s_lets G s) ++ [QStore a k (s_y G s)] ++ flat_map (stmts G a c) l) I m).
  { intros Hlt. rewrite !exec_lets. cbn [app exec]. destruct (m (f_ptr f a + Z.of_nat k)); [|reflexivity]. apply (IH (S k)); [exact E|lia|exact H0]. }
  destruct k as [|k]; cbn [app] in *; [apply K; lia|]. cbn [exec].
  destruct (Z.eqb_spec (f_int f c) (Z.of_nat (S k))) as [e|e]; destruct (Z.leb_spec (f_int f c) (Z.of_nat (S k))); try lia; [reflexivity|]. apply K. lia.
Qed.

(** ** The assignments *)
Lemma fold_use : forall ts (b : bst G), let b' := fold_left (fun b e => use G e b) ts b in names G b' = names G b /\ lets G b' = lets G b /\ lines G b' = lines G b.
Proof. induction ts as [|t ts IH]; intros b; cbn; [auto|]. destruct (IH (use G t b)) as (-> & -> & ->). apply use_same. Qed.
Lemma stores_ok : forall ins ts i g g', y_stores G i ts g = Ok g' -> scoped_b G ins (q_blk G g) -> Forall (ve G ins) ts ->
  exists l : list seg, map (s_i G) l = seq i (length ts) /\ map (s_t G) l = ts /\ q_out G g' = q_out G g ++ flat_map (stmts' "y" "ny") l /\
    lines G (q_blk G g') = lines G (q_blk G g) ++ flat_map (s_lets G) l /\ seg_scoped G (rev (map fst (lines G (q_blk G g))) ++ ins) l /\
    q_asked G g' = q_asked G g ++ ts /\ q_cse G g' = q_cse G g /\
    (forall S (J : interp F), faithful F G S J -> incl (flat_map subs (q_asked G g')) S -> sat F G J (q_blk G g') -> lets_ok F G S J (q_blk G g) -> Forall (fun s => eval J (s_y G s) = eval J (s_t G s)) l).
Proof.
  intros ins ts. induction ts as [|t ts IH]; intros i g g' H HB HT; cbn [y_stores] in H.
  - injection H as <-. exists []. cbn [map flat_map seg_scoped length seq]. rewrite !app_nil_r. repeat split; auto.
  - set (g0 := match i with O => g | S _ => q_emit G (QStop "ny" i) g end) in *.
    assert (G0 : q_cse G g0 = q_cse G g /\ q_blk G g0 = q_blk G g /\ q_asked G g0 = q_asked G g /\ q_out G g0 = q_out G g ++ match i with O => [] | S _ => [QStop "ny" i] end).
    { unfold g0. destruct i; [rewrite app_nil_r|]; auto. }
    clearbody g0. destruct G0 as (C0 & B0 & K0 & O0). rewrite B0, C0, O0, K0 in H. inversion HT; subst.
    destruct (compute G t (q_blk G g)) as [[y1 b1]| |] eqn:E1; try discriminate. cbn [bind] in H. destruct (compute G t b1) as [[y b2]| |] eqn:E2; try discriminate. cbn [bind] in H.
    assert (Hn : incl (vars t) (names G (q_blk G g))) by (intros v Hv'; apply (proj2 (proj1 (proj2 HB) v)); left; apply H2, Hv').
    destruct (compute_scoped G t ins _ _ _ E1 HB Hn) as (Sb1 & _ & N1).
    destruct (compute_scoped G t ins _ _ _ E2 Sb1 (incl_tran Hn N1)) as (Sb & Vy & _).
    destruct (compute_prefix G _ _ _ _ E1) as [l1 El1]. destruct (compute_prefix G _ _ _ _ E2) as [l2 El2]. set (ls := l1 ++ l2).
    assert (El : lines G b2 = lines G (q_blk G g) ++ ls) by (unfold ls; rewrite El2, El1, <- app_assoc; reflexivity).
    rewrite El in H. rewrite skipn_app, skipn_all, Nat.sub_diag in H. cbn [skipn app] in H.
    destruct (IH _ _ _ H) as (l & L1 & L2 & L3 & L4 & L5 & L6 & L7 & L8); cbn [q_cse q_blk q_out q_asked]; [exact Sb|assumption|].
    cbn [q_cse q_blk q_out q_asked] in L3, L4, L5, L6, L7, L8. rewrite El, map_app, rev_app_distr, <- app_assoc in L5.
    exists ({| s_i := i; s_lets := ls; s_t := t; s_y := y |} :: l). cbn [map flat_map seg_scoped s_i s_lets s_t s_y length seq].
    split; [rewrite L1; reflexivity|]. split; [rewrite L2; reflexivity|]. split; [rewrite L3; unfold stmts' at 2; cbn [s_i s_lets s_y]; rewrite <- !app_assoc; reflexivity|].
    split; [rewrite L4, El, <- app_assoc; reflexivity|]. split.
    { split; [|split; [|exact L5]].
      - destruct Sb as (W & _). rewrite El in W. apply well_scoped_app in W. apply W.
      - intros v Hv'. apply Vy in Hv'. apply (known_names G ins _ _ Sb) in Hv'. rewrite El, map_app, rev_app_distr, <- app_assoc in Hv'. exact Hv'. }
    split; [rewrite L6, <- app_assoc; reflexivity|]. split; [exact L7|].
    intros S J HF HS Hsat Hlets.
    assert (Hs2 : sat F G J b2). { intros v e Hin. apply Hsat. rewrite L4. apply in_or_app. left. exact Hin. }
    assert (Hs1 : sat F G J b1) by (apply (sat_prefix F G J b1 b2); [exact (compute_prefix G _ _ _ _ E2)|exact Hs2]).
    assert (Hi : incl (subs t) S).
    { intros z Hz. apply HS. rewrite L6, <- app_assoc, !flat_map_app. apply in_or_app. right. apply in_or_app. left. cbn [flat_map]. rewrite app_nil_r. exact Hz. }
    destruct (compute_value F G S J HF _ _ _ _ E1 Hi) as [_ CV]. destruct (CV Hs1 Hlets) as [_ Lb1].
    destruct (compute_value F G S J HF _ _ _ _ E2 Hi) as [_ CV']. destruct (CV' Hs2 Lb1) as [Vy1 Lb2].
    constructor; [exact Vy1|]. apply (L8 S J HF HS Hsat Lb2).
Qed.
Lemma reserve_ok : forall names0 g g', reserve G draw names0 g = Ok g' -> q_cse G g' = q_cse G g /\ q_asked G g' = q_asked G g /\ q_out G g' = q_out G g /\
  q_blk G g' = {| names := rev names0 ++ names G (q_blk G g); counts := counts G (q_blk G g); lets := lets G (q_blk G g); lines := lines G (q_blk G g) |}.
Proof.
  intros l. induction l as [|v l IH]; intros g g' H; cbn [reserve] in H.
  - injection H as <-. destruct g as [c b o q]. cbn. destruct b. auto.
  - unfold input in H. destruct (existsb (String.eqb v) (names G (q_blk G g))); [discriminate|]. cbn in H. destruct (IH _ _ H) as (A & B & C & D). cbn in A, B, C, D. rewrite A, B, C, D. cbn [rev]. rewrite <- app_assoc. auto.
Qed.

(** ** The whole bodies *)
(** The series the base case stands for: x with its first [lead] coefficients taken as zero. *)
Definition input_series (n lead : nat) (v : nat -> F) : series F := mkS (map (fun i => Some (if (i <? lead)%nat then k0 else v i)) (seq 0 n)) (Z.of_nat n) (Z.of_nat n).
Lemma map_repeat_k : forall A B (h : A -> B) (a : A) n, map h (repeat a n) = repeat (h a) n. Proof. intros A B h a n. induction n; [reflexivity|]. cbn. f_equal. assumption. Qed.
Lemma ser_ok : forall (P : interp F -> Prop) n lead set (setc : series F -> res (series F)) g (I : interp F) m,
  (lead <= n)%nat -> Z.of_nat n < 2 ^ 30 ->
  (forall V J x, inverts F J -> W G V x -> sim F G V J (set x) (W G V) (setc (yden F G J x)) (yden F G J)) ->
  (forall J, P J -> inverts F J) ->
  ser_gen G draw n lead set = Ok g -> clean_on F G P g ->
  (forall J : interp F, (forall i, (lead <= i < n)%nat -> iv J (elem "x" i) = item f m "x" "nx" i) -> icall J = icall I -> P J) ->
  0 < f_int f "ny" -> (forall i, (lead <= i < n)%nat -> Z.of_nat i < f_int f "nx" -> m (f_ptr f "x" + Z.of_nat i) <> None) -> mapped f m "y" "ny" n ->
  exists m' Y vs, exec f (q_out G g) I m = Some m' /\ setc (input_series n lead (item f m "x" "nx")) = Ok Y /\ Z.of_nat n <= nonzero Y /\ read_cells F n (cells Y) = Ok vs /\
    replaced f m "y" "ny" n (fun i => nth i vs k0) m'.
Proof.
  intros P n lead set setc g I m Hlead Hn Hset HP H HC HPJ H0 Mx My. unfold ser_gen in H.
  destruct (reserve G draw _ (q0 G)) as [g1| |] eqn:E1; try discriminate. cbn [bind] in H. destruct (reserve G draw (map (elem "x") (seq 0 lead)) g1) as [g2| |] eqn:E2; try discriminate. cbn [bind] in H.
  destruct (extends G draw "x" (seq lead (n - lead)) g2) as [[xs g3]| |] eqn:E3; try discriminate. cbn [bind] in H.
  destruct (reserve_ok _ _ _ E1) as (A1 & A2 & A3 & A4). destruct (reserve_ok _ _ _ E2) as (B1 & B2 & B3 & B4). destruct (extends_ok G draw _ _ _ _ _ E3) as (-> & C1 & C2 & C3 & C4).
  rewrite A1 in B1. rewrite A2 in B2. rewrite A3 in B3. rewrite A4 in B4. rewrite B1 in C1. rewrite B2 in C2. rewrite B3 in C3. rewrite B4 in C4. cbn [q0 q_cse q_asked q_out q_blk block0 names counts lets lines app] in C1, C2, C3, C4.
  set (ins := rev (map (elem "x") (seq lead (n - lead))) ++ rev (map (elem "x") (seq 0 lead)) ++ rev ["y"; "ny"; "x"; "nx"]%string ++ []) in *.
  set (x := mkY G _ _ _) in H. rewrite C1, C2, C3 in H.
  destruct (set x {| exact := true; tbl := []; lg := [] |}) as [[y st]| |] eqn:Es; try discriminate. cbn [bind] in H.
  destruct (Z.leb_spec (Z.of_nat n) (yn G y)) as [Hny|]; [|discriminate]. destruct (y_read G n (yc G y)) as [ts| |] eqn:Er; try discriminate. cbn [bind] in H.
  assert (Wx : W G ins x).
  { unfold W, y_limit, x. cbn [yc yk yn]. rewrite map_length, app_length, repeat_length, map_length, seq_length. split; [|lia]. rewrite Forall_map. apply Forall_app. split; apply Forall_forall; intros e He.
    - apply repeat_spec in He. subst e. apply we_int. lia.
    - apply in_map_iff in He. destruct He as (i & <- & Hi). split; [exact Logic.I|]. apply ve_var. unfold ins. apply in_or_app. left. rewrite <- in_rev. apply in_map, Hi. }
  assert (Gd : good G ins {| exact := true; tbl := []; lg := [] |}) by (split; intros s e []).
  (* facts that do not depend on the values *)
  set (J0 := {| iv := fun _ => k0; iother := fun _ => k0; ifield := fun _ _ => k0; icall := fun _ l => match l with [a] => kinv a | _ => k0 end |} : interp F).
  destruct (Hset ins J0 x (fun a => eq_refl) Wx _ _ _ Gd Es) as (_ & _ & Wy & _).
  destruct (read_den F G ins J0 _ _ _ Er) as (_ & Wts & Lts & _). specialize (Wts (proj1 Wy)).
  destruct (stores_ok ins ts 0 _ _ H) as (l & L1 & L2 & L3 & L4 & L5 & L6 & L7 & L8); cbn [q_cse q_blk q_out q_asked].
  { destruct (fold_use ts (q_blk G g3)) as (U1 & U2 & U3). rewrite C4 in U1, U2, U3. cbn [names lets lines] in U1, U2, U3. split; [|split]; [rewrite C4, U3; exact Logic.I| |rewrite C4, U2; intros s v []].
    intros v. rewrite C4, U1, U3. cbn [map]. split; [left; assumption|intros [?|[]]; assumption]. }
  { eapply Forall_impl; [|exact Wts]. intros e He. apply He. }
  cbn [q_cse q_blk q_out q_asked] in L3, L4, L5, L6, L7, L8. destruct (fold_use ts (q_blk G g3)) as (U1 & U2 & U3). rewrite C4 in U1, U2, U3. cbn [names lets lines] in U1, U2, U3. rewrite C4 in L4, L5, L8. rewrite U3 in L4, L5. cbn [map rev app] in L4, L5, L6.
  set (J := loaded F f m "x" (seq lead (n - lead)) I). set (J' := run_lines (flat_map (s_lets G) l) J).
  destruct (run_lines_rest F G (flat_map (s_lets G) l) J) as (_ & _ & R3).
  assert (RI : icall J' = icall I).
  { unfold J'. rewrite R3. unfold J, loaded. generalize (seq lead (n - lead)). intros is. generalize I. induction is as [|i is IH]; intros I1; [reflexivity|]. cbn [fold_left]. rewrite IH. reflexivity. }
  assert (EJ : forall i, (lead <= i < n)%nat -> iv J' (elem "x" i) = item f m "x" "nx" i).
  { intros i Hi. unfold J'. rewrite (run_lines_known F G _ ins); [|apply seg_lets; exact L5|unfold ins; apply in_or_app; left; rewrite <- in_rev; apply in_map, in_seq; lia]. unfold J. apply (loaded_at F f). apply in_seq. lia. }
  assert (PJ : P J') by (apply HPJ; assumption).
  destruct (HC J' PJ) as [N1 N2]. rewrite L7 in N1.
  destruct (Hset ins J' x (HP J' PJ) Wx _ _ _ Gd Es) as (_ & _ & _ & K). specialize (K N1).
  destruct (read_den F G ins J' _ _ _ Er) as (Rv & _ & _ & _).
  assert (Dx : yden F G J' x = input_series n lead (item f m "x" "nx")).
  { unfold yden, input_series, x. cbn [yc yk yn]. f_equal. unfold dc. rewrite map_map. cbn [option_map]. rewrite map_app, map_repeat_k, map_map. cbn [eval mkvar].
    replace n with (lead + (n - lead))%nat at 2 by lia. rewrite seq_app, map_app. f_equal; [|apply map_ext_in; intros i Hi; apply in_seq in Hi; destruct (Nat.ltb_spec i lead); [lia|]; f_equal; apply EJ; lia].
    transitivity (map (fun _ => Some (@k0 F)) (seq 0 lead)); [|apply map_ext_in; intros i Hi; apply in_seq in Hi; destruct (Nat.ltb_spec i lead); [reflexivity|lia]].
    transitivity (repeat (Some (@k0 F)) (length (seq 0 lead))); [rewrite seq_length; reflexivity|]. generalize (seq 0 lead). intros is. induction is as [|i is IH]; [reflexivity|]. cbn. f_equal. exact IH. }
  rewrite Dx in K.
  assert (Hlen : length l = length ts) by (rewrite <- L2, map_length; reflexivity).
  assert (X : exec f (flat_map (stmts G "y" "ny") l) J m = Some (stores F f "y" "ny" (map (fun s => (s_i G s, eval J' (s_y G s))) l) m)).
  { apply (exec_segs F G draw f "y" "ny" l ins J m H0 L5). intros s Hs Hc. apply My; [|exact Hc]. assert (Hi : In (s_i G s) (seq 0 (length ts))) by (rewrite <- L1; apply in_map, Hs). apply in_seq in Hi. rewrite Lts in Hi. lia. }
  exists (stores F f "y" "ny" (map (fun s => (s_i G s, eval J' (s_y G s))) l) m), (yden F G J' y), (map (eval J') ts).
  split. { rewrite L3. rewrite (exec_loads F G f "x") by (intros i Hi; apply Mx; apply in_seq in Hi; lia). fold J. rewrite (stop_ret "y" "ny" l 0%nat); [exact X|rewrite L1, Hlen; reflexivity|lia|exact H0]. }
  split; [exact K|]. split; [exact Hny|]. split; [exact Rv|].
  assert (Hsat : sat F G J' (q_blk G g)) by (unfold sat; rewrite L4; intros v e Hin; apply (run_lines_sat F G _ ins); [apply seg_lets; exact L5|exact Hin]).
  assert (Q : Forall (fun s => eval J' (s_y G s) = eval J' (s_t G s)) l).
  { apply (L8 _ J' N2 (incl_refl _) Hsat). unfold lets_ok. rewrite U2. intros s v []. }
  assert (E : map (fun s => (s_i G s, eval J' (s_y G s))) l = map (fun i => (i, nth i (map (eval J') ts) k0)) (seq 0 n)).
  { rewrite <- Lts, <- L1. rewrite map_map. apply map_ext_in. intros s Hs. f_equal. rewrite Forall_forall in Q. rewrite (Q s Hs). destruct (In_nth_error l s Hs) as [j Hj].
    assert (Ej : s_i G s = j). { pose proof (map_nth_error (s_i G) _ _ Hj) as A. rewrite L1 in A. apply (nth_error_nth _ _ 0%nat) in A. rewrite seq_nth in A; [lia|]. rewrite <- Hlen. apply nth_error_Some. congruence. }
    rewrite Ej. symmetry. apply nth_error_nth. rewrite nth_error_map. rewrite <- L2, nth_error_map, Hj. reflexivity. }
  rewrite E. destruct (stores_seq F G draw f "y" "ny" (fun i => nth i (map (eval J') ts) k0) n 0 m) as [Aa Bb]. split; [intros i Hi Hc; apply Aa; [lia|exact Hc]|]. intros p Hp. apply Bb. intros i Hi. apply Hp. lia.
Qed.

(** ** The two base cases *)
Lemma input_valid : forall n lead v, valid (input_series n lead v).
Proof.
  intros n lead v. unfold valid, input_series, limit. cbn [cells known nonzero]. rewrite map_length, seq_length. split; [lia|]. split; [lia|]. split; [lia|].
  intros i Hi. rewrite nth_error_map. rewrite (nth_error_nth' _ 0%nat) by (rewrite seq_length; lia). eexists. reflexivity.
Qed.
Lemma input_den : forall n lead v i, (i < n)%nat -> den (input_series n lead v) i = if (i <? lead)%nat then k0 else v i.
Proof.
  intros n lead v i Hi. unfold den, input_series. cbn [cells nonzero]. destruct (Z.ltb_spec (Z.of_nat i) (Z.of_nat n)); [|lia].
  set (h := fun i => Some (if (i <? lead)%nat then k0 else v i)). rewrite (nth_indep _ None (h 0%nat)) by (rewrite map_length, seq_length; exact Hi). rewrite (map_nth h), seq_nth by exact Hi. reflexivity.
Qed.
Lemma read_valid : forall n (Y : series F) vs, read_cells F n (cells Y) = Ok vs -> Z.of_nat n <= nonzero Y -> forall i, (i < n)%nat -> nth i vs k0 = den Y i.
Proof.
  intros n Y. unfold den. generalize (cells Y), (nonzero Y). clear Y. induction n as [|n IH]; intros c nz vs H Hz i Hi; [lia|]. cbn [read_cells] in H.
  destruct c as [|[x|] c]; try discriminate. destruct (read_cells F n c) as [t| |] eqn:E; try discriminate. injection H as <-. destruct (Z.ltb_spec (Z.of_nat i) nz); [|lia].
  destruct i as [|i]; [reflexivity|]. cbn [nth]. rewrite (IH c (nz - 1) t E) by lia. destruct (Z.ltb_spec (Z.of_nat i) (nz - 1)); [reflexivity|lia].
Qed.
Local Strategy 1000 [ser_gen].
Local Strategy 900 [of_inv of_exp gen_inv_n gen_exp_n read_cells].
Theorem inv_gen_ok : forall g (I : interp F) m, inv_gen G draw lr 5 = Ok g ->
  clean_on F G (fun J => inverts F J /\ iv J (elem "x" 0) <> k0) g -> inverts F I ->
  0 < f_int f "ny" -> mapped f m "x" "nx" 5 -> mapped f m "y" "ny" 5 -> item f m "x" "nx" 0 <> k0 ->
  exists m' v, exec f (q_out G g) I m = Some m' /\ replaced f m "y" "ny" 5 v m' /\ eqn 5 (fmul (item f m "x" "nx") v) f1.
Proof.
  intros g I m H HC HI H0 Mx My Hx. unfold inv_gen in H. change (Z.of_nat 5) with 5 in H.
  destruct (ser_ok (fun J => inverts F J /\ iv J (elem "x" 0) <> k0) 5 0 (of_inv G lr 5) (gen_inv_n F 5) g I m) as (m' & Y & vs & X1 & X2 & X3 & X4 & X5); [lia|reflexivity| | |exact H|exact HC| |exact H0|intros i Hi; apply Mx; lia|exact My|].
  - intros V J x HJ Wx. apply sim_of_inv; [exact HL|exact HJ|exact Wx|reflexivity].
  - intros J HJ. apply HJ.
  - intros J EJ EI. split; [intros a; rewrite EI; apply HI|]. rewrite EJ by lia. exact Hx.
  - set (X := input_series 5 0 (item f m "x" "nx")) in *. destruct (gen_inv_ok F X) as (Y' & EY & VY & NY & QY); [apply input_valid|reflexivity|reflexivity|unfold X; rewrite input_den by lia; exact Hx|].
    unfold gen_inv, base_n in EY. rewrite X2 in EY. injection EY as <-. exists m', (fun i => nth i vs k0). split; [exact X1|]. split; [exact X5|].
    intros i Hi. rewrite <- (QY i Hi). apply (fmul_eqn F 5); [| |exact Hi]; intros j Hj; [unfold X; rewrite input_den by lia; reflexivity|apply (read_valid 5 Y vs X4 X3); exact Hj].
Qed.
Theorem exp_gen_ok : forall g (I : interp F) m, exp_gen G draw lr 5 = Ok g -> clean_on F G (inverts F) g -> inverts F I ->
  0 < f_int f "ny" -> (forall i, (1 <= i < 5)%nat -> Z.of_nat i < f_int f "nx" -> m (f_ptr f "x" + Z.of_nat i) <> None) -> mapped f m "y" "ny" 5 ->
  exists m' v, exec f (q_out G g) I m = Some m' /\ replaced f m "y" "ny" 5 v m' /\ eqn 5 v (fexp (fun i => match i with O => k0 | S _ => item f m "x" "nx" i end)).
Proof.
  intros g I m H HC HI H0 Mx My. unfold exp_gen in H. change (Z.of_nat 5) with 5 in H.
  destruct (ser_ok (inverts F) 5 1 (of_exp G lr 5) (gen_exp_n F 5) g I m) as (m' & Y & vs & X1 & X2 & X3 & X4 & X5); [lia|reflexivity| |intros J HJ; exact HJ|exact H|exact HC| |exact H0|exact Mx|exact My|].
  - intros V J x HJ Wx. apply sim_of_exp; [exact HL|exact HJ|exact Wx|reflexivity].
  - intros J EJ EI a. rewrite EI. apply HI.
  - set (X := input_series 5 1 (item f m "x" "nx")) in *. destruct (gen_exp_ok F X) as (Y' & EY & VY & NY & QY); [apply input_valid|reflexivity|reflexivity|unfold X; rewrite input_den by lia; reflexivity|].
    unfold gen_exp, base_n in EY. rewrite X2 in EY. injection EY as <-. exists m', (fun i => nth i vs k0). split; [exact X1|]. split; [exact X5|].
    intros i Hi. rewrite (read_valid 5 Y vs X4 X3) by exact Hi. rewrite (QY i Hi). apply (fexp_eqn F 5); [|exact Hi]. intros j Hj. unfold X. rewrite input_den by lia. destruct j; reflexivity.
Qed.
End P.

(** ** The base cases of the series functions, with the generated bodies *)
Section Bases.
Variables (F : Fld) (G : SigOps).
Lemma image_x : forall (y x : series F) i, valid x -> 0 <= limit y -> Z.of_nat i < nonzero x -> image y x (limit y + Z.of_nat i) = Some (den x i).
Proof.
  intros y x i (_ & _ & _ & HX) Hl Hi. unfold image. destruct (Z.ltb_spec (limit y + Z.of_nat i) 0); [lia|]. destruct (Z.ltb_spec (limit y + Z.of_nat i) (limit y)); [lia|]. replace (limit y + Z.of_nat i - limit y) with (Z.of_nat i) by lia. rewrite Nat2Z.id.
  destruct (HX i Hi) as [v Ev]. unfold den. destruct (Z.ltb_spec (Z.of_nat i) (nonzero x)); [|lia]. rewrite (nth_error_nth _ _ None Ev). reflexivity.
Qed.
Lemma image_y : forall (y x : series F) i, Z.of_nat i < limit y -> image y x (0 + Z.of_nat i) <> None.
Proof. intros y x i Hi. unfold image. destruct (Z.ltb_spec (0 + Z.of_nat i) 0); [lia|]. destruct (Z.ltb_spec (0 + Z.of_nat i) (limit y)); [|lia]. discriminate. Qed.
Lemma image_item : forall (y x : series F) ny i, valid x -> small (known x) -> item (call_frame y x ny) (image y x) "x" "nx" i = den x i.
Proof.
  intros y x ny i HX HS. unfold item, call_frame. cbn [f_int f_ptr String.eqb Ascii.eqb Bool.eqb]. unfold small in HS. pose proof HX as (H0 & H1 & _). rewrite to_i32_id by lia.
  destruct (Z.ltb_spec (Z.of_nat i) (nonzero x)); [rewrite image_x by (auto; unfold limit; lia); reflexivity|]. unfold den. destruct (Z.ltb_spec (Z.of_nat i) (nonzero x)); [lia|reflexivity].
Qed.
Lemma prog_base_ok : forall n (body : list (sstmt G)) (I : interp F) (y x : series F) (Q : fps F -> Prop), valid x -> 0 < known x -> small (known x) -> known x <= limit y -> (0 < n)%nat ->
  let ny := Z.min (Z.of_nat n) (known x) in let f := call_frame y x ny in let m := image y x in
  (0 < f_int f "ny" -> mapped f m "x" "nx" n -> mapped f m "y" "ny" n -> exists m' v, exec f body I m = Some m' /\ replaced f m "y" "ny" n v m' /\ Q v) ->
  exists y' q, prog_base n body I y x = Ok y' /\ valid y' /\ limit y' = limit y /\ known y' = ny /\ nonzero y' = ny /\ Q q /\ eqn (Z.to_nat ny) (den y') q.
Proof.
  intros n body I y x Q HX Hk HS Hl Hn ny f m HR. unfold small in HS. unfold prog_base. rewrite to_i32_id by lia. fold ny.
  assert (Bn : 0 < ny <= known x /\ ny <= Z.of_nat n) by (unfold ny; lia). clearbody ny.
  rewrite set_counts_ok by lia. cbn [bind]. destruct (Z.eqb_spec ny 0); [lia|].
  destruct HR as (m' & v & E & R & Hq).
  { exact (proj1 (proj1 Bn)). }
  { intros i Hi Hc. cbn in Hc. pose proof HX as (H0 & H1 & _). rewrite to_i32_id in Hc by lia. unfold m, f. change (f_ptr (call_frame y x ny) "x") with (limit y). rewrite image_x by (auto; unfold limit; lia). discriminate. }
  { intros i Hi Hc. change (f_int f "ny") with ny in Hc. apply image_y. lia. }
  fold f m. rewrite E. exists (mkS (back y ny m') ny ny), v. split; [reflexivity|].
  assert (Lb : length (back y ny m') = length (cells y)) by (unfold back; rewrite map_length, seq_length; reflexivity).
  assert (Nb : forall i, Z.of_nat i < ny -> nth_error (back y ny m') i = Some (Some (v i))).
  { intros i Hi. assert (Li : (i < length (cells y))%nat) by (unfold limit in Hl; lia). unfold back. rewrite nth_error_map. rewrite (nth_error_nth' _ 0%nat) by (rewrite seq_length; exact Li). rewrite seq_nth by exact Li. cbn [option_map plus].
    destruct R as [R1 _]. specialize (R1 i ltac:(lia) Hi). change (f_ptr f "y" + Z.of_nat i) with (Z.of_nat i) in R1. rewrite R1. destruct (Z.ltb_spec (Z.of_nat i) ny); [|lia]. destruct (nth i (cells y) None); reflexivity. }
  split. { split; [cbn; lia|]. split; [cbn; lia|]. split; [unfold limit in *; cbn [cells nonzero]; lia|]. intros i Hi. cbn [nonzero cells] in *. exists (v i). apply Nb, Hi. }
  split; [unfold limit; cbn [cells]; lia|]. split; [reflexivity|]. split; [reflexivity|]. split; [exact Hq|].
  intros i Hi. unfold den. cbn [cells nonzero]. destruct (Z.ltb_spec (Z.of_nat i) ny); [|lia]. rewrite (nth_error_nth _ _ None (Nb i ltac:(lia))). reflexivity.
Qed.
Hypothesis HL : SigLaws G.
Theorem prog_bases_ok : forall (draw : string -> G) lr gi ge (I : interp F),
  inv_gen G draw lr 5 = Ok gi -> clean_on F G (fun J => inverts F J /\ iv J (elem "x" 0) <> k0) gi ->
  exp_gen G draw lr 5 = Ok ge -> clean_on F G (inverts F) ge -> inverts F I -> bases_ok (prog_bases (q_out G gi) (q_out G ge) I).
Proof.
  intros draw lr gi ge I Hi Ci He Ce HI. split; cbn [inv_base exp_base prog_bases].
  - intros y x Hx Hn Hs H0 Hl. pose proof Hx as (X0 & X1 & _).
    destruct (prog_base_ok 5 (q_out G gi) I y x (fun q => eqn 5 (fmul (den x) q) f1) Hx ltac:(lia) Hs Hl ltac:(lia)) as (y' & q & E & V & L & K & N & Q & D).
    { intros Pn Mx My. destruct (inv_gen_ok F G HL draw lr _ gi I _ Hi Ci HI Pn Mx My) as (m' & v & E & R & Q); [rewrite image_item by assumption; exact H0|]. exists m', v. split; [exact E|]. split; [exact R|].
      etransitivity; [|exact Q]. apply fmul_e; [|reflexivity]. intros j Hj. rewrite image_item by assumption. reflexivity. }
    exists y'. split; [exact E|]. split; [exact V|]. split; [exact L|]. rewrite K, N. split; [lia|]. split; [lia|]. split; [|reflexivity].
    transitivity (fmul (den x) q); [apply fmul_e; [reflexivity|exact D]|]. apply eqn_mono with (n := 5%nat); [lia|exact Q].
  - intros y x Hx Hn Hs H0 Hl. pose proof Hx as (X0 & X1 & _).
    destruct (prog_base_ok 5 (q_out G ge) I y x (fun q => eqn 5 q (fexp (den x))) Hx ltac:(lia) Hs Hl ltac:(lia)) as (y' & q & E & V & L & K & N & Q & D).
    { intros Pn Mx My. destruct (exp_gen_ok F G HL draw lr _ ge I _ He Ce HI Pn (fun i Hi => Mx i (proj2 Hi)) My) as (m' & v & E & R & Q). exists m', v. split; [exact E|]. split; [exact R|].
      etransitivity; [exact Q|]. apply fexp_e. intros j Hj. destruct j; [symmetry; exact H0|]. rewrite image_item by assumption. reflexivity. }
    exists y'. split; [exact E|]. split; [exact V|]. split; [exact L|]. rewrite K, N. split; [lia|]. split; [lia|]. split; [|reflexivity].
    transitivity q; [exact D|]. apply eqn_mono with (n := 5%nat); [lia|exact Q].
Qed.
End Bases.
