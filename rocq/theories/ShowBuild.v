(** Expressions built by the operators of exp.cc, and those a Block writes out, are of the kind
    covered by ShowProofs.v. *)
From Coq Require Import String ZArith List Bool Lia.
From Verif Require Import Base Field ExpModel ExpProofs ShowModel CppSpec BlockProofs ShowProofs.
Import ListNotations.
Open Scope Z_scope.

(** What a construction step must satisfy: no arithmetic on two literals, no division or member
    of a literal, calls as in [show_ok].  A sum is a tree of additions and is not listed. *)
Definition step_tame {G} (c : cmd G) (regs : list (exp G)) : Prop :=
  let r i := nth i regs (mkint 0) in
  match c with
  | CVar _ _ | CInt _ | CNeg _ => True
  | CAdd i j | CSub i j | CMul i j => ~ (lit G (r i) /\ lit G (r j))
  | CDiv i _ | CField i _ => ~ lit G (r i)
  | CSum _ _ => False
  | CCall f l _ => l <> [] /\ ~ In f ["sqr"; "twice"; "half"; "ldexp"]%string
  | COther _ p _ => p <= 100 /\ p <> 3
  end.
Fixpoint hist_tame {G} (cs : list (cmd G)) (regs : list (exp G)) (st : cst G) : Prop :=
  match cs with
  | [] => True
  | c :: t => step_tame c regs /\ match step_exp c regs st with Ok (e, st) => hist_tame t (regs ++ [e]) st | _ => True end
  end.

Section B.
Variable G : SigOps.
Notation lit := (lit G).
Notation show_ok := (show_ok G).
Definition tame (st : cst G) : Prop := forall s e, In (s, e) (tbl G st) -> show_ok e.
Definition keeps (m : M G (exp G)) : Prop := forall st r st', tame st -> m st = Ok (r, st') -> show_ok r /\ tame st'.
Lemma show_ok_intro : forall o l s, node_ok G o l -> Forall show_ok l -> show_ok (E o l s).
Proof. intros o l s H1 H2. split; [exact H1|]. clear H1. induction H2 as [|x t Hx Ht IH]; [exact Logic.I|split; assumption]. Qed.
Lemma keeps_ret : forall e, show_ok e -> keeps (ret G e).
Proof. intros e H st r st' T E. injection E as <- <-. auto. Qed.
Lemma keeps_bind : forall m k, keeps m -> (forall r, show_ok r -> keeps (k r)) -> keeps (mbind G m k).
Proof.
  intros m k Hm Hk st r st' T H. unfold mbind in H. destruct (m st) as [[a st1]| |] eqn:E1; try discriminate. cbn [bind] in H.
  destruct (Hm _ _ _ T E1) as [S1 T1]. exact (Hk a S1 _ _ _ T1 H).
Qed.
Lemma keeps_lift : forall A (x : res A) (k : A -> M G (exp G)), (forall a, x = Ok a -> keeps (k a)) -> keeps (mbind G (lift G x) k).
Proof.
  intros A x k Hk st r st' T H. unfold mbind, lift in H. destruct x as [a| |]; try discriminate. cbn [bind] in H. exact (Hk a eq_refl _ _ _ T H).
Qed.
Lemma int_ok : forall n, show_ok (mkint n).
Proof. intros n. split; exact Logic.I. Qed.
Lemma keeps_cse : forall o l s, node_ok G o l -> Forall show_ok l -> keeps (cse G o l s).
Proof.
  intros o l s H1 H2 st r st' T H. unfold cse, cse_exp in H. set (s' := if exact G st then s else _) in H.
  assert (W : show_ok (E o l s')) by (apply show_ok_intro; assumption). clearbody s'. cbn [op_of sig_of tbl] in H.
  destruct (fast_op o); [injection H as <- <-; auto|]. destruct (sg_unsmall G s'); [injection H as <- <-; split; [apply int_ok|exact T]|].
  destruct (lookup G (tbl G st) s') as [e'|] eqn:L; injection H as <- <-.
  - split; [|exact T]. apply (T s'). apply (lookup_in G). exact L.
  - split; [exact W|]. intros k e [Hk|Hk]; [injection Hk as <- <-; exact W|exact (T k e Hk)].
Qed.
Lemma unneg_show : forall e x, show_ok e -> unneg G e = Ok (Some x) -> show_ok x /\ (lit x -> lit e).
Proof.
  intros [o l s] x W H. apply show_ok_args in W. destruct W as [Wn Wl]. destruct o; try discriminate; cbn in H.
  - destruct (n <? 0); [|discriminate]. destruct (int_neg n); try discriminate. injection H as <-. split; [apply int_ok|]. intros _. exists n. reflexivity.
  - destruct l as [|y [|]]; try discriminate. injection H as <-. split; [inversion Wl; assumption|]. intros L. destruct Wn as [N _]. contradiction.
Qed.
Lemma unneg_none : forall e, show_ok e -> unneg G e = Ok None -> op_of e <> ONeg.
Proof.
  intros [o l s] W H Q. cbn in Q. subst o. destruct W as [Wn _]. cbn in H, Wn. destruct l as [|x [|]]; try contradiction. discriminate.
Qed.
Lemma neg_keeps : forall e, show_ok e -> keeps (exp_neg G e).
Proof.
  intros e W. unfold exp_neg. destruct (unint G e) as [n|] eqn:U.
  - apply keeps_lift. intros m _. apply keeps_ret, int_ok.
  - apply keeps_lift. intros [x|] Hu.
    + apply keeps_ret. apply (unneg_show e x W Hu).
    + apply keeps_cse; [|constructor; [exact W|constructor]]. split; [|apply unneg_none; assumption]. intros [n Q]. unfold unint in U. rewrite Q in U. discriminate.
Qed.
Lemma addsub_keeps : forall fuel sub x y, show_ok x -> show_ok y -> ~ (lit x /\ lit y) -> keeps (addsub G fuel sub x y).
Proof.
  induction fuel as [|f IH]; intros sub x y Wx Wy N; cbn [addsub]; [intros st r st' _ H; discriminate|].
  destruct (is_int G 0 x); [destruct sub; [apply neg_keeps; exact Wy|apply keeps_ret; exact Wy]|]. destruct (is_int G 0 y); [apply keeps_ret; exact Wx|].
  apply keeps_lift. intros [nx|] Hx.
  - destruct (unneg_show _ _ Wx Hx) as [Wn Ln]. destruct sub.
    + apply keeps_bind; [apply IH; [exact Wn|exact Wy|tauto]|apply neg_keeps].
    + apply IH; [exact Wy|exact Wn|tauto].
  - apply keeps_lift. intros [ny|] Hy.
    + destruct (unneg_show _ _ Wy Hy) as [Wn Ln]. apply IH; [exact Wx|exact Wn|tauto].
    + destruct sub; apply keeps_cse; auto.
Qed.
Lemma mul_keeps : forall fuel x y, show_ok x -> show_ok y -> ~ (lit x /\ lit y) -> keeps (mul_fuel G fuel x y).
Proof.
  induction fuel as [|f IH]; intros x y Wx Wy N; cbn [mul_fuel]; [intros st r st' _ H; discriminate|].
  destruct (is_int G 0 x || is_int G 0 y); [apply keeps_ret, int_ok|]. apply keeps_lift. intros [nx|] Hx.
  - destruct (unneg_show _ _ Wx Hx) as [Wn Ln]. apply keeps_bind; [apply IH; [exact Wn|exact Wy|tauto]|apply neg_keeps].
  - apply keeps_lift. intros [ny|] Hy.
    + destruct (unneg_show _ _ Wy Hy) as [Wn Ln]. apply keeps_bind; [apply IH; [exact Wx|exact Wn|tauto]|apply neg_keeps].
    + destruct (is_int G 1 x); [apply keeps_ret; exact Wy|]. destruct (is_int G 1 y); [apply keeps_ret; exact Wx|]. apply keeps_cse; auto.
Qed.
Lemma div_keeps : forall fuel x a, show_ok x -> ~ lit x -> keeps (div_fuel G fuel x a).
Proof.
  induction fuel as [|f IH]; intros x a Wx N; cbn [div_fuel]; [intros st r st' _ H; discriminate|].
  destruct (Z.eqb_spec a 0); [intros st r st' _ H; discriminate|]. destruct (Z.eqb_spec a 1); [apply keeps_ret; exact Wx|]. destruct (Z.eqb_spec a (-1)); [apply neg_keeps; exact Wx|].
  destruct (Z.ltb_spec a 0).
  - apply keeps_lift. intros b _. apply keeps_bind; [apply IH; assumption|apply neg_keeps].
  - apply keeps_lift. intros [nx|] Hx.
    + destruct (unneg_show _ _ Wx Hx) as [Wn Ln]. apply keeps_bind; [apply IH; [exact Wn|tauto]|apply neg_keeps].
    + apply keeps_lift. intros i _. apply keeps_cse; [split; [lia|exact N]|constructor; [exact Wx|constructor]].
Qed.
Lemma step_keeps : forall c regs, Forall show_ok regs -> step_tame c regs -> keeps (step_exp c regs).
Proof.
  intros c regs Hr Hc. assert (W : forall i, show_ok (nth i regs (mkint 0))).
  { intros i. destruct (Nat.lt_ge_cases i (length regs)) as [L|L]; [rewrite Forall_forall in Hr; apply Hr, nth_In, L|rewrite nth_overflow by exact L; apply int_ok]. }
  destruct c as [v s|n|i|i j|i j|i j|i a|lr l|f l s|t p s|i f]; cbn [step_exp step_tame] in *.
  - apply keeps_ret. split; exact Logic.I.
  - apply keeps_ret, int_ok.
  - apply neg_keeps, W.
  - apply addsub_keeps; auto.
  - apply addsub_keeps; auto.
  - apply mul_keeps; auto.
  - apply div_keeps; auto.
  - contradiction.
  - destruct Hc as [Hc1 Hc2]. apply keeps_cse.
    + split; [|exact Hc2]. destruct l; [congruence|discriminate].
    + rewrite Forall_forall. intros x Hx. apply in_map_iff in Hx. destruct Hx as (i & <- & _). apply W.
  - apply keeps_cse; [exact Hc|constructor].
  - apply keeps_cse; [exact Hc|constructor; [apply W|constructor]].
Qed.
Lemma hist_keeps : forall cs regs st regs' st', Forall show_ok regs -> tame st -> hist_tame cs regs st -> hist cs regs st = Ok (regs', st') -> Forall show_ok regs' /\ tame st'.
Proof.
  induction cs as [|c cs IH]; intros regs st regs' st' Hr T H E; cbn [hist] in E.
  - injection E as <- <-. auto.
  - destruct H as [H1 H2]. unfold mbind in E. destruct (step_exp c regs st) as [[e st1]| |] eqn:E1; try discriminate. cbn [bind] in E.
    destruct (step_keeps c regs Hr H1 _ _ _ T E1) as [S1 T1]. apply (IH (regs ++ [e]) st1); auto. apply Forall_app. auto.
Qed.
Lemma tame0 : forall ex, tame (cse0 G ex).
Proof. intros ex s e []. Qed.

(** ** Block *)
Variable F : Fld.
Variable S : list (exp G).
Variable J : interp F.
Hypothesis HF : faithful F G S J.
Notation sqr_ok := (sqr_ok F G J).
Definition lets_var (b : bst G) : Prop := forall s v, In (s, v) (lets G b) -> exists n, v = mkvar n s.
Definition lines_good (b : bst G) : Prop := forall v e, In (v, e) (lines G b) -> show_ok e /\ sqr_ok e.
Lemma sqr_var : forall n s, sqr_ok (mkvar n s).
Proof. intros n s x y t [H|[]]. discriminate. Qed.
Lemma sqr_faithful : forall e, incl (subs e) S -> sqr_ok e.
Proof.
  intros e H x y s Hin Q. apply HF; [| |exact Q]; apply H.
  - apply (subs_closed G e (E OMul [x; y] s)); [exact Hin|left; reflexivity].
  - apply (subs_closed G e (E OMul [x; y] s)); [exact Hin|right; left; reflexivity].
Qed.
(** What rebuilding an argument list keeps. *)
Definition same_kind (e y : exp G) : Prop := sig_of y = sig_of e /\ eval J y = eval J e /\ show_ok y /\ sqr_ok y /\ (op_of y = op_of e \/ exists n, op_of y = OVar n).
Lemma kind_lit : forall e y, same_kind e y -> lit y -> lit e.
Proof. intros e y (_ & _ & _ & _ & [Q|[n Q]]) [m L]; [exists m; congruence|congruence]. Qed.
Lemma kind_neg : forall e y, same_kind e y -> op_of e <> ONeg -> op_of y <> ONeg.
Proof. intros e y (_ & _ & _ & _ & [Q|[n Q]]); congruence. Qed.
Lemma node_kind : forall o l ys, node_ok G o l -> Forall2 same_kind l ys -> node_ok G o ys.
Proof.
  intros o l ys H K. destruct o; cbn in H |- *.
  - destruct l; [|contradiction]. inversion K; subst. exact Logic.I.
  - destruct l; [|contradiction]. inversion K; subst. exact Logic.I.
  - destruct l as [|x [|]]; try contradiction. inversion K as [|? y ? t Kx Kt]; subst. inversion Kt; subst. intros L. apply H, (kind_lit _ _ Kx L).
  - destruct l as [|x [|]]; try contradiction. inversion K as [|? y ? t Kx Kt]; subst. inversion Kt; subst. destruct H as [H1 H2]. split; [intros L; apply H1, (kind_lit _ _ Kx L)|apply (kind_neg _ _ Kx H2)].
  - destruct l as [|x [|y [|]]]; try contradiction. inversion K as [|? x' ? t Kx Kt]; subst. inversion Kt as [|? y' ? t' Ky Kt']; subst. inversion Kt'; subst. intros [L1 L2]. apply H. split; [apply (kind_lit _ _ Kx L1)|apply (kind_lit _ _ Ky L2)].
  - destruct l as [|x [|y [|]]]; try contradiction. inversion K as [|? x' ? t Kx Kt]; subst. inversion Kt as [|? y' ? t' Ky Kt']; subst. inversion Kt'; subst. intros [L1 L2]. apply H. split; [apply (kind_lit _ _ Kx L1)|apply (kind_lit _ _ Ky L2)].
  - destruct l as [|x [|y [|]]]; try contradiction. inversion K as [|? x' ? t Kx Kt]; subst. inversion Kt as [|? y' ? t' Ky Kt']; subst. inversion Kt'; subst. intros [L1 L2]. apply H. split; [apply (kind_lit _ _ Kx L1)|apply (kind_lit _ _ Ky L2)].
  - destruct l as [|x [|]]; try contradiction. inversion K as [|? y ? t Kx Kt]; subst. inversion Kt; subst. destruct H as [H1 H2]. split; [exact H1|]. intros L; apply H2, (kind_lit _ _ Kx L).
  - destruct H as [H1 H2]. split; [|exact H2]. intros Q. subst ys. inversion K; subst. congruence.
  - destruct l; [|contradiction]. inversion K; subst. exact H.
Qed.
Lemma compute_text : forall e b y b', compute G e b = Ok (y, b') -> incl (subs e) S -> show_ok e -> lets_var b -> sat F G J b' -> lets_ok F G S J b ->
  lets_var b' /\ lets_ok F G S J b' /\ same_kind e y /\ (lines_good b -> lines_good b').
Proof.
  intros e. induction e as [o l s IH] using exp_ind'. intros b y b' H Hs W HV HS HL.
  pose proof (compute_value F G S J HF (E o l s) b y b' H Hs) as [_ V]. destruct (V HS HL) as [Vy HL']. clear V.
  rewrite compute_eq in H. destruct (lookup G (lets G b) s) as [v|] eqn:L.
  { injection H as <- <-. split; [exact HV|]. split; [exact HL|]. split; [|auto]. apply lookup_in in L. destruct (HV _ _ L) as [n ->].
    split; [reflexivity|]. split; [exact Vy|]. split; [split; exact Logic.I|]. split; [apply sqr_var|right; exists n; reflexivity]. }
  destruct (lookup G (counts G b) s) as [c|]; [|discriminate]. apply show_ok_args in W. destruct W as [Wn Wl].
  assert (C : forall l b ys b1, Forall (fun e => forall b y b', compute G e b = Ok (y, b') -> incl (subs e) S -> show_ok e -> lets_var b -> sat F G J b' -> lets_ok F G S J b ->
      lets_var b' /\ lets_ok F G S J b' /\ same_kind e y /\ (lines_good b -> lines_good b')) l -> Forall show_ok l -> incl (flat_map subs l) S -> clist G l b = Ok (ys, b1) ->
      prefix G b b1 /\ (lets_var b -> sat F G J b1 -> lets_ok F G S J b -> lets_var b1 /\ lets_ok F G S J b1 /\ Forall2 same_kind l ys /\ (lines_good b -> lines_good b1))).
  { clear. induction l as [|x t IHt]; intros b ys b1 HFo Wl Hi H; cbn [clist] in H.
    - injection H as <- <-. split; [apply prefix_refl|]. auto.
    - inversion HFo as [|? ? Hx Ht]; subst. inversion Wl as [|? ? Wx Wt]; subst. cbn [flat_map] in Hi. destruct (compute G x b) as [[y b2]| |] eqn:E1; try discriminate. cbn [bind] in H.
      destruct (clist G t b2) as [[ys2 b3]| |] eqn:E2; try discriminate. injection H as <- <-.
      destruct (IHt _ _ _ Ht Wt (fun z Hz => Hi z (in_or_app _ _ _ (or_intror Hz))) E2) as [P2 V2]. pose proof (compute_prefix G _ _ _ _ E1) as P1.
      split; [eapply prefix_trans; eassumption|]. intros HV HS HL.
      destruct (Hx _ _ _ E1 (fun z Hz => Hi z (in_or_app _ _ _ (or_introl Hz))) Wx HV (sat_prefix _ _ _ _ _ P2 HS) HL) as (A1 & A2 & A3 & A4).
      destruct (V2 A1 HS A2) as (B1 & B2 & B3 & B4). split; [exact B1|]. split; [exact B2|]. split; [constructor; assumption|auto]. }
  destruct (clist G l b) as [[ys b1]| |] eqn:Ec; try discriminate. cbn [bind] in H.
  destruct (C l b ys b1 IH Wl (fun z Hz => Hs z (or_intror Hz)) Ec) as [P1 V1]. clear C.
  (* the rebuilt node *)
  assert (Good : Forall2 same_kind l ys -> show_ok (E o ys s) /\ sqr_ok (E o ys s)).
  { intros K. split.
    - apply show_ok_intro; [apply (node_kind o l ys Wn K)|]. clear - K. induction K as [|x y l ys (_ & _ & Q & _) K IH]; constructor; assumption.
    - intros x x' t [Hx|Hx] Q.
      + injection Hx as -> -> _. inversion K as [|x0 ? l0 ? (K1 & K2 & _) Kt]; subst. inversion Kt as [|y0 ? l1 ? (K3 & K4 & _) Kt']; subst. inversion Kt'; subst.
        rewrite K2, K4. apply (sqr_faithful (E OMul [x0; y0] s) Hs x0 y0 s); [left; reflexivity|congruence].
      + clear - K Hx Q. induction K as [|u w l ys (_ & _ & _ & Sq & _) K IH]; [destruct Hx|]. cbn [flat_map] in Hx. apply in_app_or in Hx. destruct Hx as [Hx|Hx]; [apply (Sq x x' t Hx Q)|apply IH; exact Hx]. }
  destruct (fast_op o || (c =? 1)%nat).
  { injection H as <- <-. destruct (V1 HV HS HL) as (A1 & A2 & A3 & A4). destruct (Good A3) as [G1 G2].
    split; [exact A1|]. split; [exact A2|]. split; [|exact A4]. split; [reflexivity|]. split; [exact Vy|]. split; [exact G1|]. split; [exact G2|left; reflexivity]. }
  destruct (now_ok G "t" (E o ys s) b1) as (v & _ & En). rewrite En in H. cbn [bind] in H. injection H as <- <-. cbn [lines] in *.
  assert (HS1 : sat F G J b1) by (intros w e Hin; apply HS; cbn; apply in_or_app; left; exact Hin).
  destruct (V1 HV HS1 HL) as (A1 & A2 & A3 & A4). destruct (Good A3) as [G1 G2].
  split; [intros k w [Hk|Hk]; [injection Hk as <- <-; exists v; reflexivity|exact (A1 k w Hk)]|]. split; [exact HL'|].
  split.
  - split; [reflexivity|]. split; [exact Vy|]. split; [split; exact Logic.I|]. split; [apply sqr_var|right; exists v; reflexivity].
  - intros Hg w e Hin. cbn [lines] in Hin. apply in_app_or in Hin. destruct Hin as [Hin|[Hin|[]]]; [exact (A4 Hg w e Hin)|]. injection Hin as <- <-. auto.
Qed.
(** Whole runs: everything written out, and every result, prints well. *)
Definition told (cs : list (bcmd G)) : list (exp G) := flat_map (fun c => match c with BNow _ e | BCompute e => [e] | _ => [] end) cs.
Lemma brun_prefix : forall cs b rs b', brun cs b = Ok (rs, b') -> prefix G b b'.
Proof.
  induction cs as [|d cs IHc]; intros b1 rs1 b2 E2; cbn [brun] in E2; [injection E2 as <- <-; apply prefix_refl|].
  destruct (bstep d b1) as [[r b3]| |] eqn:E3; try discriminate. cbn [bind] in E2. destruct (brun cs b3) as [[rs2 b4]| |] eqn:E4; try discriminate. cbn [bind] in E2. injection E2 as <- <-.
  assert (P3 : prefix G b1 b3).
  { destruct d as [n dr|p e|e|e]; cbn [bstep] in E3.
    - unfold input in E3. destruct (negb _); cbn in E3; [|discriminate]. injection E3 as <- <-. exists []. cbn. rewrite app_nil_r. reflexivity.
    - destruct (now G p e b1) as [[v b5]| |] eqn:En; try discriminate. cbn in E3. injection E3 as <- <-. apply (now_prefix G _ _ _ _ _ En).
    - injection E3 as <- <-. exists []. destruct (use_same G e b1) as (_ & _ & ->). rewrite app_nil_r. reflexivity.
    - destruct (compute G e b1) as [[v b5]| |] eqn:En; try discriminate. cbn in E3. injection E3 as <- <-. apply (compute_prefix G _ _ _ _ En). }
  eapply prefix_trans; [exact P3|]. eapply IHc. exact E4.
Qed.
Lemma run_text : forall cs b rs b', brun cs b = Ok (rs, b') -> (forall e, In e (told cs) -> incl (subs e) S /\ show_ok e) ->
  lets_var b -> sat F G J b' -> lets_ok F G S J b -> lines_good b ->
  lines_good b' /\ forall e y, In (e, y) rs -> show_ok y /\ sqr_ok y.
Proof.
  induction cs as [|c cs IH]; intros b rs b' H Ht HV HS HL HG; cbn [brun] in H.
  - injection H as <- <-. split; [exact HG|]. intros e y [].
  - destruct (bstep c b) as [[r b1]| |] eqn:E1; try discriminate. cbn [bind] in H. destruct (brun cs b1) as [[rs1 b2]| |] eqn:E2; try discriminate. cbn [bind] in H. injection H as <- <-.
    assert (Ha : forall e, In e (asked cs) -> incl (subs e) S).
    { intros e He. apply Ht. unfold told, asked in *. cbn [flat_map]. apply in_or_app. right. apply in_flat_map in He. destruct He as (d & Hd & He). apply in_flat_map. exists d. split; [exact Hd|]. destruct d; try contradiction. exact He. }
    assert (P2 : prefix G b1 b2).
    { exact (brun_prefix cs b1 rs1 b2 E2). }
    assert (HS1 : sat F G J b1) by (apply (sat_prefix F G J b1 b2 P2 HS)).
    assert (St : lets_var b1 /\ lets_ok F G S J b1 /\ lines_good b1 /\ forall e y, In (e, y) r -> show_ok y /\ sqr_ok y).
    { destruct c as [n dr|p e|e|e]; cbn [bstep] in E1.
      - unfold input in E1. destruct (negb _); cbn in E1; [|discriminate]. injection E1 as <- <-. split; [exact HV|]. split; [exact HL|]. split; [exact HG|]. intros e y [].
      - destruct (now_ok G p e b) as (v & _ & En). rewrite En in E1. cbn [bind] in E1. injection E1 as <- <-. split; [exact HV|]. split; [exact HL|]. split.
        + intros w e' Hin. cbn [lines] in Hin. apply in_app_or in Hin. destruct Hin as [Hin|[Hin|[]]]; [exact (HG w e' Hin)|]. injection Hin as <- <-. destruct (Ht e (or_introl eq_refl)) as [T1 T2]. split; [exact T2|apply sqr_faithful, T1].
        + intros e' y [Q|[]]. injection Q as <- <-. split; [split; exact Logic.I|apply sqr_var].
      - injection E1 as <- <-. destruct (use_same G e b) as (U1 & U2 & U3). unfold lets_var, lets_ok, lines_good. rewrite U2, U3. split; [exact HV|]. split; [exact HL|]. split; [exact HG|]. intros e' y [].
      - destruct (compute G e b) as [[y b3]| |] eqn:Ec; try discriminate. cbn [bind] in E1. injection E1 as <- <-. destruct (Ht e (or_introl eq_refl)) as [T1 T2].
        destruct (compute_text e b y b3 Ec T1 T2 HV HS1 HL) as (A1 & A2 & (_ & _ & A3 & A4 & _) & A5). split; [exact A1|]. split; [exact A2|]. split; [apply A5; exact HG|].
        intros e' y' [Q|[]]. injection Q as <- <-. auto. }
    destruct St as (S1 & S2 & S3 & S4). destruct (IH b1 rs1 b2 E2) as [R1 R2]; auto.
    + intros e He. apply Ht. unfold told in *. cbn [flat_map]. apply in_or_app. right. exact He.
    + split; [exact R1|]. intros e y Hin. apply in_app_or in Hin. destruct Hin as [Hin|Hin]; [apply (S4 e y Hin)|apply (R2 e y Hin)].
Qed.
End B.
