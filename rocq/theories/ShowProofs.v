(** The printed text of an expression reads back, by C++ rules, as an expression of the same value. *)
From Coq Require Import String ZArith List Bool Lia Field.
From Verif Require Import Base Field FPS ExpModel ShowModel CppSpec BlockProofs.
Import ListNotations.
Open Scope Z_scope.

(** ** Parser: more fuel never hurts *)
Lemma parse_mono : forall n k ts r, parse n k ts = Some r -> parse (S n) k ts = Some r.
Proof.
  induction n as [|n IH]; intros k ts r H; [discriminate|].
  assert (IH1 : forall k ts r, parse n k ts = Some r -> parse (S n) k ts = Some r) by exact IH. clear IH.
  assert (B : forall k ts (f : past -> kind) r, match parse n k ts with Some ([a], r') => parse n (f a) r' | _ => None end = Some r ->
      match parse (S n) k ts with Some ([a], r') => parse (S n) (f a) r' | _ => None end = Some r).
  { intros k' ts' f r' H'. destruct (parse n k' ts') as [[[|a [|]] r1]|] eqn:E1; try discriminate. rewrite (IH1 _ _ _ E1). apply IH1. exact H'. }
  remember (S n) as m eqn:Em. cbn [parse]. rewrite Em in H. cbn [parse] in H.
  destruct k; destruct ts as [|[s|z|s q| | | | | | | | | ] ts]; subst m; auto;
    repeat match goal with
    | H : (if ?b then _ else _) = _ |- _ => destruct b; auto
    end; auto.
  all: try (apply (B _ _ (fun b => KAddL (PBin BAdd a b))); exact H).
  all: try (apply (B _ _ (fun b => KAddL (PBin BSub a b))); exact H).
  all: try (apply (B _ _ (fun b => KMulL (PBin BMul a b))); exact H).
  all: try (apply (B _ _ (fun b => KMulL (PBin BDiv a b))); exact H).
  all: try (apply (B _ _ KAddL); exact H).
  all: try (apply (B _ _ KMulL); exact H).
  all: try (match goal with |- match parse _ KExpr ?l with Some _ => _ | None => _ end = _ => destruct (parse n KExpr l) as [[[|a [|]] [|[| | | | | | | | | | | ] r1]]|] eqn:E1; try discriminate; rewrite (IH1 _ _ _ E1); auto;
     destruct (parse n KArgs r1) as [[l' r2]|] eqn:E2; try discriminate; rewrite (IH1 _ _ _ E2); exact H end).
  - destruct (parse n KUn ts) as [[[|a [|]] r1]|] eqn:E1; try discriminate. rewrite (IH1 _ _ _ E1). exact H.
  - destruct ts as [|[| | | | | | | | | | | ] ts]; auto. destruct (parse n KArgs ts) as [[l r1]|] eqn:E1; try discriminate. rewrite (IH1 _ _ _ E1). apply IH1. exact H.
  - destruct ts as [|[| | | | | | | | | | | ] ts]; auto.
Qed.
Lemma parse_le : forall m n k ts r, (n <= m)%nat -> parse n k ts = Some r -> parse m k ts = Some r.
Proof. intros m n k ts r H. induction H; auto. intros E. apply parse_mono. auto. Qed.
Definition P (k : kind) (ts : list tok) (r : list past * list tok) : Prop := exists n, parse n k ts = Some r.

(** ** Productions *)
Definition head_ok (bad : tok -> bool) (l : list tok) : Prop := match l with [] => True | t :: _ => bad t = false end.
Definition is_lp t := match t with TLP => true | _ => false end.
Definition is_post t := match t with TLP | TDot => true | _ => false end.
Definition is_mul t := match t with TLP | TDot | TStar | TSlash => true | _ => false end.
Definition is_op t := match t with TLP | TDot | TStar | TSlash | TPlus | TMinus => true | _ => false end.

Ltac fuel2 n1 n2 H1 H2 := apply (parse_le (n1 + n2) n1) in H1; [|lia]; apply (parse_le (n1 + n2) n2) in H2; [|lia].
Lemma P_postl : forall a rest, head_ok is_post rest -> P (KPostL a) rest ([a], rest).
Proof. intros a rest H. exists 1%nat. destruct rest as [|[] rest]; cbn in *; congruence. Qed.
Lemma P_mull : forall a rest, head_ok is_mul rest -> P (KMulL a) rest ([a], rest).
Proof. intros a rest H. exists 1%nat. destruct rest as [|[] rest]; cbn in *; congruence. Qed.
Lemma P_addl : forall a rest, head_ok is_op rest -> P (KAddL a) rest ([a], rest).
Proof. intros a rest H. exists 1%nat. destruct rest as [|[] rest]; cbn in *; congruence. Qed.
Lemma P_un : forall ts r, P KPost ts r -> P KUn ts r.
Proof.
  intros ts r [n H]. exists (S n). destruct n as [|n]; [discriminate|]. remember (S n) as m. cbn [parse]. destruct ts as [|[s|z|s q| | | | | | | | | ] ts]; auto; subst m.
  - destruct (Z.eqb_spec q 3); auto. cbn in H. destruct (Z.leb_spec q 2); [lia|discriminate].
  - cbn in H. discriminate.
Qed.
Lemma P_mem : forall ts r, P KUn ts r -> P KMem ts r.
Proof.
  intros ts r [n H]. exists (S n). destruct n as [|n]; [discriminate|]. remember (S n) as m. cbn [parse]. destruct ts as [|[s|z|s q| | | | | | | | | ] ts]; auto; subst m.
  destruct (Z.eqb_spec q 4); auto. subst q. destruct n; cbn in H; discriminate.
Qed.
Lemma P_mul : forall ts a r res, P KMem ts ([a], r) -> P (KMulL a) r res -> P KMul ts res.
Proof.
  intros ts a r res [n1 H1] [n2 H2]. fuel2 n1 n2 H1 H2. remember (n1 + n2)%nat as n. clear Heqn. exists (S n). cbn [parse]. rewrite H1.
  destruct ts as [|[s|z|s q| | | | | | | | | ] ts]; auto. destruct (Z.eqb_spec q 5); auto. subst q. exfalso. destruct n as [|[|[|]]]; cbn in H1; discriminate.
Qed.
Lemma P_add : forall ts a r res, P KMul ts ([a], r) -> P (KAddL a) r res -> P KAdd ts res.
Proof.
  intros ts a r res [n1 H1] [n2 H2]. fuel2 n1 n2 H1 H2. remember (n1 + n2)%nat as n. clear Heqn. exists (S n). cbn [parse]. rewrite H1.
  destruct ts as [|[s|z|s q| | | | | | | | | ] ts]; auto. destruct (Z.eqb_spec q 6); auto. subst q. exfalso. destruct n as [|[|[|[|]]]]; cbn in H1; discriminate.
Qed.
Lemma P_expr : forall ts r, P KAdd ts r -> P KExpr ts r.
Proof.
  intros ts r [n H]. exists (S n). cbn [parse]. destruct ts as [|[s|z|s q| | | | | | | | | ] ts]; auto.
  destruct (Z.ltb_spec 6 q) as [Q|Q]; cbn [andb]; auto. exfalso. destruct n as [|[|[|[|[|]]]]]; cbn in H; try discriminate;
    repeat match goal with H : context [?a =? ?b] |- _ => destruct (Z.eqb_spec a b); try lia end; try discriminate;
    repeat match goal with H : context [?a <=? ?b] |- _ => destruct (Z.leb_spec a b); try lia end; discriminate.
Qed.
Lemma P_paren : forall ts a rest res, P KExpr (ts ++ TRP :: rest) ([a], TRP :: rest) -> P (KPostL a) rest res -> P KPost (TLP :: ts ++ TRP :: rest) res.
Proof. intros ts a rest res [n1 H1] [n2 H2]. fuel2 n1 n2 H1 H2. exists (S (n1 + n2)). cbn [parse]. rewrite H1. exact H2. Qed.
Lemma P_neg : forall ts a rest, P KUn ts ([a], rest) -> P KUn (TMinus :: ts) ([PNeg a], rest).
Proof. intros ts a rest [n H]. exists (S n). cbn [parse]. rewrite H. reflexivity. Qed.
Lemma P_call : forall f ts l rest res, P KArgs ts (l, rest) -> P (KPostL (PCall f l)) rest res -> P KPost (TId f :: TLP :: ts) res.
Proof. intros f ts l rest res [n1 H1] [n2 H2]. fuel2 n1 n2 H1 H2. exists (S (n1 + n2)). cbn [parse]. rewrite H1. exact H2. Qed.
Lemma P_args1 : forall ts a rest, P KExpr ts ([a], TRP :: rest) -> P KArgs ts ([a], rest).
Proof. intros ts a rest [n H]. exists (S n). cbn [parse]. rewrite H. reflexivity. Qed.
Lemma P_args2 : forall ts a r l rest, P KExpr ts ([a], TComma :: r) -> P KArgs r (l, rest) -> P KArgs ts (a :: l, rest).
Proof. intros ts a r l rest [n1 H1] [n2 H2]. fuel2 n1 n2 H1 H2. exists (S (n1 + n2)). cbn [parse]. rewrite H1, H2. reflexivity. Qed.
Lemma P_dot : forall f a rest res, P (KPostL (PField f a)) rest res -> P (KPostL a) (TDot :: TId f :: rest) res.
Proof. intros f a rest res [n H]. exists (S n). exact H. Qed.
Lemma P_star : forall (d : bool) a ts b r res, P KMem ts ([b], r) -> P (KMulL (PBin (if d then BDiv else BMul) a b)) r res ->
  P (KMulL a) ((if d then TSlash else TStar) :: ts) res.
Proof. intros d a ts b r res [n1 H1] [n2 H2]. fuel2 n1 n2 H1 H2. exists (S (n1 + n2)). destruct d; cbn [parse]; rewrite H1; exact H2. Qed.
Lemma P_plus : forall (d : bool) a ts b r res, P KMul ts ([b], r) -> P (KAddL (PBin (if d then BSub else BAdd) a b)) r res ->
  P (KAddL a) ((if d then TMinus else TPlus) :: ts) res.
Proof. intros d a ts b r res [n1 H1] [n2 H2]. fuel2 n1 n2 H1 H2. exists (S (n1 + n2)). destruct d; cbn [parse]; rewrite H1; exact H2. Qed.

(** ** What a text must satisfy to stand where precedence [lvl] is allowed *)
Definition at2 (a : past) (ts : list tok) := forall rest res, head_ok is_lp rest -> P (KPostL a) rest res -> P KPost (ts ++ rest) res.
Definition at3 (a : past) (ts : list tok) := forall rest, head_ok is_post rest -> P KUn (ts ++ rest) ([a], rest).
Definition at4 (a : past) (ts : list tok) := forall rest, head_ok is_post rest -> P KMem (ts ++ rest) ([a], rest).
Definition at5 (a : past) (ts : list tok) := forall rest res, head_ok is_post rest -> P (KMulL a) rest res -> P KMul (ts ++ rest) res.
Definition at6 (a : past) (ts : list tok) := forall rest res, head_ok is_mul rest -> P (KAddL a) rest res -> P KAdd (ts ++ rest) res.
Definition at100 (a : past) (ts : list tok) := forall rest, head_ok is_op rest -> P KExpr (ts ++ rest) ([a], rest).
Lemma post_lp : forall l, head_ok is_post l -> head_ok is_lp l. Proof. intros [|[] l]; cbn; congruence. Qed.
Lemma mul_post : forall l, head_ok is_mul l -> head_ok is_post l. Proof. intros [|[] l]; cbn; congruence. Qed.
Lemma op_mul : forall l, head_ok is_op l -> head_ok is_mul l. Proof. intros [|[] l]; cbn; congruence. Qed.
Lemma at23 : forall a ts, at2 a ts -> at3 a ts.
Proof. intros a ts H rest Hr. apply P_un. apply H; [apply post_lp; exact Hr|apply P_postl; exact Hr]. Qed.
Lemma at34 : forall a ts, at3 a ts -> at4 a ts.
Proof. intros a ts H rest Hr. apply P_mem. apply H. exact Hr. Qed.
Lemma at45 : forall a ts, at4 a ts -> at5 a ts.
Proof. intros a ts H rest res Hr HP. eapply P_mul; [apply H; exact Hr|exact HP]. Qed.
Lemma at56 : forall a ts, at5 a ts -> at6 a ts.
Proof. intros a ts H rest res Hr HP. eapply P_add; [apply H; [apply mul_post; exact Hr|apply P_mull; exact Hr]|exact HP]. Qed.
Lemma at6_100 : forall a ts, at6 a ts -> at100 a ts.
Proof. intros a ts H rest Hr. apply P_expr. apply H; [apply op_mul; exact Hr|apply P_addl; exact Hr]. Qed.
Lemma paren_at2 : forall a ts, at100 a ts -> at2 a (TLP :: ts ++ [TRP]).
Proof.
  intros a ts H rest res _ HP. cbn [app]. rewrite <- app_assoc. cbn [app]. eapply P_paren; [apply H; reflexivity|exact HP].
Qed.
(** Allowed at the level of its precedence and everywhere above. *)
Definition atl (p : Z) (a : past) (ts : list tok) : Prop :=
  (p <= 2 -> at2 a ts) /\ (p <= 3 -> at3 a ts) /\ (p <= 4 -> at4 a ts) /\ (p <= 5 -> at5 a ts) /\ (p <= 6 -> at6 a ts) /\ (p <= 100 -> at100 a ts).
Lemma atl_2 : forall p a ts, at2 a ts -> atl p a ts.
Proof. intros p a ts H. unfold atl. pose proof (at23 _ _ H). pose proof (at34 _ _ H0). pose proof (at45 _ _ H1). pose proof (at56 _ _ H2). pose proof (at6_100 _ _ H3). tauto. Qed.
Lemma atl_3 : forall p a ts, 2 < p -> at3 a ts -> atl p a ts.
Proof. intros p a ts L H. unfold atl. pose proof (at34 _ _ H). pose proof (at45 _ _ H0). pose proof (at56 _ _ H1). pose proof (at6_100 _ _ H2). intuition lia. Qed.
Lemma atl_4 : forall p a ts, 3 < p -> at4 a ts -> atl p a ts.
Proof. intros p a ts L H. unfold atl. pose proof (at45 _ _ H). pose proof (at56 _ _ H0). pose proof (at6_100 _ _ H1). intuition lia. Qed.
Lemma atl_5 : forall p a ts, 4 < p -> at5 a ts -> atl p a ts.
Proof. intros p a ts L H. unfold atl. pose proof (at56 _ _ H). pose proof (at6_100 _ _ H0). intuition lia. Qed.
Lemma atl_6 : forall p a ts, 5 < p -> at6 a ts -> atl p a ts.
Proof. intros p a ts L H. unfold atl. pose proof (at6_100 _ _ H). intuition lia. Qed.
Lemma atl_100 : forall p a ts, 6 < p -> at100 a ts -> atl p a ts.
Proof. intros p a ts L H. unfold atl. intuition lia. Qed.
(** Inserting the parentheses. *)
Lemma parens_atl : forall p need a ts, p <= 100 -> atl p a ts -> atl need a (parens_if ts (p >? need)).
Proof.
  intros p need a ts Hp H. unfold parens_if. rewrite Z.gtb_ltb. destruct (Z.ltb_spec need p) as [L|L].
  - apply atl_2. apply paren_at2. apply H. exact Hp.
  - destruct H as (H2 & H3 & H4 & H5 & H6 & H7). unfold atl. split; [intros; apply H2; lia|]. split; [intros; apply H3; lia|]. split; [intros; apply H4; lia|].
    split; [intros; apply H5; lia|]. split; [intros; apply H6; lia|]. intros; apply H7; lia.
Qed.
Lemma strip_parens : forall l b, strip (parens_if l b) = parens_if (strip l) b.
Proof. intros l []; cbn; [|reflexivity]. unfold strip. rewrite filter_app. reflexivity. Qed.
Lemma strip_app : forall a b, strip (a ++ b) = strip a ++ strip b.
Proof. intros a b. apply filter_app. Qed.

Section E.
Variables (F : Fld) (G : SigOps) (I : interp F).
Add Field KF : (kfield F).
(** ** The expressions covered *)
Definition lit (e : exp G) : Prop := exists n, op_of e = OInt n.
(** Arities as in exp.cc; no arithmetic on two literals (which C++ would do in int), no negation of a
    negation or literal, no member of a literal; calls do not reuse the names printed for products
    and quotients; opaque text has a precedence up to that of a full expression and is not itself a
    prefix expression (its sign would run into a minus printed before it). *)
Definition node_ok (o : op) (l : list (exp G)) : Prop :=
  match o, l with
  | OVar _, [] | OInt _, [] => True
  | OField _, [x] => ~ lit x
  | ONeg, [x] => ~ lit x /\ op_of x <> ONeg
  | (OAdd | OSub | OMul), [x; y] => ~ (lit x /\ lit y)
  | ODiv a, [x] => 1 < a /\ ~ lit x
  | OCall f, l => l <> [] /\ ~ In f ["sqr"; "twice"; "half"; "ldexp"]%string
  | OOther _ p, [] => p <= 100 /\ p <> 3
  | _, _ => False
  end.
Fixpoint show_ok (e : exp G) : Prop :=
  match e with E o l _ => node_ok o l /\ (fix all l := match l with [] => True | x :: t => show_ok x /\ all t end) l end.
Lemma show_ok_args : forall o l s, show_ok (E o l s) -> node_ok o l /\ Forall show_ok l.
Proof. intros o l s [H1 H2]. split; [exact H1|]. clear H1. induction l as [|x t IH]; constructor; [apply H2|apply IH; apply H2]. Qed.
(** Squares are recognised by signature. *)
Definition sqr_ok (e : exp G) : Prop := forall x y s, In (E OMul [x; y] s) (subs e) -> sig_of x = sig_of y -> eval I x = eval I y.

Definition vok (a : past) (e : exp G) : Prop := match op_of e with OInt n => pval I a = VI n | _ => pval I a = VR (eval I e) end.
Lemma vok_toK : forall a e, show_ok e -> vok a e -> toK (pval I a) = eval I e.
Proof.
  intros a [o l s] W H. unfold vok in H. cbn [op_of] in H. destruct o; rewrite H; try reflexivity. apply show_ok_args in W. destruct W as [W _].
  cbn in W. destruct l; [reflexivity|contradiction].
Qed.
Lemma vok_nonlit : forall a e, ~ lit e -> vok a e -> pval I a = VR (eval I e).
Proof. intros a e N H. unfold vok in H. destruct (op_of e) eqn:Q; try exact H. destruct N. exists n. exact Q. Qed.
Lemma bin_vok : forall o a b x y, ~ (lit x /\ lit y) -> show_ok x -> show_ok y -> vok a x -> vok b y ->
  bin_val o (pval I a) (pval I b) = VR (match o with BAdd => kadd | BSub => ksub | BMul => kmul | BDiv => kdiv end (eval I x) (eval I y)).
Proof.
  intros o a b x y N Wx Wy Hx Hy. pose proof (vok_toK a x Wx Hx) as Tx. pose proof (vok_toK b y Wy Hy) as Ty.
  rewrite <- Tx, <- Ty. destruct (pval I a) as [m|u] eqn:Ea; destruct (pval I b) as [n|v] eqn:Eb; try reflexivity. exfalso. apply N.
  unfold vok in Hx, Hy. rewrite Ea in Hx. rewrite Eb in Hy. split.
  - destruct (op_of x) eqn:Q; try discriminate. exists n0. exact Q.
  - destruct (op_of y) eqn:Q; try discriminate. exists n0. exact Q.
Qed.
Lemma at2_id : forall v, at2 (PId v) [TId v].
Proof. intros v rest res Hr [n H]. exists (S n). cbn [app parse]. destruct rest as [|[] rest]; auto. discriminate Hr. Qed.
Lemma at2_num : forall n, at2 (PNum n) [TNum n].
Proof. intros v rest res Hr [n H]. exists (S n). exact H. Qed.
Lemma at2_call1 : forall f a ts, at100 a ts -> at2 (PCall f [a]) (TId f :: TLP :: ts ++ [TRP]).
Proof.
  intros f a ts H rest res _ HP. cbn [app]. rewrite <- app_assoc. cbn [app]. eapply P_call; [apply P_args1; apply H; reflexivity|exact HP].
Qed.
(** The integer literal. *)
Definition past_int (n : Z) : past := if n <? 0 then PNeg (PNum (- n)) else PNum n.
Lemma at3_int : forall n, at3 (past_int n) (show_int n).
Proof.
  intros n. unfold past_int, show_int. destruct (n <? 0).
  - intros rest Hr. cbn [app]. apply P_neg. apply (at23 _ _ (at2_num (- n)) rest Hr).
  - apply at23. apply at2_num.
Qed.
Lemma pval_int : forall n, pval I (past_int n) = VI n.
Proof. intros n. unfold past_int. destruct (n <? 0); cbn; [f_equal; lia|reflexivity]. Qed.

(** Allowed levels of a printed expression; a negative literal stands only from level 3 on. *)
Definition shows (e : exp G) (a : past) : Prop :=
  forall need, 2 <= need -> (lit e -> 3 <= need) -> atl need a (strip (show G e need)).
Lemma join_args : forall l al, l <> [] -> Forall2 (fun e a => shows e a) l al ->
  forall rest, P KArgs (strip (join (map (fun x => show G x 100) l)) ++ TRP :: rest) (al, rest).
Proof.
  intros l al N H. induction H as [|e a l al He Hl IH]; intros rest; [congruence|].
  assert (A : at100 a (strip (show G e 100))) by (apply (He 100); lia).
  destruct l as [|e2 l].
  - inversion Hl; subst. cbn [map join]. apply P_args1. apply A. reflexivity.
  - cbn [map join]. change (join (show G e2 100 :: map (fun x => show G x 100) l)) with (join (map (fun x => show G x 100) (e2 :: l))).
    rewrite strip_app, <- app_assoc. cbn [strip filter solid app]. eapply P_args2; [apply A; reflexivity|]. apply IH. discriminate.
Qed.
Lemma show_reads : forall e, show_ok e -> sqr_ok e -> exists a, vok a e /\ shows e a.
Proof.
  intros e. induction e as [o l s IH] using exp_ind'. intros W Q. apply show_ok_args in W. destruct W as [Wn Wl].
  assert (IHl : Forall (fun e => show_ok e /\ exists a, vok a e /\ shows e a) l).
  { rewrite Forall_forall in *. intros x Hx. split; [apply Wl, Hx|]. apply IH; [exact Hx|apply Wl, Hx|]. intros u v t Hin. apply (Q u v t). right. apply in_flat_map. exists x. split; assumption. }
  clear IH. unfold shows, vok. destruct o as [v|n|f| | | | |c|f|t p]; cbn [node_ok] in Wn; cbn [op_of].
  - destruct l; [|contradiction]. exists (PId v). split; [reflexivity|]. intros need H2 _. cbn [show]. rewrite strip_parens. apply parens_atl; [lia|]. apply atl_2. apply at2_id.
  - destruct l; [|contradiction]. exists (past_int n). split; [apply pval_int|]. intros need H2 H3. cbn [show]. rewrite Z.gtb_ltb. destruct (Z.ltb_spec need 0); [lia|]. cbn [parens_if].
    assert (strip (show_int n) = show_int n) as -> by (unfold show_int; destruct (n <? 0); reflexivity).
    apply atl_3; [|apply at3_int]. assert (3 <= need) by (apply H3; exists n; reflexivity). lia.
  - destruct l as [|x [|]]; try contradiction. inversion IHl as [|? ? [Wx (a & Va & Sa)] _]; subst.
    exists (PField f a). split; [cbn; rewrite (vok_toK a x Wx Va); reflexivity|]. intros need H2 _. cbn [show]. rewrite strip_parens, strip_app. apply parens_atl; [lia|].
    apply atl_2. intros rest res Hr HP. rewrite <- app_assoc. cbn [strip filter solid app]. assert (A : at2 a (strip (show G x 2))) by (apply (Sa 2); [lia|intros L; contradiction|lia]).
    apply A; [reflexivity|]. apply P_dot. exact HP.
  - destruct l as [|x [|]]; try contradiction. inversion IHl as [|? ? [Wx (a & Va & Sa)] _]; subst. destruct Wn as (N1 & N2).
    exists (PNeg a). split; [cbn; rewrite (vok_nonlit a x N1 Va); reflexivity|]. intros need H2 _. cbn [show]. rewrite strip_parens. apply parens_atl; [lia|].
    apply atl_3; [lia|]. intros rest Hr. cbn [strip filter solid app]. apply P_neg. assert (A : at3 a (strip (show G x 3))) by (apply (Sa 3); [lia|lia|lia]). apply A. exact Hr.
  - destruct l as [|x [|y [|]]]; try contradiction. inversion IHl as [|? ? [Wx (a & Va & Sa)] IHl2]; subst. inversion IHl2 as [|? ? [Wy (b & Vb & Sb)] _]; subst.
    exists (PBin BAdd a b). split; [cbn [pval]; rewrite (bin_vok BAdd a b x y Wn Wx Wy Va Vb); reflexivity|]. intros need H2 _. cbn [show]. rewrite strip_parens, strip_app. apply parens_atl; [lia|].
    apply atl_6; [lia|]. intros rest res Hr HP. rewrite <- app_assoc. change (strip ([TSp; TPlus; TSp] ++ show G y 5)) with (TPlus :: strip (show G y 5)). cbn [app].
    assert (A : at6 a (strip (show G x 6))) by (apply (Sa 6); [lia|lia|lia]). assert (B : at5 b (strip (show G y 5))) by (apply (Sb 5); [lia|lia|lia]).
    apply A; [reflexivity|]. apply (P_plus false a _ b rest); [|exact HP]. apply B; [apply mul_post; exact Hr|apply P_mull; exact Hr].
  - destruct l as [|x [|y [|]]]; try contradiction. inversion IHl as [|? ? [Wx (a & Va & Sa)] IHl2]; subst. inversion IHl2 as [|? ? [Wy (b & Vb & Sb)] _]; subst.
    exists (PBin BSub a b). split; [cbn [pval]; rewrite (bin_vok BSub a b x y Wn Wx Wy Va Vb); reflexivity|]. intros need H2 _. cbn [show]. rewrite strip_parens, strip_app. apply parens_atl; [lia|].
    apply atl_6; [lia|]. intros rest res Hr HP. rewrite <- app_assoc. change (strip ([TSp; TMinus; TSp] ++ show G y 5)) with (TMinus :: strip (show G y 5)). cbn [app].
    assert (A : at6 a (strip (show G x 6))) by (apply (Sa 6); [lia|lia|lia]). assert (B : at5 b (strip (show G y 5))) by (apply (Sb 5); [lia|lia|lia]).
    apply A; [reflexivity|]. apply (P_plus true a _ b rest); [|exact HP]. apply B; [apply mul_post; exact Hr|apply P_mull; exact Hr].
  - destruct l as [|x [|y [|]]]; try contradiction. inversion IHl as [|? ? [Wx (a & Va & Sa)] IHl2]; subst. inversion IHl2 as [|? ? [Wy (b & Vb & Sb)] _]; subst.
    pose proof (vok_toK a x Wx Va) as Tx. pose proof (vok_toK b y Wy Vb) as Ty.
    assert (K2 : kofZ (F := F) 2 = kadd k1 k1) by (change (kofZ (F := F) 2) with (kadd k1 (kadd k1 k0) : F); ring).
    cbn [show]. destruct (sg_eqb G (sig_of x) (sig_of y)) eqn:Es; [|destruct (is_int G 2 x) eqn:Ix; [|destruct (is_int G 2 y) eqn:Iy]].
    + apply sg_eqb_ok in Es. exists (PCall "sqr" [a]). split.
      * cbn. rewrite Tx. rewrite (Q x y s (or_introl eq_refl) Es). reflexivity.
      * intros need H2 _. apply atl_2. rewrite !strip_app. apply at2_call1. apply (Sa 100); lia.
    + unfold is_int, unint in Ix. exists (PCall "twice" [b]). split.
      * cbn. rewrite Ty. destruct x as [ox lx sx]. cbn in Ix. destruct ox; try discriminate. apply Z.eqb_eq in Ix. subst n.
        destruct (show_ok_args _ _ _ Wx) as [Nx _]. cbn in Nx. destruct lx; [|contradiction]. cbn [eval map opval]. rewrite K2. f_equal. ring.
      * intros need H2 _. apply atl_2. rewrite !strip_app. apply at2_call1. apply (Sb 100); lia.
    + unfold is_int, unint in Iy. exists (PCall "twice" [a]). split.
      * cbn. rewrite Tx. destruct y as [oy ly sy]. cbn in Iy. destruct oy; try discriminate. apply Z.eqb_eq in Iy. subst n.
        destruct (show_ok_args _ _ _ Wy) as [Ny _]. cbn in Ny. destruct ly; [|contradiction]. cbn [eval map opval]. rewrite K2. f_equal. ring.
      * intros need H2 _. apply atl_2. rewrite !strip_app. apply at2_call1. apply (Sa 100); lia.
    + exists (PBin BMul a b). split; [cbn [pval]; rewrite (bin_vok BMul a b x y Wn Wx Wy Va Vb); reflexivity|]. intros need H2 _. rewrite strip_parens, strip_app. apply parens_atl; [lia|].
      apply atl_5; [lia|]. intros rest res Hr HP. rewrite <- app_assoc. change (strip ([TSp; TStar; TSp] ++ show G y 4)) with (TStar :: strip (show G y 4)). cbn [app].
      assert (A : at5 a (strip (show G x 5))) by (apply (Sa 5); [lia|lia|lia]). assert (B : at4 b (strip (show G y 4))) by (apply (Sb 4); [lia|lia|lia]).
      apply A; [reflexivity|]. apply (P_star false a _ b rest); [|exact HP]. apply B. exact Hr.
  - destruct l as [|x [|]]; try contradiction. inversion IHl as [|? ? [Wx (a & Va & Sa)] _]; subst. destruct Wn as (N1 & N2). pose proof (vok_toK a x Wx Va) as Tx.
    cbn [show]. destruct (Z.eqb_spec c 2) as [->|C2]; [|destruct ((2 <? c) && single_bit c) eqn:Sb].
    + exists (PCall "half" [a]). split; [cbn; rewrite Tx; reflexivity|]. intros need H2 _. apply atl_2. rewrite !strip_app. apply at2_call1. apply (Sa 100); lia.
    + apply andb_prop in Sb. destruct Sb as [S1 S2]. apply Z.ltb_lt in S1. unfold single_bit in S2. apply Z.eqb_eq in S2.
      exists (PCall "ldexp" [a; PNeg (PNum (Z.log2 c))]). split.
      * cbn. rewrite Tx. f_equal. rewrite S2 at 2. assert (Lc : 0 < Z.log2 c) by (apply Z.log2_pos; lia). set (k := Z.log2 c) in *.
        assert (Kp : kofZ (F := F) (2 ^ k) = kpow2n (Z.to_nat k)).
        { clear - Lc. rewrite <- (Z2Nat.id k) at 1 by lia. generalize (Z.to_nat k). intros m. induction m as [|m IHm]; [change (kofZ (F := F) 1 = k1); apply kofnat_1|].
          rewrite Nat2Z.inj_succ, Z.pow_succ_r by lia. rewrite kofZ_mul, IHm. cbn [kpow2n]. f_equal. change (kofZ (F := F) 2) with (kadd k1 (kadd k1 k0) : F). unfold ktwo. ring. }
        rewrite Kp. destruct k as [|k|k]; try lia. cbn [Z.opp kpow2]. change (Z.to_nat (Z.pos k)) with (Pos.to_nat k). field.
        rewrite <- (Pos2Nat.id k) in Kp. change (Z.to_nat (Z.pos (Pos.of_nat (Pos.to_nat k)))) with (Pos.to_nat (Pos.of_nat (Pos.to_nat k))) in Kp. rewrite Pos2Nat.id in Kp. rewrite <- Kp. apply kofZ_nz. lia.
      * intros need H2 _. apply atl_2. rewrite !strip_app. intros rest res Hr HP. cbn [strip filter solid app]. rewrite <- app_assoc. cbn [app].
        eapply P_call; [|exact HP]. assert (A : at100 a (strip (show G x 100))) by (apply (Sa 100); lia). eapply P_args2; [apply A; reflexivity|].
        apply P_args1. assert (A3 : at3 (PNeg (PNum (Z.log2 c))) [TMinus; TNum (Z.log2 c)]) by (intros r Hr0; cbn [app]; apply P_neg; apply (at23 _ _ (at2_num (Z.log2 c)) r Hr0)).
        apply (at6_100 _ _ (at56 _ _ (at45 _ _ (at34 _ _ A3))) (TRP :: rest)). reflexivity.
    + exists (PBin BDiv a (past_int c)). split.
      * cbn [pval]. rewrite pval_int, (vok_nonlit a x N2 Va). reflexivity.
      * intros need H2 _. rewrite strip_parens, strip_app. apply parens_atl; [lia|].
        apply atl_5; [lia|]. intros rest res Hr HP. rewrite <- app_assoc. change (strip ([TSp; TSlash; TSp] ++ show_int c)) with (TSlash :: strip (show_int c)). cbn [app].
        assert (A : at5 a (strip (show G x 5))) by (apply (Sa 5); [lia|lia|lia]).
        apply A; [reflexivity|]. apply (P_star true a _ (past_int c) rest); [|exact HP].
        assert (strip (show_int c) = show_int c) as -> by (unfold show_int; destruct (c <? 0); reflexivity). apply (at34 _ _ (at3_int c)). exact Hr.
  - destruct Wn as [N1 N2].
    assert (X : exists al, Forall2 (fun e a => shows e a) l al /\ map toK (map (pval I) al) = map (eval I) l /\ length al = length l).
    { clear - IHl. induction IHl as [|x l [Wx (a & Va & Sa)] Hl (al & A1 & A2 & A3)]; [exists []; auto|]. exists (a :: al).
      split; [constructor; assumption|]. cbn. rewrite A2, A3, (vok_toK a x Wx Va). auto. }
    destruct X as (al & A1 & A2 & A3). exists (PCall f al). split.
    + cbn. rewrite <- A2. clear - N2. cbn in N2. assert (E : forall g, In g ["sqr"; "twice"; "half"; "ldexp"]%string -> String.eqb f g = false).
      { intros g Hg. destruct (String.eqb_spec f g); [subst; contradiction|reflexivity]. }
      unfold call_val. destruct (map (pval I) al) as [|u [|[m|w] [|]]]; cbn; rewrite ?E by (cbn; tauto); reflexivity.
    + intros need H2 _. cbn [show]. apply atl_2. rewrite !strip_app. intros rest res Hr HP. cbn [strip filter solid app]. rewrite <- app_assoc. cbn [app].
      eapply P_call; [|exact HP]. apply join_args; assumption.
  - destruct l; [|contradiction]. exists (PText t). split; [reflexivity|]. intros need H2 _. cbn [show]. rewrite strip_parens. apply parens_atl; [apply Wn|]. cbn [strip filter solid]. destruct Wn as [Wn Wn3].
    destruct (Z.leb_spec p 2); [|destruct (Z.eqb_spec p 3); [|destruct (Z.eqb_spec p 4); [|destruct (Z.eqb_spec p 5); [|destruct (Z.eqb_spec p 6)]]]].
    + apply atl_2. intros rest res Hr [k HP]. exists (S k). cbn [app parse]. destruct (Z.leb_spec p 2); [exact HP|lia].
    + subst p. apply atl_3; [lia|]. intros rest Hr. exists 1%nat. reflexivity.
    + subst p. apply atl_4; [lia|]. intros rest Hr. exists 1%nat. reflexivity.
    + subst p. apply atl_5; [lia|]. intros rest res Hr [k HP]. exists (S k). exact HP.
    + subst p. apply atl_6; [lia|]. intros rest res Hr [k HP]. exists (S k). exact HP.
    + apply atl_100; [lia|]. intros rest Hr. exists 1%nat. cbn [app parse]. destruct (Z.ltb_spec 6 p); [|lia]. destruct (Z.leb_spec p 100); [reflexivity|lia].
Qed.

(** ** Neighbouring lexemes do not run together *)
Definition okfirst (t : tok) : Prop := match t with TId _ | TNum _ | TText _ _ | TLP | TMinus => True | _ => False end.
Definition okend (t : tok) : Prop := match t with TId _ | TNum _ | TText _ _ | TRP => True | _ => False end.
Lemma ng_app : forall a b, no_glue a -> no_glue b -> glue (last a TSp) (hd TSp b) = false -> no_glue (a ++ b).
Proof.
  induction a as [|x a IH]; intros b Ha Hb Hg; [exact Hb|]. destruct a as [|y a].
  - cbn [app]. destruct b as [|z b]; [exact Logic.I|]. split; assumption.
  - cbn [app]. destruct Ha as [H1 H2]. split; [exact H1|]. apply (IH b H2 Hb). exact Hg.
Qed.
Lemma hd_app : forall a b, okfirst (hd TSp a) -> hd TSp (a ++ b) = hd TSp a.
Proof. intros [|x a] b H; [contradiction|reflexivity]. Qed.
Lemma last_app : forall a b, okend (last b TSp) -> last (a ++ b) TSp = last b TSp.
Proof.
  intros a b H. destruct b as [|x b]; [contradiction|]. induction a as [|y a IH]; [reflexivity|]. cbn [app last]. destruct (a ++ x :: b) eqn:E; [destruct a; discriminate|exact IH].
Qed.
Definition lex (first last_ : tok) (l : list tok) : Prop := no_glue l /\ okfirst first /\ okend last_ /\ hd TSp l = first /\ last l TSp = last_.
Definition minus (t : tok) : Prop := t = TMinus.
Definition num (t : tok) : Prop := exists n, t = TNum n.
Definition clean (need : Z) (e : exp G) (l : list tok) : Prop :=
  no_glue l /\ okfirst (hd TSp l) /\ okend (last l TSp) /\
  (~ lit e -> (need <= 3 /\ op_of e <> ONeg \/ need <= 2) -> hd TSp l <> TMinus) /\
  (~ lit e -> need <= 2 -> forall n, last l TSp <> TNum n).
(** A token before the text and one after it. *)
Lemma ng_wrap : forall a t l u, no_glue l -> okfirst (hd TSp l) -> okend (last l TSp) -> no_glue (a ++ [t]) ->
  (t = TLP \/ t = TSp) -> (u = TRP \/ u = TComma) -> no_glue ((a ++ [t]) ++ l ++ [u]).
Proof.
  intros a t l u Hl Hf He Ha Ht Hu. apply ng_app; [exact Ha| |].
  - apply ng_app; [exact Hl|exact Logic.I|]. cbn [hd]. destruct (last l TSp), Hu; subst; try contradiction; reflexivity.
  - rewrite hd_app by exact Hf. rewrite last_last. destruct Ht; subst; reflexivity.
Qed.
Lemma clean_parens : forall need p e l, no_glue l -> okfirst (hd TSp l) -> okend (last l TSp) ->
  (p <= need -> clean need e l) -> clean need e (parens_if l (p >? need)).
Proof.
  intros need p e l H1 H2 H3 H4. unfold parens_if. rewrite Z.gtb_ltb. destruct (Z.ltb_spec need p) as [L|L]; [|apply H4; exact L].
  change (TLP :: l ++ [TRP]) with (([] ++ [TLP]) ++ l ++ [TRP]).
  split; [apply ng_wrap; auto; exact Logic.I|]. split; [exact Logic.I|]. rewrite app_assoc, last_last. split; [exact Logic.I|]. split; [intros _ _; discriminate|intros _ _ n; discriminate].
Qed.
Lemma clean_call : forall need e f l, no_glue l -> okfirst (hd TSp l) -> okend (last l TSp) -> clean need e ([TId f; TLP] ++ l ++ [TRP]).
Proof.
  intros need e f l H1 H2 H3. split; [apply (ng_wrap [TId f] TLP); auto; cbn; auto|].
  split; [exact Logic.I|]. rewrite app_assoc, last_last. split; [exact Logic.I|]. split; [intros _ _; discriminate|intros _ _ n; discriminate].
Qed.
Lemma ng_infix : forall a t b, no_glue a -> okfirst (hd TSp a) -> okend (last a TSp) -> no_glue b -> okfirst (hd TSp b) -> okend (last b TSp) ->
  no_glue (a ++ [TSp; t; TSp] ++ b) /\ okfirst (hd TSp (a ++ [TSp; t; TSp] ++ b)) /\ okend (last (a ++ [TSp; t; TSp] ++ b) TSp).
Proof.
  intros a t b A1 A2 A3 B1 B2 B3. split; [|split].
  - apply ng_app; [exact A1| |destruct (last a TSp); try contradiction; reflexivity]. apply ng_app; [|exact B1|reflexivity]. destruct t; cbn; auto.
  - rewrite hd_app; exact A2.
  - rewrite last_app; rewrite last_app; exact B3.
Qed.
Lemma join_clean : forall l, l <> [] -> Forall (fun e => clean 100 e (show G e 100)) l -> let t := join (map (fun x => show G x 100) l) in no_glue t /\ okfirst (hd TSp t) /\ okend (last t TSp).
Proof.
  intros l N H. induction H as [|e l (C1 & C2 & C3 & _) Hl IH]; [congruence|]. destruct l as [|e2 l]; [cbn; auto|].
  cbn [map join]. cbv zeta. change (join (show G e2 100 :: map (fun x => show G x 100) l)) with (join (map (fun x => show G x 100) (e2 :: l))).
  destruct IH as (I1 & I2 & I3); [discriminate|]. set (t := join _) in *. split; [|split].
  - apply ng_app; [exact C1| |destruct (last (show G e 100) TSp); try contradiction; reflexivity]. apply (ng_app [TComma; TSp] t); [cbn; auto|exact I1|reflexivity].
  - rewrite hd_app; exact C2.
  - assert (E : okend (last (TComma :: TSp :: t) TSp)) by exact (eq_ind_r okend I3 (last_app [TComma; TSp] t I3)). rewrite last_app; exact E.
Qed.
Lemma show_clean : forall e, show_ok e -> forall need, 2 <= need -> (lit e -> 3 <= need) -> clean need e (show G e need).
Proof.
  intros e. induction e as [o l s IH] using exp_ind'. intros W. apply show_ok_args in W. destruct W as [Wn Wl].
  assert (IHl : Forall (fun e => forall need, 2 <= need -> (lit e -> 3 <= need) -> clean need e (show G e need)) l).
  { rewrite Forall_forall in *. intros x Hx. apply IH; [exact Hx|apply Wl, Hx]. }
  clear IH Wl. intros need H2 H3. destruct o as [v|n|f| | | | |c|f|t p]; cbn [node_ok] in Wn.
  - destruct l; [|contradiction]. cbn [show]. apply clean_parens; try exact Logic.I. intros _. unfold clean. cbn. repeat split; intros; discriminate.
  - destruct l; [|contradiction]. cbn [show]. assert (L : lit (E (OInt n) [] s)) by (exists n; reflexivity).
    apply clean_parens; unfold clean, show_int; destruct (n <? 0); cbn; repeat split; intros; try contradiction.
  - destruct l as [|x [|]]; try contradiction. inversion IHl as [|? ? C _]; subst. destruct (C 2) as (C1 & C2 & C3 & C4 & C5); [lia|intros; contradiction|]. cbn [show].
    assert (N : no_glue (show G x 2 ++ [TDot; TId f])).
    { apply ng_app; [exact C1|cbn; auto|]. specialize (C5 Wn ltac:(lia)). cbn [hd]. destruct (last (show G x 2) TSp); try contradiction; try reflexivity; destruct (C5 _ eq_refl). }
    assert (Fi : okfirst (hd TSp (show G x 2 ++ [TDot; TId f]))) by (rewrite hd_app; exact C2).
    assert (La : last (show G x 2 ++ [TDot; TId f]) TSp = TId f) by (apply last_app; exact Logic.I).
    apply clean_parens; [exact N|exact Fi|rewrite La; exact Logic.I|]. intros _. split; [exact N|]. split; [exact Fi|]. rewrite La. split; [exact Logic.I|].
    split; [intros _ _|intros _ _ n; discriminate]. rewrite hd_app by exact C2. apply C4; [exact Wn|right; lia].
  - destruct l as [|x [|]]; try contradiction. inversion IHl as [|? ? C _]; subst. destruct Wn as (N1 & N2). destruct (C 3) as (C1 & C2 & C3 & C4 & C5); [lia|lia|]. cbn [show].
    specialize (C4 N1 (or_introl (conj (Z.le_refl 3) N2))).
    assert (N : no_glue (TMinus :: show G x 3)).
    { apply (ng_app [TMinus] (show G x 3)); [exact Logic.I|exact C1|]. cbn [last]. destruct (hd TSp (show G x 3)); try contradiction; try reflexivity; destruct (C4 eq_refl). }
    assert (La : last (TMinus :: show G x 3) TSp = last (show G x 3) TSp) by (apply (last_app [TMinus]); exact C3).
    apply clean_parens; [exact N|exact Logic.I|rewrite La; exact C3|]. intros L. split; [exact N|]. split; [exact Logic.I|]. rewrite La. split; [exact C3|].
    split; [intros _ [[_ X]|X]; [cbn in X; congruence|lia]|intros; lia].
  - destruct l as [|x [|y [|]]]; try contradiction. inversion IHl as [|? ? C IHl2]; subst. inversion IHl2 as [|? ? D _]; subst. destruct (C 6) as (C1 & C2 & C3 & _); [lia|lia|]. destruct (D 5) as (D1 & D2 & D3 & _); [lia|lia|].
    cbn [show]. destruct (ng_infix _ TPlus _ C1 C2 C3 D1 D2 D3) as (E1 & E2 & E3). apply clean_parens; auto. intros L. split; [exact E1|]. split; [exact E2|]. split; [exact E3|]. split; intros; lia.
  - destruct l as [|x [|y [|]]]; try contradiction. inversion IHl as [|? ? C IHl2]; subst. inversion IHl2 as [|? ? D _]; subst. destruct (C 6) as (C1 & C2 & C3 & _); [lia|lia|]. destruct (D 5) as (D1 & D2 & D3 & _); [lia|lia|].
    cbn [show]. destruct (ng_infix _ TMinus _ C1 C2 C3 D1 D2 D3) as (E1 & E2 & E3). apply clean_parens; auto. intros L. split; [exact E1|]. split; [exact E2|]. split; [exact E3|]. split; intros; lia.
  - destruct l as [|x [|y [|]]]; try contradiction. inversion IHl as [|? ? C IHl2]; subst. inversion IHl2 as [|? ? D _]; subst.
    destruct (C 100) as (C1 & C2 & C3 & _); [lia|lia|]. destruct (D 100) as (D1 & D2 & D3 & _); [lia|lia|]. cbn [show].
    destruct (sg_eqb G (sig_of x) (sig_of y)); [apply clean_call; assumption|]. destruct (is_int G 2 x); [apply clean_call; assumption|]. destruct (is_int G 2 y); [apply clean_call; assumption|].
    clear C1 C2 C3 D1 D2 D3. destruct (C 5) as (C1 & C2 & C3 & _); [lia|lia|]. destruct (D 4) as (D1 & D2 & D3 & _); [lia|lia|].
    destruct (ng_infix _ TStar _ C1 C2 C3 D1 D2 D3) as (E1 & E2 & E3). apply clean_parens; auto. intros L. split; [exact E1|]. split; [exact E2|]. split; [exact E3|]. split; intros; lia.
  - destruct l as [|x [|]]; try contradiction. inversion IHl as [|? ? C _]; subst. destruct Wn as (N1 & N2). destruct (C 100) as (C1 & C2 & C3 & _); [lia|lia|]. cbn [show].
    destruct (c =? 2); [apply clean_call; assumption|]. destruct ((2 <? c) && single_bit c).
    + change ([TComma; TSp; TMinus; TNum (Z.log2 c); TRP]) with ([TComma; TSp; TMinus; TNum (Z.log2 c)] ++ [TRP]). rewrite (app_assoc (show G x 100)). apply clean_call.
      * apply ng_app; [exact C1|cbn; auto|destruct (last (show G x 100) TSp); try contradiction; reflexivity].
      * rewrite hd_app; exact C2.
      * rewrite last_app; exact Logic.I.
    + clear C1 C2 C3. destruct (C 5) as (C1 & C2 & C3 & _); [lia|lia|].
      assert (S1 : no_glue (show_int c) /\ okfirst (hd TSp (show_int c)) /\ okend (last (show_int c) TSp)) by (unfold show_int; destruct (c <? 0); cbn; auto). destruct S1 as (D1 & D2 & D3).
      destruct (ng_infix _ TSlash _ C1 C2 C3 D1 D2 D3) as (E1 & E2 & E3). apply clean_parens; auto. intros L. split; [exact E1|]. split; [exact E2|]. split; [exact E3|]. split; intros; lia.
  - destruct Wn as [N1 N2]. cbn [show]. destruct (join_clean l) as (J1 & J2 & J3); [exact N1| |apply clean_call; assumption].
    rewrite Forall_forall in *. intros x Hx. apply IHl; [exact Hx|lia|lia].
  - destruct l; [|contradiction]. cbn [show]. apply clean_parens; try exact Logic.I. intros _. unfold clean. cbn. repeat split; intros; discriminate.
Qed.

Theorem show_back : forall e, show_ok e -> sqr_ok e -> exists a, reads_as (show G e 100) a /\ toK (pval I a) = eval I e.
Proof.
  intros e W Q. destruct (show_reads e W Q) as (a & Va & Sa). exists a. split; [split|apply vok_toK; assumption].
  - apply (show_clean e W 100); lia.
  - assert (A : at100 a (strip (show G e 100))) by (apply (Sa 100); lia). specialize (A [] Logic.I). rewrite app_nil_r in A. exact A.
Qed.
End E.
