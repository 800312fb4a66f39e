(** Proofs about the expansion arithmetic generator: the declarations it writes compute, up to the
    sign of zeros, what the algorithms of ExpansionModel.v compute. *)
From Coq Require Import String ZArith List Bool Lia Reals.
From Flocq Require Import Core BinarySingleNaN.
From Verif Require Import Base ExpModel ExpProofs BlockProofs GenModel ExpansionModel ExpnGenModel.
Import ListNotations.
Open Scope nat_scope.

(** ** Spec: values of expressions as doubles *)
(** The sign of a zero is forgotten. *)
Definition unsigned (a : double) : double := match a with B754_zero _ => dzero | _ => a end.
Definition dcall (f : string) (l : list double) : double :=
  match l with [a; b; c] => if String.eqb f "fma" then dfma a b c else B754_nan | _ => B754_nan end.
(** What the printed expression computes; kinds the expansion codelets do not use have no value. *)
Definition dop (o : op) (l : list double) : double :=
  match o, l with
  | OInt n, [] => dofZ n
  | ONeg, [a] => dneg a
  | OAdd, [a; b] => dadd a b
  | OSub, [a; b] => dsub a b
  | OMul, [a; b] => dmul a b
  | OCall f, l => dcall f l
  | _, _ => B754_nan
  end.
Fixpoint deval {G : SigOps} (I : string -> double) (e : exp G) : double :=
  match e with E o l _ => match o with OVar v => I v | _ => dop o (map (deval I) l) end end.
(** Executing "const auto v = e;" one after another. *)
Definition drun {G : SigOps} (ls : list (string * exp G)) (I : string -> double) : string -> double :=
  fold_left (fun J '(v, e) => fun w => if String.eqb w v then deval J e else J w) ls I.

(** ** Doubles *)
Lemma uns_uns : forall a, unsigned (unsigned a) = unsigned a. Proof. intros [| | |]; reflexivity. Qed.
Lemma uns_neg : forall a b, unsigned a = unsigned b -> unsigned (dneg a) = unsigned (dneg b).
Proof. assert (K : forall a, unsigned (dneg a) = unsigned (dneg (unsigned a))) by (intros [| | |]; reflexivity). intros a b H. rewrite (K a), (K b), H. reflexivity. Qed.
Lemma uns_add : forall a a' b b', unsigned a = unsigned a' -> unsigned b = unsigned b' -> unsigned (dadd a b) = unsigned (dadd a' b').
Proof.
  assert (K : forall a b, unsigned (dadd a b) = unsigned (dadd (unsigned a) (unsigned b))).
  { intros [sa|sa| |sa ma ea Ha] [sb|sb| |sb mb eb Hb]; try reflexivity; cbn; destruct (Bool.eqb sa sb); reflexivity. }
  intros a a' b b' H1 H2. rewrite (K a b), (K a' b'), H1, H2. reflexivity.
Qed.
Lemma sub_add : forall a b, dsub a b = dadd a (dneg b).
Proof.
  intros [sa|sa| |sa ma ea Ha] [sb|sb| |sb mb eb Hb]; try reflexivity; cbn; try (destruct sa, sb; reflexivity).
Qed.
Lemma uns_sub : forall a a' b b', unsigned a = unsigned a' -> unsigned b = unsigned b' -> unsigned (dsub a b) = unsigned (dsub a' b').
Proof. intros a a' b b' H1 H2. rewrite !sub_add. apply (uns_add a a' (dneg b) (dneg b') H1 (uns_neg _ _ H2)). Qed.
Lemma uns_mul : forall a a' b b', unsigned a = unsigned a' -> unsigned b = unsigned b' -> unsigned (dmul a b) = unsigned (dmul a' b').
Proof.
  assert (K : forall a b, unsigned (dmul a b) = unsigned (dmul (unsigned a) (unsigned b))).
  { intros [sa|sa| |sa ma ea Ha] [sb|sb| |sb mb eb Hb]; reflexivity. }
  intros a a' b b' H1 H2. rewrite (K a b), (K a' b'), H1, H2. reflexivity.
Qed.
Lemma uns_normalize : forall m e s, unsigned (binary_normalize prec emax _ _ mode_NE m e s) = unsigned (binary_normalize prec emax _ _ mode_NE m e false).
Proof. intros [|p|p] e s; reflexivity. Qed.
Lemma uns_fma : forall a a' b b' c c', unsigned a = unsigned a' -> unsigned b = unsigned b' -> unsigned c = unsigned c' -> unsigned (dfma a b c) = unsigned (dfma a' b' c').
Proof.
  assert (K : forall a b c, unsigned (dfma a b c) = unsigned (dfma (unsigned a) (unsigned b) (unsigned c))).
  { intros [sa|sa| |sa ma ea Ha] [sb|sb| |sb mb eb Hb] [sc|sc| |sc mc ec Hc]; try reflexivity.
    change (unsigned (B754_zero sc)) with dzero. change (unsigned (B754_finite sa ma ea Ha)) with (B754_finite sa ma ea Ha : double). change (unsigned (B754_finite sb mb eb Hb)) with (B754_finite sb mb eb Hb : double).
    unfold dfma, Bfma. destruct (Operations.Fmult _ _) as [m e]. etransitivity; [apply uns_normalize|symmetry; apply uns_normalize]. }
  intros a a' b b' c c' H1 H2 H3. rewrite (K a b c), (K a' b' c'), H1, H2, H3. reflexivity.
Qed.
Lemma uns_finite : forall a b, is_finite a = true -> is_finite b = true -> B2R a = B2R b -> unsigned a = unsigned b.
Proof.
  intros a b Ha Hb E. destruct (is_finite_strict a) eqn:Sa.
  - destruct (is_finite_strict b) eqn:Sb; [f_equal; apply B2R_inj; assumption|]. destruct b as [sb|sb| |sb mb eb Hb0]; try discriminate. destruct a as [sa|sa| |sa ma ea Ha0]; try discriminate.
    exfalso. cbn in E. apply eq_0_F2R in E. destruct sa; discriminate E.
  - destruct a as [sa|sa| |sa ma ea Ha0]; try discriminate. destruct b as [sb|sb| |sb mb eb Hb0]; try discriminate; [reflexivity|].
    exfalso. cbn in E. symmetry in E. apply eq_0_F2R in E. destruct sb; discriminate E.
Qed.
Lemma SF_inj : forall a b : double, B2SF a = B2SF b -> a = b.
Proof. intros a b H. apply B2SF_inj. exact H. Qed.
Lemma add_comm : forall a b, unsigned (dadd a b) = unsigned (dadd b a).
Proof.
  intros a b. destruct (is_finite a && is_finite b) eqn:Q.
  - apply andb_prop in Q. destruct Q as [Fa Fb]. pose proof (Bplus_correct prec emax _ _ mode_NE a b Fa Fb) as H1. pose proof (Bplus_correct prec emax _ _ mode_NE b a Fb Fa) as H2.
    rewrite Rplus_comm in H2. destruct (Rlt_bool _ _).
    + destruct H1 as (H1 & F1 & _), H2 as (H2 & F2 & _). apply uns_finite; [exact F1|exact F2|]. unfold dadd. rewrite H1, H2. reflexivity.
    + destruct H1 as (H1 & S1), H2 as (H2 & _). f_equal. apply SF_inj. unfold dadd. rewrite H1, H2, S1. reflexivity.
  - destruct a as [sa|sa| |sa ma ea Ha], b as [sb|sb| |sb mb eb Hb]; try discriminate Q; try reflexivity. cbn. destruct sa, sb; reflexivity.
Qed.
Lemma neg_add : forall a b, unsigned (dneg (dadd a b)) = unsigned (dadd (dneg a) (dneg b)).
Proof.
  intros a b. destruct (is_finite a && is_finite b) eqn:Q.
  - apply andb_prop in Q. destruct Q as [Fa Fb]. assert (Fa' : is_finite (Bopp a) = true) by (rewrite is_finite_Bopp; exact Fa). assert (Fb' : is_finite (Bopp b) = true) by (rewrite is_finite_Bopp; exact Fb).
    pose proof (Bplus_correct prec emax _ _ mode_NE a b Fa Fb) as H1. pose proof (Bplus_correct prec emax _ _ mode_NE _ _ Fa' Fb') as H2.
    rewrite !B2R_Bopp, <- Ropp_plus_distr in H2. rewrite round_NE_opp, Rabs_Ropp in H2. destruct (Rlt_bool _ _).
    + destruct H1 as (H1 & F1 & _), H2 as (H2 & F2 & _). apply uns_finite; [unfold dneg; rewrite is_finite_Bopp; exact F1|exact F2|]. unfold dneg, dadd. rewrite B2R_Bopp, H1, H2. reflexivity.
    + destruct H1 as (H1 & S1), H2 as (H2 & _). f_equal. apply SF_inj. unfold dneg, dadd. rewrite H2. destruct a as [sa|sa| |sa ma ea Ha]; try discriminate Fa; cbn [Bsign Bopp] in *;
      (destruct (Bplus mode_NE _ b) as [s|s| |s m e He]; try discriminate H1; cbn in H1 |- *; injection H1 as ->; reflexivity).
  - destruct a as [sa|sa| |sa ma ea Ha], b as [sb|sb| |sb mb eb Hb]; try discriminate Q; try reflexivity. cbn. destruct sa, sb; reflexivity.
Qed.
Lemma neg_neg : forall a, dneg (dneg a) = a. Proof. intros a. apply Bopp_involutive. Qed.
Lemma mul_neg_l : forall a b, unsigned (dmul (dneg a) b) = unsigned (dneg (dmul a b)).
Proof.
  intros a b. destruct (is_finite a && is_finite b) eqn:Q.
  - assert (Q2 : is_finite (Bopp a) && is_finite b = true) by (rewrite is_finite_Bopp; exact Q).
    pose proof (Bmult_correct prec emax _ _ mode_NE a b) as H1. pose proof (Bmult_correct prec emax _ _ mode_NE (Bopp a) b) as H2. rewrite Q in H1. rewrite Q2 in H2.
    rewrite B2R_Bopp, Ropp_mult_distr_l_reverse, round_NE_opp, Rabs_Ropp in H2. destruct (Rlt_bool _ _).
    + destruct H1 as (H1 & F1 & _), H2 as (H2 & F2 & _). apply uns_finite; [exact F2|unfold dneg; rewrite is_finite_Bopp; exact F1|]. unfold dneg, dmul. rewrite B2R_Bopp, H1, H2. reflexivity.
    + f_equal. apply SF_inj. unfold dneg, dmul. rewrite H2. apply andb_prop in Q. destruct Q as [Fa Fb]. destruct a as [sa|sa| |sa ma ea Ha]; try discriminate Fa; cbn [Bsign Bopp] in *;
      (destruct (Bmult mode_NE _ b) as [s|s| |s m e He]; try discriminate H1; cbn in H1 |- *; injection H1 as ->; destruct sa, (Bsign b); reflexivity).
  - destruct a as [sa|sa| |sa ma ea Ha], b as [sb|sb| |sb mb eb Hb]; try discriminate Q; try reflexivity; cbn; destruct sa, sb; reflexivity.
Qed.
Lemma mul_neg_r : forall a b, unsigned (dmul a (dneg b)) = unsigned (dneg (dmul a b)).
Proof.
  intros a b. destruct (is_finite a && is_finite b) eqn:Q.
  - assert (Q2 : is_finite a && is_finite (Bopp b) = true) by (rewrite is_finite_Bopp; exact Q).
    pose proof (Bmult_correct prec emax _ _ mode_NE a b) as H1. pose proof (Bmult_correct prec emax _ _ mode_NE a (Bopp b)) as H2. rewrite Q in H1. rewrite Q2 in H2.
    rewrite B2R_Bopp, Ropp_mult_distr_r_reverse, round_NE_opp, Rabs_Ropp in H2. destruct (Rlt_bool _ _).
    + destruct H1 as (H1 & F1 & _), H2 as (H2 & F2 & _). apply uns_finite; [exact F2|unfold dneg; rewrite is_finite_Bopp; exact F1|]. unfold dneg, dmul. rewrite B2R_Bopp, H1, H2. reflexivity.
    + f_equal. apply SF_inj. unfold dneg, dmul. rewrite H2. apply andb_prop in Q. destruct Q as [Fa Fb]. destruct b as [sa|sa| |sa ma ea Ha]; try discriminate Fb; cbn [Bsign Bopp] in *;
      (destruct (Bmult mode_NE a _) as [s|s| |s m e He]; try discriminate H1; cbn in H1 |- *; injection H1 as ->; destruct sa, (Bsign a); reflexivity).
  - destruct a as [sa|sa| |sa ma ea Ha], b as [sb|sb| |sb mb eb Hb]; try discriminate Q; try reflexivity; cbn; destruct sa, sb; reflexivity.
Qed.

(** ** Declarations *)
Section Block.
Variable G : SigOps.
Notation exp := (exp G).
Notation bst := (bst G).
Lemma deval_agree : forall I J (e : exp), (forall v, In v (vars e) -> I v = J v) -> deval I e = deval J e.
Proof.
  intros I J e Hv. induction e as [o l s IH] using exp_ind'. cbn [deval].
  assert (E : map (deval I) l = map (deval J) l).
  { apply map_ext_in. intros x Hx. rewrite Forall_forall in IH. apply IH; [exact Hx|]. intros v Hin. apply Hv. cbn. apply in_or_app. right. apply in_flat_map. exists x. split; assumption. }
  rewrite E. destruct o; try reflexivity. apply Hv. cbn. left. reflexivity.
Qed.
Lemma drun_cons : forall v e (t : list (string * exp)) I, drun ((v, e) :: t) I = drun t (fun w => if String.eqb w v then deval I e else I w).
Proof. reflexivity. Qed.
Lemma drun_known : forall (ls : list (string * exp)) known I v, well_scoped known ls -> In v known -> drun ls I v = I v.
Proof.
  induction ls as [|[w e] t IH]; intros known I v H Hv; [reflexivity|]. cbn in H. destruct H as (N & _ & H). rewrite drun_cons.
  rewrite (IH (w :: known)); [|exact H|right; exact Hv]. destruct (String.eqb_spec v w); [subst; contradiction|reflexivity].
Qed.
Lemma drun_sat : forall (ls : list (string * exp)) known I, well_scoped known ls -> forall v e, In (v, e) ls -> drun ls I v = deval (drun ls I) e.
Proof.
  induction ls as [|[w e0] t IH]; intros known I H v e Hin; [destruct Hin|]. cbn in H. destruct H as (N & Hi & H). rewrite drun_cons. destruct Hin as [Hin|Hin].
  - injection Hin as <- <-. rewrite (drun_known t (w :: known)); [|exact H|left; reflexivity]. rewrite String.eqb_refl. apply deval_agree.
    intros u Hu. apply Hi in Hu. rewrite (drun_known t (w :: known)); [|exact H|right; exact Hu]. destruct (String.eqb_spec u w); [subst; contradiction|reflexivity].
  - exact (IH (w :: known) _ H v e Hin).
Qed.
Definition dsat (J : string -> double) (b : bst) : Prop := forall v e, In (v, e) (lines G b) -> J v = deval J e.
Lemma dsat_prefix : forall J a b, prefix G a b -> dsat J b -> dsat J a.
Proof. intros J a b [l H] S v e Hin. apply S. rewrite H. apply in_or_app. left. exact Hin. Qed.
Variable S : list exp.
Hypothesis Sinj : forall e1 e2, In e1 S -> In e2 S -> sig_of e1 = sig_of e2 -> e1 = e2.
Definition dlets (J : string -> double) (b : bst) : Prop := forall s v, In (s, v) (lets G b) -> exists x, In x S /\ sig_of x = s /\ deval J v = deval J x.
Lemma now_dvalue : forall J p e b v b', now G p e b = Ok (v, b') -> dsat J b' -> deval J v = deval J e.
Proof.
  intros J p e b v b' H HS. destruct (now_ok G p e b) as (s & _ & E). rewrite E in H. injection H as <- <-. cbn. apply HS. cbn. apply in_or_app. right. left. reflexivity.
Qed.
Lemma compute_dvalue : forall J e b y b', compute G e b = Ok (y, b') -> incl (subs e) S ->
  prefix G b b' /\ (dsat J b' -> dlets J b -> deval J y = deval J e /\ dlets J b').
Proof.
  intros J e. induction e as [o l s IH] using exp_ind'. intros b y b' H Hs. rewrite compute_eq in H.
  assert (Se : In (E o l s) S) by (apply Hs; left; reflexivity).
  destruct (lookup G (lets G b) s) as [v|] eqn:L.
  { injection H as <- <-. split; [apply prefix_refl|]. intros Hsat Hl. split; [|exact Hl].
    destruct (Hl _ _ (lookup_in G _ _ _ _ L)) as (x & Sx & Gx & ->). f_equal. apply Sinj; [exact Sx|exact Se|exact Gx]. }
  destruct (lookup G (counts G b) s) as [c|]; [|discriminate].
  assert (C : forall l b ys b1, Forall (fun e => forall b y b', compute G e b = Ok (y, b') -> incl (subs e) S ->
      prefix G b b' /\ (dsat J b' -> dlets J b -> deval J y = deval J e /\ dlets J b')) l -> incl (flat_map subs l) S -> clist G l b = Ok (ys, b1) ->
      prefix G b b1 /\ (dsat J b1 -> dlets J b -> map (deval J) ys = map (deval J) l /\ dlets J b1)).
  { clear. induction l as [|x t IHt]; intros b ys b1 HFo Hi H; cbn [clist] in H.
    - injection H as <- <-. split; [apply prefix_refl|]. auto.
    - inversion HFo as [|? ? Hx Ht]; subst. cbn [flat_map] in Hi. destruct (compute G x b) as [[y b2]| |] eqn:E1; try discriminate. cbn [bind] in H.
      destruct (clist G t b2) as [[ys2 b3]| |] eqn:E2; try discriminate. injection H as <- <-.
      destruct (Hx _ _ _ E1 (fun z Hz => Hi z (in_or_app _ _ _ (or_introl Hz)))) as [P1 V1].
      destruct (IHt _ _ _ Ht (fun z Hz => Hi z (in_or_app _ _ _ (or_intror Hz))) E2) as [P2 V2].
      split; [eapply prefix_trans; eassumption|]. intros HS HL. destruct (V1 (dsat_prefix _ _ _ P2 HS) HL) as [A1 A2]. destruct (V2 HS A2) as [A3 A4].
      split; [cbn; congruence|exact A4]. }
  destruct (clist G l b) as [[ys b1]| |] eqn:Ec; try discriminate. cbn [bind] in H.
  destruct (C l b ys b1 IH (fun z Hz => Hs z (or_intror Hz)) Ec) as [P1 V1]. clear C.
  assert (Ve : map (deval J) ys = map (deval J) l -> deval J (E o ys s) = deval J (E o l s)) by (intros Q; cbn [deval]; rewrite Q; reflexivity).
  destruct (fast_op o || (c =? 1)).
  { injection H as <- <-. split; [exact P1|]. intros HS HL. destruct (V1 HS HL) as [A1 A2]. split; [apply Ve; exact A1|exact A2]. }
  destruct (now G "t" (E o ys s) b1) as [[v b2]| |] eqn:En; try discriminate. cbn [bind] in H. injection H as <- <-.
  destruct (now_prefix G _ _ _ _ _ En) as (P2 & L2 & _). split; [eapply prefix_trans; [exact P1|exact P2]|]. intros HS HL.
  assert (HS2 : dsat J b2) by exact HS. destruct (V1 (dsat_prefix _ _ _ P2 HS2) HL) as [A1 A2].
  assert (Vv : deval J v = deval J (E o l s)) by (rewrite (now_dvalue J _ _ _ _ _ En HS2); apply Ve; exact A1).
  split; [exact Vv|]. intros k w [Hk|Hk].
  - injection Hk as <- <-. exists (E o l s). split; [exact Se|]. split; [reflexivity|exact Vv].
  - apply A2. rewrite <- L2. exact Hk.
Qed.
(** A whole list. *)
Lemma computes_dvalue : forall J l b ys b', g_computes G l b = Ok (ys, b') -> incl (flat_map subs l) S ->
  prefix G b b' /\ (dsat J b' -> dlets J b -> map (deval J) ys = map (deval J) l /\ dlets J b').
Proof.
  intros J. induction l as [|x t IHt]; intros b ys b1 H Hi; cbn [g_computes] in H.
  - injection H as <- <-. split; [apply prefix_refl|]. auto.
  - cbn [flat_map] in Hi. destruct (compute G x b) as [[y b2]| |] eqn:E1; try discriminate. cbn [bind] in H.
    destruct (g_computes G t b2) as [[ys2 b3]| |] eqn:E2; try discriminate. injection H as <- <-.
    destruct (compute_dvalue J _ _ _ _ E1 (fun z Hz => Hi z (in_or_app _ _ _ (or_introl Hz)))) as [P1 V1].
    destruct (IHt _ _ _ E2 (fun z Hz => Hi z (in_or_app _ _ _ (or_intror Hz)))) as [P2 V2].
    split; [eapply prefix_trans; eassumption|]. intros HS HL. destruct (V1 (dsat_prefix _ _ _ P2 HS) HL) as [A1 A2]. destruct (V2 HS A2) as [A3 A4].
    split; [cbn; congruence|exact A4].
Qed.
Lemma computes_scoped : forall l ins b ys b', g_computes G l b = Ok (ys, b') -> scoped_b G ins b -> incl (flat_map vars l) (names G b) ->
  scoped_b G ins b' /\ incl (flat_map vars ys) (names G b') /\ incl (names G b) (names G b').
Proof.
  induction l as [|x t IHt]; intros ins b ys b1 H HB Hi; cbn [g_computes] in H.
  - injection H as <- <-. split; [exact HB|]. split; [intros u []|apply incl_refl].
  - cbn [flat_map] in Hi. destruct (compute G x b) as [[y b2]| |] eqn:E1; try discriminate. cbn [bind] in H.
    destruct (g_computes G t b2) as [[ys2 b3]| |] eqn:E2; try discriminate. injection H as <- <-.
    destruct (compute_scoped G _ _ _ _ _ E1 HB (fun z Hz => Hi z (in_or_app _ _ _ (or_introl Hz)))) as (A1 & A2 & A3).
    destruct (IHt _ _ _ _ E2 A1 (fun z Hz => A3 z (Hi z (in_or_app _ _ _ (or_intror Hz))))) as (B1 & B2 & B3).
    split; [exact B1|]. split; [|eapply incl_tran; eassumption]. cbn. intros u Hu. apply in_app_or in Hu. destruct Hu as [Hu|Hu]; [apply B3, A2, Hu|apply B2, Hu].
Qed.
Lemma uses_same : forall l b, let b' := fold_left (fun b e => use G e b) l b in names G b' = names G b /\ lets G b' = lets G b /\ lines G b' = lines G b.
Proof. induction l as [|x t IH]; intros b; cbn; [auto|]. destruct (IH (use G x b)) as (-> & -> & ->). apply use_same. Qed.
Lemma inputs_scoped : forall draw l ins b b', g_inputs G draw l b = Ok b' -> scoped_b G ins b -> lines G b = [] -> lets G b = [] -> scoped_b G (rev l ++ ins) b' /\ lines G b' = [] /\ lets G b' = [].
Proof.
  intros draw. induction l as [|v t IH]; intros ins b b' H HB HL Ht; cbn [g_inputs] in H.
  - injection H as <-. auto.
  - unfold input in H. destruct (existsb (String.eqb v) (names G b)) eqn:Ex; [discriminate|]. cbn in H.
    destruct (IH (v :: ins) _ _ H) as (A & B & C); [|exact HL|exact Ht|].
    + destruct HB as (W & N & L). split; [|split]; cbn; rewrite ?HL; [exact Logic.I| |intros s w Hw; rewrite Ht in Hw; destruct Hw].
      intros n. rewrite N, HL. cbn. tauto.
    + cbn. rewrite <- app_assoc. auto.
Qed.
End Block.

(** ** Building expressions *)
Section Tri.
Variables (G : SigOps) (I : string -> double) (ins L : list (exp G)).
Notation exp := (exp G).
Notation M := (M G).
(** [L]: everything offered to the table in the end.  No signature is mistaken for another. *)
Hypothesis Lsmall : forall e, In e L -> sg_unsmall G (sig_of e) = None.
Hypothesis Linj : forall a b, In a L -> In b L -> sig_of a = sig_of b -> a = b.
Definition tri {A} (m : M A) (Q : A -> Prop) : Prop :=
  forall st a st', Inv st -> exact G st = false -> m st = Ok (a, st') -> Inv st' /\ ext st st' /\ exact G st' = false /\ (incl (lg G st') L -> Q a).
Lemma tri_ret : forall A (a : A) (Q : A -> Prop), Q a -> tri (ret G a) Q.
Proof. intros A a Q H st b st' HI Hx E. injection E as <- <-. split; [exact HI|]. split; [apply ext_refl|]. split; [exact Hx|]. intros _. exact H. Qed.
Lemma tri_bind : forall A B (m : M A) (k : A -> M B) (Q : A -> Prop) (Q' : B -> Prop), tri m Q -> (forall a, tri (k a) (fun b => Q a -> Q' b)) -> tri (mbind G m k) Q'.
Proof.
  intros A B m k Q Q' Hm Hk st b st' HI Hx E. unfold mbind in E. destruct (m st) as [[a st1]| |] eqn:E1; try discriminate. cbn [bind] in E.
  destruct (Hm _ _ _ HI Hx E1) as (I1 & X1 & F1 & V1). destruct (Hk a _ _ _ I1 F1 E) as (I2 & X2 & F2 & V2).
  split; [exact I2|]. split; [eapply ext_trans; eassumption|]. split; [exact F2|]. intros H. apply V2; [exact H|]. apply V1. eapply incl_tran; [apply X2|exact H].
Qed.
Lemma tri_weak : forall A (m : M A) (Q Q' : A -> Prop), tri m Q -> (forall a, Q a -> Q' a) -> tri m Q'.
Proof. intros A m Q Q' H K st a st' HI Hx E. destruct (H _ _ _ HI Hx E) as (A1 & A2 & A3 & A4). split; [exact A1|]. split; [exact A2|]. split; [exact A3|]. auto. Qed.
Lemma tri_lift : forall A B (r : res A) (k : A -> M B) (Q : B -> Prop), (forall a, r = Ok a -> tri (k a) Q) -> tri (mbind G (lift G r) k) Q.
Proof. intros A B r k Q H st b st' HI Hx E. unfold mbind, lift in E. destruct r as [a| |]; try discriminate. cbn [bind] in E. exact (H a eq_refl _ _ _ HI Hx E). Qed.
Lemma tri_fail : forall A (Q : A -> Prop), tri (fun _ => UB) Q.
Proof. intros A Q st a st' _ _ E. discriminate E. Qed.
Lemma tri_cse : forall o args s, tri (cse G o args s) (fun r => r = E o args (node_arb G o args s) /\ (fast_op o = false -> In r L)).
Proof.
  intros o args s st r st' HI Hx E. unfold cse in E. rewrite Hx in E. set (n := ExpModel.E o args (node_arb G o args s)) in *. unfold cse_exp in E. cbn [op_of] in E.
  change (op_of n) with o in E. destruct (fast_op o) eqn:Fo.
  - injection E as <- <-. split; [exact HI|]. split; [apply ext_refl|]. split; [exact Hx|]. intros _. split; [reflexivity|discriminate].
  - cbn [tbl lg exact] in E. destruct (sg_unsmall G (sig_of n)) as [k|] eqn:U.
    + injection E as <- <-. cbn [lg exact]. split; [intros t e He; cbn [tbl lg] in *; destruct (HI t e He) as (A & B & C); split; [exact A|split; [right; exact B|exact C]]|].
      split; [split; [apply incl_tl, incl_refl|auto]|]. split; [exact Hx|]. intros H. rewrite (Lsmall n) in U; [discriminate|]. apply H. left. reflexivity.
    + destruct (lookup G (tbl G st) (sig_of n)) as [e'|] eqn:Lk.
      * destruct (HI _ _ (lookup_in G _ _ _ _ Lk)) as (A & B & C). injection E as <- <-. cbn [lg exact].
        split; [intros t e He; cbn [tbl lg] in *; destruct (HI t e He) as (A' & B' & C'); split; [exact A'|split; [right; exact B'|exact C']]|].
        split; [split; [apply incl_tl, incl_refl|auto]|]. split; [exact Hx|]. intros H. split; [|intros _; apply H; right; exact B].
        apply Linj; [apply H; right; exact B|apply H; left; reflexivity|exact A].
      * injection E as <- <-. cbn [lg exact]. split.
        { intros t e He. cbn [tbl lg] in *. destruct He as [He|He]; [injection He as <- <-; split; [reflexivity|split; [left; reflexivity|exact Fo]]|].
          destruct (HI t e He) as (A' & B' & C'); split; [exact A'|split; [right; exact B'|exact C']]. }
        split; [split; [apply incl_tl, incl_refl|]; intros t e Ht; change (lookup G ((sig_of n, n) :: tbl G st) t = Some e); rewrite lookup_cons; destruct (sg_eqb G (sig_of n) t) eqn:Q; [apply sg_eqb_ok in Q; subst t; congruence|exact Ht]|].
        split; [exact Hx|]. intros H. split; [reflexivity|]. intros _. apply H. left. reflexivity.
Qed.

(** Not a number and not the negation of a number or a negation. *)
Definition plain (e : exp) : Prop := match op_of e with OInt _ | ONeg | OField _ => False | _ => True end.
Definition nz (e : exp) : Prop := plain e \/ exists x, e = E ONeg [x] (sg_neg G (sig_of x)) /\ plain x.
(** Every node was offered to the table, is an input or a negation. *)
Definition kept (x : exp) : Prop := nz x /\ (fast_op (op_of x) = false -> In x L) /\ (forall v, op_of x = OVar v -> In x ins).
Definition good (e : exp) : Prop := forall x, In x (subs e) -> kept x.
Lemma good_nz : forall e, good e -> nz e. Proof. intros e H. apply (H e). destruct e. left. reflexivity. Qed.
Lemma good_make : forall o args s, (forall x, In x args -> good x) -> kept (E o args s) -> good (E o args s).
Proof. intros o args s Ha Hk x [<-|Hx]; [exact Hk|]. apply in_flat_map in Hx. destruct Hx as (y & Hy & Hx). exact (Ha y Hy x Hx). Qed.
Lemma plain_node : forall o args s, fast_op o = false -> plain (E o args s). Proof. intros o args s H. unfold plain. cbn. destruct o; cbn in H; try discriminate H; exact Logic.I. Qed.
Lemma good_node : forall o args s, fast_op o = false -> (forall x, In x args -> good x) -> In (E o args s) L -> good (E o args s).
Proof.
  intros o args s Fo Ha Hi. apply good_make; [exact Ha|]. split; [left; apply plain_node; exact Fo|]. split; [intros _; exact Hi|]. intros v Hv. cbn in Hv. subst o. discriminate Fo.
Qed.
(** The value of an expression, up to the sign of zeros. *)
Definition R (e : exp) (v : double) : Prop := good e /\ unsigned (deval I e) = unsigned v.
Lemma R_ext : forall e v w, unsigned v = unsigned w -> R e v -> R e w. Proof. intros e v w H [A B]. split; [exact A|congruence]. Qed.

Lemma tri_neg : forall e, tri (ExpModel.exp_neg G e) (fun r => forall v, R e v -> R r (dneg v)).
Proof.
  intros e. unfold ExpModel.exp_neg. destruct (unint G e) as [n|] eqn:U.
  - apply tri_lift. intros m _. apply tri_ret. intros v [H _]. exfalso. apply good_nz in H. destruct e as [o l s]. unfold unint in U. cbn in U. destruct o; try discriminate.
    destruct H as [H|(x & H & _)]; [exact H|discriminate H].
  - apply tri_lift. intros u Hu. destruct u as [x|].
    + apply tri_ret. intros v [H V]. destruct (good_nz _ H) as [Hp|(y & -> & Hy)].
      * exfalso. destruct e as [o l s]. unfold plain in Hp. cbn in Hp. destruct o; try contradiction; discriminate Hu.
      * cbn in Hu. injection Hu as <-. split; [intros z Hz; apply H; right; cbn [flat_map]; rewrite app_nil_r; exact Hz|].
        cbn [deval dop map] in V. rewrite <- (neg_neg (deval I y)). apply uns_neg. exact V.
    + eapply tri_weak; [apply tri_cse|]. intros r [-> _] v [H V]. destruct (good_nz _ H) as [Hp|(y & -> & Hy)]; [|discriminate Hu].
      split; [|cbn [deval dop map]; apply uns_neg; exact V]. apply good_make; [intros x [<-|[]]; exact H|].
      split; [right; exists e; split; [reflexivity|exact Hp]|]. split; [discriminate|intros v0; discriminate].
Qed.
Lemma unneg_R : forall e u v, unneg G e = Ok u -> R e v -> match u with Some x => exists w, R x w /\ unsigned v = unsigned (dneg w) | None => True end.
Proof.
  intros e u v Hu [H V]. destruct u as [x|]; [|exact Logic.I]. destruct (good_nz _ H) as [Hp|(y & -> & Hy)].
  - exfalso. destruct e as [o l s]. unfold plain in Hp. cbn in Hp. destruct o; try contradiction; discriminate Hu.
  - cbn in Hu. injection Hu as <-. exists (deval I y). split; [split; [intros z Hz; apply H; right; cbn [flat_map]; rewrite app_nil_r; exact Hz|reflexivity]|]. symmetry. exact V.
Qed.
Lemma R_not_int : forall e v n, R e v -> is_int G n e = true -> False.
Proof.
  intros e v n [H _] Q. apply good_nz in H. destruct e as [o l s]. unfold is_int, unint in Q. cbn in Q. destruct o; try discriminate. destruct H as [H|(x & H & _)]; [exact H|discriminate H].
Qed.
Lemma tri_addsub : forall fuel sub x y, tri (addsub G fuel sub x y) (fun r => forall a b, R x a -> R y b -> R r (if sub then dsub a b else dadd a b)).
Proof.
  induction fuel as [|f IH]; intros sub x y; [apply tri_fail|]. cbn [addsub].
  destruct (is_int G 0 x) eqn:Zx.
  { destruct sub; [eapply tri_weak; [apply tri_neg|]; intros r _ a b Ha|apply tri_ret; intros a b Ha]; destruct (R_not_int _ _ _ Ha Zx). }
  destruct (is_int G 0 y) eqn:Zy; [apply tri_ret; intros a b _ Hb; destruct (R_not_int _ _ _ Hb Zy)|].
  apply tri_lift. intros [nx|] Hx.
  { destruct sub.
    - eapply tri_bind; [apply (IH false nx y)|]. intros r. eapply tri_weak; [apply tri_neg|]. intros r' Hr' Hr a b Ha Hb.
      destruct (unneg_R _ _ _ Hx Ha) as (w & Hw & E). apply (R_ext _ (dneg (dadd w b))); [|apply Hr', Hr; assumption].
      rewrite sub_add, neg_add. apply uns_add; [symmetry; exact E|reflexivity].
    - eapply tri_weak; [apply (IH true y nx)|]. intros r Hr a b Ha Hb. destruct (unneg_R _ _ _ Hx Ha) as (w & Hw & E).
      apply (R_ext _ (dsub b w)); [|apply Hr; assumption]. rewrite sub_add, add_comm. apply uns_add; [symmetry; exact E|reflexivity]. }
  apply tri_lift. intros [ny|] Hy.
  { eapply tri_weak; [apply (IH (negb sub) x ny)|]. intros r Hr a b Ha Hb. destruct (unneg_R _ _ _ Hy Hb) as (w & Hw & E). specialize (Hr a w Ha Hw).
    eapply R_ext; [|exact Hr]. destruct sub; cbn [negb].
    - rewrite sub_add. apply uns_add; [reflexivity|]. apply uns_neg in E. rewrite neg_neg in E. symmetry. exact E.
    - rewrite sub_add. apply uns_add; [reflexivity|]. symmetry. exact E. }
  assert (K : forall o s f, o = OAdd \/ o = OSub -> (forall u v, dop o [u; v] = f u v) -> (forall a a' b b', unsigned a = unsigned a' -> unsigned b = unsigned b' -> unsigned (f a b) = unsigned (f a' b')) ->
     tri (cse G o [x; y] s) (fun r => forall a b, R x a -> R y b -> R r (f a b))).
  { intros o s f0 Ho Hd Hf. assert (Fo : fast_op o = false) by (destruct Ho as [-> | ->]; reflexivity). eapply tri_weak; [apply tri_cse|]. intros r [-> Hi] a b [Ga Va] [Gb Vb]. split.
    - apply good_node; [exact Fo|intros z [<-|[<-|[]]]; assumption|exact (Hi Fo)].
    - replace (deval I (E o [x; y] (node_arb G o [x; y] s))) with (f0 (deval I x) (deval I y)); [apply Hf; assumption|]. rewrite <- Hd. destruct Ho as [-> | ->]; reflexivity. }
  destruct sub; apply K; auto; intros; [apply uns_sub|apply uns_add]; assumption.
Qed.
Lemma tri_add : forall x y, tri (exp_add G x y) (fun r => forall a b, R x a -> R y b -> R r (dadd a b)). Proof. intros x y. apply (tri_addsub _ false). Qed.
Lemma tri_sub : forall x y, tri (exp_sub G x y) (fun r => forall a b, R x a -> R y b -> R r (dsub a b)). Proof. intros x y. apply (tri_addsub _ true). Qed.
Lemma tri_mul : forall x y, tri (exp_mul G x y) (fun r => forall a b, R x a -> R y b -> R r (dmul a b)).
Proof.
  intros x y. unfold exp_mul. generalize (weight G x + weight G y). intros fuel. revert x y. induction fuel as [|f IH]; intros x y; [apply tri_fail|]. cbn [mul_fuel].
  destruct (is_int G 0 x || is_int G 0 y) eqn:Z0.
  { apply tri_ret. intros a b Ha Hb. apply orb_prop in Z0. destruct Z0 as [Z0|Z0]; [destruct (R_not_int _ _ _ Ha Z0)|destruct (R_not_int _ _ _ Hb Z0)]. }
  apply tri_lift. intros [nx|] Hx.
  { eapply tri_bind; [apply (IH nx y)|]. intros r. eapply tri_weak; [apply tri_neg|]. intros r' Hr' Hr a b Ha Hb. destruct (unneg_R _ _ _ Hx Ha) as (w & Hw & E).
    apply (R_ext _ (dneg (dmul w b))); [|apply Hr', Hr; assumption]. rewrite <- mul_neg_l. apply uns_mul; [symmetry; exact E|reflexivity]. }
  apply tri_lift. intros [ny|] Hy.
  { eapply tri_bind; [apply (IH x ny)|]. intros r. eapply tri_weak; [apply tri_neg|]. intros r' Hr' Hr a b Ha Hb. destruct (unneg_R _ _ _ Hy Hb) as (w & Hw & E).
    apply (R_ext _ (dneg (dmul a w))); [|apply Hr', Hr; assumption]. rewrite <- mul_neg_r. apply uns_mul; [reflexivity|symmetry; exact E]. }
  destruct (is_int G 1 x) eqn:Ox; [apply tri_ret; intros a b Ha; destruct (R_not_int _ _ _ Ha Ox)|].
  destruct (is_int G 1 y) eqn:Oy; [apply tri_ret; intros a b _ Hb; destruct (R_not_int _ _ _ Hb Oy)|].
  eapply tri_weak; [apply tri_cse|]. intros r [-> Hi] a b [Ga Va] [Gb Vb]. split.
  - apply good_node; [reflexivity|intros z [<-|[<-|[]]]; assumption|exact (Hi eq_refl)].
  - cbn [deval dop map]. apply uns_mul; assumption.
Qed.
Lemma tri_fma : forall x y z s, tri (exp_fma G x y z s) (fun r => forall a b c, R x a -> R y b -> R z c -> R r (dfma a b c)).
Proof.
  intros x y z s. unfold exp_fma, exp_call. eapply tri_weak; [apply tri_cse|]. intros r [-> Hi] a b c [Ga Va] [Gb Vb] [Gc Vc]. split.
  - apply good_node; [reflexivity|intros w [<-|[<-|[<-|[]]]]; assumption|exact (Hi eq_refl)].
  - cbn [deval dop map dcall String.eqb Ascii.eqb Bool.eqb]. apply uns_fma; assumption.
Qed.
Lemma tri_par : forall A B lr (m : M A) (n : M B) (P : A -> Prop) (Q : B -> Prop), tri m P -> tri n Q -> tri (par G lr m n) (fun p => P (fst p) /\ Q (snd p)).
Proof.
  intros A B lr m n P Q Hm Hn. unfold par. destruct lr.
  - eapply tri_bind; [exact Hm|]. intros a. eapply tri_bind; [exact Hn|]. intros b. apply tri_ret. intros HQ HP. split; assumption.
  - eapply tri_bind; [exact Hn|]. intros b. eapply tri_bind; [exact Hm|]. intros a. apply tri_ret. intros HP HQ. split; assumption.
Qed.

(** ** The algorithms *)
Variables (sg0 : G) (lr : bool).
(** A literal zero, or a value. *)
Definition RO (e : exp) (o : option double) : Prop := match o with None => e = mkint 0 | Some v => R e v end.
Lemma RO_zero : forall e o, RO e o -> is_int G 0 e = match o with None => true | Some _ => false end.
Proof. intros e [v|] H; [|rewrite H; reflexivity]. destruct (is_int G 0 e) eqn:Q; [destruct (R_not_int _ _ _ H Q)|reflexivity]. Qed.
Definition R2 (p : exp * exp) (q : double * double) : Prop := R (fst p) (fst q) /\ R (snd p) (snd q).
Definition RO2 (p : exp * exp) (q : option double * option double) : Prop := RO (fst p) (fst q) /\ RO (snd p) (snd q).
Lemma tri_two_sum_o : forall a b, tri (g_two_sum G lr a b) (fun p => forall u v, RO a u -> RO b v -> RO2 p (two_sum_o u v)).
Proof.
  intros a b. unfold g_two_sum. destruct (is_int G 0 a) eqn:Za.
  { apply tri_ret. intros u v Hu Hv. rewrite (RO_zero _ _ Hu) in Za. destruct u; [discriminate|]. split; [exact Hv|reflexivity]. }
  destruct (is_int G 0 b) eqn:Zb.
  { apply tri_ret. intros u v Hu Hv. rewrite (RO_zero _ _ Hv) in Zb. destruct v; [discriminate|]. destruct u as [u|]; split; try exact Hu; reflexivity. }
  eapply tri_bind; [apply tri_add|]. intros x. eapply tri_bind; [apply tri_sub|]. intros v. eapply tri_bind.
  { apply (tri_par _ _ _ _ _ (fun r => forall u0 c d, R a u0 -> R x c -> R v d -> R r (dsub u0 (dsub c d)))); [|apply tri_sub].
    eapply tri_bind; [apply tri_sub|]. intros w. eapply tri_weak; [apply tri_sub|]. intros r Hr Hw u0 c d H1 H2 H3. apply Hr; [exact H1|]. apply Hw; assumption. }
  intros p. eapply tri_bind; [apply tri_add|]. intros y. apply tri_ret. intros Hy [Hp1 Hp2] Hv Hx u0 v0 Hu Hv0.
  rewrite (RO_zero _ _ Hu) in Za. rewrite (RO_zero _ _ Hv0) in Zb. destruct u0 as [u0|]; [|discriminate]. destruct v0 as [v0|]; [|discriminate]. cbn [RO] in Hu, Hv0.
  specialize (Hx _ _ Hu Hv0). specialize (Hv _ _ Hx Hu). unfold two_sum_o, two_sum. split; cbn [fst snd RO]; [exact Hx|]. apply Hy; [|apply Hp2; assumption].
  apply Hp1; assumption.
Qed.
Lemma tri_two_sum : forall a b, tri (g_two_sum G lr a b) (fun p => forall u v, R a u -> R b v -> R2 p (two_sum u v)).
Proof. intros a b. eapply tri_weak; [apply tri_two_sum_o|]. intros p H u v Hu Hv. exact (H (Some u) (Some v) Hu Hv). Qed.
Lemma tri_two_prod : forall a b, tri (g_two_prod G sg0 a b) (fun p => forall u v, R a u -> R b v -> R2 p (two_prod u v)).
Proof.
  intros a b. unfold g_two_prod. eapply tri_bind; [apply tri_mul|]. intros x. eapply tri_bind; [apply tri_neg|]. intros n. eapply tri_bind; [apply tri_fma|]. intros y. apply tri_ret.
  intros Hy Hn Hx u v Hu Hv. specialize (Hx _ _ Hu Hv). split; cbn [fst snd two_prod]; [exact Hx|]. apply Hy; [exact Hu|exact Hv|]. apply Hn. exact Hx.
Qed.
Lemma tri_insert : forall state t, tri (g_insert G lr t state) (fun r => forall v vs, R t v -> Forall2 R state vs -> Forall2 R r (insert v vs)).
Proof.
  induction state as [|s state IH]; intros t; cbn [g_insert].
  - apply tri_ret. intros v vs Hv H. inversion H; subst. cbn. constructor; [exact Hv|constructor].
  - eapply tri_bind; [apply tri_two_sum|]. intros p. eapply tri_bind; [apply IH|]. intros r. apply tri_ret. intros Hr Hp v vs Hv H. inversion H as [|? w ? ws Hw Hws]; subst.
    destruct (Hp _ _ Hv Hw) as [P1 P2]. cbn [insert]. destruct (two_sum v w) as [a b]. constructor; [exact P1|]. apply Hr; assumption.
Qed.
Lemma tri_add_state : forall rest, tri (g_add_state G lr rest) (fun r => forall vs, Forall2 R rest vs -> Forall2 R r (add_state vs)).
Proof.
  unfold g_add_state, add_state. assert (K : forall rest state, tri (mfold G (fun state t => g_insert G lr t state) rest state)
    (fun r => forall vs ws, Forall2 R state ws -> Forall2 R rest vs -> Forall2 R r (fold_left (fun s t => insert t s) vs ws))).
  { induction rest as [|t rest IH]; intros state; cbn [mfold].
    - apply tri_ret. intros vs ws Hw H. inversion H; subst. exact Hw.
    - eapply tri_bind; [apply tri_insert|]. intros s1. eapply tri_weak; [apply IH|]. intros r Hr H1 vs ws Hw H. inversion H as [|? v ? vs' Hv Hvs]; subst. cbn [fold_left]. apply Hr; [|exact Hvs]. apply H1; assumption. }
  intros rest. eapply tri_weak; [apply K|]. intros r Hr vs H. apply Hr; [constructor|exact H].
Qed.
Lemma R_interleave : forall x y a b, Forall2 R x a -> Forall2 R y b -> Forall2 R (g_interleave G x y) (interleave a b).
Proof.
  intros x y a b H. revert y b. induction H as [|e v x a Hv _ IH]; intros y b H2; [constructor|]. destruct H2 as [|f w y b Hw H2]; cbn; [constructor|]. constructor; [exact Hv|]. constructor; [exact Hw|]. apply IH. exact H2.
Qed.
Lemma F2_len : forall A B (P : A -> B -> Prop) l m, Forall2 P l m -> length l = length m.
Proof. intros A B P l m H. induction H; cbn; congruence. Qed.
Lemma F2_firstn : forall A B (P : A -> B -> Prop) n l m, Forall2 P l m -> Forall2 P (firstn n l) (firstn n m).
Proof. intros A B P n l m H. revert n. induction H as [|a b l m Hab _ IH]; intros [|n]; cbn; constructor; auto. Qed.
(** A result of the generator and a result of the algorithm. *)
Lemma tri_collange_add : forall x y, tri (g_add G lr x y) (fun r => forall a b, Forall2 R x a -> Forall2 R y b -> exists c, collange_add a b = Ok c /\ Forall2 R r c).
Proof.
  intros x y. unfold g_add. apply tri_lift. intros [] H1. eapply tri_bind; [apply tri_add_state|]. intros st. apply tri_lift. intros [] H2. apply tri_ret. intros Hst a b Ha Hb.
  pose proof (F2_len _ _ _ _ _ Ha) as La. pose proof (F2_len _ _ _ _ _ Hb) as Lb. specialize (Hst _ (R_interleave _ _ _ _ Ha Hb)). pose proof (F2_len _ _ _ _ _ Hst) as Ls.
  unfold collange_add. rewrite <- La, <- Lb, <- Ls. rewrite H1. cbn [bind]. rewrite H2. cbn [bind]. eexists. split; [reflexivity|]. apply F2_firstn. exact Hst.
Qed.
Lemma tri_negs : forall x, tri (g_negs G x) (fun r => forall a, Forall2 R x a -> Forall2 R r (exp_neg a)).
Proof.
  induction x as [|e x IH]; cbn [g_negs].
  - apply tri_ret. intros a H. inversion H; subst. constructor.
  - eapply tri_bind; [apply tri_neg|]. intros n. eapply tri_bind; [exact IH|]. intros r. apply tri_ret. intros Hr Hn a H. inversion H as [|? v ? vs Hv Hvs]; subst. cbn [exp_neg map]. constructor; [apply Hn; exact Hv|]. apply Hr. exact Hvs.
Qed.
Lemma tri_collange_sub : forall x y, tri (g_sub G lr x y) (fun r => forall a b, Forall2 R x a -> Forall2 R y b -> exists c, collange_sub a b = Ok c /\ Forall2 R r c).
Proof.
  intros x y. unfold g_sub. eapply tri_bind; [apply tri_negs|]. intros n. eapply tri_weak; [apply tri_collange_add|]. intros r Hr Hn a b Ha Hb. apply Hr; [exact Ha|]. apply Hn. exact Hb.
Qed.
Lemma tri_mul_row : forall x yi s, tri (g_mul_row G sg0 lr x yi s) (fun r => forall a b t, Forall2 R x a -> R yi b -> Forall2 RO s t ->
   Forall2 RO (fst (fst r)) (fst (fst (mul_row a b t))) /\ Forall2 RO (snd (fst r)) (snd (fst (mul_row a b t))) /\ Forall2 RO (snd r) (snd (mul_row a b t))).
Proof.
  assert (N : forall x s a t, Forall2 R x a -> Forall2 RO s t -> x = [] \/ s = [] -> forall b, mul_row a b t = ([], [], [])).
  { intros x s a t Ha Ht [-> | ->] b; [inversion Ha; subst; reflexivity|]. inversion Ht; subst. destruct a; reflexivity. }
  assert (Z : forall x s yi, x = [] \/ s = [] -> tri (ret G ([], [], [])) (fun r => forall a b t, Forall2 R x a -> R yi b -> Forall2 RO s t ->
   Forall2 RO (fst (fst r)) (fst (fst (mul_row a b t))) /\ Forall2 RO (snd (fst r)) (snd (fst (mul_row a b t))) /\ Forall2 RO (snd r) (snd (mul_row a b t)))).
  { intros x s yi H. apply tri_ret. intros a b t Ha _ Ht. rewrite (N x s a t Ha Ht H b). cbn. auto. }
  induction x as [|xj x IH]; intros yi s; cbn [g_mul_row]; [apply Z; auto|]. destruct s as [|sj s]; [apply Z; auto|].
  eapply tri_bind; [apply tri_two_prod|]. intros p. eapply tri_bind; [apply tri_two_sum_o|]. intros q. eapply tri_bind; [apply IH|]. intros r. apply tri_ret.
  intros Hr Hq Hp a b t Ha Hb Ht. inversion Ha as [|? va ? a' Hva Ha']; subst. inversion Ht as [|? vt ? t' Hvt Ht']; subst. destruct (Hp _ _ Hva Hb) as [P1 P2]. specialize (Hq vt (Some (fst (two_prod va b))) Hvt P1). destruct Hq as [Q1 Q2].
  destruct (Hr a' b t' Ha' Hb Ht') as (R1 & R2' & R3). cbn [mul_row]. destruct (two_prod va b) as [pp ee]. cbn [fst snd] in *. destruct (two_sum_o vt (Some pp)) as [ss tt]. destruct (mul_row a' b t') as [[u1 u2] u3]. cbn [fst snd] in *.
  split; [|split]; constructor; assumption.
Qed.
Lemma tri_two_sums : forall s e, tri (g_two_sums G lr s e) (fun r => forall t f, Forall2 RO s t -> Forall2 RO e f -> Forall2 RO (fst r) (fst (two_sums t f)) /\ Forall2 RO (snd r) (snd (two_sums t f))).
Proof.
  induction s as [|sj s IH]; intros e; cbn [g_two_sums]; [apply tri_ret; intros t f Ht _; inversion Ht; subst; cbn; auto|].
  destruct e as [|ej e]; [apply tri_ret; intros t f _ Hf; inversion Hf; subst; destruct t; cbn; auto|].
  eapply tri_bind; [apply tri_two_sum_o|]. intros p. eapply tri_bind; [apply IH|]. intros r. apply tri_ret. intros Hr Hp t f Ht Hf.
  inversion Ht as [|? vt ? t' Hvt Ht']; subst. inversion Hf as [|? vf ? f' Hvf Hf']; subst. destruct (Hp _ _ Hvt Hvf) as [P1 P2]. destruct (Hr _ _ Ht' Hf') as [R1 R2']. cbn [two_sums].
  destruct (two_sum_o vt vf) as [a b]. destruct (two_sums t' f') as [c d]. cbn [fst snd] in *. split; constructor; assumption.
Qed.
Lemma RO_any : forall e f, Forall2 RO e f -> g_any G e = any f.
Proof. intros e f H. induction H as [|a b e f Hab _ IH]; [reflexivity|]. unfold g_any, any in *. cbn [existsb]. rewrite (RO_zero _ _ Hab), IH. destruct b; reflexivity. Qed.
Lemma F2_removelast : forall A B (P : A -> B -> Prop) l m, Forall2 P l m -> Forall2 P (removelast l) (removelast m).
Proof. intros A B P l m H. induction H as [|a b l m Hab H IH]; [constructor|]. cbn. destruct H; [constructor|]. constructor; [exact Hab|exact IH]. Qed.
Lemma tri_sweep : forall fuel s e, tri (g_sweep G lr fuel s e) (fun r => forall t f drop, Forall2 RO s t -> Forall2 RO e f -> exists t' drop', sweep fuel t f drop = Ok (t', drop') /\ Forall2 RO r t').
Proof.
  induction fuel as [|n IH]; intros s e; cbn [g_sweep].
  - destruct (g_any G e) eqn:Q; [apply tri_fail|]. apply tri_ret. intros t f drop Ht Hf. rewrite (RO_any _ _ Hf) in Q. cbn [sweep]. rewrite Q. eauto.
  - destruct (g_any G e) eqn:Q.
    + eapply tri_bind; [apply tri_two_sums|]. intros p. eapply tri_weak; [apply IH|]. intros r Hr Hp t f drop Ht Hf. destruct (Hp _ _ Ht Hf) as [P1 P2]. rewrite (RO_any _ _ Hf) in Q. cbn [sweep]. rewrite Q.
      destruct (two_sums t f) as [t1 f1]. cbn [fst snd] in *. apply Hr; [exact P1|]. constructor; [reflexivity|]. apply F2_removelast. exact P2.
    + apply tri_ret. intros t f drop Ht Hf. rewrite (RO_any _ _ Hf) in Q. cbn [sweep]. rewrite Q. eauto.
Qed.
Lemma F2_app : forall A B (P : A -> B -> Prop) l m l' m', Forall2 P l m -> Forall2 P l' m' -> Forall2 P (l ++ l') (m ++ m').
Proof. intros A B P l m l' m' H1 H2. apply Forall2_app; assumption. Qed.
Lemma tri_mul_rows : forall ys x s pi, tri (g_mul_rows G sg0 lr x ys s pi) (fun r => forall a b t q drop, Forall2 R x a -> Forall2 R ys b -> Forall2 RO s t -> Forall2 RO pi q ->
   exists q' drop', mul_rows a b t q drop = Ok (q', drop') /\ Forall2 RO r q').
Proof.
  induction ys as [|yi ys IH]; intros x s pi; cbn [g_mul_rows].
  - apply tri_ret. intros a b t q drop _ Hb _ Hq. inversion Hb; subst. cbn [mul_rows]. eauto.
  - eapply tri_bind; [apply tri_mul_row|]. intros r. destruct (fst (fst r)) as [|s0 s'] eqn:Es; [apply tri_fail|].
    eapply tri_bind; [apply tri_sweep|]. intros s1. eapply tri_bind; [apply tri_sweep|]. intros s2. eapply tri_weak; [apply IH|].
    intros r' Hr' H2 H1 Hr a b t q drop Ha Hb Ht Hq. inversion Hb as [|? vb ? b' Hvb Hb']; subst. destruct (Hr _ _ _ Ha Hvb Ht) as (A1 & A2 & A3). cbn [mul_rows]. rewrite <- (F2_len _ _ _ _ _ Ha).
    destruct (mul_row a vb t) as [[u1 u2] u3]. cbn [fst snd] in *. try rewrite Es in A1. destruct u1 as [|w0 w]; [inversion A1|]. assert (Hw0 : RO s0 w0) by (inversion A1; assumption). assert (Hw : Forall2 RO s' w) by (inversion A1; assumption).
    destruct (H1 (w ++ [None]) u2 drop) as (t1 & d1 & E1 & B1); [apply F2_app; [exact Hw|constructor; [reflexivity|constructor]]|exact A2|]. rewrite E1. cbn [bind].
    destruct (H2 t1 u3 d1 B1 A3) as (t2 & d2 & E2 & B2). rewrite E2. cbn [bind]. apply Hr'; [exact Ha|exact Hb'|exact B2|]. apply F2_app; [exact Hq|]. constructor; [exact Hw0|constructor].
Qed.
Lemma RO_repeat : forall n, Forall2 RO (repeat (mkint 0) n) (repeat None n).
Proof. induction n; cbn; constructor; auto. reflexivity. Qed.
(** A component of a product may be a literal zero. *)
Definition R0 (e : exp) (v : double) : Prop := (e = mkint 0 /\ v = dzero) \/ R e v.
Lemma tri_collange_mul : forall x y, tri (g_mul G sg0 lr x y) (fun r => forall a b, Forall2 R x a -> Forall2 R y b -> exists c, collange_mul a b = Ok c /\ Forall2 R0 r c).
Proof.
  intros x y. unfold g_mul. apply tri_lift. intros [] H1. eapply tri_bind; [apply tri_mul_rows|]. intros pi. apply tri_lift. intros [] H2. apply tri_ret. intros Hpi a b Ha Hb.
  pose proof (F2_len _ _ _ _ _ Ha) as La. pose proof (F2_len _ _ _ _ _ Hb) as Lb.
  destruct (Hpi a b (repeat None (length x)) [] [] Ha Hb (RO_repeat _) (Forall2_nil _)) as (q' & drop' & E & Hq). pose proof (F2_len _ _ _ _ _ Hq) as Lq.
  unfold collange_mul, collange_mul_full. rewrite <- La, <- Lb, H1. cbn [bind]. rewrite E. cbn [bind]. rewrite <- Lq, H2. cbn [bind]. eexists. split; [reflexivity|].
  clear - Hq. induction Hq as [|e o pi q' He _ IH]; cbn [map]; constructor; [|exact IH]. destruct o as [v|]; [right; exact He|left; split; [exact He|reflexivity]].
Qed.
End Tri.

(** ** One operator *)
Section Whole.
Variables (G : SigOps) (draw : string -> G).
Notation exp := (exp G).
Notation written := (written G).
Definition in_exps (n : nat) : list exp := in_vars G draw "x" n ++ in_vars G draw "y" n.
Definition negation (e : exp) : exp := E ONeg [e] (sg_neg G (sig_of e)).
(** No signature stands for two expressions or looks like a small number: what random signatures
    are for. *)
Definition all_nodes (n : nat) (w : written) : list exp :=
  let p := lg G (w_cse G w) ++ in_exps n in mkint 0 :: p ++ map negation p.
Definition no_clash (n : nat) (w : written) : Prop :=
  (forall e, In e (lg G (w_cse G w)) -> sg_unsmall G (sig_of e) = None) /\
  (forall a b, In a (all_nodes n w) -> In b (all_nodes n w) -> sig_of a = sig_of b -> a = b).
(** The parameters hold two expansions. *)
Definition holds (n : nat) (J : string -> double) (x y : list double) : Prop :=
  map (fun i => J (in_name "x" i)) (seq 0 n) = x /\ map (fun i => J (in_name "y" i)) (seq 0 n) = y.
Lemma vars_sub : forall (e : exp) v, In v (vars e) -> exists x, In x (subs e) /\ op_of x = OVar v.
Proof.
  intros e. induction e as [o l s IH] using exp_ind'. intros v Hv. cbn [vars] in Hv. apply in_app_or in Hv. destruct Hv as [Hv|Hv].
  - destruct o as [w| | | | | | | | |]; cbn in Hv; try contradiction. destruct Hv as [<-|[]]. exists (E (OVar w) l s). split; [left; reflexivity|]. reflexivity.
  - apply in_flat_map in Hv. destruct Hv as (y & Hy & Hv). rewrite Forall_forall in IH. destruct (IH y Hy v Hv) as (x & Hx & Ox). exists x. split; [|exact Ox]. right. apply in_flat_map. exists y. split; assumption.
Qed.
Lemma in_exps_names : forall n x v, In x (in_exps n) -> op_of x = OVar v -> In v (in_names n).
Proof.
  intros n x v Hx Ov. unfold in_exps, in_vars in Hx. unfold in_names. apply in_app_or in Hx. apply in_or_app. right. apply in_or_app. destruct Hx as [Hx|Hx]; [left|right];
  apply in_map_iff in Hx; destruct Hx as (i & <- & Hi); cbn in Ov; injection Ov as <-; exact (in_map _ _ _ Hi).
Qed.
Lemma inputs_R : forall I p n L xs, (p = "x"%string \/ p = "y"%string) -> map (fun i => I (in_name p i)) (seq 0 n) = xs -> Forall2 (R G I (in_exps n) L) (in_vars G draw p n) xs.
Proof.
  intros I p n L xs Hp <-. unfold in_vars. assert (K : forall l, incl l (seq 0 n) -> Forall2 (R G I (in_exps n) L) (map (fun i => mkvar (in_name p i) (draw (in_name p i))) l) (map (fun i => I (in_name p i)) l)).
  { induction l as [|i l IH]; intros Hl; cbn [map]; constructor; [|apply IH; intros j Hj; apply Hl; right; exact Hj]. split; [|reflexivity].
    intros x [<-|[]]. split; [left; exact Logic.I|]. split; [discriminate|]. intros v _. unfold in_exps, in_vars. apply in_or_app.
    destruct Hp as [-> | ->]; [left|right]; apply in_map_iff; exists i; (split; [reflexivity|]); apply Hl; left; reflexivity. }
  apply K. apply incl_refl.
Qed.
Lemma binary_ok : forall body n w (algo : list double -> list double -> res (list double)), binary G draw body n = Ok w -> no_clash n w ->
  (forall I L, (forall e, In e L -> sg_unsmall G (sig_of e) = None) -> (forall a b, In a L -> In b L -> sig_of a = sig_of b -> a = b) ->
     tri G L (body (in_vars G draw "x" n) (in_vars G draw "y" n)) (fun r => forall a b, Forall2 (R G I (in_exps n) L) (in_vars G draw "x" n) a -> Forall2 (R G I (in_exps n) L) (in_vars G draw "y" n) b ->
       exists c, algo a b = Ok c /\ Forall2 (R0 G I (in_exps n) L) r c)) ->
  well_scoped (rev (in_names n)) (w_lines G w) /\
  incl (flat_map vars (w_ret G w)) (in_names n ++ map fst (w_lines G w)) /\
  forall J x y, holds n J x y -> exists c, algo x y = Ok c /\ map (fun e => unsigned (deval (drun (w_lines G w) J) e)) (w_ret G w) = map unsigned c.
Proof.
  intros body n w algo H [Hsm Hinj] HT. unfold binary in H. destruct (g_inputs G draw (in_names n) (block0 G)) as [b| |] eqn:E1; try discriminate. cbn [bind] in H.
  destruct (body _ _ _) as [[s st]| |] eqn:E2; try discriminate. cbn [bind] in H. set (b1 := fold_left _ s b) in H. destruct (g_computes G s b1) as [[ys b2]| |] eqn:E3; try discriminate. cbn [bind] in H. injection H as <-.
  unfold all_nodes in Hinj. cbn [w_lines w_ret w_cse] in *. set (L := lg G st) in *. set (S := mkint 0 :: (L ++ in_exps n) ++ map negation (L ++ in_exps n)) in *.
  assert (Linj : forall a b, In a L -> In b L -> sig_of a = sig_of b -> a = b).
  { intros p q Hp Hq. apply Hinj; right; apply in_or_app; left; apply in_or_app; left; assumption. }
  destruct (inputs_scoped G draw _ [] _ _ E1 (scoped0 G) eq_refl eq_refl) as (Sb & Lb & Tb). rewrite app_nil_r in Sb.
  destruct (uses_same G s b) as (U1 & U2 & U3). fold b1 in U1, U2, U3.
  assert (Sb1 : scoped_b G (rev (in_names n)) b1) by (unfold scoped_b in *; rewrite U1, U2, U3; exact Sb).
  assert (HQ : forall I x y, holds n I x y -> exists c, algo x y = Ok c /\ Forall2 (R0 G I (in_exps n) L) s c).
  { intros I x y [Hx Hy]. destruct (HT I L Hsm Linj _ _ _ (inv0 G false) eq_refl E2) as (_ & _ & _ & V). apply V; [apply incl_refl| |]; apply inputs_R; auto. }
  assert (Ha : forall e, In e s -> e = mkint 0 \/ good G (in_exps n) L e).
  { intros e He. destruct (HQ (fun _ => dzero) _ _ (Logic.conj eq_refl eq_refl)) as (c & _ & F). clear - F He. induction F as [|e' v s c Hv _ IH]; [destruct He|]. destruct He as [<-|He]; [|apply IH; exact He].
    destruct Hv as [[-> _]|[Hg _]]; [left; reflexivity|right; exact Hg]. }
  assert (HS : incl (flat_map subs s) S).
  { intros x Hx. apply in_flat_map in Hx. destruct Hx as (e & He & Hx). destruct (Ha e He) as [->|Hg]; [destruct Hx as [<-|[]]; left; reflexivity|].
    assert (Kp : forall z, kept G (in_exps n) L z -> plain G z -> In z (L ++ in_exps n)).
    { intros z (_ & K1 & K2) Pz. apply in_or_app. destruct z as [o l k]. unfold plain in Pz. cbn [op_of] in *. destruct o; try destruct Pz; try (left; apply K1; reflexivity). right. apply (K2 v). reflexivity. }
    right. apply in_or_app. destruct (proj1 (Hg x Hx)) as [Px|(y & -> & Py)]; [left; apply Kp; [apply Hg; exact Hx|exact Px]|].
    right. apply (in_map negation). apply Kp; [|exact Py]. apply Hg. apply (subs_closed G e _ y Hx). left. reflexivity. }
  assert (Hv : incl (flat_map vars s) (names G b1)).
  { intros v Hv. apply in_flat_map in Hv. destruct Hv as (e & He & Hv). destruct (Ha e He) as [->|Hg]; [destruct Hv|]. destruct (vars_sub e v Hv) as (x & Hx & Ox).
    destruct Sb1 as (_ & N & _). apply N. left. apply -> in_rev. apply (in_exps_names n x v); [|exact Ox]. destruct (Hg x Hx) as (_ & _ & K). exact (K v Ox). }
  destruct (computes_scoped G s _ _ _ _ E3 Sb1 Hv) as ((W & N & _) & Vy & _). split; [exact W|]. split.
  { intros v Hin. apply Vy, N in Hin. apply in_or_app. destruct Hin as [Hin|Hin]; [left; apply in_rev; exact Hin|right; exact Hin]. }
  intros J x y HJ. set (K := drun (lines G b2) J).
  assert (HK : holds n K x y).
  { assert (Q : forall v, In v (in_names n) -> K v = J v) by (intros v Hin; apply (drun_known G _ (rev (in_names n))); [exact W|apply -> in_rev; exact Hin]).
    destruct HJ as [<- <-]. split; apply map_ext_in; intros i Hi; apply Q; unfold in_names; apply in_or_app; right; apply in_or_app; [left|right]; apply (in_map (in_name _)); exact Hi. }
  destruct (HQ K x y HK) as (c & Ec & Hc). exists c. split; [exact Ec|].
  destruct (computes_dvalue G S Hinj K s b1 ys b2 E3 HS) as [_ V].
  destruct V as [V _]; [intros v e Hin; apply (drun_sat G _ (rev (in_names n)) J W v e Hin)|intros k v Hin; rewrite U2, Tb in Hin; destruct Hin|].
  rewrite <- (map_map (deval K) unsigned), V, map_map. clear - Hc. induction Hc as [|e v s c He _ IH]; [reflexivity|]. cbn [map]. rewrite IH. f_equal. destruct He as [[-> ->]|[_ He]]; [reflexivity|exact He].
Qed.
Theorem binary_add : forall lr n w, binary G draw (g_add G lr) n = Ok w -> no_clash n w ->
  well_scoped (rev (in_names n)) (w_lines G w) /\ incl (flat_map vars (w_ret G w)) (in_names n ++ map fst (w_lines G w)) /\
  forall J x y, holds n J x y -> exists c, collange_add x y = Ok c /\ map (fun e => unsigned (deval (drun (w_lines G w) J) e)) (w_ret G w) = map unsigned c.
Proof.
  intros lr n w H HN. apply (binary_ok _ n w collange_add H HN). intros I L H1 H2. eapply tri_weak; [apply tri_collange_add; assumption|].
  intros r Hr a b Ha Hb. destruct (Hr a b Ha Hb) as (c & E & Hc). exists c. split; [exact E|]. clear - Hc. induction Hc; constructor; [right; assumption|assumption].
Qed.
Theorem binary_sub : forall lr n w, binary G draw (g_sub G lr) n = Ok w -> no_clash n w ->
  well_scoped (rev (in_names n)) (w_lines G w) /\ incl (flat_map vars (w_ret G w)) (in_names n ++ map fst (w_lines G w)) /\
  forall J x y, holds n J x y -> exists c, collange_sub x y = Ok c /\ map (fun e => unsigned (deval (drun (w_lines G w) J) e)) (w_ret G w) = map unsigned c.
Proof.
  intros lr n w H HN. apply (binary_ok _ n w collange_sub H HN). intros I L H1 H2. eapply tri_weak; [apply tri_collange_sub; assumption|].
  intros r Hr a b Ha Hb. destruct (Hr a b Ha Hb) as (c & E & Hc). exists c. split; [exact E|]. clear - Hc. induction Hc; constructor; [right; assumption|assumption].
Qed.
Theorem binary_mul : forall sg0 lr n w, binary G draw (g_mul G sg0 lr) n = Ok w -> no_clash n w ->
  well_scoped (rev (in_names n)) (w_lines G w) /\ incl (flat_map vars (w_ret G w)) (in_names n ++ map fst (w_lines G w)) /\
  forall J x y, holds n J x y -> exists c, collange_mul x y = Ok c /\ map (fun e => unsigned (deval (drun (w_lines G w) J) e)) (w_ret G w) = map unsigned c.
Proof.
  intros sg0 lr n w H HN. apply (binary_ok _ n w collange_mul H HN). intros I L H1 H2. apply tri_collange_mul; assumption.
Qed.
End Whole.
