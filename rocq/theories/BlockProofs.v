(** Proofs about Block (codelets.cc): the emitted declarations compute the requested expressions. *)
From Coq Require Import FinFun String Ascii DecimalString DecimalNat DecimalFacts ZArith List Bool Lia.
From Verif Require Import Base Field ExpModel.
Import ListNotations.
Open Scope nat_scope.

(** ** Spec: straight-line code *)
Section Spec.
Variables (F : Fld) (G : SigOps).
(** Variables an expression mentions, and its subexpressions. *)
Fixpoint vars (e : exp G) : list string :=
  match e with E o l _ => (match o with OVar v => [v] | _ => [] end) ++ flat_map vars l end.
Fixpoint subs (e : exp G) : list (exp G) := e :: match e with E _ l _ => flat_map subs l end.
Definition set_iv (I : interp F) (v : string) (x : F) : interp F :=
  {| iv := fun w => if String.eqb w v then x else iv I w; iother := iother I; ifield := ifield I; icall := icall I |}.
(** Executing "const auto v = e;" one after another. *)
Definition run_lines (ls : list (string * exp G)) (I : interp F) : interp F :=
  fold_left (fun J '(v, e) => set_iv J v (eval J e)) ls I.
(** Every name is declared once and before it is used; [known] are the parameters. *)
Fixpoint well_scoped (known : list string) (ls : list (string * exp G)) : Prop :=
  match ls with
  | [] => True
  | (v, e) :: t => ~ In v known /\ incl (vars e) known /\ well_scoped (v :: known) t
  end.
End Spec.
Arguments vars {G}. Arguments subs {G}. Arguments set_iv {F}. Arguments run_lines {F G}. Arguments well_scoped {G}.

(** Block operations; the results of [BNow] and [BCompute] are recorded with the expression asked for. *)
Inductive bcmd (G : SigOps) : Type :=
| BInput (name : string) (draw : G) | BNow (prefix : string) (e : exp G) | BUse (e : exp G) | BCompute (e : exp G).
Arguments BInput {G}. Arguments BNow {G}. Arguments BUse {G}. Arguments BCompute {G}.
Definition bstep {G} (c : bcmd G) (b : bst G) : res (list (exp G * exp G) * bst G) :=
  match c with
  | BInput n d => ' (_, b) <- input G n d b ;; Ok ([], b)
  | BNow p e => ' (v, b) <- now G p e b ;; Ok ([(e, v)], b)
  | BUse e => Ok ([], use G e b)
  | BCompute e => ' (y, b) <- compute G e b ;; Ok ([(e, y)], b)
  end.
Fixpoint brun {G} (cs : list (bcmd G)) (b : bst G) : res (list (exp G * exp G) * bst G) :=
  match cs with
  | [] => Ok ([], b)
  | c :: t => ' (r, b) <- bstep c b ;; ' (rs, b) <- brun t b ;; Ok (r ++ rs, b)
  end.
(** Expressions passed in mention only inputs and variables returned before. *)
Definition in_scope {G} (c : bcmd G) (b : bst G) : Prop :=
  match c with BNow _ e | BCompute e => incl (vars e) (names G b) | _ => True end.
Fixpoint along {G} (P : bcmd G -> bst G -> Prop) (cs : list (bcmd G)) (b : bst G) : Prop :=
  match cs with
  | [] => True
  | c :: t => P c b /\ match bstep c b with Ok (_, b) => along P t b | _ => True end
  end.
(** The parameters and the expressions handed to compute. *)
Definition inputs {G} (cs : list (bcmd G)) : list string := flat_map (fun c => match c with BInput n _ => [n] | _ => [] end) cs.
Definition asked {G} (cs : list (bcmd G)) : list (exp G) := flat_map (fun c => match c with BCompute e => [e] | _ => [] end) cs.
Definition used {G} (cs : list (bcmd G)) : list (exp G) := flat_map (fun c => match c with BUse e => [e] | _ => [] end) cs.

Section P.
Variables (F : Fld) (G : SigOps).
Notation exp := (exp G).
Notation bst := (bst G).

Fixpoint exp_ind' (P : exp -> Prop) (H : forall o l s, Forall P l -> P (E o l s)) (e : exp) : P e :=
  match e with
  | E o l s => H o l s ((fix go l := match l return Forall P l with [] => Forall_nil _ | x :: t => Forall_cons x (exp_ind' P H x) (go t) end) l)
  end.

(** ** Executing lines *)
Lemma eval_agree : forall (I J : interp F) (e : exp), (forall v, In v (vars e) -> iv I v = iv J v) ->
  iother I = iother J -> ifield I = ifield J -> icall I = icall J -> eval I e = eval J e.
Proof.
  intros I J e Hv H1 H2 H3. induction e as [o l s IH] using exp_ind'. cbn [eval].
  assert (M : map (eval I) l = map (eval J) l).
  { apply map_ext_in. intros x Hx. rewrite Forall_forall in IH. apply IH; [exact Hx|]. intros v Hin. apply Hv. cbn. apply in_or_app. right.
    apply in_flat_map. exists x. split; assumption. }
  rewrite M. destruct o; cbn [opval]; rewrite ?H1, ?H2, ?H3; try reflexivity.
  destruct (map (eval J) l) eqn:Q; [|reflexivity]. apply Hv. cbn. left. reflexivity.
Qed.
Lemma run_lines_rest : forall (ls : list (string * exp)) (I : interp F), iother (run_lines ls I) = iother I /\ ifield (run_lines ls I) = ifield I /\ icall (run_lines ls I) = icall I.
Proof.
  induction ls as [|[v e] t IH]; intros I; [auto|]. change (run_lines ((v, e) :: t) I) with (run_lines t (set_iv I v (eval I e))).
  destruct (IH (set_iv I v (eval I e))) as (-> & -> & ->). auto.
Qed.
Lemma run_lines_known : forall (ls : list (string * exp)) known (I : interp F) v, well_scoped known ls -> In v known -> iv (run_lines ls I) v = iv I v.
Proof.
  induction ls as [|[w e] t IH]; intros known I v H Hv; [reflexivity|]. cbn in H. destruct H as (N & _ & H).
  change (run_lines ((w, e) :: t) I) with (run_lines t (set_iv I w (eval I e))).
  rewrite (IH (w :: known)); [|exact H|right; exact Hv]. cbn. destruct (String.eqb_spec v w); [subst; contradiction|reflexivity].
Qed.
Lemma run_lines_sat : forall (ls : list (string * exp)) known (I : interp F), well_scoped known ls ->
  forall v e, In (v, e) ls -> iv (run_lines ls I) v = eval (run_lines ls I) e.
Proof.
  induction ls as [|[w e0] t IH]; intros known I H v e Hin; [destruct Hin|]. cbn in H. destruct H as (N & Hi & H).
  change (run_lines ((w, e0) :: t) I) with (run_lines t (set_iv I w (eval I e0))). destruct Hin as [Hin|Hin].
  - injection Hin as <- <-. rewrite (run_lines_known t (w :: known)); [|exact H|left; reflexivity]. cbn [set_iv iv]. rewrite String.eqb_refl.
    destruct (run_lines_rest t (set_iv I w (eval I e0))) as (R1 & R2 & R3). apply eval_agree; [|rewrite R1; reflexivity|rewrite R2; reflexivity|rewrite R3; reflexivity].
    intros u Hu. apply Hi in Hu. rewrite (run_lines_known t (w :: known)); [|exact H|right; exact Hu]. cbn. destruct (String.eqb_spec u w); [subst; contradiction|reflexivity].
  - exact (IH (w :: known) _ H v e Hin).
Qed.
Lemma well_scoped_app : forall (a b : list (string * exp)) known, well_scoped known (a ++ b) <-> well_scoped known a /\ well_scoped (rev (map fst a) ++ known) b.
Proof.
  induction a as [|[v e] a IH]; intros b known; cbn; [tauto|]. rewrite IH. rewrite <- app_assoc. cbn. tauto.
Qed.
Lemma well_scoped_incl : forall (a : list (string * exp)) k1 k2, (forall v, In v k1 <-> In v k2) -> well_scoped k1 a -> well_scoped k2 a.
Proof.
  induction a as [|[v e] a IH]; intros k1 k2 H; cbn; [auto|]. intros (N & Hi & W). split; [rewrite <- H; exact N|].
  split; [intros u Hu; apply H, Hi, Hu|]. apply (IH (v :: k1)); [|exact W]. intros u. cbn. rewrite H. tauto.
Qed.
Lemma well_scoped_more : forall (a : list (string * exp)) k n, ~ In n (map fst a) -> well_scoped k a -> well_scoped (n :: k) a.
Proof.
  induction a as [|[v e] a IH]; intros k n Hn; cbn; [auto|]. cbn in Hn. intros (N & Hi & W). split; [|split; [intros u Hu; right; apply Hi, Hu|]].
  - intros [Q|Q]; [subst; tauto|contradiction].
  - apply (well_scoped_incl _ (n :: v :: k)); [intros u; cbn; tauto|]. apply IH; tauto.
Qed.

(** ** Fresh names *)
Lemma app_cancel : forall p a b : string, (p ++ a)%string = (p ++ b)%string -> a = b.
Proof. induction p as [|c p IH]; intros a b H; cbn in H; [exact H|]. injection H as H. apply IH. exact H. Qed.
Lemma app_nonempty : forall p a : string, p = (p ++ a)%string -> a = EmptyString.
Proof. induction p as [|c p IH]; intros a H; cbn in H; [symmetry; exact H|]. injection H as H. apply IH. exact H. Qed.
Lemma decimal_inj : forall a b, decimal a = decimal b -> a = b.
Proof.
  intros a b H. unfold decimal in H. apply (f_equal NilEmpty.uint_of_string) in H. rewrite !NilEmpty.usu in H. injection H as H.
  apply Unsigned.to_uint_inj. exact H.
Qed.
Lemma decimal_nonempty : forall a, decimal a <> EmptyString.
Proof.
  intros a H. unfold decimal in H. pose proof (Unsigned.of_to a) as N. destruct (Nat.to_uint a) eqn:Q; cbn in H; try discriminate.
  cbn in N. subst a. discriminate Q.
Qed.
Lemma candidate_inj : forall p i j, candidate p i = candidate p j -> i = j.
Proof.
  intros p [|i] [|j] H; cbn in H; auto.
  - apply app_nonempty in H. destruct (decimal_nonempty _ H).
  - symmetry in H. apply app_nonempty in H. destruct (decimal_nonempty _ H).
  - apply app_cancel, decimal_inj in H. congruence.
Qed.
Lemma existsb_in : forall s (l : list string), existsb (String.eqb s) l = true <-> In s l.
Proof.
  intros s l. rewrite existsb_exists. split; [intros (x & Hx & E); apply String.eqb_eq in E; subst; exact Hx|]. intros H. exists s. split; [exact H|apply String.eqb_refl].
Qed.
Lemma fresh_from_spec : forall fuel k p u,
  (exists s, fresh_from fuel k p u = Ok s /\ ~ In s u) \/ (fresh_from fuel k p u = UB /\ forall i, k <= i < k + fuel -> In (candidate p i) u).
Proof.
  induction fuel as [|f IH]; intros k p u; cbn [fresh_from]; [right; split; [reflexivity|]; lia|].
  destruct (existsb (String.eqb (candidate p k)) u) eqn:Ex.
  - destruct (IH (S k) p u) as [H|[H1 H2]]; [left; exact H|]. right. split; [exact H1|]. intros i Hi.
    destruct (Nat.eq_dec i k) as [->|]; [apply existsb_in; exact Ex|]. apply H2. lia.
  - left. exists (candidate p k). split; [reflexivity|]. intros H. apply existsb_in in H. congruence.
Qed.
Lemma fresh_ok : forall p (b : bst), exists s, ~ In s (names G b) /\
  fresh G p b = Ok (s, {| names := s :: names G b; counts := counts G b; lets := lets G b; lines := lines G b |}).
Proof.
  intros p b. unfold fresh. destruct (fresh_from_spec (S (length (names G b))) 0 p (names G b)) as [(s & E & N)|[_ H]].
  - exists s. split; [exact N|]. rewrite E. reflexivity.
  - exfalso. assert (L : length (map (candidate p) (seq 0 (S (length (names G b))))) <= length (names G b)).
    { apply NoDup_incl_length.
      - apply FinFun.Injective_map_NoDup; [intros i j; apply candidate_inj|apply seq_NoDup].
      - intros x Hx. apply in_map_iff in Hx. destruct Hx as (i & <- & Hi). apply in_seq in Hi. apply H. lia. }
    rewrite map_length, seq_length in L. lia.
Qed.
Lemma now_ok : forall p e (b : bst), exists s, ~ In s (names G b) /\
  now G p e b = Ok (mkvar s (sig_of e), {| names := s :: names G b; counts := counts G b; lets := lets G b; lines := lines G b ++ [(s, e)] |}).
Proof. intros p e b. destruct (fresh_ok p b) as (s & N & E). exists s. split; [exact N|]. unfold now. rewrite E. reflexivity. Qed.

(** ** compute, unfolded *)
Fixpoint clist (l : list exp) (b : bst) : res (list exp * bst) :=
  match l with
  | [] => Ok ([], b)
  | x :: t => ' (y, b) <- compute G x b ;; ' (ys, b) <- clist t b ;; Ok (y :: ys, b)
  end.
Lemma compute_eq : forall o args s b, compute G (E o args s) b =
  match lookup G (lets G b) s with
  | Some v => Ok (v, b)
  | None => match lookup G (counts G b) s with
    | None => Throw
    | Some c =>
        ' (ys, b) <- clist args b ;;
        let y := E o ys s in
        if fast_op o || (c =? 1) then Ok (y, b) else
        ' (v, b) <- now G "t" y b ;;
        Ok (v, {| names := names G b; counts := counts G b; lets := (s, v) :: lets G b; lines := lines G b |})
    end
  end.
Proof.
  intros o args s b. cbn [compute]. destruct (lookup G (lets G b) s); [reflexivity|]. destruct (lookup G (counts G b) s); [|reflexivity].
  replace (clist args b) with ((fix go (l : list exp) (b : bst) : res (list exp * bst) :=
     match l with [] => Ok ([], b) | x :: t => ' (y, b) <- compute G x b ;; ' (ys, b) <- go t b ;; Ok (y :: ys, b) end) args b); [reflexivity|].
  revert b. induction args as [|x t IH]; intros b; [reflexivity|]. cbn [clist]. destruct (compute G x b) as [[y b1]| |]; cbn [bind]; [|reflexivity|reflexivity].
  rewrite IH. reflexivity.
Qed.
Lemma lookup_in : forall A (l : list (G * A)) s a, lookup G l s = Some a -> In (s, a) l.
Proof.
  induction l as [|[k b] l IH]; intros s a H; [discriminate|]. cbn in H. destruct (sg_eqb G k s) eqn:E.
  - apply sg_eqb_ok in E. injection H as ->. subst. left. reflexivity.
  - right. apply IH. exact H.
Qed.

(** ** Values *)
(** [J] agrees with all declarations of [b]. *)
Definition sat (J : interp F) (b : bst) : Prop := forall v e, In (v, e) (lines G b) -> iv J v = eval J e.
Definition prefix (b b' : bst) : Prop := exists l, lines G b' = lines G b ++ l.
Lemma prefix_refl : forall b, prefix b b. Proof. intros b. exists []. rewrite app_nil_r. reflexivity. Qed.
Lemma prefix_trans : forall a b c, prefix a b -> prefix b c -> prefix a c.
Proof. intros a b c [l1 H1] [l2 H2]. exists (l1 ++ l2). rewrite H2, H1, app_assoc. reflexivity. Qed.
Lemma sat_prefix : forall J a b, prefix a b -> sat J b -> sat J a.
Proof. intros J a b [l H] S v e Hin. apply S. rewrite H. apply in_or_app. left. exact Hin. Qed.
Lemma now_prefix : forall p e b v b', now G p e b = Ok (v, b') -> prefix b b' /\ lets G b' = lets G b /\ counts G b' = counts G b.
Proof.
  intros p e b v b' H. destruct (now_ok p e b) as (s & _ & E). rewrite E in H. injection H as <- <-. cbn. split; [|auto]. exists [(s, e)]. reflexivity.
Qed.
Lemma compute_prefix : forall e b y b', compute G e b = Ok (y, b') -> prefix b b'.
Proof.
  intros e. induction e as [o l s IH] using exp_ind'. intros b y b' H. rewrite compute_eq in H.
  destruct (lookup G (lets G b) s) as [v|]; [injection H as <- <-; apply prefix_refl|].
  destruct (lookup G (counts G b) s) as [c|]; [|discriminate].
  assert (C : forall b ys b1, clist l b = Ok (ys, b1) -> prefix b b1).
  { clear - IH. induction IH as [|x t Hx Ht IHt]; intros b ys b1 H; cbn [clist] in H; [injection H as <- <-; apply prefix_refl|].
    destruct (compute G x b) as [[y b2]| |] eqn:E1; try discriminate. cbn [bind] in H.
    destruct (clist t b2) as [[ys2 b3]| |] eqn:E2; try discriminate. injection H as <- <-. eapply prefix_trans; [eapply Hx; exact E1|eapply IHt; exact E2]. }
  destruct (clist l b) as [[ys b1]| |] eqn:Ec; try discriminate. cbn [bind] in H. apply C in Ec.
  destruct (fast_op o || (c =? 1)); [injection H as <- <-; exact Ec|].
  destruct (now G "t" (E o ys s) b1) as [[v b2]| |] eqn:En; try discriminate. cbn [bind] in H. injection H as <- <-.
  destruct (now_prefix _ _ _ _ _ En) as (P2 & _). eapply prefix_trans; [exact Ec|exact P2].
Qed.
Variable S : list exp.
Definition faithful (J : interp F) : Prop := forall e1 e2, In e1 S -> In e2 S -> sig_of e1 = sig_of e2 -> eval J e1 = eval J e2.
Definition lets_ok (J : interp F) (b : bst) : Prop := forall s v, In (s, v) (lets G b) -> exists x, In x S /\ sig_of x = s /\ eval J v = eval J x.
Lemma now_value : forall J p e b v b', now G p e b = Ok (v, b') -> sat J b' -> eval J v = eval J e.
Proof.
  intros J p e b v b' H HS. destruct (now_ok p e b) as (s & _ & E). rewrite E in H. injection H as <- <-. cbn. apply HS. cbn. apply in_or_app. right. left. reflexivity.
Qed.
Lemma compute_value : forall J, faithful J -> forall e b y b', compute G e b = Ok (y, b') -> incl (subs e) S ->
  prefix b b' /\ (sat J b' -> lets_ok J b -> eval J y = eval J e /\ lets_ok J b').
Proof.
  intros J HF e. induction e as [o l s IH] using exp_ind'. intros b y b' H Hs. rewrite compute_eq in H.
  assert (Se : In (E o l s) S) by (apply Hs; left; reflexivity).
  destruct (lookup G (lets G b) s) as [v|] eqn:L.
  { injection H as <- <-. split; [apply prefix_refl|]. intros Hsat Hl. split; [|exact Hl].
    destruct (Hl _ _ (lookup_in _ _ _ _ L)) as (x & Sx & Gx & ->). apply HF; [exact Sx|exact Se|exact Gx]. }
  destruct (lookup G (counts G b) s) as [c|]; [|discriminate].
  assert (C : forall l b ys b1, Forall (fun e => forall b y b', compute G e b = Ok (y, b') -> incl (subs e) S ->
      prefix b b' /\ (sat J b' -> lets_ok J b -> eval J y = eval J e /\ lets_ok J b')) l -> incl (flat_map subs l) S -> clist l b = Ok (ys, b1) ->
      prefix b b1 /\ (sat J b1 -> lets_ok J b -> map (eval J) ys = map (eval J) l /\ lets_ok J b1)).
  { clear. induction l as [|x t IHt]; intros b ys b1 HFo Hi H; cbn [clist] in H.
    - injection H as <- <-. split; [apply prefix_refl|]. auto.
    - inversion HFo as [|? ? Hx Ht]; subst. cbn [flat_map] in Hi. destruct (compute G x b) as [[y b2]| |] eqn:E1; try discriminate. cbn [bind] in H.
      destruct (clist t b2) as [[ys2 b3]| |] eqn:E2; try discriminate. injection H as <- <-.
      destruct (Hx _ _ _ E1 (fun z Hz => Hi z (in_or_app _ _ _ (or_introl Hz)))) as [P1 V1].
      destruct (IHt _ _ _ Ht (fun z Hz => Hi z (in_or_app _ _ _ (or_intror Hz))) E2) as [P2 V2].
      split; [eapply prefix_trans; eassumption|]. intros HS HL. destruct (V1 (sat_prefix _ _ _ P2 HS) HL) as [A1 A2]. destruct (V2 HS A2) as [A3 A4].
      split; [cbn; congruence|exact A4]. }
  destruct (clist l b) as [[ys b1]| |] eqn:Ec; try discriminate. cbn [bind] in H.
  destruct (C l b ys b1 IH (fun z Hz => Hs z (or_intror Hz)) Ec) as [P1 V1]. clear C.
  assert (Ve : map (eval J) ys = map (eval J) l -> eval J (E o ys s) = eval J (E o l s)) by (intros Q; cbn [eval]; rewrite Q; reflexivity).
  destruct (fast_op o || (c =? 1)).
  { injection H as <- <-. split; [exact P1|]. intros HS HL. destruct (V1 HS HL) as [A1 A2]. split; [apply Ve; exact A1|exact A2]. }
  destruct (now G "t" (E o ys s) b1) as [[v b2]| |] eqn:En; try discriminate. cbn [bind] in H. injection H as <- <-.
  destruct (now_prefix _ _ _ _ _ En) as (P2 & L2 & _). split; [eapply prefix_trans; [exact P1|exact P2]|]. intros HS HL.
  assert (HS2 : sat J b2) by exact HS. destruct (V1 (sat_prefix _ _ _ P2 HS2) HL) as [A1 A2].
  assert (Vv : eval J v = eval J (E o l s)) by (rewrite (now_value J _ _ _ _ _ En HS2); apply Ve; exact A1).
  split; [exact Vv|]. intros k w [Hk|Hk].
  - injection Hk as <- <-. exists (E o l s). split; [exact Se|]. split; [reflexivity|exact Vv].
  - apply A2. rewrite <- L2. exact Hk.
Qed.

(** ** Scoping *)
Definition scoped_b (ins : list string) (b : bst) : Prop :=
  well_scoped ins (lines G b) /\ (forall n, In n (names G b) <-> In n ins \/ In n (map fst (lines G b))) /\
  (forall s v, In (s, v) (lets G b) -> incl (vars v) (names G b)).
Lemma now_scoped : forall ins p e b v b', now G p e b = Ok (v, b') -> scoped_b ins b -> incl (vars e) (names G b) ->
  scoped_b ins b' /\ incl (vars v) (names G b') /\ incl (names G b) (names G b').
Proof.
  intros ins p e b v b' H (W & N & L) Hv. destruct (now_ok p e b) as (s & Ns & E). rewrite E in H. injection H as <- <-. unfold scoped_b. cbn. split; [split; [|split]|split].
  - apply well_scoped_app. split; [exact W|]. cbn. split; [|split; [|auto]].
    + intros Q. apply Ns, N. apply in_app_or in Q. destruct Q as [Q|Q]; [right; apply in_rev; exact Q|left; exact Q].
    + intros u Hu. apply Hv, N in Hu. apply in_or_app. destruct Hu as [Hu|Hu]; [right; exact Hu|left; apply in_rev in Hu; exact Hu].
  - intros n. rewrite map_app, in_app_iff. cbn. rewrite N. tauto.
  - intros k w Hw u Hu. right. apply (L k w Hw u Hu).
  - intros u [<-|[]]. left. reflexivity.
  - intros u Hu. right. exact Hu.
Qed.
Lemma compute_scoped : forall e ins b y b', compute G e b = Ok (y, b') -> scoped_b ins b -> incl (vars e) (names G b) ->
  scoped_b ins b' /\ incl (vars y) (names G b') /\ incl (names G b) (names G b').
Proof.
  intros e. induction e as [o l s IH] using exp_ind'. intros ins b y b' H HB Hv. rewrite compute_eq in H.
  destruct (lookup G (lets G b) s) as [v|] eqn:L.
  { injection H as <- <-. split; [exact HB|]. split; [|apply incl_refl]. destruct HB as (_ & _ & HB). apply (HB s). apply lookup_in. exact L. }
  destruct (lookup G (counts G b) s) as [c|]; [|discriminate].
  assert (C : forall l b ys b1, Forall (fun e => forall ins b y b', compute G e b = Ok (y, b') -> scoped_b ins b -> incl (vars e) (names G b) ->
       scoped_b ins b' /\ incl (vars y) (names G b') /\ incl (names G b) (names G b')) l -> scoped_b ins b -> incl (flat_map vars l) (names G b) -> clist l b = Ok (ys, b1) ->
      scoped_b ins b1 /\ incl (flat_map vars ys) (names G b1) /\ incl (names G b) (names G b1)).
  { clear. induction l as [|x t IHt]; intros b ys b1 HFo HB Hi H; cbn [clist] in H.
    - injection H as <- <-. split; [exact HB|]. split; [intros u []|apply incl_refl].
    - inversion HFo as [|? ? Hx Ht]; subst. cbn [flat_map] in Hi. destruct (compute G x b) as [[y b2]| |] eqn:E1; try discriminate. cbn [bind] in H.
      destruct (clist t b2) as [[ys2 b3]| |] eqn:E2; try discriminate. injection H as <- <-.
      destruct (Hx _ _ _ _ E1 HB (fun z Hz => Hi z (in_or_app _ _ _ (or_introl Hz)))) as (A1 & A2 & A3).
      destruct (IHt _ _ _ Ht A1 (fun z Hz => A3 z (Hi z (in_or_app _ _ _ (or_intror Hz)))) E2) as (B1 & B2 & B3).
      split; [exact B1|]. split; [|eapply incl_tran; eassumption]. cbn. intros u Hu. apply in_app_or in Hu. destruct Hu as [Hu|Hu]; [apply B3, A2, Hu|apply B2, Hu]. }
  destruct (clist l b) as [[ys b1]| |] eqn:Ec; try discriminate. cbn [bind] in H.
  cbn in Hv. destruct (C l b ys b1 IH HB (fun z Hz => Hv z (in_or_app _ _ _ (or_intror Hz))) Ec) as (A1 & A2 & A3). clear C.
  assert (Vy : incl (vars (E o ys s)) (names G b1)).
  { cbn. intros u Hu. apply in_app_or in Hu. destruct Hu as [Hu|Hu]; [|apply A2, Hu]. apply A3, Hv. apply in_or_app. left. exact Hu. }
  destruct (fast_op o || (c =? 1)); [injection H as <- <-; auto|].
  destruct (now G "t" (E o ys s) b1) as [[v b2]| |] eqn:En; try discriminate. cbn [bind] in H. injection H as <- <-.
  destruct (now_scoped ins _ _ _ _ _ En A1 Vy) as ((B1 & B2 & B2') & B3 & B4). split; [|split; [exact B3|eapply incl_tran; eassumption]].
  split; [exact B1|]. split; [exact B2|]. cbn. intros k w [Hk|Hk]; [injection Hk as <- <-; exact B3|apply (B2' k w Hk)].
Qed.
Lemma use_same : forall e b, names G (use G e b) = names G b /\ lets G (use G e b) = lets G b /\ lines G (use G e b) = lines G b.
Proof.
  intros e. induction e as [o l s IH] using exp_ind'. intros b. cbn [use]. destruct (count_of G (counts G b) s) as [|n]; [|auto].
  assert (C : forall b, let b' := fold_left (fun b x => use G x b) l b in names G b' = names G b /\ lets G b' = lets G b /\ lines G b' = lines G b).
  { induction IH as [|x t Hx Ht IHt]; intros b0; cbn; [auto|]. destruct (IHt (use G x b0)) as (-> & -> & ->). apply Hx. }
  destruct (C b) as (A1 & A2 & A3). cbn. auto.
Qed.

(** ** No assertion fails in compute *)
Hypothesis canonical : forall e1 e2, In e1 S -> In e2 S -> sig_of e1 = sig_of e2 -> e1 = e2.
Hypothesis closed : forall e x, In e S -> In x (args_of e) -> In x S.
Definition counted (b : bst) (e : exp) : Prop := lookup G (counts G b) (sig_of e) <> None.
Definition counts_ok (b : bst) : Prop := forall e x, In e S -> counted b e -> In x (args_of e) -> counted b x.
Definition counts_pos (b : bst) : Prop := forall s, lookup G (counts G b) s <> Some 0.
Lemma lookup_cons : forall A s k (a : A) l, lookup G ((k, a) :: l) s = if sg_eqb G k s then Some a else lookup G l s.
Proof. reflexivity. Qed.
Lemma bump_counted : forall s b e, counted b e -> counted (bump G s b) e.
Proof. intros s b e H. unfold counted, bump. cbn [counts]. rewrite lookup_cons. destruct (sg_eqb G s (sig_of e)); [discriminate|exact H]. Qed.
Lemma use_counts : forall e b, In e S -> counts_ok b -> counts_pos b ->
  counts_ok (use G e b) /\ counts_pos (use G e b) /\ counted (use G e b) e /\ (forall x, counted b x -> counted (use G e b) x).
Proof.
  intros e. induction e as [o l s IH] using exp_ind'. intros b HS HC HP. cbn [use].
  set (b1 := match count_of G (counts G b) s with 0 => fold_left (fun b x => use G x b) l b | Datatypes.S _ => b end).
  assert (A : counts_ok b1 /\ counts_pos b1 /\ (forall x, counted b x -> counted b1 x) /\ (forall x, In x l -> counted b1 x)).
  { unfold b1, count_of. destruct (lookup G (counts G b) s) as [[|n]|] eqn:L.
    - destruct (HP s L).
    - split; [exact HC|]. split; [exact HP|]. split; [auto|]. intros x Hx. apply (HC (E o l s)); [exact HS| |exact Hx]. unfold counted. cbn. rewrite L. discriminate.
    - assert (Sl : forall x, In x l -> In x S) by (intros x Hx; apply (closed (E o l s)); assumption). clear - IH Sl HC HP.
      revert b HC HP. induction IH as [|x t Hx Ht IHt]; intros b HC HP; cbn; [repeat split; auto; intros x []|].
      destruct (Hx b (Sl x (or_introl eq_refl)) HC HP) as (A1 & A2 & A3 & A4).
      destruct (IHt (fun z Hz => Sl z (or_intror Hz)) (use G x b) A1 A2) as (B1 & B2 & B3 & B4).
      split; [exact B1|]. split; [exact B2|]. split; [auto|]. intros z [->|Hz]; auto. }
  clearbody b1. destruct A as (A1 & A2 & A3 & A4). split; [|split; [|split]].
  - intros e x Se He Hx. unfold counted in He |- *. unfold bump in He |- *. cbn [counts] in *. rewrite lookup_cons in *.
    destruct (sg_eqb G s (sig_of x)) eqn:Qx; [discriminate|].
    destruct (sg_eqb G s (sig_of e)) eqn:Qe.
    + apply sg_eqb_ok in Qe. assert (e = E o l s) by (apply canonical; [exact Se|exact HS|symmetry; exact Qe]). subst e. apply (A4 x Hx).
    + apply (A1 e x Se He Hx).
  - intros k. unfold bump. cbn [counts]. rewrite lookup_cons. destruct (sg_eqb G s k); [discriminate|apply A2].
  - unfold counted, bump. cbn [counts sig_of]. rewrite lookup_cons. replace (sg_eqb G s s) with true; [discriminate|]. symmetry. apply sg_eqb_ok. reflexivity.
  - intros x Hx. apply bump_counted, A3, Hx.
Qed.
Lemma compute_total : forall e b, In e S -> counts_ok b -> counted b e -> exists y b', compute G e b = Ok (y, b') /\ counts G b' = counts G b.
Proof.
  intros e. induction e as [o l s IH] using exp_ind'. intros b HS HC He. rewrite compute_eq. destruct (lookup G (lets G b) s) as [v|]; [exists v, b; auto|].
  unfold counted in He. cbn in He. destruct (lookup G (counts G b) s) as [c|] eqn:L; [|congruence].
  assert (Al : forall x, In x l -> counted b x) by (intros x Hx; apply (HC (E o l s)); [exact HS|unfold counted; cbn; rewrite L; discriminate|exact Hx]).
  assert (Sl : forall x, In x l -> In x S) by (intros x Hx; apply (closed (E o l s)); assumption).
  assert (C : exists ys b1, clist l b = Ok (ys, b1) /\ counts G b1 = counts G b).
  { clear - IH HC Al Sl. revert b HC Al. induction IH as [|x t Hx Ht IHt]; intros b HC Al; cbn [clist]; [exists [], b; auto|].
    destruct (Hx b (Sl x (or_introl eq_refl)) HC (Al x (or_introl eq_refl))) as (y & b1 & -> & Q1). cbn [bind].
    destruct (IHt (fun z Hz => Sl z (or_intror Hz)) b1) as (ys & b2 & -> & Q2).
    - unfold counts_ok, counted. rewrite Q1. exact HC.
    - intros z Hz. unfold counted. rewrite Q1. apply (Al z (or_intror Hz)).
    - cbn [bind]. exists (y :: ys), b2. split; [reflexivity|congruence]. }
  destruct C as (ys & b1 & -> & Q). cbn [bind]. destruct (fast_op o || (c =? 1)); [exists (E o ys s), b1; auto|].
  destruct (now_ok "t" (E o ys s) b1) as (v & _ & ->). cbn [bind]. eexists. eexists. split; [reflexivity|]. exact Q.
Qed.
End P.

Section Run.
Variables (F : Fld) (G : SigOps).
Notation exp := (exp G).
Notation bst := (bst G).
(** ** Whole runs *)
Lemma step_scoped : forall c ins b r b', bstep c b = Ok (r, b') -> in_scope c b -> scoped_b G ins b ->
  exists ins', ins' = rev (inputs [c]) ++ ins /\ scoped_b G ins' b' /\ incl (names G b) (names G b') /\ prefix G b b' /\
    (forall e y, In (e, y) r -> incl (vars y) (names G b') /\ incl (vars e) (names G b')).
Proof.
  intros c ins b r b' H Hs HB. destruct c as [n d|p e|e|e]; cbn [bstep] in H; cbn [in_scope] in Hs.
  - unfold input in H. destruct (existsb (String.eqb n) (names G b)) eqn:Ex; [discriminate|]. cbn in H. injection H as <- <-. eexists. split; [reflexivity|].
    assert (Nn : ~ In n (names G b)) by (intros Q; apply existsb_in in Q; congruence).
    destruct HB as (W & N & L). cbn. split; [split; [|split]|split; [|split]].
    + cbn. apply well_scoped_more; [|exact W]. intros Q. apply Nn, N. right. exact Q.
    + cbn. intros m. rewrite N. tauto.
    + cbn. intros s v Hv u Hu. right. apply (L s v Hv u Hu).
    + intros u Hu. right. exact Hu.
    + exists []. cbn. rewrite app_nil_r. reflexivity.
    + intros e y [].
  - destruct (now G p e b) as [[v b1]| |] eqn:En; try discriminate. injection H as <- <-. exists ins. split; [reflexivity|].
    destruct (now_scoped G ins _ _ _ _ _ En HB Hs) as (A1 & A2 & A3). destruct (now_prefix G _ _ _ _ _ En) as (A4 & _).
    split; [exact A1|]. split; [exact A3|]. split; [exact A4|]. intros x y [Q|[]]. injection Q as <- <-. split; [exact A2|]. eapply incl_tran; eassumption.
  - injection H as <- <-. exists ins. split; [reflexivity|]. destruct (use_same G e b) as (A1 & A2 & A3). unfold scoped_b, prefix. rewrite A1, A2, A3.
    split; [exact HB|]. split; [apply incl_refl|]. split; [exists []; rewrite app_nil_r; reflexivity|]. intros x y [].
  - destruct (compute G e b) as [[v b1]| |] eqn:En; try discriminate. injection H as <- <-. exists ins. split; [reflexivity|].
    destruct (compute_scoped G _ ins _ _ _ En HB Hs) as (A1 & A2 & A3). split; [exact A1|]. split; [exact A3|].
    split; [apply (compute_prefix G _ _ _ _ En)|]. intros x y [Q|[]]. injection Q as <- <-. split; [exact A2|]. eapply incl_tran; eassumption.
Qed.
Lemma inputs_cons : forall (c : bcmd G) cs, inputs (c :: cs) = inputs [c] ++ inputs cs.
Proof. intros c cs. unfold inputs. cbn. rewrite app_nil_r. reflexivity. Qed.
Lemma run_scoped : forall cs ins b rs b', brun cs b = Ok (rs, b') -> along in_scope cs b -> scoped_b G ins b ->
  scoped_b G (rev (inputs cs) ++ ins) b' /\ incl (names G b) (names G b') /\ prefix G b b' /\
    (forall e y, In (e, y) rs -> incl (vars y) (names G b') /\ incl (vars e) (names G b')).
Proof.
  induction cs as [|c cs IH]; intros ins b rs b' H Hs HB; cbn [brun] in H.
  - injection H as <- <-. split; [exact HB|]. split; [apply incl_refl|]. split; [apply prefix_refl|]. intros e y [].
  - cbn [along] in Hs. destruct Hs as [Hc Hs]. destruct (bstep c b) as [[r b1]| |] eqn:E1; try discriminate. cbn [bind] in H.
    destruct (brun cs b1) as [[rs1 b2]| |] eqn:E2; try discriminate. injection H as <- <-.
    destruct (step_scoped c ins b r b1 E1 Hc HB) as (ins' & -> & A1 & A2 & A3 & A4).
    destruct (IH _ _ _ _ E2 Hs A1) as (B1 & B2 & B3 & B4). split; [|split; [eapply incl_tran; eassumption|split; [eapply prefix_trans; eassumption|]]].
    + rewrite inputs_cons, rev_app_distr, <- app_assoc. exact B1.
    + intros e y Hin. apply in_app_or in Hin. destruct Hin as [Hin|Hin]; [|apply B4; exact Hin]. destruct (A4 e y Hin). split; eapply incl_tran; eassumption.
Qed.
Lemma run_value : forall S (J : interp F) cs b rs b', faithful F G S J -> (forall e, In e (asked cs) -> incl (subs e) S) ->
  brun cs b = Ok (rs, b') -> sat F G J b' -> lets_ok F G S J b ->
  prefix G b b' /\ forall e y, In (e, y) rs -> eval J y = eval J e.
Proof.
  intros S J cs. induction cs as [|c cs IH]; intros b rs b' HF HA H HS HL; cbn [brun] in H.
  - injection H as <- <-. split; [apply prefix_refl|]. intros e y [].
  - destruct (bstep c b) as [[r b1]| |] eqn:E1; try discriminate. cbn [bind] in H.
    destruct (brun cs b1) as [[rs1 b2]| |] eqn:E2; try discriminate. injection H as <- <-.
    assert (P12 : prefix G b1 b2).
    { clear - E2. revert b1 rs1 b2 E2. induction cs as [|c cs IH]; intros b rs b' H; cbn [brun] in H; [injection H as <- <-; apply prefix_refl|].
      destruct (bstep c b) as [[r b1]| |] eqn:E1; try discriminate. cbn [bind] in H.
      destruct (brun cs b1) as [[rs1 b2]| |] eqn:E2; try discriminate. injection H as <- <-. apply (prefix_trans G _ b1); [|eapply IH; exact E2].
      destruct c as [n d|p e|e|e]; cbn [bstep] in E1.
      - unfold input in E1. destruct (existsb (String.eqb n) (names G b)); [discriminate|]. cbn in E1. injection E1 as <- <-. exists []. cbn. rewrite app_nil_r. reflexivity.
      - destruct (now G p e b) as [[v b3]| |] eqn:En; try discriminate. injection E1 as <- <-. apply (now_prefix G _ _ _ _ _ En).
      - injection E1 as <- <-. destruct (use_same G e b) as (_ & _ & A3). exists []. rewrite A3, app_nil_r. reflexivity.
      - destruct (compute G e b) as [[v b3]| |] eqn:En; try discriminate. injection E1 as <- <-. apply (compute_prefix G _ _ _ _ En). }
    assert (HS1 : sat F G J b1) by (eapply sat_prefix; eassumption).
    assert (X : prefix G b b1 /\ lets_ok F G S J b1 /\ forall e y, In (e, y) r -> eval J y = eval J e).
    { destruct c as [n d|p e|e|e]; cbn [bstep] in E1.
      - unfold input in E1. destruct (existsb (String.eqb n) (names G b)); [discriminate|]. cbn in E1. injection E1 as <- <-. split; [exists []; cbn; rewrite app_nil_r; reflexivity|].
        split; [exact HL|]. intros e y [].
      - destruct (now G p e b) as [[v b3]| |] eqn:En; try discriminate. injection E1 as <- <-. destruct (now_prefix G _ _ _ _ _ En) as (A1 & A2 & _).
        split; [exact A1|]. split; [unfold lets_ok; rewrite A2; exact HL|]. intros x y [Q|[]]. injection Q as <- <-. apply (now_value F G J _ _ _ _ _ En HS1).
      - injection E1 as <- <-. destruct (use_same G e b) as (_ & A2 & A3). split; [exists []; rewrite A3, app_nil_r; reflexivity|].
        split; [unfold lets_ok; rewrite A2; exact HL|]. intros x y [].
      - destruct (compute G e b) as [[v b3]| |] eqn:En; try discriminate. injection E1 as <- <-.
        destruct (compute_value F G S J HF _ _ _ _ En) as [A1 A2]; [apply HA; left; reflexivity|]. destruct (A2 HS1 HL) as [A3 A4].
        split; [exact A1|]. split; [exact A4|]. intros x y [Q|[]]. injection Q as <- <-. exact A3. }
    destruct X as (X1 & X2 & X3). destruct (IH b1 rs1 b2 HF) as [Y1 Y2]; auto.
    { intros e He. apply HA. unfold asked in *. cbn. apply in_or_app. right. exact He. }
    split; [eapply prefix_trans; eassumption|]. intros e y Hin. apply in_app_or in Hin. destruct Hin; auto.
Qed.
Lemma scoped0 : scoped_b G [] (block0 G).
Proof. split; [exact Logic.I|]. split; [cbn; tauto|]. intros s v []. Qed.

(** compute never fails on what has been used. *)
Definition ready (c : bcmd G) (us : list exp) (b : bst) : Prop :=
  match c with BInput n _ => ~ In n (names G b) | BCompute e => In e (flat_map subs us) | _ => True end.
Fixpoint ready_run (cs : list (bcmd G)) (us : list exp) (b : bst) : Prop :=
  match cs with
  | [] => True
  | c :: t => ready c us b /\ match bstep c b with Ok (_, b) => ready_run t (us ++ used [c]) b | _ => True end
  end.
Lemma subs_closed : forall (e x y : exp), In x (subs e) -> In y (args_of x) -> In y (subs e).
Proof.
  intros e. induction e as [o l s IH] using exp_ind'. intros x y Hx Hy. cbn in Hx. destruct Hx as [<-|Hx].
  - right. apply in_flat_map. exists y. split; [exact Hy|]. destruct y; left; reflexivity.
  - right. apply in_flat_map in Hx. destruct Hx as (z & Hz & Hx). apply in_flat_map. exists z. split; [exact Hz|]. rewrite Forall_forall in IH. apply (IH z Hz x y Hx Hy).
Qed.
Lemma run_total : forall S cs us b, (forall e1 e2, In e1 S -> In e2 S -> sig_of e1 = sig_of e2 -> e1 = e2) -> (forall e x, In e S -> In x (args_of e) -> In x S) ->
  incl (us ++ used cs) S -> ready_run cs us b -> counts_ok G S b -> counts_pos G b -> (forall e, In e us -> counted G b e) ->
  exists rs b', brun cs b = Ok (rs, b').
Proof.
  intros S cs. induction cs as [|c cs IH]; intros us b HC HK HU HR C1 C2 C3; cbn [brun]; [exists [], b; reflexivity|].
  cbn [ready_run] in HR. destruct HR as [HR1 HR2].
  assert (HU' : incl ((us ++ used [c]) ++ used cs) S).
  { rewrite <- app_assoc. unfold used in *. cbn in *. rewrite app_nil_r. exact HU. }
  assert (X : exists r b1, bstep c b = Ok (r, b1) /\ counts_ok G S b1 /\ counts_pos G b1 /\ (forall e, In e (us ++ used [c]) -> counted G b1 e)).
  { destruct c as [n d|p e|e|e]; cbn [bstep]; cbn [ready] in HR1; cbn [used flat_map app]; rewrite ?app_nil_r.
    - unfold input. destruct (existsb (String.eqb n) (names G b)) eqn:Ex; [apply existsb_in in Ex; contradiction|]. eexists. eexists. split; [reflexivity|]. split; [exact C1|]. split; [exact C2|exact C3].
    - destruct (now_ok G p e b) as (v & _ & ->). eexists. eexists. split; [reflexivity|]. split; [exact C1|]. split; [exact C2|exact C3].
    - assert (Se : In e S) by (apply HU; apply in_or_app; right; left; reflexivity).
      destruct (use_counts G S HC HK e b Se C1 C2) as (A1 & A2 & A3 & A4). eexists. eexists. split; [reflexivity|]. split; [exact A1|]. split; [exact A2|].
      intros x Hx. apply in_app_or in Hx. destruct Hx as [Hx|[<-|[]]]; [apply A4, C3, Hx|exact A3].
    - apply in_flat_map in HR1. destruct HR1 as (u & Hu & He).
      assert (Q : forall u, In u S -> counted G b u -> forall x, In x (subs u) -> In x S /\ counted G b x).
      { clear - HK C1. intros u. induction u as [o l s IH] using exp_ind'. intros Su Cu x Hx. cbn in Hx. destruct Hx as [<-|Hx]; [auto|].
        apply in_flat_map in Hx. destruct Hx as (z & Hz & Hx). rewrite Forall_forall in IH. apply (IH z Hz); [apply (HK (E o l s)); assumption|apply (C1 (E o l s)); assumption|exact Hx]. }
      destruct (Q u (HU u (in_or_app _ _ _ (or_introl Hu))) (C3 u Hu) e He) as [Se Ce].
      destruct (compute_total G S HK e b Se C1 Ce) as (y & b1 & -> & Ec). eexists. eexists. split; [reflexivity|].
      unfold counts_ok, counts_pos, counted. rewrite Ec. split; [exact C1|]. split; [exact C2|exact C3]. }
  destruct X as (r & b1 & E1 & A1 & A2 & A3). rewrite E1 in HR2 |- *. cbn [bind].
  destruct (IH (us ++ used [c]) b1 HC HK HU' HR2 A1 A2 A3) as (rs & b2 & ->). cbn [bind]. eexists. eexists. reflexivity.
Qed.
End Run.
