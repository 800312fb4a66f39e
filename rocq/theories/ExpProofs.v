(** Proofs about the symbolic constructors and common subexpression elimination (exp.cc). *)
From Coq Require Import String ZArith List Bool Lia Ring_theory Ring Field.
From Verif Require Import Base Field FPS ExpModel.
Import ListNotations.
Open Scope Z_scope.

(** What the signature arithmetic must satisfy; established for the operations of sig.cc in
    ExpSig.v.  [sg_arb] (SHA-256) is unconstrained. *)
Record SigLaws (G : SigOps) : Prop := {
  law_ring : ring_theory (sg_int G 0) (sg_int G 1) (sg_add G) (sg_mul G) (sg_sub G) (sg_neg G) (@eq G);
  law_neg : forall n, - 2 ^ 31 < n < 2 ^ 31 -> sg_int G (- n) = sg_neg G (sg_int G n);
  law_small : forall s n, sg_unsmall G s = Some n -> Z.abs n <= 32 /\ s = sg_int G n;
  law_inv : forall a, 0 < a < 2 ^ 31 -> exists t, sg_inv G (sg_int G a) = Ok t /\ sg_mul G (sg_int G a) t = sg_int G 1
}.

Section Spec.
Variables (F : Fld) (G : SigOps) (I : interp F).
(** The integers CSE recognises by signature. *)
Definition smalls : list (exp G) := map (fun k => mkint (Z.of_nat k - 32)) (seq 0 65).
(** No two of the given expressions, small integers included, share a signature while having
    different values. *)
Definition no_collision (l : list (exp G)) : Prop :=
  forall e1 e2, In e1 (smalls ++ l) -> In e2 (smalls ++ l) -> sig_of e1 = sig_of e2 -> eval I e1 = eval I e2.
(** Expressions the operators can meet: integer literals are ints other than the least, and the
    signatures of literals and negations are those of the constructors. *)
Fixpoint wfe (e : exp G) : Prop :=
  match e with
  | E (OInt n) args s => args = [] /\ - 2 ^ 31 < n < 2 ^ 31 /\ s = sg_int G n
  | E ONeg [x] s => s = sg_neg G (sig_of x) /\ wfe x
  | E ONeg _ _ => False
  | _ => True
  end.
(** Table entries carry their signature and were offered to the table. *)
Definition Inv (st : cst G) : Prop :=
  forall s e, In (s, e) (tbl G st) -> sig_of e = s /\ In e (lg G st) /\ fast_op (op_of e) = false.
(** Later states know everything earlier ones did. *)
Definition ext (st st' : cst G) : Prop :=
  incl (lg G st) (lg G st') /\ forall s e, lookup G (tbl G st) s = Some e -> lookup G (tbl G st') s = Some e.
End Spec.
Arguments no_collision {F G}. Arguments wfe {G}. Arguments Inv {G}. Arguments ext {G}.

Lemma ext_refl : forall G (st : cst G), ext st st.
Proof. intros G st. split; [apply incl_refl|auto]. Qed.
Lemma ext_trans : forall G (a b c : cst G), ext a b -> ext b c -> ext a c.
Proof. intros G a b c [H1 H2] [H3 H4]. split; [eapply incl_tran; eassumption|auto]. Qed.
Ltac rsplit := repeat match goal with |- _ /\ _ => split end.

Section P.
Variables (F : Fld) (G : SigOps) (I : interp F).
Hypothesis HL : SigLaws G.
Add Field KF : (kfield F).
Add Ring GR : (law_ring G HL).

Lemma smalls_in : forall n, Z.abs n <= 32 -> In (mkint n) (smalls G).
Proof.
  intros n H. unfold smalls. apply in_map_iff. exists (Z.to_nat (n + 32)). split; [f_equal; lia|]. apply in_seq. lia.
Qed.
Lemma nocol_incl : forall l l' : list (exp G), incl l l' -> no_collision I l' -> no_collision I l.
Proof.
  intros l l' H N e1 e2 H1 H2. apply N; rewrite in_app_iff in *; intuition.
Qed.
Lemma wfe_other : forall o (args : list (exp G)) s, (forall n, o <> OInt n) -> o <> ONeg -> wfe (E o args s).
Proof. intros o args s H1 H2. destruct o; cbn; auto; congruence. Qed.
Lemma wfe_int : forall n, - 2 ^ 31 < n < 2 ^ 31 -> wfe (mkint (G := G) n).
Proof. intros n H. cbn. auto. Qed.
Lemma lookup_in : forall A (l : list (G * A)) s a, lookup G l s = Some a -> In (s, a) l.
Proof.
  induction l as [|[k b] l IH]; intros s a H; [discriminate|]. cbn in H. destruct (sg_eqb G k s) eqn:E.
  - apply sg_eqb_ok in E. injection H as ->. subst. left. reflexivity.
  - right. apply IH. exact H.
Qed.
Lemma lookup_none : forall A (l : list (G * A)) s a, lookup G l s = None -> ~ In (s, a) l.
Proof.
  induction l as [|[k b] l IH]; intros s a H HI; [exact HI|]. cbn in H. destruct (sg_eqb G k s) eqn:E; [discriminate|].
  destruct HI as [HI|HI]; [|exact (IH s a H HI)]. injection HI as -> ->. assert (sg_eqb G s s = true) by (apply sg_eqb_ok; reflexivity). congruence.
Qed.

(** The outcome of a constructor: it succeeds from any state, and its result has the given
    signature (exact mode) and value (when no collision has occurred up to the end). *)
Definition espec (m : M G (exp G)) (sg : G) (v : F) : Prop :=
  forall st, Inv st -> exists r st', m st = Ok (r, st') /\ Inv st' /\ ext st st' /\ exact G st' = exact G st /\ wfe r /\
    (exact G st = true -> sig_of r = sg) /\ (no_collision I (lg G st') -> eval I r = v).

Lemma espec_ext : forall m sg v sg' v', espec m sg v -> sg = sg' -> v = v' -> espec m sg' v'.
Proof. intros; subst; assumption. Qed.
Lemma espec_ret : forall e, wfe e -> espec (ret G e) (sig_of e) (eval I e).
Proof.
  intros e W st H. exists e, st. rsplit; auto using ext_refl. Qed.
Lemma espec_bind : forall m k sg v f g, espec m sg v -> (forall r, wfe r -> espec (k r) (f (sig_of r)) (g (eval I r))) ->
  espec (mbind G m k) (f sg) (g v).
Proof.
  intros m k sg v f g Hm Hk st H. destruct (Hm st H) as (r & st1 & E1 & I1 & L1 & X1 & W1 & S1 & V1).
  destruct (Hk r W1 st1 I1) as (r2 & st2 & E2 & I2 & L2 & X2 & W2 & S2 & V2).
  exists r2, st2. unfold mbind. rewrite E1. cbn [bind]. rewrite E2. rsplit; auto.
  - eapply ext_trans; eassumption.
  - congruence.
  - intros Ex. rewrite S2 by congruence. rewrite S1 by exact Ex. reflexivity.
  - intros N. rewrite V2 by exact N. rewrite V1; [reflexivity|]. apply (nocol_incl _ _ (proj1 L2) N).
Qed.
Lemma bind_lift : forall A B (a : A) (k : A -> M G B) st, mbind G (lift G (Ok a)) k st = k a st.
Proof. reflexivity. Qed.
Lemma espec_lift : forall A (a : A) (k : A -> M G (exp G)) sg v, espec (k a) sg v -> espec (mbind G (lift G (Ok a)) k) sg v.
Proof. intros A a k sg v H st Hs. apply H. exact Hs. Qed.

Lemma espec_cse : forall o args s v, wfe (E o args (node_arb G o args s)) -> wfe (E o args s) -> eval I (E o args s) = v -> espec (cse G o args s) s v.
Proof.
  intros o args s v Wa We Ev st H. unfold cse. set (s' := if exact G st then s else node_arb G o args s).
  assert (W' : wfe (E o args s')) by (unfold s'; destruct (exact G st); assumption).
  assert (X' : exact G st = true -> s' = s) by (unfold s'; intros ->; reflexivity). clearbody s'.
  assert (V' : eval I (E o args s') = v) by exact Ev.
  unfold cse_exp. cbn [op_of sig_of]. destruct (fast_op o) eqn:Fo.
  - exists (E o args s'), st. rsplit; auto using ext_refl.
  - cbn [tbl lg exact]. destruct (sg_unsmall G s') as [n|] eqn:U.
    + destruct (law_small G HL _ _ U) as [Bn En].
      exists (mkint n). eexists. split; [reflexivity|]. cbn [lg exact tbl].
      split; [intros k e He; destruct (H k e He) as (A & B & C); rsplit; auto; right; exact B|].
      split; [split; [apply incl_tl, incl_refl|auto]|]. split; [reflexivity|]. split; [apply wfe_int; lia|]. split.
      * intros Ex. cbn. rewrite <- En. apply X'. exact Ex.
      * intros N. rewrite <- V'. apply N; [apply in_or_app; left; apply smalls_in; exact Bn|apply in_or_app; right; left; reflexivity|].
        cbn. symmetry. exact En.
    + destruct (lookup G (tbl G st) s') as [e'|] eqn:L.
      * destruct (H _ _ (lookup_in _ _ _ _ L)) as (A & B & C).
        exists e'. eexists. split; [reflexivity|]. cbn [lg exact tbl].
        split; [intros k e He; destruct (H k e He) as (A' & B' & C'); rsplit; auto; right; exact B'|].
        split; [split; [apply incl_tl, incl_refl|auto]|]. split; [reflexivity|]. split.
        { destruct e' as [o' a' k']. apply wfe_other; cbn in C; intros; intros ->; discriminate C. }
        split; [intros Ex; rewrite A; apply X'; exact Ex|].
        intros N. rewrite <- V'. apply N; [apply in_or_app; right; right; exact B|apply in_or_app; right; left; reflexivity|exact A].
      * exists (E o args s'). eexists. split; [reflexivity|]. cbn [lg exact tbl]. split.
        { intros k e [He|He]; [injection He as <- <-; rsplit; auto; left; reflexivity|].
          destruct (H k e He) as (A' & B' & C'); rsplit; auto; right; exact B'. }
        split; [split; [apply incl_tl, incl_refl|]; intros k e Hk; cbn [tbl]; cbn [lookup]; destruct (sg_eqb G s' k) eqn:Q; [apply sg_eqb_ok in Q; subst k; congruence|exact Hk]|]. split; [reflexivity|]. split; [exact W'|]. split; [exact X'|]. intros _. exact V'.
Qed.

(** Stripping a sign. *)
Lemma unneg_spec : forall e : exp G, wfe e ->
  (exists x, unneg G e = Ok (Some x) /\ wfe x /\ (S (weight G x) <= weight G e)%nat /\ sig_of e = sg_neg G (sig_of x) /\ eval I e = kopp (eval I x)) \/
  (unneg G e = Ok None /\ op_of e <> ONeg /\ (forall n, op_of e = OInt n -> 0 <= n)).
Proof.
  intros [o args s] W.
  destruct o as [v|n|f| | | | |a|f|t p];
    try (right; split; [reflexivity|]; split; [discriminate|]; intros n Hn; discriminate Hn).
  - cbn in W. destruct W as (-> & Bn & ->). cbn [unneg]. destruct (Z.ltb_spec n 0) as [L|L].
    + left. exists (mkint (- n)). unfold int_neg. destruct (Z.eqb_spec n (- 2 ^ 31)) as [Q|Q]; [lia|].
      split; [reflexivity|]. split; [apply wfe_int; lia|]. split.
      * cbn. destruct (Z.ltb_spec n 0); [|lia]. destruct (Z.ltb_spec (- n) 0); lia.
      * split; [cbn; rewrite <- (law_neg G HL) by lia; f_equal; lia|]. cbn. rewrite kofZ_opp. ring.
    + right. split; [reflexivity|]. split; [discriminate|]. intros m Hm. injection Hm as <-. lia.
  - destruct args as [|x [|y t]]; cbn in W; try contradiction. destruct W as [-> W]. left. exists x.
    split; [reflexivity|]. split; [exact W|]. split; [cbn; lia|]. split; reflexivity.
Qed.
Lemma weight_pos : forall e : exp G, (1 <= weight G e)%nat.
Proof. intros [o l s]; destruct o; cbn; try lia. - destruct (n <? 0); lia. - destruct l as [|x [|]]; lia. Qed.
Lemma is_int_spec : forall n (e : exp G), wfe e -> is_int G n e = true -> e = mkint n.
Proof.
  intros n [o args s] W H. unfold is_int, unint in H. cbn in H. destruct o; try discriminate. apply Z.eqb_eq in H. subst n0.
  cbn in W. destruct W as (-> & _ & ->). reflexivity.
Qed.

Lemma neg_spec : forall e, wfe e -> espec (exp_neg G e) (sg_neg G (sig_of e)) (kopp (eval I e)).
Proof.
  intros e W. unfold exp_neg. destruct (unint G e) as [n|] eqn:U.
  - unfold unint in U. destruct e as [o args s]. cbn in U. destruct o; try discriminate. injection U as ->.
    cbn in W. destruct W as (-> & Bn & ->). unfold int_neg. destruct (Z.eqb_spec n (- 2 ^ 31)) as [Q|Q]; [lia|].
    apply espec_lift. eapply espec_ext; [apply espec_ret; apply wfe_int; lia|..].
    + cbn. apply (law_neg G HL). lia.
    + cbn. apply kofZ_opp.
  - destruct (unneg_spec e W) as [(x & -> & Wx & _ & Sx & Vx)|(-> & Hn & Hi)].
    + apply espec_lift. eapply espec_ext; [apply espec_ret; exact Wx|..]; [rewrite Sx|rewrite Vx]; ring.
    + apply espec_lift. apply espec_cse; [cbn; auto|cbn; auto|reflexivity].
Qed.

Lemma addsub_spec : forall fuel sub x y, (weight G x + weight G y <= fuel)%nat -> wfe x -> wfe y ->
  espec (addsub G fuel sub x y)
    (if sub then sg_sub G (sig_of x) (sig_of y) else sg_add G (sig_of x) (sig_of y))
    (if sub then ksub (eval I x) (eval I y) else kadd (eval I x) (eval I y)).
Proof.
  induction fuel as [|f IH]; intros sub x y Hf Wx Wy.
  { pose proof (weight_pos x). lia. }
  cbn [addsub]. destruct (is_int G 0 x) eqn:Zx.
  { apply is_int_spec in Zx; [|exact Wx]. subst x. destruct sub.
    - eapply espec_ext; [apply neg_spec; exact Wy|..]; cbn; ring.
    - eapply espec_ext; [apply espec_ret; exact Wy|..]; cbn; ring. }
  destruct (is_int G 0 y) eqn:Zy.
  { apply is_int_spec in Zy; [|exact Wy]. subst y. eapply espec_ext; [apply espec_ret; exact Wx|..]; destruct sub; cbn; ring. }
  destruct (unneg_spec x Wx) as [(nx & -> & Wn & Ln & Sn & Vn)|(-> & _)]; apply espec_lift.
  { destruct sub.
    - eapply espec_ext; [eapply (espec_bind _ _ _ _ (sg_neg G) kopp); [apply (IH false); [lia|exact Wn|exact Wy]|intros r Wr; apply neg_spec; exact Wr]|..];
        [rewrite Sn|rewrite Vn]; ring.
    - eapply espec_ext; [apply (IH true); [lia|exact Wy|exact Wn]|..]; [rewrite Sn|rewrite Vn]; ring. }
  destruct (unneg_spec y Wy) as [(ny & -> & Wn & Ln & Sn & Vn)|(-> & _)]; apply espec_lift.
  { eapply espec_ext; [apply (IH (negb sub)); [lia|exact Wx|exact Wn]|..]; rewrite ?Sn, ?Vn; destruct sub; cbn [negb]; ring. }
  destruct sub; (apply espec_cse; [apply wfe_other; [intros; discriminate|discriminate]|apply wfe_other; [intros; discriminate|discriminate]|reflexivity]).
Qed.
Lemma add_spec : forall x y, wfe x -> wfe y -> espec (exp_add G x y) (sg_add G (sig_of x) (sig_of y)) (kadd (eval I x) (eval I y)).
Proof. intros x y Wx Wy. apply (addsub_spec _ false); [lia|assumption|assumption]. Qed.
Lemma sub_spec : forall x y, wfe x -> wfe y -> espec (exp_sub G x y) (sg_sub G (sig_of x) (sig_of y)) (ksub (eval I x) (eval I y)).
Proof. intros x y Wx Wy. apply (addsub_spec _ true); [lia|assumption|assumption]. Qed.

Lemma mul_spec_fuel : forall fuel x y, (weight G x + weight G y <= fuel)%nat -> wfe x -> wfe y ->
  espec (mul_fuel G fuel x y) (sg_mul G (sig_of x) (sig_of y)) (kmul (eval I x) (eval I y)).
Proof.
  induction fuel as [|f IH]; intros x y Hf Wx Wy.
  { pose proof (weight_pos x). lia. }
  cbn [mul_fuel]. destruct (is_int G 0 x) eqn:Zx.
  { apply is_int_spec in Zx; [|exact Wx]. subst x. cbn [orb]. eapply espec_ext; [apply espec_ret; apply wfe_int; lia|..]; cbn; ring. }
  destruct (is_int G 0 y) eqn:Zy.
  { apply is_int_spec in Zy; [|exact Wy]. subst y. cbn [orb]. eapply espec_ext; [apply espec_ret; apply wfe_int; lia|..]; cbn; ring. }
  cbn [orb]. destruct (unneg_spec x Wx) as [(nx & -> & Wn & Ln & Sn & Vn)|(-> & _)]; apply espec_lift.
  { eapply espec_ext; [eapply (espec_bind _ _ _ _ (sg_neg G) kopp); [apply IH; [lia|exact Wn|exact Wy]|intros r Wr; apply neg_spec; exact Wr]|..];
        [rewrite Sn|rewrite Vn]; ring. }
  destruct (unneg_spec y Wy) as [(ny & -> & Wn & Ln & Sn & Vn)|(-> & _)]; apply espec_lift.
  { eapply espec_ext; [eapply (espec_bind _ _ _ _ (sg_neg G) kopp); [apply IH; [lia|exact Wx|exact Wn]|intros r Wr; apply neg_spec; exact Wr]|..];
        [rewrite Sn|rewrite Vn]; ring. }
  destruct (is_int G 1 x) eqn:Ox.
  { apply is_int_spec in Ox; [|exact Wx]. subst x. eapply espec_ext; [apply espec_ret; exact Wy|..]; cbn; [ring|rewrite kofnat_1; ring]. }
  destruct (is_int G 1 y) eqn:Oy.
  { apply is_int_spec in Oy; [|exact Wy]. subst y. eapply espec_ext; [apply espec_ret; exact Wx|..]; cbn; [ring|rewrite kofnat_1; ring]. }
  apply espec_cse; [apply wfe_other; [intros; discriminate|discriminate]|apply wfe_other; [intros; discriminate|discriminate]|reflexivity].
Qed.
Lemma mul_spec : forall x y, wfe x -> wfe y -> espec (exp_mul G x y) (sg_mul G (sig_of x) (sig_of y)) (kmul (eval I x) (eval I y)).
Proof. intros x y Wx Wy. apply mul_spec_fuel; [lia|assumption|assumption]. Qed.

(** Division by a positive int. *)
Lemma div_pos_fuel : forall fuel x a t, (weight G x <= fuel)%nat -> wfe x -> 1 < a < 2 ^ 31 -> sg_inv G (sg_int G a) = Ok t ->
  espec (div_fuel G fuel x a) (sg_mul G (sig_of x) t) (kdiv (eval I x) (kofZ a)).
Proof.
  induction fuel as [|f IH]; intros x a t Hf Wx Ha Ht; [pose proof (weight_pos x); lia|].
  assert (Nz : kofZ (F := F) a <> k0) by (apply kofZ_nz; lia).
  cbn [div_fuel]. destruct (Z.eqb_spec a 0); [lia|]. destruct (Z.eqb_spec a 1); [lia|]. destruct (Z.eqb_spec a (-1)); [lia|].
  destruct (Z.ltb_spec a 0); [lia|].
  destruct (unneg_spec x Wx) as [(nx & -> & Wn & Ln & Sn & Vn)|(-> & _)]; apply espec_lift.
  { eapply espec_ext; [eapply (espec_bind _ _ _ _ (sg_neg G) kopp); [apply (IH nx a t); [lia|exact Wn|exact Ha|exact Ht]|intros r Wr; apply neg_spec; exact Wr]|..].
    - rewrite Sn. ring.
    - rewrite Vn. field. exact Nz. }
  rewrite Ht. apply espec_lift.
  apply espec_cse; [apply wfe_other; [intros; discriminate|discriminate]|apply wfe_other; [intros; discriminate|discriminate]|reflexivity].
Qed.
(** The signature of x / a: the solution of sig * a = sig x. *)
Lemma div_spec : forall x a, wfe x -> a <> 0 -> - 2 ^ 31 < a < 2 ^ 31 ->
  exists sg, sg_mul G sg (sg_int G a) = sig_of x /\ espec (exp_div G x a) sg (kdiv (eval I x) (kofZ a)).
Proof.
  intros x a Wx Nz Ba. unfold exp_div. assert (Kz : kofZ (F := F) a <> k0) by (apply kofZ_nz; exact Nz).
  assert (K1 : kofZ (F := F) 1 = k1) by (cbn; apply kofnat_1).
  assert (N1 : sg_int G (-1) = sg_neg G (sg_int G 1)) by (apply (law_neg G HL 1); lia).
  destruct (Z.eq_dec a 1) as [->|A1]; [|destruct (Z.eq_dec a (-1)) as [->|A2]].
  - exists (sig_of x). split; [ring|]. cbn [div_fuel Z.eqb Pos.eqb]. eapply espec_ext; [apply espec_ret; exact Wx|reflexivity|].
    rewrite K1 in *. field. exact Kz.
  - exists (sg_neg G (sig_of x)). split; [rewrite N1; ring|]. cbn [div_fuel Z.eqb Pos.eqb]. eapply espec_ext; [apply neg_spec; exact Wx|reflexivity|].
    assert (Km : kofZ (F := F) (-1) = kopp k1) by (rewrite <- K1; exact (kofZ_opp F 1)). rewrite Km in *. field. exact Kz.
  - destruct (Z.ltb_spec a 0) as [L|L].
    + destruct (law_inv G HL (- a) ltac:(lia)) as (t & Ht & Et).
      exists (sg_neg G (sg_mul G (sig_of x) t)). split.
      * replace a with (- - a) by lia. rewrite (law_neg G HL (- a)) by lia.
        transitivity (sg_mul G (sig_of x) (sg_mul G (sg_int G (- a)) t)); [ring|]. rewrite Et. ring.
      * cbn [div_fuel]. destruct (Z.eqb_spec a 0); [lia|]. destruct (Z.eqb_spec a 1); [lia|]. destruct (Z.eqb_spec a (-1)); [lia|].
        destruct (Z.ltb_spec a 0); [|lia]. unfold int_neg. destruct (Z.eqb_spec a (- 2 ^ 31)); [lia|]. apply espec_lift.
        eapply espec_ext; [eapply (espec_bind _ _ _ _ (sg_neg G) kopp); [apply (div_pos_fuel _ x (- a) t); [lia|exact Wx|lia|exact Ht]|intros r Wr; apply neg_spec; exact Wr]|reflexivity|].
        rewrite kofZ_opp. field. split; [exact Kz|]. intros Q. apply Kz. transitivity (kopp (kopp (kofZ (F:=F) a))); [ring|]. rewrite Q. ring.
    + destruct (law_inv G HL a ltac:(lia)) as (t & Ht & Et). exists (sg_mul G (sig_of x) t). split.
      * transitivity (sg_mul G (sig_of x) (sg_mul G (sg_int G a) t)); [ring|]. rewrite Et. ring.
      * apply div_pos_fuel; [lia|exact Wx|lia|exact Ht].
Qed.

(** Sums. *)
Definition vsum (l : list F) : F := fold_right kadd k0 l.
Definition ssum (l : list G) : G := fold_right (sg_add G) (sg_int G 0) l.
Lemma vsum_app : forall a b, vsum (a ++ b) = kadd (vsum a) (vsum b).
Proof. induction a as [|x a IH]; intros b; [change (vsum b = kadd k0 (vsum b)); ring|]. change (kadd x (vsum (a ++ b)) = kadd (kadd x (vsum a)) (vsum b)). rewrite IH. ring. Qed.
Lemma ssum_app : forall a b, ssum (a ++ b) = sg_add G (ssum a) (ssum b).
Proof. induction a as [|x a IH]; intros b; [change (ssum b = sg_add G (sg_int G 0) (ssum b)); ring|]. change (sg_add G x (ssum (a ++ b)) = sg_add G (sg_add G x (ssum a)) (ssum b)). rewrite IH. ring. Qed.
Lemma espec_bind2 : forall m1 m2 k s1 v1 s2 v2 f g, espec m1 s1 v1 -> espec m2 s2 v2 ->
  (forall r1 r2, wfe r1 -> wfe r2 -> espec (k r1 r2) (f (sig_of r1) (sig_of r2)) (g (eval I r1) (eval I r2))) ->
  espec (mbind G m1 (fun r1 => mbind G m2 (fun r2 => k r1 r2))) (f s1 s2) (g v1 v2).
Proof.
  intros m1 m2 k s1 v1 s2 v2 f g H1 H2 Hk. apply (espec_bind _ _ _ _ (fun s => f s s2) (fun v => g v v2)); [exact H1|].
  intros r1 W1. apply (espec_bind _ _ _ _ (fun s => f (sig_of r1) s) (fun v => g (eval I r1) v)); [exact H2|].
  intros r2 W2. apply Hk; assumption.
Qed.
Lemma sum_spec_fuel : forall fuel lr xs, (length xs < fuel)%nat -> Forall wfe xs ->
  espec (sum_fuel G fuel lr xs) (ssum (map sig_of xs)) (vsum (map (eval I) xs)).
Proof.
  induction fuel as [|f IH]; intros lr xs Hf Wx; [lia|]. cbn [sum_fuel].
  destruct xs as [|x [|y t]].
  - eapply espec_ext; [apply espec_ret; apply wfe_int; lia|reflexivity|reflexivity].
  - inversion Wx; subst. eapply espec_ext; [apply espec_ret; assumption|cbn; ring|cbn; ring].
  - set (xs := x :: y :: t) in *. assert (L2 : (2 <= length xs)%nat) by (cbn; lia). clearbody xs.
    set (a := firstn (length xs / 2) xs). set (b := skipn (length xs - (length xs + 1) / 2) xs).
    assert (Hl : (length xs - (length xs + 1) / 2 = length xs / 2)%nat).
    { pose proof (Nat.div_mod (length xs) 2 ltac:(lia)). pose proof (Nat.div_mod (length xs + 1) 2 ltac:(lia)).
      pose proof (Nat.mod_upper_bound (length xs) 2 ltac:(lia)). pose proof (Nat.mod_upper_bound (length xs + 1) 2 ltac:(lia)). lia. }
    assert (Hd : (1 <= length xs / 2 < length xs)%nat) by (split; [apply Nat.div_le_lower_bound; lia|apply Nat.div_lt; lia]).
    assert (Ex : xs = a ++ b) by (unfold a, b; rewrite Hl; symmetry; apply firstn_skipn).
    assert (La : (length a < f)%nat) by (unfold a; rewrite firstn_length; lia).
    assert (Lb : (length b < f)%nat) by (unfold b; rewrite skipn_length; lia).
    assert (Wa : Forall wfe a) by (rewrite Ex in Wx; apply Forall_app in Wx; apply Wx).
    assert (Wb : Forall wfe b) by (rewrite Ex in Wx; apply Forall_app in Wx; apply Wx).
    rewrite Ex, !map_app, ssum_app, vsum_app. destruct lr.
    + apply (espec_bind2 _ _ _ _ _ _ _ (sg_add G) kadd); [apply IH; assumption|apply IH; assumption|]. intros u v Wu Wv. apply add_spec; assumption.
    + apply (espec_bind2 _ _ _ _ _ _ _ (fun p q => sg_add G q p) (fun p q => kadd q p)); [apply IH; assumption|apply IH; assumption|].
      intros u v Wu Wv. apply add_spec; assumption.
Qed.
Lemma sum_spec : forall lr xs, Forall wfe xs -> espec (exp_sum G lr xs) (ssum (map sig_of xs)) (vsum (map (eval I) xs)).
Proof. intros lr xs W. apply sum_spec_fuel; [lia|exact W]. Qed.

(** Calls, opaque texts and fields. *)
Lemma call_spec : forall f args s, espec (exp_call G f args s) s (icall I f (map (eval I) args)).
Proof. intros f args s. apply espec_cse; [exact Coq.Init.Logic.I|exact Coq.Init.Logic.I|reflexivity]. Qed.
Lemma other_spec : forall t p s, espec (exp_other G t p s) s (iother I t).
Proof. intros t p s. apply espec_cse; [exact Coq.Init.Logic.I|exact Coq.Init.Logic.I|reflexivity]. Qed.
Lemma field_spec : forall x f, espec (exp_field G x f) (sg_arb G (Some f) [sig_of x]) (ifield I f (eval I x)).
Proof. intros x f. apply espec_cse; [exact Coq.Init.Logic.I|exact Coq.Init.Logic.I|reflexivity]. Qed.
End P.

(** ** Histories of constructions *)
(** A step builds one expression from earlier ones, numbered from 0; a number out of range stands
    for the literal 0.  Calls and opaque texts carry the signature given by the caller. *)
Inductive cmd (G : SigOps) : Type :=
| CVar (v : string) (s : G) | CInt (n : Z)
| CNeg (i : nat) | CAdd (i j : nat) | CSub (i j : nat) | CMul (i j : nat) | CDiv (i : nat) (a : Z)
| CSum (lr : bool) (l : list nat) | CCall (f : string) (l : list nat) (s : G) | COther (t : string) (p : Z) (s : G)
| CField (i : nat) (f : string).
Arguments CVar {G}. Arguments CInt {G}. Arguments CNeg {G}. Arguments CAdd {G}. Arguments CSub {G}. Arguments CMul {G}.
Arguments CDiv {G}. Arguments CSum {G}. Arguments CCall {G}. Arguments COther {G}. Arguments CField {G}.
Definition cmd_ok {G} (c : cmd G) : Prop :=
  match c with CInt n => - 2 ^ 31 < n < 2 ^ 31 | CDiv _ a => a <> 0 /\ - 2 ^ 31 < a < 2 ^ 31 | _ => True end.
(** The step as performed by exp.cc. *)
Definition step_exp {G} (c : cmd G) (regs : list (exp G)) : M G (exp G) :=
  let r i := nth i regs (mkint 0) in
  match c with
  | CVar v s => ret G (mkvar v s)
  | CInt n => ret G (mkint n)
  | CNeg i => exp_neg G (r i)
  | CAdd i j => exp_add G (r i) (r j)
  | CSub i j => exp_sub G (r i) (r j)
  | CMul i j => exp_mul G (r i) (r j)
  | CDiv i a => exp_div G (r i) a
  | CSum lr l => exp_sum G lr (map r l)
  | CCall f l s => exp_call G f (map r l) s
  | COther t p s => exp_other G t p s
  | CField i f => exp_field G (r i) f
  end.
Fixpoint hist {G} (cs : list (cmd G)) (regs : list (exp G)) : M G (list (exp G)) :=
  match cs with
  | [] => ret G regs
  | c :: t => mbind G (step_exp c regs) (fun e => hist t (regs ++ [e]))
  end.
(** The same step on values: plain arithmetic, no simplification and no sharing. *)
Definition step_val {F : Fld} {G} (I : interp F) (c : cmd G) (regs : list F) : F :=
  let r i := nth i regs k0 in
  match c with
  | CVar v _ => iv I v
  | CInt n => kofZ n
  | CNeg i => kopp (r i)
  | CAdd i j => kadd (r i) (r j)
  | CSub i j => ksub (r i) (r j)
  | CMul i j => kmul (r i) (r j)
  | CDiv i a => kdiv (r i) (kofZ a)
  | CSum _ l => fold_right kadd k0 (map r l)
  | CCall f l _ => icall I f (map r l)
  | COther t _ _ => iother I t
  | CField i f => ifield I f (r i)
  end.
Fixpoint hist_val {F : Fld} {G} (I : interp F) (cs : list (cmd G)) (regs : list F) : list F :=
  match cs with [] => regs | c :: t => hist_val I t (regs ++ [step_val I c regs]) end.
Definition cse0 (G : SigOps) (ex : bool) : cst G := {| exact := ex; tbl := []; lg := [] |}.

Section H.
Variables (F : Fld) (G : SigOps) (I : interp F).
Hypothesis HL : SigLaws G.
Lemma nth_wfe : forall (regs : list (exp G)) i, Forall wfe regs -> wfe (nth i regs (mkint 0)).
Proof.
  intros regs i H. destruct (Nat.lt_ge_cases i (length regs)) as [L|L].
  - rewrite Forall_forall in H. apply H. apply nth_In. exact L.
  - rewrite nth_overflow by exact L. apply wfe_int. lia.
Qed.
Lemma nth_eval : forall (regs : list (exp G)) i, eval I (nth i regs (mkint 0)) = nth i (map (eval I) regs) k0.
Proof. intros regs i. change k0 with (eval I (mkint (G := G) 0)). symmetry. apply map_nth. Qed.
Lemma step_espec : forall c regs, cmd_ok c -> Forall wfe regs -> exists sg, espec F G I (step_exp c regs) sg (step_val I c (map (eval I) regs)).
Proof.
  intros c regs Hc Hr. assert (W : forall i, wfe (nth i regs (mkint 0))) by (intros; apply nth_wfe; exact Hr).
  destruct c as [v s|n|i|i j|i j|i j|i a|lr l|f l s|t p s|i f]; cbn [step_exp step_val]; rewrite <- ?nth_eval.
  - exists s. apply (espec_ret F G I (mkvar v s)). exact Coq.Init.Logic.I.
  - exists (sg_int G n). apply (espec_ret F G I (mkint n)). apply wfe_int. exact Hc.
  - eexists. apply neg_spec; auto.
  - eexists. apply add_spec; auto.
  - eexists. apply sub_spec; auto.
  - eexists. apply mul_spec; auto.
  - destruct Hc as [Nz Ba]. destruct (div_spec F G I HL (nth i regs (mkint 0)) a (W i) Nz Ba) as (sg & _ & H). exists sg. exact H.
  - eexists. eapply espec_ext; [apply sum_spec; auto; apply Forall_forall; intros x Hx; apply in_map_iff in Hx; destruct Hx as (k & <- & _); apply W|reflexivity|].
    unfold vsum. f_equal. rewrite map_map. apply map_ext. intros k. apply nth_eval.
  - eexists. eapply espec_ext; [apply call_spec; auto|reflexivity|]. f_equal. rewrite map_map. apply map_ext. intros k. apply nth_eval.
  - eexists. apply other_spec; auto.
  - eexists. apply field_spec; auto.
Qed.
Lemma hist_ok : forall cs regs st, Forall cmd_ok cs -> Forall wfe regs -> Inv st ->
  exists regs' st', hist cs regs st = Ok (regs', st') /\ Inv st' /\ ext st st' /\ exact G st' = exact G st /\ Forall wfe regs' /\
    (no_collision I (lg G st') -> map (eval I) regs' = hist_val I cs (map (eval I) regs)).
Proof.
  induction cs as [|c cs IH]; intros regs st Hc Hr Hi.
  - exists regs, st. rsplit; auto using ext_refl.
  - inversion Hc as [|? ? Hc1 Hc2]; subst. destruct (step_espec c regs Hc1 Hr) as (sg & Hs).
    destruct (Hs st Hi) as (r & st1 & E1 & I1 & L1 & X1 & W1 & _ & V1).
    destruct (IH (regs ++ [r]) st1 Hc2) as (regs' & st2 & E2 & I2 & L2 & X2 & W2 & V2);
      [apply Forall_app; split; [exact Hr|constructor; [exact W1|constructor]]|exact I1|].
    exists regs', st2. cbn [hist]. unfold mbind. rewrite E1. cbn [bind]. rsplit; auto.
    + eapply ext_trans; eassumption.
    + congruence.
    + intros N. rewrite V2 by exact N. cbn [hist_val]. rewrite map_app. cbn [map]. rewrite V1; [reflexivity|]. apply (nocol_incl F G I _ _ (proj1 L2) N).
Qed.
(** Once an expression has been returned for a signature, it is returned for it ever after. *)
Lemma cse_stable : forall e r st st1 st2 e', cse_exp G e st = Ok (r, st1) -> ext st1 st2 -> fast_op (op_of e) = false -> fast_op (op_of e') = false ->
  sig_of e' = sig_of e -> exists st3, cse_exp G e' st2 = Ok (r, st3).
Proof.
  intros e r st st1 st2 e' H [_ X] N1 N2 S. unfold cse_exp in *. rewrite N1 in H. rewrite N2, S. cbn [tbl] in *.
  destruct (sg_unsmall G (sig_of e)) as [n|]; [injection H as <- <-; eexists; reflexivity|].
  destruct (lookup G (tbl G st) (sig_of e)) as [e0|] eqn:L; injection H as <- <-; cbn [tbl] in X.
  - rewrite (X _ _ L). eexists; reflexivity.
  - rewrite (X (sig_of e) e); [eexists; reflexivity|]. cbn [lookup]. replace (sg_eqb G (sig_of e) (sig_of e)) with true; [reflexivity|].
    symmetry. apply sg_eqb_ok. reflexivity.
Qed.
Lemma inv0 : forall ex, Inv (cse0 G ex).
Proof. intros ex s e []. Qed.
End H.
