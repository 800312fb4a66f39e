(** Proofs about codelets.cc:496-546 [gradient]: both worklist loops terminate, every subexpression
    is processed once after all its users, and the collected sums are the partial derivatives. *)
From Coq Require Import String ZArith List Bool Lia Ring_theory Ring Field Permutation.
From Verif Require Import Base Field FPS ExpModel ExpProofs BlockProofs GradSpec.
Import ListNotations.
Open Scope Z_scope.

Section P.
Variables (F : Fld) (G : SigOps) (I : interp F).
Hypothesis HL : SigLaws G.
Add Field KF2 : (kfield F).
Notation exp := (exp G).
Notation eqb := (sg_eqb G).
Notation vs := (vsum F).

Lemma eqb_refl : forall s, eqb s s = true.
Proof. intros s. apply sg_eqb_ok. reflexivity. Qed.
Lemma eqb_neq : forall s t, s <> t -> eqb s t = false.
Proof. intros s t H. destruct (eqb s t) eqn:E; [|reflexivity]. apply sg_eqb_ok in E. contradiction. Qed.

(** ** State access *)
Definition nd (g : gst G) (s : G) : Z := fst (gget G g s).
Definition tm (g : gst G) (s : G) : list exp := snd (gget G g s).
Lemma gget_set : forall g s p t, gget G (gset G g s p) t = if eqb s t then p else gget G g t.
Proof. intros g s p t. unfold gget, gset. cbn [lookup]. destruct (eqb s t); reflexivity. Qed.
Lemma nd_set : forall g s p t, nd (gset G g s p) t = if eqb s t then fst p else nd g t.
Proof. intros. unfold nd. rewrite gget_set. destruct (eqb s t); reflexivity. Qed.
Lemma tm_set : forall g s p t, tm (gset G g s p) t = if eqb s t then snd p else tm g t.
Proof. intros. unfold tm. rewrite gget_set. destruct (eqb s t); reflexivity. Qed.
Lemma gget_eta : forall g s, gget G g s = (nd g s, tm g s).
Proof. intros. unfold nd, tm. destruct (gget G g s); reflexivity. Qed.

(** ** Edge counts *)
Definition cnt (s : G) (l : list exp) : Z := fold_right (fun x a => (if eqb (sig_of x) s then 1 else 0) + a) 0 l.
Definition edges (U : list exp) (s : G) : Z := fold_right (fun z a => cnt s (args_of z) + a) 0 U.
Lemma cnt_nonneg : forall s l, 0 <= cnt s l.
Proof. intros s. induction l as [|x l IH]; cbn [cnt fold_right]; [lia|]. fold (cnt s l). destruct (eqb (sig_of x) s); lia. Qed.
Lemma cnt_in : forall l x, In x l -> 0 < cnt (sig_of x) l.
Proof.
  induction l as [|y l IH]; intros x H; [destruct H|]. cbn [cnt fold_right]. fold (cnt (sig_of x) l).
  destruct H as [->|H]; [rewrite eqb_refl; pose proof (cnt_nonneg (sig_of x) l); lia|].
  apply IH in H. destruct (eqb (sig_of y) (sig_of x)); lia.
Qed.
Lemma cnt_pos : forall s l, 0 < cnt s l -> exists x, In x l /\ sig_of x = s.
Proof.
  intros s. induction l as [|x l IH]; cbn [cnt fold_right]; [lia|]. fold (cnt s l). intros H.
  destruct (eqb (sig_of x) s) eqn:E.
  - exists x. split; [left; reflexivity|]. apply sg_eqb_ok. exact E.
  - destruct IH as (y & Hy & Hs); [lia|]. exists y. split; [right; exact Hy|exact Hs].
Qed.
Lemma edges_nonneg : forall s U, 0 <= edges U s.
Proof. intros s. induction U as [|z U IH]; cbn [edges fold_right]; [lia|]. fold (edges U s). pose proof (cnt_nonneg s (args_of z)). lia. Qed.
Lemma edges_pos : forall s U, 0 < edges U s -> exists z a, In z U /\ In a (args_of z) /\ sig_of a = s.
Proof.
  intros s. induction U as [|z U IH]; cbn [edges fold_right]; [lia|]. fold (edges U s). intros H.
  destruct (Z_lt_dec 0 (cnt s (args_of z))) as [P|P].
  - apply cnt_pos in P. destruct P as (a & Ha & Hs). exists z, a. split; [left; reflexivity|]. split; assumption.
  - pose proof (cnt_nonneg s (args_of z)). destruct IH as (y & a & Hy & Ha & Hs); [lia|]. exists y, a. split; [right; exact Hy|]. split; assumption.
Qed.
Lemma edges_in : forall U z a, In z U -> In a (args_of z) -> 0 < edges U (sig_of a).
Proof.
  induction U as [|y U IH]; intros z a H Ha; [destruct H|]. cbn [edges fold_right]. fold (edges U (sig_of a)).
  pose proof (edges_nonneg (sig_of a) U). pose proof (cnt_nonneg (sig_of a) (args_of y)).
  destruct H as [->|H]; [pose proof (cnt_in _ _ Ha); lia|]. pose proof (IH z a H Ha). lia.
Qed.
Lemma edges_app : forall s A B, edges (A ++ B) s = edges A s + edges B s.
Proof. intros s A B. induction A as [|a A IH]; [reflexivity|]. change (cnt s (args_of a) + edges (A ++ B) s = cnt s (args_of a) + edges A s + edges B s). lia. Qed.
Lemma edges_le : forall s A B, NoDup A -> (forall a, In a A -> 0 < cnt s (args_of a) -> In a B) -> edges A s <= edges B s.
Proof.
  intros s. induction A as [|a A IH]; intros B N H; [apply edges_nonneg|].
  apply NoDup_cons_iff in N. destruct N as [Na N]. cbn [edges fold_right]. fold (edges A s).
  destruct (Z_lt_dec 0 (cnt s (args_of a))) as [P|P].
  - destruct (in_split a B) as (B1 & B2 & ->); [apply H; [left; reflexivity|exact P]|].
    assert (L : edges A s <= edges (B1 ++ B2) s).
    { apply IH; [exact N|]. intros b Hb Pb. specialize (H b (or_intror Hb) Pb). rewrite in_app_iff in *.
      destruct H as [H|[H|H]]; [left; exact H|subst b; contradiction|right; exact H]. }
    rewrite edges_app in *. cbn [edges fold_right]. fold (edges B2 s). lia.
  - pose proof (cnt_nonneg s (args_of a)). specialize (IH B N). pose proof (cnt_nonneg s (args_of a)).
    assert (edges A s <= edges B s); [|lia]. apply IH. intros b Hb. apply H. right. exact Hb.
Qed.

(** ** A fixed circuit *)
Variable ys : list exp.
Notation S_ := (nodes ys).
Hypothesis HC : circuit ys.
Lemma canon : forall a b, In a S_ -> In b S_ -> sig_of a = sig_of b -> a = b.
Proof. apply (ci_canonical _ _ HC). Qed.
Lemma closed : forall z a, In z S_ -> In a (args_of z) -> In a S_.
Proof.
  intros z a Hz Ha. unfold nodes in *. apply in_flat_map in Hz. destruct Hz as (y & Hy & Hz). apply in_flat_map. exists y. split; [exact Hy|].
  eapply subs_closed; eassumption.
Qed.
Lemma subs_self : forall e : exp, In e (subs e).
Proof. intros [o l s]. left. reflexivity. Qed.
Lemma ys_nodes : incl ys S_.
Proof. intros y Hy. apply in_flat_map. exists y. split; [exact Hy|apply subs_self]. Qed.
Lemma sig_neq : forall a b, In a S_ -> In b S_ -> a <> b -> sig_of a <> sig_of b.
Proof. intros a b Ha Hb N Q. apply N. apply canon; assumption. Qed.
Lemma nodup_sigs : forall l, incl l S_ -> NoDup l -> NoDup (map sig_of l).
Proof.
  induction l as [|x l IH]; intros Hi N; [constructor|]. apply NoDup_cons_iff in N. destruct N as [Nx N]. cbn [map]. constructor.
  - intros Q. apply in_map_iff in Q. destruct Q as (y & Q & Hy). apply Nx. rewrite <- (canon y x); [exact Hy| | |exact Q]; apply Hi; [right; exact Hy|left; reflexivity].
  - apply IH; [|exact N]. intros y Hy. apply Hi. right. exact Hy.
Qed.
Lemma exp_dec : forall a b : exp, In a S_ -> In b S_ -> a = b \/ a <> b.
Proof.
  intros a b Ha Hb. destruct (eqb (sig_of a) (sig_of b)) eqn:E.
  - left. apply canon; [exact Ha|exact Hb|]. apply sg_eqb_ok. exact E.
  - right. intros ->. rewrite eqb_refl in E. discriminate.
Qed.

(** ** The need sweep *)
Definition marked (g : gst G) (l : list exp) : Prop := forall t, In t l -> 0 < nd g (sig_of t) \/ In t ys.
Lemma need_args_ok : forall args g w B, incl args S_ -> (forall a, In a args -> ~ In a ys) -> incl (B ++ w) S_ -> NoDup (B ++ w) ->
  (forall s, 0 <= nd g s) -> marked g (B ++ w) ->
  exists g' w', need_args G g w args = (g', w') /\ (forall s, nd g' s = nd g s + cnt s args) /\ (forall s, tm g' s = tm g s) /\
    incl (B ++ w') S_ /\ NoDup (B ++ w') /\ marked g' (B ++ w') /\ incl w w' /\ (forall a, In a args -> 0 < nd g (sig_of a) \/ In a w').
Proof.
  induction args as [|x args IH]; intros g w B Ha Hy Hi N P Mk.
  { exists g, w. cbn [need_args fold_left cnt fold_right]. repeat split; auto using incl_refl; [intros; lia|intros a []]. }
  unfold need_args. cbn [fold_left]. rewrite gget_eta. set (g1 := gset G g (sig_of x) (nd g (sig_of x) + 1, tm g (sig_of x))).
  set (w1 := if nd g (sig_of x) =? 0 then x :: w else w).
  assert (Sx : In x S_) by (apply Ha; left; reflexivity).
  assert (N1 : forall s, nd g1 s = nd g s + (if eqb (sig_of x) s then 1 else 0)).
  { intros s. unfold g1. rewrite nd_set. destruct (eqb (sig_of x) s) eqn:E; cbn [fst]; [apply sg_eqb_ok in E; subst s; reflexivity|lia]. }
  assert (T1 : forall s, tm g1 s = tm g s).
  { intros s. unfold g1. rewrite tm_set. destruct (eqb (sig_of x) s) eqn:E; cbn [snd]; [apply sg_eqb_ok in E; subst s; reflexivity|reflexivity]. }
  assert (Hw : incl (B ++ w1) S_ /\ NoDup (B ++ w1) /\ marked g1 (B ++ w1) /\ incl w w1 /\ (0 < nd g (sig_of x) \/ In x w1)).
  { unfold w1. destruct (nd g (sig_of x) =? 0) eqn:E.
    - apply Z.eqb_eq in E. assert (Nx : ~ In x (B ++ w)). { intros Q. destruct (Mk x Q) as [R|R]; [lia|]. apply (Hy x); [left; reflexivity|exact R]. }
      repeat split.
      + intros t Ht. apply in_app_iff in Ht. destruct Ht as [Ht|[<-|Ht]]; [apply Hi; apply in_app_iff; left; exact Ht|exact Sx|apply Hi; apply in_app_iff; right; exact Ht].
      + apply NoDup_Add with (a := x) (l := B ++ w); [apply Add_app|]. split; assumption.
      + intros t Ht. rewrite N1. assert (T : t = x \/ In t (B ++ w)) by (rewrite in_app_iff in *; cbn in Ht; intuition).
        destruct T as [->|T]; [left; rewrite eqb_refl; specialize (P (sig_of x)); lia|].
        destruct (Mk t T) as [R|R]; [left; destruct (eqb (sig_of x) (sig_of t)); lia|right; exact R].
      + intros t Ht. right. exact Ht.
      + right. left. reflexivity.
    - apply Z.eqb_neq in E. repeat split; auto using incl_refl.
      + intros t T. rewrite N1. destruct (Mk t T) as [R|R]; [left; destruct (eqb (sig_of x) (sig_of t)); lia|right; exact R].
      + left. specialize (P (sig_of x)). lia. }
  destruct Hw as (Hi1 & Nd1 & Mk1 & Inc1 & Hx).
  destruct (IH g1 w1 B) as (g' & w' & E' & N' & T' & Hi' & Nd' & Mk' & Inc' & Ha').
  - intros a H. apply Ha. right. exact H.
  - intros a H. apply Hy. right. exact H.
  - exact Hi1.
  - exact Nd1.
  - intros s. rewrite N1. specialize (P s). destruct (eqb (sig_of x) s); lia.
  - exact Mk1.
  - exists g', w'. split; [exact E'|]. split; [|split; [|split; [|split; [|split; [|split]]]]]; auto.
    + intros s. rewrite N', N1. cbn [cnt fold_right]. fold (cnt s args). lia.
    + intros s. rewrite T', T1. reflexivity.
    + eapply incl_tran; eassumption.
    + intros a [<-|H].
      * destruct Hx as [Hx|Hx]; [left; exact Hx|right; apply Inc'; exact Hx].
      * destruct (Ha' a H) as [R|R]; [|right; exact R]. rewrite N1 in R. destruct (eqb (sig_of x) (sig_of a)) eqn:Q; [|left; lia].
        apply sg_eqb_ok in Q. assert (X : x = a) by (apply canon; [exact Sx|apply Ha; right; exact H|exact Q]). subst a.
        destruct Hx as [Hx|Hx]; [left; exact Hx|right; apply Inc'; exact Hx].
Qed.

(** What the sweep establishes: [U] lists every subexpression once and the counts are the numbers
    of uses. *)
Definition swept (g : gst G) (U : list exp) : Prop :=
  NoDup U /\ incl U S_ /\ incl S_ U /\ (forall s, nd g s = edges U s) /\ marked g U.
Lemma nodup_le : forall l, incl l S_ -> NoDup l -> (length l <= length S_)%nat.
Proof. intros l H N. apply NoDup_incl_length; assumption. Qed.
Definition need_inv (U W : list exp) (g : gst G) : Prop :=
  incl (U ++ W) S_ /\ NoDup (U ++ W) /\ (forall s, nd g s = edges U s) /\ (forall s, tm g s = []) /\ incl ys (U ++ W) /\ marked g (U ++ W) /\
  (forall z, In z S_ -> 0 < nd g (sig_of z) -> In z (U ++ W)).
Lemma need_done : forall U g, need_inv U [] g -> swept g U.
Proof.
  intros U g (Hi & N & Nd & Tm & Hy & Mk & Cl). rewrite app_nil_r in *. split; [exact N|]. split; [exact Hi|]. split; [|split; [exact Nd|exact Mk]].
  assert (K : forall e : exp, In e U -> incl (subs e) U).
  { induction e as [o l s IHl] using (exp_ind' G). intros He t Ht. destruct Ht as [<-|Ht]; [exact He|]. apply in_flat_map in Ht. destruct Ht as (a & Ha & Ht).
    rewrite Forall_forall in IHl. apply (IHl a Ha); [|exact Ht]. apply Cl; [apply (closed (E o l s)); [apply Hi; exact He|exact Ha]|].
    rewrite Nd. apply (edges_in U (E o l s)); [exact He|exact Ha]. }
  intros t Ht. apply in_flat_map in Ht. destruct Ht as (y & Hy1 & Ht). apply (K y); [apply Hy; exact Hy1|exact Ht].
Qed.
Lemma need_loop_ok : forall fuel U W g, (length S_ <= fuel + length U)%nat -> need_inv U W g ->
  exists g' U', need_loop G fuel g W = Some g' /\ swept g' U' /\ (forall s, tm g' s = []).
Proof.
  induction fuel as [|f IH]; intros U W g Hf Inv; (destruct W as [|z w]; [exists g, U; split; [reflexivity|]; split; [apply need_done; exact Inv|apply Inv]|]).
  - exfalso. destruct Inv as (Hi & N & _). pose proof (nodup_le _ Hi N) as L. rewrite app_length in L. cbn [length] in L. lia.
  - destruct Inv as (Hi & N & Nd & Tm & Hy & Mk & Cl).
    assert (Per : Permutation (U ++ z :: w) ((z :: U) ++ w)) by (symmetry; apply Permutation_middle).
    assert (Iff : forall t, In t (U ++ z :: w) <-> In t ((z :: U) ++ w)) by (intros t; split; apply Permutation_in; [exact Per|symmetry; exact Per]).
    assert (Sz : In z S_) by (apply Hi; apply in_app_iff; right; left; reflexivity).
    destruct (need_args_ok (args_of z) g w (z :: U)) as (g' & w' & E' & N' & T' & Hi' & Nd' & Mk' & Inc' & Ha').
    + intros a Ha. apply (closed z); assumption.
    + intros a Ha. apply (ci_apart _ _ HC z); assumption.
    + intros t Ht. apply Hi. apply Iff. exact Ht.
    + eapply Permutation_NoDup; eassumption.
    + intros s. rewrite Nd. apply edges_nonneg.
    + intros t Ht. apply Mk. apply Iff. exact Ht.
    + cbn [need_loop]. rewrite E'. apply (IH (z :: U) w' g'); [cbn [length]; lia|].
      split; [exact Hi'|]. split; [exact Nd'|]. split; [|split; [|split; [|split; [exact Mk'|]]]].
      * intros s. rewrite N', Nd. cbn [edges fold_right]. fold (edges U s). lia.
      * intros s. rewrite T'. apply Tm.
      * intros y Y. specialize (Hy y Y). apply Iff in Hy. rewrite in_app_iff in *. destruct Hy as [Hy|Hy]; [left; exact Hy|right; apply Inc'; exact Hy].
      * intros t St Pt. rewrite N' in Pt. rewrite in_app_iff.
        destruct (Z_lt_dec 0 (nd g (sig_of t))) as [R|R].
        -- specialize (Cl t St R). apply Iff in Cl. rewrite in_app_iff in Cl. destruct Cl as [Cl|Cl]; [left; exact Cl|right; apply Inc'; exact Cl].
        -- destruct (cnt_pos (sig_of t) (args_of z)) as (a & Ha & Q); [lia|]. assert (X : a = t) by (apply canon; [apply (closed z); assumption|exact St|exact Q]). subst a.
           destruct (Ha' t Ha) as [R'|R']; [lia|right; exact R'].
Qed.
Lemma need_ok : forall fuel, (length S_ <= fuel)%nat -> exists g U, need_loop G fuel [] (rev ys) = Some g /\ swept g U /\ (forall s, tm g s = []).
Proof.
  intros fuel Hf. apply (need_loop_ok fuel [] (rev ys)); [cbn [length]; lia|]. split; [|split; [|split; [|split; [|split; [|split]]]]]; cbn [app].
  - intros t Ht. apply in_rev in Ht. apply ys_nodes. exact Ht.
  - apply NoDup_rev. apply (ci_distinct _ _ HC).
  - reflexivity.
  - reflexivity.
  - intros t Ht. apply in_rev. rewrite rev_involutive. exact Ht.
  - intros t Ht. right. apply in_rev. exact Ht.
  - intros z _ H. unfold nd, gget in H. cbn in H. lia.
Qed.

(** ** Weighted sums of the collected contributions *)
Definition tv (g : gst G) (s : G) : F := vs (map (eval I) (tm g s)).
Definition phi (U : list exp) (g : gst G) (wt : exp -> F) : F := vs (map (fun z => kmul (tv g (sig_of z)) (wt z)) U).
Lemma vsum_ext : forall (A : Type) (f h : A -> F) l, (forall x, In x l -> f x = h x) -> vs (map f l) = vs (map h l).
Proof.
  intros A f h. induction l as [|x l IH]; intros H; [reflexivity|]. cbn [map vsum fold_right]. fold (vs (map f l)) (vs (map h l)).
  rewrite (H x (or_introl eq_refl)), IH; [reflexivity|]. intros y Hy. apply H. right. exact Hy.
Qed.
Lemma vsum_at : forall (f h : exp -> F) x U, NoDup U -> In x U -> (forall z, In z U -> z <> x -> f z = h z) ->
  vs (map f U) = kadd (vs (map h U)) (ksub (f x) (h x)).
Proof.
  intros f h x. induction U as [|y U IH]; intros N Hx H; [destruct Hx|]. apply NoDup_cons_iff in N. destruct N as [Ny N].
  cbn [map vsum fold_right]. fold (vs (map f U)) (vs (map h U)). destruct Hx as [->|Hx].
  - rewrite (vsum_ext exp f h U); [ring|]. intros z Hz. apply H; [right; exact Hz|]. intros ->. contradiction.
  - rewrite IH; [|exact N|exact Hx|intros z Hz; apply H; right; exact Hz].
    rewrite (H y (or_introl eq_refl)); [ring|]. intros ->. contradiction.
Qed.
(** Appending a contribution at the node [x] adds its weighted value. *)
Lemma phi_push : forall U g x n t wt, incl U S_ -> NoDup U -> In x U ->
  phi U (gset G g (sig_of x) (n, tm g (sig_of x) ++ [t])) wt = kadd (phi U g wt) (kmul (eval I t) (wt x)).
Proof.
  intros U g x n t wt Hi N Hx. unfold phi.
  rewrite (vsum_at _ (fun z => kmul (tv g (sig_of z)) (wt z)) x U N Hx).
  - f_equal. unfold tv. rewrite tm_set, eqb_refl. cbn [snd]. rewrite map_app, vsum_app. cbn [map vsum fold_right]. ring.
  - intros z Hz Nz. cbv beta. unfold tv. rewrite tm_set, eqb_neq; [reflexivity|]. apply sig_neq; [apply Hi; exact Hx|apply Hi; exact Hz|]. intros Q. apply Nz. symmetry. exact Q.
Qed.
(** Replacing the contributions at a node by one of the same total value changes nothing. *)
Lemma phi_collapse : forall U g x n t wt, incl U S_ -> NoDup U -> In x U -> eval I t = tv g (sig_of x) ->
  phi U (gset G g (sig_of x) (n, [t])) wt = phi U g wt.
Proof.
  intros U g x n t wt Hi N Hx Ht. unfold phi.
  rewrite (vsum_at _ (fun z => kmul (tv g (sig_of z)) (wt z)) x U N Hx).
  - unfold tv at 2. rewrite tm_set, eqb_refl. cbn [snd map vsum fold_right]. rewrite Ht. ring.
  - intros z Hz Nz. cbv beta. unfold tv. rewrite tm_set, eqb_neq; [reflexivity|]. apply sig_neq; [apply Hi; exact Hx|apply Hi; exact Hz|]. intros Q. apply Nz. symmetry. exact Q.
Qed.
(** Changing the weight of one node. *)
Lemma phi_weight : forall U g wt wt' x, NoDup U -> In x U -> (forall z, In z U -> z <> x -> wt' z = wt z) ->
  phi U g wt' = kadd (phi U g wt) (kmul (tv g (sig_of x)) (ksub (wt' x) (wt x))).
Proof.
  intros U g wt wt' x N Hx H. unfold phi.
  rewrite (vsum_at _ (fun z => kmul (tv g (sig_of z)) (wt z)) x U N Hx); [ring|]. intros z Hz Nz. cbv beta. rewrite H by assumption. reflexivity.
Qed.

(** ** Computations that may offer expressions to the table *)
(** [P] holds of the result in any case, [Q] when no collision has occurred. *)
Definition mspec {A} (m : M G A) (P Q : A -> Prop) : Prop :=
  forall st, Inv st -> exists r st', m st = Ok (r, st') /\ Inv st' /\ ext st st' /\ exact G st' = exact G st /\ P r /\ (no_collision I (lg G st') -> Q r).
Lemma mspec_ret : forall A (a : A) (P Q : A -> Prop), P a -> Q a -> mspec (ret G a) P Q.
Proof. intros A a P Q HP HQ st H. exists a, st. rsplit; auto using ext_refl. Qed.
Lemma mspec_bind : forall A B (m : M G A) (k : A -> M G B) (P Q : A -> Prop) (P' Q' : B -> Prop), mspec m P Q ->
  (forall r, P r -> mspec (k r) P' (fun r' => Q r -> Q' r')) -> mspec (mbind G m k) P' Q'.
Proof.
  intros A B m k P Q P' Q' Hm Hk st H. destruct (Hm st H) as (r & st1 & E1 & I1 & L1 & X1 & W1 & V1).
  destruct (Hk r W1 st1 I1) as (r2 & st2 & E2 & I2 & L2 & X2 & W2 & V2).
  exists r2, st2. unfold mbind. rewrite E1. cbn [bind]. rewrite E2. rsplit; auto.
  - eapply ext_trans; eassumption.
  - congruence.
  - intros N. apply V2; [exact N|]. apply V1. eapply nocol_incl; [apply L2|exact N].
Qed.
Lemma mspec_weaken : forall A (m : M G A) (P Q P' Q' : A -> Prop), mspec m P Q -> (forall r, P r -> P' r) -> (forall r, P r -> Q r -> Q' r) -> mspec m P' Q'.
Proof.
  intros A m P Q P' Q' H HP HQ st Hs. destruct (H st Hs) as (r & st1 & E1 & I1 & L1 & X1 & W1 & V1). exists r, st1. rsplit; auto.
Qed.
Lemma mspec_espec : forall m sg v, espec F G I m sg v -> mspec m wfe (fun r => eval I r = v).
Proof. intros m sg v H st Hs. destruct (H st Hs) as (r & st1 & E1 & I1 & L1 & X1 & W1 & S1 & V1). exists r, st1. rsplit; auto. Qed.
Lemma mspec_lift : forall A B (a : A) (k : A -> M G B) P Q, mspec (k a) P Q -> mspec (mbind G (lift G (Ok a)) k) P Q.
Proof. intros A B a k P Q H st Hs. apply H. exact Hs. Qed.

(** ** Propagation *)
Section Loop.
Variable U : list exp.
Hypothesis NU : NoDup U.
Hypothesis US : incl U S_.
Hypothesis SU : incl S_ U.
(** Contributions are well formed, exist only for subexpressions, and are unique once processed. *)
Definition terms_ok (B : list exp) (g : gst G) : Prop :=
  (forall s, Forall wfe (tm g s)) /\ (forall s, (forall z, In z U -> sig_of z <> s) -> tm g s = []) /\ (forall z, In z B -> exists d, tm g (sig_of z) = [d]).
Definition ready_iff (g : gst G) (l : list exp) : Prop := forall t, In t U -> (nd g (sig_of t) = 0 <-> In t l).
Definition wsum (dz : F) (wt : exp -> F) (l : list (exp * exp)) : F := vs (map (fun p => kmul (kmul (eval I (snd p)) dz) (wt (fst p))) l).
Lemma grad_args_ok : forall l dz g w B, wfe dz -> Forall (fun p => In (fst p) U /\ wfe (snd p)) l ->
  incl (B ++ w) U -> NoDup (B ++ w) -> (forall s, cnt s (map fst l) <= nd g s) -> ready_iff g (B ++ w) -> terms_ok B g ->
  mspec (mfold G (grad_arg G dz) l (g, w))
    (fun r => let '(g', w') := r in (forall s, nd g' s = nd g s - cnt s (map fst l)) /\ incl (B ++ w') U /\ NoDup (B ++ w') /\
              ready_iff g' (B ++ w') /\ terms_ok B g')
    (fun r => let '(g', w') := r in forall wt, phi U g' wt = kadd (phi U g wt) (wsum (eval I dz) wt l)).
Proof.
  induction l as [|[x gr] l IH]; intros dz g w B Wdz Hl Hi N P R T.
  { cbn [mfold]. apply mspec_ret; cbn [map cnt fold_right].
    - split; [intros; lia|]. auto.
    - intros wt. unfold wsum. cbn [map vsum fold_right]. ring. }
  apply Forall_cons_iff in Hl. destruct Hl as [[Ux Wg] Hl]. cbn [fst snd] in Ux, Wg.
  cbn [mfold]. unfold grad_arg at 1.
  assert (NX : 0 < nd g (sig_of x)).
  { specialize (P (sig_of x)). cbn [map fst cnt fold_right] in P. rewrite eqb_refl in P. pose proof (cnt_nonneg (sig_of x) (map fst l)). unfold cnt in *. lia. }
  assert (NI : ~ In x (B ++ w)). { intros Q. apply (R x Ux) in Q. lia. }
  eapply mspec_bind with (P := fun r => let '(g1, w1) := r in exists t, wfe t /\ g1 = gset G g (sig_of x) (nd g (sig_of x) - 1, tm g (sig_of x) ++ [t]) /\
     w1 = (if nd g (sig_of x) - 1 =? 0 then x :: w else w))
    (Q := fun r => let '(g1, w1) := r in forall wt, phi U g1 wt = kadd (phi U g wt) (kmul (kmul (eval I gr) (eval I dz)) (wt x))).
  - eapply mspec_bind; [eapply mspec_espec; apply mul_spec; [exact HL|exact Wg|exact Wdz]|]. intros t Wt. rewrite gget_eta. apply mspec_ret.
    + exists t. auto.
    + intros Vt wt. rewrite phi_push by assumption. rewrite Vt. reflexivity.
  - intros [g1 w1] (t & Wt & G1 & W1).
    assert (N1 : forall s, nd g1 s = nd g s - (if eqb (sig_of x) s then 1 else 0)).
    { intros s. subst g1. rewrite nd_set. destruct (eqb (sig_of x) s) eqn:E; cbn [fst]; [apply sg_eqb_ok in E; subst s; reflexivity|lia]. }
    eapply mspec_weaken; [apply (IH dz g1 w1 B)| |]; try assumption.
    + intros z Hz. subst w1. destruct (nd g (sig_of x) - 1 =? 0); [|apply Hi; exact Hz]. apply in_app_iff in Hz. destruct Hz as [Hz|[<-|Hz]]; [|exact Ux|]; apply Hi; apply in_app_iff; auto.
    + subst w1. destruct (nd g (sig_of x) - 1 =? 0); [|exact N]. apply NoDup_Add with (a := x) (l := B ++ w); [apply Add_app|]. split; assumption.
    + intros s. rewrite N1. specialize (P s). cbn [map fst cnt fold_right] in P. fold (cnt s (map fst l)) in P. lia.
    + intros z Uz. rewrite N1. subst w1. destruct (eqb (sig_of x) (sig_of z)) eqn:E.
      * apply sg_eqb_ok in E. assert (X : x = z) by (apply canon; [apply US; exact Ux|apply US; exact Uz|exact E]). subst z.
        destruct (nd g (sig_of x) - 1 =? 0) eqn:Q; [apply Z.eqb_eq in Q|apply Z.eqb_neq in Q].
        -- split; intros _; [apply in_app_iff; right; left; reflexivity|exact Q].
        -- split; [lia|]. intros H. contradiction.
      * assert (X : x <> z) by (intros <-; rewrite eqb_refl in E; discriminate). rewrite Z.sub_0_r. rewrite (R z Uz).
        destruct (nd g (sig_of x) - 1 =? 0); [|reflexivity]. rewrite !in_app_iff. cbn [In]. intuition.
    + destruct T as (T1 & T2 & T3). subst g1. split; [|split].
      * intros s. rewrite tm_set. destruct (eqb (sig_of x) s); [|apply T1]. cbn [snd]. apply Forall_app. split; [apply T1|]. constructor; [exact Wt|constructor].
      * intros s Hs. rewrite tm_set, eqb_neq; [apply T2; exact Hs|]. apply Hs. exact Ux.
      * intros z Hz. rewrite tm_set, eqb_neq; [apply T3; exact Hz|].
        assert (Uz : In z U) by (apply Hi; apply in_app_iff; left; exact Hz).
        apply sig_neq; [apply US; exact Ux|apply US; exact Uz|]. intros ->. apply NI. apply in_app_iff. left. exact Hz.
    + intros [g' w'] (A1 & A2 & A3 & A4 & A5). split; [|auto]. intros s. rewrite A1, N1. cbn [map fst cnt fold_right]. fold (cnt s (map fst l)). lia.
    + intros [g' w'] _ V1 V wt. rewrite V1, V. change (wsum (eval I dz) wt ((x, gr) :: l)) with (kadd (kmul (kmul (eval I gr) (eval I dz)) (wt x)) (wsum (eval I dz) wt l)). ring.
Qed.

(** The weight of a node: its derivative, until it has been processed. *)
Definition is_x (x z : exp) : bool := eqb (sig_of z) (sig_of x).
Definition inb (P : list exp) (z : exp) : bool := existsb (fun p => eqb (sig_of p) (sig_of z)) P.
Lemma inb_in : forall P z, incl P U -> In z U -> (inb P z = true <-> In z P).
Proof.
  intros P z HP Hz. unfold inb. rewrite existsb_exists. split.
  - intros (p & Hp & Q). apply sg_eqb_ok in Q. rewrite <- (canon p z); [exact Hp|apply US; apply HP; exact Hp|apply US; exact Hz|exact Q].
  - intros H. exists z. split; [exact H|apply eqb_refl].
Qed.
Definition wt (v : exp) (P : list exp) (z : exp) : F := if inb P z && negb (is_x v z) then k0 else deriv I v z.
Lemma ment_self : forall x e : exp, ~ mentions x e -> eqb (sig_of e) (sig_of x) = false.
Proof. intros x e H. apply eqb_neq. intros Q. apply H. exists e. split; [apply subs_self|exact Q]. Qed.
Lemma ment_args : forall (v z a : exp), In a (args_of z) -> ~ mentions v z -> ~ mentions v a.
Proof.
  intros v [o l s] a Ha H (t & Ht & Q). apply H. exists t. split; [|exact Q]. right. apply in_flat_map. exists a. split; assumption.
Qed.
Lemma deriv_const : forall v (e : exp), ~ mentions v e -> deriv I v e = k0.
Proof.
  intros v. induction e as [o l s IHl] using (exp_ind' G). intros H. rewrite Forall_forall in IHl.
  assert (K : forall a, In a l -> deriv I v a = k0).
  { intros a Ha. apply IHl; [exact Ha|]. apply (ment_args v (E o l s)); assumption. }
  pose proof (ment_self v _ H) as Q. destruct o; cbn [deriv]; rewrite Q; try reflexivity.
  - destruct l as [|a [|b l]]; try reflexivity. rewrite K by (left; reflexivity). ring.
  - destruct l as [|a [|b [|c l]]]; try reflexivity. rewrite !K by (cbn; auto). ring.
  - destruct l as [|a [|b [|c l]]]; try reflexivity. rewrite !K by (cbn; auto). ring.
  - destruct l as [|a [|b [|c l]]]; try reflexivity. rewrite !K by (cbn; auto). ring.
Qed.
(** Node by node the chain rule is the one of [deriv]. *)
Lemma wsum_const : forall dz w l, (forall p, In p l -> w (fst p) = k0) -> wsum dz w l = k0.
Proof.
  intros dz w. unfold wsum. induction l as [|p l IH]; intros H; [reflexivity|]. cbn [map vsum fold_right]. fold (vs (map (fun p => kmul (kmul (eval I (snd p)) dz) (w (fst p))) l)).
  rewrite IH by (intros q Hq; apply H; right; exact Hq). rewrite (H p (or_introl eq_refl)). ring.
Qed.
Fixpoint height (e : exp) : nat := match e with E _ l _ => S (fold_right (fun x a => Nat.max (height x) a) 0%nat l) end.
Lemma height_arg : forall z a, In a (args_of z) -> (height a < height z)%nat.
Proof.
  intros [o l s] a Ha. cbn [args_of] in Ha. cbn [height]. enough (height a <= fold_right (fun x b => Nat.max (height x) b) 0 l)%nat by lia.
  induction l as [|x l IH]; [destruct Ha|]. cbn [fold_right]. destruct Ha as [->|Ha]; [lia|]. specialize (IH Ha). lia.
Qed.
Lemma height_subs : forall e t : exp, In t (subs e) -> (height t <= height e)%nat.
Proof.
  induction e as [o l s IHl] using (exp_ind' G). intros t [<-|Ht]; [lia|]. apply in_flat_map in Ht. destruct Ht as (a & Ha & Ht).
  rewrite Forall_forall in IHl. pose proof (IHl a Ha t Ht). pose proof (height_arg (E o l s) a Ha). lia.
Qed.
Lemma closed_subs : forall e t : exp, In e S_ -> In t (subs e) -> In t S_.
Proof.
  induction e as [o l s IHl] using (exp_ind' G). intros t He [<-|Ht]; [exact He|]. apply in_flat_map in Ht. destruct Ht as (a & Ha & Ht).
  rewrite Forall_forall in IHl. apply (IHl a Ha); [|exact Ht]. apply (closed (E o l s)); assumption.
Qed.
(** A node does not occur below itself. *)
Lemma not_below : forall x z a : exp, In x S_ -> In z S_ -> is_x x z = true -> In a (args_of z) -> ~ mentions x a.
Proof.
  intros x z a Hx Hz E Ha (t & Ht & Q). apply sg_eqb_ok in E. assert (St : In t S_) by (apply (closed_subs a); [apply (closed z); assumption|exact Ht]).
  assert (X : t = z) by (apply canon; [exact St|exact Hz|congruence]). subst t. apply height_subs in Ht. pose proof (height_arg z a Ha). lia.
Qed.
Lemma chain : forall unknown v (z : exp) dz, In v S_ -> In z S_ -> arity_ok z -> smooth v z ->
  wsum dz (deriv I v) (combine (args_of z) (exp_grad G unknown z)) = if is_x v z then k0 else kmul dz (deriv I v z).
Proof.
  intros unknown v z dz Sv Sz A Sm. destruct (is_x v z) eqn:Ex.
  { apply wsum_const. intros [a g] Hp. cbn [fst]. apply deriv_const. apply (not_below v z); try assumption. eapply in_combine_l. exact Hp. }
  destruct z as [o l s]. unfold is_x in Ex.
  assert (E1 : eval I (mkint (G := G) 1) = k1) by (cbn; apply kofnat_1).
  assert (Em : eval I (mkint (G := G) (-1)) = kopp k1) by (rewrite <- E1; exact (kofZ_opp F 1)).
  assert (C : ~ mentions v (E o l s) -> wsum dz (deriv I v) (combine l (exp_grad G unknown (E o l s))) = k0).
  { intros H. apply wsum_const. intros [a g] Hp. cbn [fst]. apply deriv_const. apply (ment_args v (E o l s)); [|exact H]. cbn [args_of]. eapply in_combine_l. exact Hp. }
  destruct o; cbn [arity_ok] in A; cbn [args_of exp_grad]; cbn [deriv]; cbn [smooth] in Sm; rewrite ?Ex in *.
  - subst l. unfold wsum. cbn [combine map vsum fold_right]. ring.
  - subst l. unfold wsum. cbn [combine map vsum fold_right]. ring.
  - cbn [exp_grad] in C. rewrite C by exact Sm. ring.
  - destruct l as [|a [|b l]]; try discriminate A. unfold wsum. cbn [combine map fst snd vsum fold_right]. rewrite Em. ring.
  - destruct l as [|a [|b [|c l]]]; try discriminate A. unfold wsum. cbn [combine map fst snd vsum fold_right]. rewrite ?Em, ?E1. ring.
  - destruct l as [|a [|b [|c l]]]; try discriminate A. unfold wsum. cbn [combine map fst snd vsum fold_right]. rewrite ?Em, ?E1. ring.
  - destruct l as [|a [|b [|c l]]]; try discriminate A. unfold wsum. cbn [combine map fst snd vsum fold_right]. ring.
  - cbn [exp_grad] in C. rewrite C by exact Sm. ring.
  - cbn [exp_grad] in C. rewrite C by exact Sm. ring.
  - subst l. unfold wsum. cbn [combine map vsum fold_right]. ring.
Qed.
Lemma smooth_off : forall v a : exp, ~ mentions v a -> smooth v a.
Proof.
  intros v. induction a as [o l s IHl] using (exp_ind' G). intros N. rewrite Forall_forall in IHl.
  assert (K : forall b, In b l -> smooth v b) by (intros b Hb; apply IHl; [exact Hb|]; apply (ment_args v (E o l s)); assumption).
  pose proof (ment_self v _ N) as Q.
  destruct o; cbn [smooth]; rewrite Q; try exact Logic.I; try exact N.
  - destruct l as [|a [|b l]]; try exact Logic.I. apply K. left. reflexivity.
  - destruct l as [|a [|b [|c l]]]; try exact Logic.I. split; apply K; cbn; auto.
  - destruct l as [|a [|b [|c l]]]; try exact Logic.I. split; apply K; cbn; auto.
  - destruct l as [|a [|b [|c l]]]; try exact Logic.I. split; apply K; cbn; auto.
Qed.
Lemma smooth_args : forall v (z a : exp), In v S_ -> In z S_ -> arity_ok z -> smooth v z -> In a (args_of z) -> smooth v a.
Proof.
  intros v z a Sv Sz A Sm Ha. destruct (is_x v z) eqn:Ex; [apply smooth_off; apply (not_below v z); assumption|].
  destruct z as [o l s]. unfold is_x in Ex. cbn [args_of] in Ha.
  assert (C : ~ mentions v (E o l s) -> smooth v a) by (intros H; apply smooth_off; apply (ment_args v (E o l s)); assumption).
  destruct o; cbn [arity_ok] in A; try (subst l; destruct Ha); cbn [smooth] in Sm; rewrite Ex in Sm; try (apply C; exact Sm).
  - destruct l as [|x [|y l]]; try discriminate A. destruct Ha as [<-|[]]. exact Sm.
  - destruct l as [|x [|y [|t l]]]; try discriminate A. destruct Ha as [<-|[<-|[]]]; apply Sm.
  - destruct l as [|x [|y [|t l]]]; try discriminate A. destruct Ha as [<-|[<-|[]]]; apply Sm.
  - destruct l as [|x [|y [|t l]]]; try discriminate A. destruct Ha as [<-|[<-|[]]]; apply Sm.
Qed.
Lemma smooth_nodes : forall v, In v S_ -> (forall y, In y ys -> smooth v y) -> forall z, In z S_ -> smooth v z.
Proof.
  intros v Sv H z Hz. apply in_flat_map in Hz. destruct Hz as (y & Hy & Hz). specialize (H y Hy). pose proof (ys_nodes y Hy) as Sy. clear Hy. revert H Sy Hz.
  induction y as [o l s IHl] using (exp_ind' G). intros H Sy Hz. destruct Hz as [<-|Hz]; [exact H|]. apply in_flat_map in Hz. destruct Hz as (a & Ha & Hz).
  rewrite Forall_forall in IHl. apply (IHl a Ha); [|apply (closed (E o l s)); assumption|exact Hz]. apply (smooth_args v (E o l s)); [exact Sv|exact Sy|apply (ci_arity _ _ HC); exact Sy|exact H|exact Ha].
Qed.
Lemma grad_length : forall unknown (z : exp), arity_ok z -> length (args_of z) = length (exp_grad G unknown z).
Proof.
  intros unknown [o l s] A. destruct o; cbn [arity_ok] in A; cbn [args_of exp_grad length]; try (subst l; reflexivity); try exact A.
  - destruct l as [|x [|y [|t l]]]; try discriminate A. reflexivity.
  - rewrite map_length. reflexivity.
Qed.
Lemma grad_wfe : forall unknown (z : exp), wfe unknown -> In z S_ -> Forall wfe (exp_grad G unknown z).
Proof.
  intros unknown z W Hz. assert (K : forall a, In a (args_of z) -> wfe a) by (intros a Ha; apply (ci_wfe _ _ HC); eapply closed; eassumption).
  destruct z as [o l s]. cbn [args_of] in K.
  destruct o; cbn [exp_grad]; repeat (constructor; try (apply wfe_int; lia)); try exact W.
  - destruct l as [|x [|y [|t l]]]; try (constructor; fail). constructor; [apply K; cbn; auto|]. constructor; [apply K; cbn; auto|constructor].
  - apply Forall_forall. intros e He. apply in_map_iff in He. destruct He as (? & <- & _). exact W.
Qed.

(** One pass through the propagation loop and the whole loop. *)
Definition loop_inv (P W : list exp) (g : gst G) : Prop :=
  incl (P ++ W) U /\ NoDup (P ++ W) /\ (forall s, nd g s + edges P s = edges U s) /\ ready_iff g (P ++ W) /\ terms_ok P g.
Lemma height_bound : exists H, forall z, In z U -> (height z <= H)%nat.
Proof.
  exists (fold_right (fun x b => Nat.max (height x) b) 0%nat U). clear. induction U as [|x l IH]; intros z Hz; [destruct Hz|]. cbn [fold_right].
  destruct Hz as [->|Hz]; [lia|]. specialize (IH z Hz). lia.
Qed.
Lemma loop_end : forall P g, loop_inv P [] g -> incl U P.
Proof.
  intros P g (Hi & N & Ed & R & T). rewrite app_nil_r in *. destruct height_bound as [H HB].
  assert (K : forall n z, (H - height z < n)%nat -> In z U -> In z P).
  { induction n as [|n IH]; intros z Hn Uz; [lia|]. apply (R z Uz). specialize (Ed (sig_of z)).
    assert (L1 : edges U (sig_of z) <= edges P (sig_of z)).
    { apply edges_le; [exact NU|]. intros p Hp Pp. apply IH; [|exact Hp]. apply cnt_pos in Pp. destruct Pp as (a & Ha & Q).
      assert (X : a = z) by (apply canon; [apply (closed p); [apply US; exact Hp|exact Ha]|apply US; exact Uz|exact Q]). subst a.
      pose proof (height_arg p z Ha). pose proof (HB p Hp). lia. }
    assert (L2 : edges P (sig_of z) <= edges U (sig_of z)).
    { apply edges_le; [exact N|]. intros p Hp _. apply Hi. exact Hp. }
    lia. }
  intros z Hz. apply (K (S (H - height z))); [lia|exact Hz].
Qed.
Definition wend (v z : exp) : F := if is_x v z then k1 else k0.
Lemma is_x_deriv : forall v z, is_x v z = true -> deriv I v z = k1.
Proof. intros v [o l s] H. unfold is_x in H. destruct o; cbn [deriv]; rewrite H; reflexivity. Qed.
Lemma phi_ext : forall g w w', (forall z, In z U -> w z = w' z) -> phi U g w = phi U g w'.
Proof. intros g w w' H. unfold phi. apply vsum_ext. intros z Hz. rewrite H by exact Hz. reflexivity. Qed.
Lemma wt_end : forall v P g, incl P U -> incl U P -> phi U g (wend v) = phi U g (wt v P).
Proof.
  intros v P g HP HU. apply phi_ext. intros z Hz. unfold wend, wt. rewrite (proj2 (inb_in P z HP Hz)) by (apply HU; exact Hz). cbn [andb negb].
  destruct (is_x v z) eqn:E; cbn [negb]; [symmetry; apply is_x_deriv; exact E|reflexivity].
Qed.
Lemma nodup_app_l : forall A (l l' : list A), NoDup (l ++ l') -> NoDup l.
Proof.
  induction l as [|a l IH]; intros l' H; [constructor|]. cbn [app] in H. apply NoDup_cons_iff in H. destruct H as [Ha H]. constructor; [|eapply IH; exact H].
  intros Q. apply Ha. apply in_app_iff. left. exact Q.
Qed.
Lemma forall2_length : forall A B (R : A -> B -> Prop) l l', Forall2 R l l' -> length l = length l'.
Proof. intros A B R l l' H. induction H; cbn; congruence. Qed.
Lemma combine_fst : forall A B (l : list A) (l' : list B), length l = length l' -> map fst (combine l l') = l.
Proof. induction l as [|a l IH]; intros [|b l'] H; try discriminate H; [reflexivity|]. cbn [combine map fst]. f_equal. apply IH. cbn in H. lia. Qed.
Lemma grad_loop_ok : forall unknown lr, wfe unknown -> forall fuel P W g, (length U <= fuel + length P)%nat -> loop_inv P W g ->
  mspec (grad_loop G fuel lr unknown g W)
    (fun r => exists g' P', r = Some g' /\ loop_inv P' [] g')
    (fun r => forall g', r = Some g' -> forall v, In v S_ -> (forall y, In y ys -> smooth v y) -> phi U g' (wend v) = phi U g (wt v P)).
Proof.
  intros unknown lr Wu. induction fuel as [|f IH]; intros P W g Hf Inv0; (destruct W as [|z w];
    [cbn [grad_loop]; apply mspec_ret; [exists g, P; split; [reflexivity|exact Inv0]|];
     intros g' Q v _ _; injection Q as <-; apply wt_end; [rewrite <- (app_nil_r P); apply Inv0|eapply loop_end; exact Inv0]|]).
  - exfalso. destruct Inv0 as (Hi & N & _). pose proof (NoDup_incl_length N Hi) as L. rewrite app_length in L. cbn [length] in L. lia.
  - destruct Inv0 as (Hi & N & Ed & R & T).
    assert (Per : Permutation (P ++ z :: w) ((z :: P) ++ w)) by (symmetry; apply Permutation_middle).
    assert (Iff : forall t, In t (P ++ z :: w) <-> In t ((z :: P) ++ w)) by (intros t; split; apply Permutation_in; [exact Per|symmetry; exact Per]).
    assert (N' : NoDup ((z :: P) ++ w)) by (eapply Permutation_NoDup; eassumption).
    assert (Hi' : incl ((z :: P) ++ w) U) by (intros t Ht; apply Hi; apply Iff; exact Ht).
    assert (Uz : In z U) by (apply Hi'; left; reflexivity). assert (Sz : In z S_) by (apply US; exact Uz).
    assert (HP : incl (z :: P) U) by (intros t Ht; apply Hi'; apply in_app_iff; left; exact Ht).
    assert (NzP : ~ In z P) by (cbn [app] in N'; apply NoDup_cons_iff in N'; destruct N' as [A _]; intros Q; apply A; apply in_app_iff; left; exact Q).
    assert (NP : NoDup (z :: P)).
    { constructor; [exact NzP|]. apply nodup_app_l in N. exact N. }
    pose proof (ci_arity _ _ HC z Sz) as Az. pose proof (grad_length unknown z Az) as Lz.
    assert (Zz : nd g (sig_of z) = 0) by (apply (R z Uz); apply in_app_iff; right; left; reflexivity).
    cbn [grad_loop]. rewrite gget_eta.
    eapply mspec_bind; [eapply mspec_espec; apply sum_spec; [exact HL|apply T]|]. intros dz Wdz. cbv beta.
    set (g1 := gset G g (sig_of z) (nd g (sig_of z), [dz])).
    rewrite (proj2 (Nat.eqb_eq _ _) Lz). cbn [slow_assert]. apply mspec_lift.
    assert (ND1 : forall s, nd g1 s = nd g s).
    { intros s. unfold g1. rewrite nd_set. destruct (eqb (sig_of z) s) eqn:E; [apply sg_eqb_ok in E; subst s; reflexivity|reflexivity]. }
    eapply mspec_bind.
    + apply (grad_args_ok (combine (args_of z) (exp_grad G unknown z)) dz g1 w (z :: P)); try assumption.
      * apply Forall_forall. intros [a gr] Hp. cbn [fst snd]. split.
        -- apply SU. apply (closed z); [exact Sz|]. eapply in_combine_l. exact Hp.
        -- pose proof (grad_wfe unknown z Wu Sz) as K. rewrite Forall_forall in K. apply K. eapply in_combine_r. exact Hp.
      * intros s. rewrite combine_fst by exact Lz. rewrite ND1. specialize (Ed s).
        assert (L : edges (z :: P) s <= edges U s) by (apply edges_le; [exact NP|]; intros p Hp _; apply HP; exact Hp).
        change (edges (z :: P) s) with (cnt s (args_of z) + edges P s) in L. lia.
      * intros t Ut. rewrite ND1. rewrite (R t Ut). apply Iff.
      * destruct T as (T1 & T2 & T3). unfold g1. split; [|split].
        -- intros s. rewrite tm_set. destruct (eqb (sig_of z) s); [|apply T1]. constructor; [exact Wdz|constructor].
        -- intros s Hs. rewrite tm_set, eqb_neq; [apply T2; exact Hs|]. apply Hs. exact Uz.
        -- intros t [<-|Ht]; [exists dz; rewrite tm_set, eqb_refl; reflexivity|]. rewrite tm_set, eqb_neq; [apply T3; exact Ht|].
           apply sig_neq; [exact Sz|apply US; apply HP; right; exact Ht|]. intros ->. contradiction.
    + intros [g' w'] (A1 & A2 & A3 & A4 & A5). eapply mspec_weaken; [apply (IH (z :: P) w' g')| |].
      * cbn [length]. lia.
      * split; [exact A2|]. split; [exact A3|]. split; [|split; [exact A4|exact A5]]. intros s. rewrite A1, ND1, combine_fst by exact Lz.
        change (edges (z :: P) s) with (cnt s (args_of z) + edges P s). specialize (Ed s). lia.
      * intros r Hr. exact Hr.
      * intros r _ V Hphi Vdz g2 Q v Sv Sm. rewrite (V g2 Q v Sv Sm), Hphi. unfold g1. rewrite phi_collapse; [|exact US|exact NU|exact Uz|exact Vdz].
        rewrite (phi_weight U g (wt v P) (wt v (z :: P)) z NU Uz).
        -- assert (Q1 : wt v P z = deriv I v z).
           { unfold wt. destruct (inb P z) eqn:E; [|reflexivity]. apply inb_in in E; [contradiction| |exact Uz]. intros t Ht. apply HP. right. exact Ht. }
           assert (Q2 : wt v (z :: P) z = wend v z).
           { unfold wt, wend. rewrite (proj2 (inb_in (z :: P) z HP Uz)) by (left; reflexivity). cbn [andb]. destruct (is_x v z) eqn:E; cbn [negb]; [apply is_x_deriv; exact E|reflexivity]. }
           assert (Q3 : wsum (eval I dz) (wt v (z :: P)) (combine (args_of z) (exp_grad G unknown z)) = wsum (eval I dz) (deriv I v) (combine (args_of z) (exp_grad G unknown z))).
           { unfold wsum. apply vsum_ext. intros [a gr] Hp. cbn [fst snd]. f_equal. apply in_combine_l in Hp. unfold wt.
             assert (Ua : In a U) by (apply SU; apply (closed z); assumption).
             destruct (inb (z :: P) a) eqn:E; [|reflexivity]. apply inb_in in E; [|exact HP|exact Ua]. exfalso.
             assert (Na : nd g (sig_of a) = 0) by (apply (R a Ua); apply Iff; apply in_app_iff; left; exact E).
             assert (L : edges (z :: P) (sig_of a) <= edges U (sig_of a)) by (apply edges_le; [exact NP|]; intros p Hp2 _; apply HP; exact Hp2).
             change (edges (z :: P) (sig_of a)) with (cnt (sig_of a) (args_of z) + edges P (sig_of a)) in L.
             pose proof (cnt_in _ _ Hp). specialize (Ed (sig_of a)). lia. }
           rewrite Q1, Q2, Q3. rewrite (chain unknown v z (eval I dz) Sv Sz Az (smooth_nodes v Sv Sm z Sz)).
           fold (tv g (sig_of z)) in Vdz. rewrite Vdz. unfold wend. destruct (is_x v z) eqn:E; [rewrite (is_x_deriv v z E); ring|ring].
        -- intros t Ut Nt. unfold wt. assert (X : inb (z :: P) t = inb P t); [|rewrite X; reflexivity].
           unfold inb. cbn [existsb]. rewrite eqb_neq; [reflexivity|]. apply sig_neq; [exact Sz|apply US; exact Ut|]. intros Q0. apply Nt. symmetry. exact Q0.
Qed.

(** ** Seeding and reading off *)
Lemma seed_ok : forall l g, Forall (fun p => In (fst p) U /\ wfe (snd p)) l -> terms_ok [] g ->
  let g' := fold_left (fun g '(y, d) => let '(n, ts) := gget G g (sig_of y) in gset G g (sig_of y) (n, ts ++ [d])) l g in
  (forall s, nd g' s = nd g s) /\ terms_ok [] g' /\
  forall w, phi U g' w = kadd (phi U g w) (vs (map (fun p => kmul (eval I (snd p)) (w (fst p))) l)).
Proof.
  induction l as [|[y d] l IH]; intros g Hl T; cbn [fold_left].
  { split; [reflexivity|]. split; [exact T|]. intros w. cbn [map vsum fold_right]. ring. }
  apply Forall_cons_iff in Hl. destruct Hl as [[Uy Wd] Hl]. cbn [fst snd] in Uy, Wd. rewrite gget_eta.
  specialize (IH (gset G g (sig_of y) (nd g (sig_of y), tm g (sig_of y) ++ [d])) Hl). cbv zeta in IH. destruct IH as (A1 & A2 & A3).
  - destruct T as (T1 & T2 & T3). split; [|split].
    + intros s. rewrite tm_set. destruct (eqb (sig_of y) s); [|apply T1]. cbn [snd]. apply Forall_app. split; [apply T1|]. constructor; [exact Wd|constructor].
    + intros s Hs. rewrite tm_set, eqb_neq; [apply T2; exact Hs|]. apply Hs. exact Uy.
    + intros z [].
  - split; [|split; [exact A2|]].
    + intros s. rewrite A1, nd_set. destruct (eqb (sig_of y) s) eqn:E; [apply sg_eqb_ok in E; subst s; reflexivity|reflexivity].
    + intros w. rewrite A3, phi_push by assumption. cbn [map fst snd vsum fold_right]. fold (vs (map (fun p => kmul (eval I (snd p)) (w (fst p))) l)). ring.
Qed.
Lemma phi_end : forall g x, In x U -> phi U g (wend x) = tv g (sig_of x).
Proof.
  intros g x Ux. unfold phi.
  rewrite (vsum_at _ (fun _ => k0) x U NU Ux).
  - assert (Z0 : forall l : list exp, vs (map (fun _ => k0) l) = k0) by (induction l as [|a l IH]; [reflexivity|]; cbn [map vsum fold_right]; fold (vs (map (fun _ : exp => k0) l)); rewrite IH; ring).
    rewrite Z0. unfold wend, is_x. rewrite eqb_refl. ring.
  - intros z Hz Nz. unfold wend. destruct (is_x x z) eqn:E; [|ring]. exfalso. apply Nz. apply canon; [apply US; exact Hz|apply US; exact Ux|]. apply sg_eqb_ok. exact E.
Qed.
Lemma read_ok : forall g P xs, loop_inv P [] g -> incl xs U -> exists ds, grad_read G g xs = Ok ds /\ Forall2 (fun x d => tm g (sig_of x) = [d]) xs ds.
Proof.
  intros g P xs Inv0. pose proof (loop_end _ _ Inv0) as UP. destruct Inv0 as (Hi & N & Ed & R & T). rewrite app_nil_r in *.
  induction xs as [|x xs IH]; intros Hx; [exists []; split; [reflexivity|constructor]|].
  destruct IH as (ds & E & Fa); [intros t Ht; apply Hx; right; exact Ht|].
  assert (Ux : In x U) by (apply Hx; left; reflexivity). destruct T as (T1 & T2 & T3). destruct (T3 x (UP x Ux)) as [d D].
  exists (d :: ds). split; [|constructor; assumption]. cbn [grad_read]. rewrite gget_eta, D. rewrite (proj2 (R x Ux) (UP x Ux)). cbn [Z.eqb]. rewrite E. reflexivity.
Qed.
Lemma read_throw : forall g P xs x, loop_inv P [] g -> In x xs -> (forall z, In z U -> sig_of z <> sig_of x) -> grad_read G g xs = Throw.
Proof.
  intros g P xs x Inv0. destruct Inv0 as (Hi & N & Ed & R & T1 & T2 & T3).
  induction xs as [|y xs IH]; intros Hx Nx; [destruct Hx|]. cbn [grad_read]. rewrite gget_eta. destruct Hx as [->|Hx].
  - rewrite T2 by exact Nx. reflexivity.
  - destruct (tm g (sig_of y)) as [|d [|d2 ts]]; try reflexivity. destruct (nd g (sig_of y) =? 0); [|reflexivity]. rewrite IH by assumption. reflexivity.
Qed.
End Loop.

(** ** The whole function *)
Lemma start_ok : forall g U dys, swept g U -> (forall s, tm g s = []) -> Forall wfe dys -> length ys = length dys ->
  loop_inv U [] (rev ys) (seed_terms G g ys dys) /\
  forall v, phi U (seed_terms G g ys dys) (wt v []) = pullback I v ys dys.
Proof.
  intros g U dys (NU & US & SU & Nd & Mk) Tm Wd Ly.
  destruct (seed_ok U NU US (combine ys dys) g) as (A1 & A2 & A3).
  - apply Forall_forall. intros [y d] Hp. cbn [fst snd]. split; [apply SU; apply ys_nodes; eapply in_combine_l; exact Hp|].
    rewrite Forall_forall in Wd. apply Wd. eapply in_combine_r. exact Hp.
  - split; [|split]; [intros s; rewrite Tm; constructor|intros s _; apply Tm|intros z []].
  - fold (seed_terms G g ys dys) in A1, A2, A3. split.
    + split; [|split; [|split; [|split]]]; cbn [app].
      * intros t Ht. apply SU. apply ys_nodes. apply in_rev. exact Ht.
      * apply NoDup_rev. apply (ci_distinct _ _ HC).
      * intros s. rewrite A1, Nd. cbn [edges fold_right]. lia.
      * intros t Ut. rewrite A1. rewrite <- in_rev. split.
        -- intros Z0. destruct (Mk t Ut) as [Q|Q]; [lia|exact Q].
        -- intros Yt. rewrite Nd. destruct (Z.eq_dec (edges U (sig_of t)) 0) as [Q|Q]; [exact Q|]. pose proof (edges_nonneg (sig_of t) U).
           destruct (edges_pos (sig_of t) U) as (z & a & Hz & Ha & Qa); [lia|]. exfalso.
           apply (ci_apart _ _ HC z a); [apply US; exact Hz|exact Ha|]. rewrite (canon a t); [exact Yt| | |exact Qa]; [apply (closed z); [apply US; exact Hz|exact Ha]|apply US; exact Ut].
      * exact A2.
    + intros v. rewrite A3. unfold pullback. fold (vs (map (fun p => kmul (eval I (snd p)) (deriv I v (fst p))) (combine ys dys))).
      unfold phi. rewrite (vsum_ext exp _ (fun _ => k0)) by (intros z _; unfold tv; rewrite Tm; cbn [map vsum fold_right]; ring).
      assert (Z0 : forall l : list exp, vs (map (fun _ => k0) l) = k0) by (induction l as [|a l IH]; [reflexivity|]; cbn [map vsum fold_right]; fold (vs (map (fun _ : exp => k0) l)); rewrite IH; ring).
      rewrite Z0. unfold wt. cbn [inb existsb andb]. ring.
Qed.
Theorem gradient_ok : forall fuel lr unknown xs dys, (length S_ <= fuel)%nat -> wfe unknown -> Forall wfe dys -> length ys = length dys ->
  (forall x, In x xs -> In x S_) ->
  mspec (gradient G fuel lr unknown xs ys dys)
    (fun r => exists ds, r = Some ds /\ length ds = length xs /\ Forall wfe ds)
    (fun r => forall ds, r = Some ds -> Forall2 (fun x d => (forall y, In y ys -> smooth x y) -> eval I d = pullback I x ys dys) xs ds).
Proof.
  intros fuel lr unknown xs dys Hf Wu Wd Ly Hx. unfold gradient. rewrite (proj2 (Nat.eqb_eq _ _) Ly). cbn [slow_assert]. apply mspec_lift.
  destruct (need_ok fuel Hf) as (g & U & -> & Sw & Tm). destruct (start_ok g U dys Sw Tm Wd Ly) as [St Ph].
  destruct Sw as (NU & US & SU & Nd & Mk).
  eapply mspec_bind; [apply (grad_loop_ok U NU US SU unknown lr Wu fuel [] (rev ys)); [|exact St]|].
  - pose proof (nodup_le U US NU). cbn [length]. lia.
  - intros r (g' & P' & -> & Inv'). cbv beta iota. destruct (read_ok U NU US g' P' xs Inv') as (ds & E & Fa); [intros x H; apply SU; apply Hx; exact H|].
    rewrite E. apply mspec_lift. apply mspec_ret.
    + exists ds. split; [reflexivity|]. split; [symmetry; eapply forall2_length; exact Fa|].
      destruct Inv' as (_ & _ & _ & _ & T1 & _). clear - Fa T1. induction Fa as [|x d xs ds Hd Fa IH]; constructor; [|exact IH].
      specialize (T1 (sig_of x)). rewrite Hd in T1. apply Forall_inv in T1. exact T1.
    + intros V ds' Q. injection Q as <-. clear E. induction Fa as [|x d xs' ds' Hd Fa IH]; constructor.
      * intros Sm. rewrite <- Ph. specialize (V g' eq_refl x (Hx x (or_introl eq_refl)) Sm). rewrite <- V. rewrite (phi_end U NU US g' x); [|apply SU; apply Hx; left; reflexivity].
        unfold tv. rewrite Hd. cbn [map vsum fold_right]. ring.
      * apply IH. intros y Hy. apply Hx. right. exact Hy.
Qed.
(** Asking for an input that no output depends on fails the assertion. *)
Theorem gradient_unreached : forall fuel lr unknown xs dys x st, (length S_ <= fuel)%nat -> wfe unknown -> Forall wfe dys -> length ys = length dys -> Inv st ->
  In x xs -> (forall z, In z S_ -> sig_of z <> sig_of x) -> gradient G fuel lr unknown xs ys dys st = Throw.
Proof.
  intros fuel lr unknown xs dys x st Hf Wu Wd Ly Hst Hx Nx. unfold gradient. rewrite (proj2 (Nat.eqb_eq _ _) Ly). cbn [slow_assert]. rewrite bind_lift.
  destruct (need_ok fuel Hf) as (g & U & -> & Sw & Tm). destruct (start_ok g U dys Sw Tm Wd Ly) as [St Ph].
  destruct Sw as (NU & US & SU & Nd & Mk).
  destruct (grad_loop_ok U NU US SU unknown lr Wu fuel [] (rev ys) (seed_terms G g ys dys)) with (st := st) as (r & st' & E & _ & _ & _ & (g' & P' & -> & Inv') & _).
  - pose proof (nodup_le U US NU). cbn [length]. lia.
  - exact St.
  - exact Hst.
  - unfold mbind at 1. rewrite E. cbn [bind]. unfold mbind, lift. rewrite (read_throw U g' P' xs x Inv' Hx); [reflexivity|]. intros z Hz. apply Nx. apply US. exact Hz.
Qed.
End P.
