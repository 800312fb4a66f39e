(** The expressions of the generator mention no variables but those of their inputs. *)
From Coq Require Import String ZArith List Bool Lia.
From Verif Require Import Base Field ExpModel ExpProofs BlockProofs GenModel.
Import ListNotations.
Open Scope Z_scope.

Section Scope.
Variables (G : SigOps) (V : list string).
Notation exp := (exp G).
Definition ve (e : exp) : Prop := incl (vars e) V.
Definition tabv (st : cst G) : Prop := forall s e, In (s, e) (tbl G st) -> ve e.
Definition vk {A} (m : M G A) (P : A -> Prop) : Prop := forall st r st', tabv st -> m st = Ok (r, st') -> tabv st' /\ P r.
Lemma vk_ret : forall A (a : A) (P : A -> Prop), P a -> vk (ret G a) P.
Proof. intros A a P H st r st' T E. injection E as <- <-. auto. Qed.
Lemma vk_bind : forall A B (m : M G A) (k : A -> M G B) P Q, vk m P -> (forall r, P r -> vk (k r) Q) -> vk (mbind G m k) Q.
Proof.
  intros A B m k P Q Hm Hk st r st' T H. unfold mbind in H. destruct (m st) as [[a st1]| |] eqn:E1; try discriminate. cbn [bind] in H.
  destruct (Hm _ _ _ T E1) as [T1 S1]. exact (Hk a S1 _ _ _ T1 H).
Qed.
Lemma vk_lift : forall A B (x : res A) (k : A -> M G B) Q, (forall a, x = Ok a -> vk (k a) Q) -> vk (mbind G (lift G x) k) Q.
Proof. intros A B x k Q Hk st r st' T H. unfold mbind, lift in H. destruct x as [a| |]; try discriminate. cbn [bind] in H. exact (Hk a eq_refl _ _ _ T H). Qed.
Lemma vk_fail : forall A (x : res (A * cst G)) Q, (forall p, x <> Ok p) -> vk (fun _ => x) Q.
Proof. intros A x Q H st r st' T E. destruct (H _ E). Qed.
Lemma ve_int : forall n, ve (mkint n).
Proof. intros n v []. Qed.
Lemma ve_var : forall n s, In n V -> ve (mkvar n s).
Proof. intros n s H v [<-|[]]. exact H. Qed.
Lemma ve_node : forall o l s, (forall v, o <> OVar v) -> Forall ve l -> ve (E o l s).
Proof.
  intros o l s Ho Hl v Hv. cbn [vars] in Hv. apply in_app_or in Hv. destruct Hv as [Hv|Hv]; [destruct o; try contradiction; destruct (Ho v0 eq_refl)|].
  apply in_flat_map in Hv. destruct Hv as (x & Hx & Hv). rewrite Forall_forall in Hl. exact (Hl x Hx v Hv).
Qed.
Lemma ve_args : forall o l s x, ve (E o l s) -> In x l -> ve x.
Proof. intros o l s x H Hx v Hv. apply H. cbn [vars]. apply in_or_app. right. apply in_flat_map. exists x. auto. Qed.
Lemma vk_cse : forall o l s, (forall v, o <> OVar v) -> Forall ve l -> vk (cse G o l s) ve.
Proof.
  intros o l s Ho Hl st r st' T H. unfold cse, cse_exp in H. set (s' := if exact G st then s else _) in H.
  assert (W : ve (E o l s')) by (apply ve_node; assumption). clearbody s'. cbn [op_of sig_of tbl] in H.
  destruct (fast_op o); [injection H as <- <-; auto|]. destruct (sg_unsmall G s'); [injection H as <- <-; split; [exact T|apply ve_int]|].
  destruct (lookup G (tbl G st) s') as [e'|] eqn:L; injection H as <- <-.
  - split; [exact T|]. apply (T s'). apply (lookup_in G). exact L.
  - split; [|exact W]. intros k e [Hk|Hk]; [injection Hk as <- <-; exact W|exact (T k e Hk)].
Qed.
Lemma unneg_ve : forall e x, ve e -> unneg G e = Ok (Some x) -> ve x.
Proof.
  intros [o l s] x W H. destruct o; try discriminate; cbn in H.
  - destruct (n <? 0); [|discriminate]. destruct (int_neg n); try discriminate. injection H as <-. apply ve_int.
  - destruct l as [|y [|]]; try discriminate. injection H as <-. apply (ve_args _ _ _ y W). left. reflexivity.
Qed.
Ltac two := repeat (apply Forall_cons; [assumption|]); apply Forall_nil.
Lemma neg_vk : forall e, ve e -> vk (exp_neg G e) ve.
Proof.
  intros e W. unfold exp_neg. destruct (unint G e).
  - apply vk_lift. intros a _. apply vk_ret, ve_int.
  - apply vk_lift. intros [x|] Hu; [apply vk_ret; apply (unneg_ve e x W Hu)|]. apply vk_cse; [discriminate|two].
Qed.
Lemma addsub_vk : forall f sub x y, ve x -> ve y -> vk (addsub G f sub x y) ve.
Proof.
  induction f as [|f IH]; intros sub x y Wx Wy; cbn [addsub]; [apply vk_fail; discriminate|].
  destruct (is_int G 0 x); [destruct sub; [apply neg_vk; exact Wy|apply vk_ret; exact Wy]|]. destruct (is_int G 0 y); [apply vk_ret; exact Wx|].
  apply vk_lift. intros [nx|] Hx.
  - pose proof (unneg_ve _ _ Wx Hx) as Wn. destruct sub; [eapply vk_bind; [apply IH; assumption|intros; apply neg_vk; assumption]|apply IH; assumption].
  - apply vk_lift. intros [ny|] Hy; [apply IH; [exact Wx|apply (unneg_ve _ _ Wy Hy)]|]. destruct sub; (apply vk_cse; [discriminate|two]).
Qed.
Lemma mul_vk : forall f x y, ve x -> ve y -> vk (mul_fuel G f x y) ve.
Proof.
  induction f as [|f IH]; intros x y Wx Wy; cbn [mul_fuel]; [apply vk_fail; discriminate|].
  destruct (is_int G 0 x || is_int G 0 y)%bool; [apply vk_ret, ve_int|].
  apply vk_lift. intros [nx|] Hx; [eapply vk_bind; [apply IH; [apply (unneg_ve _ _ Wx Hx)|exact Wy]|intros; apply neg_vk; assumption]|].
  apply vk_lift. intros [ny|] Hy; [eapply vk_bind; [apply IH; [exact Wx|apply (unneg_ve _ _ Wy Hy)]|intros; apply neg_vk; assumption]|].
  destruct (is_int G 1 x); [apply vk_ret; exact Wy|]. destruct (is_int G 1 y); [apply vk_ret; exact Wx|]. apply vk_cse; [discriminate|two].
Qed.
Lemma add_ve : forall x y, ve x -> ve y -> vk (exp_add G x y) ve. Proof. intros. apply addsub_vk; assumption. Qed.
Lemma sub_ve : forall x y, ve x -> ve y -> vk (exp_sub G x y) ve. Proof. intros. apply addsub_vk; assumption. Qed.
Lemma mul_ve : forall x y, ve x -> ve y -> vk (exp_mul G x y) ve. Proof. intros. apply mul_vk; assumption. Qed.
Lemma field_ve : forall x f, ve x -> vk (exp_field G x f) ve. Proof. intros. apply vk_cse; [discriminate|two]. Qed.
Lemma call_ve : forall f l s, Forall ve l -> vk (exp_call G f l s) ve. Proof. intros. apply vk_cse; [discriminate|assumption]. Qed.
Lemma other_ve : forall t p s, vk (exp_other G t p s) ve. Proof. intros. apply vk_cse; [discriminate|apply Forall_nil]. Qed.
Lemma sum_ve : forall f lr xs, Forall ve xs -> vk (sum_fuel G f lr xs) ve.
Proof.
  induction f as [|f IH]; intros lr xs Hx; cbn [sum_fuel]; [apply vk_fail; discriminate|].
  destruct xs as [|a [|b t]]; [apply vk_ret, ve_int|apply vk_ret; apply Forall_inv in Hx; exact Hx|]. cbv zeta.
  assert (Ha : forall n, Forall ve (firstn n (a :: b :: t))) by (intros n; rewrite Forall_forall in *; intros x Hin; apply Hx; rewrite <- (firstn_skipn n); apply in_or_app; left; exact Hin).
  assert (Hb : forall n, Forall ve (skipn n (a :: b :: t))) by (intros n; rewrite Forall_forall in *; intros x Hin; apply Hx; rewrite <- (firstn_skipn n); apply in_or_app; right; exact Hin).
  destruct lr; (eapply vk_bind; [apply IH; auto|intros u Hu]; eapply vk_bind; [apply IH; auto|intros w Hw]; apply add_ve; assumption).
Qed.

(** ** Gradient *)
Definition gv (g : gst G) : Prop := forall s n ts, In (s, (n, ts)) g -> Forall ve ts.
Lemma gget_ve : forall g s n ts, gv g -> gget G g s = (n, ts) -> Forall ve ts.
Proof.
  intros g s n ts H E. unfold gget in E. destruct (lookup G g s) as [[n' ts']|] eqn:L; injection E as <- <-; [|apply Forall_nil].
  apply (lookup_in G) in L. exact (H _ _ _ L).
Qed.
Lemma gset_ve : forall g s n ts, gv g -> Forall ve ts -> gv (gset G g s (n, ts)).
Proof. intros g s n ts H Ht k m us [E|E]; [injection E as <- <- <-; exact Ht|exact (H _ _ _ E)]. Qed.
Lemma need_ve : forall fuel g work g', gv g -> need_loop G fuel g work = Some g' -> gv g'.
Proof.
  induction fuel as [|f IH]; intros g [|z w] g' H E; cbn [need_loop] in E; try discriminate; try (injection E as <-; exact H).
  destruct (need_args G g w (args_of z)) as [g1 w1] eqn:Q. apply (IH g1 w1); [|exact E]. clear E IH. unfold need_args in Q.
  revert g w g1 w1 H Q. generalize (args_of z) as l. induction l as [|x l IH]; intros g w g1 w1 H Q; cbn [fold_left] in Q; [injection Q as <- <-; exact H|].
  destruct (gget G g (sig_of x)) as [n ts] eqn:Eg. apply (IH _ _ _ _ (gset_ve g (sig_of x) (n + 1) ts H (gget_ve _ _ _ _ H Eg)) Q).
Qed.
Lemma grad_ve : forall u e x, ve u -> ve e -> In x (exp_grad G u e) -> ve x.
Proof.
  intros u [o l s] x Hu He Hx. destruct o; cbn [exp_grad] in Hx; try contradiction.
  - destruct Hx as [<-|[]]. exact Hu.
  - destruct Hx as [<-|[]]. apply ve_int.
  - destruct Hx as [<-|[<-|[]]]; apply ve_int.
  - destruct Hx as [<-|[<-|[]]]; apply ve_int.
  - destruct l as [|a [|b [|c l]]]; try contradiction. destruct Hx as [<-|[<-|[]]]; apply (ve_args _ _ _ _ He); cbn; auto.
  - destruct Hx as [<-|[]]. exact Hu.
  - apply in_map_iff in Hx. destruct Hx as (y & <- & _). exact Hu.
Qed.
Definition wv (w : list exp) : Prop := Forall ve w.
Lemma args_ve : forall l dz g w, ve dz -> Forall (fun p : exp * exp => ve (fst p) /\ ve (snd p)) l -> gv g -> wv w ->
  vk (mfold G (grad_arg G dz) l (g, w)) (fun p => gv (fst p) /\ wv (snd p)).
Proof.
  induction l as [|[x gr] l IH]; intros dz g w Hd Hl Hg Hw; cbn [mfold]; [apply vk_ret; auto|].
  apply vk_bind with (P := fun p : gst G * list exp => gv (fst p) /\ wv (snd p)).
  - unfold grad_arg. pose proof (Forall_inv Hl) as [H1 H2]. cbn [fst snd] in *. eapply vk_bind; [apply mul_ve; assumption|]. intros t Ht.
    destruct (gget G g (sig_of x)) as [n ts] eqn:Eg. apply vk_ret. cbn [fst snd]. split.
    + apply gset_ve; [exact Hg|]. apply Forall_app. split; [apply (gget_ve _ _ _ _ Hg Eg)|apply Forall_cons; [exact Ht|apply Forall_nil]].
    + destruct (n - 1 =? 0); [apply Forall_cons; assumption|exact Hw].
  - intros [g1 w1] [Hg1 Hw1]. apply IH; try assumption. apply Forall_inv_tail in Hl. exact Hl.
Qed.
Lemma loop_ve : forall fuel lr u g w, ve u -> gv g -> wv w -> vk (grad_loop G fuel lr u g w) (fun o => match o with Some g => gv g | None => True end).
Proof.
  induction fuel as [|f IH]; intros lr u g [|z w] Hu Hg Hw; cbn [grad_loop]; try (apply vk_ret; first [exact Hg|exact Logic.I]).
  destruct (gget G g (sig_of z)) as [n ts] eqn:Eg. pose proof (Forall_inv Hw) as Hz. pose proof (Forall_inv_tail Hw) as Hw'.
  eapply vk_bind; [apply sum_ve; apply (gget_ve _ _ _ _ Hg Eg)|]. intros dz Hd. cbv zeta. apply vk_lift. intros _ _.
  eapply vk_bind; [apply args_ve; [exact Hd| | |exact Hw']|].
  - apply Forall_forall. intros [x gr] Hin. cbn [fst snd]. split; [apply in_combine_l in Hin|apply in_combine_r in Hin; exact (grad_ve u z gr Hu Hz Hin)].
    destruct z as [o l s]. exact (ve_args o l s x Hz Hin).
  - apply gset_ve; [exact Hg|]. apply Forall_cons; [exact Hd|apply Forall_nil].
  - intros [g1 w1] [Hg1 Hw1]. apply IH; assumption.
Qed.
Lemma read_ve : forall g xs ds, gv g -> grad_read G g xs = Ok ds -> Forall ve ds.
Proof.
  intros g. induction xs as [|x t IH]; intros ds H E; cbn [grad_read] in E; [injection E as <-; apply Forall_nil|].
  destruct (gget G g (sig_of x)) as [n ts] eqn:Eg. pose proof (gget_ve _ _ _ _ H Eg) as Ht. destruct ts as [|d [|]]; try discriminate. destruct (n =? 0); [|discriminate].
  destruct (grad_read G g t) as [r| |] eqn:Er; try discriminate. cbn [bind] in E. injection E as <-. apply Forall_cons; [apply Forall_inv in Ht; exact Ht|apply IH; [exact H|reflexivity]].
Qed.
Lemma gradient_ve : forall fuel lr u xs ys dys, ve u -> Forall ve ys -> Forall ve dys ->
  vk (gradient G fuel lr u xs ys dys) (fun o => match o with Some ds => Forall ve ds | None => True end).
Proof.
  intros fuel lr u xs ys dys Hu Hy Hd. unfold gradient. apply vk_lift. intros _ _.
  destruct (need_loop G fuel [] (rev ys)) as [g|] eqn:En; [|apply vk_ret; exact Logic.I].
  assert (Hg : gv g) by (eapply need_ve; [|exact En]; intros s n ts []).
  assert (Hs : gv (seed_terms G g ys dys)).
  { unfold seed_terms. assert (Hc : Forall (fun p : exp * exp => ve (snd p)) (combine ys dys)).
    { apply Forall_forall. intros [a b] Hin. apply in_combine_r in Hin. rewrite Forall_forall in Hd. exact (Hd b Hin). }
    clear - Hg Hc. revert g Hg. induction Hc as [|[y d] l Hh _ IH]; intros g Hg; cbn [fold_left]; [exact Hg|]. apply IH.
    destruct (gget G g (sig_of y)) as [n ts] eqn:Eg. apply gset_ve; [exact Hg|]. apply Forall_app. split; [apply (gget_ve _ _ _ _ Hg Eg)|apply Forall_cons; [exact Hh|apply Forall_nil]]. }
  eapply vk_bind; [apply loop_ve; [exact Hu|exact Hs|]|].
  - apply Forall_rev. exact Hy.
  - intros [g'|] Hg'; [|apply vk_ret; exact Logic.I]. apply vk_lift. intros ds Ed. apply vk_ret. apply (read_ve g' xs ds Hg' Ed).
Qed.

(** ** Butterflies *)
Definition vc (z : cexp G) : Prop := ve (fst z) /\ ve (snd z).
Lemma vk_par : forall A B lr (m : M G A) (n : M G B) P Q, vk m P -> vk n Q -> vk (par G lr m n) (fun p => P (fst p) /\ Q (snd p)).
Proof.
  intros A B lr m n P Q Hm Hn. unfold par. destruct lr; (eapply vk_bind; [eassumption|intros a Ha]; eapply vk_bind; [eassumption|intros b Hb]; apply vk_ret; auto).
Qed.
Lemma vk_weaken : forall A (m : M G A) (P Q : A -> Prop), vk m P -> (forall a, P a -> Q a) -> vk m Q.
Proof. intros A m P Q H HQ st r st' T E. destruct (H _ _ _ T E). auto. Qed.
Lemma v_add : forall lr z w, vc z -> vc w -> vk (cx_add G lr z w) vc.
Proof. intros lr z w [] []. apply vk_par; apply add_ve; assumption. Qed.
Lemma v_sub : forall lr z w, vc z -> vc w -> vk (cx_sub G lr z w) vc.
Proof. intros lr z w [] []. apply vk_par; apply sub_ve; assumption. Qed.
Lemma v_mul : forall lr z w, vc z -> vc w -> vk (cx_mul G lr z w) vc.
Proof.
  intros lr z w [] []. apply vk_par; (eapply vk_bind; [apply vk_par; apply mul_ve; assumption|]; intros p [? ?]); [apply sub_ve|apply add_ve]; assumption.
Qed.
Lemma v_scale : forall lr a z, ve a -> vc z -> vk (cx_scale G lr a z) vc.
Proof. intros lr a z Ha []. apply vk_par; apply mul_ve; assumption. Qed.
Lemma v_conj : forall z, vc z -> vk (cx_conj G z) vc.
Proof. intros z []. eapply vk_bind; [apply neg_vk; assumption|]. intros. apply vk_ret. split; assumption. Qed.
Lemma v_left : forall z, vc z -> vk (cx_left G z) vc.
Proof. intros z []. eapply vk_bind; [apply neg_vk; assumption|]. intros. apply vk_ret. split; assumption. Qed.
Lemma v_diagp : forall lr a z, ve a -> vc z -> vk (cx_diagp G lr a z) vc.
Proof. intros lr a z Ha []. eapply vk_bind; [apply vk_par; [apply sub_ve|apply add_ve]; assumption|]. intros w Hw. apply v_scale; assumption. Qed.
Lemma v_diagm : forall lr a z, ve a -> vc z -> vk (cx_diagm G lr a z) vc.
Proof. intros lr a z Ha []. eapply vk_bind; [apply vk_par; [apply add_ve|apply sub_ve]; assumption|]. intros w Hw. apply v_scale; assumption. Qed.
Lemma v_split : forall lr e, ve e -> vk (split G lr e) vc.
Proof. intros lr e H. apply vk_par; apply field_ve; assumption. Qed.
Variables (sh_text : string) (sh_sig : G) (tw_text : Z -> nat -> string * string).
Lemma v_sh : vk (constant_sqrt_half G sh_text sh_sig) ve.
Proof. apply other_ve. Qed.
Lemma v_base : forall lr j, ve j -> vk (base_twiddle G lr j) vc.
Proof. intros lr j H. eapply vk_bind; [apply call_ve; two|]. intros c Hc. apply v_split. exact Hc. Qed.
Lemma v_ctw : forall lr j s, vk (constant_twiddle G sh_sig tw_text lr j s) vc.
Proof. intros lr j s. apply vk_lift. intros _ _. cbv zeta. apply vk_par; apply other_ve. Qed.
Lemma v_ftw : forall lr r j, ve j -> vk (first_twiddle G sh_sig tw_text lr r j) vc.
Proof. intros lr r j H. unfold first_twiddle. destruct (r =? 3)%nat; [apply v_base; exact H|]. destruct (unint G j); [apply v_ctw|apply vk_fail; discriminate]. Qed.
Lemma v_times : forall k j, ve j -> vk (times G k j) ve.
Proof. intros k j H. apply mul_ve; [apply ve_int|exact H]. Qed.
Lemma v_0 : forall x0 x1, ve x0 -> ve x1 -> vk (gen_0 G x0 x1) vc.
Proof. intros x0 x1 H0 H1. eapply vk_bind; [apply neg_vk; assumption|]. intros. apply vk_ret. split; assumption. Qed.
Definition tv (tw : exp -> M G (cexp G)) : Prop := forall j, ve j -> vk (tw j) vc.
Create HintDb vdb.
Hint Resolve v_add v_sub v_mul v_conj v_left v_diagp v_diagm v_times v_sh v_0 : vdb.
Lemma v_1 : forall lr tw j y0 y1, tv tw -> ve j -> vc y0 -> vc y1 -> vk (gen_1 G sh_text sh_sig lr tw j y0 y1) (fun p => vc (fst p) /\ vc (snd p)).
Proof.
  intros lr tw j y0 y1 Ht Hj H0 H1. unfold gen_1.
  eapply vk_bind; [eauto with vdb|]; intros c Hc. eapply vk_bind; [eauto with vdb|]; intros z1 Hz.
  eapply vk_bind; [apply vk_par; [eapply vk_bind; [apply Ht; exact Hj|intros; eauto with vdb]|eauto with vdb]|]; intros p [Hp1 Hp2]. eapply vk_bind; [eauto with vdb|]; intros u0 Hu0.
  eapply vk_bind; [apply vk_par; [eapply vk_bind; [eauto with vdb|intros; apply Ht; assumption]|eauto with vdb]|]; intros p' [Hp1' Hp2']. eapply vk_bind; [eauto with vdb|]; intros t Ht'.
  eapply vk_bind; [eauto with vdb|]; intros u1 Hu1. apply vk_ret. auto.
Qed.
Lemma v_s1 : forall lr tw j y0 y1, tv tw -> ve j -> vc y0 -> vc y1 -> vk (gen_s1 G lr tw j y0 y1) (fun p => vc (fst p) /\ vc (snd p)).
Proof.
  intros lr tw j y0 y1 Ht Hj H0 H1. unfold gen_s1. eapply vk_bind; [eauto with vdb|]; intros u0 Hu.
  eapply vk_bind; [apply vk_par; [apply Ht; exact Hj|eauto with vdb]|]; intros p [Hp1 Hp2]. eapply vk_bind; [eauto with vdb|]; intros t Ht'. eapply vk_bind; [eauto with vdb|]; intros u1 Hu1. apply vk_ret. auto.
Qed.
Lemma v_com : forall lr w s, vc w -> vk s vc -> vk (conj_of_mul G lr w s) vc.
Proof. intros lr w s Hw Hs. eapply vk_bind; [exact Hs|]; intros a Ha. eapply vk_bind; [eauto with vdb|]; intros t Ht. eauto with vdb. Qed.
Lemma v_moc : forall lr w s, vc w -> vk s vc -> vk (mul_of_conj G lr w s) vc.
Proof. intros lr w s Hw Hs. eapply vk_bind; [apply vk_par; [eauto with vdb|exact Hs]|]; intros a [Ha1 Ha2]. eauto with vdb. Qed.
Lemma v_pl : forall lr a b, vc a -> vc b -> vk (plus_left G lr a b) vc.
Proof. intros lr a b Ha Hb. eapply vk_bind; [eauto with vdb|]; intros l Hl. eauto with vdb. Qed.
Lemma v_ml : forall lr a b, vc a -> vc b -> vk (minus_left G lr a b) vc.
Proof. intros lr a b Ha Hb. eapply vk_bind; [eauto with vdb|]; intros l Hl. eauto with vdb. Qed.
Hint Resolve v_com v_moc v_pl v_ml : vdb.
Ltac chain := repeat (eapply vk_bind; [first [solve [eauto with vdb]|match goal with H : tv _ |- _ => apply H; assumption end]|]; intros ? ?).
Lemma v_s2 : forall lr tw j y0 y1 y2 y3, tv tw -> ve j -> vc y0 -> vc y1 -> vc y2 -> vc y3 -> vk (gen_s2 G lr tw j y0 y1 y2 y3) (Forall vc).
Proof.
  intros lr tw j y0 y1 y2 y3 Ht Hj H0 H1 H2 H3. unfold gen_s2. chain. apply vk_ret. two.
Qed.
Lemma v_s3 : forall lr tw j y0 y1 y2 y3 y4 y5 y6 y7, tv tw -> ve j -> vc y0 -> vc y1 -> vc y2 -> vc y3 -> vc y4 -> vc y5 -> vc y6 -> vc y7 ->
  vk (gen_s3 G sh_text sh_sig lr tw j y0 y1 y2 y3 y4 y5 y6 y7) (Forall vc).
Proof.
  intros lr tw j y0 y1 y2 y3 y4 y5 y6 y7 Ht Hj H0 H1 H2 H3 H4 H5 H6 H7. unfold gen_s3. chain. apply vk_ret. two.
Qed.
Lemma flat_ve : forall l, Forall vc l -> Forall ve (flat G l).
Proof. induction l as [|z t IH]; intros H; cbn [flat]; [apply Forall_nil|]. pose proof (Forall_inv H) as []. apply Forall_inv_tail in H. repeat (apply Forall_cons; [assumption|]). apply IH. exact H. Qed.
Ltac each H := repeat match type of H with Forall ve (_ :: _) => let A := fresh in pose proof (Forall_inv H) as A; apply Forall_inv_tail in H end.
Lemma gen_s_ve : forall lr r j ys, ve j -> Forall ve ys -> vk (gen_s G sh_text sh_sig lr r j ys) (Forall ve).
Proof.
  intros lr r j ys Hj Hy. assert (Ht : tv (base_twiddle G lr)) by (intros i Hi; apply v_base; exact Hi).
  unfold gen_s. destruct r as [|[|[|[|r]]]]; try (apply vk_fail; discriminate).
  all: repeat (destruct ys as [|? ys]; try (apply vk_fail; discriminate)); each Hy.
  - eapply vk_bind; [apply v_s1; try assumption; split; assumption|]. intros p []. apply vk_ret, flat_ve. two.
  - eapply vk_bind; [apply v_s2; try assumption; split; assumption|]. intros l Hl. apply vk_ret, flat_ve. exact Hl.
  - eapply vk_bind; [apply v_s3; try assumption; split; assumption|]. intros l Hl. apply vk_ret, flat_ve. exact Hl.
Qed.
Hint Resolve add_ve : vdb.
Lemma gen_first_ve : forall lr r j nr j1 xs, ve j -> ve nr -> ve j1 -> Forall ve xs -> vk (gen_first G sh_text sh_sig tw_text lr r j nr j1 xs) (Forall ve).
Proof.
  intros lr r j nr j1 xs Hj Hn Hj1 Hy. assert (Ht : tv (first_twiddle G sh_sig tw_text lr r)) by (intros i Hi; apply v_ftw; exact Hi).
  unfold gen_first. destruct r as [|[|[|[|r]]]]; try (apply vk_fail; discriminate).
  all: repeat (destruct xs as [|? xs]; try (apply vk_fail; discriminate)); each Hy.
  - eapply vk_bind; [eauto with vdb|]. intros y0 Hy0. apply vk_ret, flat_ve. two.
  - do 4 (eapply vk_bind; [solve [eauto with vdb]|]; intros ? ?). eapply vk_bind; [apply v_1; assumption|]. intros p []. apply vk_ret, flat_ve. two.
  - do 6 (eapply vk_bind; [solve [eauto with vdb]|]; intros ? ?). eapply vk_bind; [apply v_1; assumption|]. intros p [].
    do 2 (eapply vk_bind; [solve [eauto with vdb]|]; intros ? ?). eapply vk_bind; [apply v_1; assumption|]. intros q [].
    assert (Ht3 : tv (fun j0 => mbind G (times G 8 j0) (first_twiddle G sh_sig tw_text lr 3))) by (intros i Hi; eapply vk_bind; [apply v_times; exact Hi|]; intros; apply Ht; assumption).
    cbv zeta. do 2 (eapply vk_bind; [solve [eauto with vdb]|]; intros ? ?). eapply vk_bind; [apply v_s1; assumption|]. intros a [].
    do 2 (eapply vk_bind; [solve [eauto with vdb]|]; intros ? ?). eapply vk_bind; [apply v_s1; assumption|]. intros b []. apply vk_ret, flat_ve. two.
Qed.
Lemma locs_ve : forall cx add n k j dj, ve j -> ve dj -> vk (locs_from G cx add k n j dj) (Forall (fun l => ve (l_idx G l))).
Proof.
  intros cx add. induction n as [|n IH]; intros k j dj Hj Hd; cbn [locs_from]; [apply vk_ret, Forall_nil|].
  eapply vk_bind; [apply v_times; exact Hd|]; intros d Hd'. eapply vk_bind; [apply add_ve; assumption|]; intros i Hi. eapply vk_bind; [apply IH; assumption|]; intros t Ht. apply vk_ret. apply Forall_cons; assumption.
Qed.
End Scope.
