(** Over the reals the formal derivative of GradSpec.v is the derivative of analysis, and for
    circuits that are linear in their inputs it is the matrix entry. *)
From Coq Require Import String ZArith List Bool Reals Lra.
From Verif Require Import Base Field FieldInst ExpModel ExpProofs BlockProofs GradSpec GradProofs.
Import ListNotations.
Open Scope R_scope.

Lemma forall2_impl : forall A B (R S : A -> B -> Prop) l l', (forall a b, R a b -> S a b) -> Forall2 R l l' -> Forall2 S l l'.
Proof. intros A B R S l l' H F. induction F; constructor; auto. Qed.

Section P.
Variable G : SigOps.
Variable I : interp RF.
Variable ys : list (exp G).
(** [J t] is the point [I] with the node [x] set to [t], and nothing else moved. *)
Definition moves (x : exp G) (J : R -> interp RF) : Prop :=
  (forall t, eval (J t) x = t) /\ (forall e t, In e (nodes ys) -> ~ mentions x e -> eval (J t) e = eval I e).
(** [J] is the point [I] with the nodes in [xs] moved to arbitrary places. *)
Definition moved (xs : list (exp G)) (J : interp RF) : Prop :=
  forall e, In e (nodes ys) -> (forall x, In x xs -> ~ mentions x e) -> eval J e = eval I e.
Definition dot (xs : list (exp G)) (row : list R) (J : interp RF) : R := fold_right Rplus 0 (map (fun p => fst p * eval J (snd p)) (combine row xs)).
(** [I] with the field [f] of the value [a] set to [t]. *)
Definition set_field (f : string) (a t : R) : interp RF :=
  Build_interp RF (iv I) (iother I) (fun g b => if String.eqb g f then if Req_EM_T b a then t else ifield I g b else ifield I g b) (icall I).

Lemma dlim_ext : forall f h x l, (forall t, f t = h t) -> derivable_pt_lim h x l -> derivable_pt_lim f x l.
Proof.
  intros f h x l H D eps He. destruct (D eps He) as [d Hd]. exists d. intros k K0 Kd. rewrite !H. apply Hd; assumption.
Qed.
Lemma dlim_const : forall (f : R -> R) x, (forall t, f t = f x) -> derivable_pt_lim f x 0.
Proof. intros f x H. apply (dlim_ext f (fct_cte (f x))); [intros t; rewrite H; reflexivity|]. apply derivable_pt_lim_const. Qed.

Hypothesis HC : circuit ys.
Section X.
Variables (x : exp G) (J : R -> interp RF).
Hypothesis Hx : In x (nodes ys).
Hypothesis HJ : moves x J.
Lemma at_x : forall e, In e (nodes ys) -> sg_eqb G (sig_of e) (sig_of x) = true -> e = x.
Proof. intros e He Q. apply sg_eqb_ok in Q. apply (ci_canonical _ _ HC); assumption. Qed.
Lemma eval_back : forall e, In e (nodes ys) -> smooth x e -> eval (J (eval I x)) e = eval I e.
Proof.
  induction e as [o l s IHl] using (exp_ind' G). intros He Sm. rewrite Forall_forall in IHl.
  destruct (sg_eqb G (sig_of (E o l s)) (sig_of x)) eqn:Q.
  { apply at_x in Q; [|exact He]. rewrite Q. apply (proj1 HJ). }
  pose proof (ci_arity _ _ HC _ He) as A0.
  assert (Sa : forall a, In a l -> In a (nodes ys)) by (intros a Ha; apply (closed G ys (E o l s)); assumption).
  destruct o; cbn [arity_ok] in A0; cbn [smooth] in Sm; rewrite Q in Sm; try (apply (proj2 HJ); assumption).
  - subst l. apply (proj2 HJ); [exact He|]. intros (z & [<-|[]] & Qz). rewrite Qz in Q. rewrite eqb_refl in Q. discriminate.
  - subst l. apply (proj2 HJ); [exact He|]. intros (z & [<-|[]] & Qz). rewrite Qz in Q. rewrite eqb_refl in Q. discriminate.
  - destruct l as [|a [|b l]]; try discriminate A0. cbn [eval map opval]. rewrite IHl; [reflexivity|left; reflexivity|apply Sa; left; reflexivity|exact Sm].
  - destruct l as [|a [|b [|c l]]]; try discriminate A0. destruct Sm as [S1 S2]. cbn [eval map opval]. rewrite !IHl; cbn; auto; apply Sa; cbn; auto.
  - destruct l as [|a [|b [|c l]]]; try discriminate A0. destruct Sm as [S1 S2]. cbn [eval map opval]. rewrite !IHl; cbn; auto; apply Sa; cbn; auto.
  - destruct l as [|a [|b [|c l]]]; try discriminate A0. destruct Sm as [S1 S2]. cbn [eval map opval]. rewrite !IHl; cbn; auto; apply Sa; cbn; auto.
  - subst l. apply (proj2 HJ); [exact He|]. intros (z & [<-|[]] & Qz). rewrite Qz in Q. rewrite eqb_refl in Q. discriminate.
Qed.
Theorem deriv_real : forall e, In e (nodes ys) -> smooth x e ->
  derivable_pt_lim (fun t => eval (J t) e : R) (eval I x) (deriv I x e : R).
Proof.
  induction e as [o l s IHl] using (exp_ind' G). intros He Sm. rewrite Forall_forall in IHl.
  destruct (sg_eqb G (sig_of (E o l s)) (sig_of x)) eqn:Q.
  { rewrite (is_x_deriv RF G I x _ Q). apply at_x in Q; [|exact He]. rewrite Q. apply (dlim_ext _ id); [|apply derivable_pt_lim_id]. intros t. apply (proj1 HJ). }
  pose proof (ci_arity _ _ HC _ He) as A0.
  assert (Cst : ~ mentions x (E o l s) -> derivable_pt_lim (fun t => eval (J t) (E o l s) : R) (eval I x) (deriv I x (E o l s) : R)).
  { intros H. rewrite deriv_const by exact H. apply dlim_const. intros t. rewrite !(proj2 HJ) by assumption. reflexivity. }
  assert (Leaf : l = [] -> ~ mentions x (E o l s)).
  { intros ->. intros (z & [<-|[]] & Qz). rewrite Qz in Q. rewrite eqb_refl in Q. discriminate. }
  assert (Sa : forall a, In a l -> In a (nodes ys)) by (intros a Ha; apply (closed G ys (E o l s)); assumption).
  destruct o; cbn [arity_ok] in A0; try (apply Cst; apply Leaf; exact A0); cbn [smooth] in Sm; rewrite Q in Sm; try (apply Cst; exact Sm); cbn [deriv]; rewrite Q.
  - destruct l as [|a [|b l]]; try discriminate A0. apply (derivable_pt_lim_opp (fun t => eval (J t) a)). apply IHl; [left; reflexivity|apply Sa; left; reflexivity|exact Sm].
  - destruct l as [|a [|b [|c l]]]; try discriminate A0. destruct Sm as [S1 S2].
    apply (derivable_pt_lim_plus (fun t => eval (J t) a) (fun t => eval (J t) b)); apply IHl; auto; try (apply Sa); cbn; auto.
  - destruct l as [|a [|b [|c l]]]; try discriminate A0. destruct Sm as [S1 S2].
    apply (derivable_pt_lim_minus (fun t => eval (J t) a) (fun t => eval (J t) b)); apply IHl; auto; try (apply Sa); cbn; auto.
  - destruct l as [|a [|b [|c l]]]; try discriminate A0. destruct Sm as [S1 S2].
    pose proof (derivable_pt_lim_mult (fun t => eval (J t) a) (fun t => eval (J t) b) (eval I x) (deriv I x a) (deriv I x b)) as D.
    cbv beta in D. rewrite !eval_back in D by (try assumption; apply Sa; cbn; auto). apply D; apply IHl; auto; try (apply Sa); cbn; auto.
Qed.
End X.

(** ** The two kinds of input *)
Lemma vars_subs : forall (e : exp G) v, In v (vars e) -> exists z, In z (subs e) /\ op_of z = OVar v.
Proof.
  induction e as [o l s IHl] using (exp_ind' G). intros v Hv. rewrite Forall_forall in IHl.
  assert (K : In v (flat_map vars l) -> exists z, In z (subs (E o l s)) /\ op_of z = OVar v).
  { intros H. apply in_flat_map in H. destruct H as (a & Ha & H). destruct (IHl a Ha v H) as (z & Hz & Q). exists z. split; [|exact Q]. right. apply in_flat_map. exists a. split; assumption. }
  destruct o; cbn [vars] in Hv; try (apply K; exact Hv). destruct Hv as [<-|Hv]; [|apply K; exact Hv]. exists (E (OVar v0) l s). split; [left; reflexivity|reflexivity].
Qed.
Lemma moves_var : forall x v, In x (nodes ys) -> op_of x = OVar v -> (forall z, In z (nodes ys) -> op_of z = OVar v -> z = x) -> moves x (fun t => set_iv I v t).
Proof.
  intros x v Hx Ox U. split.
  - intros t. pose proof (ci_arity _ _ HC x Hx) as A. destruct x as [o l s]. cbn [op_of] in Ox. subst o. cbn [arity_ok] in A. subst l. cbn [eval map opval set_iv iv]. rewrite String.eqb_refl. reflexivity.
  - intros e t He Ne. apply eval_agree; try reflexivity. intros w Hw. cbn [set_iv iv]. destruct (String.eqb w v) eqn:Q; [|reflexivity]. apply String.eqb_eq in Q. subst w. exfalso.
    destruct (vars_subs e v Hw) as (z & Hz & Oz). apply Ne. exists z. split; [exact Hz|]. rewrite (U z); [reflexivity|apply (closed_subs G ys e); assumption|exact Oz].
Qed.
Lemma moves_field : forall x f p s, In x (nodes ys) -> x = E (OField f) [p] s ->
  (forall z a s', In z (nodes ys) -> z = E (OField f) [a] s' -> eval I a = eval I p -> z = x) -> moves x (fun t => set_field f (eval I p) t).
Proof.
  intros x f p s Hx Ex U.
  assert (K : forall e t, In e (nodes ys) -> ~ mentions x e -> eval (set_field f (eval I p) t) e = eval I e).
  { intros e t. induction e as [o l s' IHl] using (exp_ind' G). intros He Ne. rewrite Forall_forall in IHl.
    assert (L : map (eval (set_field f (eval I p) t)) l = map (eval I) l).
    { apply map_ext_in. intros a Ha. apply IHl; [exact Ha|apply (closed G ys (E o l s')); assumption|apply (ment_args G x (E o l s')); assumption]. }
    cbn [eval]. rewrite L. destruct o; try reflexivity. pose proof (ci_arity _ _ HC _ He) as A. cbn [arity_ok] in A.
    destruct l as [|a [|b l]]; try discriminate A. cbn [map opval set_field ifield]. destruct (String.eqb f0 f) eqn:Q; [|reflexivity].
    apply String.eqb_eq in Q. subst f0. destruct (Req_EM_T (eval I a) (eval I p)) as [Q|Q]; [|reflexivity]. exfalso. apply Ne.
    exists (E (OField f) [a] s'). split; [left; reflexivity|]. rewrite <- (U _ a s' He eq_refl Q). reflexivity. }
  split; [|exact K]. intros t. rewrite Ex. cbn [eval map opval]. rewrite K.
  - cbn [set_field ifield]. rewrite String.eqb_refl. destruct (Req_EM_T (eval I p) (eval I p)); [reflexivity|contradiction].
  - apply (closed G ys x); [exact Hx|]. rewrite Ex. left. reflexivity.
  - apply (not_below G ys HC x x); [exact Hx|exact Hx|apply eqb_refl|]. rewrite Ex. left. reflexivity.
Qed.

(** ** Linear circuits *)
Lemma dot_move : forall x J xs row i, incl xs (nodes ys) -> moves x J -> (forall i' x', nth_error xs i' = Some x' -> i' <> i -> ~ mentions x x') -> nth_error xs i = Some x -> length row = length xs ->
  exists k, forall t, dot xs row (J t) = k + nth i row 0 * t.
Proof.
  intros x J xs row i Hi HJ. unfold dot. revert row i Hi. induction xs as [|z xs IH]; intros row i Hi O Hx L; [destruct i; discriminate Hx|].
  destruct row as [|r row]; [discriminate L|]. injection L as L. destruct i as [|i].
  - injection Hx as ->. exists (fold_right Rplus 0 (map (fun p => fst p * eval I (snd p)) (combine row xs))). intros t. cbn [combine map fold_right fst snd nth].
    rewrite (proj1 HJ). replace (map (fun p => fst p * eval (J t) (snd p)) (combine row xs)) with (map (fun p => fst p * eval I (snd p)) (combine row xs)); [lra|].
    apply map_ext_in. intros [c e] Hp. cbn [fst snd]. rewrite (proj2 HJ); [reflexivity| |].
    + apply Hi. right. eapply in_combine_r. exact Hp.
    + apply in_combine_r in Hp. apply In_nth_error in Hp. destruct Hp as [k Hk]. apply (O (S k)); [exact Hk|discriminate].
  - destruct (IH row i) as [k K].
    + intros e He. apply Hi. right. exact He.
    + intros i' x' Hx' Ne. apply (O (S i')); [exact Hx'|congruence].
    + exact Hx.
    + exact L.
    + exists (r * eval I z + k). intros t. cbn [combine map fold_right fst snd nth]. rewrite K. rewrite (proj2 HJ); [lra|apply Hi; left; reflexivity|]. apply (O 0%nat); [reflexivity|discriminate].
Qed.
Lemma moves_moved : forall x J xs t, moves x J -> In x xs -> moved xs (J t).
Proof. intros x J xs t HJ Hx e He N. apply (proj2 HJ); [exact He|]. apply N. exact Hx. Qed.
Theorem deriv_linear : forall xs row e i x J, In e (nodes ys) -> incl xs (nodes ys) -> nth_error xs i = Some x -> length row = length xs ->
  (forall i' x', nth_error xs i' = Some x' -> i' <> i -> ~ mentions x x') -> moves x J -> smooth x e ->
  (forall t, eval (J t) e = dot xs row (J t)) -> deriv I x e = nth i row 0.
Proof.
  intros xs row e i x J He Hi Hx L O HJ Sm Lin. assert (Ix : In x xs) by (eapply nth_error_In; exact Hx).
  apply (uniqueness_limite (fun t => eval (J t) e) (eval I x)); [apply deriv_real; try assumption; apply Hi; exact Ix|].
  destruct (dot_move x J xs row i Hi HJ O Hx L) as [k K].
  apply (dlim_ext _ (plus_fct (fct_cte k) (mult_real_fct (nth i row 0) id))).
  - intros t. rewrite Lin, K. reflexivity.
  - assert (D : derivable_pt_lim (plus_fct (fct_cte k) (mult_real_fct (nth i row 0) id)) (eval I x) (0 + nth i row 0 * 1)).
    { apply derivable_pt_lim_plus; [apply derivable_pt_lim_const|]. apply derivable_pt_lim_scal. apply derivable_pt_lim_id. }
    replace (0 + nth i row 0 * 1) with (nth i row 0) in D by lra. exact D.
Qed.
End P.
