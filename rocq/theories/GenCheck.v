(** Decision procedures for the conditions on generated circuits (circuit, apart, fields_ok, vars_ok)
    and for the absence of collisions, used to exhibit concrete cases. *)
From Coq Require Import String ZArith List Bool Lia QArith Qcanon Reals.
From Verif Require Import Base Field FieldInst ExpModel ExpProofs BlockProofs ExpToy GradSpec GradProofs GenModel GenBack.
Import ListNotations.
Open Scope Z_scope.

Definition op_eqb (a b : op) : bool :=
  match a, b with
  | OVar v, OVar w => String.eqb v w | OInt n, OInt m => Z.eqb n m | OField f, OField g => String.eqb f g | ONeg, ONeg => true
  | OAdd, OAdd => true | OSub, OSub => true | OMul, OMul => true | ODiv n, ODiv m => Z.eqb n m | OCall f, OCall g => String.eqb f g
  | OOther s p, OOther t r => String.eqb s t && Z.eqb p r | _, _ => false
  end.
Lemma op_eqb_ok : forall a b, op_eqb a b = true -> a = b.
Proof.
  intros a b H. destruct a, b; try discriminate H; try reflexivity; cbn in H; try (apply String.eqb_eq in H; congruence); try (apply Z.eqb_eq in H; congruence).
  apply andb_prop in H. destruct H as [H1 H2]. apply String.eqb_eq in H1. apply Z.eqb_eq in H2. congruence.
Qed.
Section Check.
Variable G : SigOps.
Notation exp := (exp G).
Fixpoint exp_eqb (a b : exp) {struct a} : bool :=
  match a, b with
  | E o l s, E o' l' s' =>
      sg_eqb G s s' && op_eqb o o' &&
      (fix go (l l' : list exp) {struct l} : bool := match l, l' with [], [] => true | x :: t, y :: t' => exp_eqb x y && go t t' | _, _ => false end) l l'
  end.
Lemma exp_eqb_ok : forall a b, exp_eqb a b = true -> a = b.
Proof.
  induction a as [o l s IH] using exp_ind'. intros [o' l' s'] H. cbn [exp_eqb] in H. apply andb_prop in H. destruct H as [H Hl]. apply andb_prop in H. destruct H as [Hs Ho].
  apply sg_eqb_ok in Hs. apply op_eqb_ok in Ho. subst s' o'. f_equal. clear s.
  revert l' Hl. induction IH as [|x t Hx _ IH]; intros [|y t'] Hl; try discriminate Hl; [reflexivity|]. apply andb_prop in Hl. destruct Hl as [A B]. f_equal; [apply Hx; exact A|apply IH; exact B].
Qed.
Definition mem_b (a : exp) (l : list exp) : bool := existsb (exp_eqb a) l.
Lemma mem_b_ok : forall a l, mem_b a l = true -> In a l.
Proof. intros a l H. apply existsb_exists in H. destruct H as (x & Hx & E). apply exp_eqb_ok in E. subst x. exact Hx. Qed.
(** Each expression once. *)
Definition dedup (l : list exp) : list exp := fold_right (fun a acc => if mem_b a acc then acc else a :: acc) [] l.
Lemma dedup_in : forall l a, In a l -> In a (dedup l).
Proof.
  induction l as [|b l IH]; intros a [].
  - subst b. cbn. fold (dedup l). destruct (mem_b a (dedup l)) eqn:E; [apply mem_b_ok; exact E|left; reflexivity].
  - cbn. fold (dedup l). destruct (mem_b b (dedup l)); [|right]; apply IH; assumption.
Qed.
Lemma dedup_sub : forall l a, In a (dedup l) -> In a l.
Proof.
  induction l as [|b l IH]; intros a H; [exact H|]. cbn in H. fold (dedup l) in H. destruct (mem_b b (dedup l)); [right; apply IH; exact H|]. destruct H as [->|H]; [left; reflexivity|right; apply IH; exact H].
Qed.
(** One expression per signature. *)
Definition canon_b (l : list exp) : bool := let d := dedup l in forallb (fun a => forallb (fun b => negb (sg_eqb G (sig_of a) (sig_of b)) || exp_eqb a b) d) d.
Lemma canon_b_ok : forall l, canon_b l = true -> forall a b, In a l -> In b l -> sig_of a = sig_of b -> a = b.
Proof.
  intros l H a b Ha Hb Q. unfold canon_b in H. rewrite forallb_forall in H. specialize (H a (dedup_in l a Ha)). rewrite forallb_forall in H. specialize (H b (dedup_in l b Hb)).
  apply sg_eqb_ok in Q. rewrite Q in H. apply exp_eqb_ok. exact H.
Qed.
Lemma canon_nocol : forall l, canon_b (smalls G ++ l) = true -> forall F (I : interp F), no_collision I l.
Proof. intros l H F I e1 e2 H1 H2 Q. rewrite (canon_b_ok _ H e1 e2 H1 H2 Q). reflexivity. Qed.
Definition arity_b (e : exp) : bool :=
  match e with
  | E (OVar _) l _ | E (OInt _) l _ | E (OOther _ _) l _ => (length l =? 0)%nat
  | E ONeg l _ | E (OField _) l _ | E (ODiv _) l _ => (length l =? 1)%nat
  | E OAdd l _ | E OSub l _ | E OMul l _ => (length l =? 2)%nat
  | E (OCall _) _ _ => true
  end.
Lemma arity_b_ok : forall e, arity_b e = true -> arity_ok e.
Proof. intros [o l s] H. destruct o; cbn in *; try exact Logic.I; apply Nat.eqb_eq in H; try exact H; destruct l; try reflexivity; discriminate H. Qed.
Fixpoint wfe_b (e : exp) : bool :=
  match e with
  | E (OInt n) args s => (length args =? 0)%nat && ((- 2 ^ 31 <? n) && (n <? 2 ^ 31)) && sg_eqb G s (sg_int G n)
  | E ONeg [a] s => wfe_b a && sg_eqb G s (sg_neg G (sig_of a))
  | E ONeg _ _ => false
  | _ => true
  end.
Lemma wfe_b_ok : forall e, wfe_b e = true -> wfe e.
Proof.
  induction e as [o l s IH] using exp_ind'. intros H. destruct o; try exact Logic.I; cbn [wfe_b wfe] in *.
  - apply andb_prop in H. destruct H as [H H3]. apply andb_prop in H. destruct H as [H1 H2]. apply andb_prop in H2. destruct H2 as [H2 H4].
    apply Nat.eqb_eq in H1. apply Z.ltb_lt in H2. apply Z.ltb_lt in H4. apply sg_eqb_ok in H3. destruct l; [|discriminate H1]. auto.
  - destruct l as [|a [|b l]]; try discriminate H. apply andb_prop in H. destruct H as [H1 H2]. apply sg_eqb_ok in H2. apply Forall_inv in IH. auto.
Qed.
Fixpoint nodup_b (l : list exp) : bool := match l with [] => true | a :: t => forallb (fun b => negb (sg_eqb G (sig_of a) (sig_of b))) t && nodup_b t end.
Lemma nodup_b_ok : forall l, nodup_b l = true -> NoDup l.
Proof.
  induction l as [|a l IH]; intros H; constructor; cbn in H; apply andb_prop in H; destruct H as [H1 H2].
  - intros Ha. rewrite forallb_forall in H1. specialize (H1 a Ha). rewrite (proj2 (sg_eqb_ok G _ _) eq_refl) in H1. discriminate H1.
  - apply IH. exact H2.
Qed.
Definition circuit_b (ys : list exp) : bool :=
  let d := dedup (nodes ys) in
  canon_b (nodes ys) && forallb arity_b d && forallb wfe_b d && nodup_b ys &&
  forallb (fun z => forallb (fun a => forallb (fun y => negb (sg_eqb G (sig_of a) (sig_of y))) ys) (args_of z)) d.
Lemma circuit_b_ok : forall ys, circuit_b ys = true -> circuit ys.
Proof.
  intros ys H. unfold circuit_b in H. apply andb_prop in H. destruct H as [H H5]. apply andb_prop in H. destruct H as [H H4]. apply andb_prop in H. destruct H as [H H3]. apply andb_prop in H. destruct H as [H1 H2].
  rewrite forallb_forall in H2, H3, H5. constructor.
  - apply canon_b_ok. exact H1.
  - intros a Ha. apply arity_b_ok. apply H2. apply dedup_in. exact Ha.
  - intros a Ha. apply wfe_b_ok. apply H3. apply dedup_in. exact Ha.
  - apply nodup_b_ok. exact H4.
  - intros z a Hz Ha Hy. specialize (H5 z (dedup_in _ _ Hz)). rewrite forallb_forall in H5. specialize (H5 a Ha). rewrite forallb_forall in H5. specialize (H5 a Hy).
    rewrite (proj2 (sg_eqb_ok G _ _) eq_refl) in H5. discriminate H5.
Qed.
Definition mentions_b (x e : exp) : bool := existsb (fun z => sg_eqb G (sig_of z) (sig_of x)) (subs e).
Lemma mentions_b_ok : forall x e, mentions_b x e = false -> ~ mentions x e.
Proof.
  intros x e H (z & Hz & Q). apply sg_eqb_ok in Q. assert (mentions_b x e = true); [|congruence]. apply existsb_exists. exists z. auto.
Qed.
Fixpoint smooth_b (x e : exp) : bool :=
  if sg_eqb G (sig_of e) (sig_of x) then true else
  match e with
  | E ONeg [a] _ => smooth_b x a
  | E OAdd [a; b] _ | E OSub [a; b] _ | E OMul [a; b] _ => smooth_b x a && smooth_b x b
  | E (OField _) _ _ | E (ODiv _) _ _ | E (OCall _) _ _ => negb (mentions_b x e)
  | _ => true
  end.
Lemma smooth_b_ok : forall x e, smooth_b x e = true -> smooth x e.
Proof.
  intros x. induction e as [o l s IH] using exp_ind'. intros H.
  destruct o; destruct l as [|u1 [|u2 [|u3 l]]]; cbn [smooth_b smooth] in *; destruct (sg_eqb G _ _); try exact Logic.I; try (apply mentions_b_ok; apply negb_true_iff in H; exact H).
  all: try (apply Forall_inv in IH; apply IH; exact H).
  all: apply andb_prop in H; destruct H as [H1 H2]; split; [apply Forall_inv in IH; apply IH; exact H1|apply Forall_inv_tail, Forall_inv in IH; apply IH; exact H2].
Qed.
Fixpoint no_mention_b (xs : list exp) : bool :=
  match xs with [] => true | x :: t => forallb (fun y => negb (mentions_b x y) && negb (mentions_b y x)) t && no_mention_b t end.
Definition apart_b (pxs pys : list exp) : bool :=
  forallb (fun x => mem_b x (nodes pys)) pxs && no_mention_b pxs && forallb (fun x => forallb (smooth_b x) pys) pxs.
Lemma apart_b_ok : forall pxs pys, apart_b pxs pys = true -> apart G pxs pys.
Proof.
  intros pxs pys H. unfold apart_b in H. apply andb_prop in H. destruct H as [H H3]. apply andb_prop in H. destruct H as [H1 H2]. rewrite forallb_forall in H1, H3. split; [|split].
  - intros x Hx. apply mem_b_ok. apply H1. exact Hx.
  - clear - H2. induction pxs as [|a l IH]; intros i x i' x' Ix Ix' Ne; [destruct i; discriminate Ix|]. cbn [no_mention_b] in H2. apply andb_prop in H2. destruct H2 as [A B]. rewrite forallb_forall in A.
    destruct i as [|i], i' as [|i']; [lia| | |apply (IH B i x i' x'); [exact Ix|exact Ix'|lia]].
    + cbn in Ix, Ix'. injection Ix as <-. apply nth_error_In in Ix'. specialize (A x' Ix'). apply andb_prop in A. destruct A as [A _]. apply mentions_b_ok. apply negb_true_iff in A. exact A.
    + cbn in Ix, Ix'. injection Ix' as <-. apply nth_error_In in Ix. specialize (A x Ix). apply andb_prop in A. destruct A as [_ A]. apply mentions_b_ok. apply negb_true_iff in A. exact A.
  - intros x y Hx Hy. specialize (H3 x Hx). rewrite forallb_forall in H3. apply smooth_b_ok. apply H3. exact Hy.
Qed.
Definition fields_b (pxs pys : list exp) : bool :=
  forallb (fun z => match z with
    | E (OField f) [E (OCall g) [j] _] _ => String.eqb g "twiddle" || mem_b z pxs
    | E (OField f) _ _ => mem_b z pxs
    | _ => true end) (dedup (nodes pys)).
Lemma fields_b_ok : forall pxs pys, fields_b pxs pys = true -> fields_ok G pxs pys.
Proof.
  intros pxs pys H z f Hz Oz. unfold fields_b in H. rewrite forallb_forall in H. specialize (H z (dedup_in _ _ Hz)). destruct z as [o l s]. cbn in Oz. subst o.
  destruct l as [|[o l0 s0] [|? ?]]; try (left; apply mem_b_ok; exact H). destruct o; try (left; apply mem_b_ok; exact H). destruct l0 as [|j [|? ?]]; try (left; apply mem_b_ok; exact H).
  apply orb_prop in H. destruct H as [H|H]; [|left; apply mem_b_ok; exact H]. apply String.eqb_eq in H. subst f0. right. exists j, s0, s. reflexivity.
  left. apply mem_b_ok. destruct o; try exact H. destruct l0 as [|? [|? ?]]; exact H.
Qed.
Definition vars_b (names : list string) (pxs pys : list exp) : bool :=
  forallb (fun z => match z with E (OVar v) _ _ => negb (existsb (String.eqb v) names) || mem_b z pxs | _ => true end) (dedup (nodes pys)).
Lemma vars_b_ok : forall names pxs pys, vars_b names pxs pys = true -> vars_ok G names pxs pys.
Proof.
  intros names pxs pys H z v Hz Oz Hv. unfold vars_b in H. rewrite forallb_forall in H. specialize (H z (dedup_in _ _ Hz)). destruct z as [o l s]. cbn in Oz. subst o.
  apply orb_prop in H. destruct H as [H|H]; [|apply mem_b_ok; exact H]. apply negb_true_iff in H. assert (X : existsb (String.eqb v) names = true); [|congruence]. apply existsb_exists. exists v. split; [exact Hv|apply String.eqb_refl].
Qed.
End Check.

(** ** Signatures for the examples: as ExpToy.v, with arbitrary signatures hashed *)
Definition mix (a b : Z) : Z := (a * a * 31 + b * b * 7919 + a * b * 12347 + 5 * b + 1009) mod 1000003.
Definition str_code (s : string) : Z := fold_right (fun c a => mix a (Z.of_N (Ascii.N_of_ascii c))) 17 (list_ascii_of_string s).
Definition toyg : SigOps := {|
  sgT := Qc; sg_eqb := Qc_eq_bool; sg_int := q; sg_neg := Qcopp; sg_add := Qcplus; sg_sub := Qcminus; sg_mul := Qcmult;
  sg_inv a := if Qc_eq_bool a 0%Qc then Throw else Ok (Qcinv a);
  sg_arb f l := q (1000 + fold_right (fun (x : Qc) a => mix a (Qnum (this x))) (match f with Some s => str_code s | None => 23 end) l);
  sg_unsmall := toy_unsmall; sg_eqb_ok := toy_eqb_ok
|}.
Lemma toyg_laws : SigLaws toyg.
Proof. destruct toy_laws as [A B C D]. constructor; assumption. Qed.
Definition toy_draw (s : string) : toyg := q (1000 + mix 3 (str_code s)).
