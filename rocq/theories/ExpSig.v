(** The signatures of sig.cc satisfy the laws used in ExpProofs.v. *)
From Coq Require Import String ZArith List Bool Lia Ring_theory Znumtheory Eqdep_dec.
From Verif Require Import Base SeriesModel SigModel SigProofs ExpModel ExpProofs.
Import ListNotations.
Open Scope Z_scope.

Section S.
Variable fields : list Z.
(** sig.h:36-59: one residue per field (the code keeps the residues reduced). *)
Fixpoint reducedb (ps s : list Z) : bool :=
  match ps, s with
  | [], [] => true
  | p :: ps, x :: s => (0 <=? x) && (x <? p) && reducedb ps s
  | _, _ => false
  end.
Definition rsig : Type := { s : list Z | reducedb fields s = true }.
Definition rv (s : rsig) : list Z := proj1_sig s.
(** A list that is not reduced is replaced by zeros (never happens, see [rv_mk]). *)
Definition zeros_ok : Prop := reducedb fields (map (fun _ => 0) fields) = true.
Variable Z0 : zeros_ok.
Definition mk (s : list Z) : rsig :=
  match Sumbool.sumbool_of_bool (reducedb fields s) with
  | left H => exist _ s H
  | right _ => exist _ (map (fun _ => 0) fields) Z0
  end.
Definition mkr (r : res (list Z)) : rsig := match r with Ok s => mk s | _ => mk [] end.
Lemma rv_inj : forall a b : rsig, rv a = rv b -> a = b.
Proof.
  intros [x Hx] [y Hy] H. cbn in H. subst y. f_equal. apply UIP_dec. apply bool_dec.
Qed.
Lemma rsig_eqb_ok : forall a b : rsig, sig_eqb (rv a) (rv b) = true <-> a = b.
Proof.
  intros a b. rewrite sig_eqb_eq. split; [apply rv_inj|intros ->; reflexivity].
Qed.
(** sig.cc:205-214 [arbitrary] (SHA-256) is any function. *)
Variable sha : option string -> list rsig -> rsig.
Definition sig_ops : SigOps := {|
  sgT := rsig;
  sg_eqb a b := sig_eqb (rv a) (rv b);
  sg_int n := mk (sig_int fields n);
  sg_neg a := mkr (sig_neg fields (rv a));
  sg_add a b := mkr (sig_add fields (rv a) (rv b));
  sg_sub a b := mkr (sig_sub fields (rv a) (rv b));
  sg_mul a b := mkr (sig_mul fields (rv a) (rv b));
  sg_inv a := match sig_inv fields (rv a) with Ok s => Ok (mk s) | Throw => Throw | UB => UB end;
  sg_arb := sha;
  sg_unsmall a := match unsmall fields (rv a) with Ok o => o | _ => None end;
  sg_eqb_ok := rsig_eqb_ok
|}.

Lemma reducedb_iff : forall ps s, reducedb ps s = true <-> reduced ps s.
Proof.
  unfold reduced. induction ps as [|p ps IH]; intros [|x s]; cbn; split; intros H; try discriminate; try constructor; try solve [inversion H].
  - apply andb_prop in H. destruct H as [H _]. apply andb_prop in H. destruct H as [H1 H2]. apply Z.leb_le in H1. apply Z.ltb_lt in H2. lia.
  - apply andb_prop in H. apply IH. apply H.
  - inversion H; subst. apply andb_true_intro. split; [|apply IH; assumption]. apply andb_true_intro. split; [apply Z.leb_le|apply Z.ltb_lt]; lia.
Qed.
Lemma rv_reduced : forall a, reduced fields (rv a).
Proof. intros [s H]. apply reducedb_iff. exact H. Qed.
Lemma rv_mk : forall s, reduced fields s -> rv (mk s) = s.
Proof.
  intros s H. apply reducedb_iff in H. unfold mk. destruct (Sumbool.sumbool_of_bool (reducedb fields s)) as [Q|Q]; [reflexivity|congruence].
Qed.
Lemma reduced_length : forall ps s, reduced ps s -> length s = length ps.
Proof. intros ps s H. induction H; cbn; congruence. Qed.
Lemma reduced_ext : forall s t, reduced fields s -> reduced fields t -> (forall i, (i < length fields)%nat -> nth i s 0 = nth i t 0) -> s = t.
Proof.
  intros s t Hs Ht H. assert (Ls : length s = length fields) by (apply reduced_length; exact Hs).
  assert (Lt : length t = length fields) by (apply reduced_length; exact Ht).
  apply (nth_ext _ _ 0 0); [congruence|]. intros i Hi. apply H. lia.
Qed.
Hypothesis Hf : Forall (fun p => prime p /\ 2 ^ 31 < p < 2 ^ 64) fields.
Hypothesis Hn : fields <> [].
Lemma Hmod : Forall modulus fields.
Proof. eapply Forall_impl; [|exact Hf]. unfold modulus. cbv beta. intros p [_ H]. lia. Qed.
Lemma Hrange : Forall (fun p => 2 ^ 31 < p < 2 ^ 64) fields.
Proof. eapply Forall_impl; [|exact Hf]. cbv beta. intros p [_ H]. exact H. Qed.
Notation at_ i a := (nth i (rv a) 0).
Lemma nth_mod : forall i, (i < length fields)%nat -> 0 < nth i fields 0.
Proof. intros i Hi. pose proof Hmod as H. rewrite Forall_forall in H. apply (H (nth i fields 0)). apply nth_In. exact Hi. Qed.
Lemma reduced_nth : forall ps s i, reduced ps s -> (i < length ps)%nat -> 0 <= nth i s 0 < nth i ps 0.
Proof.
  intros ps s i H. revert i. induction H as [|p x ps s Hp H IH]; intros i Hi; [cbn in Hi; lia|]. destruct i; cbn; [exact Hp|]. apply IH. cbn in Hi. lia.
Qed.
Lemma at_small : forall i a, (i < length fields)%nat -> at_ i a mod nth i fields 0 = at_ i a.
Proof. intros i a Hi. apply Z.mod_small. apply reduced_nth; [apply rv_reduced|exact Hi]. Qed.
Lemma at_int : forall n i, - 2 ^ 31 <= n < 2 ^ 31 -> (i < length fields)%nat -> at_ i (sg_int sig_ops n) = n mod nth i fields 0.
Proof.
  intros n i Hb Hi. cbn [sg_int sig_ops]. rewrite rv_mk by (apply sig_int_reduced; [exact Hrange|exact Hb]).
  rewrite sig_int_ok by (try exact Hrange; exact Hb). rewrite (nth_indep _ 0 (n mod 0)) by (rewrite map_length; exact Hi). apply (map_nth (fun p => n mod p)).
Qed.
Lemma at_neg : forall a i, (i < length fields)%nat -> at_ i (sg_neg sig_ops a) = (- at_ i a) mod nth i fields 0.
Proof.
  intros a i Hi. cbn [sg_neg sig_ops]. destruct (sig_neg_ok fields (rv a) Hmod (rv_reduced a)) as (r & -> & R & N). cbn [mkr]. rewrite rv_mk by exact R. apply N. exact Hi.
Qed.
Lemma at_add : forall a b i, (i < length fields)%nat -> at_ i (sg_add sig_ops a b) = (at_ i a + at_ i b) mod nth i fields 0.
Proof.
  intros a b i Hi. cbn [sg_add sig_ops]. destruct (sig_add_ok fields (rv a) (rv b) Hmod (rv_reduced a) (rv_reduced b)) as (r & -> & R & N). cbn [mkr]. rewrite rv_mk by exact R. apply N. exact Hi.
Qed.
Lemma at_sub : forall a b i, (i < length fields)%nat -> at_ i (sg_sub sig_ops a b) = (at_ i a - at_ i b) mod nth i fields 0.
Proof.
  intros a b i Hi. cbn [sg_sub sig_ops]. destruct (sig_sub_ok fields (rv a) (rv b) Hmod (rv_reduced a) (rv_reduced b)) as (r & -> & R & N). cbn [mkr]. rewrite rv_mk by exact R. apply N. exact Hi.
Qed.
Lemma at_mul : forall a b i, (i < length fields)%nat -> at_ i (sg_mul sig_ops a b) = (at_ i a * at_ i b) mod nth i fields 0.
Proof.
  intros a b i Hi. cbn [sg_mul sig_ops]. destruct (sig_mul_ok fields (rv a) (rv b) Hmod (rv_reduced a) (rv_reduced b)) as (r & -> & R & N). cbn [mkr]. rewrite rv_mk by exact R. apply N. exact Hi.
Qed.
Lemma rsig_ext : forall a b : rsig, (forall i, (i < length fields)%nat -> at_ i a mod nth i fields 0 = at_ i b mod nth i fields 0) -> a = b.
Proof.
  intros a b H. apply rv_inj. apply reduced_ext; try apply rv_reduced. intros i Hi. specialize (H i Hi). rewrite !at_small in H by exact Hi. exact H.
Qed.
Ltac comp := intros; apply rsig_ext; intros i Hi; pose proof (nth_mod i Hi);
  rewrite ?at_add, ?at_sub, ?at_mul, ?at_neg, ?at_int, ?at_add, ?at_sub, ?at_mul, ?at_neg, ?at_int by (try exact Hi; lia).
Lemma sig_laws : SigLaws sig_ops.
Proof.
  constructor.
  - constructor.
    + comp. rewrite (Z.mod_small 0) by lia. rewrite Z.add_0_l, Z.mod_mod by lia. reflexivity.
    + comp. rewrite Z.add_comm. reflexivity.
    + comp. rewrite !Z.mod_mod by lia. rewrite Z.add_mod_idemp_r, Z.add_mod_idemp_l by lia. f_equal; lia.
    + comp. rewrite !Z.mod_mod by lia. rewrite Z.mul_mod_idemp_l by lia. f_equal; lia.
    + comp. rewrite Z.mul_comm. reflexivity.
    + comp. rewrite !Z.mod_mod by lia. rewrite Z.mul_mod_idemp_r, Z.mul_mod_idemp_l by lia. f_equal; lia.
    + comp. rewrite !Z.mod_mod by lia. rewrite Z.mul_mod_idemp_l, <- Z.add_mod by lia. f_equal; lia.
    + comp. rewrite !Z.mod_mod by lia. rewrite Z.add_mod_idemp_r by lia. f_equal; lia.
    + comp. rewrite !Z.mod_mod by lia. rewrite Z.add_mod_idemp_r by lia. f_equal; lia.
  - intros n Hb. comp. rewrite !Z.mod_mod by lia. replace (- (n mod nth i fields 0)) with (0 - n mod nth i fields 0) by lia.
    rewrite Zminus_mod_idemp_r. f_equal.
  - intros s n H. cbn [sg_unsmall sig_ops] in H. destruct (unsmall_spec fields (rv s) Hn Hrange) as (o & Eo & Ho). rewrite Eo in H.
    apply Ho in H. destruct H as [B R]. split; [exact B|]. apply rv_inj. rewrite R. symmetry. cbn [sg_int sig_ops]. apply rv_mk. apply sig_int_reduced; [exact Hrange|lia].
  - intros a Ha. assert (Ra : rv (sg_int sig_ops a) = sig_int fields a) by (apply rv_mk; apply sig_int_reduced; [exact Hrange|lia]).
    destruct (sig_inv_ok fields (rv (sg_int sig_ops a))) as (r & Er & Rr & Nr).
    + eapply Forall_impl; [|exact Hrange]. cbv beta. intros p H. lia.
    + apply rv_reduced.
    + rewrite Ra, sig_int_ok by (try exact Hrange; lia). clear - Hf Ha. induction Hf as [|p ps [Pp Hp] Hps IH]; cbn [map]; constructor; [|apply IH; exact Hps].
      rewrite Z.mod_small by lia. apply Zgcd_1_rel_prime. apply rel_prime_sym. apply prime_rel_prime; [exact Pp|]. intros D. apply Z.divide_pos_le in D; lia.
    + exists (mk r). split; [cbn [sg_inv sig_ops]; rewrite Er; reflexivity|]. comp. rewrite rv_mk by exact Rr.
      specialize (Nr i Hi). rewrite at_int in Nr by (try exact Hi; lia). rewrite Z.mul_comm in Nr.
      rewrite Nr. f_equal. symmetry. rewrite !Z.mod_small; [lia|]. split; [lia|]. pose proof Hrange as Q. rewrite Forall_forall in Q. specialize (Q _ (nth_In _ 0 Hi)). cbv beta in Q. lia.
Qed.
End S.
