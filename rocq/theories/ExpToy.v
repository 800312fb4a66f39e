(** A small instance of the signature operations, used to exhibit concrete cases: signatures are
    rational numbers, so the signature of an expression is its value at one chosen point. *)
From Coq Require Import String ZArith List Bool Lia QArith Qcanon Ring_theory.
From Verif Require Import Base Field FieldInst ExpModel ExpProofs.
Import ListNotations.
Open Scope Z_scope.

Definition q (n : Z) : Qc := Q2Qc (inject_Z n).
Definition toy_unsmall (s : Qc) : option Z := find (fun n => Qc_eq_bool s (q n)) (map (fun k => Z.of_nat k - 32) (seq 0 65)).
Lemma toy_eqb_ok : forall a b : Qc, Qc_eq_bool a b = true <-> a = b.
Proof. exact Qc_eqb_ok. Qed.
Canonical Structure toy : SigOps := {|
  sgT := Qc; sg_eqb := Qc_eq_bool; sg_int := q; sg_neg := Qcopp; sg_add := Qcplus; sg_sub := Qcminus; sg_mul := Qcmult;
  sg_inv a := if Qc_eq_bool a 0%Qc then Throw else Ok (Qcinv a);
  sg_arb f l := fold_right (fun x a => Qcplus (Qcmult x (q 1000)) (Qcmult a (q 77))) (match f with Some s => q (1001 + Z.of_nat (String.length s)) | None => q 999 end) l;
  sg_unsmall := toy_unsmall; sg_eqb_ok := toy_eqb_ok
|}.
Lemma toy_laws : SigLaws toy.
Proof.
  constructor.
  - exact Qcrt.
  - intros n _. change (q (- n) = Qcopp (q n)). apply Qc_is_canon. unfold q, Qcopp. cbn [this Q2Qc]. rewrite !Qred_correct. unfold Qeq, inject_Z. cbn. lia.
  - intros s n H. change (toy_unsmall s = Some n) in H. unfold toy_unsmall in H. apply find_some in H. destruct H as [H1 H2]. apply Qc_eqb_ok in H2. split; [|exact H2].
    apply in_map_iff in H1. destruct H1 as (k & <- & Hk). apply in_seq in Hk. lia.
  - intros a Ha. cbn. assert (N : q a <> 0%Qc). { intros Q. assert (Qeq (q a) 0%Qc) by (rewrite Q; reflexivity). unfold q in H. cbn [this Q2Qc] in H. rewrite !Qred_correct in H. unfold Qeq in H. cbn in H. lia. }
    destruct (Qc_eq_bool (q a) 0%Qc) eqn:E; [apply Qc_eqb_ok in E; contradiction|]. exists (Qcinv (q a)). split; [reflexivity|]. apply Qcmult_inv_r. exact N.
Qed.
(** The point: each variable has a value of its own. *)
Definition toy_env (l : list (string * Z)) : interp QcF :=
  Build_interp QcF (fun v => match find (fun p => String.eqb (fst p) v) l with Some p => q (snd p) | None => q 0 end)
    (fun _ => q 123) (fun _ x => x) (fun _ l => fold_right Qcplus (q 0) l).
(** Signatures that are values never collide. *)
Definition honest (I : interp QcF) (l : list (exp toy)) : bool := forallb (fun e : exp toy => Qc_eq_bool (eval I e) (sig_of e)) l.
Lemma honest_ok : forall I l, honest I (smalls toy ++ l) = true -> no_collision I l.
Proof.
  intros I l H e1 e2 H1 H2 Q. unfold honest in H. rewrite forallb_forall in H.
  pose proof (proj1 (Qc_eqb_ok _ _) (H e1 H1)) as A. pose proof (proj1 (Qc_eqb_ok _ _) (H e2 H2)) as B.
  transitivity (sig_of e1 : Qc); [exact A|]. rewrite B. exact Q.
Qed.
