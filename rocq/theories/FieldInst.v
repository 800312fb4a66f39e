(** Two concrete coefficient fields: rationals (computable) and reals. *)
From Coq Require Import ZArith QArith Qcanon Reals Field_theory Lia Lra.
From Verif Require Import Field.

Lemma Qc_char0 : forall n : nat, Nat.iter (S n) (Qcplus 1) 0%Qc <> 0%Qc.
Proof.
  intros n. assert (H : forall m : nat, Qeq (this (Nat.iter m (Qcplus 1) 0%Qc)) (inject_Z (Z.of_nat m))).
  { induction m as [|m IH]; [reflexivity|].
    change (Nat.iter (S m) (Qcplus 1) 0%Qc) with (Qcplus 1 (Nat.iter m (Qcplus 1) 0%Qc)).
    unfold Qcplus. cbn [this Q2Qc]. rewrite Qred_correct, IH.
    change (Qred 1) with (1 # 1)%Q.
    unfold Qeq, Qplus, inject_Z; cbn [Qnum Qden Qmult Pos.mul]. rewrite Nat2Z.inj_succ. cbn [Qnum Qden]. lia. }
  intros E. specialize (H (S n)). rewrite E in H. unfold Qeq, inject_Z in H; cbn [Qnum Qden this Q2Qc] in H.
  cbn in H. lia.
Qed.

Lemma Qc_eqb_ok : forall a b : Qc, Qc_eq_bool a b = true <-> a = b.
Proof.
  intros a b. split.
  - apply Qc_eq_bool_correct.
  - intros <-. unfold Qc_eq_bool. destruct (Qc_eq_dec a a); congruence.
Qed.

(** Exact rational coefficients. *)
Definition QcF : Fld := {|
  K := Qc; k0 := 0%Qc; k1 := 1%Qc; kadd := Qcplus; kmul := Qcmult; ksub := Qcminus;
  kopp := Qcopp; kdiv := Qcdiv; kinv := Qcinv; keqb := Qc_eq_bool;
  kfield := Qcft; keqb_ok := Qc_eqb_ok; kchar0 := Qc_char0
|}.

Definition R_eqb (a b : R) : bool := if Req_EM_T a b then true else false.

Lemma R_eqb_ok : forall a b : R, R_eqb a b = true <-> a = b.
Proof. intros a b. unfold R_eqb. destruct (Req_EM_T a b); split; congruence. Qed.

Lemma R_char0 : forall n : nat, Nat.iter (S n) (Rplus 1) 0%R <> 0%R.
Proof.
  intros n. assert (H : forall m : nat, (0 <= Nat.iter m (Rplus 1) 0)%R).
  { induction m as [|m IH]; [apply Rle_refl|]. change (Nat.iter (S m) (Rplus 1) 0%R) with (1 + Nat.iter m (Rplus 1) 0)%R. lra. }
  change (Nat.iter (S n) (Rplus 1) 0%R) with (1 + Nat.iter n (Rplus 1) 0)%R. specialize (H n). lra.
Qed.

(** Real coefficients. *)
Definition RF : Fld := {|
  K := R; k0 := 0%R; k1 := 1%R; kadd := Rplus; kmul := Rmult; ksub := Rminus;
  kopp := Ropp; kdiv := Rdiv; kinv := Rinv; keqb := R_eqb;
  kfield := Rfield; keqb_ok := R_eqb_ok; kchar0 := R_char0
|}.
