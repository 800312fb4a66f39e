(** Coefficient fields.  The series templates are generic in the scalar type S;
    here S is any field of characteristic 0 with decidable equality (exact
    arithmetic, no rounding).  Instances: rationals [Qc] and reals [R]. *)
From Coq Require Import ZArith List Bool Lia Field_theory Ring_theory.

Record Fld : Type := {
  K :> Type;
  k0 : K;
  k1 : K;
  kadd : K -> K -> K;
  kmul : K -> K -> K;
  ksub : K -> K -> K;
  kopp : K -> K;
  kdiv : K -> K -> K;
  kinv : K -> K;
  keqb : K -> K -> bool;
  kfield : field_theory k0 k1 kadd kmul ksub kopp kdiv kinv (@eq K);
  keqb_ok : forall a b, keqb a b = true <-> a = b;
  kchar0 : forall n : nat, Nat.iter (S n) (kadd k1) k0 <> k0
}.

Arguments k0 {_}.
Arguments k1 {_}.
Arguments kadd {_} _ _.
Arguments kmul {_} _ _.
Arguments ksub {_} _ _.
Arguments kopp {_} _.
Arguments kdiv {_} _ _.
Arguments kinv {_} _.
Arguments keqb {_} _ _.

Declare Scope K_scope.
Delimit Scope K_scope with K.
Notation "0" := k0 : K_scope.
Notation "1" := k1 : K_scope.
Infix "+" := kadd : K_scope.
Infix "*" := kmul : K_scope.
Infix "-" := ksub : K_scope.
Notation "- x" := (kopp x) : K_scope.
Infix "/" := kdiv : K_scope.

(** Conversion of integers to scalars: [S(a)] for an [int] a. *)
Fixpoint kofnat {F : Fld} (n : nat) : K F :=
  match n with O => k0 | S n' => kadd k1 (kofnat n') end.
Definition kofZ {F : Fld} (z : Z) : K F :=
  match z with
  | Z0 => k0
  | Zpos p => kofnat (Pos.to_nat p)
  | Zneg p => kopp (kofnat (Pos.to_nat p))
  end.

(** Powers of two with integer exponent, for [ldexp]. *)
Definition ktwo {F : Fld} : K F := kadd k1 k1.
Fixpoint kpow2n {F : Fld} (n : nat) : K F :=
  match n with O => k1 | S n' => kmul ktwo (kpow2n n') end.
Definition kpow2 {F : Fld} (b : Z) : K F :=
  match b with
  | Z0 => k1
  | Zpos p => kpow2n (Pos.to_nat p)
  | Zneg p => kinv (kpow2n (Pos.to_nat p))
  end.
