(** Specification of the real products computed by fft.cc, independent of the algorithm. *)
From Coq Require Import ZArith Arith List Bool Lia.
From Verif Require Import Base FFTModel FFTMath.
Import ListNotations.
Open Scope nat_scope.

Section Spec.
Variable o : ops.
Notation A := (FFTModel.A o).
(** f 0 + ... + f (n-1) *)
Fixpoint rsum (n : nat) (f : nat -> A) : A := match n with O => z0 o | S k => add o (rsum k f) (f k) end.
(** Coefficient i of the product of the polynomials with coefficients x and y:
    the sum of x_j y_(i-j) over j <= i, absent coefficients being zero. *)
Definition pcoef (x y : list A) (i : nat) : A := rsum (S i) (fun j => mul o (nth j x (z0 o)) (nth (i - j) y (z0 o))).
(** Coefficient i of the product modulo t^n + 1, for x and y of length at most n. *)
Definition ncoef (n : nat) (x y : list A) (i : nat) : A := sub o (pcoef x y i) (pcoef x y (n + i)).
End Spec.
