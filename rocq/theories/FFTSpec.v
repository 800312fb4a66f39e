(** Specifications of the transforms, independent of the algorithms. *)
From Coq Require Import ZArith Arith List Bool Lia.
From Verif Require Import Base FFTModel FFTMath.
Import ListNotations.
Open Scope nat_scope.

Section Spec.
Variable o : ops.
Notation A := (FFTModel.A o).
Notation C := (FFTModel.A o * FFTModel.A o)%type.

(** x read as complex numbers, zero-extended (fft.h:13). *)
Definition packed (x : list A) (j : nat) : C := (nth (2 * j) x (z0 o), nth (2 * j + 1) x (z0 o)).
(** A real input as a complex number, zero-extended (fft.h:20). *)
Definition realc (x : list A) (j : nat) : C := (nth j x (z0 o), z0 o).
(** sum_{j < 2^p} X_j exp(-2 pi i j k / 2^p) *)
Definition dft (p : nat) (X : nat -> C) (k : nat) : C :=
  csum o (2 ^ p) (fun j => cmul o (X j) (root o p (- Z.of_nat (j * k)))).
(** sum_{k < 2^p} Y_k exp(2 pi i j k / 2^p) *)
Definition idft (p : nat) (Y : nat -> C) (j : nat) : C :=
  csum o (2 ^ p) (fun k => cmul o (Y k) (root o p (Z.of_nat (j * k)))).
(** sum_{j < 2^p} X_j exp(-2 pi i j (k + 1/2) / 2^p) *)
Definition sdft (p : nat) (X : nat -> C) (k : nat) : C :=
  csum o (2 ^ p) (fun j => cmul o (X j) (root o (S p) (- Z.of_nat (j * (2 * k + 1))))).
(** 2^k a *)
Fixpoint times2 (k : nat) (a : A) : A := match k with O => a | S j => let t := times2 j a in add o t t end.
End Spec.
