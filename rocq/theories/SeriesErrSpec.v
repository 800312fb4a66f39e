(** What the distance between two series of doubles is to measure. *)
From Coq Require Import ZArith List Reals.
From Flocq Require Import BinarySingleNaN.
From Verif Require Import ExpansionModel SeriesErrModel.
Open Scope R_scope.

(** Coefficient i as a real number; 0 beyond the stored ones. *)
Definition coef (x : dview) (i : nat) : R := B2R (nth i (dcoef x) dzero).
(** |x_i - y_i|, for relative distances divided by max(1, |y_i|). *)
Definition gap (relative : bool) (x y : dview) (i : nat) : R :=
  Rabs (coef x i - coef y i) / (if relative then Rmax 1 (Rabs (coef y i)) else 1).
Definition finite (x : dview) : Prop := List.Forall (fun a => is_finite a = true) (dcoef x).
