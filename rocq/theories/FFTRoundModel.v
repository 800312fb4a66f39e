(** Model of the complex transforms of fft.cc over doubles: the code of FFTModel.v with the operations of
    ExpansionModel.v (each rounds to nearest, ties to even) and the tables that nearest.cc computes.
    A compiler that contracts products and sums into fused operations is not covered. *)
From Coq Require Import ZArith List.
From Flocq Require Import BinarySingleNaN.
From Verif Require Import Base ExpansionModel NearestModel FFTModel.
Import ListNotations.
Open Scope Z_scope.

(** fft.cc:36-41 for S = double: entry j of the slice for s, as a complex number.  [zs s] is the
    array filled by [nearest_twiddles]; [few] (fft.cc:69-78) is not used by these transforms. *)
Definition entry_d (zs : nat -> list (list double * list double)) (s : nat) (j : Z) : double * double :=
  let z := nth (Z.to_nat j) (zs s) ([], []) in (hd dzero (fst z), hd dzero (snd z)).

(** Scalars of type double: arith.h:14-42, complex.h:26-36.  [root (S s) j] is entry j of slice s.
    Reciprocal, half and sqrt(1/2) do not occur in fft and ifft (fft.cc:174-248). *)
Definition D_ops (zs : nat -> list (list double * list double)) : ops := {|
  A := double; z0 := dzero; z1 := dofZ 1; add := dadd; sub := dsub; mul := dmul; opp := dneg;
  inv := fun a => Bdiv mode_NE (dofZ 1) a; half := fun a => dmul (dlit 1 (-1)) a; sh := dlit 6369051672525773 (-53);
  root := fun s j => entry_d zs (pred s) j |}.

(** fft.cc:36-41, 52-66: the slices for s < p, as computed by nearest.cc with a given ball
    arithmetic; all of their entries are finite. *)
Definition tables (B : arb) (p : nat) (zs : nat -> list (list double * list double)) : Prop :=
  forall s, (s < p)%nat -> exists fallbacks,
    nearest_twiddles B Double (2 ^ Z.of_nat s / 4 + 1) (2 * 2 ^ Z.of_nat s) 200 = Ok (zs s, fallbacks) /\
    Forall (fun z => Forall (fun a => is_finite a = true) (fst z) /\ Forall (fun a => is_finite a = true) (snd z)) (zs s).
