(** Concrete instances used by the examples of Properties_FFT.v: a sequential schedule, a
    zero-filled buffer, and runnable arithmetic modulo 12289, a prime with 2^12-th roots
    of unity, in which cosines and sines are the usual combinations of powers of a root. *)
From Coq Require Import ZArith Arith List Bool Lia Permutation Reals.
From Verif Require Import Base SeriesModel FFTModel FFTLoop FFTMath FFTSpec FFTMulSpec.
Import ListNotations.
Open Scope nat_scope.

(** The loop indices in order (fft.cc loops on one thread, loops.h:38-51). *)
Definition seq_ord (n : Z) : list nat := seq 0 (Z.to_nat n).
Lemma seq_ord_ok : sched_ok seq_ord.
Proof. intros n _. apply Permutation_refl. Qed.
(** Indices from the last to the first. *)
Definition rev_ord (n : Z) : list nat := rev (seq 0 (Z.to_nat n)).
Lemma rev_ord_ok : sched_ok rev_ord.
Proof. intros n _. apply Permutation_sym, Permutation_rev. Qed.
(** Buffer contents (array.h:36-44 leaves them uninitialised). *)
Definition fill {X} (a : X) (n : nat) : list X := repeat a n.
Lemma fill_len : forall X (a : X) n, length (fill a n) = n.
Proof. intros. apply repeat_length. Qed.

Open Scope Z_scope.
Definition MP : Z := 12289.
Fixpoint mpow_pos (a : Z) (e : positive) : Z :=
  match e with
  | xH => a mod MP
  | xO e => let t := mpow_pos a e in t * t mod MP
  | xI e => let t := mpow_pos a e in t * t mod MP * a mod MP
  end.
Definition mpow (a e : Z) : Z := match e with Zpos e => mpow_pos a e | _ => 1 end.
Definition minv (a : Z) : Z := mpow a (MP - 2).
(** exp(2 pi i j / 2^s) *)
Definition mroot_slow (s : nat) (j : Z) : Z * Z :=
  let w := mpow 11 ((MP - 1) / 2 ^ Z.of_nat s * j mod (MP - 1)) in
  let i := mpow 11 ((MP - 1) / 4) in
  ((w + minv w) * minv 2 mod MP, (w - minv w) * minv (2 * i) mod MP).
Definition mtab : list (Z * Z) := Eval vm_compute in map (fun j => mroot_slow 7 (Z.of_nat j)) (seq 0 128).
Definition mroot (s : nat) (j : Z) : Z * Z :=
  if (s <=? 7)%nat then nth (Z.to_nat (j * 2 ^ (7 - Z.of_nat s) mod 128)) mtab (0, 0) else mroot_slow s j.
Definition M_ops : ops := {|
  A := Z; z0 := 0; z1 := 1;
  add := fun a b => (a + b) mod MP; sub := fun a b => (a - b) mod MP; mul := fun a b => (a * b) mod MP;
  opp := fun a => (- a) mod MP; inv := minv; half := fun a => a * 6145 mod MP;
  sh := fst (mroot 3 1); root := mroot |}.
(** Input data *)
Definition ramp (n : nat) : list Z := map (fun i => Z.of_nat (i * i + 3 * i + 1)) (seq 0 n).
