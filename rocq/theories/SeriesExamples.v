(** Concrete rational series used by the example instances. *)
From Coq Require Import ZArith QArith Qcanon List Bool Lia.
From Verif Require Import Base Field FieldInst FPS SeriesModel SeriesSpec.
Import ListNotations.
Open Scope Z_scope.

Definition q (a b : Z) : K QcF := Q2Qc (a # Z.to_pos b).
(** A fully stored series with the given integer coefficients. *)
Definition qs (l : list Z) : series QcF :=
  mkS (map (fun a => Some (q a 1)) l) (Z.of_nat (length l)) (Z.of_nat (length l)).
(** A series known to be zero to n terms (nothing stored). *)
Definition qzero (n : Z) : series QcF := mkS [] n 0.

Definition this_of (c : option (K QcF)) : option Q := option_map this c.
(** Observable content of a result: stored coefficients, known, nonzero. *)
Definition obs (r : res (series QcF)) : res (list (option Q) * Z * Z) :=
  match r with
  | Ok y => Ok (map this_of (firstn (Z.to_nat (nonzero y)) (cells y)), known y, nonzero y)
  | Throw => Throw
  | UB => UB
  end.
Definition ints (l : list Z) : list (option Q) := map (fun a => Some (a # 1)) l.

Lemma qs_valid : forall l, valid (qs l).
Proof.
  intros l. unfold valid, qs, limit. cbn [cells known nonzero]. rewrite map_length.
  repeat split; try lia. intros i Hi. rewrite nth_error_map.
  rewrite (nth_error_nth' l 0) by lia. eexists. reflexivity.
Qed.
Lemma qs_pos : forall a l, pos (qs (a :: l)).
Proof. intros a l _. unfold qs. cbn [nonzero length]. lia. Qed.
Lemma qzero_valid : forall n, 0 <= n -> valid (qzero n).
Proof.
  intros n Hn. unfold valid, qzero, limit. cbn [cells known nonzero length]. repeat split; try lia.
Qed.
