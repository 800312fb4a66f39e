(** * Model of the reciprocal and the division of expansions: expansion.h:139-171

    The operators * and - are those of ExpansionModel.v, which expansion.h includes from the generated
    code.  Nothing is simplified. *)
From Coq Require Import ZArith List Bool.
From Flocq Require Import Core BinarySingleNaN.
From Verif Require Import Base ExpansionModel.
Import ListNotations.
Open Scope Z_scope.

(** Division of doubles: / of C++. *)
Definition ddiv (a b : double) : double := Bdiv mode_NE a b.

(** expansion.h:153, one round of the loop: y = y*(two - x*y). *)
Definition inv_step (two x y : list double) : res (list double) :=
  p <- collange_mul x y ;;
  t <- collange_sub two p ;;
  collange_mul y t.

(** expansion.h:152-153, k rounds. *)
Fixpoint inv_loop (k : nat) (two x y : list double) : res (list double) :=
  match k with
  | O => Ok y
  | S k => y <- inv_step two x y ;; inv_loop k two x y
  end.

(** expansion.h:139-155, inv.  Reading x.x[0] of an empty expansion cannot happen (n >= 2). *)
Definition exp_inv (x : list double) : res (list double) :=
  match x with
  | [] => UB
  | x0 :: _ =>
      let n := length x in
      let y := of_double n (ddiv (dofZ 1) x0) in
      inv_loop n (of_double n (dofZ 2)) x y
  end.

(** expansion.h:158-171, operator/. *)
Definition exp_div (a b : list double) : res (list double) :=
  inv_b <- exp_inv b ;;
  y <- collange_mul a inv_b ;;
  by_ <- collange_mul b y ;;
  r <- collange_sub by_ a ;;
  c <- collange_mul r inv_b ;;
  collange_sub y c.

(** expansion.h:62, division by an int64. *)
Definition exp_div_int (a : list double) (b : Z) : res (list double) :=
  y <- of_int64 (length a) b ;;
  exp_div a y.
