(** Common vocabulary: outcomes of modelled C++ code.

    [Throw]  a [slow_assert] failure or an explicit exception
             (debug.h:17-24, debug.cc assertion_failed).
    [UB]     behaviour the C++ standard leaves undefined: reading a cell that
             was never written, shifting by the word size, signed overflow. *)
From Coq Require Import ZArith List Bool Lia.
Import ListNotations.
Open Scope Z_scope.

Inductive res (A : Type) : Type :=
| Ok : A -> res A
| Throw : res A
| UB : res A.
Arguments Ok {A} _.
Arguments Throw {A}.
Arguments UB {A}.

Definition bind {A B : Type} (x : res A) (f : A -> res B) : res B :=
  match x with
  | Ok a => f a
  | Throw => Throw
  | UB => UB
  end.

Declare Scope res_scope.
Delimit Scope res_scope with res.
Notation "x <- e ;; k" := (bind e (fun x => k))
  (at level 100, e at next level, right associativity) : res_scope.
Notation "' p <- e ;; k" := (bind e (fun p => k))
  (at level 100, p pattern, e at next level, right associativity) : res_scope.
Open Scope res_scope.

(** debug.h:17-19, [slow_assert]: continue or raise. *)
Definition slow_assert (b : bool) : res unit := if b then Ok tt else Throw.

(** arith.h:27-30, [relu]. *)
Definition relu (x : Z) : Z := Z.max x 0.

(** Conversion of a mathematical integer to [uint64_t] / [uint32_t] / [int32_t]
    (wraps modulo the word size, as C++20 specifies for integral conversions). *)
Definition to_u64 (x : Z) : Z := x mod 2 ^ 64.
Definition to_u32 (x : Z) : Z := x mod 2 ^ 32.
Definition to_i32 (x : Z) : Z :=
  let y := x mod 2 ^ 32 in if y <? 2 ^ 31 then y else y - 2 ^ 32.
Definition to_i64 (x : Z) : Z :=
  let y := x mod 2 ^ 64 in if y <? 2 ^ 63 then y else y - 2 ^ 64.
