(** Sequences of public series operations on a store of series variables.
    Operands may be whole series or [low]/[high] views of them. *)
From Coq Require Import ZArith List Bool Lia.
From Verif Require Import Base Field SeriesModel.
Import ListNotations.
Open Scope Z_scope.

Section Ops.
Variable F : Fld.
Variable kern : kernel F.
Variable base : bases F.
Notation KK := (K F).
Notation ser := (series F).

(** A view of series variable [i]: all of it, x.low(n) or x.high(n) (series.h:195-226). *)
Inductive part := PAll | PLow (n : Z) | PHigh (n : Z).
Record src := mkSrc { sv : nat; sp : part }.

(** The public interface: series.h:76-239, 263-301, 352-646; area.cc:22-32. *)
Inductive op :=
| ONew (lim : Z)                                  (* Series(limit), appended to the store *)
| OScalar (i : nat) (kn : Z) (a : KK)             (* set_scalar *)
| OAssign (i : nat) (x : src)                     (* operator= *)
| OUnknown (i : nat)                              (* set_unknown *)
| OCounts (i : nat) (kn nz : Z)                   (* set_counts *)
| OKnown (i : nat) (kn : Z)                       (* set_known *)
| OReduce (i : nat) (kn : Z)                      (* reduce_known *)
| OSwap (i j : nat)                               (* swap *)
| OAddScalar (i : nat) (a : KK)                   (* += a, -= a *)
| OHigh (i : nat) (sign b s : Z) (x : src)        (* +=, -=, high_add, high_sub and _ldexp *)
| ONeg (i : nat) (x : src)
| ODeriv (i : nat) (x : src) (s : Z)
| OInteg (i : nat) (x : src) (s : Z)
| OLdexp (i : nat) (x : src) (k : Z)
| OSub2exp (i : nat) (a : Z) (x : src) (b : Z) (y : src)
| OMul (i : nat) (x y : src)
| OMul1p (i : nat) (x y : src) (s : Z)
| OSqr (i : nat) (x : src)
| OInv (i : nat) (x : src)
| OInv1p (i : nat) (x : src) (s : Z)
| ODiv (i : nat) (x y : src)
| ODiv1p (i : nat) (x y : src) (s : Z)
| OLog (i : nat) (x : src)
| OLog1p (i : nat) (x : src) (s : Z)
| OExp (i : nat) (x : src)
| OExpm1 (i : nat) (x : src) (a s : Z)
| OLog1pExp (i : nat) (x : src) (s : Z).

(** A missing variable is a badly typed program, not a run-time outcome: UB. *)
Definition get (st : list ser) (i : nat) : res ser :=
  match nth_error st i with Some x => Ok x | None => UB end.
Fixpoint put (st : list ser) (i : nat) (x : ser) : list ser :=
  match st, i with
  | [], _ => []
  | _ :: st', O => x :: st'
  | y :: st', S i' => y :: put st' i' x
  end.

Definition get_src (st : list ser) (x : src) : res ser :=
  v <- get st (sv x) ;;
  Ok (match sp x with PAll => view F v | PLow n => low F v n | PHigh n => high F v n end).

(** series.h:140-143 [alias] for an operand taken from the store: empty views have a
    null pointer; a whole series keeps its pointer even when it stores nothing. *)
Definition aliased (st : list ser) (i : nat) (x : src) : bool :=
  Nat.eqb i (sv x) &&
  match get st (sv x), get_src st x with
  | Ok v, Ok w => match sp x with PAll => 0 <? limit v | _ => 0 <? nonzero w end
  | _, _ => false
  end.

(** [y_i = f(y_i, x)]; [na] says whether the operation asserts non-aliasing. *)
Definition un (na : bool) (st : list ser) (i : nat) (x : src) (f : ser -> ser -> res ser) : res (list ser) :=
  y <- get st i ;; xv <- get_src st x ;;
  _ <- slow_assert (negb (na && aliased st i x)) ;;
  y' <- f y xv ;; Ok (put st i y').
Definition bin (na : bool) (st : list ser) (i : nat) (x z : src) (f : ser -> ser -> ser -> res ser) : res (list ser) :=
  y <- get st i ;; xv <- get_src st x ;; zv <- get_src st z ;;
  _ <- slow_assert (negb (na && (aliased st i x || aliased st i z))) ;;
  y' <- f y xv zv ;; Ok (put st i y').
Definition self (st : list ser) (i : nat) (f : ser -> res ser) : res (list ser) :=
  y <- get st i ;; y' <- f y ;; Ok (put st i y').

Definition run_op (st : list ser) (o : op) : res (list ser) :=
  match o with
  | ONew lim => Ok (st ++ [new_series lim])
  | OScalar i kn a => self st i (fun y => set_scalar F y kn a)
  | OAssign i x => un false st i x (assign F)
  | OUnknown i => self st i (fun y => Ok (set_unknown F y))
  | OCounts i kn nz => self st i (fun y => set_counts F y kn nz)
  | OKnown i kn => self st i (fun y => set_known F y kn)
  | OReduce i kn => self st i (fun y => reduce_known F y kn)
  | OSwap i j =>
      x <- get st i ;; y <- get st j ;;
      let (x', y') := swap F x y in Ok (put (put st i x') j y')
  | OAddScalar i a => self st i (fun y => add_scalar F y a)
  | OHigh i sign b s x => un true st i x (fun y x => high_addsub_ldexp F y sign b s x)
  | ONeg i x => un false st i x (set_neg F)
  | ODeriv i x s => un false st i x (fun y x => set_derivative_shift F y x s)
  | OInteg i x s => un false st i x (fun y x => set_integral_shift F y x s)
  | OLdexp i x k => un false st i x (fun y x => set_ldexp F y x k)
  | OSub2exp i a x b y => bin false st i x y (fun z x y => set_sub_si_2exp F z a x b y)
  | OMul i x y => bin false st i x y (set_mul F kern)
  | OMul1p i x y s => bin false st i x y (fun z x y => set_mul1p F kern z x y s)
  | OSqr i x => un false st i x (set_sqr F kern)
  | OInv i x => un true st i x (set_inv F kern base)
  | OInv1p i x s => un true st i x (fun y x => set_inv1p F kern y x s)
  | ODiv i x y => bin true st i x y (set_div F kern base)
  | ODiv1p i x y s => bin true st i x y (fun z x y => set_div1p F kern z x y s)
  | OLog i x => un true st i x (set_log F kern base)
  | OLog1p i x s => un true st i x (fun y x => set_log1p F kern y x s)
  | OExp i x => un true st i x (set_exp F kern base)
  | OExpm1 i x a s => un true st i x (fun y x => set_expm1 F kern y x a s)
  | OLog1pExp i x s => un true st i x (fun y x => set_log1p_exp F kern base y x s)
  end.

Definition run_ops (st : list ser) (ops : list op) : res (list ser) :=
  fold_left (fun r o => (s <- r ;; run_op s o)) ops (Ok st).

(** Explicit sizes and shifts used by an operation are in range; [no_counts] excludes
    set_counts, which may expose cells that were never written. *)
Definition op_ok (o : op) : Prop :=
  match o with
  | ONew lim => lim <= 2 ^ 28
  | OScalar _ kn _ => kn <= 2 ^ 28
  | OCounts _ kn nz => 0 <= kn <= 2 ^ 28 /\ - 2 ^ 63 <= nz < 2 ^ 63
  | OKnown _ kn => kn <= 2 ^ 28
  | OHigh _ _ _ s _ => 0 <= s
  | _ => True
  end.
Definition no_counts (o : op) : Prop := match o with OCounts _ _ _ => False | _ => True end.

(** The variables an operation may change. *)
Definition targets (o : op) : list nat :=
  match o with
  | ONew _ => []
  | OSwap i j => [i; j]
  | OScalar i _ _ | OAssign i _ | OUnknown i | OCounts i _ _ | OKnown i _ | OReduce i _
  | OAddScalar i _ | OHigh i _ _ _ _ | ONeg i _ | ODeriv i _ _ | OInteg i _ _ | OLdexp i _ _
  | OSub2exp i _ _ _ _ | OMul i _ _ | OMul1p i _ _ _ | OSqr i _ | OInv i _ | OInv1p i _ _
  | ODiv i _ _ | ODiv1p i _ _ _ | OLog i _ | OLog1p i _ _ | OExp i _ | OExpm1 i _ _ _
  | OLog1pExp i _ _ => [i]
  end.

End Ops.

Arguments ONew {F} _.
Arguments OScalar {F} _ _ _.
Arguments OAssign {F} _ _.
Arguments OUnknown {F} _.
Arguments OCounts {F} _ _ _.
Arguments OKnown {F} _ _.
Arguments OReduce {F} _ _.
Arguments OSwap {F} _ _.
Arguments OAddScalar {F} _ _.
Arguments OHigh {F} _ _ _ _ _.
Arguments ONeg {F} _ _.
Arguments ODeriv {F} _ _ _.
Arguments OInteg {F} _ _ _.
Arguments OLdexp {F} _ _ _.
Arguments OSub2exp {F} _ _ _ _ _.
Arguments OMul {F} _ _ _.
Arguments OMul1p {F} _ _ _ _.
Arguments OSqr {F} _ _.
Arguments OInv {F} _ _.
Arguments OInv1p {F} _ _ _.
Arguments ODiv {F} _ _ _.
Arguments ODiv1p {F} _ _ _ _.
Arguments OLog {F} _ _.
Arguments OLog1p {F} _ _ _.
Arguments OExp {F} _ _.
Arguments OExpm1 {F} _ _ _ _.
Arguments OLog1pExp {F} _ _ _.
