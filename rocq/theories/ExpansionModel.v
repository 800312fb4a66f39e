(** * Model of expansion arithmetic: expansion.h, expansion.cc and the expansion part of codelets.cc

    A [double] is an IEEE binary64 datum (with infinities, signed zeros and one NaN) and every
    operation rounds to nearest, ties to even: expansion_arithmetic in codelets.cc emits plain
    double operations and [__builtin_fma] (arith.h:19), and switches reassociation off.

    What is simplified: the generator runs the algorithms below on symbolic expressions and prints
    the result.  Here they run on the values of those expressions; C72 (ExpnGenModel.v) relates the
    two.  A literal zero of the generator, which it treats specially, is [None].  An expansion is the list of its components. *)
From Coq Require Import ZArith List Bool Ascii.
From Flocq Require Import Core BinarySingleNaN.
From Verif Require Import Base.
Import ListNotations.
Open Scope Z_scope.

(** The type double. *)
Definition prec := 53.
Definition emax := 1024.
#[global] Instance Hprec : FLX.Prec_gt_0 prec := eq_refl.
#[global] Instance Hemax : Prec_lt_emax prec emax := eq_refl.
Definition double := binary_float prec emax.

(** Arithmetic on doubles: +, -, *, fma and unary minus of C++ (arith.h:14-19). *)
Definition dadd (a b : double) : double := Bplus mode_NE a b.
Definition dsub (a b : double) : double := Bminus mode_NE a b.
Definition dmul (a b : double) : double := Bmult mode_NE a b.
Definition dfma (a b c : double) : double := Bfma mode_NE a b c.
Definition dneg (a : double) : double := Bopp a.
(** double(a) for an integer a: the implicit conversion of expansion.h:46-48. *)
Definition dofZ (a : Z) : double := binary_normalize prec emax _ _ mode_NE a 0 false.
(** [m * 2^e] rounded, for literals such as 0.5. *)
Definition dlit (m e : Z) : double := binary_normalize prec emax _ _ mode_NE m e false.
Definition dzero : double := B754_zero false.
(** A double used as a condition: true unless it is a zero (NaN counts as true). *)
Definition dnz (a : double) : bool := match a with B754_zero _ => false | _ => true end.
(** [a > 0] and [a == b]. *)
Definition dpos (a : double) : bool :=
  match a with B754_finite false _ _ _ | B754_infinity false => true | _ => false end.
Definition deq (a b : double) : bool := Beqb a b.

(** ** codelets.cc:191-266 *)

(** codelets.cc:193-200, two_sum on two expressions that are not the literal zero. *)
Definition two_sum (a b : double) : double * double :=
  let x := dadd a b in
  let v := dsub x a in
  let y := dadd (dsub a (dsub x v)) (dsub b v) in
  (x, y).

(** codelets.cc:203-207, two_prod. *)
Definition two_prod (a b : double) : double * double :=
  let x := dmul a b in
  let y := dfma a b (dneg x) in
  (x, y).

(** codelets.cc:221-223, one round of the while loop of collange_add: t moves through the state. *)
Fixpoint insert (t : double) (state : list double) : list double :=
  match state with
  | [] => [t]
  | s :: state =>
      let '(s, t) := two_sum t s in
      s :: insert t state
  end.

(** codelets.cc:214-218, the queue of inputs: x[0], y[0], x[1], y[1], ... *)
Fixpoint interleave (x y : list double) : list double :=
  match x, y with
  | a :: x, b :: y => a :: b :: interleave x y
  | _, _ => []
  end.

(** codelets.cc:219-224, the whole loop. *)
Definition add_state (rest : list double) : list double :=
  fold_left (fun state t => insert t state) rest [].

(** codelets.cc:211-228, collange_add. *)
Definition collange_add (x y : list double) : res (list double) :=
  let n := length x in
  _ <- slow_assert (n =? length y)%nat ;;
  let state := add_state (interleave x y) in
  _ <- slow_assert (length state =? 2 * n)%nat ;;
  Ok (firstn n state).

(** codelets.cc:268-279, the unary minus emitted for expansions. *)
Definition exp_neg (x : list double) : list double := map dneg x.

(** codelets.cc:231-233, collange_sub. *)
Definition collange_sub (x y : list double) : res (list double) := collange_add x (exp_neg y).

(** codelets.cc:193-200, two_sum with its test for the literal zero. *)
Definition two_sum_o (a b : option double) : option double * option double :=
  match a, b with
  | None, _ => (b, None)
  | _, None => (a, None)
  | Some a, Some b => let '(x, y) := two_sum a b in (Some x, Some y)
  end.

(** codelets.cc:243-248, the loop over j: products of all x[j] with one y[i], added to s. *)
Fixpoint mul_row (x : list double) (yi : double) (s : list (option double))
  : list (option double) * list (option double) * list (option double) :=
  match x, s with
  | xj :: x, sj :: s =>
      let '(p, ej) := two_prod xj yi in
      let '(sj, epj) := two_sum_o sj (Some p) in
      let '(s, e, ep) := mul_row x yi s in
      (sj :: s, Some ej :: e, epj :: ep)
  | _, _ => ([], [], [])
  end.

(** codelets.cc:252-253, two_sum on each pair s[j], e[j]. *)
Fixpoint two_sums (s e : list (option double)) : list (option double) * list (option double) :=
  match s, e with
  | sj :: s, ej :: e =>
      let '(sj, ej) := two_sum_o sj ej in
      let '(s, e) := two_sums s e in
      (sj :: s, ej :: e)
  | _, _ => ([], [])
  end.

(** any(e): some entry is not the literal zero. *)
Definition any (e : list (option double)) : bool :=
  existsb (fun o => match o with Some _ => true | None => false end) e.

(** codelets.cc:251-256 and 257-262, one of the two while loops.  The entry that pop_back throws
    away is remembered in [drop] (a ghost: the code forgets it).  The loop is fuelled; running out
    of fuel is reported as [Throw] and C47 shows that it does not happen. *)
Fixpoint sweep (fuel : nat) (s e drop : list (option double))
  : res (list (option double) * list (option double)) :=
  if any e then
    match fuel with
    | O => Throw
    | S fuel =>
        let '(s, e) := two_sums s e in
        sweep fuel s (None :: removelast e) (last e None :: drop)
    end
  else Ok (s, drop).

(** codelets.cc:242-263, the loop over i.  [pi] is built at its end. *)
Fixpoint mul_rows (x ys : list double) (s pi drop : list (option double))
  : res (list (option double) * list (option double)) :=
  match ys with
  | [] => Ok (pi, s ++ drop)
  | yi :: ys =>
      let '(s, e, ep) := mul_row x yi s in
      match s with
      | [] => UB
      | s0 :: s =>
          ' (s, drop) <- sweep (length x) (s ++ [None]) e drop ;;
          ' (s, drop) <- sweep (length x) s ep drop ;;
          mul_rows x ys s (pi ++ [s0]) drop
      end
  end.

(** codelets.cc:237-266, collange_mul, with everything it throws away. *)
Definition collange_mul_full (x y : list double)
  : res (list (option double) * list (option double)) :=
  let n := length x in
  _ <- slow_assert (n =? length y)%nat ;;
  ' (pi, drop) <- mul_rows x y (repeat None n) [] [] ;;
  _ <- slow_assert (n =? length pi)%nat ;;
  Ok (pi, drop).

(** The value printed for an expression that is or is not the literal zero. *)
Definition olit (o : option double) : double := match o with Some a => a | None => dzero end.

(** codelets.cc:237-266 as the caller sees it. *)
Definition collange_mul (x y : list double) : res (list double) :=
  ' (pi, _) <- collange_mul_full x y ;;
  Ok (map olit pi).

(** ** expansion.h and expansion.cc *)

(** expansion.cc:19-24, sign. *)
Fixpoint sign (x : list double) : Z :=
  match x with
  | [] => 0
  | a :: x => if dnz a then (if dpos a then 1 else -1) else sign x
  end.

(** expansion.cc:26-32, abs. *)
Definition exp_abs (x : list double) : list double :=
  let s := dofZ (sign x) in map (dmul s) x.

(** expansion.h:66-68 with arith.h:15-16: half, twice and ldexp act on each component. *)
Definition exp_half (x : list double) : list double := map (dmul (dlit 1 (-1))) x.
Definition exp_twice (x : list double) : list double := map (fun a => dadd a a) x.
Definition exp_ldexp (x : list double) (e : Z) : list double := map (fun a => Bldexp mode_NE a e) x.

(** expansion.h:92-97, operator bool. *)
Definition exp_bool (x : list double) : bool := existsb dnz x.

(** expansion.h:99-104, operator==. *)
Fixpoint exp_eq (x y : list double) : bool :=
  match x, y with
  | a :: x, b :: y => deq a b && exp_eq x y
  | [], [] => true
  | _, _ => false
  end.

(** expansion.h:72-79, operator==(int). *)
Definition exp_eq_int (x : list double) (a : Z) : bool :=
  match x with
  | [] => false
  | x0 :: x => deq x0 (dofZ a) && negb (existsb dnz x)
  end.

(** expansion.h:81-86, operator double. *)
Definition to_double (x : list double) : double :=
  match rev x with
  | [] => dzero
  | a :: r => fold_left dadd r a
  end.

(** expansion.h:45-46, construction from a double or an int32. *)
Definition of_double (n : nat) (a : double) : list double := a :: repeat dzero (n - 1).

(** int64_t(a): undefined when the truncated value does not fit (or there is none). *)
Definition to_int64 (a : double) : res Z :=
  match a with
  | B754_nan | B754_infinity _ => UB
  | _ => let z := Btrunc a in
         if (- 2 ^ 63 <=? z) && (z <? 2 ^ 63) then Ok z else UB
  end.

(** Signed 64-bit subtraction: overflow is undefined. *)
Definition sub_int64 (a b : Z) : res Z :=
  let z := a - b in if (- 2 ^ 63 <=? z) && (z <? 2 ^ 63) then Ok z else UB.

(** expansion.h:47, construction from an int64. *)
Definition of_int64 (n : nat) (a : Z) : res (list double) :=
  let x0 := dofZ a in
  z <- to_int64 x0 ;;
  d <- sub_int64 a z ;;
  Ok (x0 :: dofZ d :: repeat dzero (n - 2)).

(** ** Printing and parsing: expansion.cc:62-99 *)

Section Text.
(** The library calls: printf's "%.17g" of a double; "%.*g" of the exact value of an expansion;
    strtod, giving the value and the text after the number, [None] when nothing was read; and the
    conversion of a decimal string by Arb and nearest, which may exit with an error. *)
Variable print17 : double -> list ascii.
Variable print_exact : Z -> list double -> list ascii.
Variable strtod : list ascii -> option (double * list ascii).
Variable decimal : nat -> list ascii -> res (list double).

Definition comma : ascii := ","%char.
Definition space : ascii := " "%char.
Definition lbracket : ascii := "["%char.
Definition rbracket : ascii := "]"%char.

(** span.h:15-22, printing a span: "[a, b, c]". *)
Fixpoint print_items (x : list double) : list ascii :=
  match x with
  | [] => []
  | [a] => print17 a
  | a :: x => print17 a ++ comma :: space :: print_items x
  end.
Definition print_list (x : list double) : list ascii :=
  lbracket :: print_items x ++ [rbracket].

(** expansion.cc:84-89, the loop over the components. *)
Fixpoint parse_items (n : nat) (p : list ascii) : res (list double * list ascii) :=
  match n with
  | O => Ok ([], p)
  | S n =>
      match strtod p with
      | None => Throw
      | Some (a, e) =>
          match e with
          | [] => Throw
          | c :: p =>
              _ <- slow_assert (Ascii.eqb c (match n with O => rbracket | _ => comma end)) ;;
              ' (x, p) <- parse_items n p ;;
              Ok (a :: x, p)
          end
      end
  end.

(** expansion.cc:80-99, the constructor from a string. *)
Definition parse (n : nat) (s : list ascii) : res (list double) :=
  match s with
  | [] => Throw
  | c :: p =>
      if Ascii.eqb c lbracket then
        ' (x, p) <- parse_items n p ;;
        _ <- slow_assert (match p with [] => true | _ => false end) ;;
        Ok x
      else decimal n s
  end.

(** expansion.cc:64-67, the loop over p; [k] counts the remaining precisions. *)
Fixpoint nice_loop (x : list double) (p : Z) (k : nat) : res (list ascii) :=
  match k with
  | O => Ok []
  | S k =>
      let s := print_exact p x in
      y <- parse (length x) s ;;
      if exp_eq x y then Ok s else nice_loop x (p + 1) k
  end.

(** expansion.cc:62-69, maybe_nice_safe: p runs from 15n-2 to 30n. *)
Definition maybe_nice_safe (x : list double) : res (list ascii) :=
  let n := length x in nice_loop x (15 * Z.of_nat n - 2) (15 * n + 3).

(** expansion.cc:71-74, safe. *)
Definition safe (x : list double) : res (list ascii) :=
  s <- maybe_nice_safe x ;;
  Ok (match s with [] => print_list x | _ => s end).

End Text.
