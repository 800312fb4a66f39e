(** * Model of poly.cc: refined power series operations on ball polynomials

    Arb enters as the record [arb_poly]: balls and the polynomial operations of arb_poly.h at one fixed
    precision (the argument [prec] of every function below).  What is assumed of it is the contract
    [poly_ok] in PolySpec.v.  A polynomial is the list of its stored coefficients; a coefficient beyond
    the length is the exact zero.  An output that is the same object as an input is handled in the code
    by computing into a temporary (poly.cc:101-106, 135-140, 241-246, 256-261), so it makes no difference
    here; the in-place loops of poly_add_shift_series are modelled with their aliasing at the end.
    What is not modelled: stats, printing, overlaps.  The expm1 and log1p_exp functions are in ArbAreaModel.v. *)
From Coq Require Import ZArith List Bool.
From Verif Require Import Base LoopsModel.
Import ListNotations.
Open Scope Z_scope.

(** arb.h and arb_poly.h, as used by poly.cc. *)
Record arb_poly := {
  ball : Type;
  b_zero : ball;                             (* a new Arb *)
  b_add : ball -> ball -> ball;              (* arb_add *)
  b_sub : ball -> ball -> ball;              (* arb_sub *)
  b_mul_si : ball -> Z -> ball;              (* arb_mul_si *)
  b_div_si : ball -> Z -> ball;              (* arb_div_si *)
  b_mid : ball -> ball;                      (* arb_get_mid_arb *)
  b_overlaps : ball -> ball -> bool;         (* arb_overlaps *)
  b_inter : ball -> ball -> ball;            (* arb_intersection *)
  b_contains0 : ball -> bool;                (* arb_contains_si(., 0) *)
  b_positive : ball -> bool;                 (* arb_is_positive *)
  b_equal1 : ball -> bool;                   (* arb_equal_si(., 1) *)
  b_log : ball -> ball;                      (* arb_log *)
  p_mullow : list ball -> list ball -> Z -> list ball;   (* arb_poly_mullow *)
  p_inv : list ball -> Z -> list ball;                   (* arb_poly_inv_series *)
  p_div : list ball -> list ball -> Z -> list ball;      (* arb_poly_div_series *)
  p_add_si : list ball -> Z -> list ball;                (* arb_poly_add_si *)
  p_sub : list ball -> list ball -> Z -> list ball;      (* arb_poly_sub_series *)
  p_deriv : list ball -> list ball;                      (* arb_poly_derivative *)
  p_int : list ball -> list ball;                        (* arb_poly_integral *)
  p_exp : list ball -> Z -> list ball;                   (* arb_poly_exp_series *)
  p_shl : list ball -> Z -> list ball;                   (* arb_poly_shift_left *)
  p_trunc : list ball -> Z -> list ball                  (* arb_poly_truncate *)
}.

Section Poly.
  Variable A : arb_poly.
  Notation B := (ball A).
  Notation P := (list (ball A)).

  (** poly.h:34, poly.cc:17-21: length and coefficient access. *)
  Definition len (f : P) : Z := Z.of_nat (length f).
  Definition at_ (f : P) (i : nat) : B := nth i f (b_zero A).

  (** poly.cc:72-78. *)
  Definition poly_mid (f : P) : P := map (b_mid A) f.

  (** poly.cc:85-90: from coefficient i on.  [c] is what is left of C. *)
  Fixpoint inter_loop (a b c : P) (i : nat) : res P :=
    match c with
    | [] => Ok []
    | x :: c =>
        let t := b_sub A (at_ a i) (at_ b i) in
        _ <- slow_assert (b_overlaps A x t) ;;
        r <- inter_loop a b c (S i) ;;
        Ok (b_inter A x t :: r)
    end.
  (** poly.cc:80-91.  A negative length is undefined. *)
  Definition poly_intersect_sub (c a b : P) (n : Z) : res P :=
    let n := Z.min n (len c) in
    let n := Z.min n (Z.max (len a) (len b)) in
    if n <? 0 then UB
    else inter_loop a b (firstn (Z.to_nat n) c) 0.

  (** poly.cc:96-126. *)
  Definition poly_inv_refine (x : P) (n : Z) : res P :=
    if n <=? 0 then Ok []
    else
      let y := p_inv A x n in
      let n := Z.min n (len y) in
      let y0 := poly_mid y in
      let u := p_mullow A x y0 n in
      let u := p_add_si A u (-1) in
      let t := p_mullow A u y0 n in
      let u := p_div A y y0 n in
      let u := p_mullow A u u n in
      let dy := p_mullow A t u n in
      poly_intersect_sub y y0 dy n.

  (** poly.cc:128-156. *)
  Definition poly_div_refine (a b : P) (n : Z) : res P :=
    if n <=? 0 then Ok []
    else
      inv_b <- poly_inv_refine b n ;;
      let y := p_mullow A a inv_b n in
      let y0 := poly_mid y in
      let dy := p_mullow A b y0 n in
      let dy := p_sub A dy a n in
      let dy := p_mullow A dy inv_b n in
      poly_intersect_sub y y0 dy n.

  (** poly.cc:158-164. *)
  Definition poly_add_arb (f : P) (a : B) : P :=
    match f with
    | [] => [a]
    | f0 :: f => b_add A f0 a :: f
    end.

  (** poly.cc:206-232. *)
  Definition poly_log_refine (x : P) (n : Z) : res P :=
    if n <=? 0 then Ok []
    else
      let c := at_ x 0 in
      _ <- slow_assert (b_positive A c) ;;
      let one := b_equal1 A c in
      let dx := p_deriv A x in
      y <- poly_div_refine dx x (n - 1) ;;
      let y := p_int A y in
      Ok (if one then y else poly_add_arb y (b_log A c)).

  (** poly.cc:234-250. *)
  Definition poly_log1p_refine (x : P) (n : Z) : res P :=
    if n <=? 0 then Ok []
    else
      _ <- slow_assert (b_contains0 A (at_ x 0)) ;;
      poly_log_refine (p_add_si A x 1) n.

  (** poly.cc:252-277. *)
  Definition poly_exp_refine (x : P) (n : Z) : res P :=
    if n <=? 0 then Ok []
    else
      let y := p_exp A x n in
      let y0 := poly_mid y in
      dy <- poly_log_refine y0 n ;;
      let dy := p_sub A dy x n in
      let dy := p_mullow A y dy n in
      poly_intersect_sub y y0 dy n.

  (** poly.cc:280-305.  [s+i] is exact; i counts up from 0 in both loops. *)
  Definition poly_log1p_shift_refine (x : P) (s n : Z) : res P :=
    if n <=? 0 then Ok []
    else
      _ <- slow_assert (1 <=? s) ;;
      let t := p_shl A x s in
      let t := p_trunc A t n in
      let t := p_add_si A t 1 in
      let y := map (fun i => b_mul_si A (at_ x i) (s + Z.of_nat i)) (seq 0 (Z.to_nat n)) in
      y <- poly_div_refine y t n ;;
      Ok (map (fun i => b_div_si A (at_ y i) (s + Z.of_nat i)) (seq 0 (length y))).
End Poly.

(** ** poly_add_shift_series with aliasing

    A polynomial object is its array of coefficients and its length; coefficients at and beyond the
    length may hold anything.  Objects are named by numbers, and two arguments are the same object when
    their names are equal. *)
Record obj (V : Type) := mkObj { coeffs : list V; olen : Z }.
Arguments mkObj {V} _ _.
Arguments coeffs {V} _.
Arguments olen {V} _.

Section Shift.
  Context {V : Type}.
  Variable zero : V.
  Variable op : V -> V -> V.       (* arb_add or arb_sub at the given precision *)

  Definition objs : Type := nat -> obj V.
  Definition upd (m : objs) (h : nat) (o : obj V) : objs := fun k => if Nat.eqb k h then o else m k.

  (** poly.cc:17-21. *)
  Definition coeff (o : obj V) (i : Z) : V :=
    if (0 <=? i) && (i <? olen o) then nth (Z.to_nat i) (coeffs o) zero else zero.
  (** Write to [h.x->coeffs + i]: undefined outside the array. *)
  Definition store (m : objs) (h : nat) (i : Z) (v : V) : res objs :=
    if (i <? 0) || (Z.of_nat (length (coeffs (m h))) <=? i) then UB
    else Ok (upd m h (mkObj (set_nth (coeffs (m h)) (Z.to_nat i) v) (olen (m h)))).
  (** arb_poly_fit_length: room for n coefficients; new ones are zero. *)
  Definition fit_length (m : objs) (h : nat) (n : Z) : objs :=
    let o := m h in
    upd m h (mkObj (coeffs o ++ repeat zero (Z.to_nat n - length (coeffs o))) (olen o)).
  Definition set_length (m : objs) (h : nat) (n : Z) : objs := upd m h (mkObj (coeffs (m h)) n).
  (** poly.h:56-58, arb_poly_set_trunc: the low coefficients of g, which may be f itself. *)
  Definition set_trunc (m : objs) (f g : nat) (n : Z) : objs :=
    let n := Z.min (Z.max 0 n) (olen (m g)) in
    upd m f (mkObj (map (fun i => coeff (m g) (Z.of_nat i)) (seq 0 (Z.to_nat n))) n).

  (** [for (slong i = hi; i >= lo; i--)], [k = hi - lo + 1] rounds. *)
  Fixpoint down (body : Z -> objs -> res objs) (lo : Z) (k : nat) (m : objs) : res objs :=
    match k with
    | O => Ok m
    | S k =>
        m <- body (lo + Z.of_nat k) m ;;
        down body lo k m
    end.

  (** poly.cc:167-184 and 187-204 (the two differ only in [op]). *)
  Definition poly_shift_series (h f g : nat) (s n : Z) (m : objs) : res objs :=
    if n <=? s then Ok (set_trunc m h f n)
    else
      let m := fit_length m h n in
      m <- down (fun i m => store m h i (op (coeff (m f) i) (coeff (m g) (i - s)))) s (Z.to_nat (n - s)) m ;;
      m <- (if negb (Nat.eqb h f)
            then down (fun i m => store m h i (coeff (m f) i)) 0 (Z.to_nat s) m
            else
              let hn := olen (m h) in
              down (fun i m => store m h i zero) hn (Z.to_nat (s - hn)) m) ;;
      Ok (set_length m h n).
End Shift.

(** ** newton_iterate *)

(** poly.cc:310-312: the sizes, in the order they are pushed.  [None] when the fuel runs out. *)
Fixpoint sizes (fuel : nat) (n0 m : Z) : option (list Z) :=
  match fuel with
  | O => None
  | S fuel =>
      if m >? n0
      then match sizes fuel n0 ((m + 1) / 2) with Some l => Some (m :: l) | None => None end
      else Some []
  end.
(** poly.cc:308-321: the pairs (m0, m) that [step] is called with, in order. *)
Definition newton_steps (fuel : nat) (n0 n : Z) : option (list (Z * Z)) :=
  match sizes fuel n0 n with
  | Some ms =>
      let up := rev ms in
      Some (combine (n0 :: up) up)
  | None => None
  end.
