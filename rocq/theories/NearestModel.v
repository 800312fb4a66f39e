(** * Model of nearest.h, nearest.cc and area() in area.cc

    Correct rounding of a real number that is only known through enclosures.

    The ball arithmetic of Arb is external.  It appears as the record [arb] below: a type of balls
    and the handful of Arb functions that this code calls.  What is assumed about them (each
    function encloses the real function) is stated in NearestProofs.v, where it is a hypothesis of
    the theorems, not an axiom.

    A value of type double is a list with one component and a value of type Expansion<n> a list
    with n components, as in ExpansionModel.v. *)
From Coq Require Import ZArith List Bool.
From Flocq Require Import Core BinarySingleNaN.
From Verif Require Import Base LoopsModel ExpansionModel.
Import ListNotations.
Open Scope Z_scope.

(** arf_t: a number [m * 2^e] of any size, an infinity ([true] is the negative one) or NaN. *)
Inductive arf :=
| AFin (m e : Z)
| AInf (neg : bool)
| ANan.

(** nearest.h:24-27, RoundNear<double>::round: arf_get_d(c, ARF_RND_NEAR). *)
Definition round_d (c : arf) : double :=
  match c with
  | AFin m e => dlit m e
  | AInf s => B754_infinity s
  | ANan => B754_nan
  end.

(** The template parameter S (nearest.h:18-22): double or Expansion<n>. *)
Inductive kind :=
| Double
| Expan (n : nat).

(** Number of components. *)
Definition width (k : kind) : nat := match k with Double => 1 | Expan n => n end.

(** operator== (expansion.h:99-104) and isfinite (expansion.h:117-122). *)
Fixpoint same_value (x y : list double) : bool :=
  match x, y with
  | [], [] => true
  | a :: x, b :: y => deq a b && same_value x y
  | _, _ => false
  end.
Definition all_finite (x : list double) : bool := forallb is_finite x.

(** arb_t, acb_t (a pair of balls) and the functions of Arb that are called.  The last argument is
    the precision. *)
Record arb := {
  ball : Type (* arb_t *);
  bounds : ball -> Z -> arf * arf (* arb_get_interval_arf *);
  b_arf : arf -> ball (* arb_set_arf *);
  b_d : double -> ball (* arb_set_d *);
  b_sub : ball -> ball -> Z -> ball (* arb_sub *);
  b_pi : Z -> ball (* arb_const_pi *);
  b_si : Z -> ball (* arb_set_si *);
  b_div_ui : ball -> Z -> Z -> ball (* arb_div_ui *);
  b_sqrt : ball -> Z -> ball (* arb_sqrt *);
  b_cis : Z -> Z -> Z -> ball * ball (* fmpq_set_si(t, p, q); arb_sin_cos_pi_fmpq *);
  c_mul : ball * ball -> ball * ball -> Z -> ball * ball (* acb_mul *);
  b_exact : list double -> ball (* exact_arb, arb_cc.h:36, expansion.cc:52 *);
  b_add : ball -> ball -> Z -> ball (* arb_add *);
  b_sqr : ball -> Z -> ball (* arb_sqr *);
  b_mul_si : ball -> Z -> Z -> ball (* arb_mul_si *);
  b_mul : ball -> ball -> Z -> ball (* arb_mul *);
  b_zero : ball (* arb_init *)
}.

Section Nearest.
  Variable A : arb.
  Local Notation ball := (ball A).
  Local Notation bounds := (bounds A).
  Local Notation b_arf := (b_arf A).
  Local Notation b_d := (b_d A).
  Local Notation b_sub := (b_sub A).
  Local Notation b_pi := (b_pi A).
  Local Notation b_si := (b_si A).
  Local Notation b_div_ui := (b_div_ui A).
  Local Notation b_sqrt := (b_sqrt A).
  Local Notation b_cis := (b_cis A).
  Local Notation c_mul := (c_mul A).
  Local Notation b_exact := (b_exact A).
  Local Notation b_add := (b_add A).
  Local Notation b_sqr := (b_sqr A).
  Local Notation b_mul_si := (b_mul_si A).
  Local Notation b_mul := (b_mul A).
  Local Notation b_zero := (b_zero A).


  (** nearest.cc:15-24, round_nearest<double>. *)
  Definition round_nearest_d (c : ball) (prec : Z) : option double :=
    let '(a, b) := bounds c prec in
    let a_ := round_d a in
    let b_ := round_d b in
    if deq a_ b_ || negb (is_finite a_) then Some a_ else None.

  (** nearest.cc:42-48, the loop over the components: each is the remainder rounded to nearest. *)
  Fixpoint round_terms (n : nat) (dc : ball) (prec : Z) : option (list double) :=
    match n with
    | O => Some []
    | S n =>
        match round_nearest_d dc prec with
        | None => None
        | Some x =>
            match round_terms n (b_sub dc (b_d x) prec) prec with
            | None => None
            | Some e => Some (x :: e)
            end
        end
    end.

  (** nearest.cc:36-55, RoundNear<Expansion<n>>::round: doubled precision until it works. *)
  Fixpoint round_loop (fuel : nat) (n : nat) (c : arf) (prec : Z) : res (list double) :=
    if prec <=? 10000 then
      match round_terms n (b_arf c) prec with
      | Some e => Ok e
      | None =>
          match fuel with
          | O => UB
          | S fuel => round_loop fuel n c (2 * prec)
          end
      end
    else Throw.
  (** Eight doublings take 60 beyond 10000. *)
  Definition round_exp (n : nat) (c : arf) : res (list double) :=
    round_loop 8 n c (60 * Z.of_nat n).

  (** nearest.h:31, round_near<S>. *)
  Definition round_near (k : kind) (c : arf) : res (list double) :=
    match k with
    | Double => Ok [round_d c]
    | Expan n => round_exp n c
    end.

  (** nearest.cc:15-24, round_nearest<S>. *)
  Definition round_nearest (k : kind) (c : ball) (prec : Z) : res (option (list double)) :=
    let '(a, b) := bounds c prec in
    a_ <- round_near k a ;;
    b_ <- round_near k b ;;
    Ok (if same_value a_ b_ || negb (all_finite a_) then Some a_ else None).

  (** nearest.cc:25-34, round_nearest of a complex ball (real part, imaginary part). *)
  Definition round_nearest_c (k : kind) (z : ball * ball) (prec : Z)
    : res (option (list double * list double)) :=
    r <- round_nearest k (fst z) prec ;;
    match r with
    | None => Ok None
    | Some r =>
        i <- round_nearest k (snd z) prec ;;
        match i with
        | None => Ok None
        | Some i => Ok (Some (r, i))
        end
    end.

  (** nearest.h:38-48: precisions 200, 400, ... up to 3200, then die.  [rnd] is round_nearest<S>
      of the ball type in use. *)
  Fixpoint nearest_loop {B V : Type} (rnd : B -> Z -> res (option V)) (f : Z -> B)
      (fuel : nat) (prec : Z) : res V :=
    c <- rnd (f prec) prec ;;
    match c with
    | Some v => Ok v
    | None =>
        if 3200 <? 2 * prec then Throw
        else match fuel with
             | O => UB
             | S fuel => nearest_loop rnd f fuel (2 * prec)
             end
    end.
  (** Four doublings reach 3200. *)
  Definition nearest (k : kind) (f : Z -> ball) : res (list double) :=
    nearest_loop (round_nearest k) f 4 200.
  Definition nearest_c (k : kind) (f : Z -> ball * ball) : res (list double * list double) :=
    nearest_loop (round_nearest_c k) f 4 200.

  (** nearest.cc:58-63, nearest_pi.  The result is cached in a static, which is not modelled. *)
  Definition nearest_pi (k : kind) : res (list double) := nearest k b_pi.

  (** nearest.cc:65-76, nearest_sqrt: b is converted to unsigned. *)
  Definition nearest_sqrt (k : kind) (a b : Z) : res (list double) :=
    nearest k (fun prec => b_sqrt (b_div_ui (b_si a) (to_u64 b) prec) prec).

  (** nearest.cc:83-91, nearest_twiddle; [2*a] is int64_t arithmetic. *)
  Definition nearest_twiddle (k : kind) (a b : Z) : res (list double * list double) :=
    if (2 * a <? - 2 ^ 63) || (2 ^ 63 <=? 2 * a) then UB
    else nearest_c k (fun prec => b_cis (2 * a) (to_u64 b) prec).

  (** ** nearest_twiddles (nearest.cc:94-135) *)

  (** nearest.cc:98: int64_t(ceil(sqrt(double(n)))). *)
  Definition factor0 (n : Z) : Z :=
    Btrunc (Bnearbyint mode_UP (Bsqrt mode_NE (dofZ n))).

  (** nearest.cc:108-113, one round of the first loop.  [j0] is an int and [n1] an int64_t, so
      [2*j0] is computed in int. *)
  Definition factor (n0 n1 b fast j : Z) : res (ball * ball) :=
    if j <? n0 then
      if 2 ^ 31 <=? 2 * j then UB
      else Ok (b_cis (2 * j * n1) (to_u64 b) fast)
    else Ok (b_cis (2 * (j - n0)) (to_u64 b) fast).

  (** The rounds of a parallel loop write to different entries, so their order is immaterial; here
      they run in increasing order and the first failure ends the program. *)
  Fixpoint rounds {A : Type} (f : Z -> res A) (js : list Z) : res (list A) :=
    match js with
    | [] => Ok []
    | j :: js =>
        a <- f j ;;
        l <- rounds f js ;;
        Ok (a :: l)
    end.
  (** [for (int j = 0; j < n; j++)]: the int counter overflows if n does not fit. *)
  Definition int_loop {A : Type} (n : Z) (f : Z -> res A) : res (list A) :=
    if 2 ^ 31 <=? n then UB
    else rounds f (map Z.of_nat (seq 0 (Z.to_nat n))).

  (** nearest.cc:122-132, one round of the second loop: the value stored in zs[j] and whether the
      fallback was taken. *)
  Definition entry (k : kind) (n0 n1 b fast : Z) (factors : list (ball * ball)) (j : Z)
    : res (list double * list double * bool) :=
    let j0 := Z.quot j n1 in
    let j1 := j - j0 * n1 in
    match nth_error factors (Z.to_nat j0), nth_error factors (Z.to_nat (n0 + j1)) with
    | Some x, Some y =>
        r <- round_nearest_c k (c_mul x y fast) fast ;;
        match r with
        | Some z => Ok (z, false)
        | None =>
            z <- nearest_twiddle k j b ;;
            Ok (z, true)
        end
    | _, _ => UB
    end.

  (** nearest.cc:94-135, nearest_twiddles on a span of n entries: the new contents of the span and
      the number of fallbacks. *)
  Definition nearest_twiddles (k : kind) (n b fast : Z)
    : res (list (list double * list double) * Z) :=
    let n0 := factor0 n in
    if n0 =? 0 then UB
    else
      let n1 := Z.quot (n + n0 - 1) n0 in
      factors <- int_loop (n0 + n1) (factor n0 n1 b fast) ;;
      l <- int_loop n (entry k n0 n1 b fast factors) ;;
      Ok (map fst l, Z.of_nat (length (filter snd l))).

  (** ** area (area.cc:71-91) *)

  (** area.cc:79-84, the map of map_reduce. *)
  Definition area_term (f : list (list double)) (prec i : Z) : ball :=
    b_mul_si (b_sqr (b_exact (nth (Z.to_nat i) f [])) prec) (1 - i) prec.

  (** area.cc:73-89, the enclosure at one precision.  [f] lists the f.nonzero() coefficients; the
      number of threads and their schedule may differ from call to call. *)
  Definition area_ball (threads : Z -> nat) (sched : Z -> list nat) (f : list (list double))
      (prec : Z) : ball :=
    let reduce := fun y x => b_add y x prec in
    let st := mr_run ball reduce (area_term f prec) (Z.of_nat (length f)) (threads prec) (sched prec) in
    b_mul (mr_combine ball reduce b_zero (partials st)) (b_pi prec) prec.

  (** area.cc:71-91. *)
  Definition area (k : kind) (threads : Z -> nat) (sched : Z -> list nat) (f : list (list double))
    : res (list double) :=
    nearest k (area_ball threads sched f).
End Nearest.
