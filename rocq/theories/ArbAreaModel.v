(** * Model of arb_area.cc and of the shifted exponential functions of poly.cc (lines 323-457)

    As in PolyModel.v Arb enters as records: [arb_poly], and [arb_more] for the operations that only this
    file needs, all at one precision.  A polynomial is the list of its coefficients.  Objects that are
    overwritten in place are values here: outputs that are also inputs are computed into temporaries
    (poly.cc:328-333, 389-394), and the in-place loops of poly_add_shift_series are the subject of C65.
    [skip] is the switch [skip_refine] of poly.cc:93-94.  Printing is modelled as the list of areas
    printed; times, digits and the other printed text are left out. *)
From Coq Require Import ZArith List Bool.
From Verif Require Import Base PolyModel.
Import ListNotations.
Open Scope Z_scope.

(** arb.h and arb_poly.h, as used by arb_area.cc and poly.cc:323-457. *)
Record arb_more (A : arb_poly) := {
  b_2exp : ball A -> Z -> ball A;                 (* arb_mul_2exp_si *)
  b_neg : ball A -> ball A;                       (* arb_neg *)
  b_addmul_si : ball A -> ball A -> Z -> ball A;  (* arb_addmul_si *)
  b_exp : ball A -> ball A;                       (* arb_exp *)
  b_sqr : ball A -> ball A;                       (* arb_sqr *)
  b_mul : ball A -> ball A -> ball A;             (* arb_mul *)
  b_pi : ball A;                                  (* arb_const_pi *)
  b_pm : ball A -> ball A;                        (* arb_set_interval_neg_pos_mag of the radius, twice *)
  p_add : list (ball A) -> list (ball A) -> Z -> list (ball A);  (* arb_poly_add_series *)
  p_neg : list (ball A) -> list (ball A);                        (* arb_poly_neg *)
  p_2exp : list (ball A) -> Z -> list (ball A);                  (* arb_poly_scalar_mul_2exp_si *)
  p_shr : list (ball A) -> Z -> list (ball A)                    (* arb_poly_shift_right *)
}.
Arguments b_2exp {A} _ _ _.
Arguments b_neg {A} _ _.
Arguments b_addmul_si {A} _ _ _ _.
Arguments b_exp {A} _ _.
Arguments b_sqr {A} _ _.
Arguments b_mul {A} _ _ _.
Arguments b_pi {A} _.
Arguments b_pm {A} _ _.
Arguments p_add {A} _ _ _ _.
Arguments p_neg {A} _ _.
Arguments p_2exp {A} _ _ _.
Arguments p_shr {A} _ _ _.

Section ArbArea.
  Variable A : arb_poly.
  Variable M : arb_more A.
  Variable skip : bool.
  Notation B := (ball A).
  Notation P := (list (ball A)).

  (** poly.cc:41-46. *)
  Definition safe_mullow (f g : P) (n : Z) : P := if 0 <? n then p_mullow A f g n else [].
  (** poly.cc:48-51. *)
  Definition assert_low_zero (f : P) (n : Z) : res unit :=
    slow_assert (forallb (fun i => b_contains0 A (at_ A f i)) (seq 0 (Z.to_nat n))).
  (** poly.cc:128-156 with line 132. *)
  Definition div_ (a b : P) (n : Z) : res P :=
    if n <=? 0 then Ok [] else if skip then Ok (p_div A a b n) else poly_div_refine A a b n.
  (** poly.cc:252-277 with line 269. *)
  Definition exp_ (x : P) (n : Z) : res P :=
    if n <=? 0 then Ok [] else if skip then Ok (p_exp A x n) else poly_exp_refine A x n.
  (** poly.cc:280-305. *)
  Definition log1p_shift (x : P) (s n : Z) : res P :=
    if n <=? 0 then Ok []
    else
      _ <- slow_assert (1 <=? s) ;;
      let t := p_shl A x s in
      let t := p_trunc A t n in
      let t := p_add_si A t 1 in
      let y := map (fun i => b_mul_si A (at_ A x i) (s + Z.of_nat i)) (seq 0 (Z.to_nat n)) in
      y <- div_ y t n ;;
      Ok (map (fun i => b_div_si A (at_ A y i) (s + Z.of_nat i)) (seq 0 (length y))).
  (** poly.cc:167-204: h = f +- z^s g.  That the loops over coefficients in place do this is C65. *)
  Definition shift_series (op : B -> B -> B) (f g : P) (s n : Z) : P :=
    if n <=? s then p_trunc A f (Z.max 0 n)
    else map (fun i => if Z.of_nat i <? s then at_ A f i else op (at_ A f i) (at_ A g (i - Z.to_nat s))) (seq 0 (Z.to_nat n)).

  (** poly.cc:308-321: the calls of [step] in order (C66). *)
  Fixpoint run_steps (step : Z -> Z -> P -> res P) (l : list (Z * Z)) (y : P) : res P :=
    match l with
    | [] => Ok y
    | (m0, m) :: l => y <- step m0 m y ;; run_steps step l y
    end.
  Definition iterate (n : Z) (step : Z -> Z -> P -> res P) (y : P) : res P :=
    match newton_steps (S (Z.to_nat n)) 1 n with Some l => run_steps step l y | None => UB end.

  (** poly.cc:351-363: [delta] of poly_expm1_shift_refine. *)
  Definition expm1_delta (x : P) (a s : Z) (y0 y : P) (m0 m : Z) : res P :=
    t <- log1p_shift y0 s m ;;
    let t := if 0 <? a then p_sub A t x m else p_add M t x m in
    _ <- assert_low_zero t m0 ;;
    let t := p_shr M t m0 in
    let u := p_shl A y s in
    let u := p_add_si A u 1 in
    let u := p_trunc A u m in
    let dy := safe_mullow t u (m - m0) in
    Ok (p_shl A dy m0).
  (** poly.cc:324-381. *)
  Definition expm1_shift (x : P) (a s n : Z) : res P :=
    if n <=? 0 then Ok []
    else
      _ <- slow_assert (Z.abs a =? 1) ;;
      _ <- slow_assert (1 <=? s) ;;
      let y := p_trunc A x 1 in
      let y := if a <? 0 then p_neg M y else y in
      y <- iterate n (fun m0 m y =>
             dy <- expm1_delta x a s y y m0 m ;;
             Ok (p_sub A y dy m)) y ;;
      if skip then Ok y
      else
        let y0 := poly_mid A y in
        dy <- expm1_delta x a s y0 y 0 n ;;
        poly_intersect_sub A y y0 dy n.

  (** poly.cc:419-431: [delta] of poly_log1p_exp_shift_refine. *)
  Definition lpe_delta (x : P) (s : Z) (y : P) (m0 m : Z) : res P :=
    dy <- expm1_shift y (-1) s m ;;
    let t := p_shl A y s in
    let t := p_sub A x t m in
    e <- exp_ t m ;;
    let dy := p_add M dy e m in
    let dy := p_neg M dy in
    _ <- assert_low_zero dy m0 ;;
    Ok dy.
  (** poly.cc:384-457.  The coefficients of [t] below s are zero (arb_poly_zero, fit_length). *)
  Definition log1p_exp_shift (x : P) (s n : Z) : res P :=
    if n <=? 0 then Ok []
    else
      let y := [b_exp M (at_ A x 0)] in
      y <- iterate n (fun m0 m y =>
             dy <- lpe_delta x s y m0 m ;;
             Ok (p_sub A y dy m)) y ;;
      if skip then Ok y
      else
        let y0 := poly_mid A y in
        dy <- lpe_delta x s y0 0 n ;;
        let t := map (fun i => if Z.of_nat i <? s then b_zero A else b_pm M (at_ A y (i - Z.to_nat s)))
                     (seq 0 (Z.to_nat n)) in
        e <- exp_ t n ;;
        let t := safe_mullow e dy n in
        poly_intersect_sub A y y0 t n.

  (** arb_area.cc:16-27. *)
  Definition linear_sub (a : Z) (f : P) (log2_b : Z) (g : P) : P :=
    map (fun i => b_addmul_si M (b_neg M (b_2exp M (at_ A g i) log2_b)) (at_ A f i) a)
        (seq 0 (Nat.max (length f) (length g))).

  (** arb_area.cc:40-56: one round of the loop. *)
  Definition escape_body (g dg : P) (n dn i : Z) (hs : P * P) : res (P * P) :=
    let '(h, dh) := hs in
    let p := 2 ^ i in
    let t := linear_sub (1 - p) g i h in
    let dt := linear_sub (1 - p) dg i dh in
    s <- log1p_exp_shift t (p - 1) (n - (p - 1)) ;;
    let u := shift_series (b_sub A) t s (p - 1) (dn - (p - 1)) in
    t <- exp_ u (dn - (p - 1)) ;;
    let ds := safe_mullow t dt (dn - (p - 1)) in
    let s := p_2exp M s (- i) in
    let ds := p_2exp M ds (- i) in
    let h := shift_series (b_add A) h s (p - 1) n in
    let dh := shift_series (b_add A) dh ds (p - 1) dn in
    Ok (h, dh).
  Fixpoint escape_loop (cnt : nat) (i : Z) (g dg : P) (n dn : Z) (hs : P * P) : res (P * P) :=
    match cnt with
    | O => Ok hs
    | S cnt => hs <- escape_body g dg n dn i hs ;; escape_loop cnt (i + 1) g dg n dn hs
    end.
  (** arb_area.cc:30-57. *)
  Definition escape (k : nat) (g dg : P) (n dn : Z) : res (P * P) := escape_loop k 1 g dg n dn ([], []).
  (** arb_area.cc:60-65. *)
  Definition implicit (k : nat) (g dg : P) (n dn : Z) : res (P * P) :=
    ' r <- escape k g dg n dn ;;
    Ok (p_add M (fst r) g n, p_add M (snd r) dg dn).

  (** arb_area.cc:71-76: the sum; [i] is the index of the first coefficient left. *)
  Fixpoint area_sum (f : P) (i : Z) (mu : B) : B :=
    match f with
    | [] => mu
    | c :: f => area_sum f (i + 1) (b_addmul_si M mu (b_sqr M c) (1 - i))
    end.
  (** arb_area.cc:67-79. *)
  Definition area (f : P) : B := b_mul M (area_sum f 0 (b_zero A)) (b_pi M).

  (** arb_area.cc:87-88: [Poly dg(1)]. *)
  Definition one_poly : P := p_add_si A [] 1.
  (** arb_area.cc:98-116: the Newton step; [k] at most 30. *)
  Definition pass (k : nat) (refine : bool) (g : P) : res P :=
    let p := 2 ^ Z.of_nat k in
    if refine then
      let g0 := poly_mid A g in
      ' r <- implicit k g0 one_poly p 0 ;;
      ' r' <- implicit k g one_poly p p ;;
      q <- div_ (fst r) (snd r') p ;;
      poly_intersect_sub A g g0 q p
    else
      let dp := p / 2 in
      ' r <- implicit k g one_poly p dp ;;
      _ <- assert_low_zero (fst r) dp ;;
      let f := p_shr M (fst r) dp in
      q <- div_ f (snd r) dp ;;
      let q := p_shl A q dp in
      Ok (p_sub A g q p).
  (** arb_area.cc:98-136 for one k and refine: the new g and the area printed. *)
  Definition round_ (k : nat) (refine : bool) (g : P) : res (P * B) :=
    g <- pass k refine g ;;
    f <- exp_ g (2 ^ Z.of_nat k) ;;
    Ok (g, area f).
  (** arb_area.cc:91-138: what is printed, and how it ends.  [known] are the balls of known.h; the check
      of line 131 comes after the printing. *)
  Fixpoint rounds (known : list B) (l : list (nat * bool)) (g : P) : list (nat * bool * B) * res P :=
    match l with
    | [] => ([], Ok g)
    | (k, refine) :: l =>
        match round_ k refine g with
        | Ok (g', mu) =>
            let ok := match nth_error known k with Some c => b_overlaps A mu c | None => true end in
            if ok then let '(out, r) := rounds known l g' in ((k, refine, mu) :: out, r)
            else ([(k, refine, mu)], Throw)
        | Throw => ([], Throw)
        | UB => ([], UB)
        end
    end.
  (** arb_area.cc:81-140. *)
  Definition arb_areas (known : list B) (max_k : nat) : list (nat * bool * B) * res P :=
    rounds known (flat_map (fun k => [(k, false); (k, true)]) (seq 1 max_k)) [].
End ArbArea.
