(** Model of series.h / series.cc: the [Series] class and its primitives.

    A series owns a buffer of cells ([None] = allocated but never written), a count
    of known terms and a count of possibly nonzero terms.  Views are modelled by value:
    a view is a series whose buffer is the slice it looks at (its [limit] is its
    [nonzero], series.h:137).  Buffers of different series never overlap here;
    aliasing is treated in AliasModel.v, and the [alias] assertions of the
    algorithms (always true for separate buffers) are left out.
    Sizes are unbounded integers; 32-bit conversions at loop calls are kept. *)
From Coq Require Import ZArith List Bool Lia.
From Verif Require Import Base Field.
Import ListNotations.
Open Scope Z_scope.

Section Model.
Variable F : Fld.
Notation KK := (K F).

(** series.h:59-73 *)
Record series := mkS { cells : list (option KK); known : Z; nonzero : Z }.

(** series.h:137 [limit]. *)
Definition limit (x : series) : Z := Z.of_nat (length (cells x)).

(** array.h:36-44 and series.h:77: [Series(limit)], cells uninitialised. *)
Definition new_series (lim : Z) : series :=
  mkS (repeat None (Z.to_nat (relu lim))) 0 0.

(** series.h:76 [Series()]. *)
Definition empty_series : series := mkS [] 0 0.

(** Reading one cell: reading an unwritten cell or outside the buffer is UB. *)
Definition rd (c : list (option KK)) (i : Z) : res KK :=
  if i <? 0 then UB else
  match nth_error c (Z.to_nat i) with
  | Some (Some v) => Ok v
  | _ => UB
  end.

(** Reading the first [n] cells (the contents of a span). *)
Fixpoint read_cells (n : nat) (c : list (option KK)) : res (list KK) :=
  match n with
  | O => Ok []
  | S n' =>
      match c with
      | Some v :: c' => (vs <- read_cells n' c' ;; Ok (v :: vs))
      | _ => UB
      end
  end.

(** Overwriting a prefix of the buffer; running off the end is UB. *)
Fixpoint write_cells (vs : list KK) (c : list (option KK)) : res (list (option KK)) :=
  match vs with
  | [] => Ok c
  | v :: vs' =>
      match c with
      | [] => UB
      | _ :: c' => (r <- write_cells vs' c' ;; Ok (Some v :: r))
      end
  end.

(** loops.h:38-51 host loop [for i < n: y[i] = body(i, y[i])].  Every loop body in
    series.h/series.cc reads y at most at index i and writes exactly y[i]. *)
Fixpoint loop_cells (n : nat) (i : Z) (body : Z -> option KK -> res KK)
         (y : list (option KK)) : res (list (option KK)) :=
  match n with
  | O => Ok y
  | S n' =>
      match y with
      | [] => UB
      | c :: y' =>
          v <- body i c ;;
          r <- loop_cells n' (i + 1) body y' ;;
          Ok (Some v :: r)
      end
  end.

(** loops.h:45-51: skip for n = 0, otherwise truncate n to int. *)
Definition def_loop (n : Z) (body : Z -> option KK -> res KK) (y : list (option KK))
  : res (list (option KK)) :=
  if n =? 0 then Ok y else loop_cells (Z.to_nat (to_i32 n)) 0 body y.

(** Old content of y[i] inside a loop body. *)
Definition cell_val (c : option KK) : res KK :=
  match c with Some v => Ok v | None => UB end.

(** series.h:99-110 [set_scalar]. *)
Definition set_scalar (x : series) (kn : Z) (a : KK) : res series :=
  let kn := relu kn in
  _ <- slow_assert ((if 0 <? kn then 1 else 0) <=? limit x) ;;
  if kn =? 0 then Ok (mkS (cells x) kn 0)
  else (c <- write_cells [a] (cells x) ;; Ok (mkS c kn 1)).

(** series.h:117-122 assignment from a view, and 111-116 from a series. *)
Definition assign (x g : series) : res series :=
  _ <- slow_assert (nonzero g <=? limit x) ;;
  vs <- read_cells (Z.to_nat (nonzero g)) (cells g) ;;
  c <- write_cells vs (cells x) ;;
  Ok (mkS c (known g) (nonzero g)).

(** series.h:167 [set_unknown]. *)
Definition set_unknown (x : series) : series := mkS (cells x) 0 0.

(** series.h:168-172 [set_counts]; the comparison is on uint64_t. *)
Definition set_counts (x : series) (kn nz : Z) : res series :=
  _ <- slow_assert (to_u64 nz <=? to_u64 (Z.min (limit x) kn)) ;;
  Ok (mkS (cells x) kn nz).

(** series.h:173-177 [set_known]. *)
Definition set_known (x : series) (kn : Z) : res series :=
  _ <- slow_assert (0 <=? kn) ;;
  Ok (mkS (cells x) kn (Z.min (nonzero x) kn)).

(** series.h:178-180 [reduce_known]. *)
Definition reduce_known (x : series) (kn : Z) : res series :=
  set_known x (Z.min (known x) (relu kn)).

(** series.h:183-187 [copy]. *)
Definition copy (x : series) (lim : Z) : res series := assign (new_series lim) x.

(** series.h:124-128 [swap]. *)
Definition swap (x y : series) : series * series := (y, x).

(** series.h:195-201 [view]. *)
Definition view (x : series) : series :=
  mkS (firstn (Z.to_nat (nonzero x)) (cells x)) (known x) (nonzero x).

(** series.h:204-213 [low]. *)
Definition low (x : series) (n : Z) : series :=
  let nk := Z.min (relu n) (known x) in
  let nz := Z.min nk (nonzero x) in
  mkS (if nz =? 0 then [] else firstn (Z.to_nat nz) (cells x)) nk nz.

(** series.h:216-226 [high]. *)
Definition high (x : series) (n : Z) : series :=
  let n := relu n in
  let nk := relu (known x - n) in
  let nz := relu (nonzero x - n) in
  mkS (if nz =? 0 then [] else firstn (Z.to_nat nz) (skipn (Z.to_nat n) (cells x))) nk nz.

(** series.h:191 [low_span]: its contents. *)
Definition low_span (x : series) (n : Z) : res (list KK) :=
  read_cells (Z.to_nat (Z.min (relu n) (nonzero x))) (cells x).

(** series.h:190 [span]: its contents. *)
Definition span_of (x : series) : res (list KK) :=
  read_cells (Z.to_nat (nonzero x)) (cells x).

(** series.cc:59-64 [add_scalar]. *)
Definition add_scalar (x : series) (a : KK) : res series :=
  _ <- slow_assert (negb (nonzero x =? 0)) ;;
  v <- rd (cells x) 0 ;;
  c <- write_cells [kadd v a] (cells x) ;;
  Ok (mkS c (known x) (nonzero x)).

(** [ldexp] on scalars: multiplication by 2^b (exact). *)
Definition ldexpK (v : KK) (b : Z) : KK := kmul (kpow2 b) v.

(** series.cc:66-70 and 72-77: loop bodies of [high_addsub_ldexp]. All integer
    parameters are [int]. *)
Definition high_addsub_body (x : list (option KK)) (ynz xnz sign s b : Z) (ldx : bool)
           (i : Z) (yi : option KK) : res KK :=
  yv <- (if i <? to_i32 ynz then cell_val yi else Ok k0) ;;
  xv <- (if to_u32 (i - to_i32 s) <? to_u32 (to_i32 xnz) then rd x (i - to_i32 s) else Ok k0) ;;
  let xv := if ldx then ldexpK xv b else xv in
  let xv := if sign <? 0 then kopp xv else xv in
  Ok (kadd yv xv).

(** series.cc:79-90 [high_addsub_ldexp]. *)
Definition high_addsub_ldexp (y : series) (sign b s : Z) (x : series) : res series :=
  let ynz := nonzero y in
  let xnz := nonzero x in
  let nk := Z.min (known y) (known x + s) in
  let nz := Z.min nk (Z.max ynz (if xnz =? 0 then 0 else xnz + s)) in
  _ <- slow_assert ((Z.abs sign =? 1) && (nz <=? limit y)) ;;
  c <- def_loop nz (high_addsub_body (cells x) ynz xnz sign s b (negb (b =? 0))) (cells y) ;;
  set_counts (mkS c (known y) (nonzero y)) nk nz.

(** series.h:229-239 in-place operators. *)
Definition add_int (x : series) (a : Z) : res series := add_scalar x (kofZ a).
Definition sub_int (x : series) (a : Z) : res series := add_scalar x (kofZ (- a)).
Definition add_in (y x : series) : res series := high_addsub_ldexp y 1 0 0 x.
Definition sub_in (y x : series) : res series := high_addsub_ldexp y (-1) 0 0 x.
Definition high_add (y : series) (s : Z) (x : series) : res series := high_addsub_ldexp y 1 0 s x.
Definition high_sub (y : series) (s : Z) (x : series) : res series := high_addsub_ldexp y (-1) 0 s x.
Definition high_add_ldexp (y : series) (s b : Z) (x : series) : res series := high_addsub_ldexp y 1 b s x.
Definition high_sub_ldexp (y : series) (s b : Z) (x : series) : res series := high_addsub_ldexp y (-1) b s x.

(** Elementwise unary loops y[i] = f(i, x[i]). *)
Definition map_loop (f : Z -> KK -> KK) (y x : series) : res series :=
  y1 <- set_counts y (known x) (nonzero x) ;;
  c <- def_loop (nonzero x) (fun i _ => (v <- rd (cells x) i ;; Ok (f i v))) (cells y1) ;;
  Ok (mkS c (known y1) (nonzero y1)).

(** series.h:263-269 [neg]. *)
Definition set_neg (y x : series) : res series := map_loop (fun _ v => kopp v) y x.
(** series.h:478-484 [derivative_shift]; the shift is passed as an [int]. *)
Definition set_derivative_shift (y x : series) (s : Z) : res series :=
  map_loop (fun i v => kmul (kofZ (to_i32 s + i)) v) y x.
(** series.h:488-494 [integral_shift]. *)
Definition set_integral_shift (y x : series) (s : Z) : res series :=
  map_loop (fun i v => if to_i32 s + i =? 0 then k0 else kdiv v (kofZ (to_i32 s + i))) y x.
(** series.h:640-646 [ldexp]. *)
Definition set_ldexp (y x : series) (k : Z) : res series :=
  map_loop (fun _ v => ldexpK v k) y x.

(** ** Multiplication kernels: what fft.cc provides.
    Each returns the values to be written to (or added to) the output span. *)
Record kernel := {
  k_mul : nat -> list KK -> list KK -> res (list KK);     (* fft.cc:436-460 *)
  k_addmul : nat -> list KK -> list KK -> res (list KK);  (* fft.cc:462-477, the product *)
  k_sqr : nat -> list KK -> res (list KK)                 (* fft.cc:479-499 *)
}.
Variable kern : kernel.

(** series.h:273-279 [mul]. *)
Definition set_mul (z x y : series) : res series :=
  let nk := Z.min (known x) (known y) in
  let nz := Z.min nk (relu (nonzero x + nonzero y - 1)) in
  z1 <- set_counts z nk nz ;;
  xs <- low_span x nz ;;
  ys <- low_span y nz ;;
  p <- k_mul kern (Z.to_nat nz) xs ys ;;
  c <- write_cells p (cells z1) ;;
  Ok (mkS c nk nz).

(** series.h:283-293 [mul1p] and series.cc:92-97 [mul1p_middle]: the kernel reads x
    and y, then [middle] copies x (zero extended) into z, then the product is added
    to z from index s on (fft.cc:462-477). *)
Definition set_mul1p (z x y : series) (s : Z) : res series :=
  _ <- slow_assert (0 <? s) ;;
  let nk := Z.min (known x) (known y + s) in
  let nz := Z.min nk (nonzero x + nonzero y + s - 1) in
  z1 <- set_counts z nk nz ;;
  xs <- low_span x (nz - s) ;;
  ys <- low_span y (nz - s) ;;
  p <- k_addmul kern (Z.to_nat (relu (nz - s))) xs ys ;;
  c <- def_loop nz (fun i _ => if i <? to_i32 (nonzero x) then rd (cells x) i else Ok k0) (cells z1) ;;
  (* isrfft with add = true: z[s+i] += p[i] *)
  h <- read_cells (length p) (skipn (Z.to_nat s) c) ;;
  h' <- write_cells (map (fun q => kadd (fst q) (snd q)) (combine h p)) (skipn (Z.to_nat s) c) ;;
  Ok (mkS (firstn (Z.to_nat s) c ++ h') nk nz).

(** series.h:296-301 [sqr]. *)
Definition set_sqr (y x : series) : res series :=
  let nk := known x in
  let nz := Z.min nk (relu (2 * nonzero x - 1)) in
  y1 <- set_counts y nk nz ;;
  xs <- span_of x ;;
  p <- k_sqr kern (Z.to_nat nz) xs ;;
  c <- write_cells p (cells y1) ;;
  Ok (mkS c nk nz).

(** area.cc:22-32 [sub_si_2exp]: z = a x - 2^b y. *)
Definition set_sub_si_2exp (z : series) (a : Z) (x : series) (b : Z) (y : series) : res series :=
  let nk := Z.min (known x) (known y) in
  let nz := Z.min nk (Z.max (nonzero x) (nonzero y)) in
  z1 <- set_counts z nk nz ;;
  c <- def_loop nz (fun i _ =>
         xi <- (if i <? to_i32 (nonzero x) then rd (cells x) i else Ok k0) ;;
         yi <- (if i <? to_i32 (nonzero y) then rd (cells y) i else Ok k0) ;;
         Ok (ksub (kmul (kofZ (to_i32 a)) xi) (ldexpK yi b))) (cells z1) ;;
  Ok (mkS c nk nz).

(** ** Newton iteration, series.h:318-349 *)
(** std::countr_zero on a positive number. *)
Fixpoint ctz_pos (p : positive) : Z :=
  match p with xO q => 1 + ctz_pos q | _ => 0 end.
(** std::bit_ceil. *)
Definition bit_ceil (x : Z) : Z := if x <=? 1 then 1 else 2 ^ Z.log2_up x.
Definition countr_zero64 (x : Z) : Z :=
  match x with Zpos p => ctz_pos p | _ => 64 end.

(** series.h:318-321 [newton_steps]. *)
Definition newton_steps (n0 n : Z) : res Z :=
  _ <- slow_assert ((0 <? n0) && (n0 <=? n)) ;;
  Ok (countr_zero64 (bit_ceil ((n + n0 - 1) / n0))).

(** series.h:341-348: the loop, counted down from [kr]; [cnt] = kr + 1 iterations remain. *)
Fixpoint newton_loop {A : Type} (step : Z -> Z -> bool -> A -> res A) (n : Z)
         (cnt : nat) (n0 : Z) (st : A) : res A :=
  match cnt with
  | O => Ok st
  | S kr =>
      let k := Z.shiftr (Z.of_nat kr) 1 in
      let refine := negb (Z.odd (Z.of_nat kr)) in
      let m := Z.shiftr (n + Z.shiftl 1 k - 1) k in
      st1 <- step n0 m refine st ;;
      newton_loop step n kr (if refine then m else n0) st1
  end.

(** series.h:324-349 [newton_iterate]. *)
Definition newton_iterate {A : Type} (n0 n : Z) (step : Z -> Z -> bool -> A -> res A) (st : A) : res A :=
  if n <=? n0 then Ok st
  else
    _ <- slow_assert (0 <? n0) ;;
    k <- newton_steps n0 n ;;
    newton_loop step n (Z.to_nat (2 * k)) n0 st.

(** ** Base cases (SERIES_BASE / generated codelets): see CodeletModel.v *)
Record bases := {
  inv_base : series -> series -> res series;   (* destination y, argument x *)
  exp_base : series -> series -> res series
}.
Variable base : bases.

(** series.h:352-381 [inv].  State of the iteration: (y, dy). *)
Definition inv_step (x : series) (m0 m : Z) (refine : bool) (st : series * series)
  : res (series * series) :=
  let (y, dy) := st in
  y <- set_known y m ;;
  dy <- set_mul dy x y ;;
  dy <- sub_int dy 1 ;;
  dy <- set_mul dy dy y ;;
  y <- high_sub y m0 (high dy m0) ;;
  Ok (y, dy).

Definition set_inv (y x : series) : res series :=
  let n := known x in
  if n =? 0 then Ok (set_unknown y) else
  _ <- slow_assert (negb (nonzero x =? 0)) ;;
  y <- inv_base base y x ;;
  ' st <- newton_iterate (known y) n (inv_step x) (y, new_series n) ;;
  Ok (fst st).

(** series.h:384-419 [inv1p]. *)
Definition inv1p_step (x : series) (s : Z) (m0 m : Z) (refine : bool) (st : series * series)
  : res (series * series) :=
  let (y, dy) := st in
  y <- set_known y m ;;
  dy <- set_mul1p dy x y s ;;
  dy <- add_in dy y ;;
  dy <- set_mul1p dy dy y s ;;
  y <- high_sub y m0 (high dy m0) ;;
  Ok (y, dy).

Definition set_inv1p (y x : series) (s : Z) : res series :=
  let n := known x in
  if n =? 0 then Ok (set_unknown y) else
  _ <- slow_assert (0 <? s) ;;
  y <- set_neg y (low x s) ;;
  ' st <- newton_iterate (known y) n (inv1p_step x s) (y, new_series n) ;;
  Ok (fst st).

(** series.h:422-446 [div]. *)
Definition set_div (y a b : series) : res series :=
  let n := Z.min (known a) (known b) in
  inv_b <- set_inv (new_series n) (low b n) ;;
  y <- set_mul y a inv_b ;;
  dy <- set_mul (new_series n) b y ;;
  dy <- sub_in dy a ;;
  dy <- set_mul dy dy inv_b ;;
  sub_in y dy.

(** series.h:449-474 [div1p]. *)
Definition set_div1p (y a b : series) (s : Z) : res series :=
  _ <- slow_assert (0 <? s) ;;
  let n := Z.min (known a) (known b + s) in
  inv_b <- set_inv1p (new_series (n - s)) (low b (n - s)) s ;;
  y <- set_mul1p y a inv_b s ;;
  dy <- set_mul1p (new_series n) y b s ;;
  dy <- sub_in dy a ;;
  dy <- set_mul1p dy dy inv_b s ;;
  sub_in y dy.

(** series.h:497-509 [log].  The test x[0] == 1 is made only on the host and not
    inside the code generator ([checked] = !codelets && !is_device). *)
Definition set_log_gen (checked : bool) (y x : series) : res series :=
  let n := known x in
  if n =? 0 then Ok (set_unknown y) else
  _ <- slow_assert (negb (nonzero x =? 0)) ;;
  _ <- (if checked then (v <- rd (cells x) 0 ;; slow_assert (keqb v k1)) else Ok tt) ;;
  dx <- set_derivative_shift (new_series n) x 0 ;;
  y <- set_div y dx x ;;
  set_integral_shift y y 0.

(** series.h:512-523 [log1p]. *)
Definition set_log1p (y x : series) (s : Z) : res series :=
  let n := known x in
  if n =? 0 then Ok (set_unknown y) else
  _ <- slow_assert (0 <? s) ;;
  dx <- set_derivative_shift (new_series n) x s ;;
  y <- set_div1p y dx x s ;;
  set_integral_shift y y s.

(** series.h:526-555 [exp]. *)
Definition exp_step (checked : bool) (x : series) (m0 m : Z) (refine : bool) (st : series * series)
  : res (series * series) :=
  let (y, dy) := st in
  y <- set_known y m ;;
  dy <- set_log_gen checked dy y ;;
  dy <- sub_in dy x ;;
  dy <- set_mul dy y dy ;;
  y <- high_sub y m0 (high dy m0) ;;
  Ok (y, dy).

Definition set_exp_gen (checked : bool) (y x : series) : res series :=
  let n := known x in
  if n =? 0 then Ok (set_unknown y) else
  _ <- (if checked && negb (nonzero x =? 0)
        then (v <- rd (cells x) 0 ;; slow_assert (keqb v k0)) else Ok tt) ;;
  y <- exp_base base y x ;;
  ' st <- newton_iterate (known y) n (exp_step checked x) (y, new_series n) ;;
  Ok (fst st).

Definition set_log := set_log_gen true.
Definition set_exp := set_exp_gen true.

(** series.h:558-597 [expm1]. *)
Definition expm1_step (x : series) (a s : Z) (m0 m : Z) (refine : bool) (st : series * series)
  : res (series * series) :=
  let (y, dy) := st in
  y <- set_known y m ;;
  dy <- set_log1p dy y s ;;
  dy <- (if 0 <? a then sub_in dy x else add_in dy x) ;;
  dy <- set_mul1p dy dy y s ;;
  y <- high_sub y m0 (high dy m0) ;;
  Ok (y, dy).

Definition set_expm1 (y x : series) (a s : Z) : res series :=
  _ <- slow_assert ((Z.abs a =? 1) && (0 <? s)) ;;
  let n := known x in
  y <- (if 0 <? a then assign y (low x s) else set_neg y (low x s)) ;;
  ' st <- newton_iterate (known y) n (expm1_step x a s) (y, new_series n) ;;
  Ok (fst st).

(** series.h:600-637 [log1p_exp].  State: (y, ndy, t). *)
Definition log1p_exp_step (x : series) (s : Z) (m0 m : Z) (refine : bool)
           (st : series * series * series) : res (series * series * series) :=
  let '(y, ndy, t) := st in
  y <- set_known y m ;;
  t <- assign t (low x m) ;;
  t <- high_sub t s y ;;
  ndy <- set_exp ndy t ;;
  t <- set_expm1 t y (-1) s ;;
  ndy <- add_in ndy t ;;
  y <- high_add y m0 (high ndy m0) ;;
  Ok (y, ndy, t).

Definition set_log1p_exp (y x : series) (s : Z) : res series :=
  let n := known x in
  if n =? 0 then Ok (set_unknown y) else
  _ <- slow_assert (0 <? s) ;;
  y <- set_exp y (low x s) ;;
  ' st <- newton_iterate (known y) n (log1p_exp_step x s) (y, new_series n, new_series n) ;;
  Ok (fst (fst st)).

End Model.

Arguments mkS {F} _ _ _.
Arguments cells {F} _.
Arguments known {F} _.
Arguments nonzero {F} _.
Arguments limit {F} _.
Arguments new_series {F} _.
Arguments k_mul {F} _ _ _ _.
Arguments k_addmul {F} _ _ _ _.
Arguments k_sqr {F} _ _ _.
Arguments inv_base {F} _ _ _.
Arguments exp_base {F} _ _ _.
