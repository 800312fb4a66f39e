(** Model of the series base cases: codelets.cc:372-457 and series.h:304-315.

    The generator runs the series algorithms on symbolic scalars and prints the
    resulting expressions; the emitted code evaluates those expressions.  Here the
    same algorithms are run directly on scalars (that the expression machinery
    preserves values is the subject of ExpModel.v). *)
From Coq Require Import ZArith List Bool Lia.
From Verif Require Import Base Field SeriesModel.
Import ListNotations.
Open Scope Z_scope.

Section Codelets.
Variable F : Fld.
Notation KK := (K F).
Notation ser := (series F).

(** codelets.cc:394-404: naive product coefficient i. *)
Fixpoint naive_terms (xs ys : list KK) (i j : nat) : list KK :=
  match j with
  | O => []
  | S j' =>
      naive_terms xs ys i j' ++
      (if ((j' <? length xs) && (i - j' <? length ys))%nat
       then [kmul (nth j' xs k0) (nth (i - j') ys k0)] else [])
  end.

(** exp.cc:207-212 [sum]; the balanced association does not matter in a field. *)
Definition ksum (l : list KK) : KK := fold_right kadd k0 l.

Definition naive_mul (nz : nat) (xs ys : list KK) : res (list KK) :=
  Ok (map (fun i => ksum (naive_terms xs ys i (S i))) (seq 0 nz)).

(** The naive product as a kernel: what [fft_mul] of codelets.cc:394-404 computes when
    its output is apart from both operands. *)
Definition naive_kernel : kernel F := {|
  k_mul := naive_mul;
  k_addmul := naive_mul;
  k_sqr := fun nz xs => naive_mul nz xs xs
|}.

(** series.h:304-313 with CODELETS: one-term base cases. *)
Definition simple_inv_base (y x : ser) : res ser :=
  y1 <- set_counts F y 1 1 ;;
  x0 <- (if nonzero x =? 0 then Ok k0 else rd F (cells x) 0) ;;
  c <- write_cells F [kinv x0] (cells y1) ;;
  Ok (mkS c 1 1).
Definition simple_exp_base (y x : ser) : res ser :=
  y1 <- set_counts F y 1 1 ;;
  x0 <- (if nonzero x =? 0 then Ok k0 else rd F (cells x) 0) ;;
  c <- write_cells F [k1] (cells y1) ;;
  Ok (mkS c 1 1).
Definition simple_bases : bases F := {| inv_base := simple_inv_base; exp_base := simple_exp_base |}.

(** codelets.cc:410 *)
Definition base_n : Z := 5.

(** codelets.cc:424-431: inputs x0..x4 with zero extension; the first [leading] are 0. *)
Fixpoint read_ext (leading cnt : nat) (i : Z) (x : ser) : res (list KK) :=
  match cnt with
  | O => Ok []
  | S c =>
      v <- (match leading with
            | S _ => Ok k0
            | O => if i <? to_i32 (nonzero x) then rd F (cells x) i else Ok k0
            end) ;;
      vs <- read_ext (pred leading) c (i + 1) x ;;
      Ok (v :: vs)
  end.

(** codelets.cc:421-423: the symbolic argument series (all n terms known). *)
Definition base_arg (xs : list KK) : ser := mkS (map Some xs) base_n base_n.

(** *** The product written over one of its operands

    codelets.cc:394-404 stores z[i] before the terms of z[i+1] are formed, and the
    algorithms of series.h call it with z one of the operands
    ([dy = mul(dy, y)], [dy = mul(y, dy)]); the later terms then read coefficients of
    the product in place of those of the operand. *)
Inductive operand := Apart (xs : list KK) | InDst (n : nat).

(** codelets.cc:396: [x.size()]. *)
Definition op_len (o : operand) : nat :=
  match o with Apart xs => length xs | InDst n => n end.

(** codelets.cc:401: [x[j]] as it is when it is read. *)
Definition op_rd (z : list (option KK)) (o : operand) (j : nat) : res KK :=
  match o with
  | Apart xs => match nth_error xs j with Some v => Ok v | None => UB end
  | InDst _ => match nth_error z j with Some (Some v) => Ok v | _ => UB end
  end.

(** codelets.cc:398-401: the terms of z[i], j ascending. *)
Fixpoint in_terms (z : list (option KK)) (ox oy : operand) (i j : nat) : res (list KK) :=
  match j with
  | O => Ok []
  | S j' =>
      ts <- in_terms z ox oy i j' ;;
      if ((j' <? op_len ox) && (i - j' <? op_len oy))%nat
      then (a <- op_rd z ox j' ;; b <- op_rd z oy (i - j') ;; Ok (ts ++ [kmul a b]))
      else Ok ts
  end.

(** codelets.cc:402: [z[i] = ...]. *)
Fixpoint set_cell (c : list (option KK)) (i : nat) (v : KK) : res (list (option KK)) :=
  match c, i with
  | [], _ => UB
  | _ :: c', O => Ok (Some v :: c')
  | o :: c', S i' => (r <- set_cell c' i' v ;; Ok (o :: r))
  end.

(** codelets.cc:397-403: [cnt] coefficients from index i on. *)
Fixpoint in_loop (cnt i : nat) (ox oy : operand) (z : list (option KK)) : res (list (option KK)) :=
  match cnt with
  | O => Ok z
  | S cnt' =>
      ts <- in_terms z ox oy i (S i) ;;
      z' <- set_cell z i (ksum ts) ;;
      in_loop cnt' (S i) ox oy z'
  end.

(** series.h:191 and 278: the span handed to [fft_mul] for operand w. *)
Definition opnd (o : option ser) (w : ser) (nz : Z) : res operand :=
  match o with
  | Some _ => (xs <- low_span F w nz ;; Ok (Apart xs))
  | None => Ok (InDst (Z.to_nat (Z.min (relu nz) (nonzero w))))
  end.

(** series.h:273-279 [mul] with the generator's [fft_mul]; an operand [None] is the
    destination itself (its view was taken before the counts were changed). *)
Definition set_mul_in (z : ser) (ox oy : option ser) : res ser :=
  let x := match ox with Some x => x | None => z end in
  let y := match oy with Some y => y | None => z end in
  let nk := Z.min (known x) (known y) in
  let nz := Z.min nk (relu (nonzero x + nonzero y - 1)) in
  z1 <- set_counts F z nk nz ;;
  px <- opnd ox x nz ;;
  py <- opnd oy y nz ;;
  c <- in_loop (Z.to_nat nz) 0 px py (cells z1) ;;
  Ok (mkS c nk nz).

(** series.h:352-381 [inv] as run by the generator. *)
Definition gen_inv_step (x : ser) (m0 m : Z) (refine : bool) (st : ser * ser) : res (ser * ser) :=
  let (y, dy) := st in
  y <- set_known F y m ;;
  dy <- set_mul_in dy (Some x) (Some y) ;;
  dy <- sub_int F dy 1 ;;
  dy <- set_mul_in dy None (Some y) ;;
  y <- high_sub F y m0 (high F dy m0) ;;
  Ok (y, dy).
Definition gen_set_inv (y x : ser) : res ser :=
  let n := known x in
  if n =? 0 then Ok (set_unknown F y) else
  _ <- slow_assert (negb (nonzero x =? 0)) ;;
  y <- simple_inv_base y x ;;
  ' st <- newton_iterate (known y) n (gen_inv_step x) (y, new_series n) ;;
  Ok (fst st).

(** series.h:422-446 [div] as run by the generator. *)
Definition gen_set_div (y a b : ser) : res ser :=
  let n := Z.min (known a) (known b) in
  inv_b <- gen_set_inv (new_series n) (low F b n) ;;
  y <- set_mul_in y (Some a) (Some inv_b) ;;
  dy <- set_mul_in (new_series n) (Some b) (Some y) ;;
  dy <- sub_in F dy a ;;
  dy <- set_mul_in dy None (Some inv_b) ;;
  sub_in F y dy.

(** series.h:497-509 [log] as run by the generator: x[0] is not examined. *)
Definition gen_set_log (y x : ser) : res ser :=
  let n := known x in
  if n =? 0 then Ok (set_unknown F y) else
  _ <- slow_assert (negb (nonzero x =? 0)) ;;
  dx <- set_derivative_shift F (new_series n) x 0 ;;
  y <- gen_set_div y dx x ;;
  set_integral_shift F y y 0.

(** series.h:526-555 [exp] as run by the generator: x[0] is not examined. *)
Definition gen_exp_step (x : ser) (m0 m : Z) (refine : bool) (st : ser * ser) : res (ser * ser) :=
  let (y, dy) := st in
  y <- set_known F y m ;;
  dy <- gen_set_log dy y ;;
  dy <- sub_in F dy x ;;
  dy <- set_mul_in dy (Some y) None ;;
  y <- high_sub F y m0 (high F dy m0) ;;
  Ok (y, dy).
Definition gen_set_exp (y x : ser) : res ser :=
  let n := known x in
  if n =? 0 then Ok (set_unknown F y) else
  y <- simple_exp_base y x ;;
  ' st <- newton_iterate (known y) n (gen_exp_step x) (y, new_series n) ;;
  Ok (fst st).

(** codelets.cc:449-455, for any number n of terms (the generator's is [base_n]). *)
Definition gen_inv_n (n : Z) (X : ser) : res ser :=
  x0 <- rd F (cells X) 0 ;;
  r <- set_scalar F (new_series n) n (kinv x0) ;;
  rx <- set_mul_in (new_series n) (Some r) (Some X) ;;
  inv_rx <- gen_set_inv (new_series n) rx ;;
  set_mul_in (new_series n) (Some r) (Some inv_rx).
Definition gen_inv (X : ser) : res ser := gen_inv_n base_n X.

(** codelets.cc:456 *)
Definition gen_exp_n (n : Z) (X : ser) : res ser := gen_set_exp (new_series n) X.
Definition gen_exp (X : ser) : res ser := gen_exp_n base_n X.

(** codelets.cc:413-448: the emitted [name_base] / [name_base_serial]; reading
    y[i] at generation time requires i < nonzero (series.h:139). *)
Definition gen_base (leading : nat) (fn : ser -> res ser) (y x : ser) : res ser :=
  let ny := Z.min base_n (to_i32 (known x)) in
  y1 <- set_counts F y ny ny ;;
  if ny =? 0 then Ok y1 else
  xs <- read_ext leading (Z.to_nat base_n) 0 x ;;
  Y <- fn (base_arg xs) ;;
  vs <- (if base_n <=? nonzero Y then read_cells F (Z.to_nat ny) (cells Y) else UB) ;;
  c <- write_cells F vs (cells y1) ;;
  Ok (mkS c ny ny).

Definition gen_bases : bases F := {|
  inv_base := gen_base 0 gen_inv;
  exp_base := gen_base 1 gen_exp
|}.

End Codelets.
