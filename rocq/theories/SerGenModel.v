(** * The generator of the series base cases: codelets.cc:372-457

    inv_base and exp_base are written, when the library is built, by running the algorithms of
    series.h on series of symbolic expressions.  Here that run produces the statements as data;
    BaseGenRun.v says what they do.  CodeletModel.v runs the same algorithms on scalars.

    What is simplified: as in BaseGenModel.v (text as syntax trees, [draw], [lr]); a series owns a
    list of cells, [None] where nothing was written; views are values, but the product
    (codelets.cc:394-404) knows when an operand is its destination.  The assertions that arguments are
    apart (true in the calls made here) are left out. *)
From Coq Require Import String ZArith List Bool.
From Verif Require Import Base Field ExpModel BaseGenModel.
From Verif Require SeriesModel.
Import ListNotations.
Open Scope Z_scope.

Section SerGen.
Variables (G : SigOps) (draw : string -> G) (lr : bool).
Notation exp := (exp G).
Notation M := (M G).
Notation "x <~ m ;; k" := (mbind G m (fun x => k)) (at level 61, m at next level, right associativity).

(** ** Series of expressions *)
(** series.h:59-73 *)
Record yser := mkY { yc : list (option exp); yk : Z; yn : Z }.
(** series.h:137 *)
Definition y_limit (y : yser) : Z := Z.of_nat (length (yc y)).
(** array.h:36-44 and series.h:77 *)
Definition y_new (lim : Z) : yser := mkY (repeat None (Z.to_nat (relu lim))) 0 0.
Definition y_rd (c : list (option exp)) (i : Z) : res exp :=
  if i <? 0 then UB else match nth_error c (Z.to_nat i) with Some (Some e) => Ok e | _ => UB end.
Fixpoint y_read (n : nat) (c : list (option exp)) : res (list exp) :=
  match n with
  | O => Ok []
  | S n' => match c with Some e :: c' => (es <- y_read n' c' ;; Ok (e :: es)) | _ => UB end
  end.
Fixpoint y_put (c : list (option exp)) (i : nat) (e : exp) : res (list (option exp)) :=
  match c, i with
  | [], _ => UB
  | _ :: c', O => Ok (Some e :: c')
  | o :: c', S i' => (r <- y_put c' i' e ;; Ok (o :: r))
  end.
(** series.h:167-177 *)
Definition y_unknown (y : yser) : yser := mkY (yc y) 0 0.
Definition y_counts (y : yser) (kn nz : Z) : res yser :=
  _ <- slow_assert (to_u64 nz <=? to_u64 (Z.min (y_limit y) kn)) ;; Ok (mkY (yc y) kn nz).
Definition y_known (y : yser) (kn : Z) : res yser :=
  _ <- slow_assert (0 <=? kn) ;; Ok (mkY (yc y) kn (Z.min (yn y) kn)).
(** series.h:99-110 *)
Definition y_scalar (y : yser) (kn : Z) (a : exp) : res yser :=
  let kn := relu kn in
  _ <- slow_assert ((if 0 <? kn then 1 else 0) <=? y_limit y) ;;
  if kn =? 0 then Ok (mkY (yc y) kn 0) else (c <- y_put (yc y) 0 a ;; Ok (mkY c kn 1)).
(** series.h:204-226 *)
Definition y_low (x : yser) (n : Z) : yser :=
  let nk := Z.min (relu n) (yk x) in
  let nz := Z.min nk (yn x) in
  mkY (if nz =? 0 then [] else firstn (Z.to_nat nz) (yc x)) nk nz.
Definition y_high (x : yser) (n : Z) : yser :=
  let n := relu n in
  let nk := relu (yk x - n) in
  let nz := relu (yn x - n) in
  mkY (if nz =? 0 then [] else firstn (Z.to_nat nz) (skipn (Z.to_nat n) (yc x))) nk nz.

(** ** Arithmetic *)
(** codelets.cc:372-375 *)
Definition y_add_scalar (x : yser) (a : exp) : M yser :=
  _ <~ lift G (slow_assert (negb (yn x =? 0))) ;;
  v <~ lift G (y_rd (yc x) 0) ;;
  s <~ exp_add G v a ;;
  c <~ lift G (y_put (yc x) 0 s) ;;
  ret G (mkY c (yk x) (yn x)).
(** A loop y[i] = body(i, y[i]) over the first n cells. *)
Fixpoint y_each (n : nat) (i : Z) (body : Z -> option exp -> M exp) (c : list (option exp)) : M (list (option exp)) :=
  match n with
  | O => ret G c
  | S n' =>
      match c with
      | [] => fun _ => UB
      | o :: c' => v <~ body i o ;; r <~ y_each n' (i + 1) body c' ;; ret G (Some v :: r)
      end
  end.
(** codelets.cc:387-391; [ldexp] (codelets.cc:376-379) insists on b = 0. *)
Definition y_addsub_body (xs : list exp) (ynz xnz sign s b : Z) (i : Z) (yi : option exp) : M exp :=
  yv <~ lift G (if i <? ynz then (match yi with Some e => Ok e | None => UB end) else Ok (mkint 0)) ;;
  xv <~ lift G (if to_u32 (i - s) <? to_u32 xnz then y_rd (map Some xs) (i - s) else Ok (mkint 0)) ;;
  _ <~ lift G (slow_assert (b =? 0)) ;;
  xv <~ (if sign <? 0 then exp_neg G xv else ret G xv) ;;
  exp_add G yv xv.
(** codelets.cc:380-393: x is copied first. *)
Definition y_addsub (y : yser) (sign b s : Z) (x : yser) : M yser :=
  let ynz := yn y in
  let xnz := yn x in
  let nk := Z.min (yk y) (yk x + s) in
  let nz := Z.min nk (Z.max ynz (if xnz =? 0 then 0 else xnz + s)) in
  _ <~ lift G (slow_assert ((Z.abs sign =? 1) && (nz <=? y_limit y))) ;;
  xs <~ lift G (y_read (Z.to_nat xnz) (yc x)) ;;
  y <~ lift G (y_counts y nk nz) ;;
  c <~ y_each (Z.to_nat nz) 0 (y_addsub_body xs ynz xnz sign s b) (yc y) ;;
  ret G (mkY c nk nz).
(** series.h:232-237 *)
Definition y_sub_int (x : yser) (a : Z) : M yser := y_add_scalar x (mkint (- a)).
Definition y_sub_in (y x : yser) : M yser := y_addsub y (-1) 0 0 x.
Definition y_high_sub (y : yser) (s : Z) (x : yser) : M yser := y_addsub y (-1) 0 s x.

(** series.h:478-494 with loops.h:42-51: elementwise loops. *)
Definition y_map (f : Z -> exp -> M exp) (y x : yser) : M yser :=
  y <~ lift G (y_counts y (yk x) (yn x)) ;;
  c <~ (if yn x =? 0 then ret G (yc y)
        else y_each (Z.to_nat (to_i32 (yn x))) 0 (fun i _ => v <~ lift G (y_rd (yc x) i) ;; f i v) (yc y)) ;;
  ret G (mkY c (yk y) (yn y)).
Definition y_derivative (y x : yser) (s : Z) : M yser := y_map (fun i v => exp_mul G (mkint (to_i32 s + i)) v) y x.
Definition y_integral (y x : yser) (s : Z) : M yser :=
  y_map (fun i v => if to_i32 s + i =? 0 then ret G (mkint 0) else exp_div G v (to_i32 s + i)) y x.

(** codelets.cc:394-404: z[i] is stored before the terms of z[i+1] are formed.  An operand is apart
    from the destination or is the first n cells of it. *)
Inductive yopnd := YApart (xs : list exp) | YIn (n : nat).
Definition yo_len (o : yopnd) : nat := match o with YApart xs => length xs | YIn n => n end.
Definition yo_rd (z : list (option exp)) (o : yopnd) (j : nat) : res exp :=
  match o with
  | YApart xs => match nth_error xs j with Some e => Ok e | None => UB end
  | YIn _ => match nth_error z j with Some (Some e) => Ok e | _ => UB end
  end.
Fixpoint y_terms (z : list (option exp)) (ox oy : yopnd) (i j : nat) : M (list exp) :=
  match j with
  | O => ret G []
  | S j' =>
      ts <~ y_terms z ox oy i j' ;;
      if ((j' <? yo_len ox) && (i - j' <? yo_len oy))%nat
      then (a <~ lift G (yo_rd z ox j') ;; b <~ lift G (yo_rd z oy (i - j')) ;; p <~ exp_mul G a b ;; ret G (ts ++ [p]))
      else ret G ts
  end.
Fixpoint y_product (cnt i : nat) (ox oy : yopnd) (z : list (option exp)) : M (list (option exp)) :=
  match cnt with
  | O => ret G z
  | S cnt' =>
      ts <~ y_terms z ox oy i (S i) ;;
      t <~ exp_sum G lr ts ;;
      z' <~ lift G (y_put z i t) ;;
      y_product cnt' (S i) ox oy z'
  end.
(** series.h:191, 278 *)
Definition y_opnd (o : option yser) (w : yser) (nz : Z) : res yopnd :=
  let n := Z.to_nat (Z.min (relu nz) (yn w)) in
  match o with
  | Some _ => (xs <- y_read n (yc w) ;; Ok (YApart xs))
  | None => Ok (YIn n)
  end.
(** series.h:273-279; an operand [None] is the destination. *)
Definition y_mul (z : yser) (ox oy : option yser) : M yser :=
  let x := match ox with Some x => x | None => z end in
  let y := match oy with Some y => y | None => z end in
  let nk := Z.min (yk x) (yk y) in
  let nz := Z.min nk (relu (yn x + yn y - 1)) in
  z1 <~ lift G (y_counts z nk nz) ;;
  px <~ lift G (y_opnd ox x nz) ;;
  py <~ lift G (y_opnd oy y nz) ;;
  c <~ y_product (Z.to_nat nz) 0 px py (yc z1) ;;
  ret G (mkY c nk nz).

(** ** The algorithms *)
(** series.h:304-313 (with CODELETS), 351, 525: one-term base cases. *)
Definition y_base (f : exp -> M exp) (y x : yser) : M yser :=
  y1 <~ lift G (y_counts y 1 1) ;;
  x0 <~ lift G (if yn x =? 0 then Ok (mkint 0) else y_rd (yc x) 0) ;;
  v <~ f x0 ;;
  c <~ lift G (y_put (yc y1) 0 v) ;;
  ret G (mkY c 1 1).
Definition y_inv_base : yser -> yser -> M yser := y_base (exp_inv G).
Definition y_exp_base : yser -> yser -> M yser := y_base (fun _ => ret G (mkint 1)).
(** series.h:318-349; the number of steps is that of SeriesModel.v. *)
Fixpoint y_newton_loop {A : Type} (step : Z -> Z -> bool -> A -> M A) (n : Z) (cnt : nat) (n0 : Z) (a : A) : M A :=
  match cnt with
  | O => ret G a
  | S kr =>
      let k := Z.shiftr (Z.of_nat kr) 1 in
      let refine := negb (Z.odd (Z.of_nat kr)) in
      let m := Z.shiftr (n + Z.shiftl 1 k - 1) k in
      a <~ step n0 m refine a ;;
      y_newton_loop step n kr (if refine then m else n0) a
  end.
Definition y_newton {A : Type} (n0 n : Z) (step : Z -> Z -> bool -> A -> M A) (a : A) : M A :=
  if n <=? n0 then ret G a
  else
    _ <~ lift G (slow_assert (0 <? n0)) ;;
    k <~ lift G (SeriesModel.newton_steps n0 n) ;;
    y_newton_loop step n (Z.to_nat (2 * k)) n0 a.
(** series.h:352-381 *)
Definition y_inv_step (x : yser) (m0 m : Z) (refine : bool) (st : yser * yser) : M (yser * yser) :=
  y <~ lift G (y_known (fst st) m) ;;
  dy <~ y_mul (snd st) (Some x) (Some y) ;;
  dy <~ y_sub_int dy 1 ;;
  dy <~ y_mul dy None (Some y) ;;
  y <~ y_high_sub y m0 (y_high dy m0) ;;
  ret G (y, dy).
Definition y_inv (y x : yser) : M yser :=
  let n := yk x in
  if n =? 0 then ret G (y_unknown y) else
  _ <~ lift G (slow_assert (negb (yn x =? 0))) ;;
  y <~ y_inv_base y x ;;
  st <~ y_newton (yk y) n (y_inv_step x) (y, y_new n) ;;
  ret G (fst st).
(** series.h:422-446 *)
Definition y_div (y a b : yser) : M yser :=
  let n := Z.min (yk a) (yk b) in
  inv_b <~ y_inv (y_new n) (y_low b n) ;;
  y <~ y_mul y (Some a) (Some inv_b) ;;
  dy <~ y_mul (y_new n) (Some b) (Some y) ;;
  dy <~ y_sub_in dy a ;;
  dy <~ y_mul dy None (Some inv_b) ;;
  y_sub_in y dy.
(** series.h:497-509: x[0] is not examined by the generator. *)
Definition y_log (y x : yser) : M yser :=
  let n := yk x in
  if n =? 0 then ret G (y_unknown y) else
  _ <~ lift G (slow_assert (negb (yn x =? 0))) ;;
  dx <~ y_derivative (y_new n) x 0 ;;
  y <~ y_div y dx x ;;
  y_integral y y 0.
(** series.h:526-555: x[0] is not examined by the generator. *)
Definition y_exp_step (x : yser) (m0 m : Z) (refine : bool) (st : yser * yser) : M (yser * yser) :=
  y <~ lift G (y_known (fst st) m) ;;
  dy <~ y_log (snd st) y ;;
  dy <~ y_sub_in dy x ;;
  dy <~ y_mul dy (Some y) None ;;
  y <~ y_high_sub y m0 (y_high dy m0) ;;
  ret G (y, dy).
Definition y_exp (y x : yser) : M yser :=
  let n := yk x in
  if n =? 0 then ret G (y_unknown y) else
  y <~ y_exp_base y x ;;
  st <~ y_newton (yk y) n (y_exp_step x) (y, y_new n) ;;
  ret G (fst st).

(** ** What is written *)
(** codelets.cc:449-456 *)
Definition of_inv (n : Z) (x : yser) : M yser :=
  x0 <~ lift G (y_rd (yc x) 0) ;;
  i <~ exp_inv G x0 ;;
  r <~ lift G (y_scalar (y_new n) n i) ;;
  rx <~ y_mul (y_new n) (Some r) (Some x) ;;
  inv_rx <~ y_inv (y_new n) rx ;;
  y_mul (y_new n) (Some r) (Some inv_rx).
Definition of_exp (n : Z) (x : yser) : M yser := y_exp (y_new n) x.
(** codelets.cc:419-420: names that are taken; the inputs themselves are not used. *)
Fixpoint reserve (names : list string) (g : qst G) : res (qst G) :=
  match names with
  | [] => Ok g
  | v :: t =>
      ' (_, b) <- input G v (draw v) (q_blk G g) ;;
      reserve t {| q_cse := q_cse G g; q_blk := b; q_out := q_out G g; q_asked := q_asked G g |}
  end.
(** codelets.cc:436-443: every y[i] is computed twice (the first result is dropped), assigned, and a
    return follows all but the last; it is put here before the next one. *)
Fixpoint y_stores (i : nat) (ts : list exp) (g : qst G) : res (qst G) :=
  match ts with
  | [] => Ok g
  | t :: ts =>
      let g := match i with O => g | S _ => q_emit G (QStop "ny" i) g end in
      let b := q_blk G g in
      ' (_, b1) <- compute G t b ;;
      ' (y, b2) <- compute G t b1 ;;
      y_stores (S i) ts
        {| q_cse := q_cse G g; q_blk := b2;
           q_out := q_out G g ++ map (fun p => QLet (fst p) (snd p)) (skipn (length (lines G b)) (lines G b2)) ++ [QStore "y" i y];
           q_asked := q_asked G g ++ [t] |}
  end.
(** codelets.cc:413-443, without the wrapper. *)
Definition ser_gen (n leading : nat) (set : yser -> M yser) : res (qst G) :=
  g <- reserve ["y"; "ny"; "x"; "nx"]%string (q0 G) ;;
  g <- reserve (map (elem "x") (seq 0 leading)) g ;;
  ' (xs, g) <- extends G draw "x" (seq leading (n - leading)) g ;;
  let x := mkY (map Some (repeat (mkint 0) leading ++ xs)) (Z.of_nat n) (Z.of_nat n) in
  ' (y, st) <- set x (q_cse G g) ;;
  ts <- (if Z.of_nat n <=? yn y then y_read n (yc y) else UB) ;;
  y_stores 0 ts {| q_cse := st; q_blk := fold_left (fun b e => use G e b) ts (q_blk G g); q_out := q_out G g; q_asked := q_asked G g |}.
(** codelets.cc:449-456 with n = 5 (line 410). *)
Definition inv_gen (n : nat) : res (qst G) := ser_gen n 0 (of_inv (Z.of_nat n)).
Definition exp_gen (n : nat) : res (qst G) := ser_gen n 1 (of_exp (Z.of_nat n)).
End SerGen.
Arguments YApart {G}. Arguments YIn {G}.

(** ** The wrapper, codelets.cc:444-448 *)
From Verif Require Import BlockProofs BaseGenRun SeriesModel.
Section Wrapper.
Variable F : Fld.
(** The two arrays in memory, x after y.  Coefficients of x that were never assigned cannot be read;
    those of y are there to be assigned. *)
Definition image (y x : series F) : mem F := fun p =>
  if p <? 0 then None
  else if p <? limit y then Some (match nth (Z.to_nat p) (cells y) None with Some v => v | None => k0 end)
  else nth (Z.to_nat (p - limit y)) (cells x) None.
Definition call_frame (y x : series F) (ny : Z) : frame :=
  {| f_int := fun s => if String.eqb s "ny" then ny else to_i32 (nonzero x); f_ptr := fun s => if String.eqb s "y" then 0 else limit y |}.
(** The coefficients of y afterwards: what the memory holds; beyond the ny counted ones, those never
    assigned stay so. *)
Definition back (y : series F) (ny : Z) (m : mem F) : list (option F) :=
  map (fun i => match nth i (cells y) None with None => if Z.of_nat i <? ny then m (Z.of_nat i) else None | Some _ => m (Z.of_nat i) end) (seq 0 (length (cells y))).
Definition prog_base {G : SigOps} (n : nat) (body : list (sstmt G)) (I : interp F) (y x : series F) : res (series F) :=
  let ny := Z.min (Z.of_nat n) (to_i32 (known x)) in
  y1 <- set_counts F y ny ny ;;
  if ny =? 0 then Ok y1 else
  match exec (call_frame y x ny) body I (image y x) with
  | Some m => Ok (mkS (back y ny m) ny ny)
  | None => UB
  end.
(** series.h:304-315: the base cases the series functions use, given what was generated. *)
Definition prog_bases {G : SigOps} (inv_body exp_body : list (sstmt G)) (I : interp F) : bases F :=
  {| inv_base := prog_base 5 inv_body I; exp_base := prog_base 5 exp_body I |}.
End Wrapper.
Arguments image {F}. Arguments call_frame {F}. Arguments back {F}. Arguments prog_base {F G}. Arguments prog_bases {F G}.
