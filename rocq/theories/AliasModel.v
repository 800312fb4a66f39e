(** The Series operations over one shared heap, so that the destination may be (part of)
    an argument.  SeriesModel.v runs the same operations on values, that is, with every
    argument in a buffer of its own; AliasProofs.v relates the two.

    A heap is a list of allocations (array.h:36-44); a Series owns one of them whole, a
    view points into one at some offset or is null.  Distinct allocations never overlap.
    Temporaries are appended to the heap; freeing them is not modelled (nothing refers to
    them after the function returns).  The arguments of every SERIES_EXP are captured as
    views, counts included, before the destination changes (series.h:255-260). *)
From Coq Require Import ZArith List Bool Arith.
From Verif Require Import Base Field SeriesModel.
Import ListNotations.
Open Scope Z_scope.

Section Alias.
Variable F : Fld.
Variable kern : kernel F.
Variable base : bases F.
(** The order in which a loop of n iterations runs them: ascending on the host
    (loops.h:42-44), unspecified for a device kernel (loops.h:26-41). *)
Variable ord : nat -> list nat.
Notation KK := (K F).
Notation ser := (series F).

Definition buffer := list (option KK).
Definition heap := list buffer.
Definition getb (h : heap) (b : nat) : buffer := nth b h [].
Fixpoint upd {A} (l : list A) (i : nat) (a : A) : list A :=
  match l, i with
  | [], _ => []
  | _ :: l', O => a :: l'
  | x :: l', S i' => x :: upd l' i' a
  end.

(** series.h:59-73: an owning Series, the allocation it owns and its counts. *)
Record obj := mkO { obuf : nat; oknown : Z; ononzero : Z }.
(** A SeriesView: null or a position in an allocation, and its counts. *)
Record vw := mkV { vptr : option (nat * nat); vknown : Z; vnonzero : Z }.

(** series.h:137 *)
Definition olimit (h : heap) (y : obj) : Z := Z.of_nat (length (getb h (obuf y))).
(** The cells from the position of a view to the end of its allocation. *)
Definition vcells (h : heap) (x : vw) : buffer :=
  match vptr x with None => [] | Some (b, off) => skipn off (getb h b) end.
(** The object and the view as values of SeriesModel.v. *)
Definition oval (h : heap) (y : obj) : ser := mkS (getb h (obuf y)) (oknown y) (ononzero y).
Definition vval (h : heap) (x : vw) : ser := mkS (vcells h x) (vknown x) (vnonzero x).

(** series.h:195-201 [view] of a Series; the view of a view is itself. *)
Definition oview (y : obj) : vw := mkV (Some (obuf y, O)) (oknown y) (ononzero y).
(** series.h:204-213 [low]. *)
Definition vlow (x : vw) (n : Z) : vw :=
  let nk := Z.min (relu n) (vknown x) in
  let nz := Z.min nk (vnonzero x) in
  mkV (if nz =? 0 then None else vptr x) nk nz.
(** series.h:216-226 [high]. *)
Definition vhigh (x : vw) (n : Z) : vw :=
  let n := relu n in
  let nk := relu (vknown x - n) in
  let nz := relu (vnonzero x - n) in
  mkV (if nz =? 0 then None else
       match vptr x with None => None | Some (b, off) => Some (b, (off + Z.to_nat n)%nat) end) nk nz.
(** series.h:140-143 [alias]: does the view start inside the destination's buffer? *)
Definition alias (h : heap) (y : obj) (f : vw) : bool :=
  match vptr f with
  | None => false
  | Some (b, off) => (b =? obuf y)%nat && (off <? length (getb h b))%nat
  end.

(** array.h:36-44 and series.h:77 *)
Definition alloc (h : heap) (lim : Z) : heap * obj :=
  (h ++ [repeat None (Z.to_nat (relu lim))], mkO (length h) 0 0).

(** series.h:167-177 *)
Definition oset_unknown (y : obj) : obj := mkO (obuf y) 0 0.
Definition oset_counts (h : heap) (y : obj) (kn nz : Z) : res obj :=
  _ <- slow_assert (to_u64 nz <=? to_u64 (Z.min (olimit h y) kn)) ;;
  Ok (mkO (obuf y) kn nz).
Definition oset_known (y : obj) (kn : Z) : res obj :=
  _ <- slow_assert (0 <=? kn) ;;
  Ok (mkO (obuf y) kn (Z.min (ononzero y) kn)).

(** Reading cell i from a view's position on; writing cell i of an allocation. *)
Definition hrd (h : heap) (x : vw) (i : Z) : res KK := rd F (vcells h x) i.
Definition hwr (h : heap) (b : nat) (i : nat) (v : KK) : res heap :=
  if (i <? length (getb h b))%nat then Ok (upd h b (upd (getb h b) i (Some v))) else UB.
(** loops.h:38-51: y[i] = body(i), each iteration seeing the writes of earlier ones. *)
Fixpoint hloop (is : list nat) (b : nat) (body : Z -> heap -> res KK) (h : heap) : res heap :=
  match is with
  | [] => Ok h
  | i :: is' =>
      v <- body (Z.of_nat i) h ;;
      h <- hwr h b i v ;;
      hloop is' b body h
  end.
Definition hdef_loop (n : Z) (b : nat) (body : Z -> heap -> res KK) (h : heap) : res heap :=
  if n =? 0 then Ok h else hloop (ord (Z.to_nat (to_i32 n))) b body h.
(** A kernel writing its output to a prefix of an allocation, all inputs already read
    (fft.cc:436-499; for overlapping spans of the kernels themselves see FFTMemModel.v). *)
Definition hput (h : heap) (b : nat) (vs : list KK) : res heap :=
  c <- write_cells F vs (getb h b) ;; Ok (upd h b c).

(** series.h:111-122 with cutil.h:92-99: std::copy, undefined if the destination starts
    inside the source range. *)
Definition h_assign (h : heap) (x : obj) (g : vw) : res (heap * obj) :=
  _ <- slow_assert (vnonzero g <=? olimit h x) ;;
  vs <- read_cells F (Z.to_nat (vnonzero g)) (vcells h g) ;;
  let inside := match vptr g with
                | Some (b, off) => (b =? obuf x)%nat && (off =? 0)%nat && (0 <? vnonzero g)
                | None => false end in
  if inside then UB else
  h <- hput h (obuf x) vs ;;
  Ok (h, mkO (obuf x) (vknown g) (vnonzero g)).

(** series.cc:59-64 *)
Definition h_add_scalar (h : heap) (x : obj) (a : KK) : res (heap * obj) :=
  _ <- slow_assert (negb (ononzero x =? 0)) ;;
  v <- rd F (getb h (obuf x)) 0 ;;
  h <- hput h (obuf x) [kadd v a] ;;
  Ok (h, x).

(** series.cc:66-90 *)
Definition h_addsub_body (yb : nat) (x : vw) (ynz xnz sign s b : Z) (ldx : bool) (i : Z) (h : heap) : res KK :=
  yv <- (if i <? to_i32 ynz then rd F (getb h yb) i else Ok k0) ;;
  xv <- (if to_u32 (i - to_i32 s) <? to_u32 (to_i32 xnz) then hrd h x (i - to_i32 s) else Ok k0) ;;
  let xv := if ldx then ldexpK F xv b else xv in
  let xv := if sign <? 0 then kopp xv else xv in
  Ok (kadd yv xv).
Definition h_high_addsub_ldexp (h : heap) (y : obj) (sign b s : Z) (x : vw) : res (heap * obj) :=
  let ynz := ononzero y in
  let xnz := vnonzero x in
  let nk := Z.min (oknown y) (vknown x + s) in
  let nz := Z.min nk (Z.max ynz (if xnz =? 0 then 0 else xnz + s)) in
  _ <- slow_assert ((Z.abs sign =? 1) && negb (alias h y x) && (nz <=? olimit h y)) ;;
  h <- hdef_loop nz (obuf y) (h_addsub_body (obuf y) x ynz xnz sign s b (negb (b =? 0))) h ;;
  y <- oset_counts h y nk nz ;;
  Ok (h, y).
(** series.h:229-239 *)
Definition h_sub_int (h : heap) (x : obj) (a : Z) := h_add_scalar h x (kofZ (- a)).
Definition h_add_in (h : heap) (y : obj) (x : vw) := h_high_addsub_ldexp h y 1 0 0 x.
Definition h_sub_in (h : heap) (y : obj) (x : vw) := h_high_addsub_ldexp h y (-1) 0 0 x.
Definition h_high_add (h : heap) (y : obj) (s : Z) (x : vw) := h_high_addsub_ldexp h y 1 0 s x.
Definition h_high_sub (h : heap) (y : obj) (s : Z) (x : vw) := h_high_addsub_ldexp h y (-1) 0 s x.

(** series.h:263-269, 478-494, 640-646: elementwise loops. *)
Definition h_map (f : Z -> KK -> KK) (h : heap) (y : obj) (x : vw) : res (heap * obj) :=
  y <- oset_counts h y (vknown x) (vnonzero x) ;;
  h <- hdef_loop (vnonzero x) (obuf y) (fun i h => (v <- hrd h x i ;; Ok (f i v))) h ;;
  Ok (h, y).
Definition h_neg := h_map (fun _ v => kopp v).
Definition h_derivative_shift (h : heap) (y : obj) (x : vw) (s : Z) :=
  h_map (fun i v => kmul (kofZ (to_i32 s + i)) v) h y x.
Definition h_integral_shift (h : heap) (y : obj) (x : vw) (s : Z) :=
  h_map (fun i v => if to_i32 s + i =? 0 then k0 else kdiv v (kofZ (to_i32 s + i))) h y x.
Definition h_ldexp (h : heap) (y : obj) (x : vw) (k : Z) := h_map (fun _ v => ldexpK F v k) h y x.

(** series.h:273-279 *)
Definition h_mul (h : heap) (z : obj) (x y : vw) : res (heap * obj) :=
  let nk := Z.min (vknown x) (vknown y) in
  let nz := Z.min nk (relu (vnonzero x + vnonzero y - 1)) in
  z <- oset_counts h z nk nz ;;
  xs <- low_span F (vval h x) nz ;;
  ys <- low_span F (vval h y) nz ;;
  p <- k_mul kern (Z.to_nat nz) xs ys ;;
  h <- hput h (obuf z) p ;;
  Ok (h, z).
(** series.h:283-293, series.cc:92-97, fft.cc:462-477: the transforms read x and y, the
    middle loop copies x into z, then the product is added. *)
Definition h_mul1p (h : heap) (z : obj) (x y : vw) (s : Z) : res (heap * obj) :=
  _ <- slow_assert (0 <? s) ;;
  let nk := Z.min (vknown x) (vknown y + s) in
  let nz := Z.min nk (vnonzero x + vnonzero y + s - 1) in
  z <- oset_counts h z nk nz ;;
  xs <- low_span F (vval h x) (nz - s) ;;
  ys <- low_span F (vval h y) (nz - s) ;;
  p <- k_addmul kern (Z.to_nat (relu (nz - s))) xs ys ;;
  h <- hdef_loop nz (obuf z) (fun i h => if i <? to_i32 (vnonzero x) then hrd h x i else Ok k0) h ;;
  let c := getb h (obuf z) in
  w <- read_cells F (length p) (skipn (Z.to_nat s) c) ;;
  w' <- write_cells F (map (fun q => kadd (fst q) (snd q)) (combine w p)) (skipn (Z.to_nat s) c) ;;
  Ok (upd h (obuf z) (firstn (Z.to_nat s) c ++ w'), z).
(** series.h:296-301 *)
Definition h_sqr (h : heap) (y : obj) (x : vw) : res (heap * obj) :=
  let nk := vknown x in
  let nz := Z.min nk (relu (2 * vnonzero x - 1)) in
  y <- oset_counts h y nk nz ;;
  xs <- span_of F (vval h x) ;;
  p <- k_sqr kern (Z.to_nat nz) xs ;;
  h <- hput h (obuf y) p ;;
  Ok (h, y).
(** area.cc:22-32 *)
Definition h_sub_si_2exp (h : heap) (z : obj) (a : Z) (x : vw) (b : Z) (y : vw) : res (heap * obj) :=
  let nk := Z.min (vknown x) (vknown y) in
  let nz := Z.min nk (Z.max (vnonzero x) (vnonzero y)) in
  z <- oset_counts h z nk nz ;;
  h <- hdef_loop nz (obuf z) (fun i h =>
         xi <- (if i <? to_i32 (vnonzero x) then hrd h x i else Ok k0) ;;
         yi <- (if i <? to_i32 (vnonzero y) then hrd h y i else Ok k0) ;;
         Ok (ksub (kmul (kofZ (to_i32 a)) xi) (ldexpK F yi b))) h ;;
  Ok (h, z).

(** series.h:304-315, codelets.cc:413-448: the base cases read all their inputs into
    locals before they write y. *)
Definition h_base (f : ser -> ser -> res ser) (h : heap) (y : obj) (x : vw) : res (heap * obj) :=
  r <- f (oval h y) (vval h x) ;;
  Ok (upd h (obuf y) (cells r), mkO (obuf y) (known r) (nonzero r)).

(** series.h:352-381 *)
Definition h_inv_step (x : vw) (m0 m : Z) (refine : bool) (st : heap * obj * obj) : res (heap * obj * obj) :=
  let '(h, y, dy) := st in
  y <- oset_known y m ;;
  ' (h, dy) <- h_mul h dy x (oview y) ;;
  ' (h, dy) <- h_sub_int h dy 1 ;;
  ' (h, dy) <- h_mul h dy (oview dy) (oview y) ;;
  ' (h, y) <- h_high_sub h y m0 (vhigh (oview dy) m0) ;;
  Ok (h, y, dy).
Definition h_inv (h : heap) (y : obj) (x : vw) : res (heap * obj) :=
  let n := vknown x in
  if n =? 0 then Ok (h, oset_unknown y) else
  _ <- slow_assert (negb (alias h y x) && negb (vnonzero x =? 0)) ;;
  ' (h, y) <- h_base (inv_base base) h y x ;;
  let (h, dy) := alloc h n in
  ' (h, y, _) <- newton_iterate (oknown y) n (h_inv_step x) (h, y, dy) ;;
  Ok (h, y).

(** series.h:384-419 *)
Definition h_inv1p_step (x : vw) (s : Z) (m0 m : Z) (refine : bool) (st : heap * obj * obj) : res (heap * obj * obj) :=
  let '(h, y, dy) := st in
  y <- oset_known y m ;;
  ' (h, dy) <- h_mul1p h dy x (oview y) s ;;
  ' (h, dy) <- h_add_in h dy (oview y) ;;
  ' (h, dy) <- h_mul1p h dy (oview dy) (oview y) s ;;
  ' (h, y) <- h_high_sub h y m0 (vhigh (oview dy) m0) ;;
  Ok (h, y, dy).
Definition h_inv1p (h : heap) (y : obj) (x : vw) (s : Z) : res (heap * obj) :=
  let n := vknown x in
  if n =? 0 then Ok (h, oset_unknown y) else
  _ <- slow_assert (negb (alias h y x) && (0 <? s)) ;;
  ' (h, y) <- h_neg h y (vlow x s) ;;
  let (h, dy) := alloc h n in
  ' (h, y, _) <- newton_iterate (oknown y) n (h_inv1p_step x s) (h, y, dy) ;;
  Ok (h, y).

(** series.h:422-446 *)
Definition h_div (h : heap) (y : obj) (a b : vw) : res (heap * obj) :=
  _ <- slow_assert (negb (alias h y a) && negb (alias h y b)) ;;
  let n := Z.min (vknown a) (vknown b) in
  let (h, inv_b) := alloc h n in
  ' (h, inv_b) <- h_inv h inv_b (vlow b n) ;;
  ' (h, y) <- h_mul h y a (oview inv_b) ;;
  let (h, dy) := alloc h n in
  ' (h, dy) <- h_mul h dy b (oview y) ;;
  ' (h, dy) <- h_sub_in h dy a ;;
  ' (h, dy) <- h_mul h dy (oview dy) (oview inv_b) ;;
  h_sub_in h y (oview dy).
(** series.h:449-474 *)
Definition h_div1p (h : heap) (y : obj) (a b : vw) (s : Z) : res (heap * obj) :=
  _ <- slow_assert (negb (alias h y a) && negb (alias h y b) && (0 <? s)) ;;
  let n := Z.min (vknown a) (vknown b + s) in
  let (h, inv_b) := alloc h (n - s) in
  ' (h, inv_b) <- h_inv1p h inv_b (vlow b (n - s)) s ;;
  ' (h, y) <- h_mul1p h y a (oview inv_b) s ;;
  let (h, dy) := alloc h n in
  ' (h, dy) <- h_mul1p h dy (oview y) b s ;;
  ' (h, dy) <- h_sub_in h dy a ;;
  ' (h, dy) <- h_mul1p h dy (oview dy) (oview inv_b) s ;;
  h_sub_in h y (oview dy).

(** series.h:497-509 *)
Definition h_log_gen (checked : bool) (h : heap) (y : obj) (x : vw) : res (heap * obj) :=
  let n := vknown x in
  if n =? 0 then Ok (h, oset_unknown y) else
  _ <- slow_assert (negb (alias h y x) && negb (vnonzero x =? 0)) ;;
  _ <- (if checked then (v <- hrd h x 0 ;; slow_assert (keqb v k1)) else Ok tt) ;;
  let (h, dx) := alloc h n in
  ' (h, dx) <- h_derivative_shift h dx x 0 ;;
  ' (h, y) <- h_div h y (oview dx) x ;;
  h_integral_shift h y (oview y) 0.
(** series.h:512-523 *)
Definition h_log1p (h : heap) (y : obj) (x : vw) (s : Z) : res (heap * obj) :=
  let n := vknown x in
  if n =? 0 then Ok (h, oset_unknown y) else
  _ <- slow_assert (negb (alias h y x) && (0 <? s)) ;;
  let (h, dx) := alloc h n in
  ' (h, dx) <- h_derivative_shift h dx x s ;;
  ' (h, y) <- h_div1p h y (oview dx) x s ;;
  h_integral_shift h y (oview y) s.

(** series.h:526-555 *)
Definition h_exp_step (checked : bool) (x : vw) (m0 m : Z) (refine : bool) (st : heap * obj * obj)
  : res (heap * obj * obj) :=
  let '(h, y, dy) := st in
  y <- oset_known y m ;;
  ' (h, dy) <- h_log_gen checked h dy (oview y) ;;
  ' (h, dy) <- h_sub_in h dy x ;;
  ' (h, dy) <- h_mul h dy (oview y) (oview dy) ;;
  ' (h, y) <- h_high_sub h y m0 (vhigh (oview dy) m0) ;;
  Ok (h, y, dy).
Definition h_exp_gen (checked : bool) (h : heap) (y : obj) (x : vw) : res (heap * obj) :=
  let n := vknown x in
  if n =? 0 then Ok (h, oset_unknown y) else
  _ <- slow_assert (negb (alias h y x)) ;;
  _ <- (if checked && negb (vnonzero x =? 0)
        then (v <- hrd h x 0 ;; slow_assert (keqb v k0)) else Ok tt) ;;
  ' (h, y) <- h_base (exp_base base) h y x ;;
  let (h, dy) := alloc h n in
  ' (h, y, _) <- newton_iterate (oknown y) n (h_exp_step checked x) (h, y, dy) ;;
  Ok (h, y).
Definition h_log := h_log_gen true.
Definition h_exp := h_exp_gen true.

(** series.h:558-597 *)
Definition h_expm1_step (x : vw) (a s : Z) (m0 m : Z) (refine : bool) (st : heap * obj * obj)
  : res (heap * obj * obj) :=
  let '(h, y, dy) := st in
  y <- oset_known y m ;;
  ' (h, dy) <- h_log1p h dy (oview y) s ;;
  ' (h, dy) <- (if 0 <? a then h_sub_in h dy x else h_add_in h dy x) ;;
  ' (h, dy) <- h_mul1p h dy (oview dy) (oview y) s ;;
  ' (h, y) <- h_high_sub h y m0 (vhigh (oview dy) m0) ;;
  Ok (h, y, dy).
Definition h_expm1 (h : heap) (y : obj) (x : vw) (a s : Z) : res (heap * obj) :=
  _ <- slow_assert (negb (alias h y x) && (Z.abs a =? 1) && (0 <? s)) ;;
  let n := vknown x in
  ' (h, y) <- (if 0 <? a then h_assign h y (vlow x s) else h_neg h y (vlow x s)) ;;
  let (h, dy) := alloc h n in
  ' (h, y, _) <- newton_iterate (oknown y) n (h_expm1_step x a s) (h, y, dy) ;;
  Ok (h, y).

(** series.h:600-637 *)
Definition h_log1p_exp_step (x : vw) (s : Z) (m0 m : Z) (refine : bool) (st : heap * obj * obj * obj)
  : res (heap * obj * obj * obj) :=
  let '(h, y, ndy, t) := st in
  y <- oset_known y m ;;
  ' (h, t) <- h_assign h t (vlow x m) ;;
  ' (h, t) <- h_high_sub h t s (oview y) ;;
  ' (h, ndy) <- h_exp h ndy (oview t) ;;
  ' (h, t) <- h_expm1 h t (oview y) (-1) s ;;
  ' (h, ndy) <- h_add_in h ndy (oview t) ;;
  ' (h, y) <- h_high_add h y m0 (vhigh (oview ndy) m0) ;;
  Ok (h, y, ndy, t).
Definition h_log1p_exp (h : heap) (y : obj) (x : vw) (s : Z) : res (heap * obj) :=
  let n := vknown x in
  if n =? 0 then Ok (h, oset_unknown y) else
  _ <- slow_assert (negb (alias h y x) && (0 <? s)) ;;
  ' (h, y) <- h_exp h y (vlow x s) ;;
  let (h, ndy) := alloc h n in
  let (h, t) := alloc h n in
  ' (h, y, _, _) <- newton_iterate (oknown y) n (h_log1p_exp_step x s) (h, y, ndy, t) ;;
  Ok (h, y).

End Alias.
