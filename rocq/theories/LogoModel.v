(** * Model of logo.cc: colours, the canvas, rendering and the bytes of the image

    Coordinates and colours are doubles in the code and rational numbers here (exact arithmetic);
    integer arithmetic and conversions to int are those of the code.  An array cell that was never
    written is [None], and reading it is undefined: [Array] allocates with malloc (array.h:38-44).
    The generator of sample points (mt19937, logo.cc:78-79) is an arbitrary stream of numbers.
    What is not modelled: libpng, fopen, the printing, and logo() and main() themselves. *)
From Coq Require Import ZArith QArith Qround List Bool.
From Verif Require Import Base LoopsModel.
Import ListNotations.
Open Scope Z_scope.

(** logo.cc:15-16: red, green, blue, alpha. *)
Record color := mkC { red : Q; green : Q; blue : Q; alpha : Q }.
Definition clear : color := mkC 0 0 0 0.

(** logo.cc:25-36. *)
Definition over (a b : color) : color :=
  let sa := alpha a in
  let sb := ((1 - sa) * alpha b)%Q in
  let s := (sa + sb)%Q in
  let inv_s := if Qeq_bool s 0 then 0%Q else (1 / s)%Q in
  let mix x y := (inv_s * (sa * x + sb * y))%Q in
  mkC (mix (red a) (red b)) (mix (green a) (green b)) (mix (blue a) (blue b)) s.

(** logo.cc:39-44: the weighted sum, with the sum of the weights as alpha. *)
Definition color_sum (cs : list color) : color :=
  fold_left (fun sum c =>
    mkC (red sum + red c * alpha c) (green sum + green c * alpha c)
        (blue sum + blue c * alpha c) (alpha sum + alpha c))%Q cs clear.
(** logo.cc:38-51. *)
Definition average (cs : list color) : color :=
  let sum := color_sum cs in
  let scale := if Qeq_bool (alpha sum) 0 then 0%Q else (1 / alpha sum)%Q in
  mkC (scale * red sum) (scale * green sum) (scale * blue sum)
      (alpha sum / inject_Z (Z.of_nat (length cs))).

(** logo.cc:18-23. *)
Definition point : Type := Q * Q.
Record box := mkB { lo : point; hi : point }.

(** Conversion of a whole number in a double to int, and int arithmetic: undefined out of range. *)
Definition as_int (z : Z) : res Z :=
  if (- 2 ^ 31 <=? z) && (z <? 2 ^ 31) then Ok z else UB.

(** logo.cc:53-58.  The arrays are separate arguments below. *)
Record canvas := mkCanvas {
  cbox : box; dx : Q; inv_dx : Q; width : Z; height : Z; samples : Z }.

(** logo.cc:95-97. *)
Definition index (c : canvas) (i j s : Z) : res Z :=
  a <- as_int (i * height c) ;;
  b <- as_int (a + j) ;;
  d <- as_int (b * samples c) ;;
  as_int (d + s).

(** Array access: out of bounds and uninitialised reads are undefined. *)
Definition get {A} (l : list (option A)) (i : Z) : res A :=
  if i <? 0 then UB
  else match nth_error l (Z.to_nat i) with Some (Some a) => Ok a | _ => UB end.
Definition put {A} (l : list (option A)) (i : Z) (a : A) : res (list (option A)) :=
  if (i <? 0) || (Z.of_nat (length l) <=? i) then UB
  else Ok (set_nth l (Z.to_nat i) (Some a)).

(** The indices of [for (int i = a; i < b; i++)]. *)
Definition range (a b : Z) : list Z := map (fun k => a + Z.of_nat k) (seq 0 (Z.to_nat (b - a))).
(** The triples visited by the three nested loops of logo.cc:80-82 and 107-109. *)
Definition cells (i0 i1 j0 j1 s1 : Z) : list (Z * Z * Z) :=
  flat_map (fun i => flat_map (fun j => map (fun s => (i, j, s)) (range 0 s1)) (range j0 j1))
           (range i0 i1).

(** Run a loop body over the cells, threading the array. *)
Fixpoint for_cells {A} (body : Z -> Z -> Z -> A -> res A) (l : list (Z * Z * Z)) (a : A) : res A :=
  match l with
  | [] => Ok a
  | (i, j, s) :: l =>
      a <- body i j s a ;;
      for_cells body l a
  end.

Definition qmin (a b : Q) : Q := if Qle_bool a b then a else b.

(** logo.cc:63-70: dimensions. *)
Definition make_canvas (b : box) (size samples : Z) : res canvas :=
  let shape := ((fst (hi b) - fst (lo b))%Q, (snd (hi b) - snd (lo b))%Q) in
  let center := (((fst (lo b) + fst (hi b)) / 2)%Q, ((snd (lo b) + snd (hi b)) / 2)%Q) in
  let dx := (qmin (fst shape) (snd shape) / inject_Z size)%Q in
  let inv_dx := (1 / dx)%Q in
  width <- as_int (Qceiling (inv_dx * fst shape)) ;;
  height <- as_int (Qceiling (inv_dx * snd shape)) ;;
  let h := ((dx / 2 * inject_Z width)%Q, (dx / 2 * inject_Z height)%Q) in
  Ok (mkCanvas (mkB ((fst center - fst h)%Q, (snd center - snd h)%Q)
                    ((fst center + fst h)%Q, (snd center + snd h)%Q))
               dx inv_dx width height samples).

(** [width * height * samples] in int, as an array size. *)
Definition array_size (c : canvas) : res Z :=
  a <- as_int (width c * height c) ;;
  as_int (a * samples c).

(** logo.cc:76-89: sample points.  [uniform] is the stream of random numbers; the state holds how
    many were used and the array. *)
Definition sample_body (c : canvas) (uniform : nat -> Q) (i j s : Z)
    (st : nat * list (option point)) : res (nat * list (option point)) :=
  let '(n, points) := st in
  let lox := (fst (lo (cbox c)) + dx c * inject_Z i)%Q in
  let loy := (snd (lo (cbox c)) + dx c * inject_Z j)%Q in
  let x := (lox + dx c * uniform n)%Q in
  let y := (loy + dx c * uniform (S n))%Q in
  I <- index c i j s ;;
  points <- put points I (x, y) ;;
  Ok (S (S n), points).
Definition make_points (c : canvas) (uniform : nat -> Q) : res (list (option point)) :=
  n <- array_size c ;;
  r <- for_cells (sample_body c uniform) (cells 0 (width c) 0 (height c) (samples c))
         (0%nat, repeat None (Z.to_nat n)) ;;
  Ok (snd r).
(** logo.cc:91-92: the colours are allocated but not written. *)
Definition make_colors (c : canvas) : res (list (option color)) :=
  n <- array_size c ;;
  Ok (repeat None (Z.to_nat n)).

(** logo.cc:101-106: the pixels that a box may touch. *)
Definition pixel_range (c : canvas) (b : box) : res (Z * Z * Z * Z) :=
  i0 <- as_int (Qfloor (inv_dx c * (fst (lo b) - fst (lo (cbox c))))) ;;
  j0 <- as_int (Qfloor (inv_dx c * (snd (lo b) - snd (lo (cbox c))))) ;;
  i1 <- as_int (Qfloor (inv_dx c * (fst (hi b) - fst (lo (cbox c))))) ;;
  i1 <- as_int (1 + i1) ;;
  j1 <- as_int (Qfloor (inv_dx c * (snd (hi b) - snd (lo (cbox c))))) ;;
  j1 <- as_int (1 + j1) ;;
  Ok (Z.max 0 i0, Z.min (width c) i1, Z.max 0 j0, Z.min (height c) j1).

(** logo.cc:110-113. *)
Definition render_body (c : canvas) (points : list (option point)) (f : point -> color) (i j s : Z)
    (colors : list (option color)) : res (list (option color)) :=
  I <- index c i j s ;;
  z <- get points I ;;
  old <- get colors I ;;
  put colors I (over (f z) old).
(** logo.cc:99-117. *)
Definition render (c : canvas) (points : list (option point)) (b : box) (f : point -> color)
    (colors : list (option color)) : res (list (option color)) :=
  ' (i0, i1, j0, j1) <- pixel_range c b ;;
  for_cells (render_body c points f) (cells i0 i1 j0 j1 (samples c)) colors.

(** logo.cc:119-125. *)
Definition sqr_dist (z w : point) : Q :=
  ((fst z - fst w) * (fst z - fst w) + (snd z - snd w) * (snd z - snd w))%Q.
Definition circle (c : canvas) (points : list (option point)) (center : point) (radius : Q) (col : color)
    (colors : list (option color)) : res (list (option color)) :=
  render c points
    (mkB ((fst center - radius)%Q, (snd center - radius)%Q) ((fst center + radius)%Q, (snd center + radius)%Q))
    (fun z => if Qle_bool (sqr_dist z center) (radius * radius) then col else clear) colors.

(** logo.cc:138-147: two loops, each writing two cells per round. *)
Definition set2 (c : canvas) (i j i' j' : Z) (col : color) (s : Z) (colors : list (option color))
  : res (list (option color)) :=
  I <- index c i' j' s ;;
  colors <- put colors I col ;;
  I <- index c i j s ;;
  put colors I col.
Definition border (c : canvas) (col : color) (colors : list (option color)) : res (list (option color)) :=
  _ <- slow_assert (negb (width c =? 0) && negb (height c =? 0)) ;;
  colors <- for_cells (fun i _ s => set2 c i 0 i (height c - 1) col s)
              (cells 0 (width c) 0 1 (samples c)) colors ;;
  for_cells (fun j _ s => set2 c 0 j (width c - 1) j col s)
    (cells 0 (height c) 0 1 (samples c)) colors.

(** rint: to the nearest whole number, ties to even. *)
Definition rint (q : Q) : Z :=
  let f := Qfloor q in
  match Qcompare (q - inject_Z f) (1 # 2) with
  | Lt => f
  | Gt => f + 1
  | Eq => if Z.even f then f else f + 1
  end.
(** logo.cc:164. *)
Definition byte (q : Q) : res Z :=
  b <- as_int (rint (255 * q)) ;;
  Ok (Z.max 0 (Z.min 255 b)).

Fixpoint all_ok {A} (l : list (res A)) : res (list A) :=
  match l with
  | [] => Ok []
  | r :: l => a <- r ;; t <- all_ok l ;; Ok (a :: t)
  end.

(** logo.cc:162-164: the four bytes of a pixel. *)
Definition pixel (c : canvas) (colors : list (option color)) (i j : Z) : res (list Z) :=
  I <- index c i j 0 ;;
  cs <- all_ok (map (fun s => get colors (I + s)) (range 0 (samples c))) ;;
  let m := average cs in
  all_ok [byte (red m); byte (green m); byte (blue m); byte (alpha m)].
(** logo.cc:159-167: the rows handed to libpng, four bytes per pixel. *)
Definition write_rows (c : canvas) (colors : list (option color)) : res (list (list Z)) :=
  all_ok (map (fun j =>
    r <- all_ok (map (fun i => pixel c colors i j) (range 0 (width c))) ;;
    Ok (concat r)) (range 0 (height c))).
