(** Model of fft.cc and of the butterflies generated by codelets.cc.

    Scalars are exact: [ops] packs the scalar operations, sqrt(1/2) and the roots of
    unity (the tables of fft.cc:36-78 hold the exact values; their rounding is the
    subject of nearest.cc).  Arrays are lists; every access is checked and an access
    outside the array or table is [UB].  Uninitialised buffers have arbitrary content
    ([junk]).  Indices are exact naturals: the int arithmetic of the loop bodies does not
    overflow below 2^30 points.  Loop bodies run in an arbitrary order given by [ord]
    (loops.h:38-51: increasing on the host, any order on the device).
    The generated loop bodies appear as the butterflies they implement; C71 relates the
    statements the generator writes to them. *)
From Coq Require Import ZArith List Bool Lia.
From Verif Require Import Base SeriesModel.
Import ListNotations.
Open Scope Z_scope.

Record ops := {
  A : Type; z0 : A; z1 : A;
  add : A -> A -> A; sub : A -> A -> A; mul : A -> A -> A; opp : A -> A;
  inv : A -> A; half : A -> A;
  sh : A;                      (* nearest_sqrt(1,2) *)
  root : nat -> Z -> A * A     (* root s j = exp(2 pi i j / 2^s): nearest_twiddle(j, 1 << s) *)
}.

Section FFT.
Variable o : ops.
Notation A := (A o).
Notation C := (FFTModel.A o * FFTModel.A o)%type.
Notation z0 := (z0 o).
Notation z1 := (z1 o).
Notation add := (add o).
Notation sub := (sub o).
Notation mul := (mul o).
Notation opp := (opp o).
Notation sh := (sh o).
Notation root := (root o).

(** ** complex.h *)
Definition c0 : C := (z0, z0).
(** complex.h:26-28 *)
Definition cadd (a b : C) : C := (add (fst a) (fst b), add (snd a) (snd b)).
Definition csub (a b : C) : C := (sub (fst a) (fst b), sub (snd a) (snd b)).
Definition cmul (a b : C) : C :=
  (sub (mul (fst a) (fst b)) (mul (snd a) (snd b)), add (mul (fst a) (snd b)) (mul (snd a) (fst b))).
(** complex.h:29 *)
Definition cscale (a : A) (z : C) : C := (mul a (fst z), mul a (snd z)).
(** complex.h:30; sqr(x) = x*x and twice(x) = x+x in exact arithmetic (arith.h). *)
Definition csqr (z : C) : C :=
  let t := mul (fst z) (snd z) in (sub (mul (fst z) (fst z)) (mul (snd z) (snd z)), add t t).
(** complex.h:31-35 *)
Definition conj (z : C) : C := (fst z, opp (snd z)).
Definition left (z : C) : C := (opp (snd z), fst z).
Definition right (z : C) : C := (snd z, opp (fst z)).
Definition ctwice (z : C) : C := (add (fst z) (fst z), add (snd z) (snd z)).
Definition chalf (z : C) : C := (half o (fst z), half o (snd z)).
(** complex.h:50-54 [diag<1>], [diag<-1>] *)
Definition diagp (a : A) (z : C) : C := cscale a (sub (fst z) (snd z), add (snd z) (fst z)).
Definition diagm (a : A) (z : C) : C := cscale a (add (fst z) (snd z), sub (snd z) (fst z)).

(** ** Array access *)
Definition aget {X} (l : list X) (i : nat) : res X :=
  match nth_error l i with Some v => Ok v | None => UB end.
Fixpoint upd {X} (l : list X) (i : nat) (v : X) : list X :=
  match l, i with
  | [], _ => []
  | _ :: t, O => v :: t
  | h :: t, S k => h :: upd t k v
  end.
Definition aset {X} (l : list X) (i : nat) (v : X) : res (list X) :=
  if (i <? length l)%nat then Ok (upd l i v) else UB.
Fixpoint gets {X} (l : list X) (is : list nat) : res (list X) :=
  match is with
  | [] => Ok []
  | i :: t => v <- aget l i ;; r <- gets l t ;; Ok (v :: r)
  end.
Fixpoint sets {X} (l : list X) (is : list nat) (vs : list X) : res (list X) :=
  match is, vs with
  | [], [] => Ok l
  | i :: t, v :: vt => l1 <- aset l i v ;; sets l1 t vt
  | _, _ => UB
  end.

(** ** Element loops (loops.h:38-51); the count is an int64_t passed as an int. *)
Variable ord : Z -> list nat.
Fixpoint run {Y} (l : list nat) (body : nat -> Y -> res Y) (y : Y) : res Y :=
  match l with
  | [] => Ok y
  | i :: t => y1 <- body i y ;; run t body y1
  end.
Definition def_loop {Y} (n : nat) (body : nat -> Y -> res Y) (y : Y) : res Y :=
  if Z.of_nat n =? 0 then Ok y else run (ord (to_i32 (Z.of_nat n))) body y.

(** ** Twiddle tables *)
(** fft.cc:36-41 [twiddle_slice]: m/4+1 entries; [twiddle(j, 2m)] for m = 1 << s. *)
Definition table_get (s : nat) (j : Z) : res C :=
  if (0 <=? j) && (j <? 2 ^ Z.of_nat s / 4 + 1) then Ok (root (S s) j) else UB.
(** fft.cc:94-113 [TwiddleSlice::operator()] with m = 1 << s (82-85). *)
Definition slice (s : nat) (j : Z) : res C :=
  let m := 2 ^ Z.of_nat s in
  let j := Z.land j (2 * m - 1) in
  let iflip := m <? j in
  let j := if iflip then 2 * m - j else j in
  let rflip := m / 2 <? j in
  let j := if rflip then m - j else j in
  let dflip := m / 4 <? j in
  let j := if dflip then m / 2 - j else j in
  t <- table_get s j ;;
  let t := if dflip then (snd t, fst t) else t in
  let t := if rflip then (opp (fst t), snd t) else t in
  let t := if iflip then (fst t, opp (snd t)) else t in
  Ok t.
(** fft.cc:44, 69-78: the table [few] has s_limit * j_limit = 30 * 4 entries. *)
Definition few_get (i : Z) : res C :=
  if (0 <=? i) && (i <? 30 * 4) then Ok (root (S (Z.to_nat (i / 4))) (i mod 4)) else UB.
(** fft.cc:87-90 [big_slice], 115-124 [BigTwiddleSlice::operator()]. *)
Definition big_slice (s : nat) (j : Z) : res C :=
  _ <- slow_assert (2 <=? s)%nat ;;
  t <- slice (s - 2) (Z.shiftr j 2) ;;
  f <- few_get (4 * Z.of_nat s + Z.land j 3) ;;
  Ok (cmul t f).

(** ** Bit reversal *)
(** bit.h:23-27: the low w bits of x in reverse order. *)
Fixpoint bitreverse (w : nat) (x : Z) : Z :=
  match w with
  | O => 0
  | S w1 => 2 ^ Z.of_nat w1 * (x mod 2) + bitreverse w1 (x / 2)
  end.
(** fft.cc:136-145 [bitrev].  Shifting a 64-bit value by 64 is UB. *)
Definition bitrev_body {X} (np : Z) (i : nat) (y : list X) : res (list X) :=
  if 64 <=? np then UB else
  let j := Z.to_nat (bitreverse 64 (Z.of_nat i) / 2 ^ np) in
  if (i <? j)%nat then v <- gets y [i; j] ;; sets y [j; i] v else Ok y.
Definition bitrev {X} (y : list X) : res (list X) :=
  let n := length y in
  let p := countr_zero64 (Z.of_nat n) in
  run (seq 0 n) (bitrev_body (64 - p)) y.
(** fft.cc:149-156 [reverses], 157-164 [unreverses].  [fuel] bounds the depth; the length
    is always enough. *)
Fixpoint reverses_ {X} (fuel : nat) (y : list X) : list X :=
  match fuel with
  | O => y
  | S f =>
      let n := length y in
      if (n <=? 2)%nat then y else
      let h := (n / 2)%nat in
      reverses_ f (firstn h y) ++ rev (reverses_ f (firstn h (skipn h y)) ++ skipn (2 * h) y)
  end.
Definition reverses {X} (y : list X) := reverses_ (length y) y.
Fixpoint unreverses_ {X} (fuel : nat) (y : list X) : list X :=
  match fuel with
  | O => y
  | S f =>
      let n := length y in
      if (n <=? 2)%nat then y else
      let h := (n / 2)%nat in
      let z := rev (skipn h y) in
      unreverses_ f (firstn h y) ++ unreverses_ f (firstn h z) ++ skipn h z
  end.
Definition unreverses {X} (y : list X) := unreverses_ (length y) y.
(** fft.cc:165-172 *)
Definition shifted_permute {X} (y : list X) : res (list X) := y <- bitrev y ;; Ok (reverses y).
Definition shifted_unpermute {X} (y : list X) : res (list X) := bitrev (unreverses y).

(** ** Complex FFT *)
(** y.data() reinterpreted as an array of 2n scalars. *)
Definition set_real (y : list C) (i : nat) (v : A) : res (list C) :=
  c <- aget y (i / 2) ;;
  aset y (i / 2) (if Nat.even i then (v, snd c) else (fst c, v)).
Definition get_real (y : list C) (i : nat) : res A :=
  c <- aget y (i / 2) ;; Ok (if Nat.even i then fst c else snd c).
(** fft.cc:174-175 *)
Definition fft_butterfly_0 (x : list A) (i : nat) (y : list C) : res (list C) :=
  v <- (if (i <? length x)%nat then aget x i else Ok z0) ;; set_real y i v.
(** fft.cc:177-186 *)
Definition fft_pair (t : C) (v : list C) : res (list C) :=
  match v with
  | [y0; y1] => Ok [cadd y0 y1; cmul (csub y0 y1) (conj t)]
  | _ => UB
  end.
Definition pair_idx (s jk : nat) : list nat :=
  let m := (2 ^ s)%nat in
  let j := Nat.land jk (m - 1) in
  let k := ((jk - j) * 2)%nat in
  [(k + j)%nat; (k + j + m)%nat].
Definition fft_butterfly_s (s jk : nat) (y : list C) : res (list C) :=
  let j := Nat.land jk (2 ^ s - 1) in
  v <- gets y (pair_idx s jk) ;;
  t <- slice s (Z.of_nat j) ;;
  w <- fft_pair t v ;;
  sets y (pair_idx s jk) w.
(** fft.cc:210-219 *)
Definition ifft_pair (t : C) (v : list C) : res (list C) :=
  match v with
  | [y0; y1] => let u1 := cmul y1 t in Ok [cadd y0 u1; csub y0 u1]
  | _ => UB
  end.
Definition ifft_butterfly_s (s jk : nat) (y : list C) : res (list C) :=
  let j := Nat.land jk (2 ^ s - 1) in
  v <- gets y (pair_idx s jk) ;;
  t <- slice s (Z.of_nat j) ;;
  w <- ifft_pair t v ;;
  sets y (pair_idx s jk) w.
(** The loops over s of fft.cc:202-204 and 231-233. *)
Fixpoint over {Y} (l : list nat) (pass : nat -> Y -> res Y) (y : Y) : res Y :=
  match l with
  | [] => Ok y
  | s :: t => y1 <- pass s y ;; over t pass y1
  end.
(** fft.cc:189-205 *)
Definition fft_bitrev (y : list C) (x : list A) : res (list C) :=
  let n := length y in
  if (n =? 0)%nat then Ok y else
  let p := countr_zero64 (Z.of_nat n) in
  _ <- slow_assert ((Z.of_nat n =? 2 ^ p) && (length x <=? 2 * n)%nat) ;;
  y <- def_loop (2 * n) (fft_butterfly_0 x) y ;;
  over (rev (seq 0 (Z.to_nat p))) (fun s => def_loop (n / 2) (fft_butterfly_s s)) y.
(** fft.cc:207-208 *)
Definition ifft_butterfly_0 (y : list C) (i : nat) (x : list A) : res (list A) :=
  v <- get_real y i ;; aset x i v.
(** fft.cc:222-238 *)
Definition ifft_bitrev (x : list A) (y : list C) : res (list A * list C) :=
  let n := length y in
  if (n =? 0)%nat then Ok (x, y) else
  let p := countr_zero64 (Z.of_nat n) in
  _ <- slow_assert ((Z.of_nat n =? 2 ^ p) && (length x <=? 2 * n)%nat) ;;
  y <- over (seq 0 (Z.to_nat p)) (fun s => def_loop (n / 2) (ifft_butterfly_s s)) y ;;
  x <- def_loop (length x) (ifft_butterfly_0 y) x ;;
  Ok (x, y).
(** fft.cc:240-248 *)
Definition fft (y : list C) (x : list A) : res (list C) := y <- fft_bitrev y x ;; bitrev y.
Definition ifft (x : list A) (y : list C) : res (list A * list C) := y <- bitrev y ;; ifft_bitrev x y.

(** ** Real FFT *)
(** fft.cc:251-253; 1 << (31 - countl_zero(i)) is the highest power of two in i. *)
Definition bitrev_neg (i : nat) : nat :=
  if (i =? 0)%nat then 0%nat else Nat.lxor i (2 ^ Nat.log2 i - 1).
(** fft.cc:255-257 *)
Definition rfft_post_n2 (y : list C) : res (list C) :=
  a <- aget y 0 ;; aset y 0 (add (fst a) (snd a), sub (fst a) (snd a)).
Definition rfft_idx (j : nat) : list nat := [(2 * j)%nat; if (j =? 0)%nat then 1%nat else bitrev_neg (2 * j)].
(** fft.cc:259-277; [p] is log2 of the number of reals. *)
Definition rfft_pair (p j : nat) (v : list C) : res (list C) :=
  match v with
  | [a; b] =>
      if (j =? 0)%nat then Ok [(add (fst a) (snd a), sub (fst a) (snd a)); conj b]
      else
        let i := bitreverse 32 (Z.of_nat j) / 2 ^ (34 - Z.of_nat p) in
        t <- slice (p - 1) i ;;
        let e := left (conj t) in
        let u := cadd a (conj b) in
        let v := cmul e (csub a (conj b)) in
        Ok [chalf (csub u v); chalf (conj (cadd u v))]
  | _ => UB
  end.
Definition rfft_post (p j : nat) (y : list C) : res (list C) :=
  v <- gets y (rfft_idx j) ;; w <- rfft_pair p j v ;; sets y (rfft_idx j) w.
(** fft.cc:279-298 *)
Definition irfft_pair (p j : nat) (v : list C) : res (list C) :=
  match v with
  | [s; t] =>
      if (j =? 0)%nat then Ok [(add (fst s) (snd s), sub (fst s) (snd s)); ctwice (conj t)]
      else
        let i := bitreverse 32 (Z.of_nat j) / 2 ^ (34 - Z.of_nat p) in
        w <- slice (p - 1) i ;;
        let e := right w in
        let u := cadd (conj t) s in
        let v := cmul e (csub (conj t) s) in
        Ok [cadd u v; conj (csub u v)]
  | _ => UB
  end.
Definition irfft_pre (p j : nat) (y : list C) : res (list C) :=
  v <- gets y (rfft_idx j) ;; w <- irfft_pair p j v ;; sets y (rfft_idx j) w.
(** fft.cc:300-316 *)
Definition rfft_bitrev (y : list C) (x : list A) : res (list C) :=
  let n := (2 * length y)%nat in
  if (n =? 0)%nat then Ok y else
  let p := Z.to_nat (countr_zero64 (Z.of_nat n)) in
  y <- fft_bitrev y x ;;
  if (p =? 1)%nat then rfft_post_n2 y else def_loop (n / 4) (rfft_post p) y.
(** fft.cc:318-334 *)
Definition irfft_bitrev (x : list A) (y : list C) : res (list A * list C) :=
  let n := (2 * length y)%nat in
  if (n =? 0)%nat then Ok (x, y) else
  let p := Z.to_nat (countr_zero64 (Z.of_nat n)) in
  y <- (if (p =? 1)%nat then rfft_post_n2 y else def_loop (n / 4) (irfft_pre p) y) ;;
  ifft_bitrev x y.
(** fft.cc:336-344 *)
Definition rfft (y : list C) (x : list A) : res (list C) := y <- rfft_bitrev y x ;; bitrev y.
Definition irfft (x : list A) (y : list C) : res (list A * list C) := y <- bitrev y ;; irfft_bitrev x y.

(** ** Shifted real FFT butterflies (codelets.cc) *)
(** codelets.cc:668-670 *)
Definition bfly_0 (x0 x1 : A) : C := (x0, opp x1).
(** codelets.cc:674-679 *)
Definition bfly_1 (tw : Z -> res C) (j : Z) (y0 y1 : C) : res (C * C) :=
  let zz := diagm sh y1 in
  t1 <- tw j ;;
  t3 <- tw (3 * j) ;;
  Ok (cmul (conj t1) (cadd y0 zz), conj (cmul t3 (csub y0 zz))).
(** codelets.cc:682-686 *)
Definition bfly_s1 (tw : Z -> res C) (j : Z) (y0 y1 : C) : res (C * C) :=
  t <- tw j ;; Ok (cadd y0 y1, conj (cmul t (csub y0 y1))).
(** codelets.cc:689-704 *)
Definition bfly_s2 (tw : Z -> res C) (j : Z) (v : list C) : res (list C) :=
  match v with
  | [y0; y1; y2; y3] =>
      w1 <- tw j ;;
      w2 <- tw (2 * j) ;;
      let u0 := cadd y0 y2 in
      let u1 := cadd y1 y3 in
      let t0 := csub y0 y2 in
      let t1 := csub y1 y3 in
      Ok [cadd u0 u1; conj (cmul w2 (csub u0 u1)); conj (cmul w1 (cadd t0 (left t1)));
          cmul (conj w1) (csub t0 (left t1))]
  | _ => UB
  end.
(** codelets.cc:707-742 *)
Definition bfly_s3 (tw : Z -> res C) (j : Z) (v : list C) : res (list C) :=
  match v with
  | [y0; y1; y2; y3; y4; y5; y6; y7] =>
      w1 <- tw j ;;
      w2 <- tw (2 * j) ;;
      w3 <- tw (3 * j) ;;
      w4 <- tw (4 * j) ;;
      let u0 := cadd y0 y4 in let u1 := cadd y1 y5 in let u2 := cadd y2 y6 in let u3 := cadd y3 y7 in
      let t0 := csub y0 y4 in let t1 := csub y1 y5 in let t2 := csub y2 y6 in let t3 := csub y3 y7 in
      let b0 := cadd u0 u2 in
      let b1 := cadd u1 u3 in
      let b2 := cadd t0 (left t2) in
      let b3 := diagp sh (cadd t1 (left t3)) in
      let d0 := csub u0 u2 in
      let d1 := csub u1 u3 in
      let d2 := csub t0 (left t2) in
      let d3 := diagm sh (csub t1 (left t3)) in
      Ok [cadd b0 b1; conj (cmul w4 (csub b0 b1));
          conj (cmul w2 (cadd d0 (left d1))); cmul (conj w2) (csub d0 (left d1));
          conj (cmul w1 (cadd b2 b3)); cmul (conj w3) (csub b2 b3);
          cmul (conj w1) (cadd d2 d3); conj (cmul w3 (csub d2 d3))]
  | _ => UB
  end.
(** codelets.cc:817-823: the radix 2^r butterfly as a map on lists. *)
Definition bfly_s (r : nat) (tw : Z -> res C) (j : Z) (v : list C) : res (list C) :=
  match r with
  | 1%nat => match v with
             | [y0; y1] => ' p <- bfly_s1 tw j y0 y1 ;; Ok [fst p; snd p]
             | _ => UB
             end
  | 2%nat => bfly_s2 tw j v
  | 3%nat => bfly_s3 tw j v
  | _ => UB
  end.
(** codelets.cc:754-795 for r = 1, 2, 3: the first r levels, on 2^r real inputs.
    [j] is the loop index and [nr] the number of iterations. *)
Definition bfly_01s (r : nat) (tw : Z -> res C) (j nr : Z) (x : list A) : res (list C) :=
  match r, x with
  | 1%nat, [x0; x1] => Ok [bfly_0 x0 x1]
  | 2%nat, [x0; x1; x2; x3] =>
      let y0 := bfly_0 x0 x2 in
      let y1 := bfly_0 x1 x3 in
      ' p <- bfly_1 tw j y0 y1 ;; Ok [fst p; snd p]
  | 3%nat, [x0; x1; x2; x3; x4; x5; x6; x7] =>
      let y0 := bfly_0 x0 x4 in
      let y1 := bfly_0 x1 x5 in
      let y2 := bfly_0 x2 x6 in
      let y3 := bfly_0 x3 x7 in
      ' p <- bfly_1 tw j y0 y2 ;;
      ' q <- bfly_1 tw (j + nr) y1 y3 ;;
      let tw3 := fun j => tw (8 * j) in
      ' a <- bfly_s1 tw3 j (fst p) (fst q) ;;
      ' b <- bfly_s1 tw3 j (snd p) (snd q) ;;
      Ok [fst a; snd a; fst b; snd b]
  | _, _ => UB
  end.
(** codelets.cc:576-586 [constant_twiddle], for j = 0, the only value used. *)
Definition const_tw (s : nat) (j : Z) : res C :=
  _ <- slow_assert ((s =? 1) || (s =? 2) || (s =? 3))%nat ;; Ok (root (S s) j).

(** codelets.cc:496-546, 606-613: the backward pass is the symbolic gradient of
    sum_o u_o * (forward x)_o with respect to the real inputs.  The forward maps are
    linear, so component i is the value at the i-th unit vector (see C61 for the graph
    algorithm). *)
Definition dotc (w u : list C) : A :=
  fold_right (fun p acc => add (add (mul (fst (fst p)) (fst (snd p))) (mul (snd (fst p)) (snd (snd p)))) acc) z0 (combine w u).
Definition unit_at {X} (zero one : X) (n i : nat) : list X :=
  map (fun k => if (k =? i)%nat then one else zero) (seq 0 n).
Fixpoint mapr {X Y} (f : X -> res Y) (l : list X) : res (list Y) :=
  match l with
  | [] => Ok []
  | x :: t => y <- f x ;; r <- mapr f t ;; Ok (y :: r)
  end.
Definition transpose_c (n : nat) (f : list C -> res (list C)) (u : list C) : res (list C) :=
  mapr (fun i => wr <- f (unit_at c0 (z1, z0) n i) ;; wi <- f (unit_at c0 (z0, z1) n i) ;;
                 Ok (dotc wr u, dotc wi u)) (seq 0 n).
Definition transpose_r (n : nat) (f : list A -> res (list C)) (u : list C) : res (list A) :=
  mapr (fun i => w <- f (unit_at z0 z1 n i) ;; Ok (dotc w u)) (seq 0 n).

(** codelets.cc:803-826: one iteration of the radix 2^r loops, forward and inverse.
    [s] is the argument of that name, m = 1 << s. *)
Definition radix_idx (r s j : nat) : list nat :=
  let m := (2 ^ s)%nat in
  let j1 := Nat.land j (m - 1) in
  let j0 := ((j - j1) * 2 ^ r)%nat in
  map (fun i => (j0 + j1 + i * m)%nat) (seq 0 (2 ^ r)).
Definition srfft_s (r : nat) (tw : Z -> res C) (s j : nat) (y : list C) : res (list C) :=
  let j1 := Z.of_nat (Nat.land j (2 ^ s - 1)) in
  v <- gets y (radix_idx r s j) ;; w <- bfly_s r tw j1 v ;; sets y (radix_idx r s j) w.
Definition isrfft_s (r : nat) (tw : Z -> res C) (s j : nat) (y : list C) : res (list C) :=
  let j1 := Z.of_nat (Nat.land j (2 ^ s - 1)) in
  v <- gets y (radix_idx r s j) ;; w <- transpose_c (2 ^ r) (bfly_s r tw j1) v ;; sets y (radix_idx r s j) w.

(** codelets.cc:467-480: guarded access to the real array. *)
Definition getx (x : list A) (i : nat) : res A := if (i <? length x)%nat then aget x i else Ok z0.
Definition setx (op : bool) (x : list A) (i : nat) (v : A) : res (list A) :=
  if (i <? length x)%nat then
    o <- aget x i ;; aset x i (if op then add o v else v)
  else Ok x.
Fixpoint setxs (op : bool) (x : list A) (is : list nat) (vs : list A) : res (list A) :=
  match is, vs with
  | [], [] => Ok x
  | i :: t, v :: vt => x1 <- setx op x i v ;; setxs op x1 t vt
  | _, _ => UB
  end.
Definition stride (k j nr : nat) : list nat := map (fun i => (j + i * nr)%nat) (seq 0 k).
(** codelets.cc:754-795: srfft_butterfly_0, _01, _012 and their inverses, with [nr]
    iterations of which this is number [j]. *)
Definition srfft_first (r : nat) (tw : Z -> res C) (nr : nat) (x : list A) (j : nat) (y : list C) : res (list C) :=
  v <- mapr (getx x) (stride (2 ^ r) j nr) ;;
  w <- bfly_01s r tw (Z.of_nat j) (Z.of_nat nr) v ;;
  sets y (stride (2 ^ r / 2) j nr) w.
Definition isrfft_last (op : bool) (r : nat) (tw : Z -> res C) (nr : nat) (y : list C) (j : nat) (x : list A) : res (list A) :=
  v <- gets y (stride (2 ^ r / 2) j nr) ;;
  w <- transpose_r (2 ^ r) (bfly_01s r tw (Z.of_nat j) (Z.of_nat nr)) v ;;
  setxs op x (stride (2 ^ r) j nr) w.

(** fft.cc:364-371; [c] = s+1 is the number of levels left, [n] the number of reals. *)
Fixpoint fwd_passes (n c : nat) (y : list C) : res (list C) :=
  match c with
  | O => Ok y
  | 1%nat => def_loop (n / 4) (srfft_s 1 (slice 0) 0) y
  | 2%nat => def_loop (n / 8) (srfft_s 2 (slice 1) 0) y
  | S (S (S c1)) => y <- def_loop (n / 16) (srfft_s 3 (slice (c1 + 2)) c1) y ;; fwd_passes n c1 y
  end.
(** fft.cc:347-372 [srfft_scramble] *)
Definition srfft_scramble (y : list C) (x : list A) : res (list C) :=
  let n := (2 * length y)%nat in
  if (n =? 0)%nat then Ok y else
  let p := Z.to_nat (countr_zero64 (Z.of_nat n)) in
  _ <- slow_assert ((n =? 2 ^ p)%nat && (length x <=? n)%nat) ;;
  y <- (match p with
        | 1%nat => srfft_first 1 (const_tw 1) 1 x 0 y
        | 2%nat => srfft_first 2 (const_tw 2) 1 x 0 y
        | _ => def_loop (n / 8) (srfft_first 3 (big_slice p) (n / 8) x) y
        end) ;;
  fwd_passes n (p - 3) y.
(** fft.cc:386-390; [fuel] bounds the number of passes. *)
Fixpoint inv_passes (fuel n p s : nat) (y : list C) : res (list C) :=
  if (s <? p - 3)%nat then
    match fuel with
    | O => UB
    | S f =>
      if (s =? 0)%nat && (p mod 3 =? 1)%nat then
        y <- def_loop (n / 4) (isrfft_s 1 (slice 0) 0) y ;; inv_passes f n p (s + 1) y
      else if (s =? 0)%nat && (p mod 3 =? 2)%nat then
        y <- def_loop (n / 8) (isrfft_s 2 (slice 1) 0) y ;; inv_passes f n p (s + 2) y
      else
        y <- def_loop (n / 16) (isrfft_s 3 (slice (s + 2)) s) y ;; inv_passes f n p (s + 3) y
    end
  else Ok y.
(** fft.cc:375-406 [isrfft_scramble] *)
Definition isrfft_scramble (op : bool) (x : list A) (y : list C) : res (list A * list C) :=
  let n := (2 * length y)%nat in
  if (n =? 0)%nat then Ok (x, y) else
  let p := Z.to_nat (countr_zero64 (Z.of_nat n)) in
  _ <- slow_assert ((n =? 2 ^ p)%nat && (length x <=? 2 * n)%nat) ;;
  y <- inv_passes p n p 0 y ;;
  x <- (match p with
        | 1%nat => isrfft_last op 1 (const_tw 1) 1 y 0 x
        | 2%nat => isrfft_last op 2 (const_tw 2) 1 y 0 x
        | _ => def_loop (n / 8) (isrfft_last op 3 (big_slice p) (n / 8) y) x
        end) ;;
  Ok (x, y).
(** fft.cc:408-416 *)
Definition srfft (y : list C) (x : list A) : res (list C) := y <- srfft_scramble y x ;; shifted_permute y.
Definition isrfft (x : list A) (y : list C) : res (list A * list C) := y <- shifted_unpermute y ;; isrfft_scramble false x y.

(** ** Multiplication *)
(** fft.cc:418-422 *)
Definition mul_cwise (fy : list C) (a : A) (i : nat) (fx : list C) : res (list C) :=
  u <- aget fx i ;; v <- aget fy i ;; aset fx i (cmul (cscale a u) v).
Definition sqr_cwise (a : A) (i : nat) (fx : list C) : res (list C) :=
  u <- aget fx i ;; aset fx i (cscale a (csqr u)).

(** codelets.cc:308-369: the generated base cases, n = 8.  Inputs are read first. *)
Definition asum (l : list A) : A := match l with [] => z0 | a :: t => fold_left add t a end.
Definition ext (x : list A) (i : nat) : A := nth i x z0.
Definition mul_coef (x y : list A) (i : nat) : A := asum (map (fun j => mul (ext x j) (ext y (i - j))) (seq 0 (S i))).
Definition sqr_coef (x : list A) (i : nat) : A :=
  let t := asum (map (fun j => mul (ext x j) (ext x (i - j))) (seq 0 ((i + 1) / 2))) in
  let t := mul (add z1 z1) t in
  if Nat.even i then add t (mul (ext x (i / 2)) (ext x (i / 2))) else t.
Fixpoint base_loop (f : nat -> A) (is : list nat) (z : list A) : res (list A) :=
  match is with
  | [] => Ok z
  | i :: t => if (length z <=? i)%nat then Ok z else z <- aset z i (f i) ;; base_loop f t z
  end.
Definition mul_base (z x y : list A) : res (list A) :=
  let x8 := firstn 8 x in let y8 := firstn 8 y in base_loop (mul_coef x8 y8) (seq 0 8) z.
Definition sqr_base (y x : list A) : res (list A) :=
  let x8 := firstn 8 x in base_loop (sqr_coef x8) (seq 0 8) y.

Variable junk : nat -> list C.
(** S(2^k), by doubling.  fft.cc:450 converts fn/2, a power of two, to a scalar. *)
Fixpoint pow2_scalar (k : nat) : A := match k with O => z1 | S j => let t := pow2_scalar j in add t t end.
Definition inv_scalar (n : nat) : A := inv o (pow2_scalar (Nat.log2 n)).

(** bit_ceil(2 nz) *)
Definition fft_size (nz : nat) : nat := Z.to_nat (bit_ceil (2 * Z.of_nat nz)).
(** fft.cc:436-460 [fft_mul] *)
Definition fft_mul (z x y : list A) : res (list A) :=
  let nz := length z in
  _ <- slow_assert (nz <=? length x + length y - 1)%nat ;;
  if (nz <=? 8)%nat then mul_base z x y else
  let fn := fft_size nz in
  fx <- srfft_scramble (junk (fn / 2)) x ;;
  fy <- srfft_scramble (junk (fn / 2)) y ;;
  fx <- def_loop (fn / 2) (mul_cwise fy (inv_scalar (fn / 2))) fx ;;
  ' r <- isrfft_scramble false z fx ;;
  Ok (fst r).
(** fft.cc:462-477 [fft_addmul]; [middle] acts on the array z. *)
Definition fft_addmul (middle : list A -> res (list A)) (z x y : list A) : res (list A) :=
  let nz := length z in
  _ <- slow_assert (nz <=? length x + length y - 1)%nat ;;
  let fn := fft_size nz in
  fx <- srfft_scramble (junk (fn / 2)) x ;;
  fy <- srfft_scramble (junk (fn / 2)) y ;;
  fx <- def_loop (fn / 2) (mul_cwise fy (inv_scalar (fn / 2))) fx ;;
  z <- middle z ;;
  ' r <- isrfft_scramble true z fx ;;
  Ok (fst r).
(** fft.cc:479-499 [fft_sqr] *)
Definition fft_sqr (y x : list A) : res (list A) :=
  let ny := length y in
  _ <- slow_assert (ny <=? 2 * length x - 1)%nat ;;
  if (ny <=? 8)%nat then sqr_base y x else
  let fn := fft_size ny in
  fx <- srfft_scramble (junk (fn / 2)) x ;;
  fx <- def_loop (fn / 2) (sqr_cwise (inv_scalar (fn / 2))) fx ;;
  ' r <- isrfft_scramble false y fx ;;
  Ok (fst r).
End FFT.
