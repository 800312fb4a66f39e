(** Model of the Fourier codelet generator, codelets.cc:460-493 and 548-828: symbolic complex
    arithmetic (complex.h over Exp), the butterflies, forward and backward mode, and the sequence of
    statements written for one loop body.

    Simplifications: lists of complex expressions are kept flat, real and imaginary parts alternating
    (codelets.cc:549-559 [flatten] and [thicken] are reinterpret_casts).  Where C++ leaves the order of
    evaluation open ([lr]) one choice is made for the whole run; both are covered.  Random signatures
    of inputs are given by [draw].  Statement text is kept as syntax; ShowModel.v covers the text of
    expressions.  The texts of the constants (codelets.cc:566-586) are parameters. *)
From Coq Require Import String ZArith List Bool.
From Verif Require Import Base Field ExpModel.
Import ListNotations.
Open Scope Z_scope.

(** Integer definitions written as text, codelets.cc:755, 775-776, 809-811. *)
Inductive itext : Type :=
| TPow (s : string) (k : Z)         (* "1 << (s-k)" *)
| TAnd (j m : string)               (* "j & (m-1)" *)
| TSubShl (j j1 : string) (k : Z)   (* "(j - j1) << k" *)
| TShl (m : string) (k : Z).        (* "m << k" *)

Section Gen.
Variable G : SigOps.
Notation exp := (exp G).
Notation M := (M G).
Notation "x <~ m ;; k" := (mbind G m (fun x => k)) (at level 61, m at next level, right associativity).
Definition cexp : Type := exp * exp.
(** Two computations whose order C++ leaves open. *)
Definition par {A B} (lr : bool) (m : M A) (n : M B) : M (A * B) :=
  if lr then a <~ m ;; b <~ n ;; ret G (a, b) else b <~ n ;; a <~ m ;; ret G (a, b).

(** ** complex.h over Exp *)
(** complex.h:26-28 *)
Definition cx_add (lr : bool) (z w : cexp) : M cexp := par lr (exp_add G (fst z) (fst w)) (exp_add G (snd z) (snd w)).
Definition cx_sub (lr : bool) (z w : cexp) : M cexp := par lr (exp_sub G (fst z) (fst w)) (exp_sub G (snd z) (snd w)).
Definition cx_mul (lr : bool) (z w : cexp) : M cexp :=
  par lr (p <~ par lr (exp_mul G (fst z) (fst w)) (exp_mul G (snd z) (snd w)) ;; exp_sub G (fst p) (snd p))
         (p <~ par lr (exp_mul G (fst z) (snd w)) (exp_mul G (snd z) (fst w)) ;; exp_add G (fst p) (snd p)).
(** complex.h:29 *)
Definition cx_scale (lr : bool) (a : exp) (z : cexp) : M cexp := par lr (exp_mul G a (fst z)) (exp_mul G a (snd z)).
(** complex.h:31-32 *)
Definition cx_conj (z : cexp) : M cexp := i <~ exp_neg G (snd z) ;; ret G (fst z, i).
Definition cx_left (z : cexp) : M cexp := r <~ exp_neg G (snd z) ;; ret G (r, fst z).
(** complex.h:50-54 [diag<1>], [diag<-1>] *)
Definition cx_diagp (lr : bool) (a : exp) (z : cexp) : M cexp :=
  w <~ par lr (exp_sub G (fst z) (snd z)) (exp_add G (snd z) (fst z)) ;; cx_scale lr a w.
Definition cx_diagm (lr : bool) (a : exp) (z : cexp) : M cexp :=
  w <~ par lr (exp_add G (fst z) (snd z)) (exp_sub G (snd z) (fst z)) ;; cx_scale lr a w.
(** exp.cc:221-223 [split] *)
Definition split (lr : bool) (e : exp) : M cexp := par lr (exp_field G e "r") (exp_field G e "i").

(** ** Constants and twiddle factors *)
(** Texts and signatures: "constant<S>(...)" for sqrt(1/2), with signature inv(sqrt(Sig(2)))
    (codelets.cc:571-574), and the texts of the two parts of nearest_twiddle(j, 2<<s). *)
Variables (sh_text : string) (sh_sig : G) (tw_text : Z -> nat -> string * string).
(** codelets.cc:566-569 [constant]: printed with precedence 2. *)
Definition constant (t : string) (s : G) : M exp := exp_other G t 2 s.
Definition constant_sqrt_half : M exp := constant sh_text sh_sig.
(** sig.cc:24-32, 190: powers of a complex signature (the same product in another order). *)
Definition sig_cmul (z w : G * G) : G * G :=
  (sg_sub G (sg_mul G (fst z) (fst w)) (sg_mul G (snd z) (snd w)), sg_add G (sg_mul G (fst z) (snd w)) (sg_mul G (snd z) (fst w))).
Fixpoint sig_cpow (z : G * G) (n : nat) : G * G := match n with O => (sg_int G 1, sg_int G 0) | S k => sig_cmul z (sig_cpow z k) end.
(** codelets.cc:576-586 *)
Definition constant_twiddle (lr : bool) (j : Z) (s : nat) : M cexp :=
  _ <~ lift G (slow_assert ((s =? 1) || (s =? 2) || (s =? 3))%nat) ;;
  let base := if (s =? 1)%nat then (sg_int G (-1), sg_int G 0) else if (s =? 2)%nat then (sg_int G 0, sg_int G 1) else (sh_sig, sh_sig) in
  let sg := sig_cpow base (Z.to_nat j) in
  par lr (constant (fst (tw_text j s)) (fst sg)) (constant (snd (tw_text j s)) (snd sg)).
(** codelets.cc:590-592 *)
Definition base_twiddle (lr : bool) (j : exp) : M cexp :=
  c <~ exp_call G "twiddle" [j] (sg_arb G (Some "twiddle"%string) [sig_of j]) ;; split lr c.

(** ** Butterflies *)
Definition times (k : Z) (j : exp) : M exp := exp_mul G (mkint k) j.
(** codelets.cc:668-670 *)
Definition gen_0 (x0 x1 : exp) : M cexp := n <~ exp_neg G x1 ;; ret G (x0, n).
(** codelets.cc:674-679 *)
Definition gen_1 (lr : bool) (tw : exp -> M cexp) (j : exp) (y0 y1 : cexp) : M (cexp * cexp) :=
  c <~ constant_sqrt_half ;; z1 <~ cx_diagm lr c y1 ;;
  p <~ par lr (w <~ tw j ;; cx_conj w) (cx_add lr y0 z1) ;; u0 <~ cx_mul lr (fst p) (snd p) ;;
  p <~ par lr (j3 <~ times 3 j ;; tw j3) (cx_sub lr y0 z1) ;; t <~ cx_mul lr (fst p) (snd p) ;; u1 <~ cx_conj t ;;
  ret G (u0, u1).
(** codelets.cc:682-686 *)
Definition gen_s1 (lr : bool) (tw : exp -> M cexp) (j : exp) (y0 y1 : cexp) : M (cexp * cexp) :=
  u0 <~ cx_add lr y0 y1 ;;
  p <~ par lr (tw j) (cx_sub lr y0 y1) ;; t <~ cx_mul lr (fst p) (snd p) ;; u1 <~ cx_conj t ;;
  ret G (u0, u1).
(** conj(w * (a + b)), conj(w) * (a - b) and their variants, as they occur below. *)
Definition conj_of_mul (lr : bool) (w : cexp) (s : M cexp) : M cexp := s <~ s ;; t <~ cx_mul lr w s ;; cx_conj t.
Definition mul_of_conj (lr : bool) (w : cexp) (s : M cexp) : M cexp := p <~ par lr (cx_conj w) s ;; cx_mul lr (fst p) (snd p).
Definition plus_left (lr : bool) (a b : cexp) : M cexp := l <~ cx_left b ;; cx_add lr a l.
Definition minus_left (lr : bool) (a b : cexp) : M cexp := l <~ cx_left b ;; cx_sub lr a l.
(** codelets.cc:689-704 *)
Definition gen_s2 (lr : bool) (tw : exp -> M cexp) (j : exp) (y0 y1 y2 y3 : cexp) : M (list cexp) :=
  w1 <~ tw j ;; j2 <~ times 2 j ;; w2 <~ tw j2 ;;
  u0 <~ cx_add lr y0 y2 ;; u1 <~ cx_add lr y1 y3 ;; t0 <~ cx_sub lr y0 y2 ;; t1 <~ cx_sub lr y1 y3 ;;
  c0 <~ cx_add lr u0 u1 ;; c1 <~ conj_of_mul lr w2 (cx_sub lr u0 u1) ;;
  c2 <~ conj_of_mul lr w1 (plus_left lr t0 t1) ;; c3 <~ mul_of_conj lr w1 (minus_left lr t0 t1) ;;
  ret G [c0; c1; c2; c3].
(** codelets.cc:707-742 *)
Definition gen_s3 (lr : bool) (tw : exp -> M cexp) (j : exp) (y0 y1 y2 y3 y4 y5 y6 y7 : cexp) : M (list cexp) :=
  w1 <~ tw j ;; j2 <~ times 2 j ;; w2 <~ tw j2 ;; j3 <~ times 3 j ;; w3 <~ tw j3 ;; j4 <~ times 4 j ;; w4 <~ tw j4 ;;
  h <~ constant_sqrt_half ;;
  u0 <~ cx_add lr y0 y4 ;; u1 <~ cx_add lr y1 y5 ;; u2 <~ cx_add lr y2 y6 ;; u3 <~ cx_add lr y3 y7 ;;
  t0 <~ cx_sub lr y0 y4 ;; t1 <~ cx_sub lr y1 y5 ;; t2 <~ cx_sub lr y2 y6 ;; t3 <~ cx_sub lr y3 y7 ;;
  b0 <~ cx_add lr u0 u2 ;; b1 <~ cx_add lr u1 u3 ;; b2 <~ plus_left lr t0 t2 ;; s3 <~ plus_left lr t1 t3 ;; b3 <~ cx_diagp lr h s3 ;;
  c0 <~ cx_sub lr u0 u2 ;; c1 <~ cx_sub lr u1 u3 ;; c2 <~ minus_left lr t0 t2 ;; d3 <~ minus_left lr t1 t3 ;; c3 <~ cx_diagm lr h d3 ;;
  e0 <~ cx_add lr b0 b1 ;; e1 <~ conj_of_mul lr w4 (cx_sub lr b0 b1) ;;
  e2 <~ conj_of_mul lr w2 (plus_left lr c0 c1) ;; e3 <~ mul_of_conj lr w2 (minus_left lr c0 c1) ;;
  e4 <~ conj_of_mul lr w1 (cx_add lr b2 b3) ;; e5 <~ mul_of_conj lr w3 (cx_sub lr b2 b3) ;;
  e6 <~ mul_of_conj lr w1 (cx_add lr c2 c3) ;; e7 <~ conj_of_mul lr w3 (cx_sub lr c2 c3) ;;
  ret G [e0; e1; e2; e3; e4; e5; e6; e7].

(** ** Flat lists *)
Fixpoint flat (l : list cexp) : list exp := match l with [] => [] | z :: t => fst z :: snd z :: flat t end.
(** codelets.cc:817-823: the radix 2^r butterfly with base twiddles. *)
Definition gen_s (lr : bool) (r : nat) (j1 : exp) (y : list exp) : M (list exp) :=
  let tw := base_twiddle lr in
  match r, y with
  | 1%nat, [a; a'; b; b'] => p <~ gen_s1 lr tw j1 (a, a') (b, b') ;; ret G (flat [fst p; snd p])
  | 2%nat, [a; a'; b; b'; c; c'; d; d'] => l <~ gen_s2 lr tw j1 (a, a') (b, b') (c, c') (d, d') ;; ret G (flat l)
  | 3%nat, [a; a'; b; b'; c; c'; d; d'; e; e'; f; f'; g; g'; h; h'] =>
      l <~ gen_s3 lr tw j1 (a, a') (b, b') (c, c') (d, d') (e, e') (f, f') (g, g') (h, h') ;; ret G (flat l)
  | _, _ => fun _ => UB
  end.
(** codelets.cc:760-765 *)
Definition first_twiddle (lr : bool) (r : nat) (j : exp) : M cexp :=
  if (r =? 3)%nat then base_twiddle lr j else
  match unint G j with Some n => constant_twiddle lr n r | None => fun _ => Throw end.
(** codelets.cc:766-790: the first r levels; [j1] is the variable defined on lines 775-776 (only
    read when r = 3).  The loops over i, i0 and i1 are unrolled. *)
Definition gen_first (lr : bool) (r : nat) (j nr j1 : exp) (x : list exp) : M (list exp) :=
  let tw := first_twiddle lr r in
  match r, x with
  | 1%nat, [x0; x1] => y0 <~ gen_0 x0 x1 ;; ret G (flat [y0])
  | 2%nat, [x0; x1; x2; x3] =>
      y0 <~ gen_0 x0 x2 ;; y1 <~ gen_0 x1 x3 ;;
      i0 <~ times 0 nr ;; ja <~ exp_add G j i0 ;; p <~ gen_1 lr tw ja y0 y1 ;;
      ret G (flat [fst p; snd p])
  | 3%nat, [x0; x1; x2; x3; x4; x5; x6; x7] =>
      y0 <~ gen_0 x0 x4 ;; y1 <~ gen_0 x1 x5 ;; y2 <~ gen_0 x2 x6 ;; y3 <~ gen_0 x3 x7 ;;
      i0 <~ times 0 nr ;; ja <~ exp_add G j i0 ;; p <~ gen_1 lr tw ja y0 y2 ;;
      i1 <~ times 1 nr ;; jb <~ exp_add G j i1 ;; q <~ gen_1 lr tw jb y1 y3 ;;
      let tw3 j := (j8 <~ times 8 j ;; tw j8) in
      k0 <~ times 0 nr ;; jc <~ exp_add G j1 k0 ;; a <~ gen_s1 lr tw3 jc (fst p) (fst q) ;;
      k1 <~ times 0 nr ;; jd <~ exp_add G j1 k1 ;; b <~ gen_s1 lr tw3 jd (snd p) (snd q) ;;
      ret G (flat [fst a; snd a; fst b; snd b])
  | _, _ => fun _ => UB
  end.

(** ** Statements of a loop body *)
Inductive stmt : Type :=
| SText (n : string) (t : itext)                 (* const auto n = t; *)
| SLet (n : string) (e : exp)                    (* const auto n = e; *)
| SGetY (n : string) (i : exp)                   (* const auto n = y[i]; *)
| SGetX (n : string) (i : exp)                   (* const auto n = i < xn ? x[i] : 0; *)
| SSetY (i a b : exp)                            (* y[i] = Complex<S>(a, b); *)
| SSetX (i : exp) (o : bool * bool) (a : exp).   (* if (i < xn) x[i] = a; or +=, or -= *)
(** The expression table, the Block and the text written so far.  Two ghosts: [g_told], what was
    passed to use and compute, and [g_diff], the circuits (inputs, outputs) that were differentiated. *)
Record gen : Type := { g_cse : cst G; g_blk : bst G; g_out : list stmt; g_told : list exp; g_diff : list (list exp * list exp) }.
Definition X (A : Type) : Type := gen -> res (A * gen).
Definition xret {A} (a : A) : X A := fun s => Ok (a, s).
Definition xbind {A B} (m : X A) (k : A -> X B) : X B := fun s => ' (a, s) <- m s ;; k a s.
Notation "x <= m ;; k" := (xbind m (fun x => k)) (at level 61, m at next level, right associativity).
Definition of_m {A} (m : M A) : X A := fun s => ' (a, c) <- m (g_cse s) ;; Ok (a, {| g_cse := c; g_blk := g_blk s; g_out := g_out s; g_told := g_told s; g_diff := g_diff s |}).
(** Block operations; declarations they write ([lines]) go to the text. *)
Definition of_b {A} (f : bst G -> res (A * bst G)) : X A := fun s =>
  ' (a, b) <- f (g_blk s) ;;
  Ok (a, {| g_cse := g_cse s; g_blk := b; g_out := g_out s ++ map (fun p => SLet (fst p) (snd p)) (skipn (length (lines G (g_blk s))) (lines G b)); g_told := g_told s; g_diff := g_diff s |}).
Definition emit (t : stmt) : X unit := fun s => Ok (tt, {| g_cse := g_cse s; g_blk := g_blk s; g_out := g_out s ++ [t]; g_told := g_told s; g_diff := g_diff s |}).
(** Ghosts. *)
Definition told (e : exp) : X unit := fun s => Ok (tt, {| g_cse := g_cse s; g_blk := g_blk s; g_out := g_out s; g_told := g_told s ++ [e]; g_diff := g_diff s |}).
Definition diffed (pxs pys : list exp) : X unit := fun s => Ok (tt, {| g_cse := g_cse s; g_blk := g_blk s; g_out := g_out s; g_told := g_told s; g_diff := g_diff s ++ [(pxs, pys)] |}).
Fixpoint xmap {A B} (f : A -> X B) (l : list A) : X (list B) :=
  match l with [] => xret [] | a :: t => b <= f a ;; r <= xmap f t ;; xret (b :: r) end.

Variable draw : string -> G.
Definition g_input (n : string) : X exp := of_b (input G n (draw n)).
Definition g_use (e : exp) : X unit := _ <= told e ;; of_b (fun b => Ok (tt, use G e b)).
Definition g_compute (e : exp) : X exp := _ <= told e ;; of_b (compute G e).
(** codelets.cc:145-149 [now] with text; [sg] gives the signature. *)
Definition g_now (prefix : string) (t : itext) (sg : G) : X exp :=
  n <= of_b (fresh G prefix) ;; _ <= emit (SText n t) ;; xret (mkvar n sg).

(** codelets.cc:460-486 [Loc]: an element of the complex array y or of the real array x. *)
Record loc : Type := { l_cx : bool; l_name : string; l_idx : exp; l_add : bool }.
Definition loc_get (lr : bool) (l : loc) : X (list exp) :=
  if l_cx l then
    _ <= emit (SGetY (l_name l) (l_idx l)) ;; v <= g_input (l_name l) ;; z <= of_m (split lr v) ;; xret [fst z; snd z]
  else _ <= emit (SGetX (l_name l) (l_idx l)) ;; v <= g_input (l_name l) ;; xret [v].
Definition loc_set (lr : bool) (l : loc) (v : list exp) : X unit :=
  match l_cx l, v with
  | true, [a; b] =>
      if lr then a <= g_compute a ;; b <= g_compute b ;; emit (SSetY (l_idx l) a b)
      else b <= g_compute b ;; a <= g_compute a ;; emit (SSetY (l_idx l) a b)
  | false, [a] =>
      if l_add l then
        u <= of_m (lift G (unneg G a)) ;;
        match u with
        | Some na => v <= g_compute na ;; emit (SSetX (l_idx l) (true, true) v)
        | None => v <= g_compute a ;; emit (SSetX (l_idx l) (true, false) v)
        end
      else v <= g_compute a ;; emit (SSetX (l_idx l) (false, false) v)
  | _, _ => fun _ => UB
  end.
Definition width (l : loc) : nat := if l_cx l then 2%nat else 1%nat.
Definition total (ls : list loc) : nat := fold_right (fun l a => (width l + a)%nat) O ls.
Fixpoint sets_all (lr : bool) (ls : list loc) (ys : list exp) : X unit :=
  match ls with
  | [] => xret tt
  | l :: t => _ <= loc_set lr l (firstn (width l) ys) ;; sets_all lr t (skipn (width l) ys)
  end.
(** codelets.cc:488-493 [locs] *)
Fixpoint locs_from (cx add : bool) (k n : nat) (j dj : exp) : M (list loc) :=
  match n with
  | O => ret G []
  | S m =>
      d <~ times (Z.of_nat k) dj ;; i <~ exp_add G j d ;;
      t <~ locs_from cx add (S k) m j dj ;;
      ret G ({| l_cx := cx; l_name := ((if cx then "y" else "x") ++ decimal k)%string; l_idx := i; l_add := add |} :: t)
  end.
Definition locs (cx add : bool) (n : nat) (j dj : exp) : M (list loc) := locs_from cx add 0 n j dj.

(** codelets.cc:595-602 [forward] *)
Definition forward (lr : bool) (ins outs : list loc) (comp : list exp -> X (list exp)) : X unit :=
  xs <= xmap (loc_get lr) ins ;;
  ys <= comp (concat xs) ;;
  _ <= of_m (lift G (slow_assert (length ys =? total outs)%nat)) ;;
  _ <= xmap g_use ys ;;
  sets_all lr outs ys.
(** codelets.cc:605-613 [way]; [fuel] bounds the worklists of [gradient]. *)
Definition way (lr : bool) (fuel : nat) (unknown : exp) (fwd : bool) (ins outs : list loc) (comp : list exp -> X (list exp)) : X unit :=
  if fwd then forward lr ins outs comp else
  pxs <= xmap (fun p : nat * loc => v <= g_input ("px" ++ decimal (fst p))%string ;;
                 if l_cx (snd p) then z <= of_m (split lr v) ;; xret [fst z; snd z] else xret [v])
              (combine (seq 0 (length ins)) ins) ;;
  pys <= comp (concat pxs) ;;
  _ <= diffed (concat pxs) pys ;;
  forward lr outs ins (fun ys =>
    d <= of_m (gradient G fuel lr unknown (concat pxs) pys ys) ;;
    match d with Some ds => xret ds | None => fun _ => UB end).

(** codelets.cc:617-646 [loop], 799-826: srfft_butterfly_s1, _s2, _s3 and their inverses. *)
Definition body_s (lr : bool) (fuel : nat) (unknown : exp) (r : nat) (fwd : bool) : X unit :=
  _ <= xmap g_input ["x"; "xn"; "y"]%string ;;
  nr <= g_input ("n" ++ decimal (2 ^ (r + 1)))%string ;; j <= g_input "j" ;;
  s <= g_input "s" ;;
  m <= g_now "m" (TPow "s" 0) (draw "m") ;;
  j1 <= g_now "j1" (TAnd "j" "m") (draw "j1") ;;
  j0 <= g_now "j0" (TSubShl "j" "j1" (Z.of_nat r)) (draw "j0") ;;
  b <= of_m (exp_add G j0 j1) ;;
  y <= of_m (locs true false (2 ^ r) b m) ;;
  way lr fuel unknown fwd y y (fun ys => of_m (gen_s lr r j1 ys)).
(** codelets.cc:745-795: srfft_butterfly_0, _01, _012, their inverses and adding inverses. *)
Definition body_first (lr : bool) (fuel : nat) (unknown : exp) (r : nat) (fwd add : bool) : X unit :=
  _ <= xmap g_input ["x"; "xn"; "y"]%string ;;
  nj <= (if (r <? 3)%nat then xret (mkint 1, mkint 0)
         else nr <= g_input ("n" ++ decimal (2 ^ r))%string ;; j <= g_input "j" ;; xret (nr, j)) ;;
  let nr := fst nj in let j := snd nj in
  p <= g_input "p" ;;
  m <= (if (2 <? r)%nat then g_now "m" (TPow "p" (Z.of_nat r)) (draw "m") else xret (mkint 0)) ;;
  x <= of_m (locs false add (2 ^ r) j nr) ;;
  y <= of_m (locs true false (2 ^ r / 2) j nr) ;;
  way lr fuel unknown fwd x y (fun xs =>
    j1 <= (if (r =? 3)%nat then
             _ <= g_now "m3" (TShl "m" 0) (sg_mul G (sig_of m) (sg_int G 1)) ;; g_now "j1" (TAnd "j" "m3") (draw "j1")
           else xret (mkint 0)) ;;
    of_m (gen_first lr r j nr j1 xs)).
Definition gen0 : gen := {| g_cse := {| exact := true; tbl := []; lg := [] |}; g_blk := block0 G; g_out := []; g_told := []; g_diff := [] |}.
End Gen.
