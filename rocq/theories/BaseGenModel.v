(** * The generator of the multiplication base cases: codelets.cc:308-369

    The bodies of mul_base and sqr_base are written once, when the library is built, by running
    symbolic arithmetic (exp.cc) and a Block (codelets.cc:110-186).  Here the same run produces the
    statements as data; BaseGenRun.v says what they do.

    What is simplified: the text of a statement is its syntax tree (C60 covers the printing of
    expressions), the comment with statistics is left out, random signatures come from [draw], and
    [lr] is the order in which the arguments of a C++ call are evaluated (unspecified).  The number of
    terms is a parameter [n]; the code uses 8. *)
From Coq Require Import String ZArith List Bool.
From Verif Require Import Base Field ExpModel.
Import ListNotations.
Open Scope nat_scope.

Section BaseGen.
Variables (G : SigOps) (draw : string -> G) (lr : bool).
Notation exp := (exp G).
Notation M := (M G).

(** The statements: "if (c <= i) return;" (codelets.cc:324), "const auto v = i < c ? a[i] : S(0);"
    (codelets.cc:319), "const auto v = e;" (codelets.cc:147) and "a[i] = e;" (codelets.cc:344, 366);
    in the series base cases also "if (c == i) return;" (codelets.cc:439). *)
Inductive sstmt : Type :=
| QRet (c : string) (i : nat)
| QStop (c : string) (i : nat)
| QLoad (v : string) (i : nat) (c a : string)
| QLet (v : string) (e : exp)
| QStore (a : string) (i : nat) (e : exp).

(** The CSE table, the Block and what was written; [q_asked] records the expressions computed. *)
Record qst : Type := { q_cse : cst G; q_blk : bst G; q_out : list sstmt; q_asked : list exp }.
Definition q_emit (t : sstmt) (g : qst) : qst := {| q_cse := q_cse g; q_blk := q_blk g; q_out := q_out g ++ [t]; q_asked := q_asked g |}.

(** codelets.cc:317-321 [extend]: x names both the array and the prefix of its count. *)
Definition elem (x : string) (i : nat) : string := (x ++ decimal i)%string.
Definition extend (x : string) (i : nat) (g : qst) : res (exp * qst) :=
  let g := q_emit (QLoad (elem x i) i ("n" ++ x) x) g in
  ' (v, b) <- input G (elem x i) (draw (elem x i)) (q_blk g) ;;
  Ok (v, {| q_cse := q_cse g; q_blk := b; q_out := q_out g; q_asked := q_asked g |}).
(** codelets.cc:335-336, 357 *)
Fixpoint extends (x : string) (is : list nat) (g : qst) : res (list exp * qst) :=
  match is with
  | [] => Ok ([], g)
  | i :: t => ' (v, g) <- extend x i g ;; ' (vs, g) <- extends x t g ;; Ok (v :: vs, g)
  end.

(** The terms of a sum are formed one after another. *)
Fixpoint mmap {A} (f : A -> M exp) (l : list A) : M (list exp) :=
  match l with
  | [] => ret G []
  | a :: t => mbind G (f a) (fun x => mbind G (mmap f t) (fun xs => ret G (x :: xs)))
  end.
Definition at_ (xs : list exp) (i : nat) : exp := nth i xs (mkint 0).
(** codelets.cc:340-342 *)
Definition mul_term (xi yi : list exp) (i : nat) : M exp :=
  mbind G (mmap (fun j => exp_mul G (at_ xi j) (at_ yi (i - j))) (seq 0 (S i))) (exp_sum G lr).
(** codelets.cc:361-365; the loop runs while j < i - j. *)
Definition sqr_term (xi : list exp) (i : nat) : M exp :=
  mbind G (mmap (fun j => exp_mul G (at_ xi j) (at_ xi (i - j))) (seq 0 ((i + 1) / 2))) (fun ts =>
  mbind G (exp_sum G lr ts) (fun s =>
  mbind G (exp_mul G (mkint 2) s) (fun t =>
  if Nat.even i then mbind G (exp_mul G (at_ xi (i / 2)) (at_ xi (i / 2))) (fun s => exp_add G t s) else ret G t))).

(** codelets.cc:343-344, 366-367: use, compute (which may declare variables) and assign. *)
Definition q_store (a : string) (i : nat) (t : exp) (g : qst) : res qst :=
  let b := use G t (q_blk g) in
  ' (y, b') <- compute G t b ;;
  Ok {| q_cse := q_cse g; q_blk := b';
        q_out := q_out g ++ map (fun p => QLet (fst p) (snd p)) (skipn (length (lines G b)) (lines G b')) ++ [QStore a i y];
        q_asked := q_asked g ++ [t] |}.
(** codelets.cc:338-345, 359-367 *)
Fixpoint q_terms (a c : string) (term : nat -> M exp) (is : list nat) (g : qst) : res qst :=
  match is with
  | [] => Ok g
  | i :: t =>
      let g := match i with O => g | S _ => q_emit (QRet c i) g end in
      ' (e, st) <- term i (q_cse g) ;;
      g <- q_store a i e {| q_cse := st; q_blk := q_blk g; q_out := q_out g; q_asked := q_asked g |} ;;
      q_terms a c term t g
  end.
Definition q0 : qst := {| q_cse := {| exact := true; tbl := []; lg := [] |}; q_blk := block0 G; q_out := []; q_asked := [] |}.
(** codelets.cc:327-346 *)
Definition mul_gen (n : nat) : res qst :=
  let g := q_emit (QRet "nz" 0) q0 in
  ' (xi, g) <- extends "x" (seq 0 n) g ;;
  ' (yi, g) <- extends "y" (seq 0 n) g ;;
  q_terms "z" "nz" (mul_term xi yi) (seq 0 n) g.
(** codelets.cc:349-368 *)
Definition sqr_gen (n : nat) : res qst :=
  let g := q_emit (QRet "ny" 0) q0 in
  ' (xi, g) <- extends "x" (seq 0 n) g ;;
  q_terms "y" "ny" (sqr_term xi) (seq 0 n) g.
End BaseGen.
Arguments QRet {G}. Arguments QStop {G}. Arguments QLoad {G}. Arguments QLet {G}. Arguments QStore {G}.
