(** Model of the expansion arithmetic generator, codelets.cc:191-306: two_sum, two_prod and the
    algorithms of Collange et al. run on symbolic expressions (exp.cc) with assume_exact off, and the
    declarations written for one operator.  ExpansionModel.v runs the same algorithms on values.

    Simplifications: where C++ leaves the order of evaluation open ([lr]) one choice is made for the
    whole run; both are covered.  Random signatures of inputs are given by [draw]; the one drawn for an
    fma is not used when assume_exact is off (exp.cc:138), [sg0] stands for it.  The while loops are
    fuelled; running out of fuel is [UB]. *)
From Coq Require Import String ZArith List Bool.
From Verif Require Import Base ExpModel GenModel.
Import ListNotations.
Open Scope Z_scope.

Section ExpnGen.
Variable G : SigOps.
Notation exp := (exp G).
Notation M := (M G).
Notation "x <~ m ;; k" := (mbind G m (fun x => k)) (at level 61, m at next level, right associativity).
Variables (sg0 : G) (lr : bool).

(** codelets.cc:193-200 *)
Definition g_two_sum (a b : exp) : M (exp * exp) :=
  if is_int G 0 a then ret G (b, mkint 0) else
  if is_int G 0 b then ret G (a, mkint 0) else
  x <~ exp_add G a b ;;
  v <~ exp_sub G x a ;;
  p <~ par G lr (w <~ exp_sub G x v ;; exp_sub G a w) (exp_sub G b v) ;;
  y <~ exp_add G (fst p) (snd p) ;;
  ret G (x, y).
(** codelets.cc:203-207 *)
Definition g_two_prod (a b : exp) : M (exp * exp) :=
  x <~ exp_mul G a b ;; n <~ exp_neg G x ;; y <~ exp_fma G a b n sg0 ;; ret G (x, y).

(** codelets.cc:221-223: t moves through the state. *)
Fixpoint g_insert (t : exp) (state : list exp) : M (list exp) :=
  match state with
  | [] => ret G [t]
  | s :: state => p <~ g_two_sum t s ;; r <~ g_insert (snd p) state ;; ret G (fst p :: r)
  end.
(** codelets.cc:214-218 *)
Fixpoint g_interleave (x y : list exp) : list exp :=
  match x, y with a :: x, b :: y => a :: b :: g_interleave x y | _, _ => [] end.
(** codelets.cc:219-225 *)
Definition g_add_state (rest : list exp) : M (list exp) := mfold G (fun state t => g_insert t state) rest [].
(** codelets.cc:211-229 *)
Definition g_add (x y : list exp) : M (list exp) :=
  let n := length x in
  _ <~ lift G (slow_assert (n =? length y)%nat) ;;
  state <~ g_add_state (g_interleave x y) ;;
  _ <~ lift G (slow_assert (length state =? 2 * n)%nat) ;;
  ret G (firstn n state).
(** exp.cc:154-159 *)
Fixpoint g_negs (x : list exp) : M (list exp) :=
  match x with [] => ret G [] | a :: x => b <~ exp_neg G a ;; r <~ g_negs x ;; ret G (b :: r) end.
(** codelets.cc:232-234 *)
Definition g_sub (x y : list exp) : M (list exp) := n <~ g_negs y ;; g_add x n.

(** codelets.cc:244-248: the loop over j. *)
Fixpoint g_mul_row (x : list exp) (yi : exp) (s : list exp) : M (list exp * list exp * list exp) :=
  match x, s with
  | xj :: x, sj :: s =>
      p <~ g_two_prod xj yi ;;
      q <~ g_two_sum sj (fst p) ;;
      r <~ g_mul_row x yi s ;;
      ret G (fst q :: fst (fst r), snd p :: snd (fst r), snd q :: snd r)
  | _, _ => ret G ([], [], [])
  end.
(** codelets.cc:252-253, 258-259 *)
Fixpoint g_two_sums (s e : list exp) : M (list exp * list exp) :=
  match s, e with
  | sj :: s, ej :: e =>
      p <~ g_two_sum sj ej ;; r <~ g_two_sums s e ;; ret G (fst p :: fst r, snd p :: snd r)
  | _, _ => ret G ([], [])
  end.
(** codelets.cc:51: [any], with exp.h:56. *)
Definition g_any (e : list exp) : bool := existsb (fun x => negb (is_int G 0 x)) e.
(** codelets.cc:251-256, 257-262: one of the while loops. *)
Fixpoint g_sweep (fuel : nat) (s e : list exp) : M (list exp) :=
  if g_any e then
    match fuel with
    | O => fun _ => UB
    | S fuel => p <~ g_two_sums s e ;; g_sweep fuel (fst p) (mkint 0 :: removelast (snd p))
    end
  else ret G s.
(** codelets.cc:242-263: the loop over i; [pi] is built at its end. *)
Fixpoint g_mul_rows (x ys s pi : list exp) : M (list exp) :=
  match ys with
  | [] => ret G pi
  | yi :: ys =>
      r <~ g_mul_row x yi s ;;
      match fst (fst r) with
      | [] => fun _ => UB
      | s0 :: s =>
          s <~ g_sweep (length x) (s ++ [mkint 0]) (snd (fst r)) ;;
          s <~ g_sweep (length x) s (snd r) ;;
          g_mul_rows x ys s (pi ++ [s0])
      end
  end.
(** codelets.cc:238-268 *)
Definition g_mul (x y : list exp) : M (list exp) :=
  let n := length x in
  _ <~ lift G (slow_assert (n =? length y)%nat) ;;
  pi <~ g_mul_rows x y (repeat (mkint 0) n) [] ;;
  _ <~ lift G (slow_assert (n =? length pi)%nat) ;;
  ret G pi.

(** ** codelets.cc:283-301: one operator *)
Variable draw : string -> G.
(** codelets.cc:137-142 [inputs]: x0, x1, ... *)
Definition in_name (prefix : string) (i : nat) : string := (prefix ++ decimal i)%string.
Definition in_vars (prefix : string) (n : nat) : list exp := map (fun i => mkvar (in_name prefix i) (draw (in_name prefix i))) (seq 0 n).
Fixpoint g_inputs (names : list string) (b : bst G) : res (bst G) :=
  match names with
  | [] => Ok b
  | v :: t => ' (_, b) <- input G v (draw v) b ;; g_inputs t b
  end.
Fixpoint g_computes (l : list exp) (b : bst G) : res (list exp * bst G) :=
  match l with
  | [] => Ok ([], b)
  | e :: t => ' (y, b) <- compute G e b ;; ' (ys, b) <- g_computes t b ;; Ok (y :: ys, b)
  end.
(** What was written: the declarations, the components returned, and (ghosts) the expressions they
    stand for and the final table. *)
Record written : Type := { w_lines : list (string * exp); w_ret : list exp; w_asked : list exp; w_cse : cst G }.
Definition in_names (n : nat) : list string := ["x"; "y"]%string ++ map (in_name "x") (seq 0 n) ++ map (in_name "y") (seq 0 n).
Definition binary (body : list exp -> list exp -> M (list exp)) (n : nat) : res written :=
  b <- g_inputs (in_names n) (block0 G) ;;
  ' (s, st) <- body (in_vars "x" n) (in_vars "y" n) {| exact := false; tbl := []; lg := [] |} ;;
  let b := fold_left (fun b e => use G e b) s b in
  ' (ys, b) <- g_computes s b ;;
  Ok {| w_lines := lines G b; w_ret := ys; w_asked := s; w_cse := st |}.
End ExpnGen.
