(** Model of the printing of expressions (exp.cc:17-70, 102-104, join.h:7-14).
    The text is a list of lexemes, spaces included; [text] gives the characters. *)
From Coq Require Import String Ascii ZArith List Bool.
From Verif Require Import Base Field ExpModel.
Import ListNotations.
Open Scope Z_scope.

(** [TText s p] is an opaque piece of code whose outermost operator has precedence p. *)
Inductive tok : Type :=
| TId (s : string) | TNum (n : Z) | TText (s : string) (p : Z)
| TPlus | TMinus | TStar | TSlash | TLP | TRP | TDot | TComma | TSp.

(** exp.cc:18 *)
Definition parens_if (l : list tok) (p : bool) : list tok := if p then TLP :: l ++ [TRP] else l.
(** join.h:7-14, separator ", " *)
Fixpoint join (l : list (list tok)) : list tok :=
  match l with
  | [] => []
  | [x] => x
  | x :: t => x ++ TComma :: TSp :: join t
  end.
(** "%d" *)
Definition show_int (n : Z) : list tok := if n <? 0 then [TMinus; TNum (- n)] else [TNum n].
(** bit.h: has_single_bit, countr_zero, for a > 0 *)
Definition single_bit (a : Z) : bool := a =? 2 ^ Z.log2 a.

Section Show.
Variable G : SigOps.
(** exp.cc:30-70 [show].  Kinds with the wrong number of arguments do not exist in the C++ code. *)
Fixpoint show (e : exp G) (need : Z) {struct e} : list tok :=
  match e with
  | E o args s =>
      match o, args with
      | OVar v, _ => parens_if [TId v] (0 >? need)
      | OInt n, _ => parens_if (show_int n) (0 >? need)
      | OField f, [x] => parens_if (show x 2 ++ [TDot; TId f]) (2 >? need)
      | ONeg, [x] => parens_if (TMinus :: show x 3) (3 >? need)
      | OAdd, [x; y] => parens_if (show x 6 ++ [TSp; TPlus; TSp] ++ show y 5) (6 >? need)
      | OSub, [x; y] => parens_if (show x 6 ++ [TSp; TMinus; TSp] ++ show y 5) (6 >? need)
      | OMul, [x; y] =>
          if sg_eqb G (sig_of x) (sig_of y) then [TId "sqr"; TLP] ++ show x 100 ++ [TRP] else
          if is_int G 2 x then [TId "twice"; TLP] ++ show y 100 ++ [TRP] else
          if is_int G 2 y then [TId "twice"; TLP] ++ show x 100 ++ [TRP] else
          parens_if (show x 5 ++ [TSp; TStar; TSp] ++ show y 4) (5 >? need)
      | ODiv a, [x] =>
          if a =? 2 then [TId "half"; TLP] ++ show x 100 ++ [TRP] else
          if (2 <? a) && single_bit a
          then [TId "ldexp"; TLP] ++ show x 100 ++ [TComma; TSp; TMinus; TNum (Z.log2 a); TRP] else
          parens_if (show x 5 ++ [TSp; TSlash; TSp] ++ show_int a) (5 >? need)
      | OCall f, l => [TId f; TLP] ++ join (map (fun x => show x 100) l) ++ [TRP]
      | OOther t p, _ => parens_if [TText t p] (p >? need)
      | _, _ => []
      end
  end.
End Show.

Definition dec_pos (n : Z) : string := decimal (Z.to_nat n).
Definition tok_text (t : tok) : string :=
  match t with
  | TId s => s | TNum n => dec_pos n | TText s _ => s
  | TPlus => "+" | TMinus => "-" | TStar => "*" | TSlash => "/" | TLP => "(" | TRP => ")" | TDot => "." | TComma => "," | TSp => " "
  end.
Definition text (l : list tok) : string := fold_right (fun t s => (tok_text t ++ s)%string) EmptyString l.
