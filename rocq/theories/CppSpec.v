(** Spec: how C++ reads the printed expressions.  A recursive-descent parser for the operators in
    use (precedence and associativity as in the standard), and the value of the resulting tree.
    Independent of exp.cc except for the list of lexemes. *)
From Coq Require Import String ZArith List Bool.
From Verif Require Import Base Field ExpModel ShowModel.
Import ListNotations.
Open Scope Z_scope.

Inductive binop := BAdd | BSub | BMul | BDiv.
Inductive past : Type :=
| PId (s : string) | PNum (n : Z) | PText (s : string) | PNeg (a : past) | PBin (o : binop) (a b : past)
| PField (f : string) (a : past) | PCall (f : string) (l : list past).

(** Nonterminals; the ones with an argument continue a left-associative chain. *)
Inductive kind : Type :=
| KExpr | KAdd | KAddL (a : past) | KMul | KMulL (a : past) | KMem | KUn | KPost | KPostL (a : past) | KArgs.

Fixpoint parse (n : nat) (k : kind) (ts : list tok) {struct n} : option (list past * list tok) :=
  match n with
  | O => None
  | S n =>
      match k with
      | KExpr =>  (* anything, down to assignment and comma operators inside opaque text *)
          match ts with
          | TText s q :: r => if (6 <? q) && (q <=? 100) then Some ([PText s], r) else parse n KAdd ts
          | _ => parse n KAdd ts
          end
      | KAdd =>  (* multiplicative { (+|-) multiplicative } *)
          match ts with
          | TText s q :: r =>
              if q =? 6 then parse n (KAddL (PText s)) r else
              match parse n KMul ts with Some ([a], r) => parse n (KAddL a) r | _ => None end
          | _ => match parse n KMul ts with Some ([a], r) => parse n (KAddL a) r | _ => None end
          end
      | KAddL a =>
          match ts with
          | TPlus :: r => match parse n KMul r with Some ([b], r) => parse n (KAddL (PBin BAdd a b)) r | _ => None end
          | TMinus :: r => match parse n KMul r with Some ([b], r) => parse n (KAddL (PBin BSub a b)) r | _ => None end
          | _ => Some ([a], ts)
          end
      | KMul =>  (* pm { ( * | / ) pm } *)
          match ts with
          | TText s q :: r =>
              if q =? 5 then parse n (KMulL (PText s)) r else
              match parse n KMem ts with Some ([a], r) => parse n (KMulL a) r | _ => None end
          | _ => match parse n KMem ts with Some ([a], r) => parse n (KMulL a) r | _ => None end
          end
      | KMulL a =>
          match ts with
          | TStar :: r => match parse n KMem r with Some ([b], r) => parse n (KMulL (PBin BMul a b)) r | _ => None end
          | TSlash :: r => match parse n KMem r with Some ([b], r) => parse n (KMulL (PBin BDiv a b)) r | _ => None end
          | _ => Some ([a], ts)
          end
      | KMem =>  (* pointer-to-member, only inside opaque text *)
          match ts with
          | TText s q :: r => if q =? 4 then Some ([PText s], r) else parse n KUn ts
          | _ => parse n KUn ts
          end
      | KUn =>  (* unary minus or postfix *)
          match ts with
          | TMinus :: r => match parse n KUn r with Some ([a], r) => Some ([PNeg a], r) | _ => None end
          | TText s q :: r => if q =? 3 then Some ([PText s], r) else parse n KPost ts
          | _ => parse n KPost ts
          end
      | KPost =>  (* primary or call, then members *)
          match ts with
          | TText s q :: r => if q <=? 2 then parse n (KPostL (PText s)) r else None
          | TId f :: TLP :: r => match parse n KArgs r with Some (l, r) => parse n (KPostL (PCall f l)) r | None => None end
          | TId v :: r => parse n (KPostL (PId v)) r
          | TNum m :: r => parse n (KPostL (PNum m)) r
          | TLP :: r => match parse n KExpr r with Some ([a], TRP :: r) => parse n (KPostL a) r | _ => None end
          | _ => None
          end
      | KPostL a =>
          match ts with
          | TDot :: TId f :: r => parse n (KPostL (PField f a)) r
          | _ => Some ([a], ts)
          end
      | KArgs =>
          match parse n KExpr ts with
          | Some ([a], TComma :: r) => match parse n KArgs r with Some (l, r) => Some (a :: l, r) | None => None end
          | Some ([a], TRP :: r) => Some ([a], r)
          | _ => None
          end
      end
  end.

(** White space separates lexemes. *)
Definition solid (t : tok) : bool := match t with TSp => false | _ => true end.
Definition strip (l : list tok) : list tok := filter solid l.
(** Neighbouring lexemes that the C++ lexer would read as one or split differently. *)
Definition glue (a b : tok) : bool :=
  match a, b with
  | (TId _ | TNum _ | TText _ _), (TId _ | TNum _ | TText _ _) => true
  | TNum _, TDot | TDot, TNum _ => true
  | TMinus, TMinus | TPlus, TPlus | TSlash, TSlash | TSlash, TStar => true
  | _, _ => false
  end.
Fixpoint no_glue (l : list tok) : Prop :=
  match l with
  | a :: (b :: _) as t => glue a b = false /\ no_glue t
  | _ => True
  end.
(** The text reads as this tree. *)
Definition reads_as (l : list tok) (a : past) : Prop := no_glue l /\ exists n, parse n KExpr (strip l) = Some ([a], []).

(** Values: an integer literal has type int, and int op int is int arithmetic. *)
Inductive pv (F : Fld) : Type := VI (n : Z) | VR (x : F).
Arguments VI {F}. Arguments VR {F}.
Definition toK {F : Fld} (v : pv F) : F := match v with VI n => kofZ n | VR x => x end.
Definition bin_val {F : Fld} (o : binop) (a b : pv F) : pv F :=
  match a, b with
  | VI m, VI n => VI (match o with BAdd => m + n | BSub => m - n | BMul => m * n | BDiv => Z.quot m n end)
  | _, _ => VR (match o with BAdd => kadd | BSub => ksub | BMul => kmul | BDiv => kdiv end (toK a) (toK b))
  end.
Definition call_val {F : Fld} (I : interp F) (f : string) (l : list (pv F)) : pv F :=
  match l with
  | [a] =>  (* arith.h:14-16 *)
      if String.eqb f "sqr" then VR (kmul (toK a) (toK a)) else
      if String.eqb f "twice" then VR (kadd (toK a) (toK a)) else
      if String.eqb f "half" then VR (kdiv (toK a) (kofZ 2)) else VR (icall I f [toK a])
  | [a; VI k] => if String.eqb f "ldexp" then VR (kmul (toK a) (kpow2 k)) else VR (icall I f [toK a; kofZ k])
  | _ => VR (icall I f (map toK l))
  end.
Fixpoint pval {F : Fld} (I : interp F) (a : past) : pv F :=
  match a with
  | PId v => VR (iv I v)
  | PNum n => VI n
  | PText s => VR (iother I s)
  | PNeg a => match pval I a with VI n => VI (- n) | VR x => VR (kopp x) end
  | PBin o a b => bin_val o (pval I a) (pval I b)
  | PField f a => VR (ifield I f (toK (pval I a)))
  | PCall f l => call_val I f (map (pval I) l)
  end.
