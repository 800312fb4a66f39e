(** The generated mul_base and sqr_base (codelets.cc:308-369) run on doubles: the statements of
    BaseGenModel.v without their signatures, and a machine whose arithmetic rounds.

    What is simplified: as in BaseGenModel.v.  The machine knows +, - and * of variables and int
    constants, which is all that these bodies contain; each operation rounds once (meson.build:52
    switches contraction off).  An int operand is converted to double first. *)
From Coq Require Import String ZArith List Bool.
From Flocq Require Import BinarySingleNaN.
From Verif Require Import Base Field ExpModel ExpansionModel BaseGenModel BaseGenRun.
Import ListNotations.
Open Scope Z_scope.

(** The text of an expression, exp.cc:143-247; [XBad]: anything else. *)
Inductive text : Type := XVar (v : string) | XInt (n : Z) | XNeg (a : text) | XAdd (a b : text) | XSub (a b : text) | XMul (a b : text) | XBad.
Fixpoint text_of {G : SigOps} (e : exp G) : text :=
  match e with
  | E (OVar v) _ _ => XVar v
  | E (OInt n) _ _ => XInt n
  | E ONeg [a] _ => XNeg (text_of a)
  | E OAdd [a; b] _ => XAdd (text_of a) (text_of b)
  | E OSub [a; b] _ => XSub (text_of a) (text_of b)
  | E OMul [a; b] _ => XMul (text_of a) (text_of b)
  | _ => XBad
  end.
(** The statements of BaseGenModel.v (codelets.cc:147, 319, 324, 344, 366, 439) as text. *)
Inductive tstmt : Type :=
| TRet (c : string) (i : nat)
| TStop (c : string) (i : nat)
| TLoad (v : string) (i : nat) (c a : string)
| TLet (v : string) (e : text)
| TStore (a : string) (i : nat) (e : text).
Definition stmt_text {G : SigOps} (s : sstmt G) : tstmt :=
  match s with
  | QRet c i => TRet c i
  | QStop c i => TStop c i
  | QLoad v i c a => TLoad v i c a
  | QLet v e => TLet v (text_of e)
  | QStore a i e => TStore a i (text_of e)
  end.
(** The body that a run of the generator wrote (codelets.cc:327-346, 349-368). *)
Definition written {G : SigOps} (r : res (qst G)) : list tstmt :=
  match r with Ok g => map stmt_text (q_out G g) | _ => [] end.

(** The value of an expression with S = double; [None]: not such an expression, or an undeclared variable. *)
Fixpoint dval (I : string -> option double) (e : text) : option double :=
  let two f a b := match dval I a, dval I b with Some x, Some y => Some (f x y) | _, _ => None end in
  match e with
  | XVar v => I v
  | XInt n => Some (dofZ n)
  | XNeg a => option_map dneg (dval I a)
  | XAdd a b => two dadd a b
  | XSub a b => two dsub a b
  | XMul a b => two dmul a b
  | XBad => None
  end.
Definition memd : Type := Z -> option double.
Definition declare (I : string -> option double) (v : string) (x : double) : string -> option double :=
  fun w => if String.eqb w v then Some x else I w.
Definition poke (m : memd) (p : Z) (v : double) : memd := fun q => if q =? p then Some v else m q.
(** The statements one after another; as in BaseGenRun.v the arrays are pointers into one memory and
    may overlap; an access outside of it is undefined ([None]). *)
Fixpoint drun (f : frame) (l : list tstmt) (I : string -> option double) (m : memd) : option memd :=
  match l with
  | [] => Some m
  | TRet c i :: t => if f_int f c <=? Z.of_nat i then Some m else drun f t I m
  | TStop c i :: t => if f_int f c =? Z.of_nat i then Some m else drun f t I m
  | TLoad v i c a :: t =>
      if Z.of_nat i <? f_int f c
      then match m (f_ptr f a + Z.of_nat i) with Some x => drun f t (declare I v x) m | None => None end
      else drun f t (declare I v (dofZ 0)) m
  | TLet v e :: t => match dval I e with Some x => drun f t (declare I v x) m | None => None end
  | TStore a i e :: t =>
      let p := f_ptr f a + Z.of_nat i in
      match m p, dval I e with Some _, Some x => drun f t I (poke m p x) | _, _ => None end
  end.
(** A call: no variable is declared yet. *)
Definition call (f : frame) (l : list tstmt) (m : memd) : option memd := drun f l (fun _ => None) m.
