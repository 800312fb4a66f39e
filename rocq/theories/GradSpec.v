(** Specification for codelets.cc:496-546 [gradient]: formal partial derivatives of expressions,
    and the circuits [gradient] is meant for.  Nothing here refers to the algorithm. *)
From Coq Require Import String ZArith List Bool.
From Verif Require Import Base Field ExpModel ExpProofs BlockProofs.
Import ListNotations.
Open Scope Z_scope.

Section Spec.
Variables (F : Fld) (G : SigOps) (I : interp F).
(** The node [x], known by its signature, occurs in [e]. *)
Definition mentions (x e : exp G) : Prop := exists z, In z (subs e) /\ sig_of z = sig_of x.
(** Partial derivative with respect to the node [x] (a variable, or one field of a complex
    variable) at the point [I]: the rules for sums, differences, negations and products; anything
    else counts as constant. *)
Fixpoint deriv (x e : exp G) : F :=
  if sg_eqb G (sig_of e) (sig_of x) then k1 else
  match e with
  | E ONeg [a] _ => kopp (deriv x a)
  | E OAdd [a; b] _ => kadd (deriv x a) (deriv x b)
  | E OSub [a; b] _ => ksub (deriv x a) (deriv x b)
  | E OMul [a; b] _ => kadd (kmul (deriv x a) (eval I b)) (kmul (eval I a) (deriv x b))
  | _ => k0
  end.
(** Calls, fields and divisions may occur as long as they do not involve [x]: exp.cc:225-247 gives
    them the placeholder derivative "unknown". *)
Fixpoint smooth (x e : exp G) : Prop :=
  if sg_eqb G (sig_of e) (sig_of x) then True else
  match e with
  | E ONeg [a] _ => smooth x a
  | E OAdd [a; b] _ | E OSub [a; b] _ | E OMul [a; b] _ => smooth x a /\ smooth x b
  | E (OField _) _ _ | E (ODiv _) _ _ | E (OCall _) _ _ => ~ mentions x e
  | _ => True
  end.
(** The number of arguments each kind of node has in exp.cc:22-70. *)
Definition arity_ok (e : exp G) : Prop :=
  match e with
  | E (OVar _) l _ | E (OInt _) l _ | E (OOther _ _) l _ => l = []
  | E ONeg l _ | E (OField _) l _ | E (ODiv _) l _ => length l = 1%nat
  | E OAdd l _ | E OSub l _ | E OMul l _ => length l = 2%nat
  | E (OCall _) _ _ => True
  end.
(** All subexpressions of the outputs. *)
Definition nodes (ys : list (exp G)) : list (exp G) := flat_map subs ys.
(** What the caller has to ensure about the outputs: one expression per signature (common
    subexpression elimination), and no output below another or repeated. *)
Record circuit (ys : list (exp G)) : Prop := {
  ci_canonical : forall a b, In a (nodes ys) -> In b (nodes ys) -> sig_of a = sig_of b -> a = b;
  ci_arity : forall a, In a (nodes ys) -> arity_ok a;
  ci_wfe : forall a, In a (nodes ys) -> wfe a;
  ci_distinct : NoDup ys;
  ci_apart : forall z a, In z (nodes ys) -> In a (args_of z) -> ~ In a ys
}.
(** sum over the outputs of dys_i * d ys_i / d x *)
Definition pullback (x : exp G) (ys dys : list (exp G)) : F :=
  fold_right kadd k0 (map (fun p => kmul (eval I (snd p)) (deriv x (fst p))) (combine ys dys)).
End Spec.
Arguments mentions {G}. Arguments deriv {F G}. Arguments smooth {G}. Arguments arity_ok {G}. Arguments nodes {G}. Arguments circuit {G}. Arguments pullback {F G}.
