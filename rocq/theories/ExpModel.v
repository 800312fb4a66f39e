(** Model of exp.h / exp.cc (symbolic expressions with signatures, common subexpression
    elimination) and of the Block and gradient parts of codelets.cc.

    Simplifications: an expression is a tree (the C++ code shares nodes through shared_ptr to
    const data, which cannot be observed); signatures are an abstract type with the operations
    the code uses; a CSE object is active throughout (the assertion of exp.cc:137 holds);
    numeric operations on int are checked for overflow only where the code negates an int. *)
From Coq Require Import String Ascii DecimalString ZArith List Bool.
From Verif Require Import Base Field.
Import ListNotations.
Open Scope Z_scope.

(** sig.h:36-81, the signature operations used by exp.cc.  [sg_inv] may fail an assertion. *)
Record SigOps : Type := {
  sgT :> Type;
  sg_eqb : sgT -> sgT -> bool;
  sg_int : Z -> sgT;
  sg_neg : sgT -> sgT;
  sg_add : sgT -> sgT -> sgT;
  sg_sub : sgT -> sgT -> sgT;
  sg_mul : sgT -> sgT -> sgT;
  sg_inv : sgT -> res sgT;
  sg_arb : option string -> list sgT -> sgT;
  sg_unsmall : sgT -> option Z;
  sg_eqb_ok : forall a b, sg_eqb a b = true <-> a = b
}.

(** exp.cc:30-70, the kinds of expression with their non-expression data. *)
Inductive op : Type :=
| OVar (v : string) | OInt (n : Z) | OField (f : string) | ONeg
| OAdd | OSub | OMul | ODiv (a : Z) | OCall (f : string) | OOther (s : string) (prec : Z).

Section Exp.
Variable G : SigOps.

(** exp.cc:73-76 [ExpData]: the node, its arguments and its signature. *)
Inductive exp : Type := E (o : op) (args : list exp) (s : G).
Definition op_of (e : exp) : op := match e with E o _ _ => o end.
Definition args_of (e : exp) : list exp := match e with E _ l _ => l end.  (* exp.cc:106-108 *)
Definition sig_of (e : exp) : G := match e with E _ _ s => s end.  (* exp.cc:82 *)

(** exp.cc:78-79 *)
Definition mkint (n : Z) : exp := E (OInt n) [] (sg_int G n).
Definition mkvar (v : string) (s : G) : exp := E (OVar v) [] s.

(** exp.cc:81 [fast]: variant index below 4. *)
Definition fast_op (o : op) : bool :=
  match o with OVar _ | OInt _ | OField _ | ONeg => true | _ => false end.

(** exp.cc:88-92 [unint]; exp.h:49-51 [zero], [one], [two]. *)
Definition unint (e : exp) : option Z := match op_of e with OInt n => Some n | _ => None end.
Definition is_int (n : Z) (e : exp) : bool := match unint e with Some m => m =? n | None => false end.
(** Negation of an int: overflow is undefined. *)
Definition int_neg (n : Z) : res Z := if n =? - 2 ^ 31 then UB else Ok (- n).
(** exp.cc:94-100 [unneg] *)
Definition unneg (e : exp) : res (option exp) :=
  match e with
  | E (OInt n) _ _ => if n <? 0 then m <- int_neg n ;; Ok (Some (mkint m)) else Ok None
  | E ONeg [x] _ => Ok (Some x)
  | _ => Ok None
  end.

(** exp.cc:22-70: the [arbitrary] member of each kind; [s] is the stored signature of leaves. *)
Definition node_arb (o : op) (args : list exp) (s : G) : G :=
  match o with
  | OVar _ | OOther _ _ => s
  | OInt n => sg_int G n
  | OField f => sg_arb G (Some f) (map sig_of args)
  | ONeg => match args with [x] => sg_neg G (sig_of x) | _ => s end
  | OAdd | OSub | OMul => sg_arb G None (map sig_of args)
  | ODiv a => sg_arb G None (map sig_of args ++ [sg_int G a])
  | OCall f => sg_arb G (Some f) (map sig_of args)
  end.

(** exp.h:75-87 [CSE]: mode and table.  [lg] is a ghost: every expression offered to the table. *)
Record cst : Type := { exact : bool; tbl : list (G * exp); lg : list exp }.
Definition M (A : Type) : Type := cst -> res (A * cst).
Definition ret {A} (a : A) : M A := fun st => Ok (a, st).
Definition mbind {A B} (m : M A) (f : A -> M B) : M B := fun st => ' (a, st) <- m st ;; f a st.
Definition lift {A} (r : res A) : M A := fun st => a <- r ;; Ok (a, st).

Fixpoint lookup {A} (l : list (G * A)) (s : G) : option A :=
  match l with
  | [] => None
  | (k, a) :: t => if sg_eqb G k s then Some a else lookup t s
  end.

(** exp.cc:123-134 [CSE::cse] *)
Definition cse_exp (e : exp) : M exp := fun st =>
  if fast_op (op_of e) then Ok (e, st) else
  let st := {| exact := exact st; tbl := tbl st; lg := e :: lg st |} in
  match sg_unsmall G (sig_of e) with
  | Some n => Ok (mkint n, st)
  | None =>
      match lookup (tbl st) (sig_of e) with
      | Some e' => Ok (e', st)
      | None => Ok (e, {| exact := exact st; tbl := (sig_of e, e) :: tbl st; lg := lg st |})
      end
  end.
(** exp.cc:136-141 *)
Definition cse (o : op) (args : list exp) (s : G) : M exp := fun st =>
  cse_exp (E o args (if exact st then s else node_arb o args s)) st.

(** exp.cc:148-152 unary minus *)
Definition exp_neg (e : exp) : M exp :=
  match unint e with
  | Some n => mbind (lift (int_neg n)) (fun m => ret (mkint m))
  | None => mbind (lift (unneg e)) (fun u =>
      match u with
      | Some x => ret x
      | None => cse ONeg [e] (sg_neg G (sig_of e))
      end)
  end.

(** exp.cc:161-175 binary + and - ([sub] selects); [fuel] bounds the mutual recursion. *)
Fixpoint addsub (fuel : nat) (sub : bool) (x y : exp) : M exp :=
  match fuel with
  | O => fun _ => UB
  | S f =>
      if is_int 0 x then (if sub then exp_neg y else ret y) else
      if is_int 0 y then ret x else
      mbind (lift (unneg x)) (fun ux =>
      match ux with
      | Some nx => if sub then mbind (addsub f false nx y) exp_neg else addsub f true y nx
      | None =>
          mbind (lift (unneg y)) (fun uy =>
          match uy with
          | Some ny => addsub f (negb sub) x ny
          | None => if sub then cse OSub [x; y] (sg_sub G (sig_of x) (sig_of y))
                    else cse OAdd [x; y] (sg_add G (sig_of x) (sig_of y))
          end)
      end)
  end.
(** A bound on how often [unneg] can be taken. *)
Fixpoint weight (e : exp) : nat :=
  match e with
  | E (OInt n) _ _ => if n <? 0 then 2 else 1
  | E ONeg [x] _ => S (weight x)
  | _ => 1
  end.
Definition exp_add (x y : exp) : M exp := addsub (weight x + weight y) false x y.
Definition exp_sub (x y : exp) : M exp := addsub (weight x + weight y) true x y.

(** exp.cc:177-184 * *)
Fixpoint mul_fuel (fuel : nat) (x y : exp) : M exp :=
  match fuel with
  | O => fun _ => UB
  | S f =>
      if is_int 0 x || is_int 0 y then ret (mkint 0) else
      mbind (lift (unneg x)) (fun ux =>
      match ux with
      | Some nx => mbind (mul_fuel f nx y) exp_neg
      | None =>
          mbind (lift (unneg y)) (fun uy =>
          match uy with
          | Some ny => mbind (mul_fuel f x ny) exp_neg
          | None =>
              if is_int 1 x then ret y else
              if is_int 1 y then ret x else
              cse OMul [x; y] (sg_mul G (sig_of x) (sig_of y))
          end)
      end)
  end.
Definition exp_mul (x y : exp) : M exp := mul_fuel (weight x + weight y) x y.

(** exp.cc:186-193 division by an int *)
Fixpoint div_fuel (fuel : nat) (x : exp) (a : Z) : M exp :=
  match fuel with
  | O => fun _ => UB
  | S f =>
      if a =? 0 then (fun _ => Throw) else
      if a =? 1 then ret x else
      if a =? -1 then exp_neg x else
      if a <? 0 then mbind (lift (int_neg a)) (fun b => mbind (div_fuel f x b) exp_neg) else
      mbind (lift (unneg x)) (fun ux =>
      match ux with
      | Some nx => mbind (div_fuel f nx a) exp_neg
      | None => mbind (lift (sg_inv G (sg_int G a))) (fun i => cse (ODiv a) [x] (sg_mul G (sig_of x) i))
      end)
  end.
Definition exp_div (x : exp) (a : Z) : M exp := div_fuel (S (weight x)) x a.

(** exp.cc:195-205, 214: calls; the signature is supplied by the caller (random for fma). *)
Definition exp_call (f : string) (args : list exp) (s : G) : M exp := cse (OCall f) args s.
Definition exp_other (t : string) (prec : Z) (s : G) : M exp := cse (OOther t prec) [] s.
Definition exp_fma (x y z : exp) (draw : G) : M exp := exp_call "fma" [x; y; z] draw.
Definition exp_inv (x : exp) : M exp := mbind (lift (sg_inv G (sig_of x))) (fun i => exp_call "inv" [x] i).
(** exp.cc:216-219 *)
Definition exp_field (x : exp) (f : string) : M exp := cse (OField f) [x] (sg_arb G (Some f) [sig_of x]).

(** exp.cc:207-212 [sum]; the two halves are evaluated in either order ([lr]: first half first). *)
Fixpoint sum_fuel (fuel : nat) (lr : bool) (xs : list exp) : M exp :=
  match fuel with
  | O => fun _ => UB
  | S f =>
      match xs with
      | [] => ret (mkint 0)
      | [x] => ret x
      | _ =>
          let n := length xs in
          let a := firstn (n / 2) xs in
          let b := skipn (n - (n + 1) / 2) xs in
          if lr then mbind (sum_fuel f lr a) (fun u => mbind (sum_fuel f lr b) (fun v => exp_add u v))
          else mbind (sum_fuel f lr b) (fun v => mbind (sum_fuel f lr a) (fun u => exp_add u v))
      end
  end.
Definition exp_sum (lr : bool) (xs : list exp) : M exp := sum_fuel (S (length xs)) lr xs.

(** exp.cc:225-247 [grad]; [unknown] is the variable standing for derivatives not implemented. *)
Definition exp_grad (unknown e : exp) : list exp :=
  match e with
  | E (OVar _) _ _ | E (OInt _) _ _ | E (OOther _ _) _ _ => []
  | E ONeg _ _ => [mkint (-1)]
  | E OAdd _ _ => [mkint 1; mkint 1]
  | E OSub _ _ => [mkint 1; mkint (-1)]
  | E OMul [x; y] _ => [y; x]
  | E OMul _ _ => []
  | E (OField _) _ _ | E (ODiv _) _ _ => [unknown]
  | E (OCall _) l _ => map (fun _ => unknown) l
  end.

(** ** codelets.cc:110-186 [Block] *)
(** [lines] are the emitted declarations "const auto name = exp;", oldest first; the text of an
    expression is modelled in ShowModel.v.  [counts] holds the use counts. *)
Record bst : Type := {
  names : list string;
  counts : list (G * nat);
  lets : list (G * exp);
  lines : list (string * exp)
}.
Definition block0 : bst := {| names := []; counts := []; lets := []; lines := [] |}.
Definition decimal (n : nat) : string := NilEmpty.string_of_uint (Nat.to_uint n).
(** codelets.cc:118-124 [fresh]: candidates prefix, prefix0, prefix1, ... *)
Definition candidate (prefix : string) (k : nat) : string :=
  match k with O => prefix | S n => (prefix ++ decimal n)%string end.
Fixpoint fresh_from (fuel k : nat) (prefix : string) (used : list string) : res string :=
  match fuel with
  | O => UB
  | S f => let s := candidate prefix k in
           if existsb (String.eqb s) used then fresh_from f (S k) prefix used else Ok s
  end.
Definition fresh (prefix : string) (b : bst) : res (string * bst) :=
  s <- fresh_from (S (length (names b))) 0 prefix (names b) ;;
  Ok (s, {| names := s :: names b; counts := counts b; lets := lets b; lines := lines b |}).
(** codelets.cc:130-135 [input]; the signature is a random draw. *)
Definition input (name : string) (draw : G) (b : bst) : res (exp * bst) :=
  _ <- slow_assert (negb (existsb (String.eqb name) (names b))) ;;
  Ok (mkvar name draw, {| names := name :: names b; counts := counts b; lets := lets b; lines := lines b |}).
(** codelets.cc:145-150 [now] *)
Definition now (prefix : string) (e : exp) (b : bst) : res (exp * bst) :=
  ' (s, b) <- fresh prefix b ;;
  Ok (mkvar s (sig_of e), {| names := names b; counts := counts b; lets := lets b; lines := lines b ++ [(s, e)] |}).
(** codelets.cc:153-159 [use] *)
Definition count_of (l : list (G * nat)) (s : G) : nat := match lookup l s with Some n => n | None => O end.
Definition bump (s : G) (b : bst) : bst :=
  {| names := names b; counts := (s, S (count_of (counts b) s)) :: counts b; lets := lets b; lines := lines b |}.
Fixpoint use (e : exp) (b : bst) : bst :=
  match e with
  | E _ args s =>
      let b := match count_of (counts b) s with
               | O => fold_left (fun b x => use x b) args b
               | S _ => b
               end in
      bump s b
  end.
(** codelets.cc:164-179 [compute] *)
Fixpoint compute (e : exp) (b : bst) : res (exp * bst) :=
  match e with
  | E o args s =>
      match lookup (lets b) s with
      | Some v => Ok (v, b)
      | None =>
          match lookup (counts b) s with
          | None => Throw
          | Some c =>
              ' (ys, b) <- (fix go (l : list exp) (b : bst) : res (list exp * bst) :=
                              match l with
                              | [] => Ok ([], b)
                              | x :: t => ' (y, b) <- compute x b ;; ' (ys, b) <- go t b ;; Ok (y :: ys, b)
                              end) args b ;;
              let y := E o ys s in
              if fast_op o || (c =? 1)%nat then Ok (y, b) else
              ' (v, b) <- now "t" y b ;;
              Ok (v, {| names := names b; counts := counts b; lets := (s, v) :: lets b; lines := lines b |})
          end
      end
  end.

(** ** codelets.cc:496-546 [gradient] *)
(** Per signature: number of contributions still needed, and the contributions received. *)
Definition gst : Type := list (G * (Z * list exp)).
Definition gget (g : gst) (s : G) : Z * list exp := match lookup g s with Some p => p | None => (0, []) end.
Definition gset (g : gst) (s : G) (p : Z * list exp) : gst := (s, p) :: g.
(** codelets.cc:504-515: one worklist step of the need count; the worklist top is the head. *)
Definition need_args (g : gst) (work : list exp) (args : list exp) : gst * list exp :=
  fold_left (fun '(g, work) x =>
      let '(n, ts) := gget g (sig_of x) in
      (gset g (sig_of x) (n + 1, ts), if n =? 0 then x :: work else work))
    args (g, work).
Fixpoint need_loop (fuel : nat) (g : gst) (work : list exp) : option gst :=
  match work with
  | [] => Some g
  | z :: w =>
      match fuel with
      | O => None
      | S f => let '(g, w) := need_args g w (args_of z) in need_loop f g w
      end
  end.
(** codelets.cc:521-536: propagate. *)
Definition grad_arg (dz : exp) (acc : gst * list exp) (xg : exp * exp) : M (gst * list exp) :=
  let '(g, work) := acc in
  let '(x, gr) := xg in
  mbind (exp_mul gr dz) (fun t =>
    let '(n, ts) := gget g (sig_of x) in
    ret (gset g (sig_of x) (n - 1, ts ++ [t]), if n - 1 =? 0 then x :: work else work)).
Fixpoint mfold {A B} (f : A -> B -> M A) (l : list B) (a : A) : M A :=
  match l with
  | [] => ret a
  | b :: t => mbind (f a b) (fun a => mfold f t a)
  end.
Fixpoint grad_loop (fuel : nat) (lr : bool) (unknown : exp) (g : gst) (work : list exp) : M (option gst) :=
  match work with
  | [] => ret (Some g)
  | z :: w =>
      match fuel with
      | O => ret None
      | S f =>
          let '(n, ts) := gget g (sig_of z) in
          mbind (exp_sum lr ts) (fun dz =>
          let g := gset g (sig_of z) (n, [dz]) in
          let gs := exp_grad unknown z in
          mbind (lift (slow_assert (length (args_of z) =? length gs)%nat)) (fun _ =>
          mbind (mfold (grad_arg dz) (combine (args_of z) gs) (g, w)) (fun '(g, w) =>
          grad_loop f lr unknown g w)))
      end
  end.
(** codelets.cc:538-545: read off. *)
Fixpoint grad_read (g : gst) (xs : list exp) : res (list exp) :=
  match xs with
  | [] => Ok []
  | x :: t =>
      let '(n, ts) := gget g (sig_of x) in
      match ts with
      | [d] => if n =? 0 then r <- grad_read g t ;; Ok (d :: r) else Throw
      | _ => Throw
      end
  end.
Definition seed_terms (g : gst) (ys dys : list exp) : gst :=
  fold_left (fun g '(y, d) => let '(n, ts) := gget g (sig_of y) in gset g (sig_of y) (n, ts ++ [d])) (combine ys dys) g.
(** [fuel] bounds both worklist loops; [None] = out of fuel.  The worklist is a stack: its top is
    the last element of the C++ vector, the head here. *)
Definition gradient (fuel : nat) (lr : bool) (unknown : exp) (xs ys dys : list exp) : M (option (list exp)) :=
  mbind (lift (slow_assert (length ys =? length dys)%nat)) (fun _ =>
  match need_loop fuel [] (rev ys) with
  | None => ret None
  | Some g =>
      mbind (grad_loop fuel lr unknown (seed_terms g ys dys) (rev ys)) (fun og =>
      match og with
      | None => ret None
      | Some g => mbind (lift (grad_read g xs)) (fun r => ret (Some r))
      end)
  end).
End Exp.

Arguments E {G} _ _ _.
Arguments op_of {G} _.
Arguments args_of {G} _.
Arguments sig_of {G} _.
Arguments mkint {G} _.
Arguments mkvar {G} _ _.

(** ** Meaning of expressions *)
(** Values of variables, of opaque texts, and of the functions and fields named in calls. *)
Record interp (F : Fld) : Type := {
  iv : string -> F;
  iother : string -> F;
  ifield : string -> F -> F;
  icall : string -> list F -> F
}.
Arguments iv {F}. Arguments iother {F}. Arguments ifield {F}. Arguments icall {F}.
(** Mathematical value of a node (spec). *)
Definition opval {F : Fld} (I : interp F) (o : op) (l : list F) : F :=
  match o, l with
  | OVar v, [] => iv I v
  | OInt n, [] => kofZ n
  | OField f, [a] => ifield I f a
  | ONeg, [a] => kopp a
  | OAdd, [a; b] => kadd a b
  | OSub, [a; b] => ksub a b
  | OMul, [a; b] => kmul a b
  | ODiv n, [a] => kdiv a (kofZ n)
  | OCall f, l => icall I f l
  | OOther s _, [] => iother I s
  | _, _ => k0
  end.
Fixpoint eval {F : Fld} {G : SigOps} (I : interp F) (e : exp G) : F :=
  match e with E o args _ => opval I o (map (eval I) args) end.
