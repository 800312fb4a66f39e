(** What the generated statements (GenModel.v [stmt]) do: a small machine.  Specification, independent
    of the generator.

    Variables hold numbers.  A complex variable holds a handle, whose parts "r" and "i" are given by
    [ifield]; loading y[i] into it sets those two parts.  Integer variables hold integers.  Reading or
    writing y outside its length, or using a number that is not a natural as an index, is undefined
    ([None]); the array x is guarded by its length as in the text (codelets.cc:466-480). *)
From Coq Require Import String ZArith List Bool Reals.
From Verif Require Import Base Field FieldInst ExpModel BlockProofs GenModel.
Import ListNotations.
Open Scope Z_scope.

Record mach : Type := { env : interp RF; ym : list (R * R); xm : list R }.
Definition as_int (a : R) : option Z := if Req_EM_T (IZR (Int_part a)) a then Some (Int_part a) else None.
Definition as_nat (a : R) : option nat := match as_int a with Some z => if z <? 0 then None else Some (Z.to_nat z) | None => None end.
(** Integer definitions, codelets.cc:755, 775-776, 809-811. *)
Definition text_val (I : interp RF) (t : itext) : option Z :=
  let int v := as_int (iv I v) in
  match t with
  | TPow s k => match int s with Some a => if a - k <? 0 then None else Some (2 ^ (a - k)) | None => None end
  | TAnd j m => match int j, int m with Some a, Some b => Some (Z.land a (b - 1)) | _, _ => None end
  | TSubShl j j1 k => match int j, int j1 with Some a, Some b => Some ((a - b) * 2 ^ k) | _, _ => None end
  | TShl m k => match int m with Some a => Some (a * 2 ^ k) | None => None end
  end.
Definition set_cx (I : interp RF) (n : string) (c : R * R) : interp RF :=
  Build_interp RF (iv I) (iother I)
    (fun f a => if Req_EM_T a (iv I n) then (if String.eqb f "r" then fst c else if String.eqb f "i" then snd c else ifield I f a) else ifield I f a) (icall I).
Fixpoint upd {A} (l : list A) (i : nat) (v : A) : list A :=
  match l, i with [], _ => [] | _ :: t, O => v :: t | x :: t, S k => x :: upd t k v end.
Section Run.
Variable G : SigOps.
Definition step (t : stmt G) (s : mach) : option mach :=
  let I := env s in
  match t with
  | SText _ n t => match text_val I t with Some z => Some {| env := set_iv I n (IZR z); ym := ym s; xm := xm s |} | None => None end
  | SLet _ n e => Some {| env := set_iv I n (eval I e); ym := ym s; xm := xm s |}
  | SGetY _ n i =>
      match as_nat (eval I i) with
      | Some k => match nth_error (ym s) k with Some c => Some {| env := set_cx I n c; ym := ym s; xm := xm s |} | None => None end
      | None => None
      end
  | SGetX _ n i =>
      match as_nat (eval I i) with
      | Some k => Some {| env := set_iv I n (nth k (xm s) 0%R : RF); ym := ym s; xm := xm s |}
      | None => None
      end
  | SSetY _ i a b =>
      match as_nat (eval I i) with
      | Some k => if (k <? length (ym s))%nat then Some {| env := I; ym := upd (ym s) k (eval I a, eval I b); xm := xm s |} else None
      | None => None
      end
  | SSetX _ i (add, neg) a =>
      match as_nat (eval I i) with
      | Some k =>
          let old := nth k (xm s) 0%R in
          let v := eval I a in
          Some {| env := I; ym := ym s; xm := if (k <? length (xm s))%nat then upd (xm s) k (if add then if neg then old - v else old + v else v)%R else xm s |}
      | None => None
      end
  end.
Fixpoint run (l : list (stmt G)) (s : mach) : option mach :=
  match l with [] => Some s | t :: r => match step t s with Some s' => run r s' | None => None end end.
End Run.
