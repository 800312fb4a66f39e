(** What a user of Series objects and views expects (LifeModel.v): a series is a family of terms; a
    view follows the terms of the object it was made of, to whichever object they go. *)
From Coq Require Import ZArith List Bool.
From Verif Require Import Base LifeModel.
Import ListNotations.
Open Scope Z_scope.

Section Spec.
Variable V : Type.
Record vseries : Type := { room : Z; terms : Z -> option V; k_ : Z; nz_ : Z }.
Definition v_empty : vseries := {| room := 0; terms := fun _ => None; k_ := 0; nz_ := 0 |}.
(** A view: the object that has its terms now (none: they are gone), its known terms and its length. *)
Record state : Type := { val : nat -> option vseries; seen : list (option nat * (Z * Z)) }.
Definition at_ {A : Type} (f : nat -> A) (o : nat) (x : A) : nat -> A := fun k => if Nat.eqb k o then x else f k.
Definition follow (g : nat -> option nat) (l : list (option nat * (Z * Z))) : list (option nat * (Z * Z)) :=
  map (fun x => (match fst x with None => None | Some o => g o end, snd x)) l.
Definition put (f : Z -> option V) (i : Z) (v : V) : Z -> option V := fun k => if k =? i then Some v else f k.
Definition s_counts (s : state) (o : nat) (a : vseries) (k n : Z) : state * res (out V) :=
  ({| val := at_ (val s) o (Some {| room := room a; terms := terms a; k_ := k; nz_ := n |}); seen := seen s |}, Ok (ONone V)).
Definition s_step (x : lop V) (s : state) : state * res (out V) :=
  match x with
  | LNew _ o n => match val s o with Some _ => (s, UB) | None =>
      ({| val := at_ (val s) o (Some {| room := Z.max n 0; terms := fun _ => None; k_ := 0; nz_ := 0 |}); seen := seen s |}, Ok (ONone V)) end
  | LList _ o n cs => match val s o with Some _ => (s, UB) | None =>
      let c := Z.of_nat (length cs) in
      if Z.max n 0 <? c then (s, Throw)
      else ({| val := at_ (val s) o (Some {| room := Z.max n 0; terms := fun i => if i <? 0 then None else nth_error cs (Z.to_nat i); k_ := c; nz_ := c |}); seen := seen s |}, Ok (ONone V)) end
  | LMove _ o p => match val s o, val s p with
      | None, Some a => ({| val := at_ (at_ (val s) o (Some a)) p (Some v_empty); seen := follow (fun q => if Nat.eqb q p then Some o else Some q) (seen s) |}, Ok (ONone V))
      | _, _ => (s, UB) end
  | LSwap _ o p => match val s o, val s p with
      | Some a, Some b => ({| val := at_ (at_ (val s) o (Some b)) p (Some a);
                              seen := follow (fun q => if Nat.eqb q o then Some p else if Nat.eqb q p then Some o else Some q) (seen s) |}, Ok (ONone V))
      | _, _ => (s, UB) end
  | LClear _ o => match val s o with None => (s, UB) | Some _ =>
      ({| val := at_ (val s) o (Some v_empty); seen := follow (fun q => if Nat.eqb q o then None else Some q) (seen s) |}, Ok (ONone V)) end
  | LScalar _ o k v => match val s o with None => (s, UB) | Some a =>
      if k <=? 0 then ({| val := at_ (val s) o (Some {| room := room a; terms := terms a; k_ := 0; nz_ := 0 |}); seen := seen s |}, Ok (ONone V))
      else if room a =? 0 then (s, Throw)
      else ({| val := at_ (val s) o (Some {| room := room a; terms := put (terms a) 0 v; k_ := k; nz_ := 1 |}); seen := seen s |}, Ok (ONone V)) end
  | LAssign _ o k => match val s o, nth_error (seen s) k with
      | None, _ => (s, UB)
      | _, None => (s, Ok (ONone V))
      | Some a, Some (w, (kn, n)) =>
          if room a <? n then (s, Throw)
          else if n <? 0 then (s, UB)
          else if n =? 0 then s_counts s o a kn 0
          else match w with None => (s, UB) | Some q =>
            if Nat.eqb q o then (s, UB) else
            match val s q with None => (s, UB) | Some b =>
              if forallb (fun i => match terms b (Z.of_nat i) with Some _ => true | None => false end) (seq 0 (Z.to_nat n))
              then s_counts s o {| room := room a; terms := fun i => if (0 <=? i) && (i <? n) then terms b i else terms a i; k_ := 0; nz_ := 0 |} kn n
              else (s, UB) end end
      end
  | LUnknown _ o => match val s o with None => (s, UB) | Some a => s_counts s o a 0 0 end
  | LCounts _ o k n => match val s o with None => (s, UB) | Some a =>
      (* with a negative k any n that is not negative passes, however large *)
      if (if k <? 0 then (k <? n) && (n <? 0) else (n <? 0) || (k <? n) || (room a <? n)) then (s, Throw) else s_counts s o a k n end
  | LKnown _ o k => match val s o with None => (s, UB) | Some a => if k <? 0 then (s, Throw) else s_counts s o a k (if k <? nz_ a then k else nz_ a) end
  | LInfo _ o => match val s o with None => (s, UB) | Some a => (s, Ok (OInfo V (k_ a) (nz_ a) (room a))) end
  | LView _ o => match val s o with None => (s, UB) | Some a => ({| val := val s; seen := seen s ++ [(Some o, (k_ a, nz_ a))] |}, Ok (ONone V)) end
  | LRead _ k i => match nth_error (seen s) k with None => (s, Ok (ONone V)) | Some (w, (_, n)) =>
      if (0 <=? i) && (i <? n) then
        match w with None => (s, UB) | Some o =>
          match val s o with None => (s, UB) | Some a => match terms a i with None => (s, UB) | Some v => (s, Ok (OVal V v)) end end end
      else (s, UB) end
  | LWrite _ k i v => match nth_error (seen s) k with None => (s, Ok (ONone V)) | Some (w, (_, n)) =>
      if (0 <=? i) && (i <? n) then
        match w with None => (s, UB) | Some o =>
          match val s o with None => (s, UB) | Some a => if room a <=? i then (s, UB) else
            ({| val := at_ (val s) o (Some {| room := room a; terms := put (terms a) i v; k_ := k_ a; nz_ := nz_ a |}); seen := seen s |}, Ok (ONone V)) end end
      else (s, UB) end
  | LDestroy _ o => match val s o with None => (s, UB) | Some _ =>
      ({| val := at_ (val s) o None; seen := follow (fun q => if Nat.eqb q o then None else Some q) (seen s) |}, Ok (ONone V)) end
  end.
Fixpoint s_run (l : list (lop V)) (s : state) : list (res (out V)) * state :=
  match l with
  | [] => ([], s)
  | x :: l => let (s, r) := s_step x s in
              match r with UB => ([UB], s) | _ => let (rs, s) := s_run l s in (r :: rs, s) end
  end.
Definition s0 : state := {| val := fun _ => None; seen := [] |}.
End Spec.
