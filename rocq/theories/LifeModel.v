(** Model of the lifetimes of Series objects and of views into them: Array (array.h:20-57) and the
    constructors, clear, set_scalar, operator=, swap, set_unknown, set_counts and set_known of Series (series.h:59-128, 167-177),
    on the host.

    What is simplified: an allocation that fails (malloc returning a null pointer) does not occur;
    trivially destructible elements.  The arithmetic on series is in SeriesModel.v and AliasModel.v. *)
From Coq Require Import ZArith List Bool.
From Verif Require Import Base.
Import ListNotations.
Open Scope Z_scope.

Section Life.
Variable V : Type.

(** Blocks of malloc (array.h:40), with cells that may be unset; [None]: never allocated, or freed. *)
Record heap : Type := { nxt : nat; blocks : nat -> option (list (option V)) }.
(** array.h:40. *)
Definition alloc (h : heap) (c : list (option V)) : nat * heap :=
  (nxt h, {| nxt := S (nxt h); blocks := fun i => if Nat.eqb i (nxt h) then Some c else blocks h i |}).
(** A block changed (series.h:85, 107) or freed (array.h:28). *)
Definition set_block (h : heap) (b : nat) (c : option (list (option V))) : heap :=
  {| nxt := nxt h; blocks := fun i => if Nat.eqb i b then c else blocks h i |}.
(** array.h:25-30: the deleter of unique_ptr. *)
Definition release (h : heap) (p : option nat) : res heap :=
  match p with None => Ok h | Some b => match blocks h b with None => UB | Some _ => Ok (set_block h b None) end end.
(** Reads and writes through a pointer (series.h:85, 107, 139); a read of an unset cell is undefined. *)
Definition load (h : heap) (p : option nat) (i : Z) : res V :=
  match p with
  | None => UB
  | Some b => match blocks h b with
              | None => UB
              | Some c => if i <? 0 then UB else match nth_error c (Z.to_nat i) with Some (Some v) => Ok v | _ => UB end
              end
  end.
(** One cell of a block assigned (series.h:85, 107, 139). *)
Fixpoint replace (c : list (option V)) (n : nat) (v : V) : list (option V) :=
  match c, n with [], _ => [] | _ :: c, O => Some v :: c | x :: c, S n => x :: replace c n v end.
(** A write through a pointer (series.h:85, 107, 139). *)
Definition save (h : heap) (p : option nat) (i : Z) (v : V) : res heap :=
  match p with
  | None => UB
  | Some b => match blocks h b with
              | None => UB
              | Some c => if (i <? 0) || (Z.of_nat (length c) <=? i) then UB else Ok (set_block h b (Some (replace c (Z.to_nat i) v)))
              end
  end.

(** array.h:31-32, series.h:69-70. *)
Record series : Type := { size : Z; ptr : option nat; known : Z; nonzero : Z }.
(** array.h:35 and series.h:76; array.h:36-44 and series.h:77. *)
Definition empty : series := {| size := 0; ptr := None; known := 0; nonzero := 0 |}.
Definition make (n : Z) (h : heap) : series * heap :=
  let s := Z.max n 0 in
  if s =? 0 then ({| size := 0; ptr := None; known := 0; nonzero := 0 |}, h)
  else let (b, h) := alloc h (repeat None (Z.to_nat s)) in ({| size := s; ptr := Some b; known := 0; nonzero := 0 |}, h).
(** series.h:83-85: the loop over the initializer list. *)
Fixpoint save_all (h : heap) (p : option nat) (i : Z) (cs : list V) : res heap :=
  match cs with [] => Ok h | c :: cs => h <- save h p i c ;; save_all h p (i + 1) cs end.
(** cutil.h:92-99: what std::copy reads, first to last. *)
Fixpoint load_all (h : heap) (p : option nat) (i : Z) (n : nat) : res (list V) :=
  match n with O => Ok [] | S n => v <- load h p i ;; vs <- load_all h p (i + 1) n ;; Ok (v :: vs) end.
(** A view: pointer, known terms and number of terms (series.h:59, 69-70, 88-91, 195-201). *)
Record view : Type := { vptr : option nat; vkn : Z; vlen : Z }.

(** The program's heap, its Series objects (series.h:59) and its views. *)
Record world : Type := { hp : heap; objs : nat -> option series; views : list view }.
(** Before anything is constructed. *)
Definition world0 : world := {| hp := {| nxt := 0; blocks := fun _ => None |}; objs := fun _ => None; views := [] |}.
(** One object replaced, constructed or destroyed (series.h:76-95). *)
Definition upd (t : nat -> option series) (o : nat) (x : option series) : nat -> option series := fun k => if Nat.eqb k o then x else t k.

(** Operations of series.h:76-128, 134-139, 167-177, 195-201. *)
Inductive lop :=
| LNew (o : nat) (n : Z)                 (* Series(limit) *)
| LList (o : nat) (n : Z) (cs : list V)  (* Series(limit, {...}) *)
| LMove (o p : nat)                      (* Series(Series&&) *)
| LSwap (o p : nat)
| LClear (o : nat)
| LScalar (o : nat) (k : Z) (a : V)      (* set_scalar *)
| LAssign (o k : nat)                    (* o = the k-th view *)
| LUnknown (o : nat)                     (* set_unknown *)
| LCounts (o : nat) (k n : Z)            (* set_counts *)
| LKnown (o : nat) (k : Z)               (* set_known *)
| LInfo (o : nat)                        (* known, nonzero, limit *)
| LView (o : nat)                        (* a SeriesView of o *)
| LRead (k : nat) (i : Z)                (* through the k-th view *)
| LWrite (k : nat) (i : Z) (v : V)
| LDestroy (o : nat).
(** What they return (series.h:135-139). *)
Inductive out := ONone | OInfo (known nonzero limit : Z) | OVal (v : V).
(** series.h:169: two int64_t compared as uint64_t. *)
Definition u64_le (x y : Z) : bool := if (x <? 0) && (0 <=? y) then false else if (0 <=? x) && (y <? 0) then true else x <=? y.
(** series.h:69-70: an object with other counts. *)
Definition recount (w : world) (o : nat) (a : series) (k n : Z) : world * res out :=
  ({| hp := hp w; objs := upd (objs w) o (Some {| size := size a; ptr := ptr a; known := k; nonzero := n |}); views := views w |}, Ok ONone).
(** An operation on an object that is not there, and a step that touches memory. *)
Definition with_obj (w : world) (o : nat) (k : series -> world * res out) : world * res out :=
  match objs w o with None => (w, UB) | Some a => k a end.
Definition with_heap (w : world) (h : res heap) (k : heap -> world * res out) : world * res out :=
  match h with Ok h => k h | Throw => (w, Throw) | UB => (w, UB) end.
(** One operation; lines of series.h at each case. Indices are checked by the assertion of series.h:139:
    a failed one is undefined behaviour in a release build. *)
Definition lstep (x : lop) (w : world) : world * res out :=
  match x with
  | LNew o n => match objs w o with Some _ => (w, UB) | None =>
      let (a, h) := make n (hp w) in ({| hp := h; objs := upd (objs w) o (Some a); views := views w |}, Ok ONone) end
  | LList o n cs => (* series.h:79-86; if the assertion throws, the delegated constructor is done: the array is freed *)
      match objs w o with Some _ => (w, UB) | None =>
      let (a, h) := make n (hp w) in
      if Z.of_nat (length cs) <=? size a then
        with_heap w (save_all h (ptr a) 0 cs) (fun h =>
          ({| hp := h; objs := upd (objs w) o (Some {| size := size a; ptr := ptr a; known := Z.of_nat (length cs); nonzero := Z.of_nat (length cs) |}); views := views w |}, Ok ONone))
      else with_heap w (release h (ptr a)) (fun h => ({| hp := h; objs := objs w; views := views w |}, Throw)) end
  | LMove o p => (* series.h:92-94, array.h:45 *)
      match objs w o with Some _ => (w, UB) | None => with_obj w p (fun a =>
        ({| hp := hp w; objs := upd (upd (objs w) o (Some a)) p (Some empty); views := views w |}, Ok ONone)) end
  | LSwap o p => (* series.h:124-128, array.h:55 *)
      with_obj w o (fun a => with_obj w p (fun b =>
        ({| hp := hp w; objs := upd (upd (objs w) o (Some b)) p (Some a); views := views w |}, Ok ONone)))
  | LClear o => (* series.h:96, array.h:56 *)
      with_obj w o (fun a => with_heap w (release (hp w) (ptr a)) (fun h =>
        ({| hp := h; objs := upd (objs w) o (Some empty); views := views w |}, Ok ONone)))
  | LScalar o k v => (* series.h:99-109 *)
      with_obj w o (fun a =>
        let k := Z.max k 0 in
        let one := if 0 <? k then 1 else 0 in
        if size a <? one then (w, Throw) else
        let a' := {| size := size a; ptr := ptr a; known := k; nonzero := one |} in
        with_heap w (if k =? 0 then Ok (hp w) else save (hp w) (ptr a) 0 v) (fun h =>
          ({| hp := h; objs := upd (objs w) o (Some a'); views := views w |}, Ok ONone)))
  | LAssign o k => (* series.h:111-122, cutil.h:92-99; a negative number of terms is a huge size_t; std::copy
                      onto its own source is undefined *)
      with_obj w o (fun a => match nth_error (views w) k with None => (w, Ok ONone) | Some x =>
        if size a <? vlen x then (w, Throw)
        else if vlen x <? 0 then (w, UB)
        else if vlen x =? 0 then recount w o a (vkn x) (vlen x)
        else if match ptr a, vptr x with Some i, Some j => Nat.eqb i j | _, _ => false end then (w, UB)
        else with_heap w (vs <- load_all (hp w) (vptr x) 0 (Z.to_nat (vlen x)) ;; save_all (hp w) (ptr a) 0 vs) (fun h =>
          recount {| hp := h; objs := objs w; views := views w |} o a (vkn x) (vlen x)) end)
  | LUnknown o => (* series.h:167 *) with_obj w o (fun a => recount w o a 0 0)
  | LCounts o k n => (* series.h:168-172 *) with_obj w o (fun a => if u64_le n (Z.min (size a) k) then recount w o a k n else (w, Throw))
  | LKnown o k => (* series.h:173-177 *) with_obj w o (fun a => if 0 <=? k then recount w o a k (Z.min (nonzero a) k) else (w, Throw))
  | LInfo o => with_obj w o (fun a => (w, Ok (OInfo (known a) (nonzero a) (size a))))
  | LView o => with_obj w o (fun a => ({| hp := hp w; objs := objs w; views := views w ++ [{| vptr := ptr a; vkn := known a; vlen := nonzero a |}] |}, Ok ONone))
  | LRead k i => match nth_error (views w) k with None => (w, Ok ONone) | Some x =>
      if (i <? 0) || (vlen x <=? i) then (w, UB)
      else match load (hp w) (vptr x) i with Ok v => (w, Ok (OVal v)) | Throw => (w, Throw) | UB => (w, UB) end end
  | LWrite k i v => match nth_error (views w) k with None => (w, Ok ONone) | Some x =>
      if (i <? 0) || (vlen x <=? i) then (w, UB)
      else with_heap w (save (hp w) (vptr x) i v) (fun h => ({| hp := h; objs := objs w; views := views w |}, Ok ONone)) end
  | LDestroy o => with_obj w o (fun a => with_heap w (release (hp w) (ptr a)) (fun h =>
        ({| hp := h; objs := upd (objs w) o None; views := views w |}, Ok ONone)))
  end.
(** The outcomes up to the first undefined operation, and the last state. *)
Fixpoint lrun (l : list lop) (w : world) : list (res out) * world :=
  match l with
  | [] => ([], w)
  | x :: l => let (w, r) := lstep x w in
              match r with UB => ([UB], w) | _ => let (rs, w) := lrun l w in (r :: rs, w) end
  end.
End Life.
