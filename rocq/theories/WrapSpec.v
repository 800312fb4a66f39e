(** What a user of the wrappers of WrapModel.v expects: objects are values; no structs, no blocks. *)
From Coq Require Import List Bool.
From Verif Require Import Base WrapModel.
Import ListNotations.

Section Spec.
Variables (V : Type) (zero : V).
Definition vstore : Type := nat -> option V.
(** After a move the source is zero, also if it is the destination. *)
Definition vstep (x : wop V) (t : vstore) : res (vstore * option V) :=
  let set o v := fun k => if Nat.eqb k o then v else t k in
  match x with
  | New _ o => match t o with None => Ok (set o (Some zero), None) | Some _ => UB end
  | NewCopy _ o p => match t o, t p with None, Some v => Ok (set o (Some v), None) | _, _ => UB end
  | NewMove _ o p => match t o, t p with None, Some v => Ok (fun k => if Nat.eqb k p then Some zero else if Nat.eqb k o then Some v else t k, None) | _, _ => UB end
  | Assign _ o v => match t o with None => UB | Some _ => Ok (set o (Some v), None) end
  | Copy _ o p => match t o, t p with Some _, Some v => Ok (set o (Some v), None) | _, _ => UB end
  | Move _ o p => match t o, t p with Some _, Some v => Ok (fun k => if Nat.eqb k p then Some zero else if Nat.eqb k o then Some v else t k, None) | _, _ => UB end
  | Get _ o | Print _ o | Safe _ o => match t o with None => UB | Some v => Ok (t, Some v) end
  | Destroy _ o => match t o with None => UB | Some _ => Ok (set o None, None) end
  end.
Fixpoint vrun (l : list (wop V)) (t : vstore) : list (res (option V)) * vstore :=
  match l with
  | [] => ([], t)
  | x :: l =>
      match vstep x t with
      | Ok (t, v) => let (r, t) := vrun l t in (Ok v :: r, t)
      | Throw => ([Throw], t)
      | UB => ([UB], t)
      end
  end.
(** Texts made through open_memstream. *)
Definition prints (l : list (wop V)) : nat := length (filter (fun x => match x with Print _ _ => true | _ => false end) l).
End Spec.
