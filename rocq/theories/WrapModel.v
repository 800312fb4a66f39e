(** Model of the C++ classes around FLINT's structs: Arb (arb_cc.h:10-34, arb_cc.cc:11-29), Acb
    (acb_cc.h:10-31), Arf (arf_cc.h:10-29, arf_cc.cc:8-28), Fmpq (fmpq_cc.h:10-30, fmpq_cc.cc:8-17),
    Mag (mag_cc.h:7-22) and Poly (poly.h:12-45, poly.cc:61-70).  They differ in the library only.

    What is simplified: a struct has at most one block (an arb_t has up to two, a polynomial one per
    coefficient and one for the array); the library's functions are the four below. *)
From Coq Require Import ZArith List Bool.
From Verif Require Import Base.
Import ListNotations.

Section Wrap.
(** [big v]: the library needs a block for the value v; [keep]: a block that is no longer needed is
    kept for later (arb_poly_zero) or freed at once (arf_zero, fmpz_zero). *)
Variables (V : Type) (zero : V) (big : V -> bool) (keep : bool).

(** Blocks of malloc; [None]: never allocated, or freed. *)
Record mem : Type := { nxt : nat; cells : nat -> option V }.
Definition malloc (m : mem) (v : V) : nat * mem :=
  (nxt m, {| nxt := S (nxt m); cells := fun i => if Nat.eqb i (nxt m) then Some v else cells m i |}).
Definition poke (m : mem) (i : nat) (c : option V) : mem := {| nxt := nxt m; cells := fun k => if Nat.eqb k i then c else cells m k |}.
Definition free (m : mem) (i : nat) : res mem := match cells m i with None => UB | Some _ => Ok (poke m i None) end.

(** A struct: its block, if any, and the value if it is kept in the struct itself. *)
Record struct : Type := { blk : option nat; small : option V }.
Definition val (m : mem) (s : struct) : res V :=
  match small s with
  | Some v => Ok v
  | None => match blk s with None => UB | Some i => match cells m i with None => UB | Some v => Ok v end end
  end.
(** The library: arb_init, arb_clear, arb_set_si or arb_zero (store a value), arb_set. *)
Definition f_init : struct := {| blk := None; small := Some zero |}.
Definition f_clear (m : mem) (s : struct) : res mem := match blk s with None => Ok m | Some i => free m i end.
Definition f_put (m : mem) (s : struct) (v : V) : res (mem * struct) :=
  if big v then
    match blk s with
    | None => let (i, m) := malloc m v in Ok (m, {| blk := Some i; small := None |})
    | Some i => match cells m i with None => UB | Some _ => Ok (poke m i (Some v), {| blk := Some i; small := None |}) end
    end
  else if keep then Ok (m, {| blk := blk s; small := Some v |})
  else m <- f_clear m s ;; Ok (m, {| blk := None; small := Some v |}).
Definition f_set (m : mem) (d s : struct) : res (mem * struct) := v <- val m s ;; f_put m d v.

(** The objects by name; [None]: no object there. *)
Definition store : Type := nat -> option struct.
Definition upd {A : Type} (t : nat -> option A) (o : nat) (x : option A) : nat -> option A := fun k => if Nat.eqb k o then x else t k.
Definition live {A : Type} (t : nat -> option A) (o : nat) : res A := match t o with None => UB | Some s => Ok s end.
Definition vacant {A : Type} (t : nat -> option A) (o : nat) : res unit := match t o with None => Ok tt | Some _ => UB end.

(** What a program does with objects.  An object is constructed where none is, and used while it is one. *)
Inductive wop :=
| New (o : nat)              (* Arb() *)
| NewCopy (o p : nat)        (* explicit Arb(const arb_t) *)
| NewMove (o p : nat)        (* Arb(Arb&&) *)
| Assign (o : nat) (v : V)   (* operator=(slong), and results of library functions *)
| Copy (o p : nat)           (* operator=(const Arb&) *)
| Move (o p : nat)           (* operator=(Arb&&) *)
| Get (o : nat)              (* reading the value *)
| Print (o : nat)            (* operator<<, Arf::safe *)
| Safe (o : nat)             (* Arb::safe *)
| Destroy (o : nat).         (* ~Arb() *)
Definition wstep (x : wop) (t : store) (m : mem) : res (store * mem * option V) :=
  match x with
  | New o => (* arb_cc.h:13 *)
      _ <- vacant t o ;; Ok (upd t o (Some f_init), m, None)
  | NewCopy o p => (* arb_cc.h:15 *)
      _ <- vacant t o ;; s <- live t p ;; ' (m, d) <- f_set m f_init s ;; Ok (upd t o (Some d), m, None)
  | NewMove o p => (* arb_cc.h:16: *x = *a.x; arb_init(a.x) *)
      _ <- vacant t o ;; s <- live t p ;; Ok (upd (upd t o (Some s)) p (Some f_init), m, None)
  | Assign o v => (* arb_cc.h:20 *)
      d <- live t o ;; ' (m, d) <- f_put m d v ;; Ok (upd t o (Some d), m, None)
  | Copy o p => (* arb_cc.h:21 *)
      d <- live t o ;; s <- live t p ;; ' (m, d) <- f_set m d s ;; Ok (upd t o (Some d), m, None)
  | Move o p => (* arb_cc.h:22: arb_swap(x, a.x); arb_zero(a.x) *)
      d <- live t o ;; s <- live t p ;;
      let t := upd (upd t o (Some s)) p (Some d) in
      d <- live t p ;; ' (m, d) <- f_put m d zero ;; Ok (upd t p (Some d), m, None)
  | Get o => s <- live t o ;; v <- val m s ;; Ok (t, m, Some v)
  | Print o => (* arb_cc.cc:11-20: fclose leaves the buffer of open_memstream to the caller *)
      s <- live t o ;; v <- val m s ;; let (_, m) := malloc m v in Ok (t, m, Some v)
  | Safe o => (* arb_cc.cc:22-28 *)
      s <- live t o ;; v <- val m s ;; let (i, m) := malloc m v in m <- free m i ;; Ok (t, m, Some v)
  | Destroy o => (* arb_cc.h:17 *)
      s <- live t o ;; m <- f_clear m s ;; Ok (upd t o None, m, None)
  end.
(** The outcomes up to the first undefined operation, and the last state. *)
Fixpoint wrun (l : list wop) (t : store) (m : mem) : list (res (option V)) * store * mem :=
  match l with
  | [] => ([], t, m)
  | x :: l =>
      match wstep x t m with
      | Ok (t, m, v) => let '(r, t, m) := wrun l t m in (Ok v :: r, t, m)
      | Throw => ([Throw], t, m)
      | UB => ([UB], t, m)
      end
  end.
Definition mem0 : mem := {| nxt := 0; cells := fun _ => None |}.
Definition store0 : store := fun _ => None.
End Wrap.
