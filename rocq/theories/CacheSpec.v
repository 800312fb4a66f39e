(** What a client of the cached twiddle tables may expect, without heap, pointers or tables. *)
From Coq Require Import ZArith List Bool.
From Verif Require Import Base CacheModel.
Import ListNotations.
Open Scope Z_scope.

Section Spec.
Variables (V : Type) (vopp_r vopp_i vswap : V -> V) (vmul : V -> V -> V).
Variables (table : nat -> list V) (few0 : list V) (root : Z -> Z -> V).

(** The contract of nearest.cc as far as fft.cc:36-78 relies on it: [root s j] stands for the j-th
    of the 2 * 2^s roots of unity; it has the symmetries of the circle; the tables hold its values. *)
Record twiddles : Prop := {
  t_table : forall s, table s = map (fun j => root (Z.of_nat s) (Z.of_nat j)) (seq 0 (Z.to_nat (2 ^ Z.of_nat s / 4 + 1)));
  t_few_length : length few0 = 120%nat;
  t_few : forall s j, 0 <= s < 30 -> 0 <= j < 4 -> nth_error few0 (Z.to_nat (4 * s + j)) = Some (root s j);
  t_turn : forall s j, 0 <= s -> root s (j mod (2 * 2 ^ s)) = root s j;
  t_i : forall s j, 0 <= s -> root s (2 * 2 ^ s - j) = vopp_i (root s j);
  t_r : forall s j, 0 <= s -> root s (2 ^ s - j) = vopp_r (root s j);
  t_d : forall s j, 1 <= s -> root s (2 ^ s / 2 - j) = vswap (root s j)
}.

(** A slice is known by its level, whether it is a big one, and how many shutdowns preceded it. *)
Definition handle : Type := Z * bool * nat.
Definition s_read (e : nat) (x : handle) (j : Z) : res V :=
  let '(s, b, e') := x in
  if negb (Nat.eqb e' e) then UB
  else if b then (if s <? 30 then Ok (vmul (root (s - 2) (j / 4)) (root s (j mod 4))) else UB)
  else Ok (root s j).
Definition s_step (o : op) (e : nat) (hs : list handle) : res (nat * list handle * option V) :=
  match o with
  | Slice _ s => if (0 <=? s) && (s <? 30) then Ok (e, hs ++ [(s, false, e)], None) else UB
  | Big _ s => if s <? 2 then Throw else if s <=? 30 then Ok (e, hs ++ [(s, true, e)], None) else UB
  | Read k j => match nth_error hs k with None => Ok (e, hs, None) | Some x => v <- s_read e x j ;; Ok (e, hs, Some v) end
  | Shutdown => Ok (S e, hs, None)
  end.
Fixpoint s_run (l : list op) (e : nat) (hs : list handle) : list (res (option V)) :=
  match l with
  | [] => []
  | o :: l =>
      match s_step o e hs with
      | UB => [UB]
      | Throw => Throw :: s_run l e hs
      | Ok (e, hs, v) => Ok v :: s_run l e hs
      end
  end.

(** How many tables an operation needs, and the calls of twiddle_slice that a sequence causes when
    n tables are there: every level once, lowest first, and again only after a shutdown. *)
Definition needed (o : op) : nat :=
  match o with Slice _ s => Z.to_nat (s + 1) | Big _ s => Z.to_nat (s - 1) | Read _ _ | Shutdown => 0%nat end.
Fixpoint built (l : list op) (n : nat) : list nat :=
  match l with
  | [] => []
  | Shutdown :: l => built l 0
  | o :: l => seq n (needed o - n) ++ built l (Nat.max n (needed o))
  end.
End Spec.
