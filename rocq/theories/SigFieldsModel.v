(** Model of the search for the four moduli of signatures (sig.cc:141-159).  The values of the
    generator [mt] (sig.cc:85-86, 64 bits each) are a list [bits] that the search reads from the
    front; a run that has used up [bits] or its [fuel] has not finished, which is [None]. *)
From Coq Require Import ZArith List Bool.
From Verif Require Import Base SeriesModel SigModel.
Import ListNotations.
Open Scope Z_scope.

(** sig.cc:84-89 [random]: one value of the generator modulo p. *)
Definition random_fp (p bits : Z) : Z := bits mod p.

(** sig.cc:126-131: what the loop of [sqrt] leaves unread; it reads until a draw is good. *)
Fixpoint unread (p n : Z) (bits : list Z) : list Z :=
  match bits with
  | [] => []
  | b :: t => match find_ab p n [random_fp p b] with None => unread p n t | Some _ => t end
  end.
(** sig.cc:120-139 [Fp::sqrt] on the generator's values, with the values left for later calls. *)
Definition sqrt_from (p n : Z) (bits : list Z) : option (res Z * list Z) :=
  match fp_sqrt p n (map (random_fp p) bits) with
  | None => None
  | Some r => Some (r, if n =? 0 then bits else unread p n bits)
  end.

(** sig.cc:149-153: [k] rounds remain; [false] is the jump to [skip]. *)
Fixpoint two_loop (p : Z) (k : nat) (r : Z) (bits : list Z) : option (res bool * list Z) :=
  match k with
  | O => Some (Ok true, bits)
  | S k =>
      match has_sqrt p r with
      | Ok false => Some (Ok false, bits)
      | Ok true =>
          match sqrt_from p r bits with
          | None => None
          | Some (Ok r', bits') => two_loop p k r' bits'
          | Some (Throw, bits') => Some (Throw, bits')
          | Some (UB, bits') => Some (UB, bits')
          end
      | Throw => Some (Throw, bits)
      | UB => Some (UB, bits)
      end
  end.
(** sig.cc:142 [two_roots] *)
Definition two_roots : nat := 4.
(** sig.cc:146-153: whether p is taken. *)
Definition takes (p : Z) (bits : list Z) : option (res bool * list Z) :=
  if negb (p mod 8 =? 7) then Some (Ok false, bits) else
  match is_prime p with
  | Ok false => Some (Ok false, bits)
  | Ok true =>
      match has_sqrt p (fp_neg p 1) with
      | Ok true => Some (Ok false, bits)
      | Ok false => two_loop p two_roots 2 bits
      | Throw => Some (Throw, bits)
      | UB => Some (UB, bits)
      end
  | Throw => Some (Throw, bits)
  | UB => Some (UB, bits)
  end.
(** sig.cc:145-157: [acc] holds the moduli found, last first.  p is unsigned and wraps at 0. *)
Fixpoint search (fuel : nat) (p : Z) (acc : list Z) (bits : list Z) : option (res (list Z)) :=
  match fuel with
  | O => None
  | S f =>
      match takes p bits with
      | None => None
      | Some (Ok true, bits') =>
          if Nat.eqb (length (p :: acc)) 4 then Some (Ok (rev (p :: acc))) else search f (to_u64 (p - 1)) (p :: acc) bits'
      | Some (Ok false, bits') => search f (to_u64 (p - 1)) acc bits'
      | Some (Throw, _) => Some Throw
      | Some (UB, _) => Some UB
      end
  end.
(** sig.cc:141-145: [fields], from [p = uint64_t(0) - 1]. *)
Definition fields_run (fuel : nat) (bits : list Z) : option (res (list Z)) := search fuel (to_u64 (0 - 1)) [] bits.
