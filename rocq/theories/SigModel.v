(** Model of sig.h / sig.cc: arithmetic modulo 64-bit numbers, primality filter, signatures.
    Values are integers; unsigned arithmetic wraps explicitly, signed 128-bit overflow is UB,
    and so is a remainder modulo zero. *)
From Coq Require Import ZArith List Bool.
From Verif Require Import Base SeriesModel.
Import ListNotations.
Open Scope Z_scope.

Definition to_u128 (z : Z) : Z := z mod 2 ^ 128.
(** Result of a signed 128-bit operation. *)
Definition i128 (z : Z) : res Z := if (- 2 ^ 127 <=? z) && (z <? 2 ^ 127) then Ok z else UB.

(** sig.h:18-26 [Fp]; [p] is the modulus.  The unsigned 128-bit results are reduced and
    converted to 64 bits. *)
Definition rem (a p : Z) : res Z := if p =? 0 then UB else Ok (to_u64 (a mod p)).
Definition fp_neg (p a : Z) : Z := if a =? 0 then 0 else to_u64 (p - a).
Definition fp_add (p a b : Z) : res Z := rem (to_u128 (a + b)) p.
Definition fp_sub (p a b : Z) : res Z := rem (to_u128 (to_u128 (a + p) - b)) p.
Definition fp_mul (p a b : Z) : res Z := rem (to_u128 (a * b)) p.

(** sig.cc:24-32 [pow], for any multiplication; the exponent is a uint64_t.  [n = None] is the
    exponent 0, otherwise its binary digits are consumed from the lowest. *)
Section Pow.
Variable T : Type.
Variable mulf : T -> T -> res T.
Fixpoint pow_loop (r a : T) (n : positive) : res T :=
  match n with
  | xH => r <- mulf r a ;; a <- mulf a a ;; Ok r
  | xO m => a <- mulf a a ;; pow_loop r a m
  | xI m => r <- mulf r a ;; a <- mulf a a ;; pow_loop r a m
  end.
Definition pow_gen (one a : T) (n : Z) : res T :=
  match n with Zpos m => pow_loop one a m | _ => Ok one end.
End Pow.
Definition fp_pow (p a n : Z) : res Z := pow_gen Z (fp_mul p) 1 a n.

(** sig.cc:40-51 [is_sprp].  [s] rounds remain. *)
Fixpoint sprp_loop (n : Z) (s : nat) (x : Z) : res bool :=
  match s with
  | O => Ok false
  | S k => if x =? n - 1 then Ok true else x <- fp_mul n x x ;; sprp_loop n k x
  end.
Definition is_sprp (n a : Z) : res bool :=
  if a =? 0 then UB else
  if n mod a =? 0 then Ok (n =? a) else
  let s := countr_zero64 (to_u64 (n - 1)) in
  if 64 <=? s then UB else
  let d := Z.shiftr (to_u64 (n - 1)) s in
  x <- fp_pow n a d ;;
  if x =? 1 then Ok true else sprp_loop n (Z.to_nat s) x.
(** sig.cc:52-60 [is_prime] *)
Definition small_primes : list Z := [2; 3; 5; 7].
Definition sprp_bases : list Z := [2; 325; 9375; 28178; 450775; 9780504; 1795265022].
Fixpoint sprp_all (n : Z) (l : list Z) : res bool :=
  match l with
  | [] => Ok true
  | a :: t => b <- is_sprp n a ;; if b : bool then sprp_all n t else Ok false
  end.
Fixpoint trial (n : Z) (l : list Z) : option bool :=
  match l with
  | [] => None
  | p :: t => if n mod p =? 0 then Some (n =? p) else trial n t
  end.
Definition is_prime (n : Z) : res bool :=
  match trial n small_primes with Some b => Ok b | None => sprp_all n sprp_bases end.

(** sig.cc:64-81 [Fp::inv]; 128-bit signed arithmetic; [fuel] bounds the loop. *)
Fixpoint inv_loop (fuel : nat) (rp r sp s tp t : Z) : option (res (Z * Z * Z)) :=
  if r =? 0 then Some (Ok (rp, sp, tp)) else
  match fuel with
  | O => None
  | S f =>
      let q := Z.quot rp r in
      match (qr <- i128 (q * r) ;; r' <- i128 (rp - qr) ;;
             qs <- i128 (q * s) ;; s' <- i128 (sp - qs) ;;
             qt <- i128 (q * t) ;; t' <- i128 (tp - qt) ;; Ok (r', s', t')) with
      | Ok (r', s', t') => inv_loop f r r' s s' t t'
      | Throw => Some Throw
      | UB => Some UB
      end
  end.
Definition fp_inv (p x : Z) : res Z :=
  match inv_loop 200 x p 1 0 0 1 with
  | None => UB
  | Some Throw => Throw
  | Some UB => UB
  | Some (Ok (_, sp, tp)) =>
      u <- i128 (sp * x) ;; v <- i128 (tp * p) ;; w <- i128 (u + v) ;;
      _ <- slow_assert (w =? 1) ;;
      sp <- (if sp <? 0 then i128 (sp + p) else Ok sp) ;;
      _ <- slow_assert (0 <=? sp) ;;
      m <- fp_mul p (to_u64 sp) x ;;
      _ <- slow_assert (m =? 1) ;;
      Ok (to_u64 sp)
  end.

(** sig.cc:90-95 [has_sqrt] *)
Definition has_sqrt (p a : Z) : res bool :=
  if a =? 0 then Ok true else
  s <- fp_pow p a (Z.shiftr (to_u64 (p - 1)) 1) ;;
  _ <- slow_assert ((s =? 1) || (s =? fp_neg p 1)) ;;
  Ok (s =? 1).

(** sig.cc:98-115 [Fp2::mul] *)
Definition fp2_mul (p b : Z) (x y : Z * Z) : res (Z * Z) :=
  uu <- fp_mul p (fst x) (fst y) ;; vv <- fp_mul p (snd x) (snd y) ;; vb <- fp_mul p vv b ;;
  u <- fp_add p uu vb ;;
  uv <- fp_mul p (fst x) (snd y) ;; vu <- fp_mul p (snd x) (fst y) ;;
  v <- fp_add p uv vu ;;
  Ok (u, v).

(** sig.cc:118-137 [Fp::sqrt].  [draws] are the values successively returned by random(F)
    (83-88); [None] = the search goes on after the last draw. *)
Fixpoint find_ab (p n : Z) (draws : list Z) : option (res (Z * Z)) :=
  match draws with
  | [] => None
  | a :: t =>
      match (aa <- fp_mul p a a ;; b <- fp_sub p aa n ;; h <- has_sqrt p b ;; Ok (b, h)) with
      | Ok (b, true) => find_ab p n t
      | Ok (b, false) => Some (Ok (a, b))
      | Throw => Some Throw
      | UB => Some UB
      end
  end.
Definition fp_sqrt (p n : Z) (draws : list Z) : option (res Z) :=
  if n =? 0 then Some (Ok n) else
  match find_ab p n draws with
  | None => None
  | Some Throw => Some Throw
  | Some UB => Some UB
  | Some (Ok (a, b)) =>
      Some (x <- pow_gen (Z * Z) (fp2_mul p b) (1, 0) (a, 1) (to_u64 (p + 1) / 2) ;;
            _ <- slow_assert (snd x =? 0) ;;
            let r := Z.min (fst x) (fp_neg p (fst x)) in
            m <- fp_mul p r r ;;
            _ <- slow_assert (m =? n) ;;
            Ok r)
  end.

(** sig.h:36-47, sig.cc:166-174: componentwise operations on signatures; [fields] is the list of
    moduli. *)
Definition sig := list Z.
Section Sig.
Variable fields : list Z.
(** sig.h:42-45; the int is converted to uint64_t. *)
Definition sig_int (a : Z) : sig := map (fun p => if 0 <=? a then to_u64 a else to_u64 (a + p)) fields.
Definition sig_eqb (s t : sig) : bool := if list_eq_dec Z.eq_dec s t then true else false.
Fixpoint map2r (f : Z -> Z -> Z -> res Z) (ps s t : list Z) : res sig :=
  match ps, s, t with
  | [], [], [] => Ok []
  | p :: ps, a :: s, b :: t => v <- f p a b ;; r <- map2r f ps s t ;; Ok (v :: r)
  | _, _, _ => UB
  end.
Definition sig_neg (s : sig) : res sig := map2r (fun p a _ => Ok (fp_neg p a)) fields s s.
Definition sig_add (s t : sig) : res sig := map2r fp_add fields s t.
Definition sig_sub (s t : sig) : res sig := map2r fp_sub fields s t.
Definition sig_mul (s t : sig) : res sig := map2r fp_mul fields s t.
Definition sig_inv (s : sig) : res sig := map2r (fun p a _ => fp_inv p a) fields s s.
(** sig.cc:192-203 [unsmall]: the table maps Sig(i) to i and -Sig(i) to -i for 0 <= i <= 32;
    later entries replace earlier ones with the same signature. *)
Definition unsmall (s : sig) : res (option Z) :=
  fold_left (fun acc i => o <- acc ;;
      n <- sig_neg (sig_int (Z.of_nat i)) ;;
      let o := if sig_eqb s (sig_int (Z.of_nat i)) then Some (Z.of_nat i) else o in
      Ok (if sig_eqb s n then Some (- Z.of_nat i) else o))
    (seq 0 33) (Ok None).
End Sig.
