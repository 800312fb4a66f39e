(** The multiplication entry points over one shared memory, so that the spans x, y and z
    may overlap in any way (fft.h:37-51: "Aliasing is allowed").
    The transform buffers are fresh Arrays (fft.cc:444, 469, 487), hence not part of it. *)
From Coq Require Import ZArith Arith List Bool.
From Verif Require Import Base FFTModel.
Import ListNotations.
Open Scope nat_scope.

Section M.
Variable o : ops.
Variable ord : Z -> list nat.
Variable junk : nat -> list (A o * A o).
Notation mem := (list (A o)).
(** A span: offset and size; reading or writing outside the memory is UB. *)
Definition spn := (nat * nat)%type.
Definition in_mem (m : mem) (s : spn) : bool := fst s + snd s <=? length m.
Definition load (m : mem) (s : spn) : res (list (A o)) :=
  if in_mem m s then Ok (firstn (snd s) (skipn (fst s) m)) else UB.
Definition store (m : mem) (s : spn) (v : list (A o)) : res mem :=
  if in_mem m s && (length v =? snd s) then Ok (firstn (fst s) m ++ v ++ skipn (fst s + snd s) m) else UB.

(** fft.cc:436-460: both transforms finish reading x and y before z is written; the base
    case loads its inputs into locals first (codelets.cc:325-345). *)
Definition fft_mul_mem (m : mem) (z x y : spn) : res mem :=
  xs <- load m x ;; ys <- load m y ;; zs <- load m z ;;
  r <- fft_mul o ord junk zs xs ys ;; store m z r.
(** fft.cc:462-477: srfft_scramble reads x (470) and y (471); then middle runs on the memory
    (473); then isrfft_scramble adds into z (474). *)
Definition fft_addmul_mem (middle : mem -> res mem) (m : mem) (z x y : spn) : res mem :=
  _ <- slow_assert (snd z <=? snd x + snd y - 1) ;;
  let fn := fft_size (snd z) in
  xs <- load m x ;;
  fx <- srfft_scramble o ord (junk (fn / 2)) xs ;;
  ys <- load m y ;;
  fy <- srfft_scramble o ord (junk (fn / 2)) ys ;;
  fx <- def_loop ord (fn / 2) (mul_cwise o fy (inv_scalar o (fn / 2))) fx ;;
  m1 <- middle m ;;
  zs <- load m1 z ;;
  ' r <- isrfft_scramble o ord true zs fx ;;
  store m1 z (fst r).
(** fft.cc:479-499 *)
Definition fft_sqr_mem (m : mem) (y x : spn) : res mem :=
  xs <- load m x ;; ys <- load m y ;; r <- fft_sqr o ord junk ys xs ;; store m y r.
End M.
