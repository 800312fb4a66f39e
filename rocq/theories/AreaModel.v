(** Model of area.cc: escape, implicit, bottcher_base, known_to_k, bottcher_step.

    Exact scalars.  The area estimate, its printing and the comparison with the table
    of known areas are represented by an arbitrary acceptance test on (refine, f):
    area.cc:171-190 throws when the test fails.  The test may depend on anything. *)
From Coq Require Import ZArith List Bool Lia.
From Verif Require Import Base Field SeriesModel.
Import ListNotations.
Open Scope Z_scope.

(** area.cc:102-106 [known_to_k]; [known] is an int64_t.  Shifting by 64 is UB. *)
Definition known_to_k (kn : Z) : res Z :=
  let k := countr_zero64 (to_u64 kn) in
  if 64 <=? k then UB else
  _ <- slow_assert (kn =? to_i64 (2 ^ k)) ;;
  Ok k.

Section Area.
Variable F : Fld.
Notation ser := (series F).
Variable kern : kernel F.
Variable base : bases F.

(** area.cc:43-59: the body of the loop for one i; state (h, dh, t, s). *)
Definition escape_body (g dg : ser) (n dn i : Z) (st : ser * ser * ser * ser) : res (ser * ser * ser * ser) :=
  let '(h, dh, t, s) := st in
  let p := 2 ^ i in
  t <- set_sub_si_2exp F t (1 - p) g i h ;;
  s <- set_log1p_exp F kern base s (low F t (n - (p - 1))) (p - 1) ;;
  h <- high_add_ldexp F h (p - 1) (- i) s ;;
  t <- reduce_known F t (dn - (p - 1)) ;;
  t <- high_sub F t (p - 1) s ;;
  s <- set_exp F kern base s t ;;
  t <- set_sub_si_2exp F t (1 - p) dg i (low F dh (dn - (p - 1))) ;;
  t <- set_mul F kern t s (low F t (dn - (p - 1))) ;;
  dh <- high_add_ldexp F dh (p - 1) (- i) t ;;
  Ok (h, dh, t, s).

Fixpoint escape_loop (cnt : nat) (i : Z) (g dg : ser) (n dn : Z) (st : ser * ser * ser * ser)
  : res (ser * ser * ser * ser) :=
  match cnt with
  | O => Ok st
  | S c => st1 <- escape_body g dg n dn i st ;; escape_loop c (i + 1) g dg n dn st1
  end.

(** area.cc:35-60 [escape]. *)
Definition escape (h dh : ser) (k : Z) (g dg : ser) (n dn : Z) : res (ser * ser) :=
  h <- set_scalar F h n k0 ;;
  dh <- set_scalar F dh dn k0 ;;
  st <- escape_loop (Z.to_nat k) 1 g dg n dn (h, dh, new_series n, new_series n) ;;
  let '(h, dh, _, _) := st in Ok (h, dh).

(** area.cc:63-69 [implicit]. *)
Definition implicit (Fs dF : ser) (k : Z) (g dg : ser) (n dn : Z) : res (ser * ser) :=
  ' st <- escape Fs dF k g dg n dn ;;
  Fs <- add_in F (fst st) g ;;
  dF <- add_in F (snd st) dg ;;
  Ok (Fs, dF).

(** area.cc:94-99 [bottcher_base]. *)
Definition bottcher_base : res ser := set_scalar F (new_series 1) 1 k0.

Variable check : bool -> ser -> bool.

(** area.cc:118-192: one pass of the loop in [bottcher_step]; returns (g, f). *)
Definition bottcher_pass (k p : Z) (refine : bool) (g : ser) : res (ser * ser) :=
  let dp := to_i32 (if refine then p else p / 2) in
  g <- copy F g p ;;
  g <- set_known F g p ;;
  dg <- set_scalar F (new_series dp) dp k1 ;;
  g <- (if refine then
          ' st <- implicit (new_series p) (new_series p) k g dg p p ;;
          ' st2 <- implicit (fst st) (new_series 0) k g dg p 0 ;;
          dg <- set_div F kern base dg (fst st2) (snd st) ;;
          high_sub F g (p / 2) (high F dg (p / 2))
        else
          ' st <- implicit (new_series p) (new_series dp) k g dg p dp ;;
          dg <- set_div F kern base dg (high F (fst st) dp) (snd st) ;;
          high_sub F g dp dg) ;;
  f <- set_exp F kern base (new_series p) g ;;
  _ <- slow_assert (check refine f) ;;
  Ok (g, f).

(** area.cc:108-196 [bottcher_step]: returns the new g and f.  [1 << k] is an int. *)
Definition bottcher_step (g : ser) : res (ser * ser) :=
  k0 <- known_to_k (known g) ;;
  let k := k0 + 1 in
  let p := to_i32 (2 ^ k) in
  ' st <- bottcher_pass k p false g ;;
  bottcher_pass k p true (fst st).

(** area.cc:198-202 [areas]: n steps. *)
Fixpoint bottcher_steps (n : nat) (g : ser) : res ser :=
  match n with
  | O => Ok g
  | S m => ' st <- bottcher_step g ;; bottcher_steps m (fst st)
  end.

(** bottcher_base then n steps: area.cc:198-202 and mandelbrot.cc:27-39 from scratch. *)
Definition bottcher (n : nat) : res ser := g <- bottcher_base ;; bottcher_steps n g.

End Area.
