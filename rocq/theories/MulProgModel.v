(** * The multiplications of fft.cc with every generated program in place

    fft.cc:346-499 and codelets.cc:309-369 as they are linked together: the hand-written drivers call
    the loop bodies written by the generator (GenModel.v, run by GenRun.v), and the hand-written
    fft_mul, fft_addmul and fft_sqr call the drivers or, for few terms, the generated base cases
    (BaseGenModel.v, run by BaseGenRun.v).

    What is simplified: scalars are reals, the arrays of a call are separate (C24 and C73 treat overlap),
    [junk n] is what a new buffer of n entries holds. *)
From Coq Require Import String ZArith List Bool Reals.
From Verif Require Import Base Field FieldInst ExpModel GenModel FFTModel FFTMath GenDriver BaseGenModel BaseGenRun SeriesModel SerGenModel.
Import ListNotations.
Open Scope nat_scope.

(** Everything codelets.cc writes that the series functions use (codelets.cc:309-457, 744-828): the bodies of
    srfft_butterfly_0, _01, _012 and _s1, _s2, _s3, of their inverses (the first three also adding),
    and the base cases. *)
Record progs (G : SigOps) : Type := {
  p_first : nat -> list (stmt G);
  p_rest : nat -> list (stmt G);
  p_ifirst : bool -> nat -> list (stmt G);
  p_irest : nat -> list (stmt G);
  p_mul : list (sstmt G);
  p_sqr : list (sstmt G);
  p_inv : list (sstmt G);
  p_exp : list (sstmt G) }.
Arguments p_first {G}. Arguments p_rest {G}. Arguments p_ifirst {G}. Arguments p_irest {G}.
Arguments p_mul {G}. Arguments p_sqr {G}. Arguments p_inv {G}. Arguments p_exp {G}.

Section MulProg.
Variable G : SigOps.
Variable P : progs G.
Variable ord : Z -> list nat.
Variable env_of : envs.
Variable I : interp RF.
Definition ran {T} (m : option T) : res T := match m with Some a => Ok a | None => UB end.

(** fft.cc:346-372 [srfft_scramble]; x is read only. *)
Definition run_srfft (y : list (R * R)) (x : list R) : res (list (R * R)) :=
  let n := 2 * length y in
  if n =? 0 then Ok y else
  let p := Z.to_nat (countr_zero64 (Z.of_nat n)) in
  _ <- slow_assert ((n =? 2 ^ p) && (length x <=? n)) ;;
  ' (y, _) <- ran (prog_srfft G ord env_of (p_first P) (p_rest P) p (y, x)) ;;
  Ok y.
(** fft.cc:375-406 [isrfft_scramble]; y is used as scratch space. *)
Definition run_isrfft (add : bool) (x : list R) (y : list (R * R)) : res (list R) :=
  let n := 2 * length y in
  if n =? 0 then Ok x else
  let p := Z.to_nat (countr_zero64 (Z.of_nat n)) in
  _ <- slow_assert ((n =? 2 ^ p) && (length x <=? 2 * n)) ;;
  ' (_, x) <- ran (prog_isrfft G ord env_of (p_ifirst P add) (p_irest P) p (y, x)) ;;
  Ok x.

(** A memory holding the arrays of a call one after another, and the array of n entries at its start. *)
Definition flat (l : list R) : BaseGenRun.mem RF := fun p => if (p <? 0)%Z then None else nth_error l (Z.to_nat p).
Fixpoint fetch (m : BaseGenRun.mem RF) (is : list nat) : res (list R) :=
  match is with
  | [] => Ok []
  | i :: t => match m (Z.of_nat i) with Some v => vs <- fetch m t ;; Ok (v :: vs) | None => UB end
  end.
(** fft.cc:441, codelets.cc:310-346: mul_base(z, nz, x, nx, y, ny). *)
Definition mul_frame (nz nx ny : nat) : frame :=
  {| f_int := fun s => Z.of_nat (if String.eqb s "nz" then nz else if String.eqb s "nx" then nx else ny);
     f_ptr := fun s => Z.of_nat (if String.eqb s "z" then 0 else if String.eqb s "x" then nz else nz + nx) |}.
Definition run_mul8 (z x y : list R) : res (list R) :=
  m <- ran (exec (mul_frame (length z) (length x) (length y)) (p_mul P) I (flat (z ++ x ++ y))) ;;
  fetch m (seq 0 (length z)).
(** fft.cc:484, codelets.cc:349-368: sqr_base(y, ny, x, nx). *)
Definition sqr_frame (ny nx : nat) : frame :=
  {| f_int := fun s => Z.of_nat (if String.eqb s "ny" then ny else nx); f_ptr := fun s => Z.of_nat (if String.eqb s "y" then 0 else ny) |}.
Definition run_sqr8 (y x : list R) : res (list R) :=
  m <- ran (exec (sqr_frame (length y) (length x)) (p_sqr P) I (flat (y ++ x))) ;;
  fetch m (seq 0 (length y)).

Variable junk : nat -> list (R * R).
(** fft.cc:436-460 [fft_mul] *)
Definition run_fft_mul (z x y : list R) : res (list R) :=
  let nz := length z in
  _ <- slow_assert (nz <=? length x + length y - 1) ;;
  if nz <=? 8 then run_mul8 z x y else
  let fn := fft_size nz in
  fx <- run_srfft (junk (fn / 2)) x ;;
  fy <- run_srfft (junk (fn / 2)) y ;;
  fx <- FFTModel.def_loop ord (fn / 2) (mul_cwise R_ops fy (inv_scalar R_ops (fn / 2))) fx ;;
  run_isrfft false z fx.
(** fft.cc:462-477 [fft_addmul] *)
Definition run_fft_addmul (middle : list R -> res (list R)) (z x y : list R) : res (list R) :=
  let nz := length z in
  _ <- slow_assert (nz <=? length x + length y - 1) ;;
  let fn := fft_size nz in
  fx <- run_srfft (junk (fn / 2)) x ;;
  fy <- run_srfft (junk (fn / 2)) y ;;
  fx <- FFTModel.def_loop ord (fn / 2) (mul_cwise R_ops fy (inv_scalar R_ops (fn / 2))) fx ;;
  z <- middle z ;;
  run_isrfft true z fx.
(** fft.cc:479-499 [fft_sqr] *)
Definition run_fft_sqr (y x : list R) : res (list R) :=
  let ny := length y in
  _ <- slow_assert (ny <=? 2 * length x - 1) ;;
  if ny <=? 8 then run_sqr8 y x else
  let fn := fft_size ny in
  fx <- run_srfft (junk (fn / 2)) x ;;
  fx <- FFTModel.def_loop ord (fn / 2) (sqr_cwise R_ops (inv_scalar R_ops (fn / 2))) fx ;;
  run_isrfft false y fx.

(** series.h:273-301 as in FFTKernel.v: [zs nz] is what the output span holds before the call. *)
Variable zs : nat -> list R.
Definition run_kernel : kernel RF :=
  Build_kernel RF
    (fun nz (xs ys : list R) => run_fft_mul (zs nz) xs ys)
    (fun nz (xs ys : list R) => run_fft_addmul (fun _ => Ok (repeat 0%R nz)) (zs nz) xs ys)
    (fun nz (xs : list R) => run_fft_sqr (zs nz) xs).
(** series.h:304-315 *)
Definition run_bases : bases RF := prog_bases (p_inv P) (p_exp P) I.
End MulProg.
