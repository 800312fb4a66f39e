(** The drivers srfft_scramble and isrfft_scramble (fft.cc:346-406) with the generated loop bodies run
    as programs (GenRun.v), and the text of the whole set of codelets they use. *)
From Coq Require Import String ZArith List Bool Reals.
From Verif Require Import Base Field FieldInst ExpModel BlockProofs GenModel GenRun FFTModel FFTMath.
Import ListNotations.
Open Scope Z_scope.

(** Arrays y and x. *)
Definition mem : Type := (list (R * R) * list R)%type.
(** The twiddle functor and the integer arguments a codelet is called with determine the environment
    its body runs in.  [envs] stands for any way of representing them. *)
Definition envs : Type := (Z -> res (R * R)) -> list (string * Z) -> interp RF.

Section Driver.
Variable G : SigOps.
Variable ord : Z -> list nat.
Variable env_of : envs.
Notation prog := (list (stmt G)).
Definition once (P : prog) (I : interp RF) (m : mem) : option mem :=
  match GenRun.run G P {| env := I; ym := fst m; xm := snd m |} with Some s => Some (ym s, xm s) | None => None end.
(** DEF_LOOP, loops.h:38-51, as [def_loop] in FFTModel.v: one run of the body for each j; codelets.cc:638-645. *)
Fixpoint each (P : prog) (tn : Z -> res (R * R)) (b : list (string * Z)) (js : list nat) (m : mem) : option mem :=
  match js with
  | [] => Some m
  | j :: t => match once P (env_of tn (("j"%string, Z.of_nat j) :: b)) m with Some m' => each P tn b t m' | None => None end
  end.
Definition loop (P : prog) (tn : Z -> res (R * R)) (b : list (string * Z)) (n : nat) (m : mem) : option mem :=
  if Z.of_nat n =? 0 then Some m else each P tn b (ord (to_i32 (Z.of_nat n))) m.
Definition and_then {A B} (m : option A) (k : A -> option B) : option B := match m with Some a => k a | None => None end.

(** Bodies, by radix: srfft_butterfly_0, _01, _012 and srfft_butterfly_s1, _s2, _s3. *)
Variables first rest : nat -> prog.
(** fft.cc:364-371 *)
Fixpoint prog_fwd (n c : nat) (m : mem) : option mem :=
  match c with
  | O => Some m
  | 1%nat => loop (rest 1) (slice R_ops 0) [("s"%string, 0)] (n / 4) m
  | 2%nat => loop (rest 2) (slice R_ops 1) [("s"%string, 0)] (n / 8) m
  | S (S (S c1)) => and_then (loop (rest 3) (slice R_ops (c1 + 2)) [("s"%string, Z.of_nat c1)] (n / 16) m) (prog_fwd n c1)
  end.
(** fft.cc:347-372 on arrays with 2 |y| = 2^p > 0 and |x| <= 2^p.  The serial codelets get no twiddles. *)
Definition prog_srfft (p : nat) (m : mem) : option mem :=
  let n := (2 ^ p)%nat in
  and_then
    (match p with
     | 1%nat => once (first 1) (env_of (fun _ => UB) []) m
     | 2%nat => once (first 2) (env_of (fun _ => UB) []) m
     | _ => loop (first 3) (big_slice R_ops p) [("p"%string, Z.of_nat p); ("n8"%string, Z.of_nat (n / 8))] (n / 8) m
     end) (prog_fwd n (p - 3)).
(** fft.cc:386-390; isrfft_butterfly_s1, _s2, _s3. *)
Fixpoint prog_inv (fuel n p s : nat) (m : mem) : option mem :=
  if (s <? p - 3)%nat then
    match fuel with
    | O => None
    | S f =>
      if (s =? 0)%nat && (p mod 3 =? 1)%nat then and_then (loop (rest 1) (slice R_ops 0) [("s"%string, 0)] (n / 4) m) (prog_inv f n p (s + 1))
      else if (s =? 0)%nat && (p mod 3 =? 2)%nat then and_then (loop (rest 2) (slice R_ops 1) [("s"%string, 0)] (n / 8) m) (prog_inv f n p (s + 2))
      else and_then (loop (rest 3) (slice R_ops (s + 2)) [("s"%string, Z.of_nat s)] (n / 16) m) (prog_inv f n p (s + 3))
    end
  else Some m.
(** fft.cc:375-406 on arrays with 2 |y| = 2^p > 0 and |x| <= 2^(p+1); isrfft_butterfly_0, _01, _012 or their
    adding versions. *)
Definition prog_isrfft (p : nat) (m : mem) : option mem :=
  let n := (2 ^ p)%nat in
  and_then (prog_inv p n p 0 m) (fun m =>
    match p with
    | 1%nat => once (first 1) (env_of (fun _ => UB) []) m
    | 2%nat => once (first 2) (env_of (fun _ => UB) []) m
    | _ => loop (first 3) (big_slice R_ops p) [("p"%string, Z.of_nat p); ("n8"%string, Z.of_nat (n / 8))] (n / 8) m
    end).
End Driver.
