(** Properties of fft.cc (C04-C16, part of C62).
    Scalars are any exact arithmetic meeting [ops_ok]: a commutative ring in which powers of
    two are invertible, with consistent roots of unity; the reals with cos and sin are an
    instance ([R_ops_ok]).  [sched_ok ord] says that the parallel loops run each index once,
    in any order (C01, C03); [junk] is the uninitialised content of fresh buffers.
    Sizes go up to 2^29 complex values, the range of the int indices and of the tables (C16). *)
From Coq Require Import ZArith Arith List Bool Lia Permutation Reals Lra.
From Verif Require Import Base SeriesModel SeriesSpec FieldInst FFTModel FFTLoop FFTMath FFTTwiddle FFTPerm FFTSpec
  FFTProofs FFTReal FFTShift FFTShift2 FFTShift3 FFTShift4 FFTMulSpec FFTMul FFTExtra FFTKernel FFTMemModel FFTMem FFTExamples.
Import ListNotations.
Open Scope nat_scope.

(** ** C04 *)
Theorem C04_bitrev : forall X (d : X) p (y : list X), 1 <= p <= 63 -> length y = 2 ^ p ->
  exists y', bitrev y = Ok y' /\ Permutation y y' /\
    (forall i j, i < 2 ^ p -> j < 2 ^ p -> (forall t, t < p -> Nat.testbit j t = Nat.testbit i (p - 1 - t)) -> nth j y' d = nth i y d) /\
    bitrev y' = Ok y.
Proof. exact bitrev_spec. Qed.
Print Assumptions C04_bitrev.
Theorem C04_length_one_undefined : forall X (a : X), bitrev [a] = UB.
Proof. exact @bitrev_one. Qed.
Print Assumptions C04_length_one_undefined.
Example C04_instance : bitrev [0; 1; 2; 3; 4; 5; 6; 7] = Ok [0; 4; 2; 6; 1; 5; 3; 7].
Proof. vm_compute. reflexivity. Qed.

(** ** C05 *)
Theorem C05_round_trips : forall X q (y : list X), 1 <= q <= 63 -> length y = 2 ^ q ->
  (y1 <- shifted_permute y ;; shifted_unpermute y1) = Ok y /\ (y1 <- shifted_unpermute y ;; shifted_permute y1) = Ok y.
Proof.
  intros X q y Hq Hy. destruct y as [|d y]; [pose proof (Nat.pow_nonzero 2 q); cbn in Hy; lia|].
  split; [exact (shifted_unpermute_permute d q _ Hq Hy)|exact (shifted_permute_unpermute d q _ Hq Hy)].
Qed.
Print Assumptions C05_round_trips.
(** srfft is the scrambled transform followed by the shifted permutation; together they give the
    frequencies in natural order. *)
Theorem C05_natural_order : forall o ord, ops_ok o -> sched_ok ord -> forall p x y, 2 <= p <= 29 -> length y = 2 ^ (p - 1) -> length x <= 2 ^ p ->
  exists s y', srfft_scramble o ord y x = Ok s /\ shifted_permute s = Ok y' /\ Permutation s y' /\
    forall k, k < 2 ^ (p - 1) -> nth k y' (c0 o) = sdft o p (realc o x) k.
Proof.
  intros o ord Hok Hord p x y Hp Hy Hx. destruct (srfft_scramble_ok o Hok ord Hord p x y ltac:(lia) Hy Hx) as (s & E & L & _).
  destruct (srfft_ok o Hok ord Hord p x y Hp Hy Hx) as (y' & E' & _ & V). unfold srfft in E'. rewrite E in E'. cbn [bind] in E'.
  exists s, y'. split; [exact E|]. split; [exact E'|]. split; [|exact V].
  apply (shifted_permute_perm _ (c0 o) (p - 1) s y'); [lia|exact L|exact E'].
Qed.
Print Assumptions C05_natural_order.
Example C05_instance : shifted_permute [0; 1; 2; 3; 4; 5; 6; 7] = Ok [0; 4; 6; 2; 3; 7; 5; 1] /\
  shifted_unpermute [0; 4; 6; 2; 3; 7; 5; 1] = Ok [0; 1; 2; 3; 4; 5; 6; 7].
Proof. vm_compute. auto. Qed.

(** ** C06: the lookups never leave the tables (the result is not UB) and give the root. *)
Theorem C06_twiddles : forall o, ops_ok o -> forall s j,
  slice o s j = Ok (root o (S s) j) /\ (2 <= s < 30 -> big_slice o s j = Ok (root o (S s) j)).
Proof. intros o Hok s j. split; [apply slice_ok; exact Hok|intros H; apply big_slice_ok; assumption]. Qed.
Print Assumptions C06_twiddles.
(** For the reals, these are the complex exponentials. *)
Theorem C06_real_twiddles : forall s j,
  slice R_ops s j = Ok (cos (2 * PI * IZR j / 2 ^ (S s))%R, sin (2 * PI * IZR j / 2 ^ (S s))%R).
Proof. intros s j. rewrite (slice_ok R_ops R_ops_ok). reflexivity. Qed.
Print Assumptions C06_real_twiddles.
Example C06_instance : ops_ok R_ops /\ slice M_ops 5 (-1000003) = Ok (mroot 6 (-1000003)) /\ big_slice M_ops 5 77 = Ok (mroot 6 77).
Proof. split; [exact R_ops_ok|]. vm_compute. auto. Qed.

(** ** C07 *)
Theorem C07_fft : forall o ord, ops_ok o -> sched_ok ord -> forall p x y, 1 <= p <= 29 -> length y = 2 ^ p -> length x <= 2 * 2 ^ p ->
  exists y', fft o ord y x = Ok y' /\ length y' = 2 ^ p /\
    forall k, k < 2 ^ p -> nth k y' (c0 o) = dft o p (packed o x) k.
Proof. intros o ord Hok Hord. exact (fft_ok o Hok ord Hord). Qed.
Print Assumptions C07_fft.
Theorem C07_fft_throws : forall o ord y x, y <> [] -> (~ (exists p, length y = 2 ^ p) \/ 2 * length y < length x) -> fft o ord y x = Throw.
Proof. exact fft_throws. Qed.
Print Assumptions C07_fft_throws.
(** The statement fails at n = 1: bit reversal shifts a 64 bit word by 64. *)
Theorem C07_one_refuted : forall o ord, sched_ok ord -> forall a x, length x <= 2 -> fft o ord [a] x = UB.
Proof. exact fft_one. Qed.
Print Assumptions C07_one_refuted.
Example C07_instance : ops_ok R_ops /\ sched_ok rev_ord /\
  fft M_ops rev_ord (fill (7, 7)%Z 8) (ramp 13) = Ok (map (dft M_ops 3 (packed M_ops (ramp 13))) (seq 0 8)).
Proof. split; [exact R_ops_ok|]. split; [exact rev_ord_ok|]. vm_compute. reflexivity. Qed.

(** ** C08 *)
Theorem C08_ifft : forall o ord, ops_ok o -> sched_ok ord -> forall p x y, 1 <= p <= 29 -> length y = 2 ^ p -> length x <= 2 * 2 ^ p ->
  exists x' y', ifft o ord x y = Ok (x', y') /\ length x' = length x /\ length y' = length y /\
    forall i, i < length x -> nth i x' (z0 o) =
      let v := idft o p (fun k => nth k y (c0 o)) (i / 2) in if Nat.even i then fst v else snd v.
Proof. intros o ord Hok Hord. exact (ifft_ok o Hok ord Hord). Qed.
Print Assumptions C08_ifft.
Theorem C08_round_trip : forall o ord, ops_ok o -> sched_ok ord -> forall p x0 x y, 1 <= p <= 29 -> length y = 2 ^ p ->
  length x0 <= 2 * 2 ^ p -> length x <= 2 * 2 ^ p ->
  exists y' x' y2, fft o ord y x0 = Ok y' /\ ifft o ord x y' = Ok (x', y2) /\ length x' = length x /\
    forall i, i < length x -> nth i x' (z0 o) = times2 o p (nth i x0 (z0 o)).
Proof.
  intros o ord Hok Hord p x0 x y Hp Hy H0 Hx. destruct (fft_ok o Hok ord Hord p x0 y Hp Hy H0) as (y' & E & _).
  destruct (ifft_fft o Hok ord Hord p x0 x y y' Hp Hy H0 Hx E) as (x' & y2 & H). exists y', x', y2. split; [exact E|exact H].
Qed.
Print Assumptions C08_round_trip.
Example C08_instance :
  match fft M_ops seq_ord (fill (7, 7)%Z 8) (ramp 16) with
  | Ok y => match ifft M_ops rev_ord (fill 5%Z 11) y with Ok (x, _) => x = map (fun a => 8 * a)%Z (ramp 11) | _ => False end
  | _ => False end.
Proof. vm_compute. reflexivity. Qed.

(** ** C09 *)
Theorem C09_rfft : forall o ord, ops_ok o -> sched_ok ord -> forall q x y, q <= 28 -> length y = 2 ^ S q -> length x <= 2 ^ S (S q) ->
  exists y', rfft o ord y x = Ok y' /\ length y' = 2 ^ S q /\
    (forall k, 0 < k < 2 ^ S q -> nth k y' (c0 o) = dft o (S (S q)) (realc o x) k) /\
    nth 0 y' (c0 o) = (fst (dft o (S (S q)) (realc o x) 0), fst (dft o (S (S q)) (realc o x) (2 ^ S q))).
Proof. intros o ord Hok Hord q x y Hq Hy Hx. apply (rfft_ok o Hok ord Hord q x y Hq Hy). rewrite (Nat.pow_succ_r' 2 (S q)) in Hx. exact Hx. Qed.
Print Assumptions C09_rfft.
Theorem C09_rfft_throws : forall o ord y x, y <> [] -> (~ (exists p, length y = 2 ^ p) \/ 2 * length y < length x) -> rfft o ord y x = Throw.
Proof. exact rfft_throws. Qed.
Print Assumptions C09_rfft_throws.
(** The statement fails at n = 2 (y of length 1). *)
Theorem C09_two_refuted : forall o ord, sched_ok ord -> forall a x, length x <= 2 -> rfft o ord [a] x = UB.
Proof. exact rfft_one. Qed.
Print Assumptions C09_two_refuted.
Example C09_instance :
  match rfft M_ops rev_ord (fill (7, 7)%Z 8) (ramp 13) with
  | Ok y => tl y = map (dft M_ops 4 (realc M_ops (ramp 13))) (seq 1 7) /\
      hd (0, 0)%Z y = (fst (dft M_ops 4 (realc M_ops (ramp 13)) 0), fst (dft M_ops 4 (realc M_ops (ramp 13)) 8))
  | _ => False end.
Proof. vm_compute. auto. Qed.

(** ** C10 *)
Theorem C10_round_trip : forall o ord, ops_ok o -> sched_ok ord -> forall q x0 x y, q <= 28 -> length y = 2 ^ S q ->
  length x0 <= 2 * 2 ^ S q -> length x <= 2 * 2 ^ S q ->
  exists y' x' y2, rfft o ord y x0 = Ok y' /\ irfft o ord x y' = Ok (x', y2) /\ length x' = length x /\
    forall i, i < length x -> nth i x' (z0 o) = times2 o (S (S q)) (nth i x0 (z0 o)).
Proof.
  intros o ord Hok Hord q x0 x y Hq Hy H0 Hx. destruct (rfft_ok o Hok ord Hord q x0 y Hq Hy H0) as (y' & E & _).
  destruct (irfft_rfft o Hok ord Hord q x0 x y y' Hq Hy H0 Hx E) as (x' & y2 & H). exists y', x', y2. split; [exact E|exact H].
Qed.
Print Assumptions C10_round_trip.
(** irfft on any packed half spectrum *)
Theorem C10_irfft : forall o ord, ops_ok o -> sched_ok ord -> forall q x y, q <= 28 -> length y = 2 ^ S q -> length x <= 2 * 2 ^ S q ->
  exists x' y', irfft o ord x y = Ok (x', y') /\ length x' = length x /\
    forall i, i < length x -> (nth i x' (z0 o), z0 o) = idft o (S (S q)) (full o (S (S q)) y) i.
Proof. intros o ord Hok Hord. exact (irfft_ok o Hok ord Hord). Qed.
Print Assumptions C10_irfft.
Theorem C10_two_refuted : forall o ord a x, irfft o ord x [a] = UB.
Proof. intros. apply inverse_one. Qed.
Print Assumptions C10_two_refuted.
Example C10_instance :
  match rfft M_ops seq_ord (fill (7, 7)%Z 8) (ramp 16) with
  | Ok y => match irfft M_ops rev_ord (fill 5%Z 11) y with Ok (x, _) => x = map (fun a => 16 * a)%Z (ramp 11) | _ => False end
  | _ => False end.
Proof. vm_compute. reflexivity. Qed.

(** ** C11: the number and radix of the passes depend on p; the result does not. *)
Theorem C11_srfft : forall o ord, ops_ok o -> sched_ok ord -> forall p x y, 2 <= p <= 29 -> length y = 2 ^ (p - 1) -> length x <= 2 ^ p ->
  exists y', srfft o ord y x = Ok y' /\ length y' = 2 ^ (p - 1) /\
    forall k, k < 2 ^ (p - 1) -> nth k y' (c0 o) = sdft o p (realc o x) k.
Proof. intros o ord Hok Hord. exact (srfft_ok o Hok ord Hord). Qed.
Print Assumptions C11_srfft.
Theorem C11_srfft_throws : forall o ord y x, y <> [] -> (~ (exists p, length y = 2 ^ p) \/ 2 * length y < length x) -> srfft o ord y x = Throw.
Proof. exact srfft_throws. Qed.
Print Assumptions C11_srfft_throws.
(** The statement fails at n = 2 (y of length 1). *)
Theorem C11_two_refuted : forall o ord, ops_ok o -> sched_ok ord -> forall a x, length x <= 2 -> srfft o ord [a] x = UB.
Proof. intros o ord Hok. exact (srfft_one o Hok ord). Qed.
Print Assumptions C11_two_refuted.
Example C11_instance :
  srfft M_ops rev_ord (fill (7, 7)%Z 16) (ramp 29) = Ok (map (sdft M_ops 5 (realc M_ops (ramp 29))) (seq 0 16)).
Proof. vm_compute. reflexivity. Qed.

(** ** C12 *)
Theorem C12_round_trip : forall o ord, ops_ok o -> sched_ok ord -> forall p x0 x y, 2 <= p <= 29 -> length y = 2 ^ (p - 1) ->
  length x0 <= 2 ^ p -> length x <= 2 * 2 ^ p ->
  exists y' x' y2, srfft o ord y x0 = Ok y' /\ isrfft o ord x y' = Ok (x', y2) /\ length x' = length x /\
    (forall i, i < 2 ^ p -> i < length x -> nth i x' (z0 o) = times2 o (p - 1) (nth i x0 (z0 o))) /\
    (forall i, 2 ^ p <= i -> nth i x' (z0 o) = nth i x (z0 o)).
Proof.
  intros o ord Hok Hord p x0 x y Hp Hy H0 Hx. destruct (srfft_ok o Hok ord Hord p x0 y Hp Hy H0) as (y' & E & _).
  destruct (isrfft_srfft o Hok ord Hord p x0 x y y' Hp Hy H0 Hx E) as (x' & y2 & H). exists y', x', y2. split; [exact E|exact H].
Qed.
Print Assumptions C12_round_trip.
(** isrfft on any input: x_j = Re sum_k y_k exp(2 pi i j (k + 1/2) / n) *)
Theorem C12_isrfft : forall o ord, ops_ok o -> sched_ok ord -> forall p y x, 2 <= p <= 29 -> length y = 2 ^ (p - 1) -> length x <= 2 * 2 ^ p ->
  exists x' y', isrfft o ord x y = Ok (x', y') /\ length x' = length x /\ length y' = length y /\
    (forall j, j < 2 ^ p -> j < length x -> nth j x' (z0 o) =
      fst (csum o (2 ^ (p - 1)) (fun k => cmul o (nth k y (c0 o)) (root o (S p) (Z.of_nat (j * (2 * k + 1))))))) /\
    (forall i, 2 ^ p <= i -> nth i x' (z0 o) = nth i x (z0 o)).
Proof. intros o ord Hok Hord. exact (isrfft_ok o Hok ord Hord). Qed.
Print Assumptions C12_isrfft.
Theorem C12_accumulate : forall o ord, ops_ok o -> sched_ok ord -> forall p y x, 2 <= p <= 29 -> length y = 2 ^ (p - 1) -> length x <= 2 * 2 ^ p ->
  exists a b ya yb, isrfft_scramble o ord false x y = Ok (a, ya) /\ isrfft_scramble o ord true x y = Ok (b, yb) /\
    length a = length x /\ length b = length x /\
    (forall i, i < 2 ^ p -> i < length x -> nth i b (z0 o) = add o (nth i x (z0 o)) (nth i a (z0 o))) /\
    (forall i, 2 ^ p <= i -> nth i a (z0 o) = nth i x (z0 o) /\ nth i b (z0 o) = nth i x (z0 o)).
Proof. intros o ord Hok Hord. exact (isrfft_scramble_add o Hok ord Hord). Qed.
Print Assumptions C12_accumulate.
Theorem C12_two_refuted : forall o ord a x, isrfft o ord x [a] = UB.
Proof. intros. apply inverse_one. Qed.
Print Assumptions C12_two_refuted.
Example C12_instance :
  match srfft M_ops seq_ord (fill (7, 7)%Z 8) (ramp 16) with
  | Ok y => match isrfft M_ops rev_ord (fill 5%Z 19) y with Ok (x, _) => x = map (fun a => 8 * a)%Z (ramp 16) ++ [5; 5; 5]%Z | _ => False end
  | _ => False end.
Proof. vm_compute. reflexivity. Qed.

(** ** C13: the memory form covers x, y and z overlapping in any way. *)
Theorem C13_fft_mul : forall o ord junk, ops_ok o -> sched_ok ord -> (forall n, length (junk n) = n) ->
  forall m z x y, fst z + snd z <= length m -> fst x + snd x <= length m -> fst y + snd y <= length m ->
  (Z.of_nat (snd z) <= 2 ^ 28)%Z -> snd x <= snd z -> snd y <= snd z -> snd z <= snd x + snd y - 1 ->
  exists m', fft_mul_mem o ord junk m z x y = Ok m' /\ length m' = length m /\
    (forall i, i < snd z -> nth (fst z + i) m' (z0 o) = pcoef o (span_vals o m x) (span_vals o m y) i) /\
    (forall a, a < fst z \/ fst z + snd z <= a -> nth a m' (z0 o) = nth a m (z0 o)).
Proof. intros o ord junk Hok Hord Hjunk. exact (fft_mul_mem_ok o Hok ord Hord junk Hjunk). Qed.
Print Assumptions C13_fft_mul.
(** Exact also for longer inputs as long as nothing wraps; any lengths in the base case. *)
Theorem C13_fft_mul_wide : forall o ord junk, ops_ok o -> sched_ok ord -> (forall n, length (junk n) = n) ->
  forall z x y, length z <= length x + length y - 1 -> (Z.of_nat (length z) <= 2 ^ 28)%Z ->
  length z <= 8 \/ (length x <= fft_size (length z) /\ length y <= fft_size (length z) /\ length x + length y <= S (fft_size (length z))) ->
  exists r, fft_mul o ord junk z x y = Ok r /\ length r = length z /\ forall i, i < length z -> nth i r (z0 o) = pcoef o x y i.
Proof. intros o ord junk Hok Hord Hjunk. exact (fft_mul_ok o Hok ord Hord junk Hjunk). Qed.
Print Assumptions C13_fft_mul_wide.
Theorem C13_fft_mul_throws : forall o ord junk z x y, length x + length y - 1 < length z -> fft_mul o ord junk z x y = Throw.
Proof. exact fft_mul_throw. Qed.
Print Assumptions C13_fft_mul_throws.
Definition one_at (n : nat) : list R := repeat 0%R n ++ [1%R].
(** Inputs longer than the output: an accepted call returns wrong low coefficients. *)
Theorem C13_wrap_refuted : forall ord junk, sched_ok ord -> (forall n, length (junk n) = n) ->
  exists z x y r, length z <= length x + length y - 1 /\ fft_mul R_ops ord junk z x y = Ok r /\ nth 0 r 0%R <> pcoef R_ops x y 0.
Proof.
  intros ord junk Hord Hjunk. exists (repeat 0%R 9), (one_at 16), (one_at 16).
  destruct (fft_mul_value R_ops R_ops_ok ord Hord junk Hjunk (repeat 0%R 9) (one_at 16) (one_at 16)) as (r & E & L & V);
    [cbn; lia|cbn; lia|vm_compute; lia|vm_compute; lia|].
  exists r. split; [cbn; lia|]. split; [exact E|]. pose proof (V 0 ltac:(cbn; lia)) as V0. cbn [z0 R_ops] in V0. rewrite V0.
  change (fft_size (length (repeat 0%R 9))) with 32. unfold ncoef, pcoef, one_at. cbn. lra.
Qed.
Print Assumptions C13_wrap_refuted.
Example C13_instance : (forall n, length (fill (0%R, 0%R) n) = n) /\
  fft_mul M_ops rev_ord (fill (7, 7)%Z) (fill 5%Z 12) (ramp 9) (ramp 10) = Ok (map (pcoef M_ops (ramp 9) (ramp 10)) (seq 0 12)) /\
  fft_mul M_ops rev_ord (fill (7, 7)%Z) (fill 5%Z 7) (ramp 9) (ramp 1) = Ok (map (pcoef M_ops (ramp 9) (ramp 1)) (seq 0 7)) /\
  (* z overlaps both inputs *)
  fft_mul_mem M_ops rev_ord (fill (7, 7)%Z) (ramp 14) (1, 12) (0, 9) (2, 10) =
    Ok ([1]%Z ++ map (pcoef M_ops (ramp 9) (skipn 2 (ramp 12))) (seq 0 12) ++ [209]%Z).
Proof. split; [apply fill_len|]. vm_compute. auto. Qed.

(** ** C14 *)
Theorem C14_fft_addmul : forall o ord junk, ops_ok o -> sched_ok ord -> (forall n, length (junk n) = n) ->
  forall middle m m1 z x y, fst z + snd z <= length m1 -> fst x + snd x <= length m -> fst y + snd y <= length m ->
  1 <= snd z -> (Z.of_nat (snd z) <= 2 ^ 28)%Z -> snd x <= snd z -> snd y <= snd z -> snd z <= snd x + snd y - 1 -> middle m = Ok m1 ->
  exists m', fft_addmul_mem o ord junk middle m z x y = Ok m' /\ length m' = length m1 /\
    (forall i, i < snd z -> nth (fst z + i) m' (z0 o) = add o (nth (fst z + i) m1 (z0 o)) (pcoef o (span_vals o m x) (span_vals o m y) i)) /\
    (forall a, a < fst z \/ fst z + snd z <= a -> nth a m' (z0 o) = nth a m1 (z0 o)).
Proof. intros o ord junk Hok Hord Hjunk. exact (fft_addmul_mem_ok o Hok ord Hord junk Hjunk). Qed.
Print Assumptions C14_fft_addmul.
Theorem C14_fft_addmul_throws : forall o ord junk m z x y, length x + length y - 1 < length z -> fft_addmul o ord junk m z x y = Throw.
Proof. exact fft_addmul_throw. Qed.
Print Assumptions C14_fft_addmul_throws.
Example C14_instance :
  fft_addmul_mem M_ops rev_ord (fill (7, 7)%Z) (fun m => Ok (map (fun a => 2 * a)%Z m)) (ramp 14) (1, 12) (0, 9) (2, 10) =
    Ok ([2]%Z ++ map (fun i => (2 * nth (S i) (ramp 14) 0 + pcoef M_ops (ramp 9) (skipn 2 (ramp 12)) i) mod MP)%Z (seq 0 12) ++ [418]%Z).
Proof. vm_compute. reflexivity. Qed.

(** ** C15 *)
Theorem C15_fft_sqr : forall o ord junk, ops_ok o -> sched_ok ord -> (forall n, length (junk n) = n) ->
  forall m z x, fst z + snd z <= length m -> fst x + snd x <= length m ->
  (Z.of_nat (snd z) <= 2 ^ 28)%Z -> snd x <= snd z -> snd z <= 2 * snd x - 1 ->
  exists m', fft_sqr_mem o ord junk m z x = Ok m' /\ length m' = length m /\
    (forall i, i < snd z -> nth (fst z + i) m' (z0 o) = pcoef o (span_vals o m x) (span_vals o m x) i) /\
    (forall a, a < fst z \/ fst z + snd z <= a -> nth a m' (z0 o) = nth a m (z0 o)).
Proof. intros o ord junk Hok Hord Hjunk. exact (fft_sqr_mem_ok o Hok ord Hord junk Hjunk). Qed.
Print Assumptions C15_fft_sqr.
Theorem C15_fft_sqr_throws : forall o ord junk y x, 2 * length x - 1 < length y -> fft_sqr o ord junk y x = Throw.
Proof. exact fft_sqr_throw. Qed.
Print Assumptions C15_fft_sqr_throws.
Example C15_instance :
  fft_sqr M_ops rev_ord (fill (7, 7)%Z) (fill 5%Z 12) (ramp 10) = Ok (map (pcoef M_ops (ramp 10) (ramp 10)) (seq 0 12)) /\
  fft_sqr M_ops rev_ord (fill (7, 7)%Z) (fill 5%Z 8) (ramp 10) = Ok (map (pcoef M_ops (ramp 10) (ramp 10)) (seq 0 8)).
Proof. vm_compute. auto. Qed.

(** ** C16: table reads outside the tables are UB in the model, so Ok means that there are none. *)
Theorem C16_in_bounds : forall o ord, ops_ok o -> sched_ok ord -> forall p x0 x y, 1 <= p <= 29 -> length y = 2 ^ (p - 1) ->
  length x0 <= 2 ^ p -> length x <= 2 * 2 ^ p ->
  exists y' r, srfft_scramble o ord y x0 = Ok y' /\ isrfft_scramble o ord false x y' = Ok r.
Proof.
  intros o ord Hok Hord p x0 x y Hp Hy H0 Hx. destruct (srfft_scramble_ok o Hok ord Hord p x0 y Hp Hy H0) as (y' & E & L & S).
  destruct (isrfft_scramble_ok o Hok ord Hord false p x0 y' x Hp L Hx S) as (x' & y2 & E2 & _). exists y', (x', y2). split; assumption.
Qed.
Print Assumptions C16_in_bounds.
Theorem C16_out_of_bounds : forall o ord, ops_ok o -> sched_ok ord -> forall y x, length y = 2 ^ 29 -> length x <= 2 ^ 30 -> srfft_scramble o ord y x = UB.
Proof. intros o ord Hok Hord. exact (srfft_table_oob o Hok ord Hord). Qed.
Print Assumptions C16_out_of_bounds.
Theorem C16_lookup : forall o, ops_ok o -> forall s j, 2 <= s -> (s < 30 <-> big_slice o s j <> UB).
Proof.
  intros o Hok s j H. split; intros H1.
  - rewrite (big_slice_ok o Hok) by lia. discriminate.
  - destruct (Nat.lt_ge_cases s 30) as [|G]; [assumption|]. exfalso. apply H1. apply (big_slice_oob o Hok). exact G.
Qed.
Print Assumptions C16_lookup.
Example C16_instance :
  match srfft_scramble M_ops rev_ord (fill (7, 7)%Z 1) (ramp 2) with
  | Ok y => match isrfft_scramble M_ops rev_ord false (fill 5%Z 2) y with Ok (x, _) => x = ramp 2 | _ => False end
  | _ => False end.
Proof. vm_compute. reflexivity. Qed.

(** ** C62, multiplication base cases (codelets.cc:308-369) *)
Theorem C62_mul_base : forall o, ops_ok o -> forall z x y, length z <= 8 ->
  exists r, mul_base o z x y = Ok r /\ length r = length z /\ forall i, i < length z -> nth i r (z0 o) = pcoef o x y i.
Proof. intros o Hok. exact (mul_base_ok o Hok). Qed.
Print Assumptions C62_mul_base.
Theorem C62_sqr_base : forall o, ops_ok o -> forall y x, length y <= 8 ->
  exists r, sqr_base o y x = Ok r /\ length r = length y /\ forall i, i < length y -> nth i r (z0 o) = pcoef o x x i.
Proof. intros o Hok. exact (sqr_base_ok o Hok). Qed.
Print Assumptions C62_sqr_base.
Example C62_mul_instance : mul_base M_ops (fill 5%Z 8) (ramp 20) (ramp 3) = Ok (map (pcoef M_ops (ramp 20) (ramp 3)) (seq 0 8)) /\
  sqr_base M_ops (fill 5%Z 8) (ramp 7) = Ok (map (pcoef M_ops (ramp 7) (ramp 7)) (seq 0 8)).
Proof. vm_compute. auto. Qed.

(** ** The routines of fft.cc over the reals meet what the series theorems (C21-C37) ask of the
    multiplication routines, so those theorems hold with fft.cc plugged in. *)
Theorem C21_fft_kernel : forall ord junk zs, sched_ok ord -> (forall n, length (junk n) = n) -> (forall n, length (zs n) = n) ->
  kernel_ok (fft_kernel ord junk zs) /\ kernel_strict (fft_kernel ord junk zs) /\ kernel_len (fft_kernel ord junk zs).
Proof.
  intros ord junk zs Hord Hjunk Hzs. split; [|split].
  - exact (fft_kernel_ok ord Hord junk Hjunk zs Hzs).
  - exact (fft_kernel_strict ord junk zs Hzs).
  - exact (fft_kernel_len ord junk zs Hzs).
Qed.
Print Assumptions C21_fft_kernel.
Example C21_fft_kernel_instance : sched_ok rev_ord /\ (forall n, length (fill (1%R, 2%R) n) = n) /\ (forall n, length (fill 3%R n) = n).
Proof. split; [exact rev_ord_ok|]. split; intros n; apply fill_len. Qed.
