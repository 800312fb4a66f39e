(** C35, C36, C37, C39: the Bottcher iteration of area.cc (exact scalars).

    Specification: [escR f k] is the k-th residual, R_0 = f and
    R_(i+1) = R_i^2 + z^(2^(i+1)-1) f.  With c = f(z)/z, R_k = z^(2^k) p_(k+1)(c) where
    p_1 = c, p_(i+1) = p_i^2 + c is the Mandelbrot iteration of 0; R_k = 1 says that f(z)/z
    inverts it to order z^(2^k). *)
From Coq Require Import ZArith QArith Qcanon List Bool Lia Setoid Morphisms Ring Field.
From Verif Require Import Base Field FieldInst FPS SeriesModel SeriesSpec SeriesProofs AlgoProofs CodeletModel
  CodeletProofs SeriesExtra AlgoExtra SeriesExamples BottcherMath AreaModel AreaProofs.
Import ListNotations.
Open Scope Z_scope.

(** C35: F = 2^-k log R_k(exp g), and dF its derivative in the direction dg. *)
Theorem C35_implicit : forall (F : Fld) (kern : kernel F) (base : bases F) (Fs dF : series F) (k : nat) (g dg : series F) (n dn : Z),
  kernel_ok kern -> bases_ok base -> valid g -> valid dg -> den g O = k0 -> 0 <= dn <= n -> n <= 2 ^ 28 ->
  n <= known g <= 2 ^ 28 -> dn <= known dg <= 2 ^ 28 -> n <= limit Fs -> dn <= limit dF -> (k <= 28)%nat ->
  exists Fs' dF', implicit F kern base Fs dF (Z.of_nat k) g dg n dn = Ok (Fs', dF') /\
    valid Fs' /\ known Fs' = n /\ limit Fs' = limit Fs /\ valid dF' /\ known dF' = dn /\ limit dF' = limit dF /\
    eqn (Z.to_nat n) (fmul (fC (kpow2n k)) (den Fs')) (flog (escR (fexp (den g)) k)) /\
    (forall (m : nat) (d : fps F), (1 <= m)%nat -> eqn m d f0 ->
       eqn (Nat.min (m + m) (m + Z.to_nat dn)) (escR (fexp (fadd (den g) (fmul d (den dg)))) k)
         (fmul (escR (fexp (den g)) k) (fadd f1 (fmul (fC (kpow2n k)) (fmul (den dF') d))))).
Proof. exact implicit_spec. Qed.
Print Assumptions C35_implicit.
(** g = 2z + z^2, k = 2: R_2 = (e^2g + z e^g)^2 + z^3 e^g; e.g. F_1 = 2 + 1/2. *)
Example C35_instance :
  let g := qs [0; 2; 1; 0; 0; 0] in
  valid g /\ keqb (den g O) k0 = true /\
  match implicit QcF (ref_kernel QcF) (gen_bases QcF) (new_series 6) (new_series 3) 2 g (qs [1; 0; 0]) 6 3 with
  | Ok (f, d) => obs (Ok f) = Ok ([Some (0 # 1); Some (5 # 2); Some (-1 # 4); Some (23 # 12); Some (-103 # 24); Some (247 # 20)]%Q, 6, 6) /\
                 obs (Ok d) = Ok ([Some (1 # 1); Some (-1 # 2); Some (3 # 2)]%Q, 3, 3)
  | _ => False
  end.
Proof. cbv zeta. split; [apply qs_valid|]. split; [vm_compute; reflexivity|]. vm_compute. auto. Qed.

(** C36: one step doubles the number of correct terms and leaves the old ones alone.  The
    step succeeds exactly when the area checks of area.cc:171-190 accept; the two series they
    see are the same modulo z^(2^(k+1)). *)
Theorem C36_bottcher_step : forall (F : Fld) (kern : kernel F) (base : bases F) (check : bool -> series F -> bool) (g : series F) (k : nat),
  kernel_ok kern -> bases_ok base -> valid g -> (k <= 27)%nat -> known g = 2 ^ Z.of_nat k -> den g O = k0 ->
  eqn (2 ^ k) (escR (fexp (den g)) k) f1 ->
  exists e g' f, bottcher_step F kern base check g = (if check false e && check true f then Ok (g', f) else Throw) /\
    valid g' /\ known g' = 2 ^ Z.of_nat (S k) /\ den g' O = k0 /\
    eqn (2 ^ k) (den g') (den g) /\ eqn (2 ^ S k) (escR (fexp (den g')) (S k)) f1 /\
    valid f /\ known f = 2 ^ Z.of_nat (S k) /\ eqn (2 ^ S k) (den f) (fexp (den g')) /\
    valid e /\ known e = known f /\ eqn (2 ^ S k) (den e) (den f).
Proof. exact (fun F kern base check g k HK HB => step_ok F kern base HK HB check g k). Qed.
Print Assumptions C36_bottcher_step.
(** From 4 to 8 terms: the f returned has the classical coefficients 1, -1/2, 1/8, -1/4, 15/128, 0, -47/1024, -1/16. *)
Definition all_ok : bool -> series QcF -> bool := fun _ _ => true.
Example C36_instance :
  match bottcher QcF (ref_kernel QcF) (gen_bases QcF) all_ok 2 with
  | Ok g => known g = 4 /\ keqb (den g O) k0 = true /\
     match bottcher_step QcF (ref_kernel QcF) (gen_bases QcF) all_ok g with
     | Ok (g', f) => known g' = 8 /\
        obs (Ok f) = Ok ([Some (1 # 1); Some (-1 # 2); Some (1 # 8); Some (-1 # 4); Some (15 # 128); Some (0 # 1);
                          Some (-47 # 1024); Some (-1 # 16)]%Q, 8, 8)
     | _ => False end
  | _ => False end.
Proof. vm_compute. auto. Qed.

(** C37 *)
Theorem C37_iterates : forall (F : Fld) (kern : kernel F) (base : bases F) (check : bool -> series F -> bool) (k : nat),
  kernel_ok kern -> bases_ok base -> (k <= 28)%nat -> (forall b f, check b f = true) ->
  exists g, bottcher F kern base check k = Ok g /\ valid g /\ known g = 2 ^ Z.of_nat k /\ den g O = k0 /\
    eqn (2 ^ k) (escR (fexp (den g)) k) f1 /\
    (forall f : fps F, f O = k1 -> eqn (2 ^ k) (escR f k) f1 -> eqn (2 ^ k) f (fexp (den g))).
Proof. exact iterates_spec. Qed.
Print Assumptions C37_iterates.
(** Whatever the checks do, a result that is returned is right. *)
Theorem C37_any_check : forall (F : Fld) (kern : kernel F) (base : bases F) (check : bool -> series F -> bool) (k : nat),
  kernel_ok kern -> bases_ok base -> (k <= 28)%nat ->
  bottcher F kern base check k = Throw \/
  exists g, bottcher F kern base check k = Ok g /\ valid g /\ known g = 2 ^ Z.of_nat k /\ den g O = k0 /\
    eqn (2 ^ k) (escR (fexp (den g)) k) f1.
Proof. exact iterates_any. Qed.
Print Assumptions C37_any_check.
(** Coefficients never change in later steps, even across kernels, base cases and checks. *)
Theorem C37_stable : forall (F : Fld) (kern kern' : kernel F) (base base' : bases F) check check' (j k : nat) g g',
  kernel_ok kern -> bases_ok base -> kernel_ok kern' -> bases_ok base' -> (j <= k <= 28)%nat ->
  bottcher F kern base check j = Ok g -> bottcher F kern' base' check' k = Ok g' -> eqn (2 ^ j) (den g) (den g').
Proof. exact iterates_stable. Qed.
Print Assumptions C37_stable.

Example C37_instance :
  kernel_ok (ref_kernel QcF) /\ bases_ok (gen_bases QcF) /\
  match bottcher QcF (ref_kernel QcF) (gen_bases QcF) all_ok 2, bottcher QcF (ref_kernel QcF) (gen_bases QcF) all_ok 3 with
  | Ok g, Ok g' => obs (Ok g) = Ok ([Some (0 # 1); Some (-1 # 2); Some (0 # 1); Some (-11 # 48)]%Q, 4, 4) /\
      known g' = 8 /\ firstn 4 (map this_of (cells g')) = map this_of (cells g)
  | _, _ => False end.
Proof. split; [apply ref_kernel_ok|]. split; [apply gen_bases_ok|]. vm_compute. auto. Qed.

(** C39 *)
Theorem C39_powers : forall k : nat, (k <= 62)%nat -> known_to_k (2 ^ Z.of_nat k) = Ok (Z.of_nat k).
Proof. exact known_to_k_pow. Qed.
Print Assumptions C39_powers.
Theorem C39_others_throw : forall n, - 2 ^ 63 < n < 2 ^ 63 -> n <> 0 -> (forall k, 0 <= k <= 62 -> n <> 2 ^ k) -> known_to_k n = Throw.
Proof. exact known_to_k_throws. Qed.
Print Assumptions C39_others_throw.
(** Count 0 shifts by 64; the most negative count is taken for 2^63. *)
Theorem C39_zero_refuted : known_to_k 0 = UB /\ known_to_k (- 2 ^ 63) = Ok 63.
Proof. split; reflexivity. Qed.
Print Assumptions C39_zero_refuted.
Example C39_instance : known_to_k 1024 = Ok 10 /\ known_to_k 1025 = Throw /\ known_to_k (-1024) = Throw /\ known_to_k (2 ^ 62) = Ok 62.
Proof. vm_compute. auto. Qed.
