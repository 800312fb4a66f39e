(** What a series means: a small specification vocabulary, independent of the
    operations in SeriesModel.v. *)
From Coq Require Import ZArith List Bool Lia.
From Verif Require Import Base Field FPS SeriesModel.
Import ListNotations.
Open Scope Z_scope.

Section Spec.
Variable F : Fld.
Notation KK := (K F).
Notation ser := (series F).

(** Coefficient i of a series: the stored value below [nonzero], zero above. *)
Definition den (x : ser) : fps F := fun i =>
  if Z.of_nat i <? nonzero x
  then match nth i (cells x) None with Some v => v | None => k0 end
  else k0.

(** The class invariant: 0 <= nonzero <= known, nonzero <= limit, and every
    coefficient below [nonzero] has been written. *)
Definition valid (x : ser) : Prop :=
  0 <= nonzero x /\ nonzero x <= known x /\ nonzero x <= limit x /\
  forall i, Z.of_nat i < nonzero x -> exists v, nth_error (cells x) i = Some (Some v).

(** A series with any known term stores at least its constant term. *)
Definition pos (x : ser) : Prop := 0 < known x -> 0 < nonzero x.

(** The known terms of [x] are exactly the first n terms of the power series [a]. *)
Definition reps (x : ser) (n : Z) (a : fps F) : Prop :=
  valid x /\ known x = n /\ eqn (Z.to_nat n) (den x) a.

(** Sizes for which no 32-bit conversion wraps and the FFT tables suffice. *)
Definition small (n : Z) : Prop := n <= 2 ^ 28.

(** A list of coefficients as a polynomial. *)
Definition poly (l : list KK) : fps F := fun i => nth i l k0.

(** What the multiplication kernels must provide: the low nz terms of the product. *)
Record kernel_ok (kern : kernel F) : Prop := {
  km_ok : forall nz xs ys, small (Z.of_nat nz) ->
    (length xs <= nz)%nat -> (length ys <= nz)%nat -> (nz <= length xs + length ys - 1)%nat ->
    exists p, k_mul kern nz xs ys = Ok p /\ length p = nz /\
              eqn nz (poly p) (fmul (poly xs) (poly ys));
  ka_ok : forall nz xs ys, small (Z.of_nat nz) ->
    (length xs <= nz)%nat -> (length ys <= nz)%nat -> (nz <= length xs + length ys - 1)%nat ->
    exists p, k_addmul kern nz xs ys = Ok p /\ length p = nz /\
              eqn nz (poly p) (fmul (poly xs) (poly ys));
  ks_ok : forall nz xs, small (Z.of_nat nz) ->
    (length xs <= nz)%nat -> (nz <= 2 * length xs - 1)%nat ->
    exists p, k_sqr kern nz xs = Ok p /\ length p = nz /\
              eqn nz (poly p) (fmul (poly xs) (poly xs))
}.

(** The assertions at fft.cc:439 and 466: more outputs than the product can have. *)
Definition kernel_strict (kern : kernel F) : Prop :=
  forall nz xs ys, (length xs + length ys - 1 < nz)%nat ->
    k_mul kern nz xs ys = Throw /\ k_addmul kern nz xs ys = Throw.

(** Every kernel returns as many values as asked for. *)
Record kernel_len (kern : kernel F) : Prop := {
  kl_mul : forall nz xs ys p, k_mul kern nz xs ys = Ok p -> length p = nz;
  kl_addmul : forall nz xs ys p, k_addmul kern nz xs ys = Ok p -> length p = nz;
  kl_sqr : forall nz xs p, k_sqr kern nz xs = Ok p -> length p = nz
}.

(** Reference kernel: convolution, with the assertions of fft.cc. *)
Definition conv (nz : nat) (xs ys : list KK) : list KK := map (fmul (poly xs) (poly ys)) (seq 0 nz).
Definition ref_mul (nz : nat) (xs ys : list KK) : res (list KK) :=
  if (nz <=? length xs + length ys - 1)%nat then Ok (conv nz xs ys) else Throw.
Definition ref_kernel : kernel F := {|
  k_mul := ref_mul; k_addmul := ref_mul; k_sqr := fun nz xs => ref_mul nz xs xs |}.

(** What the base cases must provide (the generated codelets or the simple ones). *)
Record bases_ok (b : bases F) : Prop := {
  ib_ok : forall y x, valid x -> 0 < nonzero x -> small (known x) -> den x O <> k0 -> known x <= limit y ->
    exists y', inv_base b y x = Ok y' /\ valid y' /\ limit y' = limit y /\
      0 < known y' <= known x /\ 0 < nonzero y' /\
      eqn (Z.to_nat (known y')) (fmul (den x) (den y')) f1 /\ nonzero y' = known y';
  eb_ok : forall y x, valid x -> 0 < known x -> small (known x) -> den x O = k0 -> known x <= limit y ->
    exists y', exp_base b y x = Ok y' /\ valid y' /\ limit y' = limit y /\
      0 < known y' <= known x /\ 0 < nonzero y' /\
      eqn (Z.to_nat (known y')) (den y') (fexp (den x)) /\ nonzero y' = known y'
}.

End Spec.

Arguments den {F} _ _.
Arguments valid {F} _.
Arguments pos {F} _.
Arguments reps {F} _ _ _.
Arguments poly {F} _ _.
Arguments kernel_ok {F} _.
Arguments kernel_strict {F} _.
Arguments kernel_len {F} _.
Arguments bases_ok {F} _.
