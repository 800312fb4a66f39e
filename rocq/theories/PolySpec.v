(** What is assumed of Arb's balls and polynomials, and what it means for a ball polynomial to enclose
    a power series.  The numbers are those of any field of characteristic 0 ([F]); [kln] is the
    logarithm of constants. *)
From Coq Require Import ZArith List Bool Lia.
From Verif Require Import Base Field FPS PolyModel.
Import ListNotations.
Open Scope nat_scope.

Section Spec.
  Variable F : Fld.
  Variable kln : K F -> K F.
  Variable A : arb_poly.
  Variable mem : ball A -> K F -> Prop.

  (** The first n coefficients of [a] lie in those of [f]. *)
  Definition encl (f : list (ball A)) (n : nat) (a : fps F) : Prop :=
    forall i, i < n -> mem (at_ A f i) (a i).

  (** L is the logarithm of a up to z^n: the constants match and L' a = a'. *)
  Definition is_log (n : nat) (a L : fps F) : Prop :=
    L O = kln (a O) /\ eqn n (fmul a (theta L)) (theta a).

  Definition fderiv (a : fps F) : fps F := fun i => (kofnat (S i) * a (S i))%K.
  Definition fint (a : fps F) : fps F := fun i => match i with O => 0%K | S j => (a j / kofnat (S j))%K end.

  (** The contract: every operation encloses the exact result for every choice of members. *)
  Record poly_ok : Prop := {
    ok_zero : forall x, mem (b_zero A) x <-> x = 0%K;
    ok_sub_zero : forall x, mem (b_sub A (b_zero A) (b_zero A)) x -> x = 0%K;
    ok_ln1 : kln 1%K = 0%K;
    ok_add : forall b c x y, mem b x -> mem c y -> mem (b_add A b c) (x + y)%K;
    ok_sub : forall b c x y, mem b x -> mem c y -> mem (b_sub A b c) (x - y)%K;
    ok_mul_si : forall b k x, mem b x -> mem (b_mul_si A b k) (x * kofZ k)%K;
    ok_div_si : forall b k x, k <> 0%Z -> mem b x -> mem (b_div_si A b k) (x / kofZ k)%K;
    ok_mid_in : forall b x, mem (b_mid A b) x -> mem b x;
    ok_mid_some : forall b, exists x, mem (b_mid A b) x;
    ok_inter : forall b c x, mem b x -> mem c x -> mem (b_inter A b c) x;
    ok_positive : forall b x, b_positive A b = true -> mem b x -> x <> 0%K;
    ok_equal1 : forall b x, b_equal1 A b = true -> mem b x -> x = 1%K;
    ok_log : forall b x, b_positive A b = true -> mem b x -> mem (b_log A b) (kln x);
    ok_mullow : forall f g n k a b, k <= Z.to_nat n -> encl f k a -> encl g k b ->
      encl (p_mullow A f g n) k (fmul a b);
    ok_inv : forall f n k a y, k <= Z.to_nat n -> encl f k a -> a O <> 0%K ->
      eqn k (fmul a y) f1 -> encl (p_inv A f n) k y;
    (** the midpoint of a reciprocal's constant term can be taken nonzero *)
    ok_inv_mid : forall f n, (0 < n)%Z -> exists x, mem (b_mid A (at_ A (p_inv A f n) 0)) x /\ x <> 0%K;
    ok_div : forall f g n k a b q, k <= Z.to_nat n -> encl f k a -> encl g k b -> b O <> 0%K ->
      eqn k (fmul b q) a -> encl (p_div A f g n) k q;
    ok_add_si : forall f c k a, encl f k a -> encl (p_add_si A f c) k (fadd a (fC (kofZ c)));
    ok_psub : forall f g n k a b, k <= Z.to_nat n -> encl f k a -> encl g k b ->
      encl (p_sub A f g n) k (fsub a b);
    ok_deriv : forall f k a, encl f (S k) a -> encl (p_deriv A f) k (fderiv a);
    ok_int : forall f k a, encl f k a -> encl (p_int A f) (S k) (fint a);
    ok_shl : forall f s k a, (0 <= s)%Z -> encl f k a -> encl (p_shl A f s) (Z.to_nat s + k) (fshift (Z.to_nat s) a);
    ok_trunc : forall f n k a, k <= Z.to_nat n -> encl f k a -> encl (p_trunc A f n) k a
  }.
  (** What arb_poly_exp_series provides, for inputs whose constant term is exactly 0. *)
  Definition exp_ok : Prop := forall f n k a, k <= Z.to_nat n -> encl f k a -> a O = 0%K ->
    encl (p_exp A f n) k (fexp a).
End Spec.
