(** What is assumed of the further Arb operations that arb_area.cc uses, and what the areas printed are
    to enclose. *)
From Coq Require Import ZArith List Bool Lia.
From Verif Require Import Base Field FPS PolyModel PolySpec ArbAreaModel BottcherMath.
Import ListNotations.
Open Scope nat_scope.

Section Spec.
  Variable F : Fld.
  Variable A : arb_poly.
  Variable M : arb_more A.
  Variable mem : ball A -> K F -> Prop.
  Variable kpi : K F.
  Notation encl := (encl F A mem).

  (** The ball holds nothing but 0. *)
  Definition only0 (b : ball A) : Prop := forall x, mem b x -> x = 0%K.

  (** Enclosure for every choice of members; at most n coefficients where n is asked for; the exact 0
      stays exact in differences, shifts and intersections. *)
  Record more_ok : Prop := {
    mo_2exp : forall b e x, mem b x -> mem (b_2exp M b e) (kpow2 e * x)%K;
    mo_neg : forall b x, mem b x -> mem (b_neg M b) (- x)%K;
    mo_addmul : forall c b k x y, mem c x -> mem b y -> mem (b_addmul_si M c b k) (x + y * kofZ k)%K;
    mo_exp : forall b, mem b 0%K -> mem (b_exp M b) 1%K;
    mo_sqr : forall b x, mem b x -> mem (b_sqr M b) (x * x)%K;
    mo_mul : forall b c x y, mem b x -> mem c y -> mem (b_mul M b c) (x * y)%K;
    mo_pi : mem (b_pi M) kpi;
    mo_padd : forall f g n k a b, k <= Z.to_nat n -> encl f k a -> encl g k b ->
      encl (p_add M f g n) k (fadd a b);
    mo_pneg : forall f k a, encl f k a -> encl (p_neg M f) k (fopp a);
    mo_p2exp : forall f e k a, encl f k a -> encl (p_2exp M f e) k (fscale (kpow2 e) a);
    mo_shr : forall f s k a, (0 <= s)%Z -> encl f (Z.to_nat s + k) a ->
      encl (p_shr M f s) k (fhigh (Z.to_nat s) a);
    mo_neg_len : forall f, length (p_neg M f) = length f;
    mo_sub_len : forall f g n, length (p_sub A f g n) <= Z.to_nat n;
    mo_trunc_len : forall f n, length (p_trunc A f n) <= Z.to_nat n;
    mo_exp_len : forall f n, length (p_exp A f n) <= Z.to_nat n;
    mo_sub0 : forall f g n, only0 (at_ A f 0) -> only0 (at_ A g 0) -> only0 (at_ A (p_sub A f g n) 0);
    mo_shl0 : forall f s, (0 < s)%Z -> only0 (at_ A (p_shl A f s) 0);
    mo_inter0 : forall b c, only0 b -> b_overlaps A b c = true -> only0 (b_inter A b c)
  }.
  (** The tests say yes when they should. *)
  Definition tests_ok : Prop :=
    (forall b, mem b 0%K -> b_contains0 A b = true) /\
    (forall b c x, mem b x -> mem c x -> b_overlaps A b c = true).

  (** The area for order 2^k: f solves R_k(f) = 1 modulo z^(2^k), with f(0) = 1. *)
  Definition solves (k : nat) (f : fps F) : Prop := f O = 1%K /\ eqn (2 ^ k) (escR f k) f1.
  Definition area_of (k : nat) (f : fps F) : K F :=
    (kpi * sumto (fun i => (1 - kofnat i) * (f i * f i))%K (2 ^ k))%K.

  (** The two exponential functions of poly.cc enclose what they should. *)
  Definition exp_sound (skip : bool) : Prop := forall x n r k a, exp_ A skip x n = Ok r ->
    k <= Z.to_nat n -> encl x k a -> a O = 0%K -> encl r k (fexp a).
  Definition lpe_sound (skip : bool) : Prop := forall x s n r k a, log1p_exp_shift A M skip x s n = Ok r ->
    (1 <= s)%Z -> k <= Z.to_nat n -> encl x (Z.to_nat n) a -> a O = 0%K ->
    encl r k (fhigh (Z.to_nat s) (flog1p (fshift (Z.to_nat s) (fexp a)))).
End Spec.
