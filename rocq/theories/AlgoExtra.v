(** When the series functions reject their arguments. *)
From Coq Require Import ZArith List Bool Lia.
From Verif Require Import Base Field FPS SeriesModel SeriesSpec SeriesProofs AlgoProofs SeriesExtra.
Import ListNotations.
Open Scope Z_scope.

Section AE.
Variable F : Fld.
Notation ser := (series F).
Add Field KF : (kfield F).

Lemma rd_pos : forall x : ser, valid x -> 0 < nonzero x -> rd F (cells x) 0 = Ok (den x O).
Proof. intros x Hx Hn. rewrite valid_rd by (auto; lia). reflexivity. Qed.

Lemma keqb_false : forall a b : K F, a <> b -> keqb a b = false.
Proof. intros a b H. destruct (keqb a b) eqn:E; [|reflexivity]. apply keqb_ok in E. contradiction. Qed.

Lemma set_log_throws : forall kern base (y x : ser), valid x -> 0 < known x -> den x O <> k1 ->
  set_log F kern base y x = Throw.
Proof.
  intros kern base y x Hx Hk H. unfold set_log, set_log_gen.
  destruct (Z.eqb_spec (known x) 0); [lia|].
  destruct (Z.eqb_spec (nonzero x) 0) as [E|E]; [reflexivity|].
  pose proof Hx as (X0 & _). cbn [negb slow_assert bind].
  rewrite rd_pos by (auto; lia). cbn [bind]. rewrite keqb_false by exact H. reflexivity.
Qed.

Lemma set_exp_throws : forall kern base (y x : ser), valid x -> 0 < known x -> den x O <> k0 ->
  set_exp F kern base y x = Throw.
Proof.
  intros kern base y x Hx Hk H. unfold set_exp, set_exp_gen.
  destruct (Z.eqb_spec (known x) 0); [lia|]. pose proof Hx as (X0 & _).
  destruct (Z.eqb_spec (nonzero x) 0) as [E|E].
  - exfalso. apply H. unfold den. rewrite E. reflexivity.
  - cbn [negb andb]. rewrite rd_pos by (auto; lia). cbn [bind]. rewrite keqb_false by exact H. reflexivity.
Qed.

Lemma set_inv1p_throws : forall kern (y x : ser) s, 0 < known x -> s <= 0 -> set_inv1p F kern y x s = Throw.
Proof.
  intros kern y x s Hk Hs. unfold set_inv1p. destruct (Z.eqb_spec (known x) 0); [lia|].
  destruct (Z.ltb_spec 0 s); [lia|reflexivity].
Qed.
Lemma set_div1p_throws : forall kern (y a b : ser) s, s <= 0 -> set_div1p F kern y a b s = Throw.
Proof. intros kern y a b s Hs. unfold set_div1p. destruct (Z.ltb_spec 0 s); [lia|reflexivity]. Qed.
Lemma set_log1p_throws : forall kern (y x : ser) s, 0 < known x -> s <= 0 -> set_log1p F kern y x s = Throw.
Proof.
  intros kern y x s Hk Hs. unfold set_log1p. destruct (Z.eqb_spec (known x) 0); [lia|].
  destruct (Z.ltb_spec 0 s); [lia|reflexivity].
Qed.
Lemma set_log1p_exp_throws : forall kern base (y x : ser) s, 0 < known x -> s <= 0 -> set_log1p_exp F kern base y x s = Throw.
Proof.
  intros kern base y x s Hk Hs. unfold set_log1p_exp. destruct (Z.eqb_spec (known x) 0); [lia|].
  destruct (Z.ltb_spec 0 s); [lia|reflexivity].
Qed.
Lemma set_log1p_exp_throws0 : forall kern base (y x : ser) s, valid x -> 0 < known x -> 0 < s -> den x O <> k0 ->
  set_log1p_exp F kern base y x s = Throw.
Proof.
  intros kern base y x s Hx Hk Hs H. unfold set_log1p_exp. destruct (Z.eqb_spec (known x) 0); [lia|].
  destruct (Z.ltb_spec 0 s); [|lia]. cbn [slow_assert bind].
  destruct (low_exact F x s Hx) as (V & K & D). pose proof (D O) as D0. change (Z.of_nat 0) with 0 in D0.
  rewrite set_exp_throws; [reflexivity|auto|lia|]. rewrite D0. destruct (Z.ltb_spec 0 s); [auto|lia].
Qed.
Lemma set_expm1_throws : forall kern (y x : ser) a s, Z.abs a <> 1 \/ s <= 0 -> set_expm1 F kern y x a s = Throw.
Proof.
  intros kern y x a s H. unfold set_expm1.
  destruct (Z.eqb_spec (Z.abs a) 1); cbn [andb]; [|reflexivity].
  destruct (Z.ltb_spec 0 s); [lia|reflexivity].
Qed.

(** A known-zero numerator with two or more terms: the quotient is 0 but div throws. *)
Lemma set_div_zero_throws : forall kern base (y a b : ser), kernel_ok kern -> kernel_strict kern -> bases_ok base ->
  valid a -> valid b -> nonzero a = 0 -> nonzero b = known b -> den b O <> k0 ->
  2 <= Z.min (known a) (known b) -> small (known a) -> small (known b) ->
  Z.min (known a) (known b) <= limit y ->
  set_div F kern base y a b = Throw.
Proof.
  intros kern base y a b HK HS HB Ha Hb Na Nb H0 H2 Sa Sb Hl. unfold set_div, small in *.
  set (n := Z.min (known a) (known b)) in *.
  destruct (low_exact F b n Hb) as (V & K & D).
  assert (NL : nonzero (low F b n) = n).
  { unfold low. cbn [nonzero]. unfold relu. lia. }
  assert (KL : known (low F b n) = n) by lia.
  destruct (set_inv_ok F kern HK base HB (new_series n) (low F b n)) as (r & E & (Vr & Kr & Lr & Pr) & _ & Fr);
    rewrite ?new_series_limit; unfold small, pos, relu; try lia; auto.
  { intros _. rewrite (D O). change (Z.of_nat 0) with 0. destruct (Z.ltb_spec 0 n); [auto|lia]. }
  rewrite E. cbn [bind]. assert (full r) by (apply Fr; unfold full; lia). unfold full in *.
  rewrite set_mul_strict; auto; try lia.
Qed.

Lemma sgn_kofZ : forall (a : Z) (x : fps F) j, a = 1 \/ a = -1 ->
  (if 0 <? a then x else fopp x) j = kmul (kofZ a) (x j).
Proof.
  intros a x j [-> | ->]; cbn [Z.ltb Z.compare].
  - unfold kofZ. cbn [kofnat Pos.to_nat]. change (Pos.to_nat 1) with 1%nat. cbn [kofnat]. ring.
  - unfold kofZ, fopp. change (Pos.to_nat 1) with 1%nat. cbn [kofnat]. ring.
Qed.

End AE.
