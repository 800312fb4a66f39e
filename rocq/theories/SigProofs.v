(** Proofs about SigModel.v: exact modular arithmetic, powers and inverses. *)
From Coq Require Import ZArith List Bool Lia Znumtheory.
From Verif Require Import Base SeriesModel SigModel.
Import ListNotations.
Open Scope Z_scope.

Lemma to_u64_id : forall z, 0 <= z < 2 ^ 64 -> to_u64 z = z.
Proof. intros z H. unfold to_u64. apply Z.mod_small. exact H. Qed.
Lemma to_u128_id : forall z, 0 <= z < 2 ^ 128 -> to_u128 z = z.
Proof. intros z H. unfold to_u128. apply Z.mod_small. exact H. Qed.
Lemma i128_ok : forall z, - 2 ^ 127 <= z < 2 ^ 127 -> i128 z = Ok z.
Proof. intros z H. unfold i128. destruct (Z.leb_spec (- 2 ^ 127) z); destruct (Z.ltb_spec z (2 ^ 127)); try lia. reflexivity. Qed.
Lemma rem_ok : forall a p, 0 < p < 2 ^ 64 -> rem a p = Ok (a mod p).
Proof.
  intros a p H. unfold rem. destruct (Z.eqb_spec p 0); [lia|]. f_equal. apply to_u64_id. pose proof (Z.mod_pos_bound a p). lia.
Qed.

(** ** Exactness *)
Lemma fp_neg_ok : forall p a, 0 <= a < p -> p < 2 ^ 64 -> fp_neg p a = (- a) mod p.
Proof.
  intros p a Ha Hp. unfold fp_neg. destruct (Z.eqb_spec a 0) as [->|N].
  - change (- 0) with 0. rewrite Z.mod_0_l by lia. reflexivity.
  - rewrite to_u64_id by lia. replace (- a) with (p - a + (-1) * p) by lia. rewrite Z.mod_add by lia. symmetry. apply Z.mod_small. lia.
Qed.
Lemma fp_add_ok : forall p a b, 0 < p < 2 ^ 64 -> 0 <= a < 2 ^ 64 -> 0 <= b < 2 ^ 64 -> fp_add p a b = Ok ((a + b) mod p).
Proof. intros p a b Hp Ha Hb. unfold fp_add. rewrite rem_ok by lia. rewrite to_u128_id by lia. reflexivity. Qed.
Lemma fp_sub_ok : forall p a b, 0 < p < 2 ^ 64 -> 0 <= a < 2 ^ 64 -> 0 <= b <= p -> fp_sub p a b = Ok ((a - b) mod p).
Proof.
  intros p a b Hp Ha Hb. unfold fp_sub. rewrite rem_ok by lia. rewrite (to_u128_id (a + p)) by lia. rewrite to_u128_id by lia.
  f_equal. replace (a + p - b) with (a - b + 1 * p) by lia. apply Z.mod_add. lia.
Qed.
Lemma mul_range : forall a b, 0 <= a < 2 ^ 64 -> 0 <= b < 2 ^ 64 -> 0 <= a * b < 2 ^ 128.
Proof. intros a b Ha Hb. change (2 ^ 128) with (2 ^ 64 * 2 ^ 64). nia. Qed.
Lemma fp_mul_ok : forall p a b, 0 < p < 2 ^ 64 -> 0 <= a < 2 ^ 64 -> 0 <= b < 2 ^ 64 -> fp_mul p a b = Ok (a * b mod p).
Proof. intros p a b Hp Ha Hb. unfold fp_mul. rewrite rem_ok by lia. rewrite to_u128_id by (apply mul_range; assumption). reflexivity. Qed.

(** ** Binary powers, for any multiplication with an associative meaning *)
Section Pow.
Variable T M : Type.
Variable mulf : T -> T -> res T.
Variable mop : M -> M -> M.
Variable P : T -> Prop.
Variable phi : T -> M.
Hypothesis assoc : forall x y z, mop x (mop y z) = mop (mop x y) z.
Hypothesis mulf_ok : forall x y, P x -> P y -> exists z, mulf x y = Ok z /\ P z /\ phi z = mop (phi x) (phi y).
Lemma pow_loop_ok : forall n r a, P r -> P a ->
  exists z, pow_loop T mulf r a n = Ok z /\ P z /\ phi z = mop (phi r) (Pos.iter_op mop n (phi a)).
Proof.
  induction n as [n IH|n IH|]; intros r a Hr Ha; cbn [pow_loop Pos.iter_op].
  - destruct (mulf_ok r a Hr Ha) as (r1 & -> & P1 & E1). destruct (mulf_ok a a Ha Ha) as (a1 & -> & P2 & E2). cbn [bind].
    destruct (IH r1 a1 P1 P2) as (z & E & Pz & Ez). exists z. split; [exact E|]. split; [exact Pz|]. rewrite Ez, E1, E2. symmetry. apply assoc.
  - destruct (mulf_ok a a Ha Ha) as (a1 & -> & P2 & E2). cbn [bind].
    destruct (IH r a1 Hr P2) as (z & E & Pz & Ez). exists z. split; [exact E|]. split; [exact Pz|]. rewrite Ez, E2. reflexivity.
  - destruct (mulf_ok r a Hr Ha) as (r1 & -> & P1 & E1). destruct (mulf_ok a a Ha Ha) as (a1 & -> & P2 & E2). cbn [bind].
    exists r1. split; [reflexivity|]. split; [exact P1|exact E1].
Qed.
End Pow.
Lemma iter_op_pow : forall n a, Pos.iter_op Z.mul n a = a ^ Zpos n.
Proof.
  induction n as [n IH|n IH|]; intros a; cbn [Pos.iter_op].
  - rewrite IH. rewrite <- Z.pow_2_r, <- Z.pow_mul_r by lia. replace (Zpos n~1) with (1 + 2 * Zpos n) by lia.
    rewrite Z.pow_add_r by lia. rewrite Z.pow_1_r. reflexivity.
  - rewrite IH. rewrite <- Z.pow_2_r, <- Z.pow_mul_r by lia. f_equal.
  - symmetry. apply Z.pow_1_r.
Qed.
Lemma fp_pow_pos : forall p a n, 0 < p < 2 ^ 64 -> 0 <= a < 2 ^ 64 -> 0 < n -> fp_pow p a n = Ok (a ^ n mod p).
Proof.
  intros p a n Hp Ha Hn. destruct n as [|n|n]; try lia. unfold fp_pow, pow_gen.
  destruct (pow_loop_ok Z Z (fp_mul p) (fun x y => x * y mod p) (fun x => 0 <= x < 2 ^ 64) (fun x => x mod p)) with (n := n) (r := 1) (a := a) as (z & E & Pz & Ez).
  - intros x y z. rewrite Z.mul_mod_idemp_r, Z.mul_mod_idemp_l by lia. f_equal. lia.
  - intros x y Hx Hy. exists (x * y mod p). rewrite fp_mul_ok by assumption. split; [reflexivity|].
    pose proof (Z.mod_pos_bound (x * y) p ltac:(lia)). split; [lia|]. rewrite Z.mod_mod by lia. rewrite <- Z.mul_mod by lia. reflexivity.
  - lia.
  - exact Ha.
  - rewrite E. f_equal.
    (* z is reduced: the last multiplication reduces *)
    assert (R : forall n r a z, pow_loop Z (fp_mul p) r a n = Ok z -> 0 <= z < p).
    { clear - Hp. assert (Q : forall x y z, fp_mul p x y = Ok z -> 0 <= z < p).
      { intros x y z E. unfold fp_mul in E. rewrite rem_ok in E by lia. injection E as <-. apply Z.mod_pos_bound. lia. }
      induction n as [n IH|n IH|]; intros r a z E; cbn [pow_loop] in E.
      - destruct (fp_mul p r a) eqn:E1; try discriminate E. destruct (fp_mul p a a) eqn:E2; try discriminate E. cbn [bind] in E. apply IH in E. exact E.
      - destruct (fp_mul p a a) eqn:E2; try discriminate E. cbn [bind] in E. apply IH in E. exact E.
      - destruct (fp_mul p r a) eqn:E1; try discriminate E. destruct (fp_mul p a a) eqn:E2; try discriminate E. cbn [bind] in E. injection E as <-. eapply Q. exact E1. }
    rewrite <- (Z.mod_small z p) by (eapply R; exact E). rewrite Ez.
    assert (I : forall n a, Pos.iter_op (fun x y => x * y mod p) n (a mod p) mod p = Pos.iter_op Z.mul n a mod p).
    { clear - Hp. induction n as [n IH|n IH|]; intros a; cbn [Pos.iter_op].
      - rewrite Z.mod_mod by lia. rewrite <- Z.mul_mod by lia. rewrite Z.mul_mod_idemp_l by lia.
        rewrite <- (Z.mul_mod_idemp_r a (Pos.iter_op (fun x y => x * y mod p) n (a * a mod p))) by lia. rewrite IH. apply Z.mul_mod_idemp_r. lia.
      - rewrite <- Z.mul_mod by lia. apply IH.
      - apply Z.mod_mod. lia. }
    rewrite <- Z.mul_mod_idemp_r by lia. rewrite I. rewrite iter_op_pow. rewrite Z.mul_mod_idemp_r by lia. rewrite Z.mul_mod_idemp_l by lia. f_equal. lia.
Qed.
Lemma fp_pow_ok : forall p a n, 1 < p < 2 ^ 64 -> 0 <= a < 2 ^ 64 -> 0 <= n -> fp_pow p a n = Ok (a ^ n mod p).
Proof.
  intros p a n Hp Ha Hn. destruct (Z.eq_dec n 0) as [->|N]; [|apply fp_pow_pos; lia].
  cbn. f_equal. rewrite Z.mod_small; lia.
Qed.

(** ** Modular inverse *)
(** Bezout coefficients kept by the loop, with alternating signs. *)
Record euclid (x p rp r sp s tp t : Z) : Prop := {
  e_r : 0 <= r < rp;
  e_rp : rp = sp * x + tp * p;
  e_rr : r = s * x + t * p;
  e_s : Z.abs sp * r + Z.abs s * rp = p;
  e_t : Z.abs tp * r + Z.abs t * rp = x;
  e_alt : (0 <= sp /\ s <= 0 /\ tp <= 0 /\ 0 <= t) \/ (sp <= 0 /\ 0 <= s /\ 0 <= tp /\ t <= 0);
  e_g : Z.gcd rp r = Z.gcd x p
}.
Lemma abs_step : forall a q b, 0 <= q -> (0 <= a /\ b <= 0 \/ a <= 0 /\ 0 <= b) -> Z.abs (a - q * b) = Z.abs a + q * Z.abs b.
Proof.
  intros a q b Hq H. rewrite <- (Z.abs_eq q) at 2 by exact Hq. rewrite <- Z.abs_mul.
  assert (0 <= a /\ q * b <= 0 \/ a <= 0 /\ 0 <= q * b) by (destruct H as [[A B]|[A B]]; [left|right]; split; try assumption; nia).
  generalize dependent (q * b). intros; lia.
Qed.
Lemma abs_bound : forall a u r v p, 0 <= u -> 1 <= r -> Z.abs v * u + Z.abs a * r = p -> Z.abs a <= p.
Proof. intros a u r v p Hu Hr <-. pose proof (Z.abs_nonneg a). pose proof (Z.abs_nonneg v). nia. Qed.
Lemma step_sum : forall u v rp r q, (u * (rp - q * r) + (v + q * u) * r) = v * r + u * rp.
Proof. intros; ring. Qed.
Lemma sign_step : forall a b q, 0 <= q -> (0 <= a -> b <= 0 -> 0 <= a - q * b) /\ (a <= 0 -> 0 <= b -> a - q * b <= 0).
Proof. intros a b q Hq. split; intros; nia. Qed.
Lemma euclid_step : forall x p rp r sp s tp t, euclid x p rp r sp s tp t -> 0 < r ->
  let q := Z.quot rp r in
  0 <= q /\ q * r <= rp /\ Z.abs (q * s) <= p /\ Z.abs (sp - q * s) <= p /\ Z.abs (q * t) <= x /\ Z.abs (tp - q * t) <= x /\
  euclid x p r (rp - q * r) s (sp - q * s) t (tp - q * t).
Proof.
  intros x p rp r sp s tp t [[H0 H1] E1 E2 Es Et Ha Eg] Hr q.
  assert (Eq : q = rp / r) by (apply Z.quot_div_nonneg; lia).
  pose proof (Z.div_mod rp r ltac:(lia)) as D. pose proof (Z.mod_pos_bound rp r Hr) as B. rewrite <- Eq in D.
  assert (Q0 : 0 <= q) by (rewrite Eq; apply Z.div_pos; lia).
  assert (Gm : Z.gcd (rp mod r) r = Z.gcd r rp) by (apply Z.gcd_mod; lia).
  clear Eq. clearbody q. generalize dependent (rp mod r). intros m D B Gm.
  assert (Rn : rp - q * r = m) by (rewrite D; ring).
  assert (As : Z.abs (sp - q * s) = Z.abs sp + q * Z.abs s) by (apply abs_step; [exact Q0|clear - Ha; tauto]).
  assert (At : Z.abs (tp - q * t) = Z.abs tp + q * Z.abs t) by (apply abs_step; [exact Q0|clear - Ha; tauto]).
  assert (Es' : Z.abs s * (rp - q * r) + Z.abs (sp - q * s) * r = p) by (rewrite As, step_sum; exact Es).
  assert (Et' : Z.abs t * (rp - q * r) + Z.abs (tp - q * t) * r = x) by (rewrite At, step_sum; exact Et).
  assert (M0 : 0 <= rp - q * r) by (rewrite Rn; apply B).
  assert (R1 : 1 <= r) by (clear - Hr; lia).
  assert (Bs : Z.abs (sp - q * s) <= p) by (eapply abs_bound; [exact M0|exact R1|exact Es']).
  assert (Bt : Z.abs (tp - q * t) <= x) by (eapply abs_bound; [exact M0|exact R1|exact Et']).
  split; [exact Q0|]. split; [clear - M0; lia|].
  split; [rewrite Z.abs_mul, (Z.abs_eq q) by exact Q0; rewrite As in Bs; pose proof (Z.abs_nonneg sp) as N; clear - N Bs; lia|].
  split; [exact Bs|].
  split; [rewrite Z.abs_mul, (Z.abs_eq q) by exact Q0; rewrite At in Bt; pose proof (Z.abs_nonneg tp) as N; clear - N Bt; lia|].
  split; [exact Bt|].
  constructor.
  - rewrite Rn. exact B.
  - exact E2.
  - clear - E1 E2. rewrite E1 at 1. rewrite E2 at 1. ring.
  - exact Es'.
  - exact Et'.
  - pose proof (sign_step sp s q Q0) as [S1 S2]. pose proof (sign_step tp t q Q0) as [T1 T2].
    clear - Ha S1 S2 T1 T2. tauto.
  - rewrite <- Eg, Rn. rewrite Z.gcd_comm, Gm. apply Z.gcd_comm.
Qed.
Lemma rp_bound : forall x p rp r sp s tp t, euclid x p rp r sp s tp t -> 0 < r -> rp <= Z.max x p.
Proof.
  intros x p rp r sp s tp t [[H0 H1] E1 E2 Es Et Ha Eg] Hr.
  assert (Q : forall v u y, 1 <= Z.abs u -> Z.abs v * r + Z.abs u * rp = y -> rp <= y).
  { clear - H0 H1. intros v u y Hu <-. pose proof (Z.abs_nonneg v). nia. }
  destruct (Z.eq_dec s 0) as [Z1|N1].
  - destruct (Z.eq_dec t 0) as [Z2|N2]; [subst; clear - Hr; lia|]. specialize (Q tp t x ltac:(clear - N2; lia) Et). clear - Q; lia.
  - specialize (Q sp s p ltac:(clear - N1; lia) Es). clear - Q; lia.
Qed.
Lemma half_bound : forall s rp r q m v p, rp - q * r = m -> m = 0 -> r < rp -> 0 < r -> Z.abs v * r + Z.abs s * rp = p -> 2 * Z.abs s <= p.
Proof.
  intros s rp r q m v p E Em Hr H0 <-. rewrite Em in E. assert (2 <= rp).
  { lia. }
  pose proof (Z.abs_nonneg s). assert (0 <= Z.abs v * r) by (apply Z.mul_nonneg_nonneg; [apply Z.abs_nonneg|lia]). nia.
Qed.
Lemma inv_loop_ok : forall k fuel x p rp r sp s tp t, euclid x p rp r sp s tp t -> 0 < p < 2 ^ 64 -> 0 <= x < 2 ^ 64 ->
  r < 2 ^ Z.of_nat k -> (2 * k <= fuel)%nat ->
  exists sp' tp' s' t', inv_loop fuel rp r sp s tp t = Some (Ok (Z.gcd x p, sp', tp')) /\ euclid x p (Z.gcd x p) 0 sp' s' tp' t' /\
    (0 < r -> 2 * Z.abs sp' <= p /\ 2 * Z.abs tp' <= x) /\ (r = 0 -> sp' = sp /\ tp' = tp).
Proof.
  induction k as [|k IH]; intros fuel x p rp r sp s tp t I Hp Hx Hk Hf.
  - pose proof (e_r _ _ _ _ _ _ _ _ I) as [A B]. assert (r = 0) by (cbn in Hk; lia). subst r.
    assert (G : rp = Z.gcd x p) by (rewrite <- (e_g _ _ _ _ _ _ _ _ I), Z.gcd_0_r, Z.abs_eq; lia).
    exists sp, tp, s, t. rewrite <- G. split; [destruct fuel; reflexivity|]. split; [exact I|]. split; [lia|auto].
  - destruct (Z.eq_dec r 0) as [->|N].
    { pose proof (e_r _ _ _ _ _ _ _ _ I) as [A B]. assert (G : rp = Z.gcd x p) by (rewrite <- (e_g _ _ _ _ _ _ _ _ I), Z.gcd_0_r, Z.abs_eq; lia).
      exists sp, tp, s, t. rewrite <- G. split; [destruct fuel; reflexivity|]. split; [exact I|]. split; [lia|auto]. }
    pose proof (e_r _ _ _ _ _ _ _ _ I) as [A B]. assert (Hr : 0 < r) by lia.
    (* one step of the loop *)
    assert (ST : forall f rp r sp s tp t, euclid x p rp r sp s tp t -> 0 < r ->
      inv_loop (S f) rp r sp s tp t = inv_loop f r (rp - Z.quot rp r * r) s (sp - Z.quot rp r * s) t (tp - Z.quot rp r * t)).
    { clear - Hp Hx. intros f rp r sp s tp t I Hr. destruct (euclid_step _ _ _ _ _ _ _ _ I Hr) as (Q0 & B1 & B2 & B3 & B4 & B5 & _).
      pose proof (e_r _ _ _ _ _ _ _ _ I) as [A B]. pose proof (e_s _ _ _ _ _ _ _ _ I). pose proof (e_t _ _ _ _ _ _ _ _ I).
      assert (Brp : rp <= Z.max x p) by (eapply rp_bound; eassumption).
      set (q := Z.quot rp r) in *.
      cbn [inv_loop]. destruct (Z.eqb_spec r 0) as [E0|_]; [clear - E0 Hr; lia|]. cbv zeta. fold q.
      rewrite (i128_ok (q * r)) by (assert (0 <= q * r) by (apply Z.mul_nonneg_nonneg; lia); clear - Hp Hx H1 Brp B1; lia).
      cbn [bind]. rewrite (i128_ok (rp - _)) by (assert (0 <= q * r) by (apply Z.mul_nonneg_nonneg; lia); clear - Hp Hx H1 Brp B1; lia). cbn [bind].
      rewrite (i128_ok (q * s)) by (clear - Hp B2; lia). cbn [bind]. rewrite (i128_ok (sp - _)) by (clear - Hp B3; lia). cbn [bind].
      rewrite (i128_ok (q * t)) by (clear - Hx B4; lia). cbn [bind]. rewrite (i128_ok (tp - _)) by (clear - Hx B5; lia). cbn [bind]. reflexivity. }
    destruct fuel as [|[|fuel]]; try lia.
    rewrite ST by assumption. destruct (euclid_step _ _ _ _ _ _ _ _ I Hr) as (_ & _ & _ & _ & _ & _ & I1).
    set (q := Z.quot rp r) in *. set (r1 := rp - q * r) in *. set (s1 := sp - q * s) in *. set (t1 := tp - q * t) in *.
    pose proof (e_r _ _ _ _ _ _ _ _ I1) as [A1 B1].
    destruct (Z.eq_dec r1 0) as [E1|N1].
    { exists s, t, s1, t1. assert (G : r = Z.gcd x p) by (rewrite <- (e_g _ _ _ _ _ _ _ _ I1), E1, Z.gcd_0_r, Z.abs_eq; lia).
      rewrite <- G. cbn [inv_loop]. rewrite E1, Z.eqb_refl. split; [reflexivity|]. rewrite E1 in I1. split; [exact I1|]. split; [intros _|lia].
      split; [eapply half_bound with (2 := E1); [reflexivity|exact B|exact Hr|exact (e_s _ _ _ _ _ _ _ _ I)]|eapply half_bound with (2 := E1); [reflexivity|exact B|exact Hr|exact (e_t _ _ _ _ _ _ _ _ I)]]. }
    assert (Hr1 : 0 < r1) by lia. rewrite ST by assumption. destruct (euclid_step _ _ _ _ _ _ _ _ I1 Hr1) as (_ & _ & _ & _ & _ & _ & I2).
    set (q1 := Z.quot r r1) in *. set (r2 := r - q1 * r1) in *.
    pose proof (e_r _ _ _ _ _ _ _ _ I2) as [A2 B2].
    assert (Hh : r2 < 2 ^ Z.of_nat k).
    { rewrite Nat2Z.inj_succ, Z.pow_succ_r in Hk by lia. assert (1 <= q1).
      { unfold q1. rewrite Z.quot_div_nonneg by lia. apply Z.div_le_lower_bound; lia. } unfold r2. clearbody r1 q1. clear - H Hk B1 A1 A2 B2 Hr1. unfold r2 in *. nia. }
    destruct (IH fuel x p _ _ _ _ _ _ I2 Hp Hx Hh ltac:(lia)) as (sp' & tp' & s' & t' & E & I' & Bd & Ez).
    exists sp', tp', s', t'. split; [exact E|]. split; [exact I'|]. split; [intros _|lia].
    destruct (Z.eq_dec r2 0) as [E2|N2]; [|apply Bd; lia].
    destruct (Ez E2) as [-> ->]. split; [eapply half_bound with (2 := E2); [reflexivity|exact B1|exact Hr1|exact (e_s _ _ _ _ _ _ _ _ I1)]|eapply half_bound with (2 := E2); [reflexivity|exact B1|exact Hr1|exact (e_t _ _ _ _ _ _ _ _ I1)]].
Qed.

Theorem fp_inv_spec : forall p x, 2 <= p < 2 ^ 64 -> 0 <= x < p ->
  (Z.gcd x p = 1 -> exists r, fp_inv p x = Ok r /\ 0 <= r < p /\ (r * x) mod p = 1) /\
  (Z.gcd x p <> 1 -> fp_inv p x = Throw).
Proof.
  intros p x Hp Hx. unfold fp_inv.
  (* the first step only exchanges x and p *)
  assert (F : inv_loop 200 x p 1 0 0 1 = inv_loop 199 p x 0 1 1 0).
  { change 200%nat with (S 199). cbn [inv_loop]. destruct (Z.eqb_spec p 0); [lia|]. rewrite Z.quot_small by lia. cbv zeta.
    rewrite !Z.mul_0_l. change (i128 0) with (Ok 0). cbn [bind]. rewrite (i128_ok (x - 0)) by lia. cbn [bind].
    change (i128 (1 - 0)) with (Ok 1). change (i128 (0 - 0)) with (Ok 0). cbn [bind]. rewrite Z.sub_0_r. reflexivity. }
  rewrite F. clear F.
  assert (I : euclid x p p x 0 1 1 0) by (constructor; try lia; apply Z.gcd_comm).
  destruct (inv_loop_ok 64 199 x p p x 0 1 1 0 I ltac:(lia) ltac:(lia) ltac:(lia) ltac:(lia)) as (sp & tp & s & t & E & I' & Bd & Ez).
  rewrite E. clear E.
  assert (B : 2 * Z.abs sp <= p /\ 2 * Z.abs tp <= Z.max x 2).
  { destruct (Z.eq_dec x 0) as [X0|XN]; [destruct (Ez X0) as [-> ->]; lia|]. destruct (Bd ltac:(lia)). lia. }
  destruct B as [B1 B2]. pose proof (e_rp _ _ _ _ _ _ _ _ I') as Eg.
  rewrite (i128_ok (sp * x)) by nia. cbn [bind]. rewrite (i128_ok (tp * p)) by nia. cbn [bind]. rewrite <- Eg.
  assert (Gle : 0 <= Z.gcd x p <= p).
  { split; [apply Z.gcd_nonneg|]. apply Z.divide_pos_le; [lia|apply Z.gcd_divide_r]. }
  rewrite (i128_ok (Z.gcd x p)) by lia. cbn [bind]. split; intros G.
  - rewrite G, Z.eqb_refl. cbn [slow_assert bind]. rewrite G in Eg.
    assert (R : exists sp', (if sp <? 0 then i128 (sp + p) else Ok sp) = Ok sp' /\ 0 <= sp' < p /\ (sp' * x) mod p = 1).
    { assert (M : (sp * x) mod p = 1) by (replace (sp * x) with (1 + (- tp) * p) by lia; rewrite Z.mod_add by lia; apply Z.mod_small; lia).
      destruct (Z.ltb_spec sp 0).
      - exists (sp + p). split; [apply i128_ok; lia|]. split; [lia|]. replace ((sp + p) * x) with (sp * x + x * p) by ring. rewrite Z.mod_add by lia. exact M.
      - exists sp. split; [reflexivity|]. split; [lia|exact M]. }
    destruct R as (sp' & -> & Rb & Rm). cbn [bind]. destruct (Z.leb_spec 0 sp'); [|lia]. cbn [slow_assert bind].
    rewrite to_u64_id by lia. rewrite fp_mul_ok by lia. cbn [bind]. rewrite Rm. cbn [Z.eqb slow_assert bind]. exists sp'. auto.
  - destruct (Z.eqb_spec (Z.gcd x p) 1); [contradiction|]. reflexivity.
Qed.

(** ** Signatures *)
Section SigP.
Variable fields : list Z.
Definition reduced (s : list Z) : Prop := Forall2 (fun p x => 0 <= x < p) fields s.
End SigP.
Lemma map2r_ok : forall (P : Z -> Prop) f g fields s t,
  (forall p a b, P p -> 0 <= a < p -> 0 <= b < p -> f p a b = Ok (g p a b) /\ 0 <= g p a b < p) ->
  Forall P fields -> reduced fields s -> reduced fields t ->
  exists r, map2r f fields s t = Ok r /\ reduced fields r /\
    (forall i, (i < length fields)%nat -> nth i r 0 = g (nth i fields 0) (nth i s 0) (nth i t 0)).
Proof.
  intros P f g fields s t Hf Hp Hs. revert t. induction Hs as [|p a ps s Ha Hs IH]; intros t Ht.
  - inversion Ht; subst. exists []. split; [reflexivity|]. split; [constructor|]. cbn. lia.
  - inversion Ht as [|? b ? t' Hb Ht']; subst. inversion Hp; subst. destruct (Hf p a b H1 Ha Hb) as [E R].
    destruct (IH H2 t' Ht') as (r & Er & Rr & Nr). exists (g p a b :: r). cbn [map2r]. rewrite E. cbn [bind]. rewrite Er. cbn [bind].
    split; [reflexivity|]. split; [constructor; assumption|]. intros [|i] Hi; [reflexivity|]. cbn [nth]. apply Nr. cbn in Hi. lia.
Qed.
Lemma sig_int_ok : forall fields a, Forall (fun p => 2 ^ 31 < p < 2 ^ 64) fields -> - 2 ^ 31 <= a < 2 ^ 31 ->
  sig_int fields a = map (fun p => a mod p) fields.
Proof.
  intros fields a Hf Ha. unfold sig_int. apply map_ext_in. intros p Hp. rewrite Forall_forall in Hf. specialize (Hf p Hp). cbv beta in Hf.
  destruct (Z.leb_spec 0 a); rewrite to_u64_id by lia; [symmetry; apply Z.mod_small; lia|].
  replace a with (a + p + (-1) * p) at 2 by lia. rewrite Z.mod_add by lia. symmetry. apply Z.mod_small. lia.
Qed.
Lemma sig_int_reduced : forall fields a, Forall (fun p => 2 ^ 31 < p < 2 ^ 64) fields -> - 2 ^ 31 <= a < 2 ^ 31 -> reduced fields (sig_int fields a).
Proof.
  intros fields a Hf Ha. rewrite sig_int_ok by assumption. unfold reduced. clear Ha. induction Hf as [|p ps H _ IH]; cbn; constructor; auto.
  apply Z.mod_pos_bound. lia.
Qed.
Lemma sig_neg_int : forall fields a, Forall (fun p => 2 ^ 31 < p < 2 ^ 64) fields -> - 2 ^ 31 < a < 2 ^ 31 ->
  sig_neg fields (sig_int fields a) = Ok (sig_int fields (- a)).
Proof.
  intros fields a Hf Ha. unfold sig_neg. rewrite !sig_int_ok by (try assumption; lia). induction Hf as [|p ps H _ IH]; [reflexivity|].
  cbn [map map2r bind]. rewrite IH. cbn [bind]. rewrite fp_neg_ok by (try lia; apply Z.mod_pos_bound; lia).
  f_equal. f_equal. rewrite <- (Z.sub_0_l (a mod p)), <- (Z.sub_0_l a). apply Zminus_mod_idemp_r.
Qed.
Lemma sig_int_inj : forall fields i j, fields <> [] -> Forall (fun p => 2 ^ 31 < p < 2 ^ 64) fields -> Z.abs i < 2 ^ 30 -> Z.abs j < 2 ^ 30 ->
  sig_int fields i = sig_int fields j -> i = j.
Proof.
  intros [|p ps] i j N Hf Hi Hj E; [contradiction|]. rewrite !sig_int_ok in E by (try assumption; lia). cbn [map] in E. injection E as E _.
  inversion Hf; subst.
  assert (D : (i - j) mod p = 0) by (rewrite Zminus_mod, E, Z.sub_diag; apply Z.mod_0_l; lia).
  apply Z.mod_divide in D; [|lia]. destruct D as [k D]. assert (k = 0) by nia. subst k. lia.
Qed.
Lemma sig_eqb_eq : forall s t, sig_eqb s t = true <-> s = t.
Proof. intros s t. unfold sig_eqb. destruct (list_eq_dec Z.eq_dec s t); split; congruence. Qed.
Lemma unsmall_fold : forall fields s k, fields <> [] -> Forall (fun p => 2 ^ 31 < p < 2 ^ 64) fields -> (k <= 33)%nat ->
  exists o, fold_left (fun acc i => o <- acc ;;
      n <- sig_neg fields (sig_int fields (Z.of_nat i)) ;;
      let o := if sig_eqb s (sig_int fields (Z.of_nat i)) then Some (Z.of_nat i) else o in
      Ok (if sig_eqb s n then Some (- Z.of_nat i) else o)) (seq 0 k) (Ok None) = Ok o /\
    (forall i, o = Some i <-> Z.abs i < Z.of_nat k /\ s = sig_int fields i).
Proof.
  intros fields s k N Hf. induction k as [|k IH]; intros Hk.
  - exists None. split; [reflexivity|]. intros i. split; [discriminate|]. lia.
  - destruct (IH ltac:(lia)) as (o & E & H). rewrite seq_S, fold_left_app, E. cbn [fold_left bind Nat.add].
    rewrite sig_neg_int by (try assumption; lia). cbn [bind]. cbv zeta. eexists. split; [reflexivity|]. intros i.
    destruct (sig_eqb s (sig_int fields (- Z.of_nat k))) eqn:E1; [apply sig_eqb_eq in E1|].
    { split; [intros X; injection X as <-; split; [lia|exact E1]|]. intros [B X]. f_equal. rewrite E1 in X. apply sig_int_inj in X; try assumption; lia. }
    destruct (sig_eqb s (sig_int fields (Z.of_nat k))) eqn:E2; [apply sig_eqb_eq in E2|].
    { split; [intros X; injection X as <-; split; [lia|exact E2]|]. intros [B X]. f_equal. rewrite E2 in X. apply sig_int_inj in X; try assumption; lia. }
    rewrite H. split; [intros [B X]; split; [lia|exact X]|]. intros [B X]. split; [|exact X].
    assert (i <> Z.of_nat k) by (intros ->; apply sig_eqb_eq in X; congruence).
    assert (i <> - Z.of_nat k) by (intros ->; apply sig_eqb_eq in X; congruence). lia.
Qed.
Lemma unsmall_spec : forall fields s, fields <> [] -> Forall (fun p => 2 ^ 31 < p < 2 ^ 64) fields ->
  exists o, unsmall fields s = Ok o /\ (forall i, o = Some i <-> Z.abs i <= 32 /\ s = sig_int fields i).
Proof.
  intros fields s N Hf. destruct (unsmall_fold fields s 33 N Hf ltac:(lia)) as (o & E & H). exists o. split; [exact E|]. intros i. rewrite H.
  split; intros [A B]; (split; [lia|exact B]).
Qed.
Lemma fp_in : forall p z, 0 < p -> 0 <= z mod p < p.
Proof. intros p z H. apply Z.mod_pos_bound. exact H. Qed.
Definition modulus (p : Z) : Prop := 0 < p < 2 ^ 64.
Lemma sig_add_ok : forall fields s t, Forall modulus fields -> reduced fields s -> reduced fields t ->
  exists r, sig_add fields s t = Ok r /\ reduced fields r /\ (forall i, (i < length fields)%nat -> nth i r 0 = (nth i s 0 + nth i t 0) mod nth i fields 0).
Proof.
  intros fields s t Hf Hs Ht. refine (map2r_ok modulus fp_add (fun p a b => (a + b) mod p) fields s t _ Hf Hs Ht).
  unfold modulus. intros p a b Hp Ha Hb. rewrite fp_add_ok by lia. split; [reflexivity|]. apply fp_in. lia.
Qed.
Lemma sig_sub_ok : forall fields s t, Forall modulus fields -> reduced fields s -> reduced fields t ->
  exists r, sig_sub fields s t = Ok r /\ reduced fields r /\ (forall i, (i < length fields)%nat -> nth i r 0 = (nth i s 0 - nth i t 0) mod nth i fields 0).
Proof.
  intros fields s t Hf Hs Ht. refine (map2r_ok modulus fp_sub (fun p a b => (a - b) mod p) fields s t _ Hf Hs Ht).
  unfold modulus. intros p a b Hp Ha Hb. rewrite fp_sub_ok by lia. split; [reflexivity|]. apply fp_in. lia.
Qed.
Lemma sig_mul_ok : forall fields s t, Forall modulus fields -> reduced fields s -> reduced fields t ->
  exists r, sig_mul fields s t = Ok r /\ reduced fields r /\ (forall i, (i < length fields)%nat -> nth i r 0 = (nth i s 0 * nth i t 0) mod nth i fields 0).
Proof.
  intros fields s t Hf Hs Ht. refine (map2r_ok modulus fp_mul (fun p a b => (a * b) mod p) fields s t _ Hf Hs Ht).
  unfold modulus. intros p a b Hp Ha Hb. rewrite fp_mul_ok by lia. split; [reflexivity|]. apply fp_in. lia.
Qed.
Lemma sig_neg_ok : forall fields s, Forall modulus fields -> reduced fields s ->
  exists r, sig_neg fields s = Ok r /\ reduced fields r /\ (forall i, (i < length fields)%nat -> nth i r 0 = (- nth i s 0) mod nth i fields 0).
Proof.
  intros fields s Hf Hs. refine (map2r_ok modulus (fun p a _ => Ok (fp_neg p a)) (fun p a b => (- a) mod p) fields s s _ Hf Hs Hs).
  unfold modulus. intros p a b Hp Ha Hb. rewrite fp_neg_ok by lia. split; [reflexivity|]. apply fp_in. lia.
Qed.
(** Inverses: when every component is invertible, the componentwise inverse. *)
Lemma sig_inv_ok : forall fields s, Forall (fun p => 2 <= p < 2 ^ 64) fields -> reduced fields s -> Forall2 (fun p x => Z.gcd x p = 1) fields s ->
  exists r, sig_inv fields s = Ok r /\ reduced fields r /\ (forall i, (i < length fields)%nat -> (nth i r 0 * nth i s 0) mod nth i fields 0 = 1).
Proof.
  intros fields s Hf Hs Hg. unfold sig_inv. revert Hf Hg. induction Hs as [|p x ps s Hx Hs IH]; intros Hf Hg.
  - exists []. split; [reflexivity|]. split; [constructor|]. cbn. lia.
  - inversion Hf; subst. inversion Hg; subst. destruct (IH H2 H6) as (r & E & R & N). destruct (proj1 (fp_inv_spec p x H1 Hx) H4) as (y & Ey & Ry & My).
    exists (y :: r). cbn [map2r]. rewrite Ey. cbn [bind]. rewrite E. cbn [bind]. split; [reflexivity|]. split; [constructor; assumption|].
    intros [|i] Hi; [exact My|]. cbn [nth]. apply N. cbn in Hi. lia.
Qed.
