(** Quadratic residues and square roots: SigModel's has_sqrt and sqrt against SigField. *)
From mathcomp Require Import all_ssreflect all_algebra.
From Coq Require Import ZArith List Bool Lia Znumtheory.
From Verif Require Import Base SeriesModel SigModel SigProofs SigField.
Set Implicit Arguments.
Unset Strict Implicit.
Import GRing.Theory.
Local Open Scope Z_scope.

(** Spec: [a] is a square modulo [p]. *)
Definition is_square (p a : Z) : Prop := exists y, 0 <= y < p /\ (y * y) mod p = a.

Lemma prime_ssr : forall p : Z, Znumtheory.prime p -> prime.prime (Z.to_nat p).
Proof.
  move=> p H. have B := prime_ge_2 p H. apply/primeP. split; [apply/ltP; lia|].
  move=> d /dvdnP [k E]. have D : (Z.of_nat d | p).
  { exists (Z.of_nat k). rewrite -Nat2Z.inj_mul. rewrite multE -E. lia. }
  destruct (prime_divisors p H _ D) as [X|[X|[X|X]]]; try lia.
  - apply/orP; left; apply/eqP; lia.
  - apply/orP; right; apply/eqP; lia.
Qed.

Section Roots.
Variable p : Z.
Hypothesis Pp : Znumtheory.prime p.
Let P := Z.to_nat p.
Lemma PP : prime.prime P. Proof. exact: prime_ssr. Qed.
Lemma p2 : 2 <= p. Proof. exact: prime_ge_2. Qed.
Definition phi (z : Z) : 'F_P := ((Z.to_nat z)%:R)%R.

Lemma phi_add x y : 0 <= x -> 0 <= y -> phi (x + y) = (phi x + phi y)%R.
Proof. by move=> Hx Hy; rewrite /phi Z2Nat.inj_add // plusE natrD. Qed.
Lemma phi_mul x y : 0 <= x -> 0 <= y -> phi (x * y) = (phi x * phi y)%R.
Proof. by move=> Hx Hy; rewrite /phi Z2Nat.inj_mul // multE natrM. Qed.
Lemma phi_p : phi p = 0%R.
Proof. by apply/eqP; rewrite /phi -(dvdn_charf (char_Fp PP)) dvdnn. Qed.
Lemma phi_mod x : 0 <= x -> phi (x mod p) = phi x.
Proof.
  move=> Hx. have B := p2. have D := Z.div_mod x p ltac:(lia). have B1 := Z.mod_pos_bound x p ltac:(lia). have B2 := Z.div_pos x p Hx ltac:(lia).
  rewrite {2}D phi_add; [|nia|lia]. rewrite phi_mul; [|lia|lia]. by rewrite phi_p mul0r add0r.
Qed.
Lemma phi_inj x y : 0 <= x < p -> 0 <= y < p -> phi x = phi y -> x = y.
Proof.
  move=> Hx Hy /eqP. rewrite /phi (nat_inj_mod PP) !modn_small; try (apply/ltP; rewrite /P; lia). move/eqP. lia.
Qed.
Lemma phi_0 : phi 0 = 0%R. Proof. by []. Qed.
Lemma phi_1 : phi 1 = 1%R. Proof. by []. Qed.
Lemma phi_surj (f : 'F_P) : exists z, 0 <= z < p /\ phi z = f.
Proof.
  exists (Z.of_nat f). split; [|by rewrite /phi Nat2Z.id natr_Zp].
  have := ltn_ord f. rewrite {2}(Fp_cast PP) => /ltP. rewrite /P. lia.
Qed.
Lemma phi_neq0 x : 0 <= x < p -> x <> 0 -> (phi x != 0)%R.
Proof. move=> Hx N. apply/eqP => E. apply: N. apply: phi_inj => //. lia. Qed.
Lemma phi_sub x y : 0 <= x -> 0 <= y -> phi ((x - y) mod p) = (phi x - phi y)%R.
Proof.
  move=> Hx Hy. have B := p2. apply: (addIr (phi y)). rewrite subrK -phi_add; [|apply Z.mod_pos_bound; lia|exact Hy].
  rewrite -phi_mod; [|have := Z.mod_pos_bound (x - y) p; lia]. rewrite Z.add_mod_idemp_l; [|lia]. rewrite Z.sub_add. exact: phi_mod.
Qed.
Lemma phi_pow x n : 0 <= x -> 0 <= n -> phi (x ^ n) = (phi x ^+ Z.to_nat n)%R.
Proof.
  move=> Hx. move: n. apply natlike_ind; [by []|]. move=> n Hn IH. rewrite Z.pow_succ_r; [|exact Hn].
  rewrite phi_mul; [|lia|apply Z.pow_nonneg; lia]. rewrite IH Z2Nat.inj_succ; [|lia]. by rewrite exprS.
Qed.
Lemma square_phi a : 0 <= a < p -> is_square p a <-> exists y, phi a = (y ^+ 2)%R.
Proof.
  move=> Ha. split.
  - move=> [y [Hy <-]]. exists (phi y). rewrite phi_mod; [|nia]. rewrite phi_mul; [|lia|lia]. by rewrite expr2.
  - move=> [f E]. destruct (phi_surj f) as [y [Hy Ey]]. exists y. split; [exact Hy|]. apply: phi_inj; [apply Z.mod_pos_bound; have := p2; lia|exact Ha|].
    rewrite phi_mod; [|nia]. rewrite phi_mul; [|lia|lia]. by rewrite Ey E expr2.
Qed.

Hypothesis p64 : p < 2 ^ 64.
Hypothesis podd : p mod 2 = 1.
Lemma Podd : odd P.
Proof.
  have E : (P = (Z.to_nat (p / 2)).*2.+1)%N.
  { rewrite /P -muln2. have := Z.div_mod p 2 ltac:(lia). have := Z.div_pos p 2 ltac:(have := p2; lia) ltac:(lia). rewrite -multE. lia. }
  by rewrite E /= odd_double.
Qed.
Lemma half_p : Z.to_nat ((p - 1) / 2) = (P.-1)./2.
Proof.
  have E : (P.-1 = (Z.to_nat ((p - 1) / 2)).*2)%N.
  { rewrite /P -muln2 -multE. have := Z.div_mod (p - 1) 2 ltac:(lia). have := Z.div_pos (p - 1) 2 ltac:(have := p2; lia) ltac:(lia).
    have : (p - 1) mod 2 = 0. { have := Z.div_mod p 2 ltac:(lia). rewrite podd => D. have -> : p - 1 = p / 2 * 2 by lia. by apply Z.mod_mul. }
    have := p2. lia. }
  by rewrite E doubleK.
Qed.
Lemma phi_m1 : phi (p - 1) = (-1)%R.
Proof. apply: (addIr 1%R). rewrite addNr -phi_1 -phi_add; [|have := p2; lia|lia]. by rewrite Z.sub_add phi_p. Qed.

Theorem has_sqrt_spec : forall a, 0 <= a < p -> exists b, has_sqrt p a = Ok b /\ (b = true <-> is_square p a).
Proof.
  move=> a Ha. have B := p2. rewrite /has_sqrt. destruct (Z.eqb_spec a 0) as [E0|N].
  { exists true. split; [by []|]. split; [|by []]. move=> _. exists 0. split; [lia|]. rewrite E0. apply Z.mod_0_l. lia. }
  rewrite (@to_u64_id (p - 1)); [|lia]. rewrite Z.shiftr_div_pow2; [|lia]. change (2 ^ 1) with 2.
  rewrite fp_pow_ok; [|lia|lia|apply Z.div_pos; lia]. cbn [bind].
  rewrite fp_neg_ok; [|lia|lia]. have E1 : (-1) mod p = p - 1.
  { have -> : -1 = (p - 1) + (-1) * p by lia. rewrite Z.mod_add; [|lia]. apply Z.mod_small. lia. }
  rewrite E1. set s := _ mod p. have Hs : 0 <= s < p by (apply Z.mod_pos_bound; lia).
  have Es : phi s = (phi a ^+ (P.-1)./2)%R.
  { rewrite /s phi_mod; [|apply Z.pow_nonneg; lia]. rewrite phi_pow; [|lia|apply Z.div_pos; lia]. by rewrite half_p. }
  have na : (phi a != 0)%R by apply: phi_neq0.
  have A1 : (s =? 1) = ((phi a ^+ (P.-1)./2)%R == 1%R).
  { rewrite -Es. destruct (Z.eqb_spec s 1) as [->|N1]; [by rewrite phi_1 eqxx|]. symmetry. apply/eqP => X. apply: N1. apply: phi_inj; [exact Hs|lia|by rewrite X]. }
  have A2 : (s =? p - 1) = ((phi a ^+ (P.-1)./2)%R == (-1)%R).
  { rewrite -Es. destruct (Z.eqb_spec s (p - 1)) as [->|N1]; [by rewrite phi_m1 eqxx|]. symmetry. apply/eqP => X. apply: N1. apply: phi_inj; [exact Hs|lia|by rewrite X phi_m1]. }
  rewrite A2 A1 (euler_pm PP Podd na). cbn [slow_assert bind]. eexists. split; [reflexivity|]. split.
  - move/eqP => E. apply/(square_phi Ha). exact: (euler PP Podd na E).
  - move/(square_phi Ha) => [y Ey]. rewrite Ey. apply/eqP. apply: (euler_sq PP Podd). apply/eqP => Y. move: na. by rewrite Ey Y expr0n eqxx.
Qed.

(** ** The square root *)
Definition good (n a : Z) : Prop := ~ is_square p ((a * a - n) mod p).
Lemma find_ab_spec : forall n draws, 0 <= n < p -> Forall (fun a => 0 <= a < p) draws ->
  (find_ab p n draws = None /\ (forall a, In a draws -> ~ good n a)) \/
  (exists a, In a draws /\ good n a /\ find_ab p n draws = Some (Ok (a, (a * a - n) mod p))).
Proof.
  move=> n draws Hn. have B := p2. elim: draws => [|a t IH] Hd.
  - left. split; [by []|]. by move=> a [].
  - inversion Hd as [|? ? Ha Ht]; subst. cbn [find_ab]. rewrite fp_mul_ok; [|lia|lia|lia]. cbn [bind].
    have B1 := Z.mod_pos_bound (a * a) p ltac:(lia). rewrite fp_sub_ok; [|lia|lia|lia]. cbn [bind].
    rewrite Zminus_mod_idemp_l. have B2 := Z.mod_pos_bound (a * a - n) p ltac:(lia).
    destruct (has_sqrt_spec B2) as [b [-> Hb]]. cbn [bind]. case: b Hb => Hb.
    + destruct (IH Ht) as [[E1 E2]|[x [I1 [G1 E1]]]].
      * left. split; [exact E1|]. move=> x [<-|I]; [|exact: E2]. rewrite /good. tauto.
      * right. exists x. split; [by right|]. by split.
    + right. exists a. split; [by left|]. split; [|by []]. rewrite /good => S. by move/Hb: S.
Qed.
Lemma iter_op_expr (R : ringType) (x : R) (n : positive) : Pos.iter_op *%R%R n x = (x ^+ Pos.to_nat n)%R.
Proof.
  move: x. elim: n => [n IH|n IH|] x; cbn [Pos.iter_op].
  - rewrite IH Pos2Nat.inj_xI -expr2 -exprM exprS. by [].
  - rewrite IH Pos2Nat.inj_xO -expr2 -exprM. by [].
  - by rewrite Pos2Nat.inj_1 expr1.
Qed.

Definition rng (x : Z * Z) : Prop := (0 <= fst x < p /\ 0 <= snd x < p).
Definition emb2 (b : Z) (x : Z * Z) : 'M['F_P]_2 := emb (phi b) (phi (fst x)) (phi (snd x)).
Lemma fp2_mul_ok : forall b x y, 0 <= b < p -> rng x -> rng y ->
  exists z, fp2_mul p b x y = Ok z /\ rng z /\ emb2 b z = (emb2 b x * emb2 b y)%R.
Proof.
  move=> b [u v] [u' v'] Hb [/= Hu Hv] [/= Hu' Hv']. have B := p2. rewrite /fp2_mul /=.
  have M : forall x y, 0 <= (x * y) mod p < p by move=> x y; apply Z.mod_pos_bound; lia.
  have A : forall x y, 0 <= (x + y) mod p < p by move=> x y; apply Z.mod_pos_bound; lia.
  have M1 := M u u'. have M2 := M v v'. have M3 := M (v * v' mod p) b. have M4 := M u v'. have M5 := M v u'.
  rewrite fp_mul_ok; [|lia|lia|lia]. cbn [bind]. rewrite fp_mul_ok; [|lia|lia|lia]. cbn [bind]. rewrite fp_mul_ok; [|lia|lia|lia]. cbn [bind].
  rewrite fp_add_ok; [|lia|lia|lia]. cbn [bind]. rewrite fp_mul_ok; [|lia|lia|lia]. cbn [bind]. rewrite fp_mul_ok; [|lia|lia|lia]. cbn [bind].
  rewrite fp_add_ok; [|lia|lia|lia]. cbn [bind]. eexists. split; [reflexivity|]. split; [split; apply A|].
  rewrite /emb2 /= emb_mul. congr emb.
  - rewrite phi_mod; [|lia]. rewrite phi_add; [|lia|lia]. congr (_ + _)%R.
    + rewrite phi_mod; [|nia]. apply phi_mul; lia.
    + rewrite phi_mod; [|nia]. rewrite phi_mul; [|lia|lia]. congr (_ * _)%R. rewrite phi_mod; [|nia]. apply phi_mul; lia.
  - rewrite phi_mod; [|lia]. rewrite phi_add; [|lia|lia]. congr (_ + _)%R; (rewrite phi_mod; [|nia]); apply phi_mul; lia.
Qed.

Lemma sqrt_main : forall n a, 0 < n < p -> 0 <= a < p -> good n a ->
  let b := (a * a - n) mod p in
  exists u v, pow_gen (Z * Z) (fp2_mul p b) (1, 0) (a, 1) (to_u64 (p + 1) / 2) = Ok (u, v) /\ 0 <= u < p /\ 0 <= v < p /\
    (v = 0 -> (u * u) mod p = n) /\ (is_square p n -> v = 0).
Proof.
  move=> n a Hn Ha G b. have B := p2. have Bb := Z.mod_pos_bound (a * a - n) p ltac:(lia). fold b in Bb.
  have Q : p <> 2 ^ 64 - 1.
  { move=> E. have D : (3 | p) by (exists ((2 ^ 64 - 1) / 3); rewrite E; reflexivity). destruct (prime_divisors p Pp 3 D) as [X|[X|[X|X]]]; lia. }
  rewrite to_u64_id; [|lia].
  have Eh : (p + 1) / 2 = (p - 1) / 2 + 1.
  { have -> : p + 1 = p - 1 + 1 * 2 by lia. rewrite Z.div_add; lia. }
  have Hh := Z.div_pos (p - 1) 2 ltac:(lia) ltac:(lia).
  destruct ((p + 1) / 2) as [|m|m] eqn:Em; try lia. cbn [pow_gen].
  have Enat : Pos.to_nat m = ((P.-1)./2).+1.
  { rewrite -half_p. lia. }
  have K : forall x y, rng x -> rng y -> exists z, fp2_mul p b x y = Ok z /\ rng z /\ emb2 b z = (emb2 b x * emb2 b y)%R.
  { move=> x y. exact: fp2_mul_ok. }
  have I1 : rng (1, 0) by split; cbn; lia.
  have I2 : rng (a, 1) by split; cbn; lia.
  have [[u v] [E [[/= Pu Pv] Ez]]] := @pow_loop_ok _ _ _ (fun x y => (x * y)%R) rng (emb2 b) (@mulrA _) K m _ _ I1 I2.
  exists u, v. split; [exact E|]. split; [exact Pu|]. split; [exact Pv|].
  have E1 : emb2 b (1, 0) = 1%R.
  { by rewrite /emb2 /= /emb phi_1 phi_0 scale0r addr0. }
  rewrite E1 mul1r iter_op_expr Enat in Ez. rewrite /emb2 /= in Ez.
  have nb : forall y, (phi b != y ^+ 2)%R.
  { move=> y. apply/eqP => X. apply: G. rewrite -/b. apply/(square_phi Bb). by exists y. }
  have Eb : ((phi a) ^+ 2 - phi n)%R = phi b.
  { rewrite /b phi_sub; [|nia|lia]. rewrite phi_mul; [|lia|lia]. by rewrite expr2. }
  have nn : (phi n != 0)%R by apply: phi_neq0; lia.
  have [C1 C2] := cipolla PP Podd nb Eb nn (esym Ez). split.
  - move=> V0. apply: phi_inj; [apply Z.mod_pos_bound; lia|lia|]. rewrite phi_mod; [|nia]. rewrite phi_mul; [|lia|lia].
    rewrite -expr2. apply: C1. by rewrite V0.
  - move/(square_phi (a := n) ltac:(lia)) => S. apply: phi_inj; [lia|lia|]. rewrite phi_0. exact: C2.
Qed.

Lemma root_small : forall n u, 0 < n < p -> 0 <= u < p -> (u * u) mod p = n ->
  let r := Z.min u (fp_neg p u) in 0 < r /\ 2 * r < p /\ (r * r) mod p = n.
Proof.
  move=> n u Hn Hu E r. have B := p2. have U0 : u <> 0 by (move=> U; rewrite U Z.mod_0_l in E; lia).
  rewrite /r /fp_neg. destruct (Z.eqb_spec u 0); [lia|]. rewrite to_u64_id; [|lia].
  have D := Z.div_mod p 2 ltac:(lia).
  have S : ((p - u) * (p - u)) mod p = n.
  { rewrite -E. have -> : (p - u) * (p - u) = u * u + (p - 2 * u) * p by ring. apply Z.mod_add. lia. }
  destruct (Z.min_spec u (p - u)) as [[L ->]|[L ->]]; split; try lia; split; try assumption; lia.
Qed.
Lemma root_unique : forall n r r', 0 <= r -> 2 * r < p -> 0 <= r' -> 2 * r' < p -> (r * r) mod p = n -> (r' * r') mod p = n -> r = r'.
Proof.
  move=> n r r' R1 R2 S1 S2 E1 E2. have B := p2.
  have D : (p | (r - r') * (r + r')).
  { apply Z.mod_divide; [lia|]. have -> : (r - r') * (r + r') = r * r - r' * r' by ring. rewrite Zminus_mod E1 E2 Z.sub_diag. apply Z.mod_0_l. lia. }
  apply prime_mult in D; [|exact Pp]. destruct D as [D|D].
  - destruct (Z.eq_dec r r') as [|N]; [assumption|]. destruct (Z.lt_ge_cases r r').
    + apply Z.divide_opp_r in D. apply Z.divide_pos_le in D; lia.
    + apply Z.divide_pos_le in D; lia.
  - destruct (Z.eq_dec (r + r') 0) as [|N]; [lia|]. apply Z.divide_pos_le in D; lia.
Qed.

Theorem fp_sqrt_spec : forall n draws, 0 <= n < p -> Forall (fun a => 0 <= a < p) draws ->
  (fp_sqrt p n draws = None /\ n <> 0 /\ (forall a, In a draws -> ~ good n a)) \/
  (is_square p n /\ exists r, fp_sqrt p n draws = Some (Ok r) /\ 0 <= r /\ 2 * r < p /\ (r * r) mod p = n) \/
  (~ is_square p n /\ fp_sqrt p n draws = Some Throw).
Proof.
  move=> n draws Hn Hd. have B := p2. rewrite /fp_sqrt. destruct (Z.eqb_spec n 0) as [->|N].
  { right; left. split; [exists 0; split; [lia|apply Z.mod_0_l; lia]|]. exists 0. split; [by []|]. split; [lia|]. split; [lia|]. apply Z.mod_0_l. lia. }
  destruct (find_ab_spec Hn Hd) as [[E1 E2]|[a [I [G E]]]].
  { left. by rewrite E1. }
  right. rewrite E. have Ha : 0 <= a < p by move/Forall_forall: Hd => Hd; exact: Hd.
  have [u [v [-> [Hu [Hv [C1 C2]]]]]] := @sqrt_main n a ltac:(lia) Ha G. cbn [bind snd fst].
  destruct (Z.eqb_spec v 0) as [V0|VN].
  - left. have Un := C1 V0. cbn [slow_assert bind]. have [R0 [R1 R2]] := @root_small n u ltac:(lia) Hu Un.
    split; [by exists u|]. rewrite fp_mul_ok; [|lia|lia|lia]. cbn [bind]. rewrite R2 Z.eqb_refl. cbn [slow_assert bind].
    eexists. split; [reflexivity|]. split; [lia|]. by split.
  - right. split; [by move/C2|]. by [].
Qed.

(** A successful draw exists. *)
Theorem sqrt_draw_exists : forall n, 0 < n < p -> exists a, 0 <= a < p /\ good n a.
Proof.
  move=> n Hn. have B := p2. have [f Hf] := draw_exists PP Podd (@phi_neq0 n ltac:(lia) ltac:(lia)).
  have [a [Ha Ea]] := phi_surj f. exists a. split; [exact Ha|]. rewrite /good.
  have Bb := Z.mod_pos_bound (a * a - n) p ltac:(lia). move/(square_phi Bb) => [y].
  rewrite phi_sub; [|nia|lia]. rewrite phi_mul; [|lia|lia]. rewrite Ea -expr2 => X. by have := Hf y; rewrite X eqxx.
Qed.
End Roots.
