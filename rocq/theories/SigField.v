(** Squares in the field with p elements (p an odd prime): Fermat, Euler's criterion, and the
    identity behind Cipolla's square root algorithm.  Nothing here mentions the model. *)
From mathcomp Require Import all_ssreflect all_algebra.
Set Implicit Arguments.
Unset Strict Implicit.
Unset Printing Implicit Defensive.
Import GRing.Theory.
Local Open Scope ring_scope.

Section Field.
Variable p : nat.
Hypothesis pp : prime p.
Local Notation F := 'F_p.

Lemma nat_inj_mod (m n : nat) : (m%:R == n%:R :> F) = (m == n %[mod p]).
Proof.
wlog: m n / (n <= m)%N => [H|le].
  by case: (leqP n m) => [/H //|/ltnW /H]; rewrite eq_sym => ->; rewrite eq_sym.
by rewrite -subr_eq0 -natrB // -(dvdn_charf (char_Fp pp)) eqn_mod_dvd.
Qed.

Lemma fermat (x : F) : x ^+ p = x.
Proof. by rewrite -[x in LHS]natr_Zp -(Frobenius_autE (char_Fp pp)) Frobenius_aut_nat natr_Zp. Qed.

Lemma fermat1 (x : F) : x != 0 -> x ^+ p.-1 = 1.
Proof.
move=> nx; apply: (mulfI nx); rewrite -exprS prednK ?prime_gt0 // fermat mulr1 //.
Qed.

Hypothesis op : odd p.
Let h := p.-1./2.
Lemma h2 : p.-1 = h.*2.
Proof. by rewrite /h -[LHS]odd_double_half; move: op; case: p pp => // n _ /= /negbTE ->. Qed.
Lemma p_h : p = h.*2.+1.
Proof. by rewrite -h2 prednK ?prime_gt0. Qed.
Lemma h_gt0 : (0 < h)%N.
Proof. move: (prime_gt1 pp); rewrite p_h; by case: h. Qed.
Lemma two_neq0 : 2%:R != 0 :> F.
Proof. by rewrite -(dvdn_charf (char_Fp pp)) dvdn_prime2 //; apply: contraTneq op => ->. Qed.

(** ** Euler *)
Lemma euler_pm (a : F) : a != 0 -> (a ^+ h == 1) || (a ^+ h == -1).
Proof. by move=> na; rewrite -eqf_sqr expr1n -exprM muln2 -h2 fermat1. Qed.
Lemma euler_sq (x : F) : x != 0 -> (x ^+ 2) ^+ h = 1.
Proof. by move=> nx; rewrite -exprM mul2n -h2 fermat1. Qed.

Lemma squares_uniq : uniq [seq (i%:R ^+ 2 : F) | i <- iota 1 h].
Proof.
rewrite map_inj_in_uniq ?iota_uniq // => i j; rewrite !mem_iota => /andP[i1 i2] /andP[j1 j2] /eqP.
have B k : (k < 1 + h -> k < p)%N by rewrite {1}p_h -addnn add1n => H; rewrite (leq_trans H) // ltnS leq_addr.
rewrite eqf_sqr => /orP[|].
  by rewrite nat_inj_mod !modn_small ?B // => /eqP.
rewrite -subr_eq0 opprK -natrD -(dvdn_charf (char_Fp pp)) => /dvdn_leq.
rewrite addn_gt0 i1 /= => /(_ isT); rewrite {1}p_h => H; exfalso.
suff: (i + j <= h.*2)%N by move=> H2; move: (leq_trans H H2); rewrite ltnn.
by rewrite -addnn leq_add // -ltnS -add1n.
Qed.

Lemma euler (a : F) : a != 0 -> a ^+ h = 1 -> exists x, a = x ^+ 2.
Proof.
move=> na ah; pose s := [seq (i%:R ^+ 2 : F) | i <- iota 1 h].
have [/mapP[i _ ->]|ns] := boolP (a \in s); first by exists i%:R.
pose q : {poly F} := 'X^h - 1.
have sq : size q = h.+1 by rewrite /q size_addl ?size_polyXn // size_opp size_poly1 ltnS h_gt0.
have nq : q != 0 by rewrite -size_poly_eq0 sq.
have := @max_poly_roots _ q (a :: s) nq; rewrite sq /= size_map size_iota ltnn => H.
have rt x : x ^+ h = 1 -> root q x by move=> E; rewrite /q rootE !hornerE hornerXn E subrr.
suff: false by []. apply: H; last by rewrite ns squares_uniq.
rewrite rt //=; apply/allP => _ /mapP[i + ->]; rewrite mem_iota => /andP[i1 i2]; apply: rt; apply: euler_sq.
rewrite -(dvdn_charf (char_Fp pp)) gtnNdvd //.
by rewrite p_h (leq_trans i2) // add1n ltnS -addnn leq_addr.
Qed.

Lemma nonsquare_exists : exists x : F, forall y, x != y ^+ 2.
Proof.
pose q : {poly F} := 'X^(h.+1) - 'X.
have sq : size q = h.+2 by rewrite /q size_addl ?size_polyXn // size_opp size_polyX !ltnS h_gt0.
have nq : q != 0 by rewrite -size_poly_eq0 sq.
have : ~~ all (root q) (enum F).
  apply/negP => A; have := max_poly_roots nq A (enum_uniq _).
  rewrite sq -cardE card_Fp // ltnS {1}p_h ltnS -addnn -[X in (_ <= X)%N]addn0 leq_add2l leqn0 => /eqP E.
  by have := h_gt0; rewrite E.
case/allPn => x _ nr; exists x => y; apply: contra nr => /eqP ->.
rewrite rootE !hornerE hornerXn exprS; have [->|ny] := eqVneq y 0.
  by rewrite expr0n /= mul0r subrr.
by rewrite euler_sq // mulr1 subrr.
Qed.

(** For every n <> 0 some a^2 - n is not a square. *)
Lemma draw_exists (n : F) : n != 0 -> exists a : F, forall y, a ^+ 2 - n != y ^+ 2.
Proof.
move=> nn.
have [/existsP[a /forallP H]|/existsPn H] := boolP [exists a : F, [forall y : F, a ^+ 2 - n != y ^+ 2]]; first by exists a.
have C (a : F) : exists y : F, a ^+ 2 - n = y ^+ 2.
  by have := H a; rewrite negb_forall => /existsP[y]; rewrite negbK => /eqP ->; exists y.
have K (k : nat) : exists y : F, - (n *+ k) = y ^+ 2.
  elim: k => [|k [y E]]; first by exists 0; rewrite mulr0n oppr0 expr0n.
  by have [z Ez] := C y; exists z; rewrite -Ez -E mulrS opprD addrC.
have [x nx] := nonsquare_exists.
have [y] := K (nat_of_ord (- x / n)).
rewrite -mulr_natr natr_Zp mulrCA divff // mulr1 opprK => E.
by have := nx y; rewrite E eqxx.
Qed.

(** ** Cipolla.  [u + v sqrt b] is represented by the matrix u I + v S with S^2 = b I. *)
Variable b : F.
Definition Sm : 'M[F]_2 := \matrix_(i, j) (if i == 0 then (if j == 0 then 0 else b) else (if j == 0 then 1 else 0)).
Lemma Sm2 : Sm * Sm = b%:M.
Proof.
apply/matrixP => i j; rewrite !mxE !big_ord_recl big_ord0 !mxE.
by case: i => [[|[|//]] ?]; case: j => [[|[|//]] ?]; rewrite /= ?mulr0 ?mul0r ?mulr1 ?mul1r ?addr0 ?add0r ?mulr1n ?mulr0n.
Qed.
Definition emb (u v : F) : 'M[F]_2 := u%:M + v *: Sm.
Lemma emb_mul u v u' v' : emb u v * emb u' v' = emb (u * u' + v * v' * b) (u * v' + v * u').
Proof.
rewrite /emb mulrDl !mulrDr -!mulmxE -scalar_mxM mul_scalar_mx mul_mx_scalar.
rewrite -[(v *: Sm) *m _]scalemxAl -scalemxAr mulmxE Sm2 !scalerA scale_scalar_mx raddfD /= scalerDl -!addrA; congr (_ + _).
by rewrite addrA addrC (mulrC u').
Qed.
Lemma emb_inj u v u' v' : emb u v = emb u' v' -> u = u' /\ v = v'.
Proof.
move/matrixP => E; split.
  by have := E 0 0; rewrite !mxE /= !mulr1n !mulr0 !addr0.
by have := E 1 0; rewrite !mxE /= !mulr0n !mulr1 !add0r.
Qed.
Lemma pM : p \in [char 'M[F]_2].
Proof. exact: (rmorph_char (scalar_mx_rmorphism _ 1) (char_Fp pp)). Qed.

Hypothesis nb : forall y, b != y ^+ 2.
Lemma b_neq0 : b != 0.
Proof. by have := nb 0; rewrite expr0n. Qed.
Lemma b_h : b ^+ h = -1.
Proof.
have /orP[/eqP E|/eqP //] := euler_pm b_neq0.
by have [y Ey] := euler b_neq0 E; have := nb y; rewrite Ey eqxx.
Qed.
Lemma Sm_p : Sm ^+ p = - Sm.
Proof.
rewrite [X in _ ^+ X]p_h exprS -muln2 mulnC exprM expr2 Sm2 -(rmorphX (scalar_mx_rmorphism _ 1)) /= b_h raddfN /= mulrN.
congr (- _). by rewrite -mulmxE mul_mx_scalar scale1r.
Qed.
Lemma emb_p a : emb a 1 ^+ p = emb a (-1).
Proof.
rewrite -(Frobenius_autE pM) /emb scale1r Frobenius_autD_comm.
  by rewrite !Frobenius_autE Sm_p -(rmorphX (scalar_mx_rmorphism _ 1)) /= fermat scaleN1r.
by rewrite /GRing.comm -!mulmxE mul_scalar_mx mul_mx_scalar.
Qed.
Lemma emb_sqr a n : a ^+ 2 - n = b -> (emb a 1 ^+ h.+1) ^+ 2 = emb n 0.
Proof.
move=> E; rewrite -exprM mulSn muln2 -[X in _ ^+ X]/(1 + h.*2.+1)%N -p_h exprS emb_p emb_mul.
by rewrite !mul1r mulN1r mulrN1 addNr -expr2 -E opprB addrC subrK.
Qed.
(** If (a + sqrt b)^((p+1)/2) = u + v sqrt b, then n is a square exactly if v = 0, and then u^2 = n. *)
Lemma cipolla a n u v : a ^+ 2 - n = b -> n != 0 -> emb a 1 ^+ h.+1 = emb u v ->
  (v = 0 -> u ^+ 2 = n) /\ ((exists x, n = x ^+ 2) -> v = 0).
Proof.
move=> E nn X; have := emb_sqr E; rewrite X expr2 emb_mul => /emb_inj [E1 E2]; split.
  by move=> v0; rewrite -E1 v0 !mul0r addr0.
case=> x Ex; apply/eqP; apply: contraTT isT => nv.
have u0 : u = 0.
  apply/eqP; move/eqP: E2; rewrite mulrC -mulr2n -mulr_natl mulf_eq0 (negbTE two_neq0) mulf_eq0 (negbTE nv) //=.
have := nb (x / v); rewrite exprMn exprVn -Ex -E1 u0 !mul0r add0r -expr2 mulrC mulrA mulVf ?mul1r ?eqxx //.
by rewrite expf_eq0 /= nv.
Qed.
End Field.
