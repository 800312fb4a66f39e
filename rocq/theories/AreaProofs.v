(** Correctness of escape, implicit and bottcher_step. *)
From Coq Require Import ZArith List Bool Lia Setoid Morphisms Ring Field.
From Verif Require Import Base Field FPS SeriesModel SeriesSpec SeriesProofs NewtonProofs AlgoProofs SeriesExtra
  AreaModel BottcherMath.
From Coq Require Import ZifyBool ZifyNat.
Ltac Zify.zify_post_hook ::= Z.div_mod_to_equations.
Import ListNotations.
Open Scope Z_scope.

Section AP.
Variable F : Fld.
Notation KK := (K F).
Notation ser := (series F).
Add Field KFieldAP : (kfield F).
Add Ring fps_ringAP : (fps_ring_theory F) (setoid (feq_Equiv F) (fps_ring_ext F)).

Lemma kpow2_nat : forall i : nat, kpow2 (F:=F) (Z.of_nat i) = kpow2n i.
Proof. intros [|i]; [reflexivity|]. cbn [Z.of_nat kpow2]. rewrite SuccNat2Pos.id_succ. reflexivity. Qed.
Lemma kpow2_neg : forall i : nat, kpow2 (F:=F) (- Z.of_nat (S i)) = kinv (kpow2n (S i)).
Proof. intros i. cbn [Z.of_nat Z.opp kpow2]. rewrite SuccNat2Pos.id_succ. reflexivity. Qed.
Lemma kofZ_pow2 : forall i : nat, kofZ (F:=F) (2 ^ Z.of_nat i) = kpow2n i.
Proof.
  induction i as [|i IH].
  - change (2 ^ Z.of_nat 0) with (Z.of_nat 1). rewrite kofZ_of_nat. cbn [kofnat kpow2n]. ring.
  - rewrite Nat2Z.inj_succ, Z.pow_succ_r by lia. rewrite kofZ_mul, IH. cbn [kpow2n].
    change (kofZ 2) with (kofZ (F:=F) (Z.of_nat 2)). rewrite kofZ_of_nat. cbn [kofnat]. unfold ktwo. ring.
Qed.
Lemma fscale_C : forall c (a : fps F), feq (fscale c a) (fmul (fC c) a).
Proof. intros c a. symmetry. apply fC_mul. Qed.

Lemma escT_e : forall n (g h h' : fps F) (i : nat), eqn n h h' ->
  eqn n (fsub (fscale (kofZ (1 - 2 ^ Z.of_nat i)) g) (fscale (kpow2 (Z.of_nat i)) h)) (escT F g h' i).
Proof.
  intros n g h h' i H. unfold escT, P2. rewrite kpow2_nat.
  replace (1 - 2 ^ Z.of_nat i) with (1 + - 2 ^ Z.of_nat i) by lia.
  rewrite kofZ_add, kofZ_opp, kofZ_pow2. change (kofZ 1) with (kofZ (F:=F) (Z.of_nat 1)). rewrite kofZ_of_nat, kofnat_1.
  apply fsub_e.
  - apply feq_eqn. rewrite fscale_C, fC_add, fC_opp. fold (f1 (F:=F)). ring.
  - etransitivity; [apply feq_eqn, fscale_C|]. apply fmul_e; [reflexivity|exact H].
Qed.

Lemma den_0 : forall (x : ser) (a : fps F), valid x -> eqn (Z.to_nat (known x)) (den x) a -> a O = k0 -> den x O = k0.
Proof.
  intros x a (H0 & H1 & _) H Ha. destruct (Z_lt_ge_dec 0 (known x)).
  - rewrite (H O) by lia. exact Ha.
  - apply den_out. lia.
Qed.

Lemma low_p : forall (x : ser) n m, valid x -> pos x -> m = Z.min (relu n) (known x) ->
  valid (low F x n) /\ known (low F x n) = m /\ pos (low F x n) /\ eqn (Z.to_nat m) (den (low F x n)) (den x).
Proof.
  intros x n m Hx Hp ->. destruct (low_valid F x n Hx) as (V & K & N & L & D). unfold pos in *. rewrite K, N.
  rsplit; auto. intros H. destruct Hx as (? & ? & ? & ?). unfold relu in *. lia.
Qed.

(** high_add_ldexp with the result known to n terms. *)
Lemma hadd_p : forall (y x : ser) s b n, valid y -> valid x -> 0 <= s -> small s -> small n -> small (known x) ->
  known y = n -> n <= known x + s -> n <= limit y ->
  exists y', high_add_ldexp F y s b x = Ok y' /\ valid y' /\ known y' = n /\ limit y' = limit y /\
    nonzero y' = Z.min n (Z.max (nonzero y) (if nonzero x =? 0 then 0 else nonzero x + s)) /\
    eqn (Z.to_nat n) (den y') (fadd (den y) (fmul (fC (kpow2 b)) (fshift (Z.to_nat s) (den x)))).
Proof.
  intros y x s b n Hy Hx Hs Ss Sn Sx Ky Kx L. unfold small in *. destruct Hx as (X0 & X1 & X2 & X3).
  assert (Hx : valid x) by (unfold valid; auto).
  destruct (high_addsub_ok F y x 1 b s) as (y' & E & V & K & L' & N & P & _); auto; unfold small; try lia.
  replace (Z.min (known y) (known x + s)) with n in * by lia.
  exists y'. rsplit; auto. etransitivity; [exact P|]. apply feq_eqn. apply fadd_f; [reflexivity|].
  unfold hcoef. change (1 <? 0) with false. cbn iota. rewrite <- !zp_mul, fscale_C. ring.
Qed.
Lemma hsub_p : forall (y x : ser) s n, valid y -> valid x -> 0 <= s -> small s -> small n -> small (known x) ->
  known y = n -> n <= known x + s -> n <= limit y ->
  exists y', high_sub F y s x = Ok y' /\ valid y' /\ known y' = n /\ limit y' = limit y /\
    nonzero y <= nonzero y' /\
    eqn (Z.to_nat n) (den y') (fsub (den y) (fshift (Z.to_nat s) (den x))).
Proof.
  intros y x s n Hy Hx Hs Ss Sn Sx Ky Kx L. unfold small in *. destruct Hx as (X0 & X1 & X2 & X3).
  assert (Hx : valid x) by (unfold valid; auto). pose proof Hy as (Y0 & Y1 & _).
  destruct (high_addsub_ok F y x (-1) 0 s) as (y' & E & V & K & L' & N & P & _); auto; unfold small; try lia.
  replace (Z.min (known y) (known x + s)) with n in * by lia.
  exists y'. rsplit; auto; [destruct (nonzero x =? 0); lia|]. etransitivity; [exact P|]. apply feq_eqn.
  unfold hcoef. change (-1 <? 0) with true. cbn iota. cbn [kpow2]. rewrite <- !zp_mul, fscale_m1. ring.
Qed.

Lemma sub_si_p : forall (z : ser) (x y : ser) (i : nat) n (h : fps F), valid x -> valid y -> small (known x) -> small (known y) ->
  (i <= 28)%nat -> Z.min (known x) (known y) = n -> n <= limit z -> eqn (Z.to_nat n) (den y) h ->
  exists z', set_sub_si_2exp F z (1 - 2 ^ Z.of_nat i) x (Z.of_nat i) y = Ok z' /\ valid z' /\ known z' = n /\ limit z' = limit z /\
    (pos y -> pos z') /\ eqn (Z.to_nat n) (den z') (escT F (den x) h i).
Proof.
  intros z x y i n h Hx Hy Sx Sy Hi Hn Hl D. unfold small in *.
  assert (Hp : 1 <= 2 ^ Z.of_nat i <= 2 ^ 28).
  { split; [pose proof (Z.pow_pos_nonneg 2 (Z.of_nat i)); lia|apply Z.pow_le_mono_r; lia]. }
  destruct (set_sub_si_2exp_ok F z (1 - 2 ^ Z.of_nat i) x (Z.of_nat i) y Hx Hy) as (z' & E & V & K & L & N & P); unfold small; try lia.
  rewrite Hn in *. exists z'. rsplit; auto.
  - unfold pos. intros Hp' Hk. destruct Hx as (? & ? & _). rewrite N. specialize (Hp' ltac:(lia)). lia.
  - etransitivity; [exact P|]. apply escT_e. exact D.
Qed.

Lemma pos_max : forall (y y' x : ser) n s, known y = n -> pos y -> known y' = n ->
  nonzero y' = Z.min n (Z.max (nonzero y) (if nonzero x =? 0 then 0 else nonzero x + s)) -> pos y'.
Proof. unfold pos. intros y y' x n s K P K' N Hn. rewrite N. specialize (P ltac:(lia)). destruct (nonzero x =? 0); lia. Qed.
Lemma full_max : forall (y' x : ser) n p a, known y' = n -> 0 < nonzero x -> n = p ->
  nonzero y' = Z.min n (Z.max a (if nonzero x =? 0 then 0 else nonzero x + (p - 1))) -> full y'.
Proof. unfold full. intros y' x n p a K Hx Hn N. rewrite N, K. destruct (Z.eqb_spec (nonzero x) 0); lia. Qed.

Variable kern : kernel F.
Variable base : bases F.
Hypothesis Hkern : kernel_ok kern.
Hypothesis Hbase : bases_ok base.

Definition esc_inv (g dg : ser) (n dn hl dl : Z) (i : nat) (st : ser * ser * ser * ser) : Prop :=
  let '(h, dh, t, s) := st in
  valid h /\ known h = n /\ limit h = hl /\ pos h /\ eqn (Z.to_nat n) (den h) (escH F (den g) i) /\
  valid dh /\ known dh = dn /\ limit dh = dl /\ pos dh /\ eqn (Z.to_nat dn) (den dh) (escD F (den g) (den dg) i) /\
  limit t = n /\ limit s = n /\ ((0 < i)%nat -> n = 2 ^ Z.of_nat i -> full h).

Lemma escape_body_ok : forall (g dg : ser) n dn hl dl (i : nat) st, valid g -> valid dg -> den g O = k0 ->
  0 <= dn <= n -> small n -> n <= known g -> dn <= known dg -> small (known g) -> small (known dg) ->
  n <= hl -> dn <= dl -> (S i <= 28)%nat ->
  esc_inv g dg n dn hl dl i st ->
  exists st', escape_body F kern base g dg n dn (Z.of_nat (S i)) st = Ok st' /\ esc_inv g dg n dn hl dl (S i) st'.
Proof.
  intros g dg n dn hl dl i [[[h dh] t] s] Hg Hdg Hg0 Hdn Sn Kg Kdg Sg Sdg Hhl Hdl Hi
    (Vh & Kh & Lh & Ph & Dh & Vd & Kd & Ld & Pd & Dd & Lt & Ls & _).
  unfold escape_body. unfold small in *. set (j := S i) in *.
  assert (Hp : 2 <= 2 ^ Z.of_nat j <= 2 ^ 28).
  { unfold j. rewrite Nat2Z.inj_succ, Z.pow_succ_r by lia. split.
    - pose proof (Z.pow_pos_nonneg 2 (Z.of_nat i)). lia.
    - rewrite <- Z.pow_succ_r by lia. apply Z.pow_le_mono_r; lia. }
  assert (Hpn : Z.to_nat (2 ^ Z.of_nat j - 1) = (2 ^ j - 1)%nat).
  { rewrite Z2Nat.inj_sub by lia. rewrite Z2Nat.inj_pow by lia. rewrite Nat2Z.id. reflexivity. }
  destruct (sub_si_p t g h j n (escH F (den g) i)) as (t1 & E1 & V1 & K1 & L1 & P1 & D1); auto; unfold small; try lia.
  rewrite E1. cbn [bind]. specialize (P1 Ph).
  set (H := escH F (den g) i) in *. set (T := escT F (den g) H j) in *.
  assert (HT0 : T O = k0) by (apply escT_0; [exact Hg0|apply escH_0]).
  set (p := 2 ^ Z.of_nat j) in *. set (n1 := relu (n - (p - 1))) in *.
  destruct (low_p t1 (n - (p - 1)) n1 V1 P1 ltac:(unfold n1, relu; lia)) as (V2 & K2 & P2' & D2).
  assert (D2' : eqn (Z.to_nat n1) (den (low F t1 (n - (p - 1)))) T).
  { etransitivity; [exact D2|]. eapply eqn_mono; [|exact D1]. unfold n1, relu. lia. }
  destruct (set_log1p_exp_ok F kern Hkern base Hbase s (low F t1 (n - (p - 1))) (p - 1) V2) as (s1 & E3 & (V3 & K3 & L3 & P3) & D3);
    unfold small; try lia.
  { apply (den_0 _ T V2); [rewrite K2; exact D2'|exact HT0]. }
  { rewrite K2. unfold n1, relu. lia. }
  { rewrite K2. unfold n1, relu. lia. }
  rewrite E3. cbn [bind]. rewrite K2 in K3, D3.
  set (L := escL F (den g) H j).
  assert (D3' : eqn (Z.to_nat (n1 + (p - 1))) (fshift (2 ^ j - 1) (den s1)) L).
  { rewrite Hpn in D3. etransitivity; [exact D3|]. unfold L, escL. apply flog1p_e.
    replace (Z.to_nat (n1 + (p - 1))) with ((2 ^ j - 1) + Z.to_nat n1)%nat by (rewrite <- Hpn; unfold n1, relu; lia).
    apply fshift_eqn. apply fexp_e. exact D2'. }
  destruct (hadd_p h s1 (p - 1) (- Z.of_nat j) n) as (h1 & E4 & V4 & K4 & L4 & N4 & D4); auto; unfold small; try (unfold n1, relu in *; lia).
  rewrite E4. cbn [bind].
  set (d1 := relu (dn - (p - 1))) in *.
  destruct (reduce_known_valid F t1 (dn - (p - 1)) V1) as (t2 & E5 & V5 & K5 & L5 & N5 & D5).
  rewrite E5. cbn [bind]. fold d1 in K5, N5, D5.
  replace (Z.min (known t1) d1) with d1 in * by (unfold d1, relu; lia).
  destruct (hsub_p t2 s1 (p - 1) d1) as (t3 & E6 & V6 & K6 & L6 & N6 & D6); auto; unfold small; try (unfold n1, d1, relu in *; lia).
  rewrite E6. cbn [bind].
  assert (D6' : eqn (Z.to_nat d1) (den t3) (fsub T L)).
  { etransitivity; [exact D6|]. rewrite Hpn. apply fsub_e.
    - etransitivity; [exact D5|]. eapply eqn_mono; [|exact D1]. unfold d1, relu. lia.
    - eapply eqn_mono; [|exact D3']. unfold d1, n1, relu. lia. }
  destruct (set_exp_gen_ok F kern Hkern base Hbase true s1 t3 V6) as (s2 & E7 & (V7 & K7 & L7 & P7) & D7 & _); unfold small; try (unfold d1, relu in *; lia).
  { apply (den_0 _ (fsub T L) V6); [rewrite K6; exact D6'|]. rewrite coef0_sub, HT0. unfold L. rewrite escL_0. ring. }
  unfold set_exp. rewrite E7. cbn [bind]. rewrite K6 in K7, D7.
  set (D := escD F (den g) (den dg) i) in *.
  destruct (low_p dh (dn - (p - 1)) d1 Vd Pd ltac:(unfold d1, relu; lia)) as (V8 & K8 & P8 & D8).
  destruct (sub_si_p t3 dg (low F dh (dn - (p - 1))) j d1 D) as (t4 & E9 & V9 & K9 & L9 & P9 & D9); auto; unfold small; try (unfold d1, relu in *; lia).
  { etransitivity; [exact D8|]. eapply eqn_mono; [|exact Dd]. unfold d1, relu. lia. }
  fold p in E9. rewrite E9. cbn [bind]. specialize (P9 P8).
  destruct (low_p t4 (dn - (p - 1)) d1 V9 P9 ltac:(fold d1; lia)) as (V10 & K10 & P10 & D10).
  destruct (set_mul_p F kern Hkern t4 s2 (low F t4 (dn - (p - 1))) d1 V7 V10 P7 P10) as (t5 & E11 & V11 & K11 & L11 & P11 & D11 & _);
    unfold small; try (unfold d1, relu in *; lia).
  rewrite E11. cbn [bind].
  destruct (hadd_p dh t5 (p - 1) (- Z.of_nat j) dn) as (dh1 & E12 & V12 & K12 & L12 & N12 & D12); auto; unfold small; try (unfold d1, relu in *; lia).
  rewrite E12. cbn [bind]. eexists. split; [reflexivity|]. unfold esc_inv. rsplit; auto; try lia.
  - exact (pos_max h h1 s1 n (p - 1) Kh Ph K4 N4).
  - etransitivity; [exact D4|]. unfold j. cbn [escH]. fold H. fold j. fold L. apply fadd_e; [exact Dh|].
    unfold I2. unfold j at 1. rewrite kpow2_neg. fold j. apply fmul_e; [reflexivity|].
    rewrite Hpn. eapply eqn_mono; [|exact D3']. unfold n1, relu. lia.
  - exact (pos_max dh dh1 t5 dn (p - 1) Kd Pd K12 N12).
  - etransitivity; [exact D12|]. unfold j. cbn [escD]. fold H. fold j. fold L. fold D. fold T. apply fadd_e; [exact Dd|].
    unfold I2. unfold j at 1. rewrite kpow2_neg. fold j. apply fmul_e; [reflexivity|].
    rewrite Hpn. apply eqn_mono with (n := ((2 ^ j - 1) + Z.to_nat d1)%nat); [rewrite <- Hpn; unfold d1, relu; lia|].
    apply fshift_eqn. etransitivity; [exact D11|]. apply fmul_e.
    + etransitivity; [exact D7|]. apply fexp_e. exact D6'.
    + etransitivity; [exact D10|]. exact D9.
  - intros _ Hn. apply (full_max h1 s1 n p (nonzero h) K4); [|exact Hn|exact N4]. apply P3. rewrite K3. clear - Hn.
    unfold n1, relu. fold p in Hn. clearbody p. lia.
Qed.

Lemma escape_loop_ok : forall cnt (g dg : ser) n dn hl dl (i : nat) st, valid g -> valid dg -> den g O = k0 ->
  0 <= dn <= n -> small n -> n <= known g -> dn <= known dg -> small (known g) -> small (known dg) ->
  n <= hl -> dn <= dl -> (i + cnt <= 28)%nat ->
  esc_inv g dg n dn hl dl i st ->
  exists st', escape_loop F kern base cnt (Z.of_nat (S i)) g dg n dn st = Ok st' /\ esc_inv g dg n dn hl dl (i + cnt) st'.
Proof.
  induction cnt as [|c IH]; intros g dg n dn hl dl i st Hg Hdg H0 Hdn Sn Kg Kdg Sg Sdg Hhl Hdl Hi HI.
  - exists st. rewrite Nat.add_0_r. split; [reflexivity|exact HI].
  - cbn [escape_loop].
    destruct (escape_body_ok g dg n dn hl dl i st) as (st1 & E1 & I1); auto; try lia.
    rewrite E1. cbn [bind]. replace (Z.of_nat (S i) + 1) with (Z.of_nat (S (S i))) by lia.
    destruct (IH g dg n dn hl dl (S i) st1) as (st2 & E2 & I2'); auto; try lia.
    exists st2. split; [exact E2|]. replace (i + S c)%nat with (S i + c)%nat by lia. exact I2'.
Qed.

Lemma implicit_ok : forall (Fs dF : ser) (k : nat) (g dg : ser) n dn, valid g -> valid dg -> den g O = k0 ->
  0 <= dn <= n -> small n -> n <= known g -> dn <= known dg -> small (known g) -> small (known dg) ->
  n <= limit Fs -> dn <= limit dF -> (k <= 28)%nat ->
  exists Fs' dF', implicit F kern base Fs dF (Z.of_nat k) g dg n dn = Ok (Fs', dF') /\
    valid Fs' /\ known Fs' = n /\ limit Fs' = limit Fs /\ pos Fs' /\
    eqn (Z.to_nat n) (den Fs') (fadd (den g) (escH F (den g) k)) /\
    valid dF' /\ known dF' = dn /\ limit dF' = limit dF /\ pos dF' /\
    eqn (Z.to_nat dn) (den dF') (fadd (den dg) (escD F (den g) (den dg) k)) /\
    ((0 < k)%nat -> n = 2 ^ Z.of_nat k -> full Fs').
Proof.
  intros Fs dF k g dg n dn Hg Hdg H0 Hdn Sn Kg Kdg Sg Sdg Hl Hdl Hk.
  unfold implicit, escape. unfold small in *.
  destruct (set_scalar_ok F Fs n k0) as (h & E1 & V1 & K1 & L1 & N1 & D1); [lia|].
  rewrite E1. cbn [bind].
  destruct (set_scalar_ok F dF dn k0) as (dh & E2 & V2 & K2 & L2 & N2 & D2); [lia|].
  rewrite E2. cbn [bind].
  assert (Hr : relu n = n) by (unfold relu; lia). assert (Hrd : relu dn = dn) by (unfold relu; lia).
  rewrite Hr in *. rewrite Hrd in *.
  destruct (escape_loop_ok k g dg n dn (limit Fs) (limit dF) 0 (h, dh, new_series n, new_series n)) as ([[[h' dh'] t'] s'] & E3 & I3);
    auto; unfold small; try lia.
  { unfold esc_inv. rewrite !new_series_limit, Hr. rsplit; auto; try (unfold pos; lia); try lia.
    - etransitivity; [exact D1|]. cbn [escH]. apply feq_eqn. apply fC_0.
    - etransitivity; [exact D2|]. cbn [escD]. apply feq_eqn. apply fC_0. }
  change (Z.of_nat 1) with 1 in E3. rewrite Nat2Z.id, E3. cbn [bind fst snd].
  destruct I3 as (Vh & Kh & Lh & Ph & Dh & Vd & Kd & Ld & Pd & Dd & Lt & Ls & Fh).
  cbn [Nat.add] in Dh, Dd, Fh.
  destruct (add_in_ok F h' g Vh Hg) as (f1' & E4 & V4 & K4 & L4 & N4 & D4 & F4); unfold small; try lia.
  rewrite E4. cbn [bind].
  destruct (add_in_ok F dh' dg Vd Hdg) as (d1' & E5 & V5 & K5 & L5 & N5 & D5 & F5); unfold small; try lia.
  rewrite E5. cbn [bind]. exists f1', d1'. split; [reflexivity|].
  replace (Z.min (known h') (known g)) with n in * by lia.
  replace (Z.min (known dh') (known dg)) with dn in * by lia.
  unfold pos in *. rsplit; auto; try lia.
  - etransitivity; [exact D4|]. transitivity (fadd (escH F (den g) k) (den g)); [apply fadd_e; [exact Dh|reflexivity]|apply feq_eqn; ring].
  - etransitivity; [exact D5|]. transitivity (fadd (escD F (den g) (den dg) k) (den dg)); [apply fadd_e; [exact Dd|reflexivity]|apply feq_eqn; ring].
Qed.

(** dg = 1. *)
Lemma scalar1_feq : forall (x : ser) n, valid x -> known x = n -> nonzero x = 1 -> 0 < n -> eqn (Z.to_nat n) (den x) (fC k1) -> feq (den x) f1.
Proof.
  intros x n V K N Hn D i. destruct i as [|i].
  - rewrite (D O) by lia. reflexivity.
  - rewrite den_out by lia. reflexivity.
Qed.

Lemma escD_feq : forall i (g dg dg' : fps F), feq dg dg' -> feq (escD F g dg i) (escD F g dg' i).
Proof.
  induction i as [|j IH]; intros g dg dg' H; [reflexivity|]. cbn [escD]. apply fadd_f; [apply IH; exact H|].
  apply fmul_f; [reflexivity|]. apply fshift_f. apply fmul_f; [reflexivity|]. unfold escT.
  apply fsub_f; apply fmul_f; try reflexivity; [exact H|apply IH; exact H].
Qed.

Variable check : bool -> ser -> bool.

Lemma pow2_half : forall kk : nat, 2 ^ Z.of_nat (S kk) / 2 = 2 ^ Z.of_nat kk.
Proof. intros kk. rewrite Nat2Z.inj_succ, Z.pow_succ_r, Z.mul_comm, Z.div_mul by lia. reflexivity. Qed.
Lemma pow2_nat : forall j : nat, Z.to_nat (2 ^ Z.of_nat j) = (2 ^ j)%nat.
Proof. intros j. rewrite Z2Nat.inj_pow by lia. rewrite Nat2Z.id. reflexivity. Qed.

Lemma pow2_double : forall j : nat, (2 ^ S j = 2 ^ j + 2 ^ j)%nat.
Proof. intros j. cbn [Nat.pow]. lia. Qed.

Lemma pass_ext_ok : forall (g : ser) (kk : nat), valid g -> (S kk <= 28)%nat -> known g <= 2 ^ Z.of_nat (S kk) -> den g O = k0 ->
  eqn (2 ^ kk) (escR (fexp (den g)) (S kk)) f1 ->
  exists g' f, bottcher_pass F kern base check (Z.of_nat (S kk)) (2 ^ Z.of_nat (S kk)) false g = (if check false f then Ok (g', f) else Throw) /\
    valid g' /\ known g' = 2 ^ Z.of_nat (S kk) /\ limit g' = 2 ^ Z.of_nat (S kk) /\ den g' O = k0 /\
    eqn (2 ^ kk) (den g') (den g) /\ eqn (2 ^ S kk) (escR (fexp (den g')) (S kk)) f1 /\
    valid f /\ known f = 2 ^ Z.of_nat (S kk) /\ eqn (2 ^ S kk) (den f) (fexp (den g')).
Proof.
  intros g kk Hg Hk Kg Hg0 HR. unfold bottcher_pass.
  set (p := 2 ^ Z.of_nat (S kk)) in *.
  assert (Hph : p / 2 = 2 ^ Z.of_nat kk) by apply pow2_half.
  set (m := 2 ^ Z.of_nat kk) in *.
  assert (Hpm : p = 2 * m) by (unfold p, m; rewrite Nat2Z.inj_succ, Z.pow_succ_r; lia).
  assert (Hm : 1 <= m <= 2 ^ 27).
  { unfold m. split; [pose proof (Z.pow_pos_nonneg 2 (Z.of_nat kk)); lia|apply Z.pow_le_mono_r; lia]. }
  cbn iota. rewrite Hph. rewrite to_i32_id by lia.
  assert (Hmn : Z.to_nat m = (2 ^ kk)%nat) by apply pow2_nat.
  assert (Hpn : Z.to_nat p = (2 ^ S kk)%nat) by apply pow2_nat.
  pose proof Hg as (G0 & G1 & _).
  unfold copy. destruct (assign_ok F (new_series p) g Hg) as (g1 & E1 & V1 & K1 & L1 & N1 & D1 & _).
  { rewrite new_series_limit. unfold relu. lia. }
  rewrite E1. cbn [bind].
  destruct (set_known_up F g1 p V1 ltac:(lia)) as (g2 & E2 & V2 & K2 & L2 & N2 & D2). rewrite E2. cbn [bind].
  assert (D12 : feq (den g2) (den g)) by (rewrite D2; exact D1).
  destruct (set_scalar_ok F (new_series m) m k1) as (dg & E3 & V3 & K3 & L3 & N3 & D3).
  { rewrite new_series_limit. unfold relu. lia. }
  rewrite E3. cbn [bind].
  assert (Hrm : relu m = m) by (unfold relu; lia). assert (Hrp : relu p = p) by (unfold relu; lia). rewrite Hrm in *.
  assert (Ddg : feq (den dg) f1) by (apply (scalar1_feq dg m); auto; lia).
  assert (Hg20 : den g2 O = k0) by (rewrite (D12 O); exact Hg0).
  destruct (implicit_ok (new_series p) (new_series m) (S kk) g2 dg p m) as (Fs & dF & E4 & VF & KF & LF & PF & DF & VdF & KdF & LdF & PdF & DdF & FF);
    auto; rewrite ?new_series_limit, ?Hrp, ?Hrm; unfold small; try lia.
  rewrite E4. cbn [bind fst snd]. rewrite new_series_limit in *. rewrite ?Hrm, ?Hrp in *.
  specialize (FF ltac:(lia) eq_refl). unfold full in FF.
  destruct (high_valid F Fs m VF) as (VH & KH & NH & LH & DH). rewrite Hrm in *.
  assert (HdF0 : den dF O = k1).
  { rewrite (DdF O) by lia. rewrite coef0_add, escD_0, (Ddg O). unfold f1, fC. ring. }
  destruct (set_div_ok F kern Hkern base Hbase dg (high F Fs m) dF VH VdF) as (q & E5 & (V5 & K5 & L5 & P5) & D5 & F5); auto;
    unfold small, pos; try (unfold relu in *; lia).
  { intros _. rewrite HdF0. apply k1_nz. }
  rewrite E5. cbn [bind]. rewrite KH, KdF in *. replace (Z.min (relu (known Fs - m)) m) with m in * by (unfold relu; lia).
  destruct (hsub_p g2 q m p) as (g3 & E6 & V6 & K6 & L6 & N6 & D6); auto; unfold small; try lia.
  rewrite E6. cbn [bind]. rewrite Hmn, Hpn in *.
  set (G := den g2) in *.
  assert (HRG : eqn (2 ^ kk) (escR (fexp G) (S kk)) f1).
  { etransitivity; [|exact HR]. apply feq_eqn. apply escR_feq. apply fexp_f. exact D12. }
  assert (HN : eqn (2 ^ kk + 2 ^ kk) (escR (fexp (fsub G (fshift (2 ^ kk) (den q)))) (S kk)) f1).
  { apply esc_newton; auto; [pose proof (Nat.pow_nonzero 2 kk ltac:(lia)); lia|].
    transitivity (fmul (den dF) (den q)).
    - apply fmul_e; [|reflexivity]. symmetry. etransitivity; [exact DdF|]. apply feq_eqn. apply fadd_f; [exact Ddg|].
      apply escD_feq. exact Ddg.
    - etransitivity; [exact D5|]. etransitivity; [apply feq_eqn; exact DH|].
      intros i Hi. unfold fhigh. apply DF. cbn [Nat.pow]. lia. }
  assert (HR3 : eqn (2 ^ S kk) (escR (fexp (den g3)) (S kk)) f1).
  { transitivity (escR (fexp (fsub G (fshift (2 ^ kk) (den q)))) (S kk)); [apply escR_eqn; apply fexp_e; exact D6|].
    rewrite pow2_double. exact HN. }
  assert (H30 : den g3 O = k0).
  { rewrite (D6 O) by (pose proof (Nat.pow_nonzero 2 (S kk) ltac:(lia)); lia).
    rewrite coef0_sub, fshift_coef0 by (pose proof (Nat.pow_nonzero 2 kk ltac:(lia)); lia). rewrite Hg20. ring. }
  destruct (set_exp_gen_ok F kern Hkern base Hbase true (new_series p) g3 V6 H30) as (f & E7 & (V7 & K7 & L7 & P7) & D7 & _);
    rewrite ?new_series_limit, ?Hrp; unfold small; try lia.
  unfold set_exp. rewrite E7. cbn [bind]. exists g3, f. rewrite K6, Hpn in *. split.
  { destruct (check false f); reflexivity. }
  rsplit; auto; try lia.
  transitivity G; [|apply feq_eqn; exact D12].
  transitivity (fsub G (fshift (2 ^ kk) (den q))).
  - eapply eqn_mono; [|exact D6]. cbn [Nat.pow]. lia.
  - transitivity (fsub G (f0 : fps F)); [apply fsub_e; [reflexivity|apply fshift_low]|apply feq_eqn; ring].
Qed.

Lemma pass_refine_ok : forall (g : ser) (kk : nat), valid g -> (S kk <= 28)%nat -> known g = 2 ^ Z.of_nat (S kk) -> den g O = k0 ->
  eqn (2 ^ S kk) (escR (fexp (den g)) (S kk)) f1 ->
  exists g' f, bottcher_pass F kern base check (Z.of_nat (S kk)) (2 ^ Z.of_nat (S kk)) true g = (if check true f then Ok (g', f) else Throw) /\
    valid g' /\ known g' = 2 ^ Z.of_nat (S kk) /\ limit g' = 2 ^ Z.of_nat (S kk) /\ den g' O = k0 /\
    eqn (2 ^ S kk) (den g') (den g) /\
    valid f /\ known f = 2 ^ Z.of_nat (S kk) /\ eqn (2 ^ S kk) (den f) (fexp (den g')).
Proof.
  intros g kk Hg Hk Kg Hg0 HR. unfold bottcher_pass.
  set (p := 2 ^ Z.of_nat (S kk)) in *.
  assert (Hph : p / 2 = 2 ^ Z.of_nat kk) by apply pow2_half.
  set (m := 2 ^ Z.of_nat kk) in *.
  assert (Hpm : p = 2 * m) by (unfold p, m; rewrite Nat2Z.inj_succ, Z.pow_succ_r; lia).
  assert (Hm : 1 <= m <= 2 ^ 27).
  { unfold m. split; [pose proof (Z.pow_pos_nonneg 2 (Z.of_nat kk)); lia|apply Z.pow_le_mono_r; lia]. }
  cbn iota. rewrite Hph. rewrite to_i32_id by lia.
  assert (Hmn : Z.to_nat m = (2 ^ kk)%nat) by apply pow2_nat.
  assert (Hpn : Z.to_nat p = (2 ^ S kk)%nat) by apply pow2_nat.
  pose proof Hg as (G0 & G1 & _).
  unfold copy. destruct (assign_ok F (new_series p) g Hg) as (g1 & E1 & V1 & K1 & L1 & N1 & D1 & _).
  { rewrite new_series_limit. unfold relu. lia. }
  rewrite E1. cbn [bind].
  destruct (set_known_up F g1 p V1 ltac:(lia)) as (g2 & E2 & V2 & K2 & L2 & N2 & D2). rewrite E2. cbn [bind].
  assert (D12 : feq (den g2) (den g)) by (rewrite D2; exact D1).
  destruct (set_scalar_ok F (new_series p) p k1) as (dg & E3 & V3 & K3 & L3 & N3 & D3).
  { rewrite new_series_limit. unfold relu. lia. }
  rewrite E3. cbn [bind].
  assert (Hrm : relu m = m) by (unfold relu; lia). assert (Hrp : relu p = p) by (unfold relu; lia). rewrite Hrp in *.
  assert (Ddg : feq (den dg) f1) by (apply (scalar1_feq dg p); auto; lia).
  assert (Hg20 : den g2 O = k0) by (rewrite (D12 O); exact Hg0).
  assert (HRG : eqn (2 ^ S kk) (escR (fexp (den g2)) (S kk)) f1).
  { etransitivity; [|exact HR]. apply feq_eqn. apply escR_feq. apply fexp_f. exact D12. }
  destruct (implicit_ok (new_series p) (new_series p) (S kk) g2 dg p p) as (Fs & dF & E4 & VF & KF & LF & PF & DF & VdF & KdF & LdF & PdF & DdF & FF);
    auto; rewrite ?new_series_limit, ?Hrp; unfold small; try lia.
  rewrite E4. cbn [bind fst snd]. rewrite new_series_limit in LF, LdF, L1, L3. rewrite Hrp in *.
  destruct (implicit_ok Fs (new_series 0) (S kk) g2 dg p 0) as (Fs2 & dF2 & E8 & VF2 & KF2 & LF2 & PF2 & DF2 & _);
    auto; rewrite ?new_series_limit; unfold small, relu; try lia.
  rewrite E8. cbn [bind fst snd].
  assert (HdF0 : den dF O = k1).
  { rewrite (DdF O) by lia. rewrite coef0_add, escD_0, (Ddg O). unfold f1, fC. ring. }
  destruct (set_div_ok F kern Hkern base Hbase dg Fs2 dF VF2 VdF) as (q & E5 & (V5 & K5 & L5 & P5) & D5 & F5); auto;
    unfold small; try lia.
  { intros _. rewrite HdF0. apply k1_nz. }
  rewrite E5. cbn [bind]. rewrite KF2, KdF, Z.min_id in *.
  destruct (high_valid F q m V5) as (VH & KH & NH & LH & DH). rewrite Hrm in *.
  destruct (hsub_p g2 (high F q m) m p) as (g3 & E6 & V6 & K6 & L6 & N6 & D6); auto; unfold small; try (unfold relu in *; lia).
  rewrite E6. cbn [bind]. rewrite Hmn, Hpn in *.
  assert (Hq : eqn (2 ^ S kk) (den q) f0).
  { apply (eqn_cancel F (2 ^ S kk) (den dF)); [rewrite HdF0; apply k1_nz|].
    etransitivity; [exact D5|]. etransitivity; [exact DF2|].
    transitivity (f0 : fps F); [apply esc_phi_0; auto|apply feq_eqn; ring]. }
  assert (D13 : eqn (2 ^ S kk) (den g3) (den g)).
  { etransitivity; [exact D6|]. transitivity (fsub (den g2) (f0 : fps F)).
    - apply fsub_e; [reflexivity|]. intros i Hi. unfold fshift.
      destruct (Nat.ltb_spec i (2 ^ kk)); [reflexivity|]. rewrite (DH (i - 2 ^ kk)%nat). unfold fhigh.
      rewrite (Hq _) by lia. reflexivity.
    - transitivity (den g2); [apply feq_eqn; ring|apply feq_eqn; exact D12]. }
  assert (H30 : den g3 O = k0).
  { rewrite (D13 O) by (pose proof (Nat.pow_nonzero 2 (S kk) ltac:(lia)); lia). exact Hg0. }
  destruct (set_exp_gen_ok F kern Hkern base Hbase true (new_series p) g3 V6 H30) as (f & E7 & (V7 & K7 & L7 & P7) & D7 & _);
    rewrite ?new_series_limit, ?Hrp; unfold small; try lia.
  unfold set_exp. rewrite E7. cbn [bind]. exists g3, f. rewrite K6, Hpn in *. split.
  { destruct (check true f); reflexivity. }
  rsplit; auto; try lia.
Qed.

Lemma known_to_k_pow : forall kk : nat, (kk <= 62)%nat -> known_to_k (2 ^ Z.of_nat kk) = Ok (Z.of_nat kk).
Proof.
  intros kk H. unfold known_to_k.
  assert (Hp : 0 < 2 ^ Z.of_nat kk <= 2 ^ 62) by (split; [apply Z.pow_pos_nonneg; lia|apply Z.pow_le_mono_r; lia]).
  assert (Hu : to_u64 (2 ^ Z.of_nat kk) = 2 ^ Z.of_nat kk) by (unfold to_u64; apply Z.mod_small; lia).
  rewrite Hu, ctz_pow2. destruct (Z.leb_spec 64 (Z.of_nat kk)); [lia|].
  assert (Hi : to_i64 (2 ^ Z.of_nat kk) = 2 ^ Z.of_nat kk).
  { unfold to_i64. cbv zeta. rewrite Z.mod_small by lia. destruct (Z.ltb_spec (2 ^ Z.of_nat kk) (2 ^ 63)); lia. }
  rewrite Hi, Z.eqb_refl. reflexivity.
Qed.
Lemma ctz_pos_le : forall p, 0 <= ctz_pos p /\ 2 ^ ctz_pos p <= Zpos p.
Proof.
  induction p as [p IH|p IH|]; cbn [ctz_pos]; try (change (2 ^ 0) with 1; lia).
  destruct IH as [I1 I2]. split; [lia|]. rewrite Z.pow_add_r, Z.pow_1_r by lia. lia.
Qed.
Lemma known_to_k_throws : forall kn, - 2 ^ 63 < kn < 2 ^ 63 -> kn <> 0 ->
  (forall j, 0 <= j <= 62 -> kn <> 2 ^ j) -> known_to_k kn = Throw.
Proof.
  intros kn Hr H0 Hj. unfold known_to_k.
  assert (Hu : 0 < to_u64 kn < 2 ^ 64).
  { unfold to_u64. pose proof (Z.mod_pos_bound kn (2 ^ 64) ltac:(lia)). destruct (Z.eq_dec (kn mod 2 ^ 64) 0) as [E|]; [|lia].
    exfalso. apply Z.mod_divide in E; [|lia]. destruct E as [c E]. clear - E Hr H0. assert (c = 0 \/ c <= -1 \/ 1 <= c) by lia. lia. }
  remember (to_u64 kn) as u eqn:Eu. destruct u as [|p|p]; try lia. cbn [countr_zero64].
  destruct (ctz_pos_le p) as [C1 C2].
  assert (C3 : ctz_pos p < 64) by (apply (Z.pow_lt_mono_r_iff 2); lia).
  destruct (Z.leb_spec 64 (ctz_pos p)); [lia|].
  destruct (Z.eqb_spec kn (to_i64 (2 ^ ctz_pos p))) as [E|E]; [|reflexivity].
  exfalso. destruct (Z.eq_dec (ctz_pos p) 63) as [E63|N63].
  - rewrite E63 in E. vm_compute in E. lia.
  - apply (Hj (ctz_pos p)); [lia|]. rewrite E at 1. unfold to_i64.
    assert (0 < 2 ^ ctz_pos p <= 2 ^ 62) by (split; [apply Z.pow_pos_nonneg; lia|apply Z.pow_le_mono_r; lia]).
    cbv zeta. rewrite Z.mod_small by lia. destruct (Z.ltb_spec (2 ^ ctz_pos p) (2 ^ 63)); lia.
Qed.

(** One call of bottcher_step. *)
Lemma step_ok : forall (g : ser) (kk : nat), valid g -> (kk <= 27)%nat -> known g = 2 ^ Z.of_nat kk -> den g O = k0 ->
  eqn (2 ^ kk) (escR (fexp (den g)) kk) f1 ->
  exists e g' f, bottcher_step F kern base check g = (if check false e && check true f then Ok (g', f) else Throw) /\
    valid g' /\ known g' = 2 ^ Z.of_nat (S kk) /\ den g' O = k0 /\
    eqn (2 ^ kk) (den g') (den g) /\ eqn (2 ^ S kk) (escR (fexp (den g')) (S kk)) f1 /\
    valid f /\ known f = 2 ^ Z.of_nat (S kk) /\ eqn (2 ^ S kk) (den f) (fexp (den g')) /\
    valid e /\ known e = known f /\ eqn (2 ^ S kk) (den e) (den f).
Proof.
  intros g kk Hg Hk Kg Hg0 HR. unfold bottcher_step. rewrite Kg, known_to_k_pow by lia. cbn [bind].
  replace (Z.of_nat kk + 1) with (Z.of_nat (S kk)) by lia.
  assert (Hp : 0 < 2 ^ Z.of_nat (S kk) <= 2 ^ 28) by (split; [apply Z.pow_pos_nonneg; lia|apply Z.pow_le_mono_r; lia]).
  rewrite to_i32_id by lia.
  destruct (pass_ext_ok g kk Hg ltac:(lia)) as (g1 & e & E1 & V1 & K1 & L1 & H1 & D1 & R1 & V2 & K2 & D2); auto.
  { rewrite Kg. apply Z.pow_le_mono_r; lia. }
  { apply escR_next. exact HR. }
  destruct (pass_refine_ok g1 kk V1 ltac:(lia) K1 H1 R1) as (g2 & f & E3 & V3 & K3 & L3 & H3 & D3 & V4 & K4 & D4).
  exists e, g2, f. rewrite E1. split.
  { destruct (check false e); cbn [bind andb fst]; [|reflexivity]. rewrite E3. reflexivity. }
  assert (R2 : eqn (2 ^ S kk) (escR (fexp (den g2)) (S kk)) f1).
  { etransitivity; [|exact R1]. apply escR_eqn. apply fexp_e. exact D3. }
  rsplit; auto; try congruence.
  - transitivity (den g1); [|exact D1]. apply eqn_mono with (n := (2 ^ S kk)%nat); [rewrite pow2_double; lia|exact D3].
  - etransitivity; [exact D2|]. symmetry. etransitivity; [exact D4|]. apply fexp_e. exact D3.
Qed.
Lemma base_ok : exists g : ser, bottcher_base F = Ok g /\ valid g /\ known g = 1 /\ den g O = k0 /\ eqn 1 (escR (fexp (den g)) 0) f1.
Proof using.
  unfold bottcher_base. destruct (set_scalar_ok F (new_series 1) 1 k0) as (g & E & V & K & L & N & D).
  { rewrite new_series_limit. unfold relu. clear. lia. }
  exists g. rewrite E. assert (H0 : den g O = k0) by (rewrite (D O) by (unfold relu; clear; lia); reflexivity).
  rsplit; auto. intros i Hi. replace i with O by (clear - Hi; lia). rewrite escR_0; [reflexivity|apply fexp_coef0].
Qed.

(** Any number of steps. *)
Lemma steps_ok : forall (n : nat) (g : ser) (kk : nat), valid g -> (kk + n <= 28)%nat -> known g = 2 ^ Z.of_nat kk -> den g O = k0 ->
  eqn (2 ^ kk) (escR (fexp (den g)) kk) f1 ->
  (bottcher_steps F kern base check n g = Throw /\ (exists b f, check b f = false)) \/
  (exists g', bottcher_steps F kern base check n g = Ok g' /\ valid g' /\ known g' = 2 ^ Z.of_nat (kk + n) /\ den g' O = k0 /\
    eqn (2 ^ kk) (den g') (den g) /\ eqn (2 ^ (kk + n)) (escR (fexp (den g')) (kk + n)) f1).
Proof.
  induction n as [|n IH]; intros g kk Hg Hk Kg H0 HR.
  - right. exists g. rewrite Nat.add_0_r. rsplit; auto. reflexivity.
  - cbn [bottcher_steps].
    destruct (step_ok g kk Hg ltac:(lia) Kg H0 HR) as (e & g1 & f & E & V & K & Z1 & D & R1 & _).
    rewrite E. destruct (check false e) eqn:C1; [|left; split; [reflexivity|eauto]].
    destruct (check true f) eqn:C2; [|left; split; [reflexivity|eauto]]. cbn [andb bind fst].
    destruct (IH g1 (S kk) V ltac:(lia) K Z1 R1) as [(E2 & X)|(g2 & E2 & V2 & K2 & Z2 & D2 & R2)]; [left; auto|].
    right. exists g2. replace (kk + S n)%nat with (S kk + n)%nat by lia. rsplit; auto.
    transitivity (den g1); [|exact D]. apply eqn_mono with (n := (2 ^ S kk)%nat); [rewrite pow2_double; lia|exact D2].
Qed.
End AP.

Section Spec.
Variable F : Fld.
Notation ser := (series F).
Add Field KFieldAS : (kfield F).
Add Ring fps_ringAS : (fps_ring_theory F) (setoid (feq_Equiv F) (fps_ring_ext F)).

Lemma implicit_spec : forall (kern : kernel F) (base : bases F) (Fs dF : ser) (k : nat) (g dg : ser) (n dn : Z),
  kernel_ok kern -> bases_ok base -> valid g -> valid dg -> den g O = k0 -> 0 <= dn <= n -> n <= 2 ^ 28 ->
  n <= known g <= 2 ^ 28 -> dn <= known dg <= 2 ^ 28 -> n <= limit Fs -> dn <= limit dF -> (k <= 28)%nat ->
  exists Fs' dF', implicit F kern base Fs dF (Z.of_nat k) g dg n dn = Ok (Fs', dF') /\
    valid Fs' /\ known Fs' = n /\ limit Fs' = limit Fs /\ valid dF' /\ known dF' = dn /\ limit dF' = limit dF /\
    eqn (Z.to_nat n) (fmul (fC (kpow2n k)) (den Fs')) (flog (escR (fexp (den g)) k)) /\
    (forall (m : nat) (d : fps F), (1 <= m)%nat -> eqn m d f0 ->
       eqn (Nat.min (m + m) (m + Z.to_nat dn)) (escR (fexp (fadd (den g) (fmul d (den dg)))) k)
         (fmul (escR (fexp (den g)) k) (fadd f1 (fmul (fC (kpow2n k)) (fmul (den dF') d))))).
Proof.
  intros kern base Fs dF k g dg n dn HK HB Hg Hdg H0 Hdn Hn Kg Kdg Hl Hdl Hk.
  destruct (implicit_ok F kern base HK HB Fs dF k g dg n dn) as (Fs' & dF' & E & V & K & L & _ & D & V' & K' & L' & _ & D' & _);
    auto; unfold small; try lia.
  exists Fs', dF'. rsplit; auto.
  - transitivity (fmul (P2 F k) (fadd (den g) (escH F (den g) k))); [apply fmul_e; [reflexivity|exact D]|].
    apply feq_eqn. symmetry. rewrite (flog_f F _ _ (escR_exp F (den g) k H0)). apply flog_exp.
    apply fmul_0r. rewrite coef0_add, escH_0, H0. ring.
  - intros m d Hm Hd. pose proof (escR_lin F (den g) (den dg) d k m Hm H0 Hd) as HL.
    etransitivity; [eapply eqn_mono; [|exact HL]; lia|].
    apply fmul_e; [reflexivity|]. apply fadd_e; [reflexivity|]. apply fmul_e; [reflexivity|].
    apply eqn_mono with (n := (Z.to_nat dn + m)%nat); [lia|].
    apply <- eqn_sub0.
    transitivity (fmul (fsub (fadd (den dg) (escD F (den g) (den dg) k)) (den dF')) d); [apply feq_eqn; ring|].
    apply eqn0_mul; [|exact Hd]. apply -> eqn_sub0. symmetry. exact D'.
Qed.

Lemma iterates_any_ : forall (kern : kernel F) (base : bases F) (check : bool -> ser -> bool) (k : nat),
  kernel_ok kern -> bases_ok base -> (k <= 28)%nat ->
  (bottcher F kern base check k = Throw /\ exists b f, check b f = false) \/
  exists g, bottcher F kern base check k = Ok g /\ valid g /\ known g = 2 ^ Z.of_nat k /\ den g O = k0 /\
    eqn (2 ^ k) (escR (fexp (den g)) k) f1.
Proof.
  intros kern base check k HK HB Hk. unfold bottcher.
  destruct (base_ok F) as (g0 & E & V & K & Z0 & R). rewrite E. cbn [bind].
  destruct (steps_ok F kern base HK HB check k g0 0) as [H|(g & E2 & V2 & K2 & Z2 & _ & R2)]; auto; try lia.
  right. exists g. cbn [Nat.add] in *. rsplit; auto.
Qed.

Lemma iterates_spec : forall (kern : kernel F) (base : bases F) (check : bool -> ser -> bool) (k : nat),
  kernel_ok kern -> bases_ok base -> (k <= 28)%nat -> (forall b f, check b f = true) ->
  exists g, bottcher F kern base check k = Ok g /\ valid g /\ known g = 2 ^ Z.of_nat k /\ den g O = k0 /\
    eqn (2 ^ k) (escR (fexp (den g)) k) f1 /\
    (forall f : fps F, f O = k1 -> eqn (2 ^ k) (escR f k) f1 -> eqn (2 ^ k) f (fexp (den g))).
Proof.
  intros kern base check k HK HB Hk HC.
  destruct (iterates_any_ kern base check k HK HB Hk) as [(_ & b & f & H)|(g & E & V & K & Z0 & R)].
  - rewrite HC in H. discriminate.
  - exists g. rsplit; auto. intros f Hf HR. apply (escR_unique F f (fexp (den g)) k (2 ^ k)); auto. apply fexp_coef0.
Qed.

(** A solution of the later equation solves the earlier one. *)
Lemma escR_prev : forall (f : fps F) j, f O = k1 -> eqn (2 ^ S j) (escR f (S j)) f1 -> eqn (2 ^ j) (escR f j) f1.
Proof.
  intros f j Hf H. set (r := escR f j). assert (Hr : r O = k1) by (apply escR_0; exact Hf).
  assert (H2 : eqn (2 ^ j) (fmul r r) f1).
  { transitivity (escR f (S j)); [|apply eqn_mono with (n := (2 ^ S j)%nat); [rewrite pow2_double; lia|exact H]].
    cbn [escR]. fold r. transitivity (fadd (fmul r r) f0); [apply feq_eqn; ring|]. apply fadd_e; [reflexivity|].
    symmetry. apply eqn_mono with (n := (2 ^ S j - 1)%nat); [pose proof (Nat.pow_nonzero 2 j ltac:(lia)); rewrite pow2_double; lia|].
    apply fshift_low. }
  apply (eqn_cancel F (2 ^ j) (fadd r f1)).
  - rewrite coef0_add, Hr. unfold f1, fC. apply ktwo_nz.
  - apply <- eqn_sub0. transitivity (fsub (fmul r r) f1); [apply feq_eqn; ring|]. apply -> eqn_sub0. exact H2.
Qed.
Lemma escR_down : forall (f : fps F) k j, (j <= k)%nat -> f O = k1 -> eqn (2 ^ k) (escR f k) f1 -> eqn (2 ^ j) (escR f j) f1.
Proof.
  intros f k j H Hf. induction H as [|k H IH]; auto. intros HR. apply IH. apply escR_prev; auto.
Qed.

Lemma iterates_stable : forall (kern kern' : kernel F) (base base' : bases F) check check' (j k : nat) g g',
  kernel_ok kern -> bases_ok base -> kernel_ok kern' -> bases_ok base' -> (j <= k <= 28)%nat ->
  bottcher F kern base check j = Ok g -> bottcher F kern' base' check' k = Ok g' -> eqn (2 ^ j) (den g) (den g').
Proof.
  intros kern kern' base base' check check' j k g g' HK HB HK' HB' Hjk E E'.
  destruct (iterates_any_ kern base check j HK HB ltac:(lia)) as [(X & _)|(g1 & E1 & _ & _ & Z1 & R1)]; [congruence|].
  destruct (iterates_any_ kern' base' check' k HK' HB' ltac:(lia)) as [(X & _)|(g2 & E2 & _ & _ & Z2 & R2)]; [congruence|].
  assert (g1 = g) by congruence. assert (g2 = g') by congruence. subst g1 g2.
  assert (R3 : eqn (2 ^ j) (escR (fexp (den g')) j) f1) by (apply (escR_down _ k); auto; [lia|apply fexp_coef0]).
  apply fexp_inj; auto. apply (escR_unique F _ _ j); auto; apply fexp_coef0.
Qed.
End Spec.
Lemma iterates_any : forall (F : Fld) (kern : kernel F) (base : bases F) (check : bool -> series F -> bool) (k : nat),
  kernel_ok kern -> bases_ok base -> (k <= 28)%nat ->
  bottcher F kern base check k = Throw \/
  exists g, bottcher F kern base check k = Ok g /\ valid g /\ known g = 2 ^ Z.of_nat k /\ den g O = k0 /\
    eqn (2 ^ k) (escR (fexp (den g)) k) f1.
Proof.
  intros F kern base check k HK HB Hk. destruct (iterates_any_ F kern base check k HK HB Hk) as [[H _]|H]; auto.
Qed.
