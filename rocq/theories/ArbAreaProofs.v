(** The iteration of arb_area.cc encloses the series it is after, and the areas printed enclose the
    areas, when the two exponential functions do. *)
From Coq Require Import ZArith List Bool Lia Setoid Morphisms Ring Field.
From Verif Require Import Base Field FPS PolyModel PolySpec PolyProofs PolyAlias SeriesProofs AlgoProofs BottcherMath
  AreaProofs ArbAreaModel ArbAreaSpec ArbExpProofs.
From Coq Require Import ZifyBool ZifyNat.
Import ListNotations.
Open Scope nat_scope.

(** g + h and its derivative. *)
Definition phi {F : Fld} (g : fps F) (k : nat) : fps F := fadd g (escH F g k).
Definition dphi {F : Fld} (g : fps F) (k : nat) : fps F := fadd f1 (escD F g f1 k).

(** A mean value theorem for [phi] on sets of series: the quotient has each coefficient of the derivative
    somewhere in the set. *)
Definition mean_value (F : Fld) (A : arb_poly) (mem : ball A -> K F -> Prop) : Prop :=
  forall (g : list (ball A)) N k (u v : fps F), encl F A mem g N u -> encl F A mem g N v -> u O = 0%K -> v O = 0%K ->
  exists d : fps F, d O <> 0%K /\ eqn N (fmul d (fsub u v)) (fsub (phi u k) (phi v k)) /\
    forall j, j < N -> exists w, encl F A mem g N w /\ w O = 0%K /\ d j = dphi w k j.

Section AAP.
  Variable F : Fld.
  Variable kln : K F -> K F.
  Variable A : arb_poly.
  Variable mem : ball A -> K F -> Prop.
  Hypothesis HA : poly_ok F kln A mem.
  Variable M : arb_more A.
  Variable kpi : K F.
  Hypothesis HM : more_ok F A M mem kpi.
  Variable skip : bool.
  Variable thr : Prop.
  Hypothesis Hthr : allowed F A mem skip thr.
  Hypothesis Hexp : exp_sat F A mem skip thr.
  Hypothesis Hlpe : lpe_sat F A mem M skip thr.
  Notation encl := (encl F A mem).
  Notation P := (list (ball A)).
  Notation sat := (sat thr).

  Add Field aap_field : (kfield F).
  Add Ring aap_fps : (fps_ring_theory F) (setoid (feq_Equiv F) (fps_ring_ext F)).

  Lemma kpow2_opp (i : nat) : kpow2 (F:=F) (- Z.of_nat i) = kinv (kpow2n i).
  Proof.
    destruct i as [|i]; [|apply kpow2_neg]. cbn. field. apply k1_nz.
  Qed.

  Lemma linear_encl c (f g : P) (i : nat) k (a b : fps F) : encl f k a -> encl g k b ->
    encl (linear_sub A M c f (Z.of_nat i) g) k (fsub (fscale (kofZ c) a) (fscale (kpow2 (Z.of_nat i)) b)).
  Proof.
    intros Ha Hb j Hj. unfold linear_sub.
    assert (G : mem (b_addmul_si M (b_neg M (b_2exp M (at_ A g j) (Z.of_nat i))) (at_ A f j) c)
       (- (kpow2 (Z.of_nat i) * b j) + a j * kofZ c)%K).
    { apply (mo_addmul F A M mem kpi HM); [|now apply Ha]. apply (mo_neg F A M mem kpi HM).
      apply (mo_2exp F A M mem kpi HM). now apply Hb. }
    unfold fsub, fscale.
    destruct (lt_dec j (Nat.max (length f) (length g))) as [L|L].
    - rewrite at_map_seq by exact L.
      replace (kofZ c * a j - kpow2 (Z.of_nat i) * b j)%K with (- (kpow2 (Z.of_nat i) * b j) + a j * kofZ c)%K by ring.
      exact G.
    - rewrite at_out by (rewrite map_length, seq_length; lia). apply (ok_zero F kln A mem HA).
      specialize (Ha j Hj). specialize (Hb j Hj). rewrite at_out in Ha, Hb by lia.
      apply (ok_zero F kln A mem HA) in Ha, Hb. rewrite Ha, Hb. ring.
  Qed.
  Lemma linear_T (f g : P) (i : nat) k (a b : fps F) : encl f k a -> encl g k b ->
    encl (linear_sub A M (1 - 2 ^ Z.of_nat i) f (Z.of_nat i) g) k (escT F a b i).
  Proof.
    intros Ha Hb. eapply encl_eqn; [|apply linear_encl; eassumption]. apply escT_e. reflexivity.
  Qed.

  Lemma shift_encl_add (f g : P) s n k (a b : fps F) : (0 <= s)%Z -> k <= Z.to_nat n -> encl f k a ->
    encl g (k - Z.to_nat s) b -> encl (shift_series A (b_add A) f g s n) k (fadd a (fshift (Z.to_nat s) b)).
  Proof.
    intros Hs Hk Ha Hb. unfold shift_series. destruct (n <=? s)%Z eqn:E.
    - intros i Hi. unfold fadd, fshift. replace (i <? Z.to_nat s) with true by lia.
      replace (a i + 0)%K with (a i) by ring. apply (ok_trunc F kln A mem HA f _ k a); auto. lia.
    - intros i Hi. rewrite at_map_seq by lia. unfold fadd, fshift.
      destruct (i <? Z.to_nat s) eqn:E2.
      + replace (Z.of_nat i <? s)%Z with true by lia. replace (a i + 0)%K with (a i) by ring. now apply Ha.
      + replace (Z.of_nat i <? s)%Z with false by lia. apply (ok_add F kln A mem HA); [now apply Ha|apply Hb; lia].
  Qed.
  Lemma shift_encl_sub (f g : P) s n k (a b : fps F) : (0 <= s)%Z -> k <= Z.to_nat n -> encl f k a ->
    encl g (k - Z.to_nat s) b -> encl (shift_series A (b_sub A) f g s n) k (fsub a (fshift (Z.to_nat s) b)).
  Proof.
    intros Hs Hk Ha Hb. unfold shift_series. destruct (n <=? s)%Z eqn:E.
    - intros i Hi. unfold fsub, fshift. replace (i <? Z.to_nat s) with true by lia.
      replace (a i - 0)%K with (a i) by ring. apply (ok_trunc F kln A mem HA f _ k a); auto. lia.
    - intros i Hi. rewrite at_map_seq by lia. unfold fsub, fshift.
      destruct (i <? Z.to_nat s) eqn:E2.
      + replace (Z.of_nat i <? s)%Z with true by lia. replace (a i - 0)%K with (a i) by ring. now apply Ha.
      + replace (Z.of_nat i <? s)%Z with false by lia. apply (ok_sub F kln A mem HA); [now apply Ha|apply Hb; lia].
  Qed.

  Lemma escape_body_sat (g dg h dh : P) n dn (i : nat) (u du : fps F) : (dn <= n)%Z -> u O = 0%K ->
    encl g (Z.to_nat n) u -> encl dg (Z.to_nat dn) du ->
    encl h (Z.to_nat n) (escH F u i) -> encl dh (Z.to_nat dn) (escD F u du i) ->
    sat (escape_body A M skip g dg n dn (Z.of_nat (S i)) (h, dh))
      (fun hs => encl (fst hs) (Z.to_nat n) (escH F u (S i)) /\ encl (snd hs) (Z.to_nat dn) (escD F u du (S i))).
  Proof.
    intros Hdn Hu Hg Hdg Hh Hdh. unfold escape_body.
    set (p := (2 ^ Z.of_nat (S i))%Z).
    assert (Hp : (2 <= p)%Z).
    { unfold p. rewrite Nat2Z.inj_succ, Z.pow_succ_r by lia. assert (0 < 2 ^ Z.of_nat i)%Z by (apply Z.pow_pos_nonneg; lia). lia. }
    assert (Hps : Z.to_nat (p - 1) = 2 ^ S i - 1).
    { unfold p. rewrite Z2Nat.inj_sub by lia. rewrite pow2_nat. reflexivity. }
    set (N := Z.to_nat n) in *. set (D := Z.to_nat dn) in *. set (q := 2 ^ S i - 1) in *.
    pose proof (linear_T g h (S i) N u (escH F u i) Hg Hh) as Ht. fold p in Ht.
    pose proof (linear_T dg dh (S i) D du (escD F u du i) Hdg Hdh) as Hdt. fold p in Hdt.
    set (t := linear_sub A M (1 - p) g _ h) in *. set (dt := linear_sub A M (1 - p) dg _ dh) in *.
    set (T := escT F u (escH F u i) (S i)) in *.
    assert (HT0 : T O = 0%K) by (apply escT_0; [exact Hu|apply escH_0]).
    eapply sat_bind.
    { apply (Hlpe t (p - 1)%Z (n - (p - 1))%Z T); [lia| |exact HT0]. apply (encl_le F A mem _ N); [lia|exact Ht]. }
    cbv beta. rewrite Hps. intros s _ Hs.
    assert (EL : feq (fshift q (lpe F q T)) (escL F u (escH F u i) (S i))) by apply lpe_shift.
    eapply sat_bind.
    { apply (Hexp _ (dn - (p - 1))%Z (D - q) (fsub T (escL F u (escH F u i) (S i)))); [lia| |].
      - eapply encl_eqn; [|apply (shift_encl_sub t s (p - 1) (dn - (p - 1)) (D - q) T (lpe F q T)); [lia|lia| |]].
        + apply feq_eqn. rewrite Hps, EL. reflexivity.
        + apply (encl_le F A mem _ N); [lia|exact Ht].
        + apply (encl_le F A mem _ (Z.to_nat (n - (p - 1)))); [lia|exact Hs].
      - unfold fsub. rewrite HT0, escL_0. ring. }
    cbv beta. intros e _ He. apply sat_ok. cbn [fst snd].
    assert (EI : forall a : fps F, feq (fscale (kpow2 (- Z.of_nat (S i))) a) (fmul (I2 F (S i)) a)).
    { intro a. rewrite kpow2_opp. unfold I2. rewrite fC_mul. reflexivity. }
    split.
    - eapply encl_eqn; [|apply (shift_encl_add h _ (p - 1) n N (escH F u i) (fscale (kpow2 (- Z.of_nat (S i))) (lpe F q T))); [lia|lia|exact Hh|]].
      + apply feq_eqn. cbn [escH]. apply fadd_feq; [reflexivity|]. rewrite Hps, (fshift_f F _ _ _ (EI _)), fshift_mul_r, EL. reflexivity.
      + apply (mo_p2exp F A M mem kpi HM). apply (encl_le F A mem _ (Z.to_nat (n - (p - 1)))); [lia|exact Hs].
    - eapply encl_eqn; [|apply (shift_encl_add dh _ (p - 1) dn D (escD F u du i) (fscale (kpow2 (- Z.of_nat (S i)))
          (fmul (fexp (fsub T (escL F u (escH F u i) (S i)))) (escT F du (escD F u du i) (S i))))); [lia|lia|exact Hdh|]].
      + apply feq_eqn. cbn [escD]. apply fadd_feq; [reflexivity|]. rewrite Hps, (fshift_f F _ _ _ (EI _)), fshift_mul_r. reflexivity.
      + apply (mo_p2exp F A M mem kpi HM). apply (mullow_encl F kln A mem HA); [lia|apply (encl_le F A mem _ (D - q)); [lia|exact He]|].
        apply (encl_le F A mem _ D); [lia|exact Hdt].
  Qed.
  Lemma escape_sat (g dg : P) n dn k (u du : fps F) : (dn <= n)%Z -> u O = 0%K ->
    encl g (Z.to_nat n) u -> encl dg (Z.to_nat dn) du ->
    sat (escape A M skip k g dg n dn)
      (fun hs => encl (fst hs) (Z.to_nat n) (escH F u k) /\ encl (snd hs) (Z.to_nat dn) (escD F u du k)).
  Proof.
    intros Hdn Hu Hg Hdg. unfold escape.
    assert (G : forall cnt i hs, encl (fst hs) (Z.to_nat n) (escH F u i) -> encl (snd hs) (Z.to_nat dn) (escD F u du i) ->
      sat (escape_loop A M skip cnt (Z.of_nat (S i)) g dg n dn hs)
        (fun hs => encl (fst hs) (Z.to_nat n) (escH F u (cnt + i)) /\ encl (snd hs) (Z.to_nat dn) (escD F u du (cnt + i)))).
    { induction cnt as [|cnt IH]; intros i [h dh] H1 H2; cbn [escape_loop fst snd] in *.
      - split; assumption.
      - eapply sat_bind; [apply (escape_body_sat g dg h dh n dn i u du); assumption|].
        cbv beta. intros hs _ (H3 & H4). replace (Z.of_nat (S i) + 1)%Z with (Z.of_nat (S (S i))) by lia.
        replace (S cnt + i) with (cnt + S i) by lia. apply IH; assumption. }
    specialize (G k 0 ([], [])). rewrite Nat.add_0_r in G. apply G; cbn [fst snd escH escD]; intros i Hi;
      rewrite at_out by (cbn; lia); now apply (ok_zero F kln A mem HA).
  Qed.
  Lemma implicit_sat (g dg : P) n dn k (u du : fps F) : (dn <= n)%Z -> u O = 0%K ->
    encl g (Z.to_nat n) u -> encl dg (Z.to_nat dn) du ->
    sat (implicit A M skip k g dg n dn)
      (fun hs => encl (fst hs) (Z.to_nat n) (phi u k) /\ encl (snd hs) (Z.to_nat dn) (fadd du (escD F u du k))).
  Proof.
    intros Hdn Hu Hg Hdg. unfold implicit. eapply sat_bind; [apply (escape_sat g dg n dn k u du); assumption|].
    cbv beta. intros [h dh] _ (H1 & H2). cbn [fst snd] in *. apply sat_ok. cbn [fst snd]. split.
    - refine (encl_f F A mem _ _ _ _ _ (mo_padd F A M mem kpi HM _ _ n _ _ _ (le_n _) H1 Hg)). unfold phi. ring.
    - refine (encl_f F A mem _ _ _ _ _ (mo_padd F A M mem kpi HM _ _ dn _ _ _ (le_n _) H2 Hdg)). ring.
  Qed.

  Lemma one_encl n : encl (one_poly A) n f1.
  Proof.
    unfold one_poly. refine (encl_f F A mem _ _ _ _ _ (ok_add_si F kln A mem HA [] 1 n f0 _)).
    - rewrite fC_ofZ1. ring.
    - intros i Hi. rewrite at_out by (cbn; lia). now apply (ok_zero F kln A mem HA).
  Qed.

  (** ** The rounds of arb_areas *)
  (** [g] holds the logarithm of the solution for order k. *)
  Definition good (k : nat) (g : P) : Prop :=
    (exists u : fps F, u O = 0%K /\ encl g (2 ^ k) u /\ eqn (2 ^ k) (escR (fexp u) k) f1) /\
    length g <= 2 ^ k /\ only0 F A mem (at_ A g 0).

  Lemma pow_pos j : 1 <= 2 ^ j.
  Proof. pose proof (Nat.pow_nonzero 2 j). lia. Qed.
  Lemma zpow_nat k : (2 ^ Z.of_nat k)%Z = Z.of_nat (2 ^ k).
  Proof. rewrite <- pow2_nat. rewrite Z2Nat.id; [reflexivity|]. apply Z.pow_nonneg. lia. Qed.

  Lemma pass0_sat k (g : P) : good k g -> sat (pass A M skip (S k) false g) (good (S k)).
  Proof.
    intros ((u & Hu & Hg & HR) & Hl & H0). unfold pass. rewrite pow2_half, !zpow_nat.
    set (m := 2 ^ k) in *. pose proof (pow_pos k) as Hm. fold m in Hm.
    assert (E2 : 2 ^ S k = m + m) by (cbn [Nat.pow]; unfold m; lia). rewrite E2.
    set (w := ftrunc m u).
    assert (Ew : eqn m w u) by apply ftrunc_eqn.
    assert (Hw : encl g (m + m) w) by (apply (encl_long F kln A mem HA); assumption).
    assert (Hw0 : w O = 0%K) by (rewrite (Ew O) by lia; exact Hu).
    assert (HRw : eqn m (escR (fexp w) (S k)) f1).
    { apply escR_next. fold m. etransitivity; [|exact HR]. apply escR_eqn. apply fexp_eqn. exact Ew. }
    pose proof (esc_phi_0 F w (S k) m Hw0 HRw) as Hphi.
    eapply sat_bind.
    { apply (implicit_sat g (one_poly A) (Z.of_nat (m + m)) (Z.of_nat m) (S k) w f1); [lia|exact Hw0| |apply one_encl].
      rewrite Nat2Z.id. exact Hw. }
    cbv beta. rewrite !Nat2Z.id. intros [f df] _ (HF & HD). cbn [fst snd] in *.
    eapply sat_bind.
    { apply (low_sat F A mem skip thr Hthr f (Z.of_nat m) (phi w (S k))); rewrite Nat2Z.id;
        [apply (encl_le F A mem _ (m + m)); [lia|exact HF]|exact Hphi]. }
    intros _ _ _.
    assert (Hd0 : dphi w (S k) O = 1%K).
    { unfold dphi, fadd. rewrite escD_0. cbn [f1 fC]. ring. }
    destruct (inv_exists_aux F m (dphi w (S k))) as [di Hdi]; [rewrite Hd0; apply k1_nz|].
    set (q := fmul (fhigh m (phi w (S k))) di).
    assert (Hq : eqn m (fmul (dphi w (S k)) q) (fhigh m (phi w (S k)))).
    { unfold q. transitivity (fmul (fhigh m (phi w (S k))) (fmul (dphi w (S k)) di)); [apply feq_eqn; ring|].
      rewrite Hdi. apply feq_eqn. ring. }
    eapply sat_bind.
    { apply (div_sat F kln A mem HA skip thr Hthr _ df (Z.of_nat m) m (fhigh m (phi w (S k))) (dphi w (S k)) q); [lia| | | |exact Hq].
      - pose proof (mo_shr F A M mem kpi HM f (Z.of_nat m) m (phi w (S k))) as G. rewrite Nat2Z.id in G. apply G; [lia|exact HF].
      - exact HD.
      - rewrite Hd0. apply k1_nz. }
    cbv beta. intros qb _ Hqb. apply sat_ok.
    pose proof (ok_shl F kln A mem HA qb (Z.of_nat m) m q ltac:(lia) Hqb) as Hsh. rewrite Nat2Z.id in Hsh.
    assert (Hnew : encl (p_sub A g (p_shl A qb (Z.of_nat m)) (Z.of_nat (m + m))) (m + m) (fsub w (fshift m q))).
    { apply (ok_psub F kln A mem HA); [lia|exact Hw|exact Hsh]. }
    split; [|split].
    - exists (fsub w (fshift m q)). split; [|split].
      + unfold fsub. rewrite Hw0, fshift_coef0 by lia. ring.
      + rewrite E2. exact Hnew.
      + rewrite E2. apply esc_newton; auto.
    - pose proof (mo_sub_len F A M mem kpi HM g (p_shl A qb (Z.of_nat m)) (Z.of_nat (m + m))). rewrite E2. lia.
    - apply (mo_sub0 F A M mem kpi HM); [exact H0|]. apply (mo_shl0 F A M mem kpi HM). lia.
  Qed.

  Lemma inter_loop_0 (a b : P) c r : inter_loop A a b c 0 = Ok r -> only0 F A mem (nth 0 c (b_zero A)) ->
    only0 F A mem (nth 0 r (b_zero A)).
  Proof.
    destruct c as [|x c]; cbn [inter_loop]; [intro E; injection E as <-; auto|].
    destruct (b_overlaps A x _) eqn:O; cbn [slow_assert bind]; [|discriminate].
    destruct (inter_loop A a b c 1) as [r'| |]; cbn [bind]; try discriminate. intro E.
    assert (R : r = b_inter A x (b_sub A (at_ A a 0) (at_ A b 0)) :: r') by (injection E; auto). rewrite R. cbn [nth].
    intro H. apply (mo_inter0 F A M mem kpi HM); assumption.
  Qed.
  Lemma intersect_0 (c a b : P) n r : poly_intersect_sub A c a b n = Ok r -> only0 F A mem (at_ A c 0) -> only0 F A mem (at_ A r 0).
  Proof.
    unfold poly_intersect_sub. destruct (_ <? 0)%Z; [discriminate|]. set (j := Z.to_nat _). clearbody j.
    intros E H. apply (inter_loop_0 _ _ _ _ E). destruct j, c; cbn; auto; intros x Hx; now apply (ok_zero F kln A mem HA).
  Qed.
  Lemma intersect_sat (c a b : P) n k (v : fps F) : (0 <= n)%Z -> k <= Z.to_nat n -> Z.to_nat n <= k -> encl c k v ->
    (forall i, i < k -> mem (b_sub A (at_ A a i) (at_ A b i)) (v i)) ->
    sat (poly_intersect_sub A c a b n) (fun r => encl r k v /\ length r <= length c).
  Proof.
    intros Hn Hk Hk' Hc Hd. destruct (poly_intersect_sub A c a b n) as [r| |] eqn:E; cbn.
    - exact (intersect_ok F kln A mem HA c a b n r v k E Hk Hc Hd).
    - destruct Hthr as [H|[_ [_ H]]]; [exact H|]. exfalso. revert E. unfold poly_intersect_sub.
      destruct (_ <? 0)%Z; [discriminate|].
      set (j := Z.to_nat (Z.min (Z.min n (len A c)) _)).
      assert (Hj : j <= k) by (subst j; unfold len; lia). clearbody j.
      assert (G : forall c i, (forall l, l < length c -> mem (nth l c (b_zero A)) (v (i + l)) /\
          mem (b_sub A (at_ A a (i + l)) (at_ A b (i + l))) (v (i + l))) -> inter_loop A a b c i <> Throw).
      { clear - H. induction c as [|x c IH]; intros i Hl; cbn [inter_loop]; [discriminate|].
        destruct (Hl 0 ltac:(cbn; lia)) as (M1 & M2). rewrite Nat.add_0_r in M1, M2. cbn [nth] in M1.
        rewrite (H _ _ _ M1 M2). cbn [slow_assert bind].
        destruct (inter_loop A a b c (S i)) eqn:E; cbn [bind]; try discriminate. exfalso. refine (IH (S i) _ E).
        intros l Hl2. specialize (Hl (S l) ltac:(cbn; lia)). replace (S i + l) with (i + S l) by lia. exact Hl. }
      apply G. intros l Hl. rewrite firstn_length in Hl. cbn [Nat.add]. rewrite nth_firstn by lia. split; [apply Hc; lia|apply Hd; lia].
    - destruct (intersect_ub A c a b n Hn E).
  Qed.

  Lemma mid_0 (g : P) : only0 F A mem (at_ A g 0) -> exists v : fps F, v O = 0%K /\ (forall n, encl (poly_mid A g) n v) /\ (forall n, encl g n v).
  Proof.
    intro H0. destruct (mid_some F kln A mem HA g) as (v & H1 & H2). exists v. split; [|split; assumption].
    apply H0. apply (H2 1). lia.
  Qed.

  Lemma pass1_sat k (g : P) : mean_value F A mem -> good k g -> sat (pass A M skip k true g) (good k).
  Proof.
    intros HMV ((u & Hu & Hg & HR) & Hl & H0). unfold pass. rewrite !zpow_nat.
    set (m := 2 ^ k) in *. pose proof (pow_pos k) as Hm. fold m in Hm.
    destruct (mid_0 g H0) as (v & Hv & Hv1 & Hv2).
    pose proof (esc_phi_0 F u k m Hu HR) as Hphi.
    eapply sat_bind.
    { apply (implicit_sat (poly_mid A g) (one_poly A) (Z.of_nat m) 0 k v f1); [lia|exact Hv|apply Hv1|apply one_encl]. }
    cbv beta. rewrite Nat2Z.id. intros [f df0] _ (HF & _). cbn [fst snd] in *.
    eapply sat_bind.
    { apply (sat_all thr _ (fun w : fps F => encl g m w /\ w O = 0%K) (fun w hs => encl (snd hs) m (dphi w k))).
      - exists u. split; assumption.
      - intros w (Hw & Hw0). eapply sat_imp.
        + apply (implicit_sat g (one_poly A) (Z.of_nat m) (Z.of_nat m) k w f1); [lia|exact Hw0| |apply one_encl].
          rewrite Nat2Z.id. exact Hw.
        + cbv beta. rewrite Nat2Z.id. intros hs _ (_ & H). exact H. }
    cbv beta. intros [f' df] _ HD. cbn [fst snd] in *.
    destruct (HMV g m k v u (Hv2 m) Hg Hv Hu) as (d & Hd0 & Hd & Hdj).
    assert (HDd : encl df m d).
    { intros j Hj. destruct (Hdj j Hj) as (w & Hw & Hw0 & ->). apply (HD w); auto. }
    eapply sat_bind.
    { apply (div_sat F kln A mem HA skip thr Hthr f df (Z.of_nat m) m (phi v k) d (fsub v u)); [lia|exact HF|exact HDd|exact Hd0|].
      etransitivity; [exact Hd|]. change (phi u k) with (fadd u (escH F u k)). rewrite Hphi. apply feq_eqn. ring. }
    cbv beta. intros q _ Hq.
    eapply sat_imp.
    { apply (intersect_sat g (poly_mid A g) q (Z.of_nat m) m u); [lia|lia|lia|exact Hg|].
      intros i Hi. replace (u i) with (v i - (v i - u i))%K by ring. apply (ok_sub F kln A mem HA); [now apply (Hv1 m)|now apply Hq]. }
    cbv beta. intros r Er (Hr & Lr). split; [|split].
    - exists u. split; [exact Hu|]. split; [exact Hr|exact HR].
    - lia.
    - apply (intersect_0 _ _ _ _ _ Er H0).
  Qed.

  (** ** Area *)
  Lemma area_sum_encl (f : P) (a : fps F) : forall i mu x, (forall j, j < length f -> mem (at_ A f j) (a (i + j))) -> mem mu x ->
    mem (area_sum A M f (Z.of_nat i) mu) (x + sumto (fun j => (1 - kofnat (i + j)) * (a (i + j)%nat * a (i + j)%nat))%K (length f))%K.
  Proof.
    induction f as [|c f IH]; intros i mu x Hf Hx; cbn [area_sum length].
    - cbn [sumto]. replace (x + 0)%K with x by ring. exact Hx.
    - rewrite sumto_first, Nat.add_0_r.
      replace (Z.of_nat i + 1)%Z with (Z.of_nat (S i)) by lia.
      assert (E : sumto (fun j => (1 - kofnat (i + S j)) * (a (i + S j)%nat * a (i + S j)%nat))%K (length f) =
                  sumto (fun j => (1 - kofnat (S i + j)) * (a (S i + j)%nat * a (S i + j)%nat))%K (length f)).
      { apply sumto_ext. intros j _. replace (i + S j) with (S i + j) by lia. reflexivity. }
      rewrite E. clear E.
      match goal with |- mem _ (x + (?p + ?s))%K => replace (x + (p + s))%K with ((x + p) + s)%K by ring end.
      apply IH.
      + intros j Hj. specialize (Hf (S j) ltac:(cbn; lia)). cbn [at_ nth] in Hf. replace (S i + j) with (i + S j) by lia. exact Hf.
      + assert (Ez : kofZ (F:=F) (1 - Z.of_nat i) = (1 - kofnat i)%K).
        { replace (1 - Z.of_nat i)%Z with (Z.of_nat 1 - Z.of_nat i)%Z by lia. rewrite kofZ_sub_nat, kofnat_1. reflexivity. }
        match goal with |- mem _ (x + ?p)%K => replace p with ((a i * a i) * kofZ (1 - Z.of_nat i))%K by (rewrite Ez; ring) end.
        apply (mo_addmul F A M mem kpi HM); [exact Hx|]. apply (mo_sqr F A M mem kpi HM).
        specialize (Hf 0 ltac:(cbn; lia)). rewrite Nat.add_0_r in Hf. exact Hf.
  Qed.
  Lemma area_encl (f : P) k (a : fps F) : length f <= 2 ^ k -> encl f (2 ^ k) a -> mem (area A M f) (area_of F kpi k a).
  Proof.
    intros L Hf. unfold area, area_of.
    set (S := sumto (fun i => (1 - kofnat i) * (a i * a i))%K (2 ^ k)).
    replace (kpi * S)%K with (S * kpi)%K by ring.
    apply (mo_mul F A M mem kpi HM); [|apply (mo_pi F A M mem kpi HM)].
    pose proof (area_sum_encl f a 0 (b_zero A) 0%K) as G. cbn [Nat.add] in G.
    assert (E : S = (0 + sumto (fun j => (1 - kofnat j) * (a j * a j))%K (length f))%K).
    { unfold S. replace (2 ^ k) with (length f + (2 ^ k - length f)) by lia. rewrite sumto_split.
      rewrite (sumto_0 F (fun i => (1 - kofnat (length f + i)) * (a (length f + i)%nat * a (length f + i)%nat))%K); [ring|].
      intros i Hi. specialize (Hf (length f + i) ltac:(lia)). rewrite at_out in Hf by lia.
      apply (ok_zero F kln A mem HA) in Hf. rewrite Hf. ring. }
    rewrite E. apply G; [intros j Hj; apply Hf; lia|]. now apply (ok_zero F kln A mem HA).
  Qed.

  Definition encl_area (k : nat) (mu : ball A) : Prop := forall f, solves F k f -> mem mu (area_of F kpi k f).
  Lemma area_eqn k (f f' : fps F) : eqn (2 ^ k) f f' -> area_of F kpi k f = area_of F kpi k f'.
  Proof. intro H. unfold area_of. f_equal. apply sumto_ext. intros i Hi. rewrite (H i Hi). reflexivity. Qed.

  Lemma round_sat (k : nat) (refine : bool) (g : P) : mean_value F A mem -> good (if refine then S k else k) g ->
    sat (round_ A M skip (S k) refine g) (fun r => good (S k) (fst r) /\ encl_area (S k) (snd r)).
  Proof.
    intros HMV Hg. unfold round_. eapply sat_bind.
    { destruct refine; [apply pass1_sat|apply pass0_sat]; eassumption. }
    intros g' _ Hg'. pose proof Hg' as ((u & Hu & Hgu & HR) & Hl & H0).
    eapply sat_bind.
    { apply sat_and; [apply (Hexp g' _ (2 ^ S k) u); [rewrite pow2_nat; lia|exact Hgu|exact Hu]|].
      instantiate (1 := fun r => length r <= 2 ^ S k).
      destruct (exp_ A skip g' (2 ^ Z.of_nat (S k))%Z) as [r| |] eqn:E; cbn [ArbExpProofs.sat].
      - apply (exp_len F kln A mem HA M kpi HM) in E. rewrite pow2_nat in E. exact E.
      - pose proof (Hexp g' (2 ^ Z.of_nat (S k))%Z 0 u) as G. rewrite E in G. cbn [ArbExpProofs.sat] in G. apply G; auto; [lia|intros i Hi; lia].
      - destruct (exp_ub A skip _ _ E). }
    cbv beta. intros f _ (Hf & Lf). apply sat_ok. cbn [fst snd]. split; [exact Hg'|].
    intros f' (Hf0 & Hf'). rewrite <- (area_eqn (S k) (fexp u) f').
    - apply area_encl; assumption.
    - apply (escR_unique F (fexp u) f' (S k)); auto. apply fexp_coef0.
  Qed.

  Lemma good_0 : good 0 [].
  Proof.
    split; [|split]; cbn; [|lia|intros x Hx; now apply (ok_zero F kln A mem HA)].
    exists f0. split; [reflexivity|]. split; [intros i Hi; rewrite at_out by (cbn; lia); now apply (ok_zero F kln A mem HA)|].
    apply feq_eqn. apply fexp_0.
  Qed.

  Lemma rounds_sat (known : list (ball A)) : mean_value F A mem -> forall cnt k g, good k g ->
    let r := rounds A M skip known (flat_map (fun k => [(k, false); (k, true)]) (seq (S k) cnt)) g in
    Forall (fun e => encl_area (fst (fst e)) (snd e)) (fst r) /\ snd r <> UB /\
    (snd r = Throw -> thr \/ exists e c, In e (fst r) /\ nth_error known (fst (fst e)) = Some c /\ b_overlaps A (snd e) c = false) /\
    (forall g', snd r = Ok g' -> good (k + cnt) g' /\
       map fst (fst r) = flat_map (fun k => [(k, false); (k, true)]) (seq (S k) cnt)).
  Proof.
    intros HMV. induction cnt as [|cnt IH]; intros k g Hg; cbn [seq flat_map app rounds].
    - cbn. split; [constructor|]. split; [discriminate|]. split; [discriminate|]. intros g' E.
      assert (E' : g = g') by congruence. subst g'. rewrite Nat.add_0_r. split; [exact Hg|reflexivity].
    - pose proof (round_sat k false g HMV Hg) as R0.
      destruct (round_ A M skip (S k) false g) as [[g1 mu1]| |] eqn:E0; cbn [ArbExpProofs.sat fst snd] in R0;
        [|cbn; split; [constructor|split; [discriminate|split; [intros _; now left|discriminate]]]|destruct R0].
      destruct R0 as (G1 & M1).
      destruct (match nth_error known (S k) with Some c => b_overlaps A mu1 c | None => true end) eqn:O1.
      2:{ cbn. split; [constructor; [exact M1|constructor]|]. split; [discriminate|]. split; [|discriminate]. intros _. right.
          destruct (nth_error known (S k)) as [c|] eqn:EN; [|discriminate]. exists (S k, false, mu1), c. cbn. auto. }
      pose proof (round_sat k true g1 HMV G1) as R1.
      destruct (round_ A M skip (S k) true g1) as [[g2 mu2]| |] eqn:E1; cbn [ArbExpProofs.sat fst snd] in R1;
        [|cbn; split; [constructor; [exact M1|constructor]|split; [discriminate|split; [intros _; now left|discriminate]]]|destruct R1].
      destruct R1 as (G2 & M2).
      destruct (match nth_error known (S k) with Some c => b_overlaps A mu2 c | None => true end) eqn:O2.
      2:{ cbn. split; [constructor; [exact M1|constructor; [exact M2|constructor]]|]. split; [discriminate|]. split; [|discriminate]. intros _. right.
          destruct (nth_error known (S k)) as [c|] eqn:EN; [|discriminate]. exists (S k, true, mu2), c. cbn. auto. }
      specialize (IH (S k) g2 G2). cbv zeta in IH.
      destruct (rounds A M skip known _ g2) as [out r]. cbn [fst snd] in *. destruct IH as (I1 & I2 & I3 & I4).
      split; [constructor; [exact M1|constructor; [exact M2|exact I1]]|]. split; [exact I2|]. split.
      + intro E. destruct (I3 E) as [H|(e & c & H1 & H2)]; [now left|]. right. exists e, c. split; [cbn; auto|exact H2].
      + intros g' E. destruct (I4 g' E) as (H1 & H2). replace (k + S cnt) with (S k + cnt) by lia. split; [exact H1|].
        cbn [map fst]. rewrite H2. reflexivity.
  Qed.

  Theorem areas_sat (known : list (ball A)) max_k : mean_value F A mem ->
    let r := arb_areas A M skip known max_k in
    Forall (fun e => encl_area (fst (fst e)) (snd e)) (fst r) /\ snd r <> UB /\
    (snd r = Throw -> thr \/ exists e c, In e (fst r) /\ nth_error known (fst (fst e)) = Some c /\ b_overlaps A (snd e) c = false) /\
    (forall g, snd r = Ok g -> map fst (fst r) = flat_map (fun k => [(k, false); (k, true)]) (seq 1 max_k)).
  Proof.
    intros HMV r. destruct (rounds_sat known HMV max_k 0 [] good_0) as (H1 & H2 & H3 & H4).
    split; [exact H1|]. split; [exact H2|]. split; [exact H3|]. intros g E. exact (proj2 (H4 g E)).
  Qed.
End AAP.

(** There is a solution for every order. *)
Lemma solves_ex (F : Fld) : forall k, exists f, solves F k f.
Proof.
  assert (G : forall k, exists u : fps F, u O = 0%K /\ eqn (2 ^ k) (escR (fexp u) k) f1).
  { induction k as [|k (u & Hu & HR)].
    - exists f0. split; [reflexivity|]. apply feq_eqn. apply fexp_0.
    - pose proof (escR_next F (fexp u) k HR) as HR'. set (m := 2 ^ k) in *.
      pose proof (pow_pos k) as Hm. fold m in Hm.
      assert (Hd0 : dphi u (S k) O = 1%K).
      { unfold dphi, fadd. rewrite escD_0. cbn [f1 fC]. destruct (kfield F) as [[] ]. rewrite Radd_comm. apply Radd_0_l. }
      destruct (inv_exists_aux F m (dphi u (S k))) as [di Hdi]; [rewrite Hd0; apply k1_nz|].
      set (q := fmul (fhigh m (phi u (S k))) di).
      exists (fsub u (fshift m q)). split.
      + unfold fsub. rewrite Hu, fshift_coef0 by lia. destruct (kfield F) as [[] ]. rewrite Rsub_def. apply Ropp_def.
      + replace (2 ^ S k) with (m + m) by (cbn [Nat.pow]; unfold m; lia).
        apply esc_newton; auto. unfold q. fold (dphi u (S k)). fold (phi u (S k)).
        rewrite (fmul_comm F (fhigh m (phi u (S k))) di), (fmul_assoc F), Hdi. rewrite fmul_1_l. reflexivity. }
  intro k. destruct (G k) as (u & Hu & HR). exists (fexp u). split; [apply fexp_coef0|exact HR].
Qed.
