(** Enclosure proofs for poly.cc. *)
From Coq Require Import ZArith List Bool Lia Setoid Ring Field.
From Verif Require Import Base Field FPS PolyModel PolySpec.
Import ListNotations.
Open Scope nat_scope.

Section Proofs.
  Variable F : Fld.
  Variable kln : K F -> K F.
  Variable A : arb_poly.
  Variable mem : ball A -> K F -> Prop.
  Hypothesis HA : poly_ok F kln A mem.
  Notation encl := (encl F A mem).
  Notation P := (list (ball A)).

  Add Field poly_field : (kfield F).
  Add Ring poly_fps : (fps_ring_theory F) (setoid (feq_Equiv F) (fps_ring_ext F)).

  Lemma encl_le f n m a : m <= n -> encl f n a -> encl f m a.
  Proof. intros H E i Hi. apply E. lia. Qed.
  Lemma encl_eqn f n a b : eqn n a b -> encl f n a -> encl f n b.
  Proof. intros H E i Hi. rewrite <- H by exact Hi. now apply E. Qed.
  Lemma at_out (f : P) i : length f <= i -> at_ A f i = b_zero A.
  Proof. intro H. unfold at_. now apply nth_overflow. Qed.

  (** ** poly_mid *)
  Lemma mid_nth (y : P) i : i < length y -> at_ A (poly_mid A y) i = b_mid A (at_ A y i).
  Proof.
    intro H. unfold at_, poly_mid. rewrite nth_indep with (d' := b_mid A (b_zero A)) by (now rewrite map_length).
    apply map_nth.
  Qed.
  (** Some member of the midpoints, with any allowed constant term. *)
  Lemma mid_member (y : P) x : mem (at_ A (poly_mid A y) 0) x ->
    exists a : fps F, a O = x /\ (forall n, encl (poly_mid A y) n a) /\ (forall n, encl y n a).
  Proof.
    intro H0.
    assert (G : forall l : P, exists a : fps F, forall i, 
      mem (nth i (map (b_mid A) l) (b_zero A)) (a i) /\ mem (nth i l (b_zero A)) (a i)).
    { induction l as [|b l [a Ha]].
      - exists (fun _ => 0%K). intro i. destruct i; cbn; split; now apply (ok_zero F kln A mem HA).
      - destruct (ok_mid_some F kln A mem HA b) as [x' Hx].
        exists (fun i => match i with O => x' | S j => a j end). intros [|i]; cbn [map nth].
        + split; [exact Hx|]. now apply (ok_mid_in F kln A mem HA).
        + apply Ha. }
    destruct (G y) as [a Ha].
    exists (fun i => match i with O => x | _ => a i end). split; [reflexivity|]. split; intros n [|i] _.
    - exact H0.
    - apply Ha.
    - unfold at_ in *. destruct y as [|b y]; cbn [poly_mid map nth] in *; [exact H0|].
      now apply (ok_mid_in F kln A mem HA).
    - apply Ha.
  Qed.
  Lemma mid_some (y : P) : exists a : fps F, (forall n, encl (poly_mid A y) n a) /\ (forall n, encl y n a).
  Proof.
    assert (H : exists x, mem (at_ A (poly_mid A y) 0) x).
    { destruct y as [|b y]; cbn; [exists 0%K; now apply (ok_zero F kln A mem HA)|apply (ok_mid_some F kln A mem HA)]. }
    destruct H as [x Hx]. destruct (mid_member y x Hx) as (a & _ & H1 & H2). eauto.
  Qed.

  (** ** poly_intersect_sub *)
  Lemma nth_firstn {X} (d : X) : forall k l i, i < k -> nth i (firstn k l) d = nth i l d.
  Proof. induction k as [|k IH]; intros [|x l] [|i] H; cbn; try lia; auto. apply IH. lia. Qed.


  Lemma inter_loop_ok a b k (v : fps F) : forall c i r,
    inter_loop A a b c i = Ok r ->
    (forall j, j < length c -> i + j < k -> mem (nth j c (b_zero A)) (v (i + j)) /\
                        mem (b_sub A (at_ A a (i + j)) (at_ A b (i + j))) (v (i + j))) ->
    length r = length c /\ forall j, j < length c -> i + j < k -> mem (nth j r (b_zero A)) (v (i + j)).
  Proof.
    induction c as [|x c IH]; intros i r E H; cbn [inter_loop length] in *.
    - injection E as <-. split; [reflexivity|]. intros j Hj. lia.
    - destruct (b_overlaps A x _); cbn [slow_assert bind] in E; [|discriminate].
      destruct (inter_loop A a b c (S i)) as [r'| |] eqn:E'; try discriminate. cbn [bind] in E.
      injection E as <-.
      destruct (IH (S i) r' E') as [L' G].
      { intros j Hj Hk. replace (S i + j) with (i + S j) in * by lia. apply (H (S j)); lia. }
      split; [cbn; lia|]. intros [|j] Hj Hk.
      + cbn [nth]. destruct (H 0) as [H1 H2]; [lia|lia|]. rewrite Nat.add_0_r in *.
        now apply (ok_inter F kln A mem HA).
      + cbn [nth]. replace (i + S j) with (S i + j) in * by lia. apply G; lia.
  Qed.

  (** Members of C that also lie in A - B stay members, including those of the coefficients that are
      dropped. *)
  Lemma intersect_ok (c a b : P) n r (v : fps F) k : poly_intersect_sub A c a b n = Ok r ->
    k <= Z.to_nat n -> encl c k v ->
    (forall i, i < k -> mem (b_sub A (at_ A a i) (at_ A b i)) (v i)) ->
    encl r k v /\ length r <= length c.
  Proof.
    unfold poly_intersect_sub. intros E Hk Hc Hs.
    destruct (_ <? 0)%Z eqn:N; [discriminate|].
    set (m := Z.to_nat (Z.min (Z.min n (len A c)) (Z.max (len A a) (len A b)))) in *.
    assert (Hm2 : m = Nat.min (Nat.min (Z.to_nat n) (length c)) (Nat.max (length a) (length b)))
      by (unfold len in *; lia).
    clearbody m. clear N.
    assert (L : length (firstn m c) = m) by (rewrite firstn_length; lia).
    destruct (inter_loop_ok a b k v (firstn m c) 0 r E) as [Lr G].
    { intros j Hj Hjk. rewrite L in Hj. cbn [Nat.add]. split; [|now apply Hs].
      rewrite nth_firstn by exact Hj. now apply Hc. }
    rewrite L in *. split; [|lia].
    intros i Hi. destruct (lt_dec i m) as [Him|Him].
    - now apply (G i).
    - rewrite at_out by lia. destruct (le_dec (length c) i) as [Hci|Hci].
      + specialize (Hc i Hi). now rewrite at_out in Hc by exact Hci.
      + apply (ok_zero F kln A mem HA). specialize (Hs i Hi). rewrite !at_out in Hs by lia.
        now apply (ok_sub_zero F kln A mem HA).
  Qed.
  Lemma intersect_len (c a b : P) n r : poly_intersect_sub A c a b n = Ok r -> length r <= length c.
  Proof.
    intro E. apply (intersect_ok c a b n r f0 0 E); [lia|intros i Hi; lia|intros i Hi; lia].
  Qed.

  (** ** Reciprocal *)
  Lemma inv_refine_ok (x : P) n r k (a y : fps F) : poly_inv_refine A x n = Ok r ->
    k <= Z.to_nat n -> encl x k a -> a O <> 0%K -> eqn k (fmul a y) f1 -> encl r k y.
  Proof.
    unfold poly_inv_refine. intros E Hk Hx Ha Hy.
    destruct (n <=? 0)%Z eqn:Hn; [intros i Hi; lia|]. apply Z.leb_gt in Hn.
    set (yb := p_inv A x n) in *. set (n' := Z.min n (len A yb)) in *.
    assert (Yb : encl yb k y) by (apply (ok_inv F kln A mem HA) with (a := a); assumption).
    set (k' := Nat.min k (length yb)).
    assert (Hk' : k' <= Z.to_nat n') by (subst k' n'; unfold len; lia).
    assert (Lr : length r <= length yb) by (apply (intersect_len _ _ _ _ _ E)).
    assert (G : encl r k' y).
    { destruct (Nat.eq_dec k' 0) as [Z|NZ]; [intros i Hi; lia|].
      destruct (ok_inv_mid F kln A mem HA x n Hn) as (m & Hm & Nm). fold yb in Hm.
      rewrite <- mid_nth in Hm by (subst k'; lia).
      destruct (mid_member yb m Hm) as (y0 & E0 & M0 & M1).
      assert (N0 : y0 O <> 0%K) by (rewrite E0; exact Nm).
      apply (encl_le x k k') in Hx; [|subst k'; lia].
      apply (encl_le yb k k') in Yb; [|subst k'; lia].
      apply (eqn_mono F k' k) in Hy; [|subst k'; lia].
      (* q = y / y0 *)
      destruct (inv_exists_aux F k' y0 N0) as [i0 Hi0].
      set (q := fmul i0 y).
      assert (Hq : eqn k' (fmul y0 q) y).
      { subst q. transitivity (fmul (fmul y0 i0) y); [apply feq_eqn; ring|]. rewrite Hi0. apply feq_eqn. ring. }
      assert (U1 : encl (p_mullow A x (poly_mid A yb) n') k' (fmul a y0))
        by (apply (ok_mullow F kln A mem HA); auto).
      assert (U2 := ok_add_si F kln A mem HA _ (-1) _ _ U1).
      assert (T := ok_mullow F kln A mem HA _ (poly_mid A yb) n' k' _ y0 Hk' U2 (M0 k')).
      assert (V1 : encl (p_div A yb (poly_mid A yb) n') k' q)
        by (apply (ok_div F kln A mem HA) with (a := y) (b := y0); auto).
      assert (V2 : encl (p_div A yb (poly_mid A yb) n') k' f1).
      { apply (ok_div F kln A mem HA) with (a := y0) (b := y0); auto. apply feq_eqn. ring. }
      assert (V3 := ok_mullow F kln A mem HA _ _ n' k' _ _ Hk' V2 V1).
      assert (D := ok_mullow F kln A mem HA _ _ n' k' _ _ Hk' T V3).
      match type of D with PolySpec.encl _ _ _ _ _ ?d => assert (Ed : eqn k' d (fsub y0 y)) end.
      { transitivity (fmul (fsub (fmul a y0) f1) (fmul y0 q)).
        { apply feq_eqn. unfold kofZ. change (Pos.to_nat 1) with 1%nat.
          assert (C1 : feq (fC (- kofnat (F:=F) 1)%K) (fopp f1)) by (rewrite kofnat_1; apply fC_opp).
          rewrite C1. ring. }
        rewrite Hq. transitivity (fsub (fmul y0 (fmul a y)) y); [apply feq_eqn; ring|].
        rewrite Hy. apply feq_eqn. ring. }
      apply (encl_eqn _ _ _ _ Ed) in D.
      apply (intersect_ok _ _ _ _ _ y k' E Hk' Yb).
      intros i Hi. specialize (M0 k' i Hi). specialize (D i Hi).
      pose proof (ok_sub F kln A mem HA _ _ _ _ M0 D) as S. unfold fsub in S.
      replace (y0 i - (y0 i - y i))%K with (y i) in S by ring. exact S. }
    intros i Hi. destruct (lt_dec i k') as [H|H]; [now apply G|].
    specialize (Yb i Hi). rewrite at_out in Yb by (subst k'; lia). rewrite at_out by (subst k'; lia). exact Yb.
  Qed.

  (** ** Quotient *)
  Lemma div_refine_ok (f g : P) n r k (a b q : fps F) : poly_div_refine A f g n = Ok r ->
    k <= Z.to_nat n -> encl f k a -> encl g k b -> b O <> 0%K -> eqn k (fmul b q) a -> encl r k q.
  Proof.
    unfold poly_div_refine. intros E Hk Hf Hg Hb Hq.
    destruct (n <=? 0)%Z eqn:Hn; [intros i Hi; lia|]. apply Z.leb_gt in Hn.
    destruct (poly_inv_refine A g n) as [ib| |] eqn:EI; try discriminate. cbn [bind] in E.
    destruct (inv_exists_aux F k b Hb) as [i0 Hi0].
    assert (IB := inv_refine_ok g n ib k b i0 EI Hk Hg Hb Hi0).
    set (yb := p_mullow A f ib n) in *.
    assert (Yb : encl yb k q).
    { apply encl_eqn with (a := fmul a i0); [|apply (ok_mullow F kln A mem HA); auto].
      rewrite <- Hq. transitivity (fmul (fmul b i0) q); [apply feq_eqn; ring|]. rewrite Hi0. apply feq_eqn; ring. }
    destruct (mid_some yb) as (y0 & M0 & M1).
    assert (D1 := ok_mullow F kln A mem HA g (poly_mid A yb) n k b y0 Hk Hg (M0 k)).
    assert (D2 := ok_psub F kln A mem HA _ _ n k _ _ Hk D1 Hf).
    assert (D3 := ok_mullow F kln A mem HA _ _ n k _ _ Hk D2 IB).
    match type of D3 with PolySpec.encl _ _ _ _ _ ?d => assert (Ed : eqn k d (fsub y0 q)) end.
    { rewrite <- Hq. transitivity (fmul (fmul b i0) (fsub y0 q)); [apply feq_eqn; ring|].
      rewrite Hi0. apply feq_eqn; ring. }
    apply (encl_eqn _ _ _ _ Ed) in D3.
    apply (intersect_ok _ _ _ _ _ q k E Hk Yb).
    intros i Hi. specialize (M0 k i Hi). specialize (D3 i Hi).
    pose proof (ok_sub F kln A mem HA _ _ _ _ M0 D3) as S. unfold fsub in S.
    replace (y0 i - (y0 i - q i))%K with (q i) in S by ring. exact S.
  Qed.

  (** ** Logarithm *)
  Lemma theta_deriv (a : fps F) : feq (theta a) (fmul (zp 1) (fderiv F a)).
  Proof.
    intro i. rewrite (zp_mul F 1 _ i). unfold fshift, theta, fderiv. destruct i as [|i]; cbn [Nat.ltb Nat.leb].
    - cbn [kofnat]. ring.
    - replace (S i - 1) with i by lia. reflexivity.
  Qed.
  Lemma int_deriv (a : fps F) i : fint F (fderiv F a) (S i) = a (S i).
  Proof. unfold fint, fderiv. field. apply kofnat_nz. lia. Qed.

  Lemma log_refine_ok (x : P) n r k (a L : fps F) : poly_log_refine A x n = Ok r ->
    k <= Z.to_nat n -> encl x k a -> is_log F kln k a L -> encl r k L.
  Proof.
    unfold poly_log_refine. intros E Hk Hx [HL0 HL].
    destruct (n <=? 0)%Z eqn:Hn; [intros i Hi; lia|]. apply Z.leb_gt in Hn.
    destruct k as [|k]; [intros i Hi; lia|].
    destruct (b_positive A (at_ A x 0)) eqn:Pos; cbn [slow_assert bind] in E; [|discriminate].
    assert (Ha : a O <> 0%K) by (apply (ok_positive F kln A mem HA (at_ A x 0)); [exact Pos|apply Hx; lia]).
    destruct (poly_div_refine A (p_deriv A x) x (n - 1)) as [y| |] eqn:ED; try discriminate. cbn [bind] in E.
    assert (DX := ok_deriv F kln A mem HA x k a Hx).
    assert (Y : encl y k (fderiv F L)).
    { apply (div_refine_ok _ _ _ _ k (fderiv F a) a (fderiv F L) ED); try assumption; try lia.
      - apply (encl_le x (S k) k); [lia|exact Hx].
      - apply (eqn_zp_cancel F 1 k). rewrite !theta_deriv in HL.
        transitivity (fmul a (fmul (zp 1) (fderiv F L))); [apply feq_eqn; ring|exact HL]. }
    assert (I := ok_int F kln A mem HA y k _ Y).
    assert (R : r = if b_equal1 A (at_ A x 0) then p_int A y else poly_add_arb A (p_int A y) (b_log A (at_ A x 0)))
      by (injection E; auto).
    rewrite R. clear R E. destruct (b_equal1 A (at_ A x 0)) eqn:One.
    - assert (A1 : a O = 1%K) by (apply (ok_equal1 F kln A mem HA (at_ A x 0)); [exact One|apply Hx; lia]).
      intros [|i] Hi; specialize (I _ Hi).
      + rewrite HL0, A1, (ok_ln1 F kln A mem HA). exact I.
      + rewrite int_deriv in I. exact I.
    - assert (LC : mem (b_log A (at_ A x 0)) (L O)).
      { rewrite HL0. apply (ok_log F kln A mem HA); [exact Pos|apply Hx; lia]. }
      intros [|i] Hi; specialize (I _ Hi); unfold at_ in *; destruct (p_int A y) as [|i0 iy]; cbn [poly_add_arb nth] in *.
      + exact LC.
      + pose proof (ok_add F kln A mem HA _ _ _ _ I LC) as S. cbn [fint] in S.
        replace (0 + L O)%K with (L O) in S by ring. exact S.
      + rewrite int_deriv in I. destruct i; exact I.
      + rewrite int_deriv in I. exact I.
  Qed.

  Lemma fC_ofZ1 : feq (fC (kofZ (F:=F) 1)) f1.
  Proof. unfold kofZ. change (Pos.to_nat 1) with 1%nat. rewrite kofnat_1. reflexivity. Qed.
  Global Instance encl_feq f n : Morphisms.Proper (Morphisms.respectful feq iff) (encl f n).
  Proof. intros a b H. split; intros E i Hi; [rewrite <- H|rewrite H]; now apply E. Qed.

  Lemma log1p_refine_ok (x : P) n r k (a L : fps F) : poly_log1p_refine A x n = Ok r ->
    k <= Z.to_nat n -> encl x k a -> is_log F kln k (fadd a f1) L -> encl r k L.
  Proof.
    unfold poly_log1p_refine. intros E Hk Hx HL.
    destruct (n <=? 0)%Z eqn:Hn; [intros i Hi; lia|].
    destruct (b_contains0 A (at_ A x 0)); cbn [slow_assert bind] in E; [|discriminate].
    apply (log_refine_ok _ _ _ k (fadd a f1) L E Hk); [|exact HL].
    rewrite <- fC_ofZ1. now apply (ok_add_si F kln A mem HA).
  Qed.

  (** ** Shifted logarithm *)
  Lemma at_map_seq (h : nat -> ball A) n i : i < n -> at_ A (map h (seq 0 n)) i = h i.
  Proof.
    intro H. unfold at_. rewrite nth_indep with (d' := h 0) by (now rewrite map_length, seq_length).
    rewrite map_nth. f_equal. rewrite seq_nth by exact H. reflexivity.
  Qed.
  Definition scaled (s : nat) (a : fps F) : fps F := fun i => (a i * kofnat (s + i))%K.
  Lemma theta_zp s (a : fps F) : feq (theta (fmul (zp s) a)) (fmul (zp s) (scaled s a)).
  Proof.
    intro i. unfold theta. rewrite (zp_mul F s a i), (zp_mul F s _ i). unfold fshift, scaled.
    destruct (i <? s) eqn:H; [ring|]. apply Nat.ltb_ge in H. replace (s + (i - s)) with i by lia. ring.
  Qed.

  Lemma log1p_shift_refine_ok (x : P) s n r k (a Y : fps F) : poly_log1p_shift_refine A x s n = Ok r ->
    k <= Z.to_nat n -> encl x k a ->
    is_log F kln (Z.to_nat s + k) (fadd f1 (fmul (zp (Z.to_nat s)) a)) (fmul (zp (Z.to_nat s)) Y) ->
    encl r k Y.
  Proof.
    unfold poly_log1p_shift_refine. intros E Hk Hx [_ HL].
    destruct (n <=? 0)%Z eqn:Hn; [intros i Hi; lia|]. apply Z.leb_gt in Hn.
    destruct (1 <=? s)%Z eqn:Hs; cbn [slow_assert bind] in E; [|discriminate]. apply Z.leb_le in Hs.
    set (t := p_add_si A (p_trunc A (p_shl A x s) n) 1) in *.
    set (y := map _ (seq 0 (Z.to_nat n))) in E.
    destruct (poly_div_refine A y t n) as [d| |] eqn:ED; try discriminate. cbn [bind] in E.
    set (sn := Z.to_nat s) in *.
    assert (KZ : forall i : nat, kofZ (F:=F) (s + Z.of_nat i) = kofnat (sn + i)).
    { intro i. replace (s + Z.of_nat i)%Z with (Z.of_nat (sn + i)) by (subst sn; lia). apply kofZ_of_nat. }
    assert (Ey : encl y k (scaled sn a)).
    { intros i Hi. subst y. rewrite at_map_seq by lia. unfold scaled. rewrite <- KZ.
      apply (ok_mul_si F kln A mem HA). now apply Hx. }
    assert (Et : encl t k (fadd f1 (fmul (zp sn) a))).
    { assert (E1 := ok_shl F kln A mem HA x s k a ltac:(lia) Hx). fold sn in E1.
      apply (encl_le _ _ k) in E1; [|lia].
      assert (E2 := ok_trunc F kln A mem HA _ n k _ Hk E1).
      assert (E3 := ok_add_si F kln A mem HA _ 1 k _ E2). fold t in E3.
      assert (Q : feq (fadd f1 (fmul (zp sn) a)) (fadd (fshift sn a) (fC (kofZ 1)))).
      { rewrite fC_ofZ1, zp_mul. ring. }
      rewrite Q. exact E3. }
    assert (D : encl d k (scaled sn Y)).
    { apply (div_refine_ok _ _ _ _ k _ _ (scaled sn Y) ED Hk Ey Et).
      - unfold fadd. rewrite (zp_mul F sn a 0). unfold fshift. replace (0 <? sn) with true by (subst sn; lia).
        cbn [f1 fC]. intro H. apply (k1_nz F). rewrite <- H. ring.
      - apply (eqn_zp_cancel F sn k).
        transitivity (fmul (fadd f1 (fmul (zp sn) a)) (theta (fmul (zp sn) Y))).
        { apply feq_eqn. rewrite theta_zp. ring. }
        rewrite HL. apply feq_eqn. rewrite theta_add, theta_1, theta_zp. ring. }
    assert (R : r = map (fun i => b_div_si A (at_ A d i) (s + Z.of_nat i)) (seq 0 (length d)))
      by (injection E; auto).
    rewrite R. clear R E. intros i Hi. specialize (D i Hi).
    assert (NZ : kofnat (F:=F) (sn + i) <> 0%K) by (apply kofnat_nz; subst sn; lia).
    destruct (lt_dec i (length d)) as [H|H].
    - rewrite at_map_seq by exact H.
      pose proof (ok_div_si F kln A mem HA _ (s + Z.of_nat i) _ ltac:(lia) D) as S.
      rewrite KZ in S. unfold scaled in S.
      replace (Y i * kofnat (sn + i) / kofnat (sn + i))%K with (Y i) in S by (field; exact NZ). exact S.
    - rewrite at_out by (rewrite map_length, seq_length; lia).
      rewrite at_out in D by lia. apply (ok_zero F kln A mem HA) in D. apply (ok_zero F kln A mem HA).
      unfold scaled in D. apply (kdiv_eq F (kofnat (sn + i))); [exact NZ|].
      transitivity (Y i * kofnat (sn + i))%K; [ring|]. rewrite D. ring.
  Qed.

  (** ** Exponential: the last step encloses the truth if some member of the starting enclosure is a
      mean of the derivative between the midpoint and the truth. *)
  Lemma exp_refine_mean (x : P) n r k (a E y0 L w : fps F) : poly_exp_refine A x n = Ok r ->
    k <= Z.to_nat n -> encl x k a -> encl (p_exp A x n) k E ->
    encl (poly_mid A (p_exp A x n)) k y0 -> is_log F kln k y0 L ->
    encl (p_exp A x n) k w -> eqn k (fmul w (fsub L a)) (fsub y0 E) -> encl r k E.
  Proof.
    unfold poly_exp_refine. intros Er Hk Hx HE H0 HL Hw Hm.
    destruct (n <=? 0)%Z eqn:Hn; [intros i Hi; lia|].
    destruct (poly_log_refine A _ n) as [dy| |] eqn:EL; try discriminate. cbn [bind] in Er.
    assert (D1 := log_refine_ok _ _ _ k y0 L EL Hk H0 HL).
    assert (D2 := ok_psub F kln A mem HA _ _ n k _ _ Hk D1 Hx).
    assert (D3 := ok_mullow F kln A mem HA _ _ n k _ _ Hk Hw D2).
    apply (encl_eqn _ _ _ _ Hm) in D3.
    apply (intersect_ok _ _ _ _ _ E k Er Hk HE).
    intros i Hi. specialize (H0 i Hi). specialize (D3 i Hi).
    pose proof (ok_sub F kln A mem HA _ _ _ _ H0 D3) as S. unfold fsub in S.
    replace (y0 i - (y0 i - E i))%K with (E i) in S by ring. exact S.
  Qed.
End Proofs.
