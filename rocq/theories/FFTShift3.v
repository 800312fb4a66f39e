(** The inverse shifted real FFT (fft.cc:375-416). *)
From Coq Require Import ZArith Arith ArithRing List Bool Lia Ring.
From Verif Require Import Base SeriesModel SeriesProofs NewtonProofs FFTModel FFTLoop FFTMath FFTTwiddle FFTPerm FFTSpec FFTProofs FFTReal FFTShift FFTShift2.
Import ListNotations.
Open Scope nat_scope.

Section S.
Variable o : ops.
Hypothesis Hok : ops_ok o.
Notation A := (FFTModel.A o).
Notation C := (FFTModel.A o * FFTModel.A o)%type.
Add Ring AringS3 : (ok_ring o Hok).
Add Ring CringS3 : (C_ring o Hok).
Notation cadd := (FFTModel.cadd o). Notation csub := (FFTModel.csub o). Notation cmul := (FFTModel.cmul o).
Notation conj := (FFTModel.conj o). Notation c0 := (FFTModel.c0 o). Notation c1 := (FFTMath.c1 o). Notation copp := (FFTMath.copp o).
Notation ci := (FFTMath.ci o). Notation w8 := (FFTMath.w8 o).
Notation root := (FFTModel.root o). Notation csum := (FFTMath.csum o).
Notation sst := (FFTShift.sst o). Notation lev := (FFTShift.lev o). Notation tws := (FFTShift.tws o).
Notation at_ := (fun (y : list C) i => nth i y c0).
Notation za := (z0 o).
Notation dotc := (FFTModel.dotc o).
Ltac cr := unfold FFTModel.cadd, FFTModel.csub, FFTModel.cmul, FFTModel.conj, FFTModel.c0, FFTMath.c1, FFTMath.copp, FFTMath.ci,
  FFTModel.left, FFTModel.right in *; cbn [fst snd] in *; apply f_equal2; ring.

(** ** Transposes *)
Definition dp (a b : C) : A := add o (mul o (fst a) (fst b)) (mul o (snd a) (snd b)).
Lemma dotc_cons : forall a v b u, dotc (a :: v) (b :: u) = add o (dp a b) (dotc v u). Proof. reflexivity. Qed.
Lemma dotc_nil : forall u, dotc [] u = za. Proof. reflexivity. Qed.
Lemma dotc_unit : forall (e : C) n t i G, length G = n ->
  dotc (map (fun k => if k =? i then e else c0) (seq t n)) G = if (t <=? i) && (i <? t + n) then dp e (nth (i - t) G c0) else za.
Proof.
  intros e n. induction n as [|n IH]; intros t i G HG.
  - cbn [seq map]. rewrite dotc_nil. destruct (Nat.leb_spec t i), (Nat.ltb_spec i (t + 0)); try lia; reflexivity.
  - destruct G as [|g G]; [discriminate HG|]. cbn [seq map]. rewrite dotc_cons. rewrite IH by (cbn [length] in HG; lia).
    destruct (Nat.eqb_spec t i) as [->|N].
    + rewrite Nat.leb_refl, Nat.sub_diag. destruct (Nat.leb_spec (S i) i); [lia|]. destruct (Nat.ltb_spec i (i + S n)); [|lia]. cbn [andb nth]. ring.
    + destruct (Nat.leb_spec (S t) i), (Nat.leb_spec t i), (Nat.ltb_spec i (S t + n)), (Nat.ltb_spec i (t + S n)); try lia; cbn [andb];
        unfold dp, FFTModel.c0; cbn [fst snd]; try ring.
      replace (i - t) with (S (i - S t)) by lia. cbn [nth]. ring.
Qed.
Lemma nth_self : forall (Y : Type) (d : Y) G n, length G = n -> map (fun i => nth i G d) (seq 0 n) = G.
Proof.
  intros Y d G. induction G as [|g G IH]; intros n H; subst n; [reflexivity|]. cbn [length seq map nth]. f_equal. rewrite <- seq_shift, map_map. apply IH. reflexivity.
Qed.
Lemma transpose_c_ok : forall n f F G u, (forall v, length v = n -> f v = Ok (F v)) ->
  (forall v, length v = n -> dotc (F v) u = dotc v G) -> length G = n -> transpose_c o n f u = Ok G.
Proof.
  intros n f F G u Hf HA HG. unfold transpose_c.
  assert (LU : forall Y (a b : Y) i, length (unit_at a b n i) = n) by (intros; unfold unit_at; rewrite map_length, seq_length; reflexivity).
  rewrite (mapr_ok _ _ _ (fun i => nth i G c0)).
  - rewrite nth_self by exact HG. reflexivity.
  - intros i Hi. apply in_seq in Hi. rewrite !Hf by apply LU. cbn [bind]. rewrite !HA by apply LU. unfold unit_at. rewrite !dotc_unit by exact HG.
    destruct (Nat.leb_spec 0 i), (Nat.ltb_spec i (0 + n)); try lia. cbn [andb]. rewrite Nat.sub_0_r. unfold dp. cbn [fst snd].
    f_equal. generalize (nth i G c0). intros [g h]. cbn [fst snd]. apply f_equal2; ring.
Qed.
Fixpoint dotr (v u : list A) : A := match v, u with a :: v', b :: u' => add o (mul o a b) (dotr v' u') | _, _ => za end.
Lemma dotr_unit : forall n t i G, length G = n ->
  dotr (map (fun k => if k =? i then z1 o else za) (seq t n)) G = if (t <=? i) && (i <? t + n) then nth (i - t) G za else za.
Proof.
  intros n. induction n as [|n IH]; intros t i G HG.
  - cbn [seq map dotr]. destruct (Nat.leb_spec t i), (Nat.ltb_spec i (t + 0)); try lia; reflexivity.
  - destruct G as [|g G]; [discriminate HG|]. cbn [seq map dotr]. rewrite IH by (cbn [length] in HG; lia).
    destruct (Nat.eqb_spec t i) as [->|N].
    + rewrite Nat.leb_refl, Nat.sub_diag. destruct (Nat.leb_spec (S i) i); [lia|]. destruct (Nat.ltb_spec i (i + S n)); [|lia]. cbn [andb nth]. ring.
    + destruct (Nat.leb_spec (S t) i), (Nat.leb_spec t i), (Nat.ltb_spec i (S t + n)), (Nat.ltb_spec i (t + S n)); try lia; cbn [andb]; try ring.
      replace (i - t) with (S (i - S t)) by lia. cbn [nth]. ring.
Qed.
Lemma transpose_r_ok : forall n f F G u, (forall v, length v = n -> f v = Ok (F v)) ->
  (forall v, length v = n -> dotc (F v) u = dotr v G) -> length G = n -> transpose_r o n f u = Ok G.
Proof.
  intros n f F G u Hf HA HG. unfold transpose_r.
  assert (LU : forall Y (a b : Y) i, length (unit_at a b n i) = n) by (intros; unfold unit_at; rewrite map_length, seq_length; reflexivity).
  rewrite (mapr_ok _ _ _ (fun i => nth i G za)).
  - rewrite nth_self by exact HG. reflexivity.
  - intros i Hi. apply in_seq in Hi. rewrite !Hf by apply LU. cbn [bind]. rewrite !HA by apply LU. unfold unit_at. rewrite !dotr_unit by exact HG.
    destruct (Nat.leb_spec 0 i), (Nat.ltb_spec i (0 + n)); try lia. cbn [andb]. rewrite Nat.sub_0_r. reflexivity.
Qed.

(** ** The transposed levels *)
Definition ivl (w u0 u1 : C) : C * C := (cadd u0 (conj (cmul w u1)), csub u0 (conj (cmul w u1))).
Lemma ivl_adj : forall w a b u0 u1, add o (dp (fst (lev w a b)) u0) (dp (snd (lev w a b)) u1) = add o (dp a (fst (ivl w u0 u1))) (dp b (snd (ivl w u0 u1))).
Proof.
  intros [] [] [] [] []. unfold dp, FFTShift.lev, ivl, FFTModel.cadd, FFTModel.csub, FFTModel.conj, FFTModel.cmul. cbn [fst snd]. ring.
Qed.
Lemma ivl_lev : forall w a b, cmul w (conj w) = c1 -> ivl w (fst (lev w a b)) (snd (lev w a b)) = (cadd a a, cadd b b).
Proof.
  intros w a b H. unfold ivl, FFTShift.lev. cbn [fst snd]. rewrite (conj_mul o Hok w (conj _)), (conj_conj o Hok). set (c := conj w) in *. clearbody c.
  apply f_equal2; ring [H].
Qed.
Definition GL (r s j : nat) (u : list C) : list C :=
  let U := root (S s) (Z.of_nat j) in let V := tws (S s) s j in let W := tws (S (S s)) s j in
  match r, u with
  | 1, [u0; u1] => let a := ivl U u0 u1 in [fst a; snd a]
  | 2, [u0; u1; u2; u3] =>
      let f := ivl U u0 u1 in let g := ivl U u2 u3 in
      let a := ivl (V 0) (fst f) (fst g) in let b := ivl (V 1) (snd f) (snd g) in
      [fst a; fst b; snd a; snd b]
  | 3, [u0; u1; u2; u3; u4; u5; u6; u7] =>
      let f := ivl U u0 u1 in let g := ivl U u2 u3 in let h := ivl U u4 u5 in let k := ivl U u6 u7 in
      let a := ivl (V 0) (fst f) (fst g) in let b := ivl (V 1) (snd f) (snd g) in
      let c := ivl (V 0) (fst h) (fst k) in let d := ivl (V 1) (snd h) (snd k) in
      let p := ivl (W 0) (fst a) (fst c) in let q := ivl (W 1) (fst b) (fst d) in
      let m := ivl (W 2) (snd a) (snd c) in let n := ivl (W 3) (snd b) (snd d) in
      [fst p; fst q; fst m; fst n; snd p; snd q; snd m; snd n]
  | _, _ => []
  end.
Ltac len8 r v Hv :=
  match r with
  | 1 => destruct v as [|?a [|?a [|? v]]]; try discriminate Hv
  | 2 => destruct v as [|?a [|?a [|?a [|?a [|? v]]]]]; try discriminate Hv
  | 3 => destruct v as [|?a [|?a [|?a [|?a [|?a [|?a [|?a [|?a [|? v]]]]]]]]]; try discriminate Hv
  end.
Lemma GL_len : forall r s j u, 1 <= r <= 3 -> length u = 2 ^ r -> length (GL r s j u) = 2 ^ r.
Proof.
  intros r s j u Hr Hu. assert (r = 1 \/ r = 2 \/ r = 3) as [->|[->| ->]] by lia.
  - change (2 ^ 1) with 2 in *. len8 1 u Hu. reflexivity.
  - change (2 ^ 2) with 4 in *. len8 2 u Hu. reflexivity.
  - change (2 ^ 3) with 8 in *. len8 3 u Hu. reflexivity.
Qed.
Lemma swap_sum : forall a b c d : A, add o a (add o b (add o c (add o d za))) = add o (add o a c) (add o b d). Proof. intros. ring. Qed.
Lemma GL_adj : forall r s j v u, 1 <= r <= 3 -> length v = 2 ^ r -> length u = 2 ^ r -> dotc (FL o r s j v) u = dotc v (GL r s j u).
Proof.
  intros r s j v u Hr Hv Hu. assert (r = 1 \/ r = 2 \/ r = 3) as [->|[->| ->]] by lia.
  - change (2 ^ 1) with 2 in *. len8 1 v Hv. len8 1 u Hu. cbn [FL GL]. unfold F1. set (U := root (S s) (Z.of_nat j)). rewrite !dotc_cons, !dotc_nil.
    pose proof (ivl_adj U a a0 a1 a2) as H.
    set (x := dp (fst (lev U a a0)) a1) in *. set (y := dp (snd (lev U a a0)) a2) in *. 
    transitivity (add o x y); [ring|]. rewrite H. ring.
  - change (2 ^ 2) with 4 in *. len8 2 v Hv. len8 2 u Hu. cbn [FL GL]. unfold F2, F1. cbn [app].
    set (U := root (S s) (Z.of_nat j)). set (V0 := tws (S s) s j 0). set (V1 := tws (S s) s j 1). cbv zeta.
    rewrite !dotc_cons, !dotc_nil.
    set (p0 := lev V0 a a1) in *. set (p1 := lev V1 a0 a2) in *.
    pose proof (ivl_adj U (fst p0) (fst p1) a3 a4) as H1. pose proof (ivl_adj U (snd p0) (snd p1) a5 a6) as H2.
    set (f := ivl U a3 a4) in *. set (g := ivl U a5 a6) in *.
    pose proof (ivl_adj V0 a a1 (fst f) (fst g)) as H3. pose proof (ivl_adj V1 a0 a2 (snd f) (snd g)) as H4. fold p0 in H3. fold p1 in H4.
    set (k := ivl V0 (fst f) (fst g)) in *. set (l := ivl V1 (snd f) (snd g)) in *.
    transitivity (add o (add o (dp (fst p0) (fst f)) (dp (snd p0) (fst g))) (add o (dp (fst p1) (snd f)) (dp (snd p1) (snd g)))).
    + transitivity (add o (add o (dp (fst (lev U (fst p0) (fst p1))) a3) (dp (snd (lev U (fst p0) (fst p1))) a4)) (add o (dp (fst (lev U (snd p0) (snd p1))) a5) (dp (snd (lev U (snd p0) (snd p1))) a6))); [ring|].
      rewrite H1, H2. ring.
    + rewrite H3, H4. ring.
  - change (2 ^ 3) with 8 in *. len8 3 v Hv. len8 3 u Hu. cbn [FL GL]. unfold F3, F2, F1. cbn [app].
    set (U := root (S s) (Z.of_nat j)). set (V0 := tws (S s) s j 0). set (V1 := tws (S s) s j 1).
    set (W0 := tws (S (S s)) s j 0). set (W1 := tws (S (S s)) s j 1). set (W2 := tws (S (S s)) s j 2). set (W3 := tws (S (S s)) s j 3). cbv zeta.
    rewrite !dotc_cons, !dotc_nil.
    set (p0 := lev W0 a a3) in *. set (p1 := lev W1 a0 a4) in *. set (p2 := lev W2 a1 a5) in *. set (p3 := lev W3 a2 a6) in *.
    set (q0 := lev V0 (fst p0) (fst p2)) in *. set (q1 := lev V1 (fst p1) (fst p3)) in *. set (q2 := lev V0 (snd p0) (snd p2)) in *. set (q3 := lev V1 (snd p1) (snd p3)) in *.
    pose proof (ivl_adj U (fst q0) (fst q1) a7 a8) as H1. pose proof (ivl_adj U (snd q0) (snd q1) a9 a10) as H2.
    pose proof (ivl_adj U (fst q2) (fst q3) a11 a12) as H3. pose proof (ivl_adj U (snd q2) (snd q3) a13 a14) as H4.
    set (f := ivl U a7 a8) in *. set (g := ivl U a9 a10) in *. set (h := ivl U a11 a12) in *. set (k := ivl U a13 a14) in *.
    pose proof (ivl_adj V0 (fst p0) (fst p2) (fst f) (fst g)) as H5. pose proof (ivl_adj V1 (fst p1) (fst p3) (snd f) (snd g)) as H6.
    pose proof (ivl_adj V0 (snd p0) (snd p2) (fst h) (fst k)) as H7. pose proof (ivl_adj V1 (snd p1) (snd p3) (snd h) (snd k)) as H8.
    fold q0 in H5. fold q1 in H6. fold q2 in H7. fold q3 in H8.
    set (aa := ivl V0 (fst f) (fst g)) in *. set (bb := ivl V1 (snd f) (snd g)) in *. set (cc := ivl V0 (fst h) (fst k)) in *. set (dd := ivl V1 (snd h) (snd k)) in *.
    pose proof (ivl_adj W0 a a3 (fst aa) (fst cc)) as H9. pose proof (ivl_adj W1 a0 a4 (fst bb) (fst dd)) as H10.
    pose proof (ivl_adj W2 a1 a5 (snd aa) (snd cc)) as H11. pose proof (ivl_adj W3 a2 a6 (snd bb) (snd dd)) as H12.
    fold p0 in H9. fold p1 in H10. fold p2 in H11. fold p3 in H12.
    match goal with |- ?L = ?R => transitivity (add o (add o (add o (dp (fst q0) (fst f)) (dp (fst q1) (snd f))) (add o (dp (snd q0) (fst g)) (dp (snd q1) (snd g))))
       (add o (add o (dp (fst q2) (fst h)) (dp (fst q3) (snd h))) (add o (dp (snd q2) (fst k)) (dp (snd q3) (snd k))))) end.
    { rewrite <- H1, <- H2, <- H3, <- H4. ring. }
    match goal with |- ?L = ?R => transitivity (add o (add o (add o (dp (fst q0) (fst f)) (dp (snd q0) (fst g))) (add o (dp (fst q1) (snd f)) (dp (snd q1) (snd g))))
       (add o (add o (dp (fst q2) (fst h)) (dp (snd q2) (fst k))) (add o (dp (fst q3) (snd h)) (dp (snd q3) (snd k))))) end; [ring|].
    rewrite H5, H6, H7, H8.
    match goal with |- ?L = ?R => transitivity (add o (add o (add o (dp (fst p0) (fst aa)) (dp (snd p0) (fst cc))) (add o (dp (fst p1) (fst bb)) (dp (snd p1) (fst dd))))
       (add o (add o (dp (fst p2) (snd aa)) (dp (snd p2) (snd cc))) (add o (dp (fst p3) (snd bb)) (dp (snd p3) (snd dd))))) end; [ring|].
    rewrite H9, H10, H11, H12. ring.
Qed.

(** ** A transposed pass undoes a pass up to the factor 2^r *)
Definition dblc (z : C) : C := cadd z z.
Fixpoint iterc (r : nat) (z : C) : C := match r with O => z | S k => iterc k (dblc z) end.
Lemma lev_dbl : forall w a b, lev w (dblc a) (dblc b) = (dblc (fst (lev w a b)), dblc (snd (lev w a b))).
Proof. intros w a b. unfold FFTShift.lev, dblc. cbn [fst snd]. apply f_equal2; [ring|]. rewrite <- (conj_add o Hok). f_equal. ring. Qed.
Lemma ivl_dbl : forall w a b, ivl w (dblc a) (dblc b) = (dblc (fst (ivl w a b)), dblc (snd (ivl w a b))).
Proof.
  intros w a b. unfold ivl, dblc. cbn [fst snd]. replace (cmul w (cadd b b)) with (cadd (cmul w b) (cmul w b)) by ring. rewrite (conj_add o Hok).
  apply f_equal2; ring.
Qed.
Lemma ivl_lev2 : forall s i a b, ivl (root s i) (fst (lev (root s i) a b)) (snd (lev (root s i) a b)) = (dblc a, dblc b).
Proof. intros. apply ivl_lev. apply (rt_unit o Hok). Qed.
Lemma GL_FL : forall r s j v, 1 <= r <= 3 -> length v = 2 ^ r -> GL r s j (FL o r s j v) = map (iterc r) v.
Proof.
  intros r s j v Hr Hv. assert (r = 1 \/ r = 2 \/ r = 3) as [->|[->| ->]] by lia.
  - change (2 ^ 1) with 2 in *. len8 1 v Hv. cbn [FL]. unfold F1. cbn [GL]. rewrite ivl_lev2. reflexivity.
  - change (2 ^ 2) with 4 in *. len8 2 v Hv. cbn [FL]. unfold F2, F1. cbn [app GL]. rewrite !ivl_lev2. cbn [fst snd]. rewrite !ivl_dbl.
    unfold FFTShift.tws. rewrite !ivl_lev2. reflexivity.
  - change (2 ^ 3) with 8 in *. len8 3 v Hv. cbn [FL]. unfold F3, F2, F1. cbn [app GL]. unfold FFTShift.tws.
    repeat (progress (rewrite ?ivl_lev2, ?ivl_dbl; cbn [fst snd])). reflexivity.
Qed.
(** Doubling the input doubles the stages. *)
Definition xdbl (x : list A) : list A := map (fun a => add o a a) x.
Lemma nth_xdbl : forall x i, nth i (xdbl x) za = add o (nth i x za) (nth i x za).
Proof.
  intros x i. unfold xdbl. replace za with (add o za za) at 1 by ring. rewrite (map_nth (fun a => add o a a)). reflexivity.
Qed.
Lemma sst_dbl : forall p x u b r, sst p (xdbl x) u b r = dblc (sst p x u b r).
Proof.
  intros. unfold dblc, FFTShift.sst. rewrite <- (csum_add o Hok). apply csum_ext. intros c _. unfold realc. rewrite nth_xdbl.
  set (w := root _ _). clearbody w. destruct w. cr.
Qed.
Fixpoint xiter (k : nat) (x : list A) : list A := match k with O => x | S m => xdbl (xiter m x) end.
Lemma xiter_comm : forall k x, xiter k (xdbl x) = xdbl (xiter k x).
Proof. induction k as [|k IH]; intros x; [reflexivity|]. cbn [xiter]. rewrite IH. reflexivity. Qed.
Lemma xiter_add : forall a b x, xiter a (xiter b x) = xiter (a + b) x.
Proof. induction a as [|a IH]; intros b x; [reflexivity|]. cbn [xiter Nat.add]. rewrite IH. reflexivity. Qed.
Lemma sst_iter : forall r p x u b j, iterc r (sst p x u b j) = sst p (xiter r x) u b j.
Proof.
  induction r as [|r IH]; intros p x u b j; [reflexivity|]. cbn [iterc xiter]. rewrite <- sst_dbl, IH, xiter_comm. reflexivity.
Qed.
Lemma nth_xiter : forall k x i, nth i (xiter k x) za = times2 o k (nth i x za).
Proof. induction k as [|k IH]; intros x i; [reflexivity|]. cbn [xiter times2]. rewrite nth_xdbl, IH. reflexivity. Qed.
Lemma xiter_len : forall k x, length (xiter k x) = length x.
Proof. induction k as [|k IH]; intros x; [reflexivity|]. cbn [xiter]. unfold xdbl. rewrite map_length. apply IH. Qed.

Variable ord : Z -> list nat.
Hypothesis Hord : sched_ok ord.
Lemma isrfft_pass : forall r p x u s tw y, 1 <= r <= 3 -> 1 <= u -> p = u + (s + r) -> p <= 31 ->
  (forall i, tw i = Ok (root (s + r) i)) -> length y = 2 ^ (p - 1) -> at_sst o p x y (u + r) ->
  exists y', def_loop ord (2 ^ (p - 1 - r)) (isrfft_s o r tw s) y = Ok y' /\ length y' = 2 ^ (p - 1) /\ at_sst o p (xiter r x) y' u.
Proof.
  intros r p x u s tw y Hr Hu Hp Hp30 Ht Hy HS.
  destruct (radix_pass c0 ord (p - 1) r s (isrfft_s o r tw s) (fun j v => transpose_c o (2 ^ r) (bfly_s o r tw (Z.of_nat j)) v) (GL r s)) with (y := y) as (y' & E & L & V); auto; try lia.
  - intros jk z. unfold isrfft_s. rewrite land_ones_mod. reflexivity.
  - intros j v Hj Hv. split; [|apply GL_len; assumption]. apply transpose_c_ok with (F := FL o r s j).
    + intros w Hw. apply (bfly_FL o Hok); assumption.
    + intros w Hw. apply GL_adj; assumption.
    + apply GL_len; assumption.
  - exists y'. split; [exact E|]. split; [exact L|]. intros c r0 Hc Hr0.
    assert (Hps : p - u = s + r) by lia. rewrite Hps in *. rewrite Nat.pow_add_r in *.
    pose proof (pow2_pos s) as Hs.
    pose (j := r0 mod 2 ^ s). pose (i := r0 / 2 ^ s).
    assert (Hj : j < 2 ^ s) by (apply Nat.mod_upper_bound; lia).
    assert (Hi : i < 2 ^ r) by (apply Nat.div_lt_upper_bound; lia).
    assert (Er : r0 = i * 2 ^ s + j) by (unfold i, j; rewrite Nat.mul_comm; apply Nat.div_mod; lia).
    specialize (V c j Hj). replace (p - 1 - r - s) with (u - 1) in V by lia. specialize (V Hc).
    assert (In_ : map (at_ y) (block_idx r s c j) = outs o p x (u + r) c j (2 ^ r)).
    { unfold block_idx, outs. rewrite map_map. apply map_ext_in. intros k Hk. apply in_seq in Hk. rewrite <- HS.
      - replace (p - (u + r)) with s by lia. reflexivity.
      - replace (u + r - 1) with (r + (u - 1)) by lia. rewrite Nat.pow_add_r. nia.
      - replace (p - (u + r)) with s by lia. exact Hj. }
    rewrite In_ in V. rewrite <- (FL_cells o Hok r p x u c s j) in V by assumption.
    rewrite GL_FL in V by (try assumption; unfold cells; rewrite map_length, seq_length; reflexivity).
    assert (Vi : nth i (map (at_ y') (block_idx r s c j)) c0 = nth i (map (iterc r) (cells o p x u c s j (2 ^ r))) c0) by (rewrite V; reflexivity).
    unfold block_idx, cells in Vi. rewrite !map_map in Vi. rewrite !(nth_map_lt c0) in Vi by (rewrite seq_length; exact Hi).
    rewrite !seq_nth in Vi by exact Hi. cbn [Nat.add] in Vi. rewrite sst_iter in Vi. rewrite <- Er in Vi. rewrite <- Vi. f_equal. rewrite Er. ring.
Qed.
(** fft.cc:386-390 *)
Lemma inv_passes_ok : forall p x fuel s y, p <= 29 -> s <= p - 3 -> p - 3 - s <= fuel -> (s = 0 \/ (p - s) mod 3 = 0) ->
  length y = 2 ^ (p - 1) -> 1 <= p -> at_sst o p x y (p - s) ->
  exists y', inv_passes o ord fuel (2 ^ p) p s y = Ok y' /\ length y' = 2 ^ (p - 1) /\ at_sst o p (xiter (p - 3 - s) x) y' (p - (p - 3)).
Proof.
  intros p x fuel. revert x. induction fuel as [|f IH]; intros x s y Hp Hs Hf Hm Hy Hp1 HS.
  - cbn [inv_passes]. destruct (Nat.ltb_spec s (p - 3)); [lia|]. replace (p - 3 - s) with 0 by lia. cbn [xiter]. exists y.
    replace (p - (p - 3)) with (p - s) by lia. auto.
  - cbn [inv_passes]. destruct (Nat.ltb_spec s (p - 3)) as [Hlt|Hge].
    2:{ replace (p - 3 - s) with 0 by lia. cbn [xiter]. exists y. replace (p - (p - 3)) with (p - s) by lia. auto. }
    assert (M3 : forall k, 3 <= k -> (k - 3) mod 3 = k mod 3).
    { intros k Hk. replace k with (k - 3 + 1 * 3) at 2 by lia. rewrite Nat.mod_add by lia. reflexivity. }
    assert (Step : forall r tw, 1 <= r <= 3 -> s + r <= p - 3 -> (forall i, tw i = Ok (root (s + r) i)) -> (p - (s + r)) mod 3 = 0 ->
      exists y', (y1 <- def_loop ord (2 ^ (p - 1 - r)) (isrfft_s o r tw s) y ;; inv_passes o ord f (2 ^ p) p (s + r) y1) = Ok y' /\ length y' = 2 ^ (p - 1) /\
        at_sst o p (xiter (p - 3 - s) x) y' (p - (p - 3))).
    { intros r tw Hr Hrs Ht Hmod. destruct (isrfft_pass r p x (p - s - r) s tw y) as (y1 & E & L & V); auto; try lia.
      { replace (p - s - r + r) with (p - s) by lia. exact HS. }
      rewrite E. cbn [bind]. destruct (IH (xiter r x) (s + r) y1) as (y2 & E2 & L2 & V2); auto; try lia.
      { replace (p - (s + r)) with (p - s - r) by lia. exact V. }
      exists y2. split; [exact E2|]. split; [exact L2|]. rewrite xiter_add in V2. replace (p - 3 - (s + r) + r) with (p - 3 - s) in V2 by lia. exact V2. }
    pose proof (Nat.mod_upper_bound p 3 ltac:(lia)) as Hp3.
    destruct (Nat.eqb_spec s 0) as [->|Ns]; cbn [andb].
    + destruct (Nat.eqb_spec (p mod 3) 1) as [E1|N1]; [|destruct (Nat.eqb_spec (p mod 3) 2) as [E2|N2]].
      * change 4 with (2 ^ 2) at 1. rewrite npow_div by lia. replace (2 ^ (p - 2)) with (2 ^ (p - 1 - 1)) by (f_equal; lia). apply (Step 1 (slice o 0)).
        -- lia.
        -- lia.
        -- intros i. apply (slice_ok o Hok).
        -- cbn [Nat.add]. pose proof (Nat.div_mod p 3 ltac:(lia)) as D. rewrite E1 in D. replace (p - 1) with (p / 3 * 3) by lia. apply Nat.mod_mul. lia.
      * change 8 with (2 ^ 3) at 1. rewrite npow_div by lia. replace (2 ^ (p - 3)) with (2 ^ (p - 1 - 2)) by (f_equal; lia).
        assert (p <> 4) by (intros ->; discriminate E2).
        apply (Step 2 (slice o 1)).
        -- lia.
        -- lia.
        -- intros i. apply (slice_ok o Hok).
        -- cbn [Nat.add]. pose proof (Nat.div_mod p 3 ltac:(lia)) as D. rewrite E2 in D. replace (p - 2) with (p / 3 * 3) by lia. apply Nat.mod_mul. lia.
      * change 16 with (2 ^ 4) at 1. rewrite npow_div by lia. replace (2 ^ (p - 4)) with (2 ^ (p - 1 - 3)) by (f_equal; lia).
        assert (Z3 : p mod 3 = 0) by lia. pose proof (Nat.div_mod p 3 ltac:(lia)) as D. apply (Step 3 (slice o (0 + 2))).
        -- lia.
        -- lia.
        -- intros i. apply (slice_ok o Hok).
        -- cbn [Nat.add]. rewrite M3 by lia. exact Z3.
    + change 16 with (2 ^ 4) at 1. rewrite npow_div by lia. replace (2 ^ (p - 4)) with (2 ^ (p - 1 - 3)) by (f_equal; lia).
      destruct Hm as [?|Hm]; [lia|]. pose proof (Nat.div_mod (p - s) 3 ltac:(lia)) as D. rewrite Hm in D.
      apply (Step 3 (slice o (s + 2))).
      * lia.
      * lia.
      * intros i. rewrite (slice_ok o Hok). do 2 f_equal. lia.
      * replace (p - (s + 3)) with (p - s - 3) by lia. rewrite M3 by lia. exact Hm.
Qed.
End S.
