(** Correctness of the primitive series operations. *)
From Coq Require Import ZArith List Bool Lia Setoid Morphisms Ring Field.
From Verif Require Import Base Field FPS SeriesModel SeriesSpec.
From Coq Require Import ZifyBool ZifyNat.
Ltac Zify.zify_post_hook ::= Z.div_mod_to_equations.
Import ListNotations.
Open Scope Z_scope.

Ltac rsplit := repeat match goal with |- _ /\ _ => split end; try (match goal with |- _ = _ => reflexivity end).

Lemma to_u32_id : forall z, 0 <= z < 2 ^ 31 -> to_u32 z = z.
Proof. intros z H. unfold to_u32. rewrite Z.mod_small; lia. Qed.
Lemma to_u32_negz : forall z, - 2 ^ 31 <= z < 0 -> to_u32 z = z + 2 ^ 32.
Proof. intros z H. unfold to_u32. symmetry. apply Z.mod_unique with (q := -1); lia. Qed.
Lemma to_i32_id : forall z, - 2 ^ 31 <= z < 2 ^ 31 -> to_i32 z = z.
Proof.
  intros z H. unfold to_i32. destruct (Z_lt_ge_dec z 0).
  - replace (z mod 2 ^ 32) with (z + 2 ^ 32) by (apply Z.mod_unique with (q := -1); lia).
    destruct (Z.ltb_spec (z + 2 ^ 32) (2 ^ 31)); lia.
  - rewrite Z.mod_small by lia. destruct (Z.ltb_spec z (2 ^ 31)); lia.
Qed.

Lemma slow_assert_true : forall b, b = true -> slow_assert b = Ok tt.
Proof. intros b ->. reflexivity. Qed.

Section Proofs.
Variable F : Fld.
Notation KK := (K F).
Notation ser := (series F).
Add Field KFieldSP : (kfield F).
Add Ring fps_ringSP : (fps_ring_theory F) (setoid (feq_Equiv F) (fps_ring_ext F)).

(** ** Buffers *)
Lemma write_cells_ok : forall (vs : list KK) c, (length vs <= length c)%nat ->
  exists r, write_cells F vs c = Ok r /\ length r = length c /\
    (forall j, (j < length vs)%nat -> nth_error r j = Some (Some (nth j vs k0))) /\
    (forall j, (length vs <= j)%nat -> nth_error r j = nth_error c j).
Proof.
  induction vs as [|v vs IH]; intros c Hl; cbn [write_cells length] in *.
  - exists c. rsplit; auto. intros j Hj. lia.
  - destruct c as [|o c]; cbn [length] in Hl; [lia|].
    destruct (IH c ltac:(lia)) as (r & Hr & Hlen & Hlo & Hhi).
    rewrite Hr. cbn [bind]. exists (Some v :: r). cbn [length].
    split; [reflexivity|]. split; [lia|]. split.
    + intros j Hj. destruct j; cbn [nth_error nth]; auto. apply Hlo. lia.
    + intros j Hj. destruct j; [lia|]. cbn [nth_error]. apply Hhi. lia.
Qed.

Lemma read_cells_ok : forall n (c : list (option KK)),
  (forall j, (j < n)%nat -> exists v, nth_error c j = Some (Some v)) ->
  exists vs, read_cells F n c = Ok vs /\ length vs = n /\
    forall j, (j < n)%nat -> nth_error c j = Some (Some (nth j vs k0)).
Proof.
  induction n as [|n IH]; intros c H; cbn [read_cells].
  - exists []. rsplit. intros j Hj. lia.
  - destruct c as [|o c].
    + destruct (H 0%nat ltac:(lia)) as (v & Hv). discriminate.
    + destruct (H 0%nat ltac:(lia)) as (v & Hv). cbn [nth_error] in Hv. injection Hv as ->.
      destruct (IH c) as (vs & Hvs & Hlen & Hn).
      { intros j Hj. apply (H (S j)). lia. }
      rewrite Hvs. cbn [bind]. exists (v :: vs). cbn [length]. rsplit; [lia|].
      intros j Hj. destruct j; cbn [nth_error nth]; auto. apply Hn. lia.
Qed.

Lemma loop_cells_ok : forall n i0 body (g : nat -> KK) y, (n <= length y)%nat ->
  (forall j, (j < n)%nat -> body (i0 + Z.of_nat j) (nth j y None) = Ok (g j)) ->
  exists r, loop_cells F n i0 body y = Ok r /\ length r = length y /\
    (forall j, (j < n)%nat -> nth_error r j = Some (Some (g j))) /\
    (forall j, (n <= j)%nat -> nth_error r j = nth_error y j).
Proof.
  induction n as [|n IH]; intros i0 body g y Hl Hb; cbn [loop_cells].
  - exists y. rsplit; auto. intros j Hj. lia.
  - destruct y as [|c y]; cbn [length] in Hl; [lia|].
    pose proof (Hb 0%nat ltac:(lia)) as H0. cbn [nth] in H0.
    replace (i0 + Z.of_nat 0) with i0 in H0 by lia. rewrite H0. cbn [bind].
    destruct (IH (i0 + 1) body (fun j => g (S j)) y ltac:(lia)) as (r & Hr & Hlen & Hlo & Hhi).
    { intros j Hj. specialize (Hb (S j) ltac:(lia)). cbn [nth] in Hb.
      replace (i0 + 1 + Z.of_nat j) with (i0 + Z.of_nat (S j)) by lia. exact Hb. }
    rewrite Hr. cbn [bind]. exists (Some (g 0%nat) :: r). cbn [length].
    split; [reflexivity|]. split; [lia|]. split.
    + intros j Hj. destruct j; cbn [nth_error]; auto. apply Hlo. lia.
    + intros j Hj. destruct j; [lia|]. cbn [nth_error]. apply Hhi. lia.
Qed.

Lemma def_loop_ok : forall n body (g : nat -> KK) y, 0 <= n < 2 ^ 31 -> n <= Z.of_nat (length y) ->
  (forall j, Z.of_nat j < n -> body (Z.of_nat j) (nth j y None) = Ok (g j)) ->
  exists r, def_loop F n body y = Ok r /\ length r = length y /\
    (forall j, Z.of_nat j < n -> nth_error r j = Some (Some (g j))) /\
    (forall j, n <= Z.of_nat j -> nth_error r j = nth_error y j).
Proof.
  intros n body g y Hn Hl Hb. unfold def_loop.
  destruct (Z.eqb_spec n 0) as [H0|H0].
  - exists y. rsplit; auto. intros j Hj. lia.
  - rewrite to_i32_id by lia.
    destruct (loop_cells_ok (Z.to_nat n) 0 body g y ltac:(lia)) as (r & Hr & Hlen & Hlo & Hhi).
    { intros j Hj. replace (0 + Z.of_nat j) with (Z.of_nat j) by lia. apply Hb. lia. }
    exists r. rsplit; auto.
    + intros j Hj. apply Hlo. lia.
    + intros j Hj. apply Hhi. lia.
Qed.

(** ** Denotation *)
Lemma den_out : forall (x : ser) i, nonzero x <= Z.of_nat i -> den x i = k0.
Proof. intros x i H. unfold den. destruct (Z.ltb_spec (Z.of_nat i) (nonzero x)); [lia|reflexivity]. Qed.

Lemma den_cell : forall (x : ser) i v, Z.of_nat i < nonzero x ->
  nth_error (cells x) i = Some (Some v) -> den x i = v.
Proof.
  intros x i v Hi H. unfold den. destruct (Z.ltb_spec (Z.of_nat i) (nonzero x)); [|lia].
  rewrite (nth_error_nth _ _ _ H). reflexivity.
Qed.

Lemma valid_cell : forall (x : ser) i, valid x -> Z.of_nat i < nonzero x ->
  nth_error (cells x) i = Some (Some (den x i)).
Proof.
  intros x i (_ & _ & _ & H) Hi. destruct (H i Hi) as (v & Hv).
  rewrite (den_cell x i v Hi Hv). exact Hv.
Qed.

Lemma valid_nth : forall (x : ser) i, valid x -> Z.of_nat i < nonzero x ->
  nth i (cells x) None = Some (den x i).
Proof. intros x i H Hi. apply nth_error_nth. apply valid_cell; auto. Qed.

Lemma valid_rd : forall (x : ser) i, valid x -> 0 <= i < nonzero x ->
  rd F (cells x) i = Ok (den x (Z.to_nat i)).
Proof.
  intros x i H Hi. unfold rd. destruct (Z.ltb_spec i 0); [lia|].
  rewrite valid_cell; auto. lia.
Qed.

Lemma mk_valid : forall (r : list (option KK)) kn nz (g : fps F), 0 <= nz -> nz <= kn ->
  nz <= Z.of_nat (length r) ->
  (forall j, Z.of_nat j < nz -> nth_error r j = Some (Some (g j))) ->
  valid (mkS r kn nz) /\ (forall j, Z.of_nat j < nz -> den (mkS r kn nz) j = g j).
Proof.
  intros r kn nz g H0 Hk Hl Hg. split.
  - unfold valid, limit. cbn [nonzero known cells]. rsplit; auto.
    intros i Hi. exists (g i). auto.
  - intros j Hj. apply den_cell; cbn [nonzero cells]; auto.
Qed.

Lemma mk_eqn : forall (r : list (option KK)) kn nz (g : fps F) (a : fps F), 0 <= nz -> nz <= kn ->
  nz <= Z.of_nat (length r) ->
  (forall j, Z.of_nat j < nz -> nth_error r j = Some (Some (g j))) ->
  (forall j, Z.of_nat j < nz -> g j = a j) ->
  (forall j, nz <= Z.of_nat j -> Z.of_nat j < kn -> a j = k0) ->
  reps (mkS r kn nz) kn a.
Proof.
  intros r kn nz g a H0 Hk Hl Hg Ha Hz.
  destruct (mk_valid r kn nz g H0 Hk Hl Hg) as (Hv & Hd).
  split; [exact Hv|]. split; [reflexivity|].
  intros j Hj. destruct (Z_lt_ge_dec (Z.of_nat j) nz).
  - rewrite Hd by auto. auto.
  - rewrite den_out by (cbn [nonzero]; lia). symmetry. apply Hz; lia.
Qed.

Lemma reps_eqn : forall x n a b, reps x n a -> eqn (Z.to_nat n) a b -> reps (F:=F) x n b.
Proof. intros x n a b (Hv & Hk & He) Hab. split; [auto|split;[auto|]]. etransitivity; eauto. Qed.

Lemma reps_self : forall x : ser, valid x -> reps x (known x) (den x).
Proof. intros x H. split; [auto|split; [auto|reflexivity]]. Qed.

(** ** Counts *)
Lemma set_counts_ok : forall (x : ser) kn nz, 0 <= nz -> nz <= kn -> nz <= limit x -> nz < 2 ^ 62 ->
  kn < 2 ^ 63 -> 
  set_counts F x kn nz = Ok (mkS (cells x) kn nz).
Proof.
  intros x kn nz H0 Hk Hl Hs Hk2. unfold set_counts.
  rewrite slow_assert_true; [reflexivity|].
  apply Z.leb_le. unfold to_u64.
  rewrite (Z.mod_small nz) by lia. rewrite (Z.mod_small (Z.min (limit x) kn)) by lia. lia.
Qed.

Lemma set_known_ok : forall (x : ser) kn, 0 <= kn ->
  set_known F x kn = Ok (mkS (cells x) kn (Z.min (nonzero x) kn)).
Proof. intros x kn H. unfold set_known. rewrite slow_assert_true; [reflexivity|]. lia. Qed.

(** [set_known] only reinterprets the counts. *)
Lemma set_known_valid : forall (x : ser) kn, valid x -> 0 <= kn ->
  exists x', set_known F x kn = Ok x' /\ valid x' /\ known x' = kn /\ limit x' = limit x /\
    nonzero x' = Z.min (nonzero x) kn /\ eqn (Z.to_nat kn) (den x') (den x).
Proof.
  intros x kn Hv Hk. rewrite set_known_ok by auto.
  exists (mkS (cells x) kn (Z.min (nonzero x) kn)).
  destruct Hv as (H0 & H1 & H2 & H3). unfold valid, limit. cbn [known nonzero cells].
  rsplit; try lia; auto.
  - unfold limit in H2. lia.
  - intros i Hi. apply H3. lia.
  - intros i Hi. unfold den. cbn [nonzero cells].
    destruct (Z.ltb_spec (Z.of_nat i) (Z.min (nonzero x) kn)), (Z.ltb_spec (Z.of_nat i) (nonzero x)); auto; lia.
Qed.

Lemma reduce_known_valid : forall (x : ser) kn, valid x ->
  exists x', reduce_known F x kn = Ok x' /\ valid x' /\ known x' = Z.min (known x) (relu kn) /\
    limit x' = limit x /\ nonzero x' = Z.min (nonzero x) (relu kn) /\
    eqn (Z.to_nat (Z.min (known x) (relu kn))) (den x') (den x).
Proof.
  intros x kn Hv. unfold reduce_known.
  destruct (set_known_valid x (Z.min (known x) (relu kn)) Hv) as (x' & H1 & H2 & H3 & H4 & H5 & H6).
  { destruct Hv as (? & ? & _). unfold relu. lia. }
  exists x'. rsplit; auto. destruct Hv as (? & ? & _). lia.
Qed.

(** ** Views *)
Lemma nth_error_firstn : forall (A : Type) n (l : list A) i, (i < n)%nat ->
  nth_error (firstn n l) i = nth_error l i.
Proof.
  intros A n. induction n as [|n IH]; intros l i Hi; [lia|].
  destruct l; cbn [firstn]; [destruct i; reflexivity|].
  destruct i; cbn [nth_error]; auto. apply IH. lia.
Qed.
Lemma nth_error_skipn : forall (A : Type) n (l : list A) i,
  nth_error (skipn n l) i = nth_error l (n + i).
Proof.
  intros A n. induction n as [|n IH]; intros l i; [reflexivity|].
  destruct l; cbn [skipn]; [destruct i; reflexivity|]. apply IH.
Qed.

Lemma slice_ok : forall (x : ser) off len, valid x -> 0 <= len -> Z.of_nat off + len <= nonzero x ->
  length (firstn (Z.to_nat len) (skipn off (cells x))) = Z.to_nat len /\
  forall j, Z.of_nat j < len ->
    nth_error (firstn (Z.to_nat len) (skipn off (cells x))) j = Some (Some (den x (off + j)%nat)).
Proof.
  intros x off len Hv H0 Hl. pose proof Hv as (_ & _ & Hlim & _). unfold limit in Hlim. split.
  - rewrite firstn_length, skipn_length. lia.
  - intros j Hj. rewrite nth_error_firstn by lia. rewrite nth_error_skipn. apply valid_cell; auto. lia.
Qed.

Lemma low_valid : forall (x : ser) n, valid x ->
  valid (low F x n) /\ known (low F x n) = Z.min (relu n) (known x) /\
  nonzero (low F x n) = Z.min (Z.min (relu n) (known x)) (nonzero x) /\
  limit (low F x n) = nonzero (low F x n) /\
  eqn (Z.to_nat (Z.min (relu n) (known x))) (den (low F x n)) (den x).
Proof.
  intros x n Hv. unfold low.
  set (nk := Z.min (relu n) (known x)). set (nz := Z.min nk (nonzero x)).
  pose proof Hv as (H0 & H1 & H2 & H3).
  assert (Hnk : 0 <= nk) by (unfold nk, relu; lia).
  assert (Hc : (if nz =? 0 then [] else firstn (Z.to_nat nz) (cells x)) = firstn (Z.to_nat nz) (skipn 0 (cells x))).
  { destruct (Z.eqb_spec nz 0) as [->|]; reflexivity. }
  rewrite Hc.
  destruct (slice_ok x 0 nz Hv ltac:(lia) ltac:(lia)) as (Hl & Hn).
  destruct (mk_valid (firstn (Z.to_nat nz) (skipn 0 (cells x))) nk nz (den x) ltac:(lia) ltac:(lia) ltac:(lia) Hn) as (Hv' & Hd).
  split; [exact Hv'|]. cbn [known nonzero]. rsplit; auto.
  - unfold limit. cbn [cells]. lia.
  - intros j Hj. destruct (Z_lt_ge_dec (Z.of_nat j) nz).
    + apply Hd. auto.
    + rewrite !den_out by (cbn [nonzero]; lia). reflexivity.
Qed.

Lemma high_valid : forall (x : ser) n, valid x ->
  valid (high F x n) /\ known (high F x n) = relu (known x - relu n) /\
  nonzero (high F x n) = relu (nonzero x - relu n) /\
  limit (high F x n) = nonzero (high F x n) /\
  feq (den (high F x n)) (fhigh (Z.to_nat (relu n)) (den x)).
Proof.
  intros x n Hv. unfold high.
  set (n' := relu n). set (nk := relu (known x - n')). set (nz := relu (nonzero x - n')).
  pose proof Hv as (H0 & H1 & H2 & H3).
  assert (Hn' : 0 <= n') by (unfold n', relu; lia).
  assert (Hnz : 0 <= nz <= nk) by (unfold nz, nk, relu; lia).
  assert (Hc : (if nz =? 0 then [] else firstn (Z.to_nat nz) (skipn (Z.to_nat n') (cells x)))
             = firstn (Z.to_nat nz) (skipn (Z.to_nat n') (cells x))).
  { destruct (Z.eqb_spec nz 0) as [->|]; reflexivity. }
  rewrite Hc.
  assert (Hs : length (firstn (Z.to_nat nz) (skipn (Z.to_nat n') (cells x))) = Z.to_nat nz /\
    forall j, Z.of_nat j < nz ->
    nth_error (firstn (Z.to_nat nz) (skipn (Z.to_nat n') (cells x))) j = Some (Some (den x (Z.to_nat n' + j)%nat))).
  { destruct (Z_lt_ge_dec 0 nz).
    - apply slice_ok; auto; unfold nz, relu in *; lia.
    - replace nz with 0 by lia. split; [reflexivity|]. intros j Hj. lia. }
  destruct Hs as (Hl & Hn).
  destruct (mk_valid (firstn (Z.to_nat nz) (skipn (Z.to_nat n') (cells x))) nk nz
              (fun j => den x (Z.to_nat n' + j)%nat) ltac:(lia) ltac:(lia) ltac:(lia) Hn) as (Hv' & Hd).
  split; [exact Hv'|]. cbn [known nonzero]. rsplit; auto.
  - unfold limit. cbn [cells]. lia.
  - intros j. unfold fhigh. destruct (Z_lt_ge_dec (Z.of_nat j) nz).
    + apply Hd. auto.
    + rewrite !den_out by (cbn [nonzero]; unfold nz, relu in *; lia). reflexivity.
Qed.

Lemma view_valid : forall (x : ser), valid x ->
  valid (view F x) /\ known (view F x) = known x /\ nonzero (view F x) = nonzero x /\
  feq (den (view F x)) (den x).
Proof.
  intros x Hv. unfold view. pose proof Hv as (H0 & H1 & H2 & H3).
  destruct (slice_ok x 0 (nonzero x) Hv ltac:(lia) ltac:(lia)) as (Hl & Hn). cbn [skipn] in *.
  destruct (mk_valid (firstn (Z.to_nat (nonzero x)) (cells x)) (known x) (nonzero x) (den x)
              ltac:(lia) ltac:(lia) ltac:(lia) Hn) as (Hv' & Hd).
  split; [exact Hv'|]. rsplit. intros j. destruct (Z_lt_ge_dec (Z.of_nat j) (nonzero x)).
  - apply Hd. auto.
  - rewrite !den_out by (cbn [nonzero]; lia). reflexivity.
Qed.

(** ** Assignment *)
Lemma new_series_limit : forall n, limit (new_series (F:=F) n) = relu n.
Proof. intros n. unfold limit, new_series. cbn [cells]. rewrite repeat_length. unfold relu. lia. Qed.

Lemma set_scalar_ok : forall (x : ser) kn a, (0 < kn -> 1 <= limit x) ->
  exists x', set_scalar F x kn a = Ok x' /\ valid x' /\ known x' = relu kn /\ limit x' = limit x /\
    nonzero x' = Z.min (relu kn) 1 /\ eqn (Z.to_nat (relu kn)) (den x') (fC a).
Proof.
  intros x kn a Hl. unfold set_scalar.
  rewrite slow_assert_true by (destruct (Z.ltb_spec 0 (relu kn)); unfold relu, limit in *; lia).
  cbn [bind]. destruct (Z.eqb_spec (relu kn) 0) as [H0|H0].
  - rewrite H0. eexists. split; [reflexivity|]. unfold valid, limit. cbn [known nonzero cells].
    rsplit; try lia; intros i Hi; lia.
  - assert (Hk : 0 < kn) by (unfold relu in H0; lia). specialize (Hl Hk). unfold limit in Hl.
    destruct (write_cells_ok [a] (cells x) ltac:(cbn [length]; lia)) as (r & Hr & Hlen & Hlo & _).
    rewrite Hr. cbn [bind]. eexists. split; [reflexivity|].
    assert (Hre : reps (mkS r (relu kn) 1) (relu kn) (fC a)).
    { apply mk_eqn with (g := fun j => nth j [a] k0).
      - lia. - unfold relu; lia. - lia.
      - intros j Hj. apply Hlo. cbn [length]. lia.
      - intros j Hj. destruct j; [reflexivity|lia].
      - intros j Hj _. destruct j; [lia|reflexivity]. }
    destruct Hre as (Hv & _ & He). split; [exact Hv|]. cbn [known nonzero]. rsplit; auto.
    + unfold limit. cbn [cells]. lia.
    + unfold relu in *; lia.
Qed.

Lemma assign_ok : forall (x g : ser), valid g -> nonzero g <= limit x ->
  exists x', assign F x g = Ok x' /\ valid x' /\ known x' = known g /\ limit x' = limit x /\
    nonzero x' = nonzero g /\ feq (den x') (den g) /\
    (forall j, nonzero g <= Z.of_nat j -> nth_error (cells x') j = nth_error (cells x) j).
Proof.
  intros x g Hg Hl. unfold assign. rewrite slow_assert_true by lia. cbn [bind].
  pose proof Hg as (H0 & H1 & H2 & H3).
  destruct (read_cells_ok (Z.to_nat (nonzero g)) (cells g)) as (vs & Hvs & Hlv & Hn).
  { intros j Hj. apply H3. lia. }
  rewrite Hvs. cbn [bind].
  unfold limit in Hl.
  destruct (write_cells_ok vs (cells x) ltac:(lia)) as (r & Hr & Hlen & Hlo & Hhi).
  rewrite Hr. cbn [bind]. eexists. split; [reflexivity|].
  destruct (mk_valid r (known g) (nonzero g) (den g)) as (Hv & Hd); try lia.
  { intros j Hj. rewrite Hlo by lia. rewrite <- Hn by lia. apply valid_cell; auto. }
  split; [exact Hv|]. cbn [known nonzero cells]. rsplit; auto.
  - unfold limit. cbn [cells]. lia.
  - intros j. destruct (Z_lt_ge_dec (Z.of_nat j) (nonzero g)); auto.
    rewrite !den_out by (cbn [nonzero]; lia). reflexivity.
  - intros j Hj. apply Hhi. lia.
Qed.

(** ** Scalars and linear combinations *)
Lemma add_scalar_ok : forall (x : ser) a, valid x -> 0 < nonzero x ->
  exists x', add_scalar F x a = Ok x' /\ valid x' /\ known x' = known x /\ limit x' = limit x /\
    nonzero x' = nonzero x /\ feq (den x') (fadd (den x) (fC a)).
Proof.
  intros x a Hv Hnz. unfold add_scalar. rewrite slow_assert_true by lia. cbn [bind].
  rewrite valid_rd by (auto; lia). cbn [bind].
  pose proof Hv as (H0 & H1 & H2 & H3). unfold limit in H2.
  destruct (write_cells_ok [kadd (den x (Z.to_nat 0)) a] (cells x) ltac:(cbn [length]; lia))
    as (r & Hr & Hlen & Hlo & Hhi). cbn [length] in *.
  rewrite Hr. cbn [bind]. eexists. split; [reflexivity|].
  destruct (mk_valid r (known x) (nonzero x) (fadd (den x) (fC a))) as (Hv' & Hd); try lia.
  { intros j Hj. destruct j as [|j].
    - rewrite Hlo by lia. reflexivity.
    - rewrite Hhi by lia. rewrite valid_cell by auto. unfold fadd, fC. do 2 f_equal. ring. }
  split; [exact Hv'|]. cbn [known nonzero]. rsplit; auto.
  - unfold limit. cbn [cells]. lia.
  - intros j. destruct (Z_lt_ge_dec (Z.of_nat j) (nonzero x)); auto.
    unfold fadd, fC. rewrite !den_out; cbn [nonzero]; try lia. destruct j; [lia|]. ring.
Qed.

(** Scale factor applied to the added series. *)
Definition hcoef (sign b : Z) : KK := if sign <? 0 then kopp (kpow2 b) else kpow2 b.

Lemma high_addsub_ok : forall (y x : ser) sign b s,
  valid y -> valid x -> 0 <= s -> small s -> small (known y) -> small (nonzero x) -> Z.abs sign = 1 ->
  let nk := Z.min (known y) (known x + s) in
  let nz := Z.min nk (Z.max (nonzero y) (if nonzero x =? 0 then 0 else nonzero x + s)) in
  nz <= limit y ->
  exists y', high_addsub_ldexp F y sign b s x = Ok y' /\ valid y' /\ known y' = nk /\
    limit y' = limit y /\ nonzero y' = nz /\
    eqn (Z.to_nat nk) (den y') (fadd (den y) (fshift (Z.to_nat s) (fscale (hcoef sign b) (den x)))) /\
    (forall j, nz <= Z.of_nat j -> nth_error (cells y') j = nth_error (cells y) j).
Proof.
  intros y x sign b s Hy Hx Hs Hss Hky Hnx Hsg nk nz Hlim. unfold small in *.
  pose proof Hy as (Y0 & Y1 & Y2 & Y3). pose proof Hx as (X0 & X1 & X2 & X3).
  unfold high_addsub_ldexp. fold nk. fold nz.
  rewrite slow_assert_true by lia. cbn [bind].
  assert (Hnz : 0 <= nz) by (unfold nz; destruct (nonzero x =? 0); lia).
  assert (Hnk : nz <= nk) by (unfold nz; lia).
  set (g := fadd (den y) (fshift (Z.to_nat s) (fscale (hcoef sign b) (den x)))).
  set (body := high_addsub_body F (cells x) (nonzero y) (nonzero x) sign s b (negb (b =? 0))).
  destruct (def_loop_ok nz body g (cells y)) as (r & Hr & Hlen & Hlo & Hhi).
  - unfold nk in *. lia.
  - exact Hlim.
  - intros j Hj. unfold body, high_addsub_body.
    rewrite (to_i32_id (nonzero y)) by lia. rewrite (to_i32_id s) by lia.
    rewrite (to_i32_id (nonzero x)) by lia.
    assert (Hy1 : (if Z.of_nat j <? nonzero y then cell_val F (nth j (cells y) None) else Ok k0) = Ok (den y j)).
    { destruct (Z.ltb_spec (Z.of_nat j) (nonzero y)).
      - rewrite valid_nth by auto. reflexivity.
      - rewrite den_out by lia. reflexivity. }
    rewrite Hy1. cbn [bind].
    assert (Hx1 : (if to_u32 (Z.of_nat j - s) <? to_u32 (nonzero x) then rd F (cells x) (Z.of_nat j - s) else Ok k0)
                  = Ok (fshift (Z.to_nat s) (den x) j)).
    { unfold fshift. rewrite (to_u32_id (nonzero x)) by lia.
      destruct (Nat.ltb_spec j (Z.to_nat s)).
      - rewrite to_u32_negz by lia. destruct (Z.ltb_spec (Z.of_nat j - s + 2 ^ 32) (nonzero x)); [lia|reflexivity].
      - rewrite to_u32_id by (unfold nk in *; lia).
        destruct (Z.ltb_spec (Z.of_nat j - s) (nonzero x)).
        + rewrite valid_rd by (auto; lia). do 2 f_equal. lia.
        + rewrite den_out by lia. reflexivity. }
    rewrite Hx1. cbn [bind]. unfold g, fadd, fshift, fscale, hcoef. f_equal. f_equal.
    destruct (Nat.ltb_spec j (Z.to_nat s)); unfold ldexpK;
      destruct (Z.eqb_spec b 0) as [->|Hb]; cbn [negb]; destruct (Z.ltb_spec sign 0); cbn [kpow2]; ring.
  - rewrite Hr. cbn [bind].
    rewrite set_counts_ok by (unfold limit in *; cbn [cells]; lia).
    eexists. split; [reflexivity|].
    assert (Hre : reps (mkS r nk nz) nk g).
    { apply mk_eqn with (g := g); auto.
      - unfold limit in *. lia.
      - intros j Hj Hj2. unfold g, fadd, fshift, fscale.
        assert (Z.max (nonzero y) (if nonzero x =? 0 then 0 else nonzero x + s) <= Z.of_nat j) by (unfold nz in Hj; lia).
        rewrite (den_out y) by lia.
        destruct (Nat.ltb_spec j (Z.to_nat s)); [ring|].
        rewrite den_out; [ring|]. destruct (Z.eqb_spec (nonzero x) 0); lia. }
    destruct Hre as (Hv & _ & He). split; [exact Hv|]. cbn [known nonzero cells]. rsplit; auto.
    unfold limit. cbn [cells]. lia.
Qed.

(** ** Elementwise maps *)
Lemma map_loop_ok : forall f (y x : ser), valid x -> nonzero x <= limit y -> small (known x) ->
  exists y', map_loop F f y x = Ok y' /\ valid y' /\ known y' = known x /\ limit y' = limit y /\
    nonzero y' = nonzero x /\
    (forall j, Z.of_nat j < nonzero x -> den y' j = f (Z.of_nat j) (den x j)) /\
    (forall j, nonzero x <= Z.of_nat j -> nth_error (cells y') j = nth_error (cells y) j).
Proof.
  intros f y x Hx Hl Hsm. unfold small in Hsm. pose proof Hx as (X0 & X1 & X2 & X3).
  unfold map_loop. rewrite set_counts_ok by lia. cbn [bind cells known nonzero].
  destruct (def_loop_ok (nonzero x) (fun i _ => v <- rd F (cells x) i ;; Ok (f i v))
             (fun j => f (Z.of_nat j) (den x j)) (cells y)) as (r & Hr & Hlen & Hlo & Hhi).
  - lia.
  - unfold limit in Hl. exact Hl.
  - intros j Hj. rewrite valid_rd by (auto; lia). cbn [bind]. rewrite Nat2Z.id. reflexivity.
  - rewrite Hr. cbn [bind]. eexists. split; [reflexivity|].
    destruct (mk_valid r (known x) (nonzero x) (fun j => f (Z.of_nat j) (den x j))) as (Hv & Hd); auto; try lia.
    { unfold limit in Hl. lia. }
    split; [exact Hv|]. cbn [known nonzero cells]. rsplit; auto.
    unfold limit. cbn [cells]. lia.
Qed.

Lemma map_loop_lin : forall f (y x : ser) (h : fps F), valid x -> nonzero x <= limit y -> small (known x) ->
  (forall j, Z.of_nat j < nonzero x -> f (Z.of_nat j) (den x j) = h j) ->
  (forall j, nonzero x <= Z.of_nat j -> h j = k0) ->
  exists y', map_loop F f y x = Ok y' /\ valid y' /\ known y' = known x /\ limit y' = limit y /\
    nonzero y' = nonzero x /\ feq (den y') h.
Proof.
  intros f y x h Hx Hl Hsm H1 H2.
  destruct (map_loop_ok f y x Hx Hl Hsm) as (y' & E & V & Kn & L & N & D & _).
  exists y'. rsplit; auto. intros j.
  destruct (Z_lt_ge_dec (Z.of_nat j) (nonzero x)).
  - rewrite D by auto. auto.
  - rewrite den_out by lia. symmetry. apply H2. lia.
Qed.

Lemma set_neg_ok : forall (y x : ser), valid x -> nonzero x <= limit y -> small (known x) ->
  exists y', set_neg F y x = Ok y' /\ valid y' /\ known y' = known x /\ limit y' = limit y /\
    nonzero y' = nonzero x /\ feq (den y') (fopp (den x)).
Proof.
  intros y x Hx Hl Hsm. apply map_loop_lin; auto.
  intros j Hj. unfold fopp. rewrite den_out by lia. ring.
Qed.

Lemma set_ldexp_ok : forall (y x : ser) k, valid x -> nonzero x <= limit y -> small (known x) ->
  exists y', set_ldexp F y x k = Ok y' /\ valid y' /\ known y' = known x /\ limit y' = limit y /\
    nonzero y' = nonzero x /\ feq (den y') (fscale (kpow2 k) (den x)).
Proof.
  intros y x k Hx Hl Hsm. apply map_loop_lin; auto.
  intros j Hj. unfold fscale. rewrite den_out by lia. ring.
Qed.

(** s x + theta x: the operator z^(1-s) d/dz z^s. *)
Definition fdshift (s : Z) (a : fps F) : fps F := fun i => kmul (kofZ (s + Z.of_nat i)) (a i).

Lemma set_derivative_shift_ok : forall (y x : ser) s, valid x -> nonzero x <= limit y -> small (known x) ->
  0 <= s -> small s ->
  exists y', set_derivative_shift F y x s = Ok y' /\ valid y' /\ known y' = known x /\ limit y' = limit y /\
    nonzero y' = nonzero x /\ feq (den y') (fdshift s (den x)).
Proof.
  intros y x s Hx Hl Hsm Hs Hss. unfold small in *. apply map_loop_lin; auto.
  - intros j Hj. rewrite to_i32_id by lia. reflexivity.
  - intros j Hj. unfold fdshift. rewrite den_out by lia. ring.
Qed.

(** Inverse operator; the term with s + i = 0 is set to zero. *)
Definition fishift (s : Z) (a : fps F) : fps F := fun i =>
  if s + Z.of_nat i =? 0 then k0 else kdiv (a i) (kofZ (s + Z.of_nat i)).

Lemma set_integral_shift_ok : forall (y x : ser) s, valid x -> nonzero x <= limit y -> small (known x) ->
  0 <= s -> small s ->
  exists y', set_integral_shift F y x s = Ok y' /\ valid y' /\ known y' = known x /\ limit y' = limit y /\
    nonzero y' = nonzero x /\ feq (den y') (fishift s (den x)).
Proof.
  intros y x s Hx Hl Hsm Hs Hss. unfold small in *. apply map_loop_lin; auto.
  - intros j Hj. rewrite to_i32_id by lia. reflexivity.
  - intros j Hj. unfold fishift. rewrite den_out by lia.
    destruct (Z.eqb_spec (s + Z.of_nat j) 0); [reflexivity|]. field. apply kofZ_nz. auto.
Qed.

Lemma set_sub_si_2exp_ok : forall (z : ser) a x b y, valid x -> valid y ->
  small (known x) -> small (known y) -> - 2 ^ 31 <= a < 2 ^ 31 ->
  let nk := Z.min (known x) (known y) in
  let nz := Z.min nk (Z.max (nonzero x) (nonzero y)) in
  nz <= limit z ->
  exists z', set_sub_si_2exp F z a x b y = Ok z' /\ valid z' /\ known z' = nk /\ limit z' = limit z /\
    nonzero z' = nz /\
    eqn (Z.to_nat nk) (den z') (fsub (fscale (kofZ a) (den x)) (fscale (kpow2 b) (den y))).
Proof.
  intros z a x b y Hx Hy Hsx Hsy Ha nk nz Hl. unfold small in *.
  pose proof Hy as (Y0 & Y1 & Y2 & Y3). pose proof Hx as (X0 & X1 & X2 & X3).
  unfold set_sub_si_2exp. fold nk. fold nz.
  rewrite set_counts_ok by lia. cbn [bind cells].
  set (g := fsub (fscale (kofZ a) (den x)) (fscale (kpow2 b) (den y))).
  match goal with |- context [def_loop F nz ?b0 (cells z)] => destruct (def_loop_ok nz b0 g (cells z)) as (r & Hr & Hlen & Hlo & Hhi) end.
  - lia.
  - exact Hl.
  - intros j Hj. rewrite !to_i32_id by lia.
    assert (Hv : forall w : ser, valid w -> (if Z.of_nat j <? nonzero w then rd F (cells w) (Z.of_nat j) else Ok k0) = Ok (den w j)).
    { intros w Hw. destruct (Z.ltb_spec (Z.of_nat j) (nonzero w)).
      - rewrite valid_rd by (auto; lia). rewrite Nat2Z.id. reflexivity.
      - rewrite den_out by lia. reflexivity. }
    rewrite (Hv x Hx). cbn [bind]. rewrite (Hv y Hy). cbn [bind]. reflexivity.
  - rewrite Hr. cbn [bind]. eexists. split; [reflexivity|].
    assert (Hre : reps (mkS r nk nz) nk g).
    { apply mk_eqn with (g := g); auto; try lia.
      - unfold limit in *. lia.
      - intros j Hj Hj2. unfold g, fsub, fscale. rewrite !den_out by lia. ring. }
    destruct Hre as (Hv & _ & He). split; [exact Hv|]. cbn [known nonzero cells]. rsplit; auto.
    unfold limit. cbn [cells]. lia.
Qed.

(** ** Products *)
Lemma low_span_ok : forall (x : ser) n, valid x -> 
  exists xs, low_span F x n = Ok xs /\ Z.of_nat (length xs) = Z.min (relu n) (nonzero x) /\
    eqn (Z.to_nat (relu n)) (poly xs) (den x).
Proof.
  intros x n Hx. pose proof Hx as (X0 & X1 & X2 & X3). unfold low_span.
  destruct (read_cells_ok (Z.to_nat (Z.min (relu n) (nonzero x))) (cells x)) as (xs & Hr & Hl & Hn).
  { intros j Hj. apply X3. lia. }
  exists xs. split; [exact Hr|]. split; [unfold relu in *; lia|].
  intros j Hj. unfold poly. destruct (Z_lt_ge_dec (Z.of_nat j) (nonzero x)).
  - specialize (Hn j ltac:(lia)). rewrite valid_cell in Hn by auto. congruence.
  - rewrite den_out by lia. apply nth_overflow. lia.
Qed.

Lemma span_ok : forall (x : ser), valid x ->
  exists xs, span_of F x = Ok xs /\ Z.of_nat (length xs) = nonzero x /\ feq (poly xs) (den x).
Proof.
  intros x Hx. pose proof Hx as (X0 & X1 & X2 & X3). unfold span_of.
  destruct (read_cells_ok (Z.to_nat (nonzero x)) (cells x)) as (xs & Hr & Hl & Hn).
  { intros j Hj. apply X3. lia. }
  exists xs. split; [exact Hr|]. split; [lia|].
  intros j. unfold poly. destruct (Z_lt_ge_dec (Z.of_nat j) (nonzero x)).
  - specialize (Hn j ltac:(lia)). rewrite valid_cell in Hn by auto. congruence.
  - rewrite den_out by lia. apply nth_overflow. lia.
Qed.

(** Product of polynomials supported below a and b vanishes from a + b - 1 on. *)
Lemma fmul_support : forall (a b : fps F) m n, (forall i, (m <= i)%nat -> a i = k0) ->
  (forall i, (n <= i)%nat -> b i = k0) ->
  forall i, (m + n <= S i)%nat -> fmul a b i = k0.
Proof.
  intros a b m n Ha Hb i Hi. unfold fmul. apply sumto_0. intros j Hj.
  destruct (Nat.lt_ge_cases j m).
  - rewrite (Hb (i - j)%nat) by lia. ring.
  - rewrite (Ha j) by lia. ring.
Qed.
Lemma fmul_support_0l : forall (a b : fps F) , (forall i, a i = k0) -> forall i, fmul a b i = k0.
Proof. intros a b Ha i. unfold fmul. apply sumto_0. intros j Hj. rewrite Ha. ring. Qed.

Lemma den_mul_support : forall (x y : ser) i, valid x -> valid y ->
  relu (nonzero x + nonzero y - 1) <= Z.of_nat i -> fmul (den x) (den y) i = k0.
Proof.
  intros x y i Hx Hy Hi.
  pose proof Hy as (Y0 & _). pose proof Hx as (X0 & _).
  apply fmul_support with (m := Z.to_nat (nonzero x)) (n := Z.to_nat (nonzero y)).
  - intros j Hj. apply den_out. lia.
  - intros j Hj. apply den_out. lia.
  - unfold relu in Hi. lia.
Qed.

Variable kern : kernel F.

(** Counts for which [fft_mul]'s own assertion holds: both factors or neither vanish. *)
Definition both_pos (x y : ser) : Prop :=
  (0 < nonzero x /\ 0 < nonzero y) \/ (nonzero x + nonzero y <= 1) \/ known x = 0 \/ known y = 0.

Hypothesis Hkern : kernel_ok kern.

Lemma set_mul_ok : forall z x y : ser, valid x -> valid y -> small (Z.min (known x) (known y)) ->
  both_pos x y ->
  let nk := Z.min (known x) (known y) in
  let nz := Z.min nk (relu (nonzero x + nonzero y - 1)) in
  nz <= limit z ->
  exists z', set_mul F kern z x y = Ok z' /\ valid z' /\ known z' = nk /\ limit z' = limit z /\
    nonzero z' = nz /\ eqn (Z.to_nat nk) (den z') (fmul (den x) (den y)).
Proof.
  intros z x y Hx Hy Hsm Hbp nk nz Hl.
  pose proof Hy as (Y0 & Y1 & Y2 & Y3). pose proof Hx as (X0 & X1 & X2 & X3).
  unfold set_mul. fold nk. fold nz. unfold small in Hsm. unfold both_pos in Hbp.
  assert (Hnz : 0 <= nz <= nk) by (unfold nz, nk, relu; lia).
  rewrite set_counts_ok by lia. cbn [bind cells].
  destruct (low_span_ok x nz Hx) as (xs & Exs & Lxs & Pxs). rewrite Exs. cbn [bind].
  destruct (low_span_ok y nz Hy) as (ys & Eys & Lys & Pys). rewrite Eys. cbn [bind].
  assert (Hre : relu nz = nz) by (unfold relu; lia). rewrite Hre in *.
  destruct (km_ok _ _ Hkern (Z.to_nat nz) xs ys) as (p & Ep & Lp & Pp).
  - unfold small. lia.
  - lia.
  - lia.
  - unfold nz, nk, relu in *. lia.
  - rewrite Ep. cbn [bind]. unfold limit in Hl.
    destruct (write_cells_ok p (cells z) ltac:(lia)) as (r & Hr & Hlen & Hlo & Hhi).
    rewrite Hr. cbn [bind]. eexists. split; [reflexivity|].
    assert (HP : eqn (Z.to_nat nz) (poly p) (fmul (den x) (den y))).
    { etransitivity; [exact Pp|]. apply fmul_eqn; auto. }
    assert (Hrp : reps (mkS r nk nz) nk (fmul (den x) (den y))).
    { apply mk_eqn with (g := poly p); auto; try lia.
      - intros j Hj. rewrite Hlo by lia. reflexivity.
      - intros j Hj. apply HP. lia.
      - intros j Hj Hj2. apply den_mul_support; auto. lia. }
    destruct Hrp as (Hv & _ & He). split; [exact Hv|]. cbn [known nonzero cells]. rsplit; auto.
    unfold limit. cbn [cells]. lia.
Qed.

Lemma set_sqr_ok : forall y x : ser, valid x -> small (known x) ->
  let nk := known x in
  let nz := Z.min nk (relu (2 * nonzero x - 1)) in
  nz <= limit y ->
  exists y', set_sqr F kern y x = Ok y' /\ valid y' /\ known y' = nk /\ limit y' = limit y /\
    nonzero y' = nz /\ eqn (Z.to_nat nk) (den y') (fmul (den x) (den x)).
Proof.
  intros y x Hx Hsm nk nz Hl. pose proof Hx as (X0 & X1 & X2 & X3).
  unfold set_sqr. fold nk. fold nz. unfold small in Hsm.
  assert (Hnz : 0 <= nz <= nk) by (unfold nz, nk, relu; lia).
  rewrite set_counts_ok by lia. cbn [bind cells].
  destruct (span_ok x Hx) as (xs & Exs & Lxs & Pxs). rewrite Exs. cbn [bind].
  destruct (ks_ok _ _ Hkern (Z.to_nat nz) xs) as (p & Ep & Lp & Pp).
  - unfold small. lia.
  - unfold nz, nk, relu in *. lia.
  - unfold nz, nk, relu in *. lia.
  - rewrite Ep. cbn [bind]. unfold limit in Hl.
    destruct (write_cells_ok p (cells y) ltac:(lia)) as (r & Hr & Hlen & Hlo & Hhi).
    rewrite Hr. cbn [bind]. eexists. split; [reflexivity|].
    assert (HP : eqn (Z.to_nat nz) (poly p) (fmul (den x) (den x))).
    { etransitivity; [exact Pp|]. apply feq_eqn. rewrite Pxs. reflexivity. }
    assert (Hrp : reps (mkS r nk nz) nk (fmul (den x) (den x))).
    { apply mk_eqn with (g := poly p); auto; try lia.
      - intros j Hj. rewrite Hlo by lia. reflexivity.
      - intros j Hj. apply HP. lia.
      - intros j Hj Hj2. apply den_mul_support; auto.
        replace (nonzero x + nonzero x) with (2 * nonzero x) by lia. lia. }
    destruct Hrp as (Hv & _ & He). split; [exact Hv|]. cbn [known nonzero cells]. rsplit; auto.
    unfold limit. cbn [cells]. lia.
Qed.

(** 1 + z^s y *)
Definition one_plus (s : Z) (y : fps F) : fps F := fadd f1 (fshift (Z.to_nat s) y).

Lemma one_plus_mul : forall s x y, feq (fmul x (one_plus s y)) (fadd x (fshift (Z.to_nat s) (fmul x y))).
Proof. intros s x y. unfold one_plus. rewrite <- !zp_mul. ring. Qed.

(** Counts for which [mul1p] does not trip the kernel's assertion. *)
Definition both_pos1p (x y : ser) (s : Z) : Prop :=
  (0 < nonzero x /\ 0 < nonzero y) \/ Z.min (known x) (known y + s) <= s \/ nonzero x + nonzero y <= 1.

Lemma set_mul1p_ok : forall (z x y : ser) s, valid x -> valid y ->
  small (Z.min (known x) (known y + s)) -> small (nonzero x) -> 0 < s -> both_pos1p x y s ->
  let nk := Z.min (known x) (known y + s) in
  let nz := Z.min nk (nonzero x + nonzero y + s - 1) in
  nz <= limit z ->
  exists z', set_mul1p F kern z x y s = Ok z' /\ valid z' /\ known z' = nk /\ limit z' = limit z /\
    nonzero z' = nz /\ eqn (Z.to_nat nk) (den z') (fmul (den x) (one_plus s (den y))).
Proof.
  intros z x y s Hx Hy Hsm Hnx Hs Hbp nk nz Hl.
  pose proof Hy as (Y0 & Y1 & Y2 & Y3). pose proof Hx as (X0 & X1 & X2 & X3).
  unfold set_mul1p. fold nk. fold nz. unfold small in *. unfold both_pos1p in Hbp. fold nk in Hbp.
  rewrite slow_assert_true by lia. cbn [bind].
  assert (Hnz : 0 <= nz <= nk) by (unfold nz, nk; lia).
  rewrite set_counts_ok by lia. cbn [bind cells].
  destruct (low_span_ok x (nz - s) Hx) as (xs & Exs & Lxs & Pxs). rewrite Exs. cbn [bind].
  destruct (low_span_ok y (nz - s) Hy) as (ys & Eys & Lys & Pys). rewrite Eys. cbn [bind].
  set (L := relu (nz - s)) in *.
  assert (HL0 : 0 <= L) by (unfold L, relu; lia).
  destruct (ka_ok _ _ Hkern (Z.to_nat L) xs ys) as (p & Ep & Lp & Pp).
  - unfold small. unfold L, relu. lia.
  - lia.
  - lia.
  - unfold L, nz, relu in *. lia.
  - rewrite Ep. cbn [bind].
    match goal with |- context [def_loop F nz ?b0 (cells z)] => destruct (def_loop_ok nz b0 (den x) (cells z)) as (c & Hc & Hlen & Hlo & Hhi) end.
    + lia.
    + exact Hl.
    + intros j Hj. rewrite to_i32_id by lia.
      destruct (Z.ltb_spec (Z.of_nat j) (nonzero x)).
      * rewrite valid_rd by (auto; lia). rewrite Nat2Z.id. reflexivity.
      * rewrite den_out by lia. reflexivity.
    + rewrite Hc. cbn [bind].
      destruct (read_cells_ok (length p) (skipn (Z.to_nat s) c)) as (h & Hh & Lh & Nh).
      { intros j Hj. exists (den x (Z.to_nat s + j)%nat). rewrite nth_error_skipn. apply Hlo. unfold L, relu in *. lia. }
      rewrite Hh. cbn [bind].
      set (q := map (fun q => kadd (fst q) (snd q)) (combine h p)).
      assert (Lq : length q = length p) by (unfold q; rewrite map_length, combine_length; lia).
      unfold limit in Hl.
      destruct (write_cells_ok q (skipn (Z.to_nat s) c)) as (h' & Hh' & Lh' & Nlo & Nhi).
      { rewrite skipn_length. unfold L, relu in *. lia. }
      rewrite Hh'. cbn [bind]. eexists. split; [reflexivity|].
      set (r := firstn (Z.to_nat s) c ++ h').
      assert (Lr : length r = length (cells z)).
      { unfold r. rewrite app_length, firstn_length, Lh', skipn_length. lia. }
      set (g := fmul (den x) (one_plus s (den y))).
      assert (Hg : forall j, g j = kadd (den x j) (fshift (Z.to_nat s) (fmul (den x) (den y)) j)).
      { intros j. unfold g. rewrite (one_plus_mul s (den x) (den y) j). reflexivity. }
      assert (Hrj : forall j, Z.of_nat j < nz -> nth_error r j = Some (Some (g j))).
      { intros j Hj. unfold r. rewrite Hg. unfold fshift. destruct (Nat.ltb_spec j (Z.to_nat s)).
        - rewrite nth_error_app1 by (rewrite firstn_length; lia).
          rewrite nth_error_firstn by lia. rewrite Hlo by lia. do 2 f_equal. ring.
        - rewrite nth_error_app2 by (rewrite firstn_length; lia).
          rewrite firstn_length. replace (Nat.min (Z.to_nat s) (length c)) with (Z.to_nat s) by lia.
          assert (Hjp : (j - Z.to_nat s < length p)%nat) by (unfold L, relu in *; lia).
          rewrite Nlo by lia. do 2 f_equal.
          unfold q.
          change (nth (j - Z.to_nat s) (map (fun q0 : KK * KK => kadd (fst q0) (snd q0)) (combine h p)) k0 =
                  kadd (den x j) (fmul (den x) (den y) (j - Z.to_nat s)%nat)).
          assert (Hmn : forall (l : list (KK * KK)) i, (i < length l)%nat ->
            nth i (map (fun q0 : KK * KK => kadd (fst q0) (snd q0)) l) k0 =
            kadd (fst (nth i l (k0, k0))) (snd (nth i l (k0, k0)))).
          { intros l i Hi. rewrite (nth_indep _ k0 (kadd (fst (@k0 F, @k0 F)) (snd (@k0 F, @k0 F)))) by (rewrite map_length; lia).
            exact (map_nth (fun q0 : KK * KK => kadd (fst q0) (snd q0)) l (k0, k0) i). }
          rewrite Hmn by (rewrite combine_length; lia).
          rewrite combine_nth by lia. cbn [fst snd]. f_equal.
          + specialize (Nh (j - Z.to_nat s)%nat ltac:(lia)). rewrite nth_error_skipn in Nh.
            rewrite Hlo in Nh by (unfold L, relu in *; lia).
            replace (Z.to_nat s + (j - Z.to_nat s))%nat with j in Nh by lia. congruence.
          + assert (HP : eqn (Z.to_nat L) (poly p) (fmul (den x) (den y))).
            { etransitivity; [exact Pp|]. apply fmul_eqn; auto. }
            apply HP. lia. }
      assert (Hrp : reps (mkS r nk nz) nk g).
      { apply mk_eqn with (g := g); auto; try lia.
        intros j Hj Hj2. rewrite Hg.
        assert (nonzero x + nonzero y + s - 1 <= Z.of_nat j) by lia.
        rewrite den_out by lia. unfold fshift.
        destruct (Nat.ltb_spec j (Z.to_nat s)); [ring|].
        rewrite den_mul_support by (auto; unfold relu; lia). ring. }
      destruct Hrp as (Hv & _ & He). split; [exact Hv|]. cbn [known nonzero cells]. rsplit; auto.
      unfold limit. cbn [cells]. lia.
Qed.

End Proofs.

Arguments hcoef {F} _ _.
Arguments fdshift {F} _ _.
Arguments fishift {F} _ _.
Arguments one_plus {F} _ _.
Arguments both_pos {F} _ _.
Arguments both_pos1p {F} _ _ _.
