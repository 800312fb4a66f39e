(** Exact forms and rejection conditions of the series primitives. *)
From Coq Require Import ZArith List Bool Lia Setoid Morphisms Ring Field.
From Verif Require Import Base Field FPS SeriesModel SeriesSpec SeriesProofs NewtonProofs CodeletModel
  CodeletProofs SeriesOps SeriesOpsProofs.
From Coq Require Import ZifyBool ZifyNat.
Ltac Zify.zify_post_hook ::= Z.div_mod_to_equations.
Import ListNotations.
Open Scope Z_scope.

Section X.
Variable F : Fld.
Notation KK := (K F).
Notation ser := (series F).
Add Field KFieldX : (kfield F).

Lemma ref_kernel_ok : kernel_ok (ref_kernel F).
Proof.
  assert (H : forall nz xs ys, (nz <= length xs + length ys - 1)%nat ->
    exists p, ref_mul F nz xs ys = Ok p /\ length p = nz /\ eqn nz (poly p) (fmul (poly xs) (poly ys))).
  { intros nz xs ys Hn. unfold ref_mul. destruct (Nat.leb_spec nz (length xs + length ys - 1)); [|lia].
    eexists. split; [reflexivity|]. unfold conv. split; [rewrite map_length, seq_length; reflexivity|].
    intros i Hi. unfold poly at 1.
    rewrite (nth_indep _ k0 (fmul (poly xs) (poly ys) O)) by (rewrite map_length, seq_length; lia).
    rewrite map_nth, seq_nth by lia. reflexivity. }
  split; intros; apply H; lia.
Qed.
Lemma ref_kernel_strict : kernel_strict (ref_kernel F).
Proof.
  intros nz xs ys H. cbn [ref_kernel k_mul k_addmul]. unfold ref_mul.
  destruct (Nat.leb_spec nz (length xs + length ys - 1)); [lia|]. auto.
Qed.
Lemma ref_kernel_len : kernel_len (ref_kernel F).
Proof.
  assert (H : forall nz xs ys p, ref_mul F nz xs ys = Ok p -> length p = nz).
  { intros nz xs ys p E. unfold ref_mul in E. destruct (_ <=? _)%nat; [|discriminate]. injection E as <-.
    unfold conv. rewrite map_length, seq_length. reflexivity. }
  split; [intros nz xs ys p E|intros nz xs ys p E|intros nz xs p E]; eapply H; exact E.
Qed.

(** ** C17 *)
Lemma ops_counts : forall kern ops (st st' : list ser), kernel_len kern -> Forall (op_ok F) ops ->
  Forall (fun x : ser => 0 <= nonzero x /\ nonzero x <= Z.min (limit x) (known x) /\ limit x <= 2 ^ 28 /\ known x <= 2 ^ 28) st ->
  run_ops F kern (gen_bases F) st ops = Ok st' ->
  Forall (fun x : ser => 0 <= nonzero x /\ nonzero x <= Z.min (limit x) (known x) /\ limit x <= 2 ^ 28 /\ known x <= 2 ^ 28) st'.
Proof.
  intros kern ops st st' [K1 K2 K3] Ho Hs E.
  destruct (run_ops_inv F kern K1 K2 K3 (gen_bases F) (gen_base_gives F 0 _) (gen_base_gives F 1 _) (cnt F) ops st st') as (A & _); auto.
  - intros y (H & _). exact H.
  - eapply Forall_impl; [|exact Hs]. intros x H. cbv beta in H. unfold cnt. lia.
  - eapply Forall_impl; [|exact Hs]. intros x H. cbv beta in H. unfold cnt. lia.
  - eapply Forall_impl; [|exact A]. intros x H. unfold cnt in H. cbv beta. lia.
Qed.

Lemma ops_valid : forall kern ops (st st' : list ser), kernel_len kern -> Forall (op_ok F) ops -> Forall (no_counts F) ops ->
  Forall (fun x : ser => valid x /\ limit x <= 2 ^ 28 /\ known x <= 2 ^ 28) st ->
  run_ops F kern (gen_bases F) st ops = Ok st' ->
  Forall (fun x : ser => valid x /\ limit x <= 2 ^ 28 /\ known x <= 2 ^ 28) st'.
Proof.
  intros kern ops st st' [K1 K2 K3] Ho Hn Hs E.
  destruct (run_ops_inv F kern K1 K2 K3 (gen_bases F) (gen_base_gives F 0 _) (gen_base_gives F 1 _) (good F) ops st st') as (_ & A); auto.
  - eapply Forall_impl; [|exact Hs]. intros x ((A & B & C & D) & L & Kn). unfold cnt. lia.
  - eapply Forall_impl; [|exact Hs]. intros x ((A & B & C & D) & L & Kn). split; [unfold cnt; lia|exact D].
  - eapply Forall_impl; [|exact A]. intros x (C & W). unfold cnt in C. unfold valid. repeat split; try lia. exact W.
Qed.

Lemma un_frame : forall na st i x f st' j, un F na st i x f = Ok st' -> i <> j -> nth_error st' j = nth_error st j.
Proof.
  intros na st i x f st' j E H. unfold un in E.
  repeat (apply bind_inv in E; destruct E as (? & _ & E)). injection E as <-. apply put_other; auto.
Qed.
Lemma bin_frame : forall na st i x z f st' j, bin F na st i x z f = Ok st' -> i <> j -> nth_error st' j = nth_error st j.
Proof.
  intros na st i x z f st' j E H. unfold bin in E.
  repeat (apply bind_inv in E; destruct E as (? & _ & E)). injection E as <-. apply put_other; auto.
Qed.
Lemma self_frame : forall st i f st' j, self F st i f = Ok st' -> i <> j -> nth_error st' j = nth_error st j.
Proof.
  intros st i f st' j E H. unfold self in E.
  repeat (apply bind_inv in E; destruct E as (? & _ & E)). injection E as <-. apply put_other; auto.
Qed.
Lemma op_frame : forall kern base o (st st' : list ser) j, run_op F kern base st o = Ok st' ->
  (j < length st)%nat -> ~ In j (targets F o) -> nth_error st' j = nth_error st j.
Proof.
  intros kern base o st st' j E Hj Hn. destruct o; cbn [run_op targets In] in *;
    try (eapply un_frame; [exact E|]; intros ->; apply Hn; auto);
    try (eapply bin_frame; [exact E|]; intros ->; apply Hn; auto);
    try (eapply self_frame; [exact E|]; intros ->; apply Hn; auto).
  - injection E as <-. apply nth_error_app1. exact Hj.
  - repeat (apply bind_inv in E; destruct E as (? & _ & E)). unfold swap in E. injection E as <-.
    rewrite put_other by tauto. apply put_other. tauto.
Qed.

(** ** C18 *)
Lemma low_exact : forall (x : ser) n, valid x ->
  valid (low F x n) /\ known (low F x n) = Z.min (Z.max n 0) (known x) /\
  forall i, den (low F x n) i = if Z.of_nat i <? n then den x i else k0.
Proof.
  intros x n Hx. destruct (low_valid F x n Hx) as (V & K & N & _ & D). unfold relu in *.
  split; [exact V|]. split; [exact K|]. intros i. pose proof Hx as (A & B & C & _).
  destruct (Z.ltb_spec (Z.of_nat i) n).
  - destruct (Z.lt_ge_cases (Z.of_nat i) (known x)).
    + apply D. lia.
    + rewrite !den_out by (rewrite ?N; lia). reflexivity.
  - rewrite den_out by (rewrite N; lia). reflexivity.
Qed.
Lemma high_exact : forall (x : ser) n, valid x ->
  valid (high F x n) /\ known (high F x n) = Z.max (known x - Z.max n 0) 0 /\
  forall i, den (high F x n) i = den x (Z.to_nat n + i)%nat.
Proof.
  intros x n Hx. destruct (high_valid F x n Hx) as (V & K & N & _ & D). unfold relu in *.
  split; [exact V|]. split; [exact K|]. intros i. rewrite D. unfold fhigh. f_equal. lia.
Qed.
Lemma low_high_split : forall (x : ser) n i, valid x ->
  den x i = kadd (den (low F x n) i) (fshift (Z.to_nat n) (den (high F x n)) i).
Proof.
  intros x n i Hx. destruct (low_exact x n Hx) as (_ & _ & L). destruct (high_exact x n Hx) as (_ & _ & H).
  unfold fshift. rewrite L, H. destruct (Z.ltb_spec (Z.of_nat i) n); destruct (Nat.ltb_spec i (Z.to_nat n)); try lia.
  - ring.
  - replace (Z.to_nat n + (i - Z.to_nat n))%nat with i by lia. ring.
Qed.

(** ** C19 *)
Lemma set_known_exact : forall (x : ser) kn, valid x ->
  (kn < 0 -> set_known F x kn = Throw) /\
  (0 <= kn -> exists x', set_known F x kn = Ok x' /\ valid x' /\ known x' = kn /\ cells x' = cells x /\
     forall i, den x' i = if Z.of_nat i <? kn then den x i else k0).
Proof.
  intros x kn Hx. split; intros Hk.
  - unfold set_known. replace (0 <=? kn) with false by lia. reflexivity.
  - destruct (set_known_valid F x kn Hx Hk) as (x' & E & V & K & L & N & D). exists x'.
    split; [exact E|]. split; [exact V|]. split; [exact K|]. split.
    + unfold set_known in E. replace (0 <=? kn) with true in E by lia. injection E as <-. reflexivity.
    + intros i. destruct (Z.ltb_spec (Z.of_nat i) kn); [apply D; lia|]. apply den_out. rewrite N. lia.
Qed.
Lemma reduce_known_exact : forall (x : ser) kn, valid x ->
  exists x', reduce_known F x kn = Ok x' /\ valid x' /\ known x' = Z.min (known x) (Z.max kn 0) /\ cells x' = cells x /\
     forall i, den x' i = if Z.of_nat i <? kn then den x i else k0.
Proof.
  intros x kn Hx. pose proof Hx as (A & B & C & _).
  destruct (set_known_exact x (Z.min (known x) (relu kn)) Hx) as (_ & H). unfold relu in *.
  destruct (H ltac:(lia)) as (x' & E & V & K & L & D). exists x'. unfold reduce_known, relu.
  split; [exact E|]. split; [exact V|]. split; [exact K|]. split; [exact L|]. intros i. rewrite D.
  destruct (Z.ltb_spec (Z.of_nat i) (Z.min (known x) (Z.max kn 0))); destruct (Z.ltb_spec (Z.of_nat i) kn); auto; try lia.
  symmetry. apply den_out. lia.
Qed.
Lemma set_scalar_exact : forall (x : ser) kn a,
  (0 < kn -> limit x = 0 -> set_scalar F x kn a = Throw) /\
  ((kn <= 0 \/ 0 < limit x) -> exists x', set_scalar F x kn a = Ok x' /\ valid x' /\ known x' = Z.max kn 0 /\
     limit x' = limit x /\ (forall i, (0 < i)%nat -> nth_error (cells x') i = nth_error (cells x) i) /\
     forall i, Z.of_nat i < kn -> den x' i = fC a i).
Proof.
  intros x kn a. split.
  - intros Hk Hl. unfold set_scalar, relu. destruct (Z.ltb_spec 0 (Z.max kn 0)); [|lia].
    rewrite Hl. reflexivity.
  - intros H. destruct (set_scalar_ok F x kn a) as (x' & E & V & K & L & N & D); [lia|].
    exists x'. unfold relu in *. repeat (split; [assumption|]). split.
    + unfold set_scalar in E. apply bind_inv in E. destruct E as (? & _ & E).
      destruct (relu kn =? 0).
      * injection E as <-. reflexivity.
      * apply bind_inv in E. destruct E as (c & E & E2). injection E2 as <-. intros i Hi. cbn [cells].
        destruct (write_cells_inv F _ _ _ E) as (_ & _ & _ & U). apply U. cbn [length]. lia.
    + intros i Hi. apply D. lia.
Qed.
Lemma assign_exact : forall (x g : ser), valid g ->
  (limit x < nonzero g -> assign F x g = Throw) /\
  (nonzero g <= limit x -> exists x', assign F x g = Ok x' /\ valid x' /\ known x' = known g /\ nonzero x' = nonzero g /\
     limit x' = limit x /\ (forall i, den x' i = den g i) /\
     (forall i, nonzero g <= Z.of_nat i -> nth_error (cells x') i = nth_error (cells x) i)).
Proof.
  intros x g Hg. split; intros H.
  - unfold assign. replace (nonzero g <=? limit x) with false by lia. reflexivity.
  - destruct (assign_ok F x g Hg H) as (x' & E & V & K & L & N & D & U). exists x'.
    repeat (split; [assumption|]). exact U.
Qed.
Lemma copy_exact : forall (g : ser) lim, valid g ->
  (Z.max lim 0 < nonzero g -> copy F g lim = Throw) /\
  (nonzero g <= Z.max lim 0 -> exists x', copy F g lim = Ok x' /\ valid x' /\ known x' = known g /\ nonzero x' = nonzero g /\
     limit x' = Z.max lim 0 /\ forall i, den x' i = den g i).
Proof.
  intros g lim Hg. unfold copy.
  destruct (assign_exact (new_series lim) g Hg) as (H1 & H2). rewrite new_series_limit in *. unfold relu in *.
  split; [exact H1|]. intros H.
  destruct (H2 H) as (x' & E & V & K & N & L & D & _). exists x'. repeat (split; [assumption|]). exact D.
Qed.

(** ** C20 *)
Lemma high_addsub_throws : forall (y x : ser) sign b s,
  limit y < Z.min (Z.min (known y) (known x + s)) (Z.max (nonzero y) (if nonzero x =? 0 then 0 else nonzero x + s)) ->
  high_addsub_ldexp F y sign b s x = Throw.
Proof.
  intros y x sign b s H. unfold high_addsub_ldexp.
  replace ((Z.abs sign =? 1) && _) with false; [reflexivity|]. symmetry. apply andb_false_iff. right. lia.
Qed.

(** ** C21, C22 *)
Lemma set_counts_throw : forall (x : ser) kn nz, 0 <= nz < 2 ^ 63 -> 0 <= kn -> limit x < 2 ^ 62 -> limit x < nz -> set_counts F x kn nz = Throw.
Proof.
  intros x kn nz Hn Hk Hl2 Hl. unfold set_counts, to_u64. unfold limit in *. rewrite !Z.mod_small by lia.
  replace (nz <=? _) with false by lia. reflexivity.
Qed.

Lemma read_cells_valid : forall (x : ser) n, valid x -> Z.of_nat n <= nonzero x ->
  exists vs, read_cells F n (cells x) = Ok vs /\ length vs = n.
Proof.
  intros x n Hx Hn. destruct (read_cells_ok F n (cells x)) as (vs & E & L & _).
  - intros j Hj. destruct Hx as (_ & _ & _ & H). apply H. lia.
  - eauto.
Qed.

Lemma set_mul_strict : forall kern (z x y : ser), kernel_strict kern -> valid x -> valid y ->
  known x < 2 ^ 62 -> known y < 2 ^ 62 ->
  0 < known x -> 0 < known y -> (nonzero x = 0 /\ 2 <= nonzero y) \/ (nonzero y = 0 /\ 2 <= nonzero x) ->
  Z.min (known x) (known y) <= limit z ->
  set_mul F kern z x y = Throw.
Proof.
  intros kern z x y HS Hx Hy Sx Sy Kx Ky HN Hl. pose proof Hx as (X0 & X1 & X2 & _). pose proof Hy as (Y0 & Y1 & Y2 & _).
  unfold set_mul. set (nz := Z.min (Z.min (known x) (known y)) (relu (nonzero x + nonzero y - 1))).
  assert (Hz : 0 < nz /\ nz <= Z.min (known x) (known y) /\ nz <= nonzero x + nonzero y - 1) by (unfold nz, relu; lia).
  clearbody nz. rewrite set_counts_ok by lia. cbn [bind]. unfold low_span, relu.
  destruct (read_cells_valid x (Z.to_nat (Z.min (Z.max nz 0) (nonzero x))) Hx ltac:(lia)) as (xs & Ex & Lx).
  destruct (read_cells_valid y (Z.to_nat (Z.min (Z.max nz 0) (nonzero y))) Hy ltac:(lia)) as (ys & Ey & Ly).
  rewrite Ex, Ey. cbn [bind]. destruct (HS (Z.to_nat nz) xs ys) as (E & _); [lia|]. rewrite E. reflexivity.
Qed.

Lemma set_mul1p_strict : forall kern (z x y : ser) s, kernel_strict kern -> valid x -> valid y -> 0 < s ->
  known x < 2 ^ 62 ->
  s < Z.min (known x) (known y + s) -> (nonzero x = 0 /\ 2 <= nonzero y) \/ (nonzero y = 0 /\ 2 <= nonzero x) ->
  Z.min (known x) (known y + s) <= limit z ->
  set_mul1p F kern z x y s = Throw.
Proof.
  intros kern z x y s HS Hx Hy Hs Sx Hk HN Hl. pose proof Hx as (X0 & X1 & X2 & _). pose proof Hy as (Y0 & Y1 & Y2 & _).
  unfold set_mul1p. replace (0 <? s) with true by lia. cbn [slow_assert bind].
  set (nk := Z.min (known x) (known y + s)) in *. assert (nk < 2 ^ 62) by (unfold nk; lia).
  set (nz := Z.min nk (nonzero x + nonzero y + s - 1)).
  assert (Hz : s < nz /\ nz <= nk /\ nz <= nonzero x + nonzero y + s - 1) by (unfold nz; lia).
  clearbody nz nk. rewrite set_counts_ok by lia. cbn [bind]. unfold low_span, relu.
  destruct (read_cells_valid x (Z.to_nat (Z.min (Z.max (nz - s) 0) (nonzero x))) Hx ltac:(lia)) as (xs & Ex & Lx).
  destruct (read_cells_valid y (Z.to_nat (Z.min (Z.max (nz - s) 0) (nonzero y))) Hy ltac:(lia)) as (ys & Ey & Ly).
  rewrite Ex, Ey. cbn [bind]. destruct (HS (Z.to_nat (Z.max (nz - s) 0)) xs ys) as (_ & E); [lia|]. rewrite E. reflexivity.
Qed.

End X.

(** ** C25 *)
(** Sizes m_1, m_2, ..., m_k = n starting from n0, each at most doubling. *)
Fixpoint chain (n0 : Z) (ms : list Z) (n : Z) : Prop :=
  match ms with
  | [] => n0 = n
  | m :: ms' => n0 < m /\ m <= 2 * n0 /\ chain m ms' n
  end.
(** The calls made for a list of sizes: extend, then refine. *)
Fixpoint calls (n0 : Z) (ms : list Z) : list (Z * Z * bool) :=
  match ms with
  | [] => []
  | m :: ms' => (n0, m, false) :: (n0, m, true) :: calls m ms'
  end.
Definition run_calls {A : Type} (step : Z -> Z -> bool -> A -> res A) (cs : list (Z * Z * bool)) (st : A) : res A :=
  fold_left (fun r c => (s <- r ;; step (fst (fst c)) (snd (fst c)) (snd c) s)) cs (Ok st).

Lemma run_calls_bind : forall (A : Type) step cs (r : res A),
  fold_left (fun r c => (s <- r ;; step (fst (fst c)) (snd (fst c)) (snd c) s)) cs r
  = (s <- r ;; run_calls step cs s).
Proof.
  intros A step cs r. destruct r as [a| |]; [reflexivity| |];
    induction cs as [|c cs IH]; cbn [fold_left bind] in *; auto.
Qed.

Lemma newton_loop_calls : forall n k n0, 0 < n0 -> n <= n0 * 2 ^ Z.of_nat (S k) -> n0 * 2 ^ Z.of_nat k < n ->
  exists ms, length ms = S k /\ chain n0 ms n /\
  forall (A : Type) step (st : A), newton_loop step n (2 * S k) n0 st = run_calls step (calls n0 ms) st.
Proof.
  intros n. induction k as [|k IH]; intros n0 H0 Hhi Hlo.
  - destruct (cdiv2_next (fun _ _ _ (u : unit) => Ok u) n 0 n0 H0 Hhi Hlo) as (A1 & A2 & A3 & A4 & _).
    assert (Hm : cdiv2 n 0 = n). { change (2 ^ Z.of_nat 0) with 1 in A4. lia. }
    exists [cdiv2 n 0]. cbn [length chain]. repeat split; auto; try lia.
    intros A step st. rewrite newton_loop_two. cbn [calls]. unfold run_calls. cbn [fold_left fst snd bind].
    destruct (step n0 (cdiv2 n 0) false st); cbn [bind]; auto.
    destruct (step n0 (cdiv2 n 0) true a); cbn [bind]; auto.
  - destruct (cdiv2_next (fun _ _ _ (u : unit) => Ok u) n (S k) n0 H0 Hhi Hlo) as (A1 & A2 & A3 & A4 & A5).
    destruct (IH (cdiv2 n (S k)) ltac:(lia) A4 (A5 k eq_refl)) as (ms & L & C & R).
    exists (cdiv2 n (S k) :: ms). cbn [length chain]. repeat split; auto; try lia.
    intros A step st. rewrite newton_loop_two. cbn [calls]. unfold run_calls. cbn [fold_left fst snd bind].
    rewrite run_calls_bind.
    destruct (step n0 (cdiv2 n (S k)) false st); cbn [bind]; auto.
    destruct (step n0 (cdiv2 n (S k)) true a); cbn [bind]; auto.
Qed.

Lemma chain_bound : forall ms n0 n, 0 < n0 -> chain n0 ms n -> n <= n0 * 2 ^ Z.of_nat (length ms).
Proof.
  induction ms as [|m ms IH]; intros n0 n H0 C; cbn [chain length] in *.
  - change (2 ^ Z.of_nat 0) with 1. lia.
  - destruct C as (C1 & C2 & C3). apply IH in C3; [|lia]. rewrite Nat2Z.inj_succ, Z.pow_succ_r by lia.
    assert (0 < 2 ^ Z.of_nat (length ms)) by (apply Z.pow_pos_nonneg; lia). nia.
Qed.

Lemma newton_calls : forall n0 n, 0 < n0 -> exists ms,
  (n0 <= n -> chain n0 ms n) /\ (n <= n0 -> ms = []) /\
  (n0 <= n -> forall ms', chain n0 ms' n -> (length ms <= length ms')%nat) /\
  forall (A : Type) step (st : A), newton_iterate n0 n step st = run_calls step (calls n0 ms) st.
Proof.
  intros n0 n H0. destruct (Z.leb_spec n n0).
  - exists []. cbn [chain length]. repeat split; auto; try lia. intros A step st. unfold newton_iterate.
    destruct (Z.leb_spec n n0); [reflexivity|lia].
  - destruct (newton_steps_ok n0 n H0 H) as (k & Ek & Hhi & Hlo).
    destruct (newton_loop_calls n k n0 H0 Hhi Hlo) as (ms & L & C & R).
    exists ms. repeat split; auto; try lia.
    + intros _ ms' C'. apply chain_bound in C'; auto. rewrite L.
      destruct (Nat.le_gt_cases (S k) (length ms')); auto. exfalso.
      assert (2 ^ Z.of_nat (length ms') <= 2 ^ Z.of_nat k) by (apply Z.pow_le_mono_r; lia). nia.
    + intros A step st. unfold newton_iterate. destruct (Z.leb_spec n n0); [lia|].
      replace (0 <? n0) with true by lia. cbn [slow_assert bind]. rewrite Ek. cbn [bind].
      replace (Z.to_nat (2 * Z.of_nat (S k))) with (2 * S k)%nat by lia. apply R.
Qed.

Lemma kdiv_mul_l : forall (F : Fld) (a b : K F), a <> k0 -> kdiv (kmul a b) a = b.
Proof.
  intros F a b Ha. destruct (kfield F) as [R _ D I].
  rewrite D, (Rmul_comm R a b), <- (Rmul_assoc R b a (kinv a)), (Rmul_comm R a (kinv a)), (I a Ha).
  rewrite (Rmul_comm R b k1). apply (Rmul_1_l R).
Qed.
