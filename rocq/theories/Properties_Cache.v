(** C85: the cached twiddle tables (CacheModel.v, specification in CacheSpec.v). *)
From Coq Require Import ZArith QArith Qround List Bool Lia.
From Verif Require Import Base CacheModel CacheSpec CacheProofs.
Import ListNotations.
Open Scope Z_scope.

(** Whatever slices are asked for, in whatever order, on the CPU or the GPU, with reads and shutdowns
    in between: each outcome is the one of the specification, which knows no table.  In particular a
    slice stays valid while the cache grows, and is dead after a shutdown. *)
Theorem C85_cache : forall V vopp_r vopp_i vswap vmul table few0 root,
  twiddles V vopp_r vopp_i vswap table few0 root ->
  forall l, fst (run V vopp_r vopp_i vswap vmul table few0 l (world0 V) []) = s_run V vmul root l 0 [].
Proof. intros V a b c vmul table few0 root T l. exact (proj1 (run_ok V a b c vmul table few0 root T l (world0 V) [] 0 [] (inv0 V table few0) (Forall2_nil _) (le_n _))). Qed.
Print Assumptions C85_cache.

(** Every table is computed once, lowest level first, whichever memory it is for, and again only
    after a shutdown. *)
Theorem C85_once : forall V vopp_r vopp_i vswap vmul table few0 root,
  twiddles V vopp_r vopp_i vswap table few0 root ->
  forall l, let (r, w) := run V vopp_r vopp_i vswap vmul table few0 l (world0 V) [] in
  ~ In UB r -> made V w = built l 0.
Proof.
  intros V a b c vmul table few0 root T l. destruct (run_ok V a b c vmul table few0 root T l (world0 V) [] 0 [] (inv0 V table few0) (Forall2_nil _) (le_n _)) as (R1 & _ & R3).
  unfold run' in *. destruct (run V a b c vmul table few0 l (world0 V) []) as [r w]. cbn [fst snd] in *. intros N. apply R3. rewrite <- R1. exact N.
Qed.
Print Assumptions C85_once.

(** Without a shutdown: exactly the levels below the largest need, each once. *)
Lemma built_seq : forall l n, ~ In Shutdown l -> seq 0 n ++ built l n = seq 0 (Nat.max n (list_max (map needed l))).
Proof.
  induction l as [|o l IH]; intros n H; cbn [built map list_max fold_right].
  - rewrite app_nil_r, Nat.max_0_r. reflexivity.
  - change (fold_right Nat.max 0%nat (map needed l)) with (list_max (map needed l)).
    assert (E : built (o :: l) n = seq n (needed o - n) ++ built l (Nat.max n (needed o))) by (destruct o; [reflexivity|reflexivity|reflexivity|exfalso; apply H; left; reflexivity]).
    cbn [built] in E. rewrite E, app_assoc. replace (seq 0 n ++ seq n (needed o - n)) with (seq 0 (Nat.max n (needed o))).
    + rewrite IH by (intros Q; apply H; right; exact Q). f_equal. lia.
    + replace (Nat.max n (needed o)) with (n + (needed o - n))%nat by lia. rewrite seq_app. reflexivity.
Qed.
Theorem C85_each_level_once : forall V vopp_r vopp_i vswap vmul table few0 root,
  twiddles V vopp_r vopp_i vswap table few0 root ->
  forall l, ~ In Shutdown l -> let (r, w) := run V vopp_r vopp_i vswap vmul table few0 l (world0 V) [] in
  ~ In UB r -> made V w = seq 0 (list_max (map needed l)).
Proof.
  intros V a b c vmul table few0 root T l H. pose proof (C85_once V a b c vmul table few0 root T l) as O. destruct (run V a b c vmul table few0 l (world0 V) []) as [r w]. intros N. rewrite (O N). exact (built_seq l 0 H).
Qed.
Print Assumptions C85_each_level_once.

(** Without a shutdown, levels in range are enough: no operation is undefined. *)
Definition in_range (o : op) : Prop := match o with Slice _ s => 0 <= s < 30 | Big _ s => s < 30 | Read _ _ => True | Shutdown => False end.
Lemma s_run_safe : forall V vmul root l hs, Forall in_range l -> Forall (fun h : handle => snd h = 0%nat /\ fst (fst h) < 30) hs -> ~ In UB (s_run V vmul root l 0 hs).
Proof.
  intros V vmul root. induction l as [|o l IH]; intros hs H F; cbn [s_run]; [intros []|]. inversion H as [|? ? H1 H2]; subst. destruct o as [d s|d s|k j|]; cbn [s_step in_range] in *.
  - replace (0 <=? s) with true by (symmetry; apply Z.leb_le; lia). replace (s <? 30) with true by (symmetry; apply Z.ltb_lt; lia). cbn [andb]. intros [Q|Q]; [discriminate|]. revert Q. apply IH; [exact H2|]. apply Forall_app. split; [exact F|]. constructor; [cbn; lia|constructor].
  - destruct (s <? 2); [intros [Q|Q]; [discriminate|]; revert Q; apply IH; assumption|]. replace (s <=? 30) with true by (symmetry; apply Z.leb_le; lia). intros [Q|Q]; [discriminate|]. revert Q. apply IH; [exact H2|]. apply Forall_app. split; [exact F|]. constructor; [cbn; lia|constructor].
  - destruct (nth_error hs k) as [[[s b] e]|] eqn:E.
    + rewrite Forall_forall in F. destruct (F _ (nth_error_In _ _ E)) as [F1 F2]. cbn in F1, F2. subst e. cbn [s_read Nat.eqb negb]. replace (s <? 30) with true by (symmetry; apply Z.ltb_lt; lia). apply Forall_forall in F.
      destruct b; cbn [bind]; (intros [Q|Q]; [discriminate|]; revert Q; apply IH; assumption).
    + intros [Q|Q]; [discriminate|]. revert Q. apply IH; assumption.
  - destruct H1.
Qed.
Theorem C85_safe : forall V vopp_r vopp_i vswap vmul table few0 root,
  twiddles V vopp_r vopp_i vswap table few0 root ->
  forall l, Forall in_range l -> ~ In UB (fst (run V vopp_r vopp_i vswap vmul table few0 l (world0 V) [])).
Proof. intros V a b c vmul table few0 root T l H. rewrite (C85_cache V a b c vmul table few0 root T). apply s_run_safe; [exact H|constructor]. Qed.
Print Assumptions C85_safe.

(** A shutdown frees every table, nothing leaks: at most two blocks stay, both with the contents of
    few.  A second shutdown changes no block. *)
Theorem C85_shutdown : forall V vopp_r vopp_i vswap vmul table few0 root,
  twiddles V vopp_r vopp_i vswap table few0 root ->
  forall l, let w := shutdown V (snd (run V vopp_r vopp_i vswap vmul table few0 l (world0 V) [])) in
  (forall i b, blocks V (hp V w) i = Some b -> b = few0) /\
  (exists ids, (length ids <= 2)%nat /\ forall i, blocks V (hp V w) i <> None <-> In i ids) /\
  (forall i, blocks V (hp V (shutdown V w)) i = blocks V (hp V w) i).
Proof.
  intros V a b c vmul table few0 root T l. cbv zeta. destruct (run_ok V a b c vmul table few0 root T l (world0 V) [] 0 [] (inv0 V table few0) (Forall2_nil _) (le_n _)) as (_ & I & _). unfold run' in I.
  set (w0 := snd (run V a b c vmul table few0 l (world0 V) [])) in *. clearbody w0. destruct (shutdown_ok V table few0 w0 I) as (K & H1 & H2 & _). pose proof (k_inv _ _ _ _ _ K) as I1. set (w := shutdown V w0) in *. clearbody w.
  assert (Live : forall i, blocks V (hp V w) i <> None -> In i (fews V w)).
  { intros i Hi. destruct (i_own _ _ _ _ I1 i Hi) as [O|[O|O]]; [rewrite H1 in O; destruct O|rewrite H2 in O; destruct O|exact O]. }
  split; [|split].
  - intros i x E. pose proof (i_few _ _ _ _ I1 i (Live i ltac:(rewrite E; discriminate))) as E'. rewrite E in E'. injection E' as ->. reflexivity.
  - exists (fews V w). split; [unfold fews; destruct (host V w), (dev V w); cbn; lia|]. intros i. split; [apply Live|]. intros Hi. rewrite (i_few _ _ _ _ I1 i Hi). discriminate.
  - intros i. destruct (shutdown_ok V table few0 w I1) as (K2 & _). destruct (k_blocks _ _ _ _ _ K2 i) as [Q|[_ Q]]; [exact Q|]. rewrite H1, H2 in Q. destruct Q as [[]|[]].
Qed.
Print Assumptions C85_shutdown.

(** A case: angles, as fractions of a turn in lowest terms; the product of two roots adds the angles. *)
Definition nrm (q : Q) : Q := Qred (q - inject_Z (Qfloor q)).
Definition q_root (s j : Z) : Q := nrm (inject_Z j / inject_Z (2 * 2 ^ s)).
Definition q_table (s : nat) : list Q := map (fun j => q_root (Z.of_nat s) (Z.of_nat j)) (seq 0 (Z.to_nat (2 ^ Z.of_nat s / 4 + 1))).
Definition q_few : list Q := map (fun i => q_root (Z.of_nat i / 4) (Z.of_nat i mod 4)) (seq 0 120).
Definition q_opp_i (q : Q) : Q := nrm (- q).
Definition q_opp_r (q : Q) : Q := nrm ((1 # 2) - q).
Definition q_swap (q : Q) : Q := nrm ((1 # 4) - q).
Definition q_mul (p q : Q) : Q := nrm (p + q).
Lemma floor_add : forall a k, Qfloor (a + inject_Z k) = Qfloor a + k.
Proof. intros [n d] k. unfold Qplus, inject_Z, Qfloor. cbn [Qnum Qden]. rewrite Pos.mul_1_r, Z.mul_1_r. rewrite Z.div_add by discriminate. reflexivity. Qed.
Lemma nrm_eq : forall a b k, (a == b + inject_Z k)%Q -> nrm a = nrm b.
Proof. intros a b k H. unfold nrm. apply Qred_complete. rewrite (Qfloor_comp _ _ H), floor_add, H, inject_Z_plus. ring. Qed.
Lemma nrm_sub : forall a b, nrm (a - nrm b) = nrm (a - b).
Proof. intros a b. apply (nrm_eq _ _ (Qfloor b)). unfold nrm. rewrite Qred_correct. ring. Qed.
Lemma pow_nz : forall s, 0 <= s -> ~ (inject_Z (2 * 2 ^ s) == 0)%Q.
Proof. intros s Hs E. assert (0 < 2 ^ s) by (apply Z.pow_pos_nonneg; lia). apply (inject_Z_injective (2 * 2 ^ s) 0) in E. lia. Qed.
Lemma q_twiddles : twiddles Q q_opp_r q_opp_i q_swap q_table q_few q_root.
Proof.
  constructor.
  - reflexivity.
  - reflexivity.
  - intros s j Hs Hj. unfold q_few. assert (E : nth_error (seq 0 120) (Z.to_nat (4 * s + j)) = Some (Z.to_nat (4 * s + j))).
    { rewrite (nth_error_nth' _ 0%nat) by (rewrite seq_length; lia). rewrite seq_nth by lia. reflexivity. }
    rewrite (map_nth_error _ _ _ E), Z2Nat.id by lia. f_equal. f_equal; [rewrite Z.mul_comm, Z.div_add_l by lia; rewrite Z.div_small by lia; lia|]. rewrite Z.add_comm, Z.mul_comm, Z.mod_add by lia. apply Z.mod_small. lia.
  - intros s j Hs. unfold q_root. pose proof (pow_nz s Hs) as N. apply (nrm_eq _ _ (- (j / (2 * 2 ^ s)))). assert (P : 2 * 2 ^ s <> 0) by (assert (0 < 2 ^ s) by (apply Z.pow_pos_nonneg; lia); lia).
    rewrite Z.mod_eq by exact P. unfold Z.sub. rewrite inject_Z_plus, !inject_Z_opp, (inject_Z_mult (2 * 2 ^ s) (j / (2 * 2 ^ s))). field. exact N.
  - intros s j Hs. unfold q_opp_i, q_root. pose proof (pow_nz s Hs) as N. transitivity (nrm (0 - nrm (inject_Z j / inject_Z (2 * 2 ^ s)))).
    + rewrite nrm_sub. apply (nrm_eq _ _ 1). unfold Z.sub. rewrite inject_Z_plus, inject_Z_opp. change (inject_Z 1) with 1%Q. field. exact N.
    + apply (nrm_eq _ _ 0). change (inject_Z 0) with 0%Q. ring.
  - intros s j Hs. unfold q_opp_r, q_root. pose proof (pow_nz s Hs) as N. rewrite nrm_sub. apply (nrm_eq _ _ 0). unfold Z.sub. rewrite inject_Z_plus, inject_Z_opp, !inject_Z_mult in *. change (inject_Z 0) with 0%Q. change (inject_Z 2) with 2%Q in *.
    field. intros E. apply N. rewrite E. reflexivity.
  - intros s j Hs. unfold q_swap, q_root. pose proof (pow_nz s ltac:(lia)) as N. rewrite nrm_sub. apply (nrm_eq _ _ 0).
    assert (E : 2 ^ s = 2 * (2 ^ s / 2)). { replace s with (1 + (s - 1)) by lia. rewrite Z.pow_add_r by lia. change (2 ^ 1) with 2. rewrite (Z.mul_comm 2), Z.div_mul by lia. lia. }
    set (h := 2 ^ s / 2) in *. rewrite E in *. unfold Z.sub. rewrite inject_Z_plus, inject_Z_opp, !inject_Z_mult in *. change (inject_Z 0) with 0%Q. change (inject_Z 2) with 2%Q in *.
    field. intros Z0. apply N. rewrite Z0. reflexivity.
Qed.
Definition q_run (l : list op) := run Q q_opp_r q_opp_i q_swap q_mul q_table q_few l (world0 Q) [].
(** 5/16 and 15/16 of a turn at level 3; 7/32 through the big slice of level 4; level 0 refused; dead after a shutdown. *)
Example C85_example :
  let (r, w) := q_run [Slice true 3; Read 0 5; Big false 4; Read 0 (-1); Read 1 7; Big false 1; Shutdown; Slice false 1; Read 2 1; Read 0 5] in
  r = [Ok None; Ok (Some (5 # 16)%Q); Ok None; Ok (Some (15 # 16)%Q); Ok (Some (7 # 32)%Q); Throw; Ok None; Ok None; Ok (Some (1 # 4)%Q); UB] /\ made Q w = [0; 1; 2; 3; 0; 1]%nat.
Proof. vm_compute. split; reflexivity. Qed.
Example C85_case : Forall in_range [Slice true 3; Read 0 5; Big false 4; Read 1 7] /\ made Q (snd (q_run [Slice true 3; Read 0 5; Big false 4; Read 1 7])) = [0; 1; 2; 3]%nat.
Proof. split; [repeat constructor; lia|]. vm_compute. reflexivity. Qed.

(** That a slice in range can always be read once it was handed out is false: shutdown frees its table. *)
Theorem C85_dangling_refuted : ~ (forall l, Forall (fun o => o = Shutdown \/ in_range o) l -> ~ In UB (fst (q_run l))).
Proof.
  intros H. apply (H [Slice false 0; Shutdown; Read 0 0]).
  - constructor; [right; cbn [in_range]; lia|]. constructor; [left; reflexivity|]. constructor; [right; exact Logic.I|constructor].
  - vm_compute. right. right. left. reflexivity.
Qed.
Print Assumptions C85_dangling_refuted.
(** And a big slice of level 30 is handed out, but no entry of it can be read: few has 30 levels. *)
Theorem C85_big30_refuted : forall V vopp_r vopp_i vswap vmul table few0 root,
  twiddles V vopp_r vopp_i vswap table few0 root ->
  forall d j, fst (run V vopp_r vopp_i vswap vmul table few0 [Big d 30; Read 0 j] (world0 V) []) = [Ok None; UB].
Proof. intros V a b c vmul table few0 root T d j. rewrite (C85_cache V a b c vmul table few0 root T). reflexivity. Qed.
Print Assumptions C85_big30_refuted.
