(** Array access and element loops: what a loop with disjoint iterations computes. *)
From Coq Require Import ZArith Arith ArithRing List Bool Lia Permutation ZifyNat.
From Verif Require Import Base SeriesModel SeriesProofs FFTModel.
Import ListNotations.
Open Scope nat_scope.

Section L.
Context {X : Type}.
Variable d : X.
Notation at_ := (fun (y : list X) i => nth i y d).

Lemma nth_map_lt : forall (f : nat -> X) (l : list nat) k, k < length l -> nth k (map f l) d = f (nth k l 0).
Proof.
  intros f l k H. rewrite (nth_indep _ d (f 0)) by (rewrite map_length; exact H). apply map_nth.
Qed.
Lemma aget_ok : forall (l : list X) i, i < length l -> aget l i = Ok (nth i l d).
Proof. intros l i H. unfold aget. rewrite (nth_error_nth' l d H). reflexivity. Qed.
Lemma upd_length : forall (l : list X) i v, length (upd l i v) = length l.
Proof. induction l as [|a l IH]; intros [|i] v; cbn [upd length]; auto. Qed.
Lemma upd_nth : forall (l : list X) i v k, i < length l -> nth k (upd l i v) d = if k =? i then v else nth k l d.
Proof.
  induction l as [|a l IH]; intros i v k H; cbn [length] in H; [lia|].
  destruct i as [|i], k as [|k]; cbn [upd nth Nat.eqb]; auto. apply IH. lia.
Qed.
Lemma aset_ok : forall (l : list X) i v, i < length l -> aset l i v = Ok (upd l i v).
Proof. intros l i v H. unfold aset. destruct (Nat.ltb_spec i (length l)); [reflexivity|lia]. Qed.
Lemma gets_ok : forall (l : list X) is, (forall i, In i is -> i < length l) -> gets l is = Ok (map (at_ l) is).
Proof.
  induction is as [|i is IH]; intros H; [reflexivity|]. cbn [gets map].
  rewrite aget_ok by (apply H; left; reflexivity). cbn [bind]. rewrite IH by (intros k Hk; apply H; right; exact Hk). reflexivity.
Qed.
Lemma sets_ok : forall is (l : list X) vs, NoDup is -> (forall i, In i is -> i < length l) -> length vs = length is ->
  exists l', sets l is vs = Ok l' /\ length l' = length l /\ map (at_ l') is = vs /\
    (forall i, ~ In i is -> nth i l' d = nth i l d).
Proof.
  induction is as [|i is IH]; intros l vs ND Hin Hlen.
  - destruct vs; [|discriminate]. exists l. auto.
  - destruct vs as [|v vs]; [discriminate|]. cbn [sets].
    assert (Hi : i < length l) by (apply Hin; left; reflexivity).
    rewrite aset_ok by exact Hi. cbn [bind]. inversion ND; subst.
    destruct (IH (upd l i v) vs) as (l' & E & L & M & U); auto.
    { intros k Hk. rewrite upd_length. apply Hin. right. exact Hk. }
    exists l'. rewrite E, L, upd_length. split; [reflexivity|]. split; [reflexivity|]. split.
    + cbn [map]. rewrite M. rewrite U by assumption. rewrite upd_nth by exact Hi. rewrite Nat.eqb_refl. reflexivity.
    + intros k Hk. rewrite U by (intros Hc; apply Hk; right; exact Hc). rewrite upd_nth by exact Hi.
      destruct (Nat.eqb_spec k i) as [->|]; [|reflexivity]. exfalso. apply Hk. left. reflexivity.
Qed.

(** A loop over [L] whose iteration j touches only the cells [idx j]. *)
Lemma run_local : forall (N : nat) (body : nat -> list X -> res (list X)) (idx : nat -> list nat)
    (G : nat -> nat -> (nat -> X) -> X) (L : list nat),
  NoDup L ->
  (forall j j' i, In j L -> In j' L -> In i (idx j) -> In i (idx j') -> j = j') ->
  (forall j i a b, In j L -> In i (idx j) -> (forall k, In k (idx j) -> a k = b k) -> G j i a = G j i b) ->
  (forall j y, In j L -> length y = N -> exists y', body j y = Ok y' /\ length y' = N /\
     (forall i, In i (idx j) -> nth i y' d = G j i (at_ y)) /\
     (forall i, ~ In i (idx j) -> nth i y' d = nth i y d)) ->
  forall y, length y = N -> exists y', run L body y = Ok y' /\ length y' = N /\
     (forall j i, In j L -> In i (idx j) -> nth i y' d = G j i (at_ y)) /\
     (forall i, (forall j, In j L -> ~ In i (idx j)) -> nth i y' d = nth i y d).
Proof.
  intros N body idx G L. induction L as [|j L IH]; intros ND DJ LOC HB y Hy.
  - exists y. cbn [run]. repeat split; auto. intros j i [].
  - cbn [run]. destruct (HB j y (or_introl eq_refl) Hy) as (y1 & E1 & L1 & I1 & U1). rewrite E1. cbn [bind].
    inversion ND as [|? ? Hj ND']; subst.
    assert (IH' := IH ND' (fun a b i Ha Hb => DJ a b i (or_intror Ha) (or_intror Hb))
      (fun a i f g Ha => LOC a i f g (or_intror Ha)) (fun a z Ha => HB a z (or_intror Ha)) y1 L1).
    destruct IH' as (y2 & E2 & L2 & I2 & U2).
    exists y2. split; [exact E2|]. split; [exact L2|]. split.
    + intros a i Ha Hi. destruct Ha as [<-|Ha].
      * rewrite U2; [apply I1; exact Hi|]. intros b Hb Hc. apply Hj.
        rewrite (DJ j b i (or_introl eq_refl) (or_intror Hb) Hi Hc). exact Hb.
      * rewrite (I2 a i Ha Hi). apply LOC; [right; exact Ha|exact Hi|].
        intros k Hk. apply U1. intros Hc. apply Hj.
        rewrite (DJ j a k (or_introl eq_refl) (or_intror Ha) Hc Hk). exact Ha.
    + intros i Hi. rewrite U2 by (intros a Ha; apply Hi; right; exact Ha). apply U1. apply Hi. left. reflexivity.
Qed.

(** Gather, compute, scatter on the same cells. *)
Lemma run_gather : forall (N : nat) (body : nat -> list X -> res (list X)) (idx : nat -> list nat)
    (g : nat -> list X -> list X) (L : list nat),
  NoDup L ->
  (forall j j' i, In j L -> In j' L -> In i (idx j) -> In i (idx j') -> j = j') ->
  (forall j, In j L -> NoDup (idx j) /\ forall i, In i (idx j) -> i < N) ->
  (forall j v, In j L -> length v = length (idx j) -> length (g j v) = length (idx j)) ->
  (forall j y, In j L -> length y = N -> body j y = sets y (idx j) (g j (map (at_ y) (idx j)))) ->
  forall y, length y = N -> exists y', run L body y = Ok y' /\ length y' = N /\
     (forall j, In j L -> map (at_ y') (idx j) = g j (map (at_ y) (idx j))) /\
     (forall i, (forall j, In j L -> ~ In i (idx j)) -> nth i y' d = nth i y d).
Proof.
  intros N body idx g L ND DJ HI HG HB y Hy.
  pose (pos := fix pos (l : list nat) (i : nat) : nat := match l with [] => 0 | a :: t => if a =? i then 0 else S (pos t i) end).
  assert (Hpos : forall (l : list nat) k, NoDup l -> k < length l -> pos l (nth k l 0) = k).
  { induction l as [|a l IH]; intros k Hnd Hk; cbn [length] in Hk; [lia|]. destruct k as [|k]; cbn [pos nth].
    - rewrite Nat.eqb_refl. reflexivity.
    - inversion Hnd; subst. destruct (Nat.eqb_spec a (nth k l 0)) as [E|E].
      + exfalso. apply H1. rewrite E. apply nth_In. lia.
      + rewrite IH by (auto; lia). reflexivity. }
  destruct (run_local N body idx (fun j i a => nth (pos (idx j) i) (g j (map a (idx j))) d) L) with (y := y)
    as (y' & E & Ly & I1 & U1); auto.
  - intros j i a b Hj Hi Hab. f_equal. f_equal. apply map_ext_in. exact Hab.
  - intros j z Hj Hz. rewrite HB by assumption. destruct (HI j Hj) as [HN Hin].
    destruct (sets_ok (idx j) z (g j (map (at_ z) (idx j)))) as (z' & E & Lz & M & U); auto.
    { intros i Hi. rewrite Hz. auto. }
    { apply HG; auto. apply map_length. }
    exists z'. split; [exact E|]. split; [lia|]. split; [|exact U].
    intros i Hi. destruct (In_nth _ _ 0 Hi) as (k & Hk & Ek).
    rewrite <- Ek, Hpos by auto. rewrite <- M. rewrite nth_map_lt by exact Hk. reflexivity.
  - exists y'. split; [exact E|]. split; [exact Ly|]. split; [|exact U1].
    intros j Hj. destruct (HI j Hj) as [HN _].
    apply nth_ext with (d := d) (d' := d).
    { rewrite map_length, HG; auto. apply map_length. }
    intros k Hk. rewrite map_length in Hk.
    rewrite nth_map_lt by exact Hk.
    rewrite (I1 j (nth k (idx j) 0) Hj (nth_In _ _ Hk)). rewrite Hpos by auto. reflexivity.
Qed.
End L.

(** Schedules: every loop runs each index exactly once, in some order. *)
Definition sched_ok (ord : Z -> list nat) : Prop :=
  forall n : Z, (0 <= n < 2 ^ 31)%Z -> Permutation (ord n) (seq 0 (Z.to_nat n)).
(** The host order (loops.h:47): increasing. *)
Definition host_ord (n : Z) : list nat := seq 0 (Z.to_nat n).
Lemma host_ord_ok : sched_ok host_ord.
Proof. intros n H. apply Permutation_refl. Qed.

Lemma def_loop_run : forall (ord : Z -> list nat) Y n (body : nat -> Y -> res Y) y, sched_ok ord -> (Z.of_nat n < 2 ^ 31)%Z ->
  exists L, def_loop ord n body y = run L body y /\ NoDup L /\ (forall j, In j L <-> j < n).
Proof.
  intros ord Y n body y HS Hn. unfold def_loop. destruct (Z.eqb_spec (Z.of_nat n) 0) as [E|E].
  - exists []. split; [reflexivity|]. split; [constructor|]. intros j. split; [intros []|lia].
  - rewrite to_i32_id by lia. exists (ord (Z.of_nat n)). split; [reflexivity|].
    pose proof (HS (Z.of_nat n) ltac:(lia)) as HP. rewrite Nat2Z.id in HP. split.
    + apply (Permutation_NoDup (Permutation_sym HP)). apply seq_NoDup.
    + intros j. split; intros H.
      * apply (Permutation_in _ HP) in H. apply in_seq in H. lia.
      * apply (Permutation_in _ (Permutation_sym HP)). apply in_seq. lia.
Qed.

(** ** Index structure of the butterflies *)
Lemma land_ones_mod : forall j s, Nat.land j (2 ^ s - 1) = j mod 2 ^ s.
Proof. intros j s. rewrite <- Nat.land_ones. f_equal. rewrite Nat.ones_equiv. lia. Qed.
Lemma pow2_pos : forall s, 0 < 2 ^ s.
Proof. intros s. pose proof (Nat.pow_nonzero 2 s ltac:(lia)). lia. Qed.

Definition block_idx (r s b j : nat) : list nat := map (fun i => (b * 2 ^ r + i) * 2 ^ s + j) (seq 0 (2 ^ r)).
Lemma radix_idx_block : forall r s jk, radix_idx r s jk = block_idx r s (jk / 2 ^ s) (jk mod 2 ^ s).
Proof.
  intros r s jk. unfold radix_idx, block_idx. rewrite land_ones_mod. apply map_ext. intros i.
  pose proof (Nat.div_mod jk (2 ^ s) ltac:(pose proof (pow2_pos s); lia)) as E.
  set (m := 2 ^ s) in *. set (q := jk / m) in *. set (t := jk mod m) in *.
  replace (jk - t) with (m * q) by lia. ring.
Qed.
Lemma pair_idx_block : forall s jk, pair_idx s jk = radix_idx 1 s jk.
Proof. intros s jk. unfold pair_idx, radix_idx. change (seq 0 (2 ^ 1)) with [0; 1]. cbn [map]. change (2 ^ 1) with 2. apply f_equal2; [lia|apply f_equal2; [lia|reflexivity]]. Qed.
Lemma in_block : forall r s b j i, j < 2 ^ s -> In i (block_idx r s b j) <-> (i mod 2 ^ s = j /\ i / 2 ^ (r + s) = b).
Proof.
  intros r s b j i Hj. unfold block_idx. rewrite in_map_iff. pose proof (pow2_pos s). pose proof (pow2_pos r).
  rewrite Nat.pow_add_r. split.
  - intros (k & <- & Hk). apply in_seq in Hk. split.
    + rewrite Nat.add_comm, Nat.mod_add by lia. apply Nat.mod_small. exact Hj.
    + rewrite (Nat.mul_comm (2 ^ r)), <- Nat.div_div by lia. rewrite Nat.div_add_l by lia.
      rewrite (Nat.div_small j) by exact Hj. rewrite Nat.add_0_r. rewrite Nat.div_add_l by lia.
      rewrite (Nat.div_small k) by lia. lia.
  - intros [E1 E2]. exists (i / 2 ^ s - b * 2 ^ r).
    rewrite (Nat.mul_comm (2 ^ r)), <- Nat.div_div in E2 by lia.
    pose proof (Nat.div_mod i (2 ^ s) ltac:(lia)) as D1. pose proof (Nat.div_mod (i / 2 ^ s) (2 ^ r) ltac:(lia)) as D2.
    pose proof (Nat.mod_upper_bound (i / 2 ^ s) (2 ^ r) ltac:(lia)) as D3.
    set (a := i / 2 ^ s) in *. rewrite E2 in D2. split.
    + replace (b * 2 ^ r + (a - b * 2 ^ r)) with a by lia. rewrite E1 in D1. lia.
    + apply in_seq. split; [lia|]. cbn [Nat.add]. lia.
Qed.
Lemma block_NoDup : forall r s b j, NoDup (block_idx r s b j).
Proof.
  intros r s b j. unfold block_idx. apply FinFun.Injective_map_NoDup; [|apply seq_NoDup].
  intros a c E. pose proof (pow2_pos s). nia.
Qed.

Section Radix.
Context {X : Type}.
Variable d : X.
Notation at_ := (fun (y : list X) i => nth i y d).

(** A radix 2^r pass over an array of 2^q elements. *)
Lemma radix_pass : forall (ord : Z -> list nat) (q r s : nat) (body : nat -> list X -> res (list X)) (f : nat -> list X -> res (list X))
    (g : nat -> list X -> list X),
  sched_ok ord -> r + s <= q -> q <= 30 ->
  (forall jk y, body jk y = (v <- gets y (radix_idx r s jk) ;; w <- f (jk mod 2 ^ s) v ;; sets y (radix_idx r s jk) w)) ->
  (forall j v, j < 2 ^ s -> length v = 2 ^ r -> f j v = Ok (g j v) /\ length (g j v) = 2 ^ r) ->
  forall y, length y = 2 ^ q -> exists y', def_loop ord (2 ^ (q - r)) body y = Ok y' /\ length y' = 2 ^ q /\
    (forall b j, j < 2 ^ s -> b < 2 ^ (q - r - s) -> map (at_ y') (block_idx r s b j) = g j (map (at_ y) (block_idx r s b j))).
Proof.
  intros ord q r s body f g HS Hq Hq30 HB HF y Hy.
  assert (Hcnt : (Z.of_nat (2 ^ (q - r)) < 2 ^ 31)%Z).
  { rewrite Nat2Z.inj_pow. change (Z.of_nat 2) with 2%Z. apply Z.pow_lt_mono_r; lia. }
  destruct (def_loop_run ord _ (2 ^ (q - r)) body y HS Hcnt) as (L & E & ND & HL).
  pose proof (pow2_pos s). pose proof (pow2_pos r).
  assert (Hsz : 2 ^ (q - r) = 2 ^ (q - r - s) * 2 ^ s) by (rewrite <- Nat.pow_add_r; f_equal; lia).
  assert (Hsz2 : 2 ^ q = 2 ^ (q - r - s) * 2 ^ (r + s)) by (rewrite <- Nat.pow_add_r; f_equal; lia).
  assert (Hin : forall j i, j < 2 ^ (q - r) -> In i (radix_idx r s j) -> i < 2 ^ q).
  { intros j i Hj Hi. rewrite radix_idx_block in Hi. apply in_block in Hi; [|apply Nat.mod_upper_bound; lia].
    destruct Hi as [_ Hi]. rewrite Hsz2. pose proof (pow2_pos (r + s)).
    assert (j / 2 ^ s < 2 ^ (q - r - s)) by (apply Nat.div_lt_upper_bound; lia).
    rewrite <- Hi in H2. pose proof (Nat.div_mod i (2 ^ (r + s)) ltac:(lia)). pose proof (Nat.mod_upper_bound i (2 ^ (r + s)) ltac:(lia)). nia. }
  assert (Hlen : forall j, length (radix_idx r s j) = 2 ^ r) by (intros j; unfold radix_idx; rewrite map_length, seq_length; reflexivity).
  rewrite E. destruct (run_gather d (2 ^ q) body (radix_idx r s) (fun jk v => g (jk mod 2 ^ s) v) L) with (y := y)
    as (y' & E' & L' & I' & _); auto.
  - intros j j' i Hj Hj' Hi Hi'. rewrite radix_idx_block in Hi, Hi'.
    apply in_block in Hi; [|apply Nat.mod_upper_bound; lia]. apply in_block in Hi'; [|apply Nat.mod_upper_bound; lia].
    rewrite (Nat.div_mod j (2 ^ s)), (Nat.div_mod j' (2 ^ s)) by lia. destruct Hi as [<- <-], Hi' as [<- <-]. reflexivity.
  - intros j Hj. apply HL in Hj. split; [rewrite radix_idx_block; apply block_NoDup|]. intros i. apply Hin. exact Hj.
  - intros j v Hj Hv. rewrite Hlen in *. apply HF; [apply Nat.mod_upper_bound; lia|exact Hv].
  - intros j z Hj Hz. apply HL in Hj. rewrite HB. rewrite (gets_ok d) by (intros i Hi; rewrite Hz; eapply Hin; eauto).
    cbn [bind]. destruct (HF (j mod 2 ^ s) (map (at_ z) (radix_idx r s j))) as [HF1 _].
    { apply Nat.mod_upper_bound. lia. }
    { rewrite map_length. apply Hlen. }
    rewrite HF1. reflexivity.
  - exists y'. split; [exact E'|]. split; [exact L'|]. intros b j Hj Hb.
    assert (Hjk : b * 2 ^ s + j < 2 ^ (q - r)) by (rewrite Hsz; nia).
    specialize (I' (b * 2 ^ s + j) (proj2 (HL _) Hjk)). cbv beta in I'.
    rewrite radix_idx_block in I'. rewrite Nat.div_add_l, (Nat.div_small j), Nat.add_0_r in I' by lia.
    rewrite Nat.add_comm, Nat.mod_add, Nat.mod_small in I' by lia. exact I'.
Qed.
End Radix.
