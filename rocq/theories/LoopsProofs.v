(** Proofs about the loop helpers. *)
From Coq Require Import ZArith List Bool Lia ZifyBool ZifyNat Permutation Sorting.Sorted.
From Verif Require Import Base LoopsModel.
Import ListNotations.
Open Scope Z_scope.
Ltac Zify.zify_post_hook ::= Z.div_mod_to_equations.

Lemma to_u32_small : forall x, 0 <= x < 2 ^ 32 -> to_u32 x = x.
Proof. intros x H. unfold to_u32. apply Z.mod_small. exact H. Qed.

Lemma to_u32_neg : forall x, - 2 ^ 31 <= x < 0 -> to_u32 x = x + 2 ^ 32.
Proof.
  intros x H. unfold to_u32.
  replace x with (x + 2 ^ 32 + (-1) * 2 ^ 32) at 1 by lia.
  rewrite Z.mod_add by lia. apply Z.mod_small. lia.
Qed.

Lemma to_i32_small : forall x, - 2 ^ 31 <= x < 2 ^ 31 -> to_i32 x = x.
Proof.
  intros x H. unfold to_i32.
  destruct (Z_lt_dec x 0) as [Hn|Hp].
  - fold (to_u32 x). rewrite to_u32_neg by lia.
    destruct (x + 2 ^ 32 <? 2 ^ 31) eqn:E; lia.
  - rewrite Z.mod_small by lia. destruct (x <? 2 ^ 31) eqn:E; lia.
Qed.

Lemma partition_loop_ok : forall steps threads thread,
  0 <= steps -> 1 <= threads < 2 ^ 31 -> 0 <= thread < threads ->
  partition_loop steps threads thread =
  Ok (steps / threads * thread + Z.min (steps mod threads) thread,
      steps / threads * (thread + 1) + Z.min (steps mod threads) (thread + 1)).
Proof.
  intros steps threads thread Hs Ht Hi.
  unfold partition_loop.
  rewrite (to_u32_small thread) by lia.
  rewrite (to_u32_small threads) by lia.
  replace ((0 <? threads) && (thread <? threads) && (0 <=? steps)) with true
    by (symmetry; rewrite !andb_true_iff; repeat split; lia).
  cbn [slow_assert bind].
  rewrite Z.quot_div_nonneg, Z.rem_mod_nonneg by lia.
  pose proof (Z.mod_pos_bound steps threads ltac:(lia)) as Hm.
  rewrite (to_u32_small (steps mod threads)) by lia.
  f_equal. f_equal.
  destruct (thread <? steps mod threads) eqn:E; nia.
Qed.

Lemma partition_loop_throw : forall steps threads thread,
  - 2 ^ 31 <= threads < 2 ^ 31 -> - 2 ^ 31 <= thread < 2 ^ 31 ->
  ~ (0 <= steps /\ 1 <= threads /\ 0 <= thread < threads) ->
  partition_loop steps threads thread = Throw.
Proof.
  intros steps threads thread Ht Hi Hno.
  unfold partition_loop.
  destruct ((0 <? threads) && (to_u32 thread <? to_u32 threads) && (0 <=? steps)) eqn:E;
    [|reflexivity].
  exfalso. apply Hno.
  rewrite !andb_true_iff in E. destruct E as [[E1 E2] E3].
  destruct (Z_lt_dec thread 0) as [Hn|Hp].
  - rewrite to_u32_neg in E2 by lia. rewrite to_u32_small in E2 by lia. lia.
  - rewrite !to_u32_small in E2 by lia. lia.
Qed.

(** Chunk boundaries as a monotone function. *)
Definition bnd (steps threads t : Z) : Z := steps / threads * t + Z.min (steps mod threads) t.

Lemma bnd_0 : forall s th, 0 <= s -> 1 <= th -> bnd s th 0 = 0.
Proof. intros. unfold bnd. pose proof (Z.mod_pos_bound s th ltac:(lia)). lia. Qed.

Lemma bnd_last : forall s th, 0 <= s -> 1 <= th -> bnd s th th = s.
Proof.
  intros s th Hs Ht. unfold bnd.
  pose proof (Z.mod_pos_bound s th ltac:(lia)).
  pose proof (Z.div_mod s th ltac:(lia)). nia.
Qed.

Lemma bnd_step : forall s th t, 0 <= s -> 1 <= th ->
  bnd s th t + s / th <= bnd s th (t + 1) <= bnd s th t + s / th + 1.
Proof. intros s th t Hs Ht. unfold bnd. nia. Qed.

Lemma bnd_mono : forall s th a b, 0 <= s -> 1 <= th -> a <= b -> bnd s th a <= bnd s th b.
Proof.
  intros s th a b Hs Ht Hab. unfold bnd.
  assert (0 <= s / th) by (apply Z.div_pos; lia). nia.
Qed.

Lemma partition_covers : forall steps threads i,
  0 <= steps -> 1 <= threads < 2 ^ 31 -> 0 <= i < steps ->
  exists t, 0 <= t < threads /\ bnd steps threads t <= i < bnd steps threads (t + 1).
Proof.
  intros steps threads i Hs Ht Hi.
  assert (G : forall n : nat, Z.of_nat n <= threads -> i < bnd steps threads (Z.of_nat n) ->
     exists t, 0 <= t < threads /\ bnd steps threads t <= i < bnd steps threads (t + 1)).
  { induction n as [|n IH]; intros Hn Hb.
    - rewrite bnd_0 in Hb by lia. lia.
    - destruct (Z_lt_dec i (bnd steps threads (Z.of_nat n))) as [L|G].
      + apply IH; lia.
      + exists (Z.of_nat n).
        replace (Z.of_nat n + 1) with (Z.of_nat (S n)) by lia. lia. }
  apply (G (Z.to_nat threads)); [lia|].
  rewrite Z2Nat.id by lia. rewrite bnd_last by lia. lia.
Qed.

Lemma partition_unique : forall steps threads i t u,
  0 <= steps -> 1 <= threads ->
  bnd steps threads t <= i < bnd steps threads (t + 1) ->
  bnd steps threads u <= i < bnd steps threads (u + 1) -> t = u.
Proof.
  intros steps threads i t u Hs Ht H1 H2.
  destruct (Z.lt_trichotomy t u) as [L|[E|G]]; [|exact E|].
  - pose proof (bnd_mono steps threads (t + 1) u Hs Ht ltac:(lia)). lia.
  - pose proof (bnd_mono steps threads (u + 1) t Hs Ht ltac:(lia)). lia.
Qed.

(** The whole of C01 in one statement. *)
Lemma partition_loop_all : forall steps threads : Z,
  0 <= steps -> 1 <= threads < 2 ^ 31 ->
  exists lo hi : Z -> Z,
    (forall t, 0 <= t < threads -> partition_loop steps threads t = Ok (lo t, hi t)) /\
    lo 0 = 0 /\ hi (threads - 1) = steps /\
    (forall t, 0 <= t < threads -> lo t <= hi t) /\
    (forall t, 0 <= t < threads - 1 -> hi t = lo (t + 1)) /\
    (forall i, 0 <= i < steps -> exists! t, 0 <= t < threads /\ lo t <= i < hi t) /\
    (forall t u, 0 <= t < threads -> 0 <= u < threads ->
       hi t - lo t <= (hi u - lo u) + 1).
Proof.
  intros steps threads Hs Ht.
  exists (bnd steps threads), (fun t => bnd steps threads (t + 1)).
  repeat split.
  - intros t Hti. rewrite partition_loop_ok by assumption. reflexivity.
  - apply bnd_0; lia.
  - replace (threads - 1 + 1) with threads by lia. apply bnd_last; lia.
  - intros t _. apply bnd_mono; lia.
  - intros i Hi. destruct (partition_covers steps threads i Hs Ht Hi) as (t & H1 & H2).
    exists t. split; [split; assumption|].
    intros u [_ Hu]. eapply partition_unique; eauto; lia.
  - intros t u _ _. pose proof (bnd_step steps threads t Hs ltac:(lia)).
    pose proof (bnd_step steps threads u Hs ltac:(lia)). lia.
Qed.

(** ** Element loops *)
Lemma host_loop_ok : forall n, 0 <= n < 2 ^ 31 ->
  host_loop_indices n = map Z.of_nat (seq 0 (Z.to_nat n)).
Proof.
  intros n H. unfold host_loop_indices.
  destruct (n =? 0) eqn:E.
  - replace n with 0 by lia. reflexivity.
  - rewrite to_i32_small by lia. reflexivity.
Qed.

Lemma grid_loop_ok : forall fuel n stride i,
  0 < stride -> 0 <= n -> n + stride < 2 ^ 31 -> 0 <= i ->
  (Z.to_nat (n - i) < fuel)%nat ->
  exists l, grid_stride_loop fuel n stride i = Some (Ok l) /\
    NoDup l /\
    forall x, In x l <-> (i <= x < n /\ (x - i) mod stride = 0).
Proof.
  induction fuel as [|fuel IH]; intros n stride i Hst Hn Hb Hi Hf; [lia|].
  cbn [grid_stride_loop].
  destruct (i <? n) eqn:E.
  - destruct (2 ^ 31 <=? i + stride) eqn:E2; [lia|].
    destruct (IH n stride (i + stride)) as (l & El & Nd & Hl); try lia.
    rewrite El. exists (i :: l). split; [reflexivity|]. split.
    + constructor; [|exact Nd]. rewrite Hl. lia.
    + intros x. cbn [In]. rewrite Hl. split.
      * intros [<-|[H1 H2]].
        -- rewrite Z.sub_diag. rewrite Z.mod_0_l by lia. lia.
        -- split; [lia|].
           replace (x - i) with (x - (i + stride) + 1 * stride) by lia.
           rewrite Z.mod_add by lia. exact H2.
      * intros [H1 H2].
        destruct (Z.eq_dec x i) as [->|Hne]; [left; reflexivity|right].
        assert (Hd : exists k, x - i = stride * k).
        { exists ((x - i) / stride). pose proof (Z.div_mod (x - i) stride ltac:(lia)). lia. }
        destruct Hd as (k & Hk).
        assert (1 <= k) by nia.
        split; [nia|].
        replace (x - (i + stride)) with ((k - 1) * stride) by nia.
        apply Z.mod_mul. lia.
  - exists []. split; [reflexivity|]. split; [constructor|].
    intros x. cbn [In]. lia.
Qed.

(** Sum over the grid: every index is visited by exactly one thread, once. *)
Lemma grid_indices_ok : forall n blocks tpb fuel,
  0 <= n -> 0 < blocks -> 0 < tpb -> n + tpb * blocks < 2 ^ 31 ->
  (Z.to_nat n < fuel)%nat ->
  exists ls : list (list Z),
    grid_indices fuel n blocks tpb = map (fun l => Some (Ok l)) ls /\
    Permutation (concat ls) (map Z.of_nat (seq 0 (Z.to_nat n))).
Proof.
  intros n blocks tpb fuel Hn Hb Ht Hov Hf.
  set (stride := tpb * blocks) in *.
  assert (Hst : 0 < stride) by (unfold stride; nia).
  unfold grid_indices. fold stride.
  assert (G : forall (k : nat) (a : nat), Z.of_nat (a + k) <= stride ->
    exists ls, map (fun t => grid_stride_loop fuel n stride (Z.of_nat t)) (seq a k)
       = map (fun l => Some (Ok l)) ls /\
       NoDup (concat ls) /\
       (forall x, In x (concat ls) <->
          (0 <= x < n /\ Z.of_nat a <= x mod stride < Z.of_nat (a + k)))).
  { induction k as [|k IH]; intros a Hak.
    - exists []. split; [reflexivity|]. split; [constructor|].
      intros x. cbn. lia.
    - destruct (IH (S a) ltac:(lia)) as (ls & E & Nd & Hls).
      destruct (grid_loop_ok fuel n stride (Z.of_nat a)) as (l & El & Ndl & Hl); try lia.
      assert (Hl' : forall x, In x l <-> (0 <= x < n /\ x mod stride = Z.of_nat a)).
      { intros x. rewrite Hl. split.
        - intros [H1 H2]. split; [lia|].
          apply Z.mod_divide in H2; [|lia]. destruct H2 as (q & Hq).
          replace x with (Z.of_nat a + q * stride) by lia.
          rewrite Z.mod_add by lia. apply Z.mod_small. lia.
        - intros [H1 H2].
          pose proof (Z.mod_le x stride ltac:(lia) ltac:(lia)).
          split; [lia|]. rewrite <- H2.
          apply Z.mod_divide; [lia|]. exists (x / stride).
          pose proof (Z.div_mod x stride ltac:(lia)). lia. }
      exists (l :: ls). cbn [seq map]. rewrite El, E. split; [reflexivity|].
      cbn [concat]. split.
      + clear - Ndl Nd Hl' Hls.
        induction l as [|h l IHl] in Ndl, Hl' |- *; [exact Nd|].
        cbn [app].
        assert (D : forall x, In x (h :: l) -> x mod stride = Z.of_nat a).
        { intros x Hx. apply Hl' in Hx. lia. }
        assert (Aux : forall l1, NoDup l1 -> (forall x, In x l1 -> x mod stride = Z.of_nat a) ->
           NoDup (l1 ++ concat ls)).
        { induction l1 as [|y l1 IH1]; intros N D1; [exact Nd|].
          cbn [app]. inversion N; subst. constructor.
          - rewrite in_app_iff. intros [C|C]; [contradiction|].
            apply Hls in C. specialize (D1 y (or_introl eq_refl)). lia.
          - apply IH1; [assumption|]. intros x Hx. apply D1. right. exact Hx. }
        apply (Aux (h :: l)); assumption.
      + intros x. rewrite in_app_iff, Hl', Hls. lia. }
  destruct (G (Z.to_nat stride) O ltac:(lia)) as (ls & E & Nd & Hls).
  exists ls. split; [exact E|].
  apply NoDup_Permutation; [exact Nd| |].
  - apply FinFun.Injective_map_NoDup; [intros x y Hxy; lia|apply seq_NoDup].
  - intros x. rewrite Hls, in_map_iff. split.
    + intros [H1 H2]. exists (Z.to_nat x). rewrite in_seq. lia.
    + intros (y & <- & Hy). rewrite in_seq in Hy.
      pose proof (Z.mod_pos_bound (Z.of_nat y) stride ltac:(lia)). lia.
Qed.

Lemma host_loop_wraps : host_loop_indices (2 ^ 31) = [].
Proof. reflexivity. Qed.

(** ** map_reduce *)
Section MR.
  Variable Y : Type.
  Variable reduce : Y -> Y -> Y.
  Variable mapf : Z -> Y.

  Notation step := (thread_step Y reduce mapf).
  Notation init := (mr_init Y).

  Lemma set_nth_length : forall A (l : list A) n a, length (set_nth l n a) = length l.
  Proof. induction l as [|h l IH]; intros [|n] a; cbn; auto. Qed.

  Lemma nth_set_nth_eq : forall A (l : list A) n a d, (n < length l)%nat ->
    nth n (set_nth l n a) d = a.
  Proof. induction l as [|h l IH]; intros [|n] a d H; cbn in *; try lia; auto. apply IH. lia. Qed.

  Lemma nth_set_nth_ne : forall A (l : list A) n m a d, n <> m ->
    nth m (set_nth l n a) d = nth m l d.
  Proof. induction l as [|h l IH]; intros [|n] [|m] a d H; cbn in *; try lia; auto. Qed.

  Lemma nth_error_set_nth_eq : forall A (l : list A) n a, (n < length l)%nat ->
    nth_error (set_nth l n a) n = Some a.
  Proof. induction l as [|h l IH]; intros [|n] a H; cbn in *; try lia; auto. apply IH. lia. Qed.

  Lemma nth_error_set_nth_ne : forall A (l : list A) n m a, n <> m ->
    nth_error (set_nth l n a) m = nth_error l m.
  Proof. induction l as [|h l IH]; intros [|n] [|m] a H; cbn in *; try lia; auto. Qed.

  Lemma resize_same : forall (l : list (option Y)) n, length l = n -> resize Y l n = l.
  Proof.
    intros l n H. unfold resize. subst n. rewrite firstn_all, Nat.sub_diag. cbn. apply app_nil_r.
  Qed.

  (** Fold of the chunk [s, s+k): serial partial result. *)
  Definition chunk (s : Z) (k : nat) : Y :=
    fold_left (fun y i => reduce y (mapf (s + 1 + Z.of_nat i))) (seq 0 (k - 1)) (mapf s).

  Lemma chunk_1 : forall s, chunk s 1 = mapf s.
  Proof. reflexivity. Qed.

  Lemma chunk_S : forall s k, (1 <= k)%nat ->
    chunk s (S k) = reduce (chunk s k) (mapf (s + Z.of_nat k)).
  Proof.
    intros s k H. unfold chunk. replace (S k - 1)%nat with (S (k - 1)) by lia.
    rewrite seq_S, fold_left_app. cbn [fold_left]. f_equal. f_equal. lia.
  Qed.

  Variable n : Z.
  Variable threads : nat.
  Hypothesis Hn : 0 <= n.
  Hypothesis Ht : 1 <= Z.of_nat threads < 2 ^ 31.

  Let lo (t : nat) := bnd n (Z.of_nat threads) (Z.of_nat t).
  Let hi (t : nat) := bnd n (Z.of_nat threads) (Z.of_nat t + 1).

  (** What thread [t] and its slot may look like. *)
  Definition thread_ok (ps : list (option Y)) (t : nat) (p : pc) : Prop :=
    match p with
    | Start => forall v, nth_error ps t = Some v -> v = None
    | Crit s e => s = lo t /\ e = hi t /\ s < e /\
                  (forall v, nth_error ps t = Some v -> v = None)
    | Iter i s e => s = lo t /\ e = hi t /\ s <= i < e /\ length ps = threads /\
                  (i = s -> nth_error ps t = Some None) /\
                  (s < i -> nth_error ps t = Some (Some (chunk s (Z.to_nat (i - s)))))
    | Done => if lo t <? hi t
              then nth_error ps t = Some (Some (chunk (lo t) (Z.to_nat (hi t - lo t))))
              else forall v, nth_error ps t = Some v -> v = None
    | Failed => False
    end.

  Definition mr_inv (st : mr_state Y) : Prop :=
    length st.(pcs) = threads /\
    (length st.(partials) = 0%nat \/ length st.(partials) = threads) /\
    forall t, (t < threads)%nat -> thread_ok st.(partials) t (nth t st.(pcs) Done).

  Lemma mr_inv_init : mr_inv (init threads).
  Proof.
    unfold mr_inv, mr_init. cbn [pcs partials]. rewrite repeat_length.
    split; [reflexivity|]. split; [left; reflexivity|].
    intros t Hlt. rewrite nth_repeat_lt || idtac.
    assert (E : nth t (repeat Start threads) Done = Start).
    { clear - Hlt. revert t Hlt. induction threads as [|k IH]; intros [|t] H; cbn; try lia; auto.
      apply IH. lia. }
    rewrite E. cbn. intros v Hv. destruct t; discriminate.
  Qed.

  Lemma resize_nth_error : forall ps t, (length ps = 0%nat \/ length ps = threads) ->
    (t < threads)%nat ->
    nth_error (resize Y ps threads) t = Some (match nth_error ps t with Some v => v | None => None end).
  Proof.
    intros ps t [H|H] Hlt.
    - destruct ps; [|discriminate]. unfold resize.
      rewrite firstn_nil, Nat.sub_0_r. cbn [app].
      replace (nth_error [] t) with (@None (option Y)) by (destruct t; reflexivity).
      clear - Hlt. revert t Hlt. induction threads as [|k IH]; intros [|t] H; cbn; try lia; auto.
      apply IH. lia.
    - rewrite resize_same by exact H.
      destruct (nth_error ps t) eqn:E; [reflexivity|].
      apply nth_error_None in E. lia.
  Qed.

  Lemma resize_length : forall ps, (length ps = 0%nat \/ length ps = threads) ->
    length (resize Y ps threads) = threads.
  Proof.
    intros ps [H|H].
    - destruct ps; [|discriminate]. unfold resize. rewrite firstn_nil. cbn [app length].
      rewrite repeat_length. lia.
    - rewrite resize_same; exact H.
  Qed.

  (** Slots of other threads do not matter to a thread as long as its own slot
      and the vector's length are kept (or the vector is resized from empty). *)
  Lemma thread_ok_other : forall ps ps' t p,
    nth_error ps' t = nth_error ps t -> length ps' = length ps ->
    thread_ok ps t p -> thread_ok ps' t p.
  Proof.
    intros ps ps' t p E L H. destruct p; cbn in *; try rewrite E; auto.
    - rewrite L. auto.
  Qed.

  Lemma thread_ok_resize : forall ps t p, (t < threads)%nat ->
    (length ps = 0%nat \/ length ps = threads) ->
    thread_ok ps t p -> thread_ok (resize Y ps threads) t p.
  Proof.
    intros ps t p Hlt Hlen H.
    destruct Hlen as [H0|H1]; [|rewrite resize_same; assumption].
    assert (E : nth_error (resize Y ps threads) t = Some None).
    { rewrite resize_nth_error by auto. destruct ps; [|discriminate]. destruct t; reflexivity. }
    destruct ps; [|discriminate].
    destruct p; cbn in *.
    - rewrite E. congruence.
    - rewrite E. intuition congruence.
    - cbn in H. exfalso. lia.
    - destruct (lo t <? hi t).
      + exfalso. destruct t; discriminate.
      + rewrite E. congruence.
    - exact H.
  Qed.

  Lemma mr_inv_step : forall st t, mr_inv st -> mr_inv (step n threads t st).
  Proof.
    intros st t [HL [HP HT]].
    destruct (Nat.ltb_spec t threads) as [Hlt|Hge].
    2:{ unfold thread_step. rewrite nth_overflow by lia. split; [|split]; assumption. }
    pose proof (HT t Hlt) as Hok.
    unfold thread_step.
    destruct (nth t st.(pcs) Done) as [|s e|i s e| |] eqn:Epc.
    - (* Start *)
      rewrite partition_loop_ok by lia.
      change (n / Z.of_nat threads * Z.of_nat t + Z.min (n mod Z.of_nat threads) (Z.of_nat t))
        with (lo t).
      change (n / Z.of_nat threads * (Z.of_nat t + 1)
              + Z.min (n mod Z.of_nat threads) (Z.of_nat t + 1)) with (hi t).
      split; [cbn; rewrite set_nth_length; exact HL|]. split; [exact HP|].
      cbn [partials pcs]. intros u Hu.
      destruct (Nat.eq_dec t u) as [->|Hne].
      + rewrite nth_set_nth_eq by lia. cbn in Hok.
        destruct (lo u <? hi u) eqn:E; cbn; [repeat split; auto; lia|].
        rewrite E. exact Hok.
      + rewrite nth_set_nth_ne by exact Hne. apply HT. exact Hu.
    - (* Crit *)
      split; [cbn; rewrite set_nth_length; exact HL|].
      split; [right; cbn; apply resize_length; exact HP|].
      cbn [partials pcs]. intros u Hu.
      destruct (Nat.eq_dec t u) as [->|Hne].
      + rewrite nth_set_nth_eq by lia. cbn in Hok |- *. destruct Hok as (-> & -> & Hse & Hv).
        rewrite resize_length by exact HP. rewrite resize_nth_error by auto.
        repeat split; try lia.
        intros _. destruct (nth_error (partials st) u) as [v|] eqn:Ev; [|reflexivity].
        rewrite (Hv v eq_refl). reflexivity.
      + rewrite nth_set_nth_ne by exact Hne. apply thread_ok_resize; auto.
    - (* Iter *)
      cbn in Hok. destruct Hok as (-> & -> & Hr & Hlen & Hfirst & Hlater).
      assert (Hmain : forall v,
        (if i =? lo t then v = mapf i
         else exists p, nth_error (partials st) t = Some (Some p) /\ v = reduce p (mapf i)) ->
        v = chunk (lo t) (Z.to_nat (i + 1 - lo t))).
      { intros v Hv. destruct (i =? lo t) eqn:Ei.
        - assert (i = lo t) by lia. subst i v.
          replace (lo t + 1 - lo t) with 1 by lia. reflexivity.
        - destruct Hv as (p & Hp & ->). rewrite Hlater in Hp by lia.
          injection Hp as <-.
          replace (Z.to_nat (i + 1 - lo t)) with (S (Z.to_nat (i - lo t))) by lia.
          rewrite chunk_S by lia. f_equal. f_equal. lia. }
      assert (Hput : forall v, v = chunk (lo t) (Z.to_nat (i + 1 - lo t)) ->
         mr_inv {| partials := set_nth (partials st) t (Some v);
                   pcs := set_nth (pcs st) t
                            (if i + 1 <? hi t then Iter (i + 1) (lo t) (hi t) else Done) |}).
      { intros v Hv.
        split; [cbn; rewrite set_nth_length; exact HL|].
        split; [cbn; rewrite set_nth_length; exact HP|].
        cbn [partials pcs]. intros u Hu.
        destruct (Nat.eq_dec t u) as [->|Hne].
        - rewrite nth_set_nth_eq by lia.
          destruct (i + 1 <? hi u) eqn:Eh; cbn.
          + rewrite set_nth_length, nth_error_set_nth_eq by lia.
            repeat split; try lia. intros _. rewrite <- Hv. reflexivity.
          + destruct (lo u <? hi u) eqn:El; [|lia].
            rewrite nth_error_set_nth_eq by lia.
            replace (hi u - lo u) with (i + 1 - lo u) by lia. rewrite <- Hv. reflexivity.
        - rewrite nth_set_nth_ne by exact Hne.
          apply (thread_ok_other (partials st)); [|apply set_nth_length|apply HT; exact Hu].
          apply nth_error_set_nth_ne. exact Hne. }
      destruct (nth_error (partials st) t) as [slot|] eqn:Es.
      2:{ apply nth_error_None in Es. lia. }
      destruct (i =? lo t) eqn:Ei.
      + apply Hput. apply Hmain. reflexivity.
      + pose proof (Hlater ltac:(lia)) as Hl2.
        assert (Hsl : slot = Some (chunk (lo t) (Z.to_nat (i - lo t)))) by congruence.
        subst slot.
        apply Hput. apply Hmain. eexists. split; [|reflexivity]. congruence.
    - split; [|split]; assumption.
    - contradiction.
  Qed.

  Lemma mr_inv_run : forall sched, mr_inv (mr_run Y reduce mapf n threads sched).
  Proof.
    intros sched. unfold mr_run.
    assert (G : forall l st, mr_inv st ->
              mr_inv (fold_left (fun st t => step n threads t st) l st)).
    { induction l as [|t l IH]; intros st H; [exact H|]. cbn [fold_left].
      apply IH. apply mr_inv_step. exact H. }
    apply G. apply mr_inv_init.
  Qed.

  (** No thread ever fails, and a resize executed while some thread already holds
      a reference to its slot changes nothing (so the reference stays good). *)
  Lemma map_reduce_no_fail : forall sched t, (t < threads)%nat ->
    nth t (pcs (mr_run Y reduce mapf n threads sched)) Done <> Failed.
  Proof.
    intros sched t Hlt E. pose proof (mr_inv_run sched) as [_ [_ HT]].
    specialize (HT t Hlt). rewrite E in HT. exact HT.
  Qed.

  Lemma map_reduce_resize_noop : forall sched t i s e, (t < threads)%nat ->
    nth t (pcs (mr_run Y reduce mapf n threads sched)) Done = Iter i s e ->
    resize Y (partials (mr_run Y reduce mapf n threads sched)) threads
    = partials (mr_run Y reduce mapf n threads sched).
  Proof.
    intros sched t i s e Hlt E. pose proof (mr_inv_run sched) as [_ [_ HT]].
    specialize (HT t Hlt). rewrite E in HT. cbn in HT. apply resize_same. tauto.
  Qed.

  (** Progress: from any reachable state, running every thread alone long enough
      joins; hence a joining schedule always exists. *)
  Definition remaining (p : pc) (t : nat) : nat :=
    match p with
    | Start => 2 + Z.to_nat (hi t - lo t)
    | Crit s e => 1 + Z.to_nat (e - s)
    | Iter i s e => Z.to_nat (e - i)
    | Done => 0
    | Failed => 0
    end.

  Definition total_remaining (st : mr_state Y) : nat :=
    list_sum (map (fun t => remaining (nth t st.(pcs) Done) t) (seq 0 threads)).

  Lemma list_sum_lt : forall (f g : nat -> nat) l t, In t l -> (forall u, In u l -> (f u <= g u)%nat) ->
    (f t < g t)%nat -> (list_sum (map f l) < list_sum (map g l))%nat.
  Proof.
    intros f g l t Hin Hle Hlt. induction l as [|h l IH]; [contradiction|].
    cbn [map list_sum fold_right]. unfold list_sum in *. cbn [fold_right].
    assert (Hle' : (fold_right Nat.add 0 (map f l) <= fold_right Nat.add 0 (map g l))%nat).
    { clear IH Hin. assert (forall u, In u l -> (f u <= g u)%nat) by (intros; apply Hle; right; auto).
      clear Hle. induction l as [|a l IHl]; cbn; [lia|].
      pose proof (H a (or_introl eq_refl)).
      specialize (IHl ltac:(intros; apply H; right; auto)). lia. }
    destruct Hin as [->|Hin].
    - lia.
    - pose proof (Hle h (or_introl eq_refl)).
      specialize (IH Hin ltac:(intros; apply Hle; right; auto)). lia.
  Qed.

  Lemma map_reduce_progress : forall st t, mr_inv st -> (t < threads)%nat ->
    nth t st.(pcs) Done <> Done ->
    (total_remaining (step n threads t st) < total_remaining st)%nat.
  Proof.
    intros st t [HL [HP HT]] Hlt Hnd.
    unfold total_remaining.
    apply (list_sum_lt _ _ _ t); [apply in_seq; lia| |].
    - intros u Hu. apply in_seq in Hu.
      destruct (Nat.eq_dec t u) as [->|Hne].
      2:{ unfold thread_step.
          destruct (nth t (pcs st) Done) as [| | i s e| |];
            try destruct (partition_loop _ _ _) as [[? ?]| |];
            try destruct (nth_error _ _) as [slot|]; try destruct (i =? s); try destruct slot;
            cbn [pcs]; try rewrite nth_set_nth_ne by exact Hne; lia. }
      apply Nat.lt_le_incl. revert Hnd. pose proof (HT u Hlt) as Hok.
      unfold thread_step. destruct (nth u (pcs st) Done) as [|s e|i s e| |] eqn:Epc; intros Hnd.
      + rewrite partition_loop_ok by lia. cbn [pcs]. rewrite nth_set_nth_eq by lia.
        fold (bnd n (Z.of_nat threads) (Z.of_nat u)) (bnd n (Z.of_nat threads) (Z.of_nat u + 1)).
        fold (lo u) (hi u). destruct (lo u <? hi u); cbn [remaining]; lia.
      + cbn [pcs]. rewrite nth_set_nth_eq by lia. cbn [remaining] in *. lia.
      + cbn in Hok. destruct Hok as (-> & -> & Hr & Hlen & Hf & Hl).
        destruct (nth_error (partials st) u) as [slot|] eqn:Es;
          [|apply nth_error_None in Es; lia].
        destruct (i =? lo u) eqn:Ei.
        * cbn [pcs]. rewrite nth_set_nth_eq by lia.
          destruct (i + 1 <? hi u) eqn:Eh; cbn [remaining]; lia.
        * destruct slot as [p|]; [|pose proof (Hl ltac:(lia)); congruence].
          cbn [pcs]. rewrite nth_set_nth_eq by lia.
          destruct (i + 1 <? hi u) eqn:Eh; cbn [remaining]; lia.
      + congruence.
      + contradiction.
    - revert Hnd. pose proof (HT t Hlt) as Hok.
      unfold thread_step. destruct (nth t (pcs st) Done) as [|s e|i s e| |] eqn:Epc; intros Hnd.
      + rewrite partition_loop_ok by lia. cbn [pcs]. rewrite nth_set_nth_eq by lia.
        fold (bnd n (Z.of_nat threads) (Z.of_nat t)) (bnd n (Z.of_nat threads) (Z.of_nat t + 1)).
        fold (lo t) (hi t). destruct (lo t <? hi t); cbn [remaining]; lia.
      + cbn [pcs]. rewrite nth_set_nth_eq by lia. cbn [remaining] in *. lia.
      + cbn in Hok. destruct Hok as (-> & -> & Hr & Hlen & Hf & Hl).
        destruct (nth_error (partials st) t) as [slot|] eqn:Es;
          [|apply nth_error_None in Es; lia].
        destruct (i =? lo t) eqn:Ei.
        * cbn [pcs]. rewrite nth_set_nth_eq by lia.
          destruct (i + 1 <? hi t) eqn:Eh; cbn [remaining]; lia.
        * destruct slot as [p|]; [|pose proof (Hl ltac:(lia)); congruence].
          cbn [pcs]. rewrite nth_set_nth_eq by lia.
          destruct (i + 1 <? hi t) eqn:Eh; cbn [remaining]; lia.
      + congruence.
      + contradiction.
  Qed.

  (** Any schedule can be extended to one that joins. *)
  Lemma map_reduce_can_join : forall sched,
    exists more, mr_joined Y (mr_run Y reduce mapf n threads (sched ++ more)).
  Proof.
    assert (G : forall k sched,
      (total_remaining (mr_run Y reduce mapf n threads sched) <= k)%nat ->
      exists more, mr_joined Y (mr_run Y reduce mapf n threads (sched ++ more))).
    { induction k as [k IH] using lt_wf_ind. intros sched Hk.
      pose proof (mr_inv_run sched) as Hinv.
      set (st := mr_run Y reduce mapf n threads sched) in *.
      destruct (Forall_Exists_dec (fun p => p = Done)
                  ltac:(intros [| | | |]; [right|right|right|left|right]; congruence) (pcs st))
        as [F|E].
      - exists []. rewrite app_nil_r. exact F.
      - apply Exists_exists in E. destruct E as (p & Hin & Hp).
        destruct (In_nth _ _ Done Hin) as (t & Hlt & Ht').
        assert (t < threads)%nat by (destruct Hinv as [HL _]; lia).
        pose proof (map_reduce_progress st t Hinv H ltac:(congruence)) as Hpr.
        assert (Es : mr_run Y reduce mapf n threads (sched ++ [t]) = step n threads t st).
        { unfold mr_run. rewrite fold_left_app. reflexivity. }
        destruct (IH (total_remaining (step n threads t st)) ltac:(lia) (sched ++ [t]))
          as (more & Hm).
        { rewrite Es. lia. }
        exists (t :: more). rewrite <- app_assoc in Hm. exact Hm. }
    intros sched. apply (G _ sched (le_n _)).
  Qed.
  Hypothesis reduce_assoc : forall y a b, reduce (reduce y a) b = reduce y (reduce a b).

  (** Serial semantics. *)
  Definition serial (y : Y) (a : Z) (k : nat) : Y :=
    fold_left (fun y i => reduce y (mapf (a + Z.of_nat i))) (seq 0 k) y.

  Lemma serial_S : forall y a k, serial y a (S k) = reduce (serial y a k) (mapf (a + Z.of_nat k)).
  Proof. intros. unfold serial. rewrite seq_S, fold_left_app. reflexivity. Qed.

  Lemma serial_chunk : forall y a k, (1 <= k)%nat -> serial y a k = reduce y (chunk a k).
  Proof.
    intros y a k H. induction k as [|k IH]; [lia|].
    destruct (Nat.eq_dec k 0) as [->|Hk].
    - unfold serial. cbn. f_equal. f_equal. lia.
    - rewrite serial_S, IH by lia. rewrite chunk_S by lia. apply reduce_assoc.
  Qed.

  Lemma serial_app : forall y a k l, serial (serial y a k) (a + Z.of_nat k) l = serial y a (k + l).
  Proof.
    intros y a k l. induction l as [|l IH].
    - rewrite Nat.add_0_r. reflexivity.
    - rewrite Nat.add_succ_r, !serial_S, IH. f_equal. f_equal. lia.
  Qed.

  Lemma combine_prefix : forall ps y,
    (forall t, (t < threads)%nat -> thread_ok ps t Done) -> length ps = threads ->
    forall k, (k <= threads)%nat ->
    mr_combine Y reduce y (firstn k ps) = serial y 0 (Z.to_nat (bnd n (Z.of_nat threads) (Z.of_nat k))).
  Proof.
    intros ps y Hok Hlen. induction k as [|k IH]; intros Hk.
    - rewrite bnd_0 by lia. reflexivity.
    - assert (Hs : exists v, nth_error ps k = Some v).
      { destruct (nth_error ps k) eqn:E; [eauto|]. apply nth_error_None in E. lia. }
      destruct Hs as (v & Hv).
      assert (Ef : firstn (S k) ps = firstn k ps ++ [v]).
      { clear - Hv. revert k Hv. induction ps as [|h ps IHp]; intros [|k] Hv; cbn in *; try discriminate.
        - congruence.
        - f_equal. apply IHp. exact Hv. }
      rewrite Ef. unfold mr_combine. rewrite fold_left_app.
      fold (mr_combine Y reduce y (firstn k ps)). rewrite IH by lia. cbn [fold_left].
      pose proof (Hok k ltac:(lia)) as Hd. cbn in Hd. unfold lo, hi in Hd.
      pose proof (bnd_mono n (Z.of_nat threads) (Z.of_nat k) (Z.of_nat k + 1) Hn ltac:(lia) ltac:(lia)).
      pose proof (bnd_mono n (Z.of_nat threads) 0 (Z.of_nat k) Hn ltac:(lia) ltac:(lia)) as H0.
      rewrite bnd_0 in H0 by lia.
      replace (Z.of_nat (S k)) with (Z.of_nat k + 1) by lia.
      set (b0 := bnd n (Z.of_nat threads) (Z.of_nat k)) in *.
      set (b1 := bnd n (Z.of_nat threads) (Z.of_nat k + 1)) in *.
      destruct (b0 <? b1) eqn:E.
      + rewrite Hd in Hv. injection Hv as <-.
        rewrite <- serial_chunk by lia.
        replace b0 with (0 + Z.of_nat (Z.to_nat b0)) at 2 by lia.
        rewrite serial_app. f_equal. lia.
      + rewrite (Hd v Hv). f_equal. lia.
  Qed.

  Lemma map_reduce_correct : forall sched y,
    mr_joined Y (mr_run Y reduce mapf n threads sched) ->
    mr_combine Y reduce y (partials (mr_run Y reduce mapf n threads sched))
    = serial y 0 (Z.to_nat n).
  Proof.
    intros sched y HJ.
    pose proof (mr_inv_run sched) as [HL [HP HT]].
    set (st := mr_run Y reduce mapf n threads sched) in *.
    assert (HD : forall t, (t < threads)%nat -> thread_ok (partials st) t Done).
    { intros t Hlt. specialize (HT t Hlt).
      assert (E : nth t (pcs st) Done = Done).
      { unfold mr_joined in HJ. rewrite Forall_forall in HJ.
        apply HJ. apply nth_In. lia. }
      rewrite E in HT. exact HT. }
    destruct HP as [H0|H1].
    - destruct (partials st) as [|h tl] eqn:E; [|discriminate].
      assert (n = 0).
      { destruct (Z.eq_dec n 0) as [|Hne]; [assumption|exfalso].
        destruct (partition_covers n (Z.of_nat threads) 0 Hn Ht ltac:(lia)) as (t & Hti & Hb).
        specialize (HD (Z.to_nat t) ltac:(lia)). cbn in HD. unfold lo, hi in HD.
        rewrite Z2Nat.id in HD by lia.
        destruct (bnd n (Z.of_nat threads) t <? bnd n (Z.of_nat threads) (t + 1)) eqn:El; [|lia].
        destruct (Z.to_nat t); discriminate. }
      rewrite H. reflexivity.
    - pose proof (combine_prefix (partials st) y HD H1 threads (le_n _)) as H.
      rewrite <- H1 in H at 1. rewrite firstn_all in H. rewrite H.
      rewrite bnd_last by lia. reflexivity.
  Qed.

End MR.
