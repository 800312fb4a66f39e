(** C01, C02, C03: loop partitioning, parallel reduction, element loops. *)
From Coq Require Import ZArith List Bool Lia Permutation.
From Verif Require Import Base LoopsModel LoopsProofs.
Import ListNotations.
Open Scope Z_scope.

(** C01: the chunks tile [0,steps) exactly, in order, with sizes differing by at most 1. *)
Theorem C01_partition_loop_tiles : forall steps threads : Z,
  0 <= steps -> 1 <= threads < 2 ^ 31 ->
  exists lo hi : Z -> Z,
    (forall t, 0 <= t < threads -> partition_loop steps threads t = Ok (lo t, hi t)) /\
    lo 0 = 0 /\ hi (threads - 1) = steps /\
    (forall t, 0 <= t < threads -> lo t <= hi t) /\
    (forall t, 0 <= t < threads - 1 -> hi t = lo (t + 1)) /\
    (forall i, 0 <= i < steps -> exists! t, 0 <= t < threads /\ lo t <= i < hi t) /\
    (forall t u, 0 <= t < threads -> 0 <= u < threads -> hi t - lo t <= (hi u - lo u) + 1).
Proof. exact partition_loop_all. Qed.
Print Assumptions C01_partition_loop_tiles.

Example C01_instance :
  (0 <= 10 /\ 1 <= 4 < 2 ^ 31) /\
  map (partition_loop 10 4) [0; 1; 2; 3] = [Ok (0, 3); Ok (3, 6); Ok (6, 8); Ok (8, 10)].
Proof. split; [lia|reflexivity]. Qed.

(** C01: out-of-range arguments (as 32-bit ints) raise; in-range ones never do. *)
Theorem C01_partition_loop_rejects : forall steps threads thread : Z,
  - 2 ^ 31 <= threads < 2 ^ 31 -> - 2 ^ 31 <= thread < 2 ^ 31 ->
  (partition_loop steps threads thread = Throw
   <-> ~ (0 <= steps /\ 1 <= threads /\ 0 <= thread < threads)).
Proof.
  intros steps threads thread Ht Hi. split.
  - intros E (Hs & H1 & H2).
    rewrite (partition_loop_ok steps threads thread Hs (conj H1 (proj2 Ht)) H2) in E. discriminate.
  - exact (partition_loop_throw steps threads thread Ht Hi).
Qed.
Print Assumptions C01_partition_loop_rejects.

Example C01_reject_instance :
  map (fun p => partition_loop (fst p) 4 (snd p)) [(10, -1); (10, 4); (-1, 0)] = [Throw; Throw; Throw].
Proof. reflexivity. Qed.

(** C02: whatever the schedule, once every thread has reached the end of the parallel
    region, combining the partial results gives the serial left-to-right reduction. *)
Theorem C02_map_reduce_serial :
  forall (Y : Type) (reduce : Y -> Y -> Y) (mapf : Z -> Y),
  (forall y a b, reduce (reduce y a) b = reduce y (reduce a b)) ->
  forall (n : Z) (threads : nat), 0 <= n -> 1 <= Z.of_nat threads < 2 ^ 31 ->
  forall (sched : list nat) (y : Y),
  mr_joined Y (mr_run Y reduce mapf n threads sched) ->
  mr_combine Y reduce y (partials (mr_run Y reduce mapf n threads sched))
  = fold_left (fun y i => reduce y (mapf (Z.of_nat i))) (seq 0 (Z.to_nat n)) y.
Proof.
  intros Y reduce mapf Ha n threads Hn Ht.
  exact (map_reduce_correct Y reduce mapf n threads Hn Ht Ha).
Qed.
Print Assumptions C02_map_reduce_serial.

(** C02: no schedule fails, a resize never moves the vector while a thread holds a
    reference into it, and every partial schedule can be completed. *)
Theorem C02_map_reduce_safe :
  forall (Y : Type) (reduce : Y -> Y -> Y) (mapf : Z -> Y) (n : Z) (threads : nat),
  0 <= n -> 1 <= Z.of_nat threads < 2 ^ 31 ->
  forall sched : list nat,
  let st := mr_run Y reduce mapf n threads sched in
  (forall t, (t < threads)%nat -> nth t (pcs st) Done <> Failed) /\
  (forall t i s e, (t < threads)%nat -> nth t (pcs st) Done = Iter i s e ->
     resize Y (partials st) threads = partials st) /\
  (exists more, mr_joined Y (mr_run Y reduce mapf n threads (sched ++ more))).
Proof.
  intros Y reduce mapf n threads Hn Ht sched st.
  exact (conj (map_reduce_no_fail Y reduce mapf n threads Hn Ht sched)
        (conj (map_reduce_resize_noop Y reduce mapf n threads Hn Ht sched)
              (map_reduce_can_join Y reduce mapf n threads Hn Ht sched))).
Qed.
Print Assumptions C02_map_reduce_safe.

(** String concatenation (associative, not commutative), 3 threads, a mixed schedule. *)
Example C02_instance :
  let run := mr_run (list Z) (@app Z) (fun i => [i]) 5 3 [2; 0; 1; 1; 0; 0; 2; 1; 2; 1; 0]%nat in
  mr_joined _ run /\ mr_combine _ (@app Z) [100] (partials run) = [100; 0; 1; 2; 3; 4].
Proof. split; [repeat constructor|reflexivity]. Qed.

(** C03: host loops visit 0,1,...,n-1 in order (n below 2^31). *)
Theorem C03_host_loop_indices : forall n, 0 <= n < 2 ^ 31 ->
  host_loop_indices n = map Z.of_nat (seq 0 (Z.to_nat n)).
Proof. exact host_loop_ok. Qed.
Print Assumptions C03_host_loop_indices.

(** C03: over a whole device grid each index is visited exactly once. *)
Theorem C03_grid_loop_indices : forall n blocks tpb fuel,
  0 <= n -> 0 < blocks -> 0 < tpb -> n + tpb * blocks < 2 ^ 31 ->
  (Z.to_nat n < fuel)%nat ->
  exists ls : list (list Z),
    grid_indices fuel n blocks tpb = map (fun l => Some (Ok l)) ls /\
    Permutation (concat ls) (map Z.of_nat (seq 0 (Z.to_nat n))).
Proof. exact grid_indices_ok. Qed.
Print Assumptions C03_grid_loop_indices.

Example C03_instance :
  host_loop_indices 3 = [0; 1; 2] /\
  grid_indices 8 7 2 2 =
    [Some (Ok [0; 4]); Some (Ok [1; 5]); Some (Ok [2; 6]); Some (Ok [3])].
Proof. split; reflexivity. Qed.

(** C03: at 2^31 elements the host loop silently does nothing. *)
Theorem C03_host_loop_refuted : exists n, 0 < n /\ host_loop_indices n = [].
Proof. exact (ex_intro _ (2 ^ 31) (conj eq_refl host_loop_wraps)). Qed.
Print Assumptions C03_host_loop_refuted.
