(** Model of loops.h / loops.cc: loop partitioning, element loops, map_reduce. *)
From Coq Require Import ZArith List Bool Lia.
From Verif Require Import Base.
Import ListNotations.
Open Scope Z_scope.

(** loops.cc:10-17 [partition_loop].  [steps] is int64_t, [threads]/[thread] are
    int; C++ integer division truncates ([Z.quot]/[Z.rem]).
    The casts to [unsigned] in the assertion and in the last comparison are kept.
    Simplification: no overflow of int64 (all quantities are at most [steps]). *)
Definition partition_loop (steps threads thread : Z) : res (Z * Z) :=
  _ <- slow_assert ((0 <? threads) && (to_u32 thread <? to_u32 threads) && (0 <=? steps)) ;;
  let steps_per_thread := Z.quot steps threads in
  let extra_steps := Z.rem steps threads in
  let start := steps_per_thread * thread + Z.min extra_steps thread in
  let end_ := start + steps_per_thread
              + (if to_u32 thread <? to_u32 extra_steps then 1 else 0) in
  Ok (start, end_).

(** loops.h:38-51 [DEF_LOOP], host side: the public entry takes an int64_t [n],
    returns at once for 0 and otherwise passes [n] to a function with an [int]
    parameter, which runs [for (int i = 0; i < n; i++)].
    The list of indices visited, in order. *)
Definition host_loop_indices (n : Z) : list Z :=
  if n =? 0 then []
  else map Z.of_nat (seq 0 (Z.to_nat (to_i32 n))).

(** loops.h:26-30 [GRID_STRIDE_LOOP] for one device thread: indices
    [first, first+stride, ...] below [n].  [fuel] bounds the number of
    iterations; [None] means the loop is still running when the fuel is spent.
    Overflow of the [int] counter is UB. *)
Fixpoint grid_stride_loop (fuel : nat) (n stride i : Z) : option (res (list Z)) :=
  match fuel with
  | O => None
  | S fuel' =>
      if i <? n then
        if 2 ^ 31 <=? i + stride then Some UB
        else match grid_stride_loop fuel' n stride (i + stride) with
             | Some (Ok l) => Some (Ok (i :: l))
             | Some UB => Some UB
             | Some Throw => Some Throw
             | None => None
             end
      else Some (Ok [])
  end.

(** loops.h:33-35, 26-30: one launch of [blocks] blocks of [tpb] threads; the
    indices visited by each thread, listed by thread.
    [blockIdx.x * blockDim.x + threadIdx.x] ranges over [0, blocks*tpb). *)
Definition grid_indices (fuel : nat) (n blocks tpb : Z) : list (option (res (list Z))) :=
  map (fun t => grid_stride_loop fuel n (tpb * blocks) (Z.of_nat t))
      (seq 0 (Z.to_nat (tpb * blocks))).

(** ** map_reduce (loops.h:73-101, the OpenMP branch)

    Every thread runs its chunk: a critical section resizing [partials], then
    one step per loop iteration acting on its own slot [partials[thread]].
    Shared state: [partials] as [option (list (option Y))] -- [None] before any
    resize (empty vector), afterwards a vector of [threads] slots.
    Per-thread state: which part of the program it is in. *)
Section MapReduce.
  Variable Y : Type.
  Variable reduce : Y -> Y -> Y.   (* reduce(y, a) as a function returning the new y *)
  Variable mapf : Z -> Y.

  (** Program counter of a thread. *)
  Inductive pc :=
  | Start                 (* before partition_loop *)
  | Crit (s e : Z)        (* about to run the critical section, loops.h:85-88 *)
  | Iter (i s e : Z)      (* about to run iteration i of [s,e), loops.h:90-94 *)
  | Done
  | Failed.               (* partition_loop threw, or a bad slot access *)

  Record mr_state := { partials : list (option Y); pcs : list pc }.

  Fixpoint set_nth {A} (l : list A) (n : nat) (a : A) : list A :=
    match l, n with
    | [], _ => []
    | _ :: t, O => a :: t
    | h :: t, S n' => h :: set_nth t n' a
    end.

  (** [vector::resize(threads)]: keep existing slots, append empty ones. *)
  Definition resize (l : list (option Y)) (n : nat) : list (option Y) :=
    firstn n l ++ repeat None (n - length l).

  (** One step of thread [t] of [threads]; loops.h:81-95. *)
  Definition thread_step (n : Z) (threads : nat) (t : nat) (st : mr_state) : mr_state :=
    match nth t st.(pcs) Done with
    | Start =>
        match partition_loop n (Z.of_nat threads) (Z.of_nat t) with
        | Ok (s, e) =>
            {| partials := st.(partials);
               pcs := set_nth st.(pcs) t (if s <? e then Crit s e else Done) |}
        | _ => {| partials := st.(partials); pcs := set_nth st.(pcs) t Failed |}
        end
    | Crit s e =>
        {| partials := resize st.(partials) threads;
           pcs := set_nth st.(pcs) t (Iter s s e) |}
    | Iter i s e =>
        let next := if i + 1 <? e then Iter (i + 1) s e else Done in
        match nth_error st.(partials) t with
        | None => {| partials := st.(partials); pcs := set_nth st.(pcs) t Failed |}
        | Some slot =>
            if i =? s then
              {| partials := set_nth st.(partials) t (Some (mapf i));
                 pcs := set_nth st.(pcs) t next |}
            else
              match slot with
              | None => {| partials := st.(partials); pcs := set_nth st.(pcs) t Failed |}
              | Some p =>
                  {| partials := set_nth st.(partials) t (Some (reduce p (mapf i)));
                     pcs := set_nth st.(pcs) t next |}
              end
        end
    | Done => st
    | Failed => st
    end.

  Definition mr_init (threads : nat) : mr_state :=
    {| partials := []; pcs := repeat Start threads |}.

  (** A schedule is the list of thread numbers that take a step. *)
  Definition mr_run (n : Z) (threads : nat) (sched : list nat) : mr_state :=
    fold_left (fun st t => thread_step n threads t st) sched (mr_init threads).

  (** All threads have reached the end of the parallel region. *)
  Definition mr_joined (st : mr_state) : Prop := Forall (fun p => p = Done) st.(pcs).

  (** loops.h:97-99: the serial combination after the region. *)
  Definition mr_combine (y : Y) (ps : list (option Y)) : Y :=
    fold_left (fun y o => match o with Some t => reduce y t | None => y end) ps y.
End MapReduce.
Arguments partials {Y}.
Arguments pcs {Y}.
