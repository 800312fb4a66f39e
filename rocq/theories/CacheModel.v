(** Model of the cached twiddle tables, fft.cc:36-124, as singletons (singleton.h:11-33) that are
    cleared by shutdown (shutdown.cc:9-21), for the CPU and for the GPU.  Tables live in a heap of
    blocks; slices hold raw pointers to them.

    What is simplified: the entries of the tables are a parameter ([table s]: what twiddle_slice<S>(s)
    computes, [few0]: the table few); one heap stands for both memories; one scalar type S; one thread. *)
From Coq Require Import ZArith List Bool.
From Verif Require Import Base.
Import ListNotations.
Open Scope Z_scope.

Section Cache.
Variables (V : Type) (vopp_r vopp_i vswap : V -> V) (vmul : V -> V -> V).
(** fft.cc:36-41 for S, and fft.cc:69-78. *)
Variables (table : nat -> list V) (few0 : list V).

(** Allocated blocks; [None]: never allocated, or freed. *)
Record heap : Type := { next : nat; blocks : nat -> option (list V) }.
Definition alloc (h : heap) (l : list V) : nat * heap :=
  (next h, {| next := S (next h); blocks := fun i => if Nat.eqb i (next h) then Some l else blocks h i |}).
Definition release (h : heap) (ids : list nat) : heap :=
  {| next := next h; blocks := fun i => if existsb (Nat.eqb i) ids then None else blocks h i |}.

(** fft.cc:46-50: the vector of tables (moving an Array keeps its block) and the table few. *)
Record cache : Type := { tabs : list nat; fewp : nat }.
(** Both singletons, the functions of on_shutdown in order (shutdown.cc:9-16; [true]: clear of the GPU's),
    and a ghost: the arguments of the calls of twiddle_slice so far. *)
Record world : Type := { hp : heap; host : option cache; dev : option cache; reg : list bool; made : list nat }.
Definition world0 : world := {| hp := {| next := 0; blocks := fun _ => None |}; host := None; dev := None; reg := []; made := [] |}.

(** fft.cc:69-78 with singleton.h:18-29: the CPU singleton, built at the first use. *)
Definition host_single (w : world) : cache * world :=
  match host w with
  | Some c => (c, w)
  | None => let (f, h) := alloc (hp w) few0 in
            let c := {| tabs := []; fewp := f |} in
            (c, {| hp := h; host := Some c; dev := dev w; reg := reg w ++ [false]; made := made w |})
  end.
(** The GPU singleton: registered first, then few is copied from the CPU's (fft.cc:77). *)
Definition dev_single (w : world) : res (cache * world) :=
  match dev w with
  | Some c => Ok (c, w)
  | None =>
      let w := {| hp := hp w; host := host w; dev := None; reg := reg w ++ [true]; made := made w |} in
      let (hc, w) := host_single w in
      match blocks (hp w) (fewp hc) with
      | None => UB
      | Some l => let (f, h) := alloc (hp w) l in
                  let c := {| tabs := []; fewp := f |} in
                  Ok (c, {| hp := h; host := host w; dev := Some c; reg := reg w; made := made w |})
      end
  end.
(** fft.cc:53-56: n rounds of the loop on the CPU. *)
Fixpoint host_rounds (n : nat) (w : world) : world :=
  match n with
  | O => w
  | S n => let (c, w) := host_single w in
           let p := length (tabs c) in
           let (i, h) := alloc (hp w) (table p) in
           host_rounds n {| hp := h; host := Some {| tabs := tabs c ++ [i]; fewp := fewp c |}; dev := dev w; reg := reg w; made := made w ++ [p] |}
  end.
(** fft.cc:52-67 [ensure]: tables 0 .. s exist afterwards; the loop runs while size <= s. *)
Definition host_ensure (s : nat) (w : world) : world := let (c, w) := host_single w in host_rounds (S s - length (tabs c)) w.
(** fft.cc:57-65: on the GPU each round takes the table from the CPU. *)
Fixpoint dev_rounds (n : nat) (w : world) : res world :=
  match n with
  | O => Ok w
  | S n =>
      ' (c, w) <- dev_single w ;;
      let p := length (tabs c) in
      let w := host_ensure p w in
      let (hc, w) := host_single w in
      match nth_error (tabs hc) p with
      | None => UB
      | Some i =>
          match blocks (hp w) i with
          | None => UB
          | Some l => let (k, h) := alloc (hp w) l in
                      dev_rounds n {| hp := h; host := host w; dev := Some {| tabs := tabs c ++ [k]; fewp := fewp c |}; reg := reg w; made := made w |}
          end
      end
  end.
(** fft.cc:52-67. *)
Definition ensure (d : bool) (s : nat) (w : world) : res world :=
  if d then ' (c, w) <- dev_single w ;; dev_rounds (S s - length (tabs c)) w else Ok (host_ensure s w).
(** FullTwiddle<T>::single(). *)
Definition single (d : bool) (w : world) : res (cache * world) := if d then dev_single w else Ok (host_single w).

(** fft.cc:94-96, 115-117: a slice: the pointer and s (m = 1 << s); a big slice also points into few. *)
Record slice : Type := { ptr : nat; lev : nat; big : option (nat * Z) }.
(** fft.cc:82-85.  No table has index s < 0; for s >= 30 the int 2*m of fft.cc:37-39 overflows. *)
Definition get_slice (d : bool) (s : Z) (w : world) : res (slice * world) :=
  if (s <? 0) || (30 <=? s) then UB else
  w <- ensure d (Z.to_nat s) w ;;
  ' (c, w) <- single d w ;;
  match nth_error (tabs c) (Z.to_nat s) with
  | None => UB
  | Some i => Ok ({| ptr := i; lev := Z.to_nat s; big := None |}, w)
  end.
(** fft.cc:87-90.  A pointer beyond the end of few (120 elements) is undefined. *)
Definition get_big (d : bool) (s : Z) (w : world) : res (slice * world) :=
  ' (_, w) <- single d w ;;
  _ <- slow_assert (2 <=? s) ;;
  ' (t, w) <- get_slice d (s - 2) w ;;
  ' (c, w) <- single d w ;;
  if 120 <? 4 * s then UB else Ok ({| ptr := ptr t; lev := lev t; big := Some (fewp c, 4 * s) |}, w).
(** fft.cc:98-112: operator() on the table [l] with m = 1 << s. *)
Definition elem_at (l : list V) (j : Z) : res V :=
  if j <? 0 then UB else match nth_error l (Z.to_nat j) with Some v => Ok v | None => UB end.
Definition tw_at (l : list V) (s : nat) (j : Z) : res V :=
  let m := 2 ^ Z.of_nat s in
  let j := Z.land j (2 * m - 1) in
  let iflip := m <? j in
  let j := if iflip then 2 * m - j else j in
  let rflip := m / 2 <? j in
  let j := if rflip then m - j else j in
  let dflip := m / 4 <? j in
  let j := if dflip then m / 2 - j else j in
  t <- elem_at l j ;;
  let t := if dflip then vswap t else t in
  let t := if rflip then vopp_r t else t in
  Ok (if iflip then vopp_i t else t).
(** A read through a pointer: undefined if the block was freed. *)
Definition block_at (w : world) (i : nat) : res (list V) := match blocks (hp w) i with Some l => Ok l | None => UB end.
(** fft.cc:98-112, 119-123. *)
Definition read (w : world) (x : slice) (j : Z) : res V :=
  match big x with
  | None => l <- block_at w (ptr x) ;; tw_at l (lev x) j
  | Some (f, o) =>
      l <- block_at w (ptr x) ;; t <- tw_at l (lev x) (Z.shiftr j 2) ;;
      l <- block_at w f ;; e <- elem_at l (o + Z.land j 3) ;;
      Ok (vmul t e)
  end.
(** fft.cc:80 [clear] of one singleton; single() exists, as its constructor registered the function. *)
Definition clear (d : bool) (w : world) : world :=
  let wipe c := {| tabs := []; fewp := fewp c |} in
  match (if d then dev w else host w) with
  | None => w
  | Some c => let h := release (hp w) (tabs c) in
              if d then {| hp := h; host := host w; dev := Some (wipe c); reg := reg w; made := made w |}
              else {| hp := h; host := Some (wipe c); dev := dev w; reg := reg w; made := made w |}
  end.
(** shutdown.cc:18-21. *)
Definition shutdown (w : world) : world := fold_left (fun w d => clear d w) (reg w) w.

(** What a client does: ask for a slice ([d]: on the GPU), read entry j of the k-th slice it got, shut down. *)
Inductive op := Slice (d : bool) (s : Z) | Big (d : bool) (s : Z) | Read (k : nat) (j : Z) | Shutdown.
(** One step: the new world and slices, and what was read.  A failed assertion throws and leaves both. *)
Definition step (o : op) (w : world) (hs : list slice) : res (world * list slice * option V) :=
  match o with
  | Slice d s => ' (x, w) <- get_slice d s w ;; Ok (w, hs ++ [x], None)
  | Big d s => ' (x, w) <- get_big d s w ;; Ok (w, hs ++ [x], None)
  | Read k j => match nth_error hs k with None => Ok (w, hs, None) | Some x => v <- read w x j ;; Ok (w, hs, Some v) end
  | Shutdown => Ok (shutdown w, hs, None)
  end.
(** The outcome of each operation, up to the first undefined one, and the last state. *)
Fixpoint run (l : list op) (w : world) (hs : list slice) : list (res (option V)) * world :=
  match l with
  | [] => ([], w)
  | o :: l =>
      match step o w hs with
      | UB => ([UB], w)
      | Throw => let (r, w) := run l w hs in (Throw :: r, w)
      | Ok (w, hs, v) => let (r, w) := run l w hs in (Ok v :: r, w)
      end
  end.
End Cache.
