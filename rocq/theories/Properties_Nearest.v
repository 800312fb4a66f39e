(** Theorems about nearest.h, nearest.cc and area: C38, C51 and C52.

    [encloses A mem] (NearestProofs.v) is the contract of the external ball arithmetic; it is met by
    [intervals] (NearestInst.v, [intervals_ok]).  [rounded k c v]: v has as many components as the
    type k and is the greedy expansion of c, that is, c rounded to nearest for double. *)
From Coq Require Import ZArith List Bool Reals Lia Lra.
From Flocq Require Import Core BinarySingleNaN.
From Verif Require Import Base LoopsModel ExpansionModel ExpansionFloat ExpansionProofs
  NearestModel NearestProofs NearestArea NearestInst.
Import ListNotations.
Open Scope R_scope.

(** Comparing computed doubles without unfolding the proofs inside them. *)
Definition SFs (r : res (list double)) : option (list SpecFloat.spec_float) :=
  match r with Ok l => Some (map B2SF l) | _ => None end.
Lemma by_SFs (l m : list double) : map B2SF l = map B2SF m -> l = m.
Proof.
  revert m. induction l as [|a l IH]; intros [|b m] E; try discriminate; [reflexivity|].
  cbn [map] in E. injection E as E1 E2. f_equal; [apply B2SF_inj, E1|apply IH, E2].
Qed.
Lemma by_res r l : SFs r = Some (map B2SF l) -> r = Ok l.
Proof. destruct r as [m| |]; try discriminate. intro E. f_equal. apply by_SFs. injection E as E. exact E. Qed.

(** * C51: nearest returns the correctly rounded value *)

(** Whatever encloses [c] at the five precisions: a finite result is [c] correctly rounded. *)
Theorem C51_nearest : forall A mem, encloses A mem -> forall k f c v,
  (forall p, In p precisions -> mem (f p) c) ->
  nearest A k f = Ok v -> Forall fin v -> rounded k c v.
Proof. exact nearest_ok. Qed.
Print Assumptions C51_nearest.

(** Only the precisions 200, 400, ..., 3200 are used: nothing else about [f] matters. *)
Theorem C51_precisions : forall A k f g, (forall p, In p precisions -> f p = g p) ->
  nearest A k f = nearest A k g.
Proof. intros. now apply nearest_loop_ext. Qed.
Print Assumptions C51_precisions.

(** A result or an error, never anything undefined, whatever the ball arithmetic does. *)
Theorem C51_stops : forall A k f, (exists v, nearest A k f = Ok v) \/ nearest A k f = Throw.
Proof. intros A k f. pose proof (nearest_ub A k f). destruct (nearest A k f); eauto. congruence. Qed.
Print Assumptions C51_stops.

(** For double it does return once the two ends of the enclosure at one of the precisions round to
    the same number. *)
Theorem C51_returns : forall A f p a b, In p precisions -> bounds A (f p) p = (a, b) ->
  deq (round_d a) (round_d b) = true -> exists v, nearest A Double f = Ok v.
Proof. exact nearest_returns. Qed.
Print Assumptions C51_returns.

(** The result does not depend on the enclosures: two finite results for the same number agree. *)
Theorem C51_unique : forall A mem A' mem', encloses A mem -> encloses A' mem' ->
  forall k f f' c v v', (forall p, In p precisions -> mem (f p) c) ->
  (forall p, In p precisions -> mem' (f' p) c) ->
  nearest A k f = Ok v -> nearest A' k f' = Ok v' -> Forall fin v -> Forall fin v' ->
  map B2R v = map B2R v'.
Proof.
  intros A mem A' mem' HA HA' k f f' c v v' M M' E E' F F'.
  destruct (nearest_ok A mem HA k f c v M E F) as [L G].
  destruct (nearest_ok A' mem' HA' k f' c v' M' E' F') as [L' G'].
  apply (greedy_unique v v' c); congruence || assumption.
Qed.
Print Assumptions C51_unique.

(** What correct rounding means for an expansion of n components: relative error 2^-53n, up to the
    smallest subnormal. *)
Theorem C51_accuracy : forall k c v, rounded k c v ->
  Rabs (c - val v) <= bpow radix2 (-53) ^ width k * Rabs c + bpow radix2 (-1074).
Proof. intros k c v [<- G]. now apply greedy_err. Qed.
Print Assumptions C51_accuracy.

(** The constants. *)
Theorem C51_pi : forall A mem, encloses A mem -> forall k v,
  nearest_pi A k = Ok v -> Forall fin v -> rounded k PI v.
Proof.
  intros A mem HA k v E F. eapply (nearest_ok A mem HA); [|exact E|exact F].
  intros p Hp. apply (e_pi A mem HA). now apply precision_2.
Qed.
Print Assumptions C51_pi.
Theorem C51_sqrt : forall A mem, encloses A mem -> forall k a b v,
  (0 <= a)%Z -> (1 <= b < 2 ^ 63)%Z ->
  nearest_sqrt A k a b = Ok v -> Forall fin v -> rounded k (sqrt (IZR a / IZR b)) v.
Proof. exact nearest_sqrt_ok. Qed.
Print Assumptions C51_sqrt.
Theorem C51_twiddle : forall A mem, encloses A mem -> forall k a b v,
  (1 <= b < 2 ^ 63)%Z -> nearest_twiddle A k a b = Ok v ->
  (Forall fin (fst v) -> rounded k (cos (2 * PI * IZR a / IZR b)) (fst v)) /\
  (Forall fin (snd v) -> rounded k (sin (2 * PI * IZR a / IZR b)) (snd v)).
Proof. exact nearest_twiddle_ok. Qed.
Print Assumptions C51_twiddle.

(** Without the finiteness condition the claim fails: an enclosure with no finite lower end makes
    nearest return minus infinity at once, although the number is finite (here 1) and the next
    precision would give it. *)
Theorem C51_unbounded_refuted : exists A mem, encloses A mem /\
  exists f c v, (forall p, In p precisions -> mem (f p) c) /\
    nearest A Double f = Ok v /\ ~ rounded Double c v /\
    exists w, nearest A Double (fun p => f (2 * p)%Z) = Ok w /\ rounded Double c w.
Proof.
  exists intervals, imem. split; [exact intervals_ok|].
  exists (fun p => if (p <=? 200)%Z then None else ipoint (1, 0)%Z), 1, [B754_infinity true].
  assert (Z : rounded Double 1 [dofZ 1]).
  { apply (nearest_ok intervals imem intervals_ok Double (fun _ => ipoint (1, 0)%Z)).
    - intros p _. apply iint_mem.
    - apply by_res. vm_compute. reflexivity.
    - repeat constructor. }
  split; [|split; [|split]].
  - intros p _. destruct (p <=? 200)%Z; [exact Logic.I|]. apply iint_mem.
  - apply by_res. vm_compute. reflexivity.
  - intros [_ [E _]]. cbn [B2R] in E. rewrite rn_id in E; [lra|].
    apply (fmt_IZR 1). cbn. lia.
  - exists [dofZ 1]. split; [|exact Z]. apply by_res. vm_compute. reflexivity.
Qed.
Print Assumptions C51_unbounded_refuted.

(** pi to one and to two doubles, and the square root of 1/2. *)
Example C51_example :
  nearest_pi intervals Double = Ok [dlit 7074237752028440 (-51)] /\
  nearest_pi intervals (Expan 2) = Ok [dlit 7074237752028440 (-51); dlit 4967757600021511 (-105)] /\
  nearest_sqrt intervals Double 1 2 = Ok [dlit 6369051672525773 (-53)] /\
  Forall fin [dlit 7074237752028440 (-51); dlit 4967757600021511 (-105); dlit 6369051672525773 (-53)].
Proof.
  split; [apply by_res; vm_compute; reflexivity|].
  split; [apply by_res; vm_compute; reflexivity|].
  split; [apply by_res; vm_compute; reflexivity|]. repeat constructor.
Qed.
(** The first precision fails (the ends round differently), the second succeeds; and an enclosure
    that never gets tight is an error. *)
Example C51_retry_example :
  nearest intervals Double (fun p => if (p <=? 200)%Z then Some ((0, 0)%Z, (1, 0)%Z) else ipoint (1, -1)%Z)
    = Ok [dlit 1 (-1)] /\
  nearest intervals Double (fun p => Some ((0, 0)%Z, (1, 0)%Z)) = Throw.
Proof. split; [apply by_res|]; vm_compute; reflexivity. Qed.

(** * C52: nearest_twiddles fills every entry with the right root *)

(** [angle j b] is 2 pi j / b.  For every table that an int can index: no failure but running out of
    precision, every entry right, whichever way it was computed. *)
Theorem C52_twiddles : forall A mem, encloses A mem -> forall k n b fast zs fb,
  (1 <= n < 2 ^ 31)%Z -> (1 <= b < 2 ^ 63)%Z -> (2 <= fast)%Z ->
  nearest_twiddles A k n b fast = Ok (zs, fb) ->
  length zs = Z.to_nat n /\ (0 <= fb <= n)%Z /\
  forall j z, nth_error zs j = Some z ->
    (Forall fin (fst z) -> rounded k (cos (2 * PI * IZR (Z.of_nat j) / IZR b)) (fst z)) /\
    (Forall fin (snd z) -> rounded k (sin (2 * PI * IZR (Z.of_nat j) / IZR b)) (snd z)).
Proof. exact twiddles_ok. Qed.
Print Assumptions C52_twiddles.

Theorem C52_defined : forall A k n b fast, (1 <= n < 2 ^ 31)%Z ->
  nearest_twiddles A k n b fast <> UB.
Proof. exact twiddles_ub. Qed.
Print Assumptions C52_defined.

(** The two factors found with floating point square root and ceiling: every index below n is
    j0 * n1 + j1 for exactly one pair in range. *)
Theorem C52_cover : forall n, (1 <= n < 2 ^ 31)%Z ->
  let n0 := factor0 n in let n1 := Z.quot (n + n0 - 1) n0 in
  forall j, (0 <= j < n)%Z ->
  (0 <= Z.quot j n1 < n0)%Z /\ (0 <= j - Z.quot j n1 * n1 < n1)%Z /\
  forall j0 j1, (0 <= j0 < n0)%Z -> (0 <= j1 < n1)%Z -> j = (j0 * n1 + j1)%Z ->
    j0 = Z.quot j n1 /\ j1 = (j - Z.quot j n1 * n1)%Z.
Proof.
  intros n Hn n0 n1 j Hj. destruct (factor0_ok n Hn) as (B0 & B1 & C).
  fold n0 in B0, B1, C. fold n1 in B1, C.
  rewrite Z.quot_div_nonneg by lia.
  pose proof (Z.div_mod j n1 ltac:(lia)) as D. pose proof (Z.mod_pos_bound j n1 ltac:(lia)) as M.
  split; [split; [apply Z.div_pos; lia|apply Z.div_lt_upper_bound; lia]|].
  split; [lia|]. intros j0 j1 H0 H1 E.
  assert (j0 = (j / n1)%Z) as -> ; [|lia].
  apply Z.div_unique with j1; lia.
Qed.
Print Assumptions C52_cover.

(** A table of size 0 divides by zero. *)
Theorem C52_empty_refuted : forall A k b fast, nearest_twiddles A k 0 b fast = UB.
Proof.
  intros. unfold nearest_twiddles.
  assert (E : factor0 0 = 0%Z) by (vm_compute; reflexivity). rewrite E. reflexivity.
Qed.
Print Assumptions C52_empty_refuted.

(** The fourth roots of unity, and a size that is not a square. *)
Definition SFt (r : res (list (list double * list double) * Z)) :=
  match r with Ok (l, n) => Some (map (fun z => (map B2SF (fst z), map B2SF (snd z))) l, n) | _ => None end.
Example C52_example :
  SFt (nearest_twiddles intervals Double 4 4 100) =
  SFt (Ok ([([dofZ 1], [dofZ 0]); ([dofZ 0], [dofZ 1]); ([dofZ (-1)], [dofZ 0]); ([dofZ 0], [dofZ (-1)])], 0%Z)) /\
  factor0 1000003 = 1001%Z /\ factor0 1000000 = 1000%Z /\ factor0 (2 ^ 31 - 1) = 46341%Z.
Proof. split; [|split; [|split]]; vm_compute; reflexivity. Qed.

(** * C38: area is the truncated area formula *)

(** [area_sum 0 f] is the sum of (1-i) f_i^2, exactly.  [joins]: at each precision the parallel
    region runs to its end, with any number of threads and any interleaving. *)
Theorem C38_area : forall A mem, encloses A mem -> forall k threads sched f v,
  Forall (Forall fin) f -> joins A threads sched f ->
  area A k threads sched f = Ok v -> Forall fin v -> rounded k (PI * area_sum 0 f) v.
Proof. exact area_ok. Qed.
Print Assumptions C38_area.

(** So the number of threads and their timing do not matter. *)
Theorem C38_threads : forall A mem, encloses A mem -> forall k threads sched threads' sched' f v v',
  Forall (Forall fin) f -> joins A threads sched f -> joins A threads' sched' f ->
  area A k threads sched f = Ok v -> area A k threads' sched' f = Ok v' ->
  Forall fin v -> Forall fin v' -> map B2R v = map B2R v'.
Proof.
  intros A mem HA k t s t' s' f v v' F J J' E E' Fv Fv'.
  destruct (area_ok A mem HA k t s f v F J E Fv) as [L G].
  destruct (area_ok A mem HA k t' s' f v' F J' E' Fv') as [L' G'].
  apply (greedy_unique v v' (PI * area_sum 0 f)); congruence || assumption.
Qed.
Print Assumptions C38_threads.

(** Adding terms never increases the sum, nor the double that is returned. *)
Theorem C38_decreases : forall f g, f <> [] -> area_sum 0 (f ++ g) <= area_sum 0 f.
Proof. exact sum_decreases. Qed.
Print Assumptions C38_decreases.
Theorem C38_result_decreases : forall A mem, encloses A mem ->
  forall threads sched threads' sched' f g v v', f <> [] ->
  Forall (Forall fin) (f ++ g) -> joins A threads sched f -> joins A threads' sched' (f ++ g) ->
  area A Double threads sched f = Ok [v] -> area A Double threads' sched' (f ++ g) = Ok [v'] ->
  fin v -> fin v' -> B2R v' <= B2R v.
Proof.
  intros A mem HA t s t' s' f g v v' N F J J' E E' Fv Fv'.
  assert (Ff : Forall (Forall fin) f) by (apply Forall_app in F; apply F).
  destruct (area_ok A mem HA Double t s f [v] Ff J E ltac:(auto)) as [_ [G _]].
  destruct (area_ok A mem HA Double t' s' (f ++ g) [v'] F J' E' ltac:(auto)) as [_ [G' _]].
  rewrite G, G'. apply rn_le. apply Rmult_le_compat_l; [left; apply PI_RGT_0|].
  now apply sum_decreases.
Qed.
Print Assumptions C38_result_decreases.

(** f = 1 - z/2 + z^2/4 with two threads (the second starts first): 15/16 pi. *)
Definition ex_f : list (list double) := [[dofZ 1]; [dlit (-1) (-1)]; [dlit 1 (-2)]].
Example C38_example :
  Forall (Forall fin) ex_f /\ joins intervals (fun _ => 2%nat) (fun _ => [1; 0; 0; 1; 1; 0; 0]%nat) ex_f /\
  area intervals Double (fun _ => 2%nat) (fun _ => [1; 0; 0; 1; 1; 0; 0]%nat) ex_f = Ok [dlit 6632097892526663 (-51)] /\
  area_sum 0 ex_f = 15 / 16.
Proof.
  split; [repeat constructor|]. split; [|split].
  - intros p Hp. split; [cbn; lia|]. unfold mr_joined.
    assert (E : forall l : list pc, forallb (fun x => match x with Done => true | _ => false end) l = true ->
      Forall (fun p => p = Done) l).
    { induction l as [|x l IH]; intro H; constructor; cbn in H; apply andb_prop in H; destruct H;
        [destruct x; try discriminate; reflexivity|auto]. }
    apply E. vm_compute. reflexivity.
  - apply by_res. vm_compute. reflexivity.
  - unfold ex_f. cbn [area_sum val fold_right].
    destruct (dofZ_exact 1 ltac:(cbn; lia)) as [_ ->].
    rewrite !lit_rn by reflexivity.
    rewrite !rn_id.
    + unfold F2R. cbn -[IZR]. change (2 ^ 1)%positive with 2%positive. lra.
    + apply generic_format_FLT. exists (Float radix2 1 (-2)); [reflexivity|reflexivity|cbn; unfold emin; lia].
    + apply generic_format_FLT. exists (Float radix2 (-1) (-1)); [reflexivity|reflexivity|cbn; unfold emin; lia].
Qed.
