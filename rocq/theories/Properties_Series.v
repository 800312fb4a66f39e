(** C17-C23, C25: the Series class, its primitives and the Newton schedule. *)
From Coq Require Import ZArith QArith Qcanon List Bool Lia.
From Verif Require Import Base Field FieldInst FPS SeriesModel SeriesSpec SeriesProofs CodeletModel
  CodeletProofs SeriesOps SeriesOpsProofs SeriesExtra SeriesExamples.
Import ListNotations.
Open Scope Z_scope.

(** C17: whatever sequence of operations is run, counts stay consistent. *)
Theorem C17_counts_invariant : forall (F : Fld) (kern : kernel F) (ops : list (op F)) (st st' : list (series F)),
  kernel_len kern -> Forall (op_ok F) ops ->
  Forall (fun x => 0 <= nonzero x /\ nonzero x <= Z.min (limit x) (known x) /\ limit x <= 2 ^ 28 /\ known x <= 2 ^ 28) st ->
  run_ops F kern (gen_bases F) st ops = Ok st' ->
  Forall (fun x => 0 <= nonzero x /\ nonzero x <= Z.min (limit x) (known x) /\ limit x <= 2 ^ 28 /\ known x <= 2 ^ 28) st'.
Proof. intros F. exact (ops_counts F). Qed.
Print Assumptions C17_counts_invariant.

(** C17: without raw set_counts, every coefficient below [nonzero] has been written. *)
Theorem C17_valid_invariant : forall (F : Fld) (kern : kernel F) (ops : list (op F)) (st st' : list (series F)),
  kernel_len kern -> Forall (op_ok F) ops -> Forall (no_counts F) ops ->
  Forall (fun x => valid x /\ limit x <= 2 ^ 28 /\ known x <= 2 ^ 28) st ->
  run_ops F kern (gen_bases F) st ops = Ok st' ->
  Forall (fun x => valid x /\ limit x <= 2 ^ 28 /\ known x <= 2 ^ 28) st'.
Proof. intros F. exact (ops_valid F). Qed.
Print Assumptions C17_valid_invariant.

(** C17: an operation changes no series other than its targets. *)
Theorem C17_frame : forall (F : Fld) (kern : kernel F) (base : bases F) (o : op F) (st st' : list (series F)) (j : nat),
  run_op F kern base st o = Ok st' -> (j < length st)%nat -> ~ In j (targets F o) ->
  nth_error st' j = nth_error st j.
Proof. intros F. exact (op_frame F). Qed.
Print Assumptions C17_frame.

(** A program: u = 1/(1-z), v = log u, v += u.high(1), w = exp of v minus v_0. *)
Definition C17_prog : list (op QcF) :=
  [ONew 8; ONew 8; ONew 8; OInv 1 (mkSrc 0 PAll); OLog 2 (mkSrc 1 PAll);
   OHigh 2 1 0 1 (mkSrc 1 (PHigh 1)); OExp 3 (mkSrc 2 (PLow 4))].
Example C17_instance :
  kernel_len (ref_kernel QcF) /\ Forall (op_ok QcF) C17_prog /\ Forall (no_counts QcF) C17_prog /\
  (let x := qs [1; -1; 0; 0; 0; 0] in
   Forall (fun x => valid x /\ limit x <= 2 ^ 28 /\ known x <= 2 ^ 28) [x] /\
   match run_ops QcF (ref_kernel QcF) (gen_bases QcF) [x] C17_prog with
   | Ok st => map (fun y => obs (Ok y)) st =
       [Ok (ints [1; -1; 0; 0; 0; 0], 6, 6);
        Ok (ints [1; 1; 1; 1; 1; 1], 6, 6);
        Ok ([Some (0 # 1); Some (2 # 1); Some (3 # 2); Some (4 # 3); Some (5 # 4); Some (6 # 5)]%Q, 6, 6);
        Ok ([Some (1 # 1); Some (2 # 1); Some (7 # 2); Some (17 # 3)]%Q, 4, 4)]
   | _ => False
   end).
Proof.
  split; [apply ref_kernel_len|]. split; [repeat constructor; vm_compute; congruence|].
  split; [repeat constructor|]. cbv zeta. split.
  - constructor; [|constructor]. split; [apply qs_valid|]. vm_compute. split; congruence.
  - vm_compute. reflexivity.
Qed.

(** C17 refuted without the range condition: set_counts(-1,-1) is accepted. *)
Theorem C17_set_counts_refuted : exists (x x' : series QcF),
  valid x /\ set_counts QcF x (-1) (-1) = Ok x' /\ nonzero x' < 0.
Proof.
  exists (qs [1; 2]), (mkS (cells (qs [1; 2])) (-1) (-1)).
  split; [apply qs_valid|]. split; reflexivity.
Qed.
Print Assumptions C17_set_counts_refuted.

(** C17 refuted for negative shifts: y.high_add(-5, x) makes the counts negative. *)
Theorem C17_negative_shift_refuted : exists (y x y' : series QcF),
  valid y /\ valid x /\ high_add QcF y (-5) x = Ok y' /\ known y' < 0.
Proof.
  exists (qs [1; 2; 3]), (qs [1; 2]), (mkS (cells (qs [1; 2; 3])) (-3) (-3)).
  split; [apply qs_valid|]. split; [apply qs_valid|]. split; [vm_compute; reflexivity|reflexivity].
Qed.
Print Assumptions C17_negative_shift_refuted.

(** C18 *)
Theorem C18_low : forall (F : Fld) (x : series F) (n : Z), valid x ->
  valid (low F x n) /\ known (low F x n) = Z.min (Z.max n 0) (known x) /\
  forall i, den (low F x n) i = if Z.of_nat i <? n then den x i else k0.
Proof. exact low_exact. Qed.
Print Assumptions C18_low.
Theorem C18_high : forall (F : Fld) (x : series F) (n : Z), valid x ->
  valid (high F x n) /\ known (high F x n) = Z.max (known x - Z.max n 0) 0 /\
  forall i, den (high F x n) i = den x (Z.to_nat n + i)%nat.
Proof. exact high_exact. Qed.
Print Assumptions C18_high.
Theorem C18_low_high_determine : forall (F : Fld) (x : series F) (n : Z) (i : nat), valid x ->
  den x i = kadd (den (low F x n) i) (fshift (Z.to_nat n) (den (high F x n)) i).
Proof. exact low_high_split. Qed.
Print Assumptions C18_low_high_determine.
Example C18_instance : valid (qs [5; 6; 7; 8]) /\
  map (fun n => obs (Ok (low QcF (qs [5; 6; 7; 8]) n))) [-3; 2; 9]
    = [Ok ([], 0, 0); Ok (ints [5; 6], 2, 2); Ok (ints [5; 6; 7; 8], 4, 4)] /\
  map (fun n => obs (Ok (high QcF (qs [5; 6; 7; 8]) n))) [-3; 3; 9]
    = [Ok (ints [5; 6; 7; 8], 4, 4); Ok (ints [8], 1, 1); Ok ([], 0, 0)].
Proof. split; [apply qs_valid|]. split; vm_compute; reflexivity. Qed.

(** C19 *)
Theorem C19_set_known : forall (F : Fld) (x : series F) (kn : Z), valid x ->
  (kn < 0 -> set_known F x kn = Throw) /\
  (0 <= kn -> exists x', set_known F x kn = Ok x' /\ valid x' /\ known x' = kn /\ cells x' = cells x /\
     forall i, den x' i = if Z.of_nat i <? kn then den x i else k0).
Proof. exact set_known_exact. Qed.
Print Assumptions C19_set_known.
Theorem C19_reduce_known : forall (F : Fld) (x : series F) (kn : Z), valid x ->
  exists x', reduce_known F x kn = Ok x' /\ valid x' /\ known x' = Z.min (known x) (Z.max kn 0) /\ cells x' = cells x /\
     forall i, den x' i = if Z.of_nat i <? kn then den x i else k0.
Proof. exact reduce_known_exact. Qed.
Print Assumptions C19_reduce_known.
Theorem C19_set_scalar : forall (F : Fld) (x : series F) (kn : Z) (a : K F),
  (0 < kn -> limit x = 0 -> set_scalar F x kn a = Throw) /\
  ((kn <= 0 \/ 0 < limit x) -> exists x', set_scalar F x kn a = Ok x' /\ valid x' /\ known x' = Z.max kn 0 /\
     limit x' = limit x /\ (forall i, (0 < i)%nat -> nth_error (cells x') i = nth_error (cells x) i) /\
     forall i, Z.of_nat i < kn -> den x' i = fC a i).
Proof. exact set_scalar_exact. Qed.
Print Assumptions C19_set_scalar.
Theorem C19_assign : forall (F : Fld) (x g : series F), valid g ->
  (limit x < nonzero g -> assign F x g = Throw) /\
  (nonzero g <= limit x -> exists x', assign F x g = Ok x' /\ valid x' /\ known x' = known g /\ nonzero x' = nonzero g /\
     limit x' = limit x /\ (forall i, den x' i = den g i) /\
     (forall i, nonzero g <= Z.of_nat i -> nth_error (cells x') i = nth_error (cells x) i)).
Proof. exact assign_exact. Qed.
Print Assumptions C19_assign.
Theorem C19_copy : forall (F : Fld) (g : series F) (lim : Z), valid g ->
  (Z.max lim 0 < nonzero g -> copy F g lim = Throw) /\
  (nonzero g <= Z.max lim 0 -> exists x', copy F g lim = Ok x' /\ valid x' /\ known x' = known g /\ nonzero x' = nonzero g /\
     limit x' = Z.max lim 0 /\ forall i, den x' i = den g i).
Proof. exact copy_exact. Qed.
Print Assumptions C19_copy.
Example C19_instance : valid (qs [5; 6; 7]) /\
  obs (set_known QcF (qs [5; 6; 7]) 9) = Ok (ints [5; 6; 7], 9, 3) /\
  obs (reduce_known QcF (qs [5; 6; 7]) 2) = Ok (ints [5; 6], 2, 2) /\
  obs (set_scalar QcF (qs [5; 6; 7]) 4 (q 9 1)) = Ok (ints [9], 4, 1) /\
  obs (copy QcF (qs [5; 6; 7]) 3) = Ok (ints [5; 6; 7], 3, 3) /\
  obs (copy QcF (qs [5; 6; 7]) 2) = Throw.
Proof. split; [apply qs_valid|]. repeat split; vm_compute; reflexivity. Qed.

(** C20: [r] is y + c z^s x, known as far as the inputs allow, and no cell past the new
    nonzero count is touched. *)
Definition shifted_sum {F : Fld} (y x : series F) (s : Z) (c : K F) (r : res (series F)) : Prop :=
  let nk := Z.min (known y) (known x + s) in
  exists y', r = Ok y' /\ valid y' /\ known y' = nk /\ limit y' = limit y /\
    (forall i, Z.of_nat i < nk -> den y' i = kadd (den y i) (fshift (Z.to_nat s) (fun j => kmul c (den x j)) i)) /\
    (forall j, nonzero y' <= Z.of_nat j -> nth_error (cells y') j = nth_error (cells y) j).
(** The number of possibly nonzero terms of the sum. *)
Definition sum_terms {F : Fld} (y x : series F) (s : Z) : Z :=
  Z.min (Z.min (known y) (known x + s)) (Z.max (nonzero y) (if nonzero x =? 0 then 0 else nonzero x + s)).

Lemma shifted_sum_ok : forall (F : Fld) (y x : series F) sign b s,
  valid y -> valid x -> 0 <= s <= 2 ^ 28 -> known y <= 2 ^ 28 -> nonzero x <= 2 ^ 28 -> Z.abs sign = 1 ->
  sum_terms y x s <= limit y ->
  shifted_sum y x s (if sign <? 0 then kopp (kpow2 b) else kpow2 b) (high_addsub_ldexp F y sign b s x).
Proof.
  intros F y x sign b s Hy Hx Hs Ky Nx Hg Hl.
  destruct (high_addsub_ok F y x sign b s Hy Hx (proj1 Hs) (proj2 Hs) Ky Nx Hg Hl) as (y' & E & V & K & L & N & D & U).
  exists y'. split; [exact E|]. split; [exact V|]. split; [exact K|]. split; [exact L|]. split.
  - intros i Hi. apply D. lia.
  - intros j Hj. apply U. rewrite N in Hj. exact Hj.
Qed.

Theorem C20_shifted_add : forall (F : Fld) (y x : series F) (b s : Z),
  valid y -> valid x -> 0 <= s <= 2 ^ 28 -> known y <= 2 ^ 28 -> nonzero x <= 2 ^ 28 ->
  (sum_terms y x s <= limit y ->
     shifted_sum y x s (kpow2 b) (high_add_ldexp F y s b x) /\
     shifted_sum y x s (kopp (kpow2 b)) (high_sub_ldexp F y s b x) /\
     shifted_sum y x s k1 (high_add F y s x) /\
     shifted_sum y x s (kopp k1) (high_sub F y s x)) /\
  (sum_terms y x 0 <= limit y ->
     shifted_sum y x 0 k1 (add_in F y x) /\
     shifted_sum y x 0 (kopp k1) (sub_in F y x)).
Proof.
  intros F y x b s Hy Hx Hs Ky Nx. split; intros Hl.
  - exact (conj (shifted_sum_ok F y x 1 b s Hy Hx Hs Ky Nx eq_refl Hl)
          (conj (shifted_sum_ok F y x (-1) b s Hy Hx Hs Ky Nx eq_refl Hl)
          (conj (shifted_sum_ok F y x 1 0 s Hy Hx Hs Ky Nx eq_refl Hl)
                (shifted_sum_ok F y x (-1) 0 s Hy Hx Hs Ky Nx eq_refl Hl)))).
  - assert (H0 : 0 <= 0 <= 2 ^ 28) by lia.
    exact (conj (shifted_sum_ok F y x 1 0 0 Hy Hx H0 Ky Nx eq_refl Hl)
                (shifted_sum_ok F y x (-1) 0 0 Hy Hx H0 Ky Nx eq_refl Hl)).
Qed.
Print Assumptions C20_shifted_add.
Theorem C20_shifted_add_rejects : forall (F : Fld) (y x : series F) (sign b s : Z),
  limit y < sum_terms y x s -> high_addsub_ldexp F y sign b s x = Throw.
Proof. exact high_addsub_throws. Qed.
Print Assumptions C20_shifted_add_rejects.
Example C20_instance :
  let y := mkS (map (fun a => Some (q a 1)) [1; 2; 3; 77]) 4 2 : series QcF in
  let x := qs [5; 6; 7] in
  (valid y /\ valid x /\ sum_terms y x 1 <= limit y) /\
  obs (high_sub_ldexp QcF y 1 3 x) = Ok (ints [1; -38; -48; -56], 4, 4) /\
  obs (high_add QcF y 1 x) = Ok (ints [1; 7; 6; 7], 4, 4) /\
  obs (sub_in QcF (qs [1; 2]) (qs [5; 6; 7])) = Ok (ints [-4; -4], 2, 2) /\
  obs (high_add QcF (set_unknown QcF y) 1 x) = Ok ([], 0, 0) /\
  obs (add_in QcF (mkS [] 3 0) x) = Throw.
Proof.
  cbv zeta. split.
  - split; [|split; [apply qs_valid|vm_compute; congruence]].
    unfold valid, limit. cbn [cells known nonzero map length]. repeat split; try lia.
    intros i Hi. destruct i as [|[|i]]; [eexists; reflexivity|eexists; reflexivity|lia].
  - repeat split; vm_compute; reflexivity.
Qed.

(** C21 *)
Theorem C21_mul : forall (F : Fld) (kern : kernel F) (z x y : series F), kernel_ok kern -> valid x -> valid y ->
  Z.min (known x) (known y) <= 2 ^ 28 ->
  (0 < nonzero x /\ 0 < nonzero y) \/ nonzero x + nonzero y <= 1 \/ known x = 0 \/ known y = 0 ->
  Z.min (Z.min (known x) (known y)) (Z.max (nonzero x + nonzero y - 1) 0) <= limit z ->
  exists z', set_mul F kern z x y = Ok z' /\ valid z' /\ known z' = Z.min (known x) (known y) /\ limit z' = limit z /\
    nonzero z' = Z.min (Z.min (known x) (known y)) (Z.max (nonzero x + nonzero y - 1) 0) /\
    forall i, Z.of_nat i < Z.min (known x) (known y) -> den z' i = fmul (den x) (den y) i.
Proof.
  intros F kern z x y HK Hx Hy Hs Hb Hl.
  destruct (set_mul_ok F kern HK z x y Hx Hy Hs Hb Hl) as (z' & E & V & K & L & N & D).
  exists z'. rsplit; auto. intros i Hi. apply D. lia.
Qed.
Print Assumptions C21_mul.
Theorem C21_sqr : forall (F : Fld) (kern : kernel F) (y x : series F), kernel_ok kern -> valid x -> known x <= 2 ^ 28 ->
  Z.min (known x) (Z.max (2 * nonzero x - 1) 0) <= limit y ->
  exists y', set_sqr F kern y x = Ok y' /\ valid y' /\ known y' = known x /\ limit y' = limit y /\
    forall i, Z.of_nat i < known x -> den y' i = fmul (den x) (den x) i.
Proof.
  intros F kern y x HK Hx Hs Hl.
  destruct (set_sqr_ok F kern HK y x Hx Hs Hl) as (y' & E & V & K & L & N & D).
  exists y'. rsplit; auto. intros i Hi. apply D. lia.
Qed.
Print Assumptions C21_sqr.
Example C21_instance :
  kernel_ok (ref_kernel QcF) /\ valid (qs [1; 2; 3]) /\
  obs (set_mul QcF (ref_kernel QcF) (new_series 3) (qs [1; 2; 3]) (qs [4; 5; 6])) = Ok (ints [4; 13; 28], 3, 3) /\
  obs (set_sqr QcF (ref_kernel QcF) (new_series 3) (qs [1; 2; 3])) = Ok (ints [1; 4; 10], 3, 3).
Proof. split; [apply ref_kernel_ok|]. split; [apply qs_valid|]. split; vm_compute; reflexivity. Qed.
(** C21: with the kernel's own assertion, a known-zero operand makes mul throw. *)
Theorem C21_mul_known_zero_refuted : forall (F : Fld) (kern : kernel F) (z x y : series F),
  kernel_strict kern -> valid x -> valid y -> known x < 2 ^ 62 -> known y < 2 ^ 62 ->
  0 < known x -> 0 < known y ->
  (nonzero x = 0 /\ 2 <= nonzero y) \/ (nonzero y = 0 /\ 2 <= nonzero x) ->
  Z.min (known x) (known y) <= limit z ->
  set_mul F kern z x y = Throw.
Proof. exact set_mul_strict. Qed.
Print Assumptions C21_mul_known_zero_refuted.
Example C21_refuted_instance :
  kernel_strict (ref_kernel QcF) /\ valid (qzero 2) /\
  set_mul QcF (ref_kernel QcF) (new_series 2) (qzero 2) (qs [1; 2]) = Throw.
Proof. split; [apply ref_kernel_strict|]. split; [apply qzero_valid; lia|vm_compute; reflexivity]. Qed.

(** C22 *)
Theorem C22_mul1p : forall (F : Fld) (kern : kernel F) (z x y : series F) (s : Z), kernel_ok kern -> valid x -> valid y ->
  0 < s -> Z.min (known x) (known y + s) <= 2 ^ 28 -> nonzero x <= 2 ^ 28 ->
  (0 < nonzero x /\ 0 < nonzero y) \/ Z.min (known x) (known y + s) <= s \/ nonzero x + nonzero y <= 1 ->
  Z.min (Z.min (known x) (known y + s)) (nonzero x + nonzero y + s - 1) <= limit z ->
  exists z', set_mul1p F kern z x y s = Ok z' /\ valid z' /\ known z' = Z.min (known x) (known y + s) /\
    limit z' = limit z /\
    forall i, Z.of_nat i < Z.min (known x) (known y + s) ->
      den z' i = fmul (den x) (fadd f1 (fshift (Z.to_nat s) (den y))) i.
Proof.
  intros F kern z x y s HK Hx Hy Hs Hn Hn2 Hb Hl.
  destruct (set_mul1p_ok F kern HK z x y s Hx Hy Hn Hn2 Hs Hb Hl) as (z' & E & V & K & L & N & D).
  exists z'. rsplit; auto. intros i Hi. apply D. lia.
Qed.
Print Assumptions C22_mul1p.
Theorem C22_mul1p_rejects : forall (F : Fld) (kern : kernel F) (z x y : series F) (s : Z), s <= 0 ->
  set_mul1p F kern z x y s = Throw.
Proof. intros F kern z x y s Hs. unfold set_mul1p. destruct (Z.ltb_spec 0 s); [lia|reflexivity]. Qed.
Print Assumptions C22_mul1p_rejects.
Example C22_instance :
  obs (set_mul1p QcF (ref_kernel QcF) (new_series 4) (qs [1; 2; 3; 4]) (qs [5; 6]) 2) = Ok (ints [1; 2; 8; 20], 4, 4) /\
  obs (set_mul1p QcF (ref_kernel QcF) (new_series 4) (qs [1; 2; 3; 4]) (qs [5; 6]) 0) = Throw.
Proof. split; vm_compute; reflexivity. Qed.
Theorem C22_mul1p_known_zero_refuted : forall (F : Fld) (kern : kernel F) (z x y : series F) (s : Z),
  kernel_strict kern -> valid x -> valid y -> 0 < s -> known x < 2 ^ 62 ->
  s < Z.min (known x) (known y + s) ->
  (nonzero x = 0 /\ 2 <= nonzero y) \/ (nonzero y = 0 /\ 2 <= nonzero x) ->
  Z.min (known x) (known y + s) <= limit z ->
  set_mul1p F kern z x y s = Throw.
Proof. exact set_mul1p_strict. Qed.
Print Assumptions C22_mul1p_known_zero_refuted.
Example C22_refuted_instance :
  set_mul1p QcF (ref_kernel QcF) (new_series 3) (qs [1; 2; 3]) (qzero 2) 1 = Throw.
Proof. vm_compute. reflexivity. Qed.

(** C23 *)
Definition elementwise {F : Fld} (y x : series F) (h : nat -> K F) (r : res (series F)) : Prop :=
  exists y', r = Ok y' /\ valid y' /\ known y' = known x /\ nonzero y' = nonzero x /\ limit y' = limit y /\
    (forall i, den y' i = h i).
Theorem C23_elementwise : forall (F : Fld) (y x : series F) (k s : Z), valid x -> nonzero x <= limit y ->
  known x <= 2 ^ 28 -> 0 <= s <= 2 ^ 28 ->
  elementwise y x (fun i => kopp (den x i)) (set_neg F y x) /\
  elementwise y x (fun i => kmul (kpow2 k) (den x i)) (set_ldexp F y x k) /\
  elementwise y x (fun i => kmul (kofZ (s + Z.of_nat i)) (den x i)) (set_derivative_shift F y x s) /\
  elementwise y x (fun i => if s + Z.of_nat i =? 0 then k0 else kdiv (den x i) (kofZ (s + Z.of_nat i)))
    (set_integral_shift F y x s).
Proof.
  intros F y x k s Hx Hl Hk Hs.
  destruct (set_neg_ok F y x Hx Hl Hk) as (a & A1 & A2 & A3 & A4 & A5 & A6).
  destruct (set_ldexp_ok F y x k Hx Hl Hk) as (b & B1 & B2 & B3 & B4 & B5 & B6).
  destruct (set_derivative_shift_ok F y x s Hx Hl Hk (proj1 Hs) (proj2 Hs)) as (c & C1 & C2 & C3 & C4 & C5 & C6).
  destruct (set_integral_shift_ok F y x s Hx Hl Hk (proj1 Hs) (proj2 Hs)) as (d & D1 & D2 & D3 & D4 & D5 & D6).
  split; [exists a|split; [exists b|split; [exists c|exists d]]]; rsplit; auto.
Qed.
Print Assumptions C23_elementwise.
(** C23: differentiating then integrating gives back every term except one with s + i = 0. *)
Theorem C23_integral_derivative : forall (F : Fld) (y w x : series F) (s : Z), valid x ->
  nonzero x <= limit y -> nonzero x <= limit w -> known x <= 2 ^ 28 -> 0 <= s <= 2 ^ 28 ->
  exists d r, set_derivative_shift F w x s = Ok d /\ set_integral_shift F y d s = Ok r /\ known r = known x /\
    forall i, den r i = if s + Z.of_nat i =? 0 then k0 else den x i.
Proof.
  intros F y w x s Hx Hl Hw Hk Hs.
  destruct (set_derivative_shift_ok F w x s Hx Hw Hk (proj1 Hs) (proj2 Hs)) as (d & C1 & C2 & C3 & C4 & C5 & C6).
  assert (Hd : nonzero d <= limit y) by lia. assert (Hkd : small (known d)) by (unfold small; lia).
  destruct (set_integral_shift_ok F y d s C2 Hd Hkd (proj1 Hs) (proj2 Hs)) as (r & D1 & D2 & D3 & D4 & D5 & D6).
  exists d, r. split; [exact C1|]. split; [exact D1|]. split; [congruence|]. intros i. rewrite D6.
  unfold fishift. destruct (Z.eqb_spec (s + Z.of_nat i) 0); [reflexivity|]. rewrite C6. unfold fdshift.
  exact (kdiv_mul_l F (kofZ (s + Z.of_nat i)) (den x i) (kofZ_nz F (s + Z.of_nat i) n)).
Qed.
Print Assumptions C23_integral_derivative.
Example C23_instance :
  obs (set_neg QcF (new_series 3) (qs [1; -2; 3])) = Ok (ints [-1; 2; -3], 3, 3) /\
  obs (set_ldexp QcF (new_series 2) (qs [1; -2]) (-1)) = Ok ([Some (1 # 2); Some (-1 # 1)]%Q, 2, 2) /\
  obs (set_derivative_shift QcF (new_series 3) (qs [1; 2; 3]) 4) = Ok (ints [4; 10; 18], 3, 3) /\
  obs (set_integral_shift QcF (new_series 3) (qs [7; 2; 3]) 0) = Ok ([Some (0 # 1); Some (2 # 1); Some (3 # 2)]%Q, 3, 3).
Proof. repeat split; vm_compute; reflexivity. Qed.

(** C25 *)
Theorem C25_newton_schedule : forall n0 n : Z, 0 < n0 -> exists ms : list Z,
  (n0 <= n -> chain n0 ms n) /\ (n <= n0 -> ms = []) /\
  (n0 <= n -> forall ms', chain n0 ms' n -> (length ms <= length ms')%nat) /\
  forall (A : Type) (step : Z -> Z -> bool -> A -> res A) (st : A),
    newton_iterate n0 n step st = run_calls step (calls n0 ms) st.
Proof. exact newton_calls. Qed.
Print Assumptions C25_newton_schedule.
Theorem C25_newton_rejects : forall (A : Type) (n0 n : Z) (step : Z -> Z -> bool -> A -> res A) (st : A),
  n0 <= 0 -> n0 < n -> newton_iterate n0 n step st = Throw.
Proof.
  intros A n0 n step st H1 H2. unfold newton_iterate.
  destruct (Z.leb_spec n n0); [lia|]. destruct (Z.ltb_spec 0 n0); [lia|reflexivity].
Qed.
Print Assumptions C25_newton_rejects.
Example C25_instance :
  newton_iterate 5 37 (fun m0 m r tr => Ok (tr ++ [(m0, m, r)])) []
  = Ok [(5, 10, false); (5, 10, true); (10, 19, false); (10, 19, true); (19, 37, false); (19, 37, true)].
Proof. reflexivity. Qed.
