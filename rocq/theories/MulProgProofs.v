(** The multiplications with generated programs compute what those of FFTModel.v do. *)
From Coq Require Import String ZArith List Bool Lia Reals.
From Verif Require Import Base Field FieldInst FPS NewtonProofs ExpModel ExpProofs BlockProofs GradSpec GenModel FFTModel FFTLoop FFTMath FFTMulSpec FFTShift2 FFTShift4 FFTMul FFTKernel GenProofs GenBack GenScope GenDriver GenWhole
  BaseGenModel BaseGenRun BaseGenProofs SeriesModel SeriesSpec SerGenModel SerGenProofs MulProgModel.
Import ListNotations.
Open Scope nat_scope.

Lemma ctz2 : forall p, Z.to_nat (countr_zero64 (Z.of_nat (2 ^ p))) = p.
Proof. intros p. rewrite Nat2Z.inj_pow. change (Z.of_nat 2) with 2%Z. rewrite NewtonProofs.ctz_pow2. apply Nat2Z.id. Qed.
Lemma nonzero2 : forall p, (2 ^ p =? 0) = false.
Proof. intros p. apply Nat.eqb_neq. apply Nat.pow_nonzero. discriminate. Qed.
(** ** Arrays in memory *)
Lemma flat_some : forall l i, i < length l -> flat l (Z.of_nat i) = Some (nth i l 0%R).
Proof. intros l i H. unfold flat. destruct (Z.ltb_spec (Z.of_nat i) 0); [lia|]. rewrite Nat2Z.id. apply nth_error_nth'. exact H. Qed.
Lemma fetch_ok : forall (v : nat -> R) (m : BaseGenRun.mem RF) n a, (forall i, a <= i < a + n -> m (Z.of_nat i) = Some (v i)) -> fetch m (seq a n) = Ok (map v (seq a n)).
Proof.
  intros v m. induction n as [|n IH]; intros a H; [reflexivity|]. cbn [seq fetch map]. rewrite (H a) by lia. rewrite (IH (S a)) by (intros i Hi; apply H; lia). reflexivity.
Qed.
Lemma total_rsum : forall n (g : nat -> R), total (F := RF) g n = rsum R_ops n g.
Proof. induction n as [|n IH]; intros g; [reflexivity|]. cbn [total rsum]. rewrite IH. reflexivity. Qed.
Lemma rsum_ext_le : forall n (f g : nat -> R), (forall i, i < n -> f i = g i) -> rsum R_ops n f = rsum R_ops n g.
Proof. intros n f g H. apply (FFTMul.rsum_ext R_ops). exact H. Qed.

Section Base.
Variables (G : SigOps) (HL : SigLaws G) (draw : string -> G) (lr : bool) (P : progs G) (I : interp RF).
Lemma flat_item : forall f l (a c : string) (xs : list R) (k : nat), f_int f c = Z.of_nat (length xs) -> f_ptr f a = Z.of_nat k -> k + length xs <= length l ->
  (forall i, i < length xs -> nth (k + i) l 0%R = nth i xs 0%R) -> forall i, item f (flat l) a c i = nth i xs 0%R.
Proof.
  intros f l a c xs k Hc Ha Hl Hn i. unfold item. rewrite Hc, Ha. destruct (Z.ltb_spec (Z.of_nat i) (Z.of_nat (length xs))) as [L|L].
  - rewrite <- Nat2Z.inj_add, flat_some by lia. apply Hn. lia.
  - rewrite nth_overflow by lia. reflexivity.
Qed.
Lemma flat_mapped : forall f l (a c : string) (n k len : nat), f_int f c = Z.of_nat len -> f_ptr f a = Z.of_nat k -> k + len <= length l -> mapped f (flat l) a c n.
Proof. intros f l a c n k len Hc Ha Hl i Hi Hb. rewrite Hc in Hb. rewrite Ha, <- Nat2Z.inj_add, flat_some by lia. discriminate. Qed.
Lemma conv_pcoef : forall (f g : nat -> R) xs ys i, (forall i, f i = nth i xs 0%R) -> (forall i, g i = nth i ys 0%R) -> BaseGenProofs.conv (F := RF) f g i = pcoef R_ops xs ys i.
Proof. intros f g xs ys i Hf Hg. unfold BaseGenProofs.conv, pcoef. rewrite total_rsum. apply rsum_ext_le. intros j _. rewrite Hf, Hg. reflexivity. Qed.

Lemma mul8_ok : forall g, mul_gen G draw lr 8 = Ok g -> clean RF G g -> p_mul P = q_out G g ->
  forall z x y, length z <= 8 -> run_mul8 G P I z x y = Ok (map (pcoef R_ops x y) (seq 0 (length z))).
Proof.
  intros g E C EP z x y Hz. unfold run_mul8. rewrite EP. set (f := mul_frame _ _ _). set (l := z ++ x ++ y).
  assert (Ll : length l = length z + (length x + length y)) by (unfold l; rewrite !app_length; reflexivity).
  destruct (mul_gen_ok RF G HL draw lr f 8 g I (flat l) E C) as (m' & Ex & Hr & _).
  { intros _. split; [|split].
    - apply (flat_mapped f l "x" "nx" 8 (length z) (length x)); [reflexivity|reflexivity|lia].
    - apply (flat_mapped f l "y" "ny" 8 (length z + length x) (length y)); [reflexivity|reflexivity|lia].
    - apply (flat_mapped f l "z" "nz" 8 0 (length z)); [reflexivity|reflexivity|lia]. }
  rewrite Ex. cbn [ran bind]. apply fetch_ok. intros i Hi. specialize (Hr i ltac:(lia)). change (f_int f "nz") with (Z.of_nat (length z)) in Hr. change (f_ptr f "z") with 0%Z in Hr. rewrite Z.add_0_l in Hr. rewrite Hr by lia. f_equal.
  apply conv_pcoef.
  - apply (flat_item f l "x" "nx" x (length z)); [reflexivity|reflexivity|lia|]. intros j Hj. unfold l. rewrite app_nth2_plus. apply app_nth1. exact Hj.
  - apply (flat_item f l "y" "ny" y (length z + length x)); [reflexivity|reflexivity|lia|]. intros j Hj. unfold l. rewrite <- Nat.add_assoc, !app_nth2_plus. reflexivity.
Qed.
Lemma sqr8_ok : forall g, sqr_gen G draw lr 8 = Ok g -> clean RF G g -> p_sqr P = q_out G g ->
  forall y x, length y <= 8 -> run_sqr8 G P I y x = Ok (map (pcoef R_ops x x) (seq 0 (length y))).
Proof.
  intros g E C EP y x Hy. unfold run_sqr8. rewrite EP. set (f := sqr_frame _ _). set (l := y ++ x).
  assert (Ll : length l = length y + length x) by (unfold l; rewrite !app_length; reflexivity).
  destruct (sqr_gen_ok RF G HL draw lr f 8 g I (flat l) E C) as (m' & Ex & Hr & _).
  { intros _. split.
    - apply (flat_mapped f l "x" "nx" 8 (length y) (length x)); [reflexivity|reflexivity|lia].
    - apply (flat_mapped f l "y" "ny" 8 0 (length y)); [reflexivity|reflexivity|lia]. }
  rewrite Ex. cbn [ran bind]. apply fetch_ok. intros i Hi. specialize (Hr i ltac:(lia)). change (f_int f "ny") with (Z.of_nat (length y)) in Hr. change (f_ptr f "y") with 0%Z in Hr. rewrite Z.add_0_l in Hr. rewrite Hr by lia. f_equal.
  assert (Q : forall i, item f (flat l) "x" "nx" i = nth i x 0%R).
  { apply (flat_item f l "x" "nx" x (length y)); [reflexivity|reflexivity|lia|]. intros j Hj. unfold l. rewrite app_nth2_plus. reflexivity. }
  apply conv_pcoef; exact Q.
Qed.
End Base.

(** ** The three entry points *)
Section Mul.
Variables (G : SigOps) (P : progs G) (ord : Z -> list nat) (e : envs) (I : interp RF).
Hypothesis Hord : sched_ok ord.
Hypothesis Hfwd : forall p x y w, 1 <= p <= 29 -> length y = 2 ^ (p - 1) -> srfft_scramble R_ops ord y x = Ok w ->
  prog_srfft G ord e (p_first P) (p_rest P) p (y, x) = Some (w, x).
Hypothesis Hbwd : forall add p x y x' y', 1 <= p <= 29 -> length y = 2 ^ (p - 1) -> isrfft_scramble R_ops ord add x y = Ok (x', y') ->
  prog_isrfft G ord e (p_ifirst P add) (p_irest P) p (y, x) = Some (y', x').
Hypothesis Hmul8 : forall z x y, length z <= 8 -> run_mul8 G P I z x y = Ok (map (pcoef R_ops x y) (seq 0 (length z))).
Hypothesis Hsqr8 : forall y x, length y <= 8 -> run_sqr8 G P I y x = Ok (map (pcoef R_ops x x) (seq 0 (length y))).
Variable junk : nat -> list (R * R).
Hypothesis Hjunk : forall n, length (junk n) = n.

Lemma run_srfft_ok : forall p x y w, p <= 29 -> length y = 2 ^ p / 2 -> srfft_scramble R_ops ord y x = Ok w -> run_srfft G P ord e y x = Ok w.
Proof.
  intros p x y w Hp Hy E. destruct p as [|p].
  - destruct y; [|discriminate Hy]. unfold srfft_scramble in E. cbn in E. injection E as <-. reflexivity.
  - assert (Hy' : length y = 2 ^ (S p - 1)). { rewrite Hy. cbn [Nat.pow]. rewrite Nat.mul_comm, Nat.div_mul by discriminate. f_equal. lia. }
    pose proof (Hfwd (S p) x y w ltac:(lia) Hy' E) as Q. unfold srfft_scramble in E. unfold run_srfft. assert (Y2 : 2 * length y = 2 ^ S p) by (rewrite Hy'; replace (S p - 1) with p by lia; cbn [Nat.pow]; lia). change (A R_ops) with R in *. rewrite Y2, nonzero2, ctz2 in *.
    destruct (slow_assert _) as [u| |] in E |- *; try discriminate. cbn [bind]. rewrite Q. reflexivity.
Qed.
Lemma run_isrfft_ok : forall add p x y x' y', p <= 29 -> length y = 2 ^ p / 2 -> isrfft_scramble R_ops ord add x y = Ok (x', y') -> run_isrfft G P ord e add x y = Ok x'.
Proof.
  intros add p x y x' y' Hp Hy E. destruct p as [|p].
  - destruct y; [|discriminate Hy]. unfold isrfft_scramble in E. cbn in E. injection E as <- _. reflexivity.
  - assert (Hy' : length y = 2 ^ (S p - 1)). { rewrite Hy. cbn [Nat.pow]. rewrite Nat.mul_comm, Nat.div_mul by discriminate. f_equal. lia. }
    pose proof (Hbwd add (S p) x y x' y' ltac:(lia) Hy' E) as Q. unfold isrfft_scramble in E. unfold run_isrfft. assert (Y2 : 2 * length y = 2 ^ S p) by (rewrite Hy'; replace (S p - 1) with p by lia; cbn [Nat.pow]; lia). change (A R_ops) with R in *. rewrite Y2, nonzero2, ctz2 in *.
    destruct (slow_assert _) as [u| |] in E |- *; try discriminate. cbn [bind]. rewrite Q. reflexivity.
Qed.
Lemma size_pow : forall nz, (Z.of_nat nz <= 2 ^ 28)%Z -> exists p, p <= 29 /\ fft_size nz = 2 ^ p.
Proof.
  intros nz H. destruct nz as [|nz]; [exists 0; split; [lia|reflexivity]|]. destruct (fft_size_ok (S nz) ltac:(lia) H) as (p & Hp & E & _). exists p. split; [lia|exact E].
Qed.

Definition run_core (op : bool) (middle : list R -> res (list R)) (z x y : list R) : res (list R) :=
  let fn := fft_size (length z) in
  fx <- run_srfft G P ord e (junk (fn / 2)) x ;;
  fy <- run_srfft G P ord e (junk (fn / 2)) y ;;
  fx <- FFTModel.def_loop ord (fn / 2) (mul_cwise R_ops fy (inv_scalar R_ops (fn / 2))) fx ;;
  z <- middle z ;;
  run_isrfft G P ord e op z fx.
Definition run_core_sqr (z x : list R) : res (list R) :=
  let fn := fft_size (length z) in
  fx <- run_srfft G P ord e (junk (fn / 2)) x ;;
  fx <- FFTModel.def_loop ord (fn / 2) (sqr_cwise R_ops (inv_scalar R_ops (fn / 2))) fx ;;
  run_isrfft G P ord e false z fx.
Lemma mul_cwise_len : forall fy a i fx fx', mul_cwise R_ops fy a i fx = Ok fx' -> length fx' = length fx.
Proof.
  intros fy a i fx fx' H. unfold mul_cwise, aget, aset in H. destruct (nth_error fx i); cbn [bind] in H; [|discriminate]. destruct (nth_error fy i); cbn [bind] in H; [|discriminate].
  destruct (i <? length fx); [|discriminate]. injection H as <-. apply upd_length.
Qed.
Lemma sqr_cwise_len : forall a i fx fx', sqr_cwise R_ops a i fx = Ok fx' -> length fx' = length fx.
Proof.
  intros a i fx fx' H. unfold sqr_cwise, aget, aset in H. destruct (nth_error fx i); cbn [bind] in H; [|discriminate].
  destruct (i <? length fx); [|discriminate]. injection H as <-. apply upd_length.
Qed.
Lemma scrambled : forall nz x w, (Z.of_nat nz <= 2 ^ 28)%Z -> length x <= fft_size nz -> srfft_scramble R_ops ord (junk (fft_size nz / 2)) x = Ok w ->
  length w = fft_size nz / 2 /\ run_srfft G P ord e (junk (fft_size nz / 2)) x = Ok w.
Proof.
  intros nz x w Hs Hx E. destruct (size_pow nz Hs) as (p & Hp & Ep). rewrite Ep in *. split; [|exact (run_srfft_ok p x _ w Hp (Hjunk _) E)].
  destruct p as [|p].
  - unfold srfft_scramble in E. rewrite Hjunk in E. cbn in E. injection E as <-. apply Hjunk.
  - rewrite pow_half in * by lia. destruct (srfft_scramble_ok R_ops R_ops_ok ord Hord (S p) x (junk (2 ^ (S p - 1))) ltac:(lia) (Hjunk _) Hx) as (w' & E' & L & _). rewrite E' in E. injection E as <-. exact L.
Qed.
Lemma core_ok : forall op middle z x y r, (Z.of_nat (length z) <= 2 ^ 28)%Z -> length x <= fft_size (length z) -> length y <= fft_size (length z) ->
  fft_core R_ops ord junk op middle z x y = Ok r -> run_core op middle z x y = Ok r.
Proof.
  intros op middle z x y r Hs Hx Hy E. unfold fft_core in E. unfold run_core. change (A R_ops) with R in *.
  destruct (srfft_scramble R_ops ord _ x) as [fx| |] eqn:E1; try discriminate. cbn [bind] in E.
  destruct (srfft_scramble R_ops ord _ y) as [fy| |] eqn:E2; try discriminate. cbn [bind] in E.
  destruct (scrambled _ _ _ Hs Hx E1) as [L1 ->]. destruct (scrambled _ _ _ Hs Hy E2) as [L2 ->]. cbn [bind].
  change (A R_ops) with R in *. match type of E with bind ?d _ = _ => destruct d as [fx'| |] eqn:E3 end; try discriminate. cbn [bind] in *.
  destruct (middle z) as [z'| |] eqn:E4; try discriminate. cbn [bind] in *.
  destruct (isrfft_scramble R_ops ord op z' fx') as [[r' y']| |] eqn:E5; try discriminate. cbn [bind fst] in E. injection E as <-.
  destruct (size_pow _ Hs) as (p & Hp & Ep). refine (run_isrfft_ok op p z' fx' r' y' Hp _ E5). rewrite <- Ep, <- L1.
  exact (def_loop_len ord _ _ _ _ _ (fun i a b H => mul_cwise_len _ _ i a b H) E3).
Qed.
Lemma core_sqr_ok : forall z x r, (Z.of_nat (length z) <= 2 ^ 28)%Z -> length x <= fft_size (length z) ->
  fft_core_sqr R_ops ord junk z x = Ok r -> run_core_sqr z x = Ok r.
Proof.
  intros z x r Hs Hx E. unfold fft_core_sqr in E. unfold run_core_sqr. change (A R_ops) with R in *.
  destruct (srfft_scramble R_ops ord _ x) as [fx| |] eqn:E1; try discriminate. cbn [bind] in E.
  destruct (scrambled _ _ _ Hs Hx E1) as [L1 ->]. cbn [bind].
  change (A R_ops) with R in *. match type of E with bind ?d _ = _ => destruct d as [fx'| |] eqn:E3 end; try discriminate. cbn [bind] in *.
  destruct (isrfft_scramble R_ops ord false z fx') as [[r' y']| |] eqn:E5; try discriminate. cbn [bind fst] in E. injection E as <-.
  destruct (size_pow _ Hs) as (p & Hp & Ep). refine (run_isrfft_ok false p z fx' r' y' Hp _ E5). rewrite <- Ep, <- L1.
  exact (def_loop_len ord _ _ _ _ _ (fun i a b H => sqr_cwise_len _ i a b H) E3).
Qed.

Lemma same_list : forall (r : list R) n f, length r = n -> (forall i, i < n -> nth i r 0%R = f i) -> map f (seq 0 n) = r.
Proof.
  intros r n f L H. apply (nth_ext _ _ 0%R 0%R); rewrite map_length, seq_length; [symmetry; exact L|]. intros i Hi. rewrite (nth_indep _ 0%R (f 0)) by (rewrite map_length, seq_length; exact Hi).
  rewrite map_nth, seq_nth by exact Hi. symmetry. apply H. exact Hi.
Qed.
(** Whatever the multiplications of FFTModel.v return, those with generated programs return. *)
Theorem run_mul_same : forall (z x y r : list R), (Z.of_nat (length z) <= 2 ^ 28)%Z -> length z <= 8 \/ length x <= fft_size (length z) /\ length y <= fft_size (length z) ->
  fft_mul R_ops ord junk z x y = Ok r -> run_fft_mul G P ord e I junk z x y = Ok r.
Proof.
  intros z x y r Hs Hl E. unfold run_fft_mul. destruct (Nat.leb_spec (length z) (length x + length y - 1)) as [Ha|Ha].
  2: { rewrite (fft_mul_throw R_ops ord junk z x y Ha) in E. discriminate. }
  cbn [slow_assert bind]. destruct (Nat.leb_spec (length z) 8) as [H8|H8].
  - rewrite Hmul8 by exact H8. destruct (fft_mul_base R_ops R_ops_ok ord junk z x y H8 Ha) as (r' & E' & L & V). rewrite E' in E. injection E as <-. f_equal. apply same_list; assumption.
  - destruct Hl as [?|[Hx Hy]]; [lia|]. rewrite (fft_mul_core R_ops ord junk z x y (Logic.conj H8 Ha)) in E. pose proof (core_ok false _ z x y r Hs Hx Hy E) as Q. unfold run_core in Q. cbn [bind] in Q. exact Q.
Qed.
Theorem run_addmul_same : forall middle (z x y r : list R), (Z.of_nat (length z) <= 2 ^ 28)%Z -> length x <= fft_size (length z) -> length y <= fft_size (length z) ->
  fft_addmul R_ops ord junk middle z x y = Ok r -> run_fft_addmul G P ord e junk middle z x y = Ok r.
Proof.
  intros middle z x y r Hs Hx Hy E. unfold run_fft_addmul. unfold fft_addmul in E. change (A R_ops) with R in *. destruct (slow_assert _) as [u| |] in E |- *; try discriminate. cbn [bind] in *. exact (core_ok true middle z x y r Hs Hx Hy E).
Qed.
Theorem run_sqr_same : forall (y x r : list R), (Z.of_nat (length y) <= 2 ^ 28)%Z -> length y <= 8 \/ length x <= fft_size (length y) ->
  fft_sqr R_ops ord junk y x = Ok r -> run_fft_sqr G P ord e I junk y x = Ok r.
Proof.
  intros y x r Hs Hl E. unfold run_fft_sqr. unfold fft_sqr in E. change (A R_ops) with R in *. destruct (slow_assert _) as [u| |] in E |- *; try discriminate. cbn [bind] in *. destruct (Nat.leb_spec (length y) 8) as [H8|H8].
  - rewrite Hsqr8 by exact H8. destruct (sqr_base_ok R_ops R_ops_ok y x H8) as (r' & E' & L & V). rewrite E' in E. injection E as <-. f_equal. apply same_list; assumption.
  - destruct Hl as [?|Hx]; [lia|]. exact (core_sqr_ok y x r Hs Hx E).
Qed.
End Mul.
