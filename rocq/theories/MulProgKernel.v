(** The multiplications with generated programs are kernels in the sense of SeriesSpec.v. *)
From Coq Require Import String ZArith List Bool Lia Reals.
From Verif Require Import Base Field FieldInst FPS NewtonProofs ExpModel ExpProofs BlockProofs GradSpec GenModel FFTModel FFTLoop FFTMath FFTMulSpec FFTShift2 FFTShift4 FFTMul FFTKernel GenProofs GenBack GenRun GenScope GenDriver GenWhole
  BaseGenModel BaseGenRun BaseGenProofs SeriesModel SeriesSpec SerGenModel SerGenProofs MulProgModel MulProgProofs.
Import ListNotations.
Open Scope nat_scope.

(** ** Programs, whatever they are, do not change the length of x *)
Section Len.
Variables (G : SigOps) (P : progs G) (ord : Z -> list nat) (e : envs) (I : interp RF).
Lemma upd_len : forall T (l : list T) i v, length (GenRun.upd l i v) = length l.
Proof. induction l as [|a l IH]; intros [|i] v; cbn; auto. Qed.
Lemma step_len : forall t s s', step G t s = Some s' -> length (xm s') = length (xm s).
Proof.
  intros t s s' H. destruct t as [n t|n ex|n i|n i|i a b|i [add neg] a]; cbn [step] in H; repeat match type of H with match ?c with _ => _ end = _ => destruct c; try discriminate | (if ?c then _ else _) = _ => destruct c; try discriminate end; injection H as <-; cbn [xm]; try reflexivity.
  destruct (n <? length (xm s)); [apply upd_len|reflexivity].
Qed.
Lemma run_len : forall l s s', GenRun.run G l s = Some s' -> length (xm s') = length (xm s).
Proof.
  induction l as [|t l IH]; intros s s' H; cbn [GenRun.run] in H; [injection H as <-; reflexivity|]. destruct (step G t s) as [s1|] eqn:E; [|discriminate]. rewrite (IH _ _ H). apply (step_len _ _ _ E).
Qed.
Lemma once_len : forall l J m m', once G l J m = Some m' -> length (snd m') = length (snd m).
Proof. intros l J m m' H. unfold once in H. destruct (GenRun.run G l _) as [s|] eqn:E; [|discriminate]. injection H as <-. cbn [snd]. exact (run_len _ _ _ E). Qed.
Lemma each_len : forall l tn b js m m', each G e l tn b js m = Some m' -> length (snd m') = length (snd m).
Proof.
  intros l tn b. induction js as [|j js IH]; intros m m' H; cbn [each] in H; [injection H as <-; reflexivity|]. destruct (once G l _ m) as [m1|] eqn:E; [|discriminate]. rewrite (IH _ _ H). exact (once_len _ _ _ _ E).
Qed.
Lemma loop_len : forall l tn b n m m', loop G ord e l tn b n m = Some m' -> length (snd m') = length (snd m).
Proof. intros l tn b n m m' H. unfold loop in H. destruct (_ =? 0)%Z; [injection H as <-; reflexivity|]. exact (each_len _ _ _ _ _ _ H). Qed.
Lemma inv_len : forall rest f n p s m m', prog_inv G ord e rest f n p s m = Some m' -> length (snd m') = length (snd m).
Proof.
  intros rest. induction f as [|f IH]; intros n p s m m' H; cbn [prog_inv] in H; (destruct (s <? p - 3); [|injection H as <-; reflexivity]); [discriminate|].
  destruct ((s =? 0) && (p mod 3 =? 1)); [|destruct ((s =? 0) && (p mod 3 =? 2))]; match type of H with and_then ?a _ = _ => destruct a as [m1|] eqn:E; [|discriminate] end; cbn [and_then] in H; rewrite (IH _ _ _ _ _ H); exact (loop_len _ _ _ _ _ _ E).
Qed.
Lemma isrfft_len : forall add x y r, run_isrfft G P ord e add x y = Ok r -> length r = length x.
Proof.
  intros add x y r H. unfold run_isrfft in H. destruct (_ =? 0); [injection H as <-; reflexivity|]. destruct (slow_assert _) as [u| |] in H; try discriminate. cbn [bind] in H.
  set (p := Z.to_nat _) in H. clearbody p. destruct (prog_isrfft G ord e _ _ p (y, x)) as [[y' x']|] eqn:E; [|discriminate]. cbn [ran bind] in H. injection H as <-. unfold prog_isrfft in E.
  destruct (prog_inv G ord e (p_irest P) p (2 ^ p) p 0 (y, x)) as [m1|] eqn:E1; [|discriminate]. cbn [and_then] in E. apply inv_len in E1. cbn [snd] in E1. rewrite <- E1. change x' with (snd (y', x')).
  destruct p as [|[|[|p]]]; [exact (loop_len _ _ _ _ _ _ E)|exact (once_len _ _ _ _ E)|exact (once_len _ _ _ _ E)|exact (loop_len _ _ _ _ _ _ E)].
Qed.
Lemma fetch_len : forall m is r, fetch m is = Ok r -> length r = length is.
Proof.
  intros m. induction is as [|i is IH]; intros r H; cbn [fetch] in H; [injection H as <-; reflexivity|]. destruct (m (Z.of_nat i)); [|discriminate]. destruct (fetch m is) as [vs| |] eqn:E; try discriminate. cbn [bind] in H. injection H as <-. cbn [length]. f_equal. apply IH. reflexivity.
Qed.
Variable junk : nat -> list (R * R).
Variable zs : nat -> list R.
Hypothesis Hzs : forall n, length (zs n) = n.
Ltac go H := repeat (match type of H with bind ?m _ = Ok _ => destruct m eqn:?; cbn [bind] in H; try discriminate H end).
Theorem run_kernel_len : kernel_len (run_kernel G P ord e I junk zs).
Proof.
  constructor; cbn [k_mul k_addmul k_sqr run_kernel].
  - intros nz xs ys p H. unfold run_fft_mul in H. destruct (slow_assert _) as [u| |] in H; try discriminate. cbn [bind] in H. destruct (length (zs nz) <=? 8).
    + unfold run_mul8 in H. go H. etransitivity; [exact (fetch_len _ _ _ H)|]. rewrite seq_length. apply Hzs.
    + go H. etransitivity; [exact (isrfft_len _ _ _ _ H)|]. apply Hzs.
  - intros nz xs ys p H. unfold run_fft_addmul in H. go H. etransitivity; [exact (isrfft_len _ _ _ _ H)|]. apply repeat_length.
  - intros nz xs p H. unfold run_fft_sqr in H. destruct (slow_assert _) as [u| |] in H; try discriminate. cbn [bind] in H. destruct (length (zs nz) <=? 8).
    + unfold run_sqr8 in H. go H. etransitivity; [exact (fetch_len _ _ _ H)|]. rewrite seq_length. apply Hzs.
    + go H. etransitivity; [exact (isrfft_len _ _ _ _ H)|]. apply Hzs.
Qed.
Theorem run_kernel_strict : kernel_strict (run_kernel G P ord e I junk zs).
Proof.
  intros nz xs ys H. cbn [k_mul k_addmul run_kernel]. change (K RF) with R in *. unfold run_fft_mul, run_fft_addmul. rewrite Hzs. destruct (Nat.leb_spec nz (length xs + length ys - 1)) as [L|L]; [exfalso; apply (Nat.lt_irrefl nz); exact (Nat.le_lt_trans _ _ _ L H)|]. split; reflexivity.
Qed.
End Len.

(** ** What the generator wrote *)
Section Gen.
Variables (G : SigOps) (sh_text : string) (sh_sig : G) (tw_text : Z -> nat -> string * string) (draw : string -> G) (lr : bool) (fuel : nat) (unknown : exp G) (o : string -> R).
(** P is the output of runs of the generator in which signatures identified only expressions of equal
    value (see C71, C73 and C75 for the parts). *)
Record generated (P : progs G) : Prop := {
  gd_fwd : exists gf gs, fwd_codelets G sh_text sh_sig tw_text draw lr fuel unknown o gf gs /\ (forall r, p_first P r = g_out G (gf r)) /\ (forall r, p_rest P r = g_out G (gs r));
  gd_bwd : forall add, exists gf gs, bwd_codelets G sh_text sh_sig tw_text draw lr fuel unknown o add gf gs /\ (forall r, p_ifirst P add r = g_out G (gf r)) /\ (forall r, p_irest P r = g_out G (gs r));
  gd_mul : exists g, mul_gen G draw lr 8 = Ok g /\ clean RF G g /\ p_mul P = q_out G g;
  gd_sqr : exists g, sqr_gen G draw lr 8 = Ok g /\ clean RF G g /\ p_sqr P = q_out G g;
  gd_inv : exists g, inv_gen G draw lr 5 = Ok g /\ clean_on RF G (fun J => inverts RF J /\ iv J (elem "x" 0) <> k0) g /\ p_inv P = q_out G g;
  gd_exp : exists g, exp_gen G draw lr 5 = Ok g /\ clean_on RF G (inverts RF) g /\ p_exp P = q_out G g }.
End Gen.

Section Ext.
Variables (G : SigOps) (ord : Z -> list nat) (e : envs) (f1 f2 r1 r2 : nat -> list (stmt G)).
Hypothesis Hf : forall r, f1 r = f2 r.
Hypothesis Hr : forall r, r1 r = r2 r.
Lemma fwd_ext : forall n c m, prog_fwd G ord e r1 n c m = prog_fwd G ord e r2 n c m.
Proof.
  intros n. induction c as [c IH] using lt_wf_ind. intros m. destruct c as [|[|[|c]]]; cbn [prog_fwd]; rewrite ?Hr; try reflexivity.
  destruct (loop G ord e (r2 3) _ _ _ m); cbn [and_then]; [|reflexivity]. apply IH. lia.
Qed.
Lemma srfft_ext : forall p m, prog_srfft G ord e f1 r1 p m = prog_srfft G ord e f2 r2 p m.
Proof. intros p m. unfold prog_srfft. rewrite !Hf. match goal with |- and_then ?a _ = _ => destruct a end; cbn [and_then]; [apply fwd_ext|reflexivity]. Qed.
Lemma inv_ext : forall n p f s m, prog_inv G ord e r1 f n p s m = prog_inv G ord e r2 f n p s m.
Proof.
  intros n p. induction f as [|f IH]; intros s m; cbn [prog_inv]; rewrite ?Hr; destruct (s <? p - 3); try reflexivity.
  destruct ((s =? 0) && (p mod 3 =? 1)); [|destruct ((s =? 0) && (p mod 3 =? 2))]; match goal with |- and_then ?a _ = _ => destruct a end; cbn [and_then]; try reflexivity; apply IH.
Qed.
Lemma isrfft_ext : forall p m, prog_isrfft G ord e f1 r1 p m = prog_isrfft G ord e f2 r2 p m.
Proof. intros p m. unfold prog_isrfft. rewrite inv_ext. match goal with |- and_then ?a _ = _ => destruct a end; cbn [and_then]; [|reflexivity]. rewrite !Hf. reflexivity. Qed.
End Ext.

Section All.
Variables (G : SigOps) (HL : SigLaws G) (sh_text : string) (sh_sig : G) (tw_text : Z -> nat -> string * string) (draw : string -> G) (lr : bool) (fuel : nat) (unknown : exp G).
Hypothesis Wu : wfe unknown.
Variables (ord : Z -> list nat) (o : string -> R) (e : envs) (P : progs G) (I : interp RF).
Hypothesis Hord : sched_ok ord.
Hypothesis He : good_env o e.
Hypothesis Hc : good_consts sh_text tw_text o.
Hypothesis HP : generated G sh_text sh_sig tw_text draw lr fuel unknown o P.
Variable junk : nat -> list (R * R).
Hypothesis Hjunk : forall n, length (junk n) = n.
Variable zs : nat -> list R.
Hypothesis Hzs : forall n, length (zs n) = n.

Lemma fwd_same : forall p x y w, 1 <= p <= 29 -> length y = 2 ^ (p - 1) -> srfft_scramble R_ops ord y x = Ok w -> prog_srfft G ord e (p_first P) (p_rest P) p (y, x) = Some (w, x).
Proof.
  intros p x y w Hp Hy E. destruct (gd_fwd _ _ _ _ _ _ _ _ _ _ HP) as (gf & gs & H & H1 & H2).
  rewrite (srfft_ext G ord e _ (fun r => g_out G (gf r)) _ (fun r => g_out G (gs r)) H1 H2).
  exact (srfft_prog G HL sh_text sh_sig tw_text draw lr fuel unknown ord Hord o e He Hc gf gs H p x y w Hp Hy E).
Qed.
Lemma bwd_same : forall add p x y x' y', 1 <= p <= 29 -> length y = 2 ^ (p - 1) -> isrfft_scramble R_ops ord add x y = Ok (x', y') ->
  prog_isrfft G ord e (p_ifirst P add) (p_irest P) p (y, x) = Some (y', x').
Proof.
  intros add p x y x' y' Hp Hy E. destruct (gd_bwd _ _ _ _ _ _ _ _ _ _ HP add) as (gf & gs & H & H1 & H2).
  rewrite (isrfft_ext G ord e _ (fun r => g_out G (gf r)) _ (fun r => g_out G (gs r)) H1 H2).
  exact (isrfft_prog G HL sh_text sh_sig tw_text draw lr fuel unknown Wu ord Hord o e He Hc add gf gs H p x y x' y' Hp Hy E).
Qed.
Lemma mul8_same : forall z x y, length z <= 8 -> run_mul8 G P I z x y = Ok (map (pcoef R_ops x y) (seq 0 (length z))).
Proof. destruct (gd_mul _ _ _ _ _ _ _ _ _ _ HP) as (g & E & C & Q). exact (mul8_ok G HL draw lr P I g E C Q). Qed.
Lemma sqr8_same : forall y x, length y <= 8 -> run_sqr8 G P I y x = Ok (map (pcoef R_ops x x) (seq 0 (length y))).
Proof. destruct (gd_sqr _ _ _ _ _ _ _ _ _ _ HP) as (g & E & C & Q). exact (sqr8_ok G HL draw lr P I g E C Q). Qed.

Lemma fits : forall nz n, (Z.of_nat nz <= 2 ^ 28)%Z -> n <= nz -> n <= fft_size nz.
Proof. intros nz n Hs Hn. destruct nz as [|nz]; [lia|]. pose proof (fft_size_ge (S nz) ltac:(lia) Hs). lia. Qed.
Theorem run_kernel_ok : kernel_ok (run_kernel G P ord e I junk zs).
Proof.
  destruct (fft_kernel_ok ord Hord junk Hjunk zs Hzs) as [K1 K2 K3]. constructor; cbn [k_mul k_addmul k_sqr run_kernel fft_kernel] in *.
  - intros nz xs ys Hs Hx Hy Hxy. destruct (K1 nz xs ys Hs Hx Hy Hxy) as (r & E & L & V). exists r. split; [|split; [exact L|exact V]].
    apply (run_mul_same G P ord e I Hord fwd_same bwd_same mul8_same sqr8_same junk Hjunk); [rewrite Hzs; exact Hs| |exact E]. rewrite Hzs. right. split; apply fits; assumption.
  - intros nz xs ys Hs Hx Hy Hxy. destruct (K2 nz xs ys Hs Hx Hy Hxy) as (r & E & L & V). exists r. split; [|split; [exact L|exact V]].
    apply (run_addmul_same G P ord e I Hord fwd_same bwd_same mul8_same sqr8_same junk Hjunk); [rewrite Hzs; exact Hs| | |exact E]; rewrite Hzs; apply fits; assumption.
  - intros nz xs Hs Hx Hxy. destruct (K3 nz xs Hs Hx Hxy) as (r & E & L & V). exists r. split; [|split; [exact L|exact V]].
    apply (run_sqr_same G P ord e I Hord fwd_same bwd_same mul8_same sqr8_same junk Hjunk); [rewrite Hzs; exact Hs| |exact E]. rewrite Hzs. right. apply fits; assumption.
Qed.
Theorem run_bases_ok : inverts RF I -> bases_ok (run_bases G P I).
Proof.
  intros HI. destruct (gd_inv _ _ _ _ _ _ _ _ _ _ HP) as (gi & Ei & Ci & Qi). destruct (gd_exp _ _ _ _ _ _ _ _ _ _ HP) as (ge & Ee & Ce & Qe). unfold run_bases. rewrite Qi, Qe.
  exact (prog_bases_ok RF G HL draw lr gi ge I Ei Ci Ee Ce HI).
Qed.
End All.
