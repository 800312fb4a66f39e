(** Properties of the multiplications of fft.cc and the series functions built on them with every
    generated program in place: C76. *)
From Coq Require Import String ZArith List Bool Lia Reals.
From Verif Require Import Base Field FieldInst FPS SeriesModel SeriesSpec SeriesProofs BottcherMath AreaModel AreaProofs ExpModel ExpProofs BlockProofs ExpToy GenModel FFTModel FFTLoop FFTMath FFTMulSpec FFTMul GenCheck GenDriver GenWhole GenFast
  BaseGenModel BaseGenRun BaseGenProofs SerGenModel SerGenProofs MulProgModel MulProgProofs MulProgKernel Properties_Prog Properties_BaseGen Properties_SerGen.
Import ListNotations.
Open Scope nat_scope.

(** ** C76: products, squares and series with the code as it is linked together *)
(** [pcoef x y i] is the i-th coefficient of the product, sum over j <= i of x_j y_(i-j), elements past
    the end being zero. *)
Section Statements.
Variables (G : SigOps) (sh_text : string) (sh_sig : G) (tw_text : Z -> nat -> string * string) (draw : string -> G) (lr : bool) (fuel : nat) (unknown : ExpModel.exp G)
  (ord : Z -> list nat) (o : string -> R) (e : envs) (P : progs G) (I : interp RF) (junk : nat -> list (R * R)).
(** The programs are written by the generator, run for j in any order, in environments that give
    their free names the meaning they have in the library. *)
Definition linked : Prop := SigLaws G /\ wfe unknown /\ sched_ok ord /\ good_env o e /\ good_consts sh_text tw_text o /\
  generated G sh_text sh_sig tw_text draw lr fuel unknown o P /\ (forall n, length (junk n) = n).
End Statements.

Theorem C76_mul : forall G sh_text sh_sig tw_text draw lr fuel unknown ord o e P (I : interp RF) junk, linked G sh_text sh_sig tw_text draw lr fuel unknown ord o e P junk ->
  forall z x y : list R, length z <= length x + length y - 1 -> (Z.of_nat (length z) <= 2 ^ 28)%Z ->
  length z <= 8 \/ (length x <= fft_size (length z) /\ length y <= fft_size (length z) /\ length x + length y <= S (fft_size (length z))) ->
  exists r, run_fft_mul G P ord e I junk z x y = Ok r /\ length r = length z /\ forall i, i < length z -> nth i r 0%R = pcoef R_ops x y i.
Proof.
  intros G sh_text sh_sig tw_text draw lr fuel unknown ord o e P I junk (HL & Wu & Hord & He & Hc & HP & Hj) z x y H Hs Hl.
  destruct (fft_mul_ok R_ops R_ops_ok ord Hord junk Hj z x y H Hs Hl) as (r & E & L & V). exists r. split; [|split; [exact L|exact V]].
  refine (run_mul_same G P ord e I Hord _ _ _ _ junk Hj z x y r Hs _ E).
  - exact (fwd_same G HL sh_text sh_sig tw_text draw lr fuel unknown ord o e P Hord He Hc HP).
  - exact (bwd_same G HL sh_text sh_sig tw_text draw lr fuel unknown Wu ord o e P Hord He Hc HP).
  - exact (mul8_same G HL sh_text sh_sig tw_text draw lr fuel unknown o P I HP).
  - exact (sqr8_same G HL sh_text sh_sig tw_text draw lr fuel unknown o P I HP).
  - destruct Hl as [H8|(Hx & Hy & _)]; [left; exact H8|right; split; assumption].
Qed.
Print Assumptions C76_mul.
(** z becomes z' + x y, where z' is what [middle] makes of z. *)
Theorem C76_addmul : forall G sh_text sh_sig tw_text draw lr fuel unknown ord o e P (I : interp RF) junk, linked G sh_text sh_sig tw_text draw lr fuel unknown ord o e P junk ->
  forall middle (z z' x y : list R), 1 <= length z <= length x + length y - 1 -> (Z.of_nat (length z) <= 2 ^ 28)%Z ->
  length x <= fft_size (length z) -> length y <= fft_size (length z) -> length x + length y <= S (fft_size (length z)) -> middle z = Ok z' -> length z' = length z ->
  exists r, run_fft_addmul G P ord e junk middle z x y = Ok r /\ length r = length z /\ forall i, i < length z -> nth i r 0%R = (nth i z' 0 + pcoef R_ops x y i)%R.
Proof.
  intros G sh_text sh_sig tw_text draw lr fuel unknown ord o e P I junk (HL & Wu & Hord & He & Hc & HP & Hj) middle z z' x y [H1 H] Hs Hx Hy Hxy Em Lm.
  destruct (fft_addmul_ok R_ops R_ops_ok ord Hord junk Hj middle z x y z' H1 H Hs Hx Hy Em Lm) as (r & E & L & V). exists r. split; [|split; [exact L|]].
  2: { intros i Hi. etransitivity; [exact (V i Hi)|]. cbn [FFTModel.add R_ops]. f_equal. apply (ncoef_exact R_ops R_ops_ok). exact Hxy. }
  refine (run_addmul_same G P ord e I Hord _ _ _ _ junk Hj middle z x y r Hs Hx Hy E).
  - exact (fwd_same G HL sh_text sh_sig tw_text draw lr fuel unknown ord o e P Hord He Hc HP).
  - exact (bwd_same G HL sh_text sh_sig tw_text draw lr fuel unknown Wu ord o e P Hord He Hc HP).
  - exact (mul8_same G HL sh_text sh_sig tw_text draw lr fuel unknown o P I HP).
  - exact (sqr8_same G HL sh_text sh_sig tw_text draw lr fuel unknown o P I HP).
Qed.
Print Assumptions C76_addmul.
Theorem C76_sqr : forall G sh_text sh_sig tw_text draw lr fuel unknown ord o e P (I : interp RF) junk, linked G sh_text sh_sig tw_text draw lr fuel unknown ord o e P junk ->
  forall y x : list R, length y <= 2 * length x - 1 -> (Z.of_nat (length y) <= 2 ^ 28)%Z ->
  length y <= 8 \/ (length x <= fft_size (length y) /\ length x + length x <= S (fft_size (length y))) ->
  exists r, run_fft_sqr G P ord e I junk y x = Ok r /\ length r = length y /\ forall i, i < length y -> nth i r 0%R = pcoef R_ops x x i.
Proof.
  intros G sh_text sh_sig tw_text draw lr fuel unknown ord o e P I junk (HL & Wu & Hord & He & Hc & HP & Hj) y x H Hs Hl.
  assert (Hl' : length y <= 8 \/ length x <= fft_size (length y)) by (destruct Hl as [?|[? _]]; auto).
  destruct (fft_sqr_ok R_ops R_ops_ok ord Hord junk Hj y x H Hs Hl') as (r & E & L & V). exists r. split; [|split; [exact L|]].
  2: { intros i Hi. etransitivity; [exact (V i Hi)|]. change (A R_ops) with R in *. destruct (Nat.leb_spec (length y) 8); [reflexivity|]. apply (ncoef_exact R_ops R_ops_ok). destruct Hl as [?|[_ Q]]; [exfalso; apply (Nat.lt_irrefl 8); eapply Nat.lt_le_trans; eassumption|exact Q]. }
  refine (run_sqr_same G P ord e I Hord _ _ _ _ junk Hj y x r Hs Hl' E).
  - exact (fwd_same G HL sh_text sh_sig tw_text draw lr fuel unknown ord o e P Hord He Hc HP).
  - exact (bwd_same G HL sh_text sh_sig tw_text draw lr fuel unknown Wu ord o e P Hord He Hc HP).
  - exact (mul8_same G HL sh_text sh_sig tw_text draw lr fuel unknown o P I HP).
  - exact (sqr8_same G HL sh_text sh_sig tw_text draw lr fuel unknown o P I HP).
Qed.
Print Assumptions C76_sqr.
(** So everything proved for series over any such kernel and base cases (C17, C21-C37) holds of the
    code as linked. *)
Theorem C76_kernel : forall G sh_text sh_sig tw_text draw lr fuel unknown ord o e P (I : interp RF) junk zs, linked G sh_text sh_sig tw_text draw lr fuel unknown ord o e P junk ->
  (forall n, length (zs n) = n) -> inverts RF I ->
  kernel_ok (run_kernel G P ord e I junk zs) /\ kernel_strict (run_kernel G P ord e I junk zs) /\ kernel_len (run_kernel G P ord e I junk zs) /\ bases_ok (run_bases G P I).
Proof.
  intros G sh_text sh_sig tw_text draw lr fuel unknown ord o e P I junk zs (HL & Wu & Hord & He & Hc & HP & Hj) Hz HI. split; [|split; [|split]].
  - exact (run_kernel_ok G HL sh_text sh_sig tw_text draw lr fuel unknown Wu ord o e P I Hord He Hc HP junk Hj zs Hz).
  - exact (run_kernel_strict G P ord e I junk zs Hz).
  - exact (run_kernel_len G P ord e I junk zs Hz).
  - exact (run_bases_ok G HL sh_text sh_sig tw_text draw lr fuel unknown o P I HP HI).
Qed.
Print Assumptions C76_kernel.
(** In particular the iteration of area.cc: what it returns after k doublings is the only series with
    R_k = 1 modulo z^(2^k) (C37), whatever its checks accept. *)
Theorem C76_bottcher : forall G sh_text sh_sig tw_text draw lr fuel unknown ord o e P (I : interp RF) junk zs check k, linked G sh_text sh_sig tw_text draw lr fuel unknown ord o e P junk ->
  (forall n, length (zs n) = n) -> inverts RF I -> k <= 28 ->
  let result := bottcher RF (run_kernel G P ord e I junk zs) (run_bases G P I) check k in
  (result = Throw \/ exists g, result = Ok g /\ valid g /\ known g = (2 ^ Z.of_nat k)%Z /\ den g O = k0 /\ eqn (2 ^ k) (escR (fexp (den g)) k) f1) /\
  ((forall b f, check b f = true) -> exists g, result = Ok g).
Proof.
  intros G sh_text sh_sig tw_text draw lr fuel unknown ord o e P I junk zs check k HL Hz HI Hk result.
  destruct (C76_kernel _ _ _ _ _ _ _ _ _ _ _ _ _ _ _ HL Hz HI) as (K & _ & _ & B). split.
  - exact (iterates_any RF _ _ check k K B Hk).
  - intros Hc. destruct (iterates_spec RF _ _ check k K B Hk Hc) as (g & E & _). exists g. exact E.
Qed.
Print Assumptions C76_bottcher.

(** ** There are such programs *)
Local Strategy 1000 [ser_gen inv_gen exp_gen mul_gen sqr_gen body_s body_first].
Example C76_generated : exists P, generated toyg "sh" (q 70007) ex_tw toy_draw true 3000 unk std_other P.
Proof.
  destruct C73_example as (_ & (gm & Em & Cm) & (gq & Eq & Cq)). destruct C75_example_inv as (gi & Ei & Ci). destruct C75_example_exp as (ge & Ee & Ce).
  exists {| p_first := fun r => g_out toyg (out (ex_first r true false)); p_rest := fun r => g_out toyg (out (ex_s r true));
            p_ifirst := fun add r => g_out toyg (out (ex_first r false add)); p_irest := fun r => g_out toyg (out (ex_s r false));
            p_mul := q_out toyg gm; p_sqr := q_out toyg gq; p_inv := q_out toyg gi; p_exp := q_out toyg ge |}.
  constructor.
  - exists (fun r => out (ex_first r true false)), (fun r => out (ex_s r true)). split; [exact C71_fwd_example|]. split; intros r; reflexivity.
  - intros add. exists (fun r => out (ex_first r false add)), (fun r => out (ex_s r false)). split; [exact (C71_bwd_example add)|]. split; intros r; reflexivity.
  - exists gm. split; [exact Em|]. split; [exact (Cm RF)|reflexivity].
  - exists gq. split; [exact Eq|]. split; [exact (Cq RF)|reflexivity].
  - exists gi. split; [exact Ei|]. split; [exact (Ci RF)|reflexivity].
  - exists ge. split; [exact Ee|]. split; [exact (Ce RF)|reflexivity].
Qed.
Definition std_junk (n : nat) : list (R * R) := repeat (0%R, 0%R) n.
Example C76_linked : exists P, linked toyg "sh" (q 70007) ex_tw toy_draw true 3000 unk host_ord std_other std_env P std_junk.
Proof.
  destruct C76_generated as [P HP]. exists P. split; [exact toyg_laws|]. split; [exact Logic.I|]. split; [exact host_ord_ok|]. split; [exact std_env_good|]. split; [exact consts_good|]. split; [exact HP|]. intros n. apply repeat_length.
Qed.
Definition inv_I : interp RF := Build_interp RF (fun _ => 0%R) (fun _ => 0%R) (fun _ _ => 0%R) (fun _ l => match l with [a] => Rinv a | _ => 0%R end).
Lemma last_coef : forall x y : list R, length x = 10 -> length y = 10 -> pcoef R_ops x y 18 = (nth 9 x 0 * nth 9 y 0)%R.
Proof.
  intros x y Hx Hy. unfold pcoef. cbn [rsum Nat.sub]. cbn [FFTModel.add FFTModel.mul FFTModel.z0 R_ops A]. change (A R_ops) with R.
  rewrite (nth_overflow y 0%R (n := 18)), (nth_overflow y 0%R (n := 17)), (nth_overflow y 0%R (n := 16)), (nth_overflow y 0%R (n := 15)), (nth_overflow y 0%R (n := 14)), (nth_overflow y 0%R (n := 13)), (nth_overflow y 0%R (n := 12)), (nth_overflow y 0%R (n := 11)), (nth_overflow y 0%R (n := 10)) by lia.
  rewrite (nth_overflow x 0%R (n := 18)), (nth_overflow x 0%R (n := 17)), (nth_overflow x 0%R (n := 16)), (nth_overflow x 0%R (n := 15)), (nth_overflow x 0%R (n := 14)), (nth_overflow x 0%R (n := 13)), (nth_overflow x 0%R (n := 12)), (nth_overflow x 0%R (n := 11)), (nth_overflow x 0%R (n := 10)) by lia.
  ring.
Qed.
(** So the product of two series of ten terms runs through a transform of 32 reals, and 64 terms of the
    series of the Mandelbrot set come out. *)
Example C76_runs : exists P : progs toyg,
  (forall x y, length x = 10 -> length y = 10 -> exists r, run_fft_mul toyg P host_ord std_env inv_I std_junk (repeat 0%R 19) x y = Ok r /\ length r = 19 /\ nth 18 r 0%R = (nth 9 x 0 * nth 9 y 0)%R) /\
  exists g, bottcher RF (run_kernel toyg P host_ord std_env inv_I std_junk (repeat 0%R)) (run_bases toyg P inv_I) (fun _ _ => true) 6 = Ok g.
Proof.
  destruct C76_linked as [P HP]. exists P. split.
  - intros x y Hx Hy. destruct (C76_mul _ _ _ _ _ _ _ _ _ _ _ _ inv_I _ HP (repeat 0%R 19) x y) as (r & E & L & V); rewrite ?repeat_length, ?Hx, ?Hy; [cbn; lia|cbn; lia|right; vm_compute; lia|].
    rewrite repeat_length in *. exists r. split; [exact E|]. split; [exact L|]. rewrite V by lia. apply last_coef; assumption.
  - apply (C76_bottcher _ _ _ _ _ _ _ _ _ _ _ _ inv_I _ (repeat 0%R) (fun _ _ => true) 6 HP); [intros n; apply repeat_length|intros a; reflexivity|lia|reflexivity].
Qed.
