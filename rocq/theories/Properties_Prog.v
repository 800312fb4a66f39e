(** Properties of the generated loop bodies as programs, codelets.cc:460-828 with fft.cc:346-406: C71. *)
From Coq Require Import String ZArith List Bool Lia QArith Qcanon Reals Lra.
From Verif Require Import Base Field FieldInst ExpModel ExpProofs BlockProofs ExpToy GradSpec GradProofs GradReal GenModel FFTModel FFTLoop FFTSpec FFTMath FFTShift2 FFTExtra GenProofs GenBack GenCheck GenRun GenScope GenProg GenExec GenDriver GenWhole GenFast.
Import ListNotations.
Open Scope nat_scope.

(** * C71: the statements written for a butterfly, run one after another *)
(** One iteration.  [g] is the generator's state after writing the body, [g_out g] the statements,
    GenRun.v what they do.  The body reads and writes the elements of y and x that the butterfly
    does, in the right places, and nothing else. *)
Theorem C71_body_s : forall (G : SigOps), SigLaws G -> forall sh_text sh_sig draw lr fuel unknown r (I : interp RF) x y g s j tn w, 1 <= r <= 3 ->
  body_s G sh_text sh_sig draw lr fuel unknown r true (gen0 G) = Ok (tt, g) -> sound G I g ->
  iv I "s"%string = IZR (Z.of_nat s) -> iv I "j"%string = IZR (Z.of_nat j) -> ready sh_text I tn (vnames (2 ^ r)) ->
  srfft_s R_ops r tn s j y = Ok w -> exists s', GenRun.run G (g_out G g) {| env := I; ym := y; xm := x |} = Some s' /\ ym s' = w /\ xm s' = x.
Proof. intros G HL sh_text sh_sig draw lr fuel unknown. exact (exec_s_forward G HL sh_text sh_sig (fun _ _ => (sh_text, sh_text)) draw lr fuel unknown). Qed.
Print Assumptions C71_body_s.
Theorem C71_body_is : forall (G : SigOps), SigLaws G -> forall sh_text sh_sig draw lr fuel unknown, wfe unknown -> forall r (I : interp RF) x y g s j tn w, 1 <= r <= 3 ->
  body_s G sh_text sh_sig draw lr fuel unknown r false (gen0 G) = Ok (tt, g) -> sound G I g -> declared G unknown g -> circuits G fuel (fields_ok G) g ->
  iv I "s"%string = IZR (Z.of_nat s) -> iv I "j"%string = IZR (Z.of_nat j) -> ready sh_text I tn (vnames (2 ^ r)) -> ready sh_text I tn (pnames (2 ^ r)) ->
  isrfft_s R_ops r tn s j y = Ok w -> exists s', GenRun.run G (g_out G g) {| env := I; ym := y; xm := x |} = Some s' /\ ym s' = w /\ xm s' = x.
Proof. intros G HL sh_text sh_sig draw lr fuel unknown. exact (exec_s_backward G HL sh_text sh_sig (fun _ _ => (sh_text, sh_text)) draw lr fuel unknown). Qed.
Print Assumptions C71_body_is.
Theorem C71_body_first : forall (G : SigOps), SigLaws G -> forall sh_text sh_sig tw_text draw lr fuel unknown r add (I : interp RF) x y g nr j tn w, 1 <= r <= 3 ->
  body_first G sh_text sh_sig tw_text draw lr fuel unknown r true add (gen0 G) = Ok (tt, g) -> sound G I g -> first_ready sh_text tw_text I tn r nr j ->
  srfft_first R_ops r tn nr x j y = Ok w -> exists s', GenRun.run G (g_out G g) {| env := I; ym := y; xm := x |} = Some s' /\ ym s' = w /\ xm s' = x.
Proof. exact exec_first_forward. Qed.
Print Assumptions C71_body_first.
(** The last step of the inverse only touches x; [add] is the adding version. *)
Theorem C71_body_last : forall (G : SigOps), SigLaws G -> forall sh_text sh_sig tw_text draw lr fuel unknown, wfe unknown -> forall r add (I : interp RF) x y g nr j tn w, 1 <= r <= 3 ->
  body_first G sh_text sh_sig tw_text draw lr fuel unknown r false add (gen0 G) = Ok (tt, g) -> sound G I g -> declared G unknown g -> circuits G fuel (vars_ok G (pnames (2 ^ r))) g -> first_ready sh_text tw_text I tn r nr j ->
  NoDup (map (iv I) (vnames (2 ^ r / 2))) -> (forall a, ~ In (icall I "twiddle"%string [a]) (map (iv I) (vnames (2 ^ r / 2)))) ->
  isrfft_last R_ops add r tn nr y j x = Ok w -> exists s', GenRun.run G (g_out G g) {| env := I; ym := y; xm := x |} = Some s' /\ ym s' = y /\ xm s' = w.
Proof. exact exec_first_backward. Qed.
Print Assumptions C71_body_last.

(** Whole transforms.  The drivers of fft.cc, calling the generated bodies for each j in any order,
    compute the shifted Fourier sums, whatever the arrays hold. *)
Theorem C71_srfft : forall (G : SigOps), SigLaws G -> forall sh_text sh_sig tw_text draw lr fuel unknown ord o e gf gs, sched_ok ord -> good_env o e -> good_consts sh_text tw_text o ->
  fwd_codelets G sh_text sh_sig tw_text draw lr fuel unknown o gf gs ->
  forall p x y, 2 <= p <= 29 -> length y = 2 ^ (p - 1) -> length x <= 2 ^ p ->
  exists w y', prog_srfft G ord e (fun r => g_out G (gf r)) (fun r => g_out G (gs r)) p (y, x) = Some (w, x) /\
    shifted_permute w = Ok y' /\ length y' = 2 ^ (p - 1) /\ forall k, k < 2 ^ (p - 1) -> nth k y' (c0 R_ops) = sdft R_ops p (realc R_ops x) k.
Proof.
  intros G HL sh_text sh_sig tw_text draw lr fuel unknown ord o e gf gs Hord He Hc Hf p x y Hp Hy Hx.
  destruct (srfft_ok R_ops R_ops_ok ord Hord p x y Hp Hy Hx) as (y' & E & L & V). unfold srfft in E. destruct (srfft_scramble R_ops ord y x) as [w| |] eqn:Es; try discriminate. cbn [bind] in E.
  exists w, y'. split; [|split; [exact E|split; [exact L|exact V]]].
  apply (srfft_prog G HL sh_text sh_sig tw_text draw lr fuel unknown ord Hord o e He Hc gf gs Hf); [lia|exact Hy|exact Es].
Qed.
Print Assumptions C71_srfft.
(** x_j is set to, or increased by, Re sum_k y_k exp(2 pi i j (k + 1/2) / n). *)
Theorem C71_isrfft : forall (G : SigOps), SigLaws G -> forall sh_text sh_sig tw_text draw lr fuel unknown ord o e add gf gs, wfe unknown -> sched_ok ord -> good_env o e -> good_consts sh_text tw_text o ->
  bwd_codelets G sh_text sh_sig tw_text draw lr fuel unknown o add gf gs ->
  forall p x y, 2 <= p <= 29 -> length y = 2 ^ (p - 1) -> length x <= 2 * 2 ^ p ->
  exists w x' y', shifted_unpermute y = Ok w /\ prog_isrfft G ord e (fun r => g_out G (gf r)) (fun r => g_out G (gs r)) p (w, x) = Some (y', x') /\ length x' = length x /\
    (forall j, j < 2 ^ p -> j < length x -> nth j x' 0%R =
      ((if add then nth j x 0 else 0) + fst (csum R_ops (2 ^ (p - 1)) (fun k => cmul R_ops (nth k y (c0 R_ops)) (root R_ops (S p) (Z.of_nat (j * (2 * k + 1)))))))%R) /\
    (forall i, 2 ^ p <= i -> nth i x' 0%R = nth i x 0%R).
Proof.
  intros G HL sh_text sh_sig tw_text draw lr fuel unknown ord o e add gf gs Wu Hord He Hc Hf p x y Hp Hy Hx.
  destruct (isrfft_ok R_ops R_ops_ok ord Hord p y x Hp Hy Hx) as (x1 & y1 & E & L & _ & V & U). unfold isrfft in E. destruct (unpermute_sst R_ops R_ops_ok p y Hp Hy) as (w & Ew & Lw & _). rewrite Ew in E. cbn [bind] in E.
  destruct (isrfft_scramble_add R_ops R_ops_ok ord Hord p w x Hp Lw Hx) as (a & b & ya & yb & Ea & Eb & La & Lb & Vb & Ub). rewrite Ea in E. injection E as -> ->. change (A R_ops) with R in *. change (z0 R_ops) with 0%R in *.
  exists w, (if add then b else x1), (if add then yb else y1). split; [exact Ew|]. split.
  { apply (isrfft_prog G HL sh_text sh_sig tw_text draw lr fuel unknown Wu ord Hord o e He Hc add gf gs Hf); [lia|exact Lw|]. destruct add; assumption. }
  destruct add.
  - split; [exact Lb|]. split; [|intros i Hi; apply (Ub i Hi)]. intros j H1 H2. rewrite (Vb j H1 H2). cbn [FFTModel.add R_ops]. f_equal. exact (V j H1 H2).
  - split; [exact L|]. split; [|exact U]. intros j H1 H2. rewrite Rplus_0_l. exact (V j H1 H2).
Qed.
Print Assumptions C71_isrfft.

(** ** Concrete case: all twelve codelets *)
(** Handles 1, 2, ... for complex variables; the handle of twiddle(a) is - exp a. *)
Definition handles : list string := vnames 8 ++ pnames 8.
Fixpoint index (v : string) (l : list string) : nat := match l with [] => 0 | w :: t => if String.eqb v w then 0 else S (index v t) end.
Definition std_env : envs := fun tn b => Build_interp RF
  (fun v => match (if existsb (String.eqb v) ["j"; "s"; "p"; "n8"]%string then lookup v b else None) with Some k => IZR k | None => INR (S (index v handles)) end)
  std_other
  (fun f h => match as_int (ln (- h)) with Some z => match tn z with Ok v => if String.eqb f "r" then fst v else snd v | _ => 0%R end | None => 0%R end)
  (fun _ l => match l with [a] => (- Rtrigo_def.exp a)%R | _ => 0%R end).
Lemma std_env_good : good_env std_other std_env.
Proof.
  assert (Hv : forall tn b n, In n handles -> iv (std_env tn b) n = INR (S (index n handles))).
  { intros tn b n Hn. cbn [std_env iv]. replace (existsb (String.eqb n) ["j"; "s"; "p"; "n8"]%string) with false; [reflexivity|].
    unfold handles, vnames, pnames in Hn. cbn in Hn. repeat (destruct Hn as [<-|Hn]; [reflexivity|]). destruct Hn. }
  assert (Hi : forall tn b l, incl l handles -> map (iv (std_env tn b)) l = map (fun n => INR (S (index n handles))) l).
  { intros tn b l H. apply map_ext_in. intros n Hn. apply Hv, H, Hn. }
  assert (I1 : incl (vnames 8) handles) by (intros n Hn; apply in_or_app; left; exact Hn). assert (I2 : incl (pnames 8) handles) by (intros n Hn; apply in_or_app; right; exact Hn).
  assert (Nd : forall l, NoDup (map (fun n => index n handles) l) -> NoDup (map (fun n => INR (S (index n handles))) l)).
  { induction l as [|a l IH]; intros H; [constructor|]. cbn [map] in *. apply NoDup_cons_iff in H. destruct H as [H1 H2]. constructor; [|exact (IH H2)].
    intros Q. apply H1. apply in_map_iff in Q. destruct Q as (b & Q & Hb). apply INR_eq, eq_add_S in Q. rewrite <- Q. exact (in_map (fun n => index n handles) l b Hb). }
  constructor.
  - reflexivity.
  - intros tn b v k Hin L. cbn [std_env iv]. replace (existsb (String.eqb v) ["j"; "s"; "p"; "n8"]%string) with true; [rewrite L; reflexivity|]. symmetry. apply existsb_exists. exists v. split; [exact Hin|apply String.eqb_refl].
  - intros tn b z v E. unfold tval. cbn [std_env ifield icall String.eqb Ascii.eqb Bool.eqb]. rewrite Ropp_involutive, ln_exp, as_int_IZR, E. destruct v; reflexivity.
  - intros tn b. split; (rewrite Hi by assumption); apply Nd; cbv; repeat (apply NoDup_cons; [cbn; intuition discriminate|]); apply NoDup_nil.
  - intros tn b a. assert (K : forall l, incl l handles -> ~ In (icall (std_env tn b) "twiddle" [a]) (map (iv (std_env tn b)) l)).
    { intros l H Q. rewrite (Hi tn b l H) in Q. apply in_map_iff in Q. destruct Q as (n & Q & _). cbn [std_env icall] in Q. rewrite S_INR in Q. pose proof (exp_pos a). pose proof (pos_INR (index n handles)). lra. }
    split; apply K; assumption.
Qed.
Definition ex_tw (_ : Z) (_ : nat) : string * string := ("one", "zero")%string.
Lemma consts_good : good_consts "sh" ex_tw std_other.
Proof. split; [reflexivity|]. intros r _. reflexivity. Qed.
Definition ex_s (r : nat) (fwd : bool) := body_s toyg "sh" (q 70007) toy_draw true 3000 unk r fwd (gen0 toyg).
Definition ex_first (r : nat) (fwd add : bool) := body_first toyg "sh" (q 70007) ex_tw toy_draw true 3000 unk r fwd add (gen0 toyg).
Definition out (m : res (unit * gen toyg)) : gen toyg := match m with Ok (_, g) => g | _ => gen0 toyg end.
Definition fine (ok : gen toyg -> bool) (m : res (unit * gen toyg)) : bool := match m with Ok (_, g) => sound_b g && ok g | _ => false end.
Lemma fine_ok : forall ok m, fine ok m = true -> m = Ok (tt, out m) /\ ok (out m) = true /\ forall I : interp RF, iother I = std_other -> sound toyg I (out m).
Proof.
  intros ok [[[] g]| |] H; try discriminate. cbn [fine out] in *. apply andb_prop in H. destruct H as [H1 H2]. split; [reflexivity|]. split; [exact H2|]. intros I HI. apply sound_b_ok; assumption.
Qed.
(* Conversion compares runs of the generator before running it. *)
Local Strategy 1000 [body_s body_first].
Definition std_I : interp RF := std_env (fun _ => UB) [].
Lemma fwd_fine : forallb (fun r => fine (fun _ => true) (ex_first r true false) && fine (fun _ => true) (ex_s r true)) [1; 2; 3] = true.
Proof. vm_compute. reflexivity. Qed.
Lemma bwd_fine : forallb (fun r => fine (fun g => declared_b g && circuits_b 3000 (vars_f (pnames (2 ^ r))) g) (ex_first r false false)
   && fine (fun g => declared_b g && circuits_b 3000 (vars_f (pnames (2 ^ r))) g) (ex_first r false true)
   && fine (fun g => declared_b g && circuits_b 3000 fields_f g) (ex_s r false)) [1; 2; 3] = true.
Proof. vm_compute. reflexivity. Qed.
Lemma in123 : forall r, 1 <= r <= 3 -> In r [1; 2; 3]. Proof. intros r H. cbn. lia. Qed.
Example C71_fwd_example : fwd_codelets toyg "sh" (q 70007) ex_tw toy_draw true 3000 unk std_other (fun r => out (ex_first r true false)) (fun r => out (ex_s r true)).
Proof.
  intros r Hr. pose proof (proj1 (forallb_forall _ _) fwd_fine r (in123 r Hr)) as H. apply andb_prop in H. destruct H as [H1 H2]. apply fine_ok in H1, H2. destruct H1 as (A1 & _ & A2), H2 as (B1 & _ & B2).
  split; [exact A1|]. split; [exact B1|]. exists std_I. split; [reflexivity|]. split; [apply A2|apply B2]; reflexivity.
Qed.
Example C71_bwd_example : forall add, bwd_codelets toyg "sh" (q 70007) ex_tw toy_draw true 3000 unk std_other add (fun r => out (ex_first r false add)) (fun r => out (ex_s r false)).
Proof.
  intros add r Hr. pose proof (proj1 (forallb_forall _ _) bwd_fine r (in123 r Hr)) as H. apply andb_prop in H. destruct H as [H H3]. apply andb_prop in H. destruct H as [H1 H2]. apply fine_ok in H1, H2, H3.
  destruct H1 as (A1 & A2 & A3), H2 as (B1 & B2 & B3), H3 as (C1 & C2 & C3). apply andb_prop in A2, B2, C2. destruct A2 as [A2 A4], B2 as [B2 B4], C2 as [C2 C4].
  split; [destruct add; assumption|]. split; [exact C1|]. split; [destruct add; apply declared_b_ok; assumption|]. split; [destruct add; apply circuits_vars; assumption|]. split; [apply declared_b_ok; exact C2|]. split; [apply circuits_fields; exact C4|].
  exists std_I. split; [reflexivity|]. split; [destruct add; [apply B3|apply A3]; reflexivity|apply C3; reflexivity].
Qed.
(** So a transform of 16 reals runs. *)
Example C71_example : forall x y, length x = 16 -> length y = 8 -> exists w y',
  prog_srfft toyg host_ord std_env (fun r => g_out toyg (out (ex_first r true false))) (fun r => g_out toyg (out (ex_s r true))) 4 (y, x) = Some (w, x) /\ shifted_permute w = Ok y' /\ nth 5 y' (c0 R_ops) = sdft R_ops 4 (realc R_ops x) 5.
Proof.
  intros x y Hx Hy. destruct (C71_srfft toyg toyg_laws "sh" (q 70007) ex_tw toy_draw true 3000 unk host_ord std_other std_env _ _ host_ord_ok std_env_good consts_good C71_fwd_example 4 x y ltac:(lia) Hy ltac:(rewrite Hx; cbn; lia)) as (w & y' & E1 & E2 & _ & V).
  exists w, y'. split; [exact E1|]. split; [exact E2|]. apply V. cbn. lia.
Qed.
