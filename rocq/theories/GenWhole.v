(** The whole transforms, with generated loop bodies, are those of FFTModel.v. *)
From Coq Require Import String ZArith List Bool Lia Reals Lra Permutation.
From Verif Require Import Base Field FieldInst SeriesModel SeriesProofs NewtonProofs ExpModel ExpProofs BlockProofs GradSpec GradProofs GenModel FFTModel FFTLoop FFTMath GenProofs GenBack GenRun GenScope GenProg GenExec GenDriver.
Import ListNotations.
Open Scope Z_scope.

(** Environments that give the integer arguments and the twiddle factors their values, and have
    room for the complex variables of the codelets. *)
Fixpoint lookup (v : string) (b : list (string * Z)) : option Z := match b with [] => None | (w, k) :: t => if String.eqb v w then Some k else lookup v t end.
Record good_env (o : string -> R) (e : envs) : Prop := {
  ge_other : forall tn b, iother (e tn b) = o;
  ge_int : forall tn b v k, In v ["j"; "s"; "p"; "n8"]%string -> lookup v b = Some k -> iv (e tn b) v = IZR k;
  ge_tw : forall tn b z v, tn z = Ok v -> tval (e tn b) (IZR z) = v;
  ge_nodup : forall tn b, NoDup (map (iv (e tn b)) (vnames 8)) /\ NoDup (map (iv (e tn b)) (pnames 8));
  ge_apart : forall tn b a, ~ In (icall (e tn b) "twiddle"%string [a]) (map (iv (e tn b)) (vnames 8)) /\ ~ In (icall (e tn b) "twiddle"%string [a]) (map (iv (e tn b)) (pnames 8)) }.
(** The constants mean what they say: sqrt(1/2), and the root of order 2^(r+1) at exponent 0. *)
Definition good_consts (sh_text : string) (tw_text : Z -> nat -> string * string) (o : string -> R) : Prop :=
  o sh_text = (/ sqrt 2)%R /\ forall r, (1 <= r <= 2)%nat -> (o (fst (tw_text 0 r)), o (snd (tw_text 0 r))) = (1, 0)%R.

Lemma take_seq : forall n, (n <= 8)%nat -> seq 0 8 = seq 0 n ++ seq n (8 - n).
Proof. intros n H. rewrite <- seq_app. f_equal. lia. Qed.
Lemma nodup_l : forall A (l1 l2 : list A), NoDup (l1 ++ l2) -> NoDup l1.
Proof.
  induction l1 as [|a l1 IH]; intros l2 H; [constructor|]. cbn in H. apply NoDup_cons_iff in H. destruct H as [H1 H2]. constructor; [intros Q; apply H1, in_or_app; left; exact Q|exact (IH _ H2)].
Qed.
Lemma vnames_sub : forall n, (n <= 8)%nat -> exists l, vnames 8 = vnames n ++ l.
Proof. intros n H. unfold vnames. rewrite (take_seq n H), map_app. eauto. Qed.
Lemma pnames_sub : forall n, (n <= 8)%nat -> exists l, pnames 8 = pnames n ++ l.
Proof. intros n H. unfold pnames. rewrite (take_seq n H), map_app. eauto. Qed.

Section Whole.
Variables (G : SigOps) (HL : SigLaws G) (sh_text : string) (sh_sig : G) (tw_text : Z -> nat -> string * string) (draw : string -> G).
Variables (lr : bool) (fuel : nat) (unknown : exp G).
Hypothesis Wunk : wfe unknown.
Variable ord : Z -> list nat.
Hypothesis Hord : sched_ok ord.
Variables (o : string -> R) (e : envs).
Hypothesis He : good_env o e.
Hypothesis Hc : good_consts sh_text tw_text o.

Lemma pow8 : forall r, (1 <= r <= 3)%nat -> (2 ^ r <= 8)%nat /\ (2 ^ r / 2 <= 8)%nat.
Proof. intros r Hr. assert (C : r = 1%nat \/ r = 2%nat \/ r = 3%nat) by lia. destruct C as [-> | [-> | ->]]; cbn; lia. Qed.
Lemma ready_v : forall tn b n, (n <= 8)%nat -> ready sh_text (e tn b) tn (vnames n).
Proof.
  intros tn b n Hn. destruct (vnames_sub n Hn) as [l El]. constructor.
  - rewrite (ge_other o e He). apply Hc.
  - apply (ge_tw o e He).
  - destruct (ge_nodup o e He tn b) as [H _]. rewrite El, map_app in H. exact (nodup_l _ _ _ H).
  - intros a H. destruct (ge_apart o e He tn b a) as [Q _]. apply Q. rewrite El, map_app. apply in_or_app. left. exact H.
Qed.
Lemma ready_p : forall tn b n, (n <= 8)%nat -> ready sh_text (e tn b) tn (pnames n).
Proof.
  intros tn b n Hn. destruct (pnames_sub n Hn) as [l El]. constructor.
  - rewrite (ge_other o e He). apply Hc.
  - apply (ge_tw o e He).
  - destruct (ge_nodup o e He tn b) as [_ H]. rewrite El, map_app in H. exact (nodup_l _ _ _ H).
  - intros a H. destruct (ge_apart o e He tn b a) as [_ Q]. apply Q. rewrite El, map_app. apply in_or_app. left. exact H.
Qed.
(** [sound] looks only at the constants. *)
Lemma sound_e : forall g (I : interp RF) tn b, iother I = o -> sound G I g -> sound G (e tn b) g.
Proof. intros g I tn b HI H J HJ. apply H. rewrite HJ, HI. apply (ge_other o e He). Qed.

Lemma each_ok : forall (Y : Type) (emb : Y -> mem) P tn b (body : nat -> Y -> res Y) js y w,
  (forall j y w, In j js -> body j y = Ok w -> once G P (e tn (("j"%string, Z.of_nat j) :: b)) (emb y) = Some (emb w)) ->
  FFTModel.run js body y = Ok w -> each G e P tn b js (emb y) = Some (emb w).
Proof.
  intros Y emb P tn b body. induction js as [|j js IH]; intros y w H E; cbn [FFTModel.run each] in *; [injection E as <-; reflexivity|].
  destruct (body j y) as [y1| |] eqn:E1; try discriminate. cbn [bind] in E. rewrite (H j y y1 (or_introl eq_refl) E1). apply IH; [|exact E]. intros j' y' w' Hj. apply H. right. exact Hj.
Qed.
Lemma loop_ok : forall (Y : Type) (emb : Y -> mem) P tn b (body : nat -> Y -> res Y) n y w, (Z.of_nat n < 2 ^ 31) ->
  (forall j y w, (j < n)%nat -> body j y = Ok w -> once G P (e tn (("j"%string, Z.of_nat j) :: b)) (emb y) = Some (emb w)) ->
  def_loop ord n body y = Ok w -> loop G ord e P tn b n (emb y) = Some (emb w).
Proof.
  intros Y emb P tn b body n y w Hn H E. unfold def_loop in E. unfold loop. destruct (Z.eqb_spec (Z.of_nat n) 0) as [Q|Q]; [injection E as <-; reflexivity|].
  apply (each_ok Y emb P tn b body _ y w); [|exact E]. intros j y' w' Hj. apply H.
  assert (T : to_i32 (Z.of_nat n) = Z.of_nat n) by (apply to_i32_id; lia).
  rewrite T in Hj. apply (Permutation_in _ (Hord (Z.of_nat n) ltac:(lia))) in Hj. apply in_seq in Hj. lia.
Qed.
Notation body_s := (body_s G sh_text sh_sig draw lr fuel unknown).
Notation body_first := (body_first G sh_text sh_sig tw_text draw lr fuel unknown).
Lemma once_some : forall P I m s', GenRun.run G P {| env := I; ym := fst m; xm := snd m |} = Some s' -> once G P I m = Some (ym s', xm s').
Proof. intros P I m s' H. unfold once. rewrite H. reflexivity. Qed.

Lemma loop_s_forward : forall r g n s tn y w x, (1 <= r <= 3)%nat -> body_s r true (gen0 G) = Ok (tt, g) -> (exists I : interp RF, iother I = o /\ sound G I g) -> Z.of_nat n < 2 ^ 31 ->
  def_loop ord n (srfft_s R_ops r tn s) y = Ok w -> loop G ord e (g_out G g) tn [("s"%string, Z.of_nat s)] n (y, x) = Some (w, x).
Proof.
  intros r g n s tn y w x Hr Hb (I & HI & Hs) Hn E. apply (loop_ok _ (fun y => (y, x)) (g_out G g) tn [("s"%string, Z.of_nat s)] (srfft_s R_ops r tn s) n y w Hn); [|exact E].
  intros j y1 w1 _ E1. destruct (exec_s_forward G HL sh_text sh_sig tw_text draw lr fuel unknown r (e tn [("j"%string, Z.of_nat j); ("s"%string, Z.of_nat s)]) x y1 g s j tn w1 Hr Hb) as (s' & R1 & R2 & R3); [exact (sound_e g I _ _ HI Hs)| | | |exact E1|].
  - apply (ge_int o e He); [cbn; auto|reflexivity].
  - apply (ge_int o e He); [cbn; auto|reflexivity].
  - apply ready_v. apply (pow8 r Hr).
  - rewrite (once_some _ _ (y1, x) s' R1), R2, R3. reflexivity.
Qed.
Lemma loop_s_backward : forall r g n s tn y w x, (1 <= r <= 3)%nat -> body_s r false (gen0 G) = Ok (tt, g) -> (exists I : interp RF, iother I = o /\ sound G I g) -> declared G unknown g -> circuits G fuel (fields_ok G) g -> Z.of_nat n < 2 ^ 31 ->
  def_loop ord n (isrfft_s R_ops r tn s) y = Ok w -> loop G ord e (g_out G g) tn [("s"%string, Z.of_nat s)] n (y, x) = Some (w, x).
Proof.
  intros r g n s tn y w x Hr Hb (I & HI & Hs) Hd Hq Hn E. apply (loop_ok _ (fun y => (y, x)) (g_out G g) tn [("s"%string, Z.of_nat s)] (isrfft_s R_ops r tn s) n y w Hn); [|exact E].
  intros j y1 w1 _ E1. destruct (exec_s_backward G HL sh_text sh_sig tw_text draw lr fuel unknown Wunk r (e tn [("j"%string, Z.of_nat j); ("s"%string, Z.of_nat s)]) x y1 g s j tn w1 Hr Hb) as (s' & R1 & R2 & R3); [exact (sound_e g I _ _ HI Hs)|exact Hd|exact Hq| | | | |exact E1|].
  - apply (ge_int o e He); [cbn; auto|reflexivity].
  - apply (ge_int o e He); [cbn; auto|reflexivity].
  - apply ready_v. apply (pow8 r Hr).
  - apply ready_p. apply (pow8 r Hr).
  - rewrite (once_some _ _ (y1, x) s' R1), R2, R3. reflexivity.
Qed.
Lemma const_root : forall r v, (1 <= r <= 2)%nat -> const_tw R_ops r 0 = Ok v -> v = (1, 0)%R.
Proof.
  intros r v Hr H. unfold const_tw in H. assert (C : r = 1%nat \/ r = 2%nat) by lia. destruct C as [-> | ->]; cbn [Nat.eqb orb slow_assert bind] in H; injection H as <-; cbn [root R_ops R_root]; unfold R_root;
    (replace (2 * PI * 0)%R with 0%R by ring); unfold Rdiv; rewrite Rmult_0_l, cos_0, sin_0; reflexivity.
Qed.
Lemma ready_small : forall r, (1 <= r <= 2)%nat -> first_ready sh_text tw_text (e (fun _ => UB) []) (const_tw R_ops r) r 1 0.
Proof.
  intros r Hr. constructor; [rewrite (ge_other o e He); apply Hc| |lia]. intros _. split; [reflexivity|]. split; [reflexivity|]. intros v Hv. rewrite (ge_other o e He), (const_root r v Hr Hv). apply Hc. exact Hr.
Qed.
Lemma ready_big : forall p j, (3 <= p)%nat -> (j < 2 ^ p / 8)%nat -> first_ready sh_text tw_text (e (big_slice R_ops p) [("j"%string, Z.of_nat j); ("p"%string, Z.of_nat p); ("n8"%string, Z.of_nat (2 ^ p / 8))]) (big_slice R_ops p) 3 (2 ^ p / 8) j.
Proof.
  intros p j Hp Hj. constructor; [rewrite (ge_other o e He); apply Hc|lia|]. intros _. split; [|split; [|split; [|split]]].
  - exists p. split; [exact Hp|]. split; [apply (ge_int o e He); [cbn; auto|reflexivity]|]. replace p with (3 + (p - 3))%nat at 1 by lia. rewrite Nat.pow_add_r, Nat.mul_comm. change (2 ^ 3)%nat with 8%nat. apply Nat.div_mul. discriminate.
  - apply (ge_int o e He); [cbn; auto|reflexivity].
  - apply (ge_int o e He); [cbn; auto|reflexivity].
  - exact Hj.
  - apply (ge_tw o e He).
Qed.
Lemma once_first_forward : forall r add g x y w, (1 <= r <= 2)%nat -> body_first r true add (gen0 G) = Ok (tt, g) -> (exists I : interp RF, iother I = o /\ sound G I g) ->
  srfft_first R_ops r (const_tw R_ops r) 1 x 0 y = Ok w -> once G (g_out G g) (e (fun _ => UB) []) (y, x) = Some (w, x).
Proof.
  intros r add g x y w Hr Hb (I & HI & Hs) E. destruct (exec_first_forward G HL sh_text sh_sig tw_text draw lr fuel unknown r add (e (fun _ => UB) []) x y g 1 0 (const_tw R_ops r) w ltac:(lia) Hb (sound_e g I _ _ HI Hs) (ready_small r Hr) E) as (s' & R1 & R2 & R3).
  rewrite (once_some _ _ (y, x) s' R1), R2, R3. reflexivity.
Qed.
Lemma loop_first_forward : forall add g p x y w, (3 <= p <= 29)%nat -> body_first 3 true add (gen0 G) = Ok (tt, g) -> (exists I : interp RF, iother I = o /\ sound G I g) ->
  def_loop ord (2 ^ p / 8) (srfft_first R_ops 3 (big_slice R_ops p) (2 ^ p / 8) x) y = Ok w ->
  loop G ord e (g_out G g) (big_slice R_ops p) [("p"%string, Z.of_nat p); ("n8"%string, Z.of_nat (2 ^ p / 8))] (2 ^ p / 8) (y, x) = Some (w, x).
Proof.
  intros add g p x y w Hp Hb (I & HI & Hs) E. eapply (loop_ok _ (fun y => (y, x))); [|intros j y1 w1 Hj E1|exact E].
  - assert (Q : Z.of_nat (2 ^ p / 8) <= Z.of_nat (2 ^ p)) by (apply inj_le; apply Nat.div_le_upper_bound; lia). rewrite Nat2Z.inj_pow in Q. assert (P : 2 ^ Z.of_nat p <= 2 ^ 29) by (apply Z.pow_le_mono_r; lia). change (Z.of_nat 2) with 2 in Q. lia.
  - destruct (exec_first_forward G HL sh_text sh_sig tw_text draw lr fuel unknown 3 add _ x y1 g (2 ^ p / 8) j (big_slice R_ops p) w1 ltac:(lia) Hb (sound_e g I _ _ HI Hs) (ready_big p j ltac:(lia) Hj) E1) as (s' & R1 & R2 & R3).
    rewrite (once_some _ _ (y1, x) s' R1), R2, R3. reflexivity.
Qed.
Lemma first_apart : forall r tn b, (1 <= r <= 3)%nat -> NoDup (map (iv (e tn b)) (vnames (2 ^ r / 2))) /\ (forall a, ~ In (icall (e tn b) "twiddle"%string [a]) (map (iv (e tn b)) (vnames (2 ^ r / 2)))).
Proof. intros r tn b Hr. destruct (ready_v tn b (2 ^ r / 2) ltac:(apply (pow8 r Hr))) as [_ _ A B]. split; assumption. Qed.
Lemma once_first_backward : forall r add g x y w, (1 <= r <= 2)%nat -> body_first r false add (gen0 G) = Ok (tt, g) -> (exists I : interp RF, iother I = o /\ sound G I g) -> declared G unknown g -> circuits G fuel (vars_ok G (pnames (2 ^ r))) g ->
  isrfft_last R_ops add r (const_tw R_ops r) 1 y 0 x = Ok w -> once G (g_out G g) (e (fun _ => UB) []) (y, x) = Some (y, w).
Proof.
  intros r add g x y w Hr Hb (I & HI & Hs) Hd Hq E. destruct (first_apart r (fun _ => UB) [] ltac:(lia)) as [A B].
  destruct (exec_first_backward G HL sh_text sh_sig tw_text draw lr fuel unknown Wunk r add (e (fun _ => UB) []) x y g 1 0 (const_tw R_ops r) w ltac:(lia) Hb (sound_e g I _ _ HI Hs) Hd Hq (ready_small r Hr) A B E) as (s' & R1 & R2 & R3).
  rewrite (once_some _ _ (y, x) s' R1), R2, R3. reflexivity.
Qed.
Lemma small29 : forall p, (p <= 29)%nat -> Z.of_nat (2 ^ p) < 2 ^ 31.
Proof. intros p H. rewrite Nat2Z.inj_pow. assert (P : 2 ^ Z.of_nat p <= 2 ^ 29) by (apply Z.pow_le_mono_r; lia). change (Z.of_nat 2) with 2. lia. Qed.
Lemma loop_first_backward : forall add g p x y w, (3 <= p <= 29)%nat -> body_first 3 false add (gen0 G) = Ok (tt, g) -> (exists I : interp RF, iother I = o /\ sound G I g) -> declared G unknown g -> circuits G fuel (vars_ok G (pnames (2 ^ 3))) g ->
  def_loop ord (2 ^ p / 8) (isrfft_last R_ops add 3 (big_slice R_ops p) (2 ^ p / 8) y) x = Ok w ->
  loop G ord e (g_out G g) (big_slice R_ops p) [("p"%string, Z.of_nat p); ("n8"%string, Z.of_nat (2 ^ p / 8))] (2 ^ p / 8) (y, x) = Some (y, w).
Proof.
  intros add g p x y w Hp Hb (I & HI & Hs) Hd Hq E. eapply (loop_ok _ (fun x => (y, x))); [|intros j x1 w1 Hj E1|exact E].
  - assert (Q : Z.of_nat (2 ^ p / 8) <= Z.of_nat (2 ^ p)) by (apply inj_le; apply Nat.div_le_upper_bound; lia). pose proof (small29 p ltac:(lia)). lia.
  - destruct (first_apart 3 (big_slice R_ops p) [("j"%string, Z.of_nat j); ("p"%string, Z.of_nat p); ("n8"%string, Z.of_nat (2 ^ p / 8))] ltac:(lia)) as [A B].
    destruct (exec_first_backward G HL sh_text sh_sig tw_text draw lr fuel unknown Wunk 3 add _ x1 y g (2 ^ p / 8) j (big_slice R_ops p) w1 ltac:(lia) Hb (sound_e g I _ _ HI Hs) Hd Hq (ready_big p j ltac:(lia) Hj) A B E1) as (s' & R1 & R2 & R3).
    rewrite (once_some _ _ (y, x1) s' R1), R2, R3. reflexivity.
Qed.

(** ** Forward *)
(** The generator's output for the forward codelets, and nothing goes wrong with signatures. *)
Definition fwd_codelets (gf gs : nat -> gen G) : Prop := forall r, (1 <= r <= 3)%nat ->
  body_first r true false (gen0 G) = Ok (tt, gf r) /\ body_s r true (gen0 G) = Ok (tt, gs r) /\
  exists I : interp RF, iother I = o /\ sound G I (gf r) /\ sound G I (gs r).
Lemma fwd_ok : forall gf gs, fwd_codelets gf gs -> forall n, Z.of_nat n < 2 ^ 31 -> forall c y w x, fwd_passes R_ops ord n c y = Ok w -> prog_fwd G ord e (fun r => g_out G (gs r)) n c (y, x) = Some (w, x).
Proof.
  intros gf gs H n Hn c.
  assert (Sm : forall k, (k <> 0)%nat -> Z.of_nat (n / k) < 2 ^ 31). { intros k Hk. assert (n / k <= n)%nat; [|lia]. apply Nat.div_le_upper_bound; [exact Hk|]. destruct k; [lia|]. lia. }
  induction c as [c IH] using lt_wf_ind. intros y w x E. destruct c as [|[|[|c1]]]; cbn [fwd_passes prog_fwd] in *.
  - injection E as <-. reflexivity.
  - destruct (H 1%nat ltac:(lia)) as (_ & Hb & I & HI & _ & Hs). apply (loop_s_forward 1 (gs 1%nat) (n / 4) 0 _ y w x); try assumption; [lia|eauto|apply Sm; discriminate].
  - destruct (H 2%nat ltac:(lia)) as (_ & Hb & I & HI & _ & Hs). apply (loop_s_forward 2 (gs 2%nat) (n / 8) 0 _ y w x); try assumption; [lia|eauto|apply Sm; discriminate].
  - destruct (def_loop ord (n / 16) _ y) as [y1| |] eqn:E1; try discriminate. cbn [bind] in E. destruct (H 3%nat ltac:(lia)) as (_ & Hb & I & HI & _ & Hs).
    rewrite (loop_s_forward 3 (gs 3%nat) (n / 16) c1 _ y y1 x ltac:(lia) Hb (ex_intro _ I (Logic.conj HI Hs)) (Sm 16%nat ltac:(discriminate)) E1). cbn [and_then]. apply IH; [lia|exact E].
Qed.
Lemma countr : forall p, Z.to_nat (countr_zero64 (Z.of_nat (2 ^ p))) = p.
Proof. intros p. rewrite Nat2Z.inj_pow. change (Z.of_nat 2) with 2. rewrite NewtonProofs.ctz_pow2. apply Nat2Z.id. Qed.
Lemma twice : forall p (y : list (A R_ops * A R_ops)), (1 <= p)%nat -> length y = (2 ^ (p - 1))%nat -> (2 * length y = 2 ^ p)%nat.
Proof. intros p y Hp Hy. rewrite Hy. replace p with (S (p - 1)) at 2 by lia. cbn [Nat.pow]. lia. Qed.
Lemma pow_pos2 : forall p, (2 ^ p =? 0)%nat = false.
Proof. intros p. apply Nat.eqb_neq. apply Nat.pow_nonzero. discriminate. Qed.
Theorem srfft_prog : forall gf gs, fwd_codelets gf gs -> forall p x y w, (1 <= p <= 29)%nat -> length y = (2 ^ (p - 1))%nat ->
  srfft_scramble R_ops ord y x = Ok w -> prog_srfft G ord e (fun r => g_out G (gf r)) (fun r => g_out G (gs r)) p (y, x) = Some (w, x).
Proof.
  intros gf gs H p x y w Hp Hy E. unfold srfft_scramble in E. rewrite (twice p y ltac:(lia) Hy), pow_pos2, countr in E.
  destruct (slow_assert _) as [u| |] in E; try discriminate. cbn [bind] in E. unfold prog_srfft. apply seq_bind in E. destruct E as (y1 & E1 & E).
  assert (F : match p with
     | 1%nat => once G (g_out G (gf 1%nat)) (e (fun _ => UB) []) (y, x)
     | 2%nat => once G (g_out G (gf 2%nat)) (e (fun _ => UB) []) (y, x)
     | _ => loop G ord e (g_out G (gf 3%nat)) (big_slice R_ops p) [("p"%string, Z.of_nat p); ("n8"%string, Z.of_nat (2 ^ p / 8))] (2 ^ p / 8) (y, x)
     end = Some (y1, x)).
  { assert (C : p = 1%nat \/ p = 2%nat \/ (3 <= p)%nat) by lia. destruct C as [-> | [-> | C]].
    - destruct (H 1%nat ltac:(lia)) as (Hb & _ & I & HI & Hs & _). apply (once_first_forward 1 false); try assumption; [lia|eauto].
    - destruct (H 2%nat ltac:(lia)) as (Hb & _ & I & HI & Hs & _). apply (once_first_forward 2 false); try assumption; [lia|eauto].
    - destruct (H 3%nat ltac:(lia)) as (Hb & _ & I & HI & Hs & _).
      assert (K : loop G ord e (g_out G (gf 3%nat)) (big_slice R_ops p) [("p"%string, Z.of_nat p); ("n8"%string, Z.of_nat (2 ^ p / 8))] (2 ^ p / 8) (y, x) = Some (y1, x)).
      { apply (loop_first_forward false); [lia|exact Hb|eauto|]. destruct p as [|[|[|p]]]; [lia|lia|lia|exact E1]. }
      destruct p as [|[|[|p]]]; [lia|lia|lia|exact K]. }
  cbv zeta. rewrite F. cbn [and_then]. apply (fwd_ok gf gs H); [apply small29; lia|exact E].
Qed.

(** ** Backward *)
Definition bwd_codelets (add : bool) (gf gs : nat -> gen G) : Prop := forall r, (1 <= r <= 3)%nat ->
  body_first r false add (gen0 G) = Ok (tt, gf r) /\ body_s r false (gen0 G) = Ok (tt, gs r) /\
  declared G unknown (gf r) /\ circuits G fuel (vars_ok G (pnames (2 ^ r))) (gf r) /\ declared G unknown (gs r) /\ circuits G fuel (fields_ok G) (gs r) /\
  exists I : interp RF, iother I = o /\ sound G I (gf r) /\ sound G I (gs r).
Lemma inv_ok : forall add gf gs, bwd_codelets add gf gs -> forall n p, Z.of_nat n < 2 ^ 31 -> forall f s y w x, inv_passes R_ops ord f n p s y = Ok w -> prog_inv G ord e (fun r => g_out G (gs r)) f n p s (y, x) = Some (w, x).
Proof.
  intros add gf gs H n p Hn.
  assert (Sm : forall k, (k <> 0)%nat -> Z.of_nat (n / k) < 2 ^ 31). { intros k Hk. assert (n / k <= n)%nat; [|lia]. apply Nat.div_le_upper_bound; [exact Hk|]. destruct k; [lia|]. lia. }
  induction f as [|f IH]; intros s y w x E; cbn [inv_passes prog_inv] in *; (destruct (s <? p - 3)%nat; [|injection E as <-; reflexivity]); [discriminate|].
  destruct ((s =? 0)%nat && (p mod 3 =? 1)%nat); [|destruct ((s =? 0)%nat && (p mod 3 =? 2)%nat)]; apply seq_bind in E; destruct E as (y1 & E1 & E).
  - destruct (H 1%nat ltac:(lia)) as (_ & Hb & _ & _ & Hd & Hq & I & HI & _ & Hs).
    rewrite (loop_s_backward 1 (gs 1%nat) (n / 4) 0 _ y y1 x ltac:(lia) Hb (ex_intro _ I (Logic.conj HI Hs)) Hd Hq (Sm 4%nat ltac:(discriminate)) E1 : loop G ord e _ _ [("s"%string, 0)] _ _ = _). cbn [and_then]. apply IH. exact E.
  - destruct (H 2%nat ltac:(lia)) as (_ & Hb & _ & _ & Hd & Hq & I & HI & _ & Hs).
    rewrite (loop_s_backward 2 (gs 2%nat) (n / 8) 0 _ y y1 x ltac:(lia) Hb (ex_intro _ I (Logic.conj HI Hs)) Hd Hq (Sm 8%nat ltac:(discriminate)) E1 : loop G ord e _ _ [("s"%string, 0)] _ _ = _). cbn [and_then]. apply IH. exact E.
  - destruct (H 3%nat ltac:(lia)) as (_ & Hb & _ & _ & Hd & Hq & I & HI & _ & Hs).
    rewrite (loop_s_backward 3 (gs 3%nat) (n / 16) s _ y y1 x ltac:(lia) Hb (ex_intro _ I (Logic.conj HI Hs)) Hd Hq (Sm 16%nat ltac:(discriminate)) E1). cbn [and_then]. apply IH. exact E.
Qed.
Theorem isrfft_prog : forall add gf gs, bwd_codelets add gf gs -> forall p x y x' y', (1 <= p <= 29)%nat -> length y = (2 ^ (p - 1))%nat ->
  isrfft_scramble R_ops ord add x y = Ok (x', y') -> prog_isrfft G ord e (fun r => g_out G (gf r)) (fun r => g_out G (gs r)) p (y, x) = Some (y', x').
Proof.
  intros add gf gs H p x y x' y' Hp Hy E. unfold isrfft_scramble in E. rewrite (twice p y ltac:(lia) Hy), pow_pos2, countr in E.
  destruct (slow_assert _) as [u| |] in E; try discriminate. cbn [bind] in E. unfold prog_isrfft. apply seq_bind in E. destruct E as (y1 & E1 & E). apply seq_bind in E. destruct E as (x1 & E2 & E). injection E as -> ->.
  cbv zeta. match goal with |- and_then ?a _ = _ => assert (Q : a = Some (y', x)) by exact (inv_ok add gf gs H (2 ^ p) p (small29 p ltac:(lia)) p 0 y y' x E1); rewrite Q; clear Q end. cbn [and_then].
  assert (C : p = 1%nat \/ p = 2%nat \/ (3 <= p)%nat) by lia. destruct C as [-> | [-> | C]].
  - destruct (H 1%nat ltac:(lia)) as (Hb & _ & Hd & Hq & _ & _ & I & HI & Hs & _). apply (once_first_backward 1 add); try assumption; [lia|eauto].
  - destruct (H 2%nat ltac:(lia)) as (Hb & _ & Hd & Hq & _ & _ & I & HI & Hs & _). apply (once_first_backward 2 add); try assumption; [lia|eauto].
  - destruct (H 3%nat ltac:(lia)) as (Hb & _ & Hd & Hq & _ & _ & I & HI & Hs & _).
    assert (K : loop G ord e (g_out G (gf 3%nat)) (big_slice R_ops p) [("p"%string, Z.of_nat p); ("n8"%string, Z.of_nat (2 ^ p / 8))] (2 ^ p / 8) (y', x) = Some (y', x')).
    { apply (loop_first_backward add); [lia|exact Hb|eauto|exact Hd|exact Hq|]. destruct p as [|[|[|p]]]; [lia|lia|lia|exact E2]. }
    destruct p as [|[|[|p]]]; [lia|lia|lia|exact K].
Qed.
End Whole.
