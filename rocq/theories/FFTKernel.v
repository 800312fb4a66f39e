(** The kernels of fft.cc over the reals are multiplication kernels in the sense of
    SeriesSpec.v, so everything proved for series over [kernel_ok] holds with them. *)
From Coq Require Import ZArith Arith List Bool Lia Reals.
From Verif Require Import Base Field FieldInst FPS SeriesModel SeriesSpec FFTModel FFTLoop FFTMath FFTMulSpec FFTShift4 FFTMul.
Import ListNotations.
Open Scope nat_scope.

(** series.h:273-301 call fft_mul, fft_addmul and fft_sqr with an output span of [nz]
    entries; [zs nz] is what that span holds before the call.  For fft_addmul the values
    added are those found when [middle] leaves zeros. *)
Definition fft_kernel (ord : Z -> list nat) (junk : nat -> list (R * R)) (zs : nat -> list R) : kernel RF :=
  Build_kernel RF
    (fun nz (xs ys : list R) => fft_mul R_ops ord junk (zs nz) xs ys)
    (fun nz (xs ys : list R) => fft_addmul R_ops ord junk (fun _ => Ok (repeat 0%R nz)) (zs nz) xs ys)
    (fun nz (xs : list R) => fft_sqr R_ops ord junk (zs nz) xs).

Section K.
Variable ord : Z -> list nat.
Hypothesis Hord : sched_ok ord.
Variable junk : nat -> list (R * R).
Hypothesis Hjunk : forall n, length (junk n) = n.
Variable zs : nat -> list R.
Hypothesis Hzs : forall n, length (zs n) = n.

Lemma pcoef_fmul : forall xs ys i, FFTMulSpec.pcoef R_ops xs ys i = fmul (poly (F := RF) xs) (poly (F := RF) ys) i.
Proof.
  intros xs ys i. unfold FFTMulSpec.pcoef, fmul.
  assert (G : forall n f, FFTMulSpec.rsum R_ops n f = sumto (F := RF) f n).
  { induction n as [|n IH]; intros f; [reflexivity|]. cbn [FFTMulSpec.rsum sumto]. rewrite IH. reflexivity. }
  rewrite G. reflexivity.
Qed.
Theorem fft_kernel_ok : kernel_ok (fft_kernel ord junk zs).
Proof.
  constructor; cbn [k_mul k_addmul k_sqr fft_kernel].
  - intros nz xs ys Hs Hx Hy Hxy. destruct (fft_mul_ok R_ops R_ops_ok ord Hord junk Hjunk (zs nz) xs ys) as (r & E & L & V); rewrite ?Hzs; auto.
    { destruct (Nat.le_gt_cases nz 8); [left; assumption|right]. pose proof (fft_size_ge nz ltac:(lia) Hs). cbn [A R_ops K RF] in *. lia. }
    rewrite Hzs in *. exists r. split; [exact E|]. split; [exact L|]. intros i Hi. rewrite <- pcoef_fmul, <- V by exact Hi. reflexivity.
  - intros nz xs ys Hs Hx Hy Hxy. destruct nz as [|nz].
    + assert (E0 : zs 0 = []) by (apply length_zero_iff_nil; apply Hzs). rewrite E0. rewrite (fft_addmul_nil R_ops ord junk Hjunk). exists []. split; [reflexivity|]. split; [reflexivity|]. intros i Hi. lia.
    + pose proof (fft_size_ge (S nz) ltac:(lia) Hs) as HS.
      destruct (fft_addmul_ok R_ops R_ops_ok ord Hord junk Hjunk (fun _ => Ok (repeat 0%R (S nz))) (zs (S nz)) xs ys (repeat 0%R (S nz))) as (r & E & L & V); rewrite ?Hzs; auto; try lia;
        try (cbn [A R_ops K RF] in *; lia). { apply repeat_length. }
      rewrite Hzs in *. exists r. split; [exact E|]. split; [exact L|]. intros i Hi. rewrite <- pcoef_fmul. unfold poly. cbn [A R_ops K RF k0 z0] in *. rewrite V by exact Hi.
      rewrite nth_repeat. rewrite (ncoef_exact R_ops R_ops_ok) by (cbn [A R_ops K RF] in *; lia). cbn [add R_ops]. apply Rplus_0_l.
  - intros nz xs Hs Hx Hxy. destruct (fft_sqr_ok R_ops R_ops_ok ord Hord junk Hjunk (zs nz) xs) as (r & E & L & V); rewrite ?Hzs; auto.
    { destruct (Nat.le_gt_cases nz 8); [left; assumption|right]. pose proof (fft_size_ge nz ltac:(lia) Hs). cbn [A R_ops K RF] in *. lia. }
    rewrite Hzs in *. exists r. split; [exact E|]. split; [exact L|]. intros i Hi. rewrite <- pcoef_fmul. unfold poly. cbn [A R_ops K RF k0 z0] in *. rewrite V by exact Hi.
    destruct (Nat.leb_spec nz 8); [reflexivity|]. apply (ncoef_exact R_ops R_ops_ok).
    pose proof (fft_size_ge nz ltac:(lia) Hs). cbn [A R_ops K RF] in *. lia.
Qed.
Theorem fft_kernel_strict : kernel_strict (fft_kernel ord junk zs).
Proof.
  intros nz xs ys H. cbn [k_mul k_addmul fft_kernel]. split; [apply (fft_mul_throw R_ops ord junk)|apply (fft_addmul_throw R_ops ord junk)]; rewrite Hzs; exact H.
Qed.
(** lengths *)
Lemma setxs_len : forall op is x vs x', setxs R_ops op x is vs = Ok x' -> length x' = length x.
Proof.
  intros op is. induction is as [|i is IH]; intros x vs x' H; destruct vs as [|v vs]; cbn [setxs] in H; try discriminate H.
  - injection H as <-. reflexivity.
  - destruct (setx_ok R_ops op x i v) as (x1 & E & L & _). rewrite E in H. cbn [bind] in H. rewrite (IH _ _ _ H). exact L.
Qed.
Lemma run_len : forall Y (body : nat -> list Y -> res (list Y)) ls x x', (forall i x x', body i x = Ok x' -> length x' = length x) -> run ls body x = Ok x' -> length x' = length x.
Proof.
  intros Y body ls. induction ls as [|i ls IH]; intros x x' HB H; cbn [run] in H; [injection H as <-; reflexivity|].
  destruct (body i x) as [y| |] eqn:E; cbn [bind] in H; try discriminate H. rewrite (IH y x' HB H). apply (HB _ _ _ E).
Qed.
Lemma def_loop_len : forall Y n (body : nat -> list Y -> res (list Y)) x x', (forall i x x', body i x = Ok x' -> length x' = length x) -> def_loop ord n body x = Ok x' -> length x' = length x.
Proof.
  intros Y n body x x' HB H. unfold def_loop in H. destruct (Z.of_nat n =? 0)%Z; [injection H as <-; reflexivity|]. apply (run_len _ _ _ _ _ HB H).
Qed.
Lemma last_len : forall op r tw nr y j x x', isrfft_last R_ops op r tw nr y j x = Ok x' -> length x' = length x.
Proof.
  intros op r tw nr y j x x' H. unfold isrfft_last in H. destruct (gets y _) as [v| |]; cbn [bind] in H; try discriminate H.
  destruct (transpose_r R_ops _ _ v) as [w| |]; cbn [bind] in H; try discriminate H. apply (setxs_len _ _ _ _ _ H).
Qed.
Lemma scramble_len : forall op x y x' y', isrfft_scramble R_ops ord op x y = Ok (x', y') -> length x' = length x.
Proof.
  intros op x y x' y' H. unfold isrfft_scramble in H. destruct (2 * length y =? 0); [injection H as <- _; reflexivity|].
  destruct (slow_assert _); cbn [bind] in H; try discriminate H. destruct (inv_passes R_ops ord _ _ _ 0 y) as [y1| |]; cbn [bind] in H; try discriminate H.
  set (p := Z.to_nat _) in H. clearbody p. set (n := 2 * length y) in *. clearbody n. destruct p as [|[|[|p]]].
  - destruct (def_loop ord (n / 8) _ x) as [x1| |] eqn:E; cbn [bind] in H; try discriminate H. injection H as <- _. apply (def_loop_len _ _ _ _ _ (last_len op 3 _ _ y1) E).
  - destruct (isrfft_last R_ops op 1 _ 1 y1 0 x) as [x1| |] eqn:E; cbn [bind] in H; try discriminate H. injection H as <- _. apply (last_len _ _ _ _ _ _ _ _ E).
  - destruct (isrfft_last R_ops op 2 _ 1 y1 0 x) as [x1| |] eqn:E; cbn [bind] in H; try discriminate H. injection H as <- _. apply (last_len _ _ _ _ _ _ _ _ E).
  - destruct (def_loop ord (n / 8) _ x) as [x1| |] eqn:E; cbn [bind] in H; try discriminate H. injection H as <- _. apply (def_loop_len _ _ _ _ _ (last_len op 3 _ _ y1) E).
Qed.
Lemma base_len : forall f is z r, base_loop R_ops f is z = Ok r -> length r = length z.
Proof.
  intros f is. induction is as [|i is IH]; intros z r H; cbn [base_loop] in H; [injection H as <-; reflexivity|].
  destruct (length z <=? i); [injection H as <-; reflexivity|]. unfold aset in H. destruct (i <? length z); cbn [bind] in H; [|discriminate H].
  rewrite (IH _ _ H). apply upd_length.
Qed.
Ltac step H := match type of H with bind ?e _ = Ok _ => destruct e eqn:?; cbn [bind] in H; try discriminate H end.
Ltac fin H := repeat step H; injection H as <-; repeat match goal with E : Ok _ = Ok _ |- _ => injection E as <- end; match goal with p : _ * _ |- _ => destruct p end; cbn [fst] in *.
Theorem fft_kernel_len : kernel_len (fft_kernel ord junk zs).
Proof.
  constructor; cbn [k_mul k_addmul k_sqr fft_kernel].
  - intros nz xs ys p H. unfold fft_mul in H. step H. match type of H with (if ?c then _ else _) = _ => destruct c end.
    + rewrite <- (Hzs nz). apply (base_len _ _ _ _ H).
    + fin H. rewrite <- (Hzs nz). eapply scramble_len. eassumption.
  - intros nz xs ys p H. unfold fft_addmul in H. fin H. rewrite <- (repeat_length 0%R nz). eapply scramble_len. eassumption.
  - intros nz xs p H. unfold fft_sqr in H. step H. match type of H with (if ?c then _ else _) = _ => destruct c end.
    + rewrite <- (Hzs nz). apply (base_len _ _ _ _ H).
    + fin H. rewrite <- (Hzs nz). eapply scramble_len. eassumption.
Qed.
End K.
