(** Rounding error of the complex transforms in double precision (C79).

    [encloses B mem] is the contract of the external ball arithmetic that computes the tables (C51,
    C52); it is met by [intervals2].  [tables B p zs]: [zs s] is what nearest_twiddles returns for the
    slice s < p, all finite.  [sched_ok ord]: the parallel loops run each index once, in any order.
    [magnitude p X] is the sum over j < 2^p of |X j| + 2^-1000; the second part covers underflow.
    [u] is 2^-53. *)
From Coq Require Import ZArith Arith List Bool Lia Reals Lra.
From Flocq Require Import Core BinarySingleNaN.
From Coquelicot Require Import Complex.
From Verif Require Import Base SeriesModel ExpansionModel ExpansionFloat ExpansionProofs ExpansionDiv NearestModel NearestProofs NearestArea NearestInst FFTRoundInst
  FFTModel FFTLoop FFTMath FFTSpec FFTProofs FFTExamples FFTRoundModel FFTRound FFTRoundD.
Import ListNotations.
Open Scope R_scope.

(** The value of a complex double. *)
Definition point (a : double * double) : R * R := (B2R (fst a), B2R (snd a)).
Definition finite (a : double * double) : Prop := fin (fst a) /\ fin (snd a).
Definition distance (a b : R * R) : R := sqrt ((fst a - fst b) ^ 2 + (snd a - snd b) ^ 2).
Definition magnitude (p : nat) (X : nat -> R * R) : R :=
  fold_right Rplus 0 (map (fun j => sqrt (fst (X j) ^ 2 + snd (X j) ^ 2) + bpow radix2 (-1000)) (seq 0 (2 ^ p))).
(** Elements 2j and 2j+1 of x as a complex number, zero beyond the end. *)
Definition pairs (x : list double) (j : nat) : R * R := (B2R (nth (2 * j) x dzero), B2R (nth (2 * j + 1) x dzero)).
(** The sum over j < 2^p of X j exp(sign 2 pi i j k / 2^p). *)
Definition fourier (sign : R) (p : nat) (X : nat -> R * R) (k : nat) : R * R :=
  let angle := fun j => sign * (2 * PI * INR j * INR k / 2 ^ p) in
  (fold_right Rplus 0 (map (fun j => fst (X j) * cos (angle j) - snd (X j) * sin (angle j)) (seq 0 (2 ^ p))),
   fold_right Rplus 0 (map (fun j => fst (X j) * sin (angle j) + snd (X j) * cos (angle j)) (seq 0 (2 ^ p)))).

Lemma csum_parts : forall n f, csum R_ops n f = (total n (fun j => fst (f j)), total n (fun j => snd (f j))).
Proof.
  induction n as [|n IH]; intros f; [reflexivity|]. cbn [csum]. rewrite IH, !total_S. reflexivity.
Qed.
Lemma total_ext : forall n f g, (forall i, f i = g i) -> total n f = total n g.
Proof. intros n f g H. unfold total. f_equal. apply map_ext. exact H. Qed.
Lemma dft_fourier : forall p X k, dft R_ops p X k = fourier (-1) p X k.
Proof.
  intros p X k. unfold dft, fourier. rewrite csum_parts. unfold total. cbv zeta.
  assert (E : forall j, 2 * PI * IZR (- Z.of_nat (j * k)) / 2 ^ p = -1 * (2 * PI * INR j * INR k / 2 ^ p)).
  { intros j. rewrite opp_IZR, <- INR_IZR_INZ, mult_INR. field. apply pow_nonzero. lra. }
  apply f_equal2; f_equal; apply map_ext; intros j; unfold cmul; cbn [fst snd R_ops sub add mul root]; unfold R_root; cbn [fst snd]; rewrite E; reflexivity.
Qed.
Lemma idft_fourier : forall p X k, idft R_ops p X k = fourier 1 p X k.
Proof.
  intros p X k. unfold idft, fourier. rewrite csum_parts. unfold total. cbv zeta.
  assert (E : forall j, 2 * PI * IZR (Z.of_nat (k * j)) / 2 ^ p = 1 * (2 * PI * INR j * INR k / 2 ^ p)).
  { intros j. rewrite <- INR_IZR_INZ, mult_INR. field. apply pow_nonzero. lra. }
  apply f_equal2; f_equal; apply map_ext; intros j; unfold cmul; cbn [fst snd R_ops sub add mul root]; unfold R_root; cbn [fst snd]; rewrite E; reflexivity.
Qed.
Lemma pairs_packed : forall x j, packed R_ops (map B2R x) j = pairs x j.
Proof. intros x j. unfold packed, pairs. cbn [R_ops z0]. change 0 with (B2R dzero). rewrite !map_nth. reflexivity. Qed.
Lemma csum_same : forall (p : nat) X Y k, (forall j, X j = Y j) -> dft R_ops p X k = dft R_ops p Y k.
Proof. intros p X Y k H. unfold dft. apply csum_ext. intros j _. rewrite H. reflexivity. Qed.
Lemma size_magnitude : forall p x, size p x = magnitude p (pairs x).
Proof. intros p x. unfold size, magnitude. apply total_ext. intros j. rewrite pairs_packed. reflexivity. Qed.

(** ** fft *)
Theorem C79_fft : forall B mem, encloses B mem -> forall ord, sched_ok ord -> forall p zs, (1 <= p <= 29)%nat -> tables B p zs ->
  forall x y, length y = (2 ^ p)%nat -> (length x <= 2 * 2 ^ p)%nat -> Forall fin x -> magnitude p (pairs x) <= bpow radix2 990 ->
  exists y', fft (D_ops zs) ord y x = Ok y' /\ length y' = (2 ^ p)%nat /\
    forall k, (k < 2 ^ p)%nat -> let a := nth k y' (dzero, dzero) in
      finite a /\ distance (point a) (fourier (-1) p (pairs x) k) <= 7 * INR p * u * magnitude p (pairs x).
Proof.
  intros B mem HB ord Hord p zs Hp HT x y Hy Hx Fx HS. rewrite <- size_magnitude in *.
  destruct (fft_d B mem HB ord Hord p zs Hp HT x y Hy Hx Fx HS) as (y' & E & L & V). exists y'. split; [exact E|]. split; [exact L|].
  intros k Hk. destruct (V k Hk) as [F D]. split; [exact F|]. rewrite <- dft_fourier.
  rewrite (csum_same p _ _ k (pairs_packed x)) in D. exact D.
Qed.
Print Assumptions C79_fft.

(** ** ifft *)
Theorem C79_ifft : forall B mem, encloses B mem -> forall ord, sched_ok ord -> forall p zs, (1 <= p <= 29)%nat -> tables B p zs ->
  forall (x : list double) y, length y = (2 ^ p)%nat -> (length x <= 2 * 2 ^ p)%nat -> Forall finite y ->
  let Y := fun k => point (nth k y (dzero, dzero)) in magnitude p Y <= bpow radix2 990 ->
  exists x' y', ifft (D_ops zs) ord x y = Ok (x', y') /\ length x' = length x /\ length y' = length y /\
    forall i, (i < length x)%nat -> let a := nth i x' dzero in let v := fourier 1 p Y (i / 2) in
      fin a /\ Rabs (B2R a - (if Nat.even i then fst v else snd v)) <= 7 * INR p * u * magnitude p Y.
Proof.
  intros B mem HB ord Hord p zs Hp HT x y Hy Hx Fy Y HS.
  destruct (ifft_d B mem HB ord Hord p zs Hp HT x y Hy Hx Fy HS) as (x' & y' & E & L & L' & V). exists x', y'. split; [exact E|]. split; [exact L|]. split; [exact L'|].
  intros i Hi. destruct (V i Hi) as [F D]. cbv zeta. split; [exact F|]. rewrite <- idft_fourier. exact D.
Qed.
Print Assumptions C79_ifft.

(** ** The round trip: 2^p times the input *)
Theorem C79_round_trip : forall B mem, encloses B mem -> forall ord, sched_ok ord -> forall p zs, (1 <= p <= 29)%nat -> tables B p zs ->
  forall (x0 x : list double) y, length y = (2 ^ p)%nat -> (length x0 <= 2 * 2 ^ p)%nat -> (length x <= 2 * 2 ^ p)%nat ->
  Forall fin x0 -> magnitude p (pairs x0) <= bpow radix2 960 ->
  exists y' x' y2, fft (D_ops zs) ord y x0 = Ok y' /\ ifft (D_ops zs) ord x y' = Ok (x', y2) /\ length x' = length x /\
    forall i, (i < length x)%nat -> let a := nth i x' dzero in
      fin a /\ Rabs (B2R a - 2 ^ p * B2R (nth i x0 dzero)) <= 2 ^ p * (28 * INR p * u * magnitude p (pairs x0)).
Proof.
  intros B mem HB ord Hord p zs Hp HT x0 x y Hy H0 Hx Fx HS. rewrite <- size_magnitude in *.
  exact (trip_d B mem HB ord Hord p zs Hp HT x0 x y Hy H0 Hx Fx HS).
Qed.
Print Assumptions C79_round_trip.

(** ** Inputs of bounded size *)
Lemma fin_values : forall x M i, Forall (fun a => Rabs (B2R (a : double)) <= M) x -> 0 <= M -> Rabs (B2R (nth i x dzero)) <= M.
Proof.
  intros x M i H HM. destruct (Nat.lt_ge_cases i (length x)) as [L|L].
  - rewrite Forall_forall in H. apply H. apply nth_In. exact L.
  - rewrite nth_overflow by exact L. cbn [dzero B2R]. rewrite Rabs_R0. exact HM.
Qed.
Lemma magnitude_le : forall p x M, bpow radix2 (-990) <= M -> Forall (fun a => Rabs (B2R (a : double)) <= M) x ->
  magnitude p (pairs x) <= 2 ^ p * (3 / 2 * M).
Proof.
  intros p x M HM H. assert (M0 : 0 <= M) by (pose proof (bpow_gt_0 radix2 (-990)); lra).
  assert (E : magnitude p (pairs x) = total (2 ^ p) (fun j => Cmod (pairs x j) + bpow radix2 (-1000))) by reflexivity.
  rewrite E, <- INR_pow2, <- total_const. apply total_le. intros i _.
  pose proof (Cmod_both _ _ M (fin_values x M (2 * i) H M0) (fin_values x M (2 * i + 1) H M0)) as C.
  assert (S : 1024 * bpow radix2 (-1000) <= M). { change 1024 with (bpow radix2 10). rewrite <- bpow_plus. exact HM. }
  pose proof (bpow_gt_0 radix2 (-1000)). unfold pairs. lra.
Qed.
(** With all inputs at most M in absolute value, every frequency is right to 11 p 2^p units of M 2^-53. *)
Theorem C79_fft_bounded : forall B mem, encloses B mem -> forall ord, sched_ok ord -> forall p zs, (1 <= p <= 29)%nat -> tables B p zs ->
  forall x y M, length y = (2 ^ p)%nat -> (length x <= 2 * 2 ^ p)%nat -> Forall fin x ->
  bpow radix2 (-990) <= M <= bpow radix2 950 -> Forall (fun a => Rabs (B2R a) <= M) x ->
  exists y', fft (D_ops zs) ord y x = Ok y' /\ length y' = (2 ^ p)%nat /\
    forall k, (k < 2 ^ p)%nat -> let a := nth k y' (dzero, dzero) in
      finite a /\ distance (point a) (fourier (-1) p (pairs x) k) <= 11 * INR p * 2 ^ p * u * M.
Proof.
  intros B mem HB ord Hord p zs Hp HT x y M Hy Hx Fx [M1 M2] HM. pose proof (magnitude_le p x M M1 HM) as S.
  pose proof (bpow_gt_0 radix2 (-990)) as G0.
  assert (N2 : 2 ^ p <= bpow radix2 29). { replace (bpow radix2 29) with (2 ^ 29) by (rewrite <- (IZR_Zpower radix2) by lia; rewrite pow_IZR; reflexivity). apply Rle_pow; [lra|lia]. }
  assert (N1 : 1 <= 2 ^ p) by (apply pow_R1_Rle; lra).
  assert (S2 : magnitude p (pairs x) <= bpow radix2 990).
  { eapply Rle_trans; [exact S|]. apply Rle_trans with (bpow radix2 29 * (2 * bpow radix2 950)).
    - apply Rmult_le_compat; lra.
    - change 2 with (bpow radix2 1) at 1. rewrite <- !bpow_plus. apply bpow_le. lia. }
  destruct (C79_fft B mem HB ord Hord p zs Hp HT x y Hy Hx Fx S2) as (y' & E & L & V). exists y'. split; [exact E|]. split; [exact L|].
  intros k Hk. destruct (V k Hk) as [F D]. cbv zeta. split; [exact F|]. eapply Rle_trans; [exact D|].
  assert (P : 0 <= INR p * u) by (apply Rmult_le_pos; [apply pos_INR|rewrite u_val; lra]).
  apply Rle_trans with (7 * (INR p * u) * (2 ^ p * (3 / 2 * M))).
  - replace (7 * INR p * u) with (7 * (INR p * u)) by ring. apply Rmult_le_compat_l; [lra|exact S].
  - assert (Q : 0 <= INR p * u * (2 ^ p * M)) by (apply Rmult_le_pos; [exact P|apply Rmult_le_pos; lra]). lra.
Qed.
Print Assumptions C79_fft_bounded.

(** ** Tables of a concrete ball arithmetic *)
Definition table (s : nat) : list (list double * list double) :=
  match nearest_twiddles intervals2 Double (2 ^ Z.of_nat s / 4 + 1) (2 * 2 ^ Z.of_nat s) 200 with Ok (l, _) => l | _ => [] end.
Definition table_fine (s : nat) : bool :=
  match nearest_twiddles intervals2 Double (2 ^ Z.of_nat s / 4 + 1) (2 * 2 ^ Z.of_nat s) 200 with
  | Ok (l, _) => forallb (fun z => forallb is_finite (fst z) && forallb is_finite (snd z)) l
  | _ => false
  end.
Lemma table_fine_ok : forall s, table_fine s = true -> exists fallbacks,
    nearest_twiddles intervals2 Double (2 ^ Z.of_nat s / 4 + 1) (2 * 2 ^ Z.of_nat s) 200 = Ok (table s, fallbacks) /\
    Forall (fun z => Forall (fun a => is_finite a = true) (fst z) /\ Forall (fun a => is_finite a = true) (snd z)) (table s).
Proof.
  intros s. unfold table, table_fine. destruct (nearest_twiddles _ _ _ _ _) as [[l n]| |]; try discriminate. intros H. exists n. split; [reflexivity|].
  rewrite forallb_forall in H. apply Forall_forall. intros z Hz. specialize (H z Hz). apply andb_prop in H. destruct H as [H1 H2].
  rewrite forallb_forall in H1, H2. split; apply Forall_forall; assumption.
Qed.
Lemma tables_4 : tables intervals2 4 table.
Proof.
  assert (H : forallb table_fine (seq 0 4) = true) by (vm_compute; reflexivity). rewrite forallb_forall in H.
  intros s Hs. apply table_fine_ok. apply H. apply in_seq. lia.
Qed.
(** The hypotheses hold for a transform of 16 points with these tables and 21 inputs. *)
Definition some_input : list double := map (fun i => dlit (Z.of_nat (i * i * i)) (-5)) (seq 1 21).
Example C79_instance : encloses intervals2 imem /\ sched_ok rev_ord /\ tables intervals2 4 table /\ Forall fin some_input /\
  Forall (fun a => Rabs (B2R a) <= bpow radix2 14) some_input /\ magnitude 4 (pairs some_input) <= bpow radix2 960.
Proof.
  assert (V : Forall (fun a => Rabs (B2R a) <= bpow radix2 14) some_input).
  { unfold some_input. apply Forall_forall. intros a Ha. apply in_map_iff in Ha. destruct Ha as (i & <- & Hi). apply in_seq in Hi.
    assert (Hz : (0 <= Z.of_nat (i * i * i) < 2 ^ 14)%Z).
    { split; [lia|]. assert (H : (i * i * i <= 21 * 21 * 21)%nat) by (apply Nat.mul_le_mono; [apply Nat.mul_le_mono|]; lia). lia. }
    set (m := Z.of_nat (i * i * i)) in *. clearbody m.
    assert (Fm : fmt (F2R (Float radix2 m (-5)))). { apply generic_format_FLT. exists (Float radix2 m (-5)); [reflexivity|change (Z.abs m < 2 ^ 53)%Z; lia|cbn [Fexp]; unfold emin; lia]. }
    assert (Rm : Rabs (F2R (Float radix2 m (-5))) <= bpow radix2 14).
    { unfold F2R. cbn [Fnum Fexp]. rewrite Rabs_pos_eq; [|apply Rmult_le_pos; [apply IZR_le; lia|apply bpow_ge_0]].
      apply Rle_trans with (bpow radix2 14 * 1); [|lra]. apply Rmult_le_compat; [apply IZR_le; lia|apply bpow_ge_0| |change 1 with (bpow radix2 0); apply bpow_le; lia].
      rewrite <- (IZR_Zpower radix2) by lia. apply IZR_le. change (radix_val radix2) with 2%Z. lia. }
    assert (F : fin (dlit m (-5))).
    { pose proof (binary_normalize_correct prec emax _ _ mode_NE m (-5) false) as C. cbv zeta in C. rewrite fexp_FLT in C. cbn [round_mode] in C.
      rewrite Rlt_bool_true in C by (apply (rn_small _ 14); [lia|exact Rm]). apply C. }
    rewrite (B2R_lit _ _ F Fm). exact Rm. }
  split; [exact intervals2_ok|]. split; [exact rev_ord_ok|]. split; [exact tables_4|]. split; [|split; [exact V|]].
  - apply Forall_forall. intros a Ha. assert (H : forallb is_finite some_input = true) by (vm_compute; reflexivity). rewrite forallb_forall in H. exact (H a Ha).
  - eapply Rle_trans; [apply (magnitude_le 4 some_input (bpow radix2 14)); [apply bpow_le; lia|exact V]|].
    apply Rle_trans with (bpow radix2 6 * bpow radix2 14).
    + pose proof (bpow_gt_0 radix2 14). change (bpow radix2 6) with 64. lra.
    + rewrite <- bpow_plus. apply bpow_le. lia.
Qed.

(** Without the bound on the size the sums overflow, although every frequency of the exact transform is
    less than twice the largest double. *)
Definition huge : double := dlit 9007199254740991 971.
Definition huge_run : res (list (double * double)) := fft (D_ops table) seq_ord [(dzero, dzero); (dzero, dzero)] [huge; dzero; huge; dzero].
Definition first_not_finite (r : res (list (double * double))) : bool :=
  match r with Ok ((a, _) :: _) => negb (is_finite a) | _ => false end.
Theorem C79_overflow_refuted : exists x y', Forall fin x /\ length x = 4%nat /\ tables intervals2 1 table /\
  fft (D_ops table) seq_ord [(dzero, dzero); (dzero, dzero)] x = Ok y' /\ ~ finite (nth 0 y' (dzero, dzero)).
Proof.
  assert (H : first_not_finite huge_run = true) by (vm_compute; reflexivity). unfold huge_run in H.
  destruct (fft _ _ _ _) as [[|[a b] l]| |] eqn:E; try discriminate H.
  exists [huge; dzero; huge; dzero], ((a, b) :: l).
  assert (F : forallb is_finite [huge; dzero; huge; dzero] = true) by (vm_compute; reflexivity). rewrite forallb_forall in F.
  split; [apply Forall_forall; exact F|]. split; [reflexivity|]. split; [intros s Hs; apply tables_4; lia|]. split; [exact E|].
  intros [F1 _]. cbn [first_not_finite] in H. cbn [nth fst] in F1. unfold fin in F1. rewrite F1 in H. discriminate H.
Qed.
Print Assumptions C79_overflow_refuted.
(** A run of 4 points: the transform of 1, 2, 3, 4 as real parts, and the scaled input back. *)
Example C79_run :
  match fft (D_ops table) seq_ord (repeat (dzero, dzero) 4) (flat_map (fun i => [dofZ (Z.of_nat i); dzero]) (seq 1 4)) with
  | Ok y =>
      Beqb (fst (nth 0 y (dzero, dzero))) (dofZ 10) && Beqb (snd (nth 1 y (dzero, dzero))) (dofZ 2) = true /\
      match ifft (D_ops table) rev_ord (repeat dzero 8) y with
      | Ok (x, _) => Beqb (nth 0 x dzero) (dofZ 4) && Beqb (nth 6 x dzero) (dofZ 16) = true
      | _ => False
      end
  | _ => False
  end.
Proof. vm_compute. auto. Qed.
