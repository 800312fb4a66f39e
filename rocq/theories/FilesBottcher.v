(** The step of area.cc satisfies what resuming needs; a scalar type with exact text files. *)
From Coq Require Import ZArith QArith Qcanon List Bool Ascii String Lia Arith.
From Verif Require Import Base LoopsModel Field FieldInst FPS SeriesModel SeriesSpec SeriesProofs BottcherMath AreaModel AreaProofs FilesModel FilesProofs FilesResume.
Import ListNotations.
Open Scope Z_scope.

Lemma nth_ext_error {A} (l m : list A) : (forall i, nth_error l i = nth_error m i) -> l = m.
Proof.
  revert m. induction l as [|a l IH]; intros [|b m] H; try reflexivity; try discriminate (H O).
  pose proof (H O) as H0. injection H0 as ->. f_equal. apply IH. intro i. exact (H (S i)).
Qed.
Section Bottcher.
Variable F : Fld.
Variable kern : kernel F.
Variable base : bases F.
Hypothesis HK : kernel_ok kern.
Hypothesis HB : bases_ok base.
Variable check : bool -> series F -> bool.
Variable mu_of : series F -> res (K F).      (* area.cc:71-91; any function of f *)

(** The same record in the two models. *)
Definition to_ser (g : fseries (K F)) : series F := mkS (fcells g) (fknown g) (fnonzero g).
Definition of_ser (g : series F) : fseries (K F) := mkF (cells g) (known g) (nonzero g).
(** area.cc:94-99 and 108-196 *)
Definition fbase : fseries (K F) := mkF [Some k0] 1 1.
Definition fstep (g : fseries (K F)) : res (fseries (K F) * fseries (K F) * K F) :=
  ' st <- bottcher_step F kern base check (to_ser g) ;; mu <- mu_of (snd st) ;; Ok (of_ser (fst st), of_ser (snd st), mu).
Lemma fbase_ok : bottcher_base F = Ok (to_ser fbase).
Proof. reflexivity. Qed.

Lemma read_cells_first n (c : list (option (K F))) : read_cells F n c = read_cells F n (firstn n c).
Proof.
  revert c. induction n as [|n IH]; intro c; [reflexivity|]. destruct c as [|[v|] c]; try reflexivity.
  cbn [firstn read_cells]. rewrite IH. reflexivity.
Qed.
Lemma copy_same x y lim : known x = known y -> nonzero x = nonzero y ->
  firstn (Z.to_nat (nonzero x)) (cells x) = firstn (Z.to_nat (nonzero y)) (cells y) -> copy F x lim = copy F y lim.
Proof.
  intros E1 E2 E3. unfold copy, assign. rewrite (read_cells_first _ (cells x)), (read_cells_first _ (cells y)), E3, E1, E2. reflexivity.
Qed.
Lemma fstep_same g g' : same (K F) g g' -> fstep g' = fstep g.
Proof.
  intros (E1 & E2 & E3). unfold fstep, bottcher_step. change (known (to_ser g')) with (fknown g'). change (known (to_ser g)) with (fknown g). rewrite <- E1.
  destruct (known_to_k (fknown g)) as [k| |]; try reflexivity. cbn [bind]. unfold bottcher_pass at 1 3.
  rewrite (copy_same (to_ser g) (to_ser g') _ E1 E2 E3). reflexivity.
Qed.

Definition binv (g : fseries (K F)) : Prop :=
  valid (to_ser g) /\ exists k, (k <= 28)%nat /\ fknown g = 2 ^ Z.of_nat k /\ den (to_ser g) O = k0 /\ eqn (2 ^ k) (escR (fexp (den (to_ser g))) k) f1.

Variable safe : K F -> res str.
Variable parse : str -> res (K F).
Hypothesis all_good : forall a, good (K F) safe parse a.

Lemma valid_wf x : valid x -> known x < 2 ^ 63 -> wf (K F) safe parse (of_ser x).
Proof.
  intros (V1 & V2 & V3 & V4) B. split; [split; [split; assumption|exact B]|].
  exists (map (fun i => den x i) (seq 0 (Z.to_nat (nonzero x)))). split.
  - split; [exact V1|]. split; [rewrite map_length, seq_length; reflexivity|]. cbn [of_ser fcells fnonzero].
    apply nth_ext_error. intro i. rewrite map_map, nth_error_map. destruct (Nat.ltb_spec i (Z.to_nat (nonzero x))) as [L|L].
    + rewrite nth_error_firstn by exact L. destruct (V4 i ltac:(lia)) as [v Ev]. rewrite Ev.
      assert (Es : nth_error (seq 0 (Z.to_nat (nonzero x))) i = Some i).
      { rewrite (nth_error_nth' _ 0%nat) by (rewrite seq_length; exact L). rewrite seq_nth by exact L. reflexivity. }
      rewrite Es. cbn [option_map]. unfold den. replace (Z.of_nat i <? nonzero x) with true by (symmetry; apply Z.ltb_lt; lia).
      rewrite (nth_error_nth _ _ None Ev). reflexivity.
    + replace (nth_error (seq 0 (Z.to_nat (nonzero x))) i) with (@None nat) by (symmetry; apply nth_error_None; rewrite seq_length; exact L).
      cbn [option_map]. apply nth_error_None. rewrite firstn_length. lia.
  - apply Forall_forall. intros a _. apply all_good.
Qed.
Lemma to_of x : to_ser (of_ser x) = x.
Proof. destruct x; reflexivity. Qed.
Lemma of_to x : of_ser (to_ser x) = x.
Proof. destruct x; reflexivity. Qed.
Lemma pow_small k : (k <= 28)%nat -> 2 ^ Z.of_nat k < 2 ^ 63.
Proof. intro H. apply Z.pow_lt_mono_r; lia. Qed.

Lemma fstep_ok g g' f mu : binv g -> wf (K F) safe parse g -> fknown g < 2 ^ 28 -> fstep g = Ok (g', f, mu) ->
  binv g' /\ wf (K F) safe parse g' /\ wf (K F) safe parse f /\ good (K F) safe parse mu /\ fknown g' = 2 * fknown g /\ fknown f = fknown g'.
Proof.
  intros (V & k & Hk & Kk & D0 & Eq) _ Bk. rewrite Kk in Bk.
  assert (Hk27 : (k <= 27)%nat) by (apply Z.pow_lt_mono_r_iff in Bk; lia).
  destruct (AreaProofs.step_ok F kern base HK HB check (to_ser g) k V Hk27 Kk D0 Eq) as (e & g1 & f1 & E & V1 & K1 & D1 & _ & Eq1 & Vf & Kf & _).
  unfold fstep. rewrite E. destruct (_ && _); cbn [bind]; [|discriminate]. cbn [fst snd].
  destruct (mu_of f1) as [m| |]; cbn [bind]; try discriminate. intro Q. injection Q as <- <- <-.
  assert (B : 2 ^ Z.of_nat (S k) < 2 ^ 63) by (apply pow_small; lia).
  split; [|split; [|split; [|split; [|split]]]].
  - split; [rewrite to_of; exact V1|]. exists (S k). split; [lia|]. split; [exact K1|]. rewrite to_of. split; [exact D1|exact Eq1].
  - apply valid_wf; [exact V1|rewrite K1; exact B].
  - apply valid_wf; [exact Vf|rewrite Kf; exact B].
  - apply all_good.
  - cbn [of_ser fknown]. rewrite K1, Kk, Nat2Z.inj_succ, Z.pow_succ_r by lia. reflexivity.
  - cbn [of_ser fknown]. congruence.
Qed.
Lemma fbase_valid : valid (to_ser fbase).
Proof.
  split; [cbn; lia|]. split; [cbn; lia|]. split; [cbn; lia|]. intros i Hi. cbn in Hi. exists k0. destruct i as [|i]; [reflexivity|lia].
Qed.
Lemma fbase_inv : binv fbase.
Proof.
  split; [exact fbase_valid|]. exists 0%nat. split; [lia|]. split; [reflexivity|]. split; [reflexivity|].
  intros i Hi. cbn [Nat.pow] in Hi. replace i with 0%nat by lia. cbn [escR]. apply fexp_coef0.
Qed.
Lemma fbase_wf : wf (K F) safe parse fbase.
Proof. rewrite <- (of_to fbase). apply valid_wf; [exact fbase_valid|reflexivity]. Qed.
End Bottcher.

(** * Rational numbers as text: numerator, slash, denominator *)
Definition q_sign (s : str) : Z * str := match s with c :: r => if Ascii.eqb c "-" then (-1, r) else (1, s) | [] => (1, []) end.
Fixpoint q_after (s : str) : str := match s with c :: r => if Ascii.eqb c "/" then r else q_after r | [] => [] end.
Definition q_safe (q : Qc) : res str := Ok (print_int (Qnum (this q)) ++ lit "/" ++ print_int (Zpos (Qden (this q)))).
Definition q_parse (s : str) : res Qc :=
  let (sg, r) := q_sign s in
  match digits_val 0 (q_after r) with
  | Zpos d => Ok (Q2Qc (sg * digits_val 0 r # d))
  | _ => Throw
  end.
Lemma after_digits l r : Forall (fun c => isdigit c = true) l -> q_after (l ++ "/"%char :: r) = r.
Proof.
  induction 1 as [|c l Hc F IH]; [reflexivity|]. cbn [app q_after]. destruct (Ascii.eqb_spec c "/") as [->|]; [discriminate|exact IH].
Qed.
Lemma q_good q : good Qc q_safe q_parse q.
Proof.
  exists (print_int (Qnum (this q)) ++ lit "/" ++ print_int (Zpos (Qden (this q)))). split; [reflexivity|].
  destruct q as [[n d] C]. cbn [this Qnum Qden].
  assert (HD : print_int (Zpos d) = print_nat (Zpos d)) by reflexivity. rewrite HD.
  assert (VD : digits_val 0 (print_nat (Zpos d)) = Zpos d).
  { rewrite <- (app_nil_r (print_nat (Zpos d))). rewrite print_nat_val by (lia || discriminate). lia. }
  assert (QN : forall m, 0 <= m -> digits_val 0 (print_nat m ++ lit "/" ++ print_nat (Zpos d)) = m).
  { intros m Hm. rewrite print_nat_val; [lia|exact Hm|]. intros c t E. injection E as <- _. reflexivity. }
  assert (QA : forall m, 0 <= m -> q_after (print_nat m ++ lit "/" ++ print_nat (Zpos d)) = print_nat (Zpos d)).
  { intros m Hm. apply after_digits. apply dec_digits, Hm. }
  assert (Fin : Q2Qc (n # d) = {| this := n # d; canon := C |}) by (apply Qc_is_canon; cbn [this Q2Qc]; rewrite Qred_correct; reflexivity).
  split.
  - split.
    + apply no_nl_app; [apply print_int_no_nl|]. apply no_nl_app; [apply no_nl_lit; reflexivity|]. rewrite <- HD. apply print_int_no_nl.
    + unfold print_int. destruct (Z.ltb_spec n 0) as [L|L].
      * exists "-"%char. eexists. split; [reflexivity|]. split; [reflexivity|discriminate].
      * destruct (print_nat_shape n L) as (c & t & E & D & _). rewrite E. exists c. eexists. split; [reflexivity|]. split; [apply digit_not_space, D|]. intros ->. discriminate.
  - unfold q_parse, print_int. destruct (Z.ltb_spec n 0) as [L|L].
    + cbn [app q_sign Ascii.eqb Bool.eqb]. rewrite QA, QN, VD by lia. replace (-1 * - n) with n by lia. rewrite Fin. reflexivity.
    + destruct (print_nat_shape n L) as (c & t & E & D & _). destruct (digit_not_sign c D) as [N1 _].
      assert (S1 : q_sign (print_nat n ++ lit "/" ++ print_nat (Zpos d)) = (1, print_nat n ++ lit "/" ++ print_nat (Zpos d))) by (rewrite E; cbn [app q_sign]; rewrite N1; reflexivity).
      rewrite S1, QA, QN, VD by lia. rewrite Z.mul_1_l, Fin. reflexivity.
Qed.
