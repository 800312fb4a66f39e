(** Stopping and resuming: area.cc:204-230 and mandelbrot.cc:27-39. *)
From Coq Require Import ZArith List Bool Ascii String Lia Arith.
From Verif Require Import Base LoopsModel AreaModel AreaProofs FilesModel FilesProofs.
Import ListNotations.
Open Scope Z_scope.

(** Two contents of a file that differ at most in the text of the time comment. *)
Definition same_but_time (a b : option str) : Prop :=
  exists pre t1 t2 post, no_nl t1 /\ no_nl t2 /\
    a = Some (pre ++ lit "# time = " ++ t1 ++ nl :: post) /\ b = Some (pre ++ lit "# time = " ++ t2 ++ nl :: post).

(** What may differ from one run to another: batch size, threads, schedules and clock. *)
Record env := mkE { e_size : Z; e_threads : Z -> nat; e_sched : Z -> list nat; e_time : str -> str }.

Section Resume.
Variable T : Type.
Variable safe : T -> res str.
Variable parse : str -> res T.
Variable is_one is_zero : T -> bool.
Variable base : fseries T.
Variable step : fseries T -> res (fseries T * fseries T * T).
Notation fser := (fseries T).

(** A scalar that printing and parsing bring back. *)
Definition good (a : T) : Prop := exists s, safe a = Ok s /\ numberish s /\ parse s = Ok a.
Definition wf (x : fser) : Prop := counts_ok T x /\ exists vals, content T x vals /\ Forall good vals.
Definition same (x y : fser) : Prop :=
  fknown x = fknown y /\ fnonzero x = fnonzero y /\ firstn (Z.to_nat (fnonzero x)) (fcells x) = firstn (Z.to_nat (fnonzero y)) (fcells y).
Definition env_ok (e : env) : Prop :=
  1 <= e_size e /\ (forall s, 1 <= Z.of_nat (e_threads e s) < 2 ^ 31) /\
  (forall (x : fser) start, 0 <= start < fnonzero x ->
     mr_joined (res str) (mr_run (res str) cat (term T safe x start) (Z.min (e_size e) (relu (fnonzero x - start))) (e_threads e start) (e_sched e start))) /\
  forall p, no_nl (e_time e p).

(** The loop and the program of mandelbrot.cc in an environment. *)
Definition steps_in (e : env) := steps T safe (e_threads e) (e_sched e) is_one is_zero step (e_size e) (e_time e).
Definition areas_in (e : env) := areas T safe parse (e_threads e) (e_sched e) is_one is_zero base step (e_size e) (e_time e).
Definition wb_in (e : env) := write_bottcher T safe (e_threads e) (e_sched e) is_one is_zero (e_size e) (e_time e).

Definition cmts (name mode : str) (k : Z) (m : str) : list str := [name; lit "mode = " ++ mode; lit "k = " ++ print_int k; lit "mu = " ++ m].
Definition text (cs : list str) (x : fser) (texts : list str) (time : str) : str := unlines (hlines T cs x time) ++ unlines texts.
Definition prints (x : fser) (texts : list str) : Prop :=
  exists vals, content T x vals /\ Forall2 (fun a s => safe a = Ok s) vals texts /\ Forall numberish texts /\ Forall2 (fun s a => parse s = Ok a) texts vals.

Lemma wf_prints x : wf x -> exists texts, prints x texts.
Proof.
  intros (_ & vals & C & G).
  assert (H : exists texts, Forall2 (fun a s => safe a = Ok s) vals texts /\ Forall numberish texts /\ Forall2 (fun s a => parse s = Ok a) texts vals).
  { clear C. induction G as [|a l (s & S1 & S2 & S3) G IH].
    - exists []. repeat split; constructor.
    - destruct IH as (ts & I1 & I2 & I3). exists (s :: ts). split; [|split]; constructor; assumption. }
  destruct H as (texts & H). exists texts, vals. split; [exact C|exact H].
Qed.
Lemma prints_length x texts : prints x texts -> List.length texts = Z.to_nat (fnonzero x).
Proof. intros (vals & (_ & L & _) & F & _). rewrite <- L. symmetry. exact (F2_length _ _ _ F). Qed.
Lemma write_text e cs x texts time : env_ok e -> prints x texts ->
  write_series T safe (e_threads e) (e_sched e) cs x time (e_size e) = Ok (text cs x texts time).
Proof.
  intros (E1 & E2 & E3 & _) (vals & C & F & _). unfold text, hlines. apply (write_ok T safe parse x vals texts C F); try assumption. intros s Hs. apply E3, Hs.
Qed.
Lemma cmts_ok name mode k m : (name = lit "g = log(f)" \/ name = lit "f = f(z) = 1/phi(1/z)") -> no_nl mode -> no_nl m -> Forall admissible (cmts name mode k m).
Proof.
  intros Hn Hm Hs. unfold cmts. repeat constructor; try (repeat split; reflexivity); try (intros a r E; injection E as <- _; reflexivity);
    try (apply no_nl_app; [apply no_nl_lit; reflexivity|]); try apply print_int_no_nl; try assumption.
  - destruct Hn as [-> | ->]; apply no_nl_lit; reflexivity.
  - destruct Hn as [-> | ->]; intros a r E; injection E as <- _; reflexivity.
  - destruct Hn as [-> | ->]; reflexivity.
  - destruct Hn as [-> | ->]; reflexivity.
  - destruct Hn as [-> | ->]; reflexivity.
Qed.

(** The checks of area.cc:209-211, after the one on the counts. *)
Definition chk (f g : fser) : res unit :=
  a <- fget T f 0 ;; _ <- slow_assert (is_one a) ;; b <- fget T g 0 ;; slow_assert (is_zero b).
Definition gname := lit "g = log(f)".
Definition fname := lit "f = f(z) = 1/phi(1/z)".
Definition wrote (e : env) (fs : fsys) (o mode : str) (k : Z) (m : str) (f g : fser) (tf tg : list str) : fsys :=
  fs_write (fs_write fs (file_name o "g" k) (text (cmts gname mode k m) g tg (e_time e (file_name o "g" k))))
    (file_name o "f" k) (text (cmts fname mode k m) f tf (e_time e (file_name o "f" k))).
Lemma wb_ok e fs o mode mu m f g tf tg k : env_ok e -> prints f tf -> prints g tg -> safe mu = Ok m ->
  0 <= k <= 62 -> fknown f = 2 ^ k -> fknown g = 2 ^ k -> wb_in e fs o mode mu f g = (_ <- chk f g ;; Ok (wrote e fs o mode k m f g tf tg)).
Proof.
  intros E Pf Pg Sm Hk Kf Kg. unfold wb_in, write_bottcher, chk. rewrite Kf, Kg. replace k with (Z.of_nat (Z.to_nat k)) by lia.
  rewrite known_to_k_pow by lia. cbn [bind]. rewrite Z.eqb_refl. cbn [slow_assert bind]. rewrite Z2Nat.id by lia.
  destruct (fget T f 0) as [a| |]; cbn [bind]; try reflexivity. destruct (is_one a); cbn [slow_assert bind]; try reflexivity.
  destruct (fget T g 0) as [b| |]; cbn [bind]; try reflexivity. destruct (is_zero b); cbn [slow_assert bind]; try reflexivity.
  unfold write_one. rewrite Sm. cbn [bind].
  fold (cmts (lit "g = log(f)") mode k m). fold (cmts (lit "f = f(z) = 1/phi(1/z)") mode k m).
  rewrite (write_text e _ g tg _ E Pg). cbn [bind]. rewrite (write_text e _ f tf _ E Pf). reflexivity.
Qed.

(** Distinct files. *)
Lemma file_name_inj o c k c' k' : -2 ^ 63 <= k < 2 ^ 63 -> -2 ^ 63 <= k' < 2 ^ 63 -> file_name o c k = file_name o c' k' -> c = c' /\ k = k'.
Proof.
  intros H1 H2 E. unfold file_name in E. apply app_inv_head in E. apply app_inv_head in E. cbn [app] in E. injection E as Ec E.
  split; [exact Ec|]. apply print_int_inj; try assumption.
Qed.
Lemma fs_same fs p s : fs_write fs p s p = Some s.
Proof. unfold fs_write. rewrite str_eqb_refl. reflexivity. Qed.
Lemma fs_other fs p s q : q <> p -> fs_write fs p s q = fs q.
Proof. intro H. unfold fs_write. rewrite str_eqb_neq by exact H. reflexivity. Qed.

(** A bound on the number of steps; what holds of every g before it is reached. *)
Variable kmax : Z.
Variable Inv : fser -> Prop.
Hypothesis step_ok : forall g g' f mu, Inv g -> wf g -> fknown g < 2 ^ kmax -> step g = Ok (g', f, mu) ->
  Inv g' /\ wf g' /\ wf f /\ good mu /\ fknown g' = 2 * fknown g /\ fknown f = fknown g'.
Hypothesis step_same : forall g g', wf g -> wf g' -> same g g' -> step g' = step g.

Fixpoint reach (n : nat) (g : fser) : res fser :=
  match n with O => Ok g | S n => ' (g1, _, _) <- step g ;; reach n g1 end.

Definition is_file (o : str) (j : Z) (n : nat) (p : str) : Prop :=
  exists c k, (c = "g"%char \/ c = "f"%char) /\ j < k <= j + Z.of_nat n /\ p = file_name o c k.

(** What is in file [p] after n steps: the text of the series of that step. *)
Lemma time_text cs x texts t1 t2 : no_nl t1 -> no_nl t2 -> same_but_time (Some (text cs x texts t1)) (Some (text cs x texts t2)).
Proof.
  intros N1 N2. exists (unlines (map (fun c => lit "# " ++ c) (cs ++ [known_c T x; nonzero_c T x]))), t1, t2, (unlines texts).
  assert (Q : forall t, text cs x texts t = unlines (map (fun c => lit "# " ++ c) (cs ++ [known_c T x; nonzero_c T x])) ++ lit "# time = " ++ t ++ nl :: unlines texts).
  { intro t. unfold text, hlines, header. fold (known_c T x). fold (nonzero_c T x).
    change [known_c T x; nonzero_c T x; lit "time = " ++ t] with ([known_c T x; nonzero_c T x] ++ [lit "time = " ++ t]).
    rewrite app_assoc, map_app, unlines_app, <- app_assoc. f_equal. unfold unlines. cbn [map List.concat]. rewrite app_nil_r, <- !app_assoc. reflexivity. }
  rewrite !Q. repeat (split; [assumption|]). split; reflexivity.
Qed.

Lemma steps_corr n : forall eA eC fsA fsC outA outC mode g gC j fsA', env_ok eA -> env_ok eC -> no_nl mode ->
  Inv g -> wf g -> wf gC -> same g gC -> 0 <= j -> fknown g = 2 ^ j -> j + Z.of_nat n <= kmax ->
  steps_in eA n fsA (Some outA) mode g = Ok fsA' ->
  exists fsC', steps_in eC n fsC (Some outC) mode gC = Ok fsC' /\
    (forall c k, (c = "g"%char \/ c = "f"%char) -> j < k <= j + Z.of_nat n -> same_but_time (fsA' (file_name outA c k)) (fsC' (file_name outC c k))) /\
    (forall p, ~ is_file outA j n p -> fsA' p = fsA p) /\ (forall p, ~ is_file outC j n p -> fsC' p = fsC p) /\
    exists gn, reach n g = Ok gn /\ Inv gn /\ wf gn /\ fknown gn = 2 ^ (j + Z.of_nat n) /\
      ((1 <= n)%nat -> exists mu m texts, safe mu = Ok m /\ numberish m /\ prints gn texts /\
         fsC' (file_name outC "g" (j + Z.of_nat n)) = Some (text (cmts gname mode (j + Z.of_nat n) m) gn texts (e_time eC (file_name outC "g" (j + Z.of_nat n))))).
Proof.
  induction n as [|n IH]; intros eA eC fsA fsC outA outC mode g gC j fsA' EA EC Hm HI Hg HgC Hs Hj Hk Hmax E.
  - injection E as <-. exists fsC. split; [reflexivity|]. split; [intros; lia|]. split; [reflexivity|]. split; [reflexivity|].
    exists g. rewrite Z.add_0_r. repeat (split; [assumption || reflexivity|]). lia.
  - unfold steps_in in E |- *. cbn [steps] in E |- *. rewrite (step_same g gC Hg HgC Hs).
    destruct (step g) as [[[g1 f1] mu]| |] eqn:Es; cbn [bind] in E |- *; try discriminate.
    destruct (step_ok _ _ _ _ HI Hg ltac:(rewrite Hk; apply Z.pow_lt_mono_r; lia) Es) as (HI1 & Hg1 & Hf1 & (m & Sm & Nm & _) & K1 & K2).
    assert (Hk1 : fknown g1 = 2 ^ (j + 1)) by (rewrite K1, Hk, Z.pow_add_r by lia; ring).
    assert (Hj62 : j + 1 <= 62).
    { destruct Hg1 as ((_ & B) & _). rewrite Hk1 in B. destruct (Z.leb_spec (j + 1) 62) as [L|L]; [exact L|].
      pose proof (Z.pow_le_mono_r 2 63 (j + 1) ltac:(lia) ltac:(lia)). lia. }
    destruct (wf_prints _ Hf1) as (tf & Pf). destruct (wf_prints _ Hg1) as (tg & Pg).
    pose proof (fun e fs o => wb_ok e fs o mode mu m f1 g1 tf tg (j + 1)) as W.
    assert (WA := W eA fsA outA EA Pf Pg Sm ltac:(lia) ltac:(congruence) Hk1). assert (WC := W eC fsC outC EC Pf Pg Sm ltac:(lia) ltac:(congruence) Hk1). clear W.
    unfold wb_in in WA, WC. rewrite WA in E. rewrite WC. clear WA WC.
    destruct (chk f1 g1) as [[]| |]; cbn [bind] in E |- *; try discriminate.
    assert (S1 : same g1 g1) by (repeat split; reflexivity).
    destruct (IH eA eC _ (wrote eC fsC outC mode (j + 1) m f1 g1 tf tg) outA outC mode g1 g1 (j + 1) fsA' EA EC Hm HI1 Hg1 Hg1 S1 ltac:(lia) Hk1 ltac:(lia) E)
      as (fsC' & R & Files & FrA & FrC & gn & Rn & In & Wn & Kn & Last).
    exists fsC'. split; [exact R|].
    assert (Out : forall o c, ~ is_file o (j + 1) n (file_name o c (j + 1)) \/ (62 < j + 1 + Z.of_nat n)).
    { intros o c. destruct (Z.ltb_spec 62 (j + 1 + Z.of_nat n)) as [L|L]; [right; lia|left]. intros (c' & k' & _ & Hk' & Q).
      apply file_name_inj in Q; try lia. }
    assert (Hn62 : j + 1 + Z.of_nat n <= 62).
    { destruct Wn as ((_ & B) & _). rewrite Kn in B. destruct (Z.leb_spec (j + 1 + Z.of_nat n) 62) as [L|L]; [exact L|].
      pose proof (Z.pow_le_mono_r 2 63 (j + 1 + Z.of_nat n) ltac:(lia) ltac:(lia)). lia. }
    assert (Out' : forall o c, ~ is_file o (j + 1) n (file_name o c (j + 1))) by (intros o c; destruct (Out o c); [assumption|lia]). clear Out.
    assert (GF : forall o, file_name o "g" (j + 1) <> file_name o "f" (j + 1)).
    { intros o Q. apply file_name_inj in Q; [|lia|lia]. destruct Q. discriminate. }
    assert (Sub : forall o p, is_file o (j + 1) n p -> is_file o j (S n) p).
    { intros o p (c & k & Hc & Hk' & Q). exists c, k. split; [exact Hc|]. split; [lia|exact Q]. }
    assert (Here : forall o c, (c = "g"%char \/ c = "f"%char) -> is_file o j (S n) (file_name o c (j + 1))).
    { intros o c Hc. exists c, (j + 1). split; [exact Hc|]. split; [lia|reflexivity]. }
    split; [|split; [|split]].
    + intros c k Hc Hk'. destruct (Z.eqb_spec k (j + 1)) as [->|Nk].
      * rewrite FrA by apply Out'. rewrite FrC by apply Out'. unfold wrote. destruct Hc as [-> | ->].
        -- rewrite (fs_other _ (file_name outA "f" (j + 1))) by apply GF. rewrite (fs_other _ (file_name outC "f" (j + 1))) by apply GF. rewrite !fs_same. apply time_text; [apply EA|apply EC].
        -- rewrite !fs_same. apply time_text; [apply EA|apply EC].
      * apply Files; [exact Hc|lia].
    + intros p Hp. rewrite FrA by (intro Q; apply Hp, Sub, Q). unfold wrote. rewrite !fs_other; [reflexivity| |];
        intros ->; apply Hp, Here; auto.
    + intros p Hp. rewrite FrC by (intro Q; apply Hp, Sub, Q). unfold wrote. rewrite !fs_other; [reflexivity| |];
        intros ->; apply Hp, Here; auto.
    + exists gn. replace (j + Z.of_nat (S n)) with (j + 1 + Z.of_nat n) by lia. cbn [reach]. rewrite Es. cbn [bind]. split; [exact Rn|].
      split; [exact In|]. split; [exact Wn|]. split; [exact Kn|]. intros _. destruct n as [|n'].
      * cbn [reach] in Rn. injection Rn as <-. exists mu, m, tg. split; [exact Sm|]. split; [exact Nm|]. split; [exact Pg|].
        rewrite Z.add_0_r. rewrite FrC by (intros (c & k & _ & L & _); lia). unfold wrote. rewrite fs_other by apply GF. apply fs_same.
      * apply Last. lia.
Qed.

Lemma steps_split e a : forall b fs o mode g fs', steps_in e (a + b) fs o mode g = Ok fs' ->
  exists fs1 g1, steps_in e a fs o mode g = Ok fs1 /\ reach a g = Ok g1 /\ steps_in e b fs1 o mode g1 = Ok fs'.
Proof.
  induction a as [|a IH]; intros b fs o mode g fs' E.
  - exists fs, g. repeat split; assumption.
  - unfold steps_in in E |- *. cbn [Nat.add steps reach] in E |- *. destruct (step g) as [[[g1 f1] mu]| |]; cbn [bind] in E |- *; try discriminate.
    match type of E with context[match o with Some o0 => @?A o0 | None => ?B end] => destruct (match o with Some o0 => A o0 | None => B end) as [fs2| |] eqn:Q end; cbn [bind] in E |- *; try discriminate.
    destruct (IH _ _ _ _ _ _ E) as (fs1 & gg & H1 & H2 & H3). exists fs1, gg. split; [|split; assumption].
    exact H1.
Qed.

(** Reading the file of a g back. *)
Lemma read_back mode k m g texts time : wf g -> no_nl mode -> no_nl m -> no_nl time -> prints g texts ->
  exists g', read_bottcher T parse (fun _ => Some (text (cmts gname mode k m) g texts time)) [] = Ok g' /\ same g g' /\ wf g'.
Proof.
  intros (C & vals0 & Cv0 & Gv0) Hm Hs Ht P. pose proof (prints_length _ _ P) as L. destruct P as (vals & Cv & Fs & Fn & Fp).
  assert (EV : vals = vals0).
  { destruct Cv as (_ & _ & E1), Cv0 as (_ & _ & E2). rewrite E1 in E2. clear -E2. revert vals0 E2. induction vals as [|a l IH]; intros [|b l2] E; try discriminate; [reflexivity|].
    cbn [map] in E. injection E as -> E. f_equal. apply IH, E. }
  subst vals0. exists (mkF (map Some vals) (fknown g) (fnonzero g)). unfold read_bottcher, fs_read, text.
  rewrite (read_ok T safe parse (cmts gname mode k m) g time texts vals C (cmts_ok gname mode k m (or_introl eq_refl) Hm Hs) Ht Fn Fp L).
  cbn [bind header cmts app]. rewrite str_eqb_refl. cbn [slow_assert bind]. split; [reflexivity|].
  destruct Cv as (C0 & Lv & Ev). split.
  - split; [reflexivity|]. split; [reflexivity|]. cbn [fnonzero fcells]. rewrite Ev. rewrite firstn_all2; [reflexivity|]. rewrite map_length. lia.
  - split; [exact C|]. exists vals. split; [|exact Gv0]. split; [exact C0|]. split; [exact Lv|]. cbn [fnonzero fcells]. apply firstn_all2. rewrite map_length. lia.
Qed.

Hypothesis base_inv : Inv base.
Hypothesis base_wf : wf base.
Hypothesis base_known : fknown base = 1.

Lemma resume eA eB eC fsA fsB outA outB outC mode k0 K fsA' : env_ok eA -> env_ok eB -> env_ok eC -> no_nl mode -> 1 <= k0 <= K -> K <= kmax ->
  areas_in eA fsA None (Some outA) mode K = Ok fsA' ->
  exists fsB' fsC', areas_in eB fsB None (Some outB) mode k0 = Ok fsB' /\
    areas_in eC fsB' (Some (file_name outB "g" k0)) (Some outC) mode K = Ok fsC' /\
    (forall c k, (c = "g"%char \/ c = "f"%char) -> 0 < k <= k0 -> same_but_time (fsA' (file_name outA c k)) (fsB' (file_name outB c k))) /\
    (forall c k, (c = "g"%char \/ c = "f"%char) -> k0 < k <= K -> same_but_time (fsA' (file_name outA c k)) (fsC' (file_name outC c k))) /\
    (forall p, (forall c k, (c = "g"%char \/ c = "f"%char) -> k0 < k <= K -> p <> file_name outC c k) -> fsC' p = fsB' p).
Proof.
  intros EA EB EC Hm Hk Hmax E. unfold areas_in, areas in E |- *. cbn [bind] in E |- *. rewrite base_known in E |- *.
  change (known_to_k 1) with (Ok 0) in E |- *. cbn [bind] in E |- *. rewrite Z.sub_0_r in E |- *.
  change (steps_in eA (Z.to_nat K) fsA (Some outA) mode base = Ok fsA') in E.
  assert (S0 : same base base) by (repeat split; reflexivity).
  replace (Z.to_nat K) with (Z.to_nat k0 + Z.to_nat (K - k0))%nat in E by lia.
  destruct (steps_split _ _ _ _ _ _ _ _ E) as (fs1 & g1 & E1 & R1 & E2).
  destruct (steps_corr (Z.to_nat k0) eA eB fsA fsB outA outB mode base base 0 fs1 EA EB Hm base_inv base_wf base_wf S0 ltac:(lia) base_known ltac:(lia) E1)
    as (fsB' & B1 & BF & BA & _ & gn & Rn & In & Wn & Kn & Last).
  rewrite R1 in Rn. injection Rn as <-. rewrite Z.add_0_l in *. rewrite Z2Nat.id in * by lia.
  destruct (Last ltac:(lia)) as (mu & m & texts & Sm & (Nm & _) & P & Q).
  destruct (read_back mode k0 m g1 texts (e_time eB (file_name outB "g" k0)) Wn Hm Nm ltac:(apply EB) P) as (gC & RB & SC & WC).
  destruct (steps_corr (Z.to_nat (K - k0)) eA eC fs1 fsB' outA outC mode g1 gC k0 fsA' EA EC Hm In Wn WC SC ltac:(lia) Kn ltac:(lia) E2)
    as (fsC' & C1 & CF & CA & CC & gK & _ & _ & WK & KK & _).
  rewrite Z2Nat.id in CF, KK by lia. replace (k0 + (K - k0)) with K in CF, KK by lia.
  assert (K62 : K <= 62).
  { destruct WK as ((_ & B) & _). rewrite KK in B. destruct (Z.leb_spec K 62) as [L|L]; [exact L|].
    pose proof (Z.pow_le_mono_r 2 63 K ltac:(lia) ltac:(lia)). lia. }
  exists fsB', fsC'. split; [exact B1|]. split.
  { assert (RB' : read_bottcher T parse fsB' (file_name outB "g" k0) = Ok gC).
    { rewrite <- RB. unfold read_bottcher, fs_read. rewrite Q. reflexivity. }
    rewrite RB'. cbn [bind]. destruct SC as (SK & _). rewrite <- SK, Kn.
    replace k0 with (Z.of_nat (Z.to_nat k0)) at 1 by lia. rewrite known_to_k_pow by lia. cbn [bind]. rewrite Z2Nat.id by lia. exact C1. }
  split; [|split].
  - intros c k Hc Hk'. assert (NF : ~ is_file outA k0 (Z.to_nat (K - k0)) (file_name outA c k)).
    { intros (c' & k' & _ & L & QQ). apply file_name_inj in QQ; lia. }
    rewrite (CA _ NF). apply BF; [exact Hc|lia].
  - exact CF.
  - intros p Hp. apply CC. intros (c & k & Hc & L & ->). apply (Hp c k Hc); [lia|reflexivity].
Qed.
End Resume.
