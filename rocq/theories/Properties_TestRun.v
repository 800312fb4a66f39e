(** C83: what the exit status of the test programs says. *)
From Coq Require Import ZArith List String Ascii Bool Lia.
From Verif Require Import Base TestRunModel.
Import ListNotations.
Open Scope string_scope.

(** ** What is to be run *)
(** Without names all tests, else the named ones. *)
Definition selected (chosen : list string) (name : string) : Prop := chosen = [] \/ In name chosen.
(** The selected ones, in order of registration: [picks chosen ts sel]. *)
Inductive picks {W} (chosen : list string) : list (string * test W) -> list (string * test W) -> Prop :=
  | picks_nil : picks chosen [] []
  | picks_yes : forall n t ts sel, selected chosen n -> picks chosen ts sel -> picks chosen ((n, t) :: ts) ((n, t) :: sel)
  | picks_no : forall n t ts sel, ~ selected chosen n -> picks chosen ts sel -> picks chosen ((n, t) :: ts) sel.
(** Running tests one after another, each in the state that the one before it left, none of them leaving the process. *)
Inductive executes {W} : list (string * test W) -> W -> list (string * verdict) -> W -> Prop :=
  | ex_nil : forall w, executes [] w [] w
  | ex_cons : forall n t ts w w' said v vs w'', t w = (w', said, v) ->
      (v = Returns \/ v = TestError \/ exists a b, v = Exception a b) ->
      executes ts w' vs w'' -> executes ((n, t) :: ts) w ((n, v) :: vs) w''.
Definition good (x : string * verdict) : bool := match snd x with Returns => true | _ => false end.
(** The names in lines of one kind, in order. *)
Definition runs (l : list line) : list string := flat_map (fun x => match x with Run n => [n] | _ => [] end) l.
Definition goods (l : list line) : list string := flat_map (fun x => match x with Good n => [n] | _ => [] end) l.
Definition bads (l : list line) : list string := flat_map (fun x => match x with Bad n => [n] | _ => [] end) l.
Definition skips (l : list line) : list string := flat_map (fun x => match x with Skip n => [n] | _ => [] end) l.
Definition listed (l : list line) : list string := flat_map (fun x => match x with FailedName n => [n] | _ => [] end) l.
Definition passed_counts (l : list line) : list nat := flat_map (fun x => match x with Passed n => [n] | _ => [] end) l.
Definition failed_counts (l : list line) : list nat := flat_map (fun x => match x with Failed n => [n] | _ => [] end) l.

Lemma skip_spec chosen n : skip chosen n = false <-> selected chosen n.
Proof.
  unfold skip, selected. destruct chosen as [|c l]; [split; auto|]. rewrite negb_false_iff. split.
  - intro H. right. apply existsb_exists in H. destruct H as (x & I & E). apply String.eqb_eq in E. now subst.
  - intros [H|H]; [discriminate|]. apply existsb_exists. exists n. split; [exact H|apply String.eqb_refl].
Qed.
Lemma skip_spec_no chosen n : skip chosen n = true <-> ~ selected chosen n.
Proof. rewrite <- skip_spec. destruct (skip chosen n); split; congruence. Qed.

Lemma said_none {A} (f : line -> list A) (H : forall s, f (Said s) = []) : forall said, flat_map f (map Said said) = [].
Proof. induction said as [|s l IH]; [reflexivity|]. cbn. rewrite H. exact IH. Qed.
Ltac no_said := rewrite (said_none _ (fun s => eq_refl)).

(** The loop, over any reading of the lines that sees neither the lines of tests nor those of the summary. *)
Lemma loop_spec {W} chosen : forall (ts sel : list (string * test W)) w vs w', picks chosen ts sel -> executes sel w vs w' ->
  forall passed failed out, exists more,
  loop W chosen ts w passed failed out = (w', (passed + List.length (filter good vs))%nat,
    (failed ++ map fst (filter (fun x => negb (good x)) vs))%list, (out ++ more)%list, None) /\
  runs more = map fst vs /\ goods more = map fst (filter good vs) /\ bads more = map fst (filter (fun x => negb (good x)) vs) /\
  skips more = [] /\ listed more = [] /\ passed_counts more = [] /\ failed_counts more = [].
Proof.
  intros ts sel w vs w' P. revert w vs w'. induction P as [|n t ts sel Hs P IH|n t ts sel Hs P IH]; intros w vs w' E passed failed out.
  - inversion E; subst. exists []. cbn. rewrite !app_nil_r, Nat.add_0_r. repeat split.
  - inversion E as [|? ? ? ? w1 said v vs' ? Et Hv E']; subst. cbn [loop]. rewrite (proj2 (skip_spec chosen n) Hs), Et. cbn [app].
    set (pre := Run n :: map Said said).
    assert (A : forall tail, (runs (pre ++ tail) = n :: runs tail /\ goods (pre ++ tail) = goods tail /\ bads (pre ++ tail) = bads tail /\
      skips (pre ++ tail) = skips tail /\ listed (pre ++ tail) = listed tail /\ passed_counts (pre ++ tail) = passed_counts tail /\
      failed_counts (pre ++ tail) = failed_counts tail)%list).
    { intro tail. unfold pre, runs, goods, bads, skips, listed, passed_counts, failed_counts. rewrite !flat_map_app. cbn [flat_map app]. repeat no_said. repeat split. }
    destruct Hv as [->|[->|(a & b & ->)]].
    + destruct (IH w1 vs' w' E' (S passed) failed ((out ++ pre) ++ [Good n])%list) as (more & Q & R1 & R2 & R3 & R4 & R5 & R6 & R7).
      exists (pre ++ Good n :: more)%list. destruct (A (Good n :: more)) as (A1 & A2 & A3 & A4 & A5 & A6 & A7).
      rewrite A1, A2, A3, A4, A5, A6, A7.
      split; [|exact (conj (f_equal (cons n) R1) (conj (f_equal (cons n) R2) (conj R3 (conj R4 (conj R5 (conj R6 R7))))))].
      rewrite Q. rewrite <- !app_assoc. cbn [filter good snd List.length map app negb]. replace (passed + S (List.length (filter good vs')))%nat with (S passed + List.length (filter good vs'))%nat by lia. reflexivity.
    + destruct (IH w1 vs' w' E' passed (failed ++ [n])%list ((out ++ pre) ++ [Bad n])%list) as (more & Q & R1 & R2 & R3 & R4 & R5 & R6 & R7).
      exists (pre ++ Bad n :: more)%list. destruct (A (Bad n :: more)) as (A1 & A2 & A3 & A4 & A5 & A6 & A7).
      rewrite A1, A2, A3, A4, A5, A6, A7.
      split; [|exact (conj (f_equal (cons n) R1) (conj R2 (conj (f_equal (cons n) R3) (conj R4 (conj R5 (conj R6 R7))))))].
      rewrite Q. rewrite <- !app_assoc. reflexivity.
    + destruct (IH w1 vs' w' E' passed (failed ++ [n])%list ((out ++ pre) ++ [Caught a b; Bad n])%list) as (more & Q & R1 & R2 & R3 & R4 & R5 & R6 & R7).
      exists (pre ++ Caught a b :: Bad n :: more)%list. destruct (A (Caught a b :: Bad n :: more)) as (A1 & A2 & A3 & A4 & A5 & A6 & A7).
      rewrite A1, A2, A3, A4, A5, A6, A7.
      split; [|exact (conj (f_equal (cons n) R1) (conj R2 (conj (f_equal (cons n) R3) (conj R4 (conj R5 (conj R6 R7))))))].
      rewrite Q. rewrite <- !app_assoc. reflexivity.
  - cbn [loop]. rewrite (proj2 (skip_spec_no chosen n) Hs). now apply IH.
Qed.

Lemma skipped_spec {W} chosen : forall (ts sel : list (string * test W)), picks chosen ts sel ->
  forall n, In n (skips (skipped W chosen ts)) <-> In n (map fst ts) /\ ~ selected chosen n.
Proof.
  intros ts sel _ n. unfold skipped, skips. rewrite in_flat_map. split.
  - intros (x & I & H). apply in_map_iff in I. destruct I as ((m & t) & <- & I). apply filter_In in I. destruct I as (I & F).
    cbn in H. destruct H as [<-|[]]. split; [exact (in_map fst _ _ I)|]. now apply skip_spec_no.
  - intros (I & N). apply in_map_iff in I. destruct I as ((m & t) & E & I). cbn in E. subst m. exists (Skip n). split; [|now left].
    apply in_map_iff. exists (n, t). split; [reflexivity|]. apply filter_In. split; [exact I|]. now apply skip_spec_no.
Qed.
Lemma skipped_only {W} {A} (f : line -> list A) chosen (ts : list (string * test W)) : (forall n, f (Skip n) = []) -> flat_map f (skipped W chosen ts) = [].
Proof. intro H. unfold skipped. induction (filter _ ts) as [|t l IH]; [reflexivity|]. cbn. now rewrite H. Qed.
Lemma names_only {A} (f : line -> list A) : (forall n, f (FailedName n) = []) -> forall l, flat_map f (map FailedName l) = [].
Proof. intros H l. induction l as [|t l IH]; [reflexivity|]. cbn. now rewrite H. Qed.
Lemma listed_names : forall l, listed (map FailedName l) = l.
Proof. unfold listed. induction l as [|t l IH]; [reflexivity|]. cbn. now rewrite IH. Qed.
Lemma no_bad vs : filter (fun x => negb (good x)) vs = [] <-> forall n v, In (n, v) vs -> v = Returns.
Proof.
  induction vs as [|[n v] vs IH]; cbn; [split; [intros _ n v []|reflexivity]|].
  unfold good at 1. cbn. destruct v; cbn; (split; [|intro H]); try discriminate.
  all: try (pose proof (H n _ (or_introl eq_refl)); discriminate).
  - intros H m x [I|I]; [congruence|]. exact (proj1 IH H m x I).
  - apply IH. intros m x I. apply (H m x). now right.
Qed.

(** The status is 0 exactly if every selected test returned, else 1.  Each of them was run once, in order, in
    the state left by the one before, whether or not earlier ones failed, and the summary tells which failed. *)
Theorem C83_status : forall W (ts sel : list (string * test W)) prog chosen w vs w',
  picks chosen ts sel -> executes sel w vs w' ->
  exists out c, run_tests W ts (prog :: chosen) w = (w', out, Status c) /\
  (c = 0%Z <-> forall n v, In (n, v) vs -> v = Returns) /\ (c = 0%Z \/ c = 1%Z) /\
  runs out = map fst sel /\ goods out = map fst (filter good vs) /\ bads out = map fst (filter (fun x => negb (good x)) vs) /\
  listed out = bads out /\ passed_counts out = [List.length (goods out)] /\
  failed_counts out = match bads out with [] => [] | l => [List.length l] end /\
  (forall n, In n (skips out) <-> In n (map fst ts) /\ ~ selected chosen n).
Proof.
  intros W ts sel prog chosen w vs w' P E. unfold run_tests.
  destruct (loop_spec chosen ts sel w vs w' P E 0 [] ([Header prog (List.length ts)] ++ skipped W chosen ts)%list) as (more & Q & R1 & R2 & R3 & R4 & R5 & R6 & R7).
  rewrite Q. set (bad := map fst (filter (fun x => negb (good x)) vs)) in *. cbn [app]. set (m := List.length (filter good vs)).
  assert (Rs : map fst vs = map fst sel) by (clear - E; induction E as [|n t ts w w' said v vs w'' H1 H2 H3 IH]; cbn; congruence).
  assert (Lm : List.length (map fst (filter good vs)) = m) by apply map_length.
  assert (B0 : bad = [] <-> forall n v, In (n, v) vs -> v = Returns).
  { rewrite <- no_bad. unfold bad. destruct (filter _ vs); cbn; split; congruence. }
  eexists. exists (match bad with [] => 0 | _ => 1 end)%Z. split; [reflexivity|].
  split; [rewrite <- B0; destruct bad; split; congruence|]. split; [destruct bad; auto|].
  set (tail := match bad with [] => [] | _ :: _ => Failed (List.length bad) :: map FailedName bad end).
  assert (T1 : runs tail = []) by (unfold tail; destruct bad; [reflexivity|]; cbn; unfold runs; now rewrite names_only).
  assert (T2 : goods tail = []) by (unfold tail; destruct bad; [reflexivity|]; cbn; unfold goods; now rewrite names_only).
  assert (T3 : bads tail = []) by (unfold tail; destruct bad; [reflexivity|]; cbn; unfold bads; now rewrite names_only).
  assert (T4 : skips tail = []) by (unfold tail; destruct bad; [reflexivity|]; cbn; unfold skips; now rewrite names_only).
  assert (T5 : listed tail = bad) by (unfold tail; destruct bad; [reflexivity|]; apply (listed_names (_ :: _))).
  assert (T6 : passed_counts tail = []) by (unfold tail; destruct bad; [reflexivity|]; cbn; unfold passed_counts; now rewrite names_only).
  assert (T7 : failed_counts tail = match bad with [] => [] | l => [List.length l] end) by (unfold tail; destruct bad; [reflexivity|]; cbn; unfold failed_counts; now rewrite names_only).
  clearbody tail.
  assert (X : forall A (f : line -> list A), (forall n, f (Header prog n) = []) -> (forall n, f (Skip n) = []) -> (forall n, f (Ran n) = []) ->
    (flat_map f ((Header prog (List.length ts) :: skipped W chosen ts ++ more) ++ Ran (List.length ts) :: Passed m :: tail) = flat_map f more ++ f (Passed m) ++ flat_map f tail)%list).
  { intros A f H1 H2 H3. rewrite flat_map_app. cbn [flat_map]. rewrite flat_map_app, H1, H3, (skipped_only f chosen ts H2). reflexivity. }
  replace (0 + m)%nat with m by reflexivity.
  assert (Y1 := X _ (fun x => match x with Run n => [n] | _ => [] end) (fun _ => eq_refl) (fun _ => eq_refl) (fun _ => eq_refl)).
  assert (Y2 := X _ (fun x => match x with Good n => [n] | _ => [] end) (fun _ => eq_refl) (fun _ => eq_refl) (fun _ => eq_refl)).
  assert (Y3 := X _ (fun x => match x with Bad n => [n] | _ => [] end) (fun _ => eq_refl) (fun _ => eq_refl) (fun _ => eq_refl)).
  assert (Y5 := X _ (fun x => match x with FailedName n => [n] | _ => [] end) (fun _ => eq_refl) (fun _ => eq_refl) (fun _ => eq_refl)).
  assert (Y6 := X _ (fun x => match x with Passed n => [n] | _ => [] end) (fun _ => eq_refl) (fun _ => eq_refl) (fun _ => eq_refl)).
  assert (Y7 := X _ (fun x => match x with Failed n => [n] | _ => [] end) (fun _ => eq_refl) (fun _ => eq_refl) (fun _ => eq_refl)).
  fold runs in *. change (flat_map (fun x => match x with Run n => [n] | _ => [] end)) with runs in Y1.
  change (flat_map (fun x => match x with Good n => [n] | _ => [] end)) with goods in Y2.
  change (flat_map (fun x => match x with Bad n => [n] | _ => [] end)) with bads in Y3.
  change (flat_map (fun x => match x with FailedName n => [n] | _ => [] end)) with listed in Y5.
  change (flat_map (fun x => match x with Passed n => [n] | _ => [] end)) with passed_counts in Y6.
  change (flat_map (fun x => match x with Failed n => [n] | _ => [] end)) with failed_counts in Y7.
  cbn [app] in *. rewrite Y1, Y2, Y3, Y5, Y6, Y7. cbn beta iota. rewrite T1, T2, T3, T5, T6, T7, R1, R2, R3, R5, R6, R7. cbn [app]. rewrite !app_nil_r. rewrite Lm, Rs.
  repeat (split; [reflexivity|]). split; [destruct bad; reflexivity|].
  intro n. rewrite <- (skipped_spec chosen ts sel P n).
  unfold skips at 1. cbn [flat_map app]. rewrite !flat_map_app. cbn [flat_map app].
  change (flat_map (fun x => match x with Skip n => [n] | _ => [] end)) with skips. rewrite R4, T4, !app_nil_r. reflexivity.
Qed.
Print Assumptions C83_status.

(** Every list of tests that do not leave the process has such a run. *)
Theorem C83_total : forall W (ts : list (string * test W)) chosen w,
  (forall n t w, In (n, t) ts -> snd (t w) <> Foreign /\ forall c, snd (t w) <> Exits c) ->
  exists sel vs w', picks chosen ts sel /\ executes sel w vs w'.
Proof.
  intros W ts chosen. induction ts as [|[n t] ts IH]; intros w H.
  - exists [], [], w. split; constructor.
  - destruct (skip chosen n) eqn:K.
    + destruct (IH w) as (sel & vs & w' & P & E); [intros m x v I; apply (H m x v); now right|].
      exists sel, vs, w'. split; [constructor; [now apply skip_spec_no|exact P]|exact E].
    + destruct (t w) as [[w1 said] v] eqn:Et. destruct (IH w1) as (sel & vs & w' & P & E); [intros m x u I; apply (H m x u); now right|].
      exists ((n, t) :: sel), ((n, v) :: vs), w'. split; [constructor; [now apply skip_spec|exact P]|].
      apply (ex_cons n t sel w w1 said v vs w' Et); [|exact E].
      destruct (H n t w (or_introl eq_refl)) as (H1 & H2). rewrite Et in H1, H2. cbn in H1, H2.
      destruct v; eauto 6; [now elim H1|now elim (H2 code)].
Qed.
Print Assumptions C83_total.

(** A test that leaves the process decides the status alone, and no test after it is run. *)
Theorem C83_leaves : forall W (before after : list (string * test W)) n t prog w vs w1 w2 said v,
  executes before w vs w1 -> t w1 = (w2, said, v) -> v = Foreign \/ (exists c, v = Exits c) ->
  exists out, run_tests W (before ++ (n, t) :: after) [prog] w = (w2, out, match v with Exits c => Left c | _ => Terminated end) /\
  runs out = (map fst before ++ [n])%list.
Proof.
  intros W before after n t prog w vs w1 w2 said v E Et Hv. unfold run_tests.
  set (ts := (before ++ (n, t) :: after)%list).
  assert (S0 : skipped W [] ts = []) by (unfold skipped; induction ts as [|x l IH]; [reflexivity|exact IH]). rewrite S0. cbn [app].
  assert (G : forall passed failed out, exists more passed' failed',
    loop W [] ts w passed failed out = (w2, passed', failed', (out ++ more)%list, Some match v with Exits c => Left c | _ => Terminated end) /\
    runs more = (map fst before ++ [n])%list).
  { unfold ts. clear S0 ts. induction E as [w|m s ts w w' x u vs w'' H1 H2 H3 IH]; intros passed failed out.
    - cbn [app loop skip]. rewrite Et. exists (Run n :: map Said said), passed, failed. split.
      + destruct Hv as [->|(c & ->)]; reflexivity.
      + unfold runs. cbn. f_equal. apply said_none. reflexivity.
    - cbn [app loop skip]. rewrite H1. specialize (IH Et).
      destruct H2 as [->|[->|(a & b & ->)]].
      + edestruct IH as (more & p' & f' & Q & R). rewrite Q. exists (Run m :: map Said x ++ Good m :: more)%list, p', f'. split.
        * rewrite <- !app_assoc. cbn. reflexivity.
        * unfold runs in *. cbn. rewrite flat_map_app, said_none by reflexivity. cbn. now rewrite R.
      + edestruct IH as (more & p' & f' & Q & R). rewrite Q. exists (Run m :: map Said x ++ Bad m :: more)%list, p', f'. split.
        * rewrite <- !app_assoc. cbn. reflexivity.
        * unfold runs in *. cbn. rewrite flat_map_app, said_none by reflexivity. cbn. now rewrite R.
      + edestruct IH as (more & p' & f' & Q & R). rewrite Q. exists (Run m :: map Said x ++ Caught a b :: Bad m :: more)%list, p', f'. split.
        * rewrite <- !app_assoc. cbn. reflexivity.
        * unfold runs in *. cbn. rewrite flat_map_app, said_none by reflexivity. cbn. now rewrite R. }
  destruct (G 0%nat [] [Header prog (List.length ts)]) as (more & p' & f' & Q & R). rewrite Q. eexists. split; [reflexivity|]. exact R.
Qed.
Print Assumptions C83_leaves.

(** Status 0 does not mean that a test was run: names that no test has are not reported. *)
Theorem C83_unknown_refuted : forall W (ts : list (string * test W)) prog chosen w, chosen <> [] ->
  (forall n, In n (map fst ts) -> ~ In n chosen) ->
  exists out, run_tests W ts (prog :: chosen) w = (w, out, Status 0) /\ runs out = [] /\ In (Ran (List.length ts)) out.
Proof.
  intros W ts prog chosen w N H.
  assert (P : picks chosen ts []).
  { clear - N H. induction ts as [|[n t] ts IH]; [constructor|]. apply picks_no.
    - intros [E|I]; [contradiction|]. apply (H n); [now left|exact I].
    - apply IH. intros m I. apply H. now right. }
  destruct (C83_status W ts [] prog chosen w [] w P (ex_nil w)) as (out & c & E & Hc & _ & R & _).
  assert (c = 0%Z) as -> by (apply Hc; intros ? ? []). exists out. split; [exact E|]. split; [exact R|].
  revert E. unfold run_tests.
  destruct (loop_spec chosen ts [] w [] w P (ex_nil w) 0 [] ([Header prog (List.length ts)] ++ skipped W chosen ts)%list) as (more & Q & _).
  rewrite Q. cbn [app filter map]. intro E. injection E as <-. right. apply in_or_app. right. now left.
Qed.
Print Assumptions C83_unknown_refuted.

(** ASSERT_THROW(x, se) goes on exactly if x threw a std::exception whose type name contains the text se. *)
Lemma prefix_spec : forall t s, String.prefix t s = true <-> exists b, s = t ++ b.
Proof.
  induction t as [|c t IH]; intro s; [split; [intros _; now exists s|intros _; now destruct s]|].
  destruct s as [|d s]; [split; [discriminate|intros (b & E); discriminate]|].
  change (String.prefix (String c t) (String d s)) with (if Ascii.ascii_dec c d then String.prefix t s else false).
  destruct (Ascii.ascii_dec c d) as [->|D].
  - split; [intro H; apply IH in H; destruct H as (b & ->); now exists b|]. intros (b & E). apply IH. exists b. now injection E.
  - split; [discriminate|]. intros (b & E). injection E as E _. congruence.
Qed.
Lemma contains_spec : forall s t, contains s t = true <-> exists a b, s = a ++ t ++ b.
Proof.
  induction s as [|c s IH]; intro t; cbn [contains]; rewrite orb_true_iff, prefix_spec.
  - split; [intros [(b & E)|H]; [exists "", b; exact E|discriminate]|]. intros (a & b & E). left. destruct a; [now exists b|discriminate].
  - rewrite IH. split.
    + intros [(b & E)|(a & b & E)]; [exists "", b; exact E|exists (String c a), b; now rewrite E].
    + intros (a & b & E). destruct a as [|d a]; [left; now exists b|]. right. exists a, b. now injection E.
Qed.
Theorem C83_assert_throw : forall W (f : test W) se w,
  let v := snd (test_throw f se w) in
  (v = Returns <-> exists type, ((exists what, snd (f w) = Exception type what) \/ (snd (f w) = TestError /\ type = "N10mandelbrot10test_errorE")) /\
                   exists a b, type = a ++ se ++ b) /\
  (snd (f w) = Returns -> v = TestError) /\
  fst (fst (test_throw f se w)) = fst (fst (f w)).
Proof.
  intros W f se w. cbn zeta. unfold test_throw. destruct (f w) as [[w1 out] v]. cbn [snd fst]. destruct v as [| |type what| |c].
  - cbn. split; [|auto]. split; [discriminate|]. intros (y & [(x & E)|(E & _)] & _); discriminate.
  - destruct (contains "N10mandelbrot10test_errorE" se) eqn:C; cbn; (split; [split|split; [discriminate|reflexivity]]); try discriminate.
    + intros _. eexists. split; [right; split; reflexivity|]. now apply contains_spec.
    + intros _. reflexivity.
    + intros (y & [(x & E)|(_ & ->)] & H); [discriminate|]. apply contains_spec in H. congruence.
  - destruct (contains type se) eqn:C; cbn; (split; [split|split; [discriminate|reflexivity]]); try discriminate.
    + intros _. exists type. split; [left; now exists what|]. now apply contains_spec.
    + intros _. reflexivity.
    + intros (y & [(x & E)|(E & _)] & H); [|discriminate]. injection E as -> _. apply contains_spec in H. congruence.
  - cbn. split; [|split; [discriminate|reflexivity]]. split; [discriminate|]. intros (y & [(x & E)|(E & _)] & _); discriminate.
  - cbn. split; [|split; [discriminate|reflexivity]]. split; [discriminate|]. intros (y & [(x & E)|(E & _)] & _); discriminate.
Qed.
Print Assumptions C83_assert_throw.
(** A failed assertion ends the test as failed, and nothing after it is run. *)
Theorem C83_assert : forall W b (rest : test W) w,
  (b = true -> assert_true b rest w = rest w) /\ (b = false -> snd (assert_true b rest w) = TestError /\ fst (fst (assert_true b rest w)) = w).
Proof. intros W b rest w. split; intros ->; [|split]; reflexivity. Qed.
Print Assumptions C83_assert.

(** Cases: the state is a number; a test that adds 1, one that fails if it is not 0, one that throws. *)
Definition t_add : test nat := fun w => (S w, ["add"], Returns).
Definition t_zero : test nat := fun w => assert_true (Nat.eqb w O) (fun w => (w, [], Returns)) w.
Definition t_throw : test nat := fun w => (w, [], Exception "St13runtime_error" "no").
Definition ex_tests : list (string * test nat) := [("add", t_add); ("zero", t_zero); ("throw", t_throw); ("caught", test_throw t_throw "runtime_error")].
Example C83_case :
  snd (run_tests nat ex_tests ["p"] O) = Status 1 /\ fst (fst (run_tests nat ex_tests ["p"] O)) = 1%nat /\
  snd (fst (run_tests nat ex_tests ["p"] O)) =
    [Header "p" 4%nat; Run "add"; Said "add"; Good "add"; Run "zero"; Said "assertion"; Said ""; Bad "zero"; Run "throw"; Caught "St13runtime_error" "no";
     Bad "throw"; Run "caught"; Good "caught"; Ran 4%nat; Passed 2%nat; Failed 2%nat; FailedName "zero"; FailedName "throw"] /\
  snd (run_tests nat ex_tests ["p"; "zero"; "caught"] O) = Status 0 /\ snd (run_tests nat ex_tests ["p"; "zreo"] O) = Status 0 /\
  run_tests nat (("out", fun w => (w, [], Exits 0%Z)) :: ex_tests) ["p"] O = (O, [Header "p" 5%nat; Run "out"], Left 0).
Proof. repeat split; vm_compute; reflexivity. Qed.
Example C83_case_runs : picks ["zero"] ex_tests [("zero", t_zero)] /\ executes [("zero", t_zero)] 1%nat [("zero", TestError)] 1%nat /\
  (forall n t w, In (n, t) ex_tests -> snd (t w) <> Foreign /\ forall c, snd (t w) <> Exits c).
Proof.
  split; [|split].
  - unfold ex_tests. apply picks_no; [intros [H|[H|[]]]; discriminate|]. apply picks_yes; [right; now left|].
    apply picks_no; [intros [H|[H|[]]]; discriminate|]. apply picks_no; [intros [H|[H|[]]]; discriminate|]. constructor.
  - apply (ex_cons "zero" t_zero [] 1%nat 1%nat ["assertion"; ""] TestError [] 1%nat); [reflexivity|auto|constructor].
  - intros n t w H. repeat (destruct H as [H|H]; [injection H as <- <-; unfold t_zero, assert_true; try destruct (Nat.eqb w O); split; discriminate|]). destruct H.
Qed.
