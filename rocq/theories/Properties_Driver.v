(** C82: the main program: its log, the files it touches, its exit status and its option -k. *)
From Coq Require Import ZArith List String Ascii Bool Lia Reals Lra.
From Flocq Require Import Core BinarySingleNaN.
From Verif Require Import Base ExpansionModel ExpansionFloat DriverModel DriverProofs.
Import ListNotations.
Open Scope string_scope.

Section C82.
  Context (fmt_g : double -> string) (fmt_d : Z -> string) (strerror : string -> string) (allowed : string -> bool).
  Let run := main fmt_g fmt_d strerror allowed.
  (** A started process: nothing shown, no log.  Below a path that names nothing there is nothing,
      and in a directory just created a file can be created. *)
  Definition started (w : proc) (a : args) : Prop :=
    screen w = [] /\ teed w = None /\
    forall d, output a = Some d -> (look (fs w) d = None -> look (fs w) (d ++ "/log") = None) /\
                                   (allowed d = true -> allowed (d ++ "/log") = true).
  (** --prec was given without mode arb. *)
  Definition bad_prec (a : args) : Prop := prec_used a = true /\ mode a <> "arb".
  (** The directory of -o can be created. *)
  Definition creatable (w : proc) (a : args) : Prop := forall d, output a = Some d -> look (fs w) d = None /\ allowed d = true.

  Lemma bad_conflict a : bad_prec a <-> conflict a = true.
  Proof.
    unfold bad_prec, conflict. rewrite andb_true_iff, negb_true_iff, String.eqb_neq. tauto.
  Qed.
  Lemma good_conflict a : ~ bad_prec a -> conflict a = false.
  Proof. intro H. apply not_true_is_false. intro E. apply H. now apply bad_conflict. Qed.
  Lemma started_fresh w a d : started w a -> creatable w a -> output a = Some d -> fresh allowed d w.
  Proof.
    intros (_ & _ & H) C O. destruct (H d O) as (H1 & H2). destruct (C d O) as (C1 & C2). repeat split; auto.
  Qed.

  (** The log is everything that was shown, on either stream, in order, from the first line on; and the
      first lines are the arguments. *)
  Lemma C82_log_proof modes a w d : started w a -> ~ bad_prec a -> creatable w a -> output a = Some d ->
    (forall n c, In (n, c) modes -> ~ writes c (d ++ "/log") /\ ~ writes c d) ->
    let w' := fst (run modes a w) in
    look (fs w') d = Some Dir /\ look (fs w') (d ++ "/log") = Some (File (map snd (screen w'))) /\
    exists r, map snd (screen w') = (header fmt_g fmt_d a ++ r)%list.
  Proof.
    intros S B C O H w'. pose proof (started_fresh w a d S C O) as F. destruct S as (S & T & _).
    unfold w', run. rewrite (main_fresh fmt_g fmt_d strerror allowed modes a w d (good_conflict a B) O T F).
    split; [|split].
    - rewrite rest_other; [|intros n c I; exact (proj2 (H n c I))|cbn; intro E; injection E as E; exact (log_neq d (eq_sym E))].
      cbn [opened fs]. rewrite look_other by (intro E; exact (log_neq d (eq_sym E))). apply look_same.
    - apply (rest_logged fmt_g fmt_d modes a (d ++ "/log")); [intros n c I; exact (proj1 (H n c I))|].
      split; [reflexivity|]. cbn [opened fs screen]. rewrite look_same, S. reflexivity.
    - destruct (rest_prefix fmt_g fmt_d modes a (opened d w)) as (r & E). rewrite E. cbn [opened screen]. rewrite S. cbn [app].
      rewrite map_app, map_map. cbn [snd]. rewrite map_id. eauto.
  Qed.

  (** Nothing else is touched. *)
  Lemma C82_touches_proof modes a w p : started w a ->
    (forall d, output a = Some d -> p <> d /\ p <> d ++ "/log") -> (forall n c, In (n, c) modes -> ~ writes c p) ->
    look (fs (fst (run modes a w))) p = look (fs w) p.
  Proof.
    intros S N H. destruct (conflict a) eqn:B.
    { unfold run. rewrite main_conflict by exact B. apply die_other. destruct S as (_ & T & _). rewrite T. discriminate. }
    destruct (output a) as [d|] eqn:O.
    - destruct (N d eq_refl) as (N1 & N2). destruct (look (fs w) d) as [n|] eqn:L.
      { unfold run. rewrite (main_refused fmt_g fmt_d strerror allowed modes a w d B O) by (left; congruence).
        apply die_other. destruct S as (_ & T & _). rewrite T. discriminate. }
      destruct (allowed d) eqn:A.
      + assert (C : creatable w a) by (intros e E; rewrite O in E; injection E as <-; auto).
        pose proof (started_fresh w a d S C O) as F. destruct S as (_ & T & _). unfold run.
        rewrite (main_fresh fmt_g fmt_d strerror allowed modes a w d B O T F). rewrite rest_other; [|exact H|cbn; congruence].
        cbn [opened fs]. rewrite !look_other by congruence. reflexivity.
      + unfold run. rewrite (main_refused fmt_g fmt_d strerror allowed modes a w d B O) by now right.
        apply die_other. destruct S as (_ & T & _). rewrite T. discriminate.
    - unfold run. rewrite main_none by assumption. apply rest_other; [exact H|]. destruct S as (_ & T & _). rewrite T. discriminate.
  Qed.

  (** A refused run: one line on the error stream, status 1, and the file system as it was. *)
  Lemma C82_refused_proof modes a w : started w a -> bad_prec a \/ (exists d, output a = Some d /\ (look (fs w) d <> None \/ allowed d = false)) ->
    exists s, screen (fst (run modes a w)) = [(Err, s)] /\ fs (fst (run modes a w)) = fs w /\ snd (run modes a w) = 1%Z.
  Proof.
    intros (S & T & _) H. assert (Q : forall s, s <> "" -> exists x, screen (fst (die s w)) = [(Err, x)] /\ fs (fst (die s w)) = fs w).
    { intros s N. destruct (die_quiet s w N T) as (E1 & E2). rewrite S in E2. cbn in E2. eauto. }
    destruct (conflict a) eqn:B.
    - unfold run. rewrite main_conflict by exact B. cbn [fst snd]. edestruct Q as (x & E1 & E2); [|exists x; eauto]. discriminate.
    - destruct H as [H|(d & O & H)]; [apply bad_conflict in H; congruence|]. unfold run.
      rewrite (main_refused fmt_g fmt_d strerror allowed modes a w d B O H). cbn [fst snd]. edestruct Q as (x & E1 & E2); [|exists x; eauto]. discriminate.
  Qed.

  Lemma find_nodup modes m c : NoDup (map fst modes) -> (find_mode modes m = Some c <-> In (m, c) modes).
  Proof.
    induction modes as [|[n x] l IH]; cbn; intro N; [split; [discriminate|contradiction]|]. inversion N as [|? ? N1 N2]; subst.
    destruct (String.eqb_spec n m) as [->|D].
    - split; intro H; [injection H as ->; now left|]. destruct H as [H|H]; [congruence|]. elim N1. exact (in_map fst _ _ H).
    - rewrite IH by exact N2. split; [auto|]. intros [H|H]; [congruence|exact H].
  Qed.
  (** Status 0 exactly if nothing was refused, the mode exists, and its computation returned; else 1. *)
  Lemma C82_status_proof modes a w : started w a -> NoDup (map fst modes) ->
    (snd (run modes a w) = 0%Z <-> ~ bad_prec a /\ creatable w a /\ exists c, In (mode a, c) modes /\ snd c = None) /\
    (snd (run modes a w) = 0%Z \/ snd (run modes a w) = 1%Z).
  Proof.
    intros S N. destruct (conflict a) eqn:B.
    { unfold run. rewrite main_conflict by exact B. cbn. split; [|auto]. split; [discriminate|]. intros (H & _). elim H. now apply bad_conflict. }
    assert (B' : ~ bad_prec a) by (intro E; apply bad_conflict in E; congruence).
    assert (X : (exists c, find_mode modes (mode a) = Some c /\ snd c = None) <-> exists c, In (mode a, c) modes /\ snd c = None).
    { split; intros (c & H & E); exists c; (split; [|exact E]); apply (find_nodup modes (mode a) c N); exact H. }
    assert (R : forall d, output a = Some d -> look (fs w) d <> None \/ allowed d = false ->
      (snd (run modes a w) = 0%Z <-> ~ bad_prec a /\ creatable w a /\ exists c, In (mode a, c) modes /\ snd c = None) /\
      (snd (run modes a w) = 0%Z \/ snd (run modes a w) = 1%Z)).
    { intros d O H. unfold run. rewrite (main_refused fmt_g fmt_d strerror allowed modes a w d B O H). cbn. split; [|auto].
      split; [discriminate|]. intros (_ & C & _). destruct (C d O) as (C1 & C2). destruct H; [contradiction|congruence]. }
    destruct (output a) as [d|] eqn:O.
    - destruct (look (fs w) d) as [n|] eqn:L; [apply (R d eq_refl); left; congruence|]. destruct (allowed d) eqn:A; [|apply (R d eq_refl); now right].
      assert (C : creatable w a) by (intros e E; rewrite O in E; injection E as <-; auto).
      pose proof (started_fresh w a d S C O) as F. destruct S as (_ & T & _). unfold run.
      rewrite (main_fresh fmt_g fmt_d strerror allowed modes a w d B O T F).
      destruct (rest_status fmt_g fmt_d modes a (opened d w)) as (H1 & H2). split; [|exact H2]. rewrite H1, X. tauto.
    - assert (C : creatable w a) by (intros e E; congruence). unfold run. rewrite main_none by assumption.
      destruct (rest_status fmt_g fmt_d modes a w) as (H1 & H2). split; [|exact H2]. rewrite H1, X. tauto.
  Qed.
End C82.

Theorem C82_log : forall fmt_g fmt_d strerror allowed modes a w d,
  started allowed w a -> ~ bad_prec a -> creatable allowed w a -> output a = Some d ->
  (forall n c, In (n, c) modes -> ~ writes c (d ++ "/log") /\ ~ writes c d) ->
  let w' := fst (main fmt_g fmt_d strerror allowed modes a w) in
  look (fs w') d = Some Dir /\ look (fs w') (d ++ "/log") = Some (File (map snd (screen w'))) /\
  exists r, map snd (screen w') = (header fmt_g fmt_d a ++ r)%list.
Proof. exact C82_log_proof. Qed.
Print Assumptions C82_log.
(** Whatever is not refused shows the arguments first, on standard output: the program and its arguments, mode, k and tol
    always, the precision exactly in mode arb, input and output exactly if given, in this order, then an empty line. *)
Definition announced (fmt_g : double -> string) (fmt_d : Z -> string) (a : args) : list (Prop * string) :=
  let file o := match o with Some f => f | None => "" end in
  [(True, "cmd = " ++ cmd a ++ newline); (True, "mode = " ++ mode a); (True, "k = " ++ fmt_g (k_arg a)); (True, "tol = " ++ fmt_g (tol_arg a));
   (mode a = "arb", "prec = " ++ fmt_d (prec_arg a)); (input a <> None, "input = '" ++ file (input a) ++ "'");
   (output a <> None, "output = '" ++ file (output a) ++ "'"); (True, "")].
(** [l] lists, in order, exactly the texts whose condition holds. *)
Inductive chosen : list (Prop * string) -> list string -> Prop :=
| chosen_nil : chosen [] []
| chosen_yes (P : Prop) s t l : P -> chosen t l -> chosen ((P, s) :: t) (s :: l)
| chosen_no (P : Prop) s t l : ~ P -> chosen t l -> chosen ((P, s) :: t) l.
Theorem C82_header : forall fmt_g fmt_d strerror allowed modes a w, started allowed w a -> ~ bad_prec a -> creatable allowed w a ->
  exists l r, chosen (announced fmt_g fmt_d a) l /\ screen (fst (main fmt_g fmt_d strerror allowed modes a w)) = (map (pair Out) l ++ r)%list.
Proof.
  intros fmt_g fmt_d strerror allowed modes a w S B C. exists (header fmt_g fmt_d a).
  assert (E : exists r, screen (fst (main fmt_g fmt_d strerror allowed modes a w)) = (map (pair Out) (header fmt_g fmt_d a) ++ r)%list).
  { destruct (output a) as [d|] eqn:O.
    - pose proof (started_fresh allowed w a d S C O) as F. destruct S as (S & T & _).
      rewrite (main_fresh fmt_g fmt_d strerror allowed modes a w d (good_conflict a B) O T F). destruct (rest_prefix fmt_g fmt_d modes a (opened d w)) as (r & E).
      exists r. rewrite E. cbn [opened screen]. rewrite S. reflexivity.
    - destruct S as (S & T & _). rewrite main_none by (exact O || exact (good_conflict a B)). destruct (rest_prefix fmt_g fmt_d modes a w) as (r & E). exists r. rewrite E, S. reflexivity. }
  destruct E as (r & E). exists r. split; [|exact E]. clear E r. unfold announced, header. cbv zeta. do 4 (apply chosen_yes; [exact Logic.I|]).
  assert (Yes : forall b (P : Prop) s t l, (b = true <-> P) -> chosen t l -> chosen ((P, s) :: t) ((if b : bool then [s] else []) ++ l)%list).
  { intros [] P s t l H K; [apply chosen_yes; [now apply H|exact K]|apply chosen_no; [intro Q; apply H in Q; discriminate|exact K]]. }
  assert (Opt : forall (g : string -> string) (o : option string) t l, chosen t l ->
    chosen ((o <> None, g (match o with Some f => f | None => "" end)) :: t) (match o with Some f => [g f] | None => [] end ++ l)%list).
  { intros g [f|] t l K; [apply chosen_yes; [discriminate|exact K]|apply chosen_no; [intro Q; now apply Q|exact K]]. }
  apply Yes; [apply String.eqb_eq|]. apply (Opt (fun i => "input = '" ++ i ++ "'")). apply (Opt (fun i => "output = '" ++ i ++ "'")).
  apply chosen_yes; [exact Logic.I|apply chosen_nil].
Qed.
Print Assumptions C82_header.
Theorem C82_touches : forall fmt_g fmt_d strerror allowed modes a w p, started allowed w a ->
  (forall d, output a = Some d -> p <> d /\ p <> d ++ "/log") -> (forall n c, In (n, c) modes -> ~ writes c p) ->
  look (fs (fst (main fmt_g fmt_d strerror allowed modes a w))) p = look (fs w) p.
Proof. exact C82_touches_proof. Qed.
Print Assumptions C82_touches.
Theorem C82_refused : forall fmt_g fmt_d strerror allowed modes a w, started allowed w a ->
  bad_prec a \/ (exists d, output a = Some d /\ (look (fs w) d <> None \/ allowed d = false)) ->
  let r := main fmt_g fmt_d strerror allowed modes a w in
  exists s, screen (fst r) = [(Err, s)] /\ fs (fst r) = fs w /\ snd r = 1%Z.
Proof. exact C82_refused_proof. Qed.
Print Assumptions C82_refused.
Theorem C82_status : forall fmt_g fmt_d strerror allowed modes a w, started allowed w a -> NoDup (map fst modes) ->
  let r := main fmt_g fmt_d strerror allowed modes a w in
  (snd r = 0%Z <-> ~ bad_prec a /\ creatable allowed w a /\ exists c, In (mode a, c) modes /\ snd c = None) /\
  (snd r = 0%Z \/ snd r = 1%Z).
Proof. exact C82_status_proof. Qed.
Print Assumptions C82_status.
(** -k: 1000 for everything from 1000 on, for NaN and by default; below, truncated towards zero; undefined for
    what does not fit an int. *)
Theorem C82_k : forall k : double,
  (k = B754_nan \/ k = B754_infinity false \/ (is_finite k = true /\ (1000 <= B2R k)%R) -> k_of k = Ok 1000%Z) /\
  (is_finite k = true -> (-2147483649 < B2R k < 1000)%R -> k_of k = Ok (Ztrunc (B2R k))) /\
  (k = B754_infinity true \/ (is_finite k = true /\ (B2R k <= -2147483649)%R) -> k_of k = UB).
Proof. intro k. split; [exact (k_big k)|]. split; [exact (k_mid k)|exact (k_low k)]. Qed.
Print Assumptions C82_k.
(** A failed run is not without effect: a mode that does not exist is noticed after the directory was
    created, and the corrected command with the same directory is then refused. *)
Theorem C82_retry_refuted : forall fmt_g fmt_d strerror modes, exists a a' w d,
  let r := main fmt_g fmt_d strerror (fun _ => true) modes a w in
  started (fun _ => true) w a /\ output a = Some d /\ look (fs w) d = None /\ snd r = 1%Z /\ look (fs (fst r)) d = Some Dir /\
  output a' = Some d /\ (forall modes' , snd (main fmt_g fmt_d strerror (fun _ => true) modes' a' (mkProc (fs (fst r)) [] None)) = 1%Z).
Proof.
  intros fmt_g fmt_d strerror modes.
  (* a name longer than all names of modes *)
  assert (L : exists m, find_mode modes m = None).
  { assert (G : exists n, forall m, (n <= String.length m)%nat -> find_mode modes m = None).
    { induction modes as [|[x c] l (n & IH)]; [exists 0%nat; reflexivity|]. exists (Nat.max n (S (String.length x))). intros m Hm. cbn.
      destruct (String.eqb_spec x m) as [->|_]; [lia|]. apply IH. lia. }
    destruct G as (n & G). assert (M : exists m, String.length m = n) by (clear; induction n as [|n (m & <-)]; [exists ""; reflexivity|exists (String "a" m); reflexivity]).
    destruct M as (m & M). exists m. apply G. lia. }
  destruct L as (m & L).
  set (a := mkArgs "" m dzero dzero 0 false None (Some "o")). exists a, (mkArgs "" "exp2" dzero dzero 0 false None (Some "o")), (mkProc [] [] None), "o".
  assert (F : fresh (fun _ => true) "o" (mkProc [] [] None)) by (repeat split).
  assert (E : main fmt_g fmt_d strerror (fun _ => true) modes a (mkProc [] [] None) = finish (rest fmt_g fmt_d modes a (opened "o" (mkProc [] [] None))))
    by (apply main_fresh; [reflexivity|reflexivity|reflexivity|exact F]).
  assert (R : forall v, rest fmt_g fmt_d modes a v = (fold_left (fun w s => show Out s w) (header fmt_g fmt_d a) v, Threw "condition = it != modes.end()"))
    by (intro v; unfold rest; change (mode a) with m; rewrite L; reflexivity).
  assert (D : look (fs (fst (main fmt_g fmt_d strerror (fun _ => true) modes a (mkProc [] [] None)))) "o" = Some Dir).
  { rewrite E, R. cbn [finish snd fst]. rewrite die_other by (rewrite shows_teed; discriminate). rewrite shows_other by discriminate. reflexivity. }
  cbn zeta. split; [repeat split|]. split; [reflexivity|]. split; [reflexivity|].
  split; [rewrite E, R; reflexivity|]. split; [exact D|]. split; [reflexivity|]. intro modes'.
  rewrite (main_refused fmt_g fmt_d strerror (fun _ => true) modes' _ _ "o"); [reflexivity|reflexivity|reflexivity|]. left. cbn [fs]. rewrite D. discriminate.
Qed.
Print Assumptions C82_retry_refuted.

(** Cases: a run to k = 2 into a new directory that prints, writes a series and then throws; and one that returns. *)
Definition c_ok : computation := ([Show Out "k 1"; Write "o/f-k1" ["f"]; Show Err "warning"], None).
Definition c_throws : computation := ([Show Out "k 1"; Write "o/f-k1" ["f"]], Some (false, "bad error")).
Definition ex_modes : list (string * computation) := [("arb", c_ok); ("double", c_throws)].
Definition ex_args (m : string) (p : bool) : args := mkArgs "cmd" m (dofZ 2) dzero 2000 p None (Some "o").
Definition ex_run m p w := main (fun _ => "x") (fun _ => "d") (fun _ => "e") (fun _ => true) ex_modes (ex_args m p) w.
Example C82_case :
  let w := mkProc [("a", File ["b"])] [] None in
  started (fun _ => true) w (ex_args "arb" true) /\ creatable (fun _ => true) w (ex_args "arb" true) /\ ~ bad_prec (ex_args "arb" true) /\
  NoDup (map fst ex_modes) /\
  snd (ex_run "arb" true w) = 0%Z /\ snd (ex_run "double" false w) = 1%Z /\ snd (ex_run "double" true w) = 1%Z /\ snd (ex_run "exp3" false w) = 1%Z /\
  look (fs (fst (ex_run "double" false w))) "o/log" =
    Some (File ["cmd = cmd" ++ newline; "mode = double"; "k = x"; "tol = x"; "output = 'o'"; ""; "k 1"; newline ++ "error: bad error"]).
Proof.
  cbn zeta. split; [split; [reflexivity|split; [reflexivity|intros d E; split; [injection E as <-; reflexivity|reflexivity]]]|].
  split; [intros d E; injection E as <-; split; reflexivity|]. split; [intros (_ & N); apply N; reflexivity|].
  split; [constructor; [cbn; intros [H|[]]; discriminate|constructor; [intros []|constructor]]|].
  repeat match goal with |- _ /\ _ => split end; vm_compute; reflexivity.
Qed.
Example C82_k_case : k_of (dlit 41 (-2)) = Ok 10%Z /\ k_of (B754_infinity false) = Ok 1000%Z /\ k_of (dlit (-1) 31) = Ok (-2147483648)%Z /\ k_of (dlit (-1) 32) = UB.
Proof. repeat split; vm_compute; reflexivity. Qed.
