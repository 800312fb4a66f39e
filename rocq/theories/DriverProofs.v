(** The main program: what its log holds, what it touches, and when it exits with zero. *)
From Coq Require Import ZArith List String Ascii Bool Lia Reals Lra.
From Flocq Require Import Core BinarySingleNaN.
From Verif Require Import Base ExpansionModel ExpansionFloat ExpansionDiv DriverModel.
Import ListNotations.
Open Scope string_scope.

(** The paths that a computation writes. *)
Definition writes (c : computation) (p : string) : Prop := exists l, In (Write p l) (fst c).

Lemma look_put f p n q : look (put f p n) q = if String.eqb p q then Some n else look f q.
Proof. reflexivity. Qed.
Lemma look_same f p n : look (put f p n) p = Some n.
Proof. rewrite look_put, String.eqb_refl. reflexivity. Qed.
Lemma look_other f p n q : p <> q -> look (put f p n) q = look f q.
Proof. intro H. rewrite look_put, (proj2 (String.eqb_neq _ _)) by exact H. reflexivity. Qed.

(** ** The log *)
Definition logged (p : string) (w : proc) : Prop := teed w = Some p /\ look (fs w) p = Some (File (map snd (screen w))).
Lemma show_screen c s w : screen (show c s w) = (screen w ++ [(c, s)])%list.
Proof. unfold show, tee_print. cbn [teed fs]. destruct (teed w) as [p|]; [|reflexivity]. destruct (look (fs w) p) as [[|l]|]; reflexivity. Qed.
Lemma show_teed c s w : teed (show c s w) = teed w.
Proof. unfold show, tee_print. cbn [teed fs]. destruct (teed w) as [p|]; [|reflexivity]. destruct (look (fs w) p) as [[|l]|]; reflexivity. Qed.
Lemma show_other c s w q : teed w <> Some q -> look (fs (show c s w)) q = look (fs w) q.
Proof.
  intro H. unfold show, tee_print. cbn [teed fs]. destruct (teed w) as [p|]; [|reflexivity].
  destruct (look (fs w) p) as [[|l]|] eqn:L; try reflexivity. cbn [fs]. apply look_other. congruence.
Qed.
Lemma show_logged p c s w : logged p w -> logged p (show c s w).
Proof.
  intros (T & L). split; [rewrite show_teed; exact T|]. rewrite show_screen, map_app. cbn [map snd].
  unfold show, tee_print. cbn [teed fs screen]. rewrite T, L. cbn [fs]. apply look_same.
Qed.
Lemma act_logged p a w : (forall l, a <> Write p l) -> logged p w -> logged p (act a w).
Proof.
  intros N H. destruct a as [c s|q l]; [now apply show_logged|]. destruct H as (T & L). split; [exact T|].
  cbn [act fs screen]. rewrite look_other; [exact L|]. intro E. apply (N l). now rewrite E.
Qed.
Lemma acts_logged p : forall l w, (forall x, ~ In (Write p x) l) -> logged p w -> logged p (fold_left (fun w a => act a w) l w).
Proof.
  induction l as [|a l IH]; intros w N H; [exact H|]. cbn. apply IH; [intros x Hx; apply (N x); now right|].
  apply act_logged; [|exact H]. intros x ->. apply (N x). now left.
Qed.
Lemma shows_logged p : forall l w, logged p w -> logged p (fold_left (fun w s => show Out s w) l w).
Proof. induction l as [|a l IH]; intros w H; [exact H|]. cbn. apply IH. now apply show_logged. Qed.
Lemma shows_screen : forall l w, screen (fold_left (fun w s => show Out s w) l w) = (screen w ++ map (pair Out) l)%list.
Proof.
  induction l as [|a l IH]; intros w; cbn; [now rewrite app_nil_r|]. rewrite IH, show_screen, <- app_assoc. reflexivity.
Qed.
Lemma shows_teed : forall l w, teed (fold_left (fun w s => show Out s w) l w) = teed w.
Proof. induction l as [|a l IH]; intros w; cbn; [reflexivity|]. rewrite IH. apply show_teed. Qed.
Lemma shows_other q : forall l w, teed w <> Some q -> look (fs (fold_left (fun w s => show Out s w) l w)) q = look (fs w) q.
Proof. induction l as [|a l IH]; intros w H; cbn; [reflexivity|]. rewrite IH by (rewrite show_teed; exact H). now apply show_other. Qed.
Lemma act_teed a w : teed (act a w) = teed w. Proof. destruct a; [apply show_teed|reflexivity]. Qed.
Lemma acts_teed : forall l w, teed (fold_left (fun w a => act a w) l w) = teed w.
Proof. induction l as [|a l IH]; intros w; cbn; [reflexivity|]. rewrite IH. apply act_teed. Qed.
Lemma acts_other q : forall l w, teed w <> Some q -> (forall x, ~ In (Write q x) l) ->
  look (fs (fold_left (fun w a => act a w) l w)) q = look (fs w) q.
Proof.
  induction l as [|a l IH]; intros w H N; cbn; [reflexivity|]. rewrite IH; [|rewrite act_teed; exact H|intros x Hx; apply (N x); now right].
  destruct a as [c s|p x]; [now apply show_other|]. cbn. apply look_other. intros ->. apply (N x). now left.
Qed.
Lemma acts_prefix : forall l w, exists r, screen (fold_left (fun w a => act a w) l w) = (screen w ++ r)%list.
Proof.
  induction l as [|a l IH]; intros w; cbn; [exists []; now rewrite app_nil_r|]. destruct (IH (act a w)) as (r & E). rewrite E.
  destruct a as [c s|p x]; [|exists r; reflexivity]. cbn [act]. rewrite show_screen, <- app_assoc. eauto.
Qed.
Lemma die_logged p s w : logged p w -> logged p (fst (die s w)).
Proof. intro H. unfold die. cbn [fst]. destruct (String.eqb s ""); [exact H|now apply show_logged]. Qed.
Lemma die_teed s w : teed (fst (die s w)) = teed w.
Proof. unfold die. cbn [fst]. destruct (String.eqb s ""); [reflexivity|apply show_teed]. Qed.
Lemma die_other q s w : teed w <> Some q -> look (fs (fst (die s w))) q = look (fs w) q.
Proof. intro H. unfold die. cbn [fst]. destruct (String.eqb s ""); [reflexivity|now apply show_other]. Qed.
Lemma die_prefix s w : exists r, screen (fst (die s w)) = (screen w ++ r)%list.
Proof. unfold die. cbn [fst]. destruct (String.eqb s ""); [exists []; now rewrite app_nil_r|]. rewrite show_screen. eauto. Qed.
Lemma die_quiet s w : s <> "" -> teed w = None ->
  fs (fst (die s w)) = fs w /\ screen (fst (die s w)) = (screen w ++ [(Err, (newline ++ "error: " ++ s)%string)])%list.
Proof.
  intros N T. unfold die. cbn [fst]. rewrite (proj2 (String.eqb_neq _ _)) by exact N. split; [|apply show_screen].
  unfold show, tee_print. cbn [teed]. rewrite T. reflexivity.
Qed.

(** What follows the output directory, as one computation: the header, the mode's actions, the ending. *)
Section Run.
  Variables (fmt_g : double -> string) (fmt_d : Z -> string) (strerror : string -> string) (allowed : string -> bool).
  Notation main := (main fmt_g fmt_d strerror allowed).
  Notation make_output := (make_output strerror allowed).
  Notation header := (header fmt_g fmt_d).

  Definition finish (we : proc * ending) : proc * Z :=
    match snd we with Done => (fst we, 0%Z) | Exited c => (fst we, c) | Threw s => (fst (die s (fst we)), 1%Z) end.
  Definition rest (modes : list (string * computation)) (a : args) (w : proc) : proc * ending :=
    let w := fold_left (fun w s => show Out s w) (header a) w in
    match find_mode modes (mode a) with None => (w, Threw "condition = it != modes.end()") | Some c => compute c w end.
  Definition conflict (a : args) : bool := prec_used a && negb (String.eqb (mode a) "arb").

  Lemma main_conflict modes a w : conflict a = true -> main modes a w = (fst (die "--prec only makes sense for mode == 'arb'" w), 1%Z).
  Proof. unfold conflict. intro H. unfold DriverModel.main, body. rewrite H. reflexivity. Qed.
  Lemma main_refused modes a w d : conflict a = false -> output a = Some d -> look (fs w) d <> None \/ allowed d = false ->
    main modes a w = (fst (die ("failed to create directory '" ++ d ++ "': " ++ strerror d) w), 1%Z).
  Proof.
    unfold conflict. intros H O E. unfold DriverModel.main, body, DriverModel.make_output. rewrite H, O.
    destruct (look (fs w) d) as [n|]; [reflexivity|]. destruct (allowed d); [|reflexivity]. destruct E as [E|E]; [now elim E|discriminate].
  Qed.
  Lemma main_none modes a w : conflict a = false -> output a = None -> main modes a w = finish (rest modes a w).
  Proof.
    unfold conflict. intros H O. unfold DriverModel.main, body, DriverModel.make_output, finish, rest. rewrite H, O.
    destruct (find_mode modes (mode a)); [|reflexivity]. cbn zeta. destruct (compute _ _) as [w' []]; reflexivity.
  Qed.
  Definition fresh (d : string) (w : proc) : Prop := look (fs w) d = None /\ look (fs w) (d ++ "/log") = None /\ allowed d = true /\ allowed (d ++ "/log") = true.
  Definition opened (d : string) (w : proc) : proc := mkProc (put (put (fs w) d Dir) (d ++ "/log") (File [])) (screen w) (Some (d ++ "/log")).
  Lemma log_neq d : d <> d ++ "/log".
  Proof.
    intro E. apply (f_equal String.length) in E. revert E. induction d as [|c d IH]; cbn; [discriminate|]. intro E. apply IH. now injection E.
  Qed.
  Lemma main_fresh modes a w d : conflict a = false -> output a = Some d -> teed w = None -> fresh d w ->
    main modes a w = finish (rest modes a (opened d w)).
  Proof.
    unfold conflict. intros H O T (F1 & F2 & F3 & F4). unfold DriverModel.main, body, DriverModel.make_output. rewrite H, O, F1, F3.
    unfold tee. cbn [teed fs screen]. rewrite T, look_other by apply log_neq. rewrite F2, F4. unfold finish, rest, opened.
    destruct (find_mode modes (mode a)); [|reflexivity]. cbn zeta. destruct (compute _ _) as [w' []]; reflexivity.
  Qed.

  Definition harmless (modes : list (string * computation)) (p : string) : Prop := forall n c, In (n, c) modes -> ~ writes c p.
  Lemma find_in modes m c : find_mode modes m = Some c -> exists n, In (n, c) modes.
  Proof.
    induction modes as [|[n x] l IH]; cbn; [discriminate|]. destruct (String.eqb n m); intro E; [injection E as ->; eauto|].
    destruct (IH E) as (q & H). eauto.
  Qed.
  Lemma rest_logged modes a p w : harmless modes p -> logged p w -> logged p (fst (finish (rest modes a w))).
  Proof.
    intros H L. unfold rest, finish. apply (shows_logged p (header a)) in L. set (v := fold_left _ _ _) in *. clearbody v.
    destruct (find_mode modes (mode a)) as [c|] eqn:F; [|now apply die_logged].
    destruct (find_in _ _ _ F) as (n & I). assert (N : forall x, ~ In (Write p x) (fst c)) by (intros x Hx; apply (H n c I); now exists x).
    unfold compute. apply (acts_logged p (fst c)) in L; [|exact N]. set (u := fold_left _ _ _) in *. clearbody u.
    destruct (snd c) as [[[] s]|]; cbn [snd fst]; [now apply die_logged|now apply die_logged|exact L].
  Qed.
  Lemma rest_other modes a p w : harmless modes p -> teed w <> Some p -> look (fs (fst (finish (rest modes a w)))) p = look (fs w) p.
  Proof.
    intros H T. unfold rest, finish. rewrite <- (shows_other p (header a) w T). assert (T2 : teed (fold_left (fun w s => show Out s w) (header a) w) <> Some p) by (rewrite shows_teed; exact T).
    set (v := fold_left _ _ _) in *. clearbody v.
    destruct (find_mode modes (mode a)) as [c|] eqn:F; [|now apply die_other].
    destruct (find_in _ _ _ F) as (n & I). assert (N : forall x, ~ In (Write p x) (fst c)) by (intros x Hx; apply (H n c I); now exists x).
    unfold compute. rewrite <- (acts_other p (fst c) v T2 N). assert (T3 : teed (fold_left (fun w a => act a w) (fst c) v) <> Some p) by (rewrite acts_teed; exact T2).
    set (u := fold_left _ _ _) in *. clearbody u.
    destruct (snd c) as [[[] s]|]; cbn [snd fst]; [now apply die_other|now apply die_other|reflexivity].
  Qed.
  Lemma rest_prefix modes a w : exists r, screen (fst (finish (rest modes a w))) = (screen w ++ map (pair Out) (header a) ++ r)%list.
  Proof.
    enough (G : exists r, screen (fst (finish (rest modes a w))) = ((screen w ++ map (pair Out) (header a)) ++ r)%list)
      by (destruct G as (r & G); exists r; rewrite app_assoc; exact G).
    unfold rest, finish. rewrite <- shows_screen. set (v := fold_left _ _ _) in *. clearbody v.
    destruct (find_mode modes (mode a)) as [c|]; [|apply die_prefix]. unfold compute.
    destruct (acts_prefix (fst c) v) as (r & E). set (u := fold_left _ _ _) in *. clearbody u.
    destruct (snd c) as [[[] s]|]; cbn [snd fst]; [| |exists r; exact E];
      destruct (die_prefix s u) as (r2 & E2); exists (r ++ r2)%list; rewrite app_assoc, <- E; exact E2.
  Qed.
  (** The status. *)
  Lemma rest_status modes a w :
    (snd (finish (rest modes a w)) = 0%Z <-> exists c, find_mode modes (mode a) = Some c /\ snd c = None) /\
    (snd (finish (rest modes a w)) = 0%Z \/ snd (finish (rest modes a w)) = 1%Z).
  Proof.
    unfold rest, finish. destruct (find_mode modes (mode a)) as [c|].
    - unfold compute. destruct (snd c) as [[[] s]|] eqn:E; cbn [snd fst]; (split; [split|auto]); try discriminate.
      + intros (x & H & N). injection H as <-. congruence.
      + intros (x & H & N). injection H as <-. congruence.
      + intros _. eauto.
      + intros _. reflexivity.
    - cbn. split; [|auto]. split; [discriminate|]. intros (c & H & _). discriminate.
  Qed.
End Run.

(** ** The conversion of -k *)
Lemma thousand : B2R (dofZ 1000) = 1000%R.
Proof.
  change (dofZ 1000) with (dlit 1000 0). assert (E : F2R (Float radix2 1000 0) = 1000%R) by (unfold F2R; cbn; lra).
  rewrite B2R_lit; [exact E|reflexivity|]. apply generic_format_FLT. exists (Float radix2 1000 0); [reflexivity|cbn; lia|cbn; unfold emin; lia].
Qed.
Lemma trunc_val (k : double) : Btrunc k = Ztrunc (B2R k).
Proof.
  apply eq_IZR. rewrite (Btrunc_correct prec emax) by reflexivity. unfold round, F2R, scaled_mantissa, cexp, FIX_exp. cbn. rewrite !Rmult_1_r. reflexivity.
Qed.
Lemma k_1000 : (if is_finite (dofZ 1000) then let z := Btrunc (dofZ 1000) in if (-2147483648 <=? z)%Z && (z <=? 2147483647)%Z then Ok z else UB else UB) = Ok 1000%Z.
Proof. vm_compute. reflexivity. Qed.
Lemma k_big (k : double) : k = B754_nan \/ k = B754_infinity false \/ (fin k /\ (1000 <= B2R k)%R) -> k_of k = Ok 1000%Z.
Proof.
  intro H. unfold k_of. replace (Bltb k (dofZ 1000)) with false; [exact k_1000|].
  symmetry. destruct H as [->|[->|(F & L)]]; [reflexivity|reflexivity|].
  rewrite Bltb_correct by (exact F || reflexivity). rewrite thousand. apply Rlt_bool_false. exact L.
Qed.
Lemma k_mid (k : double) : fin k -> (-2147483649 < B2R k < 1000)%R -> k_of k = Ok (Ztrunc (B2R k)).
Proof.
  intros F L. unfold k_of. rewrite Bltb_correct by (exact F || reflexivity). rewrite thousand, Rlt_bool_true by lra.
  rewrite F, trunc_val. assert (H : (-2147483648 <= Ztrunc (B2R k) <= 1000)%Z).
  { destruct (Rle_dec 0 (B2R k)) as [P|P].
    - rewrite Ztrunc_floor by exact P. split; [apply Z.le_trans with 0%Z; [lia|apply Zfloor_lub; exact P]|].
      apply le_IZR. eapply Rle_trans; [apply Zfloor_lb|]. lra.
    - rewrite Ztrunc_ceil by lra. split; [|apply Zceil_glb; lra].
      assert (G : (-2147483649 < Zceil (B2R k))%Z) by (apply lt_IZR; eapply Rlt_le_trans; [|apply Zceil_ub]; lra). lia. }
  rewrite (proj2 (Z.leb_le _ _)) by lia. rewrite (proj2 (Z.leb_le _ _)) by lia. reflexivity.
Qed.
Lemma k_low (k : double) : k = B754_infinity true \/ (fin k /\ (B2R k <= -2147483649)%R) -> k_of k = UB.
Proof.
  intros [->|(F & L)]; [reflexivity|]. unfold k_of. rewrite Bltb_correct by (exact F || reflexivity). rewrite thousand, Rlt_bool_true by lra.
  rewrite F, trunc_val. rewrite Ztrunc_ceil by lra.
  assert (G : (Zceil (B2R k) <= -2147483649)%Z) by (apply Zceil_glb; exact L).
  rewrite (proj2 (Z.leb_gt _ _)) by lia. reflexivity.
Qed.
