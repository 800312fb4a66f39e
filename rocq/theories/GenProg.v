(** Running the statements written for a loop body: loads, declarations and stores. *)
From Coq Require Import String ZArith List Bool Lia Reals Lra.
From Verif Require Import Base Field FieldInst ExpModel ExpProofs BlockProofs GradProofs GenModel FFTModel FFTMath GenProofs GenBack GenRun GenScope.
Import ListNotations.
Open Scope Z_scope.

(** ** Numbers *)
Lemma as_int_IZR : forall z, as_int (IZR z) = Some z.
Proof.
  intros z. unfold as_int. assert (H : Int_part (IZR z) = z).
  { unfold Int_part. rewrite <- (tech_up (IZR z) (z + 1)); [lia| |]; rewrite plus_IZR; lra. }
  rewrite H. destruct (Req_EM_T (IZR z) (IZR z)); [reflexivity|contradiction].
Qed.
Lemma as_nat_INR : forall n, as_nat (IZR (Z.of_nat n)) = Some n.
Proof. intros n. unfold as_nat. rewrite as_int_IZR. destruct (Z.ltb_spec (Z.of_nat n) 0); [lia|]. rewrite Nat2Z.id. reflexivity. Qed.

Section Prog.
Variables (G : SigOps) (HL : SigLaws G) (draw : string -> G).
Notation exp := (exp G).
Notation gen := (gen G).
Notation X := (X G).
Notation run := (run G).

Lemma run_app : forall a b s, run (a ++ b) s = match run a s with Some s' => run b s' | None => None end.
Proof. induction a as [|t a IH]; intros b s; cbn [app GenRun.run]; [reflexivity|]. destruct (step G t s); [apply IH|reflexivity]. Qed.
Lemma run_lets : forall ls s, run (map (fun p : string * exp => SLet G (fst p) (snd p)) ls) s = Some {| env := run_lines ls (env s); ym := ym s; xm := xm s |}.
Proof.
  induction ls as [|[v e] t IH]; intros s; cbn [map GenRun.run fst snd]; [destruct s; reflexivity|]. cbn [step]. rewrite IH. reflexivity.
Qed.

(** ** Inversion of the generator's steps *)
Lemma xbind_inv : forall A B (m : X A) (k : A -> X B) g b g'', xbind G m k g = Ok (b, g'') -> exists a g', m g = Ok (a, g') /\ k a g' = Ok (b, g'').
Proof. intros A B m k g b g'' H. unfold xbind in H. destruct (m g) as [[a g']| |]; try discriminate. exists a, g'. auto. Qed.
Lemma of_m_inv : forall A (m : M G A) g a g', of_m G m g = Ok (a, g') -> m (g_cse G g) = Ok (a, g_cse G g') /\ g_blk G g' = g_blk G g /\ g_out G g' = g_out G g /\ g_told G g' = g_told G g /\ g_diff G g' = g_diff G g.
Proof. intros A m g a g' H. unfold of_m in H. destruct (m (g_cse G g)) as [[b c]| |]; try discriminate. injection H as <- <-. cbn. auto. Qed.
Lemma lift_inv : forall A (x : res A) g a g', of_m G (lift G x) g = Ok (a, g') -> x = Ok a /\ g' = g.
Proof. intros A x g a g' H. unfold of_m, lift in H. destruct x as [b| |]; try discriminate. injection H as <- <-. destruct g. auto. Qed.
Lemma emit_inv : forall t g a g', emit G t g = Ok (a, g') -> g_cse G g' = g_cse G g /\ g_blk G g' = g_blk G g /\ g_out G g' = g_out G g ++ [t] /\ g_told G g' = g_told G g /\ g_diff G g' = g_diff G g.
Proof. intros t g a g' H. injection H as <- <-. cbn. auto. Qed.
Lemma input_inv : forall n g v g', g_input G draw n g = Ok (v, g') -> v = mkvar n (draw n) /\ ~ In n (names G (g_blk G g)) /\ g_cse G g' = g_cse G g /\
  g_blk G g' = {| names := n :: names G (g_blk G g); counts := counts G (g_blk G g); lets := lets G (g_blk G g); lines := lines G (g_blk G g) |} /\
  g_out G g' = g_out G g /\ g_told G g' = g_told G g /\ g_diff G g' = g_diff G g.
Proof.
  intros n g v g' H. unfold g_input, of_b, input in H. destruct (existsb (String.eqb n) (names G (g_blk G g))) eqn:Ex; [discriminate|]. cbn in H. injection H as <- <-.
  rewrite skipn_all. cbn. rewrite app_nil_r. split; [reflexivity|]. split; [|auto]. intros Hn. apply existsb_in in Hn. congruence.
Qed.
Lemma now_inv : forall p t sg g v g', g_now G p t sg g = Ok (v, g') -> exists n, fresh_from (S (length (names G (g_blk G g)))) 0 p (names G (g_blk G g)) = Ok n /\ v = mkvar n sg /\ g_cse G g' = g_cse G g /\
  g_blk G g' = {| names := n :: names G (g_blk G g); counts := counts G (g_blk G g); lets := lets G (g_blk G g); lines := lines G (g_blk G g) |} /\
  g_out G g' = g_out G g ++ [SText G n t] /\ g_told G g' = g_told G g /\ g_diff G g' = g_diff G g.
Proof.
  intros p t sg g v g' H. unfold g_now in H. apply xbind_inv in H. destruct H as (n & g1 & H1 & H). apply xbind_inv in H. destruct H as (u & g2 & H2 & H).
  injection H as <- <-. apply emit_inv in H2. destruct H2 as (A1 & A2 & A3 & A4 & A5). unfold of_b, fresh in H1.
  destruct (fresh_from (S (length (names G (g_blk G g)))) 0 p (names G (g_blk G g))) as [m| |] eqn:Fr; try discriminate. cbn in H1. injection H1 as <- <-. cbn in *.
  rewrite skipn_all in *. cbn in *. rewrite app_nil_r in A3. exists m. auto 10.
Qed.
Lemma use_inv : forall e g u g', g_use G e g = Ok (u, g') -> g_cse G g' = g_cse G g /\ names G (g_blk G g') = names G (g_blk G g) /\ lets G (g_blk G g') = lets G (g_blk G g) /\ lines G (g_blk G g') = lines G (g_blk G g) /\
  g_out G g' = g_out G g /\ g_told G g' = g_told G g ++ [e] /\ g_diff G g' = g_diff G g.
Proof.
  intros e g u g' H. unfold g_use, told, xbind, of_b in H. cbn [bind g_blk g_cse g_out g_told g_diff] in H. injection H as <- <-. cbn [g_blk g_cse g_out g_told g_diff].
  destruct (use_same G e (g_blk G g)) as (A1 & A2 & A3). rewrite A3, skipn_all. cbn. rewrite app_nil_r. auto 10.
Qed.
Lemma compute_inv : forall e g y g', g_compute G e g = Ok (y, g') -> compute G e (g_blk G g) = Ok (y, g_blk G g') /\ g_cse G g' = g_cse G g /\ g_told G g' = g_told G g ++ [e] /\ g_diff G g' = g_diff G g /\
  exists new, lines G (g_blk G g') = lines G (g_blk G g) ++ new /\ g_out G g' = g_out G g ++ map (fun p : string * exp => SLet G (fst p) (snd p)) new.
Proof.
  intros e g y g' H. unfold g_compute, told, xbind, of_b in H. cbn [bind g_blk g_cse g_out g_told g_diff] in H.
  destruct (compute G e (g_blk G g)) as [[y' b']| |] eqn:C; try discriminate. cbn [bind] in H. injection H as <- <-. cbn [g_blk g_cse g_out g_told g_diff].
  destruct (compute_prefix G e _ _ _ C) as [l Hl]. repeat (split; [reflexivity|]). exists l. split; [exact Hl|]. rewrite Hl. f_equal. f_equal.
  rewrite skipn_app, skipn_all, Nat.sub_diag. reflexivity.
Qed.

(** ** Loads *)
Definition agree (ns : list string) (E J : interp RF) : Prop := iother J = iother E /\ icall J = icall E /\ forall v, In v ns -> iv J v = iv E v.
Lemma agree_refl : forall ns E, agree ns E E. Proof. intros. split; auto. Qed.
Lemma agree_trans : forall ns a b c, agree ns a b -> agree ns b c -> agree ns a c.
Proof. intros ns a b c (A1 & A2 & A3) (B1 & B2 & B3). split; [congruence|]. split; [congruence|]. intros v Hv. rewrite B3, A3; auto. Qed.
Lemma agree_incl : forall ns ms a b, incl ns ms -> agree ms a b -> agree ns a b.
Proof. intros ns ms a b H (A1 & A2 & A3). split; [exact A1|]. split; [exact A2|]. intros v Hv. apply A3, H, Hv. Qed.
(** The index of each place, whatever the variables other than [ns]. *)
Definition at_idx (ns : list string) (E : interp RF) (l : loc G) (k : nat) : Prop := forall J, agree ns E J -> eval J (l_idx G l) = IZR (Z.of_nat k).
Lemma split_inv : forall lr n st z st', GenModel.split G lr (mkvar n (draw n)) st = Ok (z, st') -> st' = st /\ [fst z; snd z] = cinput G draw n.
Proof.
  intros lr n st z st' H. unfold GenModel.split, par, exp_field, cse, cse_exp, mbind, ret in H. cbn [op_of fast_op bind] in H.
  destruct lr; injection H as <- <-; (split; [reflexivity|]); unfold cinput; cbn [fst snd mkvar map sig_of node_arb]; destruct (exact G st); reflexivity.
Qed.
Definition phase_a (g g' : gen) (ns : list string) : Prop :=
  g_cse G g' = g_cse G g /\ g_told G g' = g_told G g /\ g_diff G g' = g_diff G g /\
  names G (g_blk G g') = rev ns ++ names G (g_blk G g) /\ lets G (g_blk G g') = lets G (g_blk G g) /\ lines G (g_blk G g') = lines G (g_blk G g).
Lemma loads_y : forall lr ls g r g', xmap G (loc_get G draw lr) ls g = Ok (r, g') -> Forall (fun l => l_cx G l = true) ls ->
  concat r = cinputs G draw (map (l_name G) ls) /\ phase_a g g' (map (l_name G) ls) /\ exists d, g_out G g' = g_out G g ++ d /\
  forall s ks cs, NoDup (map (iv (env s)) (map (l_name G) ls)) -> Forall2 (at_idx (names G (g_blk G g)) (env s)) ls ks -> Forall2 (fun k c => nth_error (ym s) k = Some c) ks cs ->
    exists s', run d s = Some s' /\ ym s' = ym s /\ xm s' = xm s /\ iv (env s') = iv (env s) /\ iother (env s') = iother (env s) /\ icall (env s') = icall (env s) /\
      (forall f a, ~ In a (map (iv (env s)) (map (l_name G) ls)) -> ifield (env s') f a = ifield (env s) f a) /\
      map (eval (env s')) (cinputs G draw (map (l_name G) ls)) = flatv cs.
Proof.
  intros lr. induction ls as [|l ls IH]; intros g r g' H Hc; cbn [xmap] in H.
  - injection H as <- <-. split; [reflexivity|]. split; [unfold phase_a; cbn; auto 10|]. exists []. split; [rewrite app_nil_r; reflexivity|].
    intros s ks cs _ Hk Hy. inversion Hk; subst. inversion Hy; subst. exists s. cbn. auto 10.
  - apply xbind_inv in H. destruct H as (b & g1 & H1 & H). apply xbind_inv in H. destruct H as (t & g2 & H2 & H). injection H as <- <-.
    pose proof (Forall_inv Hc) as Hl. apply Forall_inv_tail in Hc. unfold loc_get in H1. rewrite Hl in H1.
    apply xbind_inv in H1. destruct H1 as (u & ga & Ha & H1). apply xbind_inv in H1. destruct H1 as (v & gb & Hb & H1). apply xbind_inv in H1. destruct H1 as (z & gc & Hz & H1). injection H1 as <- <-.
    apply emit_inv in Ha. destruct Ha as (a1 & a2 & a3 & a4 & a5). apply input_inv in Hb. destruct Hb as (-> & b2 & b3 & b4 & b5 & b6 & b7).
    apply of_m_inv in Hz. destruct Hz as (c1 & c2 & c3 & c4 & c5). apply split_inv in c1. destruct c1 as [c1 Ez].
    destruct (IH gc t g2 H2 Hc) as (R1 & (P1 & P2 & P3 & P4 & P5 & P6) & d & D & Run).
    assert (N1 : names G (g_blk G gc) = l_name G l :: names G (g_blk G g)) by (rewrite c2, b4; cbn [names]; rewrite a2; reflexivity).
    split; [cbn [concat map]; rewrite R1, Ez; unfold cinputs; cbn [flat_map]; reflexivity|]. split.
    { unfold phase_a. rewrite P1, P2, P3, P4, P5, P6, c1, c4, c5, N1. rewrite b3, b6, b7, a1, a4, a5. rewrite c2, b4. cbn [lets lines map rev]. rewrite a2, <- app_assoc. auto 10. }
    exists (SGetY G (l_name G l) (l_idx G l) :: d). split; [rewrite D, c3, b5, a3, <- app_assoc; reflexivity|].
    intros s ks cs ND Hk Hy. inversion Hk as [|? k ? ks' Hk1 Hk2]; subst. inversion Hy as [|? c ? cs' Hy1 Hy2]; subst. cbn [map] in ND. apply NoDup_cons_iff in ND. destruct ND as [Nl ND].
    cbn [GenRun.run step]. rewrite (Hk1 (env s) (agree_refl _ _)), as_nat_INR, Hy1.
    destruct (Run {| env := set_cx (env s) (l_name G l) c; ym := ym s; xm := xm s |} ks' cs') as (s' & E & S1 & S2 & S3 & S4 & S5 & S6 & S7); cbn [env ym xm] in *.
    + exact ND.
    + rewrite N1. clear - Hk2. induction Hk2 as [|a b p q Hab Hpq IHp]; constructor; [|exact IHp]. intros J HJ. apply Hab. eapply agree_incl; [|exact HJ]. intros x Hx. right. exact Hx.
    + exact Hy2.
    + exists s'. split; [exact E|]. split; [exact S1|]. split; [exact S2|]. cbn [set_cx iv iother icall ifield] in *. split; [exact S3|]. split; [exact S4|]. split; [exact S5|]. split.
      * intros f a Ha. cbn [map] in Ha. rewrite S6 by (intros Hin; apply Ha; right; exact Hin). destruct (Req_EM_T a (iv (env s) (l_name G l))) as [->|]; [exfalso; apply Ha; left; reflexivity|reflexivity].
      * unfold cinputs. cbn [map flat_map]. rewrite map_app. fold (cinputs G draw (map (l_name G) ls)). rewrite S7. unfold cinput. cbn [map eval mkvar opval app flatv]. rewrite S3, !S6 by exact Nl.
        destruct (Req_EM_T (iv (env s) (l_name G l)) (iv (env s) (l_name G l))); [|contradiction]. cbn [String.eqb]. destruct c; reflexivity.
Qed.
Lemma loads_x : forall lr ls g r g', xmap G (loc_get G draw lr) ls g = Ok (r, g') -> Forall (fun l => l_cx G l = false) ls ->
  concat r = rinputs G draw (map (l_name G) ls) /\ phase_a g g' (map (l_name G) ls) /\ (forall n, In n (map (l_name G) ls) -> ~ In n (names G (g_blk G g))) /\ exists d, g_out G g' = g_out G g ++ d /\
  forall s ks, Forall2 (at_idx (names G (g_blk G g)) (env s)) ls ks ->
    exists s', run d s = Some s' /\ ym s' = ym s /\ xm s' = xm s /\ iother (env s') = iother (env s) /\ icall (env s') = icall (env s) /\ ifield (env s') = ifield (env s) /\
      (forall v, ~ In v (map (l_name G) ls) -> iv (env s') v = iv (env s) v) /\
      map (eval (env s')) (rinputs G draw (map (l_name G) ls)) = map (fun k => nth k (xm s) 0%R) ks.
Proof.
  intros lr. induction ls as [|l ls IH]; intros g r g' H Hc; cbn [xmap] in H.
  - injection H as <- <-. split; [reflexivity|]. split; [unfold phase_a; cbn; auto 10|]. split; [intros n []|]. exists []. split; [rewrite app_nil_r; reflexivity|].
    intros s ks Hk. inversion Hk; subst. exists s. cbn. auto 10.
  - apply xbind_inv in H. destruct H as (b & g1 & H1 & H). apply xbind_inv in H. destruct H as (t & g2 & H2 & H). injection H as <- <-.
    pose proof (Forall_inv Hc) as Hl. apply Forall_inv_tail in Hc. unfold loc_get in H1. rewrite Hl in H1.
    apply xbind_inv in H1. destruct H1 as (u & ga & Ha & H1). apply xbind_inv in H1. destruct H1 as (v & gb & Hb & H1). injection H1 as <- <-.
    apply emit_inv in Ha. destruct Ha as (a1 & a2 & a3 & a4 & a5). apply input_inv in Hb. destruct Hb as (-> & b2 & b3 & b4 & b5 & b6 & b7).
    destruct (IH gb t g2 H2 Hc) as (R1 & (P1 & P2 & P3 & P4 & P5 & P6) & Fr & d & D & Run).
    assert (N1 : names G (g_blk G gb) = l_name G l :: names G (g_blk G g)) by (rewrite b4; cbn [names]; rewrite a2; reflexivity).
    split; [cbn [concat map]; rewrite R1; reflexivity|]. split.
    { unfold phase_a. rewrite P1, P2, P3, P4, P5, P6, N1. rewrite b3, b6, b7, a1, a4, a5. rewrite b4. cbn [lets lines map rev]. rewrite a2, <- app_assoc. auto 10. }
    split. { intros n [<-|Hn]; [rewrite a2 in b2; exact b2|]. intros Q. apply (Fr n Hn). rewrite N1. right. exact Q. }
    exists (SGetX G (l_name G l) (l_idx G l) :: d). split; [rewrite D, b5, a3, <- app_assoc; reflexivity|].
    intros s ks Hk. inversion Hk as [|? k ? ks' Hk1 Hk2]; subst.
    cbn [GenRun.run step]. rewrite (Hk1 (env s) (agree_refl _ _)), as_nat_INR.
    destruct (Run {| env := set_iv (env s) (l_name G l) (nth k (xm s) 0%R : RF); ym := ym s; xm := xm s |} ks') as (s' & E & S1 & S2 & S4 & S5 & S6 & S3 & S7); cbn [env ym xm set_iv iother icall ifield] in *.
    + rewrite N1. clear - Hk2 b2 a2. induction Hk2 as [|a b p q Hab Hpq IHp]; constructor; [|exact IHp]. intros J (J1 & J2 & J3). apply Hab. split; [exact J1|]. split; [exact J2|].
      intros v Hv. rewrite (J3 v (or_intror Hv)). cbn [set_iv iv]. destruct (String.eqb_spec v (l_name G l)) as [->|]; [rewrite a2 in b2; contradiction|reflexivity].
    + exists s'. split; [exact E|]. split; [exact S1|]. split; [exact S2|]. split; [exact S4|]. split; [exact S5|]. split; [exact S6|]. split.
      * intros v Hv. cbn [map] in Hv. rewrite S3 by (intros Hin; apply Hv; right; exact Hin). cbn [set_iv iv]. destruct (String.eqb_spec v (l_name G l)) as [->|]; [exfalso; apply Hv; left; reflexivity|reflexivity].
      * unfold rinputs in *. cbn [map]. rewrite S7. f_equal. cbn [eval mkvar map opval]. rewrite S3; [cbn [set_iv iv]; rewrite String.eqb_refl; reflexivity|].
        intros Hin. apply (Fr _ Hin). rewrite N1. left. reflexivity.
Qed.

(** ** Declarations and stores *)
(** [ins]: parameters and loaded values; [S]: everything told to the block, with subexpressions. *)
Definition binv (ins : list string) (S : list exp) (E : interp RF) (b : bst G) : Prop := scoped_b G ins b /\ sat RF G E b /\ lets_ok RF G S E b.
Definition same_rest (E J : interp RF) : Prop := iother J = iother E /\ ifield J = ifield E /\ icall J = icall E.
Definition rep (ins : list string) (S : list exp) (E : interp RF) : Prop :=
  (forall x, In x S -> incl (vars x) ins) /\ (forall J, iother J = iother E -> faithful RF G S J).
Lemma compute_run : forall ins S E e b y b' new, compute G e b = Ok (y, b') -> lines G b' = lines G b ++ new -> rep ins S E -> incl (subs e) S -> binv ins S E b ->
  let E' := run_lines new E in binv ins S E' b' /\ eval E' y = eval E e /\ same_rest E E' /\ (forall v, In v (names G b) -> iv E' v = iv E v) /\ incl (vars y) (names G b') /\ incl (names G b) (names G b').
Proof.
  intros ins S E e b y b' new C L [Rv Rf] Se (Sc & St & Lo) E'.
  assert (Ve : incl (vars e) ins) by (apply Rv; apply Se; destruct e; left; reflexivity).
  assert (Vn : incl ins (names G b)) by (intros v Hv; apply Sc; left; exact Hv).
  destruct (compute_scoped G e ins b y b' C Sc (incl_tran Ve Vn)) as (Sc' & Vy & Vb).
  destruct (run_lines_rest RF G new E) as (Q1 & Q2 & Q3). fold E' in Q1, Q2, Q3.
  assert (W : well_scoped (rev (map fst (lines G b)) ++ ins) new).
  { destruct Sc' as (W & _). rewrite L in W. apply well_scoped_app in W. apply W. }
  assert (Known : forall v, In v (names G b) -> iv E' v = iv E v).
  { intros v Hv. apply (run_lines_known RF G new _ E v W). apply Sc in Hv. apply in_or_app. destruct Hv as [Hv|Hv]; [right; exact Hv|left; rewrite <- in_rev; exact Hv]. }
  assert (Agree : forall x : exp, incl (vars x) (names G b) -> eval E' x = eval E x) by (intros x Hx; apply eval_agree; [intros v Hv; apply Known, Hx, Hv|exact Q1|exact Q2|exact Q3]).
  assert (Fa : faithful RF G S E') by (apply Rf; exact Q1).
  assert (Sat' : sat RF G E' b').
  { intros v x Hin. rewrite L in Hin. apply in_app_or in Hin. destruct Hin as [Hin|Hin]; [|apply (run_lines_sat RF G new _ E W v x Hin)].
    rewrite Known; [rewrite (St v x Hin); symmetry; apply Agree|apply Sc; right; apply (in_map fst) in Hin; exact Hin].
    intros w Hw. destruct Sc as (W0 & Nm & _). apply in_split in Hin. destruct Hin as (l1 & l2 & El). rewrite El in W0. apply well_scoped_app in W0. destruct W0 as [_ W0]. cbn [well_scoped] in W0. destruct W0 as (_ & W0 & _).
    specialize (W0 w Hw). apply Nm. apply in_app_or in W0. destruct W0 as [W0|W0]; [right; rewrite El, map_app; apply in_or_app; left; apply in_rev; exact W0|left; exact W0]. }
  assert (Lo' : lets_ok RF G S E' b).
  { intros sg v Hin. destruct (Lo sg v Hin) as (x & Hx & Sx & Ex). exists x. split; [exact Hx|]. split; [exact Sx|]. rewrite !Agree; [exact Ex|exact (incl_tran (Rv x Hx) Vn)|]. destruct Sc as (_ & _ & Sl). exact (Sl sg v Hin). }
  destruct (compute_value RF G S E' Fa e b y b' C Se) as [_ V]. destruct (V Sat' Lo') as [V1 V2].
  split; [split; [exact Sc'|split; [exact Sat'|exact V2]]|]. split; [rewrite V1; apply Agree; exact (incl_tran Ve Vn)|]. split; [split; [exact Q1|split; [exact Q2|exact Q3]]|]. split; [exact Known|]. split; [exact Vy|exact Vb].
Qed.

Definition binds (ins : list string) (E J : interp RF) : Prop := same_rest E J /\ forall v, In v ins -> iv J v = iv E v.
Lemma binds_agree : forall ins E J, binds ins E J -> agree ins E J.
Proof. intros ins E J ((A & B & C) & D). split; [exact A|]. split; [exact C|exact D]. Qed.
Lemma binds_eval : forall ins E J e, binds ins E J -> incl (vars e) ins -> @eval RF G J e = eval E e.
Proof. intros ins E J e ((A & B & C) & D) V. apply eval_agree; [intros v Hv; apply D, V, Hv|exact A|exact B|exact C]. Qed.
Lemma rep_env : forall ins S E J, iother J = iother E -> rep ins S E -> rep ins S J.
Proof. intros ins S E J H [A B]. split; [exact A|]. intros K HK. apply B. congruence. Qed.
Lemma subs_self : forall e : exp, In e (subs e). Proof. intros [o l sg]. left. reflexivity. Qed.

(** What the stores do to the arrays (FFTModel.v). *)
Definition mem_after (cx add : bool) (ks : list nat) (ws : list R) (y : list RC) (x : list R) : res (list RC * list R) :=
  if cx then y' <- sets y ks (thickv ws) ;; Ok (y', x) else x' <- setxs R_ops add x ks ws ;; Ok (y, x').
Lemma one_compute : forall e g y g', g_compute G e g = Ok (y, g') -> forall ins S s, (forall t, In t (g_told G g') -> incl (subs t) S) -> rep ins S (env s) -> binv ins S (env s) (g_blk G g) ->
  exists d s', g_out G g' = g_out G g ++ d /\ run d s = Some s' /\ ym s' = ym s /\ xm s' = xm s /\ binv ins S (env s') (g_blk G g') /\ eval (env s') y = eval (env s) e /\
    binds (names G (g_blk G g)) (env s) (env s') /\ incl (vars y) (names G (g_blk G g')) /\ incl (names G (g_blk G g)) (names G (g_blk G g')).
Proof.
  intros e g y g' H ins S s HS R B. apply compute_inv in H. destruct H as (C & Cs & T & _ & new & L & D).
  assert (Se : incl (subs e) S) by (apply HS; rewrite T; apply in_or_app; right; left; reflexivity).
  destruct (compute_run ins S (env s) e _ _ _ new C L R Se B) as (B' & V & Sr & Kn & Vy & Nb).
  exists (map (fun p : string * exp => SLet G (fst p) (snd p)) new), {| env := run_lines new (env s); ym := ym s; xm := xm s |}. cbn [env ym xm].
  split; [exact D|]. split; [apply run_lets|]. repeat (split; [reflexivity || assumption|]). split; [split; assumption|]. split; assumption.
Qed.
Lemma d_unique : forall (a : list (stmt G)) d d', a ++ d = a ++ d' -> d = d'. Proof. intros a d d' H. apply app_inv_head in H. exact H. Qed.
Lemma binds_ins : forall ins E J b, scoped_b G ins b -> binds (names G b) E J -> binds ins E J.
Proof. intros ins E J b (_ & N & _) (A & B). split; [exact A|]. intros v Hv. apply B, N. left. exact Hv. Qed.
Lemma binds_trans : forall ins a b c, binds ins a b -> binds ins b c -> binds ins a c.
Proof. intros ins a b c ((A1 & A2 & A3) & A4) ((B1 & B2 & B3) & B4). split; [repeat split; congruence|]. intros v Hv. rewrite B4, A4; auto. Qed.

Ltac inv_x H a g1 H1 := apply xbind_inv in H; destruct H as (a & g1 & H1 & H).
(** One store: the static part and the effect. *)
Definition stores (cx add : bool) (l : loc G) (ys : list exp) (g g' : gen) : Prop :=
  g_cse G g' = g_cse G g /\ g_diff G g' = g_diff G g /\ incl (g_told G g) (g_told G g') /\
  (forall V, Forall (ve G V) ys -> (forall t, In t (g_told G g) -> ve G V t) -> forall t, In t (g_told G g') -> ve G V t) /\
  exists d, g_out G g' = g_out G g ++ d /\
  forall ins S E0 s k y' x', (forall t, In t (g_told G g') -> incl (subs t) S) -> rep ins S E0 -> binds ins E0 (env s) -> binv ins S (env s) (g_blk G g) -> at_idx ins E0 l k -> Forall (ve G ins) ys ->
    mem_after cx add [k] (map (eval E0) ys) (ym s) (xm s) = Ok (y', x') ->
    exists s', run d s = Some s' /\ ym s' = y' /\ xm s' = x' /\ binds ins E0 (env s') /\ binv ins S (env s') (g_blk G g').
Lemma run_snoc : forall d t s s1 s2, run d s = Some s1 -> step G t s1 = Some s2 -> run (d ++ [t]) s = Some s2.
Proof. intros d t s s1 s2 H1 H2. rewrite run_app, H1. cbn [GenRun.run]. rewrite H2. reflexivity. Qed.
Lemma loc_set_run : forall lr cx l ys g u g', loc_set G lr l ys g = Ok (u, g') -> l_cx G l = cx -> length ys = width G l -> Forall (@wfe G) ys -> stores cx (l_add G l) l ys g g'.
Proof.
  intros lr cx l ys g u g' H Hcx Ly Wy. unfold loc_set in H. unfold width in Ly. rewrite Hcx in *. destruct cx.
  - destruct ys as [|a [|b [|? ?]]]; try discriminate Ly.
    assert (Main : exists a' b' g1 g2, ((g_compute G a g = Ok (a', g1) /\ g_compute G b g1 = Ok (b', g2)) \/ (g_compute G b g = Ok (b', g1) /\ g_compute G a g1 = Ok (a', g2))) /\ emit G (SSetY G (l_idx G l) a' b') g2 = Ok (u, g')).
    { destruct lr; inv_x H a' g1 H1; inv_x H b' g2 H2; [exists a', b', g1, g2|exists b', a', g1, g2]; auto. }
    destruct Main as (a' & b' & g1 & g2 & Cs & He). apply emit_inv in He. destruct He as (e1 & e2 & e3 & e4 & e5).
    assert (St : g_cse G g2 = g_cse G g /\ g_diff G g2 = g_diff G g /\ exists t1 t2, g_told G g2 = (g_told G g ++ [t1]) ++ [t2] /\ g_told G g1 = g_told G g ++ [t1] /\ (t1 = a /\ t2 = b \/ t1 = b /\ t2 = a) /\ exists n1 n2, g_out G g1 = g_out G g ++ n1 /\ g_out G g2 = g_out G g1 ++ n2).
    { destruct Cs as [[C1 C2]|[C1 C2]]; apply compute_inv in C1; apply compute_inv in C2; destruct C1 as (_ & c1 & c2 & c3 & n1 & _ & c4); destruct C2 as (_ & d1 & d2 & d3 & n2 & _ & d4);
        (split; [congruence|]; split; [congruence|]; eexists; eexists; split; [rewrite d2, c2; reflexivity|]; split; [exact c2|]; split; [auto|eauto]). }
    destruct St as (s1 & s2 & t1 & t2 & s3 & s4 & s5 & n1 & n2 & o1 & o2). unfold stores.
    split; [congruence|]. split; [congruence|]. rewrite e4, s3. split; [intros x Hx; apply in_or_app; left; apply in_or_app; left; exact Hx|]. split.
    { intros V Fy Ft t Ht. pose proof (Forall_inv Fy) as Fa. pose proof (Forall_inv (Forall_inv_tail Fy)) as Fb. apply in_app_or in Ht. destruct Ht as [Ht|[<-|[]]]; [apply in_app_or in Ht; destruct Ht as [Ht|[<-|[]]]; [exact (Ft t Ht)|]|]; destruct s5 as [[-> ->]|[-> ->]]; assumption. }
    exists ((n1 ++ n2) ++ [SSetY G (l_idx G l) a' b']). split; [rewrite e3, o2, o1, !app_assoc; reflexivity|].
    intros ins S E0 s k y' x' HS R Bi B Hk Fv Hm. pose proof (Forall_inv Fv) as Va. pose proof (Forall_inv (Forall_inv_tail Fv)) as Vb. clear Fv.
    assert (Run : exists s', run (n1 ++ n2) s = Some s' /\ ym s' = ym s /\ xm s' = xm s /\ binv ins S (env s') (g_blk G g2) /\ binds ins E0 (env s') /\ eval (env s') a' = eval E0 a /\ eval (env s') b' = eval E0 b).
    { assert (HS1 : forall t, In t (g_told G g1) -> incl (subs t) S) by (intros t Ht; apply HS; rewrite s4 in Ht; apply in_or_app; left; exact Ht).
      assert (HS2 : forall t, In t (g_told G g2) -> incl (subs t) S) by (intros t Ht; apply HS; rewrite s3 in Ht; exact Ht).
      assert (Rs : rep ins S (env s)) by (apply (rep_env _ _ E0); [apply Bi|exact R]).
      destruct Cs as [[C1 C2]|[C1 C2]];
      (destruct (one_compute _ _ _ _ C1 ins S s HS1 Rs B) as (d1 & sa & D1 & R1 & Y1 & X1 & B1 & V1 & K1 & In1 & Nn1);
       assert (Ra : rep ins S (env sa)) by (apply (rep_env _ _ (env s)); [apply K1|exact Rs]);
       destruct (one_compute _ _ _ _ C2 ins S sa HS2 Ra B1) as (d2 & sb & D2 & R2 & Y2 & X2 & B2 & V2 & K2 & In2 & Nn2);
       rewrite o1 in D1; apply d_unique in D1; rewrite o2 in D2; apply d_unique in D2; subst d1 d2;
       assert (Ba : binds ins E0 (env sa)) by (apply (binds_trans _ _ (env s)); [exact Bi|apply (binds_ins _ _ _ (g_blk G g)); [apply B|exact K1]]);
       assert (Bb : binds ins E0 (env sb)) by (apply (binds_trans _ _ (env sa)); [exact Ba|apply (binds_ins _ _ _ (g_blk G g1)); [apply B1|exact K2]]);
       exists sb; split; [rewrite run_app, R1; exact R2|]; split; [congruence|]; split; [congruence|]; split; [exact B2|]; split; [exact Bb|]).
      - split; [rewrite (binds_eval _ _ _ _ K2 In1), V1; apply (binds_eval ins); assumption|rewrite V2; apply (binds_eval ins); assumption].
      - split; [rewrite V2; apply (binds_eval ins); assumption|rewrite (binds_eval _ _ _ _ K2 In1), V1; apply (binds_eval ins); assumption]. }
    destruct Run as (s' & R1 & Y1 & X1 & B1 & Bb & Ea & Eb). cbn [mem_after map thickv sets] in Hm. unfold aset in Hm. destruct ((k <? length (ym s))%nat) eqn:Lk; cbn [bind] in Hm; [|discriminate]. injection Hm as <- <-.
    exists {| env := env s'; ym := GenRun.upd (ym s) k (eval E0 a, eval E0 b); xm := xm s |}. cbn [env ym xm].
    split; [apply (run_snoc _ _ _ s'); [exact R1|]; cbn [step]; rewrite (Hk (env s') (binds_agree _ _ _ Bb)), as_nat_INR, Y1, Lk, X1, Ea, Eb; reflexivity|].
    split; [reflexivity|]. split; [reflexivity|]. split; [exact Bb|]. rewrite e2. exact B1.
  - destruct ys as [|a [|? ?]]; try discriminate Ly. pose proof (Forall_inv Wy) as Wa.
    assert (Main : exists c neg v g1, g_compute G c g = Ok (v, g1) /\ emit G (SSetX G (l_idx G l) (l_add G l, neg) v) g1 = Ok (u, g') /\
              (forall V, ve G V a -> ve G V c) /\ (forall J, @eval RF G J a = if neg then (- eval J c)%R else eval J c) /\ (neg = true -> l_add G l = true)).
    { destruct (l_add G l).
      - inv_x H un g1 H1. apply lift_inv in H1. destruct H1 as [Hu ->]. destruct un as [na|].
        + inv_x H v g2 H2. exists na, true, v, g2. split; [exact H2|]. split; [exact H|]. split; [intros V Va; exact (unneg_ve G V a na Va Hu)|]. split; [|reflexivity].
          intros J. destruct (unneg_spec RF G J HL a Wa) as [(x & Hx & _ & _ & _ & Vx)|(Hn & _)]; [rewrite Hu in Hx; injection Hx as <-; exact Vx|rewrite Hu in Hn; discriminate].
        + inv_x H v g2 H2. exists a, false, v, g2. auto 10.
      - inv_x H v g2 H2. exists a, false, v, g2. repeat split; auto. }
    destruct Main as (c & neg & v & g1 & Hc & He & Hv & Hev & Hneg). apply emit_inv in He. destruct He as (e1 & e2 & e3 & e4 & e5). pose proof Hc as Hc'. apply compute_inv in Hc. destruct Hc as (_ & c1 & c2 & c3 & new & _ & c4). unfold stores.
    split; [congruence|]. split; [congruence|]. rewrite e4, c2. split; [intros x Hx; apply in_or_app; left; exact Hx|]. split.
    { intros V Fy Ft t Ht. apply in_app_or in Ht. destruct Ht as [Ht|[<-|[]]]; [exact (Ft t Ht)|]. apply Hv. exact (Forall_inv Fy). }
    eexists. split; [rewrite e3, c4, <- app_assoc; reflexivity|].
    intros ins S E0 s k y' x' HS Rp Bi B Hk Fv Hm. pose proof (Forall_inv Fv) as Va. clear Fv.
    assert (HS1 : forall t, In t (g_told G g1) -> incl (subs t) S) by (intros t Ht; apply HS; rewrite c2 in Ht; exact Ht).
    assert (Rs : rep ins S (env s)) by (apply (rep_env _ _ E0); [apply Bi|exact Rp]).
    destruct (one_compute _ _ _ _ Hc' ins S s HS1 Rs B) as (d1 & s' & D1 & R1 & Y1 & X1 & B1 & V1 & K1 & In1 & Nn1). rewrite c4 in D1. apply d_unique in D1. subst d1.
    assert (Bb : binds ins E0 (env s')) by (apply (binds_trans _ _ (env s)); [exact Bi|apply (binds_ins _ _ _ (g_blk G g)); [apply B|exact K1]]).
    assert (Ec : eval (env s') v = eval E0 c) by (rewrite V1; apply (binds_eval ins); [exact Bi|apply Hv, Va]).
    cbn [mem_after map setxs] in Hm. unfold setx, aget, aset in Hm. change (A R_ops) with Rdefinitions.R in *.
    destruct ((k <? length (xm s))%nat) eqn:Lk.
    + pose proof Lk as Lk'. apply Nat.ltb_lt in Lk'. destruct (nth_error (xm s) k) as [o|] eqn:No; [|apply nth_error_None in No; lia]. cbn [bind] in Hm. injection Hm as <- <-.
      eexists {| env := env s'; ym := ym s; xm := _ |}. cbn [env ym xm]. split.
      { apply (run_snoc _ _ _ s'); [exact R1|]. cbn [step]. rewrite (Hk (env s') (binds_agree _ _ _ Bb)), as_nat_INR, X1, Lk, Y1. rewrite (nth_error_nth _ _ 0%R No). reflexivity. }
      split; [reflexivity|]. split; [|split; [exact Bb|rewrite e2; exact B1]]. change (@GenRun.upd) with (@FFTModel.upd). f_equal. rewrite Ec, (Hev E0). destruct (l_add G l); [|destruct neg; [discriminate (Hneg eq_refl)|reflexivity]]. destruct neg; reflexivity.
    + cbn [bind] in Hm. injection Hm as <- <-. eexists {| env := env s'; ym := ym s; xm := _ |}. cbn [env ym xm]. split.
      { apply (run_snoc _ _ _ s'); [exact R1|]. cbn [step]. rewrite (Hk (env s') (binds_agree _ _ _ Bb)), as_nat_INR, X1, Lk, Y1. reflexivity. }
      split; [reflexivity|]. split; [reflexivity|]. split; [exact Bb|rewrite e2; exact B1].
Qed.
Lemma mem_after_cons : forall (cx add : bool) k ks ws y x r, ((if cx then 2 else 1) <= length ws)%nat -> mem_after cx add (k :: ks) ws y x = Ok r ->
  exists y1 x1, mem_after cx add [k] (firstn (if cx then 2 else 1)%nat ws) y x = Ok (y1, x1) /\ mem_after cx add ks (skipn (if cx then 2 else 1)%nat ws) y1 x1 = Ok r.
Proof.
  intros cx add k ks ws y x r L H. unfold mem_after in *. destruct cx.
  - destruct ws as [|a [|b t]]; cbn [length] in L; try lia. cbn [firstn skipn thickv sets] in *. destruct (aset y k (a, b)) as [y1| |] eqn:E; cbn [bind] in H; try discriminate. exists y1, x. cbn [bind]. split; [reflexivity|exact H].
  - destruct ws as [|a t]; cbn [length] in L; try lia. cbn [firstn skipn setxs] in *. destruct (setx R_ops add x k a) as [x1| |] eqn:E; cbn [bind] in H; try discriminate. exists y, x1. cbn [bind]. split; [reflexivity|exact H].
Qed.
Lemma firstn_in : forall A (l : list A) n x, In x (firstn n l) -> In x l.
Proof. intros A l n x H. rewrite <- (firstn_skipn n l). apply in_or_app. left. exact H. Qed.
Lemma skipn_in : forall A (l : list A) n x, In x (skipn n l) -> In x l.
Proof. intros A l n x H. rewrite <- (firstn_skipn n l). apply in_or_app. right. exact H. Qed.
Lemma sets_run : forall lr cx add ls ys g u g', sets_all G lr ls ys g = Ok (u, g') -> Forall (fun l => l_cx G l = cx /\ l_add G l = add) ls -> length ys = total G ls -> Forall (@wfe G) ys ->
  g_cse G g' = g_cse G g /\ g_diff G g' = g_diff G g /\ incl (g_told G g) (g_told G g') /\
  (forall V, Forall (ve G V) ys -> (forall t, In t (g_told G g) -> ve G V t) -> forall t, In t (g_told G g') -> ve G V t) /\
  exists d, g_out G g' = g_out G g ++ d /\
  forall ins S E0 s ks y' x', (forall t, In t (g_told G g') -> incl (subs t) S) -> rep ins S E0 -> binds ins E0 (env s) -> binv ins S (env s) (g_blk G g) -> Forall2 (at_idx ins E0) ls ks -> Forall (ve G ins) ys ->
    mem_after cx add ks (map (eval E0) ys) (ym s) (xm s) = Ok (y', x') -> exists s', run d s = Some s' /\ ym s' = y' /\ xm s' = x'.
Proof.
  intros lr cx add. induction ls as [|l ls IH]; intros ys g u g' H Hl Ly Wy; cbn [sets_all] in H.
  - injection H as _ <-. split; [reflexivity|]. split; [reflexivity|]. split; [apply incl_refl|]. split; [auto|]. exists []. split; [rewrite app_nil_r; reflexivity|].
    intros ins S E0 s ks y' x' _ _ _ _ Hk _ Hm. inversion Hk; subst. cbn [total fold_right] in Ly. destruct ys; [|discriminate Ly]. exists s. split; [reflexivity|]. destruct cx; cbn in Hm; injection Hm as <- <-; auto.
  - inv_x H u1 g1 H1. destruct (Forall_inv Hl) as [Hcx Ha]. apply Forall_inv_tail in Hl. cbn [total fold_right] in Ly. fold (total G ls) in Ly.
    assert (Wl : width G l = if cx then 2%nat else 1%nat) by (unfold width; rewrite Hcx; reflexivity).
    assert (W1 : Forall (@wfe G) (firstn (width G l) ys)) by (apply Forall_forall; intros x Hx; apply firstn_in in Hx; rewrite Forall_forall in Wy; exact (Wy x Hx)).
    assert (W2 : Forall (@wfe G) (skipn (width G l) ys)) by (apply Forall_forall; intros x Hx; apply skipn_in in Hx; rewrite Forall_forall in Wy; exact (Wy x Hx)).
    destruct (loc_set_run lr cx l _ g u1 g1 H1 Hcx ltac:(rewrite firstn_length; lia) W1) as (a1 & a2 & a3 & a4 & d1 & a5 & a6). rewrite Ha in a6.
    destruct (IH _ g1 u g' H Hl ltac:(rewrite skipn_length; lia) W2) as (b1 & b2 & b3 & b4 & d2 & b5 & b6).
    split; [congruence|]. split; [congruence|]. split; [exact (incl_tran a3 b3)|]. split.
    { intros V Fy Ft. apply b4; [apply Forall_forall; intros x Hx; apply skipn_in in Hx; rewrite Forall_forall in Fy; exact (Fy x Hx)|].
      apply a4; [apply Forall_forall; intros x Hx; apply firstn_in in Hx; rewrite Forall_forall in Fy; exact (Fy x Hx)|exact Ft]. }
    exists (d1 ++ d2). split; [rewrite b5, a5, app_assoc; reflexivity|].
    intros ins S E0 s ks y' x' HS Rp Bi B Hk Fv Hm. inversion Hk as [|? k ? ks' Hk1 Hk2]; subst ks.
    assert (Lm : ((if cx then 2 else 1) <= length (map (eval E0) ys))%nat) by (rewrite map_length, <- Wl; lia).
    destruct (mem_after_cons cx add k ks' _ _ _ _ Lm Hm) as (y1 & x1 & M1 & M2). rewrite firstn_map, <- Wl in M1. rewrite skipn_map, <- Wl in M2.
    destruct (a6 ins S E0 s k y1 x1) as (s1 & R1 & Y1 & X1 & Bi1 & B1); try assumption.
    { intros t Ht. apply HS, b3, Ht. }
    { apply Forall_forall; intros q Hq; apply firstn_in in Hq; rewrite Forall_forall in Fv; exact (Fv q Hq). }
    destruct (b6 ins S E0 s1 ks' y' x') as (s2 & R2 & Y2 & X2); try assumption.
    { apply Forall_forall; intros q Hq; apply skipn_in in Hq; rewrite Forall_forall in Fv; exact (Fv q Hq). }
    { rewrite Y1, X1. exact M2. }
    exists s2. split; [rewrite run_app, R1; exact R2|auto].
Qed.
Lemma uses_run : forall ys g r g', xmap G (g_use G) ys g = Ok (r, g') ->
  g_cse G g' = g_cse G g /\ names G (g_blk G g') = names G (g_blk G g) /\ lets G (g_blk G g') = lets G (g_blk G g) /\ lines G (g_blk G g') = lines G (g_blk G g) /\
  g_out G g' = g_out G g /\ g_told G g' = g_told G g ++ ys /\ g_diff G g' = g_diff G g.
Proof.
  induction ys as [|y ys IH]; intros g r g' H; cbn [xmap] in H; [injection H as _ <-; rewrite app_nil_r; auto 10|].
  inv_x H u g1 H1. inv_x H t g2 H2. injection H as _ <-. apply use_inv in H1. destruct H1 as (a1 & a2 & a3 & a4 & a5 & a6 & a7). apply IH in H2. destruct H2 as (b1 & b2 & b3 & b4 & b5 & b6 & b7).
  rewrite b6, a6, <- app_assoc. repeat (split; [congruence || reflexivity|]). congruence.
Qed.
Lemma subs_vars : forall (e x : exp), In x (subs e) -> incl (vars x) (vars e).
Proof.
  intros e. induction e as [o l sg IH] using (@exp_ind' G). intros x [<-|Hx]; [apply incl_refl|]. cbn [subs] in Hx. apply in_flat_map in Hx. destruct Hx as (a & Ha & Hx).
  rewrite Forall_forall in IH. intros v Hv. apply (IH a Ha x Hx) in Hv. cbn [vars]. apply in_or_app. right. apply in_flat_map. exists a. auto.
Qed.
(** The end of [forward]: uses and stores. *)
Lemma tail_run : forall lr cx add ls ys g u g',
  xbind G (of_m G (lift G (slow_assert (length ys =? total G ls)%nat))) (fun _ => xbind G (xmap G (g_use G) ys) (fun _ => sets_all G lr ls ys)) g = Ok (u, g') ->
  Forall (fun l => l_cx G l = cx /\ l_add G l = add) ls -> Forall (@wfe G) ys -> lines G (g_blk G g) = [] -> lets G (g_blk G g) = [] -> g_told G g = [] -> Forall (ve G (names G (g_blk G g))) ys ->
  g_cse G g' = g_cse G g /\ g_diff G g' = g_diff G g /\ exists d, g_out G g' = g_out G g ++ d /\
  forall s ks y' x', (forall J, iother J = iother (env s) -> faithful RF G (flat_map subs (g_told G g')) J) -> Forall2 (at_idx (names G (g_blk G g)) (env s)) ls ks ->
    mem_after cx add ks (map (eval (env s)) ys) (ym s) (xm s) = Ok (y', x') -> exists s', run d s = Some s' /\ ym s' = y' /\ xm s' = x'.
Proof.
  intros lr cx add ls ys g u g' H Hl Wy Ln Le Te Vy. inv_x H u0 g0 H0. apply lift_inv in H0. destruct H0 as [H0 ->]. unfold slow_assert in H0. destruct (Nat.eqb_spec (length ys) (total G ls)) as [L|]; [|discriminate].
  inv_x H u1 g1 H1. apply uses_run in H1. destruct H1 as (a1 & a2 & a3 & a4 & a5 & a6 & a7). rewrite Te in a6. cbn [app] in a6.
  destruct (sets_run lr cx add ls ys g1 u g' H Hl L Wy) as (b1 & b2 & b3 & b4 & d & b5 & b6).
  split; [congruence|]. split; [congruence|]. exists d. split; [congruence|]. intros s ks y' x' Hf Hk Hm.
  apply (b6 (names G (g_blk G g)) (flat_map subs (g_told G g')) (env s) s ks y' x').
  - intros t Ht x Hx. apply in_flat_map. exists t. auto.
  - split; [|exact Hf]. intros x Hx. apply in_flat_map in Hx. destruct Hx as (t & Ht & Hx). apply (incl_tran (subs_vars t x Hx)). apply (b4 (names G (g_blk G g)) Vy); [|exact Ht].
    intros t' Ht'. rewrite a6 in Ht'. rewrite Forall_forall in Vy. exact (Vy t' Ht').
  - split; [repeat split|auto].
  - split; [|split].
    + unfold scoped_b. rewrite a4, a3, a2, Ln, Le. cbn. split; [exact Logic.I|]. split; [intros n; tauto|intros ? ? []].
    + intros v e Hin. rewrite a4, Ln in Hin. destruct Hin.
    + intros sg v Hin. rewrite a3, Le in Hin. destruct Hin.
  - exact Hk.
  - exact Vy.
  - exact Hm.
Qed.
End Prog.
