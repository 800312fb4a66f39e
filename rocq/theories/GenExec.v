(** The generated loop bodies, run as programs, do one iteration of the butterflies of FFTModel.v. *)
From Coq Require Import String ZArith List Bool Lia Reals Lra.
From Verif Require Import Base Field FieldInst ExpModel ExpProofs BlockProofs GradSpec GradProofs GenModel FFTModel FFTMath GenProofs GenBack GenRun GenScope GenProg.
Import ListNotations.
Open Scope Z_scope.
(* Conversion compares [xbind]s before running them. *)
Local Strategy 1000 [xbind].

Section Exec.
Variables (G : SigOps) (HL : SigLaws G) (sh_text : string) (sh_sig : G) (tw_text : Z -> nat -> string * string) (draw : string -> G).
Variables (lr : bool) (fuel : nat) (unknown : exp G).
Hypothesis Wunk : wfe unknown.
Notation exp := (exp G).
Notation gen := (gen G).
Notation run := (run G).
Ltac inv_x H a g1 H1 := apply xbind_inv in H; destruct H as (a & g1 & H1 & H).

(** Nothing goes wrong with signatures, in any environment with the same constants. *)
Definition sound (I : interp RF) (g : gen) : Prop :=
  forall J, iother J = iother I -> no_collision J (lg G (g_cse G g)) /\ faithful RF G (flat_map subs (g_told G g)) J.
(** The circuits that were differentiated. *)
Definition circuits (ok : list exp -> list exp -> Prop) (g : gen) : Prop :=
  forall pxs pys, In (pxs, pys) (g_diff G g) -> circuit pys /\ apart G pxs pys /\ ok pxs pys /\ (length (nodes pys) <= fuel)%nat.

(** The text does not name [unknown], which stands for derivatives not implemented (exp.cc:226).
    C++ that does would not compile. *)
Definition declared (g : gen) : Prop := forall e v, In e (g_told G g) -> In v (vars unknown) -> ~ In v (vars e).

Lemma mspec_out : forall A (m : M G A) J P Q st r st', mspec RF G J m P Q -> Inv st -> m st = Ok (r, st') -> Inv st' /\ ExpProofs.ext st st' /\ P r /\ (no_collision J (lg G st') -> Q r).
Proof. intros A m J P Q st r st' H Hi E. destruct (H st Hi) as (r1 & st1 & E1 & A1 & A2 & _ & A3 & A4). rewrite E in E1. injection E1 as <- <-. auto. Qed.
Lemma nocol_ext : forall (J : interp RF) (a b : cst G), ExpProofs.ext a b -> no_collision J (lg G b) -> no_collision J (lg G a).
Proof. intros J a b H N. eapply nocol_incl; [apply H|exact N]. Qed.
Lemma vk_out : forall V A (m : M G A) (P : A -> Prop) st r st', vk G V m P -> tabv G V st -> m st = Ok (r, st') -> tabv G V st' /\ P r.
Proof. intros V A m P st r st' H T E. exact (H st r st' T E). Qed.

(** ** Places *)
Definition lname (cx : bool) (i : nat) : string := ((if cx then "y" else "x") ++ decimal i)%string.
Lemma locs_ok : forall J cx add n k j dj, wfe j -> wfe dj -> (k + n <= 9)%nat ->
  mspec RF G J (locs_from G cx add k n j dj) (fun ls => Forall (fun l => l_cx G l = cx /\ l_add G l = add) ls /\ map (l_name G) ls = map (lname cx) (seq k n) /\ length ls = n)
    (fun ls => map (fun l => eval J (l_idx G l)) ls = map (fun i => (eval J j + IZR (Z.of_nat i) * eval J dj)%R) (seq k n)).
Proof.
  intros J cx add. induction n as [|n IH]; intros k j dj Wj Wd Hk; cbn [locs_from]; [apply mspec_ret; [split; [constructor|auto]|reflexivity]|].
  eapply mspec_bind; [apply (s_times G J HL tw_text); [lia|exact Wd]|]. intros d Wd'.
  eapply mspec_bind; [eapply mspec_espec; apply (add_spec RF G J HL); eassumption|]. intros i Wi. cbv beta.
  eapply mspec_bind; [apply (IH (S k) j dj Wj Wd); lia|]. cbv beta. intros t (T1 & T2 & T3). apply mspec_ret.
  - split; [constructor; [auto|exact T1]|]. cbn [map seq length l_name]. rewrite T2, T3. auto.
  - intros Et Ei Ed. cbn [map seq l_idx]. rewrite Et, Ei, Ed. reflexivity.
Qed.
Definition vnames (n : nat) : list string := map (lname true) (seq 0 n).
Definition xnames (n : nat) : list string := map (lname false) (seq 0 n).
Definition pnames (n : nat) : list string := map (fun i => ("px" ++ decimal i)%string) (seq 0 n).
Lemma mem_cx : forall y x ks w y', sets y ks w = Ok y' -> mem_after true false ks (flatv w) y x = Ok (y', x).
Proof. intros y x ks w y' H. unfold mem_after. assert (E : thickv (flatv w) = w) by (clear; induction w as [|[a b] w IH]; [reflexivity|cbn; rewrite IH; reflexivity]). rewrite E. change (A R_ops) with R in *. rewrite H. reflexivity. Qed.
Lemma thick_flat : forall w, thickv (flatv w) = w. Proof. induction w as [|[a b] w IH]; [reflexivity|cbn; rewrite IH; reflexivity]. Qed.
Lemma at_idx_all : forall ns E ls (f : nat -> nat) n, length ls = n -> (forall J, agree ns E J -> map (fun l => eval J (l_idx G l)) ls = map (fun i => IZR (Z.of_nat (f i))) (seq 0 n)) ->
  Forall2 (at_idx G ns E) ls (map f (seq 0 n)).
Proof.
  intros ns E ls f n <-. generalize 0%nat. induction ls as [|l ls IH]; intros k H; cbn [length seq map]; [constructor|]. constructor.
  - intros J HJ. specialize (H J HJ). cbn in H. injection H as H _. exact H.
  - apply IH. intros J HJ. specialize (H J HJ). cbn in H. injection H as _ H. exact H.
Qed.
Lemma gets_all : forall (X : Type) (l : list X) ks vs, gets l ks = Ok vs -> Forall2 (fun k c => nth_error l k = Some c) ks vs.
Proof.
  intros X l. induction ks as [|k ks IH]; intros vs H; cbn [gets] in H; [injection H as <-; constructor|]. unfold aget in H. destruct (nth_error l k) as [v|] eqn:E; [|discriminate]. cbn [bind] in H.
  destruct (gets l ks) as [r| |]; try discriminate. injection H as <-. constructor; [exact E|apply IH; reflexivity].
Qed.
Lemma cinputs_vars : forall V ns, incl ns V -> Forall (ve G V) (cinputs G draw ns).
Proof.
  intros V. induction ns as [|n ns IH]; intros H; [apply Forall_nil|]. unfold cinputs. cbn [flat_map]. assert (Hn : ve G V (mkvar n (draw n))) by (apply ve_var, H; left; reflexivity).
  apply Forall_app. split; [|apply IH; intros x Hx; apply H; right; exact Hx]. unfold cinput. repeat (apply Forall_cons; [apply ve_node; [discriminate|constructor; [exact Hn|constructor]]|]). apply Forall_nil.
Qed.
Lemma rinputs_vars : forall V ns, incl ns V -> Forall (ve G V) (rinputs G draw ns).
Proof. intros V ns H. unfold rinputs. apply Forall_forall. intros e He. apply in_map_iff in He. destruct He as (n & <- & Hn). apply ve_var, H, Hn. Qed.

(** Placeholder inputs for the backward direction, codelets.cc:608-609. *)
Definition placeholder (p : nat * loc G) : X G (list exp) :=
  xbind G (g_input G draw ("px" ++ decimal (fst p))%string) (fun v => if l_cx G (snd p) then xbind G (of_m G (GenModel.split G lr v)) (fun z => xret G [fst z; snd z]) else xret G [v]).
Lemma placeholders : forall cx ls k g r g', xmap G placeholder (combine (seq k (length ls)) ls) g = Ok (r, g') -> Forall (fun l => l_cx G l = cx) ls ->
  let ns := map (fun i => ("px" ++ decimal i)%string) (seq k (length ls)) in
  concat r = (if cx then cinputs G draw ns else rinputs G draw ns) /\ phase_a G g g' ns /\ g_out G g' = g_out G g /\ (forall n, In n ns -> ~ In n (names G (g_blk G g))).
Proof.
  intros cx. induction ls as [|l ls IH]; intros k g r g' H Hc; cbn [length seq combine xmap] in H.
  - injection H as <- <-. cbn. split; [destruct cx; reflexivity|]. split; [unfold phase_a; cbn; auto 10|]. split; [reflexivity|intros n []].
  - inv_x H b g1 H1. inv_x H t g2 H2. injection H as <- <-. pose proof (Forall_inv Hc) as Hl. cbv beta in Hl. apply Forall_inv_tail in Hc. unfold placeholder in H1. cbn [fst snd] in H1. inv_x H1 v ga Ha.
    apply input_inv in Ha. destruct Ha as (-> & b2 & b3 & b4 & b5 & b6 & b7). rewrite Hl in H1.
    assert (K : b = (if cx then cinput G draw ("px" ++ decimal k) else [mkvar ("px" ++ decimal k)%string (draw ("px" ++ decimal k)%string)]) /\ g_cse G g1 = g_cse G ga /\ g_blk G g1 = g_blk G ga /\ g_out G g1 = g_out G ga /\ g_told G g1 = g_told G ga /\ g_diff G g1 = g_diff G ga).
    { destruct cx; [|injection H1 as <- <-; auto 10]. inv_x H1 z gc Hz. injection H1 as <- <-. apply of_m_inv in Hz. destruct Hz as (c1 & c2 & c3 & c4 & c5). apply split_inv in c1. destruct c1 as [c1 Ez]. auto 10. }
    destruct K as (-> & k1 & k2 & k3 & k4 & k5). destruct (IH (S k) g1 t g2 H2 Hc) as (R1 & (P1 & P2 & P3 & P4 & P5 & P6) & O1 & Fr).
    assert (N1 : names G (g_blk G g1) = ("px" ++ decimal k)%string :: names G (g_blk G g)) by (rewrite k2, b4; reflexivity).
    split; [cbn [concat map]; rewrite R1; destruct cx; reflexivity|]. split.
    { unfold phase_a. rewrite P1, P2, P3, P4, P5, P6, N1, k1, k4, k5, b3, b6, b7, k2, b4. cbn [lets lines map rev length seq]. rewrite <- app_assoc. auto 10. }
    split; [congruence|]. intros n [<-|Hn]; [exact b2|]. intros Q. apply (Fr n Hn). rewrite N1. right. exact Q.
Qed.

(** ** The levels after the first *)
Notation body_s := (body_s G sh_text sh_sig draw lr fuel unknown).
Notation j1v := (mkvar "j1"%string (draw "j1"%string)).
Notation comp_s := (fun r ys => of_m G (gen_s G sh_text sh_sig lr r j1v ys)).
Lemma inv0 : Inv (g_cse G (gen0 G)). Proof. intros s e []. Qed.
Ltac input_step H v g1 := let H1 := fresh in inv_x H v g1 H1; apply input_inv in H1; destruct H1 as (-> & _ & ? & ? & ? & ? & ?).
Lemma names_s : forall r nm nj1 nj0, (1 <= r <= 3)%nat -> let N := ["s"; "j"; "n" ++ decimal (2 ^ (r + 1)); "y"; "xn"; "x"]%string in
  fresh_from (S (length N)) 0 "m" N = Ok nm -> fresh_from (S (length (nm :: N))) 0 "j1" (nm :: N) = Ok nj1 -> fresh_from (S (length (nj1 :: nm :: N))) 0 "j0" (nj1 :: nm :: N) = Ok nj0 -> nm = "m"%string /\ nj1 = "j1"%string /\ nj0 = "j0"%string.
Proof.
  intros r nm nj1 nj0 Hr N. assert (C : r = 1%nat \/ r = 2%nat \/ r = 3%nat) by lia.
  assert (E1 : fresh_from (S (length N)) 0 "m" N = Ok "m"%string) by (unfold N; destruct C as [-> | [-> | ->]]; reflexivity). rewrite E1. intros Q. injection Q as <-.
  assert (E2 : fresh_from (S (length ("m"%string :: N))) 0 "j1" ("m"%string :: N) = Ok "j1"%string) by (unfold N; destruct C as [-> | [-> | ->]]; reflexivity). rewrite E2. intros Q. injection Q as <-.
  assert (E3 : fresh_from (S (length ("j1" :: "m" :: N)%string)) 0 "j0" ("j1" :: "m" :: N)%string = Ok "j0"%string) by (unfold N; destruct C as [-> | [-> | ->]]; reflexivity). rewrite E3. intros Q. injection Q as <-. auto.
Qed.
Lemma xmap_inv : forall A B (f : A -> X G B) a l g r g', xmap G f (a :: l) g = Ok (r, g') -> exists b g1 t, f a g = Ok (b, g1) /\ xmap G f l g1 = Ok (t, g').
Proof. intros A B f a l g r g' H. cbn [xmap] in H. inv_x H b g1 H1. inv_x H t g2 H2. injection H as _ <-. eauto. Qed.
Lemma inputs3 : forall a b c g r g', xmap G (g_input G draw) [a; b; c] g = Ok (r, g') -> exists v1 v2 v3 g1 g2, g_input G draw a g = Ok (v1, g1) /\ g_input G draw b g1 = Ok (v2, g2) /\ g_input G draw c g2 = Ok (v3, g').
Proof.
  intros a b c g r g' H. apply xmap_inv in H. destruct H as (v1 & g1 & t1 & H1 & H). apply xmap_inv in H. destruct H as (v2 & g2 & t2 & H2 & H). apply xmap_inv in H. destruct H as (v3 & g3 & t3 & H3 & H).
  injection H as _ <-. exists v1, v2, v3, g1, g2. auto.
Qed.
Lemma prelude_s : forall r fwd g, (1 <= r <= 3)%nat -> body_s r fwd (gen0 G) = Ok (tt, g) -> exists g1 Y,
  way G draw lr fuel unknown fwd Y Y (comp_s r) g1 = Ok (tt, g) /\
  g_out G g1 = [SText G "m" (TPow "s" 0); SText G "j1" (TAnd "j" "m"); SText G "j0" (TSubShl "j" "j1" (Z.of_nat r))]%string /\ g_told G g1 = [] /\ g_diff G g1 = [] /\
  names G (g_blk G g1) = ["j0"; "j1"; "m"; "s"; "j"; "n" ++ decimal (2 ^ (r + 1)); "y"; "xn"; "x"]%string /\ lets G (g_blk G g1) = [] /\ lines G (g_blk G g1) = [] /\
  Inv (g_cse G g1) /\ (forall V, incl ["m"; "j1"; "j0"]%string V -> tabv G V (g_cse G g1)) /\
  Forall (fun l => l_cx G l = true /\ l_add G l = false) Y /\ map (l_name G) Y = vnames (2 ^ r) /\ length Y = (2 ^ r)%nat /\
  (forall J : interp RF, no_collision J (lg G (g_cse G g1)) -> map (fun l => eval J (l_idx G l)) Y = map (fun i => (iv J "j0"%string + iv J "j1"%string + IZR (Z.of_nat i) * iv J "m"%string)%R) (seq 0 (2 ^ r))).
Proof.
  intros r fwd g Hr H. unfold GenModel.body_s in H. inv_x H u0 gg Hx. apply inputs3 in Hx. destruct Hx as (v1 & v2 & v3 & ga & gc & Ha & Hc & He).
  apply input_inv in Ha. destruct Ha as (-> & _ & a1 & a2 & a3 & a4 & a5). apply input_inv in Hc. destruct Hc as (-> & _ & c1 & c2 & c3 & c4 & c5). apply input_inv in He. destruct He as (-> & _ & e1 & e2 & e3 & e4 & e5).
  inv_x H nr g1 H1. apply input_inv in H1. destruct H1 as (-> & _ & f1 & f2 & f3 & f4 & f5). inv_x H j g2 H2. apply input_inv in H2. destruct H2 as (-> & _ & h1 & h2 & h3 & h4 & h5). inv_x H s g3 H3. apply input_inv in H3. destruct H3 as (-> & _ & i1 & i2 & i3 & i4 & i5).
  assert (B3 : g_blk G g3 = {| names := ["s"; "j"; "n" ++ decimal (2 ^ (r + 1)); "y"; "xn"; "x"]%string; counts := []; lets := []; lines := [] |}).
  { rewrite i2, h2, f2, e2, c2, a2. reflexivity. }
  inv_x H m g4 H4. apply now_inv in H4. destruct H4 as (nm & N4 & -> & k1 & k2 & k3 & k4 & k5). rewrite B3 in N4, k2. cbn [names counts lets lines] in N4, k2.
  inv_x H j1 g5 H5. apply now_inv in H5. destruct H5 as (nj1 & N5 & -> & l1 & l2 & l3 & l4 & l5). rewrite k2 in N5, l2. cbn [names counts lets lines] in N5, l2.
  inv_x H j0 g6 H6. apply now_inv in H6. destruct H6 as (nj0 & N6 & -> & m1 & m2 & m3 & m4 & m5). rewrite l2 in N6, m2. cbn [names counts lets lines] in N6, m2.
  assert (Nm : nm = "m"%string /\ nj1 = "j1"%string /\ nj0 = "j0"%string) by (exact (names_s r nm nj1 nj0 Hr N4 N5 N6)).
  destruct Nm as (-> & -> & ->). clear N4 N5 N6. inv_x H b g7 H7. apply of_m_inv in H7. destruct H7 as (n1 & n2 & n3 & n4 & n5). inv_x H Y g8 H8. apply of_m_inv in H8. destruct H8 as (o1 & o2 & o3 & o4 & o5).
  assert (C6 : g_cse G g6 = g_cse G (gen0 G)) by (rewrite m1, l1, k1, i1, h1, f1, e1, c1, a1; reflexivity). rewrite C6 in n1.
  assert (Sb : forall J, mspec RF G J (exp_add G (mkvar "j0"%string (draw "j0"%string)) j1v) wfe (fun e => eval J e = (iv J "j0"%string + iv J "j1"%string)%R)).
  { intros J. eapply mspec_espec. apply (add_spec RF G J HL); exact Logic.I. }
  set (J0 := Build_interp RF (fun _ => 0%R) (fun _ => 0%R) (fun _ _ => 0%R) (fun _ _ => 0%R)).
  destruct (mspec_out _ _ J0 _ _ _ _ _ (Sb J0) inv0 n1) as (Ib & _ & Wb & _).
  assert (So : forall J, _) by (intros J; exact (mspec_out _ _ J _ _ _ _ _ (locs_ok J true false (2 ^ r) 0 b (mkvar "m"%string (draw "m"%string)) Wb Logic.I ltac:(clear - Hr; assert (C : r = 1%nat \/ r = 2%nat \/ r = 3%nat) by lia; destruct C as [-> | [-> | ->]]; cbn; lia)) Ib o1)).
  destruct (So J0) as (Io & _ & (L1 & L2 & L3) & _).
  exists g8, Y. split; [exact H|]. split; [rewrite o3, n3, m3, l3, k3, i3, h3, f3, e3, c3, a3; reflexivity|]. split; [rewrite o4, n4, m4, l4, k4, i4, h4, f4, e4, c4, a4; reflexivity|]. split; [rewrite o5, n5, m5, l5, k5, i5, h5, f5, e5, c5, a5; reflexivity|].
  rewrite o2, n2, m2. cbn [names lets lines]. split; [reflexivity|]. split; [reflexivity|]. split; [reflexivity|]. split; [exact Io|]. split.
  { intros V HV. assert (T0 : tabv G V (g_cse G (gen0 G))) by (intros ? ? []).
    destruct (vk_out V _ _ _ _ _ _ (add_ve G V _ _ (ve_var G V _ (draw "j0"%string) (HV _ ltac:(right; right; left; reflexivity))) (ve_var G V _ (draw "j1"%string) (HV _ ltac:(right; left; reflexivity)))) T0 n1) as [T1 Vb].
    destruct (vk_out V _ _ _ _ _ _ (locs_ve G V true false (2 ^ r) 0 b _ Vb (ve_var G V _ (draw "m"%string) (HV _ ltac:(left; reflexivity)))) T1 o1) as [T2 _]. exact T2. }
  split; [exact L1|]. split; [exact L2|]. split; [exact L3|].
  intros J NJ. destruct (So J) as (_ & Xo & _ & Vo). destruct (mspec_out _ _ J _ _ _ _ _ (Sb J) inv0 n1) as (_ & _ & _ & Vb). rewrite (Vo NJ). apply map_ext. intros i. cbn [eval mkvar map opval]. rewrite Vb; [reflexivity|]. exact (nocol_ext J _ _ Xo NJ).
Qed.

Lemma land_Z : forall j s, Z.land (Z.of_nat j) (2 ^ Z.of_nat s - 1) = Z.of_nat (Nat.land j (2 ^ s - 1)).
Proof.
  intros j s. replace (2 ^ Z.of_nat s - 1) with (Z.ones (Z.of_nat s)) by (rewrite Z.ones_equiv; lia). rewrite Z.land_ones by lia.
  replace (2 ^ s - 1)%nat with (Nat.ones s) by (rewrite Nat.ones_equiv; lia). rewrite Nat.land_ones, Nat2Z.inj_mod, Nat2Z.inj_pow. reflexivity.
Qed.
Lemma land_le : forall j s, (Nat.land j (2 ^ s - 1) <= j)%nat.
Proof. intros j s. replace (2 ^ s - 1)%nat with (Nat.ones s) by (rewrite Nat.ones_equiv; lia). rewrite Nat.land_ones. apply Nat.mod_le. apply Nat.pow_nonzero. lia. Qed.
Definition same_but (vs : list string) (I E : interp RF) : Prop := same_rest I E /\ forall v, ~ In v vs -> iv E v = iv I v.
Lemma run_prelude_s : forall r (I : interp RF) s j y x, iv I "s"%string = IZR (Z.of_nat s) -> iv I "j"%string = IZR (Z.of_nat j) ->
  exists E1, run [SText G "m" (TPow "s" 0); SText G "j1" (TAnd "j" "m"); SText G "j0" (TSubShl "j" "j1" (Z.of_nat r))]%string {| env := I; ym := y; xm := x |} = Some {| env := E1; ym := y; xm := x |} /\
    same_but ["m"; "j1"; "j0"]%string I E1 /\ iv E1 "m"%string = IZR (Z.of_nat (2 ^ s)) /\ iv E1 "j1"%string = IZR (Z.of_nat (Nat.land j (2 ^ s - 1))) /\ iv E1 "j0"%string = IZR (Z.of_nat ((j - Nat.land j (2 ^ s - 1)) * 2 ^ r)).
Proof.
  intros r I s j y x Hs Hj. pose proof (land_le j s) as Lj. cbn [GenRun.run step env ym xm text_val]. rewrite Hs, as_int_IZR. rewrite Z.sub_0_r. destruct (Z.ltb_spec (Z.of_nat s) 0); [lia|]. cbn [set_iv iv env String.eqb Ascii.eqb Bool.eqb].
  rewrite Hj, !as_int_IZR, land_Z. cbn [set_iv iv env String.eqb Ascii.eqb Bool.eqb]. rewrite Hj, !as_int_IZR. eexists. split; [reflexivity|]. split; [|split; [|split]].
  - split; [repeat split|]. intros v Hv. cbn [set_iv iv]. destruct (String.eqb_spec v "j0") as [->|]; [exfalso; apply Hv; cbn; auto|]. destruct (String.eqb_spec v "j1") as [->|]; [exfalso; apply Hv; cbn; auto|]. destruct (String.eqb_spec v "m") as [->|]; [exfalso; apply Hv; cbn; auto|]. reflexivity.
  - cbn. rewrite Nat2Z.inj_pow. reflexivity.
  - cbn. reflexivity.
  - cbn [set_iv iv String.eqb Ascii.eqb Bool.eqb]. f_equal. rewrite Nat2Z.inj_mul, Nat2Z.inj_sub, Nat2Z.inj_pow by exact Lj. reflexivity.
Qed.
Lemma vnames_apart : forall r v, (1 <= r <= 3)%nat -> In v (vnames (2 ^ r)) -> ~ In v ["m"; "j1"; "j0"]%string.
Proof. intros r v Hr Hv Q. unfold vnames in Hv. apply in_map_iff in Hv. destruct Hv as (i & <- & _). unfold lname in Q. cbn in Q. destruct Q as [Q|[Q|[Q|[]]]]; discriminate Q. Qed.

(** What the caller provides: the twiddle values, the constant, and complex variables that are different objects. *)
Record ready (I : interp RF) (tn : Z -> res RC) (vs : list string) : Prop := {
  rd_half : iother I sh_text = (/ sqrt 2)%R;
  rd_tw : forall z v, tn z = Ok v -> tval I (IZR z) = v;
  rd_nodup : NoDup (map (iv I) vs);
  rd_apart : forall a, ~ In (icall I "twiddle"%string [a]) (map (iv I) vs) }.
Lemma map_iv : forall (I E : interp RF) vs ms, same_but ms I E -> (forall v, In v vs -> ~ In v ms) -> map (iv E) vs = map (iv I) vs.
Proof. intros I E vs ms (_ & H) D. apply map_ext_in. intros v Hv. apply H, D, Hv. Qed.
Lemma radix_idx_eq : forall r s j, radix_idx r s j = map (fun i => ((j - Nat.land j (2 ^ s - 1)) * 2 ^ r + Nat.land j (2 ^ s - 1) + i * 2 ^ s)%nat) (seq 0 (2 ^ r)).
Proof. reflexivity. Qed.
Lemma seq_bind : forall A (x : res A) B (k : A -> res B) w, bind x k = Ok w -> exists a, x = Ok a /\ k a = Ok w.
Proof. intros A x B k w H. destruct x as [a| |]; try discriminate. exists a. auto. Qed.

Lemma gets_length : forall (X : Type) (l : list X) ks vs, gets l ks = Ok vs -> length vs = length ks.
Proof. intros X l ks vs H. apply gets_all in H. induction H as [|a b c d _ _ IH]; [reflexivity|cbn; rewrite IH; reflexivity]. Qed.
Lemma thickv_len : forall n l, length l = (2 * n)%nat -> length (thickv l) = n.
Proof. induction n as [|n IH]; intros l H; [destruct l; [reflexivity|discriminate H]|]. destruct l as [|a [|b l]]; try (cbn in H; lia). cbn [thickv length]. rewrite IH; [reflexivity|]. cbn [length] in H. lia. Qed.
Theorem exec_s_forward : forall r (I : interp RF) x y g s j tn w, (1 <= r <= 3)%nat -> body_s r true (gen0 G) = Ok (tt, g) -> sound I g ->
  iv I "s"%string = IZR (Z.of_nat s) -> iv I "j"%string = IZR (Z.of_nat j) -> ready I tn (vnames (2 ^ r)) ->
  srfft_s R_ops r tn s j y = Ok w -> exists s', run (g_out G g) {| env := I; ym := y; xm := x |} = Some s' /\ ym s' = w /\ xm s' = x.
Proof.
  intros r I x y g s j tn w Hr Hb Hsound Hs Hj [Rh Rt Rn Ra] Hw.
  destruct (prelude_s r true g Hr Hb) as (g1 & Y & Hway & O1 & T1 & D1 & N1 & L1 & Ln1 & I1 & Tv & Yc & Yn & Yl & Yi). clear Hb.
  destruct (run_prelude_s r I s j y x Hs Hj) as (E1 & Run1 & SB & Em & Ej1 & Ej0).
  unfold srfft_s in Hw. apply seq_bind in Hw. destruct Hw as (v & Hg & Hw). apply seq_bind in Hw. destruct Hw as (w0 & Hbf & Hw). change (A R_ops) with R in *.
  unfold way, forward in Hway. inv_x Hway xs g2 Hl. inv_x Hway ys g3 Hc.
  destruct (loads_y G draw lr Y g1 xs g2 Hl) as (X1 & (P1 & P2 & P3 & P4 & P5 & P6) & dl & Dl & Runl). { eapply Forall_impl; [|exact Yc]. intros l [A _]. exact A. }
  rewrite Yn in X1, P4, Runl. apply of_m_inv in Hc. destruct Hc as (c1 & c2 & c3 & c4 & c5). rewrite X1, P1 in c1.
  set (V := names G (g_blk G g2)). assert (HV : incl ["m"; "j1"; "j0"]%string V). { intros n Hn. unfold V. rewrite P4, N1. apply in_or_app. right. cbn in *. tauto. }
  assert (Vj1 : In "j1"%string V) by (apply HV; cbn; auto).
  assert (Vv : incl (vnames (2 ^ r)) V). { intros n Hn. unfold V. rewrite P4. apply in_or_app. left. rewrite <- in_rev. exact Hn. }
  destruct (vk_out V _ _ _ _ _ _ (gen_s_ve G V sh_text sh_sig lr r j1v _ (ve_var G V _ _ Vj1) (cinputs_vars V _ Vv)) (Tv V HV) c1) as [_ Vys].
  assert (Iv1 : map (iv E1) (vnames (2 ^ r)) = map (iv I) (vnames (2 ^ r))) by (apply (map_iv I E1 _ _ SB); intros n Hn; exact (vnames_apart r n Hr Hn)).
  destruct SB as ((B1 & B2 & B3) & B4).
  assert (Lv : length v = (2 ^ r)%nat) by (rewrite (gets_length _ _ _ _ Hg), radix_idx_eq, map_length, seq_length; reflexivity).
  assert (Lc : length (cinputs G draw (vnames (2 ^ r))) = (2 * 2 ^ r)%nat) by (rewrite cinputs_len; unfold vnames; rewrite map_length, seq_length; reflexivity).
  assert (Sp : forall J w', near_c E1 (map (iv E1) (vnames (2 ^ r))) J -> bfly_s R_ops r tn (Z.of_nat (Nat.land j (2 ^ s - 1))) (thickv (map (eval J) (cinputs G draw (vnames (2 ^ r))))) = Ok w' ->
       mspec RF G J (gen_s G sh_text sh_sig lr r j1v (cinputs G draw (vnames (2 ^ r)))) (fun es => length es = length (cinputs G draw (vnames (2 ^ r))) /\ Forall wfe es) (fun es => map (eval J) es = flatv w')).
  { intros J w' (J1 & J2 & J3 & J4) EJ. apply (gen_s_ok G J HL sh_text sh_sig tw_text) with (tn := tn) (jz := Z.of_nat (Nat.land j (2 ^ s - 1))); try assumption; try exact Logic.I.
    - rewrite J2, B1. exact Rh.
    - apply cinputs_wfe.
    - intros z u Hz. rewrite <- (Rt z u Hz). unfold tval. rewrite J3, B3. rewrite !J4, B2; [reflexivity|..]; rewrite Iv1; apply Ra.
    - cbn [eval mkvar map opval]. rewrite J1. exact Ej1. }
  assert (Near1 : near_c E1 (map (iv E1) (vnames (2 ^ r))) E1) by (repeat split).
  destruct (f_s_ok r tn _ v w0 Hr Lv Hbf) as [Tot _]. destruct (Tot (thickv (map (eval E1) (cinputs G draw (vnames (2 ^ r)))))) as (w1 & Hw1 & _); [apply thickv_len; rewrite map_length; exact Lc|].
  destruct (mspec_out _ _ E1 _ _ _ _ _ (Sp E1 w1 Near1 Hw1) I1 c1) as (I3 & Ext & (Ly & Wy) & _). clear w1 Hw1.
  assert (Vy' : Forall (ve G (names G (g_blk G g3))) ys) by (rewrite c2; exact Vys).
  destruct (tail_run G HL draw lr true false Y ys g3 tt g Hway Yc Wy) as (t1 & t2 & dt & Dt & Runt); [rewrite c2; congruence|rewrite c2; congruence|congruence|exact Vy'|].
  assert (NC : forall J, iother J = iother I -> no_collision J (lg G (g_cse G g3))) by (intros J HJ; rewrite <- t1; apply Hsound; exact HJ).
  assert (NC1 : forall J, iother J = iother I -> no_collision J (lg G (g_cse G g1))) by (intros J HJ; exact (nocol_ext J _ _ Ext (NC J HJ))).
  assert (Ix : forall E, iv E "j0"%string = iv E1 "j0"%string -> iv E "j1"%string = iv E1 "j1"%string -> iv E "m"%string = iv E1 "m"%string -> forall ns, incl ["m"; "j1"; "j0"]%string ns -> iother E = iother I -> Forall2 (at_idx G ns E) Y (radix_idx r s j)).
  { intros E A0 A1 A2 ns Hns HE. rewrite radix_idx_eq. apply at_idx_all; [exact Yl|]. intros J (Q1 & Q2 & Q3). rewrite (Yi J (NC1 J (eq_trans Q1 HE))). apply map_ext. intros i. rewrite !Q3 by (apply Hns; cbn; auto). rewrite A0, A1, A2, Em, Ej1, Ej0, <- !mult_IZR, <- !plus_IZR. f_equal. lia. }
  destruct (Runl {| env := E1; ym := y; xm := x |} (radix_idx r s j) v) as (s2 & R2 & Y2 & X2 & v2 & o2 & k2 & F2 & Ev2); cbn [env ym xm] in *.
  { rewrite Iv1. exact Rn. }
  { apply Ix; try reflexivity; [|exact B1]. intros n Hn. rewrite N1. cbn in *. tauto. }
  { apply gets_all. exact Hg. }
  assert (Near2 : near_c E1 (map (iv E1) (vnames (2 ^ r))) (env s2)) by (split; [exact v2|split; [exact o2|split; [exact k2|exact F2]]]).
  assert (Hbf2 : bfly_s R_ops r tn (Z.of_nat (Nat.land j (2 ^ s - 1))) (thickv (map (eval (env s2)) (cinputs G draw (vnames (2 ^ r))))) = Ok w0) by (etransitivity; [|exact Hbf]; f_equal; etransitivity; [exact (f_equal thickv Ev2)|apply thick_flat]).
  destruct (mspec_out _ _ (env s2) _ _ _ _ _ (Sp (env s2) w0 Near2 Hbf2) I1 c1) as (_ & _ & _ & Val).
  assert (O2 : iother (env s2) = iother I) by congruence.
  destruct (Runt s2 (radix_idx r s j) w x) as (s3 & R3 & Y3 & X3).
  { intros J HJ. apply Hsound. congruence. }
  { apply Ix; try (rewrite v2; reflexivity); [rewrite c2; exact HV|exact O2]. }
  { rewrite (Val (NC (env s2) O2)), Y2, X2. apply mem_cx. exact Hw. }
  exists s3. split; [|auto]. rewrite Dt, c3, Dl, O1, !run_app, Run1. cbv beta iota. rewrite R2. exact R3.
Qed.

(** Nothing is differentiated while storing. *)
Lemma set_diff : forall l ys g u g', loc_set G lr l ys g = Ok (u, g') -> g_diff G g' = g_diff G g.
Proof.
  intros l ys g u g' H. unfold loc_set in H. destruct (l_cx G l).
  - destruct ys as [|a [|b [|? ?]]]; try discriminate H.
    destruct lr; inv_x H a' g1 H1; inv_x H b' g2 H2; apply compute_inv in H1; apply compute_inv in H2; apply emit_inv in H; destruct H1 as (_ & _ & _ & H1 & _); destruct H2 as (_ & _ & _ & H2 & _); destruct H as (_ & _ & _ & _ & H); congruence.
  - destruct ys as [|a [|? ?]]; try discriminate H. destruct (l_add G l); [inv_x H un g1 H1; apply lift_inv in H1; destruct H1 as [_ ->]; destruct un|];
      inv_x H v g2 H2; apply compute_inv in H2; apply emit_inv in H; destruct H2 as (_ & _ & _ & H2 & _); destruct H as (_ & _ & _ & _ & H); congruence.
Qed.
Lemma tail_diff : forall ls ys g u g', xbind G (of_m G (lift G (slow_assert (length ys =? total G ls)%nat))) (fun _ => xbind G (xmap G (g_use G) ys) (fun _ => sets_all G lr ls ys)) g = Ok (u, g') -> g_diff G g' = g_diff G g /\ length ys = total G ls.
Proof.
  intros ls ys g u g' H. inv_x H u0 g0 H0. apply lift_inv in H0. destruct H0 as [H0 ->]. unfold slow_assert in H0. destruct (Nat.eqb_spec (length ys) (total G ls)) as [L|]; [|discriminate].
  inv_x H u1 g1 H1. apply uses_run in H1. destruct H1 as (_ & _ & _ & _ & _ & _ & H1). rewrite <- H1. split; [|exact L]. clear - H. revert ys g1 H. induction ls as [|l ls IH]; intros ys g1 H; cbn [sets_all] in H.
  - injection H as _ <-. reflexivity.
  - inv_x H a g2 H2. apply set_diff in H2. apply IH in H. congruence.
Qed.
Lemma diffed_inv : forall a b g u g', diffed G a b g = Ok (u, g') -> g_cse G g' = g_cse G g /\ g_blk G g' = g_blk G g /\ g_out G g' = g_out G g /\ g_told G g' = g_told G g /\ g_diff G g' = g_diff G g ++ [(a, b)].
Proof. intros a b g u g' H. unfold diffed in H. injection H as _ <-. cbn. auto. Qed.
Lemma grad_inv : forall a b c g r g', xbind G (of_m G (gradient G fuel lr unknown a b c)) (fun d => match d with Some ds => xret G ds | None => fun _ => UB end) g = Ok (r, g') -> of_m G (gradient G fuel lr unknown a b c) g = Ok (Some r, g').
Proof. intros a b c g r g' H. inv_x H d g1 H1. destruct d as [ds|]; [|discriminate]. injection H as <- <-. exact H1. Qed.
Lemma ve_unknown : forall V, ve G (vars unknown ++ V) unknown. Proof. intros V v Hv. apply in_or_app. left. exact Hv. Qed.
Lemma told_tail : forall cx add ls ys g u g',
  xbind G (of_m G (lift G (slow_assert (length ys =? total G ls)%nat))) (fun _ => xbind G (xmap G (g_use G) ys) (fun _ => sets_all G lr ls ys)) g = Ok (u, g') ->
  Forall (fun l => l_cx G l = cx /\ l_add G l = add) ls -> Forall (@wfe G) ys -> incl ys (g_told G g').
Proof.
  intros cx add ls ys g u g' H Hl Wy. inv_x H u0 g0 H0. apply lift_inv in H0. destruct H0 as [H0 ->]. unfold slow_assert in H0. destruct (Nat.eqb_spec (length ys) (total G ls)) as [L|]; [|discriminate].
  inv_x H u1 g1 H1. apply uses_run in H1. destruct H1 as (_ & _ & _ & _ & _ & a6 & _).
  destruct (sets_run G HL lr cx add ls ys g1 u g' H Hl L Wy) as (_ & _ & b3 & _). rewrite a6 in b3. intros e He. apply b3. apply in_or_app. right. exact He.
Qed.
Lemma scoped_known : forall V g ys, declared g -> incl ys (g_told G g) -> Forall (ve G (vars unknown ++ V)) ys -> Forall (ve G V) ys.
Proof.
  intros V g ys Hd Ht Hy. apply Forall_forall. intros e He v Hv. rewrite Forall_forall in Hy. specialize (Hy e He v Hv). apply in_app_or in Hy. destruct Hy as [Q|Q]; [|exact Q].
  destruct (Hd e v (Ht e He) Q Hv).
Qed.
Lemma pnames_apart : forall n v, In v (pnames n) -> ~ In v ["m"; "j1"; "j0"]%string.
Proof. intros n v Hv Q. unfold pnames in Hv. apply in_map_iff in Hv. destruct Hv as (i & <- & _). cbn in Q. destruct Q as [Q|[Q|[Q|[]]]]; discriminate Q. Qed.

Theorem exec_s_backward : forall r (I : interp RF) x y g s j tn w, (1 <= r <= 3)%nat -> body_s r false (gen0 G) = Ok (tt, g) -> sound I g -> declared g -> circuits (fields_ok G) g ->
  iv I "s"%string = IZR (Z.of_nat s) -> iv I "j"%string = IZR (Z.of_nat j) -> ready I tn (vnames (2 ^ r)) -> ready I tn (pnames (2 ^ r)) ->
  isrfft_s R_ops r tn s j y = Ok w -> exists s', run (g_out G g) {| env := I; ym := y; xm := x |} = Some s' /\ ym s' = w /\ xm s' = x.
Proof.
  intros r I x y g s j tn w Hr Hb Hsound Hdecl Hcirc Hs Hj [Rh Rt Rn Ra] [_ _ Rnp Rap] Hw.
  destruct (prelude_s r false g Hr Hb) as (g1 & Y & Hway & O1 & T1 & D1 & N1 & L1 & Ln1 & I1 & Tv & Yc & Yn & Yl & Yi). clear Hb.
  destruct (run_prelude_s r I s j y x Hs Hj) as (E1 & Run1 & SB & Em & Ej1 & Ej0).
  unfold isrfft_s in Hw. apply seq_bind in Hw. destruct Hw as (v & Hg & Hw). apply seq_bind in Hw. destruct Hw as (w0 & Hbf & Hw). change (A R_ops) with R in *.
  unfold way, forward in Hway. inv_x Hway pxs ga Hp. inv_x Hway pys gb Hq. inv_x Hway ud gc Hd. inv_x Hway xs g2 Hl. inv_x Hway ys g3 Hc.
  destruct (placeholders true Y 0 g1 pxs ga Hp) as (PX & (a1 & a2 & a3 & a4 & a5 & a6) & a7 & _). { eapply Forall_impl; [|exact Yc]. intros l [A _]. exact A. }
  rewrite Yl in PX, a4. fold (pnames (2 ^ r)) in PX, a4. apply of_m_inv in Hq. destruct Hq as (q1 & q2 & q3 & q4 & q5). rewrite PX, a1 in q1. apply diffed_inv in Hd. destruct Hd as (d1 & d2 & d3 & d4 & d5). rewrite PX in d5.
  destruct (loads_y G draw lr Y gc xs g2 Hl) as (X1 & (P1 & P2 & P3 & P4 & P5 & P6) & dl & Dl & Runl). { eapply Forall_impl; [|exact Yc]. intros l [A _]. exact A. }
  rewrite Yn in X1, P4, Runl. apply grad_inv in Hc. apply of_m_inv in Hc. destruct Hc as (c1 & c2 & c3 & c4 & c5). rewrite X1, PX, P1, d1 in c1.
  set (V := names G (g_blk G g2)). assert (NV : V = rev (vnames (2 ^ r)) ++ rev (pnames (2 ^ r)) ++ names G (g_blk G g1)) by (unfold V; rewrite P4, d2, q2, a4; reflexivity).
  assert (HV1 : incl (names G (g_blk G g1)) V) by (rewrite NV; intros n Hn; apply in_or_app; right; apply in_or_app; right; exact Hn).
  assert (HV0 : incl ["m"; "j1"; "j0"]%string (names G (g_blk G g1))) by (intros n Hn; rewrite N1; cbn in *; tauto).
  assert (HV : incl ["m"; "j1"; "j0"]%string V) by (exact (incl_tran HV0 HV1)).
  assert (Vj1 : In "j1"%string V) by (apply HV; cbn; auto).
  assert (Vv : incl (vnames (2 ^ r)) V) by (rewrite NV; intros n Hn; apply in_or_app; left; rewrite <- in_rev; exact Hn).
  assert (Vp : incl (pnames (2 ^ r)) V) by (rewrite NV; intros n Hn; apply in_or_app; right; apply in_or_app; left; rewrite <- in_rev; exact Hn).
  set (W := vars unknown ++ V). assert (VW : incl V W) by (intros n Hn; apply in_or_app; right; exact Hn).
  destruct (vk_out W _ _ _ _ _ _ (gen_s_ve G W sh_text sh_sig lr r j1v _ (ve_var G W _ _ (VW _ Vj1)) (cinputs_vars W _ (incl_tran Vp VW))) (Tv W (incl_tran HV VW)) q1) as [Tb Vpys].
  destruct (vk_out W _ _ _ _ _ _ (gradient_ve G W fuel lr unknown _ _ _ (ve_unknown V) Vpys (cinputs_vars W _ (incl_tran Vv VW))) Tb c1) as [_ Vys]. cbv beta iota in Vys.
  assert (Iv1 : map (iv E1) (vnames (2 ^ r)) = map (iv I) (vnames (2 ^ r))) by (apply (map_iv I E1 _ _ SB); intros n Hn; exact (vnames_apart r n Hr Hn)).
  assert (Iv2 : map (iv E1) (pnames (2 ^ r)) = map (iv I) (pnames (2 ^ r))) by (apply (map_iv I E1 _ _ SB); intros n Hn; exact (pnames_apart _ n Hn)).
  destruct SB as ((B1 & B2 & B3) & B4).
  assert (Lv : length v = (2 ^ r)%nat) by (rewrite (gets_length _ _ _ _ Hg), radix_idx_eq, map_length, seq_length; reflexivity).
  assert (Lp : length (pnames (2 ^ r)) = (2 ^ r)%nat) by (unfold pnames; rewrite map_length, seq_length; reflexivity).
  assert (Lc : length (cinputs G draw (pnames (2 ^ r))) = (2 * 2 ^ r)%nat) by (rewrite cinputs_len, Lp; reflexivity).
  assert (Lu : length (cinputs G draw (vnames (2 ^ r))) = (2 * 2 ^ r)%nat) by (rewrite cinputs_len; unfold vnames; rewrite map_length, seq_length; reflexivity).
  (* static facts *)
  destruct (tail_diff _ _ _ _ _ Hway) as [Df _].
  destruct (Hcirc (cinputs G draw (pnames (2 ^ r))) pys) as (Ci & Ap & Fo & Fu). { rewrite Df, c5, P3, d5, q5, a3, D1. left. reflexivity. }
  destruct (transpose_c_flat r tn _ _ w0 Hr Hbf) as ((v0 & w00 & Lv0 & Hv0) & Lw & _).
  destruct (f_s_ok r tn _ v0 w00 Hr Lv0 Hv0) as [Tot _]. destruct (Tot (thickv (map (eval E1) (cinputs G draw (pnames (2 ^ r)))))) as (w1 & Hw1 & _); [apply thickv_len; rewrite map_length; exact Lc|].
  assert (Sp : mspec RF G E1 (gen_s G sh_text sh_sig lr r j1v (cinputs G draw (pnames (2 ^ r)))) (fun es => length es = length (cinputs G draw (pnames (2 ^ r))) /\ Forall wfe es) (fun es => map (eval E1) es = flatv w1)).
  { apply (gen_s_ok G E1 HL sh_text sh_sig tw_text) with (tn := tn) (jz := Z.of_nat (Nat.land j (2 ^ s - 1))); try assumption; try exact Logic.I.
    - rewrite B1. exact Rh.
    - apply cinputs_wfe.
    - intros z u Hz. rewrite <- (Rt z u Hz). unfold tval. rewrite B3, B2. reflexivity. }
  destruct (mspec_out _ _ E1 _ _ _ _ _ Sp I1 q1) as (Ib & Ext1 & (Lpy & _) & _). clear Sp w1 Hw1.
  destruct (mspec_out _ _ E1 _ _ _ _ _ (gradient_ok RF G E1 HL pys Ci fuel lr unknown (cinputs G draw (pnames (2 ^ r))) (cinputs G draw (vnames (2 ^ r))) Fu Wunk (cinputs_wfe G draw _) ltac:(rewrite Lpy, Lc, Lu; reflexivity) (proj1 Ap)) Ib c1) as (I3 & Ext2 & (ds & Qd & Ld & Wy) & _). injection Qd as <-.
  assert (Vy' : Forall (ve G (names G (g_blk G g3))) ys) by (rewrite c2; exact (scoped_known V g ys Hdecl (told_tail true false Y ys g3 tt g Hway Yc Wy) Vys)).
  destruct (tail_run G HL draw lr true false Y ys g3 tt g Hway Yc Wy) as (t1 & t2 & dt & Dt & Runt); [rewrite c2, P6, d2, q2; congruence|rewrite c2, P5, d2, q2; congruence|congruence|exact Vy'|].
  assert (NC : forall J, iother J = iother I -> no_collision J (lg G (g_cse G g3))) by (intros J HJ; rewrite <- t1; apply Hsound; exact HJ).
  assert (NCb : forall J, iother J = iother I -> no_collision J (lg G (g_cse G gb))) by (intros J HJ; exact (nocol_ext J _ _ Ext2 (NC J HJ))).
  assert (NC1 : forall J, iother J = iother I -> no_collision J (lg G (g_cse G g1))) by (intros J HJ; exact (nocol_ext J _ _ Ext1 (NCb J HJ))).
  assert (Ix : forall E, iv E "j0"%string = iv E1 "j0"%string -> iv E "j1"%string = iv E1 "j1"%string -> iv E "m"%string = iv E1 "m"%string -> forall ns, incl ["m"; "j1"; "j0"]%string ns -> iother E = iother I -> Forall2 (at_idx G ns E) Y (radix_idx r s j)).
  { intros E A0 A1 A2 ns Hns HE. rewrite radix_idx_eq. apply at_idx_all; [exact Yl|]. intros J (Q1 & Q2 & Q3). rewrite (Yi J (NC1 J (eq_trans Q1 HE))). apply map_ext. intros i. rewrite !Q3 by (apply Hns; cbn; auto). rewrite A0, A1, A2, Em, Ej1, Ej0, <- !mult_IZR, <- !plus_IZR. f_equal. lia. }
  destruct (Runl {| env := E1; ym := y; xm := x |} (radix_idx r s j) v) as (s2 & R2 & Y2 & X2 & v2 & o2 & k2 & F2 & Ev2); cbn [env ym xm] in *.
  { rewrite Iv1. exact Rn. }
  { apply Ix; try reflexivity; [|exact B1]. rewrite d2, q2, a4. intros n Hn. apply in_or_app. right. apply HV0. exact Hn. }
  { apply gets_all. exact Hg. }
  assert (O2 : iother (env s2) = iother I) by congruence.
  assert (Tv2 : forall z u, tn z = Ok u -> tval (env s2) (IZR z) = u).
  { intros z u Hz. rewrite <- (Rt z u Hz). unfold tval. rewrite k2, B3. rewrite !F2, B2; [reflexivity|..]; rewrite Iv1; apply Ra. }
  destruct (back_s G (env s2) HL sh_text sh_sig tw_text draw lr fuel unknown r j1v (pnames (2 ^ r)) (cinputs G draw (vnames (2 ^ r))) (g_cse G g1) (g_cse G gb) pys (g_cse G gb) (Z.of_nat (Nat.land j (2 ^ s - 1))) tn w0) as (ds & st' & Eg & _ & _ & _ & _ & Val); try assumption; try exact Logic.I.
  { rewrite v2, Iv2. exact Rnp. }
  { intros a. rewrite v2, k2, Iv2, B3. apply Rap. }
  { apply cinputs_wfe. }
  { congruence. }
  { intros J (J1 & J2 & J3 & J4). split; [cbn [eval mkvar map opval]; rewrite J1, v2; exact Ej1|apply NCb; congruence]. }
  { etransitivity; [|exact Hbf]. f_equal. etransitivity; [exact (f_equal thickv Ev2)|apply thick_flat]. }
  rewrite c1 in Eg. injection Eg as <- <-.
  destruct (Runt s2 (radix_idx r s j) w x) as (s3 & R3 & Y3 & X3).
  { intros J HJ. apply Hsound. congruence. }
  { apply Ix; try (rewrite v2; reflexivity); [rewrite c2; exact HV|exact O2]. }
  { rewrite (Val (NC (env s2) O2)), Y2, X2. apply mem_cx. exact Hw. }
  exists s3. split; [|auto]. rewrite Dt, c3, Dl, d3, q3, a7, O1, !run_app, Run1. cbv beta iota. rewrite R2. exact R3.
Qed.

(** ** The first levels *)
Notation body_first := (body_first G sh_text sh_sig tw_text draw lr fuel unknown).
Definition comp_first (r : nat) (j nr m : exp) (xs : list exp) : X G (list exp) :=
  xbind G (if (r =? 3)%nat then
             xbind G (g_now G "m3" (TShl "m" 0) (sg_mul G (sig_of m) (sg_int G 1))) (fun _ => g_now G "j1" (TAnd "j" "m3") (draw "j1"%string))
           else xret G (mkint 0)) (fun j1 => of_m G (gen_first G sh_text sh_sig tw_text lr r j nr j1 xs)).
Definition params_first (r : nat) : list string := (if r =? 3 then ["m"; "p"; "j"; "n8"; "y"; "xn"; "x"] else ["p"; "y"; "xn"; "x"])%nat%string.
Definition texts0 (r : nat) : list (stmt G) := if (r =? 3)%nat then [SText G "m" (TPow "p" 3)]%string else [].
Definition texts1 (r : nat) : list (stmt G) := if (r =? 3)%nat then [SText G "m3" (TShl "m" 0); SText G "j1" (TAnd "j" "m3")]%string else [].
Definition tnames (r : nat) : list string := if (r =? 3)%nat then ["j1"; "m3"]%string else [].
Definition jf (r : nat) : exp := if (r =? 3)%nat then mkvar "j"%string (draw "j"%string) else mkint 0.
Definition nf (r : nat) : exp := if (r =? 3)%nat then mkvar "n8"%string (draw "n8"%string) else mkint 1.
Definition mf (r : nat) : exp := if (r =? 3)%nat then mkvar "m"%string (draw "m"%string) else mkint 0.
Definition j1f (r : nat) : exp := if (r =? 3)%nat then mkvar "j1"%string (draw "j1"%string) else mkint 0.
Lemma wf_args : forall r, wfe (jf r) /\ wfe (nf r).
Proof. intros r. unfold jf, nf. destruct (r =? 3)%nat; [split; exact Logic.I|]. split; cbn; (split; [reflexivity|]; split; [lia|reflexivity]). Qed.
Lemma prelude_first : forall r fwd add g, (1 <= r <= 3)%nat -> body_first r fwd add (gen0 G) = Ok (tt, g) -> exists g1 X Y,
  way G draw lr fuel unknown fwd X Y (comp_first r (jf r) (nf r) (mf r)) g1 = Ok (tt, g) /\
  g_out G g1 = texts0 r /\ g_told G g1 = [] /\ g_diff G g1 = [] /\ names G (g_blk G g1) = params_first r /\ lets G (g_blk G g1) = [] /\ lines G (g_blk G g1) = [] /\
  Inv (g_cse G g1) /\ (forall V, incl (params_first r) V -> tabv G V (g_cse G g1)) /\
  (Forall (fun l => l_cx G l = false /\ l_add G l = add) X /\ map (l_name G) X = xnames (2 ^ r) /\ length X = (2 ^ r)%nat) /\
  (Forall (fun l => l_cx G l = true /\ l_add G l = false) Y /\ map (l_name G) Y = vnames (2 ^ r / 2) /\ length Y = (2 ^ r / 2)%nat) /\
  (forall J : interp RF, no_collision J (lg G (g_cse G g1)) -> map (fun l => eval J (l_idx G l)) X = map (fun i => (eval J (jf r) + IZR (Z.of_nat i) * eval J (nf r))%R) (seq 0 (2 ^ r)) /\
     map (fun l => eval J (l_idx G l)) Y = map (fun i => (eval J (jf r) + IZR (Z.of_nat i) * eval J (nf r))%R) (seq 0 (2 ^ r / 2))).
Proof.
  intros r fwd add g Hr H. unfold GenModel.body_first in H. inv_x H u0 gg Hx. apply inputs3 in Hx. destruct Hx as (v1 & v2 & v3 & ga & gc & Ha & Hc & He).
  apply input_inv in Ha. destruct Ha as (-> & _ & a1 & a2 & a3 & a4 & a5). apply input_inv in Hc. destruct Hc as (-> & _ & c1 & c2 & c3 & c4 & c5). apply input_inv in He. destruct He as (-> & _ & e1 & e2 & e3 & e4 & e5).
  inv_x H nj g1 H1. cbv zeta in H. inv_x H pp g2 H2. inv_x H m g3 H3. apply input_inv in H2. destruct H2 as (-> & _ & i1 & i2 & i3 & i4 & i5).
  assert (K : nj = (nf r, jf r) /\ m = mf r /\ g_cse G g3 = g_cse G (gen0 G) /\ g_blk G g3 = {| names := params_first r; counts := []; lets := []; lines := [] |} /\ g_out G g3 = texts0 r /\ g_told G g3 = [] /\ g_diff G g3 = []).
  { unfold nf, jf, mf, params_first, texts0. assert (C : r = 3%nat \/ (r < 3)%nat) by lia. destruct C as [-> | C].
    - cbn [Nat.ltb Nat.leb Nat.eqb] in *. inv_x H1 nr gd Hd. inv_x H1 j ge0 Hj. injection H1 as <- <-. apply input_inv in Hd. destruct Hd as (-> & _ & f1 & f2 & f3 & f4 & f5). apply input_inv in Hj. destruct Hj as (-> & _ & h1 & h2 & h3 & h4 & h5).
      apply now_inv in H3. destruct H3 as (nm & N4 & -> & k1 & k2 & k3 & k4 & k5). rewrite i2, h2, f2, e2, c2, a2 in N4, k2. cbn [names counts lets lines gen0 g_blk block0] in N4, k2.
      assert (Em : nm = "m"%string) by (change (Ok "m"%string = Ok nm) in N4; injection N4 as <-; reflexivity). subst nm.
      split; [reflexivity|]. split; [reflexivity|]. split; [rewrite k1, i1, h1, f1, e1, c1, a1; reflexivity|]. split; [rewrite k2; reflexivity|]. split; [rewrite k3, i3, h3, f3, e3, c3, a3; reflexivity|]. split; [rewrite k4, i4, h4, f4, e4, c4, a4; reflexivity|rewrite k5, i5, h5, f5, e5, c5, a5; reflexivity].
    - rewrite (proj2 (Nat.ltb_lt r 3) C) in H1. destruct (Nat.ltb_spec 2 r) as [?|_]; [lia|]. destruct (Nat.eqb_spec r 3) as [?|_]; [lia|]. injection H1 as <- <-. injection H3 as <- <-.
      split; [reflexivity|]. split; [reflexivity|]. split; [rewrite i1, e1, c1, a1; reflexivity|]. split; [rewrite i2, e2, c2, a2; reflexivity|]. split; [rewrite i3, e3, c3, a3; reflexivity|]. split; [rewrite i4, e4, c4, a4; reflexivity|rewrite i5, e5, c5, a5; reflexivity]. }
  destruct K as (-> & -> & k1 & k2 & k3 & k4 & k5). clear H1 H3 a1 a2 a3 a4 a5 c1 c2 c3 c4 c5 e1 e2 e3 e4 e5 i1 i2 i3 i4 i5. cbn [fst snd] in H.
  inv_x H Xl g4 H4. apply of_m_inv in H4. destruct H4 as (x1 & x2 & x3 & x4 & x5). inv_x H Y g5 H5. apply of_m_inv in H5. destruct H5 as (y1 & y2 & y3 & y4 & y5). rewrite k1 in x1. destruct (wf_args r) as [Wj Wn].
  assert (B : (0 + 2 ^ r <= 9 /\ 0 + 2 ^ r / 2 <= 9)%nat) by (clear - Hr; assert (C : r = 1%nat \/ r = 2%nat \/ r = 3%nat) by lia; destruct C as [-> | [-> | ->]]; cbn; lia). destruct B as [Bx By].
  set (J0 := Build_interp RF (fun _ => 0%R) (fun _ => 0%R) (fun _ _ => 0%R) (fun _ _ => 0%R)).
  assert (Sx : forall J, _) by (intros J; exact (mspec_out _ _ J _ _ _ _ _ (locs_ok J false add (2 ^ r) 0 (jf r) (nf r) Wj Wn Bx) inv0 x1)).
  destruct (Sx J0) as (Ix & _ & Px & _).
  assert (Sy : forall J, _) by (intros J; exact (mspec_out _ _ J _ _ _ _ _ (locs_ok J true false (2 ^ r / 2) 0 (jf r) (nf r) Wj Wn By) Ix y1)).
  destruct (Sy J0) as (Iy & _ & Py & _).
  exists g5, Xl, Y. split; [exact H|]. split; [rewrite y3, x3; exact k3|]. split; [rewrite y4, x4; exact k4|]. split; [rewrite y5, x5; exact k5|]. rewrite y2, x2, k2. cbn [names lets lines]. split; [reflexivity|]. split; [reflexivity|]. split; [reflexivity|]. split; [exact Iy|]. split.
  { intros V HV. assert (T0 : tabv G V (g_cse G (gen0 G))) by (intros ? ? []).
    assert (Vj : ve G V (jf r) /\ ve G V (nf r)). { clear - HV. unfold jf, nf, params_first in *. destruct (r =? 3)%nat; split; try apply ve_int; apply ve_var, HV; cbn; auto 10. } destruct Vj as [Vj Vn].
    destruct (vk_out V _ _ _ _ _ _ (locs_ve G V false add (2 ^ r) 0 _ _ Vj Vn) T0 x1) as [T1 _]. destruct (vk_out V _ _ _ _ _ _ (locs_ve G V true false (2 ^ r / 2) 0 _ _ Vj Vn) T1 y1) as [T2 _]. exact T2. }
  split; [exact Px|]. split; [exact Py|]. intros J NJ. destruct (Sx J) as (_ & _ & _ & Vx). destruct (Sy J) as (_ & Xy & _ & Vy). split; [apply Vx; exact (nocol_ext J _ _ Xy NJ)|exact (Vy NJ)].
Qed.
Lemma comp_inv : forall r xs g ys g' ns, (1 <= r <= 3)%nat -> comp_first r (jf r) (nf r) (mf r) xs g = Ok (ys, g') -> names G (g_blk G g) = ns ++ params_first r ->
  (r = 3%nat -> ns = rev (xnames 8) \/ ns = rev (pnames 8)) -> lets G (g_blk G g) = [] -> lines G (g_blk G g) = [] ->
  gen_first G sh_text sh_sig tw_text lr r (jf r) (nf r) (j1f r) xs (g_cse G g) = Ok (ys, g_cse G g') /\ names G (g_blk G g') = tnames r ++ names G (g_blk G g) /\ lets G (g_blk G g') = [] /\ lines G (g_blk G g') = [] /\
  g_out G g' = g_out G g ++ texts1 r /\ g_told G g' = g_told G g /\ g_diff G g' = g_diff G g.
Proof.
  intros r xs g ys g' ns Hr H Hn Hns Hl Hi. unfold comp_first, tnames, texts1, j1f in *. assert (C : r = 3%nat \/ (r < 3)%nat) by lia. destruct C as [-> | C].
  - cbn [Nat.eqb] in *. inv_x H j1 g1 H1. inv_x H1 m3 g2 H2. apply now_inv in H2. destruct H2 as (n3 & N3 & -> & k1 & k2 & k3 & k4 & k5). apply now_inv in H1. destruct H1 as (nj & Nj & -> & l1 & l2 & l3 & l4 & l5). apply of_m_inv in H. destruct H as (o1 & o2 & o3 & o4 & o5).
    rewrite k2 in Nj, l2. cbn [names counts lets lines] in Nj, l2.
    assert (E : n3 = "m3"%string /\ nj = "j1"%string).
    { rewrite Hn in N3, Nj. clear - N3 Nj Hns. unfold params_first in *. cbn [Nat.eqb] in *. destruct (Hns eq_refl) as [-> | ->].
      - match type of N3 with ?a = _ => change a with (Ok "m3"%string) in N3 end. injection N3 as <-. match type of Nj with ?a = _ => change a with (Ok "j1"%string) in Nj end. injection Nj as <-. auto.
      - match type of N3 with ?a = _ => change a with (Ok "m3"%string) in N3 end. injection N3 as <-. match type of Nj with ?a = _ => change a with (Ok "j1"%string) in Nj end. injection Nj as <-. auto. }
    destruct E as [-> ->]. rewrite l1, k1 in o1. split; [exact o1|]. rewrite o2, l2. cbn [names lets lines]. split; [reflexivity|]. split; [exact Hl|]. split; [exact Hi|]. split; [rewrite o3, l3, k3, <- app_assoc; reflexivity|]. split; congruence.
  - destruct (Nat.eqb_spec r 3) as [?|_]; [lia|]. inv_x H j1 g1 H1. injection H1 as <- <-. apply of_m_inv in H. destruct H as (o1 & o2 & o3 & o4 & o5). split; [exact o1|]. rewrite o2. cbn [app]. rewrite app_nil_r. auto 10.
Qed.

(** What the caller provides: below radix 8 there is one iteration and a constant twiddle factor;
    the radix 8 loop runs over j < n/8 = 2^(p-3). *)
Record first_ready (I : interp RF) (tn : Z -> res RC) (r nr j : nat) : Prop := {
  fr_half : iother I sh_text = (/ sqrt 2)%R;
  fr_small : (r < 3)%nat -> nr = 1%nat /\ j = 0%nat /\ forall v, tn 0 = Ok v -> (iother I (fst (tw_text 0 r)), iother I (snd (tw_text 0 r))) = v;
  fr_big : r = 3%nat -> (exists p, (3 <= p)%nat /\ iv I "p"%string = IZR (Z.of_nat p) /\ nr = (2 ^ (p - 3))%nat) /\ iv I "n8"%string = IZR (Z.of_nat nr) /\ iv I "j"%string = IZR (Z.of_nat j) /\ (j < nr)%nat /\
    forall z v, tn z = Ok v -> tval I (IZR z) = v }.
Lemma args_val : forall (I J : interp RF) tn r nr j, first_ready I tn r nr j -> (1 <= r <= 3)%nat -> (r = 3%nat -> iv J "j"%string = iv I "j"%string /\ iv J "n8"%string = iv I "n8"%string) ->
  eval J (jf r) = IZR (Z.of_nat j) /\ eval J (nf r) = IZR (Z.of_nat nr).
Proof.
  intros I J tn r nr j [_ Sm Bg] Hr HJ. unfold jf, nf. destruct (Nat.eqb_spec r 3) as [->|N].
  - destruct (HJ eq_refl) as [A B]. destruct (Bg eq_refl) as (_ & C & D & _). cbn [eval mkvar map opval]. rewrite A, B. auto.
  - destruct (Sm ltac:(lia)) as (-> & -> & _). cbn [eval mkint map opval]. rewrite !RF_ofZ. split; reflexivity.
Qed.
Lemma run_texts0 : forall (I : interp RF) tn r nr j y x, first_ready I tn r nr j -> exists E1, run (texts0 r) {| env := I; ym := y; xm := x |} = Some {| env := E1; ym := y; xm := x |} /\ same_but ["m"%string] I E1 /\ (r = 3%nat -> iv E1 "m"%string = IZR (Z.of_nat nr)).
Proof.
  intros I tn r nr j y x [_ _ Bg]. unfold texts0. destruct (Nat.eqb_spec r 3) as [->|N].
  - destruct (Bg eq_refl) as ((p & Hp & Ep & ->) & _). cbn [GenRun.run step env ym xm text_val]. rewrite Ep, as_int_IZR. destruct (Z.ltb_spec (Z.of_nat p - 3) 0); [lia|]. eexists. split; [reflexivity|]. split.
    + split; [repeat split|]. intros v Hv. cbn [set_iv iv]. destruct (String.eqb_spec v "m") as [->|]; [exfalso; apply Hv; left; reflexivity|reflexivity].
    + intros _. cbn. f_equal. rewrite Nat2Z.inj_pow. f_equal. lia.
  - exists I. cbn. split; [reflexivity|]. split; [split; [repeat split|auto]|]. intros E. contradiction.
Qed.
Lemma run_texts1 : forall (E : interp RF) r nr j y x, (r = 3%nat -> iv E "m"%string = IZR (Z.of_nat nr) /\ iv E "j"%string = IZR (Z.of_nat j) /\ (j < nr)%nat /\ exists q, nr = (2 ^ q)%nat) ->
  exists E', run (texts1 r) {| env := E; ym := y; xm := x |} = Some {| env := E'; ym := y; xm := x |} /\ same_but (tnames r) E E' /\ (r = 3%nat -> iv E' "j1"%string = IZR (Z.of_nat j)).
Proof.
  intros E r nr j y x H. unfold texts1, tnames. destruct (Nat.eqb_spec r 3) as [->|N].
  - destruct (H eq_refl) as (Em & Ej & Lt & q & ->). cbn [GenRun.run step env ym xm text_val]. rewrite Em, as_int_IZR. cbn [set_iv iv env String.eqb Ascii.eqb Bool.eqb]. rewrite Ej, !as_int_IZR. eexists. split; [reflexivity|]. split.
    + split; [repeat split|]. intros v Hv. cbn [set_iv iv]. destruct (String.eqb_spec v "j1") as [->|]; [exfalso; apply Hv; cbn; auto|]. destruct (String.eqb_spec v "m3") as [->|]; [exfalso; apply Hv; cbn; auto|]. reflexivity.
    + intros _. cbn [set_iv iv String.eqb Ascii.eqb Bool.eqb]. f_equal. rewrite Z.mul_1_r, Nat2Z.inj_pow. change (Z.of_nat 2) with 2. rewrite land_Z. f_equal.
      replace (2 ^ q - 1)%nat with (Nat.ones q) by (rewrite Nat.ones_equiv; lia). rewrite Nat.land_ones. apply Nat.mod_small. exact Lt.
  - exists E. cbn. split; [reflexivity|]. split; [split; [repeat split|auto]|]. intros Q. contradiction.
Qed.
Lemma xnames_in : forall n v, In v (xnames n) -> exists i, v = ("x" ++ decimal i)%string.
Proof. intros n v Hv. unfold xnames in Hv. apply in_map_iff in Hv. destruct Hv as (i & <- & _). exists i. reflexivity. Qed.
Lemma pnames_in : forall n v, In v (pnames n) -> exists i, v = ("px" ++ decimal i)%string.
Proof. intros n v Hv. unfold pnames in Hv. apply in_map_iff in Hv. destruct Hv as (i & <- & _). exists i. reflexivity. Qed.
Lemma vnames_in : forall n v, In v (vnames n) -> exists i, v = ("y" ++ decimal i)%string.
Proof. intros n v Hv. unfold vnames in Hv. apply in_map_iff in Hv. destruct Hv as (i & <- & _). exists i. reflexivity. Qed.
Lemma getx_all : forall x ks v, mapr (getx R_ops x) ks = Ok v -> v = map (fun k => nth k x 0%R) ks.
Proof.
  intros x. induction ks as [|k ks IH]; intros v H; cbn [mapr] in H; [injection H as <-; reflexivity|]. apply seq_bind in H. destruct H as (a & Ha & H). apply seq_bind in H. destruct H as (b & Hb & H). injection H as <-.
  cbn [map]. rewrite (IH b Hb). unfold getx, aget in Ha. change (A R_ops) with R in *. f_equal. destruct (Nat.ltb_spec k (length x)) as [L|L].
  - destruct (nth_error x k) as [c|] eqn:E; [|discriminate]. injection Ha as <-. symmetry. apply nth_error_nth. exact E.
  - injection Ha as <-. symmetry. apply nth_overflow. exact L.
Qed.
Ltac no_name H := let i := fresh in let E := fresh in first [destruct (xnames_in _ _ H) as [i E] | destruct (pnames_in _ _ H) as [i E] | destruct (vnames_in _ _ H) as [i E]]; cbn in E; discriminate E.

Theorem exec_first_forward : forall r add (I : interp RF) x y g nr j tn w, (1 <= r <= 3)%nat -> body_first r true add (gen0 G) = Ok (tt, g) -> sound I g -> first_ready I tn r nr j ->
  srfft_first R_ops r tn nr x j y = Ok w -> exists s', run (g_out G g) {| env := I; ym := y; xm := x |} = Some s' /\ ym s' = w /\ xm s' = x.
Proof.
  intros r add I x y g nr j tn w Hr Hb Hsound Rd Hw.
  destruct (prelude_first r true add g Hr Hb) as (g1 & X & Y & Hway & O1 & T1 & D1 & N1 & L1 & Ln1 & I1 & Tv & (Xc & Xn & Xl) & (Yc & Yn & Yl) & Yi). clear Hb.
  destruct (run_texts0 I tn r nr j y x Rd) as (E1 & Run1 & SB & Em).
  unfold srfft_first in Hw. apply seq_bind in Hw. destruct Hw as (v & Hg & Hw). apply seq_bind in Hw. destruct Hw as (w0 & Hbf & Hw). change (A R_ops) with R in *. apply getx_all in Hg.
  unfold way, forward in Hway. inv_x Hway xs g2 Hl. inv_x Hway ys g3 Hc.
  destruct (loads_x G draw lr X g1 xs g2 Hl) as (X1 & (P1 & P2 & P3 & P4 & P5 & P6) & _ & dl & Dl & Runl). { eapply Forall_impl; [|exact Xc]. intros l [A _]. exact A. }
  rewrite Xn in X1, P4, Runl. rewrite N1 in P4. rewrite X1 in Hc.
  destruct (comp_inv r _ g2 ys g3 _ Hr Hc P4) as (c1 & c2 & c3 & c4 & c5 & c6 & c7); [intros ->; left; reflexivity|congruence|congruence|]. rewrite P1 in c1.
  set (V := names G (g_blk G g3)). assert (NV : V = tnames r ++ rev (xnames (2 ^ r)) ++ params_first r) by (unfold V; rewrite c2, P4; reflexivity).
  assert (HV : incl (params_first r) V) by (rewrite NV; intros n Hn; apply in_or_app; right; apply in_or_app; right; exact Hn).
  assert (Vv : incl (xnames (2 ^ r)) V) by (rewrite NV; intros n Hn; apply in_or_app; right; apply in_or_app; left; rewrite <- in_rev; exact Hn).
  assert (Va : ve G V (jf r) /\ ve G V (nf r) /\ ve G V (j1f r)).
  { clear - HV NV. unfold jf, nf, j1f, params_first, tnames in *. destruct (r =? 3)%nat; (split; [|split]); try apply ve_int; apply ve_var; [apply HV; cbn; auto 10|apply HV; cbn; auto 10|rewrite NV; left; reflexivity]. }
  destruct Va as (Va1 & Va2 & Va3).
  destruct (vk_out V _ _ _ _ _ _ (gen_first_ve G V sh_text sh_sig tw_text lr r _ _ _ _ Va1 Va2 Va3 (rinputs_vars V _ Vv)) (Tv V HV) c1) as [_ Vys].
  destruct SB as ((B1 & B2 & B3) & B4).
  assert (Lv : length v = (2 ^ r)%nat) by (rewrite Hg; unfold stride; rewrite !map_length, seq_length; reflexivity).
  assert (Lc : length (rinputs G draw (xnames (2 ^ r))) = (2 ^ r)%nat) by (unfold rinputs, xnames; rewrite !map_length, seq_length; reflexivity).
  assert (Sp : forall J w', same_rest I J -> (r = 3%nat -> iv J "j"%string = iv I "j"%string /\ iv J "n8"%string = iv I "n8"%string /\ iv J "j1"%string = IZR (Z.of_nat j)) ->
       bfly_01s R_ops r tn (Z.of_nat j) (Z.of_nat nr) (map (eval J) (rinputs G draw (xnames (2 ^ r)))) = Ok w' ->
       mspec RF G J (gen_first G sh_text sh_sig tw_text lr r (jf r) (nf r) (j1f r) (rinputs G draw (xnames (2 ^ r)))) (fun es => length es = length (rinputs G draw (xnames (2 ^ r))) /\ Forall wfe es) (fun es => map (eval J) es = flatv w')).
  { intros J w' (J1 & J2 & J3) J4 EJ. destruct (args_val I J tn r nr j Rd Hr ltac:(intros Q; destruct (J4 Q) as (Q1 & Q2 & _); auto)) as [Ej En]. destruct Rd as [Rh Rs Rb].
    apply (gen_first_ok G J HL sh_text sh_sig tw_text) with (tn := tn) (jz := Z.of_nat j) (nz := Z.of_nat nr); try assumption.
    - rewrite J1. exact Rh.
    - apply rinputs_wfe.
    - intros Lt. destruct (Rs Lt) as (-> & -> & Ht). unfold jf, nf. destruct (Nat.eqb_spec r 3) as [Q|_]; [lia|]. split; [reflexivity|]. split; [reflexivity|]. split; [reflexivity|]. intros z u Hz ->. rewrite J1. apply Ht. exact Hz.
    - intros ->. destruct (Rb eq_refl) as (_ & _ & _ & _ & Ht). destruct (J4 eq_refl) as (_ & _ & Q1). destruct (wf_args 3) as [Wj Wn]. split; [exact Wj|]. split; [exact Wn|]. split; [exact Logic.I|]. split; [exact Ej|]. split; [exact En|]. split; [exact Q1|].
      intros z u Hz. rewrite <- (Ht z u Hz). unfold tval. rewrite J3, J2. reflexivity. }
  set (Js := set_iv I "j1"%string (IZR (Z.of_nat j) : RF)).
  destruct (f_first_ok r tn _ _ v w0 Hr Lv Hbf) as [Tot _]. destruct (Tot (map (eval Js) (rinputs G draw (xnames (2 ^ r))))) as (w1 & Hw1 & _); [rewrite map_length; exact Lc|].
  destruct (mspec_out _ _ Js _ _ _ _ _ (Sp Js w1 ltac:(repeat split) ltac:(intros _; repeat split) Hw1) I1 c1) as (I3 & Ext & (Ly & Wy) & _). clear w1 Hw1.
  destruct (tail_run G HL draw lr true false Y ys g3 tt g Hway Yc Wy c4 c3) as (t1 & t2 & dt & Dt & Runt); [congruence|exact Vys|].
  assert (NC : forall J, iother J = iother I -> no_collision J (lg G (g_cse G g3))) by (intros J HJ; rewrite <- t1; apply Hsound; exact HJ).
  assert (NC1 : forall J, iother J = iother I -> no_collision J (lg G (g_cse G g1))) by (intros J HJ; exact (nocol_ext J _ _ Ext (NC J HJ))).
  assert (Ix : forall E ns, (r = 3%nat -> iv E "j"%string = iv I "j"%string /\ iv E "n8"%string = iv I "n8"%string) -> incl (params_first r) ns -> iother E = iother I ->
            Forall2 (at_idx G ns E) X (stride (2 ^ r) j nr) /\ Forall2 (at_idx G ns E) Y (stride (2 ^ r / 2) j nr)).
  { intros E ns HE Hns HO.
    assert (Q : forall J, agree ns E J -> no_collision J (lg G (g_cse G g1)) /\ eval J (jf r) = IZR (Z.of_nat j) /\ eval J (nf r) = IZR (Z.of_nat nr)).
    { intros J (Q1 & Q2 & Q3). split; [apply NC1; congruence|]. apply (args_val I J tn r nr j Rd Hr). intros ->. destruct (HE eq_refl) as [Z1 Z2]. rewrite <- Z1, <- Z2. split; apply Q3, Hns; cbn; auto 10. }
    split; unfold stride; (apply at_idx_all; [assumption|]; intros J HJ; destruct (Q J HJ) as (Q1 & Q2 & Q3); destruct (Yi J Q1) as [YX YY]; first [rewrite YX | rewrite YY]; apply map_ext; intros i; rewrite Q2, Q3, <- mult_IZR, <- plus_IZR; f_equal; lia). }
  destruct (Runl {| env := E1; ym := y; xm := x |} (stride (2 ^ r) j nr)) as (s2 & R2 & Y2 & X2 & o2 & k2 & F2 & v2 & Ev2); cbn [env ym xm] in *.
  { apply Ix; [|rewrite N1; apply incl_refl|exact B1]. intros _. split; apply B4; intros [Q|[]]; discriminate Q. }
  assert (A2 : iv (env s2) "j"%string = iv I "j"%string /\ iv (env s2) "n8"%string = iv I "n8"%string /\ iv (env s2) "m"%string = iv E1 "m"%string).
  { split; [|split]; (rewrite v2 by (intros Q; no_name Q)); [apply B4; intros [Q|[]]; discriminate Q|apply B4; intros [Q|[]]; discriminate Q|reflexivity]. }
  destruct A2 as (Aj & An & Am).
  destruct (run_texts1 (env s2) r nr j (ym s2) (xm s2)) as (E3 & R3 & (S3 & K3) & Ej1).
  { intros Hr3. rewrite Am, Aj. destruct Rd as [_ _ Rb]. destruct (Rb Hr3) as ((p & Hp & _ & Enr) & _ & Ejj & Lt & _). split; [exact (Em Hr3)|]. split; [exact Ejj|]. split; [exact Lt|]. exists (p - 3)%nat. exact Enr. }
  assert (A3 : r = 3%nat -> iv E3 "j"%string = iv I "j"%string /\ iv E3 "n8"%string = iv I "n8"%string).
  { intros ->. split; (rewrite K3 by (intros [Q|[Q|[]]]; discriminate Q)); assumption. }
  destruct S3 as (s31 & s32 & s33). assert (O3 : iother E3 = iother I) by congruence.
  assert (SR : same_rest I E3) by (split; [congruence|split; congruence]).
  assert (Ev3 : map (eval E3) (rinputs G draw (xnames (2 ^ r))) = v).
  { etransitivity; [|etransitivity; [exact Ev2|symmetry; exact Hg]]. unfold rinputs. rewrite !map_map. apply map_ext_in. intros n Hn. cbn [eval mkvar map opval]. apply K3. intros Q. unfold tnames in Q. destruct (r =? 3)%nat; [|destruct Q]. destruct Q as [<-|[<-|[]]]; no_name Hn. }
  assert (Hbf2 : bfly_01s R_ops r tn (Z.of_nat j) (Z.of_nat nr) (map (eval E3) (rinputs G draw (xnames (2 ^ r)))) = Ok w0) by (etransitivity; [|exact Hbf]; f_equal; exact Ev3).
  destruct (mspec_out _ _ E3 _ _ _ _ _ (Sp E3 w0 SR ltac:(intros Q; destruct (A3 Q); auto) Hbf2) I1 c1) as (_ & _ & _ & Val).
  destruct (Runt {| env := E3; ym := ym s2; xm := xm s2 |} (stride (2 ^ r / 2) j nr) w x) as (s4 & R4 & Y4 & X4); cbn [env ym xm].
  { intros J HJ. apply Hsound. congruence. }
  { apply Ix; [exact A3|exact HV|exact O3]. }
  { rewrite (Val (NC E3 O3)), Y2, X2. apply mem_cx. exact Hw. }
  exists s4. split; [|auto]. rewrite Dt, c5, Dl, O1, !run_app, Run1. cbv beta iota. rewrite R2. destruct s2 as [e2 y2 x2]. cbn [env ym xm] in *. rewrite R3. exact R4.
Qed.

Lemma decimal_inj' : forall a b, ("px" ++ decimal a)%string = ("px" ++ decimal b)%string -> a = b.
Proof. intros a b H. injection H as H. apply decimal_inj. exact H. Qed.
Lemma pnames_nodup : forall n, NoDup (pnames n).
Proof. intros n. unfold pnames. apply FinFun.Injective_map_NoDup; [intros a b H; apply decimal_inj'; exact H|apply seq_NoDup]. Qed.

Theorem exec_first_backward : forall r add (I : interp RF) x y g nr j tn w, (1 <= r <= 3)%nat -> body_first r false add (gen0 G) = Ok (tt, g) -> sound I g -> declared g -> circuits (vars_ok G (pnames (2 ^ r))) g -> first_ready I tn r nr j ->
  NoDup (map (iv I) (vnames (2 ^ r / 2))) -> (forall a, ~ In (icall I "twiddle"%string [a]) (map (iv I) (vnames (2 ^ r / 2)))) ->
  isrfft_last R_ops add r tn nr y j x = Ok w -> exists s', run (g_out G g) {| env := I; ym := y; xm := x |} = Some s' /\ ym s' = y /\ xm s' = w.
Proof.
  intros r add I x y g nr j tn w Hr Hb Hsound Hdecl Hcirc Rd Rn Ra Hw.
  destruct (prelude_first r false add g Hr Hb) as (g1 & X & Y & Hway & O1 & T1 & D1 & N1 & L1 & Ln1 & I1 & Tv & (Xc & Xn & Xl) & (Yc & Yn & Yl) & Yi). clear Hb.
  destruct (run_texts0 I tn r nr j y x Rd) as (E1 & Run1 & SB & Em).
  unfold isrfft_last in Hw. apply seq_bind in Hw. destruct Hw as (v & Hg & Hw). apply seq_bind in Hw. destruct Hw as (w0 & Hbf & Hw). change (A R_ops) with R in *.
  unfold way, forward in Hway. inv_x Hway pxs ga Hp. inv_x Hway pys gb Hq. inv_x Hway ud gc Hd. inv_x Hway xs g2 Hl. inv_x Hway ys g3 Hc.
  destruct (placeholders false X 0 g1 pxs ga Hp) as (PX & (a1 & a2 & a3 & a4 & a5 & a6) & a7 & _). { eapply Forall_impl; [|exact Xc]. intros l [A _]. exact A. }
  rewrite Xl in PX, a4. fold (pnames (2 ^ r)) in PX, a4. rewrite N1 in a4. rewrite PX in Hq.
  destruct (comp_inv r _ ga pys gb _ Hr Hq a4) as (q1 & q2 & q3 & q4 & q5 & q6 & q7); [intros ->; right; reflexivity|congruence|congruence|]. rewrite a1 in q1.
  apply diffed_inv in Hd. destruct Hd as (d1 & d2 & d3 & d4 & d5). rewrite PX in d5.
  destruct (loads_y G draw lr Y gc xs g2 Hl) as (X1 & (P1 & P2 & P3 & P4 & P5 & P6) & dl & Dl & Runl). { eapply Forall_impl; [|exact Yc]. intros l [A _]. exact A. }
  rewrite Yn in X1, P4, Runl. apply grad_inv in Hc. apply of_m_inv in Hc. destruct Hc as (c1 & c2 & c3 & c4 & c5). rewrite X1, PX, P1, d1 in c1.
  set (V := names G (g_blk G g2)). assert (NV : V = rev (vnames (2 ^ r / 2)) ++ tnames r ++ rev (pnames (2 ^ r)) ++ params_first r) by (unfold V; rewrite P4, d2, q2, a4; reflexivity).
  assert (HV : incl (params_first r) V) by (rewrite NV; intros n Hn; apply in_or_app; right; apply in_or_app; right; apply in_or_app; right; exact Hn).
  assert (Vv : incl (vnames (2 ^ r / 2)) V) by (rewrite NV; intros n Hn; apply in_or_app; left; rewrite <- in_rev; exact Hn).
  assert (Vp : incl (pnames (2 ^ r)) V) by (rewrite NV; intros n Hn; apply in_or_app; right; apply in_or_app; right; apply in_or_app; left; rewrite <- in_rev; exact Hn).
  assert (Va : ve G V (jf r) /\ ve G V (nf r) /\ ve G V (j1f r)).
  { clear - HV NV. unfold jf, nf, j1f, params_first, tnames in *. destruct (r =? 3)%nat; (split; [|split]); try apply ve_int; apply ve_var; [apply HV; cbn; auto 10|apply HV; cbn; auto 10|rewrite NV; apply in_or_app; right; left; reflexivity]. }
  destruct Va as (Va1 & Va2 & Va3).
  set (W := vars unknown ++ V). assert (VW : incl V W) by (intros n Hn; apply in_or_app; right; exact Hn).
  destruct (vk_out W _ _ _ _ _ _ (gen_first_ve G W sh_text sh_sig tw_text lr r _ _ _ _ (incl_tran Va1 VW) (incl_tran Va2 VW) (incl_tran Va3 VW) (rinputs_vars W _ (incl_tran Vp VW))) (Tv W (incl_tran HV VW)) q1) as [Tb Vpys].
  destruct (vk_out W _ _ _ _ _ _ (gradient_ve G W fuel lr unknown _ _ _ (ve_unknown V) Vpys (cinputs_vars W _ (incl_tran Vv VW))) Tb c1) as [_ Vys]. cbv beta iota in Vys.
  destruct SB as ((B1 & B2 & B3) & B4).
  assert (Half : (2 * (2 ^ r / 2) = 2 ^ r)%nat) by (clear - Hr; assert (C : r = 1%nat \/ r = 2%nat \/ r = 3%nat) by lia; destruct C as [-> | [-> | ->]]; reflexivity).
  assert (Lv : length v = (2 ^ r / 2)%nat) by (rewrite (gets_length _ _ _ _ Hg); unfold stride; rewrite map_length, seq_length; reflexivity).
  assert (Lp : length (pnames (2 ^ r)) = (2 ^ r)%nat) by (unfold pnames; rewrite map_length, seq_length; reflexivity).
  assert (Lc : length (rinputs G draw (pnames (2 ^ r))) = (2 ^ r)%nat) by (unfold rinputs; rewrite map_length; exact Lp).
  assert (Lu : length (cinputs G draw (vnames (2 ^ r / 2))) = (2 ^ r)%nat) by (rewrite cinputs_len; unfold vnames; rewrite map_length, seq_length; exact Half).
  (* static facts *)
  destruct (tail_diff _ _ _ _ _ Hway) as [Df _].
  destruct (Hcirc (rinputs G draw (pnames (2 ^ r))) pys) as (Ci & Ap & Fo & Fu). { rewrite Df, c5, P3, d5, q7, a3, D1. left. reflexivity. }
  destruct (transpose_r_flat r tn _ _ _ w0 Hr Hbf) as ((v0 & w00 & Lv0 & Hv0) & Lw & _).
  destruct (f_first_ok r tn _ _ v0 w00 Hr Lv0 Hv0) as [Tot _].
  set (Js := set_iv I "j1"%string (IZR (Z.of_nat j) : RF)).
  destruct (Tot (map (eval Js) (rinputs G draw (pnames (2 ^ r))))) as (w1 & Hw1 & _); [rewrite map_length; exact Lc|].
  destruct (args_val I Js tn r nr j Rd Hr ltac:(intros _; split; reflexivity)) as [EjJ EnJ]. pose proof Rd as [Rh Rs Rb].
  assert (Sp : mspec RF G Js (gen_first G sh_text sh_sig tw_text lr r (jf r) (nf r) (j1f r) (rinputs G draw (pnames (2 ^ r)))) (fun es => length es = length (rinputs G draw (pnames (2 ^ r))) /\ Forall wfe es) (fun es => map (eval Js) es = flatv w1)).
  { apply (gen_first_ok G Js HL sh_text sh_sig tw_text) with (tn := tn) (jz := Z.of_nat j) (nz := Z.of_nat nr); try assumption.
    - apply rinputs_wfe.
    - intros Lt. destruct (Rs Lt) as (-> & -> & Ht). unfold jf, nf. destruct (Nat.eqb_spec r 3) as [Q|_]; [lia|]. split; [reflexivity|]. split; [reflexivity|]. split; [reflexivity|]. intros z u Hz ->. apply Ht. exact Hz.
    - intros ->. destruct (Rb eq_refl) as (_ & _ & _ & _ & Ht). destruct (wf_args 3) as [Wj Wn]. split; [exact Wj|]. split; [exact Wn|]. split; [exact Logic.I|]. split; [exact EjJ|]. split; [exact EnJ|]. split; [reflexivity|]. exact Ht. }
  destruct (mspec_out _ _ Js _ _ _ _ _ Sp I1 q1) as (Ib & Ext1 & (Lpy & _) & _). clear Sp w1 Hw1.
  destruct (mspec_out _ _ Js _ _ _ _ _ (gradient_ok RF G Js HL pys Ci fuel lr unknown (rinputs G draw (pnames (2 ^ r))) (cinputs G draw (vnames (2 ^ r / 2))) Fu Wunk (cinputs_wfe G draw _) ltac:(rewrite Lpy, Lc, Lu; reflexivity) (proj1 Ap)) Ib c1) as (I3 & Ext2 & (ds & Qd & Ld & Wy) & _). injection Qd as <-.
  assert (Vy' : Forall (ve G (names G (g_blk G g3))) ys) by (rewrite c2; exact (scoped_known V g ys Hdecl (told_tail false add X ys g3 tt g Hway Xc Wy) Vys)).
  destruct (tail_run G HL draw lr false add X ys g3 tt g Hway Xc Wy) as (t1 & t2 & dt & Dt & Runt); [rewrite c2, P6, d2; exact q4|rewrite c2, P5, d2; exact q3|congruence|exact Vy'|].
  assert (NC : forall J, iother J = iother I -> no_collision J (lg G (g_cse G g3))) by (intros J HJ; rewrite <- t1; apply Hsound; exact HJ).
  assert (NCb : forall J, iother J = iother I -> no_collision J (lg G (g_cse G gb))) by (intros J HJ; exact (nocol_ext J _ _ Ext2 (NC J HJ))).
  assert (NC1 : forall J, iother J = iother I -> no_collision J (lg G (g_cse G g1))) by (intros J HJ; exact (nocol_ext J _ _ Ext1 (NCb J HJ))).
  assert (Ix : forall E ns, (r = 3%nat -> iv E "j"%string = iv I "j"%string /\ iv E "n8"%string = iv I "n8"%string) -> incl (params_first r) ns -> iother E = iother I ->
            Forall2 (at_idx G ns E) X (stride (2 ^ r) j nr) /\ Forall2 (at_idx G ns E) Y (stride (2 ^ r / 2) j nr)).
  { intros E ns HE Hns HO.
    assert (Q : forall J, agree ns E J -> no_collision J (lg G (g_cse G g1)) /\ eval J (jf r) = IZR (Z.of_nat j) /\ eval J (nf r) = IZR (Z.of_nat nr)).
    { intros J (Q1 & Q2 & Q3). split; [apply NC1; congruence|]. apply (args_val I J tn r nr j Rd Hr). intros ->. destruct (HE eq_refl) as [Z1 Z2]. rewrite <- Z1, <- Z2. split; apply Q3, Hns; cbn; auto 10. }
    split; unfold stride; (apply at_idx_all; [assumption|]; intros J HJ; destruct (Q J HJ) as (Q1 & Q2 & Q3); destruct (Yi J Q1) as [YX YY]; first [rewrite YX | rewrite YY]; apply map_ext; intros i; rewrite Q2, Q3, <- mult_IZR, <- plus_IZR; f_equal; lia). }
  (* texts of the circuit *)
  assert (Aj1 : iv E1 "j"%string = iv I "j"%string) by (apply B4; intros [Q|[]]; discriminate Q).
  assert (An1 : iv E1 "n8"%string = iv I "n8"%string) by (apply B4; intros [Q|[]]; discriminate Q).
  destruct (run_texts1 E1 r nr j y x) as (E2 & R1 & (S2 & K2) & Ej1).
  { intros Hr3. rewrite Aj1. destruct (Rb Hr3) as ((p & _ & _ & Enr) & _ & Ejj & Lt & _). split; [exact (Em Hr3)|]. split; [exact Ejj|]. split; [exact Lt|]. exists (p - 3)%nat. exact Enr. }
  destruct S2 as (s21 & s22 & s23).
  assert (A2 : r = 3%nat -> iv E2 "j"%string = iv I "j"%string /\ iv E2 "n8"%string = iv I "n8"%string).
  { intros ->. split; (rewrite K2 by (intros [Q|[Q|[]]]; discriminate Q)); assumption. }
  assert (Iv2 : map (iv E2) (vnames (2 ^ r / 2)) = map (iv I) (vnames (2 ^ r / 2))).
  { apply map_ext_in. intros n Hn. rewrite K2; [apply B4; intros [Q|[]]; subst n; no_name Hn|]. intros Q. unfold tnames in Q. destruct (r =? 3)%nat; [|destruct Q]. destruct Q as [<-|[<-|[]]]; no_name Hn. }
  destruct (Runl {| env := E2; ym := y; xm := x |} (stride (2 ^ r / 2) j nr) v) as (s2 & R2 & Y2 & X2 & v2 & o2 & k2 & F2 & Ev2); cbn [env ym xm] in *.
  { rewrite Iv2. exact Rn. }
  { apply Ix; [exact A2| |congruence]. rewrite d2, q2, a4. intros n Hn. apply in_or_app. right. apply in_or_app. right. exact Hn. }
  { apply gets_all. exact Hg. }
  assert (O2 : iother (env s2) = iother I) by congruence.
  destruct (back_first G (env s2) HL sh_text sh_sig tw_text draw lr fuel unknown r (jf r) (nf r) (j1f r) (pnames (2 ^ r)) (cinputs G draw (vnames (2 ^ r / 2))) (g_cse G g1) (g_cse G gb) pys (g_cse G gb) (Z.of_nat j) (Z.of_nat nr) tn w0) as (ds & st' & Eg & _ & _ & _ & _ & Val); try assumption.
  { apply pnames_nodup. }
  { apply cinputs_wfe. }
  { congruence. }
  { intros Lt. destruct (Rs Lt) as (-> & -> & Ht). unfold jf, nf. destruct (Nat.eqb_spec r 3) as [Q|_]; [lia|]. split; [reflexivity|]. split; [reflexivity|]. split; [reflexivity|]. rewrite O2. exact Ht. }
  { intros ->. destruct (Rb eq_refl) as (_ & _ & _ & _ & Ht). destruct (wf_args 3) as [Wj Wn]. split; [exact Wj|]. split; [exact Wn|]. split; [exact Logic.I|]. split.
    - intros z u Hz. rewrite <- (Ht z u Hz). unfold tval. rewrite k2, s23, B3. rewrite !F2, s22, B2; [reflexivity|..]; rewrite Iv2; apply Ra.
    - intros J (J1 & J2 & J3 & J4). destruct (A2 eq_refl) as [Z1 Z2]. destruct (args_val I J tn 3 nr j Rd Hr) as [Q1 Q2].
      { intros _. split; (rewrite J1 by (intros Q; no_name Q)); rewrite v2; assumption. }
      split; [exact Q1|]. split; [exact Q2|]. cbn [j1f Nat.eqb eval mkvar map opval]. rewrite J1 by (intros Q; no_name Q). rewrite v2. exact (Ej1 eq_refl). }
  { intros J (J1 & J2 & J3 & J4). apply NCb. congruence. }
  { etransitivity; [|exact Hbf]. f_equal. etransitivity; [exact (f_equal thickv Ev2)|apply thick_flat]. }
  rewrite c1 in Eg. injection Eg as <- <-.
  destruct (Runt s2 (stride (2 ^ r) j nr) y w) as (s3 & R3 & Y3 & X3).
  { intros J HJ. apply Hsound. congruence. }
  { apply Ix; [|rewrite c2; exact HV|exact O2]. rewrite v2. exact A2. }
  { rewrite (Val (NC (env s2) O2)), Y2, X2. unfold mem_after. change (A R_ops) with R in *. rewrite Hw. reflexivity. }
  exists s3. split; [|auto]. rewrite Dt, c3, Dl, d3, q5, a7, O1, !run_app, Run1. cbv beta iota. rewrite R1. cbv beta iota. rewrite R2. exact R3.
Qed.
End Exec.
