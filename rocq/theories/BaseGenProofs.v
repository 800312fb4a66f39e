(** Proofs about the generated multiplication base cases. *)
From Coq Require Import String ZArith List Bool Lia Ring_theory Ring Field.
From Verif Require Import Base Field FPS ExpModel ExpProofs BlockProofs GenScope BaseGenModel BaseGenRun.
Import ListNotations.
Open Scope nat_scope.

(** ** Spec *)
Section Spec.
Variables (F : Fld) (f : frame) (m : mem F).
(** Element i of array a of length c, zero beyond its end. *)
Definition item (a c : string) (i : nat) : F :=
  if (Z.of_nat i <? f_int f c)%Z then match m (f_ptr f a + Z.of_nat i)%Z with Some v => v | None => k0 end else k0.
(** The first n elements of array a of length c exist. *)
Definition mapped (a c : string) (n : nat) : Prop := forall i, i < n -> (Z.of_nat i < f_int f c)%Z -> m (f_ptr f a + Z.of_nat i)%Z <> None.
(** The coefficient of a product. *)
Fixpoint total (g : nat -> F) (n : nat) : F := match n with O => k0 | S k => kadd (total g k) (g k) end.
Definition conv (x y : nat -> F) (i : nat) : F := total (fun j => kmul (x j) (y (i - j))) (S i).
(** Exactly the first n elements of a (of length c) are replaced. *)
Definition replaced (a c : string) (n : nat) (v : nat -> F) (m' : mem F) : Prop :=
  (forall i, i < n -> (Z.of_nat i < f_int f c)%Z -> m' (f_ptr f a + Z.of_nat i)%Z = Some (v i)) /\
  (forall p, (forall i, i < n -> (Z.of_nat i < f_int f c)%Z -> p <> (f_ptr f a + Z.of_nat i)%Z) -> m' p = m p).
End Spec.
Arguments item {F}. Arguments mapped {F}. Arguments conv {F}. Arguments total {F}. Arguments replaced {F}.
(** Signatures identify only expressions of equal value, whatever the inputs are. *)
Definition clean (F : Fld) (G : SigOps) (g : qst G) : Prop :=
  forall J : interp F, no_collision J (lg G (q_cse G g)) /\ faithful F G (flat_map subs (q_asked G g)) J.

Lemma elem_inj : forall x i j, elem x i = elem x j -> i = j.
Proof. intros x i j H. unfold elem in H. apply app_cancel in H. apply decimal_inj, H. Qed.

Section P.
Variables (F : Fld) (G : SigOps).
Hypothesis HL : SigLaws G.
Variables (draw : string -> G) (lr : bool) (f : frame).
Add Field KFieldBG : (kfield F).
Notation exp := (exp G).
Notation qst := (qst G).

(** ** Running *)
Lemma exec_lets : forall (ls : list (string * exp)) t (I : interp F) m, exec f (map (fun p => QLet (fst p) (snd p)) ls ++ t) I m = exec f t (run_lines ls I) m.
Proof. induction ls as [|[v e] ls IH]; intros t I m; [reflexivity|]. cbn [map app exec fst snd]. rewrite IH. reflexivity. Qed.
Definition loaded (m : mem F) (x : string) (is : list nat) (I : interp F) : interp F :=
  fold_left (fun J i => set_iv J (elem x i) (item f m x ("n" ++ x) i)) is I.
Lemma exec_loads : forall x is t (I : interp F) m, (forall i, In i is -> (Z.of_nat i < f_int f ("n" ++ x))%Z -> m (f_ptr f x + Z.of_nat i)%Z <> None) ->
  exec f (map (fun i => QLoad (elem x i) i ("n" ++ x) x) is ++ t) I m = exec (G := G) f t (loaded m x is I) m.
Proof.
  intros x is. induction is as [|i is IH]; intros t I m H; [reflexivity|]. cbn [map app exec].
  change (loaded m x (i :: is) I) with (loaded m x is (set_iv I (elem x i) (item f m x ("n" ++ x) i))).
  assert (H' := H i (or_introl eq_refl)). assert (Hr : forall j, In j is -> (Z.of_nat j < f_int f ("n" ++ x))%Z -> m (f_ptr f x + Z.of_nat j)%Z <> None) by (intros j Hj; apply H; right; exact Hj).
  unfold item. destruct (Z.ltb_spec (Z.of_nat i) (f_int f ("n" ++ x))).
  - destruct (m (f_ptr f x + Z.of_nat i)%Z) as [v|]; [|exfalso; apply H'; [assumption|reflexivity]]. apply IH, Hr.
  - apply IH, Hr.
Qed.
Lemma loaded_other : forall m x is I v, (forall i, In i is -> v <> elem x i) -> iv (loaded m x is I) v = iv I v.
Proof.
  intros m x is. induction is as [|i is IH]; intros I v H; [reflexivity|]. cbn [loaded fold_left]. unfold loaded in IH. rewrite IH by (intros j Hj; apply H; right; exact Hj).
  cbn. destruct (String.eqb_spec v (elem x i)) as [E|_]; [exfalso; apply (H i); [left; reflexivity|exact E]|reflexivity].
Qed.
Lemma loaded_at : forall m x is I i, In i is -> iv (loaded m x is I) (elem x i) = item f m x ("n" ++ x) i.
Proof.
  intros m x is. induction is as [|j is IH]; intros I i H; [destruct H|]. cbn [loaded fold_left]. destruct (in_dec Nat.eq_dec i is) as [Hi|Hi]; [apply IH, Hi|].
  destruct H as [->|H]; [|contradiction]. change (iv (loaded m x is (set_iv I (elem x i) (item f m x ("n" ++ x) i))) (elem x i) = item f m x ("n" ++ x) i).
  rewrite loaded_other. { cbn. rewrite String.eqb_refl. reflexivity. }
  intros k Hk E. apply elem_inj in E. subst k. contradiction.
Qed.

(** One assignment with the declarations before it. *)
Record seg : Type := { s_i : nat; s_lets : list (string * exp); s_t : exp; s_y : exp }.
Definition stmts (a c : string) (s : seg) : list (sstmt G) :=
  (match s_i s with O => [] | S _ => [QRet c (s_i s)] end) ++ map (fun p => QLet (fst p) (snd p)) (s_lets s) ++ [QStore a (s_i s) (s_y s)].
Fixpoint seg_scoped (known : list string) (l : list seg) : Prop :=
  match l with
  | [] => True
  | s :: t => well_scoped known (s_lets s) /\ incl (vars (s_y s)) (rev (map fst (s_lets s)) ++ known) /\ seg_scoped (rev (map fst (s_lets s)) ++ known) t
  end.
Fixpoint stores (a c : string) (l : list (nat * F)) (m : mem F) : mem F :=
  match l with
  | [] => m
  | (i, v) :: t => if (f_int f c <=? Z.of_nat i)%Z then m else stores a c t (put m (f_ptr f a + Z.of_nat i)%Z v)
  end.
Lemma run_app : forall (a b : list (string * exp)) (I : interp F), run_lines (a ++ b) I = run_lines b (run_lines a I).
Proof. intros a b I. unfold run_lines. apply fold_left_app. Qed.
Lemma seg_lets : forall l known, seg_scoped known l -> well_scoped known (flat_map s_lets l).
Proof.
  induction l as [|s l IH]; intros known H; cbn [flat_map]; [exact Logic.I|]. destruct H as (H1 & H2 & H3). apply well_scoped_app. split; [exact H1|]. apply IH, H3.
Qed.
Lemma exec_segs : forall a c l known (I : interp F) m, (0 < f_int f c)%Z -> seg_scoped known l ->
  (forall s, In s l -> (Z.of_nat (s_i s) < f_int f c)%Z -> m (f_ptr f a + Z.of_nat (s_i s))%Z <> None) ->
  exec f (flat_map (stmts a c) l) I m = Some (stores a c (map (fun s => (s_i s, eval (run_lines (flat_map s_lets l) I) (s_y s))) l) m).
Proof.
  intros a c l. induction l as [|s l IH]; intros known I m H0 HS HM; [reflexivity|]. destruct HS as (S1 & S2 & S3).
  cbn [flat_map map stores]. unfold stmts at 1. rewrite <- !app_assoc.
  assert (K : exec f (map (fun p => QLet (fst p) (snd p)) (s_lets s) ++ [QStore a (s_i s) (s_y s)] ++ flat_map (stmts a c) l) I m =
    if (f_int f c <=? Z.of_nat (s_i s))%Z then exec f (map (fun p => QLet (fst p) (snd p)) (s_lets s) ++ [QStore a (s_i s) (s_y s)] ++ flat_map (stmts a c) l) I m else
    Some (stores a c (map (fun s0 => (s_i s0, eval (run_lines (s_lets s ++ flat_map s_lets l) I) (s_y s0))) l) (put m (f_ptr f a + Z.of_nat (s_i s))%Z (eval (run_lines (s_lets s ++ flat_map s_lets l) I) (s_y s))))).
  { destruct (Z.leb_spec (f_int f c) (Z.of_nat (s_i s))) as [Hc|Hc]; [reflexivity|]. rewrite exec_lets. cbn [app exec].
    destruct (m (f_ptr f a + Z.of_nat (s_i s))%Z) eqn:Em; [|exfalso; apply (HM s (or_introl eq_refl) Hc Em)].
    rewrite (IH _ _ _ H0 S3).
    - rewrite run_app. do 2 f_equal. f_equal. destruct (run_lines_rest F G (flat_map s_lets l) (run_lines (s_lets s) I)) as (R1 & R2 & R3).
      apply eval_agree; [|rewrite R1; reflexivity|rewrite R2; reflexivity|rewrite R3; reflexivity].
      intros v Hv. symmetry. eapply run_lines_known; [apply seg_lets, S3|]. apply S2, Hv.
    - intros s' Hs' Hc'. unfold put. destruct (Z.eqb_spec (f_ptr f a + Z.of_nat (s_i s')) (f_ptr f a + Z.of_nat (s_i s))); [discriminate|]. apply HM; [right; exact Hs'|exact Hc']. }
  destruct (s_i s) as [|k] eqn:Ei.
  - cbn [app]. cbn [app] in K. rewrite K. destruct (Z.leb_spec (f_int f c) (Z.of_nat 0)); [lia|reflexivity].
  - cbn [app exec]. cbn [app] in K. rewrite K. destruct (Z.leb_spec (f_int f c) (Z.of_nat (S k))); reflexivity.
Qed.

(** ** What was stored *)
Lemma stores_seq : forall a c (v : nat -> F) n k m, (forall i, k <= i < k + n -> (Z.of_nat i < f_int f c)%Z -> stores a c (map (fun i => (i, v i)) (seq k n)) m (f_ptr f a + Z.of_nat i)%Z = Some (v i)) /\
  (forall p, (forall i, k <= i < k + n -> (Z.of_nat i < f_int f c)%Z -> p <> (f_ptr f a + Z.of_nat i)%Z) -> stores a c (map (fun i => (i, v i)) (seq k n)) m p = m p).
Proof.
  intros a c v n. induction n as [|n IH]; intros k m; cbn [seq map stores]; [split; [intros i Hi; lia|reflexivity]|].
  destruct (IH (S k) (put m (f_ptr f a + Z.of_nat k)%Z (v k))) as [A B]. destruct (Z.leb_spec (f_int f c) (Z.of_nat k)) as [Hc|Hc].
  - split; [intros i Hi Hf; lia|reflexivity].
  - split.
    + intros i Hi Hf. destruct (Nat.eq_dec i k) as [->|Hk]; [|apply A; [lia|exact Hf]]. rewrite B; [unfold put; rewrite Z.eqb_refl; reflexivity|]. intros j Hj _. lia.
    + intros p Hp. rewrite B by (intros i Hi; apply Hp; lia). unfold put. destruct (Z.eqb_spec p (f_ptr f a + Z.of_nat k)) as [->|_]; [|reflexivity]. exfalso. apply (Hp k); [lia|exact Hc|reflexivity].
Qed.

(** ** The loads *)
Lemma extends_ok : forall x is g vs g', extends G draw x is g = Ok (vs, g') ->
  vs = map (fun i => mkvar (elem x i) (draw (elem x i))) is /\ q_cse G g' = q_cse G g /\ q_asked G g' = q_asked G g /\
  q_out G g' = q_out G g ++ map (fun i => QLoad (elem x i) i ("n" ++ x) x) is /\
  q_blk G g' = {| names := rev (map (elem x) is) ++ names G (q_blk G g); counts := counts G (q_blk G g); lets := lets G (q_blk G g); lines := lines G (q_blk G g) |}.
Proof.
  intros x is. induction is as [|i is IH]; intros g vs g' H; cbn [extends] in H.
  - injection H as <- <-. cbn [map rev app]. rewrite app_nil_r. destruct g as [c b o q]. cbn. destruct b. auto.
  - destruct (extend G draw x i g) as [[v g1]| |] eqn:E1; try discriminate. cbn [bind] in H. destruct (extends G draw x is g1) as [[ws g2]| |] eqn:E2; try discriminate. injection H as <- <-.
    unfold extend, input in E1. cbn [q_emit q_blk q_cse q_out q_asked] in E1. destruct (existsb (String.eqb (elem x i)) (names G (q_blk G g))); [discriminate|]. cbn in E1. injection E1 as <- <-.
    destruct (IH _ _ _ E2) as (-> & A2 & A3 & A4 & A5). cbn in A2, A3, A4, A5. rewrite A2, A3, A4, A5. cbn [map rev]. rewrite <- !app_assoc. cbn [app]. auto.
Qed.

(** ** The terms *)
Section Terms.
Variables (ins : list string) (term : nat -> M G exp) (val : interp F -> nat -> F).
Hypothesis Ht : forall i, exists sg, forall J, espec F G J (term i) sg (val J i).
Hypothesis Hv : forall i, vk G ins (term i) (ve G ins).
Lemma known_names : forall b v, scoped_b G ins b -> In v (names G b) -> In v (rev (map fst (lines G b)) ++ ins).
Proof. intros b v (_ & N & _) H. apply N in H. apply in_or_app. destruct H as [H|H]; [right; exact H|left; apply in_rev in H; exact H]. Qed.
Lemma terms_ok : forall a c is g g', q_terms G a c term is g = Ok g' -> Inv (q_cse G g) -> tabv G ins (q_cse G g) -> scoped_b G ins (q_blk G g) ->
  exists l : list seg, map s_i l = is /\ q_out G g' = q_out G g ++ flat_map (stmts a c) l /\
    lines G (q_blk G g') = lines G (q_blk G g) ++ flat_map s_lets l /\ seg_scoped (rev (map fst (lines G (q_blk G g))) ++ ins) l /\
    q_asked G g' = q_asked G g ++ map s_t l /\ incl (lg G (q_cse G g)) (lg G (q_cse G g')) /\
    (forall J : interp F, no_collision J (lg G (q_cse G g')) -> Forall (fun s => eval J (s_t s) = val J (s_i s)) l) /\
    (forall S (J : interp F), faithful F G S J -> incl (flat_map subs (q_asked G g')) S -> sat F G J (q_blk G g') -> lets_ok F G S J (q_blk G g) -> Forall (fun s => eval J (s_y s) = eval J (s_t s)) l).
Proof.
  intros a c is. induction is as [|i is IH]; intros g g' H HI HT HB; cbn [q_terms] in H.
  - injection H as <-. exists []. cbn [map flat_map seg_scoped]. rewrite !app_nil_r. repeat split; auto using incl_refl.
  - set (g0 := match i with O => g | S _ => q_emit G (QRet c i) g end) in *.
    assert (G0 : q_cse G g0 = q_cse G g /\ q_blk G g0 = q_blk G g /\ q_asked G g0 = q_asked G g /\ q_out G g0 = q_out G g ++ match i with O => [] | S _ => [QRet c i] end).
    { unfold g0. destruct i; [rewrite app_nil_r|]; auto. }
    clearbody g0. destruct G0 as (C0 & B0 & K0 & O0). rewrite C0 in H.
    destruct (Ht i) as [sgi Hti].
    destruct (Hti {| iv := fun _ => k0; iother := fun _ => k0; ifield := fun _ _ => k0; icall := fun _ _ => k0 |} (q_cse G g) HI) as (t & st & Et & I1 & X1 & _).
    rewrite Et in H. cbn [bind] in H.
    assert (Vt : forall J : interp F, no_collision J (lg G st) -> eval J t = val J i).
    { intros J HN. destruct (Hti J (q_cse G g) HI) as (t' & st' & Et' & _ & _ & _ & _ & _ & V). rewrite Et in Et'. injection Et' as <- <-. apply V, HN. }
    destruct (Hv i _ _ _ HT Et) as [T1 Ve].
    unfold q_store in H. cbn [q_cse q_blk q_out q_asked] in H. rewrite B0, O0, K0 in H.
    destruct (use_same G t (q_blk G g)) as (U1 & U2 & U3). rewrite U3 in H.
    destruct (compute G t (use G t (q_blk G g))) as [[y b']| |] eqn:Ec; try discriminate. cbn [bind] in H.
    assert (HB' : scoped_b G ins (use G t (q_blk G g))) by (destruct HB as (W & N & Q); split; [rewrite U3; exact W|split; [rewrite U1, U3; exact N|rewrite U1, U2; exact Q]]).
    assert (Hn : incl (vars t) (names G (use G t (q_blk G g)))) by (intros v Hv'; rewrite U1; apply (proj2 (proj1 (proj2 HB) v)); left; apply Ve, Hv').
    destruct (compute_scoped G t ins _ _ _ Ec HB' Hn) as (Sb & Vy & _).
    destruct (compute_prefix G _ _ _ _ Ec) as [ls El]. rewrite U3 in El. rewrite El in H. rewrite skipn_app, skipn_all, Nat.sub_diag in H. cbn [skipn app] in H.
    destruct (IH _ _ H) as (l & L1 & L2 & L3 & L4 & L5 & L6 & L7 & L8); cbn [q_cse q_blk q_out q_asked]; [exact I1|exact T1|exact Sb|].
    cbn [q_cse q_blk q_out q_asked] in L2, L3, L4, L5, L6, L7, L8. rewrite El, map_app, rev_app_distr, <- app_assoc in L4.
    exists ({| s_i := i; s_lets := ls; s_t := t; s_y := y |} :: l). cbn [map flat_map seg_scoped s_i s_lets s_t s_y].
    split; [rewrite L1; reflexivity|]. split; [rewrite L2; unfold stmts at 2; cbn [s_i s_lets s_y]; rewrite <- !app_assoc; reflexivity|].
    split; [rewrite L3, El, <- app_assoc; reflexivity|]. split.
    { split; [|split; [|exact L4]].
      - destruct Sb as (W & _). rewrite El in W. apply well_scoped_app in W. apply W.
      - intros v Hv'. apply Vy in Hv'. apply (known_names _ _ Sb) in Hv'. rewrite El, map_app, rev_app_distr, <- app_assoc in Hv'. exact Hv'. }
    split; [rewrite L5, <- app_assoc; reflexivity|]. split; [eapply incl_tran; [apply X1|exact L6]|]. split.
    + intros J HN. constructor; [|apply L7, HN]. cbn [s_t s_i]. apply Vt. eapply nocol_incl; [exact L6|exact HN].
    + intros S J HF HS Hsat Hlets. 
      assert (Hs1 : sat F G J b'). { intros v e Hin. apply Hsat. rewrite L3. apply in_or_app. left. exact Hin. }
      destruct (compute_value F G S J HF _ _ _ _ Ec) as [_ CV].
      { intros z Hz. apply HS. rewrite L5. rewrite <- app_assoc. rewrite !flat_map_app. apply in_or_app. right. apply in_or_app. left. cbn [flat_map]. rewrite app_nil_r. exact Hz. }
      destruct CV as [CV1 CV2]; [exact Hs1|unfold lets_ok; rewrite U2; exact Hlets|].
      constructor; [exact CV1|]. apply (L8 S J HF HS Hsat CV2).
Qed.
End Terms.

(** ** The coefficients *)
Lemma total_ext : forall (g h : nat -> F) n, (forall i, i < n -> g i = h i) -> total g n = total h n.
Proof. intros g h n H. induction n as [|n IH]; [reflexivity|]. cbn [total]. rewrite IH by (intros i Hi; apply H; lia). rewrite H by lia. reflexivity. Qed.
Lemma vsum_total : forall (g : nat -> F) n, vsum F (map g (seq 0 n)) = total g n.
Proof. intros g n. induction n as [|n IH]; [reflexivity|]. rewrite seq_S, map_app, vsum_app, IH. cbn [map total plus]. change (vsum F [g n]) with (kadd (g n) k0). ring. Qed.
Lemma total_split : forall (g : nat -> F) a b, total g (a + b) = kadd (total g a) (total (fun i => g (a + i)) b).
Proof. intros g a b. induction b as [|b IH]; [rewrite Nat.add_0_r; cbn [total]; ring|]. rewrite Nat.add_succ_r. cbn [total]. rewrite IH. ring. Qed.
Lemma total_rev : forall (g : nat -> F) n, total (fun i => g (n - S i)) n = total g n.
Proof.
  intros g n. induction n as [|n IH]; [reflexivity|]. change (S n) with (1 + n) at 2. rewrite total_split. cbn [total]. rewrite <- IH.
  replace (S n - 1) with n by lia. rewrite (total_ext (fun i => g (S n - S (1 + i))) (fun i => g (n - S i))) by (intros i Hi; f_equal; lia). ring.
Qed.
(** Squares: the two halves of the sum are equal. *)
Lemma conv_sqr : forall (x : nat -> F) i, conv x x i =
  (let t := kmul (kofZ 2) (total (fun j => kmul (x j) (x (i - j))) ((i + 1) / 2)) in if Nat.even i then kadd t (kmul (x (i / 2)) (x (i / 2))) else t).
Proof.
  intros x i. cbv zeta. unfold conv. set (g := fun j => kmul (x j) (x (i - j))).
  assert (Sy : forall j, j <= i -> g (i - j) = g j) by (intros j Hj; unfold g; replace (i - (i - j)) with j by lia; ring).
  assert (E2 : forall a : F, kmul (kofZ 2) a = kadd a a) .
  { intros a. change (kofZ (F := F) 2) with (kadd k1 (kadd k1 (@k0 F))). ring. }
  rewrite E2. destruct (Nat.even i) eqn:Ev.
  - apply Nat.even_spec in Ev. destruct Ev as [k ->]. replace ((2 * k + 1) / 2) with k by (apply (Nat.div_unique _ 2 k 1); lia).
    replace (2 * k / 2) with k by (apply (Nat.div_unique _ 2 k 0); lia). replace (S (2 * k)) with (k + (1 + k)) by lia. rewrite !total_split.
    rewrite (total_ext (fun i => g (k + (1 + i))) (fun i => g (k - S i))). 2:{ intros j Hj. rewrite <- (Sy (k - S j)) by lia. f_equal. lia. }
    rewrite total_rev. cbn [total]. unfold g at 2. replace (2 * k - (k + 0)) with k by lia. rewrite Nat.add_0_r. ring.
  - assert (Od : Nat.odd i = true) by (unfold Nat.odd; rewrite Ev; reflexivity). apply Nat.odd_spec in Od. destruct Od as [k ->].
    replace ((2 * k + 1 + 1) / 2) with (S k) by (apply (Nat.div_unique _ 2 (S k) 0); lia). replace (S (2 * k + 1)) with (S k + S k) by lia. rewrite total_split.
    rewrite (total_ext (fun i => g (S k + i)) (fun i => g (S k - S i))). 2:{ intros j Hj. rewrite <- (Sy (S k - S j)) by lia. f_equal. lia. }
    rewrite total_rev. reflexivity.
Qed.

Lemma mmap_spec : forall (J : interp F) A (h : A -> M G exp) (sg : A -> G) (v : A -> F) (l : list A), (forall a, In a l -> espec F G J (h a) (sg a) (v a)) ->
  forall k s w, (forall xs, Forall wfe xs -> length xs = length l -> espec F G J (k xs) (s (map sig_of xs)) (w (map (eval J) xs))) ->
  espec F G J (mbind G (mmap G h l) k) (s (map sg l)) (w (map v l)).
Proof.
  intros J A h sg v l. induction l as [|a l IH]; intros H k s w Hk; cbn [mmap].
  - intros st HI. apply (Hk [] (Forall_nil _) eq_refl st HI).
  - assert (E : forall st, mbind G (mbind G (h a) (fun x => mbind G (mmap G h l) (fun xs => ret G (x :: xs)))) k st = mbind G (h a) (fun x => mbind G (mmap G h l) (fun xs => k (x :: xs))) st).
    { intros st. unfold mbind. destruct (h a st) as [[x st1]| |]; try reflexivity. cbn [bind]. destruct (mmap G h l st1) as [[xs st2]| |]; reflexivity. }
    intros st HI. rewrite E. revert st HI. change (espec F G J (mbind G (h a) (fun x => mbind G (mmap G h l) (fun xs => k (x :: xs)))) (s (map sg (a :: l))) (w (map v (a :: l)))).
    apply (espec_bind F G J _ _ _ _ (fun q => s (q :: map sg l)) (fun q => w (q :: map v l))); [apply H; left; reflexivity|].
    intros r Wr. apply (IH (fun b Hb => H b (or_intror Hb)) (fun xs => k (r :: xs)) (fun ss => s (sig_of r :: ss)) (fun vs => w (eval J r :: vs))).
    intros xs Wxs Lx. apply (Hk (r :: xs)); [constructor; assumption|cbn; congruence].
Qed.
Lemma mmap_vk : forall V A (h : A -> M G exp) l, (forall a, In a l -> vk G V (h a) (ve G V)) -> vk G V (mmap G h l) (Forall (ve G V)).
Proof.
  intros V A h l. induction l as [|a l IH]; intros H; cbn [mmap]; [apply vk_ret; constructor|].
  eapply vk_bind; [apply H; left; reflexivity|]. intros x Hx. eapply vk_bind; [apply IH; intros b Hb; apply H; right; exact Hb|]. intros xs Hxs. apply vk_ret. constructor; assumption.
Qed.
Definition evs (x : string) (n : nat) : list exp := map (fun i => mkvar (elem x i) (draw (elem x i))) (seq 0 n).
Lemma evs_wfe : forall x n i, wfe (at_ G (evs x n) i).
Proof.
  intros x n i. unfold at_, evs. destruct (Nat.lt_ge_cases i n) as [H|H].
  - rewrite (nth_indep _ _ (mkvar (elem x 0) (draw (elem x 0)))) by (rewrite map_length, seq_length; exact H). rewrite (map_nth (fun i => mkvar (elem x i) (draw (elem x i)))). exact Logic.I.
  - rewrite nth_overflow by (rewrite map_length, seq_length; exact H). apply wfe_int. lia.
Qed.
Lemma evs_ve : forall x n V i, incl (map (elem x) (seq 0 n)) V -> ve G V (at_ G (evs x n) i).
Proof.
  intros x n V i HV. unfold at_, evs. destruct (Nat.lt_ge_cases i n) as [H|H].
  - rewrite (nth_indep _ _ (mkvar (elem x 0) (draw (elem x 0)))) by (rewrite map_length, seq_length; exact H). rewrite (map_nth (fun i => mkvar (elem x i) (draw (elem x i)))).
    apply ve_var, HV, in_map. apply in_seq. rewrite seq_nth by exact H. lia.
  - rewrite nth_overflow by (rewrite map_length, seq_length; exact H). apply ve_int.
Qed.
Definition value (J : interp F) (x : string) (n i : nat) : F := if i <? n then iv J (elem x i) else k0.
Lemma evs_value : forall J x n i, eval J (at_ G (evs x n) i) = value J x n i.
Proof.
  intros J x n i. unfold at_, evs, value. destruct (Nat.ltb_spec i n) as [H|H].
  - rewrite (nth_indep _ _ (mkvar (elem x 0) (draw (elem x 0)))) by (rewrite map_length, seq_length; exact H). rewrite (map_nth (fun i => mkvar (elem x i) (draw (elem x i)))). rewrite seq_nth by exact H. reflexivity.
  - rewrite nth_overflow by (rewrite map_length, seq_length; exact H). reflexivity.
Qed.
Lemma mul_term_spec : forall n i, exists sg, forall J, espec F G J (mul_term G lr (evs "x" n) (evs "y" n) i) sg (conv (value J "x" n) (value J "y" n) i).
Proof.
  intros n i. eexists. intros J. unfold mul_term, conv. rewrite <- vsum_total.
  apply (mmap_spec J nat _ (fun j => sg_mul G (sig_of (at_ G (evs "x" n) j)) (sig_of (at_ G (evs "y" n) (i - j)))) (fun j => kmul (value J "x" n j) (value J "y" n (i - j)))) with (s := ssum G) (w := vsum F).
  - intros j _. rewrite <- !evs_value. apply mul_spec; [exact HL| |]; apply evs_wfe.
  - intros xs Wx _. apply sum_spec; assumption.
Qed.
Lemma sqr_term_spec : forall n i, exists sg, forall J, espec F G J (sqr_term G lr (evs "x" n) i) sg (conv (value J "x" n) (value J "x" n) i).
Proof.
  intros n i. eexists. intros J. unfold sqr_term. rewrite conv_sqr. cbv zeta. rewrite <- vsum_total.
  refine (mmap_spec J nat _ (fun j => sg_mul G (sig_of (at_ G (evs "x" n) j)) (sig_of (at_ G (evs "x" n) (i - j)))) (fun j => kmul (value J "x" n j) (value J "x" n (i - j))) _ _ _
    (fun ss => let t := sg_mul G (sg_int G 2) (ssum G ss) in if Nat.even i then sg_add G t (sg_mul G (sig_of (at_ G (evs "x" n) (i / 2))) (sig_of (at_ G (evs "x" n) (i / 2)))) else t)
    (fun vs => let t := kmul (kofZ 2) (vsum F vs) in if Nat.even i then kadd t (kmul (value J "x" n (i / 2)) (value J "x" n (i / 2))) else t) _).
  - intros j _. rewrite <- !evs_value. apply mul_spec; [exact HL| |]; apply evs_wfe.
  - intros xs Wx _. cbv zeta.
    apply (espec_bind F G J _ _ _ _ (fun q => if Nat.even i then sg_add G (sg_mul G (sg_int G 2) q) (sg_mul G (sig_of (at_ G (evs "x" n) (i / 2))) (sig_of (at_ G (evs "x" n) (i / 2)))) else sg_mul G (sg_int G 2) q)
      (fun q => if Nat.even i then kadd (kmul (kofZ 2) q) (kmul (value J "x" n (i / 2)) (value J "x" n (i / 2))) else kmul (kofZ 2) q)); [apply sum_spec; assumption|].
    intros r Wr. apply (espec_bind F G J _ _ _ _ (fun q => if Nat.even i then sg_add G q (sg_mul G (sig_of (at_ G (evs "x" n) (i / 2))) (sig_of (at_ G (evs "x" n) (i / 2)))) else q)
      (fun q => if Nat.even i then kadd q (kmul (value J "x" n (i / 2)) (value J "x" n (i / 2))) else q)).
    + apply (mul_spec F G J HL (mkint 2) r); [apply wfe_int; lia|exact Wr].
    + intros t Wt. destruct (Nat.even i); [|apply espec_ret; exact Wt].
      apply (espec_bind F G J _ _ _ _ (fun q => sg_add G (sig_of t) q) (fun q => kadd (eval J t) q)); [rewrite <- !evs_value; apply mul_spec; [exact HL| |]; apply evs_wfe|].
      intros u Wu. apply add_spec; assumption.
Qed.
Lemma mul_term_vk : forall V n i, incl (map (elem "x") (seq 0 n)) V -> incl (map (elem "y") (seq 0 n)) V -> vk G V (mul_term G lr (evs "x" n) (evs "y" n) i) (ve G V).
Proof.
  intros V n i Hx Hy. unfold mul_term. eapply vk_bind; [apply mmap_vk; intros j _; apply mul_ve; apply evs_ve; assumption|]. intros xs Hxs. apply sum_ve, Hxs.
Qed.
Lemma sqr_term_vk : forall V n i, incl (map (elem "x") (seq 0 n)) V -> vk G V (sqr_term G lr (evs "x" n) i) (ve G V).
Proof.
  intros V n i Hx. unfold sqr_term. eapply vk_bind; [apply mmap_vk; intros j _; apply mul_ve; apply evs_ve; assumption|]. intros xs Hxs.
  eapply vk_bind; [apply sum_ve, Hxs|]. intros s Hs. eapply vk_bind; [apply mul_ve; [apply ve_int|exact Hs]|]. intros t Hte.
  destruct (Nat.even i); [|apply vk_ret, Hte]. eapply vk_bind; [apply mul_ve; apply evs_ve; exact Hx|]. intros u Hu. apply add_ve; assumption.
Qed.

(** ** The whole bodies *)
Lemma body_ok : forall ins term (val : interp F -> nat -> F) a c n g g' m J,
  (forall i, exists sg, forall J, espec F G J (term i) sg (val J i)) -> (forall i, vk G ins (term i) (ve G ins)) ->
  q_terms G a c term (seq 0 n) g = Ok g' -> q_cse G g = {| exact := true; tbl := []; lg := [] |} -> q_asked G g = [] ->
  (forall v, In v (names G (q_blk G g)) <-> In v ins) -> lets G (q_blk G g) = [] -> lines G (q_blk G g) = [] ->
  clean F G g' -> (0 < f_int f c)%Z -> mapped f m a c n ->
  exists out m', q_out G g' = q_out G g ++ out /\ exec f out J m = Some m' /\
    exists J', (forall v, In v ins -> iv J' v = iv J v) /\ replaced f m a c n (val J') m'.
Proof.
  intros ins term val a c n g g' m J Ht Hv H Ec Ea En El Eli HC H0 HM.
  destruct (terms_ok ins term val Ht Hv a c (seq 0 n) g g' H) as (l & L1 & L2 & L3 & L4 & L5 & L6 & L7 & L8).
  { rewrite Ec. intros s e []. }
  { rewrite Ec. intros s e []. }
  { split; [rewrite Eli; exact Logic.I|]. split; [intros v; rewrite Eli, En; cbn [map]; split; [left; assumption|intros [?|[]]; assumption]|]. rewrite El. intros s v []. }
  rewrite Eli in L3, L4. cbn [map rev app] in L3, L4. rewrite Ea in L5. cbn [app] in L5.
  exists (flat_map (stmts a c) l). set (J' := run_lines (flat_map s_lets l) J).
  exists (stores a c (map (fun s => (s_i s, eval J' (s_y s))) l) m). split; [exact L2|]. split.
  { apply (exec_segs a c l ins J m H0 L4). intros s Hs Hc. apply HM; [|exact Hc]. assert (Hi : In (s_i s) (seq 0 n)) by (rewrite <- L1; apply in_map, Hs). apply in_seq in Hi. lia. }
  exists J'. split; [intros v Hin; apply (run_lines_known F G _ ins); [apply seg_lets, L4|exact Hin]|].
  destruct (HC J') as [N1 N2]. specialize (L7 J' N1).
  assert (Hsat : sat F G J' (q_blk G g')) by (unfold sat; rewrite L3; intros v e Hin; apply (run_lines_sat F G _ ins); [apply seg_lets, L4|exact Hin]).
  specialize (L8 _ J' N2 (incl_refl _) Hsat). assert (Q : lets_ok F G (flat_map subs (q_asked G g')) J' (q_blk G g)) by (unfold lets_ok; rewrite El; intros s v []). specialize (L8 Q).
  assert (E : map (fun s => (s_i s, eval J' (s_y s))) l = map (fun i => (i, val J' i)) (seq 0 n)).
  { rewrite <- L1, map_map. apply map_ext_in. intros s Hs. rewrite Forall_forall in L7, L8. rewrite (L8 s Hs), (L7 s Hs). reflexivity. }
  rewrite E. destruct (stores_seq a c (val J') n 0 m) as [A B]. split; [intros i Hi Hc; apply A; [lia|exact Hc]|]. intros p Hp. apply B. intros i Hi. apply Hp. lia.
Qed.
Lemma elem_xy : forall i j, elem "x" i <> elem "y" j. Proof. intros i j H. discriminate H. Qed.
Lemma conv_ext : forall (x x' y y' : nat -> F) i, (forall j, j <= i -> x j = x' j) -> (forall j, j <= i -> y j = y' j) -> conv x y i = conv x' y' i.
Proof. intros x x' y y' i Hx Hy. apply total_ext. intros j Hj. rewrite Hx, Hy by lia. reflexivity. Qed.
Lemma replaced_ext : forall m a c n (v w : nat -> F) m', (forall i, i < n -> v i = w i) -> replaced f m a c n v m' -> replaced f m a c n w m'.
Proof. intros m a c n v w m' E [A B]. split; [|exact B]. intros i Hi Hc. rewrite <- E by exact Hi. apply A; assumption. Qed.
Lemma terms_out : forall a c term is g g', q_terms G a c term is g = Ok g' -> exists out, q_out G g' = q_out G g ++ out.
Proof.
  intros a c term is. induction is as [|i is IH]; intros g g' H; cbn [q_terms] in H; [injection H as <-; exists []; rewrite app_nil_r; reflexivity|].
  set (g0 := match i with O => g | S _ => q_emit G (QRet c i) g end) in *.
  assert (O0 : exists o, q_out G g0 = q_out G g ++ o) by (unfold g0; destruct i; [exists []; rewrite app_nil_r; reflexivity|eexists; reflexivity]). clearbody g0. destruct O0 as [o Eo].
  destruct (term i (q_cse G g0)) as [[e st]| |]; try discriminate. cbn [bind] in H. destruct (q_store G a i e _) as [g1| |] eqn:Es; try discriminate. cbn [bind] in H.
  destruct (IH _ _ H) as [o2 E2]. unfold q_store in Es. destruct (compute G e _) as [[y b']| |]; try discriminate. cbn [bind] in Es. injection Es as <-. cbn [q_out] in E2.
  rewrite E2, Eo, <- !app_assoc. eexists. reflexivity.
Qed.
Theorem mul_gen_ok : forall n g (I : interp F) m, mul_gen G draw lr n = Ok g -> clean F G g ->
  ((0 < f_int f "nz")%Z -> mapped f m "x" "nx" n /\ mapped f m "y" "ny" n /\ mapped f m "z" "nz" n) ->
  exists m', exec f (q_out G g) I m = Some m' /\ replaced f m "z" "nz" n (conv (item f m "x" "nx") (item f m "y" "ny")) m'.
Proof.
  intros n g I m H HC HM. unfold mul_gen in H. destruct (extends G draw "x" (seq 0 n) _) as [[xi g1]| |] eqn:E1; try discriminate. cbn [bind] in H.
  destruct (extends G draw "y" (seq 0 n) g1) as [[yi g2]| |] eqn:E2; try discriminate. cbn [bind] in H.
  destruct (extends_ok _ _ _ _ _ E1) as (-> & A2 & A3 & A4 & A5). destruct (extends_ok _ _ _ _ _ E2) as (-> & B2 & B3 & B4 & B5).
  fold (evs "x" n) in H. fold (evs "y" n) in H. rewrite A4 in B4. rewrite A5 in B5. rewrite A3 in B3. rewrite A2 in B2. cbn [q_emit q0 q_out q_blk q_asked q_cse app names counts lets lines block0] in B2, B3, B4, B5.
  destruct (Z.lt_ge_cases 0 (f_int f "nz")) as [H0|H0].
  2:{ destruct (terms_out _ _ _ _ _ _ H) as [out Eo]. rewrite Eo, B4. cbn [app exec]. destruct (Z.leb_spec (f_int f "nz") (Z.of_nat 0)); [|lia]. exists m. split; [reflexivity|]. split; [intros i _ Hc; lia|reflexivity]. }
  set (ins := rev (map (elem "y") (seq 0 n)) ++ rev (map (elem "x") (seq 0 n)) ++ []).
  assert (Ix : incl (map (elem "x") (seq 0 n)) ins) by (intros v Hv; unfold ins; apply in_or_app; right; rewrite app_nil_r; apply in_rev in Hv; exact Hv).
  assert (Iy : incl (map (elem "y") (seq 0 n)) ins) by (intros v Hv; unfold ins; apply in_or_app; left; apply in_rev in Hv; exact Hv).
  destruct (HM H0) as (Mx & My & Mz).
  set (J := loaded m "y" (seq 0 n) (loaded m "x" (seq 0 n) I)).
  destruct (body_ok ins (mul_term G lr (evs "x" n) (evs "y" n)) (fun J => conv (value J "x" n) (value J "y" n)) "z" "nz" n g2 g m J) as (out & m' & Eo & Ex & J' & EJ & R);
    [apply mul_term_spec|intros i; apply mul_term_vk; assumption|exact H|exact B2|exact B3|intros v; rewrite B5; reflexivity|rewrite B5; reflexivity|rewrite B5; reflexivity|exact HC|exact H0|exact Mz|].
  exists m'. split.
  - rewrite Eo, B4. cbn [app exec]. destruct (Z.leb_spec (f_int f "nz") (Z.of_nat 0)); [lia|]. rewrite <- app_assoc.
    change "nx"%string with ("n" ++ "x")%string in Mx. change "ny"%string with ("n" ++ "y")%string in My.
    rewrite exec_loads by (intros i Hi; apply Mx; apply in_seq in Hi; lia). rewrite exec_loads by (intros i Hi; apply My; apply in_seq in Hi; lia). exact Ex.
  - revert R. apply replaced_ext. intros i Hi. apply conv_ext; intros j Hj; unfold value; destruct (Nat.ltb_spec j n); try lia; (rewrite EJ; [|first [apply Ix; apply in_map, in_seq; lia|apply Iy; apply in_map, in_seq; lia]]); unfold J.
    + rewrite loaded_other by (intros k _; apply elem_xy). apply loaded_at. apply in_seq. lia.
    + apply loaded_at. apply in_seq. lia.
Qed.
Theorem sqr_gen_ok : forall n g (I : interp F) m, sqr_gen G draw lr n = Ok g -> clean F G g ->
  ((0 < f_int f "ny")%Z -> mapped f m "x" "nx" n /\ mapped f m "y" "ny" n) ->
  exists m', exec f (q_out G g) I m = Some m' /\ replaced f m "y" "ny" n (conv (item f m "x" "nx") (item f m "x" "nx")) m'.
Proof.
  intros n g I m H HC HM. unfold sqr_gen in H. destruct (extends G draw "x" (seq 0 n) _) as [[xi g1]| |] eqn:E1; try discriminate. cbn [bind] in H.
  destruct (extends_ok _ _ _ _ _ E1) as (-> & B2 & B3 & B4 & B5).
  fold (evs "x" n) in H. cbn [q_emit q0 q_out q_blk q_asked q_cse app names counts lets lines block0] in B2, B3, B4, B5.
  destruct (Z.lt_ge_cases 0 (f_int f "ny")) as [H0|H0].
  2:{ destruct (terms_out _ _ _ _ _ _ H) as [out Eo]. rewrite Eo, B4. cbn [app exec]. destruct (Z.leb_spec (f_int f "ny") (Z.of_nat 0)); [|lia]. exists m. split; [reflexivity|]. split; [intros i _ Hc; lia|reflexivity]. }
  set (ins := rev (map (elem "x") (seq 0 n)) ++ []).
  assert (Ix : incl (map (elem "x") (seq 0 n)) ins) by (intros v Hv; unfold ins; rewrite app_nil_r; apply in_rev in Hv; exact Hv).
  destruct (HM H0) as (Mx & My). set (J := loaded m "x" (seq 0 n) I).
  destruct (body_ok ins (sqr_term G lr (evs "x" n)) (fun J => conv (value J "x" n) (value J "x" n)) "y" "ny" n g1 g m J) as (out & m' & Eo & Ex & J' & EJ & R);
    [apply sqr_term_spec|intros i; apply sqr_term_vk; assumption|exact H|exact B2|exact B3|intros v; rewrite B5; reflexivity|rewrite B5; reflexivity|rewrite B5; reflexivity|exact HC|exact H0|exact My|].
  exists m'. split.
  - rewrite Eo, B4. cbn [app exec]. destruct (Z.leb_spec (f_int f "ny") (Z.of_nat 0)); [lia|].
    change "nx"%string with ("n" ++ "x")%string in Mx. rewrite exec_loads by (intros i Hi; apply Mx; apply in_seq in Hi; lia). exact Ex.
  - revert R. apply replaced_ext. intros i Hi. apply conv_ext; intros j Hj; unfold value; destruct (Nat.ltb_spec j n); try lia; (rewrite EJ; [|apply Ix; apply in_map, in_seq; lia]); unfold J; apply loaded_at; apply in_seq; lia.
Qed.
End P.
