(** Proofs about the cached tables of CacheModel.v. *)
From Coq Require Import ZArith List Bool Lia.
From Verif Require Import Base CacheModel CacheSpec.
Import ListNotations.
Open Scope Z_scope.

Section Proofs.
Variables (V : Type) (vopp_r vopp_i vswap : V -> V) (vmul : V -> V -> V).
Variables (table : nat -> list V) (few0 : list V).
Notation world := (world V).
Notation bl w := (blocks V (hp V w)).
Notation nx w := (next V (hp V w)).

Definition tab_of (o : option cache) : list nat := match o with Some c => tabs c | None => [] end.
Definition few_of (o : option cache) : list nat := match o with Some c => [fewp c] | None => [] end.
Definition ht (w : world) := tab_of (host V w).
Definition dt (w : world) := tab_of (dev V w).
Definition fews (w : world) := few_of (host V w) ++ few_of (dev V w).
Definition good (w : world) (l : list nat) : Prop := forall p i, nth_error l p = Some i -> bl w i = Some (table p).
Record inv (w : world) : Prop := {
  i_next : forall i, (nx w <= i)%nat -> bl w i = None;
  i_ht : good w (ht w);
  i_dt : good w (dt w);
  i_few : forall f, In f (fews w) -> bl w f = Some few0;
  i_sep : forall i, In i (ht w) -> ~ In i (dt w);
  i_sepf : forall i, In i (ht w) \/ In i (dt w) -> ~ In i (fews w);
  i_hreg : host V w <> None -> In false (reg V w);
  i_dreg : dev V w <> None -> In true (reg V w);
  i_own : forall i, bl w i <> None -> In i (ht w) \/ In i (dt w) \/ In i (fews w)
}.
(** Only allocation happened. *)
Record ext (w w' : world) : Prop := {
  e_some : forall i l, bl w i = Some l -> bl w' i = Some l;
  e_none : forall i, (i < nx w)%nat -> bl w i = None -> bl w' i = None;
  e_next : (nx w <= nx w')%nat;
  e_ht : incl (ht w) (ht w');
  e_dt : incl (dt w) (dt w');
  e_few : incl (fews w) (fews w')
}.
Lemma ext_refl : forall w, ext w w.
Proof. intros w. constructor; auto; intros i H; exact H. Qed.
Lemma ext_trans : forall a b c, ext a b -> ext b c -> ext a c.
Proof.
  intros a b c [A1 A2 A3 A4 A5 A6] [B1 B2 B3 B4 B5 B6]. constructor; try (eapply incl_tran; eassumption); [auto| |lia].
  intros i Hi E. apply B2; [lia|]. auto.
Qed.
Lemma below : forall w i l, inv w -> bl w i = Some l -> (i < nx w)%nat.
Proof. intros w i l I E. destruct (le_lt_dec (nx w) i) as [H|H]; [|exact H]. rewrite (i_next w I i H) in E. discriminate. Qed.
Lemma good_in : forall w l i, good w l -> In i l -> exists p, bl w i = Some (table p).
Proof. intros w l i G H. apply In_nth_error in H. destruct H as [p H]. exists p. exact (G p i H). Qed.
Lemma ht_below : forall w i, inv w -> In i (ht w) -> (i < nx w)%nat.
Proof. intros w i I H. destruct (good_in w _ i (i_ht w I) H) as [p E]. exact (below w i _ I E). Qed.
Lemma dt_below : forall w i, inv w -> In i (dt w) -> (i < nx w)%nat.
Proof. intros w i I H. destruct (good_in w _ i (i_dt w I) H) as [p E]. exact (below w i _ I E). Qed.
Lemma few_below : forall w i, inv w -> In i (fews w) -> (i < nx w)%nat.
Proof. intros w i I H. exact (below w i _ I (i_few w I i H)). Qed.
Lemma good_snoc : forall w w' l i, good w l -> (forall i l, bl w i = Some l -> bl w' i = Some l) -> bl w' i = Some (table (length l)) -> good w' (l ++ [i]).
Proof.
  intros w w' l i G E H p k Hk. destruct (lt_dec p (length l)) as [L|L].
  - rewrite nth_error_app1 in Hk by exact L. apply E, G, Hk.
  - rewrite nth_error_app2 in Hk by lia. destruct (p - length l)%nat as [|q] eqn:Q; cbn in Hk; [|destruct q; discriminate]. injection Hk as <-. replace p with (length l) by lia. exact H.
Qed.
Lemma good_mono : forall w w' l, good w l -> (forall i l, bl w i = Some l -> bl w' i = Some l) -> good w' l.
Proof. intros w w' l G E p i H. apply E, G, H. Qed.
(** A new block. *)
Lemma alloc_blocks : forall (h : heap V) l i, i <> next V h -> blocks V (snd (alloc V h l)) i = blocks V h i.
Proof. intros h l i H. cbn. destruct (Nat.eqb_spec i (next V h)); [contradiction|reflexivity]. Qed.
Lemma alloc_new : forall (h : heap V) l, blocks V (snd (alloc V h l)) (next V h) = Some l.
Proof. intros h l. cbn. rewrite Nat.eqb_refl. reflexivity. Qed.

Lemma host_single_ok : forall w c w', inv w -> host_single V few0 w = (c, w') ->
  inv w' /\ ext w w' /\ host V w' = Some c /\ dev V w' = dev V w /\ made V w' = made V w /\ (host V w = None -> tabs c = []) /\ (host V w = Some c \/ host V w = None) /\ incl (reg V w) (reg V w').
Proof.
  intros w c w' I E. unfold host_single in E. destruct (host V w) as [c0|] eqn:H.
  - injection E as <- <-. split; [exact I|]. split; [apply ext_refl|]. repeat split; auto; [discriminate|intros a A; exact A].
  - cbn [alloc] in E. injection E as <- <-.
    assert (ES : forall i l, bl w i = Some l -> (if Nat.eqb i (nx w) then Some few0 else bl w i) = Some l).
    { intros i l Q. pose proof (below w i l I Q). destruct (Nat.eqb_spec i (nx w)); [lia|exact Q]. }
    assert (HT : ht w = []) by (unfold ht; rewrite H; reflexivity).
    split; [|split].
    + constructor; cbn [hp host dev reg made next blocks ht dt fews tab_of few_of tabs fewp ht].
      * intros i Hi. destruct (Nat.eqb_spec i (nx w)); [lia|]. apply (i_next w I). lia.
      * intros p i Q. destruct p; discriminate.
      * intros p i Q. apply ES. exact (i_dt w I p i Q).
      * intros f [<-|F]; [rewrite Nat.eqb_refl; reflexivity|]. apply ES, (i_few w I). unfold fews. rewrite H. exact F.
      * intros i [].
      * intros i [[]|Hi] [F|F]; [assert (Q := dt_below w i I Hi); cbn in F; rewrite F in Q; exact (Nat.lt_irrefl _ Q)|]. apply (i_sepf w I i (or_intror Hi)). unfold fews. rewrite H. exact F.
      * intros _. apply in_or_app. right. left. reflexivity.
      * intros D. apply in_or_app. left. exact (i_dreg w I D).
      * intros i Hi. destruct (Nat.eqb_spec i (nx w)) as [Q|Ne]; [right; right; left; symmetry; exact Q|]. destruct (i_own w I i Hi) as [O|[O|O]]; [rewrite HT in O; destruct O|right; left; exact O|].
        right. right. right. unfold fews in O. rewrite H in O. exact O.
    + constructor; cbn [hp host dev next blocks ht dt fews tab_of few_of tabs fewp].
      * exact ES.
      * intros i Hi Q. destruct (Nat.eqb_spec i (nx w)); [lia|exact Q].
      * lia.
      * rewrite HT. intros i [].
      * intros i Hi. exact Hi.
      * unfold fews. rewrite H. intros i Hi. right. exact Hi.
    + repeat split; auto. intros a A. apply in_or_app. left. exact A.
Qed.
Lemma host_rounds_ok : forall n w c, inv w -> host V w = Some c -> let w' := host_rounds V table few0 n w in
  inv w' /\ ext w w' /\ dev V w' = dev V w /\ reg V w' = reg V w /\ made V w' = made V w ++ seq (length (tabs c)) n /\
  exists c', host V w' = Some c' /\ length (tabs c') = (length (tabs c) + n)%nat /\ fewp c' = fewp c.
Proof.
  induction n as [|n IH]; intros w c I H; cbv zeta; cbn [host_rounds].
  - split; [exact I|]. split; [apply ext_refl|]. rewrite app_nil_r. repeat split; auto. exists c. repeat split; auto.
  - unfold host_single. rewrite H. cbn [alloc]. set (w1 := {| hp := _; host := _; dev := _; reg := _; made := _ |}).
    assert (ES : forall i l, bl w i = Some l -> bl w1 i = Some l).
    { intros i l Q. pose proof (below w i l I Q). cbn. destruct (Nat.eqb_spec i (nx w)); [lia|exact Q]. }
    assert (HTw : ht w = tabs c) by (unfold ht; rewrite H; reflexivity).
    assert (HT1 : ht w1 = ht w ++ [nx w]) by (rewrite HTw; reflexivity).
    assert (FW : fews w1 = fews w) by (unfold fews; cbn; rewrite H; reflexivity).
    assert (I1 : inv w1).
    { constructor.
      - intros i Hi. cbn in Hi |- *. destruct (Nat.eqb_spec i (nx w)); [lia|]. apply (i_next w I). lia.
      - rewrite HT1. apply (good_snoc w); [exact (i_ht w I)|exact ES|]. cbn. rewrite Nat.eqb_refl, HTw. reflexivity.
      - apply (good_mono w); [exact (i_dt w I)|exact ES].
      - rewrite FW. intros f F. apply ES, (i_few w I), F.
      - rewrite HT1. intros i Hi. apply in_app_or in Hi. destruct Hi as [Hi|[<-|[]]]; [exact (i_sep w I i Hi)|]. intros D. pose proof (dt_below w _ I D). lia.
      - rewrite HT1, FW. intros i [Hi|Hi]; [|exact (i_sepf w I i (or_intror Hi))]. apply in_app_or in Hi. destruct Hi as [Hi|[<-|[]]]; [exact (i_sepf w I i (or_introl Hi))|].
        intros F. pose proof (few_below w _ I F). lia.
      - intros _. apply (i_hreg w I). rewrite H. discriminate.
      - exact (i_dreg w I).
      - rewrite HT1, FW. intros i Hi. cbn in Hi. destruct (Nat.eqb_spec i (nx w)) as [Q|Ne]; [left; apply in_or_app; right; left; symmetry; exact Q|]. destruct (i_own w I i Hi) as [O|[O|O]]; [left; apply in_or_app; left; exact O|right; left; exact O|right; right; exact O]. }
    assert (X1 : ext w w1).
    { constructor; [exact ES| | | | |].
      - intros i Hi Q. cbn. destruct (Nat.eqb_spec i (nx w)); [lia|exact Q].
      - cbn. lia.
      - rewrite HT1. intros i Hi. apply in_or_app. left. exact Hi.
      - intros i Hi. exact Hi.
      - rewrite FW. intros i Hi. exact Hi. }
    destruct (IH w1 _ I1 eq_refl) as (I2 & X2 & D2 & R2 & M2 & c' & H2 & L2 & F2). cbn [tabs fewp] in M2, L2, F2. rewrite app_length in M2, L2. cbn [length] in M2, L2.
    split; [exact I2|]. split; [exact (ext_trans _ _ _ X1 X2)|]. split; [rewrite D2; reflexivity|]. split; [rewrite R2; reflexivity|]. split.
    + rewrite M2. cbn [made w1]. rewrite <- app_assoc. cbn [app seq]. rewrite Nat.add_1_r. reflexivity.
    + exists c'. split; [exact H2|]. split; [lia|exact F2].
Qed.
Lemma host_ensure_ok : forall s w, inv w -> let w' := host_ensure V table few0 s w in
  inv w' /\ ext w w' /\ dev V w' = dev V w /\ incl (reg V w) (reg V w') /\ made V w' = made V w ++ seq (length (ht w)) (S s - length (ht w)) /\
  exists c', host V w' = Some c' /\ length (tabs c') = Nat.max (length (ht w)) (S s).
Proof.
  intros s w I. unfold host_ensure. destruct (host_single V few0 w) as [c w1] eqn:E. destruct (host_single_ok w c w1 I E) as (I1 & X1 & H1 & D1 & M1 & N1 & O1 & R1).
  assert (L : length (tabs c) = length (ht w)).
  { unfold ht. destruct O1 as [O|O]; rewrite O; [reflexivity|]. rewrite (N1 O). reflexivity. }
  destruct (host_rounds_ok (S s - length (tabs c)) w1 c I1 H1) as (I2 & X2 & D2 & R2 & M2 & c' & H2 & L2 & _).
  split; [exact I2|]. split; [exact (ext_trans _ _ _ X1 X2)|]. split; [rewrite D2; exact D1|]. split; [rewrite R2; exact R1|]. split; [rewrite M2, M1, L; reflexivity|].
  exists c'. split; [exact H2|]. lia.
Qed.
Lemma dev_single_ok : forall w, inv w -> exists c w', dev_single V few0 w = Ok (c, w') /\
  inv w' /\ ext w w' /\ dev V w' = Some c /\ made V w' = made V w /\ ht w' = ht w /\ length (tabs c) = length (dt w) /\ (dev V w = Some c \/ dev V w = None).
Proof.
  intros w I. unfold dev_single. destruct (dev V w) as [c|] eqn:D.
  - exists c, w. split; [reflexivity|]. split; [exact I|]. split; [apply ext_refl|]. unfold dt. rewrite D. repeat split; auto.
  - set (w0 := {| hp := hp V w; host := host V w; dev := None; reg := reg V w ++ [true]; made := made V w |}).
    assert (I0 : inv w0).
    { destruct I as [J1 J2 J3 J4 J5 J6 J7 J8 J9]. unfold dt, fews in *. rewrite D in *. constructor; auto.
      - intros H. apply in_or_app. left. exact (J7 H).
      - intros H. apply in_or_app. right. left. reflexivity. }
    destruct (host_single V few0 w0) as [hc w1] eqn:E. destruct (host_single_ok w0 hc w1 I0 E) as (I1 & X1 & H1 & D1 & M1 & N1 & O1 & R1).
    cbn [dev w0] in D1. assert (F1 : bl w1 (fewp hc) = Some few0) by (apply (i_few w1 I1); unfold fews; rewrite H1; left; reflexivity).
    rewrite F1. cbn [alloc]. set (w2 := {| hp := _; host := _; dev := _; reg := _; made := _ |}). exists {| tabs := []; fewp := nx w1 |}, w2. split; [reflexivity|].
    assert (ES : forall i l, bl w1 i = Some l -> bl w2 i = Some l).
    { intros i l Q. pose proof (below w1 i l I1 Q). cbn. destruct (Nat.eqb_spec i (nx w1)); [lia|exact Q]. }
    assert (DT1 : dt w1 = []) by (unfold dt; rewrite D1; reflexivity).
    assert (FW : fews w2 = fews w1 ++ [nx w1]) by (unfold fews; rewrite D1; cbn; rewrite app_nil_r; reflexivity).
    assert (HTE : ht w2 = ht w).
    { change (ht w1 = ht w). unfold ht. rewrite H1. cbn [tab_of]. cbn [host w0] in O1, N1. destruct O1 as [O|O]; rewrite O; [reflexivity|]. rewrite (N1 O). reflexivity. }
    assert (X : ext w w2).
    { apply (ext_trans _ w0); [constructor; auto; try (intros i Hi; exact Hi); unfold dt, fews; rewrite D; intros i Hi; exact Hi|]. apply (ext_trans _ w1); [exact X1|]. constructor; [exact ES| | | | |].
      - intros i Hi Q. cbn. destruct (Nat.eqb_spec i (nx w1)); [lia|exact Q].
      - cbn. lia.
      - intros i Hi. exact Hi.
      - rewrite DT1. intros i [].
      - rewrite FW. intros i Hi. apply in_or_app. left. exact Hi. }
    split; [|split; [exact X|]].
    + constructor.
      * intros i Hi. cbn in Hi |- *. destruct (Nat.eqb_spec i (nx w1)); [lia|]. apply (i_next w1 I1). lia.
      * apply (good_mono w1); [exact (i_ht w1 I1)|exact ES].
      * intros p i Q. destruct p; discriminate.
      * rewrite FW. intros f F. apply in_app_or in F. destruct F as [F|[<-|[]]]; [apply ES, (i_few w1 I1), F|]. cbn. rewrite Nat.eqb_refl. reflexivity.
      * intros i _ [].
      * rewrite FW. intros i [Hi|[]] F. change (In i (ht w1)) in Hi. apply in_app_or in F. destruct F as [F|[<-|[]]]; [exact (i_sepf w1 I1 i (or_introl Hi) F)|]. pose proof (ht_below w1 _ I1 Hi). lia.
      * intros _. apply (i_hreg w1 I1). rewrite H1. discriminate.
      * intros _. apply R1. cbn. apply in_or_app. right. left. reflexivity.
      * rewrite FW. intros i Hi. cbn in Hi. destruct (Nat.eqb_spec i (nx w1)) as [Q|Ne]; [right; right; apply in_or_app; right; left; symmetry; exact Q|]. destruct (i_own w1 I1 i Hi) as [O|[O|O]]; [left; exact O|rewrite DT1 in O; destruct O|right; right; apply in_or_app; left; exact O].
    + split; [reflexivity|]. split; [exact M1|]. split; [exact HTE|]. split; [unfold dt; rewrite D; reflexivity|]. right. reflexivity.
Qed.
Lemma dev_rounds_ok : forall n w c, inv w -> dev V w = Some c -> exists w', dev_rounds V table few0 n w = Ok w' /\
  inv w' /\ ext w w' /\ (exists c', dev V w' = Some c' /\ length (tabs c') = (length (tabs c) + n)%nat) /\
  made V w' = made V w ++ seq (length (ht w)) (match n with O => O | _ => length (tabs c) + n - length (ht w) end) /\
  length (ht w') = match n with O => length (ht w) | _ => Nat.max (length (ht w)) (length (tabs c) + n) end.
Proof.
  induction n as [|n IH]; intros w c I D; cbn [dev_rounds].
  - exists w. split; [reflexivity|]. split; [exact I|]. split; [apply ext_refl|]. split; [exists c; split; [exact D|lia]|]. cbn [seq]. rewrite app_nil_r. split; reflexivity.
  - unfold dev_single at 1. rewrite D. cbn [bind]. set (p := length (tabs c)).
    destruct (host_ensure_ok p w I) as (I1 & X1 & D1 & R1 & M1 & hc & H1 & L1). set (w1 := host_ensure V table few0 p w) in *.
    unfold host_single at 1. rewrite H1. destruct (nth_error (tabs hc) p) as [i|] eqn:Ei; [|apply nth_error_None in Ei; lia].
    assert (Bi : bl w1 i = Some (table p)) by (apply (i_ht w1 I1); unfold ht; rewrite H1; exact Ei). rewrite Bi. cbn [alloc].
    set (w2 := {| hp := _; host := _; dev := _; reg := _; made := _ |}).
    assert (ES : forall i l, bl w1 i = Some l -> bl w2 i = Some l).
    { intros k l Q. pose proof (below w1 k l I1 Q). cbn. destruct (Nat.eqb_spec k (nx w1)); [lia|exact Q]. }
    assert (DTw : dt w1 = tabs c) by (unfold dt; rewrite D1, D; reflexivity).
    assert (DT2 : dt w2 = dt w1 ++ [nx w1]) by (rewrite DTw; reflexivity).
    assert (FW : fews w2 = fews w1) by (unfold fews; cbn; rewrite D1, D; reflexivity).
    assert (I2 : inv w2).
    { constructor.
      - intros k Hk. cbn in Hk |- *. destruct (Nat.eqb_spec k (nx w1)); [lia|]. apply (i_next w1 I1). lia.
      - apply (good_mono w1); [exact (i_ht w1 I1)|exact ES].
      - rewrite DT2. apply (good_snoc w1); [exact (i_dt w1 I1)|exact ES|]. cbn. rewrite Nat.eqb_refl, DTw. reflexivity.
      - rewrite FW. intros f F. apply ES, (i_few w1 I1), F.
      - rewrite DT2. intros k Hk Hd. change (In k (ht w1)) in Hk. apply in_app_or in Hd. destruct Hd as [Hd|[<-|[]]]; [exact (i_sep w1 I1 k Hk Hd)|]. pose proof (ht_below w1 _ I1 Hk). lia.
      - rewrite DT2, FW. intros k [Hk|Hk]; [exact (i_sepf w1 I1 k (or_introl Hk))|]. apply in_app_or in Hk. destruct Hk as [Hk|[<-|[]]]; [exact (i_sepf w1 I1 k (or_intror Hk))|].
        intros F. pose proof (few_below w1 _ I1 F). lia.
      - intros _. apply (i_hreg w1 I1). rewrite H1. discriminate.
      - intros _. apply (i_dreg w1 I1). rewrite D1, D. discriminate.
      - rewrite DT2, FW. intros k Hk. cbn in Hk. destruct (Nat.eqb_spec k (nx w1)) as [Q|Ne]; [right; left; apply in_or_app; right; left; symmetry; exact Q|]. destruct (i_own w1 I1 k Hk) as [O|[O|O]]; [left; exact O|right; left; apply in_or_app; left; exact O|right; right; exact O]. }
    assert (X2 : ext w1 w2).
    { constructor; [exact ES| | | | |].
      - intros k Hk Q. cbn. destruct (Nat.eqb_spec k (nx w1)); [lia|exact Q].
      - cbn. lia.
      - intros k Hk. exact Hk.
      - rewrite DT2. intros k Hk. apply in_or_app. left. exact Hk.
      - rewrite FW. intros k Hk. exact Hk. }
    assert (HL : length (ht w2) = Nat.max (length (ht w)) (S p)) by (change (length (ht w1) = Nat.max (length (ht w)) (S p)); unfold ht at 1; rewrite H1; exact L1).
    destruct (IH w2 _ I2 eq_refl) as (w3 & E3 & I3 & X3 & (c3 & D3 & L3) & M3 & T3). cbn [tabs] in L3, M3, T3. rewrite app_length in L3, M3, T3. cbn [length] in L3, M3, T3. fold p in L3, M3, T3.
    exists w3. split; [exact E3|]. split; [exact I3|]. split; [exact (ext_trans _ _ _ X1 (ext_trans _ _ _ X2 X3))|]. split; [exists c3; split; [exact D3|unfold p in *; lia]|].
    rewrite HL in M3, T3. split.
    + rewrite M3. cbn [made w2]. rewrite M1, <- app_assoc. f_equal. clear M3 T3.
      destruct (le_lt_dec (S p) (length (ht w))) as [Le|Lt].
      * replace (S p - length (ht w))%nat with O by lia. cbn [seq app]. rewrite Nat.max_l by exact Le. destruct n; [replace (p + 1 - length (ht w))%nat with O by lia; reflexivity|]. f_equal. lia.
      * rewrite Nat.max_r by lia. destruct n; [cbn [seq]; rewrite app_nil_r; f_equal; lia|].
        replace (p + S (S n) - length (ht w))%nat with ((S p - length (ht w)) + (p + 1 + S n - S p))%nat by lia. rewrite seq_app. f_equal. f_equal. lia.
    + rewrite T3. destruct n; lia.
Qed.

(** [ensure], then [single]. *)
Definition slot (d : bool) (w : world) : option cache := if d then dev V w else host V w.
Lemma ensure_ok : forall d s w, inv w -> exists w', ensure V table few0 d s w = Ok w' /\ inv w' /\ ext w w' /\
  (exists c, slot d w' = Some c /\ (s < length (tabs c))%nat) /\
  exists n, made V w' = made V w ++ seq (length (ht w)) n /\ length (ht w') = (length (ht w) + n)%nat /\
    ((if d then length (dt w) else length (ht w)) <= s -> length (ht w') = Nat.max (length (ht w)) (S s))%nat /\
    (s < (if d then length (dt w) else length (ht w)) -> n = 0)%nat /\
    (length (dt w) <= length (ht w) -> length (dt w') <= length (ht w'))%nat.
Proof.
  intros d s w I. unfold ensure. destruct d.
  - destruct (dev_single_ok w I) as (c & w1 & E1 & I1 & X1 & D1 & M1 & T1 & L1 & _). rewrite E1. cbn [bind].
    destruct (dev_rounds_ok (S s - length (tabs c)) w1 c I1 D1) as (w2 & E2 & I2 & X2 & (c2 & D2 & L2) & M2 & T2). exists w2. split; [exact E2|]. split; [exact I2|].
    split; [exact (ext_trans _ _ _ X1 X2)|]. split; [exists c2; split; [exact D2|lia]|]. rewrite T1 in M2, T2. rewrite M1 in M2.
    exists (match (S s - length (tabs c))%nat with O => O | _ => length (tabs c) + (S s - length (tabs c)) - length (ht w) end)%nat.
    split; [rewrite M2; f_equal; f_equal; destruct (S s - length (tabs c))%nat; reflexivity|]. rewrite T2, <- L1. split; [destruct (S s - length (tabs c))%nat; lia|]. split.
    + intros Hs. destruct (S s - length (tabs c))%nat eqn:Q; lia.
    + split; [intros Hs; replace (S s - length (tabs c))%nat with O by lia; reflexivity|]. intros Hl. unfold dt at 1. rewrite D2. cbn [tab_of]. rewrite L2. destruct (S s - length (tabs c))%nat; lia.
  - destruct (host_ensure_ok s w I) as (I1 & X1 & D1 & R1 & M1 & c & H1 & L1). eexists. split; [reflexivity|]. split; [exact I1|]. split; [exact X1|].
    split; [exists c; split; [exact H1|lia]|]. exists (S s - length (ht w))%nat. split; [exact M1|]. assert (HL : length (ht (host_ensure V table few0 s w)) = Nat.max (length (ht w)) (S s)) by (unfold ht at 1; rewrite H1; exact L1). rewrite HL. assert (DL : dt (host_ensure V table few0 s w) = dt w) by (unfold dt; rewrite D1; reflexivity). rewrite DL. repeat split; lia.
Qed.
Lemma single_ok : forall d w c, slot d w = Some c -> single V few0 d w = Ok (c, w).
Proof. intros [|] w c H; unfold single, slot in *; [unfold dev_single|unfold host_single]; rewrite H; reflexivity. Qed.
Lemma slot_in : forall d w c i, slot d w = Some c -> In i (tabs c) -> In i (ht w) \/ In i (dt w).
Proof. intros [|] w c i H Hi; unfold slot, ht, dt in *; rewrite H; auto. Qed.
Lemma slot_good : forall d w c, inv w -> slot d w = Some c -> good w (tabs c).
Proof. intros [|] w c I H; unfold slot in H; [pose proof (i_dt w I) as G; unfold dt in G|pose proof (i_ht w I) as G; unfold ht in G]; rewrite H in G; exact G. Qed.
Lemma slot_few : forall d w c, slot d w = Some c -> In (fewp c) (fews w).
Proof. intros [|] w c H; unfold slot, fews in *; rewrite H; apply in_or_app; [right|left]; left; reflexivity. Qed.

Definition grown (d : bool) (s : nat) (w w' : world) : Prop :=
  exists n, made V w' = made V w ++ seq (length (ht w)) n /\ length (ht w') = (length (ht w) + n)%nat /\
    ((if d then length (dt w) else length (ht w)) <= s -> length (ht w') = Nat.max (length (ht w)) (S s))%nat /\
    (s < (if d then length (dt w) else length (ht w)) -> n = 0)%nat /\
    (length (dt w) <= length (ht w) -> length (dt w') <= length (ht w'))%nat.
Lemma get_slice_ok : forall d s w, inv w -> 0 <= s -> s < 30 -> exists x w', get_slice V table few0 d s w = Ok (x, w') /\ inv w' /\ ext w w' /\
  lev x = Z.to_nat s /\ big x = None /\ (In (ptr x) (ht w') \/ In (ptr x) (dt w')) /\ bl w' (ptr x) = Some (table (Z.to_nat s)) /\ (exists c, slot d w' = Some c) /\ grown d (Z.to_nat s) w w'.
Proof.
  intros d s w I H0 H1. unfold get_slice. replace (s <? 0) with false by (symmetry; apply Z.ltb_ge; lia). replace (30 <=? s) with false by (symmetry; apply Z.leb_gt; lia). cbn [orb].
  destruct (ensure_ok d (Z.to_nat s) w I) as (w1 & E & I1 & X1 & (c & S1 & L1) & G). rewrite E. cbn [bind]. rewrite (single_ok d w1 c S1). cbn [bind].
  destruct (nth_error (tabs c) (Z.to_nat s)) as [i|] eqn:Ei; [|apply nth_error_None in Ei; lia]. eexists. exists w1. split; [reflexivity|]. cbn [lev big ptr].
  split; [exact I1|]. split; [exact X1|]. split; [reflexivity|]. split; [reflexivity|]. split; [exact (slot_in d w1 c i S1 (nth_error_In _ _ Ei))|]. split; [exact (slot_good d w1 c I1 S1 _ _ Ei)|]. split; [exists c; exact S1|exact G].
Qed.
Lemma single_any : forall d w, inv w -> exists c w', single V few0 d w = Ok (c, w') /\ inv w' /\ ext w w' /\ made V w' = made V w /\ length (ht w') = length (ht w) /\ length (dt w') = length (dt w).
Proof.
  intros d w I. destruct d; unfold single.
  - destruct (dev_single_ok w I) as (c & w1 & E1 & I1 & X1 & D1 & M1 & T1 & L1 & _). exists c, w1. split; [exact E1|]. split; [exact I1|]. split; [exact X1|]. split; [exact M1|]. split; [rewrite T1; reflexivity|]. unfold dt at 1. rewrite D1. exact L1.
  - destruct (host_single V few0 w) as [c w1] eqn:E. destruct (host_single_ok w c w1 I E) as (I1 & X1 & H1 & D1 & M1 & N1 & O1 & R1). exists c, w1. split; [reflexivity|]. split; [exact I1|]. split; [exact X1|]. split; [exact M1|].
    unfold dt. rewrite D1. split; [|reflexivity]. unfold ht. rewrite H1. destruct O1 as [O|O]; rewrite O; [reflexivity|]. cbn. rewrite (N1 O). reflexivity.
Qed.
Lemma get_big_throw : forall d s w, inv w -> s < 2 -> get_big V table few0 d s w = Throw.
Proof.
  intros d s w I H. unfold get_big. destruct (single_any d w I) as (c & w1 & E & _). rewrite E. cbn [bind]. replace (2 <=? s) with false by (symmetry; apply Z.leb_gt; lia). reflexivity.
Qed.
Lemma get_big_ub : forall d s w, inv w -> 30 < s -> get_big V table few0 d s w = UB.
Proof.
  intros d s w I H. unfold get_big. destruct (single_any d w I) as (c & w1 & E & I1 & _). rewrite E. cbn [bind]. replace (2 <=? s) with true by (symmetry; apply Z.leb_le; lia). cbn [slow_assert bind].
  destruct (Z_lt_dec (s - 2) 30) as [L|L].
  - destruct (get_slice_ok d (s - 2) w1 I1 ltac:(lia) L) as (x & w2 & E2 & I2 & X2 & _ & _ & _ & _ & (c2 & S2) & _). rewrite E2. cbn [bind]. rewrite (single_ok d w2 c2 S2). cbn [bind].
    replace (120 <? 4 * s) with true by (symmetry; apply Z.ltb_lt; lia). reflexivity.
  - unfold get_slice. replace (30 <=? s - 2) with true by (symmetry; apply Z.leb_le; lia). rewrite orb_true_r. reflexivity.
Qed.
Lemma get_big_ok : forall d s w, inv w -> 2 <= s -> s <= 30 -> exists x w', get_big V table few0 d s w = Ok (x, w') /\ inv w' /\ ext w w' /\
  lev x = Z.to_nat (s - 2) /\ (exists f, big x = Some (f, 4 * s) /\ In f (fews w')) /\ (In (ptr x) (ht w') \/ In (ptr x) (dt w')) /\ bl w' (ptr x) = Some (table (Z.to_nat (s - 2))) /\ grown d (Z.to_nat (s - 2)) w w'.
Proof.
  intros d s w I H0 H1. unfold get_big. destruct (single_any d w I) as (c & w1 & E & I1 & X1 & M1 & T1 & L1). rewrite E. cbn [bind]. replace (2 <=? s) with true by (symmetry; apply Z.leb_le; lia). cbn [slow_assert bind].
  destruct (get_slice_ok d (s - 2) w1 I1 ltac:(lia) ltac:(lia)) as (x & w2 & E2 & I2 & X2 & Lx & Bx & Px & Tx & (c2 & S2) & G). rewrite E2. cbn [bind]. rewrite (single_ok d w2 c2 S2). cbn [bind].
  replace (120 <? 4 * s) with false by (symmetry; apply Z.ltb_ge; lia). eexists. exists w2. split; [reflexivity|]. cbn [lev big ptr]. split; [exact I2|]. split; [exact (ext_trans _ _ _ X1 X2)|]. split; [exact Lx|].
  split; [exists (fewp c2); split; [reflexivity|exact (slot_few d w2 c2 S2)]|]. split; [exact Px|]. split; [exact Tx|]. unfold grown in *. rewrite M1, T1, L1 in G. exact G.
Qed.

(** [clear] and [shutdown]. *)
Lemma existsb_in : forall i l, existsb (Nat.eqb i) l = true <-> In i l.
Proof.
  intros i l. rewrite existsb_exists. split; [intros (x & H & E); apply Nat.eqb_eq in E; subst; exact H|intros H; exists i; split; [exact H|apply Nat.eqb_refl]].
Qed.
Definition tabs_at (d : bool) (w : world) : list nat := if d then dt w else ht w.
Record cleared (w w' : world) : Prop := {
  k_inv : inv w';
  k_next : nx w' = nx w;
  k_few : fews w' = fews w;
  k_made : made V w' = made V w;
  k_reg : reg V w' = reg V w;
  k_blocks : forall i, bl w' i = bl w i \/ (bl w' i = None /\ (In i (ht w) \/ In i (dt w)));
  k_tabs : forall d, tabs_at d w' = tabs_at d w \/ (tabs_at d w' = [] /\ forall i, In i (tabs_at d w) -> bl w' i = None)
}.
Lemma clear_ok : forall d w, inv w -> cleared w (clear V d w) /\ tabs_at d (clear V d w) = [] /\ (forall i, In i (tabs_at d w) -> bl (clear V d w) i = None).
Proof.
  intros d w I. unfold clear. change (if d then dev V w else host V w) with (slot d w). destruct (slot d w) as [c|] eqn:Hs.
  2:{ assert (T : tabs_at d w = []) by (unfold tabs_at, slot, ht, dt in *; destruct d; rewrite Hs; reflexivity). split; [constructor; auto|]. rewrite T. split; [reflexivity|]. intros i []. }
  assert (T : tabs_at d w = tabs c) by (unfold tabs_at, slot, ht, dt in *; destruct d; rewrite Hs; reflexivity).
  set (w' := if d then _ else _).
  assert (B : forall i, bl w' i = if existsb (Nat.eqb i) (tabs c) then None else bl w i) by (intros i; subst w'; destruct d; reflexivity).
  assert (N : nx w' = nx w) by (subst w'; destruct d; reflexivity).
  assert (F : fews w' = fews w) by (subst w'; unfold fews, slot in *; destruct d; cbn; rewrite Hs; reflexivity).
  assert (M : made V w' = made V w) by (subst w'; destruct d; reflexivity).
  assert (R : reg V w' = reg V w) by (subst w'; destruct d; reflexivity).
  assert (Td : tabs_at d w' = []) by (subst w'; destruct d; reflexivity).
  assert (To : tabs_at (negb d) w' = tabs_at (negb d) w) by (subst w'; destruct d; reflexivity).
  assert (Gone : forall i, In i (tabs_at d w) -> bl w' i = None) by (intros i Hi; rewrite B; rewrite T in Hi; rewrite (proj2 (existsb_in i _) Hi); reflexivity).
  assert (Keep : forall i, ~ In i (tabs_at d w) -> bl w' i = bl w i).
  { intros i Hi. rewrite B. rewrite T in Hi. destruct (existsb (Nat.eqb i) (tabs c)) eqn:Q; [apply existsb_in in Q; contradiction|reflexivity]. }
  assert (Gd : good w (tabs_at true w) /\ good w (tabs_at false w)) by (split; [exact (i_dt w I)|exact (i_ht w I)]).
  assert (Sep : forall i, In i (tabs_at (negb d) w) -> ~ In i (tabs_at d w)).
  { intros i Hi Hj. destruct d; cbn in Hi, Hj; [exact (i_sep w I i Hi Hj)|exact (i_sep w I i Hj Hi)]. }
  assert (G' : good w' (tabs_at true w') /\ good w' (tabs_at false w')).
  { assert (Ge : good w' (tabs_at d w')) by (rewrite Td; intros p i Q; destruct p; discriminate).
    assert (Go : good w' (tabs_at (negb d) w')).
    { rewrite To. intros p i Q. rewrite Keep by (apply Sep; exact (nth_error_In _ _ Q)). destruct d; [exact (proj2 Gd p i Q)|exact (proj1 Gd p i Q)]. }
    destruct d; auto. }
  assert (Sub : forall e i, In i (tabs_at e w') -> In i (tabs_at e w)).
  { intros e i Hi. destruct (Bool.bool_dec e d) as [->|Ne]; [rewrite Td in Hi; destruct Hi|]. replace e with (negb d) in * by (destruct e, d; try reflexivity; contradiction). rewrite To in Hi. exact Hi. }
  assert (FD : forall f, In f (fews w) -> ~ In f (tabs_at d w)).
  { intros f Hf Hi. apply (i_sepf w I f); [destruct d; cbn in Hi; auto|exact Hf]. }
  split; [|split; [exact Td|exact Gone]]. constructor; auto.
  - constructor.
    + rewrite N. intros i Hi. rewrite B. destruct (existsb _ _); [reflexivity|exact (i_next w I i Hi)].
    + exact (proj2 G').
    + exact (proj1 G').
    + rewrite F. intros f Hf. rewrite Keep by (apply FD; exact Hf). exact (i_few w I f Hf).
    + intros i H1 H2. exact (i_sep w I i (Sub false i H1) (Sub true i H2)).
    + rewrite F. intros i [H1|H1]; apply (i_sepf w I i); [left; exact (Sub false i H1)|right; exact (Sub true i H1)].
    + rewrite R. intros H. apply (i_hreg w I). subst w'. unfold slot in Hs. destruct d; [exact H|]. rewrite Hs. discriminate.
    + rewrite R. intros H. apply (i_dreg w I). subst w'. unfold slot in Hs. destruct d; [|exact H]. rewrite Hs. discriminate.
    + rewrite F. intros i Hi. destruct (in_dec Nat.eq_dec i (tabs_at d w)) as [Q|Q]; [rewrite (Gone i Q) in Hi; exfalso; apply Hi; reflexivity|]. rewrite (Keep i Q) in Hi.
      destruct (i_own w I i Hi) as [O|[O|O]]; [left|right; left|right; right; exact O].
      * change (In i (tabs_at false w')). destruct d; [change false with (negb true); rewrite To; exact O|contradiction].
      * change (In i (tabs_at true w')). destruct d; [contradiction|change true with (negb false); rewrite To; exact O].
  - intros i. destruct (in_dec Nat.eq_dec i (tabs_at d w)) as [Q|Q]; [right; split; [exact (Gone i Q)|destruct d; cbn in Q; auto]|left; exact (Keep i Q)].
  - intros e. destruct (Bool.bool_dec e d) as [->|Ne]; [right; split; [exact Td|exact Gone]|left]. replace e with (negb d) by (destruct e, d; try reflexivity; contradiction). exact To.
Qed.
Lemma cleared_trans : forall a b c, cleared a b -> cleared b c -> cleared a c.
Proof.
  intros a b c [A1 A2 A3 A4 A5 A6 A7] [B1 B2 B3 B4 B5 B6 B7].
  assert (Sub : forall e i, In i (tabs_at e b) -> In i (tabs_at e a)) by (intros e i Hi; destruct (A7 e) as [Q|[Q _]]; rewrite Q in Hi; [exact Hi|destruct Hi]).
  constructor; try congruence; [ |].
  - intros i. destruct (B6 i) as [Q|[Q R]].
    + rewrite Q. apply A6.
    + right. split; [exact Q|]. destruct R as [R|R]; [left; exact (Sub false i R)|right; exact (Sub true i R)].
  - intros d. destruct (A7 d) as [Q|[Q R]].
    + rewrite <- Q. apply B7.
    + right. destruct (B7 d) as [P|[P _]]; (split; [rewrite P; auto|]); intros i Hi; destruct (B6 i) as [W|[W _]]; rewrite W; auto.
Qed.
Lemma clears_ok : forall l w, inv w -> let w' := fold_left (fun w d => clear V d w) l w in
  cleared w w' /\ forall d, In d l -> tabs_at d w' = [] /\ forall i, In i (tabs_at d w) -> bl w' i = None.
Proof.
  induction l as [|e l IH]; intros w I; cbv zeta; cbn [fold_left].
  - split; [constructor; auto|]. intros d [].
  - destruct (clear_ok e w I) as (K1 & T1 & N1). destruct (IH (clear V e w) (k_inv _ _ K1)) as [K2 T2]. split; [exact (cleared_trans _ _ _ K1 K2)|].
    assert (First : tabs_at e (fold_left (fun w d => clear V d w) l (clear V e w)) = [] /\ forall i, In i (tabs_at e w) -> bl (fold_left (fun w d => clear V d w) l (clear V e w)) i = None).
    { split; [destruct (k_tabs _ _ K2 e) as [Q|[Q _]]; [rewrite Q; exact T1|exact Q]|]. intros i Hi. destruct (k_blocks _ _ K2 i) as [Q|[Q _]]; [rewrite Q; exact (N1 i Hi)|exact Q]. }
    intros d [<-|Hd]; [exact First|]. destruct (Bool.bool_dec d e) as [->|Ne]; [exact First|]. destruct (T2 d Hd) as [A B]. split; [exact A|]. intros i Hi. destruct (k_tabs _ _ K1 d) as [Q|[_ Q]].
    + apply B. rewrite Q. exact Hi.
    + destruct (k_blocks _ _ K2 i) as [P|[P _]]; [rewrite P; exact (Q i Hi)|exact P].
Qed.
Lemma shutdown_ok : forall w, inv w -> let w' := shutdown V w in cleared w w' /\ ht w' = [] /\ dt w' = [] /\ forall i, In i (ht w) \/ In i (dt w) -> bl w' i = None.
Proof.
  intros w I. unfold shutdown. destruct (clears_ok (reg V w) w I) as [K T]. split; [exact K|].
  assert (A : forall d, tabs_at d (fold_left (fun w d => clear V d w) (reg V w) w) = [] /\ forall i, In i (tabs_at d w) -> bl (fold_left (fun w d => clear V d w) (reg V w) w) i = None).
  { intros d. destruct (slot d w) as [c|] eqn:Hs.
    - apply T. destruct d; cbn in Hs; [apply (i_dreg w I)|apply (i_hreg w I)]; rewrite Hs; discriminate.
    - assert (E : tabs_at d w = []) by (unfold tabs_at, slot, ht, dt in *; destruct d; rewrite Hs; reflexivity). rewrite E. split; [|intros i []]. destruct (k_tabs _ _ K d) as [Q|[Q _]]; [rewrite Q; exact E|exact Q]. }
  split; [exact (proj1 (A false))|]. split; [exact (proj1 (A true))|]. intros i [H|H]; [exact (proj2 (A false) i H)|exact (proj2 (A true) i H)].
Qed.
Lemma inv0 : inv (world0 V).
Proof.
  constructor.
  - reflexivity.
  - intros p i Q. destruct p; discriminate.
  - intros p i Q. destruct p; discriminate.
  - intros f [].
  - intros i [].
  - intros i [[]|[]].
  - intros H. exfalso. apply H. reflexivity.
  - intros H. exfalso. apply H. reflexivity.
  - intros i H. exfalso. apply H. reflexivity.
Qed.

(** Reading. *)
Section Read.
Variable root : Z -> Z -> V.
Hypothesis T : twiddles V vopp_r vopp_i vswap table few0 root.
Lemma table_at : forall s j, 0 <= s -> 0 <= j -> j <= 2 ^ s / 4 -> elem_at V (table (Z.to_nat s)) j = Ok (root s j).
Proof.
  intros s j Hs H0 H1. unfold elem_at. replace (j <? 0) with false by (symmetry; apply Z.ltb_ge; lia). rewrite (t_table _ _ _ _ _ _ _ T), Z2Nat.id by exact Hs.
  assert (E : nth_error (seq 0 (Z.to_nat (2 ^ s / 4 + 1))) (Z.to_nat j) = Some (Z.to_nat j)).
  { rewrite (nth_error_nth' _ 0%nat) by (rewrite seq_length; lia). rewrite seq_nth by lia. reflexivity. }
  rewrite (map_nth_error _ _ _ E), Z2Nat.id by exact H0. reflexivity.
Qed.
Lemma tw_ok : forall s j, 0 <= s -> tw_at V vopp_r vopp_i vswap (table (Z.to_nat s)) (Z.to_nat s) j = Ok (root s j).
Proof.
  intros s j Hs. unfold tw_at. rewrite Z2Nat.id by exact Hs. set (m := 2 ^ s).
  assert (Pm : 0 < m) by (apply Z.pow_pos_nonneg; lia).
  assert (L : Z.land j (2 * m - 1) = j mod (2 * m)).
  { replace (2 * m) with (2 ^ (s + 1)) by (unfold m; rewrite Z.pow_add_r by lia; change (2 ^ 1) with 2; lia). replace (2 ^ (s + 1) - 1) with (Z.ones (s + 1)) by (rewrite Z.ones_equiv; lia). apply Z.land_ones. lia. }
  rewrite L, <- (t_turn _ _ _ _ _ _ _ T s j Hs). fold m. pose proof (Z.mod_pos_bound j (2 * m) ltac:(lia)) as B. set (a := j mod (2 * m)) in *. clearbody a.
  (* small or a multiple of 4 *)
  assert (C : m = 1 \/ m = 2 \/ (4 * (m / 4) = m /\ 2 * (m / 2) = m)).
  { destruct (Z.eq_dec s 0) as [->|N0]; [left; reflexivity|]. destruct (Z.eq_dec s 1) as [->|N1]; [right; left; reflexivity|]. right. right.
    assert (E : m = 4 * 2 ^ (s - 2)) by (unfold m; replace s with (2 + (s - 2)) at 1 by lia; rewrite Z.pow_add_r by lia; reflexivity).
    assert (E4 : m / 4 = 2 ^ (s - 2)) by (rewrite E, Z.mul_comm, Z.div_mul by lia; reflexivity). split; [lia|]. rewrite E. replace (4 * 2 ^ (s - 2)) with ((2 * 2 ^ (s - 2)) * 2) by lia. rewrite Z.div_mul by lia. lia. }
  set (i1 := m <? a). assert (Q1 : exists b, (if i1 then 2 * m - a else a) = b /\ 0 <= b <= m /\ root s a = if i1 then vopp_i (root s b) else root s b).
  { eexists. split; [reflexivity|]. unfold i1. destruct (Z.ltb_spec m a) as [Q|Q]; (split; [lia|]); [|reflexivity]. rewrite <- (t_i _ _ _ _ _ _ _ T s _ Hs). fold m. f_equal. lia. }
  destruct Q1 as (b & -> & B1 & ->).
  set (r1 := m / 2 <? b). assert (Q2 : exists c, (if r1 then m - b else b) = c /\ 0 <= c <= m / 2 /\ root s b = if r1 then vopp_r (root s c) else root s c).
  { eexists. split; [reflexivity|]. unfold r1. pose proof (Z.div_mod m 2 ltac:(lia)). pose proof (Z.mod_pos_bound m 2 ltac:(lia)). destruct (Z.ltb_spec (m / 2) b) as [Q|Q]; (split; [lia|]); [|reflexivity]. rewrite <- (t_r _ _ _ _ _ _ _ T s _ Hs). fold m. f_equal. lia. }
  destruct Q2 as (c & -> & B2 & ->).
  set (d1 := m / 4 <? c). assert (Q3 : exists d, (if d1 then m / 2 - c else c) = d /\ 0 <= d <= m / 4 /\ root s c = if d1 then vswap (root s d) else root s d).
  { eexists. split; [reflexivity|]. unfold d1. destruct (Z.ltb_spec (m / 4) c) as [Q|Q]; [|split; [lia|reflexivity]].
    assert (S1 : 1 <= s). { destruct (Z.eq_dec s 0) as [->|N0]; [|lia]. assert (E1 : m = 1) by reflexivity. rewrite E1 in B2, Q. change (1 / 2) with 0 in B2. change (1 / 4) with 0 in Q. lia. }
    split; [destruct C as [E|[E|[E E']]]; [rewrite E in B2, Q; change (1 / 2) with 0 in B2; change (1 / 4) with 0 in Q; lia|rewrite E in B2, Q |- *; change (2 / 2) with 1 in *; change (2 / 4) with 0 in *; lia|lia]|]. rewrite <- (t_d _ _ _ _ _ _ _ T s _ S1). fold m. f_equal. lia. }
  destruct Q3 as (d & -> & B3 & ->).
  rewrite (table_at s d Hs) by (fold m; lia). cbn [bind]. destruct i1, r1, d1; reflexivity.
Qed.
Lemma few_ok : forall s j, 0 <= s -> elem_at V few0 (4 * s + Z.land j 3) = if s <? 30 then Ok (root s (j mod 4)) else UB.
Proof.
  intros s j Hs. replace (Z.land j 3) with (j mod 4) by (change 3 with (Z.ones 2); rewrite Z.land_ones by lia; reflexivity). pose proof (Z.mod_pos_bound j 4 ltac:(lia)) as B.
  unfold elem_at. replace (4 * s + j mod 4 <? 0) with false by (symmetry; apply Z.ltb_ge; lia). destruct (Z.ltb_spec s 30) as [L|L].
  - rewrite (t_few _ _ _ _ _ _ _ T) by lia. reflexivity.
  - destruct (nth_error few0 _) eqn:E; [|reflexivity]. assert (X := proj1 (nth_error_Some few0 (Z.to_nat (4 * s + j mod 4))) ltac:(rewrite E; discriminate)). rewrite (t_few_length _ _ _ _ _ _ _ T) in X. lia.
Qed.

(** The refinement. *)
Definition hrel (w : world) (e : nat) (x : slice) (h : handle) : Prop :=
  let '(s, b, e') := h in
  let s0 := if b then s - 2 else s in
  0 <= s0 /\ lev x = Z.to_nat s0 /\
  (if b then exists f, big x = Some (f, 4 * s) /\ In f (fews w) else big x = None) /\
  (e' = e -> (In (ptr x) (ht w) \/ In (ptr x) (dt w)) /\ bl w (ptr x) = Some (table (Z.to_nat s0))) /\
  (e' <> e -> (e' < e)%nat /\ (ptr x < nx w)%nat /\ bl w (ptr x) = None).
Lemma hrel_ext : forall w w' e x h, ext w w' -> hrel w e x h -> hrel w' e x h.
Proof.
  intros w w' e x [[s b] e'] [X1 X2 X3 X4 X5 X6] (A & B & C & D & E). unfold hrel. split; [exact A|]. split; [exact B|]. split; [|split].
  - destruct b; [|exact C]. destruct C as (f & C1 & C2). exists f. split; [exact C1|exact (X6 f C2)].
  - intros Q. destruct (D Q) as [[D1|D1] D2]; (split; [|exact (X1 _ _ D2)]); [left; exact (X4 _ D1)|right; exact (X5 _ D1)].
  - intros Q. destruct (E Q) as (E1 & E2 & E3). split; [exact E1|]. split; [lia|]. exact (X2 _ E2 E3).
Qed.
Lemma hrel_shutdown : forall w e x h, inv w -> hrel w e x h -> hrel (shutdown V w) (S e) x h.
Proof.
  intros w e x [[s b] e'] I (A & B & C & D & E). destruct (shutdown_ok w I) as (K & _ & _ & G). unfold hrel. split; [exact A|]. split; [exact B|]. split; [|split].
  - destruct b; [|exact C]. destruct C as (f & C1 & C2). exists f. split; [exact C1|]. rewrite (k_few _ _ K). exact C2.
  - intros Q. exfalso. destruct (Nat.eq_dec e' e) as [Q'|Q']; [lia|]. destruct (E Q') as (E1 & _). lia.
  - intros Q. rewrite (k_next _ _ K). destruct (Nat.eq_dec e' e) as [Q'|Q'].
    + destruct (D Q') as [D1 D2]. split; [lia|]. split; [exact (below w _ _ I D2)|exact (G _ D1)].
    + destruct (E Q') as (E1 & E2 & E3). split; [lia|]. split; [exact E2|]. destruct (k_blocks _ _ K (ptr x)) as [P|[P _]]; rewrite P; [exact E3|reflexivity].
Qed.
Lemma read_ok : forall w e x h j, inv w -> hrel w e x h -> read V vopp_r vopp_i vswap vmul w x j = s_read V vmul root e h j.
Proof.
  intros w e x [[s b] e'] j I (A & B & C & D & E). unfold read, s_read. destruct (Nat.eqb_spec e' e) as [Q|Q]; cbn [negb].
  - destruct (D Q) as [_ D2]. destruct b.
    + destruct C as (f & C1 & C2). rewrite C1. unfold block_at at 1. rewrite D2. cbn [bind]. rewrite B, tw_ok by exact A. cbn [bind]. unfold block_at. rewrite (i_few w I f C2). cbn [bind]. rewrite few_ok by lia.
      rewrite Z.shiftr_div_pow2 by lia. change (2 ^ 2) with 4. destruct (s <? 30); reflexivity.
    + rewrite C. unfold block_at. rewrite D2. cbn [bind]. rewrite B. apply tw_ok. exact A.
  - destruct (E Q) as (_ & _ & E3). unfold block_at. rewrite E3. destruct (big x) as [[f o]|]; reflexivity.
Qed.
Lemma Forall2_mono : forall (A B : Type) (P Q : A -> B -> Prop) l l', (forall a b, P a b -> Q a b) -> Forall2 P l l' -> Forall2 Q l l'.
Proof. intros A B P Q l l' H F. induction F; constructor; auto. Qed.
Lemma Forall2_nth : forall (A B : Type) (P : A -> B -> Prop) l l' k, Forall2 P l l' -> match nth_error l k, nth_error l' k with Some a, Some b => P a b | None, None => True | _, _ => False end.
Proof. intros A B P l l' k F. revert k. induction F; intros [|k]; cbn; auto. apply IHF. Qed.

Definition step' := step V vopp_r vopp_i vswap vmul table few0.
Definition run' := run V vopp_r vopp_i vswap vmul table few0.
(** Per step: same outcome, and what was built. *)
Lemma step_ok : forall o w hs e sh, inv w -> Forall2 (hrel w e) hs sh -> (length (dt w) <= length (ht w))%nat ->
  match step' o w hs, s_step V vmul root o e sh with
  | Ok (w', hs', v), Ok (e', sh', v') => v = v' /\ inv w' /\ Forall2 (hrel w' e') hs' sh' /\ (length (dt w') <= length (ht w'))%nat /\
      (o = Shutdown -> made V w' = made V w /\ length (ht w') = 0%nat) /\
      (o <> Shutdown -> made V w' = made V w ++ seq (length (ht w)) (needed o - length (ht w)) /\ length (ht w') = Nat.max (length (ht w)) (needed o))
  | Throw, Throw => o <> Shutdown /\ needed o = 0%nat
  | UB, UB => True
  | _, _ => False
  end.
Proof.
  intros o w hs e sh I F DH. unfold step'.
  assert (Grow : forall d s w', inv w' -> grown d s w w' -> made V w' = made V w ++ seq (length (ht w)) (S s - length (ht w)) /\ length (ht w') = Nat.max (length (ht w)) (S s) /\ (length (dt w') <= length (ht w'))%nat).
  { intros d s w' _ (n & M & L & Ge & Lt & Dl). destruct (le_lt_dec (if d then length (dt w) else length (ht w)) s) as [Q|Q].
    - rewrite M, (Ge Q). replace n with (S s - length (ht w))%nat by (specialize (Ge Q); lia). split; [reflexivity|]. split; [reflexivity|]. rewrite <- (Ge Q). exact (Dl DH).
    - specialize (Lt Q). subst n. assert (S s <= length (ht w))%nat by (destruct d; lia). rewrite M, L. replace (S s - length (ht w))%nat with O by lia. split; [reflexivity|]. split; [lia|]. rewrite <- L. exact (Dl DH). }
  destruct o as [d s|d s|k j|]; cbn [step s_step].
  - destruct ((0 <=? s) && (s <? 30)) eqn:R.
    + apply andb_true_iff in R. destruct R as [R1 R2]. apply Z.leb_le in R1. apply Z.ltb_lt in R2.
      destruct (get_slice_ok d s w I R1 R2) as (x & w' & E & I' & X & Lx & Bx & Px & Tx & _ & G). rewrite E. cbn [bind]. destruct (Grow d _ w' I' G) as (G1 & G2 & G3).
      split; [reflexivity|]. split; [exact I'|]. split.
      * apply Forall2_app; [apply (Forall2_mono _ _ _ _ _ _ (fun a b => hrel_ext w w' e a b X) F)|]. constructor; [|constructor]. unfold hrel. repeat split; auto; try lia; intros Q; exfalso; apply Q; reflexivity.
      * split; [exact G3|]. split; [discriminate|]. intros _. cbn [needed]. replace (Z.to_nat (s + 1)) with (S (Z.to_nat s)) by lia. split; [exact G1|exact G2].
    + unfold get_slice. replace ((s <? 0) || (30 <=? s)) with true; [exact Logic.I|]. symmetry. apply andb_false_iff in R. destruct R as [R|R]; [apply Z.leb_gt in R|apply Z.ltb_ge in R]; apply orb_true_iff; [left; apply Z.ltb_lt; lia|right; apply Z.leb_le; lia].
  - destruct (Z.ltb_spec s 2) as [R|R].
    + rewrite get_big_throw by assumption. cbn [bind]. split; [discriminate|]. cbn [needed]. lia.
    + destruct (Z.leb_spec s 30) as [R2|R2].
      * destruct (get_big_ok d s w I R R2) as (x & w' & E & I' & X & Lx & Bx & Px & Tx & G). rewrite E. cbn [bind]. destruct (Grow d _ w' I' G) as (G1 & G2 & G3).
        split; [reflexivity|]. split; [exact I'|]. split.
        -- apply Forall2_app; [apply (Forall2_mono _ _ _ _ _ _ (fun a b => hrel_ext w w' e a b X) F)|]. constructor; [|constructor]. unfold hrel. split; [lia|]. split; [exact Lx|]. split; [exact Bx|]. split; [intros _; split; [exact Px|exact Tx]|]. intros Q. exfalso. apply Q. reflexivity.
        -- split; [exact G3|]. split; [discriminate|]. intros _. cbn [needed]. replace (Z.to_nat (s - 1)) with (S (Z.to_nat (s - 2))) by lia. split; [exact G1|exact G2].
      * rewrite get_big_ub by assumption. exact Logic.I.
  - pose proof (Forall2_nth _ _ _ _ _ k F) as N. cbn [needed]. rewrite Nat.sub_0_l, Nat.max_0_r. cbn [seq]. rewrite app_nil_r.
    destruct (nth_error hs k) as [x|], (nth_error sh k) as [h|]; try contradiction.
    + rewrite (read_ok w e x h j I N). destruct (s_read V vmul root e h j) as [v| |] eqn:Ev; cbn [bind]; [|split; [discriminate|reflexivity]|exact Logic.I]. repeat (split; auto); discriminate.
    + repeat (split; auto); discriminate.
  - destruct (shutdown_ok w I) as (K & H1 & H2 & _). split; [reflexivity|]. split; [exact (k_inv _ _ K)|]. split; [exact (Forall2_mono _ _ _ _ _ _ (fun a b => hrel_shutdown w e a b I) F)|]. rewrite H1, H2. split; [lia|].
    split; [intros _; split; [exact (k_made _ _ K)|reflexivity]|]. intros Q. exfalso. apply Q. reflexivity.
Qed.
Lemma run_ok : forall l w hs e sh, inv w -> Forall2 (hrel w e) hs sh -> (length (dt w) <= length (ht w))%nat ->
  fst (run' l w hs) = s_run V vmul root l e sh /\ inv (snd (run' l w hs)) /\
  (~ In UB (s_run V vmul root l e sh) -> made V (snd (run' l w hs)) = made V w ++ built l (length (ht w))).
Proof.
  induction l as [|o l IH]; intros w hs e sh I F DH; unfold run'; cbn [run s_run].
  - split; [reflexivity|]. split; [exact I|]. intros _. cbn. rewrite app_nil_r. reflexivity.
  - pose proof (step_ok o w hs e sh I F DH) as H. unfold step' in H. destruct (step V vopp_r vopp_i vswap vmul table few0 o w hs) as [[[w' hs'] v]| |], (s_step V vmul root o e sh) as [[[e' sh'] v']| |]; try contradiction.
    + destruct H as (<- & I' & F' & DH' & HS & HO). destruct (IH w' hs' e' sh' I' F' DH') as (R1 & R2 & R3). unfold run' in *.
      destruct (run V vopp_r vopp_i vswap vmul table few0 l w' hs') as [r w2]. cbn [fst snd] in *. split; [rewrite R1; reflexivity|]. split; [exact R2|]. intros N.
      rewrite R3 by (intros Q; apply N; right; exact Q).
      destruct o as [d s|d s|k j|]; [| | |destruct (HS eq_refl) as [-> ->]; reflexivity]; (destruct HO as [-> ->]; [discriminate|]); cbn [built]; rewrite <- app_assoc; reflexivity.
    + destruct H as [H1 H2]. destruct (IH w hs e sh I F DH) as (R1 & R2 & R3). unfold run' in *. destruct (run V vopp_r vopp_i vswap vmul table few0 l w hs) as [r w2]. cbn [fst snd] in *.
      split; [rewrite R1; reflexivity|]. split; [exact R2|]. intros N. rewrite R3 by (intros Q; apply N; right; exact Q). f_equal. destruct o; try contradiction; cbn [built]; rewrite H2, Nat.sub_0_l, Nat.max_0_r; reflexivity.
    + split; [reflexivity|]. split; [exact I|]. intros N. exfalso. apply N. left. reflexivity.
Qed.
End Read.
End Proofs.
