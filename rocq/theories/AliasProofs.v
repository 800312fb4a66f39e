(** The heap operations of AliasModel.v refine the value operations of SeriesModel.v. *)
From Coq Require Import ZArith List Bool Arith Lia Permutation.
From Verif Require Import Base Field SeriesModel AliasModel.
Import ListNotations.
Open Scope Z_scope.

Section P.
Variable F : Fld.
Variable kern : kernel F.
Variable base : bases F.
Variable ord : nat -> list nat.
Hypothesis Hord : forall n, Permutation (ord n) (seq 0 n).
Notation KK := (K F).
Notation ser := (series F).
Notation heap := (heap F).
Notation buffer := (buffer F).

(** ** Lists *)
Lemma upd_length : forall A (l : list A) i a, length (upd l i a) = length l.
Proof. induction l; intros [|i] b; cbn; auto. Qed.
Lemma upd_nth : forall A (l : list A) i j a d, (i < length l)%nat ->
  nth j (upd l i a) d = if (j =? i)%nat then a else nth j l d.
Proof.
  induction l as [|x l IH]; intros i j a d Hi; [cbn in Hi; lia|].
  destruct i as [|i], j as [|j]; cbn; auto. rewrite IH; [reflexivity|]. cbn in Hi. lia.
Qed.
Lemma upd_nth_error : forall A (l : list A) i j a, (i < length l)%nat ->
  nth_error (upd l i a) j = if (j =? i)%nat then Some a else nth_error l j.
Proof.
  induction l as [|x l IH]; intros i j a Hi; [cbn in Hi; lia|].
  destruct i as [|i], j as [|j]; cbn; auto. rewrite IH; [reflexivity|]. cbn in Hi. lia.
Qed.
Lemma nth_error_ext' : forall A (l l' : list A), (forall i, nth_error l i = nth_error l' i) -> l = l'.
Proof.
  induction l as [|x l IH]; intros [|y l'] E; auto.
  - specialize (E O). discriminate.
  - specialize (E O). discriminate.
  - pose proof (E O) as E0. cbn in E0. injection E0 as <-. f_equal. apply IH. intro i. exact (E (S i)).
Qed.
Lemma nth_error_skipn' : forall A n (l : list A) i, nth_error (skipn n l) i = nth_error l (n + i).
Proof. induction n; intros l i; [reflexivity|]. destruct l; cbn; [destruct i; reflexivity|]. apply IHn. Qed.

Lemma getb_upd : forall (h : heap) b c j, (b < length h)%nat ->
  getb F (upd h b c) j = if (j =? b)%nat then c else getb F h j.
Proof. intros. unfold getb. apply upd_nth. auto. Qed.

(** ** Prefixes *)
Definition pre (c c' : buffer) : Prop := exists t, c' = c ++ t.
Lemma pre_refl : forall c, pre c c. Proof. intro c. exists []. rewrite app_nil_r. reflexivity. Qed.
Lemma pre_nil : forall c, pre [] c. Proof. intro c. exists c. reflexivity. Qed.
Lemma pre_firstn : forall n c c', pre c c' -> pre (firstn n c) c'.
Proof. intros n c c' (t & ->). exists (skipn n c ++ t). rewrite app_assoc, firstn_skipn. reflexivity. Qed.
Lemma pre_skipn : forall n c c', pre c c' -> pre (skipn n c) (skipn n c').
Proof. intros n c c' (t & ->). exists (skipn (n - length c) t). apply skipn_app. Qed.
Lemma rd_pre : forall c c' i v, pre c c' -> rd F c i = Ok v -> rd F c' i = Ok v.
Proof.
  intros c c' i v (t & ->) E. unfold rd in *. destruct (i <? 0); [discriminate|].
  destruct (nth_error c (Z.to_nat i)) as [x|] eqn:N; [|discriminate].
  rewrite nth_error_app1, N; [exact E|]. apply nth_error_Some. rewrite N. discriminate.
Qed.
Lemma read_pre : forall n c c' vs, pre c c' -> read_cells F n c = Ok vs -> read_cells F n c' = Ok vs.
Proof.
  induction n as [|n IH]; intros c c' vs (t & ->) E; [exact E|].
  destruct c as [|[v|] c]; cbn [read_cells app] in *; try discriminate.
  destruct (read_cells F n c) as [us| |] eqn:R; try discriminate.
  rewrite (IH c (c ++ t) us); auto. exists t. reflexivity.
Qed.

(** ** The relation between heap objects and values *)
Definition Rown (h : heap) (y : obj) (Y : ser) : Prop :=
  (obuf y < length h)%nat /\ getb F h (obuf y) = cells Y /\ oknown y = known Y /\ ononzero y = nonzero Y.
Definition Rview (h : heap) (x : vw) (X : ser) : Prop :=
  (forall b off, vptr x = Some (b, off) -> (b < length h)%nat) /\
  pre (cells X) (vcells F h x) /\ vknown x = known X /\ vnonzero x = nonzero X.
(** Everything allocated before keeps its contents, buffer b excepted. *)
Definition frame (h h' : heap) (b : nat) : Prop :=
  (length h <= length h')%nat /\ forall j, (j < length h)%nat -> j <> b -> getb F h' j = getb F h j.
(** The view is not in buffer b. *)
Definition apart (x : vw) (b : nat) : Prop := forall c off, vptr x = Some (c, off) -> c <> b.

Lemma frame_refl : forall h b, frame h h b. Proof. intros. split; auto. Qed.
Lemma frame_trans : forall h1 h2 h3 b, frame h1 h2 b -> frame h2 h3 b -> frame h1 h3 b.
Proof. intros h1 h2 h3 b (L1 & A1) (L2 & A2). split; [lia|]. intros j Hj Hn. rewrite A2 by (auto; lia). auto. Qed.
(** Writes to a buffer allocated later do not show. *)
Lemma frame_new : forall h1 h2 h3 b c, frame h1 h2 b -> frame h2 h3 c -> (length h1 <= c)%nat -> frame h1 h3 b.
Proof. intros h1 h2 h3 b c (L1 & A1) (L2 & A2) Hc. split; [lia|]. intros j Hj Hn. rewrite A2 by lia. auto. Qed.
Lemma frame_upd : forall h b c, (b < length h)%nat -> frame h (upd h b c) b.
Proof.
  intros h b c Hb. split; [rewrite upd_length; lia|]. intros j Hj Hn. rewrite getb_upd by auto.
  destruct (Nat.eqb_spec j b); [contradiction|reflexivity].
Qed.
Lemma Rview_frame : forall h h' b x X, frame h h' b -> apart x b -> Rview h x X -> Rview h' x X.
Proof.
  intros h h' b x X (L & A) Hap (B & P & K & N). split; [|split; [|split; auto]].
  - intros c off E. specialize (B c off E). lia.
  - unfold vcells in *. destruct (vptr x) as [[c off]|] eqn:E; [|exact P].
    rewrite A; eauto.
Qed.
Lemma Rown_frame : forall h h' b y Y, frame h h' b -> obuf y <> b -> Rown h y Y -> Rown h' y Y.
Proof. intros h h' b y Y (L & A) Hn (B & C & K & N). split; [lia|]. split; [rewrite A; auto|auto]. Qed.
Lemma oview_ok : forall h y Y, Rown h y Y -> Rview h (oview y) Y.
Proof.
  intros h y Y (B & C & K & N). split; [intros b off E; injection E as <- <-; exact B|].
  split; [|auto]. unfold vcells, oview. cbn [vptr skipn]. rewrite C. apply pre_refl.
Qed.
Lemma vlow_ok : forall h x X n, Rview h x X -> Rview h (vlow x n) (low F X n).
Proof.
  intros h x X n (B & P & K & N). unfold vlow, low. rewrite <- K, <- N.
  cbv zeta. set (nz := Z.min _ (vnonzero x)). split; [|split; [|split; reflexivity]].
  - cbn [vptr]. destruct (nz =? 0); [discriminate|exact B].
  - unfold vcells. cbn [vptr cells]. destruct (nz =? 0); [apply pre_nil|]. apply pre_firstn. exact P.
Qed.
Lemma skipn_skipn' : forall A a b (l : list A), skipn a (skipn b l) = skipn (b + a) l.
Proof. intros A a b l. apply nth_error_ext'. intro i. rewrite !nth_error_skipn'. f_equal. lia. Qed.
Lemma vhigh_ok : forall h x X n, Rview h x X -> Rview h (vhigh x n) (high F X n).
Proof.
  intros h x X n (B & P & K & N). unfold vhigh, high. rewrite <- K, <- N.
  cbv zeta. set (nz := relu (vnonzero x - relu n)). split; [|split; [|split; reflexivity]].
  - cbn [vptr]. destruct (nz =? 0); [discriminate|]. destruct (vptr x) as [[b off]|]; [|discriminate].
    intros c o E. injection E as <- <-. eapply B. reflexivity.
  - unfold vcells in *. cbn [vptr cells]. destruct (nz =? 0); [apply pre_nil|].
    destruct (vptr x) as [[b off]|].
    + apply pre_firstn. rewrite <- skipn_skipn'. apply pre_skipn. exact P.
    + apply pre_firstn. apply (pre_skipn (Z.to_nat (relu n))) in P. rewrite skipn_nil in P. exact P.
Qed.
Lemma apart_low : forall x n b, apart x b -> apart (vlow x n) b.
Proof. intros x n b A c off. unfold vlow. cbn [vptr]. destruct (_ =? 0); [discriminate|apply A]. Qed.
Lemma apart_high : forall x n b, apart x b -> apart (vhigh x n) b.
Proof.
  intros x n b A c off. unfold vhigh. cbn [vptr]. destruct (_ =? 0); [discriminate|].
  destruct (vptr x) as [[d o]|] eqn:E; [|discriminate]. intro H. injection H as <- <-. eapply A. exact E.
Qed.
Lemma apart_oview : forall y b, obuf y <> b -> apart (oview y) b.
Proof. intros y b H c off E. unfold oview in E. cbn [vptr] in E. injection E as <- <-. exact H. Qed.
Lemma apart_alias : forall h y x, apart x (obuf y) -> alias F h y x = false.
Proof.
  intros h y x A. unfold alias, apart in *. destruct (vptr x) as [[b off]|]; [|reflexivity].
  destruct (Nat.eqb_spec b (obuf y)) as [E|E]; [|reflexivity]. destruct (A b off eq_refl E).
Qed.
Lemma apart_new : forall h x X b, Rview h x X -> (length h <= b)%nat -> apart x b.
Proof. intros h x X b (B & _) Hb c off E. specialize (B c off E). lia. Qed.
(** The check finds every view into the destination's buffer that starts before its end. *)
Lemma alias_complete : forall h y x b off, vptr x = Some (b, off) -> (off < length (getb F h b))%nat ->
  (alias F h y x = true <-> b = obuf y).
Proof.
  intros h y x b off E L. unfold alias. rewrite E. destruct (Nat.ltb_spec off (length (getb F h b))); [|lia].
  rewrite andb_true_r. apply Nat.eqb_eq.
Qed.

(** ** Counts *)
Lemma sa_ok : forall b r, slow_assert b = Ok r -> b = true. Proof. intros [|] r E; [reflexivity|discriminate]. Qed.
Ltac ib H := match type of H with
  | bind ?e _ = Ok _ => let E := fresh "E" in let r := fresh "r" in
      destruct e as [r| |] eqn:E; cbn [bind] in H; [|discriminate H|discriminate H]
  end.
Lemma olimit_ok : forall h y Y, Rown h y Y -> olimit F h y = limit Y.
Proof. intros h y Y (_ & C & _). unfold olimit, limit. rewrite C. reflexivity. Qed.
Lemma set_counts_sim : forall h y Y kn nz Y', Rown h y Y -> set_counts F Y kn nz = Ok Y' ->
  exists y', oset_counts F h y kn nz = Ok y' /\ Rown h y' Y' /\ obuf y' = obuf y /\
    oknown y' = kn /\ ononzero y' = nz /\ cells Y' = cells Y /\ known Y' = kn /\ nonzero Y' = nz.
Proof.
  intros h y Y kn nz Y' R E. unfold set_counts, oset_counts in *. rewrite (olimit_ok h y Y R). ib E.
  injection E as <-. cbn [bind]. destruct R as (B & C & _).
  eexists. split; [reflexivity|]. repeat split; auto.
Qed.
Lemma set_known_sim : forall h y Y kn Y', Rown h y Y -> set_known F Y kn = Ok Y' ->
  exists y', oset_known y kn = Ok y' /\ Rown h y' Y' /\ obuf y' = obuf y.
Proof.
  intros h y Y kn Y' R E. unfold set_known, oset_known in *. ib E.
  injection E as <-. cbn [bind]. destruct R as (B & C & K & N).
  eexists. split; [reflexivity|]. repeat split; auto. cbn [ononzero nonzero]. rewrite N. reflexivity.
Qed.

(** ** Loops *)
(** What the value loop computes. *)
Lemma loop_cells_spec : forall n i0 body (y r : buffer), loop_cells F n i0 body y = Ok r ->
  length r = length y /\ (n <= length y)%nat /\
  (forall j, (j < n)%nat -> exists v, body (i0 + Z.of_nat j) (nth j y None) = Ok v /\ nth_error r j = Some (Some v)) /\
  (forall j, (n <= j)%nat -> nth_error r j = nth_error y j).
Proof.
  induction n as [|n IH]; intros i0 body y r E; cbn [loop_cells] in E.
  - injection E as <-. repeat split; auto; intros; lia.
  - destruct y as [|c y]; [discriminate|]. ib E. ib E. injection E as <-.
    destruct (IH _ _ _ _ E1) as (L & N & A & B). cbn [length]. split; [lia|]. split; [lia|]. split.
    + intros [|j] Hj.
      * exists r0. cbn [nth nth_error]. rewrite Z.add_0_r. auto.
      * destruct (A j ltac:(lia)) as (v & V1 & V2). exists v. cbn [nth nth_error].
        replace (i0 + Z.of_nat (S j)) with (i0 + 1 + Z.of_nat j) by lia. auto.
    + intros [|j] Hj; [lia|]. cbn [nth_error]. apply B. lia.
Qed.

(** The state part way through a heap loop: buffer b has its old cells outside [done]. *)
Definition midway (h h' : heap) (b : nat) (done : list nat) : Prop :=
  length h' = length h /\ (forall j, j <> b -> getb F h' j = getb F h j) /\
  length (getb F h' b) = length (getb F h b) /\
  forall j, ~ In j done -> nth_error (getb F h' b) j = nth_error (getb F h b) j.
Lemma hloop_ok : forall h b body (v : nat -> KK) todo done h1, (b < length h)%nat ->
  NoDup (done ++ todo) -> (forall i, In i todo -> (i < length (getb F h b))%nat) ->
  (forall d1 i t1 h', done ++ todo = d1 ++ i :: t1 -> (length done <= length d1)%nat -> midway h h' b d1 ->
     body (Z.of_nat i) h' = Ok (v i)) ->
  midway h h1 b done -> (forall j, In j done -> nth_error (getb F h1 b) j = Some (Some (v j))) ->
  exists h', hloop F todo b body h1 = Ok h' /\ midway h h' b (done ++ todo) /\
    forall j, In j (done ++ todo) -> nth_error (getb F h' b) j = Some (Some (v j)).
Proof.
  intros h b body v. induction todo as [|i todo IH]; intros done h1 Hb ND Hi Hbody Hm Hd.
  - exists h1. rewrite app_nil_r. cbn [hloop]. auto.
  - cbn [hloop]. rewrite (Hbody done i todo h1 eq_refl (le_n _) Hm). cbn [bind].
    unfold hwr. pose proof Hm as (L & O & Lb & C).
    assert (Hib : (i < length (getb F h1 b))%nat) by (rewrite Lb; apply Hi; left; reflexivity).
    destruct (Nat.ltb_spec i (length (getb F h1 b))); [|lia]. cbn [bind].
    assert (Hb1 : (b < length h1)%nat) by lia.
    destruct (IH (done ++ [i]) (upd h1 b (upd (getb F h1 b) i (Some (v i))))) as (h' & E' & M' & V').
    + exact Hb.
    + rewrite <- app_assoc. exact ND.
    + intros j Hj. apply Hi. right. exact Hj.
    + intros d1 j t1 h' E Hlen M. apply (Hbody d1 j t1 h'); auto.
      * rewrite <- E, <- app_assoc. reflexivity.
      * rewrite app_length in Hlen. cbn in Hlen. lia.
    + split; [rewrite upd_length; exact L|]. split; [|split].
      * intros j Hj. rewrite getb_upd by auto. destruct (Nat.eqb_spec j b); [contradiction|auto].
      * rewrite getb_upd by auto. rewrite Nat.eqb_refl, upd_length. exact Lb.
      * intros j Hj. rewrite getb_upd by auto. rewrite Nat.eqb_refl, upd_nth_error by auto.
        destruct (Nat.eqb_spec j i) as [->|Hn].
        -- destruct Hj. apply in_or_app. right. left. reflexivity.
        -- apply C. intro Hin. apply Hj. apply in_or_app. left. exact Hin.
    + intros j Hj. rewrite getb_upd by auto. rewrite Nat.eqb_refl, upd_nth_error by auto.
      destruct (Nat.eqb_spec j i) as [->|Hn]; [reflexivity|].
      apply Hd. apply in_app_or in Hj. destruct Hj as [Hj|[Hj|[]]]; [exact Hj|congruence].
    + exists h'. rewrite <- app_assoc in M', V'. auto.
Qed.

(** A value loop and a heap loop whose bodies agree as long as the cells still needed are intact. *)
Lemma hdef_loop_sim : forall n h b body hbody (c r : buffer), (b < length h)%nat -> getb F h b = c ->
  def_loop F n body c = Ok r ->
  (forall d1 i t1 h' v, ord (Z.to_nat (to_i32 n)) = d1 ++ i :: t1 -> midway h h' b d1 ->
     (i < Z.to_nat (to_i32 n))%nat -> ~ In i d1 ->
     body (Z.of_nat i) (nth i c None) = Ok v -> hbody (Z.of_nat i) h' = Ok v) ->
  exists h', hdef_loop F ord n b hbody h = Ok h' /\ getb F h' b = r /\ length h' = length h /\ frame h h' b.
Proof.
  intros n h b body hbody c r Hb Hc E Hbody. unfold def_loop, hdef_loop in *. destruct (n =? 0).
  - injection E as <-. exists h. repeat split; auto.
  - set (m := Z.to_nat (to_i32 n)) in *.
    destruct (loop_cells_spec _ _ _ _ _ E) as (L & Lm & A & B).
    assert (Hv : exists v : nat -> KK, forall j, (j < m)%nat ->
               body (Z.of_nat j) (nth j c None) = Ok (v j) /\ nth_error r j = Some (Some (v j))).
    { exists (fun j => match nth_error r j with Some (Some v) => v | _ => k0 end). intros j Hj.
      destruct (A j Hj) as (v & V1 & V2). rewrite Z.add_0_l in V1. rewrite V2. auto. }
    destruct Hv as (v & Hv).
    assert (Hin : forall i, In i (ord m) <-> (i < m)%nat).
    { intro i. split; intro H.
      - apply (Permutation_in _ (Hord m)), in_seq in H. lia.
      - apply (Permutation_in _ (Permutation_sym (Hord m))), in_seq. lia. }
    assert (ND : NoDup (ord m)) by (apply (Permutation_NoDup (Permutation_sym (Hord m))), seq_NoDup).
    destruct (hloop_ok h b hbody v (ord m) [] h Hb) as (h' & E' & M' & V').
    + exact ND.
    + intros i Hi. apply Hin in Hi. rewrite Hc. lia.
    + cbn [app]. intros d1 i t1 h' Es _ M.
      assert (Hi : (i < m)%nat) by (apply Hin; rewrite Es; apply in_or_app; right; left; reflexivity).
      apply (Hbody d1 i t1 h' (v i) Es M Hi).
      * rewrite Es in ND. apply NoDup_remove_2 in ND. intro H. apply ND. apply in_or_app. left. exact H.
      * apply Hv. exact Hi.
    + repeat split; auto.
    + intros j [].
    + exists h'. split; [exact E'|]. destruct M' as (ML & MO & MLb & MC). cbn [app] in *.
      split; [|split; [exact ML|split; [lia|intros j _ Hj; auto]]].
      apply nth_error_ext'. intro j. destruct (Nat.lt_ge_cases j m).
      * rewrite V' by (apply Hin; auto). symmetry. apply Hv. auto.
      * rewrite MC by (rewrite Hin; lia). rewrite Hc. symmetry. apply B. auto.
Qed.

(** A read of view x at index i inside the loop, part way. *)
Definition fresh_read (x : vw) (b : nat) : Prop :=
  forall off, vptr x = Some (b, off) -> off = O \/ forall n, ord n = seq 0 n.
Lemma in_seq_split : forall n d1 i t1, seq 0 n = d1 ++ i :: t1 -> forall j, In j d1 -> (j < i)%nat.
Proof.
  intros n d1 i t1 E j Hj.
  assert (G : forall d1 a n i t1, seq a n = d1 ++ i :: t1 -> i = (a + length d1)%nat /\ (forall j, In j d1 -> (a <= j < a + length d1)%nat)).
  { clear. induction d1 as [|x d1 IH]; intros a n i t1 E; destruct n as [|n]; cbn [seq app] in E; try discriminate.
    - injection E as <- _. cbn. split; [lia|intros j []].
    - injection E as <- E. destruct (IH _ _ _ _ E) as (-> & Q). cbn [length]. split; [lia|].
      intros j [->|Hj]; [lia|]. specialize (Q j Hj). lia. }
  destruct (G d1 O n i t1 E) as (-> & Q). apply Q in Hj. lia.
Qed.
Lemma hrd_midway : forall h h' b x X i v m d1 t1, Rview h x X -> fresh_read x b ->
  midway h h' b d1 -> ord m = d1 ++ i :: t1 -> ~ In i d1 ->
  rd F (cells X) (Z.of_nat i) = Ok v -> hrd F h' x (Z.of_nat i) = Ok v.
Proof.
  intros h h' b x X i v m d1 t1 (B & P & _) Hf (ML & MO & MLb & MC) Eo Hi E. unfold hrd.
  apply (rd_pre _ _ _ _ P) in E. unfold vcells in *. destruct (vptr x) as [[c off]|] eqn:Ex; [|exact E].
  destruct (Nat.eq_dec c b) as [->|Hn]; [|rewrite MO by auto; exact E].
  unfold rd in *. destruct (Z.of_nat i <? 0); [discriminate|]. rewrite Nat2Z.id in *.
  rewrite nth_error_skipn' in *. rewrite MC; [exact E|].
  destruct (Hf off Ex) as [->|Hseq]; [exact Hi|]. intro Hin. rewrite Hseq in Eo.
  pose proof (in_seq_split _ _ _ _ Eo _ Hin). lia.
Qed.

(** ** Writing *)
Lemma hput_sim : forall h y Y vs c, Rown h y Y -> write_cells F vs (cells Y) = Ok c ->
  exists h', hput F h (obuf y) vs = Ok h' /\ getb F h' (obuf y) = c /\ length h' = length h /\ frame h h' (obuf y).
Proof.
  intros h y Y vs c (B & C & _) E. unfold hput. rewrite C, E. cbn [bind]. eexists. split; [reflexivity|].
  rewrite getb_upd by auto. rewrite Nat.eqb_refl, upd_length. repeat split; auto.
  - rewrite upd_length. lia.
  - apply (proj2 (frame_upd h (obuf y) c B)).
Qed.

(** ** The simulation statement of one operation on destination y *)
Definition sim (h : heap) (y : obj) (r : res (heap * obj)) (Y' : ser) : Prop :=
  exists h' y', r = Ok (h', y') /\ Rown h' y' Y' /\ obuf y' = obuf y /\ frame h h' (obuf y).

Lemma map_sim : forall f h y Y x X Y', Rown h y Y -> Rview h x X -> fresh_read x (obuf y) ->
  map_loop F f Y X = Ok Y' -> sim h y (h_map F ord f h y x) Y'.
Proof.
  intros f h y Y x X Y' RY RX Hf E. pose proof RX as (XB & XP & XK & XN). unfold map_loop, h_map in *.
  rewrite XK, XN. ib E. ib E. injection E as <-.
  destruct (set_counts_sim h y Y _ _ r RY E0) as (y' & -> & Ry' & Ob & Ky & Ny & C1 & K1 & N1). cbn [bind].
  destruct (hdef_loop_sim (nonzero X) h (obuf y') _
     (fun i h => (v <- hrd F h x i ;; Ok (f i v))) _ r0 (proj1 Ry') (proj1 (proj2 Ry')) E1) as (h' & -> & G & L & Fr).
  { intros d1 i t1 h' v Eo M Hi Hn Ev. cbn beta in *. ib Ev. injection Ev as <-.
    rewrite Ob in M. rewrite (hrd_midway h h' (obuf y) x X i r1 _ d1 t1 RX Hf M Eo Hn E). reflexivity. }
  cbn [bind]. exists h', y'. split; [reflexivity|]. split; [|split; [exact Ob|rewrite <- Ob; exact Fr]].
  destruct Ry' as (B' & _). split; [lia|]. split; [exact G|]. cbn [known nonzero]. split; congruence.
Qed.

Lemma addsub_sim : forall h y Y sign b s x X Y', Rown h y Y -> Rview h x X -> apart x (obuf y) ->
  high_addsub_ldexp F Y sign b s X = Ok Y' -> sim h y (h_high_addsub_ldexp F ord h y sign b s x) Y'.
Proof.
  intros h y Y sign b s x X Y' RY RX Ha E. pose proof RX as (XB & XP & XK & XN). pose proof RY as (YB & YC & YK & YN).
  unfold high_addsub_ldexp, h_high_addsub_ldexp in *. rewrite XK, XN, YK, YN, (apart_alias h y x Ha), (olimit_ok h y Y RY).
  cbv zeta in *. cbn [negb]. rewrite andb_true_r. ib E. cbn [bind]. ib E.
  match type of E1 with def_loop _ ?n (high_addsub_body _ _ ?a1 ?a2 ?a3 ?a4 ?a5 ?a6) _ = _ =>
    destruct (hdef_loop_sim n h (obuf y) _ (h_addsub_body F (obuf y) x a1 a2 a3 a4 a5 a6) _ r0 YB YC E1) as (h' & -> & G & L & Fr) end.
  { intros d1 i t1 h' v Eo (ML & MO & MLb & MC) Hi Hn Ev. unfold high_addsub_body, h_addsub_body in *.
    assert (Hrd : forall j w, rd F (cells X) j = Ok w -> hrd F h' x j = Ok w).
    { intros j w Hw. apply (rd_pre _ _ _ _ XP) in Hw. unfold hrd, vcells in *.
      destruct (vptr x) as [[c off]|] eqn:Ex; [|exact Hw]. rewrite MO; [exact Hw|]. eapply Ha. exact Ex. }
    destruct (Z.of_nat i <? to_i32 (nonzero Y)) eqn:Ei.
    - unfold cell_val in Ev. destruct (nth i (cells Y) None) as [yv|] eqn:Ey; [|discriminate Ev].
      assert (R1 : rd F (getb F h' (obuf y)) (Z.of_nat i) = Ok yv).
      { unfold rd. destruct (Z.ltb_spec (Z.of_nat i) 0); [lia|]. rewrite Nat2Z.id, MC by auto. rewrite YC.
        rewrite (nth_error_nth' (cells Y) None).
        - rewrite Ey. reflexivity.
        - destruct (Nat.lt_ge_cases i (length (cells Y))); [auto|]. rewrite nth_overflow in Ey by auto. discriminate. }
      rewrite R1. cbn [bind] in *. destruct (_ <? to_u32 _); [|exact Ev]. ib Ev. rewrite (Hrd _ _ E2). exact Ev.
    - cbn [bind] in *. destruct (_ <? to_u32 _); [|exact Ev]. ib Ev. rewrite (Hrd _ _ E2). exact Ev. }
  cbn [bind].
  assert (R1 : Rown h' y (mkS r0 (known Y) (nonzero Y))) by (split; [lia|split; [exact G|split; auto]]).
  destruct (set_counts_sim h' y _ _ _ Y' R1 E) as (y' & -> & Ry' & Ob & _). cbn [bind].
  exists h', y'. auto.
Qed.

Lemma add_scalar_sim : forall h y Y a Y', Rown h y Y -> add_scalar F Y a = Ok Y' -> sim h y (h_add_scalar F h y a) Y'.
Proof.
  intros h y Y a Y' RY E. pose proof RY as (YB & YC & YK & YN). unfold add_scalar, h_add_scalar in *.
  rewrite YN, YC. ib E. cbn [bind]. ib E. cbn [bind]. ib E. injection E as <-.
  destruct (hput_sim h y Y _ _ RY E2) as (h' & -> & G & L & Fr). cbn [bind].
  exists h', y. split; [reflexivity|]. split; [|auto]. split; [lia|]. split; auto.
Qed.

Lemma assign_sim : forall h y Y x X Y', Rown h y Y -> Rview h x X ->
  (forall off, vptr x = Some (obuf y, off) -> (0 < off)%nat) ->
  assign F Y X = Ok Y' -> sim h y (h_assign F h y x) Y'.
Proof.
  intros h y Y x X Y' RY RX Ho E. pose proof RX as (XB & XP & XK & XN). unfold assign, h_assign in *.
  rewrite XK, XN, (olimit_ok h y Y RY). ib E. cbn [bind]. ib E. rewrite (read_pre _ _ _ _ XP E1). cbn [bind]. ib E. injection E as <-.
  replace (match vptr x with Some (b, off) => (b =? obuf y)%nat && (off =? 0)%nat && (0 <? nonzero X) | None => false end)
    with false.
  2:{ destruct (vptr x) as [[b off]|]; [|reflexivity]. destruct (Nat.eqb_spec b (obuf y)) as [->|]; [|reflexivity].
      specialize (Ho off eq_refl). destruct off; [lia|reflexivity]. }
  destruct (hput_sim h y Y _ _ RY E2) as (h' & -> & G & L & Fr). cbn [bind].
  eexists h', _. split; [reflexivity|]. split; [|auto]. destruct RY as (YB & _). split; [cbn [obuf]; lia|]. split; auto.
Qed.

Lemma low_span_sim : forall h x X n vs, Rview h x X -> low_span F X n = Ok vs -> low_span F (vval F h x) n = Ok vs.
Proof. intros h x X n vs (B & P & K & N) E. unfold low_span, vval in *. cbn [cells nonzero]. rewrite N. eapply read_pre; eauto. Qed.

Lemma mul_sim : forall h z Z_ x X y Y Z', Rown h z Z_ -> Rview h x X -> Rview h y Y ->
  set_mul F kern Z_ X Y = Ok Z' -> sim h z (h_mul F kern h z x y) Z'.
Proof.
  intros h z Z_ x X y Y Z' RZ RX RY E. pose proof RX as (_ & _ & XK & XN). pose proof RY as (_ & _ & YK & YN).
  unfold set_mul, h_mul in *. rewrite XK, XN, YK, YN. cbv zeta in *. ib E.
  destruct (set_counts_sim h z Z_ _ _ r RZ E0) as (z' & -> & Rz' & Ob & Kz & Nz & C1 & K1 & N1). cbn [bind].
  ib E. rewrite (low_span_sim _ _ _ _ _ RX E1). cbn [bind]. ib E. rewrite (low_span_sim _ _ _ _ _ RY E2). cbn [bind].
  ib E. cbn [bind]. ib E. injection E as <-.
  destruct (hput_sim h z' r _ _ Rz' E4) as (h' & -> & G & L & Fr). cbn [bind].
  exists h', z'. split; [reflexivity|]. split; [|split; [exact Ob|rewrite <- Ob; exact Fr]].
  destruct Rz' as (B' & _). split; [lia|]. split; [exact G|]. auto.
Qed.
Lemma sqr_sim : forall h z Z_ x X Z', Rown h z Z_ -> Rview h x X ->
  set_sqr F kern Z_ X = Ok Z' -> sim h z (h_sqr F kern h z x) Z'.
Proof.
  intros h z Z_ x X Z' RZ RX E. pose proof RX as (_ & XP & XK & XN).
  unfold set_sqr, h_sqr in *. rewrite XK, XN. cbv zeta in *. ib E.
  destruct (set_counts_sim h z Z_ _ _ r RZ E0) as (z' & -> & Rz' & Ob & Kz & Nz & C1 & K1 & N1). cbn [bind].
  ib E. assert (E2 : span_of F (vval F h x) = Ok r0).
  { unfold span_of, vval in *. cbn [cells nonzero]. rewrite XN. eapply read_pre; eauto. }
  rewrite E2. cbn [bind].
  ib E. cbn [bind]. ib E. injection E as <-.
  destruct (hput_sim h z' r _ _ Rz' E4) as (h' & -> & G & L & Fr). cbn [bind].
  exists h', z'. split; [reflexivity|]. split; [|split; [exact Ob|rewrite <- Ob; exact Fr]].
  destruct Rz' as (B' & _). split; [lia|]. split; [exact G|]. auto.
Qed.
Lemma mul1p_sim : forall h z Z_ x X y Y s Z', Rown h z Z_ -> Rview h x X -> Rview h y Y -> fresh_read x (obuf z) ->
  set_mul1p F kern Z_ X Y s = Ok Z' -> sim h z (h_mul1p F kern ord h z x y s) Z'.
Proof.
  intros h z Z_ x X y Y s Z' RZ RX RY Hf E. pose proof RX as (_ & _ & XK & XN). pose proof RY as (_ & _ & YK & YN).
  unfold set_mul1p, h_mul1p in *. rewrite XK, XN, YK, YN. ib E. cbn [bind]. cbv zeta in *. ib E.
  destruct (set_counts_sim h z Z_ _ _ r0 RZ E1) as (z' & -> & Rz' & Ob & Kz & Nz & C1 & K1 & N1). cbn [bind].
  ib E. rewrite (low_span_sim _ _ _ _ _ RX E2). cbn [bind]. ib E. rewrite (low_span_sim _ _ _ _ _ RY E3). cbn [bind].
  ib E. cbn [bind]. ib E.
  match type of E5 with def_loop _ ?n _ _ = _ =>
    destruct (hdef_loop_sim n h (obuf z') _ (fun i h => if i <? to_i32 (nonzero X) then hrd F h x i else Ok k0) _ r4
      (proj1 Rz') (proj1 (proj2 Rz')) E5) as (h' & -> & G & L & Fr) end.
  { intros d1 i t1 h' v Eo M Hi Hn Ev. cbn beta in *. destruct (_ <? to_i32 _); [|exact Ev].
    rewrite Ob in M. exact (hrd_midway h h' (obuf z) x X i v _ d1 t1 RX Hf M Eo Hn Ev). }
  cbn [bind]. rewrite G. ib E. cbn [bind]. ib E. injection E as <-. cbn [bind].
  destruct Rz' as (B' & _).
  eexists _, z'. split; [reflexivity|]. split; [|split; [exact Ob|]].
  - split; [rewrite upd_length; lia|]. rewrite getb_upd by lia. rewrite Nat.eqb_refl. auto.
  - rewrite <- Ob. eapply frame_trans; [exact Fr|]. apply frame_upd. lia.
Qed.
Lemma sub2exp_sim : forall h z Z_ a x X b y Y Z', Rown h z Z_ -> Rview h x X -> Rview h y Y ->
  fresh_read x (obuf z) -> fresh_read y (obuf z) ->
  set_sub_si_2exp F Z_ a X b Y = Ok Z' -> sim h z (h_sub_si_2exp F ord h z a x b y) Z'.
Proof.
  intros h z Z_ a x X b y Y Z' RZ RX RY Hf Hg E. pose proof RX as (_ & _ & XK & XN). pose proof RY as (_ & _ & YK & YN).
  unfold set_sub_si_2exp, h_sub_si_2exp in *. rewrite XK, XN, YK, YN. cbv zeta in *. ib E.
  destruct (set_counts_sim h z Z_ _ _ r RZ E0) as (z' & -> & Rz' & Ob & Kz & Nz & C1 & K1 & N1). cbn [bind].
  ib E. injection E as <-.
  match type of E1 with def_loop _ ?n _ _ = _ =>
    destruct (hdef_loop_sim n h (obuf z') _ (fun i h =>
         xi <- (if i <? to_i32 (nonzero X) then hrd F h x i else Ok k0) ;;
         yi <- (if i <? to_i32 (nonzero Y) then hrd F h y i else Ok k0) ;;
         Ok (ksub (kmul (kofZ (to_i32 a)) xi) (ldexpK F yi b))) _ r0
      (proj1 Rz') (proj1 (proj2 Rz')) E1) as (h' & -> & G & L & Fr) end.
  { intros d1 i t1 h' v Eo M Hi Hn Ev. cbn beta in *. rewrite Ob in M.
    destruct (Z.of_nat i <? to_i32 (nonzero X)).
    - ib Ev. rewrite (hrd_midway h h' (obuf z) x X i r1 _ d1 t1 RX Hf M Eo Hn E). cbn [bind].
      destruct (Z.of_nat i <? to_i32 (nonzero Y)); [|exact Ev]. ib Ev.
      rewrite (hrd_midway h h' (obuf z) y Y i r2 _ d1 t1 RY Hg M Eo Hn E2). exact Ev.
    - cbn [bind] in *. destruct (Z.of_nat i <? to_i32 (nonzero Y)); [|exact Ev]. ib Ev.
      rewrite (hrd_midway h h' (obuf z) y Y i r1 _ d1 t1 RY Hg M Eo Hn E). exact Ev. }
  cbn [bind]. destruct Rz' as (B' & _).
  exists h', z'. split; [reflexivity|]. split; [|split; [exact Ob|rewrite <- Ob; exact Fr]].
  split; [lia|]. split; [exact G|]. auto.
Qed.

(** ** Base cases *)
Definition base_mono (f : ser -> ser -> res ser) : Prop := forall y x x' r,
  pre (cells x) (cells x') -> known x' = known x -> nonzero x' = nonzero x -> f y x = Ok r -> f y x' = Ok r.
Hypothesis Hib : base_mono (inv_base base).
Hypothesis Heb : base_mono (exp_base base).
Lemma base_sim : forall f h y Y x X Y', base_mono f -> Rown h y Y -> Rview h x X -> f Y X = Ok Y' ->
  sim h y (h_base F f h y x) Y'.
Proof.
  intros f h y Y x X Y' Hf (YB & YC & YK & YN) (XB & XP & XK & XN) E. unfold h_base.
  assert (E1 : f (oval F h y) (vval F h x) = Ok Y').
  { unfold oval. rewrite YC, YK, YN. destruct Y as [c k n]. cbn [cells known nonzero] in *.
    apply (Hf _ X); auto. }
  rewrite E1. cbn [bind]. eexists _, _. split; [reflexivity|]. split; [|split; [reflexivity|apply frame_upd; auto]].
  split; [cbn [obuf]; rewrite upd_length; auto|]. cbn [obuf]. rewrite getb_upd by auto. rewrite Nat.eqb_refl. auto.
Qed.

(** ** Allocation *)
Lemma alloc_ok : forall (h : heap) lim, exists h' d, alloc F h lim = (h', d) /\ Rown h' d (new_series lim) /\
  obuf d = length h /\ length h' = S (length h) /\ forall b, frame h h' b.
Proof.
  intros h lim. eexists _, _. split; [reflexivity|]. split; [|split; [reflexivity|split]].
  - split; [cbn [obuf]; rewrite app_length; cbn; lia|]. cbn [obuf]. unfold getb. rewrite app_nth2 by lia.
    rewrite Nat.sub_diag. auto.
  - rewrite app_length. cbn. lia.
  - intro b. split; [rewrite app_length; lia|]. intros j Hj _. unfold getb. apply app_nth1. auto.
Qed.

(** ** Newton iteration *)
Lemma newton_loop_sim : forall A B (R : A -> B -> Prop) stepA stepB n,
  (forall m0 m refine a b a', R a b -> stepA m0 m refine a = Ok a' -> exists b', stepB m0 m refine b = Ok b' /\ R a' b') ->
  forall cnt n0 a b a', R a b -> newton_loop stepA n cnt n0 a = Ok a' -> exists b', newton_loop stepB n cnt n0 b = Ok b' /\ R a' b'.
Proof.
  intros A B R stepA stepB n Hs. induction cnt as [|cnt IH]; intros n0 a b a' HR E; cbn [newton_loop] in *.
  - injection E as <-. eauto.
  - cbv zeta in *. ib E. destruct (Hs _ _ _ _ _ _ HR E0) as (b1 & -> & R1). cbn [bind]. eapply IH; eauto.
Qed.
Lemma newton_sim : forall A B (R : A -> B -> Prop) stepA stepB n0 n a b a',
  (forall m0 m refine a b a', R a b -> stepA m0 m refine a = Ok a' -> exists b', stepB m0 m refine b = Ok b' /\ R a' b') ->
  R a b -> newton_iterate n0 n stepA a = Ok a' -> exists b', newton_iterate n0 n stepB b = Ok b' /\ R a' b'.
Proof.
  intros A B R stepA stepB n0 n a b a' Hs HR E. unfold newton_iterate in *. destruct (n <=? n0).
  - injection E as <-. eauto.
  - ib E. cbn [bind]. ib E. cbn [bind]. eapply newton_loop_sim; eauto.
Qed.


(** ** The algorithms *)
Definition vin (h : heap) (x : vw) : Prop := forall b off, vptr x = Some (b, off) -> (b < length h)%nat.
Lemma apart_eq : forall x b c, apart x b -> c = b -> apart x c. Proof. intros x b c H ->. exact H. Qed.
Lemma apart_ge : forall h x c, vin h x -> (length h <= c)%nat -> apart x c.
Proof. intros h x c V L b off E. specialize (V b off E). lia. Qed.
Lemma fresh_apart : forall x b, apart x b -> fresh_read x b.
Proof. intros x b A off E. destruct (A _ _ E eq_refl). Qed.
Lemma fresh_oview : forall y b, fresh_read (oview y) b.
Proof. intros y b off E. unfold oview in E. cbn [vptr] in E. injection E as _ <-. left. reflexivity. Qed.
Ltac ap := first
  [ assumption
  | apply apart_oview; lia
  | apply apart_low; ap
  | apply apart_high; ap
  | eapply apart_eq; [eassumption|lia]
  | eapply apart_ge; [eassumption|lia] ].
Ltac fr := first [apply fresh_oview | apply fresh_apart; ap].
Ltac rv := first [eassumption | apply oview_ok; eassumption | apply vlow_ok; rv | apply vhigh_ok; rv].
(** Carry every fact about the old heap of [Fr] over to the new one, or drop it. *)
Ltac trans Fr :=
  let h := match type of Fr with frame ?h _ _ => h end in
  let h1 := match type of Fr with frame _ ?h1 _ => h1 end in
  pose proof (proj1 Fr);
  repeat match goal with
  | H : Rown h ?o ?O |- _ =>
      pose proof (proj1 H);
      first [ let H' := fresh "R" in assert (H' : Rown h1 o O) by (eapply Rown_frame; [exact Fr|lia|exact H]);
              clear H; rename H' into H
            | clear H ]
  | H : Rview h ?o ?O |- _ =>
      first [ let H' := fresh "R" in assert (H' : Rview h1 o O) by (eapply Rview_frame; [exact Fr|ap|exact H]);
              clear H; rename H' into H
            | clear H ]
  | H : frame ?g h ?c |- _ =>
      first [ let H' := fresh "R" in
              assert (H' : frame g h1 c) by first
                [ eapply frame_new; [exact H|exact Fr|lia]
                | apply (frame_trans g h h1 c H);
                  match type of Fr with frame _ _ ?b => replace c with b by lia end; exact Fr ];
              clear H; rename H' into H
            | clear H ]
  end.
Lemma assign_apart : forall h y Y x X Y', Rown h y Y -> Rview h x X -> apart x (obuf y) ->
  assign F Y X = Ok Y' -> sim h y (h_assign F h y x) Y'.
Proof. intros h y Y x X Y' RY RX A E. eapply assign_sim; eauto. intros off Eo. destruct (A _ _ Eo eq_refl). Qed.
Ltac fin S := let h := fresh "h" in let y := fresh "o" in let R := fresh "Ro" in let O := fresh "Ob" in let Fr := fresh "Fr" in
  let Eq := fresh "Eq" in
  destruct S as (h & y & Eq & R & O & Fr); rewrite Eq; clear Eq; cbn [bind]; trans Fr; clear Fr.
(** One operation: E is the value step, the goal contains the heap step. *)
Ltac go E := lazymatch type of E with
  | set_known F ?Y ?kn = Ok ?r =>
      match goal with |- context [oset_known ?y kn] =>
      match goal with R : Rown _ y Y |- _ =>
        let y := fresh "o" in let Ry := fresh "Ro" in let O := fresh "Ob" in let Eq := fresh "Eq" in
        destruct (set_known_sim _ _ _ _ _ R E) as (y & Eq & Ry & O); rewrite Eq; clear Eq; cbn [bind] end end
  | set_mul F kern ?D ?A ?B = Ok ?r => match goal with |- context [h_mul F kern ?h ?d ?a ?b] =>
      let S := fresh "S" in assert (S : sim h d (h_mul F kern h d a b) r) by (apply (mul_sim h d D a A b B r); [rv|rv|rv|exact E]); fin S end
  | set_mul1p F kern ?D ?A ?B ?s = Ok ?r => match goal with |- context [h_mul1p F kern ord ?h ?d ?a ?b s] =>
      let S := fresh "S" in assert (S : sim h d (h_mul1p F kern ord h d a b s) r) by (apply (mul1p_sim h d D a A b B s r); [rv|rv|rv|fr|exact E]); fin S end
  | add_scalar F ?D ?a = Ok ?r => match goal with |- context [h_add_scalar F ?h ?d a] =>
      let S := fresh "S" in assert (S : sim h d (h_add_scalar F h d a) r) by (apply (add_scalar_sim h d D a r); [rv|exact E]); fin S end
  | high_addsub_ldexp F ?D ?g ?b ?s ?A = Ok ?r => match goal with |- context [h_high_addsub_ldexp F ord ?h ?d g b s ?a] =>
      let S := fresh "S" in assert (S : sim h d (h_high_addsub_ldexp F ord h d g b s a) r) by (apply (addsub_sim h d D g b s a A r); [rv|rv|ap|exact E]); fin S end
  | map_loop F ?f ?D ?A = Ok ?r => match goal with |- context [h_map F ord f ?h ?d ?a] =>
      let S := fresh "S" in assert (S : sim h d (h_map F ord f h d a) r) by (apply (map_sim f h d D a A r); [rv|rv|fr|exact E]); fin S end
  | assign F ?D ?A = Ok ?r => match goal with |- context [h_assign F ?h ?d ?a] =>
      let S := fresh "S" in assert (S : sim h d (h_assign F h d a) r) by (apply (assign_apart h d D a A r); [rv|rv|ap|exact E]); fin S end
  | ?f ?D ?A = Ok ?r => match goal with |- context [h_base F f ?h ?d ?a] =>
      let S := fresh "S" in assert (S : sim h d (h_base F f h d a) r) by (apply (base_sim f h d D a A r); [assumption|rv|rv|exact E]); fin S end
  end.
Ltac new_ l := match goal with |- context [alloc F ?h l] =>
   let h' := fresh "h" in let d := fresh "d" in let R := fresh "Rd" in let O := fresh "Od" in let L := fresh "L" in let Fr := fresh "Fr" in
   let E := fresh "E" in
   destruct (alloc_ok h l) as (h' & d & E & R & O & L & Fr); rewrite E; clear E; specialize (Fr (S (length h')));
   trans Fr; clear Fr end.
Ltac st E := ib E; match goal with Q : _ = Ok ?r |- _ => match type of E with context [r] => go Q end end.
Ltac simp := unfold sub_int, add_int, high_sub, high_add, sub_in, add_in, set_neg, set_derivative_shift, set_integral_shift,
  h_sub_int, h_high_sub, h_high_add, h_sub_in, h_add_in, h_neg, h_derivative_shift, h_integral_shift in *.

(** States of the iterations: destination y in buffer b, temporaries allocated after h0. *)
Definition RR (h0 : heap) (b : nat) (S_ : ser * ser) (st : heap * obj * obj) : Prop :=
  let '(h, y, dy) := st in
  Rown h y (fst S_) /\ Rown h dy (snd S_) /\ obuf y = b /\ (length h0 <= obuf dy)%nat /\ frame h0 h b.
Ltac rr := eexists; split; [reflexivity|]; cbn [fst snd RR]; split; [eassumption|]; split; [eassumption|];
  split; [lia|]; split; [lia|assumption].

Lemma inv_step_sim : forall h0 b x X, (b < length h0)%nat -> apart x b -> vin h0 x -> Rview h0 x X ->
  forall m0 m refine S_ st S', RR h0 b S_ st -> inv_step F kern X m0 m refine S_ = Ok S' ->
  exists st', h_inv_step F kern ord x m0 m refine st = Ok st' /\ RR h0 b S' st'.
Proof.
  intros h0 b x X Hb Ax Vx RX0 m0 m refine [Y DY] [[h y] dy] S' (RY & RD & Ob & Od & Fr0) E.
  cbn [fst snd] in *. unfold inv_step, h_inv_step in *. simp.
  assert (RX : Rview h x X) by (eapply Rview_frame; [exact Fr0|exact Ax|exact RX0]). clear RX0.
  st E. st E. st E. st E. st E.
  injection E as <-. rr.
Qed.


(** Entering and leaving the iteration. *)
Lemma iter_sim : forall (step : Z -> Z -> bool -> ser * ser -> res (ser * ser)) hstep h0 h y Y d n b S',
  (forall m0 m refine S_ st S', RR h0 b S_ st -> step m0 m refine S_ = Ok S' ->
     exists st', hstep m0 m refine st = Ok st' /\ RR h0 b S' st') ->
  Rown h y Y -> Rown h d (new_series n) -> obuf y = b -> (length h0 <= obuf d)%nat -> frame h0 h b ->
  newton_iterate (known Y) n step (Y, new_series n) = Ok S' ->
  sim h0 y (' (h, y, _) <- newton_iterate (oknown y) n hstep (h, y, d) ;; Ok (h, y)) (fst S').
Proof.
  intros step hstep h0 h y Y d n b S' Hs RY RD Ob Od Fr E.
  destruct (newton_sim _ _ (RR h0 b) step hstep (known Y) n (Y, new_series n) (h, y, d) S' Hs) as (st' & E' & R').
  - cbn [RR fst snd]. auto.
  - exact E.
  - replace (oknown y) with (known Y) by (symmetry; apply RY). rewrite E'. cbn [bind].
    destruct st' as [[h' y'] d']. destruct R' as (A1 & A2 & A3 & A4 & A5).
    exists h', y'. split; [reflexivity|]. split; [exact A1|]. split; [lia|]. rewrite Ob. exact A5.
Qed.
Lemma unknown_sim : forall h y Y, Rown h y Y -> sim h y (Ok (h, oset_unknown y)) (set_unknown F Y).
Proof.
  intros h y Y (B & C & _). eexists _, _. split; [reflexivity|]. split; [|split; [reflexivity|apply frame_refl]].
  split; [exact B|]. split; auto.
Qed.
Lemma sim_frame : forall h h' y y' r Y', sim h' y' r Y' -> obuf y' = obuf y -> frame h h' (obuf y) -> sim h y r Y'.
Proof.
  intros h h' y y' r Y' (g & z & E & R & O & Fr) Ho Fh. exists g, z. split; [exact E|]. split; [exact R|].
  split; [lia|]. eapply frame_trans; [exact Fh|]. rewrite <- Ho. exact Fr.
Qed.
Ltac vi := match goal with R : Rview _ ?x _ |- vin _ ?x => intros ? ? Ev; apply (proj1 R) in Ev; lia end.

Ltac start RY RX Ax :=
  pose proof RX as (Vx & _ & XK & XN); pose proof RY as (Hb & _);
  match type of RX with ?P => assert (KX : id P) by exact RX end;
  match type of RY with Rown ?h ?y _ => pose proof (frame_refl h (obuf y)) as Fr0 end.
Ltac early E := destruct (_ =? 0); [injection E as <-; apply unknown_sim; assumption|].
Ltac iterate E step := match type of E with newton_iterate _ _ _ (?Y, _) = Ok _ =>
  match goal with R1 : Rown ?h ?y Y, Rd : Rown ?h ?d (new_series ?n), Fr0 : frame ?h0 ?h ?b |- _ =>
    eapply (sim_frame h0 h0 _ y); [|lia|apply frame_refl];
    eapply (iter_sim _ _ h0 h y Y d n b); [|exact R1|exact Rd|lia|lia|exact Fr0|exact E];
    intros; eapply step; eauto end end.

Lemma inv_sim : forall h y Y x X Y', Rown h y Y -> Rview h x X -> apart x (obuf y) ->
  set_inv F kern base Y X = Ok Y' -> sim h y (h_inv F kern base ord h y x) Y'.
Proof.
  intros h y Y x X Y' RY RX Ax E. start RY RX Ax.
  unfold set_inv, h_inv in *. cbv zeta in *. rewrite XK, XN, (apart_alias h y x Ax). cbn [negb andb].
  early E. ib E. cbn [bind].
  ib E. go E1. ib E. injection E as <-.
  new_ (known X). iterate E2 inv_step_sim.
Qed.

Lemma inv1p_step_sim : forall h0 b x X s, (b < length h0)%nat -> apart x b -> vin h0 x -> Rview h0 x X ->
  forall m0 m refine S_ st S', RR h0 b S_ st -> inv1p_step F kern X s m0 m refine S_ = Ok S' ->
  exists st', h_inv1p_step F kern ord x s m0 m refine st = Ok st' /\ RR h0 b S' st'.
Proof.
  intros h0 b x X s Hb Ax Vx RX0 m0 m refine [Y DY] [[h y] dy] S' (RY & RD & Ob & Od & Fr0) E.
  cbn [fst snd] in *. unfold inv1p_step, h_inv1p_step in *. simp.
  assert (RX : Rview h x X) by (eapply Rview_frame; [exact Fr0|exact Ax|exact RX0]). clear RX0.
  st E. st E. st E. st E. st E.
  injection E as <-. rr.
Qed.
Lemma inv1p_sim : forall h y Y x X s Y', Rown h y Y -> Rview h x X -> apart x (obuf y) ->
  set_inv1p F kern Y X s = Ok Y' -> sim h y (h_inv1p F kern ord h y x s) Y'.
Proof.
  intros h y Y x X s Y' RY RX Ax E. start RY RX Ax.
  unfold set_inv1p, h_inv1p in *. simp. cbv zeta in *. rewrite XK, (apart_alias h y x Ax). cbn [negb andb].
  early E. ib E. cbn [bind].
  ib E. go E1. ib E. injection E as <-.
  new_ (known X). iterate E2 inv1p_step_sim.
Qed.

Ltac go2 E := lazymatch type of E with
  | set_inv F kern base ?D ?A = Ok ?r => match goal with |- context [h_inv F kern base ord ?h ?d ?a] =>
      let S := fresh "S" in assert (S : sim h d (h_inv F kern base ord h d a) r) by (apply (inv_sim h d D a A r); [rv|rv|ap|exact E]); fin S end
  | set_inv1p F kern ?D ?A ?s = Ok ?r => match goal with |- context [h_inv1p F kern ord ?h ?d ?a s] =>
      let S := fresh "S" in assert (S : sim h d (h_inv1p F kern ord h d a s) r) by (apply (inv1p_sim h d D a A s r); [rv|rv|ap|exact E]); fin S end
  | _ => go E
  end.
Ltac st2 E := ib E; match goal with Q : _ = Ok ?r |- _ => match type of E with context [r] => go2 Q end end.
(** The last operation of a function. *)
Ltac last E g := match goal with |- sim ?h ?y ?e ?r => 
  match type of E with _ = Ok r => g E end end;
  eexists _, _; split; [reflexivity|]; split; [eassumption|]; split; [lia|assumption].

Lemma div_sim : forall h y Y a A b B Y', Rown h y Y -> Rview h a A -> Rview h b B -> apart a (obuf y) -> apart b (obuf y) ->
  set_div F kern base Y A B = Ok Y' -> sim h y (h_div F kern base ord h y a b) Y'.
Proof.
  intros h y Y a A b B Y' RY RA RB Aa Ab E.
  pose proof RA as (Va & _ & AK & AN). pose proof RB as (Vb & _ & BK & BN). pose proof RY as (Hb & _).
  pose proof (frame_refl h (obuf y)) as Fr0.
  unfold set_div, h_div in *. simp. cbv zeta in *. rewrite AK, BK, (apart_alias h y a Aa), (apart_alias h y b Ab). cbn [negb andb slow_assert bind].
  new_ (Z.min (known A) (known B)).
  st2 E. st2 E. new_ (Z.min (known A) (known B)). st2 E. st2 E. st2 E. last E go2.
Qed.
Lemma div1p_sim : forall h y Y a A b B s Y', Rown h y Y -> Rview h a A -> Rview h b B -> apart a (obuf y) -> apart b (obuf y) ->
  set_div1p F kern Y A B s = Ok Y' -> sim h y (h_div1p F kern ord h y a b s) Y'.
Proof.
  intros h y Y a A b B s Y' RY RA RB Aa Ab E.
  pose proof RA as (Va & _ & AK & AN). pose proof RB as (Vb & _ & BK & BN). pose proof RY as (Hb & _).
  pose proof (frame_refl h (obuf y)) as Fr0.
  unfold set_div1p, h_div1p in *. simp. cbv zeta in *. rewrite AK, BK, (apart_alias h y a Aa), (apart_alias h y b Ab). cbn [negb andb].
  ib E. cbn [bind].
  new_ (Z.min (known A) (known B + s) - s).
  st2 E. st2 E. new_ (Z.min (known A) (known B + s)). st2 E. st2 E. st2 E. last E go2.
Qed.
Ltac go3 E := lazymatch type of E with
  | set_div F kern base ?D ?A ?B = Ok ?r => match goal with |- context [h_div F kern base ord ?h ?d ?a ?b] =>
      let S := fresh "S" in assert (S : sim h d (h_div F kern base ord h d a b) r) by (apply (div_sim h d D a A b B r); [rv|rv|rv|ap|ap|exact E]); fin S end
  | set_div1p F kern ?D ?A ?B ?s = Ok ?r => match goal with |- context [h_div1p F kern ord ?h ?d ?a ?b s] =>
      let S := fresh "S" in assert (S : sim h d (h_div1p F kern ord h d a b s) r) by (apply (div1p_sim h d D a A b B s r); [rv|rv|rv|ap|ap|exact E]); fin S end
  | _ => go2 E
  end.
Ltac st3 E := ib E; match goal with Q : _ = Ok ?r |- _ => match type of E with context [r] => go3 Q end end.
Lemma hrd_sim : forall h x X i v, Rview h x X -> rd F (cells X) i = Ok v -> hrd F h x i = Ok v.
Proof. intros h x X i v (_ & P & _) E. eapply rd_pre; eauto. Qed.

Lemma log_sim : forall checked h y Y x X Y', Rown h y Y -> Rview h x X -> apart x (obuf y) ->
  set_log_gen F kern base checked Y X = Ok Y' -> sim h y (h_log_gen F kern base ord checked h y x) Y'.
Proof.
  intros checked h y Y x X Y' RY RX Ax E. start RY RX Ax.
  unfold set_log_gen, h_log_gen in *. simp. cbv zeta in *. rewrite XK, XN, (apart_alias h y x Ax). cbn [negb andb].
  early E. ib E. cbn [bind]. ib E.
  assert (G : (if checked then v <- hrd F h x 0;; slow_assert (keqb v k1) else Ok tt) = Ok r0).
  { destruct checked; [|exact E1]. ib E1. rewrite (hrd_sim _ _ _ _ _ RX E2). exact E1. }
  rewrite G. cbn [bind]. clear G E1.
  new_ (known X). st3 E. st3 E. last E go3.
Qed.
Lemma log1p_sim : forall h y Y x X s Y', Rown h y Y -> Rview h x X -> apart x (obuf y) ->
  set_log1p F kern Y X s = Ok Y' -> sim h y (h_log1p F kern ord h y x s) Y'.
Proof.
  intros h y Y x X s Y' RY RX Ax E. start RY RX Ax.
  unfold set_log1p, h_log1p in *. simp. cbv zeta in *. rewrite XK, (apart_alias h y x Ax). cbn [negb andb].
  early E. ib E. cbn [bind].
  new_ (known X). st3 E. st3 E. last E go3.
Qed.
Ltac go4 E := lazymatch type of E with
  | set_log_gen F kern base ?c ?D ?A = Ok ?r => match goal with |- context [h_log_gen F kern base ord c ?h ?d ?a] =>
      let S := fresh "S" in assert (S : sim h d (h_log_gen F kern base ord c h d a) r) by (apply (log_sim c h d D a A r); [rv|rv|ap|exact E]); fin S end
  | set_log1p F kern ?D ?A ?s = Ok ?r => match goal with |- context [h_log1p F kern ord ?h ?d ?a s] =>
      let S := fresh "S" in assert (S : sim h d (h_log1p F kern ord h d a s) r) by (apply (log1p_sim h d D a A s r); [rv|rv|ap|exact E]); fin S end
  | _ => go3 E
  end.
Ltac st4 E := ib E; match goal with Q : _ = Ok ?r |- _ => match type of E with context [r] => go4 Q end end.

Lemma exp_step_sim : forall checked h0 b x X, (b < length h0)%nat -> apart x b -> vin h0 x -> Rview h0 x X ->
  forall m0 m refine S_ st S', RR h0 b S_ st -> exp_step F kern base checked X m0 m refine S_ = Ok S' ->
  exists st', h_exp_step F kern base ord checked x m0 m refine st = Ok st' /\ RR h0 b S' st'.
Proof.
  intros checked h0 b x X Hb Ax Vx RX0 m0 m refine [Y DY] [[h y] dy] S' (RY & RD & Ob & Od & Fr0) E.
  cbn [fst snd] in *. unfold exp_step, h_exp_step in *. simp.
  assert (RX : Rview h x X) by (eapply Rview_frame; [exact Fr0|exact Ax|exact RX0]). clear RX0.
  st4 E. st4 E. st4 E. st4 E. st4 E.
  injection E as <-. rr.
Qed.
Lemma exp_sim : forall checked h y Y x X Y', Rown h y Y -> Rview h x X -> apart x (obuf y) ->
  set_exp_gen F kern base checked Y X = Ok Y' -> sim h y (h_exp_gen F kern base ord checked h y x) Y'.
Proof.
  intros checked h y Y x X Y' RY RX Ax E. start RY RX Ax.
  unfold set_exp_gen, h_exp_gen in *. simp. cbv zeta in *. rewrite XK, XN, (apart_alias h y x Ax). cbn [negb slow_assert bind].
  early E. ib E.
  assert (G : (if checked && negb (nonzero X =? 0) then v <- hrd F h x 0;; slow_assert (keqb v k0) else Ok tt) = Ok r).
  { destruct (checked && _); [|exact E0]. ib E0. rewrite (hrd_sim _ _ _ _ _ RX E1). exact E0. }
  rewrite G. cbn [bind]. clear G E0.
  ib E. go E0. ib E. injection E as <-.
  new_ (known X). iterate E1 exp_step_sim.
Qed.

Lemma expm1_step_sim : forall h0 b x X a s, (b < length h0)%nat -> apart x b -> vin h0 x -> Rview h0 x X ->
  forall m0 m refine S_ st S', RR h0 b S_ st -> expm1_step F kern X a s m0 m refine S_ = Ok S' ->
  exists st', h_expm1_step F kern ord x a s m0 m refine st = Ok st' /\ RR h0 b S' st'.
Proof.
  intros h0 b x X a s Hb Ax Vx RX0 m0 m refine [Y DY] [[h y] dy] S' (RY & RD & Ob & Od & Fr0) E.
  cbn [fst snd] in *. unfold expm1_step, h_expm1_step in *. simp.
  assert (RX : Rview h x X) by (eapply Rview_frame; [exact Fr0|exact Ax|exact RX0]). clear RX0.
  st4 E. st4 E. destruct (0 <? a).
  - st4 E. st4 E. st4 E. injection E as <-. rr.
  - st4 E. st4 E. st4 E. injection E as <-. rr.
Qed.
Lemma expm1_sim : forall h y Y x X a s Y', Rown h y Y -> Rview h x X -> apart x (obuf y) ->
  set_expm1 F kern Y X a s = Ok Y' -> sim h y (h_expm1 F kern ord h y x a s) Y'.
Proof.
  intros h y Y x X a s Y' RY RX Ax E. start RY RX Ax.
  unfold set_expm1, h_expm1 in *. simp. cbv zeta in *. rewrite XK, (apart_alias h y x Ax). cbn [negb andb].
  ib E. cbn [bind]. destruct (0 <? a) eqn:Ea.
  - ib E. go E1. ib E. injection E as <-. new_ (known X). iterate E2 expm1_step_sim.
  - ib E. go E1. ib E. injection E as <-. new_ (known X). iterate E2 expm1_step_sim.
Qed.
Ltac go5 E := lazymatch type of E with
  | set_exp_gen F kern base ?c ?D ?A = Ok ?r => match goal with |- context [h_exp_gen F kern base ord c ?h ?d ?a] =>
      let S := fresh "S" in assert (S : sim h d (h_exp_gen F kern base ord c h d a) r) by (apply (exp_sim c h d D a A r); [rv|rv|ap|exact E]); fin S end
  | set_expm1 F kern ?D ?A ?a1 ?s = Ok ?r => match goal with |- context [h_expm1 F kern ord ?h ?d ?a a1 s] =>
      let S := fresh "S" in assert (S : sim h d (h_expm1 F kern ord h d a a1 s) r) by (apply (expm1_sim h d D a A a1 s r); [rv|rv|ap|exact E]); fin S end
  | _ => go4 E
  end.
Ltac st5 E := ib E; match goal with Q : _ = Ok ?r |- _ => match type of E with context [r] => go5 Q end end.

Definition RR3 (h0 : heap) (b : nat) (S_ : ser * ser * ser) (st : heap * obj * obj * obj) : Prop :=
  let '(h, y, ndy, t) := st in
  Rown h y (fst (fst S_)) /\ Rown h ndy (snd (fst S_)) /\ Rown h t (snd S_) /\ obuf y = b /\
  (length h0 <= obuf ndy)%nat /\ (length h0 <= obuf t)%nat /\ obuf ndy <> obuf t /\ frame h0 h b.
Lemma log1p_exp_step_sim : forall h0 b x X s, (b < length h0)%nat -> apart x b -> vin h0 x -> Rview h0 x X ->
  forall m0 m refine S_ st S', RR3 h0 b S_ st -> log1p_exp_step F kern base X s m0 m refine S_ = Ok S' ->
  exists st', h_log1p_exp_step F kern base ord x s m0 m refine st = Ok st' /\ RR3 h0 b S' st'.
Proof.
  intros h0 b x X s Hb Ax Vx RX0 m0 m refine [[Y NDY] T] [[[h y] ndy] t] S' (RY & RN & RT & Ob & On & Ot & Ont & Fr0) E.
  cbn [fst snd] in *. unfold log1p_exp_step, h_log1p_exp_step, set_exp, h_exp in *. simp.
  assert (RX : Rview h x X) by (eapply Rview_frame; [exact Fr0|exact Ax|exact RX0]). clear RX0.
  st5 E. st5 E. st5 E. st5 E. st5 E. st5 E. st5 E.
  injection E as <-. eexists; split; [reflexivity|]; cbn [fst snd RR3]; split; [eassumption|]; split; [eassumption|]; split; [eassumption|].
  split; [lia|]; split; [lia|]; split; [lia|]; split; [lia|assumption].
Qed.
Lemma log1p_exp_sim : forall h y Y x X s Y', Rown h y Y -> Rview h x X -> apart x (obuf y) ->
  set_log1p_exp F kern base Y X s = Ok Y' -> sim h y (h_log1p_exp F kern base ord h y x s) Y'.
Proof.
  intros h y Y x X s Y' RY RX Ax E. start RY RX Ax.
  unfold set_log1p_exp, h_log1p_exp, set_exp, h_exp in *. simp. cbv zeta in *. rewrite XK, (apart_alias h y x Ax). cbn [negb andb].
  early E. ib E. cbn [bind].
  ib E. go5 E1. ib E. injection E as <-.
  new_ (known X). new_ (known X).
  match type of E2 with newton_iterate _ _ _ (?Y, _, _) = Ok _ =>
  match goal with R1 : Rown ?h1 ?y1 Y, Rd : Rown ?h1 ?d (new_series ?n), Rd2 : Rown ?h1 ?d2 (new_series ?n), Fr0 : frame ?h0 ?h1 ?b
    |- context [newton_iterate _ _ _ (?h1, ?y1, ?d, ?d2)] =>
    destruct (newton_sim _ _ (RR3 h0 b) (log1p_exp_step F kern base X s) (h_log1p_exp_step F kern base ord x s)
      (known Y) (known X) (Y, new_series n, new_series n) (h1, y1, d, d2) r1) as (st' & E' & R');
    [intros; eapply log1p_exp_step_sim; eauto
    |cbn [RR3 fst snd]; split; [exact R1|]; split; [exact Rd|]; split; [exact Rd2|]; split; [lia|]; split; [lia|]; split; [lia|]; split; [lia|exact Fr0]
    |exact E2
    |replace (oknown y1) with (known Y) by (symmetry; apply R1)] end end.
  rewrite E'. cbn [bind]. destruct st' as [[[h' y'] nd'] t']. destruct R' as (A1 & A2 & A3 & A4 & A5 & A6 & A7 & A8).
  exists h', y'. split; [reflexivity|]. split; [exact A1|]. split; [lia|exact A8].
Qed.

End P.
