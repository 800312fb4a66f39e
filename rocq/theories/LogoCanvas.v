(** Proofs about the canvas of logo.cc. *)
From Coq Require Import ZArith QArith Qround List Bool Lia Lqa.
From Verif Require Import Base LoopsModel LogoModel LogoProofs.
Import ListNotations.
Open Scope Z_scope.

(** ** Specification *)

(** The dimensions fit: this is what array_size checks. *)
Definition fits (c : canvas) : Prop :=
  0 <= width c /\ 0 <= height c /\ 0 <= samples c /\
  width c * height c < 2 ^ 31 /\ width c * height c * samples c < 2 ^ 31.
(** Sample s of pixel (i, j) is on the canvas. *)
Definition on_canvas (c : canvas) (i j s : Z) : Prop :=
  0 <= i < width c /\ 0 <= j < height c /\ 0 <= s < samples c.
(** The place of a sample in the arrays. *)
Definition place (c : canvas) (i j s : Z) : Z := (i * height c + j) * samples c + s.
(** The array [l] holds [g i j s] for each sample. *)
Definition holds {A} (c : canvas) (l : list (option A)) (g : Z -> Z -> Z -> option A) : Prop :=
  Z.of_nat (length l) = width c * height c * samples c /\
  forall i j s, on_canvas c i j s -> nth_error l (Z.to_nat (place c i j s)) = Some (g i j s).
(** The point lies in pixel (i, j). *)
Definition in_pixel (c : canvas) (i j : Z) (z : point) : Prop :=
  (fst (lo (cbox c)) + dx c * inject_Z i <= fst z /\
   fst z < fst (lo (cbox c)) + dx c * inject_Z (i + 1) /\
   snd (lo (cbox c)) + dx c * inject_Z j <= snd z /\
   snd z < snd (lo (cbox c)) + dx c * inject_Z (j + 1))%Q.
Definition in_box (b : box) (z : point) : Prop :=
  (fst (lo b) <= fst z <= fst (hi b) /\ snd (lo b) <= snd z <= snd (hi b))%Q.
(** The two colours look the same: nothing can be said about the colour of something transparent. *)
Definition looks (a b : color) : Prop := (alpha a == alpha b)%Q /\ (~ (alpha a == 0)%Q -> ceq a b).

(** ** index *)
Lemma as_int_ok z : - 2 ^ 31 <= z < 2 ^ 31 -> as_int z = Ok z.
Proof.
  intro H. unfold as_int.
  replace ((- 2 ^ 31 <=? z) && (z <? 2 ^ 31)) with true; [reflexivity|].
  symmetry. apply andb_true_iff. lia.
Qed.
Lemma as_int_inv z y : as_int z = Ok y -> y = z /\ - 2 ^ 31 <= z < 2 ^ 31.
Proof.
  unfold as_int. destruct (_ && _) eqn:E; [|discriminate]. intro H. injection H as <-.
  apply andb_true_iff in E. lia.
Qed.

Lemma place_bounds c i j s : on_canvas c i j s ->
  0 <= i * height c + j < width c * height c /\
  0 <= place c i j s < width c * height c * samples c.
Proof.
  unfold on_canvas, place. intros (Hi & Hj & Hs).
  assert (H : 0 <= i * height c + j < width c * height c) by nia.
  split; [exact H|]. nia.
Qed.

Lemma index_ok c i j s : fits c -> on_canvas c i j s -> index c i j s = Ok (place c i j s).
Proof.
  intros (W & H & S & F1 & F2) O. pose proof (place_bounds c i j s O) as [B1 B2].
  unfold on_canvas in O. unfold index, place in *.
  rewrite as_int_ok by nia. cbn [bind]. rewrite as_int_ok by lia. cbn [bind].
  rewrite as_int_ok by nia. cbn [bind]. apply as_int_ok. lia.
Qed.

Lemma place_inj c i j s i' j' s' : on_canvas c i j s -> on_canvas c i' j' s' ->
  place c i j s = place c i' j' s' -> i = i' /\ j = j' /\ s = s'.
Proof.
  unfold on_canvas, place. intros (Hi & Hj & Hs) (Hi' & Hj' & Hs') E.
  assert (E1 : i * height c + j = i' * height c + j' /\ s = s').
  { assert (A : i * height c + j = ((i * height c + j) * samples c + s) / samples c).
    { apply Z.div_unique with s; lia. }
    assert (B : i' * height c + j' = ((i' * height c + j') * samples c + s') / samples c).
    { apply Z.div_unique with s'; lia. }
    rewrite E in A. split; [congruence|]. rewrite <- B in A. rewrite A in E. lia. }
  destruct E1 as [E1 E2].
  assert (A : i = (i * height c + j) / height c) by (apply Z.div_unique with j; lia).
  assert (B : i' = (i' * height c + j') / height c) by (apply Z.div_unique with j'; lia).
  rewrite E1 in A. assert (i = i') by congruence. subst i'. repeat split; lia.
Qed.

Lemma place_onto c I : 0 <= width c -> 0 <= height c -> 0 <= samples c ->
  0 <= I < width c * height c * samples c ->
  exists i j s, on_canvas c i j s /\ place c i j s = I.
Proof.
  intros W H S B.
  assert (0 < samples c) by nia. assert (0 < height c) by nia.
  pose proof (Z.div_mod I (samples c) ltac:(lia)) as D1.
  pose proof (Z.mod_pos_bound I (samples c) ltac:(lia)) as M1.
  set (q := I / samples c) in *. set (s := I mod samples c) in *.
  assert (0 <= q < width c * height c).
  { split; [apply Z.div_pos; lia|]. apply Z.div_lt_upper_bound; lia. }
  pose proof (Z.div_mod q (height c) ltac:(lia)) as D2.
  pose proof (Z.mod_pos_bound q (height c) ltac:(lia)) as M2.
  exists (q / height c), (q mod height c), s. unfold on_canvas, place. repeat split; try lia.
  - apply Z.div_pos; lia.
  - apply Z.div_lt_upper_bound; lia.
Qed.

(** ** The loops *)
Lemma in_range a b k : In k (range a b) <-> a <= k < b.
Proof.
  unfold range. rewrite in_map_iff. split.
  - intros (x & <- & H). apply in_seq in H. lia.
  - intro H. exists (Z.to_nat (k - a)). split; [lia|]. apply in_seq. lia.
Qed.
Lemma range_nodup a b : NoDup (range a b).
Proof.
  unfold range. apply FinFun.Injective_map_NoDup; [|apply seq_NoDup]. intros x y E. lia.
Qed.
Lemma in_cells i0 i1 j0 j1 s1 i j s : In (i, j, s) (cells i0 i1 j0 j1 s1) <->
  i0 <= i < i1 /\ j0 <= j < j1 /\ 0 <= s < s1.
Proof.
  unfold cells. rewrite in_flat_map. split.
  - intros (i' & Hi & H). rewrite in_flat_map in H. destruct H as (j' & Hj & H).
    apply in_map_iff in H. destruct H as (s' & E & Hs). injection E as <- <- <-.
    apply in_range in Hi, Hj, Hs. auto.
  - intros (Hi & Hj & Hs). exists i. split; [now apply in_range|].
    rewrite in_flat_map. exists j. split; [now apply in_range|].
    apply in_map_iff. exists s. split; [reflexivity|now apply in_range].
Qed.
Lemma nodup_flat {A B} (f : A -> list B) : forall l, NoDup l -> (forall x, In x l -> NoDup (f x)) ->
  (forall x y b, In x l -> In y l -> In b (f x) -> In b (f y) -> x = y) -> NoDup (flat_map f l).
Proof.
  induction l as [|x l IH]; intros N F D; [constructor|]. cbn [flat_map]. inversion N; subst.
  assert (G : forall a b : list B, NoDup a -> NoDup b -> (forall z, In z a -> ~ In z b) -> NoDup (a ++ b)).
  { induction a as [|z a IHa]; intros b Na Nb Dab; [exact Nb|]. inversion Na; subst. cbn. constructor.
    - rewrite in_app_iff. intros [H|H]; [auto|]. apply (Dab z); [now left|exact H].
    - apply IHa; auto. intros w Hw. apply Dab. now right. }
  apply G.
  - apply F. now left.
  - apply IH; auto.
    + intros y Hy. apply F. now right.
    + intros y z b Hy Hz. apply D; now right.
  - intros b Hb H. apply in_flat_map in H. destruct H as (y & Hy & Hb').
    assert (x = y) by (apply (D x y b); auto; [now left|now right]). subst. contradiction.
Qed.
Lemma cells_nodup i0 i1 j0 j1 s1 : NoDup (cells i0 i1 j0 j1 s1).
Proof.
  unfold cells. apply nodup_flat; [apply range_nodup| |].
  - intros i _. apply nodup_flat; [apply range_nodup| |].
    + intros j _. apply FinFun.Injective_map_NoDup; [|apply range_nodup]. intros x y E. congruence.
    + intros j j' b _ _ H H'. apply in_map_iff in H, H'.
      destruct H as (s & <- & _), H' as (s' & E & _). congruence.
  - intros i i' b _ _ H H'. apply in_flat_map in H, H'.
    destruct H as (j & _ & H), H' as (j' & _ & H'). apply in_map_iff in H, H'.
    destruct H as (s & <- & _), H' as (s' & E & _). congruence.
Qed.

(** ** Array cells *)
Lemma set_nth_length {A} : forall (l : list A) n a, length (set_nth l n a) = length l.
Proof. induction l as [|x l IH]; intros [|n] a; cbn; auto. Qed.
Lemma set_nth_same {A} : forall (l : list A) n a, (n < length l)%nat -> nth_error (set_nth l n a) n = Some a.
Proof. induction l as [|x l IH]; intros [|n] a H; cbn in *; try lia; auto. apply IH. lia. Qed.
Lemma set_nth_other {A} : forall (l : list A) n m a, n <> m -> nth_error (set_nth l n a) m = nth_error l m.
Proof. induction l as [|x l IH]; intros [|n] [|m] a H; cbn; auto; try congruence. Qed.

Definition teq (i j s i' j' s' : Z) : bool := (i =? i') && (j =? j') && (s =? s').
Lemma teq_spec i j s i' j' s' : teq i j s i' j' s' = true <-> i = i' /\ j = j' /\ s = s'.
Proof. unfold teq. rewrite !andb_true_iff. lia. Qed.

Section Cells.
  Context {A : Type}.
  Variable c : canvas.
  Hypothesis HF : fits c.

  Lemma get_ok (l : list (option A)) g i j s a : holds c l g -> on_canvas c i j s -> g i j s = Some a ->
    get l (place c i j s) = Ok a.
  Proof.
    intros [_ H] O E. unfold get. pose proof (place_bounds c i j s O) as [_ B].
    replace (place c i j s <? 0) with false by lia. rewrite (H i j s O), E. reflexivity.
  Qed.
  Lemma put_ok (l : list (option A)) g i j s a : holds c l g -> on_canvas c i j s ->
    exists l', put l (place c i j s) a = Ok l' /\
      holds c l' (fun i' j' s' => if teq i j s i' j' s' then Some a else g i' j' s').
  Proof.
    intros [L H] O. unfold put. pose proof (place_bounds c i j s O) as [_ B].
    replace ((place c i j s <? 0) || (Z.of_nat (length l) <=? place c i j s)) with false
      by (symmetry; apply orb_false_iff; lia).
    eexists. split; [reflexivity|]. split; [rewrite set_nth_length; exact L|].
    intros i' j' s' O'. pose proof (place_bounds c i' j' s' O') as [_ B'].
    destruct (teq i j s i' j' s') eqn:E.
    - apply teq_spec in E. destruct E as (-> & -> & ->). apply set_nth_same. lia.
    - rewrite set_nth_other; [auto|]. intro E'. apply Z2Nat.inj in E'; [|lia|lia].
      apply place_inj in E'; auto. apply teq_spec in E'. congruence.
  Qed.

  (** Every array of the right size holds something. *)
  Lemma holds_exists (l : list (option A)) :
    Z.of_nat (length l) = width c * height c * samples c -> exists g, holds c l g.
  Proof.
    intro L. exists (fun i j s => nth (Z.to_nat (place c i j s)) l None). split; [exact L|].
    intros i j s O. pose proof (place_bounds c i j s O) as [_ B]. apply nth_error_nth'. lia.
  Qed.
  (** And it is determined by what it holds. *)
  Lemma holds_unique (l l' : list (option A)) g : holds c l g -> holds c l' g -> l = l'.
  Proof.
    intros [L H] [L' H']. destruct HF as (W & Hh & S & _).
    assert (E : forall n, nth_error l n = nth_error l' n).
    { intro n. destruct (Z_lt_le_dec (Z.of_nat n) (width c * height c * samples c)) as [Lt|Ge].
      - destruct (place_onto c (Z.of_nat n)) as (i & j & s & O & P); try lia.
        specialize (H i j s O). specialize (H' i j s O). rewrite P, Nat2Z.id in *. congruence.
      - rewrite (proj2 (nth_error_None l n)) by lia. rewrite (proj2 (nth_error_None l' n)) by lia. reflexivity. }
    clear - E. revert l' E. induction l as [|x l IH]; intros [|y l'] E.
    - reflexivity.
    - specialize (E 0%nat). discriminate.
    - specialize (E 0%nat). discriminate.
    - f_equal; [specialize (E 0%nat); cbn in E; congruence|]. apply IH. intro n. apply (E (S n)).
  Qed.
End Cells.

Definition inb (i j s : Z) (l : list (Z * Z * Z)) : bool :=
  existsb (fun t => teq (fst (fst t)) (snd (fst t)) (snd t) i j s) l.
Lemma inb_spec i j s l : inb i j s l = true <-> In (i, j, s) l.
Proof.
  unfold inb. rewrite existsb_exists. split.
  - intros (((i' & j') & s') & H & E). apply teq_spec in E. cbn in E. destruct E as (-> & -> & ->). exact H.
  - intro H. exists (i, j, s). split; [exact H|]. apply teq_spec. auto.
Qed.

(** ** render *)
Section Render.
  Variable c : canvas.
  Hypothesis HF : fits c.
  Variable points : list (option point).
  Variable z : Z -> Z -> Z -> point.
  Hypothesis HP : holds c points (fun i j s => Some (z i j s)).

  Lemma holds_ext {A} (l : list (option A)) g g' : holds c l g ->
    (forall i j s, on_canvas c i j s -> g i j s = g' i j s) -> holds c l g'.
  Proof. intros [L H] E. split; [exact L|]. intros i j s O. rewrite <- E by exact O. auto. Qed.

  Lemma render_cells f : forall l colors g,
    (forall i j s, In (i, j, s) l -> on_canvas c i j s) -> NoDup l ->
    holds c colors (fun i j s => Some (g i j s)) ->
    exists colors', for_cells (render_body c points f) l colors = Ok colors' /\
      holds c colors' (fun i j s => Some (if inb i j s l then over (f (z i j s)) (g i j s) else g i j s)).
  Proof.
    induction l as [|((i & j) & s) l IH]; intros colors g HO N HC.
    - exists colors. split; [reflexivity|exact HC].
    - assert (O : on_canvas c i j s) by (apply HO; now left). apply NoDup_cons_iff in N; destruct N as [Nin N].
      cbn [for_cells]. unfold render_body at 1.
      rewrite index_ok by assumption. cbn [bind].
      rewrite (get_ok c points _ i j s (z i j s) HP O eq_refl). cbn [bind].
      rewrite (get_ok c colors _ i j s (g i j s) HC O eq_refl). cbn [bind].
      destruct (put_ok c colors _ i j s (over (f (z i j s)) (g i j s)) HC O) as (c1 & E1 & H1).
      rewrite E1. cbn [bind].
      destruct (IH c1 (fun i' j' s' => if teq i j s i' j' s' then over (f (z i' j' s')) (g i' j' s') else g i' j' s'))
        as (c2 & E2 & H2); auto.
      { intros i' j' s' H. apply HO. now right. }
      { eapply holds_ext; [exact H1|]. intros i' j' s' O'. cbn beta. destruct (teq i j s i' j' s') eqn:E; [|reflexivity].
        apply teq_spec in E. destruct E as (-> & -> & ->). reflexivity. }
      exists c2. split; [exact E2|]. eapply holds_ext; [exact H2|]. intros i' j' s' O'. cbn beta.
      unfold inb at 2. cbn [existsb fst snd]. fold (inb i' j' s' l).
      destruct (teq i j s i' j' s') eqn:E; cbn [orb]; [|reflexivity].
      apply teq_spec in E. destruct E as (-> & -> & ->).
      destruct (inb i' j' s' l) eqn:Ei; [|reflexivity]. apply inb_spec in Ei. contradiction.
  Qed.

  Definition pixel_in (i0 i1 j0 j1 i j : Z) : bool := (i0 <=? i) && (i <? i1) && (j0 <=? j) && (j <? j1).

  Lemma render_ok b f colors g i0 i1 j0 j1 : pixel_range c b = Ok (i0, i1, j0, j1) ->
    holds c colors (fun i j s => Some (g i j s)) ->
    exists colors', render c points b f colors = Ok colors' /\
      holds c colors' (fun i j s => Some
        (if pixel_in i0 i1 j0 j1 i j then over (f (z i j s)) (g i j s) else g i j s)).
  Proof.
    intros ER HC. unfold render. rewrite ER. cbn [bind].
    assert (B : 0 <= i0 /\ i1 <= width c /\ 0 <= j0 /\ j1 <= height c).
    { unfold pixel_range in ER.
      repeat match type of ER with bind ?x _ = _ => destruct x; try discriminate; cbn [bind] in ER end.
      injection ER as <- <- <- <-. lia. }
    destruct (render_cells f (cells i0 i1 j0 j1 (samples c)) colors g) as (c' & E & H); auto.
    - intros i j s Hin. apply in_cells in Hin. unfold on_canvas. lia.
    - apply cells_nodup.
    - exists c'. split; [exact E|]. eapply holds_ext; [exact H|]. intros i j s O. cbn beta.
      replace (inb i j s (cells i0 i1 j0 j1 (samples c))) with (pixel_in i0 i1 j0 j1 i j); [reflexivity|].
      apply eq_true_iff_eq. rewrite inb_spec, in_cells. unfold pixel_in. rewrite !andb_true_iff.
      unfold on_canvas in O. lia.
  Qed.

  (** A sample point inside the box is in a pixel of the range. *)
  Hypothesis Hdx : (0 < dx c)%Q.
  Hypothesis Hinv : (inv_dx c * dx c == 1)%Q.
  Hypothesis Hz : forall i j s, on_canvas c i j s -> in_pixel c i j (z i j s).

  Lemma inv_pos : (0 < inv_dx c)%Q.
  Proof. apply Qnot_le_lt. intro H. nra. Qed.
  Lemma pixel_lo x i l b : (x < l + dx c * inject_Z (i + 1))%Q -> (b <= x)%Q ->
    Qfloor (inv_dx c * (b - l)) <= i.
  Proof.
    intros H1 H2. pose proof inv_pos as P.
    assert (Q : (inv_dx c * (b - l) < inject_Z (i + 1))%Q).
    { assert (E : (inv_dx c * (dx c * inject_Z (i + 1)) == inject_Z (i + 1))%Q)
        by (rewrite Qmult_assoc, Hinv; ring).
      rewrite <- E. assert (b - l < dx c * inject_Z (i + 1))%Q by lra.
      apply Qmult_lt_l; assumption. }
    pose proof (Qfloor_le (inv_dx c * (b - l))) as F.
    assert (G : (inject_Z (Qfloor (inv_dx c * (b - l))) < inject_Z (i + 1))%Q) by lra.
    rewrite <- Zlt_Qlt in G. lia.
  Qed.
  Lemma pixel_hi x i l b : (l + dx c * inject_Z i <= x)%Q -> (x <= b)%Q ->
    i <= Qfloor (inv_dx c * (b - l)).
  Proof.
    intros H1 H2. pose proof inv_pos as P.
    assert (Q : (inject_Z i <= inv_dx c * (b - l))%Q).
    { assert (E : (inv_dx c * (dx c * inject_Z i) == inject_Z i)%Q)
        by (rewrite Qmult_assoc, Hinv; ring).
      rewrite <- E. assert (dx c * inject_Z i <= b - l)%Q by lra.
      apply Qmult_le_l; assumption. }
    apply Qfloor_resp_le in Q. rewrite Qfloor_Z in Q. exact Q.
  Qed.

  Lemma in_box_range b i0 i1 j0 j1 i j s : pixel_range c b = Ok (i0, i1, j0, j1) ->
    on_canvas c i j s -> in_box b (z i j s) -> pixel_in i0 i1 j0 j1 i j = true.
  Proof.
    intros ER O (Bx & By). destruct (Hz i j s O) as (P1 & P2 & P3 & P4).
    unfold pixel_range in ER.
    repeat match type of ER with
    | bind (as_int ?q) _ = _ => let E := fresh "E" in destruct (as_int q) eqn:E; try discriminate;
        cbn [bind] in ER; apply as_int_inv in E; destruct E as [-> _]
    end.
    apply (f_equal (fun r => match r with Ok q => q | _ => (0, 0, 0, 0) end)) in ER.
    rewrite !pair_equal_spec in ER. destruct ER as (((R1 & R2) & R3) & R4).
    pose proof (pixel_lo _ i _ (fst (lo b)) P2 ltac:(lra)).
    pose proof (pixel_lo _ j _ (snd (lo b)) P4 ltac:(lra)).
    pose proof (pixel_hi _ i _ (fst (hi b)) P1 ltac:(lra)).
    pose proof (pixel_hi _ j _ (snd (hi b)) P3 ltac:(lra)).
    unfold on_canvas in O. unfold pixel_in. rewrite !andb_true_iff. lia.
  Qed.

  Lemma looks_refl a : looks a a.
  Proof. split; [reflexivity|]. intros _. unfold ceq. repeat split; reflexivity. Qed.
  Lemma looks_clear a : looks (over clear a) a.
  Proof.
    split.
    - rewrite over_eq. cbn [alpha clear]. ring.
    - intro N. apply over_clear_l. intro E. apply N. rewrite over_eq. cbn [alpha clear]. rewrite E. ring.
  Qed.

  (** What a circle does to every sample of the canvas. *)
  Lemma circle_ok center radius col colors g i0 i1 j0 j1 : (0 <= radius)%Q ->
    pixel_range c (mkB ((fst center - radius)%Q, (snd center - radius)%Q)
                       ((fst center + radius)%Q, (snd center + radius)%Q)) = Ok (i0, i1, j0, j1) ->
    holds c colors (fun i j s => Some (g i j s)) ->
    exists colors' g', circle c points center radius col colors = Ok colors' /\
      holds c colors' (fun i j s => Some (g' i j s)) /\
      forall i j s, on_canvas c i j s ->
        ((sqr_dist (z i j s) center <= radius * radius)%Q -> g' i j s = over col (g i j s)) /\
        ((radius * radius < sqr_dist (z i j s) center)%Q -> looks (g' i j s) (g i j s)).
  Proof.
    intros Hr ER HC. unfold circle.
    destruct (render_ok _ (fun z => if Qle_bool (sqr_dist z center) (radius * radius) then col else clear)
                colors g _ _ _ _ ER HC) as (c' & E & H).
    eexists c', _. split; [exact E|]. split; [exact H|].
    intros i j s O. cbn beta. split; intro D.
    - rewrite (in_box_range _ _ _ _ _ i j s ER O).
      + apply Qle_bool_iff in D. rewrite D. reflexivity.
      + unfold in_box, sqr_dist in *. cbn [fst snd lo hi].
        set (p := fst (z i j s)) in *. set (q := snd (z i j s)) in *.
        set (a := fst center) in *. set (b := snd center) in *.
        assert (forall t w, t * t + w * w <= radius * radius -> - radius <= t <= radius)%Q.
        { intros t w Hq. assert (Hw : (0 <= w * w)%Q) by nra.
          assert (Ht : (t * t <= radius * radius)%Q) by lra. clear Hw Hq.
          split; apply Qnot_lt_le; intro Hc.
          - assert (Hm : (0 < (- t - radius) * (- t + radius))%Q) by (apply Qmult_lt_0_compat; lra). lra.
          - assert (Hm : (0 < (t - radius) * (t + radius))%Q) by (apply Qmult_lt_0_compat; lra). lra. }
        pose proof (H0 (p - a) (q - b) D)%Q. rewrite Qplus_comm in D.
        pose proof (H0 (q - b) (p - a) D)%Q. lra.
    - destruct (pixel_in i0 i1 j0 j1 i j); [|apply looks_refl].
      assert (N : Qle_bool (sqr_dist (z i j s) center) (radius * radius) = false).
      { destruct (Qle_bool _ _) eqn:B; [|reflexivity]. apply Qle_bool_iff in B. lra. }
      rewrite N. apply looks_clear.
  Qed.
End Render.

(** ** The constructor *)
Section Make.
  Variable b : box.
  Variables size samps : Z.
  Hypothesis Hb : (fst (lo b) < fst (hi b) /\ snd (lo b) < snd (hi b))%Q.
  Hypothesis Hs : 1 <= size.

  Lemma make_canvas_ok c : make_canvas b size samps = Ok c ->
    samples c = samps /\ (0 < dx c)%Q /\ (inv_dx c * dx c == 1)%Q /\
    Z.min (width c) (height c) = size /\
    (fst (hi (cbox c)) - fst (lo (cbox c)) == dx c * inject_Z (width c))%Q /\
    (snd (hi (cbox c)) - snd (lo (cbox c)) == dx c * inject_Z (height c))%Q /\
    in_box (cbox c) (lo b) /\ in_box (cbox c) (hi b).
  Proof.
    unfold make_canvas. cbv zeta. cbn [fst snd].
    set (sx := (fst (hi b) - fst (lo b))%Q). set (sy := (snd (hi b) - snd (lo b))%Q).
    set (d := (qmin sx sy / inject_Z size)%Q).
    destruct (as_int (Qceiling (1 / d * sx))) as [w| |] eqn:Ew; try discriminate. cbn [bind].
    destruct (as_int (Qceiling (1 / d * sy))) as [h| |] eqn:Eh; try discriminate. cbn [bind].
    intro E. injection E as <-.
    apply as_int_inv in Ew, Eh. destruct Ew as [-> _], Eh as [-> _].
    cbn [samples dx inv_dx width height cbox lo hi fst snd].
    assert (Px : (0 < sx)%Q) by (subst sx; lra). assert (Py : (0 < sy)%Q) by (subst sy; lra).
    assert (Ps : (0 < inject_Z size)%Q) by (unfold Qlt; cbn; lia).
    assert (Pm : (0 < qmin sx sy /\ qmin sx sy <= sx /\ qmin sx sy <= sy)%Q /\ (qmin sx sy = sx \/ qmin sx sy = sy)).
    { unfold qmin. destruct (Qle_bool sx sy) eqn:L.
      - apply Qle_bool_iff in L. split; [repeat split; lra|auto].
      - assert (~ (sx <= sy)%Q) by (intro H; apply Qle_bool_iff in H; congruence).
        apply Qnot_le_lt in H. split; [repeat split; lra|auto]. }
    destruct Pm as ((M0 & M1 & M2) & M3).
    assert (Pd : (0 < d)%Q) by (subst d; apply Qlt_shift_div_l; lra).
    assert (Nd : ~ (d == 0)%Q) by lra.
    assert (I : (1 / d * d == 1)%Q) by (field; exact Nd).
    assert (Pi : (0 < 1 / d)%Q) by (apply Qlt_shift_div_l; lra).
    assert (Dm : (1 / d * qmin sx sy == inject_Z size)%Q).
    { subst d. field. split; lra. }
    assert (Cx : (sx <= d * inject_Z (Qceiling (1 / d * sx)))%Q).
    { pose proof (Qle_ceiling (1 / d * sx)) as C.
      apply Qmult_le_l with (z := d) in C; [|exact Pd]. rewrite Qmult_assoc in C.
      rewrite (Qmult_comm d (1 / d)), I in C. lra. }
    assert (Cy : (sy <= d * inject_Z (Qceiling (1 / d * sy)))%Q).
    { pose proof (Qle_ceiling (1 / d * sy)) as C.
      apply Qmult_le_l with (z := d) in C; [|exact Pd]. rewrite Qmult_assoc in C.
      rewrite (Qmult_comm d (1 / d)), I in C. lra. }
    split; [reflexivity|]. split; [exact Pd|]. split; [exact I|]. split.
    { assert (Sx : size <= Qceiling (1 / d * sx)).
      { rewrite <- (Qceiling_Z size). apply Qceiling_resp_le. rewrite <- Dm. apply Qmult_le_l; assumption. }
      assert (Sy : size <= Qceiling (1 / d * sy)).
      { rewrite <- (Qceiling_Z size). apply Qceiling_resp_le. rewrite <- Dm. apply Qmult_le_l; assumption. }
      destruct M3 as [M3|M3]; rewrite M3 in Dm.
      - assert (Qceiling (1 / d * sx) = size) by (rewrite (Qceiling_comp _ _ Dm); apply Qceiling_Z). lia.
      - assert (Qceiling (1 / d * sy) = size) by (rewrite (Qceiling_comp _ _ Dm); apply Qceiling_Z). lia. }
    set (W := inject_Z (Qceiling (1 / d * sx))) in *. set (H := inject_Z (Qceiling (1 / d * sy))) in *.
    clearbody W H. clear Dm M0 M1 M2 M3. clearbody d.
    split; [field|]. split; [field|].
    unfold in_box. cbn [lo hi fst snd]. subst sx sy.
    assert (D2 : forall x, (d / 2 * x == (1 # 2) * (d * x))%Q) by (intro; field).
    assert (D3 : forall x y, ((x + y) / 2 == (1 # 2) * x + (1 # 2) * y)%Q) by (intros; field).
    rewrite !D2, !D3. set (dw := (d * W)%Q) in *. set (dh := (d * H)%Q) in *. clearbody dw dh.
    destruct Hb. repeat split; lra.
  Qed.
End Make.

Section Points.
  Variable c : canvas.
  Hypothesis HF : fits c.
  Hypothesis Hdx : (0 < dx c)%Q.
  Variable uniform : nat -> Q.
  Hypothesis HU : forall n, (0 <= uniform n < 1)%Q.

  Lemma sample_in i j n : in_pixel c i j
    ((fst (lo (cbox c)) + dx c * inject_Z i + dx c * uniform n)%Q,
     (snd (lo (cbox c)) + dx c * inject_Z j + dx c * uniform (S n))%Q).
  Proof.
    unfold in_pixel. cbn [fst snd]. rewrite !inject_Z_plus. change (inject_Z 1) with 1%Q.
    pose proof (HU n). pose proof (HU (S n)).
    assert (0 <= dx c * uniform n)%Q by nra. assert (0 <= dx c * uniform (S n))%Q by nra.
    assert (dx c * uniform n < dx c)%Q by nra. assert (dx c * uniform (S n) < dx c)%Q by nra.
    repeat split; lra.
  Qed.

  Lemma sample_cells : forall l n points g,
    (forall i j s, In (i, j, s) l -> on_canvas c i j s) -> holds c points g ->
    exists n' points' g', for_cells (sample_body c uniform) l (n, points) = Ok (n', points') /\
      holds c points' g' /\
      forall i j s, on_canvas c i j s ->
        (In (i, j, s) l -> exists p, g' i j s = Some p /\ in_pixel c i j p) /\
        (~ In (i, j, s) l -> g' i j s = g i j s).
  Proof.
    induction l as [|((i & j) & s) l IH]; intros n points g HO HP.
    - exists n, points, g. split; [reflexivity|]. split; [exact HP|]. intros i j s O. split; [intros []|auto].
    - assert (O : on_canvas c i j s) by (apply HO; now left).
      cbn [for_cells]. unfold sample_body at 1. cbv beta iota.
      rewrite index_ok by assumption. cbn [bind].
      set (p := ((fst (lo (cbox c)) + dx c * inject_Z i + dx c * uniform n)%Q,
                 (snd (lo (cbox c)) + dx c * inject_Z j + dx c * uniform (S n))%Q)).
      destruct (put_ok c points g i j s p HP O) as (p1 & E1 & H1). rewrite E1. cbn [bind].
      destruct (IH (S (S n)) p1 _ (fun i' j' s' H => HO i' j' s' (or_intror H)) H1) as (n' & p2 & g' & E2 & H2 & G).
      exists n', p2, g'. split; [exact E2|]. split; [exact H2|].
      intros i' j' s' O'. destruct (G i' j' s' O') as [G1 G2].
      destruct (inb i' j' s' l) eqn:B.
      + apply inb_spec in B. split; [auto|]. intro N. exfalso. apply N. now right.
      + assert (N : ~ In (i', j', s') l) by (rewrite <- inb_spec; congruence).
        specialize (G2 N). split.
        * intros [E|H]; [|contradiction]. injection E as -> -> ->.
          exists p. split; [|apply sample_in]. rewrite G2.
          replace (teq i' j' s' i' j' s') with true; [reflexivity|]. symmetry. apply teq_spec. auto.
        * intro N'. rewrite G2. destruct (teq i j s i' j' s') eqn:T; [|reflexivity].
          apply teq_spec in T. destruct T as (-> & -> & ->). exfalso. apply N'. now left.
  Qed.

  Lemma array_size_fits : array_size c = Ok (width c * height c * samples c).
  Proof.
    destruct HF as (W & H & S & F1 & F2). unfold array_size. rewrite as_int_ok by nia. cbn [bind].
    apply as_int_ok. split; [|lia]. assert (0 <= width c * height c * samples c); [|lia].
    apply Z.mul_nonneg_nonneg; nia.
  Qed.

  Lemma make_points_ok : exists points z, make_points c uniform = Ok points /\
    holds c points (fun i j s => Some (z i j s)) /\
    forall i j s, on_canvas c i j s -> in_pixel c i j (z i j s).
  Proof.
    unfold make_points. rewrite array_size_fits. cbn [bind].
    assert (N : 0 <= width c * height c * samples c).
    { destruct HF as (W & H & S & _). apply Z.mul_nonneg_nonneg; nia. }
    assert (H0 : holds c (repeat (@None point) (Z.to_nat (width c * height c * samples c))) (fun _ _ _ => None)).
    { split; [rewrite repeat_length; lia|]. intros i j s O. pose proof (place_bounds c i j s O) as [_ B].
      rewrite nth_error_nth' with (d := None) by (rewrite repeat_length; lia).
      f_equal. apply nth_repeat. }
    destruct (sample_cells (cells 0 (width c) 0 (height c) (samples c)) 0 _ _ 
                (fun i j s H => proj1 (in_cells _ _ _ _ _ i j s) H) H0) as (n' & p & g & E & HP & G).
    rewrite E. cbn [bind snd].
    exists p, (fun i j s => match g i j s with Some q => q | None => (0%Q, 0%Q) end).
    split; [reflexivity|].
    assert (G' : forall i j s, on_canvas c i j s -> exists q, g i j s = Some q /\ in_pixel c i j q).
    { intros i j s O. apply (G i j s O). apply in_cells. exact O. }
    split.
    - eapply holds_ext; [exact HP|]. intros i j s O. destruct (G' i j s O) as (q & -> & _). reflexivity.
    - intros i j s O. destruct (G' i j s O) as (q & -> & I). exact I.
  Qed.
End Points.

(** ** border *)
Section Border.
  Variable c : canvas.
  Hypothesis HF : fits c.
  Variable col : color.

  Lemma set2_ok i j i' j' s colors g : on_canvas c i j s -> on_canvas c i' j' s -> holds c colors g ->
    exists colors', set2 c i j i' j' col s colors = Ok colors' /\
      holds c colors' (fun a b t => if teq i j s a b t || teq i' j' s a b t then Some col else g a b t).
  Proof.
    intros O O' H. unfold set2. rewrite index_ok by assumption. cbn [bind].
    destruct (put_ok c colors g i' j' s col H O') as (c1 & E1 & H1). rewrite E1. cbn [bind].
    rewrite index_ok by assumption. cbn [bind].
    destruct (put_ok c c1 _ i j s col H1 O) as (c2 & E2 & H2). exists c2. split; [exact E2|].
    eapply holds_ext; [exact H2|]. intros a b t _. cbn beta.
    destruct (teq i j s a b t); reflexivity.
  Qed.

  (** A loop that sets two cells per round. *)
  Lemma set2_cells (f f' : Z -> Z * Z) : forall l colors g,
    (forall i k s, In (i, k, s) l -> on_canvas c (fst (f i)) (snd (f i)) s /\
                                     on_canvas c (fst (f' i)) (snd (f' i)) s) ->
    holds c colors g ->
    exists colors' g', for_cells (fun i _ s => set2 c (fst (f i)) (snd (f i)) (fst (f' i)) (snd (f' i)) col s)
                         l colors = Ok colors' /\
      holds c colors' g' /\
      forall a b t, on_canvas c a b t ->
        ((exists i k, In (i, k, t) l /\ ((a, b) = f i \/ (a, b) = f' i)) -> g' a b t = Some col) /\
        (~ (exists i k, In (i, k, t) l /\ ((a, b) = f i \/ (a, b) = f' i)) -> g' a b t = g a b t).
  Proof.
    induction l as [|((i & k) & s) l IH]; intros colors g HO HC.
    - exists colors, g. split; [reflexivity|]. split; [exact HC|].
      intros a b t _. split; [intros (i & k & [] & _)|auto].
    - destruct (HO i k s (or_introl eq_refl)) as [O O'].
      cbn [for_cells]. destruct (set2_ok _ _ _ _ s colors g O O' HC) as (c1 & E1 & H1).
      rewrite E1. cbn [bind].
      destruct (IH c1 _ (fun i k s H => HO i k s (or_intror H)) H1) as (c2 & g2 & E2 & H2 & G).
      exists c2, g2. split; [exact E2|]. split; [exact H2|].
      intros a b t Oa. destruct (G a b t Oa) as [G1 G2].
      assert (D : (exists i' k', In (i', k', t) l /\ ((a, b) = f i' \/ (a, b) = f' i')) \/
                  ~ (exists i' k', In (i', k', t) l /\ ((a, b) = f i' \/ (a, b) = f' i'))).
      { clear - a. induction l as [|((i & k) & s) l IH]; [right; intros (i' & k' & [] & _)|].
        destruct IH as [IH|IH].
        - left. destruct IH as (i' & k' & H & E). exists i', k'. split; [now right|exact E].
        - assert (Dz : forall x y : Z * Z, {x = y} + {x <> y}) by (decide equality; apply Z.eq_dec).
          destruct (Z.eq_dec s t) as [Es|Es];
          [destruct (Dz (a, b) (f i)) as [E1|E1]; [|destruct (Dz (a, b) (f' i)) as [E2|E2]]|].
          + left. exists i, k. subst. split; [now left|auto].
          + left. exists i, k. subst. split; [now left|auto].
          + right. intros (i' & k' & [H|H] & E).
            * injection H as -> -> _. destruct E; contradiction.
            * apply IH. exists i', k'. auto.
          + right. intros (i' & k' & [H|H] & E).
            * injection H as _ _ ->. contradiction.
            * apply IH. exists i', k'. auto. }
      destruct D as [D|D].
      + split; [auto|]. intro N. exfalso. apply N. destruct D as (i' & k' & H & E). exists i', k'. split; [now right|exact E].
      + specialize (G2 D). split.
        * intros (i' & k' & [H|H] & E).
          -- injection H as -> -> ->. rewrite G2.
             replace (teq (fst (f i')) (snd (f i')) t a b t || teq (fst (f' i')) (snd (f' i')) t a b t) with true; [reflexivity|].
             symmetry. apply orb_true_iff. destruct E as [E|E]; rewrite <- E; cbn [fst snd]; [left|right]; apply teq_spec; auto.
          -- exfalso. apply D. exists i', k'. auto.
        * intro N. rewrite G2.
          destruct (teq (fst (f i)) (snd (f i)) s a b t || teq (fst (f' i)) (snd (f' i)) s a b t) eqn:T; [|reflexivity].
          exfalso. apply N. exists i, k. apply orb_true_iff in T.
          destruct T as [T|T]; apply teq_spec in T; destruct T as (<- & <- & <-); (split; [now left|]).
          -- left. now destruct (f i).
          -- right. now destruct (f' i).
  Qed.

  Definition on_border (i j : Z) : Prop := i = 0 \/ i = width c - 1 \/ j = 0 \/ j = height c - 1.

  Lemma border_ok colors g : 1 <= width c -> 1 <= height c -> holds c colors g ->
    exists colors' g', border c col colors = Ok colors' /\ holds c colors' g' /\
      forall i j s, on_canvas c i j s ->
        (on_border i j -> g' i j s = Some col) /\ (~ on_border i j -> g' i j s = g i j s).
  Proof.
    intros W H HC. unfold border.
    replace (negb (width c =? 0) && negb (height c =? 0)) with true by (symmetry; apply andb_true_iff; lia).
    cbn [slow_assert bind].
    destruct (set2_cells (fun i => (i, 0)) (fun i => (i, height c - 1)) (cells 0 (width c) 0 1 (samples c)) colors g)
      as (c1 & g1 & E1 & H1 & G1); auto.
    { intros i k s Hin. apply in_cells in Hin. cbn [fst snd]. unfold on_canvas. lia. }
    cbn [fst snd] in E1. rewrite E1. cbn [bind].
    destruct (set2_cells (fun j => (0, j)) (fun j => (width c - 1, j)) (cells 0 (height c) 0 1 (samples c)) c1 g1)
      as (c2 & g2 & E2 & H2 & G2); auto.
    { intros i k s Hin. apply in_cells in Hin. cbn [fst snd]. unfold on_canvas. lia. }
    cbn [fst snd] in E2. exists c2, g2. split; [exact E2|]. split; [exact H2|].
    intros i j s O. destruct (G1 i j s O) as [A1 B1]. destruct (G2 i j s O) as [A2 B2].
    unfold on_canvas in O.
    destruct (Z.eq_dec i 0) as [Ei|Ei]; [|destruct (Z.eq_dec i (width c - 1)) as [Ei'|Ei']].
    - assert (X : g2 i j s = Some col).
      { apply A2. exists j, 0. split; [apply in_cells; lia|]. left. now subst. }
      split; [auto|]. intro N. exfalso. apply N. unfold on_border. auto.
    - assert (X : g2 i j s = Some col).
      { apply A2. exists j, 0. split; [apply in_cells; lia|]. right. now subst. }
      split; [auto|]. intro N. exfalso. apply N. unfold on_border. auto.
    - assert (X : g2 i j s = g1 i j s).
      { apply B2. intros (a & k & _ & [E|E]); injection E as E _; contradiction. }
      rewrite X. split.
      + intros [?|[?|E]]; try contradiction. apply A1. exists i, 0. split; [apply in_cells; lia|].
        destruct E as [-> | ->]; auto.
      + intro N. apply B1. intros (a & k & _ & [E|E]); injection E as E1' E2'; apply N; unfold on_border; auto.
  Qed.
End Border.

(** ** write *)
Lemma all_ok_map {A B} (f : A -> res B) (P : A -> B -> Prop) : forall l,
  (forall a, In a l -> exists b, f a = Ok b /\ P a b) ->
  exists r, all_ok (map f l) = Ok r /\ Forall2 P l r.
Proof.
  induction l as [|a l IH]; intro H; cbn [map all_ok]; [exists []; auto|].
  destruct (H a (or_introl eq_refl)) as (b & Eb & Pb). rewrite Eb. cbn [bind].
  destruct IH as (r & Er & Pr); [intros; apply H; now right|]. rewrite Er. cbn [bind].
  exists (b :: r). auto.
Qed.

Section Write.
  Variable c : canvas.
  Hypothesis HF : fits c.
  Variable colors : list (option color).
  Variable g : Z -> Z -> Z -> color.
  Hypothesis HC : holds c colors (fun i j s => Some (g i j s)).
  Hypothesis Hv : forall i j s, on_canvas c i j s -> valid (g i j s).
  Hypothesis HS : 1 <= samples c.

  (** The byte that stands for a number in [0,1]. *)
  Definition byte_of (q : Q) (b : Z) : Prop :=
    0 <= b <= 255 /\ (inject_Z b - (1 # 2) <= 255 * q <= inject_Z b + (1 # 2))%Q.
  (** The average colour of pixel (i, j). *)
  Definition pixel_color (i j : Z) : color := average (map (fun s => g i j s) (range 0 (samples c))).
  Definition pixel_bytes (i j : Z) (l : list Z) : Prop :=
    Forall2 byte_of [red (pixel_color i j); green (pixel_color i j); blue (pixel_color i j); alpha (pixel_color i j)] l.

  Lemma F2_eq_map {A B} (f : A -> B) : forall l r, Forall2 (fun a b => b = f a) l r -> r = map f l.
  Proof. induction 1; cbn; congruence. Qed.

  Lemma pixel_ok i j : 0 <= i < width c -> 0 <= j < height c ->
    exists l, pixel c colors i j = Ok l /\ pixel_bytes i j l.
  Proof.
    intros Hi Hj. unfold pixel. rewrite index_ok; [|exact HF|unfold on_canvas; lia]. cbn [bind].
    destruct (all_ok_map (fun s => get colors (place c i j 0 + s)) (fun s b => b = g i j s) (range 0 (samples c)))
      as (cs & Ec & Fc).
    { intros s Hin. apply in_range in Hin.
      replace (place c i j 0 + s) with (place c i j s) by (unfold place; lia).
      exists (g i j s). split; [|reflexivity].
      apply (get_ok c colors _ i j s (g i j s) HC); [unfold on_canvas; lia|reflexivity]. }
    rewrite Ec. cbn [bind]. apply F2_eq_map in Fc. subst cs. fold (pixel_color i j).
    assert (V : valid (pixel_color i j)).
    { unfold pixel_color. apply average_valid.
      - intro E. apply map_eq_nil in E. assert (In 0 (range 0 (samples c))) by (apply in_range; lia).
        rewrite E in H. destruct H.
      - apply Forall_forall. intros x Hx. apply in_map_iff in Hx. destruct Hx as (s & <- & Hs).
        apply in_range in Hs. apply Hv. unfold on_canvas. lia. }
    destruct V as (V1 & V2 & V3 & V4).
    cbv zeta. change (average (map (g i j) (range 0 (samples c)))) with (pixel_color i j).
    apply (all_ok_map byte byte_of
      [red (pixel_color i j); green (pixel_color i j); blue (pixel_color i j); alpha (pixel_color i j)]).
    intros q Hq.
    assert (U : unit_q q) by (cbn in Hq; destruct Hq as [<-|[<-|[<-|[<-|[]]]]]; assumption).
    destruct (byte_ok q U) as (b & E & B1 & B2). exists b. split; [exact E|]. split; assumption.
  Qed.

  Lemma write_ok : exists rows, write_rows c colors = Ok rows /\
    Forall2 (fun j row => exists ps, row = concat ps /\
      Forall2 (fun i p => pixel_bytes i j p) (range 0 (width c)) ps) (range 0 (height c)) rows.
  Proof.
    unfold write_rows. apply all_ok_map. intros j Hj. apply in_range in Hj.
    destruct (all_ok_map (fun i => pixel c colors i j) (fun i p => pixel_bytes i j p) (range 0 (width c)))
      as (ps & E & F).
    { intros i Hi. apply in_range in Hi. apply pixel_ok; assumption. }
    rewrite E. cbn [bind]. eauto.
  Qed.
End Write.
