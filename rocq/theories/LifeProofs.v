(** Proofs about the lifetimes of LifeModel.v. *)
From Coq Require Import ZArith List Bool Lia.
From Verif Require Import Base LifeModel LifeSpec.
Import ListNotations.
Open Scope Z_scope.

Section Proofs.
Variable V : Type.
Notation world := (world V).
Notation heap := (heap V).
Notation state := (state V).
Definition owner (t : nat -> option series) (i o : nat) : Prop := exists a, t o = Some a /\ ptr a = Some i.
Definition ok (h : heap) (a : series) (b : vseries V) : Prop :=
  size a = room V b /\ known a = k_ V b /\ nonzero a = nz_ V b /\ (forall j, ~ (0 <= j < size a) -> terms V b j = None) /\
  match ptr a with
  | None => size a = 0
  | Some i => exists c, blocks V h i = Some c /\ Z.of_nat (length c) = size a /\ 0 < size a /\ forall j, 0 <= j < size a -> nth_error c (Z.to_nat j) = Some (terms V b j)
  end.
Definition vrel (h : heap) (t : nat -> option series) (x : view) (y : option nat * (Z * Z)) : Prop :=
  vkn x = fst (snd y) /\ vlen x = snd (snd y) /\
  (0 < vlen x -> match fst y with
                 | Some o => exists a, t o = Some a /\ vptr x = ptr a
                 | None => forall i, vptr x = Some i -> (i < nxt V h)%nat /\ blocks V h i = None
                 end).
Record rel (h : heap) (t : nat -> option series) (vs : list view) (u : nat -> option (vseries V)) (sn : list (option nat * (Z * Z))) : Prop := {
  r_nxt : forall i, (nxt V h <= i)%nat -> blocks V h i = None;
  r_obj : forall o, match t o, u o with Some a, Some b => ok h a b | None, None => True | _, _ => False end;
  r_one : forall i o o', owner t i o -> owner t i o' -> o = o';
  r_own : forall i, blocks V h i <> None -> exists o, owner t i o;
  r_view : Forall2 (vrel h t) vs sn
}.
Lemma F2_mono : forall (A B : Type) (P Q : A -> B -> Prop) l l', (forall a b, P a b -> Q a b) -> Forall2 P l l' -> Forall2 Q l l'.
Proof. intros A B P Q l l' H F. induction F; constructor; auto. Qed.
Lemma F2_follow : forall (P Q : view -> option nat * (Z * Z) -> Prop) g l l', (forall a o n, P a (o, n) -> Q a (match o with None => None | Some o => g o end, n)) -> Forall2 P l l' -> Forall2 Q l (follow g l').
Proof. intros P Q g l l' H F. unfold follow. induction F as [|a [o n] l l' Hp F IH]; cbn [map]; constructor; [exact (H a o n Hp)|exact IH]. Qed.
Lemma upd_eq : forall t o x, upd t o x o = x.
Proof. intros t o x. unfold upd. rewrite Nat.eqb_refl. reflexivity. Qed.
Lemma upd_ne : forall t o x k, k <> o -> upd t o x k = t k.
Proof. intros t o x k H. unfold upd. destruct (Nat.eqb_spec k o); [contradiction|reflexivity]. Qed.
Lemma at_eq : forall (A : Type) (t : nat -> A) o x, at_ t o x o = x.
Proof. intros A t o x. unfold at_. rewrite Nat.eqb_refl. reflexivity. Qed.
Lemma at_ne : forall (A : Type) (t : nat -> A) o x k, k <> o -> at_ t o x k = t k.
Proof. intros A t o x k H. unfold at_. destruct (Nat.eqb_spec k o); [contradiction|reflexivity]. Qed.
Lemma owner_upd : forall t o x i k, owner (upd t o x) i k <-> (k = o /\ exists a, x = Some a /\ ptr a = Some i) \/ (k <> o /\ owner t i k).
Proof.
  intros t o x i k. unfold owner. destruct (Nat.eq_dec k o) as [->|N].
  - rewrite upd_eq. split; [intros H; left; split; [reflexivity|exact H]|intros [[_ H]|[H _]]; [exact H|contradiction]].
  - rewrite upd_ne by exact N. split; [intros H; right; split; assumption|intros [[H _]|[_ H]]; [contradiction|exact H]].
Qed.
Lemma owned_live : forall h t vs u sn i o, rel h t vs u sn -> owner t i o -> exists c, blocks V h i = Some c /\ (i < nxt V h)%nat.
Proof.
  intros h t vs u sn i o R (a & E & P). pose proof (r_obj _ _ _ _ _ R o) as Q. rewrite E in Q. destruct (u o); [|destruct Q]. destruct Q as (_ & _ & _ & _ & Q). rewrite P in Q. destruct Q as (c & C & _). exists c. split; [exact C|].
  destruct (le_lt_dec (nxt V h) i) as [L|L]; [|exact L]. rewrite (r_nxt _ _ _ _ _ R i L) in C. discriminate.
Qed.
(** [ok] looks at the object's own block only. *)
Lemma ok_frame : forall h h' a b, (forall i, ptr a = Some i -> blocks V h' i = blocks V h i) -> ok h a b -> ok h' a b.
Proof. intros h h' a b F (A & B & C & D & E). unfold ok. split; [exact A|]. split; [exact B|]. split; [exact C|]. split; [exact D|]. destruct (ptr a) as [i|]; [|exact E]. rewrite (F i eq_refl). exact E. Qed.

(** A new object without block in a vacant place. *)
Lemma add_empty : forall h t vs u sn o a b, rel h t vs u sn -> t o = None -> ptr a = None -> ok h a b -> rel h (upd t o (Some a)) vs (at_ u o (Some b)) sn.
Proof.
  intros h t vs u sn o a b R E P K.
  assert (Ow : forall i k, owner (upd t o (Some a)) i k <-> owner t i k).
  { intros i k. rewrite owner_upd. split; [intros [[-> (a' & Q & P')]|[_ H]]; [injection Q as <-; rewrite P in P'; discriminate|exact H]|]. intros H. right. split; [|exact H]. intros ->. destruct H as (a' & E' & _). rewrite E in E'. discriminate. }
  constructor.
  - exact (r_nxt _ _ _ _ _ R).
  - intros k. destruct (Nat.eq_dec k o) as [->|N]; [rewrite upd_eq, at_eq; exact K|]. rewrite upd_ne, at_ne by exact N. exact (r_obj _ _ _ _ _ R k).
  - intros i k k' H H'. apply Ow in H. apply Ow in H'. exact (r_one _ _ _ _ _ R i k k' H H').
  - intros i H. destruct (r_own _ _ _ _ _ R i H) as (k & Q). exists k. apply Ow. exact Q.
  - refine (F2_mono _ _ _ _ _ _ _ (r_view _ _ _ _ _ R)). intros x [[k|] n] (Lk & L & H); (split; [exact Lk|]); (split; [exact L|]); intros G; [|exact (H G)].
    destruct (H G) as (a' & E' & Q). cbn [fst] in *. exists a'. split; [|exact Q]. rewrite upd_ne; [exact E'|]. intros ->. rewrite E in E'. discriminate.
Qed.
(** A new object with a new block. *)
Lemma add_block : forall h h' t vs u sn o a b, rel h t vs u sn -> t o = None -> ptr a = Some (nxt V h) -> nxt V h' = S (nxt V h) -> (forall i, i <> nxt V h -> blocks V h' i = blocks V h i) -> ok h' a b ->
  rel h' (upd t o (Some a)) vs (at_ u o (Some b)) sn.
Proof.
  intros h h' t vs u sn o a b R E P N F K.
  assert (Ow : forall i k, owner (upd t o (Some a)) i k <-> (k = o /\ i = nxt V h) \/ owner t i k).
  { intros i k. rewrite owner_upd. split.
    - intros [[-> (a' & Q & P')]|[_ H]]; [injection Q as <-; rewrite P in P'; injection P' as <-; left; auto|right; exact H].
    - intros [[-> ->]|H]; [left; split; [reflexivity|exists a; auto]|]. right. split; [|exact H]. intros ->. destruct H as (a' & E' & _). rewrite E in E'. discriminate. }
  assert (Old : forall i k, owner t i k -> i <> nxt V h) by (intros i k H; destruct (owned_live _ _ _ _ _ _ _ R H) as (_ & _ & L); lia).
  constructor.
  - rewrite N. intros i Hi. rewrite F by lia. apply (r_nxt _ _ _ _ _ R). lia.
  - intros k. destruct (Nat.eq_dec k o) as [->|Nk]; [rewrite upd_eq, at_eq; exact K|]. rewrite upd_ne, at_ne by exact Nk. pose proof (r_obj _ _ _ _ _ R k) as Q. destruct (t k) as [a'|] eqn:Ek, (u k); auto.
    apply (ok_frame h); [|exact Q]. intros i Pi. apply F. apply (Old i k). exists a'. auto.
  - intros i k k' H H'. apply Ow in H. apply Ow in H'. destruct H as [[-> ->]|H], H' as [[-> Q]|H']; auto; [exfalso; exact (Old _ _ H' eq_refl)|exfalso; exact (Old _ _ H Q)|exact (r_one _ _ _ _ _ R i k k' H H')].
  - intros i H. destruct (Nat.eq_dec i (nxt V h)) as [->|Ni]; [exists o; apply Ow; left; auto|]. rewrite F in H by exact Ni. destruct (r_own _ _ _ _ _ R i H) as (k & Q). exists k. apply Ow. right. exact Q.
  - refine (F2_mono _ _ _ _ _ _ _ (r_view _ _ _ _ _ R)). intros x [[k|] n] (Lk & L & H); (split; [exact Lk|]); (split; [exact L|]); intros G; pose proof (H G) as Q; cbn [fst] in *.
    + destruct Q as (y & E' & Q). exists y. split; [|exact Q]. rewrite upd_ne; [exact E'|]. intros ->. rewrite E in E'. discriminate.
    + intros i Hi. destruct (Q i Hi) as (B & C). split; [lia|]. rewrite F by lia. exact C.
Qed.
(** More identifiers used up, the same blocks. *)
Lemma rel_heap : forall h h' t vs u sn, rel h t vs u sn -> (nxt V h <= nxt V h')%nat -> (forall i, blocks V h' i = blocks V h i) -> rel h' t vs u sn.
Proof.
  intros h h' t vs u sn R N F. constructor.
  - intros i Hi. rewrite F. apply (r_nxt _ _ _ _ _ R). lia.
  - intros o. pose proof (r_obj _ _ _ _ _ R o) as Q. destruct (t o), (u o); auto. apply (ok_frame h); [|exact Q]. intros i _. apply F.
  - exact (r_one _ _ _ _ _ R).
  - intros i. rewrite F. apply (r_own _ _ _ _ _ R).
  - refine (F2_mono _ _ _ _ _ _ _ (r_view _ _ _ _ _ R)). intros x [[k|] n] (Lk & L & H); (split; [exact Lk|]); (split; [exact L|]); intros G; [exact (H G)|]. intros i Hi. destruct (H G i Hi) as (B & C). rewrite F. split; [lia|exact C].
Qed.
Lemma rel_ext : forall h t t' vs u u' sn, (forall o, t' o = t o) -> (forall o, u' o = u o) -> rel h t vs u sn -> rel h t' vs u' sn.
Proof.
  intros h t t' vs u u' sn Ht Hu R. assert (Ow : forall i k, owner t' i k <-> owner t i k) by (intros i k; unfold owner; rewrite Ht; reflexivity). constructor.
  - exact (r_nxt _ _ _ _ _ R).
  - intros o. rewrite Ht, Hu. exact (r_obj _ _ _ _ _ R o).
  - intros i k k' H H'. apply Ow in H. apply Ow in H'. exact (r_one _ _ _ _ _ R i k k' H H').
  - intros i H. destruct (r_own _ _ _ _ _ R i H) as (k & Q). exists k. apply Ow. exact Q.
  - refine (F2_mono _ _ _ _ _ _ _ (r_view _ _ _ _ _ R)). intros x [[k|] n] (Lk & L & H); (split; [exact Lk|]); (split; [exact L|]); intros G; [|exact (H G)]. cbn [fst] in *. rewrite Ht. exact (H G).
Qed.
(** An object gives up its block. *)
Lemma drop : forall h t vs u sn o a x y, rel h t vs u sn -> t o = Some a -> (forall a', x = Some a' -> ptr a' = None) -> (forall h', match x, y with Some a, Some b => ok h' a b | None, None => True | _, _ => False end) ->
  exists h', release V h (ptr a) = Ok h' /\ rel h' (upd t o x) vs (at_ u o y) (follow (fun q => if Nat.eqb q o then None else Some q) sn).
Proof.
  intros h t vs u sn o a x y R E X K.
  assert (Ow : forall i k, owner (upd t o x) i k <-> k <> o /\ owner t i k).
  { intros i k. rewrite owner_upd. split; [intros [[-> (a' & Q & P')]|H]; [rewrite (X a' Q) in P'; discriminate|exact H]|]. intros H. right. exact H. }
  assert (Main : forall h', nxt V h' = nxt V h -> (forall i, ptr a <> Some i -> blocks V h' i = blocks V h i) -> (forall i, ptr a = Some i -> blocks V h' i = None) ->
    rel h' (upd t o x) vs (at_ u o y) (follow (fun q => if Nat.eqb q o then None else Some q) sn)).
  { intros h' N F G. constructor.
    - rewrite N. intros i Hi. destruct (ptr a) as [j|] eqn:P; [|rewrite F by discriminate; exact (r_nxt _ _ _ _ _ R i Hi)]. destruct (Nat.eq_dec j i) as [->|Nj]; [exact (G i eq_refl)|]. rewrite F by congruence. exact (r_nxt _ _ _ _ _ R i Hi).
    - intros k. destruct (Nat.eq_dec k o) as [->|Nk]; [rewrite upd_eq, at_eq; exact (K h')|]. rewrite upd_ne, at_ne by exact Nk. pose proof (r_obj _ _ _ _ _ R k) as Q. destruct (t k) as [a'|] eqn:Ek, (u k); auto.
      apply (ok_frame h); [|exact Q]. intros i Pi. apply F. intros Pa. apply Nk. apply (r_one _ _ _ _ _ R i); [exists a'; auto|exists a; auto].
    - intros i k k' H H'. apply Ow in H. apply Ow in H'. exact (r_one _ _ _ _ _ R i k k' (proj2 H) (proj2 H')).
    - intros i H. assert (Pi : ptr a <> Some i) by (intros Pa; apply H; exact (G i Pa)). rewrite F in H by exact Pi. destruct (r_own _ _ _ _ _ R i H) as (k & Q). exists k. apply Ow. split; [|exact Q]. intros ->. destruct Q as (a' & E' & P'). rewrite E in E'. injection E' as <-. contradiction.
    - refine (F2_follow _ _ _ _ _ _ (r_view _ _ _ _ _ R)). intros z [k|] n (Lk & L & H); (split; [exact Lk|]); (split; [exact L|]); intros Pos; cbn [fst snd] in *.
      + destruct (H Pos) as (a' & E' & P'). destruct (Nat.eqb_spec k o) as [->|Nk].
        * rewrite E in E'. injection E' as <-. intros i Hi. rewrite P' in Hi. rewrite N. split; [|exact (G i Hi)]. destruct (owned_live _ _ _ _ _ i o R) as (_ & _ & B); [exists a; auto|exact B].
        * exists a'. rewrite upd_ne by exact Nk. auto.
      + intros i Hi. destruct (H Pos i Hi) as (B & C). rewrite N. split; [exact B|]. destruct (ptr a) as [j|] eqn:Pa; [|rewrite F by discriminate; exact C]. destruct (Nat.eq_dec j i) as [->|Nj]; [exact (G i eq_refl)|]. rewrite F by congruence. exact C. }
  unfold release. destruct (ptr a) as [i|] eqn:P.
  - destruct (owned_live _ _ _ _ _ i o R) as (c & C & _); [exists a; auto|]. rewrite C. eexists. split; [reflexivity|]. apply Main.
    + reflexivity.
    + intros j Hj. cbn. destruct (Nat.eqb_spec j i) as [->|Ne]; [exfalso; apply Hj; reflexivity|reflexivity].
    + intros j Hj. injection Hj as <-. cbn. rewrite Nat.eqb_refl. reflexivity.
  - exists h. split; [reflexivity|]. apply Main; [reflexivity|reflexivity|discriminate].
Qed.
(** A write into the block of an object; the counts may change with it. *)
Lemma nth_replace : forall c n v k, nth_error (replace V c n v) k = if Nat.eqb k n then match nth_error c n with None => None | Some _ => Some (Some v) end else nth_error c k.
Proof.
  induction c as [|x c IH]; intros n v k; [destruct n, k; cbn [replace nth_error]; try reflexivity; destruct (Nat.eqb _ _); reflexivity|]. destruct n as [|n], k as [|k]; cbn [replace nth_error Nat.eqb]; try reflexivity. apply IH.
Qed.
Lemma len_replace : forall c n v, length (replace V c n v) = length c.
Proof. induction c as [|x c IH]; intros [|n] v; cbn; auto. Qed.
Lemma rewritten : forall h h' t vs u sn o a b j c' f kn n0, rel h t vs u sn -> t o = Some a -> u o = Some b -> ptr a = Some j ->
  nxt V h' = nxt V h -> (forall k, k <> j -> blocks V h' k = blocks V h k) -> blocks V h' j = Some c' -> Z.of_nat (length c') = size a ->
  (forall k, 0 <= k < size a -> nth_error c' (Z.to_nat k) = Some (f k)) -> (forall k, ~ (0 <= k < size a) -> f k = None) ->
  rel h' (upd t o (Some {| size := size a; ptr := Some j; known := kn; nonzero := n0 |})) vs (at_ u o (Some {| room := room V b; terms := f; k_ := kn; nz_ := n0 |})) sn.
Proof.
  intros h h' t vs u sn o a b j c' f kn n0 R E Eb P Nx Fr B' Lc' Tc' Of. pose proof (r_obj _ _ _ _ _ R o) as Q. rewrite E, Eb in Q. destruct Q as (Q1 & Q2 & Q3 & Q4 & Q5). rewrite P in Q5. destruct Q5 as (c & C & Lc & Pc & Tc).
  assert (Oj : owner t j o) by (exists a; auto).
  assert (Ow : forall k p, owner (upd t o (Some {| size := size a; ptr := Some j; known := kn; nonzero := n0 |})) k p <-> owner t k p).
  { intros k p. rewrite owner_upd. split.
    - intros [[-> (a' & Q & P')]|[_ H]]; [injection Q as <-; cbn in P'; injection P' as <-; exact Oj|exact H].
    - intros H. destruct (Nat.eq_dec p o) as [->|N]; [|right; auto]. left. split; [reflexivity|]. eexists. split; [reflexivity|]. cbn. destruct H as (a' & E' & P'). rewrite E in E'. injection E' as <-. rewrite <- P. exact P'. }
  constructor.
  - rewrite Nx. intros k Hk. destruct (Nat.eq_dec k j) as [->|N]; [rewrite (r_nxt _ _ _ _ _ R j Hk) in C; discriminate|rewrite Fr by exact N; exact (r_nxt _ _ _ _ _ R k Hk)].
  - intros p. destruct (Nat.eq_dec p o) as [->|N].
    + rewrite upd_eq, at_eq. unfold ok. cbn [size known nonzero ptr room k_ nz_ terms]. split; [exact Q1|]. split; [reflexivity|]. split; [reflexivity|]. split; [exact Of|]. exists c'. split; [exact B'|]. split; [exact Lc'|]. split; [exact Pc|]. exact Tc'.
    + rewrite upd_ne, at_ne by exact N. pose proof (r_obj _ _ _ _ _ R p) as Q. destruct (t p) as [a'|] eqn:Ep, (u p); auto. apply (ok_frame h); [|exact Q]. intros k Pk. destruct (Nat.eq_dec k j) as [->|Ne]; [|exact (Fr k Ne)].
      exfalso. apply N. apply (r_one _ _ _ _ _ R j); [exists a'; auto|exact Oj].
  - intros k p p' H H'. apply Ow in H. apply Ow in H'. exact (r_one _ _ _ _ _ R k p p' H H').
  - intros k. destruct (Nat.eq_dec k j) as [Q|N]; intros H; [exists o; apply Ow; rewrite Q; exact Oj|]. rewrite Fr in H by exact N. destruct (r_own _ _ _ _ _ R k H) as (p & Q). exists p. apply Ow. exact Q.
  - refine (F2_mono _ _ _ _ _ _ _ (r_view _ _ _ _ _ R)). intros x [[k|] n] (Lk & L & H); (split; [exact Lk|]); (split; [exact L|]); intros G; pose proof (H G) as Q; cbn [fst] in *.
    + destruct Q as (y & E' & P'). destruct (Nat.eq_dec k o) as [->|N]; [|exists y; rewrite upd_ne by exact N; auto]. rewrite upd_eq. eexists. split; [reflexivity|]. cbn. rewrite E in E'. injection E' as <-. rewrite <- P. exact P'.
    + intros y Hy. destruct (Q y Hy) as (B & D). split; [rewrite Nx; exact B|]. destruct (Nat.eq_dec y j) as [->|N]; [rewrite C in D; discriminate|rewrite Fr by exact N; exact D].
Qed.
Lemma write : forall h t vs u sn o a b i v kn n0, rel h t vs u sn -> t o = Some a -> u o = Some b -> 0 <= i < size a ->
  exists h', save V h (ptr a) i v = Ok h' /\
  rel h' (upd t o (Some {| size := size a; ptr := ptr a; known := kn; nonzero := n0 |})) vs (at_ u o (Some {| room := room V b; terms := put V (terms V b) i v; k_ := kn; nz_ := n0 |})) sn.
Proof.
  intros h t vs u sn o a b i v kn n0 R E Eb Hi. pose proof (r_obj _ _ _ _ _ R o) as Q. rewrite E, Eb in Q. destruct Q as (Q1 & Q2 & Q3 & Q4 & Q5). destruct (ptr a) as [j|] eqn:P; [|lia]. destruct Q5 as (c & C & Lc & Pc & Tc).
  unfold save. rewrite C. replace (i <? 0) with false by (symmetry; apply Z.ltb_ge; lia). replace (Z.of_nat (length c) <=? i) with false by (symmetry; apply Z.leb_gt; lia). cbn [orb]. eexists. split; [reflexivity|].
  apply (rewritten h _ t vs u sn o a b j (replace V c (Z.to_nat i) v)); auto.
  - intros k Hk. cbn. destruct (Nat.eqb_spec k j); [contradiction|reflexivity].
  - cbn. rewrite Nat.eqb_refl. reflexivity.
  - rewrite len_replace. exact Lc.
  - intros k Hk. rewrite nth_replace. unfold put. destruct (Z.eqb_spec k i) as [->|Nk]; [rewrite Nat.eqb_refl, (Tc i Hi); reflexivity|]. destruct (Nat.eqb_spec (Z.to_nat k) (Z.to_nat i)); [lia|exact (Tc k Hk)].
  - intros k Hk. unfold put. destruct (Z.eqb_spec k i); [lia|exact (Q4 k Hk)].
Qed.
(** Only the counts of an object change. *)
Lemma counts : forall h t vs u sn o a b kn n0, rel h t vs u sn -> t o = Some a -> u o = Some b ->
  rel h (upd t o (Some {| size := size a; ptr := ptr a; known := kn; nonzero := n0 |})) vs (at_ u o (Some {| room := room V b; terms := terms V b; k_ := kn; nz_ := n0 |})) sn.
Proof.
  intros h t vs u sn o a b kn n0 R E Eb. pose proof (r_obj _ _ _ _ _ R o) as Q. rewrite E, Eb in Q. destruct Q as (Q1 & Q2 & Q3 & Q4 & Q5).
  assert (Ow : forall k p, owner (upd t o (Some {| size := size a; ptr := ptr a; known := kn; nonzero := n0 |})) k p <-> owner t k p).
  { intros k p. rewrite owner_upd. split.
    - intros [[-> (a' & Q & P')]|[_ H]]; [injection Q as <-; exists a; auto|exact H].
    - intros H. destruct (Nat.eq_dec p o) as [->|N]; [|right; auto]. left. split; [reflexivity|]. eexists. split; [reflexivity|]. destruct H as (a' & E' & P'). rewrite E in E'. injection E' as <-. exact P'. }
  constructor.
  - exact (r_nxt _ _ _ _ _ R).
  - intros p. destruct (Nat.eq_dec p o) as [->|N]; [rewrite upd_eq, at_eq; unfold ok; cbn; auto|]. rewrite upd_ne, at_ne by exact N. exact (r_obj _ _ _ _ _ R p).
  - intros k p p' H H'. apply Ow in H. apply Ow in H'. exact (r_one _ _ _ _ _ R k p p' H H').
  - intros k H. destruct (r_own _ _ _ _ _ R k H) as (p & Q). exists p. apply Ow. exact Q.
  - refine (F2_mono _ _ _ _ _ _ _ (r_view _ _ _ _ _ R)). intros x [[k|] n] (Lk & L & H); (split; [exact Lk|]); (split; [exact L|]); intros G; [|exact (H G)]. destruct (H G) as (y & E' & Q). cbn [fst] in *. destruct (Nat.eq_dec k o) as [->|N]; [|exists y; rewrite upd_ne by exact N; auto].
    rewrite upd_eq. eexists. split; [reflexivity|]. rewrite E in E'. injection E' as <-. exact Q.
Qed.
(** Objects exchanged. *)
Lemma exchange : forall h t vs u sn t' u' sw g, rel h t vs u sn -> (forall k, sw (sw k) = k) -> (forall k, t' k = t (sw k)) -> (forall k, u' k = u (sw k)) -> (forall k, t k <> None -> g k = Some (sw k)) -> rel h t' vs u' (follow g sn).
Proof.
  intros h t vs u sn t' u' sw g R Inv Ht Hu Hg. assert (Ow : forall i k, owner t' i k <-> owner t i (sw k)) by (intros i k; unfold owner; rewrite Ht; reflexivity). constructor.
  - exact (r_nxt _ _ _ _ _ R).
  - intros o. rewrite Ht, Hu. exact (r_obj _ _ _ _ _ R (sw o)).
  - intros i k k' H H'. apply Ow in H. apply Ow in H'. rewrite <- (Inv k), <- (Inv k'). f_equal. exact (r_one _ _ _ _ _ R i _ _ H H').
  - intros i H. destruct (r_own _ _ _ _ _ R i H) as (k & Q). exists (sw k). apply Ow. rewrite Inv. exact Q.
  - refine (F2_follow _ _ _ _ _ _ (r_view _ _ _ _ _ R)). intros z [k|] n (Lk & L & H); (split; [exact Lk|]); (split; [exact L|]); intros Pos; [|exact (H Pos)]. destruct (H Pos) as (a & E & Q). cbn [fst snd] in *. rewrite Hg by (rewrite E; discriminate). exists a. rewrite Ht, Inv. auto.
Qed.
Lemma swap_inv : forall o p k, (fun k => if Nat.eqb k o then p else if Nat.eqb k p then o else k) ((fun k => if Nat.eqb k o then p else if Nat.eqb k p then o else k) k) = k.
Proof.
  intros o p k. cbn beta. destruct (Nat.eqb_spec k o) as [->|No]; [destruct (Nat.eqb_spec p o); [assumption|rewrite Nat.eqb_refl; reflexivity]|]. destruct (Nat.eqb_spec k p) as [->|Np]; [rewrite Nat.eqb_refl; reflexivity|]. destruct (Nat.eqb_spec k o); [contradiction|]. destruct (Nat.eqb_spec k p); [contradiction|reflexivity].
Qed.
(** The initializer list. *)
Lemma save_all_ok : forall cs h b c i, blocks V h b = Some c -> (i + length cs <= length c)%nat -> exists h' c', save_all V h (Some b) (Z.of_nat i) cs = Ok h' /\ nxt V h' = nxt V h /\ (forall j, j <> b -> blocks V h' j = blocks V h j) /\
  blocks V h' b = Some c' /\ length c' = length c /\ forall k, nth_error c' k = if (i <=? k)%nat && (k <? i + length cs)%nat then Some (nth_error cs (k - i)) else nth_error c k.
Proof.
  induction cs as [|x cs IH]; intros h b c i C L; cbn [save_all length] in *.
  - exists h, c. repeat split; auto. intros k. destruct (Nat.leb_spec i k), (Nat.ltb_spec k (i + 0)); cbn [andb]; try reflexivity; lia.
  - unfold save at 1. rewrite C. replace (Z.of_nat i <? 0) with false by (symmetry; apply Z.ltb_ge; lia). replace (Z.of_nat (length c) <=? Z.of_nat i) with false by (symmetry; apply Z.leb_gt; lia). cbn [orb bind]. rewrite Nat2Z.id.
    replace (Z.of_nat i + 1) with (Z.of_nat (S i)) by lia. destruct (IH (set_block V h b (Some (replace V c i x))) b (replace V c i x) (S i)) as (h' & c' & E & N & F & B & Lc & T); [cbn; rewrite Nat.eqb_refl; reflexivity|rewrite len_replace; lia|].
    exists h', c'. split; [exact E|]. split; [exact N|]. split; [intros j Hj; rewrite F by exact Hj; cbn; destruct (Nat.eqb_spec j b); [contradiction|reflexivity]|]. split; [exact B|]. split; [rewrite Lc; apply len_replace|].
    intros k. rewrite T, nth_replace. destruct (Nat.eqb_spec k i) as [->|Nk].
    + replace (S i <=? i)%nat with false by (symmetry; apply Nat.leb_gt; lia). replace (i <=? i)%nat with true by (symmetry; apply Nat.leb_le; lia). replace (i <? i + S (length cs))%nat with true by (symmetry; apply Nat.ltb_lt; lia). cbn [andb]. rewrite Nat.sub_diag. cbn [nth_error].
      destruct (nth_error c i) eqn:Q; [reflexivity|]. apply nth_error_None in Q. lia.
    + destruct (Nat.leb_spec (S i) k), (Nat.ltb_spec k (S i + length cs)), (Nat.leb_spec i k), (Nat.ltb_spec k (i + S (length cs))); cbn [andb]; try reflexivity; try lia. replace (k - i)%nat with (S (k - S i)) by lia. reflexivity.
Qed.
Lemma nth_unset : forall n k, (k < n)%nat -> nth_error (repeat (@None V) n) k = Some None.
Proof. induction n as [|n IH]; intros k H; [lia|]. destruct k; [reflexivity|]. cbn. apply IH. lia. Qed.

Definition relw (w : world) (s : state) : Prop := rel (hp V w) (objs V w) (views V w) (val V s) (seen V s).
Lemma F2_nth : forall (A B : Type) (P : A -> B -> Prop) l l' k, Forall2 P l l' -> match nth_error l k, nth_error l' k with Some a, Some b => P a b | None, None => True | _, _ => False end.
Proof. intros A B P l l' k F. revert k. induction F; intros [|k]; cbn; auto. apply IHF. Qed.
Lemma view_at : forall w s k, relw w s -> match nth_error (views V w) k, nth_error (seen V s) k with Some x, Some y => vrel (hp V w) (objs V w) x y | None, None => True | _, _ => False end.
Proof. intros w s k R. exact (F2_nth _ _ _ _ _ k (r_view _ _ _ _ _ R)). Qed.
Lemma obj_some : forall w s o a, relw w s -> objs V w o = Some a -> exists b, val V s o = Some b /\ ok (hp V w) a b.
Proof. intros w s o a R E. pose proof (r_obj _ _ _ _ _ R o) as Q. rewrite E in Q. destruct (val V s o) as [b|]; [exists b; auto|destruct Q]. Qed.
Lemma obj_none : forall w s o, relw w s -> objs V w o = None -> val V s o = None.
Proof. intros w s o R E. pose proof (r_obj _ _ _ _ _ R o) as Q. rewrite E in Q. destruct (val V s o); [destruct Q|reflexivity]. Qed.
Lemma ok_empty : forall h, ok h empty (v_empty V).
Proof. intros h. unfold ok. cbn. repeat split; try reflexivity; lia. Qed.

Lemma load_term : forall w s o a b i, relw w s -> objs V w o = Some a -> val V s o = Some b -> 0 <= i -> load V (hp V w) (ptr a) i = match terms V b i with Some v => Ok v | None => UB end.
Proof.
  intros w s o a b i R E Eb Hi. destruct (obj_some w s o a R E) as (b' & Eb' & (_ & _ & _ & K4 & K)). rewrite Eb in Eb'. injection Eb' as <-. unfold load. destruct (ptr a) as [j|]; [|rewrite K4 by lia; reflexivity]. destruct K as (c & C & Lc & _ & T). rewrite C. replace (i <? 0) with false by (symmetry; apply Z.ltb_ge; lia).
  destruct (Z_lt_dec i (size a)) as [Li|Li]; [rewrite T by lia; destruct (terms V b i); reflexivity|]. rewrite K4 by lia. rewrite (proj2 (nth_error_None c (Z.to_nat i))) by lia. reflexivity.
Qed.
Lemma load_all_ok : forall h p f, (forall i, 0 <= i -> load V h p i = match f i with Some v => Ok v | None => UB end) -> forall n k,
  if forallb (fun i => match f (Z.of_nat i) with Some _ => true | None => false end) (seq k n)
  then exists vs, load_all V h p (Z.of_nat k) n = Ok vs /\ length vs = n /\ forall i, (i < n)%nat -> nth_error vs i = f (Z.of_nat (k + i))
  else load_all V h p (Z.of_nat k) n = UB.
Proof.
  intros h p f H. induction n as [|n IH]; intros k; cbn [seq forallb load_all]; [exists []; repeat split; intros i Hi; lia|]. rewrite H by lia. destruct (f (Z.of_nat k)) as [v|] eqn:Fk; cbn [andb bind]; [|reflexivity].
  specialize (IH (S k)). replace (Z.of_nat k + 1) with (Z.of_nat (S k)) by lia. destruct (forallb _ (seq (S k) n)).
  - destruct IH as (vs & -> & L & T). cbn [bind]. exists (v :: vs). split; [reflexivity|]. split; [cbn; lia|]. intros [|i] Hi; cbn [nth_error]; [rewrite Nat.add_0_r; symmetry; exact Fk|]. rewrite T by lia. f_equal. lia.
  - rewrite IH. reflexivity.
Qed.
Ltac terms_tac := let j := fresh in let H := fresh in intros j H; first [reflexivity|destruct (Z.ltb_spec j 0); [reflexivity|apply nth_error_None; cbn [length]; lia]].
Lemma lstep_ok : forall x w s, relw w s -> let (w', r) := lstep V x w in let (s', r') := s_step V x s in r = r' /\ relw w' s'.
Proof.
  intros x w s R. destruct x as [o n|o n cs|o p|o p|o|o k v|o k|o|o k n|o k|o|o|k i|k i v|o]; cbn [lstep s_step]; unfold with_obj, with_heap.
  - destruct (objs V w o) as [a|] eqn:E; [destruct (obj_some w s o a R E) as (b & -> & _); split; [reflexivity|exact R]|]. rewrite (obj_none w s o R E). unfold make. destruct (Z.eqb_spec (Z.max n 0) 0) as [Z0|Z0].
    + split; [reflexivity|]. apply add_empty; [exact R|exact E|reflexivity|]. unfold ok. cbn. repeat split; try reflexivity; lia.
    + cbn [alloc]. split; [reflexivity|]. apply (add_block (hp V w)); [exact R|exact E|reflexivity|reflexivity| |].
      * intros i Hi. cbn. destruct (Nat.eqb_spec i (nxt V (hp V w))); [contradiction|reflexivity].
      * unfold ok. cbn [size known nonzero ptr room k_ nz_ terms]. repeat (split; [first [reflexivity|lia|terms_tac]|]). exists (repeat None (Z.to_nat (Z.max n 0))). cbn. rewrite Nat.eqb_refl. split; [reflexivity|]. rewrite repeat_length. split; [lia|]. split; [lia|]. intros j Hj. apply nth_unset. lia.
  - destruct (objs V w o) as [a|] eqn:E; [destruct (obj_some w s o a R E) as (b & -> & _); split; [reflexivity|exact R]|]. rewrite (obj_none w s o R E). unfold make. destruct (Z.eqb_spec (Z.max n 0) 0) as [Z0|Z0]; cbn [size ptr alloc].
    + rewrite Z0. destruct cs as [|c cs]; cbn [length save_all].
      * change (Z.of_nat 0 <=? 0) with true. change (0 <? Z.of_nat 0) with false. cbn iota. split; [reflexivity|]. apply add_empty; [exact R|exact E|reflexivity|]. unfold ok. cbn. repeat split; first [reflexivity|lia|terms_tac].
      * replace (Z.of_nat (S (length cs)) <=? 0) with false by (symmetry; apply Z.leb_gt; lia). replace (0 <? Z.of_nat (S (length cs))) with true by (symmetry; apply Z.ltb_lt; lia). cbn [release]. split; [reflexivity|exact R].
    + destruct (Z.leb_spec (Z.of_nat (length cs)) (Z.max n 0)) as [L|L].
      * replace (Z.max n 0 <? Z.of_nat (length cs)) with false by (symmetry; apply Z.ltb_ge; lia). set (h1 := {| nxt := _; blocks := _ |}).
        destruct (save_all_ok cs h1 (nxt V (hp V w)) (repeat None (Z.to_nat (Z.max n 0))) 0) as (h' & c' & Es & N & F & B & Lc & T); [cbn; rewrite Nat.eqb_refl; reflexivity|rewrite repeat_length; lia|]. change (Z.of_nat 0) with 0 in Es. rewrite Es. split; [reflexivity|].
        apply (add_block (hp V w) h'); [exact R|exact E|reflexivity|exact N| |].
        -- intros i Hi. rewrite F by exact Hi. cbn. destruct (Nat.eqb_spec i (nxt V (hp V w))); [contradiction|reflexivity].
        -- unfold ok. cbn [size known nonzero ptr room k_ nz_ terms]. repeat (split; [first [reflexivity|lia|terms_tac]|]). exists c'. split; [exact B|]. rewrite Lc, repeat_length. split; [lia|]. split; [lia|]. intros j Hj. rewrite T. rewrite Nat.sub_0_r. cbn [Nat.leb andb plus].
           replace (j <? 0) with false by (symmetry; apply Z.ltb_ge; lia). destruct (Nat.ltb_spec (Z.to_nat j) (length cs)) as [Q|Q]; [reflexivity|]. rewrite nth_unset by lia. symmetry. f_equal. apply nth_error_None. exact Q.
      * replace (Z.max n 0 <? Z.of_nat (length cs)) with true by (symmetry; apply Z.ltb_lt; lia). unfold release. cbn [blocks]. rewrite Nat.eqb_refl. split; [reflexivity|]. apply (rel_heap (hp V w)); [exact R|cbn; lia|]. intros i. cbn. destruct (Nat.eqb_spec i (nxt V (hp V w))) as [->|N]; [symmetry; apply (r_nxt _ _ _ _ _ R); lia|reflexivity].
  - destruct (objs V w o) as [a|] eqn:E; [destruct (obj_some w s o a R E) as (b & -> & _); split; [reflexivity|exact R]|]. rewrite (obj_none w s o R E). destruct (objs V w p) as [a|] eqn:Ep; [|rewrite (obj_none w s p R Ep); split; [reflexivity|exact R]].
    destruct (obj_some w s p a R Ep) as (b & Eb & _). rewrite Eb. split; [reflexivity|]. unfold relw. cbn [hp objs views val seen].
    assert (N : o <> p) by (intros ->; rewrite E in Ep; discriminate).
    set (sw := fun k => if Nat.eqb k o then p else if Nat.eqb k p then o else k).
    assert (R1 : rel (hp V w) (fun k => objs V w (sw k)) (views V w) (fun k => val V s (sw k)) (follow (fun q => if Nat.eqb q p then Some o else Some q) (seen V s))).
    { apply (exchange _ _ _ _ _ _ _ sw _ R); [exact (swap_inv o p)|reflexivity|reflexivity|]. intros k Hk. unfold sw. destruct (Nat.eqb_spec k o) as [->|No]; [contradiction|]. destruct (Nat.eqb_spec k p); reflexivity. }
    assert (P0 : objs V w (sw p) = None) by (unfold sw; destruct (Nat.eqb_spec p o); [congruence|rewrite Nat.eqb_refl; exact E]).
    pose proof (add_empty _ _ _ _ _ p empty (v_empty V) R1 P0 eq_refl (ok_empty _)) as R2. revert R2. apply rel_ext.
    + intros k. unfold upd, sw. destruct (Nat.eqb_spec k p) as [->|Np]; [reflexivity|]. destruct (Nat.eqb_spec k o); [symmetry; exact Ep|reflexivity].
    + intros k. unfold at_, sw. destruct (Nat.eqb_spec k p) as [->|Np]; [reflexivity|]. destruct (Nat.eqb_spec k o); [symmetry; exact Eb|reflexivity].
  - destruct (objs V w o) as [a|] eqn:E; [|rewrite (obj_none w s o R E); split; [reflexivity|exact R]]. destruct (obj_some w s o a R E) as (b & Eb & _). rewrite Eb. destruct (objs V w p) as [a'|] eqn:Ep; [|rewrite (obj_none w s p R Ep); split; [reflexivity|exact R]].
    destruct (obj_some w s p a' R Ep) as (b' & Eb' & _). rewrite Eb'. split; [reflexivity|]. unfold relw. cbn [hp objs views val seen].
    apply (exchange _ _ _ _ _ _ _ (fun k => if Nat.eqb k o then p else if Nat.eqb k p then o else k) _ R); [exact (swap_inv o p)| | |].
    + intros k. unfold upd. destruct (Nat.eqb_spec k p) as [Q|Q], (Nat.eqb_spec k o) as [Q'|Q']; congruence.
    + intros k. unfold at_. destruct (Nat.eqb_spec k p) as [Q|Q], (Nat.eqb_spec k o) as [Q'|Q']; congruence.
    + intros k _. destruct (Nat.eqb k o); [reflexivity|]. destruct (Nat.eqb k p); reflexivity.
  - destruct (objs V w o) as [a|] eqn:E; [|rewrite (obj_none w s o R E); split; [reflexivity|exact R]]. destruct (obj_some w s o a R E) as (b & Eb & _). rewrite Eb.
    destruct (drop _ _ _ _ _ o a (Some empty) (Some (v_empty V)) R E) as (h' & Er & R'); [intros a' Q; injection Q as <-; reflexivity|exact ok_empty|]. rewrite Er. split; [reflexivity|exact R'].
  - destruct (objs V w o) as [a|] eqn:E; [|rewrite (obj_none w s o R E); split; [reflexivity|exact R]]. destruct (obj_some w s o a R E) as (b & Eb & K). rewrite Eb. destruct K as (K1 & _ & _ & _ & K5). assert (K4 : 0 <= size a) by (destruct (ptr a); [destruct K5 as (? & _ & _ & ? & _)|]; lia).
    destruct (Z.leb_spec k 0) as [L|L].
    + replace (Z.max k 0) with 0 by lia. cbn [Z.ltb Z.compare Z.eqb]. replace (size a <? 0) with false by (symmetry; apply Z.ltb_ge; lia). split; [reflexivity|]. apply counts; [exact R|exact E|exact Eb].
    + replace (Z.max k 0) with k by lia. replace (0 <? k) with true by (symmetry; apply Z.ltb_lt; lia). replace (k =? 0) with false by (symmetry; apply Z.eqb_neq; lia). rewrite <- K1. destruct (Z.eqb_spec (size a) 0) as [S0|S0].
      * replace (size a <? 1) with true by (symmetry; apply Z.ltb_lt; lia). split; [reflexivity|exact R].
      * replace (size a <? 1) with false by (symmetry; apply Z.ltb_ge; lia). destruct (write _ _ _ _ _ o a b 0 v k 1 R E Eb ltac:(lia)) as (h' & Es & R'). rewrite Es. split; [reflexivity|]. rewrite K1 in R' |- *. exact R'.
  - destruct (objs V w o) as [a|] eqn:E; [|rewrite (obj_none w s o R E); split; [reflexivity|exact R]]. destruct (obj_some w s o a R E) as (b & Eb & K). rewrite Eb. destruct K as (K1 & _ & _ & K4 & K5).
    pose proof (view_at w s k R) as Q. destruct (nth_error (views V w) k) as [x|], (nth_error (seen V s) k) as [[q [kn n]]|]; try contradiction; [|split; [reflexivity|exact R]]. destruct Q as (Q0 & Q1 & Q2). cbn [fst snd] in *. rewrite Q0, Q1 in *. rewrite <- K1.
    destruct (Z.ltb_spec (size a) n) as [L|L]; [split; [reflexivity|exact R]|]. destruct (Z.ltb_spec n 0) as [L0|L0]; [split; [reflexivity|exact R]|]. destruct (Z.eqb_spec n 0) as [N0|N0].
    + unfold recount, s_counts. rewrite N0. split; [reflexivity|]. apply counts; assumption.
    + specialize (Q2 ltac:(lia)). destruct (ptr a) as [j|] eqn:P; [|lia]. destruct q as [q|].
      * destruct Q2 as (a2 & E2 & P2). destruct (obj_some w s q a2 R E2) as (b2 & Eb2 & _). destruct (Nat.eqb_spec q o) as [->|Nq].
        { rewrite E in E2. injection E2 as <-. rewrite P2, P, Nat.eqb_refl. split; [reflexivity|exact R]. }
        rewrite Eb2. replace (match vptr x with Some j0 => Nat.eqb j j0 | None => false end) with false.
        2: { destruct (vptr x) as [j2|]; [|reflexivity]. destruct (Nat.eqb_spec j j2) as [->|_]; [|reflexivity]. exfalso. apply Nq. apply (r_one _ _ _ _ _ R j2); [exists a2; auto|exists a; auto]. }
        rewrite P2. pose proof (load_all_ok (hp V w) (ptr a2) (terms V b2) (fun i => load_term w s q a2 b2 i R E2 Eb2) (Z.to_nat n) 0) as Ld. change (Z.of_nat 0) with 0 in Ld. destruct (forallb _ (seq 0 (Z.to_nat n))).
        -- destruct Ld as (vs & -> & Lv & Tv). cbn [bind]. destruct K5 as (c & C & Lc & Pc & Tc). destruct (save_all_ok vs (hp V w) j c 0 C) as (h' & c' & Es & N & F & B & Lc' & T); [lia|]. change (Z.of_nat 0) with 0 in Es. rewrite Es. unfold recount, s_counts. split; [reflexivity|]. unfold relw. cbn [hp objs views val seen room terms]. rewrite P, K1.
           rewrite <- K1. rewrite K1 at 2. apply (rewritten (hp V w) _ _ _ _ _ o a b j c'); auto; [lia| |].
           ++ intros i Hi. rewrite T, Nat.sub_0_r. cbn [Nat.leb andb plus]. replace (0 <=? i) with true by (symmetry; apply Z.leb_le; lia). cbn [andb]. destruct (Z.ltb_spec i n).
              ** replace (Z.to_nat i <? length vs)%nat with true by (symmetry; apply Nat.ltb_lt; lia). rewrite Tv by lia. cbn [plus]. rewrite Z2Nat.id by lia. reflexivity.
              ** replace (Z.to_nat i <? length vs)%nat with false by (symmetry; apply Nat.ltb_ge; lia). apply Tc. lia.
           ++ intros i Hi. replace ((0 <=? i) && (i <? n)) with false; [apply K4; exact Hi|]. destruct (Z.leb_spec 0 i), (Z.ltb_spec i n); cbn [andb]; try reflexivity; lia.
        -- rewrite Ld. split; [reflexivity|exact R].
      * destruct (match vptr x with Some j0 => Nat.eqb j j0 | None => false end); [split; [reflexivity|exact R]|]. destruct (Z.to_nat n) as [|m] eqn:En; [lia|]. cbn [load_all]. unfold load at 1. destruct (vptr x) as [j2|]; [|split; [reflexivity|exact R]]. destruct (Q2 j2 eq_refl) as (_ & D). rewrite D. split; [reflexivity|exact R].
  - destruct (objs V w o) as [a|] eqn:E; [|rewrite (obj_none w s o R E); split; [reflexivity|exact R]]. destruct (obj_some w s o a R E) as (b & Eb & K). rewrite Eb. unfold recount, s_counts. split; [reflexivity|]. apply counts; assumption.
  - destruct (objs V w o) as [a|] eqn:E; [|rewrite (obj_none w s o R E); split; [reflexivity|exact R]]. destruct (obj_some w s o a R E) as (b & Eb & K). rewrite Eb. destruct K as (K1 & _ & _ & _ & K5). assert (K4 : 0 <= size a) by (destruct (ptr a); [destruct K5 as (? & _ & _ & ? & _)|]; lia).
    replace (if k <? 0 then (k <? n) && (n <? 0) else (n <? 0) || (k <? n) || (room V b <? n)) with (negb (u64_le n (Z.min (size a) k))).
    + destruct (u64_le n (Z.min (size a) k)); cbn [negb]; [|split; [reflexivity|exact R]]. unfold recount, s_counts. split; [reflexivity|]. apply counts; assumption.
    + rewrite <- K1. unfold u64_le. destruct (Z.ltb_spec n 0), (Z.ltb_spec k 0), (Z.leb_spec 0 (Z.min (size a) k)), (Z.leb_spec 0 n), (Z.ltb_spec (Z.min (size a) k) 0), (Z.leb_spec n (Z.min (size a) k)), (Z.ltb_spec k n), (Z.ltb_spec (size a) n); cbn [andb orb negb]; try reflexivity; lia.
  - destruct (objs V w o) as [a|] eqn:E; [|rewrite (obj_none w s o R E); split; [reflexivity|exact R]]. destruct (obj_some w s o a R E) as (b & Eb & K). rewrite Eb. destruct K as (_ & _ & K3 & _). destruct (Z.leb_spec 0 k) as [L|L].
    + replace (k <? 0) with false by (symmetry; apply Z.ltb_ge; lia). rewrite <- K3. replace (if k <? nonzero a then k else nonzero a) with (Z.min (nonzero a) k) by (destruct (Z.ltb_spec k (nonzero a)); lia). unfold recount, s_counts. split; [reflexivity|]. apply counts; assumption.
    + replace (k <? 0) with true by (symmetry; apply Z.ltb_lt; lia). split; [reflexivity|exact R].
  - destruct (objs V w o) as [a|] eqn:E; [|rewrite (obj_none w s o R E); split; [reflexivity|exact R]]. destruct (obj_some w s o a R E) as (b & Eb & K). rewrite Eb. destruct K as (-> & -> & -> & _). split; [reflexivity|exact R].
  - destruct (objs V w o) as [a|] eqn:E; [|rewrite (obj_none w s o R E); split; [reflexivity|exact R]]. destruct (obj_some w s o a R E) as (b & Eb & K). rewrite Eb. split; [reflexivity|]. destruct R as [R1 R2 R3 R4 R5]. constructor; auto. cbn [views seen].
    apply Forall2_app; [exact R5|]. constructor; [|constructor]. destruct K as (_ & K2 & K3 & _). split; [exact K2|]. split; [exact K3|]. intros _. exists a. cbn. split; [exact E|reflexivity].
  - pose proof (view_at w s k R) as Q. destruct (nth_error (views V w) k) as [x|], (nth_error (seen V s) k) as [[q [kn n]]|]; try contradiction; [|split; [reflexivity|exact R]]. destruct Q as (_ & Q1 & Q2). cbn [fst snd] in *. rewrite Q1 in *.
    destruct (Z.ltb_spec i 0) as [L|L]; [replace (0 <=? i) with false by (symmetry; apply Z.leb_gt; lia); split; [reflexivity|exact R]|]. replace (0 <=? i) with true by (symmetry; apply Z.leb_le; lia). destruct (Z.leb_spec n i) as [L2|L2]; cbn [orb andb].
    + replace (i <? n) with false by (symmetry; apply Z.ltb_ge; lia). split; [reflexivity|exact R].
    + replace (i <? n) with true by (symmetry; apply Z.ltb_lt; lia). destruct q as [o|].
      * destruct (Q2 ltac:(lia)) as (a & E & P). destruct (obj_some w s o a R E) as (b & -> & (_ & _ & _ & K4 & K)). rewrite P. unfold load. destruct (ptr a) as [j|]; [|rewrite K4 by lia; split; [reflexivity|exact R]]. destruct K as (c & C & Lc & _ & T). rewrite C. replace (i <? 0) with false by (symmetry; apply Z.ltb_ge; lia).
        destruct (Z_lt_dec i (size a)) as [Li|Li]; [rewrite T by lia; destruct (terms V b i); split; auto|]. rewrite K4 by lia. rewrite (proj2 (nth_error_None c (Z.to_nat i))) by lia. split; [reflexivity|exact R].
      * specialize (Q2 ltac:(lia)). unfold load. destruct (vptr x) as [j|]; [|split; [reflexivity|exact R]]. destruct (Q2 j eq_refl) as (_ & D). rewrite D. split; [reflexivity|exact R].
  - pose proof (view_at w s k R) as Q. destruct (nth_error (views V w) k) as [x|], (nth_error (seen V s) k) as [[q [kn n]]|]; try contradiction; [|split; [reflexivity|exact R]]. destruct Q as (_ & Q1 & Q2). cbn [fst snd] in *. rewrite Q1 in *.
    destruct (Z.ltb_spec i 0) as [L|L]; [replace (0 <=? i) with false by (symmetry; apply Z.leb_gt; lia); split; [reflexivity|exact R]|]. replace (0 <=? i) with true by (symmetry; apply Z.leb_le; lia). destruct (Z.leb_spec n i) as [L2|L2]; cbn [orb andb].
    + replace (i <? n) with false by (symmetry; apply Z.ltb_ge; lia). split; [reflexivity|exact R].
    + replace (i <? n) with true by (symmetry; apply Z.ltb_lt; lia). destruct q as [o|].
      * destruct (Q2 ltac:(lia)) as (a & E & P). destruct (obj_some w s o a R E) as (b & Eb & K). rewrite Eb, P. destruct K as (K1 & K2 & K3 & _ & K5). rewrite <- K1. destruct (Z.leb_spec (size a) i) as [Li|Li].
        { unfold save. destruct (ptr a) as [j|]; [|split; [reflexivity|exact R]]. destruct K5 as (c & C & Lc & _). rewrite C. replace (Z.of_nat (length c) <=? i) with true by (symmetry; apply Z.leb_le; lia). rewrite orb_true_r. split; [reflexivity|exact R]. }
        destruct (write _ _ _ _ _ o a b i v (known a) (nonzero a) R E Eb ltac:(lia)) as (h' & Es & R'). rewrite Es. split; [reflexivity|]. rewrite K2, K3, <- K1 in R'.
        revert R'. apply rel_ext; [|reflexivity]. intros p. cbn [objs]. unfold upd. destruct (Nat.eqb_spec p o) as [->|N]; [|reflexivity]. rewrite E, <- K2, <- K3. destruct a; reflexivity.
      * specialize (Q2 ltac:(lia)). unfold save. destruct (vptr x) as [j|]; [|split; [reflexivity|exact R]]. destruct (Q2 j eq_refl) as (_ & D). rewrite D. split; [reflexivity|exact R].
  - destruct (objs V w o) as [a|] eqn:E; [|rewrite (obj_none w s o R E); split; [reflexivity|exact R]]. destruct (obj_some w s o a R E) as (b & Eb & _). rewrite Eb.
    destruct (drop _ _ _ _ _ o a None None R E) as (h' & Er & R'); [discriminate|intros _; exact Logic.I|]. rewrite Er. split; [reflexivity|exact R'].
Qed.
Lemma lrun_ok : forall l w s, relw w s -> let (r, w') := lrun V l w in let (r', s') := s_run V l s in r = r' /\ relw w' s'.
Proof.
  induction l as [|x l IH]; intros w s R; cbn [lrun s_run]; [split; [reflexivity|exact R]|]. pose proof (lstep_ok x w s R) as H. destruct (lstep V x w) as [w1 r], (s_step V x s) as [s1 r']. destruct H as [<- R1].
  specialize (IH w1 s1 R1). destruct (lrun V l w1) as [rs w2], (s_run V l s1) as [rs' s2]. destruct IH as [<- R2]. destruct r; split; auto.
Qed.
Lemma relw0 : relw (world0 V) (s0 V).
Proof.
  constructor.
  - reflexivity.
  - intros o. exact Logic.I.
  - intros i o o' (a & E & _). discriminate.
  - intros i H. exfalso. apply H. reflexivity.
  - constructor.
Qed.
End Proofs.
