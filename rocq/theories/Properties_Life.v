(** C87: lifetimes of series and of views into them (LifeModel.v, specification in LifeSpec.v). *)
From Coq Require Import ZArith List Bool Lia.
From Verif Require Import Base LifeModel LifeSpec LifeProofs.
Import ListNotations.
Open Scope Z_scope.

(** Whatever is constructed, moved, swapped, assigned, cleared, viewed, read, written and destroyed in whatever
    order, every outcome is that of plain families of terms, where a view follows its terms. *)
Theorem C87_series : forall V l, fst (lrun V l (world0 V)) = fst (s_run V l (s0 V)).
Proof.
  intros V l. pose proof (lrun_ok V l _ _ (relw0 V)) as H. destruct (lrun V l (world0 V)) as [r w], (s_run V l (s0 V)) as [r' s]. exact (proj1 H).
Qed.
Print Assumptions C87_series.

(** No two series ever share their terms, and each has memory for as many as it says. *)
Theorem C87_one_owner : forall V l,
  let w := snd (lrun V l (world0 V)) in
  (forall o o' a a' i, objs V w o = Some a -> objs V w o' = Some a' -> ptr a = Some i -> ptr a' = Some i -> o = o') /\
  (forall o a, objs V w o = Some a -> match ptr a with None => size a = 0 | Some i => exists c, blocks V (hp V w) i = Some c /\ Z.of_nat (length c) = size a end).
Proof.
  intros V l. pose proof (lrun_ok V l _ _ (relw0 V)) as H. destruct (lrun V l (world0 V)) as [r w], (s_run V l (s0 V)) as [r' s]. destruct H as [_ R]. cbn [snd]. split.
  - intros o o' a a' i E E' P P'. apply (r_one _ _ _ _ _ _ R i); [exists a; auto|exists a'; auto].
  - intros o a E. destruct (obj_some V w s o a R E) as (b & _ & (_ & _ & _ & _ & K)). destruct (ptr a) as [i|]; [|exact K]. destruct K as (c & C & L & _). exists c. auto.
Qed.
Print Assumptions C87_one_owner.

(** Memory in use belongs to an object; when all objects are destroyed, nothing is allocated. *)
Theorem C87_no_leak : forall V l,
  let w := snd (lrun V l (world0 V)) in
  (forall i, blocks V (hp V w) i <> None -> exists o a, objs V w o = Some a /\ ptr a = Some i) /\
  ((forall o, val V (snd (s_run V l (s0 V))) o = None) -> forall i, blocks V (hp V w) i = None).
Proof.
  intros V l. pose proof (lrun_ok V l _ _ (relw0 V)) as H. destruct (lrun V l (world0 V)) as [r w], (s_run V l (s0 V)) as [r' s]. destruct H as [_ R]. cbn [snd].
  assert (A : forall i, blocks V (hp V w) i <> None -> exists o a, objs V w o = Some a /\ ptr a = Some i) by (intros i Q; destruct (r_own _ _ _ _ _ _ R i Q) as (o & a & E); exists o, a; exact E).
  split; [exact A|]. intros D i. destruct (blocks V (hp V w) i) as [c|] eqn:E; [|reflexivity]. destruct (A i) as (o & a & Eo & _); [rewrite E; discriminate|]. destruct (obj_some V w s o a R Eo) as (b & Eb & _). rewrite D in Eb. discriminate.
Qed.
Print Assumptions C87_no_leak.

(** Two views, a move, a swap, a write through the first and a refused list. *)
Definition life_prog : list (lop Z) :=
  [LList Z 0 5 [10; 20; 30]; LView Z 0; LNew Z 1 2; LScalar Z 1 4 7; LView Z 1; LMove Z 2 0; LRead Z 0 1; LSwap Z 1 2; LWrite Z 0 1 21; LInfo Z 0; LInfo Z 1; LInfo Z 2; LRead Z 1 0;
   LList Z 3 1 [1; 2]; LKnown Z 1 (-1); LCounts Z 1 9 6; LCounts Z 1 9 2; LKnown Z 1 8; LInfo Z 1; LView Z 1; LRead Z 2 1; LNew Z 4 2; LAssign Z 4 2; LAssign Z 4 0; LWrite Z 2 0 11; LView Z 4; LRead Z 3 0; LRead Z 3 1; LInfo Z 4; LDestroy Z 4; LDestroy Z 0; LDestroy Z 2; LRead Z 0 2; LDestroy Z 1].
Example C87_example : fst (lrun Z life_prog (world0 Z)) =
  [Ok (ONone Z); Ok (ONone Z); Ok (ONone Z); Ok (ONone Z); Ok (ONone Z); Ok (ONone Z); Ok (OVal Z 20); Ok (ONone Z); Ok (ONone Z); Ok (OInfo Z 0 0 0); Ok (OInfo Z 3 3 5); Ok (OInfo Z 4 1 2); Ok (OVal Z 7);
   Throw; Throw; Throw; Ok (ONone Z); Ok (ONone Z); Ok (OInfo Z 8 2 5); Ok (ONone Z); Ok (OVal Z 21); Ok (ONone Z); Ok (ONone Z); Throw; Ok (ONone Z); Ok (ONone Z); Ok (OVal Z 10); Ok (OVal Z 21); Ok (OInfo Z 8 2 2); Ok (ONone Z); Ok (ONone Z); Ok (ONone Z); Ok (OVal Z 30); Ok (ONone Z)].
Proof. vm_compute. reflexivity. Qed.
Example C87_case : (forall o, val Z (snd (s_run Z life_prog (s0 Z))) o = None) /\ nxt Z (hp Z (snd (lrun Z life_prog (world0 Z)))) = 4%nat.
Proof. split; [|vm_compute; reflexivity]. intros o. destruct o as [|[|[|[|[|o]]]]]; reflexivity. Qed.

(** That a view can be read as long as its object exists is false: clear frees the terms. *)
Theorem C87_dangling_refuted : ~ (forall l o i x,
  let w := fst (lstep Z (LView Z o) (snd (lrun Z l (world0 Z)))) in
  let k := length (views Z (snd (lrun Z l (world0 Z)))) in
  let w' := fst (lstep Z x w) in
  (exists v, snd (lstep Z (LRead Z k i) w) = Ok (OVal Z v)) -> snd (lstep Z x w) = Ok (ONone Z) -> objs Z w' o <> None ->
  exists v, snd (lstep Z (LRead Z k i) w') = Ok (OVal Z v)).
Proof.
  intros H. destruct (H [LList Z 0 1 [5]] 0%nat 0 (LClear Z 0)) as (v & Q); [exists 5; vm_compute; reflexivity|vm_compute; reflexivity|vm_compute; discriminate|]. vm_compute in Q. discriminate.
Qed.
Print Assumptions C87_dangling_refuted.

(** Without calls of set_counts with a negative number of known terms, a view never has more terms
    than there is memory for: an index that the view's own check accepts can be written. *)
Definition sane {V : Type} (x : lop V) : Prop := match x with LCounts _ _ k _ => 0 <= k | _ => True end.
Theorem C87_in_room : forall V (l : list (lop V)), Forall sane l -> forall o a, objs V (snd (lrun V l (world0 V))) o = Some a -> 0 <= nonzero a <= size a.
Proof.
  intros V.
  assert (St : forall (x : lop V) w, sane x -> (forall o a, objs V w o = Some a -> 0 <= nonzero a <= size a) -> forall o a, objs V (fst (lstep V x w)) o = Some a -> 0 <= nonzero a <= size a).
  { assert (Up : forall t o x, (forall p a, t p = Some a -> 0 <= nonzero a <= size a) -> (forall a, x = Some a -> 0 <= nonzero a <= size a) -> forall p a, upd t o x p = Some a -> 0 <= nonzero a <= size a)
      by (intros t o x H Hx p a E; unfold upd in E; destruct (Nat.eqb p o); [exact (Hx a E)|exact (H p a E)]).
    assert (Mk : forall n h, size (fst (make V n h)) = Z.max n 0 /\ nonzero (fst (make V n h)) = 0) by (intros n h; unfold make; destruct (Z.eqb_spec (Z.max n 0) 0); cbn; split; auto).
    intros x w Sx H. destruct x as [o n|o n cs|o p|o p|o|o k v|o k|o|o k n|o k|o|o|k i|k i v|o]; cbn [lstep]; unfold with_obj, with_heap, recount.
    - destruct (objs V w o); [exact H|]. pose proof (Mk n (hp V w)) as [M1 M2]. destruct (make V n (hp V w)) as [a h]. cbn [fst] in *. apply Up; [exact H|]. intros a' Q. injection Q as <-. lia.
    - destruct (objs V w o); [exact H|]. destruct (make V n (hp V w)) as [a h]. destruct (Z.leb_spec (Z.of_nat (length cs)) (size a)).
      + destruct (save_all V h (ptr a) 0 cs); try exact H. apply Up; [exact H|]. intros a' Q. injection Q as <-. cbn. lia.
      + destruct (release V h (ptr a)); exact H.
    - destruct (objs V w o); [exact H|]. destruct (objs V w p) as [a|] eqn:E; [|exact H]. apply Up; [apply Up; [exact H|]|]; intros a' Q; injection Q as <-; [exact (H p a E)|cbn; lia].
    - destruct (objs V w o) as [a|] eqn:Eo; [|exact H]. destruct (objs V w p) as [b|] eqn:Ep; [|exact H]. apply Up; [apply Up; [exact H|]|]; intros a' Q; injection Q as <-; [exact (H p b Ep)|exact (H o a Eo)].
    - destruct (objs V w o) as [a|]; [|exact H]. destruct (release V (hp V w) (ptr a)); try exact H. apply Up; [exact H|]. intros a' Q. injection Q as <-. cbn. lia.
    - destruct (objs V w o) as [a|] eqn:E; [|exact H]. destruct (Z.ltb_spec (size a) (if 0 <? Z.max k 0 then 1 else 0)); [exact H|]. destruct (if Z.max k 0 =? 0 then _ else _); try exact H. apply Up; [exact H|]. intros a' Q. injection Q as <-. cbn. specialize (H o a E). destruct (0 <? Z.max k 0); lia.
    - destruct (objs V w o) as [a|] eqn:E; [|exact H]. destruct (nth_error (views V w) k) as [x|]; [|exact H]. destruct (Z.ltb_spec (size a) (vlen x)); [exact H|]. destruct (Z.ltb_spec (vlen x) 0); [exact H|]. destruct (vlen x =? 0); [apply Up; [exact H|]; intros a' Q; injection Q as <-; cbn; lia|].
      destruct (match ptr a with Some _ => _ | None => _ end); [exact H|]. destruct (bind _ _); try exact H. apply Up; [exact H|]. intros a' Q. injection Q as <-. cbn. lia.
    - destruct (objs V w o) as [a|] eqn:E; [|exact H]. apply Up; [exact H|]. intros a' Q. injection Q as <-. cbn. specialize (H o a E). lia.
    - destruct (objs V w o) as [a|] eqn:E; [|exact H]. destruct (u64_le n (Z.min (size a) k)) eqn:U; [|exact H]. apply Up; [exact H|]. intros a' Q. injection Q as <-. cbn. specialize (H o a E). cbn in Sx. unfold u64_le in U.
      destruct (Z.ltb_spec n 0), (Z.leb_spec 0 (Z.min (size a) k)), (Z.leb_spec 0 n), (Z.ltb_spec (Z.min (size a) k) 0); cbn [andb] in U; lia.
    - destruct (objs V w o) as [a|] eqn:E; [|exact H]. destruct (Z.leb_spec 0 k); [|exact H]. apply Up; [exact H|]. intros a' Q. injection Q as <-. cbn. specialize (H o a E). lia.
    - destruct (objs V w o); exact H.
    - destruct (objs V w o); exact H.
    - destruct (nth_error (views V w) k) as [x|]; [|exact H]. destruct (_ || _); [exact H|]. destruct (load V (hp V w) (vptr x) i); exact H.
    - destruct (nth_error (views V w) k) as [x|]; [|exact H]. destruct (_ || _); [exact H|]. destruct (save V (hp V w) (vptr x) i v); exact H.
    - destruct (objs V w o) as [a|]; [|exact H]. destruct (release V (hp V w) (ptr a)); try exact H. apply Up; [exact H|]. discriminate. }
  assert (Rn : forall (l : list (lop V)) w, Forall sane l -> (forall o a, objs V w o = Some a -> 0 <= nonzero a <= size a) -> forall o a, objs V (snd (lrun V l w)) o = Some a -> 0 <= nonzero a <= size a).
  { induction l as [|x l IH]; intros w F H; cbn [lrun]; [exact H|]. inversion F as [|? ? Sx Sl]; subst. specialize (St x w Sx H). destruct (lstep V x w) as [w1 r]. cbn [fst] in St. specialize (IH w1 Sl St). destruct (lrun V l w1) as [rs w2]. destruct r; first [exact IH|exact St]. }
  intros l F. apply (Rn l (world0 V) F). discriminate.
Qed.
Print Assumptions C87_in_room.
Example C87_in_room_case : Forall sane life_prog.
Proof. unfold life_prog. repeat constructor; cbn; lia. Qed.

(** With such a call it does: set_counts(-1, 5) passes on a series with room for 3. *)
Theorem C87_overrun_refuted : ~ (forall l o a, ~ In UB (fst (lrun Z l (world0 Z))) -> objs Z (snd (lrun Z l (world0 Z))) o = Some a -> nonzero a <= size a).
Proof.
  intros H. specialize (H [LList Z 0 3 [1; 2; 3]; LCounts Z 0 (-1) 5] 0%nat {| size := 3; ptr := Some 0%nat; known := -1; nonzero := 5 |}). cbn [nonzero size] in H. enough (5 <= 3) by lia. apply H; [|vm_compute; reflexivity]. vm_compute. intros [Q|[Q|[]]]; discriminate.
Qed.
Print Assumptions C87_overrun_refuted.

(** That a series can be assigned to itself is false: std::copy onto its own source is undefined. *)
Theorem C87_self_assign_refuted : ~ (forall l o, objs Z (snd (lrun Z l (world0 Z))) o <> None -> ~ In UB (fst (lrun Z (l ++ [LView Z o; LAssign Z o (length (views Z (snd (lrun Z l (world0 Z)))))]) (world0 Z)))).
Proof. intros H. apply (H [LList Z 0 1 [5]] 0%nat); [vm_compute; discriminate|]. vm_compute. auto. Qed.
Print Assumptions C87_self_assign_refuted.
