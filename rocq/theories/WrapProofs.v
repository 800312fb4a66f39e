(** Proofs about the wrappers of WrapModel.v. *)
From Coq Require Import ZArith List Bool Lia.
From Verif Require Import Base WrapModel WrapSpec.
Import ListNotations.
Open Scope nat_scope.

Section Proofs.
Variables (V : Type) (zero : V) (big : V -> bool) (keep : bool).
Notation store := (store V).
Notation mem := (mem V).
Notation put := (f_put V big keep).
Definition owner (t : store) (i o : nat) : Prop := exists s, t o = Some s /\ blk V s = Some i.
(** Every block has one owner or is a forgotten text. *)
Record inv (t : store) (m : mem) (lk : list nat) : Prop := {
  v_nxt : forall i, nxt V m <= i -> cells V m i = None;
  v_live : forall i, cells V m i <> None <-> ((exists o, owner t i o) \/ In i lk);
  v_apart : forall i o, owner t i o -> ~ In i lk;
  v_one : forall i o o', owner t i o -> owner t i o' -> o = o';
  v_nodup : NoDup lk
}.
Lemma upd_eq : forall (A : Type) (t : nat -> option A) o x, upd t o x o = x.
Proof. intros A t o x. unfold upd. rewrite Nat.eqb_refl. reflexivity. Qed.
Lemma upd_ne : forall (A : Type) (t : nat -> option A) o x k, k <> o -> upd t o x k = t k.
Proof. intros A t o x k H. unfold upd. destruct (Nat.eqb_spec k o); [contradiction|reflexivity]. Qed.
Lemma below : forall t m lk i, inv t m lk -> cells V m i <> None -> i < nxt V m.
Proof. intros t m lk i I H. destruct (le_lt_dec (nxt V m) i) as [L|L]; [|exact L]. exfalso. apply H. exact (v_nxt _ _ _ I i L). Qed.
Lemma owned_live : forall t m lk i o, inv t m lk -> owner t i o -> cells V m i <> None.
Proof. intros t m lk i o I H. apply (v_live _ _ _ I). left. exists o. exact H. Qed.
(** The same owners: the same invariant. *)
Lemma inv_ext : forall t t' m lk, (forall i o, owner t' i o <-> owner t i o) -> inv t m lk -> inv t' m lk.
Proof.
  intros t t' m lk E [A B C D F]. constructor; auto.
  - intros i. rewrite B. split; (intros [[o H]|H]; [left; exists o; apply E; exact H|right; exact H]).
  - intros i o H. apply (C i o). apply E. exact H.
  - intros i o o' H H'. apply (D i); apply E; assumption.
Qed.
Lemma owner_upd : forall t o x i k, owner (upd t o x) i k <-> (k = o /\ exists s, x = Some s /\ blk V s = Some i) \/ (k <> o /\ owner t i k).
Proof.
  intros t o x i k. unfold owner. destruct (Nat.eq_dec k o) as [->|N].
  - rewrite upd_eq. split; [intros H; left; split; [reflexivity|exact H]|intros [[_ H]|[H _]]; [exact H|contradiction]].
  - rewrite upd_ne by exact N. split; [intros H; right; split; assumption|intros [[H _]|[_ H]]; [contradiction|exact H]].
Qed.
(** An object is replaced by one that owns nothing. *)
Lemma inv_none : forall t m lk o x, inv t m lk -> (forall i, ~ owner t i o) -> (forall s, x = Some s -> blk V s = None) -> inv (upd t o x) m lk.
Proof.
  intros t m lk o x I N X. apply (inv_ext t); [|exact I]. intros i k. rewrite owner_upd. split.
  - intros [[-> (s & E & B)]|[_ H]]; [rewrite (X s E) in B; discriminate|exact H].
  - intros H. right. split; [|exact H]. intros ->. exact (N i H).
Qed.
Lemma inv_free : forall t m lk o s x, inv t m lk -> t o = Some s -> (forall s, x = Some s -> blk V s = None) ->
  exists m', f_clear V m s = Ok m' /\ inv (upd t o x) m' lk /\ forall k s', k <> o -> t k = Some s' -> val V m' s' = val V m s'.
Proof.
  intros t m lk o s x I E X. unfold f_clear. destruct (blk V s) as [i|] eqn:B.
  - assert (O : owner t i o) by (exists s; auto). pose proof (owned_live _ _ _ _ _ I O) as L. unfold free. destruct (cells V m i) eqn:C; [|contradiction]. eexists. split; [reflexivity|]. split.
    + constructor; cbn [poke nxt cells].
      * intros k Hk. destruct (Nat.eqb_spec k i); [reflexivity|exact (v_nxt _ _ _ I k Hk)].
      * intros k. destruct (Nat.eqb_spec k i) as [->|N].
        -- split; [intros H; contradiction|]. intros [[p H]|H]; exfalso; [|exact (v_apart _ _ _ I i o O H)]. apply owner_upd in H. destruct H as [[_ (s' & E' & B')]|[N H]]; [rewrite (X s' E') in B'; discriminate|]. apply N. exact (v_one _ _ _ I i p o H O).
        -- rewrite (v_live _ _ _ I k). split; (intros [[p H]|H]; [left|right; exact H]).
           ++ exists p. apply owner_upd. right. split; [|exact H]. intros ->. destruct H as (s' & E' & B'). rewrite E in E'. injection E' as <-. rewrite B in B'. injection B' as ->. apply N. reflexivity.
           ++ apply owner_upd in H. destruct H as [[_ (s' & E' & B')]|[_ H]]; [rewrite (X s' E') in B'; discriminate|]. exists p. exact H.
      * intros k p H. apply owner_upd in H. destruct H as [[_ (s' & E' & B')]|[_ H]]; [rewrite (X s' E') in B'; discriminate|]. exact (v_apart _ _ _ I k p H).
      * intros k p q H H'. apply owner_upd in H. apply owner_upd in H'. destruct H as [[_ (s' & E' & B')]|[_ H]]; [rewrite (X s' E') in B'; discriminate|]. destruct H' as [[_ (s' & E' & B')]|[_ H']]; [rewrite (X s' E') in B'; discriminate|]. exact (v_one _ _ _ I k p q H H').
      * exact (v_nodup _ _ _ I).
    + intros k s' N E'. unfold val. destruct (small V s'); [reflexivity|]. destruct (blk V s') as [j|] eqn:Bj; [|reflexivity]. cbn [poke cells]. destruct (Nat.eqb_spec j i) as [->|Ne]; [|reflexivity].
      exfalso. apply N. apply (v_one _ _ _ I i k o); [exists s'; auto|exact O].
  - exists m. split; [reflexivity|]. split; [|reflexivity]. apply inv_none; [exact I| |exact X]. intros i (s' & E' & B'). rewrite E in E'. injection E' as <-. rewrite B in B'. discriminate.
Qed.
(** A new block for a forgotten text or for an object without block. *)
Lemma malloc_val : forall t m lk v k s', inv t m lk -> t k = Some s' -> val V (snd (malloc V m v)) s' = val V m s'.
Proof.
  intros t m lk v k s' I E. unfold val. destruct (small V s'); [reflexivity|]. destruct (blk V s') as [j|] eqn:B; [|reflexivity]. cbn. destruct (Nat.eqb_spec j (nxt V m)) as [->|N]; [|reflexivity].
  exfalso. assert (H := below _ _ _ _ I (owned_live _ _ _ (nxt V m) k I (ex_intro _ s' (Logic.conj E B)))). lia.
Qed.
Lemma inv_text : forall t m lk v, inv t m lk -> inv t (snd (malloc V m v)) (nxt V m :: lk).
Proof.
  intros t m lk v I. constructor; cbn [malloc snd nxt cells].
  - intros i Hi. destruct (Nat.eqb_spec i (nxt V m)); [lia|]. apply (v_nxt _ _ _ I). lia.
  - intros i. destruct (Nat.eqb_spec i (nxt V m)) as [->|N]; [split; [intros _; right; left; reflexivity|discriminate]|]. rewrite (v_live _ _ _ I i). split; (intros [H|H]; [left; exact H|right]); [right; exact H|]. destruct H as [H|H]; [exfalso; apply N; symmetry; exact H|exact H].
  - intros i o H [Q|Q]; [|exact (v_apart _ _ _ I i o H Q)]. subst i. pose proof (below _ _ _ _ I (owned_live _ _ _ _ _ I H)). lia.
  - exact (v_one _ _ _ I).
  - constructor; [|exact (v_nodup _ _ _ I)]. intros Q. assert (L : cells V m (nxt V m) <> None) by (apply (v_live _ _ _ I); right; exact Q). pose proof (below _ _ _ _ I L). lia.
Qed.
Lemma put_ok : forall t m lk o s v, inv t m lk -> t o = Some s -> exists m' s', put m s v = Ok (m', s') /\ inv (upd t o (Some s')) m' lk /\ val V m' s' = Ok v /\
  forall k x, k <> o -> t k = Some x -> val V m' x = val V m x.
Proof.
  intros t m lk o s v I E. unfold f_put. destruct (big v).
  - destruct (blk V s) as [i|] eqn:B.
    + assert (O : owner t i o) by (exists s; auto). pose proof (owned_live _ _ _ _ _ I O) as L. destruct (cells V m i) eqn:C; [|contradiction]. eexists. eexists. split; [reflexivity|]. split; [|split].
      * apply (inv_ext t).
        -- intros k p. rewrite owner_upd. cbn [blk]. split.
           ++ intros [[-> (s' & E' & B')]|[_ H]]; [|exact H]. injection E' as <-. cbn in B'. injection B' as <-. exact O.
           ++ intros H. destruct (Nat.eq_dec p o) as [->|N]; [|right; split; assumption]. left. split; [reflexivity|]. eexists. split; [reflexivity|]. cbn. destruct H as (s' & E' & B'). rewrite E in E'. injection E' as <-. rewrite <- B. exact B'.
        -- destruct I as [I1 I2 I3 I4 I5]. constructor; auto; cbn [poke nxt cells].
           ++ intros k Hk. destruct (Nat.eqb_spec k i) as [->|N]; [rewrite (I1 i Hk) in C; discriminate|exact (I1 k Hk)].
           ++ intros k. destruct (Nat.eqb_spec k i) as [->|N]; [split; [intros _; left; exists o; exact O|discriminate]|apply I2].
      * unfold val. cbn. rewrite Nat.eqb_refl. reflexivity.
      * intros k x N Ek. unfold val. destruct (small V x); [reflexivity|]. destruct (blk V x) as [j|] eqn:Bj; [|reflexivity]. cbn [poke cells]. destruct (Nat.eqb_spec j i) as [->|Ne]; [|reflexivity].
        exfalso. apply N. apply (v_one _ _ _ I i k o); [exists x; auto|exact O].
    + cbn [malloc]. eexists. eexists. split; [reflexivity|]. split; [|split].
      * assert (No : forall i, ~ owner t i o) by (intros i (s' & E' & B'); rewrite E in E'; injection E' as <-; rewrite B in B'; discriminate).
        assert (Fresh : forall p, ~ owner t (nxt V m) p) by (intros p H; pose proof (below _ _ _ _ I (owned_live _ _ _ _ _ I H)); lia).
        assert (Out : forall i p, owner (upd t o (Some {| blk := Some (nxt V m); small := None |})) i p <-> (p = o /\ i = nxt V m) \/ owner t i p).
        { intros i p. rewrite owner_upd. split.
          - intros [[-> (s' & E' & B')]|[_ H]]; [|right; exact H]. injection E' as <-. cbn in B'. injection B' as <-. left. auto.
          - intros [[-> ->]|H]; [left; split; [reflexivity|]; eexists; split; reflexivity|]. right. split; [|exact H]. intros ->. exact (No i H). }
        constructor; cbn [nxt cells].
        -- intros i Hi. destruct (Nat.eqb_spec i (nxt V m)); [lia|]. apply (v_nxt _ _ _ I). lia.
        -- intros i. destruct (Nat.eqb_spec i (nxt V m)) as [->|N]; [split; [intros _; left; exists o; apply Out; left; auto|discriminate]|]. rewrite (v_live _ _ _ I i). split; (intros [[p H]|H]; [left; exists p|right; exact H]); [apply Out; right; exact H|]. apply Out in H. destruct H as [[_ H]|H]; [contradiction|exact H].
        -- intros i p H Q. apply Out in H. destruct H as [[-> ->]|H]; [|exact (v_apart _ _ _ I i p H Q)]. assert (L : cells V m (nxt V m) <> None) by (apply (v_live _ _ _ I); right; exact Q). pose proof (below _ _ _ _ I L). lia.
        -- intros i p q H H'. apply Out in H. apply Out in H'. destruct H as [[-> ->]|H], H' as [[-> Q]|H']; auto; [exfalso; exact (Fresh q H')|subst i; exfalso; exact (Fresh p H)|exact (v_one _ _ _ I i p q H H')].
        -- exact (v_nodup _ _ _ I).
      * unfold val. cbn. rewrite Nat.eqb_refl. reflexivity.
      * intros k x _ Ek. exact (malloc_val t m lk v k x I Ek).
  - destruct keep.
    + eexists. eexists. split; [reflexivity|]. split; [|split; [reflexivity|reflexivity]]. apply (inv_ext t); [|exact I]. intros i p. rewrite owner_upd. split.
      * intros [[-> (s' & E' & B')]|[_ H]]; [|exact H]. injection E' as <-. cbn in B'. exists s. auto.
      * intros H. destruct (Nat.eq_dec p o) as [->|N]; [|right; split; assumption]. left. split; [reflexivity|]. eexists. split; [reflexivity|]. cbn. destruct H as (s' & E' & B'). rewrite E in E'. injection E' as <-. exact B'.
    + destruct (inv_free t m lk o s (Some {| blk := None; small := Some v |}) I E) as (m' & C & I' & F); [intros s' Q; injection Q as <-; reflexivity|]. rewrite C. cbn [bind]. eexists. eexists. split; [reflexivity|]. split; [exact I'|]. split; [reflexivity|exact F].
Qed.

(** The objects hold the values. *)
Definition same (t : store) (m : mem) (u : vstore V) : Prop := forall o, match t o, u o with None, None => True | Some s, Some v => val V m s = Ok v | _, _ => False end.
Lemma same_upd : forall t m m' u u' o x y, same t m u -> (forall k, k <> o -> u' k = u k) -> u' o = y ->
  (forall k s, k <> o -> t k = Some s -> val V m' s = val V m s) -> match x, y with None, None => True | Some s, Some v => val V m' s = Ok v | _, _ => False end -> same (upd t o x) m' u'.
Proof.
  intros t m m' u u' o x y S U Y F X k. destruct (Nat.eq_dec k o) as [->|N]; [rewrite upd_eq, Y; exact X|]. rewrite upd_ne, U by exact N. specialize (S k). destruct (t k) as [s|] eqn:E; [|exact S]. rewrite (F k s N E). exact S.
Qed.
Lemma same_some : forall t m u o s, same t m u -> t o = Some s -> exists v, u o = Some v /\ val V m s = Ok v.
Proof. intros t m u o s S E. specialize (S o). rewrite E in S. destruct (u o) as [v|]; [exists v; auto|destruct S]. Qed.
Lemma same_none : forall t m u o, same t m u -> t o = None -> u o = None.
Proof. intros t m u o S E. specialize (S o). rewrite E in S. destruct (u o); [destruct S|reflexivity]. Qed.
Ltac neq := let k := fresh in let N := fresh in intros k N; cbn beta; match goal with |- context [Nat.eqb k ?b] => destruct (Nat.eqb_spec k b) end; [contradiction|reflexivity].

Lemma wstep_ok : forall x t m lk u, inv t m lk -> same t m u ->
  match wstep V zero big keep x t m, vstep V zero x u with
  | Ok (t', m', v), Ok (u', v') => v = v' /\ same t' m' u' /\ exists lk', inv t' m' lk' /\ length lk' = prints V [x] + length lk
  | UB, UB => True
  | _, _ => False
  end.
Proof.
  intros x t m lk u I S. destruct x as [o|o p|o p|o v|o p|o p|o|o|o|o]; cbn [wstep vstep prints filter length plus]; unfold vacant, live.
  - destruct (t o) as [s|] eqn:E; cbn [bind]; [destruct (same_some t m u o s S E) as (v & -> & _); exact Logic.I|]. rewrite (same_none t m u o S E). split; [reflexivity|]. split.
    + apply (same_upd t m m u _ o _ (Some zero) S); [neq|rewrite Nat.eqb_refl; reflexivity|reflexivity|reflexivity].
    + exists lk. split; [|reflexivity]. apply inv_none; [exact I|intros i (s & E' & _); rewrite E in E'; discriminate|intros s Q; injection Q as <-; reflexivity].
  - destruct (t o) as [s|] eqn:E; cbn [bind]; [destruct (same_some t m u o s S E) as (v & -> & _); exact Logic.I|]. rewrite (same_none t m u o S E).
    destruct (t p) as [s|] eqn:Ep; cbn [bind]; [|rewrite (same_none t m u p S Ep); exact Logic.I]. destruct (same_some t m u p s S Ep) as (v & -> & Ev). unfold f_set. rewrite Ev. cbn [bind].
    assert (I0 : inv (upd t o (Some (f_init V zero))) m lk) by (apply inv_none; [exact I|intros i (s' & E' & _); rewrite E in E'; discriminate|intros s' Q; injection Q as <-; reflexivity]).
    destruct (put_ok _ m lk o (f_init V zero) v I0 (upd_eq _ _ _ _)) as (m' & s' & P & I' & Ev' & F). rewrite P. cbn [bind]. split; [reflexivity|]. split.
    + apply (same_upd t m m' u _ o _ (Some v) S); [neq|rewrite Nat.eqb_refl; reflexivity| |exact Ev']. intros k s0 N E0. apply (F k); [exact N|]. rewrite upd_ne by exact N. exact E0.
    + exists lk. split; [|reflexivity]. apply (inv_ext (upd (upd t o (Some (f_init V zero))) o (Some s'))); [|exact I']. intros i k. rewrite !owner_upd. tauto.
  - destruct (t o) as [s|] eqn:E; cbn [bind]; [destruct (same_some t m u o s S E) as (v & -> & _); exact Logic.I|]. rewrite (same_none t m u o S E).
    destruct (t p) as [s|] eqn:Ep; cbn [bind]; [|rewrite (same_none t m u p S Ep); exact Logic.I]. destruct (same_some t m u p s S Ep) as (v & -> & Ev). split; [reflexivity|].
    assert (N : o <> p) by (intros ->; rewrite E in Ep; discriminate). split.
    + apply (same_upd (upd t o (Some s)) m m (fun k => if Nat.eqb k o then Some v else u k) _ p _ (Some zero)); [|neq|rewrite Nat.eqb_refl; reflexivity|reflexivity|reflexivity].
      apply (same_upd t m m u _ o _ (Some v) S); [neq|rewrite Nat.eqb_refl; reflexivity|reflexivity|exact Ev].
    + exists lk. split; [|reflexivity].
      assert (Ow : forall i k, owner (upd (upd t o (Some s)) p (Some (f_init V zero))) i k <-> (k = o /\ owner t i p) \/ (k <> o /\ k <> p /\ owner t i k)).
      { intros i k. rewrite !owner_upd. split.
        - intros [[-> (s' & E' & B')]|[Np [[-> (s' & E' & B')]|[No H]]]]; [injection E' as <-; discriminate|left; injection E' as <-; split; [reflexivity|exists s; auto]|right; auto].
        - intros [[-> (s' & E' & B')]|(A & B & H)]; right; [|auto]. split; [exact N|]. left. split; [reflexivity|]. rewrite Ep in E'. injection E' as <-. exists s. auto. }
      destruct I as [I1 I2 I3 I4 I5]. constructor; auto.
      * intros i. rewrite I2. split; (intros [[k H]|H]; [left|right; exact H]).
        -- destruct (Nat.eq_dec k p) as [->|Np]; [exists o; apply Ow; left; auto|]. exists k. apply Ow. right. split; [|auto]. intros ->. destruct H as (s' & E' & _). rewrite E in E'. discriminate.
        -- apply Ow in H. destruct H as [[_ H]|(_ & _ & H)]; eauto.
      * intros i k H. apply Ow in H. destruct H as [[_ H]|(_ & _ & H)]; exact (I3 _ _ H).
      * intros i k k' H H'. apply Ow in H. apply Ow in H'. destruct H as [[-> H]|(A & B & H)], H' as [[-> H']|(A' & B' & H')]; auto; [exfalso; apply B'; exact (I4 i _ _ H' H)|exfalso; apply B; exact (I4 i _ _ H H')|exact (I4 i _ _ H H')].
  - destruct (t o) as [s|] eqn:E; cbn [bind]; [|rewrite (same_none t m u o S E); exact Logic.I]. destruct (same_some t m u o s S E) as (v0 & -> & _).
    destruct (put_ok t m lk o s v I E) as (m' & s' & P & I' & Ev' & F). rewrite P. cbn [bind]. split; [reflexivity|]. split; [|exists lk; split; [exact I'|reflexivity]].
    apply (same_upd t m m' u _ o _ (Some v) S); [neq|rewrite Nat.eqb_refl; reflexivity|exact F|exact Ev'].
  - destruct (t o) as [s|] eqn:E; cbn [bind]; [|rewrite (same_none t m u o S E); exact Logic.I]. destruct (same_some t m u o s S E) as (v0 & -> & _).
    destruct (t p) as [sp|] eqn:Ep; cbn [bind]; [|rewrite (same_none t m u p S Ep); exact Logic.I]. destruct (same_some t m u p sp S Ep) as (v & -> & Ev). unfold f_set. rewrite Ev. cbn [bind].
    destruct (put_ok t m lk o s v I E) as (m' & s' & P & I' & Ev' & F). rewrite P. cbn [bind]. split; [reflexivity|]. split; [|exists lk; split; [exact I'|reflexivity]].
    apply (same_upd t m m' u _ o _ (Some v) S); [neq|rewrite Nat.eqb_refl; reflexivity|exact F|exact Ev'].
  - destruct (t o) as [s|] eqn:E; cbn [bind]; [|rewrite (same_none t m u o S E); exact Logic.I]. destruct (same_some t m u o s S E) as (v0 & -> & Ev0).
    destruct (t p) as [sp|] eqn:Ep; cbn [bind]; [|rewrite (same_none t m u p S Ep); exact Logic.I]. destruct (same_some t m u p sp S Ep) as (v & -> & Ev).
    rewrite upd_eq. cbn [bind]. set (t1 := upd (upd t o (Some sp)) p (Some s)).
    (* the two objects exchanged *)
    set (sw := fun k => if Nat.eqb k o then p else if Nat.eqb k p then o else k).
    assert (Sw : forall k, t1 k = t (sw k)).
    { intros k. unfold t1, sw, upd. destruct (Nat.eqb_spec k p) as [Q|Q], (Nat.eqb_spec k o) as [Q'|Q']; congruence. }
    assert (Inj : forall k k', sw k = sw k' -> k = k').
    { intros k k'. unfold sw. destruct (Nat.eqb_spec k o), (Nat.eqb_spec k' o), (Nat.eqb_spec k p), (Nat.eqb_spec k' p); subst; congruence. }
    assert (Inv : forall k, sw (sw k) = k).
    { intros k. unfold sw. destruct (Nat.eqb_spec k o) as [->|No]; [destruct (Nat.eqb_spec p o); [assumption|rewrite Nat.eqb_refl; reflexivity]|]. destruct (Nat.eqb_spec k p) as [->|Np]; [rewrite Nat.eqb_refl; reflexivity|]. destruct (Nat.eqb_spec k o); [contradiction|]. destruct (Nat.eqb_spec k p); [contradiction|reflexivity]. }
    assert (Ow : forall i k, owner t1 i k <-> owner t i (sw k)) by (intros i k; unfold owner; rewrite Sw; reflexivity).
    assert (I1 : inv t1 m lk).
    { destruct I as [J1 J2 J3 J4 J5]. constructor; auto.
      - intros i. rewrite J2. split; (intros [[k H]|H]; [left|right; exact H]); [exists (sw k); apply Ow; rewrite Inv; exact H|exists (sw k); apply Ow; exact H].
      - intros i k H. apply Ow in H. exact (J3 _ _ H).
      - intros i k k' H H'. apply Ow in H. apply Ow in H'. apply Inj. exact (J4 i _ _ H H'). }
    assert (E1 : t1 p = Some s) by apply upd_eq.
    destruct (put_ok t1 m lk p s zero I1 E1) as (m' & s' & P & I' & Ev' & F). rewrite P. cbn [bind]. split; [reflexivity|]. split; [|exists lk; split; [exact I'|reflexivity]].
    apply (same_upd t1 m m' (fun k => if Nat.eqb k p then Some v0 else if Nat.eqb k o then Some v else u k) _ p _ (Some zero)); [| |rewrite Nat.eqb_refl; reflexivity|exact F|exact Ev'].
    + intros k. unfold t1, upd. destruct (Nat.eqb_spec k p) as [->|Np]; [exact Ev0|]. destruct (Nat.eqb_spec k o) as [->|No]; [exact Ev|]. apply S.
    + intros k N. cbn beta. destruct (Nat.eqb_spec k p); [contradiction|reflexivity].
  - destruct (t o) as [s|] eqn:E; cbn [bind]; [|rewrite (same_none t m u o S E); exact Logic.I]. destruct (same_some t m u o s S E) as (v & -> & Ev). rewrite Ev. cbn [bind]. split; [reflexivity|]. split; [exact S|]. exists lk. split; [exact I|reflexivity].
  - destruct (t o) as [s|] eqn:E; cbn [bind]; [|rewrite (same_none t m u o S E); exact Logic.I]. destruct (same_some t m u o s S E) as (v & -> & Ev). rewrite Ev. cbn [bind malloc]. split; [reflexivity|]. split.
    + intros k. specialize (S k). destruct (t k) as [x|] eqn:Ek; [|exact S]. pose proof (malloc_val t m lk v k x I Ek) as Q. cbn [malloc snd] in Q. rewrite Q. exact S.
    + exists (nxt V m :: lk). split; [exact (inv_text t m lk v I)|reflexivity].
  - destruct (t o) as [s|] eqn:E; cbn [bind]; [|rewrite (same_none t m u o S E); exact Logic.I]. destruct (same_some t m u o s S E) as (v & -> & Ev). rewrite Ev. cbn [bind malloc]. unfold free. cbn [cells]. rewrite Nat.eqb_refl. cbn [bind].
    assert (C : forall i, i < nxt V m -> (if Nat.eqb i (nxt V m) then None else if Nat.eqb i (nxt V m) then Some v else cells V m i) = cells V m i) by (intros i Hi; destruct (Nat.eqb_spec i (nxt V m)); [lia|reflexivity]).
    assert (Z0 : forall i, (if Nat.eqb i (nxt V m) then None else if Nat.eqb i (nxt V m) then Some v else cells V m i) = cells V m i).
    { intros i. destruct (Nat.eqb_spec i (nxt V m)) as [->|N]; [symmetry; apply (v_nxt _ _ _ I); lia|reflexivity]. }
    split; [reflexivity|]. split.
    + intros k. specialize (S k). destruct (t k) as [x|] eqn:Ek; [|exact S]. destruct (u k); [|exact S]. rewrite <- S. unfold val. destruct (small V x); [reflexivity|]. destruct (blk V x) as [j|]; [|reflexivity]. cbn [poke cells]. rewrite Z0. reflexivity.
    + exists lk. split; [|reflexivity]. destruct I as [I1 I2 I3 I4 I5]. constructor; auto; cbn [poke nxt cells].
      * intros i Hi. rewrite Z0. apply I1. lia.
      * intros i. rewrite Z0. apply I2.
  - destruct (t o) as [s|] eqn:E; cbn [bind]; [|rewrite (same_none t m u o S E); exact Logic.I]. destruct (same_some t m u o s S E) as (v & -> & Ev). destruct (inv_free t m lk o s None I E) as (m' & C & I' & F); [discriminate|]. rewrite C. cbn [bind].
    split; [reflexivity|]. split; [|exists lk; split; [exact I'|reflexivity]]. apply (same_upd t m m' u _ o _ None S); [neq|rewrite Nat.eqb_refl; reflexivity|exact F|exact Logic.I].
Qed.
Lemma prints_cons : forall x l, prints V (x :: l) = prints V [x] + prints V l.
Proof. intros x l. unfold prints. cbn [filter]. destruct x; reflexivity. Qed.
Lemma wrun_ok : forall l t m lk u, inv t m lk -> same t m u ->
  let '(r, t', m') := wrun V zero big keep l t m in let (r', u') := vrun V zero l u in
  r = r' /\ (~ In UB r -> same t' m' u' /\ exists lk', inv t' m' lk' /\ length lk' = prints V l + length lk).
Proof.
  induction l as [|x l IH]; intros t m lk u I S; cbn [wrun vrun].
  - split; [reflexivity|]. intros _. split; [exact S|]. exists lk. split; [exact I|reflexivity].
  - pose proof (wstep_ok x t m lk u I S) as H. destruct (wstep V zero big keep x t m) as [[[t1 m1] v]| |], (vstep V zero x u) as [[u1 v']| |]; try contradiction.
    + destruct H as (<- & S1 & lk1 & I1 & L1). specialize (IH t1 m1 lk1 u1 I1 S1). destruct (wrun V zero big keep l t1 m1) as [[r t2] m2], (vrun V zero l u1) as [r' u2]. destruct IH as [-> IH]. split; [reflexivity|].
      intros N. destruct IH as (S2 & lk2 & I2 & L2); [intros Q; apply N; right; exact Q|]. split; [exact S2|]. exists lk2. split; [exact I2|]. rewrite prints_cons. lia.
    + split; [reflexivity|]. intros N. exfalso. apply N. left. reflexivity.
Qed.
Lemma inv0 : inv (store0 V) (mem0 V) [].
Proof.
  constructor.
  - reflexivity.
  - intros i. split; [intros H; exfalso; apply H; reflexivity|intros [[o (s & E & _)]|[]]; discriminate].
  - intros i o (s & E & _). discriminate.
  - intros i o o' (s & E & _). discriminate.
  - constructor.
Qed.
Lemma same0 : same (store0 V) (mem0 V) (fun _ => None).
Proof. intros o. exact Logic.I. Qed.
End Proofs.
