(** A faster check that the generator's run meets the conditions of GenWhole.v: expressions are kept in
    a table by the numerator of their signature. *)
From Coq Require Import String ZArith List Bool Lia QArith Qcanon Reals FMapPositive.
From Verif Require Import Base Field FieldInst ExpModel ExpProofs BlockProofs ExpToy GradSpec GradProofs GradReal GenModel GenProofs GenBack GenCheck GenExec GenWhole.
Import ListNotations.
Open Scope Z_scope.

Notation texp := (exp toyg).
Definition key (e : texp) : positive := match Qnum (this (sig_of e)) with Z0 => 1 | Zpos p => p~0 | Zneg p => p~1 end%positive.
Lemma key_sig : forall a b : texp, sig_of a = sig_of b -> key a = key b. Proof. intros a b H. unfold key. rewrite H. reflexivity. Qed.
Definition tab : Type := PositiveMap.t texp.
Definition has (t : tab) (x : texp) : Prop := PositiveMap.find (key x) t = Some x.
(** Puts the nodes of an expression in the table; None if two get the same key. *)
Fixpoint ins (e : texp) (m : option tab) {struct e} : option tab :=
  match m with
  | None => None
  | Some t =>
      match PositiveMap.find (key e) t with
      | Some e' => if exp_eqb toyg e e' then Some t else None
      | None =>
          match e with
          | E _ l _ =>
              match (fix go (l : list texp) (m : option tab) : option tab := match l with [] => m | a :: r => go r (ins a m) end) l (Some t) with
              | None => None
              | Some t1 => match PositiveMap.find (key e) t1 with Some _ => None | None => Some (PositiveMap.add (key e) e t1) end
              end
          end
      end
  end.
Definition ins_all (l : list texp) (m : option tab) : option tab := fold_left (fun m a => ins a m) l m.
Definition closed (t : tab) : Prop := forall x, has t x -> forall y, In y (subs x) -> has t y.
Definition grows (t t' : tab) : Prop := forall x, has t x -> has t' x.
Lemma go_all : forall l m, (fix go (l : list texp) (m : option tab) : option tab := match l with [] => m | a :: r => go r (ins a m) end) l m = ins_all l m.
Proof. induction l as [|a l IH]; intros m; [reflexivity|]. cbn [ins_all fold_left]. apply IH. Qed.
Lemma ins_all_none : forall l, ins_all l None = None.
Proof. induction l as [|a l IH]; [reflexivity|]. cbn [ins_all fold_left]. destruct a; exact IH. Qed.
Lemma sig_eqb_sig : forall a b : texp, exp_eqb toyg a b = true -> a = b. Proof. apply exp_eqb_ok. Qed.
Lemma has_add : forall t e x, PositiveMap.find (key e) t = None -> has t x -> has (PositiveMap.add (key e) e t) x.
Proof.
  intros t e x N H. unfold has in *. destruct (Pos.eq_dec (key x) (key e)) as [Q|Q]; [rewrite Q in H; congruence|]. rewrite PositiveMap.gso by exact Q. exact H.
Qed.
Lemma ins_ok : forall e t t', closed t -> ins e (Some t) = Some t' -> closed t' /\ grows t t' /\ has t' e.
Proof.
  induction e as [o l s IH] using exp_ind'. intros t t' Hc E. cbn [ins] in E. set (e := @ExpModel.E toyg o l s) in *. destruct (PositiveMap.find (key e) t) as [e'|] eqn:F.
  - destruct (exp_eqb toyg e e') eqn:Q; [|discriminate]. injection E as <-. apply exp_eqb_ok in Q. subst e'. split; [exact Hc|]. split; [intros x; auto|exact F].
  - rewrite go_all in E. destruct (ins_all l (Some t)) as [t1|] eqn:A; [|discriminate].
    assert (K : closed t1 /\ grows t t1 /\ forall a, In a l -> has t1 a).
    { clear F E e. revert t Hc t1 A. induction IH as [|a r Ha _ IHr]; intros t Hc t1 A.
      - injection A as <-. split; [exact Hc|]. split; [intros x; auto|intros a []].
      - cbn [ins_all fold_left] in A. destruct (ins a (Some t)) as [t0|] eqn:Ea; [|fold (ins_all r None) in A; rewrite ins_all_none in A; discriminate].
        destruct (Ha t t0 Hc Ea) as (A1 & A2 & A3). destruct (IHr t0 A1 t1 A) as (B1 & B2 & B3). split; [exact B1|]. split; [intros x Hx; apply B2, A2, Hx|].
        intros b [<-|Hb]; [apply B2; exact A3|apply B3; exact Hb]. }
    destruct K as (C1 & C2 & C3). destruct (PositiveMap.find (key e) t1) as [?|] eqn:F1; [discriminate|]. injection E as <-.
    assert (He : has (PositiveMap.add (key e) e t1) e) by (unfold has; apply PositiveMap.gss).
    split; [|split; [|exact He]].
    + intros x Hx y Hy. destruct (Pos.eq_dec (key x) (key e)) as [Q|Q].
      * unfold has in Hx. rewrite Q, PositiveMap.gss in Hx. injection Hx as Hx. subst x. unfold e in Hy. cbn [subs] in Hy. destruct Hy as [Hy|Hy]; [fold e in Hy; subst y; exact He|].
        apply in_flat_map in Hy. destruct Hy as (a & Ha & Hy). apply (has_add t1 e y F1). exact (C1 a (C3 a Ha) y Hy).
      * apply (has_add t1 e y F1). apply (C1 x); [|exact Hy]. unfold has in Hx |- *. rewrite PositiveMap.gso in Hx by exact Q. exact Hx.
    + intros x Hx. apply (has_add t1 e x F1). apply C2. exact Hx.
Qed.
Lemma ins_all_ok : forall l t t', closed t -> ins_all l (Some t) = Some t' -> closed t' /\ grows t t' /\ forall a, In a l -> has t' a.
Proof.
  induction l as [|a r IHr]; intros t t' Hc A.
  - injection A as <-. split; [exact Hc|]. split; [intros x; auto|intros a []].
  - cbn [ins_all fold_left] in A. destruct (ins a (Some t)) as [t0|] eqn:Ea; [|fold (ins_all r None) in A; rewrite ins_all_none in A; discriminate].
    destruct (ins_ok a t t0 Hc Ea) as (A1 & A2 & A3). destruct (IHr t0 t' A1 A) as (B1 & B2 & B3). split; [exact B1|]. split; [intros x Hx; apply B2, A2, Hx|].
    intros b [<-|Hb]; [apply B2; exact A3|apply B3; exact Hb].
Qed.
Lemma closed0 : closed (PositiveMap.empty texp).
Proof. intros x Hx. unfold has in Hx. rewrite PositiveMap.gempty in Hx. discriminate. Qed.
(** The distinct nodes of some expressions, if each signature has one. *)
Definition table (l : list texp) : option (list texp) := match ins_all l (Some (PositiveMap.empty texp)) with Some t => Some (map snd (PositiveMap.elements t)) | None => None end.
Lemma table_ok : forall l d, table l = Some d -> (forall x, In x (flat_map subs l) -> In x d) /\ (forall a b, In a (flat_map subs l) -> In b (flat_map subs l) -> sig_of a = sig_of b -> a = b).
Proof.
  intros l d H. unfold table in H. destruct (ins_all l _) as [t|] eqn:E; [|discriminate]. injection H as <-. destruct (ins_all_ok l _ _ closed0 E) as (C & _ & Hh).
  assert (K : forall x, In x (flat_map subs l) -> has t x). { intros x Hx. apply in_flat_map in Hx. destruct Hx as (a & Ha & Hx). exact (C a (Hh a Ha) x Hx). }
  split.
  - intros x Hx. apply K in Hx. apply in_map_iff. exists (key x, x). split; [reflexivity|]. apply PositiveMap.elements_correct. exact Hx.
  - intros a b Ha Hb Q. apply K in Ha, Hb. unfold has in *. rewrite (key_sig _ _ Q) in Ha. congruence.
Qed.

(** The constants 1 and 0 count as the literals. *)
Definition norm (e : texp) : texp :=
  match e with
  | E (OOther t _) [] s => if String.eqb t "one" && sg_eqb toyg s (sg_int toyg 1) then mkint 1 else if String.eqb t "zero" && sg_eqb toyg s (sg_int toyg 0) then mkint 0 else e
  | _ => e
  end.
Definition std_other (t : string) : R := (if String.eqb t "sh" then / sqrt 2 else if String.eqb t "one" then 1 else 0)%R.
Lemma norm_ok : forall (J : interp RF) e, iother J = std_other -> sig_of (norm e) = sig_of e /\ eval J (norm e) = eval J e.
Proof.
  intros J e HJ. destruct e as [o l s]. destruct o; try (split; reflexivity). destruct l as [|? ?]; [|split; reflexivity]. cbn [norm].
  destruct (String.eqb_spec s0 "one") as [->|_]; cbn [andb].
  - destruct (sg_eqb toyg s (sg_int toyg 1)) eqn:Q; [|cbn; split; reflexivity]. apply sg_eqb_ok in Q. subst s. split; [reflexivity|]. cbn [mkint eval map opval]. rewrite HJ, RF_ofZ. reflexivity.
  - destruct (String.eqb_spec s0 "zero") as [->|_]; cbn [andb]; [|split; reflexivity].
    destruct (sg_eqb toyg s (sg_int toyg 0)) eqn:Q; [|split; reflexivity]. apply sg_eqb_ok in Q. subst s. split; [reflexivity|]. cbn [mkint eval map opval]. rewrite HJ, RF_ofZ. reflexivity.
Qed.
Definition sound_b (g : gen toyg) : bool :=
  match table (smalls toyg ++ map norm (lg toyg (g_cse toyg g))) with Some _ => true | None => false end &&
  match table (g_told toyg g) with Some _ => true | None => false end.
Lemma self_sub : forall l (x : texp), In x l -> In x (flat_map subs l).
Proof. intros l x H. apply in_flat_map. exists x. split; [exact H|]. destruct x. left. reflexivity. Qed.
Lemma sound_b_ok : forall g, sound_b g = true -> forall I : interp RF, iother I = std_other -> sound toyg I g.
Proof.
  intros g H I HI J HJ. rewrite HI in HJ. unfold sound_b in H. apply andb_prop in H. destruct H as [H1 H2].
  destruct (table (smalls toyg ++ _)) as [d|] eqn:E1; [|discriminate]. destruct (table (g_told toyg g)) as [d2|] eqn:E2; [|discriminate]. apply table_ok in E1, E2. destruct E1 as [_ E1], E2 as [_ E2]. split.
  - assert (N : forall e, In e (smalls toyg ++ lg toyg (g_cse toyg g)) -> exists e', In e' (smalls toyg ++ map norm (lg toyg (g_cse toyg g))) /\ sig_of e' = sig_of e /\ eval J e' = eval J e).
    { intros e He. apply in_app_or in He. destruct He as [He|He]; [exists e; split; [apply in_or_app; left; exact He|auto]|]. exists (norm e). split; [apply in_or_app; right; apply in_map; exact He|]. apply norm_ok. exact HJ. }
    intros e1 e2 A1 A2 Q. destruct (N e1 A1) as (a & B1 & B2 & B3), (N e2 A2) as (b & C1 & C2 & C3). rewrite <- B3, <- C3. f_equal. apply E1; [apply self_sub; exact B1|apply self_sub; exact C1|congruence].
  - intros e1 e2 A1 A2 Q. rewrite (E2 e1 e2 A1 A2 Q). reflexivity.
Qed.
Definition unk : texp := mkvar "unknown" (toy_draw "unknown").
Definition declared_b (g : gen toyg) : bool := forallb (fun e => negb (existsb (String.eqb "unknown") (vars e))) (g_told toyg g).
Lemma declared_b_ok : forall g, declared_b g = true -> declared toyg unk g.
Proof.
  intros g H e v He Hv Q. unfold declared_b in H. rewrite forallb_forall in H. specialize (H e He). apply negb_true_iff in H. cbn in Hv. destruct Hv as [<-|[]].
  assert (existsb (String.eqb "unknown") (vars e) = true); [|congruence]. apply existsb_exists. exists "unknown"%string. split; [exact Q|reflexivity].
Qed.
Definition circuit_f (d ys : list texp) : bool :=
  forallb (arity_b toyg) d && forallb (wfe_b toyg) d && nodup_b toyg ys &&
  forallb (fun z => forallb (fun a => forallb (fun y => negb (sg_eqb toyg (sig_of a) (sig_of y))) ys) (args_of z)) d.
Lemma circuit_f_ok : forall ys d, table ys = Some d -> circuit_f d ys = true -> circuit ys.
Proof.
  intros ys d T H. apply table_ok in T. destruct T as [T1 T2]. unfold circuit_f in H. apply andb_prop in H. destruct H as [H H5]. apply andb_prop in H. destruct H as [H H4]. apply andb_prop in H. destruct H as [H2 H3].
  rewrite forallb_forall in H2, H3, H5. constructor.
  - exact T2.
  - intros a Ha. apply arity_b_ok. apply H2. apply T1. exact Ha.
  - intros a Ha. apply wfe_b_ok. apply H3. apply T1. exact Ha.
  - apply nodup_b_ok. exact H4.
  - intros z a Hz Ha Hy. specialize (H5 z (T1 _ Hz)). rewrite forallb_forall in H5. specialize (H5 a Ha). rewrite forallb_forall in H5. specialize (H5 a Hy).
    rewrite (proj2 (sg_eqb_ok toyg _ _) eq_refl) in H5. discriminate H5.
Qed.
Definition fields_f (d pxs : list texp) : bool :=
  forallb (fun z => match z with
    | E (OField f) [E (OCall g) [j] _] _ => String.eqb g "twiddle" || mem_b toyg z pxs
    | E (OField f) _ _ => mem_b toyg z pxs
    | _ => true end) d.
Lemma fields_f_ok : forall pxs pys d, table pys = Some d -> fields_f d pxs = true -> fields_ok toyg pxs pys.
Proof.
  intros pxs pys d T H z f Hz Oz. apply table_ok in T. destruct T as [T1 _]. unfold fields_f in H. rewrite forallb_forall in H. specialize (H z (T1 _ Hz)). destruct z as [o l s]. cbn in Oz. subst o.
  destruct l as [|[o l0 s0] [|? ?]]; try (left; apply (mem_b_ok toyg); exact H). destruct o; try (left; apply (mem_b_ok toyg); exact H). destruct l0 as [|j [|? ?]]; try (left; apply (mem_b_ok toyg); exact H).
  apply orb_prop in H. destruct H as [H|H]; [|left; apply (mem_b_ok toyg); exact H]. apply String.eqb_eq in H. subst f0. right. exists j, s0, s. reflexivity.
  left. apply (mem_b_ok toyg). destruct o; try exact H. destruct l0 as [|? [|? ?]]; exact H.
Qed.
Definition vars_f (names : list string) (d pxs : list texp) : bool :=
  forallb (fun z => match z with E (OVar v) _ _ => negb (existsb (String.eqb v) names) || mem_b toyg z pxs | _ => true end) d.
Lemma vars_f_ok : forall names pxs pys d, table pys = Some d -> vars_f names d pxs = true -> vars_ok toyg names pxs pys.
Proof.
  intros names pxs pys d T H z v Hz Oz Hv. apply table_ok in T. destruct T as [T1 _]. unfold vars_f in H. rewrite forallb_forall in H. specialize (H z (T1 _ Hz)). destruct z as [o l s]. cbn in Oz. subst o.
  apply orb_prop in H. destruct H as [H|H]; [|apply (mem_b_ok toyg); exact H]. apply negb_true_iff in H. assert (K : existsb (String.eqb v) names = true); [|congruence]. apply existsb_exists. exists v. split; [exact Hv|apply String.eqb_refl].
Qed.
Definition circuits_b (fuel : nat) (ok : list texp -> list texp -> bool) (g : gen toyg) : bool :=
  forallb (fun p => match table (snd p) with
    | Some d => circuit_f d (snd p) && apart_b toyg (fst p) (snd p) && ok d (fst p) && (length (nodes (snd p)) <=? fuel)%nat
    | None => false end) (g_diff toyg g).
Lemma circuits_fields : forall fuel g, circuits_b fuel fields_f g = true -> circuits toyg fuel (fields_ok toyg) g.
Proof.
  intros fuel g H pxs pys Hin. unfold circuits_b in H. rewrite forallb_forall in H. specialize (H _ Hin). cbn [fst snd] in H. destruct (table pys) as [d|] eqn:T; [|discriminate].
  apply andb_prop in H. destruct H as [H H4]. apply andb_prop in H. destruct H as [H H3]. apply andb_prop in H. destruct H as [H1 H2].
  split; [exact (circuit_f_ok pys d T H1)|]. split; [apply apart_b_ok; exact H2|]. split; [exact (fields_f_ok pxs pys d T H3)|apply Nat.leb_le; exact H4].
Qed.
Lemma circuits_vars : forall fuel names g, circuits_b fuel (vars_f names) g = true -> circuits toyg fuel (vars_ok toyg names) g.
Proof.
  intros fuel names g H pxs pys Hin. unfold circuits_b in H. rewrite forallb_forall in H. specialize (H _ Hin). cbn [fst snd] in H. destruct (table pys) as [d|] eqn:T; [|discriminate].
  apply andb_prop in H. destruct H as [H H4]. apply andb_prop in H. destruct H as [H H3]. apply andb_prop in H. destruct H as [H1 H2].
  split; [exact (circuit_f_ok pys d T H1)|]. split; [apply apart_b_ok; exact H2|]. split; [exact (vars_f_ok names pxs pys d T H3)|apply Nat.leb_le; exact H4].
Qed.
