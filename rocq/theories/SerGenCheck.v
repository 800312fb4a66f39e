(** A decision procedure for the condition on signatures of the series base cases: expressions are
    brought to the form p / (d x0^k), p a polynomial with integer coefficients, and compared.  Used to
    exhibit a concrete case. *)
From Coq Require Import String ZArith List Bool Lia Ring_theory Ring Field.
From Verif Require Import Base Field FPS ExpModel ExpProofs BlockProofs BaseGenModel GenCheck SerGenProofs.
Import ListNotations.
Open Scope Z_scope.

Definition poly : Type := list (list nat * Z).
Fixpoint meqb (a b : list nat) : bool := match a, b with [], [] => true | x :: s, y :: t => (x =? y)%nat && meqb s t | _, _ => false end.
Fixpoint madd (a b : list nat) : list nat := match a, b with [], _ => b | _, [] => a | x :: s, y :: t => (x + y)%nat :: madd s t end.
Fixpoint pins (m : list nat) (c : Z) (p : poly) : poly :=
  match p with
  | [] => if c =? 0 then [] else [(m, c)]
  | (n, d) :: t => if meqb m n then (if c + d =? 0 then t else (n, c + d) :: t) else (n, d) :: pins m c t
  end.
Definition padd (p q : poly) : poly := fold_right (fun x acc => pins (fst x) (snd x) acc) q p.
Definition pscale (m : list nat) (c : Z) (p : poly) : poly := map (fun x => (madd m (fst x), c * snd x)) p.
Definition pmul (p q : poly) : poly := fold_right (fun x acc => padd (pscale (fst x) (snd x) q) acc) [] p.
Record rat : Type := { r_num : poly; r_den : Z; r_pow : nat }.
Definition under (d : Z) (k : nat) : poly := [([k], d)].
Definition radd (s : Z) (a b : rat) : rat :=
  {| r_num := padd (pmul (under (r_den b) (r_pow b)) (r_num a)) (pmul (under (s * r_den a) (r_pow a)) (r_num b)); r_den := r_den a * r_den b; r_pow := (r_pow a + r_pow b)%nat |}.
Definition rmul (a b : rat) : rat := {| r_num := pmul (r_num a) (r_num b); r_den := r_den a * r_den b; r_pow := (r_pow a + r_pow b)%nat |}.
Definition rint (n : Z) : rat := {| r_num := pins [] n []; r_den := 1; r_pow := 0 |}.
Definition rinv (allow : bool) (a : rat) : option rat :=
  match r_num a with
  | [([], c)] => if c =? 0 then None else Some {| r_num := under (r_den a) (r_pow a); r_den := c; r_pow := 0 |}
  | [(j :: t, c)] => if (c =? 0) || negb (forallb (Nat.eqb 0) t) || (negb allow && negb (j =? 0)%nat) then None else Some {| r_num := under (r_den a) (r_pow a); r_den := c; r_pow := j |}
  | _ => None
  end.
(** Common factors of numerator and denominator are left out where that is easy. *)
Definition content (p : poly) (d : Z) : Z := fold_right (fun x g => Z.gcd (snd x) g) d p.
Definition low_pow (p : poly) (k : nat) : nat := fold_right (fun x j => Nat.min (hd 0%nat (fst x)) j) k p.
Definition tidy (a : rat) : rat :=
  let g := content (r_num a) (r_den a) in
  let j := low_pow (r_num a) (r_pow a) in
  let b := {| r_num := map (fun x => (match fst x with [] => [] | e :: t => (e - j)%nat :: t end, snd x / g)) (r_num a); r_den := r_den a / g; r_pow := (r_pow a - j)%nat |} in
  if forallb (fun x => snd x =? 0) (padd (pmul (under g j) (r_num b)) (map (fun x => (fst x, - snd x)) (r_num a))) && (g * r_den b =? r_den a) && (r_pow b + j =? r_pow a)%nat && negb (r_den b =? 0) then b else a.
Fixpoint index (v : string) (l : list string) : option nat := match l with [] => None | w :: t => if String.eqb v w then Some O else option_map S (index v t) end.
Definition unit_at (i : nat) : list nat := repeat 0%nat i ++ [1%nat].

Section Check.
Variables (G : SigOps) (allow : bool) (vs : list string).
Fixpoint nf (e : exp G) : option rat :=
  match e with
  | E o l _ =>
      match o, map nf l with
      | OVar v, [] => match index v vs with Some i => Some {| r_num := [(unit_at i, 1)]; r_den := 1; r_pow := 0 |} | None => None end
      | OInt n, [] => Some (rint n)
      | ONeg, [Some a] => Some (rmul (rint (-1)) a)
      | OAdd, [Some a; Some b] => Some (tidy (radd 1 a b))
      | OSub, [Some a; Some b] => Some (tidy (radd (-1) a b))
      | OMul, [Some a; Some b] => Some (tidy (rmul a b))
      | ODiv n, [Some a] => if n =? 0 then None else Some (tidy {| r_num := r_num a; r_den := r_den a * n; r_pow := r_pow a |})
      | OCall f, [Some a] => if String.eqb f "inv" then rinv allow a else None
      | _, _ => None
      end
  end.
Definition req (a b : rat) : bool :=
  forallb (fun x => snd x =? 0) (padd (pmul (under (r_den b) (r_pow b)) (r_num a)) (pmul (under (- r_den a) (r_pow a)) (r_num b))).
Definition same_b (l : list (exp G)) : bool :=
  let d := map (fun e => (sig_of e, nf e)) (dedup G l) in
  forallb (fun a => forallb (fun b => negb (sg_eqb G (fst a) (fst b)) || match snd a, snd b with Some p, Some q => req p q | _, _ => false end) d) d.
Definition clean_b (r : res (qst G)) : bool :=
  match r with Ok g => same_b (smalls G ++ lg G (q_cse G g)) && same_b (flat_map subs (q_asked G g)) | _ => false end.

(** ** Soundness *)
Variables (F : Fld) (J : interp F).
Add Field KFieldSC : (kfield F).
Fixpoint pw (x : F) (n : nat) : F := match n with O => k1 | S k => kmul x (pw x k) end.
Fixpoint mono (l : list F) (m : list nat) : F := match l, m with x :: l, e :: m => kmul (pw x e) (mono l m) | _, _ => k1 end.
Notation vals := (map (iv J) vs).
Notation x0 := (hd k1 vals).
Definition peval (p : poly) : F := fold_right (fun x acc => kadd (kmul (kofZ (snd x)) (mono vals (fst x))) acc) k0 p.
Lemma pw_add : forall x a b, pw x (a + b) = kmul (pw x a) (pw x b). Proof. intros x a b. induction a as [|a IH]; cbn; [ring|rewrite IH; ring]. Qed.
Lemma mono_add : forall l a b, mono l (madd a b) = kmul (mono l a) (mono l b).
Proof.
  intros l a. revert l. induction a as [|x a IH]; intros l b; [destruct l; cbn; ring|]. destruct b as [|y b]; [destruct l; cbn; ring|]. destruct l as [|v l]; cbn; [ring|]. rewrite pw_add, IH. ring.
Qed.
Lemma meqb_ok : forall a b, meqb a b = true -> a = b.
Proof. induction a as [|x a IH]; intros [|y b] H; try discriminate; [reflexivity|]. cbn in H. apply andb_prop in H. destruct H as [H1 H2]. apply Nat.eqb_eq in H1. f_equal; auto. Qed.
Lemma pins_ok : forall m c p, peval (pins m c p) = kadd (kmul (kofZ c) (mono vals m)) (peval p).
Proof.
  intros m c p. induction p as [|[n d] p IH]; cbn [pins].
  - destruct (Z.eqb_spec c 0) as [->|_]; [cbn; ring|reflexivity].
  - destruct (meqb m n) eqn:E.
    + apply meqb_ok in E. subst n. assert (K : kofZ (c + d) = kadd (kofZ c) (kofZ (F := F) d)) by apply kofZ_add. destruct (Z.eqb_spec (c + d) 0) as [Z0|_]; [rewrite Z0 in K|]; cbn [peval fold_right fst snd].
      * fold (peval p). change (@kofZ F 0) with (@k0 F) in K. transitivity (kadd (kmul (kadd (kofZ c) (kofZ d)) (mono vals m)) (peval p)); [rewrite <- K|]; ring.
      * fold (peval p). rewrite K. ring.
    + change (peval ((n, d) :: pins m c p)) with (kadd (kmul (kofZ d) (mono vals n)) (peval (pins m c p))). rewrite IH. cbn [peval fold_right fst snd]. fold (peval p). ring.
Qed.
Lemma padd_ok : forall p q, peval (padd p q) = kadd (peval p) (peval q).
Proof. intros p q. induction p as [|[m c] p IH]; cbn [padd fold_right]; [cbn; ring|]. fold (padd p q). rewrite pins_ok, IH. cbn [peval fold_right fst snd]. fold (peval p). ring. Qed.
Lemma pscale_ok : forall m c p, peval (pscale m c p) = kmul (kmul (kofZ c) (mono vals m)) (peval p).
Proof.
  intros m c p. induction p as [|[n d] p IH]; [cbn; ring|]. cbn [pscale map peval fold_right fst snd]. fold (pscale m c p). fold (peval (pscale m c p)). fold (peval p). rewrite IH, mono_add, kofZ_mul. ring.
Qed.
Lemma pmul_ok : forall p q, peval (pmul p q) = kmul (peval p) (peval q).
Proof. intros p q. induction p as [|[m c] p IH]; cbn [pmul fold_right]; [cbn; ring|]. fold (pmul p q). rewrite padd_ok, pscale_ok, IH. cbn [peval fold_right fst snd]. fold (peval p). ring. Qed.
Lemma kofZ_1 : kofZ (F := F) 1 = k1. Proof. cbn. apply kofnat_1. Qed.
Lemma kofZ_m1 : kofZ (F := F) (-1) = kopp k1. Proof. change (-1) with (Z.opp 1). rewrite kofZ_opp, kofZ_1. reflexivity. Qed.
Lemma mono_head : forall k, vs <> [] -> mono vals [k] = pw x0 k.
Proof. intros k H. destruct vs as [|v t]; [contradiction|]. cbn [map mono hd]. destruct (map (iv J) t); cbn [mono]; ring. Qed.
Lemma under_ok : forall d k, vs <> [] -> peval (under d k) = kmul (kofZ d) (pw x0 k).
Proof. intros d k H. unfold under. cbn [peval fold_right fst snd]. rewrite mono_head by exact H. ring. Qed.
Lemma zeros_ok : forall p, forallb (fun x => snd x =? 0) p = true -> peval p = k0.
Proof.
  induction p as [|[m c] p IH]; intros H; [reflexivity|]. cbn in H. apply andb_prop in H. destruct H as [H1 H2]. apply Z.eqb_eq in H1. subst c. cbn [peval fold_right fst snd]. fold (peval p). rewrite IH by exact H2. change (kofZ (F := F) 0) with (@k0 F). ring.
Qed.
Lemma pneg_ok : forall p, peval (map (fun x => (fst x, - snd x)) p) = kopp (peval p).
Proof. induction p as [|[m c] p IH]; cbn [map peval fold_right fst snd]; [ring|]. fold (peval (map (fun x => (fst x, - snd x)) p)). fold (peval p). rewrite IH, kofZ_opp. ring. Qed.
Hypothesis Hvs : vs <> [].
Hypothesis Hinv : inverts F J.
Hypothesis Hallow : allow = true -> x0 <> k0.
(** v = num / (den x0^pow). *)
Definition is_rat (v : F) (a : rat) : Prop := r_den a <> 0 /\ pw x0 (r_pow a) <> k0 /\ kmul v (kmul (kofZ (r_den a)) (pw x0 (r_pow a))) = peval (r_num a).
Lemma nz_mul : forall a b : F, a <> k0 -> b <> k0 -> kmul a b <> k0.
Proof. intros a b Ha Hb H. apply Hb. transitivity (kmul (kinv a) (kmul a b)); [field; exact Ha|rewrite H; ring]. Qed.
Lemma pw_nz : forall (x : F) n, x <> k0 -> pw x n <> k0. Proof. intros x n Hx. induction n; cbn; [apply (F_1_neq_0 (kfield F))|apply nz_mul; assumption]. Qed.
Lemma mul_cancel : forall a b c : F, c <> k0 -> kmul a c = kmul b c -> a = b.
Proof. intros a b c Hc H. transitivity (kmul (kmul a c) (kinv c)); [field; exact Hc|rewrite H; field; exact Hc]. Qed.
Lemma rint_ok : forall n, is_rat (kofZ n) (rint n).
Proof.
  intros n. unfold rint. split; [cbn; lia|]. split; [cbn [pw r_pow]; apply (F_1_neq_0 (kfield F))|]. cbn [r_num r_den r_pow pw]. rewrite pins_ok, kofZ_1. cbn [peval fold_right]. assert (M1 : mono vals [] = k1) by (destruct vals; reflexivity). rewrite M1. ring.
Qed.
Lemma rmul_ok : forall u v a b, is_rat u a -> is_rat v b -> is_rat (kmul u v) (rmul a b).
Proof.
  intros u v a b (A1 & A2 & A3) (B1 & B2 & B3). unfold is_rat, rmul. cbn [r_num r_den r_pow]. rewrite pw_add, pmul_ok, kofZ_mul, <- A3, <- B3. split; [nia|]. split; [apply nz_mul; assumption|ring].
Qed.
Lemma radd_ok : forall s u v a b, is_rat u a -> is_rat v b -> is_rat (kadd u (kmul (kofZ s) v)) (radd s a b).
Proof.
  intros s u v a b (A1 & A2 & A3) (B1 & B2 & B3). unfold is_rat, radd. cbn [r_num r_den r_pow]. rewrite pw_add, padd_ok, !pmul_ok, !under_ok, !kofZ_mul, <- A3, <- B3 by exact Hvs. split; [nia|]. split; [apply nz_mul; assumption|ring].
Qed.
Lemma tidy_ok : forall v a, is_rat v a -> is_rat v (tidy a).
Proof.
  intros v a Ha. unfold tidy. set (g := content _ _). set (j := low_pow _ _). set (b := {| r_num := _ |}). clearbody g j b. destruct (_ && _ && _ && _) eqn:E; [|exact Ha].
  apply andb_prop in E. destruct E as [E E4]. apply andb_prop in E. destruct E as [E E3]. apply andb_prop in E. destruct E as [E1 E2]. apply zeros_ok in E1. apply Z.eqb_eq in E2. apply Nat.eqb_eq in E3. apply negb_true_iff in E4. apply Z.eqb_neq in E4.
  rewrite padd_ok, pmul_ok, under_ok, pneg_ok in E1 by exact Hvs. destruct Ha as (A1 & A2 & A3). rewrite <- E2 in A1. rewrite <- E3, pw_add in A2. rewrite <- E2, <- E3, pw_add, kofZ_mul in A3.
  assert (G0 : kofZ (F := F) g <> k0) by (apply kofZ_nz; intros ->; lia). assert (J0 : pw x0 j <> k0) by (intros H; apply A2; rewrite H; ring). assert (B0 : pw x0 (r_pow b) <> k0) by (intros H; apply A2; rewrite H; ring).
  split; [exact E4|]. split; [exact B0|]. apply (mul_cancel _ _ (kmul (kofZ g) (pw x0 j))); [apply nz_mul; assumption|].
  transitivity (peval (r_num a)); [rewrite <- A3; ring|]. transitivity (kadd (peval (r_num a)) k0); [ring|]. rewrite <- E1. ring.
Qed.
Lemma rinv_ok : forall v a b, is_rat v a -> rinv allow a = Some b -> is_rat (kinv v) b.
Proof.
  intros v a b (A1 & A2 & A3) H. unfold rinv in H.
  assert (M0 : forall t, forallb (Nat.eqb 0) t = true -> forall l, mono l t = k1).
  { induction t as [|e t IH]; intros Ht l; [destruct l; reflexivity|]. cbn [forallb] in Ht. apply andb_prop in Ht. destruct Ht as [T1 T2]. apply Nat.eqb_eq in T1. subst e. destruct l as [|x l]; [reflexivity|]. cbn [mono pw]. rewrite IH by exact T2. ring. }
  assert (K : exists j c, b = {| r_num := under (r_den a) (r_pow a); r_den := c; r_pow := j |} /\ c <> 0 /\ pw x0 j <> k0 /\ peval (r_num a) = kmul (kofZ c) (pw x0 j)).
  { destruct (r_num a) as [|[m c] [|q p]]; try discriminate; [destruct m as [|j t]|destruct m; discriminate].
    - destruct (Z.eqb_spec c 0); [discriminate|]. injection H as <-. exists 0%nat, c. split; [reflexivity|]. split; [assumption|]. split; [apply (F_1_neq_0 (kfield F))|]. cbn [peval fold_right fst snd pw]. rewrite M0 by reflexivity. ring.
    - destruct ((c =? 0) || negb (forallb (Nat.eqb 0) t) || (negb allow && negb (j =? 0)%nat)) eqn:E; [discriminate|]. injection H as <-. apply orb_false_elim in E. destruct E as [E E3]. apply orb_false_elim in E. destruct E as [E1 E2]. apply Z.eqb_neq in E1. apply negb_false_iff in E2.
      exists j, c. split; [reflexivity|]. split; [assumption|]. split.
      + destruct allow eqn:Al; cbn in E3; [apply pw_nz, (Hallow eq_refl)|]. apply negb_false_iff, Nat.eqb_eq in E3. subst j. apply (F_1_neq_0 (kfield F)).
      + cbn [peval fold_right fst snd]. clear - Hvs M0 E2. destruct vs as [|v0 vt]; [contradiction|]. cbn [map mono hd]. rewrite M0 by exact E2. ring. }
  destruct K as (j & c & -> & Hc & Hj & Hp). rewrite Hp in A3.
  assert (C0 : kofZ (F := F) c <> k0) by (apply kofZ_nz; exact Hc). assert (D0 : kofZ (F := F) (r_den a) <> k0) by (apply kofZ_nz; exact A1).
  assert (V0 : v <> k0). { intros ->. apply (nz_mul _ _ C0 Hj). rewrite <- A3. ring. }
  split; [exact Hc|]. split; [exact Hj|]. cbn [r_num r_den r_pow]. rewrite under_ok by exact Hvs. rewrite <- A3. field. exact V0.
Qed.
Lemma index_ok : forall v l i, index v l = Some i -> mono (map (iv J) l) (unit_at i) = iv J v.
Proof.
  intros v l. induction l as [|w l IH]; intros i H; cbn [index] in H; [discriminate|]. destruct (String.eqb_spec v w) as [->|_].
  - injection H as <-. cbn. destruct (map (iv J) l); cbn; ring.
  - destruct (index v l) as [k|]; [|discriminate]. injection H as <-. unfold unit_at. cbn [repeat app map mono pw]. fold (unit_at k). rewrite (IH k eq_refl). ring.
Qed.
Lemma nf_ok : forall e r, nf e = Some r -> is_rat (eval J e) r.
Proof.
  induction e as [o l s IH] using exp_ind'. intros r H. cbn [nf] in H. cbn [eval].
  assert (A : forall a ra, l = [a] -> nf a = Some ra -> is_rat (eval J a) ra) by (intros a ra -> Ha; inversion IH; subst; auto).
  destruct o; try (destruct (map nf l); discriminate).
  - destruct l as [|a l]; [|discriminate]. cbn [map] in *. destruct (index v vs) as [i|] eqn:E; [|discriminate]. injection H as <-. split; [cbn; lia|]. split; [apply (F_1_neq_0 (kfield F))|]. cbn [r_num r_den r_pow peval fold_right fst snd pw opval].
    rewrite (index_ok _ _ _ E), kofZ_1. ring.
  - destruct l as [|a l]; [|discriminate]. injection H as <-. apply rint_ok.
  - destruct l as [|a [|b l]]; cbn [map] in *; try discriminate; destruct (nf a) as [ra|] eqn:Ea; try discriminate. injection H as <-. cbn [opval].
    replace (kopp (eval J a)) with (kmul (kofZ (-1)) (eval J a)) by (rewrite kofZ_m1; ring). apply rmul_ok; [apply rint_ok|apply (A a ra eq_refl Ea)].
  - destruct l as [|a [|b [|c l]]]; cbn [map] in *; try discriminate; destruct (nf a) as [ra|] eqn:Ea; try discriminate; destruct (nf b) as [rb|] eqn:Eb; try discriminate. injection H as <-. cbn [opval]. inversion IH as [|? ? H1 H2]; subst. inversion H2 as [|? ? H3 _]; subst.
    apply tidy_ok. replace (kadd (eval J a) (eval J b)) with (kadd (eval J a) (kmul (kofZ 1) (eval J b))) by (rewrite kofZ_1; ring). apply radd_ok; auto.
  - destruct l as [|a [|b [|c l]]]; cbn [map] in *; try discriminate; destruct (nf a) as [ra|] eqn:Ea; try discriminate; destruct (nf b) as [rb|] eqn:Eb; try discriminate. injection H as <-. cbn [opval]. inversion IH as [|? ? H1 H2]; subst. inversion H2 as [|? ? H3 _]; subst.
    apply tidy_ok. replace (ksub (eval J a) (eval J b)) with (kadd (eval J a) (kmul (kofZ (-1)) (eval J b))) by (rewrite kofZ_m1; ring). apply radd_ok; auto.
  - destruct l as [|a [|b [|c l]]]; cbn [map] in *; try discriminate; destruct (nf a) as [ra|] eqn:Ea; try discriminate; destruct (nf b) as [rb|] eqn:Eb; try discriminate. injection H as <-. cbn [opval]. inversion IH as [|? ? H1 H2]; subst. inversion H2 as [|? ? H3 _]; subst.
    apply tidy_ok. apply rmul_ok; auto.
  - destruct l as [|b [|c l]]; cbn [map] in *; try discriminate; destruct (nf b) as [ra|] eqn:Ea; try discriminate. destruct (Z.eqb_spec a 0) as [|Na]; [discriminate|]. injection H as <-. cbn [opval]. apply tidy_ok. destruct (A b ra eq_refl Ea) as (A1 & A2 & A3).
    split; [cbn; nia|]. split; [exact A2|]. cbn [r_num r_den r_pow]. rewrite <- A3, kofZ_mul. field. apply kofZ_nz, Na.
  - destruct l as [|b [|c l]]; cbn [map] in *; try discriminate; destruct (nf b) as [ra|] eqn:Ea; try discriminate. destruct (String.eqb_spec f "inv") as [->|]; [|discriminate]. cbn [opval]. rewrite Hinv. apply (rinv_ok _ ra); [apply (A b ra eq_refl Ea)|exact H].
Qed.
Lemma req_ok : forall u v a b, is_rat u a -> is_rat v b -> req a b = true -> u = v.
Proof.
  intros u v a b (A1 & A2 & A3) (B1 & B2 & B3) H. unfold req in H. apply zeros_ok in H. rewrite padd_ok, !pmul_ok, !under_ok, kofZ_opp, <- A3, <- B3 in H by exact Hvs.
  assert (A0 : kofZ (F := F) (r_den a) <> k0) by (apply kofZ_nz; exact A1). assert (B0 : kofZ (F := F) (r_den b) <> k0) by (apply kofZ_nz; exact B1).
  apply (mul_cancel _ _ (kmul (kmul (kofZ (r_den a)) (pw x0 (r_pow a))) (kmul (kofZ (r_den b)) (pw x0 (r_pow b))))); [repeat apply nz_mul; assumption|].
  match type of H with kadd ?p ?q = _ => transitivity (kadd p (kadd q (kmul v (kmul (kmul (kofZ (r_den a)) (pw x0 (r_pow a))) (kmul (kofZ (r_den b)) (pw x0 (r_pow b))))))); [ring|] end.
  match goal with |- kadd ?p (kadd ?q ?r) = _ => transitivity (kadd (kadd p q) r); [ring|rewrite H; ring] end.
Qed.
Lemma same_b_ok : forall l, same_b l = true -> forall a b, In a l -> In b l -> sig_of a = sig_of b -> eval J a = eval J b.
Proof.
  intros l H a b Ha Hb Q. unfold same_b in H. rewrite forallb_forall in H. specialize (H _ (in_map (fun e => (sig_of e, nf e)) _ _ (dedup_in G l a Ha))). rewrite forallb_forall in H. specialize (H _ (in_map (fun e => (sig_of e, nf e)) _ _ (dedup_in G l b Hb))).
  cbn [fst snd] in H. apply sg_eqb_ok in Q. rewrite Q in H. cbn [negb orb] in H. destruct (nf a) as [ra|] eqn:Ea; [|discriminate]. destruct (nf b) as [rb|] eqn:Eb; [|discriminate]. apply (req_ok _ _ ra rb); [apply nf_ok, Ea|apply nf_ok, Eb|exact H].
Qed.
End Check.
Lemma clean_b_ok : forall (G : SigOps) allow v vs r, clean_b G allow (v :: vs) r = true ->
  exists g, r = Ok g /\ forall F, clean_on F G (fun J => inverts F J /\ (allow = true -> iv J v <> k0)) g.
Proof.
  unfold clean_b. intros G allow v vs [g| |] H; [|discriminate H|discriminate H]. apply andb_prop in H. destruct H as [H1 H2]. exists g. split; [reflexivity|]. intros F J [HJ HA].
  split; intros a b Ha Hb E; [exact (same_b_ok G allow (v :: vs) F J ltac:(discriminate) HJ HA _ H1 a b Ha Hb E)|exact (same_b_ok G allow (v :: vs) F J ltac:(discriminate) HJ HA _ H2 a b Ha Hb E)].
Qed.
