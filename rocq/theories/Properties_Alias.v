(** C24: aliased destinations.  Operations run over a shared heap (AliasModel.v); [oval] and
    [vval] read an object or a view off the heap, [den] is its power series (SeriesSpec.v). *)
From Coq Require Import ZArith List Bool Arith Lia Permutation.
From Verif Require Import Base Field FieldInst FPS SeriesModel SeriesSpec SeriesProofs SeriesExtra CodeletModel CodeletProofs
  SeriesExamples AliasModel AliasProofs.
Import ListNotations.
Open Scope Z_scope.

(** Every loop visits each index exactly once, in any order. *)
Definition any_order (ord : nat -> list nat) : Prop := forall n, Permutation (ord n) (seq 0 n).
(** The operation succeeded on destination y: y still owns its buffer, which kept its size,
    no other existing buffer changed, and the new value of y is described by P. *)
Definition gives {F : Fld} (h : heap F) (y : obj) (r : res (heap F * obj)) (P : series F -> Prop) : Prop :=
  exists h' y', r = Ok (h', y') /\ obuf y' = obuf y /\ olimit F h' y' = olimit F h y /\
    (forall b, (b < length h)%nat -> b <> obuf y -> getb F h' b = getb F h b) /\ P (oval F h' y').
(** The view lies in the heap. *)
Definition in_heap {F : Fld} (h : heap F) (x : vw) : Prop :=
  forall b off, vptr x = Some (b, off) -> (b < length h)%nat.
(** The view, if in y's buffer, starts where the buffer does (x is y, y.view() or y.low(n)). *)
Definition same_start (x : vw) (y : obj) : Prop := forall off, vptr x = Some (obuf y, off) -> off = O.
(** The view is in another buffer. *)
Definition elsewhere (x : vw) (y : obj) : Prop := forall b off, vptr x = Some (b, off) -> b <> obuf y.

Section L.
Variable F : Fld.
Lemma Rown_val : forall (h : heap F) y, (obuf y < length h)%nat -> Rown F h y (oval F h y).
Proof. intros h y H. repeat split; auto. Qed.
Lemma Rview_val : forall (h : heap F) x, in_heap h x -> Rview F h x (vval F h x).
Proof. intros h x H. split; [exact H|]. split; [apply pre_refl|]. auto. Qed.
Lemma sim_gives : forall (h : heap F) y r Y' (P : series F -> Prop), sim F h y r Y' ->
  limit Y' = limit (oval F h y) -> P Y' -> gives h y r P.
Proof.
  intros h y r Y' P (h' & y' & E & (B & C & K & N) & O & (L & A)) HL HP. exists h', y'. split; [exact E|]. split; [exact O|].
  assert (EY : oval F h' y' = Y') by (unfold oval; rewrite C, K, N; destruct Y'; reflexivity).
  split; [|split; [exact A|rewrite EY; exact HP]].
  replace (olimit F h' y') with (limit (oval F h' y')) by reflexivity.
  replace (olimit F h y) with (limit (oval F h y)) by reflexivity. rewrite EY. exact HL.
Qed.
Lemma fresh_same : forall ord x y, same_start x y -> fresh_read ord x (obuf y).
Proof. intros ord x y H off E. left. exact (H off E). Qed.
Lemma fresh_host : forall x b, fresh_read (seq 0) x b.
Proof. intros x b off E. right. reflexivity. Qed.
Lemma host_perm : any_order (seq 0). Proof. intro n. apply Permutation_refl. Qed.

(** The base cases look only at the stored terms they are given. *)
Lemma simple_mono : base_mono F (inv_base (simple_bases F)) /\ base_mono F (exp_base (simple_bases F)).
Proof.
  split; intros y x x' r P K N E; cbn [inv_base exp_base simple_bases] in *; unfold simple_inv_base, simple_exp_base in *;
    rewrite N; destruct (set_counts F y 1 1) as [y1| |]; try discriminate; cbn [bind] in *;
    (destruct (nonzero x =? 0); [exact E|]); destruct (rd F (cells x) 0) as [v| |] eqn:Ev; try discriminate;
    rewrite (rd_pre F _ _ _ _ P Ev); exact E.
Qed.
Lemma read_ext_pre : forall x x' cnt leading i vs, pre F (cells x) (cells x') -> nonzero x' = nonzero x ->
  read_ext F leading cnt i x = Ok vs -> read_ext F leading cnt i x' = Ok vs.
Proof.
  intros x x'. induction cnt as [|c IH]; intros leading i vs P N E; cbn [read_ext] in *; [exact E|].
  rewrite N. destruct leading as [|l].
  - destruct (i <? to_i32 (nonzero x)).
    + destruct (rd F (cells x) i) as [v| |] eqn:Ev; try discriminate. rewrite (rd_pre F _ _ _ _ P Ev). cbn [bind pred] in *.
      destruct (read_ext F 0 c (i + 1) x) as [us| |] eqn:Eu; try discriminate. rewrite (IH _ _ us P N Eu). exact E.
    + cbn [bind pred] in *. destruct (read_ext F 0 c (i + 1) x) as [us| |] eqn:Eu; try discriminate. rewrite (IH _ _ us P N Eu). exact E.
  - cbn [bind pred] in *. destruct (read_ext F l c (i + 1) x) as [us| |] eqn:Eu; try discriminate. rewrite (IH _ _ us P N Eu). exact E.
Qed.
Lemma gen_base_mono : forall leading fn, base_mono F (gen_base F leading fn).
Proof.
  intros leading fn y x x' r P K N E. unfold gen_base in *. rewrite K. cbv zeta in *.
  destruct (set_counts F y _ _) as [y1| |]; try discriminate. cbn [bind] in *.
  destruct (_ =? 0); [exact E|].
  destruct (read_ext F leading (Z.to_nat base_n) 0 x) as [xs| |] eqn:Ex; try discriminate.
  rewrite (read_ext_pre _ _ _ _ _ _ P N Ex). exact E.
Qed.
End L.

(** ** Operations that allow aliasing *)
(** mul and sqr: x and y may overlap the destination, and each other, in any way. *)
Theorem C24_mul : forall (F : Fld) (kern : kernel F) (h : heap F) (z : obj) (x y : vw), kernel_ok kern ->
  (obuf z < length h)%nat -> in_heap h x -> in_heap h y ->
  valid (vval F h x) -> valid (vval F h y) -> Z.min (vknown x) (vknown y) <= 2 ^ 28 ->
  (0 < vnonzero x /\ 0 < vnonzero y) \/ vnonzero x + vnonzero y <= 1 \/ vknown x = 0 \/ vknown y = 0 ->
  Z.min (Z.min (vknown x) (vknown y)) (Z.max (vnonzero x + vnonzero y - 1) 0) <= olimit F h z ->
  gives h z (h_mul F kern h z x y) (fun v => valid v /\ known v = Z.min (vknown x) (vknown y) /\
    forall i, Z.of_nat i < Z.min (vknown x) (vknown y) -> den v i = fmul (den (vval F h x)) (den (vval F h y)) i).
Proof.
  intros F kern h z x y HK Hz Hx Hy Vx Vy Hs Hb Hl.
  destruct (set_mul_ok F kern HK (oval F h z) (vval F h x) (vval F h y) Vx Vy Hs Hb Hl) as (z' & E & V & K & L & N & D).
  eapply sim_gives; [eapply mul_sim; [apply Rown_val|apply Rview_val|apply Rview_val|exact E]; auto|exact L|].
  split; [exact V|]. split; [exact K|]. intros i Hi. apply D. cbn [known vval] in *. lia.
Qed.
Print Assumptions C24_mul.
Theorem C24_sqr : forall (F : Fld) (kern : kernel F) (h : heap F) (y : obj) (x : vw), kernel_ok kern ->
  (obuf y < length h)%nat -> in_heap h x -> valid (vval F h x) -> vknown x <= 2 ^ 28 ->
  Z.min (vknown x) (Z.max (2 * vnonzero x - 1) 0) <= olimit F h y ->
  gives h y (h_sqr F kern h y x) (fun v => valid v /\ known v = vknown x /\
    forall i, Z.of_nat i < vknown x -> den v i = fmul (den (vval F h x)) (den (vval F h x)) i).
Proof.
  intros F kern h y x HK Hy Hx Vx Hs Hl.
  destruct (set_sqr_ok F kern HK (oval F h y) (vval F h x) Vx Hs Hl) as (y' & E & V & K & L & N & D).
  eapply sim_gives; [eapply sqr_sim; [apply Rown_val|apply Rview_val|exact E]; auto|exact L|].
  split; [exact V|]. split; [exact K|]. intros i Hi. apply D. cbn [known vval] in *. lia.
Qed.
Print Assumptions C24_sqr.
(** mul1p: y may overlap z in any way; x may be z itself (any loop order) or, with the
    ascending loops of the host, any view of z. *)
Theorem C24_mul1p : forall (F : Fld) (kern : kernel F) (ord : nat -> list nat) (h : heap F) (z : obj) (x y : vw) (s : Z),
  kernel_ok kern -> any_order ord -> (same_start x z \/ ord = seq 0) ->
  (obuf z < length h)%nat -> in_heap h x -> in_heap h y -> valid (vval F h x) -> valid (vval F h y) ->
  0 < s -> Z.min (vknown x) (vknown y + s) <= 2 ^ 28 -> vnonzero x <= 2 ^ 28 ->
  (0 < vnonzero x /\ 0 < vnonzero y) \/ Z.min (vknown x) (vknown y + s) <= s \/ vnonzero x + vnonzero y <= 1 ->
  Z.min (Z.min (vknown x) (vknown y + s)) (vnonzero x + vnonzero y + s - 1) <= olimit F h z ->
  gives h z (h_mul1p F kern ord h z x y s) (fun v => valid v /\ known v = Z.min (vknown x) (vknown y + s) /\
    forall i, Z.of_nat i < Z.min (vknown x) (vknown y + s) ->
      den v i = fmul (den (vval F h x)) (fadd f1 (fshift (Z.to_nat s) (den (vval F h y)))) i).
Proof.
  intros F kern ord h z x y s HK Ho Hs1 Hz Hx Hy Vx Vy Hs Hn Hn2 Hb Hl.
  destruct (set_mul1p_ok F kern HK (oval F h z) (vval F h x) (vval F h y) s Vx Vy Hn Hn2 Hs Hb Hl) as (z' & E & V & K & L & N & D).
  assert (Hf : fresh_read ord x (obuf z)) by (destruct Hs1 as [H|H]; [apply fresh_same; exact H|subst ord; apply fresh_host]).
  eapply sim_gives; [eapply mul1p_sim; [exact Ho|apply Rown_val|apply Rview_val|apply Rview_val|exact Hf|exact E]; auto|exact L|].
  split; [exact V|]. split; [exact K|]. intros i Hi. apply D. cbn [known vval] in *. lia.
Qed.
Print Assumptions C24_mul1p.
(** neg, ldexp, derivative_shift, integral_shift. *)
Definition maps {F : Fld} (h : heap F) (y : obj) (x : vw) (r : res (heap F * obj)) (f : nat -> K F) : Prop :=
  gives h y r (fun v => valid v /\ known v = vknown x /\ nonzero v = vnonzero x /\ forall i, den v i = f i).
Theorem C24_elementwise : forall (F : Fld) (ord : nat -> list nat) (h : heap F) (y : obj) (x : vw) (k s : Z),
  any_order ord -> (same_start x y \/ ord = seq 0) ->
  (obuf y < length h)%nat -> in_heap h x -> valid (vval F h x) -> vnonzero x <= olimit F h y ->
  vknown x <= 2 ^ 28 -> 0 <= s <= 2 ^ 28 ->
  maps h y x (h_neg F ord h y x) (fun i => kopp (den (vval F h x) i)) /\
  maps h y x (h_ldexp F ord h y x k) (fun i => kmul (kpow2 k) (den (vval F h x) i)) /\
  maps h y x (h_derivative_shift F ord h y x s) (fun i => kmul (kofZ (s + Z.of_nat i)) (den (vval F h x) i)) /\
  maps h y x (h_integral_shift F ord h y x s)
    (fun i => if s + Z.of_nat i =? 0 then k0 else kdiv (den (vval F h x) i) (kofZ (s + Z.of_nat i))).
Proof.
  intros F ord h y x k s Ho Hs1 Hy Hx Vx Hl Hk Hs.
  assert (Hf : fresh_read ord x (obuf y)) by (destruct Hs1 as [H|H]; [apply fresh_same; exact H|subst ord; apply fresh_host]).
  destruct (set_neg_ok F (oval F h y) (vval F h x) Vx Hl Hk) as (a & A1 & A2 & A3 & A4 & A5 & A6).
  destruct (set_ldexp_ok F (oval F h y) (vval F h x) k Vx Hl Hk) as (b & B1 & B2 & B3 & B4 & B5 & B6).
  destruct (set_derivative_shift_ok F (oval F h y) (vval F h x) s Vx Hl Hk (proj1 Hs) (proj2 Hs)) as (c & C1 & C2 & C3 & C4 & C5 & C6).
  destruct (set_integral_shift_ok F (oval F h y) (vval F h x) s Vx Hl Hk (proj1 Hs) (proj2 Hs)) as (d & D1 & D2 & D3 & D4 & D5 & D6).
  pose proof (Rown_val F h y Hy) as RY. pose proof (Rview_val F h x Hx) as RX.
  split; [|split; [|split]]; (eapply sim_gives; [eapply map_sim; [exact Ho|exact RY|exact RX|exact Hf|eassumption]|assumption|auto]).
Qed.
Print Assumptions C24_elementwise.
(** On a device the same operations on a view that starts inside the destination, but not at
    its start, can read cells already overwritten (the documentation promises only y = x). *)
Definition descending (n : nat) : list nat := rev (seq 0 n).
Definition two_cells : heap QcF := [map (fun a => Some (q a 1)) [1; 2; 3; 4]].
Definition obj_obs (r : res (heap QcF * obj)) := obs (bind r (fun p => Ok (oval QcF (fst p) (snd p)))).
Theorem C24_shifted_view_refuted : exists (ord : nat -> list nat) (h : heap QcF) (y : obj) (x : vw),
  any_order ord /\ (obuf y < length h)%nat /\ in_heap h x /\ valid (vval QcF h x) /\ vnonzero x <= olimit QcF h y /\
  x = vhigh (oview y) 1 /\
  ~ maps h y x (h_neg QcF ord h y x) (fun i => kopp (den (vval QcF h x) i)).
Proof.
  exists descending, two_cells, (mkO 0 4 4), (vhigh (oview (mkO 0 4 4)) 1).
  split; [intro n; apply Permutation_sym, Permutation_rev|]. split; [cbn; lia|].
  split; [intros b off E; injection E as <- <-; cbn; lia|]. split.
  { split; [vm_compute; discriminate|]. split; [vm_compute; discriminate|]. split; [vm_compute; discriminate|]. intros i Hi.
    change (Z.of_nat i < 3) in Hi. repeat (first [lia | destruct i as [|i]; [eexists; reflexivity|]]). }
  split; [vm_compute; discriminate|]. split; [reflexivity|].
  intros (h' & y' & E & _ & _ & _ & _ & _ & _ & D). specialize (D O).
  assert (V : forall r, r = Ok (h', y') ->
     match r with Ok p => Qcanon.this (den (oval QcF (fst p) (snd p)) O) | _ => QArith_base.Qmake 0 1 end = Qcanon.this (den (oval QcF h' y') O)).
  { intros r ->. reflexivity. }
  specialize (V _ E). rewrite D in V. vm_compute in V. discriminate V.
Qed.
Print Assumptions C24_shifted_view_refuted.
(** Plain assignment of a series to itself is outside std::copy's contract (cutil.h:97). *)
Theorem C24_self_assignment_refuted : forall (F : Fld) (h : heap F) (y : obj) (n : Z),
  valid (oval F h y) -> 0 < n -> 0 < ononzero y -> h_assign F h y (vlow (oview y) n) = UB.
Proof.
  intros F h y n (V0 & V1 & V2 & V3) Hn Hz. unfold h_assign, vlow. cbv zeta. cbn [vptr vknown vnonzero oview].
  unfold oval, limit in *. cbn [known nonzero cells] in *. unfold olimit.
  set (nz := Z.min (Z.min (relu n) (oknown y)) (ononzero y)).
  assert (Hnz : 0 < nz <= ononzero y) by (unfold nz, relu; lia).
  destruct (Z.leb_spec nz (Z.of_nat (length (getb F h (obuf y))))); [|lia]. cbn [slow_assert bind].
  destruct (Z.eqb_spec nz 0); [lia|].
  destruct (read_cells_ok F (Z.to_nat nz) (vcells F h (mkV (Some (obuf y, O)) (Z.min (relu n) (oknown y)) nz))) as (vs & E & _).
  { intros j Hj. apply V3. lia. }
  rewrite E. cbn [bind]. rewrite Nat.eqb_refl. destruct (Z.ltb_spec 0 nz); [reflexivity|lia].
Qed.
Print Assumptions C24_self_assignment_refuted.

(** ** Operations that forbid aliasing *)
(** The check recognises exactly the views into the destination's buffer. *)
Theorem C24_alias_exact : forall (F : Fld) (h : heap F) (y : obj) (x : vw),
  (alias F h y x = true <-> exists off, vptr x = Some (obuf y, off) /\ Z.of_nat off < olimit F h y) /\
  (0 < ononzero y <= olimit F h y -> alias F h y (oview y) = true) /\
  (forall n, 0 < n -> 0 < ononzero y <= olimit F h y -> ononzero y <= oknown y -> alias F h y (vlow (oview y) n) = true) /\
  (forall n, 0 <= n < ononzero y -> ononzero y <= olimit F h y -> alias F h y (vhigh (oview y) n) = true).
Proof.
  intros F h y x.
  assert (G : forall x, alias F h y x = true <-> exists off, vptr x = Some (obuf y, off) /\ Z.of_nat off < olimit F h y).
  { clear x. intro x. unfold alias, olimit. destruct (vptr x) as [[b off]|].
    - rewrite andb_true_iff, Nat.eqb_eq, Nat.ltb_lt. split.
      + intros (-> & L). exists off. split; [reflexivity|lia].
      + intros (o & E & L). injection E as -> ->. split; [reflexivity|lia].
    - split; [discriminate|]. intros (o & E & _). discriminate. }
  split; [apply G|]. split; [|split].
  - intros H. apply G. exists O. split; [reflexivity|lia].
  - intros n Hn H Hk. apply G. exists O. split; [|lia]. unfold vlow. cbn [vptr oview vknown vnonzero].
    destruct (Z.eqb_spec (Z.min (Z.min (relu n) (oknown y)) (ononzero y)) 0); [unfold relu in *; lia|reflexivity].
  - intros n Hn H. apply G. exists (Z.to_nat n). split; [|lia]. unfold vhigh. cbn [vptr oview vknown vnonzero].
    replace (relu n) with n by (unfold relu; lia).
    destruct (Z.eqb_spec (relu (ononzero y - n)) 0); [unfold relu in *; lia|reflexivity].
Qed.
Print Assumptions C24_alias_exact.
Theorem C24_rejects : forall (F : Fld) (kern : kernel F) (base : bases F) (ord : nat -> list nat) (h : heap F) (y : obj) (x : vw),
  alias F h y x = true ->
  (forall sign b s, h_high_addsub_ldexp F ord h y sign b s x = Throw) /\
  (forall w, h_div F kern base ord h y x w = Throw /\ h_div F kern base ord h y w x = Throw) /\
  (forall w s, h_div1p F kern ord h y x w s = Throw /\ h_div1p F kern ord h y w x s = Throw) /\
  (forall a s, h_expm1 F kern ord h y x a s = Throw) /\
  (vknown x <> 0 ->
     h_inv F kern base ord h y x = Throw /\ h_log F kern base ord h y x = Throw /\ h_exp F kern base ord h y x = Throw /\
     forall s, h_inv1p F kern ord h y x s = Throw /\ h_log1p F kern ord h y x s = Throw /\
               h_log1p_exp F kern base ord h y x s = Throw).
Proof.
  intros F kern base ord h y x A. split; [|split; [|split; [|split]]].
  - intros. unfold h_high_addsub_ldexp. cbv zeta. rewrite A. cbn [negb]. rewrite andb_false_r. reflexivity.
  - intros w. unfold h_div. rewrite A. cbn [negb]. rewrite andb_false_r. split; reflexivity.
  - intros w s. unfold h_div1p. rewrite A. cbn [negb]. rewrite andb_false_r. split; reflexivity.
  - intros a s. unfold h_expm1. rewrite A. reflexivity.
  - intros K. apply Z.eqb_neq in K. unfold h_inv, h_log, h_log_gen, h_exp, h_exp_gen, h_inv1p, h_log1p, h_log1p_exp.
    rewrite K, A. cbn [negb andb slow_assert bind]. repeat split; reflexivity.
Qed.
Print Assumptions C24_rejects.
(** When the destination is in a buffer of its own, the heap run is the run on values: the
    temporaries and the in-place steps inside the algorithms (dy = mul(dy, y),
    y = integral_shift(y), ...) change nothing else, for every loop order. *)
Definition as_values {F : Fld} (h : heap F) (y : obj) (r : res (heap F * obj)) (v : res (series F)) : Prop :=
  forall Y', v = Ok Y' -> limit Y' = olimit F h y -> gives h y r (fun Y => Y = Y').
Theorem C24_separate : forall (F : Fld) (kern : kernel F) (ord : nat -> list nat) (h : heap F) (y : obj) (x : vw),
  any_order ord -> (obuf y < length h)%nat -> in_heap h x -> elsewhere x y ->
  let base := gen_bases F in let Y := oval F h y in let X := vval F h x in
  (forall sign b s, as_values h y (h_high_addsub_ldexp F ord h y sign b s x) (high_addsub_ldexp F Y sign b s X)) /\
  (forall w, in_heap h w -> elsewhere w y -> as_values h y (h_div F kern base ord h y x w) (set_div F kern base Y X (vval F h w))) /\
  (forall w s, in_heap h w -> elsewhere w y -> as_values h y (h_div1p F kern ord h y x w s) (set_div1p F kern Y X (vval F h w) s)) /\
  (forall a s, as_values h y (h_expm1 F kern ord h y x a s) (set_expm1 F kern Y X a s)) /\
  as_values h y (h_inv F kern base ord h y x) (set_inv F kern base Y X) /\
  as_values h y (h_log F kern base ord h y x) (set_log F kern base Y X) /\
  as_values h y (h_exp F kern base ord h y x) (set_exp F kern base Y X) /\
  (forall s, as_values h y (h_inv1p F kern ord h y x s) (set_inv1p F kern Y X s)) /\
  (forall s, as_values h y (h_log1p F kern ord h y x s) (set_log1p F kern Y X s)) /\
  (forall s, as_values h y (h_log1p_exp F kern base ord h y x s) (set_log1p_exp F kern base Y X s)).
Proof.
  intros F kern ord h y x Ho Hy Hx He base Y X.
  pose proof (Rown_val F h y Hy) as RY. pose proof (Rview_val F h x Hx) as RX.
  pose proof (gen_base_mono F 0 (gen_inv F) : base_mono F (inv_base base)) as Hib.
  pose proof (gen_base_mono F 1 (gen_exp F) : base_mono F (exp_base base)) as Heb.
  assert (G : forall r v, (forall Y', v = Ok Y' -> sim F h y r Y') -> as_values h y r v).
  { intros r v S Y' E L. eapply sim_gives; [apply S; exact E|exact L|reflexivity]. }
  split; [|split; [|split; [|split; [|split; [|split; [|split; [|split; [|split]]]]]]]]; intros; apply G; intros Y' E.
  - eapply addsub_sim; eauto.
  - eapply div_sim; eauto using Rview_val.
  - eapply div1p_sim; eauto using Rview_val.
  - eapply expm1_sim; eauto.
  - eapply inv_sim; eauto.
  - eapply log_sim; eauto.
  - eapply exp_sim; eauto.
  - eapply inv1p_sim; eauto.
  - eapply log1p_sim; eauto.
  - eapply log1p_exp_sim; eauto.
Qed.
Print Assumptions C24_separate.

(** ** Instances: one buffer of four cells holding 1, 2, 3, 4, and an empty one. *)
Definition hp : heap QcF := two_cells ++ [repeat None 4].
Definition o0 : obj := mkO 0 4 4.
Definition o1 : obj := mkO 1 0 0.
Example C24_instance :
  (* z = mul(z, z), z = mul1p(z, z, 1), z = derivative_shift(z, 1), in place and apart *)
  obj_obs (h_mul QcF (ref_kernel QcF) hp o0 (oview o0) (oview o0)) = Ok (ints [1; 4; 10; 20], 4, 4) /\
  obj_obs (h_mul QcF (ref_kernel QcF) hp o1 (oview o0) (oview o0)) = Ok (ints [1; 4; 10; 20], 4, 4) /\
  obj_obs (h_mul QcF (ref_kernel QcF) hp o0 (oview o0) (vhigh (oview o0) 2)) = Ok (ints [3; 10], 2, 2) /\
  obj_obs (h_mul1p QcF (ref_kernel QcF) descending hp o0 (oview o0) (oview o0) 1) = Ok (ints [1; 3; 7; 14], 4, 4) /\
  obj_obs (h_derivative_shift QcF descending hp o0 (oview o0) 1) = Ok (ints [1; 4; 9; 16], 4, 4) /\
  obj_obs (h_neg QcF (seq 0) hp o0 (vhigh (oview o0) 1)) = Ok (ints [-2; -3; -4], 3, 3) /\
  obj_obs (h_neg QcF descending hp o0 (vhigh (oview o0) 1)) = Ok (ints [-4; 4; -4], 3, 3) /\
  (* rejected *)
  h_high_sub QcF descending hp o0 1 (vhigh (oview o0) 3) = Throw /\
  h_inv QcF (ref_kernel QcF) (gen_bases QcF) descending hp o0 (oview o0) = Throw /\
  (* and allowed in another buffer *)
  obj_obs (h_inv QcF (ref_kernel QcF) (gen_bases QcF) descending hp o1 (oview o0)) = Ok (ints [1; -2; 1; 0], 4, 4).
Proof. repeat split; vm_compute; reflexivity. Qed.
Example C24_hypotheses :
  any_order descending /\ in_heap hp (oview o0) /\ same_start (oview o0) o0 /\ valid (vval QcF hp (oview o0)) /\
  elsewhere (oview o0) o1 /\ alias QcF hp o0 (oview o0) = true /\ alias QcF hp o1 (oview o0) = false.
Proof.
  split; [intro n; apply Permutation_sym, Permutation_rev|].
  split; [intros b off E; injection E as <- <-; cbn; lia|]. split; [intros off E; injection E as <-; reflexivity|].
  split; [|split; [intros b off E; injection E as <- <-; cbn; lia|split; reflexivity]].
  split; [vm_compute; discriminate|]. split; [vm_compute; discriminate|]. split; [vm_compute; discriminate|]. intros i Hi.
  change (Z.of_nat i < 4) in Hi. repeat (first [lia | destruct i as [|i]; [eexists; reflexivity|]]).
Qed.
