(** Proofs about the Fourier codelet generator (codelets.cc): the symbolic butterflies compute the
    numeric butterflies of FFTModel.v. *)
From Coq Require Import String ZArith List Bool Lia Reals Lra.
From Verif Require Import Base Field FieldInst ExpModel ExpProofs BlockProofs GradSpec GradProofs GradReal FFTModel FFTMath GenModel.
Import ListNotations.
Open Scope R_scope.

Notation RC := (R * R)%type.
(** Real and imaginary parts alternating. *)
Fixpoint flatv (l : list RC) : list R := match l with [] => [] | z :: t => fst z :: snd z :: flatv t end.

Fixpoint thickv (l : list R) : list RC := match l with a :: b :: t => (a, b) :: thickv t | _ => [] end.

Lemma RF_ofnat : forall n, kofnat (F := RF) n = INR n.
Proof. induction n as [|n IH]; [reflexivity|]. cbn [kofnat]. rewrite IH, S_INR. cbn. ring. Qed.
Lemma RF_ofZ : forall z, kofZ (F := RF) z = IZR z.
Proof.
  intros [|p|p]; cbn [kofZ].
  - reflexivity.
  - rewrite RF_ofnat, INR_IZR_INZ, positive_nat_Z. reflexivity.
  - rewrite RF_ofnat, INR_IZR_INZ, positive_nat_Z. reflexivity.
Qed.

Section P.
Variables (G : SigOps) (I : interp RF).
Hypothesis HL : SigLaws G.
Notation exp := (exp G).
Notation M := (M G).
Notation cexp := (cexp G).
Notation mspec := (mspec RF G I).
Notation ev := (eval I : exp -> R).
Definition evc (z : cexp) : RC := (ev (fst z), ev (snd z)).
Definition wfc (z : cexp) : Prop := wfe (fst z) /\ wfe (snd z).
Definition cspec (m : M cexp) (v : RC) : Prop := mspec m wfc (fun z => evc z = v).
Definition rspec (m : M exp) (v : R) : Prop := mspec m wfe (fun z => ev z = v).

Lemma mspec_par : forall A B lr (m : M A) (n : M B) (P Q : A -> Prop) (P' Q' : B -> Prop), mspec m P Q -> mspec n P' Q' ->
  mspec (par G lr m n) (fun p => P (fst p) /\ P' (snd p)) (fun p => Q (fst p) /\ Q' (snd p)).
Proof.
  intros A B lr m n P Q P' Q' Hm Hn. unfold par. destruct lr.
  - eapply mspec_bind; [exact Hm|]. intros a Ha. eapply mspec_bind; [exact Hn|]. intros b Hb. apply mspec_ret; cbn; auto.
  - eapply mspec_bind; [exact Hn|]. intros b Hb. eapply mspec_bind; [exact Hm|]. intros a Ha. apply mspec_ret; cbn; auto.
Qed.
Lemma rneg : forall x, wfe x -> rspec (exp_neg G x) (- ev x).
Proof. intros x W. eapply mspec_espec. exact (neg_spec RF G I HL x W). Qed.
Lemma radd : forall x y, wfe x -> wfe y -> rspec (exp_add G x y) (ev x + ev y).
Proof. intros x y W W'. eapply mspec_espec. exact (add_spec RF G I HL x y W W'). Qed.
Lemma rsub : forall x y, wfe x -> wfe y -> rspec (exp_sub G x y) (ev x - ev y).
Proof. intros x y W W'. eapply mspec_espec. exact (sub_spec RF G I HL x y W W'). Qed.
Lemma rmul : forall x y, wfe x -> wfe y -> rspec (exp_mul G x y) (ev x * ev y).
Proof. intros x y W W'. eapply mspec_espec. exact (mul_spec RF G I HL x y W W'). Qed.
Lemma rpair : forall lr m n v w, rspec m v -> rspec n w -> cspec (par G lr m n) (v, w).
Proof.
  intros lr m n v w Hm Hn. eapply mspec_weaken; [apply (mspec_par _ _ lr m n _ _ _ _ Hm Hn)| |]; cbv beta.
  - intros r H. exact H.
  - intros r _ [E1 E2]. unfold evc. rewrite E1, E2. reflexivity.
Qed.

(** Complex operations *)
Lemma s_add : forall lr a b, wfc a -> wfc b -> cspec (cx_add G lr a b) (cadd R_ops (evc a) (evc b)).
Proof. intros lr a b [A1 A2] [B1 B2]. apply rpair; apply radd; assumption. Qed.
Lemma s_sub : forall lr a b, wfc a -> wfc b -> cspec (cx_sub G lr a b) (csub R_ops (evc a) (evc b)).
Proof. intros lr a b [A1 A2] [B1 B2]. apply rpair; apply rsub; assumption. Qed.
Lemma s_mul : forall lr a b, wfc a -> wfc b -> cspec (cx_mul G lr a b) (cmul R_ops (evc a) (evc b)).
Proof.
  intros lr a b [A1 A2] [B1 B2]. apply rpair.
  - eapply mspec_bind; [apply rpair; apply rmul; assumption|]. intros p [P1 P2]. eapply mspec_weaken; [apply rsub; assumption|auto|]. cbv beta. intros r _ -> E. unfold evc in E.
    injection E as -> ->. reflexivity.
  - eapply mspec_bind; [apply rpair; apply rmul; assumption|]. intros p [P1 P2]. eapply mspec_weaken; [apply radd; assumption|auto|]. cbv beta. intros r _ -> E. unfold evc in E.
    injection E as -> ->. reflexivity.
Qed.
Lemma s_scale : forall lr a z, wfe a -> wfc z -> cspec (cx_scale G lr a z) (cscale R_ops (ev a) (evc z)).
Proof. intros lr a z W [A1 A2]. apply rpair; apply rmul; assumption. Qed.
Lemma s_conj : forall z, wfc z -> cspec (cx_conj G z) (conj R_ops (evc z)).
Proof.
  intros z [A1 A2]. eapply mspec_bind; [apply rneg; exact A2|]. intros i Wi. apply mspec_ret; [split; assumption|]. intros E. unfold evc. cbn [fst snd]. rewrite E. reflexivity.
Qed.
Lemma s_left : forall z, wfc z -> cspec (cx_left G z) (left R_ops (evc z)).
Proof.
  intros z [A1 A2]. eapply mspec_bind; [apply rneg; exact A2|]. intros i Wi. apply mspec_ret; [split; assumption|]. intros E. unfold evc. cbn [fst snd]. rewrite E. reflexivity.
Qed.
Lemma c_after : forall m w v, cspec m w -> w = v -> cspec m v.
Proof. intros; subst; assumption. Qed.
Lemma s_bind : forall B (m : M cexp) v (k : cexp -> M B) (P Q : B -> Prop), cspec m v -> (forall z, wfc z -> mspec (k z) P (fun r => evc z = v -> Q r)) -> mspec (mbind G m k) P Q.
Proof. intros B m v k P Q Hm Hk. eapply mspec_bind; [exact Hm|]. exact Hk. Qed.
Lemma r_bind : forall B (m : M exp) v (k : exp -> M B) (P Q : B -> Prop), rspec m v -> (forall z, wfe z -> mspec (k z) P (fun r => ev z = v -> Q r)) -> mspec (mbind G m k) P Q.
Proof. intros B m v k P Q Hm Hk. eapply mspec_bind; [exact Hm|]. exact Hk. Qed.
(** The last step of a chain. *)
Lemma s_last : forall m v (E : Prop) w, cspec m v -> (E -> v = w) -> mspec m wfc (fun z => E -> evc z = w).
Proof. intros m v E w H K. eapply mspec_weaken; [exact H|auto|]. cbv beta. intros r _ R1 HE. rewrite R1. apply K. exact HE. Qed.
Lemma s_diagm : forall lr a z, wfe a -> wfc z -> cspec (cx_diagm G lr a z) (diagm R_ops (ev a) (evc z)).
Proof.
  intros lr a z W [A1 A2]. eapply s_bind; [apply rpair; [apply radd|apply rsub]; assumption|]. intros w Ww. eapply s_last; [apply s_scale; assumption|]. intros ->. reflexivity.
Qed.
Lemma s_diagp : forall lr a z, wfe a -> wfc z -> cspec (cx_diagp G lr a z) (diagp R_ops (ev a) (evc z)).
Proof.
  intros lr a z W [A1 A2]. eapply s_bind; [apply rpair; [apply rsub|apply radd]; assumption|]. intros w Ww. eapply s_last; [apply s_scale; assumption|]. intros ->. reflexivity.
Qed.
Lemma s_field : forall e f, rspec (exp_field G e f) (ifield I f (ev e)).
Proof. intros e f. eapply mspec_espec. exact (field_spec RF G I HL e f). Qed.
Lemma s_split : forall lr e, cspec (split G lr e) (ifield I "r"%string (ev e), ifield I "i"%string (ev e)).
Proof. intros lr e. apply rpair; apply s_field. Qed.
Lemma s_pair : forall lr m n v w B (k : cexp * cexp -> M B) (P Q : B -> Prop), cspec m v -> cspec n w ->
  (forall a b, wfc a -> wfc b -> mspec (k (a, b)) P (fun r => evc a = v /\ evc b = w -> Q r)) -> mspec (mbind G (par G lr m n) k) P Q.
Proof. intros lr m n v w B k P Q Hm Hn Hk. eapply mspec_bind; [apply (mspec_par _ _ lr m n _ _ _ _ Hm Hn)|]. intros [a b] [Wa Wb]. cbn [fst snd]. apply Hk; assumption. Qed.

(** ** Butterflies *)
Variables (sh_text : string) (sh_sig : G) (tw_text : Z -> nat -> string * string).
(** The texts of the constants denote the numbers they were printed from. *)
Hypothesis Hsh : iother I sh_text = / sqrt 2.
Definition tval (a : R) : RC := (ifield I "r"%string (icall I "twiddle"%string [a]), ifield I "i"%string (icall I "twiddle"%string [a])).
(** A twiddle function on expressions [tw] with value [tv], for arguments satisfying [Pj]. *)
Section Bfly.
Variables (lr : bool) (Pj : exp -> Prop) (tw : exp -> M cexp) (tv : R -> RC).
Hypothesis Htw : forall e, Pj e -> cspec (tw e) (tv (ev e)).
Hypothesis Hmul : forall k e, (0 <= k <= 32)%Z -> Pj e -> mspec (times G k e) Pj (fun z => ev z = IZR k * ev e).
Notation g_half := (constant_sqrt_half G sh_text sh_sig).
Lemma s_half : rspec g_half (sh R_ops).
Proof. eapply mspec_weaken; [eapply mspec_espec; apply (other_spec RF G I HL)|auto|]. cbv beta. intros r _ ->. exact Hsh. Qed.
Lemma s_tw : forall k e, (0 <= k <= 32)%Z -> Pj e -> cspec (mbind G (times G k e) tw) (tv (IZR k * ev e)).
Proof.
  intros k e Hk He. eapply mspec_bind; [apply Hmul; assumption|]. cbv beta. intros z Hz. eapply s_last; [apply Htw; exact Hz|]. intros ->. reflexivity.
Qed.
Ltac evs := repeat match goal with H : evc ?z = _ |- context [evc ?z] => rewrite H end; repeat match goal with H : ev ?z = _ |- context [eval I ?z] => rewrite H end.
Ltac slast L := eapply mspec_weaken; [apply L; assumption|auto|]; cbv beta; let r := fresh in let E := fresh in intros r _ E; intros; rewrite E; evs; try reflexivity.
Lemma s_conj_of_mul : forall w m v, wfc w -> cspec m v -> cspec (conj_of_mul G lr w m) (conj R_ops (cmul R_ops (evc w) v)).
Proof.
  intros w m v Ww Hm. eapply s_bind; [exact Hm|]. intros s Ws. eapply s_bind; [apply s_mul; assumption|]. intros t Wt. slast s_conj.
Qed.
Lemma s_mul_of_conj : forall w m v, wfc w -> cspec m v -> cspec (mul_of_conj G lr w m) (cmul R_ops (conj R_ops (evc w)) v).
Proof.
  intros w m v Ww Hm. eapply s_pair; [apply s_conj; exact Ww|exact Hm|]. intros a b Wa Wb. cbn [fst snd]. eapply mspec_weaken; [apply s_mul; assumption|auto|].
  cbv beta. intros r _ -> [-> ->]. reflexivity.
Qed.
Lemma s_plus_left : forall a b, wfc a -> wfc b -> cspec (plus_left G lr a b) (cadd R_ops (evc a) (left R_ops (evc b))).
Proof. intros a b Wa Wb. eapply s_bind; [apply s_left; exact Wb|]. intros l Wl. slast s_add. Qed.
Lemma s_minus_left : forall a b, wfc a -> wfc b -> cspec (minus_left G lr a b) (csub R_ops (evc a) (left R_ops (evc b))).
Proof. intros a b Wa Wb. eapply s_bind; [apply s_left; exact Wb|]. intros l Wl. slast s_sub. Qed.
Lemma s_gen_0 : forall x0 x1, wfe x0 -> wfe x1 -> cspec (gen_0 G x0 x1) (bfly_0 R_ops (ev x0) (ev x1)).
Proof.
  intros x0 x1 W0 W1. eapply r_bind; [apply rneg; exact W1|]. intros n Wn. apply mspec_ret; [split; assumption|]. intros E. unfold evc. cbn [fst snd]. rewrite E. reflexivity.
Qed.
Definition pspec (m : M (cexp * cexp)) (v : RC * RC) : Prop := mspec m (fun p => wfc (fst p) /\ wfc (snd p)) (fun p => (evc (fst p), evc (snd p)) = v).
Lemma s_gen_1 : forall j y0 y1, Pj j -> wfc y0 -> wfc y1 ->
  pspec (gen_1 G sh_text sh_sig lr tw j y0 y1)
    (let zz := diagm R_ops (sh R_ops) (evc y1) in (cmul R_ops (conj R_ops (tv (ev j))) (cadd R_ops (evc y0) zz), conj R_ops (cmul R_ops (tv (3 * ev j)) (csub R_ops (evc y0) zz)))).
Proof.
  intros j y0 y1 Hj W0 W1. unfold gen_1. eapply r_bind; [apply s_half|]. intros c Wc. eapply s_bind; [apply s_diagm; assumption|]. intros z Wz.
  eapply s_pair with (v := conj R_ops (tv (ev j))); [eapply s_bind; [apply Htw; exact Hj|]; intros w Ww; slast s_conj|apply s_add; assumption|].
  intros a b Wa Wb. cbn [fst snd]. eapply s_bind; [apply s_mul; assumption|]. intros u0 Wu0.
  eapply s_pair; [apply s_tw; [lia|exact Hj]|apply s_sub; assumption|]. intros d e Wd We. cbn [fst snd].
  eapply s_bind; [apply s_mul; assumption|]. intros t Wt. eapply s_bind; [apply s_conj; exact Wt|]. intros u1 Wu1.
  apply mspec_ret; [split; assumption|]. intros E1 E2 [E3 E4] E5 [E6 E7] E8 E9. cbn [fst snd]. evs. reflexivity.
Qed.
Lemma s_gen_s1 : forall j y0 y1, Pj j -> wfc y0 -> wfc y1 ->
  pspec (gen_s1 G lr tw j y0 y1) (cadd R_ops (evc y0) (evc y1), conj R_ops (cmul R_ops (tv (ev j)) (csub R_ops (evc y0) (evc y1)))).
Proof.
  intros j y0 y1 Hj W0 W1. unfold gen_s1. eapply s_bind; [apply s_add; assumption|]. intros u0 Wu0.
  eapply s_pair; [apply Htw; exact Hj|apply s_sub; assumption|]. intros d e Wd We. cbn [fst snd].
  eapply s_bind; [apply s_mul; assumption|]. intros t Wt. eapply s_bind; [apply s_conj; exact Wt|]. intros u1 Wu1.
  apply mspec_ret; [split; assumption|]. intros E1 E2 [E3 E4] E5. cbn [fst snd]. evs. reflexivity.
Qed.
Definition lspec (m : M (list cexp)) (v : list RC) : Prop := mspec m (Forall wfc) (fun l => map evc l = v).
Ltac sstep := first
  [ eapply s_bind; [first [apply s_add; assumption|apply s_sub; assumption|apply Htw; assumption|apply s_conj_of_mul; [assumption|first [apply s_add; assumption|apply s_sub; assumption|apply s_plus_left; assumption|apply s_minus_left; assumption]]
      |apply s_mul_of_conj; [assumption|first [apply s_add; assumption|apply s_sub; assumption|apply s_plus_left; assumption|apply s_minus_left; assumption]]
      |apply s_plus_left; assumption|apply s_minus_left; assumption|apply s_diagp; assumption|apply s_diagm; assumption]|let z := fresh "z" in let W := fresh "W" in intros z W]
  | eapply mspec_bind; [apply Hmul; [lia|eassumption]|let z := fresh "j" in let W := fresh "W" in intros z W]
  | eapply r_bind; [apply s_half|let z := fresh "h" in let W := fresh "W" in intros z W] ].
Ltac wfl := repeat (apply Forall_cons; [assumption|]); apply Forall_nil.
Lemma s_gen_s2 : forall j y0 y1 y2 y3 tn jz w, Pj j -> wfc y0 -> wfc y1 -> wfc y2 -> wfc y3 ->
  (forall z v, tn z = Ok v -> tv (IZR z) = v) -> bfly_s2 R_ops tn jz [evc y0; evc y1; evc y2; evc y3] = Ok w -> ev j = IZR jz ->
  mspec (gen_s2 G lr tw j y0 y1 y2 y3) (fun l => length l = 4%nat /\ Forall wfc l) (fun l => map evc l = w).
Proof.
  intros j y0 y1 y2 y3 tn jz w Hj W0 W1 W2 W3 Ht Hw Ej. cbn [bfly_s2] in Hw.
  destruct (tn jz) as [w1| |] eqn:T1; try discriminate Hw. cbn [bind] in Hw. destruct (tn (2 * jz)%Z) as [w2| |] eqn:T2; try discriminate Hw. cbn [bind] in Hw.
  apply Ht in T1. apply Ht in T2. rewrite mult_IZR in T2. rewrite <- Ej in T1, T2. injection Hw as <-. unfold gen_s2. repeat sstep.
  apply mspec_ret; [split; [reflexivity|wfl]|]. intros. cbn [map]. evs. rewrite T1, T2. reflexivity.
Qed.
Lemma s_gen_s3 : forall j y0 y1 y2 y3 y4 y5 y6 y7 tn jz w, Pj j -> wfc y0 -> wfc y1 -> wfc y2 -> wfc y3 -> wfc y4 -> wfc y5 -> wfc y6 -> wfc y7 ->
  (forall z v, tn z = Ok v -> tv (IZR z) = v) -> bfly_s3 R_ops tn jz [evc y0; evc y1; evc y2; evc y3; evc y4; evc y5; evc y6; evc y7] = Ok w -> ev j = IZR jz ->
  mspec (gen_s3 G sh_text sh_sig lr tw j y0 y1 y2 y3 y4 y5 y6 y7) (fun l => length l = 8%nat /\ Forall wfc l) (fun l => map evc l = w).
Proof.
  intros j y0 y1 y2 y3 y4 y5 y6 y7 tn jz w Hj W0 W1 W2 W3 W4 W5 W6 W7 Ht Hw Ej. cbn [bfly_s3] in Hw.
  destruct (tn jz) as [w1| |] eqn:T1; try discriminate Hw. cbn [bind] in Hw. destruct (tn (2 * jz)%Z) as [w2| |] eqn:T2; try discriminate Hw. cbn [bind] in Hw.
  destruct (tn (3 * jz)%Z) as [w3| |] eqn:T3; try discriminate Hw. cbn [bind] in Hw. destruct (tn (4 * jz)%Z) as [w4| |] eqn:T4; try discriminate Hw. cbn [bind] in Hw.
  apply Ht in T1. apply Ht in T2. apply Ht in T3. apply Ht in T4. rewrite mult_IZR in T2, T3, T4. rewrite <- Ej in T1, T2, T3, T4. cbv zeta in Hw. injection Hw as <-. unfold gen_s3. repeat sstep.
  apply mspec_ret; [split; [reflexivity|wfl]|]. intros. cbn [map]. evs. rewrite T1, T2, T3, T4. reflexivity.
Qed.
End Bfly.

(** ** Whole circuits *)
Lemma s_base_twiddle : forall lr j, cspec (base_twiddle G lr j) (tval (ev j)).
Proof.
  intros lr j. unfold base_twiddle. eapply mspec_bind; [eapply mspec_espec; apply (call_spec RF G I HL)|]. cbv beta. intros c Wc.
  eapply mspec_weaken; [apply s_split|auto|]. cbv beta. intros r _ -> E. change (eval I c) with (ev c) in E. rewrite E. reflexivity.
Qed.
Lemma s_times : forall k e, (0 <= k <= 32)%Z -> wfe e -> mspec (times G k e) wfe (fun z => ev z = IZR k * ev e).
Proof.
  intros k e Hk We. eapply mspec_weaken; [apply rmul; [apply wfe_int; lia|exact We]|auto|]. cbv beta. intros r _ ->. cbn [mkint eval map opval]. rewrite RF_ofZ. reflexivity.
Qed.
Lemma flat_map_ev : forall l : list cexp, map ev (flat G l) = flatv (map evc l).
Proof. induction l as [|z l IH]; [reflexivity|]. cbn [flat map flatv evc fst snd]. rewrite IH. reflexivity. Qed.
Lemma flat_wfe : forall l : list cexp, Forall wfc l -> Forall wfe (flat G l).
Proof. intros l H. induction H as [|z l [W1 W2] H IH]; cbn [flat]; auto. Qed.
Lemma flat_length : forall l : list cexp, length (flat G l) = (2 * length l)%nat.
Proof. induction l as [|z l IH]; [reflexivity|]. cbn [flat length]. lia. Qed.
Ltac lists L W := repeat (match type of L with length ?l = S _ => let a := fresh "a" in let Wa := fresh "Wa" in destruct l as [|a l]; [discriminate L|]; cbn [length] in L; apply eq_add_S in L; apply Forall_cons_iff in W; destruct W as [Wa W] end);
  match type of L with length ?l = O => destruct l; [|discriminate L] end.
Lemma gen_s_ok : forall lr r j ys tn jz w, (1 <= r <= 3)%nat -> wfe j -> Forall wfe ys -> length ys = (2 * 2 ^ r)%nat ->
  (forall z v, tn z = Ok v -> tval (IZR z) = v) -> bfly_s R_ops r tn jz (thickv (map ev ys)) = Ok w -> ev j = IZR jz ->
  mspec (gen_s G sh_text sh_sig lr r j ys) (fun es => length es = length ys /\ Forall wfe es) (fun es => map ev es = flatv w).
Proof.
  intros lr r j ys tn jz w Hr Wj Wy Ly Ht Hw Ej. assert (C : r = 1%nat \/ r = 2%nat \/ r = 3%nat) by lia. destruct C as [-> | [-> | ->]]; cbn [Nat.pow Nat.mul Nat.add] in Ly; lists Ly Wy; cbn [map thickv bfly_s] in Hw; unfold gen_s.
  - unfold bfly_s1 in Hw. destruct (tn jz) as [w1| |] eqn:T1; try discriminate Hw. cbn [bind fst snd] in Hw. apply Ht in T1. injection Hw as <-.
    eapply mspec_bind; [apply (s_gen_s1 lr wfe (base_twiddle G lr) tval); [intros; apply s_base_twiddle|exact Wj|split; assumption|split; assumption]|]. cbv beta.
    intros [u v] [Wu Wv]. cbn [fst snd] in *. apply mspec_ret; [split; [reflexivity|apply flat_wfe; constructor; [exact Wu|constructor; [exact Wv|constructor]]]|].
    intros E. rewrite flat_map_ev. cbn [map]. rewrite pair_equal_spec in E. destruct E as [E1 E2]. rewrite E1, E2. rewrite <- T1, <- Ej. reflexivity.
  - eapply mspec_bind; [apply (s_gen_s2 lr wfe (base_twiddle G lr) tval) with (tn := tn) (jz := jz) (w := w); try (split; assumption); try assumption; [intros; apply s_base_twiddle|exact s_times]|].
    cbv beta. intros l [Ll Wl]. apply mspec_ret; [rewrite flat_length, Ll; split; [reflexivity|apply flat_wfe; exact Wl]|]. intros E. rewrite flat_map_ev, E. reflexivity.
  - eapply mspec_bind; [apply (s_gen_s3 lr wfe (base_twiddle G lr) tval) with (tn := tn) (jz := jz) (w := w); try (split; assumption); try assumption; [intros; apply s_base_twiddle|exact s_times]|].
    cbv beta. intros l [Ll Wl]. apply mspec_ret; [rewrite flat_length, Ll; split; [reflexivity|apply flat_wfe; exact Wl]|]. intros E. rewrite flat_map_ev, E. reflexivity.
Qed.
(** Constant twiddle factors: only exponent zero occurs. *)
Lemma s_constant_tw : forall lr r, (1 <= r <= 3)%nat -> cspec (constant_twiddle G sh_sig tw_text lr 0 r) (iother I (fst (tw_text 0%Z r)), iother I (snd (tw_text 0%Z r))).
Proof.
  intros lr r Hr. unfold constant_twiddle. replace ((r =? 1) || (r =? 2) || (r =? 3))%nat%bool with true by (destruct r as [|[|[|[|r]]]]; try reflexivity; lia).
  cbn [slow_assert]. apply mspec_lift. apply rpair; eapply mspec_espec; apply (other_spec RF G I HL).
Qed.
Lemma gen_first_ok : forall lr r j nr j1 xs tn jz nz w, (1 <= r <= 3)%nat -> Forall wfe xs -> length xs = (2 ^ r)%nat ->
  ((r < 3)%nat -> j = mkint 0 /\ nr = mkint 1 /\ jz = 0%Z /\ forall z v, tn z = Ok v -> z = 0%Z -> (iother I (fst (tw_text 0%Z r)), iother I (snd (tw_text 0%Z r))) = v) ->
  (r = 3%nat -> wfe j /\ wfe nr /\ wfe j1 /\ ev j = IZR jz /\ ev nr = IZR nz /\ ev j1 = IZR jz /\ forall z v, tn z = Ok v -> tval (IZR z) = v) ->
  bfly_01s R_ops r tn jz nz (map ev xs) = Ok w ->
  mspec (gen_first G sh_text sh_sig tw_text lr r j nr j1 xs) (fun es => length es = length xs /\ Forall wfe es) (fun es => map ev es = flatv w).
Proof.
  intros lr r j nr j1 xs tn jz nz w Hr Wx Lx H12 H3 Hw. assert (C : r = 1%nat \/ r = 2%nat \/ r = 3%nat) by lia. destruct C as [-> | [-> | ->]]; cbn [Nat.pow Nat.mul Nat.add] in Lx; lists Lx Wx; cbn [map bfly_01s] in Hw; unfold gen_first.
  - injection Hw as <-. eapply s_bind; [apply s_gen_0; assumption|]. intros y Wy. apply mspec_ret; [split; [reflexivity|apply flat_wfe; constructor; [exact Wy|constructor]]|].
    intros E. rewrite flat_map_ev. cbn [map]. rewrite E. reflexivity.
  - destruct (H12 ltac:(lia)) as (-> & -> & -> & Ht). clear H12 H3.
    unfold bfly_1 in Hw. destruct (tn 0%Z) as [w1| |] eqn:T1; try discriminate Hw. cbn [bind Z.mul] in Hw. rewrite T1 in Hw. cbn [bind fst snd] in Hw. injection Hw as <-.
    pose proof (Ht _ _ T1 eq_refl) as T0. clear Ht.
    eapply s_bind; [apply s_gen_0; assumption|]. intros y0 W0. eapply s_bind; [apply s_gen_0; assumption|]. intros y1 W1.
    eapply mspec_bind with (P := fun e => e = mkint 0) (Q := fun _ => True); [apply mspec_ret; [reflexivity|exact Logic.I]|]. cbv beta. intros i ->.
    eapply mspec_bind with (P := fun e => e = mkint 0) (Q := fun _ => True); [apply mspec_ret; [reflexivity|exact Logic.I]|]. cbv beta. intros ja ->.
    eapply mspec_bind; [apply (s_gen_1 lr (fun e => e = mkint 0) (first_twiddle G sh_sig tw_text lr 2) (fun _ => w1)); try assumption; try reflexivity|].
    + intros e ->. eapply c_after; [apply s_constant_tw; lia|exact T0].
    + intros k e Hk ->. unfold times. intros st Hst. exists (mkint 0), st. split.
      * unfold exp_mul. destruct (weight G (mkint k) + weight G (mkint 0))%nat eqn:Q; [cbn in Q; destruct (k <? 0)%Z; discriminate Q|]. cbn [mul_fuel]. rewrite orb_true_r. reflexivity.
      * split; [exact Hst|]. split; [apply ext_refl|]. split; [reflexivity|]. split; [reflexivity|]. intros _. cbn [mkint eval map opval]. rewrite RF_ofZ. ring.
    + cbv beta. intros [u v] [Wu Wv]. cbn [fst snd] in *. apply mspec_ret; [split; [reflexivity|apply flat_wfe; constructor; [exact Wu|constructor; [exact Wv|constructor]]]|].
      intros E _ _ E1 E2. rewrite flat_map_ev. cbn [map]. rewrite E1, E2 in E. rewrite pair_equal_spec in E. destruct E as [E3 E4]. rewrite E3, E4. reflexivity.
  - destruct (H3 eq_refl) as (Wj & Wn & Wj1 & Ej & En & Ej1 & Ht). clear H12 H3.
    assert (B1 : forall j y0 y1, wfe j -> wfc y0 -> wfc y1 -> pspec (gen_1 G sh_text sh_sig lr (first_twiddle G sh_sig tw_text lr 3) j y0 y1)
      (let zz := diagm R_ops (sh R_ops) (evc y1) in (cmul R_ops (conj R_ops (tval (ev j))) (cadd R_ops (evc y0) zz), conj R_ops (cmul R_ops (tval (3 * ev j)) (csub R_ops (evc y0) zz))))).
    { apply s_gen_1; [intros; apply s_base_twiddle|exact s_times]. }
    assert (B2 : forall j y0 y1, wfe j -> wfc y0 -> wfc y1 -> pspec (gen_s1 G lr (fun j => mbind G (times G 8 j) (fun j8 => first_twiddle G sh_sig tw_text lr 3 j8)) j y0 y1)
      (cadd R_ops (evc y0) (evc y1), conj R_ops (cmul R_ops (tval (8 * ev j)) (csub R_ops (evc y0) (evc y1))))).
    { apply (s_gen_s1 lr wfe _ (fun a => tval (8 * a))). intros e We. eapply mspec_bind; [apply s_times; [lia|exact We]|]. cbv beta. intros z Wz. eapply mspec_weaken; [apply s_base_twiddle|auto|]. cbv beta. intros r _ -> E. rewrite E. reflexivity. }
    unfold bfly_1, bfly_s1 in Hw.
    destruct (tn jz) as [w1| |] eqn:T1; try discriminate Hw. cbn [bind] in Hw. destruct (tn (3 * jz)%Z) as [w3| |] eqn:T3; try discriminate Hw. cbn [bind] in Hw.
    destruct (tn (jz + nz)%Z) as [v1| |] eqn:T4; try discriminate Hw. cbn [bind] in Hw. destruct (tn (3 * (jz + nz))%Z) as [v3| |] eqn:T5; try discriminate Hw. cbn [bind] in Hw.
    destruct (tn (8 * jz)%Z) as [w8| |] eqn:T8; try discriminate Hw. cbn [bind fst snd] in Hw. injection Hw as <-.
    apply Ht in T1. apply Ht in T3. apply Ht in T4. apply Ht in T5. apply Ht in T8. rewrite mult_IZR in T3, T5, T8. rewrite plus_IZR in T4, T5. clear Ht.
    eapply s_bind; [apply s_gen_0; assumption|]. intros y0 W0. eapply s_bind; [apply s_gen_0; assumption|]. intros y1 W1.
    eapply s_bind; [apply s_gen_0; assumption|]. intros y2 W2. eapply s_bind; [apply s_gen_0; assumption|]. intros y3 W3.
    eapply mspec_bind; [apply s_times; [lia|exact Wn]|]. cbv beta. intros i0 Wi0. eapply r_bind; [apply radd; assumption|]. intros ja Wja.
    eapply mspec_bind; [apply B1; assumption|]. cbv beta. intros [p0 p1] [Wp0 Wp1]. cbn [fst snd] in Wp0, Wp1.
    eapply mspec_bind; [apply s_times; [lia|exact Wn]|]. cbv beta. intros i1 Wi1. eapply r_bind; [apply radd; assumption|]. intros jb Wjb.
    eapply mspec_bind; [apply B1; assumption|]. cbv beta. intros [q0 q1] [Wq0 Wq1]. cbn [fst snd] in Wq0, Wq1.
    eapply mspec_bind; [apply s_times; [lia|exact Wn]|]. cbv beta. intros i2 Wi2. eapply r_bind; [apply radd; assumption|]. intros jc Wjc. cbn [fst snd].
    eapply mspec_bind; [apply B2; assumption|]. cbv beta. intros [a' a''] [Wa' Wa'']. cbn [fst snd] in Wa', Wa''.
    eapply mspec_bind; [apply s_times; [lia|exact Wn]|]. cbv beta. intros i3 Wi3. eapply r_bind; [apply radd; assumption|]. intros jd Wjd. cbn [fst snd].
    eapply mspec_bind; [apply B2; assumption|]. cbv beta. intros [b' b''] [Wb' Wb'']. cbn [fst snd] in Wb', Wb''.
    apply mspec_ret; [split; [reflexivity|apply flat_wfe; repeat (apply Forall_cons; [assumption|]); apply Forall_nil]|]. cbn [fst snd].
    intros Eb Ejd Ei3 Ea Ejc Ei2 Eq Ejb Ei1 Ep Eja Ei0 E3 E2 E1 E0. rewrite flat_map_ev. cbn [map].
    rewrite pair_equal_spec in Eb, Ea, Eq, Ep. destruct Eb as [Eb1 Eb2], Ea as [Ea1 Ea2], Eq as [Eq1 Eq2], Ep as [Ep1 Ep2].
    rewrite Ei0, Ei1, Ei2, Ei3, Ej, Ej1, En in *. rewrite Rmult_0_l, Rplus_0_r, ?Rmult_1_l in *.
    rewrite Eb1, Eb2, Ea1, Ea2, Eq1, Eq2, Ep1, Ep2, Eja, Ejb, Ejc, Ejd, E0, E1, E2, E3, T1, T3, T4, T5, T8. reflexivity.
Qed.
End P.
