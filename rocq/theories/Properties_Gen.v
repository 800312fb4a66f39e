(** Properties of the generated Fourier butterflies, codelets.cc:562-828: C70. *)
From Coq Require Import String ZArith List Bool Lia QArith Qcanon Reals Lra.
From Verif Require Import Base Field FieldInst ExpModel ExpProofs BlockProofs ExpToy GradSpec GradProofs GradReal GenModel FFTModel FFTMath GenProofs GenBack GenCheck.
Import ListNotations.
Open Scope Z_scope.

(** * C70: the expressions written for a butterfly *)
(** Forward.  Whatever the symbolic inputs, the expressions built for the radix 2, 4 and 8 butterflies
    have the values the butterfly has on the values of the inputs (FFTModel.v, for which C11 and C12 relate
    whole transforms to the Fourier sum).  The values are taken at any point [I] at which sqrt(1/2) is
    meant by its text and twiddle(j) by the function [tn], unless two expressions offered to the
    table collide. *)
Theorem C70_forward_s : forall (G : SigOps) (I : interp RF), SigLaws G -> forall sh_text sh_sig, iother I sh_text = (/ sqrt 2)%R ->
  forall lr r j ys st tn jz w, (1 <= r <= 3)%nat -> wfe j -> Forall wfe ys -> length ys = (2 * 2 ^ r)%nat -> Inv st ->
  (forall z v, tn z = Ok v -> tval I (IZR z) = v) -> eval I j = IZR jz -> bfly_s R_ops r tn jz (thickv (map (eval I) ys)) = Ok w ->
  exists es st', gen_s G sh_text sh_sig lr r j ys st = Ok (es, st') /\ length es = length ys /\ Forall wfe es /\ Inv st' /\ ExpProofs.ext st st' /\
    (no_collision I (lg G st') -> map (eval I) es = flatv w).
Proof.
  intros G I HL sh_text sh_sig Hsh lr r j ys st tn jz w Hr Wj Wy Ly Hst Ht Ej Hw.
  destruct (gen_s_ok G I HL sh_text sh_sig (fun _ _ => (sh_text, sh_text)) Hsh lr r j ys tn jz w Hr Wj Wy Ly Ht Hw Ej st Hst) as (es & st' & E & I' & X & _ & (Le & We) & V).
  exists es, st'. auto 10.
Qed.
Print Assumptions C70_forward_s.
(** The first butterflies: for radix 2 and 4 the position is the literal 0 and twiddle factors are
    literal constants, for radix 8 they are looked up. *)
Theorem C70_forward_first : forall (G : SigOps) (I : interp RF), SigLaws G -> forall sh_text sh_sig tw_text, iother I sh_text = (/ sqrt 2)%R ->
  forall lr r j nr j1 xs st tn jz nz w, (1 <= r <= 3)%nat -> Forall wfe xs -> length xs = (2 ^ r)%nat -> Inv st ->
  ((r < 3)%nat -> j = mkint 0 /\ nr = mkint 1 /\ jz = 0 /\ forall v, tn 0 = Ok v -> (iother I (fst (tw_text 0 r)), iother I (snd (tw_text 0 r))) = v) ->
  (r = 3%nat -> wfe j /\ wfe nr /\ wfe j1 /\ eval I j = IZR jz /\ eval I nr = IZR nz /\ eval I j1 = IZR jz /\ forall z v, tn z = Ok v -> tval I (IZR z) = v) ->
  bfly_01s R_ops r tn jz nz (map (eval I) xs) = Ok w ->
  exists es st', gen_first G sh_text sh_sig tw_text lr r j nr j1 xs st = Ok (es, st') /\ length es = length xs /\ Forall wfe es /\ Inv st' /\ ExpProofs.ext st st' /\
    (no_collision I (lg G st') -> map (eval I) es = flatv w).
Proof.
  intros G I HL sh_text sh_sig tw_text Hsh lr r j nr j1 xs st tn jz nz w Hr Wx Lx Hst H12 H3 Hw.
  assert (H12' : (r < 3)%nat -> j = mkint 0 /\ nr = mkint 1 /\ jz = 0 /\ forall z v, tn z = Ok v -> z = 0 -> (iother I (fst (tw_text 0 r)), iother I (snd (tw_text 0 r))) = v).
  { intros Lr. destruct (H12 Lr) as (A1 & A2 & A3 & A4). split; [exact A1|]. split; [exact A2|]. split; [exact A3|]. intros z v E ->. apply A4. exact E. }
  destruct (gen_first_ok G I HL sh_text sh_sig tw_text Hsh lr r j nr j1 xs tn jz nz w Hr Wx Lx H12' H3 Hw st Hst) as (es & st' & E & I' & X & _ & (Le & We) & V).
  exists es, st'. auto 10.
Qed.
Print Assumptions C70_forward_first.

(** Backward.  Differentiating the expressions built for symbolic inputs px0, px1, ... gives
    expressions whose values are the transposed butterfly applied to the incoming differentials
    [us].  Asked of the circuit: the conditions of C61 (checked by [circuit_b], [apart_b],
    [fields_b]), and no collision, wherever the inputs px are. *)
Theorem C70_backward_s : forall (G : SigOps) (I : interp RF), SigLaws G -> forall sh_text sh_sig draw lr fuel unknown r j1 names us st0 st1 pys st jz tn w,
  (1 <= r <= 3)%nat -> length names = (2 ^ r)%nat -> NoDup (map (iv I) names) -> (forall a, ~ In (icall I "twiddle"%string [a]) (map (iv I) names)) ->
  Inv st0 -> wfe j1 -> gen_s G sh_text sh_sig lr r j1 (cinputs G draw names) st0 = Ok (pys, st1) ->
  circuit pys -> apart G (cinputs G draw names) pys -> fields_ok G (cinputs G draw names) pys -> (length (nodes pys) <= fuel)%nat ->
  wfe unknown -> Forall wfe us -> length us = (2 * 2 ^ r)%nat -> Inv st ->
  iother I sh_text = (/ sqrt 2)%R -> (forall z v, tn z = Ok v -> tval I (IZR z) = v) ->
  (forall J, near_c I (map (iv I) names) J -> eval J j1 = IZR jz /\ no_collision J (lg G st1)) ->
  transpose_c R_ops (2 ^ r) (bfly_s R_ops r tn jz) (thickv (map (eval I) us)) = Ok w ->
  exists ds st', gradient G fuel lr unknown (cinputs G draw names) pys us st = Ok (Some ds, st') /\ length ds = (2 * 2 ^ r)%nat /\ Forall wfe ds /\ Inv st' /\ ExpProofs.ext st st' /\
    (no_collision I (lg G st') -> map (eval I) ds = flatv w).
Proof. intros G I HL sh_text sh_sig draw. exact (back_s G I HL sh_text sh_sig (fun _ _ => (sh_text, sh_text)) draw). Qed.
Print Assumptions C70_backward_s.
Theorem C70_backward_first : forall (G : SigOps) (I : interp RF), SigLaws G -> forall sh_text sh_sig tw_text draw lr fuel unknown r j nr j1 names us st0 st1 pys st jz nz tn w,
  (1 <= r <= 3)%nat -> length names = (2 ^ r)%nat -> NoDup names -> Inv st0 -> gen_first G sh_text sh_sig tw_text lr r j nr j1 (rinputs G draw names) st0 = Ok (pys, st1) ->
  circuit pys -> apart G (rinputs G draw names) pys -> vars_ok G names (rinputs G draw names) pys -> (length (nodes pys) <= fuel)%nat ->
  wfe unknown -> Forall wfe us -> length us = (2 ^ r)%nat -> Inv st -> iother I sh_text = (/ sqrt 2)%R ->
  ((r < 3)%nat -> j = mkint 0 /\ nr = mkint 1 /\ jz = 0 /\ forall v, tn 0 = Ok v -> (iother I (fst (tw_text 0 r)), iother I (snd (tw_text 0 r))) = v) ->
  (r = 3%nat -> wfe j /\ wfe nr /\ wfe j1 /\ (forall z v, tn z = Ok v -> tval I (IZR z) = v) /\ forall J, near_r I names J -> eval J j = IZR jz /\ eval J nr = IZR nz /\ eval J j1 = IZR jz) ->
  (forall J, near_r I names J -> no_collision J (lg G st1)) ->
  transpose_r R_ops (2 ^ r) (bfly_01s R_ops r tn jz nz) (thickv (map (eval I) us)) = Ok w ->
  exists ds st', gradient G fuel lr unknown (rinputs G draw names) pys us st = Ok (Some ds, st') /\ length ds = (2 ^ r)%nat /\ Forall wfe ds /\ Inv st' /\ ExpProofs.ext st st' /\
    (no_collision I (lg G st') -> map (eval I) ds = w).
Proof. intros G I HL sh_text sh_sig tw_text draw. exact (back_first G I HL sh_text sh_sig tw_text draw). Qed.
Print Assumptions C70_backward_first.

(** ** Concrete cases *)
(** The radix 2 butterfly with twiddle factor 3/5 + 4/5 i, and its transpose. *)
Definition ej1 : exp toyg := mkvar "j1" (toy_draw "j1").
Definition eunknown : exp toyg := mkvar "unknown" (toy_draw "unknown").
Definition esh : toyg := q 70007.
Definition epx : list string := ["px0"; "px1"]%string.
Definition eds : list (exp toyg) := rinputs toyg toy_draw ["d0"; "d1"; "d2"; "d3"]%string.
Definition ereal : interp RF := Build_interp RF
  (fun v => if String.eqb v "px0" then 100 else if String.eqb v "px1" then 101 else if String.eqb v "j1" then 1 else 7)%R
  (fun _ => / sqrt 2)%R (fun f _ => if String.eqb f "r" then 3 / 5 else 4 / 5)%R (fun _ _ => 50)%R.
Definition etn (_ : Z) : res (R * R) := Ok (3 / 5, 4 / 5)%R.
Definition estart : cst toyg := cse0 toyg true.
Ltac vmo := match goal with |- @eq ?T ?a ?b => let v := eval vm_compute in a in unify b v; vm_cast_no_check (@eq_refl T v) end.
Example C70_s_example : exists pys st1 ds st2 w v,
  gen_s toyg "sh" esh true 1 ej1 (cinputs toyg toy_draw epx) estart = Ok (pys, st1) /\
  circuit pys /\ apart toyg (cinputs toyg toy_draw epx) pys /\ fields_ok toyg (cinputs toyg toy_draw epx) pys /\
  (forall J : interp RF, no_collision J (lg toyg st1)) /\ (forall J, near_c ereal (map (iv ereal) epx) J -> eval J ej1 = IZR 1) /\
  NoDup (map (iv ereal) epx) /\ (forall a, ~ In (icall ereal "twiddle"%string [a]) (map (iv ereal) epx)) /\ (length (nodes pys) <= 100)%nat /\
  (forall z v, etn z = Ok v -> tval ereal (IZR z) = v) /\
  transpose_c R_ops 2 (bfly_s R_ops 1 etn 1) (thickv (map (eval ereal) eds)) = Ok w /\ bfly_s R_ops 1 etn 1 (thickv (map (eval ereal) (cinputs toyg toy_draw epx))) = Ok v /\
  gradient toyg 100 true eunknown (cinputs toyg toy_draw epx) pys eds st1 = Ok (Some ds, st2) /\ no_collision ereal (lg toyg st2).
Proof.
  do 6 eexists. split; [vmo|]. split; [apply circuit_b_ok; vm_compute; reflexivity|]. split; [apply apart_b_ok; vm_compute; reflexivity|]. split; [apply fields_b_ok; vm_compute; reflexivity|].
  split; [intros J; apply canon_nocol; vm_compute; reflexivity|]. split; [intros J (H & _); cbn [ej1 mkvar eval map opval]; rewrite H; reflexivity|].
  split; [cbn; constructor; [cbn; intros [H|[]]; lra|constructor; [cbn; tauto|constructor]]|]. split; [intros a; cbn; intros [H|[H|[]]]; lra|]. split; [vm_compute; lia|].
  split; [intros z v E; injection E as <-; reflexivity|]. split; [reflexivity|]. split; [reflexivity|]. split; [vmo|]. apply canon_nocol. vm_compute. reflexivity.
Qed.
(** Radix 4 on reals, with the constants 1 and 0 for its twiddle factors. *)
Definition etw (_ : Z) (_ : nat) : string * string := ("one", "zero")%string.
Definition erx : list string := ["px0"; "px1"; "px2"; "px3"]%string.
Definition ereal2 : interp RF := Build_interp RF (fun _ => 7)%R
  (fun t => if String.eqb t "sh" then / sqrt 2 else if String.eqb t "one" then 1 else 0)%R (fun f _ => 0)%R (fun _ _ => 50)%R.
Definition etn0 (z : Z) : res (R * R) := Ok (1, 0)%R.
(** No collision but of the constants with 1 and 0. *)
Definition keep (e : exp toyg) : bool := match e with E (OOther t _) _ _ => String.eqb t "sh" | _ => true end.
Lemma consts_nocol : forall l, canon_b toyg (smalls toyg ++ filter keep l) = true ->
  (forall e, In e l -> keep e = false -> exists t p, In (t, p) [("one"%string, 1); ("zero"%string, 0)] /\ exists k, e = E (OOther t k) [] (sg_int toyg p)) ->
  forall J, near_r ereal2 erx J -> no_collision J l.
Proof.
  intros l H C J (_ & HJ & _).
  assert (V : forall e, In e (smalls toyg ++ l) -> exists e', In e' (smalls toyg ++ filter keep l) /\ sig_of e' = sig_of e /\ eval J e' = eval J e).
  { intros e He. apply in_app_or in He. destruct He as [He|He]; [exists e; split; [apply in_or_app; left; exact He|auto]|].
    destruct (keep e) eqn:K; [exists e; split; [apply in_or_app; right; apply filter_In; auto|auto]|].
    destruct (C e He K) as (t & p & Hp & k & ->). exists (mkint p). destruct Hp as [Hp|[Hp|[]]]; injection Hp as <- <-.
    - split; [apply in_or_app; left; apply in_map_iff; exists 33%nat; split; [reflexivity|apply in_seq; lia]|]. split; [reflexivity|]. cbn [mkint eval map opval]. rewrite HJ, RF_ofZ. reflexivity.
    - split; [apply in_or_app; left; apply in_map_iff; exists 32%nat; split; [reflexivity|apply in_seq; lia]|]. split; [reflexivity|]. cbn [mkint eval map opval]. rewrite HJ, RF_ofZ. reflexivity. }
  intros e1 e2 H1 H2 Q. destruct (V e1 H1) as (a & A1 & A2 & A3), (V e2 H2) as (b & B1 & B2 & B3).
  rewrite <- A3, <- B3. f_equal. apply (canon_b_ok toyg _ H); [exact A1|exact B1|congruence].
Qed.
Ltac consts := intros e He K; cbn [lg In] in He; repeat (destruct He as [<-|He]; [first [discriminate K|do 2 eexists; split; [left; reflexivity|eexists; f_equal; apply Qc_is_canon; reflexivity]|do 2 eexists; split; [right; left; reflexivity|eexists; f_equal; apply Qc_is_canon; reflexivity]]|]); contradiction.
Example C70_first_example : exists pys st1 ds st2 w v,
  gen_first toyg "sh" esh etw true 2 (mkint 0) (mkint 1) (mkint 0) (rinputs toyg toy_draw erx) estart = Ok (pys, st1) /\
  circuit pys /\ apart toyg (rinputs toyg toy_draw erx) pys /\ vars_ok toyg erx (rinputs toyg toy_draw erx) pys /\
  (forall J, near_r ereal2 erx J -> no_collision J (lg toyg st1)) /\ NoDup erx /\ (length (nodes pys) <= 100)%nat /\
  (forall v, etn0 0 = Ok v -> (iother ereal2 (fst (etw 0 2)), iother ereal2 (snd (etw 0 2))) = v) /\ iother ereal2 "sh" = (/ sqrt 2)%R /\
  transpose_r R_ops 4 (bfly_01s R_ops 2 etn0 0 1) (thickv (map (eval ereal2) eds)) = Ok w /\ bfly_01s R_ops 2 etn0 0 1 (map (eval ereal2) (rinputs toyg toy_draw erx)) = Ok v /\
  gradient toyg 100 true eunknown (rinputs toyg toy_draw erx) pys eds st1 = Ok (Some ds, st2) /\ no_collision ereal2 (lg toyg st2).
Proof.
  do 6 eexists. split; [vmo|]. split; [apply circuit_b_ok; vm_compute; reflexivity|]. split; [apply apart_b_ok; vm_compute; reflexivity|]. split; [apply vars_b_ok; vm_compute; reflexivity|].
  split; [apply consts_nocol; [vm_compute; reflexivity|consts]|]. split; [repeat (constructor; [cbn; intuition discriminate|]); constructor|]. split; [vm_compute; lia|].
  split; [intros v E; injection E as <-; reflexivity|]. split; [reflexivity|]. split; [reflexivity|]. split; [reflexivity|]. split; [vmo|].
  apply consts_nocol; [vm_compute; reflexivity|consts|unfold near_r; auto].
Qed.

(** ** constant_twiddle is only right for the exponent 0 *)
(** codelets.cc:576-586 prints nearest_twiddle(j, 2<<s), a root of order 2^(s+1), but computes the
    signature from the root of order 2^s.  At j = 1, s = 2 the signature is that of i, so the table
    returns the literals 0 and 1 in place of (1 + i)/sqrt 2.  The only exponent the codelets ask for is 0. *)
Theorem C70_constant_twiddle_refuted : exists (G : SigOps), SigLaws G /\ forall sh_sig tw_text lr, exists a b st,
  constant_twiddle G sh_sig tw_text lr 1 2 (cse0 G true) = Ok ((a, b), st) /\
  forall I : interp RF, eval I a = 0%R /\ eval I b = 1%R /\ (eval I a, eval I b) <> R_root 3 1.
Proof.
  exists toyg. split; [exact toyg_laws|]. intros sh_sig tw_text lr. destruct lr.
  - do 3 eexists. split; [vmo|]. intros I. split; [reflexivity|]. split; [cbn [eval map opval]; rewrite RF_ofZ; reflexivity|]. intros Q. injection Q as Q _. cbn in Q.
    replace (2 * PI * 1 / (2 * (2 * (2 * 1))))%R with (PI / 4)%R in Q by field. rewrite cos_PI4 in Q. assert (0 < 1 / sqrt 2)%R; [|lra]. apply Rdiv_lt_0_compat; [lra|apply sqrt_lt_R0; lra].
  - do 3 eexists. split; [vmo|]. intros I. split; [reflexivity|]. split; [cbn [eval map opval]; rewrite RF_ofZ; reflexivity|]. intros Q. injection Q as Q _. cbn in Q.
    replace (2 * PI * 1 / (2 * (2 * (2 * 1))))%R with (PI / 4)%R in Q by field. rewrite cos_PI4 in Q. assert (0 < 1 / sqrt 2)%R; [|lra]. apply Rdiv_lt_0_compat; [lra|apply sqrt_lt_R0; lra].
Qed.
Print Assumptions C70_constant_twiddle_refuted.
