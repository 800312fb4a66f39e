(** Properties of the generated series base cases, codelets.cc:406-457 with series.h and exp.cc: C75. *)
From Coq Require Import String ZArith List Bool Lia QArith Qcanon.
From Verif Require Import Base Field FPS FieldInst ExpModel ExpProofs BlockProofs ExpToy GenCheck BaseGenModel BaseGenRun BaseGenProofs
  SeriesModel SeriesSpec AlgoProofs SerGenModel SerGenSim SerGenProofs SerGenCheck.
Import ListNotations.
Open Scope Z_scope.

(** ** C75: the bodies of inv_base and exp_base *)
(** Run on any memory in which the elements in range exist, with ny at least 1, the statements written
    for the reciprocal replace the first min(5, ny) elements of y by coefficients of a series v with
    x v = 1 up to order 5, x being what it was before and zero beyond its end, and change nothing else.
    The arrays may overlap in any way. *)
Theorem C75_inv : forall (F : Fld) (G : SigOps), SigLaws G -> forall (draw : string -> G) lr f g (I : interp F) m,
  inv_gen G draw lr 5 = Ok g -> clean_on F G (fun J => inverts F J /\ iv J (elem "x" 0) <> k0) g -> inverts F I ->
  0 < f_int f "ny" -> mapped f m "x" "nx" 5 -> mapped f m "y" "ny" 5 -> item f m "x" "nx" 0 <> k0 ->
  exists m' v, exec f (q_out G g) I m = Some m' /\ replaced f m "y" "ny" 5 v m' /\ eqn 5 (fmul (item f m "x" "nx") v) f1.
Proof. exact inv_gen_ok. Qed.
Print Assumptions C75_inv.
(** Likewise the exponential of x, its constant term taken as zero; that element need not exist. *)
Theorem C75_exp : forall (F : Fld) (G : SigOps), SigLaws G -> forall (draw : string -> G) lr f g (I : interp F) m,
  exp_gen G draw lr 5 = Ok g -> clean_on F G (inverts F) g -> inverts F I ->
  0 < f_int f "ny" -> (forall i, (1 <= i < 5)%nat -> Z.of_nat i < f_int f "nx" -> m (f_ptr f "x" + Z.of_nat i) <> None) -> mapped f m "y" "ny" 5 ->
  exists m' v, exec f (q_out G g) I m = Some m' /\ replaced f m "y" "ny" 5 v m' /\
    eqn 5 v (fexp (fun i => match i with O => k0 | S _ => item f m "x" "nx" i end)).
Proof. exact exp_gen_ok. Qed.
Print Assumptions C75_exp.
(** With the wrapper around them they are what the series functions need of their base cases. *)
Theorem C75_bases : forall (F : Fld) (G : SigOps), SigLaws G -> forall (draw : string -> G) lr gi ge (I : interp F),
  inv_gen G draw lr 5 = Ok gi -> clean_on F G (fun J => inverts F J /\ iv J (elem "x" 0) <> k0) gi ->
  exp_gen G draw lr 5 = Ok ge -> clean_on F G (inverts F) ge -> inverts F I -> bases_ok (prog_bases (q_out G gi) (q_out G ge) I).
Proof. exact prog_bases_ok. Qed.
Print Assumptions C75_bases.

(** ** The hypotheses hold for a signature scheme *)
Definition xnames : list string := map (elem "x") (seq 0 5).
Lemma inv_clean : clean_b toyg true xnames (inv_gen toyg toy_draw true 5) = true. Proof. vm_compute. reflexivity. Qed.
Lemma exp_clean : clean_b toyg false xnames (exp_gen toyg toy_draw true 5) = true. Proof. vm_compute. reflexivity. Qed.
Local Strategy 1000 [ser_gen inv_gen exp_gen clean_b].
Lemma C75_example_inv : exists g, inv_gen toyg toy_draw true 5 = Ok g /\ forall F, clean_on F toyg (fun J => inverts F J /\ iv J (elem "x" 0) <> k0) g.
Proof.
  destruct (clean_b_ok toyg true (elem "x" 0) (map (elem "x") (seq 1 4)) (inv_gen toyg toy_draw true 5) inv_clean) as (g & E & H). exists g. split; [exact E|]. intros F J [H1 H2]. apply H. split; [exact H1|]. intros _. exact H2.
Qed.
Lemma C75_example_exp : exists g, exp_gen toyg toy_draw true 5 = Ok g /\ forall F, clean_on F toyg (inverts F) g.
Proof.
  destruct (clean_b_ok toyg false (elem "x" 0) (map (elem "x") (seq 1 4)) (exp_gen toyg toy_draw true 5) exp_clean) as (g & E & H). exists g. split; [exact E|]. intros F J H1. apply H. split; [exact H1|]. discriminate.
Qed.
(** So there are programs with which the series reciprocal and exponential of any size are right, for
    every field and kernel. *)
Theorem C75_series : exists inv_body exp_body : list (sstmt toyg), forall (F : Fld) (kern : kernel F) (I : interp F) (y x : series F),
  kernel_ok kern -> inverts F I -> valid x -> known x <= 2 ^ 28 -> known x <= limit y ->
  let base := prog_bases inv_body exp_body I in
  (pos x -> (0 < known x -> den x O <> k0) -> exists y', set_inv F kern base y x = Ok y' /\ valid y' /\ known y' = known x /\ eqn (Z.to_nat (known x)) (fmul (den x) (den y')) f1) /\
  (den x O = k0 -> exists y', set_exp F kern base y x = Ok y' /\ valid y' /\ known y' = known x /\ eqn (Z.to_nat (known x)) (den y') (fexp (den x))).
Proof.
  destruct C75_example_inv as (gi & Ei & Ci). destruct C75_example_exp as (ge & Ee & Ce). exists (q_out toyg gi), (q_out toyg ge).
  intros F kern I y x HK HI Hx Hs Hl base. assert (HB : bases_ok base) by exact (C75_bases F toyg toyg_laws toy_draw true gi ge I Ei (Ci F) Ee (Ce F) HI). split.
  - intros Hp H0. destruct (set_inv_ok F kern HK base HB y x Hx Hp H0 Hs Hl) as (y' & E & (V & K & _) & D & _). exists y'. auto.
  - intros H0. destruct (set_exp_gen_ok F kern HK base HB true y x Hx H0 Hs Hl) as (y' & E & (V & K & _) & D & _). exists y'. auto.
Qed.
Print Assumptions C75_series.
(** Runs over the rationals.  The reciprocal of 2 + t written over x: 1/2, -1/4, 1/8, -1/16; the fifth
    element, beyond ny, stays.  The exponential of t, with 7 for the unused constant: 1, 1, 1/2, 1/6, 1/24. *)
Definition Iq : interp QcF := {| iv := fun _ => k0; ifield := fun _ _ => k0; icall := fun _ l => match l with [a] => kinv a | _ => k0 end; iother := fun _ => k0 |}.
Definition fr (nx ny py : Z) : frame := {| f_int := fun s => if String.eqb s "nx" then nx else ny; f_ptr := fun s => if String.eqb s "y" then py else 0 |}.
Definition mq (l : list Z) : mem QcF := fun p => if p <? 0 then None else option_map (fun z => Q2Qc (inject_Z z)) (nth_error l (Z.to_nat p)).
Definition runq (r : res (qst toyg)) (f : frame) (m : mem QcF) (p : Z) (n : nat) : list (option (Z * positive)) :=
  match r with Ok g => match exec f (q_out toyg g) Iq m with Some m => map (fun i => option_map (fun v => (Qnum (this v), Qden (this v))) (m (p + Z.of_nat i))) (seq 0 n) | None => [] end | _ => [] end.
Example C75_run :
  runq (inv_gen toyg toy_draw true 5) (fr 2 4 0) (mq [2; 1; 9; 9; 9]) 0 6 = [Some (1, 2%positive); Some (-1, 4%positive); Some (1, 8%positive); Some (-1, 16%positive); Some (9, 1%positive); None] /\
  runq (exp_gen toyg toy_draw true 5) (fr 2 6 2) (mq [7; 1; 9; 9; 9; 9; 9; 9]) 2 6 =
    [Some (1, 1%positive); Some (1, 1%positive); Some (1, 2%positive); Some (1, 6%positive); Some (1, 24%positive); Some (9, 1%positive)].
Proof. split; vm_compute; reflexivity. Qed.
