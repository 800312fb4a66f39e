(** Properties of the generated expansion operators, codelets.cc:191-306 with exp.cc: C72. *)
From Coq Require Import String Ascii ZArith List Bool Lia Reals FMapPositive Lra.
From Flocq Require Import Core BinarySingleNaN.
From Verif Require Import Base ExpModel ExpProofs BlockProofs GenModel ExpansionModel ExpansionFloat ExpansionProofs ExpansionMul ExpansionBasic Properties_Expansion ExpnGenModel ExpnGenProofs.
Import ListNotations.
Open Scope Z_scope.

(** ** C72: the generated operators *)
(** [binary body n] is the operator the generator writes for expansions of n components: parameters
    x, y, the declarations and the returned components (codelets.cc:283-305).  Running the
    declarations on doubles, in the order written, gives the components of the algorithm run on
    values, up to the sign of zeros; NaNs and infinities included.  Every name is declared once and
    before it is used. *)
Theorem C72_add : forall (G : SigOps) draw lr n w, binary G draw (g_add G lr) n = Ok w -> no_clash G draw n w ->
  well_scoped (rev (in_names n)) (w_lines G w) /\ incl (flat_map vars (w_ret G w)) (in_names n ++ map fst (w_lines G w)) /\
  forall J x y, holds n J x y -> exists c, collange_add x y = Ok c /\ map (fun e => unsigned (deval (drun (w_lines G w) J) e)) (w_ret G w) = map unsigned c.
Proof. exact binary_add. Qed.
Print Assumptions C72_add.
Theorem C72_sub : forall (G : SigOps) draw lr n w, binary G draw (g_sub G lr) n = Ok w -> no_clash G draw n w ->
  well_scoped (rev (in_names n)) (w_lines G w) /\ incl (flat_map vars (w_ret G w)) (in_names n ++ map fst (w_lines G w)) /\
  forall J x y, holds n J x y -> exists c, collange_sub x y = Ok c /\ map (fun e => unsigned (deval (drun (w_lines G w) J) e)) (w_ret G w) = map unsigned c.
Proof. exact binary_sub. Qed.
Print Assumptions C72_sub.
Theorem C72_mul : forall (G : SigOps) draw sg0 lr n w, binary G draw (g_mul G sg0 lr) n = Ok w -> no_clash G draw n w ->
  well_scoped (rev (in_names n)) (w_lines G w) /\ incl (flat_map vars (w_ret G w)) (in_names n ++ map fst (w_lines G w)) /\
  forall J x y, holds n J x y -> exists c, collange_mul x y = Ok c /\ map (fun e => unsigned (deval (drun (w_lines G w) J) e)) (w_ret G w) = map unsigned c.
Proof. exact binary_mul. Qed.
Print Assumptions C72_mul.

(** What the written operators return is therefore as accurate as C46 and C47 say. *)
Lemma uns_B2R : forall a, B2R (unsigned a) = B2R a. Proof. intros [| | |]; reflexivity. Qed.
Lemma val_uns : forall l, val (map unsigned l) = val l.
Proof. induction l as [|a l IH]; [reflexivity|]. cbn [map]. rewrite !val_cons, IH, uns_B2R. reflexivity. Qed.
Lemma val_same : forall (A : Type) (f : A -> double) l c, map (fun e => unsigned (f e)) l = map unsigned c -> val (map f l) = val c.
Proof. intros A f l c H. rewrite <- (val_uns c), <- H, <- (map_map f unsigned). symmetry. apply val_uns. Qed.
Lemma holds_len : forall n J x y, holds n J x y -> length x = n /\ length y = n.
Proof. intros n J x y [<- <-]. rewrite !map_length, seq_length. split; reflexivity. Qed.
Section Accuracy.
Open Scope R_scope.
Theorem C72_add_error : forall (G : SigOps) draw lr n w, binary G draw (g_add G lr) n = Ok w -> no_clash G draw n w ->
  forall J x y, holds n J x y -> Forall fin (add_state (interleave x y)) ->
  Rabs (val (map (deval (drun (w_lines G w) J)) (w_ret G w)) - (val x + val y)) <= (INR (2 * n) * u * (1 + u) ^ (2 * n)) ^ n * (mags x + mags y).
Proof.
  intros G draw lr n w H HN J x y HJ F. destruct (C72_add G draw lr n w H HN) as (_ & _ & K). destruct (K J x y HJ) as (c & E & Ec).
  destruct (holds_len _ _ _ _ HJ) as [Lx Ly]. destruct (C46_add x y (eq_trans Lx (eq_sym Ly)) F) as (r & d & Er & _ & _ & _ & V & B).
  rewrite E in Er. injection Er as <-. rewrite (val_same _ _ _ _ Ec). rewrite Lx in B. replace (val c - (val x + val y)) with (- val d) by lra. rewrite Rabs_Ropp. exact B.
Qed.
Theorem C72_sub_error : forall (G : SigOps) draw lr n w, binary G draw (g_sub G lr) n = Ok w -> no_clash G draw n w ->
  forall J x y, holds n J x y -> Forall fin (add_state (interleave x (exp_neg y))) ->
  Rabs (val (map (deval (drun (w_lines G w) J)) (w_ret G w)) - (val x - val y)) <= (INR (2 * n) * u * (1 + u) ^ (2 * n)) ^ n * (mags x + mags y).
Proof.
  intros G draw lr n w H HN J x y HJ F. destruct (C72_sub G draw lr n w H HN) as (_ & _ & K). destruct (K J x y HJ) as (c & E & Ec).
  destruct (holds_len _ _ _ _ HJ) as [Lx Ly]. destruct (C46_sub x y (eq_trans Lx (eq_sym Ly)) F) as (r & d & Er & _ & V & B).
  rewrite E in Er. injection Er as <-. rewrite (val_same _ _ _ _ Ec). rewrite Lx in B. replace (val c - (val x - val y)) with (- val d) by lra. rewrite Rabs_Ropp. exact B.
Qed.
Theorem C72_mul_error : forall (G : SigOps) draw sg0 lr n w, binary G draw (g_mul G sg0 lr) n = Ok w -> no_clash G draw n w ->
  forall J x y pi drop, holds n J x y -> collange_mul_full x y = Ok (pi, drop) ->
  (forall a b, In a x -> In b y -> no_underflow a b) -> Forall ofin pi -> Forall ofin drop ->
  Rabs (val (map (deval (drun (w_lines G w) J)) (w_ret G w)) - val x * val y) <= u ^ n * (2 * ((2 + u) ^ (2 * n + 1)) ^ n * (weigh 0 x * weigh 0 y)).
Proof.
  intros G draw sg0 lr n w H HN J x y pi drop HJ HF U Fp Fd. destruct (C72_mul G draw sg0 lr n w H HN) as (_ & _ & K). destruct (K J x y HJ) as (c & E & Ec).
  destruct (holds_len _ _ _ _ HJ) as [Lx Ly]. destruct (C47_mul x y pi drop HF U Fp Fd) as (r & Er & V & B).
  rewrite E in Er. injection Er as <-. rewrite (val_same _ _ _ _ Ec). rewrite Lx in B. replace (val c - val x * val y) with (- oval drop) by lra. rewrite Rabs_Ropp. exact B.
Qed.
End Accuracy.
Print Assumptions C72_add_error. Print Assumptions C72_sub_error. Print Assumptions C72_mul_error.

(** The sign of zero has to be forgotten: the simplification of (-a) - b to -(a + b), exp.cc:172, is
    not exact on zeros.  With a = 0 and b = -0 the one gives 0 and the other -0. *)
Theorem C72_neg_sub_refuted : exists a b, dsub (dneg a) b <> dneg (dadd a b) /\ forall a b, unsigned (dsub (dneg a) b) = unsigned (dneg (dadd a b)).
Proof.
  exists dzero, (dneg dzero). split; [intro E; apply (f_equal B2SF) in E; discriminate E|]. intros a b. rewrite sub_add.
  rewrite (neg_add a b). reflexivity.
Qed.
Print Assumptions C72_neg_sub_refuted.

(** ** A concrete signature: hashes *)
Definition hp : Z := 2305843009213693951.
Definition hmix (a s : Z) : Z := ((a * 1000003 + s) * 69069 + (a / 7919) * (s mod 1000033) + 12345) mod hp.
Fixpoint hstr (s : string) : Z := match s with EmptyString => 17 | String c s => hmix (hstr s) (Z.of_nat (nat_of_ascii c)) end.
Definition hash : SigOps := {|
  sgT := Z; sg_eqb := Z.eqb; sg_int := fun n => n; sg_neg := Z.opp; sg_add := Z.add; sg_sub := Z.sub; sg_mul := Z.mul; sg_inv := fun _ => Throw;
  sg_arb := fun f l => 1000 + fold_left hmix l (match f with Some s => hstr s | None => 99 end);
  sg_unsmall := fun s => if Z.abs s <=? 32 then Some s else None; sg_eqb_ok := Z.eqb_eq
|}.
Definition hdraw (s : string) : hash := 1000 + hmix (hstr s) 4321.
Definition zkey (z : Z) : positive := match z with Z0 => 1 | Zpos p => p~0 | Zneg p => p~1 end%positive.
Fixpoint nodup_z (l : list Z) (m : PositiveMap.t unit) : bool :=
  match l with [] => true | z :: t => match PositiveMap.find (zkey z) m with Some _ => false | None => nodup_z t (PositiveMap.add (zkey z) tt m) end end.
Definition clash_free (n : nat) (w : written hash) : bool :=
  forallb (fun e : exp hash => match sg_unsmall hash (sig_of e) with None => true | Some _ => false end) (lg hash (w_cse hash w)) &&
  nodup_z (map (fun e : exp hash => sig_of e : Z) (all_nodes hash hdraw n w)) (PositiveMap.empty unit).
Definition ok_b (n : nat) (r : res (written hash)) : bool := match r with Ok w => clash_free n w | _ => false end.
Lemma nodup_z_ok : forall l m, nodup_z l m = true -> NoDup l /\ forall z, In z l -> PositiveMap.find (zkey z) m = None.
Proof.
  induction l as [|a l IH]; intros m H; [split; [constructor|intros z []]|]. cbn [nodup_z] in H. destruct (PositiveMap.find (zkey a) m) eqn:Ea; [discriminate|].
  destruct (IH _ H) as [N K]. split.
  - constructor; [|exact N]. intro Ha. specialize (K a Ha). rewrite PositiveMap.gss in K. discriminate.
  - intros z [<-|Hz]; [exact Ea|]. specialize (K z Hz). destruct (Pos.eq_dec (zkey z) (zkey a)) as [E|E]; [rewrite E, PositiveMap.gss in K; discriminate|].
    rewrite PositiveMap.gso in K by exact E. exact K.
Qed.
Lemma nodup_inj : forall A (f : A -> Z) l, NoDup (map f l) -> forall a b, In a l -> In b l -> f a = f b -> a = b.
Proof.
  induction l as [|c l IH]; intros N a b Ha Hb E; [destruct Ha|]. cbn [map] in N. inversion N as [|? ? Nc Nl]; subst.
  destruct Ha as [<-|Ha], Hb as [<-|Hb]; [reflexivity| | |exact (IH Nl a b Ha Hb E)]; exfalso; apply Nc; [rewrite E|rewrite <- E]; apply in_map; assumption.
Qed.
Lemma clash_free_ok : forall n w, clash_free n w = true -> no_clash hash hdraw n w.
Proof.
  intros n w H. apply andb_prop in H. destruct H as [H1 H2]. split.
  - intros e He. rewrite forallb_forall in H1. specialize (H1 e He). destruct (sg_unsmall hash (sig_of e)); [discriminate|reflexivity].
  - intros a b Ha Hb E. destruct (nodup_z_ok _ _ H2) as [N _]. exact (nodup_inj _ _ _ N a b Ha Hb E).
Qed.
Lemma ok_b_ok : forall n r, ok_b n r = true -> exists w, r = Ok w /\ no_clash hash hdraw n w.
Proof. intros n [w| |] H; try discriminate H. exists w. split; [reflexivity|]. apply clash_free_ok, H. Qed.
(** The hypotheses hold for every size the library uses (expansions of 2, 3 and 4 doubles). *)
Example C72_example : forall n, In n [2; 3; 4]%nat ->
  (exists w, binary hash hdraw (g_add hash true) n = Ok w /\ no_clash hash hdraw n w) /\
  (exists w, binary hash hdraw (g_sub hash true) n = Ok w /\ no_clash hash hdraw n w) /\
  (exists w, binary hash hdraw (g_mul hash (0 : hash) true) n = Ok w /\ no_clash hash hdraw n w).
Proof.
  intros n [<-|[<-|[<-|[]]]]; (split; [|split]); apply ok_b_ok; vm_compute; reflexivity.
Qed.
(** Addition of two components is six declarations; subtraction writes no negation. *)
Definition shape (r : res (written hash)) : list (string * op) := match r with Ok w => map (fun '(v, e) => (v, op_of e)) (w_lines hash w) | _ => [] end.
Example C72_shape : shape (binary hash hdraw (g_sub hash true) 2) =
    [("t", OSub); ("t0", OAdd); ("t1", OSub); ("t2", OAdd); ("t3", OSub); ("t4", OAdd)]%string /\
  shape (binary hash hdraw (g_add hash true) 2) =
    [("t", OAdd); ("t0", OAdd); ("t1", OAdd); ("t2", OSub); ("t3", OSub); ("t4", OSub)]%string.
Proof. split; vm_compute; reflexivity. Qed.
