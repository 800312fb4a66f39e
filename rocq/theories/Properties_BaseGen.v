(** Properties of the generated multiplication base cases, codelets.cc:308-369 with exp.cc: C73. *)
From Coq Require Import String ZArith List Bool Lia QArith Qcanon.
From Verif Require Import Base Field FieldInst ExpModel ExpProofs BlockProofs ExpToy GenCheck BaseGenModel BaseGenRun BaseGenProofs.
Import ListNotations.
Open Scope nat_scope.

(** ** C73: the bodies of mul_base and sqr_base *)
(** Run on any memory in which the elements in range exist, the statements written for n terms
    replace the first n elements of z by the coefficients of the product of x and y as they were
    before, each taken as zero beyond its end, and change nothing else.  The arrays may overlap in
    any way.  If z is empty nothing is read. *)
Theorem C73_mul : forall (F : Fld) (G : SigOps), SigLaws G -> forall (draw : string -> G) lr f n g (I : interp F) m,
  mul_gen G draw lr n = Ok g -> clean F G g ->
  ((0 < f_int f "nz")%Z -> mapped f m "x" "nx" n /\ mapped f m "y" "ny" n /\ mapped f m "z" "nz" n) ->
  exists m', exec f (q_out G g) I m = Some m' /\ replaced f m "z" "nz" n (conv (item f m "x" "nx") (item f m "y" "ny")) m'.
Proof. exact mul_gen_ok. Qed.
Print Assumptions C73_mul.
Theorem C73_sqr : forall (F : Fld) (G : SigOps), SigLaws G -> forall (draw : string -> G) lr f n g (I : interp F) m,
  sqr_gen G draw lr n = Ok g -> clean F G g ->
  ((0 < f_int f "ny")%Z -> mapped f m "x" "nx" n /\ mapped f m "y" "ny" n) ->
  exists m', exec f (q_out G g) I m = Some m' /\ replaced f m "y" "ny" n (conv (item f m "x" "nx") (item f m "x" "nx")) m'.
Proof. exact sqr_gen_ok. Qed.
Print Assumptions C73_sqr.

(** ** The hypotheses hold for the size the library uses *)
Definition clean_b (G : SigOps) (r : res (qst G)) : bool :=
  match r with Ok g => canon_b G (smalls G ++ lg G (q_cse G g)) && canon_b G (flat_map subs (q_asked G g)) | _ => false end.
Lemma clean_b_ok : forall (G : SigOps) r, clean_b G r = true -> exists g, r = Ok g /\ forall F, clean F G g.
Proof.
  unfold clean_b. intros G [g| |] H; [|discriminate H|discriminate H]. apply andb_prop in H. destruct H as [H1 H2]. exists g. split; [reflexivity|]. intros F J. split; [exact (canon_nocol G _ H1 F J)|].
  intros a b Ha Hb E. exact (f_equal (eval J) (canon_b_ok G _ H2 a b Ha Hb E)).
Qed.
Lemma mul_clean : clean_b toyg (mul_gen toyg toy_draw true 8) = true. Proof. vm_compute. reflexivity. Qed.
Lemma sqr_clean : clean_b toyg (sqr_gen toyg toy_draw true 8) = true. Proof. vm_compute. reflexivity. Qed.
Example C73_example : SigLaws toyg /\ (exists g, mul_gen toyg toy_draw true 8 = Ok g /\ forall F, clean F toyg g) /\ (exists g, sqr_gen toyg toy_draw true 8 = Ok g /\ forall F, clean F toyg g).
Proof. split; [exact toyg_laws|]. split; [exact (clean_b_ok toyg _ mul_clean)|exact (clean_b_ok toyg _ sqr_clean)]. Qed.
(** The statements written for three terms, run with x = [1, 2, 3], y = [2, 3] inside of x and z = x:
    (1 + 2 t + 3 t^2) (2 + 3 t) = 2 + 7 t + 12 t^2 + ...; the fourth element stays. *)
Definition frame0 : frame := {| f_int := fun s => if String.eqb s "nx" then 3%Z else if String.eqb s "ny" then 2%Z else 4%Z; f_ptr := fun s => if String.eqb s "y" then 1%Z else 0%Z |}.
Definition mem0 : mem QcF := fun p => if ((0 <=? p) && (p <? 5))%Z then Some (Q2Qc (inject_Z (p + 1))) else None.
Definition I0 : interp QcF := {| iv := fun _ => k0; ifield := fun _ _ => k0; icall := fun _ _ => k0; iother := fun _ => k0 |}.
Definition run0 (r : res (qst toyg)) : list (option Z) :=
  match r with Ok g => match exec frame0 (q_out toyg g) I0 mem0 with Some m => map (fun p => option_map (fun v => Qnum (this v)) (m (Z.of_nat p))) (seq 0 6) | None => [] end | _ => [] end.
Example C73_run : run0 (mul_gen toyg toy_draw true 3) = [Some 2; Some 7; Some 12; Some 4; Some 5; None]%Z /\
  run0 (mul_gen toyg toy_draw true 8) = [Some 2; Some 7; Some 12; Some 9; Some 5; None]%Z.
Proof. split; vm_compute; reflexivity. Qed.
