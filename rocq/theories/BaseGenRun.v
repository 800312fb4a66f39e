(** What the statements of BaseGenModel.v do: a small machine.  Specification, independent of the
    generator.

    Memory is a partial map from addresses to scalars; the arrays are pointers into it and may
    overlap in any way.  Reading or writing an address outside of it is undefined ([None]). *)
From Coq Require Import String ZArith List Bool.
From Verif Require Import Base Field ExpModel BlockProofs BaseGenModel.
Import ListNotations.
Open Scope Z_scope.

Section Run.
Variables (F : Fld) (G : SigOps).
Definition mem : Type := Z -> option F.
(** The int parameters and the pointers of the call. *)
Record frame : Type := { f_int : string -> Z; f_ptr : string -> Z }.
Definition put (m : mem) (p : Z) (v : F) : mem := fun q => if q =? p then Some v else m q.
Fixpoint exec (f : frame) (l : list (sstmt G)) (I : interp F) (m : mem) : option mem :=
  match l with
  | [] => Some m
  | QRet c i :: t => if f_int f c <=? Z.of_nat i then Some m else exec f t I m
  | QStop c i :: t => if f_int f c =? Z.of_nat i then Some m else exec f t I m
  | QLoad v i c a :: t =>
      if Z.of_nat i <? f_int f c
      then match m (f_ptr f a + Z.of_nat i) with Some x => exec f t (set_iv I v x) m | None => None end
      else exec f t (set_iv I v k0) m
  | QLet v e :: t => exec f t (set_iv I v (eval I e)) m
  | QStore a i e :: t =>
      let p := f_ptr f a + Z.of_nat i in
      match m p with Some _ => exec f t I (put m p (eval I e)) | None => None end
  end.
End Run.
Arguments exec {F G}. Arguments put {F}.
