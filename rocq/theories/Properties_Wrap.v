(** C86: the C++ classes around FLINT's structs (WrapModel.v, specification in WrapSpec.v). *)
From Coq Require Import ZArith List Bool Lia.
From Verif Require Import Base WrapModel WrapSpec WrapProofs.
Import ListNotations.
Open Scope nat_scope.

(** Objects behave as values: whatever is constructed, copied, moved, assigned, printed and destroyed
    in whatever order, every outcome is the one for plain values; an operation is undefined only if
    it constructs an object where one is, or uses one that is not there. *)
Theorem C86_values : forall V zero big keep l,
  fst (fst (wrun V zero big keep l (store0 V) (mem0 V))) = fst (vrun V zero l (fun _ => None)).
Proof.
  intros V zero big keep l. pose proof (wrun_ok V zero big keep l _ _ _ _ (inv0 V) (same0 V)) as H.
  destruct (wrun V zero big keep l (store0 V) (mem0 V)) as [[r t] m], (vrun V zero l (fun _ => None)) as [r' u]. exact (proj1 H).
Qed.
Print Assumptions C86_values.

(** No two objects ever share a block, and no object holds a freed one. *)
Theorem C86_one_owner : forall V zero big keep l,
  let '(r, t, m) := wrun V zero big keep l (store0 V) (mem0 V) in
  ~ In UB r -> forall o o' s s' i, t o = Some s -> t o' = Some s' -> blk V s = Some i -> blk V s' = Some i -> o = o' /\ cells V m i <> None.
Proof.
  intros V zero big keep l. pose proof (wrun_ok V zero big keep l _ _ _ _ (inv0 V) (same0 V)) as H.
  destruct (wrun V zero big keep l (store0 V) (mem0 V)) as [[r t] m], (vrun V zero l (fun _ => None)) as [r' u]. destruct H as [_ H]. intros N. destruct (H N) as (_ & lk & I & _).
  intros o o' s s' i E E' B B'. split; [apply (v_one _ _ _ _ I i); [exists s; auto|exists s'; auto]|]. apply (v_live _ _ _ _ I). left. exists o, s. auto.
Qed.
Print Assumptions C86_one_owner.

(** When all objects are destroyed, exactly the buffers of the texts printed are still allocated. *)
Theorem C86_leaks : forall V zero big keep l,
  let '(r, t, m) := wrun V zero big keep l (store0 V) (mem0 V) in
  ~ In UB r -> (forall o, snd (vrun V zero l (fun _ => None)) o = None) ->
  exists ids, NoDup ids /\ length ids = prints V l /\ forall i, cells V m i <> None <-> In i ids.
Proof.
  intros V zero big keep l. pose proof (wrun_ok V zero big keep l _ _ _ _ (inv0 V) (same0 V)) as H.
  destruct (wrun V zero big keep l (store0 V) (mem0 V)) as [[r t] m], (vrun V zero l (fun _ => None)) as [r' u]. destruct H as [_ H]. cbn [snd]. intros N D. destruct (H N) as (S & lk & I & L).
  exists lk. split; [exact (v_nodup _ _ _ _ I)|]. split; [cbn in L; lia|]. intros i. rewrite (v_live _ _ _ _ I i). split; [|auto]. intros [[o (s & E & _)]|Q]; [|exact Q]. exfalso. specialize (S o). rewrite E, (D o) in S. exact S.
Qed.
Print Assumptions C86_leaks.

(** Integers with a block for those of more than 62 bits, under either policy for blocks not needed. *)
Definition z_big (v : Z) : bool := (4611686018427387903 <? Z.abs v)%Z.
Definition z_run (keep : bool) (l : list (wop Z)) := wrun Z 0%Z z_big keep l (store0 Z) (mem0 Z).
Definition huge : Z := (2 ^ 100)%Z.
Definition z_prog : list (wop Z) :=
  [New Z 0; Assign Z 0 huge; NewCopy Z 1 0; NewMove Z 2 0; Get Z 0; Get Z 1; Assign Z 0 7%Z; Move Z 0 2; Get Z 0; Get Z 2; Copy Z 2 1; Copy Z 2 2; Get Z 2; Safe Z 1;
   Destroy Z 1; Destroy Z 0; Get Z 2; Destroy Z 2].
Example C86_example : forall keep, fst (fst (z_run keep z_prog)) =
  [Ok None; Ok None; Ok None; Ok None; Ok (Some 0%Z); Ok (Some huge); Ok None; Ok None; Ok (Some huge); Ok (Some 0%Z); Ok None; Ok None; Ok (Some huge); Ok (Some huge); Ok None; Ok None; Ok (Some huge); Ok None].
Proof. intros []; vm_compute; reflexivity. Qed.
Example C86_case : forall keep, ~ In UB (fst (fst (z_run keep z_prog))) /\ (forall o, snd (vrun Z 0%Z z_prog (fun _ => None)) o = None) /\ prints Z z_prog = 0.
Proof.
  intros keep. split; [rewrite C86_example; intros H; repeat (destruct H as [H|H]; [discriminate|]); exact H|]. split; [|reflexivity].
  intros o. destruct o as [|[|[|o]]]; reflexivity.
Qed.

(** That nothing stays allocated is false: each printed text stays. *)
Theorem C86_print_refuted : ~ (forall l, ~ In UB (fst (fst (z_run true l))) -> (forall o, snd (vrun Z 0%Z l (fun _ => None)) o = None) -> forall i, cells Z (snd (z_run true l)) i = None).
Proof.
  intros H. specialize (H [New Z 0; Print Z 0; Destroy Z 0]). assert (Q : cells Z (snd (z_run true [New Z 0; Print Z 0; Destroy Z 0])) 0 = None); [|vm_compute in Q; discriminate]. apply H.
  - vm_compute. intros K. repeat (destruct K as [K|K]; [discriminate|]). exact K.
  - intros [|o]; reflexivity.
Qed.
Print Assumptions C86_print_refuted.
(** That moving an object to itself keeps its value is false: it becomes zero. *)
Theorem C86_self_move_refuted : forall V zero big keep v,
  fst (fst (wrun V zero big keep [New V 0; Assign V 0 v; Move V 0 0; Get V 0] (store0 V) (mem0 V))) = [Ok None; Ok None; Ok None; Ok (Some zero)].
Proof. intros V zero big keep v. rewrite C86_values. reflexivity. Qed.
Print Assumptions C86_self_move_refuted.
