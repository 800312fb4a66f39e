(** Backward mode (codelets.cc:605-613): the gradient of a generated linear circuit is the transpose. *)
From Coq Require Import String ZArith List Bool Lia Reals Lra.
From Verif Require Import Base Field FieldInst ExpModel ExpProofs BlockProofs GradSpec GradProofs GradReal FFTModel FFTMath GenModel GenProofs.
Import ListNotations.
Open Scope R_scope.

(** ** Linear maps on lists *)
Definition dotv (a b : list R) : R := fold_right Rplus 0 (map (fun p => fst p * snd p) (combine a b)).
Definition axpy (a : R) (v w : list R) : list R := map (fun p => a * fst p + snd p) (combine v w).
Definition e_ (n i : nat) : list R := unit_at 0 1 n i.
(** [f] maps lists of length [n] to lists of length [m], linearly. *)
Definition linear (n m : nat) (f : list R -> list R) : Prop :=
  (forall v, length v = n -> length (f v) = m) /\
  (forall a v w, length v = n -> length w = n -> f (axpy a v w) = axpy a (f v) (f w)).
Lemma e_len : forall n i, length (e_ n i) = n.
Proof. intros. unfold e_, unit_at. rewrite map_length, seq_length. reflexivity. Qed.
Lemma axpy_len : forall a v w, length v = length w -> length (axpy a v w) = length v.
Proof. intros a v w H. unfold axpy. rewrite map_length, combine_length. lia. Qed.
Lemma axpy_nth : forall a v w k, length v = length w -> nth k (axpy a v w) 0 = a * nth k v 0 + nth k w 0.
Proof.
  intros a v w k H. unfold axpy. revert w k H. induction v as [|x v IH]; intros [|y w] k H; try discriminate H.
  - destruct k; cbn; ring.
  - destruct k as [|k]; cbn [combine map nth fst snd]; [reflexivity|]. apply IH. injection H as H. exact H.
Qed.
Definition tr (n j : nat) (v : list R) : list R := map (fun i => if (i <? j)%nat then nth i v 0 else 0) (seq 0 n).
Lemma tr_len : forall n j v, length (tr n j v) = n.
Proof. intros. unfold tr. rewrite map_length, seq_length. reflexivity. Qed.
Lemma nth_map_seq : forall (g : nat -> R) n i, (i < n)%nat -> nth i (map g (seq 0 n)) 0 = g i.
Proof. intros g n i H. rewrite (nth_indep _ 0 (g 0%nat)) by (rewrite map_length, seq_length; exact H). rewrite map_nth, seq_nth by exact H. reflexivity. Qed.
Lemma tr_step : forall n j v, (j < n)%nat -> tr n (S j) v = axpy (nth j v 0) (e_ n j) (tr n j v).
Proof.
  intros n j v Hj. apply nth_ext with (d := 0) (d' := 0); [rewrite axpy_len, tr_len, e_len by (rewrite e_len, tr_len; reflexivity); reflexivity|].
  rewrite tr_len. intros i Hi. rewrite axpy_nth by (rewrite e_len, tr_len; reflexivity). unfold tr, e_, unit_at. rewrite !nth_map_seq by exact Hi.
  destruct (Nat.eqb_spec i j) as [->|N].
  - rewrite (proj2 (Nat.ltb_lt j (S j))) by lia. rewrite Nat.ltb_irrefl. ring.
  - destruct (Nat.ltb_spec i (S j)), (Nat.ltb_spec i j); try lia; ring.
Qed.
Lemma tr_all : forall v, tr (length v) (length v) v = v.
Proof.
  intros v. apply nth_ext with (d := 0) (d' := 0); [apply tr_len|]. rewrite tr_len. intros i Hi. unfold tr. rewrite nth_map_seq by exact Hi. rewrite (proj2 (Nat.ltb_lt _ _) Hi). reflexivity.
Qed.
Lemma combine_seq_dot : forall (g : nat -> R) v, dotv (map g (seq 0 (length v))) v = fold_right Rplus 0 (map (fun i => g i * nth i v 0) (seq 0 (length v))).
Proof.
  intros g v. unfold dotv. revert g. induction v as [|x v IH]; intros g; [reflexivity|]. cbn [length seq map combine fold_right fst snd nth].
  rewrite <- seq_shift, !map_map. rewrite (IH (fun i => g (S i))). reflexivity.
Qed.
Lemma linear_rows : forall n m f, linear n m f -> forall v k, length v = n -> (k < m)%nat -> nth k (f v) 0 = dotv (map (fun i => nth k (f (e_ n i)) 0) (seq 0 n)) v.
Proof.
  intros n m f [Lf Af] v k Lv Hk. subst n. rewrite combine_seq_dot. set (n := length v) in *.
  assert (P : forall j, (j <= n)%nat -> nth k (f (tr n j v)) 0 = fold_right Rplus 0 (map (fun i => nth k (f (e_ n i)) 0 * nth i v 0) (seq 0 j))).
  { induction j as [|j IH]; intros Hj.
    - cbn [seq map fold_right]. pose proof (Af (-1) (tr n 0 v) (tr n 0 v) (tr_len _ _ _) (tr_len _ _ _)) as A.
      assert (Z0 : axpy (-1) (tr n 0 v) (tr n 0 v) = tr n 0 v).
      { apply nth_ext with (d := 0) (d' := 0); [apply axpy_len; reflexivity|]. intros i _. rewrite axpy_nth by reflexivity. unfold tr. destruct (Nat.lt_ge_cases i n) as [Hi|Hi].
        - rewrite nth_map_seq by exact Hi. cbn. ring.
        - rewrite nth_overflow by (rewrite map_length, seq_length; exact Hi). ring. }
      rewrite Z0 in A. rewrite A. rewrite axpy_nth by reflexivity. rewrite A. rewrite axpy_nth by reflexivity. ring.
    - rewrite tr_step by lia. rewrite Af by (rewrite ?e_len, ?tr_len; reflexivity). rewrite axpy_nth by (rewrite !Lf by (rewrite ?e_len, ?tr_len; reflexivity); reflexivity).
      rewrite IH by lia. rewrite seq_S, map_app, fold_right_app. cbn [map fold_right Nat.add].
      set (a := nth k (f (e_ n j)) 0 * nth j v 0). replace (nth j v 0 * nth k (f (e_ n j)) 0) with a by (unfold a; ring). clearbody a.
      generalize (map (fun i => nth k (f (e_ n i)) 0 * nth i v 0) (seq 0 j)). intros l. replace (a + 0) with a by ring.
      assert (Q : forall l, a + fold_right Rplus 0 l = fold_right Rplus a l) by (intros l0; induction l0 as [|x l' IHl]; cbn [fold_right]; [ring|]; rewrite <- IHl; ring). apply Q. }
  rewrite <- P by lia. unfold n. rewrite tr_all. reflexivity.
Qed.

(** ** The gradient of a linear circuit *)
Section Back.
Variables (G : SigOps) (I : interp RF).
Hypothesis HL : SigLaws G.
Notation exp := (exp G).
(** Every input occurs, none inside another, and calls, fields and divisions do not involve them. *)
Definition apart (pxs pys : list exp) : Prop :=
  (forall x, In x pxs -> In x (nodes pys)) /\
  (forall i x i' x', nth_error pxs i = Some x -> nth_error pxs i' = Some x' -> i' <> i -> ~ mentions x x') /\
  (forall x y, In x pxs -> In y pys -> smooth x y).
Lemma nth_error_ok : forall A (l : list A) i d, (i < length l)%nat -> nth_error l i = Some (nth i l d).
Proof. intros A l i d H. apply nth_error_nth'. exact H. Qed.
Lemma nth_ev : forall (l : list exp) i (J : interp RF), nth i (map (eval J) l) (0 : R) = match nth_error l i with Some e => eval J e | None => 0 end.
Proof. intros l. induction l as [|x l IH]; intros [|i] J; try reflexivity. cbn [map nth nth_error]. apply IH. Qed.
Lemma fold_swap : forall (rows : list (list R)) (us : list exp) i,
  fold_right Rplus 0 (map (fun p => eval I (snd p) * nth i (fst p) 0) (combine rows us)) = dotv (map (fun row => nth i row 0) rows) (map (eval I) us).
Proof.
  intros rows us i. unfold dotv. revert us. induction rows as [|r rows IH]; intros [|u us]; try reflexivity. cbn [map combine fold_right fst snd]. rewrite IH. change (K RF) with R in *. ring.
Qed.
Theorem back_ok : forall fuel lr unknown pxs pys us st (K : interp RF -> Prop) f,
  circuit pys -> apart pxs pys -> (length (nodes pys) <= fuel)%nat -> wfe unknown -> Forall wfe us -> length pys = length us -> Inv st ->
  linear (length pxs) (length pys) f ->
  (forall J, K J -> map (eval J) pys = f (map (eval J) pxs)) ->
  (forall x, In x pxs -> exists J, moves G I pys x J /\ forall t, K (J t)) ->
  exists ds st', gradient G fuel lr unknown pxs pys us st = Ok (Some ds, st') /\ length ds = length pxs /\ Forall wfe ds /\ Inv st' /\ ExpProofs.ext st st' /\
    (no_collision I (lg G st') -> map (eval I) ds = map (fun i => dotv (f (e_ (length pxs) i)) (map (eval I) us)) (seq 0 (length pxs))).
Proof.
  intros fuel lr unknown pxs pys us st K f HC (Hin & Hap & Hsm) Hf Wu Wus Lu Hst Lf HK Hmv.
  destruct (gradient_ok RF G I HL pys HC fuel lr unknown pxs us Hf Wu Wus Lu Hin st Hst) as (r & st' & E & I' & X & _ & (ds & -> & Ld & Wds) & V).
  exists ds, st'. split; [exact E|]. split; [exact Ld|]. split; [exact Wds|]. split; [exact I'|]. split; [exact X|]. intros N.
  specialize (V N ds eq_refl). set (n := length pxs) in *.
  assert (P : forall i x d, nth_error pxs i = Some x -> nth_error ds i = Some d -> eval I d = dotv (f (e_ n i)) (map (eval I) us)).
  { intros i x d Ix Id. assert (Hx : In x pxs) by (eapply nth_error_In; exact Ix).
    assert (Hi : (i < n)%nat) by (apply nth_error_Some; rewrite Ix; discriminate).
    assert (D : eval I d = pullback I x pys us).
    { assert (Q : (forall y, In y pys -> smooth x y) -> eval I d = pullback I x pys us).
      { clear - V Ix Id. revert i Ix Id. induction V as [|a b xs ds H V IH]; intros [|i] Ix Id; try discriminate Ix.
        - cbn in Ix, Id. injection Ix as ->. injection Id as ->. exact H.
        - apply (IH i); assumption. }
      apply Q. intros y Hy. apply Hsm; assumption. }
    rewrite D. unfold pullback. destruct (Hmv x Hx) as (J & HJ & KJ).
    assert (Q : map (fun y => deriv I x y : R) pys = f (e_ n i)).
    { destruct Lf as [Lf1 Lf2]. apply nth_ext with (d := 0) (d' := 0); [rewrite map_length, Lf1 by apply e_len; reflexivity|]. rewrite map_length. intros k Hk.
      pose proof (nth_error_ok _ pys k x Hk) as Yk. set (y := nth k pys x) in *.
      transitivity (deriv I x y : R).
      { rewrite (nth_indep _ 0 (deriv I x x : R)) by (rewrite map_length; exact Hk). rewrite (map_nth (fun y => deriv I x y : R)). reflexivity. }
      assert (Hy : In y pys) by (eapply nth_error_In; exact Yk).
      rewrite (deriv_linear G I pys HC pxs (map (fun i => nth k (f (e_ n i)) 0) (seq 0 n)) y i x J).
      - apply nth_map_seq. exact Hi.
      - apply ys_nodes. exact Hy.
      - intros z Hz. apply Hin. exact Hz.
      - exact Ix.
      - rewrite map_length, seq_length. reflexivity.
      - intros i' x' Ix' Ne. apply (Hap i x i' x'); assumption.
      - exact HJ.
      - apply Hsm; assumption.
      - intros t. pose proof (HK _ (KJ t)) as Et. assert (Ek : eval (J t) y = nth k (f (map (eval (J t)) pxs)) 0).
        { rewrite <- Et. rewrite nth_ev, Yk. reflexivity. }
        rewrite Ek. rewrite (linear_rows n (length pys) f (Logic.conj Lf1 Lf2)); [|rewrite map_length; reflexivity|exact Hk].
        unfold dotv, dot. generalize (map (fun i0 => nth k (f (e_ n i0)) 0) (seq 0 n)). intros row. generalize pxs. clear.
        revert row. intros row xs. revert row. induction xs as [|x xs IH]; intros [|r row]; try reflexivity. cbn [map combine fold_right fst snd]. rewrite IH. reflexivity. }
    rewrite <- Q. unfold dotv. clear - Lu. revert us Lu. induction pys as [|y l IH]; intros [|u us] Lu; try discriminate Lu; try reflexivity. cbn [map combine fold_right fst snd]. rewrite IH by (injection Lu as Lu; exact Lu).
    cbn. change (FieldInst.RF) with RF. cbn. ring. }
  apply nth_ext with (d := 0) (d' := 0); [rewrite !map_length, seq_length; exact Ld|]. rewrite map_length. intros i Hi.
  rewrite nth_ev. pose proof (nth_error_ok _ ds i unknown Hi) as Id. rewrite Id. rewrite nth_map_seq by (rewrite <- Ld; exact Hi).
  apply (P i (nth i pxs unknown)); [|exact Id]. apply nth_error_ok. fold n. rewrite <- Ld. exact Hi.
Qed.
End Back.

(** ** The butterflies as linear maps on flat lists *)
Definition f_s (r : nat) (tn : Z -> res RC) (jz : Z) (v : list R) : list R := match bfly_s R_ops r tn jz (thickv v) with Ok w => flatv w | _ => [] end.
Definition f_first (r : nat) (tn : Z -> res RC) (jz nz : Z) (v : list R) : list R := match bfly_01s R_ops r tn jz nz v with Ok w => flatv w | _ => [] end.
Lemma flatv_thick : forall l, Nat.Even (length l) -> flatv (thickv l) = l.
Proof.
  fix IH 1. intros [|a [|b l]] H; [reflexivity| |]; cbn in H.
  - destruct H as [k H]. lia.
  - cbn [thickv flatv fst snd]. rewrite IH; [reflexivity|]. destruct H as [k H]. exists (k - 1)%nat. lia.
Qed.
Lemma thick_flatv : forall l, thickv (flatv l) = l.
Proof. induction l as [|[a b] l IH]; [reflexivity|]. cbn [flatv thickv fst snd]. rewrite IH. reflexivity. Qed.
Lemma flatv_len : forall l, length (flatv l) = (2 * length l)%nat.
Proof. induction l as [|z l IH]; [reflexivity|]. cbn [flatv length]. lia. Qed.
Ltac lst L := repeat (match type of L with length ?l = S _ => let a := fresh "a" in destruct l as [|a l]; [discriminate L|]; cbn [length] in L; apply eq_add_S in L end);
  match type of L with length ?l = O => destruct l; [|discriminate L] end.
Ltac rvals := cbv [axpy combine map fst snd flatv thickv cadd csub cmul conj left diagp diagm cscale bfly_0 R_ops add sub mul opp sh A].
Ltac comp := repeat (match goal with |- ?a :: ?l = ?b :: ?m => apply f_equal2; [ring|] end); try reflexivity.
Ltac tws H tn jz := repeat match type of H with context [bind (tn ?z) _] => let T := fresh "T" in destruct (tn z) eqn:T; try discriminate H; cbn [bind] in H end.
Lemma f_s_ok : forall r tn jz v0 w0, (1 <= r <= 3)%nat -> length v0 = (2 ^ r)%nat -> bfly_s R_ops r tn jz v0 = Ok w0 ->
  (forall v, length v = (2 ^ r)%nat -> exists w, bfly_s R_ops r tn jz v = Ok w /\ length w = (2 ^ r)%nat) /\ linear (2 * 2 ^ r) (2 * 2 ^ r) (f_s r tn jz).
Proof.
  intros r tn jz v0 w0 Hr L0 H. assert (C : r = 1%nat \/ r = 2%nat \/ r = 3%nat) by lia. destruct C as [-> | [-> | ->]]; cbn [Nat.pow Nat.mul Nat.add] in *; lst L0; unfold linear, f_s; cbn [bfly_s] in *.
  - unfold bfly_s1 in *. tws H tn jz. clear H. split; [|split].
    + intros v Lv. lst Lv. eexists. split; reflexivity.
    + intros v Lv. lst Lv. reflexivity.
    + intros c v w Lv Lw. lst Lv. lst Lw. cbn [axpy combine map fst snd thickv bind]. rvals. comp.
  - unfold bfly_s2 in *. tws H tn jz. clear H. split; [|split].
    + intros v Lv. lst Lv. eexists. split; reflexivity.
    + intros v Lv. lst Lv. reflexivity.
    + intros c v w Lv Lw. lst Lv. lst Lw. cbn [axpy combine map fst snd thickv bind]. rvals. comp.
  - unfold bfly_s3 in *. tws H tn jz. clear H. split; [|split].
    + intros v Lv. lst Lv. eexists. split; reflexivity.
    + intros v Lv. lst Lv. reflexivity.
    + intros c v w Lv Lw. lst Lv. lst Lw. cbn [axpy combine map fst snd thickv bind]. cbv zeta. rvals. comp.
Qed.
Lemma f_first_ok : forall r tn jz nz v0 w0, (1 <= r <= 3)%nat -> length v0 = (2 ^ r)%nat -> bfly_01s R_ops r tn jz nz v0 = Ok w0 ->
  (forall v, length v = (2 ^ r)%nat -> exists w, bfly_01s R_ops r tn jz nz v = Ok w /\ length w = (2 ^ r / 2)%nat) /\ linear (2 ^ r) (2 ^ r) (f_first r tn jz nz).
Proof.
  intros r tn jz nz v0 w0 Hr L0 H. assert (C : r = 1%nat \/ r = 2%nat \/ r = 3%nat) by lia. destruct C as [-> | [-> | ->]]; cbn [Nat.pow Nat.mul Nat.add] in *; lst L0; unfold linear, f_first; cbn [bfly_01s] in *.
  - clear H. split; [|split].
    + intros v Lv. lst Lv. eexists. split; reflexivity.
    + intros v Lv. lst Lv. reflexivity.
    + intros c v w Lv Lw. lst Lv. lst Lw. cbn [axpy combine map fst snd]. rvals. comp.
  - unfold bfly_1 in *. tws H tn jz. clear H. split; [|split].
    + intros v Lv. lst Lv. eexists. split; reflexivity.
    + intros v Lv. lst Lv. reflexivity.
    + intros c v w Lv Lw. lst Lv. lst Lw. cbn [axpy combine map fst snd bind]. rvals. comp.
  - unfold bfly_1, bfly_s1 in *. tws H tn jz. clear H. split; [|split].
    + intros v Lv. lst Lv. eexists. split; reflexivity.
    + intros v Lv. lst Lv. reflexivity.
    + intros c v w Lv Lw. lst Lv. lst Lw. cbn [axpy combine map fst snd bind]. rvals. comp.
Qed.

(** ** Transposes in flat form *)
Lemma dotc_flat : forall w u, dotc R_ops w u = dotv (flatv w) (flatv u).
Proof.
  intros w. unfold dotc, dotv. induction w as [|[a b] w IH]; intros [|[c d] u]; try reflexivity. cbn [combine fold_right flatv map fst snd]. rewrite IH. cbn [R_ops add mul A]. ring.
Qed.
Lemma mapr_nth : forall X Y (g : X -> res Y) l w, mapr g l = Ok w -> length w = length l /\ forall i x, nth_error l i = Some x -> exists y, nth_error w i = Some y /\ g x = Ok y.
Proof.
  intros X Y g. induction l as [|a l IH]; intros w H.
  - cbn in H. injection H as <-. split; [reflexivity|]. intros i x Hx. destruct i; discriminate Hx.
  - cbn [mapr] in H. destruct (g a) as [y| |] eqn:Ga; try discriminate H. cbn [bind] in H. destruct (mapr g l) as [r| |] eqn:Gl; try discriminate H. cbn [bind] in H. injection H as <-.
    destruct (IH r eq_refl) as [L1 L2]. split; [cbn [length]; rewrite L1; reflexivity|]. intros [|i] x Hx; cbn [nth_error] in *; [injection Hx as <-; exists y; split; [reflexivity|exact Ga]|apply L2; exact Hx].
Qed.
Lemma flatv_nth : forall w i, nth (2 * i) (flatv w) 0 = fst (nth i w (0, 0)) /\ nth (2 * i + 1) (flatv w) 0 = snd (nth i w (0, 0)).
Proof.
  induction w as [|[a b] w IH]; intros i.
  - cbn [flatv]. destruct i; (split; [destruct (2 * _)%nat|destruct (2 * _ + 1)%nat]; reflexivity).
  - destruct i as [|i]; [split; reflexivity|]. replace (2 * S i)%nat with (S (S (2 * i))) by lia. cbn [flatv nth Nat.add]. apply IH.
Qed.
Lemma thick_unit : forall n i, (i < n)%nat -> thickv (e_ (2 * n) (2 * i)) = unit_at (0, 0) (1, 0) n i /\ thickv (e_ (2 * n) (2 * i + 1)) = unit_at (0, 0) (0, 1) n i.
Proof.
  assert (Q : forall (g : nat -> R) n k, thickv (map g (seq k (2 * n))) = map (fun i => (g (k + 2 * i)%nat, g (k + 2 * i + 1)%nat)) (seq 0 n)).
  { intros g. induction n as [|n IH]; intros k; [reflexivity|]. replace (2 * S n)%nat with (S (S (2 * n))) by lia. cbn [seq map thickv]. rewrite IH. rewrite <- (seq_shift n 0), map_map. f_equal.
    - f_equal; f_equal; lia.
    - apply map_ext. intros i. f_equal; f_equal; lia. }
  intros n i Hi. unfold e_, unit_at. rewrite !Q. split; apply map_ext; intros k; cbn [Nat.add].
  - destruct (Nat.eqb_spec k i) as [->|Nk]; [rewrite Nat.eqb_refl; destruct (Nat.eqb_spec (2 * i + 1) (2 * i)); [lia|reflexivity]|].
    destruct (Nat.eqb_spec (2 * k) (2 * i)), (Nat.eqb_spec (2 * k + 1) (2 * i)); try lia; reflexivity.
  - destruct (Nat.eqb_spec k i) as [->|Nk]; [rewrite Nat.eqb_refl; destruct (Nat.eqb_spec (2 * i) (2 * i + 1)); [lia|reflexivity]|].
    destruct (Nat.eqb_spec (2 * k) (2 * i + 1)), (Nat.eqb_spec (2 * k + 1) (2 * i + 1)); try lia; reflexivity.
Qed.
Lemma unit_len : forall X (a b : X) n i, length (unit_at a b n i) = n.
Proof. intros. unfold unit_at. rewrite map_length, seq_length. reflexivity. Qed.
Lemma seq_err : forall n i, (i < n)%nat -> nth_error (seq 0 n) i = Some i.
Proof. intros n i H. rewrite (nth_error_nth' _ 0%nat) by (rewrite seq_length; exact H). rewrite seq_nth by exact H. reflexivity. Qed.
Lemma transpose_c_flat : forall r tn jz u w, (1 <= r <= 3)%nat -> transpose_c R_ops (2 ^ r) (bfly_s R_ops r tn jz) u = Ok w ->
  (exists v0 w0, length v0 = (2 ^ r)%nat /\ bfly_s R_ops r tn jz v0 = Ok w0) /\ length w = (2 ^ r)%nat /\
  flatv w = map (fun i => dotv (f_s r tn jz (e_ (2 * 2 ^ r) i)) (flatv u)) (seq 0 (2 * 2 ^ r)).
Proof.
  intros r tn jz u w Hr H. unfold transpose_c in H. apply mapr_nth in H. destruct H as [Lw H]. rewrite seq_length in Lw. change (A R_ops) with R in *.
  assert (Q : forall i, (i < 2 ^ r)%nat -> nth_error w i = Some (dotv (f_s r tn jz (e_ (2 * 2 ^ r) (2 * i))) (flatv u), dotv (f_s r tn jz (e_ (2 * 2 ^ r) (2 * i + 1))) (flatv u)) /\
    exists w0, bfly_s R_ops r tn jz (unit_at (0, 0) (1, 0) (2 ^ r) i) = Ok w0).
  { intros i Hi. destruct (H i i (seq_err _ _ Hi)) as (y & Hy & E). destruct (thick_unit (2 ^ r) i Hi) as [U1 U2]. unfold f_s. rewrite U1, U2.
    change (c0 R_ops) with (0, 0) in E. change (z0 R_ops) with 0 in E. change (z1 R_ops) with 1 in E. change (A R_ops) with R in E. 
    destruct (bfly_s R_ops r tn jz (unit_at (0, 0) (1, 0) (2 ^ r) i)) as [wr| |] eqn:E1; try discriminate E. cbn [bind] in E.
    destruct (bfly_s R_ops r tn jz (unit_at (0, 0) (0, 1) (2 ^ r) i)) as [wi| |] eqn:E2; try discriminate E. cbn [bind] in E. injection E as <-.
    rewrite Hy, !dotc_flat. split; [reflexivity|]. exists wr. reflexivity. }
  assert (P : (0 < 2 ^ r)%nat) by (apply Nat.neq_0_lt_0, Nat.pow_nonzero; discriminate).
  split; [destruct (Q 0%nat P) as [_ (w0 & E)]; exists (unit_at (0, 0) (1, 0) (2 ^ r) 0), w0; split; [apply unit_len|exact E]|]. split; [exact Lw|].
  apply nth_ext with (d := 0) (d' := 0); [rewrite flatv_len, map_length, seq_length, Lw; reflexivity|]. rewrite flatv_len, Lw. intros i Hi. rewrite nth_map_seq by exact Hi.
  destruct (Nat.Even_or_Odd i) as [[k Ek]|[k Ek]]; subst i; (assert (Hk : (k < 2 ^ r)%nat) by (clear - Hi; lia)); (destruct (Q k Hk) as [Qk _]); destruct (flatv_nth w k) as [N1 N2]; apply nth_error_nth with (d := (0, 0)) in Qk; rewrite Qk in *; assumption.
Qed.
Lemma transpose_r_flat : forall r tn jz nz u w, (1 <= r <= 3)%nat -> transpose_r R_ops (2 ^ r) (bfly_01s R_ops r tn jz nz) u = Ok w ->
  (exists v0 w0, length v0 = (2 ^ r)%nat /\ bfly_01s R_ops r tn jz nz v0 = Ok w0) /\ length w = (2 ^ r)%nat /\
  w = map (fun i => dotv (f_first r tn jz nz (e_ (2 ^ r) i)) (flatv u)) (seq 0 (2 ^ r)).
Proof.
  intros r tn jz nz u w Hr H. unfold transpose_r in H. apply mapr_nth in H. destruct H as [Lw H]. rewrite seq_length in Lw.
  assert (Q : forall i, (i < 2 ^ r)%nat -> nth_error w i = Some (dotv (f_first r tn jz nz (e_ (2 ^ r) i)) (flatv u)) /\ exists w0, bfly_01s R_ops r tn jz nz (e_ (2 ^ r) i) = Ok w0).
  { intros i Hi. destruct (H i i (seq_err _ _ Hi)) as (y & Hy & E). unfold f_first.
    change (unit_at (z0 R_ops) (z1 R_ops) (2 ^ r) i) with (e_ (2 ^ r) i) in E. change (A R_ops) with R in E.
    destruct (bfly_01s R_ops r tn jz nz (e_ (2 ^ r) i)) as [wr| |] eqn:E1; try discriminate E. cbn [bind] in E. injection E as <-. rewrite Hy, dotc_flat. split; [reflexivity|]. exists wr. reflexivity. }
  assert (P : (0 < 2 ^ r)%nat) by (apply Nat.neq_0_lt_0, Nat.pow_nonzero; discriminate).
  split; [destruct (Q 0%nat P) as [_ (w0 & E)]; exists (e_ (2 ^ r) 0), w0; split; [apply e_len|exact E]|]. split; [exact Lw|].
  apply nth_ext with (d := 0) (d' := 0); [rewrite map_length, seq_length; exact Lw|]. rewrite Lw. intros i Hi. rewrite nth_map_seq by exact Hi.
  destruct (Q i Hi) as [Qi _]. apply nth_error_nth with (d := 0) in Qi. exact Qi.
Qed.

(** ** Backward butterflies *)
Section Circuits.
Variables (G : SigOps) (I : interp RF).
Hypothesis HL : SigLaws G.
Variables (sh_text : string) (sh_sig : G) (tw_text : Z -> nat -> string * string) (draw : string -> G).
Notation exp := (exp G).
(** Complex and real parameters of the given names (codelets.cc:130-135). *)
Definition cinput (n : string) : list exp :=
  [E (OField "r") [mkvar n (draw n)] (sg_arb G (Some "r"%string) [draw n]); E (OField "i") [mkvar n (draw n)] (sg_arb G (Some "i"%string) [draw n])].
Definition cinputs (names : list string) : list exp := flat_map cinput names.
Definition rinputs (names : list string) : list exp := map (fun n => mkvar n (draw n)) names.
(** Points differing from [I] only in the parts of the complex values [hs], or in the variables [vs]. *)
Definition near_c (hs : list R) (J : interp RF) : Prop :=
  iv J = iv I /\ iother J = iother I /\ icall J = icall I /\ forall f a, ~ In a hs -> ifield J f a = ifield I f a.
Definition near_r (vs : list string) (J : interp RF) : Prop :=
  (forall v, ~ In v vs -> iv J v = iv I v) /\ iother J = iother I /\ icall J = icall I /\ ifield J = ifield I.
(** Parts are taken of the inputs and of twiddle factors only; inputs are known by name. *)
Definition fields_ok (pxs pys : list exp) : Prop :=
  forall z f, In z (nodes pys) -> op_of z = OField f -> In z pxs \/ exists j s s', z = E (OField f) [E (OCall "twiddle") [j] s] s'.
Definition vars_ok (names : list string) (pxs pys : list exp) : Prop :=
  forall z v, In z (nodes pys) -> op_of z = OVar v -> In v names -> In z pxs.

Lemma cinputs_len : forall names, length (cinputs names) = (2 * length names)%nat.
Proof. induction names as [|n l IH]; [reflexivity|]. cbn [cinputs flat_map cinput app length]. fold (cinputs l). lia. Qed.
Lemma cinputs_in : forall names x, In x (cinputs names) -> exists n f, In n names /\ (f = "r" \/ f = "i")%string /\ x = E (OField f) [mkvar n (draw n)] (sg_arb G (Some f) [draw n]).
Proof.
  intros names x H. apply in_flat_map in H. destruct H as (n & Hn & [<-|[<-|[]]]); exists n; eexists; (split; [exact Hn|split; [|reflexivity]]); [left|right]; reflexivity.
Qed.
Lemma cinputs_wfe : forall names, Forall wfe (cinputs names).
Proof. intros names. apply Forall_forall. intros x Hx. apply cinputs_in in Hx. destruct Hx as (n & f & _ & _ & ->). exact Logic.I. Qed.
Lemma rinputs_wfe : forall names, Forall wfe (rinputs names).
Proof. intros names. apply Forall_forall. intros x Hx. apply in_map_iff in Hx. destruct Hx as (n & <- & _). exact Logic.I. Qed.
Lemma nodup_map_inj : forall (f : string -> R) l a b, NoDup (map f l) -> In a l -> In b l -> f a = f b -> a = b.
Proof.
  intros f. induction l as [|x l IH]; intros a b N Ha Hb E; [destruct Ha|]. cbn [map] in N. apply NoDup_cons_iff in N. destruct N as [Nx N].
  destruct Ha as [->|Ha], Hb as [->|Hb]; [reflexivity| | |apply IH; assumption].
  - exfalso. apply Nx. rewrite E. apply in_map. exact Hb.
  - exfalso. apply Nx. rewrite <- E. apply in_map. exact Ha.
Qed.
Lemma set_field_near : forall hs f a t, In a hs -> near_c hs (set_field I f a t).
Proof.
  intros hs f a t Ha. split; [reflexivity|]. split; [reflexivity|]. split; [reflexivity|]. intros g b Hb. cbn [set_field ifield].
  destruct (String.eqb g f); [|reflexivity]. destruct (Req_EM_T b a) as [->|]; [contradiction|reflexivity].
Qed.
Lemma near_self : forall hs, near_c hs I.
Proof. intros hs. unfold near_c. auto. Qed.
Lemma cinputs_move : forall names pys x, circuit pys -> fields_ok (cinputs names) pys -> NoDup (map (iv I) names) ->
  (forall a, ~ In (icall I "twiddle"%string [a]) (map (iv I) names)) -> In x (cinputs names) -> In x (nodes pys) ->
  exists J, moves G I pys x J /\ forall t, near_c (map (iv I) names) (J t).
Proof.
  intros names pys x HC HF ND HT Hx Nx. apply cinputs_in in Hx. destruct Hx as (n & f & Hn & Hf & Ex).
  exists (fun t => set_field I f (iv I n) t). split; [|intros t; apply set_field_near; apply in_map; exact Hn].
  apply (moves_field G I pys HC x f (mkvar n (draw n)) _ Nx Ex).
  intros z a s' Hz Ez Ea. cbn [mkvar eval map opval] in Ea. destruct (HF z f Hz) as [Iz|(j & s & s2 & Iz)]; [rewrite Ez; reflexivity| |].
  - apply cinputs_in in Iz. destruct Iz as (n' & f' & Hn' & _ & Ez'). rewrite Ez' in Ez. injection Ez as -> <- _. cbn [mkvar eval map opval] in Ea.
    rewrite Ez', Ex. rewrite (nodup_map_inj (iv I) names n' n ND Hn' Hn Ea). reflexivity.
  - rewrite Iz in Ez. injection Ez as <- _. cbn [eval map opval] in Ea. exfalso. apply (HT (eval I j)). rewrite Ea. apply in_map. exact Hn.
Qed.
Lemma det : forall A (m : M G A) st (a b : A) sa sb, m st = Ok (a, sa) -> m st = Ok (b, sb) -> a = b /\ sa = sb.
Proof. intros A m st a b sa sb H1 H2. rewrite H1 in H2. injection H2 as <- <-. auto. Qed.

Theorem back_s : forall lr fuel unknown r j1 names us st0 st1 pys st jz tn w, (1 <= r <= 3)%nat -> length names = (2 ^ r)%nat ->
  NoDup (map (iv I) names) -> (forall a, ~ In (icall I "twiddle"%string [a]) (map (iv I) names)) ->
  Inv st0 -> wfe j1 -> gen_s G sh_text sh_sig lr r j1 (cinputs names) st0 = Ok (pys, st1) ->
  circuit pys -> apart G (cinputs names) pys -> fields_ok (cinputs names) pys -> (length (nodes pys) <= fuel)%nat -> wfe unknown -> Forall wfe us -> length us = (2 * 2 ^ r)%nat -> Inv st ->
  iother I sh_text = / sqrt 2 -> (forall z v, tn z = Ok v -> tval I (IZR z) = v) ->
  (forall J, near_c (map (iv I) names) J -> eval J j1 = IZR jz /\ no_collision J (lg G st1)) ->
  transpose_c R_ops (2 ^ r) (bfly_s R_ops r tn jz) (thickv (map (eval I) us)) = Ok w ->
  exists ds st', gradient G fuel lr unknown (cinputs names) pys us st = Ok (Some ds, st') /\ length ds = (2 * 2 ^ r)%nat /\ Forall wfe ds /\ Inv st' /\ ExpProofs.ext st st' /\
    (no_collision I (lg G st') -> map (eval I) ds = flatv w).
Proof.
  intros lr fuel unknown r j1 names us st0 st1 pys st jz tn w Hr Ln ND HT Hst0 Wj Hg HC HA HF Hf Wu Wus Lu Hst Hsh Htn HK Hw.
  destruct (transpose_c_flat r tn jz _ w Hr Hw) as ((v0 & w0 & L0 & H0) & Lw & Fw). destruct (f_s_ok r tn jz v0 w0 Hr L0 H0) as [Tot Lin].
  assert (Lx : length (cinputs names) = (2 * 2 ^ r)%nat) by (rewrite cinputs_len, Ln; reflexivity).
  assert (Val : forall J, near_c (map (iv I) names) J -> length pys = (2 * 2 ^ r)%nat /\ map (eval J) pys = f_s r tn jz (map (eval J) (cinputs names))).
  { intros J HJ. destruct (HK J HJ) as [Ej Nc]. destruct (Tot (thickv (map (eval J) (cinputs names)))) as (wJ & EJ & LJ).
    { clear - Lx. assert (Q : forall n l, length l = (2 * n)%nat -> length (thickv l) = n).
      { induction n as [|n IH]; intros l H; [destruct l; [reflexivity|discriminate H]|]. destruct l as [|a [|b l]]; try (cbn in H; lia). cbn [thickv length]. rewrite IH; [reflexivity|]. cbn [length] in H. lia. }
      apply Q. rewrite map_length. exact Lx. }
    destruct HJ as (J1 & J2 & J3 & J4).
    assert (M0 : mspec RF G J (gen_s G sh_text sh_sig lr r j1 (cinputs names)) (fun es => length es = length (cinputs names) /\ Forall wfe es) (fun es => map (eval J) es = flatv wJ)).
    { apply (gen_s_ok G J HL sh_text sh_sig) with (tn := tn) (jz := jz); try assumption.
      - rewrite J2. exact Hsh.
      - apply cinputs_wfe.
      - intros z v E. unfold tval. rewrite J3, !J4 by apply HT. apply Htn. exact E. }
    destruct (M0 st0 Hst0) as (es & s1 & E1 & _ & _ & _ & [L1 _] & V1). destruct (det _ _ _ _ _ _ _ Hg E1) as [<- <-].
    split; [rewrite L1; exact Lx|]. rewrite V1 by exact Nc. unfold f_s. rewrite EJ. reflexivity. }
  assert (Lp : length pys = (2 * 2 ^ r)%nat) by (apply (Val I), near_self).
  destruct (back_ok G I HL fuel lr unknown (cinputs names) pys us st (near_c (map (iv I) names)) (f_s r tn jz)) as (ds & st' & E & Ld & Wd & I' & X & V); try assumption.
  - rewrite Lp, Lu. reflexivity.
  - rewrite Lp, Lx. exact Lin.
  - intros J HJ. apply Val. exact HJ.
  - intros x Hx. apply cinputs_move; try assumption. apply HA. exact Hx.
  - exists ds, st'. rewrite Lx in Ld. split; [exact E|]. split; [exact Ld|]. split; [exact Wd|]. split; [exact I'|]. split; [exact X|]. intros N. rewrite (V N), Fw, Lx.
    rewrite flatv_thick; [reflexivity|]. rewrite map_length, Lu. exists (2 ^ r)%nat. reflexivity.
Qed.

Theorem back_first : forall lr fuel unknown r j nr j1 names us st0 st1 pys st jz nz tn w, (1 <= r <= 3)%nat -> length names = (2 ^ r)%nat -> NoDup names ->
  Inv st0 -> gen_first G sh_text sh_sig tw_text lr r j nr j1 (rinputs names) st0 = Ok (pys, st1) ->
  circuit pys -> apart G (rinputs names) pys -> vars_ok names (rinputs names) pys -> (length (nodes pys) <= fuel)%nat -> wfe unknown -> Forall wfe us -> length us = (2 ^ r)%nat -> Inv st ->
  iother I sh_text = / sqrt 2 ->
  ((r < 3)%nat -> j = mkint 0 /\ nr = mkint 1 /\ jz = 0%Z /\ forall v, tn 0%Z = Ok v -> (iother I (fst (tw_text 0%Z r)), iother I (snd (tw_text 0%Z r))) = v) ->
  (r = 3%nat -> wfe j /\ wfe nr /\ wfe j1 /\ (forall z v, tn z = Ok v -> tval I (IZR z) = v) /\ forall J, near_r names J -> eval J j = IZR jz /\ eval J nr = IZR nz /\ eval J j1 = IZR jz) ->
  (forall J, near_r names J -> no_collision J (lg G st1)) ->
  transpose_r R_ops (2 ^ r) (bfly_01s R_ops r tn jz nz) (thickv (map (eval I) us)) = Ok w ->
  exists ds st', gradient G fuel lr unknown (rinputs names) pys us st = Ok (Some ds, st') /\ length ds = (2 ^ r)%nat /\ Forall wfe ds /\ Inv st' /\ ExpProofs.ext st st' /\
    (no_collision I (lg G st') -> map (eval I) ds = w).
Proof.
  intros lr fuel unknown r j nr j1 names us st0 st1 pys st jz nz tn w Hr Ln ND Hst0 Hg HC HA HF Hf Wu Wus Lu Hst Hsh H12 H3 HK Hw.
  destruct (transpose_r_flat r tn jz nz _ w Hr Hw) as ((v0 & w0 & L0 & H0) & Lw & Fw). destruct (f_first_ok r tn jz nz v0 w0 Hr L0 H0) as [Tot Lin].
  assert (Lx : length (rinputs names) = (2 ^ r)%nat) by (unfold rinputs; rewrite map_length; exact Ln).
  assert (Val : forall J, near_r names J -> length pys = (2 ^ r)%nat /\ map (eval J) pys = f_first r tn jz nz (map (eval J) (rinputs names))).
  { intros J HJ. pose proof (HK J HJ) as Nc. destruct (Tot (map (eval J) (rinputs names))) as (wJ & EJ & LJ); [rewrite map_length; exact Lx|].
    pose proof HJ as (J1 & J2 & J3 & J4).
    assert (M0 : mspec RF G J (gen_first G sh_text sh_sig tw_text lr r j nr j1 (rinputs names)) (fun es => length es = length (rinputs names) /\ Forall wfe es) (fun es => map (eval J) es = flatv wJ)).
    { apply (gen_first_ok G J HL sh_text sh_sig tw_text) with (tn := tn) (jz := jz) (nz := nz); try assumption.
      - rewrite J2. exact Hsh.
      - apply rinputs_wfe.
      - intros Lr. destruct (H12 Lr) as (A1 & A2 & A3 & A4). split; [exact A1|]. split; [exact A2|]. split; [exact A3|]. intros z v E ->. rewrite J2. apply A4. exact E.
      - intros Er. destruct (H3 Er) as (A1 & A2 & A3 & A4 & A5). destruct (A5 J HJ) as (B1 & B2 & B3). split; [exact A1|]. split; [exact A2|]. split; [exact A3|]. split; [exact B1|]. split; [exact B2|]. split; [exact B3|].
        intros z v E. unfold tval. rewrite J3, J4. apply A4. exact E. }
    destruct (M0 st0 Hst0) as (es & s1 & E1 & _ & _ & _ & [L1 _] & V1). destruct (det _ _ _ _ _ _ _ Hg E1) as [<- <-].
    split; [rewrite L1; exact Lx|]. rewrite V1 by exact Nc. unfold f_first. rewrite EJ. reflexivity. }
  assert (near0 : near_r names I) by (unfold near_r; auto).
  assert (Lp : length pys = (2 ^ r)%nat) by (apply (Val I), near0).
  destruct (back_ok G I HL fuel lr unknown (rinputs names) pys us st (near_r names) (f_first r tn jz nz)) as (ds & st' & E & Ld & Wd & I' & X & V); try assumption.
  - rewrite Lp, Lu. reflexivity.
  - rewrite Lp, Lx. exact Lin.
  - intros J HJ. apply Val. exact HJ.
  - intros x Hx. assert (Nx : In x (nodes pys)) by (apply HA; exact Hx). apply in_map_iff in Hx. destruct Hx as (n & Ex & Hn).
    exists (fun t => set_iv I n t). split.
    + apply (moves_var G I pys HC x n Nx); [rewrite <- Ex; reflexivity|]. intros z Hz Oz. pose proof (HF z n Hz Oz Hn) as Iz. apply in_map_iff in Iz. destruct Iz as (n' & <- & _). cbn in Oz. injection Oz as ->. exact Ex.
    + intros t. unfold near_r. cbn [set_iv iv iother icall ifield]. split; [|auto]. intros v Hv. destruct (String.eqb_spec v n) as [->|]; [contradiction|reflexivity].
  - exists ds, st'. rewrite Lx in Ld. split; [exact E|]. split; [exact Ld|]. split; [exact Wd|]. split; [exact I'|]. split; [exact X|]. intros N. rewrite (V N), Fw, Lx.
    rewrite flatv_thick; [reflexivity|]. rewrite map_length, Lu. exists (2 ^ (r - 1))%nat. destruct r as [|r]; [lia|]. cbn [Nat.pow]. f_equal. f_equal. lia.
Qed.
End Circuits.
