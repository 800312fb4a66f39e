(** Formal power series over a field of characteristic 0, and congruence
    modulo z^n.  Pure mathematics: used both to state the series properties and
    to prove them. *)
From Coq Require Import ZArith List Bool Lia ZifyBool ZifyNat.
From Coq Require Import Ring Field Setoid Morphisms.
From Verif Require Import Field.
Open Scope nat_scope.

Section FPS.
Variable F : Fld.
Add Field Kfield : (kfield F).
Notation KK := (K F).
Local Open Scope K_scope.
Local Open Scope nat_scope.

(** ** Integers in the field *)
Lemma kofnat_S : forall n, kofnat (F:=F) (S n) = (1 + kofnat n)%K.
Proof. reflexivity. Qed.

Lemma kofnat_add : forall a b, kofnat (F:=F) (a + b) = (kofnat a + kofnat b)%K.
Proof.
  induction a as [|a IH]; intros b; [cbn; ring|].
  cbn [plus]. rewrite !kofnat_S, IH. ring.
Qed.

Lemma kofnat_mul : forall a b, kofnat (F:=F) (a * b) = (kofnat a * kofnat b)%K.
Proof.
  induction a as [|a IH]; intros b; [cbn; ring|].
  cbn [mult]. rewrite kofnat_add, kofnat_S, IH. ring.
Qed.

Lemma kofnat_nz : forall n, n <> 0 -> kofnat (F:=F) n <> 0%K.
Proof.
  intros [|n] H; [congruence|].
  assert (E : forall m, kofnat (F:=F) m = Nat.iter m (kadd k1) k0).
  { induction m as [|m IH]; [reflexivity|]. cbn [kofnat Nat.iter nat_rect]. rewrite IH. reflexivity. }
  rewrite E. apply kchar0.
Qed.

Lemma kofnat_1 : kofnat (F:=F) 1 = 1%K.
Proof. cbn. ring. Qed.

Lemma kofZ_of_nat : forall n, kofZ (F:=F) (Z.of_nat n) = kofnat n.
Proof. intros [|n]; [reflexivity|]. cbn [Z.of_nat kofZ]. rewrite SuccNat2Pos.id_succ. reflexivity. Qed.

Lemma kofZ_opp : forall z, kofZ (F:=F) (- z) = (- kofZ z)%K.
Proof. intros [|p|p]; cbn; ring. Qed.

Lemma kofZ_sub_nat : forall a b : nat, kofZ (F:=F) (Z.of_nat a - Z.of_nat b) = (kofnat a - kofnat b)%K.
Proof.
  intros a b. destruct (Nat.le_gt_cases b a) as [H|H].
  - replace (Z.of_nat a - Z.of_nat b)%Z with (Z.of_nat (a - b)) by lia.
    rewrite kofZ_of_nat. replace (kofnat a) with (kofnat (F:=F) ((a - b) + b)) by (f_equal; lia).
    rewrite kofnat_add. ring.
  - replace (Z.of_nat a - Z.of_nat b)%Z with (- Z.of_nat (b - a))%Z by lia.
    rewrite kofZ_opp, kofZ_of_nat. replace (kofnat b) with (kofnat (F:=F) ((b - a) + a)) by (f_equal; lia).
    rewrite kofnat_add. ring.
Qed.

Lemma kofZ_add : forall x y, kofZ (F:=F) (x + y) = (kofZ x + kofZ y)%K.
Proof.
  intros x y.
  assert (Hx : exists a b : nat, x = (Z.of_nat a - Z.of_nat b)%Z) by (exists (Z.to_nat x), (Z.to_nat (- x)); lia).
  assert (Hy : exists a b : nat, y = (Z.of_nat a - Z.of_nat b)%Z) by (exists (Z.to_nat y), (Z.to_nat (- y)); lia).
  destruct Hx as (a & b & ->), Hy as (c & d & ->).
  replace (Z.of_nat a - Z.of_nat b + (Z.of_nat c - Z.of_nat d))%Z with (Z.of_nat (a + c) - Z.of_nat (b + d))%Z by lia.
  rewrite !kofZ_sub_nat, !kofnat_add. ring.
Qed.

Lemma kofZ_mul : forall x y, kofZ (F:=F) (x * y) = (kofZ x * kofZ y)%K.
Proof.
  intros x y.
  assert (Hx : exists a b : nat, x = (Z.of_nat a - Z.of_nat b)%Z) by (exists (Z.to_nat x), (Z.to_nat (- x)); lia).
  assert (Hy : exists a b : nat, y = (Z.of_nat a - Z.of_nat b)%Z) by (exists (Z.to_nat y), (Z.to_nat (- y)); lia).
  destruct Hx as (a & b & ->), Hy as (c & d & ->).
  replace ((Z.of_nat a - Z.of_nat b) * (Z.of_nat c - Z.of_nat d))%Z
    with (Z.of_nat (a * c + b * d) - Z.of_nat (a * d + b * c))%Z by nia.
  rewrite !kofZ_sub_nat, !kofnat_add, !kofnat_mul. ring.
Qed.

Lemma kofZ_nz : forall z, z <> 0%Z -> kofZ (F:=F) z <> 0%K.
Proof.
  intros [|p|p] H; [congruence| |].
  - cbn. apply kofnat_nz. lia.
  - cbn. intros E. apply (kofnat_nz (Pos.to_nat p)); [lia|].
    replace (kofnat (F:=F) (Pos.to_nat p)) with (- - kofnat (F:=F) (Pos.to_nat p))%K by ring.
    rewrite E. ring.
Qed.

Lemma k1_nz : (1%K : KK) <> 0%K.
Proof. exact (F_1_neq_0 (kfield F)). Qed.

Lemma ktwo_nz : ktwo (F:=F) <> 0%K.
Proof.
  unfold ktwo. intros E. apply (kofnat_nz 2); [lia|]. cbn [kofnat].
  transitivity (1 + 1 : KK)%K; [ring|exact E].
Qed.

Lemma kmul_nz : forall a b : KK, a <> 0%K -> b <> 0%K -> (a * b)%K <> 0%K.
Proof.
  intros a b Ha Hb E. apply Hb.
  replace b with ((a * b) / a)%K by (field; exact Ha). rewrite E. field. exact Ha.
Qed.

Lemma kdiv_eq : forall a b c : KK, a <> 0%K -> (a * b)%K = (a * c)%K -> b = c.
Proof.
  intros a b c Ha E. replace b with ((a * b) / a)%K by (field; exact Ha).
  rewrite E. field. exact Ha.
Qed.

(** ** Finite sums *)
Fixpoint sumto (f : nat -> KK) (n : nat) : KK :=
  match n with O => 0%K | S n' => (sumto f n' + f n')%K end.

Lemma sumto_ext : forall f g n, (forall i, i < n -> f i = g i) -> sumto f n = sumto g n.
Proof.
  intros f g n H. induction n as [|n IH]; [reflexivity|].
  cbn [sumto]. rewrite IH, H by auto. reflexivity.
Qed.

Lemma sumto_add : forall f g n, sumto (fun i => f i + g i)%K n = (sumto f n + sumto g n)%K.
Proof. induction n as [|n IH]; cbn [sumto]; [ring|rewrite IH; ring]. Qed.

Lemma sumto_scale : forall c f n, sumto (fun i => c * f i)%K n = (c * sumto f n)%K.
Proof. induction n as [|n IH]; cbn [sumto]; [ring|rewrite IH; ring]. Qed.

Lemma sumto_0 : forall f n, (forall i, i < n -> f i = 0%K) -> sumto f n = 0%K.
Proof.
  intros f n H. induction n as [|n IH]; [reflexivity|].
  cbn [sumto]. rewrite IH, H by auto. ring.
Qed.

Lemma sumto_first : forall f n, sumto f (S n) = (f O + sumto (fun i => f (S i)) n)%K.
Proof.
  induction n as [|n IH]; [cbn; ring|].
  change (sumto f (S (S n))) with (sumto f (S n) + f (S n))%K. rewrite IH.
  cbn [sumto]. ring.
Qed.

Lemma sumto_split : forall f a b, sumto f (a + b)%nat = (sumto f a + sumto (fun i => f (a + i)%nat) b)%K.
Proof.
  induction b as [|b IH]; [rewrite Nat.add_0_r; cbn; ring|].
  rewrite Nat.add_succ_r. cbn [sumto]. rewrite IH. ring.
Qed.

Lemma sumto_rev : forall f n, sumto f n = sumto (fun i => f (n - 1 - i)%nat) n.
Proof.
  induction n as [|n IH]; [reflexivity|].
  symmetry. rewrite sumto_first. change (sumto f (S n)) with (sumto f n + f n)%K. rewrite IH.
  replace (S n - 1 - 0) with n by lia.
  rewrite (sumto_ext (fun i => f (S n - 1 - S i)%nat) (fun i => f (n - 1 - i)%nat));
    [ring|intros i Hi; f_equal; lia].
Qed.

Lemma sumto_swap : forall (f : nat -> nat -> KK) n m,
  sumto (fun i => sumto (fun j => f i j) m) n = sumto (fun j => sumto (fun i => f i j) n) m.
Proof.
  induction n as [|n IH]; intros m.
  - cbn [sumto]. symmetry. apply sumto_0. reflexivity.
  - cbn [sumto]. rewrite IH, <- sumto_add. apply sumto_ext. reflexivity.
Qed.

Lemma sumto_triangle : forall (f : nat -> nat -> KK) n,
  sumto (fun j => sumto (fun k => f k (j - k)%nat) (S j)) n
  = sumto (fun k => sumto (fun l => f k l) (n - k)) n.
Proof.
  induction n as [|n IH]; [reflexivity|].
  change (sumto (fun j => sumto (fun k => f k (j - k)%nat) (S j)) (S n))
    with (sumto (fun j => sumto (fun k => f k (j - k)%nat) (S j)) n + sumto (fun k => f k (n - k)%nat) (S n))%K.
  rewrite IH.
  assert (E : sumto (fun k => sumto (fun l => f k l) (S n - k)) (S n)
              = sumto (fun k => sumto (fun l => f k l) (n - k)%nat + f k (n - k)%nat)%K (S n)).
  { apply sumto_ext. intros k Hk. replace (S n - k) with (S (n - k)) by lia. reflexivity. }
  rewrite E, sumto_add. cbn [sumto]. rewrite Nat.sub_diag. cbn [sumto]. ring.
Qed.

(** ** Power series *)
Definition fps := nat -> KK.
Definition feq (a b : fps) : Prop := forall i, a i = b i.
Definition eqn (n : nat) (a b : fps) : Prop := forall i, i < n -> a i = b i.

Definition fC (c : KK) : fps := fun i => match i with O => c | S _ => 0%K end.
Definition f0 : fps := fun _ => 0%K.
Definition f1 : fps := fC 1%K.
Definition fadd (a b : fps) : fps := fun i => (a i + b i)%K.
Definition fsub (a b : fps) : fps := fun i => (a i - b i)%K.
Definition fopp (a : fps) : fps := fun i => (- a i)%K.
Definition fmul (a b : fps) : fps := fun i => sumto (fun j => a j * b (i - j)%nat)%K (S i).
(** z^n *)
Definition zp (n : nat) : fps := fun i => if i =? n then 1%K else 0%K.
(** z^n a *)
Definition fshift (n : nat) (a : fps) : fps := fun i => if i <? n then 0%K else a (i - n)%nat.
Definition fscale (c : KK) (a : fps) : fps := fun i => (c * a i)%K.
(** Keep the first n coefficients. *)
Definition ftrunc (n : nat) (a : fps) : fps := fun i => if i <? n then a i else 0%K.
(** Divide by z^n, dropping low terms. *)
Definition fhigh (n : nat) (a : fps) : fps := fun i => a (n + i)%nat.

Lemma feq_refl : forall a, feq a a. Proof. intros a i. reflexivity. Qed.
Lemma feq_sym : forall a b, feq a b -> feq b a. Proof. intros a b H i. symmetry. apply H. Qed.
Lemma feq_trans : forall a b c, feq a b -> feq b c -> feq a c.
Proof. intros a b c H1 H2 i. rewrite H1. apply H2. Qed.
Global Instance feq_Equiv : Equivalence feq.
Proof. split; [exact feq_refl|exact feq_sym|exact feq_trans]. Qed.

Global Instance eqn_Equiv n : Equivalence (eqn n).
Proof.
  split.
  - intros a i _. reflexivity.
  - intros a b H i Hi. symmetry. apply H. exact Hi.
  - intros a b c H1 H2 i Hi. rewrite H1 by exact Hi. apply H2. exact Hi.
Qed.

Lemma feq_eqn : forall n a b, feq a b -> eqn n a b.
Proof. intros n a b H i _. apply H. Qed.
Global Instance feq_eqn_sub n : subrelation feq (eqn n).
Proof. intros a b H. apply feq_eqn. exact H. Qed.

Lemma eqn_feq : forall a b, (forall n, eqn n a b) -> feq a b.
Proof. intros a b H i. apply (H (S i)). lia. Qed.

Lemma eqn_mono : forall m n a b, m <= n -> eqn n a b -> eqn m a b.
Proof. intros m n a b Hmn H i Hi. apply H. lia. Qed.

Global Instance fadd_eqn n : Proper (eqn n ==> eqn n ==> eqn n) fadd.
Proof. intros a a' Ha b b' Hb i Hi. unfold fadd. rewrite Ha, Hb by exact Hi. reflexivity. Qed.
Global Instance fsub_eqn n : Proper (eqn n ==> eqn n ==> eqn n) fsub.
Proof. intros a a' Ha b b' Hb i Hi. unfold fsub. rewrite Ha, Hb by exact Hi. reflexivity. Qed.
Global Instance fopp_eqn n : Proper (eqn n ==> eqn n) fopp.
Proof. intros a a' Ha i Hi. unfold fopp. rewrite Ha by exact Hi. reflexivity. Qed.
Global Instance fmul_eqn n : Proper (eqn n ==> eqn n ==> eqn n) fmul.
Proof.
  intros a a' Ha b b' Hb i Hi. unfold fmul. apply sumto_ext. intros j Hj.
  rewrite Ha, Hb by lia. reflexivity.
Qed.
Global Instance fscale_eqn n : Proper (eq ==> eqn n ==> eqn n) fscale.
Proof. intros c c' <- a a' Ha i Hi. unfold fscale. rewrite Ha by exact Hi. reflexivity. Qed.

Global Instance fadd_feq : Proper (feq ==> feq ==> feq) fadd.
Proof. intros a a' Ha b b' Hb i. unfold fadd. rewrite Ha, Hb. reflexivity. Qed.
Global Instance fsub_feq : Proper (feq ==> feq ==> feq) fsub.
Proof. intros a a' Ha b b' Hb i. unfold fsub. rewrite Ha, Hb. reflexivity. Qed.
Global Instance fopp_feq : Proper (feq ==> feq) fopp.
Proof. intros a a' Ha i. unfold fopp. rewrite Ha. reflexivity. Qed.
Global Instance fmul_feq : Proper (feq ==> feq ==> feq) fmul.
Proof.
  intros a a' Ha b b' Hb i. unfold fmul. apply sumto_ext. intros j Hj.
  rewrite Ha, Hb. reflexivity.
Qed.
Global Instance fscale_feq : Proper (eq ==> feq ==> feq) fscale.
Proof. intros c c' <- a a' Ha i. unfold fscale. rewrite Ha. reflexivity. Qed.
Global Instance eqn_feq_Proper n : Proper (feq ==> feq ==> iff) (eqn n).
Proof.
  intros a a' Ha b b' Hb. split; intros H i Hi.
  - rewrite <- Ha, <- Hb. apply H. exact Hi.
  - rewrite Ha, Hb. apply H. exact Hi.
Qed.

Lemma fmul_comm : forall a b, feq (fmul a b) (fmul b a).
Proof.
  intros a b i. unfold fmul. rewrite sumto_rev. apply sumto_ext. intros j Hj.
  replace (S i - 1 - j) with (i - j) by lia.
  replace (i - (i - j)) with j by lia. ring.
Qed.

Lemma fmul_assoc : forall a b c, feq (fmul a (fmul b c)) (fmul (fmul a b) c).
Proof.
  intros a b c i. unfold fmul.
  transitivity (sumto (fun k => sumto (fun l => a k * (b l * c (i - k - l)%nat))%K (S i - k)) (S i)).
  { apply sumto_ext. intros k Hk. rewrite <- sumto_scale.
    replace (S i - k) with (S (i - k)) by lia. reflexivity. }
  rewrite <- (sumto_triangle (fun k l => a k * (b l * c (i - k - l)%nat))%K).
  apply sumto_ext. intros j Hj.
  transitivity (sumto (fun k => c (i - j)%nat * (a k * b (j - k)%nat))%K (S j)).
  - apply sumto_ext. intros k Hk. replace (i - k - (j - k)) with (i - j) by lia. ring.
  - rewrite sumto_scale. ring.
Qed.

Lemma fmul_1_l : forall a, feq (fmul f1 a) a.
Proof.
  intros a i. unfold fmul. rewrite sumto_first. rewrite Nat.sub_0_r.
  rewrite sumto_0; [unfold f1; cbn; ring|]. intros j Hj. cbn. ring.
Qed.

Lemma fmul_add_l : forall a b c, feq (fmul (fadd a b) c) (fadd (fmul a c) (fmul b c)).
Proof.
  intros a b c i. unfold fmul, fadd. rewrite <- sumto_add. apply sumto_ext. intros. ring.
Qed.

Lemma fps_ring_theory : ring_theory f0 f1 fadd fmul fsub fopp feq.
Proof.
  constructor.
  - intros a i. unfold fadd, f0. ring.
  - intros a b i. unfold fadd. ring.
  - intros a b c i. unfold fadd. ring.
  - exact fmul_1_l.
  - exact fmul_comm.
  - exact fmul_assoc.
  - exact fmul_add_l.
  - intros a b i. unfold fadd, fsub, fopp. ring.
  - intros a i. unfold fadd, fopp, f0. ring.
Qed.

Lemma fps_ring_ext : ring_eq_ext fadd fmul fopp feq.
Proof. constructor; [exact fadd_feq|exact fmul_feq|exact fopp_feq]. Qed.

Add Ring fps_ring : fps_ring_theory (setoid feq_Equiv fps_ring_ext).

(** ** Shifts *)
Lemma zp_mul : forall n a, feq (fmul (zp n) a) (fshift n a).
Proof.
  intros n a i. unfold fmul, fshift.
  destruct (i <? n) eqn:E.
  - apply sumto_0. intros j Hj. unfold zp. replace (j =? n) with false by lia. ring.
  - replace (S i) with (n + S (i - n)) by lia. rewrite sumto_split, sumto_first.
    rewrite sumto_0.
    2:{ intros j Hj. unfold zp. replace (j =? n) with false by lia. ring. }
    rewrite sumto_0.
    2:{ intros j Hj. unfold zp. replace (n + S j =? n) with false by lia. ring. }
    rewrite Nat.add_0_r. unfold zp. rewrite Nat.eqb_refl. ring.
Qed.

Lemma zp_0 : feq (zp 0) f1.
Proof. intros [|i]; reflexivity. Qed.

Lemma zp_add : forall m n, feq (zp (m + n)) (fmul (zp m) (zp n)).
Proof.
  intros m n i. rewrite zp_mul. unfold fshift, zp.
  destruct (i <? m) eqn:E; destruct (i =? m + n) eqn:E2; destruct (i - m =? n) eqn:E3; try lia; reflexivity.
Qed.

Lemma fshift_fhigh : forall n a, eqn n a f0 -> feq a (fmul (zp n) (fhigh n a)).
Proof.
  intros n a H i. rewrite zp_mul. unfold fshift, fhigh.
  destruct (i <? n) eqn:E; [apply H; lia|f_equal; lia].
Qed.

Lemma eqn_zp : forall n a, eqn n (fmul (zp n) a) f0.
Proof. intros n a i Hi. rewrite zp_mul. unfold fshift. replace (i <? n) with true by lia. reflexivity. Qed.

Lemma eqn_zp_le : forall m n a, m <= n -> eqn m (fmul (zp n) a) f0.
Proof. intros m n a H. apply (eqn_mono m n); [exact H|apply eqn_zp]. Qed.

Lemma eqn_iff : forall n a b, eqn n a b <-> exists c, feq a (fadd b (fmul (zp n) c)).
Proof.
  intros n a b. split.
  - intros H. exists (fhigh n (fsub a b)).
    rewrite <- fshift_fhigh; [ring|].
    intros i Hi. unfold fsub, f0. rewrite H by exact Hi. ring.
  - intros (c & Hc). rewrite Hc.
    intros i Hi. unfold fadd. rewrite eqn_zp by exact Hi. unfold f0. ring.
Qed.

Lemma eqn_sub0 : forall n a b, eqn n a b <-> eqn n (fsub a b) f0.
Proof.
  intros n a b. split; intros H i Hi.
  - unfold fsub, f0. rewrite H by exact Hi. ring.
  - specialize (H i Hi). unfold fsub, f0 in H.
    replace (a i) with ((a i - b i) + b i)%K by ring. rewrite H. ring.
Qed.

Lemma eqn_zp_mul : forall m n a b, eqn n a b -> eqn (m + n) (fmul (zp m) a) (fmul (zp m) b).
Proof.
  intros m n a b H i Hi. rewrite !zp_mul. unfold fshift.
  destruct (i <? m) eqn:E; [reflexivity|]. apply H. lia.
Qed.

Lemma eqn_zp_cancel : forall m n a b, eqn (m + n) (fmul (zp m) a) (fmul (zp m) b) -> eqn n a b.
Proof.
  intros m n a b H i Hi. specialize (H (m + i) ltac:(lia)). rewrite !zp_mul in H.
  unfold fshift in H. replace (m + i <? m) with false in H by lia.
  replace (m + i - m) with i in H by lia. exact H.
Qed.

Lemma eqn0_mul : forall m n a b, eqn m a f0 -> eqn n b f0 -> eqn (m + n) (fmul a b) f0.
Proof.
  intros m n a b Ha Hb. apply eqn_iff in Ha. apply eqn_iff in Hb.
  destruct Ha as (c & Hc), Hb as (d & Hd). rewrite Hc, Hd.
  transitivity (fmul (zp (m + n)) (fmul c d)); [|apply eqn_zp].
  apply feq_eqn. rewrite zp_add. ring.
Qed.

Lemma ftrunc_eqn : forall n a, eqn n (ftrunc n a) a.
Proof. intros n a i Hi. unfold ftrunc. replace (i <? n) with true by lia. reflexivity. Qed.

Lemma fC_mul : forall c a, feq (fmul (fC c) a) (fscale c a).
Proof.
  intros c a i. unfold fmul. rewrite sumto_first, Nat.sub_0_r.
  rewrite sumto_0; [unfold fscale; cbn; ring|]. intros j Hj. cbn. ring.
Qed.

Lemma fC_add : forall c d, feq (fC (c + d)%K) (fadd (fC c) (fC d)).
Proof. intros c d [|i]; unfold fadd; cbn; ring. Qed.
Lemma fC_mulC : forall c d, feq (fC (c * d)%K) (fmul (fC c) (fC d)).
Proof. intros c d i. rewrite fC_mul. unfold fscale. destruct i; cbn; ring. Qed.
Lemma fC_opp : forall c, feq (fC (- c)%K) (fopp (fC c)).
Proof. intros c [|i]; unfold fopp; cbn; ring. Qed.
Lemma fC_0 : feq (fC 0%K) f0.
Proof. intros [|i]; reflexivity. Qed.

Lemma fmul_coef0 : forall a b, fmul a b O = (a O * b O)%K.
Proof. intros. unfold fmul. cbn. ring. Qed.

(** ** Cancellation by an invertible series *)
Lemma eqn_cancel : forall n (x a b : fps), x O <> 0%K -> eqn n (fmul x a) (fmul x b) -> eqn n a b.
Proof.
  intros n x a b Hx H i. induction i as [i IH] using lt_wf_ind. intros Hi.
  specialize (H i Hi). unfold fmul in H. rewrite !sumto_first, !Nat.sub_0_r in H.
  apply (kdiv_eq (x O)); [exact Hx|].
  assert (E : sumto (fun j => x (S j) * a (i - S j)%nat)%K i = sumto (fun j => x (S j) * b (i - S j)%nat)%K i).
  { apply sumto_ext. intros j Hj. rewrite IH by lia. reflexivity. }
  rewrite E in H.
  match type of H with (?p + ?q = ?r + ?q)%K =>
    replace p with (p + q - q)%K by ring; rewrite H; ring end.
Qed.

Lemma inv_exists_aux : forall n (x : fps), x O <> 0%K -> exists y, eqn n (fmul x y) f1.
Proof.
  intros n x Hx. induction n as [|n (y & Hy)].
  - exists f0. intros i Hi. lia.
  - exists (fun i => if i =? n then ((f1 n - sumto (fun j => x (S j) * y (n - S j)%nat)%K n) / x O)%K else y i).
    intros i Hi. unfold fmul. rewrite sumto_first, Nat.sub_0_r.
    assert (E : sumto (fun j => x (S j) * (if (i - S j =? n)%nat then (f1 n - sumto (fun j => x (S j) * y (n - S j)%nat)%K n) / x O else y (i - S j)%nat))%K i
                = sumto (fun j => x (S j) * y (i - S j)%nat)%K i).
    { apply sumto_ext. intros j Hj. replace (i - S j =? n) with false by lia. reflexivity. }
    rewrite E. destruct (i =? n) eqn:En.
    + assert (i = n) by lia. subst i. field. exact Hx.
    + rewrite <- (Hy i) by lia. unfold fmul. rewrite sumto_first, Nat.sub_0_r. ring.
Qed.

(** ** The operator theta = z d/dz *)
Definition theta (a : fps) : fps := fun i => (kofnat i * a i)%K.

Global Instance theta_feq : Proper (feq ==> feq) theta.
Proof. intros a b H i. unfold theta. rewrite H. reflexivity. Qed.
Global Instance theta_eqn n : Proper (eqn n ==> eqn n) theta.
Proof. intros a b H i Hi. unfold theta. rewrite H by exact Hi. reflexivity. Qed.

Lemma theta_add : forall a b, feq (theta (fadd a b)) (fadd (theta a) (theta b)).
Proof. intros a b i. unfold theta, fadd. ring. Qed.
Lemma theta_sub : forall a b, feq (theta (fsub a b)) (fsub (theta a) (theta b)).
Proof. intros a b i. unfold theta, fsub. ring. Qed.
Lemma theta_opp : forall a, feq (theta (fopp a)) (fopp (theta a)).
Proof. intros a i. unfold theta, fopp. ring. Qed.
Lemma theta_C : forall c, feq (theta (fC c)) f0.
Proof. intros c [|i]; unfold theta, f0; cbn [fC kofnat]; ring. Qed.
Lemma theta_1 : feq (theta f1) f0.
Proof. apply theta_C. Qed.
Lemma theta_0 : feq (theta f0) f0.
Proof. intros i. unfold theta, f0. ring. Qed.

Lemma theta_mul : forall a b, feq (theta (fmul a b)) (fadd (fmul (theta a) b) (fmul a (theta b))).
Proof.
  intros a b i. unfold theta, fmul, fadd. rewrite <- sumto_scale, <- sumto_add.
  apply sumto_ext. intros j Hj.
  replace (kofnat (F:=F) i) with (kofnat (F:=F) (j + (i - j))) by (f_equal; lia).
  rewrite kofnat_add. ring.
Qed.

Lemma theta_scale : forall c a, feq (theta (fscale c a)) (fscale c (theta a)).
Proof. intros c a i. unfold theta, fscale. ring. Qed.

Lemma theta_coef0 : forall a, theta a O = 0%K.
Proof. intros a. unfold theta. cbn [kofnat]. ring. Qed.

Lemma theta_inj : forall n (a b : fps), a O = b O -> eqn n (theta a) (theta b) -> eqn n a b.
Proof.
  intros n a b H0 H [|i] Hi; [exact H0|].
  apply (kdiv_eq (kofnat (S i))); [apply kofnat_nz; lia|]. apply (H (S i) Hi).
Qed.

Lemma ode_unique : forall n (a e f : fps), a O = 0%K -> e O = f O ->
  eqn n (theta e) (fmul a e) -> eqn n (theta f) (fmul a f) -> eqn n e f.
Proof.
  intros n a e f Ha H0 He Hf i. induction i as [i IH] using lt_wf_ind. intros Hi.
  destruct i as [|i]; [exact H0|].
  apply (kdiv_eq (kofnat (S i))); [apply kofnat_nz; lia|].
  pose proof (He (S i) Hi) as E1. pose proof (Hf (S i) Hi) as E2. unfold theta in E1, E2.
  rewrite E1, E2. unfold fmul. rewrite !(sumto_first _ (S i)), Ha.
  rewrite (sumto_ext (fun j => a (S j) * e (S i - S j)%nat)%K (fun j => a (S j) * f (S i - S j)%nat)%K); [ring|].
  intros j Hj. rewrite IH by lia. reflexivity.
Qed.

(** ** Powers and composition with a scalar series *)
Fixpoint fpow (a : fps) (k : nat) : fps :=
  match k with O => f1 | S k' => fmul a (fpow a k') end.

Global Instance fpow_eqn n : Proper (eqn n ==> eq ==> eqn n) fpow.
Proof.
  intros a b H k k' <-. induction k as [|k IH]; [reflexivity|]. cbn [fpow]. apply fmul_eqn; assumption.
Qed.
Global Instance fpow_feq : Proper (feq ==> eq ==> feq) fpow.
Proof.
  intros a b H k k' <-. induction k as [|k IH]; [reflexivity|]. cbn [fpow]. apply fmul_feq; assumption.
Qed.

Lemma fpow_low : forall (a : fps) k, a O = 0%K -> eqn k (fpow a k) f0.
Proof.
  intros a k H. induction k as [|k IH]; [intros i Hi; lia|].
  cbn [fpow]. apply (eqn0_mul 1 k); [|exact IH].
  intros [|i] Hi; [exact H|lia].
Qed.

(** sum_{k<N} c_k x^k *)
Fixpoint psum (c : nat -> KK) (x : fps) (N : nat) : fps :=
  match N with O => f0 | S N' => fadd (psum c x N') (fmul (fC (c N')) (fpow x N')) end.

Lemma psum_coef : forall c x N i, psum c x N i = sumto (fun k => c k * fpow x k i)%K N.
Proof.
  intros c x N i. induction N as [|N IH]; [reflexivity|].
  cbn [psum sumto]. unfold fadd at 1. rewrite IH, fC_mul. reflexivity.
Qed.

(** The formal composition (sum_k c_k u^k) o x, for x_0 = 0: coefficient i only
    involves powers up to i. *)
Definition fcomp (c : nat -> KK) (x : fps) : fps :=
  fun i => sumto (fun k => c k * fpow x k i)%K (S i).

Lemma fcomp_psum : forall c (x : fps) N, x O = 0%K -> eqn N (fcomp c x) (psum c x N).
Proof.
  intros c x N Hx i Hi. rewrite psum_coef. unfold fcomp.
  replace N with (S i + (N - S i)) by lia. rewrite sumto_split.
  rewrite (sumto_0 (fun k => c (S i + k)%nat * fpow x (S i + k)%nat i)%K); [ring|].
  intros k Hk. rewrite (fpow_low x (S i + k)%nat Hx i) by lia. unfold f0. ring.
Qed.

Lemma psum_shift : forall c x N,
  feq (psum c x (S N)) (fadd (fC (c O)) (fmul x (psum (fun k => c (S k)) x N))).
Proof.
  intros c x N. induction N as [|N IH].
  - cbn [psum fpow]. ring.
  - change (psum c x (S (S N))) with (fadd (psum c x (S N)) (fmul (fC (c (S N))) (fpow x (S N)))).
    rewrite IH. cbn [psum fpow]. ring.
Qed.

Lemma fcomp_unfold : forall c (x : fps), x O = 0%K ->
  feq (fcomp c x) (fadd (fC (c O)) (fmul x (fcomp (fun k => c (S k)) x))).
Proof.
  intros c x Hx. apply eqn_feq. intros n.
  rewrite (fcomp_psum c x n Hx), (fcomp_psum (fun k => c (S k)) x n Hx).
  destruct n as [|n]; [intros i Hi; lia|].
  rewrite psum_shift. apply fadd_eqn; [reflexivity|].
  cbn [psum].
  assert (E : eqn (S n) (fmul x (fmul (fC (c (S n))) (fpow x n))) f0).
  { transitivity (fmul (fC (c (S n))) (fpow x (S n))).
    - apply feq_eqn. cbn [fpow]. ring.
    - rewrite (fpow_low x (S n) Hx). apply feq_eqn. ring. }
  transitivity (fadd (fmul x (psum (fun k => c (S k)) x n)) (fmul x (fmul (fC (c (S n))) (fpow x n)))).
  - rewrite E. apply feq_eqn. ring.
  - apply feq_eqn. ring.
Qed.

Global Instance fcomp_eqn n c : Proper (eqn n ==> eqn n) (fcomp c).
Proof.
  intros a b H i Hi. unfold fcomp. apply sumto_ext. intros k Hk.
  rewrite (fpow_eqn n a b H k k eq_refl i Hi). reflexivity.
Qed.
Global Instance fcomp_feq c : Proper (feq ==> feq) (fcomp c).
Proof.
  intros a b H i. unfold fcomp. apply sumto_ext. intros k Hk.
  rewrite (fpow_feq a b H k k eq_refl i). reflexivity.
Qed.

Lemma theta_pow : forall x k,
  feq (theta (fpow x (S k))) (fmul (fC (kofnat (S k))) (fmul (theta x) (fpow x k))).
Proof.
  intros x k. induction k as [|k IH].
  - cbn [fpow]. rewrite theta_mul, theta_1. rewrite kofnat_1. fold f1. ring.
  - change (fpow x (S (S k))) with (fmul x (fpow x (S k))).
    rewrite theta_mul, IH. rewrite (kofnat_S (S k)), fC_add. fold f1. cbn [fpow]. ring.
Qed.

(** theta (c o x) = theta x * (c' o x) *)
Lemma theta_psum : forall c x N,
  feq (theta (psum c x (S N))) (fmul (theta x) (psum (fun k => kofnat (S k) * c (S k))%K x N)).
Proof.
  intros c x N. induction N as [|N IH].
  - cbn [psum fpow]. rewrite theta_add, theta_mul, theta_C, theta_1, theta_0. ring.
  - change (psum c x (S (S N))) with (fadd (psum c x (S N)) (fmul (fC (c (S N))) (fpow x (S N)))).
    rewrite theta_add, IH, theta_mul, theta_C, theta_pow. cbn [psum]. rewrite fC_mulC. ring.
Qed.

Lemma theta_fcomp : forall c (x : fps), x O = 0%K ->
  feq (theta (fcomp c x)) (fmul (theta x) (fcomp (fun k => kofnat (S k) * c (S k))%K x)).
Proof.
  intros c x Hx. apply eqn_feq. intros n.
  rewrite (fcomp_psum c x n Hx), (fcomp_psum _ x n Hx).
  destruct n as [|n]; [intros i Hi; lia|].
  rewrite theta_psum. cbn [psum].
  assert (E : eqn (S n) (fmul (theta x) (fmul (fC (kofnat (S n) * c (S n))%K) (fpow x n))) f0).
  { transitivity (fmul (fC (kofnat (S n) * c (S n))%K) (fmul (theta x) (fpow x n))).
    - apply feq_eqn. ring.
    - rewrite (eqn0_mul 1 n (theta x) (fpow x n)).
      + apply feq_eqn. ring.
      + intros [|i] Hi; [apply theta_coef0|lia].
      + apply fpow_low. exact Hx. }
  transitivity (fadd (fmul (theta x) (psum (fun k => kofnat (S k) * c (S k))%K x n))
                     (fmul (theta x) (fmul (fC (kofnat (S n) * c (S n))%K) (fpow x n)))).
  - rewrite E. apply feq_eqn. ring.
  - apply feq_eqn. ring.
Qed.

(** ** Exponential and logarithm *)
Fixpoint kfact (n : nat) : KK := match n with O => 1%K | S n' => (kofnat (S n') * kfact n')%K end.
Lemma kfact_nz : forall n, kfact n <> 0%K.
Proof. induction n as [|n IH]; [exact k1_nz|]. cbn [kfact]. apply kmul_nz; [apply kofnat_nz; lia|exact IH]. Qed.

Fixpoint ksign (n : nat) : KK := match n with O => 1%K | S n' => (- ksign n')%K end.

(** exp x = sum x^k / k!     (for x_0 = 0) *)
Definition fexp (x : fps) : fps := fcomp (fun k => 1 / kfact k)%K x.
(** log(1+u) = sum_{k>=1} (-1)^(k-1) u^k / k     (for u_0 = 0) *)
Definition flog1p (u : fps) : fps :=
  fcomp (fun k => match k with O => 0%K | S k' => (ksign k' / kofnat k)%K end) u.
(** log f for f_0 = 1 *)
Definition flog (f : fps) : fps := flog1p (fsub f f1).

Global Instance fexp_eqn n : Proper (eqn n ==> eqn n) fexp.
Proof. unfold fexp. apply fcomp_eqn. Qed.
Global Instance fexp_feq : Proper (feq ==> feq) fexp.
Proof. unfold fexp. apply fcomp_feq. Qed.
Global Instance flog1p_eqn n : Proper (eqn n ==> eqn n) flog1p.
Proof. unfold flog1p. apply fcomp_eqn. Qed.
Global Instance flog1p_feq : Proper (feq ==> feq) flog1p.
Proof. unfold flog1p. apply fcomp_feq. Qed.
Global Instance flog_eqn n : Proper (eqn n ==> eqn n) flog.
Proof. intros a b H. unfold flog. rewrite H. reflexivity. Qed.
Global Instance flog_feq : Proper (feq ==> feq) flog.
Proof. intros a b H. unfold flog. rewrite H. reflexivity. Qed.

Lemma fcomp_ext : forall c d x, (forall k, c k = d k) -> feq (fcomp c x) (fcomp d x).
Proof. intros c d x H i. unfold fcomp. apply sumto_ext. intros k Hk. rewrite H. reflexivity. Qed.

Lemma fexp_coef0 : forall x, fexp x O = 1%K.
Proof. intros x. unfold fexp, fcomp. cbn. field. exact k1_nz. Qed.

Lemma flog1p_coef0 : forall x, flog1p x O = 0%K.
Proof. intros x. unfold flog1p, fcomp. cbn. ring. Qed.

Lemma flog_coef0 : forall x, flog x O = 0%K.
Proof. intros x. apply flog1p_coef0. Qed.

Lemma theta_exp : forall x : fps, x O = 0%K -> feq (theta (fexp x)) (fmul (theta x) (fexp x)).
Proof.
  intros x Hx. unfold fexp. rewrite theta_fcomp by exact Hx.
  apply fmul_feq; [reflexivity|]. apply fcomp_ext. intros k. cbn [kfact].
  field. split; [apply kfact_nz|apply (kofnat_nz (S k)); lia].
Qed.

Lemma geom_psum : forall x N,
  feq (fmul (fadd f1 x) (psum ksign x N)) (fsub f1 (fmul (fC (ksign N)) (fpow x N))).
Proof.
  intros x N. induction N as [|N IH].
  - cbn [psum fpow ksign]. fold f1. ring.
  - cbn [psum]. transitivity (fadd (fmul (fadd f1 x) (psum ksign x N)) (fmul (fadd f1 x) (fmul (fC (ksign N)) (fpow x N)))); [ring|].
    rewrite IH. cbn [ksign fpow]. rewrite fC_opp. ring.
Qed.

Lemma geom : forall x : fps, x O = 0%K -> feq (fmul (fadd f1 x) (fcomp ksign x)) f1.
Proof.
  intros x Hx. apply eqn_feq. intros n. rewrite (fcomp_psum ksign x n Hx), geom_psum.
  rewrite (fpow_low x n Hx). apply feq_eqn. ring.
Qed.

Lemma theta_log1p : forall u : fps, u O = 0%K ->
  feq (fmul (fadd f1 u) (theta (flog1p u))) (theta u).
Proof.
  intros u Hu. unfold flog1p. rewrite theta_fcomp by exact Hu.
  rewrite (fcomp_ext _ ksign).
  - transitivity (fmul (theta u) (fmul (fadd f1 u) (fcomp ksign u))); [ring|].
    rewrite geom by exact Hu. ring.
  - intros k. field. apply (kofnat_nz (S k)). lia.
Qed.

Lemma theta_log : forall f : fps, f O = 1%K -> feq (fmul f (theta (flog f))) (theta f).
Proof.
  intros f Hf. unfold flog.
  assert (Ef : feq f (fadd f1 (fsub f f1))) by ring.
  transitivity (fmul (fadd f1 (fsub f f1)) (theta (flog1p (fsub f f1)))).
  - apply fmul_feq; [exact Ef|reflexivity].
  - rewrite theta_log1p by (unfold fsub; cbn; rewrite Hf; ring).
    rewrite theta_sub, theta_1. ring.
Qed.

Lemma fexp_log : forall f : fps, f O = 1%K -> feq (fexp (flog f)) f.
Proof.
  intros f Hf. apply eqn_feq. intros n.
  apply (ode_unique n (theta (flog f))).
  - apply theta_coef0.
  - rewrite fexp_coef0, Hf. reflexivity.
  - apply feq_eqn. rewrite theta_exp by apply flog_coef0. reflexivity.
  - apply feq_eqn. rewrite fmul_comm. symmetry. apply theta_log. exact Hf.
Qed.

Lemma flog_exp : forall x : fps, x O = 0%K -> feq (flog (fexp x)) x.
Proof.
  intros x Hx. apply eqn_feq. intros n. apply theta_inj.
  - rewrite flog_coef0, Hx. reflexivity.
  - apply (eqn_cancel n (fexp x)); [rewrite fexp_coef0; exact k1_nz|].
    rewrite theta_log by apply fexp_coef0. rewrite theta_exp by exact Hx.
    apply feq_eqn. ring.
Qed.

Lemma fexp_add : forall x y : fps, x O = 0%K -> y O = 0%K ->
  feq (fexp (fadd x y)) (fmul (fexp x) (fexp y)).
Proof.
  intros x y Hx Hy. apply eqn_feq. intros n.
  apply (ode_unique n (theta (fadd x y))).
  - apply theta_coef0.
  - rewrite fmul_coef0, !fexp_coef0. ring.
  - rewrite theta_exp; [reflexivity|]. unfold fadd. rewrite Hx, Hy. ring.
  - rewrite theta_mul, !theta_exp, theta_add by assumption. apply feq_eqn. ring.
Qed.

Lemma fexp_0 : feq (fexp f0) f1.
Proof.
  apply eqn_feq. intros n. apply (ode_unique n f0).
  - reflexivity.
  - rewrite fexp_coef0. reflexivity.
  - rewrite theta_exp by reflexivity. rewrite theta_0. reflexivity.
  - rewrite theta_1. apply feq_eqn. ring.
Qed.

Lemma fexp_opp : forall x : fps, x O = 0%K -> feq (fmul (fexp x) (fexp (fopp x))) f1.
Proof.
  intros x Hx. rewrite <- fexp_add; [|exact Hx|unfold fopp; rewrite Hx; ring].
  rewrite <- fexp_0. apply fexp_feq. ring.
Qed.

Lemma fexp_inj : forall n (x y : fps), x O = 0%K -> y O = 0%K ->
  eqn n (fexp x) (fexp y) -> eqn n x y.
Proof.
  intros n x y Hx Hy H. rewrite <- (flog_exp x Hx), <- (flog_exp y Hy), H. reflexivity.
Qed.

Lemma flog_mul : forall f g : fps, f O = 1%K -> g O = 1%K ->
  feq (flog (fmul f g)) (fadd (flog f) (flog g)).
Proof.
  intros f g Hf Hg. apply eqn_feq. intros n.
  apply fexp_inj.
  - apply flog_coef0.
  - unfold fadd. rewrite !flog_coef0. ring.
  - rewrite fexp_add by apply flog_coef0.
    rewrite !fexp_log; try assumption; [reflexivity|].
    rewrite fmul_coef0, Hf, Hg. ring.
Qed.

(** Second-order expansions. *)
Lemma fexp_taylor : forall d : fps, d O = 0%K ->
  exists g, feq (fexp d) (fadd (fadd f1 d) (fmul (fmul d d) g)).
Proof.
  intros d Hd. unfold fexp.
  exists (fcomp (fun k => 1 / kfact (S (S k)))%K d).
  rewrite (fcomp_unfold (fun k => 1 / kfact k)%K d Hd).
  rewrite (fcomp_unfold (fun k => 1 / kfact (S k))%K d Hd).
  replace (1 / kfact O)%K with (1%K : KK) by (cbn [kfact]; field; exact k1_nz).
  replace (kfact 1%nat)%K with (1%K : KK) by (cbn [kfact kofnat]; ring).
  replace (1 / 1)%K with (1%K : KK) by (field; exact k1_nz).
  fold f1. ring.
Qed.

Lemma flog1p_taylor : forall d : fps, d O = 0%K ->
  exists g, feq (flog1p d) (fadd d (fmul (fmul d d) g)).
Proof.
  intros d Hd. unfold flog1p.
  exists (fcomp (fun k => ksign (S k) / kofnat (S (S k)))%K d).
  rewrite (fcomp_unfold (fun k => match k with O => 0%K | S k' => (ksign k' / kofnat k)%K end) d Hd).
  rewrite (fcomp_unfold (fun k => ksign k / kofnat (S k))%K d Hd).
  replace (kofnat (F:=F) 1%nat)%K with (1%K : KK) by (cbn [kofnat]; ring).
  replace (ksign O / 1)%K with (1%K : KK) by (cbn [ksign]; field; exact k1_nz).
  fold f1. rewrite fC_0. ring.
Qed.

Lemma fexp_lin : forall m d, 1 <= m -> eqn m d f0 -> eqn (m + m) (fexp d) (fadd f1 d).
Proof.
  intros m d Hm Hd.
  assert (H0 : d O = 0%K) by (apply (Hd 0); lia).
  destruct (fexp_taylor d H0) as (g & Hg). rewrite Hg.
  rewrite (eqn0_mul m m d d Hd Hd). apply feq_eqn. ring.
Qed.

Lemma flog1p_lin : forall m d, 1 <= m -> eqn m d f0 -> eqn (m + m) (flog1p d) d.
Proof.
  intros m d Hm Hd.
  assert (H0 : d O = 0%K) by (apply (Hd 0); lia).
  destruct (flog1p_taylor d H0) as (g & Hg). rewrite Hg.
  rewrite (eqn0_mul m m d d Hd Hd). apply feq_eqn. ring.
Qed.

End FPS.

Arguments sumto {F} _ _.
Arguments feq {F} _ _.
Arguments eqn {F} _ _ _.
Arguments fC {F} _ _.
Arguments f0 {F} _.
Arguments f1 {F} _.
Arguments fadd {F} _ _ _.
Arguments fsub {F} _ _ _.
Arguments fopp {F} _ _.
Arguments fmul {F} _ _ _.
Arguments zp {F} _ _.
Arguments fshift {F} _ _ _.
Arguments fscale {F} _ _ _.
Arguments ftrunc {F} _ _ _.
Arguments fhigh {F} _ _ _.
Arguments theta {F} _ _.
Arguments fpow {F} _ _.
Arguments fcomp {F} _ _ _.
Arguments fexp {F} _ _.
Arguments flog1p {F} _ _.
Arguments flog {F} _ _.
