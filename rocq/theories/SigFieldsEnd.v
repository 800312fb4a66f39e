(** The search for the moduli ends on every fair stream of random values. *)
From Coq Require Import ZArith List Bool Lia Znumtheory.
From Verif Require Import Base SeriesModel SigModel SigProofs SigRoots SigPrime SigFieldsModel Pocklington SigFields.
Import ListNotations.
Open Scope Z_scope.

(** The first [len] values of a stream from position [i] on. *)
Definition pre (s : nat -> Z) (i len : nat) : list Z := map s (seq i len).
Lemma pre_S : forall s i len, pre s i (S len) = s i :: pre s (S i) len.
Proof. reflexivity. Qed.

Section Stream.
Variable s : nat -> Z.

Section P.
Variable p : Z.
Hypothesis Pp : prime p.
Hypothesis Hp : p < 2 ^ 64.
Hypothesis H4 : p mod 4 = 3.
Let Od := odd_p p H4.

Lemma unread_pre : forall n k i, 0 <= n < p -> good p n (random_fp p (s (i + k))) ->
  exists m, (m <= S k)%nat /\ forall len, (m <= len)%nat -> unread p n (pre s i len) = pre s (i + m) (len - m) /\ find_ab p n (map (random_fp p) (pre s i len)) <> None.
Proof.
  intros n k. pose proof (p3 p Pp H4) as B. induction k as [|k IH]; intros i Hn G.
  all: assert (Rg : 0 <= random_fp p (s i) < p) by (apply Z.mod_pos_bound; lia).
  all: destruct (@find_ab_spec p Pp Hp Od n [random_fp p (s i)] Hn (Forall_cons _ Rg (Forall_nil _))) as [[E1 E2]|(a & Ia & Ga & E)].
  - exfalso. rewrite Nat.add_0_r in G. exact (E2 _ (or_introl eq_refl) G).
  - exists 1%nat. split; [lia|]. intros [|len] Hl; [lia|]. rewrite pre_S. cbn [unread map]. rewrite E. split.
    + f_equal; lia.
    + cbn [find_ab] in E |- *. destruct (bind _ _) as [[b [|]]| |]; discriminate.
  - destruct (IH (S i) Hn) as (m & Hm & H).
    { replace (S i + k)%nat with (i + S k)%nat by lia. exact G. }
    exists (S m). split; [lia|]. intros [|len] Hl; [lia|]. rewrite pre_S. cbn [unread map]. rewrite E1.
    destruct (H len ltac:(lia)) as [U F]. split; [rewrite U; f_equal; lia|].
    cbn [find_ab] in E1 |- *. destruct (bind _ _) as [[b [|]]| |]; try discriminate. exact F.
  - exists 1%nat. split; [lia|]. intros [|len] Hl; [lia|]. rewrite pre_S. cbn [unread map]. rewrite E. split.
    + f_equal; lia.
    + cbn [find_ab] in E |- *. destruct (bind _ _) as [[b [|]]| |]; discriminate.
Qed.

Hypothesis fair : forall n i, 0 < n < p -> exists k, good p n (random_fp p (s (i + k))).

Lemma sqrt_pre : forall n i, 0 < n < p -> is_square p n -> exists m r, 0 <= r /\ 2 * r < p /\ (r * r) mod p = n /\
  forall len, (m <= len)%nat -> sqrt_from p n (pre s i len) = Some (Ok r, pre s (i + m) (len - m)).
Proof.
  intros n i Hn Sq. destruct (fair n i Hn) as (k & G). destruct (unread_pre n k i ltac:(lia) G) as (m & _ & H).
  assert (S : forall len, (m <= len)%nat -> exists r, sqrt_from p n (pre s i len) = Some (Ok r, pre s (i + m) (len - m)) /\ 0 <= r /\ 2 * r < p /\ (r * r) mod p = n).
  { intros len Hl. destruct (H len Hl) as [U F]. destruct (sqrt_from_spec p Pp Hp H4 n (pre s i len) ltac:(lia) Sq) as [E|(r & l & E & R)].
    - exfalso. unfold sqrt_from in E. unfold fp_sqrt in E. destruct (Z.eqb_spec n 0); [lia|].
      destruct (find_ab p n (map (random_fp p) (pre s i len))) as [[[]| |]|]; try discriminate E. apply F. reflexivity.
    - exists r. split; [|exact R]. rewrite E. unfold sqrt_from in E. destruct (fp_sqrt _ _ _) as [x|]; [|discriminate E].
      injection E as _ E2. destruct (Z.eqb_spec n 0); [lia|]. rewrite <- E2, U. reflexivity. }
  destruct (S m (le_n m)) as (r & _ & R0 & R1 & R2). exists m, r. split; [exact R0|]. split; [exact R1|]. split; [exact R2|].
  intros len Hl. destruct (S len Hl) as (r' & E & Q0 & Q1 & Q2). rewrite E. rewrite (@root_unique p Pp n r r' R0 R1 Q0 Q1 R2 Q2). reflexivity.
Qed.
Lemma two_loop_pre : forall k r i, 0 < r < p -> exists m b, forall len, (m <= len)%nat -> two_loop p k r (pre s i len) = Some (Ok b, pre s (i + m) (len - m)).
Proof.
  induction k as [|k IH]; intros r i Hr; cbn [two_loop].
  - exists 0%nat, true. intros len _. rewrite Nat.add_0_r, Nat.sub_0_r. reflexivity.
  - destruct (@has_sqrt_spec p Pp Hp Od r ltac:(lia)) as (b & -> & Hb). destruct b.
    + destruct (sqrt_pre r i Hr (proj1 Hb eq_refl)) as (m & y & Y0 & Y1 & Y2 & H).
      assert (Yn : y <> 0). { intros Y. rewrite Y in Y2. change (0 * 0) with 0 in Y2. rewrite Z.mod_0_l in Y2 by lia. lia. }
      destruct (IH y (i + m)%nat ltac:(lia)) as (m' & b & H'). exists (m + m')%nat, b. intros len Hl.
      rewrite (H len ltac:(lia)), (H' (len - m)%nat ltac:(lia)). replace (i + m + m')%nat with (i + (m + m'))%nat by lia.
      replace (len - m - m')%nat with (len - (m + m'))%nat by lia. reflexivity.
    + exists 0%nat, false. intros len _. rewrite Nat.add_0_r, Nat.sub_0_r. reflexivity.
Qed.
End P.

Hypothesis fair : forall p n i, In p candidates -> 0 < n < p -> exists k, good p n (random_fp p (s (i + k))).

Lemma takes_pre : forall p i, last_field <= p < 2 ^ 64 -> exists m b, forall len, (m <= len)%nat -> takes p (pre s i len) = Some (Ok b, pre s (i + m) (len - m)).
Proof.
  intros p i Hp. assert (Z : forall b : bool, exists m b', forall len, (m <= len)%nat -> Some (Ok b, pre s i len) = Some (Ok b', pre s (i + m) (len - m))).
  { intros b. exists 0%nat, b. intros len _. rewrite Nat.add_0_r, Nat.sub_0_r. reflexivity. }
  unfold takes. destruct (Z.eqb_spec (p mod 8) 7) as [M|M]; cbn [negb]; [|apply Z].
  destruct (filter_range p Hp M) as (b & -> & Hb). destruct b; [|apply Z].
  assert (Ip : In p candidates) by (apply Hb; reflexivity). pose proof (candidates_prime p Ip) as Pp.
  rewrite (no_i_b p Pp (proj2 Hp) (mod84 p M)). unfold last_field in Hp.
  apply (two_loop_pre p Pp (proj2 Hp) (mod84 p M) (fun n i => fair p n i Ip)). lia.
Qed.
Lemma search_pre : forall fuel p acc i, last_field <= p < 2 ^ 64 -> p - last_field < Z.of_nat fuel -> (length acc < 4)%nat ->
  rev acc ++ filter (fun q => q <=? p) four = four ->
  exists m, forall len, (m <= len)%nat -> search fuel p acc (pre s i len) <> None.
Proof.
  induction fuel as [|f IH]; intros p acc i Hp Hf Hl Hi; [lia|]. cbn [search].
  destruct (takes_pre p i Hp) as (m & b & H). destruct (takes_spec p (pre s i m) Hp) as [E|(b' & l & E & Hb)].
  { rewrite (H m (le_n m)) in E. discriminate E. }
  rewrite (H m (le_n m)) in E. injection E as <- _. unfold last_field in Hp. destruct b.
  - assert (I4 : In p four) by (apply Hb; reflexivity).
    assert (Ef : filter (fun q => q <=? p) four = p :: filter (fun q => q <=? p - 1) four).
    { destruct I4 as [<- | [<- | [<- | [<- | []]]]]; vm_compute; reflexivity. }
    rewrite Ef in Hi. assert (Hi' : rev (p :: acc) ++ filter (fun q => q <=? p - 1) four = four) by (cbn [rev]; rewrite <- app_assoc; exact Hi).
    destruct (Nat.eqb_spec (length (p :: acc)) 4) as [E|N].
    + exists m. intros len Hm. rewrite (H len Hm). discriminate.
    + assert (NL : p <> last_field).
      { intros ->. apply N. apply (f_equal (@length Z)) in Hi'. rewrite app_length, rev_length in Hi'.
        assert (L : filter (fun q => q <=? last_field - 1) four = []) by (vm_compute; reflexivity). rewrite L in Hi'. change (length four) with 4%nat in Hi'.
        change (length (@nil Z)) with 0%nat in Hi'. rewrite Nat.add_0_r in Hi'. exact Hi'. }
      destruct (IH (p - 1) (p :: acc) (i + m)%nat) as (m' & H'); [unfold last_field in *; lia|lia|cbn [length] in *; lia|exact Hi'|].
      exists (m + m')%nat. intros len Hm. rewrite (H len ltac:(lia)), to_u64_id by lia. apply H'. lia.
  - assert (N4 : ~ In p four) by (intros I; apply Hb in I; discriminate I).
    assert (NL : p <> last_field). { intros ->. apply N4. do 3 right. left. reflexivity. }
    destruct (IH (p - 1) acc (i + m)%nat) as (m' & H'); [unfold last_field in *; lia|lia|exact Hl| |].
    { rewrite <- Hi at 2. f_equal. apply filter_ext_in. intros q Iq. destruct (Z.leb_spec q (p - 1)), (Z.leb_spec q p); try reflexivity; try lia.
      exfalso. apply N4. replace p with q by lia. exact Iq. }
    exists (m + m')%nat. intros len Hm. rewrite (H len ltac:(lia)), to_u64_id by lia. apply H'. lia.
Qed.
Theorem fields_run_ends : forall fuel, 3113 <= Z.of_nat fuel -> exists m, forall len, (m <= len)%nat -> fields_run fuel (pre s 0 len) = Some (Ok four).
Proof.
  intros fuel Hf. destruct (search_pre fuel (2 ^ 64 - 1) [] 0%nat) as (m & H); [unfold last_field; lia|unfold last_field; lia|cbn; lia|vm_compute; reflexivity|].
  exists m. intros len Hl. destruct (fields_run_spec fuel (pre s 0 len)) as [E|E]; [|exact E]. exfalso. exact (H len Hl E).
Qed.
End Stream.
