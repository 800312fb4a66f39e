(** Bit reversal, the shifted permutation and bitrev_neg. *)
From Coq Require Import ZArith Arith ArithRing List Bool Lia.
From Verif Require Import Base SeriesModel SeriesProofs NewtonProofs FFTModel FFTLoop.
Import ListNotations.
Open Scope nat_scope.

(** Reversal of w binary digits. *)
Fixpoint rv (w i : nat) : nat :=
  match w with O => 0 | S v => 2 ^ v * (i mod 2) + rv v (i / 2) end.
Lemma rv_lt : forall w i, rv w i < 2 ^ w.
Proof.
  induction w as [|w IH]; intros i; cbn [rv Nat.pow]; [lia|]. specialize (IH (i / 2)).
  pose proof (Nat.mod_upper_bound i 2 ltac:(lia)). assert (i mod 2 = 0 \/ i mod 2 = 1) as [-> | ->] by lia; lia.
Qed.
Lemma div2_0 : forall b, 2 * b / 2 = b. Proof. intros b. rewrite Nat.mul_comm. apply Nat.div_mul. lia. Qed.
Lemma div2_1 : forall b, (2 * b + 1) / 2 = b. Proof. intros b. rewrite Nat.mul_comm, Nat.div_add_l by lia. change (1 / 2) with 0. lia. Qed.
Lemma mod2_0 : forall b, 2 * b mod 2 = 0. Proof. intros b. rewrite Nat.mul_comm. apply Nat.mod_mul. lia. Qed.
Lemma mod2_1 : forall b, (2 * b + 1) mod 2 = 1. Proof. intros b. rewrite Nat.add_comm, Nat.mul_comm, Nat.mod_add by lia. reflexivity. Qed.
Lemma rv_even : forall w b, rv (S w) (2 * b) = rv w b.
Proof. intros w b. cbn [rv]. rewrite mod2_0, div2_0. lia. Qed.
Lemma rv_odd : forall w b, rv (S w) (2 * b + 1) = 2 ^ w + rv w b.
Proof. intros w b. cbn [rv]. rewrite mod2_1, div2_1. lia. Qed.
Lemma parity_split : forall i, i = 2 * (i / 2) \/ i = 2 * (i / 2) + 1.
Proof. intros i. pose proof (Nat.div_mod i 2 ltac:(lia)). pose proof (Nat.mod_upper_bound i 2 ltac:(lia)). lia. Qed.
(** From the top digit. *)
Lemma rv_top0 : forall w i, i < 2 ^ w -> rv (S w) i = 2 * rv w i.
Proof.
  induction w as [|w IH]; intros i Hi.
  - cbn in Hi. replace i with 0 by lia. reflexivity.
  - cbn [Nat.pow] in Hi. destruct (parity_split i) as [E|E]; rewrite E; set (b := i / 2) in *.
    + rewrite rv_even, (rv_even w). apply IH. lia.
    + rewrite rv_odd, (rv_odd w). rewrite IH by lia. cbn [Nat.pow]. lia.
Qed.
Lemma rv_top1 : forall w i, i < 2 ^ w -> rv (S w) (2 ^ w + i) = 2 * rv w i + 1.
Proof.
  induction w as [|w IH]; intros i Hi.
  - cbn in Hi. replace i with 0 by lia. reflexivity.
  - cbn [Nat.pow] in Hi. destruct (parity_split i) as [E|E]; rewrite E; set (b := i / 2) in *.
    + replace (2 ^ S w + 2 * b) with (2 * (2 ^ w + b)) by (cbn [Nat.pow]; lia).
      rewrite rv_even, (rv_even w). apply IH. lia.
    + replace (2 ^ S w + (2 * b + 1)) with (2 * (2 ^ w + b) + 1) by (cbn [Nat.pow]; lia).
      rewrite rv_odd, (rv_odd w). rewrite IH by lia. cbn [Nat.pow]. lia.
Qed.
Lemma rv_invol : forall w i, i < 2 ^ w -> rv w (rv w i) = i.
Proof.
  induction w as [|w IH]; intros i Hi.
  - cbn in *. lia.
  - cbn [Nat.pow] in Hi. destruct (parity_split i) as [E|E]; rewrite E; set (b := i / 2) in *.
    + rewrite rv_even. rewrite rv_top0 by apply rv_lt. rewrite IH by lia. reflexivity.
    + rewrite rv_odd. rewrite rv_top1 by apply rv_lt. rewrite IH by lia. reflexivity.
Qed.
Lemma rv_0 : forall w, rv w 0 = 0.
Proof. induction w as [|w IH]; [reflexivity|]. change 0 with (2 * 0) at 1. rewrite rv_even. exact IH. Qed.
Lemma rv_pos : forall w i, 0 < i < 2 ^ w -> 0 < rv w i.
Proof.
  intros w i Hi. destruct (Nat.eq_dec (rv w i) 0) as [E|]; [|lia]. pose proof (rv_invol w i ltac:(lia)) as H.
  rewrite E, rv_0 in H. lia.
Qed.

(** [bitreverse] on a wider word. *)
Lemma bitreverse_rv : forall p k i, i < 2 ^ p -> bitreverse (p + k) (Z.of_nat i) = (2 ^ Z.of_nat k * Z.of_nat (rv p i))%Z.
Proof.
  induction p as [|p IH]; intros k i Hi.
  - cbn in Hi. replace i with 0 by lia. cbn [Nat.add rv]. rewrite Z.mul_0_r. change (Z.of_nat 0) with 0%Z.
    induction k as [|k IHk]; [reflexivity|]. cbn [bitreverse]. change (0 / 2)%Z with 0%Z. change (0 mod 2)%Z with 0%Z. rewrite IHk. lia.
  - cbn [Nat.add bitreverse rv]. change 2%Z with (Z.of_nat 2) at 2 3.
    rewrite <- Nat2Z.inj_mod, <- Nat2Z.inj_div. rewrite IH.
    + rewrite (Nat2Z.inj_add (2 ^ p * (i mod 2))), Nat2Z.inj_mul, Nat2Z.inj_pow. change (Z.of_nat 2) with 2%Z.
      rewrite Nat2Z.inj_add, Z.pow_add_r by lia. ring.
    + apply Nat.div_lt_upper_bound; [lia|]. cbn [Nat.pow] in Hi. lia.
Qed.
Lemma bitreverse_shift : forall w p i, p <= w -> i < 2 ^ p ->
  Z.to_nat (bitreverse w (Z.of_nat i) / 2 ^ (Z.of_nat w - Z.of_nat p)) = rv p i.
Proof.
  intros w p i Hp Hi. replace w with (p + (w - p)) at 1 by lia. rewrite bitreverse_rv by exact Hi.
  rewrite <- Nat2Z.inj_sub by exact Hp. rewrite Z.mul_comm, Z.div_mul by (apply Z.pow_nonzero; lia). apply Nat2Z.id.
Qed.

Lemma ctz_nat : forall p, countr_zero64 (Z.of_nat (2 ^ p)) = Z.of_nat p.
Proof. intros p. rewrite Nat2Z.inj_pow. apply ctz_pow2. Qed.

Lemma skipn_skipn : forall X a b (l : list X), skipn a (skipn b l) = skipn (a + b) l.
Proof.
  intros X a b. induction b as [|b IH]; intros l; [rewrite Nat.add_0_r; reflexivity|].
  destruct l as [|h l]; [rewrite !skipn_nil; reflexivity|]. replace (a + S b) with (S (a + b)) by lia. cbn [skipn]. apply IH.
Qed.

Section P.
Context {X : Type}.
Variable d : X.

(** fft.cc:136-145 on 2^p elements. *)
Lemma bitrev_ok : forall p (y : list X), 1 <= p <= 63 -> length y = 2 ^ p ->
  exists y', bitrev y = Ok y' /\ length y' = 2 ^ p /\ forall i, i < 2 ^ p -> nth i y' d = nth (rv p i) y d.
Proof.
  intros p y Hp Hy. unfold bitrev. rewrite Hy, ctz_nat.
  pose (idx := fun i => if i <? rv p i then [i; rv p i] else []).
  destruct (run_local d (2 ^ p) (bitrev_body (64 - Z.of_nat p)) idx (fun j i a => a (rv p i)) (seq 0 (2 ^ p))) with (y := y)
    as (y' & E & L & I & U); auto.
  - apply seq_NoDup.
  - intros j j' i Hj Hj' Hi Hi'. apply in_seq in Hj, Hj'. unfold idx in *.
    destruct (Nat.ltb_spec j (rv p j)); [|destruct Hi]. destruct (Nat.ltb_spec j' (rv p j')); [|destruct Hi'].
    pose proof (rv_invol p j ltac:(lia)). pose proof (rv_invol p j' ltac:(lia)).
    destruct Hi as [<-|[<-|[]]], Hi' as [Hi'|[Hi'|[]]]; subst; try congruence; try lia.
  - intros j i a b Hj Hi Hab. apply Hab. apply in_seq in Hj. unfold idx in *. destruct (Nat.ltb_spec j (rv p j)); [|destruct Hi].
    destruct Hi as [<-|[<-|[]]]; [right; left; reflexivity|left; symmetry; apply rv_invol; lia].
  - intros j z Hj Hz. apply in_seq in Hj. unfold bitrev_body.
    destruct (Z.leb_spec 64 (64 - Z.of_nat p)); [lia|].
    replace 64%Z with (Z.of_nat 64) at 1 by reflexivity. rewrite bitreverse_shift by lia.
    unfold idx. destruct (Nat.ltb_spec j (rv p j)) as [Hlt|Hge].
    + pose proof (rv_lt p j). rewrite (gets_ok d) by (intros i [<-|[<-|[]]]; lia). cbn [map bind].
      destruct (sets_ok d [rv p j; j] z [nth j z d; nth (rv p j) z d]) as (z' & E & L & M & U).
      { constructor; [intros [Hc|[]]; lia|]. constructor; [intros []|constructor]. }
      { intros i [<-|[<-|[]]]; lia. }
      { reflexivity. }
      exists z'. split; [exact E|]. split; [lia|]. cbn [map] in M. injection M as M1 M2. split.
      * intros i [<-|[<-|[]]]; [exact M2|]. rewrite rv_invol by lia. exact M1.
      * intros i Hi. apply U. intros [<-|[<-|[]]]; apply Hi; [right; left|left]; reflexivity.
    + exists z. split; [reflexivity|]. split; [exact Hz|]. split; [intros i []|reflexivity].
  - exists y'. split; [exact E|]. split; [exact L|]. intros i Hi. pose proof (rv_lt p i).
    destruct (lt_eq_lt_dec i (rv p i)) as [[Hlt|Heq]|Hgt].
    + apply (I i i); [apply in_seq; lia|]. unfold idx. destruct (Nat.ltb_spec i (rv p i)); [left; reflexivity|lia].
    + rewrite <- Heq. apply U. intros j Hj Hin. apply in_seq in Hj. unfold idx in Hin.
      destruct (Nat.ltb_spec j (rv p j)); [|destruct Hin].
      destruct Hin as [E1|[E1|[]]]; [subst j; lia|]. subst i. rewrite rv_invol in Heq by lia. lia.
    + apply (I (rv p i) i); [apply in_seq; lia|]. unfold idx. rewrite rv_invol by exact Hi.
      destruct (Nat.ltb_spec (rv p i) i); [right; left; reflexivity|lia].
Qed.
Lemma bitrev_one : forall a : X, bitrev [a] = UB.
Proof. reflexivity. Qed.

(** ** reverses *)
(** Where [reverses] moves position c of 2^q. *)
Fixpoint kpos (q c : nat) : nat :=
  match q with
  | O => c
  | S u => if c <? 2 ^ u then kpos u c else 2 ^ u + (2 ^ u - 1 - kpos u (c - 2 ^ u))
  end.
Lemma kpos_lt : forall q c, c < 2 ^ q -> kpos q c < 2 ^ q.
Proof.
  induction q as [|q IH]; intros c Hc; cbn [kpos]; [exact Hc|]. cbn [Nat.pow] in *.
  destruct (Nat.ltb_spec c (2 ^ q)); [specialize (IH c ltac:(lia)); lia|].
  specialize (IH (c - 2 ^ q) ltac:(lia)). lia.
Qed.
Lemma reverses_ok_ : forall q f (y : list X), q <= f -> length y = 2 ^ q ->
  length (reverses_ f y) = 2 ^ q /\ forall c, c < 2 ^ q -> nth (kpos q c) (reverses_ f y) d = nth c y d.
Proof.
  induction q as [|q IH]; intros f y Hf Hy.
  - destruct f as [|f]; cbn [reverses_ kpos]; auto. rewrite Hy. cbn. auto.
  - destruct f as [|f]; [lia|]. cbn [reverses_]. rewrite Hy.
    pose proof (pow2_pos q) as Hq.
    destruct (Nat.leb_spec (2 ^ S q) 2) as [Hle|Hgt].
    + split; [exact Hy|]. destruct q as [|q]; [|cbn [Nat.pow] in Hle; pose proof (pow2_pos q); lia].
      cbn [Nat.pow Nat.mul Nat.add]. intros c Hc. assert (c = 0 \/ c = 1) as [-> | ->] by lia; reflexivity.
    + replace (2 ^ S q / 2) with (2 ^ q) by (cbn [Nat.pow]; replace (2 ^ q + (2 ^ q + 0)) with (2 * 2 ^ q) by lia; rewrite div2_0; reflexivity).
      set (h := 2 ^ q) in *.
      assert (Hy2 : length y = h + h) by (rewrite Hy; unfold h; cbn [Nat.pow]; lia).
      assert (L1 : length (firstn h y) = h) by (rewrite firstn_length; lia).
      assert (L2 : length (firstn h (skipn h y)) = h) by (rewrite firstn_length, skipn_length; lia).
      assert (E3 : skipn (2 * h) y = []) by (apply skipn_all2; lia). rewrite E3, app_nil_r.
      destruct (IH f (firstn h y) ltac:(lia) L1) as [R1 V1]. destruct (IH f (firstn h (skipn h y)) ltac:(lia) L2) as [R2 V2].
      fold h in R1, R2. split.
      * rewrite app_length, rev_length, R1, R2. unfold h. cbn [Nat.pow]. lia.
      * intros c Hc. cbn [kpos]. fold h. destruct (Nat.ltb_spec c h) as [Hl|Hr].
        -- pose proof (kpos_lt q c Hl). fold h in H. rewrite app_nth1 by lia. rewrite V1 by exact Hl.
           rewrite <- (firstn_skipn h y) at 2. rewrite app_nth1 by lia. reflexivity.
        -- assert (Hc2 : c - h < h) by (cbn [Nat.pow] in Hc; fold h in Hc; lia).
           pose proof (kpos_lt q (c - h) Hc2). fold h in H.
           rewrite app_nth2 by lia. rewrite R1. replace (h + (h - 1 - kpos q (c - h)) - h) with (h - 1 - kpos q (c - h)) by lia.
           rewrite rev_nth by lia. rewrite R2. replace (h - S (h - 1 - kpos q (c - h))) with (kpos q (c - h)) by lia.
           rewrite V2 by exact Hc2. rewrite <- (firstn_skipn h y) at 2. rewrite (app_nth2 _ _ d (n := c)) by lia. rewrite L1.
           rewrite <- (firstn_skipn h (skipn h y)) at 2. rewrite app_nth1 by lia. reflexivity.
Qed.
Lemma reverses_len : forall f (y : list X), length (reverses_ f y) = length y.
Proof.
  induction f as [|f IH]; intros y; cbn [reverses_]; auto. destruct (Nat.leb_spec (length y) 2); auto.
  rewrite app_length, rev_length, app_length, !IH. set (h := length y / 2).
  rewrite !firstn_length, !skipn_length.
  assert (2 * h <= length y) by (unfold h; pose proof (Nat.div_mod (length y) 2 ltac:(lia)); lia). lia.
Qed.
Lemma unreverses_len : forall f (y : list X), length (unreverses_ f y) = length y.
Proof.
  induction f as [|f IH]; intros y; cbn [unreverses_]; auto. destruct (Nat.leb_spec (length y) 2); auto.
  rewrite !app_length, !IH. set (h := length y / 2).
  rewrite !firstn_length, !skipn_length, rev_length, skipn_length.
  assert (2 * h <= length y) by (unfold h; pose proof (Nat.div_mod (length y) 2 ltac:(lia)); lia). lia.
Qed.
Lemma unreverses_reverses_ : forall f (y : list X), unreverses_ f (reverses_ f y) = y.
Proof.
  induction f as [|f IH]; intros y; cbn [reverses_ unreverses_]; auto.
  destruct (Nat.leb_spec (length y) 2) as [H|H].
  - replace (length y <=? 2) with true by (symmetry; apply Nat.leb_le; lia). reflexivity.
  - set (h := length y / 2).
    assert (Hh : 2 * h <= length y) by (unfold h; pose proof (Nat.div_mod (length y) 2 ltac:(lia)); lia).
    set (a := reverses_ f (firstn h y)). set (b := reverses_ f (firstn h (skipn h y))).
    assert (La : length a = h) by (unfold a; rewrite reverses_len, firstn_length; lia).
    assert (Lb : length b = h) by (unfold b; rewrite reverses_len, firstn_length, skipn_length; lia).
    assert (Lt : length (a ++ rev (b ++ skipn (2 * h) y)) = length y) by (rewrite app_length, rev_length, app_length, La, Lb, skipn_length; lia).
    rewrite Lt. replace (length y <=? 2) with false by (symmetry; apply Nat.leb_gt; lia). fold h.
    replace (firstn h (a ++ rev (b ++ skipn (2 * h) y))) with a
      by (rewrite firstn_app, La, Nat.sub_diag, <- La, firstn_all; cbn [firstn]; rewrite app_nil_r; reflexivity).
    replace (skipn h (a ++ rev (b ++ skipn (2 * h) y))) with (rev (b ++ skipn (2 * h) y))
      by (rewrite skipn_app, La, Nat.sub_diag, <- La, skipn_all; reflexivity).
    rewrite rev_involutive.
    replace (firstn h (b ++ skipn (2 * h) y)) with b
      by (rewrite firstn_app, Lb, Nat.sub_diag, <- Lb, firstn_all; cbn [firstn]; rewrite app_nil_r; reflexivity).
    replace (skipn h (b ++ skipn (2 * h) y)) with (skipn (2 * h) y)
      by (rewrite skipn_app, Lb, Nat.sub_diag, <- Lb, skipn_all; reflexivity).
    unfold a, b. rewrite !IH. rewrite <- (firstn_skipn h y) at 4. f_equal.
    replace (2 * h) with (h + h) by lia. rewrite <- skipn_skipn. apply firstn_skipn.
Qed.
Lemma reverses_unreverses_ : forall f (y : list X), reverses_ f (unreverses_ f y) = y.
Proof.
  induction f as [|f IH]; intros y; cbn [reverses_ unreverses_]; auto.
  destruct (Nat.leb_spec (length y) 2) as [H|H].
  - replace (length y <=? 2) with true by (symmetry; apply Nat.leb_le; lia). reflexivity.
  - set (h := length y / 2).
    assert (Hh : 2 * h <= length y) by (unfold h; pose proof (Nat.div_mod (length y) 2 ltac:(lia)); lia).
    set (z := rev (skipn h y)).
    assert (Lz : length z = length y - h) by (unfold z; rewrite rev_length, skipn_length; reflexivity).
    set (a := unreverses_ f (firstn h y)). set (b := unreverses_ f (firstn h z)).
    assert (La : length a = h) by (unfold a; rewrite unreverses_len, firstn_length; lia).
    assert (Lb : length b = h) by (unfold b; rewrite unreverses_len, firstn_length; lia).
    assert (Lt : length (a ++ b ++ skipn h z) = length y) by (rewrite !app_length, La, Lb, skipn_length; lia).
    rewrite Lt. replace (length y <=? 2) with false by (symmetry; apply Nat.leb_gt; lia). fold h.
    assert (Hs : skipn h (a ++ b ++ skipn h z) = b ++ skipn h z)
      by (rewrite skipn_app, La, Nat.sub_diag, <- La, skipn_all; reflexivity).
    replace (firstn h (a ++ b ++ skipn h z)) with a
      by (rewrite firstn_app, La, Nat.sub_diag, <- La, firstn_all; cbn [firstn]; rewrite app_nil_r; reflexivity).
    rewrite Hs.
    replace (firstn h (b ++ skipn h z)) with b
      by (rewrite firstn_app, Lb, Nat.sub_diag, <- Lb, firstn_all; cbn [firstn]; rewrite app_nil_r; reflexivity).
    replace (skipn (2 * h) (a ++ b ++ skipn h z)) with (skipn h z).
    2:{ replace (2 * h) with (h + h) by lia. rewrite <- skipn_skipn. rewrite Hs.
        rewrite skipn_app, Lb, Nat.sub_diag, <- Lb, skipn_all. reflexivity. }
    unfold a, b. rewrite !IH. rewrite firstn_skipn. unfold z. rewrite rev_involutive. apply firstn_skipn.
Qed.
Lemma unreverses_reverses : forall y : list X, unreverses (reverses y) = y.
Proof. intros y. unfold unreverses, reverses. rewrite reverses_len. apply unreverses_reverses_. Qed.
Lemma reverses_unreverses : forall y : list X, reverses (unreverses y) = y.
Proof. intros y. unfold unreverses, reverses. rewrite unreverses_len. apply reverses_unreverses_. Qed.

(** ** The shifted permutation *)
(** Frequency index held by position b of the scrambled transform of 2^q outputs. *)
Fixpoint kperm (q b : nat) : nat :=
  match q with
  | O => 0
  | S u => if Nat.even b then kperm u (b / 2) else 2 ^ S u - 1 - kperm u (b / 2)
  end.
Lemma kperm_lt : forall q b, kperm q b < 2 ^ q.
Proof.
  induction q as [|q IH]; intros b; cbn [kperm]; [cbn; lia|]. specialize (IH (b / 2)). pose proof (pow2_pos q). cbn [Nat.pow] in *.
  destruct (Nat.even b); lia.
Qed.
Lemma kperm_even : forall q b, kperm (S q) (2 * b) = kperm q b.
Proof. intros q b. cbn [kperm]. rewrite div2_0. rewrite Nat.even_mul. reflexivity. Qed.
Lemma kperm_odd : forall q b, kperm (S q) (2 * b + 1) = 2 ^ S q - 1 - kperm q b.
Proof.
  intros q b. cbn [kperm]. rewrite div2_1. replace (Nat.even (2 * b + 1)) with false; [reflexivity|].
  symmetry. rewrite Nat.even_add, Nat.even_mul. reflexivity.
Qed.
Lemma kpos_rv : forall q b, b < 2 ^ q -> kpos q (rv q b) = kperm q b.
Proof.
  induction q as [|q IH]; intros b Hb; [reflexivity|]. cbn [Nat.pow] in Hb. pose proof (rv_lt q (b / 2)).
  destruct (parity_split b) as [E|E]; rewrite E; set (c := b / 2) in *.
  - rewrite rv_even, kperm_even. cbn [kpos]. destruct (Nat.ltb_spec (rv q c) (2 ^ q)); [|lia]. apply IH. lia.
  - rewrite rv_odd, kperm_odd. cbn [kpos]. destruct (Nat.ltb_spec (2 ^ q + rv q c) (2 ^ q)); [lia|].
    replace (2 ^ q + rv q c - 2 ^ q) with (rv q c) by lia. rewrite IH by lia. pose proof (kperm_lt q c). cbn [Nat.pow]. lia.
Qed.
Lemma shifted_permute_ok : forall q (y : list X), 1 <= q <= 63 -> length y = 2 ^ q ->
  exists y', shifted_permute y = Ok y' /\ length y' = 2 ^ q /\ forall b, b < 2 ^ q -> nth (kperm q b) y' d = nth b y d.
Proof.
  intros q y Hq Hy. unfold shifted_permute. destruct (bitrev_ok q y Hq Hy) as (y1 & E & L & V). rewrite E. cbn [bind].
  assert (Hf : q <= 2 ^ q) by (apply Nat.lt_le_incl; apply Nat.pow_gt_lin_r; lia).
  destruct (reverses_ok_ q (length y1) y1 ltac:(lia) L) as [R1 R2].
  exists (reverses y1). split; [reflexivity|]. split; [exact R1|]. intros b Hb.
  rewrite <- kpos_rv by exact Hb. unfold reverses. rewrite R2 by apply rv_lt. rewrite V by apply rv_lt. rewrite rv_invol by exact Hb. reflexivity.
Qed.
Lemma bitrev_twice : forall q (y : list X), 1 <= q <= 63 -> length y = 2 ^ q ->
  (y1 <- bitrev y ;; bitrev y1) = Ok y.
Proof.
  intros q y Hq Hy. destruct (bitrev_ok q y Hq Hy) as (y1 & E & L & V). rewrite E. cbn [bind].
  destruct (bitrev_ok q y1 Hq L) as (y2 & E2 & L2 & V2). rewrite E2. f_equal.
  apply nth_ext with (d := d) (d' := d); [lia|]. intros i Hi. rewrite L2 in Hi.
  rewrite V2 by exact Hi. rewrite V by apply rv_lt. rewrite rv_invol by exact Hi. reflexivity.
Qed.
Lemma shifted_unpermute_permute : forall q (y : list X), 1 <= q <= 63 -> length y = 2 ^ q ->
  (y1 <- shifted_permute y ;; shifted_unpermute y1) = Ok y.
Proof.
  intros q y Hq Hy. unfold shifted_permute, shifted_unpermute.
  destruct (bitrev_ok q y Hq Hy) as (y1 & E & L & V). pose proof (bitrev_twice q y Hq Hy) as B. rewrite E in *. cbn [bind] in *.
  rewrite unreverses_reverses. exact B.
Qed.
Lemma shifted_permute_unpermute : forall q (y : list X), 1 <= q <= 63 -> length y = 2 ^ q ->
  (y1 <- shifted_unpermute y ;; shifted_permute y1) = Ok y.
Proof.
  intros q y Hq Hy. unfold shifted_permute, shifted_unpermute.
  assert (Ly : length (unreverses y) = 2 ^ q) by (unfold unreverses; rewrite unreverses_len; exact Hy).
  destruct (bitrev_ok q (unreverses y) Hq Ly) as (y1 & E & L & V). pose proof (bitrev_twice q _ Hq Ly) as B. rewrite E in *. cbn [bind] in *.
  rewrite B. cbn [bind]. rewrite reverses_unreverses. reflexivity.
Qed.
End P.

(** ** bitrev_neg (fft.cc:251-253) *)
Lemma lxor_bit0 : forall a b, Nat.lxor (2 * a) (2 * b + 1) = 2 * Nat.lxor a b + 1.
Proof.
  intros a b. apply Nat.bits_inj. intros n. destruct n as [|n].
  - rewrite Nat.lxor_spec, Nat.testbit_even_0, !Nat.testbit_odd_0. reflexivity.
  - rewrite Nat.lxor_spec, Nat.testbit_even_succ', !Nat.testbit_odd_succ', Nat.lxor_spec by lia. reflexivity.
Qed.
Lemma lxor_bit1 : forall a b, Nat.lxor (2 * a + 1) (2 * b + 1) = 2 * Nat.lxor a b.
Proof.
  intros a b. apply Nat.bits_inj. intros n. destruct n as [|n].
  - rewrite Nat.lxor_spec, Nat.testbit_even_0, !Nat.testbit_odd_0. reflexivity.
  - rewrite Nat.lxor_spec, Nat.testbit_even_succ', !Nat.testbit_odd_succ', Nat.lxor_spec by lia. reflexivity.
Qed.
Lemma bneg_even : forall b, 0 < b -> bitrev_neg (2 * b) = 2 * bitrev_neg b + 1.
Proof.
  intros b Hb. unfold bitrev_neg. destruct (Nat.eqb_spec (2 * b) 0); [lia|]. destruct (Nat.eqb_spec b 0); [lia|].
  rewrite Nat.log2_double by exact Hb. rewrite Nat.pow_succ_r'. pose proof (pow2_pos (Nat.log2 b)).
  replace (2 * 2 ^ Nat.log2 b - 1) with (2 * (2 ^ Nat.log2 b - 1) + 1) by lia. apply lxor_bit0.
Qed.
Lemma bneg_odd : forall b, 0 < b -> bitrev_neg (2 * b + 1) = 2 * bitrev_neg b.
Proof.
  intros b Hb. unfold bitrev_neg. destruct (Nat.eqb_spec (2 * b + 1) 0); [lia|]. destruct (Nat.eqb_spec b 0); [lia|].
  rewrite Nat.log2_succ_double by exact Hb. rewrite Nat.pow_succ_r'. pose proof (pow2_pos (Nat.log2 b)).
  replace (2 * 2 ^ Nat.log2 b - 1) with (2 * (2 ^ Nat.log2 b - 1) + 1) by lia. apply lxor_bit1.
Qed.
Lemma bneg_rv : forall q i, 0 < i < 2 ^ q -> bitrev_neg i = rv q (2 ^ q - rv q i).
Proof.
  induction q as [|q IH]; intros i Hi; [cbn in Hi; lia|]. cbn [Nat.pow] in Hi.
  pose proof (rv_lt q (i / 2)) as Hl. cbn [Nat.pow].
  destruct (parity_split i) as [E|E]; rewrite E; set (b := i / 2) in *.
  - rewrite bneg_even by lia. rewrite rv_even. pose proof (rv_pos q b ltac:(lia)).
    replace (2 * 2 ^ q - rv q b) with (2 ^ q + (2 ^ q - rv q b)) by lia.
    rewrite rv_top1 by lia. rewrite (IH b) by lia. reflexivity.
  - rewrite rv_odd. destruct (Nat.eq_dec b 0) as [Eb|Nb].
    + rewrite Eb. rewrite rv_0. replace (2 * 2 ^ q - (2 ^ q + 0)) with (2 ^ q + 0) by lia.
      rewrite rv_top1 by (pose proof (pow2_pos q); lia). rewrite rv_0. reflexivity.
    + rewrite bneg_odd by lia. replace (2 * 2 ^ q - (2 ^ q + rv q b)) with (2 ^ q - rv q b) by lia.
      pose proof (rv_pos q b ltac:(lia)). rewrite rv_top0 by lia. rewrite (IH b) by lia. reflexivity.
Qed.
Lemma bneg_lt : forall q i, 0 < i < 2 ^ q -> bitrev_neg i < 2 ^ q.
Proof. intros q i Hi. rewrite (bneg_rv q) by exact Hi. apply rv_lt. Qed.
Lemma bneg_rv_neg : forall q i, 0 < i < 2 ^ q -> rv q (bitrev_neg i) = 2 ^ q - rv q i.
Proof. intros q i Hi. rewrite (bneg_rv q) by exact Hi. apply rv_invol. pose proof (rv_pos q i Hi). lia. Qed.
Lemma bneg_invol : forall q i, 0 < i < 2 ^ q -> bitrev_neg (bitrev_neg i) = i.
Proof.
  intros q i Hi. pose proof (rv_pos q i Hi). pose proof (rv_lt q i).
  assert (Hb : 0 < bitrev_neg i < 2 ^ q).
  { split; [|apply bneg_lt; exact Hi]. rewrite (bneg_rv q) by exact Hi. apply rv_pos. lia. }
  rewrite (bneg_rv q (bitrev_neg i)) by exact Hb. rewrite (bneg_rv_neg q i Hi).
  replace (2 ^ q - (2 ^ q - rv q i)) with (rv q i) by lia. apply rv_invol. lia.
Qed.
