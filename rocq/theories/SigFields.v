(** The search for the moduli of signatures finds the four largest suitable primes. *)
From Coq Require Import ZArith List Bool Lia Znumtheory Zpow_facts.
From Verif Require Import Base SeriesModel SigModel SigProofs SigRoots SigPrime SigFieldsModel Pocklington.
Import ListNotations.
Open Scope Z_scope.

(** ** Specification: r has a root in [0, p/2), which has such a root, and so on, k times. *)
Fixpoint rooted (p : Z) (k : nat) (r : Z) : Prop :=
  match k with O => True | S k => exists y, 0 <= y /\ 2 * y < p /\ (y * y) mod p = r /\ rooted p k y end.
(** The moduli. *)
Definition four : list Z := [18446744073709551359; 18446744073709551263; 18446744073709549327; 18446744073709548503].
Definition last_field : Z := 18446744073709548503.

(** Certificates of the candidates that pass the filter, made by an untrusted search. *)
Definition certs : list (Z * Z * list Z) :=
[ (16561424618041, 2, [4817; 1913]);
  (18446744073709551359, 2, [16561424618041]);
  (233035843, 2, [80747]);
  (15095535248534821, 2, [233035843]);
  (18446744073709551263, 2, [15095535248534821]);
  (25264513, 2, [241; 13; 7]);
  (1939913, 2, [811; 23]);
  (2646591689197927, 2, [25264513; 1939913]);
  (18446744073709551191, 2, [2646591689197927]);
  (1486332917869, 2, [83969; 1663]);
  (18446744073709550791, 2, [1486332917869]);
  (322770862853, 2, [30517; 1783]);
  (18446744073709550719, 2, [322770862853]);
  (2554249, 2, [106427]);
  (899939, 2, [34613]);
  (18446744073709550671, 2, [2554249; 899939]);
  (2230051, 2, [14867]);
  (13380307, 2, [2230051]);
  (18446744073709550591, 2, [13380307; 22549]);
  (188861873, 2, [104459]);
  (265337, 2, [1951]);
  (18446744073709550111, 2, [188861873; 265337]);
  (2528657, 2, [12157]);
  (18446744073709550047, 2, [2528657; 130027]);
  (13740053, 2, [5659]);
  (18446744073709549951, 2, [13740053; 1459]);
  (21630067, 2, [4391; 821]);
  (214831, 2, [31; 11; 7]);
  (18446744073709549583, 2, [21630067; 214831]);
  (635166360449, 2, [12641; 4969]);
  (18446744073709549519, 2, [635166360449]);
  (10675877, 2, [2677; 997]);
  (19447882151083, 2, [10675877]);
  (18446744073709549327, 2, [19447882151083]);
  (2645723, 2, [35753]);
  (25197865853, 2, [2645723]);
  (50395731707, 2, [25197865853]);
  (18446744073709548983, 2, [50395731707]);
  (714797, 2, [2153]);
  (2223018671, 2, [714797]);
  (36786512967709, 2, [2223018671]);
  (18446744073709548887, 2, [36786512967709]);
  (373988663, 2, [44983]);
  (5235841283, 2, [373988663]);
  (18446744073709548847, 2, [5235841283]);
  (2185776239, 2, [132103]);
  (1116329, 2, [6067]);
  (22326581, 2, [1116329]);
  (18446744073709548703, 2, [2185776239; 22326581]);
  (106912657, 2, [941; 263]);
  (18446744073709548599, 2, [106912657; 28429]);
  (536057, 2, [1811]);
  (7942384545443, 2, [536057; 19861]);
  (18446744073709548511, 2, [7942384545443]);
  (26563819, 2, [1301; 83]);
  (2699787180247, 2, [26563819]);
  (18446744073709548503, 2, [2699787180247]) ].
(** The numbers of the searched range that pass sig.cc:146, largest first. *)
Definition candidates : list Z :=
[ 18446744073709551359;
  18446744073709551263;
  18446744073709551191;
  18446744073709550791;
  18446744073709550719;
  18446744073709550671;
  18446744073709550591;
  18446744073709550111;
  18446744073709550047;
  18446744073709549951;
  18446744073709549583;
  18446744073709549519;
  18446744073709549327;
  18446744073709548983;
  18446744073709548887;
  18446744073709548847;
  18446744073709548703;
  18446744073709548599;
  18446744073709548511;
  18446744073709548503 ].
Lemma candidates_prime : forall p, In p candidates -> prime p.
Proof.
  assert (C : check_certs [] certs = true) by (vm_compute; reflexivity).
  pose proof (check_certs_ok certs [] (Forall_nil _) C) as F. rewrite Forall_forall in F.
  assert (S : forallb (fun p => existsb (fun c => Z.eqb p (fst (fst c))) certs) candidates = true) by (vm_compute; reflexivity).
  rewrite forallb_forall in S. intros p Hp. specialize (S p Hp). apply existsb_exists in S. destruct S as (c & Ic & E).
  apply Z.eqb_eq in E. subst p. exact (F c Ic).
Qed.

(** The filter on the searched range.  For p = 2^64 - 1, 2^64 - 9, ... a divisor d of p with
    2^(p-1) <> 1 (mod d), or d = 3, 5 or 7; 1 for the candidates. *)
Definition hints : list Z :=
  [ 3; 7; 19; 3; 827; 5; 3; 41; 7; 3; 5; 17099; 3; 2617; 119026343; 3; 127; 11; 3; 14879; 5; 3; 7; 13; 3; 5; 79; 3;
  181; 7; 3; 61001; 1; 3; 17; 5; 3; 233; 23; 3; 5; 1813739; 3; 7; 1; 3; 113; 1373; 3; 13; 5; 3; 953; 1; 3; 5; 97; 3;
  173219153; 19; 3; 11; 13; 3; 7; 5; 3; 68111; 17; 3; 5; 7; 3; 2028259601; 3389; 3; 3061; 83; 3; 29; 5; 3; 5881;
  859664933; 3; 5; 30347; 3; 13; 41; 3; 31; 7; 3; 11; 5; 3; 19; 227; 3; 5; 13; 3; 1; 739; 3; 7; 23; 3; 361373; 5; 3;
  1; 7; 3; 5; 11; 3; 1; 17; 3; 53; 31; 3; 3421377637; 5; 3; 7; 1; 3; 5; 193; 3; 18301; 7; 3; 17; 29; 3; 131; 5; 3;
  1652891; 127; 3; 5; 8093; 3; 7; 11; 3; 1117; 71; 3; 19; 5; 3; 449; 109; 3; 5; 421; 3; 15817; 1277; 3; 13; 1321; 3;
  7; 5; 3; 179; 19; 3; 5; 7; 3; 114299; 13; 3; 104950621; 11; 3; 31; 5; 3; 17; 1; 3; 5; 37; 3; 1303; 787; 3; 1; 7; 3;
  23; 5; 3; 37223; 67; 3; 5; 43159; 3; 1; 181; 3; 7; 41; 3; 29537; 5; 3; 118191757; 7; 3; 5; 17; 3; 61; 29; 3; 11; 53;
  3; 223; 5; 3; 7; 366199; 3; 5; 2711; 3; 17; 7; 3; 3335923; 3571; 3; 13; 5; 3; 39103459; 2352433; 3; 5; 36113261; 3;
  7; 1; 3; 829; 13; 3; 11; 5; 3; 1; 43; 3; 5; 59; 3; 19; 241; 3; 2119487; 17; 3; 7; 5; 3; 31; 1136478289; 3; 5; 7; 3;
  13; 61; 3; 1; 19; 3; 17; 5; 3; 11; 48221; 3; 5; 13; 3; 311; 907; 3; 7951; 7; 3; 271; 5; 3; 359; 595056260442243521;
  3; 5; 29; 3; 11279; 11; 3; 7; 41456473; 3; 107; 5; 3; 13; 7; 3; 5; 83; 3; 1142789497; 1; 3; 20653993; 47; 3;
  83996251; 5; 3; 7; 101; 3; 5; 1; 3; 2085710369; 7; 3; 1; 11; 3; 43; 5; 3; 7649; 844001; 3; 5; 73; 3; 7; 443; 3; 13;
  13729; 3; 1; 5; 3; 137; 277; 3; 5; 2083; 3; 859; 13; 3; 37; 1; 3; 7; 5; 3; 773681; 23; 3; 5; 7; 3; 1; 1 ].
Fixpoint scan (hs : list Z) (p : Z) : bool :=
  match hs with
  | [] => true
  | d :: t =>
      if (if d =? 1 then existsb (Z.eqb p) candidates
          else if negb (p mod d =? 0) then false
          else if existsb (Z.eqb d) [3; 5; 7] then true
          else (1 <? d) && negb (powmod d 2 (p - 1) =? 1)) then scan t (p - 8) else false
  end.
Lemma rejected : forall p d, 1795265022 < p < 2 ^ 64 -> 1 < d < p -> (d | p) -> In d [3; 5; 7] \/ 2 ^ (p - 1) mod d <> 1 -> is_prime p = Ok false.
Proof.
  intros p d Hp Hd D H. destruct (is_prime_sound (n := p) ltac:(lia)) as (b & E & H1 & H2). rewrite E. destruct b; [exfalso|reflexivity].
  destruct H as [I|N].
  - assert (P : prime p). { apply (H1 d); [|apply Z.mod_divide; [lia|exact D]|reflexivity]. destruct I as [<- | [<- | [<- | []]]]; cbn; auto. }
    destruct (prime_divisors p P d D) as [Y|[Y|[Y|Y]]]; lia.
  - specialize (H2 eq_refl). destruct H2 as [X|[X|[X|[X|X]]]]; try lia. destruct (X 2) as [Y|Y]; [left; reflexivity|lia|].
    apply N. rewrite (Zmod_div_mod d p), Y by (lia || exact D). apply Z.mod_1_l. lia.
Qed.
Lemma accepted : forall p, 1795265022 < p < 2 ^ 64 -> prime p -> is_prime p = Ok true.
Proof.
  intros p Hp P. destruct (is_prime_prime P (proj2 Hp)) as (b & -> & H). destruct b; [reflexivity|]. exfalso.
  enough (false = true) by discriminate. apply H. right. intros a Ia D.
  assert (0 < a <= 1795265022) by (repeat (destruct Ia as [<-|Ia]; [lia|]); destruct Ia). apply Z.divide_pos_le in D; lia.
Qed.
Lemma scan_ok : forall hs p, scan hs p = true -> p < 2 ^ 64 -> forall q, p - 8 * Z.of_nat (length hs) < q <= p -> 1795265022 < q -> q mod 8 = p mod 8 ->
  exists b, is_prime q = Ok b /\ (b = true <-> In q candidates).
Proof.
  induction hs as [|d t IH]; intros p H Hp q Hq Hb Hm; [cbn in Hq; lia|]. cbn [scan] in H.
  match type of H with (if ?c then _ else _) = _ => destruct c eqn:C; [|discriminate H] end.
  destruct (Z.eq_dec q p) as [->|N].
  - destruct (Z.eqb_spec d 1) as [D1|D1].
    + assert (I : In p candidates). { apply existsb_exists in C. destruct C as (x & Ix & E). apply Z.eqb_eq in E. subst x. exact Ix. }
      exists true. split; [apply accepted; [lia|apply candidates_prime; exact I]|]. split; auto.
    + destruct (Z.eqb_spec (p mod d) 0) as [M|M]; cbn [negb] in C; [|discriminate C].
      assert (X : 1 < d /\ (In d [3; 5; 7] \/ 2 ^ (p - 1) mod d <> 1)).
      { destruct (existsb (Z.eqb d) [3; 5; 7]) eqn:Ex.
        - apply existsb_exists in Ex. destruct Ex as (x & Ix & E). apply Z.eqb_eq in E. subst x.
          split; [|left; exact Ix]. destruct Ix as [<- | [<- | [<- | []]]]; lia.
        - apply andb_true_iff in C. destruct C as [C1 C2]. apply Z.ltb_lt in C1. split; [exact C1|right].
          apply negb_true_iff, Z.eqb_neq in C2. unfold powmod in C2. rewrite Zpow_mod_correct in C2 by lia. exact C2. }
      destruct X as [X1 X2]. assert (D : (d | p)) by (apply Z.mod_divide; [lia|exact M]).
      destruct (Z.eq_dec d p) as [E|E].
      { (* p itself: the test says that p is not prime *)
        exists false. split; [|split; [discriminate|]].
        - destruct X2 as [I|F]; [destruct I as [<- | [<- | [<- | []]]]; lia|]. subst d.
          destruct (is_prime_sound (n := p) ltac:(lia)) as (b & Eb & _ & H2). rewrite Eb. destruct b; [exfalso|reflexivity].
          specialize (H2 eq_refl). destruct H2 as [X|[X|[X|[X|X]]]]; try lia. destruct (X 2) as [Y|Y]; [left; reflexivity|lia|contradiction].
        - intros I. exfalso. destruct X2 as [I'|F]; [destruct I' as [<- | [<- | [<- | []]]]; lia|]. subst d. apply F.
          apply fermat_Z; [apply candidates_prime; exact I|lia|]. intros D2. apply Z.divide_pos_le in D2; lia. }
      exists false. split; [|split; [discriminate|]].
      * apply (rejected p d); [lia| |exact D|exact X2]. pose proof (Z.divide_pos_le d p ltac:(lia) D). lia.
      * intros I. apply candidates_prime in I. destruct (prime_divisors p I d D) as [Y|[Y|[Y|Y]]]; lia.
  - apply (IH (p - 8) H ltac:(lia) q).
    + cbn [length] in Hq. rewrite Nat2Z.inj_succ in Hq. split; [lia|].
      pose proof (Z.div_mod q 8 ltac:(lia)). pose proof (Z.div_mod p 8 ltac:(lia)). lia.
    + exact Hb.
    + rewrite Hm. rewrite <- (Z.mod_add (p - 8) 1 8) by lia. f_equal. lia.
Qed.
Lemma scan_all : scan hints (2 ^ 64 - 1) = true.
Proof. vm_compute. reflexivity. Qed.
Lemma filter_range : forall p, last_field <= p < 2 ^ 64 -> p mod 8 = 7 ->
  exists b, is_prime p = Ok b /\ (b = true <-> In p candidates).
Proof.
  intros p Hp Hm. apply (scan_ok _ _ scan_all ltac:(lia) p).
  - change (length hints) with 390%nat. unfold last_field in Hp. lia.
  - unfold last_field in Hp. lia.
  - rewrite Hm. reflexivity.
Qed.

(** ** Roots modulo p = 3 (mod 4) *)
Section P34.
Variable p : Z.
Hypothesis Pp : prime p.
Hypothesis Hp : p < 2 ^ 64.
Hypothesis H4 : p mod 4 = 3.
Lemma odd_p : p mod 2 = 1.
Proof. rewrite (Zmod_div_mod 2 4), H4 by (try lia; exists 2; reflexivity). reflexivity. Qed.
Lemma p3 : 3 <= p.
Proof. pose proof (prime_ge_2 p Pp). destruct (Z.eq_dec p 2) as [E|]; [rewrite E in H4; discriminate H4|lia]. Qed.

Lemma no_i : ~ is_square p (p - 1).
Proof.
  intros (y & Hy & E). pose proof p3 as B.
  assert (ND : ~ (p | y)).
  { intros D. apply Z.mod_divide in D; [|lia]. rewrite Z.mul_mod, D, Z.mod_0_l in E by lia. lia. }
  pose proof (@fermat_Z p y Pp (proj1 Hy) ND) as F.
  assert (Eh : p - 1 = 2 * (2 * (p / 4) + 1)) by (pose proof (Z.div_mod p 4 ltac:(lia)); lia).
  assert (Q0 : 0 <= p / 4) by (apply Z.div_pos; lia).
  rewrite Eh, Z.pow_mul_r, (Z.pow_2_r y), Zpower_mod, E in F by lia.
  assert (G : (p - 1) ^ (2 * (p / 4) + 1) mod p = p - 1).
  { rewrite Z.pow_add_r, Z.pow_1_r, Z.pow_mul_r by lia. rewrite Z.mul_mod by lia.
    assert (S : (p - 1) ^ 2 mod p = 1).
    { replace ((p - 1) ^ 2) with (1 + (p - 2) * p) by ring. rewrite Z.mod_add, Z.mod_1_l by lia. reflexivity. }
    rewrite (pow_mod_1 _ _ p) by (lia || exact S). rewrite Z.mul_1_l, Z.mod_mod by lia. apply Z.mod_small. lia. }
  rewrite G in F. lia.
Qed.
Lemma no_i_b : has_sqrt p (fp_neg p 1) = Ok false.
Proof.
  pose proof p3 as B. assert (E : fp_neg p 1 = p - 1).
  { rewrite fp_neg_ok by lia. replace (- (1)) with (p - 1 + (-1) * p) by lia. rewrite Z.mod_add by lia. apply Z.mod_small. lia. }
  rewrite E. destruct (@has_sqrt_spec p Pp Hp odd_p (p - 1) ltac:(lia)) as (b & -> & Hb). destruct b; [|reflexivity].
  exfalso. apply no_i. apply Hb. reflexivity.
Qed.

Lemma sqrt_from_spec : forall n bits, 0 <= n < p -> is_square p n ->
  sqrt_from p n bits = None \/ exists r l, sqrt_from p n bits = Some (Ok r, l) /\ 0 <= r /\ 2 * r < p /\ (r * r) mod p = n.
Proof.
  intros n bits Hn Sq. pose proof p3 as B. unfold sqrt_from.
  assert (Fd : Forall (fun a => 0 <= a < p) (map (random_fp p) bits)).
  { apply Forall_forall. intros a Ia. apply in_map_iff in Ia. destruct Ia as (b & <- & _). unfold random_fp. apply Z.mod_pos_bound. lia. }
  destruct (@fp_sqrt_spec p Pp Hp odd_p n (map (random_fp p) bits) Hn Fd) as [(E & _)|[(_ & r & E & H)|(N & _)]].
  - left. rewrite E. reflexivity.
  - right. rewrite E. eexists r, _. split; [reflexivity|exact H].
  - contradiction.
Qed.
Lemma two_loop_spec : forall k r bits, 0 <= r < p ->
  two_loop p k r bits = None \/ exists b l, two_loop p k r bits = Some (Ok b, l) /\ (b = true <-> rooted p k r).
Proof.
  induction k as [|k IH]; intros r bits Hr; cbn [two_loop rooted].
  - right. exists true, bits. split; [reflexivity|]. split; trivial.
  - destruct (@has_sqrt_spec p Pp Hp odd_p r Hr) as (b & -> & Hb). destruct b.
    + assert (Sq : is_square p r) by (apply Hb; reflexivity).
      destruct (sqrt_from_spec r bits Hr Sq) as [->|(y & l & -> & Y0 & Y1 & Y2)]; [left; reflexivity|].
      destruct (IH y l ltac:(lia)) as [->|(b & l' & -> & Hb')]; [left; reflexivity|].
      right. exists b, l'. split; [reflexivity|]. rewrite Hb'. split.
      * intros R. exists y. auto.
      * intros (z & Z0 & Z1 & Z2 & R). rewrite (@root_unique p Pp r y z Y0 Y1 Z0 Z1 Y2 Z2). exact R.
    + right. exists false, bits. split; [reflexivity|]. split; [discriminate|].
      intros (y & Y0 & Y1 & Y2 & _). apply Hb. exists y. split; [lia|exact Y2].
Qed.

(** The decision procedure. *)
Definition root3 (r : Z) : Z := let q := powmod p r ((p + 1) / 4) in Z.min q (p - q).
Fixpoint rooted_b (k : nat) (r : Z) : bool :=
  match k with O => true | S k => let y := root3 r in if (0 <=? y) && (2 * y <? p) && ((y * y) mod p =? r) then rooted_b k y else false end.
Lemma root3_ok : forall r, 0 <= r < p -> is_square p r -> 0 <= root3 r /\ 2 * root3 r < p /\ (root3 r * root3 r) mod p = r \/ r = 0.
Proof.
  intros r Hr (s & Hs & E). pose proof p3 as B. destruct (Z.eq_dec r 0) as [R0|R0]; [right; exact R0|left].
  assert (Q0 : 0 <= p / 4) by (apply Z.div_pos; lia).
  assert (Ed : (p + 1) / 4 = p / 4 + 1).
  { pose proof (Z.div_mod p 4 ltac:(lia)) as D. rewrite H4 in D. symmetry. apply Z.div_unique with 0; lia. }
  unfold root3, powmod. rewrite Zpow_mod_correct by lia. rewrite Ed. set (q := r ^ (p / 4 + 1) mod p).
  pose proof (Z.mod_pos_bound (r ^ (p / 4 + 1)) p ltac:(lia)) as Bq. fold q in Bq.
  assert (ND : ~ (p | s)).
  { intros D. apply Z.mod_divide in D; [|lia]. rewrite Z.mul_mod, D, Z.mod_0_l in E by lia. lia. }
  pose proof (@fermat_Z p s Pp (proj1 Hs) ND) as F.
  assert (Sq : (q * q) mod p = r).
  { unfold q. rewrite <- Z.mul_mod, <- Z.pow_add_r by lia. rewrite <- E at 1. rewrite <- Zpower_mod by lia.
    replace (p / 4 + 1 + (p / 4 + 1)) with (2 * (p / 4) + 1 + 1) by lia.
    replace (s * s) with (s ^ 2) by ring. rewrite <- Z.pow_mul_r by lia.
    replace (2 * (2 * (p / 4) + 1 + 1)) with (p - 1 + 2) by (pose proof (Z.div_mod p 4 ltac:(lia)); lia).
    rewrite Z.pow_add_r, Z.mul_mod, F, Z.mul_1_l, Z.mod_mod, Z.pow_2_r by lia. exact E. }
  pose proof odd_p as Od. pose proof (Z.div_mod p 2 ltac:(lia)) as Dp.
  destruct (Z.le_gt_cases q (p - q)).
  - rewrite Z.min_l by lia. split; [lia|]. split; [lia|exact Sq].
  - rewrite Z.min_r by lia. split; [lia|]. split; [lia|].
    replace ((p - q) * (p - q)) with (q * q + (p - 2 * q) * p) by ring. rewrite Z.mod_add by lia. exact Sq.
Qed.
Lemma rooted_b_ok : forall k r, 0 <= r < p -> r <> 0 -> rooted_b k r = true <-> rooted p k r.
Proof.
  induction k as [|k IH]; intros r Hr R0; cbn [rooted_b rooted]; [split; trivial|]. pose proof p3 as B.
  assert (Ec : (if (0 <=? root3 r) && (2 * root3 r <? p) && ((root3 r * root3 r) mod p =? r) then rooted_b k (root3 r) else false) = true <->
    ((0 <= root3 r /\ 2 * root3 r < p) /\ (root3 r * root3 r) mod p = r) /\ rooted_b k (root3 r) = true).
  { rewrite <- Z.leb_le, <- Z.ltb_lt, <- Z.eqb_eq, <- !andb_true_iff. destruct (_ && _); cbn [andb]; tauto. }
  cbv zeta. rewrite Ec. clear Ec. split.
  - intros (((A1 & A2) & A3) & A4). exists (root3 r). split; [exact A1|]. split; [exact A2|]. split; [exact A3|].
    apply IH; [lia| |exact A4]. intros Z. apply R0. rewrite <- A3, Z. apply Z.mod_0_l. lia.
  - intros (y & Y0 & Y1 & Y2 & Y3). assert (Sq : is_square p r) by (exists y; split; [lia|exact Y2]).
    destruct (root3_ok r Hr Sq) as [(A1 & A2 & A3)|]; [|contradiction].
    pose proof (@root_unique p Pp r y (root3 r) Y0 Y1 A1 A2 Y2 A3) as Ey. subst y.
    split; [auto|]. apply IH; [lia| |exact Y3]. intros Z. apply R0. rewrite <- A3, Z. apply Z.mod_0_l. lia.
Qed.
End P34.

Lemma mod84 : forall p, p mod 8 = 7 -> p mod 4 = 3.
Proof. intros p H. rewrite (Zmod_div_mod 4 8), H by (try lia; exists 2; reflexivity). reflexivity. Qed.
Lemma candidates_four : forall p, In p candidates -> p mod 8 = 7 /\ last_field <= p < 2 ^ 64 /\ (rooted p 4 2 <-> In p four).
Proof.
  assert (C : forallb (fun p => (p mod 8 =? 7) && (last_field <=? p) && (p <? 2 ^ 64) && eqb (rooted_b p 4 2) (existsb (Z.eqb p) four)) candidates = true)
    by (vm_compute; reflexivity).
  rewrite forallb_forall in C. intros p Ip. specialize (C p Ip). rewrite !andb_true_iff, Z.eqb_eq, Z.leb_le, Z.ltb_lt in C.
  destruct C as (((C1 & C2) & C3) & C4). split; [exact C1|]. split; [lia|]. apply eqb_prop in C4. unfold last_field in C2.
  rewrite <- (rooted_b_ok p (candidates_prime p Ip) (mod84 p C1)) by lia. rewrite C4, existsb_exists. split.
  - intros (x & Ix & E). apply Z.eqb_eq in E. subst x. exact Ix.
  - intros I. exists p. split; [exact I|apply Z.eqb_refl].
Qed.
Lemma four_candidates : forall p, In p four -> In p candidates.
Proof.
  assert (C : forallb (fun p => existsb (Z.eqb p) candidates) four = true) by (vm_compute; reflexivity).
  rewrite forallb_forall in C. intros p Ip. specialize (C p Ip). apply existsb_exists in C. destruct C as (x & Ix & E).
  apply Z.eqb_eq in E. subst x. exact Ix.
Qed.

Lemma takes_spec : forall p bits, last_field <= p < 2 ^ 64 ->
  takes p bits = None \/ exists b l, takes p bits = Some (Ok b, l) /\ (b = true <-> In p four).
Proof.
  intros p bits Hp. unfold takes. destruct (Z.eqb_spec (p mod 8) 7) as [M|M]; cbn [negb].
  2:{ right. exists false, bits. split; [reflexivity|]. split; [discriminate|]. intros I. apply four_candidates in I. apply candidates_four in I. destruct I; contradiction. }
  destruct (filter_range p Hp M) as (b & -> & Hb). destruct b.
  - assert (Ip : In p candidates) by (apply Hb; reflexivity). pose proof (candidates_prime p Ip) as Pp.
    rewrite (no_i_b p Pp (proj2 Hp) (mod84 p M)). unfold last_field in Hp.
    destruct (two_loop_spec p Pp (proj2 Hp) (mod84 p M) two_roots 2 bits ltac:(lia)) as [E|(b & l & E & H)]; [left; exact E|right].
    exists b, l. split; [exact E|]. rewrite H. apply candidates_four. exact Ip.
  - right. exists false, bits. split; [reflexivity|]. split; [discriminate|]. intros I. apply Hb. apply four_candidates. exact I.
Qed.

Lemma search_spec : forall fuel p acc bits, last_field <= p < 2 ^ 64 -> (length acc < 4)%nat ->
  rev acc ++ filter (fun q => q <=? p) four = four ->
  search fuel p acc bits = None \/ search fuel p acc bits = Some (Ok four).
Proof.
  induction fuel as [|f IH]; intros p acc bits Hp Hl Hi; [left; reflexivity|]. cbn [search].
  destruct (takes_spec p bits Hp) as [->|(b & l & -> & Hb)]; [left; reflexivity|].
  unfold last_field in Hp. destruct b.
  - assert (I4 : In p four) by (apply Hb; reflexivity).
    assert (Ef : filter (fun q => q <=? p) four = p :: filter (fun q => q <=? p - 1) four).
    { destruct I4 as [<- | [<- | [<- | [<- | []]]]]; vm_compute; reflexivity. }
    rewrite Ef in Hi. assert (Hi' : rev (p :: acc) ++ filter (fun q => q <=? p - 1) four = four) by (cbn [rev]; rewrite <- app_assoc; exact Hi).
    destruct (Nat.eqb_spec (length (p :: acc)) 4) as [E|N].
    + right. do 2 f_equal. assert (L : length (filter (fun q => q <=? p - 1) four) = 0%nat).
      { apply (f_equal (@length Z)) in Hi'. rewrite app_length, rev_length, E in Hi'. change (length four) with 4%nat in Hi'. lia. }
      apply length_zero_iff_nil in L. rewrite L, app_nil_r in Hi'. exact Hi'.
    + rewrite to_u64_id by lia. apply IH; [|cbn [length] in *; lia|exact Hi'].
      split; [|lia]. destruct (Z.eq_dec p last_field) as [->|]; [|unfold last_field in *; lia]. exfalso. apply N.
      apply (f_equal (@length Z)) in Hi'. rewrite app_length, rev_length in Hi'.
      assert (L : filter (fun q => q <=? last_field - 1) four = []) by (vm_compute; reflexivity). rewrite L in Hi'. change (length four) with 4%nat in Hi'.
      change (length (@nil Z)) with 0%nat in Hi'. rewrite Nat.add_0_r in Hi'. exact Hi'.
  - assert (N4 : ~ In p four) by (intros I; apply Hb in I; discriminate I).
    assert (NL : p <> last_field). { intros ->. apply N4. do 3 right. left. reflexivity. }
    rewrite to_u64_id by lia. apply IH; [unfold last_field in *; lia|exact Hl|].
    rewrite <- Hi at 2. f_equal. apply filter_ext_in. intros q Iq. destruct (Z.leb_spec q (p - 1)), (Z.leb_spec q p); try reflexivity; try lia.
    exfalso. apply N4. replace p with q by lia. exact Iq.
Qed.
Theorem fields_run_spec : forall fuel bits, fields_run fuel bits = None \/ fields_run fuel bits = Some (Ok four).
Proof.
  intros fuel bits. unfold fields_run. change (to_u64 (0 - 1)) with (2 ^ 64 - 1). apply search_spec; [unfold last_field; lia|cbn; lia|vm_compute; reflexivity].
Qed.
