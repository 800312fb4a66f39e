(** Lemmas on the text files. *)
From Coq Require Import ZArith List Bool Ascii String Lia Arith.
From Verif Require Import Base LoopsModel LoopsProofs AreaModel FilesModel.
Import ListNotations.
Open Scope Z_scope.

(** * Characters and numbers *)
Lemma ascii_nat_digit d : 0 <= d <= 9 -> nat_of_ascii (digit d) = (48 + Z.to_nat d)%nat.
Proof. intro H. unfold digit. rewrite nat_ascii_embedding by lia. lia. Qed.
Lemma digit_is d : 0 <= d <= 9 -> isdigit (digit d) = true.
Proof. intro H. unfold isdigit. rewrite ascii_nat_digit by exact H. apply andb_true_iff. split; apply Nat.leb_le; lia. Qed.
Lemma digit_val_ok d : 0 <= d <= 9 -> digit_val (digit d) = d.
Proof. intro H. unfold digit_val. rewrite ascii_nat_digit by exact H. lia. Qed.
Lemma digit_not_space c : isdigit c = true -> isspace c = false.
Proof.
  unfold isdigit, isspace. rewrite andb_true_iff, !Nat.leb_le. intros [A B]. apply orb_false_iff. split; [apply Nat.eqb_neq; lia|].
  apply andb_false_iff. right. apply Nat.leb_gt. lia.
Qed.

Lemma dec_digits f n : 0 <= n -> Forall (fun c => isdigit c = true) (dec f n).
Proof.
  revert n. induction f as [|f IH]; intros n H; [constructor|]. cbn [dec]. destruct (Z.ltb_spec n 10).
  - constructor; [apply digit_is; lia|constructor].
  - apply Forall_app. split; [apply IH, Z.div_pos; lia|]. constructor; [|constructor]. apply digit_is.
    pose proof (Z.mod_pos_bound n 10). lia.
Qed.
Lemma dec_nonempty f n : dec (S f) n <> [].
Proof. cbn [dec]. destruct (n <? 10); [discriminate|]. intro E. apply app_eq_nil in E. destruct E. discriminate. Qed.
Lemma pow2_Sf f : 2 ^ Z.of_nat (S f) = 2 * 2 ^ Z.of_nat f.
Proof. rewrite Nat2Z.inj_succ, Z.pow_succ_r by lia. reflexivity. Qed.
Lemma dec_val f n acc r : 0 <= n < 2 ^ Z.of_nat f -> (0 < f)%nat -> (forall c t, r = c :: t -> isdigit c = false) ->
  digits_val acc (dec f n ++ r) = acc * 10 ^ Z.of_nat (List.length (dec f n)) + n.
Proof.
  intros H Hf Hr. assert (G : forall f n acc r, 0 <= n < 2 ^ Z.of_nat f -> (0 < f)%nat ->
    digits_val acc (dec f n ++ r) = digits_val (acc * 10 ^ Z.of_nat (List.length (dec f n)) + n) r).
  { clear. induction f as [|f IH]; intros n acc r H Hf; [lia|]. cbn [dec]. destruct (Z.ltb_spec n 10) as [L|L].
    - cbn [app digits_val List.length]. rewrite digit_is, digit_val_ok by lia. f_equal. change (Z.of_nat 1) with 1. lia.
    - rewrite <- app_assoc. destruct f as [|f]; [change (2 ^ Z.of_nat 1) with 2 in H; lia|].
      rewrite pow2_Sf in H.
      assert (Hd : 0 <= n / 10 < 2 ^ Z.of_nat (S f)). { split; [apply Z.div_pos; lia|]. apply Z.div_lt_upper_bound; lia. }
      rewrite IH by (exact Hd || lia). cbn [app digits_val]. pose proof (Z.mod_pos_bound n 10 eq_refl) as M.
      rewrite digit_is, digit_val_ok by lia. f_equal. rewrite app_length. cbn [List.length].
      rewrite Nat2Z.inj_add, Z.pow_add_r by lia. change (10 ^ Z.of_nat 1) with 10.
      pose proof (Z.div_mod n 10 ltac:(lia)). lia. }
  rewrite G by assumption. destruct r as [|c t]; [reflexivity|]. cbn [digits_val]. rewrite (Hr c t eq_refl). reflexivity.
Qed.
Lemma log2_bound n : 0 <= n -> n < 2 ^ Z.of_nat (S (Z.to_nat (Z.log2 n))).
Proof.
  intro H. rewrite Nat2Z.inj_succ, Z2Nat.id by apply Z.log2_nonneg. destruct (Z.eq_dec n 0) as [->|N]; [reflexivity|].
  apply Z.log2_spec. lia.
Qed.
Lemma print_nat_val n acc r : 0 <= n -> (forall c t, r = c :: t -> isdigit c = false) ->
  digits_val acc (print_nat n ++ r) = acc * 10 ^ Z.of_nat (List.length (print_nat n)) + n.
Proof. intros H Hr. unfold print_nat. apply dec_val; [split; [exact H|apply log2_bound, H]|lia|exact Hr]. Qed.
Lemma print_nat_shape n : 0 <= n -> exists c t, print_nat n = c :: t /\ isdigit c = true /\ Forall (fun c => isdigit c = true) t.
Proof.
  intro H. pose proof (dec_digits (S (Z.to_nat (Z.log2 n))) n H) as D. pose proof (dec_nonempty (Z.to_nat (Z.log2 n)) n) as N.
  unfold print_nat. destruct (dec (S (Z.to_nat (Z.log2 n))) n) as [|c t]; [contradiction|]. inversion D; subst. eauto.
Qed.
Lemma trim_nonspace c t : isspace c = false -> trim (c :: t) = c :: t.
Proof. intro H. cbn [trim]. rewrite H. reflexivity. Qed.
Lemma digit_not_sign c : isdigit c = true -> Ascii.eqb c "-" = false /\ Ascii.eqb c "+" = false.
Proof. intro H. split; destruct (Ascii.eqb_spec c "-"); destruct (Ascii.eqb_spec c "+"); subst; try reflexivity; discriminate. Qed.

(** stol reads back what "%d" printed, whatever follows (unless it is a digit). *)
Lemma stol_print n r : - 2 ^ 63 <= n < 2 ^ 63 -> (forall c t, r = c :: t -> isdigit c = false) -> stol (print_int n ++ r) = Ok n.
Proof.
  intros H Hr. unfold print_int. destruct (Z.ltb_spec n 0) as [L|L].
  - destruct (print_nat_shape (- n) ltac:(lia)) as (c & t & E & Dc & _). unfold stol.
    cbn [app]. rewrite trim_nonspace by reflexivity. cbn [Ascii.eqb Bool.eqb]. cbn iota.
    assert (V := print_nat_val (- n) 0 r ltac:(lia) Hr). rewrite E in *. cbn [app] in *. rewrite Dc, V.
    replace (-1 * (0 * 10 ^ Z.of_nat (List.length (c :: t)) + - n)) with n by lia.
    replace (- 2 ^ 63 <=? n) with true by (symmetry; apply Z.leb_le; lia). replace (n <? 2 ^ 63) with true by (symmetry; apply Z.ltb_lt; lia). reflexivity.
  - destruct (print_nat_shape n L) as (c & t & E & Dc & _). unfold stol.
    assert (V := print_nat_val n 0 r L Hr). rewrite E in *. cbn [app] in *.
    rewrite trim_nonspace by (apply digit_not_space, Dc). destruct (digit_not_sign c Dc) as [-> ->]. rewrite Dc, V.
    replace (1 * (0 * 10 ^ Z.of_nat (List.length (c :: t)) + n)) with n by lia.
    replace (- 2 ^ 63 <=? n) with true by (symmetry; apply Z.leb_le; lia). replace (n <? 2 ^ 63) with true by (symmetry; apply Z.ltb_lt; lia). reflexivity.
Qed.
Lemma stol_space s : stol (" "%char :: s) = stol s.
Proof. reflexivity. Qed.
Lemma number_print n : 0 <= n < 2 ^ 63 -> number (" "%char :: print_int n) = Ok n.
Proof.
  intro H. unfold number. rewrite stol_space. rewrite <- (app_nil_r (print_int n)). rewrite stol_print by (lia || discriminate).
  cbn [bind]. destruct (Z.leb_spec 0 n); [reflexivity|lia].
Qed.
Definition stol_tail (neg : bool) (s : str) : res Z :=
  match s with
  | c :: _ =>
      if isdigit c then
        let v := (if neg then -1 else 1) * digits_val 0 s in
        if (- 2 ^ 63 <=? v) && (v <? 2 ^ 63) then Ok v else Throw
      else Throw
  | [] => Throw
  end.
Lemma stol_as_tail s : exists neg t, stol s = stol_tail neg t.
Proof.
  unfold stol. destruct (trim s) as [|c r]; [exists false, []; reflexivity|]. destruct (Ascii.eqb c "-"); [exists true, r; reflexivity|].
  destruct (Ascii.eqb c "+"); [exists false, r; reflexivity|exists false, (c :: r); reflexivity].
Qed.
Lemma stol_range s n : stol s = Ok n -> - 2 ^ 63 <= n < 2 ^ 63.
Proof.
  destruct (stol_as_tail s) as (b & [|d t] & ->); [discriminate|]. unfold stol_tail.
  destruct (isdigit d); [|discriminate]. cbv zeta. set (v := _ * _). destruct (Z.leb_spec (- 2 ^ 63) v); cbn [andb]; [|discriminate].
  destruct (Z.ltb_spec v (2 ^ 63)); [|discriminate]. intro E. injection E as <-. lia.
Qed.
Lemma stol_no_ub s : stol s <> UB.
Proof.
  destruct (stol_as_tail s) as (b & [|d t] & ->); [discriminate|]. unfold stol_tail.
  destruct (isdigit d); [|discriminate]. cbv zeta. destruct (_ && _); discriminate.
Qed.
Lemma number_range s n : number s = Ok n -> 0 <= n < 2 ^ 63.
Proof.
  unfold number. destruct (stol s) as [i| |] eqn:E; cbn [bind]; try discriminate. apply stol_range in E.
  destruct (Z.leb_spec 0 i); [|discriminate]. intro H1. injection H1 as <-. lia.
Qed.
Lemma number_no_ub s : number s <> UB.
Proof. unfold number. pose proof (stol_no_ub s). destruct (stol s) as [i| |]; cbn [bind]; try discriminate; [|contradiction]. destruct (0 <=? i); discriminate. Qed.
Lemma print_int_inj a b : - 2 ^ 63 <= a < 2 ^ 63 -> - 2 ^ 63 <= b < 2 ^ 63 -> print_int a = print_int b -> a = b.
Proof.
  intros Ha Hb E. pose proof (stol_print a [] Ha ltac:(discriminate)) as A. pose proof (stol_print b [] Hb ltac:(discriminate)) as B.
  rewrite E in A. congruence.
Qed.
Definition no_nl (s : str) : Prop := ~ In nl s.
Lemma print_int_no_nl n : no_nl (print_int n).
Proof.
  assert (D : forall m, 0 <= m -> no_nl (print_nat m)).
  { intros m Hm I. pose proof (dec_digits (S (Z.to_nat (Z.log2 m))) m Hm) as F. rewrite Forall_forall in F. specialize (F nl I). discriminate. }
  unfold print_int. destruct (Z.ltb_spec n 0).
  - intros [E|I]; [discriminate|]. exact (D (- n) ltac:(lia) I).
  - apply D. lia.
Qed.

(** * Lines *)
Lemma getlines_line l r : no_nl l -> getlines (l ++ nl :: r) = l :: getlines r.
Proof.
  induction l as [|c l IH]; intro H; [reflexivity|]. cbn [app getlines].
  destruct (Ascii.eqb_spec c nl) as [->|N]; [exfalso; apply H; left; reflexivity|].
  rewrite IH by (intro I; apply H; right; exact I). reflexivity.
Qed.
Lemma getlines_last l : no_nl l -> l <> [] -> getlines l = [l].
Proof.
  induction l as [|c l IH]; intros H N; [contradiction|]. cbn [getlines].
  destruct (Ascii.eqb_spec c nl) as [->|Nc]; [exfalso; apply H; left; reflexivity|].
  destruct l as [|d l]; [reflexivity|]. rewrite IH; [reflexivity|intro I; apply H; right; exact I|discriminate].
Qed.
(** Lines each followed by a newline. *)
Definition unlines (ls : list str) : str := List.concat (map (fun l => l ++ [nl]) ls).
Lemma getlines_unlines ls r : Forall no_nl ls -> getlines (unlines ls ++ r) = ls ++ getlines r.
Proof.
  induction 1 as [|l ls Hl Hls IH]; [reflexivity|]. unfold unlines. cbn [map List.concat]. fold (unlines ls).
  rewrite <- !app_assoc. cbn [app]. rewrite getlines_line by exact Hl. rewrite IH. reflexivity.
Qed.
Lemma unlines_app a b : unlines (a ++ b) = unlines a ++ unlines b.
Proof. unfold unlines. rewrite map_app, concat_app. reflexivity. Qed.
Lemma strip_app p v : strip p (p ++ v) = Some v.
Proof. induction p as [|a p IH]; [reflexivity|]. cbn [app strip]. rewrite Ascii.eqb_refl. exact IH. Qed.
Lemma strip_some p v r : strip p v = Some r -> v = p ++ r.
Proof.
  revert v. induction p as [|a p IH]; intros v E; [injection E as ->; reflexivity|].
  destruct v as [|b v]; [discriminate|]. cbn [strip] in E. destruct (Ascii.eqb_spec a b) as [->|]; [|discriminate].
  rewrite (IH v E). reflexivity.
Qed.
Lemma str_eqb_refl a : str_eqb a a = true.
Proof. unfold str_eqb. destruct (list_eq_dec ascii_dec a a); [reflexivity|contradiction]. Qed.
Lemma str_eqb_neq a b : a <> b -> str_eqb a b = false.
Proof. unfold str_eqb. destruct (list_eq_dec ascii_dec a b); [contradiction|reflexivity]. Qed.

Section Files.
Variable T : Type.
Variable safe : T -> res str.
Variable parse : str -> res T.
Notation fser := (fseries T).

(** The first [nonzero] cells hold [vals]. *)
Definition content (x : fser) (vals : list T) : Prop :=
  0 <= fnonzero x /\ List.length vals = Z.to_nat (fnonzero x) /\ firstn (Z.to_nat (fnonzero x)) (fcells x) = map Some vals.
Definition counts_ok (x : fser) : Prop := 0 <= fnonzero x <= fknown x /\ fknown x < 2 ^ 63.

Lemma content_get x vals i : content x vals -> (i < List.length vals)%nat -> exists a, nth_error vals i = Some a /\ fget T x (Z.of_nat i) = Ok a.
Proof.
  intros (P & L & E) Hi. destruct (nth_error vals i) as [a|] eqn:N; [|apply nth_error_None in N; lia]. exists a. split; [reflexivity|].
  unfold fget. replace (0 <=? Z.of_nat i) with true by (symmetry; apply Z.leb_le; lia).
  replace (Z.of_nat i <? fnonzero x) with true by (symmetry; apply Z.ltb_lt; lia). cbn [andb]. rewrite Nat2Z.id.
  assert (Q : nth_error (firstn (Z.to_nat (fnonzero x)) (fcells x)) i = Some (Some a)) by (rewrite E, nth_error_map, N; reflexivity).
  assert (Q2 : nth_error (fcells x) i = Some (Some a)).
  { rewrite <- (firstn_skipn (Z.to_nat (fnonzero x)) (fcells x)). rewrite nth_error_app1; [exact Q|]. apply nth_error_Some. rewrite Q. discriminate. }
  rewrite Q2. reflexivity.
Qed.

(** * Writing *)
Lemma cat_assoc y a b : cat (cat y a) b = cat y (cat a b).
Proof. destruct y as [y| |], a as [a| |], b as [b| |]; cbn; try reflexivity. rewrite app_assoc. reflexivity. Qed.

Section Write.
Variable x : fser.
Variable vals : list T.
Variable texts : list str.
Hypothesis HC : content x vals.
Hypothesis HT : Forall2 (fun a s => safe a = Ok s) vals texts.
Lemma texts_len : List.length texts = Z.to_nat (fnonzero x).
Proof. destruct HC as (_ & L & _). rewrite <- L. clear L. clear HC. induction HT as [|? ? ? ? ? ? IH]; [reflexivity|]. cbn. f_equal. apply IH. assumption. Qed.
Lemma F2_nth {A B} (R : A -> B -> Prop) l m i a : Forall2 R l m -> nth_error l i = Some a -> exists b, nth_error m i = Some b /\ R a b.
Proof.
  intro H. revert i. induction H as [|a0 b0 l m Hab H IH]; intros [|i] E; try discriminate.
  - injection E as <-. exists b0. split; [reflexivity|exact Hab].
  - apply IH, E.
Qed.
Lemma F2_length {A B} (R : A -> B -> Prop) l m : Forall2 R l m -> List.length l = List.length m.
Proof. induction 1; cbn; congruence. Qed.
Lemma term_ok start i : 0 <= start -> 0 <= i -> start + i < fnonzero x ->
  exists s, nth_error texts (Z.to_nat (start + i)) = Some s /\ term T safe x start i = Ok (s ++ [nl]).
Proof.
  intros Hs Hi Hlt. destruct HC as (P & L & E).
  destruct (content_get x vals (Z.to_nat (start + i)) HC ltac:(lia)) as (a & Na & G). rewrite Z2Nat.id in G by lia.
  destruct (F2_nth _ _ _ _ _ HT Na) as (s & Ns & Sa). exists s. split; [exact Ns|]. unfold term. rewrite G. cbn [bind]. rewrite Sa. reflexivity.
Qed.
Lemma skipn_cons {A} (l : list A) n a : nth_error l n = Some a -> skipn n l = a :: skipn (S n) l.
Proof. revert n. induction l as [|b l IH]; intros [|n] E; try discriminate; [injection E as ->; reflexivity|]. cbn [skipn]. apply IH, E. Qed.
Lemma skip_skip {A} a b (l : list A) : skipn a (skipn b l) = skipn (b + a) l.
Proof. revert l. induction b as [|b IH]; intro l; [reflexivity|]. destruct l as [|c l]; [destruct a; reflexivity|]. cbn [skipn Nat.add]. apply IH. Qed.
Lemma serial_terms start m j acc : 0 <= start -> start + Z.of_nat (j + m) <= fnonzero x ->
  fold_left (fun y i => cat y (term T safe x start (Z.of_nat i))) (seq j m) (Ok acc) =
  Ok (acc ++ unlines (firstn m (skipn (Z.to_nat start + j) texts))).
Proof.
  intro Hs. revert j acc. induction m as [|m IH]; intros j acc H.
  - cbn. rewrite app_nil_r. reflexivity.
  - cbn [seq fold_left]. destruct (term_ok start (Z.of_nat j) Hs ltac:(lia) ltac:(lia)) as (s & Ns & Et). rewrite Et. cbn [cat bind].
    rewrite IH by lia. replace (Z.to_nat (start + Z.of_nat j)) with (Z.to_nat start + j)%nat in Ns by lia.
    rewrite (skipn_cons texts _ _ Ns). cbn [firstn]. change (unlines (s :: ?l)) with ((s ++ [nl]) ++ unlines l). unfold unlines at 2. cbn [map List.concat].
    fold (unlines (firstn m (skipn (S (Z.to_nat start + j)) texts))). rewrite <- Nat.add_succ_r, !app_assoc. reflexivity.
Qed.

Variable threads : Z -> nat.
Variable sched : Z -> list nat.
Variable size : Z.
Hypothesis Hsize : 1 <= size.
Hypothesis Hthreads : forall start, 1 <= Z.of_nat (threads start) < 2 ^ 31.
Hypothesis Hsched : forall start, 0 <= start < fnonzero x -> mr_joined (res str)
  (mr_run (res str) cat (term T safe x start) (Z.min size (relu (fnonzero x - start))) (threads start) (sched start)).
Lemma batch_ok start : 0 <= start < fnonzero x ->
  batch T safe threads sched x size start = Ok (unlines (firstn (Z.to_nat size) (skipn (Z.to_nat start) texts))).
Proof.
  intro H. unfold batch.
  assert (Hn : 0 <= Z.min size (relu (fnonzero x - start))) by (unfold relu; lia).
  rewrite (map_reduce_correct (res str) cat (term T safe x start) _ (threads start) Hn (Hthreads start) cat_assoc (sched start) (Ok []) (Hsched start H)).
  change (serial ?Y ?r ?m (Ok []) 0 ?k) with (fold_left (fun y i => r y (m (Z.of_nat i))) (seq 0 k) (Ok [])). rewrite serial_terms by (unfold relu; lia). cbn [app]. rewrite Nat.add_0_r. do 2 f_equal. pose proof texts_len as TL.
  destruct (Z.le_gt_cases size (fnonzero x - start)) as [Le|Gt].
  - replace (Z.min size (relu (fnonzero x - start))) with size by (unfold relu; lia). reflexivity.
  - rewrite !firstn_all2; [reflexivity| |]; rewrite skipn_length; unfold relu; lia.
Qed.
Lemma batches_ok fuel start : 0 <= start -> fnonzero x - start <= Z.of_nat fuel ->
  batches T safe threads sched fuel x size start = Ok (unlines (skipn (Z.to_nat start) texts)).
Proof.
  revert start. pose proof texts_len as TL. induction fuel as [|f IH]; intros start H0 Hf; cbn [batches].
  - destruct (Z.ltb_spec start (fnonzero x)); [lia|]. rewrite skipn_all2 by lia. reflexivity.
  - destruct (Z.ltb_spec start (fnonzero x)) as [L|L]; [|rewrite skipn_all2 by lia; reflexivity].
    rewrite batch_ok by lia. cbn [bind]. rewrite IH by lia. cbn [bind]. rewrite <- unlines_app. do 2 f_equal.
    rewrite <- (firstn_skipn (Z.to_nat size) (skipn (Z.to_nat start) texts)) at 2. f_equal.
    rewrite skip_skip. f_equal. lia.
Qed.
Lemma write_ok comments time : write_series T safe threads sched comments x time size =
  Ok (unlines (map (fun c => lit "# " ++ c) (header T comments x time)) ++ unlines texts).
Proof.
  unfold write_series. destruct HC as (P & _ & _). rewrite batches_ok by lia. cbn [bind]. do 2 f_equal.
  unfold unlines. rewrite map_map. f_equal.
Qed.
End Write.

(** * Reading *)
Lemma read_lines_app st a b : read_lines T parse st (a ++ b) = (st1 <- read_lines T parse st a ;; read_lines T parse st1 b).
Proof.
  revert st. induction a as [|l a IH]; intro st; [reflexivity|]. cbn [app read_lines]. destruct (read_line T parse st l); cbn [bind]; [apply IH|reflexivity|reflexivity].
Qed.

(** A comment that is read back as written and is not one of the reserved keys. *)
Definition no_key (c : str) : Prop := strip (lit "known =") c = None /\ strip (lit "nonzero =") c = None /\ strip (lit "terms =") c = None.
Definition unspaced (c : str) : Prop := forall a r, c = a :: r -> isspace a = false.
Definition admissible (c : str) : Prop := no_nl c /\ unspaced c /\ no_key c.
Lemma trim_unspaced c : unspaced c -> trim c = c.
Proof. destruct c as [|a r]; [reflexivity|]. intro H. apply trim_nonspace, (H a r eq_refl). Qed.
Lemma read_comment st c : unspaced c -> read_line T parse st (lit "# " ++ c) =
  (' (kn, nz) <- read_counts (r_known st) (r_nonzero st) c ;;
   if (0 <=? kn) && (0 <=? nz) then
     _ <- slow_assert (nz <=? kn) ;; x <- fset_counts T (fnew T nz) kn nz ;; Ok (mkR kn nz 0 (r_comments st ++ [c]) x)
   else Ok (mkR kn nz (r_terms st) (r_comments st ++ [c]) (r_x st))).
Proof.
  intro U. unfold read_line. change (trim (lit "# " ++ c)) with (trim ("#"%char :: " "%char :: c)).
  rewrite trim_nonspace by reflexivity. rewrite Ascii.eqb_refl. change (trim (" "%char :: c)) with (trim c). rewrite trim_unspaced by exact U. reflexivity.
Qed.
Lemma counts_none kn nz c : no_key c -> read_counts kn nz c = Ok (kn, nz).
Proof. intros (A & B & C). unfold read_counts. rewrite A, B, C. reflexivity. Qed.
Lemma read_plain st c : admissible c -> (0 <=? r_known st) && (0 <=? r_nonzero st) = false ->
  read_line T parse st (lit "# " ++ c) = Ok (mkR (r_known st) (r_nonzero st) (r_terms st) (r_comments st ++ [c]) (r_x st)).
Proof. intros (_ & U & K) H. rewrite read_comment by exact U. rewrite counts_none by exact K. cbn [bind]. rewrite H. reflexivity. Qed.
Lemma read_plains cs st : Forall admissible cs -> (0 <=? r_known st) && (0 <=? r_nonzero st) = false ->
  read_lines T parse st (map (fun c => lit "# " ++ c) cs) =
  Ok (mkR (r_known st) (r_nonzero st) (r_terms st) (r_comments st ++ cs) (r_x st)).
Proof.
  intro F. revert st. induction F as [|c cs Hc F IH]; intros st H.
  - cbn. rewrite app_nil_r. destruct st; reflexivity.
  - cbn [map read_lines]. rewrite read_plain by assumption. cbn [bind]. rewrite IH by exact H. cbn. rewrite <- app_assoc. reflexivity.
Qed.
Lemma new_counts kn nz : 0 <= nz <= kn -> kn < 2 ^ 63 -> fset_counts T (fnew T nz) kn nz = Ok (mkF (repeat None (Z.to_nat nz)) kn nz).
Proof.
  intros H K. unfold fset_counts, fnew. cbn [fcells]. rewrite repeat_length. unfold relu.
  assert (B : 2 ^ 63 < 2 ^ 64) by reflexivity.
  replace (to_u64 nz) with nz by (unfold to_u64; rewrite Z.mod_small; lia).
  replace (to_u64 (Z.min (Z.of_nat (Z.to_nat (Z.max nz 0))) kn)) with (Z.min (Z.of_nat (Z.to_nat (Z.max nz 0))) kn) by (unfold to_u64; rewrite Z.mod_small; lia).
  replace (nz <=? Z.min (Z.of_nat (Z.to_nat (Z.max nz 0))) kn) with true by (symmetry; apply Z.leb_le; lia).
  cbn [slow_assert bind]. rewrite Z.max_l by lia. reflexivity.
Qed.

Definition known_c (x : fser) : str := lit "known = " ++ print_int (fknown x).
Definition nonzero_c (x : fser) : str := lit "nonzero = " ++ print_int (fnonzero x).
Lemma unspaced_lit c s : isspace c = false -> unspaced (c :: s).
Proof. intros H a r E. injection E as -> ->. exact H. Qed.
Lemma read_known st x : counts_ok x -> r_known st = -1 -> r_nonzero st = -1 ->
  read_line T parse st (lit "# " ++ known_c x) = Ok (mkR (fknown x) (-1) (r_terms st) (r_comments st ++ [known_c x]) (r_x st)).
Proof.
  intros (A & B) K N. rewrite read_comment by (apply unspaced_lit; reflexivity). rewrite K, N. unfold read_counts.
  replace (known_c x) with (lit "known =" ++ " "%char :: print_int (fknown x)) by reflexivity. rewrite strip_app.
  cbn [Z.ltb slow_assert bind Z.compare]. rewrite number_print by lia. cbn [bind].
  rewrite andb_false_r. reflexivity.
Qed.
Lemma read_nonzero st x : counts_ok x -> r_known st = fknown x -> r_nonzero st = -1 ->
  read_line T parse st (lit "# " ++ nonzero_c x) =
  Ok (mkR (fknown x) (fnonzero x) 0 (r_comments st ++ [nonzero_c x]) (mkF (repeat None (Z.to_nat (fnonzero x))) (fknown x) (fnonzero x))).
Proof.
  intros (A & B) K N. rewrite read_comment by (apply unspaced_lit; reflexivity). rewrite K, N. unfold read_counts.
  replace (nonzero_c x) with (lit "nonzero =" ++ " "%char :: print_int (fnonzero x)) by reflexivity.
  replace (strip (lit "known =") (lit "nonzero =" ++ " "%char :: print_int (fnonzero x))) with (@None str) by reflexivity. rewrite strip_app.
  cbn [Z.ltb slow_assert bind Z.compare]. rewrite number_print by lia. cbn [bind].
  replace (0 <=? fknown x) with true by (symmetry; apply Z.leb_le; lia). replace (0 <=? fnonzero x) with true by (symmetry; apply Z.leb_le; lia).
  cbn [andb]. replace (fnonzero x <=? fknown x) with true by (symmetry; apply Z.leb_le; lia). cbn [slow_assert bind].
  rewrite new_counts by lia. reflexivity.
Qed.
Lemma read_time st c : unspaced c -> no_key c -> 0 <= r_nonzero st <= r_known st -> r_known st < 2 ^ 63 ->
  read_line T parse st (lit "# " ++ c) =
  Ok (mkR (r_known st) (r_nonzero st) 0 (r_comments st ++ [c]) (mkF (repeat None (Z.to_nat (r_nonzero st))) (r_known st) (r_nonzero st))).
Proof.
  intros U K H B. rewrite read_comment by exact U. rewrite counts_none by exact K. cbn [bind].
  replace (0 <=? r_known st) with true by (symmetry; apply Z.leb_le; lia). replace (0 <=? r_nonzero st) with true by (symmetry; apply Z.leb_le; lia).
  cbn [andb]. replace (r_nonzero st <=? r_known st) with true by (symmetry; apply Z.leb_le; lia). cbn [slow_assert bind].
  rewrite new_counts by lia. reflexivity.
Qed.
Lemma time_key t : no_key (lit "time = " ++ t) /\ unspaced (lit "time = " ++ t).
Proof. split; [repeat split; reflexivity|apply unspaced_lit; reflexivity]. Qed.
Lemma read_header comments x time : counts_ok x -> Forall admissible comments ->
  read_lines T parse (rinit T) (map (fun c => lit "# " ++ c) (header T comments x time)) =
  Ok (mkR (fknown x) (fnonzero x) 0 (header T comments x time) (mkF (repeat None (Z.to_nat (fnonzero x))) (fknown x) (fnonzero x))).
Proof.
  intros C A. unfold header. rewrite map_app, read_lines_app, read_plains by (exact A || reflexivity). cbn [bind map read_lines rinit r_known r_nonzero r_terms r_comments r_x].
  fold (known_c x). rewrite read_known by (assumption || reflexivity). cbn [bind].
  fold (nonzero_c x). rewrite read_nonzero by (assumption || reflexivity). cbn [bind].
  destruct (time_key time) as [K U]. destruct C as [C1 C2]. rewrite read_time by (assumption || exact C1). cbn [bind r_known r_nonzero r_comments].
  rewrite <- !app_assoc. reflexivity.
Qed.

(** A number line: first character neither blank nor '#'. *)
Definition numberish (s : str) : Prop := no_nl s /\ exists c r, s = c :: r /\ isspace c = false /\ c <> "#"%char.
(** State in the middle of reading numbers. *)
Definition partial_x (kn nz : Z) (got : list T) : fser :=
  mkF (map Some got ++ repeat None (Z.to_nat nz - List.length got)) kn nz.
Definition mid (kn nz : Z) (cs : list str) (got : list T) : rstate T := mkR kn nz (Z.of_nat (List.length got)) cs (partial_x kn nz got).
Lemma set_nth_app {A} (l : list A) m a b : set_nth (l ++ a :: m) (List.length l) b = l ++ b :: m.
Proof. induction l as [|c l IH]; [reflexivity|]. cbn. f_equal. exact IH. Qed.
Lemma read_number kn nz cs got s : numberish s -> Z.of_nat (List.length got) < nz ->
  read_line T parse (mid kn nz cs got) s = (a <- parse s ;; Ok (mid kn nz cs (got ++ [a]))).
Proof.
  intros (_ & c & r & -> & Sp & Sh) H. unfold read_line. rewrite trim_nonspace by exact Sp.
  destruct (Ascii.eqb_spec c "#") as [|_]; [contradiction|]. cbn [mid r_terms r_nonzero r_known r_x r_comments].
  replace (0 <=? Z.of_nat (List.length got)) with true by (symmetry; apply Z.leb_le; lia).
  replace (Z.of_nat (List.length got) <? nz) with true by (symmetry; apply Z.ltb_lt; lia). cbn [andb slow_assert bind].
  destruct (parse (c :: r)) as [a| |]; cbn [bind]; try reflexivity. unfold fput, partial_x. cbn [fnonzero fcells fknown].
  rewrite app_length, map_length, repeat_length.
  replace (0 <=? Z.of_nat (List.length got)) with true by (symmetry; apply Z.leb_le; lia).
  replace (Z.of_nat (List.length got) <? _) with true by (symmetry; apply Z.ltb_lt; lia). cbn [andb bind]. rewrite Nat2Z.id.
  f_equal. unfold mid, partial_x. rewrite app_length. cbn [List.length]. f_equal; [lia|].
  f_equal. destruct (Z.to_nat nz - List.length got)%nat as [|m] eqn:M; [lia|]. cbn [repeat].
  rewrite <- (map_length Some got) at 1. rewrite set_nth_app, map_app, <- app_assoc. cbn [map app]. do 3 f_equal. lia.
Qed.
Lemma read_surplus kn nz cs got s : numberish s -> nz <= Z.of_nat (List.length got) -> read_line T parse (mid kn nz cs got) s = Throw.
Proof.
  intros (_ & c & r & -> & Sp & Sh) H. unfold read_line. rewrite trim_nonspace by exact Sp.
  destruct (Ascii.eqb_spec c "#") as [|_]; [contradiction|]. cbn [mid r_terms r_nonzero r_known r_x r_comments].
  replace (Z.of_nat (List.length got) <? nz) with false by (symmetry; apply Z.ltb_ge; lia). rewrite andb_false_r. reflexivity.
Qed.
Lemma read_numbers kn nz cs texts vals got : Forall numberish texts -> Forall2 (fun s a => parse s = Ok a) texts vals ->
  Z.of_nat (List.length got + List.length texts) <= nz -> read_lines T parse (mid kn nz cs got) texts = Ok (mid kn nz cs (got ++ vals)).
Proof.
  intros N P. revert got. induction P as [|s a texts vals Hp P IH]; intros got L; [rewrite app_nil_r; reflexivity|].
  inversion N; subst. cbn [List.length] in L. cbn [read_lines]. rewrite read_number by (assumption || lia). rewrite Hp. cbn [bind].
  rewrite IH; [rewrite <- app_assoc; reflexivity|assumption|]. rewrite app_length. cbn [List.length]. lia.
Qed.
Lemma mid_start kn nz cs : mid kn nz cs [] = mkR kn nz 0 cs (mkF (repeat None (Z.to_nat nz)) kn nz).
Proof. unfold mid, partial_x. cbn [map app List.length]. rewrite Nat.sub_0_r. reflexivity. Qed.

(** The lines of the header and of a body. *)
Definition hlines (comments : list str) (x : fser) (time : str) : list str := map (fun c => lit "# " ++ c) (header T comments x time).
Lemma no_nl_app a b : no_nl a -> no_nl b -> no_nl (a ++ b).
Proof. intros A B I. apply in_app_or in I. destruct I as [I|I]; [exact (A I)|exact (B I)]. Qed.
Lemma no_nl_lit s : forallb (fun c => negb (Ascii.eqb c nl)) (lit s) = true -> no_nl (lit s).
Proof. intros H I. rewrite forallb_forall in H. specialize (H nl I). rewrite Ascii.eqb_refl in H. discriminate. Qed.
Lemma header_no_nl comments x time : Forall admissible comments -> no_nl time -> Forall no_nl (hlines comments x time).
Proof.
  intros A Ht. unfold hlines. apply Forall_map. unfold header. apply Forall_app. split.
  - eapply Forall_impl; [|exact A]. intros c (N & _). apply no_nl_app; [apply no_nl_lit; reflexivity|exact N].
  - repeat constructor; repeat apply no_nl_app; try (apply no_nl_lit; reflexivity); try apply print_int_no_nl; exact Ht.
Qed.
Lemma read_body comments x time body r : counts_ok x -> Forall admissible comments -> no_nl time -> Forall no_nl body ->
  read_series T parse (unlines (hlines comments x time) ++ unlines body ++ r) =
  (st <- read_lines T parse (mid (fknown x) (fnonzero x) (header T comments x time) []) (body ++ getlines r) ;;
   _ <- slow_assert (r_terms st =? r_nonzero st) ;; Ok (r_comments st, r_x st)).
Proof.
  intros C A Ht Hb. unfold read_series. rewrite getlines_unlines by (apply header_no_nl; assumption). rewrite getlines_unlines by exact Hb.
  rewrite read_lines_app. unfold hlines. rewrite read_header by assumption. cbn [bind]. rewrite mid_start. reflexivity.
Qed.
Lemma read_ok comments x time texts vals : counts_ok x -> Forall admissible comments -> no_nl time ->
  Forall numberish texts -> Forall2 (fun s a => parse s = Ok a) texts vals -> List.length texts = Z.to_nat (fnonzero x) ->
  read_series T parse (unlines (hlines comments x time) ++ unlines texts) = Ok (header T comments x time, mkF (map Some vals) (fknown x) (fnonzero x)).
Proof.
  intros C A Ht N P L. rewrite <- (app_nil_r (unlines texts)). rewrite read_body; try assumption; [|eapply Forall_impl; [|exact N]; intros s (H & _); exact H].
  cbn [getlines]. rewrite app_nil_r. destruct C as [C1 C2]. rewrite (read_numbers _ _ _ texts vals []) by (assumption || (cbn [List.length]; lia)). cbn [app bind].
  pose proof (F2_length _ _ _ P) as LP. cbn [mid r_terms r_nonzero r_comments r_x].
  replace (Z.of_nat (List.length vals) =? fnonzero x) with true by (symmetry; apply Z.eqb_eq; lia). cbn [slow_assert bind].
  unfold partial_x. replace (Z.to_nat (fnonzero x) - List.length vals)%nat with 0%nat by lia. cbn [repeat]. rewrite app_nil_r. reflexivity.
Qed.
(** Fewer number lines than promised: an exception (or whatever parsing raised). *)
Lemma short_throws kn nz cs texts got : Forall numberish texts -> (forall s, In s texts -> parse s <> UB) ->
  Z.of_nat (List.length got + List.length texts) < nz ->
  (st <- read_lines T parse (mid kn nz cs got) texts ;; _ <- slow_assert (r_terms st =? r_nonzero st) ;; Ok (r_comments st, r_x st)) = Throw.
Proof.
  intros N P. revert got. induction N as [|s texts Hs N IH]; intros got L.
  - cbn [read_lines bind mid r_terms r_nonzero]. cbn [List.length] in L. replace (Z.of_nat (List.length got) =? nz) with false by (symmetry; apply Z.eqb_neq; lia). reflexivity.
  - cbn [List.length] in L. cbn [read_lines]. rewrite read_number by (assumption || lia). pose proof (P s (or_introl eq_refl)) as U.
    destruct (parse s) as [a| |]; cbn [bind]; [|reflexivity|contradiction]. apply IH; [intros t I; apply P; right; exact I|]. rewrite app_length. cbn [List.length]. lia.
Qed.
End Files.
