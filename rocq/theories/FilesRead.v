(** Reading arbitrary files, and files cut at any character. *)
From Coq Require Import ZArith List Bool Ascii String Lia Arith.
From Verif Require Import Base LoopsModel AreaModel FilesModel FilesProofs.
Import ListNotations.
Open Scope Z_scope.

(** * What the lines of a file say *)
Inductive kind := Blank | Comment (v : str) | Number (v : str).
Definition kind_of (line : str) : kind :=
  match trim line with
  | [] => Blank
  | c :: r => if Ascii.eqb c "#" then Comment (trim r) else Number (c :: r)
  end.
Definition kinds (s : str) : list kind := map kind_of (getlines s).
(** All comments; all numbers; the numbers after the last comment. *)
Definition comments_of (ks : list kind) : list str := flat_map (fun k => match k with Comment v => [v] | _ => [] end) ks.
Definition numbers_of (ks : list kind) : list str := flat_map (fun k => match k with Number v => [v] | _ => [] end) ks.
Definition last_numbers (ks : list kind) : list str :=
  fold_left (fun acc k => match k with Comment _ => [] | Number v => acc ++ [v] | Blank => acc end) ks [].
(** The texts given for known and for nonzero. *)
Definition sets (key : string) (c : str) : list str :=
  match strip (lit key) c with Some n => [n] | None => match strip (lit "terms =") c with Some n => [n] | None => [] end end.
Definition known_texts (cs : list str) : list str := flat_map (sets "known =") cs.
Definition nonzero_texts (cs : list str) : list str := flat_map (sets "nonzero =") cs.

Lemma comments_snoc ks k : comments_of (ks ++ [k]) = comments_of ks ++ match k with Comment v => [v] | _ => [] end.
Proof. unfold comments_of. rewrite flat_map_app. cbn [flat_map]. rewrite app_nil_r. reflexivity. Qed.
Lemma numbers_snoc ks k : numbers_of (ks ++ [k]) = numbers_of ks ++ match k with Number v => [v] | _ => [] end.
Proof. unfold numbers_of. rewrite flat_map_app. cbn [flat_map]. rewrite app_nil_r. reflexivity. Qed.
Lemma last_snoc ks k : last_numbers (ks ++ [k]) = match k with Comment _ => [] | Number v => last_numbers ks ++ [v] | Blank => last_numbers ks end.
Proof. unfold last_numbers. rewrite fold_left_app. reflexivity. Qed.
Lemma texts_snoc key cs c : flat_map (sets key) (cs ++ [c]) = flat_map (sets key) cs ++ sets key c.
Proof. rewrite flat_map_app. cbn [flat_map]. rewrite app_nil_r. reflexivity. Qed.

(** A count: not given, or given exactly once. *)
Definition count_is (v : Z) (ts : list str) : Prop := (v = -1 /\ ts = []) \/ exists n, ts = [n] /\ number n = Ok v.
Lemma count_range v ts : count_is v ts -> v < 2 ^ 63 /\ -1 <= v.
Proof. intros [(-> & _)|(n & _ & N)]; [split; reflexivity || lia|]. apply number_range in N. lia. Qed.
Lemma count_neg v ts : count_is v ts -> v < 0 -> v = -1 /\ ts = [].
Proof. intros [H|(n & _ & N)] L; [exact H|]. apply number_range in N. lia. Qed.

(** The three keys start with different letters. *)
Lemma key_known c n : strip (lit "known =") c = Some n -> strip (lit "nonzero =") c = None /\ strip (lit "terms =") c = None.
Proof. intro E. rewrite (strip_some _ _ _ E). split; reflexivity. Qed.
Lemma key_nonzero c n : strip (lit "nonzero =") c = Some n -> strip (lit "known =") c = None /\ strip (lit "terms =") c = None.
Proof. intro E. rewrite (strip_some _ _ _ E). split; reflexivity. Qed.
Lemma read_counts_spec kn nz c kn' nz' cs : count_is kn (known_texts cs) -> count_is nz (nonzero_texts cs) ->
  read_counts kn nz c = Ok (kn', nz') -> count_is kn' (known_texts (cs ++ [c])) /\ count_is nz' (nonzero_texts (cs ++ [c])).
Proof.
  intros K N. unfold read_counts, known_texts, nonzero_texts. rewrite !texts_snoc. unfold sets.
  destruct (strip (lit "known =") c) as [n|] eqn:E1.
  - destruct (key_known c n E1) as [-> ->]. destruct (Z.ltb_spec kn 0) as [L|L]; cbn [slow_assert bind]; [|discriminate].
    destruct (number n) as [m| |] eqn:En; cbn [bind]; try discriminate. intro E. injection E as <- <-.
    destruct (count_neg _ _ K L) as [_ Kt]. unfold known_texts, sets in Kt. rewrite Kt. split; [right; exists n; split; [reflexivity|exact En]|].
    rewrite app_nil_r. exact N.
  - destruct (strip (lit "nonzero =") c) as [n|] eqn:E2.
    + destruct (key_nonzero c n E2) as [_ ->]. destruct (Z.ltb_spec nz 0) as [L|L]; cbn [slow_assert bind]; [|discriminate].
      destruct (number n) as [m| |] eqn:En; cbn [bind]; try discriminate. intro E. injection E as <- <-.
      destruct (count_neg _ _ N L) as [_ Nt]. unfold nonzero_texts, sets in Nt. rewrite Nt. split; [rewrite app_nil_r; exact K|].
      right. exists n. split; [reflexivity|exact En].
    + destruct (strip (lit "terms =") c) as [n|] eqn:E3.
      * destruct (Z.ltb_spec kn 0) as [L|L]; cbn [andb slow_assert bind]; [|discriminate].
        destruct (Z.ltb_spec nz 0) as [L2|L2]; cbn [andb slow_assert bind]; [|discriminate].
        destruct (number n) as [m| |] eqn:En; cbn [bind]; try discriminate. intro E. injection E as <- <-.
        destruct (count_neg _ _ K L) as [_ Kt]. destruct (count_neg _ _ N L2) as [_ Nt]. unfold known_texts, sets in Kt. unfold nonzero_texts, sets in Nt.
        rewrite Kt, Nt. split; right; exists n; split; (reflexivity || exact En).
      * intro E. injection E as <- <-. rewrite !app_nil_r. split; assumption.
Qed.
Lemma bind_no_ub {A B} (m : res A) (k : A -> res B) : m <> UB -> (forall a, m = Ok a -> k a <> UB) -> bind m k <> UB.
Proof. destruct m; cbn [bind]; auto. discriminate. Qed.
Lemma assert_no_ub b : slow_assert b <> UB.
Proof. destruct b; discriminate. Qed.
Lemma read_counts_no_ub kn nz c : read_counts kn nz c <> UB.
Proof.
  unfold read_counts. destruct (strip (lit "known =") c) as [n|]; [|destruct (strip (lit "nonzero =") c) as [n|]; [|destruct (strip (lit "terms =") c) as [n|]; [|discriminate]]];
    (apply bind_no_ub; [apply assert_no_ub|intros _ _; apply bind_no_ub; [apply number_no_ub|discriminate]]).
Qed.

Section Read.
Variable T : Type.
Variable parse : str -> res T.
Notation fser := (fseries T).

(** What the loop variables are after the lines [ks]. *)
Definition inv (ks : list kind) (st : rstate T) : Prop :=
  r_comments st = comments_of ks /\
  count_is (r_known st) (known_texts (comments_of ks)) /\ count_is (r_nonzero st) (nonzero_texts (comments_of ks)) /\
  ((r_known st < 0 \/ r_nonzero st < 0) /\ r_terms st = -1 /\ r_x st = mkF [] 0 0 /\ numbers_of ks = [] \/
   0 <= r_nonzero st <= r_known st /\ exists got, st = mid T (r_known st) (r_nonzero st) (comments_of ks) got /\
     Z.of_nat (List.length got) <= r_nonzero st /\ Forall2 (fun s a => parse s = Ok a) (last_numbers ks) got).
Lemma inv_init : inv [] (rinit T).
Proof.
  split; [reflexivity|]. split; [left; split; reflexivity|]. split; [left; split; reflexivity|].
  left. split; [left; reflexivity|]. repeat split; reflexivity.
Qed.
Lemma fnew_counts kn nz : 0 <= nz <= kn -> kn < 2 ^ 63 -> fset_counts T (fnew T nz) kn nz = Ok (mkF (repeat None (Z.to_nat nz)) kn nz).
Proof. apply new_counts. Qed.
Lemma read_kind st line : read_line T parse st line =
  match kind_of line with
  | Blank => Ok st
  | Comment v =>
      ' (kn, nz) <- read_counts (r_known st) (r_nonzero st) v ;;
      if (0 <=? kn) && (0 <=? nz) then
        _ <- slow_assert (nz <=? kn) ;;
        x <- fset_counts T (fnew T nz) kn nz ;;
        Ok (mkR kn nz 0 (r_comments st ++ [v]) x)
      else Ok (mkR kn nz (r_terms st) (r_comments st ++ [v]) (r_x st))
  | Number v =>
      _ <- slow_assert ((0 <=? r_terms st) && (r_terms st <? r_nonzero st)) ;;
      a <- parse v ;;
      x <- fput T (r_x st) (r_terms st) a ;;
      Ok (mkR (r_known st) (r_nonzero st) (r_terms st + 1) (r_comments st) x)
  end.
Proof. unfold read_line, kind_of. destruct (trim line) as [|c r]; [reflexivity|]. destruct (Ascii.eqb c "#"); reflexivity. Qed.
Lemma kind_number line v : kind_of line = Number v -> exists c r, v = c :: r /\ isspace c = false /\ c <> "#"%char.
Proof.
  unfold kind_of. destruct (trim line) as [|c r] eqn:E; [discriminate|]. destruct (Ascii.eqb_spec c "#") as [|N]; [discriminate|].
  intro H. injection H as <-. exists c, r. split; [reflexivity|]. split; [|exact N].
  clear N. revert E. induction line as [|d line IH]; [discriminate|]. cbn [trim]. destruct (isspace d) eqn:D; [exact IH|]. intro H. injection H as -> ->. exact D.
Qed.
Lemma read_number_v kn nz cs got v c r : v = c :: r -> isspace c = false -> c <> "#"%char -> Z.of_nat (List.length got) < nz ->
  (_ <- slow_assert ((0 <=? r_terms (mid T kn nz cs got)) && (r_terms (mid T kn nz cs got) <? nz)) ;;
   a <- parse v ;; x <- fput T (r_x (mid T kn nz cs got)) (r_terms (mid T kn nz cs got)) a ;;
   Ok (mkR kn nz (r_terms (mid T kn nz cs got) + 1) cs x)) = (a <- parse v ;; Ok (mid T kn nz cs (got ++ [a]))).
Proof.
  intros E S1 S2 L. subst v. cbn [mid r_terms r_x].
  replace (0 <=? Z.of_nat (List.length got)) with true by (symmetry; apply Z.leb_le; lia).
  replace (Z.of_nat (List.length got) <? nz) with true by (symmetry; apply Z.ltb_lt; lia). cbn [andb slow_assert bind].
  destruct (parse (c :: r)) as [a| |]; cbn [bind]; try reflexivity. unfold fput, partial_x. cbn [fnonzero fcells fknown].
  rewrite app_length, map_length, repeat_length.
  replace (0 <=? Z.of_nat (List.length got)) with true by (symmetry; apply Z.leb_le; lia).
  replace (Z.of_nat (List.length got) <? _) with true by (symmetry; apply Z.ltb_lt; lia). cbn [andb bind]. rewrite Nat2Z.id.
  f_equal. unfold mid, partial_x. rewrite app_length. cbn [List.length]. f_equal; [lia|].
  f_equal. destruct (Z.to_nat nz - List.length got)%nat as [|m] eqn:M; [lia|]. cbn [repeat].
  rewrite <- (map_length Some got) at 1. rewrite set_nth_app, map_app, <- app_assoc. cbn [map app]. do 3 f_equal. lia.
Qed.
Lemma F2_snoc {A B} (R : A -> B -> Prop) l m a b : Forall2 R l m -> R a b -> Forall2 R (l ++ [a]) (m ++ [b]).
Proof. intros H1 H2. apply Forall2_app; [exact H1|]. constructor; [exact H2|constructor]. Qed.
Lemma inv_step ks st line st' : inv ks st -> read_line T parse st line = Ok st' -> inv (ks ++ [kind_of line]) st'.
Proof.
  intros (C & K & N & D). rewrite read_kind. destruct (kind_of line) as [|v|v] eqn:EK.
  - intro E. injection E as <-. unfold inv. rewrite comments_snoc, numbers_snoc, last_snoc, !app_nil_r. split; [exact C|]. split; [exact K|]. split; [exact N|exact D].
  - destruct (read_counts (r_known st) (r_nonzero st) v) as [[kn nz]| |] eqn:RC; cbn [bind]; try discriminate.
    destruct (read_counts_spec _ _ _ _ _ _ K N RC) as [K' N']. destruct (count_range _ _ K') as [Kr Kl]. destruct (count_range _ _ N') as [Nr Nl].
    destruct (Z.leb_spec 0 kn) as [Lk|Lk]; cbn [andb]; [destruct (Z.leb_spec 0 nz) as [Ln|Ln]|].
    + destruct (Z.leb_spec nz kn) as [Le|Le]; cbn [slow_assert bind]; [|discriminate]. rewrite fnew_counts by lia. cbn [bind]. intro E. injection E as <-.
      unfold inv. rewrite comments_snoc, last_snoc. cbn [r_comments r_known r_nonzero]. split; [rewrite C; reflexivity|]. split; [exact K'|]. split; [exact N'|].
      right. split; [lia|]. exists []. split; [rewrite C; symmetry; apply mid_start|]. split; [cbn; lia|constructor].
    + intro E. injection E as <-. unfold inv. rewrite comments_snoc, numbers_snoc, app_nil_r. cbn [r_comments r_known r_nonzero r_terms r_x].
      split; [rewrite C; reflexivity|]. split; [exact K'|]. split; [exact N'|]. left. split; [right; lia|].
      destruct D as [(_ & D)|(D1 & _)]; [exact D|]. exfalso.
      (* a complete pair of counts cannot become incomplete *)
      revert RC. unfold read_counts. destruct (strip (lit "known =") v) as [n|];
        [destruct (Z.ltb_spec (r_known st) 0); cbn [slow_assert bind]; [lia|discriminate]|].
      destruct (strip (lit "nonzero =") v) as [n|]; [destruct (Z.ltb_spec (r_nonzero st) 0); cbn [slow_assert bind]; [lia|discriminate]|].
      destruct (strip (lit "terms =") v) as [n|]; [destruct (Z.ltb_spec (r_known st) 0); cbn [andb slow_assert bind]; [lia|discriminate]|].
      intro E. injection E as E1 E2. lia.
    + intro E. injection E as <-. unfold inv. rewrite comments_snoc, numbers_snoc, app_nil_r. cbn [r_comments r_known r_nonzero r_terms r_x].
      split; [rewrite C; reflexivity|]. split; [exact K'|]. split; [exact N'|]. left. split; [left; lia|].
      destruct D as [(_ & D)|(D1 & _)]; [exact D|]. exfalso.
      revert RC. unfold read_counts. destruct (strip (lit "known =") v) as [n|];
        [destruct (Z.ltb_spec (r_known st) 0); cbn [slow_assert bind]; [lia|discriminate]|].
      destruct (strip (lit "nonzero =") v) as [n|]; [destruct (Z.ltb_spec (r_nonzero st) 0); cbn [slow_assert bind]; [lia|discriminate]|].
      destruct (strip (lit "terms =") v) as [n|]; [destruct (Z.ltb_spec (r_known st) 0); cbn [andb slow_assert bind]; [lia|discriminate]|].
      intro E. injection E as E1 E2. lia.
  - destruct D as [(_ & D1 & _)|(D1 & got & D2 & D3 & D4)].
    + rewrite D1. cbn [Z.leb andb slow_assert bind Z.compare]. discriminate.
    + destruct (kind_number _ _ EK) as (c & r & Ev & S1 & S2). rewrite D2. cbn [mid r_known r_nonzero r_comments].
      destruct (Z.ltb_spec (Z.of_nat (List.length got)) (r_nonzero st)) as [L|L].
      * fold (mid T (r_known st) (r_nonzero st) (comments_of ks) got). change (r_terms ?x) with (r_terms x).
        pose proof (read_number_v (r_known st) (r_nonzero st) (comments_of ks) got v c r Ev S1 S2 L) as Q. cbn [mid r_terms r_x] in Q.
        cbn [mid r_terms r_x]. rewrite Q. destruct (parse v) as [a| |] eqn:P; cbn [bind]; try discriminate. intro E. injection E as <-.
        unfold inv. rewrite comments_snoc, last_snoc, app_nil_r. cbn [mid r_comments r_known r_nonzero]. split; [reflexivity|]. split; [exact K|]. split; [exact N|].
        right. split; [exact D1|]. exists (got ++ [a]). split; [reflexivity|]. split; [rewrite app_length; cbn [List.length]; lia|]. apply F2_snoc; assumption.
      * cbn [r_terms mid]. replace (Z.of_nat (List.length got) <? r_nonzero st) with false by (symmetry; apply Z.ltb_ge; lia).
        rewrite andb_false_r. discriminate.
Qed.
Lemma inv_lines ks st ls st' : inv ks st -> read_lines T parse st ls = Ok st' -> inv (ks ++ map kind_of ls) st'.
Proof.
  revert ks st. induction ls as [|l ls IH]; intros ks st I E.
  - injection E as <-. rewrite app_nil_r. exact I.
  - cbn [read_lines] in E. destruct (read_line T parse st l) as [st1| |] eqn:E1; cbn [bind] in E; try discriminate.
    cbn [map]. replace (ks ++ kind_of l :: map kind_of ls) with ((ks ++ [kind_of l]) ++ map kind_of ls) by (rewrite <- app_assoc; reflexivity).
    eapply IH; [|exact E]. eapply inv_step; eassumption.
Qed.

Lemma read_returns s cs x : read_series T parse s = Ok (cs, x) ->
  cs = comments_of (kinds s) /\
  (x = mkF [] 0 0 /\ numbers_of (kinds s) = [] /\ nonzero_texts cs = [] \/
   exists n m kn nz vals, known_texts cs = [n] /\ nonzero_texts cs = [m] /\ number n = Ok kn /\ number m = Ok nz /\ 0 <= nz <= kn /\
     x = mkF (map Some vals) kn nz /\ Z.of_nat (List.length vals) = nz /\ Forall2 (fun s a => parse s = Ok a) (last_numbers (kinds s)) vals).
Proof.
  unfold read_series. destruct (read_lines T parse (rinit T) (getlines s)) as [st| |] eqn:E; cbn [bind]; try discriminate.
  apply (inv_lines [] _ _ _ inv_init) in E. cbn [app] in E. fold (kinds s) in E. destruct E as (C & K & N & D).
  destruct (Z.eqb_spec (r_terms st) (r_nonzero st)) as [Q|]; cbn [slow_assert bind]; [|discriminate]. intro H. injection H as <- <-. rewrite C. split; [reflexivity|].
  destruct D as [(D0 & D1 & D2 & D3)|(D1 & got & D2 & D3 & D4)].
  - left. split; [exact D2|]. split; [exact D3|]. destruct (count_neg _ _ N ltac:(lia)). assumption.
  - right. destruct K as [(K & _)|(n & Kt & Kn)]; [lia|]. destruct N as [(N & _)|(m & Nt & Nn)]; [lia|].
    exists n, m, (r_known st), (r_nonzero st), got. rewrite D2 in Q. cbn [mid r_terms r_nonzero] in Q.
    repeat (split; [assumption|]). split; [|split; [exact Q|exact D4]]. rewrite D2. cbn [mid r_x r_known r_nonzero]. unfold partial_x.
    replace (Z.to_nat (r_nonzero st) - List.length got)%nat with 0%nat by lia. cbn [repeat]. rewrite app_nil_r. reflexivity.
Qed.

(** At most one known. *)
Lemma known_once s cs x : read_series T parse s = Ok (cs, x) ->
  known_texts (comments_of (kinds s)) = [] \/ exists n, known_texts (comments_of (kinds s)) = [n] /\ exists v, number n = Ok v.
Proof.
  unfold read_series. destruct (read_lines T parse (rinit T) (getlines s)) as [st| |] eqn:E; cbn [bind]; try discriminate.
  apply (inv_lines [] _ _ _ inv_init) in E. cbn [app] in E. fold (kinds s) in E. destruct E as (_ & [(_ & K)|(n & K & N)] & _); intros _; [left; exact K|].
  right. exists n. split; [exact K|]. eauto.
Qed.

(** No file leads to undefined behaviour. *)
Lemma read_no_ub s : (forall v, parse v <> UB) -> read_series T parse s <> UB.
Proof.
  intro P. unfold read_series. apply bind_no_ub; [|intros st _; apply bind_no_ub; [apply assert_no_ub|discriminate]].
  assert (G : forall ls ks st, inv ks st -> read_lines T parse st ls <> UB).
  { induction ls as [|l ls IH]; intros ks st I; [discriminate|]. cbn [read_lines]. apply bind_no_ub.
    - destruct I as (C & K & N & D). rewrite read_kind. destruct (kind_of l) as [|v|v] eqn:EK; [discriminate| |].
      + apply bind_no_ub; [apply read_counts_no_ub|]. intros [kn nz] RC. destruct (read_counts_spec _ _ _ _ _ _ K N RC) as [K' N'].
        destruct (Z.leb_spec 0 kn) as [Lk|Lk]; cbn [andb]; [|discriminate]. destruct (Z.leb_spec 0 nz) as [Ln|Ln]; [|discriminate].
        destruct (Z.leb_spec nz kn); cbn [slow_assert bind]; [|discriminate]. rewrite fnew_counts by (try lia; apply (count_range _ _ K')). discriminate.
      + destruct D as [(_ & D1 & _)|(D1 & got & D2 & D3 & D4)].
        * rewrite D1. cbn. discriminate.
        * destruct (kind_number _ _ EK) as (c & r & Ev & S1 & S2). rewrite D2. cbn [mid r_known r_nonzero r_comments].
          destruct (Z.ltb_spec (Z.of_nat (List.length got)) (r_nonzero st)) as [L|L].
          -- pose proof (read_number_v (r_known st) (r_nonzero st) (comments_of ks) got v c r Ev S1 S2 L) as Q. cbn [mid r_terms r_x] in Q.
             cbn [mid r_terms r_x]. rewrite Q. apply bind_no_ub; [apply P|discriminate].
          -- cbn [r_terms mid]. replace (Z.of_nat (List.length got) <? r_nonzero st) with false by (symmetry; apply Z.ltb_ge; lia). rewrite andb_false_r. discriminate.
    - intros st1 E. eapply IH. eapply inv_step; eassumption. }
  exact (G _ _ _ inv_init).
Qed.

(** A number before both counts are known throws. *)
Lemma early_number s pre v post : (forall v, parse v <> UB) -> kinds s = pre ++ Number v :: post ->
  (known_texts (comments_of pre) = [] \/ nonzero_texts (comments_of pre) = []) -> read_series T parse s = Throw.
Proof.
  intros P E H. pose proof (read_no_ub s P) as U. destruct (read_series T parse s) as [[cs x]| |] eqn:R; [|reflexivity|contradiction]. exfalso.
  unfold read_series in R. unfold kinds in E. apply map_eq_app in E. destruct E as (l1 & l2 & El & E1 & E2).
  destruct l2 as [|l l2]; [discriminate|]. cbn [map] in E2. injection E2 as EK E2. rewrite El, read_lines_app in R.
  destruct (read_lines T parse (rinit T) l1) as [st| |] eqn:S1; cbn [bind] in R; try discriminate. apply (inv_lines [] _ _ _ inv_init) in S1. cbn [app] in S1. rewrite E1 in S1.
  cbn [read_lines] in R. rewrite read_kind, EK in R. destruct S1 as (_ & K & N & [(_ & D1 & _)|(D1 & _)]).
  - rewrite D1 in R. cbn in R. discriminate.
  - destruct H as [H|H].
    + destruct K as [(K & _)|(n & Kt & _)]; [lia|congruence].
    + destruct N as [(N & _)|(n & Nt & _)]; [lia|congruence].
Qed.

(** * Cut files *)
Lemma unlines_cons a l : unlines (a :: l) = a ++ nl :: unlines l.
Proof. unfold unlines. cbn [map List.concat]. rewrite <- app_assoc. reflexivity. Qed.
Lemma app_cut {A} (a b p q : list A) : a ++ b = p ++ q -> (exists d, p = a ++ d /\ b = d ++ q) \/ (exists d, a = p ++ d /\ d <> [] /\ q = d ++ b).
Proof.
  revert p. induction a as [|x a IH]; intros p E.
  - left. exists p. split; [reflexivity|exact E].
  - destruct p as [|y p].
    + right. exists (x :: a). split; [reflexivity|]. split; [discriminate|symmetry; exact E].
    + cbn [app] in E. injection E as <- E. destruct (IH p E) as [(d & -> & H)|(d & -> & H1 & H2)]; [left|right]; exists d; auto.
Qed.
(** Every proper prefix of a list of lines ends inside one of them or just before its newline. *)
Lemma cut_form ls p q : unlines ls = p ++ q -> q <> [] ->
  exists l1 s1 s2 l2, ls = l1 ++ (s1 ++ s2) :: l2 /\ p = unlines l1 ++ s1.
Proof.
  revert p. induction ls as [|l ls IH]; intros p E Q.
  - symmetry in E. apply app_eq_nil in E. destruct E. contradiction.
  - rewrite unlines_cons in E. destruct (app_cut _ _ _ _ E) as [(d & -> & E2)|(d & -> & _ & _)].
    + destruct d as [|c d].
      * exists [], l, [], ls. rewrite !app_nil_r. split; reflexivity.
      * cbn [app] in E2. injection E2 as <- E2. destruct (IH d E2 Q) as (l1 & s1 & s2 & l2 & -> & ->).
        exists (l :: l1), s1, s2, l2. split; [reflexivity|]. rewrite unlines_cons, <- app_assoc. reflexivity.
    + exists [], p, d, ls. split; reflexivity.
Qed.
Lemma numberish_prefix s1 s2 : numberish (s1 ++ s2) -> s1 <> [] -> numberish s1.
Proof.
  intros (N & c & r & E & H) Q. split; [intro I; apply N, in_or_app; left; exact I|]. destruct s1 as [|d s1]; [contradiction|].
  cbn [app] in E. injection E as -> _. exists c, s1. split; [reflexivity|exact H].
Qed.
Lemma cut_body comments x time texts vals p q : (forall v, parse v <> UB) -> counts_ok T x -> Forall admissible comments -> no_nl time ->
  Forall numberish texts -> Forall2 (fun s a => parse s = Ok a) texts vals -> List.length texts = Z.to_nat (fnonzero x) ->
  unlines texts = p ++ q -> q <> [] ->
  read_series T parse (unlines (hlines T comments x time) ++ p) = Throw \/
  exists t0 v0 s1 s2 a, texts = t0 ++ [s1 ++ s2] /\ p = unlines t0 ++ s1 /\ s1 <> [] /\ parse s1 = Ok a /\ Forall2 (fun s a => parse s = Ok a) t0 v0 /\
    read_series T parse (unlines (hlines T comments x time) ++ p) = Ok (header T comments x time, mkF (map Some (v0 ++ [a])) (fknown x) (fnonzero x)).
Proof.
  intros P C A Ht N F L E Q. destruct (cut_form _ _ _ E Q) as (l1 & s1 & s2 & l2 & -> & ->).
  apply Forall_app in N. destruct N as [N1 N2]. inversion N2 as [|? ? Ns N3]; subst.
  apply Forall2_app_inv_l in F. destruct F as (v1 & v2 & F1 & F2 & ->). rewrite app_length in L. cbn [List.length] in L. destruct C as [C1 C2].
  assert (NN : Forall no_nl l1) by (eapply Forall_impl; [|exact N1]; intros s (H & _); exact H).
  destruct s1 as [|c s1].
  - left. rewrite (read_body T parse comments x time l1 []) by (assumption || (split; assumption)). cbn [getlines]. rewrite app_nil_r.
    apply (short_throws T (fun _ => Throw) parse); [exact N1|intros; apply P|]. unfold str in *. cbn [List.length] in *. lia.
  - assert (Np : numberish (c :: s1)) by (eapply numberish_prefix; [exact Ns|discriminate]).
    rewrite (read_body T parse comments x time l1 (c :: s1)) by (assumption || (split; assumption)).
    rewrite getlines_last by (try discriminate; apply Np).
    destruct l2 as [|t l2].
    + rewrite read_lines_app. rewrite (read_numbers T (fun _ => Throw) parse _ _ _ l1 v1 []) by (assumption || (unfold str in *; cbn [List.length] in *; lia)). cbn [bind app read_lines].
      pose proof (F2_length _ _ _ F1) as LF. assert (Lv : Z.of_nat (List.length v1) < fnonzero x) by (unfold str in *; cbn [List.length] in *; lia).
      rewrite (read_number T (fun _ => Throw) parse _ _ _ v1 (c :: s1) Np Lv).
      destruct (parse (c :: s1)) as [a| |] eqn:Pa; cbn [bind]; [|left; reflexivity|exfalso; exact (P _ Pa)].
      right. exists l1, v1, (c :: s1), s2, a. split; [reflexivity|]. split; [reflexivity|]. split; [discriminate|]. split; [exact Pa|]. split; [exact F1|].
      cbn [mid r_terms r_nonzero r_comments r_x]. rewrite app_length. unfold str in *. cbn [List.length] in *.
      replace (Z.of_nat (List.length v1 + 1) =? fnonzero x) with true by (symmetry; apply Z.eqb_eq; lia). cbn [slow_assert bind].
      unfold partial_x. rewrite app_length. cbn [List.length]. replace (Z.to_nat (fnonzero x) - (List.length v1 + 1))%nat with 0%nat by lia. cbn [repeat]. rewrite app_nil_r. reflexivity.
    + left. apply (short_throws T (fun _ => Throw) parse); [apply Forall_app; split; [exact N1|constructor; [exact Np|constructor]]|intros; apply P|].
      rewrite app_length. unfold str in *. cbn [List.length] in *. lia.
Qed.

(** A cut in the header gives an exception or a series without coefficients. *)
Lemma last_numbers_none ks : numbers_of ks = [] -> last_numbers ks = [].
Proof.
  induction ks as [|k ks IH] using rev_ind; [reflexivity|]. rewrite numbers_snoc, last_snoc. intro E. apply app_eq_nil in E. destruct E as [E1 E2].
  destruct k; [apply IH, E1|reflexivity|discriminate].
Qed.
Lemma cut_header comments x time p q : (forall v, parse v <> UB) -> counts_ok T x -> Forall admissible comments -> no_nl time ->
  unlines (hlines T comments x time) = p ++ q ->
  read_series T parse p = Throw \/ exists cs kn, read_series T parse p = Ok (cs, mkF [] kn 0).
Proof.
  intros P C A Ht E. pose proof (read_no_ub p P) as U. destruct (read_series T parse p) as [[cs y]| |] eqn:R; [right|left; reflexivity|contradiction].
  assert (N : numbers_of (kinds p) = []).
  { clear R U. unfold kinds. pose proof (header_no_nl T comments x time A Ht) as H.
    assert (G : forall cs, Forall no_nl (map (fun c => lit "# " ++ c) cs) -> numbers_of (map kind_of (map (fun c => lit "# " ++ c) cs)) = []).
    { intros l _. induction l as [|c l IH]; [reflexivity|]. cbn [map numbers_of flat_map]. exact IH. }
    destruct q as [|c q].
    - rewrite app_nil_r in E. subst p. rewrite <- (app_nil_r (unlines _)). rewrite getlines_unlines by exact H. cbn [getlines]. rewrite app_nil_r. apply G, H.
    - destruct (cut_form _ _ _ E ltac:(discriminate)) as (l1 & s1 & s2 & l2 & El & ->). rewrite El in H. unfold hlines in El.
      symmetry in El. pose proof El as El'. symmetry in El'. apply map_eq_app in El'. destruct El' as (c1 & c2 & _ & M1 & M2).
      apply Forall_app in H. destruct H as [H1 H2]. inversion H2 as [|? ? H3 _]; subst. rewrite getlines_unlines by exact H1.
      rewrite map_app. unfold numbers_of. rewrite flat_map_app. fold (numbers_of (map kind_of (map (fun c => lit "# " ++ c) c1))). rewrite G by exact H1. cbn [app].
      destruct s1 as [|d s1]; [reflexivity|]. rewrite getlines_last by (try discriminate; intro I; apply H3, in_or_app; left; exact I).
      destruct c2 as [|c0 c2]; [discriminate|]. cbn [map] in M2. injection M2 as M2 _.
      cbn [map flat_map]. replace d with "#"%char by (unfold lit in M2; cbn in M2; congruence).
      unfold kind_of. rewrite trim_nonspace by reflexivity. rewrite Ascii.eqb_refl. reflexivity. }
  destruct (read_returns _ _ _ R) as (_ & [(-> & _)|(n & m & kn & nz & vals & _ & _ & _ & _ & _ & -> & Lv & F)]); [exists cs, 0; reflexivity|].
  rewrite (last_numbers_none _ N) in F. inversion F; subst. cbn. exists cs, kn. reflexivity.
Qed.
(** Cut before the line with nonzero: accepted, as a series without any term. *)
Lemma cut_early comments x time j : counts_ok T x -> Forall admissible comments -> no_nl time -> (j <= List.length comments + 1)%nat ->
  read_series T parse (unlines (firstn j (hlines T comments x time))) = Ok (firstn j (header T comments x time), mkF [] 0 0).
Proof.
  intros C A Ht Hj. pose proof (header_no_nl T comments x time A Ht) as H. unfold read_series.
  assert (Hf : Forall no_nl (firstn j (hlines T comments x time))).
  { apply Forall_forall. intros s I. rewrite Forall_forall in H. apply H. rewrite <- (firstn_skipn j). apply in_or_app. left. exact I. }
  rewrite <- (app_nil_r (unlines _)). rewrite getlines_unlines by exact Hf. cbn [getlines]. rewrite app_nil_r.
  unfold hlines. rewrite firstn_map. destruct (Nat.leb_spec j (List.length comments)) as [L|L].
  - assert (Eh : firstn j (header T comments x time) = firstn j comments).
    { unfold header. rewrite firstn_app. replace (j - List.length comments)%nat with 0%nat by lia. cbn [firstn]. apply app_nil_r. }
    change (@firstn (list ascii)) with (@firstn str). rewrite !Eh. rewrite read_plains; [|apply Forall_forall; intros s I; rewrite Forall_forall in A; apply A; rewrite <- (firstn_skipn j); apply in_or_app; left; exact I|reflexivity].
    reflexivity.
  - assert (Eh : firstn j (header T comments x time) = comments ++ [known_c T x]).
    { replace j with (List.length comments + 1)%nat by lia. unfold header. rewrite firstn_app_2. reflexivity. }
    change (@firstn (list ascii)) with (@firstn str). rewrite !Eh, map_app, read_lines_app, read_plains by (exact A || reflexivity).
    cbn [bind map read_lines rinit r_known r_nonzero r_terms r_comments r_x]. rewrite read_known by (assumption || reflexivity). reflexivity.
Qed.
End Read.
