(** C40-C44: text files, resuming, npy files.

    The scalar type and its printing and parsing are parameters; C41 and C40 say what is needed of
    them.  [content x vals]: the first [nonzero] cells of x hold vals.  [counts_ok x]:
    0 <= nonzero <= known < 2^63.  [admissible c]: c is one line, does not start with a space and
    does not start with "known =", "nonzero =" or "terms =".  [numberish s]: s is one nonempty line
    whose first character is neither a space nor '#'.  [unlines ls]: the lines ls, each followed by a
    newline.  [kinds s]: the lines of s as blank, comment or number. *)
From Coq Require Import ZArith QArith Qcanon List Bool Ascii String Lia Arith.
From Verif Require Import Base LoopsModel Field FieldInst SeriesModel SeriesSpec CodeletModel CodeletProofs SeriesExtra AlgoExtra SeriesExamples AreaModel
  FilesModel FilesProofs FilesRead FilesResume NpyProofs FilesBottcher.
Import ListNotations.
Open Scope Z_scope.

(** ** C41 *)
Theorem C41_round_trip : forall (T : Type) (safe : T -> res str) (parse : str -> res T) (agree : T -> T -> Prop)
  (comments : list str) (x : fseries T) (vals : list T) (time : str) (size : Z) (threads : Z -> nat) (sched : Z -> list nat),
  content T x vals -> counts_ok T x -> Forall admissible comments -> no_nl time -> 1 <= size ->
  (forall start, 1 <= Z.of_nat (threads start) < 2 ^ 31) ->
  (forall start, 0 <= start < fnonzero x ->
     mr_joined (res str) (mr_run (res str) cat (term T safe x start) (Z.min size (relu (fnonzero x - start))) (threads start) (sched start))) ->
  (forall a, In a vals -> exists s b, safe a = Ok s /\ numberish s /\ parse s = Ok b /\ agree a b) ->
  exists file vals', write_series T safe threads sched comments x time size = Ok file /\
    read_series T parse file =
      Ok (comments ++ [lit "known = " ++ print_int (fknown x); lit "nonzero = " ++ print_int (fnonzero x); lit "time = " ++ time],
          mkF (map Some vals') (fknown x) (fnonzero x)) /\
    Forall2 agree vals vals'.
Proof.
  intros T safe parse agree comments x vals time size threads sched HC HO HA HT Hs Hth Hj HG.
  assert (H : exists texts vals', Forall2 (fun a s => safe a = Ok s) vals texts /\ Forall numberish texts /\ Forall2 (fun s a => parse s = Ok a) texts vals' /\ Forall2 agree vals vals').
  { clear HC. induction vals as [|a l IH]; [exists [], []; repeat split; constructor|].
    destruct IH as (ts & vs & I1 & I2 & I3 & I4); [intros b Hb; apply HG; right; exact Hb|].
    destruct (HG a (or_introl eq_refl)) as (s & b & S1 & S2 & S3 & S4). exists (s :: ts), (b :: vs). repeat split; constructor; assumption. }
  destruct H as (texts & vals' & F1 & F2 & F3 & F4).
  exists (unlines (hlines T comments x time) ++ unlines texts), vals'. split; [exact (write_ok T safe parse x vals texts HC F1 threads sched size Hs Hth Hj comments time)|].
  split; [|exact F4]. apply (read_ok T safe parse); try assumption. destruct HC as (_ & L & _). rewrite <- L. symmetry. exact (F2_length _ _ _ F1).
Qed.
Print Assumptions C41_round_trip.

(** Integers printed by "%d" and read by stol; two threads, batches of two. *)
Definition z_safe (a : Z) : res str := if (- 2 ^ 63 <=? a) && (a <? 2 ^ 63) then Ok (print_int a) else Throw.
Lemma z_good a : - 2 ^ 63 <= a < 2 ^ 63 -> good Z z_safe stol a.
Proof.
  intro H. exists (print_int a). split; [|split].
  - unfold z_safe. replace (- 2 ^ 63 <=? a) with true by (symmetry; apply Z.leb_le; lia). replace (a <? 2 ^ 63) with true by (symmetry; apply Z.ltb_lt; lia). reflexivity.
  - split; [apply print_int_no_nl|]. unfold print_int. destruct (Z.ltb_spec a 0) as [L|L].
    + exists "-"%char. eexists. split; [reflexivity|]. split; [reflexivity|discriminate].
    + destruct (print_nat_shape a L) as (c & t & E & D & _). rewrite E. exists c, t. split; [reflexivity|]. split; [apply digit_not_space, D|]. intros ->. discriminate.
  - rewrite <- (app_nil_r (print_int a)). apply stol_print; [exact H|discriminate].
Qed.
Definition ex_x : fseries Z := mkF [Some 3; Some (-14); Some 159; None] 16 3.
Definition ex_vals : list Z := [3; -14; 159].
Definition ex_comments : list str := [lit "hello"; lit "n = 3"; []].
Definition two (_ : Z) : nat := 2.
Definition turns (_ : Z) : list nat := [1; 0; 0; 1; 0; 1; 0; 1; 0; 1]%nat.
Example C41_instance :
  content Z ex_x ex_vals /\ counts_ok Z ex_x /\ Forall admissible ex_comments /\ no_nl (lit "noon") /\
  (forall start, 0 <= start < 3 -> mr_joined (res str) (mr_run (res str) cat (term Z z_safe ex_x start) (Z.min 2 (relu (3 - start))) (two start) (turns start))) /\
  (forall a, In a ex_vals -> exists s b, z_safe a = Ok s /\ numberish s /\ stol s = Ok b /\ a = b) /\
  write_series Z z_safe two turns ex_comments ex_x (lit "noon") 2 =
    Ok (unlines (map lit ["# hello"; "# n = 3"; "# "; "# known = 16"; "# nonzero = 3"; "# time = noon"; "3"; "-14"; "159"]%string)).
Proof.
  split; [repeat split; cbn; lia|]. split; [repeat split; cbn; lia|].
  split; [repeat constructor; try (apply no_nl_lit; reflexivity); try (intros a r E; injection E as <- _; reflexivity); try discriminate; try (intros []); reflexivity|].
  split; [apply no_nl_lit; reflexivity|]. split.
  { intros start H. assert (C : start = 0 \/ start = 1 \/ start = 2) by lia. destruct C as [->|[->| ->]]; vm_compute; repeat constructor. }
  split; [|vm_compute; reflexivity].
  intros a Ha. assert (R : - 2 ^ 63 <= a < 2 ^ 63) by (destruct Ha as [<-|[<-|[<-|[]]]]; lia). destruct (z_good a R) as (s & S1 & S2 & S3). exists s, a. repeat split; try assumption; apply S2.
Qed.

(** A reserved key among the comments breaks it: the file is rejected, or read with other counts. *)
Theorem C41_reserved_refuted :
  (exists file, write_series Z z_safe two turns [lit "known = 5"] ex_x [] 2 = Ok file /\ read_series Z stol file = Throw) /\
  (exists file, write_series Z z_safe two turns [lit "two lines" ++ nl :: lit "7"] ex_x [] 2 = Ok file /\ read_series Z stol file = Throw).
Proof. split; eexists; (split; [vm_compute; reflexivity|vm_compute; reflexivity]). Qed.
Print Assumptions C41_reserved_refuted.

(** ** C42: every cut of a written file.  [h] is its header and [texts] are its numbers. *)
(** In the numbers: an exception, unless all numbers but the last are complete and the part of the last
    one that is left can be parsed; then that part is taken for the last coefficient. *)
Theorem C42_cut_numbers : forall (T : Type) (parse : str -> res T) comments (x : fseries T) time texts vals p q,
  (forall v, parse v <> UB) -> counts_ok T x -> Forall admissible comments -> no_nl time ->
  Forall numberish texts -> Forall2 (fun s a => parse s = Ok a) texts vals -> List.length texts = Z.to_nat (fnonzero x) ->
  unlines texts = p ++ q -> q <> [] ->
  read_series T parse (unlines (hlines T comments x time) ++ p) = Throw \/
  exists t0 v0 s1 s2 a, texts = t0 ++ [s1 ++ s2] /\ p = unlines t0 ++ s1 /\ s1 <> [] /\ parse s1 = Ok a /\ Forall2 (fun s a => parse s = Ok a) t0 v0 /\
    read_series T parse (unlines (hlines T comments x time) ++ p) = Ok (header T comments x time, mkF (map Some (v0 ++ [a])) (fknown x) (fnonzero x)).
Proof. exact cut_body. Qed.
Print Assumptions C42_cut_numbers.
(** At a line boundary: always an exception. *)
Theorem C42_cut_lines : forall (T : Type) (parse : str -> res T) comments (x : fseries T) time texts vals j,
  (forall v, parse v <> UB) -> counts_ok T x -> Forall admissible comments -> no_nl time ->
  Forall numberish texts -> Forall2 (fun s a => parse s = Ok a) texts vals -> List.length texts = Z.to_nat (fnonzero x) ->
  (j < List.length texts)%nat -> read_series T parse (unlines (hlines T comments x time) ++ unlines (firstn j texts)) = Throw.
Proof.
  intros T parse comments x time texts vals j P C A Ht N F L Hj.
  rewrite <- (app_nil_r (unlines (firstn j texts))). rewrite (read_body T parse comments x time (firstn j texts) []); try assumption.
  - cbn [getlines]. rewrite app_nil_r. apply (short_throws T (fun _ => Throw) parse).
    + apply Forall_forall. intros s I. rewrite Forall_forall in N. apply N. rewrite <- (firstn_skipn j). apply in_or_app. left. exact I.
    + intros; apply P.
    + cbn [List.length]. rewrite firstn_length. destruct C. unfold str in *. lia.
  - apply Forall_forall. intros s I. rewrite Forall_forall in N. apply N. rewrite <- (firstn_skipn j). apply in_or_app. left. exact I.
Qed.
Print Assumptions C42_cut_lines.
(** In the header: an exception or a series without coefficients; before the line of nonzero always the latter. *)
Theorem C42_cut_header : forall (T : Type) (parse : str -> res T) comments (x : fseries T) time p q,
  (forall v, parse v <> UB) -> counts_ok T x -> Forall admissible comments -> no_nl time ->
  unlines (hlines T comments x time) = p ++ q ->
  read_series T parse p = Throw \/ exists cs kn, read_series T parse p = Ok (cs, mkF [] kn 0).
Proof. exact cut_header. Qed.
Print Assumptions C42_cut_header.
Theorem C42_cut_early : forall (T : Type) (parse : str -> res T) comments (x : fseries T) time j,
  counts_ok T x -> Forall admissible comments -> no_nl time -> (j <= List.length comments + 1)%nat ->
  read_series T parse (unlines (firstn j (hlines T comments x time))) = Ok (firstn j (header T comments x time), mkF [] 0 0).
Proof. exact cut_early. Qed.
Print Assumptions C42_cut_early.
(** The two undetected cuts, on the file of C41. *)
Definition ex_header : str := unlines (map lit ["# known = 16"; "# nonzero = 3"; "# time = noon"]%string).
Theorem C42_undetected_refuted :
  read_series Z stol (ex_header ++ lit "3" ++ nl :: lit "-14" ++ nl :: lit "15") =
    Ok (map lit ["known = 16"; "nonzero = 3"; "time = noon"]%string, mkF [Some 3; Some (-14); Some 15] 16 3) /\
  read_series Z stol (firstn 13 ex_header) = Ok ([lit "known = 16"], mkF [] 0 0) /\
  read_series Z stol [] = Ok ([], mkF [] 0 0).
Proof. split; [|split]; vm_compute; reflexivity. Qed.
Print Assumptions C42_undetected_refuted.
Example C42_instance :
  counts_ok Z ex_x /\ unlines (hlines Z [] ex_x (lit "noon")) = ex_header /\ Forall numberish (map lit ["3"; "-14"; "159"]%string) /\
  Forall2 (fun s a => stol s = Ok a) (map lit ["3"; "-14"; "159"]%string) ex_vals /\ (forall v, stol v <> UB) /\
  read_series Z stol (ex_header ++ lit "3" ++ nl :: lit "-14" ++ [nl]) = Throw.
Proof.
  split; [repeat split; cbn; lia|]. split; [reflexivity|]. split.
  { repeat constructor; try (apply no_nl_lit; reflexivity); eexists; eexists; (split; [reflexivity|]); split; (reflexivity || discriminate). }
  split; [repeat constructor|]. split; [exact stol_no_ub|]. vm_compute. reflexivity.
Qed.

(** ** C43: whatever the file contains *)
Theorem C43_returns : forall (T : Type) (parse : str -> res T) (s : str) cs (x : fseries T), read_series T parse s = Ok (cs, x) ->
  cs = comments_of (kinds s) /\
  (x = mkF [] 0 0 /\ numbers_of (kinds s) = [] /\ nonzero_texts cs = [] \/
   exists n m kn nz vals, known_texts cs = [n] /\ nonzero_texts cs = [m] /\ number n = Ok kn /\ number m = Ok nz /\ 0 <= nz <= kn /\
     x = mkF (map Some vals) kn nz /\ Z.of_nat (List.length vals) = nz /\ Forall2 (fun s a => parse s = Ok a) (last_numbers (kinds s)) vals).
Proof. exact read_returns. Qed.
Print Assumptions C43_returns.
Theorem C43_no_ub : forall (T : Type) (parse : str -> res T) (s : str), (forall v, parse v <> UB) -> read_series T parse s <> UB.
Proof. exact read_no_ub. Qed.
Print Assumptions C43_no_ub.
(** Repeated counts, counts that are no numbers or negative, a nonzero above known, too many or too few
    numbers, and numbers before both counts throw. *)
Theorem C43_rejects : forall (T : Type) (parse : str -> res T) (s : str), (forall v, parse v <> UB) ->
  let cs := comments_of (kinds s) in
  (2 <= List.length (known_texts cs))%nat \/ (2 <= List.length (nonzero_texts cs))%nat \/
  (exists n, (In n (known_texts cs) \/ In n (nonzero_texts cs)) /\ number n = Throw) \/
  (exists n m kn nz, In n (known_texts cs) /\ In m (nonzero_texts cs) /\ number n = Ok kn /\ number m = Ok nz /\
     (kn < nz \/ nz <> Z.of_nat (List.length (last_numbers (kinds s))))) \/
  (exists pre v post, kinds s = pre ++ Number v :: post /\ (known_texts (comments_of pre) = [] \/ nonzero_texts (comments_of pre) = [])) ->
  read_series T parse s = Throw.
Proof.
  intros T parse s P cs H. destruct H as [H|[H|[H|[H|(pre & v & post & E & H)]]]]; [| | | |exact (early_number T parse s pre v post P E H)];
    pose proof (read_no_ub T parse s P) as U; destruct (read_series T parse s) as [[cs' x]| |] eqn:R; try reflexivity; try contradiction; exfalso;
    destruct (read_returns T parse _ _ _ R) as (-> & [(_ & _ & Z0)|(n & m & kn & nz & vals & E1 & E2 & E3 & E4 & E5 & _ & E7 & E8)]); subst cs.
  - destruct (known_once T parse s _ _ R) as [K|(n & K & _)]; rewrite K in H; cbn in H; lia.
  - rewrite E1 in H. cbn in H. lia.
  - rewrite Z0 in H. cbn in H. lia.
  - rewrite E2 in H. cbn in H. lia.
  - destruct H as (n & [I|I] & N); [|rewrite Z0 in I; exact I].
    destruct (known_once T parse s _ _ R) as [K|(n' & K & v & N')]; rewrite K in I; [destruct I|destruct I as [<-|[]]; congruence].
  - destruct H as (n' & [I|I] & N); [rewrite E1 in I|rewrite E2 in I]; destruct I as [<-|[]]; congruence.
  - destruct H as (n & m & kn & nz & _ & I & _). rewrite Z0 in I. exact I.
  - destruct H as (n' & m' & kn' & nz' & I1 & I2 & N1 & N2 & H). rewrite E1 in I1. rewrite E2 in I2. destruct I1 as [<-|[]]. destruct I2 as [<-|[]].
    assert (kn' = kn) by congruence. assert (nz' = nz) by congruence. subst. pose proof (F2_length _ _ _ E8) as L8. unfold str in *. lia.
Qed.
Print Assumptions C43_rejects.
(** A comment after the header restarts the numbers: those read so far are dropped without any error. *)
Theorem C43_restart_refuted :
  let s := unlines (map lit ["# known = 2"; "# nonzero = 2"; "1"; "2"; "# more"; "3"; "4"]%string) in
  numbers_of (kinds s) = map lit ["1"; "2"; "3"; "4"]%string /\
  read_series Z stol s = Ok (map lit ["known = 2"; "nonzero = 2"; "more"]%string, mkF [Some 3; Some 4] 2 2).
Proof. vm_compute. auto. Qed.
Print Assumptions C43_restart_refuted.
Example C43_instance :
  (forall v, stol v <> UB) /\
  read_series Z stol (unlines (map lit ["  # terms = 2"; ""; " 12"; "#"; "5"; "6 trailing"]%string)) = Ok (map lit ["terms = 2"; ""]%string, mkF [Some 5; Some 6] 2 2) /\
  map (fun l => read_series Z stol (unlines (map lit l)))
    [["# known = 2"; "# known = 2"]; ["# known = 2"; "# nonzero = 3"]; ["# terms = -1"]; ["# terms = 1"; "1"; "2"]; ["# terms = 2"; "1"]; ["7"; "# terms = 1"]; ["# nonzero = x"]]%string
  = repeat Throw 7.
Proof. split; [exact stol_no_ub|]. split; vm_compute; reflexivity. Qed.

(** ** C44: [npy_read] is a reader of npy files (NpyProofs.v), written from the format description. *)
Theorem C44_header : forall (shape : list Z) (data : str), Forall (fun n => 0 <= n < 2 ^ 31) shape ->
  Z.of_nat (List.length (numpy_header shape)) < 2 ^ 16 + 10 ->
  npy_read (numpy_header shape ++ data) = Some (shape, data) /\
  Z.of_nat (List.length (numpy_header shape)) mod 16 = 0 /\ exists p, numpy_header shape = p ++ [nl].
Proof.
  intros shape data F L. split; [|split; [apply header_mod|apply header_last]]. apply npy_round_trip; [|exact L].
  eapply Forall_impl; [|exact F]. cbn. intros; lia.
Qed.
Print Assumptions C44_header.
Theorem C44_fits : forall shape : list Z, Forall (fun n => 0 <= n < 2 ^ 31) shape -> (List.length shape <= 2000)%nat ->
  Z.of_nat (List.length (numpy_header shape)) < 2 ^ 16 + 10.
Proof. exact header_short. Qed.
Print Assumptions C44_fits.
(** write_series_npy: the shape and, in order, the bytes of all coefficients; 8 bytes for each entry of the array. *)
Theorem C44_series : forall (T : Type) (bytes : T -> str) (words : nat) (x : fseries T) (vals : list T),
  words = 1%nat \/ words = 2%nat -> content T x vals -> fnonzero x < 2 ^ 31 -> (forall a, List.length (bytes a) = (8 * words)%nat) ->
  exists file, write_series_npy T bytes words x = Ok file /\
    npy_read file = Some (if (words =? 2)%nat then [fnonzero x; 2] else [fnonzero x], List.concat (map bytes vals)) /\
    Z.of_nat (List.length (List.concat (map bytes vals))) = 8 * Z.of_nat words * fnonzero x.
Proof.
  intros T bytes words x vals Hw C B HB. destruct C as (C0 & CL & CE).
  assert (TI : to_i32 (fnonzero x) = fnonzero x) by (apply LoopsProofs.to_i32_small; lia).
  eexists. split; [apply write_npy; split; [exact C0|split; [exact CL|exact CE]]|]. rewrite TI. split.
  - destruct Hw as [-> | ->]; cbn [Nat.eqb]; apply npy_round_trip; try apply header_short; cbn [List.length]; try lia; repeat constructor; lia.
  - rewrite (concat_length T bytes (8 * words) vals HB), CL. lia.
Qed.
Print Assumptions C44_series.
(** From 2^31 coefficients on the shape is wrong: nonzero is narrowed to int. *)
Theorem C44_narrow_refuted : forall (T : Type) (bytes : T -> str) (x : fseries T) (vals : list T),
  content T x vals -> fnonzero x = 2 ^ 32 + 5 ->
  exists file, write_series_npy T bytes 1 x = Ok file /\ npy_read file = Some ([5], List.concat (map bytes vals)) /\ Z.of_nat (List.length vals) = 2 ^ 32 + 5.
Proof.
  intros T bytes x vals C E. pose proof C as C'. destruct C' as (C0 & CL & CE). eexists. split; [apply write_npy, C|]. rewrite E.
  change (to_i32 (2 ^ 32 + 5)) with 5. split; [|lia]. apply npy_round_trip; [repeat constructor; lia|vm_compute; reflexivity].
Qed.
Print Assumptions C44_narrow_refuted.
Definition ex_bytes (a : Z) : str := repeat (ascii_of_nat (Z.to_nat (a mod 256))) 8.
Example C44_instance :
  Forall (fun n => 0 <= n < 2 ^ 31) [1000; 2] /\ content Z ex_x ex_vals /\ (forall a, List.length (ex_bytes a) = 8%nat) /\
  npy_read (numpy_header [1000; 2] ++ lit "xyz") = Some ([1000; 2], lit "xyz") /\ List.length (numpy_header [1000; 2]) = 80%nat /\
  map (fun s => List.length (numpy_header s)) [[]; [1]; [123456789]; [1; 2; 3; 4; 5; 6; 7; 8]] = [80; 80; 80; 96]%nat.
Proof.
  split; [repeat constructor; lia|]. split; [repeat split; cbn; lia|]. split; [intro; apply repeat_length|]. vm_compute. auto.
Qed.

(** ** C40 *)
(** For any step that only looks at the counts and the first [nonzero] cells of g, doubles known, and
    yields scalars that printing and parsing bring back: run A goes to K in one go; run B stops at k0;
    run C resumes from the g file of run B.  The three runs may use other batch sizes, threads,
    schedules and clocks ([env]).  Then B and C write what A writes, but for the time comment, and C
    leaves all other files alone. *)
Theorem C40_resume : forall (T : Type) (safe : T -> res str) (parse : str -> res T) (is_one is_zero : T -> bool)
  (base : fseries T) (step : fseries T -> res (fseries T * fseries T * T)) (kmax : Z) (Inv : fseries T -> Prop),
  (forall g g' f mu, Inv g -> wf T safe parse g -> fknown g < 2 ^ kmax -> step g = Ok (g', f, mu) ->
     Inv g' /\ wf T safe parse g' /\ wf T safe parse f /\ good T safe parse mu /\ fknown g' = 2 * fknown g /\ fknown f = fknown g') ->
  (forall g g', wf T safe parse g -> wf T safe parse g' -> same T g g' -> step g' = step g) ->
  Inv base -> wf T safe parse base -> fknown base = 1 ->
  forall (eA eB eC : env) (fsA fsB : fsys) (outA outB outC mode : str) (k0 K : Z) (fsA' : fsys),
  env_ok T safe eA -> env_ok T safe eB -> env_ok T safe eC -> no_nl mode -> 1 <= k0 <= K -> K <= kmax ->
  areas_in T safe parse is_one is_zero base step eA fsA None (Some outA) mode K = Ok fsA' ->
  exists fsB' fsC', areas_in T safe parse is_one is_zero base step eB fsB None (Some outB) mode k0 = Ok fsB' /\
    areas_in T safe parse is_one is_zero base step eC fsB' (Some (file_name outB "g" k0)) (Some outC) mode K = Ok fsC' /\
    (forall c k, (c = "g"%char \/ c = "f"%char) -> 0 < k <= k0 -> same_but_time (fsA' (file_name outA c k)) (fsB' (file_name outB c k))) /\
    (forall c k, (c = "g"%char \/ c = "f"%char) -> k0 < k <= K -> same_but_time (fsA' (file_name outA c k)) (fsC' (file_name outC c k))) /\
    (forall p, (forall c k, (c = "g"%char \/ c = "f"%char) -> k0 < k <= K -> p <> file_name outC c k) -> fsC' p = fsB' p).
Proof. exact resume. Qed.
Print Assumptions C40_resume.
(** The Bottcher step of area.cc over any exact scalar type that text files represent. *)
Theorem C40_bottcher : forall (F : Fld) (kern : kernel F) (base : bases F) (check : bool -> series F -> bool) (mu_of : series F -> res (K F))
  (safe : K F -> res str) (parse : str -> res (K F)) (is_one is_zero : K F -> bool),
  kernel_ok kern -> bases_ok base -> (forall a, good (K F) safe parse a) ->
  forall (eA eB eC : env) (fsA fsB : fsys) (outA outB outC mode : str) (k0 K0 : Z) (fsA' : fsys),
  env_ok (K F) safe eA -> env_ok (K F) safe eB -> env_ok (K F) safe eC -> no_nl mode -> 1 <= k0 <= K0 -> K0 <= 28 ->
  let run := areas_in (K F) safe parse is_one is_zero (fbase F) (fstep F kern base check mu_of) in
  run eA fsA None (Some outA) mode K0 = Ok fsA' ->
  exists fsB' fsC', run eB fsB None (Some outB) mode k0 = Ok fsB' /\
    run eC fsB' (Some (file_name outB "g" k0)) (Some outC) mode K0 = Ok fsC' /\
    (forall c k, (c = "g"%char \/ c = "f"%char) -> 0 < k <= k0 -> same_but_time (fsA' (file_name outA c k)) (fsB' (file_name outB c k))) /\
    (forall c k, (c = "g"%char \/ c = "f"%char) -> k0 < k <= K0 -> same_but_time (fsA' (file_name outA c k)) (fsC' (file_name outC c k))) /\
    (forall p, (forall c k, (c = "g"%char \/ c = "f"%char) -> k0 < k <= K0 -> p <> file_name outC c k) -> fsC' p = fsB' p).
Proof.
  intros F kern base check mu_of safe parse is_one is_zero HK HB HG eA eB eC fsA fsB outA outB outC mode k0 K0 fsA' E1 E2 E3 Hm Hk HK0 run H.
  apply (resume (K F) safe parse is_one is_zero (fbase F) (fstep F kern base check mu_of) 28 (binv F)) with (eA := eA) (fsA := fsA); try assumption.
  - intros g g' f mu. apply fstep_ok; assumption.
  - intros g g' _ _. apply fstep_same.
  - apply fbase_inv.
  - apply fbase_wf; assumption.
  - reflexivity.
Qed.
Print Assumptions C40_bottcher.

(** Rational scalars "p/q", two different environments, three steps interrupted after the first. *)
Definition eOne : env := mkE 2 (fun _ => 1%nat) (fun _ => repeat 0 8)%nat (fun _ => lit "early").
Definition eTwo : env := mkE 2 two turns (fun _ => lit "late").
Lemma eOne_ok (T : Type) (safe : T -> res str) : env_ok T safe eOne.
Proof.
  split; [cbn; lia|]. split; [intro; cbn; lia|]. split; [|intro; apply no_nl_lit; reflexivity].
  intros x start H. cbn [eOne e_size e_threads e_sched].
  assert (C : Z.min 2 (relu (fnonzero x - start)) = 1 \/ Z.min 2 (relu (fnonzero x - start)) = 2) by (unfold relu; lia).
  destruct C as [-> | ->]; vm_compute; repeat constructor.
Qed.
Lemma eTwo_ok (T : Type) (safe : T -> res str) : env_ok T safe eTwo.
Proof.
  split; [cbn; lia|]. split; [intro; cbn; lia|]. split; [|intro; apply no_nl_lit; reflexivity].
  intros x start H. cbn [eTwo e_size e_threads e_sched].
  assert (C : Z.min 2 (relu (fnonzero x - start)) = 1 \/ Z.min 2 (relu (fnonzero x - start)) = 2) by (unfold relu; lia).
  destruct C as [-> | ->]; vm_compute; repeat constructor.
Qed.
Definition q_is (q : Qc) (a : Qc) : bool := Qc_eq_bool a q.
Definition q_run := areas_in Qc q_safe q_parse (q_is 1) (q_is 0) (fbase QcF)
  (fstep QcF (ref_kernel QcF) (gen_bases QcF) (fun _ _ => true) (fun f => SeriesModel.rd QcF (cells f) 1)).
Example C40_instance :
  (forall a, good (K QcF) q_safe q_parse a) /\ env_ok (K QcF) q_safe eOne /\ env_ok (K QcF) q_safe eTwo /\ no_nl (lit "test") /\
  match q_run eOne (fun _ => None) None (Some (lit "a")) (lit "test") 2 with
  | Ok fs => fs (lit "a/f-k2") = Some (unlines (map lit ["# f = f(z) = 1/phi(1/z)"; "# mode = test"; "# k = 2"; "# mu = -1/2"; "# known = 4"; "# nonzero = 4"; "# time = early"; "1/1"; "-1/2"; "1/8"; "-1/4"]%string))
  | _ => False
  end.
Proof.
  split; [exact q_good|]. split; [apply eOne_ok|]. split; [apply eTwo_ok|]. split; [apply no_nl_lit; reflexivity|]. vm_compute. reflexivity.
Qed.

(** ** C69: series-to-npy *)
Theorem C69_convert : forall (T : Type) (parse : str -> res T) (bytes : T -> str) (fs fs' : fsys) (input output : str),
  convert T parse bytes fs input output = Ok fs' ->
  fs output = None /\ (exists b, output = b ++ lit ".npy") /\ (forall p, p <> output -> fs' p = fs p) /\
  exists cs x vals file, read_series T parse (match fs input with Some s => s | None => [] end) = Ok (cs, x) /\ content T x vals /\
    fs' output = Some file /\ (fnonzero x < 2 ^ 31 -> npy_read file = Some ([fnonzero x; 2], List.concat (map bytes vals))).
Proof.
  intros T parse bytes fs fs' input output. unfold convert.
  destruct (ends_with output (lit ".npy")) eqn:EW; cbn [slow_assert bind]; [|discriminate].
  destruct (fs output) eqn:EO; cbn [slow_assert bind]; [discriminate|].
  change (fs_read fs input) with (match fs input with Some s => s | None => [] end).
  destruct (read_series T parse _) as [[cs x]| |] eqn:R; cbn [bind]; try discriminate.
  assert (V : exists vals, content T x vals).
  { destruct (read_returns T parse _ _ _ R) as (_ & [(-> & _)|(n & m & kn & nz & vals & _ & _ & _ & _ & B & -> & L & _)]).
    - exists []. repeat split; cbn; lia.
    - exists vals. split; [cbn; lia|]. cbn [fnonzero fcells]. split; [lia|]. apply firstn_all2. rewrite map_length. lia. }
  destruct V as (vals & C). rewrite (write_npy T bytes 2 x vals C). cbn [bind Nat.eqb]. intro E.
  apply (f_equal (fun r => match r with Ok a => a | _ => fs end)) in E. cbv beta iota in E. subst fs'.
  split; [reflexivity|]. split.
  { unfold ends_with in EW. destruct (strip (rev (lit ".npy")) (rev output)) as [b|] eqn:S; [|discriminate]. apply strip_some in S.
    exists (rev b). rewrite <- (rev_involutive output), S, rev_app_distr, rev_involutive. reflexivity. }
  split; [intros p Hp; unfold fs_write; rewrite str_eqb_neq by exact Hp; reflexivity|].
  exists cs, x, vals. eexists. split; [reflexivity|]. split; [exact C|]. split; [unfold fs_write; rewrite str_eqb_refl; reflexivity|].
  intro B. destruct C as (C0 & _). rewrite LoopsProofs.to_i32_small by lia. apply npy_round_trip; [repeat constructor; lia|].
  apply header_short; [|cbn [List.length]; lia]. repeat constructor; lia.
Qed.
Print Assumptions C69_convert.
(** A file that is there is never replaced. *)
Theorem C69_refuses : forall (T : Type) (parse : str -> res T) (bytes : T -> str) (fs : fsys) (input output s : str),
  fs output = Some s -> convert T parse bytes fs input output = Throw.
Proof. intros T parse bytes fs input output s E. unfold convert. rewrite E. destruct (ends_with output (lit ".npy")); reflexivity. Qed.
Print Assumptions C69_refuses.
Example C69_instance :
  let fs : fsys := fs_write (fun _ => None) (lit "in") (ex_header ++ unlines (map lit ["3"; "-14"; "159"]%string)) in
  match convert Z stol ex_bytes fs (lit "in") (lit "out.npy") with
  | Ok fs' => option_map npy_read (fs' (lit "out.npy")) = Some (Some ([3; 2], List.concat (map ex_bytes ex_vals))) /\
      convert Z stol ex_bytes fs' (lit "in") (lit "out.npy") = Throw /\ convert Z stol ex_bytes fs (lit "in") (lit "out") = Throw
  | _ => False
  end.
Proof. vm_compute. auto. Qed.
