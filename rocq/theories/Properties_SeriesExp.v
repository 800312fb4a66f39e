(** Properties of series-exp.cc: C74. *)
From Coq Require Import ZArith QArith Qcanon List Bool Ascii String Lia.
From Verif Require Import Base LoopsModel Field FieldInst FPS SeriesModel SeriesSpec SeriesProofs AlgoProofs CodeletModel CodeletProofs SeriesExtra AlgoExtra SeriesExamples
  Properties_Algos FilesModel FilesProofs FilesRead FilesResume NpyProofs FilesBottcher SeriesExpModel Properties_Files.
Import ListNotations.
Open Scope Z_scope.

(** What a successfully read file holds is a valid series. *)
Lemma read_valid : forall (F : Fld) (parse : str -> res (K F)) s cs x, read_series (K F) parse s = Ok (cs, x) -> valid (mkS (fcells x) (fknown x) (fnonzero x)).
Proof.
  intros F parse s cs x R. destruct (read_returns _ _ _ _ _ R) as (_ & [(-> & _)|(n & m & kn & nz & vals & _ & _ & _ & _ & B & -> & L & _)]).
  - split; [cbn; lia|]. split; [cbn; lia|]. split; [cbn; lia|]. intros i Hi. cbn in Hi. lia.
  - unfold valid, limit. cbn [nonzero known cells fcells fnonzero fknown]. rewrite map_length. split; [lia|]. split; [lia|]. split; [lia|].
    intros i Hi. rewrite nth_error_map. destruct (nth_error vals i) as [v|] eqn:E; [exists v; reflexivity|]. apply nth_error_None in E. lia.
Qed.
Lemma npy_suffix : forall b, ends_with (b ++ lit ".npy") (lit ".npy") = true.
Proof. intros b. unfold ends_with. rewrite rev_app_distr. reflexivity. Qed.
Lemma suffix_npy : forall output, ends_with output (lit ".npy") = true -> exists b, output = b ++ lit ".npy".
Proof.
  intros output EW. unfold ends_with in EW. destruct (strip (rev (lit ".npy")) (rev output)) as [b|] eqn:S; [|discriminate]. apply strip_some in S.
  exists (rev b). rewrite <- (rev_involutive output), S, rev_app_distr, rev_involutive. reflexivity.
Qed.

(** ** C74 *)
(** A file of n coefficients, all stored, the first zero, is turned into the npy array of the
    coefficients of its exponential; no other file changes. *)
Theorem C74_exp : forall (F : Fld) (kern : kernel F) (base : bases F) (parse : str -> res (K F)) (bytes : K F -> str) (fs : fsys) (input b : str) cs x,
  kernel_ok kern -> bases_ok base -> fs (b ++ lit ".npy") = None ->
  read_series (K F) parse (match fs input with Some s => s | None => [] end) = Ok (cs, x) ->
  fknown x = fnonzero x -> fknown x <= 2 ^ 28 -> den (mkS (fcells x) (fknown x) (fnonzero x)) O = k0 ->
  exists fs' file y, series_exp F kern base parse bytes fs input (b ++ lit ".npy") = Ok fs' /\
    (forall p, p <> b ++ lit ".npy" -> fs' p = fs p) /\ fs' (b ++ lit ".npy") = Some file /\
    npy_read file = Some ([Z.of_nat (List.length y); 2], List.concat (map bytes y)) /\ Z.of_nat (List.length y) <= fknown x /\
    forall i, Z.of_nat i < fknown x -> nth i y k0 = fexp (den (mkS (fcells x) (fknown x) (fnonzero x))) i.
Proof.
  intros F kern base parse bytes fs input b cs x HK HB EO R EK Hs H0. pose proof (read_valid _ _ _ _ _ R) as V.
  unfold series_exp. rewrite EO. cbn [slow_assert bind]. change (fs_read fs input) with (match fs input with Some s => s | None => [] end). rewrite R. cbn [bind].
  set (X := mkS (fcells x) (fknown x) (fnonzero x)) in *. pose proof V as (V1 & V2 & V3 & V4).
  assert (Hl : known X <= limit (new_series (F := F) (fnonzero x))).
  { unfold limit, new_series. cbn [cells]. rewrite repeat_length. change (nonzero X) with (fnonzero x) in V1. unfold relu. cbn [known X]. lia. }
  destruct (C32_exp F kern base (new_series (fnonzero x)) X HK HB V H0 Hs Hl) as (y & E & Vy & Ky & _ & D). rewrite E. cbn [bind]. rewrite npy_suffix. cbn [slow_assert bind].
  assert (C : exists vals, content (K F) (mkF (cells y) (known y) (nonzero y)) vals /\ vals = map (den y) (seq 0 (Z.to_nat (nonzero y)))).
  { destruct Vy as (Y1 & Y2 & Y3 & Y4). eexists. split; [|reflexivity]. split; [exact Y1|]. split; [rewrite map_length, seq_length; reflexivity|]. cbn [fcells fnonzero].
    apply nth_ext_error. intro i. rewrite map_map, nth_error_map. destruct (Nat.ltb_spec i (Z.to_nat (nonzero y))) as [L|L].
    - rewrite nth_error_firstn by exact L. destruct (Y4 i ltac:(lia)) as [v Ev]. rewrite Ev.
      assert (Es : nth_error (seq 0 (Z.to_nat (nonzero y))) i = Some i) by (rewrite (nth_error_nth' _ 0%nat) by (rewrite seq_length; exact L); rewrite seq_nth by exact L; reflexivity).
      rewrite Es. cbn [option_map]. unfold den. replace (Z.of_nat i <? nonzero y) with true by (symmetry; apply Z.ltb_lt; lia). rewrite (nth_error_nth _ _ None Ev). reflexivity.
    - replace (nth_error (seq 0 (Z.to_nat (nonzero y))) i) with (@None nat) by (symmetry; apply nth_error_None; rewrite seq_length; exact L). cbn [option_map]. apply nth_error_None. rewrite firstn_length. lia. }
  destruct C as (vals & C & Ev). rewrite (write_npy _ bytes 2 _ vals C). cbn [bind Nat.eqb fnonzero].
  destruct Vy as (Y1 & Y2 & _). assert (Lv : Z.of_nat (List.length vals) = nonzero y) by (rewrite Ev, map_length, seq_length; lia).
  eexists _, _, vals. split; [reflexivity|]. split; [intros p Hp; unfold fs_write; rewrite str_eqb_neq by exact Hp; reflexivity|].
  split; [unfold fs_write; rewrite str_eqb_refl; reflexivity|]. change (known X) with (fknown x) in *. split; [|split; [lia|]].
  - rewrite Lv. rewrite LoopsProofs.to_i32_small by lia. apply npy_round_trip; [repeat constructor; lia|]. apply header_short; [|cbn [List.length]; lia]. repeat constructor; lia.
  - intros i Hi. rewrite <- (D i) by lia. rewrite Ev. destruct (Nat.ltb_spec i (Z.to_nat (nonzero y))) as [L|L].
    + rewrite (nth_indep _ k0 (den y 0%nat)) by (rewrite map_length, seq_length; exact L). rewrite map_nth, seq_nth by exact L. reflexivity.
    + rewrite nth_overflow by (rewrite map_length, seq_length; exact L). unfold den. destruct (Z.ltb_spec (Z.of_nat i) (nonzero y)); [lia|reflexivity].
Qed.
Print Assumptions C74_exp.

(** Whatever the input, a run that succeeds creates exactly one new npy file. *)
Theorem C74_safe : forall (F : Fld) (kern : kernel F) (base : bases F) (parse : str -> res (K F)) (bytes : K F -> str) (fs fs' : fsys) (input output : str),
  series_exp F kern base parse bytes fs input output = Ok fs' ->
  fs output = None /\ (exists b, output = b ++ lit ".npy") /\ (exists s, fs' output = Some s) /\ forall p, p <> output -> fs' p = fs p.
Proof.
  intros F kern base parse bytes fs fs' input output. unfold series_exp. destruct (fs output) eqn:EO; cbn [slow_assert bind]; [discriminate|].
  destruct (read_series (K F) parse _) as [[cs x]| |]; cbn [bind]; try discriminate. destruct (set_exp F kern base _ _) as [y| |]; cbn [bind]; try discriminate.
  destruct (ends_with output (lit ".npy")) eqn:EW; cbn [slow_assert bind]; [|discriminate]. destruct (write_series_npy (K F) bytes 2 _) as [s| |]; cbn [bind]; try discriminate.
  intro E. apply (f_equal (fun r => match r with Ok a => a | _ => fs end)) in E. cbv beta iota in E. subst fs'. split; [reflexivity|]. split; [apply suffix_npy, EW|].
  split; [exists s; unfold fs_write; rewrite str_eqb_refl; reflexivity|]. intros p Hp. unfold fs_write. rewrite str_eqb_neq by exact Hp. reflexivity.
Qed.
Print Assumptions C74_safe.

(** A series whose constant term is not zero is refused. *)
Theorem C74_rejects : forall (F : Fld) (kern : kernel F) (base : bases F) (parse : str -> res (K F)) (bytes : K F -> str) (fs : fsys) (input output : str) cs x,
  read_series (K F) parse (match fs input with Some s => s | None => [] end) = Ok (cs, x) ->
  0 < fknown x -> den (mkS (fcells x) (fknown x) (fnonzero x)) O <> k0 -> series_exp F kern base parse bytes fs input output = Throw.
Proof.
  intros F kern base parse bytes fs input output cs x R HP H0. unfold series_exp. destruct (fs output); [reflexivity|]. cbn [slow_assert bind].
  change (fs_read fs input) with (match fs input with Some s => s | None => [] end). rewrite R. cbn [bind]. rewrite (C32_exp_rejects F kern base _ (mkS (fcells x) (fknown x) (fnonzero x)) (read_valid _ _ _ _ _ R) HP H0). reflexivity.
Qed.
Print Assumptions C74_rejects.

Definition q_bytes (a : Qc) : str := List.concat (map print_int [Qnum (this a); Zpos (Qden (this a))]).
Definition q_file (kn nz : string) (ls : list string) : str := unlines (map lit (("# known = " ++ kn) :: ("# nonzero = " ++ nz) :: ls)%string).
Definition q_exp := series_exp QcF (ref_kernel QcF) (gen_bases QcF) q_parse q_bytes.
(** z + 0 z^2 + ... is turned into the array 1, 1, 1/2, 1/6. *)
Example C74_instance :
  let fs : fsys := fs_write (fun _ => None) (lit "in") (q_file "4" "4" ["0/1"; "1/1"; "0/1"; "0/1"]%string) in
  kernel_ok (ref_kernel QcF) /\ bases_ok (gen_bases QcF) /\
  match q_exp fs (lit "in") (lit "out.npy") with
  | Ok fs' => option_map npy_read (fs' (lit "out.npy")) = Some (Some ([4; 2], lit "11111216")) /\ q_exp fs' (lit "in") (lit "out.npy") = Throw /\ q_exp fs (lit "in") (lit "out") = Throw
  | _ => False
  end.
Proof. split; [apply ref_kernel_ok|]. split; [apply gen_bases_ok|]. vm_compute. auto. Qed.
(** The same series with its trailing zeros not stored (as write_series writes it when nonzero < known)
    is accepted by the other programs but fails here: y has room for nonzero terms only. *)
Theorem C74_short_refuted : exists (fs : fsys) (input output : str) x, (exists cs, read_series (K QcF) q_parse (match fs input with Some s => s | None => [] end) = Ok (cs, x)) /\
  fknown x <= 2 ^ 28 /\ den (F := QcF) (mkS (fcells x) (fknown x) (fnonzero x)) O = k0 /\ fs output = None /\
  (exists fs', convert (K QcF) q_parse q_bytes fs input output = Ok fs') /\ q_exp fs input output = Throw.
Proof.
  exists (fs_write (fun _ => None) (lit "in") (q_file "4" "2" ["0/1"; "1/1"]%string)), (lit "in"), (lit "out.npy").
  eexists. split; [eexists; vm_compute; reflexivity|]. split; [cbn; lia|]. split; [vm_compute; reflexivity|]. split; [reflexivity|]. split; [eexists; vm_compute; reflexivity|]. vm_compute. reflexivity.
Qed.
Print Assumptions C74_short_refuted.
