(** Lemmas on the npy files, with a reader for them. *)
From Coq Require Import ZArith List Bool Ascii String Lia Arith.
From Verif Require Import Base LoopsModel AreaModel FilesModel FilesProofs.
Import ListNotations.
Open Scope Z_scope.

(** * A reader of version 1.0 npy files of doubles

    Magic string, version, header length as a little-endian 16-bit number, a Python dictionary ending in
    spaces and a newline, then the data. *)
Definition npy_nat (s : str) : option (Z * str) :=
  match s with
  | c :: _ => if isdigit c then Some (digits_val 0 s, (fix skip s := match s with d :: r => if isdigit d then skip r else s | [] => [] end) s) else None
  | [] => None
  end.
Fixpoint npy_dims (fuel : nat) (s : str) : option (list Z * str) :=
  match strip (lit ")") s with
  | Some r => Some ([], r)
  | None =>
      match fuel with
      | O => None
      | S f =>
          match npy_nat s with
          | None => None
          | Some (n, r) =>
              match strip (lit ",") r with
              | None => None
              | Some r => match npy_dims f r with Some (l, r) => Some (n :: l, r) | None => None end
              end
          end
      end
  end.
Fixpoint npy_blank (s : str) : bool :=
  match s with
  | [c] => Ascii.eqb c nl
  | c :: r => Ascii.eqb c " " && npy_blank r
  | [] => false
  end.
Definition npy_shape (h : str) : option (list Z) :=
  match strip (lit "{'descr': '<f8', 'fortran_order': False, 'shape': (") h with
  | None => None
  | Some r =>
      match npy_dims (List.length r) r with
      | None => None
      | Some (l, r) => match strip (lit ", }") r with Some r => if npy_blank r then Some l else None | None => None end
      end
  end.
Definition byte (c : ascii) : Z := Z.of_nat (nat_of_ascii c).
Definition npy_read (s : str) : option (list Z * str) :=
  match strip ("147"%char :: lit "NUMPY" ++ ["001"%char; "000"%char]) s with
  | Some (a :: b :: r) =>
      let n := Z.to_nat (byte a + 256 * byte b) in
      if (n <=? List.length r)%nat then
        match npy_shape (firstn n r) with Some l => Some (l, skipn n r) | None => None end
      else None
  | _ => None
  end.

Lemma pad_spec f h : exists m, npy_pad f h = h ++ repeat " "%char m.
Proof.
  revert h. induction f as [|f IH]; intro h; [exists 0%nat; cbn; rewrite app_nil_r; reflexivity|].
  cbn [npy_pad]. destruct (_ =? 0); [exists 0%nat; cbn; rewrite app_nil_r; reflexivity|].
  destruct (IH (h ++ [" "%char])) as [m E]. exists (S m). rewrite E, <- app_assoc. reflexivity.
Qed.
(** Sixteen attempts are enough. *)
Lemma pad_mod_aux f h : 16 - Z.of_nat f <= (Z.of_nat (List.length h) + 1) mod 16 \/ (Z.of_nat (List.length h) + 1) mod 16 = 0 ->
  (Z.of_nat (List.length (npy_pad f h)) + 1) mod 16 = 0 /\ Z.of_nat (List.length (npy_pad f h)) <= Z.of_nat (List.length h) + Z.of_nat f.
Proof.
  revert h. induction f as [|f IH]; intros h H.
  - cbn [npy_pad]. pose proof (Z.mod_pos_bound (Z.of_nat (List.length h) + 1) 16 ltac:(lia)). split; [|lia]. destruct H; [|assumption]. lia.
  - cbn [npy_pad]. destruct (Z.eqb_spec ((Z.of_nat (List.length h) + 1) mod 16) 0) as [E|N]; [split; [exact E|lia]|].
    assert (L : List.length (h ++ [" "%char]) = S (List.length h)) by (rewrite app_length; cbn; lia).
    destruct (IH (h ++ [" "%char])) as [I1 I2].
    { rewrite L. destruct H as [H|H]; [|contradiction]. set (x := Z.of_nat (List.length h) + 1) in *.
      replace (Z.of_nat (S (List.length h)) + 1) with (x + 1) by lia. pose proof (Z.mod_pos_bound x 16 ltac:(lia)) as B.
      destruct (Z.eq_dec (x mod 16) 15) as [Q|Q].
      - right. rewrite Z.add_mod, Q by lia. reflexivity.
      - left. rewrite Z.add_mod by lia. change (1 mod 16) with 1. rewrite Z.mod_small by lia. lia. }
    split; [exact I1|]. lia.
Qed.
Lemma pad_mod h : (Z.of_nat (List.length (npy_pad 16 h)) + 1) mod 16 = 0 /\ Z.of_nat (List.length (npy_pad 16 h)) <= Z.of_nat (List.length h) + 16.
Proof. apply pad_mod_aux. left. pose proof (Z.mod_pos_bound (Z.of_nat (List.length h) + 1) 16 ltac:(lia)). change (16 - Z.of_nat 16) with 0. lia. Qed.

(** * The shape *)
Definition dims (shape : list Z) : str := List.concat (map (fun n => print_int n ++ lit ",") shape).
Lemma nat_print n r : 0 <= n -> (forall c t, r = c :: t -> isdigit c = false) -> npy_nat (print_int n ++ r) = Some (n, r).
Proof.
  intros H Hr. unfold print_int. destruct (Z.ltb_spec n 0); [lia|]. pose proof (print_nat_val n 0 r H Hr) as V.
  destruct (print_nat_shape n H) as (c & t & E & D & F). unfold npy_nat. rewrite E in *. cbn [app] in *. rewrite D. f_equal. f_equal; [rewrite V; lia|].
  clear - F Hr. induction F as [|d t Hd F IH]; cbn [app].
  - destruct r as [|c r]; [reflexivity|]. rewrite (Hr c r eq_refl). reflexivity.
  - rewrite Hd. exact IH.
Qed.
Lemma print_not_paren n r : 0 <= n -> strip (lit ")") (print_int n ++ r) = None.
Proof.
  intro H. unfold print_int. destruct (Z.ltb_spec n 0); [lia|]. destruct (print_nat_shape n H) as (c & t & E & D & _). rewrite E.
  change (strip (lit ")") ((c :: t) ++ r)) with (if Ascii.eqb ")" c then Some (t ++ r) else None).
  destruct (Ascii.eqb_spec ")" c) as [<-|]; [discriminate D|reflexivity].
Qed.
Lemma dims_read shape fuel r : Forall (fun n => 0 <= n) shape -> (List.length shape <= fuel)%nat ->
  npy_dims fuel (dims shape ++ lit ")" ++ r) = Some (shape, r).
Proof.
  intro F. revert fuel. induction F as [|n l Hn F IH]; intros fuel L.
  - cbn [dims map List.concat app]. destruct fuel; reflexivity.
  - cbn [List.length] in L. destruct fuel as [|fuel]; [lia|]. unfold dims. cbn [map List.concat]. fold (dims l). rewrite <- !app_assoc.
    cbn [npy_dims]. rewrite print_not_paren by exact Hn. rewrite nat_print; [|exact Hn|intros c t E; injection E as <- _; reflexivity].
    rewrite strip_app. rewrite IH by lia. reflexivity.
Qed.
Lemma dims_length shape : (List.length shape <= List.length (dims shape))%nat.
Proof.
  induction shape as [|n l IH]; [cbn; lia|]. unfold dims. cbn [map List.concat List.length]. fold (dims l). rewrite !app_length. cbn [lit list_ascii_of_string List.length]. lia.
Qed.
Lemma blank_ok m : npy_blank (repeat " "%char m ++ [nl]) = true.
Proof. induction m as [|m IH]; [reflexivity|]. cbn [repeat app]. destruct m; exact IH. Qed.
Lemma shape_read shape m : Forall (fun n => 0 <= n) shape ->
  npy_shape (npy_dict shape ++ repeat " "%char m ++ [nl]) = Some shape.
Proof.
  intro F. unfold npy_shape, npy_dict. fold (dims shape). rewrite <- app_assoc, strip_app.
  replace ((dims shape ++ lit "), }") ++ repeat " "%char m ++ [nl]) with (dims shape ++ lit ")" ++ lit ", }" ++ repeat " "%char m ++ [nl]) by (rewrite <- app_assoc; reflexivity).
  rewrite dims_read; [|exact F|rewrite app_length; pose proof (dims_length shape); lia].
  rewrite strip_app, blank_ok. reflexivity.
Qed.

(** * The whole file *)
Definition npy_h (shape : list Z) : str := npy_pad 16 (npy_magic ++ lit "??" ++ npy_dict shape) ++ [nl].
Lemma npy_h_form shape : exists m, npy_h shape = npy_magic ++ lit "??" ++ npy_dict shape ++ repeat " "%char m ++ [nl].
Proof.
  unfold npy_h. destruct (pad_spec 16 (npy_magic ++ lit "??" ++ npy_dict shape)) as [m E].
  exists m. rewrite E, <- !app_assoc. reflexivity.
Qed.
Lemma byte_ok n : 0 <= n < 256 -> byte (ascii_of_nat (Z.to_nat n)) = n.
Proof. intro H. unfold byte. rewrite nat_ascii_embedding by lia. lia. Qed.
Lemma header_length shape : List.length (numpy_header shape) = List.length (npy_h shape).
Proof.
  unfold numpy_header. fold (npy_h shape). destruct (npy_h_form shape) as [m E]. rewrite E.
  rewrite !app_length, firstn_length, skipn_length, !app_length. cbn [List.length npy_magic map lit list_ascii_of_string]. lia.
Qed.
Lemma header_mod shape : (Z.of_nat (List.length (numpy_header shape))) mod 16 = 0.
Proof.
  rewrite header_length. unfold npy_h. rewrite app_length. cbn [List.length]. destruct (pad_mod (npy_magic ++ lit "??" ++ npy_dict shape)) as [H _].
  rewrite Nat2Z.inj_add. exact H.
Qed.
Lemma header_last shape : exists p, numpy_header shape = p ++ [nl].
Proof.
  unfold numpy_header. fold (npy_h shape). destruct (npy_h_form shape) as [m E]. rewrite E.
  change (skipn 10 (npy_magic ++ lit "??" ++ npy_dict shape ++ repeat " "%char m ++ [nl])) with (npy_dict shape ++ repeat " "%char m ++ [nl]).
  eexists. rewrite !app_assoc. reflexivity.
Qed.
Lemma npy_round_trip shape data : Forall (fun n => 0 <= n) shape -> Z.of_nat (List.length (numpy_header shape)) < 2 ^ 16 + 10 ->
  npy_read (numpy_header shape ++ data) = Some (shape, data).
Proof.
  intros F L. rewrite header_length in L. unfold numpy_header. fold (npy_h shape). destruct (npy_h_form shape) as [m E]. rewrite E in *.
  set (t := npy_dict shape ++ repeat " "%char m ++ [nl]) in *.
  change (skipn 10 (npy_magic ++ lit "??" ++ t)) with t. change (firstn 8 (npy_magic ++ lit "??" ++ t)) with npy_magic.
  assert (LT : Z.of_nat (List.length (npy_magic ++ lit "??" ++ t)) - 10 = Z.of_nat (List.length t)).
  { rewrite !app_length. cbn [npy_magic map lit list_ascii_of_string List.length]. lia. }
  assert (L2 : 0 <= Z.of_nat (List.length t) < 2 ^ 16) by lia. rewrite LT, (Z.mod_small (Z.of_nat (List.length t)) (2 ^ 16)) by exact L2. clear LT L. set (n := Z.of_nat (List.length t)) in *.
  rewrite <- !app_assoc. unfold npy_read. change ("147"%char :: lit "NUMPY" ++ ["001"%char; "000"%char]) with npy_magic. rewrite strip_app. cbn [app].
  rewrite !byte_ok by first [apply Z.mod_pos_bound; lia | split; [apply Z.div_pos; lia|apply Z.div_lt_upper_bound; lia]].
  replace (n mod 256 + 256 * (n / 256)) with n by (pose proof (Z.div_mod n 256 ltac:(lia)); lia).
  replace (Z.to_nat n) with (List.length t) by (unfold n; lia).
  replace (List.length t <=? List.length (t ++ data))%nat with true by (symmetry; apply Nat.leb_le; rewrite app_length; lia).
  rewrite firstn_app, Nat.sub_diag, firstn_all. cbn [firstn]. rewrite app_nil_r. rewrite skipn_app, Nat.sub_diag, skipn_all. cbn [skipn app].
  unfold t. rewrite shape_read by exact F. reflexivity.
Qed.

(** Short shapes have short headers. *)
Lemma dec_length f n : (List.length (dec f n) <= f)%nat.
Proof. revert n. induction f as [|f IH]; intro n; [cbn; lia|]. cbn [dec]. destruct (n <? 10); [cbn; lia|]. rewrite app_length. cbn [List.length]. specialize (IH (n / 10)). lia. Qed.
Lemma print_length n : 0 <= n < 2 ^ 31 -> (List.length (print_int n) <= 31)%nat.
Proof.
  intro H. unfold print_int. destruct (Z.ltb_spec n 0); [lia|]. unfold print_nat. etransitivity; [apply dec_length|].
  assert (Z.log2 n < 31); [|pose proof (Z.log2_nonneg n); lia]. destruct (Z.eq_dec n 0) as [->|]; [cbn; lia|]. apply Z.log2_lt_pow2; lia.
Qed.
Lemma dims_short shape : Forall (fun n => 0 <= n < 2 ^ 31) shape -> (List.length (dims shape) <= 32 * List.length shape)%nat.
Proof.
  induction 1 as [|n l Hn F IH]; [cbn; lia|]. unfold dims. cbn [map List.concat List.length]. fold (dims l). rewrite !app_length.
  pose proof (print_length n Hn). cbn [lit list_ascii_of_string List.length]. lia.
Qed.
Lemma header_short shape : Forall (fun n => 0 <= n < 2 ^ 31) shape -> (List.length shape <= 2000)%nat -> Z.of_nat (List.length (numpy_header shape)) < 2 ^ 16 + 10.
Proof.
  intros F L. rewrite header_length. unfold npy_h. rewrite app_length. cbn [List.length]. destruct (pad_mod (npy_magic ++ lit "??" ++ npy_dict shape)) as [_ H].
  pose proof (dims_short shape F) as D. revert H. rewrite !app_length. unfold npy_dict. fold (dims shape). rewrite !app_length.
  cbn [npy_magic map lit list_ascii_of_string List.length]. lia.
Qed.

Section Write.
Variable T : Type.
Variable bytes : T -> str.
Lemma all_terms_ok x vals : content T x vals -> all_terms T x (Z.to_nat (fnonzero x)) = Ok vals.
Proof.
  intro C. assert (G : forall n, (n <= List.length vals)%nat -> all_terms T x n = Ok (firstn n vals)).
  { induction n as [|n IH]; intro H; [reflexivity|]. cbn [all_terms]. rewrite IH by lia. cbn [bind].
    destruct (content_get T (fun _ => Throw) x vals n C ltac:(lia)) as (a & N & G). rewrite G. cbn [bind]. f_equal.
    clear -N. revert n N. induction vals as [|b l IH]; intros [|n] N; try discriminate; cbn [nth_error] in N; [injection N as ->; reflexivity|].
    cbn [firstn app]. f_equal. apply IH, N. }
  destruct C as (C0 & L & C1). rewrite <- L. rewrite G by lia. rewrite firstn_all. reflexivity.
Qed.
Lemma write_npy words x vals : content T x vals ->
  write_series_npy T bytes words x = Ok (numpy_header (to_i32 (fnonzero x) :: (if (words =? 2)%nat then [2] else [])) ++ List.concat (map bytes vals)).
Proof. intro C. unfold write_series_npy. rewrite (all_terms_ok x vals C). reflexivity. Qed.
Lemma concat_length (w : nat) vals : (forall a, List.length (bytes a) = w) -> List.length (List.concat (map bytes vals)) = (w * List.length vals)%nat.
Proof. intro H. induction vals as [|a l IH]; [cbn; lia|]. cbn [map List.concat List.length]. rewrite app_length, H, IH. lia. Qed.
End Write.
