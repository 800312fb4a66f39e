(** The symbolic series algorithms (SerGenModel.v) follow the scalar ones (CodeletModel.v): whenever a
    symbolic run ends and no signatures collided, the scalar run on the values ends with the values. *)
From Coq Require Import String ZArith List Bool Lia Ring_theory Ring Field.
From Verif Require Import Base Field FPS ExpModel ExpProofs BlockProofs GenScope BaseGenModel SerGenModel SeriesModel SeriesProofs CodeletModel.
Import ListNotations.
Open Scope Z_scope.

Section Sim.
Variables (F : Fld) (G : SigOps).
Hypothesis HL : SigLaws G.
Variables (lr : bool) (V : list string) (J : interp F).
(** The call written for a reciprocal computes it. *)
Hypothesis Jinv : forall a, icall J "inv" [a] = kinv a.
Add Field KFieldSG : (kfield F).
Notation exp := (exp G).
Notation M := (M G).
Notation yser := (yser G).

Definition good (st : cst G) : Prop := Inv st /\ tabv G V st.
Definition sim {A B} (m : M A) (W : A -> Prop) (c : res B) (d : A -> B) : Prop :=
  forall st a st', good st -> m st = Ok (a, st') -> good st' /\ ext st st' /\ W a /\ (no_collision J (lg G st') -> c = Ok (d a)).

Lemma sim_ret : forall A B (a : A) (W : A -> Prop) (c : res B) d, W a -> c = Ok (d a) -> sim (ret G a) W c d.
Proof. intros A B a W c d HW Hc st x st' Hg H. injection H as <- <-. split; [exact Hg|]. split; [apply ext_refl|]. auto. Qed.
Lemma sim_bind : forall A B A' B' (m : M A) (k : A -> M A') W W' (c : res B) (kc : B -> res B') d d',
  sim m W c d -> (forall a, W a -> sim (k a) W' (kc (d a)) d') -> sim (mbind G m k) W' (bind c kc) d'.
Proof.
  intros A B A' B' m k W W' c kc d d' Hm Hk st x st' Hg H. unfold mbind in H. destruct (m st) as [[a st1]| |] eqn:E1; try discriminate. cbn [bind] in H.
  destruct (Hm _ _ _ Hg E1) as (G1 & X1 & W1 & C1). destruct (Hk a W1 _ _ _ G1 H) as (G2 & X2 & W2 & C2).
  split; [exact G2|]. split; [eapply ext_trans; eassumption|]. split; [exact W2|]. intros N. rewrite C1 by (apply (nocol_incl _ _ _ _ _ (proj1 X2) N)). cbn [bind]. apply C2, N.
Qed.
Lemma sim_val : forall A A' B' (m : M A) (k : A -> M A') W W' (v : F) (kc : F -> res B') d d',
  sim m W (Ok v) d -> (forall a, W a -> sim (k a) W' (kc (d a)) d') -> sim (mbind G m k) W' (kc v) d'.
Proof. intros A A' B' m k W W' v kc d d' Hm Hk. exact (sim_bind _ _ _ _ m k W W' (Ok v) kc d d' Hm Hk). Qed.
Lemma sim_lift : forall A A' B' (r : res A) (k : A -> M A') W' (c : res B') d', (forall a, r = Ok a -> sim (k a) W' c d') -> sim (mbind G (lift G r) k) W' c d'.
Proof. intros A A' B' r k W' c d' Hk st x st' Hg H. unfold mbind, lift in H. destruct r as [a| |]; try discriminate. exact (Hk a eq_refl _ _ _ Hg H). Qed.
Lemma sim_assert : forall A' B' b b' (k : unit -> M A') W' (kc : unit -> res B') d', b' = b -> (b = true -> sim (k tt) W' (kc tt) d') ->
  sim (mbind G (lift G (slow_assert b)) k) W' (bind (slow_assert b') kc) d'.
Proof. intros A' B' b b' k W' kc d' -> H. apply sim_lift. intros [] E. destruct b; [|discriminate]. exact (H eq_refl). Qed.
Lemma sim_weaken : forall A B (m : M A) (W W' : A -> Prop) (c : res B) d, sim m W c d -> (forall a, W a -> W' a) -> sim m W' c d.
Proof. intros A B m W W' c d H HW st a st' Hg E. destruct (H _ _ _ Hg E) as (A1 & A2 & A3 & A4). auto. Qed.
Lemma sim_eq : forall A B (m : M A) W (c c' : res B) d, sim m W c d -> c = c' -> sim m W c' d.
Proof. intros; subst; assumption. Qed.

(** ** Scalars *)
Definition we (e : exp) : Prop := wfe e /\ ve G V e.
Notation ev := (eval J).
Lemma sim_e : forall m sg v, espec F G J m sg v -> vk G V m (ve G V) -> sim m we (Ok v) ev.
Proof.
  intros m sg v H K st a st' [HI HT] E. destruct (H st HI) as (r & st1 & E1 & I1 & X1 & _ & W1 & _ & V1). rewrite E in E1. injection E1 as <- <-.
  destruct (K _ _ _ HT E) as [T1 Ve]. split; [split; assumption|]. split; [exact X1|]. split; [split; assumption|]. intros N. f_equal. symmetry. apply V1, N.
Qed.
Lemma we_int : forall n, - 2 ^ 31 < n < 2 ^ 31 -> we (mkint n).
Proof. intros n H. split; [apply wfe_int; exact H|apply ve_int]. Qed.
Lemma sim_add : forall x y, we x -> we y -> sim (exp_add G x y) we (Ok (kadd (ev x) (ev y))) ev.
Proof. intros x y [A B] [C D]. eapply sim_e; [apply add_spec; assumption|apply add_ve; assumption]. Qed.
Lemma sim_mul : forall x y, we x -> we y -> sim (exp_mul G x y) we (Ok (kmul (ev x) (ev y))) ev.
Proof. intros x y [A B] [C D]. eapply sim_e; [apply mul_spec; assumption|apply mul_ve; assumption]. Qed.
Lemma sim_neg : forall x, we x -> sim (exp_neg G x) we (Ok (kopp (ev x))) ev.
Proof. intros x [A B]. eapply sim_e; [apply neg_spec; assumption|apply neg_vk; assumption]. Qed.
Lemma div_vk : forall f x a, ve G V x -> vk G V (div_fuel G f x a) (ve G V).
Proof.
  induction f as [|f IH]; intros x a Hx; cbn [div_fuel]; [apply vk_fail; discriminate|].
  destruct (a =? 0); [apply vk_fail; discriminate|]. destruct (a =? 1); [apply vk_ret; exact Hx|]. destruct (a =? -1); [apply neg_vk; exact Hx|].
  destruct (a <? 0); [apply vk_lift; intros b _; eapply vk_bind; [apply IH; exact Hx|intros; apply neg_vk; assumption]|].
  apply vk_lift. intros [nx|] Hu; [eapply vk_bind; [apply IH; apply (unneg_ve G V _ _ Hx Hu)|intros; apply neg_vk; assumption]|].
  apply vk_lift. intros i _. apply vk_cse; [discriminate|]. repeat constructor. exact Hx.
Qed.
Lemma sim_div : forall x a, we x -> a <> 0 -> - 2 ^ 31 < a < 2 ^ 31 -> sim (exp_div G x a) we (Ok (kdiv (ev x) (kofZ a))) ev.
Proof. intros x a [A B] N Ba. destruct (div_spec F G J HL x a A N Ba) as (sg & _ & H). eapply sim_e; [exact H|apply div_vk; exact B]. Qed.
Lemma sim_inv : forall x, we x -> sim (exp_inv G x) we (Ok (kinv (ev x))) ev.
Proof.
  intros x [A B]. unfold exp_inv. apply sim_lift. intros s Hs. rewrite <- Jinv. eapply sim_e; [apply (call_spec F G J HL "inv" [x] s)|]. apply call_ve. repeat constructor. exact B.
Qed.
Lemma vsum_ksum : forall l, vsum F l = ksum F l. Proof. reflexivity. Qed.
Lemma sim_sum : forall xs, Forall we xs -> sim (exp_sum G lr xs) we (Ok (ksum F (map ev xs))) ev.
Proof.
  intros xs H. eapply sim_e; [apply (sum_spec F G J HL lr xs); eapply Forall_impl; [|exact H]; intros a Ha; apply Ha|].
  apply sum_ve. eapply Forall_impl; [|exact H]; intros a Ha; apply Ha.
Qed.

(** ** Cells *)
Definition dc (c : list (option exp)) : list (option F) := map (option_map ev) c.
Definition wo (o : option exp) : Prop := match o with Some e => we e | None => True end.
Notation wc := (Forall wo).
Definition yden (y : yser) : series F := mkS (dc (yc G y)) (yk G y) (yn G y).
Definition W (y : yser) : Prop := wc (yc G y) /\ 0 <= yk G y < 2 ^ 30 /\ 0 <= yn G y <= y_limit G y /\ y_limit G y < 2 ^ 30.

Lemma dc_length : forall c, length (dc c) = length c. Proof. intros c. apply map_length. Qed.
Lemma yden_limit : forall y, limit (yden y) = y_limit G y. Proof. intros y. unfold limit, y_limit, yden. cbn [cells]. rewrite dc_length. reflexivity. Qed.
Lemma wc_at : forall c i e, wc c -> nth_error c i = Some (Some e) -> we e.
Proof. intros c i e H E. rewrite Forall_forall in H. exact (H (Some e) (nth_error_In _ _ E)). Qed.
Lemma rd_den : forall c i e, y_rd G c i = Ok e -> rd F (dc c) i = Ok (ev e) /\ (wc c -> we e) /\ 0 <= i /\ nth_error c (Z.to_nat i) = Some (Some e).
Proof.
  intros c i e H. unfold y_rd in H. unfold rd, dc. destruct (Z.ltb_spec i 0); [discriminate|]. rewrite nth_error_map.
  destruct (nth_error c (Z.to_nat i)) as [[x|]|] eqn:E; try discriminate. injection H as <-. split; [reflexivity|]. split; [intros Hc; exact (wc_at _ _ _ Hc E)|auto].
Qed.
Lemma read_den : forall n c es, y_read G n c = Ok es -> read_cells F n (dc c) = Ok (map ev es) /\ (wc c -> Forall we es) /\ length es = n /\
  forall j e, nth_error es j = Some e -> nth_error c j = Some (Some e).
Proof.
  induction n as [|n IH]; intros c es H; cbn [y_read] in H.
  - injection H as <-. split; [reflexivity|]. split; [constructor|]. split; [reflexivity|]. intros [|j] e E; discriminate E.
  - destruct c as [|[x|] c]; try discriminate. destruct (y_read G n c) as [t| |] eqn:E; try discriminate. injection H as <-.
    destruct (IH _ _ E) as (A & B & C & D). cbn [dc map option_map read_cells]. unfold dc in A. rewrite A. split; [reflexivity|]. split; [intros Hc; inversion Hc; subst; constructor; auto|]. split; [cbn; congruence|].
    intros [|j] e Hj; cbn in Hj |- *; [congruence|apply D, Hj].
Qed.
Lemma put_den : forall c i e c', y_put G c i e = Ok c' -> set_cell F (dc c) i (ev e) = Ok (dc c') /\ length c' = length c /\ (wc c -> we e -> wc c').
Proof.
  induction c as [|o c IH]; intros [|i] e c' H; cbn [y_put] in H; try discriminate.
  - injection H as <-. split; [reflexivity|]. split; [reflexivity|]. intros Hc He. inversion Hc; subst. constructor; assumption.
  - destruct (y_put G c i e) as [r| |] eqn:E; try discriminate. injection H as <-. destruct (IH _ _ _ E) as (A & B & C). cbn [dc map set_cell]. unfold dc in A. rewrite A.
    split; [reflexivity|]. split; [cbn; congruence|]. intros Hc He. inversion Hc; subst. constructor; auto.
Qed.
Lemma write_one : forall (c : list (option F)) v, write_cells F [v] c = set_cell F c 0 v.
Proof. intros [|o c] v; reflexivity. Qed.
Lemma u64_small : forall z, 0 <= z < 2 ^ 32 -> to_u64 z = z. Proof. intros z H. unfold to_u64. apply Z.mod_small. lia. Qed.
Lemma counts_den : forall y kn nz y', y_counts G y kn nz = Ok y' -> y' = mkY G (yc G y) kn nz /\ set_counts F (yden y) kn nz = Ok (yden y') /\
  (W y -> 0 <= kn < 2 ^ 30 -> 0 <= nz < 2 ^ 32 -> W y').
Proof.
  intros y kn nz y' H. unfold y_counts in H. unfold set_counts. rewrite yden_limit. unfold slow_assert in *. destruct (to_u64 nz <=? to_u64 (Z.min (y_limit G y) kn)) eqn:E; [|discriminate]. cbn [bind] in *.
  injection H as <-. split; [reflexivity|]. split; [reflexivity|]. intros (A & B & C & D) Hk Hn. apply Z.leb_le in E. assert (0 <= y_limit G y) by (unfold y_limit; lia). rewrite !u64_small in E by lia.
  split; [exact A|]. unfold y_limit in *. cbn [yk yn yc]. lia.
Qed.
Lemma known_den : forall y kn y', y_known G y kn = Ok y' -> set_known F (yden y) kn = Ok (yden y') /\ (W y -> kn < 2 ^ 30 -> W y') /\ yk G y' = kn.
Proof.
  intros y kn y' H. unfold y_known in H. unfold set_known. unfold slow_assert in *. destruct (0 <=? kn) eqn:E; [|discriminate]. cbn [bind] in *. injection H as <-. apply Z.leb_le in E.
  split; [reflexivity|]. split; [|reflexivity]. intros (A & B & C & D) Hk. split; [exact A|]. unfold y_limit in *. cbn [yk yn yc]. lia.
Qed.
Lemma new_den : forall n, yden (y_new G n) = new_series n.
Proof. intros n. unfold yden, y_new, new_series. cbn [yc yk yn]. f_equal. generalize (Z.to_nat (relu n)). intros k. induction k; [reflexivity|]. cbn. f_equal. exact IHk. Qed.
Lemma new_W : forall n, n < 2 ^ 30 -> W (y_new G n).
Proof.
  intros n H. assert (L : y_limit G (y_new G n) = relu n) by (unfold y_limit, y_new; cbn [yc]; rewrite repeat_length; unfold relu; lia). unfold W. rewrite L. unfold relu. cbn [y_new yc yk yn].
  split; [|lia]. apply Forall_forall. intros o Ho. apply repeat_spec in Ho. subst o. exact Logic.I.
Qed.
Lemma firstn_dc : forall n c, dc (firstn n c) = firstn n (dc c). Proof. intros. unfold dc. symmetry. apply firstn_map. Qed.
Lemma skipn_dc : forall n c, dc (skipn n c) = skipn n (dc c). Proof. intros. unfold dc. symmetry. apply skipn_map. Qed.
Lemma wc_firstn : forall n c, wc c -> wc (firstn n c). Proof. intros n c H. rewrite Forall_forall in *. intros o Ho. apply H. rewrite <- (firstn_skipn n). apply in_or_app. left. exact Ho. Qed.
Lemma wc_skipn : forall n c, wc c -> wc (skipn n c). Proof. intros n c H. rewrite Forall_forall in *. intros o Ho. apply H. rewrite <- (firstn_skipn n). apply in_or_app. right. exact Ho. Qed.
Lemma low_den : forall x n, yden (y_low G x n) = low F (yden x) n.
Proof. intros x n. unfold y_low, low, yden. cbn [yc yk yn cells known nonzero]. destruct (_ =? 0); [reflexivity|]. rewrite firstn_dc. reflexivity. Qed.
Lemma low_W : forall x n, W x -> W (y_low G x n).
Proof.
  intros x n (A & B & C & D). unfold W, y_low, y_limit, relu in *. cbn [yc yk yn]. destruct (Z.eqb_spec (Z.min (Z.min (Z.max n 0) (yk G x)) (yn G x)) 0).
  - split; [constructor|]. cbn [length]. lia.
  - split; [apply wc_firstn, A|]. rewrite firstn_length. lia.
Qed.
Lemma high_den : forall x n, yden (y_high G x n) = high F (yden x) n.
Proof. intros x n. unfold y_high, high, yden. cbn [yc yk yn cells known nonzero]. destruct (_ =? 0); [reflexivity|]. rewrite firstn_dc, skipn_dc. reflexivity. Qed.
Lemma high_W : forall x n, W x -> W (y_high G x n).
Proof.
  intros x n (A & B & C & D). unfold W, y_high, y_limit, relu in *. cbn [yc yk yn]. destruct (Z.eqb_spec (Z.max (yn G x - Z.max n 0) 0) 0).
  - split; [constructor|]. cbn [length]. lia.
  - split; [apply wc_firstn, wc_skipn, A|]. rewrite firstn_length, skipn_length. lia.
Qed.
Lemma i32 : forall z, - 2 ^ 31 <= z < 2 ^ 31 -> to_i32 z = z. Proof. exact to_i32_id. Qed.

(** ** Arithmetic *)
Lemma put_W : forall y i e c kn nz, y_put G (yc G y) i e = Ok c -> W y -> we e -> 0 <= kn < 2 ^ 30 -> 0 <= nz <= y_limit G y -> W (mkY G c kn nz).
Proof.
  intros y i e c kn nz E (A & B & C & D) He Hk Hn. destruct (put_den _ _ _ _ E) as (_ & L & P). split; [cbn [yc]; auto|]. unfold y_limit in *. cbn [yc yk yn]. rewrite L. lia.
Qed.
Lemma sim_add_scalar : forall x a v, W x -> we a -> v = ev a -> sim (y_add_scalar G x a) W (add_scalar F (yden x) v) yden.
Proof.
  intros x a v Wx Wa ->. unfold y_add_scalar, add_scalar. cbn [yden nonzero cells known]. apply sim_assert; [reflexivity|]. intros _.
  apply sim_lift. intros x0 E0. destruct (rd_den _ _ _ E0) as (R0 & We0 & _). rewrite R0. cbn [bind]. rewrite write_one.
  apply (sim_val _ _ _ _ _ we W (kadd (ev x0) (ev a)) (fun v => c <- set_cell F (dc (yc G x)) 0 v ;; Ok (mkS c (yk G x) (yn G x))) ev yden); [apply sim_add; [apply We0, Wx|exact Wa]|].
  intros s Ws. apply sim_lift. intros c Ec. destruct (put_den _ _ _ _ Ec) as (P & _). rewrite P. cbn [bind].
  apply sim_ret; [|reflexivity]. apply (put_W _ _ _ _ _ _ Ec); auto; apply Wx.
Qed.
Lemma sim_each : forall (Bd : Z -> option exp -> M exp) (bc : Z -> option F -> res F) n i c,
  (forall j o, i <= j < i + Z.of_nat n -> wo o -> sim (Bd j o) we (bc j (option_map ev o)) ev) -> wc c ->
  sim (y_each G n i Bd c) (fun c' => wc c' /\ length c' = length c) (loop_cells F n i bc (dc c)) dc.
Proof.
  intros Bd bc n. induction n as [|n IH]; intros i c HB Hc; cbn [y_each loop_cells]; [apply sim_ret; auto|].
  destruct c as [|o c]; [intros st a st' _ E; discriminate E|]. cbn [dc map]. inversion Hc; subst.
  apply (sim_bind _ _ _ _ _ _ we _ _ _ ev); [apply HB; [lia|assumption]|]. intros v Wv.
  eapply sim_bind; [apply (IH (i + 1)); [intros; apply HB; [lia|assumption]|assumption]|]. intros r [Wr Lr]. apply sim_ret; [|reflexivity]. split; [constructor; assumption|cbn; congruence].
Qed.
Lemma u32_small : forall z, 0 <= z < 2 ^ 32 -> to_u32 z = z. Proof. intros z H. unfold to_u32. apply Z.mod_small. lia. Qed.
Lemma sim_addsub : forall y sign s x, W y -> W x -> 0 <= s < 2 ^ 30 -> sim (y_addsub G y sign 0 s x) W (high_addsub_ldexp F (yden y) sign 0 s (yden x)) yden.
Proof.
  intros y sign s x Wy Wx Hs. unfold y_addsub, high_addsub_ldexp. rewrite yden_limit. cbn [yden known nonzero cells Z.eqb negb].
  pose proof Wy as (Ay & By & Cy & Dy). pose proof Wx as (Ax & Bx & Cx & Dx).
  set (nk := Z.min (yk G y) (yk G x + s)). set (nz := Z.min nk (Z.max (yn G y) (if yn G x =? 0 then 0 else yn G x + s))).
  assert (Hnk : 0 <= nk < 2 ^ 30) by (unfold nk; lia). assert (Hnz : 0 <= nz < 2 ^ 31) by (unfold nz; destruct (yn G x =? 0); lia).
  apply sim_assert; [reflexivity|]. intros Ha. apply andb_prop in Ha. destruct Ha as [_ Ha]. apply Z.leb_le in Ha.
  apply sim_lift. intros xs Ex. destruct (read_den _ _ _ Ex) as (_ & Wxs & Lxs & Rxs). specialize (Wxs Ax).
  apply sim_lift. intros y1 E1. destruct (counts_den _ _ _ _ E1) as (-> & C1 & _). cbn [yc].
  assert (Q : forall c', length c' = length (yc G y) -> set_counts F (mkS (dc c') (yk G y) (yn G y)) nk nz = Ok (yden (mkY G c' nk nz))).
  { intros c' L. unfold set_counts, slow_assert in *. unfold limit in *. cbn [cells yden] in *. rewrite dc_length in *. rewrite L. destruct (to_u64 nz <=? _); [|discriminate C1]. reflexivity. }
  assert (K : sim (y_each G (Z.to_nat nz) 0 (y_addsub_body G xs (yn G y) (yn G x) sign s 0) (yc G y)) (fun c' => wc c' /\ length c' = length (yc G y))
    (def_loop F nz (high_addsub_body F (dc (yc G x)) (yn G y) (yn G x) sign s 0 false) (dc (yc G y))) dc).
  { unfold def_loop. destruct (Z.eqb_spec nz 0) as [->|Nz]; [apply sim_ret; auto|]. rewrite i32 by lia. apply sim_each; [|exact Ay].
    intros j o Hj Wo. unfold y_addsub_body, high_addsub_body. rewrite !i32 by lia.
    apply sim_lift. intros yv Ey. assert (Y : (if j <? yn G y then cell_val F (option_map ev o) else Ok k0) = Ok (ev yv) /\ we yv).
    { destruct (j <? yn G y); [destruct o as [e|]; [|discriminate]; injection Ey as ->; auto|]. injection Ey as <-. split; [reflexivity|apply we_int; lia]. }
    destruct Y as [-> Wyv]. cbn [bind].
    apply sim_lift. intros xv Exv. assert (Y : (if to_u32 (j - s) <? to_u32 (yn G x) then rd F (dc (yc G x)) (j - s) else Ok k0) = Ok (ev xv) /\ we xv).
    { destruct (to_u32 (j - s) <? to_u32 (yn G x)); [|injection Exv as <-; split; [reflexivity|apply we_int; lia]].
      destruct (rd_den _ _ _ Exv) as (_ & Wxv & P & N). rewrite nth_error_map in N. destruct (nth_error xs (Z.to_nat (j - s))) as [e|] eqn:Ne; [|discriminate]. cbn in N. injection N as ->.
      split; [|rewrite Forall_forall in Wxs; apply Wxs; apply nth_error_In in Ne; exact Ne]. unfold rd. destruct (Z.ltb_spec (j - s) 0); [lia|]. unfold dc. rewrite nth_error_map, (Rxs _ _ Ne). reflexivity. }
    destruct Y as [-> Wxv]. cbn [bind]. apply sim_lift. intros [] _.
    apply (sim_val _ _ _ _ _ we we _ (fun v => Ok (kadd (ev yv) v)) ev ev).
    - destruct (sign <? 0); [apply sim_neg; exact Wxv|apply sim_ret; [exact Wxv|reflexivity]].
    - intros w Ww. apply sim_add; assumption. }
  eapply sim_bind; [exact K|]. intros c' [Wc' Lc']. rewrite (Q c' Lc'). apply sim_ret; [|reflexivity]. split; [exact Wc'|]. unfold y_limit in *. cbn [yc yk yn]. rewrite Lc'. lia.
Qed.
Lemma sim_map : forall (f : Z -> exp -> M exp) (fc : Z -> F -> F) y x, W y -> W x ->
  (forall i v, 0 <= i < 2 ^ 30 -> we v -> sim (f i v) we (Ok (fc i (ev v))) ev) -> sim (y_map G f y x) W (map_loop F fc (yden y) (yden x)) yden.
Proof.
  intros f fc y x Wy Wx Hf. unfold y_map, map_loop. pose proof Wy as (Ay & By & Cy & Dy). pose proof Wx as (Ax & Bx & Cx & Dx).
  apply sim_lift. intros y1 E1. destruct (counts_den _ _ _ _ E1) as (-> & C1 & W1). change (known (yden x)) with (yk G x). change (nonzero (yden x)) with (yn G x).
  rewrite C1. cbn [bind]. specialize (W1 Wy ltac:(lia) ltac:(lia)). cbn [yc yk yn yden cells known nonzero].
  assert (K : sim (if yn G x =? 0 then ret G (yc G y) else y_each G (Z.to_nat (to_i32 (yn G x))) 0 (fun i _ => mbind G (lift G (y_rd G (yc G x) i)) (fun v => f i v)) (yc G y))
    (fun c' => wc c' /\ length c' = length (yc G y)) (def_loop F (yn G x) (fun i _ => v <- rd F (dc (yc G x)) i ;; Ok (fc i v)) (dc (yc G y))) dc).
  { unfold def_loop. destruct (yn G x =? 0); [apply sim_ret; auto|]. rewrite i32 by lia. apply sim_each; [|exact Ay]. intros j o Hj _. apply sim_lift. intros v Ev. destruct (rd_den _ _ _ Ev) as (R & Wv & _). rewrite R. cbn [bind]. apply Hf; [lia|apply Wv, Ax]. }
  eapply sim_bind; [exact K|]. intros c' [Wc' Lc']. apply sim_ret; [|reflexivity]. destruct W1 as (_ & W2 & W3 & W4). split; [exact Wc'|]. unfold y_limit in *. cbn [yc yk yn] in *. rewrite Lc'. lia.
Qed.
Lemma sim_derivative : forall y x, W y -> W x -> sim (y_derivative G y x 0) W (set_derivative_shift F (yden y) (yden x) 0) yden.
Proof.
  intros y x Wy Wx. apply sim_map; auto. intros i v Hi Wv. rewrite i32 by lia. apply (sim_mul (mkint (0 + i)) v); [apply we_int; lia|exact Wv].
Qed.
Lemma sim_integral : forall y x, W y -> W x -> sim (y_integral G y x 0) W (set_integral_shift F (yden y) (yden x) 0) yden.
Proof.
  intros y x Wy Wx. apply sim_map; auto. intros i v Hi Wv. rewrite i32 by lia. destruct (Z.eqb_spec (0 + i) 0); [apply sim_ret; [apply we_int; lia|reflexivity]|]. apply sim_div; [exact Wv|lia|lia].
Qed.

(** The product. *)
Definition dop (o : yopnd G) : operand F := match o with YApart xs => Apart F (map ev xs) | YIn n => InDst F n end.
Definition wop (o : yopnd G) : Prop := match o with YApart xs => Forall we xs | YIn _ => True end.
Lemma op_len_den : forall o, op_len F (dop o) = yo_len G o. Proof. intros [xs|n]; [apply map_length|reflexivity]. Qed.
Lemma op_rd_den : forall z o j e, yo_rd G z o j = Ok e -> op_rd F (dc z) (dop o) j = Ok (ev e) /\ (wc z -> wop o -> we e).
Proof.
  intros z [xs|n] j e H; cbn in *.
  - rewrite nth_error_map. destruct (nth_error xs j) as [x|] eqn:E; try discriminate. injection H as <-. split; [reflexivity|]. intros _ Hx. rewrite Forall_forall in Hx. apply Hx. exact (nth_error_In _ _ E).
  - unfold dc. rewrite nth_error_map. destruct (nth_error z j) as [[x|]|] eqn:E; try discriminate. injection H as <-. split; [reflexivity|]. intros Hz _. exact (wc_at _ _ _ Hz E).
Qed.
Lemma sim_terms : forall z ox oy i j, wc z -> wop ox -> wop oy -> sim (y_terms G z ox oy i j) (Forall we) (in_terms F (dc z) (dop ox) (dop oy) i j) (map ev).
Proof.
  intros z ox oy i j Hz Hx Hy. induction j as [|j IH]; cbn [y_terms in_terms]; [apply sim_ret; [constructor|reflexivity]|].
  eapply sim_bind; [exact IH|]. intros ts Wts. rewrite !op_len_den. destruct ((j <? yo_len G ox) && (i - j <? yo_len G oy))%nat; [|apply sim_ret; auto].
  apply sim_lift. intros a Ea. destruct (op_rd_den _ _ _ _ Ea) as [Ra Wa]. rewrite Ra. cbn [bind]. apply sim_lift. intros b Eb. destruct (op_rd_den _ _ _ _ Eb) as [Rb Wb]. rewrite Rb. cbn [bind].
  apply (sim_val _ _ _ _ _ we _ _ (fun v => Ok (map ev ts ++ [v])) ev); [apply sim_mul; auto|]. intros p Wp. apply sim_ret; [apply Forall_app; auto|]. rewrite map_app. reflexivity.
Qed.
Lemma sim_product : forall cnt i ox oy z, wc z -> wop ox -> wop oy ->
  sim (y_product G lr cnt i ox oy z) (fun c' => wc c' /\ length c' = length z) (in_loop F cnt i (dop ox) (dop oy) (dc z)) dc.
Proof.
  induction cnt as [|cnt IH]; intros i ox oy z Hz Hx Hy; cbn [y_product in_loop]; [apply sim_ret; auto|].
  eapply sim_bind; [apply sim_terms; assumption|]. intros ts Wts.
  apply (sim_val _ _ _ _ _ we _ _ (fun v => z' <- set_cell F (dc z) i v ;; in_loop F cnt (S i) (dop ox) (dop oy) z') ev); [apply sim_sum; exact Wts|]. intros t Wt.
  apply sim_lift. intros z' Ez. destruct (put_den _ _ _ _ Ez) as (P & L & Wz). rewrite P. cbn [bind]. eapply sim_weaken; [apply IH; auto|]. intros c' [A B]. split; [exact A|congruence].
Qed.
Lemma opnd_den : forall o w nz p, y_opnd G o w nz = Ok p -> opnd F (option_map yden o) (yden w) nz = Ok (dop p) /\ (wc (yc G w) -> wop p).
Proof.
  intros o w nz p H. unfold y_opnd in H. unfold opnd, low_span. cbn [yden nonzero cells]. destruct o as [o|]; cbn [option_map].
  - destruct (y_read G _ (yc G w)) as [xs| |] eqn:E; try discriminate. injection H as <-. destruct (read_den _ _ _ E) as (R & Wr & _). rewrite R. auto.
  - injection H as <-. split; [reflexivity|exact (fun _ => Logic.I)].
Qed.
Definition Wopt (o : option yser) : Prop := match o with Some y => W y | None => True end.
Lemma sim_mul_s : forall z ox oy, W z -> Wopt ox -> Wopt oy -> sim (y_mul G lr z ox oy) W (set_mul_in F (yden z) (option_map yden ox) (option_map yden oy)) yden.
Proof.
  intros z ox oy Wz Wx Wy. unfold y_mul, set_mul_in.
  set (x := match ox with Some x => x | None => z end). set (y := match oy with Some y => y | None => z end).
  replace (match option_map yden ox with Some x => x | None => yden z end) with (yden x) by (unfold x; destruct ox; reflexivity).
  replace (match option_map yden oy with Some y => y | None => yden z end) with (yden y) by (unfold y; destruct oy; reflexivity).
  assert (Vx : W x) by (unfold x; destruct ox; assumption). assert (Vy : W y) by (unfold y; destruct oy; assumption). clearbody x y.
  pose proof Vx as (Ax & Bx & Cx & Dx). pose proof Vy as (Ay & By & Cy & Dy). cbn zeta. change (known (yden x)) with (yk G x). change (known (yden y)) with (yk G y). change (nonzero (yden x)) with (yn G x). change (nonzero (yden y)) with (yn G y).
  set (nk := Z.min (yk G x) (yk G y)). set (nz := Z.min nk (relu (yn G x + yn G y - 1))).
  assert (Hnk : 0 <= nk < 2 ^ 30) by (unfold nk; lia). assert (Hnz : 0 <= nz < 2 ^ 32) by (unfold nz, relu; lia). clearbody nk nz.
  apply sim_lift. intros z1 E1. destruct (counts_den _ _ _ _ E1) as (-> & C1 & W1). rewrite C1. cbn [bind]. specialize (W1 Wz Hnk Hnz).
  apply sim_lift. intros px Ep. destruct (opnd_den _ _ _ _ Ep) as [P1 P2]. rewrite P1. cbn [bind].
  apply sim_lift. intros py Eq. destruct (opnd_den _ _ _ _ Eq) as [Q1 Q2]. rewrite Q1. cbn [bind yc yden cells].
  destruct Wz as (Az & _). eapply sim_bind; [apply sim_product; auto|]. intros c' [Wc' Lc']. apply sim_ret; [|reflexivity].
  destruct W1 as (_ & W2 & W3 & W4). split; [exact Wc'|]. unfold y_limit in *. cbn [yc yk yn] in *. rewrite Lc'. lia.
Qed.

(** ** The algorithms *)
Lemma sim_newton_loop : forall A B (step : Z -> Z -> bool -> A -> M A) (stepc : Z -> Z -> bool -> B -> res B) (WA : A -> Prop) (d : A -> B) n,
  1 <= n -> (forall m0 m r a, 0 <= m0 <= n -> 0 <= m <= n -> WA a -> sim (step m0 m r a) WA (stepc m0 m r (d a)) d) ->
  forall cnt n0 a, 0 <= n0 <= n -> WA a -> sim (y_newton_loop G step n cnt n0 a) WA (newton_loop stepc n cnt n0 (d a)) d.
Proof.
  intros A B step stepc WA d n Hn Hs cnt. induction cnt as [|cnt IH]; intros n0 a Hn0 Wa; cbn [y_newton_loop newton_loop]; [apply sim_ret; auto|].
  set (k := Z.shiftr (Z.of_nat cnt) 1). set (m := Z.shiftr (n + Z.shiftl 1 k - 1) k).
  assert (Hm : 0 <= m <= n).
  { assert (0 <= k) by (unfold k; apply Z.shiftr_nonneg; lia). assert (0 < 2 ^ k) by (apply Z.pow_pos_nonneg; lia). unfold m. rewrite Z.shiftl_mul_pow2, Z.mul_1_l, Z.shiftr_div_pow2 by assumption. split; [apply Z.div_pos; lia|].
    apply Z.lt_succ_r. apply Z.div_lt_upper_bound; [assumption|]. nia. }
  eapply sim_bind; [apply Hs; auto|]. intros a' Wa'. apply IH; [destruct (negb _); assumption|exact Wa'].
Qed.
Lemma sim_newton : forall A B (step : Z -> Z -> bool -> A -> M A) (stepc : Z -> Z -> bool -> B -> res B) (WA : A -> Prop) (d : A -> B) n0 n a,
  (forall m0 m r a, 0 <= m0 <= n -> 0 <= m <= n -> WA a -> sim (step m0 m r a) WA (stepc m0 m r (d a)) d) -> WA a ->
  sim (y_newton G n0 n step a) WA (newton_iterate n0 n stepc (d a)) d.
Proof.
  intros A B step stepc WA d n0 n a Hs Wa. unfold y_newton, newton_iterate. destruct (Z.leb_spec n n0); [apply sim_ret; auto|].
  apply sim_assert; [reflexivity|]. intros Hp. apply Z.ltb_lt in Hp. apply sim_lift. intros k ->. cbn [bind]. apply sim_newton_loop; auto; lia.
Qed.
Lemma base_sim : forall f y x v, W y -> W x -> (forall e, we e -> sim (f e) we (Ok (v (ev e))) ev) ->
  sim (y_base G f y x) (fun r => W r /\ yk G r = 1) (y1 <- set_counts F (yden y) 1 1 ;; x0 <- (if nonzero (yden x) =? 0 then Ok k0 else rd F (cells (yden x)) 0) ;; c <- write_cells F [v x0] (cells y1) ;; Ok (mkS c 1 1)) yden.
Proof.
  intros f y x v Wy Wx Hf. unfold y_base. apply sim_lift. intros y1 E1. destruct (counts_den _ _ _ _ E1) as (-> & C1 & W1). rewrite C1. cbn [bind]. specialize (W1 Wy ltac:(lia) ltac:(lia)).
  apply sim_lift. intros x0 E0. assert (Q : (if nonzero (yden x) =? 0 then Ok k0 else rd F (cells (yden x)) 0) = Ok (ev x0) /\ we x0).
  { cbn [yden nonzero cells]. destruct (yn G x =? 0); [injection E0 as <-; split; [reflexivity|apply we_int; lia]|]. destruct (rd_den _ _ _ E0) as (R & Wr & _). rewrite R. split; [reflexivity|apply Wr, Wx]. }
  destruct Q as [-> Wx0]. cbn [bind]. rewrite write_one. cbn [yden cells yc].
  apply (sim_val _ _ _ _ _ we _ _ (fun v => c <- set_cell F (dc (yc G y)) 0 v ;; Ok (mkS c 1 1)) ev); [apply Hf, Wx0|]. intros w Ww.
  apply sim_lift. intros c Ec. destruct (put_den _ _ _ _ Ec) as (P & L & _). rewrite P. cbn [bind]. apply sim_ret; [|reflexivity]. split; [|reflexivity].
  apply (put_W y _ _ _ _ _ Ec); auto; [lia|]. destruct W1 as (_ & _ & W3 & _). unfold y_limit in *. cbn [yc yn] in W3. lia.
Qed.
Lemma sim_inv_base : forall y x, W y -> W x -> sim (y_inv_base G y x) (fun r => W r /\ yk G r = 1) (simple_inv_base F (yden y) (yden x)) yden.
Proof. intros y x Wy Wx. apply (base_sim _ y x kinv Wy Wx). exact sim_inv. Qed.
Lemma sim_exp_base : forall y x, W y -> W x -> sim (y_exp_base G y x) (fun r => W r /\ yk G r = 1) (simple_exp_base F (yden y) (yden x)) yden.
Proof.
  intros y x Wy Wx. apply (base_sim _ y x (fun _ => k1) Wy Wx). intros e _. apply sim_ret; [apply we_int; lia|]. f_equal. symmetry. change (kofZ (F := F) 1 = k1). cbn. apply kofnat_1.
Qed.
Definition W2 (p : yser * yser) : Prop := W (fst p) /\ W (snd p).
Definition yden2 (p : yser * yser) : series F * series F := (yden (fst p), yden (snd p)).
Lemma sim_inv_step : forall x m0 m r p, W x -> 0 <= m0 < 2 ^ 30 -> 0 <= m < 2 ^ 30 -> W2 p -> sim (y_inv_step G lr x m0 m r p) W2 (gen_inv_step F (yden x) m0 m r (yden2 p)) yden2.
Proof.
  intros x m0 m r [y dy] Wx Hm0 Hm [Wy Wdy]. unfold y_inv_step, gen_inv_step, yden2. cbn [fst snd] in *.
  apply sim_lift. intros y1 E1. destruct (known_den _ _ _ E1) as (K1 & W1 & _). rewrite K1. cbn [bind]. specialize (W1 Wy (proj2 Hm)).
  eapply sim_bind; [apply (sim_mul_s dy (Some x) (Some y1)); assumption|]. intros d1 Wd1.
  eapply sim_bind; [apply (sim_add_scalar d1 (mkint (- 1)) (kofZ (- 1)) Wd1); [apply we_int; lia|reflexivity]|]. intros d2 Wd2.
  eapply sim_bind; [apply (sim_mul_s d2 None (Some y1)); [assumption|exact Logic.I|assumption]|]. intros d3 Wd3.
  rewrite <- high_den. eapply sim_bind; [apply (sim_addsub y1 (-1) m0 (y_high G d3 m0)); [assumption|apply high_W; assumption|lia]|]. intros y2 Wy2.
  apply sim_ret; [split; assumption|reflexivity].
Qed.
Lemma unknown_W : forall y, W y -> W (y_unknown G y).
Proof. intros y (A & B & C & D). unfold W, y_unknown, y_limit in *. cbn [yc yk yn]. split; [exact A|]. lia. Qed.
Lemma sim_inv_s : forall y x, W y -> W x -> sim (y_inv G lr y x) W (gen_set_inv F (yden y) (yden x)) yden.
Proof.
  intros y x Wy Wx. unfold y_inv, gen_set_inv. change (known (yden x)) with (yk G x). destruct (yk G x =? 0); [apply sim_ret; [apply unknown_W, Wy|reflexivity]|].
  apply sim_assert; [reflexivity|]. intros _. eapply sim_bind; [apply sim_inv_base; assumption|]. intros y1 [W1 _]. change (known (yden y1)) with (yk G y1). rewrite <- new_den.
  pose proof Wx as (_ & Bx & _).
  eapply sim_bind; [apply (sim_newton _ _ (y_inv_step G lr x) (gen_inv_step F (yden x)) W2 yden2 (yk G y1) (yk G x) (y1, y_new G (yk G x)))|].
  - intros m0 m r a H0 H1 Wa. apply sim_inv_step; auto; lia.
  - split; [exact W1|apply new_W; lia].
  - intros p [Wp _]. apply sim_ret; [exact Wp|reflexivity].
Qed.
Lemma sim_div_s : forall y a b, W y -> W a -> W b -> sim (y_div G lr y a b) W (gen_set_div F (yden y) (yden a) (yden b)) yden.
Proof.
  intros y a b Wy Wa Wb. unfold y_div, gen_set_div. change (known (yden a)) with (yk G a). change (known (yden b)) with (yk G b). cbn zeta. set (n := Z.min (yk G a) (yk G b)).
  assert (Hn : n < 2 ^ 30) by (destruct Wa as (_ & ? & _); unfold n; lia). pose proof (new_W n Hn) as Wn. rewrite <- low_den, <- new_den.
  eapply sim_bind; [apply sim_inv_s; [exact Wn|apply low_W, Wb]|]. intros i Wi.
  eapply sim_bind; [apply (sim_mul_s y (Some a) (Some i)); assumption|]. intros y1 W1.
  eapply sim_bind; [apply (sim_mul_s (y_new G n) (Some b) (Some y1)); assumption|]. intros d1 Wd1.
  eapply sim_bind; [apply (sim_addsub d1 (-1) 0 a); [assumption|assumption|lia]|]. intros d2 Wd2.
  eapply sim_bind; [apply (sim_mul_s d2 None (Some i)); [assumption|exact Logic.I|assumption]|]. intros d3 Wd3.
  apply (sim_addsub y1 (-1) 0 d3); [assumption|assumption|lia].
Qed.
Lemma sim_log_s : forall y x, W y -> W x -> sim (y_log G lr y x) W (gen_set_log F (yden y) (yden x)) yden.
Proof.
  intros y x Wy Wx. unfold y_log, gen_set_log. change (known (yden x)) with (yk G x). destruct (yk G x =? 0); [apply sim_ret; [apply unknown_W, Wy|reflexivity]|].
  apply sim_assert; [reflexivity|]. intros _. rewrite <- new_den. pose proof Wx as (_ & Bx & _).
  eapply sim_bind; [apply sim_derivative; [apply new_W; lia|exact Wx]|]. intros dx Wdx. eapply sim_bind; [apply sim_div_s; assumption|]. intros y1 W1. apply sim_integral; assumption.
Qed.
Lemma sim_exp_step : forall x m0 m r p, W x -> 0 <= m0 < 2 ^ 30 -> 0 <= m < 2 ^ 30 -> W2 p -> sim (y_exp_step G lr x m0 m r p) W2 (gen_exp_step F (yden x) m0 m r (yden2 p)) yden2.
Proof.
  intros x m0 m r [y dy] Wx Hm0 Hm [Wy Wdy]. unfold y_exp_step, gen_exp_step, yden2. cbn [fst snd] in *.
  apply sim_lift. intros y1 E1. destruct (known_den _ _ _ E1) as (K1 & W1 & _). rewrite K1. cbn [bind]. specialize (W1 Wy (proj2 Hm)).
  eapply sim_bind; [apply sim_log_s; assumption|]. intros d1 Wd1.
  eapply sim_bind; [apply (sim_addsub d1 (-1) 0 x); [assumption|assumption|lia]|]. intros d2 Wd2.
  eapply sim_bind; [apply (sim_mul_s d2 (Some y1) None); [assumption|assumption|exact Logic.I]|]. intros d3 Wd3.
  rewrite <- high_den. eapply sim_bind; [apply (sim_addsub y1 (-1) m0 (y_high G d3 m0)); [assumption|apply high_W; assumption|lia]|]. intros y2 Wy2.
  apply sim_ret; [split; assumption|reflexivity].
Qed.
Lemma sim_exp_s : forall y x, W y -> W x -> sim (y_exp G lr y x) W (gen_set_exp F (yden y) (yden x)) yden.
Proof.
  intros y x Wy Wx. unfold y_exp, gen_set_exp. change (known (yden x)) with (yk G x). destruct (yk G x =? 0); [apply sim_ret; [apply unknown_W, Wy|reflexivity]|].
  eapply sim_bind; [apply sim_exp_base; assumption|]. intros y1 [W1 _]. change (known (yden y1)) with (yk G y1). rewrite <- new_den.
  pose proof Wx as (_ & Bx & _).
  eapply sim_bind; [apply (sim_newton _ _ (y_exp_step G lr x) (gen_exp_step F (yden x)) W2 yden2 (yk G y1) (yk G x) (y1, y_new G (yk G x)))|].
  - intros m0 m r a H0 H1 Wa. apply sim_exp_step; auto; lia.
  - split; [exact W1|apply new_W; lia].
  - intros p [Wp _]. apply sim_ret; [exact Wp|reflexivity].
Qed.
Lemma sim_of_inv : forall n x, W x -> n < 2 ^ 30 -> sim (of_inv G lr n x) W (gen_inv_n F n (yden x)) yden.
Proof.
  intros n x Wx Hn. unfold of_inv, gen_inv_n. apply sim_lift. intros x0 E0. destruct (rd_den _ _ _ E0) as (R0 & W0 & _). cbn [yden cells]. rewrite R0. cbn [bind].
  apply (sim_val _ _ _ _ _ we _ _ (fun v => r <- set_scalar F (new_series n) n v ;; rx <- set_mul_in F (new_series n) (Some r) (Some (yden x)) ;; inv_rx <- gen_set_inv F (new_series n) rx ;; set_mul_in F (new_series n) (Some r) (Some inv_rx)) ev);
    [apply sim_inv; apply W0, Wx|]. intros i Wi. pose proof (new_W n Hn) as Wn. rewrite <- new_den.
  apply sim_lift. intros r Er. assert (Q : set_scalar F (yden (y_new G n)) n (ev i) = Ok (yden r) /\ W r).
  { unfold y_scalar in Er. unfold set_scalar. rewrite yden_limit. destruct (slow_assert ((if 0 <? relu n then 1 else 0) <=? y_limit G (y_new G n))) as [[]| |] eqn:Ea; try discriminate. cbn [bind] in *.
    destruct (Z.eqb_spec (relu n) 0) as [Z0|Z0].
    - injection Er as <-. split; [reflexivity|]. destruct Wn as (A & B & C & D). split; [exact A|]. set (t := mkY G _ _ _). change (y_limit G t) with (y_limit G (y_new G n)). change (yk G t) with (relu n). change (yn G t) with 0. lia.
    - destruct (y_put G (yc G (y_new G n)) 0 i) as [c| |] eqn:Ec; try discriminate. injection Er as <-. rewrite write_one. destruct (put_den _ _ _ _ Ec) as (P & _). cbn [yden cells]. rewrite P. split; [reflexivity|].
      assert (Pn : (0 <? relu n) = true) by (apply Z.ltb_lt; unfold relu in *; lia). rewrite Pn in Ea. unfold slow_assert in Ea. destruct (Z.leb_spec 1 (y_limit G (y_new G n))); [|discriminate].
      apply (put_W _ _ _ _ _ _ Ec Wn Wi); unfold relu in *; lia. }
  destruct Q as [-> Wr]. cbn [bind].
  eapply sim_bind; [apply (sim_mul_s (y_new G n) (Some r) (Some x)); assumption|]. intros rx Wrx. eapply sim_bind; [apply sim_inv_s; assumption|]. intros irx Wirx.
  apply (sim_mul_s (y_new G n) (Some r) (Some irx)); assumption.
Qed.
Lemma sim_of_exp : forall n x, W x -> n < 2 ^ 30 -> sim (of_exp G lr n x) W (gen_exp_n F n (yden x)) yden.
Proof. intros n x Wx Hn. unfold of_exp, gen_exp_n. rewrite <- new_den. apply sim_exp_s; [apply new_W, Hn|exact Wx]. Qed.
End Sim.
