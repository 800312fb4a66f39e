(** C26-C34 and C62: the Newton-based series functions and the generated base cases.
    Every statement is for an arbitrary multiplication kernel meeting [kernel_ok] and
    arbitrary base cases meeting [bases_ok]; C62 shows the generated base cases do. *)
From Coq Require Import ZArith QArith Qcanon List Bool Lia.
From Verif Require Import Base Field FieldInst FPS SeriesModel SeriesSpec SeriesProofs AlgoProofs CodeletModel
  CodeletProofs SeriesExtra AlgoExtra SeriesExamples.
Import ListNotations.
Open Scope Z_scope.

(** The call succeeds; the destination keeps its capacity and knows exactly n terms. *)
Definition gives_series {F : Fld} (y : series F) (n : Z) (P : fps F -> Prop) (r : res (series F)) : Prop :=
  exists y', r = Ok y' /\ valid y' /\ known y' = n /\ limit y' = limit y /\ P (den y').
Lemma gives_of : forall (F : Fld) (y y' : series F) n (P : fps F -> Prop) r, r = Ok y' -> result y y' n -> P (den y') -> gives_series y n P r.
Proof. intros F y y' n P r E (V & K & L & _) HP. exists y'. rsplit; auto. Qed.

(** C26 *)
Theorem C26_inv : forall (F : Fld) (kern : kernel F) (base : bases F) (y x : series F),
  kernel_ok kern -> bases_ok base -> valid x -> pos x -> (0 < known x -> den x O <> k0) ->
  known x <= 2 ^ 28 -> known x <= limit y ->
  gives_series y (known x) (fun v => eqn (Z.to_nat (known x)) (fmul (den x) v) f1) (set_inv F kern base y x).
Proof.
  intros F kern base y x HK HB Hx Hp H0 Hs Hl.
  destruct (set_inv_ok F kern HK base HB y x Hx Hp H0 Hs Hl) as (y' & E & R & D & _). eapply gives_of; [exact E|exact R|exact D].
Qed.
Print Assumptions C26_inv.
Example C26_instance :
  kernel_ok (ref_kernel QcF) /\ bases_ok (gen_bases QcF) /\
  (let x := qs [1; -1; -1; 0; 0; 0; 0; 0; 0; 0; 0; 0] in
   valid x /\ pos x /\ keqb (den x O) k0 = false /\
   obs (set_inv QcF (ref_kernel QcF) (gen_bases QcF) (new_series 12) x)
   = Ok (ints [1; 1; 2; 3; 5; 8; 13; 21; 34; 55; 89; 144], 12, 12)).
Proof.
  split; [apply ref_kernel_ok|]. split; [apply gen_bases_ok|]. cbv zeta.
  split; [apply qs_valid|]. split; [apply qs_pos|]. split; vm_compute; reflexivity.
Qed.

(** C27 *)
Theorem C27_inv1p : forall (F : Fld) (kern : kernel F) (y x : series F) (s : Z),
  kernel_ok kern -> valid x -> pos x -> 0 < s -> known x <= 2 ^ 28 -> known x <= limit y ->
  gives_series y (known x) (fun v => eqn (Z.to_nat (known x + s))
     (fmul (fadd f1 (fshift (Z.to_nat s) (den x))) (fadd f1 (fshift (Z.to_nat s) v))) f1) (set_inv1p F kern y x s).
Proof.
  intros F kern y x s HK Hx Hp Hs0 Hs Hl.
  destruct (set_inv1p_ok F kern HK y x s Hx Hp Hs0 Hs Hl) as (y' & E & R & D). eapply gives_of; [exact E|exact R|exact D].
Qed.
Print Assumptions C27_inv1p.
Theorem C27_inv1p_rejects : forall (F : Fld) (kern : kernel F) (y x : series F) (s : Z),
  0 < known x -> s <= 0 -> set_inv1p F kern y x s = Throw.
Proof. exact set_inv1p_throws. Qed.
Print Assumptions C27_inv1p_rejects.
(** The known-zero series inverts to 0 mathematically, but the call throws. *)
Theorem C27_inv1p_known_zero_refuted : exists (y x : series QcF) (s : Z),
  valid x /\ 0 < s /\ known x <= limit y /\ set_inv1p QcF (ref_kernel QcF) y x s = Throw.
Proof.
  exists (new_series 8), (qzero 8), 3. split; [apply qzero_valid; lia|].
  split; [lia|]. split; vm_compute; congruence.
Qed.
Print Assumptions C27_inv1p_known_zero_refuted.
Example C27_instance :
  obs (set_inv1p QcF (ref_kernel QcF) (new_series 7) (qs [1; 0; 0; 0; 0; 0; 0]) 2)
  = Ok (ints [-1; 0; 1; 0; -1; 0; 1], 7, 7).
Proof. vm_compute. reflexivity. Qed.

(** C28 *)
Theorem C28_div : forall (F : Fld) (kern : kernel F) (base : bases F) (y a b : series F),
  kernel_ok kern -> bases_ok base -> valid a -> valid b -> pos a -> pos b -> (0 < known b -> den b O <> k0) ->
  known a <= 2 ^ 28 -> known b <= 2 ^ 28 -> Z.min (known a) (known b) <= limit y ->
  gives_series y (Z.min (known a) (known b))
    (fun v => eqn (Z.to_nat (Z.min (known a) (known b))) (fmul (den b) v) (den a)) (set_div F kern base y a b).
Proof.
  intros F kern base y a b HK HB Ha Hb Pa Pb H0 Sa Sb Hl.
  destruct (set_div_ok F kern HK base HB y a b Ha Hb Pa Pb H0 Sa Sb Hl) as (y' & E & R & D & _). eapply gives_of; [exact E|exact R|exact D].
Qed.
Print Assumptions C28_div.
Theorem C28_div_known_zero_refuted : forall (F : Fld) (kern : kernel F) (base : bases F) (y a b : series F),
  kernel_ok kern -> kernel_strict kern -> bases_ok base ->
  valid a -> valid b -> nonzero a = 0 -> nonzero b = known b -> den b O <> k0 ->
  2 <= Z.min (known a) (known b) -> known a <= 2 ^ 28 -> known b <= 2 ^ 28 ->
  Z.min (known a) (known b) <= limit y ->
  set_div F kern base y a b = Throw.
Proof. exact set_div_zero_throws. Qed.
Print Assumptions C28_div_known_zero_refuted.
Example C28_instance :
  obs (set_div QcF (ref_kernel QcF) (gen_bases QcF) (new_series 7) (qs [1; 2; 3; 4; 5; 6; 7]) (qs [2; -2; 0; 0; 0; 0; 0; 0]))
  = Ok ([Some (1 # 2); Some (3 # 2); Some (3 # 1); Some (5 # 1); Some (15 # 2); Some (21 # 2); Some (14 # 1)]%Q, 7, 7) /\
  set_div QcF (ref_kernel QcF) (gen_bases QcF) (new_series 3) (qzero 3) (qs [1; 2; 3]) = Throw.
Proof. split; vm_compute; reflexivity. Qed.

(** C29 *)
Theorem C29_div1p : forall (F : Fld) (kern : kernel F) (y a b : series F) (s : Z),
  kernel_ok kern -> valid a -> valid b -> pos a -> pos b -> 0 < s ->
  known a <= 2 ^ 28 -> known b <= 2 ^ 28 -> Z.min (known a) (known b + s) <= limit y ->
  gives_series y (Z.min (known a) (known b + s))
    (fun v => eqn (Z.to_nat (Z.min (known a) (known b + s)))
       (fmul (fadd f1 (fshift (Z.to_nat s) (den b))) v) (den a)) (set_div1p F kern y a b s).
Proof.
  intros F kern y a b s HK Ha Hb Pa Pb Hs Sa Sb Hl.
  destruct (set_div1p_ok F kern HK y a b s Ha Hb Pa Pb Hs Sa Sb Hl) as (y' & E & R & D). eapply gives_of; [exact E|exact R|exact D].
Qed.
Print Assumptions C29_div1p.
Theorem C29_div1p_rejects : forall (F : Fld) (kern : kernel F) (y a b : series F) (s : Z), s <= 0 ->
  set_div1p F kern y a b s = Throw.
Proof. exact set_div1p_throws. Qed.
Print Assumptions C29_div1p_rejects.
Example C29_instance :
  obs (set_div1p QcF (ref_kernel QcF) (new_series 6) (qs [1; 2; 3; 4; 5; 6]) (qs [1; 0; 0; 0]) 2)
  = Ok (ints [1; 2; 2; 2; 3; 4], 6, 6) /\
  obs (set_div1p QcF (ref_kernel QcF) (new_series 6) (qs [1; 2; 3]) (qs [1; 0]) 5) = Ok (ints [1; 2; 3], 3, 3).
Proof. split; vm_compute; reflexivity. Qed.

(** C30 *)
Theorem C30_log : forall (F : Fld) (kern : kernel F) (base : bases F) (y x : series F),
  kernel_ok kern -> bases_ok base -> valid x -> pos x -> (0 < known x -> den x O = k1) ->
  known x <= 2 ^ 28 -> known x <= limit y ->
  gives_series y (known x) (fun v => eqn (Z.to_nat (known x)) v (flog (den x))) (set_log F kern base y x).
Proof.
  intros F kern base y x HK HB Hx Hp H0 Hs Hl.
  destruct (set_log_gen_ok F kern HK base HB true y x Hx Hp H0 Hs Hl) as (y' & E & R & D & _). eapply gives_of; [exact E|exact R|exact D].
Qed.
Print Assumptions C30_log.
Theorem C30_log_rejects : forall (F : Fld) (kern : kernel F) (base : bases F) (y x : series F),
  valid x -> 0 < known x -> den x O <> k1 -> set_log F kern base y x = Throw.
Proof. exact set_log_throws. Qed.
Print Assumptions C30_log_rejects.
Example C30_instance :
  obs (set_log QcF (ref_kernel QcF) (gen_bases QcF) (new_series 7) (qs [1; 1; 0; 0; 0; 0; 0]))
  = Ok ([Some (0 # 1); Some (1 # 1); Some (-1 # 2); Some (1 # 3); Some (-1 # 4); Some (1 # 5); Some (-1 # 6)]%Q, 7, 7) /\
  set_log QcF (ref_kernel QcF) (gen_bases QcF) (new_series 2) (qs [2; 1]) = Throw.
Proof. split; vm_compute; reflexivity. Qed.

(** C31 *)
Theorem C31_log1p : forall (F : Fld) (kern : kernel F) (y x : series F) (s : Z),
  kernel_ok kern -> valid x -> pos x -> 0 < s <= 2 ^ 28 -> known x <= 2 ^ 28 -> known x <= limit y ->
  gives_series y (known x) (fun v => eqn (Z.to_nat (known x + s))
     (fshift (Z.to_nat s) v) (flog1p (fshift (Z.to_nat s) (den x)))) (set_log1p F kern y x s).
Proof.
  intros F kern y x s HK Hx Hp Hs0 Hs Hl.
  destruct (set_log1p_ok F kern HK y x s Hx Hp (proj1 Hs0) (proj2 Hs0) Hs Hl) as (y' & E & R & D). eapply gives_of; [exact E|exact R|exact D].
Qed.
Print Assumptions C31_log1p.
Theorem C31_log1p_rejects : forall (F : Fld) (kern : kernel F) (y x : series F) (s : Z),
  0 < known x -> s <= 0 -> set_log1p F kern y x s = Throw.
Proof. exact set_log1p_throws. Qed.
Print Assumptions C31_log1p_rejects.
Example C31_instance :
  obs (set_log1p QcF (ref_kernel QcF) (new_series 6) (qs [1; 0; 0; 0; 0; 0]) 1)
  = Ok ([Some (1 # 1); Some (-1 # 2); Some (1 # 3); Some (-1 # 4); Some (1 # 5); Some (-1 # 6)]%Q, 6, 6).
Proof. vm_compute. reflexivity. Qed.

(** C32 *)
Theorem C32_exp : forall (F : Fld) (kern : kernel F) (base : bases F) (y x : series F),
  kernel_ok kern -> bases_ok base -> valid x -> den x O = k0 -> known x <= 2 ^ 28 -> known x <= limit y ->
  gives_series y (known x) (fun v => eqn (Z.to_nat (known x)) v (fexp (den x))) (set_exp F kern base y x).
Proof.
  intros F kern base y x HK HB Hx H0 Hs Hl.
  destruct (set_exp_gen_ok F kern HK base HB true y x Hx H0 Hs Hl) as (y' & E & R & D & _). eapply gives_of; [exact E|exact R|exact D].
Qed.
Print Assumptions C32_exp.
Theorem C32_exp_rejects : forall (F : Fld) (kern : kernel F) (base : bases F) (y x : series F),
  valid x -> 0 < known x -> den x O <> k0 -> set_exp F kern base y x = Throw.
Proof. exact set_exp_throws. Qed.
Print Assumptions C32_exp_rejects.
Example C32_instance :
  obs (set_exp QcF (ref_kernel QcF) (gen_bases QcF) (new_series 7) (qs [0; 1; 0; 0; 0; 0; 0]))
  = Ok ([Some (1 # 1); Some (1 # 1); Some (1 # 2); Some (1 # 6); Some (1 # 24); Some (1 # 120); Some (1 # 720)]%Q, 7, 7) /\
  set_exp QcF (ref_kernel QcF) (gen_bases QcF) (new_series 2) (qs [1; 1]) = Throw.
Proof. split; vm_compute; reflexivity. Qed.

(** C33 *)
Theorem C33_expm1 : forall (F : Fld) (kern : kernel F) (y x : series F) (a s : Z),
  kernel_ok kern -> valid x -> pos x -> a = 1 \/ a = -1 -> 0 < s <= 2 ^ 28 -> known x <= 2 ^ 28 -> known x <= limit y ->
  gives_series y (known x) (fun v => eqn (Z.to_nat (known x + s))
     (fshift (Z.to_nat s) v)
     (fsub (fexp (fun i => kmul (kofZ a) (fshift (Z.to_nat s) (den x) i))) f1)) (set_expm1 F kern y x a s).
Proof.
  intros F kern y x a s HK Hx Hp Ha Hs0 Hs Hl.
  destruct (set_expm1_ok F kern HK y x a s Hx Hp ltac:(lia) (proj1 Hs0) (proj2 Hs0) Hs Hl) as (y' & E & R & D).
  eapply gives_of; [exact E|exact R|]. intros i Hi. rewrite (D i Hi). unfold fsub.
  f_equal. apply fexp_f. intros j. unfold fsgn. apply (sgn_kofZ F a _ _ Ha).
Qed.
Print Assumptions C33_expm1.
Theorem C33_expm1_rejects : forall (F : Fld) (kern : kernel F) (y x : series F) (a s : Z),
  Z.abs a <> 1 \/ s <= 0 -> set_expm1 F kern y x a s = Throw.
Proof. exact set_expm1_throws. Qed.
Print Assumptions C33_expm1_rejects.
Example C33_instance :
  obs (set_expm1 QcF (ref_kernel QcF) (new_series 6) (qs [1; 0; 0; 0; 0; 0]) (-1) 1)
  = Ok ([Some (-1 # 1); Some (1 # 2); Some (-1 # 6); Some (1 # 24); Some (-1 # 120); Some (1 # 720)]%Q, 6, 6).
Proof. vm_compute. reflexivity. Qed.

(** C34 *)
Theorem C34_log1p_exp : forall (F : Fld) (kern : kernel F) (base : bases F) (y x : series F) (s : Z),
  kernel_ok kern -> bases_ok base -> valid x -> den x O = k0 -> 0 < s <= 2 ^ 28 -> known x <= 2 ^ 28 -> known x <= limit y ->
  gives_series y (known x) (fun v => eqn (Z.to_nat (known x + s))
     (fshift (Z.to_nat s) v) (flog1p (fshift (Z.to_nat s) (fexp (den x))))) (set_log1p_exp F kern base y x s).
Proof.
  intros F kern base y x s HK HB Hx H0 Hs0 Hs Hl.
  destruct (set_log1p_exp_ok F kern HK base HB y x s Hx H0 (proj1 Hs0) (proj2 Hs0) Hs Hl) as (y' & E & R & D).
  eapply gives_of; [exact E|exact R|exact D].
Qed.
Print Assumptions C34_log1p_exp.
Theorem C34_log1p_exp_rejects : forall (F : Fld) (kern : kernel F) (base : bases F) (y x : series F) (s : Z),
  0 < known x -> s <= 0 \/ (valid x /\ 0 < s /\ den x O <> k0) -> set_log1p_exp F kern base y x s = Throw.
Proof.
  intros F kern base y x s Hk [H|(Hx & Hs & H)];
  [exact (set_log1p_exp_throws F kern base y x s Hk H)|exact (set_log1p_exp_throws0 F kern base y x s Hx Hk Hs H)].
Qed.
Print Assumptions C34_log1p_exp_rejects.
(** log(1 + z e^z) / z *)
Example C34_instance :
  obs (set_log1p_exp QcF (ref_kernel QcF) (gen_bases QcF) (new_series 5) (qs [0; 1; 0; 0; 0]) 1)
  = Ok ([Some (1 # 1); Some (1 # 2); Some (-1 # 6); Some (-1 # 12); Some (3 # 40)]%Q, 5, 5) /\
  obs (set_log1p_exp QcF (ref_kernel QcF) (gen_bases QcF) (new_series 5) (qzero 5) 1)
  = Ok ([Some (1 # 1); Some (-1 # 2); Some (1 # 3); Some (-1 # 4); Some (1 # 5)]%Q, 5, 5).
Proof. split; vm_compute; reflexivity. Qed.

(** C62 (series base cases; the multiplication base cases are in Properties_FFT.v). *)
Theorem C62_inv_base : forall (F : Fld) (y x : series F), valid x -> 0 < nonzero x -> known x <= 2 ^ 28 ->
  den x O <> k0 -> known x <= limit y ->
  gives_series y (Z.min 5 (known x))
    (fun v => eqn (Z.to_nat (Z.min 5 (known x))) (fmul (den x) v) f1) (inv_base (gen_bases F) y x).
Proof.
  intros F y x Hx Hn Hs H0 Hl. destruct (gen_inv_base_k F y x Hx Hn Hs H0 Hl) as (y' & E & V & L & K & N & D).
  exists y'. rsplit; auto.
Qed.
Print Assumptions C62_inv_base.
Theorem C62_exp_base : forall (F : Fld) (y x : series F), valid x -> 0 < known x -> known x <= 2 ^ 28 ->
  den x O = k0 -> known x <= limit y ->
  gives_series y (Z.min 5 (known x))
    (fun v => eqn (Z.to_nat (Z.min 5 (known x))) v (fexp (den x))) (exp_base (gen_bases F) y x).
Proof.
  intros F y x Hx Hn Hs H0 Hl. destruct (gen_exp_base_k F y x Hx Hn Hs H0 Hl) as (y' & E & V & L & K & N & D).
  exists y'. rsplit; auto.
Qed.
Print Assumptions C62_exp_base.
Theorem C62_bases_meet_spec : forall F : Fld, bases_ok (gen_bases F) /\ bases_ok (simple_bases F).
Proof. exact (fun F => conj (gen_bases_ok F) (simple_bases_ok F)). Qed.
Print Assumptions C62_bases_meet_spec.
Example C62_instance :
  obs (inv_base (gen_bases QcF) (new_series 9) (mkS (map (fun a => Some (q a 1)) [2; 1]) 9 2))
  = Ok ([Some (1 # 2); Some (-1 # 4); Some (1 # 8); Some (-1 # 16); Some (1 # 32)]%Q, 5, 5) /\
  obs (exp_base (gen_bases QcF) (new_series 3) (qs [0; 2; 0])) = Ok (ints [1; 2; 2], 3, 3).
Proof. split; vm_compute; reflexivity. Qed.

(** The generator's product writes its output while it still reads its operands
    (codelets.cc:394-404), and series.h lets the output be an operand.  When the output is
    apart from both operands, or agrees with the overwritten operand in all coefficients
    but the last, it is the product; this is what the generated base cases rest on. *)
Theorem C62_product_in_place : forall (F : Fld) (z : series F) ox oy,
  let x := match ox with Some x => x | None => z end in
  let y := match oy with Some y => y | None => z end in
  let n := Z.min (known x) (known y) in
  valid x -> valid y -> 0 < nonzero x -> 0 < nonzero y -> n <= 2 ^ 28 -> n <= limit z ->
  (ox = None -> forall j, Z.of_nat (S j) < n -> fmul (den x) (den y) j = den x j) ->
  (oy = None -> forall j, Z.of_nat (S j) < n -> fmul (den x) (den y) j = den y j) ->
  gives_series z n (fun v => eqn (Z.to_nat n) v (fmul (den x) (den y))) (set_mul_in F z ox oy).
Proof.
  intros F z ox oy x y n Hx Hy Px Py Hs Hl Hox Hoy.
  pose proof (set_mul_in_ok F z ox oy Hx Hy) as Hin.
  change (match ox with Some x0 => x0 | None => z end) with x in Hin.
  change (match oy with Some y0 => y0 | None => z end) with y in Hin.
  fold n in Hin. destruct Hin as (z' & E & V & K & L & N & D); unfold both_pos, small; try lia.
  - intros H j Hj. apply Hox; [exact H|]. lia.
  - intros H j Hj. apply Hoy; [exact H|]. lia.
  - exists z'. rsplit; auto.
Qed.
Print Assumptions C62_product_in_place.
Example C62_product_in_place_instance :
  let z := qs [0; 0; 3; 5] in let y := qs [1; 2; 7; 9] in
  (forall j, Z.of_nat (S j) < 4 -> fmul (den z) (den y) j = den z j) /\
  obs (set_mul_in QcF z None (Some y)) = Ok (ints [0; 0; 3; 11], 4, 4) /\
  obs (set_mul_in QcF z (Some y) None) = Ok (ints [0; 0; 3; 11], 4, 4).
Proof.
  split; [|split; vm_compute; reflexivity].
  intros j Hj. destruct j as [|[|[|j]]]; [vm_compute; reflexivity..|lia].
Qed.

(** Without that agreement the product is wrong, although series.h:271-272 says that
    aliasing is allowed: (1 + z + z^2)^2 written over its operand has 4 for z^2. *)
Theorem C62_aliasing_refuted : exists x z : series QcF, valid x /\ known x = 3 /\ nonzero x = 3 /\
  set_mul_in QcF x None None = Ok z /\ ~ eqn 3 (den z) (fmul (den x) (den x)).
Proof.
  exists (qs [1; 1; 1]). eexists. split; [|split; [reflexivity|split; [reflexivity|split; [vm_compute; reflexivity|]]]].
  - unfold valid, limit. cbn. rsplit; try lia. intros i Hi. destruct i as [|[|[|i]]]; [eexists; reflexivity..|lia].
  - intros H. specialize (H 2%nat ltac:(lia)). vm_compute in H. discriminate.
Qed.
Print Assumptions C62_aliasing_refuted.

Lemma ok_fails : forall (A : Type) (r : res A) (f : A -> bool),
  match r with Ok y => f y | _ => true end = false -> exists y, r = Ok y /\ f y = false.
Proof. intros A r f H. destruct r as [y| |]; try discriminate. exists y. split; [reflexivity|exact H]. Qed.

Definition twelve : series QcF := qs [1; 1; 0; 1; 2; 0; 0; 0; 0; 0; 0; 0].
Definition ten : series QcF := qs [0; 1; 0; 0; 0; 0; 0; 0; 0; 0].
Lemma twelve_wrong : match gen_inv_n QcF 12 twelve with
  | Ok Y => keqb (fmul (den twelve) (den Y) 11%nat) (f1 (F := QcF) 11%nat) | _ => true end = false.
Proof. vm_compute. reflexivity. Qed.
Lemma ten_wrong : match gen_exp_n QcF 10 ten with
  | Ok Y => keqb (den Y 9%nat) (fexp (den ten) 9%nat) | _ => true end = false.
Proof. vm_compute. reflexivity. Qed.
(** The base cases are right because they are short.  Every size is visited twice by the
    Newton iteration, which repairs the first damage; but the same generator asked for
    twelve terms prints a wrong reciprocal, and for ten terms a wrong exponential. *)
Theorem C62_longer_refuted :
  (exists X Y : series QcF, valid X /\ known X = 12 /\ nonzero X = 12 /\ den X O = k1 /\
    gen_inv_n QcF 12 X = Ok Y /\ ~ eqn 12 (fmul (den X) (den Y)) f1) /\
  (exists X Y : series QcF, valid X /\ known X = 10 /\ nonzero X = 10 /\ den X O = k0 /\
    gen_exp_n QcF 10 X = Ok Y /\ ~ eqn 10 (den Y) (fexp (den X))).
Proof.
  split.
  - destruct (ok_fails (series QcF) (gen_inv_n QcF 12 twelve)
      (fun Y => keqb (fmul (den twelve) (den Y) 11%nat) (f1 (F := QcF) 11%nat)) twelve_wrong) as (Y & E & N).
    exists twelve, Y. split; [|split; [reflexivity|split; [reflexivity|split; [vm_compute; reflexivity|split; [exact E|]]]]].
    + unfold valid, limit. cbn. rsplit; try lia. intros i Hi. do 12 (destruct i as [|i]; [eexists; reflexivity|]). lia.
    + intros H. pose proof (H 11%nat ltac:(lia)) as H1. clear - H1 N.
      exact (eq_true_false_abs _ (proj2 (keqb_ok QcF _ _) H1) N).
  - destruct (ok_fails (series QcF) (gen_exp_n QcF 10 ten)
      (fun Y => keqb (den Y 9%nat) (fexp (den ten) 9%nat)) ten_wrong) as (Y & E & N).
    exists ten, Y. split; [|split; [reflexivity|split; [reflexivity|split; [vm_compute; reflexivity|split; [exact E|]]]]].
    + unfold valid, limit. cbn. rsplit; try lia. intros i Hi. do 10 (destruct i as [|i]; [eexists; reflexivity|]). lia.
    + intros H. pose proof (H 9%nat ltac:(lia)) as H1. clear - H1 N.
      exact (eq_true_false_abs _ (proj2 (keqb_ok QcF _ _) H1) N).
Qed.
Print Assumptions C62_longer_refuted.
