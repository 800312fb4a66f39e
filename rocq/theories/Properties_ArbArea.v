(** * C80: the areas of arb_area.cc are enclosed by what is printed

    The area for k is pi times the sum of (1 - i) f_i^2 over i < 2^k for the series f with f(0) = 1 and
    R_k(f) = 1 modulo z^(2^k) ([solves], [area_of] in ArbAreaSpec.v; R_k is [escR] of BottcherMath.v).
    Balls are sets of reals that hold the segment between any two of their members ([convex]); Arb meets the
    contracts [poly_ok] and [more_ok].

    poly.cc:94 has skip_refine = false.  Whether the refined exponential functions still enclose does not
    follow from the contracts (C64_exp_refuted), so for that value [C80_areas] takes it as a hypothesis; for
    skip_refine = true everything follows from the contracts ([C80_areas_skip], [C80_total]). *)
From Coq Require Import ZArith QArith Reals List Bool Lia Lra.
From Verif Require Import Base Field FieldInst FPS AlgoProofs PolyModel PolySpec PolyProofs PolyInst ArbAreaModel ArbAreaSpec ArbExpProofs
  ArbAreaProofs ArbMean ArbSound ArbAreaInst BottcherMath AreaProofs.
Import ListNotations.
Open Scope nat_scope.

(** ** What is enclosed is one number *)
Theorem C80_solution (F : Fld) (k : nat) :
  (exists f : fps F, solves F k f) /\ (forall f f' : fps F, solves F k f -> solves F k f' -> eqn (2 ^ k) f f') /\
  (forall kpi (f f' : fps F), solves F k f -> solves F k f' -> area_of F kpi k f = area_of F kpi k f').
Proof.
  assert (U : forall f f' : fps F, solves F k f -> solves F k f' -> eqn (2 ^ k) f f').
  { intros f f' (H0 & H) (H0' & H'). now apply (escR_unique F f f' k (2 ^ k)). }
  split; [apply solves_ex|]. split; [exact U|]. intros kpi f f' H H'. unfold area_of. f_equal. apply sumto_ext.
  intros i Hi. now rewrite (U f f' H H' i Hi).
Qed.
Print Assumptions C80_solution.

(** ** The printed areas *)
(** Either value of skip_refine, if the two exponential functions enclose. *)
Theorem C80_areas (A : arb_poly) (M : arb_more A) (mem : ball A -> R -> Prop)
    (HA : poly_ok RF ln A mem) (HM : more_ok RF A M mem PI) (HC : convex mem) (skip : bool) (known : list (ball A)) (max_k : nat) :
  exp_sound RF A mem skip -> lpe_sound RF A M mem skip ->
  let r := arb_areas A M skip known max_k in
  (forall k refine mu, In (k, refine, mu) (fst r) -> forall f, solves RF k f -> mem mu (area_of RF PI k f)) /\
  snd r <> UB /\
  (forall g, snd r = Ok g -> map fst (fst r) = flat_map (fun k => [(k, false); (k, true)]) (seq 1 max_k)).
Proof.
  intros He Hl r.
  destruct (areas_sat RF ln A mem HA M PI HM skip True (or_introl Logic.I) (exp_sound_sat RF A mem skip He)
    (lpe_sound_sat RF A M mem skip Hl) known max_k (mean_value_R A mem HC)) as (H1 & H2 & _ & H4).
  split; [|split; [exact H2|exact H4]]. intros k rf mu Hin. rewrite Forall_forall in H1. exact (H1 _ Hin).
Qed.

(** skip_refine = true: from the contracts alone. *)
Theorem C80_areas_skip (A : arb_poly) (M : arb_more A) (mem : ball A -> R -> Prop)
    (HA : poly_ok RF ln A mem) (HM : more_ok RF A M mem PI) (HC : convex mem) (known : list (ball A)) (max_k : nat) : exp_ok RF A mem ->
  let r := arb_areas A M true known max_k in
  (forall k refine mu, In (k, refine, mu) (fst r) -> forall f, solves RF k f -> mem mu (area_of RF PI k f)) /\
  snd r <> UB /\
  (forall g, snd r = Ok g -> map fst (fst r) = flat_map (fun k => [(k, false); (k, true)]) (seq 1 max_k)).
Proof.
  intros He r. pose proof (or_introl Logic.I : allowed RF A mem true True) as Ht.
  destruct (areas_sat RF ln A mem HA M PI HM true True Ht (exp_sat_skip RF A mem true True Ht eq_refl He)
    (lpe_sat_skip RF ln A mem HA M PI HM true True Ht eq_refl He) known max_k (mean_value_R A mem HC)) as (H1 & H2 & _ & H4).
  split; [|split; [exact H2|exact H4]]. intros k rf mu Hin. rewrite Forall_forall in H1. exact (H1 _ Hin).
Qed.

(** If moreover the tests for containing 0 and for overlapping never miss, and the balls of known.h hold the
    areas, nothing is thrown: every area is printed. *)
Theorem C80_total (A : arb_poly) (M : arb_more A) (mem : ball A -> R -> Prop)
    (HA : poly_ok RF ln A mem) (HM : more_ok RF A M mem PI) (HC : convex mem) (known : list (ball A)) (max_k : nat) : exp_ok RF A mem -> tests_ok RF A mem ->
  (forall k c f, nth_error known k = Some c -> solves RF k f -> mem c (area_of RF PI k f)) ->
  let r := arb_areas A M true known max_k in
  (exists g, snd r = Ok g) /\ map fst (fst r) = flat_map (fun k => [(k, false); (k, true)]) (seq 1 max_k).
Proof.
  intros He HT HK r. assert (Ht : allowed RF A mem true False) by (right; auto).
  destruct (areas_sat RF ln A mem HA M PI HM true False Ht (exp_sat_skip RF A mem true False Ht eq_refl He)
    (lpe_sat_skip RF ln A mem HA M PI HM true False Ht eq_refl He) known max_k (mean_value_R A mem HC)) as (H1 & H2 & H3 & H4).
  fold r in H1, H2, H3, H4. destruct (snd r) as [g| |] eqn:E.
  - split; [now exists g|exact (H4 g eq_refl)].
  - exfalso. destruct (H3 eq_refl) as [[]|([[k rf] mu] & c & Hin & Hc & Ho)]. cbn [fst snd] in *.
    rewrite Forall_forall in H1. specialize (H1 _ Hin). cbn [fst snd] in H1.
    destruct (solves_ex RF k) as [f Hf]. destruct HT as [_ HT].
    rewrite (HT mu c (area_of RF PI k f)) in Ho; [discriminate|exact (H1 f Hf)|exact (HK k c f Hc Hf)].
  - now destruct H2.
Qed.
Print Assumptions C80_areas.
Print Assumptions C80_areas_skip.
Print Assumptions C80_total.

(** ** The shifted exponential functions, skip_refine = true *)
Section Sgn.
  Variable F : Fld.
  Add Field FA : (kfield F).
  Lemma fsgn_scale a (v : fps F) : Z.abs a = 1%Z -> feq (fsgn a v) (fscale (kofZ a) v).
  Proof.
    intro Ha. assert (C : a = 1%Z \/ a = (-1)%Z) by lia.
    destruct C as [-> | ->]; intro i; unfold fsgn, fscale, fopp; cbn [Z.ltb Z.compare].
    - change (kofZ (F:=F) 1) with (kofnat (F:=F) 1). cbn [kofnat]. ring.
    - change (kofZ (F:=F) (-1)) with (kopp (kofnat (F:=F) 1)). cbn [kofnat]. ring.
  Qed.
End Sgn.
(** z^-s (exp(a z^s v) - 1) for a = 1 or -1. *)
Theorem C80_expm1 (F : Fld) kln A mem M kpi (HA : poly_ok F kln A mem) (HM : more_ok F A M mem kpi)
    (x : list (ball A)) a s n r (v : fps F) :
  Z.abs a = 1%Z -> (1 <= s)%Z -> encl F A mem x (Z.to_nat n) v -> expm1_shift A M true x a s n = Ok r ->
  encl F A mem r (Z.to_nat n)
    (fhigh (Z.to_nat s) (fsub (fexp (fscale (kofZ a) (fshift (Z.to_nat s) v))) f1)).
Proof.
  intros Ha Hs Hx E.
  pose proof (expm1_sat F kln A mem HA M kpi HM true True (or_introl Logic.I) x a s n v eq_refl Ha Hs Hx) as H. rewrite E in H. cbn in H.
  eapply encl_f; [|exact H]. unfold m1.
  enough (G : feq (fsub (fexp (fsgn a (fshift (Z.to_nat s) v))) f1) (fsub (fexp (fscale (kofZ a) (fshift (Z.to_nat s) v))) f1))
    by (intro i; apply G).
  apply fsub_feq; [|reflexivity]. apply fexp_feq. apply fsgn_scale. exact Ha.
Qed.
Print Assumptions C80_expm1.
(** z^-s log(1 + z^s exp(v)) for v(0) = 0. *)
Theorem C80_log1p_exp (F : Fld) kln A mem M kpi (HA : poly_ok F kln A mem) (HM : more_ok F A M mem kpi)
    (x : list (ball A)) s n r (v : fps F) :
  exp_ok F A mem -> (1 <= s)%Z -> encl F A mem x (Z.to_nat n) v -> v O = 0%K -> log1p_exp_shift A M true x s n = Ok r ->
  encl F A mem r (Z.to_nat n) (fhigh (Z.to_nat s) (flog1p (fshift (Z.to_nat s) (fexp v)))).
Proof.
  intros He Hs Hx Hv E.
  pose proof (lpe_sat_skip F kln A mem HA M kpi HM true True (or_introl Logic.I) eq_refl He x s n v Hs Hx Hv) as H.
  rewrite E in H. exact H.
Qed.
Print Assumptions C80_log1p_exp.
(** Whatever the balls and the switch, no undefined behaviour: each call ends with a result or a thrown check. *)
Theorem C80_no_ub (A : arb_poly) (M : arb_more A) (skip : bool) (x : list (ball A)) (a s n : Z) :
  expm1_shift A M skip x a s n <> UB /\ log1p_exp_shift A M skip x s n <> UB.
Proof.
  split; intro E.
  - pose proof (expm1_fine A M skip x a s n) as H. now rewrite E in H.
  - pose proof (lpe_fine A M skip x s n) as H. now rewrite E in H.
Qed.
Print Assumptions C80_no_ub.

(** Arguments out of range are thrown at, not computed with: a scale other than 1 or -1, or a shift below 1.
    Without terms to compute nothing is looked at. *)
Theorem C80_rejects (A : arb_poly) (M : arb_more A) (skip : bool) (x : list (ball A)) (a s n : Z) :
  ((0 < n)%Z -> Z.abs a <> 1%Z \/ (s < 1)%Z -> expm1_shift A M skip x a s n = Throw) /\
  ((0 < n)%Z -> (s < 1)%Z -> log1p_shift A skip x s n = Throw) /\
  ((n <= 0)%Z -> expm1_shift A M skip x a s n = Ok [] /\ log1p_shift A skip x s n = Ok [] /\ log1p_exp_shift A M skip x s n = Ok []).
Proof.
  split; [|split].
  - intros Hn H. unfold expm1_shift. rewrite (proj2 (Z.leb_gt _ _)) by exact Hn.
    destruct (Z.abs a =? 1)%Z eqn:Ea; [|reflexivity]. apply Z.eqb_eq in Ea. destruct H as [H|H]; [contradiction|].
    cbn [slow_assert bind]. rewrite (proj2 (Z.leb_gt _ _)) by exact H. reflexivity.
  - intros Hn H. unfold log1p_shift. rewrite !(proj2 (Z.leb_gt _ _)) by assumption. reflexivity.
  - intro Hn. unfold expm1_shift, log1p_shift, log1p_exp_shift. rewrite (proj2 (Z.leb_le _ _)) by exact Hn. auto.
Qed.
Print Assumptions C80_rejects.

(** ** The hypotheses are met *)
Definition w3 : Q := 1 # 1000.
Definition KB := kballs w3.
Definition KM : arb_more KB := kmore w3.
Theorem C80_contract : poly_ok RF ln KB bmem /\ more_ok RF KB KM bmem PI /\ exp_ok RF KB bmem /\ convex bmem /\ tests_ok RF KB bmem.
Proof.
  split; [apply balls_ok|]. split; [apply kmore_ok|]. split; [apply kexp_ok|]. split; [exact kconvex|apply ktests].
Qed.
Lemma sound_skip : exp_sound RF KB bmem true /\ lpe_sound RF KB KM bmem true.
Proof.
  destruct C80_contract as (H1 & H2 & H3 & _). split.
  - intros x n r k a E Hk Hx Ha. pose proof (exp_sat_skip RF KB bmem true True (or_introl Logic.I) eq_refl H3 x n k a Hk Hx Ha) as H.
    rewrite E in H. exact H.
  - intros x s n r k a E Hs Hk Hx Ha. eapply encl_le; [exact Hk|].
    exact (C80_log1p_exp RF ln KB bmem KM PI H1 H2 x s n r a H3 Hs Hx Ha E).
Qed.
(** A run to order 8 with balls that widen: six areas are printed, the true ones are in them.  The second ball
    of [known] is checked against the areas of order 2: it holds pi. *)
Example C80_case :
  let r := arb_areas KB KM true [None; Some (3, 1)%Q] 3 in
  (exists g, snd r = Ok g) /\
  map fst (fst r) = [(1, false); (1, true); (2, false); (2, true); (3, false); (3, true)] /\
  (forall f, solves RF 2 f -> bmem (Some (275 # 96, 667332609259 # 1125000000000)%Q) (area_of RF PI 2 f)).
Proof.
  destruct C80_contract as (H1 & H2 & H3 & H4 & H5). cbv zeta.
  destruct (C80_areas KB KM bmem H1 H2 H4 true [None; Some (3, 1)%Q] 3 (proj1 sound_skip) (proj2 sound_skip)) as (E & _).
  split; [eexists; vm_compute; reflexivity|]. split; [vm_compute; reflexivity|].
  apply (E 2 true). vm_compute. auto 10.
Qed.
(** The same by C80_total: the known ball is shown to hold the area of order 2. *)
Example C80_total_case : exists g, snd (arb_areas KB KM true [None; Some (3, 1)%Q] 5) = Ok g.
Proof.
  destruct C80_contract as (H1 & H2 & H3 & H4 & H5).
  apply (C80_total KB KM bmem H1 H2 H4 [None; Some (3, 1)%Q] 5 H3 H5).
  intros k c f Hk Hf. destruct k as [|[|k]]; cbn in Hk.
  - injection Hk as <-. exact Logic.I.
  - injection Hk as <-. 
    destruct (C80_areas KB KM bmem H1 H2 H4 true [] 1 (proj1 sound_skip) (proj2 sound_skip)) as (E & _).
    assert (G : bmem (Some (10 # 3, 2 # 3)%Q) (area_of RF PI 1 f)) by (apply (E 1 true); [vm_compute; auto|exact Hf]).
    apply ends in G. apply ends. unfold low, high, Q2R in *. cbn in *. lra.
  - destruct k; discriminate.
Qed.
(** The program's own setting skip_refine = false, on balls for which the refined exponential functions
    enclose: again six areas, and they enclose. *)
Example C80_keep_case :
  let r := arb_areas (keep w3) (keep_more w3) false [None; Some (3, 1)%Q] 3 in
  (exists g, snd r = Ok g) /\ length (fst r) = 6 /\
  (forall f, solves RF 2 f -> bmem (Some (275 # 96, 667332609259 # 1125000000000)%Q) (area_of RF PI 2 f)).
Proof.
  cbv zeta.
  destruct (C80_areas (keep w3) (keep_more w3) bmem (keep_ok w3) (keep_more_ok w3) kconvex false [None; Some (3, 1)%Q] 3
    (keep_exp w3) (keep_lpe w3)) as (E & _).
  split; [eexists; vm_compute; reflexivity|]. split; [vm_compute; reflexivity|].
  apply (E 2 true). vm_compute. auto 10.
Qed.
(** The program's own setting on the first balls: narrower areas. *)
Example C80_refined_case :
  match fst (arb_areas KB KM false [None; Some (3, 1)%Q] 3) with
  | [_; _; _; _; (3, false, a); (3, true, b)] =>
      a = Some (4111495 # 1572864, 822299 # 1572864)%Q /\ b = Some (4111495 # 1572864, 822299 # 1572864)%Q
  | _ => False
  end.
Proof. vm_compute. auto. Qed.
(** A known ball that does not hold the area is reported after the area is printed. *)
Example C80_throws :
  arb_areas KB KM true [None; Some (7, 1)%Q] 3 = ([(1, false, Some (10 # 3, 2 # 3)%Q)], Throw).
Proof. vm_compute. reflexivity. Qed.
(** exp(-z (1 + z)) - 1 over z, and log(1 + z exp(z)) over z. *)
Example C80_exp_cases :
  expm1_shift KB KM true [bofZ 1; bofZ 1] (-1) 1 3 = Ok [bofZ (-1); Some (-1 # 2, 0)%Q; Some (5 # 6, 0)%Q] /\
  exists a b, log1p_exp_shift KB KM true [bofZ 0; bofZ 1] 1 3 = Ok [bofZ 1; Some (1 # 2, a)%Q; Some (-1 # 6, b)%Q].
Proof. split; [vm_compute; reflexivity|]. do 2 eexists. vm_compute. reflexivity. Qed.
