(** No operation of poly.cc used by arb_area.cc runs into undefined behaviour, whatever the balls are; and the
    two ways to state that the exponential functions enclose. *)
From Coq Require Import ZArith List Bool Lia.
From Verif Require Import Base Field FPS PolyModel PolySpec PolyProofs ArbAreaModel ArbAreaSpec ArbExpProofs.
Import ListNotations.
Open Scope nat_scope.

Section Ub.
  Variable A : arb_poly.
  Variable M : arb_more A.
  Variable skip : bool.
  Notation P := (list (ball A)).
  Notation fine e := (sat True e (fun _ => True)).
  Lemma fine_ne {X} (e : res X) : e <> UB -> fine e.
  Proof. destruct e; cbn; auto. Qed.
  Lemma fine_bind {X Y} (e : res X) (k : X -> res Y) : fine e -> (forall x, fine (k x)) -> fine (bind e k).
  Proof. destruct e; cbn; auto. Qed.
  Lemma fine_if {X} (b : bool) (e e' : res X) : fine e -> fine e' -> fine (if b then e else e').
  Proof. now destruct b. Qed.
  Lemma fine_assert b : fine (slow_assert b).
  Proof. now destruct b. Qed.
  Lemma div_fine (f g : P) n : fine (div_ A skip f g n).
  Proof. apply fine_ne. unfold div_. destruct (n <=? 0)%Z; [discriminate|]. destruct skip; [discriminate|]. apply divr_ub. Qed.
  Lemma log1p_fine (x : P) s n : fine (log1p_shift A skip x s n).
  Proof.
    unfold log1p_shift. destruct (n <=? 0)%Z; [exact I|]. apply fine_bind; [apply fine_assert|]. intros _.
    apply fine_bind; [apply div_fine|]. intro y. exact I.
  Qed.
  Lemma iterate_fine n (step : Z -> Z -> P -> res P) (y : P) : (1 <= n)%Z -> (forall m0 m y, fine (step m0 m y)) ->
    fine (iterate A n step y).
  Proof.
    intros Hn H. apply (iterate_sat A True (fun _ _ => True)); auto.
  Qed.
  Lemma expm1_delta_fine (x : P) a s (y0 y : P) m0 m : fine (expm1_delta A M skip x a s y0 y m0 m).
  Proof.
    unfold expm1_delta. apply fine_bind; [apply log1p_fine|]. intro t. apply fine_bind; [apply fine_assert|]. intros _. exact I.
  Qed.
  Lemma expm1_fine (x : P) a s n : fine (expm1_shift A M skip x a s n).
  Proof.
    unfold expm1_shift. destruct (n <=? 0)%Z eqn:E; [exact I|]. apply fine_bind; [apply fine_assert|]. intros _.
    apply fine_bind; [apply fine_assert|]. intros _. apply fine_bind.
    - apply iterate_fine; [lia|]. intros m0 m y. apply fine_bind; [apply expm1_delta_fine|]. intro d. exact I.
    - intro y. apply fine_if; [exact I|]. apply fine_bind; [apply expm1_delta_fine|]. intro dy. apply fine_ne. apply intersect_ub. lia.
  Qed.
  Lemma exp_fine (x : P) n : fine (exp_ A skip x n).
  Proof. apply fine_ne. apply exp_ub. Qed.
  Lemma lpe_delta_fine (x : P) s (y : P) m0 m : fine (lpe_delta A M skip x s y m0 m).
  Proof.
    unfold lpe_delta. apply fine_bind; [apply expm1_fine|]. intro dy. apply fine_bind; [apply exp_fine|]. intro e.
    apply fine_bind; [apply fine_assert|]. intros _. exact I.
  Qed.
  Lemma lpe_fine (x : P) s n : fine (log1p_exp_shift A M skip x s n).
  Proof.
    unfold log1p_exp_shift. destruct (n <=? 0)%Z eqn:E; [exact I|]. apply fine_bind.
    - apply iterate_fine; [lia|]. intros m0 m y. apply fine_bind; [apply lpe_delta_fine|]. intro d. exact I.
    - intro y. apply fine_if; [exact I|]. apply fine_bind; [apply lpe_delta_fine|]. intro dy.
      apply fine_bind; [apply exp_fine|]. intro e. apply fine_ne. apply intersect_ub. lia.
  Qed.
End Ub.

Section Sound.
  Variable F : Fld.
  Variable A : arb_poly.
  Variable M : arb_more A.
  Variable mem : ball A -> K F -> Prop.
  Variable skip : bool.
  Lemma exp_sound_sat : exp_sound F A mem skip -> exp_sat F A mem skip True.
  Proof.
    intros H x n k a Hk Hx Ha. pose proof (exp_fine A skip x n) as N.
    destruct (exp_ A skip x n) as [r| |] eqn:E; cbn in *; auto. apply (H x n); auto.
  Qed.
  Lemma lpe_sound_sat : lpe_sound F A M mem skip -> lpe_sat F A mem M skip True.
  Proof.
    intros H x s n a Hs Hx Ha. pose proof (lpe_fine A M skip x s n) as N.
    destruct (log1p_exp_shift A M skip x s n) as [r| |] eqn:E; cbn in *; auto. apply (H x s n); auto.
  Qed.
End Sound.
