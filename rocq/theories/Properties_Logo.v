(** * C67, C68: compositing, the canvas and the bytes of the image *)
From Coq Require Import ZArith QArith Qround List Bool Lia Lqa Permutation.
From Verif Require Import Base LoopsModel LogoModel LogoProofs LogoCanvas.
Import ListNotations.
Open Scope Z_scope.

(** ** C67: compositing *)
Theorem C67_over_valid : forall a b, valid a -> valid b -> valid (over a b).
Proof. exact over_valid. Qed.
Print Assumptions C67_over_valid.

(** The alpha that results, and colours between those of the inputs unless nothing is visible. *)
Theorem C67_over_alpha : forall a b, (alpha (over a b) == 1 - (1 - alpha a) * (1 - alpha b))%Q.
Proof. intros a b. rewrite over_eq. cbn [alpha]. ring. Qed.
Print Assumptions C67_over_alpha.
Theorem C67_over_between : forall a b l h,
  unit_q (alpha a) -> unit_q (alpha b) -> ~ (alpha (over a b) == 0)%Q ->
  ((l <= red a <= h -> l <= red b <= h -> l <= red (over a b) <= h) /\
   (l <= green a <= h -> l <= green b <= h -> l <= green (over a b) <= h) /\
   (l <= blue a <= h -> l <= blue b <= h -> l <= blue (over a b) <= h))%Q.
Proof. exact over_between. Qed.
Print Assumptions C67_over_between.

(** clear is neutral on both sides; an opaque colour hides what is below; layers can be merged. *)
Theorem C67_clear : forall a, looks (over clear a) a /\ looks (over a clear) a.
Proof.
  intro a. split; [apply looks_clear|]. split.
  - rewrite over_eq. cbn [alpha clear]. ring.
  - intro N. apply over_clear_r. intro E. apply N. rewrite over_eq. cbn [alpha clear]. rewrite E. ring.
Qed.
Print Assumptions C67_clear.
Theorem C67_opaque : forall a b, (alpha a == 1)%Q -> ceq (over a b) a.
Proof. exact over_opaque. Qed.
Print Assumptions C67_opaque.
Theorem C67_assoc : forall a b c, valid a -> valid b -> valid c ->
  ceq (over (over a b) c) (over a (over b c)).
Proof. exact over_assoc. Qed.
Print Assumptions C67_assoc.

Theorem C67_average_valid : forall cs, cs <> [] -> Forall valid cs -> valid (average cs).
Proof. exact average_valid. Qed.
Print Assumptions C67_average_valid.
Theorem C67_average_between : forall cs l h,
  Forall (fun c => unit_q (alpha c)) cs -> ~ (alpha (average cs) == 0)%Q ->
  (Forall (fun c => l <= red c <= h) cs -> l <= red (average cs) <= h)%Q /\
  (Forall (fun c => l <= green c <= h) cs -> l <= green (average cs) <= h)%Q /\
  (Forall (fun c => l <= blue c <= h) cs -> l <= blue (average cs) <= h)%Q.
Proof. exact average_between. Qed.
Print Assumptions C67_average_between.
Theorem C67_average_repeat : forall c n, (0 < n)%nat -> ~ (alpha c == 0)%Q -> ceq (average (repeat c n)) c.
Proof. exact average_repeat. Qed.
Print Assumptions C67_average_repeat.
Theorem C67_average_order : forall cs cs', Permutation cs cs' -> ceq (average cs) (average cs').
Proof. exact average_perm. Qed.
Print Assumptions C67_average_order.

(** Half transparent red over opaque blue, and their average. *)
Definition half_red : color := mkC 1 0 0 (1 # 2).
Definition full_blue : color := mkC 0 0 1 1.
Example C67_example : valid half_red /\ valid full_blue /\
  ceq (over half_red full_blue) (mkC (1 # 2) 0 (1 # 2) 1) /\
  ceq (average [half_red; full_blue]) (mkC (1 # 3) 0 (2 # 3) (3 # 4)).
Proof.
  split; [|split; [|split]].
  - unfold valid, unit_q. cbn. lra.
  - unfold valid, unit_q. cbn. lra.
  - unfold ceq. vm_compute. auto.
  - unfold ceq. vm_compute. auto.
Qed.

(** ** C68: the canvas *)

(** index is defined on the samples of the canvas and is a bijection onto the cells of the arrays. *)
Theorem C68_index : forall c, fits c ->
  (forall i j s, on_canvas c i j s ->
     exists I, index c i j s = Ok I /\ 0 <= I < width c * height c * samples c) /\
  (forall i j s i' j' s', on_canvas c i j s -> on_canvas c i' j' s' ->
     index c i j s = index c i' j' s' -> i = i' /\ j = j' /\ s = s') /\
  (forall I, 0 <= I < width c * height c * samples c ->
     exists i j s, on_canvas c i j s /\ index c i j s = Ok I).
Proof.
  intros c F. split; [|split].
  - intros i j s O. exists (place c i j s). split; [now apply index_ok|]. apply (place_bounds c i j s O).
  - intros i j s i' j' s' O O' E. rewrite !index_ok in E by assumption.
    injection E as E. now apply (place_inj c).
  - intros I B. destruct F as (W & H & S & F). destruct (place_onto c I W H S B) as (i & j & s & O & <-).
    exists i, j, s. split; [exact O|]. apply index_ok; [|exact O]. repeat split; tauto.
Qed.
Print Assumptions C68_index.
(** The samples of a pixel are next to each other (what write relies on). *)
Theorem C68_samples : forall c i j s, fits c -> on_canvas c i j s ->
  exists I, index c i j 0 = Ok I /\ index c i j s = Ok (I + s).
Proof.
  intros c i j s F O. exists (place c i j 0). rewrite !index_ok; auto.
  - split; [reflexivity|]. f_equal. unfold place. lia.
  - unfold on_canvas in *. lia.
Qed.
Print Assumptions C68_samples.

(** The constructor: the smaller side has [size] pixels, pixels are square and tile the box, which
    contains the box that was asked for. *)
Theorem C68_canvas : forall b size samps c,
  (fst (lo b) < fst (hi b) /\ snd (lo b) < snd (hi b))%Q -> 1 <= size ->
  make_canvas b size samps = Ok c ->
  samples c = samps /\ (0 < dx c)%Q /\ (inv_dx c * dx c == 1)%Q /\
  Z.min (width c) (height c) = size /\
  (fst (hi (cbox c)) - fst (lo (cbox c)) == dx c * inject_Z (width c))%Q /\
  (snd (hi (cbox c)) - snd (lo (cbox c)) == dx c * inject_Z (height c))%Q /\
  in_box (cbox c) (lo b) /\ in_box (cbox c) (hi b).
Proof. intros b size samps c Hb Hs. now apply make_canvas_ok. Qed.
Print Assumptions C68_canvas.

(** Every sample point is written, in its own pixel. *)
Theorem C68_points : forall c uniform, fits c -> (0 < dx c)%Q -> (forall n, (0 <= uniform n < 1)%Q) ->
  exists points z, make_points c uniform = Ok points /\
    holds c points (fun i j s => Some (z i j s)) /\
    forall i j s, on_canvas c i j s -> in_pixel c i j (z i j s).
Proof. intros c uniform F D U. now apply make_points_ok. Qed.
Print Assumptions C68_points.

(** render, for every box whose corners are within reach of an int, on a canvas whose colours were
    written: it is defined, keeps the size of the array, and composites f over exactly the samples of
    the pixels in a rectangle, which includes every sample that lies in the box. *)
Theorem C68_render : forall c points z b f colors g range, fits c ->
  holds c points (fun i j s => Some (z i j s)) ->
  holds c colors (fun i j s => Some (g i j s)) ->
  pixel_range c b = Ok range ->
  exists colors' i0 i1 j0 j1, render c points b f colors = Ok colors' /\
    holds c colors' (fun i j s => Some
      (if (i0 <=? i) && (i <? i1) && (j0 <=? j) && (j <? j1) then over (f (z i j s)) (g i j s) else g i j s)) /\
    ((0 < dx c)%Q -> (inv_dx c * dx c == 1)%Q ->
     (forall i j s, on_canvas c i j s -> in_pixel c i j (z i j s)) ->
     forall i j s, on_canvas c i j s -> in_box b (z i j s) -> i0 <= i < i1 /\ j0 <= j < j1).
Proof.
  intros c points z b f colors g (((i0 & i1) & j0) & j1) F HP HC ER.
  destruct (render_ok c F points z HP b f colors g i0 i1 j0 j1 ER HC) as (colors' & E & H).
  exists colors', i0, i1, j0, j1. split; [exact E|]. split; [exact H|].
  intros D V Hz i j s O B.
  pose proof (in_box_range c z D V Hz b i0 i1 j0 j1 i j s ER O B) as P.
  unfold pixel_in in P. rewrite !andb_true_iff in P. lia.
Qed.
Print Assumptions C68_render.

(** A circle is composited over the samples inside it, and nothing else changes its look. *)
Theorem C68_circle : forall c points z center radius col colors g range, fits c ->
  holds c points (fun i j s => Some (z i j s)) ->
  (0 < dx c)%Q -> (inv_dx c * dx c == 1)%Q ->
  (forall i j s, on_canvas c i j s -> in_pixel c i j (z i j s)) ->
  (0 <= radius)%Q ->
  pixel_range c (mkB ((fst center - radius)%Q, (snd center - radius)%Q)
                     ((fst center + radius)%Q, (snd center + radius)%Q)) = Ok range ->
  holds c colors (fun i j s => Some (g i j s)) ->
  exists colors' g', circle c points center radius col colors = Ok colors' /\
    holds c colors' (fun i j s => Some (g' i j s)) /\
    forall i j s, on_canvas c i j s ->
      ((sqr_dist (z i j s) center <= radius * radius)%Q -> g' i j s = over col (g i j s)) /\
      ((radius * radius < sqr_dist (z i j s) center)%Q -> looks (g' i j s) (g i j s)).
Proof.
  intros c points z center radius col colors g (((i0 & i1) & j0) & j1) F HP D V Hz Hr ER HC.
  exact (circle_ok c F points z HP D V Hz center radius col colors g i0 i1 j0 j1 Hr ER HC).
Qed.
Print Assumptions C68_circle.

(** border sets the outermost pixels and leaves the others, whatever was in the array. *)
Theorem C68_border : forall c col colors g, fits c -> 1 <= width c -> 1 <= height c -> holds c colors g ->
  exists colors' g', border c col colors = Ok colors' /\ holds c colors' g' /\
    forall i j s, on_canvas c i j s ->
      (i = 0 \/ i = width c - 1 \/ j = 0 \/ j = height c - 1 -> g' i j s = Some col) /\
      (~ (i = 0 \/ i = width c - 1 \/ j = 0 \/ j = height c - 1) -> g' i j s = g i j s).
Proof. intros c col colors g F. now apply border_ok. Qed.
Print Assumptions C68_border.

(** write: one row per j, four bytes per pixel, each the rounded component of the average colour. *)
Theorem C68_write : forall c colors g, fits c -> 1 <= samples c ->
  holds c colors (fun i j s => Some (g i j s)) ->
  (forall i j s, on_canvas c i j s -> valid (g i j s)) ->
  exists rows, write_rows c colors = Ok rows /\
    Forall2 (fun j row => exists pixels, row = concat pixels /\
      Forall2 (fun i bytes => pixel_bytes c g i j bytes) (range 0 (width c)) pixels)
      (range 0 (height c)) rows.
Proof. intros c colors g F S HC HV. now apply write_ok. Qed.
Print Assumptions C68_write.

(** Whatever the colours are (a painting function may return components outside [0,1]),
    every number handed to libpng is a byte, and components beyond the ends saturate. *)
Lemma all_ok_Forall : forall (A : Type) (P : A -> Prop) (l : list (res A)) r, all_ok l = Ok r ->
  (forall a, In (Ok a) l -> P a) -> Forall P r.
Proof.
  intros A P. induction l as [|x l IH]; intros r E H; cbn [all_ok] in E.
  - injection E as <-. constructor.
  - destruct x as [a| |]; try discriminate. cbn [bind] in E. destruct (all_ok l) as [t| |]; try discriminate.
    injection E as <-. constructor; [apply H; left; reflexivity|]. apply IH; [reflexivity|]. intros b Hb. apply H. right. exact Hb.
Qed.
Lemma byte_range : forall q b, byte q = Ok b -> 0 <= b <= 255 /\ ((1 <= q)%Q -> b = 255) /\ ((q <= 0)%Q -> b = 0).
Proof.
  intros q b E. unfold byte in E. destruct (as_int (rint (255 * q))) as [r| |] eqn:Er; try discriminate. cbn [bind] in E.
  assert (r = rint (255 * q)) as ->. { unfold as_int in Er. destruct (_ && _)%bool in Er; congruence. }
  injection E as <-. split; [lia|]. destruct (rint_near (255 * q)) as (R1 & R2). split; intros Hq.
  - assert (254 < rint (255 * q)); [|lia]. rewrite Zlt_Qlt. change (inject_Z 254) with 254%Q.
    lra.
  - assert (rint (255 * q) < 1); [|lia]. rewrite Zlt_Qlt. change (inject_Z 1) with 1%Q. lra.
Qed.
Lemma pixel_byte_range : forall c colors i j l, pixel c colors i j = Ok l -> Forall (fun b => 0 <= b <= 255) l.
Proof.
  intros c colors i j l E. unfold pixel in E. destruct (index c i j 0) as [I0| |]; try discriminate. cbn [bind] in E.
  destruct (all_ok (map (fun s => get colors (I0 + s)) (range 0 (samples c)))) as [cs| |] in E; try discriminate. cbn [bind] in E.
  apply (all_ok_Forall _ _ _ _ E). intros a Ha. cbn [In] in Ha.
  destruct Ha as [Ha|[Ha|[Ha|[Ha|[]]]]]; apply byte_range in Ha; apply Ha.
Qed.
Theorem C68_bytes : forall c colors rows, write_rows c colors = Ok rows ->
  Forall (Forall (fun b => 0 <= b <= 255)) rows.
Proof.
  intros c colors rows E. unfold write_rows in E. apply (all_ok_Forall _ _ _ _ E). intros row H.
  apply in_map_iff in H. destruct H as (j & Hj & _).
  destruct (all_ok (map (fun i => pixel c colors i j) (range 0 (width c)))) as [ps| |] eqn:Ep; try discriminate.
  cbn [bind] in Hj. injection Hj as <-. apply Forall_concat. apply (all_ok_Forall _ _ _ _ Ep).
  intros l Hl. apply in_map_iff in Hl. destruct Hl as (i & Hi & _). exact (pixel_byte_range _ _ _ _ _ Hi).
Qed.
Print Assumptions C68_bytes.
Theorem C68_saturates : forall c colors i j l, pixel c colors i j = Ok l ->
  exists cs, all_ok (map (fun s => I <- index c i j 0 ;; get colors (I + s)) (range 0 (samples c))) = Ok cs /\
    Forall2 (fun q b => ((1 <= q)%Q -> b = 255) /\ ((q <= 0)%Q -> b = 0))
      [red (average cs); green (average cs); blue (average cs); alpha (average cs)] l.
Proof.
  intros c colors i j l E. unfold pixel in E. destruct (index c i j 0) as [I0| |]; try discriminate. cbn [bind] in E |- *.
  destruct (all_ok (map (fun s => get colors (I0 + s)) (range 0 (samples c)))) as [cs| |]; try discriminate. cbn [bind] in E.
  exists cs. split; [reflexivity|].
  cbn [all_ok] in E.
  destruct (byte (red (average cs))) as [b1| |] eqn:E1; try discriminate.
  destruct (byte (green (average cs))) as [b2| |] eqn:E2; try discriminate.
  destruct (byte (blue (average cs))) as [b3| |] eqn:E3; try discriminate.
  destruct (byte (alpha (average cs))) as [b4| |] eqn:E4; try discriminate. cbn [bind] in E. injection E as <-.
  apply byte_range in E1, E2, E3, E4.
  repeat (constructor; [tauto|]). constructor.
Qed.
Print Assumptions C68_saturates.
Example C68_bytes_instance : exists rows,
  write_rows (mkCanvas (mkB (0 # 2, 0 # 2)%Q (4 # 2, 4 # 2)%Q) 1 1 1 1 1) [Some (mkC 2 (-3) (1 # 2) 1)%Q] = Ok rows /\
  rows = [[255; 0; 128; 255]].
Proof. eexists. split; vm_compute; reflexivity. Qed.

(** ** What does not hold *)

(** A 2 x 2 canvas with one sample per pixel. *)
Definition ex_box : box := mkB (0%Q, 0%Q) (2%Q, 2%Q).
Definition ex_canvas : canvas := mkCanvas (mkB (0 # 2, 0 # 2)%Q (4 # 2, 4 # 2)%Q) 1 1 2 2 1.
Definition ex_uniform (n : nat) : Q := if Nat.even n then (1 # 4)%Q else (1 # 2)%Q.

(** The constructor leaves the colours unset, and both render and write read them. *)
Theorem C68_uninit_refuted : exists c points colors,
  make_canvas ex_box 2 1 = Ok c /\ make_points c ex_uniform = Ok points /\ make_colors c = Ok colors /\
  circle c points (1%Q, 1%Q) 1 half_red colors = UB /\
  write_rows c colors = UB.
Proof. do 3 eexists. split; [reflexivity|]. split; [reflexivity|]. split; [reflexivity|]. vm_compute. auto. Qed.
Print Assumptions C68_uninit_refuted.
(** A box that is far away is not simply skipped: the conversion of its corner to int is undefined. *)
Theorem C68_far_refuted : exists c points colors,
  make_canvas ex_box 2 1 = Ok c /\ make_points c ex_uniform = Ok points /\
  holds c colors (fun _ _ _ => Some clear) /\
  render c points (mkB (2 ^ 31, 0)%Q (2 ^ 31 + 1, 1)%Q) (fun _ => full_blue) colors = UB.
Proof.
  eexists _, _, (repeat (Some clear) 4). split; [reflexivity|]. split; [reflexivity|]. split.
  - split; [reflexivity|]. intros i j s O. pose proof (place_bounds _ i j s O) as [_ B].
    match type of B with 0 <= ?p < _ => assert (B' : 0 <= p < 4) by exact B end.
    rewrite nth_error_nth' with (d := Some clear) by (cbn [repeat length]; lia).
    f_equal. apply nth_repeat.
  - vm_compute. reflexivity.
Qed.
Print Assumptions C68_far_refuted.

(** ** A case that meets the hypotheses *)
Definition ex_points : list (option point) :=
  match make_points ex_canvas ex_uniform with Ok p => p | _ => [] end.
Example C68_example :
  match make_canvas ex_box 2 1 with
  | Ok c => width c = 2 /\ height c = 2 /\ (dx c == 1)%Q
  | _ => False
  end /\
  fits ex_canvas /\ (forall n, (0 <= ex_uniform n < 1)%Q) /\
  make_points ex_canvas ex_uniform = Ok ex_points /\
  (** a circle around the corner covers the sample of the first pixel only *)
  match border ex_canvas full_blue (repeat None 4) with
  | Ok colors =>
      match circle ex_canvas ex_points (0%Q, 0%Q) 1 half_red colors with
      | Ok colors => write_rows ex_canvas colors =
          Ok [[128; 0; 128; 255; 0; 0; 255; 255]; [0; 0; 255; 255; 0; 0; 255; 255]]
      | _ => False
      end
  | _ => False
  end /\
  (** a box partly outside, and one wholly outside *)
  pixel_range ex_canvas (mkB (-3, 1)%Q (1 # 2, 5)%Q) = Ok (0, 1, 1, 2) /\
  pixel_range ex_canvas (mkB (5, 5)%Q (6, 6)%Q) = Ok (5, 2, 5, 2).
Proof.
  split; [vm_compute; auto|]. split; [unfold fits; cbn; lia|]. split.
  { intro n. unfold ex_uniform. destruct (Nat.even n); split; vm_compute; congruence. }
  split; [reflexivity|]. split; [vm_compute; reflexivity|]. split; reflexivity.
Qed.
