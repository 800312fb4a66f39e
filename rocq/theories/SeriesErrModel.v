(** Model of the distance between two series of doubles, series.cc:18-57 (declared in series.h:650-652).
    A view is its number of known coefficients and the list of its nonzero() stored ones.  Doubles are
    IEEE binary64 (ExpansionModel.v).  The arguments of type Poly are given by the doubles that
    arf_get_d returns for their midpoints. *)
From Coq Require Import ZArith List Bool.
From Flocq Require Import BinarySingleNaN.
From Verif Require Import Base ExpansionModel.
Import ListNotations.
Open Scope Z_scope.

(** series.h:59-75: known_, and data() up to nonzero_. *)
Record dview := mkView { dknown : Z; dcoef : list double }.

(** std::abs on doubles, series.cc:33, 35, 39, 41. *)
Definition dabs (a : double) : double := Babs a.
(** operator< on doubles, as std::max and std::min use it; false on NaNs. *)
Definition dless (a b : double) : bool := Bltb a b.
(** std::max, series.cc:35, 36, 39, 44. *)
Definition dmax (a b : double) : double := if dless a b then b else a.
(** std::min, series.cc:43. *)
Definition dmin (a b : double) : double := if dless b a then b else a.
(** operator/=, series.cc:35. *)
Definition dquot (a b : double) : double := Bdiv mode_NE a b.
(** infinity(), series.cc:29, 55. *)
Definition dinf : double := B754_infinity false.

(** series.cc:33-35: the distance of two coefficients that both have. *)
Definition both_dist (relative : bool) (x y : double) : double :=
  let d := dabs (dsub x y) in
  if relative then dquot d (dmax (dofZ 1) (dabs y)) else d.
(** The loop itself, series.cc:32-37. *)
Fixpoint both_loop (relative : bool) (x y : list double) (e : double) : double :=
  match x, y with
  | a :: x, b :: y => both_loop relative x y (dmax e (both_dist relative a b))
  | _, _ => e
  end.
(** series.cc:38-39. *)
Definition x_loop (x : list double) (e : double) : double := fold_left (fun e a => dmax e (dabs a)) x e.
(** series.cc:40-45. *)
Definition y_loop (relative : bool) (y : list double) (e : double) : double :=
  fold_left (fun e b => let d := dabs b in let d := if relative then dmin d (dofZ 1) else d in dmax e d) y e.
(** series.cc:27-47. *)
Definition error (x y : dview) (relative : bool) : double :=
  if negb (dknown x =? dknown y) then dinf
  else
    let both := Nat.min (length (dcoef x)) (length (dcoef y)) in
    let e := both_loop relative (dcoef x) (dcoef y) dzero in
    let e := x_loop (skipn both (dcoef x)) e in
    y_loop relative (skipn both (dcoef y)) e.

(** series.cc:18-25; [mids] are the coefficients x[i] for i < n as doubles: those of the polynomial,
    then zeros (poly.cc:17-21). *)
Definition approx (mids : list double) (n : Z) : res dview :=
  _ <- slow_assert (Z.of_nat (length mids) <=? n) ;;
  Ok (mkView n (mids ++ repeat dzero (Z.to_nat n - length mids))).
(** series.cc:53-57. *)
Definition error_poly (x : dview) (mids : list double) (relative : bool) : res double :=
  if dknown x <? Z.of_nat (length mids) then Ok dinf
  else y <- approx mids (dknown x) ;; Ok (error x y relative).
(** series.cc:49-51; Series(initializer_list) knows and stores all of the list, series.h:79-87. *)
Definition error_list (x : dview) (ys : list double) (relative : bool) : double :=
  error x (mkView (Z.of_nat (length ys)) ys) relative.
(** series.h:653 (tests.h:58): whether ASSERT_TOL2(tol, x, y) lets the test go on. *)
Definition tol_passes (tol : double) (x y : dview) : bool := Bleb (error x y false) tol.
