(** Model of series-exp.cc:9-32, the program that exponentiates a series file.

    Reading, exponentiating and writing are those of FilesModel.v and SeriesModel.v; the scalars are
    those of a field ([parse] and [bytes] say how they are read and laid out).  Messages are left out. *)
From Coq Require Import ZArith List Bool Ascii String.
From Verif Require Import Base Field SeriesModel FilesModel.
Import ListNotations.
Open Scope Z_scope.

Section SeriesExp.
Variable F : Fld.
Variable kern : kernel F.
Variable base : bases F.
Variable parse : str -> res (K F).
Variable bytes : K F -> str.
(** series-exp.cc:9-32 [exp].  Line 26: y has room for as many terms as x stores.  Line 30: the suffix
    is only checked by write_series_npy (series.cc:197). *)
Definition series_exp (fs : fsys) (input output : str) : res fsys :=
  _ <- slow_assert (match fs output with Some _ => false | None => true end) ;;
  ' (_, x) <- read_series (K F) parse (fs_read fs input) ;;
  y <- set_exp F kern base (new_series (fnonzero x)) (mkS (fcells x) (fknown x) (fnonzero x)) ;;
  _ <- slow_assert (ends_with output (lit ".npy")) ;;
  s <- write_series_npy (K F) bytes 2 (mkF (cells y) (known y) (nonzero y)) ;;
  Ok (fs_write fs output s).
End SeriesExp.
