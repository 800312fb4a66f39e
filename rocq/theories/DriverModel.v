(** Model of the main program: mandelbrot.cc:39-100 with print.cc (the log), debug.cc:23-29 (die) and
    the conversion of -k.  The computation of a mode is a list of actions with an ending: what it
    prints, which files it writes, whether it returns, throws or dies; it is a parameter.  The file
    system maps path names to directories and files of lines; no other process changes it.
    Not modelled: argparse (the parsed arguments are given), BREAK_ON_ASSERT, failures of fdopen,
    printf and fprintf, path names that differ as strings but name the same file. *)
From Coq Require Import ZArith List String Ascii Bool.
From Flocq Require Import BinarySingleNaN.
From Verif Require Import Base ExpansionModel.
Import ListNotations.
Open Scope string_scope.

(** What a path names: a directory, or a file of lines (print.cc:36 ends each by a newline). *)
Inductive node := Dir | File (lines : list string).
(** Where a line was shown: printf and fprintf(stderr), print.cc:44, 49. *)
Inductive chan := Out | Err.
(** The process: file system, the lines shown so far in order, and the file of tee_fd (print.cc:14-23). *)
Record proc := mkProc { fs : list (string * node); screen : list (chan * string); teed : option string }.
(** The end of a call: it returns, throws a std::exception with this what(), or has left by exit. *)
Inductive ending := Done | Threw (what : string) | Exited (code : Z).

(** A lookup in the file system. *)
Fixpoint look (f : list (string * node)) (p : string) : option node :=
  match f with [] => None | (q, n) :: f => if String.eqb q p then Some n else look f p end.
(** Creates or replaces what a path names. *)
Definition put (f : list (string * node)) (p : string) (n : node) : list (string * node) := (p, n) :: f.

(** print.cc:34-39: tee_print. *)
Definition tee_print (s : string) (w : proc) : proc :=
  match teed w with
  | None => w
  | Some p => match look (fs w) p with
              | Some (File l) => mkProc (put (fs w) p (File (l ++ [s]))) (screen w) (teed w)
              | _ => w
              end
  end.
(** print.cc:43-51: print and print_error. *)
Definition show (c : chan) (s : string) (w : proc) : proc :=
  tee_print s (mkProc (fs w) (screen w ++ [(c, s)]) (teed w)).
(** debug.cc:23-29. *)
Definition newline : string := String "010" EmptyString.
Definition die (msg : string) (w : proc) : proc * ending :=
  ((if String.eqb msg "" then w else show Err (newline ++ "error: " ++ msg) w), Exited 1).

(** What the computation of a mode does, in order. *)
Inductive action := Show (c : chan) (s : string) | Write (p : string) (lines : list string).
(** One action. *)
Definition act (a : action) (w : proc) : proc :=
  match a with
  | Show c s => show c s w
  | Write p l => mkProc (put (fs w) p (File l)) (screen w) (teed w)
  end.
(** A computation: its actions, then how it ends; [None]: it returns; [Some (false, s)]: throws s;
    [Some (true, s)]: die(s). *)
Definition computation : Type := list action * option (bool * string).
Definition compute (c : computation) (w : proc) : proc * ending :=
  let w := fold_left (fun w a => act a w) (fst c) w in
  match snd c with
  | None => (w, Done)
  | Some (false, s) => (w, Threw s)
  | Some (true, s) => die s w
  end.

(** mandelbrot.cc:45: int(std::min(1000.0, k)); the conversion is undefined outside of int. *)
Definition k_of (k : double) : res Z :=
  let m := if Bltb k (dofZ 1000) then k else dofZ 1000 in
  if is_finite m then
    let z := Btrunc m in
    if (-2147483648 <=? z)%Z && (z <=? 2147483647)%Z then Ok z else UB
  else UB.

(** The parsed arguments, mandelbrot.cc:65-71. *)
Record args := mkArgs { cmd : string; mode : string; k_arg : double; tol_arg : double; prec_arg : Z; prec_used : bool;
                        input : option string; output : option string }.

Section Main.
  (** Formats of numbers (tfm::format), strerror(errno) of a failed mkdir and open, and whether the
      operating system allows to create a path that does not exist. *)
  Variables (fmt_g : double -> string) (fmt_d : Z -> string) (strerror : string -> string) (allowed : string -> bool).

  (** print.cc:25-32. *)
  Definition tee (path : string) (w : proc) : proc * ending :=
    match teed w with
    | Some _ => die "can't tee to two files" w
    | None =>
        match look (fs w) path, allowed path with
        | None, true => (mkProc (put (fs w) path (File [])) (screen w) (Some path), Done)
        | _, _ => die ("can't tee output to '" ++ path ++ "': " ++ strerror path) w
        end
    end.
  (** mandelbrot.cc:75-80. *)
  Definition make_output (o : option string) (w : proc) : proc * ending :=
    match o with
    | None => (w, Done)
    | Some d =>
        match look (fs w) d, allowed d with
        | None, true => tee (d ++ "/log") (mkProc (put (fs w) d Dir) (screen w) (teed w))
        | _, _ => die ("failed to create directory '" ++ d ++ "': " ++ strerror d) w
        end
    end.
  (** mandelbrot.cc:82-90. *)
  Definition header (a : args) : list string :=
    ["cmd = " ++ cmd a ++ newline; "mode = " ++ mode a; "k = " ++ fmt_g (k_arg a); "tol = " ++ fmt_g (tol_arg a)] ++
    (if String.eqb (mode a) "arb" then ["prec = " ++ fmt_d (prec_arg a)] else []) ++
    match input a with Some i => ["input = '" ++ i ++ "'"] | None => [] end ++
    match output a with Some o => ["output = '" ++ o ++ "'"] | None => [] end ++ [""].
  (** mandelbrot.cc:93-95: modes.find and the call; [modes] is the table of lines 51-57. *)
  Fixpoint find_mode (modes : list (string * computation)) (m : string) : option computation :=
    match modes with [] => None | (n, c) :: l => if String.eqb n m then Some c else find_mode l m end.
  (** mandelbrot.cc:72-96: the body of the try block after parsing. *)
  Definition body (modes : list (string * computation)) (a : args) (w : proc) : proc * ending :=
    if prec_used a && negb (String.eqb (mode a) "arb") then die "--prec only makes sense for mode == 'arb'" w
    else
      let (w, e) := make_output (output a) w in
      match e with
      | Done =>
          let w := fold_left (fun w s => show Out s w) (header a) w in
          match find_mode modes (mode a) with
          | None => (w, Threw "condition = it != modes.end()")
          | Some c => compute c w
          end
      | _ => (w, e)
      end.
  (** mandelbrot.cc:39-100: the state at exit and the exit status. *)
  Definition main (modes : list (string * computation)) (a : args) (w : proc) : proc * Z :=
    let (w, e) := body modes a w in
    match e with
    | Done => (w, 0%Z)
    | Exited c => (w, c)
    | Threw s => (fst (die s w), 1%Z)
    end.
End Main.
