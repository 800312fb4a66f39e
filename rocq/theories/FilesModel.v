(** Model of the text and npy files: series.cc:99-215, numpy.cc:7-24, area.cc:204-230,
    mandelbrot.cc:27-39, series-to-npy.cc:9-21.

    A file is the list of its characters and the file system is a map from paths to files.
    Simplifications: writing never fails (ofstream and fwrite errors are ignored by the code too),
    a missing file reads as an empty one (ifstream::getline then fails at once), allocation never
    fails, and the C locale is in force for isspace. *)
From Coq Require Import ZArith List Bool Ascii String.
From Verif Require Import Base LoopsModel AreaModel.
Import ListNotations.
Open Scope Z_scope.

Definition str := list ascii.
(** A string literal. *)
Definition lit (s : string) : str := list_ascii_of_string s.
Definition nl : ascii := "010"%char.

(** isspace in the C locale: space, \t \n \v \f \r. *)
Definition isspace (c : ascii) : bool :=
  let n := nat_of_ascii c in (n =? 32)%nat || ((9 <=? n)%nat && (n <=? 13)%nat).
Definition isdigit (c : ascii) : bool := let n := nat_of_ascii c in (48 <=? n)%nat && (n <=? 57)%nat.
Definition digit_val (c : ascii) : Z := Z.of_nat (nat_of_ascii c) - 48.

Definition str_eqb (a b : str) : bool := if list_eq_dec ascii_dec a b then true else false.

(** "%d" of a 64-bit integer.  The number of digits is at most the number of bits. *)
Definition digit (d : Z) : ascii := ascii_of_nat (Z.to_nat (48 + d)).
Fixpoint dec (fuel : nat) (n : Z) : str :=
  match fuel with
  | O => []
  | S f => if n <? 10 then [digit n] else dec f (n / 10) ++ [digit (n mod 10)]
  end.
Definition print_nat (n : Z) : str := dec (S (Z.to_nat (Z.log2 n))) n.
Definition print_int (n : Z) : str := if n <? 0 then "-"%char :: print_nat (- n) else print_nat n.

(** std::getline until end of file: a last line without newline counts, an empty rest does not. *)
Fixpoint getlines (s : str) : list str :=
  match s with
  | [] => []
  | c :: r =>
      if Ascii.eqb c nl then [] :: getlines r else
      match getlines r with
      | [] => [[c]]
      | l :: ls => (c :: l) :: ls
      end
  end.

(** series.cc:138-141 [trim]: drop leading whitespace. *)
Fixpoint trim (v : str) : str :=
  match v with
  | c :: r => if isspace c then trim r else v
  | [] => []
  end.

(** string_view::starts_with and remove_prefix. *)
Fixpoint strip (p v : str) : option str :=
  match p, v with
  | [], _ => Some v
  | a :: p, b :: v => if Ascii.eqb a b then strip p v else None
  | _ :: _, [] => None
  end.

(** std::stol: whitespace, an optional sign, at least one digit; the rest is ignored.  Throws
    invalid_argument without digits and out_of_range outside int64_t. *)
Fixpoint digits_val (acc : Z) (s : str) : Z :=
  match s with
  | c :: r => if isdigit c then digits_val (10 * acc + digit_val c) r else acc
  | [] => acc
  end.
Definition stol (s : str) : res Z :=
  let s := trim s in
  let '(neg, s) :=
    match s with
    | c :: r => if Ascii.eqb c "-" then (true, r) else if Ascii.eqb c "+" then (false, r) else (false, s)
    | [] => (false, s)
    end in
  match s with
  | c :: _ =>
      if isdigit c then
        let v := (if neg then -1 else 1) * digits_val 0 s in
        if (- 2 ^ 63 <=? v) && (v <? 2 ^ 63) then Ok v else Throw
      else Throw
  | [] => Throw
  end.

(** series.cc:142-148 [number]. *)
Definition number (n : str) : res Z := i <- stol n ;; if 0 <=? i then Ok i else Throw.

Section Files.
(** The scalar type, its printing ([safe]) and its parsing (stod or the string constructor). *)
Variable T : Type.
Variable safe : T -> res str.
Variable parse : str -> res T.

(** series.h:59-73, as in SeriesModel but for any scalar type: a buffer, some cells of which may not
    have been written, and the two counts. *)
Record fseries := mkF { fcells : list (option T); fknown : Z; fnonzero : Z }.
(** series.h:77 [Series(limit)] *)
Definition fnew (lim : Z) : fseries := mkF (repeat None (Z.to_nat (relu lim))) 0 0.
(** series.h:168-172 *)
Definition fset_counts (x : fseries) (kn nz : Z) : res fseries :=
  _ <- slow_assert (to_u64 nz <=? to_u64 (Z.min (Z.of_nat (List.length (fcells x))) kn)) ;;
  Ok (mkF (fcells x) kn nz).
(** series.h:139 operator[]: outside [0, nonzero) is an error, and so is reading an unwritten cell. *)
Definition fget (x : fseries) (i : Z) : res T :=
  if (0 <=? i) && (i <? fnonzero x) then
    match nth_error (fcells x) (Z.to_nat i) with Some (Some a) => Ok a | _ => UB end
  else UB.
Definition fput (x : fseries) (i : Z) (a : T) : res fseries :=
  if (0 <=? i) && (i <? Z.min (fnonzero x) (Z.of_nat (List.length (fcells x)))) then
    Ok (mkF (set_nth (fcells x) (Z.to_nat i) (Some a)) (fknown x) (fnonzero x))
  else UB.

(** ** Writing *)
(** series.cc:124: the reduction; the first error wins, as for exceptions in index order. *)
Definition cat (y a : res str) : res str := s <- y ;; t <- a ;; Ok (s ++ t).
(** series.cc:125: the text of one coefficient. *)
Definition term (x : fseries) (start i : Z) : res str :=
  a <- fget x (start + i) ;; s <- safe a ;; Ok (s ++ [nl]).

(** How many threads a batch uses, and in which order they run: anything. *)
Variable threads : Z -> nat.
Variable sched : Z -> list nat.

(** series.cc:122-128: one batch, by map_reduce (loops.h:68-101). *)
Definition batch (x : fseries) (size start : Z) : res str :=
  mr_combine (res str) cat (Ok [])
    (partials (mr_run (res str) cat (term x start) (Z.min size (relu (fnonzero x - start))) (threads start) (sched start))).
Fixpoint batches (fuel : nat) (x : fseries) (size start : Z) : res str :=
  if start <? fnonzero x then
    match fuel with
    | O => UB                                  (* the loop does not end *)
    | S f => s <- batch x size start ;; t <- batches f x size (start + size) ;; Ok (s ++ t)
    end
  else Ok [].

(** series.cc:117-118 *)
Definition comment_line (c : str) : str := lit "# " ++ c ++ [nl].
(** series.cc:110-114: the comments; [time] is what put_time printed. *)
Definition header (comments : list str) (x : fseries) (time : str) : list str :=
  comments ++ [lit "known = " ++ print_int (fknown x); lit "nonzero = " ++ print_int (fnonzero x); lit "time = " ++ time].

(** series.cc:106-129 [write_series]: the contents of the file. *)
Definition write_series (comments : list str) (x : fseries) (time : str) (size : Z) : res str :=
  t <- batches (S (Z.to_nat (fnonzero x))) x size 0 ;;
  Ok (List.concat (map comment_line (header comments x time)) ++ t).

(** ** Reading *)
(** series.cc:150-153: the variables of the loop. *)
Record rstate := mkR { r_known : Z; r_nonzero : Z; r_terms : Z; r_comments : list str; r_x : fseries }.
Definition rinit : rstate := mkR (-1) (-1) (-1) [] (mkF [] 0 0).

(** series.cc:163-176: the counts after a comment [v]. *)
Definition read_counts (kn nz : Z) (v : str) : res (Z * Z) :=
  match strip (lit "known =") v with
  | Some n => _ <- slow_assert (kn <? 0) ;; k <- number n ;; Ok (k, nz)
  | None =>
  match strip (lit "nonzero =") v with
  | Some n => _ <- slow_assert (nz <? 0) ;; k <- number n ;; Ok (kn, k)
  | None =>
  match strip (lit "terms =") v with
  | Some n => _ <- slow_assert ((kn <? 0) && (nz <? 0)) ;; k <- number n ;; Ok (k, k)
  | None => Ok (kn, nz)
  end end end.

(** series.cc:155-189: the body of the loop for one line. *)
Definition read_line (st : rstate) (line : str) : res rstate :=
  match trim line with
  | [] => Ok st
  | c :: r =>
      if Ascii.eqb c "#" then
        let v := trim r in
        ' (kn, nz) <- read_counts (r_known st) (r_nonzero st) v ;;
        if (0 <=? kn) && (0 <=? nz) then
          _ <- slow_assert (nz <=? kn) ;;
          x <- fset_counts (fnew nz) kn nz ;;
          Ok (mkR kn nz 0 (r_comments st ++ [v]) x)
        else Ok (mkR kn nz (r_terms st) (r_comments st ++ [v]) (r_x st))
      else
        _ <- slow_assert ((0 <=? r_terms st) && (r_terms st <? r_nonzero st)) ;;
        a <- parse (c :: r) ;;
        x <- fput (r_x st) (r_terms st) a ;;
        Ok (mkR (r_known st) (r_nonzero st) (r_terms st + 1) (r_comments st) x)
  end.
Fixpoint read_lines (st : rstate) (ls : list str) : res rstate :=
  match ls with
  | [] => Ok st
  | l :: ls => st <- read_line st l ;; read_lines st ls
  end.
(** series.cc:131-194 [read_series] on the contents of the file. *)
Definition read_series (s : str) : res (list str * fseries) :=
  st <- read_lines rinit (getlines s) ;;
  _ <- slow_assert (r_terms st =? r_nonzero st) ;;
  Ok (r_comments st, r_x st).

(** ** Resuming: area.cc:204-230 and mandelbrot.cc:27-39 *)
Definition fsys := str -> option str.
Definition fs_write (fs : fsys) (path content : str) : fsys := fun p => if str_eqb p path then Some content else fs p.
Definition fs_read (fs : fsys) (path : str) : str := match fs path with Some s => s | None => [] end.

(** Comparison with 1 and 0 (area.cc:211). *)
Variable is_one is_zero : T -> bool.

(** "%s/%c-k%d" (area.cc:214) *)
Definition file_name (output : str) (n : ascii) (k : Z) : str :=
  output ++ lit "/" ++ [n] ++ lit "-k" ++ print_int k.

(** area.cc:213-216 [write]; the default batch size is a parameter. *)
Definition write_one (size : Z) (time : str -> str) (fs : fsys) (output mode : str) (k : Z) (mu : T) (n : ascii) (name : str) (x : fseries) : res fsys :=
  m <- safe mu ;;
  let path := file_name output n k in
  s <- write_series [name; lit "mode = " ++ mode; lit "k = " ++ print_int k; lit "mu = " ++ m] x (time path) size ;;
  Ok (fs_write fs path s).
(** area.cc:204-221 [write_bottcher]; [time path] is the time at which that file is written. *)
Definition write_bottcher (size : Z) (time : str -> str) (fs : fsys) (output mode : str) (mu : T) (f g : fseries) : res fsys :=
  k <- known_to_k (fknown f) ;;
  _ <- slow_assert (fknown f =? fknown g) ;;
  a <- fget f 0 ;; _ <- slow_assert (is_one a) ;;
  b <- fget g 0 ;; _ <- slow_assert (is_zero b) ;;
  fs <- write_one size time fs output mode k mu "g" (lit "g = log(f)") g ;;
  write_one size time fs output mode k mu "f" (lit "f = f(z) = 1/phi(1/z)") f.

(** area.cc:223-230 [read_bottcher] *)
Definition read_bottcher (fs : fsys) (input : str) : res fseries :=
  ' (comments, g) <- read_series (fs_read fs input) ;;
  match comments with
  | c :: _ => _ <- slow_assert (str_eqb c (lit "g = log(f)")) ;; Ok g
  | [] => Throw
  end.

(** One step: from g the new g, f and mu (bottcher_step; any function here). *)
Variable base : fseries.
Variable step : fseries -> res (fseries * fseries * T).

(** mandelbrot.cc:32-38: the loop, n more steps. *)
Fixpoint steps (size : Z) (time : str -> str) (n : nat) (fs : fsys) (output : option str) (mode : str) (g : fseries) : res fsys :=
  match n with
  | O => Ok fs
  | S n =>
      ' (g, f, mu) <- step g ;;
      fs <- (match output with Some o => write_bottcher size time fs o mode mu f g | None => Ok fs end) ;;
      steps size time n fs output mode g
  end.
(** mandelbrot.cc:27-39 [areas]: the file system afterwards. *)
Definition areas (size : Z) (time : str -> str) (fs : fsys) (input output : option str) (mode : str) (max_k : Z) : res fsys :=
  g <- (match input with Some i => read_bottcher fs i | None => Ok base end) ;;
  k0 <- known_to_k (fknown g) ;;
  steps size time (Z.to_nat (max_k - k0)) fs output mode g.

(** ** npy files *)
(** numpy.cc:13-17: the dictionary. *)
Definition npy_dict (shape : list Z) : str :=
  lit "{'descr': '<f8', 'fortran_order': False, 'shape': (" ++
  List.concat (map (fun n => print_int n ++ lit ",") shape) ++ lit "), }".
(** numpy.cc:18-19: [while ((header.size()+1) & 15) header.push_back(' ')]; at most 15 times. *)
Fixpoint npy_pad (fuel : nat) (h : str) : str :=
  match fuel with
  | O => h
  | S f => if (Z.of_nat (List.length h) + 1) mod 16 =? 0 then h else npy_pad f (h ++ [" "%char])
  end.
(** numpy.cc:7-24 [numpy_header]; the two bytes of the size are little endian. *)
Definition npy_magic : str := map ascii_of_nat [147; 78; 85; 77; 80; 89; 1; 0]%nat.
Definition numpy_header (shape : list Z) : str :=
  let h := npy_pad 16 (npy_magic ++ lit "??" ++ npy_dict shape) ++ [nl] in
  let size := (Z.of_nat (List.length h) - 10) mod 2 ^ 16 in
  firstn 8 h ++ [ascii_of_nat (Z.to_nat (size mod 256)); ascii_of_nat (Z.to_nat (size / 256))] ++ skipn 10 h.

(** series.cc:196-215 [write_series_npy] without the path: [words] is 1 for double and 2 for
    Expansion<2>; [bytes] is the representation in memory.  The shape is a vector of int. *)
Variable bytes : T -> str.
Fixpoint all_terms (x : fseries) (n : nat) : res (list T) :=
  match n with
  | O => Ok []
  | S m => l <- all_terms x m ;; a <- fget x (Z.of_nat m) ;; Ok (l ++ [a])
  end.
Definition write_series_npy (words : nat) (x : fseries) : res str :=
  let shape := to_i32 (fnonzero x) :: (if (words =? 2)%nat then [2] else []) in
  l <- all_terms x (Z.to_nat (fnonzero x)) ;;
  Ok (numpy_header shape ++ List.concat (map bytes l)).

(** series-to-npy.cc:9-21 [convert]; it refuses to overwrite. *)
Definition ends_with (s p : str) : bool := match strip (rev p) (rev s) with Some _ => true | None => false end.
Definition convert (fs : fsys) (input output : str) : res fsys :=
  _ <- slow_assert (ends_with output (lit ".npy")) ;;
  _ <- slow_assert (match fs output with Some _ => false | None => true end) ;;
  ' (_, x) <- read_series (fs_read fs input) ;;
  s <- write_series_npy 2 x ;;
  Ok (fs_write fs output s).
End Files.
Arguments mkF {T}. Arguments fcells {T}. Arguments fknown {T}. Arguments fnonzero {T}.
Arguments r_known {T}. Arguments r_nonzero {T}. Arguments r_terms {T}. Arguments r_comments {T}. Arguments r_x {T}.
Arguments mkR {T}.
