(** Model of the test runner, tests.cc:17-38, 62-130 and tests.h:49-62.  A test is a function on the
    state of the process (globals, files), with the lines it prints and how it ends.  What the runner
    prints is kept as data: texts, colours and times are left out.  Not modelled: the functions of
    on_shutdown (tests.cc:117), overflow of the counts. *)
From Coq Require Import ZArith List String Ascii Bool.
From Verif Require Import Base.
Import ListNotations.
Open Scope string_scope.

(** How a call ends: it returns; throws test_error (tests.h:19); throws another std::exception with
    this typeid name and what(); throws something else; or leaves the process by exit (debug.cc:28). *)
Inductive verdict := Returns | TestError | Exception (type what : string) | Foreign | Exits (code : Z).
(** tests.cc:17: the registered function. *)
Definition test (W : Type) : Type := W -> W * list string * verdict.
(** The lines that run_tests prints: tests.cc:76, 81, 89, 99, 104, 111, 112, 114, 116; [Said]: a line of a test. *)
Inductive line :=
  | Header (prog : string) (n : nat) | Skip (name : string) | Run (name : string) | Said (s : string) | Caught (type what : string)
  | Good (name : string) | Bad (name : string) | Ran (n : nat) | Passed (n : nat) | Failed (n : nat) | FailedName (name : string).
(** How the process ends: main returns, exit is called, std::terminate, undefined. *)
Inductive finish := Status (code : Z) | Left (code : Z) | Terminated | Undefined.

(** string::find(...) != npos. *)
Fixpoint contains (s t : string) : bool :=
  String.prefix t s || match s with EmptyString => false | String _ s => contains s t end.
(** tests.cc:26-38: test_throw, as ASSERT_THROW(x, se) calls it. *)
Definition test_throw {W} (f : test W) (se : string) : test W := fun w =>
  match f w with
  | (w, out, Returns) => (w, out ++ ["didn't throw"], TestError)%list
  | (w, out, TestError) => if contains "N10mandelbrot10test_errorE" se then (w, out, Returns) else (w, out ++ ["threw test_error"], TestError)%list
  | (w, out, Exception type _) => if contains type se then (w, out, Returns) else (w, out ++ [("threw " ++ type)%string], TestError)%list
  | (w, out, v) => (w, out, v)
  end.
(** tests.h:53: ASSERT_TRUE(b), and tests.h:56-59 with b the comparison; then the rest of the test. *)
Definition assert_true {W} (b : bool) (rest : test W) : test W := fun w =>
  if b then rest w else (w, ["assertion"; ""], TestError).

Section Run.
  Variable W : Type.
  Notation tests := (list (string * test W)).

  (** tests.cc:71-73. *)
  Definition skip (chosen : list string) (name : string) : bool :=
    match chosen with [] => false | _ => negb (existsb (String.eqb name) chosen) end.
  (** tests.cc:79-81. *)
  Definition skipped (chosen : list string) (ts : tests) : list line :=
    map (fun t => Skip (fst t)) (filter (fun t => skip chosen (fst t)) ts).
  (** tests.cc:84-108: the loop, with the counter, the list of failures and the lines so far. *)
  Fixpoint loop (chosen : list string) (ts : tests) (w : W) (passed : nat) (failed : list string) (out : list line)
    : W * nat * list string * list line * option finish :=
    match ts with
    | [] => (w, passed, failed, out, None)
    | (name, t) :: ts =>
        if skip chosen name then loop chosen ts w passed failed out
        else
          let '(w, said, v) := t w in
          let out := (out ++ [Run name] ++ map Said said)%list in
          match v with
          | Returns => loop chosen ts w (S passed) failed (out ++ [Good name])%list
          | TestError => loop chosen ts w passed (failed ++ [name])%list (out ++ [Bad name])%list
          | Exception type what => loop chosen ts w passed (failed ++ [name])%list (out ++ [Caught type what; Bad name])%list
          | Foreign => (w, passed, failed, out, Some Terminated)
          | Exits c => (w, passed, failed, out, Some (Left c))
          end
    end.
  (** tests.cc:68-119, and main 123-130; [args] is argv. *)
  Definition run_tests (ts : tests) (args : list string) (w : W) : W * list line * finish :=
    match args with
    | [] => (w, [], Undefined)
    | prog :: chosen =>
        let '(w, passed, failed, out, f) := loop chosen ts w 0 [] ([Header prog (List.length ts)] ++ skipped chosen ts)%list in
        match f with
        | Some f => (w, out, f)
        | None =>
            let out := (out ++ [Ran (List.length ts); Passed passed] ++
                        match failed with [] => [] | _ => Failed (List.length failed) :: map FailedName failed end)%list in
            (w, out, Status (match failed with [] => 0 | _ => 1 end))
        end
    end.
End Run.
