(** * Tester: the rest of ci/tester/main.rs *)
From Verif Require Import Base Tokens Ast Lexer Parser Printer Driver.

Section Tester.
Variable show_f64 : str -> str.
(** The time limit of the child (ci/tester/main.rs:81, 60 s): steps of the tokenizer. *)
Variable limit : nat.
(** The command of the argument CHECK, if there is one: it looks at the files and passes
    or not (simplified: it changes no file and has no state of its own). *)
Variable check : option (fs -> bool).

(** ci/tester/main.rs:69-97 [run_parse_file] with the child process of 157-199
    ([parse_file]): a panic of the child, an error message (which is a panic too) and the
    time limit are all failures.  [File::create] empties the file before the printer runs. *)
Definition run_child (i : nat) (no_check : bool) (d : fs) : bool * fs :=
  match parse_file show_f64 limit (d i) with
  | TfWritten s =>
    let d' := fs_set d i s in
    (match check with Some c => no_check || c d' | None => true end, d')
  | TfTruncated => (false, fs_set d i [])
  | TfError _ | TfPanic _ | TfFuel => (false, d)
  end.

(** ci/tester/main.rs:139-146: all files, the check behind each; the number of files and
    of those that succeeded (the names in [done_files] are different, they come from one
    glob). *)
Fixpoint run_files (n i success : nat) (d : fs) : nat * nat * fs :=
  match n with
  | O => (i, success, d)
  | S n' => let (ok, d') := run_child i false d in run_files n' (S i) (if ok then S success else success) d'
  end.
(** ci/tester/main.rs:139-150: [false] is the panic "Parsing stage failed!". *)
Definition run_all (count : nat) (d : fs) : bool * fs :=
  match run_files count 0 0 d with (i, success, d') => (success =? i, d') end.
End Tester.
