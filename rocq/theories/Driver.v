(** * Driver: src/parser.rs 53-85 and 1849-1928, ci/tester/main.rs 93-199 *)
From Verif Require Import Base Tokens Ast Lexer Parser Printer.
From Coq Require Import String.

Inductive dout (A E : Type) :=
| DOk (a : A)
| DErr (e : E)
| DPanic (p : panic)
| DFuel.
Arguments DOk {A E}. Arguments DErr {A E}. Arguments DPanic {A E}. Arguments DFuel {A E}.

(** ** Parsing *)

(** src/parser.rs:53-61 [SpannedParserError]; [se_syntax] is [error.syntax]. *)
Record serror := mkSerr {
  se_start : nat; se_end : nat; se_line_start : nat; se_line_end : nat; se_line : nat;
  se_error : perror; se_syntax : option syntax_error }.

(** The line lookups of src/parser.rs:1886-1887 and 1911-1912. *)
Definition mk_serror (data : list nat) (end_pos s e : nat) (pe : perror) (sx : option syntax_error)
  : dout (list stmt) serror :=
  match line_from_position data e with
  | None => DPanic PIndex
  | Some line =>
    match line_range data end_pos line with
    | None => DPanic PIndex
    | Some (ls, le) => DErr (mkSerr s e ls le line pe sx)
    end
  end.

(** src/parser.rs:1855-1869: what the parser gets to see of one token. *)
Definition filter_token (t : tokspan) : list tokspan :=
  match fst t with
  | TComment _ | Kw KOpenTag | Kw KCloseTag => []
  | TInlineHtml s => [(Kw KEcho, snd t); (TCes s, snd t); (Kw KSemiColon, snd t)]
  | Kw KOpenTagWithEcho => [(Kw KEcho, snd t)]
  | _ => [t]
  end.
Definition filter_tokens (l : list tokspan) : list tokspan := flat_map filter_token l.

(** Fuel for the parser; ParserTermination.v shows that it always suffices. *)
Definition parse_fuel (toks : list tokspan) : nat := 2 * List.length toks + 3.

(** [Parser::new] and [parse_top_statement_list] on the filtered tokens. *)
Definition parse_top (toks : list tokspan) : pout (list stmt) :=
  parse_top_statement_list toks (parse_statement toks (parse_fuel toks)) 0.

(** src/parser.rs:1849-1899 [parse_tokens]; [data]/[end_pos] are the line map. *)
Definition parse_tokens (data : list nat) (end_pos : nat) (all : list tokspan) : dout (list stmt) serror :=
  let toks := filter_tokens all in
  match parse_top toks with
  | POk l _ => DOk l
  | PPanic p => DPanic p
  | PFuel => DFuel
  | PErr e _ =>
    match nth_error toks (err_pos e) with
    | Some t => mk_serror data end_pos (sp_start (snd t)) (sp_end (snd t)) e None
    | None =>
      match List.length toks with
      | O => DPanic POverflow
      | S i =>
        match nth_error toks i with
        | None => DPanic PIndex
        | Some t => mk_serror data end_pos (sp_end (snd t)) (sp_end (snd t) + 1) e None
        end
      end
    end
  end.

(** src/parser.rs:1902-1925: pull tokens up to [End].  The result is the tokens and
    the final tokenizer state. *)
Fixpoint tokenize_loop (code : str) (n f : nat) (acc : list tokspan) (s : tst)
  : dout (list tokspan * tst) (syntax_error * tst) :=
  match n with
  | O => DFuel
  | S n' =>
    match next_token code f s with
    | TOk (Kw KEnd, _) s' => DOk (acc, s')
    | TOk t s' => tokenize_loop code n' f (acc ++ [t]) s'
    | TErr e s' => DErr (e, s')
    | TPanic p => DPanic p
    | TFuel => DFuel
    end
  end.
Definition tokenize (f : nat) (code : str) := tokenize_loop code f f [] tst_init.

(** src/parser.rs:1901-1927 [parse_str], with fuel for the tokenizer. *)
Definition parse_str (f : nat) (code : str) : dout (list stmt) serror :=
  match tokenize f code with
  | DOk (l, s) => parse_tokens (lines s) (blen code) l
  | DErr (e, s) =>
    match err_span e with
    | None => DPanic PUnimplemented
    | Some sp => mk_serror (lines s) (blen code) (sp_start sp) (sp_end sp) (mkErr [] 0) (Some e)
    end
  | DPanic p => DPanic p
  | DFuel => DFuel
  end.

(** [&s[a..b]]. *)
Definition slice (a b : nat) (s : str) : option str :=
  if b <? a then None else
  match drop_bytes a s with Some r => take_bytes (b - a) r | None => None end.

(** src/parser.rs:64-84 [error_message(Some(code))]: the part behind the first line
    (the [Debug] dump of the expected tokens is not modelled).  [inr] is a panic. *)
Definition error_snippet (e : serror) (code : str) : str + panic :=
  match slice (se_line_start e) (se_line_end e) code with
  | None => inr PSlice
  | Some line =>
    if se_start e <? se_line_start e then inr POverflow
    else if se_end e <? se_start e + 1 then inr POverflow
    else inl (line ++ [10%N] ++ repeat 32%N (se_start e - se_line_start e) ++ [94%N] ++
              repeat 126%N (se_end e - se_start e - 1))
  end.

(** ** The tester *)

(** ci/tester/main.rs:167-187 [parse_file] up to the optional check: the new contents
    of the file, or the reason it is left alone ([TfError], [TfPanic]) or truncated
    ([TfTruncated]: [File::create] comes before the printer runs). *)
Inductive tf_out := TfWritten (s : str) | TfError (e : serror) | TfPanic (p : panic) | TfTruncated | TfFuel.
Definition parse_file (show_f64 : str -> str) (f : nat) (code : str) : tf_out :=
  match parse_str f code with
  | DErr e => TfError e
  | DPanic p => TfPanic p
  | DFuel => TfFuel
  | DOk ast =>
    match print_statements show_f64 ast with
    | None => TfTruncated
    | Some s => TfWritten (s2l "<?php" ++ [10%N] ++ s ++ [10%N] ++ s2l "?>")
    end
  end.

(** Disk contents by file number (the position in [files]). *)
Definition fs := nat -> str.
Definition fs_set (d : fs) (i : nat) (s : str) : fs := fun j => if j =? i then s else d j.

Section Search.
(** ci/tester/main.rs:71-93 [run_parse_file entry no_check]: runs a child process;
    whether it succeeds and what it does to the disk is arbitrary. *)
Variable run : nat -> bool -> fs -> bool * fs.
(** ci/tester/main.rs:104-108: the saved sources. *)
Variable src : nat -> str.

(** ci/tester/main.rs:116-123: run the files [i .. mid), the check with the last. *)
Fixpoint run_range (n low mid i : nat) (d : fs) : bool * fs :=
  match n with
  | O => (true, d)
  | S n' =>
    let (ok, d') := run (low + i) (negb (i =? mid - low - 1)) d in
    if ok then run_range n' low mid (S i) d' else (false, d')
  end.
(** ci/tester/main.rs:126-128: write the saved sources of [low .. low+n) back. *)
Fixpoint revert (n low : nat) (d : fs) : fs :=
  match n with O => d | S n' => revert n' (S low) (fs_set d low (src low)) end.

(** ci/tester/main.rs:111-136: the search loop; [None] is out of fuel. *)
Fixpoint search_loop (n low high : nat) (d : fs) : option (nat * nat * fs) :=
  if high - low <=? 1 then Some (low, high, d) else
  match n with
  | O => None
  | S n' =>
    let mid := (low + high) / 2 in
    let (passes, d1) := run_range (mid - low) low mid 0 d in
    let d2 := revert (mid - low) low d1 in
    if passes then search_loop n' mid high d2 else search_loop n' low mid d2
  end.
(** ci/tester/main.rs:103-138: the search over [count] files; [inr] is the panic of
    [files[low]] / [files[high]] in the final report. *)
Definition search (count : nat) (d : fs) : option ((nat * nat + panic) * fs) :=
  match search_loop count 0 count d with
  | None => None
  | Some (low, high, d') =>
    Some ((if (low <? count) && (high <? count) then inl (low, high) else inr PIndex), d')
  end.
End Search.
