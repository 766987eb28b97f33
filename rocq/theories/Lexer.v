(** * Lexer: src/tokenizer.rs

    Every method of [Tokenizer] becomes a function from a tokenizer state to an
    outcome.  [&mut self] is threaded through, also on the error paths (the code
    often leaves a moved position behind a recoverable error).  [loop]s whose
    progress is not a plain walk over the remaining characters, and the recursion
    next_token -> ... -> str_block -> next_token, take fuel; running out of it is
    the separate outcome [TFuel]. *)
From Verif Require Import Base Tokens.
From Coq Require Import String.

(** src/tokenizer.rs:35-44 [State]. *)
Inductive lstate := LDoNothing | LInitial | LInScripting | LLookingForProperty | LEmitQueue | LDone.

(** src/tokenizer.rs:46-53,98-119 [Tokenizer]/[TokenizerState]: the mutable part.
    [lines] is [external.line_map.data]; [queue] is kept with its top first.
    [code] and [short_tags] (always true) are constants, [line_map.end_pos] is
    [code.len()], and the interner is transparent (Interner.v). *)
Record tst := mkTst {
  src_pos : nat;
  lmode : lstate;
  lstack : list lstate;
  line_num : nat;
  lines : list nat;
  restart : bool;
  queue : list tokspan }.

Inductive tout (A : Type) :=
| TOk (a : A) (s : tst)
| TErr (e : syntax_error) (s : tst)
| TPanic (p : panic)
| TFuel.
Arguments TOk {A}. Arguments TErr {A}. Arguments TPanic {A}. Arguments TFuel {A}.

Definition T (A : Type) := tst -> tout A.
Definition tret {A} (a : A) : T A := fun s => TOk a s.
Definition terr {A} (e : syntax_error) : T A := fun s => TErr e s.
Definition tpanic {A} (p : panic) : T A := fun _ => TPanic p.
Definition tfuel {A} : T A := fun _ => TFuel.
(** sequencing; on [Err] it behaves as [try!]. *)
Definition tbind {A B} (m : T A) (k : A -> T B) : T B := fun s =>
  match m s with
  | TOk a s' => k a s'
  | TErr e s' => TErr e s'
  | TPanic p => TPanic p
  | TFuel => TFuel
  end.
Notation "x <- m ;; k" := (tbind m (fun x => k)) (at level 61, m at next level, right associativity).
Notation "m ;;; k" := (tbind m (fun _ => k)) (at level 61, right associativity).
Definition tget : T tst := fun s => TOk s s.
Definition tput (s' : tst) : T unit := fun _ => TOk tt s'.

Definition set_pos (p : nat) (s : tst) : tst :=
  mkTst p (lmode s) (lstack s) (line_num s) (lines s) (restart s) (queue s).
Definition set_mode (m : lstate) (s : tst) : tst :=
  mkTst (src_pos s) m (lstack s) (line_num s) (lines s) (restart s) (queue s).
Definition set_stack (st : list lstate) (s : tst) : tst :=
  mkTst (src_pos s) (lmode s) st (line_num s) (lines s) (restart s) (queue s).
Definition set_restart (b : bool) (s : tst) : tst :=
  mkTst (src_pos s) (lmode s) (lstack s) (line_num s) (lines s) b (queue s).
Definition set_queue (q : list tokspan) (s : tst) : tst :=
  mkTst (src_pos s) (lmode s) (lstack s) (line_num s) (lines s) (restart s) q.
(** [self.state = bak_state]: everything but the queue. *)
Definition restore (bak : tst) (s : tst) : tst := set_queue (queue s) bak.
Definition trestore (bak : tst) : T unit := fun s => TOk tt (restore bak s).

(** src/tokenizer.rs:121-127 [TokenizerState::next_line]. *)
Definition next_line_st (s : tst) : tst :=
  mkTst (src_pos s) (lmode s) (lstack s) (S (line_num s)) (lines s ++ [src_pos s]) (restart s) (queue s).
Definition next_line : T unit := fun s => TOk tt (next_line_st s).

(** src/tokenizer.rs:61-96 [LineMap::line_from_position]: binary search; the fuel
    bounds the [while], [LineMap::line] with its index panics. *)
Fixpoint lfp_loop (n : nat) (data : list nat) (pos a b : nat) : option nat :=
  if b - a <=? 1 then Some a else
  match n with
  | O => None
  | S n' =>
    let mid := (a + b) / 2 in
    match nth_error data mid with
    | None => None
    | Some d => if pos <? d then lfp_loop n' data pos a mid else lfp_loop n' data pos mid b
    end
  end.
(** src/tokenizer.rs:69-81. *)
Definition line_from_position (data : list nat) (pos : nat) : option nat :=
  lfp_loop (List.length data) data pos 0 (List.length data).
(** src/tokenizer.rs:83-90. *)
Definition line_range (data : list nat) (end_pos line : nat) : option (nat * nat) :=
  let e := match nth_error data (line + 1) with Some d => d | None => end_pos end in
  match nth_error data line with Some d => Some (d, e) | None => None end.

(** src/tokenizer.rs:134-139 [starts_with_ci]: note that only [s] is lower-cased. *)
Definition starts_with_ci (inp s : str) : bool :=
  str_eqb (firstn (blen s) inp) (to_lower s).

(** src/tokenizer.rs:141-147 [state_helper!(push, ..)]. *)
Definition push_state (m : lstate) : T unit := fun s =>
  TOk tt (set_mode m (set_stack (lmode s :: lstack s) s)).
(** src/tokenizer.rs:266-273 [pop_state]. *)
Definition pop_state : T unit := fun s =>
  match lstack s with
  | m :: st => TOk tt (set_mode m (set_stack st s))
  | [] => TPanic PUnreachable
  end.

(** [usize]/[u32] subtraction in a debug build. *)
Definition tsub (a b : nat) : T nat := if b <=? a then tret (a - b) else tpanic POverflow.

(** src/tokenizer.rs:202-210 [ret_token!]: return on success or on a real error,
    continue on [SyntaxError::None] with whatever state was left. *)
Definition ret_token {A} (m : T A) (k : T A) : T A := fun s =>
  match m s with
  | TErr SENone s' => k s'
  | r => r
  end.

(** Character classes used by the scanner. *)
Definition is_lower (c : N) : bool := ((97 <=? c) && (c <=? 122))%N.
Definition is_upper (c : N) : bool := ((65 <=? c) && (c <=? 90))%N.
(** src/tokenizer.rs:328-335: the characters of [_label]. *)
Definition is_label_char (c : N) : bool :=
  is_lower c || is_upper c || ((128 <=? c) && (c <=? 255))%N || (c =? 95)%N || is_digit c.
Definition is_hex (c : N) : bool :=
  (((97 <=? c) && (c <=? 102)) || ((65 <=? c) && (c <=? 70)))%N || is_digit c.

Section Tokenizer.
Variable code : str.

(** src/tokenizer.rs:256-259 [input]. *)
Definition input : T str := fun s =>
  match drop_bytes (src_pos s) code with
  | Some i => TOk i s
  | None => TPanic PSlice
  end.
(** src/tokenizer.rs:261-264. *)
Definition input_pos : T nat := fun s => TOk (src_pos s) s.
Definition put_pos (p : nat) : T unit := fun s => TOk tt (set_pos p s).

(** src/tokenizer.rs:249-254 [advance_bytes]. *)
Definition advance_bytes (n : nat) : T str :=
  inp <- input ;;
  match take_bytes n inp with
  | Some r => fun s => TOk r (set_pos (src_pos s + n) s)
  | None => tpanic PSlice
  end.

(** src/tokenizer.rs:240-247 [advance_chars]. *)
Definition advance_chars (n : nat) : T str :=
  inp <- input ;;
  advance_bytes (blen (firstn n inp)).

(** src/tokenizer.rs:275-289 [whitespace]: the loop over the remaining characters. *)
Fixpoint whitespace_loop (inp : str) (s : tst) : tst :=
  match inp with
  | [] => s
  | c :: r =>
    if ((c =? 32) || (c =? 9) || (c =? 13))%N then whitespace_loop r (set_pos (src_pos s + 1) s)
    else if (c =? 10)%N then whitespace_loop r (next_line_st (set_pos (src_pos s + 1) s))
    else s
  end.
Definition whitespace : T unit :=
  inp <- input ;; (fun s => TOk tt (whitespace_loop inp s)).

(** src/tokenizer.rs:291-301 [whitespace_only]. *)
Fixpoint whitespace_only_loop (inp : str) (s : tst) : tst :=
  match inp with
  | [] => s
  | c :: r =>
    if ((c =? 32) || (c =? 9))%N then whitespace_only_loop r (set_pos (src_pos s + 1) s) else s
  end.
Definition whitespace_only : T unit :=
  inp <- input ;; (fun s => TOk tt (whitespace_only_loop inp s)).

(** src/tokenizer.rs:303-315 [newline]. *)
Definition newline : T bool :=
  inp <- input ;;
  if starts_with [13; 10]%N inp then advance_bytes 2 ;;; next_line ;;; tret true
  else if starts_with_c 10 inp || starts_with_c 13 inp then advance_bytes 1 ;;; next_line ;;; tret true
  else tret false.

(** src/tokenizer.rs:317-344 [_label].  The end of the span counts characters. *)
Definition label : T (option (str * span)) :=
  inp <- input ;;
  match inp with
  | [] => tret None
  | c :: _ =>
    if is_digit c then tret None else
    match position (fun x => negb (is_label_char x)) inp with
    | Some O => tret None
    | o =>
      let end_pos := match o with Some x => x | None => List.length inp end in
      old_pos <- input_pos ;;
      r <- advance_chars end_pos ;;
      tret (Some (r, mk_span old_pos (old_pos + end_pos)))
    end
  end.

Definition end_token : tokspan := (Kw KEnd, mk_span (blen code) (blen code)).

(** src/tokenizer.rs:351-377: the one-character tokens. *)
Definition simple_token (c : N) : option kind :=
  (if c =? 59 then Some KSemiColon else if c =? 58 then Some KColon
   else if c =? 44 then Some KComma else if c =? 46 then Some KDot
   else if c =? 91 then Some KSquareBracketOpen else if c =? 93 then Some KSquareBracketClose
   else if c =? 40 then Some KParenthesesOpen else if c =? 41 then Some KParenthesesClose
   else if c =? 124 then Some KBwOr else if c =? 94 then Some KBwXor
   else if c =? 38 then Some KAmpersand else if c =? 43 then Some KPlus
   else if c =? 45 then Some KMinus else if c =? 47 then Some KDiv
   else if c =? 42 then Some KMul else if c =? 61 then Some KEqual
   else if c =? 37 then Some KMod else if c =? 33 then Some KBoolNot
   else if c =? 126 then Some KBwNot else if c =? 36 then Some KDollar
   else if c =? 60 then Some KLt else if c =? 62 then Some KGt
   else if c =? 63 then Some KQuestionMark else if c =? 64 then Some KSilence
   else None)%N.

(** src/tokenizer.rs:346-380 [_token]. *)
Definition m_token : T tokspan :=
  inp <- input ;;
  match inp with
  | [] => tret end_token
  | c :: _ =>
    match simple_token c with
    | None => terr SENone
    | Some k =>
      advance_chars 1 ;;;
      p <- input_pos ;; q <- tsub p 1 ;;
      tret (Kw k, mk_span q p)
    end
  end.

Definition not_digit (c : N) : bool := ((c <? 48) || (57 <? c))%N.

Definition unwrap {A} (o : option A) : T A :=
  match o with Some a => tret a | None => tpanic PUnwrap end.

(** src/tokenizer.rs:382-422 [_onum_dnum_lnum]. *)
Definition onum_dnum_lnum : T tokspan :=
  inp <- input ;;
  match inp with
  | [] => tret end_token
  | _ =>
    let end_pos := match position not_digit inp with None => blen inp | Some e => e end in
    old_pos <- input_pos ;;
    str_ <- advance_chars end_pos ;;
    inp2 <- input ;;
    if negb (starts_with_c 46 inp2) then
      if negb (end_pos =? 0) then
        p <- input_pos ;;
        z <- unwrap (if starts_with_c 48 str_ && (1 <? blen str_)
                     then i64_from_str_radix 8 (tl str_)
                     else i64_from_str_radix 10 str_) ;;
        tret (TInt z, mk_span old_pos p)
      else put_pos old_pos ;;; terr SENone
    else
      dot <- advance_chars 1 ;;
      let str_ := str_ ++ dot in
      inp3 <- input ;;
      match position not_digit inp3 with
      | Some O =>
        if blen str_ =? 1 then put_pos old_pos ;;; terr SENone
        else
          p <- input_pos ;;
          d <- unwrap (f64_from_str str_) ;;
          tret (TDouble d, mk_span p end_pos)
      | o =>
        let end_pos2 := match o with None => List.length inp3 | Some e => e end in
        p <- input_pos ;;
        r <- advance_chars end_pos2 ;;
        d <- unwrap (f64_from_str (str_ ++ r)) ;;
        tret (TDouble d, mk_span p end_pos)
      end
  end.

(** src/tokenizer.rs:424-441 [_hnum] and 443-457 [_bnum] share this body; on a
    missing digit the two prefix bytes stay consumed. *)
Definition prefixed_num (prefix : str) (ok : N -> bool) (radix : N) : T tokspan :=
  inp <- input ;;
  if (blen inp <? 3) || negb (starts_with prefix inp) then terr SENone
  else
    advance_bytes 2 ;;;
    inp2 <- input ;;
    match position (fun c => negb (ok c)) inp2 with
    | Some O => terr SENone
    | o =>
      let end_pos := match o with None => List.length inp2 | Some e => e end in
      p <- input_pos ;; q <- tsub p 2 ;;
      r <- advance_chars end_pos ;;
      z <- unwrap (i64_from_str_radix radix r) ;;
      tret (TInt z, mk_span q end_pos)
    end.
Definition hnum : T tokspan := prefixed_num (s2l "0x") is_hex 16.
Definition bnum : T tokspan := prefixed_num (s2l "0b") (fun c => (c =? 48) || (c =? 49))%N 2.

(** src/tokenizer.rs:459-476 [match_variable]. *)
Definition match_variable : T tokspan :=
  inp <- input ;;
  if (blen inp <? 2) || negb (starts_with_c 36 inp) then terr SENone
  else
    bak_pos <- input_pos ;;
    advance_bytes 1 ;;;
    l <- label ;;
    match l with
    | Some (name, sp) => tret (TVariable name, set_start bak_pos sp)
    | None => put_pos bak_pos ;;; terr SENone
    end.

Definition is_alnum (c : N) : bool := is_lower c || is_upper c || is_digit c.

(** src/tokenizer.rs:478-527 [str_escape]: returns the extended byte vector. *)
Definition str_escape (bs : bytes) (sq : bool) : T bytes :=
  inp <- input ;;
  match nth_error inp 1 with
  | None =>
    p <- input_pos ;; terr (SEUnterminated (s2l "string escape sequence") (mk_span p (p + 1)))
  | Some c =>
    let fin (bs : bytes) : T bytes := advance_chars 2 ;;; tret bs in
    if negb sq && (c =? 110)%N then fin (bs ++ [10]%N)
    else if negb sq && (c =? 114)%N then fin (bs ++ [13]%N)
    else if negb sq && (c =? 116)%N then fin (bs ++ [9]%N)
    else if negb sq && (c =? 102)%N then fin (bs ++ [12]%N)
    else if negb sq && (c =? 118)%N then fin (bs ++ [11]%N)
    else if negb sq && (c =? 101)%N then tpanic PUnimplemented
    else if negb sq && (c =? 34)%N then fin (bs ++ [34]%N)
    else if sq && (c =? 39)%N then fin (bs ++ [39]%N)
    else if (c =? 92)%N then fin (bs ++ [92]%N)
    else if negb sq && (c =? 36)%N then fin (bs ++ [36]%N)
    else if negb sq && ((c =? 120) || (c =? 88))%N then
      let hexish i := match nth_error inp i with Some x => is_alnum x | None => false end in
      let end_idx := if hexish 2 then (if hexish 3 then 3 else 2) else 0 in
      if end_idx =? 0 then fin (bs ++ [92; c]%N)
      else
        match nth_error inp (end_idx + 1) with
        | None => tpanic PUnwrap
        | Some _ =>
          b <- unwrap (from_str_radix 16 255 (firstn (end_idx - 1) (skipn 2 inp))) ;;
          advance_chars (1 + end_idx) ;;;
          tret (bs ++ [Z.to_N b])
        end
    else if negb sq && (c =? 117)%N then tpanic PUnimplemented
    else fin (bs ++ [92]%N ++ enc1 c)
  end.

(** The repeated [String::from_utf8(bytes)] match (e.g. src/tokenizer.rs:539-542). *)
Definition frag_token (bs : bytes) : token :=
  match from_utf8 bs with
  | Some s => TCes s
  | None => TBin bs
  end.

(** src/tokenizer.rs:529-550 [return_tokens_from_parts]. *)
Definition return_tokens_from_parts (start_tok end_tok : tokspan) (bs : bytes) (parts : list tokspan) : T tokspan :=
  s <- tget ;;
  let q1 := end_tok :: queue s in
  let q2 := match bs with
            | [] => q1
            | _ => (frag_token bs, mk_span (sp_start (snd start_tok)) (sp_end (snd end_tok))) :: q1
            end in
  tput (set_queue (parts ++ q2) s) ;;;
  push_state LEmitQueue ;;;
  tret start_tok.

(** src/tokenizer.rs:570-594: the loop of [match_sq_string]. *)
Fixpoint sq_loop (n : nat) (bak : tst) (bs : bytes) : T bytes :=
  match n with
  | O => tfuel
  | S n' =>
    inp <- input ;;
    let end_pos := match position (fun x => (x =? 92) || (x =? 39) || (x =? 10))%N inp with
                   | Some e => e | None => List.length inp end in
    r <- advance_chars end_pos ;;
    let bs := bs ++ encode r in
    inp2 <- input ;;
    match inp2 with
    | c :: _ =>
      if (c =? 10)%N then advance_bytes 1 ;;; next_line ;;; sq_loop n' bak (bs ++ [10]%N)
      else if (c =? 92)%N then bs' <- str_escape bs true ;; sq_loop n' bak bs'
      else if (c =? 39)%N then advance_bytes 1 ;;; tret bs
      else (old_pos <- input_pos ;; trestore bak ;;; p <- input_pos ;;
            terr (SEUnterminated (s2l "single-quoted string literal") (mk_span p (old_pos + 1))))
    | [] =>
      old_pos <- input_pos ;; trestore bak ;;; p <- input_pos ;;
      terr (SEUnterminated (s2l "single-quoted string literal") (mk_span p (old_pos + 1)))
    end
  end.

(** src/tokenizer.rs:552-601 [match_sq_string]. *)
Definition match_sq_string (lf : nat) : T tokspan :=
  inp <- input ;;
  if blen inp <? 2 then terr SENone else
  bak <- tget ;;
  ok <- (if starts_with (s2l "b'") inp then advance_bytes 2 ;;; tret true
         else if starts_with_c 39 inp then advance_bytes 1 ;;; tret true
         else tret false) ;;
  if (ok : bool) then
    bs <- sq_loop lf bak [] ;;
    p <- input_pos ;;
    tret (frag_token bs, mk_span (src_pos bak) p)
  else terr SENone.

(** ** Interpolation: the functions that may call [next_token] again.
    [nt] is that recursive call, [lf] the fuel of the local loops. *)
Section Interp.
Variable nt : T tokspan.
Variable lf : nat.

(** [if !bytes.is_empty() { .. parts.push(old_fragment) }] as it occurs in
    src/tokenizer.rs:608-615, 643-651 and 674-682: flush the pending bytes. *)
Definition flush (bs : bytes) (parts : list tokspan) (start : nat) : T (list tokspan) :=
  match bs with
  | [] => tret parts
  | _ =>
    q <- tsub start (List.length bs) ;;
    tret (parts ++ [(frag_token bs, mk_span q start)])
  end.

(** src/tokenizer.rs:670-672: [while let Ok(tok) = self.next_token()]. *)
Fixpoint block_loop (n : nat) (toks : list tokspan) : T (list tokspan) :=
  match n with
  | O => tfuel
  | S n' => fun s =>
    match nt s with
    | TOk t s' => block_loop n' (toks ++ [t]) s'
    | TErr _ s' => TOk toks s'
    | TPanic p => TPanic p
    | TFuel => TFuel
    end
  end.

(** src/tokenizer.rs:659-693 [str_block]: returns the new bytes and parts. *)
Definition str_block (bs : bytes) (parts : list tokspan) (require_dollar : bool) : T (bytes * list tokspan) :=
  advance_bytes 1 ;;;
  inp <- input ;;
  if starts_with_c 36 inp || negb require_dollar then
    bak <- tget ;;
    tput (set_stack [LDoNothing] (set_mode LInScripting bak)) ;;;
    p <- input_pos ;; q <- tsub p 1 ;;
    toks <- block_loop lf [(Kw KCurlyBracesOpen, mk_span q p)] ;;
    match last toks (Kw KEnd, span_new) with
    | (Kw KCurlyBracesClose, _) =>
      start <- tsub (src_pos bak) 1 ;;
      parts <- flush bs parts start ;;
      s <- tget ;;
      tput (set_stack (lstack bak) (set_mode (lmode bak) s)) ;;;
      tret ([], parts ++ toks)
    | _ => trestore bak ;;; tret (bs, parts)
    end
  else tret (bs ++ [123]%N, parts).

(** src/tokenizer.rs:603-657 [str_variable]. *)
Definition str_variable (bs : bytes) (parts : list tokspan) : T (bytes * list tokspan) :=
  advance_bytes 1 ;;;
  inp <- input ;;
  if starts_with_c 123 inp then
    ip <- input_pos ;; pos <- tsub ip 1 ;;
    parts <- flush bs parts pos ;;
    let next_part := List.length parts in
    r <- str_block [] parts false ;;
    let (bs', parts') := r in
    match nth_error parts' next_part with
    | None => tpanic PIndex
    | Some (Kw KCurlyBracesOpen, sp) =>
      st <- tsub (sp_start sp) 1 ;;
      tret (bs', firstn next_part parts' ++ (Kw KDollarCurlyBracesOpen, set_start st sp)
                   :: skipn (S next_part) parts')
    | Some _ => tpanic PAssert
    end
  else
    l <- label ;;
    match l with
    | None => tret (bs ++ [36]%N, parts)
    | Some (name, sp) =>
      inp <- input ;;
      if starts_with_c 91 inp then tpanic PUnimplemented else
      tmp <- (if starts_with (s2l "->") inp then
                bak_pos <- input_pos ;;
                advance_bytes 2 ;;;
                l2 <- label ;;
                match l2 with
                | Some (prop, sp2) =>
                  tret [(Kw KObjectOp, mk_span bak_pos (bak_pos + 1));
                        (TString prop, mk_span (sp_start sp2) (sp_end sp2))]
                | None => put_pos bak_pos ;;; tret []
                end
              else tret []) ;;
      start <- tsub (sp_start sp) 1 ;;
      parts <- flush bs parts start ;;
      tret ([], parts ++ [(TVariable name, mk_span start (sp_end sp))] ++ tmp)
    end.

(** Stop characters of the double-quoted and backquote scanners (src/tokenizer.rs:716, 768). *)
Definition dq_special (x : N) : bool :=
  ((x =? 92) || (x =? 34) || (x =? 36) || (x =? 10) || (x =? 123))%N.

(** [chars().position(..)] with the [count() - 1] default (src/tokenizer.rs:714-719). *)
Definition dq_end_pos (inp : str) : T nat :=
  match position dq_special inp with
  | Some e => tret e
  | None => tsub (List.length inp) 1
  end.

(** src/tokenizer.rs:713-742: the loop of [match_dq_string]. *)
Fixpoint dq_loop (n : nat) (bak : tst) (bs : bytes) (parts : list tokspan) : T (bytes * list tokspan) :=
  match n with
  | O => tfuel
  | S n' =>
    inp <- input ;;
    end_pos <- dq_end_pos inp ;;
    r <- advance_chars end_pos ;;
    let bs := bs ++ encode r in
    inp2 <- input ;;
    let unterminated : T (bytes * list tokspan) :=
      err_pos <- input_pos ;; trestore bak ;;; p <- input_pos ;;
      terr (SEUnterminated (s2l "double-quoted string literal") (mk_span p err_pos)) in
    match inp2 with
    | [] => unterminated
    | c :: _ =>
      if (c =? 10)%N then advance_bytes 1 ;;; next_line ;;; dq_loop n' bak (bs ++ [10]%N) parts
      else if (c =? 92)%N then bs' <- str_escape bs false ;; dq_loop n' bak bs' parts
      else if (c =? 34)%N then advance_bytes 1 ;;; tret (bs, parts)
      else if (c =? 36)%N then r <- str_variable bs parts ;; dq_loop n' bak (fst r) (snd r)
      else if (c =? 123)%N then r <- str_block bs parts true ;; dq_loop n' bak (fst r) (snd r)
      else unterminated
    end
  end.

(** src/tokenizer.rs:695-749 [match_dq_string]. *)
Definition match_dq_string : T tokspan :=
  inp <- input ;;
  if blen inp <? 2 then terr SENone else
  bak <- tget ;;
  ok <- (if starts_with (s2l "b""") inp then advance_bytes 2 ;;; tret true
         else if starts_with_c 34 inp then advance_bytes 1 ;;; tret true
         else tret false) ;;
  if (ok : bool) then
    r <- dq_loop lf bak [] [] ;;
    p <- input_pos ;; q <- tsub p 1 ;;
    return_tokens_from_parts (Kw KDoubleQuote, mk_span (src_pos bak) (src_pos bak + 1))
                             (Kw KDoubleQuote, mk_span q p) (fst r) (snd r)
  else terr SENone.

(** src/tokenizer.rs:765-793: the loop of [match_backquote]. *)
Fixpoint bq_loop (n : nat) (bak : tst) (bs : bytes) (parts : list tokspan) : T (bytes * list tokspan) :=
  match n with
  | O => tfuel
  | S n' =>
    inp <- input ;;
    end_pos <- dq_end_pos inp ;;
    r <- advance_chars end_pos ;;
    let bs := bs ++ encode r in
    inp2 <- input ;;
    let unterminated : T (bytes * list tokspan) :=
      old_pos <- input_pos ;; trestore bak ;;; p <- input_pos ;;
      terr (SEUnterminated (s2l "Backquote") (mk_span p old_pos)) in
    match inp2 with
    | [] => unterminated
    | c :: _ =>
      if (c =? 10)%N then advance_bytes 1 ;;; next_line ;;; bq_loop n' bak (bs ++ [10]%N) parts
      else if (c =? 96)%N then advance_bytes 1 ;;; tret (bs, parts)
      else if (c =? 36)%N then r <- str_variable bs parts ;; bq_loop n' bak (fst r) (snd r)
      else if (c =? 123)%N then r <- str_block bs parts true ;; bq_loop n' bak (fst r) (snd r)
      else unterminated
    end
  end.

(** src/tokenizer.rs:751-800 [match_backquote]. *)
Definition match_backquote : T tokspan :=
  inp <- input ;;
  if blen inp <? 2 then terr SENone else
  if starts_with_c 96 inp then
    bak <- tget ;;
    advance_bytes 1 ;;;
    r <- bq_loop lf bak [] [] ;;
    p <- input_pos ;; q <- tsub p 1 ;;
    return_tokens_from_parts (Kw KBackquote, mk_span (src_pos bak) (src_pos bak + 1))
                             (Kw KBackquote, mk_span q p) (fst r) (snd r)
  else terr SENone.

Definition doc_special (x : N) : bool := ((x =? 92) || (x =? 36) || (x =? 10) || (x =? 123))%N.

(** src/tokenizer.rs:871-913: the loop of [match_here_now_doc]. *)
Fixpoint doc_loop (n : nat) (bak : tst) (end_tag : str) (now : bool) (bs : bytes) (parts : list tokspan)
  : T (bytes * list tokspan) :=
  match n with
  | O => tfuel
  | S n' =>
    inp <- input ;;
    let end_pos := match position doc_special inp with Some e => e | None => blen inp end in
    r <- advance_chars end_pos ;;
    let bs := bs ++ encode r in
    inp2 <- input ;;
    let unterminated (msg : str) : T (bytes * list tokspan) :=
      old_pos <- input_pos ;; trestore bak ;;; p <- input_pos ;;
      terr (SEUnterminated msg (mk_span p old_pos)) in
    match inp2 with
    | [] => unterminated (s2l "Here/Nowdoc")
    | c :: _ =>
      if (c =? 10)%N then
        advance_bytes 1 ;;; next_line ;;;
        inp3 <- input ;;
        if starts_with end_tag inp3 then
          advance_bytes (blen end_tag) ;;;
          old_pos <- input_pos ;;
          inp4 <- input ;;
          (if starts_with_c 59 inp4 then advance_bytes 1 ;;; tret tt else tret tt) ;;;
          nl <- newline ;;
          if (nl : bool) then put_pos old_pos ;;; tret (bs, parts)
          else unterminated (s2l "Here/Nowdoc: end-tag requires to be followed by a newline")
        else doc_loop n' bak end_tag now (bs ++ [10]%N) parts
      else if (c =? 92)%N then bs' <- str_escape bs now ;; doc_loop n' bak end_tag now bs' parts
      else if (c =? 36)%N && negb now then
        r <- str_variable bs parts ;; doc_loop n' bak end_tag now (fst r) (snd r)
      else if (c =? 123)%N && negb now then
        r <- str_block bs parts true ;; doc_loop n' bak end_tag now (fst r) (snd r)
      else unterminated (s2l "Here/Nowdoc")
    end
  end.

Inductive doc_type := DHereDoc | DHereDocEncapsed | DNowDoc.

(** src/tokenizer.rs:802-928 [match_here_now_doc]. *)
Definition match_here_now_doc : T tokspan :=
  inp <- input ;;
  if blen inp <? 8 then terr SENone else
  bak <- tget ;;
  ok <- (if starts_with (s2l "b<<<") inp then advance_bytes 4 ;;; tret true
         else if starts_with (s2l "<<<") inp then advance_bytes 3 ;;; tret true
         else tret false) ;;
  if negb ok then terr SENone else
  whitespace_only ;;;
  inp <- input ;;
  doc_ty <- (if starts_with_c 39 inp then advance_bytes 1 ;;; tret DNowDoc
             else if starts_with_c 34 inp then advance_bytes 1 ;;; tret DHereDocEncapsed
             else tret DHereDoc) ;;
  l <- label ;;
  match l with
  | None => trestore bak ;;; terr SENone
  | Some (end_tag, _) =>
    inp <- input ;;
    ok <- (match doc_ty with
           | DHereDoc => tret true
           | DHereDocEncapsed => if starts_with_c 34 inp then advance_bytes 1 ;;; tret true else tret false
           | DNowDoc => if starts_with_c 39 inp then advance_bytes 1 ;;; tret true else tret false
           end) ;;
    if negb ok then trestore bak ;;; terr SENone else
    nl <- newline ;;
    if negb nl then trestore bak ;;; terr SENone else
    let now := match doc_ty with DNowDoc => true | _ => false end in
    r <- doc_loop lf bak end_tag now [] [] ;;
    p <- input_pos ;;
    if now then
      match snd r with
      | [] => tret (frag_token (fst r), mk_span (src_pos bak) p)
      | _ => tpanic PAssert
      end
    else
      q <- tsub p 1 ;;
      return_tokens_from_parts (Kw KHereDocStart, mk_span (src_pos bak) (src_pos bak + 1))
                               (Kw KHereDocEnd, mk_span q p) (fst r) (snd r)
  end.

(** src/tokenizer.rs:976-978: [n] calls of [next_line]. *)
Fixpoint next_lines (n : nat) (s : tst) : tst :=
  match n with O => s | S n' => next_lines n' (next_line_st s) end.

(** src/tokenizer.rs:930-986 [match_comments]. *)
Definition match_comments : T tokspan :=
  inp <- input ;;
  old_pos <- input_pos ;;
  let single := if starts_with_c 35 inp then 1 else if starts_with (s2l "//") inp then 2 else 0 in
  let finish (comment : str) (doc : bool) : T tokspan :=
    (fun s => TOk tt (next_lines (lines_count comment - 1) s)) ;;;
    p <- input_pos ;;
    let sp := mk_span old_pos p in
    tret (TComment comment, if doc then set_doc (Some []) sp else sp) in
  if 0 <? single then
    advance_bytes single ;;;
    inp2 <- input ;;
    let end_pos := match position (fun x => x =? 10)%N inp2 with Some e => e | None => blen inp2 end in
    r <- advance_chars end_pos ;;
    finish r false
  else
    let doc := starts_with (s2l "/**") inp in
    let n := if doc then 3 else if starts_with (s2l "/*") inp then 2 else 0 in
    if 0 <? n then
      advance_bytes n ;;;
      inp2 <- input ;;
      match find_sub (s2l "*/") inp2 with
      | None => p <- input_pos ;; terr (SEUnterminated (s2l "comment") (mk_span p p))
      | Some e => r <- advance_bytes e ;; advance_bytes 2 ;;; finish r doc
      end
    else terr SENone.

(** What a matched keyword does to the state stack ([match_token!] variants,
    src/tokenizer.rs:149-200). *)
Inductive tact := ANone | ASet (m : lstate) | APush (m : lstate) | APop.
Definition do_act (a : tact) : T unit :=
  match a with
  | ANone => tret tt
  | ASet m => fun s => TOk tt (set_mode m s)
  | APush m => push_state m
  | APop => pop_state
  end.

(** src/tokenizer.rs:149-200 [match_token!]/[match_token_alias!]. *)
Definition match_token_alias (alias : str) (k : kind) (a : tact) : T tokspan :=
  inp <- input ;;
  if starts_with_ci inp alias then
    old_pos <- input_pos ;;
    advance_bytes (blen alias) ;;;
    p <- input_pos ;;
    do_act a ;;;
    tret (Kw k, mk_span old_pos p)
  else terr SENone.

(** A run of [ret_token!(match_token!(..))] lines, in source order. *)
Definition entry : Type := string * kind * tact.
Fixpoint try_entries (l : list entry) (k : T tokspan) : T tokspan :=
  match l with
  | [] => k
  | (r, kd, a) :: l' => ret_token (match_token_alias (s2l r) kd a) (try_entries l' k)
  end.

Definition E0 (r : string) (k : kind) : entry := (r, k, ANone).

(** src/tokenizer.rs:1112-1117. *)
Definition table1 : list entry :=
  [ ("?>", KCloseTag, ASet LInitial); E0 "exit" KExit; E0 "die" KExit; E0 "function" KFunction;
    E0 "const" KConst; E0 "return" KReturn ]%string.

(** src/tokenizer.rs:1118-1137: [yield] and [yield from]. *)
Definition match_yield : T tokspan :=
  inp <- input ;;
  if starts_with_ci inp (s2l "yield") then
    old_pos <- input_pos ;;
    advance_bytes 5 ;;;
    whitespace ;;;
    inp2 <- input ;;
    if starts_with_ci inp2 (s2l "from") then
      advance_bytes 4 ;;;
      p <- input_pos ;; tret (Kw KYieldFrom, mk_span old_pos p)
    else p <- input_pos ;; tret (Kw KYield, mk_span old_pos p)
  else terr SENone.

(** src/tokenizer.rs:1138-1178. *)
Definition table2 : list entry :=
  [ E0 "try" KTry; E0 "catch" KCatch; E0 "finally" KFinally; E0 "throw" KThrow; E0 "if" KIf;
    E0 "elseif" KElseIf; E0 "endif" KEndIf; E0 "else" KElse; E0 "while" KWhile;
    E0 "endwhile" KEndWhile; E0 "do" KDo; E0 "foreach" KForeach; E0 "endforeach" KEndForeach;
    E0 "for" KFor; E0 "endfor" KEndfor; E0 "declare" KDeclare; E0 "enddeclare" KEndDeclare;
    E0 "instanceof" KInstanceOf; E0 "as" KAs; E0 "switch" KSwitch; E0 "endswitch" KEndSwitch;
    E0 "case" KCase; E0 "default" KDefault; E0 "break" KBreak; E0 "continue" KContinue;
    E0 "goto" KGoto; E0 "echo" KEcho; E0 "print" KPrint; E0 "class" KClass;
    E0 "interface" KInterface; E0 "trait" KTrait; E0 "extends" KExtends;
    E0 "implements" KImplements; ("->", KObjectOp, APush LLookingForProperty);
    E0 "::" KScopeOp; E0 "\" KNsSeparator; E0 "..." KEllipsis; E0 "??" KCoalesce;
    E0 "new" KNew; E0 "clone" KClone; E0 "var" KVar ]%string.

(** src/tokenizer.rs:1183-1197 [try_determine_cast_type]. *)
Definition cast_table : list entry :=
  [ E0 "int" KCastInt; E0 "int" KCastInt; E0 "real" KCastDouble; E0 "double" KCastDouble;
    E0 "float" KCastDouble; E0 "string" KCastString; E0 "binary" KCastString;
    E0 "array" KCastArray; E0 "object" KCastObject; E0 "boolean" KCastBool;
    E0 "bool" KCastBool; E0 "unset" KCastUnset ]%string.

(** src/tokenizer.rs:1180-1210: the cast tokens; [SENone] when there is none. *)
Definition match_cast : T tokspan :=
  inp <- input ;;
  if starts_with_c 40 inp then
    old_pos <- input_pos ;;
    advance_bytes 1 ;;;
    whitespace_only ;;;
    (fun s =>
       match try_entries cast_table (terr SENone) s with
       | TOk t s' =>
         (whitespace_only ;;;
          inp <- input ;;
          if starts_with_c 41 inp then
            advance_bytes 1 ;;;
            p <- input_pos ;; tret (fst t, mk_span old_pos p)
          else put_pos old_pos ;;; terr SENone) s'
       | TErr _ s' => (put_pos old_pos ;;; terr SENone) s'
       | TPanic p => TPanic p
       | TFuel => TFuel
       end)
  else terr SENone.

(** src/tokenizer.rs:1211-1264. *)
Definition table3 : list entry :=
  [ E0 "eval" KEval; E0 "include_once" KIncludeOnce; E0 "include" KInclude;
    E0 "require_once" KRequireOnce; E0 "require" KRequire; E0 "namespace" KNamespace;
    E0 "use" KUse; E0 "insteadof" KInsteadof; E0 "global" KGlobal; E0 "isset" KIsset;
    E0 "empty" KEmpty; E0 "__halt_compiler" KHaltCompiler; E0 "static" KStatic;
    E0 "abstract" KAbstract; E0 "final" KFinal; E0 "private" KPrivate;
    E0 "protected" KProtected; E0 "public" KPublic; E0 "unset" KUnset; E0 "=>" KDoubleArrow;
    E0 "list" KList; E0 "array" KArray; E0 "callable" KCallable; E0 "++" KIncrement;
    E0 "--" KDecrement; E0 "===" KIsIdentical; E0 "!==" KIsNotIdentical; E0 "==" KIsEqual;
    E0 "!=" KIsNotEqual; E0 "<>" KIsNotEqual; E0 "<=>" KSpaceShip; E0 "<=" KIsSmallerOrEqual;
    E0 ">=" KIsGreaterOrEqual; E0 "+=" KPlusEqual; E0 "-=" KMinusEqual; E0 "*=" KMulEqual;
    E0 "**" KPow; E0 "**=" KPowEqual; E0 "/=" KDivEqual; E0 ".=" KConcatEqual;
    E0 "%=" KModEqual; E0 "<<=" KSlEqual; E0 ">>=" KSrEqual; E0 "&=" KAndEqual;
    E0 "|=" KOrEqual; E0 "^=" KXorEqual; E0 "||" KBoolOr; E0 "&&" KBoolAnd;
    E0 "OR" KLogicalOr; E0 "AND" KLogicalAnd; E0 "XOR" KLogicalXor; E0 "<<" KSl; E0 ">>" KSr;
    ("{", KCurlyBracesOpen, APush LInScripting) ]%string.

(** src/tokenizer.rs:1265-1272. *)
Definition match_close_brace : T tokspan :=
  t <- match_token_alias (s2l "}") KCurlyBracesClose APop ;;
  tret (fst t, set_doc (Some []) (snd t)).

(** src/tokenizer.rs:1273-1280. *)
Definition table4 : list entry :=
  [ E0 "__CLASS__" KMagicClass; E0 "__TRAIT__" KMagicTrait; E0 "__FUNCTION__" KMagicFunction;
    E0 "__METHOD__" KMagicMethod; E0 "__LINE__" KMagicLine; E0 "__FILE__" KMagicFile;
    E0 "__DIR__" KMagicDir; E0 "__NAMESPACE__" KMagicNamespace ]%string.

Definition unknown_character {A} : T A :=
  p <- input_pos ;; terr (SEUnknownCharacter (mk_span p (p + 1))).

(** src/tokenizer.rs:1111-1283 [in_scripting_other_token]. *)
Definition in_scripting_other_token : T tokspan :=
  try_entries table1 (ret_token match_yield (try_entries table2 (ret_token match_cast
    (try_entries table3 (ret_token match_close_brace (try_entries table4
      (ret_token m_token unknown_character))))))).

(** src/tokens.rs:36-44 [SyntaxError::span]; [None] is the [unimplemented!()] arm. *)
Definition err_span (e : syntax_error) : option span :=
  match e with
  | SENone => None
  | SEUnterminated _ s => Some s
  | SEUnknownCharacter s => Some s
  end.

(** src/tokenizer.rs:1066-1108: label against keyword, longest (by span end) wins. *)
Definition label_or_other (old_pos : nat) : T tokspan :=
  l <- label ;;
  put_pos old_pos ;;;
  (fun s =>
    match in_scripting_other_token s with
    | TPanic p => TPanic p
    | TFuel => TFuel
    | TOk t s' =>
      match l with
      | Some (name, sp) =>
        if sp_end sp <=? sp_end (snd t) then TOk t (set_pos (sp_end (snd t)) s')
        else TOk (TString name, sp) (set_pos (sp_end sp) s')
      | None => TOk t (set_pos (sp_end (snd t)) s')
      end
    | TErr e s' =>
      match l with
      | Some (name, sp) => TOk (TString name, sp) (set_pos (sp_end sp) s')
      | None =>
        match err_span e with
        | Some sp => TErr e (set_pos (sp_end sp) s')
        | None => unknown_character s'
        end
      end
    end).

(** src/tokenizer.rs:1059-1109 [in_scripting_token]. *)
Definition in_scripting_token : T tokspan :=
  whitespace ;;;
  inp <- input ;;
  match inp with
  | [] => tret end_token
  | _ =>
    old_pos <- input_pos ;;
    ret_token match_here_now_doc (ret_token bnum (ret_token hnum (ret_token onum_dnum_lnum
      (ret_token match_dq_string (ret_token match_variable (ret_token (match_sq_string lf)
        (ret_token match_comments (ret_token match_backquote
          (put_pos old_pos ;;; label_or_other old_pos)))))))))
  end.

(** src/tokenizer.rs:1285-1300 [looking_for_property_token]. *)
Definition looking_for_property_token : T tokspan :=
  whitespace ;;;
  ret_token (match_token_alias (s2l "->") KObjectOp ANone)
    (l <- label ;;
     match l with
     | Some (x, sp) => pop_state ;;; tret (TString x, sp)
     | None => pop_state ;;; (fun s => TErr SENone (set_restart true s))
     end).

(** src/tokenizer.rs:1018-1057 [initial_token].  With [short_tags = true] the inner
    loop ends in its first round: at the next "<?" or at the end of the input. *)
Definition initial_token : T tokspan :=
  inp <- input ;;
  match inp with
  | [] => (fun s => TOk end_token (set_mode LDone s))
  | _ =>
    ret_token (match_token_alias (s2l "<?=") KOpenTagWithEcho (ASet LInScripting))
      (ret_token (match_token_alias (s2l "<?php") KOpenTag (ASet LInScripting))
        (ret_token (match_token_alias (s2l "<?") KOpenTag (ASet LInScripting))
          (let end_pos := match find_sub (s2l "<?") inp with None => blen inp | Some x => x end in
           if negb (end_pos =? 0) then
             p <- input_pos ;;
             r <- advance_bytes end_pos ;;
             tret (TInlineHtml r, mk_span p (p + end_pos))
           else tret end_token)))
  end.

(** src/tokenizer.rs:991-1007: the scan for the current state, [EmitQueue] aside. *)
Definition scan : T tokspan := fun s =>
  match lmode s with
  | LDone | LDoNothing => TErr SENone s
  | LInitial => initial_token s
  | LInScripting => in_scripting_token s
  | LLookingForProperty => looking_for_property_token s
  | LEmitQueue => TErr SENone s
  end.

(** src/tokenizer.rs:988-1016 [next_token]. *)
Fixpoint nt_loop (n : nat) : T tokspan :=
  match n with
  | O => tfuel
  | S n' => fun s =>
    match lmode s, queue s with
    | LEmitQueue, x :: q => TOk x (set_queue q s)
    | LEmitQueue, [] =>
      match pop_state s with
      | TOk _ s' => nt_loop n' (set_restart true s')
      | TPanic p => TPanic p
      | _ => TFuel
      end
    | _, _ =>
      match scan s with
      | TErr SENone s' => if restart s' then nt_loop n' (set_restart false s') else TErr SENone s'
      | r => r
      end
    end
  end.
End Interp.

(** src/tokenizer.rs:988-1016 [next_token], the recursive knot. *)
Fixpoint next_token (f : nat) : T tokspan :=
  match f with
  | O => tfuel
  | S f' => nt_loop (next_token f') f' f'
  end.

(** src/tokenizer.rs:214-231 [Tokenizer::new]. *)
Definition tst_init : tst := mkTst 0 LInitial [] 1 [0] false [].

End Tokenizer.
