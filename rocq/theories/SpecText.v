(** * SpecText: how a sequence of tokens is written down (C41, C42, C43)

    The relations below say which characters stand for which tokens, and which characters
    stand for none.  They mention no function of the tokenizer.  [r] is always the text that
    follows: where it matters, a rule says what must not follow. *)
From Verif Require Import Base Tokens Spec SpecMixed.
From Coq Require Import String.
Local Open Scope list_scope.

(** ** Small parts *)
Definition no_point (r : str) : Prop := forall q, r <> s2l "." ++ q.
Definition digits (w : str) : Prop := Forall (fun c => (48 <= c <= 57)%N) w.
Definition no_digit (r : str) : Prop := forall c q, r = c :: q -> ~ (48 <= c <= 57)%N.
(** [w] writes the digits [ds] of a number to the base [base]; [r] does not begin with such a digit *)
Definition in_base (base : N) (w : str) (ds : list N) : Prop := Forall2 (fun c d => (d < base)%N /\ exists up, c = digit_char up d) w ds.
Definition no_base (base : N) (r : str) : Prop := forall c q up d, r = c :: q -> (d < base)%N -> c <> digit_char up d.
Definition radixes : list (string * N) := [("0x", 16%N); ("0b", 2%N)]%string.
(** [w], in front of [r], ends a line *)
Definition new_line (w r : str) : Prop := w = [10%N] \/ w = [13%N; 10%N] \/ (w = [13%N] /\ forall q, r <> 10%N :: q).
(** what follows the end tag of a heredoc or nowdoc *)
Definition line_end (r : str) : Prop := exists c q, In c [10; 13]%N /\ (r = c :: q \/ r = 59%N :: c :: q).
Definition letter_or_digit (c : N) : Prop := (48 <= c <= 57 \/ 65 <= c <= 90 \/ 97 <= c <= 122)%N.
(** HTML; the tags that end it, with the token they are *)
Definition html (w : str) : list token := match w with [] => [] | _ => [TInlineHtml w] end.
Inductive Tag : str -> kind -> str -> Prop :=
| tag_php r : Tag (s2l "<?php") KOpenTag r
| tag_echo r : Tag (s2l "<?=") KOpenTagWithEcho r
| tag_short r : starts_with (s2l "php") r = false -> starts_with (s2l "=") r = false -> Tag (s2l "<?") KOpenTag r.
(** arrows, one behind the other *)
Inductive Arrows : str -> list token -> Prop :=
| arrows_one : Arrows (s2l "->") [Kw KObjectOp]
| arrows_more w x ts : white w = true -> Arrows x ts -> Arrows (s2l "->" ++ w ++ x) (Kw KObjectOp :: ts).

(** ** The beginning of strings *)
(** double quotes, backquotes, a heredoc or a nowdoc with its tag *)
Inductive quoting := Quotes | Back | Doc (tag : str) | Now (tag : str).
(** [Opened q whole inp]: [whole] opens a string; its content begins with [inp] *)
Inductive Opened : quoting -> str -> str -> Prop :=
| opened_quotes (bin : bool) inp : (bin = false -> inp <> []) -> Opened Quotes (s2l (if bin then "b""" else """") ++ inp) inp
| opened_back inp : inp <> [] -> Opened Back (s2l "`" ++ inp) inp
| opened_doc (bin quoted : bool) a tag nl inp whole : blanks a -> name_ok tag = true -> new_line nl inp ->
    whole = s2l (if bin then "b<<<" else "<<<") ++ a ++ (if quoted then [34%N] ++ tag ++ [34%N] else tag) ++ nl ++ inp ->
    8 <= blen whole -> Opened (Doc tag) whole inp
| opened_now (bin : bool) a tag nl inp whole : blanks a -> name_ok tag = true -> new_line nl inp ->
    whole = s2l (if bin then "b<<<" else "<<<") ++ a ++ (s2l "'" ++ tag ++ s2l "'") ++ nl ++ inp ->
    8 <= blen whole -> Opened (Now tag) whole inp.
Definition opens_doc (whole : str) : Prop := exists q inp, Opened q whole inp /\ q <> Quotes /\ q <> Back.
(** a [b] in front of a quote or of a heredoc belongs to the string *)
Definition no_prefix (w r : str) : Prop :=
  w = s2l "b" -> (forall q, r <> s2l "'" ++ q /\ r <> [34%N] ++ q) /\ ~ opens_doc (w ++ r).

(** ** Single tokens: [Lexeme w t r]: the characters [w] in front of [r] are the token [t] *)
Inductive Lexeme : str -> token -> str -> Prop :=
| lx_keyword w k r : In (w, k) keywords -> ends_word r = true -> Lexeme (s2l w) (Kw k) r
| lx_name w r : identifier w = true -> ends_word r = true -> (forall x k, In (x, k) keywords -> s2l x <> w) ->
    w <> s2l "yield" -> w <> s2l "yieldfrom" -> no_prefix w r -> Lexeme w (TString w) r
| lx_variable v r : name_ok v = true -> ends_word r = true -> Lexeme (s2l "$" ++ v) (TVariable v) r
| lx_decimal ds r : decimal ds -> (number 10 ds <= i64_max)%N -> no_point r -> no_digit r ->
    (ds = [0%N] -> forall q, q <> [] -> r <> s2l "x" ++ q /\ r <> s2l "b" ++ q) ->
    Lexeme (map (digit_char false) ds) (TInt (Z.of_N (number 10 ds))) r
| lx_octal ds r : ds <> [] -> Forall (fun d => (d < 8)%N) ds -> (number 8 ds <= i64_max)%N -> no_point r -> no_digit r ->
    Lexeme (s2l "0" ++ map (digit_char false) ds) (TInt (Z.of_N (number 8 ds))) r
| lx_radix p base w ds r : In (p, base) radixes -> in_base base w ds -> ds <> [] -> (number base ds <= i64_max)%N -> no_base base r ->
    Lexeme (s2l p ++ w) (TInt (Z.of_N (number base ds))) r
| lx_double w v r : digits w -> digits v -> w ++ v <> [] -> no_digit r -> Lexeme (w ++ s2l "." ++ v) (TDouble (w ++ s2l "." ++ v)) r
| lx_single (bin : bool) c r : sq_content c = true -> Forall scalar c -> Lexeme (s2l (if bin then "b'" else "'") ++ c ++ s2l "'") (TCes (sq_decode c)) r
| lx_cast a x b k r : In (x, k) cast_words -> blanks a -> blanks b -> Lexeme (cast_text a x b) (Kw k) r
| lx_operator op k r : In (op, k) operators -> ~ In op ["->"; "{"; "}"; "?>"]%string -> longest op (s2l op ++ r) ->
    not_operator (s2l op ++ r) = false ->
    (forall a x b k r2, In (x, k) cast_words -> blanks a -> blanks b -> s2l op ++ r <> cast_text a x b ++ r2) ->
    Lexeme (s2l op) (Kw k) r
| lx_shift r : ~ opens_doc (s2l "<<<" ++ r) -> Lexeme (s2l "<<") (Kw KSl) (s2l "<" ++ r).

(** a hexadecimal or binary number without digits is skipped if one of these follows *)
Inductive again : str -> Prop :=
| again_number c r : (48 <= c <= 57)%N -> again (c :: r)
| again_point r : (forall c q, r = c :: q -> (48 <= c <= 57)%N) -> again (s2l "." ++ r)
| again_variable v r : name_ok v = true -> again (s2l "$" ++ v ++ r)
| again_quote c r : In c [34; 39; 96]%N -> r <> [] -> again (c :: r)
| again_prefix c r : In c [34; 39]%N -> again (98%N :: c :: r)
| again_comment w r : In w ["#"; "//"; "/*"]%string -> again (s2l w ++ r).

(** ** Inside strings *)
(** the token of the bytes [b]: the characters they encode, or the bytes themselves *)
Inductive Fragment : bytes -> token -> Prop :=
| fragment_text s : Forall scalar s -> Fragment (encode s) (TCes s)
| fragment_bytes b : (forall s, Forall scalar s -> encode s <> b) -> Fragment b (TBin b).
(** no token if there are none *)
Inductive Literal : bytes -> list token -> Prop :=
| literal_none : Literal [] []
| literal_some b t : b <> [] -> Fragment b t -> Literal b [t].
(** a character that stands for itself; one that is no line end *)
Definition verbatim (q : quoting) (c : N) : Prop :=
  match q with
  | Quotes | Back => ~ In c [92; 34; 36; 123]%N
  | Doc _ | Now _ => ~ In c [92; 36; 10; 123]%N
  end.
Definition plain_char (q : quoting) (c : N) : Prop := verbatim q c /\ c <> 10%N.
Definition is_doc (q : quoting) (tag : str) : Prop := q = Doc tag \/ q = Now tag.
(** strings with escapes; strings with variables *)
Definition escapes (q : quoting) : Prop := match q with Quotes | Doc _ => True | _ => False end.
Definition splices (q : quoting) : Prop := match q with Now _ => False | _ => True end.

(** ** What becomes of a source that is not read to its end
    The run panics; it never ends; or it reports [c] for the [len] bytes that begin where
    [from], the last part of the source, begins. *)
Inductive complaint := Unterminated (what : string) | Unknown.
Inductive fate := Panics | Hangs | Reports (c : complaint) (from : str) (len : nat).
(** where reading goes on behind a complaint *)
Inductive resumes : complaint -> str -> str -> Prop :=
| resumes_same what r : resumes (Unterminated what) r r
| resumes_next c r : clen c = 1 -> resumes Unknown (c :: r) r.
(** a character with which no token begins *)
Definition stray (c : N) : Prop :=
  name_char c = false /\ white [c] = false /\ ~ In c [34; 35; 39; 96]%N /\ forall op k, In (op, k) operators -> hd_error (s2l op) <> Some c.
(** numbers that are none, or that are too big *)
Inductive bad_number : str -> Prop :=
| bad_decimal ds r : decimal ds -> (i64_max < number 10 ds)%N -> no_point r -> no_digit r -> bad_number (map (digit_char false) ds ++ r)
| bad_octal ds r : ds <> [] -> Forall (fun d => (d < 10)%N) ds -> Exists (fun d => (8 <= d)%N) ds \/ (i64_max < number 8 ds)%N -> no_point r -> no_digit r ->
    bad_number (s2l "0" ++ map (digit_char false) ds ++ r)
| bad_radix p base w ds r : In (p, base) radixes -> in_base base w ds -> (i64_max < number base ds)%N -> no_base base r -> bad_number (s2l p ++ w ++ r)
| bad_point : bad_number (s2l ".").
Definition opener (dollar : bool) : string * kind := if dollar then ("${"%string, KDollarCurlyBracesOpen) else ("{"%string, KCurlyBracesOpen).

(** ** The rules
    [Text d inp ts d' r]: the characters from [inp] up to [r] are the tokens [ts]; before
    them [d] braces are open, behind them [d'].
    [Pieces q b inp us b' r], [Piece ...]: the same inside a string; [b] are the bytes of
    the text that is not yet a token, [b'] those behind it.
    [Behind q inp us b r]: [r] begins where the content [inp] begins, or behind a piece of
    it that is more than one plain character.
    [Stuck top d r x]: in front of [r] the tokenizer cannot go on; [top] is [false] for the
    code inside a string.  [Bad q r x]: the same inside a string. *)
Inductive Text : nat -> str -> list token -> nat -> str -> Prop :=
| tx_stop d r : Text d r [] d r
| tx_white w d r ts d' q : white w = true -> Text d r ts d' q -> Text d (w ++ r) ts d' q
| tx_line (hash : bool) w d r ts d' q : ~ In 10%N w -> (r = [] \/ exists z, r = 10%N :: z) -> Text d r ts d' q ->
    Text d (s2l (if hash then "#" else "//") ++ w ++ r) (TComment w :: ts) d' q
| tx_block w d r ts d' q : w <> [] -> starts_with (s2l "*") w = false -> no_close w -> Text d r ts d' q -> Text d (s2l "/*" ++ w ++ s2l "*/" ++ r) (TComment w :: ts) d' q
| tx_doc w d r ts d' q : no_close w -> Text d r ts d' q -> Text d (s2l "/**" ++ w ++ s2l "*/" ++ r) (TComment w :: ts) d' q
| tx_lexeme w t d r ts d' q : Lexeme w t r -> Text d r ts d' q -> Text d (w ++ r) (t :: ts) d' q
| tx_prefix p base d r ts d' q : In (p, base) radixes -> no_base base r -> again r -> Text d r ts d' q -> Text d (s2l p ++ r) ts d' q
| tx_yield w d r ts d' q : white w = true -> (forall c z, r = c :: z -> white [c] = false) -> ends_word (w ++ r) = true ->
    starts_with (s2l "from") r = false -> Text d r ts d' q -> Text d (s2l "yield" ++ w ++ r) (Kw KYield :: ts) d' q
| tx_yield_from w d r ts d' q : white w = true -> (w = [] -> ends_word r = true) -> Text d r ts d' q ->
    Text d (s2l "yield" ++ w ++ s2l "from" ++ r) (Kw KYieldFrom :: ts) d' q
(* the characters of a name are counted, as many bytes are skipped, the rest is read again *)
| tx_wide a b d r ts d' q : name_ok (a ++ b) = true -> b <> [] -> ends_word r = true -> blen a = List.length (a ++ b) -> Text d (b ++ r) ts d' q ->
    Text d (a ++ b ++ r) (TString (a ++ b) :: ts) d' q
| tx_open d r ts d' q : Text (S d) r ts d' q -> Text d (s2l "{" ++ r) (Kw KCurlyBracesOpen :: ts) d' q
| tx_close d r ts d' q : Text d r ts d' q -> Text (S d) (s2l "}" ++ r) (Kw KCurlyBracesClose :: ts) d' q
| tx_property x us w n d r ts d' q : Arrows x us -> white w = true -> name_ok n = true -> ends_word r = true -> Text d r ts d' q ->
    Text d (x ++ w ++ n ++ r) (us ++ TString n :: ts) d' q
| tx_arrow x us w d r ts d' q : Arrows x us -> white w = true -> (forall c z, r = c :: z -> white [c] = false /\ name_ok [c] = false) ->
    starts_with (s2l "->") r = false -> Text d r ts d' q -> Text d (x ++ w ++ r) (us ++ ts) d' q
| tx_html w p k d r ts d' q : no_tag w -> Tag p k r -> Text d r ts d' q ->
    Text d (s2l "?>" ++ w ++ p ++ r) (Kw KCloseTag :: html w ++ Kw k :: ts) d' q
| tx_string d whole inp us b l r ts d' q : Opened Quotes whole inp -> Pieces Quotes [] inp us b ([34%N] ++ r) -> Literal b l -> Text d r ts d' q ->
    Text d whole (Kw KDoubleQuote :: (us ++ l) ++ Kw KDoubleQuote :: ts) d' q
| tx_heredoc tag d whole inp us b l r ts d' q : Opened (Doc tag) whole inp -> Pieces (Doc tag) [] inp us b ([10%N] ++ tag ++ r) -> Literal b l -> line_end r ->
    Text d r ts d' q -> Text d whole (Kw KHereDocStart :: (us ++ l) ++ Kw KHereDocEnd :: ts) d' q
| tx_nowdoc tag d whole inp b t r ts d' q : Opened (Now tag) whole inp -> Pieces (Now tag) [] inp [] b ([10%N] ++ tag ++ r) -> Fragment b t -> line_end r ->
    Text d r ts d' q -> Text d whole (t :: ts) d' q
(* a backquote ends a string only if it is the last character of the source *)
| tx_back d whole inp us b w l : Opened Back whole inp -> Behind Back inp us b (w ++ [96%N]) -> Forall (plain_char Back) w -> Literal (b ++ encode w) l ->
    Text d whole (Kw KBackquote :: (us ++ l) ++ [Kw KBackquote]) d []
with Pieces : quoting -> bytes -> str -> list token -> bytes -> str -> Prop :=
| ps_none q b r : Pieces q b r [] b r
| ps_more q b inp ts b1 inp1 us b2 r : Piece q b inp ts b1 inp1 -> Pieces q b1 inp1 us b2 r -> Pieces q b inp (ts ++ us) b2 r
with Piece : quoting -> bytes -> str -> list token -> bytes -> str -> Prop :=
| pc_newline q tag b r : is_doc q tag -> starts_with tag r = false -> Piece q b ([10%N] ++ r) [] (b ++ [10%N]) r
| pc_char q c b r : verbatim q c -> Piece q b ([c] ++ r) [] (b ++ enc1 c) r
| pc_escape q c b r : escapes q -> ~ In c (s2l "euxX") -> Piece q b (s2l "\" ++ [c] ++ r) [] (b ++ dq_escape c) r
| pc_byte q c up up' x y b r : escapes q -> In c (s2l "xX") -> (x < 16)%N -> (y < 16)%N -> r <> [] ->
    Piece q b (s2l "\" ++ [c; digit_char up x; digit_char up' y] ++ r) [] (b ++ [16 * x + y]%N) r
| pc_short_byte q c up x b r : escapes q -> In c (s2l "xX") -> (x < 16)%N -> r <> [] -> (forall d z, r = d :: z -> ~ letter_or_digit d) ->
    Piece q b (s2l "\" ++ [c; digit_char up x] ++ r) [] (b ++ [x]) r
| pc_no_byte q c b r : escapes q -> In c (s2l "xX") -> (forall d z, r = d :: z -> ~ letter_or_digit d) ->
    Piece q b (s2l "\" ++ [c] ++ r) [] (b ++ [92%N; c]) r
| pc_raw_quote tag c b r : In c [39; 92]%N -> Piece (Now tag) b (s2l "\" ++ [c] ++ r) [] (b ++ [c]) r
| pc_raw tag c b r : ~ In c [39; 92]%N -> Piece (Now tag) b (s2l "\" ++ [c] ++ r) [] (b ++ 92%N :: enc1 c) r
| pc_dollar q b r : splices q -> (forall c z, r = c :: z -> name_ok [c] = false /\ c <> 123%N) -> Piece q b (s2l "$" ++ r) [] (b ++ [36%N]) r
| pc_brace q b r : splices q -> starts_with (s2l "$") r = false -> Piece q b (s2l "{" ++ r) [] (b ++ [123%N]) r
| pc_variable q v b l r : splices q -> Literal b l -> name_ok v = true -> ends_word r = true -> starts_with (s2l "[") r = false ->
    (forall c z, r = s2l "->" ++ c :: z -> name_ok [c] = false) -> Piece q b (s2l "$" ++ v ++ r) (l ++ [TVariable v]) [] r
| pc_property q v p b l r : splices q -> Literal b l -> name_ok v = true -> name_ok p = true -> ends_word r = true ->
    Piece q b (s2l "$" ++ v ++ s2l "->" ++ p ++ r) (l ++ [TVariable v; Kw KObjectOp; TString p]) [] r
| pc_code q dollar b l inp ts r : splices q -> Literal b l -> (dollar = false -> starts_with (s2l "$") inp = true) -> Text 0 inp ts 0 (s2l "}" ++ r) ->
    Piece q b (s2l (fst (opener dollar)) ++ inp) (l ++ Kw (snd (opener dollar)) :: ts ++ [Kw KCurlyBracesClose]) [] r
(* code that cannot be read: the brace is dropped, the rest is text *)
| pc_lost q b inp ts d r c from len : splices q -> starts_with (s2l "$") inp = true -> Text 0 inp ts d r -> Stuck false d r (Reports c from len) ->
    List.last ts (Kw KEnd) <> Kw KCurlyBracesClose -> Piece q b (s2l "{" ++ inp) [] b inp
| pc_lost_html q b inp ts d w : splices q -> starts_with (s2l "$") inp = true -> Text 0 inp ts d (s2l "?>" ++ w) -> no_tag w -> Piece q b (s2l "{" ++ inp) [] b inp
(* unless the last of its tokens is a closing brace: it is taken for the end of the code *)
| pc_cut q dollar b l inp ts d r c from len z : splices q -> Literal b l -> (dollar = false -> starts_with (s2l "$") inp = true) ->
    Text 0 inp ts d r -> Stuck false d r (Reports c from len) -> List.last ts (Kw KEnd) = Kw KCurlyBracesClose -> resumes c from z ->
    Piece q b (s2l (fst (opener dollar)) ++ inp) (l ++ Kw (snd (opener dollar)) :: ts) [] z
with Behind : quoting -> str -> list token -> bytes -> str -> Prop :=
| behind_start q inp : Behind q inp [] [] inp
| behind_piece q inp us b p ts b' r : Pieces q [] inp us b p -> Piece q b p ts b' r -> (forall c z, p = c :: z -> ~ plain_char q c) -> Behind q inp (us ++ ts) b' r
with Stuck : bool -> nat -> str -> fate -> Prop :=
| st_number top d r : bad_number r -> Stuck top d r Panics
| st_prefix top d p base r : In (p, base) radixes -> no_base base r -> r <> [] -> ~ again r -> Stuck top d (s2l p ++ r) (Reports Unknown (s2l p ++ r) 1)
| st_brace r : Stuck true 0 (s2l "}" ++ r) Panics
| st_stray top d c r : stray c -> Stuck top d (c :: r) (Reports Unknown (c :: r) 1)
| st_quote top d c : In c [34; 39; 96]%N -> Stuck top d [c] (Reports Unknown [c] 1)
| st_comment top d w : no_close w -> starts_with (s2l "*") w = false -> Stuck top d (s2l "/*" ++ w) (Reports (Unterminated "comment") w 0)
| st_doc_comment top d w : no_close w -> Stuck top d (s2l "/**" ++ w) (Reports (Unterminated "comment") w 0)
| st_single top d (bin : bool) w : sq_content w = true -> (bin = false -> w <> []) ->
    let whole := s2l (if bin then "b'" else "'") ++ w in
    Stuck top d whole (Reports (Unterminated "single-quoted string literal") whole (blen whole + 1))
| st_single_escape top d (bin : bool) w : sq_content w = true ->
    Stuck top d (s2l (if bin then "b'" else "'") ++ w ++ s2l "\") (Reports (Unterminated "string escape sequence") (s2l "\") 1)
| st_wide_name top d w r : name_ok w = true -> ends_word r = true -> (forall a b, w = a ++ b -> blen a <> List.length w) -> Stuck top d (w ++ r) Panics
| st_double top d whole inp us b r c : Opened Quotes whole inp -> Behind Quotes inp us b (r ++ [c]) -> Forall (plain_char Quotes) (r ++ [c]) ->
    Stuck top d whole (Reports (Unterminated "double-quoted string literal") whole (blen whole - clen c))
| st_back top d whole inp us b r c : Opened Back whole inp -> Behind Back inp us b (r ++ [c]) -> Forall (plain_char Back) (r ++ [c]) -> c <> 96%N ->
    Stuck top d whole (Reports (Unterminated "Backquote") whole (blen whole - clen c))
| st_back_stop top d whole inp us b c r : Opened Back whole inp -> Pieces Back [] inp us b (c :: r) -> In c [34; 92]%N ->
    Stuck top d whole (Reports (Unterminated "Backquote") whole (blen whole - blen (c :: r)))
| st_end top d q whole inp us b : In q [Quotes; Back] -> Opened q whole inp -> Behind q inp us b [] -> Stuck top d whole Panics
| st_doc top d q tag whole inp us b : is_doc q tag -> Opened q whole inp -> Pieces q [] inp us b [] ->
    Stuck top d whole (Reports (Unterminated "Here/Nowdoc") whole (blen whole))
| st_now_stop top d tag whole inp us b c r : Opened (Now tag) whole inp -> Pieces (Now tag) [] inp us b (c :: r) -> In c [36; 123]%N ->
    Stuck top d whole (Reports (Unterminated "Here/Nowdoc") whole (blen whole - blen (c :: r)))
| st_tag top d q tag whole inp us b (semicolon : bool) r : is_doc q tag -> Opened q whole inp ->
    Pieces q [] inp us b ([10%N] ++ tag ++ s2l (if semicolon then ";" else "") ++ r) ->
    (semicolon = false -> starts_with (s2l ";") r = false) -> (forall c z, r = c :: z -> ~ In c [10; 13]%N) ->
    Stuck top d whole (Reports (Unterminated "Here/Nowdoc: end-tag requires to be followed by a newline") whole (blen whole - blen r))
| st_inside top d q whole inp us b r x : Opened q whole inp -> Pieces q [] inp us b r -> Bad q r x -> Stuck top d whole x
with Bad : quoting -> str -> fate -> Prop :=
| bad_escape q c r : escapes q -> In c (s2l "eu") -> Bad q (s2l "\" ++ [c] ++ r) Panics
| bad_last q : q <> Back -> Bad q (s2l "\") (Reports (Unterminated "string escape sequence") (s2l "\") 1)
| bad_byte q c w r : escapes q -> In c (s2l "xX") -> w <> [] -> List.length w <= 2 -> Forall letter_or_digit w ->
    (List.length w = 1 -> forall d z, r = d :: z -> ~ letter_or_digit d) ->
    r = [] \/ Exists (fun d => forall up v, (v < 16)%N -> d <> digit_char up v) w -> Bad q (s2l "\" ++ [c] ++ w ++ r) Panics
| bad_index q v r : splices q -> name_ok v = true -> Bad q (s2l "$" ++ v ++ s2l "[" ++ r) Panics
| bad_code q dollar code ts d r x : splices q -> (dollar = false -> starts_with (s2l "$") code = true) ->
    Text 0 code ts d r -> Stuck false d r x -> x = Panics \/ x = Hangs -> Bad q (s2l (fst (opener dollar)) ++ code) x
| bad_open_code q dollar code ts d : splices q -> (dollar = false -> starts_with (s2l "$") code = true) ->
    Text 0 code ts d [] -> Bad q (s2l (fst (opener dollar)) ++ code) Hangs
| bad_dollar_code q code ts d r c from len : splices q -> Text 0 code ts d r -> Stuck false d r (Reports c from len) ->
    List.last ts (Kw KEnd) <> Kw KCurlyBracesClose -> Bad q (s2l "${" ++ code) Panics
| bad_dollar_html q code ts d w : splices q -> Text 0 code ts d (s2l "?>" ++ w) -> no_tag w -> Bad q (s2l "${" ++ code) Panics
(* as with [pc_cut], but reading would go on in the middle of a character *)
| bad_cut q dollar code ts d r c z len : splices q -> (dollar = false -> starts_with (s2l "$") code = true) ->
    Text 0 code ts d r -> Stuck false d r (Reports Unknown (c :: z) len) -> List.last ts (Kw KEnd) = Kw KCurlyBracesClose -> clen c <> 1 ->
    Bad q (s2l (fst (opener dollar)) ++ code) Panics.

(** ** Whole sources *)
Inductive Source : str -> list token -> Prop :=
| source_text w : no_tag w -> Source w (html w)
| source_script w p k r ts d : no_tag w -> Tag p k r -> Text 0 r ts d [] -> Source (w ++ p ++ r) (html w ++ Kw k :: ts)
| source_html w p k r ts d v : no_tag w -> Tag p k r -> Text 0 r ts d (s2l "?>" ++ v) -> no_tag v ->
    Source (w ++ p ++ r) (html w ++ Kw k :: ts ++ Kw KCloseTag :: html v).
Inductive Unread : str -> fate -> Prop :=
| unread w p k r ts d q x : no_tag w -> Tag p k r -> Text 0 r ts d q -> Stuck true d q x -> Unread (w ++ p ++ r) x.
