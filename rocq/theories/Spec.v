(** * Spec: vocabulary of the property statements that the model does not have. *)
From Verif Require Import Base Tokens Ast AstMap Interner Lexer Parser Driver.
From Coq Require Import String.

(** ** C07: a history of [intern] calls on one interner and the handles it returned *)
Fixpoint intern_all (i : interner) (l : list str) : list rcstr * interner :=
  match l with
  | [] => ([], i)
  | s :: r => let (x, i') := intern i s in let (xs, i'') := intern_all i' r in (x :: xs, i'')
  end.

(** ** C05, C06: line tables *)
Definition nondecreasing (l : list nat) : Prop :=
  forall i j a b, i <= j -> nth_error l i = Some a -> nth_error l j = Some b -> a <= b.

(** ** C26: Unicode scalar values *)
Definition scalar (c : N) : Prop := ((c < 55296) \/ (57344 <= c < 1114112))%N.

(** ** C32: child processes of the tester *)
(** handling file [i] changes no other file on disk *)
Definition touches_own (run : nat -> bool -> fs -> bool * fs) : Prop :=
  forall i b d j, j <> i -> snd (run i b d) j = d j.
(** Every file parses and is rewritten to [new i]; the check, when it is run, passes
    iff every bad file still has its original contents on disk. *)
Definition checks (run : nat -> bool -> fs -> bool * fs) (src new : nat -> str) (bad : nat -> Prop) : Prop :=
  forall i nocheck d,
  (forall j, snd (run i nocheck d) j = if j =? i then new i else d j) /\
  (nocheck = true -> fst (run i nocheck d) = true) /\
  (nocheck = false ->
     (fst (run i nocheck d) = true <-> forall j, bad j -> snd (run i nocheck d) j = src j)).
Definition bad_changes (src new : nat -> str) (bad : nat -> Prop) : Prop := forall j, bad j -> new j <> src j.

(** ** C16: outcomes of the parser that agree up to positions *)
Definition same_outcome (a b : pout (list stmt)) : Prop :=
  match a, b with
  | POk l p, POk l' p' => p = p' /\ strip l = strip l'
  | PErr e p, PErr e' p' => p = p' /\ e = e'
  | PPanic x, PPanic y => x = y
  | _, _ => False
  end.

(** ** C18: material found in the tokens *)
(** a name token or the text of a keyword *)
Definition name_in (toks : list tokspan) (s : str) : Prop :=
  In (TString s) (map fst toks) \/ exists k r, repr k = Some r /\ s = s2l r.
(** the text of a string or HTML token *)
Definition text_in (toks : list tokspan) (s : str) : Prop :=
  In (TCes s) (map fst toks) \/ In (TInlineHtml s) (map fst toks).

(** ** C15: comments *)
Definition drop_comments (l : list tokspan) : list tokspan :=
  filter (fun t => match fst t with TComment _ => false | _ => true end) l.

(** ** C36: consistent renaming *)
Definition rename_token (fv : str -> str) (fz : Z -> Z) (fd : str -> str) (g : N -> str) (t : token) : token :=
  match t with
  | TVariable s => TVariable (fv s)
  | TInt z => TInt (fz z)
  | TDouble d => TDouble (fd d)
  | TCes s => TCes (flat_map g s)
  | TInlineHtml s => TInlineHtml (flat_map g s)
  | t => t
  end.
Definition rename_tokens fv fz fd g (toks : list tokspan) : list tokspan :=
  map (fun t => (rename_token fv fz fd g (fst t), snd t)) toks.
(** all positions are dropped *)
Definition rename_tree fv fz fd g (l : list stmt) : list stmt :=
  map (map_stmt (mkMaps (fun _ => span_new) fv fz fd (flat_map g))) l.

(** ** C11, C35: the reserved words ([yield] is context dependent: see the theorems) *)
Definition keywords : list (string * kind) :=
  [ ("__class__", KMagicClass); ("__dir__", KMagicDir); ("__file__", KMagicFile);
    ("__function__", KMagicFunction); ("__halt_compiler", KHaltCompiler); ("__line__", KMagicLine);
    ("__method__", KMagicMethod); ("__namespace__", KMagicNamespace); ("__trait__", KMagicTrait);
    ("abstract", KAbstract); ("and", KLogicalAnd); ("array", KArray); ("as", KAs);
    ("break", KBreak); ("callable", KCallable); ("case", KCase); ("catch", KCatch);
    ("class", KClass); ("clone", KClone); ("const", KConst); ("continue", KContinue);
    ("declare", KDeclare); ("default", KDefault); ("die", KExit); ("do", KDo); ("echo", KEcho);
    ("else", KElse); ("elseif", KElseIf); ("empty", KEmpty); ("enddeclare", KEndDeclare);
    ("endfor", KEndfor); ("endforeach", KEndForeach); ("endif", KEndIf); ("endswitch", KEndSwitch);
    ("endwhile", KEndWhile); ("eval", KEval); ("exit", KExit); ("extends", KExtends);
    ("final", KFinal); ("finally", KFinally); ("for", KFor); ("foreach", KForeach);
    ("function", KFunction); ("global", KGlobal); ("goto", KGoto); ("if", KIf);
    ("implements", KImplements); ("include", KInclude); ("include_once", KIncludeOnce);
    ("instanceof", KInstanceOf); ("insteadof", KInsteadof); ("interface", KInterface);
    ("isset", KIsset); ("list", KList); ("namespace", KNamespace); ("new", KNew);
    ("or", KLogicalOr); ("print", KPrint); ("private", KPrivate); ("protected", KProtected);
    ("public", KPublic); ("require", KRequire); ("require_once", KRequireOnce);
    ("return", KReturn); ("static", KStatic); ("switch", KSwitch); ("throw", KThrow);
    ("trait", KTrait); ("try", KTry); ("unset", KUnset); ("use", KUse); ("var", KVar);
    ("while", KWhile); ("xor", KLogicalXor) ]%string.
(** [w] is an ASCII identifier: letters, digits and underscores, no digit first *)
Definition ascii_letter (c : N) : bool :=
  (((97 <=? c) && (c <=? 122)) || ((65 <=? c) && (c <=? 90)) || (c =? 95))%N.
Definition identifier (w : str) : bool :=
  match w with
  | c :: r => ascii_letter c && forallb (fun c => ascii_letter c || ((48 <=? c) && (c <=? 57))%N) r
  | [] => false
  end.
(** [r] does not continue an identifier; PHP counts the code points 128-255 as letters *)
Definition ends_word (r : str) : bool :=
  match r with
  | c :: _ => negb (ascii_letter c || ((48 <=? c) && (c <=? 57)) || ((128 <=? c) && (c <=? 255)))%N
  | [] => true
  end.

(** ** C12: the operators and punctuation *)
Definition operators : list (string * kind) :=
  [ ("!", KBoolNot); ("!=", KIsNotEqual); ("!==", KIsNotIdentical); ("$", KDollar); ("%", KMod);
    ("%=", KModEqual); ("&", KAmpersand); ("&&", KBoolAnd); ("&=", KAndEqual);
    ("(", KParenthesesOpen); (")", KParenthesesClose); ("*", KMul); ("**", KPow);
    ("*=", KMulEqual); ("+", KPlus); ("++", KIncrement); ("+=", KPlusEqual); (",", KComma);
    ("-", KMinus); ("--", KDecrement); ("-=", KMinusEqual); ("->", KObjectOp); (".", KDot);
    ("...", KEllipsis); (".=", KConcatEqual); ("/", KDiv); ("/=", KDivEqual); (":", KColon);
    ("::", KScopeOp); (";", KSemiColon); ("<", KLt); ("<<", KSl); ("<<=", KSlEqual);
    ("<=", KIsSmallerOrEqual); ("<=>", KSpaceShip); ("<>", KIsNotEqual); ("=", KEqual);
    ("==", KIsEqual); ("===", KIsIdentical); ("=>", KDoubleArrow); (">", KGt);
    (">=", KIsGreaterOrEqual); (">>", KSr); (">>=", KSrEqual); ("?", KQuestionMark);
    ("?>", KCloseTag); ("??", KCoalesce); ("@", KSilence); ("[", KSquareBracketOpen);
    ("\", KNsSeparator); ("]", KSquareBracketClose); ("^", KBwXor); ("^=", KXorEqual);
    ("{", KCurlyBracesOpen); ("|", KBwOr); ("|=", KOrEqual); ("||", KBoolOr);
    ("}", KCurlyBracesClose); ("~", KBwNot) ]%string.

(** ** C08, C09: number literals *)
Definition digit_char (upper : bool) (d : N) : N :=
  (if d <? 10 then 48 + d else if upper then 55 + d else 87 + d)%N.
(** the value of a list of digits, most significant first *)
Definition number (base : N) (ds : list N) : N := fold_left (fun a d => a * base + d)%N ds 0%N.
(** [ds] is the decimal notation of a number: no superfluous zero in front *)
Definition decimal (ds : list N) : Prop :=
  ds <> [] /\ Forall (fun d => (d < 10)%N) ds /\ (hd 0%N ds = 0%N -> ds = [0%N]).
(** the program consisting of one expression *)
Definition expr_program (e : expr_) : list stmt := [St (SExpr (Ex e span_new)) span_new].

(** ** C13: single-quoted strings *)
(** the characters between the quotes: no quote without a backslash, no half escape *)
Fixpoint sq_content (s : str) : bool :=
  match s with
  | [] => true
  | c :: r =>
    if (c =? 39)%N then false
    else if (c =? 92)%N then match r with _ :: r' => sq_content r' | [] => false end
    else sq_content r
  end.
(** what PHP makes of them *)
Fixpoint sq_decode (s : str) : str :=
  match s with
  | [] => []
  | c :: r =>
    match r with
    | d :: r' => if (c =? 92)%N && ((d =? 92) || (d =? 39))%N then d :: sq_decode r' else c :: sq_decode r
    | [] => [c]
    end
  end.

(** ** C14, C31: double-quoted strings *)
(** a literal character, an escape, a byte in hexadecimal, a variable, a property *)
Inductive dq_piece := DqChar (c : N) | DqEsc (c : N) | DqHex (up : bool) (a b : N) | DqVar (v : str) | DqProp (v p : str).
Definition dq_text1 (p : dq_piece) : str :=
  match p with
  | DqChar c => [c]
  | DqEsc c => [92; c]%N
  | DqHex up a b => [92; 120; digit_char up a; digit_char up b]%N
  | DqVar v => 36%N :: v
  | DqProp v p => 36%N :: v ++ s2l "->" ++ p
  end.
Definition dq_text (ps : list dq_piece) : str := flat_map dq_text1 ps.
(** names may contain the code points 128-255 besides ASCII *)
Definition name_char (c : N) : bool :=
  (ascii_letter c || ((48 <=? c) && (c <=? 57)) || ((128 <=? c) && (c <=? 255)))%N.
Definition name_ok (w : str) : bool :=
  match w with c :: r => name_char c && negb ((48 <=? c) && (c <=? 57))%N && forallb name_char r | [] => false end.
(** the piece is readable when [next] follows: special characters are escaped, the
    escapes e, u, x and X are not used, a variable ends where its name ends and is not
    followed by an index or (except for [DqProp]) a property *)
Definition dq_ok1 (p : dq_piece) (next : str) : bool :=
  match p with
  | DqChar c => negb ((c =? 92) || (c =? 34) || (c =? 36) || (c =? 123))%N
  | DqEsc c => negb ((c =? 101) || (c =? 117) || (c =? 120) || (c =? 88))%N
  | DqHex _ a b => (a <? 16)%N && (b <? 16)%N
  | DqVar v => name_ok v && ends_word next && negb (starts_with (s2l "[") next) && negb (starts_with (s2l "->") next)
  | DqProp v p => name_ok v && name_ok p && ends_word next
  end.
Fixpoint dq_ok (ps : list dq_piece) (next : str) : bool :=
  match ps with [] => true | p :: r => dq_ok1 p (dq_text r ++ next) && dq_ok r next end.
(** the byte sequence an escape stands for *)
Definition dq_escape (c : N) : bytes :=
  (if c =? 110 then [10] else if c =? 114 then [13] else if c =? 116 then [9] else if c =? 102 then [12]
   else if c =? 118 then [11] else if (c =? 34) || (c =? 92) || (c =? 36) then [c] else 92 :: enc1 c)%N.
(** the string as a list of literal byte sequences and variables, with properties *)
Inductive dq_part := DqLit (b : bytes) | DqRef (v : str) (p : option str).
Definition dq_lit (b : bytes) (l : list dq_part) : list dq_part :=
  match b, l with
  | [], _ => l
  | _, DqLit b' :: r => DqLit (b ++ b') :: r
  | _, _ => DqLit b :: l
  end.
Fixpoint dq_parts (ps : list dq_piece) : list dq_part :=
  match ps with
  | [] => []
  | DqChar c :: r => dq_lit (enc1 c) (dq_parts r)
  | DqEsc c :: r => dq_lit (dq_escape c) (dq_parts r)
  | DqHex _ a b :: r => dq_lit [16 * a + b]%N (dq_parts r)
  | DqVar v :: r => DqRef v None :: dq_parts r
  | DqProp v p :: r => DqRef v (Some p) :: dq_parts r
  end.

(** ** C15: comments and separators *)
(** no "*/" inside *)
Definition no_close (w : str) : Prop := forall a b, w <> a ++ s2l "*/" ++ b.
Inductive comment :=
| CLine (hash : bool) (w : str)   (* "#" or "//" up to the end of the line *)
| CBlock (w : str).               (* "/*" ... "*/" *)
Definition comment_text (c : comment) : str :=
  match c with
  | CLine hash w => s2l (if hash then "#" else "//") ++ w ++ [10%N]
  | CBlock w => s2l "/*" ++ w ++ s2l "*/"
  end.
(** the empty block comment is excluded: the code reads its end as the start of a
    documentation comment (see DESIGN.md) *)
Definition comment_ok (c : comment) : Prop :=
  match c with
  | CLine _ w => ~ In 10%N w
  | CBlock w => w <> [] /\ no_close w
  end.

(** ** C04: HTML *)
(** no opening tag inside *)
Definition no_tag (w : str) : Prop := forall a b, w <> a ++ s2l "<?" ++ b.

(** ** C27: nowdocs *)
(** a line without newline, backslash, dollar sign and opening brace *)
Definition doc_line (l : str) : bool :=
  forallb (fun c => negb ((c =? 92) || (c =? 36) || (c =? 10) || (c =? 123))%N) l.

(** ** Running the whole parser *)
(** With enough fuel for the tokenizer [parse_str] returns [l] up to positions; it
    panics; the tokenizer delivers exactly the tokens [toks]. *)
Definition parses_to (src : str) (l : list stmt) : Prop :=
  exists F, forall f, F <= f -> exists l', parse_str f src = DOk l' /\ strip l' = strip l.
Definition panics (src : str) : Prop :=
  exists F, forall f, F <= f -> exists p, parse_str f src = DPanic p.
Definition tokens_of (src : str) (toks : list token) : Prop :=
  exists F, forall f, F <= f -> exists ts s, tokenize f src = DOk (ts, s) /\ map fst ts = toks.

(** ** C08-C14, C35: one call of the tokenizer in script mode *)
(** [inp] is the part of [code] that the tokenizer has not read yet *)
Definition unread (code : str) (s : tst) (inp : str) : Prop :=
  exists pre, code = pre ++ inp /\ src_pos s = blen pre.
Definition reading (code : str) (s : tst) (inp : str) : Prop :=
  lmode s = LInScripting /\ queue s = [] /\ unread code s inp.
(** the next token is [t] at [sp]; then [r] is unread *)
Definition reads_at (code : str) (s : tst) (t : token) (sp : span) (r : str) : Prop :=
  exists F, forall f, F <= f -> exists s', next_token code f s = TOk (t, sp) s' /\ unread code s' r.
(** ... and script mode goes on *)
Definition reads (code : str) (s : tst) (t : token) (r : str) : Prop :=
  exists F, forall f, F <= f -> exists sp s', next_token code f s = TOk (t, sp) s' /\ reading code s' r /\ lstack s' = lstack s.

(** ** C12 *)
(** [inp] starts a comment, a heredoc, a number or a variable, or is a single dot *)
Definition not_operator (inp : str) : bool :=
  starts_with (s2l "//") inp || starts_with (s2l "/*") inp || starts_with (s2l "<<<") inp ||
  match inp with
  | 46%N :: [] => true
  | 46%N :: d :: _ => (48 <=? d) && (d <=? 57)
  | 36%N :: c :: _ => name_char c && negb ((48 <=? c) && (c <=? 57))
  | _ => false
  end%N.
(** [op] is the longest operator [inp] starts with *)
Definition longest (op : string) (inp : str) : Prop :=
  (exists r, inp = s2l op ++ r) /\
  forall op' k' r', In (op', k') operators -> inp = s2l op' ++ r' -> List.length (s2l op') <= List.length (s2l op).
Definition blanks (w : str) : Prop := Forall (fun c => c = 32%N \/ c = 9%N) w.
Definition cast_words : list (string * kind) :=
  [ ("int", KCastInt); ("real", KCastDouble); ("double", KCastDouble); ("float", KCastDouble);
    ("string", KCastString); ("binary", KCastString); ("array", KCastArray); ("object", KCastObject);
    ("boolean", KCastBool); ("bool", KCastBool); ("unset", KCastUnset) ]%string.
Definition cast_text (a : str) (word : string) (b : str) : str := s2l "(" ++ a ++ s2l word ++ b ++ s2l ")".
