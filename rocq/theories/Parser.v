(** * Parser: src/parser.rs 94-1847

    Every parsing method is a function from the token index [self.pos] to an
    outcome.  [self.tokens] is the section variable [toks]; [self.interner] is
    transparent.  The index is threaded through errors as well, because the code
    goes on after many of them without restoring it.

    The methods are mutually recursive; all cycles run through
    [parse_expression] and [parse_statement], so those two are section variables
    ([pe], [ps]) and are tied at the end by recursion on fuel.  [loop]s take the
    constant fuel [lf = 2 + number of tokens]; running out is the outcome [PFuel]. *)
From Verif Require Import Base Tokens Ast.
From Coq Require Import String.

(** src/parser.rs:22-51 [ParserError] as the parser builds it: [message] and
    [syntax] are always [None] here. *)
Record perror := mkErr { err_tokens : list token; err_pos : nat }.

Inductive pout (A : Type) :=
| POk (a : A) (p : nat)
| PErr (e : perror) (p : nat)
| PPanic (x : panic)
| PFuel.
Arguments POk {A}. Arguments PErr {A}. Arguments PPanic {A}. Arguments PFuel {A}.

Definition P (A : Type) := nat -> pout A.
Definition pret {A} (a : A) : P A := fun p => POk a p.
(** [return Err(ParserError::new(ts, self.pos))]. *)
Definition perr {A} (ts : list token) : P A := fun p => PErr (mkErr ts p) p.
(** [return Err(e)] for an error obtained earlier. *)
Definition pthrow {A} (e : perror) : P A := fun p => PErr e p.
Definition ppanic {A} (x : panic) : P A := fun _ => PPanic x.
Definition pfuel {A} : P A := fun _ => PFuel.
(** [match m { Ok(a) => ok a, Err(e) => er e }]. *)
Definition pcatch {A B} (m : P A) (ok : A -> P B) (er : perror -> P B) : P B := fun p =>
  match m p with
  | POk a p' => ok a p'
  | PErr e p' => er e p'
  | PPanic x => PPanic x
  | PFuel => PFuel
  end.
(** sequencing with [try!]. *)
Definition pbind {A B} (m : P A) (k : A -> P B) : P B := pcatch m k pthrow.
Notation "x <~ m ;; k" := (pbind m (fun x => k)) (at level 61, m at next level, right associativity).
Notation "m ;~ k" := (pbind m (fun _ => k)) (at level 61, right associativity).

Definition getpos : P nat := fun p => POk p p.
(** [self.pos = q]. *)
Definition setpos (q : nat) : P unit := fun _ => POk tt q.
(** src/parser.rs:104-107 [advance(1)]. *)
Definition adv : P unit := fun p => POk tt (S p).

Definition unwrap_p {A} (o : option A) : P A := match o with Some a => pret a | None => ppanic PUnwrap end.
(** [a - b] on unsigned numbers in a debug build. *)
Definition psub (a b : nat) : P nat := if b <=? a then pret (a - b) else ppanic POverflow.

(** src/parser.rs:223-244 [deepest!]/[deepest_unpack!]: the store and its update. *)
Definition deep := option (nat * perror).
Definition deep_upd (d : deep) (e : perror) : deep :=
  match d with
  | Some (sp, _) => if sp <? err_pos e then Some (err_pos e, e) else d
  | None => Some (err_pos e, e)
  end.
Definition deepest {A} (d : deep) (m : P A) (k : deep -> P A) : P A :=
  pcatch m pret (fun e => k (deep_upd d e)).
Definition deepest_unpack {A} (d : deep) : P A :=
  match d with Some (_, e) => pthrow e | None => perr [] end.

(** src/parser.rs:120-141: [Precedence as usize]. *)
Definition PrNone := 0. Definition PrConditional := 4. Definition PrInstanceOf := 16. Definition PrUnary := 17.
(** src/parser.rs:176-199 [Token::precedence]. *)
Definition precedence (k : kind) : option nat :=
  match k with
  | KLogicalOr => Some 1 | KLogicalXor => Some 2 | KLogicalAnd => Some 3
  | KQuestionMark => Some 4
  | KBoolOr => Some 5 | KBoolAnd => Some 6 | KBwOr => Some 7 | KBwXor => Some 8 | KAmpersand => Some 9
  | KIsIdentical | KIsNotIdentical | KIsEqual | KIsNotEqual => Some 10
  | KSpaceShip | KLt | KGt | KIsSmallerOrEqual | KIsGreaterOrEqual => Some 11
  | KSl | KSr => Some 12
  | KPlus | KMinus | KDot => Some 13
  | KMul | KDiv | KMod => Some 14
  | KPow => Some 15
  | KInstanceOf => Some 16
  | _ => None
  end.
(** src/parser.rs:201-212 [Token::associativity]: [Some true] is right, [None] the
    [unimplemented!()] arm. *)
Definition assoc_right (k : kind) : option bool :=
  match k with
  | KLogicalOr | KLogicalXor | KLogicalAnd | KBoolOr | KBoolAnd | KBwOr | KBwXor | KAmpersand
  | KIsIdentical | KIsNotIdentical | KIsEqual | KIsNotEqual | KSpaceShip | KLt | KGt
  | KIsSmallerOrEqual | KIsGreaterOrEqual | KSl | KSr | KPlus | KMinus | KDot | KMul | KDiv | KMod =>
    Some false
  | KPow => Some true
  | _ => None
  end.
(** src/parser.rs:325-353: the operator of a binary token. *)
Definition binop_of (k : kind) : option op :=
  match k with
  | KLogicalOr => Some OOr | KLogicalXor => Some OBitXor | KLogicalAnd => Some OAnd
  | KBoolOr => Some OOr | KBoolAnd => Some OAnd | KBwOr => Some OBitOr | KBwXor => Some OBitXor
  | KAmpersand => Some OBitAnd | KIsIdentical => Some OIdentical | KIsNotIdentical => Some ONotIdentical
  | KIsEqual => Some OEq | KIsNotEqual => Some ONeq | KSpaceShip => Some OSpaceship | KLt => Some OLt
  | KGt => Some OGt | KIsSmallerOrEqual => Some OLe | KIsGreaterOrEqual => Some OGe | KSl => Some OSl
  | KSr => Some OSr | KPlus => Some OAdd | KMinus => Some OSub | KDot => Some OConcat | KMul => Some OMul
  | KDiv => Some ODiv | KMod => Some OMod | KPow => Some OPow
  | _ => None
  end.
(** src/parser.rs:287-298. *)
Definition unop_of (t : token) : option unop :=
  match t with
  | Kw KPlus => Some UPositive | Kw KMinus => Some UNegative | Kw KBwNot => Some UBitNot
  | Kw KBoolNot => Some UNot | Kw KSilence => Some USilence | Kw KIncrement => Some UPreInc
  | Kw KDecrement => Some UPreDec
  | _ => None
  end.
(** src/parser.rs:986-1003: the operator of an assignment token ([OEq] for a plain one). *)
Definition assign_of (t : option tokspan) : option op :=
  match t with
  | Some (Kw k, _) =>
    match k with
    | KEqual => Some OEq | KPlusEqual => Some OAdd | KMinusEqual => Some OSub | KMulEqual => Some OMul
    | KPowEqual => Some OPow | KDivEqual => Some ODiv | KConcatEqual => Some OConcat
    | KModEqual => Some OMod | KAndEqual => Some OAnd | KXorEqual => Some OBitXor | KSlEqual => Some OSl
    | KSrEqual => Some OSr
    | _ => None
    end
  | _ => None
  end.

Section Parser.
Variable toks : list tokspan.

(** src/parser.rs:109-112 [next_token]. *)
Definition peek : P (option tokspan) := fun p => POk (nth_error toks p) p.
(** [self.tokens[i].1]. *)
Definition span_at (i : nat) : P span :=
  match nth_error toks i with Some t => pret (snd t) | None => ppanic PIndex end.
(** [self.tokens[self.pos - 1].1.end]. *)
Definition prev_end : P nat :=
  p <~ getpos ;; i <~ psub p 1 ;; sp <~ span_at i ;; pret (sp_end sp).

(** src/parser.rs:247-258 [if_lookahead!] for a token without payload, and for
    the three kinds with payload. *)
Definition look {A} (k : kind) (yes : span -> P A) (no : P A) : P A :=
  t <~ peek ;;
  match t with
  | Some (Kw k', sp) => if kind_eqb k k' then adv ;~ yes sp else no
  | _ => no
  end.
Definition look_var {A} (yes : str -> span -> P A) (no : P A) : P A :=
  t <~ peek ;;
  match t with Some (TVariable s, sp) => adv ;~ yes s sp | _ => no end.
Definition look_string {A} (yes : str -> span -> P A) (no : P A) : P A :=
  t <~ peek ;;
  match t with Some (TString s, sp) => adv ;~ yes s sp | _ => no end.
Definition look_ces {A} (yes : str -> span -> P A) (no : P A) : P A :=
  t <~ peek ;;
  match t with Some (TCes s, sp) => adv ;~ yes s sp | _ => no end.
(** [if let Some(&TokenSpan(k, _)) = self.next_token()] without consuming. *)
Definition sees (k : kind) : P bool :=
  t <~ peek ;;
  match t with Some (Kw k', _) => pret (kind_eqb k k') | _ => pret false end.
(** src/parser.rs:266-275 [if_lookahead_expect!]. *)
Definition expect (k : kind) : P span := look k pret (perr [Kw k]).
Definition expect_var : P str := look_var (fun s _ => pret s) (perr [TVariable []]).
Definition expect_string : P str := look_string (fun s _ => pret s) (perr [TString []]).
(** [if_lookahead_expect!] with the else block [if let Some(err) = e { return Err(err) }]. *)
Definition expect_or (k : kind) (e : option perror) : P span :=
  look k pret (match e with Some x => pthrow x | None => perr [Kw k] end).

(** Fuel of the local loops. *)
Definition lf : nat := S (S (List.length toks)).

(** src/parser.rs:413-424 [parse_simple_variable]. *)
Definition parse_simple_variable : P (variable * span) :=
  look KDollar (fun _ => ppanic PUnimplemented)
    (look_var (fun s sp => pret (VName s, sp)) (perr [Kw KDollar; TVariable []])).

(** src/parser.rs:426-429 [parse_simple_variable_expr]. *)
Definition parse_simple_variable_expr : P expr :=
  v <~ parse_simple_variable ;; pret (Ex (EVar (fst v)) (snd v)).

(** src/parser.rs:667-675 [parse_is_ref], [parse_is_variadic]. *)
Definition parse_is_ref : P bool := look KAmpersand (fun _ => pret true) (pret false).
Definition parse_is_variadic : P bool := look KEllipsis (fun _ => pret true) (pret false).

(** src/parser.rs:1045-1072: the fragments of a namespace name. *)
Fixpoint ns_fragments (n : nat) (acc : list (str * span)) : P (list (str * span)) :=
  match n with
  | O => pfuel
  | S n' =>
    look_string (fun s sp =>
      let acc := acc ++ [(s, sp)] in
      old_pos <~ getpos ;;
      look KNsSeparator (fun _ =>
        t <~ peek ;;
        match t with
        | Some (TString _, _) => ns_fragments n' acc
        | _ => setpos old_pos ;~ pret acc
        end) (pret acc))
      (perr [TString []])
  end.
(** src/parser.rs:1065-1067: [fragments.fold] with separators. *)
Fixpoint join_ns (l : list str) : str :=
  match l with
  | [] => []
  | [a] => a
  | a :: r => a ++ [92%N] ++ join_ns r
  end.
(** src/parser.rs:1059-1069: path and span out of the fragments. *)
Definition path_of_fragments (l : list (str * span)) : path :=
  match l with
  | [] => path_identifier false []
  | [f] => path_identifier false (fst f)
  | _ => path_ns_identifier false (join_ns (map fst (removelast l))) (fst (last l ([], span_new)))
  end.
Definition span_of_fragments (l : list (str * span)) : span :=
  mk_span (sp_start (snd (hd ([], span_new) l))) (sp_end (snd (last l ([], span_new)))).
(** src/parser.rs:1042-1076 [parse_namespace_name]. *)
Definition parse_namespace_name : P (path * span) :=
  l <~ ns_fragments lf [] ;; pret (path_of_fragments l, span_of_fragments l).

(** src/parser.rs:1078-1093 [parse_name]. *)
Definition parse_name : P (path * span) :=
  is_abs <~ look KNsSeparator (fun _ => pret true) (pret false) ;;
  r <~ parse_namespace_name ;;
  if (is_abs : bool) then
    st <~ psub (sp_start (snd r)) 1 ;;
    pret (mkPath true (namespace (fst r)) (identifier (fst r)), set_start st (snd r))
  else pret r.

(** src/parser.rs:1095-1099 [parse_name_as_expr]. *)
Definition parse_name_as_expr : P expr := r <~ parse_name ;; pret (Ex (EPath (fst r)) (snd r)).

(** src/parser.rs:1101-1108 [parse_name_list]; the callers drop the spans. *)
Fixpoint name_list (n : nat) (acc : list path) : P (list path) :=
  match n with
  | O => pfuel
  | S n' =>
    r <~ parse_name ;;
    let acc := acc ++ [fst r] in
    look KComma (fun _ => name_list n' acc) (pret acc)
  end.
Definition parse_name_list : P (list path) := name_list lf [].

(** src/parser.rs:1110-1115 [parse_class_name]. *)
Definition parse_class_name : P expr :=
  look KStatic (fun sp => pret (Ex (EPath (path_identifier false (s2l "static"))) sp))
    parse_name_as_expr.

(** src/parser.rs:1124-1135 [parse_identifier]. *)
Definition parse_identifier : P (str * span) :=
  t <~ peek ;;
  match t with
  | Some (TString s, sp) => adv ;~ pret (s, sp)
  | Some (Kw k, sp) =>
    if is_reserved_non_modifier k then
      adv ;~ match repr k with Some s => pret (s2l s, sp) | None => ppanic PUnimplemented end
    else perr [TString []]
  | _ => perr [TString []]
  end.

(** src/parser.rs:1137-1141 [parse_identifier_as_expr]. *)
Definition parse_identifier_as_expr : P expr :=
  r <~ parse_identifier ;; pret (Ex (EPath (path_identifier false (fst r))) (snd r)).

(** src/parser.rs:1148-1163: [true], [false] and [null] are resolved.  Lower-casing
    is ASCII only here: no other character lower-cases to a letter of these words. *)
Definition resolve_constant (e : expr) : expr :=
  match e with
  | Ex (EPath pa) sp =>
    match namespace pa with
    | None =>
      let l := to_lower (identifier pa) in
      if str_eqb l (s2l "true") then Ex (EConst CTrue) sp
      else if str_eqb l (s2l "false") then Ex (EConst CFalse) sp
      else if str_eqb l (s2l "null") then Ex (EConst CNull) sp
      else e
    | Some _ => e
    end
  | _ => e
  end.
(** src/parser.rs:1143-1174 [parse_constant]. *)
Definition parse_constant : P expr :=
  c <~ parse_class_name ;;
  let name := resolve_constant c in
  look KScopeOp (fun _ =>
    ident <~ parse_identifier_as_expr ;;
    pret (Ex (EStaticMember name [ident]) (mk_span (estart name) (eend ident))))
    (pret name).

(** src/parser.rs:1683-1695 [parse_member_modifiers]. *)
Fixpoint member_mods (n : nat) (acc : list member_modifier) : P (list member_modifier) :=
  match n with
  | O => pfuel
  | S n' =>
    look KPublic (fun _ => member_mods n' (acc ++ [MPublic]))
    (look KProtected (fun _ => member_mods n' (acc ++ [MProtected]))
    (look KPrivate (fun _ => member_mods n' (acc ++ [MPrivate]))
    (look KStatic (fun _ => member_mods n' (acc ++ [MStatic]))
    (look KAbstract (fun _ => member_mods n' (acc ++ [MAbstract]))
    (look KFinal (fun _ => member_mods n' (acc ++ [MFinal]))
    (pret acc))))))
  end.
Definition parse_member_modifiers : P (list member_modifier) := member_mods lf [].

(** src/parser.rs:1697-1702 [parse_absolute_trait_method_reference]. *)
Definition parse_absolute_trait_method_reference : P (path * str) :=
  r <~ parse_name ;;
  expect KScopeOp ;~
  i <~ parse_identifier ;;
  pret (fst r, fst i).

(** src/parser.rs:799-803: the class modifiers. *)
Fixpoint class_mods (n : nat) (acc : list class_modifier) : P (list class_modifier) :=
  match n with
  | O => pfuel
  | S n' =>
    look KAbstract (fun _ => class_mods n' (acc ++ [CAbstract]))
    (look KFinal (fun _ => class_mods n' (acc ++ [CFinal]))
    (pret acc))
  end.

(** ** The mutually recursive part *)
Section Knot.
Variable pe : nat -> P expr.     (* parse_expression *)
Variable ps : P stmt.            (* parse_statement *)

(** src/parser.rs:646-652 [parse_opt_expression]. *)
Definition parse_opt_expression (prec : nat) : P (option expr) :=
  pcatch (pe prec) (fun e => pret (Some e)) (fun _ => pret None).

(** src/parser.rs:431-439 [parse_expression_list]. *)
Fixpoint expression_list (n : nat) (acc : list expr) : P (list expr) :=
  match n with
  | O => pfuel
  | S n' =>
    e <~ pe PrNone ;;
    let acc := acc ++ [e] in
    look KComma (fun _ => expression_list n' acc) (pret acc)
  end.
Definition parse_expression_list : P (list expr) := expression_list lf [].

(** src/parser.rs:448-458: the arguments of a call. *)
Fixpoint argument_list (n : nat) (acc : list expr) : P (list expr) :=
  match n with
  | O => pfuel
  | S n' =>
    start_pos <~ look KEllipsis (fun sp => pret (Some (sp_start sp))) (pret None) ;;
    arg <~ pe PrNone ;;
    let acc := acc ++ [match start_pos with
                       | Some st => Ex (EUnpack arg) (set_start st (espan arg))
                       | None => arg
                       end] in
    look KComma (fun _ => argument_list n' acc) (pret acc)
  end.
(** src/parser.rs:441-462 [parse_argument_list]. *)
Definition parse_argument_list : P (list expr) :=
  expect KParenthesesOpen ;~
  look KParenthesesClose (fun _ => pret [])
    (args <~ argument_list lf [] ;; expect KParenthesesClose ;~ pret args).

(** src/parser.rs:1338-1349 [parse_array_pair_list]. *)
Fixpoint array_pairs (n : nat) (acc : list (option expr * expr)) : P (list (option expr * expr)) :=
  match n with
  | O => pfuel
  | S n' =>
    pcatch (pe PrNone)
      (fun e =>
         kv <~ look KDoubleArrow (fun _ => v <~ pe PrNone ;; pret (Some e, v)) (pret (None, e)) ;;
         let acc := acc ++ [kv] in
         look KComma (fun _ => array_pairs n' acc) (pret acc))
      (fun _ => pret acc)
  end.
Definition parse_array_pair_list : P (list (option expr * expr)) := array_pairs lf [].

(** src/parser.rs:1270-1291 [parse_dereferencable_scalar]. *)
Definition parse_dereferencable_scalar : P expr :=
  look KArray (fun sp =>
      expect KParenthesesOpen ;~
      pairs <~ parse_array_pair_list ;;
      sp2 <~ expect KParenthesesClose ;;
      pret (Ex (EArray pairs) (mk_span (sp_start sp) (sp_end sp2))))
  (look KSquareBracketOpen (fun sp =>
      pairs <~ parse_array_pair_list ;;
      sp2 <~ expect KSquareBracketClose ;;
      pret (Ex (EArray pairs) (mk_span (sp_start sp) (sp_end sp2))))
  (look_ces (fun s sp => pret (Ex (EString s) sp))
     (perr [Kw KArray; Kw KSquareBracketOpen; TCes []]))).

(** src/parser.rs:464-481 [parse_property_name]. *)
Definition parse_property_name : P expr :=
  old_pos <~ getpos ;;
  pcatch parse_simple_variable_expr pret (fun _ =>
    setpos old_pos ;~
    look_string (fun s sp => pret (Ex (EPath (path_identifier false s)) sp))
    (look KCurlyBracesOpen (fun _ => e <~ pe PrNone ;; expect KCurlyBracesClose ;~ pret e)
      (perr []))).

(** src/parser.rs:489-508 [parse_base_variable]; the returned flag is always
    false and is dropped here. *)
Definition parse_base_variable (simple_only : bool) : P expr :=
  let rest : P expr :=
    deepest None parse_simple_variable_expr (fun d =>
      if simple_only then deepest_unpack d
      else deepest d parse_dereferencable_scalar deepest_unpack) in
  if simple_only then rest
  else look KParenthesesOpen (fun sp =>
         e <~ pe PrNone ;;
         sp2 <~ expect KParenthesesClose ;;
         pret (Ex (enode e) (mk_span (sp_start sp) (sp_end sp2))))
       rest.

(** src/parser.rs:513-536 [parse_const_scoped], with its result already built into
    the [StaticMember] of line 558.  Note that a failing identifier leaves the
    position behind the [::]. *)
Definition parse_const_scoped (simple_only : bool) : P expr :=
  old_pos <~ getpos ;;
  let fail : P expr := setpos old_pos ;~ perr [] in
  pcatch parse_class_name
    (fun cls =>
       look KScopeOp (fun _ =>
         pcatch parse_simple_variable_expr
           (fun v => pret (Ex (EStaticMember cls [v]) (mk_span (estart cls) (eend v))))
           (fun _ =>
              if simple_only then fail
              else
                ident <~ parse_identifier_as_expr ;;
                b <~ sees KParenthesesOpen ;;
                if (b : bool) then pret (Ex (EStaticMember cls [ident]) (mk_span (estart cls) (eend ident)))
                else fail))
         fail)
    (fun _ => fail).

(** src/parser.rs:538-551 [parse_fn_call_base_item]. *)
Definition parse_fn_call_base_item (simple_only : bool) : P expr :=
  if simple_only then perr []
  else
    old_pos <~ getpos ;;
    let fail : P expr := setpos old_pos ;~ perr [] in
    pcatch parse_name_as_expr
      (fun name => b <~ sees KParenthesesOpen ;; if (b : bool) then pret name else fail)
      (fun _ => fail).

(** src/parser.rs:580-586: push an index. *)
Definition push_idx (v : expr) (i : option expr) (e : nat) : expr :=
  match v with
  | Ex (EArrayIdx b l) sp => Ex (EArrayIdx b (l ++ [i])) (set_end e sp)
  | _ => Ex (EArrayIdx v [i]) (mk_span (estart v) e)
  end.
(** src/parser.rs:591-604: push a property. *)
Definition push_prop (v p : expr) (e : nat) : expr :=
  match v with
  | Ex (EObjMember b l) sp => Ex (EObjMember b (l ++ [p])) (set_end e sp)
  | _ => Ex (EObjMember v [p]) (mk_span (estart v) e)
  end.
(** src/parser.rs:606-619: push a static member. *)
Definition push_static (v p : expr) (e : nat) : expr :=
  match v with
  | Ex (EStaticMember b l) sp => Ex (EStaticMember b (l ++ [p])) (set_end e sp)
  | _ => Ex (EStaticMember v [p]) (mk_span (estart v) e)
  end.

(** src/parser.rs:572-630: the appendix loop of [parse_variable].  Each failed
    alternative falls through to the next one, from wherever it left the position. *)
Fixpoint appendixes (n : nat) (simple_only : bool) (v : expr) : P expr :=
  match n with
  | O => pfuel
  | S n' =>
    let calls : P expr :=
      if simple_only then pret v
      else
        b <~ sees KParenthesesOpen ;;
        if (b : bool) then
          args <~ parse_argument_list ;;
          e <~ prev_end ;;
          appendixes n' simple_only (Ex (ECall v args) (mk_span (estart v) e))
        else pret v in
    let statics : P expr :=
      look KScopeOp (fun _ =>
        pcatch parse_simple_variable_expr
          (fun p => e <~ prev_end ;; appendixes n' simple_only (push_static v p e))
          (fun _ => calls))
        calls in
    let props : P expr :=
      look KObjectOp (fun _ =>
        pcatch parse_property_name
          (fun p => e <~ prev_end ;; appendixes n' simple_only (push_prop v p e))
          (fun _ => statics))
        statics in
    look KSquareBracketOpen (fun _ =>
      i <~ parse_opt_expression PrNone ;;
      look KSquareBracketClose (fun _ =>
        e <~ prev_end ;; appendixes n' simple_only (push_idx v i e))
        props)
      props
  end.

(** src/parser.rs:553-570: the base of [parse_variable]. *)
Definition variable_base (simple_only : bool) : P expr :=
  old_pos <~ getpos ;;
  pcatch (parse_const_scoped simple_only) pret (fun _ =>
    pcatch (parse_fn_call_base_item simple_only) pret (fun _ =>
      pcatch (parse_base_variable simple_only) pret (fun e => setpos old_pos ;~ pthrow e))).

(** src/parser.rs:485-639 [parse_variable].  Lines 632-636 are dead:
    [requires_appendix] is false at every call. *)
Definition parse_variable (simple_only : bool) (base_item : option expr) : P expr :=
  v <~ match base_item with Some v => pret v | None => variable_base simple_only end ;;
  appendixes lf simple_only v.

(** src/parser.rs:1117-1122 [parse_class_name_reference]. *)
Definition parse_class_name_reference : P expr :=
  pcatch parse_class_name pret (fun _ => parse_variable true None).

(** src/parser.rs:318-411 [parse_binary_expression]: [Some left'] is [Ok(true)]
    with the new left operand, [None] is [Ok(false)]. *)
Definition parse_binary_expression (left : expr) (prec : nat) : P (option expr) :=
  t <~ peek ;;
  match t with
  | Some (Kw k, _) =>
    match precedence k with
    | None => pret None
    | Some np =>
      if np <=? prec then pret None
      else
        adv ;~
        match k with
        | KQuestionMark =>
          th <~ parse_opt_expression np ;;
          expect KColon ;~
          el <~ pe np ;;
          pret (Some (Ex (ETernary left th el) (mk_span (estart left) (eend el))))
        | KInstanceOf =>
          match left with
          | Ex (EInstanceOf _ _) _ => ppanic PUnreachable
          | _ =>
            right <~ parse_class_name_reference ;;
            pret (Some (Ex (EInstanceOf left right) (mk_span (estart left) (eend right))))
          end
        | _ =>
          o <~ unwrap_p (binop_of k) ;;
          np' <~ match assoc_right k with
                 | Some true => psub np 1
                 | Some false => pret np
                 | None => ppanic PUnimplemented
                 end ;;
          right <~ pe np' ;;
          pret (Some (Ex (EBinary o left right) (mk_span (estart left) (eend right))))
        end
    end
  | _ => pret None
  end.

(** src/parser.rs:309-314: the loop over the binary operators; an error ends it. *)
Fixpoint binary_loop (n : nat) (prec : nat) (left : expr) : P expr :=
  match n with
  | O => pfuel
  | S n' =>
    pcatch (parse_binary_expression left prec)
      (fun o => match o with Some l => binary_loop n' prec l | None => pret left end)
      (fun _ => pret left)
  end.

(** src/parser.rs:1362-1367 [parse_statement_extract_block]. *)
Definition parse_statement_extract_block : P (list stmt * span) :=
  s <~ ps ;;
  match s with
  | St (SBlock bl) sp => pret (bl, sp)
  | St st sp => pret ([St st sp], sp)
  end.

(** src/parser.rs:1670-1681 [parse_inner_statement_list]; [while self.pos <= tokc]. *)
Fixpoint inner_statements (n : nat) (acc : list stmt) : P (list stmt * option perror) :=
  match n with
  | O => pfuel
  | S n' =>
    p <~ getpos ;;
    if p <? List.length toks then
      pcatch ps (fun s => inner_statements n' (acc ++ [s])) (fun e => pret (acc, Some e))
    else pret (acc, None)
  end.
Definition parse_inner_statement_list : P (list stmt * option perror) :=
  match toks with [] => ppanic POverflow | _ => inner_statements lf [] end.

(** src/parser.rs:682-690: the type hint of a parameter; [inr] is the early return. *)
Definition parse_param_type : P (option ty + perror) :=
  nullable <~ look KQuestionMark (fun _ => pret true) (pret false) ;;
  look KArray (fun _ => pret (inl (Some TyArray)))
    (look KCallable (fun _ => pret (inl (Some TyCallable)))
      (pcatch parse_name
         (fun r => pret (inl (Some (TyObject (Some (fst r))))))
         (fun e => if (nullable : bool) then pret (inr e) else pret (inl None)))).

(** src/parser.rs:677-717 [parse_parameter_list]. *)
Fixpoint parameter_list (n : nat) (acc : list param) : P (list param * option perror) :=
  match n with
  | O => pfuel
  | S n' =>
    t <~ parse_param_type ;;
    match t with
    | inr e => pret (acc, Some e)
    | inl t =>
      is_ref <~ parse_is_ref ;;
      is_variadic <~ parse_is_variadic ;;
      look_var (fun name _ =>
        let push (d : option expr) : P (list param * option perror) :=
          let acc := acc ++ [mkParam name is_ref is_variadic t d] in
          look KComma (fun _ => parameter_list n' acc) (pret (acc, None)) in
        look KEqual (fun _ =>
            pcatch (pe PrNone) (fun e => push (Some e)) (fun e => pret (acc, Some e)))
          (push None))
        (p <~ getpos ;; pret (acc, Some (mkErr [TVariable []] p)))
    end
  end.
Definition parse_parameter_list : P (list param * option perror) := parameter_list lf [].

(** src/parser.rs:744-752: the variables of a use clause. *)
Fixpoint use_vars (n : nat) (acc : list (bool * str)) : P (list (bool * str)) :=
  match n with
  | O => pfuel
  | S n' =>
    is_ref <~ parse_is_ref ;;
    v <~ expect_var ;;
    let acc := acc ++ [(is_ref, v)] in
    look KComma (fun _ => use_vars n' acc) (pret acc)
  end.

(** src/parser.rs:719-785 [parse_function_declaration]. *)
Definition parse_function_declaration (sp : span) (parse_closure allow_abstract : bool) : P stmt :=
  returns_ref <~ parse_is_ref ;;
  name <~ (if parse_closure then pret None else (s <~ expect_string ;; pret (Some s))) ;;
  expect KParenthesesOpen ;~
  pr <~ parse_parameter_list ;;
  look KParenthesesClose (fun _ => pret tt)
    (match snd pr with Some e => pthrow e | None => ppanic PUnwrap end) ;~
  usev <~ (if parse_closure then
             look KUse (fun _ =>
               expect KParenthesesOpen ;~
               l <~ use_vars lf [] ;;
               expect KParenthesesClose ;~ pret l) (pret [])
           else pret []) ;;
  no_body <~ (if allow_abstract then look KSemiColon (fun _ => pret true) (pret false) else pret false) ;;
  body <~ (if (no_body : bool) then pret None
           else
             expect KCurlyBracesOpen ;~
             b <~ parse_inner_statement_list ;;
             expect_or KCurlyBracesClose (snd b) ;~
             pret (Some (fst b))) ;;
  e <~ prev_end ;;
  let d := mkFun (fst pr) body usev returns_ref in
  let sp := mk_span (sp_start sp) e in
  pret (St (match name with
            | None => SExpr (Ex (EFunction d) sp)
            | Some nm => SDecl (DFunction nm d)
            end) sp).

(** src/parser.rs:1722-1751: the adaptations of a trait use.  A reference without
    [insteadof]/[as] is parsed and dropped. *)
Fixpoint trait_uses (n : nat) (first : bool) (acc : list trait_use) : P (list trait_use) :=
  match n with
  | O => pfuel
  | S n' =>
    (if first then pret tt else (expect KSemiColon ;~ pret tt)) ;~
    old_pos <~ getpos ;;
    r <~ pcatch parse_absolute_trait_method_reference
           (fun r => pret (Some (Some (fst r), snd r)))
           (fun _ =>
              setpos old_pos ;~
              pcatch parse_identifier (fun i => pret (Some (None, fst i))) (fun _ => pret None)) ;;
    match r with
    | None => pret acc
    | Some (pa, m) =>
      let as_part : P (list trait_use) :=
        look KAs (fun _ =>
          look_string (fun s _ => trait_uses n' false (acc ++ [TUAs pa m member_modifiers_none (Some s)]))
            (ppanic PUnimplemented))
          (trait_uses n' false acc) in
      match pa with
      | Some p0 =>
        look KInsteadof (fun _ =>
          names <~ parse_name_list ;; trait_uses n' false (acc ++ [TUInsteadOf p0 m names]))
          as_part
      | None => as_part
      end
    end
  end.

(** src/parser.rs:1767-1773: class constants. *)
Fixpoint class_consts (n : nat) (mods : member_modifiers) (acc : list member) : P (list member) :=
  match n with
  | O => pfuel
  | S n' =>
    i <~ parse_identifier ;;
    expect KEqual ;~
    v <~ pe PrNone ;;
    let acc := acc ++ [MConst mods (fst i) v] in
    look KComma (fun _ => class_consts n' mods acc) (pret acc)
  end.
(** src/parser.rs:1780-1788: properties. *)
Fixpoint class_props (n : nat) (mods : member_modifiers) (acc : list member) : P (list member) :=
  match n with
  | O => pfuel
  | S n' =>
    v <~ expect_var ;;
    d <~ look KEqual (fun _ => e <~ pe PrNone ;; pret (Some e)) (pret None) ;;
    let acc := acc ++ [MProp mods v d] in
    look KComma (fun _ => class_props n' mods acc) (pret acc)
  end.

(** src/parser.rs:1704-1792 [parse_class_statement]. *)
Definition parse_class_statement : P (list member) :=
  let props (mods : member_modifiers) : P (list member) :=
    l <~ class_props lf mods [] ;; expect KSemiColon ;~ pret l in
  look KVar (fun _ => props (member_modifiers_new [MPublic]))
    (ml <~ parse_member_modifiers ;;
     let mods := member_modifiers_new ml in
     look KUse (fun _ =>
         names <~ parse_name_list ;;
         look KSemiColon (fun _ => pret [MTraitUse names []])
           (expect KCurlyBracesOpen ;~
            look KCurlyBracesClose (fun _ => pret [])
              (uses <~ trait_uses lf true [] ;;
               expect KCurlyBracesClose ;~
               pret [MTraitUse names uses])))
     (look KFunction (fun sp =>
         f <~ parse_function_declaration sp false true ;;
         match f with
         | St (SDecl (DFunction name d)) _ => pret [MMethod mods name d]
         | _ => ppanic PUnreachable
         end)
     (look KConst (fun _ => l <~ class_consts lf mods [] ;; expect KSemiColon ;~ pret l)
       (props mods)))).

(** src/parser.rs:1794-1806 [parse_class_statement_list]. *)
Fixpoint class_statements (n : nat) (acc : list member) : P (list member * option perror) :=
  match n with
  | O => pfuel
  | S n' =>
    p <~ getpos ;;
    if p <? List.length toks then
      pcatch parse_class_statement (fun l => class_statements n' (acc ++ l)) (fun e => pret (acc, Some e))
    else pret (acc, None)
  end.
Definition parse_class_statement_list : P (list member * option perror) :=
  match toks with [] => ppanic POverflow | _ => class_statements lf [] end.

(** src/parser.rs:789-793 [OoType]. *)
Inductive oo_type := OoClass | OoTrait | OoInterface.

(** src/parser.rs:787-849 [parse_oo_declaration]. *)
Definition parse_oo_declaration : P stmt :=
  ot <~ look KTrait (fun _ => pret OoTrait) (look KInterface (fun _ => pret OoInterface) (pret OoClass)) ;;
  cmods <~ match ot with
           | OoClass => l <~ class_mods lf [] ;; expect KClass ;~ pret l
           | _ => pret []
           end ;;
  p <~ getpos ;;
  i1 <~ psub p 1 ;;
  i <~ psub i1 (List.length cmods) ;;
  sp0 <~ span_at i ;;
  name <~ expect_string ;;
  extends <~ match ot with
             | OoClass => look KExtends (fun _ => r <~ parse_name ;; pret (Some (fst r))) (pret None)
             | _ => pret None
             end ;;
  implements <~ match ot with
                | OoClass => look KImplements (fun _ => parse_name_list) (pret [])
                | OoInterface => look KExtends (fun _ => parse_name_list) (pret [])
                | OoTrait => pret []
                end ;;
  expect KCurlyBracesOpen ;~
  ms <~ parse_class_statement_list ;;
  sp2 <~ expect_or KCurlyBracesClose (snd ms) ;;
  pret (St (SDecl (match ot with
                   | OoClass => DClass (class_modifiers_new cmods) name extends implements (fst ms)
                   | OoInterface => DInterface name implements (fst ms)
                   | OoTrait => DTrait name (fst ms)
                   end))
           (mk_span (sp_start sp0) (sp_end sp2))).

(** src/parser.rs:1176-1181: the locals of [parse_encaps_list]. *)
Record encaps := mkEncaps {
  ec_str : str; ec_parts : list expr; ec_start : option nat; ec_end : nat }.
(** src/parser.rs:1199-1202 (and 1219-1222, 1230-1233): flush the literal text. *)
Definition encaps_flush (st : encaps) : P (list expr) :=
  match ec_str st with
  | [] => pret (ec_parts st)
  | s => a <~ unwrap_p (ec_start st) ;; pret (ec_parts st ++ [Ex (EString s) (mk_span a (ec_end st))])
  end.
(** src/parser.rs:1182-1240: the loop of [parse_encaps_list]. *)
Fixpoint encaps_loop (n : nat) (st : encaps) : P encaps :=
  match n with
  | O => pfuel
  | S n' =>
    look_ces (fun s sp =>
      encaps_loop n' (mkEncaps (ec_str st ++ s) (ec_parts st)
        (match ec_start st with None => Some (sp_start sp) | x => x end)
        (if ec_end st <? sp_end sp then sp_end sp else ec_end st)))
    (look KDollarCurlyBracesOpen (fun sp =>
      parts <~ encaps_flush st ;;
      part <~ pcatch parse_identifier
        (fun i =>
           e <~ parse_variable false (Some (Ex (EVar (VName (fst i))) (snd i))) ;;
           sp2 <~ expect KCurlyBracesClose ;;
           pret (Ex (enode e) (set_end (sp_end sp2) (set_start (sp_start sp) (espan e)))))
        (fun _ =>
           e <~ pe PrNone ;;
           sp2 <~ expect KCurlyBracesClose ;;
           pret (Ex (EVar (VFetch e)) (mk_span (sp_start sp) (sp_end sp2)))) ;;
      encaps_loop n' (mkEncaps [] (parts ++ [part]) (ec_start st) (ec_end st)))
    (look KCurlyBracesOpen (fun _ =>
      parts <~ encaps_flush st ;;
      e <~ pe PrNone ;;
      sp2 <~ expect KCurlyBracesClose ;;
      encaps_loop n' (mkEncaps [] (parts ++ [e]) (Some (sp_end sp2)) (sp_end sp2)))
    (pcatch (parse_variable false None)
       (fun e =>
          parts <~ encaps_flush st ;;
          encaps_loop n' (mkEncaps [] (parts ++ [e]) (Some (eend e)) (eend e)))
       (fun _ => pret st))))
  end.
(** src/parser.rs:1257-1260: the fold over the reversed parts. *)
Definition concat_parts (parts : list expr) (init : expr) : expr :=
  fold_right (fun part acc => Ex (EBinary OConcat part acc) (mk_span (estart part) (eend acc))) init parts.
(** src/parser.rs:1176-1268 [parse_encaps_list]. *)
Definition parse_encaps_list : P expr :=
  st <~ encaps_loop lf (mkEncaps [] [] None 0) ;;
  str_expr <~ match ec_str st with
              | [] => pret None
              | s => a <~ unwrap_p (ec_start st) ;; pret (Some (Ex (EString s) (mk_span a (ec_end st))))
              end ;;
  match ec_parts st, str_expr with
  | [], Some e => pret e
  | [], None => look_ces (fun _ _ => ppanic PUnreachable) (perr [TCes []])
  | parts, Some e => pret (concat_parts parts e)
  | parts, None => pret (concat_parts (removelast parts) (last parts (Ex (EInt 0) span_new)))
  end.

(** src/parser.rs:1299-1309: the one-token scalars. *)
Definition scalar_of (t : token) : option expr_ :=
  match t with
  | TInt z => Some (EInt z)
  | TDouble d => Some (EDouble d)
  | Kw KMagicLine => Some (EConst CMagicLine)
  | Kw KMagicFile => Some (EConst CMagicFile)
  | Kw KMagicDir => Some (EConst CMagicDir)
  | Kw KMagicTrait => Some (EConst CMagicTrait)
  | Kw KMagicMethod => Some (EConst CMagicMethod)
  | Kw KMagicFunction => Some (EConst CMagicFunction)
  | Kw KMagicClass => Some (EConst CMagicClass)
  | _ => None
  end.
(** src/parser.rs:1317-1318: overwrite both ends of the span. *)
Definition respan (a b : nat) (e : expr) : expr := Ex (enode e) (set_end b (set_start a (espan e))).
(** src/parser.rs:1293-1336 [parse_scalar].  At the end of the input the position
    still moves. *)
Definition parse_scalar : P expr :=
  t <~ peek ;;
  match t with
  | None => adv ;~ perr []
  | Some (x, sp) =>
    match scalar_of x with
    | Some e => adv ;~ pret (Ex e sp)
    | None =>
      match x with
      | Kw KDoubleQuote =>
        adv ;~
        look KDoubleQuote (fun sp2 => pret (Ex (EString []) (mk_span (sp_start sp) (sp_end sp2))))
          (ret <~ parse_encaps_list ;;
           sp2 <~ expect KDoubleQuote ;;
           pret (respan (sp_start sp) (sp_end sp2) ret))
      | Kw KHereDocStart =>
        adv ;~
        ret <~ parse_encaps_list ;;
        sp2 <~ expect KHereDocEnd ;;
        pret (respan (sp_start sp) (sp_end sp2) ret)
      | _ => pcatch parse_dereferencable_scalar pret (fun _ => parse_constant)
      end
    end
  end.

(** src/parser.rs:923-930: the arguments of isset (comma separated) or empty (one). *)
Fixpoint isset_args (n : nat) (many : bool) (acc : list expr) : P (list expr) :=
  match n with
  | O => pfuel
  | S n' =>
    e <~ pe PrNone ;;
    let acc := acc ++ [e] in
    if many then look KComma (fun _ => isset_args n' many acc) (pret acc) else pret acc
  end.

(** src/parser.rs:982-1028: assignments to [var]. *)
Definition parse_assign (var : expr) : P expr :=
  t <~ peek ;;
  match assign_of t with
  | None => pret var
  | Some o =>
    adv ;~
    by_ref <~ match o with OEq => look KAmpersand (fun _ => pret true) (pret false) | _ => pret false end ;;
    e <~ pe PrNone ;;
    en <~ prev_end ;;
    pret (Ex (match o with
              | OEq => if (by_ref : bool) then EAssignRef var e else EAssign var e
              | o => ECompound var o e
              end) (mk_span (estart var) en))
  end.

(** src/parser.rs:956-1040: variables, list(), parentheses and scalars. *)
Definition parse_variable_expression : P expr :=
  pcatch (parse_variable false None) parse_assign (fun x =>
    let d := deep_upd None x in
    look KList (fun sp =>
      expect KParenthesesOpen ;~
      pairs <~ parse_array_pair_list ;;
      sp2 <~ expect KParenthesesClose ;;
      b <~ sees KEqual ;;
      if (b : bool) then parse_assign (Ex (EList pairs) (mk_span (sp_start sp) (sp_end sp2)))
      else perr [Kw KEqual])
    (look KParenthesesOpen (fun sp =>
       e <~ pe PrNone ;;
       sp2 <~ expect KParenthesesClose ;;
       pret (Ex (enode e) (mk_span (sp_start sp) (sp_end sp2))))
    (deepest d parse_scalar deepest_unpack))).

(** src/parser.rs:903-912: the type of a cast token. *)
Definition cast_ty (k : kind) : option ty :=
  match k with
  | KCastInt => Some TyInt | KCastDouble => Some TyDouble | KCastString => Some TyString
  | KCastArray => Some TyArray | KCastObject => Some (TyObject None) | KCastBool => Some TyBool
  | _ => None
  end.
(** src/parser.rs:946-952. *)
Definition include_of (k : kind) : option include_ty :=
  match k with
  | KInclude => Some IInclude | KIncludeOnce => Some IIncludeOnce
  | KRequire => Some IRequire | KRequireOnce => Some IRequireOnce
  | _ => None
  end.

(** src/parser.rs:890-955: casts, isset, empty and include; [rest] is the code behind. *)
Definition parse_internal (rest : P expr) : P expr :=
  t <~ peek ;;
  match t with
  | Some (Kw k, sp) =>
    match cast_ty k with
    | Some ct =>
      adv ;~
      e <~ pe PrUnary ;;
      pret (Ex (ECast ct e) (set_end (eend e) sp))
    | None =>
      match include_of k with
      | Some it =>
        adv ;~
        e <~ pe PrNone ;;
        en <~ prev_end ;;
        pret (Ex (EInclude it e) (mk_span (sp_start sp) en))
      | None =>
        match k with
        | KCastUnset => ppanic PUnimplemented
        | KIsset =>
          adv ;~
          expect KParenthesesOpen ;~
          args <~ isset_args lf true [] ;;
          sp2 <~ expect KParenthesesClose ;;
          pret (Ex (EIsset args) (set_end (sp_end sp2) sp))
        | KEmpty =>
          adv ;~
          expect KParenthesesOpen ;~
          args <~ isset_args lf false [] ;;
          sp2 <~ expect KParenthesesClose ;;
          match args with
          | [e] => pret (Ex (EEmpty e) (set_end (sp_end sp2) sp))
          | _ => ppanic PAssert
          end
        | _ => rest
        end
      end
    end
  | _ => rest
  end.

(** src/parser.rs:851-1040 [parse_other_expression]. *)
Definition parse_other_expression : P expr :=
  look KNew (fun sp =>
    x <~ parse_class_name_reference ;;
    b <~ sees KParenthesesOpen ;;
    args <~ (if (b : bool) then parse_argument_list else pret []) ;;
    en <~ prev_end ;;
    pret (Ex (ENew x args) (set_end en sp)))
  (look KClone (fun sp => e <~ pe PrNone ;; pret (Ex (EClone e) sp))
  (look KExit (fun sp =>
    look KParenthesesOpen (fun _ =>
      e <~ pe PrNone ;;
      sp2 <~ expect KParenthesesClose ;;
      pret (Ex (EExit (Some e)) (set_end (sp_end sp2) sp)))
      (pret (Ex (EExit None) sp)))
  (look KYield (fun sp =>
    e <~ parse_opt_expression PrNone ;;
    en <~ prev_end ;;
    pret (Ex (EYield e) (mk_span (sp_start sp) en)))
  (look KFunction (fun sp =>
    s <~ parse_function_declaration sp true false ;;
    match s with
    | St (SExpr e) _ => pret e
    | _ => parse_internal parse_variable_expression
    end)
  (parse_internal parse_variable_expression))))).

(** src/parser.rs:654-665 [parse_postfix_expression]. *)
Definition parse_postfix_expression : P expr :=
  e <~ parse_other_expression ;;
  look KIncrement (fun sp => pret (Ex (EUnary UPostInc e) (mk_span (estart e) (sp_end sp))))
  (look KDecrement (fun sp => pret (Ex (EUnary UPostDec e) (mk_span (estart e) (sp_end sp))))
  (pret e)).

(** src/parser.rs:280-316 [parse_unary_expression]. *)
Definition parse_unary_expression (prec : nat) : P expr :=
  t <~ peek ;;
  match t with
  | None => perr []
  | Some (x, sp) =>
    left <~ match unop_of x with
            | Some o =>
              adv ;~
              e <~ pe PrUnary ;;
              pret (Ex (EUnary o e) (mk_span (sp_start sp) (eend e)))
            | None => parse_postfix_expression
            end ;;
    binary_loop lf prec left
  end.

(** src/parser.rs:1351-1359 [parse_foreach_variable]. *)
Definition parse_foreach_variable : P expr :=
  is_var <~ parse_is_ref ;;
  e <~ parse_variable false None ;;
  if (is_var : bool) then
    st <~ psub (estart e) 1 ;;
    pret (Ex (ERef e) (mk_span st (estart e)))
  else pret e.

(** src/parser.rs:1369-1384 [parse_static_var_decl]. *)
Fixpoint static_vars (n : nat) (acc : list (str * option expr)) : P (list (str * option expr)) :=
  match n with
  | O => pfuel
  | S n' =>
    v <~ expect_var ;;
    d <~ look KEqual (fun _ => e <~ pe PrNone ;; pret (Some e)) (pret None) ;;
    let acc := acc ++ [(v, d)] in
    look KComma (fun _ => static_vars n' acc) (pret acc)
  end.
Definition parse_static_var_decl (sp : span) : P stmt :=
  l <~ static_vars lf [] ;;
  expect KSemiColon ;~
  en <~ prev_end ;;
  pret (St (SDecl (DStaticVars l)) (mk_span (sp_start sp) en)).

(** src/parser.rs:1386-1397 [parse_global_var_decl]. *)
Fixpoint global_vars (n : nat) (acc : list variable) : P (list variable) :=
  match n with
  | O => pfuel
  | S n' =>
    v <~ parse_simple_variable ;;
    let acc := acc ++ [fst v] in
    look KComma (fun _ => global_vars n' acc) (pret acc)
  end.
Definition parse_global_var_decl (sp : span) : P stmt :=
  l <~ global_vars lf [] ;;
  expect KSemiColon ;~
  en <~ prev_end ;;
  pret (St (SDecl (DGlobalVars l)) (mk_span (sp_start sp) en)).

(** [{ statements }] as parsed in src/parser.rs:1418-1422 and similar places. *)
Definition parse_braced : P (list stmt * span) :=
  expect KCurlyBracesOpen ;~
  b <~ parse_inner_statement_list ;;
  sp2 <~ expect_or KCurlyBracesClose (snd b) ;;
  pret (fst b, sp2).

(** src/parser.rs:1424-1442: catch clauses. *)
Fixpoint catch_clauses (n : nat) (acc : list catch) : P (list catch) :=
  match n with
  | O => pfuel
  | S n' =>
    look KCatch (fun _ =>
      expect KParenthesesOpen ;~
      t <~ parse_name ;;
      v <~ expect_var ;;
      expect KParenthesesClose ;~
      b <~ parse_braced ;;
      catch_clauses n' (acc ++ [mkCatch (fst t) v (fst b)]))
      (pret acc)
  end.
(** src/parser.rs:1416-1454: try. *)
Definition parse_try (sp : span) : P stmt :=
  body <~ parse_braced ;;
  cs <~ catch_clauses lf [] ;;
  fin <~ look KFinally (fun _ => b <~ parse_braced ;; pret (Some (fst b))) (pret None) ;;
  en <~ prev_end ;;
  pret (St (STry (fst body) cs fin) (mk_span (sp_start sp) en)).

(** src/parser.rs:1455-1466: unset. *)
Fixpoint unset_vars (n : nat) (acc : list expr) : P (list expr) :=
  match n with
  | O => pfuel
  | S n' =>
    v <~ parse_variable false None ;;
    let acc := acc ++ [v] in
    look KComma (fun _ => unset_vars n' acc) (pret acc)
  end.
Definition parse_unset (sp : span) : P stmt :=
  expect KParenthesesOpen ;~
  l <~ unset_vars lf [] ;;
  expect KParenthesesClose ;~
  sp2 <~ expect KSemiColon ;;
  pret (St (SUnset l) (mk_span (sp_start sp) (sp_end sp2))).

(** src/parser.rs:1467-1481: foreach. *)
Definition parse_foreach (sp : span) : P stmt :=
  expect KParenthesesOpen ;~
  e <~ pe PrNone ;;
  expect KAs ;~
  kv <~ parse_foreach_variable ;;
  kvv <~ look KDoubleArrow (fun _ => v <~ parse_foreach_variable ;; pret (Some kv, v)) (pret (None, kv)) ;;
  expect KParenthesesClose ;~
  b <~ parse_statement_extract_block ;;
  pret (St (SForEach e (fst kvv) (snd kvv) (fst b)) (mk_span (sp_start sp) (sp_end (snd b)))).

(** src/parser.rs:1482-1497: for. *)
Definition parse_for (sp : span) : P stmt :=
  expect KParenthesesOpen ;~
  a <~ parse_opt_expression PrNone ;;
  expect KSemiColon ;~
  b <~ parse_opt_expression PrNone ;;
  expect KSemiColon ;~
  c <~ parse_opt_expression PrNone ;;
  expect KParenthesesClose ;~
  bl <~ parse_statement_extract_block ;;
  pret (St (SFor a b c (fst bl)) (mk_span (sp_start sp) (sp_end (snd bl)))).

(** src/parser.rs:1504-1523: the cases of a switch; [conds] are pending. *)
Fixpoint switch_cases (n : nat) (cases : list swcase) (conds : list expr) : P (list swcase * list expr) :=
  match n with
  | O => pfuel
  | S n' =>
    let body (case_expr : option expr) : P (list swcase * list expr) :=
      look KColon (fun _ => pret tt) (look KSemiColon (fun _ => pret tt) (perr [Kw KColon; Kw KSemiColon])) ;~
      b <~ parse_inner_statement_list ;;
      let conds := match case_expr with Some x => conds ++ [x] | None => conds end in
      let is_default := match case_expr with Some _ => false | None => true end in
      match fst b with
      | [] => switch_cases n' cases conds
      | bl => switch_cases n' (cases ++ [mkCase conds is_default bl]) []
      end in
    look KCase (fun _ => e <~ pe PrNone ;; body (Some e))
      (look KDefault (fun _ => body None)
        (pret (cases, conds)))
  end.
(** src/parser.rs:1498-1531: switch. *)
Definition parse_switch (sp : span) : P stmt :=
  expect KParenthesesOpen ;~
  e <~ pe PrNone ;;
  expect KParenthesesClose ;~
  expect KCurlyBracesOpen ;~
  r <~ switch_cases lf [] [] ;;
  sp2 <~ expect KCurlyBracesClose ;;
  pret (St (SSwitch e (fst r ++ map (fun c => mkCase [c] false []) (snd r)))
           (mk_span (sp_start sp) (sp_end sp2))).

(** src/parser.rs:1558-1561: a parenthesized condition. *)
Definition parse_condition : P expr :=
  expect KParenthesesOpen ;~
  c <~ pe PrNone ;;
  expect KParenthesesClose ;~
  pret c.

(** src/parser.rs:1532-1578: while and do-while. *)
Definition parse_while (sp : span) : P stmt :=
  c <~ parse_condition ;;
  b <~ parse_statement_extract_block ;;
  pret (St (SWhile c (fst b)) (mk_span (sp_start sp) (sp_end (snd b)))).
Definition parse_do (sp : span) : P stmt :=
  b <~ parse_statement_extract_block ;;
  expect KWhile ;~
  c <~ parse_condition ;;
  sp2 <~ expect KSemiColon ;;
  pret (St (SDoWhile (fst b) c) (mk_span (sp_start sp) (sp_end sp2))).

(** src/parser.rs:1548-1586: the arms behind the first one of an if. *)
Fixpoint if_arms (n : nat) (acc : list stmt) : P (list stmt) :=
  match n with
  | O => pfuel
  | S n' =>
    look KElseIf (fun sp =>
      c <~ parse_condition ;;
      b <~ parse_statement_extract_block ;;
      if_arms n' (acc ++ [St (SIf c (fst b) []) (mk_span (sp_start sp) (sp_end (snd b)))]))
    (look KElse (fun sp =>
      b <~ parse_statement_extract_block ;;
      if_arms n' (acc ++ [St (SBlock (fst b)) (mk_span (sp_start sp) (sp_end (snd b)))]))
    (pret acc))
  end.
(** src/parser.rs:1588-1603: one step of the fold.  [None] stands for the
    [unreachable!()] arm; the two [assert_eq!]s, which always hold, are merged into it. *)
Definition if_fold_step (acc : option stmt) (el : stmt) : option stmt :=
  match acc, el with
  | Some (St (SBlock e2) bsp), St (SIf c bl []) sp => Some (St (SIf c bl e2) (set_end (sp_end bsp) sp))
  | Some (St (SIf c bl eb) sp), St (SIf c2 bl2 []) sp2 =>
    Some (St (SIf c2 bl2 [St (SIf c bl eb) sp]) (set_end (sp_end sp) sp2))
  | _, _ => None
  end.
(** src/parser.rs:1587-1603: fold the arms from the last to the first. *)
Definition fold_ifs (l : list stmt) : option stmt :=
  match rev l with
  | [] => None
  | x :: r => fold_left if_fold_step r (Some x)
  end.
Definition parse_if (sp : span) : P stmt :=
  c <~ parse_condition ;;
  b <~ parse_statement_extract_block ;;
  l <~ if_arms lf [St (SIf c (fst b) []) (mk_span (sp_start sp) (sp_end (snd b)))] ;;
  match fold_ifs l with Some s => pret s | None => ppanic PUnreachable end.

(** src/parser.rs:1646-1657: [expr ';']. *)
Definition parse_expr_stmt (d : deep) : P stmt :=
  pcatch (pe PrNone)
    (fun e =>
       sp2 <~ expect KSemiColon ;;
       pret (St (SExpr e) (mk_span (estart e) (sp_end sp2))))
    (fun x => deepest_unpack (deep_upd d x)).

(** src/parser.rs:1623-1631: the statements introduced by one token. *)
Definition simple_stmt (t : token) (sp : span) : option (P stmt_) :=
  match t with
  | Kw KEcho => Some (l <~ parse_expression_list ;; pret (SEcho l))
  | Kw KReturn => Some (e <~ parse_opt_expression PrNone ;; pret (SReturn e))
  | Kw KContinue => Some (e <~ parse_opt_expression PrNone ;; pret (SContinue e))
  | Kw KBreak => Some (e <~ parse_opt_expression PrNone ;; pret (SBreak e))
  | Kw KThrow => Some (e <~ pe PrNone ;; pret (SThrow e))
  | TInlineHtml s => Some (pret (SEcho [Ex (EString s) sp]))
  | _ => None
  end.
(** src/parser.rs:1619-1657: other statements. *)
Definition parse_other_stmt (d : deep) : P stmt :=
  t <~ peek ;;
  match t with
  | None => perr []
  | Some (x, sp) =>
    match simple_stmt x sp with
    | Some m =>
      adv ;~
      r <~ m ;;
      expect KSemiColon ;~
      en <~ prev_end ;;
      pret (St r (mk_span (sp_start sp) en))
    | None =>
      p <~ getpos ;;
      parse_expr_stmt (deep_upd d (mkErr [] p))
    end
  end.

(** src/parser.rs:260-263 [if_lookahead_restore!] around [deepest!]. *)
Definition look_restore (k : kind) (d : deep) (m : span -> P stmt) (rest : deep -> P stmt) : P stmt :=
  old_pos <~ getpos ;;
  look k (fun sp => deepest d (m sp) (fun d' => setpos old_pos ;~ rest d')) (rest d).

(** src/parser.rs:1399-1658 [parse_statement]. *)
Definition parse_statement_body : P stmt :=
  look KSemiColon (fun sp => pret (St SNone sp))
  (look KCurlyBracesOpen (fun sp =>
     b <~ parse_inner_statement_list ;;
     sp2 <~ expect_or KCurlyBracesClose (snd b) ;;
     pret (St (SBlock (fst b)) (mk_span (sp_start sp) (sp_end sp2))))
  (look KTry parse_try
  (look KUnset parse_unset
  (look KForeach parse_foreach
  (look KFor parse_for
  (look KSwitch parse_switch
  (look KIf parse_if
  (look KWhile parse_while
  (look KDo parse_do
  (look_restore KStatic None parse_static_var_decl (fun d =>
   look_restore KGlobal d parse_global_var_decl (fun d =>
   look_restore KFunction d (fun sp => parse_function_declaration sp false false) (fun d =>
   deepest d parse_oo_declaration parse_other_stmt))))))))))))).
End Knot.

(** src/parser.rs:641-644 [parse_expression] and 1399 [parse_statement]: the knot. *)
Fixpoint parse_expression (f : nat) (prec : nat) : P expr :=
  match f with
  | O => pfuel
  | S f' => parse_unary_expression (parse_expression f') (parse_statement f') prec
  end
with parse_statement (f : nat) : P stmt :=
  match f with
  | O => pfuel
  | S f' => parse_statement_body (parse_expression f') (parse_statement f')
  end.

Section Top.
Variable ps : P stmt.

(** src/parser.rs:1817-1831: the clauses of a use statement. *)
Fixpoint use_clauses (n : nat) (acc : list use_clause) : P (list use_clause) :=
  match n with
  | O => pfuel
  | S n' =>
    is_fqdn <~ look KNsSeparator (fun _ => pret true) (pret false) ;;
    r <~ parse_namespace_name ;;
    alias <~ look KAs (fun _ => s <~ expect_string ;; pret (Some s)) (pret None) ;;
    let acc := acc ++ [QualifiedName (mkPath is_fqdn (namespace (fst r)) (identifier (fst r))) alias] in
    look KComma (fun _ => use_clauses n' acc) (pret acc)
  end.

(** src/parser.rs:1808-1838 [parse_top_statement]. *)
Definition parse_top_statement : P stmt :=
  look KNamespace (fun sp =>
    r <~ parse_namespace_name ;;
    sp2 <~ expect KSemiColon ;;
    pret (St (SDecl (DNamespace (fst r))) (mk_span (sp_start sp) (sp_start sp2))))
  (look KUse (fun sp =>
    l <~ use_clauses lf [] ;;
    sp2 <~ expect KSemiColon ;;
    pret (St (SUse l) (mk_span (sp_start sp) (sp_end sp2))))
  ps).

(** src/parser.rs:1840-1847 [parse_top_statement_list]. *)
Fixpoint top_statements (n : nat) (acc : list stmt) : P (list stmt) :=
  match n with
  | O => pfuel
  | S n' =>
    p <~ getpos ;;
    if p <? List.length toks then
      s <~ parse_top_statement ;; top_statements n' (acc ++ [s])
    else pret acc
  end.
Definition parse_top_statement_list : P (list stmt) :=
  match toks with [] => ppanic POverflow | _ => top_statements lf [] end.
End Top.
End Parser.
