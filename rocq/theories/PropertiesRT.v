(** * PropertiesRT: printing and parsing again *)
From Verif Require Import Base Tokens Ast AstMap Lexer Parser Printer Driver Spec SpecProg SpecRT RoundTrip.
From Coq Require Import String. Local Open Scope string_scope. Local Open Scope list_scope.

(** ** C20 *)
(** [sf] is how Rust prints a double; [good_top] delimits the class *)
Theorem C20_round_trip : forall sf l, l <> [] -> forallb (good_top sf) l = true -> survives sf l.
Proof. exact round_trip. Qed.
Print Assumptions C20_round_trip.
(** the tester rewrites a file of the class to a text with the same tree, and that
    text to itself *)
Theorem C20_tester_file : forall sf f src l, parse_str f src = DOk l -> l <> [] -> forallb (good_top sf) l = true ->
  exists s, parse_file sf f src = TfWritten s /\ parses_to s l /\ exists F, forall f', F <= f' -> parse_file sf f' s = TfWritten s.
Proof. exact round_trip_file. Qed.
Print Assumptions C20_tester_file.
(** two programs of the class are printed alike only if they are the same *)
Theorem C20_injective : forall sf l l', l <> [] -> l' <> [] -> forallb (good_top sf) l = true -> forallb (good_top sf) l' = true ->
  (print_statements sf l = print_statements sf l' <-> strip l = strip l').
Proof. exact print_injective. Qed.
Print Assumptions C20_injective.

Definition ex_source : str := s2l "<?php
namespace App\Http;
use Vendor\Pkg\Base as B;
interface Shape extends Named, \Countable { const SIDES = 4; public function area($scale = 1); }
trait Counts { private static $n = 0; }
abstract class Square extends B implements Shape {
  use Counts;
  use Loud, Quiet { Loud::say insteadof Quiet; Quiet::say as whisper; }
  const NAME = 'it\'s a \\square';
  protected $side;
  public static function make(array $opts, Shape &$out, callable $f, $x = [1, 'k' => 2]) {
    static $calls = 0, $last;
    $calls++;
    foreach ($opts as $k => &$v) { if (!isset($v[0])) { continue; } elseif ($v > 1.5) { break; } else { $v = -$v ** 2; } }
    for ($i = 0; $i < 10; $i++) { echo $i, ""a\n"" . $opts[$i]; }
    while (true) { do { $calls .= 'x'; } while ($calls !== null); }
    switch ($calls) { case 1: case 2: return new static($f(...$opts)); default: throw new \Exception('no'); }
    try { self::$n = $f($x)->side; unset($x[1], $out); } catch (\Error $e) { return; } finally { ; }
    list($a, $b) = [1, 2];
    return function ($y) use ($f, &$out) { return $y instanceof Shape ? (int)$y->area(2)->{$f->name} : $f($y) ?: null; };
  }
  abstract function area($scale = 1);
}
function f() { return include 'x.php'; }
echo Square::NAME;
".
Definition ex_show (d : str) : str := d.
Example C20_example : match parse_str 2000 ex_source with DOk (s :: l) => forallb (good_top ex_show) (s :: l) | _ => false end = true.
Proof. vm_compute. reflexivity. Qed.
(** words of the language as names *)
Definition ex_words : str := s2l "<?php class A { const list = 1, new = 2; use T { T::print insteadof U; exit as leave; } } echo A::list, A::new(1), A::class;".
Example C20_example_words : match parse_str 2000 ex_words with DOk (s :: l) => forallb (good_top ex_show) (s :: l) | _ => false end = true.
Proof. vm_compute. reflexivity. Qed.
(** yield *)
Definition ex_yield : str := s2l "<?php function g($a) { $x = yield $a[0] + 1; yield fro(from($x)); yield -$a; foreach ($a as $b) { yield clone $b; } }".
Example C20_example_yield : match parse_str 2000 ex_yield with DOk (s :: l) => forallb (good_top ex_show) (s :: l) | _ => false end = true.
Proof. vm_compute. reflexivity. Qed.

(** Outside the class: each source is read as the tree beside it, and the text printed
    for the tree is read differently or not at all. *)
Definition x (e : expr_) : expr := Ex e span_new.
Definition v (s : string) : expr := x (EVar (VName (s2l s))).
Definition nm (s : string) : expr := x (EPath (mkPath false None (s2l s))).
Theorem C20_outside_the_class : forall sf,
  misprinted sf "<?php 'a\\\\b';" (expr_program (EString (s2l "a\\b"))) /\
  misprinted sf "<?php global $a;" [St (SDecl (DGlobalVars [VName (s2l "a")])) span_new] /\
  misprinted sf "<?php ($a += 1) + 2;" (expr_program (EBinary OAdd (x (ECompound (v "a") OAdd (x (EInt 1)))) (x (EInt 2)))) /\
  misprinted sf "<?php exit;" (expr_program (EExit None)) /\
  misprinted sf "<?php !($a instanceof B);" (expr_program (EUnary UNot (x (EInstanceOf (v "a") (nm "B"))))) /\
  misprinted sf "<?php $a &= $b;" (expr_program (ECompound (v "a") OAnd (v "b"))) /\
  misprinted sf "<?php 1 . 2;" (expr_program (EBinary OConcat (x (EInt 1)) (x (EInt 2)))) /\
  misprinted sf "<?php $a . 1;" (expr_program (EBinary OConcat (v "a") (x (EInt 1)))) /\
  misprinted sf "<?php (clone $a) + 1;" (expr_program (EBinary OAdd (x (EClone (v "a"))) (x (EInt 1)))) /\
  misprinted sf "<?php __line__;" (expr_program (EConst CMagicLine)) /\
  misprinted sf "<?php $a->{'b'};" (expr_program (EObjMember (v "a") [x (EString (s2l "b"))])) /\
  misprinted sf "<?php ((int)$a)[0];" (expr_program (EArrayIdx (x (ECast TyInt (v "a"))) [Some (x (EInt 0))])) /\
  misprinted sf "<?php yield (fromage());" (expr_program (EYield (Some (x (ECall (nm "fromage") []))))) /\
  misprinted sf "<?php use A, B;" [St (SUse [QualifiedName (mkPath false None (s2l "A")) None; QualifiedName (mkPath false None (s2l "B")) None]) span_new].
Proof. exact outside_the_class. Qed.
Print Assumptions C20_outside_the_class.
(** a negative number comes back as the negation of a positive one *)
Theorem C20_negative : forall sf z, (0 < z <= Z.of_N i64_max)%Z ->
  exists s, print_statements sf (expr_program (EInt (- z))) = Some s /\ parses_to (around s) (expr_program (EUnary UNegative (x (EInt z)))).
Proof. exact negative. Qed.
Print Assumptions C20_negative.
Example C20_example_negative : print_statements ex_show (expr_program (EInt (-12))) = Some (s2l "-12;
").
Proof. vm_compute. reflexivity. Qed.
(** the visibility of an adaptation is printed, and the parser panics on it *)
Theorem C20_adaptation : forall sf v w, In (v, w) [(MPublic, "public"); (MProtected, "protected"); (MPrivate, "private")] ->
  print_statements sf (adapted v) = Some (adapted_text w) /\ panics (around (adapted_text w)).
Proof. exact adaptation. Qed.
Print Assumptions C20_adaptation.
