(** * Conformance: the repository's own parser unit tests (src/tests/*.rs), replayed on the model.

    Generated from the Rust sources; every expected AST, including all spans, is the
    one written in the test.  These are tests of the model, not proofs of properties. *)
From Verif Require Import Base Tokens Ast Lexer Parser Printer Driver.
From Coq Require Import String.

Definition run (s : str) : dout (list stmt) serror := parse_str 400 s.
Definition run_expr (s : str) : option expr :=
  match run s with DOk [St (SExpr e) _] => Some e | _ => None end.

Example parse_expr_comment_0 : run_expr (s2l "<?php 1/*test*/+/*test*/2;") = Some (Ex (EBinary OAdd (Ex (EInt 1) (mk_span 6 7)) (Ex (EInt 2) (mk_span 24 25))) (mk_span 6 25)).
Proof. vm_compute. reflexivity. Qed.
Example parse_expr_op_0 : run_expr (s2l "<?php 1+2;") = Some (Ex (EBinary OAdd (Ex (EInt 1) (mk_span 6 7)) (Ex (EInt 2) (mk_span 8 9))) (mk_span 6 9)).
Proof. vm_compute. reflexivity. Qed.
Example parse_expr_op_1 : run_expr (s2l "<?php 1+2*3;") = Some (Ex (EBinary OAdd (Ex (EInt 1) (mk_span 6 7)) (Ex (EBinary OMul (Ex (EInt 2) (mk_span 8 9)) (Ex (EInt 3) (mk_span 10 11))) (mk_span 8 11))) (mk_span 6 11)).
Proof. vm_compute. reflexivity. Qed.
Example parse_expr_op_2 : run_expr (s2l "<?php 2+$d**$c**$d;") = Some (Ex (EBinary OAdd (Ex (EInt 2) (mk_span 6 7)) (Ex (EBinary OPow (Ex (EVar (VName (s2l "d"))) (mk_span 8 10)) (Ex (EBinary OPow (Ex (EVar (VName (s2l "c"))) (mk_span 12 14)) (Ex (EVar (VName (s2l "d"))) (mk_span 16 18))) (mk_span 12 18))) (mk_span 8 18))) (mk_span 6 18)).
Proof. vm_compute. reflexivity. Qed.
Example parse_expr_op_3 : run_expr (s2l "<?php $g[""a""]-$g[""b""]/3;") = Some (Ex (EBinary OSub (Ex (EArrayIdx (Ex (EVar (VName (s2l "g"))) (mk_span 6 8)) [(Some (Ex (EString (s2l "a")) (mk_span 9 12)))]) (mk_span 6 13)) (Ex (EBinary ODiv (Ex (EArrayIdx (Ex (EVar (VName (s2l "g"))) (mk_span 14 16)) [(Some (Ex (EString (s2l "b")) (mk_span 17 20)))]) (mk_span 14 21)) (Ex (EInt 3) (mk_span 22 23))) (mk_span 14 23))) (mk_span 6 23)).
Proof. vm_compute. reflexivity. Qed.
Example parse_expr_logical_0 : run_expr (s2l "<?php $a||$b;") = Some (Ex (EBinary OOr (Ex (EVar (VName (s2l "a"))) (mk_span 6 8)) (Ex (EVar (VName (s2l "b"))) (mk_span 10 12))) (mk_span 6 12)).
Proof. vm_compute. reflexivity. Qed.
Example parse_expr_logical_1 : run_expr (s2l "<?php $a&&true;") = Some (Ex (EBinary OAnd (Ex (EVar (VName (s2l "a"))) (mk_span 6 8)) (Ex (EConst CTrue) (mk_span 10 14))) (mk_span 6 14)).
Proof. vm_compute. reflexivity. Qed.
Example parse_expr_logical_2 : run_expr (s2l "<?php !$a;") = Some (Ex (EUnary UNot (Ex (EVar (VName (s2l "a"))) (mk_span 7 9))) (mk_span 6 9)).
Proof. vm_compute. reflexivity. Qed.
Example parse_expr_logical_3 : run_expr (s2l "<?php $a?false:true or $b;") = Some (Ex (EBinary OOr (Ex (ETernary (Ex (EVar (VName (s2l "a"))) (mk_span 6 8)) (Some (Ex (EConst CFalse) (mk_span 9 14))) (Ex (EConst CTrue) (mk_span 15 19))) (mk_span 6 19)) (Ex (EVar (VName (s2l "b"))) (mk_span 23 25))) (mk_span 6 25)).
Proof. vm_compute. reflexivity. Qed.
Example parse_expr_parens_0 : run_expr (s2l "<?php (1+2)*3;") = Some (Ex (EBinary OMul (Ex (EBinary OAdd (Ex (EInt 1) (mk_span 7 8)) (Ex (EInt 2) (mk_span 9 10))) (mk_span 6 11)) (Ex (EInt 3) (mk_span 12 13))) (mk_span 6 13)).
Proof. vm_compute. reflexivity. Qed.
Example parse_expr_parens_1 : run_expr (s2l "<?php (true||false)&&true;") = Some (Ex (EBinary OAnd (Ex (EBinary OOr (Ex (EConst CTrue) (mk_span 7 11)) (Ex (EConst CFalse) (mk_span 13 18))) (mk_span 6 19)) (Ex (EConst CTrue) (mk_span 21 25))) (mk_span 6 25)).
Proof. vm_compute. reflexivity. Qed.
Example parse_expr_string_0 : run_expr (s2l "<?php """";") = Some (Ex (EString (s2l "")) (mk_span 6 8)).
Proof. vm_compute. reflexivity. Qed.
Example parse_expr_string_1 : run_expr (s2l "<?php ""t\nest\tsss\""os\""haha"";") = Some (Ex (EString [116; 10; 101; 115; 116; 9; 115; 115; 115; 34; 111; 115; 34; 104; 97; 104; 97]%N) (mk_span 6 29)).
Proof. vm_compute. reflexivity. Qed.
Example parse_expr_string_2 : run_expr (s2l "<?php ""\xe7\x9a\x84"";") = Some (Ex (EString [30340]%N) (mk_span 6 20)).
Proof. vm_compute. reflexivity. Qed.
Example parse_expr_string_3 : run_expr (s2l "<?php ""a\""b\\\""c\\\""d\""e"";") = Some (Ex (EString (s2l "a""b\""c\""d""e")) (mk_span 6 25)).
Proof. vm_compute. reflexivity. Qed.
Example parse_expr_string_4 : run_expr (s2l "<?php ""abc\ClassName"";") = Some (Ex (EString (s2l "abc\ClassName")) (mk_span 6 21)).
Proof. vm_compute. reflexivity. Qed.
Example parse_expr_string_fragmented_0 : run_expr (s2l "<?php ""hello $world"";") = Some (Ex (EBinary OConcat (Ex (EString (s2l "hello ")) (mk_span 7 13)) (Ex (EVar (VName (s2l "world"))) (mk_span 13 19))) (mk_span 6 20)).
Proof. vm_compute. reflexivity. Qed.
Example parse_expr_string_fragmented_1 : run_expr (s2l "<?php ""hello {$world}"";") = Some (Ex (EBinary OConcat (Ex (EString (s2l "hello ")) (mk_span 7 13)) (Ex (EVar (VName (s2l "world"))) (mk_span 14 20))) (mk_span 6 22)).
Proof. vm_compute. reflexivity. Qed.
Example parse_expr_string_fragmented_2 : run_expr (s2l "<?php ""hello $wor->ld"";") = Some (Ex (EBinary OConcat (Ex (EString (s2l "hello ")) (mk_span 7 13)) (Ex (EObjMember (Ex (EVar (VName (s2l "wor"))) (mk_span 13 17)) [(Ex (EPath (mkPath false None (s2l "ld"))) (mk_span 19 21))]) (mk_span 13 21))) (mk_span 6 22)).
Proof. vm_compute. reflexivity. Qed.
Example parse_expr_string_fragmented_3 : run_expr (s2l "<?php ""hello ${world}"";") = Some (Ex (EBinary OConcat (Ex (EString (s2l "hello ")) (mk_span 7 13)) (Ex (EVar (VName (s2l "world"))) (mk_span 13 21))) (mk_span 6 22)).
Proof. vm_compute. reflexivity. Qed.
Example parse_expr_char_string_0 : run_expr (s2l "<?php '\ntest\142';") = Some (Ex (EString (s2l "\ntest\142")) (mk_span 6 18)).
Proof. vm_compute. reflexivity. Qed.
Example parse_expr_char_string_1 : run_expr (s2l "<?php 'a\'b\'c';") = Some (Ex (EString (s2l "a'b'c")) (mk_span 6 15)).
Proof. vm_compute. reflexivity. Qed.
Example parse_expr_char_string_2 : run_expr (s2l "<?php 'd\'e\\\'f\\\'\'g';") = Some (Ex (EString (s2l "d'e\'f\''g")) (mk_span 6 24)).
Proof. vm_compute. reflexivity. Qed.
Example parse_ns_identifier_0 : run_expr (s2l "<?php Test;") = Some (Ex (EPath (mkPath false None (s2l "Test"))) (mk_span 6 10)).
Proof. vm_compute. reflexivity. Qed.
Example parse_ns_identifier_1 : run_expr (s2l "<?php Test\Abc;") = Some (Ex (EPath (mkPath false (Some (s2l "Test")) (s2l "Abc"))) (mk_span 6 14)).
Proof. vm_compute. reflexivity. Qed.
Example parse_ns_identifier_2 : run_expr (s2l "<?php Test\Ns1\Ns2;") = Some (Ex (EPath (mkPath false (Some (s2l "Test\Ns1")) (s2l "Ns2"))) (mk_span 6 18)).
Proof. vm_compute. reflexivity. Qed.
Example parse_ns_identifier_3 : run_expr (s2l "<?php \Test\Ns1\Ns2\Ns3;") = Some (Ex (EPath (mkPath true (Some (s2l "Test\Ns1\Ns2")) (s2l "Ns3"))) (mk_span 6 23)).
Proof. vm_compute. reflexivity. Qed.
Example parse_expr_object_property_0 : run_expr (s2l "<?php $obj->prop;") = Some (Ex (EObjMember (Ex (EVar (VName (s2l "obj"))) (mk_span 6 10)) [(Ex (EPath (mkPath false None (s2l "prop"))) (mk_span 12 16))]) (mk_span 6 16)).
Proof. vm_compute. reflexivity. Qed.
Example parse_expr_object_property_1 : run_expr (s2l "<?php $obj->a->b->c->d;") = Some (Ex (EObjMember (Ex (EVar (VName (s2l "obj"))) (mk_span 6 10)) [(Ex (EPath (mkPath false None (s2l "a"))) (mk_span 12 13)); (Ex (EPath (mkPath false None (s2l "b"))) (mk_span 15 16)); (Ex (EPath (mkPath false None (s2l "c"))) (mk_span 18 19)); (Ex (EPath (mkPath false None (s2l "d"))) (mk_span 21 22))]) (mk_span 6 22)).
Proof. vm_compute. reflexivity. Qed.
Example parse_expr_object_property_2 : run_expr (s2l "<?php $obj->$a->b;") = Some (Ex (EObjMember (Ex (EVar (VName (s2l "obj"))) (mk_span 6 10)) [(Ex (EVar (VName (s2l "a"))) (mk_span 12 14)); (Ex (EPath (mkPath false None (s2l "b"))) (mk_span 16 17))]) (mk_span 6 17)).
Proof. vm_compute. reflexivity. Qed.
Example parse_expr_object_property_3 : run_expr (s2l "<?php $obj->{$obj->b}->c;") = Some (Ex (EObjMember (Ex (EVar (VName (s2l "obj"))) (mk_span 6 10)) [(Ex (EObjMember (Ex (EVar (VName (s2l "obj"))) (mk_span 13 17)) [(Ex (EPath (mkPath false None (s2l "b"))) (mk_span 19 20))]) (mk_span 13 20)); (Ex (EPath (mkPath false None (s2l "c"))) (mk_span 23 24))]) (mk_span 6 24)).
Proof. vm_compute. reflexivity. Qed.
Example parse_expr_object_property_4 : run_expr (s2l "<?php $obj->{$a->{$b->c}->d}->e;") = Some (Ex (EObjMember (Ex (EVar (VName (s2l "obj"))) (mk_span 6 10)) [(Ex (EObjMember (Ex (EVar (VName (s2l "a"))) (mk_span 13 15)) [(Ex (EObjMember (Ex (EVar (VName (s2l "b"))) (mk_span 18 20)) [(Ex (EPath (mkPath false None (s2l "c"))) (mk_span 22 23))]) (mk_span 18 23)); (Ex (EPath (mkPath false None (s2l "d"))) (mk_span 26 27))]) (mk_span 13 27)); (Ex (EPath (mkPath false None (s2l "e"))) (mk_span 30 31))]) (mk_span 6 31)).
Proof. vm_compute. reflexivity. Qed.
Example parse_expr_object_property_5 : run_expr (s2l "<?php $obj->$a->b();") = Some (Ex (ECall (Ex (EObjMember (Ex (EVar (VName (s2l "obj"))) (mk_span 6 10)) [(Ex (EVar (VName (s2l "a"))) (mk_span 12 14)); (Ex (EPath (mkPath false None (s2l "b"))) (mk_span 16 17))]) (mk_span 6 17)) []) (mk_span 6 19)).
Proof. vm_compute. reflexivity. Qed.
Example parse_expr_array_idx_0 : run_expr (s2l "<?php $test[""a""];") = Some (Ex (EArrayIdx (Ex (EVar (VName (s2l "test"))) (mk_span 6 11)) [(Some (Ex (EString (s2l "a")) (mk_span 12 15)))]) (mk_span 6 16)).
Proof. vm_compute. reflexivity. Qed.
Example parse_expr_array_idx_1 : run_expr (s2l "<?php $test[9];") = Some (Ex (EArrayIdx (Ex (EVar (VName (s2l "test"))) (mk_span 6 11)) [(Some (Ex (EInt 9) (mk_span 12 13)))]) (mk_span 6 14)).
Proof. vm_compute. reflexivity. Qed.
Example parse_expr_array_idx_2 : run_expr (s2l "<?php $test[""a""]['b\n'];") = Some (Ex (EArrayIdx (Ex (EVar (VName (s2l "test"))) (mk_span 6 11)) [(Some (Ex (EString (s2l "a")) (mk_span 12 15))); (Some (Ex (EString (s2l "b\n")) (mk_span 17 22)))]) (mk_span 6 23)).
Proof. vm_compute. reflexivity. Qed.
Example parse_expr_array_idx_3 : run_expr (s2l "<?php $test[$g[""a""]][""b""][""c""];") = Some (Ex (EArrayIdx (Ex (EVar (VName (s2l "test"))) (mk_span 6 11)) [(Some (Ex (EArrayIdx (Ex (EVar (VName (s2l "g"))) (mk_span 12 14)) [(Some (Ex (EString (s2l "a")) (mk_span 15 18)))]) (mk_span 12 19))); (Some (Ex (EString (s2l "b")) (mk_span 21 24))); (Some (Ex (EString (s2l "c")) (mk_span 26 29)))]) (mk_span 6 30)).
Proof. vm_compute. reflexivity. Qed.
Example parse_expr_func_call_0 : run_expr (s2l "<?php test();") = Some (Ex (ECall (Ex (EPath (mkPath false None (s2l "test"))) (mk_span 6 10)) []) (mk_span 6 12)).
Proof. vm_compute. reflexivity. Qed.
Example parse_expr_func_call_1 : run_expr (s2l "<?php array_();") = Some (Ex (ECall (Ex (EPath (mkPath false None (s2l "array_"))) (mk_span 6 12)) []) (mk_span 6 14)).
Proof. vm_compute. reflexivity. Qed.
Example parse_expr_func_call_2 : run_expr (s2l "<?php func_x(1, 2);") = Some (Ex (ECall (Ex (EPath (mkPath false None (s2l "func_x"))) (mk_span 6 12)) [(Ex (EInt 1) (mk_span 13 14)); (Ex (EInt 2) (mk_span 16 17))]) (mk_span 6 18)).
Proof. vm_compute. reflexivity. Qed.
Example parse_expr_func_call_3 : run_expr (s2l "<?php func_x(abc(1), 2);") = Some (Ex (ECall (Ex (EPath (mkPath false None (s2l "func_x"))) (mk_span 6 12)) [(Ex (ECall (Ex (EPath (mkPath false None (s2l "abc"))) (mk_span 13 16)) [(Ex (EInt 1) (mk_span 17 18))]) (mk_span 13 19)); (Ex (EInt 2) (mk_span 21 22))]) (mk_span 6 23)).
Proof. vm_compute. reflexivity. Qed.
Example parse_expr_func_call_4 : run_expr (s2l "<?php $g[0]();") = Some (Ex (ECall (Ex (EArrayIdx (Ex (EVar (VName (s2l "g"))) (mk_span 6 8)) [(Some (Ex (EInt 0) (mk_span 9 10)))]) (mk_span 6 11)) []) (mk_span 6 13)).
Proof. vm_compute. reflexivity. Qed.
Example parse_expr_func_call_5 : run_expr (s2l "<?php $g[0]()[1](true);") = Some (Ex (ECall (Ex (EArrayIdx (Ex (ECall (Ex (EArrayIdx (Ex (EVar (VName (s2l "g"))) (mk_span 6 8)) [(Some (Ex (EInt 0) (mk_span 9 10)))]) (mk_span 6 11)) []) (mk_span 6 13)) [(Some (Ex (EInt 1) (mk_span 14 15)))]) (mk_span 6 16)) [(Ex (EConst CTrue) (mk_span 17 21))]) (mk_span 6 22)).
Proof. vm_compute. reflexivity. Qed.
Example parse_expr_require_0 : run_expr (s2l "<?php abc(require $path);") = Some (Ex (ECall (Ex (EPath (mkPath false None (s2l "abc"))) (mk_span 6 9)) [(Ex (EInclude IRequire (Ex (EVar (VName (s2l "path"))) (mk_span 18 23))) (mk_span 10 23))]) (mk_span 6 24)).
Proof. vm_compute. reflexivity. Qed.
Example parse_expr_isset_0 : run_expr (s2l "<?php isset($b);") = Some (Ex (EIsset [(Ex (EVar (VName (s2l "b"))) (mk_span 12 14))]) (mk_span 6 15)).
Proof. vm_compute. reflexivity. Qed.
Example parse_expr_empty_0 : run_expr (s2l "<?php empty($b);") = Some (Ex (EEmpty (Ex (EVar (VName (s2l "b"))) (mk_span 12 14))) (mk_span 6 15)).
Proof. vm_compute. reflexivity. Qed.
Example parse_expr_cast_0 : run_expr (s2l "<?php (bool) $test;") = Some (Ex (ECast TyBool (Ex (EVar (VName (s2l "test"))) (mk_span 13 18))) (mk_span 6 18)).
Proof. vm_compute. reflexivity. Qed.
Example parse_expr_cast_1 : run_expr (s2l "<?php (int)$a['a'];") = Some (Ex (ECast TyInt (Ex (EArrayIdx (Ex (EVar (VName (s2l "a"))) (mk_span 11 13)) [(Some (Ex (EString (s2l "a")) (mk_span 14 17)))]) (mk_span 11 18))) (mk_span 6 18)).
Proof. vm_compute. reflexivity. Qed.
Example parse_expr_cast_2 : run_expr (s2l "<?php (int)ab()['c'];") = Some (Ex (ECast TyInt (Ex (EArrayIdx (Ex (ECall (Ex (EPath (mkPath false None (s2l "ab"))) (mk_span 11 13)) []) (mk_span 11 15)) [(Some (Ex (EString (s2l "c")) (mk_span 16 19)))]) (mk_span 11 20))) (mk_span 6 20)).
Proof. vm_compute. reflexivity. Qed.
Example parse_expr_error_control_0 : run_expr (s2l "<?php @test();") = Some (Ex (EUnary USilence (Ex (ECall (Ex (EPath (mkPath false None (s2l "test"))) (mk_span 7 11)) []) (mk_span 7 13))) (mk_span 6 13)).
Proof. vm_compute. reflexivity. Qed.
Example parse_expr_post_pre_dec_inc_0 : run_expr (s2l "<?php $c++;") = Some (Ex (EUnary UPostInc (Ex (EVar (VName (s2l "c"))) (mk_span 6 8))) (mk_span 6 10)).
Proof. vm_compute. reflexivity. Qed.
Example parse_expr_post_pre_dec_inc_1 : run_expr (s2l "<?php $c--;") = Some (Ex (EUnary UPostDec (Ex (EVar (VName (s2l "c"))) (mk_span 6 8))) (mk_span 6 10)).
Proof. vm_compute. reflexivity. Qed.
Example parse_expr_post_pre_dec_inc_2 : run_expr (s2l "<?php ++$c;") = Some (Ex (EUnary UPreInc (Ex (EVar (VName (s2l "c"))) (mk_span 8 10))) (mk_span 6 10)).
Proof. vm_compute. reflexivity. Qed.
Example parse_expr_post_pre_dec_inc_3 : run_expr (s2l "<?php --$c;") = Some (Ex (EUnary UPreDec (Ex (EVar (VName (s2l "c"))) (mk_span 8 10))) (mk_span 6 10)).
Proof. vm_compute. reflexivity. Qed.
Example parse_expr_static_const_0 : run_expr (s2l "<?php Obj::test;") = Some (Ex (EStaticMember (Ex (EPath (mkPath false None (s2l "Obj"))) (mk_span 6 9)) [(Ex (EPath (mkPath false None (s2l "test"))) (mk_span 11 15))]) (mk_span 6 15)).
Proof. vm_compute. reflexivity. Qed.
Example parse_expr_static_property_0 : run_expr (s2l "<?php Obj::$test;") = Some (Ex (EStaticMember (Ex (EPath (mkPath false None (s2l "Obj"))) (mk_span 6 9)) [(Ex (EVar (VName (s2l "test"))) (mk_span 11 16))]) (mk_span 6 16)).
Proof. vm_compute. reflexivity. Qed.
Example parse_expr_static_property_1 : run_expr (s2l "<?php Obj::$a::$b;") = Some (Ex (EStaticMember (Ex (EPath (mkPath false None (s2l "Obj"))) (mk_span 6 9)) [(Ex (EVar (VName (s2l "a"))) (mk_span 11 13)); (Ex (EVar (VName (s2l "b"))) (mk_span 15 17))]) (mk_span 6 17)).
Proof. vm_compute. reflexivity. Qed.
Example parse_expr_static_property_2 : run_expr (s2l "<?php Obj::test();") = Some (Ex (ECall (Ex (EStaticMember (Ex (EPath (mkPath false None (s2l "Obj"))) (mk_span 6 9)) [(Ex (EPath (mkPath false None (s2l "test"))) (mk_span 11 15))]) (mk_span 6 15)) []) (mk_span 6 17)).
Proof. vm_compute. reflexivity. Qed.
Example parse_expr_static_property_3 : run_expr (s2l "<?php static::$abc;") = Some (Ex (EStaticMember (Ex (EPath (mkPath false None (s2l "static"))) (mk_span 6 12)) [(Ex (EVar (VName (s2l "abc"))) (mk_span 14 18))]) (mk_span 6 18)).
Proof. vm_compute. reflexivity. Qed.
Example parse_expr_ternary_0 : run_expr (s2l "<?php $test?true:false;") = Some (Ex (ETernary (Ex (EVar (VName (s2l "test"))) (mk_span 6 11)) (Some (Ex (EConst CTrue) (mk_span 12 16))) (Ex (EConst CFalse) (mk_span 17 22))) (mk_span 6 22)).
Proof. vm_compute. reflexivity. Qed.
Example parse_expr_ternary_1 : run_expr (s2l "<?php !$test?true:false;") = Some (Ex (ETernary (Ex (EUnary UNot (Ex (EVar (VName (s2l "test"))) (mk_span 7 12))) (mk_span 6 12)) (Some (Ex (EConst CTrue) (mk_span 13 17))) (Ex (EConst CFalse) (mk_span 18 23))) (mk_span 6 23)).
Proof. vm_compute. reflexivity. Qed.
Example parse_expr_ternary_2 : run_expr (s2l "<?php true?'y':false?'n':'y';") = Some (Ex (ETernary (Ex (ETernary (Ex (EConst CTrue) (mk_span 6 10)) (Some (Ex (EString (s2l "y")) (mk_span 11 14))) (Ex (EConst CFalse) (mk_span 15 20))) (mk_span 6 20)) (Some (Ex (EString (s2l "n")) (mk_span 21 24))) (Ex (EString (s2l "y")) (mk_span 25 28))) (mk_span 6 28)).
Proof. vm_compute. reflexivity. Qed.
Example parse_expr_new_0 : run_expr (s2l "<?php new TestA();") = Some (Ex (ENew (Ex (EPath (mkPath false None (s2l "TestA"))) (mk_span 10 15)) []) (mk_span 6 17)).
Proof. vm_compute. reflexivity. Qed.
Example parse_expr_new_1 : run_expr (s2l "<?php new Foo\Bar();") = Some (Ex (ENew (Ex (EPath (mkPath false (Some (s2l "Foo")) (s2l "Bar"))) (mk_span 10 17)) []) (mk_span 6 19)).
Proof. vm_compute. reflexivity. Qed.
Example parse_expr_new_2 : run_expr (s2l "<?php new Foo;") = Some (Ex (ENew (Ex (EPath (mkPath false None (s2l "Foo"))) (mk_span 10 13)) []) (mk_span 6 13)).
Proof. vm_compute. reflexivity. Qed.
Example parse_expr_clone_0 : run_expr (s2l "<?php clone $test;") = Some (Ex (EClone (Ex (EVar (VName (s2l "test"))) (mk_span 12 17))) (mk_span 6 11)).
Proof. vm_compute. reflexivity. Qed.
Example parse_expr_array_append_0 : run_expr (s2l "<?php $test[]=1;") = Some (Ex (EAssign (Ex (EArrayIdx (Ex (EVar (VName (s2l "test"))) (mk_span 6 11)) [None]) (mk_span 6 13)) (Ex (EInt 1) (mk_span 14 15))) (mk_span 6 15)).
Proof. vm_compute. reflexivity. Qed.
Example parse_expr_assign_0 : run_expr (s2l "<?php ($b=4);") = Some (Ex (EAssign (Ex (EVar (VName (s2l "b"))) (mk_span 7 9)) (Ex (EInt 4) (mk_span 10 11))) (mk_span 6 12)).
Proof. vm_compute. reflexivity. Qed.
Example parse_expr_assign_1 : run_expr (s2l "<?php !($b=1);") = Some (Ex (EUnary UNot (Ex (EAssign (Ex (EVar (VName (s2l "b"))) (mk_span 8 10)) (Ex (EInt 1) (mk_span 11 12))) (mk_span 7 13))) (mk_span 6 13)).
Proof. vm_compute. reflexivity. Qed.
Example parse_expr_assign_2 : run_expr (s2l "<?php !$b=1;") = Some (Ex (EUnary UNot (Ex (EAssign (Ex (EVar (VName (s2l "b"))) (mk_span 7 9)) (Ex (EInt 1) (mk_span 10 11))) (mk_span 7 11))) (mk_span 6 11)).
Proof. vm_compute. reflexivity. Qed.
Example parse_expr_array_0 : run_expr (s2l "<?php [];") = Some (Ex (EArray []) (mk_span 6 8)).
Proof. vm_compute. reflexivity. Qed.
Example parse_expr_array_1 : run_expr (s2l "<?php [1,];") = Some (Ex (EArray [(None, (Ex (EInt 1) (mk_span 7 8)))]) (mk_span 6 10)).
Proof. vm_compute. reflexivity. Qed.
Example parse_expr_array_2 : run_expr (s2l "<?php [1, 2];") = Some (Ex (EArray [(None, (Ex (EInt 1) (mk_span 7 8))); (None, (Ex (EInt 2) (mk_span 10 11)))]) (mk_span 6 12)).
Proof. vm_compute. reflexivity. Qed.
Example parse_expr_array_3 : run_expr (s2l "<?php [1, [2, 3], 3];") = Some (Ex (EArray [(None, (Ex (EInt 1) (mk_span 7 8))); (None, (Ex (EArray [(None, (Ex (EInt 2) (mk_span 11 12))); (None, (Ex (EInt 3) (mk_span 14 15)))]) (mk_span 10 16))); (None, (Ex (EInt 3) (mk_span 18 19)))]) (mk_span 6 20)).
Proof. vm_compute. reflexivity. Qed.
Example parse_expr_array_4 : run_expr (s2l "<?php array();") = Some (Ex (EArray []) (mk_span 6 13)).
Proof. vm_compute. reflexivity. Qed.
Example parse_expr_assoc_array_0 : run_expr (s2l "<?php ['a' => 'b'];") = Some (Ex (EArray [((Some (Ex (EString (s2l "a")) (mk_span 7 10))), (Ex (EString (s2l "b")) (mk_span 14 17)))]) (mk_span 6 18)).
Proof. vm_compute. reflexivity. Qed.
Example parse_expr_closure_0 : run_expr (s2l "<?php function () { c(); };") = Some (Ex (EFunction (mkFun [] (Some [(St (SExpr (Ex (ECall (Ex (EPath (mkPath false None (s2l "c"))) (mk_span 20 21)) []) (mk_span 20 23))) (mk_span 20 24))]) [] false)) (mk_span 6 26)).
Proof. vm_compute. reflexivity. Qed.
Example parse_expr_priority_parents_call_0 : run_expr (s2l "<?php (new Factory)->test;") = Some (Ex (EObjMember (Ex (ENew (Ex (EPath (mkPath false None (s2l "Factory"))) (mk_span 11 18)) []) (mk_span 6 19)) [(Ex (EPath (mkPath false None (s2l "test"))) (mk_span 21 25))]) (mk_span 6 25)).
Proof. vm_compute. reflexivity. Qed.
Example parse_expr_priority_parents_call_1 : run_expr (s2l "<?php (new $obj)->method();") = Some (Ex (ECall (Ex (EObjMember (Ex (ENew (Ex (EVar (VName (s2l "obj"))) (mk_span 11 15)) []) (mk_span 6 16)) [(Ex (EPath (mkPath false None (s2l "method"))) (mk_span 18 24))]) (mk_span 6 24)) []) (mk_span 6 26)).
Proof. vm_compute. reflexivity. Qed.
Example parse_expr_unpack_0 : run_expr (s2l "<?php t(...$email);") = Some (Ex (ECall (Ex (EPath (mkPath false None (s2l "t"))) (mk_span 6 7)) [(Ex (EUnpack (Ex (EVar (VName (s2l "email"))) (mk_span 11 17))) (mk_span 8 17))]) (mk_span 6 18)).
Proof. vm_compute. reflexivity. Qed.
Example parse_stmt_heredoc_0 : run [60; 63; 112; 104; 112; 32; 60; 60; 60; 69; 79; 84; 10; 116; 101; 115; 116; 10; 69; 79; 84; 59; 10]%N = DOk [(St (SExpr (Ex (EString (s2l "test")) (mk_span 6 21))) (mk_span 6 22))].
Proof. vm_compute. reflexivity. Qed.
Example parse_stmt_echo_0 : run (s2l "<?php echo 1;") = DOk [(St (SEcho [(Ex (EInt 1) (mk_span 11 12))]) (mk_span 6 13))].
Proof. vm_compute. reflexivity. Qed.
Example parse_stmt_return_0 : run (s2l "<?php return true;") = DOk [(St (SReturn (Some (Ex (EConst CTrue) (mk_span 13 17)))) (mk_span 6 18))].
Proof. vm_compute. reflexivity. Qed.
Example parse_stmt_return_1 : run (s2l "<?php return;") = DOk [(St (SReturn None) (mk_span 6 13))].
Proof. vm_compute. reflexivity. Qed.
Example parse_stmt_continue_0 : run (s2l "<?php continue;") = DOk [(St (SContinue None) (mk_span 6 15))].
Proof. vm_compute. reflexivity. Qed.
Example parse_stmt_continue_1 : run (s2l "<?php continue 2;") = DOk [(St (SContinue (Some (Ex (EInt 2) (mk_span 15 16)))) (mk_span 6 17))].
Proof. vm_compute. reflexivity. Qed.
Example parse_stmt_break_0 : run (s2l "<?php break;") = DOk [(St (SBreak None) (mk_span 6 12))].
Proof. vm_compute. reflexivity. Qed.
Example parse_stmt_break_1 : run (s2l "<?php break 2;") = DOk [(St (SBreak (Some (Ex (EInt 2) (mk_span 12 13)))) (mk_span 6 14))].
Proof. vm_compute. reflexivity. Qed.
Example parse_stmt_unset_0 : run (s2l "<?php unset($a);") = DOk [(St (SUnset [(Ex (EVar (VName (s2l "a"))) (mk_span 12 14))]) (mk_span 6 16))].
Proof. vm_compute. reflexivity. Qed.
Example parse_stmt_throw_0 : run (s2l "<?php throw new Exception(""test"");") = DOk [(St (SThrow (Ex (ENew (Ex (EPath (mkPath false None (s2l "Exception"))) (mk_span 16 25)) [(Ex (EString (s2l "test")) (mk_span 26 32))]) (mk_span 12 33))) (mk_span 6 34))].
Proof. vm_compute. reflexivity. Qed.
Example parse_stmt_throw_1 : run (s2l "<?php throw new Exception;") = DOk [(St (SThrow (Ex (ENew (Ex (EPath (mkPath false None (s2l "Exception"))) (mk_span 16 25)) []) (mk_span 12 25))) (mk_span 6 26))].
Proof. vm_compute. reflexivity. Qed.
Example parse_stmt_include_0 : run (s2l "<?php include $test;") = DOk [(St (SExpr (Ex (EInclude IInclude (Ex (EVar (VName (s2l "test"))) (mk_span 14 19))) (mk_span 6 19))) (mk_span 6 20))].
Proof. vm_compute. reflexivity. Qed.
Example parse_stmt_include_1 : run (s2l "<?php include_once($test);") = DOk [(St (SExpr (Ex (EInclude IIncludeOnce (Ex (EVar (VName (s2l "test"))) (mk_span 18 25))) (mk_span 6 25))) (mk_span 6 26))].
Proof. vm_compute. reflexivity. Qed.
Example parse_stmt_include_2 : run (s2l "<?php require($test);") = DOk [(St (SExpr (Ex (EInclude IRequire (Ex (EVar (VName (s2l "test"))) (mk_span 13 20))) (mk_span 6 20))) (mk_span 6 21))].
Proof. vm_compute. reflexivity. Qed.
Example parse_stmt_include_3 : run (s2l "<?php require_once $test;") = DOk [(St (SExpr (Ex (EInclude IRequireOnce (Ex (EVar (VName (s2l "test"))) (mk_span 19 24))) (mk_span 6 24))) (mk_span 6 25))].
Proof. vm_compute. reflexivity. Qed.
Example parse_stmt_exit_0 : run (s2l "<?php exit;") = DOk [(St (SExpr (Ex (EExit None) (mk_span 6 10))) (mk_span 6 11))].
Proof. vm_compute. reflexivity. Qed.
Example parse_stmt_exit_1 : run (s2l "<?php exit(true);") = DOk [(St (SExpr (Ex (EExit (Some (Ex (EConst CTrue) (mk_span 11 15)))) (mk_span 6 16))) (mk_span 6 17))].
Proof. vm_compute. reflexivity. Qed.
Example parse_stmt_assignment_0 : run (s2l "<?php $test=4;") = DOk [(St (SExpr (Ex (EAssign (Ex (EVar (VName (s2l "test"))) (mk_span 6 11)) (Ex (EInt 4) (mk_span 12 13))) (mk_span 6 13))) (mk_span 6 14))].
Proof. vm_compute. reflexivity. Qed.
Example parse_stmt_assignment_1 : run (s2l "<?php $test[""a""]=4+$b;") = DOk [(St (SExpr (Ex (EAssign (Ex (EArrayIdx (Ex (EVar (VName (s2l "test"))) (mk_span 6 11)) [(Some (Ex (EString (s2l "a")) (mk_span 12 15)))]) (mk_span 6 16)) (Ex (EBinary OAdd (Ex (EInt 4) (mk_span 17 18)) (Ex (EVar (VName (s2l "b"))) (mk_span 19 21))) (mk_span 17 21))) (mk_span 6 21))) (mk_span 6 22))].
Proof. vm_compute. reflexivity. Qed.
Example parse_stmt_return_ternary_assign_0 : run (s2l "<?php return isset($a) ? $b : $c = $d;") = DOk [(St (SReturn (Some (Ex (ETernary (Ex (EIsset [(Ex (EVar (VName (s2l "a"))) (mk_span 19 21))]) (mk_span 13 22)) (Some (Ex (EVar (VName (s2l "b"))) (mk_span 25 27))) (Ex (EAssign (Ex (EVar (VName (s2l "c"))) (mk_span 30 32)) (Ex (EVar (VName (s2l "d"))) (mk_span 35 37))) (mk_span 30 37))) (mk_span 13 37)))) (mk_span 6 38))].
Proof. vm_compute. reflexivity. Qed.
Example parse_stmt_compound_assignment_0 : run (s2l "<?php $test+=4;") = DOk [(St (SExpr (Ex (ECompound (Ex (EVar (VName (s2l "test"))) (mk_span 6 11)) OAdd (Ex (EInt 4) (mk_span 13 14))) (mk_span 6 14))) (mk_span 6 15))].
Proof. vm_compute. reflexivity. Qed.
Example parse_stmt_if_assign_0 : run (s2l "<?php if (! $a && $b = $c) { echo 1; }") = DOk [(St (SIf (Ex (EBinary OAnd (Ex (EUnary UNot (Ex (EVar (VName (s2l "a"))) (mk_span 12 14))) (mk_span 10 14)) (Ex (EAssign (Ex (EVar (VName (s2l "b"))) (mk_span 18 20)) (Ex (EVar (VName (s2l "c"))) (mk_span 23 25))) (mk_span 18 25))) (mk_span 10 25)) [(St (SEcho [(Ex (EInt 1) (mk_span 34 35))]) (mk_span 29 36))] []) (mk_span 6 38))].
Proof. vm_compute. reflexivity. Qed.
Example parse_stmt_if_while_0 : run (s2l "<?php if   ($a) { b(); }") = DOk [(St (SIf (Ex (EVar (VName (s2l "a"))) (mk_span 12 14)) [(St (SExpr (Ex (ECall (Ex (EPath (mkPath false None (s2l "b"))) (mk_span 18 19)) []) (mk_span 18 21))) (mk_span 18 22))] []) (mk_span 6 24))].
Proof. vm_compute. reflexivity. Qed.
Example parse_stmt_if_while_1 : run (s2l "<?php while($a) b();") = DOk [(St (SWhile (Ex (EVar (VName (s2l "a"))) (mk_span 12 14)) [(St (SExpr (Ex (ECall (Ex (EPath (mkPath false None (s2l "b"))) (mk_span 16 17)) []) (mk_span 16 19))) (mk_span 16 20))]) (mk_span 6 20))].
Proof. vm_compute. reflexivity. Qed.
Example parse_stmt_if_else_0 : run (s2l "<?php if ($a) { a(); } else { b(); }") = DOk [(St (SIf (Ex (EVar (VName (s2l "a"))) (mk_span 10 12)) [(St (SExpr (Ex (ECall (Ex (EPath (mkPath false None (s2l "a"))) (mk_span 16 17)) []) (mk_span 16 19))) (mk_span 16 20))] [(St (SExpr (Ex (ECall (Ex (EPath (mkPath false None (s2l "b"))) (mk_span 30 31)) []) (mk_span 30 33))) (mk_span 30 34))]) (mk_span 6 36))].
Proof. vm_compute. reflexivity. Qed.
Example parse_stmt_if_else_1 : run (s2l "<?php if ($a) a(); else b();") = DOk [(St (SIf (Ex (EVar (VName (s2l "a"))) (mk_span 10 12)) [(St (SExpr (Ex (ECall (Ex (EPath (mkPath false None (s2l "a"))) (mk_span 14 15)) []) (mk_span 14 17))) (mk_span 14 18))] [(St (SExpr (Ex (ECall (Ex (EPath (mkPath false None (s2l "b"))) (mk_span 24 25)) []) (mk_span 24 27))) (mk_span 24 28))]) (mk_span 6 28))].
Proof. vm_compute. reflexivity. Qed.
Example parse_stmt_if_else_2 : run (s2l "<?php if ($a) a(); else if ($b) b(); else c();") = DOk [(St (SIf (Ex (EVar (VName (s2l "a"))) (mk_span 10 12)) [(St (SExpr (Ex (ECall (Ex (EPath (mkPath false None (s2l "a"))) (mk_span 14 15)) []) (mk_span 14 17))) (mk_span 14 18))] [(St (SIf (Ex (EVar (VName (s2l "b"))) (mk_span 28 30)) [(St (SExpr (Ex (ECall (Ex (EPath (mkPath false None (s2l "b"))) (mk_span 32 33)) []) (mk_span 32 35))) (mk_span 32 36))] [(St (SExpr (Ex (ECall (Ex (EPath (mkPath false None (s2l "c"))) (mk_span 42 43)) []) (mk_span 42 45))) (mk_span 42 46))]) (mk_span 24 46))]) (mk_span 6 46))].
Proof. vm_compute. reflexivity. Qed.
Example parse_stmt_if_else_3 : run (s2l "<?php if ($a) a(); elseif ($b)  b(); else c();") = DOk [(St (SIf (Ex (EVar (VName (s2l "a"))) (mk_span 10 12)) [(St (SExpr (Ex (ECall (Ex (EPath (mkPath false None (s2l "a"))) (mk_span 14 15)) []) (mk_span 14 17))) (mk_span 14 18))] [(St (SIf (Ex (EVar (VName (s2l "b"))) (mk_span 27 29)) [(St (SExpr (Ex (ECall (Ex (EPath (mkPath false None (s2l "b"))) (mk_span 32 33)) []) (mk_span 32 35))) (mk_span 32 36))] [(St (SExpr (Ex (ECall (Ex (EPath (mkPath false None (s2l "c"))) (mk_span 42 43)) []) (mk_span 42 45))) (mk_span 42 46))]) (mk_span 19 46))]) (mk_span 6 46))].
Proof. vm_compute. reflexivity. Qed.
Example parse_stmt_do_while_0 : run (s2l "<?php do { test(); } while(count($a));") = DOk [(St (SDoWhile [(St (SExpr (Ex (ECall (Ex (EPath (mkPath false None (s2l "test"))) (mk_span 11 15)) []) (mk_span 11 17))) (mk_span 11 18))] (Ex (ECall (Ex (EPath (mkPath false None (s2l "count"))) (mk_span 27 32)) [(Ex (EVar (VName (s2l "a"))) (mk_span 33 35))]) (mk_span 27 36))) (mk_span 6 38))].
Proof. vm_compute. reflexivity. Qed.
Example parse_stmt_for_0 : run (s2l "<?php for ($i = 0; $i < 10; $i++) { echo 1; }") = DOk [(St (SFor (Some (Ex (EAssign (Ex (EVar (VName (s2l "i"))) (mk_span 11 13)) (Ex (EInt 0) (mk_span 16 17))) (mk_span 11 17))) (Some (Ex (EBinary OLt (Ex (EVar (VName (s2l "i"))) (mk_span 19 21)) (Ex (EInt 10) (mk_span 24 26))) (mk_span 19 26))) (Some (Ex (EUnary UPostInc (Ex (EVar (VName (s2l "i"))) (mk_span 28 30))) (mk_span 28 32))) [(St (SEcho [(Ex (EInt 1) (mk_span 41 42))]) (mk_span 36 43))]) (mk_span 6 45))].
Proof. vm_compute. reflexivity. Qed.
Example parse_stmt_foreach_0 : run (s2l "<?php foreach ($test as $v) { ok(); }") = DOk [(St (SForEach (Ex (EVar (VName (s2l "test"))) (mk_span 15 20)) None (Ex (EVar (VName (s2l "v"))) (mk_span 24 26)) [(St (SExpr (Ex (ECall (Ex (EPath (mkPath false None (s2l "ok"))) (mk_span 30 32)) []) (mk_span 30 34))) (mk_span 30 35))]) (mk_span 6 37))].
Proof. vm_compute. reflexivity. Qed.
Example parse_stmt_foreach_1 : run (s2l "<?php foreach ($test as $k => $v) { ok(); }") = DOk [(St (SForEach (Ex (EVar (VName (s2l "test"))) (mk_span 15 20)) (Some (Ex (EVar (VName (s2l "k"))) (mk_span 24 26))) (Ex (EVar (VName (s2l "v"))) (mk_span 30 32)) [(St (SExpr (Ex (ECall (Ex (EPath (mkPath false None (s2l "ok"))) (mk_span 36 38)) []) (mk_span 36 40))) (mk_span 36 41))]) (mk_span 6 43))].
Proof. vm_compute. reflexivity. Qed.
Example parse_stmt_instanceof_0 : run (s2l "<?php if ($result instanceof Response) { return $result; }") = DOk [(St (SIf (Ex (EInstanceOf (Ex (EVar (VName (s2l "result"))) (mk_span 10 17)) (Ex (EPath (mkPath false None (s2l "Response"))) (mk_span 29 37))) (mk_span 10 37)) [(St (SReturn (Some (Ex (EVar (VName (s2l "result"))) (mk_span 48 55)))) (mk_span 41 56))] []) (mk_span 6 58))].
Proof. vm_compute. reflexivity. Qed.
Example parse_stmt_new_as_param_0 : run (s2l "<?php r(new Foo);") = DOk [(St (SExpr (Ex (ECall (Ex (EPath (mkPath false None (s2l "r"))) (mk_span 6 7)) [(Ex (ENew (Ex (EPath (mkPath false None (s2l "Foo"))) (mk_span 12 15)) []) (mk_span 8 15))]) (mk_span 6 16))) (mk_span 6 17))].
Proof. vm_compute. reflexivity. Qed.
Example parse_stmt_try_0 : run (s2l "<?php try { echo ""ok""; } catch (Exception $e) { return false;}") = DOk [(St (STry [(St (SEcho [(Ex (EString (s2l "ok")) (mk_span 17 21))]) (mk_span 12 22))] [(mkCatch (mkPath false None (s2l "Exception")) (s2l "e") [(St (SReturn (Some (Ex (EConst CFalse) (mk_span 55 60)))) (mk_span 48 61))])] None) (mk_span 6 62))].
Proof. vm_compute. reflexivity. Qed.
Example parse_stmt_try_1 : run (s2l "<?php try { echo ""ok""; } catch (Exception $e) { return false; } catch (Throwable $e) { return true; }") = DOk [(St (STry [(St (SEcho [(Ex (EString (s2l "ok")) (mk_span 17 21))]) (mk_span 12 22))] [(mkCatch (mkPath false None (s2l "Exception")) (s2l "e") [(St (SReturn (Some (Ex (EConst CFalse) (mk_span 55 60)))) (mk_span 48 61))]); (mkCatch (mkPath false None (s2l "Throwable")) (s2l "e") [(St (SReturn (Some (Ex (EConst CTrue) (mk_span 94 98)))) (mk_span 87 99))])] None) (mk_span 6 101))].
Proof. vm_compute. reflexivity. Qed.
Example parse_stmt_use_0 : run (s2l "<?php use Test;") = DOk [(St (SUse [(QualifiedName (mkPath false None (s2l "Test")) None)]) (mk_span 6 15))].
Proof. vm_compute. reflexivity. Qed.
Example parse_stmt_use_1 : run (s2l "<?php use Ab\Cd\Ef\Gh\Ij as Ga;") = DOk [(St (SUse [(QualifiedName (mkPath false (Some (s2l "Ab\Cd\Ef\Gh")) (s2l "Ij")) (Some (s2l "Ga")))]) (mk_span 6 31))].
Proof. vm_compute. reflexivity. Qed.
Example parse_stmt_use_2 : run (s2l "<?php use \FQNS\Test;") = DOk [(St (SUse [(QualifiedName (mkPath true (Some (s2l "FQNS")) (s2l "Test")) None)]) (mk_span 6 21))].
Proof. vm_compute. reflexivity. Qed.
Example parse_stmt_switch_0 : run (s2l "<?php switch ($test) { case 1: echo ""1""; break; default: echo ""2""; }") = DOk [(St (SSwitch (Ex (EVar (VName (s2l "test"))) (mk_span 14 19)) [(mkCase [(Ex (EInt 1) (mk_span 28 29))] false [(St (SEcho [(Ex (EString (s2l "1")) (mk_span 36 39))]) (mk_span 31 40)); (St (SBreak None) (mk_span 41 47))]); (mkCase [] true [(St (SEcho [(Ex (EString (s2l "2")) (mk_span 62 65))]) (mk_span 57 66))])]) (mk_span 6 68))].
Proof. vm_compute. reflexivity. Qed.
Example parse_stmt_switch_1 : run (s2l "<?php switch ($test) { case 1: echo ""1""; default: echo ""2""; }") = DOk [(St (SSwitch (Ex (EVar (VName (s2l "test"))) (mk_span 14 19)) [(mkCase [(Ex (EInt 1) (mk_span 28 29))] false [(St (SEcho [(Ex (EString (s2l "1")) (mk_span 36 39))]) (mk_span 31 40))]); (mkCase [] true [(St (SEcho [(Ex (EString (s2l "2")) (mk_span 55 58))]) (mk_span 50 59))])]) (mk_span 6 61))].
Proof. vm_compute. reflexivity. Qed.
Example parse_stmt_switch_2 : run (s2l "<?php switch ($test) { case 1: case 2: echo 1; }") = DOk [(St (SSwitch (Ex (EVar (VName (s2l "test"))) (mk_span 14 19)) [(mkCase [(Ex (EInt 1) (mk_span 28 29)); (Ex (EInt 2) (mk_span 36 37))] false [(St (SEcho [(Ex (EInt 1) (mk_span 44 45))]) (mk_span 39 46))])]) (mk_span 6 48))].
Proof. vm_compute. reflexivity. Qed.
Example parse_stmt_switch_3 : run (s2l "<?php switch ($test) { case 1: case 2: case 3: case 4: echo 1; }") = DOk [(St (SSwitch (Ex (EVar (VName (s2l "test"))) (mk_span 14 19)) [(mkCase [(Ex (EInt 1) (mk_span 28 29)); (Ex (EInt 2) (mk_span 36 37)); (Ex (EInt 3) (mk_span 44 45)); (Ex (EInt 4) (mk_span 52 53))] false [(St (SEcho [(Ex (EInt 1) (mk_span 60 61))]) (mk_span 55 62))])]) (mk_span 6 64))].
Proof. vm_compute. reflexivity. Qed.
Example parse_stmt_func_decl_0 : run (s2l "<?php function test() { ok(); }") = DOk [(St (SDecl (DFunction (s2l "test") (mkFun [] (Some [(St (SExpr (Ex (ECall (Ex (EPath (mkPath false None (s2l "ok"))) (mk_span 24 26)) []) (mk_span 24 28))) (mk_span 24 29))]) [] false))) (mk_span 6 31))].
Proof. vm_compute. reflexivity. Qed.
Example parse_stmt_func_decl_1 : run (s2l "<?php function &test() { ok(); }") = DOk [(St (SDecl (DFunction (s2l "test") (mkFun [] (Some [(St (SExpr (Ex (ECall (Ex (EPath (mkPath false None (s2l "ok"))) (mk_span 25 27)) []) (mk_span 25 29))) (mk_span 25 30))]) [] true))) (mk_span 6 32))].
Proof. vm_compute. reflexivity. Qed.
Example parse_stmt_func_decl_2 : run (s2l "<?php function test($a) { ok(); }") = DOk [(St (SDecl (DFunction (s2l "test") (mkFun [(mkParam (s2l "a") false false None None)] (Some [(St (SExpr (Ex (ECall (Ex (EPath (mkPath false None (s2l "ok"))) (mk_span 26 28)) []) (mk_span 26 30))) (mk_span 26 31))]) [] false))) (mk_span 6 33))].
Proof. vm_compute. reflexivity. Qed.
Example parse_stmt_func_decl_3 : run (s2l "<?php function test($a, $b) { ok(); }") = DOk [(St (SDecl (DFunction (s2l "test") (mkFun [(mkParam (s2l "a") false false None None); (mkParam (s2l "b") false false None None)] (Some [(St (SExpr (Ex (ECall (Ex (EPath (mkPath false None (s2l "ok"))) (mk_span 30 32)) []) (mk_span 30 34))) (mk_span 30 35))]) [] false))) (mk_span 6 37))].
Proof. vm_compute. reflexivity. Qed.
Example parse_stmt_func_decl_4 : run (s2l "<?php function test(...$a) { ok(); }") = DOk [(St (SDecl (DFunction (s2l "test") (mkFun [(mkParam (s2l "a") false true None None)] (Some [(St (SExpr (Ex (ECall (Ex (EPath (mkPath false None (s2l "ok"))) (mk_span 29 31)) []) (mk_span 29 33))) (mk_span 29 34))]) [] false))) (mk_span 6 36))].
Proof. vm_compute. reflexivity. Qed.
Example parse_func_decl_typehint_0 : run (s2l "<?php function test(Test $a) { ok(); }") = DOk [(St (SDecl (DFunction (s2l "test") (mkFun [(mkParam (s2l "a") false false (Some (TyObject (Some (mkPath false None (s2l "Test"))))) None)] (Some [(St (SExpr (Ex (ECall (Ex (EPath (mkPath false None (s2l "ok"))) (mk_span 31 33)) []) (mk_span 31 35))) (mk_span 31 36))]) [] false))) (mk_span 6 38))].
Proof. vm_compute. reflexivity. Qed.
Example parse_class_decl_0 : run (s2l "<?php class Test {}") = DOk [(St (SDecl (DClass 0%N (s2l "Test") None [] [])) (mk_span 6 19))].
Proof. vm_compute. reflexivity. Qed.
Example parse_class_decl_1 : run (s2l "<?php final class Test {}") = DOk [(St (SDecl (DClass (class_modifiers_new [CFinal]) (s2l "Test") None [] [])) (mk_span 6 25))].
Proof. vm_compute. reflexivity. Qed.
Example parse_class_decl_2 : run (s2l "<?php class Test extends Abc\Test2 {}") = DOk [(St (SDecl (DClass 0%N (s2l "Test") (Some (mkPath false (Some (s2l "Abc")) (s2l "Test2"))) [] [])) (mk_span 6 37))].
Proof. vm_compute. reflexivity. Qed.
Example parse_class_decl_3 : run (s2l "<?php class Test implements ITest {}") = DOk [(St (SDecl (DClass 0%N (s2l "Test") None [(mkPath false None (s2l "ITest"))] [])) (mk_span 6 36))].
Proof. vm_compute. reflexivity. Qed.
Example parse_class_properties_0 : run (s2l "<?php class Test { public $test; }") = DOk [(St (SDecl (DClass 0%N (s2l "Test") None [] [(MProp (member_modifiers_new [MPublic]) (s2l "test") None)])) (mk_span 6 34))].
Proof. vm_compute. reflexivity. Qed.
Example parse_class_properties_1 : run (s2l "<?php class Test { protected $ab = []; }") = DOk [(St (SDecl (DClass 0%N (s2l "Test") None [] [(MProp (member_modifiers_new [MProtected]) (s2l "ab") (Some (Ex (EArray []) (mk_span 35 37))))])) (mk_span 6 40))].
Proof. vm_compute. reflexivity. Qed.
Example parse_class_const_0 : run (s2l "<?php class Test { const C=true; }") = DOk [(St (SDecl (DClass 0%N (s2l "Test") None [] [(MConst 0%N (s2l "C") (Ex (EConst CTrue) (mk_span 27 31)))])) (mk_span 6 34))].
Proof. vm_compute. reflexivity. Qed.
Example parse_class_methods_0 : run (s2l "<?php class Test { public function a() { run(); } }") = DOk [(St (SDecl (DClass 0%N (s2l "Test") None [] [(MMethod (member_modifiers_new [MPublic]) (s2l "a") (mkFun [] (Some [(St (SExpr (Ex (ECall (Ex (EPath (mkPath false None (s2l "run"))) (mk_span 41 44)) []) (mk_span 41 46))) (mk_span 41 47))]) [] false))])) (mk_span 6 51))].
Proof. vm_compute. reflexivity. Qed.
Example parse_class_methods_1 : run (s2l "<?php class Test { public function __construct(array $param1 = []) { $this->param = $param1; } }") = DOk [(St (SDecl (DClass 0%N (s2l "Test") None [] [(MMethod (member_modifiers_new [MPublic]) (s2l "__construct") (mkFun [(mkParam (s2l "param1") false false (Some TyArray) (Some (Ex (EArray []) (mk_span 63 65))))] (Some [(St (SExpr (Ex (EAssign (Ex (EObjMember (Ex (EVar (VName (s2l "this"))) (mk_span 69 74)) [(Ex (EPath (mkPath false None (s2l "param"))) (mk_span 76 81))]) (mk_span 69 81)) (Ex (EVar (VName (s2l "param1"))) (mk_span 84 91))) (mk_span 69 91))) (mk_span 69 92))]) [] false))])) (mk_span 6 96))].
Proof. vm_compute. reflexivity. Qed.
Example parse_class_trait_use_0 : run (s2l "<?php class Test { use Abc; }") = DOk [(St (SDecl (DClass 0%N (s2l "Test") None [] [(MTraitUse [(mkPath false None (s2l "Abc"))] [])])) (mk_span 6 29))].
Proof. vm_compute. reflexivity. Qed.
Example parse_stmt_list_0 : run (s2l "<?php list($a, $b) = test();") = DOk [(St (SExpr (Ex (EAssign (Ex (EList [(None, (Ex (EVar (VName (s2l "a"))) (mk_span 11 13))); (None, (Ex (EVar (VName (s2l "b"))) (mk_span 15 17)))]) (mk_span 6 18)) (Ex (ECall (Ex (EPath (mkPath false None (s2l "test"))) (mk_span 21 25)) []) (mk_span 21 27))) (mk_span 6 27))) (mk_span 6 28))].
Proof. vm_compute. reflexivity. Qed.
Example parse_trait_decl_0 : run (s2l "<?php trait Test {}") = DOk [(St (SDecl (DTrait (s2l "Test") [])) (mk_span 6 19))].
Proof. vm_compute. reflexivity. Qed.
Example parse_trait_decl_1 : run (s2l "<?php trait HelloWorld {use Hello, World;}") = DOk [(St (SDecl (DTrait (s2l "HelloWorld") [(MTraitUse [(mkPath false None (s2l "Hello")); (mkPath false None (s2l "World"))] [])])) (mk_span 6 42))].
Proof. vm_compute. reflexivity. Qed.
Example parse_interface_decl_0 : run (s2l "<?php interface ITest {}") = DOk [(St (SDecl (DInterface (s2l "ITest") [] [])) (mk_span 6 24))].
Proof. vm_compute. reflexivity. Qed.
Example parse_interface_decl_1 : run (s2l "<?php interface ITest { public function test(); }") = DOk [(St (SDecl (DInterface (s2l "ITest") [] [(MMethod (member_modifiers_new [MPublic]) (s2l "test") (mkFun [] None [] false))])) (mk_span 6 49))].
Proof. vm_compute. reflexivity. Qed.
Example parse_class_use_trait_complex_0 : run [60; 63; 112; 104; 112; 32; 99; 108; 97; 115; 115; 32; 65; 108; 105; 97; 115; 101; 100; 95; 84; 97; 108; 107; 101; 114; 32; 123; 10; 32; 32; 32; 32; 32; 32; 32; 32; 117; 115; 101; 32; 65; 44; 32; 66; 32; 123; 10; 32; 32; 32; 32; 32; 32; 32; 32; 32; 32; 32; 32; 66; 58; 58; 115; 109; 97; 108; 108; 84; 97; 108; 107; 32; 105; 110; 115; 116; 101; 97; 100; 111; 102; 32; 65; 59; 10; 32; 32; 32; 32; 32; 32; 32; 32; 32; 32; 32; 32; 65; 58; 58; 98; 105; 103; 84; 97; 108; 107; 32; 105; 110; 115; 116; 101; 97; 100; 111; 102; 32; 66; 59; 10; 32; 32; 32; 32; 32; 32; 32; 32; 32; 32; 32; 32; 66; 58; 58; 98; 105; 103; 84; 97; 108; 107; 32; 97; 115; 32; 116; 97; 108; 107; 59; 10; 32; 32; 32; 32; 32; 32; 32; 32; 125; 10; 32; 32; 32; 32; 125]%N = DOk [(St (SDecl (DClass 0%N (s2l "Aliased_Talker") None [] [(MTraitUse [(mkPath false None (s2l "A")); (mkPath false None (s2l "B"))] [(TUInsteadOf (mkPath false None (s2l "B")) (s2l "smallTalk") [(mkPath false None (s2l "A"))]); (TUInsteadOf (mkPath false None (s2l "A")) (s2l "bigTalk") [(mkPath false None (s2l "B"))]); (TUAs (Some (mkPath false None (s2l "B"))) (s2l "bigTalk") 0%N (Some (s2l "talk")))])])) (mk_span 6 169))].
Proof. vm_compute. reflexivity. Qed.
Example parse_static_decl_0 : run (s2l "<?php static $t=true;") = DOk [(St (SDecl (DStaticVars [((s2l "t"), (Some (Ex (EConst CTrue) (mk_span 16 20))))])) (mk_span 6 21))].
Proof. vm_compute. reflexivity. Qed.
Example parse_global_decl_0 : run (s2l "<?php global $t;") = DOk [(St (SDecl (DGlobalVars [(VName (s2l "t"))])) (mk_span 6 16))].
Proof. vm_compute. reflexivity. Qed.
Example parse_stmt_closure_use_0 : run (s2l "<?php return function () use ($t) {};") = DOk [(St (SReturn (Some (Ex (EFunction (mkFun [] (Some []) [(false, (s2l "t"))] false)) (mk_span 13 36)))) (mk_span 6 37))].
Proof. vm_compute. reflexivity. Qed.
Example parse_namespace_decl_0 : run (s2l "<?php namespace Foo\Bar;") = DOk [(St (SDecl (DNamespace (mkPath false (Some (s2l "Foo")) (s2l "Bar")))) (mk_span 6 23))].
Proof. vm_compute. reflexivity. Qed.
Example parse_simple_file_echos_0 : run (s2l "before<?php echo ""test""; ?>after1<?php echo ""end""; ?>end") = DOk [(St (SEcho [(Ex (EString (s2l "before")) (mk_span 0 6))]) (mk_span 0 6)); (St (SEcho [(Ex (EString (s2l "test")) (mk_span 17 23))]) (mk_span 12 24)); (St (SEcho [(Ex (EString (s2l "after1")) (mk_span 27 33))]) (mk_span 27 33)); (St (SEcho [(Ex (EString (s2l "end")) (mk_span 44 49))]) (mk_span 39 50)); (St (SEcho [(Ex (EString (s2l "end")) (mk_span 53 56))]) (mk_span 53 56))].
Proof. vm_compute. reflexivity. Qed.

(** ** src/tokenizer.rs:1303-1542, the tokenizer's unit tests *)
Fixpoint first_tokens (code : str) (n : nat) (s : tst) : option (list token * tst) :=
  match n with
  | O => Some ([], s)
  | S n' =>
    match next_token code 60 s with
    | TOk t s' => match first_tokens code n' s' with Some (l, s'') => Some (fst t :: l, s'') | None => None end
    | _ => None
    end
  end.
Definition n_tokens (code : str) (n : nat) : option (list token) :=
  option_map fst (first_tokens code n tst_init).

Example lex_simple_object_operator_0 : n_tokens (s2l "<?php  ->test ?>") 3 = Some [Kw KOpenTag; Kw KObjectOp; TString (s2l "test")].
Proof. vm_compute. reflexivity. Qed.
Example lex_simple_object_operator_1 : n_tokens (s2l "<?php  ->test->gest2 ?>") 5 = Some [Kw KOpenTag; Kw KObjectOp; TString (s2l "test"); Kw KObjectOp; TString (s2l "gest2")].
Proof. vm_compute. reflexivity. Qed.
Example lex_simple_cast_0 : n_tokens (s2l "<?php  (string) ?>") 3 = Some [Kw KOpenTag; Kw KCastString; Kw KCloseTag].
Proof. vm_compute. reflexivity. Qed.
Example lex_scripting_initial_text_0 : n_tokens (s2l "a?>b<?php?>") 3 = Some [TInlineHtml (s2l "a?>b"); Kw KOpenTag; Kw KCloseTag].
Proof. vm_compute. reflexivity. Qed.
Example lex_simple_lnum_0 : n_tokens (s2l "<?php  42") 2 = Some [Kw KOpenTag; TInt 42].
Proof. vm_compute. reflexivity. Qed.
Example lex_simple_onum_0 : n_tokens (s2l "<?php  0144") 2 = Some [Kw KOpenTag; TInt 100].
Proof. vm_compute. reflexivity. Qed.
Example lex_simple_bnum_0 : n_tokens (s2l "<?php  0b101") 2 = Some [Kw KOpenTag; TInt 5].
Proof. vm_compute. reflexivity. Qed.
Example lex_simple_hnum_0 : n_tokens (s2l "<?php  0xff") 2 = Some [Kw KOpenTag; TInt 255].
Proof. vm_compute. reflexivity. Qed.
Example lex_simple_dnum_0 : n_tokens (s2l "<?php  .10") 2 = Some [Kw KOpenTag; TDouble (s2l ".10")].
Proof. vm_compute. reflexivity. Qed.
Example lex_simple_dnum_1 : n_tokens (s2l "<?php  1.") 2 = Some [Kw KOpenTag; TDouble (s2l "1.")].
Proof. vm_compute. reflexivity. Qed.
Example lex_simple_dnum_2 : n_tokens (s2l "<?php  1.1") 2 = Some [Kw KOpenTag; TDouble (s2l "1.1")].
Proof. vm_compute. reflexivity. Qed.
Example lex_dq_string_0 : n_tokens (s2l "<?php """"") 3 = Some [Kw KOpenTag; Kw KDoubleQuote; Kw KDoubleQuote].
Proof. vm_compute. reflexivity. Qed.
Example lex_dq_string_1 : n_tokens (s2l "<?php ""testhallo\nwelt""") 4 = Some [Kw KOpenTag; Kw KDoubleQuote; TCes [116; 101; 115; 116; 104; 97; 108; 108; 111; 10; 119; 101; 108; 116]%N; Kw KDoubleQuote].
Proof. vm_compute. reflexivity. Qed.
Example lex_dq_string_2 : n_tokens (s2l "<?php ""testhallo\""welt\""""") 3 = Some [Kw KOpenTag; Kw KDoubleQuote; TCes (s2l "testhallo""welt""")].
Proof. vm_compute. reflexivity. Qed.
Example lex_dq_string_3 : n_tokens [60; 63; 112; 104; 112; 32; 34; 36716; 92; 116; 27880; 92; 116; 23383; 34]%N 3 = Some [Kw KOpenTag; Kw KDoubleQuote; TCes [36716; 9; 27880; 9; 23383]%N].
Proof. vm_compute. reflexivity. Qed.
Example lex_sq_string_0 : n_tokens (s2l "<?php 'testhallo\nwelt \'g\''") 2 = Some [Kw KOpenTag; TCes (s2l "testhallo\nwelt 'g'")].
Proof. vm_compute. reflexivity. Qed.
Example lex_dq_string_var_0 : n_tokens (s2l "<?php ""ab $world cd""") 6 = Some [Kw KOpenTag; Kw KDoubleQuote; TCes (s2l "ab "); TVariable (s2l "world"); TCes (s2l " cd"); Kw KDoubleQuote].
Proof. vm_compute. reflexivity. Qed.
Example lex_dq_string_var_1 : n_tokens (s2l "<?php ""$world->ab""") 6 = Some [Kw KOpenTag; Kw KDoubleQuote; TVariable (s2l "world"); Kw KObjectOp; TString (s2l "ab"); Kw KDoubleQuote].
Proof. vm_compute. reflexivity. Qed.
Example lex_dq_string_var_2 : n_tokens (s2l "<?php ""$world->ab->cd""") 7 = Some [Kw KOpenTag; Kw KDoubleQuote; TVariable (s2l "world"); Kw KObjectOp; TString (s2l "ab"); TCes (s2l "->cd"); Kw KDoubleQuote].
Proof. vm_compute. reflexivity. Qed.
Example lex_dq_string_var_3 : n_tokens (s2l "<?php ""{$world->ab->cd}""") 9 = Some [Kw KOpenTag; Kw KDoubleQuote; Kw KCurlyBracesOpen; TVariable (s2l "world"); Kw KObjectOp; TString (s2l "ab"); Kw KObjectOp; TString (s2l "cd"); Kw KCurlyBracesClose].
Proof. vm_compute. reflexivity. Qed.
Example lex_backquote_0 : n_tokens (s2l "<?php `ab $world cd`") 6 = Some [Kw KOpenTag; Kw KBackquote; TCes (s2l "ab "); TVariable (s2l "world"); TCes (s2l " cd"); Kw KBackquote].
Proof. vm_compute. reflexivity. Qed.
Example lex_heredoc_0 : n_tokens [60; 63; 112; 104; 112; 32; 60; 60; 60; 69; 79; 84; 10; 116; 101; 115; 116; 10; 69; 79; 84; 59; 10]%N 4 = Some [Kw KOpenTag; Kw KHereDocStart; TCes (s2l "test"); Kw KHereDocEnd].
Proof. vm_compute. reflexivity. Qed.
Example lex_heredoc_1 : n_tokens [60; 63; 112; 104; 112; 32; 60; 60; 60; 34; 69; 79; 84; 34; 10; 116; 101; 92; 116; 115; 116; 10; 69; 79; 84; 59; 10]%N 4 = Some [Kw KOpenTag; Kw KHereDocStart; TCes [116; 101; 9; 115; 116]%N; Kw KHereDocEnd].
Proof. vm_compute. reflexivity. Qed.
Example lex_nowdoc_0 : n_tokens [60; 63; 112; 104; 112; 32; 60; 60; 60; 39; 69; 79; 84; 39; 10; 116; 101; 92; 116; 115; 116; 10; 69; 79; 84; 59; 10]%N 2 = Some [Kw KOpenTag; TCes (s2l "te\tst")].
Proof. vm_compute. reflexivity. Qed.
Example lex_single_line_comment_0 : n_tokens (s2l "<?php //test") 2 = Some [Kw KOpenTag; TComment (s2l "test")].
Proof. vm_compute. reflexivity. Qed.
Example lex_single_line_comment_1 : n_tokens [60; 63; 112; 104; 112; 32; 47; 47; 116; 101; 115; 116; 10; 36; 97]%N 2 = Some [Kw KOpenTag; TComment (s2l "test")].
Proof. vm_compute. reflexivity. Qed.
Example lex_block_comment_0 : n_tokens [60; 63; 112; 104; 112; 32; 47; 42; 32; 116; 101; 115; 116; 10; 116; 101; 115; 116; 50; 32; 42; 47; 98; 98]%N 2 = Some [Kw KOpenTag; TComment [32; 116; 101; 115; 116; 10; 116; 101; 115; 116; 50; 32]%N].
Proof. vm_compute. reflexivity. Qed.
Example lex_resolve_line_nums_0 : n_tokens [60; 63; 112; 104; 112; 32; 10; 10; 10; 47; 42; 32; 116; 101; 115; 116; 32; 42; 47]%N 1 = Some [Kw KOpenTag].
Proof. vm_compute. reflexivity. Qed.
Example lex_line_num : forall code, code = s2l "<?php   " ++ [10]%N ++ s2l "  " ++ [10]%N ++ s2l "  " ++ [10]%N ++ s2l "?>" ->
  option_map (fun r => (fst r, line_num (snd r))) (first_tokens code 2 tst_init) = Some ([Kw KOpenTag; Kw KCloseTag], 4).
Proof. intros code ->. vm_compute. reflexivity. Qed.
Example lex_modes : forall code, code = s2l "<?php?>" ->
  option_map (fun r => lmode (snd r)) (first_tokens code 1 tst_init) = Some LInScripting /\
  option_map (fun r => lmode (snd r)) (first_tokens code 2 tst_init) = Some LInitial.
Proof. intros code ->. vm_compute. split; reflexivity. Qed.
Example lex_resolve_line_nums : forall code, code = s2l "<?php " ++ [10; 10; 10]%N ++ s2l "/* test */" ->
  match first_tokens code 1 tst_init with
  | Some ([Kw KOpenTag], s) =>
    match next_token code 60 s with
    | TOk (TComment c, sp) s' =>
      c = s2l " test " /\ line_num s' = 4 /\ line_from_position (lines s') (sp_start sp) = Some 3
    | _ => False
    end
  | _ => False
  end.
Proof. intros code ->. vm_compute. repeat split; reflexivity. Qed.
