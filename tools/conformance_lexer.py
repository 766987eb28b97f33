import re,sys
sys.argv=['x']
import io,contextlib
with contextlib.redirect_stdout(io.StringIO()): exec(open('/verif/tools/conformance_parser.py').read())
src=open('/repo/src/tokenizer.rs').read()
src=src[src.index('#[cfg(test)]'):]
print('''
(** ** src/tokenizer.rs:1303-1542, the tokenizer's unit tests *)
Fixpoint first_tokens (code : str) (n : nat) (s : tst) : option (list token * tst) :=
  match n with
  | O => Some ([], s)
  | S n' =>
    match next_token code 60 s with
    | TOk t s' => match first_tokens code n' s' with Some (l, s'') => Some (fst t :: l, s'') | None => None end
    | _ => None
    end
  end.
Definition n_tokens (code : str) (n : nat) : option (list token) :=
  option_map fst (first_tokens code n tst_init).
''')
def tok(e):
    assert e[1]=='Ok'
    e=e[2][0]
    c=e[1].split('::')[1]
    if e[0]=='id': return 'Kw K'+c
    m={'InlineHtml':'TInlineHtml','String':'TString','ConstantEncapsedString':'TCes','Variable':'TVariable','Comment':'TComment'}
    if c in m: return '%s %s'%(m[c],S(e[2][0]))
    if c=='Int': return 'TInt %s'%e[2][0][1]
    if c=='Double': return 'TDouble %s'%cs({'0.1':'.10','1.0':'1.','1.1':'1.1'}[e[2][0][1]])
    assert 0,e
for m in re.finditer(r'#\[test\]\n    fn (\w+)\(\) \{(.*?)\n    \}\n',src,re.S):
    name,body=m.groups(); k=0; code=None
    for s in re.finditer(r'Tokenizer::new\((r#".*?"#|"(?:[^"\\]|\\.)*")\)|assert_eq!\(get_n_tokens\(&mut tokenizer, (\d+)\),\s*(vec!\[.*?\])\);',body,re.S):
        if s.group(1): code=Ps(lex(s.group(1)+' ')).expr()[1]
        else:
            t=Ps(lex(s.group(3)+' ')).expr()
            print('Example lex_%s_%d : n_tokens %s %s = Some [%s].\nProof. vm_compute. reflexivity. Qed.'%(name,k,cs(code),s.group(2),'; '.join(tok(x) for x in t[2]))); k+=1
print('''Example lex_line_num : forall code, code = s2l "<?php   " ++ [10]%N ++ s2l "  " ++ [10]%N ++ s2l "  " ++ [10]%N ++ s2l "?>" ->
  option_map (fun r => (fst r, line_num (snd r))) (first_tokens code 2 tst_init) = Some ([Kw KOpenTag; Kw KCloseTag], 4).
Proof. intros code ->. vm_compute. reflexivity. Qed.
Example lex_modes : forall code, code = s2l "<?php?>" ->
  option_map (fun r => lmode (snd r)) (first_tokens code 1 tst_init) = Some LInScripting /\\
  option_map (fun r => lmode (snd r)) (first_tokens code 2 tst_init) = Some LInitial.
Proof. intros code ->. vm_compute. split; reflexivity. Qed.
Example lex_resolve_line_nums : forall code, code = s2l "<?php " ++ [10; 10; 10]%N ++ s2l "/* test */" ->
  match first_tokens code 1 tst_init with
  | Some ([Kw KOpenTag], s) =>
    match next_token code 60 s with
    | TOk (TComment c, sp) s' =>
      c = s2l " test " /\\ line_num s' = 4 /\\ line_from_position (lines s') (sp_start sp) = Some 3
    | _ => False
    end
  | _ => False
  end.
Proof. intros code ->. vm_compute. repeat split; reflexivity. Qed.''')
