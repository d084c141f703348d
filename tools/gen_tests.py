#!/usr/bin/env python3
"""Translate the parser tests of /repo (logstash_config_test.go and testdata) into
Coq examples checked by vm_compute: rocq/theories/RepoTests.v."""
import re, os
R='/repo/'
src='\n'.join(l for l in open(R+'logstash_config_test.go').read().split('\n') if not l.startswith('\t\t//'))
def func(name):
    i=src.index('func '+name+'('); j=src.find('\nfunc ',i+1)
    return src[i:j if j>0 else len(src)]
def cases(name):
    body=func(name); body=body[:body.index('for _, test')]
    out=[]; cur={}
    for m in re.finditer(r'(\w+):\s*(?:`([^`]*)`|"((?:[^"\\]|\\.)*)")',body):
        k=m.group(1); v=m.group(2) if m.group(2) is not None else m.group(3).encode().decode('unicode_escape')
        if k=='name' and cur: out.append(cur); cur={}
        cur[k]=v
    out.append(cur); return out
def coq(s): return '(lits ['+';'.join(str(c) for c in s.encode())+'])'
def rd(p): return open(R+'testdata/'+p).read()
o=['''(** The repository's own parser tests, run on the model (generated by
    tools/gen_tests.py from logstash_config_test.go and testdata). *)
From Coq Require Import List NArith Bool String.
From Verif Require Import Bytes Ast Actions Engine Parser AstPrint AstUtil.
Import ListNotations.
Local Open Scope N_scope.
Definition lits (l : bytes) : bytes := l.
Definition formatted (opts : list popt) (s : bytes) : option bytes :=
  match fst (parse opts [] s) with
  | Returned (VConfig c) [] => Some (config_string c)
  | _ => None
  end.
Definition prints (opts : list popt) (s t : bytes) : bool :=
  match formatted opts s with Some x => beqb x t | None => false end.
Definition fails_with (s m : bytes) : bool :=
  let '(r, ff) := parse [] [] s in
  match r with
  | Returned _ (e :: es) =>
      contains m (match farthest_failure ff with Some t => t
                  | None => errors_text (fun t _ => t) [] (e :: es) end)
  | _ => false
  end.
Definition warning_count (s : bytes) : nat :=
  match fst (parse [OptExceptionalCommentsWarning true] [] s) with
  | Returned (VConfig c) [] => List.length (cf_warnings c)
  | _ => 0%nat
  end.
''']
n=0
def ex(name,stmt):
    global n; n+=1
    o.append('(* %s *)\nExample repo_test_%d : %s.\nProof. vm_compute. reflexivity. Qed.\n'%(name.replace('"','').replace('(*','').replace('*)',''),n,stmt))
for c in cases('TestParserIdentic'):
    ex('TestParserIdentic: '+c['name'],'prints [] %s %s = true'%(coq(c['input']),coq(c['input'])))
for f in ["plugin_with_all_attribute_types","plugin_with_all_attribute_types_with_comments","if_else-if_and_else_branch_with_comments"]:
    t=rd('identic/'+f+'.conf'); ex('TestParserIdenticFile: '+f,'prints [] %s %s = true'%(coq(t),coq(t)))
for c in cases('TestParser'):
    ex('TestParser: '+c['name'],'prints [] %s %s = true'%(coq(c['input']),coq(c['expected'])))
ex('TestParserFile','prints [] %s %s = true'%(coq(rd('parser/comments_everywhere.conf')),coq(rd('parser/comments_everywhere.expected.conf'))))
for c in cases('TestParseErrors'):
    ex('TestParseErrors: '+c['name'],'fails_with %s %s = true'%(coq(c['input']),coq(c['expectedError'])))
t=rd('exceptional_comments/comments_everywhere.conf')
ex('TestParseExceptionalComments','warning_count %s = %d%%nat'%(coq(t),t.count('exceptional_comment')))
ex('TestParseIgnoreComments','prints [OptIgnoreComments true] %s %s = true'%(coq(rd('ignore_comments/comments_everywhere.conf')),coq(rd('ignore_comments/comments_everywhere.expected.conf'))))

def rcases(path,start,stop='for _, tc'):
    t=open(R+path).read(); i=t.index(start); j=t.find(stop,i); body=t[i:j]
    out=[]; cur={}
    for m in re.finditer(r'([\w.]+):\s*(?:`([^`]*)`|"((?:[^"\\]|\\.)*)"|(true|false))',body):
        k=m.group(1)
        v=m.group(2) if m.group(2) is not None else m.group(3).encode().decode('unicode_escape') if m.group(3) is not None else m.group(4)=='true'
        if k=='name' and cur: out.append(cur); cur={}
        cur.setdefault(k,[]).append(v)
    out.append(cur); return out
for c in rcases('ast/ast_helper_test.go','func TestPrefix'):
    ex('TestPrefix: '+c['name'][0],'prefix %s %s = %s'%(coq(c.get('input',[''])[0]),'true' if c.get('emptyNewline') else 'false',coq(c.get('want',[''])[0])))
for c in rcases('ast/astutil/quote_internal_test.go','func TestEscapeQuotes'):
    for q,k in ((34,'wantDouble'),(39,'wantSingle')):
        ex('TestEscapeQuotes','escape_quotes %s %d = %s'%(coq(c['name'][0]),q,coq(c[k][0])))
for c in rcases('ast/astutil/quote_internal_test.go','func TestEscapeBareword'):
    ex('TestEscapeBareword','escape_bareword %s = %s'%(coq(c['name'][0]),coq(c['want'][0])))
for c in rcases('ast/astutil/escape_test.go','var tt','func '):
    ex('TestEscape','escape %s = %s'%(coq(c['unescaped'][0]),coq(c['escaped'][0])))
    ex('TestUnescape','unescape %s = %s'%(coq(c['escaped'][0]),coq(c['unescaped'][0])))
for c in rcases('ast/astutil/quote_test.go','func TestQuote('):
    for t in ('DoubleQuoted','SingleQuoted','Bareword'):
        w,e=c['ast.'+t]
        if e: ex('TestQuote','match quote %s %s with QErr _ => true | _ => false end = true'%(coq(c['in'][0]),t))
        else: ex('TestQuote','quote %s %s = QOk %s'%(coq(c['in'][0]),t,coq(w)))
for c in rcases('ast/astutil/quote_test.go','func TestQuoteWithEscape('):
    for t in ('DoubleQuoted','SingleQuoted','Bareword'):
        ex('TestQuoteWithEscape','quote_with_escape %s %s = QOk %s'%(coq(c['in'][0]),t,coq(c['ast.'+t][0])))
open('/verif/rocq/theories/RepoTests.v','w').write('\n'.join(o))
print(n)
