#!/usr/bin/env python3
"""Translate the rules!(...) block of /repo/src/peg/rules.rs (lines 4-39) into Coq data,
and the raw string of /repo/src/peg/peg2code.rs (lines 26-111) into a Coq string."""
import re,sys
src=open('/repo/src/peg/rules.rs').read().split('\n')
body='\n'.join(src[4:37])
pos=0
def ws():
    global pos
    while pos<len(body) and body[pos] in ' \n': pos+=1
def tok(t):
    global pos
    ws()
    assert body.startswith(t,pos),(t,body[pos:pos+40])
    pos+=len(t)
def peek(t):
    ws(); return body.startswith(t,pos)
def string():
    global pos
    ws()
    if body.startswith('r#"',pos):
        j=body.index('"#',pos+3); s=body[pos+3:j]; pos=j+2; return s
    assert body[pos]=='"'; pos+=1; out=''
    while body[pos]!='"':
        if body[pos]=='\\':
            c=body[pos+1]; out+={'n':'\n','r':'\r','t':'\t','\\':'\\','"':'"'}[c]; pos+=2
        else: out+=body[pos]; pos+=1
    pos+=1; return out
def char():
    global pos
    ws(); assert body[pos]=="'" and body[pos+2]=="'"; c=body[pos+1]; pos+=3; return c
def cq(s):
    if all(32<=ord(c)<127 for c in s): return 's_ "%s"'%s.replace('"','""')
    return '[%s]'%'; '.join({'\n':'ch_nl','\r':'ch_cr'}[c] for c in s)
def num():
    global pos
    ws(); m=re.match(r'\d+',body[pos:]); pos+=m.end(); return m.group(0)
def expr():
    ws()
    m=re.match(r'(\w+)!\(',body[pos:]); name=m.group(1)
    tok(name+'!(')
    if name=='lit': s=string(); tok(')'); return 'lit (%s)'%cq(s)
    if name=='error': s=string(); tok(')'); return 'error_ (%s)'%cq(s)
    if name=='ref_rule': s=string(); tok(')'); return 'ref_rule (%s)'%cq(s)
    if name=='dot': tok(')'); return 'dot_'
    if name=='not': e=expr(); tok(')'); return 'Not (%s)'%e
    if name in('and','or'):
        l=[expr()]
        while peek(','): tok(','); l.append(expr())
        tok(')'); return '%s [%s]'%({'and':'And','or':'Or'}[name],'; '.join(l))
    if name=='rep':
        e=expr(); tok(','); a=num()
        if peek(','):
            tok(','); b=num(); tok(')'); return 'rep2 (%s) %s %s'%(e,a,b)
        tok(')'); return 'rep0 (%s) %s'%(e,a)
    if name=='ematch':
        tok('chlist'); s=string(); r=[]
        while peek(','):
            tok(','); tok('from'); a=char(); tok(','); tok('to'); b=char(); r.append((a,b))
        tok(')'); return 'ematch (%s) [%s]'%(cq(s),'; '.join('(%d%%N, %d%%N)'%(ord(a),ord(b)) for a,b in r))
    raise Exception(name)
out=[];ln=5
while True:
    n=string(); tok('=>'); out.append((n,expr(),ln)); ln+=1
    if not peek(','): break
    tok(',')
print('''(** Model of src/peg/rules.rs: the built-in rule set that parses PEG grammars.
    Generated by tools/gen_pegrules.py from the source text. *)
From Verif Require Import Base ModelAst ModelParser.

(** src/peg/rules.rs:3-40 [parse_peg]; one entry per source line 5-37, in source order. *)
Definition parse_peg_list : list (str * expr) := [''')
print(';\n'.join('  (* line %d *) (%s, %s)'%(l,cq(n),e) for n,e,l in out))
print('''].

(** src/peg/rules.rs:4-39, the map made by [rules!]. *)
Definition parse_peg : rules := rules_macro parse_peg_list.''')
src=open('/repo/src/peg/peg2code.rs').read()
a=src.index('r#"')+3; b=src.index('"#',a)
text=src[a:b]
assert all(c=='\n' or 32<=ord(c)<127 for c in text)
open('/verif/rocq/theories/ModelPeg2code.v','w').write('''(** Model of src/peg/peg2code.rs: the crate's PEG description of PEG grammars.
    Generated by tools/gen_pegrules.py from the source text. *)
From Verif Require Import Base.

(** src/peg/peg2code.rs:25-112 [text_peg2code]. *)
Definition text_peg2code : str := s_ "'''+text.replace('"','""')+'''".
''')
