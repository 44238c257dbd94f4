#!/usr/bin/env python3
"""Translates the tests of src/peg/test.rs into Rocq examples (theories/ConformancePeg.v)."""
import re
src = open('/repo/src/peg/test.rs').read()

def coq(s):
    """A Coq term of type str for a text."""
    parts = []
    for i, line in enumerate(s.split('\n')):
        if i: parts.append('[ch_nl]')
        if line: parts.append('s_ "%s"' % line.replace('"', '""'))
    return ' ++ '.join(parts) if parts else '[]'

out = ['(** The tests of src/peg/test.rs, as computations of the model (generated by tools/gen_conformance.py). *)',
       'From Verif Require Import Base ModelAst ModelParser ModelPegRules ModelPeg.', '',
       'Definition is_ok {E A} (r : outcome E A) : bool := match r with Ok _ => true | _ => false end.',
       'Definition is_err {E A} (r : outcome E A) : bool := match r with Err _ => true | _ => false end.',
       '(** [rules_from_peg(peg).unwrap()], then [f]. *)',
       'Definition unwrap_then {E} (r : outcome E rules) (f : rules -> bool) : bool := match r with Ok rs => f rs | _ => false end.',
       'Definition fuel : nat := 300.', '']
for m in re.finditer(r'#\[test\]\nfn (\w+)\(\) \{\n(.*?)\n\}\n', src, re.S):
    name, body = m.group(1), m.group(2)
    line = src[:m.start()].count('\n') + 1
    last = src[:m.end()].count('\n')
    peg = re.search(r'r#"(.*?)"#', body, re.S).group(1)
    out.append('(** src/peg/test.rs:%d-%d. *)' % (line, last))
    out.append('Definition %s_text : str := %s.' % (name, coq(peg)))
    checks = []
    direct = re.search(r'assert!\(parse\(peg, &peg::rules::parse_peg\(\)\)\.(is_ok|is_err)\(\)\)', body)
    rdirect = re.search(r'assert!\(peg::rules_from_peg\(peg\)\.(is_ok|is_err)\(\)\)', body)
    if direct:
        out.append('Example t_%s : %s (parse fuel %s_text parse_peg) = true.' % (name, direct.group(1), name))
    elif rdirect:
        out.append('Example t_%s : %s (rules_from_peg fuel %s_text) = true.' % (name, rdirect.group(1), name))
    else:
        for t, r in re.findall(r'assert!\(parse\("([^"]*)", &rules\)\.(is_ok|is_err)\(\)\);', body):
            checks.append('%s (parse fuel (%s) rs)' % (r, coq(t)))
        assert len(checks) == body.count('assert!')
        out.append('Example t_%s : unwrap_then (rules_from_peg fuel %s_text) (fun rs =>\n  %s) = true.' % (name, name, '\n  && '.join(checks)))
    out.append('Proof. vm_compute. reflexivity. Qed.')
    out.append('')
open('/verif/rocq/theories/ConformancePeg.v', 'w').write('\n'.join(out))
