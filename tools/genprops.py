#!/usr/bin/env python3
"""Generate theories/Props_*.v from tagged lemmas.

In a proof file, a lemma preceded by  (*@ NAME : English text *)  is exported as
    Theorem NAME : <same statement>.  Proof. exact lemma. Qed.  Print Assumptions NAME.
A tag (*@ex NAME *) does the same with Example and without Print Assumptions.
The generated file has one theorem per tag and nothing else.
"""
import re, sys, os
TH = os.path.join(os.path.dirname(os.path.abspath(__file__)), '..', 'rocq', 'theories')

def statement(src, pos):
    m = re.compile(r'(Lemma|Theorem|Corollary|Example|Fact)\s+([\w\']+)\s*').match(src, pos)
    assert m, src[pos:pos+120]
    name = m.group(2)
    rest = src[m.end():]
    # statement ends at ".\n" followed by Proof
    e = re.search(r'\.\s*\n\s*Proof\b', rest)
    return name, rest[:e.start()].strip()

def main():
    for f in sorted(os.listdir(TH)):
        if not f.startswith('P_') or not f.endswith('.v'):
            continue
        src = open(os.path.join(TH, f)).read()
        tags = list(re.finditer(r'\(\*@(ex)?\s+([\w\']+)\s*(?::\s*(.*?))?\s*\*\)\s*', src, re.S))
        if not tags:
            continue
        out = []
        mod = f[:-2]
        hdr = re.search(r'\(\*@header\n(.*?)\*\)', src, re.S)
        out.append('(** Generated by tools/genprops.py from %s: property theorems only. *)' % f)
        out.append('From Verif Require Import %s.' % mod)
        if hdr:
            out.append(hdr.group(1).rstrip())
        for t in tags:
            if t.group(2) == 'header':
                continue
            lem, st = statement(src, t.end())
            txt = t.group(3)
            if txt:
                out.append('\n(** %s *)' % re.sub(r'\s+', ' ', txt))
            else:
                out.append('')
            kw = 'Example' if t.group(1) else 'Theorem'
            assert st.startswith(':'), (f, lem)
            out.append('%s %s %s.\nProof. exact @%s. Qed.' % (kw, t.group(2), st, lem))
            if kw == 'Theorem':
                out.append('Print Assumptions %s.' % t.group(2))
        name = 'Props_' + f[2:]
        new = '\n'.join(out) + '\n'
        dst = os.path.join(TH, name)
        if not os.path.exists(dst) or open(dst).read() != new:
            open(dst, 'w').write(new)
            print('wrote', name, len([t for t in tags if not t.group(1)]), 'theorems')

main()
