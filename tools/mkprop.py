#!/usr/bin/env python3
"""Generates the property files rocq/theories/P_*.v from the tagged lemmas of the
proof files, and MANIFEST.json.  A tagged lemma is
   (** #C02_name# English text *)
   Lemma name_l binders : statement.
   Proof. ...
The generated theorem C02_name has the same statement and is closed by `exact`.
"""
import re, json, os, sys
R = os.path.join(os.path.dirname(os.path.abspath(__file__)), '..')
T = os.path.join(R, 'rocq', 'theories')
SRC = json.load(open(os.path.join(R, 'tools', 'sources.json')))   # {laws file: {"imports": ..., "out": ...}}
tag = re.compile(r'\(\*\* #(\w+)# ?(.*?)\*\)\s*\n(Lemma|Example) (\w+)(.*?)\nProof', re.S)

def split_binders(s):
    """s = ' binders : statement.' -> (binders, statement) at the top-level colon"""
    depth = 0
    for i, ch in enumerate(s):
        if ch in '([{': depth += 1
        elif ch in ')]}': depth -= 1
        elif ch == ':' and depth == 0 and s[i+1] != '=':
            return s[:i].strip(), s[i+1:].strip()
    raise Exception('no colon in ' + s)

names = []
for src, o in SRC.items():
    txt = open(os.path.join(T, src + '.v')).read()
    out = ['(** * Property theorems.  Generated by tools/mkprop.py from the tagged lemmas of\n    %s.v: every theorem is closed by [exact]. *)' % src]
    out.append('From Coq Require Import Znumtheory Sorting.Sorted.\nFrom Verif Require Import %s.' % o['imports'])
    for m in tag.finditer(txt):
        name, doc, kind, lem, rest = m.groups()
        b, st = split_binders(rest)
        assert st.endswith('.'), st
        stm = ('forall ' + b + ',\n  ' + st) if b else st
        doc = doc.strip()
        out.append('')
        if doc: out.append('(** ' + doc + ' *)')
        out.append('%s %s : %s' % ('Theorem' if kind == 'Lemma' else 'Example', name, stm))
        out.append('Proof. exact @%s. Qed.' % lem)
        if kind == 'Lemma':
            out.append('Print Assumptions %s.' % name)
            names.append(name)
    open(os.path.join(T, o['out'] + '.v'), 'w').write('\n'.join(out) + '\n')

notes = json.load(open(os.path.join(R, 'tools', 'notes.json')))
props = [json.loads(l) for l in open(os.path.join(R, 'properties.jsonl'))]
claims = []
for p in props:
    i = p['id']
    th = [n for n in names if n.startswith(i + '_')]
    n = notes.get(i, {})
    status = n.get('status') or ('proved' if th else 'partial')
    claims.append(dict(property=i, status=status, theorems=th, note=n.get('note', '' if th else 'Not yet proved.')))
json.dump({"claims": claims}, open(os.path.join(R, 'MANIFEST.json'), 'w'), indent=1, ensure_ascii=False)
print(len(names), 'theorems;', sum(1 for c in claims if c['theorems']), 'properties with theorems')
