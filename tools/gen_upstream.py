"""Generates UpstreamData.v from the JSON documents embedded in the two programs of
upstream_conversions.

usage: python3 tools/gen_upstream.py   (from /verif; reads /repo/upstream_conversions)
"""
import json
import os

SRC = '/repo/upstream_conversions/src/bin/'
OUT = os.path.join(os.path.dirname(__file__), '..', 'rocq', 'theories', 'UpstreamData.v')


def q(s):
    # invisible or ambiguous characters are written as code points
    if s == '　':
        return '[0x3000]'
    assert '　' not in s
    return 'u "' + s.replace('"', '""') + '"' if s else '[]'


def load(f):
    s = open(SRC + f, encoding='utf-8').read()
    a = s.index('json!(') + 6
    b = s.index('\n    });') + 6
    lines = (s.count('\n', 0, a) + 1, s.count('\n', 0, b) + 1)
    # pairs in source order, repeated keys (if any) kept
    return json.loads(s[a:b], object_pairs_hook=lambda p: p), lines


def term(v, ind):
    if isinstance(v, str):
        return 'JStr (%s)' % q(v) if v else 'JStr []'
    if all(isinstance(x, str) for _, x in v):
        return 'JObj [' + '; '.join('(%s, %s)' % (q(k), term(x, 0)) for k, x in v) + ']'
    sep = ';\n' + ' ' * ind
    return 'JObj [\n' + ' ' * ind + sep.join(
        '(%s, %s)' % (q(k), term(x, ind + 2)) for k, x in v) + ']'


with open(OUT, 'w') as o:
    o.write('(** GENERATED by tools/gen_upstream.py from the documents in\n'
            '    upstream_conversions/src/bin; do not edit.\n'
            '    One member per member of the JSON text, same order. *)\n'
            'From Verif Require Import Base Json.\n')
    for f, name in (('to_kana_tree.rs', 'kana_document'), ('to_romaji_tree.rs', 'romaji_document')):
        v, (a, b) = load(f)
        o.write('\n(** %s:%d-%d *)\nDefinition %s : json := %s.\n' % (f, a, b, name, term(v, 2)))
