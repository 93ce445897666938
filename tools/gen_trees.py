"""Generates KanaTreeData.v and RomajiTreeData.v from the Rust tree literals.

usage: python3 tools/gen_trees.py   (from /verif; reads /repo/src)
"""
import os
from rust_tree import kana, romaji

OUT = os.path.join(os.path.dirname(__file__), '..', 'rocq', 'theories')


def q(s):
    return '"' + s.replace('"', '""') + '"'


def chlit(c):
    # invisible or ambiguous characters are written as code points
    if c == '　':
        return '0x3000'
    return 'ch ' + q(c)


def kids(ts, node, ind):
    sep = ';\n' + ' ' * ind
    return sep.join('(%s, %s)' % (chlit(c), node(n, ind + 2)) for c, n, _ in ts)


def knode(n, ind):
    t, o = n
    out = 'None' if o is None else '(Some (u %s))' % q(o)
    if not t:
        return 'KNode [] ' + out
    return 'KNode [\n' + ' ' * ind + kids(t, knode, ind) + '] ' + out


def rnode(n, ind):
    t, o = n
    out = '(u %s)' % q(o)
    if t is None:
        return 'RNode None ' + out
    return 'RNode (Some [\n' + ' ' * ind + kids(t, rnode, ind) + ']) ' + out


def write(name, src, parsed, node, ty, defn, imports):
    t, a, b = parsed
    with open(os.path.join(OUT, name), 'w') as f:
        f.write('(** GENERATED by tools/gen_trees.py from %s:%d-%d; do not edit.\n'
                '    One entry per entry of the Rust [vec!], same order, duplicates kept. *)\n'
                % (src, a, b))
        f.write('From Verif Require Import Base %s.\n\n' % imports)
        f.write('Definition %s : %s := [\n' % (defn, ty))
        ents = []
        for i, (c, n, l) in enumerate(t):
            end = (t[i + 1][2] - 2) if i + 1 < len(t) else b - 1
            ents.append('  (* %s:%d-%d *)\n  (%s, %s)' % (src, l - 1, end, chlit(c), node(n, 4)))
        f.write(';\n'.join(ents))
        f.write('\n].\n')


write('KanaTreeData.v', 'to_kana_node_tree.rs', kana(), knode,
      'list (char * knode)', 'kana_literal', 'Trees')
write('RomajiTreeData.v', 'to_romaji_node_tree.rs', romaji(), rnode,
      'list (char * rnode)', 'romaji_literal', 'Trees')
