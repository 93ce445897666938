"""Generates Unicode14.v (case tables) from Python's unicodedata (Unicode 14.0).

usage: python3 tools/gen_unicode.py   (needs a Python whose unicodedata is 14.0.0)
"""
import os
import unicodedata
assert unicodedata.unidata_version == '14.0.0'
OUT = os.path.join(os.path.dirname(__file__), '..', 'rocq', 'theories', 'Unicode14.v')
ALL = [c for c in range(0x110000) if not 0xD800 <= c < 0xE000]


def ranges(pred):
    r = []
    for c in ALL:
        if pred(chr(c)):
            if r and r[-1][1] == c - 1:
                r[-1][1] = c
            else:
                r.append([c, c])
    return r


def mapping(f):
    """[(first, last, step, delta)] for single-character images, plus exceptions."""
    single, multi = [], []
    for c in ALL:
        m = f(chr(c))
        if m == chr(c):
            continue
        if len(m) == 1:
            d = ord(m) - c
            for step in (1, 2):
                if single and single[-1][3] == d and c - single[-1][1] == step and (
                        single[-1][0] == single[-1][1] or single[-1][2] == step):
                    single[-1][1] = c
                    single[-1][2] = step
                    break
            else:
                single.append([c, c, 1, d])
        else:
            multi.append((c, [ord(x) for x in m]))
    return single, multi


def fmt_ranges(name, doc, r):
    items = ['(%#x, %#x)' % tuple(x) for x in r]
    lines = ['; '.join(items[i:i + 5]) for i in range(0, len(items), 5)]
    return '(** %s *)\nDefinition %s : list (N * N) := [\n  %s].\n\n' % (doc, name, ';\n  '.join(lines))


def fmt_map(name, doc, r):
    # image = c + plus - minus
    items = ['(%#x, %#x, %d, %#x, %#x)' % (a, b, s, max(d, 0), max(-d, 0)) for a, b, s, d in r]
    lines = ['; '.join(items[i:i + 3]) for i in range(0, len(items), 3)]
    return ('(** %s *)\nDefinition %s : list (N * N * N * N * N) := [\n  %s].\n\n'
            % (doc, name, ';\n  '.join(lines)))


def fmt_multi(name, doc, r):
    items = ['(%#x, [%s])' % (c, '; '.join('%#x' % x for x in m)) for c, m in r]
    lines = ['; '.join(items[i:i + 3]) for i in range(0, len(items), 3)]
    return '(** %s *)\nDefinition %s : list (N * list N) := [\n  %s].\n\n' % (doc, name, ';\n  '.join(lines))


# In Python, as in Unicode, capital sigma is final iff preceded by
# Cased Case_Ignorable* and not followed by Case_Ignorable* Cased.
def cased(c):
    """Cased and not Case_Ignorable (an ignorable character would be skipped)."""
    return (c + 'Σ').lower()[-1] == 'ς'


def ci(c):
    return ('A' + c + 'Σ').lower()[-1] == 'ς' and not cased(c)


lo, lom = mapping(str.lower)
up, upm = mapping(str.upper)
with open(OUT, 'w') as f:
    f.write('(** GENERATED by tools/gen_unicode.py (Unicode 14.0.0); do not edit.\n'
            '    Used only by the concrete instances of [std] in StdInstances.v. *)\n'
            'From Coq Require Import NArith List.\nImport ListNotations.\nOpen Scope N_scope.\n\n')
    f.write(fmt_map('lower_ranges', 'one-character lower-case mappings: first, last, step, plus, minus', lo))
    f.write(fmt_multi('lower_multi', 'longer lower-case mappings', lom))
    f.write(fmt_map('upper_ranges', 'one-character upper-case mappings', up))
    f.write(fmt_multi('upper_multi', 'longer upper-case mappings', upm))
    f.write(fmt_ranges('uppercase_ranges', 'property Uppercase', ranges(str.isupper)))
    f.write(fmt_ranges('cased_ranges', 'property Cased, for characters that are not Case_Ignorable', ranges(cased)))
    f.write(fmt_ranges('case_ignorable_ranges', 'property Case_Ignorable', ranges(ci)))
print(len(lo), len(lom), len(up), len(upm), lom)
