"""Translate the assertions of the repository (unit tests, integration tests and doc
examples, README) into Coq examples: rocq/theories/RepoTests.v.

usage: gen_tests.py /repo
"""
import os, re, sys

REPO = sys.argv[1]
OUT = os.path.join(os.path.dirname(os.path.abspath(__file__)), "../rocq/theories/RepoTests.v")

TOK = re.compile(r'''
  (?P<str>"(?:[^"\\]|\\.)*") | (?P<char>'(?:[^'\\]|\\.)') | (?P<num>\d+)
 | (?P<id>[A-Za-z_][A-Za-z_0-9]*!?) | (?P<op>::|\.\.|[(){}\[\],.!&=;:]) | (?P<ws>\s+) ''', re.X)


class Skip(Exception):
    pass


def tokens(s, i):
    """tokens from position i until brackets balance"""
    out, depth = [], 0
    while True:
        m = TOK.match(s, i)
        if not m:
            raise Skip("token " + s[i:i + 10])
        i = m.end()
        k = m.lastgroup
        if k == "ws":
            continue
        t = m.group()
        out.append((k, t))
        if k == "op" and t in "([{":
            depth += 1
        if k == "op" and t in ")]}":
            depth -= 1
            if depth == 0:
                return out


def unescape(t):
    t = t[1:-1]
    if "\\" in t:
        raise Skip("escape")
    return t


def lit(s):
    if '"' in s:
        return "[" + "; ".join(hex(ord(c)) for c in s) + "]"
    return '(u "%s")' % s if s else "[]"


STR_FUN = {f: "str" for f in ["is_hiragana", "is_katakana", "is_kana", "is_kanji", "contains_kanji", "is_japanese",
                              "is_romaji", "is_mixed"]}
CHARS = ["is_char_" + x for x in ["hiragana", "katakana", "kana", "kanji", "japanese", "romaji", "upper_case",
         "long_dash", "slash_dot", "english_punctuation", "japanese_punctuation", "punctuation", "japanese_number",
         "latin_number"]]
CONV = ["to_kana", "to_hiragana", "to_katakana", "to_romaji"]
TYPES = ["En", "Ja", "EnNum", "JaNum", "EnPunc", "JaPunc", "Kanji", "Hiragana", "Katakana", "Space", "Other"]


class P:
    def __init__(self, toks):
        self.t, self.i = toks, 0

    def peek(self, k=0):
        return self.t[self.i + k][1] if self.i + k < len(self.t) else None

    def next(self):
        self.i += 1
        return self.t[self.i - 1]

    def expect(self, x):
        if self.peek() != x:
            raise Skip("expected %s got %s" % (x, self.peek()))
        self.i += 1

    def args(self):
        self.expect("(")
        out = []
        while self.peek() != ")":
            out.append(self.expr())
            if self.peek() == ",":
                self.next()
        self.expect(")")
        return out

    def options(self):
        f = {"use_obsolete_kana": "false", "pass_romaji": "false", "upcase_katakana": "false", "imemode": "false"}
        self.expect("{")
        while self.peek() != "}":
            k = self.next()[1]
            if k == "..":
                while self.peek() != "}":
                    self.next()
                break
            self.expect(":")
            f[k] = self.next()[1]
            if self.peek() == ",":
                self.next()
        self.expect("}")
        return ("opt", "(Build_options %s %s %s %s)" % (f["use_obsolete_kana"], f["pass_romaji"],
                                                         f["upcase_katakana"], f["imemode"]))

    def expr(self):
        if self.peek() == "!":
            self.next()
            ty, e = self.expr()
            return ("bool", "(negb %s)" % e)
        if self.peek() == "&":
            self.next()
            return self.expr()
        e = self.atom()
        while self.peek() == ".":
            self.next()
            m = self.next()[1]
            a = self.args()
            e = self.call(m, [e] + a, method=True)
        return e

    def atom(self):
        k, t = self.next()
        if k == "str":
            return ("str", lit(unescape(t)))
        if k == "char":
            c = unescape(t)
            return ("char", "(0x%X)" % ord(c))
        if k == "num":
            return ("nat", t)
        if t in ("true", "false"):
            return ("bool", t)
        if t == "(":
            a = [self.expr()]
            while self.peek() == ",":
                self.next()
                a.append(self.expr())
            self.expect(")")
            if len(a) == 1:
                return a[0]
            return ("pair", "(" + ", ".join(x for _, x in a) + ")")
        if t == "vec!":
            self.expect("[")
            a = []
            while self.peek() != "]":
                a.append(self.expr())
                if self.peek() == ",":
                    self.next()
            self.expect("]")
            return ("list", "[" + "; ".join(x for _, x in a) + "]")
        if t == "empty":
            return ("list", "[]")
        if t == "None":
            return ("option", "None")
        if t == "TokenType":
            self.expect("::")
            x = self.next()[1]
            assert x in TYPES
            return ("type", x)
        if t == "Options":
            return self.options()
        if k == "id" and self.peek() == "(":
            return self.call(t, self.args())
        raise Skip("atom " + t)

    def call(self, f, a, method=False):
        ty = [x for x, _ in a]
        v = [x for _, x in a]
        if f in ("to_string", "unwrap") and method:
            return a[0]
        if f == "Some":
            return ("option", "(Some %s)" % v[0])
        if f == "with_ime_mode":
            return ("opt", "(Build_options false false false true)")
        if f == "with_obsolete_kana":
            return ("opt", "(Build_options true false false false)")
        if f == "char_opts":
            pass
        if ty[0] == "res":
            raise Skip("nested conversion")
        if f in CONV and ty == ["str"]:
            return ("res", "(%s std_1_82 %s)" % (f, v[0]))
        if f.endswith("_with_opt") and f[:-9] in CONV and ty == ["str", "opt"]:
            return ("res", "(%s std_1_82 %s %s)" % (f, v[0], v[1]))
        if f == "katakana_to_hiragana" and ty == ["str"]:
            return ("res", "(katakana_to_hiragana std_1_82 %s)" % v[0])
        if f == "hiragana_to_katakana" and ty == ["str"]:
            return ("str", "(hiragana_to_katakana %s)" % v[0])
        if f in STR_FUN and ty == ["str"]:
            return ("bool", "(%s %s)" % (f, v[0]))
        if f == "is_mixed_pass_kanji":
            return ("bool", "(%s %s %s)" % (f, v[0], v[1]))
        if method and ty == ["char"] and "is_char_" + f[3:] in CHARS:
            return ("bool", "(is_char_%s %s)" % (f[3:], v[0]))
        if f in CHARS and ty == ["char"]:
            return ("bool", "(%s %s)" % (f, v[0]))
        if f == "is_char_vowel" and ty == ["char"]:
            return ("bool", "(is_char_vowel %s)" % v[0])
        if f in ("is_char_consonant", "is_char_vowel_opt") and ty == ["char", "bool"]:
            return ("bool", "(%s %s %s)" % (f, v[0], v[1]))
        if f == "is_char_in_range" and ty[0] == "char":
            return ("bool", "(%s %s %s %s)" % tuple([f] + [x if t == "char" else x for t, x in a]))
        if f == "tokenize":
            return ("list", "(tokenize %s)" % v[0])
        if f in ("tokenize_with_opt", "tokenize_detailed"):
            return ("list", "(%s %s %s)" % (f, v[0], v[1]))
        if f == "trim_okurigana":
            return ("res", "(trim_okurigana %s)" % v[0])
        if f == "trim_okurigana_with_opt":
            return ("res", "(trim_okurigana_with_opt %s %s %s)" % tuple(v))
        if f == "get_chunk":
            return ("res_bytes", "(get_chunk %s %s %s)" % tuple(v))
        raise Skip("call " + f)


def statement(kind, toks):
    p = P(toks)
    a = p.args()
    if kind == "assert!":
        if a[0][0] != "bool":
            raise Skip("not a bool")
        return "%s = true" % a[0][1]
    (t1, x), (t2, y) = a[0], a[1]
    if kind == "assert_ne!":
        if t1 == "res" and t2 == "str":
            y = "Ok " + y
        if t1 == "res":
            return "%s <> %s" % (x, y)
        raise Skip("assert_ne")
    if t1 == "res" and t2 == "str":
        y = "Ok " + y
    elif t1 == "res_bytes" and t2 == "str":
        y = "Ok (encode %s)" % y
    elif t1 != t2:
        raise Skip("types %s %s" % (t1, t2))
    return "%s = %s" % (x, y)


# assertions with constants or a regex in them; the regexes are character classes
EN = '(u "!?.:/,~-‘’“”[](){}")'
JA = '(u "！？。：・、〜ー「」『』［］（）｛｝")'
BY_HAND = {
    "src/is_romaji.rs:50": "is_romaji_with_whitelist [] None = false",
    "src/is_romaji.rs:96": 'is_romaji_with_whitelist (u "a！b&cーd") (Some (char_class (u "！ー"))) = true',
    "src/to_kana.rs:145": "to_kana std_1_82 (spaced %s) = Ok (spaced %s)" % (EN, JA),
    "src/traits.rs:222": 'str_is_romaji_with_whitelist (u "a！b&cーd") (Some (char_class (u "！ー"))) = true',
    "src/traits.rs:274": 'str_is_japanese_with_whitelist (u "≪偽括弧≫") (Some (char_class (u "≪≫"))) = true',
    "src/utils/is_char_in_range.rs:17": 'is_char_in_range (ch "は") HIRAGANA_START HIRAGANA_END = true',
    "src/utils/is_char_in_range.rs:18": 'is_char_in_range (ch "d") HIRAGANA_START HIRAGANA_END = false',
    "src/utils/mod.rs:62": "forallb is_char_english_punctuation %s = true" % EN,
    "src/utils/mod.rs:63": "forallb is_char_english_punctuation %s = false" % JA,
    "src/utils/mod.rs:72": "forallb is_char_punctuation %s = true" % EN,
    "src/utils/mod.rs:73": "forallb is_char_punctuation %s = true" % JA,
    "src/utils/mod.rs:83": "forallb is_char_japanese_punctuation %s = false" % EN,
    "src/utils/mod.rs:84": "forallb is_char_japanese_punctuation %s = true" % JA,
    "tests/is_japanese.rs:18": 'str_is_japanese_with_whitelist (u "≪偽括弧≫") (Some (char_class (u "≪≫"))) = true',
}
# the loops over the conversion tables, translated at the end of the file
LOOPS = ["tests/tests.rs:%d" % i for i in (23, 24, 33, 34, 42, 51)]

FILES = []
for d in ["src", "tests"]:
    for r, _, fs in os.walk(os.path.join(REPO, d)):
        FILES += [os.path.join(r, f) for f in fs if f.endswith(".rs") and "node_tree" not in f]
FILES.append(os.path.join(REPO, "README.md"))
FILES.sort()

out, skipped, n = [], [], 0
for f in FILES:
    rel = os.path.relpath(f, REPO)
    raw = open(f, encoding="utf-8").read()
    lines = raw.split("\n")
    # keep line structure; drop doc comment markers, blank out plain comments
    clean = []
    for l in lines:
        m = re.match(r"\s*//[/!] ?", l)
        if m:
            l = l[m.end():]
            if l.lstrip().startswith("#") or "=>" in l[:3]:
                l = ""
        elif re.match(r"\s*//", l):
            l = ""
        l = re.sub(r"\s//(?![^\"]*\"[^\"]*$).*$", "", l)
        clean.append(l)
    s = "\n".join(clean)
    ex = []
    for m in re.finditer(r"\b(assert!|assert_eq!|assert_ne!)\(", s):
        line = s.count("\n", 0, m.start()) + 1
        loc = "%s:%d" % (rel, line)
        if loc in LOOPS:
            continue
        try:
            st = BY_HAND.pop(loc) if loc in BY_HAND else statement(m.group(1), tokens(s, m.end() - 1))
            ex.append("(** %s:%d *)\nExample t%d : %s.\nProof. vm_compute. %s Qed." % (
                rel, line, n, st, "discriminate." if "<>" in st else "reflexivity."))
            n += 1
        except Skip as e:
            skipped.append("%s:%d (%s)" % (rel, line, e))
    if ex:
        out.append("(** ** %s *)\n%s\n" % (rel, "\n".join(ex)))

assert not BY_HAND and not skipped, (BY_HAND, skipped)

# the conversion tables, tests/conversion_tables.rs
tab = open(os.path.join(REPO, "tests/conversion_tables.rs"), encoding="utf-8").read()


def table(name):
    m = re.search(r"pub const %s: \[\[&str; 3\]; (\d+)\] = \[(.*?)\n\];" % name, tab, re.S)
    rows = re.findall(r'\["([^"]*)", "([^"]*)", "([^"]*)"\]', m.group(2))
    assert len(rows) == int(m.group(1)), (name, len(rows))
    return rows


def coq_table(name):
    return "Definition %s : list (str * str * str) := [\n  %s].\n" % (
        name, ";\n  ".join("(%s, %s, %s)" % tuple(lit(x) for x in r) for r in table(name)))


with open(OUT, "w", encoding="utf-8") as g:
    g.write("""(** * The repository's own tests and doc examples, run on the model

    Generated by tools/gen_tests.py from the assertions in src/, tests/ and README.md; [std_1_82]
    is the standard library instance used. *)
From Verif Require Import Base Std StdInstances Constants Chars Strings Convert Tokenize Chunk Traits.

(** the regex [[...]] of the given characters *)
Definition char_class (l : str) : regex := existsb (fun c => existsb (N.eqb c) l).
(** the characters, with spaces in between *)
Fixpoint spaced (l : str) : str := match l with [] | [_] => l | c :: r => c :: 0x20 :: spaced r end.

""")
    g.write("\n".join(out))
    g.write("\n(** ** tests/conversion_tables.rs and the loops over it in tests/tests.rs *)\n")
    g.write(coq_table("ROMA_TO_HIRA_KATA") + coq_table("HIRA_KATA_TO_ROMA"))
    g.write("""
Definition gives (r : res str) (s : str) : bool := match r with Ok t => str_eqb t s | _ => false end.
(** [str::to_uppercase] on the table's ASCII rows; other rows are caseless *)
Definition upper (s : str) : str := map ascii_upper s.

(** tests/tests.rs:19-26 *)
Example to_kana_test : forallb (fun r => match r with (romaji, hiragana, katakana) =>
  gives (to_kana std_1_82 romaji) hiragana && gives (to_kana std_1_82 (upper romaji)) katakana end)
  ROMA_TO_HIRA_KATA = true.
Proof. vm_compute. reflexivity. Qed.
(** tests/tests.rs:29-36 *)
Example to_hiragana_test : forallb (fun r => match r with (romaji, hiragana, _) =>
  gives (to_hiragana std_1_82 romaji) hiragana && gives (to_hiragana std_1_82 (upper romaji)) hiragana end)
  ROMA_TO_HIRA_KATA = true.
Proof. vm_compute. reflexivity. Qed.
(** tests/tests.rs:39-45 *)
Example hiragana_input_to_romaji : forallb (fun r => match r with (hiragana, _, romaji) =>
  is_empty hiragana || gives (to_romaji std_1_82 hiragana) romaji end) HIRA_KATA_TO_ROMA = true.
Proof. vm_compute. reflexivity. Qed.
(** tests/tests.rs:48-54 *)
Example katakana_input_to_romaji : forallb (fun r => match r with (_, katakana, romaji) =>
  is_empty katakana || gives (to_romaji std_1_82 katakana) romaji end) HIRA_KATA_TO_ROMA = true.
Proof. vm_compute. reflexivity. Qed.
""")
print(n, "examples")
