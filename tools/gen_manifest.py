"""Write MANIFEST.json from the theorems in rocq/theories/Props_*.v."""
import glob, json, os, re

root = os.path.join(os.path.dirname(os.path.abspath(__file__)), "..")
NOTES = {
    "C08": "Proved: the only hiragana given is ん, and exactly the texts in which N' (in IME mode also N and a space) is read as n' give it; for those the claim is false (SHIN'YOU gives シんヨウ), witness in the _refuted theorem.",
    "C13": "Proved: the texts on which the conversion is idempotent, exactly (all in IME mode, otherwise those without nyya and the like); the second conversion reaches a fixed point and changes nothing but left-over n, exactly as described by second_pass. False for nyya, witness in the _refuted theorem.",
    "C14": "Proved in every mode, exactly except for wi and we in obsolete mode, where wwi gives っうぃ (refuted).",
    "C17": "Proved: exactly the texts that begin with a typographic quote, contain katakana and are not mixed with romaji leave katakana; false for those (‘カ), witness in the _refuted theorem.",
    "C29": "Proved for every text: by which characters the case of a piece is decided, exactly when that is right, and that it is right if no long mark follows ッ or ン (the only marks that disappear); false otherwise because positions shift, witness in the _refuted theorem.",
    "C30": "Proved: the romaji is the same with every conforming library exactly for text without ヴ/ゔ; false with them: the result depends on which duplicate the binary search hits.",
    "C33": "False: まっちゃ gives matcha gives まtちゃ (and ぢ, づ, ゐ, ゑ are read back as じ, ず, うぃ, うぇ).  The true part: what every mora is read back as is given exactly, in IME mode too, and exactly which texts survive (C33_all_morae_partial); C32 is the round trip for all reversible morae.",
    "C39": "The exact behaviour is proved; the documented per-character reading is false because the regex is run on the whole input.",
    "C44": "Proved: compact tokens are unions of detailed tokens exactly if an ASCII and an ideographic space are never adjacent; witness of the failure in the _refuted theorem.",
    "C47": "Proved: which token is removed, what is never removed, and for exactly which texts the result is empty; non-emptiness is false for Japanese punctuation such as ー。ー, witness in the _refuted theorem.",
    "C48": "Proved for okurigana in one script, exactly what repeated trimming removes, and exactly how often it does so; one trimming is not enough for 食べル, witness in the _refuted theorem.",
    "C60": "Proved for the kana table and for all romaji spellings without ゔ; false for every spelling with ゔ, whose two-character keys the generator truncated.",
    "C53": "Proved for every key but ゔ; false for ゔ.",
    "C64": "Proved with pass_romaji; without it, that a second conversion reaches a fixed point, and exactly on which texts the first one does. False for nyya and ‘カ, witnesses in the _refuted theorem.",
    "C72": "Proved: exactly when what is shown can be typed on (it has a kana, or is romaji throughout, or for to_hiragana begins with English punctuation); otherwise nothing typed next is converted, and the result is right exactly if the rest has no upper-case letter and nothing that would be converted. False for [ka, witness in the _refuted theorem.",
    "C76": "Proved: exactly for the texts in which no long mark lengthens anything and (unless tokens are compact) no kana of different scripts fuse across tokens (with upcase_katakana: nor katakana loses its upper case after hiragana っ). False for コーヒー, witness in the _refuted theorem.",
}
by = {}
for f in sorted(glob.glob(os.path.join(root, "rocq/theories/Props_*.v"))):
    for t in re.findall(r"^Theorem (\w+)", open(f, encoding="utf-8").read(), re.M):
        by.setdefault(t.split("_")[0], []).append(t)
claims = []
for line in open(os.path.join(root, "properties.jsonl"), encoding="utf-8"):
    if not line.strip():
        continue
    pid = json.loads(line)["id"]
    ths = by.pop(pid)
    partial = any(t.endswith(("_partial", "_refuted")) for t in ths)
    assert partial == (pid in NOTES), pid
    claims.append({"property": pid, "status": "partial" if partial else "proved",
                   "theorems": ths, "note": NOTES.get(pid, "")})
assert not by, by
with open(os.path.join(root, "MANIFEST.json"), "w", encoding="utf-8") as g:
    g.write('{"claims":[\n' + ",\n".join(json.dumps(c, ensure_ascii=False) for c in claims) + "\n]}\n")
