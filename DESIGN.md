# Formal model of wana_kana_rust in Rocq (Coq 8.16.1)

## 1. What is modelled

Strings are lists of Unicode scalar values (`str := list N`), because every
function of the crate consumes `&str` through `chars()`.  UTF-8 is modelled
where bytes matter (`get_chunk`, the CLI tools).  A panic is an explicit value:
model functions that can index, slice, unwrap or subtract return
`res A := Ok a | Panic | NoFuel`; `while` loops run on fuel and `NoFuel` is a
distinct error that every theorem excludes.

| file in `rocq/theories` | code in `/repo/src` |
|---|---|
| `Base.v` | (Rust primitives: slices, UTF-8, panics) |
| `Std.v` | (Rust std: ASCII case, `str::to_lowercase`, binary search, stable sort, `trim_*_matches`, itertools `group_by`) |
| `Unicode14.v` (generated), `StdInstances.v` | (Unicode case tables and the two binary search algorithms, for the concrete instances of `std`) |
| `Constants.v`, `Chars.v` | `constants.rs`, `utils/is_char_*.rs` |
| `Trees.v`, `KanaTree.v` (+ generated `KanaTreeData.v`) | `to_kana_node_tree.rs` |
| `Trees.v`, `RomajiTree.v` (+ generated `RomajiTreeData.v`) | `to_romaji_node_tree.rs` |
| `Convert.v` | `utils/hiragana_to_katakana.rs`, `utils/katakana_to_hiragana.rs`, `utils/romaji_to_hiragana.rs`, `to_kana.rs`, `to_hiragana.rs`, `to_katakana.rs`, `to_romaji.rs`, `options.rs` |
| `Strings.v` | `is_*.rs` |
| `Tokenize.v` | `tokenize.rs`, `trim_okurigana.rs` |
| `Chunk.v`, `Cli.v` | `utils/get_chunk.rs`, `bin/*.rs` |
| `Traits.v` | `traits.rs` |
| `Bindings.v` | `/repo/wana_kana_wasm/src/lib.rs`, `/repo/nodejs-bindings/native/src/lib.rs` |
| `Json.v`, `Upstream.v` (+ generated `UpstreamData.v`) | `/repo/upstream_conversions/src/bin/*.rs` |
| `Debug.v` | (core::fmt: the form `{:#?}` of derived `Debug`) |
| `Cost.v` | the loops of `to_kana.rs`, `to_romaji.rs`, `to_hiragana.rs`, `to_katakana.rs`, `utils/katakana_to_hiragana.rs` and `get` of both trees again, with counters |
| `Compare.v` | the loops of `Cost.v` with the comparisons inside a lookup counted: `iter().find` in `to_kana_node_tree.rs:28`, the binary searches of Rust 1.52 and 1.82 in `to_romaji_node_tree.rs:24` |
| `Work.v` | the predicates, `tokenize.rs`, `trim_okurigana.rs`, `is_mixed.rs` and the choice of branch in `to_katakana.rs`, `to_hiragana.rs` again, counting calls of `utils/is_char_in_range.rs` and of `Regex::is_match` |
| `Table.v` | the loops of `to_kana.rs:20-48`, `katakana_to_hiragana.rs:47-103` and `to_romaji.rs:18-48` again with the tree as a parameter (C101) |
| `HashMap.v` | `utils/hashmap_macro.rs` and the map `LONG_VOWELS` of `utils/katakana_to_hiragana.rs:33-41`, over any hash map that keeps the documented laws; a table of buckets with FNV-1a that keeps them |
| `Machine.v` | all functions of `Convert.v` and `get` of both trees again, with `usize` and `i32` arithmetic that panics or wraps on overflow |
| `Threads.v` | the public functions again with every reading of a `lazy_static` visible, the initialisers, and threads that run them |
| `Alloc.v` | the loops of `to_kana.rs`, `to_romaji.rs`, `utils/katakana_to_hiragana.rs`, `utils/hiragana_to_katakana.rs` again, writing into buffers with a capacity |

The other files contain no model of code:

* specifications, written without the model's helpers: `KanaSpec`, `ScriptSpec`, `RomajiSpec`,
  `TokenSpec`, `TreeSpec`, `CliSpec`, `UpstreamSpec`, `TypingSpec`, `TraitsSpec`, `LibrarySpec`,
  `ExactSpec`, `ChoiceSpec`, `ModesSpec`, `TypeInSpec`, `DebugSpec`, `SameSpec`, `JoinSpec`, `KanaJoinSpec`, `CompleteSpec`, `FixedSpec`, `ComposeSpec`, `RoundSpec`, `BindingsSpec`, `JoinUpSpec`, `ScriptTokenSpec`, `ScriptPartSpec`, `ScriptResultSpec`, `LocalSpec`, `BytesSpec`, `AllocSpec`, `SepSpec`, `CostSpec`, `StrokeSpec`, `NormSpec`, `ThreadsSpec`, `ComposedSpec`, `InKatakanaSpec`, `OrderSpec`, `SyllablesSpec`, `TypedBackSpec`;
* proofs: `Tac`, `KanaPure`, `RomajiPure` (the model equals pure functions), `KanaDict`, `*Proofs`,
  `ScriptIdem`, `ReadBack`, `Splits`, `Exact`, `ExactScript`, `LowerTwice`, `ModesPairs`, `TypeIn`, `SameRomaji`, `Joins`, `JoinText`, `TokenJoin`, `KanaJoin`, `KanaTokens`, `Complete`, `CompleteScript`, `RomajiComplete`, `Fixed`, `Image`, `Compose`, `Round`, `RoundUp`, `JoinUp`, `ScriptTokens`, `ScriptParts`, `ScriptPartsHira`, `ScriptImage`, `Local`, `LocalRomaji`, `Bytes`, `AllocProofs`, `Sep`, `SepText`, `Ways`, `WaysRom`, `WorkProofs`, `WorkTexts`, `Strokes`, `StrokesUp`, `StrokesScript`, `Norm`, `NormHira`, `NormText`, `ThreadsLazy`, `Composed`, `InKatakana`, `Order`, `Syllables`, `TypedBack`, `TchText`, `Predicates`, `Results_*`;
* the property theorems: `Props_*` (nothing else in them but examples);
* `RepoTests.v` (generated): the repository's own unit tests, integration tests and doc examples
  run on the model.

The standard library is not in the repository.  Everything the crate takes from
it that the documentation leaves open, or that depends on the Unicode version,
is a field of the record `std` (binary search result on duplicates, upper-case
test, lower/upper-case mapping, Cased / Case_Ignorable).  `std_ok E` is the
documented contract.  Theorems are stated `forall E, std_ok E -> ...`, so they
hold for every Rust release, and two concrete instances (`std_1_52`: binary
search of Rust 1.52-1.81; `std_1_82`: binary search since 1.82; both with
Unicode 14 tables) are proved to satisfy `std_ok`, which shows the premise is
satisfiable and gives executable models for the examples and refutations.

## 2. Plan per property

* C01-C03 model with explicit panics and fuel; prove `= Ok (pure function)` by
  induction on the remaining text; pure functions are then used everywhere.
* C04, C50 byte-offset model of `char_indices`/slicing; case analysis.
* C05 independent dictionary spec (flat list of pairs, "longest viable prefix");
  trie walk proved equivalent by a generic trie lemma + kernel-computed
  flattening of the three trees.
* C06, C07, C14, C15 segmentation lemma: a walk that reaches a node with output
  whose transitions exclude the next character consumes exactly that key.
* C08 refuted (witness `N'`); exactly the texts in which `N'` is read as `n'` give hiragana, only ん.
* C09, C31 every key/output pair satisfies the bound (finite, all nodes), lifted
  by induction.
* C10, C11 trees agree outside the `w` node; definitional for unused options.
* C12 prefix-freeness of the IME tree (every node with output is a leaf; dead
  paths contain no key), lifted by strong induction.
* C13 refuted (`nyya`); exactly the texts with `nyya` and the like change again (no other key leaves an
  n in front of kana); the second conversion is described exactly, and the third changes nothing.
* C16, C17 per-character invariants of outputs; C17 is refuted for text that
  starts with a typographic quote, contains katakana and is not mixed, proved otherwise.
* C18 lower-casing identifies ASCII case variants.
* C19-C22 pure per-character analysis of the two kana shifts.
* C23, C24, C32, C34 independent Hepburn table (`RomajiSpec.v`) and grammar of
  morae; finite table checks lifted by induction over the mora list.
* C25-C28 invariants of the romaji walk for every conforming binary search.
* C29, C30, C33, C44, C48, C53, C39 are expected to be FALSE of the code:
  prove `..._refuted` with a witness and the strongest positive part.  For C29 the
  positive part needs only that no long mark follows ッ or ン; for C33 it says exactly
  what each mora is read back as and when a text survives.
* C35-C38 reduction to linear arithmetic on code points.
* C40-C45 list induction on consecutive grouping; uniqueness theorem.
* C46-C49 prefix stripping lemmas.
* C51, C54 UTF-8 codec with round-trip proof; validity invariants.
* C52 finite check over all nodes lifted to all characters, plus a correctness
  proof of both binary search algorithms.

* C55 to_romaji as hiragana conversion followed by longest-key substitution.
* C56 linear arithmetic on code points.
* C57-C60 the table generators: an object's map is the list of its last members, sorted by
  the bytes of the keys; one generic induction over documents serves both generators.  The
  documents themselves are data (`UpstreamData.v`) and are run through the generators.
* C61, C62 the branches of the two script conversions, each described by the relations of C05 and C19.
* C63 the same descriptions determine the result; conversely (also for C30) libraries whose binary
  search finds the second or the last of the five duplicates of ゔ give different results.
* C64 refuted (`nyya`, `‘カ`); the second conversion reaches a fixed point: converting commutes with
  the shift to katakana, and a text without katakana is converted as by to_kana;
  the texts on which the first one does are those of C13 and C17, seen through the branches.
* C65, C66 the scanning loops commute with concatenation where no key crosses the boundary.
* C67 a spelling for each kana, put together with C65; conversely the values of the dictionary.
* C68 the trait methods, from C05, C19, C35, C36, C38, C39, C55, C61, C62.
* C69 the romaji trees of the two releases differ only at っゔ; which texts contain it after the
  katakana have been replaced follows from C19.
* C70 the nodes reached by walks of the library's search are compared with the dictionary of each of
  the 25 choices; a search that looks at the keys it is given makes any choice.
* C71 the trees differ only below n and w; up to the first n (wi, we) read on its own the loops run in
  step, and from there the results differ in a character or in length (for IME mode against use_obsolete_kana,
  length without the kana of wi and we).
* C72 refuted (`[ka`), with the exact condition: once what is shown can no longer be typed on, the rest is appended as it is, and this is right exactly if nothing in it would have been converted; C12 seen through the branches of C61 and C62.
* C73 writing through the indenting adapters is inserting spaces after newlines, which gives the text by
  depth; at a given depth the text of a value is never a proper prefix of the text of another one.
* C74 the romaji of standard morae is their Hepburn spelling (C23, C24), which can be read back once ぢ and づ
  have been replaced by じ and ず.
* C75 the last unit of a text stays open, what is before it is settled; a part that continues the open unit
  changes a letter, unless the unit is っ before vowels, n, y or punctuation.  A long mark that reaches
  back is noticed because the romaji then has fewer dashes.  Done once for each choice among the readings of ゔ (C70);
  the choice only matters for small kana after ゔ.  With upcase_katakana the same holds in lower case (lower-casing
  text and romaji commutes with everything); what is left is where katakana loses its upper case, after っ.
* C76 refuted (`コーヒー`); C75 for tokens: ー is never in the token of the letter it lengthens, and kana of one
  script (in compact mode: all kana) are never cut.
* C77 by induction on the reading of the whole text, dropping what is read from the first part: what has been read
  does not change which boundaries are joined.  A joined boundary shows in the first letter that differs (kana
  against a letter), for `n'` in the apostrophe that is left.
* C78 C77 for tokens: the only keys with characters of two types are `n'` and, in IME mode, `n` and a space.
* C88, C89 C77 for tokens again, with the lower-casing and the script conversion of each character in between.  Where
  tokens and text take different branches, what was converted is noticed by counting: kana increase, upper case
  letters and dashes decrease.
* C91, C92 parts that are read or kept: cutting `conv` at a boundary changes nothing exactly if no key goes over it (C65, C77); a kept part must have no key beginning in it.  What each way of cutting may lose (capitals, katakana, quotation marks, long marks, Japanese characters) is counted: the sums agree, every part changes them in one direction only, so they agree part by part.
* C90 the loops with counters return what the model returns (same inductions).  The upper bound of `to_kana` by a potential: what is left over of 3.5 lookups per character depends only on the node at which the walk ends, checked for all pairs of nodes that can follow each other.
* C79 any cut into keys will do: only n can be extended, and n with the key after it is a key too unless that key begins with yy.
  For the script conversions: turning katakana to hiragana in between changes nothing, since both conditions can be checked between the kana; only the quotes and ・ ヵ ヶ need care.
* C80 character by character: a key of the romaji dictionary has a romaji value exactly if all its kana are readable.
* C81 what is read is replaced by characters that are in no key, and a conversion never lengthens, so that in a fixed point nothing is read; keys that are there but not read are a pending n.
* C82 a preimage of っや etc. after n is built by spelling it back as yya etc.; everything else is its own preimage.
* C93 the preimage of C82 with Japanese punctuation spelled back as English punctuation; it is read if it has a kana or is romaji.  Conversely a kana of the text that is read is still there and does not stand after n in っや etc.
* C94 keys have at most 5 characters, all but the last are consonants, and the last one is none except in n, xn and nn.  So the cut goes after a character that is no consonant, or before four consonants (one or two further if that would part xn, nn or ny); C77 says that such a cut changes nothing.  The converse of C77 gives the lower bounds, C91 and C92 the texts for `to_katakana` and `to_hiragana`.
* C95 the same with C75: of three kana that may belong together in pairs the first is っ, and no kana fuses with a っ after it.
* C96 every key and its output are compared in bytes; changes of letter case and script keep the number of bytes.  Outside of ASCII a character has 2 bytes or more and its lower case 4 at most; İ gives い and a combining dot, 5 bytes of 6.
* C97 the loops with buffers write the same pieces one after another; C96 bounds their sum, and after two doublings there is room for four times the first capacity.
* C98 from the exact conditions for parts (C75, C77): a word that is kept as it is holds no vowel, so that only keys ending in n, an apostrophe or a space can go across its beginning, and every consonant begins a key; for the scripts one pair of texts (漢, ka) rules out every word.
* C99 induction over the pairs from the end; the table by the number of the bucket, which `insert` does not change.  The hash: multiplying by the odd FNV prime modulo 2^64 can be undone, and after two bytes the 65536 states differ in their upper 56 bits (computed), so that the third byte cannot make two of them equal.
* C100 as C90: what is left over of 50 comparisons per character depends only on the node at which the walk ends, checked for all pairs of nodes that can follow each other.  In `to_romaji` a vowel may cost half of what another character may, which pays for the lookup of the long mark it came from; checked for every key.
* C101 kana: a loop over the dictionary, the table without an entry lying under a table of the code.  Romaji: the thinned tree finds the same nodes except after っ, where it emits nothing and starts again at the root, whose subtree is the same; for a single entry the result does not depend on the library, so that one computation per entry decides.
* C102 kana: a text giving r begins with the first letter of r or with a casing of a key whose output begins r; the casings per output are counted by computation (44 for っ, at most 32 for any other letter, 36 for two, 76 for three), and the recurrence is below 45 per letter.  The 45 codes of っ are prefix-free, so that their products are different texts.  The number of texts for a result of `to_hiragana` and of `to_katakana` without `pass_romaji` is not treated (beyond the long marks after ン).
* C103 the cost of an arm is added to that of the next if its guard fails; guards are replaced by their booleans and the classes by their specifications, so that each character class is one line of arithmetic.  The counters stand at `is_char_in_range` and `is_match`; that `group_by` asks for the key of each element once, and that `any`, `all`, `&&`, `||` and `match` stop early, is assumed of Rust and itertools.
* C104 fewer do not suffice: along the walk, each key of the dictionary is as long as the cost of its output, whatever stands behind it (computed for all outputs and the letters that can be second of a pair); where n alone was typed, the letter behind it is no vowel or y, and the walk carries that the rest then costs no more with n than counted.  So many suffice: for each letter, pair, and っ with a letter or a pair a key of that length is found (computed), beginning with another letter than a vowel or y where ん may stand in front with one key.  ASCII only: a kana typed as itself would be one character.
* C105 the machine loops are followed step by step: a position is the image of a natural number not above the length, a lookup
  never counts more characters than are left, the shifts stay between U+3041 and U+30F6; conversely every checked sum that succeeds is at most `usize::MAX`.
* C106 a composed kana is in no key, so the kana conversion stops before and after it; for to_hiragana the loops over the two texts run in step, and how often a vowel stays a mark and a voicing is lost is counted: both numbers can be read off the result.  to_romaji keeps the number of combining marks, since no entry of the table has one.
* C107 an invariant of all reachable states: each running computation gives, with the final values of the statics, what it should; a thread holds exactly the statics that are marked as being made by it; an initialiser reads only statics of lower rank.  Each step lowers the number of readings and initialisations left by one; of the waiting threads, the one that waits for the lowest rank waits for a thread that can go on.
* C108 a combining mark is in no key and in no value, and both conversions restart at it: so the marks of the result stand exactly after the results of the parts before the marks of the text.  For to_romaji the only kana left in the result that take a mark are ゝ and ヽ, at which it restarts too.  Not covered: to_hiragana and to_katakana without pass_romaji, whose lower casing may write marks in another library.
* C109 the tokens of the katakana text are those of the text under the types with hiragana and katakana joined; the token at an end is the longest part there of one type, for either choice of types.
* C110 UTF-8 keeps the order of code points, so a function on characters keeps the order of texts exactly if it does so for two characters.
* C111 every sounded kana is a key, and the value of every key made of such kana is a syllable, a dash or nothing; the list of syllables is written in `SyllablesSpec.v` by rows, not read from the tree.  Conversely each listed syllable without v is the value of a key of hiragana; those of v depend on which of the five entries of ゔ the library finds.
* C112 a syllable without tch is cut into keys that stand for kana, no two y meet, and no key has t before c or at its end.  The text is followed back through the hiragana (`TchText.v`), where a mark ー after ッ writes nothing.
* C83 both ways of writing the text run in step; a long mark that is lost, ゕ or ヷ is noticed by counting such characters, う for お because the dictionary is symmetric in them.
* C84 a text that comes back has no upper case letter, x or l in a key, because no reading has one (counted); then key by key: the reading of the value is the key, or differs from it, or is longer by a vowel, or the key is n', nn or n with a space; in the last cases the two texts stay out of step to the end.
* C86 from C84: the texts that come back from one side are the conversions of those that come back from the other.
* C87 (`upcase_katakana` on) from C84 and C86 for the lower case text: the conversion to kana ignores the case but for the script of the result, and a text that comes back has as many marks as its kana, so no long mark becomes a vowel; then the pieces of the two texts are compared one by one.
* C85 decoding and encoding UTF-16 against a relation between code units and characters; C01-C03 and C54 for the conversions.

## 3. Trusted base

* Coq's kernel, including `vm_compute`.
* No axioms: `Print Assumptions` under every theorem in `Props_*.v` reports
  "Closed under the global context".  (`coqchk` on all files also lists axioms of
  `Coq.ssr.ssrunder`, loaded through Coq's standard library; no theorem depends on them.)
* The reading of the Rust code.  Every definition cites file and lines.
* The contract `std_ok` of the Rust standard library, field by field: `binary_search_by_key` on a
  sorted slice returns some matching index or none; ASCII letters have their usual upper and
  lower case; characters of the blocks U+2010..U+2027, U+3000..U+9FFF and the full-width signs
  among U+FF01..U+FF65 have no case, and no other character is lower-cased into them; lower-cased text has no upper-case ASCII letter;
  lower-casing leaves lower-cased characters alone and gives at least one character for each; outside ASCII only
  U+0130 (to i and U+0307) and U+212A (to k) have ASCII letters in their lower case; Σ becomes σ or ς; Ā Ē Ī Ō Ū become ā ē ī ō ū;
  lower-casing gives scalar values; ASCII letters are Cased and not Case_Ignorable.
* The transcription of the two trees and of the two JSON documents, made by `tools/gen_trees.py` and
  `tools/gen_upstream.py` from the source text.  C59 compares the two independent transcriptions.
* `Json.v`: the objects of serde_json 1.0 are `BTreeMap`s (feature `preserve_order` off).  Numbers are kept as spelled;
  the generators never look at one.
* `Debug.v`: the layout of `{:#?}` since Rust 1.37 (a comma after the last entry).  Which characters are
  printed as `\u{..}` depends on the Unicode version and is a parameter of C73.
* `Bindings.v`: what the generated glue does to strings.  wasm-bindgen decodes UTF-16 with U+FFFD for unpaired
  surrogates; neon's `value()` may do anything to these (a parameter of C85); both hand strings over as UTF-8.
* `Cost.v`: where the counters stand, and that `chars().nth(i)` walks over i + 1 characters.
* `Compare.v`: that a comparison is one call of the closure given to `find` or to the binary search.
* `Alloc.v`: where the buffers are written, that a buffer grows only if the next piece does not fit, and that collecting characters in a
  string first makes room for one byte each.  `amortized` is the growth of Rust 1.45 to 1.82.
* `Machine.v`: which sums and differences the code forms and in which type; that `enumerate` counts with the overflow checks of the crate
  (`rustc_inherit_overflow_checks`); that the length of a text is a number without bound, compared with positions in `usize`.
* `Threads.v`: that `lazy_static` 1.4 with `std::sync::Once` works as described there (one thread makes the value, others wait, a panic
  poisons), that a value made by one thread is seen complete by the others, and that between two readings a function touches only its own data.
* `RepoTests.v` guards the reading: all 450 assertions of the repository, and its loops over the two
  conversion tables, hold of the model (regexes being the character classes they denote).

Not modelled: the start-up code of the bindings, benches,
memory other than the buffers of C97, the inside of `lazy_static` and `Once`, the regex engine (an
arbitrary oracle), integers inside the standard library (those of this crate are in `Machine.v`), failing
writes to the standard output in the generators, and the inside of the standard hash map (a record of its laws in `HashMap.v`).

Simplifications: the sorting of a tree sorts the children first (same result); `chars()` of a string
is the list itself.

## 4. Findings

What the theorems with the suffix `_refuted` show of the code; each has a witness that is run
on the model.

| property | witness |
|---|---|
| C08 | `SHIN'YOU` gives シんヨウ: the node of `n'` is found, but the apostrophe is not upper case |
| C13 | `nyya` is not converted in one step: to_kana is not idempotent |
| C14 | with obsolete kana `wwi` gives っうぃ although `wi` gives ゐ |
| C17 | `‘カ` gives 「カ: the quote at the beginning decides the branch, katakana stays |
| C64 | `nyya` and `‘カ` also show that to_hiragana and to_katakana are not idempotent |
| C72 | `[ka` typed letter by letter through to_hiragana gives ［ka: ［ is neither kana nor romaji, so the text is no longer converted |
| C29 | ンーナあ: a long mark that disappears shifts the positions by which upper case is decided |
| C30, C53, C60 | ゔ romanises as vo, っゔ as vvo or vve depending on the Rust release, ヴァイオリン as voaiorin |
| C33 | まっちゃ gives matcha, which is read back as まtちゃ; ぢ, づ, ゐ, ゑ are read back differently |
| C39 | `is_*_with_whitelist` runs the regex on the whole input for every character |
| C44 | " 　" is not merged by the compact tokenizer |
| C47 | trimming ー。ー leaves the empty string |
| C48 | 食べル is trimmed to 食べ and then to 食: kana can be left, and trimming twice removes more |
| C75 | with upcase_katakana っアジ gives aJI although アジ gives AJI: っア is one key of the table and not all katakana |
| C76 | ー is punctuation for the tokenizer: コーヒー has the tokens コ, ー, ヒ, ー, whose romaji are ko-hi- and not koohii |
| C78 | `shin'you` has the tokens shin, ', you, which give しん'よう and not しんよう (exact condition proved) |
| C88, C89 | 漢字ka stays as it is, its token ka alone does not; Ж becomes ж in a text with romaji and kana; ‘ becomes 「 in such a text but stays alone (to_katakana only); ‘メン keeps its katakana, the token メン does not (exact conditions proved) |
| C79 | `nyya` is n and yya, both of which are keys, but is not converted: n waits for ny (exact condition proved); `xka` has no hiragana |
| C80 | the romaji of っ alone is empty, so that `is_romaji` rejects it; 「」『』 become curly quotes, which `is_romaji` rejects |
| C82 | `nyya` gives `nっや`, which is not stable (`んっや`); all other results of `to_kana` are |
| C93 | 漢nッヤ is not a result of `to_katakana`, though カnッヤ, 漢nッヤラ and nッヤ are; 「カ is a result of `to_hiragana` (of ‘カ), カ is not |
| C94 | in IME mode one n in front of nnn…na changes its end, however far away: んんな, んんんあ |
| C95 | カーーー…: another kana in front changes all vowels after it; with `upcase_katakana` a mark that disappears (ッー) moves the upper case of everything after it by one |
| C83 | らー has the romaji ra- but ラー has raa; コー is koo but its hiragana こう is kou (exact conditions proved) |
| C84 | matchi comes back unchanged although its kana is まtち; vu does not come back with the modelled releases (C70) |
| C91, C92 | the script conversions look at the whole text before they read it: 漢字ka + な gives 漢字カナ together and 漢字kaナ apart; かaΣ + b has another lower case apart; ラ + ーメンwo loses the length apart; ‘メ + ン keeps its katakana together only (exact conditions proved) |
| C90 | `input.chars().nth(index - 1)` in the loop of `katakana_to_hiragana` walks from the start of the text for every long mark: the work of `to_hiragana` and `to_romaji` grows with the square of the length for アーーーー… (exact sum proved); everything else is linear |
| C101 | 41 entries of the kana to romaji table are never needed (っあ, っな, っ。, ヷ …; 20 of them with `upcase_katakana`); っん looks like them but is needed: っんあ gives na and not n'a |
| C102 | a final っ is lost in romaji (あっっっ gives a) and every long mark after ン or ッ in hiragana (パンーー gives ぱん), silently |
| C103 | a Latin letter takes 37 range tests to tokenize, a kanji 17: romaji is tested last, after all Japanese classes.  The regex of a whitelist is run on the whole text once for every character outside the class, which is quadratic |
| C104 | with the obsolete kana wi gives ゐ but wwi still gives っうぃ: っうぃ is typed with as many keys as うぃ (whi) |
| C106 | decomposed text (NFD, U+3099 and U+309A) is Japanese but not kana: が romanises as ka and the mark, is_hiragana is false, detailed tokens split at every mark; ガー decomposed keeps its long mark in hiragana, and ヷ, which otherwise loses its voicing, keeps it |
| C108 | conversions do not keep composed text composed: ka with U+3099 gives か with U+3099 (not が), わ with U+3099 gives ワ with U+3099 (not ヷ), コー with U+3099 gives こう with U+3099, and ゝっ with U+3099 loses its っ in romaji and gives what should be ゞ |
| C109 | okurigana depend on the script: 食べル loses ル, and 食ベル, the same in katakana, loses ベル |
| C110 | a sorted list is not sorted any more after conversion: コク comes before コー but こく after こう; く before け but ku after ke |
| C112 | to_romaji writes matcha for まっちゃ, and to_kana reads that as まtちゃ: tch is the only spelling to_romaji writes for kana that to_kana does not read |

The cause of the ゔ entries (C58, C60): the romaji document has the keys "ゔぁ", "ゔぃ", "ゔぇ", "ゔぉ", and the
generator keeps `k.chars().next()`, so ゔ appears five times in the tree (and five times under っ), and a
binary search returns any one of them.  Every spelling with ゔ of the document is romanised wrongly,
and no other (C60).

Observed while reading, outside the model: the two bindings call `wana_kana::to_romaji::to_romaji` and so
on, but these modules are `pub(crate)` (`lib.rs`), and both bindings depend on the crate by path, so they
are not expected to compile as they are; C85 is about what their bodies say once the modules are public.

## 5. Wrong programs

`seeded/LOG.jsonl` has one line per deliberately wrong model: the definition edited, the edit, the
claim it breaks, the theorems that failed to build and those that were tightened because of it.
