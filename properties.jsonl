{"id": "C01", "title": "to_kana never panics or loops", "statement": "to_kana / to_kana_with_opt return a string for every input and every option combination: no slice or index goes out of bounds, no unwrap fails, and the scanning loop ends after at most one iteration per input character.", "quantifier": "every string, all 16 option combinations, every conforming std", "why_tests_cant": "the input space is infinite; tests and proptests only sample it", "anchors": ["src/to_kana.rs:to_kana_with_opt", "src/to_kana_node_tree.rs:Node::get", "src/utils/hiragana_to_katakana.rs:hiragana_to_katakana"]}
{"id": "C02", "title": "to_hiragana and to_katakana never panic", "statement": "to_hiragana(_with_opt) and to_katakana(_with_opt) return a string for every input and every option combination.", "quantifier": "every string, all option combinations, every conforming std", "why_tests_cant": "the input space is infinite; tests and proptests only sample it", "anchors": ["src/to_hiragana.rs:to_hiragana_with_opt", "src/to_katakana.rs:to_katakana_with_opt", "src/utils/katakana_to_hiragana.rs:katakana_to_hiragana_with_opt"]}
{"id": "C03", "title": "to_romaji never panics", "statement": "to_romaji(_with_opt) returns a string for every input and option; in particular the slice it takes of the ORIGINAL text at positions computed on the CONVERTED text is always in bounds.", "quantifier": "every string, all option combinations, every conforming std", "why_tests_cant": "the crash needs particular mixes of long dashes and kana (issue 13 and a proptest finding were such inputs); absence for all inputs needs a proof", "anchors": ["src/to_romaji.rs:to_romaji_with_opt", "src/to_romaji_node_tree.rs:Node::get"]}
{"id": "C04", "title": "trim_okurigana and get_chunk panic-freedom", "statement": "trim_okurigana(_with_opt) never panics for any arguments; get_chunk(text,start,end) panics exactly when the resolved start offset lies after the resolved end offset, and never on a non-boundary byte offset.", "quantifier": "every string / matcher / pair of indices", "why_tests_cant": "the input space is infinite; tests and proptests only sample it", "anchors": ["src/trim_okurigana.rs:trim_okurigana_with_opt", "src/utils/get_chunk.rs:get_chunk"]}
{"id": "C05", "title": "to_kana implements longest-viable-prefix dictionary substitution", "statement": "In every mode the result of to_kana is obtained by scanning left to right: take the longest run of characters which, ASCII-lowercased, is a prefix of some dictionary key; if that run is itself a key emit its kana (katakana if all characters of the run are upper case), otherwise copy one character and move on by one.", "quantifier": "every string, every mode (default, obsolete, IME)", "why_tests_cant": "the input space is infinite; tests and proptests only sample it", "anchors": ["src/to_kana.rs:to_kana_with_opt", "src/to_kana_node_tree.rs:TO_KANA_NODE_TREE", "src/to_kana_node_tree.rs:TO_KANA_NODE_TREE_OBSOLETE", "src/to_kana_node_tree.rs:TO_KANA_NODE_TREE_IMEMODE"]}
{"id": "C06", "title": "to_kana passes non-romaji through", "statement": "Characters that begin no dictionary key (kanji, kana, digits, full-width text, emoji, ...) are copied unchanged, in order, and act as boundaries: to_kana(x ++ [c] ++ y) = to_kana(x) ++ [c] ++ to_kana(y) whenever c occurs in no dictionary key; a string with no such convertible character is returned unchanged.", "quantifier": "every string", "why_tests_cant": "the input space is infinite; tests and proptests only sample it", "anchors": ["src/to_kana.rs:to_kana_with_opt"]}
{"id": "C07", "title": "case of a mora selects the script", "statement": "For every dictionary key that no longer key extends and every way of casing it, to_kana emits the hiragana text when at least one of its characters is not an upper-case letter and the katakana text when all are; whatever follows is converted independently.", "quantifier": "every dictionary key, every casing, every following text", "why_tests_cant": "the input space is infinite; tests and proptests only sample it", "anchors": ["src/to_kana.rs:to_kana_with_opt"]}
{"id": "C08", "title": "all-upper-case romaji gives katakana only", "statement": "to_kana of a text whose letters are all upper case produces no hiragana.", "quantifier": "every string without lower-case ASCII letters", "why_tests_cant": "the input space is infinite; tests and proptests only sample it", "anchors": ["src/to_kana.rs:to_kana_with_opt"]}
{"id": "C09", "title": "kana conversions never lengthen the text", "statement": "to_kana, and to_hiragana/to_katakana on ASCII-lowercasable text, return at most as many characters as the input has.", "quantifier": "every string, every option combination", "why_tests_cant": "the input space is infinite; tests and proptests only sample it", "anchors": ["src/to_kana.rs:to_kana_with_opt", "src/to_hiragana.rs", "src/to_katakana.rs"]}
{"id": "C10", "title": "use_obsolete_kana only affects wi and we", "statement": "If the input contains no letter w the option changes nothing; in the dictionary it changes exactly the entries wi -> ゐ and we -> ゑ.", "quantifier": "every string", "why_tests_cant": "the input space is infinite; tests and proptests only sample it", "anchors": ["src/to_kana_node_tree.rs:TO_KANA_NODE_TREE_OBSOLETE"]}
{"id": "C11", "title": "options that do not apply are ignored", "statement": "to_kana ignores pass_romaji and upcase_katakana, and ignores imemode when use_obsolete_kana is set; to_romaji ignores everything but upcase_katakana; with pass_romaji, to_hiragana and to_katakana ignore all other options.", "quantifier": "every string, all pairs of option records", "why_tests_cant": "the input space is infinite; tests and proptests only sample it", "anchors": ["src/options.rs:Options", "src/to_kana.rs", "src/to_romaji.rs", "src/to_hiragana.rs", "src/to_katakana.rs"]}
{"id": "C12", "title": "IME mode is incremental", "statement": "In IME mode, converting a text while it is being typed (reconverting the accumulated output after every keystroke or chunk) gives exactly the same text as converting the whole text once: to_kana_ime(to_kana_ime(a) ++ b) = to_kana_ime(a ++ b), hence typing keystroke by keystroke equals batch conversion, and IME conversion is idempotent.", "quantifier": "every string and every way of splitting it into keystroke histories", "why_tests_cant": "histories of any length and any split; interaction of raw leftovers with later text", "anchors": ["src/to_kana.rs:to_kana_with_opt", "src/to_kana_node_tree.rs:TO_KANA_NODE_TREE_IMEMODE", "src/options.rs:Options.imemode"]}
{"id": "C13", "title": "to_kana is idempotent in default mode", "statement": "Converting an already converted text changes nothing: to_kana(to_kana(s)) = to_kana(s).", "quantifier": "every string", "why_tests_cant": "the input space is infinite; tests and proptests only sample it", "anchors": ["src/to_kana.rs:to_kana"]}
{"id": "C14", "title": "a doubled consonant is a small tsu", "statement": "If a text starts with a dictionary syllable beginning with a geminable consonant c, then prefixing one more c prefixes exactly one っ to the conversion and changes nothing else.", "quantifier": "every geminable dictionary syllable and every following text", "why_tests_cant": "the input space is infinite; tests and proptests only sample it", "anchors": ["src/to_kana_node_tree.rs:TO_KANA_NODE_TREE"]}
{"id": "C15", "title": "rules for n", "statement": "In default mode n gives ん exactly when what follows is not an apostrophe, a vowel or y; n' always gives ん; in IME mode a final n is left as n, and nn, n' and n+space give one ん.", "quantifier": "every following text, every prefix that ends at a boundary", "why_tests_cant": "the input space is infinite; tests and proptests only sample it", "anchors": ["src/to_kana_node_tree.rs:TO_KANA_NODE_TREE", "src/to_kana_node_tree.rs:TO_KANA_NODE_TREE_IMEMODE"]}
{"id": "C16", "title": "to_katakana output contains no hiragana", "statement": "No character of to_katakana(_with_opt)(s) lies in U+3041..U+3096.", "quantifier": "every string, all options", "why_tests_cant": "the input space is infinite; tests and proptests only sample it", "anchors": ["src/to_katakana.rs:to_katakana_with_opt", "src/utils/hiragana_to_katakana.rs"]}
{"id": "C17", "title": "to_hiragana output contains no katakana", "statement": "No character of to_hiragana(s) is a katakana letter (other than the counter symbols ヵ ヶ).", "quantifier": "every string, all options", "why_tests_cant": "the input space is infinite; tests and proptests only sample it", "anchors": ["src/to_hiragana.rs:to_hiragana_with_opt"]}
{"id": "C18", "title": "to_hiragana and to_katakana ignore letter case", "statement": "For romaji or mixed text, changing the ASCII case of any letters does not change the result.", "quantifier": "every pair of romaji/mixed strings equal up to ASCII case", "why_tests_cant": "the input space is infinite; tests and proptests only sample it", "anchors": ["src/utils/romaji_to_hiragana.rs:romaji_to_hiragana", "src/to_hiragana.rs", "src/to_katakana.rs"]}
{"id": "C19", "title": "pass_romaji only touches kana", "statement": "With pass_romaji, to_katakana shifts exactly the hiragana letters and leaves every other character in place; to_hiragana leaves every non-katakana character in place (same characters, same order) and, absent long dashes, rewrites the text character by character.", "quantifier": "every string", "why_tests_cant": "the input space is infinite; tests and proptests only sample it", "anchors": ["src/to_hiragana.rs:to_hiragana_with_opt", "src/to_katakana.rs:to_katakana_with_opt"]}
{"id": "C20", "title": "hiragana <-> katakana round trip", "statement": "to_hiragana(to_katakana(h)) = h for hiragana text without ー, ゕ, ゖ; to_katakana(to_hiragana(k)) = k for katakana text without ー, ヷ, ヸ, ヹ, ヺ.", "quantifier": "every such string", "why_tests_cant": "the input space is infinite; tests and proptests only sample it", "anchors": ["src/utils/hiragana_to_katakana.rs", "src/utils/katakana_to_hiragana.rs"]}
{"id": "C21", "title": "already-converted text is a fixed point", "statement": "to_hiragana(s) = s if s is hiragana, to_katakana(s) = s if s is katakana, for every option record.", "quantifier": "every hiragana / katakana string (long dashes included)", "why_tests_cant": "the input space is infinite; tests and proptests only sample it", "anchors": ["src/to_hiragana.rs", "src/to_katakana.rs"]}
{"id": "C22", "title": "long vowel mark expansion in to_hiragana", "statement": "In a katakana word every ー that follows a syllable becomes the hiragana vowel of that syllable (う for o), for any number of marks and syllables.", "quantifier": "every sequence of katakana syllables with any number of marks after each", "why_tests_cant": "the input space is infinite; tests and proptests only sample it", "anchors": ["src/utils/katakana_to_hiragana.rs:katakana_to_hiragana_with_opt"]}
{"id": "C23", "title": "to_romaji computes Hepburn romanisation", "statement": "For every sequence of standard morae (syllables, geminates, ん) written in hiragana, to_romaji returns the Hepburn spelling, with n' before vowels and y and doubled (t before ch) consonants for っ.", "quantifier": "every finite sequence of morae", "why_tests_cant": "the input space is infinite; tests and proptests only sample it", "anchors": ["src/to_romaji.rs:to_romaji_with_opt", "src/to_romaji_node_tree.rs:TO_ROMAJI_NODE_TREE"]}
{"id": "C24", "title": "to_romaji of katakana with long marks", "statement": "For every sequence of katakana morae, each followed by any number of ー, to_romaji returns the Hepburn spelling with the vowel repeated once per mark.", "quantifier": "every finite sequence", "why_tests_cant": "the input space is infinite; tests and proptests only sample it", "anchors": ["src/to_romaji.rs", "src/utils/katakana_to_hiragana.rs"]}
{"id": "C25", "title": "romanisation does not depend on the kana script", "statement": "to_romaji(s) is unchanged when any of the (non ゕゖ) hiragana letters of s are replaced by the corresponding katakana, for text without ー.", "quantifier": "every pair of texts that differ only in kana script", "why_tests_cant": "the input space is infinite; tests and proptests only sample it", "anchors": ["src/to_romaji.rs", "src/utils/katakana_to_hiragana.rs"]}
{"id": "C26", "title": "kana text romanises completely", "statement": "For text made only of kana (other than ゕ ゖ ヵ ヶ) to_romaji returns pure ASCII.", "quantifier": "every kana string", "why_tests_cant": "the input space is infinite; tests and proptests only sample it", "anchors": ["src/to_romaji_node_tree.rs:TO_ROMAJI_NODE_TREE"]}
{"id": "C27", "title": "to_romaji passes non-Japanese through and is idempotent", "statement": "Text without kana and without Japanese punctuation is returned unchanged; to_romaji(to_romaji(s)) = to_romaji(s).", "quantifier": "every string, all options", "why_tests_cant": "the input space is infinite; tests and proptests only sample it", "anchors": ["src/to_romaji.rs"]}
{"id": "C28", "title": "upcase_katakana affects only letter case", "statement": "For every text the result with upcase_katakana equals the plain result up to ASCII case; it is the upper-cased plain result for all-katakana text and the plain result for text without katakana.", "quantifier": "every string", "why_tests_cant": "the input space is infinite; tests and proptests only sample it", "anchors": ["src/to_romaji.rs:to_romaji_with_opt", "src/options.rs:Options.upcase_katakana"]}
{"id": "C29", "title": "upcase_katakana upper-cases exactly the katakana parts", "statement": "With upcase_katakana, the romaji of a hiragana syllable is never upper-cased.", "quantifier": "every mixed kana string", "why_tests_cant": "needs the right combination of a swallowed long dash and a later script change", "anchors": ["src/to_romaji.rs:to_romaji_with_opt"]}
{"id": "C30", "title": "to_romaji is determined by its input and agrees with the vu/va/vi/ve/vo table", "statement": "The result of to_romaji is the same for every correct implementation of the standard library's binary search, and ゔ/ヴ romanise as vu.", "quantifier": "every string, every conforming std binary search", "why_tests_cant": "a test runs against one standard library only", "anchors": ["src/to_romaji_node_tree.rs:TO_ROMAJI_NODE_TREE", "src/to_romaji_node_tree.rs:Node::find_transition_node"]}
{"id": "C31", "title": "romaji length bound", "statement": "to_romaji returns at most 3 characters per input character.", "quantifier": "every string, all options", "why_tests_cant": "the input space is infinite; tests and proptests only sample it", "anchors": ["src/to_romaji.rs"]}
{"id": "C32", "title": "kana -> romaji -> kana round trip", "statement": "to_kana(to_romaji(s)) = s for every hiragana text made of the reversible morae; likewise to_katakana(to_romaji(k)) = k for katakana.", "quantifier": "every finite sequence of reversible morae", "why_tests_cant": "the input space is infinite; tests and proptests only sample it", "anchors": ["src/to_romaji.rs", "src/to_kana.rs"]}
{"id": "C33", "title": "the kana round trip holds for all standard Hepburn morae", "statement": "to_kana(to_romaji(s)) = s for every standard hiragana word.", "quantifier": "every sequence of standard morae", "why_tests_cant": "counter-examples need specific morae", "anchors": ["src/to_romaji.rs", "src/to_kana.rs"]}
{"id": "C34", "title": "romaji -> kana -> romaji round trip", "statement": "to_romaji(to_kana(r)) = r and to_romaji(to_katakana(r)) = r for every Hepburn spelling r of reversible morae.", "quantifier": "every finite sequence of reversible morae", "why_tests_cant": "the input space is infinite; tests and proptests only sample it", "anchors": ["src/to_romaji.rs", "src/to_kana.rs"]}
{"id": "C35", "title": "character classes are consistent", "statement": "hiragana or katakana <=> kana; kana, kanji, Japanese digits and Japanese punctuation are Japanese; no romaji character is Japanese; English and Japanese punctuation are disjoint; the only character both hiragana and katakana is ー.", "quantifier": "every Unicode scalar value", "why_tests_cant": "1.1 million characters times 14 predicates; no test enumerates them", "anchors": ["src/utils/*.rs", "src/constants.rs", "src/traits.rs:IsJapaneseChar"]}
{"id": "C36", "title": "string predicates quantify over characters", "statement": "is_hiragana, is_katakana, is_kana, is_kanji, is_romaji, is_japanese hold iff the text is non-empty and every character is in the class; contains_kanji iff some character is; each is a homomorphism on non-empty concatenations.", "quantifier": "every string and every split of it", "why_tests_cant": "the input space is infinite; tests and proptests only sample it", "anchors": ["src/is_hiragana.rs", "src/is_katakana.rs", "src/is_kana.rs", "src/is_kanji.rs", "src/is_romaji.rs", "src/is_japanese.rs"]}
{"id": "C37", "title": "implications between string predicates", "statement": "is_hiragana or is_katakana => is_kana => is_japanese; is_kanji => is_japanese and contains_kanji; is_romaji excludes is_japanese, is_kana, contains_kanji and is_mixed.", "quantifier": "every string", "why_tests_cant": "the input space is infinite; tests and proptests only sample it", "anchors": ["src/is_*.rs"]}
{"id": "C38", "title": "is_mixed", "statement": "is_mixed holds iff the text has a kana and a romaji character; with pass_kanji=false additionally no kanji; independent of order and multiplicity of characters.", "quantifier": "every string", "why_tests_cant": "the input space is infinite; tests and proptests only sample it", "anchors": ["src/is_mixed.rs:is_mixed_pass_kanji"]}
{"id": "C39", "title": "whitelist predicates", "statement": "is_japanese_with_whitelist / is_romaji_with_whitelist with None equal the plain predicates; with a regex they hold iff every character is in the class or matches the regex.", "quantifier": "every string and every regex", "why_tests_cant": "regexes and strings are unbounded", "anchors": ["src/is_japanese.rs:is_japanese_with_whitelist", "src/is_romaji.rs:is_romaji_with_whitelist"]}
{"id": "C40", "title": "tokenize is lossless", "statement": "Concatenating the tokens gives back the input, no token is empty, and the empty text has no tokens.", "quantifier": "every string, compact or not", "why_tests_cant": "the input space is infinite; tests and proptests only sample it", "anchors": ["src/tokenize.rs:tokenize_with_opt"]}
{"id": "C41", "title": "tokens are maximal single-type runs, uniquely determined", "statement": "All characters of a token have the token's type, adjacent tokens have different types, and any list of strings with these properties and the same concatenation equals the result.", "quantifier": "every string, compact or not, every candidate tokenisation", "why_tests_cant": "the input space is infinite; tests and proptests only sample it", "anchors": ["src/tokenize.rs:tokenize_detailed", "src/tokenize.rs:get_type"]}
{"id": "C42", "title": "tokenize and tokenize_detailed agree", "statement": "tokenize_with_opt is tokenize_detailed without the labels; each label is the type of every character of its token; tokenize = compact false.", "quantifier": "every string", "why_tests_cant": "the input space is infinite; tests and proptests only sample it", "anchors": ["src/tokenize.rs"]}
{"id": "C43", "title": "compact mode labels", "statement": "In compact mode only En, Ja and Other occur; in detailed mode no letter, digit or space is labelled inconsistently with the character predicates.", "quantifier": "every string", "why_tests_cant": "the input space is infinite; tests and proptests only sample it", "anchors": ["src/tokenize.rs:get_type"]}
{"id": "C44", "title": "compact tokens are unions of detailed tokens", "statement": "Compact tokenisation only merges tokens of the detailed tokenisation.", "quantifier": "every string", "why_tests_cant": "needs adjacent half- and full-width spaces", "anchors": ["src/tokenize.rs:get_type"]}
{"id": "C45", "title": "tokenize and concatenation", "statement": "tokenize(a ++ b) = tokenize(a) ++ tokenize(b) when the boundary characters differ in type, and otherwise merges exactly the last and first token; re-tokenising a token yields that token.", "quantifier": "every pair of strings", "why_tests_cant": "the input space is infinite; tests and proptests only sample it", "anchors": ["src/tokenize.rs"]}
{"id": "C46", "title": "trim_okurigana returns a part of its input", "statement": "The result is a prefix of the input (a suffix when trimming from the start), and what was removed is a whole number of copies of one token.", "quantifier": "every string, both directions, every matcher", "why_tests_cant": "the input space is infinite; tests and proptests only sample it", "anchors": ["src/trim_okurigana.rs:trim_okurigana_with_opt"]}
{"id": "C47", "title": "trim_okurigana without matcher removes exactly the last (first) token", "statement": "For Japanese text that ends (starts) with kana and is not all kana exactly the last (first) token of tokenize is removed; any other text is returned unchanged; the result is never empty for non-empty input.", "quantifier": "every string, both directions", "why_tests_cant": "the input space is infinite; tests and proptests only sample it", "anchors": ["src/trim_okurigana.rs:trim_okurigana_with_opt", "src/tokenize.rs"]}
{"id": "C48", "title": "trim_okurigana strips all trailing kana / is idempotent", "statement": "After trimming a text containing kanji no trailing kana is left, and trimming again changes nothing.", "quantifier": "every string", "why_tests_cant": "needs mixed-script okurigana", "anchors": ["src/trim_okurigana.rs:trim_okurigana"]}
{"id": "C49", "title": "matcher semantics", "statement": "An all-kanji or empty matcher leaves the text unchanged; otherwise the removed token is the last (first) token of the matcher; if the text does not end (start) with it, the text is unchanged.", "quantifier": "every text and matcher", "why_tests_cant": "the input space is infinite; tests and proptests only sample it", "anchors": ["src/trim_okurigana.rs:is_invalid_matcher", "src/trim_okurigana.rs:trim_okurigana_with_opt"]}
{"id": "C50", "title": "get_chunk returns the characters start..end", "statement": "If start <= end and start is a valid character position, get_chunk returns exactly characters start..min(end,len); the byte offsets it slices at are character boundaries.", "quantifier": "every string and indices", "why_tests_cant": "the input space is infinite; tests and proptests only sample it", "anchors": ["src/utils/get_chunk.rs:get_chunk"]}
{"id": "C51", "title": "command line tools", "statement": "to_kana/to_romaji print the conversion of the space-joined arguments plus a newline, or, without (non-empty) arguments, the conversion of standard input exactly; output is valid UTF-8; they fail exactly on invalid UTF-8 input.", "quantifier": "every argument vector and every stdin byte stream", "why_tests_cant": "the input space is infinite; tests and proptests only sample it", "anchors": ["src/bin/to_kana.rs", "src/bin/to_romaji.rs"]}
{"id": "C52", "title": "dictionary trees are well formed", "statement": "Both conversion trees are sorted at every node, so the binary search used by to_romaji finds a transition iff there is one; every kana node has distinct keys (in all three modes).", "quantifier": "every node and every character", "why_tests_cant": "exhaustive over all nodes and all characters", "anchors": ["src/to_kana_node_tree.rs:Node::sort", "src/to_romaji_node_tree.rs:Node::find_transition_node"]}
{"id": "C53", "title": "the romaji tree has one entry per key", "statement": "No node of the romaji tree has two transitions for the same character.", "quantifier": "every node", "why_tests_cant": "a lookup test sees only the entry the search happens to hit", "anchors": ["src/to_romaji_node_tree.rs:TO_ROMAJI_NODE_TREE"]}
{"id": "C54", "title": "converted text stays valid Unicode", "statement": "Every conversion maps valid Unicode text to valid Unicode text (no surrogates or out-of-range values are ever built by the code-point shifts).", "quantifier": "every string", "why_tests_cant": "the input space is infinite; tests and proptests only sample it", "anchors": ["src/utils/hiragana_to_katakana.rs", "src/utils/katakana_to_hiragana.rs"]}
{"id": "C55", "title": "to_romaji is hiragana conversion followed by longest-key substitution", "statement": "to_romaji writes the text in hiragana (long marks resolved) and then substitutes longest dictionary keys from left to right, upper-casing a piece iff upcase_katakana is set and the characters of the original at the same positions are all katakana; for text without ヴ and ゔ this determines the result.", "quantifier": "every string and every option", "why_tests_cant": "the input space is infinite; tests and proptests only sample it", "anchors": ["src/to_romaji.rs:to_romaji_with_opt", "src/utils/katakana_to_hiragana.rs"]}
{"id": "C56", "title": "letter predicates", "statement": "Digits, upper-case letters, ー, ・, vowels and consonants are recognised exactly; every lower-case letter other than y is exactly one of vowel and consonant, y is one of them when asked for, nothing else is either.", "quantifier": "every character", "why_tests_cant": "exhaustive over all characters", "anchors": ["src/utils/is_char_vowel.rs", "src/utils/is_char_consonant.rs", "src/utils/is_char_upper_case.rs", "src/utils/is_char_latin_number.rs"]}
{"id": "C57", "title": "kana table generator", "statement": "The generator of the kana table accepts exactly the documents made of objects with at most a string as text and panics on all others; the tree it prints has a node with a text at a character sequence iff the document has that text under keys beginning with these characters; transitions come out in ascending order.", "quantifier": "every JSON document of strings and objects", "why_tests_cant": "the input space is infinite; the repository has no tests for the generators", "anchors": ["upstream_conversions/src/bin/to_kana_tree.rs:get_transitions"]}
{"id": "C58", "title": "romaji table generator", "statement": "The generator of the romaji table accepts exactly the documents in which every value is an object with a string as text and panics on all others; its tree has a node with a text at a character sequence iff the document has that text under keys beginning with these characters; no empty transition lists, ascending order.", "quantifier": "every JSON document of strings and objects", "why_tests_cant": "the input space is infinite; the repository has no tests for the generators", "anchors": ["upstream_conversions/src/bin/to_romaji_tree.rs:get_transitions"]}
{"id": "C59", "title": "the trees are the generated ones", "statement": "The kana tree of the crate is exactly what the generator makes of its document; the romaji tree is the generated one plus the transitions for ヷ and ゎ.", "quantifier": "the whole tables", "why_tests_cant": "thousands of entries, never compared by a test", "anchors": ["upstream_conversions/src/bin/to_kana_tree.rs", "upstream_conversions/src/bin/to_romaji_tree.rs", "src/to_kana_node_tree.rs", "src/to_romaji_node_tree.rs"]}
{"id": "C60", "title": "the conversions follow the upstream tables", "statement": "to_kana writes every spelling of the upstream kana table, and to_romaji every spelling of the upstream romaji table, as the table says.", "quantifier": "every spelling of the tables", "why_tests_cant": "the documents live in another crate that the tests do not see", "anchors": ["upstream_conversions/src/bin/to_kana_tree.rs", "upstream_conversions/src/bin/to_romaji_tree.rs", "src/to_kana.rs", "src/to_romaji.rs"]}
{"id": "C61", "title": "to_hiragana described completely", "statement": "Without pass_romaji, to_hiragana converts mixed text by rewriting katakana and then converting the lower-cased text, romaji-only text and text beginning with English punctuation by converting the lower-cased text, and otherwise only rewrites katakana.", "quantifier": "every text, every combination of the other options, every conforming standard library", "why_tests_cant": "the branches depend on the whole text and interact with lower-casing and long marks", "anchors": ["src/to_hiragana.rs", "src/utils/romaji_to_hiragana.rs", "src/utils/katakana_to_hiragana.rs"]}
{"id": "C62", "title": "to_katakana described completely", "statement": "Without pass_romaji, to_katakana converts romaji-only and mixed text by converting the lower-cased text and shifting hiragana to katakana, and otherwise only shifts hiragana.", "quantifier": "every text, every combination of the other options, every conforming standard library", "why_tests_cant": "the branches depend on the whole text and interact with lower-casing", "anchors": ["src/to_katakana.rs", "src/utils/romaji_to_hiragana.rs", "src/utils/hiragana_to_katakana.rs"]}
{"id": "C63", "title": "the kana conversions do not depend on the Rust release", "statement": "to_kana, to_katakana and to_hiragana give the same result with any two conforming standard libraries; to_hiragana exactly unless a long mark lengthens ヴ in a text whose kana are converted.", "quantifier": "every text whose letter case is a matter of ASCII (to_kana: every text), any two conforming libraries", "why_tests_cant": "tests run with one compiler release", "anchors": ["src/to_kana.rs", "src/to_hiragana.rs", "src/to_katakana.rs"]}
{"id": "C64", "title": "to_hiragana and to_katakana are idempotent", "statement": "Converting the result again changes nothing.", "quantifier": "every text, every combination of options", "why_tests_cant": "left-over romaji in front of new kana changes the branch taken the second time", "anchors": ["src/to_hiragana.rs", "src/to_katakana.rs"]}
{"id": "C65", "title": "a text can be converted to kana in parts", "statement": "to_kana of a text is the concatenation of to_kana of two parts of it whenever no key goes across the boundary, in particular after every character that is not a consonant; for ASCII text also to_hiragana and to_katakana.", "quantifier": "every text, every boundary, every combination of options", "why_tests_cant": "the boundary can be anywhere, and what is lost or joined there depends on both sides", "anchors": ["src/to_kana.rs", "src/to_hiragana.rs", "src/to_katakana.rs"]}
{"id": "C66", "title": "a text can be romanised in parts", "statement": "to_romaji of a text is the concatenation of to_romaji of two parts of it whenever no dictionary key and no long mark goes across the boundary.", "quantifier": "every text, every boundary, every combination of options", "why_tests_cant": "the boundary can be anywhere, and the state carried over it (last vowel, mark, original text for upper case) is not visible in single examples", "anchors": ["src/to_romaji.rs", "src/utils/katakana_to_hiragana.rs"]}
{"id": "C67", "title": "which kana can be typed", "statement": "A text of kana is the result of to_kana for some ASCII text exactly if it contains none of ゕ, ゖ, ヷ, ヸ, ヹ, ヺ and, unless use_obsolete_kana is set, none of ゐ, ゑ, ヰ, ヱ.", "quantifier": "every text of hiragana, katakana, ー and ・, every combination of options", "why_tests_cant": "that a kana cannot be typed is a statement about all inputs", "anchors": ["src/to_kana.rs", "src/to_kana_node_tree.rs", "src/constants.rs"]}
{"id": "C68", "title": "the public methods do what is documented", "statement": "Each of the 26 methods of ConvertJapanese, IsJapaneseStr and IsJapaneseChar is the conversion or set of its name; methods without options behave as with all options off.", "quantifier": "every text and character, every combination of options, every regex", "why_tests_cant": "a method that forwards to the wrong function agrees with the right one on most examples", "anchors": ["src/traits.rs", "src/lib.rs"]}
{"id": "C69", "title": "which texts romanise differently in different Rust releases", "statement": "to_romaji gives the same result with the binary search of Rust 1.52 to 1.81 as with that of Rust 1.82 and later exactly if no small tsu comes before ゔ or ヴ.", "quantifier": "every text, every combination of options", "why_tests_cant": "tests run with one compiler release", "anchors": ["src/to_romaji_node_tree.rs", "src/to_romaji.rs"]}
{"id": "C70", "title": "a standard library is a choice of readings of ゔ", "statement": "For every conforming standard library there is one reading of ゔ and one of っゔ that determine to_romaji completely; the readings chosen by Rust 1.52 to 1.81 and by Rust 1.82 and later are vo, vve and vo, vvo.", "quantifier": "every conforming binary search, every text, every combination of options", "why_tests_cant": "the documentation allows any of the duplicates to be found; tests see the one release they run with", "anchors": ["src/to_romaji_node_tree.rs", "src/to_romaji.rs", "src/utils/katakana_to_hiragana.rs"]}
{"id": "C71", "title": "where the modes of to_kana differ", "statement": "IME mode gives another result than the default mode exactly if some n is read on its own without an apostrophe, a vowel or y after it, and use_obsolete_kana exactly if some wi or we is read on its own; IME mode and use_obsolete_kana give different results exactly if there is either; IME mode never gives the longer text.", "quantifier": "every text", "why_tests_cant": "tests compare the modes on chosen words", "anchors": ["src/to_kana.rs", "src/to_kana_node_tree.rs", "src/options.rs"]}
{"id": "C72", "title": "typing with to_hiragana and to_katakana", "statement": "In IME mode typing ASCII text through to_hiragana or to_katakana, converting what is shown together with every next keystroke or chunk, gives the conversion of the whole text.", "quantifier": "every ASCII text, every way to cut it into chunks", "why_tests_cant": "there are exponentially many ways to cut a text; the test suite types a few words letter by letter", "anchors": ["src/to_hiragana.rs", "src/to_katakana.rs", "src/to_kana.rs"]}
{"id": "C73", "title": "what the table generators print", "statement": "Each of the two generators prints its tree with one field, character or bracket per line, four spaces for every level and characters escaped as in Rust source, and panics exactly on documents it does not accept; the printed text determines the tree, whichever characters the library prints as numbers.", "quantifier": "every document made of strings and objects, every choice of characters to escape", "why_tests_cant": "the programs have no tests; nothing compares what they print with the tree they computed", "anchors": ["upstream_conversions/src/bin/to_kana_tree.rs", "upstream_conversions/src/bin/to_romaji_tree.rs"]}
{"id": "C74", "title": "texts with the same romaji", "statement": "Two texts standing for standard morae, in either script and with long marks, have the same romaji exactly if they are the same in hiragana up to じ/ぢ and ず/づ.", "quantifier": "every two texts of standard morae", "why_tests_cant": "the test suite compares single spellings and cannot show that no two different words collide", "anchors": ["src/to_romaji.rs", "src/utils/katakana_to_hiragana.rs", "src/to_romaji_node_tree.rs"]}
{"id": "C75", "title": "the romaji of a text and of its parts", "statement": "Romanising a text in parts gives the romaji of the text exactly if no long mark reaches back over the beginning of its part and no part begins with a kana that fuses with what stands before it (doubled consonants after っ, the apostrophe after ん, small ぃぇゃゅょ; after ゔ these only if the library reads ゔ as vu); with upcase_katakana also exactly if no part begins with katakana whose upper case is lost after hiragana っ.", "quantifier": "every list of non-empty parts (with upcase_katakana: in which no long mark of a part but the last disappears, as it does after ン and ッ), all options, every standard library", "why_tests_cant": "an exact condition over all ways to cut all texts", "anchors": ["src/to_romaji.rs", "src/utils/katakana_to_hiragana.rs", "src/to_romaji_node_tree.rs"]}
{"id": "C76", "title": "romanising token by token", "statement": "Romanising the tokens of a text one by one and joining the results gives the romaji of the text.", "quantifier": "every text, all options, detailed and compact tokens", "why_tests_cant": "the test suite never combines tokenize with a conversion", "anchors": ["src/tokenize.rs", "src/to_romaji.rs"]}
{"id": "C77", "title": "the kana of a text and of its parts", "statement": "Converting a text to kana in parts gives the kana of the text exactly if no key goes across the beginning of a part and no part goes on with an n that the text before it leaves open (not the n of xn, nor in IME mode the second n of a pair).", "quantifier": "every list of non-empty parts, every combination of options", "why_tests_cant": "an exact condition over all ways to cut all texts", "anchors": ["src/to_kana.rs", "src/to_kana_node_tree.rs"]}
{"id": "C78", "title": "converting to kana token by token", "statement": "Converting the tokens of a text to kana one by one and joining the results gives to_kana of the text exactly if no open n stands before an apostrophe or, in IME mode with detailed tokens, before a space.", "quantifier": "every text, detailed and compact tokens, every combination of options", "why_tests_cant": "the test suite never combines tokenize with a conversion", "anchors": ["src/tokenize.rs", "src/to_kana.rs"]}
{"id": "C79", "title": "texts that are converted to kana completely", "statement": "The kana of a text is all kana exactly if the text can be cut, in any way, into kana and keys that stand for kana, and has no nyy (outside of IME mode). Its katakana is all katakana exactly if it is all kana, or is romaji or mixed text whose lower case can be cut like that; its hiragana is all hiragana under the same condition (also for text with English punctuation in front) if the text has none of ・ ヵ ヶ and no key that stands for one of them. For ASCII text the lower case makes no difference.", "quantifier": "every text, every combination of options, every conforming standard library", "why_tests_cant": "an exact condition over all texts and all ways to cut them", "anchors": ["src/to_kana.rs", "src/to_kana_node_tree.rs", "src/to_hiragana.rs", "src/to_katakana.rs", "src/is_kana.rs"]}
{"id": "C80", "title": "texts that are romanised completely", "statement": "to_romaji gives pure romaji exactly if every character is romaji, a kana other than ゕ ゖ ヵ ヶ or one of the punctuation characters with an ASCII equivalent, and the text is not made of small tsu (and marks that lengthen them) only; it is empty exactly for those texts.", "quantifier": "every text, every combination of options, every conforming standard library", "why_tests_cant": "an exact condition over all texts; the test suite has a few samples", "anchors": ["src/to_romaji.rs", "src/to_romaji_node_tree.rs", "src/utils/katakana_to_hiragana.rs", "src/is_romaji.rs"]}
{"id": "C81", "title": "texts left as they are", "statement": "to_kana leaves a text as it is exactly if no key of the tree of the selected mode stands in it, except n in front of y. to_romaji leaves it as it is exactly if no character with a reading stands in it (kana other than ゕ ゖ ヵ ヶ, full-width punctuation and brackets). With pass_romaji, to_hiragana leaves exactly the texts without katakana letters (other than ヵ and ヶ), to_katakana exactly those without hiragana letters; without it, texts that are converted from romaji must moreover be in lower case and left alone by to_kana.", "quantifier": "every text, every combination of options, every conforming standard library", "why_tests_cant": "an exact condition over all texts; tests check single foreign words", "anchors": ["src/to_kana.rs", "src/to_romaji.rs", "src/to_hiragana.rs", "src/to_katakana.rs"]}
{"id": "C82", "title": "texts that are results", "statement": "A text is the result of to_kana for some text exactly if no key stands in it, except n in front of y or of っや, っい, っゆ, っよ and the same in katakana. It is the result of to_romaji for some text exactly if no character with a reading stands in it.", "quantifier": "every text, every combination of options, every conforming standard library", "why_tests_cant": "speaks of all results of all texts, in both directions", "anchors": ["src/to_kana.rs", "src/to_kana_node_tree.rs", "src/to_romaji.rs", "src/to_romaji_node_tree.rs"]}
{"id": "C83", "title": "one conversion after another", "statement": "For text without romaji (or any text with pass_romaji): writing it in katakana first changes neither its hiragana nor its romaji exactly if it contains neither ゕ nor ゖ and no ー after a hiragana letter (with nothing but ー, ・, ヵ, ヶ in between); writing it in hiragana first does not change its katakana exactly if it contains none of ヷ, ヸ, ヹ, ヺ and no ー that lengthens a katakana letter, and does not change its romaji exactly if no ー lengthens a letter of the o row (ヴ counting if the library reads it vo).", "quantifier": "every text, every combination of options (upcase_katakana off for the romaji), every conforming standard library", "why_tests_cant": "compositions of conversions over all texts, in both directions", "anchors": ["src/to_hiragana.rs", "src/to_katakana.rs", "src/to_romaji.rs", "src/utils/katakana_to_hiragana.rs", "src/utils/hiragana_to_katakana.rs"]}
{"id": "C84", "title": "there and back", "statement": "A text comes back unchanged from to_kana followed by to_romaji exactly if it consists of keys of the selected mode whose kana are romanised as that key (those beginning with ゔ or っゔ only if the library reads these vu and vvu), of n' for ん in front of such a key for a vowel, や, ゆ or よ, of n for ん in front of anything that does not continue n, and of characters that to_kana leaves over and that have no reading.", "quantifier": "every text, every combination of options (upcase_katakana off), every conforming standard library", "why_tests_cant": "an exact condition over all texts; tests go through kana and back for a few words", "anchors": ["src/to_kana.rs", "src/to_kana_node_tree.rs", "src/to_romaji.rs", "src/to_romaji_node_tree.rs"]}
{"id": "C85", "title": "bindings for JavaScript", "statement": "The functions that the wasm and the Node bindings export return the string with the characters that the library returns for the characters of their argument; surrogate pairs are one character, unpaired surrogates count as U+FFFD (wasm), and the strings returned are well formed. A Node call without a string throws. add is the sum of two u32 or, on overflow, panics or wraps around.", "quantifier": "every list of UTF-16 code units, every reading of ill-formed strings by neon, every conforming standard library", "why_tests_cant": "all strings of JavaScript, including ill-formed ones; the bindings have no tests", "anchors": ["wana_kana_wasm/src/lib.rs", "nodejs-bindings/native/src/lib.rs"]}
{"id": "C86", "title": "each other's conversions", "statement": "A text s is converted to t by to_romaji and t to s by to_kana exactly if the two can be read side by side: keys of the selected mode beside the kana that are romanised as that key, n' or n beside ん depending on what follows, and characters that both conversions leave alone. So a text comes back unchanged from to_romaji followed by to_kana exactly if there is a text it can be read beside.", "quantifier": "every two texts, every combination of options (upcase_katakana off), every conforming standard library", "why_tests_cant": "an exact condition over all texts; C32 only has the words of reversible morae", "anchors": ["src/to_kana.rs", "src/to_kana_node_tree.rs", "src/to_romaji.rs", "src/to_romaji_node_tree.rs"]}
{"id": "C87", "title": "each other's conversions with upcase_katakana", "statement": "With upcase_katakana on, a text s is converted to t by to_romaji and t to s by to_kana exactly if the two can be read side by side as in C86, where moreover keys wholly in upper case letters stand beside the katakana of what they stand for and N beside ン, and no long mark of s lengthens a vowel. Keys in mixed case, and n' or N' in front of upper case, never come back. So a text comes back unchanged, from either side, exactly if there is such a text beside it.", "quantifier": "every two texts, every combination of options with upcase_katakana on, every conforming standard library", "why_tests_cant": "an exact condition over all texts and casings; the tests have a few words", "anchors": ["src/to_kana.rs", "src/to_kana_node_tree.rs", "src/to_romaji.rs", "src/to_romaji_node_tree.rs"]}
{"id": "C88", "title": "to_katakana token by token", "statement": "Converting the detailed tokens of a text to katakana one by one and joining the results gives the katakana of the text exactly in these cases: with pass_romaji always; for romaji or text that mixes romaji and kana if no n that begins a key stands before an apostrophe (IME mode: or a space), nothing but romaji has upper case and there is no curly quote; for other text if its tokens of romaji are in lower case and contain nothing that would be converted.", "quantifier": "every text, every combination of options, every conforming standard library", "why_tests_cant": "an exact condition over all texts", "anchors": ["src/to_katakana.rs", "src/tokenize.rs", "src/to_kana.rs"]}
{"id": "C89", "title": "to_hiragana token by token", "statement": "Converting the detailed tokens of a text to hiragana one by one and joining the results gives the hiragana of the text exactly in these cases: with pass_romaji if no long mark lengthens a letter; for mixed text if moreover no n that begins a key stands before an apostrophe (IME mode: or a space) and nothing but romaji has upper case; for romaji or text that starts with English punctuation if the latter two hold and there is no katakana but ヵ ヶ; for other text if no long mark lengthens a letter and the tokens of romaji or with punctuation in front are in lower case and contain nothing that would be converted.", "quantifier": "every text, every combination of options, every conforming standard library", "why_tests_cant": "an exact condition over all texts", "anchors": ["src/to_hiragana.rs", "src/tokenize.rs", "src/to_kana.rs", "src/utils/katakana_to_hiragana.rs"]}
{"id": "C90", "title": "work done by the conversions", "statement": "The number of calls of find_transition_node is linear in the length n of the text: at least n and at most 3.5 n in to_kana, between n and 3 n in to_romaji, at most 4.5 n in to_hiragana and 3.5 n in to_katakana (where lower-casing does not lengthen the text). The characters walked over by chars().nth in katakana_to_hiragana are the sum of the positions of the long marks that lengthen a letter: at most n(n-1)/2, none exactly if there is no such mark. The bounds are reached: cchy repeated takes 3.5 lookups per character, a letter and m long marks walk over m(m+1)/2 characters.", "quantifier": "every text, every combination of options, every conforming standard library", "why_tests_cant": "a bound on the work over texts of every length", "anchors": ["src/to_kana.rs", "src/to_kana_node_tree.rs", "src/to_romaji.rs", "src/to_romaji_node_tree.rs", "src/utils/katakana_to_hiragana.rs", "src/to_hiragana.rs", "src/to_katakana.rs"]}
{"id": "C91", "title": "to_katakana in parts", "statement": "A text cut into any non-empty parts is converted to katakana as the parts are, joined, exactly in these cases: with pass_romaji always; if the whole text is romaji or mixes romaji and kana: lower-casing the parts gives the lower case of the text, no key goes over the end of a part that is itself romaji or mixed, and the other parts have no upper case letter and no place where a key begins (but n before y); for any other text: its parts of romaji are in lower case and contain nothing that would be converted.", "quantifier": "every list of non-empty texts, every combination of options, every conforming standard library", "why_tests_cant": "an exact condition over all texts and all ways to cut them", "anchors": ["src/to_katakana.rs", "src/to_kana.rs", "src/utils/hiragana_to_katakana.rs", "src/is_mixed.rs"]}
{"id": "C92", "title": "to_hiragana in parts", "statement": "A text cut into any non-empty parts is converted to hiragana as the parts are, joined, exactly in these cases: with pass_romaji if no long mark of a part lengthens a letter of an earlier part; for mixed text if moreover the parts that are not mixed but romaji or with English punctuation in front have no katakana but ヵ ヶ, and the hiragana of the parts fulfils the conditions of C91 for text that is read; for romaji or text with English punctuation in front if the parts that are neither have no katakana but ヵ ヶ and the conditions of C91 hold; for any other text if no long mark goes back over a boundary and the parts that are romaji or begin with punctuation are in lower case and contain nothing that would be converted.", "quantifier": "every list of non-empty texts, every combination of options, every conforming standard library", "why_tests_cant": "an exact condition over all texts and all ways to cut them", "anchors": ["src/to_hiragana.rs", "src/to_kana.rs", "src/utils/katakana_to_hiragana.rs", "src/is_mixed.rs"]}
{"id": "C93", "title": "texts that are results of to_katakana and to_hiragana", "statement": "With pass_romaji a text is the result of to_katakana for some text exactly if it has no hiragana letter, and of to_hiragana exactly if it has no katakana letter but ヵ and ヶ. Without it a text that is romaji or mixes romaji and kana must moreover be in lower case, be a result of to_kana, and (except in IME mode) have a kana other than っや, っい, っゆ, っよ after n, or else consist of romaji and of the Japanese punctuation that ASCII punctuation becomes; for to_hiragana this also concerns texts with English punctuation in front, and beginning with English punctuation or what it becomes is also enough. A text with katakana other than ヵ ヶ is a result of to_hiragana for a text of ASCII and caseless characters exactly if it begins with one of 「」『』 and consists of caseless characters other than ‘’“”.", "quantifier": "every text, every combination of options, every conforming standard library", "why_tests_cant": "speaks of all results of all texts, in both directions", "anchors": ["src/to_katakana.rs", "src/to_hiragana.rs", "src/to_kana.rs", "src/is_mixed.rs"]}
{"id": "C94", "title": "a change in a text changes its kana only nearby", "statement": "Every pair of texts x, y can be cut (x = q t, y = p r, with at most 4 characters in t and in p; in IME mode p may begin with any number of n) such that for every text w put between them to_kana(x w y) = to_kana(q) to_kana(t w p) to_kana(r). The number 4 is the least possible on both sides in every mode, and in IME mode there is no bound on the number of n. For to_katakana and to_hiragana without pass_romaji there is no bound at all: one character in front can decide whether romaji arbitrarily far behind is converted.", "quantifier": "all texts x, y and all texts w between them, every combination of options, every conforming standard library", "why_tests_cant": "one cut has to serve for infinitely many texts in between", "anchors": ["src/to_kana.rs", "src/to_kana_node_tree.rs", "src/to_katakana.rs", "src/to_hiragana.rs"]}
{"id": "C95", "title": "a change in a text changes its romaji only nearby", "statement": "Without upcase_katakana every pair of texts x, y can be cut (x = q t, y = p r, with at most 3 characters in t and 2 in p, not counting ー ・ ヵ ヶ) such that for every text w put between them to_romaji(x w y) = to_romaji(q) to_romaji(t w p) to_romaji(r). These numbers are the least possible, and there is no bound on the number of long marks on either side. With upcase_katakana there is no such bound: a long mark that disappears shifts the upper case in all the rest of the text.", "quantifier": "all texts x, y and all texts w between them, every conforming standard library (whatever its binary search finds for ゔ)", "why_tests_cant": "one cut has to serve for infinitely many texts in between", "anchors": ["src/to_romaji.rs", "src/utils/katakana_to_hiragana.rs", "src/to_romaji_node_tree.rs"]}
{"id": "C96", "title": "lengths in bytes", "statement": "The UTF-8 text given by to_romaji is never longer in bytes than its input, so that the capacity reserved in advance is always enough. to_kana gives at most three times and at least three quarters of the bytes. to_hiragana and to_katakana give at most three times the bytes, to_katakana also at least three quarters if only ASCII characters of the text have letter case. None of these bounds can be lowered, however long the text is; for to_hiragana there is no lower bound.", "quantifier": "all texts, every combination of options, every conforming standard library in which only İ has a lower case of more than one character", "why_tests_cant": "bounds on the length over texts of any length, with characters of one to four bytes", "anchors": ["src/to_romaji.rs", "src/to_kana.rs", "src/to_hiragana.rs", "src/to_katakana.rs"]}
{"id": "C97", "title": "reserved capacities and growing buffers", "statement": "The string in which to_romaji reserves the length of its input, and the vector in which katakana_to_hiragana reserves the number of characters, are never made larger, whatever the growth policy. If a buffer at least doubles when it is made larger, the string of to_kana (which reserves the length of its input) is made larger at most twice, at most once if the result has at most twice the bytes of the input, and not at all exactly if it has no more bytes; collecting the characters of katakana_to_hiragana and hiragana_to_katakana makes the string larger at most twice after the first allocation. The vector of hiragana_to_katakana, which reserves nothing, has room for 4, 8, 16, ... characters.", "quantifier": "all texts, every combination of options, every growth policy (at least doubling where stated), every conforming standard library", "why_tests_cant": "allocations cannot be seen in the results, and the bound has to hold for texts of any length", "anchors": ["src/to_romaji.rs", "src/to_kana.rs", "src/utils/katakana_to_hiragana.rs", "src/utils/hiragana_to_katakana.rs"]}
{"id": "C98", "title": "words that separate the conversion of a text", "statement": "Exactly which words w satisfy f(x w y) = f(x) w f(y) for all texts x and y: for to_kana the non-empty words in which no key stands (except n in front of y), which do not end with a consonant and do not begin with n, an apostrophe or y (in IME mode: n, an apostrophe or a space); for to_romaji the words in which no character with a reading stands and some character other than ヵ and ヶ does, and no word at all with upcase_katakana; with pass_romaji for to_katakana the words without hiragana, for to_hiragana the words without katakana other than ヵ and ヶ in which some character other than ・, ヵ and ヶ comes before the first long mark; without pass_romaji no word at all for to_katakana and to_hiragana.", "quantifier": "all words w, all texts x and y around them, every combination of options, every conforming standard library", "why_tests_cant": "a word separates only if it does so between all texts, and the property says so for exactly these words", "anchors": ["src/to_kana.rs", "src/to_romaji.rs", "src/to_katakana.rs", "src/to_hiragana.rs", "src/utils/katakana_to_hiragana.rs"]}
{"id": "C99", "title": "the map built by hashmap!", "statement": "A map written with hashmap! has for every key the value of the last pair with this key, and no value for any other key; it has at most as many keys as the capacity it reserves; with different keys the order of the pairs does not matter. LONG_VOWELS built so has exactly a, i, u, e, o with あ, い, う, え, う. This holds for every hash map that keeps the documented laws of with_capacity, insert and get; a table of buckets keeps them with every hash function. No two characters have the same hash under FNV-1a.", "quantifier": "all lists of pairs, all keys, every lawful hash map, every hash function", "why_tests_cant": "a test uses one hash function and a few keys; the property is about all keys and all implementations of the map", "anchors": ["src/utils/hashmap_macro.rs", "src/utils/katakana_to_hiragana.rs"]}
{"id": "C100", "title": "comparisons inside the lookups", "statement": "to_kana, which searches the letters of a node one by one, makes at most 50 comparisons for each character and 44 for one that begins no key; at least one for each character, exactly one only in texts of exclamation marks. A binary search among n keys makes at most 1 + log2 n comparisons (Rust 1.52; that many for a key smaller than all) or exactly 1 + log2 n rounded up (Rust 1.82). to_romaji makes at least one (Rust 1.52; one each only in texts of は and ハ) or six (Rust 1.82) and at most 14 or 16 comparisons per character. Each long mark that lengthens a letter costs eight comparisons (Rust 1.82) or one to seven (Rust 1.52) more than the vowel written as hiragana. The bounds are reached: m + 2 times z takes 50 m + 81, m + 1 times っ takes 14 m + 7 and 16 m + 8, m times きゃ takes 12 m in Rust 1.82.", "quantifier": "all texts, every combination of options, every conforming standard library (with either binary search), all lists of keys", "why_tests_cant": "a bound on the work for all texts, with the texts that reach it", "anchors": ["src/to_kana_node_tree.rs", "src/to_romaji_node_tree.rs", "src/to_kana.rs", "src/to_romaji.rs", "src/utils/katakana_to_hiragana.rs"]}
{"id": "C101", "title": "which entries of the tables are needed", "statement": "No entry of the romaji to kana tables can be dropped: without it its own key is converted differently. Of the entries of the kana to romaji table (ゔ left out) exactly those can be dropped, alone or together, that begin with っ and one of 　、。「」『』〜・ー！（）：？［］｛｝ or, unless katakana is upper-cased, one of ぁあぃいぅうぇえぉおなにぬねのゃやゅゆょよ, and ヷ, which is never looked up.", "quantifier": "all keys of all tables, all sets of entries behind っ, all texts (without ゔ and ヴ for romaji), every combination of options, every conforming standard library", "why_tests_cant": "that an entry is not needed is a statement about all texts", "anchors": ["src/to_kana_node_tree.rs", "src/to_romaji_node_tree.rs", "src/to_kana.rs", "src/to_romaji.rs", "src/utils/katakana_to_hiragana.rs"]}
{"id": "C102", "title": "how many texts have the same result", "statement": "Every text is the to_kana of finitely many texts, at most 45 to the power of its length; of exactly that many if and only if it consists of っ only. The to_romaji of a text does not change when any number of っ is added at its end, so every result has infinitely many texts. to_hiragana loses any number of long marks after a final ン. With pass_romaji a text is a result of to_katakana if and only if it has no hiragana letter, then of at most 2 to the power of its length texts, of exactly that many if and only if it consists of katakana letters (ァ to ヶ).", "quantifier": "all texts, every combination of options, every conforming standard library", "why_tests_cant": "a count of all inputs with a given output", "anchors": ["src/to_kana.rs", "src/to_kana_node_tree.rs", "src/to_romaji.rs", "src/to_hiragana.rs", "src/to_katakana.rs", "src/utils/katakana_to_hiragana.rs"]}
{"id": "C103", "title": "range tests of the predicates, the tokenizer and trimming", "statement": "Counting the calls of is_char_in_range: tokenizing a text of n characters makes at most 42 n (39 n with compact tokens), exactly that many if and only if no character is Japanese or English punctuation and none but Ū and ū is romaji, none if and only if there are only spaces; 37 n for Latin letters, 17 n for kanji, 18 n for hiragana, 19 n for katakana. The predicates on texts make at most 1, 2, 6, 8, 9 or 17 per character and stop at the first character that decides; is_hiragana exactly one on every hiragana but ー and none on ー. With a whitelist the regex is run on the whole text once for every character outside the class if it matches, else at most once. Trimming makes at most 37 n + 4, the choice of branch in to_katakana 8 n + 6 and in to_hiragana 8 n + 12, both reached for every n.", "quantifier": "all texts, all regexes, every combination of options", "why_tests_cant": "bounds over all texts, and which texts reach them", "anchors": ["src/tokenize.rs", "src/trim_okurigana.rs", "src/is_mixed.rs", "src/is_japanese.rs", "src/is_romaji.rs", "src/is_kana.rs", "src/is_kanji.rs", "src/to_katakana.rs", "src/to_hiragana.rs", "src/utils/is_char_in_range.rs"]}
{"id": "C104", "title": "the fewest keystrokes for a kana text", "statement": "For every text of kana (all but ゕゖヷヸヹヺ, ゐゑヰヱ only with the obsolete kana) and of ー・、。〜！（）：？［］｛｝, the fewest ASCII characters that to_kana turns into it are a sum over its characters: one for a vowel, two for most kana, three for ゃゅょゎヵヶ; two kana of a listed pair are typed together with two or three; っ takes one key in front of a kana beginning with a consonant, three elsewhere; ん takes one unless a kana beginning with a vowel or y (as typed) follows, and two in IME mode. Both that so many suffice and that fewer do not. The same for hiragana with to_hiragana and for katakana with to_katakana. The number is between the length of the text and three times that, and both are reached for every length.", "quantifier": "all such texts, all ASCII texts, every combination of options", "why_tests_cant": "a minimum over all ASCII texts", "anchors": ["src/to_kana.rs", "src/to_romaji_node_tree.rs"]}
{"id": "C105", "title": "no integer overflow; debug and release builds agree", "statement": "Every addition, subtraction and cast in the conversions (usize positions and counters, i32 code points) stays in its type: with machine integers of any word size, in a build with overflow checks and in one that wraps, hiragana_to_katakana gives what it gives with unbounded numbers, and so do katakana_to_hiragana, to_kana and to_romaji on every text of at most usize::MAX characters, and to_hiragana and to_katakana if its lower case fits too. A build with overflow checks returns from to_kana and to_romaji exactly on the texts of at most usize::MAX characters.", "quantifier": "all texts, all options, every usize::MAX, both builds, every conforming library", "why_tests_cant": "texts of usize::MAX characters cannot be tested, and tests run in one build and one word size", "anchors": ["src/to_kana.rs", "src/to_romaji.rs", "src/utils/katakana_to_hiragana.rs", "src/utils/hiragana_to_katakana.rs", "src/to_kana_node_tree.rs", "src/to_romaji_node_tree.rs"]}
{"id": "C106", "title": "kana written with combining voicing marks", "statement": "A text and its decomposition (か followed by U+3099 for が, as in Unicode NFD) are treated alike by to_kana, to_katakana, hiragana_to_katakana, is_romaji, is_japanese, is_kanji, contains_kanji, is_mixed and compact tokens: the results have the same decomposition. to_hiragana does so exactly if no long mark lengthens a voiced katakana and ヷヸヹヺ do not occur (or it leaves the katakana); to_romaji, is_hiragana, is_katakana and is_kana exactly if there is nothing to decompose; detailed tokens exactly if nothing but ゞ and ヾ is decomposed.", "quantifier": "all texts, all options, every conforming library (to_hiragana and to_katakana without pass_romaji: texts without capital sigma)", "why_tests_cant": "the repository's tests have no combining mark at all, and where the two forms differ depends on neighbouring characters and on the whole text", "anchors": ["src/to_hiragana.rs", "src/to_katakana.rs", "src/to_romaji.rs", "src/to_kana.rs", "src/tokenize.rs", "src/utils/katakana_to_hiragana.rs", "src/constants.rs"]}
{"id": "C107", "title": "calls from several threads", "statement": "However the steps of any number of threads are interleaved, each calling any conversions, predicates, tokenizers and trimmings with no static initialised in the beginning: every call gives what it gives in one thread alone, no static is initialised twice and none is poisoned, the threads never wait for each other in a circle, and no schedule goes on for ever. All complete schedules take the same number of steps and initialise the same statics, namely those that some thread alone would initialise.", "quantifier": "all numbers of threads, all calls, all schedules, every library", "why_tests_cant": "schedules cannot be enumerated by tests, and the tests of a crate share their process, so that most run with the statics already initialised", "anchors": ["src/to_kana_node_tree.rs", "src/to_romaji_node_tree.rs", "src/constants.rs", "src/utils/katakana_to_hiragana.rs"]}
{"id": "C108", "title": "text in composed form (NFC) after conversion", "statement": "The result of to_kana, and of katakana_to_hiragana (to_hiragana with pass_romaji), is in composed form exactly if no combining voicing mark of the text follows a part whose own result ends in a kana the mark could be joined to; hiragana_to_katakana gives text in composed form exactly for text in composed form in which わ, ゐ, ゑ and を carry no voicing mark; to_romaji does exactly if no voicing mark follows an iteration mark ゝ or ヽ, directly or after a part that to_romaji drops altogether (such as っ). So composed text can become text that a normalising system changes: ka and U+3099 give か and U+3099.", "quantifier": "all texts, all options of to_kana and to_romaji, every library", "why_tests_cant": "the marks are combining characters outside the test tables, and the condition is about all positions of all texts", "anchors": ["src/to_kana.rs", "src/utils/katakana_to_hiragana.rs", "src/utils/hiragana_to_katakana.rs", "src/to_romaji.rs"]}
{"id": "C109", "title": "tokens and okurigana of a text written in katakana", "statement": "hiragana_to_katakana keeps the compact tokens and their types. It keeps the detailed tokens exactly if hiragana and katakana letters are nowhere next to each other in the text. Trimming okurigana (at either end, without matcher) before or after writing the text in katakana gives the same exactly if trimming does nothing or the kana letters at that end are of one script. With a matcher, also written in katakana, it gives the same if neither text nor matcher has katakana letters.", "quantifier": "all texts, both ends", "why_tests_cant": "the condition is about all neighbouring characters of arbitrary texts; the tests convert no tokens and trim no text in both scripts", "anchors": ["src/tokenize.rs", "src/trim_okurigana.rs", "src/utils/hiragana_to_katakana.rs"]}
{"id": "C110", "title": "the order of converted texts", "statement": "In the order of Rust's strings (byte by byte): hiragana_to_katakana keeps the order of all texts written with given characters exactly if none of them lies, after U+3096, between a given hiragana letter and its katakana, that katakana included; so it does for hiragana letters, kanji and ー together, but not with ゝ or with katakana. katakana_to_hiragana keeps the order of texts of the letters ァ to ヴ. With ー, and in to_romaji and to_kana, the order is not kept.", "quantifier": "all texts, all sets of characters, every conforming library", "why_tests_cant": "the claim is about all pairs of texts over all alphabets; the tests never compare results with each other", "anchors": ["src/utils/hiragana_to_katakana.rs", "src/utils/katakana_to_hiragana.rs", "src/to_romaji.rs", "src/to_kana.rs"]}
{"id": "C111", "title": "romanised kana falls into syllables", "statement": "The romaji of every text made of kana letters other than ゕ, ゖ, ヵ and ヶ and of the mark ー, in any order, is a sequence of Hepburn syllables (plain or with the first consonant doubled, tch for a doubled ch, n, and n' before vowels and y) and of dashes; with upcase_katakana this holds of its text in small letters, and without the option the text has no capital letter. Each of these syllables is the romaji of some kana, but for those beginning with v, which depend on the library.", "quantifier": "all texts of such kana, all options, every library", "why_tests_cant": "the tests cover words and single kana; the claim is about every sequence of kana, including small kana and っ in places where no word has them", "anchors": ["src/to_romaji.rs", "src/to_romaji_node_tree.rs"]}
{"id": "C112", "title": "romanised kana typed back", "statement": "Outside of IME mode, the romaji of a text of kana letters (other than ゕ, ゖ, ヵ and ヶ) and marks ー is turned into kana altogether by to_kana exactly if the text is not made of っ only (and marks lengthening ッ) and has no small tsu before chi, in either script, marks ー after ッ between them not counting; these are the texts whose romaji contains tch, the only spelling to_romaji writes for kana that to_kana cannot read.", "quantifier": "all texts of such kana, all options of to_romaji, all options of to_kana outside of IME mode, every library", "why_tests_cant": "the claim is about every sequence of kana, and the tests never type back what was romanised", "anchors": ["src/to_romaji.rs", "src/to_kana.rs", "src/to_kana_node_tree.rs", "src/to_romaji_node_tree.rs"]}
