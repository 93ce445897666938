{"claims":[
{"property": "C01", "status": "proved", "theorems": ["C01_to_kana_total"], "note": ""},
{"property": "C02", "status": "proved", "theorems": ["C02_script_conversions_total"], "note": ""},
{"property": "C03", "status": "proved", "theorems": ["C03_to_romaji_total"], "note": ""},
{"property": "C04", "status": "proved", "theorems": ["C04_trim_and_chunk"], "note": ""},
{"property": "C05", "status": "proved", "theorems": ["C05_to_kana_converts"], "note": ""},
{"property": "C06", "status": "proved", "theorems": ["C06_foreign_text"], "note": ""},
{"property": "C07", "status": "proved", "theorems": ["C07_case_selects_script"], "note": ""},
{"property": "C08", "status": "partial", "theorems": ["C08_upper_case_text_partial", "C08_upper_case_text_refuted"], "note": "Proved: the only hiragana given is ん, and exactly the texts in which N' (in IME mode also N and a space) is read as n' give it; for those the claim is false (SHIN'YOU gives シんヨウ), witness in the _refuted theorem."},
{"property": "C09", "status": "proved", "theorems": ["C09_never_longer"], "note": ""},
{"property": "C10", "status": "proved", "theorems": ["C10_obsolete_kana"], "note": ""},
{"property": "C11", "status": "proved", "theorems": ["C11_irrelevant_options"], "note": ""},
{"property": "C12", "status": "proved", "theorems": ["C12_ime_incremental"], "note": ""},
{"property": "C13", "status": "partial", "theorems": ["C13_idempotent_partial", "C13_idempotent_refuted"], "note": "Proved: the texts on which the conversion is idempotent, exactly (all in IME mode, otherwise those without nyya and the like); the second conversion reaches a fixed point and changes nothing but left-over n, exactly as described by second_pass. False for nyya, witness in the _refuted theorem."},
{"property": "C14", "status": "partial", "theorems": ["C14_doubled_consonant_partial", "C14_obsolete_wwi_refuted"], "note": "Proved in every mode, exactly except for wi and we in obsolete mode, where wwi gives っうぃ (refuted)."},
{"property": "C15", "status": "proved", "theorems": ["C15_rules_for_n"], "note": ""},
{"property": "C16", "status": "proved", "theorems": ["C16_to_katakana_no_hiragana"], "note": ""},
{"property": "C17", "status": "partial", "theorems": ["C17_to_hiragana_no_katakana_partial", "C17_to_hiragana_no_katakana_refuted"], "note": "Proved: exactly the texts that begin with a typographic quote, contain katakana and are not mixed with romaji leave katakana; false for those (‘カ), witness in the _refuted theorem."},
{"property": "C18", "status": "proved", "theorems": ["C18_letter_case_ignored"], "note": ""},
{"property": "C19", "status": "proved", "theorems": ["C19_pass_romaji"], "note": ""},
{"property": "C20", "status": "proved", "theorems": ["C20_round_trip"], "note": ""},
{"property": "C21", "status": "proved", "theorems": ["C21_fixed_points"], "note": ""},
{"property": "C22", "status": "proved", "theorems": ["C22_long_marks"], "note": ""},
{"property": "C23", "status": "proved", "theorems": ["C23_hepburn"], "note": ""},
{"property": "C24", "status": "proved", "theorems": ["C24_katakana_long_marks"], "note": ""},
{"property": "C25", "status": "proved", "theorems": ["C25_script_independent"], "note": ""},
{"property": "C26", "status": "proved", "theorems": ["C26_kana_to_ascii"], "note": ""},
{"property": "C27", "status": "proved", "theorems": ["C27_foreign_text_and_idempotence"], "note": ""},
{"property": "C28", "status": "proved", "theorems": ["C28_upcase_katakana"], "note": ""},
{"property": "C29", "status": "partial", "theorems": ["C29_katakana_parts_partial", "C29_katakana_parts_refuted"], "note": "Proved for every text: by which characters the case of a piece is decided, exactly when that is right, and that it is right if no long mark follows ッ or ン (the only marks that disappear); false otherwise because positions shift, witness in the _refuted theorem."},
{"property": "C30", "status": "partial", "theorems": ["C30_determined_partial", "C30_determined_refuted"], "note": "Proved: the romaji is the same with every conforming library exactly for text without ヴ/ゔ; false with them: the result depends on which duplicate the binary search hits."},
{"property": "C31", "status": "proved", "theorems": ["C31_length"], "note": ""},
{"property": "C32", "status": "proved", "theorems": ["C32_kana_round_trip"], "note": ""},
{"property": "C33", "status": "partial", "theorems": ["C33_all_morae_partial", "C33_all_morae_refuted"], "note": "False: まっちゃ gives matcha gives まtちゃ (and ぢ, づ, ゐ, ゑ are read back as じ, ず, うぃ, うぇ).  The true part: what every mora is read back as is given exactly, in IME mode too, and exactly which texts survive (C33_all_morae_partial); C32 is the round trip for all reversible morae."},
{"property": "C34", "status": "proved", "theorems": ["C34_romaji_round_trip"], "note": ""},
{"property": "C35", "status": "proved", "theorems": ["C35_character_classes"], "note": ""},
{"property": "C36", "status": "proved", "theorems": ["C36_string_predicates"], "note": ""},
{"property": "C37", "status": "proved", "theorems": ["C37_implications"], "note": ""},
{"property": "C38", "status": "proved", "theorems": ["C38_is_mixed"], "note": ""},
{"property": "C39", "status": "partial", "theorems": ["C39_whitelist_partial", "C39_whitelist_refuted"], "note": "The exact behaviour is proved; the documented per-character reading is false because the regex is run on the whole input."},
{"property": "C40", "status": "proved", "theorems": ["C40_tokenize_lossless"], "note": ""},
{"property": "C41", "status": "proved", "theorems": ["C41_maximal_runs"], "note": ""},
{"property": "C42", "status": "proved", "theorems": ["C42_detailed"], "note": ""},
{"property": "C43", "status": "proved", "theorems": ["C43_labels"], "note": ""},
{"property": "C44", "status": "partial", "theorems": ["C44_compact_merges_partial", "C44_compact_merges_refuted"], "note": "Proved: compact tokens are unions of detailed tokens exactly if an ASCII and an ideographic space are never adjacent; witness of the failure in the _refuted theorem."},
{"property": "C45", "status": "proved", "theorems": ["C45_concatenation"], "note": ""},
{"property": "C46", "status": "proved", "theorems": ["C46_trim_part"], "note": ""},
{"property": "C47", "status": "partial", "theorems": ["C47_last_token_partial", "C47_nonempty_refuted"], "note": "Proved: which token is removed, what is never removed, and for exactly which texts the result is empty; non-emptiness is false for Japanese punctuation such as ー。ー, witness in the _refuted theorem."},
{"property": "C48", "status": "partial", "theorems": ["C48_okurigana_partial", "C48_okurigana_refuted"], "note": "Proved for okurigana in one script, exactly what repeated trimming removes, and exactly how often it does so; one trimming is not enough for 食べル, witness in the _refuted theorem."},
{"property": "C49", "status": "proved", "theorems": ["C49_matcher", "C49_checks"], "note": ""},
{"property": "C50", "status": "proved", "theorems": ["C50_get_chunk", "C50_slices"], "note": ""},
{"property": "C51", "status": "proved", "theorems": ["C51_command_line"], "note": ""},
{"property": "C52", "status": "proved", "theorems": ["C52_trees"], "note": ""},
{"property": "C53", "status": "partial", "theorems": ["C53_distinct_partial", "C53_distinct_refuted"], "note": "Proved for every key but ゔ; false for ゔ."},
{"property": "C54", "status": "proved", "theorems": ["C54_valid"], "note": ""},
{"property": "C55", "status": "proved", "theorems": ["C55_to_romaji_romanises"], "note": ""},
{"property": "C56", "status": "proved", "theorems": ["C56_letters"], "note": ""},
{"property": "C57", "status": "proved", "theorems": ["C57_kana_generator"], "note": ""},
{"property": "C58", "status": "proved", "theorems": ["C58_romaji_generator"], "note": ""},
{"property": "C59", "status": "proved", "theorems": ["C59_tables"], "note": ""},
{"property": "C60", "status": "partial", "theorems": ["C60_table_spellings_partial", "C60_table_spellings_refuted"], "note": "Proved for the kana table and for all romaji spellings without ゔ; false for every spelling with ゔ, whose two-character keys the generator truncated."},
{"property": "C61", "status": "proved", "theorems": ["C61_to_hiragana_described"], "note": ""},
{"property": "C62", "status": "proved", "theorems": ["C62_to_katakana_described"], "note": ""},
{"property": "C63", "status": "proved", "theorems": ["C63_library_independent"], "note": ""},
{"property": "C64", "status": "partial", "theorems": ["C64_idempotent_partial", "C64_idempotent_refuted"], "note": "Proved with pass_romaji; without it, that a second conversion reaches a fixed point, and exactly on which texts the first one does. False for nyya and ‘カ, witnesses in the _refuted theorem."},
{"property": "C65", "status": "proved", "theorems": ["C65_to_kana_in_parts"], "note": ""},
{"property": "C66", "status": "proved", "theorems": ["C66_to_romaji_in_parts"], "note": ""},
{"property": "C67", "status": "proved", "theorems": ["C67_kana_that_can_be_typed"], "note": ""},
{"property": "C68", "status": "proved", "theorems": ["C68_public_methods"], "note": ""},
{"property": "C69", "status": "proved", "theorems": ["C69_releases"], "note": ""},
{"property": "C70", "status": "proved", "theorems": ["C70_choice_of_readings"], "note": ""},
{"property": "C71", "status": "proved", "theorems": ["C71_modes_compared"], "note": ""},
{"property": "C72", "status": "partial", "theorems": ["C72_typing_partial", "C72_typing_refuted"], "note": "Proved: exactly when what is shown can be typed on (it has a kana, or is romaji throughout, or for to_hiragana begins with English punctuation); otherwise nothing typed next is converted, and the result is right exactly if the rest has no upper-case letter and nothing that would be converted. False for [ka, witness in the _refuted theorem."},
{"property": "C73", "status": "proved", "theorems": ["C73_printed", "C73_read_back"], "note": ""},
{"property": "C74", "status": "proved", "theorems": ["C74_same_romaji"], "note": ""},
{"property": "C75", "status": "proved", "theorems": ["C75_romaji_of_parts"], "note": ""},
{"property": "C76", "status": "partial", "theorems": ["C76_token_by_token_partial", "C76_token_by_token_refuted"], "note": "Proved: exactly for the texts in which no long mark lengthens anything and (unless tokens are compact) no kana of different scripts fuse across tokens (with upcase_katakana: nor katakana loses its upper case after hiragana っ). False for コーヒー, witness in the _refuted theorem."},
{"property": "C77", "status": "proved", "theorems": ["C77_kana_of_parts"], "note": ""},
{"property": "C78", "status": "proved", "theorems": ["C78_kana_token_by_token"], "note": ""},
{"property": "C79", "status": "proved", "theorems": ["C79_complete_conversion"], "note": ""},
{"property": "C80", "status": "proved", "theorems": ["C80_complete_romanisation"], "note": ""},
{"property": "C81", "status": "proved", "theorems": ["C81_unchanged"], "note": ""},
{"property": "C82", "status": "proved", "theorems": ["C82_results"], "note": ""},
{"property": "C83", "status": "proved", "theorems": ["C83_one_after_another"], "note": ""},
{"property": "C84", "status": "proved", "theorems": ["C84_there_and_back"], "note": ""},
{"property": "C85", "status": "proved", "theorems": ["C85_bindings", "C85_add"], "note": ""},
{"property": "C86", "status": "proved", "theorems": ["C86_each_other"], "note": ""},
{"property": "C87", "status": "proved", "theorems": ["C87_upper"], "note": ""},
{"property": "C88", "status": "proved", "theorems": ["C88_katakana_token_by_token"], "note": ""},
{"property": "C89", "status": "proved", "theorems": ["C89_hiragana_token_by_token"], "note": ""},
{"property": "C90", "status": "proved", "theorems": ["C90_lookups", "C90_passed", "C90_worst"], "note": ""},
{"property": "C91", "status": "proved", "theorems": ["C91_katakana_in_parts"], "note": ""},
{"property": "C92", "status": "proved", "theorems": ["C92_hiragana_in_parts"], "note": ""},
{"property": "C93", "status": "proved", "theorems": ["C93_script_results"], "note": ""},
{"property": "C94", "status": "proved", "theorems": ["C94_local", "C94_least", "C94_scripts_unbounded"], "note": ""},
{"property": "C95", "status": "proved", "theorems": ["C95_local_romaji", "C95_least", "C95_upper_unbounded"], "note": ""},
{"property": "C96", "status": "proved", "theorems": ["C96_bytes", "C96_least"], "note": ""},
{"property": "C97", "status": "proved", "theorems": ["C97_buffers", "C97_doubling"], "note": ""},
{"property": "C98", "status": "proved", "theorems": ["C98_kana", "C98_romaji", "C98_scripts"], "note": ""},
{"property": "C99", "status": "proved", "theorems": ["C99_macro", "C99_long_vowels", "C99_table", "C99_fnv"], "note": ""},
{"property": "C100", "status": "proved", "theorems": ["C100_kana", "C100_search", "C100_romaji", "C100_marks", "C100_worst"], "note": ""},
{"property": "C101", "status": "proved", "theorems": ["C101_kana", "C101_romaji", "C101_all_at_once"], "note": ""},
{"property": "C102", "status": "proved", "theorems": ["C102_kana", "C102_romaji", "C102_hiragana", "C102_katakana"], "note": ""},
{"property": "C103", "status": "proved", "theorems": ["C103_same", "C103_tokenizer", "C103_kinds", "C103_predicates", "C103_stop", "C103_exact", "C103_whitelist", "C103_trim", "C103_branches"], "note": ""},
{"property": "C104", "status": "proved", "theorems": ["C104_fewest", "C104_scripts", "C104_bounds"], "note": ""},
{"property": "C105", "status": "proved", "theorems": ["C105_same", "C105_returns", "C105_debug"], "note": ""},
{"property": "C106", "status": "proved", "theorems": ["C106_kana", "C106_katakana", "C106_hiragana", "C106_romaji", "C106_predicates", "C106_tokens"], "note": ""},
{"property": "C107", "status": "proved", "theorems": ["C107_results", "C107_once", "C107_no_deadlock", "C107_ends", "C107_lazy"], "note": ""},
{"property": "C108", "status": "proved", "theorems": ["C108_kana", "C108_hiragana", "C108_katakana", "C108_romaji"], "note": ""},
{"property": "C109", "status": "proved", "theorems": ["C109_compact", "C109_tokens", "C109_okurigana", "C109_matcher"], "note": ""},
{"property": "C110", "status": "proved", "theorems": ["C110_katakana", "C110_hiragana", "C110_not_kept"], "note": ""},
{"property": "C111", "status": "proved", "theorems": ["C111_syllables", "C111_each"], "note": ""},
{"property": "C112", "status": "proved", "theorems": ["C112_typed_back"], "note": ""}
]}
