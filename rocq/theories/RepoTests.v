(** * The repository's own tests and doc examples, run on the model

    Generated by tools/gen_tests.py from the assertions in src/, tests/ and README.md; [std_1_82]
    is the standard library instance used. *)
From Verif Require Import Base Std StdInstances Constants Chars Strings Convert Tokenize Chunk Traits.

(** the regex [[...]] of the given characters *)
Definition char_class (l : str) : regex := existsb (fun c => existsb (N.eqb c) l).
(** the characters, with spaces in between *)
Fixpoint spaced (l : str) : str := match l with [] | [_] => l | c :: r => c :: 0x20 :: spaced r end.

(** ** README.md *)
(** README.md:20 *)
Example t0 : (to_romaji std_1_82 (u "ワナカナ")) = Ok (u "wanakana").
Proof. vm_compute. reflexivity. Qed.
(** README.md:21 *)
Example t1 : (to_hiragana std_1_82 (u "WanaKana")) = Ok (u "わなかな").
Proof. vm_compute. reflexivity. Qed.
(** README.md:22 *)
Example t2 : (to_kana std_1_82 (u "WANAKANA")) = Ok (u "ワナカナ").
Proof. vm_compute. reflexivity. Qed.

(** ** src/is_hiragana.rs *)
(** src/is_hiragana.rs:13 *)
Example t3 : (is_hiragana (u "げーむ")) = true.
Proof. vm_compute. reflexivity. Qed.
(** src/is_hiragana.rs:14 *)
Example t4 : (negb (is_hiragana (u "A"))) = true.
Proof. vm_compute. reflexivity. Qed.
(** src/is_hiragana.rs:15 *)
Example t5 : (negb (is_hiragana (u "あア"))) = true.
Proof. vm_compute. reflexivity. Qed.
(** src/is_hiragana.rs:24 *)
Example t6 : (negb (is_hiragana [])) = true.
Proof. vm_compute. reflexivity. Qed.
(** src/is_hiragana.rs:28 *)
Example t7 : (is_hiragana (u "あ")) = true.
Proof. vm_compute. reflexivity. Qed.
(** src/is_hiragana.rs:32 *)
Example t8 : (is_hiragana (u "ああ")) = true.
Proof. vm_compute. reflexivity. Qed.
(** src/is_hiragana.rs:36 *)
Example t9 : (negb (is_hiragana (u "ア"))) = true.
Proof. vm_compute. reflexivity. Qed.
(** src/is_hiragana.rs:40 *)
Example t10 : (negb (is_hiragana (u "A"))) = true.
Proof. vm_compute. reflexivity. Qed.
(** src/is_hiragana.rs:44 *)
Example t11 : (negb (is_hiragana (u "あア"))) = true.
Proof. vm_compute. reflexivity. Qed.
(** src/is_hiragana.rs:48 *)
Example t12 : (is_hiragana (u "げーむ")) = true.
Proof. vm_compute. reflexivity. Qed.

(** ** src/is_kana.rs *)
(** src/is_kana.rs:17 *)
Example t13 : (negb (is_kana [])) = true.
Proof. vm_compute. reflexivity. Qed.
(** src/is_kana.rs:21 *)
Example t14 : (is_kana (u "あ")) = true.
Proof. vm_compute. reflexivity. Qed.
(** src/is_kana.rs:25 *)
Example t15 : (is_kana (u "ア")) = true.
Proof. vm_compute. reflexivity. Qed.
(** src/is_kana.rs:29 *)
Example t16 : (is_kana (u "あア")) = true.
Proof. vm_compute. reflexivity. Qed.
(** src/is_kana.rs:33 *)
Example t17 : (negb (is_kana (u "A"))) = true.
Proof. vm_compute. reflexivity. Qed.
(** src/is_kana.rs:37 *)
Example t18 : (negb (is_kana (u "あAア"))) = true.
Proof. vm_compute. reflexivity. Qed.
(** src/is_kana.rs:41 *)
Example t19 : (is_kana (u "アーあ")) = true.
Proof. vm_compute. reflexivity. Qed.

(** ** src/is_kanji.rs *)
(** src/is_kanji.rs:27 *)
Example t20 : (negb (is_kanji [])) = true.
Proof. vm_compute. reflexivity. Qed.
(** src/is_kanji.rs:28 *)
Example t21 : (negb (contains_kanji [])) = true.
Proof. vm_compute. reflexivity. Qed.
(** src/is_kanji.rs:33 *)
Example t22 : (contains_kanji (u "勢い")) = true.
Proof. vm_compute. reflexivity. Qed.
(** src/is_kanji.rs:37 *)
Example t23 : (negb (contains_kanji (u "hello"))) = true.
Proof. vm_compute. reflexivity. Qed.
(** src/is_kanji.rs:41 *)
Example t24 : (is_kanji (u "切腹")) = true.
Proof. vm_compute. reflexivity. Qed.
(** src/is_kanji.rs:45 *)
Example t25 : (is_kanji (u "刀")) = true.
Proof. vm_compute. reflexivity. Qed.
(** src/is_kanji.rs:49 *)
Example t26 : (negb (is_kanji (u "🐸"))) = true.
Proof. vm_compute. reflexivity. Qed.
(** src/is_kanji.rs:53 *)
Example t27 : (negb (is_kanji (u "あ"))) = true.
Proof. vm_compute. reflexivity. Qed.
(** src/is_kanji.rs:57 *)
Example t28 : (negb (is_kanji (u "ア"))) = true.
Proof. vm_compute. reflexivity. Qed.
(** src/is_kanji.rs:61 *)
Example t29 : (negb (is_kanji (u "あア"))) = true.
Proof. vm_compute. reflexivity. Qed.
(** src/is_kanji.rs:65 *)
Example t30 : (negb (is_kanji (u "A"))) = true.
Proof. vm_compute. reflexivity. Qed.
(** src/is_kanji.rs:69 *)
Example t31 : (negb (is_kanji (u "あAア"))) = true.
Proof. vm_compute. reflexivity. Qed.
(** src/is_kanji.rs:73 *)
Example t32 : (negb (is_kanji (u "１２隻"))) = true.
Proof. vm_compute. reflexivity. Qed.
(** src/is_kanji.rs:77 *)
Example t33 : (negb (is_kanji (u "12隻"))) = true.
Proof. vm_compute. reflexivity. Qed.
(** src/is_kanji.rs:81 *)
Example t34 : (negb (is_kanji (u "隻。"))) = true.
Proof. vm_compute. reflexivity. Qed.

(** ** src/is_katakana.rs *)
(** src/is_katakana.rs:17 *)
Example t35 : (negb (is_katakana [])) = true.
Proof. vm_compute. reflexivity. Qed.
(** src/is_katakana.rs:21 *)
Example t36 : (is_katakana (u "アア")) = true.
Proof. vm_compute. reflexivity. Qed.
(** src/is_katakana.rs:25 *)
Example t37 : (is_katakana (u "ア")) = true.
Proof. vm_compute. reflexivity. Qed.
(** src/is_katakana.rs:29 *)
Example t38 : (negb (is_katakana (u "あ"))) = true.
Proof. vm_compute. reflexivity. Qed.
(** src/is_katakana.rs:33 *)
Example t39 : (negb (is_katakana (u "A"))) = true.
Proof. vm_compute. reflexivity. Qed.
(** src/is_katakana.rs:37 *)
Example t40 : (negb (is_katakana (u "あア"))) = true.
Proof. vm_compute. reflexivity. Qed.
(** src/is_katakana.rs:41 *)
Example t41 : (is_katakana (u "ゲーム")) = true.
Proof. vm_compute. reflexivity. Qed.

(** ** src/is_mixed.rs *)
(** src/is_mixed.rs:31 *)
Example t42 : (negb (is_mixed [])) = true.
Proof. vm_compute. reflexivity. Qed.
(** src/is_mixed.rs:35 *)
Example t43 : (is_mixed (u "Aア")) = true.
Proof. vm_compute. reflexivity. Qed.
(** src/is_mixed.rs:39 *)
Example t44 : (is_mixed (u "Aあ")) = true.
Proof. vm_compute. reflexivity. Qed.
(** src/is_mixed.rs:43 *)
Example t45 : (is_mixed (u "Aあア")) = true.
Proof. vm_compute. reflexivity. Qed.
(** src/is_mixed.rs:47 *)
Example t46 : (negb (is_mixed (u "２あア"))) = true.
Proof. vm_compute. reflexivity. Qed.
(** src/is_mixed.rs:51 *)
Example t47 : (is_mixed (u "お腹A")) = true.
Proof. vm_compute. reflexivity. Qed.
(** src/is_mixed.rs:55 *)
Example t48 : (negb (is_mixed_pass_kanji (u "お腹A") false)) = true.
Proof. vm_compute. reflexivity. Qed.
(** src/is_mixed.rs:59 *)
Example t49 : (negb (is_mixed (u "お腹"))) = true.
Proof. vm_compute. reflexivity. Qed.
(** src/is_mixed.rs:63 *)
Example t50 : (negb (is_mixed (u "腹"))) = true.
Proof. vm_compute. reflexivity. Qed.
(** src/is_mixed.rs:67 *)
Example t51 : (negb (is_mixed (u "A"))) = true.
Proof. vm_compute. reflexivity. Qed.
(** src/is_mixed.rs:71 *)
Example t52 : (negb (is_mixed (u "あ"))) = true.
Proof. vm_compute. reflexivity. Qed.
(** src/is_mixed.rs:75 *)
Example t53 : (negb (is_mixed (u "ア"))) = true.
Proof. vm_compute. reflexivity. Qed.

(** ** src/is_romaji.rs *)
(** src/is_romaji.rs:34 *)
Example t54 : (is_romaji (u "Tōkyō and Ōsaka")) = true.
Proof. vm_compute. reflexivity. Qed.
(** src/is_romaji.rs:35 *)
Example t55 : (is_romaji (u "12a*b&c-d")) = true.
Proof. vm_compute. reflexivity. Qed.
(** src/is_romaji.rs:36 *)
Example t56 : (negb (is_romaji (u "あアA"))) = true.
Proof. vm_compute. reflexivity. Qed.
(** src/is_romaji.rs:37 *)
Example t57 : (negb (is_romaji (u "お願い"))) = true.
Proof. vm_compute. reflexivity. Qed.
(** src/is_romaji.rs:38 *)
Example t58 : (negb (is_romaji (u "a！b&cーd"))) = true.
Proof. vm_compute. reflexivity. Qed.
(** src/is_romaji.rs:47 *)
Example t59 : (negb (is_romaji [])) = true.
Proof. vm_compute. reflexivity. Qed.
(** src/is_romaji.rs:50 *)
Example t60 : is_romaji_with_whitelist [] None = false.
Proof. vm_compute. reflexivity. Qed.
(** src/is_romaji.rs:54 *)
Example t61 : (is_romaji (u "A")) = true.
Proof. vm_compute. reflexivity. Qed.
(** src/is_romaji.rs:58 *)
Example t62 : (is_romaji (u "xYz")) = true.
Proof. vm_compute. reflexivity. Qed.
(** src/is_romaji.rs:62 *)
Example t63 : (is_romaji (u "Tōkyō and Ōsaka")) = true.
Proof. vm_compute. reflexivity. Qed.
(** src/is_romaji.rs:66 *)
Example t64 : (negb (is_romaji (u "あアA"))) = true.
Proof. vm_compute. reflexivity. Qed.
(** src/is_romaji.rs:70 *)
Example t65 : (negb (is_romaji (u "お願い"))) = true.
Proof. vm_compute. reflexivity. Qed.
(** src/is_romaji.rs:74 *)
Example t66 : (negb (is_romaji (u "熟成"))) = true.
Proof. vm_compute. reflexivity. Qed.
(** src/is_romaji.rs:78 *)
Example t67 : (is_romaji (u "a*b&c-d")) = true.
Proof. vm_compute. reflexivity. Qed.
(** src/is_romaji.rs:82 *)
Example t68 : (is_romaji (u "0123456789")) = true.
Proof. vm_compute. reflexivity. Qed.
(** src/is_romaji.rs:86 *)
Example t69 : (negb (is_romaji (u "a！b&cーd"))) = true.
Proof. vm_compute. reflexivity. Qed.
(** src/is_romaji.rs:90 *)
Example t70 : (negb (is_romaji (u "ｈｅｌｌｏ"))) = true.
Proof. vm_compute. reflexivity. Qed.
(** src/is_romaji.rs:96 *)
Example t71 : is_romaji_with_whitelist (u "a！b&cーd") (Some (char_class (u "！ー"))) = true.
Proof. vm_compute. reflexivity. Qed.

(** ** src/lib.rs *)
(** src/lib.rs:15 *)
Example t72 : (to_kana std_1_82 (u "o")) = Ok (u "お").
Proof. vm_compute. reflexivity. Qed.
(** src/lib.rs:16 *)
Example t73 : (to_kana std_1_82 (u "ona")) = Ok (u "おな").
Proof. vm_compute. reflexivity. Qed.
(** src/lib.rs:17 *)
Example t74 : (to_kana std_1_82 (u "onaji")) = Ok (u "おなじ").
Proof. vm_compute. reflexivity. Qed.
(** src/lib.rs:18 *)
Example t75 : (to_kana std_1_82 (u "onaji BUTTSUUJI")) = Ok (u "おなじ ブッツウジ").
Proof. vm_compute. reflexivity. Qed.
(** src/lib.rs:19 *)
Example t76 : (to_kana std_1_82 (u "ONAJI buttsuuji")) = Ok (u "オナジ ぶっつうじ").
Proof. vm_compute. reflexivity. Qed.
(** src/lib.rs:20 *)
Example t77 : (to_kana std_1_82 (u "座禅‘zazen’スタイル")) = Ok (u "座禅「ざぜん」スタイル").
Proof. vm_compute. reflexivity. Qed.
(** src/lib.rs:22 *)
Example t78 : (to_hiragana std_1_82 (u "toukyou,オオサカ")) = Ok (u "とうきょう、おおさか").
Proof. vm_compute. reflexivity. Qed.
(** src/lib.rs:24 *)
Example t79 : (to_katakana std_1_82 (u "toukyou,おおさか")) = Ok (u "トウキョウ、オオサカ").
Proof. vm_compute. reflexivity. Qed.
(** src/lib.rs:26 *)
Example t80 : (to_romaji std_1_82 (u "ひらがな　カタカナ")) = Ok (u "hiragana katakana").
Proof. vm_compute. reflexivity. Qed.
(** src/lib.rs:35 *)
Example t81 : (is_hiragana (u "げーむ")) = true.
Proof. vm_compute. reflexivity. Qed.
(** src/lib.rs:36 *)
Example t82 : (is_kana (u "ア")) = true.
Proof. vm_compute. reflexivity. Qed.
(** src/lib.rs:37 *)
Example t83 : (is_romaji (u "Tōkyō and Ōsaka")) = true.
Proof. vm_compute. reflexivity. Qed.
(** src/lib.rs:38 *)
Example t84 : (is_kanji (u "切腹")) = true.
Proof. vm_compute. reflexivity. Qed.
(** src/lib.rs:39 *)
Example t85 : (is_mixed (u "Aあア")) = true.
Proof. vm_compute. reflexivity. Qed.
(** src/lib.rs:40 *)
Example t86 : (contains_kanji (u "勢い")) = true.
Proof. vm_compute. reflexivity. Qed.
(** src/lib.rs:98 *)
Example t87 : (to_hiragana std_1_82 (u "シークヮーサー")) = Ok (u "しいくゎあさあ").
Proof. vm_compute. reflexivity. Qed.

(** ** src/to_hiragana.rs *)
(** src/to_hiragana.rs:50 *)
Example t88 : (to_hiragana std_1_82 []) = Ok [].
Proof. vm_compute. reflexivity. Qed.
(** src/to_hiragana.rs:57 *)
Example t89 : (to_hiragana_with_opt std_1_82 (u "IROHANIHOHETO") (Build_options true false false false)) = Ok (u "いろはにほへと").
Proof. vm_compute. reflexivity. Qed.
(** src/to_hiragana.rs:62 *)
Example t90 : (to_hiragana_with_opt std_1_82 (u "CHIRINURUWO") (Build_options true false false false)) = Ok (u "ちりぬるを").
Proof. vm_compute. reflexivity. Qed.
(** src/to_hiragana.rs:67 *)
Example t91 : (to_hiragana_with_opt std_1_82 (u "WAKAYOTARESO") (Build_options true false false false)) = Ok (u "わかよたれそ").
Proof. vm_compute. reflexivity. Qed.
(** src/to_hiragana.rs:72 *)
Example t92 : (to_hiragana_with_opt std_1_82 (u "TSUNENARAMU") (Build_options true false false false)) = Ok (u "つねならむ").
Proof. vm_compute. reflexivity. Qed.
(** src/to_hiragana.rs:77 *)
Example t93 : (to_hiragana_with_opt std_1_82 (u "UWINOOKUYAMA") (Build_options true false false false)) = Ok (u "うゐのおくやま").
Proof. vm_compute. reflexivity. Qed.
(** src/to_hiragana.rs:82 *)
Example t94 : (to_hiragana_with_opt std_1_82 (u "KEFUKOETE") (Build_options true false false false)) = Ok (u "けふこえて").
Proof. vm_compute. reflexivity. Qed.
(** src/to_hiragana.rs:87 *)
Example t95 : (to_hiragana_with_opt std_1_82 (u "ASAKIYUMEMISHI") (Build_options true false false false)) = Ok (u "あさきゆめみし").
Proof. vm_compute. reflexivity. Qed.
(** src/to_hiragana.rs:92 *)
Example t96 : (to_hiragana_with_opt std_1_82 (u "WEHIMOSESU") (Build_options true false false false)) = Ok (u "ゑひもせす").
Proof. vm_compute. reflexivity. Qed.
(** src/to_hiragana.rs:97 *)
Example t97 : (to_hiragana std_1_82 (u "NLTU")) = Ok (u "んっ").
Proof. vm_compute. reflexivity. Qed.
(** src/to_hiragana.rs:104 *)
Example t98 : (to_hiragana std_1_82 (u "wi")) = Ok (u "うぃ").
Proof. vm_compute. reflexivity. Qed.
(** src/to_hiragana.rs:108 *)
Example t99 : (to_hiragana_with_opt std_1_82 (u "wi") (Build_options true false false false)) = Ok (u "ゐ").
Proof. vm_compute. reflexivity. Qed.
(** src/to_hiragana.rs:112 *)
Example t100 : (to_hiragana_with_opt std_1_82 (u "we") (Build_options true false false false)) = Ok (u "ゑ").
Proof. vm_compute. reflexivity. Qed.
(** src/to_hiragana.rs:116 *)
Example t101 : (to_hiragana_with_opt std_1_82 (u "wi") (Build_options false false false false)) = Ok (u "うぃ").
Proof. vm_compute. reflexivity. Qed.
(** src/to_hiragana.rs:133 *)
Example t102 : (to_hiragana std_1_82 (u "only カナ")) = Ok (u "おんly かな").
Proof. vm_compute. reflexivity. Qed.
(** src/to_hiragana.rs:134 *)
Example t103 : (to_hiragana_with_opt std_1_82 (u "only カナ") (Build_options false true false false)) = Ok (u "only かな").
Proof. vm_compute. reflexivity. Qed.
(** src/to_hiragana.rs:151 *)
Example t104 : (to_hiragana std_1_82 (u "スーパー")) = Ok (u "すうぱあ").
Proof. vm_compute. reflexivity. Qed.
(** src/to_hiragana.rs:152 *)
Example t105 : (to_hiragana std_1_82 (u "バンゴー")) = Ok (u "ばんごう").
Proof. vm_compute. reflexivity. Qed.
(** src/to_hiragana.rs:158 *)
Example t106 : (to_hiragana std_1_82 (u "#22 ２２漢字、toukyou, オオサカ")) = Ok (u "#22 ２２漢字、とうきょう、 おおさか").
Proof. vm_compute. reflexivity. Qed.

(** ** src/to_kana.rs *)
(** src/to_kana.rs:82 *)
Example t107 : (to_kana std_1_82 []) = Ok [].
Proof. vm_compute. reflexivity. Qed.
(** src/to_kana.rs:86 *)
Example t108 : (to_kana std_1_82 (u "WANAKANA")) = Ok (u "ワナカナ").
Proof. vm_compute. reflexivity. Qed.
(** src/to_kana.rs:91 *)
Example t109 : (to_kana std_1_82 (u "onaji")) = Ok (u "おなじ").
Proof. vm_compute. reflexivity. Qed.
(** src/to_kana.rs:96 *)
Example t110 : (to_kana std_1_82 (u "buttsuuji")) = Ok (u "ぶっつうじ").
Proof. vm_compute. reflexivity. Qed.
(** src/to_kana.rs:101 *)
Example t111 : (to_kana std_1_82 (u "ONAJI")) = Ok (u "オナジ").
Proof. vm_compute. reflexivity. Qed.
(** src/to_kana.rs:106 *)
Example t112 : (to_kana std_1_82 (u "BUTTSUUJI")) = Ok (u "ブッツウジ").
Proof. vm_compute. reflexivity. Qed.
(** src/to_kana.rs:112 *)
Example t113 : (to_kana std_1_82 (u "WaniKani")) = Ok (u "わにかに").
Proof. vm_compute. reflexivity. Qed.
(** src/to_kana.rs:117 *)
Example t114 : (to_kana std_1_82 (u "ワニカニ AiUeO 鰐蟹 12345 @#$%")) = Ok (u "ワニカニ アいウえオ 鰐蟹 12345 @#$%").
Proof. vm_compute. reflexivity. Qed.
(** src/to_kana.rs:125 *)
Example t115 : (to_kana std_1_82 (u "座禅‘zazen’スタイル")) = Ok (u "座禅「ざぜん」スタイル").
Proof. vm_compute. reflexivity. Qed.
(** src/to_kana.rs:130 *)
Example t116 : (to_kana std_1_82 (u "batsuge-mu")) = Ok (u "ばつげーむ").
Proof. vm_compute. reflexivity. Qed.
(** src/to_kana.rs:145 *)
Example t117 : to_kana std_1_82 (spaced (u "!?.:/,~-‘’“”[](){}")) = Ok (spaced (u "！？。：・、〜ー「」『』［］（）｛｝")).
Proof. vm_compute. reflexivity. Qed.
(** src/to_kana.rs:152 *)
Example t118 : (to_kana std_1_82 (u "n")) = Ok (u "ん").
Proof. vm_compute. reflexivity. Qed.
(** src/to_kana.rs:153 *)
Example t119 : (to_kana std_1_82 (u "shin")) = Ok (u "しん").
Proof. vm_compute. reflexivity. Qed.
(** src/to_kana.rs:157 *)
Example t120 : (to_kana std_1_82 (u "nn")) = Ok (u "んん").
Proof. vm_compute. reflexivity. Qed.
(** src/to_kana.rs:165 *)
Example t121 : (to_kana_with_opt std_1_82 (u "n") (Build_options false false false true)) = Ok (u "n").
Proof. vm_compute. reflexivity. Qed.
(** src/to_kana.rs:166 *)
Example t122 : (to_kana_with_opt std_1_82 (u "shin") (Build_options false false false true)) = Ok (u "しn").
Proof. vm_compute. reflexivity. Qed.
(** src/to_kana.rs:167 *)
Example t123 : (to_kana_with_opt std_1_82 (u "shinyou") (Build_options false false false true)) = Ok (u "しにょう").
Proof. vm_compute. reflexivity. Qed.
(** src/to_kana.rs:168 *)
Example t124 : (to_kana_with_opt std_1_82 (u "shin'you") (Build_options false false false true)) = Ok (u "しんよう").
Proof. vm_compute. reflexivity. Qed.
(** src/to_kana.rs:169 *)
Example t125 : (to_kana_with_opt std_1_82 (u "shin you") (Build_options false false false true)) = Ok (u "しんよう").
Proof. vm_compute. reflexivity. Qed.
(** src/to_kana.rs:173 *)
Example t126 : (to_kana_with_opt std_1_82 (u "nn") (Build_options false false false true)) = Ok (u "ん").
Proof. vm_compute. reflexivity. Qed.
(** src/to_kana.rs:181 *)
Example t127 : (to_kana std_1_82 (u "wi")) = Ok (u "うぃ").
Proof. vm_compute. reflexivity. Qed.
(** src/to_kana.rs:182 *)
Example t128 : (to_kana std_1_82 (u "WI")) = Ok (u "ウィ").
Proof. vm_compute. reflexivity. Qed.
(** src/to_kana.rs:186 *)
Example t129 : (to_kana_with_opt std_1_82 (u "wi") (Build_options true false false false)) = Ok (u "ゐ").
Proof. vm_compute. reflexivity. Qed.
(** src/to_kana.rs:190 *)
Example t130 : (to_kana_with_opt std_1_82 (u "we") (Build_options true false false false)) = Ok (u "ゑ").
Proof. vm_compute. reflexivity. Qed.
(** src/to_kana.rs:194 *)
Example t131 : (to_kana_with_opt std_1_82 (u "WI") (Build_options true false false false)) = Ok (u "ヰ").
Proof. vm_compute. reflexivity. Qed.
(** src/to_kana.rs:198 *)
Example t132 : (to_kana_with_opt std_1_82 (u "WE") (Build_options true false false false)) = Ok (u "ヱ").
Proof. vm_compute. reflexivity. Qed.

(** ** src/to_katakana.rs *)
(** src/to_katakana.rs:37 *)
Example t133 : (to_katakana std_1_82 []) = Ok [].
Proof. vm_compute. reflexivity. Qed.
(** src/to_katakana.rs:44 *)
Example t134 : (to_katakana_with_opt std_1_82 (u "IROHANIHOHETO") (Build_options true false false false)) = Ok (u "イロハニホヘト").
Proof. vm_compute. reflexivity. Qed.
(** src/to_katakana.rs:49 *)
Example t135 : (to_katakana_with_opt std_1_82 (u "CHIRINURUWO") (Build_options true false false false)) = Ok (u "チリヌルヲ").
Proof. vm_compute. reflexivity. Qed.
(** src/to_katakana.rs:54 *)
Example t136 : (to_katakana_with_opt std_1_82 (u "WAKAYOTARESO") (Build_options true false false false)) = Ok (u "ワカヨタレソ").
Proof. vm_compute. reflexivity. Qed.
(** src/to_katakana.rs:59 *)
Example t137 : (to_katakana_with_opt std_1_82 (u "TSUNENARAMU") (Build_options true false false false)) = Ok (u "ツネナラム").
Proof. vm_compute. reflexivity. Qed.
(** src/to_katakana.rs:64 *)
Example t138 : (to_katakana_with_opt std_1_82 (u "UWINOOKUYAMA") (Build_options true false false false)) = Ok (u "ウヰノオクヤマ").
Proof. vm_compute. reflexivity. Qed.
(** src/to_katakana.rs:69 *)
Example t139 : (to_katakana_with_opt std_1_82 (u "KEFUKOETE") (Build_options true false false false)) = Ok (u "ケフコエテ").
Proof. vm_compute. reflexivity. Qed.
(** src/to_katakana.rs:74 *)
Example t140 : (to_katakana_with_opt std_1_82 (u "ASAKIYUMEMISHI") (Build_options true false false false)) = Ok (u "アサキユメミシ").
Proof. vm_compute. reflexivity. Qed.
(** src/to_katakana.rs:79 *)
Example t141 : (to_katakana_with_opt std_1_82 (u "WEHIMOSESU") (Build_options true false false false)) = Ok (u "ヱヒモセス").
Proof. vm_compute. reflexivity. Qed.
(** src/to_katakana.rs:84 *)
Example t142 : (to_katakana std_1_82 (u "NLTU")) = Ok (u "ンッ").
Proof. vm_compute. reflexivity. Qed.
(** src/to_katakana.rs:92 *)
Example t143 : (to_katakana std_1_82 (u "wi")) = Ok (u "ウィ").
Proof. vm_compute. reflexivity. Qed.
(** src/to_katakana.rs:96 *)
Example t144 : (to_katakana_with_opt std_1_82 (u "wi") (Build_options true false false false)) = Ok (u "ヰ").
Proof. vm_compute. reflexivity. Qed.
(** src/to_katakana.rs:100 *)
Example t145 : (to_katakana_with_opt std_1_82 (u "we") (Build_options true false false false)) = Ok (u "ヱ").
Proof. vm_compute. reflexivity. Qed.
(** src/to_katakana.rs:108 *)
Example t146 : (to_katakana std_1_82 (u "only かな")) = Ok (u "オンly カナ").
Proof. vm_compute. reflexivity. Qed.
(** src/to_katakana.rs:109 *)
Example t147 : (to_katakana_with_opt std_1_82 (u "only かな") (Build_options false true false false)) = Ok (u "only カナ").
Proof. vm_compute. reflexivity. Qed.

(** ** src/to_romaji.rs *)
(** src/to_romaji.rs:56 *)
Example t148 : (to_romaji std_1_82 []) = Ok [].
Proof. vm_compute. reflexivity. Qed.
(** src/to_romaji.rs:61 *)
Example t149 : (to_romaji std_1_82 (u "ワニカニ　ガ　スゴイ　ダ")) = Ok (u "wanikani ga sugoi da").
Proof. vm_compute. reflexivity. Qed.
(** src/to_romaji.rs:69 *)
Example t150 : (to_romaji std_1_82 (u "わにかに　が　すごい　だ")) = Ok (u "wanikani ga sugoi da").
Proof. vm_compute. reflexivity. Qed.
(** src/to_romaji.rs:77 *)
Example t151 : (to_romaji std_1_82 (u "ワニカニ　が　すごい　だ")) = Ok (u "wanikani ga sugoi da").
Proof. vm_compute. reflexivity. Qed.
(** src/to_romaji.rs:90 *)
Example t152 : (to_romaji_with_opt std_1_82 (u "ワニカニ") (Build_options false false true false)) = Ok (u "WANIKANI").
Proof. vm_compute. reflexivity. Qed.
(** src/to_romaji.rs:104 *)
Example t153 : (to_romaji_with_opt std_1_82 (u "ワニカニ　が　すごい　だ") (Build_options false false true false)) = Ok (u "WANIKANI ga sugoi da").
Proof. vm_compute. reflexivity. Qed.
(** src/to_romaji.rs:118 *)
Example t154 : (to_romaji std_1_82 (u "ばつげーむ")) = Ok (u "batsuge-mu").
Proof. vm_compute. reflexivity. Qed.
(** src/to_romaji.rs:123 *)
Example t155 : (to_romaji std_1_82 (u "一抹げーむ")) = Ok (u "一抹ge-mu").
Proof. vm_compute. reflexivity. Qed.
(** src/to_romaji.rs:128 *)
Example t156 : (to_romaji std_1_82 (u "スーパー")) = Ok (u "suupaa").
Proof. vm_compute. reflexivity. Qed.
(** src/to_romaji.rs:133 *)
Example t157 : (to_romaji std_1_82 (u "缶コーヒー")) = Ok (u "缶koohii").
Proof. vm_compute. reflexivity. Qed.
(** src/to_romaji.rs:138 *)
Example t158 : (to_romaji std_1_82 (u "わにかにがすごいだ")) <> Ok (u "wanikani ga sugoi da").
Proof. vm_compute. discriminate. Qed.
(** src/to_romaji.rs:146 *)
Example t159 : (to_romaji std_1_82 (u "きんにくまん")) = Ok (u "kinnikuman").
Proof. vm_compute. reflexivity. Qed.
(** src/to_romaji.rs:150 *)
Example t160 : (to_romaji std_1_82 (u "んんにんにんにゃんやん")) = Ok (u "nnninninnyan'yan").
Proof. vm_compute. reflexivity. Qed.
(** src/to_romaji.rs:154 *)
Example t161 : (to_romaji std_1_82 (u "かっぱ　たった　しゅっしゅ ちゃっちゃ　やっつ")) = Ok (u "kappa tatta shusshu chatcha yattsu").
Proof. vm_compute. reflexivity. Qed.
(** src/to_romaji.rs:161 *)
Example t162 : (to_romaji std_1_82 (u "かっぱ")) = Ok (u "kappa").
Proof. vm_compute. reflexivity. Qed.
(** src/to_romaji.rs:170 *)
Example t163 : (to_romaji std_1_82 (u "っ")) = Ok [].
Proof. vm_compute. reflexivity. Qed.
(** src/to_romaji.rs:174 *)
Example t164 : (to_romaji std_1_82 (u "ヶ")) = Ok (u "ヶ").
Proof. vm_compute. reflexivity. Qed.
(** src/to_romaji.rs:178 *)
Example t165 : (to_romaji std_1_82 (u "ヵ")) = Ok (u "ヵ").
Proof. vm_compute. reflexivity. Qed.
(** src/to_romaji.rs:182 *)
Example t166 : (to_romaji std_1_82 (u "ゃ")) = Ok (u "ya").
Proof. vm_compute. reflexivity. Qed.
(** src/to_romaji.rs:186 *)
Example t167 : (to_romaji std_1_82 (u "ゅ")) = Ok (u "yu").
Proof. vm_compute. reflexivity. Qed.
(** src/to_romaji.rs:190 *)
Example t168 : (to_romaji std_1_82 (u "ょ")) = Ok (u "yo").
Proof. vm_compute. reflexivity. Qed.
(** src/to_romaji.rs:194 *)
Example t169 : (to_romaji std_1_82 (u "ぁ")) = Ok (u "a").
Proof. vm_compute. reflexivity. Qed.
(** src/to_romaji.rs:198 *)
Example t170 : (to_romaji std_1_82 (u "ぃ")) = Ok (u "i").
Proof. vm_compute. reflexivity. Qed.
(** src/to_romaji.rs:202 *)
Example t171 : (to_romaji std_1_82 (u "ぅ")) = Ok (u "u").
Proof. vm_compute. reflexivity. Qed.
(** src/to_romaji.rs:206 *)
Example t172 : (to_romaji std_1_82 (u "ぇ")) = Ok (u "e").
Proof. vm_compute. reflexivity. Qed.
(** src/to_romaji.rs:210 *)
Example t173 : (to_romaji std_1_82 (u "ぉ")) = Ok (u "o").
Proof. vm_compute. reflexivity. Qed.
(** src/to_romaji.rs:219 *)
Example t174 : (to_romaji std_1_82 (u "おんよみ")) = Ok (u "on'yomi").
Proof. vm_compute. reflexivity. Qed.
(** src/to_romaji.rs:223 *)
Example t175 : (to_romaji std_1_82 (u "んよ んあ んゆ")) = Ok (u "n'yo n'a n'yu").
Proof. vm_compute. reflexivity. Qed.
(** src/to_romaji.rs:227 *)
Example t176 : (to_romaji std_1_82 (u "シンヨ")) = Ok (u "shin'yo").
Proof. vm_compute. reflexivity. Qed.
(** src/to_romaji.rs:233 *)
Example t177 : (to_romaji std_1_82 (u "ウーッー")) = Ok (u "uu").
Proof. vm_compute. reflexivity. Qed.
(** src/to_romaji.rs:238 *)
Example t178 : (to_romaji std_1_82 (u "ヷー")) = Ok (u "waa").
Proof. vm_compute. reflexivity. Qed.

(** ** src/tokenize.rs *)
(** src/tokenize.rs:11 *)
Example t179 : (tokenize []) = [].
Proof. vm_compute. reflexivity. Qed.
(** src/tokenize.rs:12 *)
Example t180 : (tokenize (u "ふふフフ")) = [(u "ふふ"); (u "フフ")].
Proof. vm_compute. reflexivity. Qed.
(** src/tokenize.rs:13 *)
Example t181 : (tokenize (u "感じ")) = [(u "感"); (u "じ")].
Proof. vm_compute. reflexivity. Qed.
(** src/tokenize.rs:14 *)
Example t182 : (tokenize (u "私は悲しい")) = [(u "私"); (u "は"); (u "悲"); (u "しい")].
Proof. vm_compute. reflexivity. Qed.
(** src/tokenize.rs:100 *)
Example t183 : (tokenize []) = [].
Proof. vm_compute. reflexivity. Qed.
(** src/tokenize.rs:101 *)
Example t184 : (tokenize (u "ふふフフ")) = [(u "ふふ"); (u "フフ")].
Proof. vm_compute. reflexivity. Qed.
(** src/tokenize.rs:102 *)
Example t185 : (tokenize (u "感じ")) = [(u "感"); (u "じ")].
Proof. vm_compute. reflexivity. Qed.
(** src/tokenize.rs:103 *)
Example t186 : (tokenize (u "私は悲しい")) = [(u "私"); (u "は"); (u "悲"); (u "しい")].
Proof. vm_compute. reflexivity. Qed.
(** src/tokenize.rs:127 *)
Example t187 : (tokenize_detailed (u "5romaji here...!?漢字ひらがなカタ　カナ４「ＳＨＩＯ」。！ لنذهب") true) = [(Other, (u "5")); (En, (u "romaji here")); (Other, (u "...!?")); (Ja, (u "漢字ひらがなカタ　カナ")); (Other, (u "４「")); (Ja, (u "ＳＨＩＯ")); (Other, (u "」。！")); (En, (u " ")); (Other, (u "لنذهب"))].
Proof. vm_compute. reflexivity. Qed.

(** ** src/traits.rs *)
(** src/traits.rs:9 *)
Example t188 : (to_kana std_1_82 (u "o")) = Ok (u "お").
Proof. vm_compute. reflexivity. Qed.
(** src/traits.rs:10 *)
Example t189 : (to_kana std_1_82 (u "ona")) = Ok (u "おな").
Proof. vm_compute. reflexivity. Qed.
(** src/traits.rs:11 *)
Example t190 : (to_kana std_1_82 (u "onaji")) = Ok (u "おなじ").
Proof. vm_compute. reflexivity. Qed.
(** src/traits.rs:12 *)
Example t191 : (to_kana std_1_82 (u "onaji BUTTSUUJI")) = Ok (u "おなじ ブッツウジ").
Proof. vm_compute. reflexivity. Qed.
(** src/traits.rs:13 *)
Example t192 : (to_kana std_1_82 (u "ONAJI buttsuuji")) = Ok (u "オナジ ぶっつうじ").
Proof. vm_compute. reflexivity. Qed.
(** src/traits.rs:14 *)
Example t193 : (to_kana std_1_82 (u "座禅‘zazen’スタイル")) = Ok (u "座禅「ざぜん」スタイル").
Proof. vm_compute. reflexivity. Qed.
(** src/traits.rs:16 *)
Example t194 : (to_hiragana std_1_82 (u "toukyou,オオサカ")) = Ok (u "とうきょう、おおさか").
Proof. vm_compute. reflexivity. Qed.
(** src/traits.rs:18 *)
Example t195 : (to_katakana std_1_82 (u "toukyou,おおさか")) = Ok (u "トウキョウ、オオサカ").
Proof. vm_compute. reflexivity. Qed.
(** src/traits.rs:20 *)
Example t196 : (to_romaji std_1_82 (u "ひらがな　カタカナ")) = Ok (u "hiragana katakana").
Proof. vm_compute. reflexivity. Qed.
(** src/traits.rs:35 *)
Example t197 : (to_kana std_1_82 (u "o")) = Ok (u "お").
Proof. vm_compute. reflexivity. Qed.
(** src/traits.rs:36 *)
Example t198 : (to_kana std_1_82 (u "ona")) = Ok (u "おな").
Proof. vm_compute. reflexivity. Qed.
(** src/traits.rs:37 *)
Example t199 : (to_kana std_1_82 (u "onaji")) = Ok (u "おなじ").
Proof. vm_compute. reflexivity. Qed.
(** src/traits.rs:38 *)
Example t200 : (to_kana std_1_82 (u "onaji BUTTSUUJI")) = Ok (u "おなじ ブッツウジ").
Proof. vm_compute. reflexivity. Qed.
(** src/traits.rs:39 *)
Example t201 : (to_kana std_1_82 (u "ONAJI buttsuuji")) = Ok (u "オナジ ぶっつうじ").
Proof. vm_compute. reflexivity. Qed.
(** src/traits.rs:40 *)
Example t202 : (to_kana std_1_82 (u "座禅‘zazen’スタイル")) = Ok (u "座禅「ざぜん」スタイル").
Proof. vm_compute. reflexivity. Qed.
(** src/traits.rs:42 *)
Example t203 : (to_hiragana std_1_82 (u "toukyou,オオサカ")) = Ok (u "とうきょう、おおさか").
Proof. vm_compute. reflexivity. Qed.
(** src/traits.rs:44 *)
Example t204 : (to_katakana std_1_82 (u "toukyou,おおさか")) = Ok (u "トウキョウ、オオサカ").
Proof. vm_compute. reflexivity. Qed.
(** src/traits.rs:46 *)
Example t205 : (to_romaji std_1_82 (u "ひらがな　カタカナ")) = Ok (u "hiragana katakana").
Proof. vm_compute. reflexivity. Qed.
(** src/traits.rs:53 *)
Example t206 : (to_kana std_1_82 (u "o")) = Ok (u "お").
Proof. vm_compute. reflexivity. Qed.
(** src/traits.rs:54 *)
Example t207 : (to_kana std_1_82 (u "ona")) = Ok (u "おな").
Proof. vm_compute. reflexivity. Qed.
(** src/traits.rs:55 *)
Example t208 : (to_kana std_1_82 (u "onaji")) = Ok (u "おなじ").
Proof. vm_compute. reflexivity. Qed.
(** src/traits.rs:56 *)
Example t209 : (to_kana std_1_82 (u "onaji BUTTSUUJI")) = Ok (u "おなじ ブッツウジ").
Proof. vm_compute. reflexivity. Qed.
(** src/traits.rs:57 *)
Example t210 : (to_kana std_1_82 (u "ONAJI buttsuuji")) = Ok (u "オナジ ぶっつうじ").
Proof. vm_compute. reflexivity. Qed.
(** src/traits.rs:58 *)
Example t211 : (to_kana std_1_82 (u "座禅‘zazen’スタイル")) = Ok (u "座禅「ざぜん」スタイル").
Proof. vm_compute. reflexivity. Qed.
(** src/traits.rs:59 *)
Example t212 : (to_kana std_1_82 (u "!?./,~-‘’“”[](){}")) = Ok (u "！？。・、〜ー「」『』［］（）｛｝").
Proof. vm_compute. reflexivity. Qed.
(** src/traits.rs:68 *)
Example t213 : (to_kana_with_opt std_1_82 (u "batsuge-mu") (Build_options true false false false)) = Ok (u "ばつげーむ").
Proof. vm_compute. reflexivity. Qed.
(** src/traits.rs:69 *)
Example t214 : (to_kana_with_opt std_1_82 (u "we") (Build_options true false false false)) = Ok (u "ゑ").
Proof. vm_compute. reflexivity. Qed.
(** src/traits.rs:77 *)
Example t215 : (to_hiragana std_1_82 (u "toukyou,オオサカ")) = Ok (u "とうきょう、おおさか").
Proof. vm_compute. reflexivity. Qed.
(** src/traits.rs:78 *)
Example t216 : (to_hiragana std_1_82 (u "wi")) = Ok (u "うぃ").
Proof. vm_compute. reflexivity. Qed.
(** src/traits.rs:87 *)
Example t217 : (to_hiragana_with_opt std_1_82 (u "only かな") (Build_options false true false false)) = Ok (u "only かな").
Proof. vm_compute. reflexivity. Qed.
(** src/traits.rs:88 *)
Example t218 : (to_hiragana_with_opt std_1_82 (u "wi") (Build_options true false false false)) = Ok (u "ゐ").
Proof. vm_compute. reflexivity. Qed.
(** src/traits.rs:102 *)
Example t219 : (to_romaji std_1_82 (u "ひらがな　カタカナ")) = Ok (u "hiragana katakana").
Proof. vm_compute. reflexivity. Qed.
(** src/traits.rs:111 *)
Example t220 : (to_romaji_with_opt std_1_82 (u "ひらがな　カタカナ") (Build_options false false true false)) = Ok (u "hiragana KATAKANA").
Proof. vm_compute. reflexivity. Qed.
(** src/traits.rs:168 *)
Example t221 : (is_hiragana (u "げーむ")) = true.
Proof. vm_compute. reflexivity. Qed.
(** src/traits.rs:169 *)
Example t222 : (is_hiragana (u "A")) = false.
Proof. vm_compute. reflexivity. Qed.
(** src/traits.rs:170 *)
Example t223 : (is_hiragana (u "あア")) = false.
Proof. vm_compute. reflexivity. Qed.
(** src/traits.rs:178 *)
Example t224 : (is_katakana (u "ゲーム")) = true.
Proof. vm_compute. reflexivity. Qed.
(** src/traits.rs:179 *)
Example t225 : (is_katakana (u "あ")) = false.
Proof. vm_compute. reflexivity. Qed.
(** src/traits.rs:180 *)
Example t226 : (is_katakana (u "A")) = false.
Proof. vm_compute. reflexivity. Qed.
(** src/traits.rs:181 *)
Example t227 : (is_katakana (u "あア")) = false.
Proof. vm_compute. reflexivity. Qed.
(** src/traits.rs:189 *)
Example t228 : (is_kana (u "あ")) = true.
Proof. vm_compute. reflexivity. Qed.
(** src/traits.rs:190 *)
Example t229 : (is_kana (u "ア")) = true.
Proof. vm_compute. reflexivity. Qed.
(** src/traits.rs:191 *)
Example t230 : (is_kana (u "あーア")) = true.
Proof. vm_compute. reflexivity. Qed.
(** src/traits.rs:192 *)
Example t231 : (is_kana (u "A")) = false.
Proof. vm_compute. reflexivity. Qed.
(** src/traits.rs:193 *)
Example t232 : (is_kana (u "あAア")) = false.
Proof. vm_compute. reflexivity. Qed.
(** src/traits.rs:201 *)
Example t233 : (is_romaji (u "A")) = true.
Proof. vm_compute. reflexivity. Qed.
(** src/traits.rs:202 *)
Example t234 : (is_romaji (u "xYz")) = true.
Proof. vm_compute. reflexivity. Qed.
(** src/traits.rs:203 *)
Example t235 : (is_romaji (u "Tōkyō and Ōsaka")) = true.
Proof. vm_compute. reflexivity. Qed.
(** src/traits.rs:204 *)
Example t236 : (is_romaji (u "あアA")) = false.
Proof. vm_compute. reflexivity. Qed.
(** src/traits.rs:205 *)
Example t237 : (is_romaji (u "お願い")) = false.
Proof. vm_compute. reflexivity. Qed.
(** src/traits.rs:206 *)
Example t238 : (is_romaji (u "熟成")) = false.
Proof. vm_compute. reflexivity. Qed.
(** src/traits.rs:207 *)
Example t239 : (is_romaji (u "a*b&c-d")) = true.
Proof. vm_compute. reflexivity. Qed.
(** src/traits.rs:208 *)
Example t240 : (is_romaji (u "0123456789")) = true.
Proof. vm_compute. reflexivity. Qed.
(** src/traits.rs:209 *)
Example t241 : (is_romaji (u "a！b&cーd")) = false.
Proof. vm_compute. reflexivity. Qed.
(** src/traits.rs:210 *)
Example t242 : (is_romaji (u "ｈｅｌｌｏ")) = false.
Proof. vm_compute. reflexivity. Qed.
(** src/traits.rs:222 *)
Example t243 : str_is_romaji_with_whitelist (u "a！b&cーd") (Some (char_class (u "！ー"))) = true.
Proof. vm_compute. reflexivity. Qed.
(** src/traits.rs:234 *)
Example t244 : (is_kanji (u "刀")) = true.
Proof. vm_compute. reflexivity. Qed.
(** src/traits.rs:235 *)
Example t245 : (is_kanji (u "切腹")) = true.
Proof. vm_compute. reflexivity. Qed.
(** src/traits.rs:236 *)
Example t246 : (is_kanji (u "勢い")) = false.
Proof. vm_compute. reflexivity. Qed.
(** src/traits.rs:237 *)
Example t247 : (is_kanji (u "あAア")) = false.
Proof. vm_compute. reflexivity. Qed.
(** src/traits.rs:238 *)
Example t248 : (is_kanji (u "🐸")) = false.
Proof. vm_compute. reflexivity. Qed.
(** src/traits.rs:247 *)
Example t249 : (contains_kanji (u "勢い")) = true.
Proof. vm_compute. reflexivity. Qed.
(** src/traits.rs:248 *)
Example t250 : (contains_kanji (u "hello")) = false.
Proof. vm_compute. reflexivity. Qed.
(** src/traits.rs:257 *)
Example t251 : (is_japanese (u "泣き虫")) = true.
Proof. vm_compute. reflexivity. Qed.
(** src/traits.rs:258 *)
Example t252 : (is_japanese (u "あア")) = true.
Proof. vm_compute. reflexivity. Qed.
(** src/traits.rs:259 *)
Example t253 : (is_japanese (u "２月")) = true.
Proof. vm_compute. reflexivity. Qed.
(** src/traits.rs:260 *)
Example t254 : (is_japanese (u "2月")) = false.
Proof. vm_compute. reflexivity. Qed.
(** src/traits.rs:261 *)
Example t255 : (is_japanese (u "泣き虫。！〜＄")) = true.
Proof. vm_compute. reflexivity. Qed.
(** src/traits.rs:262 *)
Example t256 : (is_japanese (u "泣き虫.!~$")) = false.
Proof. vm_compute. reflexivity. Qed.
(** src/traits.rs:263 *)
Example t257 : (is_japanese (u "A")) = false.
Proof. vm_compute. reflexivity. Qed.
(** src/traits.rs:274 *)
Example t258 : str_is_japanese_with_whitelist (u "≪偽括弧≫") (Some (char_class (u "≪≫"))) = true.
Proof. vm_compute. reflexivity. Qed.
(** src/traits.rs:287 *)
Example t259 : (is_mixed (u "Aア")) = true.
Proof. vm_compute. reflexivity. Qed.
(** src/traits.rs:288 *)
Example t260 : (is_mixed (u "Aあ")) = true.
Proof. vm_compute. reflexivity. Qed.
(** src/traits.rs:289 *)
Example t261 : (is_mixed (u "Aあア")) = true.
Proof. vm_compute. reflexivity. Qed.
(** src/traits.rs:290 *)
Example t262 : (is_mixed (u "２あア")) = false.
Proof. vm_compute. reflexivity. Qed.
(** src/traits.rs:291 *)
Example t263 : (is_mixed (u "お腹A")) = true.
Proof. vm_compute. reflexivity. Qed.
(** src/traits.rs:301 *)
Example t264 : (is_mixed_pass_kanji (u "Abあア") true) = true.
Proof. vm_compute. reflexivity. Qed.
(** src/traits.rs:302 *)
Example t265 : (is_mixed_pass_kanji (u "お腹A") true) = true.
Proof. vm_compute. reflexivity. Qed.
(** src/traits.rs:303 *)
Example t266 : (is_mixed_pass_kanji (u "お腹A") false) = false.
Proof. vm_compute. reflexivity. Qed.
(** src/traits.rs:304 *)
Example t267 : (is_mixed_pass_kanji (u "ab") true) = false.
Proof. vm_compute. reflexivity. Qed.
(** src/traits.rs:305 *)
Example t268 : (is_mixed_pass_kanji (u "あア") true) = false.
Proof. vm_compute. reflexivity. Qed.

(** ** src/trim_okurigana.rs *)
(** src/trim_okurigana.rs:6 *)
Example t269 : (trim_okurigana (u "踏み込む")) = Ok (u "踏み込").
Proof. vm_compute. reflexivity. Qed.
(** src/trim_okurigana.rs:7 *)
Example t270 : (trim_okurigana (u "使い方")) = Ok (u "使い方").
Proof. vm_compute. reflexivity. Qed.
(** src/trim_okurigana.rs:8 *)
Example t271 : (trim_okurigana (u "申し申し")) = Ok (u "申し申").
Proof. vm_compute. reflexivity. Qed.
(** src/trim_okurigana.rs:9 *)
Example t272 : (trim_okurigana (u "お腹")) = Ok (u "お腹").
Proof. vm_compute. reflexivity. Qed.
(** src/trim_okurigana.rs:10 *)
Example t273 : (trim_okurigana (u "お祝い")) = Ok (u "お祝").
Proof. vm_compute. reflexivity. Qed.
(** src/trim_okurigana.rs:59 *)
Example t274 : (trim_okurigana_with_opt (u "おはら") false (Some (u "お腹"))) = Ok (u "おはら").
Proof. vm_compute. reflexivity. Qed.
(** src/trim_okurigana.rs:60 *)
Example t275 : (trim_okurigana_with_opt (u "おはら") true (Some (u "お腹"))) = Ok (u "はら").
Proof. vm_compute. reflexivity. Qed.
(** src/trim_okurigana.rs:61 *)
Example t276 : (trim_okurigana_with_opt (u "ふみこむ") false (Some (u "踏み込む"))) = Ok (u "ふみこ").
Proof. vm_compute. reflexivity. Qed.
(** src/trim_okurigana.rs:62 *)
Example t277 : (trim_okurigana_with_opt (u "踏み込む") false None) = Ok (u "踏み込").
Proof. vm_compute. reflexivity. Qed.
(** src/trim_okurigana.rs:63 *)
Example t278 : (trim_okurigana_with_opt (u "おみまい") true (Some (u "お祝い"))) = Ok (u "みまい").
Proof. vm_compute. reflexivity. Qed.
(** src/trim_okurigana.rs:64 *)
Example t279 : (trim_okurigana_with_opt (u "おみまい") false (Some (u "お祝い"))) = Ok (u "おみま").
Proof. vm_compute. reflexivity. Qed.

(** ** src/utils/get_chunk.rs *)
(** src/utils/get_chunk.rs:14 *)
Example t280 : (get_chunk (u "derpalerp") 3 6) = Ok (encode (u "pal")).
Proof. vm_compute. reflexivity. Qed.
(** src/utils/get_chunk.rs:15 *)
Example t281 : (get_chunk (u "de") 0 1) = Ok (encode (u "d")).
Proof. vm_compute. reflexivity. Qed.
(** src/utils/get_chunk.rs:16 *)
Example t282 : (get_chunk [] 1 2) = Ok (encode []).
Proof. vm_compute. reflexivity. Qed.

(** ** src/utils/is_char_consonant.rs *)
(** src/utils/is_char_consonant.rs:17 *)
Example t283 : (negb (is_char_consonant (0x79) false)) = true.
Proof. vm_compute. reflexivity. Qed.
(** src/utils/is_char_consonant.rs:18 *)
Example t284 : (is_char_consonant (0x79) true) = true.
Proof. vm_compute. reflexivity. Qed.
(** src/utils/is_char_consonant.rs:19 *)
Example t285 : (negb (is_char_consonant (0x61) true)) = true.
Proof. vm_compute. reflexivity. Qed.
(** src/utils/is_char_consonant.rs:20 *)
Example t286 : (negb (is_char_consonant (0x21) true)) = true.
Proof. vm_compute. reflexivity. Qed.

(** ** src/utils/is_char_hiragana.rs *)
(** src/utils/is_char_hiragana.rs:15 *)
Example t287 : (is_char_hiragana (0x306A)) = true.
Proof. vm_compute. reflexivity. Qed.
(** src/utils/is_char_hiragana.rs:16 *)
Example t288 : (negb (is_char_hiragana (0x30CA))) = true.
Proof. vm_compute. reflexivity. Qed.
(** src/utils/is_char_hiragana.rs:17 *)
Example t289 : (negb (is_char_hiragana (0x6E))) = true.
Proof. vm_compute. reflexivity. Qed.
(** src/utils/is_char_hiragana.rs:18 *)
Example t290 : (negb (is_char_hiragana (0x21))) = true.
Proof. vm_compute. reflexivity. Qed.

(** ** src/utils/is_char_in_range.rs *)
(** src/utils/is_char_in_range.rs:17 *)
Example t291 : is_char_in_range (ch "は") HIRAGANA_START HIRAGANA_END = true.
Proof. vm_compute. reflexivity. Qed.
(** src/utils/is_char_in_range.rs:18 *)
Example t292 : is_char_in_range (ch "d") HIRAGANA_START HIRAGANA_END = false.
Proof. vm_compute. reflexivity. Qed.

(** ** src/utils/is_char_japanese.rs *)
(** src/utils/is_char_japanese.rs:14 *)
Example t293 : (is_char_japanese (0xFF11)) = true.
Proof. vm_compute. reflexivity. Qed.
(** src/utils/is_char_japanese.rs:15 *)
Example t294 : (is_char_japanese (0x30CA)) = true.
Proof. vm_compute. reflexivity. Qed.
(** src/utils/is_char_japanese.rs:16 *)
Example t295 : (is_char_japanese (0x306F)) = true.
Proof. vm_compute. reflexivity. Qed.
(** src/utils/is_char_japanese.rs:17 *)
Example t296 : (is_char_japanese (0x7F36)) = true.
Proof. vm_compute. reflexivity. Qed.
(** src/utils/is_char_japanese.rs:18 *)
Example t297 : (is_char_japanese (0x301C)) = true.
Proof. vm_compute. reflexivity. Qed.
(** src/utils/is_char_japanese.rs:19 *)
Example t298 : (is_char_japanese (0xFF4E)) = true.
Proof. vm_compute. reflexivity. Qed.
(** src/utils/is_char_japanese.rs:20 *)
Example t299 : (is_char_japanese (0xFF2B)) = true.
Proof. vm_compute. reflexivity. Qed.
(** src/utils/is_char_japanese.rs:21 *)
Example t300 : (negb (is_char_japanese (0x31))) = true.
Proof. vm_compute. reflexivity. Qed.
(** src/utils/is_char_japanese.rs:22 *)
Example t301 : (negb (is_char_japanese (0x6E))) = true.
Proof. vm_compute. reflexivity. Qed.
(** src/utils/is_char_japanese.rs:23 *)
Example t302 : (negb (is_char_japanese (0x4B))) = true.
Proof. vm_compute. reflexivity. Qed.
(** src/utils/is_char_japanese.rs:24 *)
Example t303 : (negb (is_char_japanese (0x21))) = true.
Proof. vm_compute. reflexivity. Qed.

(** ** src/utils/is_char_kana.rs *)
(** src/utils/is_char_kana.rs:12 *)
Example t304 : (is_char_kana (0x306F)) = true.
Proof. vm_compute. reflexivity. Qed.
(** src/utils/is_char_kana.rs:13 *)
Example t305 : (is_char_kana (0x30CA)) = true.
Proof. vm_compute. reflexivity. Qed.
(** src/utils/is_char_kana.rs:14 *)
Example t306 : (negb (is_char_kana (0x6E))) = true.
Proof. vm_compute. reflexivity. Qed.
(** src/utils/is_char_kana.rs:15 *)
Example t307 : (negb (is_char_kana (0x21))) = true.
Proof. vm_compute. reflexivity. Qed.
(** src/utils/is_char_kana.rs:16 *)
Example t308 : (negb (is_char_kana (0x2D))) = true.
Proof. vm_compute. reflexivity. Qed.
(** src/utils/is_char_kana.rs:17 *)
Example t309 : (is_char_kana (0x30FC)) = true.
Proof. vm_compute. reflexivity. Qed.

(** ** src/utils/is_char_kanji.rs *)
(** src/utils/is_char_kanji.rs:13 *)
Example t310 : (is_char_kanji (0x8179)) = true.
Proof. vm_compute. reflexivity. Qed.
(** src/utils/is_char_kanji.rs:14 *)
Example t311 : (is_char_kanji (0x4E00)) = true.
Proof. vm_compute. reflexivity. Qed.
(** src/utils/is_char_kanji.rs:15 *)
Example t312 : (negb (is_char_kanji (0x30FC))) = true.
Proof. vm_compute. reflexivity. Qed.
(** src/utils/is_char_kanji.rs:16 *)
Example t313 : (negb (is_char_kanji (0x306F))) = true.
Proof. vm_compute. reflexivity. Qed.
(** src/utils/is_char_kanji.rs:17 *)
Example t314 : (negb (is_char_kanji (0x30CA))) = true.
Proof. vm_compute. reflexivity. Qed.
(** src/utils/is_char_kanji.rs:18 *)
Example t315 : (negb (is_char_kanji (0x6E))) = true.
Proof. vm_compute. reflexivity. Qed.
(** src/utils/is_char_kanji.rs:19 *)
Example t316 : (negb (is_char_kanji (0x21))) = true.
Proof. vm_compute. reflexivity. Qed.

(** ** src/utils/is_char_katakana.rs *)
(** src/utils/is_char_katakana.rs:12 *)
Example t317 : (is_char_katakana (0x30CA)) = true.
Proof. vm_compute. reflexivity. Qed.
(** src/utils/is_char_katakana.rs:13 *)
Example t318 : (negb (is_char_katakana (0x306F))) = true.
Proof. vm_compute. reflexivity. Qed.
(** src/utils/is_char_katakana.rs:14 *)
Example t319 : (negb (is_char_katakana (0x6E))) = true.
Proof. vm_compute. reflexivity. Qed.
(** src/utils/is_char_katakana.rs:15 *)
Example t320 : (negb (is_char_katakana (0x21))) = true.
Proof. vm_compute. reflexivity. Qed.

(** ** src/utils/is_char_long_dash.rs *)
(** src/utils/is_char_long_dash.rs:10 *)
Example t321 : (is_char_long_dash (0x30FC)) = true.
Proof. vm_compute. reflexivity. Qed.
(** src/utils/is_char_long_dash.rs:11 *)
Example t322 : (negb (is_char_long_dash (0x2D))) = true.
Proof. vm_compute. reflexivity. Qed.
(** src/utils/is_char_long_dash.rs:12 *)
Example t323 : (negb (is_char_long_dash (0x66))) = true.
Proof. vm_compute. reflexivity. Qed.
(** src/utils/is_char_long_dash.rs:13 *)
Example t324 : (negb (is_char_long_dash (0x3075))) = true.
Proof. vm_compute. reflexivity. Qed.

(** ** src/utils/is_char_romaji.rs *)
(** src/utils/is_char_romaji.rs:13 *)
Example t325 : (is_char_romaji (0x6E)) = true.
Proof. vm_compute. reflexivity. Qed.
(** src/utils/is_char_romaji.rs:14 *)
Example t326 : (is_char_romaji (0x21)) = true.
Proof. vm_compute. reflexivity. Qed.
(** src/utils/is_char_romaji.rs:15 *)
Example t327 : (negb (is_char_romaji (0x30CA))) = true.
Proof. vm_compute. reflexivity. Qed.
(** src/utils/is_char_romaji.rs:16 *)
Example t328 : (negb (is_char_romaji (0x306F))) = true.
Proof. vm_compute. reflexivity. Qed.
(** src/utils/is_char_romaji.rs:17 *)
Example t329 : (negb (is_char_romaji (0x7F36))) = true.
Proof. vm_compute. reflexivity. Qed.

(** ** src/utils/is_char_slash_dot.rs *)
(** src/utils/is_char_slash_dot.rs:11 *)
Example t330 : (is_char_slash_dot (0x30FB)) = true.
Proof. vm_compute. reflexivity. Qed.
(** src/utils/is_char_slash_dot.rs:12 *)
Example t331 : (negb (is_char_slash_dot (0x2F))) = true.
Proof. vm_compute. reflexivity. Qed.

(** ** src/utils/is_char_upper_case.rs *)
(** src/utils/is_char_upper_case.rs:12 *)
Example t332 : (is_char_upper_case (0x41)) = true.
Proof. vm_compute. reflexivity. Qed.
(** src/utils/is_char_upper_case.rs:13 *)
Example t333 : (is_char_upper_case (0x44)) = true.
Proof. vm_compute. reflexivity. Qed.
(** src/utils/is_char_upper_case.rs:14 *)
Example t334 : (negb (is_char_upper_case (0x2D))) = true.
Proof. vm_compute. reflexivity. Qed.
(** src/utils/is_char_upper_case.rs:15 *)
Example t335 : (negb (is_char_upper_case (0x30FC))) = true.
Proof. vm_compute. reflexivity. Qed.
(** src/utils/is_char_upper_case.rs:16 *)
Example t336 : (negb (is_char_upper_case (0x61))) = true.
Proof. vm_compute. reflexivity. Qed.
(** src/utils/is_char_upper_case.rs:17 *)
Example t337 : (negb (is_char_upper_case (0x64))) = true.
Proof. vm_compute. reflexivity. Qed.

(** ** src/utils/is_char_vowel.rs *)
(** src/utils/is_char_vowel.rs:19 *)
Example t338 : (negb (is_char_vowel_opt (0x79) false)) = true.
Proof. vm_compute. reflexivity. Qed.
(** src/utils/is_char_vowel.rs:20 *)
Example t339 : (is_char_vowel_opt (0x79) true) = true.
Proof. vm_compute. reflexivity. Qed.
(** src/utils/is_char_vowel.rs:21 *)
Example t340 : (negb (is_char_vowel (0x78))) = true.
Proof. vm_compute. reflexivity. Qed.
(** src/utils/is_char_vowel.rs:22 *)
Example t341 : (negb (is_char_vowel (0x21))) = true.
Proof. vm_compute. reflexivity. Qed.

(** ** src/utils/katakana_to_hiragana.rs *)
(** src/utils/katakana_to_hiragana.rs:107 *)
Example t342 : (katakana_to_hiragana std_1_82 (u "カタカナ")) = Ok (u "かたかな").
Proof. vm_compute. reflexivity. Qed.
(** src/utils/katakana_to_hiragana.rs:108 *)
Example t343 : (katakana_to_hiragana std_1_82 (u "カタカナ is a type of kana")) = Ok (u "かたかな is a type of kana").
Proof. vm_compute. reflexivity. Qed.

(** ** src/utils/mod.rs *)
(** src/utils/mod.rs:62 *)
Example t344 : forallb is_char_english_punctuation (u "!?.:/,~-‘’“”[](){}") = true.
Proof. vm_compute. reflexivity. Qed.
(** src/utils/mod.rs:63 *)
Example t345 : forallb is_char_english_punctuation (u "！？。：・、〜ー「」『』［］（）｛｝") = false.
Proof. vm_compute. reflexivity. Qed.
(** src/utils/mod.rs:64 *)
Example t346 : (is_char_english_punctuation (0x20)) = true.
Proof. vm_compute. reflexivity. Qed.
(** src/utils/mod.rs:65 *)
Example t347 : (negb (is_char_english_punctuation (0x61))) = true.
Proof. vm_compute. reflexivity. Qed.
(** src/utils/mod.rs:66 *)
Example t348 : (negb (is_char_english_punctuation (0x3075))) = true.
Proof. vm_compute. reflexivity. Qed.
(** src/utils/mod.rs:67 *)
Example t349 : (negb (is_char_english_punctuation (0x5B57))) = true.
Proof. vm_compute. reflexivity. Qed.
(** src/utils/mod.rs:72 *)
Example t350 : forallb is_char_punctuation (u "!?.:/,~-‘’“”[](){}") = true.
Proof. vm_compute. reflexivity. Qed.
(** src/utils/mod.rs:73 *)
Example t351 : forallb is_char_punctuation (u "！？。：・、〜ー「」『』［］（）｛｝") = true.
Proof. vm_compute. reflexivity. Qed.
(** src/utils/mod.rs:74 *)
Example t352 : (is_char_punctuation (0x20)) = true.
Proof. vm_compute. reflexivity. Qed.
(** src/utils/mod.rs:75 *)
Example t353 : (is_char_punctuation (0x3000)) = true.
Proof. vm_compute. reflexivity. Qed.
(** src/utils/mod.rs:76 *)
Example t354 : (negb (is_char_punctuation (0x61))) = true.
Proof. vm_compute. reflexivity. Qed.
(** src/utils/mod.rs:77 *)
Example t355 : (negb (is_char_punctuation (0x3075))) = true.
Proof. vm_compute. reflexivity. Qed.
(** src/utils/mod.rs:78 *)
Example t356 : (negb (is_char_punctuation (0x5B57))) = true.
Proof. vm_compute. reflexivity. Qed.
(** src/utils/mod.rs:83 *)
Example t357 : forallb is_char_japanese_punctuation (u "!?.:/,~-‘’“”[](){}") = false.
Proof. vm_compute. reflexivity. Qed.
(** src/utils/mod.rs:84 *)
Example t358 : forallb is_char_japanese_punctuation (u "！？。：・、〜ー「」『』［］（）｛｝") = true.
Proof. vm_compute. reflexivity. Qed.
(** src/utils/mod.rs:85 *)
Example t359 : (is_char_japanese_punctuation (0x3000)) = true.
Proof. vm_compute. reflexivity. Qed.
(** src/utils/mod.rs:86 *)
Example t360 : (negb (is_char_japanese_punctuation (0x3F))) = true.
Proof. vm_compute. reflexivity. Qed.
(** src/utils/mod.rs:87 *)
Example t361 : (negb (is_char_japanese_punctuation (0x61))) = true.
Proof. vm_compute. reflexivity. Qed.
(** src/utils/mod.rs:88 *)
Example t362 : (negb (is_char_japanese_punctuation (0x3075))) = true.
Proof. vm_compute. reflexivity. Qed.
(** src/utils/mod.rs:89 *)
Example t363 : (negb (is_char_japanese_punctuation (0x5B57))) = true.
Proof. vm_compute. reflexivity. Qed.

(** ** tests/is_japanese.rs *)
(** tests/is_japanese.rs:7 *)
Example t364 : (negb (is_japanese [])) = true.
Proof. vm_compute. reflexivity. Qed.
(** tests/is_japanese.rs:11 *)
Example t365 : (is_japanese (u "泣き虫")) = true.
Proof. vm_compute. reflexivity. Qed.
(** tests/is_japanese.rs:18 *)
Example t366 : str_is_japanese_with_whitelist (u "≪偽括弧≫") (Some (char_class (u "≪≫"))) = true.
Proof. vm_compute. reflexivity. Qed.
(** tests/is_japanese.rs:25 *)
Example t367 : (is_japanese (u "あア")) = true.
Proof. vm_compute. reflexivity. Qed.
(** tests/is_japanese.rs:29 *)
Example t368 : (negb (is_japanese (u "A泣き虫"))) = true.
Proof. vm_compute. reflexivity. Qed.
(** tests/is_japanese.rs:33 *)
Example t369 : (negb (is_japanese (u "A"))) = true.
Proof. vm_compute. reflexivity. Qed.
(** tests/is_japanese.rs:37 *)
Example t370 : (is_japanese (u "　")) = true.
Proof. vm_compute. reflexivity. Qed.
(** tests/is_japanese.rs:41 *)
Example t371 : (negb (is_japanese (u " "))) = true.
Proof. vm_compute. reflexivity. Qed.
(** tests/is_japanese.rs:45 *)
Example t372 : (is_japanese (u "泣き虫。＃！〜〈〉《》〔〕［］【】（）｛｝〝〟")) = true.
Proof. vm_compute. reflexivity. Qed.
(** tests/is_japanese.rs:49 *)
Example t373 : (negb (is_japanese (u "泣き虫.!~"))) = true.
Proof. vm_compute. reflexivity. Qed.
(** tests/is_japanese.rs:53 *)
Example t374 : (is_japanese (u "０１２３４５６７８９")) = true.
Proof. vm_compute. reflexivity. Qed.
(** tests/is_japanese.rs:57 *)
Example t375 : (negb (is_japanese (u "0123456789"))) = true.
Proof. vm_compute. reflexivity. Qed.
(** tests/is_japanese.rs:61 *)
Example t376 : (is_japanese (u "ＭｅＴｏｏ")) = true.
Proof. vm_compute. reflexivity. Qed.
(** tests/is_japanese.rs:65 *)
Example t377 : (is_japanese (u "２０１１年")) = true.
Proof. vm_compute. reflexivity. Qed.
(** tests/is_japanese.rs:69 *)
Example t378 : (is_japanese (u "ﾊﾝｶｸｶﾀｶﾅ")) = true.
Proof. vm_compute. reflexivity. Qed.
(** tests/is_japanese.rs:73 *)
Example t379 : (is_japanese (u "＃ＭｅＴｏｏ、これを前に「ＫＵＲＯＳＨＩＯ」は、都内で報道陣を前に水中探査ロボットの最終点検の様子を公開しました。イルカのような形をした探査ロボットは、全長３メートル、重さは３５０キロあります。《はじめに》冒頭、安倍総理大臣は、ことしが明治元年から１５０年にあたることに触れ「明治という新しい時代が育てたあまたの人材が、技術優位の欧米諸国が迫る『国難』とも呼ぶべき危機の中で、わが国が急速に近代化を遂げる原動力となった。今また、日本は少子高齢化という『国難』とも呼ぶべき危機に直面している。もう１度、あらゆる日本人にチャンスを創ることで、少子高齢化も克服できる」と呼びかけました。《働き方改革》続いて安倍総理大臣は、具体的な政策課題の最初に「働き方改革」を取り上げ、「戦後の労働基準法制定以来、７０年ぶりの大改革だ。誰もが生きがいを感じて、その能力を思う存分発揮すれば少子高齢化も克服できる」と述べました。そして、同一労働同一賃金の実現や、時間外労働の上限規制の導入、それに労働時間でなく成果で評価するとして労働時間の規制から外す「高度プロフェッショナル制度」の創設などに取り組む考えを強調しました。")) = true.
Proof. vm_compute. reflexivity. Qed.

(** ** tests/tests.rs *)
(** tests/tests.rs:61 *)
Example t380 : (to_hiragana std_1_82 (u "バケル")) = Ok (u "ばける").
Proof. vm_compute. reflexivity. Qed.
(** tests/tests.rs:65 *)
Example t381 : (to_katakana std_1_82 (u "ばける")) = Ok (u "バケル").
Proof. vm_compute. reflexivity. Qed.
(** tests/tests.rs:70 *)
Example t382 : (to_katakana std_1_82 (u "スタイル")) = Ok (u "スタイル").
Proof. vm_compute. reflexivity. Qed.
(** tests/tests.rs:74 *)
Example t383 : (to_hiragana std_1_82 (u "すたーいる")) = Ok (u "すたーいる").
Proof. vm_compute. reflexivity. Qed.
(** tests/tests.rs:78 *)
Example t384 : (to_katakana std_1_82 (u "アメリカじん")) = Ok (u "アメリカジン").
Proof. vm_compute. reflexivity. Qed.
(** tests/tests.rs:82 *)
Example t385 : (to_hiragana std_1_82 (u "アメリカじん")) = Ok (u "あめりかじん").
Proof. vm_compute. reflexivity. Qed.
(** tests/tests.rs:89 *)
Example t386 : (to_hiragana std_1_82 (u "バツゴー")) = Ok (u "ばつごう").
Proof. vm_compute. reflexivity. Qed.
(** tests/tests.rs:93 *)
Example t387 : (to_katakana std_1_82 (u "ばつゲーム")) = Ok (u "バツゲーム").
Proof. vm_compute. reflexivity. Qed.
(** tests/tests.rs:97 *)
Example t388 : (to_hiragana std_1_82 (u "ばつげーむ")) = Ok (u "ばつげーむ").
Proof. vm_compute. reflexivity. Qed.
(** tests/tests.rs:101 *)
Example t389 : (to_katakana std_1_82 (u "バツゲーム")) = Ok (u "バツゲーム").
Proof. vm_compute. reflexivity. Qed.
(** tests/tests.rs:105 *)
Example t390 : (to_katakana std_1_82 (u "バツゲーム")) = Ok (u "バツゲーム").
Proof. vm_compute. reflexivity. Qed.
(** tests/tests.rs:109 *)
Example t391 : (to_katakana std_1_82 (u "テスーと")) = Ok (u "テスート").
Proof. vm_compute. reflexivity. Qed.
(** tests/tests.rs:113 *)
Example t392 : (to_hiragana std_1_82 (u "てすート")) = Ok (u "てすーと").
Proof. vm_compute. reflexivity. Qed.
(** tests/tests.rs:117 *)
Example t393 : (to_hiragana std_1_82 (u "てすー戸")) = Ok (u "てすー戸").
Proof. vm_compute. reflexivity. Qed.
(** tests/tests.rs:121 *)
Example t394 : (to_hiragana std_1_82 (u "手巣ート")) = Ok (u "手巣ーと").
Proof. vm_compute. reflexivity. Qed.
(** tests/tests.rs:125 *)
Example t395 : (to_hiragana std_1_82 (u "tesート")) = Ok (u "てsーと").
Proof. vm_compute. reflexivity. Qed.
(** tests/tests.rs:129 *)
Example t396 : (to_hiragana std_1_82 (u "ートtesu")) = Ok (u "ーとてす").
Proof. vm_compute. reflexivity. Qed.
(** tests/tests.rs:137 *)
Example t397 : (to_hiragana_with_opt std_1_82 (u "座禅‘zazen’スタイル") (Build_options false true false false)) = Ok (u "座禅‘zazen’すたいる").
Proof. vm_compute. reflexivity. Qed.
(** tests/tests.rs:147 *)
Example t398 : (to_katakana_with_opt std_1_82 (u "座禅‘zazen’すたいる") (Build_options false true false false)) = Ok (u "座禅‘zazen’スタイル").
Proof. vm_compute. reflexivity. Qed.
(** tests/tests.rs:157 *)
Example t399 : (to_hiragana std_1_82 (u "座禅‘zazen’スタイル")) = Ok (u "座禅「ざぜん」すたいる").
Proof. vm_compute. reflexivity. Qed.
(** tests/tests.rs:164 *)
Example t400 : (to_katakana std_1_82 (u "座禅‘zazen’すたいる")) = Ok (u "座禅「ザゼン」スタイル").
Proof. vm_compute. reflexivity. Qed.
(** tests/tests.rs:177 *)
Example t401 : (to_hiragana std_1_82 (u "aiueo")) = (to_hiragana std_1_82 (u "AIUEO")).
Proof. vm_compute. reflexivity. Qed.
(** tests/tests.rs:181 *)
Example t402 : (to_katakana std_1_82 (u "aiueo")) = (to_katakana std_1_82 (u "AIUEO")).
Proof. vm_compute. reflexivity. Qed.
(** tests/tests.rs:185 *)
Example t403 : (to_kana std_1_82 (u "aiueo")) <> (to_kana std_1_82 (u "AIUEO")).
Proof. vm_compute. discriminate. Qed.
(** tests/tests.rs:194 *)
Example t404 : (to_kana std_1_82 (u "n")) = Ok (u "ん").
Proof. vm_compute. reflexivity. Qed.
(** tests/tests.rs:198 *)
Example t405 : (to_kana std_1_82 (u "onn")) = Ok (u "おんん").
Proof. vm_compute. reflexivity. Qed.
(** tests/tests.rs:202 *)
Example t406 : (to_kana std_1_82 (u "onna")) = Ok (u "おんな").
Proof. vm_compute. reflexivity. Qed.
(** tests/tests.rs:206 *)
Example t407 : (to_kana std_1_82 (u "nnn")) = Ok (u "んんん").
Proof. vm_compute. reflexivity. Qed.
(** tests/tests.rs:210 *)
Example t408 : (to_kana std_1_82 (u "onnna")) = Ok (u "おんんな").
Proof. vm_compute. reflexivity. Qed.
(** tests/tests.rs:214 *)
Example t409 : (to_kana std_1_82 (u "nnnn")) = Ok (u "んんんん").
Proof. vm_compute. reflexivity. Qed.
(** tests/tests.rs:218 *)
Example t410 : (to_kana std_1_82 (u "nyan")) = Ok (u "にゃん").
Proof. vm_compute. reflexivity. Qed.
(** tests/tests.rs:222 *)
Example t411 : (to_kana std_1_82 (u "nnyann")) = Ok (u "んにゃんん").
Proof. vm_compute. reflexivity. Qed.
(** tests/tests.rs:226 *)
Example t412 : (to_kana std_1_82 (u "nnnyannn")) = Ok (u "んんにゃんんん").
Proof. vm_compute. reflexivity. Qed.
(** tests/tests.rs:230 *)
Example t413 : (to_kana std_1_82 (u "n'ya")) = Ok (u "んや").
Proof. vm_compute. reflexivity. Qed.
(** tests/tests.rs:234 *)
Example t414 : (to_kana std_1_82 (u "kin'ya")) = Ok (u "きんや").
Proof. vm_compute. reflexivity. Qed.
(** tests/tests.rs:238 *)
Example t415 : (to_kana std_1_82 (u "shin'ya")) = Ok (u "しんや").
Proof. vm_compute. reflexivity. Qed.
(** tests/tests.rs:242 *)
Example t416 : (to_kana std_1_82 (u "kinyou")) = Ok (u "きにょう").
Proof. vm_compute. reflexivity. Qed.
(** tests/tests.rs:246 *)
Example t417 : (to_kana std_1_82 (u "kin'you")) = Ok (u "きんよう").
Proof. vm_compute. reflexivity. Qed.
(** tests/tests.rs:250 *)
Example t418 : (to_kana std_1_82 (u "kin'yu")) = Ok (u "きんゆ").
Proof. vm_compute. reflexivity. Qed.
(** tests/tests.rs:254 *)
Example t419 : (to_kana std_1_82 (u "ichiban warui")) = Ok (u "いちばん わるい").
Proof. vm_compute. reflexivity. Qed.
(** tests/tests.rs:263 *)
Example t420 : (to_kana std_1_82 (u "chya")) = Ok (u "ちゃ").
Proof. vm_compute. reflexivity. Qed.
(** tests/tests.rs:267 *)
Example t421 : (to_kana std_1_82 (u "chyx")) = Ok (u "chyx").
Proof. vm_compute. reflexivity. Qed.
(** tests/tests.rs:271 *)
Example t422 : (to_kana std_1_82 (u "shyp")) = Ok (u "shyp").
Proof. vm_compute. reflexivity. Qed.
(** tests/tests.rs:275 *)
Example t423 : (to_kana std_1_82 (u "ltsb")) = Ok (u "ltsb").
Proof. vm_compute. reflexivity. Qed.

(** ** tests/tokenize.rs *)
(** tests/tokenize.rs:12 *)
Example t424 : (tokenize []) = [].
Proof. vm_compute. reflexivity. Qed.
(** tests/tokenize.rs:17 *)
Example t425 : (tokenize (u "ふふ")) = [(u "ふふ")].
Proof. vm_compute. reflexivity. Qed.
(** tests/tokenize.rs:18 *)
Example t426 : (tokenize (u "フフ")) = [(u "フフ")].
Proof. vm_compute. reflexivity. Qed.
(** tests/tokenize.rs:19 *)
Example t427 : (tokenize (u "ふふフフ")) = [(u "ふふ"); (u "フフ")].
Proof. vm_compute. reflexivity. Qed.
(** tests/tokenize.rs:20 *)
Example t428 : (tokenize (u "阮咸")) = [(u "阮咸")].
Proof. vm_compute. reflexivity. Qed.
(** tests/tokenize.rs:21 *)
Example t429 : (tokenize (u "感じ")) = [(u "感"); (u "じ")].
Proof. vm_compute. reflexivity. Qed.
(** tests/tokenize.rs:22 *)
Example t430 : (tokenize (u "私は悲しい")) = [(u "私"); (u "は"); (u "悲"); (u "しい")].
Proof. vm_compute. reflexivity. Qed.
(** tests/tokenize.rs:23 *)
Example t431 : (tokenize (u "ok لنذهب!")) = [(u "ok"); (u " "); (u "لنذهب"); (u "!")].
Proof. vm_compute. reflexivity. Qed.
(** tests/tokenize.rs:24 *)
Example t432 : (tokenize (u "what the...私は「悲しい」。")) = [(u "what"); (u " "); (u "the"); (u "..."); (u "私"); (u "は"); (u "「"); (u "悲"); (u "しい"); (u "」。")].
Proof. vm_compute. reflexivity. Qed.
(** tests/tokenize.rs:32 *)
Example t433 : (tokenize (u "5romaji here...!?漢字ひらがなカタ　カナ４「ＳＨＩＯ」。！")) = [(u "5"); (u "romaji"); (u " "); (u "here"); (u "...!?"); (u "漢字"); (u "ひらがな"); (u "カタ"); (u "　"); (u "カナ"); (u "４"); (u "「"); (u "ＳＨＩＯ"); (u "」。！")].
Proof. vm_compute. reflexivity. Qed.
(** tests/tokenize.rs:55 *)
Example t434 : (tokenize_with_opt (u "5romaji here...!?漢字ひらがなカタ　カナ４「ＳＨＩＯ」。！ لنذهب") true) = [(u "5"); (u "romaji here"); (u "...!?"); (u "漢字ひらがなカタ　カナ"); (u "４「"); (u "ＳＨＩＯ"); (u "」。！"); (u " "); (u "لنذهب")].
Proof. vm_compute. reflexivity. Qed.
(** tests/tokenize.rs:76 *)
Example t435 : (tokenize_detailed (u "5romaji here...!?漢字ひらがなカタ　カナ４「ＳＨＩＯ」。！ لنذهب") false) = [(EnNum, (u "5")); (En, (u "romaji")); (Space, (u " ")); (En, (u "here")); (EnPunc, (u "...!?")); (Kanji, (u "漢字")); (Hiragana, (u "ひらがな")); (Katakana, (u "カタ")); (Space, (u "　")); (Katakana, (u "カナ")); (JaNum, (u "４")); (JaPunc, (u "「")); (Ja, (u "ＳＨＩＯ")); (JaPunc, (u "」。！")); (Space, (u " ")); (Other, (u "لنذهب"))].
Proof. vm_compute. reflexivity. Qed.
(** tests/tokenize.rs:104 *)
Example t436 : (tokenize_detailed (u "5romaji here...!?漢字ひらがなカタ　カナ４「ＳＨＩＯ」。！ لنذهب") true) = [(Other, (u "5")); (En, (u "romaji here")); (Other, (u "...!?")); (Ja, (u "漢字ひらがなカタ　カナ")); (Other, (u "４「")); (Ja, (u "ＳＨＩＯ")); (Other, (u "」。！")); (En, (u " ")); (Other, (u "لنذهب"))].
Proof. vm_compute. reflexivity. Qed.

(** ** tests/trim_okurigana.rs *)
(** tests/trim_okurigana.rs:11 *)
Example t437 : (trim_okurigana []) = Ok [].
Proof. vm_compute. reflexivity. Qed.
(** tests/trim_okurigana.rs:16 *)
Example t438 : (trim_okurigana (u "踏み込む")) = Ok (u "踏み込").
Proof. vm_compute. reflexivity. Qed.
(** tests/trim_okurigana.rs:17 *)
Example t439 : (trim_okurigana (u "使い方")) = Ok (u "使い方").
Proof. vm_compute. reflexivity. Qed.
(** tests/trim_okurigana.rs:18 *)
Example t440 : (trim_okurigana (u "申し申し")) = Ok (u "申し申").
Proof. vm_compute. reflexivity. Qed.
(** tests/trim_okurigana.rs:19 *)
Example t441 : (trim_okurigana (u "お腹")) = Ok (u "お腹").
Proof. vm_compute. reflexivity. Qed.
(** tests/trim_okurigana.rs:20 *)
Example t442 : (trim_okurigana (u "お祝い")) = Ok (u "お祝").
Proof. vm_compute. reflexivity. Qed.
(** tests/trim_okurigana.rs:25 *)
Example t443 : (trim_okurigana_with_opt (u "踏み込む") true None) = Ok (u "踏み込む").
Proof. vm_compute. reflexivity. Qed.
(** tests/trim_okurigana.rs:26 *)
Example t444 : (trim_okurigana_with_opt (u "お腹") true None) = Ok (u "腹").
Proof. vm_compute. reflexivity. Qed.
(** tests/trim_okurigana.rs:27 *)
Example t445 : (trim_okurigana_with_opt (u "お祝い") true None) = Ok (u "祝い").
Proof. vm_compute. reflexivity. Qed.
(** tests/trim_okurigana.rs:32 *)
Example t446 : (trim_okurigana_with_opt (u "おはら") false (Some (u "お腹"))) = Ok (u "おはら").
Proof. vm_compute. reflexivity. Qed.
(** tests/trim_okurigana.rs:36 *)
Example t447 : (trim_okurigana_with_opt (u "おはら") true (Some (u "お腹"))) = Ok (u "はら").
Proof. vm_compute. reflexivity. Qed.
(** tests/trim_okurigana.rs:40 *)
Example t448 : (trim_okurigana_with_opt (u "ふみこむ") false (Some (u "踏み込む"))) = Ok (u "ふみこ").
Proof. vm_compute. reflexivity. Qed.
(** tests/trim_okurigana.rs:44 *)
Example t449 : (trim_okurigana_with_opt (u "おみまい") true (Some (u "お祝い"))) = Ok (u "みまい").
Proof. vm_compute. reflexivity. Qed.

(** ** tests/conversion_tables.rs and the loops over it in tests/tests.rs *)
Definition ROMA_TO_HIRA_KATA : list (str * str * str) := [
  ((u "ヶ"), (u "ヶ"), (u "ヶ"));
  ((u "ヵ"), (u "ヵ"), (u "ヵ"));
  ((u "1"), (u "1"), (u "1"));
  ((u "@"), (u "@"), (u "@"));
  ((u "#"), (u "#"), (u "#"));
  ((u "$"), (u "$"), (u "$"));
  ((u "%"), (u "%"), (u "%"));
  ((u "!"), (u "！"), (u "！"));
  ((u "?"), (u "？"), (u "？"));
  ((u "."), (u "。"), (u "。"));
  ((u ":"), (u "："), (u "："));
  ((u "/"), (u "・"), (u "・"));
  ((u ","), (u "、"), (u "、"));
  ((u "~"), (u "〜"), (u "〜"));
  ((u "-"), (u "ー"), (u "ー"));
  ((u "‘"), (u "「"), (u "「"));
  ((u "’"), (u "」"), (u "」"));
  ((u "“"), (u "『"), (u "『"));
  ((u "”"), (u "』"), (u "』"));
  ((u "["), (u "［"), (u "［"));
  ((u "]"), (u "］"), (u "］"));
  ((u "("), (u "（"), (u "（"));
  ((u ")"), (u "）"), (u "）"));
  ((u "{"), (u "｛"), (u "｛"));
  ((u "}"), (u "｝"), (u "｝"));
  ((u "a"), (u "あ"), (u "ア"));
  ((u "i"), (u "い"), (u "イ"));
  ((u "u"), (u "う"), (u "ウ"));
  ((u "e"), (u "え"), (u "エ"));
  ((u "o"), (u "お"), (u "オ"));
  ((u "la"), (u "ぁ"), (u "ァ"));
  ((u "xa"), (u "ぁ"), (u "ァ"));
  ((u "li"), (u "ぃ"), (u "ィ"));
  ((u "xi"), (u "ぃ"), (u "ィ"));
  ((u "lu"), (u "ぅ"), (u "ゥ"));
  ((u "xu"), (u "ぅ"), (u "ゥ"));
  ((u "le"), (u "ぇ"), (u "ェ"));
  ((u "xe"), (u "ぇ"), (u "ェ"));
  ((u "lo"), (u "ぉ"), (u "ォ"));
  ((u "xo"), (u "ぉ"), (u "ォ"));
  ((u "yi"), (u "い"), (u "イ"));
  ((u "wu"), (u "う"), (u "ウ"));
  ((u "whu"), (u "う"), (u "ウ"));
  ((u "xa"), (u "ぁ"), (u "ァ"));
  ((u "xi"), (u "ぃ"), (u "ィ"));
  ((u "xu"), (u "ぅ"), (u "ゥ"));
  ((u "xe"), (u "ぇ"), (u "ェ"));
  ((u "xo"), (u "ぉ"), (u "ォ"));
  ((u "xyi"), (u "ぃ"), (u "ィ"));
  ((u "xye"), (u "ぇ"), (u "ェ"));
  ((u "ye"), (u "いぇ"), (u "イェ"));
  ((u "wha"), (u "うぁ"), (u "ウァ"));
  ((u "whi"), (u "うぃ"), (u "ウィ"));
  ((u "whe"), (u "うぇ"), (u "ウェ"));
  ((u "who"), (u "うぉ"), (u "ウォ"));
  ((u "wi"), (u "うぃ"), (u "ウィ"));
  ((u "we"), (u "うぇ"), (u "ウェ"));
  ((u "va"), (u "ゔぁ"), (u "ヴァ"));
  ((u "vi"), (u "ゔぃ"), (u "ヴィ"));
  ((u "vu"), (u "ゔ"), (u "ヴ"));
  ((u "ve"), (u "ゔぇ"), (u "ヴェ"));
  ((u "vo"), (u "ゔぉ"), (u "ヴォ"));
  ((u "vyi"), (u "ゔぃ"), (u "ヴィ"));
  ((u "vye"), (u "ゔぇ"), (u "ヴェ"));
  ((u "vya"), (u "ゔゃ"), (u "ヴャ"));
  ((u "vyu"), (u "ゔゅ"), (u "ヴュ"));
  ((u "vyo"), (u "ゔょ"), (u "ヴョ"));
  ((u "ka"), (u "か"), (u "カ"));
  ((u "ki"), (u "き"), (u "キ"));
  ((u "ku"), (u "く"), (u "ク"));
  ((u "ke"), (u "け"), (u "ケ"));
  ((u "ko"), (u "こ"), (u "コ"));
  ((u "lka"), (u "ヵ"), (u "ヵ"));
  ((u "lke"), (u "ヶ"), (u "ヶ"));
  ((u "xka"), (u "ヵ"), (u "ヵ"));
  ((u "xke"), (u "ヶ"), (u "ヶ"));
  ((u "kya"), (u "きゃ"), (u "キャ"));
  ((u "kyi"), (u "きぃ"), (u "キィ"));
  ((u "kyu"), (u "きゅ"), (u "キュ"));
  ((u "kye"), (u "きぇ"), (u "キェ"));
  ((u "kyo"), (u "きょ"), (u "キョ"));
  ((u "ca"), (u "か"), (u "カ"));
  ((u "ci"), (u "き"), (u "キ"));
  ((u "cu"), (u "く"), (u "ク"));
  ((u "ce"), (u "け"), (u "ケ"));
  ((u "co"), (u "こ"), (u "コ"));
  ((u "lca"), (u "ヵ"), (u "ヵ"));
  ((u "lce"), (u "ヶ"), (u "ヶ"));
  ((u "xca"), (u "ヵ"), (u "ヵ"));
  ((u "xce"), (u "ヶ"), (u "ヶ"));
  ((u "qya"), (u "くゃ"), (u "クャ"));
  ((u "qyu"), (u "くゅ"), (u "クュ"));
  ((u "qyo"), (u "くょ"), (u "クョ"));
  ((u "qwa"), (u "くぁ"), (u "クァ"));
  ((u "qwi"), (u "くぃ"), (u "クィ"));
  ((u "qwu"), (u "くぅ"), (u "クゥ"));
  ((u "qwe"), (u "くぇ"), (u "クェ"));
  ((u "qwo"), (u "くぉ"), (u "クォ"));
  ((u "qa"), (u "くぁ"), (u "クァ"));
  ((u "qi"), (u "くぃ"), (u "クィ"));
  ((u "qe"), (u "くぇ"), (u "クェ"));
  ((u "qo"), (u "くぉ"), (u "クォ"));
  ((u "kwa"), (u "くぁ"), (u "クァ"));
  ((u "qyi"), (u "くぃ"), (u "クィ"));
  ((u "qye"), (u "くぇ"), (u "クェ"));
  ((u "ga"), (u "が"), (u "ガ"));
  ((u "gi"), (u "ぎ"), (u "ギ"));
  ((u "gu"), (u "ぐ"), (u "グ"));
  ((u "ge"), (u "げ"), (u "ゲ"));
  ((u "go"), (u "ご"), (u "ゴ"));
  ((u "gya"), (u "ぎゃ"), (u "ギャ"));
  ((u "gyi"), (u "ぎぃ"), (u "ギィ"));
  ((u "gyu"), (u "ぎゅ"), (u "ギュ"));
  ((u "gye"), (u "ぎぇ"), (u "ギェ"));
  ((u "gyo"), (u "ぎょ"), (u "ギョ"));
  ((u "gwa"), (u "ぐぁ"), (u "グァ"));
  ((u "gwi"), (u "ぐぃ"), (u "グィ"));
  ((u "gwu"), (u "ぐぅ"), (u "グゥ"));
  ((u "gwe"), (u "ぐぇ"), (u "グェ"));
  ((u "gwo"), (u "ぐぉ"), (u "グォ"));
  ((u "sa"), (u "さ"), (u "サ"));
  ((u "si"), (u "し"), (u "シ"));
  ((u "su"), (u "す"), (u "ス"));
  ((u "se"), (u "せ"), (u "セ"));
  ((u "so"), (u "そ"), (u "ソ"));
  ((u "shi"), (u "し"), (u "シ"));
  ((u "za"), (u "ざ"), (u "ザ"));
  ((u "zi"), (u "じ"), (u "ジ"));
  ((u "zu"), (u "ず"), (u "ズ"));
  ((u "ze"), (u "ぜ"), (u "ゼ"));
  ((u "zo"), (u "ぞ"), (u "ゾ"));
  ((u "ji"), (u "じ"), (u "ジ"));
  ((u "sya"), (u "しゃ"), (u "シャ"));
  ((u "syi"), (u "しぃ"), (u "シィ"));
  ((u "syu"), (u "しゅ"), (u "シュ"));
  ((u "sye"), (u "しぇ"), (u "シェ"));
  ((u "syo"), (u "しょ"), (u "ショ"));
  ((u "sha"), (u "しゃ"), (u "シャ"));
  ((u "shu"), (u "しゅ"), (u "シュ"));
  ((u "she"), (u "しぇ"), (u "シェ"));
  ((u "sho"), (u "しょ"), (u "ショ"));
  ((u "shya"), (u "しゃ"), (u "シャ"));
  ((u "shyu"), (u "しゅ"), (u "シュ"));
  ((u "shye"), (u "しぇ"), (u "シェ"));
  ((u "shyo"), (u "しょ"), (u "ショ"));
  ((u "swa"), (u "すぁ"), (u "スァ"));
  ((u "swi"), (u "すぃ"), (u "スィ"));
  ((u "swu"), (u "すぅ"), (u "スゥ"));
  ((u "swe"), (u "すぇ"), (u "スェ"));
  ((u "swo"), (u "すぉ"), (u "スォ"));
  ((u "zya"), (u "じゃ"), (u "ジャ"));
  ((u "zyi"), (u "じぃ"), (u "ジィ"));
  ((u "zyu"), (u "じゅ"), (u "ジュ"));
  ((u "zye"), (u "じぇ"), (u "ジェ"));
  ((u "zyo"), (u "じょ"), (u "ジョ"));
  ((u "ja"), (u "じゃ"), (u "ジャ"));
  ((u "ju"), (u "じゅ"), (u "ジュ"));
  ((u "je"), (u "じぇ"), (u "ジェ"));
  ((u "jo"), (u "じょ"), (u "ジョ"));
  ((u "jya"), (u "じゃ"), (u "ジャ"));
  ((u "jyi"), (u "じぃ"), (u "ジィ"));
  ((u "jyu"), (u "じゅ"), (u "ジュ"));
  ((u "jye"), (u "じぇ"), (u "ジェ"));
  ((u "jyo"), (u "じょ"), (u "ジョ"));
  ((u "ta"), (u "た"), (u "タ"));
  ((u "ti"), (u "ち"), (u "チ"));
  ((u "tu"), (u "つ"), (u "ツ"));
  ((u "te"), (u "て"), (u "テ"));
  ((u "to"), (u "と"), (u "ト"));
  ((u "chi"), (u "ち"), (u "チ"));
  ((u "tsu"), (u "つ"), (u "ツ"));
  ((u "ltu"), (u "っ"), (u "ッ"));
  ((u "xtu"), (u "っ"), (u "ッ"));
  ((u "ltsu"), (u "っ"), (u "ッ"));
  ((u "tya"), (u "ちゃ"), (u "チャ"));
  ((u "tyi"), (u "ちぃ"), (u "チィ"));
  ((u "tyu"), (u "ちゅ"), (u "チュ"));
  ((u "tye"), (u "ちぇ"), (u "チェ"));
  ((u "tyo"), (u "ちょ"), (u "チョ"));
  ((u "cha"), (u "ちゃ"), (u "チャ"));
  ((u "chu"), (u "ちゅ"), (u "チュ"));
  ((u "che"), (u "ちぇ"), (u "チェ"));
  ((u "cho"), (u "ちょ"), (u "チョ"));
  ((u "cya"), (u "ちゃ"), (u "チャ"));
  ((u "cyi"), (u "ちぃ"), (u "チィ"));
  ((u "cyu"), (u "ちゅ"), (u "チュ"));
  ((u "cye"), (u "ちぇ"), (u "チェ"));
  ((u "cyo"), (u "ちょ"), (u "チョ"));
  ((u "chya"), (u "ちゃ"), (u "チャ"));
  ((u "chyu"), (u "ちゅ"), (u "チュ"));
  ((u "chye"), (u "ちぇ"), (u "チェ"));
  ((u "chyo"), (u "ちょ"), (u "チョ"));
  ((u "tsa"), (u "つぁ"), (u "ツァ"));
  ((u "tsi"), (u "つぃ"), (u "ツィ"));
  ((u "tse"), (u "つぇ"), (u "ツェ"));
  ((u "tso"), (u "つぉ"), (u "ツォ"));
  ((u "tha"), (u "てゃ"), (u "テャ"));
  ((u "thi"), (u "てぃ"), (u "ティ"));
  ((u "thu"), (u "てゅ"), (u "テュ"));
  ((u "the"), (u "てぇ"), (u "テェ"));
  ((u "tho"), (u "てょ"), (u "テョ"));
  ((u "twa"), (u "とぁ"), (u "トァ"));
  ((u "twi"), (u "とぃ"), (u "トィ"));
  ((u "twu"), (u "とぅ"), (u "トゥ"));
  ((u "twe"), (u "とぇ"), (u "トェ"));
  ((u "two"), (u "とぉ"), (u "トォ"));
  ((u "da"), (u "だ"), (u "ダ"));
  ((u "di"), (u "ぢ"), (u "ヂ"));
  ((u "du"), (u "づ"), (u "ヅ"));
  ((u "de"), (u "で"), (u "デ"));
  ((u "do"), (u "ど"), (u "ド"));
  ((u "dya"), (u "ぢゃ"), (u "ヂャ"));
  ((u "dyi"), (u "ぢぃ"), (u "ヂィ"));
  ((u "dyu"), (u "ぢゅ"), (u "ヂュ"));
  ((u "dye"), (u "ぢぇ"), (u "ヂェ"));
  ((u "dyo"), (u "ぢょ"), (u "ヂョ"));
  ((u "dha"), (u "でゃ"), (u "デャ"));
  ((u "dhi"), (u "でぃ"), (u "ディ"));
  ((u "dhu"), (u "でゅ"), (u "デュ"));
  ((u "dhe"), (u "でぇ"), (u "デェ"));
  ((u "dho"), (u "でょ"), (u "デョ"));
  ((u "dwa"), (u "どぁ"), (u "ドァ"));
  ((u "dwi"), (u "どぃ"), (u "ドィ"));
  ((u "dwu"), (u "どぅ"), (u "ドゥ"));
  ((u "dwe"), (u "どぇ"), (u "ドェ"));
  ((u "dwo"), (u "どぉ"), (u "ドォ"));
  ((u "na"), (u "な"), (u "ナ"));
  ((u "ni"), (u "に"), (u "ニ"));
  ((u "nu"), (u "ぬ"), (u "ヌ"));
  ((u "ne"), (u "ね"), (u "ネ"));
  ((u "no"), (u "の"), (u "ノ"));
  ((u "nya"), (u "にゃ"), (u "ニャ"));
  ((u "nyi"), (u "にぃ"), (u "ニィ"));
  ((u "nyu"), (u "にゅ"), (u "ニュ"));
  ((u "nye"), (u "にぇ"), (u "ニェ"));
  ((u "nyo"), (u "にょ"), (u "ニョ"));
  ((u "ha"), (u "は"), (u "ハ"));
  ((u "hi"), (u "ひ"), (u "ヒ"));
  ((u "hu"), (u "ふ"), (u "フ"));
  ((u "he"), (u "へ"), (u "ヘ"));
  ((u "ho"), (u "ほ"), (u "ホ"));
  ((u "fu"), (u "ふ"), (u "フ"));
  ((u "hya"), (u "ひゃ"), (u "ヒャ"));
  ((u "hyi"), (u "ひぃ"), (u "ヒィ"));
  ((u "hyu"), (u "ひゅ"), (u "ヒュ"));
  ((u "hye"), (u "ひぇ"), (u "ヒェ"));
  ((u "hyo"), (u "ひょ"), (u "ヒョ"));
  ((u "fya"), (u "ふゃ"), (u "フャ"));
  ((u "fyu"), (u "ふゅ"), (u "フュ"));
  ((u "fyo"), (u "ふょ"), (u "フョ"));
  ((u "fwa"), (u "ふぁ"), (u "ファ"));
  ((u "fwi"), (u "ふぃ"), (u "フィ"));
  ((u "fwu"), (u "ふぅ"), (u "フゥ"));
  ((u "fwe"), (u "ふぇ"), (u "フェ"));
  ((u "fwo"), (u "ふぉ"), (u "フォ"));
  ((u "fa"), (u "ふぁ"), (u "ファ"));
  ((u "fi"), (u "ふぃ"), (u "フィ"));
  ((u "fe"), (u "ふぇ"), (u "フェ"));
  ((u "fo"), (u "ふぉ"), (u "フォ"));
  ((u "fyi"), (u "ふぃ"), (u "フィ"));
  ((u "fye"), (u "ふぇ"), (u "フェ"));
  ((u "ba"), (u "ば"), (u "バ"));
  ((u "bi"), (u "び"), (u "ビ"));
  ((u "bu"), (u "ぶ"), (u "ブ"));
  ((u "be"), (u "べ"), (u "ベ"));
  ((u "bo"), (u "ぼ"), (u "ボ"));
  ((u "bya"), (u "びゃ"), (u "ビャ"));
  ((u "byi"), (u "びぃ"), (u "ビィ"));
  ((u "byu"), (u "びゅ"), (u "ビュ"));
  ((u "bye"), (u "びぇ"), (u "ビェ"));
  ((u "byo"), (u "びょ"), (u "ビョ"));
  ((u "pa"), (u "ぱ"), (u "パ"));
  ((u "pi"), (u "ぴ"), (u "ピ"));
  ((u "pu"), (u "ぷ"), (u "プ"));
  ((u "pe"), (u "ぺ"), (u "ペ"));
  ((u "po"), (u "ぽ"), (u "ポ"));
  ((u "pya"), (u "ぴゃ"), (u "ピャ"));
  ((u "pyi"), (u "ぴぃ"), (u "ピィ"));
  ((u "pyu"), (u "ぴゅ"), (u "ピュ"));
  ((u "pye"), (u "ぴぇ"), (u "ピェ"));
  ((u "pyo"), (u "ぴょ"), (u "ピョ"));
  ((u "ma"), (u "ま"), (u "マ"));
  ((u "mi"), (u "み"), (u "ミ"));
  ((u "mu"), (u "む"), (u "ム"));
  ((u "me"), (u "め"), (u "メ"));
  ((u "mo"), (u "も"), (u "モ"));
  ((u "mya"), (u "みゃ"), (u "ミャ"));
  ((u "myi"), (u "みぃ"), (u "ミィ"));
  ((u "myu"), (u "みゅ"), (u "ミュ"));
  ((u "mye"), (u "みぇ"), (u "ミェ"));
  ((u "myo"), (u "みょ"), (u "ミョ"));
  ((u "ya"), (u "や"), (u "ヤ"));
  ((u "yu"), (u "ゆ"), (u "ユ"));
  ((u "yo"), (u "よ"), (u "ヨ"));
  ((u "xya"), (u "ゃ"), (u "ャ"));
  ((u "xyu"), (u "ゅ"), (u "ュ"));
  ((u "xyo"), (u "ょ"), (u "ョ"));
  ((u "ra"), (u "ら"), (u "ラ"));
  ((u "ri"), (u "り"), (u "リ"));
  ((u "ru"), (u "る"), (u "ル"));
  ((u "re"), (u "れ"), (u "レ"));
  ((u "ro"), (u "ろ"), (u "ロ"));
  ((u "rya"), (u "りゃ"), (u "リャ"));
  ((u "ryi"), (u "りぃ"), (u "リィ"));
  ((u "ryu"), (u "りゅ"), (u "リュ"));
  ((u "rye"), (u "りぇ"), (u "リェ"));
  ((u "ryo"), (u "りょ"), (u "リョ"));
  ((u "wa"), (u "わ"), (u "ワ"));
  ((u "wo"), (u "を"), (u "ヲ"));
  ((u "lwa"), (u "ゎ"), (u "ヮ"));
  ((u "xwa"), (u "ゎ"), (u "ヮ"));
  ((u "n"), (u "ん"), (u "ン"));
  ((u "nn"), (u "んん"), (u "ンン"));
  ((u "xn"), (u "ん"), (u "ン"));
  ((u "atta"), (u "あった"), (u "アッタ"));
  ((u "gakkounakatta"), (u "がっこうなかった"), (u "ガッコウナカッタ"));
  ((u "babba"), (u "ばっば"), (u "バッバ"));
  ((u "cacca"), (u "かっか"), (u "カッカ"));
  ((u "chaccha"), (u "ちゃっちゃ"), (u "チャッチャ"));
  ((u "dadda"), (u "だっだ"), (u "ダッダ"));
  ((u "fuffu"), (u "ふっふ"), (u "フッフ"));
  ((u "gagga"), (u "がっが"), (u "ガッガ"));
  ((u "hahha"), (u "はっは"), (u "ハッハ"));
  ((u "jajja"), (u "じゃっじゃ"), (u "ジャッジャ"));
  ((u "kakka"), (u "かっか"), (u "カッカ"));
  ((u "mamma"), (u "まっま"), (u "マッマ"));
  ((u "nanna"), (u "なんな"), (u "ナンナ"));
  ((u "pappa"), (u "ぱっぱ"), (u "パッパ"));
  ((u "qaqqa"), (u "くぁっくぁ"), (u "クァックァ"));
  ((u "rarra"), (u "らっら"), (u "ラッラ"));
  ((u "sassa"), (u "さっさ"), (u "サッサ"));
  ((u "shassha"), (u "しゃっしゃ"), (u "シャッシャ"));
  ((u "tatta"), (u "たった"), (u "タッタ"));
  ((u "tsuttsu"), (u "つっつ"), (u "ツッツ"));
  ((u "vavva"), (u "ゔぁっゔぁ"), (u "ヴァッヴァ"));
  ((u "wawwa"), (u "わっわ"), (u "ワッワ"));
  ((u "yayya"), (u "やっや"), (u "ヤッヤ"));
  ((u "zazza"), (u "ざっざ"), (u "ザッザ"))].
Definition HIRA_KATA_TO_ROMA : list (str * str * str) := [
  ((u "ヶ"), (u "ヶ"), (u "ヶ"));
  ((u "ヵ"), (u "ヵ"), (u "ヵ"));
  ((u "1"), (u "1"), (u "1"));
  ((u "@"), (u "@"), (u "@"));
  ((u "#"), (u "#"), (u "#"));
  ((u "$"), (u "$"), (u "$"));
  ((u "%"), (u "%"), (u "%"));
  ((u "いろはにほへと"), (u "イロハニホヘト"), (u "irohanihoheto"));
  ((u "ちりぬるを"), (u "チリヌルヲ"), (u "chirinuruwo"));
  ((u "わかよたれそ"), (u "ワカヨタレソ"), (u "wakayotareso"));
  ((u "つねならむ"), (u "ツネナラム"), (u "tsunenaramu"));
  ((u "うゐのおくやま"), (u "ウヰノオクヤマ"), (u "uwinookuyama"));
  ((u "けふこえて"), (u "ケフコエテ"), (u "kefukoete"));
  ((u "あさきゆめみし"), (u "アサキユメミシ"), (u "asakiyumemishi"));
  ((u "ゑひもせすん"), (u "ヱヒモセスン"), (u "wehimosesun"));
  ((u "！"), (u "！"), (u "!"));
  ((u "？"), (u "？"), (u "?"));
  ((u "。"), (u "。"), (u "."));
  ((u "："), (u "："), (u ":"));
  ((u "・"), (u "・"), (u "/"));
  ((u "、"), (u "、"), (u ","));
  ((u "〜"), (u "〜"), (u "~"));
  ((u "ー"), (u "ー"), (u "-"));
  ((u "「"), (u "「"), (u "‘"));
  ((u "」"), (u "」"), (u "’"));
  ((u "『"), (u "『"), (u "“"));
  ((u "』"), (u "』"), (u "”"));
  ((u "［"), (u "［"), (u "["));
  ((u "］"), (u "］"), (u "]"));
  ((u "（"), (u "（"), (u "("));
  ((u "）"), (u "）"), (u ")"));
  ((u "｛"), (u "｛"), (u "{"));
  ((u "｝"), (u "｝"), (u "}"));
  ((u "か"), (u "カ"), (u "ka"));
  ((u "き"), (u "キ"), (u "ki"));
  ((u "く"), (u "ク"), (u "ku"));
  ((u "け"), (u "ケ"), (u "ke"));
  ((u "こ"), (u "コ"), (u "ko"));
  ((u "きゃ"), (u "キャ"), (u "kya"));
  ((u "きゅ"), (u "キュ"), (u "kyu"));
  ((u "きょ"), (u "キョ"), (u "kyo"));
  ((u "さ"), (u "サ"), (u "sa"));
  ((u "し"), (u "シ"), (u "shi"));
  ((u "す"), (u "ス"), (u "su"));
  ((u "せ"), (u "セ"), (u "se"));
  ((u "そ"), (u "ソ"), (u "so"));
  ((u "しゃ"), (u "シャ"), (u "sha"));
  ((u "しゅ"), (u "シュ"), (u "shu"));
  ((u "しょ"), (u "ショ"), (u "sho"));
  ((u "た"), (u "タ"), (u "ta"));
  ((u "ち"), (u "チ"), (u "chi"));
  ((u "つ"), (u "ツ"), (u "tsu"));
  ((u "て"), (u "テ"), (u "te"));
  ((u "と"), (u "ト"), (u "to"));
  ((u "ちゃ"), (u "チャ"), (u "cha"));
  ((u "ちゅ"), (u "チュ"), (u "chu"));
  ((u "ちょ"), (u "チョ"), (u "cho"));
  ((u "な"), (u "ナ"), (u "na"));
  ((u "に"), (u "ニ"), (u "ni"));
  ((u "ぬ"), (u "ヌ"), (u "nu"));
  ((u "ね"), (u "ネ"), (u "ne"));
  ((u "の"), (u "ノ"), (u "no"));
  ((u "にゃ"), (u "ニャ"), (u "nya"));
  ((u "にゅ"), (u "ニュ"), (u "nyu"));
  ((u "にょ"), (u "ニョ"), (u "nyo"));
  ((u "は"), (u "ハ"), (u "ha"));
  ((u "ひ"), (u "ヒ"), (u "hi"));
  ((u "ふ"), (u "フ"), (u "fu"));
  ((u "へ"), (u "ヘ"), (u "he"));
  ((u "ほ"), (u "ホ"), (u "ho"));
  ((u "ひゃ"), (u "ヒャ"), (u "hya"));
  ((u "ひゅ"), (u "ヒュ"), (u "hyu"));
  ((u "ひょ"), (u "ヒョ"), (u "hyo"));
  ((u "ま"), (u "マ"), (u "ma"));
  ((u "み"), (u "ミ"), (u "mi"));
  ((u "む"), (u "ム"), (u "mu"));
  ((u "め"), (u "メ"), (u "me"));
  ((u "も"), (u "モ"), (u "mo"));
  ((u "みゃ"), (u "ミャ"), (u "mya"));
  ((u "みゅ"), (u "ミュ"), (u "myu"));
  ((u "みょ"), (u "ミョ"), (u "myo"));
  ((u "ら"), (u "ラ"), (u "ra"));
  ((u "り"), (u "リ"), (u "ri"));
  ((u "る"), (u "ル"), (u "ru"));
  ((u "れ"), (u "レ"), (u "re"));
  ((u "ろ"), (u "ロ"), (u "ro"));
  ((u "りゃ"), (u "リャ"), (u "rya"));
  ((u "りゅ"), (u "リュ"), (u "ryu"));
  ((u "りょ"), (u "リョ"), (u "ryo"));
  ((u "や"), (u "ヤ"), (u "ya"));
  ((u "ゆ"), (u "ユ"), (u "yu"));
  ((u "よ"), (u "ヨ"), (u "yo"));
  ((u "わ"), (u "ワ"), (u "wa"));
  ((u "ゐ"), (u "ヰ"), (u "wi"));
  ((u "ゑ"), (u "ヱ"), (u "we"));
  ((u "を"), (u "ヲ"), (u "wo"));
  ((u "が"), (u "ガ"), (u "ga"));
  ((u "ぎ"), (u "ギ"), (u "gi"));
  ((u "ぐ"), (u "グ"), (u "gu"));
  ((u "げ"), (u "ゲ"), (u "ge"));
  ((u "ご"), (u "ゴ"), (u "go"));
  ((u "ぎゃ"), (u "ギャ"), (u "gya"));
  ((u "ぎゅ"), (u "ギュ"), (u "gyu"));
  ((u "ぎょ"), (u "ギョ"), (u "gyo"));
  ((u "ざ"), (u "ザ"), (u "za"));
  ((u "じ"), (u "ジ"), (u "ji"));
  ((u "ず"), (u "ズ"), (u "zu"));
  ((u "ぜ"), (u "ゼ"), (u "ze"));
  ((u "ぞ"), (u "ゾ"), (u "zo"));
  ((u "じゃ"), (u "ジャ"), (u "ja"));
  ((u "じゅ"), (u "ジュ"), (u "ju"));
  ((u "じょ"), (u "ジョ"), (u "jo"));
  ((u "だ"), (u "ダ"), (u "da"));
  ((u "ぢ"), (u "ヂ"), (u "ji"));
  ((u "づ"), (u "ヅ"), (u "zu"));
  ((u "で"), (u "デ"), (u "de"));
  ((u "ど"), (u "ド"), (u "do"));
  ((u "ぢゃ"), (u "ヂャ"), (u "ja"));
  ((u "ぢゅ"), (u "ヂュ"), (u "ju"));
  ((u "ぢょ"), (u "ヂョ"), (u "jo"));
  ((u "ば"), (u "バ"), (u "ba"));
  ((u "び"), (u "ビ"), (u "bi"));
  ((u "ぶ"), (u "ブ"), (u "bu"));
  ((u "べ"), (u "ベ"), (u "be"));
  ((u "ぼ"), (u "ボ"), (u "bo"));
  ((u "びゃ"), (u "ビャ"), (u "bya"));
  ((u "びゅ"), (u "ビュ"), (u "byu"));
  ((u "びょ"), (u "ビョ"), (u "byo"));
  ((u "ぱ"), (u "パ"), (u "pa"));
  ((u "ぴ"), (u "ピ"), (u "pi"));
  ((u "ぷ"), (u "プ"), (u "pu"));
  ((u "ぺ"), (u "ペ"), (u "pe"));
  ((u "ぽ"), (u "ポ"), (u "po"));
  ((u "ぴゃ"), (u "ピャ"), (u "pya"));
  ((u "ぴゅ"), (u "ピュ"), (u "pyu"));
  ((u "ぴょ"), (u "ピョ"), (u "pyo"));
  ((u "ぁ"), (u "ァ"), (u "a"));
  ((u "ぃ"), (u "ィ"), (u "i"));
  ((u "ぅ"), (u "ゥ"), (u "u"));
  ((u "ぇ"), (u "ェ"), (u "e"));
  ((u "ぉ"), (u "ォ"), (u "o"));
  ((u "っ"), (u "ッ"), []);
  ((u "ゃ"), (u "ャ"), (u "ya"));
  ((u "ゅ"), (u "ュ"), (u "yu"));
  ((u "ょ"), (u "ョ"), (u "yo"));
  ((u "ん"), (u "ン"), (u "n"));
  ((u "んん"), (u "ンン"), (u "nn"));
  ((u "あんない"), (u "アンナイ"), (u "annai"));
  ((u "ぐんま"), (u "グンマ"), (u "gunma"));
  ((u "あった"), (u "アッタ"), (u "atta"));
  ((u "がっこうなかった"), (u "ガッコウナカッタ"), (u "gakkounakatta"));
  ((u "けっか"), (u "ケッカ"), (u "kekka"));
  ((u "さっさと"), (u "サッサト"), (u "sassato"));
  ((u "ずっと"), (u "ズット"), (u "zutto"));
  ((u "きっぷ"), (u "キップ"), (u "kippu"));
  ((u "ざっし"), (u "ザッシ"), (u "zasshi"));
  ((u "いっしょ"), (u "イッショ"), (u "issho"));
  ((u "こっち"), (u "コッチ"), (u "kotchi"));
  ((u "まっちゃ"), (u "マッチャ"), (u "matcha"));
  ((u "みっつ"), (u "ミッツ"), (u "mittsu"));
  ((u "ばっば"), (u "バッバ"), (u "babba"));
  ((u "かっか"), (u "カッカ"), (u "kakka"));
  ((u "ちゃっちゃ"), (u "チャッチャ"), (u "chatcha"));
  ((u "だっだ"), (u "ダッダ"), (u "dadda"));
  ((u "ふっふ"), (u "フッフ"), (u "fuffu"));
  ((u "がっが"), (u "ガッガ"), (u "gagga"));
  ((u "はっは"), (u "ハッハ"), (u "hahha"));
  ((u "じゃっじゃ"), (u "ジャッジャ"), (u "jajja"));
  ((u "かっか"), (u "カッカ"), (u "kakka"));
  ((u "まっま"), (u "マッマ"), (u "mamma"));
  ((u "なんな"), (u "ナンナ"), (u "nanna"));
  ((u "ぱっぱ"), (u "パッパ"), (u "pappa"));
  ((u "らっら"), (u "ラッラ"), (u "rarra"));
  ((u "さっさ"), (u "サッサ"), (u "sassa"));
  ((u "しゃっしゃ"), (u "シャッシャ"), (u "shassha"));
  ((u "たった"), (u "タッタ"), (u "tatta"));
  ((u "つっつ"), (u "ツッツ"), (u "tsuttsu"));
  ((u "わっわ"), (u "ワッワ"), (u "wawwa"));
  ((u "ざっざ"), (u "ザッザ"), (u "zazza"));
  ((u "がっこう"), [], (u "gakkou"));
  ((u "とうきょう"), [], (u "toukyou"));
  ((u "べんきょう"), [], (u "benkyou"));
  ((u "でんぽう"), [], (u "denpou"));
  ((u "きんようび"), [], (u "kin'youbi"));
  ((u "こうし"), [], (u "koushi"));
  ([], (u "セーラー"), (u "seeraa"));
  ([], (u "パーティー"), (u "paateii"));
  ([], (u "ヒーター"), (u "hiitaa"));
  ([], (u "タクシー"), (u "takushii"));
  ([], (u "スーパーマン"), (u "suupaaman"));
  ([], (u "バレーボール"), (u "bareebooru"));
  ([], (u "ソール"), (u "sooru"))].

Definition gives (r : res str) (s : str) : bool := match r with Ok t => str_eqb t s | _ => false end.
(** [str::to_uppercase] on the table's ASCII rows; other rows are caseless *)
Definition upper (s : str) : str := map ascii_upper s.

(** tests/tests.rs:19-26 *)
Example to_kana_test : forallb (fun r => match r with (romaji, hiragana, katakana) =>
  gives (to_kana std_1_82 romaji) hiragana && gives (to_kana std_1_82 (upper romaji)) katakana end)
  ROMA_TO_HIRA_KATA = true.
Proof. vm_compute. reflexivity. Qed.
(** tests/tests.rs:29-36 *)
Example to_hiragana_test : forallb (fun r => match r with (romaji, hiragana, _) =>
  gives (to_hiragana std_1_82 romaji) hiragana && gives (to_hiragana std_1_82 (upper romaji)) hiragana end)
  ROMA_TO_HIRA_KATA = true.
Proof. vm_compute. reflexivity. Qed.
(** tests/tests.rs:39-45 *)
Example hiragana_input_to_romaji : forallb (fun r => match r with (hiragana, _, romaji) =>
  is_empty hiragana || gives (to_romaji std_1_82 hiragana) romaji end) HIRA_KATA_TO_ROMA = true.
Proof. vm_compute. reflexivity. Qed.
(** tests/tests.rs:48-54 *)
Example katakana_input_to_romaji : forallb (fun r => match r with (_, katakana, romaji) =>
  is_empty katakana || gives (to_romaji std_1_82 katakana) romaji end) HIRA_KATA_TO_ROMA = true.
Proof. vm_compute. reflexivity. Qed.
