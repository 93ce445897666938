(** GENERATED by tools/gen_trees.py from to_romaji_node_tree.rs:44-2674; do not edit.
    One entry per entry of the Rust [vec!], same order, duplicates kept. *)
From Verif Require Import Base Trees.

Definition romaji_literal : list (char * rnode) := [
  (* to_romaji_node_tree.rs:45-51 *)
  (ch "ヷ", RNode None (u "va"));
  (* to_romaji_node_tree.rs:52-58 *)
  (0x3000, RNode None (u " "));
  (* to_romaji_node_tree.rs:59-65 *)
  (ch "、", RNode None (u ","));
  (* to_romaji_node_tree.rs:66-72 *)
  (ch "。", RNode None (u "."));
  (* to_romaji_node_tree.rs:73-79 *)
  (ch "「", RNode None (u "‘"));
  (* to_romaji_node_tree.rs:80-86 *)
  (ch "」", RNode None (u "’"));
  (* to_romaji_node_tree.rs:87-93 *)
  (ch "『", RNode None (u "“"));
  (* to_romaji_node_tree.rs:94-100 *)
  (ch "』", RNode None (u "”"));
  (* to_romaji_node_tree.rs:101-107 *)
  (ch "〜", RNode None (u "~"));
  (* to_romaji_node_tree.rs:108-114 *)
  (ch "ぁ", RNode None (u "a"));
  (* to_romaji_node_tree.rs:115-121 *)
  (ch "あ", RNode None (u "a"));
  (* to_romaji_node_tree.rs:122-128 *)
  (ch "ぃ", RNode None (u "i"));
  (* to_romaji_node_tree.rs:129-135 *)
  (ch "い", RNode None (u "i"));
  (* to_romaji_node_tree.rs:136-142 *)
  (ch "ぅ", RNode None (u "u"));
  (* to_romaji_node_tree.rs:143-149 *)
  (ch "う", RNode None (u "u"));
  (* to_romaji_node_tree.rs:150-156 *)
  (ch "ぇ", RNode None (u "e"));
  (* to_romaji_node_tree.rs:157-163 *)
  (ch "え", RNode None (u "e"));
  (* to_romaji_node_tree.rs:164-170 *)
  (ch "ぉ", RNode None (u "o"));
  (* to_romaji_node_tree.rs:171-177 *)
  (ch "お", RNode None (u "o"));
  (* to_romaji_node_tree.rs:178-184 *)
  (ch "か", RNode None (u "ka"));
  (* to_romaji_node_tree.rs:185-191 *)
  (ch "が", RNode None (u "ga"));
  (* to_romaji_node_tree.rs:192-234 *)
  (ch "き", RNode (Some [
    (ch "ぃ", RNode None (u "kyi"));
    (ch "ぇ", RNode None (u "kye"));
    (ch "ゃ", RNode None (u "kya"));
    (ch "ゅ", RNode None (u "kyu"));
    (ch "ょ", RNode None (u "kyo"))]) (u "ki"));
  (* to_romaji_node_tree.rs:235-277 *)
  (ch "ぎ", RNode (Some [
    (ch "ぃ", RNode None (u "gyi"));
    (ch "ぇ", RNode None (u "gye"));
    (ch "ゃ", RNode None (u "gya"));
    (ch "ゅ", RNode None (u "gyu"));
    (ch "ょ", RNode None (u "gyo"))]) (u "gi"));
  (* to_romaji_node_tree.rs:278-320 *)
  (ch "く", RNode (Some [
    (ch "ぃ", RNode None (u "kyi"));
    (ch "ぇ", RNode None (u "kye"));
    (ch "ゃ", RNode None (u "kya"));
    (ch "ゅ", RNode None (u "kyu"));
    (ch "ょ", RNode None (u "kyo"))]) (u "ku"));
  (* to_romaji_node_tree.rs:321-327 *)
  (ch "ぐ", RNode None (u "gu"));
  (* to_romaji_node_tree.rs:328-334 *)
  (ch "け", RNode None (u "ke"));
  (* to_romaji_node_tree.rs:335-341 *)
  (ch "げ", RNode None (u "ge"));
  (* to_romaji_node_tree.rs:342-348 *)
  (ch "こ", RNode None (u "ko"));
  (* to_romaji_node_tree.rs:349-355 *)
  (ch "ご", RNode None (u "go"));
  (* to_romaji_node_tree.rs:356-362 *)
  (ch "さ", RNode None (u "sa"));
  (* to_romaji_node_tree.rs:363-369 *)
  (ch "ざ", RNode None (u "za"));
  (* to_romaji_node_tree.rs:370-412 *)
  (ch "し", RNode (Some [
    (ch "ぃ", RNode None (u "shyi"));
    (ch "ぇ", RNode None (u "she"));
    (ch "ゃ", RNode None (u "sha"));
    (ch "ゅ", RNode None (u "shu"));
    (ch "ょ", RNode None (u "sho"))]) (u "shi"));
  (* to_romaji_node_tree.rs:413-455 *)
  (ch "じ", RNode (Some [
    (ch "ぃ", RNode None (u "jyi"));
    (ch "ぇ", RNode None (u "je"));
    (ch "ゃ", RNode None (u "ja"));
    (ch "ゅ", RNode None (u "ju"));
    (ch "ょ", RNode None (u "jo"))]) (u "ji"));
  (* to_romaji_node_tree.rs:456-462 *)
  (ch "す", RNode None (u "su"));
  (* to_romaji_node_tree.rs:463-469 *)
  (ch "ず", RNode None (u "zu"));
  (* to_romaji_node_tree.rs:470-476 *)
  (ch "せ", RNode None (u "se"));
  (* to_romaji_node_tree.rs:477-483 *)
  (ch "ぜ", RNode None (u "ze"));
  (* to_romaji_node_tree.rs:484-490 *)
  (ch "そ", RNode None (u "so"));
  (* to_romaji_node_tree.rs:491-497 *)
  (ch "ぞ", RNode None (u "zo"));
  (* to_romaji_node_tree.rs:498-504 *)
  (ch "た", RNode None (u "ta"));
  (* to_romaji_node_tree.rs:505-511 *)
  (ch "だ", RNode None (u "da"));
  (* to_romaji_node_tree.rs:512-554 *)
  (ch "ち", RNode (Some [
    (ch "ぃ", RNode None (u "chyi"));
    (ch "ぇ", RNode None (u "che"));
    (ch "ゃ", RNode None (u "cha"));
    (ch "ゅ", RNode None (u "chu"));
    (ch "ょ", RNode None (u "cho"))]) (u "chi"));
  (* to_romaji_node_tree.rs:555-597 *)
  (ch "ぢ", RNode (Some [
    (ch "ぃ", RNode None (u "jyi"));
    (ch "ぇ", RNode None (u "je"));
    (ch "ゃ", RNode None (u "ja"));
    (ch "ゅ", RNode None (u "ju"));
    (ch "ょ", RNode None (u "jo"))]) (u "ji"));
  (* to_romaji_node_tree.rs:598-1880 *)
  (ch "っ", RNode (Some [
    (0x3000, RNode None (u " "));
    (ch "、", RNode None (u ","));
    (ch "。", RNode None (u "."));
    (ch "「", RNode None (u "‘"));
    (ch "」", RNode None (u "’"));
    (ch "『", RNode None (u "“"));
    (ch "』", RNode None (u "”"));
    (ch "〜", RNode None (u "~"));
    (ch "ぁ", RNode None (u "a"));
    (ch "あ", RNode None (u "a"));
    (ch "ぃ", RNode None (u "i"));
    (ch "い", RNode None (u "i"));
    (ch "ぅ", RNode None (u "u"));
    (ch "う", RNode None (u "u"));
    (ch "ぇ", RNode None (u "e"));
    (ch "え", RNode None (u "e"));
    (ch "ぉ", RNode None (u "o"));
    (ch "お", RNode None (u "o"));
    (ch "か", RNode None (u "kka"));
    (ch "が", RNode None (u "gga"));
    (ch "き", RNode (Some [
      (ch "ぃ", RNode None (u "kkyi"));
      (ch "ぇ", RNode None (u "kkye"));
      (ch "ゃ", RNode None (u "kkya"));
      (ch "ゅ", RNode None (u "kkyu"));
      (ch "ょ", RNode None (u "kkyo"))]) (u "kki"));
    (ch "ぎ", RNode (Some [
      (ch "ぃ", RNode None (u "ggyi"));
      (ch "ぇ", RNode None (u "ggye"));
      (ch "ゃ", RNode None (u "ggya"));
      (ch "ゅ", RNode None (u "ggyu"));
      (ch "ょ", RNode None (u "ggyo"))]) (u "ggi"));
    (ch "く", RNode (Some [
      (ch "ぃ", RNode None (u "kkyi"));
      (ch "ぇ", RNode None (u "kkye"));
      (ch "ゃ", RNode None (u "kkya"));
      (ch "ゅ", RNode None (u "kkyu"));
      (ch "ょ", RNode None (u "kkyo"))]) (u "kku"));
    (ch "ぐ", RNode None (u "ggu"));
    (ch "け", RNode None (u "kke"));
    (ch "げ", RNode None (u "gge"));
    (ch "こ", RNode None (u "kko"));
    (ch "ご", RNode None (u "ggo"));
    (ch "さ", RNode None (u "ssa"));
    (ch "ざ", RNode None (u "zza"));
    (ch "し", RNode (Some [
      (ch "ぃ", RNode None (u "sshyi"));
      (ch "ぇ", RNode None (u "sshe"));
      (ch "ゃ", RNode None (u "ssha"));
      (ch "ゅ", RNode None (u "sshu"));
      (ch "ょ", RNode None (u "ssho"))]) (u "sshi"));
    (ch "じ", RNode (Some [
      (ch "ぃ", RNode None (u "jjyi"));
      (ch "ぇ", RNode None (u "jje"));
      (ch "ゃ", RNode None (u "jja"));
      (ch "ゅ", RNode None (u "jju"));
      (ch "ょ", RNode None (u "jjo"))]) (u "jji"));
    (ch "す", RNode None (u "ssu"));
    (ch "ず", RNode None (u "zzu"));
    (ch "せ", RNode None (u "sse"));
    (ch "ぜ", RNode None (u "zze"));
    (ch "そ", RNode None (u "sso"));
    (ch "ぞ", RNode None (u "zzo"));
    (ch "た", RNode None (u "tta"));
    (ch "だ", RNode None (u "dda"));
    (ch "ち", RNode (Some [
      (ch "ぃ", RNode None (u "tchyi"));
      (ch "ぇ", RNode None (u "tche"));
      (ch "ゃ", RNode None (u "tcha"));
      (ch "ゅ", RNode None (u "tchu"));
      (ch "ょ", RNode None (u "tcho"))]) (u "tchi"));
    (ch "ぢ", RNode (Some [
      (ch "ぃ", RNode None (u "jjyi"));
      (ch "ぇ", RNode None (u "jje"));
      (ch "ゃ", RNode None (u "jja"));
      (ch "ゅ", RNode None (u "jju"));
      (ch "ょ", RNode None (u "jjo"))]) (u "jji"));
    (ch "つ", RNode None (u "ttsu"));
    (ch "づ", RNode None (u "zzu"));
    (ch "て", RNode None (u "tte"));
    (ch "で", RNode None (u "dde"));
    (ch "と", RNode None (u "tto"));
    (ch "ど", RNode None (u "ddo"));
    (ch "な", RNode None (u "na"));
    (ch "に", RNode (Some [
      (ch "ぃ", RNode None (u "nyi"));
      (ch "ぇ", RNode None (u "nye"));
      (ch "ゃ", RNode None (u "nya"));
      (ch "ゅ", RNode None (u "nyu"));
      (ch "ょ", RNode None (u "nyo"))]) (u "ni"));
    (ch "ぬ", RNode None (u "nu"));
    (ch "ね", RNode None (u "ne"));
    (ch "の", RNode None (u "no"));
    (ch "は", RNode None (u "hha"));
    (ch "ば", RNode None (u "bba"));
    (ch "ぱ", RNode None (u "ppa"));
    (ch "ひ", RNode (Some [
      (ch "ぃ", RNode None (u "hhyi"));
      (ch "ぇ", RNode None (u "hhye"));
      (ch "ゃ", RNode None (u "hhya"));
      (ch "ゅ", RNode None (u "hhyu"));
      (ch "ょ", RNode None (u "hhyo"))]) (u "hhi"));
    (ch "び", RNode (Some [
      (ch "ぃ", RNode None (u "bbyi"));
      (ch "ぇ", RNode None (u "bbye"));
      (ch "ゃ", RNode None (u "bbya"));
      (ch "ゅ", RNode None (u "bbyu"));
      (ch "ょ", RNode None (u "bbyo"))]) (u "bbi"));
    (ch "ぴ", RNode (Some [
      (ch "ぃ", RNode None (u "ppyi"));
      (ch "ぇ", RNode None (u "ppye"));
      (ch "ゃ", RNode None (u "ppya"));
      (ch "ゅ", RNode None (u "ppyu"));
      (ch "ょ", RNode None (u "ppyo"))]) (u "ppi"));
    (ch "ふ", RNode (Some [
      (ch "ぃ", RNode None (u "ffyi"));
      (ch "ぇ", RNode None (u "ffye"));
      (ch "ゃ", RNode None (u "ffya"));
      (ch "ゅ", RNode None (u "ffyu"));
      (ch "ょ", RNode None (u "ffyo"))]) (u "ffu"));
    (ch "ぶ", RNode None (u "bbu"));
    (ch "ぷ", RNode None (u "ppu"));
    (ch "へ", RNode None (u "hhe"));
    (ch "べ", RNode None (u "bbe"));
    (ch "ぺ", RNode None (u "ppe"));
    (ch "ほ", RNode None (u "hho"));
    (ch "ぼ", RNode None (u "bbo"));
    (ch "ぽ", RNode None (u "ppo"));
    (ch "ま", RNode None (u "mma"));
    (ch "み", RNode (Some [
      (ch "ぃ", RNode None (u "mmyi"));
      (ch "ぇ", RNode None (u "mmye"));
      (ch "ゃ", RNode None (u "mmya"));
      (ch "ゅ", RNode None (u "mmyu"));
      (ch "ょ", RNode None (u "mmyo"))]) (u "mmi"));
    (ch "む", RNode None (u "mmu"));
    (ch "め", RNode None (u "mme"));
    (ch "も", RNode None (u "mmo"));
    (ch "ゃ", RNode None (u "ya"));
    (ch "や", RNode None (u "ya"));
    (ch "ゅ", RNode None (u "yu"));
    (ch "ゆ", RNode None (u "yu"));
    (ch "ょ", RNode None (u "yo"));
    (ch "よ", RNode None (u "yo"));
    (ch "ら", RNode None (u "rra"));
    (ch "り", RNode (Some [
      (ch "ぃ", RNode None (u "rryi"));
      (ch "ぇ", RNode None (u "rrye"));
      (ch "ゃ", RNode None (u "rrya"));
      (ch "ゅ", RNode None (u "rryu"));
      (ch "ょ", RNode None (u "rryo"))]) (u "rri"));
    (ch "る", RNode None (u "rru"));
    (ch "れ", RNode None (u "rre"));
    (ch "ろ", RNode None (u "rro"));
    (ch "わ", RNode None (u "wwa"));
    (ch "ゐ", RNode None (u "wwi"));
    (ch "ゑ", RNode None (u "wwe"));
    (ch "を", RNode None (u "wwo"));
    (ch "ん", RNode None (u "n"));
    (ch "ゔ", RNode (Some [
      (ch "ぃ", RNode None (u "vvyi"));
      (ch "ぇ", RNode None (u "vvye"));
      (ch "ゃ", RNode None (u "vvya"));
      (ch "ゅ", RNode None (u "vvyu"));
      (ch "ょ", RNode None (u "vvyo"))]) (u "vvu"));
    (ch "ゔ", RNode None (u "vva"));
    (ch "ゔ", RNode None (u "vvi"));
    (ch "ゔ", RNode None (u "vve"));
    (ch "ゔ", RNode None (u "vvo"));
    (ch "・", RNode None (u "/"));
    (ch "ー", RNode None (u "-"));
    (ch "！", RNode None (u "!"));
    (ch "（", RNode None (u "("));
    (ch "）", RNode None (u ")"));
    (ch "：", RNode None (u ":"));
    (ch "？", RNode None (u "?"));
    (ch "［", RNode None (u "["));
    (ch "］", RNode None (u "]"));
    (ch "｛", RNode None (u "{"));
    (ch "｝", RNode None (u "}"))]) (u ""));
  (* to_romaji_node_tree.rs:1881-1887 *)
  (ch "つ", RNode None (u "tsu"));
  (* to_romaji_node_tree.rs:1888-1894 *)
  (ch "づ", RNode None (u "zu"));
  (* to_romaji_node_tree.rs:1895-1901 *)
  (ch "て", RNode None (u "te"));
  (* to_romaji_node_tree.rs:1902-1908 *)
  (ch "で", RNode None (u "de"));
  (* to_romaji_node_tree.rs:1909-1915 *)
  (ch "と", RNode None (u "to"));
  (* to_romaji_node_tree.rs:1916-1922 *)
  (ch "ど", RNode None (u "do"));
  (* to_romaji_node_tree.rs:1923-1929 *)
  (ch "な", RNode None (u "na"));
  (* to_romaji_node_tree.rs:1930-1972 *)
  (ch "に", RNode (Some [
    (ch "ぃ", RNode None (u "nyi"));
    (ch "ぇ", RNode None (u "nye"));
    (ch "ゃ", RNode None (u "nya"));
    (ch "ゅ", RNode None (u "nyu"));
    (ch "ょ", RNode None (u "nyo"))]) (u "ni"));
  (* to_romaji_node_tree.rs:1973-1979 *)
  (ch "ぬ", RNode None (u "nu"));
  (* to_romaji_node_tree.rs:1980-1986 *)
  (ch "ね", RNode None (u "ne"));
  (* to_romaji_node_tree.rs:1987-1993 *)
  (ch "の", RNode None (u "no"));
  (* to_romaji_node_tree.rs:1994-2000 *)
  (ch "は", RNode None (u "ha"));
  (* to_romaji_node_tree.rs:2001-2007 *)
  (ch "ば", RNode None (u "ba"));
  (* to_romaji_node_tree.rs:2008-2014 *)
  (ch "ぱ", RNode None (u "pa"));
  (* to_romaji_node_tree.rs:2015-2057 *)
  (ch "ひ", RNode (Some [
    (ch "ぃ", RNode None (u "hyi"));
    (ch "ぇ", RNode None (u "hye"));
    (ch "ゃ", RNode None (u "hya"));
    (ch "ゅ", RNode None (u "hyu"));
    (ch "ょ", RNode None (u "hyo"))]) (u "hi"));
  (* to_romaji_node_tree.rs:2058-2100 *)
  (ch "び", RNode (Some [
    (ch "ぃ", RNode None (u "byi"));
    (ch "ぇ", RNode None (u "bye"));
    (ch "ゃ", RNode None (u "bya"));
    (ch "ゅ", RNode None (u "byu"));
    (ch "ょ", RNode None (u "byo"))]) (u "bi"));
  (* to_romaji_node_tree.rs:2101-2143 *)
  (ch "ぴ", RNode (Some [
    (ch "ぃ", RNode None (u "pyi"));
    (ch "ぇ", RNode None (u "pye"));
    (ch "ゃ", RNode None (u "pya"));
    (ch "ゅ", RNode None (u "pyu"));
    (ch "ょ", RNode None (u "pyo"))]) (u "pi"));
  (* to_romaji_node_tree.rs:2144-2186 *)
  (ch "ふ", RNode (Some [
    (ch "ぃ", RNode None (u "fyi"));
    (ch "ぇ", RNode None (u "fye"));
    (ch "ゃ", RNode None (u "fya"));
    (ch "ゅ", RNode None (u "fyu"));
    (ch "ょ", RNode None (u "fyo"))]) (u "fu"));
  (* to_romaji_node_tree.rs:2187-2193 *)
  (ch "ぶ", RNode None (u "bu"));
  (* to_romaji_node_tree.rs:2194-2200 *)
  (ch "ぷ", RNode None (u "pu"));
  (* to_romaji_node_tree.rs:2201-2207 *)
  (ch "へ", RNode None (u "he"));
  (* to_romaji_node_tree.rs:2208-2214 *)
  (ch "べ", RNode None (u "be"));
  (* to_romaji_node_tree.rs:2215-2221 *)
  (ch "ぺ", RNode None (u "pe"));
  (* to_romaji_node_tree.rs:2222-2228 *)
  (ch "ほ", RNode None (u "ho"));
  (* to_romaji_node_tree.rs:2229-2235 *)
  (ch "ぼ", RNode None (u "bo"));
  (* to_romaji_node_tree.rs:2236-2242 *)
  (ch "ぽ", RNode None (u "po"));
  (* to_romaji_node_tree.rs:2243-2249 *)
  (ch "ま", RNode None (u "ma"));
  (* to_romaji_node_tree.rs:2250-2292 *)
  (ch "み", RNode (Some [
    (ch "ぃ", RNode None (u "myi"));
    (ch "ぇ", RNode None (u "mye"));
    (ch "ゃ", RNode None (u "mya"));
    (ch "ゅ", RNode None (u "myu"));
    (ch "ょ", RNode None (u "myo"))]) (u "mi"));
  (* to_romaji_node_tree.rs:2293-2299 *)
  (ch "む", RNode None (u "mu"));
  (* to_romaji_node_tree.rs:2300-2306 *)
  (ch "め", RNode None (u "me"));
  (* to_romaji_node_tree.rs:2307-2313 *)
  (ch "も", RNode None (u "mo"));
  (* to_romaji_node_tree.rs:2314-2320 *)
  (ch "ゃ", RNode None (u "ya"));
  (* to_romaji_node_tree.rs:2321-2327 *)
  (ch "や", RNode None (u "ya"));
  (* to_romaji_node_tree.rs:2328-2334 *)
  (ch "ゅ", RNode None (u "yu"));
  (* to_romaji_node_tree.rs:2335-2341 *)
  (ch "ゆ", RNode None (u "yu"));
  (* to_romaji_node_tree.rs:2342-2348 *)
  (ch "ょ", RNode None (u "yo"));
  (* to_romaji_node_tree.rs:2349-2355 *)
  (ch "よ", RNode None (u "yo"));
  (* to_romaji_node_tree.rs:2356-2362 *)
  (ch "ら", RNode None (u "ra"));
  (* to_romaji_node_tree.rs:2363-2405 *)
  (ch "り", RNode (Some [
    (ch "ぃ", RNode None (u "ryi"));
    (ch "ぇ", RNode None (u "rye"));
    (ch "ゃ", RNode None (u "rya"));
    (ch "ゅ", RNode None (u "ryu"));
    (ch "ょ", RNode None (u "ryo"))]) (u "ri"));
  (* to_romaji_node_tree.rs:2406-2412 *)
  (ch "る", RNode None (u "ru"));
  (* to_romaji_node_tree.rs:2413-2419 *)
  (ch "れ", RNode None (u "re"));
  (* to_romaji_node_tree.rs:2420-2426 *)
  (ch "ろ", RNode None (u "ro"));
  (* to_romaji_node_tree.rs:2427-2433 *)
  (ch "ゎ", RNode None (u "wa"));
  (* to_romaji_node_tree.rs:2434-2440 *)
  (ch "わ", RNode None (u "wa"));
  (* to_romaji_node_tree.rs:2441-2447 *)
  (ch "ゐ", RNode None (u "wi"));
  (* to_romaji_node_tree.rs:2448-2454 *)
  (ch "ゑ", RNode None (u "we"));
  (* to_romaji_node_tree.rs:2455-2461 *)
  (ch "を", RNode None (u "wo"));
  (* to_romaji_node_tree.rs:2462-2525 *)
  (ch "ん", RNode (Some [
    (ch "あ", RNode None (u "n'a"));
    (ch "い", RNode None (u "n'i"));
    (ch "う", RNode None (u "n'u"));
    (ch "え", RNode None (u "n'e"));
    (ch "お", RNode None (u "n'o"));
    (ch "や", RNode None (u "n'ya"));
    (ch "ゆ", RNode None (u "n'yu"));
    (ch "よ", RNode None (u "n'yo"))]) (u "n"));
  (* to_romaji_node_tree.rs:2526-2568 *)
  (ch "ゔ", RNode (Some [
    (ch "ぃ", RNode None (u "vyi"));
    (ch "ぇ", RNode None (u "vye"));
    (ch "ゃ", RNode None (u "vya"));
    (ch "ゅ", RNode None (u "vyu"));
    (ch "ょ", RNode None (u "vyo"))]) (u "vu"));
  (* to_romaji_node_tree.rs:2569-2575 *)
  (ch "ゔ", RNode None (u "va"));
  (* to_romaji_node_tree.rs:2576-2582 *)
  (ch "ゔ", RNode None (u "vi"));
  (* to_romaji_node_tree.rs:2583-2589 *)
  (ch "ゔ", RNode None (u "ve"));
  (* to_romaji_node_tree.rs:2590-2596 *)
  (ch "ゔ", RNode None (u "vo"));
  (* to_romaji_node_tree.rs:2597-2603 *)
  (ch "・", RNode None (u "/"));
  (* to_romaji_node_tree.rs:2604-2610 *)
  (ch "ー", RNode None (u "-"));
  (* to_romaji_node_tree.rs:2611-2617 *)
  (ch "！", RNode None (u "!"));
  (* to_romaji_node_tree.rs:2618-2624 *)
  (ch "（", RNode None (u "("));
  (* to_romaji_node_tree.rs:2625-2631 *)
  (ch "）", RNode None (u ")"));
  (* to_romaji_node_tree.rs:2632-2638 *)
  (ch "：", RNode None (u ":"));
  (* to_romaji_node_tree.rs:2639-2645 *)
  (ch "？", RNode None (u "?"));
  (* to_romaji_node_tree.rs:2646-2652 *)
  (ch "［", RNode None (u "["));
  (* to_romaji_node_tree.rs:2653-2659 *)
  (ch "］", RNode None (u "]"));
  (* to_romaji_node_tree.rs:2660-2666 *)
  (ch "｛", RNode None (u "{"));
  (* to_romaji_node_tree.rs:2667-2673 *)
  (ch "｝", RNode None (u "}"))
].
