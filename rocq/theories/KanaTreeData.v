(** GENERATED by tools/gen_trees.py from to_kana_node_tree.rs:53-4811; do not edit.
    One entry per entry of the Rust [vec!], same order, duplicates kept. *)
From Verif Require Import Base Trees.

Definition kana_literal : list (char * knode) := [
  (* to_kana_node_tree.rs:54-60 *)
  (ch "!", KNode [] (Some (u "！")));
  (* to_kana_node_tree.rs:61-67 *)
  (ch "(", KNode [] (Some (u "（")));
  (* to_kana_node_tree.rs:68-74 *)
  (ch ")", KNode [] (Some (u "）")));
  (* to_kana_node_tree.rs:75-81 *)
  (ch ",", KNode [] (Some (u "、")));
  (* to_kana_node_tree.rs:82-88 *)
  (ch "-", KNode [] (Some (u "ー")));
  (* to_kana_node_tree.rs:89-95 *)
  (ch ".", KNode [] (Some (u "。")));
  (* to_kana_node_tree.rs:96-102 *)
  (ch "/", KNode [] (Some (u "・")));
  (* to_kana_node_tree.rs:103-109 *)
  (ch ":", KNode [] (Some (u "：")));
  (* to_kana_node_tree.rs:110-116 *)
  (ch "?", KNode [] (Some (u "？")));
  (* to_kana_node_tree.rs:117-123 *)
  (ch "[", KNode [] (Some (u "［")));
  (* to_kana_node_tree.rs:124-130 *)
  (ch "]", KNode [] (Some (u "］")));
  (* to_kana_node_tree.rs:131-137 *)
  (ch "a", KNode [] (Some (u "あ")));
  (* to_kana_node_tree.rs:138-309 *)
  (ch "b", KNode [
    (ch "a", KNode [] (Some (u "ば")));
    (ch "b", KNode [
      (ch "a", KNode [] (Some (u "っば")));
      (ch "e", KNode [] (Some (u "っべ")));
      (ch "i", KNode [] (Some (u "っび")));
      (ch "o", KNode [] (Some (u "っぼ")));
      (ch "u", KNode [] (Some (u "っぶ")));
      (ch "y", KNode [
        (ch "a", KNode [] (Some (u "っびゃ")));
        (ch "e", KNode [] (Some (u "っびぇ")));
        (ch "i", KNode [] (Some (u "っびぃ")));
        (ch "o", KNode [] (Some (u "っびょ")));
        (ch "u", KNode [] (Some (u "っびゅ")))] None)] None);
    (ch "e", KNode [] (Some (u "べ")));
    (ch "i", KNode [] (Some (u "び")));
    (ch "o", KNode [] (Some (u "ぼ")));
    (ch "u", KNode [] (Some (u "ぶ")));
    (ch "y", KNode [
      (ch "a", KNode [] (Some (u "びゃ")));
      (ch "e", KNode [] (Some (u "びぇ")));
      (ch "i", KNode [] (Some (u "びぃ")));
      (ch "o", KNode [] (Some (u "びょ")));
      (ch "u", KNode [] (Some (u "びゅ")))] None)] None);
  (* to_kana_node_tree.rs:310-653 *)
  (ch "c", KNode [
    (ch "a", KNode [] (Some (u "か")));
    (ch "c", KNode [
      (ch "a", KNode [] (Some (u "っか")));
      (ch "e", KNode [] (Some (u "っけ")));
      (ch "h", KNode [
        (ch "a", KNode [] (Some (u "っちゃ")));
        (ch "e", KNode [] (Some (u "っちぇ")));
        (ch "i", KNode [] (Some (u "っち")));
        (ch "o", KNode [] (Some (u "っちょ")));
        (ch "u", KNode [] (Some (u "っちゅ")));
        (ch "y", KNode [
          (ch "a", KNode [] (Some (u "っちゃ")));
          (ch "e", KNode [] (Some (u "っちぇ")));
          (ch "i", KNode [] (Some (u "っちぃ")));
          (ch "o", KNode [] (Some (u "っちょ")));
          (ch "u", KNode [] (Some (u "っちゅ")))] None)] None);
      (ch "i", KNode [] (Some (u "っき")));
      (ch "o", KNode [] (Some (u "っこ")));
      (ch "u", KNode [] (Some (u "っく")));
      (ch "y", KNode [
        (ch "a", KNode [] (Some (u "っちゃ")));
        (ch "e", KNode [] (Some (u "っちぇ")));
        (ch "i", KNode [] (Some (u "っちぃ")));
        (ch "o", KNode [] (Some (u "っちょ")));
        (ch "u", KNode [] (Some (u "っちゅ")))] None)] None);
    (ch "e", KNode [] (Some (u "け")));
    (ch "h", KNode [
      (ch "a", KNode [] (Some (u "ちゃ")));
      (ch "e", KNode [] (Some (u "ちぇ")));
      (ch "i", KNode [] (Some (u "ち")));
      (ch "o", KNode [] (Some (u "ちょ")));
      (ch "u", KNode [] (Some (u "ちゅ")));
      (ch "y", KNode [
        (ch "a", KNode [] (Some (u "ちゃ")));
        (ch "e", KNode [] (Some (u "ちぇ")));
        (ch "i", KNode [] (Some (u "ちぃ")));
        (ch "o", KNode [] (Some (u "ちょ")));
        (ch "u", KNode [] (Some (u "ちゅ")))] None)] None);
    (ch "i", KNode [] (Some (u "き")));
    (ch "o", KNode [] (Some (u "こ")));
    (ch "u", KNode [] (Some (u "く")));
    (ch "y", KNode [
      (ch "a", KNode [] (Some (u "ちゃ")));
      (ch "e", KNode [] (Some (u "ちぇ")));
      (ch "i", KNode [] (Some (u "ちぃ")));
      (ch "o", KNode [] (Some (u "ちょ")));
      (ch "u", KNode [] (Some (u "ちゅ")))] None)] None);
  (* to_kana_node_tree.rs:654-997 *)
  (ch "d", KNode [
    (ch "a", KNode [] (Some (u "だ")));
    (ch "d", KNode [
      (ch "a", KNode [] (Some (u "っだ")));
      (ch "e", KNode [] (Some (u "っで")));
      (ch "h", KNode [
        (ch "a", KNode [] (Some (u "っでゃ")));
        (ch "e", KNode [] (Some (u "っでぇ")));
        (ch "i", KNode [] (Some (u "っでぃ")));
        (ch "o", KNode [] (Some (u "っでょ")));
        (ch "u", KNode [] (Some (u "っでゅ")))] None);
      (ch "i", KNode [] (Some (u "っぢ")));
      (ch "o", KNode [] (Some (u "っど")));
      (ch "u", KNode [] (Some (u "っづ")));
      (ch "w", KNode [
        (ch "a", KNode [] (Some (u "っどぁ")));
        (ch "e", KNode [] (Some (u "っどぇ")));
        (ch "i", KNode [] (Some (u "っどぃ")));
        (ch "o", KNode [] (Some (u "っどぉ")));
        (ch "u", KNode [] (Some (u "っどぅ")))] None);
      (ch "y", KNode [
        (ch "a", KNode [] (Some (u "っぢゃ")));
        (ch "e", KNode [] (Some (u "っぢぇ")));
        (ch "i", KNode [] (Some (u "っぢぃ")));
        (ch "o", KNode [] (Some (u "っぢょ")));
        (ch "u", KNode [] (Some (u "っぢゅ")))] None)] None);
    (ch "e", KNode [] (Some (u "で")));
    (ch "h", KNode [
      (ch "a", KNode [] (Some (u "でゃ")));
      (ch "e", KNode [] (Some (u "でぇ")));
      (ch "i", KNode [] (Some (u "でぃ")));
      (ch "o", KNode [] (Some (u "でょ")));
      (ch "u", KNode [] (Some (u "でゅ")))] None);
    (ch "i", KNode [] (Some (u "ぢ")));
    (ch "o", KNode [] (Some (u "ど")));
    (ch "u", KNode [] (Some (u "づ")));
    (ch "w", KNode [
      (ch "a", KNode [] (Some (u "どぁ")));
      (ch "e", KNode [] (Some (u "どぇ")));
      (ch "i", KNode [] (Some (u "どぃ")));
      (ch "o", KNode [] (Some (u "どぉ")));
      (ch "u", KNode [] (Some (u "どぅ")))] None);
    (ch "y", KNode [
      (ch "a", KNode [] (Some (u "ぢゃ")));
      (ch "e", KNode [] (Some (u "ぢぇ")));
      (ch "i", KNode [] (Some (u "ぢぃ")));
      (ch "o", KNode [] (Some (u "ぢょ")));
      (ch "u", KNode [] (Some (u "ぢゅ")))] None)] None);
  (* to_kana_node_tree.rs:998-1004 *)
  (ch "e", KNode [] (Some (u "え")));
  (* to_kana_node_tree.rs:1005-1262 *)
  (ch "f", KNode [
    (ch "a", KNode [] (Some (u "ふぁ")));
    (ch "e", KNode [] (Some (u "ふぇ")));
    (ch "f", KNode [
      (ch "a", KNode [] (Some (u "っふぁ")));
      (ch "e", KNode [] (Some (u "っふぇ")));
      (ch "i", KNode [] (Some (u "っふぃ")));
      (ch "o", KNode [] (Some (u "っふぉ")));
      (ch "u", KNode [] (Some (u "っふ")));
      (ch "w", KNode [
        (ch "a", KNode [] (Some (u "っふぁ")));
        (ch "e", KNode [] (Some (u "っふぇ")));
        (ch "i", KNode [] (Some (u "っふぃ")));
        (ch "o", KNode [] (Some (u "っふぉ")));
        (ch "u", KNode [] (Some (u "っふぅ")))] None);
      (ch "y", KNode [
        (ch "a", KNode [] (Some (u "っふゃ")));
        (ch "e", KNode [] (Some (u "っふぇ")));
        (ch "i", KNode [] (Some (u "っふぃ")));
        (ch "o", KNode [] (Some (u "っふょ")));
        (ch "u", KNode [] (Some (u "っふゅ")))] None)] None);
    (ch "i", KNode [] (Some (u "ふぃ")));
    (ch "o", KNode [] (Some (u "ふぉ")));
    (ch "u", KNode [] (Some (u "ふ")));
    (ch "w", KNode [
      (ch "a", KNode [] (Some (u "ふぁ")));
      (ch "e", KNode [] (Some (u "ふぇ")));
      (ch "i", KNode [] (Some (u "ふぃ")));
      (ch "o", KNode [] (Some (u "ふぉ")));
      (ch "u", KNode [] (Some (u "ふぅ")))] None);
    (ch "y", KNode [
      (ch "a", KNode [] (Some (u "ふゃ")));
      (ch "e", KNode [] (Some (u "ふぇ")));
      (ch "i", KNode [] (Some (u "ふぃ")));
      (ch "o", KNode [] (Some (u "ふょ")));
      (ch "u", KNode [] (Some (u "ふゅ")))] None)] None);
  (* to_kana_node_tree.rs:1263-1520 *)
  (ch "g", KNode [
    (ch "a", KNode [] (Some (u "が")));
    (ch "e", KNode [] (Some (u "げ")));
    (ch "g", KNode [
      (ch "a", KNode [] (Some (u "っが")));
      (ch "e", KNode [] (Some (u "っげ")));
      (ch "i", KNode [] (Some (u "っぎ")));
      (ch "o", KNode [] (Some (u "っご")));
      (ch "u", KNode [] (Some (u "っぐ")));
      (ch "w", KNode [
        (ch "a", KNode [] (Some (u "っぐぁ")));
        (ch "e", KNode [] (Some (u "っぐぇ")));
        (ch "i", KNode [] (Some (u "っぐぃ")));
        (ch "o", KNode [] (Some (u "っぐぉ")));
        (ch "u", KNode [] (Some (u "っぐぅ")))] None);
      (ch "y", KNode [
        (ch "a", KNode [] (Some (u "っぎゃ")));
        (ch "e", KNode [] (Some (u "っぎぇ")));
        (ch "i", KNode [] (Some (u "っぎぃ")));
        (ch "o", KNode [] (Some (u "っぎょ")));
        (ch "u", KNode [] (Some (u "っぎゅ")))] None)] None);
    (ch "i", KNode [] (Some (u "ぎ")));
    (ch "o", KNode [] (Some (u "ご")));
    (ch "u", KNode [] (Some (u "ぐ")));
    (ch "w", KNode [
      (ch "a", KNode [] (Some (u "ぐぁ")));
      (ch "e", KNode [] (Some (u "ぐぇ")));
      (ch "i", KNode [] (Some (u "ぐぃ")));
      (ch "o", KNode [] (Some (u "ぐぉ")));
      (ch "u", KNode [] (Some (u "ぐぅ")))] None);
    (ch "y", KNode [
      (ch "a", KNode [] (Some (u "ぎゃ")));
      (ch "e", KNode [] (Some (u "ぎぇ")));
      (ch "i", KNode [] (Some (u "ぎぃ")));
      (ch "o", KNode [] (Some (u "ぎょ")));
      (ch "u", KNode [] (Some (u "ぎゅ")))] None)] None);
  (* to_kana_node_tree.rs:1521-1692 *)
  (ch "h", KNode [
    (ch "a", KNode [] (Some (u "は")));
    (ch "e", KNode [] (Some (u "へ")));
    (ch "h", KNode [
      (ch "a", KNode [] (Some (u "っは")));
      (ch "e", KNode [] (Some (u "っへ")));
      (ch "i", KNode [] (Some (u "っひ")));
      (ch "o", KNode [] (Some (u "っほ")));
      (ch "u", KNode [] (Some (u "っふ")));
      (ch "y", KNode [
        (ch "a", KNode [] (Some (u "っひゃ")));
        (ch "e", KNode [] (Some (u "っひぇ")));
        (ch "i", KNode [] (Some (u "っひぃ")));
        (ch "o", KNode [] (Some (u "っひょ")));
        (ch "u", KNode [] (Some (u "っひゅ")))] None)] None);
    (ch "i", KNode [] (Some (u "ひ")));
    (ch "o", KNode [] (Some (u "ほ")));
    (ch "u", KNode [] (Some (u "ふ")));
    (ch "y", KNode [
      (ch "a", KNode [] (Some (u "ひゃ")));
      (ch "e", KNode [] (Some (u "ひぇ")));
      (ch "i", KNode [] (Some (u "ひぃ")));
      (ch "o", KNode [] (Some (u "ひょ")));
      (ch "u", KNode [] (Some (u "ひゅ")))] None)] None);
  (* to_kana_node_tree.rs:1693-1699 *)
  (ch "i", KNode [] (Some (u "い")));
  (* to_kana_node_tree.rs:1700-1871 *)
  (ch "j", KNode [
    (ch "a", KNode [] (Some (u "じゃ")));
    (ch "e", KNode [] (Some (u "じぇ")));
    (ch "i", KNode [] (Some (u "じ")));
    (ch "j", KNode [
      (ch "a", KNode [] (Some (u "っじゃ")));
      (ch "e", KNode [] (Some (u "っじぇ")));
      (ch "i", KNode [] (Some (u "っじ")));
      (ch "o", KNode [] (Some (u "っじょ")));
      (ch "u", KNode [] (Some (u "っじゅ")));
      (ch "y", KNode [
        (ch "a", KNode [] (Some (u "っじゃ")));
        (ch "e", KNode [] (Some (u "っじぇ")));
        (ch "i", KNode [] (Some (u "っじぃ")));
        (ch "o", KNode [] (Some (u "っじょ")));
        (ch "u", KNode [] (Some (u "っじゅ")))] None)] None);
    (ch "o", KNode [] (Some (u "じょ")));
    (ch "u", KNode [] (Some (u "じゅ")));
    (ch "y", KNode [
      (ch "a", KNode [] (Some (u "じゃ")));
      (ch "e", KNode [] (Some (u "じぇ")));
      (ch "i", KNode [] (Some (u "じぃ")));
      (ch "o", KNode [] (Some (u "じょ")));
      (ch "u", KNode [] (Some (u "じゅ")))] None)] None);
  (* to_kana_node_tree.rs:1872-2069 *)
  (ch "k", KNode [
    (ch "a", KNode [] (Some (u "か")));
    (ch "e", KNode [] (Some (u "け")));
    (ch "i", KNode [] (Some (u "き")));
    (ch "k", KNode [
      (ch "a", KNode [] (Some (u "っか")));
      (ch "e", KNode [] (Some (u "っけ")));
      (ch "i", KNode [] (Some (u "っき")));
      (ch "o", KNode [] (Some (u "っこ")));
      (ch "u", KNode [] (Some (u "っく")));
      (ch "w", KNode [
        (ch "a", KNode [] (Some (u "っくぁ")))] None);
      (ch "y", KNode [
        (ch "a", KNode [] (Some (u "っきゃ")));
        (ch "e", KNode [] (Some (u "っきぇ")));
        (ch "i", KNode [] (Some (u "っきぃ")));
        (ch "o", KNode [] (Some (u "っきょ")));
        (ch "u", KNode [] (Some (u "っきゅ")))] None)] None);
    (ch "o", KNode [] (Some (u "こ")));
    (ch "u", KNode [] (Some (u "く")));
    (ch "w", KNode [
      (ch "a", KNode [] (Some (u "くぁ")))] None);
    (ch "y", KNode [
      (ch "a", KNode [] (Some (u "きゃ")));
      (ch "e", KNode [] (Some (u "きぇ")));
      (ch "i", KNode [] (Some (u "きぃ")));
      (ch "o", KNode [] (Some (u "きょ")));
      (ch "u", KNode [] (Some (u "きゅ")))] None)] None);
  (* to_kana_node_tree.rs:2070-2240 *)
  (ch "l", KNode [
    (ch "a", KNode [] (Some (u "ぁ")));
    (ch "c", KNode [
      (ch "a", KNode [] (Some (u "ヵ")));
      (ch "e", KNode [] (Some (u "ヶ")))] None);
    (ch "e", KNode [] (Some (u "ぇ")));
    (ch "i", KNode [] (Some (u "ぃ")));
    (ch "k", KNode [
      (ch "a", KNode [] (Some (u "ヵ")));
      (ch "e", KNode [] (Some (u "ヶ")))] None);
    (ch "o", KNode [] (Some (u "ぉ")));
    (ch "t", KNode [
      (ch "s", KNode [
        (ch "u", KNode [] (Some (u "っ")))] None);
      (ch "u", KNode [] (Some (u "っ")))] None);
    (ch "u", KNode [] (Some (u "ぅ")));
    (ch "w", KNode [
      (ch "a", KNode [] (Some (u "ゎ")))] None);
    (ch "y", KNode [
      (ch "a", KNode [] (Some (u "ゃ")));
      (ch "e", KNode [] (Some (u "ぇ")));
      (ch "i", KNode [] (Some (u "ぃ")));
      (ch "o", KNode [] (Some (u "ょ")));
      (ch "u", KNode [] (Some (u "ゅ")))] None)] None);
  (* to_kana_node_tree.rs:2241-2412 *)
  (ch "m", KNode [
    (ch "a", KNode [] (Some (u "ま")));
    (ch "e", KNode [] (Some (u "め")));
    (ch "i", KNode [] (Some (u "み")));
    (ch "m", KNode [
      (ch "a", KNode [] (Some (u "っま")));
      (ch "e", KNode [] (Some (u "っめ")));
      (ch "i", KNode [] (Some (u "っみ")));
      (ch "o", KNode [] (Some (u "っも")));
      (ch "u", KNode [] (Some (u "っむ")));
      (ch "y", KNode [
        (ch "a", KNode [] (Some (u "っみゃ")));
        (ch "e", KNode [] (Some (u "っみぇ")));
        (ch "i", KNode [] (Some (u "っみぃ")));
        (ch "o", KNode [] (Some (u "っみょ")));
        (ch "u", KNode [] (Some (u "っみゅ")))] None)] None);
    (ch "o", KNode [] (Some (u "も")));
    (ch "u", KNode [] (Some (u "む")));
    (ch "y", KNode [
      (ch "a", KNode [] (Some (u "みゃ")));
      (ch "e", KNode [] (Some (u "みぇ")));
      (ch "i", KNode [] (Some (u "みぃ")));
      (ch "o", KNode [] (Some (u "みょ")));
      (ch "u", KNode [] (Some (u "みゅ")))] None)] None);
  (* to_kana_node_tree.rs:2413-2505 *)
  (ch "n", KNode [
    (ch "'", KNode [] (Some (u "ん")));
    (ch "a", KNode [] (Some (u "な")));
    (ch "e", KNode [] (Some (u "ね")));
    (ch "i", KNode [] (Some (u "に")));
    (ch "o", KNode [] (Some (u "の")));
    (ch "u", KNode [] (Some (u "ぬ")));
    (ch "y", KNode [
      (ch "a", KNode [] (Some (u "にゃ")));
      (ch "e", KNode [] (Some (u "にぇ")));
      (ch "i", KNode [] (Some (u "にぃ")));
      (ch "o", KNode [] (Some (u "にょ")));
      (ch "u", KNode [] (Some (u "にゅ")))] None)] (Some (u "ん")));
  (* to_kana_node_tree.rs:2506-2512 *)
  (ch "o", KNode [] (Some (u "お")));
  (* to_kana_node_tree.rs:2513-2684 *)
  (ch "p", KNode [
    (ch "a", KNode [] (Some (u "ぱ")));
    (ch "e", KNode [] (Some (u "ぺ")));
    (ch "i", KNode [] (Some (u "ぴ")));
    (ch "o", KNode [] (Some (u "ぽ")));
    (ch "p", KNode [
      (ch "a", KNode [] (Some (u "っぱ")));
      (ch "e", KNode [] (Some (u "っぺ")));
      (ch "i", KNode [] (Some (u "っぴ")));
      (ch "o", KNode [] (Some (u "っぽ")));
      (ch "u", KNode [] (Some (u "っぷ")));
      (ch "y", KNode [
        (ch "a", KNode [] (Some (u "っぴゃ")));
        (ch "e", KNode [] (Some (u "っぴぇ")));
        (ch "i", KNode [] (Some (u "っぴぃ")));
        (ch "o", KNode [] (Some (u "っぴょ")));
        (ch "u", KNode [] (Some (u "っぴゅ")))] None)] None);
    (ch "u", KNode [] (Some (u "ぷ")));
    (ch "y", KNode [
      (ch "a", KNode [] (Some (u "ぴゃ")));
      (ch "e", KNode [] (Some (u "ぴぇ")));
      (ch "i", KNode [] (Some (u "ぴぃ")));
      (ch "o", KNode [] (Some (u "ぴょ")));
      (ch "u", KNode [] (Some (u "ぴゅ")))] None)] None);
  (* to_kana_node_tree.rs:2685-2942 *)
  (ch "q", KNode [
    (ch "a", KNode [] (Some (u "くぁ")));
    (ch "e", KNode [] (Some (u "くぇ")));
    (ch "i", KNode [] (Some (u "くぃ")));
    (ch "o", KNode [] (Some (u "くぉ")));
    (ch "q", KNode [
      (ch "a", KNode [] (Some (u "っくぁ")));
      (ch "e", KNode [] (Some (u "っくぇ")));
      (ch "i", KNode [] (Some (u "っくぃ")));
      (ch "o", KNode [] (Some (u "っくぉ")));
      (ch "u", KNode [] (Some (u "っくぅ")));
      (ch "w", KNode [
        (ch "a", KNode [] (Some (u "っくぁ")));
        (ch "e", KNode [] (Some (u "っくぇ")));
        (ch "i", KNode [] (Some (u "っくぃ")));
        (ch "o", KNode [] (Some (u "っくぉ")));
        (ch "u", KNode [] (Some (u "っくぅ")))] None);
      (ch "y", KNode [
        (ch "a", KNode [] (Some (u "っくゃ")));
        (ch "e", KNode [] (Some (u "っくぇ")));
        (ch "i", KNode [] (Some (u "っくぃ")));
        (ch "o", KNode [] (Some (u "っくょ")));
        (ch "u", KNode [] (Some (u "っくゅ")))] None)] None);
    (ch "u", KNode [] (Some (u "くぅ")));
    (ch "w", KNode [
      (ch "a", KNode [] (Some (u "くぁ")));
      (ch "e", KNode [] (Some (u "くぇ")));
      (ch "i", KNode [] (Some (u "くぃ")));
      (ch "o", KNode [] (Some (u "くぉ")));
      (ch "u", KNode [] (Some (u "くぅ")))] None);
    (ch "y", KNode [
      (ch "a", KNode [] (Some (u "くゃ")));
      (ch "e", KNode [] (Some (u "くぇ")));
      (ch "i", KNode [] (Some (u "くぃ")));
      (ch "o", KNode [] (Some (u "くょ")));
      (ch "u", KNode [] (Some (u "くゅ")))] None)] None);
  (* to_kana_node_tree.rs:2943-3114 *)
  (ch "r", KNode [
    (ch "a", KNode [] (Some (u "ら")));
    (ch "e", KNode [] (Some (u "れ")));
    (ch "i", KNode [] (Some (u "り")));
    (ch "o", KNode [] (Some (u "ろ")));
    (ch "r", KNode [
      (ch "a", KNode [] (Some (u "っら")));
      (ch "e", KNode [] (Some (u "っれ")));
      (ch "i", KNode [] (Some (u "っり")));
      (ch "o", KNode [] (Some (u "っろ")));
      (ch "u", KNode [] (Some (u "っる")));
      (ch "y", KNode [
        (ch "a", KNode [] (Some (u "っりゃ")));
        (ch "e", KNode [] (Some (u "っりぇ")));
        (ch "i", KNode [] (Some (u "っりぃ")));
        (ch "o", KNode [] (Some (u "っりょ")));
        (ch "u", KNode [] (Some (u "っりゅ")))] None)] None);
    (ch "u", KNode [] (Some (u "る")));
    (ch "y", KNode [
      (ch "a", KNode [] (Some (u "りゃ")));
      (ch "e", KNode [] (Some (u "りぇ")));
      (ch "i", KNode [] (Some (u "りぃ")));
      (ch "o", KNode [] (Some (u "りょ")));
      (ch "u", KNode [] (Some (u "りゅ")))] None)] None);
  (* to_kana_node_tree.rs:3115-3544 *)
  (ch "s", KNode [
    (ch "a", KNode [] (Some (u "さ")));
    (ch "e", KNode [] (Some (u "せ")));
    (ch "h", KNode [
      (ch "a", KNode [] (Some (u "しゃ")));
      (ch "e", KNode [] (Some (u "しぇ")));
      (ch "i", KNode [] (Some (u "し")));
      (ch "o", KNode [] (Some (u "しょ")));
      (ch "u", KNode [] (Some (u "しゅ")));
      (ch "y", KNode [
        (ch "a", KNode [] (Some (u "しゃ")));
        (ch "e", KNode [] (Some (u "しぇ")));
        (ch "i", KNode [] (Some (u "しぃ")));
        (ch "o", KNode [] (Some (u "しょ")));
        (ch "u", KNode [] (Some (u "しゅ")))] None)] None);
    (ch "i", KNode [] (Some (u "し")));
    (ch "o", KNode [] (Some (u "そ")));
    (ch "s", KNode [
      (ch "a", KNode [] (Some (u "っさ")));
      (ch "e", KNode [] (Some (u "っせ")));
      (ch "h", KNode [
        (ch "a", KNode [] (Some (u "っしゃ")));
        (ch "e", KNode [] (Some (u "っしぇ")));
        (ch "i", KNode [] (Some (u "っし")));
        (ch "o", KNode [] (Some (u "っしょ")));
        (ch "u", KNode [] (Some (u "っしゅ")));
        (ch "y", KNode [
          (ch "a", KNode [] (Some (u "っしゃ")));
          (ch "e", KNode [] (Some (u "っしぇ")));
          (ch "i", KNode [] (Some (u "っしぃ")));
          (ch "o", KNode [] (Some (u "っしょ")));
          (ch "u", KNode [] (Some (u "っしゅ")))] None)] None);
      (ch "i", KNode [] (Some (u "っし")));
      (ch "o", KNode [] (Some (u "っそ")));
      (ch "u", KNode [] (Some (u "っす")));
      (ch "w", KNode [
        (ch "a", KNode [] (Some (u "っすぁ")));
        (ch "e", KNode [] (Some (u "っすぇ")));
        (ch "i", KNode [] (Some (u "っすぃ")));
        (ch "o", KNode [] (Some (u "っすぉ")));
        (ch "u", KNode [] (Some (u "っすぅ")))] None);
      (ch "y", KNode [
        (ch "a", KNode [] (Some (u "っしゃ")));
        (ch "e", KNode [] (Some (u "っしぇ")));
        (ch "i", KNode [] (Some (u "っしぃ")));
        (ch "o", KNode [] (Some (u "っしょ")));
        (ch "u", KNode [] (Some (u "っしゅ")))] None)] None);
    (ch "u", KNode [] (Some (u "す")));
    (ch "w", KNode [
      (ch "a", KNode [] (Some (u "すぁ")));
      (ch "e", KNode [] (Some (u "すぇ")));
      (ch "i", KNode [] (Some (u "すぃ")));
      (ch "o", KNode [] (Some (u "すぉ")));
      (ch "u", KNode [] (Some (u "すぅ")))] None);
    (ch "y", KNode [
      (ch "a", KNode [] (Some (u "しゃ")));
      (ch "e", KNode [] (Some (u "しぇ")));
      (ch "i", KNode [] (Some (u "しぃ")));
      (ch "o", KNode [] (Some (u "しょ")));
      (ch "u", KNode [] (Some (u "しゅ")))] None)] None);
  (* to_kana_node_tree.rs:3545-3974 *)
  (ch "t", KNode [
    (ch "a", KNode [] (Some (u "た")));
    (ch "e", KNode [] (Some (u "て")));
    (ch "h", KNode [
      (ch "a", KNode [] (Some (u "てゃ")));
      (ch "e", KNode [] (Some (u "てぇ")));
      (ch "i", KNode [] (Some (u "てぃ")));
      (ch "o", KNode [] (Some (u "てょ")));
      (ch "u", KNode [] (Some (u "てゅ")))] None);
    (ch "i", KNode [] (Some (u "ち")));
    (ch "o", KNode [] (Some (u "と")));
    (ch "s", KNode [
      (ch "a", KNode [] (Some (u "つぁ")));
      (ch "e", KNode [] (Some (u "つぇ")));
      (ch "i", KNode [] (Some (u "つぃ")));
      (ch "o", KNode [] (Some (u "つぉ")));
      (ch "u", KNode [] (Some (u "つ")))] None);
    (ch "t", KNode [
      (ch "a", KNode [] (Some (u "った")));
      (ch "e", KNode [] (Some (u "って")));
      (ch "h", KNode [
        (ch "a", KNode [] (Some (u "ってゃ")));
        (ch "e", KNode [] (Some (u "ってぇ")));
        (ch "i", KNode [] (Some (u "ってぃ")));
        (ch "o", KNode [] (Some (u "ってょ")));
        (ch "u", KNode [] (Some (u "ってゅ")))] None);
      (ch "i", KNode [] (Some (u "っち")));
      (ch "o", KNode [] (Some (u "っと")));
      (ch "s", KNode [
        (ch "a", KNode [] (Some (u "っつぁ")));
        (ch "e", KNode [] (Some (u "っつぇ")));
        (ch "i", KNode [] (Some (u "っつぃ")));
        (ch "o", KNode [] (Some (u "っつぉ")));
        (ch "u", KNode [] (Some (u "っつ")))] None);
      (ch "u", KNode [] (Some (u "っつ")));
      (ch "w", KNode [
        (ch "a", KNode [] (Some (u "っとぁ")));
        (ch "e", KNode [] (Some (u "っとぇ")));
        (ch "i", KNode [] (Some (u "っとぃ")));
        (ch "o", KNode [] (Some (u "っとぉ")));
        (ch "u", KNode [] (Some (u "っとぅ")))] None);
      (ch "y", KNode [
        (ch "a", KNode [] (Some (u "っちゃ")));
        (ch "e", KNode [] (Some (u "っちぇ")));
        (ch "i", KNode [] (Some (u "っちぃ")));
        (ch "o", KNode [] (Some (u "っちょ")));
        (ch "u", KNode [] (Some (u "っちゅ")))] None)] None);
    (ch "u", KNode [] (Some (u "つ")));
    (ch "w", KNode [
      (ch "a", KNode [] (Some (u "とぁ")));
      (ch "e", KNode [] (Some (u "とぇ")));
      (ch "i", KNode [] (Some (u "とぃ")));
      (ch "o", KNode [] (Some (u "とぉ")));
      (ch "u", KNode [] (Some (u "とぅ")))] None);
    (ch "y", KNode [
      (ch "a", KNode [] (Some (u "ちゃ")));
      (ch "e", KNode [] (Some (u "ちぇ")));
      (ch "i", KNode [] (Some (u "ちぃ")));
      (ch "o", KNode [] (Some (u "ちょ")));
      (ch "u", KNode [] (Some (u "ちゅ")))] None)] None);
  (* to_kana_node_tree.rs:3975-3981 *)
  (ch "u", KNode [] (Some (u "う")));
  (* to_kana_node_tree.rs:3982-4153 *)
  (ch "v", KNode [
    (ch "a", KNode [] (Some (u "ゔぁ")));
    (ch "e", KNode [] (Some (u "ゔぇ")));
    (ch "i", KNode [] (Some (u "ゔぃ")));
    (ch "o", KNode [] (Some (u "ゔぉ")));
    (ch "u", KNode [] (Some (u "ゔ")));
    (ch "v", KNode [
      (ch "a", KNode [] (Some (u "っゔぁ")));
      (ch "e", KNode [] (Some (u "っゔぇ")));
      (ch "i", KNode [] (Some (u "っゔぃ")));
      (ch "o", KNode [] (Some (u "っゔぉ")));
      (ch "u", KNode [] (Some (u "っゔ")));
      (ch "y", KNode [
        (ch "a", KNode [] (Some (u "っゔゃ")));
        (ch "e", KNode [] (Some (u "っゔぇ")));
        (ch "i", KNode [] (Some (u "っゔぃ")));
        (ch "o", KNode [] (Some (u "っゔょ")));
        (ch "u", KNode [] (Some (u "っゔゅ")))] None)] None);
    (ch "y", KNode [
      (ch "a", KNode [] (Some (u "ゔゃ")));
      (ch "e", KNode [] (Some (u "ゔぇ")));
      (ch "i", KNode [] (Some (u "ゔぃ")));
      (ch "o", KNode [] (Some (u "ゔょ")));
      (ch "u", KNode [] (Some (u "ゔゅ")))] None)] None);
  (* to_kana_node_tree.rs:4154-4325 *)
  (ch "w", KNode [
    (ch "a", KNode [] (Some (u "わ")));
    (ch "e", KNode [] (Some (u "うぇ")));
    (ch "h", KNode [
      (ch "a", KNode [] (Some (u "うぁ")));
      (ch "e", KNode [] (Some (u "うぇ")));
      (ch "i", KNode [] (Some (u "うぃ")));
      (ch "o", KNode [] (Some (u "うぉ")));
      (ch "u", KNode [] (Some (u "う")))] None);
    (ch "i", KNode [] (Some (u "うぃ")));
    (ch "o", KNode [] (Some (u "を")));
    (ch "u", KNode [] (Some (u "う")));
    (ch "w", KNode [
      (ch "a", KNode [] (Some (u "っわ")));
      (ch "e", KNode [] (Some (u "っうぇ")));
      (ch "h", KNode [
        (ch "a", KNode [] (Some (u "っうぁ")));
        (ch "e", KNode [] (Some (u "っうぇ")));
        (ch "i", KNode [] (Some (u "っうぃ")));
        (ch "o", KNode [] (Some (u "っうぉ")));
        (ch "u", KNode [] (Some (u "っう")))] None);
      (ch "i", KNode [] (Some (u "っうぃ")));
      (ch "o", KNode [] (Some (u "っを")));
      (ch "u", KNode [] (Some (u "っう")))] None)] None);
  (* to_kana_node_tree.rs:4326-4503 *)
  (ch "x", KNode [
    (ch "a", KNode [] (Some (u "ぁ")));
    (ch "c", KNode [
      (ch "a", KNode [] (Some (u "ヵ")));
      (ch "e", KNode [] (Some (u "ヶ")))] None);
    (ch "e", KNode [] (Some (u "ぇ")));
    (ch "i", KNode [] (Some (u "ぃ")));
    (ch "k", KNode [
      (ch "a", KNode [] (Some (u "ヵ")));
      (ch "e", KNode [] (Some (u "ヶ")))] None);
    (ch "n", KNode [] (Some (u "ん")));
    (ch "o", KNode [] (Some (u "ぉ")));
    (ch "t", KNode [
      (ch "s", KNode [
        (ch "u", KNode [] (Some (u "っ")))] None);
      (ch "u", KNode [] (Some (u "っ")))] None);
    (ch "u", KNode [] (Some (u "ぅ")));
    (ch "w", KNode [
      (ch "a", KNode [] (Some (u "ゎ")))] None);
    (ch "y", KNode [
      (ch "a", KNode [] (Some (u "ゃ")));
      (ch "e", KNode [] (Some (u "ぇ")));
      (ch "i", KNode [] (Some (u "ぃ")));
      (ch "o", KNode [] (Some (u "ょ")));
      (ch "u", KNode [] (Some (u "ゅ")))] None)] None);
  (* to_kana_node_tree.rs:4504-4589 *)
  (ch "y", KNode [
    (ch "a", KNode [] (Some (u "や")));
    (ch "e", KNode [] (Some (u "いぇ")));
    (ch "i", KNode [] (Some (u "い")));
    (ch "o", KNode [] (Some (u "よ")));
    (ch "u", KNode [] (Some (u "ゆ")));
    (ch "y", KNode [
      (ch "a", KNode [] (Some (u "っや")));
      (ch "e", KNode [] (Some (u "っいぇ")));
      (ch "i", KNode [] (Some (u "っい")));
      (ch "o", KNode [] (Some (u "っよ")));
      (ch "u", KNode [] (Some (u "っゆ")))] None)] None);
  (* to_kana_node_tree.rs:4590-4761 *)
  (ch "z", KNode [
    (ch "a", KNode [] (Some (u "ざ")));
    (ch "e", KNode [] (Some (u "ぜ")));
    (ch "i", KNode [] (Some (u "じ")));
    (ch "o", KNode [] (Some (u "ぞ")));
    (ch "u", KNode [] (Some (u "ず")));
    (ch "y", KNode [
      (ch "a", KNode [] (Some (u "じゃ")));
      (ch "e", KNode [] (Some (u "じぇ")));
      (ch "i", KNode [] (Some (u "じぃ")));
      (ch "o", KNode [] (Some (u "じょ")));
      (ch "u", KNode [] (Some (u "じゅ")))] None);
    (ch "z", KNode [
      (ch "a", KNode [] (Some (u "っざ")));
      (ch "e", KNode [] (Some (u "っぜ")));
      (ch "i", KNode [] (Some (u "っじ")));
      (ch "o", KNode [] (Some (u "っぞ")));
      (ch "u", KNode [] (Some (u "っず")));
      (ch "y", KNode [
        (ch "a", KNode [] (Some (u "っじゃ")));
        (ch "e", KNode [] (Some (u "っじぇ")));
        (ch "i", KNode [] (Some (u "っじぃ")));
        (ch "o", KNode [] (Some (u "っじょ")));
        (ch "u", KNode [] (Some (u "っじゅ")))] None)] None)] None);
  (* to_kana_node_tree.rs:4762-4768 *)
  (ch "{", KNode [] (Some (u "｛")));
  (* to_kana_node_tree.rs:4769-4775 *)
  (ch "}", KNode [] (Some (u "｝")));
  (* to_kana_node_tree.rs:4776-4782 *)
  (ch "~", KNode [] (Some (u "〜")));
  (* to_kana_node_tree.rs:4783-4789 *)
  (ch "‘", KNode [] (Some (u "「")));
  (* to_kana_node_tree.rs:4790-4796 *)
  (ch "’", KNode [] (Some (u "」")));
  (* to_kana_node_tree.rs:4797-4803 *)
  (ch "“", KNode [] (Some (u "『")));
  (* to_kana_node_tree.rs:4804-4810 *)
  (ch "”", KNode [] (Some (u "』")))
].
