(** GENERATED by tools/gen_upstream.py from the documents in
    upstream_conversions/src/bin; do not edit.
    One member per member of the JSON text, same order. *)
From Verif Require Import Base Json.

(** to_kana_tree.rs:16-1899 *)
Definition kana_document : json := JObj [
  (u "a", JObj [([], JStr (u "あ"))]);
  (u "i", JObj [([], JStr (u "い"))]);
  (u "u", JObj [([], JStr (u "う"))]);
  (u "e", JObj [([], JStr (u "え"))]);
  (u "o", JObj [([], JStr (u "お"))]);
  (u "k", JObj [
    (u "a", JObj [([], JStr (u "か"))]);
    (u "i", JObj [([], JStr (u "き"))]);
    (u "u", JObj [([], JStr (u "く"))]);
    (u "e", JObj [([], JStr (u "け"))]);
    (u "o", JObj [([], JStr (u "こ"))]);
    (u "y", JObj [
      (u "a", JObj [([], JStr (u "きゃ"))]);
      (u "i", JObj [([], JStr (u "きぃ"))]);
      (u "u", JObj [([], JStr (u "きゅ"))]);
      (u "e", JObj [([], JStr (u "きぇ"))]);
      (u "o", JObj [([], JStr (u "きょ"))])]);
    (u "w", JObj [
      (u "a", JObj [([], JStr (u "くぁ"))])]);
    (u "k", JObj [
      (u "a", JObj [([], JStr (u "っか"))]);
      (u "i", JObj [([], JStr (u "っき"))]);
      (u "u", JObj [([], JStr (u "っく"))]);
      (u "e", JObj [([], JStr (u "っけ"))]);
      (u "o", JObj [([], JStr (u "っこ"))]);
      (u "y", JObj [
        (u "a", JObj [([], JStr (u "っきゃ"))]);
        (u "i", JObj [([], JStr (u "っきぃ"))]);
        (u "u", JObj [([], JStr (u "っきゅ"))]);
        (u "e", JObj [([], JStr (u "っきぇ"))]);
        (u "o", JObj [([], JStr (u "っきょ"))])]);
      (u "w", JObj [
        (u "a", JObj [([], JStr (u "っくぁ"))])])])]);
  (u "s", JObj [
    (u "a", JObj [([], JStr (u "さ"))]);
    (u "i", JObj [([], JStr (u "し"))]);
    (u "u", JObj [([], JStr (u "す"))]);
    (u "e", JObj [([], JStr (u "せ"))]);
    (u "o", JObj [([], JStr (u "そ"))]);
    (u "y", JObj [
      (u "a", JObj [([], JStr (u "しゃ"))]);
      (u "i", JObj [([], JStr (u "しぃ"))]);
      (u "u", JObj [([], JStr (u "しゅ"))]);
      (u "e", JObj [([], JStr (u "しぇ"))]);
      (u "o", JObj [([], JStr (u "しょ"))])]);
    (u "w", JObj [
      (u "a", JObj [([], JStr (u "すぁ"))]);
      (u "i", JObj [([], JStr (u "すぃ"))]);
      (u "u", JObj [([], JStr (u "すぅ"))]);
      (u "e", JObj [([], JStr (u "すぇ"))]);
      (u "o", JObj [([], JStr (u "すぉ"))])]);
    (u "h", JObj [
      (u "a", JObj [([], JStr (u "しゃ"))]);
      (u "i", JObj [([], JStr (u "し"))]);
      (u "u", JObj [([], JStr (u "しゅ"))]);
      (u "e", JObj [([], JStr (u "しぇ"))]);
      (u "o", JObj [([], JStr (u "しょ"))]);
      (u "y", JObj [
        (u "a", JObj [([], JStr (u "しゃ"))]);
        (u "i", JObj [([], JStr (u "しぃ"))]);
        (u "u", JObj [([], JStr (u "しゅ"))]);
        (u "e", JObj [([], JStr (u "しぇ"))]);
        (u "o", JObj [([], JStr (u "しょ"))])])]);
    (u "s", JObj [
      (u "a", JObj [([], JStr (u "っさ"))]);
      (u "i", JObj [([], JStr (u "っし"))]);
      (u "u", JObj [([], JStr (u "っす"))]);
      (u "e", JObj [([], JStr (u "っせ"))]);
      (u "o", JObj [([], JStr (u "っそ"))]);
      (u "y", JObj [
        (u "a", JObj [([], JStr (u "っしゃ"))]);
        (u "i", JObj [([], JStr (u "っしぃ"))]);
        (u "u", JObj [([], JStr (u "っしゅ"))]);
        (u "e", JObj [([], JStr (u "っしぇ"))]);
        (u "o", JObj [([], JStr (u "っしょ"))])]);
      (u "w", JObj [
        (u "a", JObj [([], JStr (u "っすぁ"))]);
        (u "i", JObj [([], JStr (u "っすぃ"))]);
        (u "u", JObj [([], JStr (u "っすぅ"))]);
        (u "e", JObj [([], JStr (u "っすぇ"))]);
        (u "o", JObj [([], JStr (u "っすぉ"))])]);
      (u "h", JObj [
        (u "a", JObj [([], JStr (u "っしゃ"))]);
        (u "i", JObj [([], JStr (u "っし"))]);
        (u "u", JObj [([], JStr (u "っしゅ"))]);
        (u "e", JObj [([], JStr (u "っしぇ"))]);
        (u "o", JObj [([], JStr (u "っしょ"))]);
        (u "y", JObj [
          (u "a", JObj [([], JStr (u "っしゃ"))]);
          (u "i", JObj [([], JStr (u "っしぃ"))]);
          (u "u", JObj [([], JStr (u "っしゅ"))]);
          (u "e", JObj [([], JStr (u "っしぇ"))]);
          (u "o", JObj [([], JStr (u "っしょ"))])])])])]);
  (u "t", JObj [
    (u "a", JObj [([], JStr (u "た"))]);
    (u "i", JObj [([], JStr (u "ち"))]);
    (u "u", JObj [([], JStr (u "つ"))]);
    (u "e", JObj [([], JStr (u "て"))]);
    (u "o", JObj [([], JStr (u "と"))]);
    (u "y", JObj [
      (u "a", JObj [([], JStr (u "ちゃ"))]);
      (u "i", JObj [([], JStr (u "ちぃ"))]);
      (u "u", JObj [([], JStr (u "ちゅ"))]);
      (u "e", JObj [([], JStr (u "ちぇ"))]);
      (u "o", JObj [([], JStr (u "ちょ"))])]);
    (u "s", JObj [
      (u "a", JObj [([], JStr (u "つぁ"))]);
      (u "i", JObj [([], JStr (u "つぃ"))]);
      (u "u", JObj [([], JStr (u "つ"))]);
      (u "e", JObj [([], JStr (u "つぇ"))]);
      (u "o", JObj [([], JStr (u "つぉ"))])]);
    (u "h", JObj [
      (u "a", JObj [([], JStr (u "てゃ"))]);
      (u "i", JObj [([], JStr (u "てぃ"))]);
      (u "u", JObj [([], JStr (u "てゅ"))]);
      (u "e", JObj [([], JStr (u "てぇ"))]);
      (u "o", JObj [([], JStr (u "てょ"))])]);
    (u "w", JObj [
      (u "a", JObj [([], JStr (u "とぁ"))]);
      (u "i", JObj [([], JStr (u "とぃ"))]);
      (u "u", JObj [([], JStr (u "とぅ"))]);
      (u "e", JObj [([], JStr (u "とぇ"))]);
      (u "o", JObj [([], JStr (u "とぉ"))])]);
    (u "t", JObj [
      (u "a", JObj [([], JStr (u "った"))]);
      (u "i", JObj [([], JStr (u "っち"))]);
      (u "u", JObj [([], JStr (u "っつ"))]);
      (u "e", JObj [([], JStr (u "って"))]);
      (u "o", JObj [([], JStr (u "っと"))]);
      (u "y", JObj [
        (u "a", JObj [([], JStr (u "っちゃ"))]);
        (u "i", JObj [([], JStr (u "っちぃ"))]);
        (u "u", JObj [([], JStr (u "っちゅ"))]);
        (u "e", JObj [([], JStr (u "っちぇ"))]);
        (u "o", JObj [([], JStr (u "っちょ"))])]);
      (u "s", JObj [
        (u "a", JObj [([], JStr (u "っつぁ"))]);
        (u "i", JObj [([], JStr (u "っつぃ"))]);
        (u "u", JObj [([], JStr (u "っつ"))]);
        (u "e", JObj [([], JStr (u "っつぇ"))]);
        (u "o", JObj [([], JStr (u "っつぉ"))])]);
      (u "h", JObj [
        (u "a", JObj [([], JStr (u "ってゃ"))]);
        (u "i", JObj [([], JStr (u "ってぃ"))]);
        (u "u", JObj [([], JStr (u "ってゅ"))]);
        (u "e", JObj [([], JStr (u "ってぇ"))]);
        (u "o", JObj [([], JStr (u "ってょ"))])]);
      (u "w", JObj [
        (u "a", JObj [([], JStr (u "っとぁ"))]);
        (u "i", JObj [([], JStr (u "っとぃ"))]);
        (u "u", JObj [([], JStr (u "っとぅ"))]);
        (u "e", JObj [([], JStr (u "っとぇ"))]);
        (u "o", JObj [([], JStr (u "っとぉ"))])])])]);
  (u "n", JObj [
    (u "a", JObj [([], JStr (u "な"))]);
    (u "i", JObj [([], JStr (u "に"))]);
    (u "u", JObj [([], JStr (u "ぬ"))]);
    (u "e", JObj [([], JStr (u "ね"))]);
    (u "o", JObj [([], JStr (u "の"))]);
    (u "y", JObj [
      (u "a", JObj [([], JStr (u "にゃ"))]);
      (u "i", JObj [([], JStr (u "にぃ"))]);
      (u "u", JObj [([], JStr (u "にゅ"))]);
      (u "e", JObj [([], JStr (u "にぇ"))]);
      (u "o", JObj [([], JStr (u "にょ"))])]);
    ([], JStr (u "ん"));
    (u "'", JObj [([], JStr (u "ん"))])]);
  (u "h", JObj [
    (u "a", JObj [([], JStr (u "は"))]);
    (u "i", JObj [([], JStr (u "ひ"))]);
    (u "u", JObj [([], JStr (u "ふ"))]);
    (u "e", JObj [([], JStr (u "へ"))]);
    (u "o", JObj [([], JStr (u "ほ"))]);
    (u "y", JObj [
      (u "a", JObj [([], JStr (u "ひゃ"))]);
      (u "i", JObj [([], JStr (u "ひぃ"))]);
      (u "u", JObj [([], JStr (u "ひゅ"))]);
      (u "e", JObj [([], JStr (u "ひぇ"))]);
      (u "o", JObj [([], JStr (u "ひょ"))])]);
    (u "h", JObj [
      (u "a", JObj [([], JStr (u "っは"))]);
      (u "i", JObj [([], JStr (u "っひ"))]);
      (u "u", JObj [([], JStr (u "っふ"))]);
      (u "e", JObj [([], JStr (u "っへ"))]);
      (u "o", JObj [([], JStr (u "っほ"))]);
      (u "y", JObj [
        (u "a", JObj [([], JStr (u "っひゃ"))]);
        (u "i", JObj [([], JStr (u "っひぃ"))]);
        (u "u", JObj [([], JStr (u "っひゅ"))]);
        (u "e", JObj [([], JStr (u "っひぇ"))]);
        (u "o", JObj [([], JStr (u "っひょ"))])])])]);
  (u "m", JObj [
    (u "a", JObj [([], JStr (u "ま"))]);
    (u "i", JObj [([], JStr (u "み"))]);
    (u "u", JObj [([], JStr (u "む"))]);
    (u "e", JObj [([], JStr (u "め"))]);
    (u "o", JObj [([], JStr (u "も"))]);
    (u "y", JObj [
      (u "a", JObj [([], JStr (u "みゃ"))]);
      (u "i", JObj [([], JStr (u "みぃ"))]);
      (u "u", JObj [([], JStr (u "みゅ"))]);
      (u "e", JObj [([], JStr (u "みぇ"))]);
      (u "o", JObj [([], JStr (u "みょ"))])]);
    (u "m", JObj [
      (u "a", JObj [([], JStr (u "っま"))]);
      (u "i", JObj [([], JStr (u "っみ"))]);
      (u "u", JObj [([], JStr (u "っむ"))]);
      (u "e", JObj [([], JStr (u "っめ"))]);
      (u "o", JObj [([], JStr (u "っも"))]);
      (u "y", JObj [
        (u "a", JObj [([], JStr (u "っみゃ"))]);
        (u "i", JObj [([], JStr (u "っみぃ"))]);
        (u "u", JObj [([], JStr (u "っみゅ"))]);
        (u "e", JObj [([], JStr (u "っみぇ"))]);
        (u "o", JObj [([], JStr (u "っみょ"))])])])]);
  (u "y", JObj [
    (u "a", JObj [([], JStr (u "や"))]);
    (u "u", JObj [([], JStr (u "ゆ"))]);
    (u "o", JObj [([], JStr (u "よ"))]);
    (u "i", JObj [([], JStr (u "い"))]);
    (u "e", JObj [([], JStr (u "いぇ"))]);
    (u "y", JObj [
      (u "a", JObj [([], JStr (u "っや"))]);
      (u "u", JObj [([], JStr (u "っゆ"))]);
      (u "o", JObj [([], JStr (u "っよ"))]);
      (u "i", JObj [([], JStr (u "っい"))]);
      (u "e", JObj [([], JStr (u "っいぇ"))])])]);
  (u "r", JObj [
    (u "a", JObj [([], JStr (u "ら"))]);
    (u "i", JObj [([], JStr (u "り"))]);
    (u "u", JObj [([], JStr (u "る"))]);
    (u "e", JObj [([], JStr (u "れ"))]);
    (u "o", JObj [([], JStr (u "ろ"))]);
    (u "y", JObj [
      (u "a", JObj [([], JStr (u "りゃ"))]);
      (u "i", JObj [([], JStr (u "りぃ"))]);
      (u "u", JObj [([], JStr (u "りゅ"))]);
      (u "e", JObj [([], JStr (u "りぇ"))]);
      (u "o", JObj [([], JStr (u "りょ"))])]);
    (u "r", JObj [
      (u "a", JObj [([], JStr (u "っら"))]);
      (u "i", JObj [([], JStr (u "っり"))]);
      (u "u", JObj [([], JStr (u "っる"))]);
      (u "e", JObj [([], JStr (u "っれ"))]);
      (u "o", JObj [([], JStr (u "っろ"))]);
      (u "y", JObj [
        (u "a", JObj [([], JStr (u "っりゃ"))]);
        (u "i", JObj [([], JStr (u "っりぃ"))]);
        (u "u", JObj [([], JStr (u "っりゅ"))]);
        (u "e", JObj [([], JStr (u "っりぇ"))]);
        (u "o", JObj [([], JStr (u "っりょ"))])])])]);
  (u "w", JObj [
    (u "a", JObj [([], JStr (u "わ"))]);
    (u "i", JObj [([], JStr (u "うぃ"))]);
    (u "e", JObj [([], JStr (u "うぇ"))]);
    (u "o", JObj [([], JStr (u "を"))]);
    (u "h", JObj [
      (u "a", JObj [([], JStr (u "うぁ"))]);
      (u "i", JObj [([], JStr (u "うぃ"))]);
      (u "u", JObj [([], JStr (u "う"))]);
      (u "e", JObj [([], JStr (u "うぇ"))]);
      (u "o", JObj [([], JStr (u "うぉ"))])]);
    (u "u", JObj [([], JStr (u "う"))]);
    (u "w", JObj [
      (u "a", JObj [([], JStr (u "っわ"))]);
      (u "i", JObj [([], JStr (u "っうぃ"))]);
      (u "e", JObj [([], JStr (u "っうぇ"))]);
      (u "o", JObj [([], JStr (u "っを"))]);
      (u "h", JObj [
        (u "a", JObj [([], JStr (u "っうぁ"))]);
        (u "i", JObj [([], JStr (u "っうぃ"))]);
        (u "u", JObj [([], JStr (u "っう"))]);
        (u "e", JObj [([], JStr (u "っうぇ"))]);
        (u "o", JObj [([], JStr (u "っうぉ"))])]);
      (u "u", JObj [([], JStr (u "っう"))])])]);
  (u "g", JObj [
    (u "a", JObj [([], JStr (u "が"))]);
    (u "i", JObj [([], JStr (u "ぎ"))]);
    (u "u", JObj [([], JStr (u "ぐ"))]);
    (u "e", JObj [([], JStr (u "げ"))]);
    (u "o", JObj [([], JStr (u "ご"))]);
    (u "y", JObj [
      (u "a", JObj [([], JStr (u "ぎゃ"))]);
      (u "i", JObj [([], JStr (u "ぎぃ"))]);
      (u "u", JObj [([], JStr (u "ぎゅ"))]);
      (u "e", JObj [([], JStr (u "ぎぇ"))]);
      (u "o", JObj [([], JStr (u "ぎょ"))])]);
    (u "w", JObj [
      (u "a", JObj [([], JStr (u "ぐぁ"))]);
      (u "i", JObj [([], JStr (u "ぐぃ"))]);
      (u "u", JObj [([], JStr (u "ぐぅ"))]);
      (u "e", JObj [([], JStr (u "ぐぇ"))]);
      (u "o", JObj [([], JStr (u "ぐぉ"))])]);
    (u "g", JObj [
      (u "a", JObj [([], JStr (u "っが"))]);
      (u "i", JObj [([], JStr (u "っぎ"))]);
      (u "u", JObj [([], JStr (u "っぐ"))]);
      (u "e", JObj [([], JStr (u "っげ"))]);
      (u "o", JObj [([], JStr (u "っご"))]);
      (u "y", JObj [
        (u "a", JObj [([], JStr (u "っぎゃ"))]);
        (u "i", JObj [([], JStr (u "っぎぃ"))]);
        (u "u", JObj [([], JStr (u "っぎゅ"))]);
        (u "e", JObj [([], JStr (u "っぎぇ"))]);
        (u "o", JObj [([], JStr (u "っぎょ"))])]);
      (u "w", JObj [
        (u "a", JObj [([], JStr (u "っぐぁ"))]);
        (u "i", JObj [([], JStr (u "っぐぃ"))]);
        (u "u", JObj [([], JStr (u "っぐぅ"))]);
        (u "e", JObj [([], JStr (u "っぐぇ"))]);
        (u "o", JObj [([], JStr (u "っぐぉ"))])])])]);
  (u "z", JObj [
    (u "a", JObj [([], JStr (u "ざ"))]);
    (u "i", JObj [([], JStr (u "じ"))]);
    (u "u", JObj [([], JStr (u "ず"))]);
    (u "e", JObj [([], JStr (u "ぜ"))]);
    (u "o", JObj [([], JStr (u "ぞ"))]);
    (u "y", JObj [
      (u "a", JObj [([], JStr (u "じゃ"))]);
      (u "i", JObj [([], JStr (u "じぃ"))]);
      (u "u", JObj [([], JStr (u "じゅ"))]);
      (u "e", JObj [([], JStr (u "じぇ"))]);
      (u "o", JObj [([], JStr (u "じょ"))])]);
    (u "z", JObj [
      (u "a", JObj [([], JStr (u "っざ"))]);
      (u "i", JObj [([], JStr (u "っじ"))]);
      (u "u", JObj [([], JStr (u "っず"))]);
      (u "e", JObj [([], JStr (u "っぜ"))]);
      (u "o", JObj [([], JStr (u "っぞ"))]);
      (u "y", JObj [
        (u "a", JObj [([], JStr (u "っじゃ"))]);
        (u "i", JObj [([], JStr (u "っじぃ"))]);
        (u "u", JObj [([], JStr (u "っじゅ"))]);
        (u "e", JObj [([], JStr (u "っじぇ"))]);
        (u "o", JObj [([], JStr (u "っじょ"))])])])]);
  (u "d", JObj [
    (u "a", JObj [([], JStr (u "だ"))]);
    (u "i", JObj [([], JStr (u "ぢ"))]);
    (u "u", JObj [([], JStr (u "づ"))]);
    (u "e", JObj [([], JStr (u "で"))]);
    (u "o", JObj [([], JStr (u "ど"))]);
    (u "y", JObj [
      (u "a", JObj [([], JStr (u "ぢゃ"))]);
      (u "i", JObj [([], JStr (u "ぢぃ"))]);
      (u "u", JObj [([], JStr (u "ぢゅ"))]);
      (u "e", JObj [([], JStr (u "ぢぇ"))]);
      (u "o", JObj [([], JStr (u "ぢょ"))])]);
    (u "h", JObj [
      (u "a", JObj [([], JStr (u "でゃ"))]);
      (u "i", JObj [([], JStr (u "でぃ"))]);
      (u "u", JObj [([], JStr (u "でゅ"))]);
      (u "e", JObj [([], JStr (u "でぇ"))]);
      (u "o", JObj [([], JStr (u "でょ"))])]);
    (u "w", JObj [
      (u "a", JObj [([], JStr (u "どぁ"))]);
      (u "i", JObj [([], JStr (u "どぃ"))]);
      (u "u", JObj [([], JStr (u "どぅ"))]);
      (u "e", JObj [([], JStr (u "どぇ"))]);
      (u "o", JObj [([], JStr (u "どぉ"))])]);
    (u "d", JObj [
      (u "a", JObj [([], JStr (u "っだ"))]);
      (u "i", JObj [([], JStr (u "っぢ"))]);
      (u "u", JObj [([], JStr (u "っづ"))]);
      (u "e", JObj [([], JStr (u "っで"))]);
      (u "o", JObj [([], JStr (u "っど"))]);
      (u "y", JObj [
        (u "a", JObj [([], JStr (u "っぢゃ"))]);
        (u "i", JObj [([], JStr (u "っぢぃ"))]);
        (u "u", JObj [([], JStr (u "っぢゅ"))]);
        (u "e", JObj [([], JStr (u "っぢぇ"))]);
        (u "o", JObj [([], JStr (u "っぢょ"))])]);
      (u "h", JObj [
        (u "a", JObj [([], JStr (u "っでゃ"))]);
        (u "i", JObj [([], JStr (u "っでぃ"))]);
        (u "u", JObj [([], JStr (u "っでゅ"))]);
        (u "e", JObj [([], JStr (u "っでぇ"))]);
        (u "o", JObj [([], JStr (u "っでょ"))])]);
      (u "w", JObj [
        (u "a", JObj [([], JStr (u "っどぁ"))]);
        (u "i", JObj [([], JStr (u "っどぃ"))]);
        (u "u", JObj [([], JStr (u "っどぅ"))]);
        (u "e", JObj [([], JStr (u "っどぇ"))]);
        (u "o", JObj [([], JStr (u "っどぉ"))])])])]);
  (u "b", JObj [
    (u "a", JObj [([], JStr (u "ば"))]);
    (u "i", JObj [([], JStr (u "び"))]);
    (u "u", JObj [([], JStr (u "ぶ"))]);
    (u "e", JObj [([], JStr (u "べ"))]);
    (u "o", JObj [([], JStr (u "ぼ"))]);
    (u "y", JObj [
      (u "a", JObj [([], JStr (u "びゃ"))]);
      (u "i", JObj [([], JStr (u "びぃ"))]);
      (u "u", JObj [([], JStr (u "びゅ"))]);
      (u "e", JObj [([], JStr (u "びぇ"))]);
      (u "o", JObj [([], JStr (u "びょ"))])]);
    (u "b", JObj [
      (u "a", JObj [([], JStr (u "っば"))]);
      (u "i", JObj [([], JStr (u "っび"))]);
      (u "u", JObj [([], JStr (u "っぶ"))]);
      (u "e", JObj [([], JStr (u "っべ"))]);
      (u "o", JObj [([], JStr (u "っぼ"))]);
      (u "y", JObj [
        (u "a", JObj [([], JStr (u "っびゃ"))]);
        (u "i", JObj [([], JStr (u "っびぃ"))]);
        (u "u", JObj [([], JStr (u "っびゅ"))]);
        (u "e", JObj [([], JStr (u "っびぇ"))]);
        (u "o", JObj [([], JStr (u "っびょ"))])])])]);
  (u "p", JObj [
    (u "a", JObj [([], JStr (u "ぱ"))]);
    (u "i", JObj [([], JStr (u "ぴ"))]);
    (u "u", JObj [([], JStr (u "ぷ"))]);
    (u "e", JObj [([], JStr (u "ぺ"))]);
    (u "o", JObj [([], JStr (u "ぽ"))]);
    (u "y", JObj [
      (u "a", JObj [([], JStr (u "ぴゃ"))]);
      (u "i", JObj [([], JStr (u "ぴぃ"))]);
      (u "u", JObj [([], JStr (u "ぴゅ"))]);
      (u "e", JObj [([], JStr (u "ぴぇ"))]);
      (u "o", JObj [([], JStr (u "ぴょ"))])]);
    (u "p", JObj [
      (u "a", JObj [([], JStr (u "っぱ"))]);
      (u "i", JObj [([], JStr (u "っぴ"))]);
      (u "u", JObj [([], JStr (u "っぷ"))]);
      (u "e", JObj [([], JStr (u "っぺ"))]);
      (u "o", JObj [([], JStr (u "っぽ"))]);
      (u "y", JObj [
        (u "a", JObj [([], JStr (u "っぴゃ"))]);
        (u "i", JObj [([], JStr (u "っぴぃ"))]);
        (u "u", JObj [([], JStr (u "っぴゅ"))]);
        (u "e", JObj [([], JStr (u "っぴぇ"))]);
        (u "o", JObj [([], JStr (u "っぴょ"))])])])]);
  (u "v", JObj [
    (u "a", JObj [([], JStr (u "ゔぁ"))]);
    (u "i", JObj [([], JStr (u "ゔぃ"))]);
    (u "u", JObj [([], JStr (u "ゔ"))]);
    (u "e", JObj [([], JStr (u "ゔぇ"))]);
    (u "o", JObj [([], JStr (u "ゔぉ"))]);
    (u "y", JObj [
      (u "a", JObj [([], JStr (u "ゔゃ"))]);
      (u "i", JObj [([], JStr (u "ゔぃ"))]);
      (u "u", JObj [([], JStr (u "ゔゅ"))]);
      (u "e", JObj [([], JStr (u "ゔぇ"))]);
      (u "o", JObj [([], JStr (u "ゔょ"))])]);
    (u "v", JObj [
      (u "a", JObj [([], JStr (u "っゔぁ"))]);
      (u "i", JObj [([], JStr (u "っゔぃ"))]);
      (u "u", JObj [([], JStr (u "っゔ"))]);
      (u "e", JObj [([], JStr (u "っゔぇ"))]);
      (u "o", JObj [([], JStr (u "っゔぉ"))]);
      (u "y", JObj [
        (u "a", JObj [([], JStr (u "っゔゃ"))]);
        (u "i", JObj [([], JStr (u "っゔぃ"))]);
        (u "u", JObj [([], JStr (u "っゔゅ"))]);
        (u "e", JObj [([], JStr (u "っゔぇ"))]);
        (u "o", JObj [([], JStr (u "っゔょ"))])])])]);
  (u "q", JObj [
    (u "y", JObj [
      (u "a", JObj [([], JStr (u "くゃ"))]);
      (u "i", JObj [([], JStr (u "くぃ"))]);
      (u "u", JObj [([], JStr (u "くゅ"))]);
      (u "e", JObj [([], JStr (u "くぇ"))]);
      (u "o", JObj [([], JStr (u "くょ"))])]);
    (u "w", JObj [
      (u "a", JObj [([], JStr (u "くぁ"))]);
      (u "i", JObj [([], JStr (u "くぃ"))]);
      (u "u", JObj [([], JStr (u "くぅ"))]);
      (u "e", JObj [([], JStr (u "くぇ"))]);
      (u "o", JObj [([], JStr (u "くぉ"))])]);
    (u "a", JObj [([], JStr (u "くぁ"))]);
    (u "i", JObj [([], JStr (u "くぃ"))]);
    (u "u", JObj [([], JStr (u "くぅ"))]);
    (u "e", JObj [([], JStr (u "くぇ"))]);
    (u "o", JObj [([], JStr (u "くぉ"))]);
    (u "q", JObj [
      (u "y", JObj [
        (u "a", JObj [([], JStr (u "っくゃ"))]);
        (u "i", JObj [([], JStr (u "っくぃ"))]);
        (u "u", JObj [([], JStr (u "っくゅ"))]);
        (u "e", JObj [([], JStr (u "っくぇ"))]);
        (u "o", JObj [([], JStr (u "っくょ"))])]);
      (u "w", JObj [
        (u "a", JObj [([], JStr (u "っくぁ"))]);
        (u "i", JObj [([], JStr (u "っくぃ"))]);
        (u "u", JObj [([], JStr (u "っくぅ"))]);
        (u "e", JObj [([], JStr (u "っくぇ"))]);
        (u "o", JObj [([], JStr (u "っくぉ"))])]);
      (u "a", JObj [([], JStr (u "っくぁ"))]);
      (u "i", JObj [([], JStr (u "っくぃ"))]);
      (u "u", JObj [([], JStr (u "っくぅ"))]);
      (u "e", JObj [([], JStr (u "っくぇ"))]);
      (u "o", JObj [([], JStr (u "っくぉ"))])])]);
  (u "f", JObj [
    (u "y", JObj [
      (u "a", JObj [([], JStr (u "ふゃ"))]);
      (u "i", JObj [([], JStr (u "ふぃ"))]);
      (u "u", JObj [([], JStr (u "ふゅ"))]);
      (u "e", JObj [([], JStr (u "ふぇ"))]);
      (u "o", JObj [([], JStr (u "ふょ"))])]);
    (u "w", JObj [
      (u "a", JObj [([], JStr (u "ふぁ"))]);
      (u "i", JObj [([], JStr (u "ふぃ"))]);
      (u "u", JObj [([], JStr (u "ふぅ"))]);
      (u "e", JObj [([], JStr (u "ふぇ"))]);
      (u "o", JObj [([], JStr (u "ふぉ"))])]);
    (u "a", JObj [([], JStr (u "ふぁ"))]);
    (u "i", JObj [([], JStr (u "ふぃ"))]);
    (u "u", JObj [([], JStr (u "ふ"))]);
    (u "e", JObj [([], JStr (u "ふぇ"))]);
    (u "o", JObj [([], JStr (u "ふぉ"))]);
    (u "f", JObj [
      (u "y", JObj [
        (u "a", JObj [([], JStr (u "っふゃ"))]);
        (u "i", JObj [([], JStr (u "っふぃ"))]);
        (u "u", JObj [([], JStr (u "っふゅ"))]);
        (u "e", JObj [([], JStr (u "っふぇ"))]);
        (u "o", JObj [([], JStr (u "っふょ"))])]);
      (u "w", JObj [
        (u "a", JObj [([], JStr (u "っふぁ"))]);
        (u "i", JObj [([], JStr (u "っふぃ"))]);
        (u "u", JObj [([], JStr (u "っふぅ"))]);
        (u "e", JObj [([], JStr (u "っふぇ"))]);
        (u "o", JObj [([], JStr (u "っふぉ"))])]);
      (u "a", JObj [([], JStr (u "っふぁ"))]);
      (u "i", JObj [([], JStr (u "っふぃ"))]);
      (u "u", JObj [([], JStr (u "っふ"))]);
      (u "e", JObj [([], JStr (u "っふぇ"))]);
      (u "o", JObj [([], JStr (u "っふぉ"))])])]);
  (u ".", JObj [([], JStr (u "。"))]);
  (u ",", JObj [([], JStr (u "、"))]);
  (u ":", JObj [([], JStr (u "："))]);
  (u "/", JObj [([], JStr (u "・"))]);
  (u "!", JObj [([], JStr (u "！"))]);
  (u "?", JObj [([], JStr (u "？"))]);
  (u "~", JObj [([], JStr (u "〜"))]);
  (u "-", JObj [([], JStr (u "ー"))]);
  (u "‘", JObj [([], JStr (u "「"))]);
  (u "’", JObj [([], JStr (u "」"))]);
  (u "“", JObj [([], JStr (u "『"))]);
  (u "”", JObj [([], JStr (u "』"))]);
  (u "[", JObj [([], JStr (u "［"))]);
  (u "]", JObj [([], JStr (u "］"))]);
  (u "(", JObj [([], JStr (u "（"))]);
  (u ")", JObj [([], JStr (u "）"))]);
  (u "{", JObj [([], JStr (u "｛"))]);
  (u "}", JObj [([], JStr (u "｝"))]);
  (u "x", JObj [
    (u "n", JObj [([], JStr (u "ん"))]);
    (u "t", JObj [
      (u "u", JObj [([], JStr (u "っ"))]);
      (u "s", JObj [
        (u "u", JObj [([], JStr (u "っ"))])])]);
    (u "w", JObj [
      (u "a", JObj [([], JStr (u "ゎ"))])]);
    (u "k", JObj [
      (u "a", JObj [([], JStr (u "ヵ"))]);
      (u "e", JObj [([], JStr (u "ヶ"))])]);
    (u "c", JObj [
      (u "a", JObj [([], JStr (u "ヵ"))]);
      (u "e", JObj [([], JStr (u "ヶ"))])]);
    (u "a", JObj [([], JStr (u "ぁ"))]);
    (u "i", JObj [([], JStr (u "ぃ"))]);
    (u "u", JObj [([], JStr (u "ぅ"))]);
    (u "e", JObj [([], JStr (u "ぇ"))]);
    (u "o", JObj [([], JStr (u "ぉ"))]);
    (u "y", JObj [
      (u "a", JObj [([], JStr (u "ゃ"))]);
      (u "i", JObj [([], JStr (u "ぃ"))]);
      (u "u", JObj [([], JStr (u "ゅ"))]);
      (u "e", JObj [([], JStr (u "ぇ"))]);
      (u "o", JObj [([], JStr (u "ょ"))])])]);
  (u "c", JObj [
    (u "a", JObj [([], JStr (u "か"))]);
    (u "i", JObj [([], JStr (u "き"))]);
    (u "u", JObj [([], JStr (u "く"))]);
    (u "e", JObj [([], JStr (u "け"))]);
    (u "o", JObj [([], JStr (u "こ"))]);
    (u "y", JObj [
      (u "a", JObj [([], JStr (u "ちゃ"))]);
      (u "i", JObj [([], JStr (u "ちぃ"))]);
      (u "u", JObj [([], JStr (u "ちゅ"))]);
      (u "e", JObj [([], JStr (u "ちぇ"))]);
      (u "o", JObj [([], JStr (u "ちょ"))])]);
    (u "h", JObj [
      (u "a", JObj [([], JStr (u "ちゃ"))]);
      (u "i", JObj [([], JStr (u "ち"))]);
      (u "u", JObj [([], JStr (u "ちゅ"))]);
      (u "e", JObj [([], JStr (u "ちぇ"))]);
      (u "o", JObj [([], JStr (u "ちょ"))]);
      (u "y", JObj [
        (u "a", JObj [([], JStr (u "ちゃ"))]);
        (u "i", JObj [([], JStr (u "ちぃ"))]);
        (u "u", JObj [([], JStr (u "ちゅ"))]);
        (u "e", JObj [([], JStr (u "ちぇ"))]);
        (u "o", JObj [([], JStr (u "ちょ"))])])]);
    (u "c", JObj [
      (u "a", JObj [([], JStr (u "っか"))]);
      (u "i", JObj [([], JStr (u "っき"))]);
      (u "u", JObj [([], JStr (u "っく"))]);
      (u "e", JObj [([], JStr (u "っけ"))]);
      (u "o", JObj [([], JStr (u "っこ"))]);
      (u "y", JObj [
        (u "a", JObj [([], JStr (u "っちゃ"))]);
        (u "i", JObj [([], JStr (u "っちぃ"))]);
        (u "u", JObj [([], JStr (u "っちゅ"))]);
        (u "e", JObj [([], JStr (u "っちぇ"))]);
        (u "o", JObj [([], JStr (u "っちょ"))])]);
      (u "h", JObj [
        (u "a", JObj [([], JStr (u "っちゃ"))]);
        (u "i", JObj [([], JStr (u "っち"))]);
        (u "u", JObj [([], JStr (u "っちゅ"))]);
        (u "e", JObj [([], JStr (u "っちぇ"))]);
        (u "o", JObj [([], JStr (u "っちょ"))]);
        (u "y", JObj [
          (u "a", JObj [([], JStr (u "っちゃ"))]);
          (u "i", JObj [([], JStr (u "っちぃ"))]);
          (u "u", JObj [([], JStr (u "っちゅ"))]);
          (u "e", JObj [([], JStr (u "っちぇ"))]);
          (u "o", JObj [([], JStr (u "っちょ"))])])])])]);
  (u "j", JObj [
    (u "a", JObj [([], JStr (u "じゃ"))]);
    (u "i", JObj [([], JStr (u "じ"))]);
    (u "u", JObj [([], JStr (u "じゅ"))]);
    (u "e", JObj [([], JStr (u "じぇ"))]);
    (u "o", JObj [([], JStr (u "じょ"))]);
    (u "y", JObj [
      (u "a", JObj [([], JStr (u "じゃ"))]);
      (u "i", JObj [([], JStr (u "じぃ"))]);
      (u "u", JObj [([], JStr (u "じゅ"))]);
      (u "e", JObj [([], JStr (u "じぇ"))]);
      (u "o", JObj [([], JStr (u "じょ"))])]);
    (u "j", JObj [
      (u "a", JObj [([], JStr (u "っじゃ"))]);
      (u "i", JObj [([], JStr (u "っじ"))]);
      (u "u", JObj [([], JStr (u "っじゅ"))]);
      (u "e", JObj [([], JStr (u "っじぇ"))]);
      (u "o", JObj [([], JStr (u "っじょ"))]);
      (u "y", JObj [
        (u "a", JObj [([], JStr (u "っじゃ"))]);
        (u "i", JObj [([], JStr (u "っじぃ"))]);
        (u "u", JObj [([], JStr (u "っじゅ"))]);
        (u "e", JObj [([], JStr (u "っじぇ"))]);
        (u "o", JObj [([], JStr (u "っじょ"))])])])]);
  (u "l", JObj [
    (u "t", JObj [
      (u "u", JObj [([], JStr (u "っ"))]);
      (u "s", JObj [
        (u "u", JObj [([], JStr (u "っ"))])])]);
    (u "w", JObj [
      (u "a", JObj [([], JStr (u "ゎ"))])]);
    (u "k", JObj [
      (u "a", JObj [([], JStr (u "ヵ"))]);
      (u "e", JObj [([], JStr (u "ヶ"))])]);
    (u "c", JObj [
      (u "a", JObj [([], JStr (u "ヵ"))]);
      (u "e", JObj [([], JStr (u "ヶ"))])]);
    (u "a", JObj [([], JStr (u "ぁ"))]);
    (u "i", JObj [([], JStr (u "ぃ"))]);
    (u "u", JObj [([], JStr (u "ぅ"))]);
    (u "e", JObj [([], JStr (u "ぇ"))]);
    (u "o", JObj [([], JStr (u "ぉ"))]);
    (u "y", JObj [
      (u "a", JObj [([], JStr (u "ゃ"))]);
      (u "i", JObj [([], JStr (u "ぃ"))]);
      (u "u", JObj [([], JStr (u "ゅ"))]);
      (u "e", JObj [([], JStr (u "ぇ"))]);
      (u "o", JObj [([], JStr (u "ょ"))])])])].

(** to_romaji_tree.rs:16-1124 *)
Definition romaji_document : json := JObj [
  (u "あ", JObj [([], JStr (u "a"))]);
  (u "い", JObj [([], JStr (u "i"))]);
  (u "う", JObj [([], JStr (u "u"))]);
  (u "え", JObj [([], JStr (u "e"))]);
  (u "お", JObj [([], JStr (u "o"))]);
  (u "か", JObj [([], JStr (u "ka"))]);
  (u "き", JObj [
    ([], JStr (u "ki"));
    (u "ゃ", JObj [([], JStr (u "kya"))]);
    (u "ゅ", JObj [([], JStr (u "kyu"))]);
    (u "ょ", JObj [([], JStr (u "kyo"))]);
    (u "ぃ", JObj [([], JStr (u "kyi"))]);
    (u "ぇ", JObj [([], JStr (u "kye"))])]);
  (u "く", JObj [
    ([], JStr (u "ku"));
    (u "ゃ", JObj [([], JStr (u "kya"))]);
    (u "ゅ", JObj [([], JStr (u "kyu"))]);
    (u "ょ", JObj [([], JStr (u "kyo"))]);
    (u "ぃ", JObj [([], JStr (u "kyi"))]);
    (u "ぇ", JObj [([], JStr (u "kye"))])]);
  (u "け", JObj [([], JStr (u "ke"))]);
  (u "こ", JObj [([], JStr (u "ko"))]);
  (u "さ", JObj [([], JStr (u "sa"))]);
  (u "し", JObj [
    ([], JStr (u "shi"));
    (u "ゃ", JObj [([], JStr (u "sha"))]);
    (u "ゅ", JObj [([], JStr (u "shu"))]);
    (u "ょ", JObj [([], JStr (u "sho"))]);
    (u "ぃ", JObj [([], JStr (u "shyi"))]);
    (u "ぇ", JObj [([], JStr (u "she"))])]);
  (u "す", JObj [([], JStr (u "su"))]);
  (u "せ", JObj [([], JStr (u "se"))]);
  (u "そ", JObj [([], JStr (u "so"))]);
  (u "た", JObj [([], JStr (u "ta"))]);
  (u "ち", JObj [
    ([], JStr (u "chi"));
    (u "ゃ", JObj [([], JStr (u "cha"))]);
    (u "ゅ", JObj [([], JStr (u "chu"))]);
    (u "ょ", JObj [([], JStr (u "cho"))]);
    (u "ぃ", JObj [([], JStr (u "chyi"))]);
    (u "ぇ", JObj [([], JStr (u "che"))])]);
  (u "つ", JObj [([], JStr (u "tsu"))]);
  (u "て", JObj [([], JStr (u "te"))]);
  (u "と", JObj [([], JStr (u "to"))]);
  (u "な", JObj [([], JStr (u "na"))]);
  (u "に", JObj [
    ([], JStr (u "ni"));
    (u "ゃ", JObj [([], JStr (u "nya"))]);
    (u "ゅ", JObj [([], JStr (u "nyu"))]);
    (u "ょ", JObj [([], JStr (u "nyo"))]);
    (u "ぃ", JObj [([], JStr (u "nyi"))]);
    (u "ぇ", JObj [([], JStr (u "nye"))])]);
  (u "ぬ", JObj [([], JStr (u "nu"))]);
  (u "ね", JObj [([], JStr (u "ne"))]);
  (u "の", JObj [([], JStr (u "no"))]);
  (u "は", JObj [([], JStr (u "ha"))]);
  (u "ひ", JObj [
    ([], JStr (u "hi"));
    (u "ゃ", JObj [([], JStr (u "hya"))]);
    (u "ゅ", JObj [([], JStr (u "hyu"))]);
    (u "ょ", JObj [([], JStr (u "hyo"))]);
    (u "ぃ", JObj [([], JStr (u "hyi"))]);
    (u "ぇ", JObj [([], JStr (u "hye"))])]);
  (u "ふ", JObj [
    ([], JStr (u "fu"));
    (u "ゃ", JObj [([], JStr (u "fya"))]);
    (u "ゅ", JObj [([], JStr (u "fyu"))]);
    (u "ょ", JObj [([], JStr (u "fyo"))]);
    (u "ぃ", JObj [([], JStr (u "fyi"))]);
    (u "ぇ", JObj [([], JStr (u "fye"))])]);
  (u "へ", JObj [([], JStr (u "he"))]);
  (u "ほ", JObj [([], JStr (u "ho"))]);
  (u "ま", JObj [([], JStr (u "ma"))]);
  (u "み", JObj [
    ([], JStr (u "mi"));
    (u "ゃ", JObj [([], JStr (u "mya"))]);
    (u "ゅ", JObj [([], JStr (u "myu"))]);
    (u "ょ", JObj [([], JStr (u "myo"))]);
    (u "ぃ", JObj [([], JStr (u "myi"))]);
    (u "ぇ", JObj [([], JStr (u "mye"))])]);
  (u "む", JObj [([], JStr (u "mu"))]);
  (u "め", JObj [([], JStr (u "me"))]);
  (u "も", JObj [([], JStr (u "mo"))]);
  (u "ら", JObj [([], JStr (u "ra"))]);
  (u "り", JObj [
    ([], JStr (u "ri"));
    (u "ゃ", JObj [([], JStr (u "rya"))]);
    (u "ゅ", JObj [([], JStr (u "ryu"))]);
    (u "ょ", JObj [([], JStr (u "ryo"))]);
    (u "ぃ", JObj [([], JStr (u "ryi"))]);
    (u "ぇ", JObj [([], JStr (u "rye"))])]);
  (u "る", JObj [([], JStr (u "ru"))]);
  (u "れ", JObj [([], JStr (u "re"))]);
  (u "ろ", JObj [([], JStr (u "ro"))]);
  (u "や", JObj [([], JStr (u "ya"))]);
  (u "ゆ", JObj [([], JStr (u "yu"))]);
  (u "よ", JObj [([], JStr (u "yo"))]);
  (u "わ", JObj [([], JStr (u "wa"))]);
  (u "ゐ", JObj [([], JStr (u "wi"))]);
  (u "ゑ", JObj [([], JStr (u "we"))]);
  (u "を", JObj [([], JStr (u "wo"))]);
  (u "ん", JObj [
    ([], JStr (u "n"));
    (u "あ", JObj [([], JStr (u "n'a"))]);
    (u "い", JObj [([], JStr (u "n'i"))]);
    (u "う", JObj [([], JStr (u "n'u"))]);
    (u "え", JObj [([], JStr (u "n'e"))]);
    (u "お", JObj [([], JStr (u "n'o"))]);
    (u "や", JObj [([], JStr (u "n'ya"))]);
    (u "ゆ", JObj [([], JStr (u "n'yu"))]);
    (u "よ", JObj [([], JStr (u "n'yo"))])]);
  (u "が", JObj [([], JStr (u "ga"))]);
  (u "ぎ", JObj [
    ([], JStr (u "gi"));
    (u "ゃ", JObj [([], JStr (u "gya"))]);
    (u "ゅ", JObj [([], JStr (u "gyu"))]);
    (u "ょ", JObj [([], JStr (u "gyo"))]);
    (u "ぃ", JObj [([], JStr (u "gyi"))]);
    (u "ぇ", JObj [([], JStr (u "gye"))])]);
  (u "ぐ", JObj [([], JStr (u "gu"))]);
  (u "げ", JObj [([], JStr (u "ge"))]);
  (u "ご", JObj [([], JStr (u "go"))]);
  (u "ざ", JObj [([], JStr (u "za"))]);
  (u "じ", JObj [
    ([], JStr (u "ji"));
    (u "ゃ", JObj [([], JStr (u "ja"))]);
    (u "ゅ", JObj [([], JStr (u "ju"))]);
    (u "ょ", JObj [([], JStr (u "jo"))]);
    (u "ぃ", JObj [([], JStr (u "jyi"))]);
    (u "ぇ", JObj [([], JStr (u "je"))])]);
  (u "ず", JObj [([], JStr (u "zu"))]);
  (u "ぜ", JObj [([], JStr (u "ze"))]);
  (u "ぞ", JObj [([], JStr (u "zo"))]);
  (u "だ", JObj [([], JStr (u "da"))]);
  (u "ぢ", JObj [
    ([], JStr (u "ji"));
    (u "ゃ", JObj [([], JStr (u "ja"))]);
    (u "ゅ", JObj [([], JStr (u "ju"))]);
    (u "ょ", JObj [([], JStr (u "jo"))]);
    (u "ぃ", JObj [([], JStr (u "jyi"))]);
    (u "ぇ", JObj [([], JStr (u "je"))])]);
  (u "づ", JObj [([], JStr (u "zu"))]);
  (u "で", JObj [([], JStr (u "de"))]);
  (u "ど", JObj [([], JStr (u "do"))]);
  (u "ば", JObj [([], JStr (u "ba"))]);
  (u "び", JObj [
    ([], JStr (u "bi"));
    (u "ゃ", JObj [([], JStr (u "bya"))]);
    (u "ゅ", JObj [([], JStr (u "byu"))]);
    (u "ょ", JObj [([], JStr (u "byo"))]);
    (u "ぃ", JObj [([], JStr (u "byi"))]);
    (u "ぇ", JObj [([], JStr (u "bye"))])]);
  (u "ぶ", JObj [([], JStr (u "bu"))]);
  (u "べ", JObj [([], JStr (u "be"))]);
  (u "ぼ", JObj [([], JStr (u "bo"))]);
  (u "ぱ", JObj [([], JStr (u "pa"))]);
  (u "ぴ", JObj [
    ([], JStr (u "pi"));
    (u "ゃ", JObj [([], JStr (u "pya"))]);
    (u "ゅ", JObj [([], JStr (u "pyu"))]);
    (u "ょ", JObj [([], JStr (u "pyo"))]);
    (u "ぃ", JObj [([], JStr (u "pyi"))]);
    (u "ぇ", JObj [([], JStr (u "pye"))])]);
  (u "ぷ", JObj [([], JStr (u "pu"))]);
  (u "ぺ", JObj [([], JStr (u "pe"))]);
  (u "ぽ", JObj [([], JStr (u "po"))]);
  (u "ゔぁ", JObj [([], JStr (u "va"))]);
  (u "ゔぃ", JObj [([], JStr (u "vi"))]);
  (u "ゔ", JObj [
    ([], JStr (u "vu"));
    (u "ゃ", JObj [([], JStr (u "vya"))]);
    (u "ゅ", JObj [([], JStr (u "vyu"))]);
    (u "ょ", JObj [([], JStr (u "vyo"))]);
    (u "ぃ", JObj [([], JStr (u "vyi"))]);
    (u "ぇ", JObj [([], JStr (u "vye"))])]);
  (u "ゔぇ", JObj [([], JStr (u "ve"))]);
  (u "ゔぉ", JObj [([], JStr (u "vo"))]);
  (u "。", JObj [([], JStr (u "."))]);
  (u "、", JObj [([], JStr (u ","))]);
  (u "：", JObj [([], JStr (u ":"))]);
  (u "・", JObj [([], JStr (u "/"))]);
  (u "！", JObj [([], JStr (u "!"))]);
  (u "？", JObj [([], JStr (u "?"))]);
  (u "〜", JObj [([], JStr (u "~"))]);
  (u "ー", JObj [([], JStr (u "-"))]);
  (u "「", JObj [([], JStr (u "‘"))]);
  (u "」", JObj [([], JStr (u "’"))]);
  (u "『", JObj [([], JStr (u "“"))]);
  (u "』", JObj [([], JStr (u "”"))]);
  (u "［", JObj [([], JStr (u "["))]);
  (u "］", JObj [([], JStr (u "]"))]);
  (u "（", JObj [([], JStr (u "("))]);
  (u "）", JObj [([], JStr (u ")"))]);
  (u "｛", JObj [([], JStr (u "{"))]);
  (u "｝", JObj [([], JStr (u "}"))]);
  ([0x3000], JObj [([], JStr (u " "))]);
  (u "ゃ", JObj [([], JStr (u "ya"))]);
  (u "ゅ", JObj [([], JStr (u "yu"))]);
  (u "ょ", JObj [([], JStr (u "yo"))]);
  (u "ぁ", JObj [([], JStr (u "a"))]);
  (u "ぃ", JObj [([], JStr (u "i"))]);
  (u "ぅ", JObj [([], JStr (u "u"))]);
  (u "ぇ", JObj [([], JStr (u "e"))]);
  (u "ぉ", JObj [([], JStr (u "o"))]);
  (u "っ", JObj [
    (u "あ", JObj [([], JStr (u "a"))]);
    (u "い", JObj [([], JStr (u "i"))]);
    (u "う", JObj [([], JStr (u "u"))]);
    (u "え", JObj [([], JStr (u "e"))]);
    (u "お", JObj [([], JStr (u "o"))]);
    (u "か", JObj [([], JStr (u "kka"))]);
    (u "き", JObj [
      ([], JStr (u "kki"));
      (u "ゃ", JObj [([], JStr (u "kkya"))]);
      (u "ゅ", JObj [([], JStr (u "kkyu"))]);
      (u "ょ", JObj [([], JStr (u "kkyo"))]);
      (u "ぃ", JObj [([], JStr (u "kkyi"))]);
      (u "ぇ", JObj [([], JStr (u "kkye"))])]);
    (u "く", JObj [
      ([], JStr (u "kku"));
      (u "ゃ", JObj [([], JStr (u "kkya"))]);
      (u "ゅ", JObj [([], JStr (u "kkyu"))]);
      (u "ょ", JObj [([], JStr (u "kkyo"))]);
      (u "ぃ", JObj [([], JStr (u "kkyi"))]);
      (u "ぇ", JObj [([], JStr (u "kkye"))])]);
    (u "け", JObj [([], JStr (u "kke"))]);
    (u "こ", JObj [([], JStr (u "kko"))]);
    (u "さ", JObj [([], JStr (u "ssa"))]);
    (u "し", JObj [
      ([], JStr (u "sshi"));
      (u "ゃ", JObj [([], JStr (u "ssha"))]);
      (u "ゅ", JObj [([], JStr (u "sshu"))]);
      (u "ょ", JObj [([], JStr (u "ssho"))]);
      (u "ぃ", JObj [([], JStr (u "sshyi"))]);
      (u "ぇ", JObj [([], JStr (u "sshe"))])]);
    (u "す", JObj [([], JStr (u "ssu"))]);
    (u "せ", JObj [([], JStr (u "sse"))]);
    (u "そ", JObj [([], JStr (u "sso"))]);
    (u "た", JObj [([], JStr (u "tta"))]);
    (u "ち", JObj [
      ([], JStr (u "tchi"));
      (u "ゃ", JObj [([], JStr (u "tcha"))]);
      (u "ゅ", JObj [([], JStr (u "tchu"))]);
      (u "ょ", JObj [([], JStr (u "tcho"))]);
      (u "ぃ", JObj [([], JStr (u "tchyi"))]);
      (u "ぇ", JObj [([], JStr (u "tche"))])]);
    (u "つ", JObj [([], JStr (u "ttsu"))]);
    (u "て", JObj [([], JStr (u "tte"))]);
    (u "と", JObj [([], JStr (u "tto"))]);
    (u "な", JObj [([], JStr (u "na"))]);
    (u "に", JObj [
      ([], JStr (u "ni"));
      (u "ゃ", JObj [([], JStr (u "nya"))]);
      (u "ゅ", JObj [([], JStr (u "nyu"))]);
      (u "ょ", JObj [([], JStr (u "nyo"))]);
      (u "ぃ", JObj [([], JStr (u "nyi"))]);
      (u "ぇ", JObj [([], JStr (u "nye"))])]);
    (u "ぬ", JObj [([], JStr (u "nu"))]);
    (u "ね", JObj [([], JStr (u "ne"))]);
    (u "の", JObj [([], JStr (u "no"))]);
    (u "は", JObj [([], JStr (u "hha"))]);
    (u "ひ", JObj [
      ([], JStr (u "hhi"));
      (u "ゃ", JObj [([], JStr (u "hhya"))]);
      (u "ゅ", JObj [([], JStr (u "hhyu"))]);
      (u "ょ", JObj [([], JStr (u "hhyo"))]);
      (u "ぃ", JObj [([], JStr (u "hhyi"))]);
      (u "ぇ", JObj [([], JStr (u "hhye"))])]);
    (u "ふ", JObj [
      ([], JStr (u "ffu"));
      (u "ゃ", JObj [([], JStr (u "ffya"))]);
      (u "ゅ", JObj [([], JStr (u "ffyu"))]);
      (u "ょ", JObj [([], JStr (u "ffyo"))]);
      (u "ぃ", JObj [([], JStr (u "ffyi"))]);
      (u "ぇ", JObj [([], JStr (u "ffye"))])]);
    (u "へ", JObj [([], JStr (u "hhe"))]);
    (u "ほ", JObj [([], JStr (u "hho"))]);
    (u "ま", JObj [([], JStr (u "mma"))]);
    (u "み", JObj [
      ([], JStr (u "mmi"));
      (u "ゃ", JObj [([], JStr (u "mmya"))]);
      (u "ゅ", JObj [([], JStr (u "mmyu"))]);
      (u "ょ", JObj [([], JStr (u "mmyo"))]);
      (u "ぃ", JObj [([], JStr (u "mmyi"))]);
      (u "ぇ", JObj [([], JStr (u "mmye"))])]);
    (u "む", JObj [([], JStr (u "mmu"))]);
    (u "め", JObj [([], JStr (u "mme"))]);
    (u "も", JObj [([], JStr (u "mmo"))]);
    (u "ら", JObj [([], JStr (u "rra"))]);
    (u "り", JObj [
      ([], JStr (u "rri"));
      (u "ゃ", JObj [([], JStr (u "rrya"))]);
      (u "ゅ", JObj [([], JStr (u "rryu"))]);
      (u "ょ", JObj [([], JStr (u "rryo"))]);
      (u "ぃ", JObj [([], JStr (u "rryi"))]);
      (u "ぇ", JObj [([], JStr (u "rrye"))])]);
    (u "る", JObj [([], JStr (u "rru"))]);
    (u "れ", JObj [([], JStr (u "rre"))]);
    (u "ろ", JObj [([], JStr (u "rro"))]);
    (u "や", JObj [([], JStr (u "ya"))]);
    (u "ゆ", JObj [([], JStr (u "yu"))]);
    (u "よ", JObj [([], JStr (u "yo"))]);
    (u "わ", JObj [([], JStr (u "wwa"))]);
    (u "ゐ", JObj [([], JStr (u "wwi"))]);
    (u "ゑ", JObj [([], JStr (u "wwe"))]);
    (u "を", JObj [([], JStr (u "wwo"))]);
    (u "ん", JObj [([], JStr (u "n"))]);
    (u "が", JObj [([], JStr (u "gga"))]);
    (u "ぎ", JObj [
      ([], JStr (u "ggi"));
      (u "ゃ", JObj [([], JStr (u "ggya"))]);
      (u "ゅ", JObj [([], JStr (u "ggyu"))]);
      (u "ょ", JObj [([], JStr (u "ggyo"))]);
      (u "ぃ", JObj [([], JStr (u "ggyi"))]);
      (u "ぇ", JObj [([], JStr (u "ggye"))])]);
    (u "ぐ", JObj [([], JStr (u "ggu"))]);
    (u "げ", JObj [([], JStr (u "gge"))]);
    (u "ご", JObj [([], JStr (u "ggo"))]);
    (u "ざ", JObj [([], JStr (u "zza"))]);
    (u "じ", JObj [
      ([], JStr (u "jji"));
      (u "ゃ", JObj [([], JStr (u "jja"))]);
      (u "ゅ", JObj [([], JStr (u "jju"))]);
      (u "ょ", JObj [([], JStr (u "jjo"))]);
      (u "ぃ", JObj [([], JStr (u "jjyi"))]);
      (u "ぇ", JObj [([], JStr (u "jje"))])]);
    (u "ず", JObj [([], JStr (u "zzu"))]);
    (u "ぜ", JObj [([], JStr (u "zze"))]);
    (u "ぞ", JObj [([], JStr (u "zzo"))]);
    (u "だ", JObj [([], JStr (u "dda"))]);
    (u "ぢ", JObj [
      ([], JStr (u "jji"));
      (u "ゃ", JObj [([], JStr (u "jja"))]);
      (u "ゅ", JObj [([], JStr (u "jju"))]);
      (u "ょ", JObj [([], JStr (u "jjo"))]);
      (u "ぃ", JObj [([], JStr (u "jjyi"))]);
      (u "ぇ", JObj [([], JStr (u "jje"))])]);
    (u "づ", JObj [([], JStr (u "zzu"))]);
    (u "で", JObj [([], JStr (u "dde"))]);
    (u "ど", JObj [([], JStr (u "ddo"))]);
    (u "ば", JObj [([], JStr (u "bba"))]);
    (u "び", JObj [
      ([], JStr (u "bbi"));
      (u "ゃ", JObj [([], JStr (u "bbya"))]);
      (u "ゅ", JObj [([], JStr (u "bbyu"))]);
      (u "ょ", JObj [([], JStr (u "bbyo"))]);
      (u "ぃ", JObj [([], JStr (u "bbyi"))]);
      (u "ぇ", JObj [([], JStr (u "bbye"))])]);
    (u "ぶ", JObj [([], JStr (u "bbu"))]);
    (u "べ", JObj [([], JStr (u "bbe"))]);
    (u "ぼ", JObj [([], JStr (u "bbo"))]);
    (u "ぱ", JObj [([], JStr (u "ppa"))]);
    (u "ぴ", JObj [
      ([], JStr (u "ppi"));
      (u "ゃ", JObj [([], JStr (u "ppya"))]);
      (u "ゅ", JObj [([], JStr (u "ppyu"))]);
      (u "ょ", JObj [([], JStr (u "ppyo"))]);
      (u "ぃ", JObj [([], JStr (u "ppyi"))]);
      (u "ぇ", JObj [([], JStr (u "ppye"))])]);
    (u "ぷ", JObj [([], JStr (u "ppu"))]);
    (u "ぺ", JObj [([], JStr (u "ppe"))]);
    (u "ぽ", JObj [([], JStr (u "ppo"))]);
    (u "ゔぁ", JObj [([], JStr (u "vva"))]);
    (u "ゔぃ", JObj [([], JStr (u "vvi"))]);
    (u "ゔ", JObj [
      ([], JStr (u "vvu"));
      (u "ゃ", JObj [([], JStr (u "vvya"))]);
      (u "ゅ", JObj [([], JStr (u "vvyu"))]);
      (u "ょ", JObj [([], JStr (u "vvyo"))]);
      (u "ぃ", JObj [([], JStr (u "vvyi"))]);
      (u "ぇ", JObj [([], JStr (u "vvye"))])]);
    (u "ゔぇ", JObj [([], JStr (u "vve"))]);
    (u "ゔぉ", JObj [([], JStr (u "vvo"))]);
    (u "。", JObj [([], JStr (u "."))]);
    (u "、", JObj [([], JStr (u ","))]);
    (u "：", JObj [([], JStr (u ":"))]);
    (u "・", JObj [([], JStr (u "/"))]);
    (u "！", JObj [([], JStr (u "!"))]);
    (u "？", JObj [([], JStr (u "?"))]);
    (u "〜", JObj [([], JStr (u "~"))]);
    (u "ー", JObj [([], JStr (u "-"))]);
    (u "「", JObj [([], JStr (u "‘"))]);
    (u "」", JObj [([], JStr (u "’"))]);
    (u "『", JObj [([], JStr (u "“"))]);
    (u "』", JObj [([], JStr (u "”"))]);
    (u "［", JObj [([], JStr (u "["))]);
    (u "］", JObj [([], JStr (u "]"))]);
    (u "（", JObj [([], JStr (u "("))]);
    (u "）", JObj [([], JStr (u ")"))]);
    (u "｛", JObj [([], JStr (u "{"))]);
    (u "｝", JObj [([], JStr (u "}"))]);
    ([0x3000], JObj [([], JStr (u " "))]);
    (u "ゃ", JObj [([], JStr (u "ya"))]);
    (u "ゅ", JObj [([], JStr (u "yu"))]);
    (u "ょ", JObj [([], JStr (u "yo"))]);
    (u "ぁ", JObj [([], JStr (u "a"))]);
    (u "ぃ", JObj [([], JStr (u "i"))]);
    (u "ぅ", JObj [([], JStr (u "u"))]);
    (u "ぇ", JObj [([], JStr (u "e"))]);
    (u "ぉ", JObj [([], JStr (u "o"))]);
    ([], JStr [])])].
