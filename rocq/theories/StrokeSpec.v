(** * Specification of the fewest keystrokes for a kana text (C104) *)
From Verif Require Import Base KanaSpec TypingSpec.

Definition among (c : N) (l : str) : bool := existsb (N.eqb c) l.
Definition katakana (c : N) : bool := (0x30A1 <=? c) && (c <=? 0x30F4).
(** the hiragana of a katakana letter up to ヴ *)
Definition hira_of (c : N) : N := if katakana c then c - 0x60 else c.
(** the characters that stand for ASCII punctuation, but ー and ・ *)
Definition typeable_mark (c : N) : Prop := In c (u "、。〜！（）：？［］｛｝").
Definition typeable (m : mode) (c : N) : Prop := typeable_kana m c \/ typeable_mark c.

(** ** Two kana typed together, and with how many keys: the first rule that fits *)
Definition pair_rules : list (str * str * nat) := Eval vm_compute in
  [(u "い", u "ぇ", 2); (u "くふゔ", u "ぁぃぇぉ", 2); (u "く", u "ぅ", 2); (u "じ", u "ぇゃゅょ", 2);
   (u "う", u "ぁぉ", 3); (u "ふ", u "ぅ", 3); (u "じ", u "ぃ", 3); (u "きぎしちぢてでにひびぴみり", u "ぃぇ", 3);
   (u "ぐすとど", u "ぁぃぅぇぉ", 3); (u "つ", u "ぁぃぇぉ", 3); (u "きぎくしちぢてでにひびぴふみりゔ", u "ゃゅょ", 3)]%nat.
Definition rules : list (str * str * nat) := Eval vm_compute in (u "う", u "ぃぇ", 2%nat) :: pair_rules.
Definition rules_obsolete : list (str * str * nat) := Eval vm_compute in (u "う", u "ぃぇ", 3%nat) :: pair_rules.
Definition two (m : mode) (a b : N) : option nat :=
  option_map snd (find (fun r => among a (fst (fst r)) && among b (snd (fst r))) (match m with Obsolete => rules_obsolete | _ => rules end)).
Definition pair (m : mode) (a b : N) : option nat :=
  if Bool.eqb (katakana a) (katakana b) then two m (hira_of a) (hira_of b) else None.
Definition pairs_with (m : mode) (a : N) (r : str) : bool :=
  match r with b :: _ => match pair m a b with Some _ => true | None => false end | [] => false end.

(** ** Classes of hiragana *)
Definition three_keys : str := Eval vm_compute in u "ゃゅょゎヵヶ".
(** 「」『』 have one key too, but not an ASCII one *)
Definition one_key : str := Eval vm_compute in u "あいうえおー・「」『』、。〜！（）：？［］｛｝".
Definition i_u : str := Eval vm_compute in u "いう".
Definition u_only : str := Eval vm_compute in u "う".
Definition small_i_e : str := Eval vm_compute in u "ぃぇ".
Definition vowels_y : str := Eval vm_compute in u "あいえおやゆよ".
Definition i_y : str := Eval vm_compute in u "いやゆよ".
Definition tsu_kana : str := Eval vm_compute in u "っ".
Definition n_kana : str := Eval vm_compute in u "ん".
Definition doubled : str := Eval vm_compute in u "かがきぎくぐけげこごさざしじすずせぜそぞただちぢつづてでとどはばぱひびぴふぶぷへべぺほぼぽまみむめもやゆよらりるれろわをゔ".
(** ** One kana *)
Definition alone (c : N) : nat :=
  let h := hira_of c in
  if among h three_keys then 3 else if among h one_key then 1 else 2.
(** っ in front of [r] *)
Definition tsu_keys (m : mode) (t : N) (r : str) : nat :=
  match r with
  | a :: r' =>
    let h := hira_of a in
    if negb (Bool.eqb (katakana t) (katakana a)) then 3
    else if among h doubled then 1
    else if among h i_u then
      if pairs_with m a r' then
        match m with Obsolete => if among h u_only && among (hira_of (hd 0%N r')) small_i_e then 0 else 1 | _ => 1 end
      else 2
    else 3
  | [] => 3
  end%nat.
(** ん in front of [r]: n is enough unless what follows would be typed with a vowel or y *)
Definition n_keys (m : mode) (r : str) : nat :=
  match m with
  | Ime => 2
  | _ =>
    match r with
    | [] => 1
    | a :: r' =>
      let h := hira_of a in
      if among h vowels_y then 2
      else if among h u_only then (if pairs_with m a r' then 1 else 2)
      else if among h tsu_kana then
        match r' with b :: _ => if Bool.eqb (katakana a) (katakana b) && among (hira_of b) i_y then 2 else 1 | [] => 1 end
      else 1
    end
  end%nat.

(** ** A text: [before] is the kana in front of [c], [r] what follows *)
Definition keys (m : mode) (before : option N) (c : N) (r : str) : nat :=
  if match before with Some b => pairs_with m b [c] | None => false end then 0
  else if among (hira_of c) n_kana then n_keys m r
  else if among (hira_of c) tsu_kana then tsu_keys m c r
  else match r with b :: _ => match pair m c b with Some k => k | None => alone c end | [] => alone c end.
Fixpoint strokes_after (m : mode) (before : option N) (r : str) : nat :=
  match r with [] => 0 | c :: r' => keys m before c r' + strokes_after m (Some c) r' end.
Definition strokes (m : mode) (r : str) : nat := strokes_after m None r.
