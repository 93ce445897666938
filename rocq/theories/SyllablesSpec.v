(** * Hepburn syllables (C111) *)
From Verif Require Import Base KanaSpec.

Definition after (o : str) (vs : str) : list str := map (fun v => o ++ [v]) vs.
(** the syllables of Hepburn spelling, with the y row extended to yi and ye as upstream has it *)
Definition plain_syllables : list str :=
  after [] (u "aiueo")
  ++ flat_map (fun o => after o (u "aiueo"))
       [u "k"; u "g"; u "n"; u "b"; u "p"; u "m"; u "r"; u "v"; u "sh"; u "ch"; u "j";
        u "ky"; u "gy"; u "ny"; u "hy"; u "by"; u "py"; u "my"; u "ry"; u "fy"; u "vy"]
  ++ flat_map (fun o => after o (u "aueo")) [u "s"; u "z"]
  ++ flat_map (fun o => after o (u "aeo")) [u "t"; u "d"]
  ++ flat_map (fun o => after o (u "aieo")) [u "h"; u "w"]
  ++ after (u "y") (u "auo") ++ [u "tsu"; u "fu"; u "shyi"; u "chyi"; u "jyi"].
(** a small tsu doubles the first consonant, as t before ch; vowels, n and y are not doubled *)
Definition doubled_by (w : str) : str :=
  match w with
  | c :: _ => if existsb (N.eqb c) (u "aiueony") then [] else if c =? ch "c" then u "t" else [c]
  | [] => []
  end.
Definition syllables : list str :=
  plain_syllables ++ map (fun w => doubled_by w ++ w) plain_syllables
  ++ [u "n"] ++ map (fun w => u "n'" ++ w) [u "a"; u "i"; u "u"; u "e"; u "o"; u "ya"; u "yu"; u "yo"].
(** text made of syllables and of the dash written for a lone mark ー *)
Definition syllabic (t : str) : Prop := exists ws, t = concat ws /\ Forall (fun w => In w syllables \/ w = u "-") ws.
(** a kana letter that has a reading, or the mark ー *)
Definition sounded (c : N) : Prop := ((hiragana_letter c \/ katakana_letter c) /\ ~ In c (u "ゕゖヵヶ")) \/ c = ch "ー".
