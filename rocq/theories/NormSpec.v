(** * Kana written with combining voicing marks (C106)

    In decomposed text (Unicode NFD, for instance the file names of some systems) が is か followed by U+3099. *)
From Verif Require Import Base Predicates KanaSpec ScriptSpec.

Definition voicing : N := 0x3099.
Definition semivoicing : N := 0x309A.
(** the canonical decompositions in the kana blocks of the Unicode character database *)
Definition composed : list (N * str) := Eval vm_compute in
  map (fun p => (fst p, [snd p; voicing])) (combine
    (u "がぎぐげござじずぜぞだぢづでどばびぶべぼゔゞガギグゲゴザジズゼゾダヂヅデドバビブベボヴヷヸヹヺヾ")
    (u "かきくけこさしすせそたちつてとはひふへほうゝカキクケコサシスセソタチツテトハヒフヘホウワヰヱヲヽ"))
  ++ map (fun p => (fst p, [snd p; semivoicing])) (combine (u "ぱぴぷぺぽパピプペポ") (u "はひふへほハヒフヘホ")).
Definition decompose_char (c : N) : str :=
  match find (fun e => fst e =? c) composed with Some e => snd e | None => [c] end.
(** every composed kana of the text decomposed *)
Definition decompose (s : str) : str := flat_map decompose_char s.
(** has a decomposition *)
Definition is_composed (c : N) : Prop := In c (map fst composed).

(** a mark lengthens a voiced katakana *)
Definition lengthens_voiced (s : str) : Prop :=
  exists a b k, s = a ++ long_mark :: b /\ lengthens a k /\ is_composed k.
(** what to_hiragana does not treat in the same way composed and decomposed *)
Definition safe_katakana (s : str) : Prop :=
  ~ lengthens_voiced s /\ (forall c, In c s -> ~ In c (u "ヷヸヹヺ")).
