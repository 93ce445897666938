(** * Specification of kana-to-romaji conversion (C23-C34, C55)

    The dictionary as a table of rows plus the gemination rule, conversion as a
    relation, and Hepburn spelling of mora sequences.  Nothing here refers to trees
    or to the code. *)
From Verif Require Import Base KanaSpec ScriptSpec.

Definition S_kata (c : N) : Prop := 0x30A1 <= c <= 0x30FC.

(** ** The dictionary *)
(** [row "かき" "ka ki"]: one kana per word *)
Definition row (r : str * str) : list (str * str) := combine (map (fun c => [c]) (fst r)) (words (snd r)).
(** [yoon ("き", "kyi kye kya kyu kyo")]: the kana followed by ぃ ぇ ゃ ゅ ょ *)
Definition yoon (r : str * str) : list (str * str) :=
  combine (map (fun c => fst r ++ [c]) (u "ぃぇゃゅょ")) (words (snd r)).

Definition punct_entries : list (str * str) := [
  (u "　", u " "); (u "、", u ","); (u "。", u "."); (u "「", u "‘"); (u "」", u "’"); (u "『", u "“");
  (u "』", u "”"); (u "〜", u "~"); (u "・", u "/"); (u "ー", u "-"); (u "！", u "!"); (u "（", u "(");
  (u "）", u ")"); (u "：", u ":"); (u "？", u "?"); (u "［", u "["); (u "］", u "]"); (u "｛", u "{"); (u "｝", u "}")
].
Definition kana_rows : list (str * str) := [
  (u "あいうえお", u "a i u e o");       (u "ぁぃぅぇぉ", u "a i u e o");
  (u "かきくけこ", u "ka ki ku ke ko");  (u "がぎぐげご", u "ga gi gu ge go");
  (u "さしすせそ", u "sa shi su se so"); (u "ざじずぜぞ", u "za ji zu ze zo");
  (u "たちつてと", u "ta chi tsu te to"); (u "だぢづでど", u "da ji zu de do");
  (u "なにぬねの", u "na ni nu ne no");
  (u "はひふへほ", u "ha hi fu he ho");  (u "ばびぶべぼ", u "ba bi bu be bo");
  (u "ぱぴぷぺぽ", u "pa pi pu pe po");
  (u "まみむめも", u "ma mi mu me mo");
  (u "やゆよ", u "ya yu yo");            (u "ゃゅょ", u "ya yu yo");
  (u "らりるれろ", u "ra ri ru re ro");
  (u "わゐゑを", u "wa wi we wo");       (u "ん", u "n")
].
Definition yoon_rows : list (str * str) := [
  (u "き", u "kyi kye kya kyu kyo"); (u "ぎ", u "gyi gye gya gyu gyo"); (u "く", u "kyi kye kya kyu kyo");
  (u "し", u "shyi she sha shu sho"); (u "じ", u "jyi je ja ju jo");
  (u "ち", u "chyi che cha chu cho"); (u "ぢ", u "jyi je ja ju jo");
  (u "に", u "nyi nye nya nyu nyo");
  (u "ひ", u "hyi hye hya hyu hyo"); (u "び", u "byi bye bya byu byo"); (u "ぴ", u "pyi pye pya pyu pyo");
  (u "ふ", u "fyi fye fya fyu fyo");
  (u "み", u "myi mye mya myu myo"); (u "り", u "ryi rye rya ryu ryo");
  (u "ゔ", u "vyi vye vya vyu vyo")
].
(** five readings of ゔ (see C53) *)
Definition vu_entries : list (str * str) :=
  [(u "ゔ", u "vu"); (u "ゔ", u "va"); (u "ゔ", u "vi"); (u "ゔ", u "ve"); (u "ゔ", u "vo")].
Definition geminable_entries : list (str * str) := Eval vm_compute in
  punct_entries ++ flat_map row kana_rows ++ flat_map yoon yoon_rows ++ vu_entries.

(** っ doubles the consonant (t before ch); nothing happens before vowels, n, y and
    punctuation *)
Definition doubled (r : str) : str :=
  match r with
  | c :: _ => if existsb (N.eqb c) (u "bdfghjkmprstvwz") then c :: r
              else if c =? ch "c" then ch "t" :: r else r
  | [] => r
  end.
Definition sokuon (e : str * str) : str * str := (ch "っ" :: fst e, doubled (snd e)).
(** ん before a vowel or y *)
Definition n_rows : list (str * str) := Eval vm_compute in
  map (fun e => (ch "ん" :: fst e, u "n'" ++ snd e))
      (row (u "あいうえお", u "a i u e o") ++ row (u "やゆよ", u "ya yu yo")).

Definition rdict : list (str * str) := Eval vm_compute in
  geminable_entries ++ map sokuon geminable_entries ++ n_rows
  ++ [(u "っ", u ""); (u "ゎ", u "wa"); (u "ヷ", u "va")].
Definition r_entry (k v : str) : Prop := In (k, v) rdict.

(** ** Conversion *)
Definition uppers (a b : N) : Prop := (lower_letter a /\ b = a - 32) \/ (~ lower_letter a /\ b = a).
(** the output for a segment of the original text with dictionary value [v] *)
Definition r_output (up : bool) (oseg v out : str) : Prop :=
  (up = true /\ Forall S_kata oseg /\ Forall2 uppers v out)
  \/ (~ (up = true /\ Forall S_kata oseg) /\ out = v).

(** [romanises up orig s out]: [s] is the text in hiragana, [orig] the original
    text, of which the same number of characters is consumed.  Longest match; a
    reading of ゔ need not be the longest one. *)
Inductive romanises (up : bool) : str -> str -> str -> Prop :=
| RM_nil orig : romanises up orig [] []
| RM_hit oseg orig seg s v out out' :
    r_entry seg v -> length oseg = length seg ->
    (forall c s' w, s = c :: s' -> r_entry (seg ++ [c]) w -> In (ch "ゔ") seg) ->
    r_output up oseg v out -> romanises up orig s out' ->
    romanises up (oseg ++ orig) (seg ++ s) (out ++ out')
| RM_copy d orig c s out :
    (forall v, ~ r_entry [c] v) -> romanises up orig s out ->
    romanises up (d :: orig) (c :: s) (c :: out).

(** ** Morae *)
Definition std_rows : list (str * str) := [
  (u "あいうえお", u "a i u e o");
  (u "かきくけこ", u "ka ki ku ke ko");  (u "がぎぐげご", u "ga gi gu ge go");
  (u "さしすせそ", u "sa shi su se so"); (u "ざじずぜぞ", u "za ji zu ze zo");
  (u "たちつてと", u "ta chi tsu te to"); (u "だぢづでど", u "da ji zu de do");
  (u "なにぬねの", u "na ni nu ne no");
  (u "はひふへほ", u "ha hi fu he ho");  (u "ばびぶべぼ", u "ba bi bu be bo");
  (u "ぱぴぷぺぽ", u "pa pi pu pe po");
  (u "まみむめも", u "ma mi mu me mo");
  (u "やゆよ", u "ya yu yo");
  (u "らりるれろ", u "ra ri ru re ro");
  (u "わゐゑを", u "wa wi we wo")
].
Definition std_yoon : list (str * str) := Eval vm_compute in
  flat_map (fun r => combine (map (fun c => fst r ++ [c]) (u "ゃゅょ")) (words (snd r))) [
  (u "き", u "kya kyu kyo"); (u "ぎ", u "gya gyu gyo"); (u "し", u "sha shu sho"); (u "じ", u "ja ju jo");
  (u "ち", u "cha chu cho"); (u "ぢ", u "ja ju jo"); (u "に", u "nya nyu nyo"); (u "ひ", u "hya hyu hyo");
  (u "び", u "bya byu byo"); (u "ぴ", u "pya pyu pyo"); (u "み", u "mya myu myo"); (u "り", u "rya ryu ryo")]
  ++ [(u "しぇ", u "she"); (u "じぇ", u "je"); (u "ちぇ", u "che")].
(** syllables: kana and Hepburn spelling *)
Definition syllables : list (str * str) := Eval vm_compute in flat_map row std_rows ++ std_yoon.

Inductive mora :=
| Syl (k r : str)       (* か *)
| Gem (k r : str)       (* っか *)
| Nn.                   (* ん *)

Definition first_in (cs s : str) : bool := match s with c :: _ => existsb (N.eqb c) cs | [] => false end.
(** a syllable, a geminate of a syllable with an obstruent (or m, r, w), or ん *)
Definition standard (m : mora) : Prop :=
  match m with
  | Syl k r => In (k, r) syllables
  | Gem k r => In (k, r) syllables /\ first_in (u "aiueony") r = false
  | Nn => True
  end.
Definition mora_kana (m : mora) : str :=
  match m with Syl k _ => k | Gem k _ => ch "っ" :: k | Nn => u "ん" end.
Definition gem_spelling (r : str) : str :=
  match r with c :: _ => (if c =? ch "c" then ch "t" else c) :: r | [] => [] end.
Definition mora_spelling (m : mora) (follows : str) : str :=
  match m with
  | Syl _ r => r
  | Gem _ r => gem_spelling r
  | Nn => if first_in (u "aiueoy") follows then u "n'" else u "n"
  end.
Definition kana_text (ms : list mora) : str := flat_map mora_kana ms.
Fixpoint hepburn (ms : list mora) : str :=
  match ms with
  | [] => []
  | m :: ms => mora_spelling m (hepburn ms) ++ hepburn ms
  end.

(** katakana spelling with long marks *)
Definition katakana_text (ms : list mora) (t : str) : Prop := Forall2 katakana_for (kana_text ms) t.
Definition last_vowel (r : str) : str := match rev r with c :: _ => [c] | [] => [] end.
(** number of marks after each mora *)
Definition marked_kana (ms : list (mora * nat)) (t : str) : Prop :=
  exists ts, Forall2 (fun m t => exists k, Forall2 katakana_for (mora_kana (fst m)) k
                                 /\ t = k ++ repeat long_mark (snd m)) ms ts /\ t = concat ts.
Definition marked_spelling (m : mora * nat) (follows : str) : str :=
  match fst m with
  | Nn => mora_spelling Nn follows          (* ンー: the marks are dropped *)
  | m' => mora_spelling m' follows ++ concat (repeat (last_vowel (mora_spelling m' [])) (snd m))
  end.
Fixpoint marked_hepburn (ms : list (mora * nat)) : str :=
  match ms with
  | [] => []
  | m :: ms => marked_spelling m (marked_hepburn ms) ++ marked_hepburn ms
  end.

(** morae whose spelling identifies them: not ぢ づ ぢゃ ぢゅ ぢょ (spelled like じ ず ...),
    not ゐ ゑ (wi, we are read うぃ, うぇ), and no geminates of ch (tch is no key) *)
Definition ambiguous : list str := words (u "ぢ づ ぢゃ ぢゅ ぢょ ゐ ゑ").
Definition reversible (m : mora) : Prop :=
  standard m /\
  match m with
  | Syl k r => ~ In k ambiguous
  | Gem k r => ~ In k ambiguous /\ first_in (u "c") r = false
  | Nn => True
  end.

(** what the Hepburn spelling of a mora is read as ([obs]: with obsolete kana) *)
Definition same_sound (obs : bool) : list (str * str) :=
  [(u "ぢ", u "じ"); (u "づ", u "ず"); (u "ぢゃ", u "じゃ"); (u "ぢゅ", u "じゅ"); (u "ぢょ", u "じょ")]
  ++ (if obs then [] else [(u "ゐ", u "うぃ"); (u "ゑ", u "うぇ")]).
Inductive reread (obs : bool) (k : str) : str -> Prop :=
| RR_other : (forall k', ~ In (k, k') (same_sound obs)) -> reread obs k k
| RR_same k' : In (k, k') (same_sound obs) -> reread obs k k'.
Definition read_back (obs : bool) (m : mora) (t : str) : Prop :=
  match m with
  | Syl k _ => reread obs k t
  | Gem k r => (first_in (u "c") r = true /\ t = ch "t" :: k)
               \/ (first_in (u "c") r = false /\ exists k', reread false k k' /\ t = ch "っ" :: k')
  | Nn => t = u "ん"
  end.
Definition text_read_back (obs : bool) (ms : list mora) (t : str) : Prop :=
  exists ts, Forall2 (read_back obs) ms ts /\ t = concat ts.
(** the morae that are read back as themselves *)
Definition recovered (obs : bool) (m : mora) : Prop :=
  match m with
  | Syl k r => forall k', ~ In (k, k') (same_sound obs)
  | Gem k r => (forall k', ~ In (k, k') (same_sound false)) /\ first_in (u "c") r = false
  | Nn => True
  end.

(** In IME mode n' is ん, nn is one ん whatever comes next, and another n stays a letter *)
Inductive ime_read_back : list mora -> str -> Prop :=
| IB_nil : ime_read_back [] []
| IB_other m t ms t' : m <> Nn -> read_back false m t -> ime_read_back ms t' ->
    ime_read_back (m :: ms) (t ++ t')
| IB_apostrophe ms t' : first_in (u "aiueoy") (hepburn ms) = true -> ime_read_back ms t' ->
    ime_read_back (Nn :: ms) (u "ん" ++ t')
| IB_letter ms t' : first_in (u "aiueony") (hepburn ms) = false -> ime_read_back ms t' ->
    ime_read_back (Nn :: ms) (u "n" ++ t')
| IB_nn_syllable k r k' ms t' :                                 (* んな = nna: んあ *)
    In (k, ch "n" :: r) syllables -> In (k', r) syllables -> ime_read_back ms t' ->
    ime_read_back (Nn :: Syl k (ch "n" :: r) :: ms) (u "ん" ++ k' ++ t')
| IB_nn_apostrophe ms t' :                                      (* んんあ = nn'a: ん'あ *)
    first_in (u "aiueoy") (hepburn ms) = true -> ime_read_back ms t' ->
    ime_read_back (Nn :: Nn :: ms) (u "ん'" ++ t')
| IB_nn ms t' :                                                 (* んんか = nnka: んか *)
    first_in (u "aiueoy") (hepburn ms) = false -> ime_read_back ms t' ->
    ime_read_back (Nn :: Nn :: ms) (u "ん" ++ t').
(** every ん before a vowel or y *)
Definition n_before_vowel (ms : list mora) : Prop :=
  forall a b, ms = a ++ Nn :: b -> first_in (u "aiueoy") (hepburn b) = true.

(** A piece of the text, its hiragana, its romaji without regard to case, and the romaji shown.
    [p_seen]: the characters of the original text that stand where the hiragana of the piece
    stands in the whole hiragana text. *)
Record rpiece := Piece { p_text : str; p_kana : str; p_romaji : str; p_seen : str; p_shown : str }.
Definition is_key (k : str) : Prop := exists v, r_entry k v.
(** a character that is no key is copied; a key is romanised, in upper case if [p_seen] is
    katakana *)
Definition cut_piece (up : bool) (p : rpiece) : Prop :=
  length (p_seen p) = length (p_kana p) /\
  ((~ is_key (p_kana p) /\ exists c, p_kana p = [c] /\ p_romaji p = [c] /\ p_shown p = [c])
   \/ (r_entry (p_kana p) (p_romaji p) /\ r_output up (p_seen p) (p_romaji p) (p_shown p))).
(** the pieces are the hiragana of what is written, after the text [a] *)
Fixpoint pieces_of (a : str) (ps : list rpiece) : Prop :=
  match ps with
  | [] => True
  | p :: ps => hiragana_text (u "お") a (p_text p) (p_kana p) /\ pieces_of (a ++ p_text p) ps
  end.
(** in upper case if the piece itself is katakana *)
Definition right_case (up : bool) (p : rpiece) : Prop :=
  is_key (p_kana p) -> r_output up (p_text p) (p_romaji p) (p_shown p).
(** no mark follows ッ or ン *)
Definition drops_no_mark (s : str) : Prop :=
  forall a b k, s = a ++ long_mark :: b -> lengthens a k -> ~ In k (u "ッン").
