(** * C65-C67, C74-C80, C88, C89: converting a text in parts and token by token; the kana that can be
    typed; equal romaji; texts that are converted completely *)
From Verif Require Import Base Std StdInstances Convert KanaSpec KanaDict ScriptSpec ScriptProofs RomajiSpec RomajiProofs
  MoraProofs RomajiPure TypingSpec Splits SameSpec Tokenize
  ChoiceProofs JoinSpec Joins JoinText KanaJoinSpec KanaJoin TokenSpec KanaPure KanaProofs Chars Strings Predicates CompleteSpec Complete RomajiComplete JoinUpSpec FixedSpec ScriptTokenSpec Results_Romaji Results_Parts.

(** C65.  A text can be converted in two parts if no key goes across the boundary; in particular
    after every character that is not a consonant.  For ASCII text the same holds of
    to_hiragana and to_katakana. *)
Theorem C65_to_kana_in_parts :
  forall E, std_ok E -> forall o,
    (forall x y,
       (forall a b c y', x = a ++ b -> b <> [] -> y = c :: y' -> ~ viable (mode_of o) (b ++ [c])) ->
       exists rx ry, to_kana_with_opt E x o = Ok rx /\ to_kana_with_opt E y o = Ok ry /\
                     to_kana_with_opt E (x ++ y) o = Ok (rx ++ ry)) /\
    (forall x d d' y, lowers d d' -> ~ In d' (u "bcdfghjklmnpqrstvwxyz") ->
       (exists rx ry, to_kana_with_opt E (x ++ [d]) o = Ok rx /\ to_kana_with_opt E y o = Ok ry /\
                      to_kana_with_opt E ((x ++ [d]) ++ y) o = Ok (rx ++ ry)) /\
       (Forall ascii ((x ++ [d]) ++ y) ->
          (exists rx ry, to_hiragana_with_opt E (x ++ [d]) o = Ok rx /\ to_hiragana_with_opt E y o = Ok ry /\
                         to_hiragana_with_opt E ((x ++ [d]) ++ y) o = Ok (rx ++ ry)) /\
          (exists rx ry, to_katakana_with_opt E (x ++ [d]) o = Ok rx /\ to_katakana_with_opt E y o = Ok ry /\
                         to_katakana_with_opt E ((x ++ [d]) ++ y) o = Ok (rx ++ ry)))).
Proof. exact C65_to_kana_in_parts_proof. Qed.
Print Assumptions C65_to_kana_in_parts.

Example C65_case : to_kana_with_opt std_1_82 (u "SHIbuya" ++ u "nyanN") default_options = Ok (u "シぶや" ++ u "にゃんン")
  /\ ~ In (ch "a") (u "bcdfghjklmnpqrstvwxyz") /\ lowers (ch "a") (ch "a") /\ Forall ascii (u "SHIbuyanyanN")
  /\ to_kana_with_opt std_1_82 (u "kon" ++ u "ya") default_options = Ok (u "こにゃ").
Proof.
  split; [vm_compute; reflexivity|]. split; [vm_compute; intuition congruence|].
  split; [right; vm_compute; split; [intros [_ H]; now apply H|reflexivity]|].
  split; [repeat constructor|vm_compute; reflexivity].
Qed.

(** C66.  A text can be romanised in two parts if the second does not begin with ー, ・, ヵ or ヶ
    and no key goes across the boundary in the hiragana text; in particular if the first part
    does not end in っ, ん or ー and the second does not begin with ぃ, ぇ, ゃ, ゅ, ょ (in either
    script).  With upcase_katakana no mark of the first part may disappear. *)
Theorem C66_to_romaji_in_parts :
  forall E, std_ok E -> forall o x c c' y,
    ~ In c (u "ー・ヵヶ") -> hiragana_for c c' ->
    (upcase_katakana o = true -> drops_no_mark x) ->
    (forall h, hiragana_text (u "お") [] x h ->
       forall a b v, h = a ++ b -> b <> [] -> ~ r_entry (b ++ [c']) v)
    \/ ((forall x0 d, x = x0 ++ [d] -> ~ In d (u "っッんンー")) /\ ~ In c' (u "ぃぇゃゅょ")) ->
    exists rx ry, to_romaji_with_opt E x o = Ok rx /\ to_romaji_with_opt E (c :: y) o = Ok ry /\
                  to_romaji_with_opt E (x ++ c :: y) o = Ok (rx ++ ry).
Proof. exact C66_to_romaji_in_parts_proof. Qed.
Print Assumptions C66_to_romaji_in_parts.

Example C66_case : to_romaji_with_opt std_1_82 (u "チョコレート" ++ u "と紅茶・") default_options = Ok (u "chokoreeto" ++ u "to紅茶/")
  /\ to_romaji_with_opt std_1_82 (u "しん" ++ u "よう") default_options = Ok (u "shin'you")
  /\ to_romaji_with_opt std_1_82 (u "コ" ++ u "・ー") default_options = Ok (u "ko/o")
  /\ to_romaji_with_opt std_1_82 (u "・ー") default_options = Ok (u "/-")
  /\ hiragana_for (ch "と") (ch "と") /\ ~ In (ch "と") (u "ー・ヵヶ") /\ ~ In (ch "と") (u "ぃぇゃゅょ")
  /\ forall x0 d, u "チョコレート" = x0 ++ [d] -> ~ In d (u "っッんンー").
Proof.
  do 4 (split; [vm_compute; reflexivity|]). split; [apply k2hc_spec; reflexivity|].
  do 2 (split; [vm_compute; intuition congruence|]). intros x0 d Q.
  change (u "チョコレート") with (u "チョコレー" ++ [ch "ト"]) in Q. apply app_inj_tail in Q. destruct Q as [_ <-].
  vm_compute. intuition congruence.
Qed.

(** C67.  Exactly which kana to_kana can produce from ASCII text: all hiragana and katakana letters
    except ゕ, ゖ, ヷ, ヸ, ヹ, ヺ, and ゐ, ゑ, ヰ, ヱ only with use_obsolete_kana; and every text made
    of them can be typed. *)
Theorem C67_kana_that_can_be_typed :
  forall E, std_ok E -> forall o s, Forall kana_char_or_mark s ->
    (exists r, Forall ascii r /\ to_kana_with_opt E r o = Ok s) <-> Forall (typeable_kana (mode_of o)) s.
Proof. exact C67_kana_that_can_be_typed_proof. Qed.
Print Assumptions C67_kana_that_can_be_typed.

Example C67_case : to_kana_with_opt std_1_82 (u "LKAXNAxtuxa-/") default_options = Ok (u "ヵンアっぁー・")
  /\ Forall (typeable_kana Default) (u "ヵンアっぁー・") /\ Forall kana_char_or_mark (u "ヵンアっぁー・")
  /\ ~ typeable_kana Ime (ch "ヺ").
Proof.
  split; [vm_compute; reflexivity|].
  assert (T : Forall (typeable_kana Default) (u "ヵンアっぁー・")).
  { apply Forall_forall. intros c I. apply typeable_spec. revert c I. apply forallb_forall. vm_compute. reflexivity. }
  split; [exact T|]. split; [eapply Forall_impl; [|exact T]; intro; apply typeable_is_kana|].
  intro H. apply typeable_spec in H. discriminate.
Qed.

(** C74.  Two texts which stand for standard morae, in either script and with long marks, have the
    same romaji exactly if they are the same in hiragana up to じ and ぢ, ず and づ. *)
Theorem C74_same_romaji :
  forall E, std_ok E -> forall o s s' h h', upcase_katakana o = false ->
    hiragana_text (u "お") [] s h -> hiragana_text (u "お") [] s' h' -> standard_text h -> standard_text h' ->
    (to_romaji_with_opt E s o = to_romaji_with_opt E s' o <-> Forall2 alike h h').
Proof. exact C74_same_romaji_proof. Qed.
Print Assumptions C74_same_romaji.

Example C74_case :
  (exists h, hiragana_text (u "お") [] (u "ミカヅキコーヒー") h /\ standard_text h)
  /\ (exists h, hiragana_text (u "お") [] (u "みかずきこおひい") h /\ standard_text h)
  /\ to_romaji_with_opt std_1_82 (u "ミカヅキコーヒー") default_options = Ok (u "mikazukikoohii")
  /\ to_romaji_with_opt std_1_82 (u "みかずきこおひい") default_options = Ok (u "mikazukikoohii")
  /\ to_romaji_with_opt std_1_82 (u "しんよう") default_options = Ok (u "shin'you")
  /\ to_romaji_with_opt std_1_82 (u "しにょう") default_options = Ok (u "shinyou").
Proof.
  split; [|split; [|repeat split; vm_compute; reflexivity]].
  - exists (k2h std_1_82 true (u "ミカヅキコーヒー")). split; [exact (k2h_text std_1_82 true _ std_1_82_ok)|].
    exists [Syl (u "み") (u "mi"); Syl (u "か") (u "ka"); Syl (u "づ") (u "zu"); Syl (u "き") (u "ki");
            Syl (u "こ") (u "ko"); Syl (u "お") (u "o"); Syl (u "ひ") (u "hi"); Syl (u "い") (u "i")].
    split; [apply standard_check; vm_compute; reflexivity|vm_compute; reflexivity].
  - exists (k2h std_1_82 true (u "みかずきこおひい")). split; [exact (k2h_text std_1_82 true _ std_1_82_ok)|].
    exists [Syl (u "み") (u "mi"); Syl (u "か") (u "ka"); Syl (u "ず") (u "zu"); Syl (u "き") (u "ki");
            Syl (u "こ") (u "ko"); Syl (u "お") (u "o"); Syl (u "ひ") (u "hi"); Syl (u "い") (u "i")].
    split; [apply standard_check; vm_compute; reflexivity|vm_compute; reflexivity].
Qed.

(** C75.  Romanising a text in parts gives its romaji exactly if no part depends on what stands
    before it: no long mark reaches back over the beginning of its part, and no part begins
    with a kana that fuses with the end of what is before (for ゔ that depends on which of
    its readings the library finds).  With upcase_katakana it also must not begin with katakana
    that loses its upper case after hiragana っ; no mark of a part but the last may disappear. *)
Theorem C75_romaji_of_parts :
  forall E, std_ok E -> forall o ts, Forall (fun t => t <> []) ts ->
    (upcase_katakana o = true -> forall pre t post, ts = pre ++ t :: post -> post <> [] -> drops_no_mark t) ->
    forall rv rtv, to_romaji_with_opt E (u "ゔ") o = Ok rv -> to_romaji_with_opt E (u "っゔ") o = Ok rtv ->
    exists r rs, to_romaji_with_opt E (concat ts) o = Ok r /\
      Forall2 (fun t q => to_romaji_with_opt E t o = Ok q) ts rs /\
      (r = concat rs <-> forall pre t post, ts = pre ++ t :: post ->
         ~ depends rv rtv (concat pre) t /\ (upcase_katakana o = true -> ~ mixes (concat pre) t)).
Proof. exact C75_romaji_of_parts_proof. Qed.
Print Assumptions C75_romaji_of_parts.

Example C75_case :
  to_romaji_with_opt std_1_82 (concat [u "おちゃ"; u "とまっち"; u "です"]) default_options = Ok (u "ocha" ++ u "tomatchi" ++ u "desu")
  /\ to_romaji_with_opt std_1_82 (concat [u "っ"; u "ん"; u "あ"]) default_options = Ok (u "" ++ u "n" ++ u "a")
  /\ to_romaji_with_opt std_1_82 (concat [u "っ"; u "んあ"]) default_options = Ok (u "na")
  /\ to_romaji_with_opt std_1_82 (u "んあ") default_options = Ok (u "n'a")
  /\ to_romaji_with_opt std_1_82 (u "ゔ") default_options = Ok (u "vo")
  /\ to_romaji_with_opt std_1_82 (concat [u "ゔ"; u "ゃ"]) default_options = Ok (u "vo" ++ u "ya")
  /\ to_romaji_with_opt (std_choice 0 0) (u "ゔ") default_options = Ok (u "vu")
  /\ to_romaji_with_opt (std_choice 0 0) (u "っゔ") default_options = Ok (u "vvu")
  /\ to_romaji_with_opt (std_choice 0 0) (u "ゃ") default_options = Ok (u "ya")
  /\ to_romaji_with_opt (std_choice 0 0) (concat [u "ゔ"; u "ゃ"]) default_options = Ok (u "vya")
  /\ (forall rv rtv, depends rv rtv (u "っ") (u "んあ") /\ depends rv rtv (u "コ") (u "・ーヒー"))
  /\ (forall rv rtv, depends rv rtv (u "ヴ") (u "ゃ") <-> rv = u "vu").
Proof.
  do 10 (split; [vm_compute; reflexivity|]).
  assert (forall s, hiragana_text (u "お") [] s (k2h std_1_82 true s)) as T by (intro s; exact (k2h_text std_1_82 true s std_1_82_ok)).
  split; [intros rv rtv; split|].
  - right. exists (u "っ"), (u "んあ"). split; [exact (T (u "っ"))|].
    split; [exact (T (u "んあ"))|]. apply (fuses_tsu_n rv rtv [] (ch "あ") []). vm_compute. auto.
  - left. exists (u "・"), (u "ヒー"), (ch "コ"). split; [reflexivity|]. split.
    + exists [], (u "・"). split; [reflexivity|]. split; [vm_compute; split; discriminate|].
      split; [vm_compute; intuition discriminate|]. constructor; [vm_compute; auto|constructor].
    + intros [k K]. change (u "・") with ([] ++ [ch "・"]) in K. apply lengthens_snoc in K.
      destruct K as [(_ & K & _)|(_ & K)]; [vm_compute in K; intuition discriminate|exact (lengthens_nil k K)].
  - intros rv rtv. split.
    + intros [(y1 & y2 & k & Q & _)|(hx & hy & Hx & Hy & F)].
      * destruct y1 as [|c [|d y1]]; discriminate Q.
      * pose proof (fuses_sim _ _ _ _ _ _ F (text_sim _ _ _ Hx _ (T _)) (text_sim _ _ _ Hy _ (T _))) as G. clear - G.
        change (k2h std_1_82 true (u "ヴ")) with ([] ++ [ch "ゔ"]) in G. change (k2h std_1_82 true (u "ゃ")) with [ch "ゃ"] in G.
        inversion G as [x b y B Q1 Q2|x b y B Q1 Q2|x b y X B Q1 Q2|x a b y A B Q1 Q2|x b y V X B Q1 Q2|x b y V B Q1 Q2].
        -- change ([ch "ゔ"]) with ([] ++ [ch "ゔ"]) in Q1. apply app_inj_tail in Q1. destruct Q1 as [_ Q1]. discriminate Q1.
        -- change ([ch "ゔ"]) with ([] ++ [ch "ゔ"]) in Q1. apply app_inj_tail in Q1. destruct Q1 as [_ Q1]. discriminate Q1.
        -- change ([ch "ゔ"]) with ([] ++ [ch "ゔ"]) in Q1. apply app_inj_tail in Q1. destruct Q1 as [_ Q1]. subst a.
           exfalso. revert A. apply mem_not. vm_compute. reflexivity.
        -- exact V.
        -- destruct x as [|? [|? x]]; discriminate Q1.
    + intros ->. right. exists (u "ゔ"), (u "ゃ"). split; [exact (T (u "ヴ"))|]. split; [exact (T (u "ゃ"))|].
      apply (fuses_v _ _ [] (ch "ゃ") []); [reflexivity|intros [|? ?] Z; discriminate Z|vm_compute; auto].
Qed.

(** with upcase_katakana: parts that do not depend on each other, one that loses its upper
    case, and a mark that disappears and so shifts the upper case of what follows it *)
Example C75_upper_case :
  let o := Build_options false false true false in
  to_romaji_with_opt std_1_82 (concat [u "ニャー"; u "とッ"; u "アジ"]) o = Ok (u "NYAA" ++ u "to" ++ u "AJI")
  /\ Forall drops_no_mark [u "ニャー"; u "とッ"; u "アジ"]
  /\ to_romaji_with_opt std_1_82 (concat [u "とっ"; u "アジ"]) o = Ok (u "to" ++ u "aJI")
  /\ to_romaji_with_opt std_1_82 (u "アジ") o = Ok (u "AJI")
  /\ mixes (u "とっ") (u "アジ") /\ mixes (u "っ") (u "ニャ") /\ ~ mixes (u "っ") (u "ニゃ") /\ ~ mixes (u "とッ") (u "アジ")
  /\ to_romaji_with_opt std_1_82 (u "っニャ") o = Ok (u "nya") /\ to_romaji_with_opt std_1_82 (u "ニャ") o = Ok (u "NYA")
  /\ to_romaji_with_opt std_1_82 (u "っニゃ") o = Ok (u "nya") /\ to_romaji_with_opt std_1_82 (u "ニゃ") o = Ok (u "nya")
  /\ to_romaji_with_opt std_1_82 (concat [u "ンー"; u "かカ"]) o = Ok (u "NKAka")
  /\ to_romaji_with_opt std_1_82 (u "かカ") o = Ok (u "kaKA") /\ ~ drops_no_mark (u "ンー").
Proof.
  cbv zeta. split; [vm_compute; reflexivity|]. split; [repeat constructor; apply drops_check; vm_compute; reflexivity|].
  do 2 (split; [vm_compute; reflexivity|]).
  assert (forall x c b y, katakana_letter c -> hiragana_for c b -> In b undoubled -> (b = ch "に" -> forall d z, y = d :: z -> ~ In d smalls) -> mixes (x ++ [ch "っ"]) (c :: y)) as M.
  { intros x c b y K H I N. split; [now exists x|]. exists c, b, y. auto. }
  split; [|split; [|split; [|split]]].
  - apply (M (u "と") _ (ch "あ")); [vm_compute; split; discriminate|apply k2hc_spec; vm_compute; reflexivity|vm_compute; auto|discriminate].
  - apply (M [] _ (ch "に")); [vm_compute; split; discriminate|apply k2hc_spec; vm_compute; reflexivity|apply mem_In; vm_compute; reflexivity|].
    intros _ d z Q. injection Q as <- <-. apply mem_not. vm_compute. reflexivity.
  - intros [_ (c & b & y & Q & _ & H & _ & N)]. injection Q as <- <-. apply k2hc_spec in H. apply (N (eq_sym H) (ch "ゃ") [] eq_refl). vm_compute. auto.
  - intros [[x Q] _]. change (u "とッ") with ([ch "と"] ++ [ch "ッ"]) in Q. apply app_inj_tail in Q. destruct Q as [_ Q]. discriminate Q.
  - do 6 (split; [vm_compute; reflexivity|]). intro D. apply (D (u "ン") [] (ch "ン") eq_refl); [|vm_compute; auto].
    exists [], []. split; [reflexivity|]. split; [vm_compute; split; discriminate|]. split; [vm_compute; intuition discriminate|constructor].
Qed.

(** C76.  Partial: romanising the tokens of a text one by one gives its romaji exactly if no long
    mark lengthens anything and, unless the tokens are compact, no two kana of different
    scripts fuse across tokens (with upcase_katakana, nor does katakana lose its upper case
    after っ); in particular if no hiragana stands beside katakana.  Missing: other texts, for
    which it is false (see [C76_token_by_token_refuted]). *)
Theorem C76_token_by_token_partial :
  forall E, std_ok E -> forall o s compact,
    forall rv rtv, to_romaji_with_opt E (u "ゔ") o = Ok rv -> to_romaji_with_opt E (u "っゔ") o = Ok rtv ->
    (exists r rs, to_romaji_with_opt E s o = Ok r /\
       Forall2 (fun t q => to_romaji_with_opt E t o = Ok q) (tokenize_with_opt s compact) rs /\
       (r = concat rs <-> no_long_mark s /\
          (compact = false -> forall pre t post, tokenize_with_opt s compact = pre ++ t :: post ->
             (forall hx ht, Forall2 hiragana_for (concat pre) hx -> Forall2 hiragana_for t ht -> ~ fuses rv rtv hx ht) /\
             (upcase_katakana o = true -> ~ mixes (concat pre) t)))) /\
    (no_long_mark s -> compact = true \/ scripts_apart s ->
       exists r rs, to_romaji_with_opt E s o = Ok r /\
         Forall2 (fun t q => to_romaji_with_opt E t o = Ok q) (tokenize_with_opt s compact) rs /\ r = concat rs).
Proof. exact C76_token_by_token_partial_proof. Qed.
Print Assumptions C76_token_by_token_partial.

Example C76_case :
  tokenize_with_opt (u "ここは東京タワー。") false = [u "ここは"; u "東京"; u "タワ"; u "ー。"]
  /\ tokenize_with_opt (u "こっちはラッパ") false = [u "こっちは"; u "ラッパ"]
  /\ tokenize_with_opt (u "っカ") false = [u "っ"; u "カ"] /\ tokenize_with_opt (u "っカ") true = [u "っカ"]
  /\ to_romaji_with_opt std_1_82 (u "っカ") default_options = Ok (u "kka")
  /\ to_romaji_with_opt std_1_82 (u "こっちはラッパ") default_options = Ok (u "kotchiha" ++ u "rappa")
  /\ tokenize_with_opt (u "ラヴとゔ") false = [u "ラヴ"; u "とゔ"]
  /\ to_romaji_with_opt std_1_82 (u "ラヴとゔ") default_options = Ok (u "ravo" ++ u "tovo")
  /\ tokenize_with_opt (u "ハッとっアジ") false = [u "ハッ"; u "とっ"; u "アジ"]
  /\ to_romaji_with_opt std_1_82 (u "ハッとっアジ") (Build_options false false true false) = Ok (u "HAttoaJI")
  /\ to_romaji_with_opt std_1_82 (u "ハッ") (Build_options false false true false) = Ok (u "HA")
  /\ tokenize_with_opt (u "ここはラッパ") false = [u "ここは"; u "ラッパ"]
  /\ to_romaji_with_opt std_1_82 (u "ここはラッパ") (Build_options false false true false) = Ok (u "kokoha" ++ u "RAPPA")
  /\ (forall rv rtv, fuses rv rtv (u "っ") (u "か")).
Proof.
  do 13 (split; [vm_compute; reflexivity|]). intros rv rtv. apply (fuses_tsu rv rtv [] (ch "か") []). vm_compute. auto.
Qed.

(** C76 is false: コーヒー has the tokens コ, ー, ヒ, ー. *)
Theorem C76_token_by_token_refuted :
  forall E, std_ok E -> exists s r rs, to_romaji E s = Ok r /\
    Forall2 (fun t q => to_romaji E t = Ok q) (tokenize s) rs /\ r <> concat rs.
Proof. exact C76_token_by_token_refuted_proof. Qed.
Print Assumptions C76_token_by_token_refuted.

Example C76_witness : tokenize (u "コーヒー") = [u "コ"; u "ー"; u "ヒ"; u "ー"]
  /\ to_romaji std_1_82 (u "コーヒー") = Ok (u "koohii") /\ to_romaji std_1_82 (u "ー") = Ok (u "-").
Proof. repeat split; vm_compute; reflexivity. Qed.

(** C77.  Converting a text to kana in parts gives its kana exactly if no part joins what stands
    before it: no key but the extensions of n goes across a boundary, and after an n that
    begins a key (not the n of xn, nor, in IME mode, the second of a pair) no part goes on
    with a key of n. *)
Theorem C77_kana_of_parts :
  forall E, std_ok E -> forall o ts, Forall (fun t => t <> []) ts ->
    exists r rs, to_kana_with_opt E (concat ts) o = Ok r /\
      Forall2 (fun t q => to_kana_with_opt E t o = Ok q) ts rs /\
      (r = concat rs <-> forall pre t post, ts = pre ++ t :: post -> ~ joins (mode_of o) (concat pre) t).
Proof. exact C77_kana_of_parts_proof. Qed.
Print Assumptions C77_kana_of_parts.

Example C77_case :
  to_kana_with_opt std_1_82 (concat [u "k"; u "y"; u "a"]) default_options = Ok (u "きゃ")
  /\ joins Default (u "ky") (u "a") /\ ~ joins Default (u "k") (u "y")
  /\ to_kana_with_opt std_1_82 (concat [u "n"; u "yk"]) default_options = Ok (u "nyk")
  /\ to_kana_with_opt std_1_82 (u "n") default_options = Ok (u "ん") /\ joins Default (u "n") (u "yk")
  /\ to_kana_with_opt std_1_82 (concat [u "xn"; u "a"]) default_options = Ok (u "ん" ++ u "あ") /\ ~ joins Default (u "xn") (u "a")
  /\ to_kana_with_opt std_1_82 (concat [u "nn"; u "a"]) (Build_options false false false true) = Ok (u "ん" ++ u "あ")
  /\ open_n Ime (u "xnn") /\ ~ open_n Ime (u "nn").
Proof.
  assert (K : forall m k v, pair_mem (k, v) (dict m) = true -> entry m k v) by (intros m k v H; now apply pair_mem_In).
  split; [vm_compute; reflexivity|]. split.
  { left. exists [], (u "ky"), (u "a"), [], (u "kya"), (u "きゃ"). repeat split; try discriminate; [now apply casing_low|].
    apply K. vm_compute. reflexivity. }
  split.
  { refine (proj1 (parts_conv Default [] [u "k"; u "y"] _) _ [u "k"] (u "y") [] eq_refl);
      [repeat constructor; discriminate|vm_compute; reflexivity]. }
  split; [vm_compute; reflexivity|]. split; [vm_compute; reflexivity|]. split.
  { right; left. split; [apply open_one; now left|]. split; [discriminate|]. exists (ch "y"), (u "k"). split; [reflexivity|].
    exists (ch "y"). split; [now apply lowers_lower|vm_compute; auto 8]. }
  split; [vm_compute; reflexivity|]. split.
  { refine (proj1 (parts_conv Default [] [u "xn"; u "a"] _) _ [u "xn"] (u "a") [] eq_refl);
      [repeat constructor; discriminate|vm_compute; reflexivity]. }
  split; [vm_compute; reflexivity|].
  assert (N : n_letter (ch "n")) by now left.
  assert (X : ~ open_n Ime (u "xn")).
  { intro H. apply (open_snoc Ime [ch "x"] (ch "n")) in H. destruct H as (_ & H & _). apply H. exists [], (ch "x"). split; [reflexivity|now left]. }
  split.
  - apply (open_snoc Ime (u "xn") (ch "n")). split; [exact N|]. split; [|intros _; exact X].
    intro H. apply (ends_snoc _ [ch "x"] (ch "n")) in H. now apply (n_not_x (ch "n")).
  - intro H. apply (open_snoc Ime [ch "n"] (ch "n")) in H. destruct H as (_ & _ & H). apply H; [reflexivity|]. now apply open_one.
Qed.

(** C78.  Converting the tokens of a text to kana one by one gives its kana exactly if no n that
    begins a key stands before an apostrophe (shin'you) or, in IME mode with detailed tokens,
    before a space. *)
Theorem C78_kana_token_by_token :
  forall E, std_ok E -> forall o s compact,
    exists r rs, to_kana_with_opt E s o = Ok r /\
      Forall2 (fun t q => to_kana_with_opt E t o = Ok q) (tokenize_with_opt s compact) rs /\
      (r = concat rs <-> forall x d y, s = x ++ d :: y -> open_n (mode_of o) x ->
         d <> ch "'" /\ ~ (mode_of o = Ime /\ compact = false /\ d = ch " ")).
Proof. exact C78_kana_token_by_token_proof. Qed.
Print Assumptions C78_kana_token_by_token.

Example C78_case :
  tokenize (u "shin'you") = [u "shin"; u "'"; u "you"]
  /\ to_kana std_1_82 (u "shin'you") = Ok (u "しんよう")
  /\ to_kana std_1_82 (u "shin") = Ok (u "しん") /\ to_kana std_1_82 (u "'") = Ok (u "'")
  /\ tokenize (u "xn'a kan-i") = [u "xn"; u "'"; u "a"; u " "; u "kan"; u "-"; u "i"]
  /\ to_kana std_1_82 (u "xn'a kan-i") = Ok (u "ん'あ かんーい")
  /\ open_n Default (u "shin") /\ ~ open_n Default (u "xn").
Proof.
  do 6 (split; [vm_compute; reflexivity|]). split.
  - exists (u "shi"), (ch "n"). split; [reflexivity|]. split; [now left|]. intros (x' & c & Q & X).
    apply (app_inj_tail (u "sh") x' (ch "i") c) in Q. destruct Q as [_ <-]. destruct X; discriminate.
  - intros (x0 & c & Q & _ & X). apply X. exists [], (ch "x"). split; [|now left].
    apply (app_inj_tail [ch "x"] x0 (ch "n") c) in Q. destruct Q as [<- _]. reflexivity.
Qed.

(** C79.  The kana of a text is all kana exactly if the text can be cut, in any way, into kana and
    keys that stand for kana, and has no nyy (outside of IME mode).  Its katakana is all katakana
    exactly if the text is all kana, or is romaji or mixed text whose lower case can be cut like
    that; likewise its hiragana, if the text has none of ・ ヵ ヶ and no key of theirs.  For ASCII
    text, lower case makes no difference to this. *)
Theorem C79_complete_conversion :
  forall E, std_ok E -> forall o s,
    (exists r, to_kana_with_opt E s o = Ok r /\ (is_kana r = true <-> s <> [] /\ complete (mode_of o) s)) /\
    (exists h k, to_hiragana_with_opt E s o = Ok h /\ to_katakana_with_opt E s o = Ok k /\
       (is_katakana k = true <-> s <> [] /\ (Forall S_kana s \/
          (pass_romaji o = false /\ (Forall S_romaji s \/ mixed_text s) /\
           complete (mode_of o) (to_lowercase E s)))) /\
       (is_hiragana h = true <-> s <> [] /\ (forall c, In c s -> ~ In c (u "・ヵヶ")) /\ (Forall S_kana s \/
          (pass_romaji o = false /\ (Forall S_romaji s \/ mixed_text s \/ starts_with_punct s) /\
           complete (mode_of o) (to_lowercase E s) /\ ~ has_not_hiragana (to_lowercase E s)))) /\
       (Forall ascii s -> pass_romaji o = false ->
         (is_katakana k = true <-> s <> [] /\ complete (mode_of o) s) /\
         (is_hiragana h = true <-> s <> [] /\ complete (mode_of o) s /\ ~ has_not_hiragana s))).
Proof. exact C79_complete_conversion_proof. Qed.
Print Assumptions C79_complete_conversion.

Example C79_case :
  to_kana std_1_82 (u "KONnichi-ワnna") = Ok (u "コンにちーワんな") /\ complete Default (u "KONnichi-ワnna")
  /\ to_kana std_1_82 (u "kan") = Ok (u "かん") /\ complete Default (u "kan") /\ ~ complete Ime (u "kan")
  /\ to_kana std_1_82 (u "nyya") = Ok (u "nっや") /\ ~ complete Default (u "nyya")
  /\ (exists ps, u "nyya" = concat ps /\ Forall (kana_piece Default) ps)
  /\ to_hiragana std_1_82 (u "カ-ドNNni") = Ok (u "かーどんんに") /\ mixed_text (u "カ-ドNNni")
  /\ complete Default (to_lowercase std_1_82 (u "カ-ドNNni"))
  /\ to_hiragana std_1_82 (u "xkaka") = Ok (u "ヵか") /\ has_not_hiragana (u "xkaka").
Proof.
  assert (D : forall m s, complete m s <-> forallb Complete.kana_b (conv m s) = true).
  { intros m s. rewrite <- Complete.complete_iff. symmetry. apply Complete.forallb_Forall, Complete.kana_b_spec. }
  split; [vm_compute; reflexivity|]. split; [apply D; vm_compute; reflexivity|]. split; [vm_compute; reflexivity|].
  split; [apply D; vm_compute; reflexivity|]. split; [rewrite D; vm_compute; discriminate|]. split; [vm_compute; reflexivity|].
  split; [rewrite D; vm_compute; discriminate|]. split.
  { assert (P : forall k v, pair_mem (k, v) (dict Default) = true -> low k = k -> forallb Complete.kana_b v = true -> kana_piece Default k).
    { intros k v I L K. right. exists k, v. split; [now apply casing_low|]. split; [now apply pair_mem_In|]. revert K. apply Complete.forallb_Forall, Complete.kana_b_spec. }
    exists [u "n"; u "yya"]. split; [reflexivity|]. constructor; [apply (P _ (u "ん")); vm_compute; reflexivity|].
    constructor; [apply (P _ (u "っや")); vm_compute; reflexivity|constructor]. }
  split; [vm_compute; reflexivity|]. split; [apply mixed_spec; vm_compute; reflexivity|]. split; [apply D; vm_compute; reflexivity|].
  split; [vm_compute; reflexivity|]. exists [], (u "xka"), (u "xka"), (u "ka"). split; [reflexivity|]. split; [now apply casing_low|].
  do 5 right. now left.
Qed.

(** C80.  The romaji of a text is all romaji exactly if the text has only romaji, kana other than
    ゕ ゖ ヵ ヶ and punctuation other than quotes and is not made of small tsu only.  The romaji is
    empty exactly for texts of small tsu (and marks that lengthen them). *)
Theorem C80_complete_romanisation :
  forall E, std_ok E -> forall o s,
    exists r, to_romaji_with_opt E s o = Ok r /\ (r = [] <-> only_tsu s) /\
      (is_romaji r = true <-> ~ only_tsu s /\ Forall readable s).
Proof. exact C80_complete_romanisation_proof. Qed.
Print Assumptions C80_complete_romanisation.

Example C80_case :
  to_romaji std_1_82 (u "ッーーっ") = Ok (u "") /\ only_tsu (u "ッーーっ")
  /\ to_romaji std_1_82 (u "ッっー") = Ok (u "-") /\ ~ only_tsu (u "ッっー")
  /\ to_romaji std_1_82 (u "ラーメン、ōkii！") = Ok (u "raamen,ōkii!") /\ Forall readable (u "ラーメン、ōkii！")
  /\ to_romaji std_1_82 (u "「一ヶ」") = Ok (u "‘一ヶ’").
Proof.
  split; [vm_compute; reflexivity|].
  assert (N : only_tsu []) by (split; [constructor|]; intros x y Q; destruct x; discriminate).
  split.
  { apply (only_snoc (u "ッーー")). split; [|split; [now left|discriminate]]. apply (only_snoc (u "ッー")). split; [|split; [now right; right; left|]].
    2: { intros _. exists (u "ッ"), (ch "ー"). split; [reflexivity|now right; left]. }
    apply (only_snoc (u "ッ")). split; [|split; [now right; right; left|]].
    2: { intros _. exists [], (ch "ッ"). split; [reflexivity|now left]. }
    apply (only_snoc []). split; [exact N|]. split; [now right; left|discriminate]. }
  split; [vm_compute; reflexivity|]. split.
  { intros [_ H]. destruct (H (u "ッっ") [] eq_refl) as (x & c & Q & I). apply (app_inj_tail (u "ッ") x (ch "っ") c) in Q. destruct Q as [_ <-].
    revert I. vm_compute. intuition discriminate. }
  split; [vm_compute; reflexivity|]. split; [|vm_compute; reflexivity].
  apply (RomajiComplete.text_read [] (u "ラーメン、ōkii！") (k2h std_1_82 true (u "ラーメン、ōkii！"))); [exact (k2h_text std_1_82 true _ std_1_82_ok)|].
  apply (RomajiComplete.Forall_b hread_b); [apply RomajiComplete.hread_b_spec|]. vm_compute. reflexivity.
Qed.

(** C88.  Converting the tokens of a text to katakana one by one gives its katakana exactly under
    these conditions.  With pass_romaji always.  If the text is romaji or mixes romaji and kana:
    no n that begins a key stands before an apostrophe (or, in IME mode, a space), only romaji
    has upper case letters and there are no quotation marks ‘ ’ “ ”.  Otherwise: the tokens of
    romaji are in lower case and have nothing to convert. *)
Theorem C88_katakana_token_by_token :
  forall E, std_ok E -> forall o s,
    exists r rs, to_katakana_with_opt E s o = Ok r /\
      Forall2 (fun t q => to_katakana_with_opt E t o = Ok q) (tokenize s) rs /\
      (pass_romaji o = true -> r = concat rs) /\
      (pass_romaji o = false -> all_nonempty S_romaji s \/ mixed_text s ->
         (r = concat rs <->
          n_apart (mode_of o) s /\ others_lower (to_lowercase E) s /\ forall c, In c s -> ~ smart_quote c)) /\
      (pass_romaji o = false -> ~ (all_nonempty S_romaji s \/ mixed_text s) ->
         (r = concat rs <->
          forall t, In t (tokenize s) -> Forall S_romaji t ->
            to_lowercase E t = t /\ untouched (mode_of o) t)).
Proof. exact C88_katakana_token_by_token_proof. Qed.
Print Assumptions C88_katakana_token_by_token.

Example C88_case :
  tokenize (u "カタカナ wo YOMUす。") = [u "カタカナ"; u " "; u "wo"; u " "; u "YOMU"; u "す"; u "。"]
  /\ to_katakana std_1_82 (u "カタカナ wo YOMUす。") = Ok (u "カタカナ ヲ ヨムス。")
  /\ n_apart Default (u "カタカナ wo YOMUす。")
  /\ to_katakana std_1_82 (u "漢字ka") = Ok (u "漢字ka") /\ to_katakana std_1_82 (u "ka") = Ok (u "カ")
  /\ to_katakana std_1_82 (u "‘kaな’") = Ok (u "「カナ」") /\ to_katakana std_1_82 (u "‘") = Ok (u "‘")
  /\ to_katakana std_1_82 (u "ЖkaひЖ") = Ok (u "жカヒж") /\ to_katakana std_1_82 (u "Ж") = Ok (u "Ж").
Proof.
  do 2 (split; [vm_compute; reflexivity|]). split; [|repeat split; vm_compute; reflexivity].
  destruct (C88_katakana_token_by_token_proof std_1_82 std_1_82_ok default_options (u "カタカナ wo YOMUす。")) as (r & rs & Q & F & _ & X & _).
  apply X.
  - reflexivity.
  - right. apply mixed_spec. vm_compute. reflexivity.
  - vm_compute in Q. injection Q as <-. change (tokenize (u "カタカナ wo YOMUす。")) with [u "カタカナ"; u " "; u "wo"; u " "; u "YOMU"; u "す"; u "。"] in F.
    repeat match goal with H : Forall2 _ (_ :: _) _ |- _ => inversion H; clear H; subst end.
    match goal with H : Forall2 _ [] _ |- _ => inversion H; clear H; subst end.
    repeat match goal with H : _ = Ok _ |- _ => vm_compute in H; injection H as <- end. reflexivity.
Qed.

(** C89.  The same for to_hiragana.  With pass_romaji: no long mark of the text lengthens a letter,
    since 「ー」 is a token of its own.  Mixed text: moreover no n stands before an apostrophe and
    only romaji has upper case letters.  Romaji, or text with English punctuation in front: the
    latter two, and no katakana but ヵ ヶ.  Otherwise: no long mark that lengthens a letter, and the
    tokens of romaji or with punctuation in front are in lower case and have nothing to convert. *)
Theorem C89_hiragana_token_by_token :
  forall E, std_ok E -> forall o s,
    exists r rs, to_hiragana_with_opt E s o = Ok r /\
      Forall2 (fun t q => to_hiragana_with_opt E t o = Ok q) (tokenize s) rs /\
      (pass_romaji o = true -> (r = concat rs <-> no_long_mark s)) /\
      (pass_romaji o = false -> mixed_text s ->
         (r = concat rs <-> no_long_mark s /\ n_apart (mode_of o) s /\ others_lower (to_lowercase E) s)) /\
      (pass_romaji o = false -> ~ mixed_text s -> all_nonempty S_romaji s \/ starts_with_punct s ->
         (r = concat rs <->
          n_apart (mode_of o) s /\ others_lower (to_lowercase E) s /\
          forall c, In c s -> katakana_letter c -> In c (u "ヵヶ"))) /\
      (pass_romaji o = false -> ~ mixed_text s -> ~ (all_nonempty S_romaji s \/ starts_with_punct s) ->
         (r = concat rs <->
          no_long_mark s /\
          forall t, In t (tokenize s) -> Forall S_romaji t \/ starts_with_punct t ->
            to_lowercase E t = t /\ untouched (mode_of o) t)).
Proof. exact C89_hiragana_token_by_token_proof. Qed.
Print Assumptions C89_hiragana_token_by_token.

Example C89_case :
  tokenize (u "ラーメン wo") = [u "ラ"; u "ー"; u "メン"; u " "; u "wo"]
  /\ to_hiragana std_1_82 (u "ラーメン wo") = Ok (u "らあめん を") /\ to_hiragana std_1_82 (u "ー") = Ok (u "ー")
  /\ ~ no_long_mark (u "ラーメン wo")
  /\ tokenize (u "‘メン") = [u "‘"; u "メン"]
  /\ to_hiragana std_1_82 (u "‘") = Ok (u "「") /\ to_hiragana std_1_82 (u "メン") = Ok (u "めん")
  /\ starts_with_punct (u "‘メン") /\ ~ mixed_text (u "‘メン")
  /\ to_hiragana std_1_82 (u "‘メン") = Ok (u "「メン")
  /\ tokenize (u "カタカナ。wo Yomu") = [u "カタカナ"; u "。"; u "wo"; u " "; u "Yomu"]
  /\ to_hiragana std_1_82 (u "カタカナ。wo Yomu") = Ok (u "かたかな。を よむ")
  /\ n_apart Default (u "カタカナ。wo Yomu") /\ no_long_mark (u "カタカナ。wo Yomu").
Proof.
  do 3 (split; [vm_compute; reflexivity|]). split.
  { intro N. destruct (N (u "ラ") (u "メン wo") (ch "ラ") eq_refl). exists [], []. split; [reflexivity|]. split; [vm_compute; split; discriminate|]. split; [vm_compute; intuition discriminate|constructor]. }
  do 3 (split; [vm_compute; reflexivity|]). split; [apply first_punct_spec; vm_compute; reflexivity|].
  split; [rewrite <- mixed_spec; vm_compute; discriminate|]. do 3 (split; [vm_compute; reflexivity|]).
  destruct (C89_hiragana_token_by_token_proof std_1_82 std_1_82_ok default_options (u "カタカナ。wo Yomu")) as (r & rs & Q & F & _ & X & _).
  destruct X as [X _].
  - reflexivity.
  - apply mixed_spec. vm_compute. reflexivity.
  - destruct X as (X & Y & _); [|split; [exact Y|exact X]].
    vm_compute in Q. injection Q as <-. change (tokenize (u "カタカナ。wo Yomu")) with [u "カタカナ"; u "。"; u "wo"; u " "; u "Yomu"] in F.
    repeat match goal with H : Forall2 _ (_ :: _) _ |- _ => inversion H; clear H; subst end.
    match goal with H : Forall2 _ [] _ |- _ => inversion H; clear H; subst end.
    repeat match goal with H : _ = Ok _ |- _ => vm_compute in H; injection H as <- end. reflexivity.
Qed.
