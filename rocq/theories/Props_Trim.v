(** * C46-C50: okurigana trimming and get_chunk *)
From Verif Require Import Base Std Chars Strings Tokenize Chunk Predicates TokenSpec TrimProofs Results_Trim.

(** C46.  The result is a part of the text: what is removed is a number of copies of one
    token of the text (of the matcher, if given). *)
Theorem C46_trim_part :
  forall s from_start matcher, exists r n tok,
    trim_okurigana_with_opt s from_start matcher = Ok r /\
    (n = 0%nat \/ In tok (tokenize (source s matcher))) /\
    s = if from_start then copies n tok ++ r else r ++ copies n tok.
Proof. exact C46_trim_part_proof. Qed.
Print Assumptions C46_trim_part.

Example C46_case : trim_okurigana_with_opt (u "お祝いいい") false (Some (u "祝い")) = Ok (u "お祝")
  /\ tokenize (u "祝い") = [u "祝"; u "い"] /\ u "お祝いいい" = u "お祝" ++ copies 3 (u "い").
Proof. vm_compute. auto. Qed.

(** C47.  Partial: without matcher exactly the last (first) token is removed, if the text is
    Japanese, ends (starts) with kana and is not all kana; any other text is unchanged.  No
    character but kana and punctuation is removed.  The result is empty exactly for such texts of
    Japanese punctuation only.  Missing: those texts, for which the claim is false
    ([C47_nonempty_refuted]). *)
Theorem C47_last_token_partial :
  (forall s, trim_active s false None ->
     exists ts tok, tokenize s = ts ++ [tok] /\ trim_okurigana s = Ok (concat ts)) /\
  (forall s, trim_active s true None ->
     exists ts tok, tokenize s = tok :: ts /\ trim_okurigana_with_opt s true None = Ok (concat ts)) /\
  (forall s from_start, ~ trim_active s from_start None ->
     trim_okurigana_with_opt s from_start None = Ok s) /\
  (forall s, trim_okurigana s = trim_okurigana_with_opt s false None) /\
  (forall s from_start r c, trim_okurigana_with_opt s from_start None = Ok r ->
     In c s -> ~ S_kana c -> ~ S_ja_punct c -> In c r) /\
  (forall s from_start, trim_okurigana_with_opt s from_start None = Ok [] <->
     s = [] \/ (trim_active s from_start None /\ forall c, In c s -> S_ja_punct c /\ c <> 0x3000)).
Proof. exact C47_last_token_partial_proof. Qed.
Print Assumptions C47_last_token_partial.

Example C47_case : tokenize (u "お腹ペコ") = [u "お"; u "腹"; u "ペコ"] /\ trim_okurigana (u "お腹ペコ") = Ok (u "お腹")
  /\ trim_okurigana_with_opt (u "お腹ペコ") true None = Ok (u "腹ペコ") /\ trim_okurigana (u "ふふフフ") = Ok (u "ふふフフ").
Proof. vm_compute. auto. Qed.
Example C47_active : trim_active (u "踏み") false None.
Proof.
  split; [|split].
  - apply is_japanese_spec. vm_compute. reflexivity.
  - exists (u "踏"), (ch "み"). split; [vm_compute; reflexivity|]. left. left. vm_compute. split; discriminate.
  - exists (ch "踏"). split; [vm_compute; auto|]. vm_compute. intuition congruence.
Qed.

(** C47.  Refuted: non-empty text can be trimmed to nothing, in both directions. *)
Theorem C47_nonempty_refuted :
  exists s, s <> [] /\ trim_okurigana s = Ok [] /\ trim_okurigana_with_opt s true None = Ok [].
Proof. exact C47_nonempty_refuted_proof. Qed.
Print Assumptions C47_nonempty_refuted.

Example C47_witness : tokenize (u "ー。ー") = [u "ー。ー"] /\ trim_okurigana (u "ー。ー") = Ok [].
Proof. vm_compute. auto. Qed.

(** C48.  Partial: a run of hiragana, or of katakana, after a kanji is removed, and trimming
    again changes nothing.  Japanese text (not only kana and punctuation) is [ks] followed by
    [us], the tokens at the end which end in kana; trimming [k] times removes the last [k] of
    [us], and in the end exactly [us], so that one trimming is enough exactly if [us] has at
    most one token.  Missing: that one trimming is enough, which is false for
    okurigana in both scripts (see [C48_okurigana_refuted]). *)
Theorem C48_okurigana_partial :
  (forall p k h (K : N -> Prop),
    (K = between 0x3041 0x3096 \/ K = between 0x30A1 0x30FA) ->
    all_nonempty S_japanese p \/ p = [] -> S_kanji k -> all_nonempty K h ->
    trim_okurigana (p ++ [k] ++ h) = Ok (p ++ [k]) /\ trim_okurigana (p ++ [k]) = Ok (p ++ [k])) /\
  (forall s, all_nonempty S_japanese s -> (exists c, In c s /\ ~ S_kana c /\ ~ S_ja_punct c) ->
    exists ks us, tokenize s = ks ++ us /\ ~ ends_in_kana (concat ks) /\
      (forall t, In t us -> ends_in_kana t) /\
      (forall k, trim_times k s = Ok (concat (ks ++ firstn (length us - k) us))) /\
      (forall k, (length us <= k)%nat -> trim_times k s = Ok (concat ks)) /\
      (forall k k', trim_times k s = trim_times k' s <-> k = k' \/ (length us <= k /\ length us <= k')%nat)).
Proof. exact C48_okurigana_partial_proof. Qed.
Print Assumptions C48_okurigana_partial.

Example C48_case : trim_okurigana (u "粘り" ++ u "。" ++ u "祝い") = Ok (u "粘り。祝") /\ trim_okurigana (u "粘り。祝") = Ok (u "粘り。祝")
  /\ trim_times 1 (u "お食べルよ") = Ok (u "お食べル") /\ trim_times 2 (u "お食べルよ") = Ok (u "お食べ")
  /\ trim_times 9 (u "お食べルよ") = Ok (u "お食").
Proof. vm_compute. auto. Qed.

(** C48.  Refuted: kana can be left, and trimming again can remove more. *)
Theorem C48_okurigana_refuted :
  exists s r r', contains_kanji s = true /\ trim_okurigana s = Ok r /\ ends_in_kana r /\
    trim_okurigana r = Ok r' /\ r' <> r.
Proof. exact C48_okurigana_refuted_proof. Qed.
Print Assumptions C48_okurigana_refuted.

Example C48_witness : trim_okurigana (u "食べル") = Ok (u "食べ") /\ trim_okurigana (u "食べ") = Ok (u "食").
Proof. vm_compute. auto. Qed.

(** C49.  Trimming in general, with and without matcher: nothing happens unless the text is
    Japanese, has kana at that end and the matcher is not all kanji (empty included); then
    all copies of the last (first) token of the matcher are removed from that end.  This
    determines the result. *)
Theorem C49_matcher :
  forall ty, labels false ty ->
  (forall s from_start matcher, exists r, trim_okurigana_with_opt s from_start matcher = Ok r /\
     ((~ trim_active s from_start matcher /\ r = s) \/
      (trim_active s from_start matcher /\ exists tok,
         outer_token ty (source s matcher) from_start tok /\
         trimmed from_start tok s r))) /\
  (forall s from_start m, (forall c, In c m -> S_kanji c) ->
     trim_okurigana_with_opt s from_start (Some m) = Ok s) /\
  (forall s from_start m tok r, trim_active s from_start (Some m) ->
     outer_token ty m from_start tok ->
     (trim_okurigana_with_opt s from_start (Some m) = Ok r <-> trimmed from_start tok s r)) /\
  (forall s from_start m tok, outer_token ty m from_start tok ->
     ~ (if from_start then prefix_of tok s else suffix_of tok s) ->
     trim_okurigana_with_opt s from_start (Some m) = Ok s).
Proof. exact C49_matcher_proof. Qed.
Print Assumptions C49_matcher.

Example C49_case : trim_okurigana_with_opt (u "おはら") true (Some (u "おみまい")) = Ok (u "おはら")
  /\ trim_okurigana_with_opt (u "おみまい") true (Some (u "おみ腹")) = Ok (u "まい")
  /\ trim_okurigana_with_opt (u "お祝い") false (Some (u "腹")) = Ok (u "お祝い")
  /\ trim_okurigana_with_opt (u "お祝い") false (Some (u "粘い")) = Ok (u "お祝").
Proof. vm_compute. auto. Qed.

(** C49.  The three checks of [trim_okurigana] by themselves: the text begins (ends) with something
    else than kana, which no empty text does; the matcher is all kanji, or without matcher the text
    all kana. *)
Theorem C49_checks :
  (forall s from_start, exists b, is_leading_without_initial_kana s from_start = Ok b /\
     (b = true <-> from_start = true /\ exists c r, s = c :: r /\ ~ S_kana c)) /\
  (forall s from_start, exists b, is_trailing_without_final_kana s from_start = Ok b /\
     (b = true <-> from_start = false /\ exists r c, s = r ++ [c] /\ ~ S_kana c)) /\
  (forall s m, is_invalid_matcher s (Some m) = true <-> forall c, In c m -> S_kanji c) /\
  (forall s, is_invalid_matcher s None = true <-> all_nonempty S_kana s).
Proof. exact C49_checks_proof. Qed.
Print Assumptions C49_checks.

Example C49_checks_case : is_leading_without_initial_kana (u "腹a") true = Ok true /\ is_leading_without_initial_kana (u "腹") false = Ok false
  /\ is_leading_without_initial_kana [] true = Ok false /\ is_trailing_without_final_kana [] false = Ok false
  /\ is_trailing_without_final_kana (u "お腹") false = Ok true /\ is_trailing_without_final_kana (u "食べ") false = Ok false
  /\ is_invalid_matcher (u "お腹") (Some []) = true /\ is_invalid_matcher (u "おみ") None = true /\ is_invalid_matcher [] None = false.
Proof. vm_compute. repeat split. Qed.

(** C50.  [get_chunk] returns (the UTF-8 encoding of) the characters from [start] to [end];
    past the end of the text [end] means the end and [start] means the beginning.  It panics
    exactly if [end < start] and [start] is inside the text. *)
Theorem C50_get_chunk :
  (forall s a b, (a <= b)%nat -> (a < length s)%nat ->
     get_chunk s a b = Ok (encode (firstn (b - a) (skipn a s)))) /\
  (forall s a b, (length s <= a)%nat -> get_chunk s a b = Ok (encode (firstn b s))) /\
  (forall s a b, get_chunk s a b = Panic <-> (b < a)%nat /\ (a < length s)%nat) /\
  (forall p m q, m <> [] -> get_chunk (p ++ m ++ q) (length p) (length p + length m) = Ok (encode m)).
Proof. exact C50_get_chunk_proof. Qed.
Print Assumptions C50_get_chunk.

Example C50_case : get_chunk (u "derpaあいう") 4 6 = Ok (encode (u "aあ")) /\ get_chunk (u "あいう") 1 9 = Ok (encode (u "いう"))
  /\ get_chunk (u "あいう") 7 1 = Ok (encode (u "あ")) /\ get_chunk (u "あいう") 2 1 = Panic.
Proof. vm_compute. auto. Qed.

(** C50.  The byte slice that [get_chunk] ends with: [&text[a..b]] is the part [m] of the text if [a] and
    [b] are the positions of its beginning and end, and panics if there is no such part. *)
Theorem C50_slices :
  forall s a b,
    (forall r, str_slice (encode s) a b = Ok r <->
       exists p m q, s = p ++ m ++ q /\ a = length (encode p) /\ b = length (encode (p ++ m)) /\ r = encode m) /\
    (str_slice (encode s) a b = Panic <->
       ~ exists p m q, s = p ++ m ++ q /\ a = length (encode p) /\ b = length (encode (p ++ m))).
Proof. exact C50_slices_proof. Qed.
Print Assumptions C50_slices.

Example C50_slices_case : str_slice (encode (u "aあい")) 1 4 = Ok (encode (u "あ")) /\ str_slice (encode (u "aあい")) 1 3 = Panic
  /\ str_slice (encode (u "あ")) 1 3 = Panic /\ str_slice (encode (u "あ")) 3 3 = Ok [] /\ str_slice (encode (u "あ")) 3 0 = Panic
  /\ str_slice (encode (u "あ")) 3 4 = Panic.
Proof. vm_compute. auto 10. Qed.
