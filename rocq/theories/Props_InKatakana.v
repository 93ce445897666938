(** * C109: tokens and okurigana of a text written in katakana *)
From Verif Require Import Base Std Chars Strings Tokenize Convert Predicates InKatakanaSpec Results_InKatakana.

(** C109.  Written in katakana, a text has the same compact tokens, with the same types, each written in katakana. *)
Theorem C109_compact :
  forall s t, hiragana_to_katakana s = Ok t ->
    Forall2 (fun a b => fst a = fst b /\ hiragana_to_katakana (snd a) = Ok (snd b)) (tokenize_detailed s true) (tokenize_detailed t true).
Proof. exact C109_compact_proof. Qed.
Print Assumptions C109_compact.

Example C109_compact_case :
  hiragana_to_katakana (u "食べル abc。") = Ok (u "食ベル abc。")
  /\ tokenize_detailed (u "食べル abc。") true = [(Ja, u "食べル"); (En, u " abc"); (Other, u "。")]
  /\ tokenize_detailed (u "食ベル abc。") true = [(Ja, u "食ベル"); (En, u " abc"); (Other, u "。")].
Proof. vm_compute. repeat split. Qed.

(** C109.  The detailed tokens are the same, each written in katakana, exactly if hiragana and katakana letters are nowhere next to
    each other. *)
Theorem C109_tokens :
  forall s t, hiragana_to_katakana s = Ok t ->
    (Forall2 (fun a b => hiragana_to_katakana a = Ok b) (tokenize s) (tokenize t) <-> scripts_apart s).
Proof. exact C109_tokens_proof. Qed.
Print Assumptions C109_tokens.

Example C109_tokens_case :
  tokenize (u "私は日本のラーメンや") = [u "私"; u "は"; u "日本"; u "の"; u "ラ"; u "ー"; u "メン"; u "や"]
  /\ hiragana_to_katakana (u "私は日本のラーメンや") = Ok (u "私ハ日本ノラーメンヤ")
  /\ tokenize (u "私ハ日本ノラーメンヤ") = [u "私"; u "ハ"; u "日本"; u "ノラ"; u "ー"; u "メンヤ"]
  /\ tokenize (u "私はラーメン屋の") = [u "私"; u "は"; u "ラ"; u "ー"; u "メン"; u "屋"; u "の"]
  /\ tokenize (u "お祝い") = [u "お"; u "祝"; u "い"] /\ tokenize (u "オ祝イ") = [u "オ"; u "祝"; u "イ"].
Proof. vm_compute. repeat split. Qed.
(** the mark between two scripts keeps them apart *)
Example C109_apart_case : scripts_apart (u "すーパ") /\ ~ scripts_apart (u "食べル").
Proof.
  split.
  - intros [|? [|? [|? ?]]] x y b Q; try discriminate Q; injection Q; intros; subst; try discriminate;
      try (match goal with H : [] = ?l ++ _ |- _ => destruct l; discriminate H end);
      split; intros [[A B] [C D]]; first [exact (A eq_refl)|exact (B eq_refl)|exact (C eq_refl)|exact (D eq_refl)].
  - intro H. destruct (H (u "食") (ch "べ") (ch "ル") [] eq_refl) as [N _]. apply N. vm_compute. repeat split; discriminate.
Qed.

(** C109.  Trimming okurigana and writing in katakana can be exchanged exactly if trimming does nothing, or if the kana letters at that
    end of the text are of one script. *)
Theorem C109_okurigana :
  forall s t from_start r t', hiragana_to_katakana s = Ok t -> trim_okurigana_with_opt s from_start None = Ok r -> hiragana_to_katakana r = Ok t' ->
    (trim_okurigana_with_opt t from_start None = Ok t' <-> r = s \/ one_script_outside from_start s).
Proof. exact C109_okurigana_proof. Qed.
Print Assumptions C109_okurigana.

Example C109_okurigana_case :
  trim_okurigana_with_opt (u "食べる") false None = Ok (u "食") /\ trim_okurigana_with_opt (u "食ベル") false None = Ok (u "食")
  /\ hiragana_to_katakana (u "食べル") = Ok (u "食ベル")
  /\ trim_okurigana_with_opt (u "食べル") false None = Ok (u "食べ")
  /\ trim_okurigana_with_opt (u "おモ手") true None = Ok (u "モ手") /\ trim_okurigana_with_opt (u "オモ手") true None = Ok (u "手")
  /\ trim_okurigana_with_opt (u "ふフ") false None = Ok (u "ふフ").
Proof. vm_compute. repeat split. Qed.

(** C109.  With a matcher, trimming and writing in katakana can be exchanged if neither the text nor the matcher has katakana letters; the
    matcher is then written in katakana too. *)
Theorem C109_matcher :
  forall s m t m' from_start r t', (forall c, In c (s ++ m) -> ~ kata_letter c) ->
    hiragana_to_katakana s = Ok t -> hiragana_to_katakana m = Ok m' ->
    trim_okurigana_with_opt s from_start (Some m) = Ok r -> hiragana_to_katakana r = Ok t' ->
    trim_okurigana_with_opt t from_start (Some m') = Ok t'.
Proof. exact C109_matcher_proof. Qed.
Print Assumptions C109_matcher.

(** a matcher in the other script finds nothing, but its katakana does *)
Example C109_matcher_case :
  (forall c, In c (u "ふみこむ" ++ u "踏み込む") -> ~ kata_letter c)
  /\ trim_okurigana_with_opt (u "ふみこむ") false (Some (u "踏み込む")) = Ok (u "ふみこ")
  /\ trim_okurigana_with_opt (u "フミコム") false (Some (u "踏ミ込ム")) = Ok (u "フミコ")
  /\ trim_okurigana_with_opt (u "ふみこむ") false (Some (u "踏み込ム")) = Ok (u "ふみこむ").
Proof.
  split; [|vm_compute; repeat split]. intros c I [A B]. vm_compute in I.
  repeat (destruct I as [<-|I]; [first [exact (A eq_refl)|exact (B eq_refl)]|]). destruct I.
Qed.
