(** * C40-C45: the tokenizer *)
From Verif Require Import Base Std Chars Strings Tokenize Predicates TokenSpec Results_Tokenize.

(** C40.  Concatenating the tokens gives the text; no token is empty; the empty text has no
    token. *)
Theorem C40_tokenize_lossless :
  forall s compact,
    concat (tokenize_with_opt s compact) = s /\
    (forall t, In t (tokenize_with_opt s compact) -> t <> []) /\
    (tokenize_with_opt s compact = [] <-> s = []).
Proof. exact C40_tokenize_lossless_proof. Qed.
Print Assumptions C40_tokenize_lossless.

Example C40_case : tokenize (u "今日は ABC12") = [u "今日"; u "は"; u " "; u "ABC"; u "12"].
Proof. vm_compute. reflexivity. Qed.

(** C41.  The tokens are the maximal runs of characters of one type, and nothing else has
    that property, for every classification of characters as described in TokenSpec.v. *)
Theorem C41_maximal_runs :
  forall s compact ty ts, labels compact ty ->
    (ts = tokenize_with_opt s compact <-> tokenisation ty ts s).
Proof. exact C41_maximal_runs_proof. Qed.
Print Assumptions C41_maximal_runs.

Example C41_case : labels true (fun c => get_type c true) /\ labels false (fun c => get_type c false) /\
  tokenize_with_opt (u "今日は ABC12") true = [u "今日は"; u " ABC"; u "12"].
Proof. split; [|split; [|vm_compute; reflexivity]]; apply TokenizeProofs.labels_get_type. Qed.

(** C42.  [tokenize_detailed] is [tokenize_with_opt] with the type of every character of each
    token. *)
Theorem C42_detailed :
  forall s compact ty, labels compact ty ->
    map snd (tokenize_detailed s compact) = tokenize_with_opt s compact /\
    tokenize s = tokenize_with_opt s false /\
    (forall k t, In (k, t) (tokenize_detailed s compact) -> t <> [] /\ forall c, In c t -> ty c = k).
Proof. exact C42_detailed_proof. Qed.
Print Assumptions C42_detailed.

Example C42_case : tokenize_detailed (u "今日は ABC12") false
  = [(Kanji, u "今日"); (Hiragana, u "は"); (Space, u " "); (En, u "ABC"); (EnNum, u "12")].
Proof. vm_compute. reflexivity. Qed.

(** C43.  The detailed type of a character is the class it belongs to (every character is in
    exactly one); compact mode uses only En, Ja and Other, for the classes stated. *)
Theorem C43_labels :
  (forall c k, get_type c false = k <-> label_spec k c) /\
  (forall c k, get_type c true = k <-> compact_spec k c) /\
  (forall c, In (get_type c true) [En; Ja; Other]).
Proof. exact C43_labels_proof. Qed.
Print Assumptions C43_labels.

Example C43_case : label_spec JaPunc (ch "ー") /\ label_spec EnPunc (ch "’") /\ label_spec Ja (ch "ｱ")
  /\ get_type (ch "ー") true = Other.
Proof. repeat split; try (apply C43_labels; vm_compute; reflexivity); vm_compute; try reflexivity; intuition discriminate. Qed.

(** C44.  Partial: compact tokens are unions of detailed tokens exactly if an ASCII and an
    ideographic space are never adjacent; missing: such texts, for which it is false (see
    [C44_compact_merges_refuted]). *)
Theorem C44_compact_merges_partial :
  forall s, merges (tokenize_with_opt s false) (tokenize_with_opt s true) <-> no_space_clash s.
Proof. exact C44_compact_merges_partial_proof. Qed.
Print Assumptions C44_compact_merges_partial.

Example C44_case : tokenize_with_opt (u "漢字　かなa b1!") true = [u "漢字　かな"; u "a b"; u "1!"]
  /\ tokenize_with_opt (u "漢字　かなa b1!") false = [u "漢字"; u "　"; u "かな"; u "a"; u " "; u "b"; u "1"; u "!"].
Proof. vm_compute. auto. Qed.

(** C44.  Refuted: the two spaces form one detailed token but two compact ones. *)
Theorem C44_compact_merges_refuted :
  exists s, ~ merges (tokenize_with_opt s false) (tokenize_with_opt s true).
Proof. exact C44_compact_merges_refuted_proof. Qed.
Print Assumptions C44_compact_merges_refuted.

Example C44_witness : tokenize_with_opt (u " 　") false = [u " 　"] /\ tokenize_with_opt (u " 　") true = [u " "; u "　"].
Proof. vm_compute. auto. Qed.

(** C45.  Tokenizing a concatenation: the tokens side by side if the types at the joint
    differ, the two tokens at the joint merged otherwise; a token is its own only token. *)
Theorem C45_concatenation :
  forall compact ty, labels compact ty ->
  (forall a x y b, ty x <> ty y ->
     tokenize_with_opt ((a ++ [x]) ++ y :: b) compact
     = tokenize_with_opt (a ++ [x]) compact ++ tokenize_with_opt (y :: b) compact) /\
  (forall a x y b, ty x = ty y ->
     exists ts t z us, tokenize_with_opt (a ++ [x]) compact = ts ++ [t] /\
       tokenize_with_opt (y :: b) compact = z :: us /\
       tokenize_with_opt ((a ++ [x]) ++ y :: b) compact = ts ++ [t ++ z] ++ us) /\
  (forall s t, In t (tokenize_with_opt s compact) -> tokenize_with_opt t compact = [t]).
Proof. exact C45_concatenation_proof. Qed.
Print Assumptions C45_concatenation.

Example C45_case : tokenize (u "今" ++ u "日は") = [u "今日"; u "は"] /\ tokenize (u "今") = [u "今"].
Proof. vm_compute. auto. Qed.
