(** * Proofs of the theorems of Props_Split.v *)
From Verif Require Import Tac Base Std StdInstances Convert KanaPure KanaSpec KanaDict KanaProofs ScriptSpec ScriptProofs RomajiPure
  RomajiProofs Predicates KanaJoinSpec FixedSpec ScriptIdem ScriptTokens ScriptPartSpec ScriptParts ScriptPartsHira.

Lemma C91_katakana_in_parts_proof :
  forall E, std_ok E -> forall o ts, Forall (fun t => t <> []) ts ->
    exists r rs, to_katakana_with_opt E (concat ts) o = Ok r /\
      Forall2 (fun t q => to_katakana_with_opt E t o = Ok q) ts rs /\
      (pass_romaji o = true -> r = concat rs) /\
      (pass_romaji o = false -> katakana_reads (concat ts) ->
         (r = concat rs <-> in_parts (mode_of o) (to_lowercase E) katakana_reads ts)) /\
      (pass_romaji o = false -> ~ katakana_reads (concat ts) ->
         (r = concat rs <->
          forall t, In t ts -> all_nonempty S_romaji t -> to_lowercase E t = t /\ untouched (mode_of o) t)).
Proof.
  intros E HE o ts F. exists (kata_pure E o (concat ts)), (map (kata_pure E o) ts).
  split; [now apply to_katakana_with_opt_eq|]. split.
  { apply Forall2_map_r. intro t. now apply to_katakana_with_opt_eq. }
  split; [|split].
  - intro P. unfold kata_pure. rewrite P. unfold h2k. apply concat_map.
  - intros P B. rewrite (in_parts_cond E o kata_rd) by exact kata_rd_spec. exact (kata_parts_read E o HE P ts F B).
  - intros P. exact (kata_parts_kept E o HE P ts).
Qed.

Lemma C92_hiragana_in_parts_proof :
  forall E, std_ok E -> forall o ts, Forall (fun t => t <> []) ts ->
    exists r rs hs, to_hiragana_with_opt E (concat ts) o = Ok r /\
      Forall2 (fun t q => to_hiragana_with_opt E t o = Ok q) ts rs /\
      Forall2 (fun t h => to_hiragana_with_opt E t (passing o) = Ok h) ts hs /\
      (pass_romaji o = true -> (r = concat rs <-> marks_apart ts)) /\
      (pass_romaji o = false -> mixed_text (concat ts) ->
         (r = concat rs <->
          marks_apart ts /\
          (forall t c, In t ts -> ~ mixed_text t -> hiragana_reads t -> In c t -> katakana_letter c -> In c (u "ヵヶ")) /\
          in_parts (mode_of o) (to_lowercase E) (fun h => mixed_text h \/ hiragana_reads h) hs)) /\
      (pass_romaji o = false -> ~ mixed_text (concat ts) -> hiragana_reads (concat ts) ->
         (r = concat rs <->
          (forall t c, In t ts -> ~ hiragana_reads t -> In c t -> katakana_letter c -> In c (u "ヵヶ")) /\
          in_parts (mode_of o) (to_lowercase E) hiragana_reads ts)) /\
      (pass_romaji o = false -> ~ mixed_text (concat ts) -> ~ hiragana_reads (concat ts) ->
         (r = concat rs <->
          marks_apart ts /\
          forall t, In t ts -> hiragana_reads t -> to_lowercase E t = t /\ untouched (mode_of o) t)).
Proof.
  intros E HE o ts F. exists (hira_pure E o (concat ts)), (map (hira_pure E o) ts), (map (k2h E false) ts).
  split; [now apply to_hiragana_with_opt_eq|]. split.
  { apply Forall2_map_r. intro t. now apply to_hiragana_with_opt_eq. }
  split.
  { apply Forall2_map_r. intro t. rewrite to_hiragana_with_opt_eq by exact HE. reflexivity. }
  split; [exact (hira_parts_pass E o HE ts)|]. split; [|split].
  - intros P M. rewrite (hira_parts_mixed E o HE P ts F M). split; intros (A & N & I); (split; [exact A|]; split; [|exact I]).
    + intros t c It Mt Rt. apply few_katakana. now apply N.
    + intros t It Mt Rt. apply few_katakana. intros c. now apply N.
  - intros P M B. rewrite (hira_parts_read E o HE P ts F M B). split; intros (N & I); (split; [|exact I]).
    + intros t c It Rt. apply few_katakana. now apply N.
    + intros t It Rt. apply few_katakana. intros c. now apply N.
  - intros P. exact (hira_parts_kept E o HE P ts).
Qed.
