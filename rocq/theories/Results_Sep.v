(** * Proofs of the theorems of Props_Sep.v *)
From Verif Require Import Tac Base Std Convert KanaPure KanaSpec KanaDict KanaProofs ScriptSpec Predicates TokenSpec FixedSpec SepSpec Sep SepText.

Lemma conv_of E o s : std_ok E -> to_kana_with_opt E s o = Ok (conv (mode_of o) s).
Proof. intro HE. rewrite to_kana_with_opt_eq by exact HE. now rewrite k_tree_mode. Qed.

Lemma C98_kana_proof :
  forall E, std_ok E -> forall o w,
    separates (fun s => to_kana_with_opt E s o) w <->
    w <> [] /\ untouched (mode_of o) w /\
    (forall c w', w = c :: w' -> ~ goes_on (mode_of o) c) /\ (forall w' c, w = w' ++ [c] -> ~ consonant c).
Proof.
  intros E HE o w. rewrite <- conv_separates. unfold separates. split.
  - intros H x y. destruct (H x y) as (a & b & A & B & C). rewrite conv_of in A, B, C by exact HE. injection A as <-. injection B as <-. now injection C.
  - intros H x y. exists (conv (mode_of o) x), (conv (mode_of o) y). rewrite !conv_of by exact HE. split; [reflexivity|]. split; [reflexivity|]. now rewrite H.
Qed.

Lemma C98_romaji_proof :
  forall E, std_ok E -> forall o w,
    (upcase_katakana o = false ->
       (separates (fun s => to_romaji_with_opt E s o) w <->
        (forall c, In c w -> ~ romanised c) /\ exists c, In c w /\ ~ In c (u "ヵヶ"))) /\
    (upcase_katakana o = true -> ~ separates (fun s => to_romaji_with_opt E s o) w).
Proof.
  intros E HE o w. split; intro Up; [now apply romaji_separates|now apply upcase_separates].
Qed.

Lemma C98_scripts_proof :
  forall E, std_ok E -> forall o w,
    (pass_romaji o = true ->
       (separates (fun s => to_katakana_with_opt E s o) w <-> forall c, In c w -> ~ hiragana_letter c) /\
       (separates (fun s => to_hiragana_with_opt E s o) w <->
          (forall c, In c w -> katakana_letter c -> In c (u "ヵヶ")) /\ mark_stop w)) /\
    (pass_romaji o = false ->
       ~ separates (fun s => to_katakana_with_opt E s o) w /\ ~ separates (fun s => to_hiragana_with_opt E s o) w).
Proof.
  intros E HE o w. split; intro P; split; [now apply kata_separates|now apply hira_separates|now apply kata_never|now apply hira_never].
Qed.
