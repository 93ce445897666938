(** * Proofs of the theorems of Props_Machine.v *)
From Verif Require Import Tac Base Std StdInstances Chars Strings Convert Machine MachineProofs Results_Totality.

Lemma lower_three_1_82 c : (length (lower_char std_1_82 c) <= 3)%nat.
Proof. apply unicode_three. Qed.

Lemma C105_same_proof :
  forall b um E o s,
    hiragana_to_katakana_m b s = hiragana_to_katakana s
    /\ (N.of_nat (length s) <= um ->
          (forall d, katakana_to_hiragana_with_opt_m b um E s d = katakana_to_hiragana_with_opt E s d)
          /\ to_kana_with_opt_m b um E s o = to_kana_with_opt E s o
          /\ to_romaji_with_opt_m b um E s o = to_romaji_with_opt E s o
          /\ ((forall t, (length t <= length s)%nat -> N.of_nat (length (to_lowercase E t)) <= um) ->
                to_hiragana_with_opt_m b um E s o = to_hiragana_with_opt E s o
                /\ to_katakana_with_opt_m b um E s o = to_katakana_with_opt E s o)).
Proof.
  intros b um E o s. split; [apply h2k_m_ok|]. intros L. split; [intro; now apply k2h_m_ok|].
  split; [now apply to_kana_m_ok|]. split; [now apply to_romaji_m_ok|]. intros F.
  split; [now apply to_hiragana_m_ok|now apply to_katakana_m_ok].
Qed.

Lemma C105_returns_proof :
  forall E, std_ok E -> forall um o s,
    (N.of_nat (length s) <= um ->
       (exists t, forall b, to_kana_with_opt_m b um E s o = Ok t) /\ (exists t, forall b, to_romaji_with_opt_m b um E s o = Ok t))
    /\ ((forall c, (length (lower_char E c) <= 3)%nat) -> 3 * N.of_nat (length s) <= um ->
       (exists t, forall b, to_hiragana_with_opt_m b um E s o = Ok t) /\ (exists t, forall b, to_katakana_with_opt_m b um E s o = Ok t)).
Proof.
  intros E HE um o s. split.
  - intros L. split.
    + destruct (proj1 (C01_to_kana_total_proof E HE s) o) as [t T]. exists t. intros b. rewrite to_kana_m_ok by assumption. exact T.
    + destruct (proj1 (C03_to_romaji_total_proof E HE s) o) as [t T]. exists t. intros b. rewrite to_romaji_m_ok by assumption. exact T.
  - intros H L. pose proof (three_fits um E s H L) as F. assert (L' : N.of_nat (length s) <= um) by lia. split.
    + destruct (proj1 (C02_script_conversions_total_proof E HE s) o) as [t T]. exists t. intros b. rewrite to_hiragana_m_ok by assumption. exact T.
    + destruct (proj1 (proj2 (C02_script_conversions_total_proof E HE s)) o) as [t T]. exists t. intros b. rewrite to_katakana_m_ok by assumption. exact T.
Qed.

Lemma C105_debug_proof :
  forall E, std_ok E -> forall um o s,
    ((exists t, to_kana_with_opt_m Debug um E s o = Ok t) <-> N.of_nat (length s) <= um)
    /\ ((exists t, to_romaji_with_opt_m Debug um E s o = Ok t) <-> N.of_nat (length s) <= um)
    /\ (pass_romaji o = true -> ((exists t, to_hiragana_with_opt_m Debug um E s o = Ok t) <-> N.of_nat (length s) <= um)
                             /\ (exists t, to_katakana_with_opt_m Debug um E s o = Ok t)).
Proof.
  intros E HE um o s. split; [|split].
  - split; [intros [t T]; now apply to_kana_fits in T|]. intros L. rewrite to_kana_m_ok by assumption. apply (C01_to_kana_total_proof E HE s).
  - split; [intros [t T]; now apply to_romaji_fits in T|]. intros L. rewrite to_romaji_m_ok by assumption. apply (C03_to_romaji_total_proof E HE s).
  - intros P. pose proof (proj1 (C02_script_conversions_total_proof E HE s) o) as A. pose proof (proj1 (proj2 (C02_script_conversions_total_proof E HE s)) o) as B.
    unfold to_hiragana_with_opt_m, to_katakana_with_opt_m. unfold to_hiragana_with_opt, to_katakana_with_opt in A, B. rewrite P in *. split.
    + split; [intros [t T]; now apply k2h_fits in T|]. intros L. rewrite k2h_m_ok by assumption. exact A.
    + now rewrite h2k_m_ok.
Qed.
