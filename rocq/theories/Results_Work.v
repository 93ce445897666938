(** * Proofs of the theorems of Props_Work.v *)
From Verif Require Import Tac Base Std Convert KanaPure KanaSpec Predicates ScriptSpec ScriptProofs RomajiPure JoinSpec Cost CostSpec CostProofs.

Lemma no_mark_zero s n p : lengthening [] s n p -> (p = 0%nat <-> no_long_mark s).
Proof.
  intro H. rewrite (lengthening_zero _ _ _ _ H). unfold no_long_mark. cbn [app]. split; intros Z; intros; eauto.
Qed.
Lemma letter_not_punct k r : katakana_letter k -> ~ starts_with_punct (k :: r).
Proof.
  intros K (c & r' & Q & P). injection Q as <- _. unfold S_en_punct in P.
  assert (B : forallb (fun x => x <? 0x30A1) (u " !""#$%&'()*+,-./:;<=>?[\]^_`{|}~‘’“”") = true) by (vm_compute; reflexivity).
  rewrite forallb_forall in B. apply B, N.ltb_lt in P. unfold katakana_letter in K. lia.
Qed.

Lemma C90_lookups_proof :
  forall E, std_ok E -> forall o s,
    (exists r l, to_kana_with_opt E s o = Ok r /\ to_kana_count E s o = Ok (r, l) /\
       (length s <= l /\ 2 * l <= 7 * length s)%nat) /\
    (exists r l p, to_romaji_with_opt E s o = Ok r /\ to_romaji_count E s o = Ok (r, l, p) /\
       (length s <= l <= 3 * length s)%nat) /\
    (exists r l p, to_hiragana_with_opt E s o = Ok r /\ to_hiragana_count E s o = Ok (r, l, p) /\
       (ascii_or_caseless s -> (2 * l <= 9 * length s)%nat)) /\
    (exists r l, to_katakana_with_opt E s o = Ok r /\ to_katakana_count E s o = Ok (r, l) /\
       (ascii_or_caseless s -> (2 * l <= 7 * length s)%nat)).
Proof.
  intros E HE o s.
  rewrite to_kana_with_opt_eq, to_romaji_with_opt_eq, to_hiragana_with_opt_eq, to_katakana_with_opt_eq by exact HE.
  destruct (to_kana_count_ok E o s HE) as (l1 & -> & B1). destruct (to_romaji_count_ok E o s HE) as (l2 & n2 & p2 & -> & _ & B2).
  destruct (to_hiragana_count_ok E o s HE) as (l3 & n3 & p3 & q3 & -> & _ & _ & B3). destruct (to_katakana_count_ok E o s HE) as (l4 & -> & B4).
  split; [|split; [|split]].
  - exists (kconv (k_tree o) s), l1. auto.
  - eexists _, l2, p2. split; [reflexivity|]. split; [reflexivity|exact B2].
  - eexists _, l3, q3. split; [reflexivity|]. split; [reflexivity|exact B3].
  - eexists _, l4. split; [reflexivity|]. split; [reflexivity|exact B4].
Qed.

Lemma C90_passed_proof :
  forall E, std_ok E -> forall o s, exists n p, lengthening [] s n p /\
    (2 * p <= length s * (length s - 1))%nat /\
    (p = 0%nat <-> no_long_mark s) /\
    (exists r l, to_romaji_count E s o = Ok (r, l, p)) /\
    (exists r l q, to_hiragana_count E s o = Ok (r, l, q) /\
       (q = p \/ (q = 0%nat /\ pass_romaji o = false /\ ~ mixed_text s /\ starts_with_punct s))).
Proof.
  intros E HE o s. destruct (to_romaji_count_ok E o s HE) as (l & n & p & Q & Lp & _). exists n, p.
  split; [exact Lp|]. split; [exact (lengthening_total _ _ _ Lp)|]. split; [exact (no_mark_zero _ _ _ Lp)|].
  split; [eauto|]. destruct (to_hiragana_count_ok E o s HE) as (l' & n' & p' & q & Q' & Lp' & D & _).
  destruct (lengthening_det _ _ _ _ Lp _ _ Lp') as [<- <-]. eauto.
Qed.

Lemma C90_worst_proof :
  forall E, std_ok E -> forall o m,
    (exists r, to_kana_count E (concat (repeat (u "cchy") (S m))) o = Ok (r, (14 * m + 10)%nat)) /\
    forall k, katakana_letter k -> ~ In k (u "ヵヶ") -> exists r r' l l' p,
      to_romaji_count E (k :: repeat long_mark m) o = Ok (r, l, p) /\
      to_hiragana_count E (k :: repeat long_mark m) o = Ok (r', l', p) /\
      (2 * p = m * (m + 1))%nat.
Proof.
  intros E HE o m. split; [now apply to_kana_count_many|]. intros k K1 K2.
  destruct (marks_after_letter k m K1 K2) as (p & Lp & Bp).
  destruct (to_romaji_count_ok E o (k :: repeat long_mark m) HE) as (l & n & p1 & Q & Lp1 & _).
  destruct (to_hiragana_count_ok E o (k :: repeat long_mark m) HE) as (l' & n' & p2 & q & Q' & Lp2 & D & _).
  destruct (lengthening_det _ _ _ _ Lp _ _ Lp1) as [_ <-]. destruct (lengthening_det _ _ _ _ Lp _ _ Lp2) as [_ <-].
  destruct D as [->|(_ & _ & _ & P)]; [|exfalso; revert P; now apply letter_not_punct].
  do 5 eexists. split; [exact Q|]. split; [exact Q'|exact Bp].
Qed.
