(** * Proofs of the theorems of Props_Local.v *)
From Coq Require Import PeanoNat.
From Verif Require Import Tac Base Std StdInstances Convert KanaPure KanaSpec KanaDict KanaProofs ScriptSpec
  RomajiPure Predicates Strings KanaJoinSpec FixedSpec ScriptPartSpec KanaJoin LocalSpec Local LocalRomaji UpperShift Results_Split.

Lemma conv_ok E o s : std_ok E -> to_kana_with_opt E s o = Ok (conv (mode_of o) s).
Proof. intro HE. rewrite to_kana_with_opt_eq by exact HE. now rewrite k_tree_mode. Qed.
Lemma ok_inj (a b : str) : Ok a = Ok b -> a = b.
Proof. congruence. Qed.

(** 漢…漢ka, which is not read *)
Definition kan (n : nat) : str := repeat (ch "漢") n ++ u "ka".
Lemma kan_cut n p r : kan n = p ++ r -> (length p < n)%nat -> exists j i, p = repeat (ch "漢") j /\ r = kan (S i).
Proof.
  unfold kan. intros Q L. symmetry in Q. destruct (app_cut p r _ _ Q) as (e & P & ->); [rewrite repeat_length; lia|].
  assert (H : forall c, In c (p ++ e) -> c = ch "漢") by (rewrite <- P; intros c I; now apply repeat_spec in I).
  assert (Ep : p = repeat (ch "漢") (length p)) by (apply Forall_eq_repeat, Forall_forall; intros c I; symmetry; apply H, in_or_app; auto).
  assert (Ee : e = repeat (ch "漢") (length e)) by (apply Forall_eq_repeat, Forall_forall; intros c I; symmetry; apply H, in_or_app; auto).
  exists (length p). destruct e as [|c e]; [rewrite app_nil_r in P; rewrite <- P, repeat_length in L; lia|]. exists (length e). split; [exact Ep|]. now rewrite Ee at 1.
Qed.
Lemma kan_chars c n : In c (kan n) -> In c (u "漢ka").
Proof.
  unfold kan. intro I. apply in_app_or in I. destruct I as [I|I]; [apply repeat_spec in I; subst c; now left|]. now right.
Qed.
Lemma kan_no_kana n : ~ has (fun c => S_hiragana c \/ S_katakana c) (kan n).
Proof.
  intros (c & I & K). apply kan_chars in I. change (u "漢ka") with [0x6F22; 0x6B; 0x61] in I. unfold S_hiragana, S_katakana, between in K. cbn [In] in I. lia.
Qed.
Lemma kan_not_romaji n : ~ all_nonempty S_romaji (kan (S n)).
Proof.
  intros [_ F]. assert (R : S_romaji (ch "漢")) by (apply F; now left). destruct R as [R|R]; [vm_compute in R; now apply R|].
  revert R. vm_compute. intuition discriminate.
Qed.
Lemma kan_not_spared m n : ~ spared m (kan n) [].
Proof.
  intro H. assert (I : entry m (u "ka") (u "か")) by (apply pair_mem_In; destruct m; vm_compute; reflexivity).
  destruct (H (repeat (ch "漢") n) (u "ka") (u "ka") (u "か") []) as [Z _]; [unfold kan; now rewrite <- app_assoc, !app_nil_r|unfold kan; rewrite app_length; cbn; lia| |exact I|discriminate].
  now apply casing_low.
Qed.

Lemma C94_local_proof :
  forall E, std_ok E -> forall o x y, exists q t run p r,
    x = q ++ t /\ (length t <= 4)%nat /\ y = run ++ p ++ r /\ (length p <= 4)%nat /\
    Forall n_letter run /\ (mode_of o <> Ime -> run = []) /\
    forall w, exists a b c, to_kana_with_opt E q o = Ok a /\ to_kana_with_opt E (t ++ w ++ run ++ p) o = Ok b /\
      to_kana_with_opt E r o = Ok c /\ to_kana_with_opt E (x ++ w ++ y) o = Ok (a ++ b ++ c).
Proof.
  intros E HE o x y. destruct (local_conv (mode_of o) x y) as (q & t & run & p & r & Qx & Lt & Qy & Lp & F & R & H).
  exists q, t, run, p, r. repeat (split; [assumption|]). intro w. do 3 eexists. rewrite !conv_ok by exact HE.
  split; [reflexivity|]. split; [reflexivity|]. split; [reflexivity|]. now rewrite H.
Qed.

Lemma C94_least_proof :
  forall E, std_ok E -> forall o,
    (exists x, forall q t, x = q ++ t ->
       (forall w, exists a b, to_kana_with_opt E q o = Ok a /\ to_kana_with_opt E (t ++ w) o = Ok b /\
          to_kana_with_opt E (x ++ w) o = Ok (a ++ b)) -> (4 <= length t)%nat) /\
    (exists y, forall p r, y = p ++ r ->
       (forall w, exists b c, to_kana_with_opt E (w ++ p) o = Ok b /\ to_kana_with_opt E r o = Ok c /\
          to_kana_with_opt E (w ++ y) o = Ok (b ++ c)) -> (4 <= length p)%nat) /\
    (mode_of o = Ime -> forall n, exists y, forall p r, y = p ++ r ->
       (forall w, exists b c, to_kana_with_opt E (w ++ p) o = Ok b /\ to_kana_with_opt E r o = Ok c /\
          to_kana_with_opt E (w ++ y) o = Ok (b ++ c)) -> (n <= length p)%nat).
Proof.
  intros E HE o.
  assert (U : forall s a, to_kana_with_opt E s o = Ok a -> a = conv (mode_of o) s).
  { intros s a H. rewrite conv_ok in H by exact HE. symmetry. now apply ok_inj. }
  split; [|split].
  - exists (u "cchy"). intros q t Q H. apply (Local.least_before (mode_of o) q t Q). intro w. destruct (H w) as (a & b & A & B & C).
    apply U in A, B, C. now rewrite <- C, A, B.
  - exists (u "chya"). intros p r Q H. apply (Local.least_after (mode_of o) p r Q). intro w. destruct (H w) as (a & b & A & B & C).
    apply U in A, B, C. now rewrite <- C, A, B.
  - intros I n. exists (repeat (ch "n") n ++ u "a"). intros p r Q H. apply (least_ime n p r Q). intro w. destruct (H w) as (a & b & A & B & C).
    apply U in A, B, C. rewrite I in *. now rewrite <- C, A, B.
Qed.

Lemma C94_scripts_unbounded_proof :
  forall E, std_ok E -> forall o, pass_romaji o = false ->
    (forall n, exists y, forall p r, y = p ++ r ->
       (forall w, exists b c, to_katakana_with_opt E (w ++ p) o = Ok b /\ to_katakana_with_opt E r o = Ok c /\
          to_katakana_with_opt E (w ++ y) o = Ok (b ++ c)) -> (n <= length p)%nat) /\
    (forall n, exists y, forall p r, y = p ++ r ->
       (forall w, exists b c, to_hiragana_with_opt E (w ++ p) o = Ok b /\ to_hiragana_with_opt E r o = Ok c /\
          to_hiragana_with_opt E (w ++ y) o = Ok (b ++ c)) -> (n <= length p)%nat).
Proof.
  intros E HE o P. split; intro n; exists (kan n); intros p r Q H; (destruct (Nat.leb n (length p)) eqn:L; [now apply Nat.leb_le|]); exfalso; apply Nat.leb_gt in L;
    destruct (kan_cut n p r Q L) as (j & i & -> & ->).
  - destruct (H [ch "あ"]) as (b & c & B & C & D). rewrite Q in D.
    destruct (C91_katakana_in_parts_proof E HE o [[ch "あ"] ++ repeat (ch "漢") j; kan (S i)]) as (r & rs & R1 & F & _ & X & _).
    { constructor; [discriminate|]. constructor; [discriminate|constructor]. }
    cbn [concat] in R1, X. rewrite app_nil_r, <- app_assoc in R1, X. rewrite R1 in D. apply ok_inj in D. subst r.
    inversion F as [|? b' ? rs1 B' F1]; subst. inversion F1 as [|? c' ? rs2 C' F2]; subst. inversion F2; subst.
    pose proof (ok_inj _ _ (eq_trans (eq_sym B) B')) as Eb. pose proof (ok_inj _ _ (eq_trans (eq_sym C) C')) as Ec. subst b' c'.
    assert (K : katakana_reads ([ch "あ"] ++ repeat (ch "漢") j ++ kan (S i))).
    { right. split; [exists (ch "あ"); split; [now left|left; vm_compute; intuition discriminate]|]. exists (ch "k"). split; [|left; vm_compute; discriminate].
      apply in_or_app. right. apply in_or_app. right. unfold kan. apply in_or_app. right. now left. }
    destruct (proj1 (X P K)) as [_ Z]; [cbn [concat]; now rewrite app_nil_r|]. destruct (Z [[ch "あ"] ++ repeat (ch "漢") j] (kan (S i)) [] eq_refl) as [_ Z'].
    destruct Z' as [_ Z']; [|exact (kan_not_spared _ _ Z')]. intros [A|[A _]]; [exact (kan_not_romaji _ A)|exact (kan_no_kana _ A)].
  - destruct (H [ch "!"]) as (b & c & B & C & D). rewrite Q in D.
    destruct (C92_hiragana_in_parts_proof E HE o [[ch "!"] ++ repeat (ch "漢") j; kan (S i)]) as (r & rs & hs & R1 & F & _ & _ & _ & X & _).
    { constructor; [discriminate|]. constructor; [discriminate|constructor]. }
    cbn [concat] in R1, X. rewrite app_nil_r, <- app_assoc in R1, X. rewrite R1 in D. apply ok_inj in D. subst r.
    inversion F as [|? b' ? rs1 B' F1]; subst. inversion F1 as [|? c' ? rs2 C' F2]; subst. inversion F2; subst.
    pose proof (ok_inj _ _ (eq_trans (eq_sym B) B')) as Eb. pose proof (ok_inj _ _ (eq_trans (eq_sym C) C')) as Ec. subst b' c'.
    assert (K : ~ mixed_text ([ch "!"] ++ repeat (ch "漢") j ++ kan (S i))).
    { intros [(x & I & K) _]. assert (Ix : In x (u "!漢ka")).
      { apply in_app_or in I. destruct I as [[<-|[]]|I]; [now left|]. right. apply in_app_or in I. destruct I as [I|I]; [apply repeat_spec in I; subst x; now left|now apply kan_chars in I]. }
      change (u "!漢ka") with [0x21; 0x6F22; 0x6B; 0x61] in Ix. unfold S_hiragana, S_katakana, between in K. cbn [In] in Ix. lia. }
    assert (K' : hiragana_reads ([ch "!"] ++ repeat (ch "漢") j ++ kan (S i))).
    { right. exists (ch "!"), (repeat (ch "漢") j ++ kan (S i)). split; [reflexivity|]. apply en_punct_spec. vm_compute. reflexivity. }
    destruct (proj1 (X P K K')) as [_ [_ Z]]; [cbn [concat]; now rewrite app_nil_r|]. destruct (Z [[ch "!"] ++ repeat (ch "漢") j] (kan (S i)) [] eq_refl) as [_ Z'].
    destruct Z' as [_ Z']; [|exact (kan_not_spared _ _ Z')]. intros [A|(x & y & A & A')]; [exact (kan_not_romaji _ A)|].
    injection A as <- _. apply en_punct_spec in A'. vm_compute in A'. discriminate.
Qed.

Lemma C95_local_romaji_proof :
  forall E, std_ok E -> forall o, upcase_katakana o = false -> forall x y, exists q t p r,
    x = q ++ t /\ (others t <= 3)%nat /\ y = p ++ r /\ (others p <= 2)%nat /\
    forall w, exists a b c, to_romaji_with_opt E q o = Ok a /\ to_romaji_with_opt E (t ++ w ++ p) o = Ok b /\
      to_romaji_with_opt E r o = Ok c /\ to_romaji_with_opt E (x ++ w ++ y) o = Ok (a ++ b ++ c).
Proof.
  intros E HE o Up x y. destruct (local_romaji E HE o Up x y) as (q & t & p & r & Qx & Lt & Qy & Lp & H).
  exists q, t, p, r. repeat (split; [assumption|]). intro w. do 3 eexists. rewrite !(rom_ok E HE o).
  split; [reflexivity|]. split; [reflexivity|]. split; [reflexivity|]. now rewrite H.
Qed.

Lemma C95_least_proof :
  forall E, std_ok E -> forall o, upcase_katakana o = false ->
    (exists x, forall q t, x = q ++ t ->
       (forall w, exists a b, to_romaji_with_opt E q o = Ok a /\ to_romaji_with_opt E (t ++ w) o = Ok b /\
          to_romaji_with_opt E (x ++ w) o = Ok (a ++ b)) -> (3 <= others t)%nat) /\
    (exists y, forall p r, y = p ++ r ->
       (forall w, exists b c, to_romaji_with_opt E (w ++ p) o = Ok b /\ to_romaji_with_opt E r o = Ok c /\
          to_romaji_with_opt E (w ++ y) o = Ok (b ++ c)) -> (2 <= others p)%nat) /\
    (forall n, exists x, forall q t, x = q ++ t ->
       (forall w, exists a b, to_romaji_with_opt E q o = Ok a /\ to_romaji_with_opt E (t ++ w) o = Ok b /\
          to_romaji_with_opt E (x ++ w) o = Ok (a ++ b)) -> (n <= length t)%nat) /\
    (forall n, exists y, forall p r, y = p ++ r ->
       (forall w, exists b c, to_romaji_with_opt E (w ++ p) o = Ok b /\ to_romaji_with_opt E r o = Ok c /\
          to_romaji_with_opt E (w ++ y) o = Ok (b ++ c)) -> (n <= length p)%nat).
Proof.
  intros E HE o Up.
  assert (U : forall s a, to_romaji_with_opt E s o = Ok a -> a = rom E o s).
  { intros s a H. rewrite (rom_ok E HE o) in H. symmetry. now apply ok_inj. }
  split; [|split; [|split]].
  - exists (u "ッキャ"). intros q t Q H. apply (LocalRomaji.least_before E HE o Up q t Q). intro w. destruct (H w) as (a & b & A & B & C).
    apply U in A, B, C. now rewrite <- C, A, B.
  - exists (u "キャ"). intros p r Q H. apply (LocalRomaji.least_after E HE o Up p r Q). intro w. destruct (H w) as (a & b & A & B & C).
    apply U in A, B, C. now rewrite <- C, A, B.
  - intro n. exists (ch "カ" :: repeat long_mark n). intros q t Q H. apply (marks_before E HE o Up n q t Q). intro w. destruct (H w) as (a & b & A & B & C).
    apply U in A, B, C. now rewrite <- C, A, B.
  - intro n. exists (repeat long_mark n). intros p r Q H. apply (marks_after E HE o Up n p r Q). intro w. destruct (H w) as (a & b & A & B & C).
    apply U in A, B, C. now rewrite <- C, A, B.
Qed.

Lemma C95_upper_unbounded_proof :
  forall E, std_ok E -> forall o, upcase_katakana o = true -> forall n, exists y, forall p r, y = p ++ r ->
    (forall w, exists b c, to_romaji_with_opt E (w ++ p) o = Ok b /\ to_romaji_with_opt E r o = Ok c /\
       to_romaji_with_opt E (w ++ y) o = Ok (b ++ c)) -> (n <= others p)%nat.
Proof.
  intros E HE o U n. exists (row (S n)). intros p r Q H. destruct r as [|e r].
  - rewrite app_nil_r in Q. subst p. pose proof (row_others [] (S n)) as L. cbn [app] in L. rewrite L. lia.
  - exfalso. destruct (H (u "ッー漢")) as (b & c & _ & Hc & Hy). rewrite to_romaji_with_opt_eq in Hc, Hy by exact HE. rewrite U in Hc, Hy.
    destruct (end_shifted E HE n) as (z & Z). rewrite Z in Hy. destruct (end_unshifted E HE (S n) p (e :: r) Q) as (z' & Z'); [discriminate|]. rewrite Z' in Hc.
    apply ok_inj in Hc, Hy. subst c. rewrite app_assoc in Hy. apply app_inj_tail in Hy. destruct Hy as [_ Hy]. discriminate Hy.
Qed.
