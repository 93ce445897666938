(** * Proofs of the theorems of Props_Bytes.v *)
From Coq Require Import PeanoNat.
From Verif Require Import Tac Base Std StdInstances Convert KanaPure RomajiPure KanaSpec KanaDict KanaProofs Splits ScriptSpec
  ScriptProofs RomajiSpec RomajiProofs MoraProofs Strings BytesSpec Bytes Alloc AllocSpec AllocProofs Results_Romaji.

Lemma kana_conv E o s : std_ok E -> to_kana_with_opt E s o = Ok (conv (mode_of o) s).
Proof. intro HE. rewrite to_kana_with_opt_eq by exact HE. now rewrite k_tree_mode. Qed.
Lemma times_S n w : times (S n) w = w ++ times n w.
Proof. reflexivity. Qed.
Lemma times_bytes n w : bytes (times n w) = (n * bytes w)%nat.
Proof. induction n as [|n IH]; [reflexivity|]. rewrite times_S, bytes_app, IH. cbn. lia. Qed.
Lemma conv_times m w d v n : ~ In (ascii_lower d) (u "bcdfghjklmnpqrstvwxyz") -> conv m (w ++ [d]) = v ->
  conv m (times n (w ++ [d])) = times n v.
Proof.
  intros H Q. induction n as [|n IH]; [reflexivity|]. rewrite !times_S, conv_split_after by exact H. now rewrite Q, IH.
Qed.
Lemma rom_times E up n : std_ok E -> rconv E up (times n (u "し")) (k2h E true (times n (u "し"))) = times n (u "shi").
Proof.
  intro HE. assert (S : standard (Syl (u "し") (u "shi"))) by (apply pair_mem_In; vm_compute; reflexivity).
  assert (K : times n (u "し") = kana_text (repeat (Syl (u "し") (u "shi")) n)) by (induction n as [|n IH]; [reflexivity|]; rewrite times_S, IH; reflexivity).
  rewrite K, romaji_of_hiragana; [|exact HE|].
  - clear K. induction n as [|n IH]; [reflexivity|]. cbn [repeat hepburn]. now rewrite IH.
  - apply Forall_forall. intros m I. apply repeat_spec in I. now subst m.
Qed.

Lemma C96_bytes_proof :
  forall E, std_ok E -> forall s o,
    (forall t, to_romaji_with_opt E s o = Ok t -> (bytes t <= bytes s)%nat) /\
    (forall t, to_kana_with_opt E s o = Ok t -> (bytes t <= 3 * bytes s /\ 3 * bytes s <= 4 * bytes t)%nat) /\
    (single_lower E ->
       (forall t, to_hiragana_with_opt E s o = Ok t -> (bytes t <= 3 * bytes s)%nat) /\
       (forall t, to_katakana_with_opt E s o = Ok t -> (bytes t <= 3 * bytes s)%nat)) /\
    (ascii_or_caseless s -> forall t, to_katakana_with_opt E s o = Ok t -> (3 * bytes s <= 4 * bytes t)%nat).
Proof.
  intros E HE s o. split; [intros t T; apply rom_iff in T; [|exact HE]; subst t; now apply rom_bytes|].
  split; [intros t T; rewrite kana_conv in T by exact HE; injection T as <-; apply conv_bytes|].
  rewrite to_hiragana_with_opt_eq, to_katakana_with_opt_eq by exact HE. split.
  - intro U. destruct (script_bytes_all E o s HE U) as [A B]. split; intros t [= <-]; assumption.
  - intros A t [= <-]. now apply script_bytes.
Qed.

Lemma C96_least_proof :
  forall E, std_ok E -> forall o n,
    to_romaji_with_opt E (times n (u "し")) o = Ok (times n (u "shi")) /\ bytes (times n (u "shi")) = bytes (times n (u "し")) /\
    to_kana_with_opt E (times n (u "a")) o = Ok (times n (u "あ")) /\ bytes (times n (u "あ")) = (3 * bytes (times n (u "a")))%nat /\
    to_kana_with_opt E (times n (u "xtsu")) o = Ok (times n (u "っ")) /\ (4 * bytes (times n (u "っ")) = 3 * bytes (times n (u "xtsu")))%nat /\
    to_hiragana_with_opt E (u "ッ" ++ times n (u "ー")) o = Ok (u "っ") /\ bytes (times n (u "ー")) = (3 * n)%nat.
Proof.
  intros E HE o n. split; [apply rom_iff; [exact HE|]; symmetry; now apply rom_times|]. split; [now rewrite !times_bytes|].
  rewrite !kana_conv by exact HE.
  split; [f_equal; apply (conv_times _ [] (ch "a")); [vm_compute; intuition discriminate|destruct (mode_of o); vm_compute; reflexivity]|].
  split; [rewrite !times_bytes; change (bytes (u "あ")) with 3%nat; change (bytes (u "a")) with 1%nat; lia|].
  split; [f_equal; apply (conv_times _ (u "xts") (ch "u")); [vm_compute; intuition discriminate|destruct (mode_of o); vm_compute; reflexivity]|].
  split; [rewrite !times_bytes; change (bytes (u "っ")) with 3%nat; change (bytes (u "xtsu")) with 4%nat; lia|].
  split; [|rewrite times_bytes; change (bytes (u "ー")) with 3%nat; lia].
  rewrite to_hiragana_with_opt_eq by exact HE. f_equal.
  assert (W : u "ッ" ++ times n (u "ー") = word_katakana [(ch "ッ", ch "っ", [], n)]).
  { cbn [word_katakana flat_map]. rewrite app_nil_r. change (u "ッ") with [ch "ッ"]. cbn [app]. f_equal. induction n as [|n IH]; [reflexivity|]. rewrite times_S, IH. reflexivity. }
  rewrite W, hira_word; [|exact HE| |].
  - cbn [word_hiragana flat_map]. rewrite app_nil_r. clear. change (u "っ") with [ch "っ"]. f_equal. induction n; [reflexivity|assumption].
  - constructor; [|constructor]. split; [apply k2hc_spec; vm_compute; reflexivity|]. exists (u "ッン"). split; [vm_compute; tauto|now left].
  - cbn [word_katakana flat_map]. rewrite app_nil_r. intros [Q|I]; [discriminate Q|]. apply repeat_spec in I. discriminate I.
Qed.

Lemma C97_buffers_proof :
  forall gc gb E, std_ok E -> forall s o,
    (exists b t, to_romaji_alloc gc gb E s o = Ok b /\ to_romaji_with_opt E s o = Ok t /\ never_grown b t (bytes s)) /\
    (doubles gb ->
      (exists b t, to_kana_alloc gb E s o = Ok b /\ to_kana_with_opt E s o = Ok t /\ contents b = t /\
         (grown b <= 2)%nat /\ (grown b = 0%nat <-> (bytes t <= bytes s)%nat) /\ (bytes t <= 2 * bytes s -> grown b <= 1)%nat) /\
      (forall d, exists v b t, katakana_to_hiragana_alloc gc gb E s d = Ok (v, b) /\ katakana_to_hiragana_with_opt E s d = Ok t /\
         never_grown v t (length s) /\ contents b = t /\ (grown b <= 2)%nat) /\
      (exists v b t, hiragana_to_katakana_alloc gc gb s = Ok (v, b) /\ hiragana_to_katakana s = Ok t /\
         contents v = t /\ contents b = t /\ (grown b <= 2)%nat)).
Proof.
  intros gc gb E HE s o. split; [now apply romaji_alloc|]. intro D. split; [now apply kana_alloc|]. split; [intro d; now apply k2h_alloc|now apply h2k_alloc].
Qed.

Lemma C97_doubling_proof :
  forall gb s, exists v b, hiragana_to_katakana_alloc (amortized 4) gb s = Ok (v, b) /\
    (grown v = 0%nat <-> s = []) /\ (s <> [] -> length s <= 2 ^ (grown v + 1))%nat /\ (1 < grown v -> 2 ^ grown v < length s)%nat.
Proof.
  intros gb s. apply h2k_grown.
Qed.
