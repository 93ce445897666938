(** * Lengths in bytes (C96) *)
From Coq Require Import PeanoNat.
From Verif Require Import Tac Base Std Constants Chars Trees KanaTree RomajiTree Strings Convert
  KanaPure RomajiPure KanaSpec KanaDict KanaProofs ScriptSpec RomajiSpec ScriptProofs RomajiProofs Utf8Proofs BytesSpec
  StdInstances Unicode14.

Lemma bytes_nil : bytes [] = 0%nat.
Proof. reflexivity. Qed.
Lemma bytes_cons c s : bytes (c :: s) = (len_utf8 c + bytes s)%nat.
Proof. unfold bytes, encode. cbn [flat_map]. now rewrite app_length, encode_length. Qed.
Lemma bytes_app s t : bytes (s ++ t) = (bytes s + bytes t)%nat.
Proof. unfold bytes, encode. now rewrite flat_map_app, app_length. Qed.
Lemma bytes_map f s : (forall c, len_utf8 (f c) = len_utf8 c) -> bytes (map f s) = bytes s.
Proof. intro H. induction s as [|c s IH]; [reflexivity|]. cbn [map]. now rewrite !bytes_cons, H, IH. Qed.

Lemma width c w : len_utf8 c = w <->
  (c < 0x80 /\ w = 1%nat) \/ (0x80 <= c < 0x800 /\ w = 2%nat) \/ (0x800 <= c < 0x10000 /\ w = 3%nat) \/ (0x10000 <= c /\ w = 4%nat).
Proof. unfold len_utf8. ifs; lia. Qed.
Lemma width_lower c : len_utf8 (ascii_lower c) = len_utf8 c.
Proof. unfold ascii_lower. destruct (_ && _) eqn:G; [|reflexivity]. apply width. pose proof (proj1 (width c _) eq_refl). lia. Qed.
Lemma width_upper c : len_utf8 (ascii_upper c) = len_utf8 c.
Proof. unfold ascii_upper. destruct (_ && _) eqn:G; [|reflexivity]. apply width. pose proof (proj1 (width c _) eq_refl). lia. Qed.
Lemma width_h2k c : len_utf8 (h2k_char c) = len_utf8 c.
Proof.
  assert (Q : katakana_for c (h2k_char c)) by now apply h2k_char_spec. unfold katakana_for in Q.
  apply width. pose proof (proj1 (width c _) eq_refl). lia.
Qed.
Lemma width_k2h c : len_utf8 (k2hc c) = len_utf8 c.
Proof.
  assert (Q : hiragana_for c (k2hc c)) by now apply k2hc_spec. unfold hiragana_for in Q. symspec.
  apply width. pose proof (proj1 (width c _) eq_refl). lia.
Qed.

(** ** to_kana *)
Lemma emit_bytes seg v : bytes (emit seg v) = bytes v.
Proof. unfold emit, h2k. destruct (forallb is_AZ seg); [apply bytes_map, width_h2k|reflexivity]. Qed.
Lemma low_bytes s : bytes (low s) = bytes s.
Proof. apply bytes_map, width_lower. Qed.
Lemma entry_bytes m k v : entry m k v -> (bytes v <= 3 * bytes k /\ 3 * bytes k <= 4 * bytes v)%nat.
Proof.
  assert (H : forallb (fun e => Nat.leb (bytes (snd e)) (3 * bytes (fst e)) && Nat.leb (3 * bytes (fst e)) (4 * bytes (snd e))) (dict m) = true)
    by (destruct m; vm_compute; reflexivity).
  rewrite forallb_forall in H. intro I. specialize (H _ I). cbn [fst snd] in H.
  apply andb_prop in H. destruct H as [A B]. apply Nat.leb_le in A, B. now split.
Qed.
Lemma conv_bytes m : forall s, (bytes (conv m s) <= 3 * bytes s /\ 3 * bytes s <= 4 * bytes (conv m s))%nat.
Proof.
  induction s as [s IH] using str_ind_len. destruct s as [|a s]; [rewrite kconv_nil, bytes_nil; lia|].
  destruct (kconv_step m a s) as [(seg & rest & n & v & Sp & N & K & A & O & R & ->)|[O ->]].
  - rewrite Sp, !bytes_app, emit_bytes.
    assert (L : entry m (low seg) v) by (apply entry_node; eauto). apply entry_bytes in L. rewrite low_bytes in L.
    assert (length rest < length (a :: s))%nat
      by (rewrite Sp, app_length; destruct seg; [congruence|]; cbn; lia).
    specialize (IH rest H). lia.
  - rewrite !bytes_cons. specialize (IH s ltac:(cbn; lia)). lia.
Qed.

(** ** to_romaji *)
Lemma remit_bytes up oseg v : bytes (remit up oseg v) = bytes v.
Proof. unfold remit. destruct (_ && _); [apply bytes_map, width_upper|reflexivity]. Qed.
Lemma r_entry_bytes k v : r_entry k v -> (bytes v <= bytes k)%nat.
Proof.
  assert (H : forallb (fun e => Nat.leb (bytes (snd e)) (bytes (fst e))) rdict = true) by (vm_compute; reflexivity).
  rewrite forallb_forall in H. intro I. specialize (H _ I). cbn [fst snd] in H. apply Nat.leb_le in H. exact H.
Qed.
Lemma rconv_bytes E up : std_ok E -> forall s o, (bytes (rconv E up o s) <= bytes s)%nat.
Proof.
  intro HE. induction s as [s IH] using str_ind_len. intro o. destruct s as [|c s]; [rewrite rconv_nil; lia|].
  destruct (rconv_step E up o c s HE) as [(seg & rest & v & Sp & Ns & I & M & ->)|[O ->]].
  - rewrite Sp, !bytes_app, remit_bytes. pose proof (r_entry_bytes seg v I).
    specialize (IH rest). rewrite Sp, app_length in IH. destruct seg as [|d seg]; [congruence|]. cbn [length] in *.
    specialize (IH ltac:(lia) (skipn (S (length seg)) o)). lia.
  - rewrite !bytes_cons. specialize (IH s ltac:(cbn; lia) (skipn 1 o)). lia.
Qed.

(** ** Katakana to hiragana: every character yields none or one of its own width *)
Lemma vowel_bytes E d pc pk c : is_char_long_dash c = true -> (bytes (k2h_vowel E d pc pk c) <= len_utf8 c)%nat.
Proof.
  intro L. assert (W : len_utf8 c = 3%nat) by (apply N.eqb_eq in L; subst c; reflexivity).
  unfold k2h_vowel. destruct (rfind E RT pk) as [n|]; [|rewrite bytes_cons, bytes_nil; lia].
  destruct (last_char (rout n)) as [r|]; [|rewrite bytes_nil; lia].
  destruct (_ && d); [rewrite W; apply Nat.leb_le; reflexivity|].
  destruct (LONG_VOWELS r) as [x|] eqn:V; [|rewrite bytes_nil; lia].
  unfold LONG_VOWELS in V. rewrite W. revert V. ifs; intro V; inversion V; subst x; apply Nat.leb_le; reflexivity.
Qed.
Lemma k2h_go_bytes E d s : forall pc pk, (bytes (k2h_go E d pc pk s) <= bytes s)%nat.
Proof.
  induction s as [|c s IH]; intros pc pk; cbn [k2h_go]; [lia|]. rewrite (bytes_cons c s).
  destruct (is_char_slash_dot c) eqn:S1; cbn [orb]; [rewrite bytes_cons; specialize (IH (Some c) pk); lia|].
  destruct (is_kana_as_symbol c) eqn:S2; [rewrite orb_true_r, bytes_cons; specialize (IH (Some c) pk); lia|]. rewrite orb_false_r.
  destruct (is_char_long_dash c && is_none pc); [rewrite bytes_cons; specialize (IH (Some c) pk); lia|].
  assert (X : (bytes (if negb (is_char_long_dash c) && is_char_katakana c
        then hira_of_kata c :: k2h_go E d (Some c) (Some (hira_of_kata c)) s
        else c :: k2h_go E d (Some c) None s) <= len_utf8 c + bytes s)%nat).
  { destruct (negb (is_char_long_dash c) && is_char_katakana c) eqn:B; rewrite bytes_cons; [|specialize (IH (Some c) None); lia].
    apply andb_prop in B. destruct B as [B1 B2]. apply negb_true_iff in B1.
    assert (Q : k2hc c = hira_of_kata c) by (unfold k2hc; now rewrite S1, S2, B1, B2).
    rewrite <- Q, width_k2h. specialize (IH (Some c) (Some (k2hc c))). lia. }
  destruct pc as [q|]; [|exact X]. destruct pk as [p|]; [|exact X].
  destruct (is_char_long_dash c) eqn:L; [|exact X].
  rewrite bytes_app. pose proof (vowel_bytes E d q p c L). specialize (IH (Some c) (Some p)). lia.
Qed.
Lemma k2h_bytes E d s : (bytes (k2h E d s) <= bytes s)%nat.
Proof. apply k2h_go_bytes. Qed.
Lemma rom_bytes E up s : std_ok E -> (bytes (rconv E up s (k2h E true s)) <= bytes s)%nat.
Proof. intro HE. etransitivity; [now apply rconv_bytes|apply k2h_bytes]. Qed.

(** ** The conversions to one script *)
Lemma lower_from_bytes E s : std_ok E -> (forall c, In c s -> c < 128 \/ caseless c = true) ->
  forall b, bytes (to_lowercase_from E b s) = bytes s.
Proof.
  intros HE. induction s as [|c s IH]; intros H b; [reflexivity|]. cbn [to_lowercase_from]. rewrite bytes_app, bytes_cons.
  rewrite IH by (intros x I; apply H; now right). destruct (c =? SIGMA) eqn:Q.
  - apply N.eqb_eq in Q. subst c. destruct (_ && _); reflexivity.
  - destruct (H c (or_introl eq_refl)) as [A|A].
    + rewrite (ok_lower_ascii E HE c A), bytes_cons, bytes_nil, width_lower. lia.
    + rewrite (ok_lower_caseless E HE c A), bytes_cons, bytes_nil. lia.
Qed.
(** an ASCII character may become a kana, of 3 bytes *)
Definition weight (c : char) : nat := if c <? 0x80 then 3%nat else len_utf8 c.
Fixpoint weights (s : str) : nat := match s with [] => 0%nat | c :: s' => (weight c + weights s')%nat end.
Lemma weights_app s t : weights (s ++ t) = (weights s + weights t)%nat.
Proof. induction s as [|c s IH]; [reflexivity|]. cbn. rewrite IH. lia. Qed.
Lemma weight_width c : (len_utf8 c <= weight c)%nat.
Proof. unfold weight, len_utf8. ifs; lia. Qed.
Lemma weight_lower c : weight (ascii_lower c) = weight c.
Proof. unfold weight. rewrite width_lower. unfold ascii_lower. destruct (_ && _) eqn:G; [|reflexivity]. replace (c <? 0x80) with true by lia. replace (c + 32 <? 0x80) with true by lia. reflexivity. Qed.
Lemma low_weights s : weights (low s) = weights s.
Proof. induction s as [|c s IH]; [reflexivity|]. cbn. now rewrite weight_lower, <- IH. Qed.
Lemma entry_weights m k v : entry m k v -> (bytes v <= weights k)%nat.
Proof.
  assert (H : forallb (fun e => Nat.leb (bytes (snd e)) (weights (fst e))) (dict m) = true)
    by (destruct m; vm_compute; reflexivity).
  rewrite forallb_forall in H. intro I. specialize (H _ I). cbn [fst snd] in H. apply Nat.leb_le in H. exact H.
Qed.
Lemma conv_weights m : forall s, (bytes (conv m s) <= weights s)%nat.
Proof.
  induction s as [s IH] using str_ind_len. destruct s as [|a s]; [rewrite kconv_nil, bytes_nil; lia|].
  destruct (kconv_step m a s) as [(seg & rest & n & v & Sp & N & K & A & O & R & ->)|[O ->]].
  - rewrite Sp, bytes_app, weights_app, emit_bytes.
    assert (L : entry m (low seg) v) by (apply entry_node; eauto). apply entry_weights in L. rewrite low_weights in L.
    assert (length rest < length (a :: s))%nat
      by (rewrite Sp, app_length; destruct seg; [congruence|]; cbn; lia).
    specialize (IH rest H). lia.
  - rewrite bytes_cons. cbn [weights]. pose proof (weight_width a). specialize (IH s ltac:(cbn; lia)). lia.
Qed.
Lemma lower_char_weights E c : std_ok E -> single_lower E -> (weights (lower_char E c) <= 3 * len_utf8 c)%nat.
Proof.
  intros HE U. destruct (N.eq_dec c 0x130) as [->|C]; [rewrite (ok_lower_dotted_i E HE); vm_compute; lia|].
  destruct (c <? 0x80) eqn:A.
  - rewrite (ok_lower_ascii E HE c ltac:(lia)). cbn [weights]. rewrite weight_lower. unfold weight, len_utf8. rewrite A. lia.
  - specialize (U c C). destruct (lower_char E c) as [|d [|e l]]; try discriminate U. cbn [weights].
    unfold weight. unfold len_utf8 at 2. rewrite A. unfold len_utf8. ifs; lia.
Qed.
Lemma lower_from_weights E s : std_ok E -> single_lower E -> forall b, (weights (to_lowercase_from E b s) <= 3 * bytes s)%nat.
Proof.
  intros HE U. induction s as [|c s IH]; intro b; [cbn; lia|]. cbn [to_lowercase_from]. rewrite weights_app, bytes_cons. specialize (IH (c :: b)).
  destruct (c =? SIGMA) eqn:Q; [|pose proof (lower_char_weights E c HE U); lia].
  apply N.eqb_eq in Q. subst c. change (len_utf8 SIGMA) with 2%nat. destruct (_ && _); [change (weights [0x3C2]) with 2%nat|change (weights [0x3C3]) with 2%nat]; lia.
Qed.
Lemma script_bytes_all E o s : std_ok E -> single_lower E ->
  (bytes (hira_pure E o s) <= 3 * bytes s)%nat /\ (bytes (kata_pure E o s) <= 3 * bytes s)%nat.
Proof.
  intros HE U.
  assert (K : forall t, (bytes (kconv (k_tree o) (to_lowercase E t)) <= 3 * bytes t)%nat).
  { intro t. rewrite k_tree_mode. etransitivity; [apply conv_weights|]. now apply lower_from_weights. }
  pose proof (k2h_bytes E false s) as L. split.
  - unfold hira_pure. destruct (pass_romaji o); [lia|]. destruct (is_mixed s).
    + pose proof (K (k2h E false s)) as G. lia.
    + destruct (_ || _); [apply K|lia].
  - unfold kata_pure, h2k. destruct (pass_romaji o); [rewrite (bytes_map _ _ width_h2k); lia|].
    destruct (_ || _); rewrite (bytes_map _ _ width_h2k); [apply K|lia].
Qed.
Lemma unicode14_single bs : single_lower (unicode14_std bs).
Proof.
  intros c C. cbn [lower_char unicode14_std]. destruct (map_char_cases lower_ranges lower_multi c) as [(l & I & ->)|[(a & b & s & p & q & _ & _ & ->)| ->]]; try reflexivity.
  revert I. unfold lower_multi. cbn [In]. intros [I|[]]. congruence.
Qed.

Lemma script_bytes E o s : std_ok E -> (forall c, In c s -> c < 128 \/ caseless c = true) ->
  (bytes (hira_pure E o s) <= 3 * bytes s)%nat /\
  (bytes (kata_pure E o s) <= 3 * bytes s /\ 3 * bytes s <= 4 * bytes (kata_pure E o s))%nat.
Proof.
  intros HE H.
  assert (K : forall t, (forall c, In c t -> c < 128 \/ caseless c = true) ->
     (bytes (kconv (k_tree o) (to_lowercase E t)) <= 3 * bytes t /\ 3 * bytes t <= 4 * bytes (kconv (k_tree o) (to_lowercase E t)))%nat).
  { intros t Ht. rewrite k_tree_mode. rewrite <- (lower_from_bytes E t HE Ht []). apply conv_bytes. }
  pose proof (k2h_bytes E false s) as L. split.
  - unfold hira_pure. destruct (pass_romaji o); [lia|]. destruct (is_mixed s).
    + pose proof (K (k2h E false s)) as G. destruct G as [G _]; [intros c I; eapply k2h_case; eauto|]. lia.
    + destruct (_ || _); [apply K, H|lia].
  - unfold kata_pure, h2k. destruct (pass_romaji o); [rewrite (bytes_map _ _ width_h2k); lia|].
    destruct (_ || _); rewrite (bytes_map _ _ width_h2k); [apply K, H|lia].
Qed.
