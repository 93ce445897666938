(** * Repeated to_hiragana and to_katakana (C64) *)
From Verif Require Import Tac Base Std Constants Chars Trees KanaTree RomajiTree Strings Convert
  KanaPure RomajiPure KanaSpec KanaDict KanaProofs Predicates ScriptSpec ScriptProofs.

Definition no_katakana (s : str) : Prop :=
  forall c, In c s -> ~ katakana_letter c \/ c = 0x30F5 \/ c = 0x30F6.

(** ** Romaji, kana and the two letter maps *)
Lemma romaji_small c : S_romaji c -> c < 0x3041.
Proof.
  unfold S_romaji. change (u "ĀāĒēĪīŌōŪū") with [256;257;274;275;298;299;332;333;362;363].
  cbn [In]. lia.
Qed.
Lemma en_punct_small c : S_en_punct c -> c < 0x3041.
Proof.
  unfold S_en_punct.
  match goal with |- In _ ?l -> _ => let x := eval vm_compute in l in change l with x end.
  cbn [In]. lia.
Qed.
Definition kana (c : N) : Prop := S_hiragana c \/ S_katakana c.
Lemma kana_large c : kana c -> 0x3041 <= c.
Proof. unfold kana, S_hiragana, S_katakana, between. lia. Qed.
Lemma h2k_char_cases c : h2k_char c = c \/ (hiragana_letter c /\ h2k_char c = c + 96).
Proof.
  assert (H : katakana_for c (h2k_char c)) by now apply h2k_char_spec.
  unfold katakana_for, hiragana_letter in *. lia.
Qed.
Lemma k2hc_cases c : k2hc c = c \/ (katakana_letter c /\ hiragana_letter (k2hc c)).
Proof.
  assert (H : hiragana_for c (k2hc c)) by now apply k2hc_spec.
  unfold hiragana_for, katakana_letter, hiragana_letter in *. symspec. lia.
Qed.
Lemma h2k_char_kana c : kana (h2k_char c) <-> kana c.
Proof.
  destruct (h2k_char_cases c) as [->|[H ->]]; [tauto|].
  unfold kana, S_hiragana, S_katakana, between, hiragana_letter in *. lia.
Qed.
Lemma k2hc_kana c : kana (k2hc c) <-> kana c.
Proof.
  destruct (k2hc_cases c) as [->|[H K]]; [tauto|].
  unfold kana, S_hiragana, S_katakana, between, hiragana_letter, katakana_letter in *. lia.
Qed.
Lemma h2k_char_low (P : N -> Prop) c : (forall x, P x -> x < 0x3041) -> P (h2k_char c) <-> P c.
Proof.
  intro L. destruct (h2k_char_cases c) as [->|[H ->]]; [tauto|].
  unfold hiragana_letter in H. split; intro K; apply L in K; lia.
Qed.
Lemma k2hc_low (P : N -> Prop) c : (forall x, P x -> x < 0x3041) -> P (k2hc c) <-> P c.
Proof.
  intro L. destruct (k2hc_cases c) as [->|[H K]]; [tauto|].
  unfold katakana_letter, hiragana_letter in *. split; intro Q; apply L in Q; lia.
Qed.

(** ** to_katakana *)
Lemma h2k_h2k s : h2k (h2k s) = h2k s.
Proof.
  unfold h2k. rewrite map_map. apply map_ext. intro c.
  assert (H : katakana_for (h2k_char c) (h2k_char (h2k_char c))) by now apply h2k_char_spec.
  assert (K : katakana_for c (h2k_char c)) by now apply h2k_char_spec.
  unfold katakana_for in *. lia.
Qed.
Lemma h2k_mixed s : is_mixed (h2k s) = is_mixed s.
Proof.
  apply eq_true_iff_eq. rewrite !mixed_spec. unfold mixed_text, has. fold kana. unfold h2k.
  split; intros [(a & A & A') (b & B & B')].
  - apply in_map_iff in A, B. destruct A as (x & <- & A), B as (y & <- & B).
    split; [exists x|exists y]; (split; [assumption|]); [now apply h2k_char_kana|].
    now apply (h2k_char_low S_romaji y romaji_small).
  - split; [exists (h2k_char a)|exists (h2k_char b)]; (split; [now apply in_map|]); [now apply h2k_char_kana|].
    now apply (h2k_char_low S_romaji b romaji_small).
Qed.
Lemma h2k_romaji s : is_romaji (h2k s) = is_romaji s.
Proof.
  apply eq_true_iff_eq. rewrite !romaji_text_spec. unfold all_nonempty, h2k. split; intros [A B].
  - split; [now intros ->|]. intros c I. apply (h2k_char_low S_romaji c romaji_small). now apply B, in_map.
  - split; [intro Z; now apply map_eq_nil in Z|]. intros c I. apply in_map_iff in I.
    destruct I as (x & <- & I). apply (h2k_char_low S_romaji x romaji_small). auto.
Qed.

(** writing kana in the other script does not change what is converted *)
Lemma kana_letter_in_no_key m c : 0x3041 <= c -> in_no_key m c.
Proof.
  intro H. apply non_ascii_in_no_key; [lia|].
  change (u "‘’“”") with [0x2018; 0x2019; 0x201C; 0x201D]. cbn [In]. lia.
Qed.
Lemma h2k_find m q n c : k_at (tree_of m) q = Some n ->
  k_find n (ascii_lower (h2k_char c)) = k_find n (ascii_lower c).
Proof.
  intro A. destruct (h2k_char_cases c) as [->|[H Q]]; [reflexivity|]. unfold hiragana_letter in H.
  rewrite (in_no_key_find m c q n), (in_no_key_find m (h2k_char c) q n); try assumption; try reflexivity;
    apply kana_letter_in_no_key; lia.
Qed.
Lemma k_at_snoc n q m c : k_at n q = Some m -> k_at n (q ++ [c]) = k_find m c.
Proof.
  revert n. induction q as [|x q IH]; intros n H; cbn in *.
  - inversion H; subst. destruct (k_find m c); reflexivity.
  - destruct (k_find n x) as [y|]; [|discriminate]. now apply IH.
Qed.
Lemma kw_h2k m s : forall q n, k_at (tree_of m) q = Some n -> kw n (h2k s) = kw n s.
Proof.
  induction s as [|c s IH]; intros q n A; [reflexivity|]. cbn [h2k map kw]. fold (h2k s).
  rewrite (h2k_find m q n c A). destruct (k_find n (ascii_lower c)) as [x|] eqn:F; [|reflexivity].
  rewrite (IH (q ++ [ascii_lower c]) x); [reflexivity|]. now rewrite (k_at_snoc _ _ n).
Qed.
Lemma h2k_conv_h2k m : forall s, h2k (conv m (h2k s)) = h2k (conv m s).
Proof.
  induction s as [s IH] using str_ind_len. destruct s as [|c s]; [reflexivity|].
  assert (K : kw (tree_of m) (h2k (c :: s)) = kw (tree_of m) (c :: s)) by (apply (kw_h2k m _ []); reflexivity).
  destruct (kconv_step m c s) as [(seg & rest & n & v & Sp & N & K1 & A & O & R & Ec)|[O Ec]].
  - assert (En : entry m (low seg) v) by (apply entry_node; eauto).
    assert (Es : h2k seg = seg).
    { unfold h2k. rewrite <- (map_id seg) at 2. apply map_ext_in. intros x J.
      destruct (h2k_char_cases x) as [Q|[H _]]; [exact Q|]. exfalso.
      apply (low_in_key m seg [] v) with (c := x); [now rewrite app_nil_r|exact J|].
      apply kana_letter_in_no_key. unfold hiragana_letter in H. lia. }
    rewrite Ec, Sp. replace (h2k (seg ++ rest)) with (seg ++ h2k rest) by (unfold h2k in *; rewrite map_app; congruence).
    rewrite (kconv_hit m seg (h2k rest) n v); try assumption.
    + unfold h2k in *. rewrite !map_app. f_equal. apply IH. rewrite Sp, app_length. destruct seg; [congruence|]. cbn. lia.
    + destruct rest as [|d rest]; cbn; [exact I|]. now rewrite (h2k_find m (low seg) n d A).
  - rewrite Ec. change (h2k (c :: s)) with (h2k_char c :: h2k s) in *.
    destruct (kconv_step m (h2k_char c) (h2k s)) as [(seg & rest & n & v & Sp & N & K1 & A & O' & R & _)|[_ ->]].
    + rewrite K in K1. rewrite K1 in O. cbn in O. congruence.
    + cbn [h2k map]. fold (h2k (conv m (h2k s))). fold (h2k (conv m s)). rewrite IH by (cbn; lia).
      f_equal. exact (f_equal (hd 0) (h2k_h2k [c])).
Qed.

(** no output is an ASCII capital or has letter case elsewhere *)
Lemma outputs_caseless m k v x : entry m k v -> In x v -> (x < 128 \/ caseless x = true) /\ ascii_lower x = x.
Proof.
  assert (H : forallb (fun e => forallb (fun x => ((x <? 128) || caseless x) && (ascii_lower x =? x)) (snd e)) (dict m) = true)
    by (destruct m; vm_compute; reflexivity).
  rewrite forallb_forall in H. intros I J. specialize (H _ I). cbn [snd] in H.
  rewrite forallb_forall in H. specialize (H _ J). apply andb_prop in H. destruct H as [A B].
  apply N.eqb_eq in B. apply orb_prop in A. rewrite N.ltb_lt in A. auto.
Qed.
Lemma low_low s : low (low s) = low s.
Proof. unfold low. rewrite map_map. apply map_ext. intro c. unfold ascii_lower. ifs; lia. Qed.
Lemma low_AZ s : low s = s <-> forall c, In c s -> is_AZ c = false.
Proof.
  unfold low. split.
  - induction s as [|c s IH]; intros H x I; [destruct I|]. destruct I as [<-|I].
    + cbn in H. inversion H as [[H1 H2]]. revert H1. unfold ascii_lower, is_AZ. ifs; lia.
    + apply IH; [exact (f_equal (@tl N) H)|exact I].
  - intro H. rewrite <- map_id. apply map_ext_in. intros c I. specialize (H c I).
    unfold is_AZ in H. unfold ascii_lower. ifs; lia.
Qed.
Lemma low_ascii s : ascii_or_caseless s -> ascii_or_caseless (low s).
Proof.
  intros H x I. apply in_map_iff in I. destruct I as (c & <- & I). apply H in I.
  unfold ascii_lower, caseless in *. ifs; lia.
Qed.
Lemma conv_clean m s : ascii_or_caseless s -> low s = s ->
  ascii_or_caseless (conv m s) /\ low (conv m s) = conv m s.
Proof.
  intros A L. assert (Z := proj1 (low_AZ s) L). split.
  - intros x I. apply conv_lower_In in I; [|exact Z]. destruct I as [I|(k & v & I & J)]; [now apply A|].
    now apply (outputs_caseless m k v x I J).
  - apply low_AZ. intros x I. apply conv_lower_In in I; [|exact Z]. destruct I as [I|(k & v & I & J)]; [now apply Z|].
    destruct (outputs_caseless m k v x I J) as [_ Q]. revert Q. unfold ascii_lower, is_AZ. ifs; lia.
Qed.
Lemma h2k_clean s : ascii_or_caseless s -> low s = s -> ascii_or_caseless (h2k s) /\ low (h2k s) = h2k s.
Proof.
  intros A L. assert (Z := proj1 (low_AZ s) L). unfold h2k. split; [|apply low_AZ]; intros x I;
    apply in_map_iff in I; destruct I as (c & <- & I).
  - destruct (h2k_char_cases c) as [->|[H ->]]; [now apply A|]. unfold hiragana_letter in H. unfold caseless. lia.
  - destruct (h2k_char_cases c) as [->|[H ->]]; [now apply Z|]. unfold hiragana_letter in H. unfold is_AZ. lia.
Qed.

Lemma conv_thrice m s : conv m (conv m (conv m s)) = conv m (conv m s).
Proof.
  assert (D : m = Ime \/ m <> Ime) by (destruct m; auto; right; discriminate).
  destruct D as [->|D]; [now rewrite !ime_idempotent|].
  rewrite (conv_conv _ D (conv m s)), (conv_conv _ D s). apply nfix_nfix.
Qed.

(** ** to_hiragana *)
Lemma k2h_k2h E d s : k2h E d (k2h E d s) = k2h E d s.
Proof. apply k2h_no_katakana. intro c. apply k2h_not_katakana. Qed.
Lemma k2h_romaji_back E d s c : c < 0x3041 -> In c (k2h E d s) -> In c s.
Proof.
  intros L I. apply k2h_go_In in I. destruct I as [I|[_ I]].
  - apply in_map_iff in I. destruct I as (x & Ex & I).
    destruct (k2hc_cases x) as [Q|[_ Q]]; [congruence|]. unfold hiragana_letter in Q. lia.
  - apply vowel_not_katakana in I. lia.
Qed.
Lemma k2h_kana_back E d s c : kana c -> In c (k2h E d s) -> has kana s.
Proof.
  intros L I. apply k2h_go_In in I. destruct I as [I|[I _]].
  - apply in_map_iff in I. destruct I as (x & <- & I). exists x. split; [exact I|]. now apply k2hc_kana.
  - exists long_mark. split; [exact I|]. right. unfold S_katakana, between, long_mark. lia.
Qed.
Lemma k2h_go_keeps E d s c : In c s -> c <> long_mark -> forall pc pk, In (k2hc c) (k2h_go E d pc pk s).
Proof.
  intros I N. induction s as [|x s IH]; [destruct I|]. intros pc pk. cbn [k2h_go].
  assert (X : c = x -> forall l, In (k2hc c) ((if is_char_slash_dot x || is_kana_as_symbol x then x
     else if is_char_katakana x then hira_of_kata x else x) :: l)).
  { intros -> l. left. unfold k2hc.
    replace (is_char_long_dash x) with false; [now rewrite orb_false_r|].
    symmetry. apply N.eqb_neq. exact N. }
  destruct I as [->|I].
  - specialize (X eq_refl).
    assert (D : is_char_long_dash c = false) by (apply N.eqb_neq; exact N).
    rewrite D. cbn [andb negb]. rewrite orb_false_r.
    destruct (is_char_slash_dot c || is_kana_as_symbol c); [apply X|].
    destruct pc, pk, (is_char_katakana c); apply X.
  - clear X. specialize (IH I). destruct (_ || _); [right; apply IH|].
    destruct pc as [q|], pk as [p|], (is_char_long_dash x) eqn:D; cbn [negb andb];
      try (destruct (is_char_katakana x)); try (right; apply IH);
      try (apply in_or_app; right; apply IH).
Qed.
Lemma k2h_keeps E d s c : In c s -> c <> long_mark -> In (k2hc c) (k2h E d s).
Proof. intros I N. now apply k2h_go_keeps. Qed.
Lemma k2h_nil E d s : k2h E d s = [] -> s = [].
Proof.
  intro H. destruct s as [|c s]; [reflexivity|].
  destruct (N.eq_dec c long_mark) as [->|N].
  - unfold k2h in H. cbn [k2h_go] in H. discriminate.
  - assert (I := k2h_keeps E d (c :: s) c (or_introl eq_refl) N). rewrite H in I. destruct I.
Qed.
Lemma k2h_head E d c s : exists r, k2h E d (c :: s) = k2hc c :: r.
Proof.
  unfold k2h. cbn [k2h_go]. unfold k2hc, is_none. rewrite andb_true_r.
  destruct (is_char_slash_dot c), (is_char_long_dash c), (is_kana_as_symbol c); cbn [orb andb negb]; eauto.
  destruct (is_char_katakana c); eauto.
Qed.

Lemma k2h_mixed E d s : mixed_text (k2h E d s) -> mixed_text s.
Proof.
  intros [(a & A & A') (b & B & B')]. split.
  - apply (k2h_kana_back E d s a); assumption.
  - exists b. split; [|exact B']. apply (k2h_romaji_back E d s b); [now apply romaji_small|exact B].
Qed.
Lemma k2h_romaji E d s : all_nonempty S_romaji (k2h E d s) -> all_nonempty S_romaji s.
Proof.
  intros [N H]. split; [intros ->; now apply N|].
  assert (X : forall c, In c s -> c <> long_mark -> S_romaji c).
  { intros c I Nc. apply (k2hc_low S_romaji c romaji_small). apply H. now apply k2h_keeps. }
  intros c I. destruct (N.eq_dec c long_mark) as [->|Nc]; [|auto]. exfalso.
  assert (Q : k2h E d s = s).
  { apply k2h_no_katakana. intros x J. left. intro K. destruct (N.eq_dec x long_mark) as [->|Nx].
    - unfold katakana_letter, long_mark in K. lia.
    - specialize (X x J Nx). apply romaji_small in X. unfold katakana_letter in K. lia. }
  rewrite Q in H. specialize (H _ I). apply romaji_small in H. unfold long_mark in H. lia.
Qed.
Lemma k2h_punct E d s : starts_with_punct (k2h E d s) -> starts_with_punct s.
Proof.
  intros (c & r & H & P). destruct s as [|x s]; [discriminate|].
  destruct (k2h_head E d x s) as (r' & Q). rewrite Q in H. inversion H; subst.
  exists x, s. split; [reflexivity|]. exact (proj1 (k2hc_low S_en_punct x en_punct_small) P).
Qed.

Definition plain (s : str) : bool := negb (is_mixed s || (is_romaji s || first_punct s)).
Lemma k2h_plain E d s : plain s = true -> plain (k2h E d s) = true.
Proof.
  unfold plain. rewrite !negb_true_iff, !orb_false_iff, <- !not_true_iff_false, !mixed_spec, !romaji_text_spec, !first_punct_spec.
  intros (A & B & C). split; [|split]; intro H.
  - apply A, (k2h_mixed E d s H).
  - apply B, (k2h_romaji E d s H).
  - apply C, (k2h_punct E d s H).
Qed.

Lemma no_katakana_dec y : {no_katakana y} + {exists c, In c y /\ katakana_letter c}.
Proof.
  induction y as [|c y [IH|IH]].
  - left. intros x [].
  - destruct ((0x30A1 <=? c) && (c <=? 0x30FA)) eqn:D.
    + right. exists c. split; [now left|]. unfold katakana_letter. lia.
    + left. intros x [<-|I]; [|now apply IH]. left. unfold katakana_letter. lia.
  - right. destruct IH as (x & I & K). exists x. split; [now right|exact K].
Qed.

Section Hiragana.
  Context (E : std) (HE : std_ok E) (o : options) (P : pass_romaji o = false).
  Let m := mode_of o.
  Let H := hira_pure E o.

  Lemma hira_plain s : plain s = true -> H s = k2h E false s.
  Proof.
    unfold plain. rewrite negb_true_iff, orb_false_iff. intros [A B]. unfold H, hira_pure. now rewrite P, A, B.
  Qed.
  Lemma hira_plain_twice s : plain s = true -> H (H s) = H s.
  Proof.
    intro A. rewrite (hira_plain s A). rewrite hira_plain by now apply k2h_plain. apply k2h_k2h.
  Qed.
  Lemma conv_no_katakana y : low y = y -> no_katakana y -> no_katakana (conv m y).
  Proof.
    intros L N x I. apply conv_lower_In in I; [|now apply low_AZ]. destruct I as [I|(k & v & I & J)]; [now apply N|].
    eapply outputs_no_katakana; eauto.
  Qed.
End Hiragana.

Lemma outputs_not_romaji m k v x : entry m k v -> In x v ->
  is_char_romaji x = false /\ is_char_english_punctuation x = false.
Proof.
  assert (H : forallb (fun e => forallb (fun x => negb (is_char_romaji x) && negb (is_char_english_punctuation x)) (snd e)) (dict m) = true)
    by (destruct m; vm_compute; reflexivity).
  rewrite forallb_forall in H. intros I J. specialize (H _ I). cbn [snd] in H.
  rewrite forallb_forall in H. specialize (H _ J). apply andb_prop in H.
  now rewrite !negb_true_iff in H.
Qed.
Lemma quote_entry m c : smart_quote c -> exists d, entry m [c] [d] /\ is_AZ c = false /\ ascii_lower c = c.
Proof.
  assert (H : forallb (fun c => existsb (fun e => str_eqb (fst e) [c] && Nat.eqb (length (snd e)) 1) (dict m)
                                && negb (is_AZ c) && (ascii_lower c =? c)) (u "‘’“”") = true)
    by (destruct m; vm_compute; reflexivity).
  rewrite forallb_forall in H. intro I. specialize (H c I).
  apply andb_prop in H. destruct H as [H H3]. apply andb_prop in H. destruct H as [H1 H2].
  apply negb_true_iff in H2. apply N.eqb_eq in H3. apply existsb_exists in H1. destruct H1 as ([k v] & J & K).
  cbn [fst snd] in K. apply andb_prop in K. destruct K as [K1 K2]. apply str_eqb_eq in K1. subst k.
  apply Nat.eqb_eq in K2. destruct v as [|d [|]]; try discriminate. exists d. auto.
Qed.
