(** * Exact conditions for to_hiragana and to_katakana (C17, C64) *)
From Verif Require Import Tac Base Std StdInstances Constants Chars Trees KanaTree RomajiTree Strings Convert
  KanaPure RomajiPure KanaSpec KanaDict KanaProofs Predicates ScriptSpec ScriptProofs RomajiSpec RomajiProofs MoraProofs
  ScriptIdem TypingSpec Splits LibrarySpec LibraryProofs ExactSpec Exact.

(** ** C17 *)
Lemma lower_keeps E c s : std_ok E -> caseless c = true -> In c s -> In c (to_lowercase E s).
Proof.
  intros HE C. unfold to_lowercase. generalize (@nil N) as b. induction s as [|d s IH]; intros b [].
  - subst d. cbn [to_lowercase_from]. apply in_or_app. left.
    assert (c =? SIGMA = false) as -> by (apply N.eqb_neq; intros ->; discriminate C).
    rewrite ok_lower_caseless by assumption. now left.
  - cbn [to_lowercase_from]. apply in_or_app. right. now apply IH.
Qed.
Lemma conv_keeps m c s : in_no_key m c -> In c s -> In c (conv m s).
Proof.
  intros N I. apply in_split in I. destruct I as (a & b & ->). rewrite conv_boundary by exact N.
  apply in_or_app. right. now left.
Qed.
Definition plain_katakana (c : N) : Prop := katakana_letter c /\ ~ In c (u "ヵヶ").
Lemma plain_not c : plain_katakana c -> ~ (~ katakana_letter c \/ c = 0x30F5 \/ c = 0x30F6).
Proof. unfold plain_katakana. change (u "ヵヶ") with [0x30F5; 0x30F6]. cbn [In]. intuition auto. Qed.
Lemma quote_punct c : smart_quote c -> is_char_english_punctuation c = true.
Proof.
  intro Q. apply en_punct_spec. revert Q. unfold smart_quote, S_en_punct.
  change (u "‘’“”") with [0x2018; 0x2019; 0x201C; 0x201D].
  match goal with |- _ -> In _ ?l => let x := eval vm_compute in l in change l with x end.
  cbn [In]. intuition auto 60.
Qed.
Lemma quote_dec s : {exists q r, s = q :: r /\ smart_quote q} + {forall q r, s = q :: r -> ~ smart_quote q}.
Proof.
  destruct s as [|q r]; [right; intros ? ? Z; discriminate Z|].
  destruct (in_dec N.eq_dec q (u "‘’“”")) as [I|I]; [left; exists q, r; auto|].
  right. intros q' r' Q. injection Q as <- <-. exact I.
Qed.
Theorem hira_katakana_exact E o s : std_ok E ->
  (exists c, In c (hira_pure E o s) /\ plain_katakana c) <->
  pass_romaji o = false /\ ~ mixed_text s /\ (exists q r, s = q :: r /\ smart_quote q) /\ exists c, In c s /\ plain_katakana c.
Proof.
  intro HE. rewrite <- mixed_spec. split.
  - intros (c & I & K). apply plain_not in K as K'. unfold hira_pure in *.
    destruct (pass_romaji o) eqn:P; [exfalso; now apply k2h_not_katakana in I|].
    destruct (is_mixed s) eqn:M.
    { exfalso. apply K'. revert I. apply r2h_no_katakana; [exact HE|]. intro d. apply k2h_not_katakana. }
    split; [reflexivity|]. split; [discriminate|].
    destruct (quote_dec s) as [Q|Q].
    2:{ exfalso. apply K'. apply (hira_no_katakana E o s c HE Q). unfold hira_pure. rewrite P, M. exact I. }
    split; [exact Q|]. exists c. split; [|exact K].
    destruct (is_romaji s || first_punct s); [|exfalso; now apply k2h_not_katakana in I].
    rewrite k_tree_mode in I. apply conv_lower_In in I.
    + destruct I as [I|(k & v & I & J)]; [|exfalso; now apply (outputs_no_katakana _ _ _ _ I) in J].
      apply lower_In in I; [|exact HE]. apply I. destruct K as [K _]. unfold katakana_letter, caseless in *. lia.
    + intros d J. now apply lower_In in J.
  - intros (P & M & (q & r & Es & Q) & c & I & K). apply not_true_iff_false in M. exists c. split; [|exact K].
    unfold hira_pure. rewrite P, M.
    assert (F : first_punct s = true) by (subst s; unfold first_punct; cbn; now apply quote_punct).
    rewrite F, orb_true_r, k_tree_mode. destruct K as [K _]. unfold katakana_letter in K. apply conv_keeps.
    + apply kana_letter_in_no_key. lia.
    + apply lower_keeps; [exact HE| |exact I]. unfold caseless. lia.
Qed.

(** ** Left-over n and letter case *)
Lemma x_letter_low c : x_letter (ascii_lower c) <-> x_letter c.
Proof. rewrite <- !x_lower. unfold ascii_lower. ifs; lia. Qed.
Lemma n_letter_low' c : n_letter (ascii_lower c) <-> n_letter c.
Proof. rewrite <- !n_lower. unfold ascii_lower. ifs; lia. Qed.
(** ** to_katakana *)
Lemma nfix_h2k x : h2k (nfix x) = h2k x -> nfix x = x.
Proof.
  induction x as [|c x IH]; [reflexivity|]. cbn [nfix h2k map]. intro Q. injection Q as Q1 Q2. rewrite (IH Q2). f_equal.
  destruct ((ascii_lower c =? 0x6E) && negb (y_next x)) eqn:B; [|reflexivity]. exfalso.
  apply andb_prop in B. destruct B as [B _]. apply N.eqb_eq, n_lower in B.
  destruct B as [->| ->]; vm_compute in Q1; discriminate Q1.
Qed.
Lemma yyv_sokuon m v : In v (u "aiueo") -> exists k, entry m (u "yy" ++ [v]) (ch "っ" :: k).
Proof.
  intro I. assert (T : forallb (fun v => existsb (fun e => str_eqb (fst e) (u "yy" ++ [v])
      && match snd e with c :: _ => c =? ch "っ" | [] => false end) (dict m)) (u "aiueo") = true)
    by (destruct m; vm_compute; reflexivity).
  rewrite forallb_forall in T. specialize (T v I). apply existsb_exists in T. destruct T as ([k w] & J & E).
  cbn [fst snd] in E. apply andb_prop in E. destruct E as [E1 E2]. apply str_eqb_eq in E1. subst k.
  destruct w as [|c w]; [discriminate E2|]. apply N.eqb_eq in E2. subst c. now exists w.
Qed.
Lemma reads_nyy_mixed m s : reads_nyy m s -> mixed_text (conv m s).
Proof.
  intros (p & n & seg & v & b & -> & N & C & V & P). rewrite (split_n_starts m p n) by assumption.
  destruct (conv_nyy m n seg v b N C V) as [-> _]. destruct (yyv_sokuon m v V) as (k & I).
  assert (U : unextended m (u "yy" ++ [v])) by (eapply only_n_extended; [exact I|intro Z; discriminate Z]).
  rewrite (conv_entry m seg _ _ b I U C).
  assert (J : exists c r, emit seg (ch "っ" :: k) = c :: r /\ kana c).
  { unfold emit, h2k. destruct (forallb is_AZ seg).
    - exists (ch "ッ"), (map h2k_char k). split; [reflexivity|]. right. unfold S_katakana, between. change (ch "ッ") with 0x30C3. lia.
    - exists (ch "っ"), k. split; [reflexivity|]. left. unfold S_hiragana, between. change (ch "っ") with 0x3063. lia. }
  destruct J as (c & r & -> & K). split.
  - exists c. split; [|exact K]. apply in_or_app. right. right. cbn [app]. now left.
  - exists n. split; [apply in_or_app; right; now left|]. left. unfold n_letter in N. lia.
Qed.
Lemma mode_dec o : mode_of o = Ime \/ mode_of o <> Ime.
Proof. destruct (mode_of o); auto; right; discriminate. Qed.

(** ** to_hiragana: left-over n and long marks *)
Lemma text_char o c : ~ In c o -> c < 0x3041 -> forall a s h, hiragana_text o a s h -> forall x y, h = x ++ c :: y ->
  exists s1 s2, s = s1 ++ c :: s2 /\ hiragana_text o a s1 x /\ hiragana_text o (a ++ s1 ++ [c]) s2 y.
Proof.
  intros No Lc a s h HT. induction HT as [a|a d s p t Hp HT IH]; intros x y Q; [destruct x; discriminate Q|].
  destruct (app_split_cases _ _ _ _ Q) as [(z & l & Q1 & Q2)|[(z & l & Q1 & Q2)|[Q1 Q2]]].
  - (* inside the piece *)
    cbn in Q2. injection Q2 as -> Q2. assert (J : In z p) by (rewrite Q1; apply in_or_app; right; now left).
    destruct Hp as [(_ & h & A & ->)|[(_ & k & _ & B)|(_ & _ & ->)]].
    + destruct J as [->|[]]. destruct x as [|x1 x]; [|destruct x; discriminate Q1]. cbn in Q1. injection Q1 as <-.
      assert (d = z) as ->.
      { revert A. unfold hiragana_for. symspec. lia. }
      exists [], s. split; [reflexivity|]. split; [constructor|]. cbn [app] in *. subst y. exact HT.
    + exfalso. destruct (mark_vowel_chars o k p z B J) as [Z|Z]; [contradiction|]. revert Z Lc.
      change (u "あいうえ") with [0x3042; 0x3044; 0x3046; 0x3048]. cbn [In]. lia.
    + exfalso. destruct J as [J|[]]. unfold long_mark in J. lia.
  - subst x. destruct (IH (z :: l) y Q2) as (s1 & s2 & -> & T1 & T2). exists (d :: s1), s2.
    split; [reflexivity|]. split; [now constructor|]. cbn [app] in *. now rewrite <- app_assoc in T2.
  - subst x. destruct (IH [] y Q2) as (s1 & s2 & -> & T1 & T2). exists (d :: s1), s2.
    split; [reflexivity|]. split; [rewrite <- (app_nil_r p); now constructor|]. cbn [app] in *. now rewrite <- app_assoc in T2.
Qed.
Lemma text_step o a c d s h : c < 0x3041 -> c <> 0x30FB -> d < 0x3041 -> hiragana_text o (a ++ [c]) s (d :: h) ->
  exists s2, s = d :: s2 /\ hiragana_text o ((a ++ [c]) ++ [d]) s2 h.
Proof.
  intros Lc Nc Ld T. inversion T as [|? e s' p t Hp HT Q1 Q2 Q3]; subst.
  destruct Hp as [(_ & h' & A & ->)|[(_ & k & B & _)|(_ & _ & ->)]].
  - cbn in Q3. injection Q3 as -> ->. assert (e = d) as -> by (revert A; unfold hiragana_for; symspec; lia). eauto.
  - exfalso. apply lengthens_snoc in B. destruct B as [(-> & B & _)|(B & _)].
    + unfold katakana_letter in B. lia.
    + revert B. change (u "ー・ヵヶ") with [0x30FC; 0x30FB; 0x30F5; 0x30F6]. cbn [In]. lia.
  - cbn in Q3. injection Q3 as Q3 _. unfold long_mark in Q3. lia.
Qed.
Lemma text_ends o c s : ~ In c o -> c < 0x3041 -> forall x, hiragana_text o [] s (x ++ [c]) -> exists s', s = s' ++ [c].
Proof.
  intros No Lc. induction s as [|d s IH] using rev_ind; intros x T.
  { inversion T as [? Q|]. destruct x; discriminate. }
  apply text_snoc_piece in T. destruct T as (h0 & p & Q & T & P). cbn [app] in P.
  destruct P as [(_ & h & A & ->)|[(-> & k & A & B)|(-> & _ & ->)]].
  - apply app_inj_tail in Q. destruct Q as [_ <-]. exists s. f_equal. f_equal. revert A. unfold hiragana_for. symspec. lia.
  - exfalso. destruct p as [|p1 p2] eqn:Ep.
    + rewrite app_nil_r in Q. subst h0. destruct (IH x T) as (s' & ->). apply lengthens_snoc in A.
      destruct A as [(-> & A & _)|(A & _)].
      * unfold katakana_letter in A. lia.
      * revert A. change (u "ー・ヵヶ") with [0x30FC; 0x30FB; 0x30F5; 0x30F6]. cbn [In]. lia.
    + rewrite <- Ep in *. assert (J : In c p).
      { assert (Np : p <> []) by (rewrite Ep; discriminate). destruct (exists_last Np) as (p' & e & ->).
        rewrite app_assoc in Q. apply app_inj_tail in Q. destruct Q as [_ <-]. apply in_or_app. right. now left. }
      destruct (mark_vowel_chars _ k p c B J) as [Z|Z]; [contradiction|]. revert Z Lc.
      change (u "あいうえ") with [0x3042; 0x3044; 0x3046; 0x3048]. cbn [In]. lia.
  - exfalso. apply app_inj_tail in Q. destruct Q as [_ Q]. unfold long_mark in Q. lia.
Qed.
Lemma text_snoc_low o a s h c : c < 0x3041 -> hiragana_text o a s h -> hiragana_text o a (s ++ [c]) (h ++ [c]).
Proof.
  intros Lc T. induction T as [a|a d s p t Hp HT IH]; cbn [app].
  - replace [c] with ([c] ++ []) by reflexivity. constructor; [|constructor]. left.
    split; [unfold long_mark; lia|]. exists c. split; [|reflexivity]. unfold hiragana_for. symspec. lia.
  - rewrite <- app_assoc. now constructor.
Qed.
Lemma casing_yyv seg v : casing seg (u "yy" ++ [v]) -> In v (u "aiueo") ->
  exists a b c, seg = [a; b; c] /\ a < 128 /\ b < 128 /\ c < 128.
Proof.
  intros C V. apply casing_low in C. destruct seg as [|a [|b [|c [|? ?]]]]; try discriminate C. exists a, b, c.
  split; [reflexivity|]. cbn in C. injection C as C1 C2 C3.
  assert (v < 128) by (revert V; change (u "aiueo") with [97; 105; 117; 101; 111]; cbn [In]; lia).
  revert C1 C2 C3. unfold ascii_lower. ifs; lia.
Qed.
Lemma low_not_o c : c < 0x3041 -> ~ In c (u "う").
Proof. change (u "う") with [0x3046]. cbn [In]. lia. Qed.
Lemma k2h_ends E s x c : std_ok E -> c < 0x3041 -> k2h E false s = x ++ [c] -> exists s', s = s' ++ [c].
Proof.
  intros HE L Q. pose proof (k2h_text E false s HE) as T. rewrite Q in T. cbn iota in T.
  exact (text_ends (u "う") c s (low_not_o c L) L x T).
Qed.
Lemma k2h_low_cons E a c r : std_ok E -> a < 0x3041 -> c < 0x3041 -> k2h E false (a :: c :: r) = a :: k2h E false (c :: r).
Proof.
  intros HE La Lc. change (a :: c :: r) with ([a] ++ c :: r). rewrite Splits.k2h_split.
  - rewrite (k2h_no_katakana E false [a]); [reflexivity|]. intros d [<-|[]]. left. unfold katakana_letter. lia.
  - change (u "ー・ヵヶ") with [0x30FC; 0x30FB; 0x30F5; 0x30F6]. cbn [In]. lia.
Qed.
Lemma reads_nyy_k2h E m s : std_ok E -> m <> Ime -> reads_nyy m (k2h E false s) <-> reads_nyy m s.
Proof.
  intros HE M. assert (NS : forall p, n_starts m p <-> forall p' c, p = p' ++ [c] -> ~ x_letter c)
    by (destruct m; [tauto|tauto|congruence]).
  assert (NL : forall n, n_letter n -> n < 128) by (unfold n_letter; lia).
  assert (XL : forall n, x_letter n -> n < 128) by (unfold x_letter; lia).
  split.
  - intros (p & n & seg & v & b & Q & N & C & V & P). rewrite NS in P.
    destruct (casing_yyv seg v C V) as (y1 & y2 & v1 & -> & L1 & L2 & L3). specialize (NL n N).
    pose proof (k2h_text E false s HE) as T. cbn iota in T. rewrite Q in T.
    assert (Ln : n < 0x3041) by lia. assert (L1' : y1 < 0x3041) by lia. assert (L2' : y2 < 0x3041) by lia. assert (L3' : v1 < 0x3041) by lia.
    destruct (text_char (u "う") n (low_not_o n Ln) Ln [] s _ T p _ eq_refl) as (s1 & s2 & -> & T1 & T2).
    cbn [app] in T2. apply text_step in T2; [|lia..]. destruct T2 as (s3 & -> & T2).
    apply text_step in T2; [|lia..]. destruct T2 as (s4 & -> & T2).
    apply text_step in T2; [|lia..]. destruct T2 as (s5 & -> & T2).
    exists s1, n, [y1; y2; v1], v, s5. split; [reflexivity|]. split; [exact N|]. split; [exact C|]. split; [exact V|].
    apply NS. intros p' c -> X. specialize (XL c X). apply text_snoc_piece in T1. destruct T1 as (h0 & q & -> & T1 & Pq).
    destruct Pq as [(_ & h & A & ->)|[(-> & _)|(-> & _)]]; [|unfold long_mark in XL; lia..].
    apply (P h0 h eq_refl). assert (h = c) as -> by (revert A; unfold hiragana_for; symspec; lia). exact X.
  - intros (p & n & seg & v & b & -> & N & C & V & P). rewrite NS in P.
    destruct (casing_yyv seg v C V) as (y1 & y2 & v1 & -> & L1 & L2 & L3). specialize (NL n N).
    destruct (Splits.k2h_head E false v1 v1 b HE) as (r & R).
    + unfold long_mark. lia.
    + unfold hiragana_for. symspec. lia.
    + exists (k2h E false p), n, [y1; y2; v1], v, r. split.
      * rewrite Splits.k2h_split.
        -- cbn [app]. rewrite !k2h_low_cons by (assumption || lia). now rewrite R.
        -- change (u "ー・ヵヶ") with [0x30FC; 0x30FB; 0x30F5; 0x30F6]. cbn [In]. lia.
      * split; [exact N|]. split; [exact C|]. split; [exact V|]. apply NS. intros p' c Q X. specialize (XL c X).
        destruct (k2h_ends E p p' c HE) as (s' & ->); [lia|exact Q|]. exact (P s' c eq_refl X).
Qed.
Lemma katakana_dec y : {no_katakana y} + {exists c, In c y /\ plain_katakana c}.
Proof.
  induction y as [|c y [IH|IH]].
  - left. intros x [].
  - destruct ((0x30A1 <=? c) && (c <=? 0x30FA) && negb ((c =? 0x30F5) || (c =? 0x30F6))) eqn:D.
    + right. exists c. split; [now left|]. unfold plain_katakana, katakana_letter. change (u "ヵヶ") with [0x30F5; 0x30F6]. cbn [In]. lia.
    + left. intros x [<-|I]; [|now apply IH]. unfold katakana_letter. lia.
  - right. destruct IH as (x & I & K). exists x. split; [now right|exact K].
Qed.
