(** * Proofs about to_hiragana, to_katakana (C02, C09, C16-C22, C54) *)
From Verif Require Import Tac Base Std Constants Chars Trees KanaTree RomajiTree Strings Convert
  KanaPure RomajiPure KanaSpec KanaDict KanaProofs Predicates ScriptSpec.

(** ** Pure forms *)
Definition first_punct (s : str) : bool :=
  match option_map is_char_english_punctuation (nth_error s 0) with Some b => b | None => false end.
Definition hira_pure (E : std) (o : options) (s : str) : str :=
  if pass_romaji o then k2h E false s
  else if is_mixed s then kconv (k_tree o) (to_lowercase E (k2h E false s))
  else if is_romaji s || first_punct s then kconv (k_tree o) (to_lowercase E s)
  else k2h E false s.
Definition kata_pure (E : std) (o : options) (s : str) : str :=
  if pass_romaji o then h2k s
  else if is_romaji s || is_mixed s then h2k (kconv (k_tree o) (to_lowercase E s))
  else h2k s.

Theorem to_hiragana_with_opt_eq E o s : std_ok E -> to_hiragana_with_opt E s o = Ok (hira_pure E o s).
Proof.
  intro HE. unfold to_hiragana_with_opt, hira_pure, romaji_to_hiragana, first_punct.
  rewrite !katakana_to_hiragana_eq by exact HE. cbn [bind].
  rewrite !to_kana_with_opt_eq by exact HE.
  destruct (pass_romaji o); [reflexivity|]. destruct (is_mixed s); [reflexivity|].
  destruct (_ || _); reflexivity.
Qed.
Theorem to_katakana_with_opt_eq E o s : std_ok E -> to_katakana_with_opt E s o = Ok (kata_pure E o s).
Proof.
  intro HE. unfold to_katakana_with_opt, kata_pure, romaji_to_hiragana.
  rewrite !to_kana_with_opt_eq by exact HE. cbn [bind]. rewrite !hiragana_to_katakana_ok.
  destruct (pass_romaji o); [reflexivity|]. destruct (_ || _); reflexivity.
Qed.

(** ** katakana to hiragana, character by character *)
Definition k2hc (c : N) : N :=
  if is_char_slash_dot c || is_kana_as_symbol c || is_char_long_dash c then c
  else if is_char_katakana c then hira_of_kata c else c.

Ltac symspec := unfold is_kana_as_symbol in *; 
  change (ch "ヶ") with 0x30F6 in *; change (ch "ヵ") with 0x30F5 in *;
  change (ch "ヷ") with 0x30F7 in *; change (ch "ヸ") with 0x30F8 in *;
  change (ch "ヹ") with 0x30F9 in *; change (ch "ヺ") with 0x30FA in *;
  change (ch "わ") with 0x308F in *; change (ch "ゐ") with 0x3090 in *;
  change (ch "ゑ") with 0x3091 in *; change (ch "を") with 0x3092 in *.

Lemma hira_of_kata_shift c : 0x30A1 <= c <= 0x30F6 -> hira_of_kata c = c - 96.
Proof.
  intro H. unfold hira_of_kata. symspec.
  replace (c =? 0x30F7) with false by lia. replace (c =? 0x30F8) with false by lia.
  replace (c =? 0x30F9) with false by lia. replace (c =? 0x30FA) with false by lia.
  change (KATAKANA_START - HIRAGANA_START) with 96. unfold from_u32.
  replace (is_scalar (c - 96)) with true; [reflexivity|]. unfold is_scalar. lia.
Qed.
Lemma hira_of_kata_va c : 0x30F7 <= c <= 0x30FA -> hira_of_kata c =
  if c =? 0x30F7 then 0x308F else if c =? 0x30F8 then 0x3090 else if c =? 0x30F9 then 0x3091 else 0x3092.
Proof.
  intro H. unfold hira_of_kata. symspec.
  destruct (c =? 0x30F7) eqn:A; [reflexivity|]. destruct (c =? 0x30F8) eqn:B; [reflexivity|].
  destruct (c =? 0x30F9) eqn:C; [reflexivity|]. replace (c =? 0x30FA) with true by lia. reflexivity.
Qed.

Lemma k2hc_spec k h : hiragana_for k h <-> k2hc k = h.
Proof.
  unfold hiragana_for, k2hc. symspec.
  destruct (is_char_slash_dot k || ((0x30F6 =? k) || (0x30F5 =? k)) || is_char_long_dash k) eqn:A.
  { charspec. lia. }
  destruct (is_char_katakana k) eqn:B; [|charspec; lia].
  destruct (k <=? 0x30F6) eqn:C.
  - rewrite hira_of_kata_shift by (charspec; lia). charspec. lia.
  - rewrite hira_of_kata_va by (charspec; lia). charspec. ifs; lia.
Qed.
Lemma k2hc_map s t : Forall2 hiragana_for s t <-> map k2hc s = t.
Proof.
  split.
  - induction 1 as [|c d p k H _ IH]; [reflexivity|]. cbn. apply k2hc_spec in H. congruence.
  - revert t. induction s as [|c v IH]; intros t H; cbn in H; subst; [constructor|].
    constructor; [now apply k2hc_spec|]. now apply IH.
Qed.

Lemma k2h_go_no_dash E d s : ~ In long_mark s -> forall pc pk, k2h_go E d pc pk s = map k2hc s.
Proof.
  induction s as [|c s IH]; intros H pc pk; [reflexivity|].
  assert (Hc : is_char_long_dash c = false).
  { unfold is_char_long_dash, PROLONGED_SOUND_MARK. apply N.eqb_neq. intro Z. apply H. now left. }
  assert (Hs : ~ In long_mark s) by (intro I; apply H; now right).
  cbn [k2h_go map]. unfold k2hc at 1. rewrite Hc, orb_false_r. cbn [andb]. rewrite orb_false_r.
  destruct (is_char_slash_dot c || is_kana_as_symbol c); [now rewrite IH|].
  cbn [negb andb].
  destruct pc, pk, (is_char_katakana c); now rewrite IH.
Qed.
Lemma k2h_no_dash E d s : ~ In long_mark s -> k2h E d s = map k2hc s.
Proof. intro H. now apply k2h_go_no_dash. Qed.

(** without katakana letters nothing happens (long marks included) *)
Lemma k2h_go_no_katakana E d s : (forall c, In c s -> ~ katakana_letter c \/ c = 0x30F5 \/ c = 0x30F6) ->
  forall pc, k2h_go E d pc None s = s.
Proof.
  induction s as [|c s IH]; intros H pc; [reflexivity|].
  cbn [k2h_go].
  destruct (is_char_slash_dot c || _ || _) eqn:A; [rewrite IH; auto; intros x I; apply H; now right|].
  assert (B : negb (is_char_long_dash c) && is_char_katakana c = false).
  { specialize (H c (or_introl eq_refl)). symspec. unfold katakana_letter in H. charspec. lia. }
  rewrite B, IH by (intros x I; apply H; now right). destruct pc; reflexivity.
Qed.
Lemma k2h_no_katakana E d s : (forall c, In c s -> ~ katakana_letter c \/ c = 0x30F5 \/ c = 0x30F6) ->
  k2h E d s = s.
Proof. intro H. now apply k2h_go_no_katakana. Qed.

(** what comes out *)
Lemma LONG_VOWELS_In r h : LONG_VOWELS r = Some h -> In h (u "あいうえ").
Proof.
  unfold LONG_VOWELS. ifs; intro H; try discriminate; injection H as <-; vm_compute; auto 6.
Qed.
Lemma k2h_vowel_In E d q p c x : In x (k2h_vowel E d q p c) -> x = c \/ In x (u "あいうえお").
Proof.
  unfold k2h_vowel. destruct (rfind E RT p) as [n|]; [|intros [<-|[]]; now left].
  destruct (last_char (rout n)) as [r|]; [|intros []].
  destruct (_ && d); [intros [<-|[]]; right; vm_compute; auto 7|].
  destruct (LONG_VOWELS r) as [h|] eqn:L; [|intros []].
  intros [<-|[]]. right. apply LONG_VOWELS_In in L. revert L. vm_compute. tauto.
Qed.
Lemma k2h_go_In E d s : forall pc pk x, In x (k2h_go E d pc pk s) ->
  In x (map k2hc s) \/ (In long_mark s /\ In x (u "あいうえお")).
Proof.
  induction s as [|c s IH]; intros pc pk x; [intros []|].
  cbn [k2h_go map].
  assert (R : forall pk' y, In x (y :: k2h_go E d (Some c) pk' s) -> y = k2hc c ->
              In x (k2hc c :: map k2hc s) \/ (In long_mark (c :: s) /\ In x (u "あいうえお"))).
  { intros pk' y [<-|I] Ey; [left; now left|]. apply IH in I. cbn [In]. tauto. }
  destruct (is_char_slash_dot c || (is_char_long_dash c && is_none pc) || is_kana_as_symbol c) eqn:A.
  { intro I. apply R in I; [exact I|]. unfold k2hc.
    replace (is_char_slash_dot c || is_kana_as_symbol c || is_char_long_dash c) with true; [reflexivity|].
    destruct (is_char_slash_dot c), (is_char_long_dash c), (is_kana_as_symbol c), (is_none pc); cbn in *; congruence. }
  assert (G : In x (if negb (is_char_long_dash c) && is_char_katakana c
     then hira_of_kata c :: k2h_go E d (Some c) (Some (hira_of_kata c)) s
     else c :: k2h_go E d (Some c) None s) ->
     In x (k2hc c :: map k2hc s) \/ (In long_mark (c :: s) /\ In x (u "あいうえお"))).
  { destruct (is_char_slash_dot c) eqn:S1; [discriminate|]. destruct (is_kana_as_symbol c) eqn:S2;
      [rewrite orb_true_r in A; discriminate|].
    destruct (negb (is_char_long_dash c) && is_char_katakana c) eqn:B; intro I; apply R in I; auto;
      unfold k2hc; rewrite S1, S2; cbn [orb].
    - apply andb_prop in B. destruct B as [B1 B2]. apply negb_true_iff in B1. now rewrite B1, B2.
    - destruct (is_char_long_dash c); [reflexivity|]. cbn in B. now rewrite B. }
  destruct pc as [q|]; [|exact G]. destruct pk as [p|]; [|exact G].
  destruct (is_char_long_dash c) eqn:L; [|exact G].
  intro I. apply in_app_or in I. destruct I as [I|I].
  - apply k2h_vowel_In in I. destruct I as [->|I].
    + left. left. unfold k2hc. rewrite L, orb_true_r. reflexivity.
    + right. split; [|exact I]. left. unfold is_char_long_dash, PROLONGED_SOUND_MARK in L.
      apply N.eqb_eq in L. exact L.
  - apply IH in I. cbn [In]. tauto.
Qed.

Lemma k2hc_not_katakana c : ~ katakana_letter (k2hc c) \/ k2hc c = 0x30F5 \/ k2hc c = 0x30F6.
Proof.
  assert (H : hiragana_for c (k2hc c)) by now apply k2hc_spec.
  unfold hiragana_for in H. symspec. unfold katakana_letter. lia.
Qed.
Lemma vowel_not_katakana x : In x (u "あいうえお") -> 0x3041 <= x <= 0x3096.
Proof.
  change (u "あいうえお") with [0x3042; 0x3044; 0x3046; 0x3048; 0x304A]. cbn [In]. lia.
Qed.
Lemma k2h_not_katakana E d s x : In x (k2h E d s) -> ~ katakana_letter x \/ x = 0x30F5 \/ x = 0x30F6.
Proof.
  intro I. apply k2h_go_In in I. destruct I as [I|[_ I]].
  - apply in_map_iff in I. destruct I as (c & <- & _). apply k2hc_not_katakana.
  - apply vowel_not_katakana in I. unfold katakana_letter. lia.
Qed.

(** ** to_lowercase *)
Lemma lower_from_In E s : std_ok E -> forall b x, In x (to_lowercase_from E b s) ->
  is_AZ x = false /\ (caseless x = true -> In x s).
Proof.
  intro HE. induction s as [|c s IH]; intros b x; [intros []|]. cbn [to_lowercase_from].
  intro I. apply in_app_or in I. destruct I as [I|I].
  - destruct (c =? SIGMA).
    + destruct (_ && _); cbn in I; destruct I as [<-|[]]; split; try reflexivity; discriminate.
    + split.
      * pose proof (ok_lower_no_upper E HE c) as H. rewrite forallb_forall in H. specialize (H x I).
        unfold is_AZ. now apply negb_true_iff.
      * intro C. destruct (caseless c) eqn:D.
        -- rewrite (ok_lower_caseless E HE c D) in I. destruct I as [<-|[]]. now left.
        -- pose proof (ok_lower_other E HE c D) as H. rewrite forallb_forall in H. specialize (H x I).
           rewrite C in H. discriminate.
  - apply IH in I. destruct I as [I1 I2]. split; [exact I1|]. intro C. right. auto.
Qed.
Lemma lower_In E s x : std_ok E -> In x (to_lowercase E s) -> is_AZ x = false /\ (caseless x = true -> In x s).
Proof. intros HE. now apply lower_from_In. Qed.

(** ** Where the characters of to_kana come from *)
Lemma conv_In m : forall s x, In x (conv m s) ->
  In x s \/ exists seg v, entry m (low seg) v /\ In x (emit seg v) /\ (forall c, In c seg -> In c s).
Proof.
  induction s as [s IH] using str_ind_len. intros x. destruct s as [|a s]; [intros []|].
  destruct (kconv_step m a s) as [(seg & rest & n & v & Sp & N & K & A & O & R & ->)|[O ->]].
  - intro I. apply in_app_or in I. destruct I as [I|I].
    + right. exists seg, v. split; [apply entry_node; eauto|]. split; [exact I|].
      intros c J. rewrite Sp. apply in_or_app. now left.
    + apply IH in I.
      * destruct I as [I|(seg' & v' & H1 & H2 & H3)].
        -- left. rewrite Sp. apply in_or_app. now right.
        -- right. exists seg', v'. split; [exact H1|]. split; [exact H2|].
           intros c J. rewrite Sp. apply in_or_app. right. auto.
      * rewrite Sp, app_length. destruct seg; [congruence|]. cbn. lia.
  - intros [<-|I]; [left; now left|]. apply IH in I; [|cbn; lia].
    destruct I as [I|(seg' & v' & H1 & H2 & H3)]; [left; now right|].
    right. exists seg', v'. split; [exact H1|]. split; [exact H2|]. intros c J. right. auto.
Qed.

Lemma outputs_no_katakana m k v x : entry m k v -> In x v -> ~ katakana_letter x \/ x = 0x30F5 \/ x = 0x30F6.
Proof.
  assert (H : forallb (fun e => forallb (fun x => negb ((0x30A1 <=? x) && (x <=? 0x30FA)) || (x =? 0x30F5) || (x =? 0x30F6)) (snd e)) (dict m) = true)
    by (destruct m; vm_compute; reflexivity).
  rewrite forallb_forall in H. intros I J. specialize (H _ I). cbn [snd] in H.
  rewrite forallb_forall in H. specialize (H _ J). unfold katakana_letter. lia.
Qed.
Lemma emit_lower seg v : seg <> [] -> (forall c, In c seg -> is_AZ c = false) -> emit seg v = v.
Proof.
  intros N H. unfold emit. destruct seg as [|c seg]; [congruence|]. cbn.
  rewrite (H c) by now left. reflexivity.
Qed.
Lemma conv_lower_In m s x : (forall c, In c s -> is_AZ c = false) -> In x (conv m s) ->
  In x s \/ exists k v, entry m k v /\ In x v.
Proof.
  intros H I. apply conv_In in I. destruct I as [I|(seg & v & H1 & H2 & H3)]; [now left|].
  right. exists (low seg), v. split; [exact H1|]. rewrite emit_lower in H2; [exact H2| |].
  - intros ->. now apply keys_nonempty in H1.
  - intros c J. apply H, H3, J.
Qed.

(** ** C16 *)
Lemma h2k_no_hiragana s x : In x (h2k s) -> ~ hiragana_letter x.
Proof.
  unfold h2k. rewrite in_map_iff. intros (h & <- & _).
  unfold hiragana_letter, h2k_char, is_char_hiragana.
  destruct (is_char_long_dash h) eqn:A; cbn [orb]; charspec; ifs; lia.
Qed.
Lemma kata_no_hiragana E o s x : In x (kata_pure E o s) -> ~ hiragana_letter x.
Proof. unfold kata_pure. ifs; apply h2k_no_hiragana. Qed.

(** ** C17 *)
Lemma caseless_katakana x : katakana_letter x -> caseless x = true.
Proof. unfold katakana_letter, caseless. lia. Qed.
Lemma r2h_no_katakana E o s x : std_ok E ->
  (forall c, In c s -> ~ katakana_letter c \/ c = 0x30F5 \/ c = 0x30F6) ->
  In x (kconv (k_tree o) (to_lowercase E s)) -> ~ katakana_letter x \/ x = 0x30F5 \/ x = 0x30F6.
Proof.
  intros HE H I. rewrite k_tree_mode in I. apply conv_lower_In in I.
  - destruct I as [I|(k & v & I & J)]; [|eapply outputs_no_katakana; eauto].
    apply lower_In in I; [|exact HE]. destruct I as [_ I].
    assert (D : katakana_letter x \/ ~ katakana_letter x) by (unfold katakana_letter; lia).
    destruct D as [D|D]; [|now left]. apply H, I, caseless_katakana, D.
  - intros c J. now apply (lower_In E s) in J.
Qed.
Lemma ep_not_romaji c : is_char_english_punctuation c = true -> is_char_romaji c = false -> smart_quote c.
Proof.
  rewrite en_punct_spec. intros H R. apply (not_true_iff_false) in R. rewrite romaji_spec in R.
  unfold smart_quote. change (u "‘’“”") with [0x2018; 0x2019; 0x201C; 0x201D].
  unfold S_romaji in R. unfold S_en_punct in H.
  match type of H with In _ ?l => let x := eval vm_compute in l in change l with x in H end.
  cbn [In] in *. assert (~ c <= 0x7F) by tauto. lia.
Qed.
Lemma hira_no_katakana E o s x : std_ok E ->
  (forall c r, s = c :: r -> ~ smart_quote c) ->
  In x (hira_pure E o s) -> ~ katakana_letter x \/ x = 0x30F5 \/ x = 0x30F6.
Proof.
  intros HE HQ. unfold hira_pure.
  destruct (pass_romaji o); [apply k2h_not_katakana|].
  destruct (is_mixed s) eqn:M.
  { apply r2h_no_katakana; [exact HE|]. intro c. apply k2h_not_katakana. }
  destruct (is_romaji s || first_punct s) eqn:P; [|apply k2h_not_katakana].
  apply r2h_no_katakana; [exact HE|]. intros c I. left. intro K.
  assert (Hk : is_char_katakana c = true) by (apply katakana_spec; unfold katakana_letter, S_katakana, between in *; lia).
  (* not mixed: no character of s is romaji *)
  assert (NR : existsb is_char_romaji s = false).
  { unfold is_mixed, is_mixed_pass_kanji in M. cbn [negb andb] in M. rewrite andb_true_r in M.
    replace (existsb is_char_katakana s) with true in M.
    - rewrite orb_true_r in M. exact M.
    - symmetry. apply existsb_exists. eauto. }
  assert (NR' : forall d, In d s -> is_char_romaji d = false).
  { intros d J. destruct (is_char_romaji d) eqn:Q; [|reflexivity].
    assert (existsb is_char_romaji s = true) by (apply existsb_exists; eauto). congruence. }
  destruct s as [|a s]; [destruct I|].
  apply orb_prop in P. destruct P as [P|P].
  - unfold is_romaji in P. cbn [forallb is_empty] in P. rewrite (NR' a) in P by now left. discriminate.
  - unfold first_punct in P. cbn [nth_error option_map] in P. apply (HQ a s eq_refl). apply ep_not_romaji; [exact P|]. apply NR'. now left.
Qed.

(** ** C18 *)
Lemma same_up_to_case_low s t : same_up_to_case s t <-> low s = low t.
Proof.
  unfold same_up_to_case, same_letter. split.
  - induction 1 as [|a b s t (d & H1 & H2) _ IH]; [reflexivity|]. cbn. fold (low s) (low t).
    apply lowers_lower in H1, H2. congruence.
  - revert t. induction s as [|a s IH]; intros [|b t] H; try discriminate; [constructor|].
    cbn in H. inversion H. constructor; [|now apply IH].
    exists (ascii_lower b). split; apply lowers_lower; auto.
Qed.
Lemma lower_pair a b : ascii_lower a = ascii_lower b ->
  a = b \/ ((0x41 <= a <= 0x5A \/ 0x61 <= a <= 0x7A) /\ (0x41 <= b <= 0x5A \/ 0x61 <= b <= 0x7A)).
Proof. unfold ascii_lower. ifs; lia. Qed.
Lemma low_existsb (f : N -> bool) : (forall a b, ascii_lower a = ascii_lower b -> f a = f b) ->
  forall s t, low s = low t -> existsb f s = existsb f t /\ forallb f s = forallb f t.
Proof.
  intro H. induction s as [|a s IH]; intros [|b t] E; try discriminate; [auto|].
  cbn in E. inversion E. cbn. destruct (IH t) as [-> ->]; [assumption|]. rewrite (H a b) by assumption. auto.
Qed.
Lemma letter_hiragana a b : ascii_lower a = ascii_lower b -> is_char_hiragana a = is_char_hiragana b.
Proof.
  intro H. apply lower_pair in H. destruct H as [->|H]; [reflexivity|]. apply eq_true_iff_eq.
  rewrite !hiragana_spec. unfold S_hiragana, between. lia.
Qed.
Lemma letter_katakana a b : ascii_lower a = ascii_lower b -> is_char_katakana a = is_char_katakana b.
Proof.
  intro H. apply lower_pair in H. destruct H as [->|H]; [reflexivity|]. apply eq_true_iff_eq.
  rewrite !katakana_spec. unfold S_katakana, between. lia.
Qed.
Lemma letter_romaji a b : ascii_lower a = ascii_lower b -> is_char_romaji a = is_char_romaji b.
Proof.
  intro H. apply lower_pair in H. destruct H as [->|H]; [reflexivity|]. apply eq_true_iff_eq.
  rewrite !romaji_spec. unfold S_romaji. split; intros _; left; lia.
Qed.
Lemma letter_not_punct a : (0x41 <= a <= 0x5A \/ 0x61 <= a <= 0x7A) -> is_char_english_punctuation a = false.
Proof.
  intro H. apply not_true_iff_false. rewrite en_punct_spec. unfold S_en_punct.
  match goal with |- context [In a ?l] => let x := eval vm_compute in l in change l with x end.
  cbn [In]. lia.
Qed.
Lemma letter_punct a b : ascii_lower a = ascii_lower b ->
  is_char_english_punctuation a = is_char_english_punctuation b.
Proof.
  intro H. apply lower_pair in H. destruct H as [->|[H1 H2]]; [reflexivity|].
  now rewrite !letter_not_punct.
Qed.
Lemma mixed_ci s t : low s = low t -> is_mixed s = is_mixed t.
Proof.
  intro H. unfold is_mixed, is_mixed_pass_kanji. cbn [negb].
  destruct (low_existsb _ letter_hiragana s t H) as [-> _].
  destruct (low_existsb _ letter_katakana s t H) as [-> _].
  destruct (low_existsb _ letter_romaji s t H) as [-> _]. reflexivity.
Qed.
Lemma romaji_ci s t : low s = low t -> is_romaji s = is_romaji t.
Proof.
  intro H. unfold is_romaji. destruct (low_existsb _ letter_romaji s t H) as [_ ->].
  destruct s, t; try discriminate; reflexivity.
Qed.
Lemma first_punct_ci s t : low s = low t -> first_punct s = first_punct t.
Proof.
  unfold first_punct. destruct s as [|a s], t as [|b t]; try discriminate; [reflexivity|].
  intro H. cbn in H. inversion H. cbn. now apply letter_punct.
Qed.

Lemma letter_cased E a b : std_ok E -> ascii_lower a = ascii_lower b ->
  cased E a = cased E b /\ case_ignorable E a = case_ignorable E b.
Proof.
  intros HE H. apply lower_pair in H. destruct H as [->|[H1 H2]]; [auto|].
  assert (X : forall c, (0x41 <= c <= 0x5A \/ 0x61 <= c <= 0x7A) -> cased E c = true /\ case_ignorable E c = false).
  { intros c H. apply (ok_cased_ascii E HE). unfold ascii_lower, ascii_upper. destruct H as [H|H].
    - left. replace ((0x41 <=? c) && (c <=? 0x5A)) with true by lia. lia.
    - right. replace ((0x61 <=? c) && (c <=? 0x7A)) with true by lia. lia. }
  destruct (X a H1) as [-> ->], (X b H2) as [-> ->]. auto.
Qed.
Lemma citc_ci E s : std_ok E -> forall t, low s = low t ->
  case_ignorable_then_cased E s = case_ignorable_then_cased E t.
Proof.
  intro HE. unfold case_ignorable_then_cased.
  induction s as [|a s IH]; intros [|b t] H; try discriminate; [reflexivity|].
  cbn in H. inversion H as [[H1 H2]]. destruct (letter_cased E a b HE H1) as [-> ->].
  destruct (case_ignorable E b); [|reflexivity]. now apply IH.
Qed.
Lemma lower_from_ci E s : std_ok E -> forall t b b', low s = low t -> low b = low b' ->
  to_lowercase_from E b s = to_lowercase_from E b' t.
Proof.
  intro HE. induction s as [|x s IH]; intros [|y t] b b' H B; try discriminate; [reflexivity|].
  cbn in H. inversion H as [[H1 H2]]. fold (low s) (low t) in H2. cbn [to_lowercase_from].
  rewrite (IH t (x :: b) (y :: b')); [|exact H2|cbn; fold (low b) (low b'); congruence].
  f_equal. rewrite (citc_ci E b HE b' B), (citc_ci E s HE t H2).
  destruct (lower_pair x y H1) as [->|[L1 L2]]; [reflexivity|].
  replace (x =? SIGMA) with false by (unfold SIGMA; lia).
  replace (y =? SIGMA) with false by (unfold SIGMA; lia).
  rewrite !(ok_lower_ascii E HE) by lia. now rewrite H1.
Qed.
Lemma lower_ci E s t : std_ok E -> low s = low t -> to_lowercase E s = to_lowercase E t.
Proof. intros HE H. now apply lower_from_ci. Qed.

Definition low_opt (c : option N) : option N := option_map ascii_lower c.
Lemma k2h_go_ci E d s : forall t pc pc' pk, low s = low t -> low_opt pc = low_opt pc' ->
  low (k2h_go E d pc pk s) = low (k2h_go E d pc' pk t).
Proof.
  induction s as [|x s IH]; intros [|y t] pc pc' pk H P; try discriminate; [reflexivity|].
  cbn in H. inversion H as [[H1 H2]]. fold (low s) (low t) in H2. cbn [k2h_go].
  assert (IHx : forall pk', low (k2h_go E d (Some x) pk' s) = low (k2h_go E d (Some y) pk' t)).
  { intro pk'. apply IH; [exact H2|]. cbn. now rewrite H1. }
  assert (Pn : is_none pc = is_none pc') by (destruct pc, pc'; try discriminate; reflexivity).
  rewrite Pn.
  destruct (lower_pair x y H1) as [E1|[L1 L2]].
  - subst y. destruct (_ || _ || _); [cbn; fold (low (k2h_go E d (Some x) pk s)) (low (k2h_go E d (Some x) pk t)); now rewrite IHx|].
    assert (G : low (if negb (is_char_long_dash x) && is_char_katakana x
       then hira_of_kata x :: k2h_go E d (Some x) (Some (hira_of_kata x)) s else x :: k2h_go E d (Some x) None s)
       = low (if negb (is_char_long_dash x) && is_char_katakana x
       then hira_of_kata x :: k2h_go E d (Some x) (Some (hira_of_kata x)) t else x :: k2h_go E d (Some x) None t)).
    { destruct (_ && _); unfold low; cbn [map]; f_equal; apply IHx. }
    destruct pc as [q|], pc' as [q'|]; try discriminate; [|exact G].
    destruct pk as [p|]; [|exact G]. destruct (is_char_long_dash x); [|exact G].
    rewrite !low_app, IHx. f_equal. cbn in P. inversion P.
    unfold k2h_vowel. rewrite (letter_katakana q q') by assumption. reflexivity.
  - assert (X : forall c, (0x41 <= c <= 0x5A \/ 0x61 <= c <= 0x7A) ->
      is_char_slash_dot c = false /\ is_char_long_dash c = false /\ is_kana_as_symbol c = false
      /\ is_char_katakana c = false).
    { intros c Hc. symspec. charspec. lia. }
    destruct (X x L1) as (-> & -> & -> & ->), (X y L2) as (-> & -> & -> & ->). cbn [orb andb negb].
    destruct pc, pc'; try discriminate; destruct pk; unfold low; cbn [map]; rewrite H1; f_equal; apply IHx.
Qed.
Lemma k2h_ci E d s t : low s = low t -> low (k2h E d s) = low (k2h E d t).
Proof. intro H. now apply k2h_go_ci. Qed.

Lemma hira_ci E o s t : std_ok E -> pass_romaji o = false -> low s = low t ->
  (is_romaji s = true \/ is_mixed s = true) -> hira_pure E o s = hira_pure E o t.
Proof.
  intros HE P H M. unfold hira_pure. rewrite P. rewrite <- (mixed_ci s t H), <- (romaji_ci s t H).
  destruct (is_mixed s) eqn:Q.
  - f_equal. apply lower_ci; [exact HE|]. now apply k2h_ci.
  - destruct M as [M|M]; [|discriminate]. rewrite M. cbn [orb]. f_equal. now apply lower_ci.
Qed.
Lemma kata_ci E o s t : std_ok E -> pass_romaji o = false -> low s = low t ->
  (is_romaji s = true \/ is_mixed s = true) -> kata_pure E o s = kata_pure E o t.
Proof.
  intros HE P H M. unfold kata_pure. rewrite P. rewrite <- (mixed_ci s t H), <- (romaji_ci s t H).
  replace (is_romaji s || is_mixed s) with true by (destruct M as [-> | ->]; [|destruct (is_romaji s)]; reflexivity).
  do 2 f_equal. now apply lower_ci.
Qed.

(** ** Texts of kana *)
Lemma kana_plain E o s : (forall c, In c s -> is_char_kana c = true) ->
  hira_pure E o s = k2h E false s /\ kata_pure E o s = h2k s.
Proof.
  intro H.
  assert (NR : forall c, In c s -> is_char_romaji c = false).
  { intros c I. apply not_true_iff_false. rewrite romaji_spec. specialize (H c I).
    unfold is_char_kana in H. rewrite orb_true_iff, hiragana_spec, katakana_spec in H.
    assert (0x3041 <= c) by (unfold S_hiragana, S_katakana, between in H; lia).
    unfold S_romaji. change (u "ĀāĒēĪīŌōŪū") with [256;257;274;275;298;299;332;333;362;363].
    cbn [In]. lia. }
  assert (M : is_mixed s = false).
  { unfold is_mixed, is_mixed_pass_kanji.
    replace (existsb is_char_romaji s) with false; [rewrite andb_false_r; reflexivity|].
    symmetry. apply not_true_iff_false. rewrite existsb_exists. intros (c & I & R).
    rewrite (NR c I) in R. discriminate. }
  assert (R : is_romaji s = false).
  { destruct s as [|a s]; [reflexivity|]. unfold is_romaji. cbn [forallb is_empty]. now rewrite (NR a) by now left. }
  assert (P : first_punct s = false).
  { destruct s as [|a s]; [reflexivity|]. unfold first_punct. cbn [nth_error option_map].
    apply not_true_iff_false. rewrite en_punct_spec. specialize (H a (or_introl eq_refl)).
    unfold is_char_kana in H. rewrite orb_true_iff, hiragana_spec, katakana_spec in H.
    assert (0x3041 <= a) by (unfold S_hiragana, S_katakana, between in H; lia).
    unfold S_en_punct.
    match goal with |- context [In a ?l] => let x := eval vm_compute in l in change l with x end.
    cbn [In]. lia. }
  unfold hira_pure, kata_pure. rewrite M, R, P. destruct (pass_romaji o); auto.
Qed.

(** ** C20 *)
Lemma h2k_letter c : hiragana_letter c -> h2k_char c = c + 96.
Proof. intro H. apply h2k_char_spec. unfold katakana_for, hiragana_letter in *. lia. Qed.
Lemma k2hc_letter c : 0x30A1 <= c <= 0x30F4 -> k2hc c = c - 96.
Proof. intro H. apply k2hc_spec. unfold hiragana_for. tauto. Qed.
Lemma kana_of_range c : 0x3041 <= c <= 0x3096 \/ 0x30A1 <= c <= 0x30FC -> is_char_kana c = true.
Proof.
  intro H. unfold is_char_kana. rewrite orb_true_iff, hiragana_spec, katakana_spec.
  unfold S_hiragana, S_katakana, between. lia.
Qed.
Lemma hira_kata_hira E o o' h : (forall c, In c h -> 0x3041 <= c <= 0x3094) ->
  hira_pure E o' (kata_pure E o h) = h.
Proof.
  intro H. destruct (kana_plain E o h) as [_ ->].
  { intros c I. apply kana_of_range. specialize (H c I). lia. }
  assert (B : forall c, In c (h2k h) -> 0x30A1 <= c <= 0x30F4).
  { intros c I. unfold h2k in I. apply in_map_iff in I. destruct I as (x & <- & I). specialize (H x I).
    rewrite h2k_letter by (unfold hiragana_letter; lia). lia. }
  destruct (kana_plain E o' (h2k h)) as [-> _].
  { intros c I. apply kana_of_range. specialize (B c I). lia. }
  rewrite k2h_no_dash.
  - unfold h2k. rewrite map_map. rewrite <- map_id. apply map_ext_in. intros c I.
    specialize (H c I). rewrite h2k_letter by (unfold hiragana_letter; lia).
    rewrite k2hc_letter by lia. lia.
  - intro I. apply B in I. unfold long_mark in I. lia.
Qed.
Lemma kata_hira_kata E o o' k : (forall c, In c k -> 0x30A1 <= c <= 0x30F4 \/ c = 0x30F5 \/ c = 0x30F6 \/ c = 0x30FB) ->
  kata_pure E o' (hira_pure E o k) = k.
Proof.
  intro H. destruct (kana_plain E o k) as [-> _].
  { intros c I. apply kana_of_range. specialize (H c I). lia. }
  assert (ND : ~ In long_mark k) by (intro I; apply H in I; unfold long_mark in I; lia).
  rewrite k2h_no_dash by exact ND.
  assert (B : forall c, In c k -> h2k_char (k2hc c) = c /\ is_char_kana (k2hc c) = true).
  { intros c I. specialize (H c I).
    assert (Q : hiragana_for c (k2hc c)) by now apply k2hc_spec.
    unfold hiragana_for in Q. symspec. split.
    - apply h2k_char_spec. unfold katakana_for. lia.
    - apply kana_of_range. lia. }
  destruct (kana_plain E o' (map k2hc k)) as [_ ->].
  { intros c I. apply in_map_iff in I. destruct I as (x & <- & I). now apply B. }
  unfold h2k. rewrite map_map. rewrite <- map_id. apply map_ext_in. intros c I. now apply B.
Qed.

(** ** C21 *)
Lemma hira_fixed E o s : (forall c, In c s -> S_hiragana c) -> hira_pure E o s = s.
Proof.
  intro H. destruct (kana_plain E o s) as [-> _].
  { intros c I. apply kana_of_range. specialize (H c I). unfold S_hiragana, between in H. lia. }
  apply k2h_no_katakana. intros c I. specialize (H c I). unfold S_hiragana, between, katakana_letter in *. lia.
Qed.
Lemma kata_fixed E o s : (forall c, In c s -> S_katakana c) -> kata_pure E o s = s.
Proof.
  intro H. destruct (kana_plain E o s) as [_ ->].
  { intros c I. apply kana_of_range. specialize (H c I). unfold S_katakana, between in H. lia. }
  unfold h2k. rewrite <- map_id. apply map_ext_in. intros c I. apply h2k_char_spec.
  unfold katakana_for. specialize (H c I). unfold S_katakana, between in H. lia.
Qed.

(** ** C19, C22: the whole of katakana_to_hiragana *)
Definition letters_table : list N := Eval vm_compute in
  filter (fun c => negb (existsb (N.eqb c) (u "ヵヶ"))) (map (fun i => 0x30A1 + N.of_nat i) (seq 0 90)).
Lemma letters_In k : katakana_letter k -> ~ In k (u "ヵヶ") -> In k letters_table.
Proof.
  unfold katakana_letter. change (u "ヵヶ") with [0x30F5; 0x30F6]. intros H1 H2.
  assert (R : exists i, (i < 90)%nat /\ k = 0x30A1 + N.of_nat i).
  { exists (N.to_nat (k - 0x30A1)). lia. }
  destruct R as (i & Hi & ->).
  assert (B : forallb (fun i => existsb (N.eqb (0x30A1 + N.of_nat i)) letters_table
     || (0x30A1 + N.of_nat i =? 0x30F5) || (0x30A1 + N.of_nat i =? 0x30F6)) (seq 0 90) = true)
    by (vm_compute; reflexivity).
  rewrite forallb_forall in B. specialize (B i). rewrite in_seq in B.
  assert (B' := B ltac:(lia)). apply orb_prop in B'. destruct B' as [B'|B'].
  - apply orb_prop in B'. destruct B' as [B'|B'].
    + apply existsb_exists in B'. destruct B' as (x & I & Q). apply N.eqb_eq in Q. now rewrite Q.
    + exfalso. apply H2. left. lia.
  - exfalso. apply H2. right. left. lia.
Qed.

Definition o_vowel (d : bool) : str := if d then u "お" else u "う".
(** the marks after each letter, whatever child the search returns *)
Definition vowel_of (d : bool) (n : rnode) : str :=
  match last_char (rout n) with
  | Some r => if (r =? ch "o") && d then [ch "お"] else match LONG_VOWELS r with Some h => [h] | None => [] end
  | None => []
  end.
Definition mark_vowelb (o : str) (k : N) (v : str) : bool :=
  existsb (fun r => existsb (N.eqb k) (fst r) && str_eqb (snd r) v) (mark_table o).
Lemma mark_vowelb_ok o k v : mark_vowelb o k v = true -> mark_vowel o k v.
Proof.
  unfold mark_vowelb, mark_vowel. intro H. apply existsb_exists in H. destruct H as ([row w] & I & H).
  cbn [fst snd] in H. apply andb_prop in H. destruct H as [H1 H2]. apply existsb_exists in H1.
  destruct H1 as (x & J & Q). apply N.eqb_eq in Q. subst x. apply str_eqb_eq in H2. subst w. eauto.
Qed.
Lemma mark_check d k m : In k letters_table -> In (k2hc k, m) (rts RT) -> mark_vowel (o_vowel d) k (vowel_of d m).
Proof.
  intros H1 H2. apply mark_vowelb_ok.
  assert (B : forall d, forallb (fun k => forallb (fun t => negb (fst t =? k2hc k) || mark_vowelb (o_vowel d) k (vowel_of d (snd t))) (rts RT)) letters_table = true)
    by (intros [|]; vm_compute; reflexivity).
  specialize (B d). rewrite forallb_forall in B. specialize (B k H1). rewrite forallb_forall in B.
  specialize (B _ H2). cbn [fst snd] in B. rewrite N.eqb_refl in B. exact B.
Qed.
Lemma mark_found k : In k letters_table -> In (k2hc k) (map fst (rts RT)).
Proof.
  intro H.
  assert (B : forallb (fun k => existsb (N.eqb (k2hc k)) (map fst (rts RT))) letters_table = true)
    by (vm_compute; reflexivity).
  rewrite forallb_forall in B. specialize (B k H). apply existsb_exists in B.
  destruct B as (x & I & Q). apply N.eqb_eq in Q. now rewrite Q.
Qed.
Lemma k2h_vowel_spec E d q k : std_ok E -> is_char_katakana q = true ->
  katakana_letter k -> ~ In k (u "ヵヶ") ->
  mark_vowel (o_vowel d) k (k2h_vowel E d q (k2hc k) long_mark).
Proof.
  intros HE Q K1 K2. pose proof (letters_In k K1 K2) as L. unfold k2h_vowel.
  destruct (rfind E RT (k2hc k)) as [n|] eqn:F.
  - pose proof (rfind_Some E [] RT _ n HE r_root F) as I. pose proof (mark_check d k n L I) as C.
    unfold vowel_of in C. rewrite Q. cbn [andb]. exact C.
  - apply (rfind_None E [] RT _ HE r_root) in F. exfalso. apply F. now apply mark_found.
Qed.

Lemma lengthens_snoc a c k : lengthens (a ++ [c]) k <->
  (k = c /\ katakana_letter c /\ ~ In c (u "ヵヶ")) \/ (In c (u "ー・ヵヶ") /\ lengthens a k).
Proof.
  split.
  - intros (a' & run & Eq & K1 & K2 & F). destruct run as [|x run _] using rev_ind.
    + apply app_inj_tail in Eq. destruct Eq as [_ ->]. left. auto.
    + replace (a' ++ k :: run ++ [x]) with ((a' ++ k :: run) ++ [x]) in Eq by (rewrite <- app_assoc; reflexivity).
      apply app_inj_tail in Eq. destruct Eq as [-> ->]. apply Forall_app in F. destruct F as [F1 F2].
      inversion F2; subst. right. split; [assumption|]. exists a', run. auto.
  - intros [(-> & K1 & K2)|(I & a' & run & -> & K1 & K2 & F)].
    + exists a, []. auto.
    + exists a', (run ++ [c]). rewrite <- app_assoc. cbn. split; [reflexivity|]. split; [exact K1|].
      split; [exact K2|]. apply Forall_app. auto.
Qed.
Lemma lengthens_nil k : ~ lengthens [] k.
Proof. intros (a' & run & Eq & _). destruct a'; discriminate. Qed.

(** the state of the loop after [a] *)
Definition pk_state (a : str) (pk : option N) : Prop :=
  match pk with
  | Some h => exists k, lengthens a k /\ h = k2hc k
  | None => ~ exists k, lengthens a k
  end.
Lemma last_katakana a k q : lengthens a k -> last_char a = Some q -> is_char_katakana q = true.
Proof.
  intros (a' & run & -> & K1 & K2 & F) L. apply katakana_spec. unfold S_katakana, between.
  destruct run as [|x run _] using rev_ind.
  - rewrite last_char_snoc in L. inversion L; subst. unfold katakana_letter in K1. lia.
  - replace (a' ++ k :: run ++ [x]) with ((a' ++ k :: run) ++ [x]) in L by (rewrite <- app_assoc; reflexivity).
    rewrite last_char_snoc in L. inversion L; subst. apply Forall_app in F. destruct F as [_ F].
    inversion F; subst. revert H1. change (u "ー・ヵヶ") with [0x30FC; 0x30FB; 0x30F5; 0x30F6]. cbn [In]. lia.
Qed.

Lemma k2h_go_text E d : std_ok E -> forall s a pk, pk_state a pk ->
  hiragana_text (o_vowel d) a s (k2h_go E d (last_char a) pk s).
Proof.
  intro HE. induction s as [|c s IH]; intros a pk P; [constructor|].
  assert (Step : forall p pk', hiragana_piece (o_vowel d) a c p -> pk_state (a ++ [c]) pk' ->
      hiragana_text (o_vowel d) a (c :: s) (p ++ k2h_go E d (Some c) pk' s)).
  { intros p pk' Hp Hs. constructor; [exact Hp|]. rewrite <- (last_char_snoc a c). now apply IH. }
  assert (Keep : In c (u "ー・ヵヶ") -> pk_state (a ++ [c]) pk).
  { intro I. destruct pk as [h|]; cbn in *.
    - destruct P as (k & K & ->). exists k. split; [|reflexivity]. apply lengthens_snoc. auto.
    - intros (k & K). apply lengthens_snoc in K. destruct K as [(-> & K1 & K2)|(_ & K)]; [|eauto].
      revert I K1 K2. change (u "ー・ヵヶ") with [0x30FC; 0x30FB; 0x30F5; 0x30F6].
      change (u "ヵヶ") with [0x30F5; 0x30F6]. unfold katakana_letter. cbn [In]. lia. }
  cbn [k2h_go].
  destruct (is_char_long_dash c) eqn:L.
  - assert (Ec : c = long_mark) by (unfold is_char_long_dash, PROLONGED_SOUND_MARK in L; apply N.eqb_eq in L; exact L).
    subst c. change (is_char_slash_dot long_mark) with false. change (is_kana_as_symbol long_mark) with false.
    cbn [orb andb negb]. rewrite orb_false_r.
    specialize (Keep ltac:(now left)).
    destruct (is_none (last_char a)) eqn:Nn.
    + apply (Step [long_mark] pk); [|exact Keep]. right. right. split; [reflexivity|]. split; [|reflexivity].
      destruct a as [|x a _] using rev_ind; [|rewrite last_char_snoc in Nn; discriminate].
      intros (k & K). now apply lengthens_nil in K.
    + destruct (last_char a) as [q|] eqn:La; [|discriminate]. destruct pk as [h|].
      * cbn in P. destruct P as (k & K & ->). apply Step; [|exact Keep]. right. left. split; [reflexivity|].
        exists k. split; [exact K|]. apply k2h_vowel_spec; auto.
        -- eapply last_katakana; eauto.
        -- destruct K as (? & ? & ? & ? & ? & ?). assumption.
        -- destruct K as (? & ? & ? & ? & ? & ?). assumption.
      * apply (Step [long_mark] None); [|exact Keep]. right. right. auto.
  - assert (Nc : c <> long_mark) by (unfold is_char_long_dash, PROLONGED_SOUND_MARK in L; apply N.eqb_neq in L; exact L).
    assert (Pc : hiragana_piece (o_vowel d) a c [k2hc c]).
    { left. split; [exact Nc|]. exists (k2hc c). split; [now apply k2hc_spec|reflexivity]. }
    cbn [andb]. rewrite orb_false_r. unfold k2hc in Pc. rewrite L, orb_false_r in Pc.
    destruct (is_char_slash_dot c || is_kana_as_symbol c) eqn:S1.
    + apply (Step [c] pk); [exact Pc|]. apply Keep. symspec. charspec.
      change (u "ー・ヵヶ") with [0x30FC; 0x30FB; 0x30F5; 0x30F6]. cbn [In]. lia.
    + assert (G : hiragana_text (o_vowel d) a (c :: s) (if is_char_katakana c
        then hira_of_kata c :: k2h_go E d (Some c) (Some (hira_of_kata c)) s
        else c :: k2h_go E d (Some c) None s)).
      { destruct (is_char_katakana c) eqn:B.
        - apply (Step [hira_of_kata c] (Some (hira_of_kata c))); [exact Pc|].
          exists c. split.
          + apply lengthens_snoc. left. split; [reflexivity|]. symspec. unfold katakana_letter.
            change (u "ヵヶ") with [0x30F5; 0x30F6]. cbn [In]. charspec. lia.
          + unfold k2hc. now rewrite S1, L, B.
        - apply (Step [c] None); [exact Pc|]. cbn. intros (k & K). apply lengthens_snoc in K.
          destruct K as [(-> & K1 & _)|(K & _)].
          + apply not_true_iff_false in B. apply B. apply katakana_spec. unfold katakana_letter, S_katakana, between in *. lia.
          + revert K. change (u "ー・ヵヶ") with [0x30FC; 0x30FB; 0x30F5; 0x30F6]. cbn [In]. symspec. charspec. lia. }
      destruct (last_char a), pk; exact G.
Qed.
Lemma k2h_text E d s : std_ok E -> hiragana_text (o_vowel d) [] s (k2h E d s).
Proof.
  intro HE. apply (k2h_go_text E d HE s [] None). cbn. intros (k & K). now apply lengthens_nil in K.
Qed.

(** the specification determines the text when ヴ does not occur *)
Lemma mark_vowel_In o k v : mark_vowel o k v -> exists i, nth_error (map fst (mark_table o)) i = nth_error (map fst (mark_table [])) i /\
  exists row, nth_error (mark_table o) i = Some (row, v) /\ In k row.
Proof.
  intros (row & I & J). apply In_nth_error in I. destruct I as (i & I). exists i. split; [reflexivity|]. eauto.
Qed.
Lemma mark_rows_disjoint i j r1 r2 k : k <> ch "ヴ" ->
  nth_error (map fst (mark_table [])) i = Some r1 -> nth_error (map fst (mark_table [])) j = Some r2 ->
  In k r1 -> In k r2 -> i = j.
Proof.
  intros Nk H1 H2 I1 I2.
  assert (Li : (i < 6)%nat) by (apply (nth_error_Some (map fst (mark_table []))); congruence).
  assert (Lj : (j < 6)%nat) by (apply (nth_error_Some (map fst (mark_table []))); congruence).
  assert (B : forallb (fun i => forallb (fun j => Nat.eqb i j ||
    match nth_error (map fst (mark_table [])) i, nth_error (map fst (mark_table [])) j with
    | Some a, Some b => forallb (fun x => (x =? ch "ヴ") || negb (existsb (N.eqb x) b)) a
    | _, _ => true end) (seq 0 6)) (seq 0 6) = true) by (vm_compute; reflexivity).
  rewrite forallb_forall in B. specialize (B i). rewrite in_seq in B. specialize (B ltac:(lia)).
  rewrite forallb_forall in B. specialize (B j). rewrite in_seq in B. specialize (B ltac:(lia)).
  rewrite H1, H2 in B. destruct (Nat.eqb i j) eqn:Q; [now apply Nat.eqb_eq in Q|]. cbn [orb] in B.
  rewrite forallb_forall in B. specialize (B k I1). apply orb_prop in B. destruct B as [B|B].
  - apply N.eqb_eq in B. contradiction.
  - apply negb_true_iff in B. assert (existsb (N.eqb k) r2 = true) by (apply existsb_exists; exists k; split; [exact I2|apply N.eqb_refl]).
    congruence.
Qed.
Lemma mark_vowel_det o k v v' : k <> ch "ヴ" -> mark_vowel o k v -> mark_vowel o k v' -> v = v'.
Proof.
  intros Nk H H'. apply mark_vowel_In in H, H'. destruct H as (i & Ei & r & Hr & Ir), H' as (j & Ej & r' & Hr' & Ir').
  assert (Q : i = j).
  { apply (mark_rows_disjoint i j r r' k Nk); auto.
    - rewrite <- Ei, nth_error_map, Hr. reflexivity.
    - rewrite <- Ej, nth_error_map, Hr'. reflexivity. }
  subst j. congruence.
Qed.
Lemma lengthens_det a k k' : lengthens a k -> lengthens a k' -> k = k'.
Proof.
  induction a as [|c a IH] using rev_ind; [intro H; now apply lengthens_nil in H|].
  rewrite !lengthens_snoc. intros [(-> & A1 & A2)|(A & A')] [(-> & B1 & B2)|(B & B')]; auto; exfalso.
  - revert B A1 A2. change (u "ー・ヵヶ") with [0x30FC; 0x30FB; 0x30F5; 0x30F6]. change (u "ヵヶ") with [0x30F5; 0x30F6].
    unfold katakana_letter. cbn [In]. lia.
  - revert A B1 B2. change (u "ー・ヵヶ") with [0x30FC; 0x30FB; 0x30F5; 0x30F6]. change (u "ヵヶ") with [0x30F5; 0x30F6].
    unfold katakana_letter. cbn [In]. lia.
Qed.
Lemma hiragana_text_det o a s t t' : ~ In (ch "ヴ") (a ++ s) ->
  hiragana_text o a s t -> hiragana_text o a s t' -> t = t'.
Proof.
  intros H HT. revert t' H. induction HT as [a|a c s p t Hp HT IH]; intros t' NV H'; inversion H' as [|? ? ? p' t2 Hp' HT']; subst; [reflexivity|].
  rewrite (IH t2); [| |exact HT'].
  2:{ rewrite <- app_assoc. exact NV. }
  f_equal. destruct Hp as [(N1 & h & A & ->)|[(E1 & k & A & B)|(E1 & A & ->)]],
    Hp' as [(N2 & h' & A' & ->)|[(E2 & k' & A' & B')|(E2 & A' & ->)]]; try contradiction; auto.
  - apply k2hc_spec in A, A'. congruence.
  - assert (k = k') by (eapply lengthens_det; eauto). subst k'. eapply mark_vowel_det; eauto.
    intros ->. apply NV. destruct A as (a' & run & -> & _). apply in_or_app. left. apply in_or_app. right. now left.
  - exfalso. eauto.
  - exfalso. eauto.
Qed.

(** katakana words: letters with marks *)
Lemma hiragana_text_marks o k v n : mark_vowel o k v -> forall a s t, lengthens a k ->
  (forall a', lengthens a' k -> hiragana_text o a' s t) ->
  hiragana_text o a (repeat long_mark n ++ s) (concat (repeat v n) ++ t).
Proof.
  intro V. induction n as [|n IH]; intros a s t K H; cbn; [now apply H|].
  rewrite <- app_assoc. constructor.
  - right. left. split; [reflexivity|]. eauto.
  - apply IH; [|exact H]. apply lengthens_snoc. right. split; [now left|exact K].
Qed.
Lemma mark_letter o k v : mark_vowel o k v -> katakana_letter k /\ ~ In k (u "ヵヶ") /\ k <> long_mark.
Proof.
  intro H. apply mark_vowel_In in H. destruct H as (i & Ei & r & Hr & I).
  assert (B : forallb (fun r => forallb (fun k => (0x30A1 <=? k) && (k <=? 0x30FA) && negb (k =? 0x30F5) && negb (k =? 0x30F6)) r) (map fst (mark_table [])) = true)
    by (vm_compute; reflexivity).
  rewrite forallb_forall in B. specialize (B r).
  assert (J : In r (map fst (mark_table []))).
  { apply (nth_error_In _ i). rewrite <- Ei, nth_error_map, Hr. reflexivity. }
  specialize (B J). rewrite forallb_forall in B. specialize (B k I).
  unfold katakana_letter, long_mark. change (u "ヵヶ") with [0x30F5; 0x30F6]. cbn [In]. lia.
Qed.
Lemma word_text o ms : Forall (word_letter o) ms -> forall a,
  hiragana_text o a (word_katakana ms) (word_hiragana ms).
Proof.
  induction 1 as [|[[[k h] v] n] ms [H1 H2] _ IH]; intro a; [constructor|].
  cbn [word_katakana word_hiragana flat_map app].
  destruct (mark_letter o k v H2) as (K1 & K2 & K3).
  apply (HT_cons o a k _ [h] (concat (repeat v n) ++ word_hiragana ms)); [left; eauto|].
  apply hiragana_text_marks with (k := k); auto. apply lengthens_snoc. left. auto.
Qed.
Lemma word_kana o ms c : Forall (word_letter o) ms -> In c (word_katakana ms) -> 0x30A1 <= c <= 0x30FC.
Proof.
  intros H I. apply in_flat_map in I. destruct I as ([[[k h] v] n] & J & I). rewrite Forall_forall in H.
  destruct (H _ J) as [_ V]. apply mark_letter in V. unfold katakana_letter, long_mark in V.
  destruct I as [<-|I]; [lia|]. apply repeat_spec in I. subst c. unfold long_mark. lia.
Qed.
Lemma k2h_word E d ms : std_ok E -> Forall (word_letter (o_vowel d)) ms -> ~ In (ch "ヴ") (word_katakana ms) ->
  k2h E d (word_katakana ms) = word_hiragana ms.
Proof.
  intros HE H NV. eapply hiragana_text_det; [|apply (k2h_text E d _ HE)|apply (word_text _ _ H)]. exact NV.
Qed.
Lemma hira_word E o ms : std_ok E -> Forall (word_letter (u "う")) ms -> ~ In (ch "ヴ") (word_katakana ms) ->
  hira_pure E o (word_katakana ms) = word_hiragana ms.
Proof.
  intros HE H NV. destruct (kana_plain E o (word_katakana ms)) as [-> _].
  { intros c I. apply kana_of_range. apply (word_kana _ _ _ H) in I. lia. }
  exact (k2h_word E false ms HE H NV).
Qed.

(** ** C09 for the script conversions *)
Lemma lower_from_length E s : std_ok E -> (forall c, In c s -> c < 128 \/ caseless c = true) ->
  forall b, length (to_lowercase_from E b s) = length s.
Proof.
  intros HE. induction s as [|c s IH]; intros H b; [reflexivity|]. cbn [to_lowercase_from]. rewrite app_length.
  rewrite IH by (intros x I; apply H; now right). destruct (c =? SIGMA).
  - destruct (_ && _); reflexivity.
  - destruct (H c (or_introl eq_refl)) as [A|A].
    + rewrite (ok_lower_ascii E HE c A). reflexivity.
    + rewrite (ok_lower_caseless E HE c A). reflexivity.
Qed.
Lemma lower_length E s : std_ok E -> (forall c, In c s -> c < 128 \/ caseless c = true) ->
  length (to_lowercase E s) = length s.
Proof. intros HE H. now apply lower_from_length. Qed.
Lemma k2h_case E d s : (forall c, In c s -> c < 128 \/ caseless c = true) ->
  forall c, In c (k2h E d s) -> c < 128 \/ caseless c = true.
Proof.
  intros H c I. apply k2h_go_In in I. destruct I as [I|[_ I]].
  - apply in_map_iff in I. destruct I as (x & <- & I). specialize (H x I).
    assert (Q : hiragana_for x (k2hc x)) by now apply k2hc_spec. unfold hiragana_for in Q. symspec.
    unfold caseless in *. lia.
  - apply vowel_not_katakana in I. unfold caseless. lia.
Qed.
Lemma script_length E o s : std_ok E -> (forall c, In c s -> c < 128 \/ caseless c = true) ->
  (length (hira_pure E o s) <= length s)%nat /\ (length (kata_pure E o s) <= length s)%nat.
Proof.
  intros HE H.
  assert (K : forall t, (forall c, In c t -> c < 128 \/ caseless c = true) ->
     (length (kconv (k_tree o) (to_lowercase E t)) <= length t)%nat).
  { intros t Ht. rewrite k_tree_mode. rewrite <- (lower_length E t HE Ht). apply conv_length. }
  pose proof (k2h_length E false s) as L. split.
  - unfold hira_pure. destruct (pass_romaji o); [exact L|]. destruct (is_mixed s).
    + etransitivity; [apply K; intros c I; eapply k2h_case; eauto|exact L].
    + destruct (_ || _); [apply K, H|exact L].
  - unfold kata_pure, h2k. destruct (pass_romaji o); [rewrite map_length; lia|].
    destruct (_ || _); rewrite map_length; [apply K, H|lia].
Qed.

(** ** C54 *)
Lemma emit_In seg v x : In x (emit seg v) -> In x v \/ exists y, In y v /\ x = h2k_char y.
Proof.
  unfold emit. destruct (forallb _ _); [|auto]. unfold h2k. rewrite in_map_iff. intros (y & <- & I). eauto.
Qed.
Lemma h2k_char_scalar c : is_scalar c = true -> is_scalar (h2k_char c) = true.
Proof.
  intro H. assert (Q : katakana_for c (h2k_char c)) by now apply h2k_char_spec.
  unfold katakana_for, hiragana_letter in Q. unfold is_scalar in *. lia.
Qed.
Lemma k2hc_scalar c : is_scalar c = true -> is_scalar (k2hc c) = true.
Proof.
  intro H. assert (Q : hiragana_for c (k2hc c)) by now apply k2hc_spec.
  unfold hiragana_for in Q. symspec. unfold is_scalar in *. lia.
Qed.
Lemma outputs_scalar m k v x : entry m k v -> In x v -> is_scalar x = true.
Proof.
  assert (H : forallb (fun e => forallb is_scalar (snd e)) (dict m) = true) by (destruct m; vm_compute; reflexivity).
  rewrite forallb_forall in H. intros I J. specialize (H _ I). cbn [snd] in H.
  rewrite forallb_forall in H. now apply H.
Qed.
Lemma conv_scalar m s : (forall c, In c s -> is_scalar c = true) -> forall c, In c (conv m s) -> is_scalar c = true.
Proof.
  intros H c I. apply conv_In in I. destruct I as [I|(seg & v & A & I & _)]; [auto|].
  apply emit_In in I. destruct I as [I|(y & I & ->)]; [|apply h2k_char_scalar]; eapply outputs_scalar; eauto.
Qed.
Lemma h2k_scalar s : (forall c, In c s -> is_scalar c = true) -> forall c, In c (h2k s) -> is_scalar c = true.
Proof. intros H c I. unfold h2k in I. apply in_map_iff in I. destruct I as (y & <- & I). now apply h2k_char_scalar, H. Qed.
Lemma k2h_scalar E d s : (forall c, In c s -> is_scalar c = true) -> forall c, In c (k2h E d s) -> is_scalar c = true.
Proof.
  intros H c I. apply k2h_go_In in I. destruct I as [I|[_ I]].
  - apply in_map_iff in I. destruct I as (y & <- & I). now apply k2hc_scalar, H.
  - apply vowel_not_katakana in I. unfold is_scalar. lia.
Qed.
Lemma lower_scalar E s : std_ok E -> (forall c, In c s -> is_scalar c = true) ->
  forall c, In c (to_lowercase E s) -> is_scalar c = true.
Proof.
  intro HE. unfold to_lowercase. generalize (@nil N) as b. induction s as [|x s IH]; intros b H c; [intros []|].
  cbn [to_lowercase_from]. intro I. apply in_app_or in I. destruct I as [I|I].
  - destruct (x =? SIGMA); [destruct (_ && _); cbn in I; destruct I as [<-|[]]; reflexivity|].
    pose proof (ok_lower_scalar E HE x (H x (or_introl eq_refl))) as F. rewrite forallb_forall in F. now apply F.
  - apply (IH (x :: b)); auto. intros y J. apply H. now right.
Qed.
Lemma script_scalar E o s : std_ok E -> (forall c, In c s -> is_scalar c = true) ->
  (forall c, In c (hira_pure E o s) -> is_scalar c = true) /\
  (forall c, In c (kata_pure E o s) -> is_scalar c = true).
Proof.
  intros HE H.
  assert (K : forall t, (forall c, In c t -> is_scalar c = true) ->
     forall c, In c (kconv (k_tree o) (to_lowercase E t)) -> is_scalar c = true).
  { intros t Ht. rewrite k_tree_mode. apply conv_scalar. now apply lower_scalar. }
  pose proof (k2h_scalar E false s H) as L. split.
  - unfold hira_pure. destruct (pass_romaji o); [exact L|]. destruct (is_mixed s); [now apply K|].
    destruct (_ || _); [now apply K|exact L].
  - unfold kata_pure. destruct (pass_romaji o); [now apply h2k_scalar|]. destruct (_ || _); apply h2k_scalar; [now apply K|exact H].
Qed.

(** ** C61-C64 *)
Lemma mixed_spec s : is_mixed s = true <-> mixed_text s.
Proof. apply mixed_iff. Qed.
Lemma romaji_text_spec s : is_romaji s = true <-> all_nonempty S_romaji s.
Proof. apply all_pred, romaji_spec. Qed.
Lemma first_punct_spec s : first_punct s = true <-> starts_with_punct s.
Proof.
  unfold first_punct, starts_with_punct. destruct s as [|c r]; cbn [nth_error option_map].
  - split; [discriminate|]. intros (c & r & H & _). discriminate.
  - rewrite en_punct_spec. split; [eauto|]. intros (c' & r' & H & K). inversion H; subst. exact K.
Qed.
Lemma lower_from_low E s : std_ok E -> ascii_or_caseless s ->
  forall b, to_lowercase_from E b s = low s.
Proof.
  intro HE. induction s as [|c s IH]; intros H b; [reflexivity|]. cbn [to_lowercase_from].
  rewrite IH by (intros x I; apply H; now right).
  assert (S : c =? SIGMA = false).
  { specialize (H c (or_introl eq_refl)). apply N.eqb_neq. intros ->. destruct H as [H|H]; [unfold SIGMA in H; lia|discriminate]. }
  rewrite S. cbn. destruct (H c (or_introl eq_refl)) as [A|A].
  - rewrite (ok_lower_ascii E HE c A). reflexivity.
  - rewrite (ok_lower_caseless E HE c A). cbn. f_equal. unfold ascii_lower, caseless in *.
    replace ((0x41 <=? c) && (c <=? 0x5A)) with false by lia. reflexivity.
Qed.
Lemma lower_low E s : std_ok E -> ascii_or_caseless s -> to_lowercase E s = low s.
Proof. intros HE H. now apply lower_from_low. Qed.
Lemma low_lowers s : Forall2 lowers s (low s).
Proof. induction s as [|c s IH]; constructor; [now apply lowers_lower|exact IH]. Qed.
Lemma ascii_k2h E d s : ascii_or_caseless s -> ascii_or_caseless (k2h E d s).
Proof. intros H c. apply k2h_case, H. Qed.
Lemma k2h_lib E E' d s : std_ok E -> std_ok E' -> ~ (In (ch "ヴ") s /\ In long_mark s) -> k2h E d s = k2h E' d s.
Proof.
  intros HE HE' H. destruct (in_dec N.eq_dec long_mark s) as [I|I].
  - eapply (hiragana_text_det (o_vowel d) [] s); [|now apply k2h_text|now apply k2h_text]. cbn. tauto.
  - now rewrite !k2h_no_dash.
Qed.
