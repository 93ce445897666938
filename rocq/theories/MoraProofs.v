(** * Mora sequences: C23, C24, C32, C34 *)
From Verif Require Import Tac Base Std Constants Chars Trees KanaTree RomajiTree Strings Convert
  KanaPure RomajiPure KanaSpec KanaDict KanaProofs Predicates ScriptSpec ScriptProofs RomajiSpec RomajiProofs.

Lemma existsb_In c l : existsb (N.eqb c) l = true <-> In c l.
Proof.
  rewrite existsb_exists. split.
  - intros (x & I & Q). apply N.eqb_eq in Q. now subst.
  - intro I. exists c. split; [exact I|apply N.eqb_refl].
Qed.

(** ** Finite facts about the syllables *)
(** first characters of morae *)
Definition heads : list N := Eval vm_compute in u "っん" ++ map (fun e => hd 0 (fst e)) syllables.
Definition key_b (k : str) : bool := existsb (fun e => str_eqb (fst e) k) rdict.
Lemma key_b_spec k v : key_b k = false -> ~ r_entry k v.
Proof.
  intros H I. assert (key_b k = true); [|congruence]. unfold key_b. apply existsb_exists.
  exists (k, v). split; [exact I|]. cbn [fst]. now apply str_eqb_eq.
Qed.
Definition syl_ok (e : str * str) : bool :=
  match e with (k, r) =>
    pair_mem (k, r) rdict && negb (existsb (N.eqb vu) k)
    && forallb (fun c => negb (key_b (k ++ [c])) && negb (key_b (ch "っ" :: k ++ [c]))) heads
    && negb (is_empty k) && negb (is_empty r)
    && (first_in (u "aiueony") r || pair_mem (ch "っ" :: k, gem_spelling r) rdict)
    && existsb (N.eqb (hd 0 k)) heads
    && (negb (first_in (u "aiueoy") r) || (pair_mem (ch "ん" :: k, u "n'" ++ r) rdict
         && forallb (fun c => negb (key_b (ch "ん" :: k ++ [c]))) heads))
    && (first_in (u "aiueoy") r || negb (key_b [ch "ん"; hd 0 k]))
  end.
Lemma syllables_ok : forallb syl_ok syllables = true.
Proof. vm_cast_no_check (eq_refl true). Qed.

Opaque key_b pair_mem syllables rdict heads.
Record syl_facts (k r : str) : Prop := {
  sf_entry : r_entry k r;
  sf_vu : ~ In vu k;
  sf_next : forall c v, In c heads -> ~ r_entry (k ++ [c]) v;
  sf_gnext : forall c v, In c heads -> ~ r_entry ((ch "っ" :: k) ++ [c]) v;
  sf_k : exists c k', k = c :: k' /\ In c heads /\ (first_in (u "aiueoy") r = false -> forall v, ~ r_entry [ch "ん"; c] v);
  sf_r : r <> [];
  sf_gem : first_in (u "aiueony") r = false -> r_entry (ch "っ" :: k) (gem_spelling r);
  sf_n : first_in (u "aiueoy") r = true -> r_entry (ch "ん" :: k) (u "n'" ++ r) /\
         forall c v, In c heads -> ~ r_entry ((ch "ん" :: k) ++ [c]) v
}.
Lemma syllable_facts k r : In (k, r) syllables -> syl_facts k r.
Proof.
  intro I. pose proof syllables_ok as H. rewrite forallb_forall in H. specialize (H _ I).
  unfold syl_ok in H.
  repeat match goal with X : _ && _ = true |- _ => apply andb_prop in X; destruct X end.
  rename H into A1, H7 into A2, H6 into A3, H5 into A4, H4 into A5, H3 into A6, H2 into A7, H1 into A8, H0 into A9.
  constructor.
  - now apply pair_mem_In.
  - intro J. apply negb_true_iff in A2. apply existsb_In in J. congruence.
  - intros c v J. rewrite forallb_forall in A3. specialize (A3 _ J). apply andb_prop in A3. destruct A3 as [A3 _].
    apply negb_true_iff in A3. exact (key_b_spec _ v A3).
  - intros c v J. rewrite forallb_forall in A3. specialize (A3 _ J). apply andb_prop in A3. destruct A3 as [_ A3].
    apply negb_true_iff in A3. exact (key_b_spec _ v A3).
  - destruct k as [|c k]; [discriminate|]. exists c, k. split; [reflexivity|]. split; [now apply existsb_In|].
    intros F v. rewrite F in A9. cbn [orb hd] in A9. apply negb_true_iff in A9. exact (key_b_spec _ v A9).
  - intros ->. discriminate A5.
  - intro F. rewrite F in A6. now apply pair_mem_In.
  - intro F. rewrite F in A8. cbn [negb orb] in A8. apply andb_prop in A8. destruct A8 as [B1 B2]. split; [now apply pair_mem_In|].
    intros c v J. rewrite forallb_forall in B2. specialize (B2 _ J). apply negb_true_iff in B2. exact (key_b_spec _ v B2).
Qed.

(** ** C23 *)
Lemma mora_head m : standard m -> exists c k, mora_kana m = c :: k /\ In c heads.
Proof.
  destruct m as [k r|k r|]; cbn [standard mora_kana].
  - intro I. apply syllable_facts in I. destruct (sf_k _ _ I) as (c & k' & -> & J & _). eauto.
  - intros _. exists (ch "っ"), k. split; [reflexivity|]. now left.
  - intros _. exists (ch "ん"), []. split; [reflexivity|]. right. now left.
Qed.
Lemma text_head ms : Forall standard ms -> forall d rest, kana_text ms = d :: rest -> In d heads.
Proof.
  destruct 1 as [|m ms S _]; intros d rest E; [discriminate|].
  destruct (mora_head m S) as (c & k & Q & J). cbn [kana_text flat_map] in E. rewrite Q in E. cbn in E. now inversion E; subst.
Qed.
Lemma noup seg v : remit false seg v = v.
Proof. unfold remit. now rewrite andb_false_r. Qed.
Lemma n_alone E o rest : std_ok E -> (forall d rest' v, rest = d :: rest' -> ~ r_entry [ch "ん"; d] v) ->
  rconv E false o (u "ん" ++ rest) = u "n" ++ rconv E false (skipn 1 o) rest.
Proof.
  intros HE H. rewrite (rconv_seg E false o (u "ん") (u "n") rest HE).
  - now rewrite noup.
  - apply pair_mem_In. vm_compute. reflexivity.
  - intro I. apply existsb_In in I. vm_compute in I. discriminate.
  - exact H.
Qed.
Lemma gem_not_vowel r s : r <> [] -> first_in (u "aiueony") r = false -> first_in (u "aiueoy") (gem_spelling r ++ s) = false.
Proof.
  destruct r as [|c r]; [congruence|]. intros _. unfold gem_spelling, first_in. cbn [app].
  change (u "aiueony") with [97; 105; 117; 101; 111; 110; 121]. change (u "aiueoy") with [97; 105; 117; 101; 111; 121].
  change (ch "c") with 99. change (ch "t") with 116.
  destruct (c =? 99); [reflexivity|]. cbn [existsb]. intro H.
  repeat (apply orb_false_iff in H; destruct H as [? H]).
  repeat (apply orb_false_iff; split); auto.
Qed.
Lemma first_in_app cs r s : r <> [] -> first_in cs (r ++ s) = first_in cs r.
Proof. destruct r; [congruence|reflexivity]. Qed.

Lemma rconv_morae E : std_ok E -> forall n ms o, (length ms <= n)%nat -> Forall standard ms ->
  rconv E false o (kana_text ms) = hepburn ms.
Proof.
  intro HE. induction n as [|n IH]; intros ms o L F.
  { destruct ms; [reflexivity|cbn in L; lia]. }
  destruct F as [|m ms S F]; [reflexivity|]. cbn [length] in L.
  cbn [kana_text flat_map hepburn]. fold (kana_text ms).
  destruct m as [k r|k r|]; cbn [standard mora_kana mora_spelling] in *.
  - pose proof (syllable_facts k r S) as Fs.
    rewrite (rconv_seg E false o k r (kana_text ms) HE (sf_entry _ _ Fs) (sf_vu _ _ Fs)).
    + rewrite noup. f_equal. apply IH; [lia|exact F].
    + intros d rest' w Q. apply (sf_next _ _ Fs). eapply text_head; eauto.
  - destruct S as [S G]. pose proof (syllable_facts k r S) as Fs.
    rewrite (rconv_seg E false o (ch "っ" :: k) (gem_spelling r) (kana_text ms) HE (sf_gem _ _ Fs G)).
    + rewrite noup. f_equal. apply IH; [lia|exact F].
    + intros [J|J]; [discriminate J|]. now apply (sf_vu _ _ Fs) in J.
    + intros d rest' w Q. apply (sf_gnext _ _ Fs). eapply text_head; eauto.
  - destruct (first_in (u "aiueoy") (hepburn ms)) eqn:V.
    + (* n' *)
      destruct F as [|m ms S2 F]; [discriminate|]. cbn [kana_text flat_map hepburn] in *. fold (kana_text ms) in *.
      destruct m as [k r|k r|]; cbn [standard mora_kana mora_spelling] in *.
      * pose proof (syllable_facts k r S2) as Fs. rewrite first_in_app in V by exact (sf_r _ _ Fs).
        destruct (sf_n _ _ Fs V) as [N1 N2].
        change (u "ん" ++ k ++ kana_text ms) with ((ch "ん" :: k) ++ kana_text ms).
        rewrite (rconv_seg E false o (ch "ん" :: k) (u "n'" ++ r) (kana_text ms) HE N1).
        -- rewrite noup, <- app_assoc. do 2 f_equal. apply IH; [cbn in L; lia|exact F].
        -- intros [J|J]; [discriminate J|]. now apply (sf_vu _ _ Fs) in J.
        -- intros d rest' w Q. apply N2. eapply text_head; eauto.
      * destruct S2 as [S2 G]. pose proof (syllable_facts k r S2) as Fs.
        rewrite gem_not_vowel in V by first [exact (sf_r _ _ Fs)|exact G]. discriminate.
      * exfalso. revert V. destruct (first_in (u "aiueoy") (hepburn ms)); discriminate.
    + rewrite n_alone; [f_equal; apply IH; [lia|exact F]|exact HE|].
      destruct F as [|m ms S2 F]; [discriminate|]. cbn [kana_text flat_map hepburn] in *. fold (kana_text ms) in *.
      intros d rest' v Q.
      destruct m as [k r|k r|]; cbn [standard mora_kana mora_spelling] in *.
      * pose proof (syllable_facts k r S2) as Fs. rewrite first_in_app in V by exact (sf_r _ _ Fs).
        destruct (sf_k _ _ Fs) as (c & k' & -> & _ & X). cbn in Q. inversion Q; subst. now apply X.
      * cbn in Q. inversion Q; subst. apply key_b_spec. vm_compute. reflexivity.
      * cbn in Q. inversion Q; subst. apply key_b_spec. vm_compute. reflexivity.
Qed.

Lemma syllable_no_katakana k r c : In (k, r) syllables -> In c k -> 0x3041 <= c <= 0x3094.
Proof.
  intros I J. assert (H : forallb (fun e => forallb (fun c => (0x3041 <=? c) && (c <=? 0x3094)) (fst e)) syllables = true)
    by (vm_compute; reflexivity).
  rewrite forallb_forall in H. specialize (H _ I). cbn [fst] in H. rewrite forallb_forall in H. specialize (H _ J). lia.
Qed.
Lemma mora_hiragana m c : standard m -> In c (mora_kana m) -> 0x3041 <= c <= 0x3094.
Proof.
  destruct m as [k r|k r|]; cbn [standard mora_kana].
  - intros I J. eapply syllable_no_katakana; eauto.
  - intros [I _] [<-|J]; [change (ch "っ") with 0x3063; lia|eapply syllable_no_katakana; eauto].
  - intros _ J. change (u "ん") with [0x3093] in J. destruct J as [<-|[]]. lia.
Qed.
Lemma text_hiragana ms c : Forall standard ms -> In c (kana_text ms) -> 0x3041 <= c <= 0x3094.
Proof.
  intros F I. apply in_flat_map in I. destruct I as (m & I & J). rewrite Forall_forall in F. eapply mora_hiragana; eauto.
Qed.
Lemma romaji_of_morae E ms : std_ok E -> Forall standard ms ->
  rconv E false (kana_text ms) (k2h E true (kana_text ms)) = hepburn ms.
Proof.
  intros HE F. rewrite k2h_no_katakana.
  - now apply (rconv_morae E HE (length ms)).
  - intros c I. apply (text_hiragana _ _ F) in I. unfold katakana_letter. lia.
Qed.
Lemma romaji_of_hiragana E up ms : std_ok E -> Forall standard ms ->
  rconv E up (kana_text ms) (k2h E true (kana_text ms)) = hepburn ms.
Proof.
  intros HE F. rewrite <- (romaji_of_morae E ms HE F). destruct up; [|reflexivity].
  apply rom_no_katakana; [exact HE|]. intros c I. apply (text_hiragana _ _ F) in I. unfold S_kata. lia.
Qed.

(** ** C24 *)
Definition vowel_kana (v : N) : N :=
  if v =? ch "a" then ch "あ" else if v =? ch "i" then ch "い" else if v =? ch "u" then ch "う"
  else if v =? ch "e" then ch "え" else ch "お".
(** the marks written out as vowel morae *)
Definition expand (m : mora * nat) : list mora :=
  match fst m with
  | Nn => [Nn]
  | Syl k r | Gem k r => fst m :: repeat (Syl (map vowel_kana (last_vowel r)) (last_vowel r)) (snd m)
  end.
Definition kata (c : N) : N := c + 96.
Definition last_kana (k : str) : N := last k 0.
Definition marks_ok (e : str * str) : bool :=
  match e with (k, r) =>
    forallb (fun c => existsb (fun row => existsb (N.eqb (kata c)) (fst row)) (mark_table (u "お"))) k
    && mark_vowelb (u "お") (kata (last_kana k)) (map vowel_kana (last_vowel r))
    && pair_mem (map vowel_kana (last_vowel r), last_vowel r) syllables
    && str_eqb (last_vowel (gem_spelling r)) (last_vowel r)
  end.
Lemma marks_table_ok : forallb marks_ok syllables = true.
Proof. vm_compute. reflexivity. Qed.

(** letters of a mora as a word of [ScriptProofs] *)
Definition plain_letter (c : N) (l : N * N * str * nat) : Prop :=
  exists v, l = (kata c, c, v, 0%nat) /\ mark_vowel (u "お") (kata c) v.
Lemma kata_for c : 0x3041 <= c <= 0x3094 -> hiragana_for (kata c) c.
Proof. intro H. unfold hiragana_for, kata. symspec. lia. Qed.
Lemma letters_word k : (forall c, In c k -> 0x3041 <= c <= 0x3094) ->
  (forall c, In c k -> exists v, mark_vowel (u "お") (kata c) v) ->
  exists w, Forall (word_letter (u "お")) w /\ word_katakana w = map kata k /\ word_hiragana w = k.
Proof.
  induction k as [|c k IH]; intros H1 H2; [exists []; auto|].
  destruct IH as (w & A & B & C); [intros; apply H1; now right|intros; apply H2; now right|].
  destruct (H2 c (or_introl eq_refl)) as [v V].
  exists ((kata c, c, v, 0%nat) :: w). cbn [word_katakana word_hiragana flat_map repeat concat app].
  fold (word_katakana w) (word_hiragana w). rewrite B, C. split; [|auto].
  constructor; [|exact A]. split; [apply kata_for, H1; now left|exact V].
Qed.
Lemma word_app w w' : word_katakana (w ++ w') = word_katakana w ++ word_katakana w' /\
  word_hiragana (w ++ w') = word_hiragana w ++ word_hiragana w'.
Proof. unfold word_katakana, word_hiragana. rewrite !flat_map_app. auto. Qed.
Lemma marked_word k n v : (forall c, In c k -> 0x3041 <= c <= 0x3094) -> k <> [] ->
  (forall c, In c k -> exists v, mark_vowel (u "お") (kata c) v) -> mark_vowel (u "お") (kata (last_kana k)) v ->
  exists w, Forall (word_letter (u "お")) w /\ word_katakana w = map kata k ++ repeat long_mark n
    /\ word_hiragana w = k ++ concat (repeat v n).
Proof.
  intros H1 Nk H2 V. destruct (exists_last Nk) as (k' & c & ->).
  unfold last_kana in V. rewrite last_last in V.
  destruct (letters_word k') as (w & A & B & C).
  { intros d I. apply H1, in_or_app. now left. }
  { intros d I. apply H2, in_or_app. now left. }
  exists (w ++ [(kata c, c, v, n)]). destruct (word_app w [(kata c, c, v, n)]) as [-> ->]. rewrite B, C.
  cbn [word_katakana word_hiragana flat_map]. rewrite !app_nil_r. split.
  - apply Forall_app. split; [exact A|]. constructor; [|constructor].
    split; [apply kata_for, H1, in_or_app; right; now left|exact V].
  - rewrite map_app, <- !app_assoc. auto.
Qed.

Lemma syllable_marks k r : In (k, r) syllables ->
  (forall c, In c k -> exists v, mark_vowel (u "お") (kata c) v) /\
  mark_vowel (u "お") (kata (last_kana k)) (map vowel_kana (last_vowel r)) /\
  In (map vowel_kana (last_vowel r), last_vowel r) syllables /\
  last_vowel (gem_spelling r) = last_vowel r.
Proof.
  intro I. pose proof marks_table_ok as H. rewrite forallb_forall in H. specialize (H _ I). unfold marks_ok in H.
  repeat match goal with X : _ && _ = true |- _ => apply andb_prop in X; destruct X end.
  split; [|split; [now apply mark_vowelb_ok|split; [now apply pair_mem_In|now apply str_eqb_eq]]].
  intros c J. rewrite forallb_forall in H. specialize (H _ J). apply existsb_exists in H.
  destruct H as ([row v] & K & Q). cbn [fst] in Q. apply existsb_In in Q. exists v, row. auto.
Qed.
Lemma kana_text_app a b : kana_text (a ++ b) = kana_text a ++ kana_text b.
Proof. apply flat_map_app. Qed.
Lemma kana_text_repeat k r n : kana_text (repeat (Syl k r) n) = concat (repeat k n).
Proof. induction n as [|n IH]; [reflexivity|]. cbn. fold (kana_text (repeat (Syl k r) n)). now rewrite IH. Qed.
Lemma sokuon_mark : exists v, mark_vowel (u "お") (kata (ch "っ")) v.
Proof. exists []. apply mark_vowelb_ok. vm_compute. reflexivity. Qed.

Lemma mora_word m n : standard m ->
  exists w, Forall (word_letter (u "お")) w /\ word_katakana w = map kata (mora_kana m) ++ repeat long_mark n
    /\ word_hiragana w = kana_text (expand (m, n)).
Proof.
  intro S. destruct m as [k r|k r|]; cbn [standard] in S.
  - destruct (syllable_marks k r S) as (M1 & M2 & M3 & M4).
    destruct (sf_k _ _ (syllable_facts k r S)) as (c & k' & Q & _).
    destruct (marked_word k n (map vowel_kana (last_vowel r))) as (w & A & B & C).
    { intros d J. exact (syllable_no_katakana k r d S J). }
    { subst k. discriminate. }
    { exact M1. }
    { exact M2. }
    exists w. split; [exact A|]. split; [exact B|]. rewrite C. unfold expand. cbn [fst snd kana_text flat_map mora_kana].
    fold (kana_text (repeat (Syl (map vowel_kana (last_vowel r)) (last_vowel r)) n)).
    now rewrite kana_text_repeat.
  - destruct S as [S G]. destruct (syllable_marks k r S) as (M1 & M2 & M3 & M4).
    destruct (sf_k _ _ (syllable_facts k r S)) as (c & k' & Q & _).
    destruct (marked_word (ch "っ" :: k) n (map vowel_kana (last_vowel r))) as (w & A & B & C).
    { intros d [<-|J]; [change (ch "っ") with 0x3063; lia|exact (syllable_no_katakana k r d S J)]. }
    { discriminate. }
    { intros d [<-|J]; [apply sokuon_mark|auto]. }
    { subst k. exact M2. }
    exists w. split; [exact A|]. split; [exact B|]. rewrite C. unfold expand. cbn [fst snd kana_text flat_map mora_kana].
    fold (kana_text (repeat (Syl (map vowel_kana (last_vowel r)) (last_vowel r)) n)).
    now rewrite kana_text_repeat.
  - destruct (marked_word (u "ん") n []) as (w & A & B & C).
    { intros d [<-|[]]. change (ch "ん") with 0x3093. vm_compute. split; discriminate. }
    { discriminate. }
    { intros d [<-|[]]. exists []. apply mark_vowelb_ok. vm_compute. reflexivity. }
    { apply mark_vowelb_ok. vm_compute. reflexivity. }
    exists w. split; [exact A|]. split; [exact B|]. rewrite C. cbn [expand fst kana_text flat_map mora_kana].
    replace (concat (repeat (@nil N) n)) with (@nil N); [reflexivity|]. clear. induction n as [|n IH]; [reflexivity|exact IH].
Qed.
Lemma kata_map k t : (forall c, In c k -> 0x3041 <= c <= 0x3094) -> Forall2 katakana_for k t -> t = map kata k.
Proof.
  intros H F. apply h2k_spec in F. subst t. unfold h2k. apply map_ext_in. intros c I. unfold kata.
  apply h2k_letter. unfold hiragana_letter. specialize (H c I). lia.
Qed.
Lemma marked_texts ms : Forall standard (map fst ms) -> forall t, marked_kana ms t ->
  exists w, Forall (word_letter (u "お")) w /\ word_katakana w = t
    /\ word_hiragana w = kana_text (flat_map expand ms).
Proof.
  intros F t (ts & H & ->). induction H as [|[m n] t ms ts (k & K & ->) _ IH]; [exists []; auto|].
  cbn [map fst snd] in *. inversion F as [|? ? S F']; subst. destruct (IH F') as (w & A & B & C).
  destruct (mora_word m n S) as (w' & A' & B' & C').
  exists (w' ++ w). destruct (word_app w' w) as [-> ->]. rewrite B, C, B', C'.
  split; [apply Forall_app; auto|]. split.
  - cbn [concat]. do 2 f_equal. symmetry. apply kata_map; [|exact K]. intros c I. eapply mora_hiragana; eauto.
  - cbn [flat_map]. now rewrite kana_text_app.
Qed.
Lemma expand_standard m n : standard m -> Forall standard (expand (m, n)).
Proof.
  intro S. unfold expand. cbn [fst snd]. destruct m as [k r|k r|].
  - constructor; [exact S|]. apply Forall_forall. intros x I. apply repeat_spec in I. subst x.
    destruct (syllable_marks k r S) as (_ & _ & M & _). exact M.
  - constructor; [exact S|]. apply Forall_forall. intros x I. apply repeat_spec in I. subst x.
    destruct S as [S _]. destruct (syllable_marks k r S) as (_ & _ & M & _). exact M.
  - constructor; [exact I|constructor].
Qed.
Lemma hepburn_vowels v r n rest : hepburn (repeat (Syl v r) n ++ rest) = concat (repeat r n) ++ hepburn rest.
Proof. induction n as [|n IH]; [reflexivity|]. cbn. now rewrite IH, app_assoc. Qed.
Lemma marked_expand ms : Forall standard (map fst ms) -> marked_hepburn ms = hepburn (flat_map expand ms).
Proof.
  induction ms as [|[m n] ms IH]; [reflexivity|]. cbn [map fst]. intro F. inversion F as [|? ? S F']; subst.
  cbn [marked_hepburn flat_map]. rewrite (IH F'). unfold marked_spelling, expand. cbn [fst snd].
  destruct m as [k r|k r|].
  - cbn [app hepburn mora_spelling]. rewrite hepburn_vowels, <- app_assoc. reflexivity.
  - cbn [app hepburn mora_spelling]. rewrite hepburn_vowels, <- app_assoc.
    destruct S as [S _]. destruct (syllable_marks k r S) as (_ & _ & _ & ->). reflexivity.
  - reflexivity.
Qed.
Lemma word_no_vu ms t : Forall standard (map fst ms) -> marked_kana ms t -> ~ In (ch "ヴ") t.
Proof.
  intros F (ts & H & ->) I. apply in_concat in I. destruct I as (x & I & J).
  induction H as [|[m n] t ms ts (k & K & ->) _ IH]; [destruct I|].
  inversion F as [|? ? S F']; subst. destruct I as [<-|I]; [|now apply IH].
  cbn [fst snd] in *. apply in_app_or in J. destruct J as [J|J].
  - apply kata_map in K; [|intros c J'; eapply mora_hiragana; eauto]. subst k. apply in_map_iff in J.
    destruct J as (c & Q & J). assert (Hc := mora_hiragana m c S J). unfold kata in Q. change (ch "ヴ") with 0x30F4 in Q.
    assert (c = vu) by (unfold vu; lia). subst c.
    destruct m as [k r|k r|]; cbn [standard mora_kana] in *.
    + now apply (sf_vu _ _ (syllable_facts k r S)) in J.
    + destruct J as [J|J]; [discriminate|]. now apply (sf_vu _ _ (syllable_facts k r (proj1 S))) in J.
    + destruct J as [J|[]]. discriminate.
  - apply repeat_spec in J. discriminate.
Qed.
Lemma romaji_of_marked E ms t : std_ok E -> Forall standard (map fst ms) -> marked_kana ms t ->
  rconv E false t (k2h E true t) = marked_hepburn ms.
Proof.
  intros HE F H. destruct (marked_texts ms F t H) as (w & A & B & C). pose proof (word_no_vu ms t F H) as V.
  rewrite <- B in *. rewrite (k2h_word E true w HE A V), C, (marked_expand ms F).
  apply (rconv_morae E HE (length (flat_map expand ms))); [lia|].
  clear -F. induction ms as [|[m n] ms IH]; [constructor|]. cbn [map fst] in F. inversion F; subst.
  cbn [flat_map]. apply Forall_app. split; [now apply expand_standard|auto].
Qed.

(** ** C32, C34 *)
Definition rev_ok (e : str * str) : bool :=
  match e with (k, r) =>
    existsb (str_eqb k) ambiguous ||
    (pair_mem (r, k) (dict Default) && negb (str_eqb r (u "n"))
     && (first_in (u "aiueonyc") r ||
         (pair_mem (gem_spelling r, ch "っ" :: k) (dict Default) && negb (str_eqb (gem_spelling r) (u "n")))))
    && forallb (fun c => (0x61 <=? c) && (c <=? 0x7A)) r
  end.
Lemma rev_table_ok : forallb rev_ok syllables = true.
Proof. vm_compute. reflexivity. Qed.
Lemma not_ambiguous k : ~ In k ambiguous -> existsb (str_eqb k) ambiguous = false.
Proof.
  intro H. apply not_true_iff_false. rewrite existsb_exists. intros (x & I & Q). apply str_eqb_eq in Q. subst. contradiction.
Qed.
Lemma rev_syl k r : In (k, r) syllables -> ~ In k ambiguous ->
  entry Default r k /\ unextended Default r /\ (forall c, In c r -> 0x61 <= c <= 0x7A) /\
  (first_in (u "aiueonyc") r = false -> entry Default (gem_spelling r) (ch "っ" :: k) /\ unextended Default (gem_spelling r)).
Proof.
  intros I A. pose proof rev_table_ok as H. rewrite forallb_forall in H. specialize (H _ I). unfold rev_ok in H.
  rewrite (not_ambiguous k A) in H. cbn [orb] in H.
  repeat match goal with X : _ && _ = true |- _ => apply andb_prop in X; destruct X end.
  assert (En : entry Default r k) by now apply pair_mem_In.
  assert (Nn' : forall x, negb (str_eqb x (u "n")) = true -> x <> u "n").
  { intros x Q ->. apply negb_true_iff in Q. assert (str_eqb (u "n") (u "n") = true) by now apply str_eqb_eq. congruence. }
  split; [exact En|]. split; [eapply only_n_extended; eauto|]. split.
  - intros c J. rewrite forallb_forall in H0. specialize (H0 _ J). lia.
  - intro F. rewrite F in H1. cbn [orb] in H1. apply andb_prop in H1. destruct H1 as [G1 G2].
    assert (En' : entry Default (gem_spelling r) (ch "っ" :: k)) by now apply pair_mem_In.
    split; [exact En'|]. eapply only_n_extended; eauto.
Qed.
Lemma casing_lower s : (forall c, In c s -> is_AZ c = false) -> casing s s.
Proof.
  intro H. induction s as [|c s IH]; constructor.
  - right. split; [|reflexivity]. specialize (H c (or_introl eq_refl)). unfold upper_letter. unfold is_AZ in H. lia.
  - apply IH. intros d I. apply H. now right.
Qed.
Lemma conv_lower_entry r k rest : entry Default r k -> unextended Default r -> (forall c, In c r -> is_AZ c = false) ->
  conv Default (r ++ rest) = k ++ conv Default rest.
Proof.
  intros I U L. rewrite (conv_entry Default r r k rest I U (casing_lower r L)).
  rewrite emit_lower; [reflexivity| |exact L]. now apply keys_nonempty in I.
Qed.
Lemma gem_lower r : (forall c, In c r -> 0x61 <= c <= 0x7A) -> forall c, In c (gem_spelling r) -> 0x61 <= c <= 0x7A.
Proof.
  intros H c. destruct r as [|d r]; [intros []|]. unfold gem_spelling. intros [<-|I]; [|auto].
  specialize (H d (or_introl eq_refl)). destruct (d =? ch "c"); [change (ch "t") with 116|]; lia.
Qed.
Lemma lower_AZ r : (forall c, In c r -> 0x61 <= c <= 0x7A) -> forall c, In c r -> is_AZ c = false.
Proof. intros H c I. specialize (H c I). unfold is_AZ. lia. Qed.
Lemma first_in_weaken r : first_in (u "aiueony") r = false -> first_in (u "c") r = false -> first_in (u "aiueonyc") r = false.
Proof.
  destruct r as [|c r]; [reflexivity|]. unfold first_in.
  change (u "aiueony") with [97; 105; 117; 101; 111; 110; 121]. change (u "c") with [99].
  change (u "aiueonyc") with [97; 105; 117; 101; 111; 110; 121; 99]. cbn [existsb]. intros H1 H2.
  repeat (apply orb_false_iff in H1; destruct H1 as [? H1]).
  repeat (apply orb_false_iff; split); auto; now rewrite orb_false_r in H2.
Qed.
Lemma spelling_chars m f : reversible m -> forall c, In c (mora_spelling m f) -> 0x61 <= c <= 0x7A \/ c = 0x27.
Proof.
  intros [S R] c. destruct m as [k r|k r|]; cbn [standard mora_spelling] in *.
  - destruct (rev_syl k r S R) as (_ & _ & L & _). left. auto.
  - destruct S as [S _], R as [R _]. destruct (rev_syl k r S R) as (_ & _ & L & _). left. eapply gem_lower; eauto.
  - destruct (first_in _ f).
    + change (u "n'") with [0x6E; 0x27]. cbn [In]. lia.
    + change (u "n") with [0x6E]. cbn [In]. lia.
Qed.
Lemma hepburn_chars ms : Forall reversible ms -> forall c, In c (hepburn ms) -> 0x61 <= c <= 0x7A \/ c = 0x27.
Proof.
  induction 1 as [|m ms R _ IH]; intros c I; [destruct I|]. cbn [hepburn] in I. apply in_app_or in I.
  destruct I as [I|I]; [eapply spelling_chars; eauto|auto].
Qed.
Lemma hepburn_first ms : Forall reversible ms -> forall c rest, hepburn ms = c :: rest -> c <> 0x27.
Proof.
  destruct 1 as [|m ms [S R] _]; intros c rest E; [discriminate|]. cbn [hepburn] in E.
  destruct m as [k r|k r|]; cbn [standard mora_spelling] in *.
  - destruct (rev_syl k r S R) as (_ & _ & L & _). pose proof (sf_r _ _ (syllable_facts k r S)) as Nr.
    destruct r as [|d r]; [congruence|]. cbn in E. inversion E; subst. specialize (L c (or_introl eq_refl)). lia.
  - destruct S as [S _], R as [R _]. destruct (rev_syl k r S R) as (_ & _ & L & _).
    pose proof (gem_lower r L) as L'. pose proof (sf_r _ _ (syllable_facts k r S)) as Nr.
    destruct r as [|d r]; [congruence|]. unfold gem_spelling in *. cbn [app] in E. inversion E as [[Q1 Q2]]. clear E.
    specialize (L' _ (or_introl eq_refl)). lia.
  - destruct (first_in (u "aiueoy") (hepburn ms)); cbn in E; inversion E; discriminate.
Qed.
Lemma conv_hepburn ms : Forall reversible ms -> conv Default (hepburn ms) = kana_text ms.
Proof.
  induction 1 as [|m ms [S R] F IH]; [reflexivity|]. cbn [hepburn kana_text flat_map]. fold (kana_text ms).
  destruct m as [k r|k r|]; cbn [standard mora_spelling mora_kana] in *.
  - destruct (rev_syl k r S R) as (En & U & L & _).
    rewrite (conv_lower_entry r k) by first [exact En|exact U|exact (lower_AZ r L)]. now rewrite IH.
  - destruct S as [S G], R as [R C]. destruct (rev_syl k r S R) as (_ & _ & L & Gm).
    destruct (Gm (first_in_weaken r G C)) as [En U].
    rewrite (conv_lower_entry (gem_spelling r) (ch "っ" :: k)); [now rewrite IH|exact En|exact U|].
    apply lower_AZ. now apply gem_lower.
  - destruct (first_in (u "aiueoy") (hepburn ms)) eqn:V.
    + rewrite (conv_lower_entry (u "n'") (u "ん")); [now rewrite IH| | |].
      * apply pair_mem_In. vm_compute. reflexivity.
      * apply (only_n_extended Default _ (u "ん")); [apply pair_mem_In; vm_compute; reflexivity|discriminate].
      * intros c [<-|[<-|[]]]; reflexivity.
    + rewrite (conv_n Default (u "n") (hepburn ms)); [rewrite IH; reflexivity|discriminate| |].
      * apply casing_lower. intros c [<-|[]]. reflexivity.
      * destruct (hepburn ms) as [|c rest] eqn:Q; [exact I|]. intros (d & Ld & J).
        assert (Hc : In c (hepburn ms)) by (rewrite Q; now left).
        apply (hepburn_chars ms F) in Hc. pose proof (hepburn_first ms F c rest Q) as Nq.
        assert (d = c).
        { destruct Ld as [[U _]|[_ ->]]; [unfold upper_letter in U; lia|reflexivity]. }
        subst d. unfold first_in in V. revert J V.
        change (u "'aiueoy") with [0x27; 0x61; 0x69; 0x75; 0x65; 0x6F; 0x79].
        change (u "aiueoy") with [0x61; 0x69; 0x75; 0x65; 0x6F; 0x79]. intros J V.
        destruct J as [J|J]; [lia|]. apply existsb_In in J. congruence.
Qed.

(** katakana *)
Lemma lower_id E s : std_ok E -> (forall c, In c s -> c < 128 /\ is_AZ c = false) -> to_lowercase E s = s.
Proof.
  intro HE. unfold to_lowercase. generalize (@nil N) as b. induction s as [|c s IH]; intros b H; [reflexivity|].
  cbn [to_lowercase_from]. destruct (H c (or_introl eq_refl)) as [H1 H2].
  replace (c =? SIGMA) with false by (unfold SIGMA; lia). rewrite (ok_lower_ascii E HE c H1).
  rewrite IH by (intros d I; apply H; now right). cbn. f_equal. unfold ascii_lower. unfold is_AZ in H2. ifs; lia.
Qed.
Lemma kata_of_hepburn E o ms : std_ok E -> pass_romaji o = false -> use_obsolete_kana o = false -> imemode o = false ->
  Forall reversible ms -> kata_pure E o (hepburn ms) = map kata (kana_text ms).
Proof.
  intros HE P1 P2 P3 F.
  assert (St : Forall standard ms) by (eapply Forall_impl; [|exact F]; intros m [S _]; exact S).
  assert (K : h2k (kana_text ms) = map kata (kana_text ms)).
  { unfold h2k. apply map_ext_in. intros c I. unfold kata. apply h2k_letter.
    apply (text_hiragana _ _ St) in I. unfold hiragana_letter. lia. }
  destruct (hepburn ms) as [|c rest] eqn:Q.
  - assert (Z : kana_text ms = []) by (rewrite <- (conv_hepburn ms F), Q; reflexivity). rewrite Z.
    unfold kata_pure. rewrite P1. reflexivity.
  - rewrite <- Q. unfold kata_pure. rewrite P1.
    replace (is_romaji (hepburn ms)) with true.
    + cbn [orb]. rewrite lower_id.
      * rewrite k_tree_mode. unfold mode_of. rewrite P2, P3. rewrite (conv_hepburn ms F). exact K.
      * exact HE.
      * intros d I. apply (hepburn_chars ms F) in I. unfold is_AZ. lia.
    + symmetry. unfold is_romaji. rewrite Q at 1. cbn [is_empty]. apply forallb_forall. intros d I.
      apply romaji_spec. left. apply (hepburn_chars ms F) in I. lia.
Qed.
Lemma romaji_of_katakana E ms : std_ok E -> Forall standard ms ->
  rconv E false (map kata (kana_text ms)) (k2h E true (map kata (kana_text ms))) = hepburn ms.
Proof.
  intros HE F. rewrite k2h_no_dash.
  - rewrite map_map. replace (map (fun x => k2hc (kata x)) (kana_text ms)) with (kana_text ms).
    + now apply (rconv_morae E HE (length ms)).
    + rewrite <- (map_id (kana_text ms)) at 1. apply map_ext_in. intros c I. apply (text_hiragana _ _ F) in I.
      unfold kata. rewrite k2hc_letter by lia. lia.
  - intro I. apply in_map_iff in I. destruct I as (c & Q & I). apply (text_hiragana _ _ F) in I.
    unfold kata, long_mark in Q. lia.
Qed.
