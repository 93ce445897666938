(** * Typing with to_hiragana and to_katakana in IME mode (C72) *)
From Verif Require Import Tac Base Std Constants Chars Trees KanaTree Strings Convert
  KanaPure KanaSpec KanaDict KanaProofs Predicates ScriptSpec ScriptProofs ScriptIdem TypingSpec Exact ExactScript LowerTwice FixedSpec Fixed TypeInSpec.

Lemma ascii_caseless s : Forall ascii s -> ascii_or_caseless s.
Proof. intros F c I. left. now apply (proj1 (Forall_forall _ _) F). Qed.
Lemma ascii_no_katakana s : Forall ascii s -> no_katakana s.
Proof.
  intros F c I. left. pose proof (proj1 (Forall_forall _ _) F c I) as A. unfold ascii, katakana_letter in *. lia.
Qed.
Lemma ascii_romaji c : ascii c -> S_romaji c.
Proof. unfold ascii, S_romaji, between. lia. Qed.
Lemma ascii_low s : Forall ascii s -> Forall ascii (low s).
Proof.
  intro F. apply Forall_forall. intros c I. apply in_map_iff in I. destruct I as (d & <- & I).
  pose proof (proj1 (Forall_forall _ _) F d I) as A. unfold ascii, ascii_lower in *. ifs; lia.
Qed.
Lemma ascii_not_mixed s : Forall ascii s -> is_mixed s = false.
Proof.
  intro F. destruct (is_mixed s) eqn:M; [|reflexivity]. exfalso. apply mixed_spec in M. destruct M as [(c & I & K) _].
  pose proof (proj1 (Forall_forall _ _) F c I) as A. unfold ascii, S_hiragana, S_katakana, between in *. lia.
Qed.
Lemma ascii_is_romaji s : Forall ascii s -> s <> [] -> is_romaji s = true.
Proof.
  intros F N. apply romaji_text_spec. split; [exact N|]. intros c I. apply ascii_romaji. now apply (proj1 (Forall_forall _ _) F).
Qed.
Lemma low_id_app a b : low a = a -> low b = b -> low (a ++ b) = a ++ b.
Proof. intros A B. now rewrite low_app, A, B. Qed.

Lemma h2k_fixed s : (forall c, In c s -> ~ hiragana_letter c) -> h2k s = s.
Proof.
  intro H. unfold h2k. rewrite <- (map_id s) at 2. apply map_ext_in. intros c I.
  destruct (h2k_char_cases c) as [Q|[Q _]]; [exact Q|]. now destruct (H c I).
Qed.

Section TypeIn.
  Context (E : std) (HE : std_ok E) (o : options) (P : pass_romaji o = false) (M : mode_of o = Ime).

  Lemma hira_ascii s : Forall ascii s -> hira_pure E o s = conv Ime (low s).
  Proof.
    intro F. destruct s as [|c s]; [unfold hira_pure; rewrite P; reflexivity|].
    unfold hira_pure. rewrite P, (ascii_not_mixed _ F), (ascii_is_romaji _ F) by (intro Z; discriminate Z). cbn [orb].
    rewrite k_tree_mode, M, lower_low; [reflexivity|exact HE|now apply ascii_caseless].
  Qed.
  Lemma kata_ascii s : Forall ascii s -> kata_pure E o s = h2k (conv Ime (low s)).
  Proof.
    intro F. destruct s as [|c s]; [unfold kata_pure; rewrite P; reflexivity|].
    unfold kata_pure. rewrite P, (ascii_is_romaji _ F) by (intro Z; discriminate Z). cbn [orb].
    rewrite k_tree_mode, M, lower_low; [reflexivity|exact HE|now apply ascii_caseless].
  Qed.

  (** the text shown after typing [a] *)
  Lemma shown_clean a : Forall ascii a ->
    ascii_or_caseless (conv Ime (low a)) /\ low (conv Ime (low a)) = conv Ime (low a) /\ no_katakana (conv Ime (low a)).
  Proof.
    intro F. destruct (conv_clean Ime (low a)) as [A L]; [now apply ascii_caseless, ascii_low|apply low_low|].
    split; [exact A|]. split; [exact L|]. rewrite <- M. apply conv_no_katakana; [apply low_low|]. now apply ascii_no_katakana, ascii_low.
  Qed.
  Lemma caseless_app a b : ascii_or_caseless a -> ascii_or_caseless b -> ascii_or_caseless (a ++ b).
  Proof. intros A B c I. apply in_app_or in I. destruct I; auto. Qed.
  Lemma mixed_shown x b : Forall ascii b -> b <> [] -> has (fun c => S_hiragana c \/ S_katakana c) x -> is_mixed (x ++ b) = true.
  Proof.
    intros F N (c & I & K). apply mixed_spec. split; [exists c; split; [apply in_or_app; now left|exact K]|].
    destruct b as [|d b]; [congruence|]. exists d. split; [apply in_or_app; right; now left|]. apply ascii_romaji. now inversion F.
  Qed.
  Lemma not_mixed_shown x b : Forall ascii b -> ~ has (fun c => S_hiragana c \/ S_katakana c) x -> is_mixed (x ++ b) = false.
  Proof.
    intros F N. destruct (is_mixed (x ++ b)) eqn:X; [|reflexivity]. exfalso. apply mixed_spec in X. destruct X as [(c & I & K) _].
    apply in_app_or in I. destruct I as [I|I]; [apply N; now exists c|].
    pose proof (proj1 (Forall_forall _ _) F c I) as A. unfold ascii, S_hiragana, S_katakana, between in *. lia.
  Qed.
  Lemma romaji_shown x b : Forall ascii b -> b <> [] -> is_romaji (x ++ b) = true <-> (forall c, In c x -> S_romaji c).
  Proof.
    intros F N. rewrite romaji_text_spec. split.
    - intros [_ H] c I. apply H, in_or_app. now left.
    - intro H. split; [intro Z; apply app_eq_nil in Z; now destruct Z|]. intros c I. apply in_app_or in I.
      destruct I as [I|I]; [now apply H|]. apply ascii_romaji. now apply (proj1 (Forall_forall _ _) F).
  Qed.

  Lemma hira_typed_more a b : Forall ascii a -> Forall ascii b -> b <> [] ->
    (typeable_on (hira_pure E o a) \/ starts_with_punct (hira_pure E o a) ->
       hira_pure E o (hira_pure E o a ++ b) = hira_pure E o (a ++ b)) /\
    (~ (typeable_on (hira_pure E o a) \/ starts_with_punct (hira_pure E o a)) ->
       hira_pure E o (hira_pure E o a ++ b) = hira_pure E o a ++ b).
  Proof.
    intros Fa Fb N. rewrite (hira_ascii a Fa), (hira_ascii (a ++ b)) by now apply Forall_app.
    destruct (shown_clean a Fa) as (A & L & K). set (x := conv Ime (low a)) in *.
    assert (Cx : ascii_or_caseless (x ++ b)) by (apply caseless_app; [exact A|now apply ascii_caseless]).
    assert (Kx : no_katakana (x ++ b)).
    { intros c I. apply in_app_or in I. destruct I as [I|I]; [now apply K|now apply (ascii_no_katakana b)]. }
    assert (C : conv Ime (low (x ++ b)) = conv Ime (low (a ++ b))).
    { rewrite !low_app, L. unfold x. now rewrite ime_incremental. }
    unfold hira_pure. rewrite P, (k2h_no_katakana E false _ Kx), (lower_low E _ HE Cx), k_tree_mode, M, C. split.
    - intros [[H|H]|(c & r & H & Q)].
      + now rewrite mixed_shown.
      + destruct (is_mixed (x ++ b)); [reflexivity|]. now rewrite (proj2 (romaji_shown x b Fb N) H).
      + destruct (is_mixed (x ++ b)); [reflexivity|].
        assert (T : first_punct (x ++ b) = true) by (apply first_punct_spec; exists c, (r ++ b); split; [now rewrite H|exact Q]).
        now rewrite T, orb_true_r.
    - intro H. rewrite not_mixed_shown; [|exact Fb|intro Z; apply H; left; now left].
      destruct (is_romaji (x ++ b)) eqn:R; [exfalso; apply H; left; right; now apply (romaji_shown x b Fb N)|].
      destruct (first_punct (x ++ b)) eqn:T; [|reflexivity]. exfalso. apply first_punct_spec in T.
      destruct T as (c & r & T & Q). destruct x as [|d x].
      + apply H. left. right. intros c' [].
      + injection T as -> _. apply H. right. now exists c, x.
  Qed.
  Lemma kata_typed_more a b : Forall ascii a -> Forall ascii b -> b <> [] ->
    (typeable_on (kata_pure E o a) -> kata_pure E o (kata_pure E o a ++ b) = kata_pure E o (a ++ b)) /\
    (~ typeable_on (kata_pure E o a) -> kata_pure E o (kata_pure E o a ++ b) = kata_pure E o a ++ b).
  Proof.
    intros Fa Fb N. rewrite (kata_ascii a Fa), (kata_ascii (a ++ b)) by now apply Forall_app.
    destruct (shown_clean a Fa) as (A & L & _). set (x := conv Ime (low a)) in *.
    destruct (h2k_clean x A L) as [A2 L2].
    assert (Cx : ascii_or_caseless (h2k x ++ b)) by (apply caseless_app; [exact A2|now apply ascii_caseless]).
    assert (Hb : h2k b = b).
    { apply h2k_fixed. intros c I. pose proof (proj1 (Forall_forall _ _) Fb c I) as Z. unfold ascii, hiragana_letter in *. lia. }
    assert (Hl : h2k (low b) = low b).
    { apply h2k_fixed. intros c I. pose proof (proj1 (Forall_forall _ _) (ascii_low b Fb) c I) as Z. unfold ascii, hiragana_letter in *. lia. }
    assert (C : h2k (conv Ime (low (h2k x ++ b))) = h2k (conv Ime (low (a ++ b)))).
    { rewrite !low_app, L2.
      replace (h2k x ++ low b) with (h2k (x ++ low b)) by (unfold h2k in *; rewrite map_app; congruence).
      rewrite h2k_conv_h2k. unfold x. now rewrite ime_incremental. }
    unfold kata_pure. rewrite P, (lower_low E _ HE Cx), k_tree_mode, M, C. split.
    - intros [H|H].
      + now rewrite mixed_shown, orb_true_r.
      + now rewrite (proj2 (romaji_shown (h2k x) b Fb N) H).
    - intro H. rewrite not_mixed_shown; [|exact Fb|intro Z; apply H; now left]. rewrite orb_false_r.
      destruct (is_romaji (h2k x ++ b)) eqn:R; [exfalso; apply H; right; now apply (romaji_shown (h2k x) b Fb N)|].
      unfold h2k in *. rewrite map_app, Hb. fold (h2k x). change (map h2k_char (map h2k_char x)) with (h2k (h2k x)). now rewrite h2k_h2k.
  Qed.
  Lemma hira_again a : Forall ascii a -> hira_pure E o (hira_pure E o a) = hira_pure E o a.
  Proof.
    intro F. apply (hira_all E HE o P a). split; [now left|]. intros _ (q & r & -> & Q). exfalso. inversion F as [|? ? A _]; subst.
    revert A Q. unfold ascii, smart_quote. change (u "‘’“”") with [0x2018; 0x2019; 0x201C; 0x201D]. cbn [In]. lia.
  Qed.
  Lemma kata_again a : Forall ascii a -> kata_pure E o (kata_pure E o a) = kata_pure E o a.
  Proof. intro F. apply (kata_all E HE o P a). now left. Qed.
  Lemma hira_typed a b : Forall ascii a -> Forall ascii b ->
    (typeable_on (hira_pure E o a) \/ starts_with_punct (hira_pure E o a) ->
       hira_pure E o (hira_pure E o a ++ b) = hira_pure E o (a ++ b)) /\
    (~ (typeable_on (hira_pure E o a) \/ starts_with_punct (hira_pure E o a)) ->
       hira_pure E o (hira_pure E o a ++ b) = hira_pure E o a ++ b).
  Proof.
    intros Fa Fb. destruct b as [|d b]; [|apply hira_typed_more; [exact Fa|exact Fb|intro Z; discriminate Z]].
    rewrite !app_nil_r, hira_again by exact Fa. auto.
  Qed.
  Lemma kata_typed a b : Forall ascii a -> Forall ascii b ->
    (typeable_on (kata_pure E o a) -> kata_pure E o (kata_pure E o a ++ b) = kata_pure E o (a ++ b)) /\
    (~ typeable_on (kata_pure E o a) -> kata_pure E o (kata_pure E o a ++ b) = kata_pure E o a ++ b).
  Proof.
    intros Fa Fb. destruct b as [|d b]; [|apply kata_typed_more; [exact Fa|exact Fb|intro Z; discriminate Z]].
    rewrite !app_nil_r, kata_again by exact Fa. auto.
  Qed.
End TypeIn.

(** ** Chunks *)
Lemma fold_ok (g : str -> res str) (f : str -> str) : (forall s, g s = Ok (f s)) -> forall chunks acc,
  fold_left (fun shown typed => match shown with Ok text => g (text ++ typed) | failed => failed end) chunks (Ok acc)
  = Ok (fold_left (fun shown typed => f (shown ++ typed)) chunks acc).
Proof. intros G. induction chunks as [|b chunks IH]; intro acc; cbn [fold_left]; [reflexivity|]. now rewrite G, IH. Qed.

Lemma fold_on (f : str -> str) (ok : str -> Prop) :
  (forall a b, Forall ascii a -> Forall ascii b -> ok (f a) -> f (f a ++ b) = f (a ++ b)) ->
  forall chunks done, Forall ascii (done ++ concat chunks) ->
    (forall a b, chunks = a ++ b -> b <> [] -> ok (f (done ++ concat a))) ->
    fold_left (fun shown typed => f (shown ++ typed)) chunks (f done) = f (done ++ concat chunks).
Proof.
  intros H. induction chunks as [|b chunks IH]; intros done F K; cbn [fold_left concat]; [now rewrite app_nil_r|].
  cbn [concat] in F. rewrite app_assoc in F. apply Forall_app in F as F'. destruct F' as [F1 _]. apply Forall_app in F1. destruct F1 as [Fd Fb].
  rewrite H; [|exact Fd|exact Fb|].
  - rewrite IH; [now rewrite app_assoc|exact F|]. intros a r -> R. specialize (K (b :: a) r eq_refl R). cbn [concat] in K. now rewrite app_assoc in K.
  - specialize (K [] (b :: chunks) eq_refl). cbn [concat] in K. rewrite app_nil_r in K. apply K. discriminate.
Qed.
(** the first beginning of a list without a property *)
Lemma first_stuck {A} (p : list A -> Prop) : (forall l, p l \/ ~ p l) -> forall l,
  (forall a b, l = a ++ b -> b <> [] -> p a) \/
  (exists a b, l = a ++ b /\ (forall a' b', a = a' ++ b' -> b' <> [] -> p a') /\ ~ p a).
Proof.
  intros D l. induction l as [|x l IH] using rev_ind.
  { left. intros a b Q B. symmetry in Q. apply app_eq_nil in Q. destruct Q. contradiction. }
  destruct IH as [IH|(a & b & -> & H & N)].
  - destruct (D l) as [Y|N]; [|right; exists l, [x]; auto]. left. intros a b Q B.
    destruct b as [|y b _] using rev_ind; [contradiction|]. rewrite app_assoc in Q. apply app_inj_tail in Q. destruct Q as [-> ->].
    destruct b as [|z b]; [now rewrite app_nil_r in Y|]. apply (IH a (z :: b)); [reflexivity|discriminate].
  - right. exists a, (b ++ [x]). rewrite app_assoc. auto.
Qed.
Lemma typeable_dec s : typeable_on s \/ ~ typeable_on s.
Proof.
  unfold typeable_on. destruct (existsb (fun c => is_char_hiragana c || is_char_katakana c) s) eqn:K.
  - left. left. apply existsb_exists in K. destruct K as (c & I & K). exists c. split; [exact I|].
    apply orb_prop in K. destruct K as [K|K]; [left; now apply hiragana_spec|right; now apply katakana_spec].
  - destruct (forallb is_char_romaji s) eqn:R.
    + left. right. intros c I. rewrite forallb_forall in R. now apply romaji_spec, R.
    + right. intros [(c & I & Q)|Q].
      * apply not_true_iff_false in K. apply K. apply existsb_exists. exists c. split; [exact I|]. apply orb_true_iff.
        destruct Q as [Q|Q]; [left; now apply hiragana_spec|right; now apply katakana_spec].
      * apply not_true_iff_false in R. apply R. apply forallb_forall. intros c I. now apply romaji_spec, Q.
Qed.
(** typing that gets stuck *)
Lemma fold_stuck (f : str -> str) a :
  (forall b, Forall ascii b -> f (f a ++ b) = f a ++ b) ->
  forall chunks done, Forall ascii (done ++ concat chunks) ->
    fold_left (fun shown typed => f (shown ++ typed)) chunks (f a ++ done) = f a ++ done ++ concat chunks.
Proof.
  intros H. induction chunks as [|b chunks IH]; intros done F; cbn [fold_left concat]; [now rewrite app_nil_r|].
  cbn [concat] in F. rewrite app_assoc in F. rewrite <- app_assoc, H; [|now apply Forall_app in F].
  rewrite IH by exact F. now rewrite <- app_assoc.
Qed.
Section Stuck.
  Context (E : std) (HE : std_ok E) (o : options) (P : pass_romaji o = false) (M : mode_of o = Ime).
  Lemma no_upper_low b : low b = b <-> forall c, In c b -> ~ upper_letter c.
  Proof.
    induction b as [|c b IH]; cbn [low map]; [split; [intros _ c []|reflexivity]|]. fold (low b). split.
    - intros Q d I. injection Q as Q1 Q2. destruct I as [<-|I]; [|now apply (proj1 IH Q2)].
      revert Q1. unfold ascii_lower, upper_letter. ifs; lia.
    - intro H. f_equal; [|apply IH; intros d I; apply H; now right]. specialize (H c (or_introl eq_refl)).
      revert H. unfold ascii_lower, upper_letter. ifs; lia.
  Qed.
  Lemma hira_stuck a b : Forall ascii a -> Forall ascii b ->
    hira_pure E o (a ++ b) = hira_pure E o a ++ b <->
    (forall c, In c b -> ~ upper_letter c) /\ untouched Ime (hira_pure E o a ++ b).
  Proof.
    intros Fa Fb. rewrite <- no_upper_low. rewrite (hira_ascii E HE o P M a Fa), (hira_ascii E HE o P M (a ++ b)) by now apply Forall_app.
    rewrite low_app, <- ime_incremental. destruct (shown_clean o M a Fa) as (A & L & _). set (x := conv Ime (low a)) in *.
    rewrite <- kana_fixed. split.
    - intro Q. assert (B : low b = b).
      { destruct (conv_clean Ime (x ++ low b)) as [_ C].
        - apply caseless_app; [exact A|now apply ascii_caseless, ascii_low].
        - rewrite low_app, L. f_equal. apply low_low.
        - rewrite Q, low_app, L in C. now apply app_inv_head in C. }
      rewrite B in Q. auto.
    - intros [B Q]. now rewrite B.
  Qed.
  Lemma kata_stuck a b : Forall ascii a -> Forall ascii b ->
    kata_pure E o (a ++ b) = kata_pure E o a ++ b <->
    (forall c, In c b -> ~ upper_letter c) /\ untouched Ime (kata_pure E o a ++ b).
  Proof.
    intros Fa Fb. rewrite <- no_upper_low. rewrite (kata_ascii E HE o P M a Fa), (kata_ascii E HE o P M (a ++ b)) by now apply Forall_app.
    rewrite low_app, <- ime_incremental. destruct (shown_clean o M a Fa) as (A & L & _). set (x := conv Ime (low a)) in *.
    assert (Hl : forall b, Forall ascii b -> h2k b = b).
    { intros b' F. apply TypeIn.h2k_fixed. intros c I. pose proof (proj1 (Forall_forall _ _) F c I) as Z. unfold ascii, hiragana_letter in *. lia. }
    assert (C : h2k (conv Ime (x ++ low b)) = h2k (conv Ime (h2k x ++ low b))).
    { rewrite <- (h2k_conv_h2k Ime (x ++ low b)). f_equal. f_equal. unfold h2k at 1. rewrite map_app. fold (h2k x) (h2k (low b)). now rewrite (Hl (low b)) by now apply ascii_low. }
    rewrite C. destruct (h2k_clean x A L) as [A2 L2]. split.
    - intro Q. assert (B : low b = b).
      { destruct (conv_clean Ime (h2k x ++ low b)) as [C1 C2].
        - apply caseless_app; [exact A2|now apply ascii_caseless, ascii_low].
        - rewrite low_app, L2. f_equal. apply low_low.
        - destruct (h2k_clean _ C1 C2) as [_ C3]. rewrite Q, low_app, L2 in C3. now apply app_inv_head in C3. }
      rewrite B in Q. split; [exact B|]. apply (fixed_untouched Ime h2k_char); [intros c; apply h2k_no_key|exact Q].
    - intros [B U]. rewrite B, (untouched_conv Ime _ U). unfold h2k. rewrite map_app. fold (h2k x) (h2k (h2k x)) (h2k b).
      rewrite (Hl b Fb). f_equal. apply h2k_h2k.
  Qed.
End Stuck.

(** ** Text without punctuation *)
Definition kana_b (c : N) : bool := is_char_hiragana c || is_char_katakana c.
Lemma plain_outputs m : forallb (fun e => existsb (fun c => existsb (N.eqb c) (typed_punctuation ++ u "‘’“”")) (fst e)
  || forallb kana_b (snd e)) (dict m) = true.
Proof. destruct m; vm_compute; reflexivity. Qed.
Lemma kana_b_spec c : kana_b c = true <-> kana c.
Proof. unfold kana_b, kana. now rewrite orb_true_iff, hiragana_spec, katakana_spec. Qed.
Lemma conv_plain m : forall s, Forall ascii s -> (forall c, In c s -> ~ In c typed_punctuation) ->
  Forall (fun c => ascii c \/ kana c) (conv m s).
Proof.
  induction s as [s IH] using str_ind_len. intros F T. destruct s as [|c s]; [constructor|].
  destruct (kconv_step m c s) as [(seg & rest & n & v & Sp & N & K & A & O & R & ->)|[_ ->]].
  - rewrite Sp in F. apply Forall_app in F. destruct F as [F1 F2]. apply Forall_app. split.
    + assert (I : entry m (low seg) v) by (apply entry_node; eauto).
      pose proof (plain_outputs m) as Q. rewrite forallb_forall in Q. specialize (Q _ I). cbn [fst snd] in Q.
      apply orb_prop in Q. destruct Q as [Q|Q].
      * exfalso. apply existsb_exists in Q. destruct Q as (d & J & Q). apply in_map_iff in J. destruct J as (e & L & J).
        apply existsb_exists in Q. destruct Q as (d' & J' & Q). apply N.eqb_eq in Q. subst d'.
        pose proof (proj1 (Forall_forall _ _) F1 e J) as Ae. apply in_app_or in J'. destruct J' as [J'|J'].
        -- apply (T e); [rewrite Sp; apply in_or_app; now left|]. assert (Z : e = d); [|rewrite Z; exact J'].
           assert (B : forallb (fun x => negb ((0x61 <=? x) && (x <=? 0x7A))) typed_punctuation = true) by (vm_compute; reflexivity).
           rewrite forallb_forall in B. specialize (B d J'). revert L. unfold ascii_lower. ifs; lia.
        -- assert (B : forallb (fun x => 128 <=? x) (u "‘’“”") = true) by (vm_compute; reflexivity).
           rewrite forallb_forall in B. specialize (B d J'). unfold ascii in Ae. revert L. unfold ascii_lower. ifs; lia.
      * rewrite forallb_forall in Q. apply Forall_forall. intros x J. right. unfold emit in J. destruct (forallb is_AZ seg).
        -- apply in_map_iff in J. destruct J as (y & <- & J). apply h2k_char_kana, kana_b_spec, (Q y J).
        -- apply kana_b_spec, (Q x J).
    + apply IH; [rewrite Sp, app_length; destruct seg; [congruence|cbn [length]; lia]|exact F2|].
      intros d J. apply T. rewrite Sp. apply in_or_app. now right.
  - inversion F; subst. constructor; [now left|]. apply IH; [cbn [length]; lia|assumption|]. intros d J. apply T. now right.
Qed.
Lemma plain_typeable s : Forall (fun c => ascii c \/ kana c) s -> typeable_on s.
Proof.
  intro F. unfold typeable_on. fold kana. induction F as [|c s [A|A] F IH].
  - right. intros c [].
  - destruct IH as [(x & I & K)|IH]; [left; exists x; split; [now right|exact K]|]. right. intros x [<-|I]; [now apply ascii_romaji|now apply IH].
  - left. exists c. split; [now left|exact A].
Qed.
Lemma low_plain s : Forall ascii s -> (forall c, In c s -> ~ In c typed_punctuation) -> forall c, In c (low s) -> ~ In c typed_punctuation.
Proof.
  intros F T c I J. apply in_map_iff in I. destruct I as (d & L & I).
  assert (B : forallb (fun x => negb ((0x61 <=? x) && (x <=? 0x7A))) typed_punctuation = true) by (vm_compute; reflexivity).
  rewrite forallb_forall in B. specialize (B c J). apply (T d I). assert (Z : d = c); [|rewrite Z; exact J].
  revert L. unfold ascii_lower. ifs; lia.
Qed.
Section PlainTyping.
  Context (E : std) (HE : std_ok E) (o : options) (P : pass_romaji o = false) (M : mode_of o = Ime).
  Lemma hira_plain_typeable s : Forall ascii s -> (forall c, In c s -> ~ In c typed_punctuation) -> typeable_on (hira_pure E o s).
  Proof.
    intros F T. rewrite (hira_ascii E HE o P M s F). apply plain_typeable, conv_plain; [now apply ascii_low|now apply low_plain].
  Qed.
  Lemma kata_plain_typeable s : Forall ascii s -> (forall c, In c s -> ~ In c typed_punctuation) -> typeable_on (kata_pure E o s).
  Proof.
    intros F T. rewrite (kata_ascii E HE o P M s F). apply plain_typeable. apply Forall_forall. intros x I.
    apply in_map_iff in I. destruct I as (y & <- & I).
    pose proof (proj1 (Forall_forall _ _) (conv_plain Ime (low s) (ascii_low s F) (low_plain s F T)) y I) as [A|A].
    - left. destruct (h2k_char_cases y) as [->|[H _]]; [exact A|]. unfold ascii, hiragana_letter in *. lia.
    - right. now apply h2k_char_kana.
  Qed.
End PlainTyping.
