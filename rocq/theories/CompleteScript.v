(** * Texts that to_hiragana and to_katakana convert completely (C79) *)
From Coq Require Import Bool.
From Verif Require Import Tac Base Std Constants Chars Trees KanaTree Strings Convert
  KanaPure RomajiPure KanaSpec KanaDict KanaProofs MoraProofs Predicates ScriptSpec ScriptProofs RomajiProofs Splits TokenSpec KanaJoinSpec KanaJoin TypingSpec
  CompleteSpec Complete Compose ScriptIdem ExactScript LowerTwice RoundUp ScriptTokens.

Lemma kana_number c : S_kana c -> 0x3041 <= c <= 0x30FC.
Proof. unfold S_kana, S_hiragana, S_katakana, between. lia. Qed.
Lemma kana_no_key m c : S_kana c -> in_no_key m c.
Proof. intro K. apply kana_letter_in_no_key. now apply kana_number in K. Qed.
Lemma kana_lower E c : std_ok E -> S_kana c -> lower_char E c = [c].
Proof. intros HE K. apply ok_lower_caseless; [exact HE|]. apply kana_number in K. unfold caseless. lia. Qed.

(** ** Katakana turned to hiragana within a text *)
(** what holds of a text exactly if it holds of what is in front of a kana and after it *)
Definition splits (P : str -> Prop) : Prop := P [] /\ forall x c y, S_kana c -> (P (x ++ c :: y) <-> P x /\ P y).
Lemma split_first P c y : splits P -> S_kana c -> P (c :: y) <-> P y.
Proof. intros [N S] K. pose proof (S [] c y K). cbn [app] in *. tauto. Qed.
Lemma vowel_kana d k v : mark_vowel (o_vowel d) k v -> v = [] \/ exists c, v = [c] /\ S_kana c.
Proof.
  intros (row & I & _). assert (F : forallb (fun e => match snd e with [] => true | [c] => kana_b c | _ => false end) (mark_table (o_vowel d)) = true) by (destruct d; vm_compute; reflexivity).
  rewrite forallb_forall in F. specialize (F _ I). cbn [snd] in F. destruct v as [|c [|]]; [now left|right|discriminate]. exists c. split; [reflexivity|]. now apply kana_b_spec.
Qed.
Lemma lengthens_last a k : lengthens a k -> exists a0 c, a = a0 ++ [c] /\ S_kana c.
Proof.
  intros (a' & run & -> & K & _ & F). destruct (rev run) as [|c r] eqn:R.
  - apply (f_equal (@rev N)) in R. rewrite rev_involutive in R. subst run. exists a', k. split; [reflexivity|]. right. unfold katakana_letter, S_katakana, between in *. lia.
  - apply (f_equal (@rev N)) in R. rewrite rev_involutive in R. cbn [rev] in R. subst run. exists (a' ++ k :: rev r), c. split; [now rewrite <- app_assoc|].
    apply Forall_app in F. destruct F as [_ F]. inversion F as [|? ? I _]; subst. change (u "ー・ヵヶ") with [0x30FC; 0x30FB; 0x30F5; 0x30F6] in I. cbn [In] in I.
    right. unfold S_katakana, between. lia.
Qed.
Lemma hiragana_for_kana c h : hiragana_for c h -> (S_kana c /\ S_kana h) \/ (~ S_kana c /\ h = c).
Proof.
  intro A. destruct (kana_b c) eqn:K.
  - left. apply kana_b_spec in K as K'. split; [exact K'|]. destruct (k2hc_cases c) as [Z|[_ Z]].
    + apply k2hc_spec in A. rewrite <- A, Z. exact K'.
    + apply k2hc_spec in A. rewrite <- A. left. left. unfold hiragana_letter, between in *. lia.
  - right. assert (~ S_kana c) as N by (rewrite <- kana_b_spec; congruence). split; [exact N|]. apply k2hc_spec in A. rewrite <- A.
    destruct (k2hc_cases c) as [Z|[Z _]]; [exact Z|]. exfalso. apply N. right. unfold katakana_letter, S_katakana, between in *. lia.
Qed.
Lemma text_splits P d a s t : splits P -> hiragana_text (o_vowel d) a s t ->
  forall z, (forall a0 c, a = a0 ++ [c] -> S_kana c -> exists z0 c', z = z0 ++ [c'] /\ S_kana c') -> (P (z ++ s) <-> P (z ++ t)).
Proof.
  intros SP T. induction T as [a|a c s p t H T IH]; intros z Z; [reflexivity|].
  assert (Same : forall e, S_kana e -> (P s <-> P t)).
  { intros e Ke. rewrite <- (split_first P e s SP Ke), <- (split_first P e t SP Ke). apply (IH [e]). intros _ _ _ _. exists [], e. auto. }
  assert (Kana : forall e, S_kana c -> S_kana e -> P (z ++ c :: s) <-> P (z ++ [e] ++ t)).
  { intros e Kc Ke. cbn [app]. rewrite !(proj2 SP) by assumption. rewrite (Same e Ke). reflexivity. }
  assert (Kl : S_kana long_mark) by (right; unfold S_katakana, between; change long_mark with 0x30FC; lia).
  destruct H as [(N & h & A & ->)|[(-> & k & A & B)|(-> & _ & ->)]].
  - destruct (hiragana_for_kana c h A) as [[Kc Kh]|[Nc ->]]; [now apply Kana|].
    change (c :: s) with ([c] ++ s). rewrite !app_assoc. apply IH. intros a0 c' Q K. apply app_inj_tail in Q. destruct Q as [_ <-]. contradiction.
  - destruct (vowel_kana d k p B) as [->|(e & -> & Ke)]; [|now apply Kana].
    destruct (lengthens_last a k A) as (a0 & c' & Qa & Kc). destruct (Z a0 c' Qa Kc) as (z0 & e & -> & Ke).
    rewrite <- !app_assoc. cbn [app]. rewrite !(proj2 SP) by assumption. rewrite (split_first P long_mark s SP Kl), (Same e Ke). reflexivity.
  - now apply Kana.
Qed.
Lemma k2h_splits P E d s : std_ok E -> splits P -> P s <-> P (k2h E d s).
Proof.
  intros HE SP. apply (text_splits P d [] s (k2h E d s) SP (k2h_text E d s HE) []). intros a0 c Q. destruct a0; discriminate.
Qed.

Section Splits.
  Variables (E : std) (m : mode).
  Hypothesis HE : std_ok E.
  Notation L := (flat_map (lower_char E)).

  Lemma lower_split x c y : S_kana c -> L (x ++ c :: y) = L x ++ c :: L y.
  Proof. intro K. rewrite flat_map_app. cbn [flat_map]. now rewrite (kana_lower E c HE K). Qed.
  Lemma conv_splits : splits (fun x => Forall S_kana (conv m (L x))).
  Proof.
    split; [constructor|]. intros x c y K. rewrite (lower_split x c y K), (conv_boundary m c _ (kana_no_key m c K)), Forall_app, Forall_cons_iff. tauto.
  Qed.
  Lemma slash_kana_chars : forallb (forallb (fun c => c <? 0x3041)) not_hiragana = true.
  Proof. vm_compute. reflexivity. Qed.
  Lemma slash_split x c y : S_kana c -> slash_in (x ++ c :: y) = true <-> slash_in x = true \/ slash_in y = true.
  Proof.
    intro K. rewrite !slash_in_spec. split.
    - intros (a & k & b & Q & I). pose proof slash_kana_chars as F. rewrite forallb_forall in F. specialize (F _ I). rewrite forallb_forall in F.
      destruct (app_eq_app _ _ _ _ Q) as (l & [[-> Z]|[-> Z]]).
      + destruct (app_eq_app _ _ _ _ Z) as (l' & [[-> Z']|[-> Z']]).
        * destruct l' as [|e l']; [left; exists a, (l ++ []), []; rewrite !app_nil_r in *; auto|].
          exfalso. injection Z' as <- _. specialize (F c). rewrite N.ltb_lt in F. apply kana_number in K. assert (c < 0x3041); [apply F; apply in_or_app; right; now left|lia].
        * left. exists a, k, l'. now rewrite app_assoc.
      + destruct l as [|e l].
        * destruct k as [|e k]; [exfalso; revert I; cbn; intuition discriminate|]. exfalso. injection Z as <- _.
          specialize (F c (or_introl eq_refl)). apply N.ltb_lt in F. apply kana_number in K. lia.
        * right. injection Z as <- ->. exists l, k, b. auto.
    - intros [(a & k & b & -> & I)|(a & k & b & -> & I)].
      + exists a, k, (b ++ c :: y). now rewrite <- !app_assoc.
      + exists (x ++ c :: a), k, b. now rewrite <- !app_assoc.
  Qed.
  Lemma slash_splits : splits (fun x => ~ slash_in (L x) = true).
  Proof.
    split; [vm_compute; discriminate|]. intros x c y K. rewrite (lower_split x c y K), (slash_split _ c _ K). tauto.
  Qed.

  Lemma sigma_bad y : In SIGMA y -> ~ Forall S_kana (conv m (to_lowercase E y)).
  Proof.
    intros I F. destruct (lower_pieces E y) as (ls & Fl & Q).
    assert (J : exists d, In d (to_lowercase E y) /\ 0x80 <= d < 0x2000).
    { rewrite Q. clear F Q. induction Fl as [|c l y ls Pc Fl IH]; [destruct I|]. destruct I as [->|I].
      - destruct Pc as [[Z _]|[_ [-> | ->]]]; [contradiction|eexists; split; [now left|vm_compute; split; [discriminate|reflexivity]]|eexists; split; [now left|vm_compute; split; [discriminate|reflexivity]]].
      - destruct (IH I) as (d & D & B). exists d. split; [|exact B]. cbn [concat]. apply in_or_app. now right. }
    destruct J as (d & D & B). rewrite Forall_forall in F. assert (K : S_kana d).
    { apply F. apply conv_keeps; [|exact D]. apply non_ascii_in_no_key; [lia|]. change (u "‘’“”") with [0x2018; 0x2019; 0x201C; 0x201D]. cbn [In]. lia. }
    apply kana_number in K. lia.
  Qed.
  Lemma k2h_sigma d s : In SIGMA s -> In SIGMA (k2h E d s).
  Proof. intro I. change SIGMA with (k2hc SIGMA). apply k2h_keeps; [exact I|discriminate]. Qed.
  Lemma sigma_k2h d s : In SIGMA (k2h E d s) -> In SIGMA s.
  Proof.
    intro I. assert (G : forall a x t, hiragana_text (o_vowel d) a x t -> In SIGMA t -> In SIGMA x).
    { intros a x t T. induction T as [a|a c x p t H T IH]; [auto|]. intro J. apply in_app_or in J. destruct J as [J|J]; [|right; now apply IH]. left.
      destruct H as [(_ & h & A & ->)|[(-> & k & _ & B)|(-> & _ & ->)]].
      - destruct J as [->|[]]. destruct (hiragana_for_kana c SIGMA A) as [[_ K]|[_ Z]]; [apply kana_number in K; vm_compute in K; destruct K as [K _]; now destruct K|auto].
      - exfalso. destruct (vowel_kana d k p B) as [->|(e & -> & Ke)]; [exact J|]. destruct J as [->|[]]. apply kana_number in Ke. vm_compute in Ke. destruct Ke as [K _]; now destruct K.
      - exfalso. destruct J as [J|[]]. discriminate J. }
    exact (G _ _ _ (k2h_text E d s HE) I).
  Qed.
  Lemma sigma_dec (y : str) : In SIGMA y \/ ~ In SIGMA y.
  Proof. destruct (in_dec N.eq_dec SIGMA y); auto. Qed.
  (** the hiragana in between makes no difference *)
  Lemma k2h_complete d s : complete m (to_lowercase E (k2h E d s)) <-> complete m (to_lowercase E s).
  Proof.
    rewrite <- !complete_iff. destruct (sigma_dec s) as [I|I].
    - split; intro F; exfalso; [apply (sigma_bad (k2h E d s)); [now apply k2h_sigma|exact F]|now apply (sigma_bad s)].
    - rewrite !(lower_chars E) by (exact I || (intro J; apply I; now apply (sigma_k2h d))). symmetry. apply (k2h_splits _ E d s HE conv_splits).
  Qed.
  Lemma k2h_slash d s : complete m (to_lowercase E s) -> (slash_in (to_lowercase E (k2h E d s)) = true <-> slash_in (to_lowercase E s) = true).
  Proof.
    rewrite <- complete_iff. intro F. destruct (sigma_dec s) as [I|I]; [exfalso; now apply (sigma_bad s)|].
    rewrite !(lower_chars E) by (exact I || (intro J; apply I; now apply (sigma_k2h d))).
    pose proof (k2h_splits _ E d s HE slash_splits) as X. cbv beta in X. destruct (slash_in (L s)), (slash_in (L (k2h E d s))); tauto || (exfalso; intuition congruence) || (split; congruence).
  Qed.
End Splits.

(** ** Hiragana only *)
Lemma hiragana_conv m y : (forall c, In c y -> is_AZ c = false) ->
  Forall S_hiragana (conv m y) <-> Forall S_kana (conv m y) /\ ~ slash_in y = true /\ forall c, In c y -> S_kana c -> S_hiragana c.
Proof.
  induction y as [y IH] using str_ind_len. intro U. destruct y as [|c s].
  { split; [|constructor]. intros _. split; [constructor|]. split; [discriminate|intros c []]. }
  destruct (longest_exists m (c :: s)) as (q & L). destruct (entry_dec m (low q)) as [[v I]|I].
  - destruct (proj1 L) as (r & Q). rewrite Q in L, U, IH |- *. rewrite (conv_hit m q r v L I).
    assert (Nq : q <> []) by (intros ->; now apply keys_nonempty in I).
    assert (Uq : forall c, In c q -> is_AZ c = false) by (intros d D; apply U, in_or_app; now left).
    assert (Lq : low q = q). { unfold low. rewrite <- (map_id q) at 2. apply map_ext_in. intros d D. specialize (Uq d D). revert Uq. unfold is_AZ, ascii_lower. ifs; lia. }
    rewrite Lq in I.
    assert (Lst : ~ In (last q 0) (u "lxck")).
    { pose proof (slash_only_true m) as F. unfold slash_only in F. rewrite forallb_forall in F. specialize (F _ I). cbn [fst] in F.
      apply andb_prop in F. destruct F as [_ F]. apply negb_true_iff, not_true_iff_false in F. intro X. apply F. now apply existsb_In. }
    assert (Kq : forall c, In c q -> ~ S_kana c) by (intros d D K; apply (kana_no_key m d K _ _ d I); [now apply lowers_lower, kana_ascii_lower|exact D]).
    rewrite slash_over, orb_true_iff by exact Lst.
    rewrite emit_low_text, !Forall_app by assumption. rewrite (IH r); [|rewrite app_length; destruct q; [congruence|cbn; lia]|intros d D; apply U, in_or_app; now right].
    pose proof (key_slash m q v I) as G.
    assert (HK : Forall S_hiragana v -> Forall S_kana v) by (apply Forall_impl; intros ? ?; now left).
    assert (X : (forall c, In c (q ++ r) -> S_kana c -> S_hiragana c) <-> (forall c, In c r -> S_kana c -> S_hiragana c)).
    { split; intros Z d D K; [apply Z; [apply in_or_app; now right|exact K]|]. apply in_app_or in D. destruct D as [D|D]; [now apply Kq in K|now apply Z]. }
    rewrite X. tauto.
  - rewrite (conv_miss m q c s L I), !Forall_cons_iff. rewrite (IH s); [|cbn; lia|intros d D; apply U; now right].
    split.
    + intros (A & B & C & D). assert (Kc : S_kana c) by now left. split; [now split|]. split.
      * intro X. apply (slash_split [] c s Kc) in X. destruct X as [X|X]; [discriminate X|now apply C].
      * intros e [<-|Ie]; auto.
    + intros ((A & B) & C & D). split; [apply D; [now left|exact A]|]. split; [exact B|]. split; [|intros e Ie; apply D; now right].
      intro X. apply C. apply (slash_split [] c s A). now right.
Qed.

Definition no_small_ka (s : str) : Prop := forall c, In c s -> ~ In c (u "・ヵヶ").
Lemma hiragana_for_hiragana c h : hiragana_for c h -> (S_hiragana h <-> S_kana c /\ ~ In c (u "・ヵヶ")).
Proof.
  unfold hiragana_for, S_kana, S_hiragana, S_katakana, between. change (u "・ヵヶ") with [0x30FB; 0x30F5; 0x30F6]. cbn [In].
  change (ch "ヷ") with 0x30F7. change (ch "ヸ") with 0x30F8. change (ch "ヹ") with 0x30F9. change (ch "ヺ") with 0x30FA.
  change (ch "わ") with 0x308F. change (ch "ゐ") with 0x3090. change (ch "ゑ") with 0x3091. change (ch "を") with 0x3092. lia.
Qed.
Lemma vowel_hiragana d k v : mark_vowel (o_vowel d) k v -> Forall S_hiragana v.
Proof.
  intros (row & I & _). assert (F : forallb (fun e => forallb is_char_hiragana (snd e)) (mark_table (o_vowel d)) = true) by (destruct d; vm_compute; reflexivity).
  rewrite forallb_forall in F. specialize (F _ I). cbn [snd] in F. revert F. apply forallb_Forall, hiragana_spec.
Qed.
Lemma mark_hiragana : S_hiragana long_mark.
Proof. now right. Qed.
Lemma k2h_hiragana E d s : std_ok E -> Forall S_hiragana (k2h E d s) <-> Forall S_kana s /\ no_small_ka s.
Proof.
  intro HE. assert (G : forall a x t, hiragana_text (o_vowel d) a x t -> Forall S_hiragana t <-> Forall (fun c => S_kana c /\ ~ In c (u "・ヵヶ")) x).
  { intros a x t T. induction T as [a|a c x p t H T IH]; [split; constructor|]. rewrite Forall_app, Forall_cons_iff, IH.
    enough (Forall S_hiragana p <-> S_kana c /\ ~ In c (u "・ヵヶ")) by tauto.
    assert (Ml : S_kana long_mark /\ ~ In long_mark (u "・ヵヶ")) by (split; [left; apply mark_hiragana|vm_compute; intuition discriminate]).
    destruct H as [(_ & h & A & ->)|[(-> & k & _ & B)|(-> & _ & ->)]].
    - rewrite <- (hiragana_for_hiragana c h A). split; [intro Z; now inversion Z|intro Z; constructor; [exact Z|constructor]].
    - split; [auto|]. intros _. exact (vowel_hiragana d k p B).
    - split; [auto|]. intros _. constructor; [apply mark_hiragana|constructor]. }
  rewrite (G [] s _ (k2h_text E d s HE)). unfold no_small_ka. rewrite !Forall_forall. split; [intro H; split; intros c I; now apply H|intros [A B] c I; auto].
Qed.
Lemma k2h_small_ka E d s c : std_ok E -> In c (k2h E d s) -> S_kana c -> ~ S_hiragana c -> In c s /\ In c (u "・ヵヶ").
Proof.
  intros HE I K N. assert (G : forall a x t, hiragana_text (o_vowel d) a x t -> In c t -> In c x /\ In c (u "・ヵヶ")).
  { intros a x t T. induction T as [a|a e x p t H T IH]; [intros []|]. intro J. apply in_app_or in J. destruct J as [J|J]; [|destruct (IH J); split; [now right|assumption]].
    destruct H as [(_ & h & A & ->)|[(-> & k & _ & B)|(-> & _ & ->)]].
    - destruct J as [->|[]]. pose proof (hiragana_for_hiragana e c A) as X. destruct (hiragana_for_kana e c A) as [[Ke _]|[Ne ->]]; [|contradiction].
      assert (J : In e (u "・ヵヶ")) by (destruct (in_dec N.eq_dec e (u "・ヵヶ")); [assumption|exfalso; tauto]).
      assert (c = e) as ->; [|split; [now left|exact J]].
      apply k2hc_spec in A. rewrite <- A. revert J. change (u "・ヵヶ") with [0x30FB; 0x30F5; 0x30F6]. intros [<-|[<-|[<-|[]]]]; vm_compute; reflexivity.
    - pose proof (vowel_hiragana d k p B) as F. rewrite Forall_forall in F. exfalso. auto.
    - destruct J as [<-|[]]. exfalso. apply N, mark_hiragana. }
  exact (G _ _ _ (k2h_text E d s HE) I).
Qed.

(** ** Quotes *)
Definition quote_b (c : N) : bool := existsb (N.eqb c) (u "‘’“”").
Lemma quotes_not_kana m : forallb (fun e => negb (existsb quote_b (fst e)) || negb (forallb kana_b (snd e))) (dict m) = true.
Proof. destruct m; vm_compute; reflexivity. Qed.
Lemma complete_no_quote m y c : complete m y -> In c y -> ~ smart_quote c.
Proof.
  intros [(ps & -> & F) _] I Q. apply in_concat in I. destruct I as (p & Ip & C). rewrite Forall_forall in F. apply quote_number in Q as B.
  destruct (F p Ip) as [(k & -> & K)|(k & v & Cs & En & V)].
  - destruct C as [<-|[]]. apply kana_number in K. lia.
  - apply casing_low in Cs. pose proof (quotes_not_kana m) as G. rewrite forallb_forall in G. specialize (G _ En). cbn [fst snd] in G.
    apply orb_prop in G. destruct G as [G|G]; apply negb_true_iff, not_true_iff_false in G; apply G.
    + apply existsb_exists. exists c. split; [|now apply existsb_In]. rewrite <- Cs. assert (ascii_lower c = c) as <- by (unfold ascii_lower; ifs; lia). now apply in_map.
    + revert V. apply forallb_Forall, kana_b_spec.
Qed.

(** ** The results *)
Lemma kana_not_romaji s : s <> [] -> Forall S_kana s -> ~ (all_nonempty S_romaji s \/ mixed_text s) /\ ~ starts_with_punct s.
Proof.
  intros N K. rewrite Forall_forall in K. split.
  - assert (R : forall c, In c s -> ~ S_romaji c) by (intros c I Rc; exact (kana_romaji c (K c I) Rc)).
    intros [[_ A]|[_ (c & I & Rc)]]; [|exact (R c I Rc)]. destruct s as [|c s]; [congruence|]. apply (R c); [now left|]. apply A. now left.
  - intros (c & r & -> & Pc). specialize (K c (or_introl eq_refl)). destruct (punct_kinds c Pc) as [R|Q]; [exact (kana_romaji c K R)|].
    apply quote_number in Q. apply kana_number in K. lia.
Qed.
Lemma lower_nil E s : std_ok E -> to_lowercase E s = [] <-> s = [].
Proof.
  intro HE. split; [|intros ->; reflexivity]. intro Q. destruct (lower_pieces E s) as (ls & F & Z). rewrite Z in Q. destruct F as [|c l s ls Pc F]; [reflexivity|].
  exfalso. cbn [concat] in Q. apply app_eq_nil in Q. destruct Q as [-> _]. destruct Pc as [[_ Q]|[_ [Q|Q]]]; try discriminate Q.
  symmetry in Q. exact (ok_lower_some E HE c Q).
Qed.
Lemma slash_lower E y : std_ok E -> has_not_hiragana (to_lowercase E y) <-> slash_in (to_lowercase E y) = true.
Proof.
  intro HE. rewrite has_slash_low. assert (low (to_lowercase E y) = to_lowercase E y) as ->; [|reflexivity].
  unfold low. rewrite <- (map_id (to_lowercase E y)) at 2. apply map_ext_in. intros c I. apply lower_In in I; [|exact HE]. destruct I as [I _]. revert I.
  unfold is_AZ, ascii_lower. ifs; lia.
Qed.

Theorem complete_katakana E o s : std_ok E ->
  is_katakana (kata_pure E o s) = true <->
  s <> [] /\ (Forall S_kana s \/
    (pass_romaji o = false /\ (Forall S_romaji s \/ mixed_text s) /\ complete (mode_of o) (to_lowercase E s))).
Proof.
  intro HE. rewrite (proj1 (proj2 C36_holds)), all_nonempty_iff. unfold kata_pure.
  assert (Z : forall x, h2k x = [] <-> x = []) by (intro x; unfold h2k; split; [apply map_eq_nil|intros ->; reflexivity]).
  assert (A : s <> [] -> (is_romaji s || is_mixed s = true <-> Forall S_romaji s \/ mixed_text s)).
  { intro N. rewrite orb_true_iff, romaji_text_spec, mixed_spec, all_nonempty_iff. tauto. }
  assert (B : forall x, Forall S_katakana (h2k x) <-> Forall S_kana x) by apply h2k_all_katakana.
  destruct (pass_romaji o); [rewrite B, Z; split; [tauto|]; intros [N [K|[X _]]]; [tauto|discriminate]|].
  destruct (is_romaji s || is_mixed s) eqn:R.
  - rewrite B, Z, k_tree_mode. fold (conv (mode_of o) (to_lowercase E s)). rewrite conv_nil, complete_iff, (lower_nil E s HE). split.
    + intros [N C]. split; [exact N|]. right. split; [reflexivity|]. split; [now apply A|exact C].
    + intros [N [K|(_ & _ & C)]]; [|tauto]. exfalso. destruct (kana_not_romaji s N K) as [X _]. apply X. rewrite <- romaji_text_spec, <- mixed_spec, <- orb_true_iff. exact R.
  - rewrite B, Z. split; [tauto|]. intros [N [K|(_ & X & _)]]; [tauto|]. apply (A N) in X. discriminate X.
Qed.
Theorem complete_hiragana E o s : std_ok E ->
  is_hiragana (hira_pure E o s) = true <->
  s <> [] /\ no_small_ka s /\ (Forall S_kana s \/
    (pass_romaji o = false /\ (Forall S_romaji s \/ mixed_text s \/ starts_with_punct s) /\
     complete (mode_of o) (to_lowercase E s) /\ ~ has_not_hiragana (to_lowercase E s))).
Proof.
  intro HE. rewrite (proj1 C36_holds), all_nonempty_iff. unfold hira_pure. rewrite (slash_lower E s HE).
  assert (Z : forall x, k2h E false x = [] <-> x = []) by (intro x; split; [apply k2h_nil|intros ->; reflexivity]).
  assert (Kept : Forall S_hiragana (k2h E false s) <-> Forall S_kana s /\ no_small_ka s) by now apply k2h_hiragana.
  assert (Lz : forall y c, In c (to_lowercase E y) -> is_AZ c = false) by (intros y c I; now apply lower_In in I).
  destruct (pass_romaji o); [rewrite Kept, Z; split; [tauto|]; intros [N [B [K|[X _]]]]; [tauto|discriminate]|].
  destruct (is_mixed s) eqn:M.
  { rewrite k_tree_mode. fold (conv (mode_of o) (to_lowercase E (k2h E false s))). rewrite conv_nil, (lower_nil E _ HE), Z.
    rewrite hiragana_conv by apply Lz. rewrite complete_iff, (k2h_complete E _ HE). apply mixed_spec in M.
    assert (X : (forall c, In c (to_lowercase E (k2h E false s)) -> S_kana c -> S_hiragana c) <-> no_small_ka s).
    { split.
      - intros H c I J. assert (Kc : S_kana c /\ ~ S_hiragana c /\ caseless c = true /\ k2hc c = c /\ c <> long_mark).
        { revert J. change (u "・ヵヶ") with [0x30FB; 0x30F5; 0x30F6]. unfold S_kana, S_hiragana, S_katakana, between.
          intros [<-|[<-|[<-|[]]]]; (split; [lia|]; split; [lia|]; split; [reflexivity|]; split; [vm_compute; reflexivity|discriminate]). }
        destruct Kc as (K & Nh & Cl & Kq & Nm). apply Nh, H; [|exact K]. apply lower_keeps; [exact HE|exact Cl|]. rewrite <- Kq. now apply k2h_keeps.
      - intros H c I K. destruct (is_char_hiragana c) eqn:Hc; [now apply hiragana_spec|]. exfalso.
        assert (Nh : ~ S_hiragana c) by (rewrite <- hiragana_spec; congruence).
        apply lower_In in I; [|exact HE]. destruct I as [_ I]. specialize (I ltac:(apply kana_number in K; unfold caseless; lia)).
        destruct (k2h_small_ka E false s c HE I K Nh) as [A B]. exact (H c A B). }
    rewrite X. split.
    - intros (N & C & S & B). split; [exact N|]. split; [exact B|]. right. split; [reflexivity|]. split; [now right; left|]. split; [exact C|].
      rewrite <- (k2h_slash E (mode_of o) HE false s C). exact S.
    - intros (N & B & [K|(_ & _ & C & S)]); [exfalso; destruct (kana_not_romaji s N K) as [Y _]; auto|]. split; [exact N|]. split; [exact C|]. split; [|exact B].
      now rewrite (k2h_slash E (mode_of o) HE false s C). }
  assert (Nm : ~ mixed_text s) by (rewrite <- mixed_spec; congruence).
  assert (A : s <> [] -> (is_romaji s || first_punct s = true <-> Forall S_romaji s \/ mixed_text s \/ starts_with_punct s)).
  { intro N. rewrite orb_true_iff, romaji_text_spec, first_punct_spec, all_nonempty_iff. tauto. }
  destruct (is_romaji s || first_punct s) eqn:R.
  - rewrite k_tree_mode. fold (conv (mode_of o) (to_lowercase E s)). rewrite conv_nil, (lower_nil E _ HE).
    rewrite hiragana_conv by apply Lz. rewrite complete_iff. split.
    + intros (N & C & S & B). split; [exact N|]. split; [|right; split; [reflexivity|]; split; [now apply A|auto]].
      intros c I J. assert (Kc : S_kana c /\ ~ S_hiragana c /\ caseless c = true).
      { revert J. change (u "・ヵヶ") with [0x30FB; 0x30F5; 0x30F6]. unfold S_kana, S_hiragana, S_katakana, between. intros [<-|[<-|[<-|[]]]]; (split; [lia|]; split; [lia|reflexivity]). }
      destruct Kc as (K & Nh & Cl). apply Nh, B; [|exact K]. now apply lower_keeps.
    + intros (N & B & [K|(_ & Y & C & S)]).
      { exfalso. destruct (kana_not_romaji s N K) as [Y1 Y2]. destruct (proj1 (A N) eq_refl) as [X|[X|X]]; [|auto|auto]. apply Y1. left. now apply all_nonempty_iff. }
      split; [exact N|]. split; [exact C|]. split; [exact S|]. intros c I K. exfalso.
      apply lower_In in I; [|exact HE]. destruct I as [_ I]. specialize (I ltac:(apply kana_number in K; unfold caseless; lia)).
      destruct Y as [Y|[Y|(a & r & -> & Y)]]; [rewrite Forall_forall in Y; exact (kana_romaji c K (Y c I))|contradiction|].
      destruct (punct_kinds a Y) as [Ra|Qa]; [apply Nm; split; [exists c; auto|exists a; split; [now left|exact Ra]]|].
      apply (complete_no_quote _ _ a C); [|exact Qa]. apply lower_keeps; [exact HE| |now left]. apply quote_number in Qa. unfold caseless. lia.
  - rewrite Kept, Z. split; [tauto|]. intros (N & B & [K|(_ & X & _)]); [tauto|]. apply (A N) in X. discriminate X.
Qed.
