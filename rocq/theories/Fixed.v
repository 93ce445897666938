(** * Texts that the conversions leave as they are (C81) *)
From Coq Require Import Bool PeanoNat.
From Verif Require Import Tac Base Std Constants Chars Trees KanaTree RomajiTree Strings Convert
  KanaPure KanaSpec KanaDict KanaProofs MoraProofs Predicates ScriptSpec ScriptProofs ScriptIdem RomajiPure RomajiSpec RomajiProofs Splits TokenSpec
  KanaJoinSpec KanaJoin ExactScript LowerTwice CompleteSpec Complete FixedSpec.

(** ** to_kana *)
Lemma app_len_inj {A} (a b c d : list A) : a ++ b = c ++ d -> (length a <= length c)%nat -> (length b <= length d)%nat -> a = c /\ b = d.
Proof.
  intros Q L M. assert (length a = length c) as K by (apply (f_equal (@length A)) in Q; rewrite !app_length in Q; lia).
  revert c Q K L. induction a as [|x a IH]; intros [|y c] Q K L; try discriminate K; [auto|].
  injection Q as -> Q. injection K as K. destruct (IH c Q K) as [-> ->]; [lia|auto].
Qed.
Definition n_keys (m : mode) : bool :=
  forallb (fun e => match fst e with c :: d :: t => negb (c =? ch "n") || (d =? ch "y") || is_empty t | _ => true end) (dict m).
Lemma n_keys_true m : n_keys m = true.
Proof. destruct m; vm_compute; reflexivity. Qed.
Lemma n_key m d t v : entry m (ch "n" :: d :: t) v -> d = ch "y" \/ t = [].
Proof.
  intro I. pose proof (n_keys_true m) as F. unfold n_keys in F. rewrite forallb_forall in F. specialize (F _ I). cbn [fst] in F.
  apply orb_prop in F. destruct F as [F|F]; [left|right; now destruct t]. apply orb_prop in F. destruct F as [F|F]; [|now apply N.eqb_eq in F].
  rewrite N.eqb_refl in F. discriminate F.
Qed.
Lemma ime_no_n v : ~ entry Ime (u "n") v.
Proof.
  intro I. assert (F : existsb (fun e => str_eqb (fst e) (u "n")) (dict Ime) = false) by (vm_compute; reflexivity).
  apply not_true_iff_false in F. apply F. apply existsb_exists. eexists. split; [exact I|reflexivity].
Qed.
Lemma untouched_tail m c s : untouched m (c :: s) -> untouched m s.
Proof. intros H x b k v y ->. exact (H (c :: x) b k v y eq_refl). Qed.
Lemma untouched_conv m s : untouched m s -> conv m s = s.
Proof.
  induction s as [|c s IH]; intro U; [apply kconv_nil|].
  destruct (longest_exists m (c :: s)) as (q & L). destruct (entry_dec m (low q)) as [[v I]|I].
  - exfalso. destruct (proj1 L) as (r & Q). destruct (U [] q (low q) v r Q) as (K & d & y' & -> & Y); [now apply casing_low|exact I|].
    rewrite Q in L. refine (longer m q [d] y' L ltac:(discriminate) _). rewrite K in I.
    assert (M : m <> Ime) by (intros ->; exact (ime_no_n _ I)). pose proof (n_follows m d M (y_follow d Y)) as V.
    apply viable_entry in V. apply viable_entry. rewrite low_app, K. exact V.
  - rewrite (conv_miss m q c s L I). f_equal. apply IH, (untouched_tail m c), U.
Qed.
Lemma fixed_untouched m g s : (forall c, in_no_key m c -> in_no_key m (g c)) -> map g (conv m s) = s -> untouched m s /\ conv m s = s.
Proof.
  intro G. induction s as [s IH] using str_ind_len. intro F. destruct s as [|c s].
  { split; [|apply kconv_nil]. intros x b k v y Q C I. exfalso. symmetry in Q. apply app_eq_nil in Q. destruct Q as [_ Q]. apply app_eq_nil in Q. destruct Q as [-> ->].
    inversion C; subst. now apply keys_nonempty in I. }
  destruct (longest_exists m (c :: s)) as (q & L). destruct (entry_dec m (low q)) as [[v I]|I].
  - exfalso. destruct (proj1 L) as (r & Q). rewrite Q in L, F. rewrite (conv_hit m q r v L I), map_app in F.
    apply app_len_inj in F.
    + destruct F as [F _]. destruct (emit_kana m _ v q I) as (h & t & E & _).
      assert (K : in_no_key m h) by (apply (emit_inert m q v I); rewrite E; now left). apply G in K.
      rewrite E in F. rewrite in_no_key_low in K. apply (K _ _ I). rewrite <- F at 1. now left.
    + rewrite map_length, emit_length. apply outputs_short in I. now rewrite low_length in I.
    + rewrite map_length. apply conv_length.
  - rewrite (conv_miss m q c s L I) in F |- *. cbn [map] in F. injection F as F1 F. destruct (IH s) as [U W]; [cbn; lia|exact F|].
    split; [|now rewrite W]. intros x b k v y Q C J. destruct x as [|x0 x]; [|injection Q as _ Q; exact (U x b k v y Q C J)].
    cbn [app] in Q. pose proof C as C'. apply casing_low in C'. subst k.
    pose proof (proj2 (proj2 L) b y Q (entry_viable m b v J)) as Le. destruct (proj1 L) as (r & Q2). rewrite Q2 in Q. symmetry in Q.
    destruct (app_cut b y q r Q Le) as (e & -> & ->). destruct e as [|d e]; [rewrite app_nil_r in I; exfalso; exact (I v J)|].
    pose proof (proj1 (proj2 L)) as V. apply viable_entry in V. destruct V as (k & w & V). rewrite low_app, <- app_assoc in V.
    destruct (list_eq_dec N.eq_dec (low b) (u "n")) as [K|K].
    2: { apply (only_n_extended m _ v J K) in V. discriminate V. }
    split; [exact K|]. exists d, (e ++ r). split; [reflexivity|]. rewrite K in V. cbn [low map app] in V.
    destruct (n_key _ _ _ _ V) as [Y|Y]; [now apply y_letter_low|]. exfalso. apply app_eq_nil in Y. destruct Y as [Y ->].
    destruct e; [|discriminate Y]. apply (I w). rewrite low_app, K. exact V.
Qed.
Theorem kana_fixed m s : conv m s = s <-> untouched m s.
Proof. split; [|apply untouched_conv]. intro H. apply (fixed_untouched m (fun c => c) s); [auto|]. now rewrite map_id. Qed.

(** ** to_katakana *)
Lemma h2k_no_key m c : in_no_key m c -> in_no_key m (h2k_char c).
Proof.
  intro H. destruct (h2k_char_cases c) as [->|[Q ->]]; [exact H|]. unfold hiragana_letter in Q. apply kana_letter_in_no_key. lia.
Qed.
Lemma h2k_fixed s : h2k s = s <-> forall c, In c s -> ~ hiragana_letter c.
Proof.
  split; [intros Q c I; rewrite <- Q in I; revert I; apply h2k_no_hiragana|].
  induction s as [|c s IH]; intro H; [reflexivity|]. cbn [h2k map]. f_equal; [|apply IH; intros x I; apply H; now right].
  destruct (h2k_char_cases c) as [->|[Q _]]; [reflexivity|]. exfalso. exact (H c (or_introl eq_refl) Q).
Qed.
Theorem kata_fixed_exact E o s : std_ok E -> pass_romaji o = false ->
  kata_pure E o s = s <->
  (forall c, In c s -> ~ hiragana_letter c) /\
  (all_nonempty S_romaji s \/ mixed_text s -> to_lowercase E s = s /\ untouched (mode_of o) s).
Proof.
  intros HE P. unfold kata_pure. rewrite P, k_tree_mode. fold (conv (mode_of o) (to_lowercase E s)).
  destruct (is_romaji s || is_mixed s) eqn:R.
  - assert (all_nonempty S_romaji s \/ mixed_text s) as R'.
    { apply orb_prop in R. destruct R as [R|R]; [left; now apply romaji_text_spec|right; now apply mixed_spec]. }
    split.
    + intro Q. assert (L : to_lowercase E s = s).
      { rewrite <- Q at 1. rewrite lowered_same; [exact Q|exact HE|]. apply h2k_lowered; [exact HE|]. apply conv_lowered; [exact HE|]. now apply to_lowercase_lowered. }
      rewrite L in Q. destruct (fixed_untouched (mode_of o) h2k_char s (h2k_no_key _) Q) as [U W]. rewrite W in Q.
      split; [now apply h2k_fixed|]. auto.
    + intros [H K]. destruct (K R') as [-> U]. rewrite (untouched_conv _ _ U). now apply h2k_fixed.
  - rewrite h2k_fixed. split; [|tauto]. intro H. split; [exact H|]. intro R'. exfalso. apply not_true_iff_false in R. apply R.
    apply orb_true_iff. rewrite romaji_text_spec, mixed_spec. exact R'.
Qed.

(** ** to_hiragana *)
Lemma quote_entry m d : smart_quote d -> exists v, entry m [d] v.
Proof.
  intro D. assert (F : forallb (fun d => existsb (fun e => str_eqb (fst e) [d]) (dict m)) (u "‘’“”") = true) by (destruct m; vm_compute; reflexivity).
  rewrite forallb_forall in F. specialize (F d D). apply existsb_exists in F. destruct F as ([k v] & I & Q). apply str_eqb_eq in Q. cbn [fst] in Q. subst k. eauto.
Qed.
Lemma k2h_fixed E d s : std_ok E -> k2h E d s = s <-> no_katakana s.
Proof.
  intro HE. split; [|apply k2h_no_katakana]. intros Q c I. rewrite <- Q in I. exact (k2h_not_katakana E d s c I).
Qed.
Theorem hira_fixed_exact E o s : std_ok E -> pass_romaji o = false ->
  hira_pure E o s = s <->
  no_katakana s /\
  (mixed_text s \/ all_nonempty S_romaji s \/ starts_with_punct s -> to_lowercase E s = s /\ untouched (mode_of o) s).
Proof.
  intros HE P. unfold hira_pure. rewrite P, k_tree_mode.
  fold (conv (mode_of o) (to_lowercase E s)). fold (conv (mode_of o) (to_lowercase E (k2h E false s))).
  assert (G : forall t, conv (mode_of o) (to_lowercase E t) = s -> to_lowercase E s = s).
  { intros t Q. apply lowered_same; [exact HE|]. rewrite <- Q. apply conv_lowered; [exact HE|]. now apply to_lowercase_lowered. }
  destruct (is_mixed s) eqn:M.
  - apply mixed_spec in M. split.
    + intro Q. pose proof (G _ Q) as L. assert (K : no_katakana s).
      { intros c I. rewrite <- Q, <- k_tree_mode in I. revert I. apply r2h_no_katakana; [exact HE|]. intro. apply k2h_not_katakana. }
      split; [exact K|]. intros _. split; [exact L|]. apply k2h_fixed with (E := E) (d := false) in K; [|exact HE]. rewrite K, L in Q. now apply kana_fixed.
    + intros [K H]. destruct H as [L U]; [now left|]. apply k2h_fixed with (E := E) (d := false) in K; [|exact HE]. rewrite K, L. now apply kana_fixed.
  - assert (Mn : ~ mixed_text s) by (rewrite <- mixed_spec; congruence).
    assert (Mn' : ~ is_mixed s = true) by congruence.
    destruct (is_romaji s || first_punct s) eqn:R.
    + assert (R' : all_nonempty S_romaji s \/ starts_with_punct s).
      { apply orb_prop in R. destruct R as [R|R]; [left; now apply romaji_text_spec|right; now apply first_punct_spec]. }
      split.
      * intro Q. pose proof (G _ Q) as L. pose proof Q as U. rewrite L in U. apply kana_fixed in U. split; [|auto].
        intros c I. apply (hira_no_katakana E o s c HE).
        -- intros d r -> D. destruct (quote_entry (mode_of o) d D) as (v & J).
           destruct (U [] [d] [d] v r eq_refl) as [K _]; [|exact J|]. { apply casing_low. cbn. f_equal. revert D. unfold smart_quote, ascii_lower. change (u "‘’“”") with [0x2018; 0x2019; 0x201C; 0x201D]. cbn [In]. ifs; lia. }
           injection K as ->. revert D. vm_compute. intuition discriminate.
        -- unfold hira_pure. rewrite P. apply not_true_iff_false in Mn'. rewrite Mn', R, k_tree_mode. fold (conv (mode_of o) (to_lowercase E s)). now rewrite Q.
      * intros [K H]. destruct H as [L U]; [now right|]. rewrite L. now apply kana_fixed.
    + rewrite k2h_fixed by exact HE. split; [|tauto]. intro H. split; [exact H|]. intro R'. exfalso. apply not_true_iff_false in R. apply R.
      apply orb_true_iff. rewrite romaji_text_spec, first_punct_spec. tauto.
Qed.

(** ** to_romaji *)
Definition romanised_b (c : N) : bool :=
  kana_b c && negb (existsb (N.eqb c) (u "ゕゖヵヶ")) || existsb (N.eqb c) (u "　、。〜！（）：？［］｛｝「」『』").
Lemma romanised_spec c : romanised_b c = true <-> romanised c.
Proof.
  unfold romanised_b, romanised. rewrite orb_true_iff, andb_true_iff, negb_true_iff, <- not_true_iff_false, kana_b_spec, !existsb_In. reflexivity.
Qed.
Definition roots_romanised : bool := forallb (fun e => match fst e with [c] => romanised_b c | _ => true end) rdict.
Lemma roots_romanised_true : roots_romanised = true.
Proof. vm_compute. reflexivity. Qed.
Definition inert (c : N) : Prop := (forall v, ~ r_entry [c] v) /\ (~ katakana_letter c \/ c = 0x30F5 \/ c = 0x30F6).
Lemma inert_spec c : inert c <-> ~ romanised c.
Proof.
  split.
  - intros [N K] [[S X]|R].
    + assert (0x3041 <= c <= 0x3094 \/ c = 0x30FB \/ c = 0x30FC \/ (katakana_letter c /\ c <> 0x30F5 /\ c <> 0x30F6)) as H.
      { revert S X. unfold S_kana, S_hiragana, S_katakana, Predicates.between, katakana_letter. change (u "ゕゖヵヶ") with [0x3095; 0x3096; 0x30F5; 0x30F6]. cbn [In]. clear. lia. }
      assert (Z : ~ (katakana_letter c /\ c <> 0x30F5 /\ c <> 0x30F6)) by (clear -K; intuition).
      destruct (kana_roots c) as [v I]; [clear -H Z; tauto|]. exact (N v I).
    + assert (F : forallb root_key (u "　、。〜！（）：？［］｛｝「」『』") = true) by (vm_compute; reflexivity).
      rewrite forallb_forall in F. specialize (F c R). apply root_key_spec in N. congruence.
  - intro H. split.
    + intros v I. apply H, romanised_spec. pose proof roots_romanised_true as F. unfold roots_romanised in F. rewrite forallb_forall in F. exact (F _ I).
    + assert ((katakana_letter c /\ c <> 0x30F5 /\ c <> 0x30F6) -> False) as Z.
      { intro K. apply H. left. revert K. unfold S_kana, S_hiragana, S_katakana, Predicates.between, katakana_letter. change (u "ゕゖヵヶ") with [0x3095; 0x3096; 0x30F5; 0x30F6]. cbn [In]. clear. lia. }
      revert Z. unfold katakana_letter. clear. lia.
Qed.
Lemma romaji_inert E up s c : std_ok E -> In c (rconv E up s (k2h E true s)) -> inert c.
Proof.
  intros HE I. apply rconv_In in I; [|exact HE]. destruct I as [[I1 I2]|(seg & oseg & v & I1 & I2 & I3)].
  - split; [exact I2|]. eapply k2h_not_katakana, I1.
  - destruct (r_out_inert _ _ _ _ _ I2 I3) as (A & B & _). split; [exact A|now left].
Qed.
Lemma inert_fixed E up s : std_ok E -> (forall c, In c s -> inert c) -> rconv E up s (k2h E true s) = s.
Proof.
  intros HE H. rewrite k2h_no_katakana by (intros c I; now apply H). apply rconv_inert; [exact HE|]. intros c I. now apply H.
Qed.
Theorem romaji_fixed E up s : std_ok E -> rconv E up s (k2h E true s) = s <-> forall c, In c s -> ~ romanised c.
Proof.
  intro HE. split.
  - intros Q c I. apply inert_spec. apply (romaji_inert E up s c HE). now rewrite Q.
  - intro H. apply inert_fixed; [exact HE|]. intros c I. now apply inert_spec, H.
Qed.
