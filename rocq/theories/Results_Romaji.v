(** * Proofs of the theorems of Props_Romaji.v *)
From Verif Require Import Base Tac Std StdInstances Chars Strings Convert KanaPure RomajiPure KanaSpec
  KanaDict KanaProofs Predicates ScriptSpec ScriptProofs RomajiSpec RomajiProofs MoraProofs ReadBack LibrarySpec LibraryProofs
  ChoiceSpec ChoiceProofs Results_Kana.

Lemma rom_iff E o s t : std_ok E ->
  to_romaji_with_opt E s o = Ok t <-> t = rconv E (upcase_katakana o) s (k2h E true s).
Proof. intro HE. rewrite to_romaji_with_opt_eq by exact HE. split; [now intros [= <-]|now intros ->]. Qed.
Lemma rom_default E s t : std_ok E ->
  to_romaji E s = Ok t <-> t = rconv E false s (k2h E true s).
Proof. intro HE. apply (rom_iff E default_options s t HE). Qed.
Lemma kata_text ms t : Forall standard ms -> katakana_text ms t -> t = map kata (kana_text ms).
Proof.
  intros S K. apply kata_map; [|exact K]. intros c I. exact (text_hiragana ms c S I).
Qed.
Lemma reversible_standard ms : Forall reversible ms -> Forall standard ms.
Proof. apply Forall_impl. now intros m [S _]. Qed.
Lemma katakana_text_map ms : Forall standard ms -> katakana_text ms (map kata (kana_text ms)).
Proof.
  intro S. unfold katakana_text. pose proof (fun c => text_hiragana ms c S) as H. revert H.
  generalize (kana_text ms). intro l. induction l as [|c l IH]; intro H; constructor.
  - left. split; [|reflexivity]. pose proof (H c (or_introl eq_refl)). lia.
  - apply IH. intros x I. apply H. now right.
Qed.
Lemma marked_kata ms t : Forall standard (map fst ms) -> marked_kana ms t -> Forall S_kata t.
Proof.
  intros S K. destruct (marked_texts ms S t K) as (w & F & <- & _).
  apply Forall_forall. intros c I. exact (word_kana _ _ c F I).
Qed.

(** results on closed text do not depend on the library *)
Lemma romaji_closed E (HE : std_ok E) o s t :
  forallb (fun c => negb ((c =? 0x30F4) || (c =? 0x3094))) s = true ->
  rconv std_1_82 (upcase_katakana o) s (k2h std_1_82 true s) = t -> to_romaji_with_opt E s o = Ok t.
Proof.
  intros F <-. rewrite forallb_forall in F. rewrite to_romaji_with_opt_eq by exact HE. f_equal.
  apply rom_indep; [exact HE|exact std_1_82_ok| |]; intro I; specialize (F _ I); vm_compute in F; discriminate.
Qed.

(** checkers for the examples *)
Fixpoint dropb (pk : option N) (s : str) : bool :=
  match s with
  | [] => true
  | c :: r =>
    if existsb (N.eqb c) (u "ー・ヵヶ")
    then (negb (c =? long_mark) || match pk with Some k => negb (existsb (N.eqb k) (u "ッン")) | None => true end) && dropb pk r
    else dropb (Some c) r
  end.
Lemma dropb_ok s : forall a pk, (forall k, lengthens a k -> pk = Some k) -> dropb pk s = true ->
  forall x b k, s = x ++ long_mark :: b -> lengthens (a ++ x) k -> ~ In k (u "ッン").
Proof.
  induction s as [|c s IH]; intros a pk H D x b k Q K; [destruct x; discriminate|]. cbn [dropb] in D.
  destruct x as [|c' x]; cbn in Q; inversion Q; subst.
  - rewrite app_nil_r in K. apply H in K. subst pk. replace (existsb (N.eqb long_mark) (u "ー・ヵヶ")) with true in D by reflexivity.
    rewrite N.eqb_refl in D. cbn [negb orb] in D. apply andb_prop in D. destruct D as [D _]. apply negb_true_iff in D.
    intro I. apply existsb_In in I. congruence.
  - replace (a ++ c' :: x) with ((a ++ [c']) ++ x) in K by (rewrite <- app_assoc; reflexivity).
    destruct (existsb (N.eqb c') (u "ー・ヵヶ")) eqn:M.
    + apply andb_prop in D. destruct D as [_ D]. refine (IH (a ++ [c']) pk _ D x b k eq_refl K).
      intros k' L. apply lengthens_snoc in L. destruct L as [(-> & L1 & L2)|(_ & L)]; [|now apply H].
      exfalso. apply existsb_In in M. revert M L1 L2. change (u "ー・ヵヶ") with [0x30FC; 0x30FB; 0x30F5; 0x30F6].
      change (u "ヵヶ") with [0x30F5; 0x30F6]. unfold katakana_letter. cbn [In]. lia.
    + refine (IH (a ++ [c']) (Some c') _ D x b k eq_refl K). intros k' L. apply lengthens_snoc in L.
      destruct L as [(-> & _)|(L & _)]; [reflexivity|]. apply existsb_In in L. congruence.
Qed.
Lemma drops_check s : dropb None s = true -> drops_no_mark s.
Proof.
  intros D a b k Q K. refine (dropb_ok s [] None _ D a b k Q K). intros k' L. now apply lengthens_nil in L.
Qed.
Definition standardb (m : mora) : bool :=
  match m with
  | Syl k r => pair_mem (k, r) syllables
  | Gem k r => pair_mem (k, r) syllables && negb (first_in (u "aiueony") r)
  | Nn => true
  end.
Lemma standard_check ms : forallb standardb ms = true -> Forall standard ms.
Proof.
  intro H. apply Forall_forall. intros m I. rewrite forallb_forall in H. specialize (H m I).
  destruct m as [k r|k r|]; cbn [standard standardb] in *; [now apply pair_mem_In| |exact Logic.I].
  apply andb_true_iff in H. destruct H as [A B]. split; [now apply pair_mem_In|]. now apply negb_true_iff in B.
Qed.
Definition reversibleb (m : mora) : bool :=
  standardb m && match m with
  | Syl k r => negb (existsb (str_eqb k) ambiguous)
  | Gem k r => negb (existsb (str_eqb k) ambiguous) && negb (first_in (u "c") r)
  | Nn => true
  end.
Lemma reversible_check ms : forallb reversibleb ms = true -> Forall reversible ms.
Proof.
  intro H. apply Forall_forall. intros m I. rewrite forallb_forall in H. specialize (H m I).
  unfold reversibleb in H. apply andb_true_iff in H. destruct H as [A B].
  assert (N : forall k, negb (existsb (str_eqb k) ambiguous) = true -> ~ In k ambiguous).
  { intros k X J. apply negb_true_iff in X. assert (Y : existsb (str_eqb k) ambiguous = true); [|congruence].
    apply existsb_exists. exists k. split; [exact J|now apply str_eqb_eq]. }
  split.
  - assert (F : forallb standardb [m] = true) by (cbn [forallb]; now rewrite A).
    apply standard_check in F. now inversion F.
  - destruct m as [k r|k r|]; [now apply N| |exact Logic.I].
    apply andb_true_iff in B. destruct B as [B1 B2]. split; [now apply N|now apply negb_true_iff in B2].
Qed.

Lemma C23_hepburn_proof :
  forall E, std_ok E -> forall o ms, Forall standard ms ->
    to_romaji_with_opt E (kana_text ms) o = Ok (hepburn ms).
Proof.
  intros E HE o ms S. apply rom_iff; [exact HE|]. symmetry. now apply romaji_of_hiragana.
Qed.

Lemma C24_katakana_long_marks_proof :
  forall E, std_ok E -> forall o ms t, Forall standard (map fst ms) -> marked_kana ms t ->
    (upcase_katakana o = false -> to_romaji_with_opt E t o = Ok (marked_hepburn ms)) /\
    (upcase_katakana o = true -> forall r, to_romaji_with_opt E t o = Ok r <-> Forall2 uppers (marked_hepburn ms) r).
Proof.
  intros E HE o ms t S K. split.
  - intro U. apply rom_iff; [exact HE|]. rewrite U. symmetry. now apply romaji_of_marked.
  - intros U r. rewrite rom_iff by exact HE. rewrite U, rom_katakana by (auto; eapply marked_kata; eauto).
    rewrite (romaji_of_marked E ms t HE S K), uppers_map. split; intro H; symmetry; exact H.
Qed.

Lemma C25_script_independent_proof :
  forall E, std_ok E -> forall s s' h, ~ In long_mark s -> ~ In long_mark s' ->
    Forall2 hiragana_for s h -> Forall2 hiragana_for s' h -> to_romaji E s = to_romaji E s'.
Proof.
  intros E HE s s' h L L' A B. apply k2hc_map in A. apply k2hc_map in B.
  change (to_romaji_with_opt E s default_options = to_romaji_with_opt E s' default_options).
  rewrite !to_romaji_with_opt_eq by exact HE. f_equal. apply rom_script; auto. congruence.
Qed.

Lemma C26_kana_to_ascii_proof :
  forall E, std_ok E -> forall s o t,
    (forall c, In c s -> (S_hiragana c \/ S_katakana c) /\ ~ In c (u "ゕゖヵヶ")) ->
    to_romaji_with_opt E s o = Ok t -> forall c, In c t -> c < 128.
Proof.
  intros E HE s o t H T. apply rom_iff in T; [|exact HE]. subst t. now apply rom_ascii.
Qed.

Lemma C27_foreign_text_and_idempotence_proof :
  forall E, std_ok E -> forall s o,
    ((forall c, In c s -> ~ S_hiragana c /\ ~ S_katakana c /\ ~ S_ja_punct c) ->
       to_romaji_with_opt E s o = Ok s) /\
    (forall o' t, to_romaji_with_opt E s o = Ok t -> to_romaji_with_opt E t o' = Ok t).
Proof.
  intros E HE s o. split.
  - intro H. apply rom_iff; [exact HE|]. symmetry. now apply rom_foreign.
  - intros o' t T. apply rom_iff in T; [|exact HE]. apply rom_iff; [exact HE|]. subst t.
    symmetry. now apply (rom_idempotent E (upcase_katakana o) (upcase_katakana o') s).
Qed.

Lemma C28_upcase_katakana_proof :
  forall E, std_ok E -> forall s o t t', upcase_katakana o = true -> to_romaji E s = Ok t ->
    to_romaji_with_opt E s o = Ok t' ->
    same_up_to_case t t' /\
    ((forall c, In c s -> S_katakana c) -> Forall2 uppers t t') /\
    ((forall c, In c s -> ~ S_katakana c) -> t' = t).
Proof.
  intros E HE s o t t' U T T'. apply rom_default in T; [|exact HE]. apply rom_iff in T'; [|exact HE].
  subst t t'. rewrite U. repeat split.
  - apply same_up_to_case_low. now apply rconv_low.
  - intro H. apply uppers_map. symmetry. apply rom_katakana; [exact HE|]. now apply Forall_forall.
  - intro H. now apply rom_no_katakana.
Qed.

Lemma C29_katakana_parts_partial_proof :
  forall E, std_ok E -> forall s o t, to_romaji_with_opt E s o = Ok t ->
    exists ps rest, concat (map p_text ps) = s /\ pieces_of [] ps /\ concat (map p_shown ps) = t /\
      concat (map p_seen ps) ++ rest = s /\ Forall (cut_piece (upcase_katakana o)) ps /\
      (forall p, In p ps -> right_case (upcase_katakana o) p <->
         upcase_katakana o = false \/ ~ is_key (p_kana p) \/
         (forall c, In c (p_romaji p) -> ~ lower_letter c) \/
         (Forall S_kata (p_seen p) <-> Forall S_kata (p_text p))) /\
      (drops_no_mark s -> Forall (right_case (upcase_katakana o)) ps).
Proof.
  intros E HE s o t T. apply rom_iff in T; [|exact HE]. subst t.
  assert (H : hiragana_text (u "お") [] s (k2h E true s)) by exact (k2h_text E true s HE).
  destruct (romanises_pieces (upcase_katakana o) s (k2h E true s) _
    (rconv_romanises E (upcase_katakana o) HE (k2h E true s) s (k2h_length E true s)) [] s H) as
    (ps & rest & A & B & C & D & F & G).
  { intro Z. rewrite Z in H. exact (text_nonempty s H). }
  { apply k2h_length. }
  exists ps, rest. do 2 (split; [assumption|]). do 3 (split; [assumption|]). split.
  { intros p I. apply right_case_iff. rewrite Forall_forall in G. exact (G p I). }
  intro N. rewrite <- A in D at 1.
  assert (Q : Forall (fun p => p_seen p = p_text p) ps).
  { apply (pieces_aligned _ ps [] rest F G); [|exact D]. rewrite A, B. apply (text_length [] s _ H).
    intros x b k Q _ K. exact (N x b k Q K). }
  rewrite Forall_forall in *. intros p I. apply right_case_iff; [exact (G p I)|].
  right. right. right. rewrite (Q p I). reflexivity.
Qed.

Lemma C29_katakana_parts_refuted_proof :
  forall E, std_ok E -> exists k h rk rh r o, upcase_katakana o = true /\
    (forall c, In c k -> S_katakana c) /\ (forall c, In c h -> hiragana_letter c) /\
    to_romaji_with_opt E k o = Ok rk /\ to_romaji_with_opt E h o = Ok rh /\
    to_romaji_with_opt E (k ++ h) o = Ok (rk ++ r) /\ Forall2 uppers rh r /\ r <> rh.
Proof.
  intros E HE. exists (u "ンーナ"), (u "あ"), (u "NNA"), (u "a"), (u "A"), (Build_options false false true false).
  split; [reflexivity|]. split; [|split].
  - intros c I. vm_compute in I. unfold S_katakana, between.
    repeat (destruct I as [<-|I]; [vm_compute; split; discriminate|]). destruct I.
  - intros c I. vm_compute in I. destruct I as [<-|[]]. vm_compute. split; discriminate.
  - pose proof (romaji_closed E HE (Build_options false false true false)) as P.
    repeat split; try (apply P; vm_compute; reflexivity).
    + apply uppers_map. vm_compute. reflexivity.
    + vm_compute. discriminate.
Qed.

Lemma C30_determined_partial_proof :
  forall s o,
    (forall E E', std_ok E -> std_ok E' -> to_romaji_with_opt E s o = to_romaji_with_opt E' s o) <->
    ~ In (ch "ヴ") s /\ ~ In (ch "ゔ") s.
Proof.
  intros s o. split.
  - intro H. specialize (H (std_pick 1) (std_pick 4) (std_pick_ok 1) (std_pick_ok 4)).
    rewrite !to_romaji_with_opt_eq in H by apply std_pick_ok. injection H as H.
    split; intro I; revert H; apply rom_differs; auto.
  - intros [A B] E E' HE HE'. rewrite !to_romaji_with_opt_eq by assumption. f_equal. now apply rom_indep.
Qed.

Lemma C30_determined_refuted_proof :
  (exists E s, std_ok E /\ s = u "ゔ" /\ to_romaji E s <> Ok (u "vu")) /\
  (exists E E' s, std_ok E /\ std_ok E' /\ to_romaji E s <> to_romaji E' s).
Proof.
  split.
  - exists std_1_82, (u "ゔ"). split; [exact std_1_82_ok|]. split; [reflexivity|]. vm_compute. discriminate.
  - exists std_1_82, std_1_52, (u "っゔ"). split; [exact std_1_82_ok|]. split; [exact std_1_52_ok|]. vm_compute. discriminate.
Qed.

Lemma C31_length_proof :
  forall E, std_ok E -> forall s o t, to_romaji_with_opt E s o = Ok t -> (length t <= 3 * length s)%nat.
Proof.
  intros E HE s o t T. apply rom_iff in T; [|exact HE]. subst t.
  pose proof (rconv_length E (upcase_katakana o) HE (k2h E true s) s) as A.
  pose proof (k2h_length E true s) as B. lia.
Qed.

Lemma C32_kana_round_trip_proof :
  forall E, std_ok E -> forall ms, Forall reversible ms ->
    (exists r, to_romaji E (kana_text ms) = Ok r /\ to_kana E r = Ok (kana_text ms)) /\
    (forall k, katakana_text ms k -> exists r, to_romaji E k = Ok r /\ to_katakana E r = Ok k).
Proof.
  intros E HE ms R. pose proof (reversible_standard ms R) as S. split.
  - exists (hepburn ms). split; [apply rom_default; [exact HE|]; symmetry; now apply romaji_of_hiragana|].
    change (to_kana E (hepburn ms)) with (to_kana_with_opt E (hepburn ms) default_options).
    rewrite to_kana_conv by exact HE. f_equal. now apply conv_hepburn.
  - intros k K. rewrite (kata_text ms k S K). exists (hepburn ms). split.
    + apply rom_default; [exact HE|]. symmetry. now apply romaji_of_katakana.
    + change (to_katakana E (hepburn ms)) with (to_katakana_with_opt E (hepburn ms) default_options).
      rewrite to_katakana_with_opt_eq by exact HE. f_equal. now apply kata_of_hepburn.
Qed.

Lemma C33_all_morae_partial_proof :
  forall E, std_ok E -> forall o o' ms, Forall standard ms ->
    exists r, to_romaji_with_opt E (kana_text ms) o = Ok r /\
      (imemode o' = false \/ use_obsolete_kana o' = true ->
         (forall t, to_kana_with_opt E r o' = Ok t <-> text_read_back (use_obsolete_kana o') ms t) /\
         (to_kana_with_opt E r o' = Ok (kana_text ms) <-> Forall (recovered (use_obsolete_kana o')) ms)) /\
      (imemode o' = true -> use_obsolete_kana o' = false ->
         (forall t, to_kana_with_opt E r o' = Ok t <-> ime_read_back ms t) /\
         (to_kana_with_opt E r o' = Ok (kana_text ms) <-> Forall (recovered false) ms /\ n_before_vowel ms)).
Proof.
  intros E HE o o' ms S. exists (hepburn ms).
  split; [apply rom_iff; [exact HE|]; symmetry; now apply romaji_of_hiragana|].
  rewrite to_kana_conv by exact HE. split.
  - intro O. assert (C : conv (mode_of o') (hepburn ms) = flat_map (rb (use_obsolete_kana o')) ms).
    { rewrite conv_read_back by
        (unfold mode_of; destruct (use_obsolete_kana o'), (imemode o'); try discriminate; exact S || destruct O; discriminate).
      unfold mode_of, obs_of. destruct (use_obsolete_kana o'), (imemode o'); reflexivity. }
    rewrite C. split.
    + intro t. rewrite text_rb. split; [intro Z; now injection Z|now intros ->].
    + rewrite <- read_back_same. split; [intro Z; now injection Z|now intros ->].
  - intros O1 O2. replace (mode_of o') with Ime by (unfold mode_of; now rewrite O1, O2).
    destruct (conv_ime ms S) as (t & -> & R). split.
    + intro t'. split; [intro Z; injection Z as <-; exact R|]. intro R'. f_equal. exact (ime_det ms t R S t' R').
    + rewrite <- (ime_same ms t S R). split; [intro Z; now injection Z|now intros ->].
Qed.

Lemma C33_all_morae_refuted_proof :
  forall E, std_ok E -> exists ms r t, Forall standard ms /\ to_romaji E (kana_text ms) = Ok r /\
    to_kana E r = Ok t /\ t <> kana_text ms.
Proof.
  intros E HE. exists [Syl (u "ま") (u "ma"); Gem (u "ちゃ") (u "cha")], (u "matcha"), (u "まtちゃ").
  split; [|split; [|split]].
  - constructor; [|constructor; [split; [|reflexivity]|constructor]]; apply KanaDict.pair_mem_In; vm_compute; reflexivity.
  - apply (romaji_closed E HE default_options); vm_compute; reflexivity.
  - change (to_kana E (u "matcha")) with (to_kana_with_opt E (u "matcha") default_options).
    rewrite to_kana_conv by exact HE. vm_compute. reflexivity.
  - vm_compute. discriminate.
Qed.

Lemma C34_romaji_round_trip_proof :
  forall E, std_ok E -> forall ms, Forall reversible ms ->
    (to_kana E (hepburn ms) = Ok (kana_text ms) /\ to_romaji E (kana_text ms) = Ok (hepburn ms)) /\
    (exists k, katakana_text ms k /\ to_katakana E (hepburn ms) = Ok k /\ to_romaji E k = Ok (hepburn ms)).
Proof.
  intros E HE ms R. pose proof (reversible_standard ms R) as S. split; [split|].
  - change (to_kana E (hepburn ms)) with (to_kana_with_opt E (hepburn ms) default_options).
    rewrite to_kana_conv by exact HE. f_equal. now apply conv_hepburn.
  - apply rom_default; [exact HE|]; symmetry; now apply romaji_of_hiragana.
  - exists (map kata (kana_text ms)). split; [now apply katakana_text_map|]. split.
    + change (to_katakana E (hepburn ms)) with (to_katakana_with_opt E (hepburn ms) default_options).
      rewrite to_katakana_with_opt_eq by exact HE. f_equal. now apply kata_of_hepburn.
    + apply rom_default; [exact HE|]. symmetry. now apply romaji_of_katakana.
Qed.

Lemma C55_to_romaji_romanises_proof :
  forall E, std_ok E -> forall s o t,
    (to_romaji_with_opt E s o = Ok t ->
       exists h, hiragana_text (u "お") [] s h /\ romanises (upcase_katakana o) s h t) /\
    (~ In (ch "ヴ") s -> ~ In (ch "ゔ") s ->
       (exists h, hiragana_text (u "お") [] s h /\ romanises (upcase_katakana o) s h t) ->
       to_romaji_with_opt E s o = Ok t).
Proof.
  intros E HE s o t. split.
  - intro T. apply rom_iff in T; [|exact HE]. subst t. exists (k2h E true s).
    split; [now apply (k2h_text E true)|]. apply rconv_romanises; [exact HE|]. apply k2h_length.
  - intros A B (h & H & R). apply rom_iff; [exact HE|].
    assert (Q : h = k2h E true s).
    { eapply hiragana_text_det; [|exact H|now apply (k2h_text E true)]. exact A. }
    subst h. apply (romanises_rconv E (upcase_katakana o) HE); [exact R|]. now apply k2h_no_vu.
Qed.

Lemma C69_releases_proof :
  forall s o, to_romaji_with_opt std_1_52 s o = to_romaji_with_opt std_1_82 s o <-> ~ double_v s.
Proof.
  intros s o. exact (releases_agree s o).
Qed.

Lemma C70_choice_of_readings_proof :
  let chooses E r r' := forall s o t,
    (to_romaji_with_opt E s o = Ok t <->
       exists h, chosen_text r (u "お") [] s h /\ substitutes (chosen_dict r r') (upcase_katakana o) s h t) /\
    (pass_romaji o = true -> (to_hiragana_with_opt E s o = Ok t <-> chosen_text r (u "う") [] s t)) in
  (forall E, std_ok E -> exists r r', (r < 5)%nat /\ (r' < 5)%nat /\ chooses E r r') /\
  (forall r r', (r < 5)%nat -> (r' < 5)%nat -> exists E, std_ok E /\ chooses E r r') /\
  chooses std_1_52 4%nat 3%nat /\ chooses std_1_82 4%nat 4%nat.
Proof.
  intro chooses.
  assert (C : forall E r r' m m', std_ok E -> rfind E RT vu = Some m -> rfind E tsu_node vu = Some m' ->
    nth_error (v_nodes RT) r = Some m -> nth_error (v_nodes tsu_node) r' = Some m' -> chooses E r r').
  { intros E r r' m m' HE F F' Q Q' s o t. split; [exact (romaji_chosen E HE r r' m m' F F' Q Q' s o t)|].
    intro P. rewrite to_hiragana_with_opt_eq by exact HE. unfold hira_pure. rewrite P.
    change (u "う") with (o_vowel false). rewrite (chosen_text_k2h E HE r m F Q false s t).
    split; [now intros [= <-]|now intros ->]. }
  assert (D : forall E r r', std_ok E -> rfind E RT vu = nth_error (v_nodes RT) r ->
    rfind E tsu_node vu = nth_error (v_nodes tsu_node) r' -> chooses E r r').
  { intros E r r' HE A B. destruct (choice_of E r r' HE A B) as (m & m' & F & F' & Q & Q'). exact (C E r r' m m' HE F F' Q Q'). }
  destruct choice_releases as [[A1 A2] [B1 B2]]. split; [|split; [|split]].
  - intros E HE. destruct (choice_exists E HE) as (r & r' & m & m' & F & F' & Q & Q').
    destruct (choice_bounds r r' m m' Q Q') as [L L']. exists r, r'. split; [exact L|]. split; [exact L'|].
    exact (C E r r' m m' HE F F' Q Q').
  - intros r r' L L'. exists (std_choice r r'). split; [apply std_choice_ok|]. destruct (choice_all r r' L L') as [X Y].
    exact (D _ r r' (std_choice_ok r r') X Y).
  - exact (D std_1_52 4%nat 3%nat std_1_52_ok A1 A2).
  - exact (D std_1_82 4%nat 4%nat std_1_82_ok B1 B2).
Qed.
