(** * Reading Hepburn spellings back (C33) *)
From Verif Require Import Tac Base Std Constants Chars Trees KanaTree RomajiTree Strings Convert
  KanaPure RomajiPure KanaSpec KanaDict KanaProofs Predicates ScriptSpec ScriptProofs RomajiSpec
  RomajiProofs MoraProofs.

Definition rr (obs : bool) (k : str) : str :=
  match find (fun e => str_eqb (fst e) k) (same_sound obs) with Some e => snd e | None => k end.
Definition rb (obs : bool) (m : mora) : str :=
  match m with
  | Syl k _ => rr obs k
  | Gem k r => if first_in (u "c") r then ch "t" :: k else ch "っ" :: rr false k
  | Nn => u "ん"
  end.

Lemma same_sound_fun obs k a b : In (k, a) (same_sound obs) -> In (k, b) (same_sound obs) -> a = b.
Proof.
  assert (B : forallb (fun x => forallb (fun y => negb (str_eqb (fst x) (fst y)) || str_eqb (snd x) (snd y)) (same_sound obs)) (same_sound obs) = true)
    by (destruct obs; vm_compute; reflexivity).
  rewrite forallb_forall in B. intros I J. specialize (B _ I). rewrite forallb_forall in B. specialize (B _ J).
  cbn [fst snd] in B. apply orb_prop in B. destruct B as [B|B]; [|now apply str_eqb_eq in B].
  apply negb_true_iff in B. assert (str_eqb k k = true) by now apply str_eqb_eq. congruence.
Qed.
Lemma rr_none obs k : (forall k', ~ In (k, k') (same_sound obs)) -> rr obs k = k.
Proof.
  intro H. unfold rr. destruct (find _ _) as [[a b]|] eqn:F; [|reflexivity].
  apply find_some in F. destruct F as [I Q]. cbn [fst] in Q. apply str_eqb_eq in Q. subst a. now apply H in I.
Qed.
Lemma rr_some obs k k' : In (k, k') (same_sound obs) -> rr obs k = k'.
Proof.
  intro I. unfold rr. destruct (find _ _) as [[a b]|] eqn:F.
  - apply find_some in F. destruct F as [J Q]. cbn [fst] in Q. apply str_eqb_eq in Q. subst a.
    cbn. eapply same_sound_fun; eauto.
  - eapply find_none in F; [|exact I]. cbn [fst] in F. assert (str_eqb k k = true) by now apply str_eqb_eq. congruence.
Qed.
Lemma rr_cases obs k : {forall k', ~ In (k, k') (same_sound obs)} + {In (k, rr obs k) (same_sound obs)}.
Proof.
  unfold rr. destruct (find _ _) as [[a b]|] eqn:F.
  - right. apply find_some in F. destruct F as [J Q]. cbn [fst] in Q. apply str_eqb_eq in Q. now subst a.
  - left. intros k' I. eapply find_none in F; [|exact I]. cbn [fst] in F.
    assert (str_eqb k k = true) by now apply str_eqb_eq. congruence.
Qed.
Lemma rr_spec obs k t : reread obs k t <-> rr obs k = t.
Proof.
  split.
  - intros [H|k' I]; [now apply rr_none|now apply rr_some].
  - intros <-. destruct (rr_cases obs k) as [H|I]; [rewrite rr_none by exact H; now constructor|now constructor 2].
Qed.
Lemma rb_spec obs m t : read_back obs m t <-> rb obs m = t.
Proof.
  destruct m as [k r|k r|]; cbn [read_back rb].
  - apply rr_spec.
  - destruct (first_in (u "c") r); split.
    + intros [[_ ->]|[Z _]]; [reflexivity|discriminate].
    + intros <-. auto.
    + intros [[Z _]|[_ (k' & H & ->)]]; [discriminate|]. apply rr_spec in H. congruence.
    + intros <-. right. split; [reflexivity|]. exists (rr false k). split; [now apply rr_spec|reflexivity].
  - split; auto.
Qed.
Lemma text_rb obs ms t : text_read_back obs ms t <-> flat_map (rb obs) ms = t.
Proof.
  unfold text_read_back. split.
  - intros (ts & F & ->). induction F as [|m x ms ts H _ IH]; [reflexivity|]. cbn. apply rb_spec in H. congruence.
  - intros <-. exists (map (rb obs) ms). split; [|apply flat_map_concat_map].
    induction ms; constructor; [now apply rb_spec|assumption].
Qed.

(** ** The spellings are keys *)
Definition obs_of (m : mode) : bool := match m with Obsolete => true | _ => false end.
Definition back_ok (m : mode) (e : str * str) : bool :=
  match e with (k, r) =>
    pair_mem (r, rr (obs_of m) k) (dict m) && negb (str_eqb r (u "n"))
     && (first_in (u "aiueony") r || first_in (u "c") r ||
         (pair_mem (gem_spelling r, ch "っ" :: rr false k) (dict m) && negb (str_eqb (gem_spelling r) (u "n"))))
    && (negb (first_in (u "c") r) || str_eqb (rr (obs_of m) k) k)
    && forallb (fun c => (0x61 <=? c) && (c <=? 0x7A)) r
  end.
Lemma back_table_ok m : forallb (back_ok m) syllables = true.
Proof. destruct m; vm_compute; reflexivity. Qed.
Record back_facts (m : mode) (k r : str) : Prop := {
  bf_entry : entry m r (rr (obs_of m) k);
  bf_alone : unextended m r;
  bf_lower : forall c, In c r -> 0x61 <= c <= 0x7A;
  bf_c : first_in (u "c") r = true -> rr (obs_of m) k = k;
  bf_gem : first_in (u "aiueony") r = false -> first_in (u "c") r = false ->
    entry m (gem_spelling r) (ch "っ" :: rr false k) /\ unextended m (gem_spelling r)
}.
Lemma back_syl m k r : In (k, r) syllables -> back_facts m k r.
Proof.
  intro I. pose proof (back_table_ok m) as H. rewrite forallb_forall in H. specialize (H _ I). unfold back_ok in H.
  apply andb_prop in H. destruct H as [H H5]. apply andb_prop in H. destruct H as [H H4].
  apply andb_prop in H. destruct H as [H H3]. apply andb_prop in H. destruct H as [H1 H2].
  assert (Nn' : forall x, negb (str_eqb x (u "n")) = true -> x <> u "n").
  { intros x Q ->. apply negb_true_iff in Q. assert (str_eqb (u "n") (u "n") = true) by now apply str_eqb_eq. congruence. }
  assert (En : entry m r (rr (obs_of m) k)) by now apply pair_mem_In.
  constructor.
  - exact En.
  - eapply only_n_extended; eauto.
  - intros c J. rewrite forallb_forall in H5. specialize (H5 _ J). lia.
  - intro C. rewrite C in H4. cbn in H4. now apply str_eqb_eq in H4.
  - intros A C. rewrite A, C in H3. cbn [orb] in H3. apply andb_prop in H3. destruct H3 as [G1 G2].
    assert (En' : entry m (gem_spelling r) (ch "っ" :: rr false k)) by now apply pair_mem_In.
    split; [exact En'|]. eapply only_n_extended; eauto.
Qed.

Lemma conv_lower_key m r k rest : entry m r k -> unextended m r -> (forall c, In c r -> 0x61 <= c <= 0x7A) ->
  conv m (r ++ rest) = k ++ conv m rest.
Proof.
  intros I U L. assert (L' := lower_AZ r L). rewrite (conv_entry m r r k rest I U (casing_lower r L')).
  rewrite emit_lower; [reflexivity| |exact L']. now apply keys_nonempty in I.
Qed.
(** t before ch is copied *)
Lemma conv_tc m rest : conv m (ch "t" :: ch "c" :: rest) = ch "t" :: conv m (ch "c" :: rest).
Proof.
  assert (H : match k_at (tree_of m) (u "t") with
              | Some n => match k_find n (ascii_lower (ch "c")) with None => match kout n with None => true | _ => false end | _ => false end
              | None => false end = true) by (destruct m; vm_compute; reflexivity).
  destruct (k_at (tree_of m) (u "t")) as [n|] eqn:A; [|discriminate].
  destruct (k_find n (ascii_lower (ch "c"))) eqn:F; [discriminate|]. destruct (kout n) eqn:O; [discriminate|].
  destruct (kconv_step m (ch "t") (ch "c" :: rest)) as [(seg & rest' & n' & v & Sp & N & K & A' & O' & R & _)|[_ Q]]; [|exact Q].
  exfalso. assert (K' : kw (tree_of m) (u "t" ++ ch "c" :: rest) = (n, length (u "t"))) by (apply kw_intro; [exact A|exact F]).
  change (u "t" ++ ch "c" :: rest) with (ch "t" :: ch "c" :: rest) in K'. rewrite K in K'. inversion K'; subst. congruence.
Qed.

Lemma standard_syl m : standard m -> match m with Syl k r | Gem k r => In (k, r) syllables | Nn => True end.
Proof. destruct m as [k r|k r|]; cbn [standard]; [exact (fun H => H)|exact (fun H => proj1 H)|exact (fun H => H)]. Qed.
Lemma std_chars m f : standard m -> forall c, In c (mora_spelling m f) -> 0x61 <= c <= 0x7A \/ c = 0x27.
Proof.
  intros S c. apply standard_syl in S. destruct m as [k r|k r|]; cbn [mora_spelling] in *.
  - left. now apply (bf_lower Default k r (back_syl Default k r S)).
  - left. eapply gem_lower; [|eassumption]. apply (bf_lower Default k r (back_syl Default k r S)).
  - destruct (first_in _ f).
    + change (u "n'") with [0x6E; 0x27]. cbn [In]. lia.
    + change (u "n") with [0x6E]. cbn [In]. lia.
Qed.
Lemma std_hepburn_chars ms : Forall standard ms -> forall c, In c (hepburn ms) -> 0x61 <= c <= 0x7A \/ c = 0x27.
Proof.
  induction 1 as [|m ms R _ IH]; intros c I; [destruct I|]. cbn [hepburn] in I. apply in_app_or in I.
  destruct I as [I|I]; [eapply std_chars; eauto|auto].
Qed.
Lemma std_hepburn_first ms : Forall standard ms -> forall c rest, hepburn ms = c :: rest -> c <> 0x27.
Proof.
  destruct 1 as [|m ms S _]; intros c rest E; [discriminate|]. cbn [hepburn] in E. apply standard_syl in S.
  destruct m as [k r|k r|]; cbn [mora_spelling] in *.
  - pose proof (bf_lower Default k r (back_syl Default k r S)) as L. pose proof (sf_r _ _ (syllable_facts k r S)) as Nr.
    destruct r as [|d r]; [congruence|]. cbn in E. inversion E; subst. specialize (L c (or_introl eq_refl)). lia.
  - pose proof (gem_lower r (bf_lower Default k r (back_syl Default k r S))) as L'. pose proof (sf_r _ _ (syllable_facts k r S)) as Nr.
    destruct r as [|d r]; [congruence|]. unfold gem_spelling in *. cbn [app] in E. inversion E as [[Q1 Q2]]. clear E.
    specialize (L' _ (or_introl eq_refl)). lia.
  - destruct (first_in (u "aiueoy") (hepburn ms)); cbn in E; inversion E; discriminate.
Qed.
Lemma conv_syl m k r rest : In (k, r) syllables -> conv m (r ++ rest) = rr (obs_of m) k ++ conv m rest.
Proof. intro S. pose proof (back_syl m k r S) as B. apply conv_lower_key; apply B. Qed.
Lemma conv_gem m k r rest : standard (Gem k r) -> conv m (gem_spelling r ++ rest) = rb (obs_of m) (Gem k r) ++ conv m rest.
Proof.
  intros [S G]. pose proof (back_syl m k r S) as B. cbn [rb]. destruct (first_in (u "c") r) eqn:C.
  - pose proof (sf_r _ _ (syllable_facts k r S)) as Nr. destruct r as [|d r]; [congruence|].
    assert (d = ch "c").
    { unfold first_in in C. cbn [existsb] in C. change (u "c") with [ch "c"] in C. cbn [existsb] in C.
      rewrite orb_false_r in C. now apply N.eqb_eq in C. }
    subst d. unfold gem_spelling. rewrite N.eqb_refl.
    change ((ch "t" :: ch "c" :: r) ++ rest) with (ch "t" :: ch "c" :: (r ++ rest)).
    rewrite conv_tc. cbn [app]. f_equal.
    change (ch "c" :: r ++ rest) with ((ch "c" :: r) ++ rest).
    rewrite (conv_syl m k _ rest S). f_equal. apply (bf_c _ _ _ B). exact C.
  - destruct (bf_gem _ _ _ B G C) as [En U].
    rewrite (conv_lower_key _ (gem_spelling r) (ch "っ" :: rr false k)); [reflexivity|exact En|exact U|].
    apply gem_lower. apply B.
Qed.
Lemma conv_n_apostrophe m rest : conv m (u "n'" ++ rest) = u "ん" ++ conv m rest.
Proof.
  assert (En : entry m (u "n'") (u "ん")) by (apply pair_mem_In; destruct m; vm_compute; reflexivity).
  rewrite (conv_entry m (u "n'") (u "n'") (u "ん") rest En).
  - reflexivity.
  - apply (only_n_extended _ _ (u "ん")); [exact En|discriminate].
  - apply casing_lower. intros c [<-|[<-|[]]]; reflexivity.
Qed.
(** what follows ん if it is no vowel and no y *)
Lemma hepburn_follow ms : Forall standard ms -> first_in (u "aiueoy") (hepburn ms) = false ->
  match hepburn ms with [] => True | c :: _ => ~ n_follow c end.
Proof.
  intros F V. destruct (hepburn ms) as [|c rest] eqn:Q; [exact I|]. intros (d & Ld & J).
  assert (Hc : In c (hepburn ms)) by (rewrite Q; now left).
  apply (std_hepburn_chars ms F) in Hc. pose proof (std_hepburn_first ms F c rest Q) as Nq.
  assert (d = c).
  { destruct Ld as [[U _]|[_ ->]]; [unfold upper_letter in U; lia|reflexivity]. }
  subst d. unfold first_in in V. revert J V.
  change (u "'aiueoy") with [0x27; 0x61; 0x69; 0x75; 0x65; 0x6F; 0x79].
  change (u "aiueoy") with [0x61; 0x69; 0x75; 0x65; 0x6F; 0x79]. intros J V.
  destruct J as [J|J]; [lia|]. apply existsb_In in J. congruence.
Qed.
Lemma conv_read_back m ms : m <> Ime -> Forall standard ms -> conv m (hepburn ms) = flat_map (rb (obs_of m)) ms.
Proof.
  intro M. induction 1 as [|x ms S F IH]; [destruct m; reflexivity|]. cbn [hepburn flat_map].
  destruct x as [k r|k r|]; cbn [mora_spelling].
  - rewrite (conv_syl m k r _ S), IH. reflexivity.
  - rewrite (conv_gem m k r _ S), IH. reflexivity.
  - destruct (first_in (u "aiueoy") (hepburn ms)) eqn:V.
    + rewrite conv_n_apostrophe, IH. reflexivity.
    + rewrite (conv_n m (u "n") (hepburn ms)); [rewrite IH; reflexivity|exact M| |now apply hepburn_follow].
      apply casing_lower. intros c [<-|[]]. reflexivity.
Qed.

(** ** IME mode *)
Definition n_syl_ok (e : str * str) : bool :=
  match snd e with
  | c :: r => negb (c =? ch "n") || existsb (fun e' => str_eqb (snd e') r) syllables
  | [] => false
  end.
Lemma n_syl k r : In (k, ch "n" :: r) syllables -> exists k', In (k', r) syllables.
Proof.
  intro I. assert (H : forallb n_syl_ok syllables = true) by (vm_compute; reflexivity).
  rewrite forallb_forall in H. specialize (H _ I). unfold n_syl_ok in H. cbn [snd] in H. rewrite N.eqb_refl in H.
  cbn [negb orb] in H. apply existsb_exists in H. destruct H as ([k' r'] & J & Q). apply str_eqb_eq in Q. cbn [snd] in Q.
  subst r'. now exists k'.
Qed.
Lemma n_syl_plain k r k' : In (k, ch "n" :: r) syllables -> In (k', r) syllables -> rr false k' = k'.
Proof.
  intros I J. assert (H : forallb (fun e => forallb (fun e' => negb (str_eqb (ch "n" :: snd e') (snd e)) ||
      str_eqb (rr false (fst e')) (fst e')) syllables) syllables = true) by (vm_compute; reflexivity).
  rewrite forallb_forall in H. specialize (H _ I). rewrite forallb_forall in H. specialize (H _ J). cbn [fst snd] in H.
  apply orb_prop in H. destruct H as [H|H]; [|now apply str_eqb_eq in H]. apply negb_true_iff in H.
  assert (str_eqb (ch "n" :: r) (ch "n" :: r) = true) by now apply str_eqb_eq. congruence.
Qed.
Lemma conv_ime_nn rest : conv Ime (ch "n" :: ch "n" :: rest) = u "ん" ++ conv Ime rest.
Proof.
  assert (En : entry Ime (u "nn") (u "ん")) by (apply pair_mem_In; vm_compute; reflexivity).
  change (ch "n" :: ch "n" :: rest) with (u "nn" ++ rest).
  rewrite (conv_entry Ime (u "nn") (u "nn") (u "ん") rest En); [reflexivity| |].
  - apply (only_n_extended _ _ (u "ん")); [exact En|discriminate].
  - apply casing_lower. intros c [<-|[<-|[]]]; reflexivity.
Qed.
Lemma conv_ime_apostrophe rest : conv Ime (ch "'" :: rest) = ch "'" :: conv Ime rest.
Proof.
  destruct (kconv_step Ime (ch "'") rest) as [(seg & rest' & n' & v & Sp & N & K & A' & O' & R & _)|[_ Q]]; [|exact Q].
  exfalso. destruct seg as [|c seg]; [congruence|]. cbn [app] in Sp. injection Sp as <- Sp.
  assert (Z : k_find (tree_of Ime) (ascii_lower (ch "'")) = None) by (vm_compute; reflexivity).
  cbn [low map k_at] in A'. rewrite Z in A'. discriminate A'.
Qed.
(** the first letter of a spelling *)
Lemma first_n ms : first_in (u "aiueoy") (hepburn ms) = false -> Forall standard ms ->
  first_in (u "aiueony") (hepburn ms) = true ->
  (exists k r ms', ms = Syl k (ch "n" :: r) :: ms') \/ (exists ms', ms = Nn :: ms').
Proof.
  intros V F N. destruct F as [|m ms S F]; [discriminate N|]. cbn [hepburn] in V, N.
  assert (H : forall s, first_in (u "aiueoy") s = false -> first_in (u "aiueony") s = true -> exists r, s = ch "n" :: r).
  { intros [|c r] H1 H2; [discriminate H2|]. exists r. f_equal. unfold first_in in H1, H2. revert H1 H2.
    change (u "aiueony") with [97; 105; 117; 101; 111; 110; 121]. change (u "aiueoy") with [97; 105; 117; 101; 111; 121].
    change (ch "n") with 110. cbn [existsb].
    destruct (c =? 97), (c =? 105), (c =? 117), (c =? 101), (c =? 111), (c =? 121), (c =? 110) eqn:Z; cbn; intros; try discriminate.
    now apply N.eqb_eq. }
  destruct m as [k r|k r|]; cbn [mora_spelling] in V, N.
  - pose proof (sf_r _ _ (syllable_facts k r S)) as Nr. rewrite first_in_app in V, N by exact Nr.
    destruct (H r V N) as [r' ->]. left. eauto.
  - exfalso. destruct S as [S G]. pose proof (sf_r _ _ (syllable_facts k r S)) as Nr. destruct (H _ V N) as [r' Q].
    destruct r as [|c r]; [congruence|]. unfold gem_spelling in Q. cbn [app] in Q. injection Q as Q _.
    destruct (c =? ch "c") eqn:Z; [discriminate Q|]. subst c. discriminate G.
  - right. eauto.
Qed.
Lemma conv_ime ms : Forall standard ms -> exists t, conv Ime (hepburn ms) = t /\ ime_read_back ms t.
Proof.
  remember (length ms) as n eqn:L. assert (L' : (length ms <= n)%nat) by lia. clear L. revert ms L'.
  induction n as [|n IH]; intros ms L F.
  { destruct ms; [|cbn in L; lia]. exists []. split; [reflexivity|constructor]. }
  destruct F as [|m ms S F]; [exists []; split; [reflexivity|constructor]|]. cbn [length] in L.
  destruct (IH ms) as (t & T & R); [lia|exact F|]. cbn [hepburn].
  destruct m as [k r|k r|]; cbn [mora_spelling].
  - exists (rr false k ++ t). rewrite (conv_syl Ime k r _ S), T. split; [reflexivity|].
    apply (IB_other (Syl k r)); [discriminate| |exact R]. now apply rb_spec.
  - exists (rb false (Gem k r) ++ t). rewrite (conv_gem Ime k r _ S), T. split; [reflexivity|].
    apply (IB_other (Gem k r)); [discriminate| |exact R]. now apply rb_spec.
  - destruct (first_in (u "aiueoy") (hepburn ms)) eqn:V.
    { exists (u "ん" ++ t). rewrite conv_n_apostrophe, T. split; [reflexivity|]. now constructor. }
    destruct (first_in (u "aiueony") (hepburn ms)) eqn:V2.
    + destruct (first_n ms V F V2) as [(k & r & ms' & ->)|(ms' & ->)].
      * inversion F as [|? ? S' F' Q1]; subst. destruct (IH ms') as (t' & T' & R'); [cbn in L; lia|exact F'|].
        destruct (n_syl k r S') as [k' J]. exists (u "ん" ++ k' ++ t'). split.
        -- cbn [hepburn mora_spelling]. change (u "n" ++ (ch "n" :: r) ++ hepburn ms') with (ch "n" :: ch "n" :: r ++ hepburn ms').
           rewrite conv_ime_nn, (conv_syl Ime k' r _ J), T'. cbn [obs_of]. rewrite (n_syl_plain k r k' S' J). reflexivity.
        -- now apply IB_nn_syllable.
      * inversion F as [|? ? S' F' Q1]; subst. destruct (IH ms') as (t' & T' & R'); [cbn in L; lia|exact F'|].
        cbn [hepburn mora_spelling]. destruct (first_in (u "aiueoy") (hepburn ms')) eqn:V3.
        -- exists (u "ん'" ++ t'). split; [|now constructor].
           change (u "n" ++ u "n'" ++ hepburn ms') with (ch "n" :: ch "n" :: ch "'" :: hepburn ms').
           rewrite conv_ime_nn, conv_ime_apostrophe, T'. reflexivity.
        -- exists (u "ん" ++ t'). split; [|now constructor].
           change (u "n" ++ u "n" ++ hepburn ms') with (ch "n" :: ch "n" :: hepburn ms').
           rewrite conv_ime_nn, T'. reflexivity.
    + exists (u "n" ++ t). split; [|now constructor]. cbn [app].
      change (u "n" ++ hepburn ms) with (ch "n" :: hepburn ms).
      rewrite (ime_n_stays (ch "n") (hepburn ms)); [now rewrite T|now left|].
      pose proof (hepburn_follow ms F V) as X. destruct (hepburn ms) as [|c rest] eqn:Q; [exact I|].
      split; [exact X|]. assert (Hc : In c (hepburn ms)) by (rewrite Q; now left).
      apply (std_hepburn_chars ms F) in Hc. split.
      * intros [->| ->]; [discriminate V2|lia].
      * intros ->. change (ch " ") with 32 in Hc. lia.
Qed.

(** ** Exactly the recovered morae survive *)
Lemma rr_length obs k : (length k <= length (rr obs k))%nat.
Proof.
  destruct (rr_cases obs k) as [H|I]; [rewrite rr_none by exact H; lia|].
  assert (B : forallb (fun e => Nat.leb (length (fst e)) (length (snd e))) (same_sound obs) = true)
    by (destruct obs; vm_compute; reflexivity).
  rewrite forallb_forall in B. specialize (B _ I). cbn [fst snd] in B. now apply Nat.leb_le.
Qed.
Lemma rr_changes obs k k' : In (k, k') (same_sound obs) -> k' <> k.
Proof.
  assert (B : forallb (fun e => negb (str_eqb (fst e) (snd e))) (same_sound obs) = true)
    by (destruct obs; vm_compute; reflexivity).
  rewrite forallb_forall in B. intros I ->. specialize (B _ I). cbn [fst snd] in B. apply negb_true_iff in B.
  assert (str_eqb k k = true) by now apply str_eqb_eq. congruence.
Qed.
Lemma rr_id obs k : rr obs k = k <-> forall k', ~ In (k, k') (same_sound obs).
Proof.
  split; [|apply rr_none]. intros H k' I. apply (rr_changes obs k k' I). rewrite <- (rr_some obs k k' I). exact H.
Qed.
Lemma rb_length obs m : (length (mora_kana m) <= length (rb obs m))%nat.
Proof.
  destruct m as [k r|k r|]; cbn [mora_kana rb]; [apply rr_length| |reflexivity].
  destruct (first_in _ r); cbn [length]; [lia|]. pose proof (rr_length false k). lia.
Qed.
Lemma rb_id obs m : rb obs m = mora_kana m <-> recovered obs m.
Proof.
  destruct m as [k r|k r|]; cbn [mora_kana rb recovered]; [apply rr_id| |tauto].
  destruct (first_in (u "c") r).
  - split; [intro Z; inversion Z|intros [_ Z]; discriminate].
  - rewrite <- rr_id. split; [intro Z; inversion Z; split; congruence|intros [-> _]; reflexivity].
Qed.
Lemma flat_map_id (f g : mora -> str) : (forall m, (length (g m) <= length (f m))%nat) ->
  forall ms, flat_map f ms = flat_map g ms -> Forall (fun m => f m = g m) ms.
Proof.
  intro L.
  assert (T : forall ms, (length (flat_map g ms) <= length (flat_map f ms))%nat).
  { induction ms as [|m ms IH]; [reflexivity|]. cbn. rewrite !app_length. specialize (L m). lia. }
  induction ms as [|m ms IH]; intro H; [constructor|]. cbn in H.
  assert (Q : length (f m) = length (g m)).
  { pose proof (f_equal (@length N) H) as Z. rewrite !app_length in Z. specialize (L m). specialize (T ms). lia. }
  assert (R : f m = g m /\ flat_map f ms = flat_map g ms).
  { clear -H Q. revert H Q. generalize (f m) (g m) (flat_map f ms) (flat_map g ms). intros a.
    induction a as [|x a IHa]; intros b c d H Q; destruct b; try discriminate; [auto|].
    cbn in *. inversion H; subst. destruct (IHa b c d) as [-> ->]; auto. }
  constructor; [apply R|apply IH, R].
Qed.
Lemma read_back_same obs ms : flat_map (rb obs) ms = kana_text ms <-> Forall (recovered obs) ms.
Proof.
  split.
  - intro H. apply flat_map_id in H; [|apply rb_length]. eapply Forall_impl; [|exact H]. intros m Q. now apply rb_id.
  - induction 1 as [|m ms R _ IH]; [reflexivity|]. cbn. rewrite IH. f_equal. now apply rb_id.
Qed.
Lemma reversible_recovered m : reversible m <-> standard m /\ recovered false m.
Proof.
  assert (A : forall k, ~ In k ambiguous <-> forall k', ~ In (k, k') (same_sound false)).
  { intro k. replace ambiguous with (map fst (same_sound false)) by (vm_compute; reflexivity). split.
    - intros H k' I. apply H. now apply (in_map fst) in I.
    - intros H I. apply in_map_iff in I. destruct I as ([a b] & <- & I). now apply H in I. }
  unfold reversible, recovered. destruct m as [k r|k r|]; rewrite <- ?A; tauto.
Qed.

(** ** In IME mode, exactly if every ん comes before a vowel or y *)
Definition nn_weight (s : str) : nat := length (filter (fun c => existsb (N.eqb c) (u "んなにぬねの")) s).
Lemma weight_app a b : nn_weight (a ++ b) = (nn_weight a + nn_weight b)%nat.
Proof. unfold nn_weight. now rewrite filter_app, app_length. Qed.
Lemma weight_rb m : standard m -> nn_weight (rb false m) = nn_weight (mora_kana m).
Proof.
  assert (H : forallb (fun e => Nat.eqb (nn_weight (rr false (fst e))) (nn_weight (fst e))) syllables = true)
    by (vm_compute; reflexivity).
  rewrite forallb_forall in H. intro S. apply standard_syl in S. destruct m as [k r|k r|]; cbn [rb mora_kana]; [| |reflexivity].
  - specialize (H _ S). now apply Nat.eqb_eq in H.
  - specialize (H _ S). cbn [fst] in H. apply Nat.eqb_eq in H. destruct (first_in _ r).
    + reflexivity.
    + exact H.
Qed.
Lemma weight_n_syl k r k' : In (k, ch "n" :: r) syllables -> In (k', r) syllables -> (nn_weight k' < nn_weight k)%nat.
Proof.
  intros I J. assert (H : forallb (fun e => forallb (fun e' => negb (str_eqb (ch "n" :: snd e') (snd e)) ||
      Nat.ltb (nn_weight (fst e')) (nn_weight (fst e))) syllables) syllables = true) by (vm_compute; reflexivity).
  rewrite forallb_forall in H. specialize (H _ I). rewrite forallb_forall in H. specialize (H _ J). cbn [fst snd] in H.
  apply orb_prop in H. destruct H as [H|H]; [|now apply Nat.ltb_lt in H]. apply negb_true_iff in H.
  assert (str_eqb (ch "n" :: r) (ch "n" :: r) = true) by now apply str_eqb_eq. congruence.
Qed.
Lemma nbv_cons m ms : n_before_vowel (m :: ms) <->
  (m = Nn -> first_in (u "aiueoy") (hepburn ms) = true) /\ n_before_vowel ms.
Proof.
  split.
  - intro H. split; [intros ->; exact (H [] ms eq_refl)|]. intros a b ->. exact (H (m :: a) b eq_refl).
  - intros [H1 H2] [|x a] b Q; cbn [app] in Q; injection Q as -> Q; [subst; auto|exact (H2 a b Q)].
Qed.
Lemma vowel_or_n s : first_in (u "aiueoy") s = true -> first_in (u "aiueony") s = true.
Proof.
  destruct s as [|c s]; [exact (fun H => H)|]. unfold first_in. intro H. apply existsb_In in H. apply existsb_In.
  revert H. change (u "aiueony") with [97; 105; 117; 101; 111; 110; 121]. change (u "aiueoy") with [97; 105; 117; 101; 111; 121].
  cbn [In]. tauto.
Qed.
Lemma ime_weight ms t : ime_read_back ms t -> Forall standard ms ->
  (nn_weight t <= nn_weight (kana_text ms))%nat /\ (nn_weight t = nn_weight (kana_text ms) -> n_before_vowel ms).
Proof.
  induction 1 as [|m t ms t' N R H IH|ms t' V H IH|ms t' V H IH|k r k' ms t' I J H IH|ms t' V H IH|ms t' V H IH]; intro F.
  - split; [apply le_n|]. intros _ a b Q. destruct a; discriminate Q.
  - inversion F as [|? ? S F']; subst. destruct (IH F') as [A B]. apply rb_spec in R. subst t.
    cbn [kana_text flat_map]. fold (kana_text ms). rewrite !weight_app, (weight_rb m S). split; [lia|].
    intro Q. apply nbv_cons. split; [congruence|]. apply B. lia.
  - inversion F as [|? ? S F']; subst. destruct (IH F') as [A B]. cbn [kana_text flat_map mora_kana]. fold (kana_text ms).
    rewrite !weight_app. split; [lia|]. intro Q. apply nbv_cons. split; [auto|]. apply B. lia.
  - inversion F as [|? ? S F']; subst. destruct (IH F') as [A B]. cbn [kana_text flat_map mora_kana]. fold (kana_text ms).
    rewrite !weight_app. change (nn_weight (u "n")) with 0%nat. change (nn_weight (u "ん")) with 1%nat. split; lia.
  - inversion F as [|? ? S F']; subst. inversion F' as [|? ? S' F'']; subst. destruct (IH F'') as [A B].
    cbn [kana_text flat_map mora_kana]. fold (kana_text ms). pose proof (weight_n_syl _ _ _ I J). rewrite !weight_app. split; lia.
  - inversion F as [|? ? S F']; subst. inversion F' as [|? ? S' F'']; subst. destruct (IH F'') as [A B].
    cbn [kana_text flat_map mora_kana]. fold (kana_text ms). rewrite !weight_app.
    change (nn_weight (u "ん'")) with 1%nat. change (nn_weight (u "ん")) with 1%nat. split; lia.
  - inversion F as [|? ? S F']; subst. inversion F' as [|? ? S' F'']; subst. destruct (IH F'') as [A B].
    cbn [kana_text flat_map mora_kana]. fold (kana_text ms). rewrite !weight_app.
    change (nn_weight (u "ん")) with 1%nat. split; lia.
Qed.
Lemma ime_plain ms t : ime_read_back ms t -> n_before_vowel ms -> t = flat_map (rb false) ms.
Proof.
  induction 1 as [|m t ms t' N R H IH|ms t' V H IH|ms t' V H IH|k r k' ms t' I J H IH|ms t' V H IH|ms t' V H IH]; intro B.
  - reflexivity.
  - apply nbv_cons in B. apply rb_spec in R. cbn [flat_map]. rewrite R, <- IH by apply B. reflexivity.
  - apply nbv_cons in B. cbn [flat_map rb]. rewrite <- IH by apply B. reflexivity.
  - apply nbv_cons in B. destruct B as [B _]. specialize (B eq_refl). apply vowel_or_n in B. congruence.
  - apply nbv_cons in B. destruct B as [B _]. specialize (B eq_refl). discriminate B.
  - apply nbv_cons in B. destruct B as [B _]. specialize (B eq_refl). cbn [hepburn mora_spelling] in B. rewrite V in B. discriminate B.
  - apply nbv_cons in B. destruct B as [B _]. specialize (B eq_refl). cbn [hepburn mora_spelling] in B. rewrite V in B. discriminate B.
Qed.
Lemma ime_same ms t : Forall standard ms -> ime_read_back ms t ->
  t = kana_text ms <-> Forall (recovered false) ms /\ n_before_vowel ms.
Proof.
  intros F R. destruct (ime_weight ms t R F) as [_ W]. split.
  - intro Q. assert (B : n_before_vowel ms) by (apply W; now rewrite Q). split; [|exact B].
    apply read_back_same. rewrite <- Q. symmetry. now apply ime_plain.
  - intros [A B]. rewrite (ime_plain ms t R B). now apply read_back_same.
Qed.
Lemma n_syl_one k r k1 k2 : In (k, ch "n" :: r) syllables -> In (k1, r) syllables -> In (k2, r) syllables -> k1 = k2.
Proof.
  intros I J1 J2. apply (n_syl_plain k r k1 I) in J1 as P1. apply (n_syl_plain k r k2 I) in J2 as P2.
  pose proof (bf_entry _ _ _ (back_syl Default k1 r J1)) as E1. pose proof (bf_entry _ _ _ (back_syl Default k2 r J2)) as E2.
  cbn [obs_of] in E1, E2. rewrite P1 in E1. rewrite P2 in E2. exact (entry_functional _ _ _ _ E1 E2).
Qed.
Lemma ime_det ms t : ime_read_back ms t -> Forall standard ms -> forall t', ime_read_back ms t' -> t = t'.
Proof.
  assert (Nv : forall r s, first_in (u "aiueoy") ((ch "n" :: r) ++ s) = true -> False) by (intros r s Z; discriminate Z).
  assert (Ny : forall r s, first_in (u "aiueony") ((ch "n" :: r) ++ s) = false -> False) by (intros r s Z; discriminate Z).
  assert (Nv' : forall ms, first_in (u "aiueoy") (hepburn (Nn :: ms)) = true -> False)
    by (intro x; cbn [hepburn mora_spelling]; destruct (first_in (u "aiueoy") (hepburn x)); intro Z; discriminate Z).
  assert (Ny' : forall ms, first_in (u "aiueony") (hepburn (Nn :: ms)) = false -> False)
    by (intro x; cbn [hepburn mora_spelling]; destruct (first_in (u "aiueoy") (hepburn x)); intro Z; discriminate Z).
  induction 1 as [|m t ms t1 N R H IH|ms t1 V H IH|ms t1 V H IH|k r k' ms t1 I J H IH|ms t1 V H IH|ms t1 V H IH]; intros F t' H';
    inversion H'; subst; try congruence; try (apply vowel_or_n in V; congruence);
    try (match goal with
      | X : _ (hepburn (Syl _ (ch "n" :: ?r) :: ?l)) = true |- _ => exfalso; exact (Nv r (hepburn l) X)
      | X : _ (hepburn (Syl _ (ch "n" :: ?r) :: ?l)) = false |- _ => exfalso; exact (Ny r (hepburn l) X)
      | X : _ (hepburn (Nn :: ?l)) = true |- _ => exfalso; exact (Nv' l X)
      | X : _ (hepburn (Nn :: ?l)) = false |- _ => exfalso; exact (Ny' l X)
      end);
    apply Forall_inv_tail in F.
  - apply rb_spec in R. match goal with X : read_back false m _ |- _ => apply rb_spec in X end. f_equal; [congruence|auto].
  - f_equal. auto.
  - match goal with X : first_in (u "aiueoy") (hepburn ms) = true |- _ => apply vowel_or_n in X end. congruence.
  - f_equal. auto.
  - apply Forall_inv_tail in F. f_equal. f_equal; [eapply n_syl_one; eassumption|auto].
  - apply Forall_inv_tail in F. f_equal. auto.
  - apply Forall_inv_tail in F. f_equal. auto.
Qed.
