(** * Proofs about trim_okurigana.rs (C04, C46-C49) *)
From Verif Require Import Tac Base Std Chars Strings Tokenize Predicates TokenSpec TokenizeProofs.

(** ** trim_start_matches / trim_end_matches *)
Lemma strip_prefix_Some p : forall s r, strip_prefix p s = Some r <-> s = p ++ r.
Proof.
  induction p as [|a p IH]; intros s r; cbn.
  - split; [now intros [= ->]|now intros ->].
  - destruct s as [|b s]; [split; discriminate|].
    destruct (a =? b) eqn:E; [apply N.eqb_eq in E; subst; rewrite IH; split; [now intros ->|congruence]|].
    apply N.eqb_neq in E. split; [discriminate|congruence].
Qed.
Lemma strip_prefix_None p s : strip_prefix p s = None -> ~ prefix_of p s.
Proof.
  intros H [r E]. apply strip_prefix_Some in E. congruence.
Qed.

Lemma trim_start_fuel_spec p : p <> [] -> forall f s, (length s <= f)%nat ->
  trimmed_start p s (trim_start_fuel f p s).
Proof.
  intro N. induction f as [|f IH]; intros s L.
  - destruct s; [|cbn in L; lia]. cbn. split; [exists 0%nat; reflexivity|].
    intros [r E]. destruct p; [congruence|discriminate].
  - cbn. destruct p as [|a p0] eqn:Ep; [congruence|]. rewrite <- Ep in *.
    destruct (strip_prefix p s) as [s'|] eqn:E.
    + apply strip_prefix_Some in E. subst s.
      destruct (IH s') as [[n H] H2].
      { rewrite app_length in L. destruct p; [congruence|]. cbn in L. lia. }
      split; [|exact H2]. exists (S n). unfold copies in *. cbn. rewrite <- app_assoc. now rewrite <- H.
    + split; [exists 0%nat; reflexivity|]. now apply strip_prefix_None.
Qed.
Lemma trim_start_spec p s : p <> [] -> trimmed_start p s (trim_start_matches s p).
Proof. intro N. apply trim_start_fuel_spec; auto. Qed.

Lemma copies_snoc {A} n (t : list A) : copies n t ++ t = t ++ copies n t.
Proof.
  unfold copies. induction n as [|n IH]; cbn; [now rewrite app_nil_r|].
  rewrite <- app_assoc. now rewrite IH.
Qed.
Lemma copies_rev {A} n (t : list A) : rev (copies n (rev t)) = copies n t.
Proof.
  induction n as [|n IH]; [reflexivity|].
  change (copies (S n) (rev t)) with (rev t ++ copies n (rev t)).
  rewrite rev_app_distr, rev_involutive, IH. change (copies (S n) t) with (t ++ copies n t).
  apply copies_snoc.
Qed.
Lemma trim_end_spec p s : p <> [] -> trimmed_end p s (trim_end_matches s p).
Proof.
  intro N. unfold trim_end_matches.
  assert (N' : rev p <> []) by (intro H; apply N; rewrite <- (rev_involutive p), H; reflexivity).
  destruct (trim_start_spec (rev p) (rev s) N') as [[n H] H2].
  set (q := trim_start_matches (rev s) (rev p)) in *. split.
  - exists n. apply (f_equal (@rev _)) in H. rewrite rev_involutive, rev_app_distr in H.
    now rewrite copies_rev in H.
  - intros [r E]. apply H2. exists (rev r). apply (f_equal (@rev _)) in E.
    now rewrite rev_involutive, rev_app_distr in E.
Qed.

(** the relations determine the result *)
Lemma trimmed_start_unique {A} (t : list A) : t <> [] -> forall s r r',
  trimmed_start t s r -> trimmed_start t s r' -> r = r'.
Proof.
  intros N s r r' [[n H1] H2] [[m H3] H4]. subst s. revert m H3.
  induction n as [|n IH]; intros m H3.
  - destruct m as [|m]; [exact H3|]. exfalso. apply H2. exists (copies m t ++ r').
    cbn in H3. unfold copies in *. rewrite H3. cbn. now rewrite app_assoc.
  - destruct m as [|m].
    + exfalso. apply H4. exists (copies n t ++ r). cbn in H3. rewrite <- H3.
      unfold copies. cbn. now rewrite app_assoc.
    + apply (IH m). unfold copies in *. cbn in H3. rewrite <- !app_assoc in H3.
      now apply app_inv_head in H3.
Qed.
Lemma trimmed_end_rev {A} (t s r : list A) : trimmed_end t s r -> trimmed_start (rev t) (rev s) (rev r).
Proof.
  intros [[n H] H2]. split.
  - exists n. rewrite H, rev_app_distr. f_equal. rewrite <- (rev_involutive t) at 1.
    apply copies_rev.
  - intros [q E]. apply H2. exists (rev q). apply (f_equal (@rev _)) in E.
    now rewrite rev_involutive, rev_app_distr, rev_involutive in E.
Qed.
Lemma trimmed_end_unique {A} (t : list A) s r r' : t <> [] ->
  trimmed_end t s r -> trimmed_end t s r' -> r = r'.
Proof.
  intros N H1 H2. apply trimmed_end_rev in H1, H2.
  rewrite <- (rev_involutive r), <- (rev_involutive r'). f_equal.
  eapply (trimmed_start_unique (rev t)); eauto.
  intro E. apply N. rewrite <- (rev_involutive t), E. reflexivity.
Qed.

(** ** The guards *)
Lemma kana_spec c : is_char_kana c = true <-> S_kana c.
Proof.
  unfold is_char_kana, S_kana. rewrite orb_true_iff, hiragana_spec, katakana_spec. tauto.
Qed.
Lemma starts_cons c s : starts_with_kana (c :: s) <-> S_kana c.
Proof.
  split; [intros (r & d & E & H); inversion E; now subst|]. intro H. now exists s, c.
Qed.
Lemma ends_snoc c s : ends_in_kana (s ++ [c]) <-> S_kana c.
Proof.
  split; [intros (r & d & E & H); apply app_inj_tail in E; destruct E; now subst|].
  intro H. now exists s, c.
Qed.
Lemma forallb_false_ex (f : N -> bool) s : forallb f s = false -> exists c, In c s /\ f c = false.
Proof.
  induction s as [|c s IH]; cbn; [discriminate|]. destruct (f c) eqn:E; cbn.
  - intro H. destruct (IH H) as (d & I & D). exists d. tauto.
  - intros _. exists c. tauto.
Qed.
Lemma forallb_true_no (f : N -> bool) s c : forallb f s = true -> In c s -> f c = true.
Proof. intros H I. rewrite forallb_forall in H. auto. Qed.

Lemma invalid_matcher_spec s m : all_nonempty S_japanese s ->
  is_invalid_matcher s m = false <->
  match m with
  | None => exists c, In c s /\ ~ S_kana c
  | Some m => exists c, In c m /\ ~ S_kanji c
  end.
Proof.
  intros [N _]. unfold is_invalid_matcher, is_kana. destruct m as [m|].
  - split.
    + intro H. apply forallb_false_ex in H. destruct H as (c & I & H). exists c. split; [exact I|].
      now apply (not_iff (kanji_spec c)).
    + intros (c & I & H). destruct (forallb is_char_kanji m) eqn:E; [|reflexivity].
      exfalso. apply H, kanji_spec. eapply forallb_true_no; eauto.
  - destruct s as [|c0 s]; [congruence|]. cbn [is_empty]. split.
    + intro H. apply forallb_false_ex in H. destruct H as (c & I & H). exists c. split; [exact I|].
      now apply (not_iff (kana_spec c)).
    + intros (c & I & H). destruct (forallb is_char_kana (c0 :: s)) eqn:E; [|reflexivity].
      exfalso. apply H, kana_spec. eapply forallb_true_no; eauto.
Qed.

Lemma is_japanese_spec s : is_japanese s = true <-> all_nonempty S_japanese s.
Proof.
  unfold is_japanese, all_nonempty. destruct s as [|c s]; cbn [is_empty].
  - split; [discriminate|]. intros [H _]. congruence.
  - rewrite forallb_forall. split.
    + intro H. split; [discriminate|]. intros d I. now apply japanese_spec, H.
    + intros [_ H] d I. now apply japanese_spec, H.
Qed.

Lemma lead_spec s b : s <> [] -> is_leading_without_initial_kana s b
  = Ok (b && match s with c :: _ => negb (is_char_kana c) | [] => false end).
Proof. destruct s as [|c s]; [congruence|]. destruct b; reflexivity. Qed.
Lemma trail_spec s c b : is_trailing_without_final_kana (s ++ [c]) b
  = Ok (negb b && negb (is_char_kana c)).
Proof.
  unfold is_trailing_without_final_kana. rewrite rev_app_distr. cbn [rev app nth_error unwrap bind].
  destruct s, b; reflexivity.
Qed.

Lemma tokenize_nonnil s : s <> [] -> tokenize_with_opt s false <> [].
Proof.
  intros N H. destruct (tokenize_tokenisation s false) as (C & _). rewrite H in C. now apply N.
Qed.

Theorem trim_characterised s b m : exists r, trim_okurigana_with_opt s b m = Ok r /\
  ((~ trim_active s b m /\ r = s) \/
   (trim_active s b m /\ exists tok, outer_token (ty false) (source s m) b tok /\ trimmed b tok s r)).
Proof.
  unfold trim_okurigana_with_opt.
  destruct (is_japanese s) eqn:J; cbn [negb].
  2:{ exists s. split; [reflexivity|]. left. split; [|reflexivity]. intros [H _].
      apply is_japanese_spec in H. congruence. }
  apply is_japanese_spec in J. assert (N := proj1 J).
  rewrite lead_spec by exact N. cbn [bind].
  destruct (b && match s with c :: _ => negb (is_char_kana c) | [] => false end) eqn:L.
  { exists s. split; [reflexivity|]. left. split; [|reflexivity]. intros (_ & H & _).
    apply andb_prop in L. destruct L as [-> L]. destruct s as [|c s]; [congruence|].
    apply starts_cons, kana_spec in H. rewrite H in L. discriminate. }
  destruct (exists_last N) as (s' & c & Es). 
  assert (TS : is_trailing_without_final_kana s b = Ok (negb b && negb (is_char_kana c)))
    by (rewrite Es; apply trail_spec).
  rewrite TS. cbn [bind].
  destruct (negb b && negb (is_char_kana c)) eqn:T.
  { exists s. split; [reflexivity|]. left. split; [|reflexivity]. intros (_ & H & _).
    apply andb_prop in T. destruct T as [T1 T2]. destruct b; [discriminate|].
    rewrite Es in H. apply ends_snoc, kana_spec in H. rewrite H in T2. discriminate. }
  pose proof (invalid_matcher_spec s m J) as M.
  destruct (is_invalid_matcher s m) eqn:I.
  { exists s. split; [reflexivity|]. left. split; [|reflexivity]. intros (_ & _ & H).
    apply M in H. discriminate. }
  assert (M' := proj1 M eq_refl). clear M.
  assert (Act : trim_active s b m).
  { split; [exact J|]. split; [|exact M']. destruct b.
    - destruct s as [|d s]; [congruence|]. apply starts_cons, kana_spec. cbn in L.
      destruct (is_char_kana d); [reflexivity|discriminate].
    - rewrite Es. apply ends_snoc, kana_spec. cbn in T.
      destruct (is_char_kana c); [reflexivity|discriminate]. }
  assert (Esrc : match m with Some m0 => tokenize m0 | None => tokenize s end
                 = tokenize_with_opt (source s m) false) by (destruct m; reflexivity).
  rewrite Esrc. clear Esrc.
  assert (Nsrc : source s m <> []).
  { destruct m as [m|]; cbn; [|exact N]. destruct M' as (d & Id & _). intros ->. destruct Id. }
  pose proof (tokenize_nonnil _ Nsrc) as NT.
  pose proof (tokenize_tokenisation (source s m) false) as TT.
  assert (NE : forall t, In t (tokenize_with_opt (source s m) false) -> t <> []) by apply TT.
  destruct (tokenize_with_opt (source s m) false) as [|t0 ts] eqn:E; [congruence|].
  destruct b.
  - cbn [index nth_error unwrap bind]. eexists. split; [reflexivity|]. right. split; [exact Act|].
    exists t0. split; [exists ts; exact TT|]. apply trim_start_spec, NE. now left.
  - destruct (exists_last NT) as (ts' & tl & El). rewrite El in *. rewrite rev_app_distr.
    cbn [rev app nth_error unwrap bind]. eexists. split; [reflexivity|]. right. split; [exact Act|].
    exists tl. split; [exists ts'; exact TT|]. apply trim_end_spec, NE. apply in_elt.
Qed.

Lemma trim_total s b m : exists r, trim_okurigana_with_opt s b m = Ok r.
Proof. destruct (trim_characterised s b m) as (r & H & _). eauto. Qed.

(** ** C46 *)
Lemma trim_part s b m r : trim_okurigana_with_opt s b m = Ok r ->
  exists n tok, (n = 0%nat \/ In tok (tokenize (source s m))) /\
    s = if b then copies n tok ++ r else r ++ copies n tok.
Proof.
  intro H. destruct (trim_characterised s b m) as (r' & H' & D).
  rewrite H in H'. inversion H'; subst r'. clear H'.
  destruct D as [[_ ->]|(_ & tok & (ts & T) & R)].
  - exists 0%nat, []. split; [now left|]. destruct b; [reflexivity|]. unfold copies. cbn.
    now rewrite app_nil_r.
  - assert (In tok (tokenize (source s m))).
    { unfold tokenize. rewrite <- (tokenize_unique _ _ _ T). destruct b; [now left|apply in_elt]. }
    destruct b; destruct R as [[n R] _]; exists n, tok; auto.
Qed.

(** ** C47 *)
Lemma one_copy_end ts tok s r : tokenisation (ty false) (ts ++ [tok]) s ->
  trimmed_end tok s r -> r = concat ts.
Proof.
  intros (T1 & T2 & T3 & T4) R. apply (trimmed_end_unique tok s).
  - apply T2, in_elt.
  - exact R.
  - split.
    + exists 1%nat. rewrite <- T1, concat_app. unfold copies. cbn. now rewrite app_nil_r.
    + intros [q E].
      assert (Nt : tok <> []) by (apply T2, in_elt).
      destruct (exists_last Nt) as (t' & x & Et).
      destruct tok as [|y tk] eqn:Etok; [congruence|]. rewrite <- Etok in *.
      assert (Nts : ts <> []).
      { intros ->. cbn in E. destruct q; [|discriminate]. cbn in E. congruence. }
      destruct (exists_last Nts) as (ts' & w & Ew).
      assert (Nw : w <> []) by (apply T2; rewrite Ew, <- app_assoc; apply in_elt).
      destruct (exists_last Nw) as (w' & z & Ez).
      assert (z = x).
      { rewrite Ew, concat_app in E. cbn in E. rewrite app_nil_r, Et, Ez, !app_assoc in E.
        apply app_inj_tail in E. tauto. }
      subst z.
      apply (T4 ts' w tok []) with (a' := w') (x := x) (y := y) (b' := tk).
      * rewrite Ew, <- app_assoc. reflexivity.
      * exact Ez.
      * exact Etok.
      * apply (T3 tok); [apply in_elt|rewrite Et; apply in_elt|rewrite Etok; now left].
Qed.
Lemma one_copy_start ts tok s r : tokenisation (ty false) (tok :: ts) s ->
  trimmed_start tok s r -> r = concat ts.
Proof.
  intros (T1 & T2 & T3 & T4) R. apply (trimmed_start_unique tok) with (s := s).
  - apply T2. now left.
  - exact R.
  - split.
    + exists 1%nat. rewrite <- T1. unfold copies. cbn. now rewrite app_nil_r.
    + intros [q E].
      assert (Nt : tok <> []) by (apply T2; now left).
      destruct (exists_last Nt) as (t' & x & Et).
      destruct tok as [|y tk] eqn:Etok; [congruence|]. rewrite <- Etok in *.
      destruct ts as [|w ts]; [rewrite Etok in E; discriminate|].
      assert (Nw : w <> []) by (apply T2; right; now left).
      destruct w as [|z w']; [congruence|].
      assert (z = y) by (rewrite Etok in E; cbn in E; congruence). subst z.
      apply (T4 [] tok (y :: w') ts eq_refl) with (a' := t') (x := x) (y := y) (b' := w').
      * exact Et.
      * reflexivity.
      * apply (T3 tok); [now left|rewrite Et; apply in_elt|rewrite Etok; now left].
Qed.

Lemma trim_no_matcher_end s : trim_active s false None ->
  exists ts tok, tokenize s = ts ++ [tok] /\ trim_okurigana s = Ok (concat ts).
Proof.
  intro A. destruct (trim_characterised s false None) as (r & H & D).
  destruct D as [[D _]|(_ & tok & (ts & T) & R)]; [contradiction|].
  exists ts, tok. split; [symmetry; apply tokenize_unique, T|].
  unfold trim_okurigana. rewrite H. f_equal. eapply one_copy_end; eauto.
Qed.
Lemma trim_no_matcher_start s : trim_active s true None ->
  exists ts tok, tokenize s = tok :: ts /\ trim_okurigana_with_opt s true None = Ok (concat ts).
Proof.
  intro A. destruct (trim_characterised s true None) as (r & H & D).
  destruct D as [[D _]|(_ & tok & (ts & T) & R)]; [contradiction|].
  exists ts, tok. split; [symmetry; apply tokenize_unique, T|].
  rewrite H. f_equal. eapply one_copy_start; eauto.
Qed.
Lemma trim_inactive s b m : ~ trim_active s b m -> trim_okurigana_with_opt s b m = Ok s.
Proof.
  intro A. destruct (trim_characterised s b m) as (r & H & D).
  destruct D as [[_ ->]|[D _]]; [exact H|contradiction].
Qed.

(** what can be in a token with a kana *)
Lemma token_with_kana t c k : homogeneous (ty false) t -> In c t -> In k t -> S_kana k ->
  S_kana c \/ (S_ja_punct c /\ c <> 0x3000 /\ S_ja_punct k).
Proof.
  intros H Ic Ik Kk. assert (Q : ty false c = ty false k) by now apply (H c k).
  pose proof (detailed_label c) as Lc. pose proof (detailed_label k) as Lk. unfold ty in Q.
  rewrite <- Q in Lk.
  assert (NS : 0x3041 <= k /\ ~ S_kanji k /\ ~ S_ja_number k /\ ~ between 0x30 0x39 k /\ S_japanese k)
    by (revert Kk; unfold S_kana; ranges).
  assert (KC : between 0x3041 0x3096 c \/ between 0x30A1 0x30FA c -> S_kana c) by (unfold S_kana; ranges).
  clear Q Ic Ik H. unfold S_kana in Kk.
  destruct (get_type c false); cbn [label_spec] in *; try tauto; try lia.
  - destruct Lk as [Lk _]. apply romaji_range in Lk. unfold between in Lk. lia.
  - destruct Lk as [Lk _]. apply en_punct_range in Lk. unfold between in Lk. lia.
Qed.

(** never empty when the text has a character that is neither kana nor punctuation *)
Lemma trim_outer s b : trim_active s b None -> exists ts tok,
  tokenisation (ty false) (if b then tok :: ts else ts ++ [tok]) s /\ trim_okurigana_with_opt s b None = Ok (concat ts)
  /\ exists k, In k tok /\ S_kana k.
Proof.
  intro A. destruct (trim_characterised s b None) as (r & H & D).
  destruct D as [[D _]|(_ & tok & (ts & T) & R)]; [contradiction|]. cbn [source] in T. exists ts, tok.
  split; [exact T|]. split.
  - rewrite H. f_equal. destruct b; [eapply one_copy_start|eapply one_copy_end]; eauto.
  - destruct A as (_ & A & _). destruct T as (T1 & T2 & _). destruct b.
    + destruct A as (q & k & -> & K). exists k. split; [|exact K].
      destruct tok as [|x tok]; [now destruct (T2 [] (or_introl eq_refl))|]. injection T1 as -> _. now left.
    + destruct A as (q & k & -> & K). exists k. split; [|exact K].
      destruct (exists_last (T2 tok (in_elt tok ts []))) as (t & x & ->).
      rewrite concat_app in T1. cbn in T1. rewrite app_nil_r, app_assoc in T1. apply app_inj_tail in T1.
      destruct T1 as [_ ->]. apply in_elt.
Qed.
Lemma trim_empty s b : trim_okurigana_with_opt s b None = Ok [] <->
  s = [] \/ (trim_active s b None /\ forall c, In c s -> S_ja_punct c /\ c <> 0x3000).
Proof.
  split.
  - intro H. destruct (trim_characterised s b None) as (r & H' & D).
    destruct D as [[_ ->]|[A _]]; [left; congruence|]. right. split; [exact A|].
    destruct (trim_outer s b A) as (ts & tok & T & R & k & Ik & Kk).
    assert (Z : concat ts = []) by congruence.
    assert (Es : s = tok).
    { destruct T as [T _]. rewrite <- T. destruct b; cbn; rewrite ?concat_app, Z; cbn; now rewrite app_nil_r. }
    subst s. assert (Hm : homogeneous (ty false) tok) by (apply (proj1 (proj2 (proj2 T))); destruct b; [now left|apply in_elt]).
    destruct A as (_ & _ & c & Ic & Nc).
    destruct (token_with_kana tok c k Hm Ic Ik Kk) as [F|(P & NP & _)]; [contradiction|].
    assert (TJ : get_type c false = JaPunc).
    { apply (label_unique c); [apply detailed_label|]. cbn. auto. }
    intros d Id. pose proof (detailed_label d) as L. rewrite (Hm d c Id Ic : get_type d false = get_type c false), TJ in L.
    exact L.
  - intros [->|[A P]]; [reflexivity|].
    destruct (trim_outer s b A) as (ts & tok & T & R & _). rewrite R. f_equal.
    assert (U : tokenize_with_opt s false = [s]).
    { symmetry. apply tokenize_unique. destruct A as ([N _] & _). split; [cbn; apply app_nil_r|]. split; [|split].
      - intros t [<-|[]]. exact N.
      - intros t [<-|[]] x y Ix Iy. unfold ty.
        transitivity JaPunc; [|symmetry]; (apply (label_unique _ _ _ (detailed_label _)); cbn; auto).
      - intros pre x y post E. destruct pre as [|? [|? ?]]; discriminate. }
    apply tokenize_unique in T. rewrite U in T. destruct b.
    + injection T as _ ->. reflexivity.
    + destruct ts as [|? [|? ?]]; [reflexivity|discriminate|discriminate].
Qed.
Lemma trim_keeps s b c r : In c s -> ~ S_kana c -> ~ S_ja_punct c ->
  trim_okurigana_with_opt s b None = Ok r -> In c r.
Proof.
  intros Ic Kc Pc H.
  destruct (trim_characterised s b None) as (r' & H' & D).
  destruct D as [[_ ->]|[A _]]; [now replace r with s by congruence|].
  destruct (trim_outer s b A) as (ts & tok & T & R & k & Ik & Kk). replace r with (concat ts) by congruence.
  destruct T as (T1 & _ & T3 & _). rewrite <- T1 in Ic.
  assert (C : In c tok \/ In c (concat ts)).
  { destruct b; [exact (in_app_or _ _ _ Ic)|]. rewrite concat_app in Ic. cbn in Ic. rewrite app_nil_r in Ic.
    apply in_app_or in Ic. tauto. }
  destruct C as [C|C]; [|exact C]. exfalso.
  destruct (token_with_kana tok c k) as [F|F]; auto; [|tauto]. apply T3. destruct b; [now left|apply in_elt].
Qed.
Lemma trim_nonempty s b r : (exists c, In c s /\ ~ S_kana c /\ ~ S_ja_punct c) ->
  trim_okurigana_with_opt s b None = Ok r -> r <> [].
Proof.
  intros (c & Ic & Kc & Pc) H ->. exact (trim_keeps s b c [] Ic Kc Pc H).
Qed.

(** trimming again and again *)
Lemma tokenisation_init {A K} (key : A -> K) ts t l :
  tokenisation key (ts ++ [t]) l -> tokenisation key ts (concat ts).
Proof.
  intros (H1 & H2 & H3 & H4). split; [reflexivity|]. split; [|split].
  - intros t' I. apply H2, in_or_app. now left.
  - intros t' I. apply H3, in_or_app. now left.
  - intros pre a b post E. apply (H4 pre a b (post ++ [t])). rewrite E, <- app_assoc. reflexivity.
Qed.
Lemma trim_fixed k r : trim_okurigana r = Ok r -> trim_times k r = Ok r.
Proof. intro H. induction k as [|k IH]; cbn [trim_times]; [reflexivity|]. now rewrite H. Qed.
Lemma ends_in_kana_dec s : ends_in_kana s \/ ~ ends_in_kana s.
Proof.
  destruct s as [|x s]; [right; intros (r & c & E & _); destruct r; discriminate|].
  destruct (exists_last (l := x :: s)) as (r & c & ->); [discriminate|]. rewrite ends_snoc.
  destruct (is_char_kana c) eqn:K; [left; now apply kana_spec|right; now apply (not_iff (kana_spec c))].
Qed.
Lemma trim_iterated : forall ts s, tokenisation (ty false) ts s ->
  (forall c, In c s -> S_japanese c) -> (exists c, In c s /\ ~ S_kana c /\ ~ S_ja_punct c) ->
  exists ks us, ts = ks ++ us /\ ~ ends_in_kana (concat ks) /\ (forall t, In t us -> ends_in_kana t) /\
    (forall k, trim_times k s = Ok (concat (ks ++ firstn (length us - k) us))).
Proof.
  intro ts. induction ts as [|tok ts IH] using rev_ind; intros s T J X.
  - destruct T as [<- _]. destruct X as (c & [] & _).
  - destruct (ends_in_kana_dec s) as [EK|NE].
    + destruct X as (c & Ic & Kc & Pc).
      assert (A : trim_active s false None).
      { split; [split; [intros ->; destruct Ic|exact J]|]. split; [exact EK|]. exists c. auto. }
      destruct (trim_outer s false A) as (ts' & tok' & T' & R & _).
      apply tokenize_unique in T' as U'. apply tokenize_unique in T as U. rewrite <- U in U'.
      apply app_inj_tail in U'. destruct U' as [-> ->].
      assert (S1 : s = concat ts ++ tok).
      { destruct T as [<- _]. rewrite concat_app. cbn. now rewrite app_nil_r. }
      destruct (IH (concat ts)) as (ks & us & E & N & EU & RT).
      * eapply tokenisation_init. exact T.
      * intros d Id. apply J. rewrite S1. apply in_or_app. now left.
      * exists c. split; [|auto]. exact (trim_keeps s false c _ Ic Kc Pc R).
      * exists ks, (us ++ [tok]). split; [now rewrite E, app_assoc|]. split; [exact N|]. split.
        -- intros t I. apply in_app_or in I. destruct I as [I|[<-|[]]]; [auto|].
           destruct EK as (q & x & Q & K). rewrite S1 in Q.
           destruct (exists_last (proj1 (proj2 T) tok (in_elt tok ts []))) as (t' & y & Et). rewrite Et, app_assoc in Q.
           apply app_inj_tail in Q. destruct Q as [_ ->]. exists t', x. auto.
        -- intros [|k].
           ++ cbn [trim_times]. f_equal. rewrite Nat.sub_0_r, firstn_all, app_assoc, <- E, concat_app. cbn.
              now rewrite app_nil_r.
           ++ cbn [trim_times]. change (trim_okurigana s) with (trim_okurigana_with_opt s false None).
              rewrite R. cbn [bind]. rewrite RT. do 3 f_equal. rewrite app_length. cbn [length].
              replace (length us + 1 - S k)%nat with (length us - k)%nat by lia.
              rewrite firstn_app. replace (length us - k - length us)%nat with 0%nat by lia. cbn [firstn].
              now rewrite app_nil_r.
    + exists (ts ++ [tok]), []. rewrite app_nil_r. split; [reflexivity|]. destruct T as [T _].
      rewrite T. split; [exact NE|]. split; [intros t []|]. intro k.
      cbn [length Nat.sub firstn]. rewrite app_nil_r, T. apply trim_fixed. apply trim_inactive.
      intros (_ & F & _). contradiction.
Qed.

Lemma trim_nonempty_refuted : exists s, s <> [] /\ trim_okurigana s = Ok [].
Proof. exists (u "。ー"). split; [discriminate|reflexivity]. Qed.

(** ** C48 *)
Lemma trim_kana_tail p k h (K : N -> Prop) :
  (K = between 0x3041 0x3096 \/ K = between 0x30A1 0x30FA) ->
  all_nonempty S_japanese p \/ p = [] -> S_kanji k -> all_nonempty K h ->
  trim_okurigana (p ++ [k] ++ h) = Ok (p ++ [k]) /\ trim_okurigana (p ++ [k]) = Ok (p ++ [k]).
Proof.
  intros HK Hp Hk [Nh Hh].
  assert (Kk : is_char_kanji k = true) by now apply kanji_spec.
  assert (KN : ~ S_kana k) by (unfold S_kana, S_hiragana, S_katakana, S_kanji, between in *; lia).
  assert (Hkana : forall c, In c h -> S_kana c).
  { intros c I. apply Hh in I. destruct HK as [-> | ->];
      unfold S_kana, S_hiragana, S_katakana, between in *; lia. }
  assert (Hj : forall c, In c (p ++ [k] ++ h) -> S_japanese c).
  { intros c I. apply in_app_or in I. destruct I as [I|I].
    - destruct Hp as [[_ Hp]| ->]; [auto|destruct I].
    - destruct I as [<-|I].
      + unfold S_kanji, S_japanese, between in *. lia.
      + apply Hkana in I. unfold S_kana, S_hiragana, S_katakana, S_japanese, between in *. lia. }
  split.
  - destruct (exists_last Nh) as (h' & l & El).
    assert (A : trim_active (p ++ [k] ++ h) false None).
    { split; [split; [destruct p; discriminate|exact Hj]|]. split.
      - exists (p ++ [k] ++ h'), l. rewrite El, !app_assoc. split; [reflexivity|].
        apply Hkana. rewrite El. apply in_elt.
      - exists k. split; [apply in_elt|exact KN]. }
    destruct (trim_no_matcher_end _ A) as (ts & tok & T & R). rewrite R. f_equal.
    assert (TY : forall c, In c h -> ty false c = if N.leb c 0x3096 then Hiragana else Katakana).
    { intros c I. apply Hh in I. unfold ty.
      pose proof (detailed_label c) as L.
      destruct HK as [-> | ->]; unfold between in I.
      - replace (c <=? 0x3096) with true by lia. clear - I L. unfold get_type.
        replace (c =? ch " ") with false by (change (ch " ") with 0x20; lia).
        replace (c =? 0x3000) with false by lia.
        replace (is_char_japanese_number c) with false by (symmetry; apply not_true; rewrite ja_number_spec; unfold S_ja_number, between; lia).
        replace (is_char_latin_number c) with false by (symmetry; apply not_true; rewrite latin_number_spec; unfold between; lia).
        replace (is_char_english_punctuation c) with false.
        2:{ symmetry. apply not_true. rewrite en_punct_spec. unfold S_en_punct.
            match goal with |- context [In c ?l] => let x := eval vm_compute in l in change l with x end.
            cbn [In]. lia. }
        replace (is_char_japanese_punctuation c) with false by (symmetry; apply not_true; rewrite ja_punct_spec; unfold S_ja_punct, between; lia).
        replace (is_char_kanji c) with false by (symmetry; apply not_true; rewrite kanji_spec; unfold S_kanji, between; lia).
        replace (is_char_hiragana c) with true by (symmetry; apply hiragana_spec; unfold S_hiragana, between; lia).
        reflexivity.
      - replace (c <=? 0x3096) with false by lia. clear - I L. unfold get_type.
        replace (c =? ch " ") with false by (change (ch " ") with 0x20; lia).
        replace (c =? 0x3000) with false by lia.
        replace (is_char_japanese_number c) with false by (symmetry; apply not_true; rewrite ja_number_spec; unfold S_ja_number, between; lia).
        replace (is_char_latin_number c) with false by (symmetry; apply not_true; rewrite latin_number_spec; unfold between; lia).
        replace (is_char_english_punctuation c) with false.
        2:{ symmetry. apply not_true. rewrite en_punct_spec. unfold S_en_punct.
            match goal with |- context [In c ?l] => let x := eval vm_compute in l in change l with x end.
            cbn [In]. lia. }
        replace (is_char_japanese_punctuation c) with false by (symmetry; apply not_true; rewrite ja_punct_spec; unfold S_ja_punct, between; lia).
        replace (is_char_kanji c) with false by (symmetry; apply not_true; rewrite kanji_spec; unfold S_kanji, between; lia).
        replace (is_char_hiragana c) with false by (symmetry; apply not_true; rewrite hiragana_spec; unfold S_hiragana, between; lia).
        replace (is_char_katakana c) with true by (symmetry; apply katakana_spec; unfold S_katakana, between; lia).
        reflexivity. }
    assert (HT : tokenisation (ty false) [h] h).
    { split; [cbn; apply app_nil_r|]. split; [|split].
      - intros t [<-|[]]. exact Nh.
      - intros t [<-|[]] x y Ix Iy. rewrite (TY x Ix), (TY y Iy).
        apply Hh in Ix, Iy. destruct HK as [-> | ->]; unfold between in Ix, Iy.
        + replace (x <=? 0x3096) with true by lia. replace (y <=? 0x3096) with true by lia. reflexivity.
        + replace (x <=? 0x3096) with false by lia. replace (y <=? 0x3096) with false by lia. reflexivity.
      - intros pre a b post E. destruct pre as [|? [|? ?]]; discriminate. }
    apply tokenize_unique in HT.
    destruct h as [|y h1] eqn:Eh; [congruence|]. rewrite <- Eh in *.
    assert (TD : ty false k <> ty false y).
    { rewrite (TY y) by (rewrite Eh; now left). intro Z.
      pose proof (detailed_label k) as L. unfold ty in Z. rewrite Z in L.
      destruct (y <=? 0x3096); cbn [label_spec] in L; unfold S_kanji, between in *; lia. }
    unfold tokenize in T. rewrite app_assoc in T. rewrite Eh in T.
    rewrite tokenize_app_diff in T by exact TD. rewrite <- Eh, <- HT in T.
    apply app_inj_tail in T. destruct T as [<- _].
    apply (tokenize_tokenisation (p ++ [k]) false).
  - apply trim_inactive. intros (_ & E & _). apply ends_snoc in E. contradiction.
Qed.

Lemma trim_again_refuted :
  let s := u "食べル" in
  contains_kanji s = true /\ trim_okurigana s = Ok (u "食べ") /\ trim_okurigana (u "食べ") = Ok (u "食").
Proof. split; [|split]; reflexivity. Qed.

(** ** C49 *)
Lemma trim_matcher_kanji s b m : (forall c, In c m -> S_kanji c) ->
  trim_okurigana_with_opt s b (Some m) = Ok s.
Proof. intro H. apply trim_inactive. intros (_ & _ & c & I & N). now apply N, H. Qed.

Lemma trim_matcher s b m tok r : trim_active s b (Some m) -> outer_token (ty false) m b tok ->
  trim_okurigana_with_opt s b (Some m) = Ok r <-> trimmed b tok s r.
Proof.
  intros A O. destruct (trim_characterised s b (Some m)) as (r' & H & D).
  destruct D as [[D _]|(_ & tok' & O' & R)]; [contradiction|]. cbn [source] in O'.
  assert (tok' = tok /\ tok <> []) as [-> N].
  { destruct O as (ts & O), O' as (ts' & O'). pose proof (proj1 (proj2 O)) as N. 
    apply tokenize_unique in O, O'. rewrite <- O in O'.
    destruct b; [inversion O'; subst|apply app_inj_tail in O'; destruct O'; subst];
      (split; [reflexivity|]); apply N; [now left|apply in_elt]. }
  rewrite H. split; [now intros [= <-]|]. intro R'. f_equal.
  destruct b; [eapply (trimmed_start_unique tok)|eapply (trimmed_end_unique tok)]; eauto.
Qed.
Lemma trim_matcher_absent s b m tok : outer_token (ty false) m b tok ->
  ~ (if b then prefix_of tok s else suffix_of tok s) ->
  trim_okurigana_with_opt s b (Some m) = Ok s.
Proof.
  intros O N. destruct (trim_characterised s b (Some m)) as (r & H & D).
  destruct D as [[D ->]|(A & _)]; [exact H|].
  apply (trim_matcher s b m tok s A O). destruct b; (split; [|exact N]); exists 0%nat; [reflexivity|].
  unfold copies. cbn. now rewrite app_nil_r.
Qed.
