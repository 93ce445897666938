(** * Converting a text in parts (C65, C66), and the kana that can be typed (C67) *)
From Verif Require Import Tac Base Std Constants Chars Trees KanaTree RomajiTree Strings Convert
  KanaPure RomajiPure KanaSpec KanaDict KanaProofs Predicates ScriptSpec ScriptProofs RomajiSpec RomajiProofs
  MoraProofs TypingSpec.

(** ** to_kana *)
Lemma kw_app x : forall n y, (forall c y', y = c :: y' -> k_at n (low (x ++ [c])) = None) -> kw n (x ++ y) = kw n x.
Proof.
  induction x as [|a x IH]; intros n y H.
  - cbn. destruct y as [|c y]; [reflexivity|]. cbn. specialize (H c y eq_refl). cbn in H.
    now destruct (k_find n (ascii_lower c)).
  - cbn. destruct (k_find n (ascii_lower a)) as [m|] eqn:F; [|reflexivity]. rewrite IH; [reflexivity|].
    intros c y' Q. specialize (H c y' Q). cbn in H. now rewrite F in H.
Qed.

Lemma conv_split m x : forall y,
  (forall a b c y', x = a ++ b -> b <> [] -> y = c :: y' -> ~ viable m (b ++ [c])) ->
  conv m (x ++ y) = conv m x ++ conv m y.
Proof.
  induction x as [x IH] using str_ind_len. intros y H. destruct x as [|c x]; [reflexivity|].
  assert (K : kw (tree_of m) ((c :: x) ++ y) = kw (tree_of m) (c :: x)).
  { apply kw_app. intros d y' Q. destruct (k_at (tree_of m) (low ((c :: x) ++ [d]))) as [n|] eqn:A; [|reflexivity].
    exfalso. apply (H [] (c :: x) d y'); auto; [discriminate|]. apply viable_spec. eauto. }
  change ((c :: x) ++ y) with (c :: (x ++ y)) in *. rewrite !kconv_cons.
  assert (S : kstep (tree_of m) c (x ++ y) = (fst (kstep (tree_of m) c x), snd (kstep (tree_of m) c x) ++ y)).
  { unfold kstep. rewrite K. destruct (kw (tree_of m) (c :: x)) as [n i] eqn:W.
    destruct (kw_spec _ _ _ _ W) as (L & _ & _). destruct i as [|i]; [reflexivity|].
    destruct (kout n); [|reflexivity]. cbn [fst snd].
    change (c :: x ++ y) with ((c :: x) ++ y). rewrite firstn_app, skipn_app.
    replace (S i - length (c :: x))%nat with 0%nat by lia. cbn [firstn skipn]. now rewrite app_nil_r. }
  rewrite S. cbn [fst snd]. rewrite IH.
  - now rewrite app_assoc.
  - pose proof (kstep_shorter (tree_of m) c x). cbn [length]. lia.
  - intros a b d y' Q. destruct (kstep_suffix (tree_of m) c x) as (p & P). rewrite Q, app_assoc in P.
    exact (H (p ++ a) b d y' P).
Qed.

(** every character of a key but the last is a consonant *)
Definition inner_consonants (m : mode) : bool :=
  forallb (fun e => forallb (fun c => existsb (N.eqb c) (u "bcdfghjklmnpqrstvwxyz")) (removelast (fst e))) (dict m).
Lemma inner_consonants_ok m : inner_consonants m = true.
Proof. destruct m; vm_compute; reflexivity. Qed.

Lemma removelast_In {A} (a b : list A) x d : In x a -> In x (removelast (a ++ d :: b)).
Proof.
  induction a as [|y a IH]; [intros []|]. intro I. change ((y :: a) ++ d :: b) with (y :: (a ++ d :: b)).
  destruct (a ++ d :: b) eqn:Q; [destruct a; discriminate|]. rewrite <- Q in *. cbn [removelast]. rewrite Q, <- Q.
  destruct I as [->|I]; [now left|right; auto].
Qed.

Lemma viable_inner m b d c : viable m ((b ++ [d]) ++ [c]) -> In (ascii_lower d) (u "bcdfghjklmnpqrstvwxyz").
Proof.
  intros (q & k & v & C & I). apply casing_low in C. subst q. rewrite !low_app in I.
  pose proof (inner_consonants_ok m) as F. unfold inner_consonants in F. rewrite forallb_forall in F.
  specialize (F _ I). cbn [fst] in F. rewrite forallb_forall in F. apply existsb_In, F.
  replace (((low b ++ low [d]) ++ low [c]) ++ k) with ((low b ++ low [d]) ++ ascii_lower c :: k).
  - apply removelast_In, in_or_app. right. now left.
  - rewrite <- !app_assoc. reflexivity.
Qed.

Lemma conv_split_after m x d y : ~ In (ascii_lower d) (u "bcdfghjklmnpqrstvwxyz") ->
  conv m ((x ++ [d]) ++ y) = conv m (x ++ [d]) ++ conv m y.
Proof.
  intro H. apply conv_split. intros a b c y' Q N _ V. destruct (exists_last N) as (b' & e & ->).
  rewrite app_assoc in Q. apply app_inj_tail in Q. destruct Q as [_ ->]. apply viable_inner in V. contradiction.
Qed.

(** ** to_romaji *)
Lemma rw_app E (HE : std_ok E) x : forall k n y, r_node k n ->
  (forall c y' m, y = c :: y' -> ~ r_node (k ++ x ++ [c]) m) -> rw E n (x ++ y) = rw E n x.
Proof.
  induction x as [|a x IH]; intros k n y R H.
  - cbn. destruct y as [|c y]; [reflexivity|]. cbn. destruct (rfind E n c) as [m|] eqn:F; [|reflexivity].
    exfalso. apply (H c y m eq_refl). cbn. eapply rfind_node; eauto.
  - cbn. destruct (rfind E n a) as [m|] eqn:F; [|reflexivity]. rewrite (IH (k ++ [a]) m y); [reflexivity| |].
    + eapply rfind_node; eauto.
    + intros c y' m' Q. rewrite <- app_assoc. exact (H c y' m' Q).
Qed.

Lemma skipn_add {A} (l : list A) : forall i j, skipn i (skipn j l) = skipn (j + i) l.
Proof.
  induction l as [|a l IH]; intros i j; [now rewrite !skipn_nil|]. destruct j; [reflexivity|]. cbn. apply IH.
Qed.

Lemma rconv_split E up : std_ok E -> forall x o y,
  (forall a b c y' v, x = a ++ b -> b <> [] -> y = c :: y' -> ~ r_entry (b ++ [c]) v) ->
  rconv E up o (x ++ y) = rconv E up o x ++ rconv E up (skipn (length x) o) y.
Proof.
  intros HE x. induction x as [x IH] using str_ind_len. intros o y H. destruct x as [|c x]; [reflexivity|].
  assert (K : rw E RT ((c :: x) ++ y) = rw E RT (c :: x)).
  { apply (rw_app E HE (c :: x) [] RT y r_root). intros d y' m Q R.
    apply (H [] (c :: x) d y' (rout m)); auto; [discriminate|]. apply r_entry_node. split; [discriminate|]. eauto. }
  change ((c :: x) ++ y) with (c :: (x ++ y)) in *. rewrite !rconv_cons.
  assert (S : rstep E up o c (x ++ y) = rstep E up o c x) by (unfold rstep; rewrite K; reflexivity).
  assert (L : (1 <= snd (rstep E up o c x) <= length (c :: x))%nat).
  { split; [apply rstep_pos|]. unfold rstep. destruct (rw E RT (c :: x)) as [n i] eqn:W.
    destruct (rw_spec E HE _ _ _ _ _ r_root W) as (L & _). destruct i; cbn [snd length] in *; lia. }
  rewrite S. set (i := snd (rstep E up o c x)) in *. change (c :: x ++ y) with ((c :: x) ++ y). rewrite skipn_app.
  replace (i - length (c :: x))%nat with 0%nat by lia. cbn [skipn]. rewrite IH.
  - rewrite app_assoc. f_equal. f_equal. rewrite skipn_add, skipn_length. f_equal. lia.
  - rewrite skipn_length. lia.
  - intros a b d y' v Q. apply (H (firstn i (c :: x) ++ a) b d y' v). rewrite <- app_assoc, <- Q. symmetry. apply firstn_skipn.
Qed.

Lemma rconv_orig E up : std_ok E -> forall s o o', (length s <= length o)%nat -> rconv E up (o ++ o') s = rconv E up o s.
Proof.
  intros HE s. induction s as [s IH] using str_ind_len. intros o o' L. destruct s as [|c s]; [reflexivity|].
  rewrite !rconv_cons.
  assert (B : (1 <= snd (rstep E up o c s) <= length (c :: s))%nat).
  { split; [apply rstep_pos|]. unfold rstep. destruct (rw E RT (c :: s)) as [n i] eqn:W.
    destruct (rw_spec E HE _ _ _ _ _ r_root W) as (B & _). destruct i; cbn [snd length] in *; lia. }
  assert (S : rstep E up (o ++ o') c s = rstep E up o c s).
  { revert B. unfold rstep. destruct (rw E RT (c :: s)) as [n [|i]]; [reflexivity|]. cbn [snd]. intro B.
    rewrite firstn_app. replace (S i - length o)%nat with 0%nat by lia. cbn [firstn]. now rewrite app_nil_r. }
  rewrite S. f_equal. rewrite skipn_app. replace (snd (rstep E up o c s) - length o)%nat with 0%nat by lia.
  cbn [skipn]. apply IH; rewrite !skipn_length; lia.
Qed.

Lemma k2h_go_split E d c y : ~ In c (u "ー・ヵヶ") -> forall x pc pk,
  k2h_go E d pc pk (x ++ c :: y) = k2h_go E d pc pk x ++ k2h_go E d None None (c :: y).
Proof.
  intro N. change (u "ー・ヵヶ") with [0x30FC; 0x30FB; 0x30F5; 0x30F6] in N. cbn [In] in N.
  assert (A : is_char_long_dash c = false) by (apply N.eqb_neq; intro Q; apply N; left; now symmetry).
  assert (B : is_char_slash_dot c = false) by (apply N.eqb_neq; intro Q; apply N; right; left; now symmetry).
  assert (C : is_kana_as_symbol c = false).
  { unfold is_kana_as_symbol. apply orb_false_iff. split; apply N.eqb_neq; intro Q; apply N; [now do 3 right; left|now do 2 right; left]. }
  induction x as [|a x IH]; intros pc pk.
  - cbn [app k2h_go]. rewrite A, B, C. cbn [andb orb negb]. destruct pc, pk; reflexivity.
  - cbn [app k2h_go]. rewrite !IH.
    destruct (_ || _); [reflexivity|]. destruct pc as [q|], pk as [p|]; destruct (is_char_long_dash a); cbn [negb andb];
      try (destruct (is_char_katakana a); reflexivity); try reflexivity. now rewrite app_assoc.
Qed.
Lemma k2h_split E d x c y : ~ In c (u "ー・ヵヶ") -> k2h E d (x ++ c :: y) = k2h E d x ++ k2h E d (c :: y).
Proof. intro N. now apply k2h_go_split. Qed.

Lemma k2h_head E d c c' y : std_ok E -> c <> long_mark -> hiragana_for c c' -> exists r, k2h E d (c :: y) = c' :: r.
Proof.
  intros HE N H. pose proof (k2h_text E d (c :: y) HE) as T. inversion T as [|? ? ? p t Hp HT Q1 Q2]; subst.
  destruct Hp as [(_ & h & A & ->)|[(B & _)|(B & _)]]; [|contradiction|contradiction].
  apply k2hc_spec in A, H. subst. now exists t.
Qed.

Lemma rom_split E o x c c' y : std_ok E -> ~ In c (u "ー・ヵヶ") -> hiragana_for c c' ->
  (forall h, hiragana_text (u "お") [] x h -> forall a b v, h = a ++ b -> b <> [] -> ~ r_entry (b ++ [c']) v) ->
  (upcase_katakana o = true -> drops_no_mark x) ->
  exists rx ry, to_romaji_with_opt E x o = Ok rx /\ to_romaji_with_opt E (c :: y) o = Ok ry
    /\ to_romaji_with_opt E (x ++ c :: y) o = Ok (rx ++ ry).
Proof.
  intros HE N H S D. rewrite !to_romaji_with_opt_eq by exact HE. eexists. eexists. split; [reflexivity|].
  split; [reflexivity|]. f_equal. rewrite k2h_split by exact N.
  assert (T : hiragana_text (u "お") [] x (k2h E true x)) by exact (k2h_text E true x HE).
  rewrite rconv_split; [|exact HE|].
  - destruct (upcase_katakana o).
    + assert (L : length (k2h E true x) = length x).
      { apply (text_length [] x _ T). intros a b k Q _ K. exact (D eq_refl a b k Q K). }
      rewrite L. f_equal; [apply rconv_orig; [exact HE|lia]|].
      rewrite skipn_app, skipn_all, Nat.sub_diag. reflexivity.
    + f_equal; now apply rconv_noup.
  - intros a b d y' v Q B Q'. assert (M : c <> long_mark) by (intro M; apply N; left; symmetry; exact M).
    destruct (k2h_head E true c c' y HE M H) as (r & R). rewrite R in Q'. inversion Q'; subst.
    exact (S _ T a b v Q B).
Qed.

(** keys of two or more kana end in a small kana or begin with っ or ん *)
Definition long_keys : bool :=
  forallb (fun e => match rev (fst e) with
    | z :: y :: _ => existsb (N.eqb z) (u "ぃぇゃゅょ") || existsb (N.eqb y) (u "っん")
    | _ => true end) rdict.
Lemma long_keys_ok : long_keys = true.
Proof. vm_compute. reflexivity. Qed.
Lemma long_key b d c v : r_entry ((b ++ [d]) ++ [c]) v -> In c (u "ぃぇゃゅょ") \/ In d (u "っん").
Proof.
  intro I. pose proof long_keys_ok as F. unfold long_keys in F. rewrite forallb_forall in F.
  specialize (F _ I). cbn [fst] in F. rewrite !rev_app_distr in F. cbn [rev app] in F.
  apply orb_prop in F. destruct F as [F|F]; apply existsb_In in F; auto.
Qed.

Lemma text_snoc o x d : d <> long_mark -> forall a h, hiragana_text o a (x ++ [d]) h ->
  exists h0 d', h = h0 ++ [d'] /\ hiragana_for d d'.
Proof.
  intro N. induction x as [|c x IH]; intros a h T; inversion T as [|? ? ? p t Hp HT Q1 Q2]; subst.
  - inversion HT; subst. destruct Hp as [(_ & e & A & ->)|[(B & _)|(B & _)]]; [|contradiction|contradiction].
    exists [], e. auto.
  - apply IH in HT. destruct HT as (h0 & d' & -> & A). exists (p ++ h0), d'. now rewrite app_assoc.
Qed.

Lemma hira_sokuon_n d d' : hiragana_for d d' -> In d' (u "っん") -> In d (u "っッんン").
Proof.
  intros H I. change (u "っん") with [0x3063; 0x3093] in I. change (u "っッんン") with [0x3063; 0x30C3; 0x3093; 0x30F3].
  unfold hiragana_for in H. change (ch "ヷ") with 0x30F7 in H. change (ch "わ") with 0x308F in H.
  change (ch "ヸ") with 0x30F8 in H. change (ch "ゐ") with 0x3090 in H. change (ch "ヹ") with 0x30F9 in H.
  change (ch "ゑ") with 0x3091 in H. change (ch "ヺ") with 0x30FA in H. change (ch "を") with 0x3092 in H.
  cbn [In] in *. lia.
Qed.

Lemma no_long_key x c' : (forall x0 d, x = x0 ++ [d] -> ~ In d (u "っッんンー")) -> ~ In c' (u "ぃぇゃゅょ") ->
  forall h, hiragana_text (u "お") [] x h -> forall a b v, h = a ++ b -> b <> [] -> ~ r_entry (b ++ [c']) v.
Proof.
  intros X C h T a b v -> B I. destruct (exists_last B) as (b' & e & ->). apply long_key in I.
  destruct I as [I|I]; [contradiction|]. destruct x as [|x1 x2] eqn:Q.
  - inversion T as [? Q1|]. destruct a; [destruct b'|]; discriminate.
  - destruct (@exists_last _ (x1 :: x2)) as (x0 & d & P); [discriminate|]. rewrite P in T.
    specialize (X x0 d P). assert (M : d <> long_mark) by (intros ->; apply X; do 4 right; now left).
    destruct (text_snoc _ _ _ M _ _ T) as (h0 & d' & Q' & A). rewrite app_assoc in Q'. apply app_inj_tail in Q'.
    destruct Q' as [_ ->]. apply (hira_sokuon_n d d' A) in I. apply X.
    change (u "っッんンー") with (u "っッんン" ++ u "ー"). apply in_or_app. now left.
Qed.

(** ** Kana that can be typed *)
Definition typeable_b (m : mode) (c : N) : bool :=
  (((0x3041 <=? c) && (c <=? 0x3096)) && negb (existsb (N.eqb c) (u "ゕゖ"))
     && (negb (existsb (N.eqb c) (u "ゐゑ")) || match m with Obsolete => true | _ => false end))
  || (((0x30A1 <=? c) && (c <=? 0x30FA)) && negb (existsb (N.eqb c) (u "ヷヸヹヺ"))
     && (negb (existsb (N.eqb c) (u "ヰヱ")) || match m with Obsolete => true | _ => false end))
  || existsb (N.eqb c) (u "・ー").
Lemma existsb_not_In c l : existsb (N.eqb c) l = false <-> ~ In c l.
Proof. rewrite <- existsb_In. destruct (existsb (N.eqb c) l); intuition congruence. Qed.
Lemma obsolete_dec m b : (match m with Obsolete => true | _ => false end = b) -> (b = true <-> m = Obsolete).
Proof. intros <-. destruct m; intuition congruence. Qed.
Lemma typeable_spec m c : typeable_b m c = true <-> typeable_kana m c.
Proof.
  unfold typeable_b, typeable_kana, hiragana_letter, katakana_letter.
  rewrite !orb_true_iff, !andb_true_iff, !orb_true_iff, !negb_true_iff, !existsb_not_In, !N.leb_le, existsb_In.
  rewrite (obsolete_dec m _ eq_refl).
  destruct (in_dec N.eq_dec c (u "ゐゑ")), (in_dec N.eq_dec c (u "ヰヱ")); tauto.
Qed.

(** how a kana is typed *)
Definition up_key (k : str) : str := map (fun c => c - 32) k.
Definition typed (m : mode) (c : N) : option str :=
  match find (fun e => str_eqb (snd e) [c] && negb (str_eqb (fst e) (u "n"))) (dict m) with
  | Some e => Some (fst e)
  | None =>
    match find (fun e => str_eqb (snd e) [c - 96] && forallb (fun d => (0x61 <=? d) && (d <=? 0x7A)) (fst e)
                         && negb (str_eqb (fst e) (u "n"))) (dict m) with
    | Some e => Some (up_key (fst e))
    | None => None
    end
  end.
Definition typed_ok (m : mode) (c : N) : bool :=
  match typed m c with
  | Some seg => forallb (fun d => d <? 128) seg
                && existsb (fun e => str_eqb (fst e) (low seg) && negb (str_eqb (fst e) (u "n")) && str_eqb (emit seg (snd e)) [c]) (dict m)
  | None => negb (typeable_b m c)
  end.
Definition all_kana : list N := Eval vm_compute in
  map (fun i => 0x3041 + N.of_nat i) (seq 0 86) ++ map (fun i => 0x30A1 + N.of_nat i) (seq 0 92).
Lemma typed_table m : forallb (typed_ok m) all_kana = true.
Proof. destruct m; vm_compute; reflexivity. Qed.

Lemma in_all_kana c : kana_char_or_mark c -> In c all_kana.
Proof.
  intro K. assert (B : 0x3041 <= c <= 0x3096 \/ 0x30A1 <= c <= 0x30FC).
  { destruct K as [K|[K|K]]; unfold hiragana_letter, katakana_letter in *; [lia|lia|].
    change (u "・ー") with [0x30FB; 0x30FC] in K. cbn [In] in K. lia. }
  change all_kana with (map (fun i => 0x3041 + N.of_nat i) (seq 0 86) ++ map (fun i => 0x30A1 + N.of_nat i) (seq 0 92)).
  apply in_or_app. destruct B as [B|B]; [left|right]; apply in_map_iff.
  - exists (N.to_nat (c - 0x3041)). split; [rewrite N2Nat.id; lia|]. apply in_seq. lia.
  - exists (N.to_nat (c - 0x30A1)). split; [rewrite N2Nat.id; lia|]. apply in_seq. lia.
Qed.

Lemma typeable_is_kana m c : typeable_kana m c -> kana_char_or_mark c.
Proof. unfold typeable_kana, kana_char_or_mark. tauto. Qed.

Lemma type_one m c : typeable_kana m c ->
  exists seg, Forall ascii seg /\ forall rest, conv m (seg ++ rest) = c :: conv m rest.
Proof.
  intro T. pose proof (typed_table m) as F. rewrite forallb_forall in F.
  specialize (F c (in_all_kana c (typeable_is_kana m c T))). unfold typed_ok in F.
  destruct (typed m c) as [seg|]; [|apply typeable_spec in T; rewrite T in F; discriminate].
  apply andb_prop in F. destruct F as [A B]. apply existsb_exists in B. destruct B as ([k v] & I & B). cbn [fst snd] in B.
  apply andb_prop in B. destruct B as [B O]. apply andb_prop in B. destruct B as [K N].
  apply str_eqb_eq in K, O. subst k. apply negb_true_iff in N.
  exists seg. split.
  - apply Forall_forall. intros d D. rewrite forallb_forall in A. specialize (A d D). unfold ascii. lia.
  - intro rest. rewrite (conv_entry m seg (low seg) v rest I).
    + rewrite O. reflexivity.
    + apply (only_n_extended m _ v I). intro Q. rewrite Q in N. discriminate.
    + now apply casing_low.
Qed.

Lemma type_text m s : Forall (typeable_kana m) s -> exists r, Forall ascii r /\ conv m r = s.
Proof.
  induction 1 as [|c s T F (r & A & <-)]; [now exists []|].
  destruct (type_one m c T) as (seg & B & C). exists (seg ++ r). split; [now apply Forall_app|]. apply C.
Qed.

Lemma conv_source m : forall s x, In x (conv m s) -> In x s \/ exists seg v, entry m (low seg) v /\ In x (emit seg v).
Proof.
  induction s as [s IH] using str_ind_len. intros x. destruct s as [|c s]; [auto|].
  destruct (kconv_step m c s) as [(seg & rest & n & v & Sp & N & K & A & O & R & ->)|[O ->]].
  - intro I. apply in_app_or in I. destruct I as [I|I].
    + right. exists seg, v. split; [|exact I]. apply entry_node. eauto.
    + apply IH in I; [|rewrite Sp, app_length; destruct seg; [congruence|]; cbn; lia].
      destruct I as [I|I]; [left; rewrite Sp; apply in_or_app; now right|now right].
  - intros [->|I]; [left; now left|]. apply IH in I; [|cbn; lia]. destruct I as [I|I]; [left; now right|now right].
Qed.

Definition kana_b (c : N) : bool := ((0x3041 <=? c) && (c <=? 0x3096)) || ((0x30A1 <=? c) && (c <=? 0x30FC)).
Definition outputs_typeable (m : mode) : bool :=
  forallb (fun e => forallb (fun c => (negb (kana_b c) || typeable_b m c) && (negb (kana_b (h2k_char c)) || typeable_b m (h2k_char c))) (snd e)) (dict m).
Lemma outputs_typeable_ok m : outputs_typeable m = true.
Proof. destruct m; vm_compute; reflexivity. Qed.
Lemma kana_b_spec c : kana_b c = false -> ~ kana_char_or_mark c.
Proof.
  unfold kana_b, kana_char_or_mark, hiragana_letter, katakana_letter. change (u "・ー") with [0x30FB; 0x30FC]. cbn [In].
  intros H K. apply orb_false_iff in H. destruct H as [H1 H2]. apply andb_false_iff in H1, H2.
  rewrite !N.leb_gt in H1, H2. lia.
Qed.

Lemma output_typeable m k v c : entry m k v -> In c v \/ In c (h2k v) -> kana_char_or_mark c -> typeable_kana m c.
Proof.
  intros I C K. pose proof (outputs_typeable_ok m) as F. unfold outputs_typeable in F. rewrite forallb_forall in F.
  specialize (F _ I). cbn [snd] in F. rewrite forallb_forall in F. apply typeable_spec.
  assert (G : forall b, (negb (kana_b c) || b) = true -> b = true).
  { intros b H. destruct (kana_b c) eqn:Q; [exact H|]. now apply kana_b_spec in Q. }
  destruct C as [C|C].
  - specialize (F c C). apply andb_prop in F. now apply G.
  - unfold h2k in C. apply in_map_iff in C. destruct C as (d & <- & D). specialize (F d D). apply andb_prop in F. now apply G.
Qed.

Lemma typed_only m r c : Forall ascii r -> In c (conv m r) -> kana_char_or_mark c -> typeable_kana m c.
Proof.
  intros A I K. apply conv_source in I. destruct I as [I|(seg & v & I & C)].
  - rewrite Forall_forall in A. specialize (A c I). unfold ascii in A. exfalso.
    destruct K as [K|[K|K]]; unfold hiragana_letter, katakana_letter in *; [lia|lia|].
    change (u "・ー") with [0x30FB; 0x30FC] in K. cbn [In] in K. lia.
  - apply (output_typeable m (low seg) v c I); [|exact K]. unfold emit in C. destruct (forallb is_AZ seg); auto.
Qed.

(** ** to_hiragana and to_katakana of ASCII text *)
Lemma ascii_romaji s : Forall ascii s -> s <> [] -> is_romaji s = true.
Proof.
  intros A N. apply romaji_text_spec. split; [exact N|]. intros c I. rewrite Forall_forall in A. specialize (A c I).
  unfold ascii in A. left. unfold between. lia.
Qed.
Lemma ascii_not_mixed s : Forall ascii s -> is_mixed s = false.
Proof.
  intro A. destruct (is_mixed s) eqn:M; [|reflexivity]. apply mixed_spec in M. destruct M as [(c & I & K) _].
  rewrite Forall_forall in A. specialize (A c I). unfold ascii in A. exfalso. clear - A K. revert K. unfold S_hiragana, S_katakana, between. lia.
Qed.
Lemma ascii_k2h E d s : Forall ascii s -> k2h E d s = s.
Proof.
  intro A. rewrite Forall_forall in A. rewrite k2h_no_dash by (intro I; specialize (A _ I); unfold ascii, long_mark in A; lia).
  rewrite <- (map_id s) at 2. apply map_ext_in. intros c I. specialize (A c I). unfold ascii in A. apply k2hc_spec.
  unfold hiragana_for. do 5 right. split; [lia|]. split; [lia|reflexivity].
Qed.
Lemma ascii_h2k s : Forall ascii s -> h2k s = s.
Proof.
  intro A. rewrite Forall_forall in A. apply h2k_spec. induction s as [|c s IH]; constructor.
  - right. specialize (A c (or_introl eq_refl)). unfold ascii in A. split; [lia|reflexivity].
  - apply IH. intros x I. apply A. now right.
Qed.
Lemma ascii_caseless s : Forall ascii s -> ascii_or_caseless s.
Proof. intros A c I. rewrite Forall_forall in A. left. now apply A. Qed.
Lemma hira_ascii E o s : std_ok E -> Forall ascii s ->
  hira_pure E o s = if pass_romaji o then s else conv (mode_of o) (low s).
Proof.
  intros HE A. unfold hira_pure. rewrite k_tree_mode, ascii_k2h, ascii_not_mixed, lower_low by auto using ascii_caseless.
  destruct (pass_romaji o); [reflexivity|]. destruct s as [|c s]; [reflexivity|].
  rewrite ascii_romaji by (auto; discriminate). reflexivity.
Qed.
Lemma kata_ascii E o s : std_ok E -> Forall ascii s ->
  kata_pure E o s = if pass_romaji o then s else h2k (conv (mode_of o) (low s)).
Proof.
  intros HE A. unfold kata_pure. rewrite k_tree_mode, ascii_h2k, ascii_not_mixed, lower_low by auto using ascii_caseless.
  destruct (pass_romaji o); [reflexivity|]. destruct s as [|c s]; [reflexivity|].
  rewrite ascii_romaji by (auto; discriminate). reflexivity.
Qed.
Lemma ascii_lower_twice c : ascii_lower (ascii_lower c) = ascii_lower c.
Proof. unfold ascii_lower. ifs; lia. Qed.
Lemma conv_low_split m x d y : ~ In (ascii_lower d) (u "bcdfghjklmnpqrstvwxyz") ->
  conv m (low ((x ++ [d]) ++ y)) = conv m (low (x ++ [d])) ++ conv m (low y).
Proof.
  intro H. rewrite !low_app. cbn [low map]. apply conv_split_after. now rewrite ascii_lower_twice.
Qed.
