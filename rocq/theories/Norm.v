(** * Decomposed kana (proofs for C106) *)
From Verif Require Import Tac Base Std Constants Chars Trees KanaTree RomajiTree Strings Tokenize Convert
  KanaPure RomajiPure KanaSpec KanaDict KanaProofs Predicates ScriptSpec ScriptProofs TokenSpec TokenizeProofs NormSpec.

(** ** The table *)
Definition keys : str := Eval vm_compute in map fst composed.
Lemma dec1_cases c : (~ is_composed c /\ decompose_char c = [c]) \/ (exists p, In (c, p) composed /\ decompose_char c = p).
Proof.
  unfold decompose_char, is_composed. destruct (find _ composed) as [[d p]|] eqn:F.
  - right. apply find_some in F as [I Q]. apply N.eqb_eq in Q. cbn in Q. subst d. now exists p.
  - left. split; [|reflexivity]. intros I. apply in_map_iff in I as ([d p] & <- & I). apply (find_none _ _ F) in I.
    cbn in I. now rewrite N.eqb_refl in I.
Qed.
Lemma table (P : N * str -> bool) : forallb P composed = true -> forall c p, In (c, p) composed -> P (c, p) = true.
Proof. intros H c p I. rewrite forallb_forall in H. exact (H _ I). Qed.
Definition mark_b (x : N) : bool := (x =? voicing) || (x =? semivoicing).
(** each entry is a kana and a mark *)
Lemma shape c p : In (c, p) composed -> exists b v, p = [b; v] /\ (v = voicing \/ v = semivoicing) /\ 0x3041 <= b <= 0x30FD /\ 0x304C <= c <= 0x30FE.
Proof.
  intros I. pose proof (table (fun e => match snd e with [b; v] => mark_b v && (0x3041 <=? b) && (b <=? 0x30FD) && (0x304C <=? fst e) && (fst e <=? 0x30FE) | _ => false end) eq_refl c p I) as H.
  cbn in H. destruct p as [|b [|v [|]]]; try discriminate. exists b, v. unfold mark_b in H. split; [reflexivity|]. lia.
Qed.
Lemma not_composed_small c : c < 0x304C \/ 0x30FE < c -> ~ is_composed c.
Proof.
  intros H I. apply in_map_iff in I as ([d p] & <- & I). destruct (shape d p I) as (b & v & _ & _ & _ & R). cbn in H. lia.
Qed.
Lemma dec1_other c : ~ is_composed c -> decompose_char c = [c].
Proof. intros H. destruct (dec1_cases c) as [[_ E]|(p & I & _)]; [exact E|]. destruct H. apply in_map_iff. now exists (c, p). Qed.
Lemma dec1_in c : is_composed c -> exists p, In (c, p) composed /\ decompose_char c = p.
Proof. intros H. destruct (dec1_cases c) as [[N _]|X]; [contradiction|exact X]. Qed.
Lemma dec_app a b : decompose (a ++ b) = decompose a ++ decompose b.
Proof. apply flat_map_app. Qed.
Lemma dec_twice : forall s, decompose (decompose s) = decompose s.
Proof.
  assert (T : forallb (fun e => str_eqb (decompose (snd e)) (snd e)) composed = true) by (vm_compute; reflexivity).
  induction s as [|c s IH]; [reflexivity|]. cbn [decompose flat_map]. fold (decompose s). rewrite dec_app, IH. f_equal.
  destruct (dec1_cases c) as [[H ->]|(p & I & ->)].
  - cbn. now rewrite dec1_other.
  - apply (table _ T) in I. now apply str_eqb_eq in I.
Qed.
Lemma dec_same s : decompose s = s <-> forall c, In c s -> ~ is_composed c.
Proof.
  split.
  - intros H. assert (L : length (decompose s) = length s) by now rewrite H. clear H.
    assert (G : forall s, (length s <= length (decompose s))%nat).
    { clear. induction s as [|c s IH]; [apply le_n|]. cbn [decompose flat_map]. fold (decompose s). rewrite app_length.
      destruct (dec1_cases c) as [[H ->]|(p & I & ->)]; [cbn; lia|]. destruct (shape c p I) as (b & v & -> & _). cbn. lia. }
    induction s as [|c s IH]; [intros c []|]. cbn [decompose flat_map length] in L. fold (decompose s) in L. rewrite app_length in L. specialize (G s).
    destruct (dec1_cases c) as [[H X]|(p & I & X)]; rewrite X in L.
    + intros d [<-|D]; [exact H|]. apply IH; [|exact D]. cbn in L. lia.
    + destruct (shape c p I) as (b & v & -> & _). cbn in L. lia.
  - induction s as [|c s IH]; intros H; [reflexivity|]. cbn [decompose flat_map]. fold (decompose s).
    rewrite dec1_other, IH; [reflexivity| |]; intros; apply H; cbn; auto.
Qed.

(** ** Predicates *)
Lemma dec_existsb (f : N -> bool) : forallb (fun e => Bool.eqb (existsb f (snd e)) (f (fst e))) composed = true ->
  forall s, existsb f (decompose s) = existsb f s.
Proof.
  intros T. induction s as [|c s IH]; [reflexivity|]. cbn [decompose flat_map existsb]. fold (decompose s). rewrite existsb_app, IH. f_equal.
  destruct (dec1_cases c) as [[_ ->]|(p & I & ->)]; [cbn; apply orb_false_r|]. apply (table _ T) in I. now apply eqb_prop in I.
Qed.
Lemma dec_forallb (f : N -> bool) : forallb (fun e => Bool.eqb (forallb f (snd e)) (f (fst e))) composed = true ->
  forall s, forallb f (decompose s) = forallb f s.
Proof.
  intros T. induction s as [|c s IH]; [reflexivity|]. cbn [decompose flat_map forallb]. fold (decompose s). rewrite forallb_app, IH. f_equal.
  destruct (dec1_cases c) as [[_ ->]|(p & I & ->)]; [cbn; apply andb_true_r|]. apply (table _ T) in I. now apply eqb_prop in I.
Qed.
Lemma dec_empty s : is_empty (decompose s) = is_empty s.
Proof.
  destruct s as [|c s]; [reflexivity|]. cbn [decompose flat_map]. destruct (dec1_cases c) as [[_ ->]|(p & I & ->)]; [reflexivity|].
  destruct (shape c p I) as (b & v & -> & _). reflexivity.
Qed.
Lemma dec_romaji s : is_romaji (decompose s) = is_romaji s.
Proof. unfold is_romaji. rewrite dec_empty, dec_forallb by (vm_compute; reflexivity). reflexivity. Qed.
Lemma dec_japanese s : is_japanese (decompose s) = is_japanese s.
Proof. unfold is_japanese. rewrite dec_empty, dec_forallb by (vm_compute; reflexivity). reflexivity. Qed.
Lemma dec_kanji s : is_kanji (decompose s) = is_kanji s /\ contains_kanji (decompose s) = contains_kanji s.
Proof. unfold is_kanji, contains_kanji. rewrite dec_empty, dec_forallb, dec_existsb by (vm_compute; reflexivity). auto. Qed.
Lemma dec_mixed s b : is_mixed_pass_kanji (decompose s) b = is_mixed_pass_kanji s b.
Proof. unfold is_mixed_pass_kanji. rewrite !dec_existsb by (vm_compute; reflexivity). reflexivity. Qed.
Lemma dec_first s : first_punct (decompose s) = first_punct s.
Proof.
  destruct s as [|c s]; [reflexivity|]. unfold first_punct. cbn [decompose flat_map].
  destruct (dec1_cases c) as [[_ ->]|(p & I & ->)]; [reflexivity|].
  pose proof (table (fun e => match snd e with b :: _ => Bool.eqb (is_char_english_punctuation b) (is_char_english_punctuation (fst e)) | [] => false end) ltac:(vm_compute; reflexivity) c p I) as H.
  destruct p as [|b p]; [discriminate|]. cbn [snd fst] in H. apply eqb_prop in H. cbn. exact H.
Qed.
(** the predicates that a mark fails *)
Lemma dec_strict (f : N -> bool) : f voicing = false -> f semivoicing = false -> forall s,
  (if is_empty (decompose s) then false else forallb f (decompose s)) = true <->
  (if is_empty s then false else forallb f s) = true /\ decompose s = s.
Proof.
  intros F1 F2 s. split; [|intros [H ->]; exact H]. rewrite dec_empty. destruct (is_empty s); [discriminate|]. intros H.
  assert (D : decompose s = s).
  { apply dec_same. intros c I C. destruct (dec1_in c C) as (p & J & X). destruct (shape c p J) as (b & v & -> & V & _).
    rewrite forallb_forall in H. assert (Q : f v = true).
    { apply H. apply in_flat_map. exists c. split; [exact I|]. rewrite X. now right; left. }
    destruct V as [-> | ->]; congruence. }
  rewrite D in H. auto.
Qed.

(** ** Hiragana to katakana *)
Lemma dec_h2k : forall s, h2k (decompose s) = decompose (h2k s).
Proof.
  assert (T : forallb (fun e => str_eqb (h2k (snd e)) (decompose_char (h2k_char (fst e)))) composed = true) by (vm_compute; reflexivity).
  induction s as [|c s IH]; [reflexivity|]. cbn [decompose flat_map h2k map]. fold (decompose s). unfold h2k in *. rewrite map_app, IH. f_equal.
  destruct (dec1_cases c) as [[N ->]|(p & I & ->)].
  - cbn. symmetry. apply dec1_other. intro C. destruct (h2k_char_spec c (h2k_char c)) as [_ K]. specialize (K eq_refl).
    destruct (N.eq_dec (h2k_char c) c) as [Q|Q]; [rewrite Q in C; exact (N C)|].
    assert (B : 0x3041 <= c <= 0x3096 /\ h2k_char c = c + 96).
    { unfold katakana_for in K. lia. }
    destruct B as [B Q']. rewrite Q' in C. clear K Q Q'.
    assert (T2 : forallb (fun d => negb (existsb (N.eqb (d + 96)) keys) || existsb (N.eqb d) keys) (map (fun n => 0x3041 + N.of_nat n) (seq 0 86)) = true) by (vm_compute; reflexivity).
    rewrite forallb_forall in T2. specialize (T2 c). apply N. change keys with (map fst composed) in T2.
    assert (I : In c (map (fun n => 0x3041 + N.of_nat n) (seq 0 86))).
    { apply in_map_iff. exists (N.to_nat (c - 0x3041)). split; [lia|]. apply in_seq. lia. }
    specialize (T2 I). apply orb_prop in T2 as [T2|T2].
    + apply negb_true_iff in T2. assert (X : existsb (N.eqb (c + 96)) (map fst composed) = true) by (apply existsb_exists; exists (c + 96); split; [exact C|apply N.eqb_refl]). congruence.
    + apply existsb_exists in T2 as (x & J & Y). apply N.eqb_eq in Y. subst x. exact J.
  - apply (table _ T) in I. apply str_eqb_eq in I. exact I.
Qed.

(** ** Romaji to kana *)
Lemma kana_in_no_key m x : 0x3041 <= x <= 0x30FE -> in_no_key m x.
Proof.
  intros B. apply in_no_key_low. intros k v I J.
  assert (T : forallb (fun e => forallb (fun d => negb ((0x3041 <=? d) && (d <=? 0x30FE))) (fst e)) (dict m) = true) by (destruct m; vm_compute; reflexivity).
  rewrite forallb_forall in T. specialize (T _ I). cbn [fst] in T. rewrite forallb_forall in T. specialize (T _ J).
  assert (L : ascii_lower x = x) by (unfold ascii_lower; replace ((0x41 <=? x) && (x <=? 0x5A)) with false by lia; reflexivity).
  rewrite L in T. lia.
Qed.
Lemma dec_conv m : forall s x, decompose (conv m (x ++ decompose s)) = decompose (conv m (x ++ s)).
Proof.
  induction s as [|c s IH]; intros x; [reflexivity|]. cbn [decompose flat_map]. fold (decompose s).
  destruct (dec1_cases c) as [[N X]|(p & I & X)].
  - rewrite X. specialize (IH (x ++ [c])). rewrite <- !app_assoc in IH. exact IH.
  - rewrite X. destruct (shape c p I) as (b & v & -> & V & B & C). cbn [app].
    rewrite (conv_boundary m c s) by (apply kana_in_no_key; lia).
    rewrite (conv_boundary m b) by (apply kana_in_no_key; lia).
    assert (Cv : conv m (v :: decompose s) = v :: conv m (decompose s)) by (apply (conv_boundary m v (decompose s)) with (x := []); apply kana_in_no_key; unfold voicing, semivoicing in V; lia).
    rewrite Cv, !dec_app. f_equal. specialize (IH []). cbn [app] in IH.
    change (decompose (b :: v :: conv m (decompose s)) = decompose (c :: conv m s)).
    cbn [decompose flat_map]. fold (decompose (conv m (decompose s))) (decompose (conv m s)). rewrite IH, X.
    rewrite (app_assoc (decompose_char b)). f_equal.
    assert (Q := dec_twice [c]). cbn [decompose flat_map] in Q. rewrite app_nil_r, X in Q. cbn in Q. now rewrite app_nil_r in Q.
Qed.
(** ** Lower case, without capital sigma *)
Lemma lower_plain E : forall s b, ~ In SIGMA s -> to_lowercase_from E b s = flat_map (lower_char E) s.
Proof.
  induction s as [|c s IH]; intros b H; [reflexivity|]. cbn [to_lowercase_from flat_map]. rewrite IH by (intro; apply H; now right).
  destruct (N.eqb_spec c SIGMA) as [->|_]; [destruct H; now left|reflexivity].
Qed.
Lemma sigma_dec s : In SIGMA (decompose s) -> In SIGMA s.
Proof.
  intros H. apply in_flat_map in H as (c & I & J). destruct (dec1_cases c) as [[_ X]|(p & K & X)]; rewrite X in J.
  - destruct J as [->|[]]. exact I.
  - destruct (shape c p K) as (b & v & -> & V & B & _). unfold voicing, semivoicing, SIGMA in *. destruct J as [J|[J|[]]]; lia.
Qed.
Lemma kana_caseless c : 0x3041 <= c <= 0x30FE -> caseless c = true.
Proof. intros H. unfold caseless. lia. Qed.
Lemma dec_lower E s : std_ok E -> flat_map (lower_char E) (decompose s) = decompose (flat_map (lower_char E) s).
Proof.
  intros HE. induction s as [|c s IH]; [reflexivity|]. cbn [decompose flat_map]. fold (decompose s). rewrite flat_map_app, dec_app, IH. f_equal.
  destruct (dec1_cases c) as [[N X]|(p & I & X)]; rewrite X.
  - cbn. rewrite app_nil_r. symmetry. apply dec_same. intros d D C.
    destruct (caseless c) eqn:Q.
    + rewrite (ok_lower_caseless E HE c Q) in D. destruct D as [<-|[]]. exact (N C).
    + pose proof (ok_lower_other E HE c Q) as O. rewrite forallb_forall in O. specialize (O d D).
      destruct (dec1_in d C) as (p & I & _). destruct (shape d p I) as (b & v & _ & _ & _ & B). rewrite kana_caseless in O by lia. discriminate.
  - destruct (shape c p I) as (b & v & -> & V & B & C). rewrite (ok_lower_caseless E HE c) by (apply kana_caseless; lia).
    cbn. rewrite !(ok_lower_caseless E HE) by (apply kana_caseless; unfold voicing, semivoicing in V; lia). cbn. now rewrite X.
Qed.
Lemma dec_kata E o s : std_ok E -> (pass_romaji o = true \/ ~ In SIGMA s) ->
  decompose (kata_pure E o (decompose s)) = decompose (kata_pure E o s).
Proof.
  intros HE H. unfold kata_pure. destruct (pass_romaji o); [rewrite dec_h2k; apply dec_twice|].
  destruct H as [H|H]; [discriminate|]. rewrite dec_romaji. unfold is_mixed. rewrite dec_mixed.
  destruct (_ || _); [|rewrite dec_h2k; apply dec_twice].
  rewrite <- !dec_h2k. f_equal. unfold to_lowercase. rewrite !lower_plain by (intro I; try apply sigma_dec in I; exact (H I)).
  rewrite dec_lower by assumption. rewrite k_tree_mode. exact (dec_conv (mode_of o) _ []).
Qed.
