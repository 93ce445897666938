(** * Proofs of the theorems of Props_Trim.v *)
From Verif Require Import Base Tac Std Chars Strings Tokenize Chunk Predicates TokenSpec TokenizeProofs TrimProofs
  Utf8Proofs ChunkProofs.

Lemma firstn_concat (us : list str) : (forall t, In t us -> t <> []) -> forall n n', (n <= length us)%nat -> (n' <= length us)%nat ->
  concat (firstn n us) = concat (firstn n' us) -> n = n'.
Proof.
  induction us as [|a us IH]; intros H n n' L L' Q; [cbn in L, L'; lia|].
  assert (N : a <> []) by (apply H; now left).
  destruct n as [|n], n' as [|n']; cbn [firstn concat] in Q; [reflexivity| | |].
  - symmetry in Q. apply app_eq_nil in Q. tauto.
  - apply app_eq_nil in Q. tauto.
  - apply app_inv_head in Q. f_equal. apply IH; [intros t I; apply H; now right|cbn in L; lia|cbn in L'; lia|exact Q].
Qed.

Lemma C46_trim_part_proof :
  forall s from_start matcher, exists r n tok,
    trim_okurigana_with_opt s from_start matcher = Ok r /\
    (n = 0%nat \/ In tok (tokenize (source s matcher))) /\
    s = if from_start then copies n tok ++ r else r ++ copies n tok.
Proof.
  intros s b m. destruct (trim_total s b m) as (r & R). destruct (trim_part s b m r R) as (n & tok & A & B).
  exists r, n, tok. auto.
Qed.

Lemma C47_last_token_partial_proof :
  (forall s, trim_active s false None ->
     exists ts tok, tokenize s = ts ++ [tok] /\ trim_okurigana s = Ok (concat ts)) /\
  (forall s, trim_active s true None ->
     exists ts tok, tokenize s = tok :: ts /\ trim_okurigana_with_opt s true None = Ok (concat ts)) /\
  (forall s from_start, ~ trim_active s from_start None ->
     trim_okurigana_with_opt s from_start None = Ok s) /\
  (forall s, trim_okurigana s = trim_okurigana_with_opt s false None) /\
  (forall s from_start r c, trim_okurigana_with_opt s from_start None = Ok r ->
     In c s -> ~ S_kana c -> ~ S_ja_punct c -> In c r) /\
  (forall s from_start, trim_okurigana_with_opt s from_start None = Ok [] <->
     s = [] \/ (trim_active s from_start None /\ forall c, In c s -> S_ja_punct c /\ c <> 0x3000)).
Proof.
  split; [exact trim_no_matcher_end|]. split; [exact trim_no_matcher_start|].
  split; [intros s b; exact (trim_inactive s b None)|]. split; [reflexivity|].
  split; [intros s b r c R I K P; exact (trim_keeps s b c r I K P R)|exact trim_empty].
Qed.

Lemma C47_nonempty_refuted_proof :
  exists s, s <> [] /\ trim_okurigana s = Ok [] /\ trim_okurigana_with_opt s true None = Ok [].
Proof.
  exists (u "ー。ー"). vm_compute. repeat split; congruence.
Qed.

Lemma C48_okurigana_partial_proof :
  (forall p k h (K : N -> Prop),
    (K = between 0x3041 0x3096 \/ K = between 0x30A1 0x30FA) ->
    all_nonempty S_japanese p \/ p = [] -> S_kanji k -> all_nonempty K h ->
    trim_okurigana (p ++ [k] ++ h) = Ok (p ++ [k]) /\ trim_okurigana (p ++ [k]) = Ok (p ++ [k])) /\
  (forall s, all_nonempty S_japanese s -> (exists c, In c s /\ ~ S_kana c /\ ~ S_ja_punct c) ->
    exists ks us, tokenize s = ks ++ us /\ ~ ends_in_kana (concat ks) /\
      (forall t, In t us -> ends_in_kana t) /\
      (forall k, trim_times k s = Ok (concat (ks ++ firstn (length us - k) us))) /\
      (forall k, (length us <= k)%nat -> trim_times k s = Ok (concat ks)) /\
      (forall k k', trim_times k s = trim_times k' s <-> k = k' \/ (length us <= k /\ length us <= k')%nat)).
Proof.
  split; [exact trim_kana_tail|]. intros s [_ J] X.
  destruct (trim_iterated _ s (tokenize_tokenisation s false) J X) as (ks & us & A & B & C & D).
  exists ks, us. split; [exact A|]. split; [exact B|]. split; [exact C|]. split; [exact D|].
  assert (Z : forall k, (length us <= k)%nat -> trim_times k s = Ok (concat ks)).
  { intros k H. rewrite D. replace (length us - k)%nat with 0%nat by lia. cbn [firstn]. now rewrite app_nil_r. }
  split; [exact Z|]. intros k k'. split.
  - rewrite !D, !concat_app. intro Q. injection Q as Q. apply app_inv_head in Q.
    assert (N : forall t, In t us -> t <> []) by (intros t I ->; destruct (C [] I) as (p & c & Q1 & _); destruct p; discriminate Q1).
    apply (firstn_concat us N) in Q; lia.
  - intros [->|[H H']]; [reflexivity|]. now rewrite !Z.
Qed.

Lemma C48_okurigana_refuted_proof :
  exists s r r', contains_kanji s = true /\ trim_okurigana s = Ok r /\ ends_in_kana r /\
    trim_okurigana r = Ok r' /\ r' <> r.
Proof.
  exists (u "食べル"), (u "食べ"), (u "食"). split; [vm_compute; reflexivity|]. split; [vm_compute; reflexivity|].
  split; [|split; [vm_compute; reflexivity|vm_compute; congruence]].
  exists (u "食"), (ch "べ"). split; [vm_compute; reflexivity|]. left. left. vm_compute. split; congruence.
Qed.

Lemma C49_matcher_proof :
  forall ty, labels false ty ->
  (forall s from_start matcher, exists r, trim_okurigana_with_opt s from_start matcher = Ok r /\
     ((~ trim_active s from_start matcher /\ r = s) \/
      (trim_active s from_start matcher /\ exists tok,
         outer_token ty (source s matcher) from_start tok /\
         trimmed from_start tok s r))) /\
  (forall s from_start m, (forall c, In c m -> S_kanji c) ->
     trim_okurigana_with_opt s from_start (Some m) = Ok s) /\
  (forall s from_start m tok r, trim_active s from_start (Some m) ->
     outer_token ty m from_start tok ->
     (trim_okurigana_with_opt s from_start (Some m) = Ok r <-> trimmed from_start tok s r)) /\
  (forall s from_start m tok, outer_token ty m from_start tok ->
     ~ (if from_start then prefix_of tok s else suffix_of tok s) ->
     trim_okurigana_with_opt s from_start (Some m) = Ok s).
Proof.
  intros f L. pose proof (labels_eq false f L) as LE.
  assert (O : forall src b tok, outer_token f src b tok <-> outer_token (ty false) src b tok).
  { intros src b tok. split; intros (ts & T); exists ts; (eapply tokenisation_ext; [|exact T]); intro c; rewrite LE; reflexivity. }
  split; [|split; [exact trim_matcher_kanji|split]].
  - intros s b m. destruct (trim_characterised s b m) as (r & R & D). exists r. split; [exact R|].
    destruct D as [D|(A & tok & T & D)]; [now left|]. right. split; [exact A|]. exists tok. split; [now apply O|exact D].
  - intros s b m tok r A T. apply O in T. exact (trim_matcher s b m tok r A T).
  - intros s b m tok T. apply O in T. exact (trim_matcher_absent s b m tok T).
Qed.

Lemma C49_checks_proof :
  (forall s from_start, exists b, is_leading_without_initial_kana s from_start = Ok b /\
     (b = true <-> from_start = true /\ exists c r, s = c :: r /\ ~ S_kana c)) /\
  (forall s from_start, exists b, is_trailing_without_final_kana s from_start = Ok b /\
     (b = true <-> from_start = false /\ exists r c, s = r ++ [c] /\ ~ S_kana c)) /\
  (forall s m, is_invalid_matcher s (Some m) = true <-> forall c, In c m -> S_kanji c) /\
  (forall s, is_invalid_matcher s None = true <-> all_nonempty S_kana s).
Proof.
  assert (K : forall c, negb (is_char_kana c) = true <-> ~ S_kana c).
  { intro c. rewrite negb_true_iff, <- not_true_iff_false. apply not_iff_compat, kana_spec. }
  split; [|split; [|split]].
  - intros s b. destruct s as [|c s].
    + exists false. split; [reflexivity|]. split; [discriminate|]. intros (_ & c & r & Q & _). discriminate Q.
    + eexists. split; [apply lead_spec; discriminate|]. rewrite andb_true_iff, K. split; [intros [-> H]; eauto|].
      intros (-> & d & r & [= -> ->] & H). auto.
  - intros s b. destruct s as [|c s] using rev_ind.
    + exists false. split; [reflexivity|]. split; [discriminate|]. intros (_ & r & c & Q & _). now apply app_cons_not_nil in Q.
    + eexists. split; [apply trail_spec|]. rewrite andb_true_iff, K, negb_true_iff. split; [intros [-> H]; eauto|].
      intros (-> & r & d & Q & H). apply app_inj_tail in Q. destruct Q as [_ ->]. auto.
  - intros s m. cbn [is_invalid_matcher]. rewrite forallb_forall. split; intros H c I; apply kanji_spec, H, I.
  - intro s. cbn [is_invalid_matcher]. unfold is_kana, all_nonempty. destruct s as [|c s]; [cbn [is_empty]; split; [discriminate|intros [H _]; congruence]|].
    cbn [is_empty]. rewrite forallb_forall. split; [intro H; split; [discriminate|]|intros [_ H]]; intros d I; apply kana_spec, H, I.
Qed.

Lemma C50_get_chunk_proof :
  (forall s a b, (a <= b)%nat -> (a < length s)%nat ->
     get_chunk s a b = Ok (encode (firstn (b - a) (skipn a s)))) /\
  (forall s a b, (length s <= a)%nat -> get_chunk s a b = Ok (encode (firstn b s))) /\
  (forall s a b, get_chunk s a b = Panic <-> (b < a)%nat /\ (a < length s)%nat) /\
  (forall p m q, m <> [] -> get_chunk (p ++ m ++ q) (length p) (length p + length m) = Ok (encode m)).
Proof.
  assert (X : forall s a b, (a <= b)%nat -> (a < length s)%nat ->
     get_chunk s a b = Ok (encode (firstn (b - a) (skipn a s)))).
  { intros s a b H1 H2. rewrite get_chunk_eq. unfold resolve_start.
    rewrite (proj2 (Nat.ltb_lt _ _) H2), (proj2 (Nat.ltb_ge _ _) H1). reflexivity. }
  split; [exact X|]. split.
  { intros s a b H. rewrite get_chunk_eq. unfold resolve_start. rewrite (proj2 (Nat.ltb_ge _ _) H). cbn [andb skipn].
    now rewrite Nat.sub_0_r. }
  split.
  { intros s a b. rewrite get_chunk_eq. destruct (Nat.ltb_spec a (length s)), (Nat.ltb_spec b a); cbn [andb];
      split; intro Q; try discriminate; try reflexivity; try lia. }
  intros p m q M. rewrite X; [|lia|rewrite !app_length; destruct m; [congruence|cbn [length]; lia]].
  f_equal. f_equal. replace (length p + length m - length p)%nat with (length m) by lia.
  rewrite skipn_app, skipn_all, Nat.sub_diag. cbn [skipn app]. rewrite firstn_app, firstn_all, Nat.sub_diag. cbn [firstn].
  apply app_nil_r.
Qed.

Lemma C50_slices_proof :
  forall s a b,
    (forall r, str_slice (encode s) a b = Ok r <->
       exists p m q, s = p ++ m ++ q /\ a = length (encode p) /\ b = length (encode (p ++ m)) /\ r = encode m) /\
    (str_slice (encode s) a b = Panic <->
       ~ exists p m q, s = p ++ m ++ q /\ a = length (encode p) /\ b = length (encode (p ++ m))).
Proof.
  intros s a b. split; [intro r; apply str_slice_iff|]. rewrite str_slice_panic. split; intros H.
  - intros (p & m & q & S & A & B). apply H. exists (encode m). apply str_slice_iff. exists p, m, q. auto.
  - intros (r & Q). apply H. apply str_slice_iff in Q. destruct Q as (p & m & q & S & A & B & _). exists p, m, q. auto.
Qed.
