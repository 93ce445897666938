(** * Syllables of romanised text (proofs for C111) *)
From Verif Require Import Tac Base Std Constants Chars Trees KanaTree RomajiTree Strings Convert
  KanaPure RomajiPure KanaSpec KanaDict KanaProofs Predicates ScriptSpec ScriptProofs RomajiSpec RomajiProofs MoraProofs SyllablesSpec.

Definition hira_b (c : N) : bool := ((0x3041 <=? c) && (c <=? 0x3094)) || (c =? 0x30FC).
Definition kata_b (c : N) : bool := ((0x30A1 <=? c) && (c <=? 0x30F4)) || ((0x30F7 <=? c) && (c <=? 0x30FA)).
Lemma sounded_b c : sounded c <-> hira_b c = true \/ kata_b c = true.
Proof.
  unfold sounded, hiragana_letter, katakana_letter, hira_b, kata_b.
  change (In c (u "ゕゖヵヶ")) with (0x3095 = c \/ 0x3096 = c \/ 0x30F5 = c \/ 0x30F6 = c \/ False). change (ch "ー") with 0x30FC. lia.
Qed.
Lemma k2hc_sounded c : sounded c -> hira_b (k2hc c) = true.
Proof.
  intros S. rewrite sounded_b in S. unfold k2hc. symspec. unfold hira_b, kata_b in *.
  destruct (is_char_slash_dot c || ((0x30F6 =? c) || (0x30F5 =? c)) || is_char_long_dash c) eqn:A.
  { charspec. lia. }
  destruct (is_char_katakana c) eqn:B; [|charspec; lia].
  destruct (c <=? 0x30F6) eqn:C.
  - rewrite hira_of_kata_shift by (charspec; lia). charspec. lia.
  - rewrite hira_of_kata_va by (charspec; lia). charspec. ifs; lia.
Qed.
Lemma k2h_sounded E s : Forall sounded s -> Forall (fun c => hira_b c = true) (k2h E true s).
Proof.
  rewrite !Forall_forall. intros H x I. apply k2h_go_In in I as [I|[_ I]].
  - apply in_map_iff in I as (c & <- & I). apply k2hc_sounded. exact (H c I).
  - vm_compute in I. destruct I as [<-|[<-|[<-|[<-|[<-|[]]]]]]; reflexivity.
Qed.
(** every such kana is a key *)
Lemma hira_entry c : hira_b c = true -> exists v, r_entry [c] v.
Proof.
  intros H. assert (T : forallb (fun i => existsb (fun e => str_eqb (fst e) [i]) rdict) (0x30FC :: map (fun i => 0x3041 + N.of_nat i) (seq 0 84)) = true) by (vm_compute; reflexivity).
  rewrite forallb_forall in T. assert (I : In c (0x30FC :: map (fun i => 0x3041 + N.of_nat i) (seq 0 84))).
  { unfold hira_b in H. destruct (c =? 0x30FC) eqn:Q; [left; lia|]. right. apply in_map_iff. exists (N.to_nat (c - 0x3041)). split; [lia|]. apply in_seq. lia. }
  specialize (T c I). apply existsb_exists in T as ([k v] & R & Q). apply str_eqb_eq in Q. cbn [fst] in Q. subst k. exists v. exact R.
Qed.
Lemma entry_word k v : r_entry k v -> Forall (fun c => hira_b c = true) k -> v = [] \/ In v syllables \/ v = u "-".
Proof.
  intros R F. assert (T : forallb (fun e => negb (forallb hira_b (fst e)) || existsb (str_eqb (snd e)) ([] :: u "-" :: syllables)) rdict = true) by (vm_compute; reflexivity).
  rewrite forallb_forall in T. specialize (T _ R). cbn [fst snd] in T. clear R. assert (F2 : forallb hira_b k = true) by (apply forallb_forall; now apply Forall_forall). rewrite F2 in T. cbn [negb orb] in T.
  apply existsb_exists in T as (w & I & Q). apply str_eqb_eq in Q. subst w. destruct I as [I|[I|I]]; auto.
Qed.
Lemma rconv_words E : std_ok E -> forall s, Forall (fun c => hira_b c = true) s -> syllabic (rconv E false [] s).
Proof.
  intros HE. induction s as [s IH] using str_ind_len. intros F. destruct s as [|c s]; [exists []; split; [reflexivity|constructor]|].
  destruct (rconv_step E false [] c s HE) as [(seg & rest & w & Sp & Ns & R & _ & Q)|[N _]].
  - rewrite Sp in F. apply Forall_app in F as [F1 F2]. rewrite Q, skipn_nil.
    destruct (IH rest) as (ws & Q2 & W); [|exact F2|].
    { rewrite Sp, app_length. destruct seg; [congruence|]. cbn. lia. }
    rewrite Q2. unfold remit. rewrite andb_false_r. destruct (entry_word _ _ R F1) as [Z|I]; [rewrite Z; exists ws; auto|].
    exists (w :: ws). split; [reflexivity|]. constructor; assumption.
  - exfalso. apply Forall_cons_iff in F as [F _]. destruct (hira_entry c F) as [v R]. exact (N v R).
Qed.
Lemma romaji_words E up s : std_ok E -> Forall sounded s ->
  syllabic (rconv E false s (k2h E true s)) /\ low (rconv E up s (k2h E true s)) = rconv E false s (k2h E true s).
Proof.
  intros HE S. assert (W : syllabic (rconv E false s (k2h E true s))).
  { rewrite (rconv_noup E _ HE s []). apply rconv_words; [exact HE|]. now apply k2h_sounded. }
  split; [exact W|]. rewrite (rconv_low E HE _ s up false). destruct W as (ws & -> & W). clear S. induction W as [|w ws W _ IH]; [reflexivity|].
  cbn [concat]. rewrite low_app, IH. f_equal. destruct W as [W| ->]; [|reflexivity].
  assert (T : forallb (fun w => str_eqb (low w) w) syllables = true) by (vm_compute; reflexivity).
  rewrite forallb_forall in T. apply str_eqb_eq, (T w W).
Qed.
(** ** every syllable but those of v *)
Lemma syllable_entry w : In w syllables -> hd_error w <> Some (ch "v") ->
  exists k, r_entry k w /\ ~ In vu k /\ Forall (fun c => (0x3041 <=? c) && (c <=? 0x3093) = true) k.
Proof.
  intros I V.
  assert (T : forallb (fun w => str_eqb (firstn 1 w) (u "v") || existsb (fun e => str_eqb (snd e) w && forallb (fun c => (0x3041 <=? c) && (c <=? 0x3093)) (fst e)) rdict) syllables = true) by (vm_compute; reflexivity).
  rewrite forallb_forall in T. specialize (T w I). apply orb_prop in T as [T|T].
  - exfalso. apply str_eqb_eq in T. destruct w as [|c w]; [discriminate T|]. injection T as ->. now apply V.
  - apply existsb_exists in T as ([k v] & R & Q). cbn [fst snd] in Q. apply andb_prop in Q as [Q1 Q2]. apply str_eqb_eq in Q1. subst v. exists k.
    split; [exact R|]. rewrite forallb_forall in Q2. split; [|now apply Forall_forall]. intros J. specialize (Q2 _ J). unfold vu in Q2. vm_compute in Q2. discriminate Q2.
Qed.
Lemma syllable_kana E w up : std_ok E -> In w syllables -> hd_error w <> Some (ch "v") ->
  exists s, Forall sounded s /\ rconv E up s (k2h E true s) = w.
Proof.
  intros HE I V. destruct (syllable_entry w I V) as (k & R & U & F). exists k. split.
  - rewrite Forall_forall in *. intros c J. specialize (F c J). apply sounded_b. left. unfold hira_b. lia.
  - rewrite Forall_forall in F. rewrite k2h_no_katakana by (intros c J; specialize (F c J); unfold katakana_letter; lia).
    pose proof R as N. apply r_entry_node in N as [N _].
    pose proof (rconv_seg E up k k w [] HE R U (fun d r x Q => ltac:(discriminate Q))) as Q. rewrite app_nil_r, rconv_nil, app_nil_r, firstn_all in Q.
    rewrite Q. unfold remit. destruct k as [|c k]; [congruence|]. specialize (F c (or_introl eq_refl)). cbn [forallb].
    replace (is_char_katakana c) with false by (symmetry; destruct (is_char_katakana c) eqn:K; [charspec; lia|reflexivity]). reflexivity.
Qed.
