(** * Converting to hiragana in parts (C92) *)
From Coq Require Import PeanoNat.
From Verif Require Import Tac Base Std Constants Chars Trees KanaTree RomajiTree Strings Tokenize Convert
  KanaPure KanaSpec KanaDict KanaProofs MoraProofs Predicates ScriptSpec ScriptProofs ScriptIdem RomajiPure RomajiSpec RomajiProofs
  TokenSpec TokenizeProofs Splits KanaJoinSpec KanaJoin KanaTokens ChoiceSpec ChoiceProofs JoinSpec JoinText TokenJoin Exact ExactScript LowerTwice
  FixedSpec Fixed ComposeSpec Compose RoundUp ScriptTokenSpec ScriptTokens ScriptPartSpec ScriptParts.

Lemma in_parts_cond E o rd (read : str -> Prop) ts : (forall t, rd t = true <-> read t) ->
  in_parts (mode_of o) (to_lowercase E) read ts <->
  to_lowercase E (concat ts) = concat (map (to_lowercase E) ts) /\ part_cond E o rd ts.
Proof.
  intro R. unfold in_parts, part_cond.
  split; (intros [L H]; split; [exact L|]; intros pre t post Q; destruct (H pre t post Q) as [H1 H2]; specialize (R t); split; intro Z;
    [apply H1|apply H2]).
  - now apply R.
  - intro X. apply R in X. congruence.
  - now apply R.
  - apply not_true_iff_false. now rewrite R.
Qed.

(** ** Counting in parts *)
Lemma counts_le {A} (f g : A -> nat) l : (forall t, In t l -> (f t <= g t)%nat) -> (list_sum (map f l) <= list_sum (map g l))%nat.
Proof.
  induction l as [|t l IH]; intro H; cbn; [lia|]. specialize (IH (fun x I => H x (or_intror I))). pose proof (H t (or_introl eq_refl)). unfold list_sum in IH. lia.
Qed.
Lemma counts_eq {A} (f g : A -> nat) l : (forall t, In t l -> (f t <= g t)%nat) -> list_sum (map f l) = list_sum (map g l) ->
  forall t, In t l -> f t = g t.
Proof.
  induction l as [|t l IH]; intros H Q x I; [destruct I|]. assert (H' : forall t, In t l -> (f t <= g t)%nat) by (intros y J; apply H; now right).
  pose proof (H t (or_introl eq_refl)). pose proof (counts_le f g l H'). cbn in Q. unfold list_sum in *.
  destruct I as [<-|I]; [lia|]. apply IH; [exact H'|lia|exact I].
Qed.
Lemma count_concat p ts : count p (concat ts) = list_sum (map (count p) ts).
Proof. induction ts as [|t ts IH]; [reflexivity|]. cbn [concat map]. rewrite count_app, IH. reflexivity. Qed.
Lemma count_parts {A} p (F : A -> str) l : count p (concat (map F l)) = list_sum (map (fun t => count p (F t)) l).
Proof. now rewrite count_concat, map_map. Qed.

Lemma dashes_parts {A} (F : A -> str) l : dashes (concat (map F l)) = list_sum (map (fun t => dashes (F t)) l).
Proof. exact (count_parts dash_b F l). Qed.

(** ** The hiragana of a part, alone and within the text *)
Lemma k2h_parts E ts : std_ok E ->
  (marks_apart ts -> k2h E false (concat ts) = concat (map (k2h E false) ts)) /\
  (dashes (k2h E false (concat ts)) = dashes (concat (map (k2h E false) ts)) -> marks_apart ts).
Proof.
  intro HE. destruct (library_both E HE) as (r & r' & _ & _ & _ & _ & T).
  destruct (text_parts E r false ts (T false) [] _ (T false (concat ts))) as [(Q & N)|(L & pre & y & post & Q & Re)].
  - split; [intros _; exact Q|]. intros _ pre t post Z. exact (N pre t post Z).
  - split; [intro M; exfalso; exact (M pre y post Q Re)|]. intro Z. lia.
Qed.

Lemma k2h_other E s c : In c s -> ~ kana c -> In c (k2h E false s).
Proof.
  intros I K. assert (c <> long_mark) as N by (intros ->; apply K; vm_compute; tauto).
  pose proof (k2h_keeps E false s c I N) as J. destruct (k2hc_cases c) as [Q|[Q _]]; [now rewrite Q in J|exfalso].
  apply K. right. unfold katakana_letter, S_katakana, Predicates.between in *. lia.
Qed.
Lemma k2h_no_kata E s : no_katakana s -> k2h E false s = s.
Proof. apply k2h_no_katakana. Qed.
Lemma k2h_has_kana E s : has kana s -> has kana (k2h E false s).
Proof.
  intros (c & I & K). destruct (katakana_dec s) as [Z|(d & J & [Kd Nd])].
  - rewrite (k2h_no_kata E s Z). exists c. auto.
  - exists (k2hc d). assert (d <> long_mark) as N by (intros ->; unfold katakana_letter, long_mark in Kd; lia).
    split; [now apply k2h_keeps|]. apply k2hc_kana. right. unfold katakana_letter, S_katakana, Predicates.between in *. lia.
Qed.
Lemma romaji_not_kana c : S_romaji c -> ~ kana c.
Proof. intros R K. exact (kana_romaji c K R). Qed.
Lemma k2h_mixed_iff E s : mixed_text (k2h E false s) <-> mixed_text s.
Proof.
  split; [apply k2h_mixed|]. intros [A (c & I & R)]. split; [exact (k2h_has_kana E s A)|]. exists c. split; [|exact R].
  apply k2h_other; [exact I|now apply romaji_not_kana].
Qed.
Lemma romaji_no_katakana s : (forall c, In c s -> S_romaji c) -> no_katakana s.
Proof. intros R c I. left. intro K. apply R, romaji_small in I. unfold katakana_letter in K. lia. Qed.
Lemma k2h_romaji_iff E s : all_nonempty S_romaji (k2h E false s) <-> all_nonempty S_romaji s.
Proof. split; [apply k2h_romaji|]. intros [N R]. rewrite k2h_no_kata by now apply romaji_no_katakana. now split. Qed.
Lemma k2h_punct_iff E s : starts_with_punct (k2h E false s) <-> starts_with_punct s.
Proof.
  split; [apply k2h_punct|]. intros (c & r & -> & P). destruct (k2h_head E false c r) as (r' & Q). rewrite Q. exists (k2hc c), r'. split; [reflexivity|].
  now apply (ScriptIdem.k2hc_low S_en_punct c en_punct_small).
Qed.

Definition kata_b (c : N) : bool := (0x30A1 <=? c) && (c <=? 0x30FA) && negb ((c =? 0x30F5) || (c =? 0x30F6)).
Lemma kata_b_spec c : kata_b c = true <-> plain_katakana c.
Proof. unfold kata_b, plain_katakana, katakana_letter. change (u "ヵヶ") with [0x30F5; 0x30F6]. cbn [In]. lia. Qed.
Lemma no_kata_count s : no_katakana s <-> count kata_b s = 0%nat.
Proof.
  rewrite count_none. split.
  - intros H c I. apply not_true_iff_false. rewrite kata_b_spec. intro K. exact (plain_not c K (H c I)).
  - intros H c I. specialize (H c I). unfold kata_b in H. unfold katakana_letter. lia.
Qed.
Lemma kata_values m : forallb (fun e => forallb (fun c => negb (kata_b c)) (snd e) && forallb (fun c => negb (kata_b c)) (fst e)) (dict m) = true.
Proof. destruct m; vm_compute; reflexivity. Qed.
Lemma no_upper_count m y : (forall c, In c y -> is_AZ c = false) -> count kata_b (conv m y) = count kata_b y.
Proof.
  induction y as [y IH] using str_ind_len. intro U. destruct y as [|c y]; [assert (conv m [] = []) as K by apply kconv_nil; now rewrite K|].
  destruct (longest_exists m (c :: y)) as (q & Lq). destruct (entry_dec m (low q)) as [[v I]|I].
  - destruct (proj1 Lq) as (r & Q). rewrite Q in *. rewrite (conv_hit m q r v Lq I), !count_app.
    assert (q <> []) as Nq by (pose proof (keys_nonempty _ _ _ I) as Z; now destruct q).
    pose proof (kata_values m) as F. rewrite forallb_forall in F. specialize (F _ I). cbn [fst snd] in F. apply andb_prop in F. destruct F as [F1 F2].
    rewrite forallb_forall in F1, F2. rewrite IH.
    + f_equal. assert (count kata_b q = 0%nat) as ->.
      { apply count_none. intros d D. specialize (F2 (ascii_lower d)). unfold low in F2. specialize (F2 (in_map _ _ _ D)). apply negb_true_iff in F2.
        unfold kata_b, ascii_lower in *. revert F2. ifs; lia. }
      apply count_none. intros d D. apply negb_true_iff, F1. unfold emit in D. destruct (forallb is_AZ q) eqn:Z; [|exact D]. exfalso.
      destruct q as [|a q]; [congruence|]. cbn [forallb] in Z. rewrite (U a) in Z by now left. discriminate Z.
    + rewrite app_length. destruct q; [congruence|cbn; lia].
    + intros d D. apply U. apply in_or_app. now right.
  - rewrite (conv_miss m q c y Lq I), !count_cons. f_equal. apply IH; [cbn; lia|]. intros d D. apply U. now right.
Qed.

Lemma vowel_kana k v c : mark_vowel (o_vowel false) k v -> In c v -> kana c.
Proof.
  intros (row & I & _) J.
  assert (forallb (fun r => forallb is_char_hiragana (snd r)) (mark_table (o_vowel false)) = true) as T by (vm_compute; reflexivity).
  rewrite forallb_forall in T. specialize (T _ I). cbn [snd] in T. rewrite forallb_forall in T. left. now apply hiragana_spec, T.
Qed.
Lemma mark_kana : kana long_mark.
Proof. right. unfold S_katakana, Predicates.between, long_mark. lia. Qed.
(** characters other than kana, in the text and in its hiragana *)
Lemma k2h_count E p s : std_ok E -> (forall c, kana c -> p c = false) -> count p (k2h E false s) = count p s.
Proof.
  intros HE Z. pose proof (k2h_text E false s HE) as T. revert T. generalize (k2h E false s) as h. generalize (@nil N) as a.
  induction s as [|c s IH]; intros a h T; inversion T as [|? ? ? q h' P T']; subst; [reflexivity|].
  rewrite count_app, count_cons, (IH _ _ T'). f_equal. destruct P as [(N & y & A & ->)|[(-> & k & _ & V)|(-> & _ & ->)]].
  - apply k2hc_spec in A. subst y. rewrite count_cons. cbn [count filter length]. rewrite Nat.add_0_r. destruct (k2hc_cases c) as [->|[K H]]; [reflexivity|].
    rewrite !Z; [reflexivity| |].
    + right. unfold katakana_letter, S_katakana, Predicates.between in *. lia.
    + left. left. unfold hiragana_letter, Predicates.between in *. lia.
  - rewrite (Z long_mark mark_kana). apply count_none. intros d D. apply Z. exact (vowel_kana k q d V D).
  - rewrite count_cons, (Z long_mark mark_kana). reflexivity.
Qed.

Section Counts.
  Variable E : std.
  Hypothesis HE : std_ok E.
  Lemma lower_count p y : (forall c, p c = true -> caseless c = true) -> count p (to_lowercase E y) = count p y.
  Proof.
    intro H. destruct (lower_pieces E y) as (ls & F & ->). induction F as [|c l y ls Pc F IH]; [reflexivity|]. cbn [concat].
    rewrite count_app, count_cons, IH. f_equal. destruct (caseless c) eqn:Cc.
    - destruct Pc as [[_ ->]|[-> _]]; [|vm_compute in Cc; discriminate Cc]. rewrite (ok_lower_caseless E HE c Cc), count_cons. cbn. lia.
    - assert (p c = false) as -> by (apply not_true_iff_false; intro X; apply H in X; congruence). apply count_none. intros d D.
      apply not_true_iff_false. intro X. apply H in X.
      destruct Pc as [[_ ->]|[_ [-> | ->]]]; [|destruct D as [<-|[]]; discriminate X|destruct D as [<-|[]]; discriminate X].
      pose proof (ok_lower_other E HE c Cc) as Z. rewrite forallb_forall in Z. specialize (Z _ D). rewrite X in Z. discriminate Z.
  Qed.
  Lemma kata_read_count m t : count kata_b (conv m (to_lowercase E t)) = count kata_b t.
  Proof.
    rewrite no_upper_count; [apply lower_count|].
    - intros c K. apply kata_b_spec in K. destruct K as [K _]. unfold caseless, katakana_letter in *. lia.
    - intros c I. now apply (lower_In E t c HE).
  Qed.
  Definition cased_b (c : N) : bool := negb (str_eqb (lower_char E c) [c]).
  Lemma cased_lowered y : lowered E y <-> count cased_b y = 0%nat.
  Proof.
    rewrite count_none. unfold cased_b. split; intros L c I; specialize (L c I).
    - apply negb_false_iff. now apply str_eqb_eq.
    - apply negb_false_iff in L. now apply str_eqb_eq.
  Qed.
  Lemma kana_caseless c : kana c -> lower_char E c = [c].
  Proof. intro K. apply ok_lower_caseless; [exact HE|]. unfold caseless, kana, S_hiragana, S_katakana, Predicates.between in *. lia. Qed.
  Lemma cased_kana c : kana c -> cased_b c = false.
  Proof. intro K. unfold cased_b. apply negb_false_iff, str_eqb_eq. now apply kana_caseless. Qed.
End Counts.
Definition quote_b (c : N) : bool := existsb (N.eqb c) (u "‘’“”").
Lemma quote_b_spec c : quote_b c = true <-> smart_quote c.
Proof. unfold quote_b, smart_quote. split; intro H; now apply existsb_In. Qed.
Lemma quote_kana c : kana c -> quote_b c = false.
Proof. intro K. apply not_true_iff_false. rewrite quote_b_spec. intro Q. apply quote_number in Q. apply kana_large in K. lia. Qed.

Lemma gentle_id : gentle (fun c => c).
Proof. split; [exact harmless_id|]. split; auto. Qed.
Lemma parts_id (E : std) (o : options) (HE : std_ok E) rd ts : Forall (fun t => t <> []) ts -> (forall t, In t ts -> rd t = false -> to_lowercase E t = t) ->
  (conv (mode_of o) (to_lowercase E (concat ts)) = concat (map (fun t => if rd t then conv (mode_of o) (to_lowercase E t) else t) ts) <->
   to_lowercase E (concat ts) = concat (map (to_lowercase E) ts) /\ part_cond E o rd ts).
Proof.
  intros F L. pose proof (parts_lower E o HE rd (fun c => c) gentle_id (fun c => eq_refl)) as X. specialize (X ltac:(discriminate) ts F L).
  now rewrite !map_id_eq in X.
Qed.
Lemma read_no_kana t : hiragana_reads t -> ~ mixed_text t -> (forall c, In c t -> ~ smart_quote c) -> forall c, In c t -> ~ kana c.
Proof.
  intros [[_ R]|(a & r & -> & A)] M Q c I K.
  - exact (romaji_not_kana c (R c I) K).
  - destruct (punct_kinds a A) as [Ra|Qa]; [|exact (Q a (or_introl eq_refl) Qa)]. apply M. split; [exists c; auto|exists a; split; [now left|exact Ra]].
Qed.
Lemma no_kana_katakana t : (forall c, In c t -> ~ kana c) -> no_katakana t.
Proof. intros H c I. left. intro K. apply (H c I). right. unfold katakana_letter, S_katakana, Predicates.between in *. lia. Qed.
Lemma untouched_quote m t c : untouched m t -> In c t -> ~ smart_quote c.
Proof.
  intros U I Q. apply in_split in I. destruct I as (x & y & ->). destruct (Fixed.quote_entry m c Q) as (v & J).
  destruct (U x [c] [c] v y eq_refl) as [Z _]; [|exact J|].
  - apply casing_low. pose proof (quote_number c Q). cbn. unfold ascii_lower. f_equal. ifs; lia.
  - injection Z as Z. subst c. apply quote_number in Q. vm_compute in Q. destruct Q as [Q _]. now apply Q.
Qed.

Section Hira.
  Variables (E : std) (o : options).
  Hypothesis HE : std_ok E.
  Notation m := (mode_of o).
  Notation H := (hira_pure E o).
  Notation h := (k2h E false).

  Theorem hira_parts_pass ts : pass_romaji o = true -> (H (concat ts) = concat (map H ts) <-> marks_apart ts).
  Proof.
    intro P. assert (Q : forall t, H t = h t) by (intro t; unfold hira_pure; now rewrite P). rewrite Q, (map_ext _ _ Q).
    destruct (k2h_parts E ts HE) as [K1 K2]. split; [|exact K1]. intro Z. apply K2. now rewrite Z.
  Qed.

  Section NoPass.
  Hypothesis P : pass_romaji o = false.
  Definition hira_rd (t : str) : bool := is_mixed t || (is_romaji t || first_punct t).
  Lemma hira_rd_spec t : hira_rd t = true <-> mixed_text t \/ hiragana_reads t.
  Proof. unfold hira_rd, hiragana_reads. now rewrite !orb_true_iff, mixed_spec, romaji_text_spec, first_punct_spec. Qed.
  Lemma hira_rd_h t : hira_rd (h t) = hira_rd t.
  Proof.
    apply eq_true_iff_eq. rewrite !hira_rd_spec. unfold hiragana_reads. now rewrite k2h_mixed_iff, k2h_romaji_iff, k2h_punct_iff.
  Qed.
  Lemma mixed_dec t : {mixed_text t} + {~ mixed_text t}.
  Proof. destruct (is_mixed t) eqn:M; [left; now apply mixed_spec|right; rewrite <- mixed_spec; congruence]. Qed.
  Lemma reads_dec t : {hiragana_reads t} + {~ hiragana_reads t}.
  Proof.
    destruct (is_romaji t || first_punct t) eqn:R; [left|right; intro X; apply not_true_iff_false in R; apply R].
    - apply orb_prop in R. destruct R as [R|R]; [left; now apply romaji_text_spec|right; now apply first_punct_spec].
    - apply orb_true_iff. destruct X as [X|X]; [left; now apply romaji_text_spec|right; now apply first_punct_spec].
  Qed.
  Lemma hira_mixed t : mixed_text t -> H t = conv m (to_lowercase E (h t)).
  Proof. intro M. unfold hira_pure. apply mixed_spec in M. now rewrite P, M, k_tree_mode. Qed.
  Lemma hira_read t : ~ mixed_text t -> hiragana_reads t -> H t = conv m (to_lowercase E t).
  Proof.
    intros M R. unfold hira_pure. rewrite <- mixed_spec in M. apply not_true_iff_false in M. rewrite P, M, k_tree_mode.
    assert (is_romaji t || first_punct t = true) as ->; [|reflexivity]. apply orb_true_iff. rewrite romaji_text_spec, first_punct_spec. exact R.
  Qed.
  Lemma hira_kept t : ~ mixed_text t -> ~ hiragana_reads t -> H t = h t.
  Proof.
    intros M R. unfold hira_pure. rewrite <- mixed_spec in M. apply not_true_iff_false in M. rewrite P, M.
    assert (is_romaji t || first_punct t = false) as ->; [|reflexivity]. apply not_true_iff_false. now rewrite orb_true_iff, romaji_text_spec, first_punct_spec.
  Qed.
  (** a part that is read and has no katakana comes out as its hiragana does *)
  Lemma hira_show t : (~ mixed_text t -> hiragana_reads t -> no_katakana t) ->
    H t = if hira_rd (h t) then conv m (to_lowercase E (h t)) else h t.
  Proof.
    intro N. rewrite hira_rd_h. destruct (mixed_dec t) as [M|M].
    - assert (hira_rd t = true) as -> by (apply hira_rd_spec; now left). now apply hira_mixed.
    - destruct (reads_dec t) as [R|R].
      + assert (hira_rd t = true) as -> by (apply hira_rd_spec; now right). rewrite (k2h_no_kata E t (N M R)). now apply hira_read.
      + assert (hira_rd t = false) as -> by (apply not_true_iff_false; rewrite hira_rd_spec; tauto). now apply hira_kept.
  Qed.
  Lemma lowered_part ts t : lowered E (concat (map H ts)) -> In t ts -> ~ mixed_text t -> ~ hiragana_reads t -> to_lowercase E (h t) = h t.
  Proof.
    intros L I M R. apply lowered_same; [exact HE|]. intros c C. apply L. apply in_concat. exists (H t). split; [now apply in_map|]. now rewrite hira_kept.
  Qed.
  Lemma h_nonempty ts : Forall (fun t => t <> []) ts -> Forall (fun t => t <> []) (map h ts).
  Proof. intro F. apply Forall_map. revert F. apply Forall_impl. intros t N Z. now apply N, (k2h_nil E false). Qed.

  Theorem hira_parts_mixed ts : Forall (fun t => t <> []) ts -> mixed_text (concat ts) ->
    (H (concat ts) = concat (map H ts) <->
     marks_apart ts /\ (forall t, In t ts -> ~ mixed_text t -> hiragana_reads t -> no_katakana t) /\
     in_parts m (to_lowercase E) (fun t => mixed_text t \/ hiragana_reads t) (map h ts)).
  Proof.
    intros F M. rewrite (hira_mixed _ M). destruct (k2h_parts E ts HE) as [K1 K2].
    rewrite (in_parts_cond E o hira_rd) by exact hira_rd_spec.
    assert (Low : lowered E (conv m (to_lowercase E (h (concat ts))))) by (apply conv_lowered; [exact HE|]; now apply to_lowercase_lowered).
    assert (X : marks_apart ts -> (forall t, In t ts -> ~ mixed_text t -> hiragana_reads t -> no_katakana t) ->
      (forall t, In t (map h ts) -> hira_rd t = false -> to_lowercase E t = t) ->
      (conv m (to_lowercase E (h (concat ts))) = concat (map H ts) <->
       to_lowercase E (concat (map h ts)) = concat (map (to_lowercase E) (map h ts)) /\ part_cond E o hira_rd (map h ts))).
    { intros A N L. rewrite <- (parts_id E o HE hira_rd (map h ts) (h_nonempty ts F) L). rewrite (K1 A), map_map.
      rewrite (map_ext_tokens H (fun t => if hira_rd (h t) then conv m (to_lowercase E (h t)) else h t) ts); [reflexivity|].
      intros t I. apply hira_show. exact (N t I). }
    split.
    - intro Q.
      assert (N : forall t, In t ts -> ~ mixed_text t -> hiragana_reads t -> no_katakana t).
      { intros t I Mt Rt. destruct (katakana_dec t) as [N|(c & C & Kc & Nc)]; [exact N|exfalso]. apply (plain_not c (conj Kc Nc)).
        apply (r2h_no_katakana E o (h (concat ts)) c HE); [intro d; apply k2h_not_katakana|]. rewrite k_tree_mode, Q. apply in_concat. exists (H t). split; [now apply in_map|].
        rewrite (hira_read t Mt Rt). apply conv_keeps; [apply kana_letter_in_no_key; unfold katakana_letter in Kc; lia|]. apply lower_keeps; [exact HE| |exact C].
        unfold caseless, katakana_letter in *. lia. }
      assert (A : marks_apart ts).
      { apply K2. transitivity (dashes (concat (map H ts))).
        - rewrite <- Q. now rewrite dashes_conv, dashes_lower.
        - rewrite !dashes_parts. f_equal. apply map_ext_in. intros t I. rewrite (hira_show t (N t I)).
          destruct (hira_rd (h t)); [|reflexivity]. now rewrite dashes_conv, dashes_lower. }
      split; [exact A|]. split; [exact N|]. apply X; [exact A|exact N| |exact Q].
      intros t' I R. apply in_map_iff in I. destruct I as (t & <- & I). rewrite hira_rd_h in R. apply not_true_iff_false in R. rewrite hira_rd_spec in R.
      apply (lowered_part ts t); [now rewrite <- Q|exact I|tauto|tauto].
    - intros (A & N & L & C). apply X; [exact A|exact N| |now split]. exact (part_cond_lower E o hira_rd _ C).
  Qed.

  Lemma part_not_mixed ts t : ~ mixed_text (concat ts) -> In t ts -> ~ mixed_text t.
  Proof. intros M I Z. now apply M, (part_mixed ts t). Qed.
  Lemma kata_h t : count kata_b (h t) = 0%nat.
  Proof. apply no_kata_count. intro c. apply k2h_not_katakana. Qed.

  Theorem hira_parts_read ts : Forall (fun t => t <> []) ts -> ~ mixed_text (concat ts) -> hiragana_reads (concat ts) ->
    (H (concat ts) = concat (map H ts) <->
     (forall t, In t ts -> ~ hiragana_reads t -> no_katakana t) /\ in_parts m (to_lowercase E) hiragana_reads ts).
  Proof.
    intros F M B. rewrite (hira_read _ M B).
    set (rd := fun t => is_romaji t || first_punct t).
    assert (rds : forall t, rd t = true <-> hiragana_reads t).
    { intro t. unfold rd, hiragana_reads. now rewrite orb_true_iff, romaji_text_spec, first_punct_spec. }
    rewrite (in_parts_cond E o rd) by exact rds.
    assert (Low : lowered E (conv m (to_lowercase E (concat ts)))) by (apply conv_lowered; [exact HE|]; now apply to_lowercase_lowered).
    assert (X : (forall t, In t ts -> ~ hiragana_reads t -> no_katakana t) -> (forall t, In t ts -> rd t = false -> to_lowercase E t = t) ->
      (conv m (to_lowercase E (concat ts)) = concat (map H ts) <->
       to_lowercase E (concat ts) = concat (map (to_lowercase E) ts) /\ part_cond E o rd ts)).
    { intros N L. rewrite <- (parts_id E o HE rd ts F L).
      rewrite (map_ext_tokens H (fun t => if rd t then conv m (to_lowercase E t) else t) ts); [reflexivity|].
      intros t I. pose proof (part_not_mixed ts t M I) as Mt. destruct (rd t) eqn:R.
      - apply rds in R. now apply hira_read.
      - apply not_true_iff_false in R. rewrite rds in R. rewrite (hira_kept t Mt R). apply k2h_no_kata. now apply N. }
    split.
    - intro Q.
      assert (N : forall t, In t ts -> ~ hiragana_reads t -> no_katakana t).
      { intros t I R. apply no_kata_count. pose proof (count_down kata_b H ts) as D. rewrite <- (D) with (t := t).
        - rewrite (hira_kept t (part_not_mixed ts t M I) R). apply kata_h.
        - intros x Ix. pose proof (part_not_mixed ts x M Ix) as Mx. destruct (reads_dec x) as [Rx|Rx].
          + rewrite (hira_read x Mx Rx), kata_read_count by exact HE. lia.
          + rewrite (hira_kept x Mx Rx), kata_h. lia.
        - rewrite <- Q. now apply kata_read_count.
        - exact I. }
      split; [exact N|]. apply X; [exact N| |exact Q]. intros t I R. apply not_true_iff_false in R. rewrite rds in R.
      rewrite <- (k2h_no_kata E t (N t I R)) at 1 2. apply (lowered_part ts t); [now rewrite <- Q|exact I|exact (part_not_mixed ts t M I)|exact R].
    - intros (N & L & C). apply X; [exact N| |now split]. exact (part_cond_lower E o rd _ C).
  Qed.

  Theorem hira_parts_kept ts : ~ mixed_text (concat ts) -> ~ hiragana_reads (concat ts) ->
    (H (concat ts) = concat (map H ts) <->
     marks_apart ts /\ forall t, In t ts -> hiragana_reads t -> to_lowercase E t = t /\ untouched m t).
  Proof.
    intros M B. rewrite (hira_kept _ M B). destruct (k2h_parts E ts HE) as [K1 K2]. split.
    - intro Q.
      assert (NQ : forall t, In t ts -> hiragana_reads t -> forall c, In c t -> ~ smart_quote c).
      { intros t I R c C Z. pose proof (count_down quote_b H ts) as D.
        assert (Y : count quote_b (H t) = count quote_b t).
        { apply D; [| |exact I].
          - intros x Ix. pose proof (part_not_mixed ts x M Ix) as Mx. destruct (reads_dec x) as [Rx|Rx].
            + assert (count quote_b (H x) = 0%nat) as ->; [|lia]. rewrite (hira_read x Mx Rx). apply count_none. intros d J. apply not_true_iff_false. rewrite quote_b_spec.
              exact (conv_no_quote m _ d J).
            + rewrite (hira_kept x Mx Rx), k2h_count; [lia|exact HE|exact quote_kana].
          - rewrite <- Q. apply k2h_count; [exact HE|exact quote_kana]. }
        rewrite (hira_read t (part_not_mixed ts t M I) R) in Y.
        assert (count quote_b (conv m (to_lowercase E t)) = 0%nat) as Y'.
        { apply count_none. intros d J. apply not_true_iff_false. rewrite quote_b_spec. exact (conv_no_quote m _ d J). }
        rewrite Y' in Y. symmetry in Y. pose proof (proj1 (count_none _ _) Y c C) as W. apply quote_b_spec in Z. congruence. }
      assert (NK : forall t, In t ts -> hiragana_reads t -> h t = t).
      { intros t I R. apply k2h_no_kata, no_kana_katakana. exact (read_no_kana t R (part_not_mixed ts t M I) (NQ t I R)). }
      assert (A : marks_apart ts).
      { apply K2. rewrite Q, !dashes_parts. f_equal. apply map_ext_in. intros t I. pose proof (part_not_mixed ts t M I) as Mt.
        destruct (reads_dec t) as [R|R].
        - rewrite (hira_read t Mt R), (NK t I R), dashes_conv. now apply dashes_lower.
        - now rewrite (hira_kept t Mt R). }
      split; [exact A|]. rewrite (K1 A) in Q.
      assert (Cs : forall p, count p (concat (map h ts)) = count p (concat (map H ts))) by (intro p; now rewrite Q).
      assert (Ls : forall x, In x ts -> hiragana_reads x -> to_lowercase E x = x).
      { intros t I R. pose proof (part_not_mixed ts t M I) as Mt.
        apply lowered_same; [exact HE|]. apply cased_lowered. rewrite <- (NK t I R) at 1. specialize (Cs (cased_b E)). rewrite !count_parts in Cs.
        rewrite <- (counts_eq (fun t => count (cased_b E) (H t)) (fun t => count (cased_b E) (h t)) ts) with (t := t); [| |now symmetry|exact I].
        - rewrite (hira_read t Mt R). apply cased_lowered. apply conv_lowered; [exact HE|]. now apply to_lowercase_lowered.
        - intros x Ix. pose proof (part_not_mixed ts x M Ix) as Mx. destruct (reads_dec x) as [Rx|Rx].
          + rewrite (hira_read x Mx Rx). assert (count (cased_b E) (conv m (to_lowercase E x)) = 0%nat) as ->; [|lia].
            apply cased_lowered. apply conv_lowered; [exact HE|]. now apply to_lowercase_lowered.
          + rewrite (hira_kept x Mx Rx). lia. }
      intros t I R. pose proof (part_not_mixed ts t M I) as Mt. pose proof (Ls t I R) as L.
      split; [exact L|]. apply kana_fixed. apply big_conv.
      specialize (Cs big). rewrite !count_parts in Cs.
      enough (count big (h t) = count big (H t)) as Z by (rewrite (NK t I R), (hira_read t Mt R), L in Z; now symmetry).
      apply (counts_eq (fun t => count big (h t)) (fun t => count big (H t)) ts); [|exact Cs|exact I].
      intros x Ix. pose proof (part_not_mixed ts x M Ix) as Mx. destruct (reads_dec x) as [Rx|Rx].
      + rewrite (hira_read x Mx Rx), (NK x Ix Rx), (Ls x Ix Rx). apply big_conv.
      + rewrite (hira_kept x Mx Rx). lia.
    - intros [A U]. rewrite (K1 A). f_equal. apply map_ext_in. intros t I. pose proof (part_not_mixed ts t M I) as Mt.
      destruct (reads_dec t) as [R|R]; [|now rewrite (hira_kept t Mt R)]. destruct (U t I R) as [L W].
      rewrite (hira_read t Mt R), L, (untouched_conv m t W). apply k2h_no_kata, no_kana_katakana. apply (read_no_kana t R Mt).
      intros c C. exact (untouched_quote m t c W C).
  Qed.
  End NoPass.
End Hira.
