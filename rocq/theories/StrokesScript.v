(** * Proof of C104, continued: typing hiragana with [to_hiragana] and katakana with [to_katakana] *)
From Coq Require Import PeanoNat.
From Verif Require Import Tac Base Std Constants Chars Trees KanaTree Strings Convert
  KanaPure KanaSpec KanaDict KanaProofs Predicates ScriptSpec ScriptProofs TypingSpec Splits StrokeSpec Strokes StrokesUp.

Lemma low_low s : low (low s) = low s.
Proof. unfold low. rewrite map_map. apply map_ext. intro c. unfold ascii_lower. ifs; lia. Qed.
Lemma emit_low seg v : seg <> [] -> emit (low seg) v = v.
Proof.
  destruct seg as [|c seg]; [congruence|]. intros _. unfold emit. cbn [low map forallb]. replace (is_AZ (ascii_lower c)) with false; [reflexivity|].
  unfold is_AZ, ascii_lower. ifs; lia.
Qed.
Definition values_hira (m : mode) : bool := forallb (fun e => str_eqb (snd e) (map hira_of (snd e)) && str_eqb (snd e) (map hira_of (h2k (snd e)))) (dict m).
Lemma values_hira_ok m : values_hira m = true.
Proof. destruct m; vm_cast_no_check (eq_refl true). Qed.
Lemma value_hira m k v : entry m k v -> map hira_of v = v /\ map hira_of (h2k v) = v.
Proof.
  intro I. pose proof (values_hira_ok m) as F. unfold values_hira in F. rewrite forallb_forall in F. specialize (F _ I). cbn [snd] in F.
  apply andb_prop in F as [A B]. apply str_eqb_eq in A, B. split; congruence.
Qed.
Lemma fold_low m : forall s, Forall ascii s -> Forall (typeable m) (conv m s) -> conv m (low s) = map hira_of (conv m s).
Proof.
  induction s as [s IH] using str_ind_len. intros A T. destruct s as [|c s]; [reflexivity|].
  destruct (kconv_step m c s) as [(seg & rest & n & v & Sp & N & K & At & O & R & Q)|[O Q]].
  2:{ exfalso. rewrite Q in T. apply Forall_inv in T, A. exact (typeable_not_ascii m c T A). }
  rewrite Q in *. rewrite Sp in *. apply Forall_app in A as [A1 A2]. apply Forall_app in T as [T1 T2].
  assert (Ls : (length rest < length (seg ++ rest))%nat) by (rewrite app_length; destruct seg; [congruence|cbn; lia]).
  unfold low at 1. rewrite map_app. fold (low seg) (low rest).
  rewrite (kconv_hit m (low seg) (low rest) n v); [| |now rewrite low_low|exact O|].
  - rewrite (emit_low seg v N), map_app, <- (IH rest Ls A2 T2). f_equal.
    destruct (value_hira m (low seg) v) as [H1 H2]; [apply entry_node; eauto|]. unfold emit. destruct (forallb is_AZ seg); now symmetry.
  - destruct seg; [congruence|discriminate].
  - destruct rest as [|d rest]; [exact I|]. cbn [low map]. replace (ascii_lower (ascii_lower d)) with (ascii_lower d); [exact R|].
    unfold ascii_lower. ifs; lia.
Qed.
Lemma ascii_low s : Forall ascii s -> Forall ascii (low s).
Proof. intro H. apply Forall_forall. intros c I. apply in_map_iff in I as (d & <- & J). rewrite Forall_forall in H. specialize (H d J). unfold ascii, ascii_lower in *. ifs; lia. Qed.
Lemma hira_of_ascii c : ascii c -> hira_of c = c.
Proof. unfold ascii, hira_of, katakana. intro. replace (_ && _) with false by lia. reflexivity. Qed.
Lemma h2k_ascii c : ascii c -> hira_of (h2k_char c) = c.
Proof.
  assert (Q : katakana_for c (h2k_char c)) by now apply h2k_char_spec. unfold katakana_for, hiragana_letter in Q.
  unfold ascii, hira_of, katakana. intro H. ifs; lia.
Qed.
Lemma low_back m : forall s, Forall (fun c => ascii c /\ is_AZ c = false) s -> map hira_of (h2k (conv m s)) = conv m s.
Proof.
  induction s as [s IH] using str_ind_len. intros A. destruct s as [|c s]; [reflexivity|].
  destruct (kconv_step m c s) as [(seg & rest & n & v & Sp & N & K & At & O & R & Q)|[O Q]]; rewrite Q.
  - rewrite Sp in *. apply Forall_app in A as [A1 A2].
    assert (Ls : (length rest < length (seg ++ rest))%nat) by (rewrite app_length; destruct seg; [congruence|cbn; lia]).
    unfold h2k. rewrite !map_app. fold (h2k (conv m rest)). rewrite (IH rest Ls A2). f_equal. destruct (value_hira m (low seg) v) as [H1 H2]; [apply entry_node; eauto|].
    unfold emit. destruct seg as [|d seg]; [congruence|]. apply Forall_inv in A1. cbn [forallb]. rewrite (proj2 A1). exact H2.
  - inversion A as [|? ? [A1 _] A2]; subst. unfold h2k. cbn [map]. fold (h2k (conv m s)). rewrite (IH s ltac:(cbn; lia) A2), (h2k_ascii c A1). reflexivity.
Qed.
Lemma low_plain s : Forall ascii s -> Forall (fun c => ascii c /\ is_AZ c = false) (low s).
Proof.
  intro H. apply Forall_forall. intros c I. apply in_map_iff in I as (d & <- & J). rewrite Forall_forall in H. specialize (H d J).
  unfold ascii, ascii_lower, is_AZ in *. split; ifs; lia.
Qed.
Lemma typeable_back m c : typeable m c -> katakana c = false -> hira_of c = c /\ hira_of (h2k_char c) = c.
Proof.
  intros T K. split; [unfold hira_of; now rewrite K|]. assert (B : c <> 0x3095 /\ c <> 0x3096).
  { destruct T as [[(_ & T & _)|[(T & _)|T]]|T].
    - change (u "ゕゖ") with [0x3095; 0x3096] in T. cbn [In] in T. lia.
    - unfold katakana_letter in T. lia.
    - change (u "・ー") with [0x30FB; 0x30FC] in T. cbn [In] in T. lia.
    - unfold typeable_mark in T. vm_compute in T. repeat destruct T as [<-|T]; try contradiction; split; discriminate. }
  assert (Q : katakana_for c (h2k_char c)) by now apply h2k_char_spec. unfold katakana_for, hiragana_letter in Q.
  unfold katakana in K. unfold hira_of, katakana. ifs; lia.
Qed.
Lemma typeable_hira m r : Forall (typeable m) r -> Forall (fun c => katakana c = false) r -> map hira_of r = r /\ map hira_of (h2k r) = r.
Proof.
  intros T K. induction r as [|c r IH]; [now split|]. inversion T; inversion K; subst. destruct (typeable_back m c) as [A B]; [assumption..|].
  destruct IH as [I J]; [assumption..|]. unfold h2k in *. cbn [map]. rewrite A, B, I, J. now split.
Qed.

(** ** The conversions of ASCII text *)
Lemma ascii_romaji s : Forall ascii s -> s <> [] -> is_romaji s = true.
Proof.
  intros A N. apply romaji_text_spec. split; [exact N|]. intros c I. rewrite Forall_forall in A. specialize (A c I). unfold ascii in A. left. lia.
Qed.
Lemma ascii_lowercase E s : std_ok E -> Forall ascii s -> to_lowercase E s = low s.
Proof. intros HE A. apply lower_low; [exact HE|]. intros c I. left. rewrite Forall_forall in A. exact (A c I). Qed.
Lemma ascii_mixed s : Forall ascii s -> is_mixed s = false.
Proof.
  intro A. destruct (is_mixed s) eqn:M; [|reflexivity]. exfalso. apply mixed_spec in M. destruct M as ((c & I & K) & _).
  rewrite Forall_forall in A. specialize (A c I). unfold ascii, S_hiragana, S_katakana, Predicates.between in *. lia.
Qed.
Lemma ascii_hiragana E o s : std_ok E -> pass_romaji o = false -> Forall ascii s -> to_hiragana_with_opt E s o = Ok (conv (mode_of o) (low s)).
Proof.
  intros HE P A. unfold to_hiragana_with_opt. rewrite P, (ascii_mixed s A). destruct s as [|c s]; [reflexivity|].
  rewrite (ascii_romaji (c :: s) A) by discriminate. cbn [orb]. unfold romaji_to_hiragana.
  rewrite (ascii_lowercase E _ HE A), to_kana_with_opt_eq by exact HE. now rewrite k_tree_mode.
Qed.
Lemma ascii_katakana E o s : std_ok E -> pass_romaji o = false -> Forall ascii s -> to_katakana_with_opt E s o = Ok (h2k (conv (mode_of o) (low s))).
Proof.
  intros HE P A. unfold to_katakana_with_opt. rewrite P, (ascii_mixed s A), orb_false_r. destruct s as [|c s]; [reflexivity|].
  rewrite (ascii_romaji (c :: s) A) by discriminate. unfold romaji_to_hiragana.
  rewrite (ascii_lowercase E _ HE A), to_kana_with_opt_eq, k_tree_mode by exact HE. cbn [bind]. apply hiragana_to_katakana_ok.
Qed.
Lemma type_low m r : Forall (typeable m) r -> Forall (fun c => katakana c = false) r ->
  exists s, Forall ascii s /\ conv m (low s) = r /\ length s = strokes m r.
Proof.
  intros T K. destruct (type_shortest m r T) as (s & A & C & L & _). exists s. split; [exact A|]. split; [|exact L].
  rewrite (fold_low m s A); rewrite C; [|exact T]. apply (typeable_hira m r T K).
Qed.
Lemma low_bound m r s : Forall (typeable m) r -> Forall ascii s -> conv m (low s) = r -> (strokes m r <= length s)%nat.
Proof.
  intros T A C. rewrite <- C in T. pose proof (proj1 (lower_bound m (low s) (ascii_low s A) T)) as H. rewrite C in H. unfold low in H. now rewrite map_length in H.
Qed.
Theorem hiragana_strokes E o r : std_ok E -> pass_romaji o = false -> Forall (typeable (mode_of o)) r -> Forall (fun c => katakana c = false) r ->
  (exists s, Forall ascii s /\ to_hiragana_with_opt E s o = Ok r /\ length s = strokes (mode_of o) r)
  /\ (forall s, Forall ascii s -> to_hiragana_with_opt E s o = Ok r -> (strokes (mode_of o) r <= length s)%nat).
Proof.
  intros HE P T K. split.
  - destruct (type_low _ r T K) as (s & A & C & L). exists s. split; [exact A|]. split; [|exact L]. rewrite (ascii_hiragana E o s HE P A). now rewrite C.
  - intros s A Q. rewrite (ascii_hiragana E o s HE P A) in Q. injection Q as Q. now apply low_bound.
Qed.
Theorem katakana_strokes E o r : std_ok E -> pass_romaji o = false -> Forall (typeable (mode_of o)) r -> Forall (fun c => katakana c = false) r ->
  (exists s, Forall ascii s /\ to_katakana_with_opt E s o = Ok (h2k r) /\ length s = strokes (mode_of o) r)
  /\ (forall s, Forall ascii s -> to_katakana_with_opt E s o = Ok (h2k r) -> (strokes (mode_of o) r <= length s)%nat).
Proof.
  intros HE P T K. split.
  - destruct (type_low _ r T K) as (s & A & C & L). exists s. split; [exact A|]. split; [|exact L]. rewrite (ascii_katakana E o s HE P A). now rewrite C.
  - intros s A Q. rewrite (ascii_katakana E o s HE P A) in Q. injection Q as Q. apply (low_bound _ r s T A).
    rewrite <- (low_back _ _ (low_plain s A)), <- (proj2 (typeable_hira _ r T K)). now rewrite Q.
Qed.
