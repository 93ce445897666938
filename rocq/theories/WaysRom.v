(** * Proof of C102: how many texts have the same romaji, hiragana or katakana *)
From Verif Require Import Base Tac Std StdInstances Chars Strings Trees Convert KanaPure KanaSpec RomajiPure KanaDict KanaProofs RomajiSpec RomajiProofs Predicates TokenSpec.
From Coq Require Import PeanoNat FinFun.
From Verif Require Import ScriptProofs Splits ChoiceProofs TableProofs LibraryProofs Ways.

Lemma tsu_last E up o : std_ok E -> rconv E up o [ch "っ"] = [].
Proof.
  intro HE. assert (W : rw E RT [ch "っ"] = (tsu_node, 1%nat)).
  { cbn [rw]. pose proof (find_tsu E HE) as F. change LibraryProofs.tsu with (ch "っ") in F. now rewrite F. }
  rewrite rconv_cons. unfold rstep. rewrite W. cbn [fst snd skipn]. rewrite tsu_silent.
  unfold remit. destruct (_ && _); reflexivity.
Qed.
Lemma rom_tsu E o s : std_ok E -> to_romaji_with_opt E (s ++ [ch "っ"]) o = to_romaji_with_opt E s o.
Proof.
  intro HE. rewrite !to_romaji_with_opt_eq by exact HE. f_equal. rewrite k2h_split.
  2:{ intro H. repeat (destruct H as [H|H]; [discriminate H|]). exact H. }
  assert (K : k2h E true [ch "っ"] = [ch "っ"]) by reflexivity. rewrite K, rconv_split.
  - rewrite (tsu_last E _ _ HE), app_nil_r. apply rconv_orig; [exact HE|]. now apply k2h_length.
  - exact HE.
  - intros a b c y v Q Nb [= <- _] I. destruct (inner_key b (ch "っ") v I Nb) as [H _]. now apply H.
Qed.
Lemma rom_tsus E o s n : std_ok E -> to_romaji_with_opt E (s ++ repeat (ch "っ") n) o = to_romaji_with_opt E s o.
Proof.
  intro HE. induction n as [|n IH]; [now rewrite app_nil_r|].
  assert (Q : repeat (ch "っ") (S n) = repeat (ch "っ") n ++ [ch "っ"]).
  { clear. induction n as [|n IH]; [reflexivity|]. cbn [repeat app] in *. now rewrite <- IH. }
  rewrite Q, app_assoc, rom_tsu by exact HE. exact IH.
Qed.

(** ** [to_hiragana] *)
Lemma n_found : match look RT (ch "ん") with Some n => last_char (rout n) | None => None end = Some (ch "n").
Proof. vm_compute. reflexivity. Qed.
Lemma n_vowel E d q c : std_ok E -> k2h_vowel E d q (ch "ん") c = [].
Proof.
  intro HE. unfold k2h_vowel. rewrite (look_rfind E [] RT (ch "ん") HE r_root) by discriminate.
  pose proof n_found as F. destruct (look RT (ch "ん")) as [n|]; [|discriminate F]. rewrite F.
  destruct (is_char_katakana q); reflexivity.
Qed.
Lemma n_marks E d : std_ok E -> forall n q, k2h_go E d (Some q) (Some (ch "ん")) (repeat (ch "ー") n) = [].
Proof.
  intro HE. induction n as [|n IH]; intro q; [reflexivity|]. cbn [repeat k2h_go].
  replace (is_char_slash_dot (ch "ー") || (is_char_long_dash (ch "ー") && is_none (Some q)) || is_kana_as_symbol (ch "ー")) with false by reflexivity.
  replace (is_char_long_dash (ch "ー")) with true by reflexivity. now rewrite n_vowel, IH by exact HE.
Qed.
Lemma k2h_n E d n s : std_ok E -> k2h E d (s ++ ch "ン" :: repeat (ch "ー") n) = k2h E d s ++ [ch "ん"].
Proof.
  intro HE. rewrite k2h_split.
  2:{ intro H. repeat (destruct H as [H|H]; [discriminate H|]). exact H. }
  f_equal. unfold k2h. cbn [k2h_go].
  replace (is_char_slash_dot (ch "ン") || (is_char_long_dash (ch "ン") && is_none None) || is_kana_as_symbol (ch "ン")) with false by reflexivity.
  replace (negb (is_char_long_dash (ch "ン")) && is_char_katakana (ch "ン")) with true by reflexivity.
  replace (hira_of_kata (ch "ン")) with (ch "ん") by reflexivity. now rewrite n_marks.
Qed.
Lemma kana_no_romaji c : S_kana c -> is_char_romaji c = false.
Proof.
  intro H. destruct (is_char_romaji c) eqn:R; [|reflexivity]. exfalso. apply romaji_spec in R.
  unfold S_kana, S_hiragana, S_katakana, Predicates.between in H. destruct R as [R|R]; [lia|].
  vm_compute in R. repeat (destruct R as [R|R]; [subst c; lia|]). exact R.
Qed.
Lemma hira_kana E o s : Forall S_kana s -> hira_pure E o s = k2h E false s.
Proof.
  intro H. unfold hira_pure. destruct (pass_romaji o); [reflexivity|]. rewrite Forall_forall in H.
  assert (R : existsb is_char_romaji s = false).
  { destruct (existsb is_char_romaji s) eqn:Q; [|reflexivity]. apply existsb_exists in Q. destruct Q as (c & I & Q).
    now rewrite kana_no_romaji in Q by now apply H. }
  unfold is_mixed, is_mixed_pass_kanji. rewrite R, andb_false_r. cbn [andb].
  destruct s as [|c s]; [reflexivity|]. pose proof (H c (or_introl eq_refl)) as C.
  unfold is_romaji. cbn [is_empty forallb]. rewrite (kana_no_romaji c C). cbn [andb orb]. unfold first_punct. cbn [nth_error option_map].
  replace (is_char_english_punctuation c) with false; [reflexivity|]. symmetry. destruct (is_char_english_punctuation c) eqn:Q; [|reflexivity].
  exfalso. pose proof (ep_not_romaji c Q (kana_no_romaji c C)) as H1. unfold S_kana, S_hiragana, S_katakana, Predicates.between in C.
  vm_compute in H1. repeat (destruct H1 as [H1|H1]; [subst c; lia|]). exact H1.
Qed.
Lemma hira_n E o s n : std_ok E -> Forall S_kana s \/ pass_romaji o = true ->
  to_hiragana_with_opt E (s ++ ch "ン" :: repeat (ch "ー") n) o = to_hiragana_with_opt E (s ++ [ch "ン"]) o.
Proof.
  intros HE H. rewrite !to_hiragana_with_opt_eq by exact HE. f_equal.
  pose proof (k2h_n E false n s HE) as K. pose proof (k2h_n E false 0 s HE) as K0. cbn [repeat] in K0.
  assert (P : forall k, hira_pure E o (s ++ ch "ン" :: repeat (ch "ー") k) = k2h E false (s ++ ch "ン" :: repeat (ch "ー") k)).
  { intro k. destruct H as [H|H]; [|unfold hira_pure; now rewrite H]. apply hira_kana. apply Forall_app. split; [exact H|].
    constructor; [right; unfold S_katakana, Predicates.between; now vm_compute|]. apply Forall_forall. intros c I. apply repeat_spec in I. subst c. left. now right. }
  pose proof (P 0%nat) as P0. cbn [repeat] in P0. rewrite P, K, P0, K0. reflexivity.
Qed.

(** ** [to_katakana], Latin letters left alone *)
Definition kata_letter (c : N) : bool := (0x30A1 <=? c) && (c <=? 0x30F6).
Definition hira_letter (c : N) : bool := (0x3041 <=? c) && (c <=? 0x3096).
Definition back (c : N) : list N := if hira_letter c then [] else if kata_letter c then [c; c - 96] else [c].
Fixpoint backs (r : str) : list str :=
  match r with [] => [[]] | c :: r => flat_map (fun w => map (fun x => x :: w) (back c)) (backs r) end.
Lemma back_spec c x : In x (back c) <-> h2k_char x = c.
Proof.
  rewrite <- h2k_char_spec. unfold back, hira_letter, kata_letter, katakana_for.
  destruct ((0x3041 <=? c) && (c <=? 0x3096)) eqn:A; [cbn [In]; lia|].
  destruct ((0x30A1 <=? c) && (c <=? 0x30F6)) eqn:B; cbn [In]; lia.
Qed.
Lemma back_NoDup c : NoDup (back c).
Proof.
  unfold back. destruct (hira_letter c); [constructor|]. destruct (kata_letter c) eqn:K; [|repeat constructor; easy].
  constructor; [|repeat constructor; easy]. unfold kata_letter in K. intros [H|[]]. lia.
Qed.
Lemma backs_spec r : forall s, In s (backs r) <-> h2k s = r.
Proof.
  induction r as [|c r IH]; intro s.
  - cbn. destruct s; [|split; [intros [H|[]]; discriminate H|discriminate]]. split; [reflexivity|now left].
  - cbn [backs]. rewrite in_flat_map. split.
    + intros (w & W & I). apply in_map_iff in I. destruct I as (x & <- & I). apply IH in W. apply back_spec in I.
      unfold h2k in *. cbn [map]. now rewrite I, W.
    + intro H. destruct s as [|x w]; [discriminate H|]. unfold h2k in *. cbn [map] in H. injection H as H1 H2.
      exists w. split; [now apply IH|]. apply in_map_iff. exists x. split; [reflexivity|now apply back_spec].
Qed.
Lemma backs_NoDup r : NoDup (backs r).
Proof.
  induction r as [|c r IH]; [repeat constructor; easy|]. cbn [backs]. induction IH as [|w l W L IHl]; [constructor|].
  cbn [flat_map]. apply NoDup_both; [|exact IHl|].
  - apply Injective_map_NoDup; [|apply back_NoDup]. intros x y Q. now injection Q.
  - intros s I J. apply in_map_iff in I. destruct I as (x & <- & _). apply in_flat_map in J. destruct J as (w' & W' & J).
    apply in_map_iff in J. destruct J as (y & [= _ ->] & _). contradiction.
Qed.
Lemma backs_length c r : length (backs (c :: r)) = (length (back c) * length (backs r))%nat.
Proof.
  cbn [backs]. rewrite flat_length. generalize (backs r). intro l. induction l as [|w l IH]; [cbn; lia|].
  cbn [map total length]. rewrite IH, map_length. lia.
Qed.
Lemma kata_ways E o r : std_ok E -> pass_romaji o = true ->
  exists l, NoDup l /\ (forall s, In s l <-> to_katakana_with_opt E s o = Ok r)
    /\ (l <> [] <-> (forall c, In c r -> ~ 0x3041 <= c <= 0x3096))
    /\ (length l <= 2 ^ length r)%nat
    /\ (length l = (2 ^ length r)%nat <-> (forall c, In c r -> 0x30A1 <= c <= 0x30F6)).
Proof.
  intros HE P. exists (backs r). split; [apply backs_NoDup|]. split.
  { intro s. rewrite backs_spec, to_katakana_with_opt_eq by exact HE. unfold kata_pure. rewrite P. split; [now intros ->|now intros [= H]]. }
  assert (Z : backs r <> [] <-> (0 < length (backs r))%nat) by (destruct (backs r); cbn; split; (easy || lia)). rewrite Z. clear Z.
  induction r as [|c r (I1 & I2 & I3)].
  - cbn. split; [split; [easy|lia]|]. split; [lia|]. split; [easy|reflexivity].
  - rewrite backs_length. cbn [length In]. rewrite Nat.pow_succ_r'.
    assert (Q : forall p : N -> Prop, (forall d, c = d \/ In d r -> p d) <-> p c /\ (forall d, In d r -> p d)).
    { intro p. split; [intro H; split; auto|]. intros (H1 & H2) d [<-|I]; auto. }
    rewrite !Q. rewrite <- I1, <- I3. set (a := length (backs r)) in *. set (b := (2 ^ length r)%nat) in *.
    assert (B : (1 <= b)%nat) by (unfold b; clear; induction (length r) as [|k IH]; [cbn; lia|rewrite Nat.pow_succ_r'; lia]).
    unfold back, hira_letter, kata_letter. clearbody a b. clear I1 I3 Q.
    destruct ((0x3041 <=? c) && (c <=? 0x3096)) eqn:A1; [|destruct ((0x30A1 <=? c) && (c <=? 0x30F6)) eqn:A2];
      cbn [length]; (split; [|split]); lia.
Qed.
