(** * Texts that are romanised completely (C80) *)
From Coq Require Import Bool.
From Verif Require Import Tac Base Std Chars Trees RomajiTree Strings Convert KanaSpec Predicates ScriptSpec ScriptProofs RomajiPure RomajiSpec RomajiProofs
  MoraProofs TokenSpec CompleteSpec.

Definition romaji_b (c : N) : bool := (c <=? 0x7F) || existsb (N.eqb c) (u "ĀāĒēĪīŌōŪū").
Lemma romaji_b_spec c : romaji_b c = true <-> S_romaji c.
Proof. unfold romaji_b, S_romaji. rewrite orb_true_iff, existsb_In, N.leb_le. reflexivity. Qed.
Definition r_punct : str := u "　、。〜！（）：？［］｛｝".
(** the same for a text in hiragana (ヷ is in the tree but never reached) *)
Definition hread_b (c : N) : bool :=
  romaji_b c || (0x3041 <=? c) && (c <=? 0x3094) || existsb (N.eqb c) [0x30F7; 0x30FB; 0x30FC] || existsb (N.eqb c) r_punct.
Definition hread (c : N) : Prop :=
  S_romaji c \/ 0x3041 <= c <= 0x3094 \/ c = 0x30F7 \/ c = 0x30FB \/ c = 0x30FC \/ In c r_punct.
Lemma hread_b_spec c : hread_b c = true <-> hread c.
Proof.
  unfold hread_b, hread. rewrite !orb_true_iff, andb_true_iff, romaji_b_spec, !existsb_In, !N.leb_le. cbn [In].
  assert (G : forall x : N, x = c <-> c = x) by (split; congruence). rewrite !G. generalize (In c r_punct), (S_romaji c). intros P Q. tauto.
Qed.

Definition entries_read : bool := forallb (fun e => Bool.eqb (forallb romaji_b (snd e)) (forallb hread_b (fst e)) && Bool.eqb (is_empty (snd e)) (forallb (N.eqb (ch "っ")) (fst e))) rdict.
Lemma entries_read_true : entries_read = true.
Proof. vm_cast_no_check (eq_refl true). Qed.
Lemma Forall_b {A} (f : A -> bool) (P : A -> Prop) l : (forall a, f a = true <-> P a) -> forallb f l = true <-> Forall P l.
Proof. intro H. rewrite forallb_forall, Forall_forall. split; intros G a I; apply H, G, I. Qed.
Lemma entry_read k v : r_entry k v -> (Forall S_romaji v <-> Forall hread k) /\ (v = [] <-> Forall (eq (ch "っ")) k).
Proof.
  intro I. pose proof entries_read_true as F. unfold entries_read in F. rewrite forallb_forall in F. specialize (F _ I). cbn [fst snd] in F.
  apply andb_prop in F. destruct F as [F1 F2]. apply Bool.eqb_prop in F1, F2. split.
  - rewrite <- (Forall_b _ _ v romaji_b_spec), F1. apply Forall_b, hread_b_spec.
  - rewrite <- (Forall_b (N.eqb (ch "っ")) _ k (fun a => N.eqb_eq _ _)), <- F2. destruct v; split; intro H; try reflexivity; discriminate.
Qed.
Lemma output_read up oseg v out : r_output up oseg v out -> (Forall S_romaji out <-> Forall S_romaji v) /\ (out = [] <-> v = []).
Proof.
  intros [(_ & _ & U)|[_ ->]]; [|tauto]. split; [|split; intros ->; now inversion U].
  assert (G : forall a b, uppers a b -> (S_romaji b <-> S_romaji a)).
  { intros a b [[L ->]|[_ ->]]; [|reflexivity]. unfold lower_letter in L. unfold S_romaji. split; intros _; left; lia. }
  induction U as [|a b v out H U IH]; [reflexivity|]. rewrite !Forall_cons_iff, (G _ _ H), IH. reflexivity.
Qed.
Definition roots : bool :=
  forallb (fun c => existsb (fun e => str_eqb (fst e) [c]) rdict) ([0x30F7] ++ r_punct).
Lemma roots_true : roots = true.
Proof. vm_compute. reflexivity. Qed.
Lemma copy_read c : (forall v, ~ r_entry [c] v) -> (S_romaji c <-> hread c).
Proof.
  intro H. split; [now left|]. intros [K|K]; [exact K|]. exfalso.
  assert (G : In c ([0x30F7] ++ r_punct) -> False).
  { intro I. pose proof roots_true as F. unfold roots in F. rewrite forallb_forall in F. specialize (F _ I). apply existsb_exists in F.
    destruct F as ([k v] & J & F). apply str_eqb_eq in F. cbn [fst] in F. subst k. exact (H v J). }
  assert (G' : 0x3041 <= c <= 0x3094 \/ c = 0x30FB \/ c = 0x30FC -> False).
  { intro I. apply kana_roots in I. destruct I as [v I]. exact (H v I). }
  destruct K as [K|[K|[K|[K|K]]]]; [apply G'; lia|apply G; left; lia|apply G'; lia|apply G'; lia|apply G; apply in_or_app; now right].
Qed.
Lemma romanises_read up orig s out : romanises up orig s out -> (Forall S_romaji out <-> Forall hread s) /\ (out = [] <-> Forall (eq (ch "っ")) s).
Proof.
  induction 1 as [orig|oseg orig seg s v out out' I L M O R [IH1 IH2]|d orig c s out N R [IH1 IH2]].
  - split; split; auto.
  - destruct (entry_read _ _ I) as [E1 E2], (output_read _ _ _ _ O) as [O1 O2]. rewrite !Forall_app, O1, E1, IH1. split; [reflexivity|].
    rewrite <- E2, <- O2, <- IH2. split; [intro Q; now apply app_eq_nil in Q|intros [-> ->]; reflexivity].
  - rewrite !Forall_cons_iff, IH1, (copy_read c N). split; [reflexivity|]. split; [discriminate|]. intros [<- _]. exfalso.
    destruct (kana_roots (ch "っ")) as [v I]; [left; vm_compute; split; discriminate|]. exact (N v I).
Qed.

(** the hiragana of a text *)
Lemma for_read c h : hiragana_for c h -> (hread h <-> readable c).
Proof.
  intro Q. unfold hiragana_for in Q. unfold readable, S_kana, S_hiragana, S_katakana, hread, S_romaji, Predicates.between.
  change (u "ゕゖヵヶ") with [0x3095; 0x3096; 0x30F5; 0x30F6].
  change (ch "ヷ") with 0x30F7 in Q. change (ch "ヸ") with 0x30F8 in Q. change (ch "ヹ") with 0x30F9 in Q. change (ch "ヺ") with 0x30FA in Q.
  change (ch "わ") with 0x308F in Q. change (ch "ゐ") with 0x3090 in Q. change (ch "ゑ") with 0x3091 in Q. change (ch "を") with 0x3092 in Q.
  change (u "　、。〜！（）：？［］｛｝") with r_punct.
  assert (Z : forall x, In x r_punct -> x < 0x3041 \/ 0x3100 < x).
  { intros x X. assert (F : forallb (fun x => (x <? 0x3041) || (0x3100 <? x)) r_punct = true) by (vm_compute; reflexivity). rewrite forallb_forall in F. specialize (F x X). clear -F. lia. }
  assert (Y : forall x, In x (u "ĀāĒēĪīŌōŪū") -> x < 0x3000).
  { intros x X. assert (F : forallb (fun x => x <? 0x3000) (u "ĀāĒēĪīŌōŪū") = true) by (vm_compute; reflexivity). rewrite forallb_forall in F. specialize (F x X). clear -F. lia. }
  pose proof (Z c) as Zc. pose proof (Z h) as Zh. pose proof (Y c) as Yc. pose proof (Y h) as Yh. clear Y Z.
  cbn [In].
  assert (c = h \/ (0x3041 <= h <= 0x3094 /\ 0x30A1 <= c <= 0x30FA /\ c <> 0x30F5 /\ c <> 0x30F6)) as [<- |B] by lia.
  - assert (~ (0x30A1 <= c <= 0x30F4) /\ ~ (0x30F7 <= c <= 0x30FA)) as B by lia. clear Q Zh Yh.
    assert (D : (0x3041 <= c <= 0x3094 \/ c = 0x30F7 \/ c = 0x30FB \/ c = 0x30FC) <->
      ((0x3041 <= c <= 0x3096 \/ c = 0x30FC) \/ 0x30A1 <= c <= 0x30FC) /\ ~ (0x3095 = c \/ 0x3096 = c \/ 0x30F5 = c \/ 0x30F6 = c \/ False)) by (clear -B; lia).
    clear -D. split.
    + intros [H|H]; [now left|].
      destruct H as [H|[H|[H|[H|H]]]]; [right; left; apply D; auto..|right; right; exact H].
    + intros [H|[H|H]]; [now left| |right; right; right; right; right; exact H]. right. apply D in H. destruct H as [H|[H|[H|H]]]; auto.
  - clear Q. split; intros _; [right; left; lia|right; left; lia].
Qed.
Lemma piece_read a c p : hiragana_piece (u "お") a c p -> (Forall hread p <-> readable c).
Proof.
  intros [(N1 & h & A & ->)|[(-> & k & A & B)|(-> & A & ->)]].
  - rewrite Forall_cons_iff, (for_read c h A). split; [tauto|]. auto.
  - split; intros _.
    + right. left. split; [right; unfold S_katakana, Predicates.between, long_mark; lia|]. vm_compute. intuition discriminate.
    + destruct B as (row & I & _). assert (F : forallb (fun e => forallb hread_b (snd e)) (mark_table (u "お")) = true) by (vm_compute; reflexivity).
      rewrite forallb_forall in F. specialize (F _ I). cbn [snd] in F. revert F. apply Forall_b, hread_b_spec.
  - split; intros _.
    + right. left. split; [right; unfold S_katakana, Predicates.between, long_mark; lia|]. vm_compute. intuition discriminate.
    + constructor; [|constructor]. apply hread_b_spec. reflexivity.
Qed.
Lemma text_read a s t : hiragana_text (u "お") a s t -> (Forall hread t <-> Forall readable s).
Proof.
  induction 1 as [a|a c s p t P H IH]; [split; auto|]. rewrite Forall_app, Forall_cons_iff, IH, (piece_read _ _ _ P). reflexivity.
Qed.

Lemma only_snoc a c : only_tsu (a ++ [c]) <-> only_tsu a /\ In c (u "っッー") /\ (c = long_mark -> exists x' d, a = x' ++ [d] /\ In d (u "ッー")).
Proof.
  unfold only_tsu. rewrite Forall_app, Forall_cons_iff. split.
  - intros [(F & C & _) H]. split; [split; [exact F|]|split; [exact C|]].
    + intros x y ->. apply (H x (y ++ [c])). now rewrite <- app_assoc.
    + intros ->. apply (H a []). reflexivity.
  - intros ((F & H) & C & G). split; [split; auto|]. intros x y Q. destruct y as [|d y _] using rev_ind.
    + apply app_inj_tail in Q. destruct Q as [<- ->]. now apply G.
    + change (x ++ 0x30FC :: y ++ [d]) with (x ++ (0x30FC :: y) ++ [d]) in Q. rewrite app_assoc in Q. apply app_inj_tail in Q. destruct Q as [-> _].
      now apply (H x y).
Qed.
Lemma only_prefix a b : only_tsu (a ++ b) -> only_tsu a.
Proof.
  induction b as [|c b IH] using rev_ind; [now rewrite app_nil_r|]. intro H. apply IH. rewrite app_assoc in H. now apply only_snoc in H.
Qed.
Lemma tsu_letter : katakana_letter (ch "ッ").
Proof. unfold katakana_letter. change (ch "ッ") with 0x30C3. lia. Qed.
Lemma only_lengthens a d : only_tsu (a ++ [d]) -> In d (u "ッー") -> lengthens (a ++ [d]) (ch "ッ").
Proof.
  revert d. induction a as [|e a IH] using rev_ind; intros d H I.
  - destruct I as [<- |[<- |[]]].
    + exists [], []. split; [reflexivity|]. split; [exact tsu_letter|]. split; [vm_compute; intuition discriminate|constructor].
    + apply (only_snoc [] (ch "ー")) in H. destruct H as (_ & _ & H). destruct (H eq_refl) as (x & c & Q & _). destruct x; discriminate.
  - destruct I as [<- |[<- |[]]].
    + exists (a ++ [e]), []. split; [reflexivity|]. split; [exact tsu_letter|]. split; [vm_compute; intuition discriminate|constructor].
    + apply (only_snoc (a ++ [e]) (ch "ー")) in H. destruct H as (H & _ & G). destruct (G eq_refl) as (x & c & Q & J). apply app_inj_tail in Q. destruct Q as [_ ->].
      destruct (IH c H J) as (a' & run & -> & K1 & K2 & K3). exists a', (run ++ [ch "ー"]). split; [now rewrite <- app_assoc|]. split; [exact K1|]. split; [exact K2|].
      apply Forall_app. split; [exact K3|]. constructor; [now left|constructor].
Qed.
Lemma lengthened_tsu a k : only_tsu a -> lengthens a k -> k = ch "ッ" /\ exists x' d, a = x' ++ [d] /\ In d (u "ッー").
Proof.
  intros [F H] (a' & run & -> & K1 & K2 & K3). apply Forall_app in F. destruct F as [_ F]. inversion F as [|? ? K Fr]; subst.
  assert (Kt : k = ch "ッ").
  { unfold katakana_letter in K1. cbn in K. change (ch "ッ") with 0x30C3. destruct K as [<- |[<- |[<- |[]]]]; revert K1; vm_compute; intuition congruence. }
  split; [exact Kt|]. subst k. destruct run as [|d run _] using rev_ind.
  - exists a', (ch "ッ"). split; [reflexivity|now left].
  - exists (a' ++ ch "ッ" :: run), d. split; [now rewrite <- app_assoc|]. apply Forall_app in K3, Fr. destruct K3 as [_ K3], Fr as [_ Fr].
    inversion K3 as [|? ? A _]; inversion Fr as [|? ? B _]; subst. clear -A B. cbn in A, B. destruct A as [<- |[<- |[<- |[<- |[]]]]]; [right; now left|exfalso..]; revert B; vm_compute; intuition discriminate.
Qed.
Lemma text_tsu a s t : hiragana_text (u "お") a s t -> only_tsu a -> (Forall (eq (ch "っ")) t <-> only_tsu (a ++ s)).
Proof.
  induction 1 as [a|a c s p t P H IH]; intro Oa; [rewrite app_nil_r; split; auto|].
  rewrite Forall_app. replace (a ++ c :: s) with ((a ++ [c]) ++ s) by now rewrite <- app_assoc.
  assert (E : Forall (eq (ch "っ")) p <-> only_tsu (a ++ [c])).
  { rewrite only_snoc. destruct P as [(N1 & h & A & ->)|[(-> & k & A & B)|(-> & A & ->)]].
    - rewrite Forall_cons_iff. unfold hiragana_for in A. change (u "っッー") with [0x3063; 0x30C3; 0x30FC]. cbn [In].
      change (ch "ヷ") with 0x30F7 in A. change (ch "ヸ") with 0x30F8 in A. change (ch "ヹ") with 0x30F9 in A. change (ch "ヺ") with 0x30FA in A.
      change (ch "わ") with 0x308F in A. change (ch "ゐ") with 0x3090 in A. change (ch "ゑ") with 0x3091 in A. change (ch "を") with 0x3092 in A.
      change (ch "っ") with 0x3063. unfold long_mark in *. split.
      + intros [<- _]. split; [exact Oa|]. split; [lia|congruence].
      + intros (_ & [<- |[<- |[<- |[]]]] & _); (split; [lia|constructor]).
    - destruct (lengthened_tsu a k Oa A) as [-> X]. assert (p = []) as ->.
      { destruct B as (row & I & J). cbn in I. destruct I as [I|[I|[I|[I|[I|[I|[]]]]]]]; injection I as <- <-; [exfalso..|reflexivity]; revert J; vm_compute; intuition discriminate. }
      split; [|constructor]. intros _. split; [exact Oa|]. split; [right; right; now left|]. intros _. exact X.
    - split.
      + intro F. inversion F as [|? ? X _]. discriminate X.
      + intros (_ & _ & G). exfalso. destruct (G eq_refl) as (x & d & -> & I). apply A. eexists. apply only_lengthens; eauto. }
  split.
  - intros [F1 F2]. apply E in F1. now apply IH.
  - intro O. assert (O1 : only_tsu (a ++ [c])) by exact (only_prefix _ _ O). split; [now apply E|]. now apply IH.
Qed.

Theorem romaji_complete E o s : std_ok E ->
  exists r, to_romaji_with_opt E s o = Ok r /\ (r = [] <-> only_tsu s) /\
    (is_romaji r = true <-> ~ only_tsu s /\ Forall readable s).
Proof.
  intro HE. rewrite to_romaji_with_opt_eq by exact HE. eexists. split; [reflexivity|].
  pose proof (k2h_text E true s HE) as T. change (o_vowel true) with (u "お") in T.
  assert (L : (length (k2h E true s) <= length s)%nat) by (eapply text_shorter; exact T).
  destruct (romanises_read _ _ _ _ (rconv_romanises E (upcase_katakana o) HE _ _ L)) as [R1 R2].
  rewrite (text_read _ _ _ T) in R1. assert (O : only_tsu []) by (split; [constructor|]; intros x y Q; destruct x; discriminate).
  rewrite (text_tsu _ _ _ T O) in R2. cbn [app] in R2. split; [exact R2|].
  destruct C36_holds as (_ & _ & _ & _ & C & _). rewrite C. unfold all_nonempty. rewrite <- Forall_forall, R1. tauto.
Qed.
