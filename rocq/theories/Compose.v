(** * One conversion after another: C83 *)
From Coq Require Import Bool.
From Verif Require Import Tac Base Std Constants Chars RomajiTree Strings Convert
  KanaPure RomajiPure KanaSpec KanaDict KanaProofs Predicates ScriptSpec ScriptProofs RomajiSpec RomajiProofs MoraProofs
  LibraryProofs ChoiceSpec ChoiceProofs JoinSpec Joins JoinText TokenSpec ScriptIdem ExactScript LowerTwice Fixed ComposeSpec.

Local Opaque rdict.
(** ** Counting what katakana has fewer of *)
Definition mark_b (c : N) : bool := dash_b c || (c =? 0x3095) || (c =? 0x3096).
Definition marks (h : str) : nat := length (filter mark_b h).
Lemma marks_app a b : marks (a ++ b) = (marks a + marks b)%nat.
Proof. unfold marks. now rewrite filter_app, app_length. Qed.
Lemma marks_table : forallb (fun e => Nat.eqb (marks (fst e)) (marks (snd e))) rdict = true.
Proof. vm_cast_no_check (eq_refl true). Qed.
Lemma R_marks E r r' : library E r r' -> forall n h, (length h <= n)%nat -> marks (R E h) = marks h.
Proof.
  intro L. induction n as [|n IH]; intros [|c s] B; [reflexivity|cbn in B; lia|reflexivity|].
  destruct (first_unit E r r' L c s) as (k & v & rest & Sp & U & C). rewrite Sp in B |- *.
  rewrite (unit_step E r r' L k v rest U C), !marks_app.
  rewrite IH; [|rewrite app_length in B; apply unit_nonempty in U; destruct k; [congruence|cbn [length] in B; lia]].
  f_equal. destruct U as [I|(d & -> & -> & _)]; [|reflexivity]. apply ent_entry in I.
  pose proof marks_table as T. rewrite forallb_forall in T. specialize (T _ I). apply Nat.eqb_eq in T. symmetry. exact T.
Qed.
Lemma vowel_marks d k v : mark_vowel (o_vowel d) k v -> marks v = 0%nat.
Proof.
  intros (row & I & _).
  assert (forallb (fun d => forallb (fun r => Nat.eqb (marks (snd r)) 0) (mark_table (o_vowel d))) [true; false] = true) as T by (vm_compute; reflexivity).
  rewrite forallb_forall in T. specialize (T d ltac:(destruct d; cbn; auto)). rewrite forallb_forall in T. specialize (T _ I). now apply Nat.eqb_eq in T.
Qed.

(** ** By way of katakana *)
Lemma h2k_other c : ~ hiragana_letter c -> h2k_char c = c.
Proof. intro H. destruct (h2k_char_cases c) as [Q|[Q _]]; [exact Q|contradiction]. Qed.
Lemma hira_dec c : hiragana_letter c \/ ~ hiragana_letter c.
Proof. unfold hiragana_letter. lia. Qed.
Lemma lengthens_shift a k : lengthens a k -> lengthens (h2k a) k.
Proof.
  intros (a' & run & -> & K1 & K2 & K3). exists (h2k a'), run. split; [|auto]. unfold h2k. rewrite map_app. cbn [map]. f_equal. f_equal.
  - apply h2k_other. unfold katakana_letter in K1. unfold hiragana_letter. lia.
  - rewrite <- (map_id run) at 2. apply map_ext_in. intros c I. apply h2k_other. rewrite Forall_forall in K3. specialize (K3 c I). clear -K3.
    change (u "ー・ヵヶ") with [0x30FC; 0x30FB; 0x30F5; 0x30F6] in K3. cbn [In] in K3. unfold hiragana_letter. lia.
Qed.
Definition newly (a s : str) : Prop :=
  (exists c, In c s /\ In c (u "ゕゖ")) \/
  exists s1 s2 k, s = s1 ++ long_mark :: s2 /\ lengthens (h2k (a ++ s1)) k /\ ~ exists k', lengthens (a ++ s1) k'.
Lemma newly_cons a c s : newly (a ++ [c]) s -> newly a (c :: s).
Proof.
  intros [(d & I & D)|(s1 & s2 & k & -> & K & K')]; [left; exists d; split; [now right|exact D]|].
  right. exists (c :: s1), s2, k. rewrite <- app_assoc in K, K'. auto.
Qed.
Lemma newly_inv a c s : newly a (c :: s) ->
  newly (a ++ [c]) s \/ In c (u "ゕゖ") \/ (c = long_mark /\ (exists k, lengthens (h2k a) k) /\ ~ exists k', lengthens a k').
Proof.
  intros [(d & [<- |I] & D)|(s1 & s2 & k & Q & K & K')]; [auto|left; left; eauto|].
  destruct s1 as [|c1 s1]; injection Q as -> Q.
  - rewrite !app_nil_r in *. right. right. eauto.
  - subst s. left. right. exists s1, s2, k. rewrite <- app_assoc. auto.
Qed.
Lemma for_shift c h h' : hiragana_for c h -> hiragana_for (h2k_char c) h' -> ~ In c (u "ゕゖ") -> h = h'.
Proof.
  intros A B N. change (u "ゕゖ") with [0x3095; 0x3096] in N. cbn [In] in N. unfold hiragana_for in A, B.
  change (ch "ヷ") with 0x30F7 in *. change (ch "ヸ") with 0x30F8 in *. change (ch "ヹ") with 0x30F9 in *. change (ch "ヺ") with 0x30FA in *.
  change (ch "わ") with 0x308F in *. change (ch "ゐ") with 0x3090 in *. change (ch "ゑ") with 0x3091 in *. change (ch "を") with 0x3092 in *.
  destruct (hira_dec c) as [H|H]; [rewrite (h2k_letter c H) in B|rewrite (h2k_other c H) in B]; unfold hiragana_letter in H; lia.
Qed.
Lemma mark_shift c : c <> long_mark -> h2k_char c <> long_mark.
Proof.
  unfold long_mark. intro N. destruct (h2k_char_cases c) as [->|[H ->]]; [exact N|]. unfold hiragana_letter in H. lia.
Qed.
Lemma shift_context d r a s h : chosen_text r (o_vowel d) a s h -> forall h', chosen_text r (o_vowel d) (h2k a) (h2k s) h' ->
  (h = h' /\ ~ newly a s) \/ ((marks h' < marks h)%nat /\ newly a s).
Proof.
  intro H. induction H as [a|a c s p t P PV H IH]; intros h' H'; cbn [h2k map] in H'; inversion H' as [|? ? ? p' t' P' PV' T']; subst.
  { left. split; [reflexivity|]. intros [(c & [] & _)|(s1 & s2 & k & Q & _)]. destruct s1; discriminate Q. }
  change [h2k_char c] with (h2k [c]) in T'. unfold h2k at 1 2 in T'. rewrite <- map_app in T'. specialize (IH t' T').
  assert ((p = p' /\ ~ (In c (u "ゕゖ") \/ (c = long_mark /\ (exists k, lengthens (h2k a) k) /\ ~ exists k', lengthens a k')))
          \/ ((marks p' < marks p)%nat /\ (In c (u "ゕゖ") \/ (c = long_mark /\ (exists k, lengthens (h2k a) k) /\ ~ exists k', lengthens a k')))) as D.
  { destruct P as [(N1 & y & A & ->)|[(-> & k & A & B)|(-> & A & ->)]].
    - destruct P' as [(N2 & y' & A' & ->)|[(E2 & _)|(E2 & _)]]; [|exfalso; exact (mark_shift c N1 E2)..].
      destruct (in_dec N.eq_dec c (u "ゕゖ")) as [I|I].
      + right. split; [|now left]. clear -I A A'. destruct I as [<- |[<- |[]]].
        * apply k2hc_spec in A, A'. vm_compute in A, A'. subst y y'. vm_compute. auto.
        * apply k2hc_spec in A, A'. vm_compute in A, A'. subst y y'. vm_compute. auto.
      + left. split; [f_equal; exact (for_shift c y y' A A' I)|]. intros [Z|[Z _]]; contradiction.
    - change (h2k_char long_mark) with long_mark in P'. destruct P' as [(N2 & _)|[(_ & k' & A' & B')|(_ & A' & _)]]; [now elim N2| |exfalso; apply A'; exists k; now apply lengthens_shift].
      left. assert (k = k') by (eapply lengthens_det; [apply lengthens_shift; exact A|exact A']). subst k'. split.
      + destruct (N.eq_dec k (ch "ヴ")) as [->|Nk]; [now rewrite PV, PV'|]. eapply mark_vowel_det; [exact Nk|exact B|exact B'].
      + intros [Z|(_ & _ & Z)]; [vm_compute in Z; intuition discriminate|]. apply Z. now exists k.
    - change (h2k_char long_mark) with long_mark in P'. destruct P' as [(N2 & _)|[(_ & k' & A' & B')|(_ & A' & ->)]]; [now elim N2| |].
      + right. rewrite (vowel_marks _ _ _ B'). split; [vm_compute; auto|]. right. split; [reflexivity|]. split; [now exists k'|exact A].
      + left. split; [reflexivity|]. intros [Z|(_ & Z & _)]; [vm_compute in Z; intuition discriminate|contradiction]. }
  rewrite !marks_app. destruct D as [(-> & D)|(D & D')].
  - destruct IH as [(-> & IH)|(L & IH)]; [left|right].
    + split; [reflexivity|]. intro Z. apply newly_inv in Z. destruct Z as [Z|Z]; [exact (IH Z)|exact (D Z)].
    + split; [lia|now apply newly_cons].
  - right. split.
    + destruct IH as [(-> & _)|(L & _)]; lia.
    + destruct D' as [I|(-> & (k & K) & K')]; [left; exists c; split; [now left|exact I]|]. right. exists [], s, k. rewrite !app_nil_r. auto.
Qed.
Lemma newly_spec s : newly [] s <-> (exists c, In c s /\ In c (u "ゕゖ")) \/ mark_after_hiragana s.
Proof.
  split.
  - intros [H|(s1 & s2 & k & -> & (a' & run & Q & K1 & K2 & K3) & N)]; [now left|]. cbn [app] in Q, N.
    unfold h2k in Q. apply map_eq_app in Q. destruct Q as (a0 & l & -> & <- & Q). apply map_eq_cons in Q. destruct Q as (c0 & run0 & -> & C & R).
    destruct (existsb (fun c => existsb (N.eqb c) (u "ゕゖ")) run0) eqn:X.
    { left. apply existsb_exists in X. destruct X as (c & I & X). rewrite existsb_In in X. exists c. split; [|exact X].
      apply in_or_app. left. apply in_or_app. right. now right. }
    right. exists a0, c0, run0, s2. rewrite <- !app_assoc. split; [reflexivity|].
    assert (R' : Forall (fun d => In d (u "ー・ヵヶ")) run0).
    { apply Forall_forall. intros c I. apply not_true_iff_false in X. assert (Y : ~ In c (u "ゕゖ")).
      { intro Y. apply X. apply existsb_exists. exists c. split; [exact I|]. now rewrite existsb_In. }
      rewrite Forall_forall in K3. assert (Z : In (h2k_char c) (u "ー・ヵヶ")) by (apply K3; rewrite <- R; now apply in_map).
      destruct (hira_dec c) as [H|H]; [|now rewrite (h2k_other c H) in Z]. exfalso. rewrite (h2k_letter c H) in Z. clear -H Y Z. unfold hiragana_letter in H.
      change (u "ゕゖ") with [0x3095; 0x3096] in Y. change (u "ー・ヵヶ") with [0x30FC; 0x30FB; 0x30F5; 0x30F6] in Z. cbn [In] in Y, Z. lia. }
    split; [|exact R']. destruct (hira_dec c0) as [H|H]; [exact H|]. exfalso. apply N. exists k, a0, run0. rewrite (h2k_other c0 H) in C. subst k. auto.
  - intros [H|(x & c & run & y & -> & H & R)]; [now left|].
    destruct (in_dec N.eq_dec c (u "ゕゖ")) as [I|I]. { left. exists c. split; [apply in_or_app; right; now left|exact I]. }
    right. exists (x ++ c :: run), y, (h2k_char c). cbn [app]. split; [now rewrite <- app_assoc|]. split.
    + exists (h2k x), run. split; [|split; [|split; [|exact R]]].
      * unfold h2k. rewrite map_app. cbn [map]. f_equal. f_equal. rewrite <- (map_id run) at 2. apply map_ext_in. intros e J. apply h2k_other.
        rewrite Forall_forall in R. specialize (R e J). clear -R. change (u "ー・ヵヶ") with [0x30FC; 0x30FB; 0x30F5; 0x30F6] in R. cbn [In] in R. unfold hiragana_letter. lia.
      * rewrite (h2k_letter c H). unfold hiragana_letter in H. unfold katakana_letter. lia.
      * rewrite (h2k_letter c H). clear -H I. unfold hiragana_letter in H. change (u "ゕゖ") with [0x3095; 0x3096] in I. change (u "ヵヶ") with [0x30F5; 0x30F6]. cbn [In] in *. lia.
    + intros (k & a' & run' & Q & K1 & K2 & K3).
      assert (G : forall run run' x a', Forall (fun d => In d (u "ー・ヵヶ")) run -> Forall (fun d => In d (u "ー・ヵヶ")) run' ->
        x ++ c :: run = a' ++ k :: run' -> c = k).
      { clear -H K1 K2. assert (Nc : ~ In c (u "ー・ヵヶ")) by (unfold hiragana_letter in H; change (u "ー・ヵヶ") with [0x30FC; 0x30FB; 0x30F5; 0x30F6]; cbn [In]; lia).
        assert (Nk : ~ In k (u "ー・ヵヶ")) by (unfold katakana_letter in K1; change (u "ヵヶ") with [0x30F5; 0x30F6] in K2; change (u "ー・ヵヶ") with [0x30FC; 0x30FB; 0x30F5; 0x30F6]; cbn [In] in *; lia).
        induction run as [|e run IH] using rev_ind; intros run' x a' R R' Q; destruct run' as [|e' run' _] using rev_ind.
        - apply app_inj_tail in Q. tauto.
        - apply Forall_app in R'. destruct R' as [_ R']. inversion R'; subst. change (a' ++ k :: run' ++ [e']) with (a' ++ (k :: run') ++ [e']) in Q.
          rewrite app_assoc in Q. apply app_inj_tail in Q. destruct Q as [_ ->]. contradiction.
        - apply Forall_app in R. destruct R as [_ R]. inversion R; subst. change (x ++ c :: run ++ [e]) with (x ++ (c :: run) ++ [e]) in Q.
          rewrite app_assoc in Q. apply app_inj_tail in Q. destruct Q as [_ <-]. contradiction.
        - change (a' ++ k :: run' ++ [e']) with (a' ++ (k :: run') ++ [e']) in Q. change (x ++ c :: run ++ [e]) with (x ++ (c :: run) ++ [e]) in Q.
          rewrite !app_assoc in Q. apply app_inj_tail in Q. destruct Q as [Q _]. apply Forall_app in R, R'. exact (IH run' x a' (proj1 R) (proj1 R') Q). }
      specialize (G run run' x a' R K3 Q). subst k. unfold hiragana_letter in H. unfold katakana_letter in K1. lia.
Qed.
Definition by_katakana (s : str) : Prop := (forall c, In c s -> ~ In c (u "ゕゖ")) /\ ~ mark_after_hiragana s.
Lemma not_newly s : ~ newly [] s <-> by_katakana s.
Proof.
  rewrite newly_spec. unfold by_katakana. split.
  - intro H. split; [intros c I J; apply H; left; eauto|intro M; apply H; now right].
  - intros [A B] [(c & I & J)|M]; [exact (A c I J)|exact (B M)].
Qed.
Theorem hiragana_by_katakana E d s : std_ok E -> k2h E d (h2k s) = k2h E d s <-> by_katakana s.
Proof.
  intro HE. destruct (library_both E HE) as (r & r' & L & _ & _ & _ & T). rewrite <- not_newly.
  destruct (shift_context d r [] s _ (T d s) _ (T d (h2k s))) as [(Q & N)|(M & N)].
  - split; auto.
  - split; [|tauto]. intro Q. rewrite Q in M. lia.
Qed.
Theorem romaji_by_katakana E s : std_ok E -> R E (k2h E true (h2k s)) = R E (k2h E true s) <-> by_katakana s.
Proof.
  intro HE. destruct (library_both E HE) as (r & r' & L & _ & _ & _ & T). rewrite <- not_newly.
  destruct (shift_context true r [] s _ (T true s) _ (T true (h2k s))) as [(Q & N)|(M & N)].
  - rewrite Q. tauto.
  - split; [|tauto]. intro Q. apply (f_equal marks) in Q. rewrite !(R_marks E r r' L _ _ (le_n _)) in Q. lia.
Qed.

(** ** By way of hiragana, back to katakana *)
Definition lost_b (c : N) : bool := (c =? long_mark) || ((0x30F7 <=? c) && (c <=? 0x30FA)).
Definition lost (h : str) : nat := length (filter lost_b h).
Lemma lost_app a b : lost (a ++ b) = (lost a + lost b)%nat.
Proof. unfold lost. now rewrite filter_app, app_length. Qed.
Lemma vowel_lost d k v : mark_vowel (o_vowel d) k v -> lost (h2k v) = 0%nat.
Proof.
  intros (row & I & _).
  assert (forallb (fun d => forallb (fun r => Nat.eqb (lost (h2k (snd r))) 0) (mark_table (o_vowel d))) [true; false] = true) as T by (vm_compute; reflexivity).
  rewrite forallb_forall in T. specialize (T d ltac:(destruct d; cbn; auto)). rewrite forallb_forall in T. specialize (T _ I). now apply Nat.eqb_eq in T.
Qed.
Definition changed (a s : str) : Prop :=
  (exists c, In c s /\ In c (u "ヷヸヹヺ")) \/ exists s1 s2 k, s = s1 ++ long_mark :: s2 /\ lengthens (a ++ s1) k.
Lemma changed_cons a c s : changed (a ++ [c]) s -> changed a (c :: s).
Proof.
  intros [(d & I & D)|(s1 & s2 & k & -> & K)]; [left; exists d; split; [now right|exact D]|].
  right. exists (c :: s1), s2, k. rewrite <- app_assoc in K. auto.
Qed.
Lemma changed_inv a c s : changed a (c :: s) -> changed (a ++ [c]) s \/ In c (u "ヷヸヹヺ") \/ (c = long_mark /\ exists k, lengthens a k).
Proof.
  intros [(d & [<- |I] & D)|(s1 & s2 & k & Q & K)]; [auto|left; left; eauto|].
  destruct s1 as [|c1 s1]; injection Q as -> Q.
  - rewrite !app_nil_r in *. right. right. eauto.
  - subst s. left. right. exists s1, s2, k. rewrite <- app_assoc. auto.
Qed.
Lemma back_context d r a s h : chosen_text r (o_vowel d) a s h ->
  (h2k h = h2k s /\ ~ changed a s) \/ ((lost (h2k h) < lost (h2k s))%nat /\ changed a s).
Proof.
  intro H. induction H as [a|a c s p t P PV H IH].
  { left. split; [reflexivity|]. intros [(c & [] & _)|(s1 & s2 & k & Q & _)]. destruct s1; discriminate Q. }
  change (h2k (c :: s)) with (h2k [c] ++ h2k s). replace (h2k (p ++ t)) with (h2k p ++ h2k t) by (symmetry; apply map_app).
  assert ((h2k p = h2k [c] /\ ~ (In c (u "ヷヸヹヺ") \/ (c = long_mark /\ exists k, lengthens a k)))
          \/ ((lost (h2k p) < lost (h2k [c]))%nat /\ (In c (u "ヷヸヹヺ") \/ (c = long_mark /\ exists k, lengthens a k)))) as D.
  { destruct P as [(N1 & y & A & ->)|[(-> & k & A & B)|(-> & A & ->)]].
    - destruct (in_dec N.eq_dec c (u "ヷヸヹヺ")) as [I|I].
      + right. split; [|now left]. apply k2hc_spec in A. subst y. clear -I. destruct I as [<- |[<- |[<- |[<- |[]]]]]; vm_compute; auto.
      + left. split; [|intros [Z|[Z _]]; contradiction]. cbn [h2k map]. f_equal.
        assert (~ (0x30F7 <= c <= 0x30FA)) as I' by (clear -I; change (u "ヷヸヹヺ") with [0x30F7; 0x30F8; 0x30F9; 0x30FA] in I; cbn [In] in I; lia).
        unfold hiragana_for in A. change (ch "ヷ") with 0x30F7 in *. change (ch "ヸ") with 0x30F8 in *. change (ch "ヹ") with 0x30F9 in *. change (ch "ヺ") with 0x30FA in *.
        assert ((0x30A1 <= c <= 0x30F4 /\ y = c - 96) \/ y = c) as [[B ->]| ->] by (clear -A I'; lia); [|reflexivity].
        rewrite (h2k_letter (c - 96)), (h2k_other c); unfold hiragana_letter; lia.
    - right. rewrite (vowel_lost _ _ _ B). split; [vm_compute; auto|]. right. split; [reflexivity|]. now exists k.
    - left. split; [reflexivity|]. intros [Z|(_ & Z)]; [vm_compute in Z; intuition discriminate|contradiction]. }
  rewrite !lost_app. destruct D as [(-> & D)|(D & D')].
  - destruct IH as [(-> & IH)|(L & IH)]; [left|right].
    + split; [reflexivity|]. intro Z. apply changed_inv in Z. destruct Z as [Z|Z]; [exact (IH Z)|exact (D Z)].
    + split; [lia|now apply changed_cons].
  - right. split.
    + destruct IH as [(-> & _)|(L & _)]; lia.
    + destruct D' as [I|(-> & (k & K))]; [left; exists c; split; [now left|exact I]|]. right. exists [], s, k. rewrite app_nil_r. auto.
Qed.
Theorem katakana_by_hiragana E d s : std_ok E -> h2k (k2h E d s) = h2k s <-> (forall c, In c s -> ~ In c (u "ヷヸヹヺ")) /\ no_long_mark s.
Proof.
  intro HE. destruct (library_both E HE) as (r & r' & L & _ & _ & _ & T).
  assert ((forall c, In c s -> ~ In c (u "ヷヸヹヺ")) /\ no_long_mark s <-> ~ changed [] s) as ->.
  { unfold no_long_mark, changed. split.
    - intros [A B] [(c & I & J)|(s1 & s2 & k & Q & K)]; [exact (A c I J)|exact (B s1 s2 k Q K)].
    - intro H. split; [intros c I J; apply H; left; eauto|intros a b k Q K; apply H; right; exists a, b, k; auto]. }
  destruct (back_context d r [] s _ (T d s)) as [(Q & N)|(M & N)]; [tauto|]. split; [|tauto]. intro Q. rewrite Q in M. lia.
Qed.

(** ** By way of hiragana, to romaji *)
Definition ou (a b : N) : Prop := a = b \/ (a = ch "う" /\ b = ch "お").
Definition ous (a b : str) : Prop := Forall2 ou a b.
Lemma ous_refl a : ous a a.
Proof. induction a; constructor; [now left|assumption]. Qed.
Lemma ous_length a b : ous a b -> length a = length b.
Proof. induction 1; cbn; congruence. Qed.
Fixpoint variants (k : str) : list str :=
  match k with
  | [] => [[]]
  | c :: k => flat_map (fun t => if c =? ch "う" then [c :: t; ch "お" :: t] else [c :: t]) (variants k)
  end.
Fixpoint variants' (k : str) : list str :=
  match k with
  | [] => [[]]
  | c :: k => flat_map (fun t => if c =? ch "お" then [c :: t; ch "う" :: t] else [c :: t]) (variants' k)
  end.
Lemma variants_spec k k' : ous k k' -> In k' (variants k).
Proof.
  intro H. induction H as [|c c' k k' [->|[-> ->]] _ IH]; [now left| |].
  - cbn [variants]. apply in_flat_map. exists k'. split; [exact IH|]. destruct (_ =? _); now left.
  - cbn [variants]. apply in_flat_map. exists k'. split; [exact IH|]. rewrite N.eqb_refl. right. now left.
Qed.
Lemma variants'_spec k k' : ous k' k -> In k' (variants' k).
Proof.
  intro H. induction H as [|c c' k' k [->|[-> ->]] _ IH]; [now left| |].
  - cbn [variants']. apply in_flat_map. exists k'. split; [exact IH|]. destruct (_ =? _); now left.
  - cbn [variants']. apply in_flat_map. exists k'. split; [exact IH|]. rewrite N.eqb_refl. right. now left.
Qed.
Definition ou_table (r r' : nat) : bool :=
  let dict := chosen_dict r r' in
  forallb (fun e =>
    forallb (fun k' => existsb (fun e' => str_eqb (fst e') k' && Nat.eqb (length (snd e')) (length (snd e)) && (str_eqb (fst e) k' || negb (str_eqb (snd e) (snd e')))) dict) (variants (fst e))
    && forallb (fun k' => existsb (fun e' => str_eqb (fst e') k') dict) (variants' (fst e))) dict.
Lemma ou_tables : forallb (fun r => forallb (ou_table r) (seq 0 5)) (seq 0 5) = true.
Proof. vm_cast_no_check (eq_refl true). Qed.
Section OU.
  Context (E : std) (r r' : nat) (L : library E r r').
  Lemma ou_rows : ou_table r r' = true.
  Proof.
    pose proof ou_tables as T. rewrite forallb_forall in T. pose proof (lib_r _ _ _ L). pose proof (lib_r' _ _ _ L).
    specialize (T r ltac:(apply in_seq; lia)). rewrite forallb_forall in T. apply T. apply in_seq. lia.
  Qed.
  Lemma ou_key k v k' : ent r r' k v -> ous k k' -> exists v', ent r r' k' v' /\ length v' = length v /\ (k = k' \/ v <> v').
  Proof.
    intros I O. pose proof ou_rows as T. unfold ou_table in T. rewrite forallb_forall in T. specialize (T _ I). apply andb_prop in T. destruct T as [T _].
    rewrite forallb_forall in T. specialize (T k' (variants_spec k k' O)). apply existsb_exists in T. destruct T as ([k1 v'] & J & T). cbn [fst snd] in T.
    apply andb_prop in T. destruct T as [T1 T]. apply andb_prop in T1. destruct T1 as [T1 T2]. apply str_eqb_eq in T1. subst k1. apply Nat.eqb_eq in T2.
    exists v'. split; [exact J|]. split; [exact T2|]. apply orb_prop in T. destruct T as [T|T]; [left; now apply str_eqb_eq|right].
    intros ->. apply negb_true_iff in T. rewrite (proj2 (str_eqb_eq v' v') eq_refl) in T. discriminate.
  Qed.
  Lemma ou_key' k v k' : ent r r' k' v -> ous k k' -> exists w, ent r r' k w.
  Proof.
    intros I O. pose proof ou_rows as T. unfold ou_table in T. rewrite forallb_forall in T. specialize (T _ I). apply andb_prop in T. destruct T as [_ T].
    rewrite forallb_forall in T. specialize (T k (variants'_spec k' k O)). apply existsb_exists in T. destruct T as ([k1 v'] & J & T). cbn [fst] in T.
    apply str_eqb_eq in T. subst k1. now exists v'.
  Qed.
  Lemma ou_different n : forall h h', (length h <= n)%nat -> ous h h' -> length (R E h) = length (R E h') /\ (R E h = R E h' -> h = h').
  Proof.
    induction n as [|n IH]; intros h h' B O; destruct h as [|c s].
    1,3: inversion O; subst; auto.
    { cbn in B. lia. }
    destruct (first_unit E r r' L c s) as (k & v & rest & Sp & U & C). rewrite Sp in B, O |- *.
    apply Forall2_app_inv_l in O. destruct O as (k' & rest' & O1 & O2 & ->).
    assert (exists v', unit r r' k' v' /\ length v' = length v /\ (k = k' \/ v <> v')) as (v' & U' & Lv & D).
    { destruct U as [I|(d & -> & -> & X)].
      - destruct (ou_key k v k' I O1) as (v' & J & Lv & D). exists v'. split; [now left|auto].
      - inversion O1 as [|? d' ? ? Od Or]; subst. inversion Or; subst. assert (d' = d) as ->.
        { destruct Od as [->|[-> ->]]; [reflexivity|]. exfalso. eapply (X (u "u")). apply entry_b_ent; vm_compute; reflexivity. }
        exists [d]. split; [right; exists d; auto|]. auto. }
    assert (closed r r' k' rest') as C'.
    { intros d' q w -> J. inversion O2 as [|d ? q0 ? Od Oq]; subst. destruct (ou_key' (k ++ [d]) w (k' ++ [d']) J) as (w' & J').
      { apply Forall2_app; [exact O1|]. constructor; [exact Od|constructor]. }
      exact (C d q0 w' eq_refl J'). }
    rewrite (unit_step E r r' L k v rest U C), (unit_step E r r' L k' v' rest' U' C').
    destruct (IH rest rest') as [L1 Q1]; [rewrite app_length in B; apply unit_nonempty in U; destruct k; [congruence|cbn [length] in B; lia]|exact O2|].
    rewrite !app_length, Lv, L1. split; [reflexivity|]. intro Q. apply app_len_inj in Q; [|lia|lia]. destruct Q as [Qv Qr]. destruct D as [->|D]; [|contradiction].
    f_equal. exact (Q1 Qr).
  Qed.
End OU.
Definition o_row : str := u "ォオコゴソゾトドノホボポモョヨロヲヺ".
Definition to_o (r : nat) (a s : str) : Prop := exists x k y, s = x ++ long_mark :: y /\ lengthens (a ++ x) k /\ (In k o_row \/ (k = ch "ヴ" /\ r = 4%nat)).
Lemma vowel_ou k v v' : k <> ch "ヴ" -> mark_vowel (u "う") k v -> mark_vowel (u "お") k v' ->
  (v = v' /\ ~ In k o_row) \/ (v = u "う" /\ v' = u "お" /\ In k o_row).
Proof.
  intros N (row & I & J) (row' & I' & J').
  assert (T : forallb (fun e => forallb (fun e' => forallb (fun k => (k =? ch "ヴ") || negb (existsb (N.eqb k) (fst e')) ||
    (if existsb (N.eqb k) o_row then str_eqb (snd e) (u "う") && str_eqb (snd e') (u "お") else str_eqb (snd e) (snd e'))) (fst e)) (mark_table (u "お"))) (mark_table (u "う")) = true)
    by (vm_compute; reflexivity).
  rewrite forallb_forall in T. specialize (T _ I). rewrite forallb_forall in T. specialize (T _ I'). cbn [fst snd] in T. rewrite forallb_forall in T. specialize (T _ J).
  apply N.eqb_neq in N. rewrite N in T. apply existsb_In in J'. rewrite J' in T. cbn [orb negb] in T.
  destruct (existsb (N.eqb k) o_row) eqn:X.
  - right. apply andb_prop in T. destruct T as [T1 T2]. apply str_eqb_eq in T1, T2. apply existsb_In in X. auto.
  - left. apply str_eqb_eq in T. split; [exact T|]. rewrite <- existsb_In, X. discriminate.
Qed.
Lemma o_context r a s h : (r < 5)%nat -> chosen_text r (u "う") a s h -> forall h', chosen_text r (u "お") a s h' ->
  ous h h' /\ (h = h' <-> ~ to_o r a s).
Proof.
  intros Lr H. induction H as [a|a c s p t P PV H IH]; intros h' H'; inversion H' as [|? ? ? p' t' P' PV' T']; subst.
  { split; [constructor|]. split; [|reflexivity]. intros _ (x & k & y & Q & _). destruct x; discriminate Q. }
  specialize (IH t' T'). destruct IH as [IH1 IH2].
  assert (D : ous p p' /\ length p = length p' /\ (p = p' <-> ~ (c = long_mark /\ exists k, lengthens a k /\ (In k o_row \/ (k = ch "ヴ" /\ r = 4%nat))))).
  { destruct P as [(N1 & y & A & ->)|[(-> & k & A & B)|(-> & A & ->)]],
      P' as [(N2 & y' & A' & ->)|[(E2 & k' & A' & B')|(E2 & A' & ->)]]; try contradiction; try congruence.
    - apply k2hc_spec in A, A'. subst y y'. split; [apply ous_refl|]. split; [reflexivity|]. split; [intros _ [Z _]; contradiction|reflexivity].
    - assert (k = k') by (eapply lengthens_det; [exact A|exact A']). subst k'.
      destruct (N.eq_dec k (ch "ヴ")) as [->|Nk].
      + rewrite PV, PV' by auto.
        assert (V : (r = 4%nat /\ v_vowel (u "う") r = u "う" /\ v_vowel (u "お") r = u "お") \/ (r <> 4%nat /\ v_vowel (u "う") r = v_vowel (u "お") r)).
        { do 4 (destruct r as [|r]; [right; split; [discriminate|reflexivity]|]). destruct r as [|r]; [left; auto|lia]. }
        destruct V as [(-> & -> & ->)|(N4 & ->)].
        * split; [constructor; [now right|constructor]|]. split; [reflexivity|]. split; [discriminate|]. intro Z. exfalso. apply Z. split; [reflexivity|]. exists (ch "ヴ"). auto.
        * split; [apply ous_refl|]. split; [reflexivity|]. split; [|reflexivity]. intros _ (_ & k & K & [I|[_ Z]]); [|contradiction].
          rewrite (lengthens_det _ _ _ K A) in I. revert I. vm_compute. intuition discriminate.
      + destruct (vowel_ou k p p' Nk B B') as [(-> & X)|(-> & -> & X)].
        * split; [apply ous_refl|]. split; [reflexivity|]. split; [|reflexivity]. intros _ (_ & k' & K & Z). rewrite (lengthens_det _ _ _ K A) in Z.
          destruct Z as [Z|[Z _]]; contradiction.
        * split; [constructor; [now right|constructor]|]. split; [reflexivity|]. split; [discriminate|]. intro Z. exfalso. apply Z. split; [reflexivity|]. exists k. auto.
    - exfalso. apply A'. now exists k.
    - exfalso. apply A. now exists k'.
    - split; [apply ous_refl|]. split; [reflexivity|]. split; [|reflexivity]. intros _ (_ & k & K & _). apply A. now exists k. }
  destruct D as (D1 & D2 & D3). split; [now apply Forall2_app|].
  assert (p ++ t = p' ++ t' <-> p = p' /\ t = t') as ->.
  { split; [|intros [-> ->]; reflexivity]. intro Q. apply app_len_inj in Q; [exact Q|lia|]. apply ous_length in IH1. lia. }
  rewrite D3, IH2. split.
  - intros [X Y] (x & k & y & Q & K & Z). destruct x as [|c1 x]; injection Q as -> Q.
    + rewrite app_nil_r in K. apply X. split; [reflexivity|]. eauto.
    + subst s. apply Y. exists x, k, y. rewrite <- app_assoc. auto.
  - intro X. split.
    + intros (-> & k & K & Z). apply X. exists [], k, s. rewrite app_nil_r. auto.
    + intros (x & k & y & -> & K & Z). apply X. exists (c :: x), k, y. rewrite <- app_assoc in K. auto.
Qed.
Theorem romaji_by_hiragana E s : std_ok E -> R E (k2h E true (k2h E false s)) = R E (k2h E true s) <-> ~ lengthens_o (R E [vu]) s.
Proof.
  intro HE. destruct (library_both E HE) as (r & r' & L & _ & _ & V & T).
  rewrite (k2h_no_katakana E true (k2h E false s)) by (intros c I; eapply k2h_not_katakana, I).
  destruct (o_context r [] s _ (lib_r _ _ _ L) (T false s) _ (T true s)) as [O Q].
  assert (lengthens_o (R E [vu]) s <-> to_o r [] s) as ->.
  { unfold lengthens_o, to_o. split; intros (x & k & y & S & K & [Z|[Z1 Z2]]); exists x, k, y; (split; [exact S|]; split; [exact K|]); [now left|right; tauto|now left|right; tauto]. }
  rewrite <- Q. split; [|now intros ->]. apply (ou_different E r r' L (length (k2h E false s))); [lia|exact O].
Qed.

(** ** The script conversions where there is no romaji *)
Lemma kana_only_pure E o s : kana_only (pass_romaji o) s -> hira_pure E o s = k2h E false s /\ kata_pure E o s = h2k s.
Proof.
  unfold kana_only, hira_pure, kata_pure. destruct (pass_romaji o); [split; reflexivity|]. intros [H|[N P]]; [discriminate|].
  assert (M : is_mixed s = false) by (apply not_true_iff_false; rewrite mixed_spec; intros [_ Z]; contradiction).
  assert (R : is_romaji s = false).
  { apply not_true_iff_false. rewrite romaji_text_spec. unfold all_nonempty. intros [Z1 Z2]. destruct s as [|c s]; [now apply Z1|]. apply N. exists c. split; [now left|]. apply Z2. now left. }
  assert (F : first_punct s = false) by (apply not_true_iff_false; rewrite first_punct_spec; exact P). rewrite M, R, F. split; reflexivity.
Qed.
Lemma romaji_low c : S_romaji c -> c < 0x2000.
Proof. unfold S_romaji. change (u "ĀāĒēĪīŌōŪū") with [256;257;274;275;298;299;332;333;362;363]. cbn [In]. lia. Qed.
Lemma punct_low c : S_en_punct c -> c < 0x3000.
Proof.
  intro I. unfold S_en_punct in I. assert (F : forallb (fun x => x <? 0x3000) (u " !""#$%&'()*+,-./:;<=>?[\]^_`{|}~‘’“”") = true) by (vm_compute; reflexivity).
  rewrite forallb_forall in F. specialize (F c I). lia.
Qed.
Lemma k2hc_low c : k2hc c < 0x3000 -> k2hc c = c.
Proof.
  intro L. assert (H : hiragana_for c (k2hc c)) by now apply k2hc_spec. revert L H. generalize (k2hc c). intros h L H. unfold hiragana_for in H.
  change (ch "わ") with 0x308F in *. change (ch "ゐ") with 0x3090 in *. change (ch "ゑ") with 0x3091 in *. change (ch "を") with 0x3092 in *. lia.
Qed.
Lemma h2k_low c : h2k_char c < 0x3000 -> h2k_char c = c.
Proof. destruct (h2k_char_cases c) as [->|[H ->]]; [reflexivity|]. unfold hiragana_letter in H. lia. Qed.
Lemma k2h_head E d c s : exists t, k2h E d (c :: s) = k2hc c :: t.
Proof.
  unfold k2h. cbn [k2h_go is_none]. rewrite andb_true_r. unfold k2hc.
  destruct (is_char_slash_dot c), (is_char_long_dash c), (is_kana_as_symbol c), (is_char_katakana c); cbn [orb andb negb]; eexists; reflexivity.
Qed.
Lemma kana_only_katakana b s : kana_only b s -> kana_only b (h2k s).
Proof.
  intros [H|[N P]]; [now left|right]. split.
  - intros (c & I & S). apply in_map_iff in I. destruct I as (d & <- & I). pose proof (romaji_low _ S) as L. rewrite (h2k_low d ltac:(lia)) in S. apply N. now exists d.
  - intros (c & r & Q & S). destruct s as [|d s]; [discriminate|]. injection Q as <- _. pose proof (punct_low _ S) as L. rewrite (h2k_low d L) in S. apply P. exists d, s. auto.
Qed.
Lemma kana_only_hiragana E d b s : kana_only b s -> kana_only b (k2h E d s).
Proof.
  intros [H|[N P]]; [now left|right]. split.
  - intros (c & I & S). pose proof (romaji_low _ S) as L. apply k2h_go_In in I. destruct I as [I|[_ I]].
    + apply in_map_iff in I. destruct I as (e & <- & I). rewrite (k2hc_low e ltac:(lia)) in S. apply N. now exists e.
    + clear -L I. change (u "あいうえお") with [0x3042; 0x3044; 0x3046; 0x3048; 0x304A] in I. cbn [In] in I. lia.
  - intros (c & r & Q & S). destruct s as [|e s]; [discriminate|]. destruct (k2h_head E d e s) as [t T]. rewrite T in Q. injection Q as <- _.
    pose proof (punct_low _ S) as L. rewrite (k2hc_low e L) in S. apply P. exists e, s. auto.
Qed.
