(** * Words that separate the conversion of a text to romaji and between the scripts (C98) *)
From Verif Require Import Tac Base Std Constants Chars RomajiTree Strings Convert
  RomajiPure KanaPure KanaSpec KanaDict KanaProofs Predicates ScriptSpec ScriptProofs ScriptIdem RomajiSpec RomajiProofs MoraProofs KanaJoin
  LibraryProofs ChoiceSpec ChoiceProofs TokenSpec JoinSpec Joins JoinText JoinUp FixedSpec Fixed SepSpec Results_Romaji.
Local Opaque rdict.

(** ** Long marks *)
Definition Mk (c : N) : Prop := In c (u "ー・ヵヶ").
Definition katakana_free (w : str) : Prop := forall c, In c w -> katakana_letter c -> In c (u "ヵヶ").
Lemma lengthens_past p c q k : ~ Mk c -> lengthens (p ++ c :: q) k -> lengthens (c :: q) k.
Proof.
  intros C. induction q as [|d q IH] using rev_ind; intro H.
  - apply lengthens_snoc in H. destruct H as [(-> & H)|(H & _)]; [|contradiction]. exists [], []. split; [reflexivity|]. split; [apply H|]. split; [apply H|constructor].
  - change (p ++ c :: q ++ [d]) with (p ++ (c :: q) ++ [d]) in H. rewrite app_assoc in H. apply lengthens_snoc in H.
    change (c :: q ++ [d]) with ((c :: q) ++ [d]). apply lengthens_snoc. destruct H as [H|(H & T)]; [now left|right]. auto.
Qed.
Lemma lengthens_free w y k : katakana_free w -> lengthens (w ++ y) k -> lengthens y k.
Proof.
  intro F. induction y as [|d y IH] using rev_ind; intro H.
  - exfalso. rewrite app_nil_r in H. destruct H as (a & run & -> & K & N & _). apply N, F; [|exact K]. apply in_or_app. right. now left.
  - rewrite app_assoc in H. apply lengthens_snoc in H. apply lengthens_snoc. destruct H as [H|(H & T)]; [now left|right]. auto.
Qed.
Lemma stop_into w x : mark_stop w -> ~ reaches x [] w.
Proof.
  intros (run & c & w' & -> & F & C) (s1 & s2 & k & Q & K & K'). cbn [app] in *.
  assert (exists z, s1 = run ++ c :: z) as [z ->].
  { clear - Q F C. revert s1 Q. induction F as [|d run D F IH]; intros s1 Q.
    - destruct s1 as [|e s1]; [|injection Q as -> _; now exists s1]. exfalso. injection Q as -> _. apply C. now left.
    - destruct s1 as [|e s1]; [exfalso; injection Q as -> _; clear - D; change (u "・ヵヶ") with [0x30FB; 0x30F5; 0x30F6] in D; change long_mark with 0x30FC in D; cbn in D; lia|].
      injection Q as -> Q. destruct (IH s1 Q) as [z ->]. now exists z. }
  apply K'. exists k. apply lengthens_more. rewrite app_assoc in K. now apply lengthens_past in K.
Qed.
Lemma stop_over w x y : mark_stop w -> katakana_free w -> ~ reaches (x ++ w) [] y.
Proof.
  intros (run & c & w' & -> & F & C) Fr (s1 & s2 & k & -> & K & K'). cbn [app] in *. apply K'. exists k.
  rewrite <- !app_assoc in K. cbn [app] in K. rewrite app_assoc in K. apply lengthens_past in K; [|exact C].
  change (c :: w' ++ s1) with ((c :: w') ++ s1) in K. apply lengthens_free in K; [exact K|]. intros e I. apply Fr. apply in_or_app. now right.
Qed.
(** otherwise カ before the word is lengthened in it or after it *)
Lemma no_stop w : mark_stop w \/ (exists w1 w2, w = w1 ++ long_mark :: w2 /\ Forall Mk w1 /\ ~ In long_mark w1) \/ (Forall Mk w /\ ~ In long_mark w).
Proof.
  induction w as [|c w IH]; [right; right; split; [constructor|intros []]|]. destruct (N.eq_dec c long_mark) as [->|L].
  { right; left. exists [], w. split; [reflexivity|]. split; [constructor|intros []]. }
  destruct (mem c (u "ー・ヵヶ")) eqn:E; [apply mem_In in E|apply mem_not in E].
  2: { left. exists [], c, w. split; [reflexivity|]. split; [constructor|exact E]. }
  assert (D : In c (u "・ヵヶ")) by (destruct E as [E|E]; [now destruct L|exact E]).
  destruct IH as [(run & d & w' & -> & F & N)|[(w1 & w2 & -> & F & N)|(F & N)]].
  - left. exists (c :: run), d, w'. split; [reflexivity|]. split; [now constructor|exact N].
  - right; left. exists (c :: w1), w2. split; [reflexivity|]. split; [now constructor|]. intros [Z|Z]; [now apply L|contradiction].
  - right; right. split; [now constructor|]. intros [Z|Z]; [now apply L|contradiction].
Qed.
Lemma ka_lengthens run : Forall Mk run -> lengthens (u "カ" ++ run) (ch "カ").
Proof.
  intro F. exists [], run. split; [reflexivity|]. split; [unfold katakana_letter; vm_compute; split; discriminate|]. split; [|exact F].
  intros [Z|[Z|[]]]; discriminate Z.
Qed.
Lemma no_letter_lengthens run : Forall Mk run -> ~ exists k, lengthens run k.
Proof.
  intros F [k (a & r & -> & K & N & _)]. rewrite Forall_app in F. destruct F as [_ F]. inversion F as [|? ? M _]; subst. clear - K N M.
  unfold katakana_letter in K. unfold Mk in M. change (u "ー・ヵヶ") with [0x30FC; 0x30FB; 0x30F5; 0x30F6] in M. change (u "ヵヶ") with [0x30F5; 0x30F6] in N. cbn [In] in *. lia.
Qed.

(** ** to_hiragana, leaving romaji as it is *)
Theorem k2h_separates E w : std_ok E ->
  (forall x y, k2h E false (x ++ w ++ y) = k2h E false x ++ w ++ k2h E false y) <-> katakana_free w /\ mark_stop w.
Proof.
  intro HE. destruct (library_both E HE) as (r & r' & _ & _ & _ & _ & HK). specialize (HK false).
  assert (T : forall ts, (k2h E false (concat ts) = concat (map (k2h E false) ts) <-> forall pre y post, ts = pre ++ y :: post -> ~ reaches (concat pre) [] y)).
  { intro ts. destruct (text_parts E r false ts HK [] _ (HK (concat ts))) as [(Q & N)|(L & pre & y & post & Q & Re)].
    - split; [intros _; exact N|intros _; exact Q].
    - split; [intro Z; rewrite Z in L; lia|]. intro Z. destruct (Z pre y post Q Re). }
  split.
  - intro H. assert (W : k2h E false w = w).
    { specialize (H [] []). change (k2h E false []) with (@nil N) in H. cbn [app] in H. now rewrite !app_nil_r in H. }
    assert (Fr : katakana_free w). { apply k2h_fixed in W; [|exact HE]. intros c I K. specialize (W c I). clear - W K. unfold katakana_letter in *.
      change (u "ヵヶ") with [0x30F5; 0x30F6]. cbn [In]. lia. }
    split; [exact Fr|]. destruct (no_stop w) as [S|[(w1 & w2 & Q & F & _)|(F & _)]]; [exact S|exfalso..].
    + pose proof (proj1 (T [u "カ"; w])) as Z. cbn [concat map] in Z. rewrite !app_nil_r, W in Z.
      specialize (H (u "カ") []). change (k2h E false []) with (@nil N) in H. rewrite !app_nil_r in H. apply (Z H [u "カ"] w [] eq_refl).
      exists w1, w2, (ch "カ"). split; [exact Q|]. split; [now apply ka_lengthens|]. now apply no_letter_lengthens.
    + pose proof (proj1 (T [u "カ"; w; u "ー"])) as Z. cbn [concat map] in Z. rewrite !app_nil_r, W in Z.
      apply (Z (H (u "カ") (u "ー")) [u "カ"; w] (u "ー") [] eq_refl).
      exists [], [], (ch "カ"). cbn [concat app]. rewrite !app_nil_r. split; [reflexivity|]. split; [now apply ka_lengthens|]. intros [k K]. exact (lengthens_nil k K).
  - intros [Fr S] x y. assert (W : k2h E false w = w).
    { apply k2h_no_katakana. intros c I. specialize (Fr c I). clear - Fr. unfold katakana_letter in *. change (u "ヵヶ") with [0x30F5; 0x30F6] in Fr. cbn [In] in Fr. lia. }
    pose proof (proj2 (T [x; w; y])) as Z. cbn [concat map] in Z. rewrite !app_nil_r, W in Z. apply Z.
    intros pre z post Q. destruct pre as [|p1 [|p2 [|p3 pre]]]; cbn [app] in Q.
    + intros (s1 & s2 & k & _ & K & K'). apply K'. now exists k.
    + injection Q as <- <- _. cbn [concat]. now apply stop_into.
    + injection Q as <- <- <- _. cbn [concat]. rewrite app_nil_r. now apply stop_over.
    + exfalso. apply (f_equal (@length _)) in Q. cbn in Q. rewrite app_length in Q. cbn in Q. lia.
Qed.

(** ** to_romaji *)
Definition unread (w : str) : Prop := forall c, In c w -> ~ romanised c.
Lemma unread_free w : unread w -> katakana_free w.
Proof.
  intros U c I K. specialize (U c I). destruct (mem c (u "ヵヶ")) eqn:E; [now apply mem_In|apply mem_not in E]. exfalso. apply U. left. split.
  - right. unfold S_katakana, Predicates.between. unfold katakana_letter in K. lia.
  - clear - K E. unfold katakana_letter in K. change (u "ヵヶ") with [0x30F5; 0x30F6] in E. change (u "ゕゖヵヶ") with [0x3095; 0x3096; 0x30F5; 0x30F6]. cbn [In] in *. lia.
Qed.
Lemma unread_mark w : unread w -> ~ In long_mark w.
Proof. intros U I. apply (U _ I). apply romanised_spec. vm_compute. reflexivity. Qed.
Lemma unread_hira c : ~ romanised c -> k2hc c = c /\ c <> long_mark.
Proof.
  intro U. split; [|intros ->; apply U, romanised_spec; vm_compute; reflexivity]. apply k2hc_spec. unfold hiragana_for. right; right; right; right; right.
  assert (K : katakana_free [c]) by (apply unread_free; intros d [<-|[]]; exact U). specialize (K c (or_introl eq_refl)).
  clear - K. unfold katakana_letter in K. change (u "ヵヶ") with [0x30F5; 0x30F6] in K. cbn [In] in K. lia.
Qed.
Lemma unread_text w : unread w -> forall a h, hiragana_text (u "お") a w h -> h = w.
Proof.
  induction w as [|c w IH]; intros U a h T; [now inversion T|]. apply text_cons in T. destruct T as (p & t & -> & P & T).
  destruct (unread_hira c (U c (or_introl eq_refl))) as [K L]. apply piece_plain in P; [|exact L]. rewrite P, K. cbn [app]. f_equal.
  apply (IH (fun d I => U d (or_intror I)) _ _ T).
Qed.
Definition fusing : str := doublable ++ after_n ++ bases ++ smalls ++ u "っんゔ".
Lemma fusing_read c : In c fusing -> romanised c.
Proof.
  intro I. apply romanised_spec. assert (F : forallb romanised_b fusing = true) by (vm_compute; reflexivity). rewrite forallb_forall in F. now apply F.
Qed.
Lemma fuses_sides rv rtv x y : fuses rv rtv x y -> (exists x' c, x = x' ++ [c] /\ In c fusing) /\ (exists c y', y = c :: y' /\ In c fusing).
Proof.
  unfold fusing. intro F. destruct F as [x b y B|x b y B|x b y X B|x a b y A B|x b y R X B|x b y R B]; split.
  all: match goal with
       | |- exists x' c, ?z ++ [?e; ?d] = _ /\ _ => exists (z ++ [e]), d; split; [now rewrite <- app_assoc|]
       | |- exists x' c, ?z ++ [?e] = _ /\ _ => exists z, e; split; [reflexivity|]
       | |- exists c y', ?e :: ?z = _ /\ _ => exists e, z; split; [reflexivity|]
       end; rewrite !in_app_iff; try tauto; right; right; right; right; vm_compute; auto.
Qed.
Lemma unread_no_stop w : unread w -> (exists c, In c w /\ ~ In c (u "ヵヶ")) -> mark_stop w.
Proof.
  intros U (c & I & N). assert (B : ~ Mk c).
  { intro M. apply N. destruct M as [<-|[<-|M]]; [exfalso; exact (unread_mark w U I)| |exact M]. exfalso. apply (U _ I), romanised_spec. vm_compute. reflexivity. }
  destruct (no_stop w) as [S|[(w1 & w2 & -> & _)|(F & _)]]; [exact S| |].
  - exfalso. apply (unread_mark _ U). apply in_or_app. right. now left.
  - rewrite Forall_forall in F. exfalso. exact (B (F c I)).
Qed.
Lemma part_ok rv rtv x w y : unread w -> mark_stop w -> ~ depends rv rtv x w /\ ~ depends rv rtv (x ++ w) y.
Proof.
  intros U S. split.
  - intros [D|(hx & hy & Tx & Ty & F)].
    + now apply (stop_into w x S).
    + apply unread_text in Ty; [|exact U]. subst hy. apply fuses_sides in F. destruct F as (_ & c & y' & -> & I). apply fusing_read in I. exact (U c (or_introl eq_refl) I).
  - intros [D|(hx & hy & Tx & Ty & F)].
    + now apply (stop_over w x y S (unread_free w U)).
    + apply text_app in Tx. destruct Tx as (h1 & h2 & -> & _ & T). apply unread_text in T; [|exact U]. subst h2.
      apply fuses_sides in F. destruct F as ((x' & c & Q & I) & _). apply fusing_read in I. assert (NE : w <> []) by (destruct S as (run & d & w' & -> & _); destruct run; discriminate).
      destruct (exists_last NE) as (w' & d & ->). rewrite app_assoc in Q. apply app_inj_tail in Q. destruct Q as [_ ->]. apply (U c); [apply in_or_app; right; now left|exact I].
Qed.
Lemma rom_nil E o : std_ok E -> to_romaji_with_opt E [] o = Ok [].
Proof. intro HE. rewrite to_romaji_with_opt_eq by exact HE. reflexivity. Qed.
Lemma rom_cut E o x y a b : std_ok E -> upcase_katakana o = false -> (forall rv rtv, ~ depends rv rtv x y) ->
  to_romaji_with_opt E x o = Ok a -> to_romaji_with_opt E y o = Ok b -> to_romaji_with_opt E (x ++ y) o = Ok (a ++ b).
Proof.
  intros HE Up D A B. destruct x as [|c x]; [rewrite rom_nil in A by exact HE; injection A as <-; exact B|].
  destruct y as [|d y]; [rewrite rom_nil in B by exact HE; injection B as <-; now rewrite !app_nil_r|].
  assert (F : Forall (fun y : str => y <> []) [c :: x; d :: y]) by (repeat constructor; discriminate).
  destruct (parts_exact E o _ _ [c :: x; d :: y] HE Up (to_romaji_with_opt_eq E o _ HE) (to_romaji_with_opt_eq E o _ HE) F) as (r & rs & R1 & R2 & R3).
  cbn [concat] in R1. rewrite app_nil_r in R1. rewrite R1. f_equal. inversion R2 as [|? q ? qs Q1 R2']; subst. inversion R2' as [|? q' ? qs' Q2 R2'']; subst. inversion R2''; subst.
  rewrite A in Q1. rewrite B in Q2. injection Q1 as <-. injection Q2 as <-. cbn [concat] in R3. rewrite app_nil_r in R3. apply R3.
  intros pre z post Q. destruct pre as [|p1 [|p2 pre]]; cbn [app] in Q.
  - injection Q as <- _. intros [(y1 & y2 & k & _ & K & K')|(hx & hy & Tx & _ & Fu)]; [apply K'; now exists k|].
    cbn [concat] in Tx. inversion Tx; subst. apply fuses_sides in Fu. destruct Fu as ((x' & e & Z & _) & _). destruct x'; discriminate Z.
  - injection Q as <- <- _. cbn [concat]. rewrite app_nil_r. apply D.
  - exfalso. apply (f_equal (@length _)) in Q. cbn in Q. rewrite app_length in Q. cbn in Q. lia.
Qed.
Theorem romaji_separates E o w : std_ok E -> upcase_katakana o = false ->
  separates (fun s => to_romaji_with_opt E s o) w <-> unread w /\ exists c, In c w /\ ~ In c (u "ヵヶ").
Proof.
  intros HE Up. split.
  - intro H. assert (W : to_romaji_with_opt E w o = Ok w).
    { destruct (H [] []) as (a & b & A & B & C). rewrite rom_nil in A, B by exact HE. injection A as <-. injection B as <-. cbn [app] in C. now rewrite !app_nil_r in C. }
    assert (U : unread w). { rewrite to_romaji_with_opt_eq in W by exact HE. injection W as W. exact (proj1 (romaji_fixed E _ w HE) W). }
    split; [exact U|]. destruct (no_stop w) as [(run & c & w' & -> & _ & C)|[(w1 & w2 & -> & _)|(F & L)]].
    + exists c. split; [apply in_or_app; right; now left|]. intro I. apply C. right; right. exact I.
    + exfalso. apply (unread_mark _ U). apply in_or_app. right. now left.
    + exfalso. destruct (H (u "カ") (u "ー")) as (a & b & A & B & C). destruct (H (u "カ") []) as (a' & b' & A' & B' & C').
      rewrite A in A'. injection A' as <-. rewrite rom_nil in B' by exact HE. injection B' as <-. rewrite !app_nil_r in C'.
      assert (Fo : Forall (fun y : str => y <> []) [u "カ" ++ w; u "ー"]) by (repeat constructor; discriminate).
      destruct (parts_exact E o _ _ [u "カ" ++ w; u "ー"] HE Up (to_romaji_with_opt_eq E o _ HE) (to_romaji_with_opt_eq E o _ HE) Fo) as (r & rs & R1 & R2 & R3).
      cbn [concat] in R1. rewrite app_nil_r, <- app_assoc, C in R1. injection R1 as <-. inversion R2 as [|? q ? qs Q1 R2']; subst. inversion R2' as [|? q' ? qs' Q2 R2'']; subst. inversion R2''; subst.
      pose proof (eq_trans (eq_sym C') Q1) as Z1. pose proof (eq_trans (eq_sym B) Q2) as Z2. injection Z1 as <-. injection Z2 as <-. cbn [concat] in R3. rewrite app_nil_r, <- app_assoc in R3.
      apply (proj1 R3 eq_refl [u "カ" ++ w] (u "ー") [] eq_refl). left. exists [], [], (ch "カ"). cbn [concat]. rewrite !app_nil_r.
      split; [reflexivity|]. split; [now apply ka_lengthens|]. intros [k K]. exact (lengthens_nil k K).
  - intros [U X] x y. pose proof (unread_no_stop w U X) as S. eexists. eexists.
    split; [apply (to_romaji_with_opt_eq E o x HE)|]. split; [apply (to_romaji_with_opt_eq E o y HE)|]. rewrite !app_assoc.
    apply (rom_cut E o (x ++ w) y); [exact HE|exact Up|intros rv rtv; now apply part_ok| |now apply to_romaji_with_opt_eq].
    apply (rom_cut E o x w); [exact HE|exact Up|intros rv rtv; now apply (part_ok rv rtv x w [])|now apply to_romaji_with_opt_eq|].
    rewrite to_romaji_with_opt_eq by exact HE. f_equal. exact (proj2 (romaji_fixed E _ w HE) U).
Qed.
(** with upper case, marks that disappear shift the positions *)
Lemma rconv_unread E up w : std_ok E -> unread w -> forall o s, rconv E up o (w ++ s) = w ++ rconv E up (skipn (length w) o) s.
Proof.
  intros HE. induction w as [|c w IH]; intros U o s; [reflexivity|]. cbn [app]. rewrite rconv_copy; [|exact HE|].
  - f_equal. rewrite IH by (intros d I; apply U; now right). f_equal. f_equal. destruct o; cbn [skipn length]; [now rewrite !skipn_nil|reflexivity].
  - apply (proj2 (inert_spec c) (U c (or_introl eq_refl))).
Qed.
Definition tail_read : bool := forallb (fun e => match fst e with _ :: t => forallb romanised_b t | [] => true end) rdict.
Lemma tail_read_true : tail_read = true.
Proof. vm_compute. reflexivity. Qed.
Theorem upcase_separates E o w : std_ok E -> upcase_katakana o = true -> ~ separates (fun s => to_romaji_with_opt E s o) w.
Proof.
  intros HE Up H. assert (W : to_romaji_with_opt E w o = Ok w).
  { destruct (H [] []) as (a & b & A & B & C). rewrite rom_nil in A, B by exact HE. injection A as <-. injection B as <-. cbn [app] in C. now rewrite !app_nil_r in C. }
  assert (U : unread w). { rewrite to_romaji_with_opt_eq in W by exact HE. injection W as W. exact (proj1 (romaji_fixed E _ w HE) W). }
  destruct (H (u "ンー") (u "漢カ")) as (a & b & A & B & C).
  rewrite (romaji_closed E HE o (u "ンー") (u "N")) in A by (rewrite ?Up; vm_compute; reflexivity).
  rewrite (romaji_closed E HE o (u "漢カ") (u "漢KA")) in B by (rewrite ?Up; vm_compute; reflexivity).
  injection A as <-. injection B as <-. rewrite to_romaji_with_opt_eq, Up in C by exact HE.
  assert (OK : forall a b : str, Ok a = Ok b -> a = b) by (intros a b Z; now injection Z). apply OK in C.
  assert (Ukan : ~ romanised (ch "漢")) by (rewrite <- romanised_spec; vm_compute; discriminate).
  assert (Q : k2h E true (u "ンー" ++ w ++ u "漢カ") = u "ん" ++ (w ++ u "漢") ++ u "か").
  { pose proof (k2h_text E true (u "ンー" ++ w ++ u "漢カ") HE) as T. apply text_app in T. destruct T as (h1 & h2 & -> & T1 & T2).
    apply text_app in T2. destruct T2 as (h3 & h4 & -> & T3 & T4). apply unread_text in T3; [|exact U]. subst h3.
    change (u "漢カ") with [ch "漢"; ch "カ"] in T4. apply text_cons in T4. destruct T4 as (p & t & -> & P & T4). apply text_cons in T4. destruct T4 as (p' & t' & -> & P' & T4).
    apply text_empty in T4. subst t'. apply piece_plain in P; [|discriminate]. apply piece_plain in P'; [|discriminate]. subst p p'.
    change (u "ンー") with [ch "ン"; long_mark] in T1. apply text_cons in T1. destruct T1 as (p & t & -> & P & T1). apply text_cons in T1. destruct T1 as (p' & t' & -> & P' & T1).
    apply text_empty in T1. subst t'. apply piece_plain in P; [|discriminate]. subst p.
    assert (Ln : lengthens ([] ++ [ch "ン"]) (ch "ン")).
    { apply lengthens_snoc. left. split; [reflexivity|]. split; [unfold katakana_letter; vm_compute; split; discriminate|]. intros [Z|[Z|[]]]; discriminate Z. }
    destruct P' as [(Z & _)|[(_ & k & K & V)|(_ & Z & _)]]; [now destruct Z| |destruct Z; now exists (ch "ン")].
    rewrite (lengthens_det _ _ _ K Ln) in V. rewrite (mark_vowel_det (u "お") (ch "ン") p' [] ltac:(discriminate) V).
    - rewrite <- !app_assoc. reflexivity.
    - exists (u "ッン"). split; vm_compute; auto 10. }
  rewrite Q in C. rewrite (rconv_seg E true _ (u "ん") (u "n")) in C; [|exact HE|apply pair_mem_In; vm_compute; reflexivity|intros [Z|[]]; discriminate Z|].
  - change (remit true (firstn (length (u "ん")) (u "ンー" ++ w ++ u "漢カ")) (u "n")) with (u "N") in C.
    change (skipn (length (u "ん")) (u "ンー" ++ w ++ u "漢カ")) with (long_mark :: w ++ u "漢カ") in C.
    rewrite rconv_unread in C; [|exact HE|intros c I; apply in_app_or in I; destruct I as [I|[<-|[]]]; [now apply U|exact Ukan]].
    change (u "N" ++ w ++ u "漢KA") with (u "N" ++ w ++ u "漢" ++ u "KA") in C. rewrite <- !app_assoc in C. apply app_inv_head in C. apply app_inv_head in C. apply app_inv_head in C.
    rewrite app_length, Nat.add_1_r in C. cbn [skipn] in C.
    assert (S : skipn (length w) (w ++ u "漢カ") = u "漢カ") by (rewrite skipn_app, skipn_all, Nat.sub_diag; reflexivity). rewrite S in C.
    change (u "か") with (u "か" ++ []) in C. rewrite (rconv_seg E true _ (u "か") (u "ka")) in C; [|exact HE|apply pair_mem_In; vm_compute; reflexivity|intros [Z|[]]; discriminate Z|intros d r v Z; discriminate Z].
    vm_compute in C. discriminate C.
  - intros d r v Z I. assert (R : romanised d).
    { apply romanised_spec. pose proof tail_read_true as T. unfold tail_read in T. rewrite forallb_forall in T. specialize (T _ I). cbn [fst app] in T.
      change (u "ん" ++ [d]) with [ch "ん"; d] in T. cbn [forallb] in T. now rewrite andb_true_r in T. }
    destruct w as [|c w]; injection Z as <- _; [exact (Ukan R)|exact (U c (or_introl eq_refl) R)].
Qed.

(** ** to_katakana and to_hiragana *)
Lemma kata_separates E o w : std_ok E -> pass_romaji o = true ->
  separates (fun s => to_katakana_with_opt E s o) w <-> forall c, In c w -> ~ hiragana_letter c.
Proof.
  intros HE P. rewrite <- Fixed.h2k_fixed. assert (K : forall s, to_katakana_with_opt E s o = Ok (h2k s)).
  { intro s. rewrite to_katakana_with_opt_eq by exact HE. unfold kata_pure. now rewrite P. }
  unfold separates. split.
  - intro H. destruct (H [] []) as (a & b & A & B & C). rewrite K in A, B, C. injection A as <-. injection B as <-. injection C as C.
    cbn in C. now rewrite !app_nil_r in C.
  - intros W x y. exists (h2k x), (h2k y). rewrite !K. split; [reflexivity|]. split; [reflexivity|]. f_equal. unfold h2k in *. now rewrite !map_app, W.
Qed.
Lemma hira_separates E o w : std_ok E -> pass_romaji o = true ->
  separates (fun s => to_hiragana_with_opt E s o) w <-> katakana_free w /\ mark_stop w.
Proof.
  intros HE P. rewrite <- (k2h_separates E w HE). assert (K : forall s, to_hiragana_with_opt E s o = Ok (k2h E false s)).
  { intro s. rewrite to_hiragana_with_opt_eq by exact HE. unfold hira_pure. now rewrite P. }
  unfold separates. split.
  - intros H x y. destruct (H x y) as (a & b & A & B & C). rewrite K in A, B, C. injection A as <-. injection B as <-. now injection C.
  - intros H x y. exists (k2h E false x), (k2h E false y). rewrite !K. split; [reflexivity|]. split; [reflexivity|]. now rewrite H.
Qed.
Lemma kan_romaji : ~ S_romaji (ch "漢").
Proof. unfold S_romaji. intros [H|H]; [vm_compute in H; now apply H|]. apply existsb_In in H. vm_compute in H. discriminate H. Qed.
Lemma ka_touched m s : In (ch "a") s -> ~ untouched m s.
Proof.
  intros I U. apply in_split in I. destruct I as (x & y & ->). destruct (U x (u "a") (u "a") (u "あ") y) as [Q _]; [reflexivity|now apply casing_low| |discriminate Q].
  apply pair_mem_In. destruct m; vm_compute; reflexivity.
Qed.
Lemma kana_dec w : has (fun c => S_hiragana c \/ S_katakana c) w \/ forall c, In c w -> ~ S_kana c.
Proof.
  induction w as [|c w [(d & I & K)|IH]]; [right; intros c []|left; exists d; split; [now right|exact K]|].
  assert (S_kana c \/ ~ S_kana c) as [K|K]; [unfold S_kana, S_hiragana, S_katakana, Predicates.between; lia|left; exists c; split; [now left|exact K]|].
  right. intros d [<-|I]; [exact K|now apply IH].
Qed.
Lemma kan_kana : ~ S_kana (ch "漢").
Proof. unfold S_kana, S_hiragana, S_katakana, Predicates.between. change (ch "漢") with 0x6F22. lia. Qed.
Lemma a_kana c : In c (u "ka") -> ~ S_kana c.
Proof. unfold S_kana, S_hiragana, S_katakana, Predicates.between. change (u "ka") with [0x6B; 0x61]. cbn [In]. lia. Qed.
(** 漢 w ka without kana in w: not converted, though ka alone is *)
Lemma plain_here w : (forall c, In c w -> ~ S_kana c) ->
  is_romaji (u "漢" ++ w ++ u "ka") = false /\ is_mixed (u "漢" ++ w ++ u "ka") = false /\ first_punct (u "漢" ++ w ++ u "ka") = false.
Proof.
  intro H. split; [|split]; apply not_true_iff_false.
  - rewrite romaji_text_spec. intros [_ R]. apply kan_romaji, R. now left.
  - rewrite mixed_spec. intros [(c & I & K) _]. fold (S_kana c) in K. apply in_app_or in I. destruct I as [[<-|[]]|I]; [now apply kan_kana|]. apply in_app_or in I.
    destruct I as [I|I]; [now apply (H c I)|now apply (a_kana c I)].
  - rewrite first_punct_spec. intros (c & r & Q & P). injection Q as <- _. apply existsb_In in P. vm_compute in P. discriminate P.
Qed.
Lemma mixed_ka w : has (fun c => S_hiragana c \/ S_katakana c) w -> mixed_text (u "漢ka" ++ w).
Proof.
  intros (c & I & K). split; [exists c; split; [apply in_or_app; now right|exact K]|]. exists (ch "a"). split; [right; right; now left|]. left. vm_compute. discriminate.
Qed.
Lemma ka_romaji : all_nonempty S_romaji (u "ka").
Proof. split; [discriminate|]. intros c [<-|[<-|[]]]; left; vm_compute; discriminate. Qed.
Lemma plain_kanka : is_romaji (u "漢ka") = false /\ is_mixed (u "漢ka") = false /\ first_punct (u "漢ka") = false.
Proof. repeat split; vm_compute; reflexivity. Qed.
Theorem kata_never E o w : std_ok E -> pass_romaji o = false -> ~ separates (fun s => to_katakana_with_opt E s o) w.
Proof.
  intros HE P H. assert (K : forall x y, kata_pure E o (x ++ w ++ y) = kata_pure E o x ++ w ++ kata_pure E o y).
  { intros x y. destruct (H x y) as (a & b & A & B & C). rewrite to_katakana_with_opt_eq in A, B, C by exact HE. injection A as <-. injection B as <-. now injection C. }
  assert (Nil : kata_pure E o [] = []) by (unfold kata_pure; rewrite P; reflexivity).
  destruct (kana_dec w) as [Kn|Kn].
  - specialize (K (u "漢ka") []). rewrite Nil, !app_nil_r in K. assert (Z : kata_pure E o (u "漢ka") = u "漢ka").
    { destruct plain_kanka as (R & M & _). unfold kata_pure. rewrite P, R, M. vm_compute. reflexivity. }
    rewrite Z in K. apply kata_fixed_exact in K; [|exact HE|exact P]. destruct K as [_ K]. destruct K as [_ U]; [right; now apply mixed_ka|].
    revert U. apply ka_touched. right; right; now left.
  - specialize (K (u "漢") (u "ka")). destruct (plain_here w Kn) as (R & M & _). unfold kata_pure at 1 2 in K. rewrite P, R, M in K.
    assert (W : h2k w = w). { apply Fixed.h2k_fixed. intros c I L. apply (Kn c I). left. left. unfold hiragana_letter in L. unfold Predicates.between. lia. }
    unfold h2k in K, W. rewrite !map_app, W in K. change (is_romaji (u "漢") || is_mixed (u "漢")) with false in K. cbv iota in K. apply app_inv_head in K. apply app_inv_head in K.
    change (map h2k_char (u "ka")) with (u "ka") in K. symmetry in K. apply kata_fixed_exact in K; [|exact HE|exact P]. destruct K as [_ K]. destruct K as [_ U]; [left; exact ka_romaji|].
    revert U. apply ka_touched. right; now left.
Qed.
Theorem hira_never E o w : std_ok E -> pass_romaji o = false -> ~ separates (fun s => to_hiragana_with_opt E s o) w.
Proof.
  intros HE P H. assert (K : forall x y, hira_pure E o (x ++ w ++ y) = hira_pure E o x ++ w ++ hira_pure E o y).
  { intros x y. destruct (H x y) as (a & b & A & B & C). rewrite to_hiragana_with_opt_eq in A, B, C by exact HE. injection A as <-. injection B as <-. now injection C. }
  assert (Nil : hira_pure E o [] = []) by (unfold hira_pure; rewrite P; reflexivity).
  destruct (kana_dec w) as [Kn|Kn].
  - specialize (K (u "漢ka") []). rewrite Nil, !app_nil_r in K. assert (Z : hira_pure E o (u "漢ka") = u "漢ka").
    { destruct plain_kanka as (R & M & F). unfold hira_pure. rewrite P, R, M, F. cbn [orb]. apply k2h_no_katakana. intros c I. left.
      intro L. unfold katakana_letter in L. clear - I L. change (In c [0x6F22; 0x6B; 0x61]) in I. cbn [In] in I. lia. }
    rewrite Z in K. apply hira_fixed_exact in K; [|exact HE|exact P]. destruct K as [_ K]. destruct K as [_ U]; [left; now apply mixed_ka|].
    revert U. apply ka_touched. right; right; now left.
  - specialize (K (u "漢") (u "ka")). destruct (plain_here w Kn) as (R & M & F). unfold hira_pure at 1 2 in K. rewrite P, R, M, F in K. cbn [orb] in K.
    assert (W : k2h E false (u "漢" ++ w ++ u "ka") = u "漢" ++ w ++ u "ka").
    { apply k2h_no_katakana. intros c I. left. intro L. assert (S_kana c) as Sk by (clear - L; right; unfold katakana_letter in L; unfold S_katakana, Predicates.between; lia).
      apply in_app_or in I. destruct I as [[<-|[]]|I]; [now apply kan_kana|]. apply in_app_or in I. destruct I as [I|I]; [now apply (Kn c I)|now apply (a_kana c I)]. }
    rewrite W in K. change (is_romaji (u "漢") || first_punct (u "漢")) with false in K. change (is_mixed (u "漢")) with false in K. cbv iota in K.
    assert (W' : k2h E false (u "漢") = u "漢").
    { apply k2h_no_katakana. intros c I. left. intro L. unfold katakana_letter in L. clear - I L. change (In c [0x6F22]) in I. cbn [In] in I. lia. }
    rewrite W' in K. apply app_inv_head in K. apply app_inv_head in K.
    symmetry in K. apply hira_fixed_exact in K; [|exact HE|exact P]. destruct K as [_ K]. destruct K as [_ U]; [right; left; exact ka_romaji|].
    revert U. apply ka_touched. right; now left.
Qed.
