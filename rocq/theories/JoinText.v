(** * Romanising in parts, with long marks: C75 *)
From Verif Require Import Tac Base Std Constants Chars RomajiTree Convert
  RomajiPure KanaSpec KanaDict KanaProofs Predicates ScriptSpec ScriptProofs RomajiSpec RomajiProofs MoraProofs
  LibraryProofs ChoiceSpec ChoiceProofs JoinSpec Joins.

Local Opaque rdict.
(** ** Counting dashes *)
Definition dash_b (c : N) : bool := (c =? long_mark) || (c =? ch "-").
Definition dashes (h : str) : nat := length (filter dash_b h).
Lemma dashes_app a b : dashes (a ++ b) = (dashes a + dashes b)%nat.
Proof. unfold dashes. now rewrite filter_app, app_length. Qed.
Lemma dash_table : forallb (fun e => Nat.eqb (dashes (fst e)) (dashes (snd e))) rdict = true.
Proof. vm_cast_no_check (eq_refl true). Qed.
Lemma R_dashes E r r' : library E r r' -> forall n h, (length h <= n)%nat -> dashes (R E h) = dashes h.
Proof.
  intro L. induction n as [|n IH]; intros [|c s] B; [reflexivity|cbn in B; lia|reflexivity|].
  destruct (first_unit E r r' L c s) as (k & v & rest & Sp & U & C). rewrite Sp in B |- *.
  rewrite (unit_step E r r' L k v rest U C), !dashes_app.
  rewrite IH; [|rewrite app_length in B; apply unit_nonempty in U; destruct k; [congruence|cbn [length] in B; lia]].
  f_equal. destruct U as [I|(d & -> & -> & _)]; [|reflexivity]. apply ent_entry in I.
  pose proof dash_table as T. rewrite forallb_forall in T. specialize (T _ I). apply Nat.eqb_eq in T. symmetry. exact T.
Qed.

(** ** The choice of the library *)
Lemma v_reading r : (r < 5)%nat -> exists v, In ([vu], v) (v_entries r) /\ (v = u "vu" <-> r = 0%nat) /\ (doubled v = u "vvu" <-> r = 0%nat) /\ (v = u "vo" <-> r = 4%nat).
Proof.
  intro L. do 5 (destruct r as [|r]; [eexists; split; [left; reflexivity|]; repeat split; (reflexivity || discriminate)|]). lia.
Qed.
Lemma library_at E r r' m m' : std_ok E -> rfind E RT vu = Some m -> rfind E tsu_node vu = Some m' ->
  nth_error (v_nodes RT) r = Some m -> nth_error (v_nodes tsu_node) r' = Some m' -> library E r r'.
Proof.
  intros HE F F' Q Q'. destruct (choice_bounds r r' m m' Q Q') as [B B'].
  split; [exact B|exact B'| | | | |].
  - intros k v rest I C. destruct (rw_hit E HE r r' m m' F F' Q Q' k rest v I C) as (x & RW & <-).
    destruct k as [|c k]; [exfalso; exact (dict_nonempty r r' m m' Q Q' _ I)|].
    unfold R. rewrite (rstep_hit E false [] c k rest x RW), noup. reflexivity.
  - intros c s X. unfold R. rewrite (rstep_miss E false [] c s (rw_miss E HE r r' m m' F F' Q Q' c s X)). reflexivity.
  - intros up o k v rest I C. destruct (rw_hit E HE r r' m m' F F' Q Q' k rest v I C) as (x & RW & <-).
    destruct k as [|c k]; [exfalso; exact (dict_nonempty r r' m m' Q Q' _ I)|]. exact (rstep_hit E up o c k rest x RW).
  - intros up o c s X. exact (rstep_miss E up o c s (rw_miss E HE r r' m m' F F' Q Q' c s X)).
  - intros c s. pose proof (rconv_chosen E HE r r' m m' F F' Q Q' false (c :: s) (c :: s) (le_n _)) as S.
    inversion S as [|oseg orig seg rest v out out' I Lo C O T Z1 Z2 Z3|d orig c' s' out X T Z1 Z2 Z3]; subst.
    + exists seg, v, rest. split; [reflexivity|]. split; [now left|]. exact C.
    + exists [c], [c], s. split; [reflexivity|]. split; [right; exists c; exact (conj eq_refl (conj eq_refl X))|].
      intros d' q w _ J. assert (ent r r' (c :: [d']) w) as J' by exact J.
      destruct (in_dec N.eq_dec vu [c; d']) as [V|V].
      * destruct (vu_key _ _ _ _ J' V) as [Z|[(b & _ & _ & Z)|[Z|(b & _ & _ & Z)]]]; try discriminate Z; injection Z as -> _.
        -- destruct (ent_v r r' B B') as [[w1 E1] _]. exact (X w1 E1).
        -- apply (X []). apply entry_b_ent; vm_compute; reflexivity.
      * apply ent_entry in J'. destruct (r_entry_prefix [c] [d'] w J') as [w' I']; [discriminate|].
        apply (X w'). apply entry_ent; [exact I'|]. intros [Z|[]]. apply V. now left.
Qed.
Lemma library_both E : std_ok E -> exists r r', library E r r' /\
  (R E [vu] = u "vu" <-> r = 0%nat) /\ (R E [tsu; vu] = u "vvu" <-> r' = 0%nat) /\ (R E [vu] = u "vo" <-> r = 4%nat) /\
  forall d s, chosen_text r (o_vowel d) [] s (k2h E d s).
Proof.
  intro HE. destruct (choice_exists E HE) as (r & r' & m & m' & F & F' & Q & Q'). exists r, r'.
  destruct (choice_bounds r r' m m' Q Q') as [B B'].
  pose proof (library_at E r r' m m' HE F F' Q Q') as L.
  split; [exact L|]. destruct (v_reading r B) as (v & I & H & _ & H4), (v_reading r' B') as (v' & I' & _ & H' & _).
  split; [|split; [|split]].
  - rewrite (unit_alone E r r' L [vu] v); [exact H|]. left. apply ent_cases. auto.
  - rewrite (unit_alone E r r' L [tsu; vu] (doubled v')); [exact H'|]. left. apply ent_cases. right. right. eauto.
  - rewrite (unit_alone E r r' L [vu] v); [exact H4|]. left. apply ent_cases. auto.
  - intros d s. exact (proj2 (chosen_text_k2h E HE r m F Q d s _) eq_refl).
Qed.
Lemma library_exists E : std_ok E -> exists r r', library E r r' /\
  (R E [vu] = u "vu" <-> r = 0%nat) /\ (R E [tsu; vu] = u "vvu" <-> r' = 0%nat) /\
  forall s, chosen_text r (u "お") [] s (k2h E true s).
Proof.
  intro HE. destruct (library_both E HE) as (r & r' & L & H & H' & _ & T). exists r, r'. split; [exact L|]. split; [exact H|]. split; [exact H'|]. exact (T true).
Qed.

(** ** The hiragana of a part, alone and within the text *)
Lemma lengthens_more x a k : lengthens a k -> lengthens (x ++ a) k.
Proof. intros (a' & run & -> & K). exists (x ++ a'), run. split; [now rewrite app_assoc|exact K]. Qed.
Lemma vowel_no_dash d k v : mark_vowel (o_vowel d) k v -> dashes v = 0%nat.
Proof.
  intros (row & I & _).
  assert (forallb (fun r => Nat.eqb (dashes (snd r)) 0) (mark_table (o_vowel d)) = true) as T by (destruct d; vm_compute; reflexivity).
  rewrite forallb_forall in T. specialize (T _ I). now apply Nat.eqb_eq in T.
Qed.
Definition reaches (x a s : str) : Prop :=
  exists s1 s2 k, s = s1 ++ long_mark :: s2 /\ lengthens (x ++ a ++ s1) k /\ ~ exists k', lengthens (a ++ s1) k'.
Lemma reaches_cons x a c s : reaches x (a ++ [c]) s -> reaches x a (c :: s).
Proof.
  intros (s1 & s2 & k & -> & K & K'). exists (c :: s1), s2, k. rewrite <- app_assoc in K, K'. auto.
Qed.
Lemma context r d a s h : chosen_text r (o_vowel d) a s h -> forall x h', chosen_text r (o_vowel d) (x ++ a) s h' ->
  (h = h' /\ ~ reaches x a s) \/ ((dashes h' < dashes h)%nat /\ reaches x a s).
Proof.
  intro H. induction H as [a|a c s p t P PV H IH]; intros x h' H'; inversion H' as [|? ? ? p' t' P' PV' T']; subst.
  { left. split; [reflexivity|]. intros (s1 & s2 & k & Q & _). destruct s1; discriminate Q. }
  rewrite <- app_assoc in T'. specialize (IH x t' T').
  assert ((p = p' /\ ~ (c = long_mark /\ (exists k, lengthens (x ++ a) k) /\ ~ exists k', lengthens a k'))
          \/ ((dashes p' < dashes p)%nat /\ c = long_mark /\ (exists k, lengthens (x ++ a) k) /\ ~ exists k', lengthens a k')) as D.
  { destruct P as [(N1 & y & A & ->)|[(-> & k & A & B)|(-> & A & ->)]],
      P' as [(N2 & y' & A' & ->)|[(E2 & k' & A' & B')|(E2 & A' & ->)]]; try contradiction; try congruence.
    - left. apply k2hc_spec in A, A'. split; [congruence|]. intros [Z _]. contradiction.
    - left. assert (k = k') by (eapply lengthens_det; [apply lengthens_more; exact A|exact A']). subst k'. split.
      + destruct (N.eq_dec k (ch "ヴ")) as [->|Nk]; [now rewrite PV, PV'|]. eapply mark_vowel_det; [|exact B|exact B']. congruence.
      + intros (_ & _ & Z). apply Z. now exists k.
    - exfalso. apply A'. exists k. now apply lengthens_more.
    - right. rewrite (vowel_no_dash _ _ _ B'). split; [cbn; lia|]. split; [reflexivity|]. split; [now exists k'|exact A].
    - left. split; [reflexivity|]. intros (_ & Z & _). contradiction. }
  rewrite !dashes_app. destruct D as [(-> & D)|(D & D')].
  - destruct IH as [(-> & IH)|(L & IH)]; [left|right].
    + split; [reflexivity|]. intros (s1 & s2 & k & Q & K & K'). destruct s1 as [|c1 s1].
      * injection Q as -> _. rewrite !app_nil_r in *. apply D. split; [reflexivity|]. split; [now exists k|exact K'].
      * injection Q as <- ->. apply IH. exists s1, s2, k. rewrite <- app_assoc. auto.
    + split; [lia|now apply reaches_cons].
  - right. split.
    + destruct IH as [(-> & _)|(L & _)]; lia.
    + destruct D' as (-> & (k & K) & K'). exists [], s, k. rewrite !app_nil_r. auto.
Qed.

Lemma text_split r o s t : forall a h, chosen_text r o a (s ++ t) h ->
  exists h1 h2, h = h1 ++ h2 /\ chosen_text r o a s h1 /\ chosen_text r o (a ++ s) t h2.
Proof.
  induction s as [|c s IH]; intros a h H.
  - exists [], h. rewrite app_nil_r. split; [reflexivity|]. split; [constructor|exact H].
  - cbn [app] in H. inversion H as [|? ? ? p q P PV T]; subst. destruct (IH _ _ T) as (h1 & h2 & -> & T1 & T2).
    exists (p ++ h1), h2. split; [now rewrite app_assoc|]. split; [now constructor|]. now rewrite <- app_assoc in T2.
Qed.
Lemma text_parts E r d ts : (forall s, chosen_text r (o_vowel d) [] s (k2h E d s)) -> forall x h, chosen_text r (o_vowel d) x (concat ts) h ->
  (h = concat (map (k2h E d) ts) /\ forall pre y post, ts = pre ++ y :: post -> ~ reaches (x ++ concat pre) [] y)
  \/ ((dashes h < dashes (concat (map (k2h E d) ts)))%nat /\ exists pre y post, ts = pre ++ y :: post /\ reaches (x ++ concat pre) [] y).
Proof.
  intro HK. induction ts as [|y ts IH]; intros x h H; cbn [concat map] in *.
  { inversion H; subst. left. split; [reflexivity|]. intros pre y post Q. destruct pre; discriminate Q. }
  destruct (text_split _ _ _ _ _ _ H) as (h1 & h2 & -> & H1 & H2).
  pose proof (context r d [] y _ (HK y) x h1) as C. rewrite app_nil_r in C. specialize (C H1).
  specialize (IH (x ++ y) h2 H2). rewrite !dashes_app.
  assert (forall pre y' post, ts = pre ++ y' :: post -> reaches ((x ++ y) ++ concat pre) [] y' ->
    exists pre y' post, y :: ts = pre ++ y' :: post /\ reaches (x ++ concat pre) [] y') as Later.
  { intros pre y' post -> Z. exists (y :: pre), y', post. split; [reflexivity|]. cbn [concat]. now rewrite app_assoc. }
  destruct C as [(<- & C)|(L & C)].
  - destruct IH as [(-> & IH)|(L & pre & y' & post & Q & IH)]; [left|right; split; [lia|eauto]].
    split; [reflexivity|]. intros pre y' post Q. destruct pre as [|y0 pre].
    + injection Q as <- <-. cbn [concat]. now rewrite app_nil_r.
    + injection Q as <- Q. cbn [concat]. rewrite app_assoc. exact (IH pre y' post Q).
  - right. split.
    + destruct IH as [(-> & _)|(L' & _)]; lia.
    + exists [], y, ts. split; [reflexivity|]. cbn [concat]. now rewrite app_nil_r.
Qed.

(** ** Which vowel lengthens ヴ does not matter for fusing *)
Definition vowels : str := u "あいうえお".
Definition sim (a b : N) : Prop := a = b \/ (In a vowels /\ In b vowels).
Lemma sim_sym a b : sim a b -> sim b a.
Proof. intros [->|[A B]]; [now left|right; auto]. Qed.
Lemma sim_in l a b : sim a b -> (forallb (fun v => mem v l) vowels = true \/ forallb (fun v => negb (mem v l)) vowels = true) -> In a l -> In b l.
Proof.
  intros [->|[A B]] H I; [exact I|]. destruct H as [H|H]; rewrite forallb_forall in H.
  - specialize (H b B). now apply mem_In.
  - specialize (H a A). apply negb_true_iff, mem_not in H. contradiction.
Qed.
Lemma v_vowels v : mark_vowel (u "お") (ch "ヴ") v -> exists c, v = [c] /\ In c vowels.
Proof.
  intros (row & I & J).
  assert (forallb (fun r => negb (mem (ch "ヴ") (fst r)) || match snd r with [c] => mem c vowels | _ => false end) (mark_table (u "お")) = true) as T
    by (vm_compute; reflexivity).
  rewrite forallb_forall in T. specialize (T _ I). cbn [fst snd] in T. apply mem_In in J. rewrite J in T. cbn [negb orb] in T.
  destruct v as [|c [|d v]]; try discriminate T. exists c. split; [reflexivity|now apply mem_In].
Qed.
Lemma text_sim a s h : hiragana_text (u "お") a s h -> forall h', hiragana_text (u "お") a s h' -> Forall2 sim h h'.
Proof.
  assert (forall l, Forall2 sim l l) as Same by (induction l; constructor; [now left|assumption]).
  intro H. induction H as [a|a c s p t P H IH]; intros h' H'; inversion H' as [|? ? ? p' t' P' T']; subst; [constructor|].
  apply Forall2_app; [|now apply IH].
  destruct P as [(N1 & y & A & ->)|[(-> & k & A & B)|(-> & A & ->)]],
    P' as [(N2 & y' & A' & ->)|[(E2 & k' & A' & B')|(E2 & A' & ->)]]; try contradiction; try congruence.
  - apply k2hc_spec in A, A'. rewrite <- A, <- A'. apply Same.
  - assert (k = k') by (eapply lengthens_det; eauto). subst k'. destruct (N.eq_dec k (ch "ヴ")) as [->|Nk].
    + destruct (v_vowels _ B) as (c & -> & C), (v_vowels _ B') as (c' & -> & C'). constructor; [right; auto|constructor].
    + rewrite (mark_vowel_det _ k p p' ltac:(congruence) B B'). apply Same.
  - exfalso. apply A'. eauto.
  - exfalso. apply A. eauto.
  - apply Same.
Qed.
Lemma sim_one c d : sim c d -> ~ In c vowels -> d = c.
Proof. intros [->|[A _]] H; [reflexivity|contradiction]. Qed.
Lemma fuses_sim rv rtv x y x' y' : fuses rv rtv x y -> Forall2 sim x x' -> Forall2 sim y y' -> fuses rv rtv x' y'.
Proof.
  assert (forall x c x', Forall2 sim (x ++ [c]) x' -> exists x0 c', x' = x0 ++ [c'] /\ Forall2 sim x x0 /\ sim c c') as Snoc.
  { intros z c z' H. apply Forall2_app_inv_l in H. destruct H as (z0 & l & A & B & ->). inversion B as [|? c' ? l' C D]; subst.
    inversion D; subst. exists z0, c'. auto. }
  assert (~ In (ch "っ") vowels /\ ~ In (ch "ん") vowels /\ ~ In (ch "ゔ") vowels) as (Vt & Vn & Vv)
    by (repeat split; apply mem_not; vm_compute; reflexivity).
  assert (forall x x', Forall2 sim x x' -> (forall z, x <> z ++ [ch "っ"]) -> forall z, x' <> z ++ [ch "っ"]) as Last.
  { intros z z' H X w ->. apply Forall2_app_inv_r in H. destruct H as (z0 & l & A & B & ->). inversion B as [|c ? l' ? C D]; subst.
    inversion D; subst. apply sim_sym in C. rewrite (sim_one _ _ C Vt) in X. exact (X z0 eq_refl). }
  intros F Hx Hy. destruct F as [x b y B|x b y B|x b y X B|x a b y A B|x b y V X B|x b y V B].
  - destruct (Snoc _ _ _ Hx) as (x0 & c & -> & _ & C). rewrite (sim_one _ _ C Vt). inversion Hy as [|? b' ? y0 D Hy']; subst.
    apply fuses_tsu. apply (sim_in _ b b' D); [right; vm_compute; reflexivity|exact B].
  - destruct (Snoc _ _ _ Hx) as (x0 & c & -> & _ & C). rewrite (sim_one _ _ C Vt). inversion Hy as [|? n' ? y0 D Hy']; subst.
    inversion Hy' as [|? b' ? y1 D' Hy2]; subst. rewrite (sim_one _ _ D Vn).
    apply fuses_tsu_n. apply (sim_in _ b b' D'); [left; vm_compute; reflexivity|exact B].
  - destruct (Snoc _ _ _ Hx) as (x0 & c & -> & Hx' & C). rewrite (sim_one _ _ C Vn). inversion Hy as [|? b' ? y0 D Hy']; subst.
    apply fuses_n; [exact (Last _ _ Hx' X)|]. apply (sim_in _ b b' D); [left; vm_compute; reflexivity|exact B].
  - destruct (Snoc _ _ _ Hx) as (x0 & c & -> & Hx' & C). inversion Hy as [|? b' ? y0 D Hy']; subst.
    apply fuses_small; [apply (sim_in _ a c C)|apply (sim_in _ b b' D)]; try assumption; right; vm_compute; reflexivity.
  - destruct (Snoc _ _ _ Hx) as (x0 & c & -> & Hx' & C). rewrite (sim_one _ _ C Vv). inversion Hy as [|? b' ? y0 D Hy']; subst.
    apply fuses_v; [reflexivity|exact (Last _ _ Hx' X)|]. apply (sim_in _ b b' D); [right; vm_compute; reflexivity|exact B].
  - change [ch "っ"; ch "ゔ"] with ([ch "っ"] ++ [ch "ゔ"]) in Hx. rewrite app_assoc in Hx.
    destruct (Snoc _ _ _ Hx) as (x0 & c & -> & Hx' & C). rewrite (sim_one _ _ C Vv). destruct (Snoc _ _ _ Hx') as (x1 & c' & -> & _ & C').
    rewrite (sim_one _ _ C' Vt), <- app_assoc. inversion Hy as [|? b' ? y0 D Hy']; subst.
    apply fuses_tsu_v; [reflexivity|]. apply (sim_in _ b b' D); [right; vm_compute; reflexivity|exact B].
Qed.

(** ** C75 *)
Lemma reaches_depends rv rtv x y : reaches x [] y -> depends rv rtv x y.
Proof. intros (s1 & s2 & k & Q & K). left. exists s1, s2, k. split; [exact Q|exact K]. Qed.
Theorem parts_exact E o rv rtv ts : std_ok E -> upcase_katakana o = false ->
  to_romaji_with_opt E (u "ゔ") o = Ok rv -> to_romaji_with_opt E (u "っゔ") o = Ok rtv -> Forall (fun y => y <> []) ts ->
  exists r rs, to_romaji_with_opt E (concat ts) o = Ok r /\ Forall2 (fun y q => to_romaji_with_opt E y o = Ok q) ts rs /\
    (r = concat rs <-> forall pre y post, ts = pre ++ y :: post -> ~ depends rv rtv (concat pre) y).
Proof.
  intros HE Up Rv Rtv NE. set (hs := map (k2h E true) ts).
  assert (forall s, to_romaji_with_opt E s o = Ok (R E (k2h E true s))) as Rom.
  { intro s. rewrite to_romaji_with_opt_eq, Up by exact HE. f_equal. unfold R. now apply rconv_noup. }
  destruct (library_exists E HE) as (r & r' & L & Hv & Hv' & HK).
  rewrite Rom in Rv, Rtv. injection Rv as Rv. injection Rtv as Rtv.
  change (k2h E true (u "ゔ")) with [vu] in Rv. change (k2h E true (u "っゔ")) with [tsu; vu] in Rtv. rewrite Rv in Hv. rewrite Rtv in Hv'. clear Rv Rtv.
  assert (Forall (fun h => h <> []) hs) as NEh.
  { apply Forall_map. apply Forall_forall. intros y I Q. rewrite Forall_forall in NE. apply (NE y I). apply text_nonempty.
    pose proof (k2h_text E true y HE) as T. rewrite Q in T. exact T. }
  exists (R E (k2h E true (concat ts))), (map (R E) hs). split; [apply Rom|]. split.
  { unfold hs. clear - Rom. induction ts; constructor; auto. }
  destruct (text_parts E r true ts HK [] _ (HK (concat ts))) as [(Q & NR)|(Ls & pre & y & post & Q & Re)].
  - fold hs in Q. rewrite Q. rewrite (parts_hiragana E r r' L rv rtv Hv Hv' hs NEh).
    (* the hiragana of what stands before a part *)
    assert (forall pre y post, ts = pre ++ y :: post ->
      (fuses rv rtv (concat (map (k2h E true) pre)) (k2h E true y) <-> depends rv rtv (concat pre) y)) as Same.
    { intros pre y post Qt.
      assert (k2h E true (concat pre) = concat (map (k2h E true) pre)) as Qp.
      { destruct (text_parts E r true pre HK [] _ (HK (concat pre))) as [(Z & _)|(_ & pre' & y' & post' & Z & Re)]; [exact Z|].
        exfalso. apply (NR pre' y' (post' ++ y :: post)); [|exact Re]. rewrite Qt, Z, <- app_assoc. reflexivity. }
      rewrite <- Qp. split.
      - intro F. right. exists (k2h E true (concat pre)), (k2h E true y).
        split; [exact (k2h_text E true _ HE)|]. split; [exact (k2h_text E true _ HE)|exact F].
      - intros [(y1 & y2 & k & Z & K & K')|(hx & hy & Hx & Hy & F)].
        + exfalso. apply (NR pre y post Qt). exists y1, y2, k. auto.
        + apply (fuses_sim rv rtv hx hy); [exact F| |].
          * exact (text_sim _ _ _ Hx _ (k2h_text E true (concat pre) HE)).
          * exact (text_sim _ _ _ Hy _ (k2h_text E true y HE)). }
    split; intros H pre y post Qt.
    + rewrite <- (Same pre y post Qt). apply (H _ _ (map (k2h E true) post)). unfold hs. now rewrite Qt, map_app.
    + apply map_eq_app in Qt. destruct Qt as (pre' & l & Qt & <- & Ql). apply map_eq_cons in Ql. destruct Ql as (y' & post' & -> & <- & _).
      rewrite (Same pre' y' post' Qt). now apply (H pre' y' post').
  - split; intro H; exfalso.
    + apply (f_equal dashes) in H. rewrite (R_dashes E r r' L _ _ (le_n _)) in H.
      assert (dashes (concat (map (R E) hs)) = dashes (concat hs)) as Z.
      { clear - L. induction hs as [|h hs IH]; [reflexivity|]. cbn [map concat] in *.
        rewrite !dashes_app, (R_dashes E r r' L _ _ (le_n _)), IH. reflexivity. }
      rewrite Z in H. fold hs in Ls. lia.
    + apply (H pre y post Q). apply reaches_depends. exact Re.
Qed.
