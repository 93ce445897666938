(** * Decomposed kana: to_hiragana, to_romaji and tokens (proofs for C106) *)
From Verif Require Import Tac Base Std Constants Chars Trees KanaTree RomajiTree Strings Tokenize Convert
  KanaPure RomajiPure KanaSpec KanaDict KanaProofs Predicates ScriptSpec ScriptProofs MoraProofs TokenSpec TokenizeProofs NormSpec Norm NormHira.

(** ** Counting *)
Definition count (f : N -> bool) (s : str) : nat := length (filter f s).
Lemma count_app f a b : count f (a ++ b) = (count f a + count f b)%nat.
Proof. unfold count. now rewrite filter_app, app_length. Qed.
Lemma count_cons f c s : count f (c :: s) = ((if f c then 1 else 0) + count f s)%nat.
Proof. unfold count. cbn. destruct (f c); reflexivity. Qed.
Definition marks (s : str) : nat := count mark_b s.
Definition dashes (s : str) : nat := count (N.eqb long_mark) s.

Lemma pieces_dec p q : forall n m, pieces n m p q -> n = 0%nat -> m = 0%nat -> q = decompose p.
Proof.
  intros n m P. induction P; intros Z1 Z2; try discriminate; [reflexivity| |]; cbn [decompose flat_map]; rewrite (IHP Z1 Z2).
  - now rewrite dec1_other.
  - reflexivity.
Qed.

(** in the converted text: [f] is a number that is additive *)
Section Sum.
  Variables (f : str -> nat) (E : std) (m : mode).
  Hypotheses (HE : std_ok E) (f_app : forall a b, f (a ++ b) = (f a + f b)%nat).
  Definition lw (s : str) : str := flat_map (lower_char E) s.
  Lemma conv_kana x b y : 0x3041 <= b <= 0x30FE -> f (conv m (x ++ b :: y)) = (f (conv m x) + f [b] + f (conv m y))%nat.
  Proof. intros B. rewrite (conv_boundary m b) by now apply kana_in_no_key. change (b :: conv m y) with ([b] ++ conv m y). rewrite !f_app. lia. Qed.
  Lemma lw_kana b s : 0x3041 <= b <= 0x30FE -> lw (b :: s) = b :: lw s.
  Proof. intros B. unfold lw. cbn [flat_map]. rewrite (ok_lower_caseless E HE) by now apply kana_caseless. reflexivity. Qed.
  Lemma pieces_sum (g : nat -> nat -> nat) : g 0%nat 0%nat = 0%nat ->
    (forall c, is_composed c -> f (decompose_char c) = f [c]) ->
    (forall n k h, In h (u "わゐゑを") -> (f [h; voicing] + g n k = f [h] + g n (S k))%nat) ->
    (forall n k v, In v (u "あいうえ") -> (f [long_mark] + g n k = f [v] + g (S n) k)%nat) ->
    forall n k p q, pieces n k p q -> forall x, f (conv m (x ++ lw q)) = (f (conv m (x ++ lw p)) + g n k)%nat.
  Proof.
    intros G0 Gd Gl Gm n k p q P.
    assert (Two : forall x b v y, 0x3041 <= b <= 0x30FE -> 0x3041 <= v <= 0x30FE ->
       f (conv m (x ++ b :: v :: y)) = (f (conv m x) + f [b; v] + f (conv m y))%nat).
    { intros x b v y B V. rewrite conv_kana by assumption. pose proof (conv_kana [] v y V) as Q. cbn [app] in Q. rewrite Q.
      assert (Z : f (conv m []) = 0%nat) by (change (conv m []) with (@nil N); pose proof (f_app [] []) as F; cbn [app] in F; lia).
      change [b; v] with ([b] ++ [v]). rewrite f_app, Z. lia. }
    induction P as [|n k c p q Nc P IH|n k c p q C P IH|n k h p q Ih P IH|n k v p q Iv P IH]; intros x.
    - rewrite G0. lia.
    - unfold lw in *. cbn [flat_map]. rewrite !app_assoc. apply IH.
    - destruct (dec1_in c C) as (e & I & X). specialize (Gd c C). rewrite X in Gd |- *. destruct (shape c e I) as (b & v & -> & V & B & Cc).
      unfold voicing, semivoicing in V. cbn [app]. rewrite !lw_kana by lia. rewrite Two, conv_kana by lia. specialize (IH []). cbn [app] in IH. lia.
    - specialize (Gl n k h Ih). assert (B : 0x3041 <= h <= 0x30FE) by (vm_compute in Ih; repeat destruct Ih as [<-|Ih]; try contradiction; lia).
      rewrite !lw_kana by (unfold voicing; lia). rewrite Two, conv_kana by (unfold voicing; lia). specialize (IH []). cbn [app] in IH. lia.
    - specialize (Gm n k v Iv). assert (B : 0x3041 <= v <= 0x30FE) by (vm_compute in Iv; repeat destruct Iv as [<-|Iv]; try contradiction; lia).
      rewrite !lw_kana by (unfold long_mark; lia). rewrite !conv_kana by (unfold long_mark; lia). specialize (IH []). cbn [app] in IH. lia.
  Qed.
End Sum.
(** the same without a conversion *)
Lemma pieces_plain (f : str -> nat) (f_app : forall a b, f (a ++ b) = (f a + f b)%nat) (g : nat -> nat -> nat) : g 0%nat 0%nat = 0%nat ->
  (forall c, is_composed c -> f (decompose_char c) = f [c]) ->
  (forall n k h, In h (u "わゐゑを") -> (f [h; voicing] + g n k = f [h] + g n (S k))%nat) ->
  (forall n k v, In v (u "あいうえ") -> (f [long_mark] + g n k = f [v] + g (S n) k)%nat) ->
  forall n k p q, pieces n k p q -> f q = (f p + g n k)%nat.
Proof.
  intros G0 Gd Gl Gm n k p q P. assert (Co : forall c s, f (c :: s) = (f [c] + f s)%nat) by (intros c s; apply (f_app [c])).
  induction P as [|n k c p q Nc P IH|n k c p q C P IH|n k h p q Ih P IH|n k v p q Iv P IH].
  - rewrite G0. lia.
  - rewrite Co, (Co c p). lia.
  - rewrite f_app, (Co c p), Gd by assumption. lia.
  - change (h :: voicing :: q) with ([h; voicing] ++ q). rewrite f_app, (Co h p). specialize (Gl n k h Ih). lia.
  - rewrite (Co long_mark q), (Co v p). specialize (Gm n k v Iv). lia.
Qed.
Definition dmarks (s : str) : nat := marks (decompose s).
Definition ddashes (s : str) : nat := dashes (decompose s).
Lemma dmarks_app a b : dmarks (a ++ b) = (dmarks a + dmarks b)%nat.
Proof. unfold dmarks. rewrite dec_app. apply count_app. Qed.
Lemma ddashes_app a b : ddashes (a ++ b) = (ddashes a + ddashes b)%nat.
Proof. unfold ddashes. rewrite dec_app. apply count_app. Qed.
Lemma sums_ok : let gm := fun n k : nat => k in let gd := fun n k : nat => n in
  (forall c, dmarks (decompose_char c) = dmarks [c] /\ ddashes (decompose_char c) = ddashes [c])
  /\ (forall n k h, In h (u "わゐゑを") -> (dmarks [h; voicing] + gm n k = dmarks [h] + gm n (S k))%nat /\ (ddashes [h; voicing] + gd n k = ddashes [h] + gd n (S k))%nat)
  /\ (forall n k v, In v (u "あいうえ") -> (dmarks [long_mark] + gm n k = dmarks [v] + gm (S n) k)%nat /\ (ddashes [long_mark] + gd n k = ddashes [v] + gd (S n) k)%nat).
Proof.
  cbv zeta. split; [|split].
  - intros c. unfold dmarks, ddashes. assert (Q := dec_twice [c]). cbn [decompose flat_map] in Q. rewrite app_nil_r in Q.
    change (decompose [c]) with (decompose_char c ++ []). rewrite app_nil_r. change (flat_map decompose_char (decompose_char c)) with (decompose (decompose_char c)) in Q. rewrite Q. auto.
  - intros n k h I. vm_compute in I. repeat destruct I as [<-|I]; try contradiction;
    (split; [change (S k) with (1 + k)%nat|]; reflexivity).
  - intros n k v I. vm_compute in I. repeat destruct I as [<-|I]; try contradiction; split; reflexivity.
Qed.

(** ** to_hiragana *)
Lemma bad_spec s : long_bad [] s <-> lengthens_voiced s.
Proof. reflexivity. Qed.
Lemma k2h_pieces E s : std_ok E -> exists n m, pieces n m (k2h E false s) (k2h E false (decompose s))
  /\ (n = 0%nat <-> ~ lengthens_voiced s) /\ (m = 0%nat <-> forall c, In c s -> ~ In c (u "ヷヸヹヺ")).
Proof.
  intros HE. apply (sim E HE s [] None None None); [|left|reflexivity]; cbn.
  - intros (k & K). now apply lengthens_nil in K.
  - split; [reflexivity|]. intros k K. now apply lengthens_nil in K.
Qed.
Lemma dec_k2h E s : std_ok E -> (decompose (k2h E false (decompose s)) = decompose (k2h E false s) <-> safe_katakana s)
  /\ (safe_katakana s -> k2h E false (decompose s) = decompose (k2h E false s)).
Proof.
  intros HE. destruct (k2h_pieces E s HE) as (n & m & P & Hn & Hm). unfold safe_katakana. rewrite <- Hn, <- Hm.
  assert (I : n = 0%nat /\ m = 0%nat -> k2h E false (decompose s) = decompose (k2h E false s)) by (intros [A B]; eapply pieces_dec; eauto).
  split; [|exact I]. split; [|intros H; rewrite (I H); apply dec_twice]. intros H.
  destruct sums_ok as (S1 & S2 & S3).
  pose proof (pieces_plain ddashes ddashes_app (fun n _ => n) eq_refl (fun c _ => proj2 (S1 c)) (fun n k h I => proj2 (S2 n k h I)) (fun n k h I => proj2 (S3 n k h I)) _ _ _ _ P) as A.
  pose proof (pieces_plain dmarks dmarks_app (fun _ m => m) eq_refl (fun c _ => proj1 (S1 c)) (fun n k h I => proj1 (S2 n k h I)) (fun n k h I => proj1 (S3 n k h I)) _ _ _ _ P) as B.
  unfold ddashes, dmarks in A, B. rewrite H in A, B. lia.
Qed.
Lemma sigma_k2h E s : std_ok E -> ~ In SIGMA s -> ~ In SIGMA (k2h E false s).
Proof.
  intros HE H I. apply k2h_go_In in I as [I|[_ I]].
  - apply in_map_iff in I as (c & Q & J). destruct (proj2 (k2hc_spec c (k2hc c)) eq_refl) as [[-> X]|[[-> X]|[[-> X]|[[-> X]|[[B X]|(_ & _ & X)]]]]];
      rewrite X in Q; try discriminate; unfold SIGMA in *; [lia|]. subst c. exact (H J).
  - vm_compute in I. repeat destruct I as [I|I]; try discriminate. contradiction.
Qed.
Lemma dec_hira E o s : std_ok E -> (pass_romaji o = true \/ ~ In SIGMA s) ->
  (decompose (hira_pure E o (decompose s)) = decompose (hira_pure E o s) <->
   safe_katakana s \/ (pass_romaji o = false /\ starts_with_punct s /\ ~ mixed_text s)).
Proof.
  intros HE H. unfold hira_pure. destruct (pass_romaji o).
  { rewrite (proj1 (dec_k2h E s HE)). split; [auto|]. intros [G|[G _]]; [exact G|discriminate]. }
  destruct H as [H|H]; [discriminate|]. unfold is_mixed at 1. rewrite dec_mixed, dec_romaji, dec_first. fold (is_mixed s).
  rewrite <- first_punct_spec, <- mixed_spec. rewrite k_tree_mode.
  destruct (is_mixed s) eqn:M.
  - assert (Z : safe_katakana s \/ false = false /\ first_punct s = true /\ true <> true <-> safe_katakana s) by (split; [intros [Z|(_ & _ & Z)]; [exact Z|congruence]|auto]).
    rewrite Z. clear Z. destruct (k2h_pieces E s HE) as (n & m & P & Hn & Hm).
    unfold to_lowercase. rewrite !lower_plain by (apply sigma_k2h; auto; intro I; apply sigma_dec in I; auto).
    split.
    + intros Q. destruct sums_ok as (S1 & S2 & S3).
      pose proof (pieces_sum ddashes E (mode_of o) HE ddashes_app (fun n _ => n) eq_refl (fun c _ => proj2 (S1 c)) (fun n k h I => proj2 (S2 n k h I)) (fun n k h I => proj2 (S3 n k h I)) _ _ _ _ P []) as A.
      pose proof (pieces_sum dmarks E (mode_of o) HE dmarks_app (fun _ m => m) eq_refl (fun c _ => proj1 (S1 c)) (fun n k h I => proj1 (S2 n k h I)) (fun n k h I => proj1 (S3 n k h I)) _ _ _ _ P []) as B.
      cbn [app] in A, B. unfold lw in A, B. unfold ddashes, dmarks in A, B. rewrite Q in A, B. unfold safe_katakana. rewrite <- Hn, <- Hm. lia.
    + intros S. rewrite (proj2 (dec_k2h E s HE) S), dec_lower by assumption. exact (dec_conv (mode_of o) _ []).
  - destruct (is_romaji s || first_punct s) eqn:B.
    + split; [intros _|intros _].
      * destruct (first_punct s) eqn:F; [right; auto|]. rewrite orb_false_r in B. left.
        apply romaji_text_spec in B as [_ B].
        assert (Nk : forall c, In c s -> ~ (0x3041 <= c <= 0x30FE)).
        { intros c I K. specialize (B c I). apply romaji_range in B. unfold between in B. lia. }
        split.
        -- intros (a & b & k & -> & _). apply (Nk long_mark); [apply in_or_app; right; now left|unfold long_mark; lia].
        -- intros c I J. apply (Nk c I). vm_compute in J. repeat destruct J as [<-|J]; try contradiction; lia.
      * unfold to_lowercase. rewrite !lower_plain by (intro I; try apply sigma_dec in I; exact (H I)).
        rewrite dec_lower by assumption. exact (dec_conv (mode_of o) _ []).
    + apply orb_false_iff in B as [_ B]. rewrite (proj1 (dec_k2h E s HE)), B. split; [auto|]. intros [G|(_ & G & _)]; [exact G|discriminate].
Qed.

(** ** to_romaji *)
Lemma k2h_go_marks E d : forall s pc pk, marks (k2h_go E d pc pk s) = marks s.
Proof.
  assert (V : forall q p c, is_char_long_dash c = true -> marks (k2h_vowel E d q p c) = 0%nat).
  { intros q p c D. unfold k2h_vowel. assert (M : marks [c] = 0%nat).
    { unfold is_char_long_dash, PROLONGED_SOUND_MARK in D. apply N.eqb_eq in D. subst c. reflexivity. }
    destruct (rfind E RT p) as [n|]; [|exact M]. destruct (last_char (rout n)) as [r|]; [|reflexivity]. destruct (_ && d); [reflexivity|].
    destruct (LONG_VOWELS r) as [h|] eqn:L; [|reflexivity]. apply LONG_VOWELS_In in L. vm_compute in L. repeat destruct L as [<-|L]; try contradiction; reflexivity. }
  induction s as [|c s IH]; intros pc pk; [reflexivity|]. cbn [k2h_go]. unfold marks in *. rewrite count_cons.
  destruct (_ || _ || _); [rewrite count_cons, IH; reflexivity|].
  assert (G : count mark_b (if negb (is_char_long_dash c) && is_char_katakana c
     then hira_of_kata c :: k2h_go E d (Some c) (Some (hira_of_kata c)) s
     else c :: k2h_go E d (Some c) None s) = ((if mark_b c then 1 else 0) + count mark_b s)%nat).
  { destruct (_ && _) eqn:B; rewrite count_cons, IH; [|reflexivity]. f_equal. andbs.
    match goal with H : is_char_katakana c = true |- _ => apply katakana_spec in H; unfold S_katakana, between in H end.
    match goal with H : negb _ = true |- _ => apply negb_true_iff in H; unfold is_char_long_dash, PROLONGED_SOUND_MARK in H; apply N.eqb_neq in H end.
    replace (mark_b c) with false by (unfold mark_b, voicing, semivoicing; lia).
    destruct (N.le_gt_cases c 0x30F6).
    - rewrite hira_of_kata_shift by lia. replace (mark_b (c - 96)) with false by (unfold mark_b, voicing, semivoicing; lia). reflexivity.
    - assert (In c [0x30F7; 0x30F8; 0x30F9; 0x30FA; 0x30FB]) as Q by (cbn; lia). repeat destruct Q as [<-|Q]; try contradiction; reflexivity. }
  destruct pc as [q|]; [|exact G]. destruct pk as [p|]; [|exact G]. destruct (is_char_long_dash c) eqn:D; [|exact G].
  rewrite count_app, IH. specialize (V q p c D). rewrite V. unfold is_char_long_dash, PROLONGED_SOUND_MARK in D. apply N.eqb_eq in D. subst c. reflexivity.
Qed.
Lemma rconv_marks E up : std_ok E -> forall n orig s, (length s <= n)%nat -> marks (rconv E up orig s) = marks s.
Proof.
  intros HE.
  assert (T : forallb (fun e => Nat.eqb (marks (fst e)) 0 && Nat.eqb (marks (rout (snd e))) 0 && Nat.eqb (marks (map ascii_upper (rout (snd e)))) 0) (r_flat RT) = true) by (vm_compute; reflexivity).
  induction n as [|n IH]; intros orig [|c s] L; [reflexivity|cbn in L; lia|reflexivity|].
  rewrite rconv_cons. unfold marks in *. rewrite count_app. unfold rstep. destruct (rw E RT (c :: s)) as [x [|i]] eqn:W.
  - cbn [fst snd skipn]. rewrite IH by (cbn in L; lia). rewrite <- count_app. reflexivity.
  - cbn [fst snd]. destruct (rw_spec E HE _ [] RT x (S i) r_root W) as (_ & R & _). cbn [app] in R.
    pose proof (romaji_tree_check _ T _ _ R) as Z. cbn [fst snd] in Z. andbs.
    repeat match goal with H : Nat.eqb _ _ = true |- _ => apply Nat.eqb_eq in H end.
    rewrite IH by (rewrite skipn_length; cbn [length] in L |- *; lia).
    rewrite <- (firstn_skipn (S i) (c :: s)) at 2. rewrite count_app. f_equal. unfold remit.
    destruct (_ && up); congruence.
Qed.
Lemma to_romaji_marks E o s t : std_ok E -> to_romaji_with_opt E s o = Ok t -> marks t = marks s.
Proof.
  intros HE. rewrite to_romaji_with_opt_eq by exact HE. intros [= <-].
  rewrite (rconv_marks E _ HE _ _ _ (le_n _)). apply k2h_go_marks.
Qed.
Lemma marks_dec s : (marks s <= marks (decompose s))%nat /\ (marks (decompose s) = marks s -> decompose s = s).
Proof.
  induction s as [|c s [IH1 IH2]]; [split; [apply le_n|reflexivity]|]. cbn [decompose flat_map]. fold (decompose s). unfold marks in *. rewrite count_app, count_cons.
  destruct (dec1_cases c) as [[N ->]|(p & I & ->)].
  - rewrite count_cons. change (count mark_b []) with 0%nat. split; [lia|]. intros H. cbn. f_equal. apply IH2. lia.
  - destruct (shape c p I) as (b & v & -> & V & B & C).
    pose proof (table (fun e => Nat.eqb (count mark_b (snd e)) 1 && negb (mark_b (fst e))) ltac:(vm_compute; reflexivity) c _ I) as Q. cbn [fst snd] in Q.
    andbs. match goal with H : Nat.eqb _ _ = true |- _ => apply Nat.eqb_eq in H; rewrite H end.
    match goal with H : negb _ = true |- _ => apply negb_true_iff in H; rewrite H end. split; [lia|]. intros. exfalso. lia.
Qed.
Lemma dec_romaji_same E o s t : std_ok E -> to_romaji_with_opt E s o = Ok t ->
  (to_romaji_with_opt E (decompose s) o = Ok t <-> decompose s = s).
Proof.
  intros HE H. split; [|intros ->; exact H]. intros D. apply (to_romaji_marks E o _ _ HE) in H, D. apply (marks_dec s). congruence.
Qed.

(** ** Tokens *)
Definition kana_type (c : N) : Prop := S_hiragana c \/ S_katakana c.
Lemma flat_homogeneous (ty : N -> token_type) t : (forall c, is_composed c -> forall d, In d (decompose_char c) -> ty d = ty c) ->
  forall c d, In c t -> In d (decompose_char c) -> ty d = ty c.
Proof.
  intros H c d _ D. destruct (dec1_cases c) as [[N X]|(p & I & X)]; [rewrite X in D; destruct D as [<-|[]]; reflexivity|].
  apply H; [|exact D]. apply in_map_iff. now exists (c, p).
Qed.
Lemma dec_nonempty t : t <> [] -> decompose t <> [].
Proof. intros H Z. pose proof (dec_empty t) as E. rewrite Z in E. destruct t; [congruence|discriminate]. Qed.
Lemma dec_concat ts : concat (map decompose ts) = decompose (concat ts).
Proof. induction ts as [|t ts IH]; [reflexivity|]. cbn. now rewrite dec_app, IH. Qed.
Lemma map_two (ts : list str) : forall pre a b post, map decompose ts = pre ++ a :: b :: post ->
  exists pre' a' b' post', ts = pre' ++ a' :: b' :: post' /\ decompose a' = a /\ decompose b' = b.
Proof.
  intros pre a b post H. apply map_eq_app in H as (l1 & l2 & -> & _ & H). apply map_eq_cons in H as (a' & l3 & -> & A & H).
  apply map_eq_cons in H as (b' & l4 & -> & B & _). exists l1, a', b', l4. auto.
Qed.
Lemma dec_last a c : exists y z, decompose (a ++ [c]) = y ++ [z] /\ In z (decompose_char c).
Proof.
  rewrite dec_app. cbn [decompose flat_map]. rewrite app_nil_r. destruct (dec1_cases c) as [[N ->]|(p & I & ->)].
  - exists (decompose a), c. split; [reflexivity|now left].
  - destruct (shape c p I) as (b & v & -> & _). exists (decompose a ++ [b]), v. rewrite <- app_assoc. split; [reflexivity|now right; left].
Qed.
Lemma dec_head c a : exists y z, decompose (c :: a) = z :: y /\ In z (decompose_char c).
Proof.
  cbn [decompose flat_map]. destruct (dec1_cases c) as [[N ->]|(p & I & ->)].
  - exists (decompose a), c. split; [reflexivity|now left].
  - destruct (shape c p I) as (b & v & -> & _). exists (v :: decompose a), b. split; [reflexivity|now left].
Qed.
Lemma dec_tokenisation (ty : N -> token_type) ts s : tokenisation ty ts s ->
  (forall c, In c s -> forall d, In d (decompose_char c) -> ty d = ty c) -> tokenisation ty (map decompose ts) (decompose s).
Proof.
  intros (C & Ne & Ho & Se) T.
  assert (In_s : forall t c, In t ts -> In c t -> In c s) by (intros t c It Ic; rewrite <- C; apply in_concat; eauto).
  split; [rewrite dec_concat, C; reflexivity|]. split; [|split].
  - intros t I. apply in_map_iff in I as (t' & <- & I). now apply dec_nonempty, Ne.
  - intros t I. apply in_map_iff in I as (t' & <- & I). intros x y X Y. apply in_flat_map in X as (c & Ic & X). apply in_flat_map in Y as (c' & Ic' & Y).
    rewrite (T c (In_s t' c I Ic) x X), (T c' (In_s t' c' I Ic') y Y). exact (Ho t' I c c' Ic Ic').
  - intros pre a b post H. apply map_two in H as (pre' & a' & b' & post' & Q & <- & <-).
    assert (Ia : In a' ts) by (rewrite Q; apply in_or_app; right; now left).
    assert (Ib : In b' ts) by (rewrite Q; apply in_or_app; right; right; now left).
    intros a1 x y b1 Qa Qb.
    destruct a' as [|ca a' _] using rev_ind; [now destruct a1|]. destruct b' as [|cb b']; [discriminate|].
    destruct (dec_last a' ca) as (w & z & Q1 & Z1). rewrite Q1 in Qa. apply app_inj_tail in Qa as [_ <-].
    destruct (dec_head cb b') as (w2 & z2 & Q2 & Z2). rewrite Q2 in Qb. injection Qb as <- _.
    rewrite (T ca (In_s _ _ Ia ltac:(apply in_or_app; right; now left)) z Z1), (T cb (In_s _ _ Ib ltac:(now left)) z2 Z2).
    exact (Se pre' (a' ++ [ca]) (cb :: b') post' Q a' ca cb b' eq_refl eq_refl).
Qed.
Lemma compact_types c : is_composed c -> forall d, In d (decompose_char c) -> get_type d true = get_type c true.
Proof.
  intros C d D. destruct (dec1_in c C) as (p & I & X). rewrite X in D.
  pose proof (table (fun e => forallb (fun d => token_type_eqb (get_type d true) (get_type (fst e) true)) (snd e)) ltac:(vm_compute; reflexivity) c p I) as T.
  cbn [snd fst] in T. rewrite forallb_forall in T. specialize (T d D). now apply token_type_eqb_eq in T.
Qed.
Lemma dec_compact s : tokenize_with_opt (decompose s) true = map decompose (tokenize_with_opt s true).
Proof.
  symmetry. apply tokenize_unique. apply dec_tokenisation; [apply tokenize_tokenisation|].
  intros c _ d D. exact (flat_homogeneous (fun c => get_type c true) [c] compact_types c d ltac:(now left) D).
Qed.
Lemma detailed_types c : is_composed c -> ((forall d, In d (decompose_char c) -> get_type d false = get_type c false) <-> c = ch "ゞ" \/ c = ch "ヾ").
Proof.
  intros C. destruct (dec1_in c C) as (p & I & X). rewrite X.
  pose proof (table (fun e => Bool.eqb (forallb (fun d => token_type_eqb (get_type d false) (get_type (fst e) false)) (snd e)) ((fst e =? ch "ゞ") || (fst e =? ch "ヾ"))) ltac:(vm_compute; reflexivity) c p I) as T.
  cbn [snd fst] in T. apply eqb_prop in T. rewrite <- !N.eqb_eq. assert (O : forall x y : bool, (x = true \/ y = true) <-> x || y = true) by (intros [] []; cbn; intuition congruence).
  rewrite O, <- T, forallb_forall. split; intros H d D; apply token_type_eqb_eq, H, D.
Qed.
Lemma dec_detailed s : tokenize_with_opt (decompose s) false = map decompose (tokenize_with_opt s false) <->
  (forall c, In c s -> is_composed c -> c = ch "ゞ" \/ c = ch "ヾ").
Proof.
  split.
  - intros H c Ic C. pose proof (tokenize_tokenisation (decompose s) false) as (_ & _ & Ho & _). rewrite H in Ho.
    pose proof (tokenize_tokenisation s false) as (Co & _ & _ & _). rewrite <- Co in Ic. apply in_concat in Ic as (t & It & Ic).
    specialize (Ho (decompose t) (in_map _ _ _ It)).
    destruct (dec1_in c C) as (p & I & X).
    assert (J : forall d d', In d p -> In d' p -> get_type d false = get_type d' false).
    { intros d d' D D'. apply Ho; apply in_flat_map; exists c; rewrite X; auto. }
    pose proof (table (fun e => match snd e with [b; v] => negb (token_type_eqb (get_type b false) (get_type v false)) || ((fst e =? ch "ゞ") || (fst e =? ch "ヾ")) | _ => false end)
      ltac:(vm_compute; reflexivity) c p I) as T. cbn [snd fst] in T.
    destruct p as [|b [|v [|]]]; try discriminate. rewrite (proj2 (token_type_eqb_eq _ _) (J b v ltac:(now left) ltac:(now right; left))) in T.
    cbn [negb orb] in T. apply orb_prop in T as [T|T]; apply N.eqb_eq in T; auto.
  - intros H. symmetry. apply tokenize_unique. apply dec_tokenisation; [apply tokenize_tokenisation|].
    intros c Ic d D. destruct (dec1_cases c) as [[N X]|(p & I & X)]; [rewrite X in D; destruct D as [<-|[]]; reflexivity|].
    assert (C : is_composed c) by (apply in_map_iff; now exists (c, p)). exact (proj2 (detailed_types c C) (H c Ic C) d D).
Qed.
