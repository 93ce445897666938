(** * Repeated conversions and lower-casing beyond ASCII (C64) *)
From Verif Require Import Tac Base Std StdInstances Constants Chars Trees KanaTree RomajiTree Strings Convert
  KanaPure RomajiPure KanaSpec KanaDict KanaProofs Predicates ScriptSpec ScriptProofs RomajiSpec RomajiProofs MoraProofs
  ScriptIdem TypingSpec Splits LibrarySpec LibraryProofs ExactSpec Exact ExactScript.

(** ** Lower-casing in pieces *)
Definition low_piece (E : std) (c : N) (l : str) : Prop :=
  (c <> SIGMA /\ l = lower_char E c) \/ (c = SIGMA /\ (l = [0x3C2] \/ l = [0x3C3])).
Lemma lower_pieces E s : exists ls, Forall2 (low_piece E) s ls /\ to_lowercase E s = concat ls.
Proof.
  unfold to_lowercase. generalize (@nil N) as b. induction s as [|c s IH]; intro b; [exists []; split; [constructor|reflexivity]|].
  cbn [to_lowercase_from]. destruct (IH (c :: b)) as (ls & F & ->).
  exists ((if c =? SIGMA then if case_ignorable_then_cased E b && negb (case_ignorable_then_cased E s)
       then [0x3C2] else [0x3C3] else lower_char E c) :: ls). split; [|reflexivity]. constructor; [|exact F].
  destruct (c =? SIGMA) eqn:Z.
  - right. split; [now apply N.eqb_eq|]. destruct (_ && _); auto.
  - left. split; [now apply N.eqb_neq|reflexivity].
Qed.
Lemma piece_some E c l : std_ok E -> low_piece E c l -> l <> [].
Proof. intros HE [[_ ->]|[_ [->| ->]]]; [now apply ok_lower_some|discriminate..]. Qed.
Lemma piece_fixed E c l d : std_ok E -> low_piece E c l -> In d l -> lower_char E d = [d].
Proof.
  intros HE [[_ ->]|[_ [->| ->]]] I; [revert I; now apply ok_lower_fixed| |]; destruct I as [<-|[]].
  - now apply ok_lower_sigma.
  - apply (ok_lower_fixed E HE SIGMA). rewrite (proj1 (ok_lower_sigma E HE)). now left.
Qed.
Lemma piece_low E c l : std_ok E -> low_piece E c l -> c < 128 -> l = [ascii_lower c].
Proof. intros HE [[_ ->]|[-> _]] L; [now apply ok_lower_ascii|discriminate L]. Qed.
Lemma piece_ascii E c l d : std_ok E -> low_piece E c l -> In d l -> d < 128 ->
  (c < 128 /\ l = [ascii_lower c] /\ d = ascii_lower c) \/
  (c = 0x130 /\ l = [0x69; 0x307] /\ d = 0x69) \/ (c = 0x212A /\ l = [0x6B] /\ d = 0x6B).
Proof.
  intros HE P I L. assert (D : c < 128 \/ 128 <= c) by lia. destruct D as [D|D].
  - left. rewrite (piece_low E c l HE P D) in *. destruct I as [<-|[]]. auto.
  - right. destruct P as [[_ ->]|[_ [->| ->]]].
    + destruct (ok_lower_to_ascii E HE c d D I L) as [-> | ->];
        [left; rewrite (ok_lower_dotted_i E HE) in *|right; rewrite (ok_lower_kelvin E HE) in *];
        cbn [In] in I; (split; [reflexivity|]); (split; [reflexivity|]); lia.
    + destruct I as [<-|[]]. discriminate L.
    + destruct I as [<-|[]]. discriminate L.
Qed.
(** ** Text that lower-casing leaves alone *)
Definition lowered (E : std) (y : str) : Prop := forall c, In c y -> lower_char E c = [c].
Lemma to_lowercase_lowered E s : std_ok E -> lowered E (to_lowercase E s).
Proof.
  intros HE d I. destruct (lower_pieces E s) as (ls & F & Q). rewrite Q in I. clear Q.
  induction F as [|c l s ls P F IH]; [destruct I|]. cbn [concat] in I. apply in_app_or in I.
  destruct I as [I|I]; [exact (piece_fixed E c l d HE P I)|auto].
Qed.
Lemma lowered_same E y : std_ok E -> lowered E y -> to_lowercase E y = y.
Proof.
  intros HE. unfold to_lowercase. generalize (@nil N) as b. induction y as [|c y IH]; intros b H; [reflexivity|].
  cbn [to_lowercase_from]. rewrite IH by (intros d I; apply H; now right).
  destruct (c =? SIGMA) eqn:Z.
  - exfalso. apply N.eqb_eq in Z. assert (X := H c (or_introl eq_refl)). rewrite Z, (proj1 (ok_lower_sigma E HE)) in X. discriminate X.
  - now rewrite (H c) by now left.
Qed.
Lemma lowered_AZ E y : std_ok E -> lowered E y -> forall c, In c y -> is_AZ c = false.
Proof.
  intros HE H c I. apply H in I. pose proof (ok_lower_no_upper E HE c) as U. rewrite I in U. cbn [forallb] in U.
  rewrite andb_true_r in U. now apply negb_true_iff in U.
Qed.
Lemma lowered_low E y : std_ok E -> lowered E y -> low y = y.
Proof. intros HE H. apply low_AZ. exact (lowered_AZ E y HE H). Qed.
Lemma caseless_lowered E c : std_ok E -> c < 128 \/ caseless c = true -> ascii_lower c = c -> lower_char E c = [c].
Proof. intros HE [L|C] Q; [rewrite ok_lower_ascii by assumption; congruence|now apply ok_lower_caseless]. Qed.
Lemma conv_lowered E m y : std_ok E -> lowered E y -> lowered E (conv m y).
Proof.
  intros HE H c I. apply conv_lower_In in I; [|exact (lowered_AZ E y HE H)]. destruct I as [I|(k & v & I & J)]; [now apply H|].
  destruct (outputs_caseless m k v c I J) as [A B]. now apply caseless_lowered.
Qed.
Lemma h2k_lowered E y : std_ok E -> lowered E y -> lowered E (h2k y).
Proof.
  intros HE H x I. unfold h2k in I. apply in_map_iff in I. destruct I as (c & <- & I).
  destruct (h2k_char_cases c) as [->|[Q ->]]; [now apply H|]. unfold hiragana_letter in Q.
  apply ok_lower_caseless; [exact HE|]. unfold caseless. lia.
Qed.
Lemma k2h_lowered E d y : std_ok E -> lowered E y -> lowered E (k2h E d y).
Proof.
  intros HE H x I. apply k2h_go_In in I. destruct I as [I|[_ I]].
  - apply in_map_iff in I. destruct I as (c & <- & I). destruct (k2hc_cases c) as [->|[_ Q]]; [now apply H|].
    apply ok_lower_caseless; [exact HE|]. unfold hiragana_letter in Q. unfold caseless. lia.
  - apply ok_lower_caseless; [exact HE|]. apply vowel_not_katakana in I. unfold caseless. lia.
Qed.

(** ** An n read on its own, before and after lower-casing *)
Lemma piece_first E s ls d b : std_ok E -> Forall2 (low_piece E) s ls -> concat ls = d :: b ->
  exists c s' l ls', s = c :: s' /\ ls = l :: ls' /\ low_piece E c l /\ Forall2 (low_piece E) s' ls' /\ l ++ concat ls' = d :: b.
Proof.
  intros HE F Q. destruct F as [|c l s ls P F]; [discriminate Q|]. exists c, s, l, ls. auto.
Qed.
Lemma piece_at E s ls : std_ok E -> Forall2 (low_piece E) s ls -> forall p d b, concat ls = p ++ d :: b -> d < 128 ->
  exists s1 s2 ls1 ls2, s = s1 ++ s2 /\ Forall2 (low_piece E) s1 ls1 /\ Forall2 (low_piece E) s2 ls2 /\
    concat ls1 = p /\ concat ls2 = d :: b.
Proof.
  intros HE F. induction F as [|c l s ls P F IH]; intros p d b Q L; [destruct p; discriminate Q|].
  cbn [concat] in Q. destruct (app_split_cases _ _ _ _ Q) as [(z & k & Q1 & Q2)|[(z & k & Q1 & Q2)|[Q1 Q2]]].
  - cbn in Q2. injection Q2 as -> Q2.
    assert (I : In z l) by (rewrite Q1; apply in_or_app; right; now left).
    assert (p = []) as ->.
    { destruct (piece_ascii E c l z HE P I L) as [(_ & Z & _)|[(_ & Z & Zd)|(_ & Z & _)]]; rewrite Q1 in Z.
      - destruct p as [|? [|? ?]]; [reflexivity|discriminate Z..].
      - subst z. destruct p as [|? [|? [|? ?]]]; [reflexivity|discriminate Z..].
      - destruct p as [|? [|? ?]]; [reflexivity|discriminate Z..]. }
    exists [], (c :: s), [], (l :: ls). cbn [app concat]. split; [reflexivity|]. split; [constructor|].
    split; [now constructor|]. split; [reflexivity|]. exact Q.
  - subst p. rewrite <- app_assoc in Q. apply app_inv_head in Q. destruct (IH _ _ _ Q L) as (s1 & s2 & ls1 & ls2 & -> & F1 & F2 & C1 & C2).
    exists (c :: s1), s2, (l :: ls1), ls2. split; [reflexivity|]. split; [now constructor|]. split; [exact F2|].
    split; [cbn [concat]; now rewrite C1|exact C2].
  - subst p. apply app_inv_head in Q. destruct (IH [] _ _ Q L) as (s1 & s2 & ls1 & ls2 & -> & F1 & F2 & C1 & C2).
    exists (c :: s1), s2, (l :: ls1), ls2. split; [reflexivity|]. split; [now constructor|]. split; [exact F2|].
    split; [cbn [concat]; now rewrite C1, app_nil_r|exact C2].
Qed.
Lemma concat_nil E s ls : std_ok E -> Forall2 (low_piece E) s ls -> concat ls = [] -> s = [].
Proof.
  intros HE F Q. destruct F as [|c l s ls P F]; [reflexivity|]. exfalso. apply (piece_some E c l HE P).
  cbn [concat] in Q. now apply app_eq_nil in Q.
Qed.
Lemma x_ascii c : x_letter c -> c < 128. Proof. unfold x_letter. lia. Qed.
Lemma n_romaji c : n_letter c -> is_char_romaji c = true.
Proof. intros [->| ->]; reflexivity. Qed.
Lemma n_ascii c : n_letter c -> c < 128. Proof. unfold n_letter. lia. Qed.
Lemma starts_lowered E s ls : std_ok E -> Forall2 (low_piece E) s ls ->
  (forall p' c, concat ls = p' ++ [c] -> ~ x_letter c) <-> (forall p' c, s = p' ++ [c] -> ~ x_letter c).
Proof.
  intros HE F. split; intros H p c Q X; pose proof (x_ascii c X) as L.
  - subst s. apply Forall2_app_inv_l in F. destruct F as (l1 & l2 & F1 & F2 & ->).
    inversion F2 as [|? l ? ls' P F3]; subst. inversion F3; subst.
    apply (H (concat l1) (ascii_lower c)); [|now apply x_letter_low].
    rewrite concat_app. cbn [concat]. now rewrite (piece_low E c l HE P L), app_nil_r.
  - destruct (piece_at E s ls HE F p c [] Q L) as (s1 & s2 & ls1 & ls2 & -> & F1 & F2 & C1 & C2).
    destruct (piece_first E s2 ls2 c [] HE F2 C2) as (d & s' & l & ls' & -> & -> & P & F3 & C3).
    assert (I : In c l).
    { destruct l as [|e l]; [now apply piece_some in P|]. cbn in C3. injection C3 as -> _. now left. }
    destruct (piece_ascii E d l c HE P I L) as [(Ld & Z & Zd)|[(_ & Z & Zd)|(_ & _ & Zd)]].
    + rewrite Z in C3. cbn in C3. injection C3 as _ C3. apply (concat_nil E s') in C3; [|assumption..]. subst s'.
      apply (H s1 d eq_refl). apply x_letter_low. now rewrite <- Zd.
    + subst c. unfold x_letter in X. lia.
    + subst c. unfold x_letter in X. lia.
Qed.
Lemma letter_at E s ls d b : std_ok E -> Forall2 (low_piece E) s ls -> concat ls = d :: b -> d < 128 -> d <> 0x69 -> d <> 0x6B ->
  exists c s' ls', s = c :: s' /\ lowers c d /\ c < 128 /\ Forall2 (low_piece E) s' ls' /\ concat ls' = b.
Proof.
  intros HE F Q L Ni Nk. destruct (piece_first E s ls d b HE F Q) as (c & s' & l & ls' & -> & -> & P & F' & C).
  assert (I : In d l).
  { destruct l as [|e l]; [now apply piece_some in P|]. cbn in C. injection C as -> _. now left. }
  destruct (piece_ascii E c l d HE P I L) as [(Lc & Z & Zd)|[(_ & _ & Zd)|(_ & _ & Zd)]]; [|congruence..].
  exists c, s', ls'. split; [reflexivity|]. split; [now apply lowers_lower|]. split; [exact Lc|]. split; [exact F'|].
  rewrite Z in C. cbn in C. now injection C.
Qed.
Lemma lowered_vowel E c l d b s : std_ok E -> low_piece E c l -> l ++ s = d :: b -> In (ascii_lower d) (u "aiueo") ->
  (exists v, lowers c v /\ In v (u "aiueo")) \/ c = 0x130.
Proof.
  intros HE P C V.
  assert (L : d < 128) by (revert V; change (u "aiueo") with [97; 105; 117; 101; 111]; cbn [In]; unfold ascii_lower; ifs; lia).
  assert (I : In d l).
  { destruct l as [|e l]; [now apply piece_some in P|]. cbn in C. injection C as -> _. now left. }
  destruct (piece_ascii E c l d HE P I L) as [(Lc & Z & Zd)|[(-> & _)|(_ & _ & ->)]].
  - left. exists (ascii_lower c). split; [now apply lowers_lower|]. subst d.
    assert (X : ascii_lower (ascii_lower c) = ascii_lower c) by (unfold ascii_lower; ifs; lia). now rewrite X in V.
  - now right.
  - exfalso. revert V. change (u "aiueo") with [97; 105; 117; 101; 111]. cbn. lia.
Qed.
Lemma vowel_lowered E c l : std_ok E -> low_piece E c l -> (exists v, lowers c v /\ In v (u "aiueo")) \/ c = 0x130 ->
  exists v l', l = v :: l' /\ In v (u "aiueo") /\ ascii_lower v = v.
Proof.
  intros HE P [(v & Lv & V)| ->].
  - apply lowers_lower in Lv. assert (L : c < 128) by (revert V; rewrite <- Lv; change (u "aiueo") with [97; 105; 117; 101; 111]; cbn [In]; unfold ascii_lower; ifs; lia).
    exists v, []. rewrite (piece_low E c l HE P L), Lv. split; [reflexivity|]. split; [exact V|].
    rewrite <- Lv. unfold ascii_lower. ifs; lia.
  - destruct P as [[_ ->]|[Z _]]; [|discriminate Z].
    rewrite (ok_lower_dotted_i E HE). exists 0x69, [0x307]. split; [reflexivity|]. split; [right; now left|reflexivity].
Qed.
Lemma n_starts_eq m : m <> Ime -> forall p, n_starts m p <-> forall p' c, p = p' ++ [c] -> ~ x_letter c.
Proof. intro M. destruct m; [tauto|tauto|congruence]. Qed.
Lemma lower_lower c : ascii_lower (ascii_lower c) = ascii_lower c.
Proof. unfold ascii_lower. ifs; lia. Qed.
Lemma nyy_lowercase E m s : std_ok E -> m <> Ime -> reads_nyy m (to_lowercase E s) <-> reads_nyy_lowered m s.
Proof.
  intros HE M. destruct (lower_pieces E s) as (ls & F & ->). split.
  - intros (p & n & seg & v & b & Q & N & C & V & P). rewrite (n_starts_eq m M) in P.
    destruct (casing_yyv seg v C V) as (y1 & y2 & v1 & -> & L1 & L2 & L3).
    apply casing_low in C. cbn in C. injection C as C1 C2 C3.
    assert (Y : forall y, ascii_lower y = 0x79 -> y <> 0x69 /\ y <> 0x6B) by (intros y; unfold ascii_lower; ifs; lia).
    cbn [app] in Q. destruct (piece_at E s ls HE F p n _ Q (n_ascii n N)) as (s1 & s2 & ls1 & ls2 & -> & F1 & F2 & D1 & D2).
    destruct (letter_at E s2 ls2 n _ HE F2 D2 (n_ascii n N)) as (c & s3 & ls3 & -> & N3 & _ & F3 & D3); [unfold n_letter in N; lia..|].
    destruct (letter_at E s3 ls3 y1 _ HE F3 D3 L1) as (c1 & s4 & ls4 & -> & N4 & _ & F4 & D4); [now apply Y..|].
    destruct (letter_at E s4 ls4 y2 _ HE F4 D4 L2) as (c2 & s5 & ls5 & -> & N5 & _ & F5 & D5); [now apply Y..|].
    destruct (piece_first E s5 ls5 v1 b HE F5 D5) as (c3 & s6 & l & ls6 & -> & -> & P6 & F6 & D6).
    apply lowers_lower in N3, N4, N5. subst n y1 y2.
    exists s1, c, [c1; c2], c3, s6. split; [reflexivity|]. split; [now apply n_letter_low'|].
    rewrite lower_lower in C1, C2. split; [apply casing_low; cbn; now rewrite C1, C2|].
    split; [apply (lowered_vowel E c3 l v1 b (concat ls6) HE P6 D6); now rewrite C3|].
    apply (n_starts_eq m M). apply (starts_lowered E s1 ls1 HE F1). now rewrite D1.
  - intros (p & n & seg & c & b & -> & N & C & V & P). rewrite (n_starts_eq m M) in P.
    apply casing_low in C. destruct seg as [|y1 [|y2 [|? ?]]]; try discriminate C. cbn in C. injection C as C1 C2.
    cbn [app] in F. apply Forall2_app_inv_l in F. destruct F as (ls1 & ls2 & F1 & F2 & ->).
    inversion F2 as [|? l1 ? ls3 P1 F3]; subst. inversion F3 as [|? l2 ? ls4 P2 F4]; subst.
    inversion F4 as [|? l3 ? ls5 P3 F5]; subst. inversion F5 as [|? l4 ? ls6 P4 F6]; subst.
    assert (Y : forall y, ascii_lower y = 0x79 -> y < 128) by (intros y; unfold ascii_lower; ifs; lia).
    rewrite (piece_low E n l1 HE P1 (n_ascii n N)), (piece_low E y1 l2 HE P2), (piece_low E y2 l3 HE P3) by now apply Y.
    destruct (vowel_lowered E c l4 HE P4 V) as (v & l' & -> & V' & Lv).
    exists (concat ls1), (ascii_lower n), [ascii_lower y1; ascii_lower y2; v], v, (l' ++ concat ls6).
    split; [rewrite concat_app; reflexivity|]. split; [now apply n_letter_low'|].
    split; [apply casing_low; cbn; now rewrite !lower_lower, C1, C2, Lv|]. split; [exact V'|].
    apply (n_starts_eq m M). now apply (starts_lowered E p ls1 HE F1).
Qed.
Lemma nyy_lowered_k2h E m s : std_ok E -> m <> Ime -> reads_nyy_lowered m (k2h E false s) <-> reads_nyy_lowered m s.
Proof.
  intros HE M.
  assert (VL : forall c, (exists v, lowers c v /\ In v (u "aiueo")) \/ c = 0x130 -> c < 0x3041).
  { intros c [(v & Lv & V)| ->]; [|lia]. apply lowers_lower in Lv. revert V. rewrite <- Lv.
    change (u "aiueo") with [97; 105; 117; 101; 111]. cbn [In]. unfold ascii_lower. ifs; lia. }
  assert (YL : forall seg, casing seg (u "yy") -> exists y1 y2, seg = [y1; y2] /\ y1 < 128 /\ y2 < 128).
  { intros seg C. apply casing_low in C. destruct seg as [|y1 [|y2 [|? ?]]]; try discriminate C. cbn in C. injection C as C1 C2.
    exists y1, y2. split; [reflexivity|]. revert C1 C2. unfold ascii_lower. ifs; lia. }
  split.
  - intros (p & n & seg & c & b & Q & N & C & V & P). rewrite (n_starts_eq m M) in P.
    destruct (YL seg C) as (y1 & y2 & -> & L1 & L2). pose proof (n_ascii n N) as Ln. pose proof (VL c V) as L3.
    pose proof (k2h_text E false s HE) as T. cbn iota in T. rewrite Q in T.
    assert (Ln' : n < 0x3041) by lia.
    destruct (text_char (u "う") n (low_not_o n Ln') Ln' [] s _ T p _ eq_refl) as (s1 & s2 & -> & T1 & T2).
    cbn [app] in T2. apply text_step in T2; [|lia..]. destruct T2 as (s3 & -> & T2).
    apply text_step in T2; [|lia..]. destruct T2 as (s4 & -> & T2).
    apply text_step in T2; [|lia..]. destruct T2 as (s5 & -> & T2).
    exists s1, n, [y1; y2], c, s5. split; [reflexivity|]. split; [exact N|]. split; [exact C|]. split; [exact V|].
    apply (n_starts_eq m M). intros p' d -> X. pose proof (x_ascii d X) as XL. apply text_snoc_piece in T1. destruct T1 as (h0 & q & -> & T1 & Pq).
    destruct Pq as [(_ & h & A & ->)|[(-> & _)|(-> & _)]]; [|unfold long_mark in XL; lia..].
    apply (P h0 h eq_refl). assert (h = d) as -> by (revert A; unfold hiragana_for; symspec; lia). exact X.
  - intros (p & n & seg & c & b & -> & N & C & V & P). rewrite (n_starts_eq m M) in P.
    destruct (YL seg C) as (y1 & y2 & -> & L1 & L2). pose proof (n_ascii n N) as Ln. pose proof (VL c V) as L3.
    destruct (Splits.k2h_head E false c c b HE) as (r & R).
    + unfold long_mark. lia.
    + unfold hiragana_for. symspec. lia.
    + exists (k2h E false p), n, [y1; y2], c, r. split.
      * rewrite Splits.k2h_split.
        -- cbn [app]. rewrite !k2h_low_cons by (assumption || lia). now rewrite R.
        -- change (u "ー・ヵヶ") with [0x30FC; 0x30FB; 0x30F5; 0x30F6]. cbn [In]. lia.
      * split; [exact N|]. split; [exact C|]. split; [exact V|]. apply (n_starts_eq m M). intros p' d Q X. pose proof (x_ascii d X) as XL.
        destruct (k2h_ends E p p' d HE) as (s' & ->); [lia|exact Q|]. exact (P s' d eq_refl X).
Qed.
Lemma lower_no_katakana E s : std_ok E -> (exists c, In c (to_lowercase E s) /\ plain_katakana c) <-> exists c, In c s /\ plain_katakana c.
Proof.
  assert (CK : forall c, plain_katakana c -> caseless c = true)
    by (intros c [K _]; unfold katakana_letter in K; unfold caseless; lia).
  intro HE. split; intros (c & I & K); exists c; (split; [|exact K]).
  - apply (lower_In E s c HE I). now apply CK.
  - apply lower_keeps; auto.
Qed.

(** ** Both conversions repeated *)
Section TwiceAll.
  Context (E : std) (HE : std_ok E) (o : options) (P : pass_romaji o = false).
  Let m := mode_of o.
  Let K := kata_pure E o.
  Let H := hira_pure E o.

  Lemma kata_lowered x : lowered E x -> K x = h2k x \/ K x = h2k (conv m x).
  Proof.
    intro L. unfold K, kata_pure. rewrite P, k_tree_mode, lowered_same by assumption. destruct (_ || _); auto.
  Qed.
  Theorem kata_all s :
    K (K (K s)) = K (K s) /\
    (K (K s) = K s <-> m = Ime \/ ~ (all_nonempty S_romaji s \/ mixed_text s) \/ ~ reads_nyy_lowered m s).
  Proof.
    rewrite <- romaji_text_spec, <- mixed_spec, <- orb_true_iff.
    destruct (is_romaji s || is_mixed s) eqn:R.
    2:{ assert (Z : K (K s) = K s) by (unfold K, kata_pure; rewrite P, R, h2k_romaji, h2k_mixed, R; apply h2k_h2k).
        rewrite !Z. split; [reflexivity|]. split; [intros _; right; left; discriminate|reflexivity]. }
    assert (Q : K s = h2k (conv m (to_lowercase E s))) by (unfold K, kata_pure; now rewrite P, R, k_tree_mode).
    rewrite Q. set (y := to_lowercase E s). set (x := conv m y).
    assert (Ly : lowered E y) by now apply to_lowercase_lowered.
    assert (Lx : lowered E x) by now apply conv_lowered. assert (Lh : lowered E (h2k x)) by now apply h2k_lowered.
    assert (Lc : lowered E (conv m x)) by now apply conv_lowered.
    assert (H2 : K (h2k x) = h2k x \/ K (h2k x) = h2k (conv m x)).
    { destruct (kata_lowered (h2k x) Lh) as [->| ->]; [left; apply h2k_h2k|right; apply h2k_conv_h2k]. }
    split.
    { destruct H2 as [H2|H2]; [now rewrite !H2|]. rewrite H2.
      destruct (kata_lowered _ (h2k_lowered E _ HE Lc)) as [->| ->]; [apply h2k_h2k|]. rewrite h2k_conv_h2k.
      unfold x. now rewrite conv_thrice. }
    destruct (mode_dec o) as [M|M]; fold m in M.
    { split; [auto|]. intros _. destruct H2 as [->| ->]; [reflexivity|]. unfold x. now rewrite M, ime_idempotent. }
    pose proof (idempotent_exact m y) as X. fold x in X. split.
    - intro Z. right. right. intro Rn. apply (nyy_lowercase E m s HE M) in Rn. fold y in Rn.
      pose proof (reads_nyy_mixed m y Rn) as Rl. fold x in Rl. apply mixed_spec in Rl.
      assert (H3 : K (h2k x) = h2k (conv m x)).
      { unfold K, kata_pure. rewrite P, h2k_mixed, Rl, orb_true_r, k_tree_mode, lowered_same by assumption. apply h2k_conv_h2k. }
      rewrite H3 in Z. unfold x in Z. rewrite (conv_conv m M y) in Z. apply nfix_h2k in Z.
      rewrite <- (conv_conv m M y) in Z. apply X in Z. tauto.
    - intros [Z|[Z|Z]]; [contradiction|congruence|].
      assert (C : conv m x = x) by (apply X; right; intro Rn; apply Z; now apply (nyy_lowercase E m s HE M)).
      destruct H2 as [->| ->]; [reflexivity|]. now rewrite C.
  Qed.

  Lemma hira_lowered x : lowered E x -> no_katakana x -> H x = x \/ H x = conv m x.
  Proof.
    intros L N. unfold H, hira_pure. rewrite P, k_tree_mode, (k2h_no_katakana E false x N), lowered_same by assumption.
    destruct (is_mixed x), (is_romaji x || first_punct x); auto.
  Qed.
  Lemma conv_lowered_no_katakana y : lowered E y -> no_katakana y -> no_katakana (conv m y).
  Proof. intros L N. apply (conv_no_katakana o y); [now apply (lowered_low E)|exact N]. Qed.
  Lemma hira_lowered_twice y : lowered E y -> no_katakana y ->
    H (H (conv m y)) = H (conv m y) /\ (H (conv m y) = conv m y <-> m = Ime \/ ~ reads_nyy m y).
  Proof.
    intros L N. assert (L1 : lowered E (conv m y)) by now apply conv_lowered. pose proof (conv_lowered_no_katakana y L N) as N1.
    pose proof (hira_lowered _ L1 N1) as D. split; [|split].
    - destruct D as [D|D]; [now rewrite !D|]. rewrite D.
      assert (L2 : lowered E (conv m (conv m y))) by now apply conv_lowered. pose proof (conv_lowered_no_katakana _ L1 N1) as N2.
      destruct (hira_lowered _ L2 N2) as [->| ->]; [reflexivity|]. apply conv_thrice.
    - intro Z. destruct (mode_dec o) as [M|M]; fold m in M; [auto|]. right. intro R.
      apply reads_nyy_mixed in R as X. apply mixed_spec in X.
      assert (H2 : H (conv m y) = conv m (conv m y)).
      { unfold H, hira_pure. rewrite P, X, k_tree_mode, (k2h_no_katakana E false _ N1), lowered_same by assumption. reflexivity. }
      rewrite H2 in Z. apply idempotent_exact in Z. tauto.
    - intro Z. apply idempotent_exact in Z. destruct D as [->| ->]; [reflexivity|exact Z].
  Qed.
  (** text before which only a typographic quote stands *)
  Lemma conv_quote q r : smart_quote q -> exists d, conv m (q :: r) = d :: conv m r /\ ~ smart_quote d /\
    is_char_romaji d = false /\ is_char_english_punctuation d = false.
  Proof.
    intro Q. destruct (quote_entry m q Q) as (d & En & AZ & Lc). exists d.
    destruct (outputs_not_romaji m [q] [d] d En) as [O1 O2]; [now left|]. split; [|split; [|auto]].
    - change (q :: r) with ([q] ++ r). rewrite (conv_entry m [q] [q] [d] r En).
      + unfold emit. cbn [forallb]. now rewrite AZ.
      + eapply only_n_extended; [exact En|]. intro Z. change (u "n") with [0x6E] in Z. inversion Z; subst q.
        revert Q. unfold smart_quote. change (u "‘’“”") with [0x2018; 0x2019; 0x201C; 0x201D]. cbn [In]. lia.
      + apply casing_low. cbn. now rewrite Lc.
    - intro Z. apply quote_punct in Z. congruence.
  Qed.
  Lemma lower_quote q r : smart_quote q -> exists r', to_lowercase E (q :: r) = q :: r'.
  Proof.
    intro Q. unfold to_lowercase. cbn [to_lowercase_from].
    assert (C : caseless q = true /\ q <> SIGMA).
    { revert Q. unfold smart_quote. change (u "‘’“”") with [0x2018; 0x2019; 0x201C; 0x201D]. cbn [In].
      intro Q. repeat (destruct Q as [<-|Q]; [split; [reflexivity|discriminate]|]). destruct Q. }
    destruct C as [C1 C2]. apply N.eqb_neq in C2. rewrite C2, (ok_lower_caseless E HE q C1). cbn [app]. eauto.
  Qed.
  Theorem hira_all s :
    H (H (H s)) = H (H s) /\
    (H (H s) = H s <->
     (mixed_text s \/ all_nonempty S_romaji s \/ starts_with_punct s -> m = Ime \/ ~ reads_nyy_lowered m s) /\
     (~ mixed_text s -> (exists q r, s = q :: r /\ smart_quote q) -> forall c, In c s -> katakana_letter c -> In c (u "ヵヶ"))).
  Proof.
    assert (KQ : (forall c, In c s -> katakana_letter c -> In c (u "ヵヶ")) <-> ~ exists c, In c s /\ plain_katakana c).
    { unfold plain_katakana. split.
      - intros Z (c & I & J & Q). apply Q. now apply Z.
      - intros Z c I J. destruct (in_dec N.eq_dec c (u "ヵヶ")) as [Q|Q]; [exact Q|]. exfalso. eauto. }
    rewrite KQ, <- mixed_spec, <- romaji_text_spec, <- first_punct_spec. clear KQ.
    destruct (plain s) eqn:Pl.
    { assert (Z : H (H s) = H s) by exact (hira_plain_twice E o P s Pl). rewrite !Z. split; [reflexivity|].
      split; [|reflexivity]. intros _. unfold plain in Pl.
      apply negb_true_iff in Pl. apply orb_false_iff in Pl. destruct Pl as [P1 P2]. apply orb_false_iff in P2. destruct P2 as [P2 P3].
      rewrite P1, P2, P3. split; [intuition discriminate|]. intros _ (q & r & -> & Q).
      assert (F : first_punct (q :: r) = true) by (apply first_punct_spec; exists q, r; split; [reflexivity|]; now apply en_punct_spec, quote_punct).
      congruence. }
    assert (MR : forall y, (m <> Ime -> reads_nyy m y <-> reads_nyy_lowered m s) ->
      (m = Ime \/ ~ reads_nyy m y) <-> (m = Ime \/ ~ reads_nyy_lowered m s)).
    { intros y Y. destruct (mode_dec o) as [M|M]; fold m in M; [tauto|]. now rewrite (Y M). }
    destruct (is_mixed s) eqn:Mx.
    - set (y := to_lowercase E (k2h E false s)).
      assert (Q : H s = conv m y) by (unfold H, hira_pure; rewrite P, Mx, k_tree_mode; reflexivity).
      assert (Ny : no_katakana y).
      { destruct (katakana_dec y) as [N|N]; [exact N|]. exfalso. apply (lower_no_katakana E (k2h E false s) HE) in N. destruct N as (c & I & N).
        apply k2h_not_katakana in I. now apply plain_not in N. }
      destruct (hira_lowered_twice y) as [Z1 Z2]; [now apply to_lowercase_lowered|exact Ny|].
      rewrite Q. split; [exact Z1|]. rewrite Z2, (MR y).
      + split; [|intros [Z _]; apply Z; auto]. intro Z. split; [auto|congruence].
      + intro M. unfold y. now rewrite (nyy_lowercase E m _ HE M), (nyy_lowered_k2h E m s HE M).
    - assert (C : is_romaji s || first_punct s = true).
      { unfold plain in Pl. rewrite Mx in Pl. now apply negb_false_iff in Pl. }
      assert (C' : is_romaji s = true \/ first_punct s = true) by now apply orb_true_iff.
      set (y := to_lowercase E s).
      assert (Ly : lowered E y) by now apply to_lowercase_lowered.
      assert (Q : H s = conv m y) by (unfold H, hira_pure; rewrite P, Mx, C, k_tree_mode; reflexivity).
      destruct (katakana_dec y) as [Ky|Ky].
      + destruct (hira_lowered_twice y Ly Ky) as [Z1 Z2]. rewrite Q. split; [exact Z1|]. rewrite Z2, (MR y).
        * split; [|intros [Z _]; apply Z; auto]. intro Z. split; [auto|]. intros _ _ X.
          apply (lower_no_katakana E s HE) in X. destruct X as (c & I & X). apply plain_not in X. now apply X, Ky.
        * intro M. exact (nyy_lowercase E m s HE M).
      + (* katakana, hence no romaji, after a typographic quote *)
        pose proof (proj1 (lower_no_katakana E s HE) Ky) as Ks. destruct Ks as (k & I & J).
        assert (NR : forall c, In c s -> is_char_romaji c = false).
        { intros c Jc. apply not_true_iff_false. rewrite romaji_spec. intro R.
          apply not_true_iff_false in Mx. apply Mx, mixed_spec. split; [exists k|exists c]; split; auto.
          right. destruct J as [J _]. unfold katakana_letter in J. unfold S_katakana, between. lia. }
        destruct s as [|q r]; [destruct I|].
        assert (R : is_romaji (q :: r) = false) by (unfold is_romaji; cbn [is_empty forallb]; now rewrite (NR q) by now left).
        rewrite R in C. cbn [orb] in C. unfold first_punct in C. cbn [nth_error option_map] in C.
        assert (Sq : smart_quote q) by (apply ep_not_romaji; [exact C|apply NR; now left]).
        destruct (lower_quote q r Sq) as (r' & Er). fold y in Er.
        destruct (conv_quote q r' Sq) as (d & Ed & Sd & Rd & Pd). rewrite <- Er in Ed.
        rewrite Q. set (t := conv m y) in *. assert (Lt : lowered E t) by now apply conv_lowered.
        assert (Kt : exists c, In c t /\ plain_katakana c).
        { destruct Ky as (c & Ic & Kc). exists c. split; [|exact Kc]. apply conv_keeps; [|exact Ic].
          apply kana_letter_in_no_key. destruct Kc as [Kc _]. unfold katakana_letter in Kc. lia. }
        assert (NH : ~ exists c, In c (H t) /\ plain_katakana c).
        { intro X. apply (hira_katakana_exact E o t HE) in X. destruct X as (_ & _ & (q' & r0 & Z & Sq') & _).
          rewrite Ed in Z. injection Z as <- _. contradiction. }
        split.
        * destruct (plain t) eqn:Pt; [exact (hira_plain_twice E o P t Pt)|].
          assert (Mt : is_mixed t = true).
          { unfold plain in Pt. apply negb_false_iff, orb_prop in Pt. destruct Pt as [Pt|Pt]; [exact Pt|exfalso].
            rewrite Ed in Pt. unfold is_romaji, first_punct in Pt. cbn [is_empty forallb nth_error option_map] in Pt.
            rewrite Rd, Pd in Pt. discriminate Pt. }
          set (z := k2h E false t). assert (Lz : lowered E z) by now apply k2h_lowered.
          assert (Q2 : H t = conv m z) by (unfold H, hira_pure; now rewrite P, Mt, k_tree_mode, lowered_same by assumption).
          rewrite Q2. apply hira_lowered_twice; [exact Lz|intro c; apply k2h_not_katakana|].
          destruct (mode_dec o) as [M|M]; fold m in M; [auto|]. right. intro X.
          apply (reads_nyy_k2h E m t HE M) in X. destruct X as (p & n & seg & v & b & Z & Nn & _).
          assert (In n t) as Jn by (rewrite Z; apply in_or_app; right; now left).
          assert (Rn : is_char_romaji n = true) by exact (n_romaji _ Nn).
          apply conv_lower_In in Jn; [|exact (lowered_AZ E y HE Ly)]. destruct Jn as [Jn|(k' & v' & Jk & Jv)].
          -- destruct (lower_pieces E (q :: r)) as (ls & F & Q3). fold y in Q3.
             rewrite Q3 in Jn. apply in_concat in Jn. destruct Jn as (l & Jl & Jn).
             assert (Pc : exists c, In c (q :: r) /\ low_piece E c l).
             { clear -F Jl. induction F as [|c l' s' ls' Pc F IH]; [destruct Jl|]. destruct Jl as [->|Jl].
               - exists c. split; [now left|exact Pc].
               - destruct (IH Jl) as (x & Ix & Px). exists x. split; [now right|exact Px]. }
             destruct Pc as (c & Ic & Pc).
             destruct (piece_ascii E c l n HE Pc Jn (n_ascii n Nn)) as [(_ & _ & W)|[(_ & _ & W)|(_ & _ & W)]].
             ++ rewrite W in Nn. apply (proj1 (n_letter_low' c)) in Nn.
                assert (X : is_char_romaji c = true) by exact (n_romaji _ Nn).
                rewrite (NR c Ic) in X. discriminate X.
             ++ rewrite W in Nn. destruct Nn as [Nn|Nn]; discriminate Nn.
             ++ rewrite W in Nn. destruct Nn as [Nn|Nn]; discriminate Nn.
          -- destruct (outputs_not_romaji m k' v' n Jk Jv) as [W _]. congruence.
        * split.
          -- intro Z. exfalso. apply NH. rewrite Z. exact Kt.
          -- intros [_ Z]. exfalso. apply Z; [discriminate|exists q, r; auto|exists k; auto].
  Qed.
End TwiceAll.
