(** * Tokens and okurigana of a text written in katakana (proofs for C109) *)
From Verif Require Import Tac Base Std Chars Strings Tokenize Convert KanaPure KanaSpec KanaDict Predicates TokenSpec TokenizeProofs TrimProofs
  ScriptSpec ScriptProofs ScriptIdem InKatakanaSpec.

(** ** Grouping after a map *)
Lemma group_by_map {A B K} (eqb : K -> K -> bool) (key : B -> K) (f : A -> B) s :
  group_by eqb key (map f s) = map (fun kt => (fst kt, map f (snd kt))) (group_by eqb (fun c => key (f c)) s).
Proof.
  induction s as [|c s IH]; [reflexivity|]. cbn [map group_by]. rewrite IH. destruct (group_by eqb (fun c => key (f c)) s) as [|[k g] gs]; [reflexivity|].
  cbn [map fst snd]. destruct (eqb (key (f c)) k); reflexivity.
Qed.
Lemma group_by_ext {A K} (eqb : K -> K -> bool) (k1 k2 : A -> K) s : (forall c, k1 c = k2 c) -> group_by eqb k1 s = group_by eqb k2 s.
Proof. intro H. induction s as [|c s IH]; [reflexivity|]. cbn [group_by]. now rewrite IH, H. Qed.

(** ** Types *)
Lemma label_letters c : (get_type c false = Hiragana <-> hira_letter c) /\ (get_type c false = Katakana <-> kata_letter c).
Proof.
  split; split; intro H.
  - pose proof (detailed_label c) as L. rewrite H in L. exact L.
  - rewrite <- (labels_eq false (fun d => if (0x3041 <=? d) && (d <=? 0x3096) then Hiragana else get_type d false)).
    + unfold hira_letter, between in H. replace ((0x3041 <=? c) && (c <=? 0x3096)) with true by lia. reflexivity.
    + intro d. cbn beta. destruct ((0x3041 <=? d) && (d <=? 0x3096)) eqn:Q; [cbn; unfold between; lia|exact (detailed_label d)].
  - pose proof (detailed_label c) as L. rewrite H in L. exact L.
  - rewrite <- (labels_eq false (fun d => if (0x30A1 <=? d) && (d <=? 0x30FA) then Katakana else get_type d false)).
    + unfold kata_letter, between in H. replace ((0x30A1 <=? c) && (c <=? 0x30FA)) with true by lia. reflexivity.
    + intro d. cbn beta. destruct ((0x30A1 <=? d) && (d <=? 0x30FA)) eqn:Q; [cbn; unfold between; lia|exact (detailed_label d)].
Qed.
Definition joined (k : token_type) : token_type := match k with Hiragana => Katakana | k => k end.
Lemma h2k_detailed c : get_type (h2k_char c) false = joined (get_type c false).
Proof.
  destruct (h2k_char_cases c) as [Q|[H Q]].
  - rewrite Q. destruct (get_type c false) eqn:T; try reflexivity. exfalso.
    apply label_letters in T. unfold hira_letter, between in T.
    assert (K : katakana_for c (h2k_char c)) by now apply h2k_char_spec. unfold katakana_for in K. lia.
  - assert (T : get_type c false = Hiragana) by (apply label_letters; unfold hiragana_letter in H; unfold hira_letter, between; lia).
    rewrite T. cbn [joined]. apply label_letters. rewrite Q. unfold hiragana_letter in H. unfold kata_letter, between. lia.
Qed.
Lemma h2k_compact c : get_type (h2k_char c) true = get_type c true.
Proof.
  destruct (h2k_char_cases c) as [Q|[H Q]]; [now rewrite Q|]. unfold hiragana_letter in H.
  assert (A : get_type c false = Hiragana) by (apply label_letters; unfold hira_letter, between; lia).
  assert (B : get_type (h2k_char c) false = Katakana) by (rewrite h2k_detailed, A; reflexivity).
  rewrite (compact_of_detailed c), (compact_of_detailed (h2k_char c)), A, B by (rewrite ?Q; lia). reflexivity.
Qed.

(** ** Tokens *)
Lemma h2k_tokens_compact s : tokenize_detailed (h2k s) true = map (fun kt => (fst kt, h2k (snd kt))) (tokenize_detailed s true).
Proof. unfold tokenize_detailed, h2k. rewrite group_by_map. now rewrite (group_by_ext _ _ _ s h2k_compact). Qed.
Definition jty (c : N) : token_type := joined (ty false c).
Definition jtokens (s : str) : list str := map snd (group_by token_type_eqb jty s).
Lemma jtokens_tokenisation s : tokenisation jty (jtokens s) s.
Proof. apply (group_tokenisation token_type_eqb _ token_type_eqb_eq). Qed.
Lemma h2k_tokens s : tokenize (h2k s) = map h2k (jtokens s).
Proof.
  unfold tokenize, tokenize_with_opt, jtokens, h2k. rewrite group_by_map, !map_map. cbn [snd].
  rewrite (group_by_ext _ _ jty s); [reflexivity|]. intro c. apply h2k_detailed.
Qed.
Lemma joined_eq x y : jty x = jty y -> ty false x = ty false y
  \/ (ty false x = Hiragana /\ ty false y = Katakana) \/ (ty false x = Katakana /\ ty false y = Hiragana).
Proof. unfold jty. destruct (ty false x), (ty false y); cbn; intro; try discriminate; auto. Qed.
Lemma locate (ts : list str) : (forall t, In t ts -> t <> []) -> forall a p q b, ts = a ++ p :: q :: b ->
  exists p' x y q', p = p' ++ [x] /\ q = y :: q' /\ concat ts = (concat a ++ p') ++ x :: y :: q' ++ concat b.
Proof.
  intros H a p q b ->. destruct q as [|y q'].
  { exfalso. apply (H []); [|reflexivity]. apply in_or_app. right. right. now left. }
  destruct (@exists_last _ p) as (p' & x & ->). { apply H. apply in_or_app. right. now left. }
  exists p', x, y, q'. rewrite concat_app. cbn [concat]. repeat rewrite <- app_assoc. cbn. auto.
Qed.
Lemma map_h2k_inj (ts us : list str) : concat ts = concat us -> map h2k ts = map h2k us -> ts = us.
Proof.
  revert us. induction ts as [|t ts IH]; intros [|w us] C M; try discriminate; [reflexivity|]. cbn in C, M. injection M as M1 M2.
  assert (L : length t = length w) by (apply (f_equal (@length _)) in M1; unfold h2k in M1; now rewrite !map_length in M1).
  assert (Q : t = w /\ concat ts = concat us).
  { revert C L. clear. revert w. induction t as [|c t IH]; intros [|d w] C L; try discriminate; [auto|]. cbn in C. injection C as -> C.
    destruct (IH w C) as [-> Q]; [cbn in L; lia|]. auto. }
  destruct Q as [-> Q]. f_equal. now apply IH.
Qed.
Lemma h2k_tokens_same s : tokenize (h2k s) = map h2k (tokenize s) <-> scripts_apart s.
Proof.
  pose proof (jtokens_tokenisation s) as J. pose proof (tokenize_tokenisation s false) as T. fold (tokenize s) in T.
  rewrite h2k_tokens. split.
  - intros M. apply map_h2k_inj in M; [|now rewrite (proj1 J), (proj1 T)].
    assert (Z : forall a x y b, s = a ++ x :: y :: b -> jty x = jty y -> ty false x = ty false y).
    { intros a x y b -> Q. rewrite M in J. destruct (neighbours_together jty x y Q _ _ _ J) as (t & I & X & Y).
      destruct T as (_ & _ & T & _). exact (T t I x y X Y). }
    intros a x y b ->. split; intros [X Y].
    + apply label_letters in X, Y. specialize (Z a x y b eq_refl). unfold jty, ty in Z. rewrite X, Y in Z. discriminate (Z eq_refl).
    + apply label_letters in X, Y. specialize (Z a x y b eq_refl). unfold jty, ty in Z. rewrite X, Y in Z. discriminate (Z eq_refl).
  - intros H. f_equal. apply (tokenisation_unique token_type_eqb jty token_type_eqb_eq).
    destruct T as (T1 & T2 & T3 & T4). split; [exact T1|]. split; [exact T2|]. split.
    + intros t I x y X Y. unfold jty. now rewrite (T3 t I x y X Y).
    + intros a p q b Q p' x y q' -> -> E. specialize (T4 a _ _ b Q p' x y q' eq_refl eq_refl).
      apply joined_eq in E. destruct E as [E|E]; [contradiction|].
      destruct (locate _ T2 _ _ _ _ Q) as (p2 & x2 & y2 & q2 & Q1 & Q2 & Q3). apply app_inj_tail in Q1 as [<- <-]. injection Q2 as <- <-.
      rewrite T1 in Q3. destruct (H _ _ _ _ Q3) as [H1 H2].
      destruct E as [[X Y]|[X Y]]; apply label_letters in X, Y; tauto.
Qed.

(** ** The outermost token is the longest homogeneous part there *)
Lemma longest_end {A K} (f : A -> K) ts tok s b a : tokenisation f (ts ++ [tok]) s -> s = a ++ b -> homogeneous f b -> exists l, tok = l ++ b.
Proof.
  intros (T1 & T2 & _ & T4) -> H. rewrite concat_app in T1. cbn in T1. rewrite app_nil_r in T1.
  assert (C : (exists l, tok = l ++ b) \/ exists l x, b = l ++ x :: tok /\ concat ts = a ++ l ++ [x]).
  { revert T1. clear. generalize (concat ts) as w. revert a. induction a as [|c a IH]; intros w Q.
    - cbn in Q. destruct w as [|d w]; [left; exists []; exact Q|]. right. destruct (@exists_last _ (d :: w)) as (l & x & E); [discriminate|].
      rewrite E in *. exists l, x. split; [|reflexivity]. rewrite <- Q, <- app_assoc. reflexivity.
    - destruct w as [|d w]; cbn in Q.
      + left. exists (c :: a). exact Q.
      + injection Q as -> Q. destruct (IH _ Q) as [L|(l & x & L1 & L2)]; [now left|]. right. exists l, x. split; [exact L1|]. now rewrite L2. }
  destruct C as [C|(l & x & -> & C)]; [exact C|]. exfalso.
  destruct ts as [|t0 ts0] using rev_ind; [destruct a, l; discriminate C|]. clear IHts0.
  destruct (@exists_last _ t0) as (t' & x' & ->). { apply T2. rewrite <- app_assoc. apply in_or_app. right. now left. }
  rewrite concat_app in C. cbn in C. rewrite app_nil_r, !app_assoc in C. apply app_inj_tail in C as [_ ->].
  destruct tok as [|y tok]. { apply (T2 []); [apply in_or_app; right; now left|reflexivity]. }
  rewrite <- app_assoc in T4. apply (T4 ts0 (t' ++ [x]) (y :: tok) [] eq_refl t' x y tok eq_refl eq_refl).
  apply H; apply in_or_app; right; [now left|right; now left].
Qed.
Lemma longest_start {A K} (f : A -> K) ts tok s b a : tokenisation f (tok :: ts) s -> s = b ++ a -> homogeneous f b -> exists l, tok = b ++ l.
Proof.
  intros (T1 & T2 & _ & T4) -> H. cbn in T1.
  assert (C : (exists l, tok = b ++ l) \/ exists y l, b = tok ++ y :: l /\ concat ts = y :: l ++ a).
  { revert T1. clear. generalize (concat ts) as w. revert b. induction tok as [|c tok IH]; intros b w Q.
    - cbn in Q. destruct b as [|y b]; [left; exists []; reflexivity|]. right. exists y, b. cbn in Q. auto.
    - destruct b as [|d b]; [left; exists (c :: tok); reflexivity|]. cbn in Q. injection Q as -> Q.
      destruct (IH b w Q) as [(l & ->)|(y & l & -> & L)]; [left; exists l; reflexivity|]. right. exists y, l. auto. }
  destruct C as [C|(y & l & -> & C)]; [exact C|]. exfalso.
  destruct (@exists_last _ tok) as (t' & x & ->). { apply T2. now left. }
  destruct ts as [|[|z t1] ts]; [discriminate C|apply (T2 []); [right; now left|reflexivity]|]. cbn in C. injection C as -> C.
  apply (T4 [] (t' ++ [x]) (y :: t1) ts eq_refl t' x y t1 eq_refl eq_refl).
  apply H; apply in_or_app; [left; apply in_or_app; right; now left|right; now left].
Qed.
Lemma letters_homogeneous b : Forall (fun c => hira_letter c \/ kata_letter c) b -> homogeneous jty b.
Proof.
  rewrite Forall_forall. intros H x y X Y. assert (Z : forall c, In c b -> jty c = Katakana); [|now rewrite !Z].
  intros c I. unfold jty, ty. destruct (H c I) as [L|L]; apply label_letters in L; now rewrite L.
Qed.
Lemma one_script b : homogeneous (ty false) b -> Forall (fun c => hira_letter c \/ kata_letter c) b -> Forall hira_letter b \/ Forall kata_letter b.
Proof.
  intros H F. destruct b as [|c b]; [left; constructor|]. assert (C := Forall_inv F). destruct C as [C|C]; [left|right]; apply Forall_forall; intros d I;
    apply label_letters; apply label_letters in C; rewrite <- C; apply H; auto; now left.
Qed.
Lemma joined_homogeneous b : homogeneous jty b -> (Forall (fun c => hira_letter c \/ kata_letter c) b -> Forall hira_letter b \/ Forall kata_letter b) ->
  homogeneous (ty false) b.
Proof.
  intros H F x y X Y. destruct (joined_eq x y (H x y X Y)) as [E|E]; [exact E|]. exfalso.
  assert (L : Forall (fun c => hira_letter c \/ kata_letter c) b).
  { apply Forall_forall. intros c I. pose proof (H x c X I) as Q. unfold jty in Q.
    assert (Z : joined (ty false c) = Katakana) by (destruct E as [[E _]|[E _]]; rewrite E in Q; exact (eq_sym Q)).
    destruct (ty false c) eqn:T; try discriminate Z; unfold ty in T; apply label_letters in T; auto. }
  destruct (F L) as [G|G]; rewrite Forall_forall in G; pose proof (G x X) as G1; pose proof (G y Y) as G2; apply label_letters in G1, G2;
    unfold ty in E; destruct E as [[E1 E2]|[E1 E2]]; congruence.
Qed.
Lemma ty_joined b : homogeneous (ty false) b -> homogeneous jty b.
Proof. intros H x y X Y. unfold jty. now rewrite (H x y X Y). Qed.
Lemma app_same_len {A} (a b c d : list A) : a ++ b = c ++ d -> length b = length d -> a = c /\ b = d.
Proof.
  revert c. induction a as [|x a IH]; intros [|y c] Q L; cbn in Q.
  - auto.
  - exfalso. apply (f_equal (@length _)) in Q. cbn in Q. rewrite app_length in Q. lia.
  - exfalso. apply (f_equal (@length _)) in Q. cbn in Q. rewrite app_length in Q. lia.
  - injection Q as -> Q. destruct (IH c Q L) as [-> ->]. auto.
Qed.
Lemma outer_end s ts tok js jok : tokenisation (ty false) (ts ++ [tok]) s -> tokenisation jty (js ++ [jok]) s ->
  (concat js = concat ts <-> one_script_outside false s).
Proof.
  intros T J. pose proof (proj1 T) as QT. pose proof (proj1 J) as QJ. rewrite concat_app in QT, QJ. cbn in QT, QJ. rewrite app_nil_r in QT, QJ.
  assert (HT : homogeneous (ty false) tok) by (apply T; apply in_or_app; right; now left).
  assert (HJ : homogeneous jty jok) by (apply J; apply in_or_app; right; now left).
  split.
  - intros C a b Q F. assert (E : jok = tok) by (rewrite C, <- QT in QJ; now apply app_inv_head in QJ).
    destruct (longest_end jty js jok s b a J Q (letters_homogeneous b F)) as (l & L). subst jok. apply one_script; [|exact F].
    intros x y X Y. apply HT; rewrite L; apply in_or_app; now right.
  - intros O. destruct (longest_end jty js jok s tok (concat ts) J (eq_sym QT) (ty_joined _ HT)) as (l & L).
    destruct (longest_end (ty false) ts tok s jok (concat js) T (eq_sym QJ)) as (l2 & L2).
    { apply joined_homogeneous; [exact HJ|]. exact (O (concat js) jok (eq_sym QJ)). }
    rewrite <- QT in QJ. apply (app_same_len _ _ _ _ QJ). apply (f_equal (@length _)) in L, L2. rewrite app_length in L, L2. lia.
Qed.
Lemma app_same_len' {A} (a b c d : list A) : a ++ b = c ++ d -> length a = length c -> a = c /\ b = d.
Proof. intros Q L. apply app_same_len; [exact Q|]. apply (f_equal (@length _)) in Q. rewrite !app_length in Q. lia. Qed.
Lemma outer_start s ts tok js jok : tokenisation (ty false) (tok :: ts) s -> tokenisation jty (jok :: js) s ->
  (concat js = concat ts <-> one_script_outside true s).
Proof.
  intros T J. pose proof (proj1 T) as QT. pose proof (proj1 J) as QJ. cbn in QT, QJ.
  assert (HT : homogeneous (ty false) tok) by (apply T; now left).
  assert (HJ : homogeneous jty jok) by (apply J; now left).
  split.
  - intros C a b Q F. assert (E : jok = tok) by (rewrite C, <- QT in QJ; now apply app_inv_tail in QJ).
    destruct (longest_start jty js jok s b a J Q (letters_homogeneous b F)) as (l & L). subst jok. apply one_script; [|exact F].
    intros x y X Y. apply HT; rewrite L; apply in_or_app; now left.
  - intros O. destruct (longest_start jty js jok s tok (concat ts) J (eq_sym QT) (ty_joined _ HT)) as (l & L).
    destruct (longest_start (ty false) ts tok s jok (concat js) T (eq_sym QJ)) as (l2 & L2).
    { apply joined_homogeneous; [exact HJ|]. exact (O (concat js) jok (eq_sym QJ)). }
    rewrite <- QT in QJ. apply (app_same_len' _ _ _ _ QJ). apply (f_equal (@length _)) in L, L2. rewrite app_length in L, L2. lia.
Qed.

(** ** Trimming *)
Lemma h2k_japanese c : S_japanese (h2k_char c) <-> S_japanese c.
Proof.
  destruct (h2k_char_cases c) as [->|[H Q]]; [tauto|]. unfold hiragana_letter in H.
  assert (A : is_char_japanese c = true) by (apply kana_japanese; left; apply hiragana_spec; unfold S_hiragana, between; lia).
  assert (B : is_char_japanese (h2k_char c) = true) by (apply kana_japanese; right; apply katakana_spec; rewrite Q; unfold S_katakana, between; lia).
  apply japanese_spec in A, B. tauto.
Qed.
Lemma h2k_active s b : trim_active (h2k s) b None <-> trim_active s b None.
Proof.
  assert (K : forall c, S_kana (h2k_char c) <-> S_kana c) by exact h2k_char_kana.
  unfold trim_active, all_nonempty, h2k. split; intros ((N & A) & O & (c & I & C)).
  - split; [split; [intro Z; apply N; now rewrite Z|intros d D; apply h2k_japanese, A, in_map, D]|]. split.
    + destruct b.
      * destruct O as (r & d & Q & D). destruct s as [|e s]; [discriminate Q|]. injection Q as <- _. exists s, e. split; [reflexivity|]. now apply K.
      * destruct O as (r & d & Q & D). apply map_eq_app in Q as (s1 & s2 & -> & _ & Q). destruct s2 as [|e [|]]; try discriminate Q.
        injection Q as <-. exists s1, e. split; [reflexivity|]. now apply K.
    + apply in_map_iff in I as (d & <- & I). exists d. split; [exact I|]. now rewrite <- K.
  - split; [split; [intro Z; apply N; now apply map_eq_nil in Z|intros d D; apply in_map_iff in D as (e & <- & D); apply h2k_japanese, A, D]|]. split.
    + destruct b.
      * destruct O as (r & d & -> & D). exists (map h2k_char r), (h2k_char d). split; [reflexivity|]. now apply K.
      * destruct O as (r & d & -> & D). exists (map h2k_char r), (h2k_char d). split; [apply map_app|]. now apply K.
    + exists (h2k_char c). split; [now apply in_map|]. now rewrite K.
Qed.
Lemma h2k_concat ts : concat (map h2k ts) = h2k (concat ts).
Proof. induction ts as [|t ts IH]; [reflexivity|]. cbn. rewrite IH. unfold h2k. now rewrite map_app. Qed.
Lemma h2k_length s : length (h2k s) = length s.
Proof. apply map_length. Qed.
Lemma trim_h2k s b r : trim_okurigana_with_opt s b None = Ok r ->
  (trim_okurigana_with_opt (h2k s) b None = Ok (h2k r) <-> r = s \/ one_script_outside b s).
Proof.
  intros R. destruct (trim_characterised s b None) as (r0 & R0 & [[N E]|[A _]]); rewrite R in R0; injection R0 as <-.
  { subst r. rewrite (trim_inactive (h2k s) b None) by (now rewrite h2k_active). tauto. }
  assert (A' : trim_active (h2k s) b None) by now apply h2k_active.
  pose proof (tokenize_tokenisation s false) as T. fold (tokenize s) in T. pose proof (jtokens_tokenisation s) as J.
  destruct b.
  - destruct (trim_no_matcher_start s A) as (ts & tok & E1 & E2). destruct (trim_no_matcher_start (h2k s) A') as (us & wok & F1 & F2).
    rewrite R in E2. injection E2 as ->. rewrite F2. rewrite h2k_tokens in F1. destruct (jtokens s) as [|jok js] eqn:E3; [discriminate F1|].
    cbn in F1. injection F1 as <- <-. rewrite E1 in T. rewrite h2k_concat.
    pose proof (outer_start s ts tok js jok T J) as X. rewrite <- X.
    assert (NS : concat ts <> s). { intro Z. pose proof (proj1 T) as Q. cbn in Q. rewrite Z in Q. apply (f_equal (@length _)) in Q. rewrite app_length in Q.
      destruct tok; [destruct T as (_ & T2 & _); exact (T2 [] (or_introl eq_refl) eq_refl)|cbn in Q; lia]. }
    assert (QT := proj1 T). assert (QJ := proj1 J). cbn in QT, QJ.
    split.
    + intros [= Y]. right. apply (f_equal (@length _)) in Y. rewrite !h2k_length in Y. rewrite <- QT in QJ. now apply app_same_len in QJ.
    + intros [Y|Y]; [contradiction|now rewrite Y].
  - destruct (trim_no_matcher_end s A) as (ts & tok & E1 & E2). destruct (trim_no_matcher_end (h2k s) A') as (us & wok & F1 & F2).
    unfold trim_okurigana in E2, F2. rewrite R in E2. injection E2 as ->. rewrite F2. rewrite h2k_tokens in F1.
    apply map_eq_app in F1 as (js & jl & E3 & <- & F1). destruct jl as [|jok [|]]; try discriminate F1. injection F1 as <-. rewrite E3 in J. rewrite E1 in T. rewrite h2k_concat.
    pose proof (outer_end s ts tok js jok T J) as X. rewrite <- X.
    assert (QT := proj1 T). assert (QJ := proj1 J). rewrite concat_app in QT, QJ. cbn in QT, QJ. rewrite app_nil_r in QT, QJ.
    assert (NS : concat ts <> s). { intro Z. rewrite Z in QT. apply (f_equal (@length _)) in QT. rewrite app_length in QT.
      destruct tok; [destruct T as (_ & T2 & _); apply (T2 []); [apply in_or_app; right; now left|reflexivity]|cbn in QT; lia]. }
    split.
    + intros [= Y]. right. apply (f_equal (@length _)) in Y. rewrite !h2k_length in Y. rewrite <- QT in QJ. now apply app_same_len' in QJ.
    + intros [Y|Y]; [contradiction|now rewrite Y].
Qed.

(** ** With a matcher *)
Definition no_kata (s : str) : Prop := forall c, In c s -> ~ kata_letter c.
Lemma no_kata_apart s : no_kata s -> scripts_apart s.
Proof. intros H a x y b ->. split; intros [X Y]; [apply (H y)|apply (H x)]; auto; apply in_or_app; right; [right; now left|now left]. Qed.
Lemma h2k_inj a : forall b, no_kata a -> no_kata b -> h2k a = h2k b -> a = b.
Proof.
  induction a as [|c a IH]; intros [|d b] A B Q; try discriminate; [reflexivity|]. cbn in Q. injection Q as Q1 Q2. f_equal.
  - pose proof (A c (or_introl eq_refl)) as C. pose proof (B d (or_introl eq_refl)) as D. unfold kata_letter, between in *.
    destruct (h2k_char_cases c) as [Q|[H Q]], (h2k_char_cases d) as [Q'|[H' Q']]; unfold hiragana_letter in *; lia.
  - apply IH; [intros x X; apply A; now right|intros x X; apply B; now right|exact Q2].
Qed.
Lemma h2k_copies n t : h2k (copies n t) = copies n (h2k t).
Proof. unfold copies. induction n as [|n IH]; [reflexivity|]. cbn. unfold h2k in *. now rewrite map_app, IH. Qed.
Lemma h2k_app a b : h2k (a ++ b) = h2k a ++ h2k b.
Proof. apply map_app. Qed.
Lemma h2k_trimmed b tok s r : no_kata tok -> no_kata s -> trimmed b tok s r -> trimmed b (h2k tok) (h2k s) (h2k r).
Proof.
  intros K S. destruct b; intros [(n & ->) N]; (split; [exists n; now rewrite h2k_app, h2k_copies|]); intros (w & Q); apply N; unfold h2k in Q at 1;
    apply map_eq_app in Q as (r1 & r2 & -> & Q1 & Q2).
  - exists r2. f_equal. apply h2k_inj; [|exact K|exact Q1]. intros x X. apply S. apply in_or_app. right. apply in_or_app. now left.
  - exists r1. f_equal. apply h2k_inj; [|exact K|exact Q2]. intros x X. apply S. apply in_or_app. left. apply in_or_app. now right.
Qed.
Lemma h2k_kanji c : S_kanji (h2k_char c) <-> S_kanji c.
Proof.
  destruct (h2k_char_cases c) as [->|[H Q]]; [tauto|]. unfold hiragana_letter in H. rewrite Q.
  assert (Z : forall d, 0x3041 <= d <= 0x30FA -> ~ S_kanji d).
  { intros d D K. apply kanji_spec in K. revert K. unfold is_char_kanji, is_char_in_range, KANJI_START, KANJI_END. lia. }
  split; intro K; exfalso; eapply Z; try exact K; lia.
Qed.
Lemma h2k_active_matcher s b m : trim_active (h2k s) b (Some (h2k m)) <-> trim_active s b (Some m).
Proof.
  assert (K : forall c, S_kana (h2k_char c) <-> S_kana c) by exact h2k_char_kana.
  unfold trim_active, all_nonempty, h2k. split; intros ((N & A) & O & (c & I & C)).
  - split; [split; [intro Z; apply N; now rewrite Z|intros d D; apply h2k_japanese, A, in_map, D]|]. split.
    + destruct b.
      * destruct O as (r & d & Q & D). destruct s as [|e s]; [discriminate Q|]. injection Q as <- _. exists s, e. split; [reflexivity|]. now apply K.
      * destruct O as (r & d & Q & D). apply map_eq_app in Q as (s1 & s2 & -> & _ & Q). destruct s2 as [|e [|]]; try discriminate Q.
        injection Q as <-. exists s1, e. split; [reflexivity|]. now apply K.
    + apply in_map_iff in I as (d & <- & I). exists d. split; [exact I|]. now rewrite <- h2k_kanji.
  - split; [split; [intro Z; apply N; now apply map_eq_nil in Z|intros d D; apply in_map_iff in D as (e & <- & D); apply h2k_japanese, A, D]|]. split.
    + destruct b.
      * destruct O as (r & d & -> & D). exists (map h2k_char r), (h2k_char d). split; [reflexivity|]. now apply K.
      * destruct O as (r & d & -> & D). exists (map h2k_char r), (h2k_char d). split; [apply map_app|]. now apply K.
    + exists (h2k_char c). split; [now apply in_map|]. now rewrite h2k_kanji.
Qed.
Lemma trim_h2k_matcher s m b r : no_kata s -> no_kata m -> trim_okurigana_with_opt s b (Some m) = Ok r ->
  trim_okurigana_with_opt (h2k s) b (Some (h2k m)) = Ok (h2k r).
Proof.
  intros S M R. destruct (trim_characterised s b (Some m)) as (r0 & R0 & D). rewrite R in R0. injection R0 as <-.
  destruct D as [[N ->]|(A & tok & (ts & O) & Z)]; [apply trim_inactive; now rewrite h2k_active_matcher|].
  destruct (trim_characterised (h2k s) b (Some (h2k m))) as (r1 & R1 & [[N _]|(_ & tok1 & (us & P) & Z1)]); [exfalso; apply N; now apply h2k_active_matcher|].
  rewrite R1. f_equal. cbn [source] in O, P. pose proof (proj2 (h2k_tokens_same m) (no_kata_apart m M)) as E.
  pose proof (tokenize_unique _ _ _ O) as EO. pose proof (tokenize_unique _ _ _ P) as EP. unfold tokenize in E. rewrite <- EO, <- EP in E.
  assert (T : tok1 = h2k tok).
  { destruct b; [cbn in E; congruence|]. rewrite map_app in E. apply app_inj_tail in E. tauto. }
  subst tok1.
  assert (I : In tok (if b then tok :: ts else ts ++ [tok])) by (destruct b; [now left|apply in_or_app; right; now left]).
  assert (K : no_kata tok).
  { intros x X. apply M. destruct O as (O & _). rewrite <- O. apply in_concat. eauto. }
  assert (NE : h2k tok <> []). { destruct O as (_ & O & _). specialize (O tok I). destruct tok; [congruence|discriminate]. }
  pose proof (h2k_trimmed b tok s r K S Z) as Z2. destruct b; [eapply trimmed_start_unique|eapply trimmed_end_unique]; eassumption.
Qed.
