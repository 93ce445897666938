(** * Romanising token by token: C76 *)
From Verif Require Import Tac Base Std Constants Chars Strings Tokenize Convert
  RomajiPure KanaSpec KanaDict KanaProofs Predicates ScriptSpec ScriptProofs RomajiSpec RomajiProofs TokenSpec TokenizeProofs
  LibraryProofs JoinSpec Joins JoinText.

Lemma in_part {A} (c : A) ts : forall a b, concat ts = a ++ c :: b ->
  exists pre y1 y2 post, ts = pre ++ (y1 ++ c :: y2) :: post /\ a = concat pre ++ y1.
Proof.
  induction ts as [|t ts IH]; intros a b Q; cbn [concat] in Q; [destruct a; discriminate Q|].
  destruct (app_split_cases _ _ _ _ Q) as [(x & l & -> & R)|[(x & l & -> & R)|[-> R]]].
  - injection R as <- _. now exists [], a, l, ts.
  - destruct (IH (x :: l) b R) as (pre & y1 & y2 & post & -> & ->). exists (t :: pre), y1, y2, post.
    split; [reflexivity|]. cbn [concat]. now rewrite app_assoc.
  - destruct (IH [] b R) as (pre & y1 & y2 & post & -> & Z). exists (a :: pre), y1, y2, post.
    split; [reflexivity|]. cbn [concat]. now rewrite <- app_assoc, <- Z, app_nil_r.
Qed.

Lemma plain_text o a s h : hiragana_text o a s h -> (forall s1 s2 k, s = s1 ++ long_mark :: s2 -> ~ lengthens (a ++ s1) k) ->
  Forall2 hiragana_for s h.
Proof.
  intro H. induction H as [a|a c s p t P H IH]; intro D; [constructor|].
  assert (Forall2 hiragana_for s t) as T.
  { apply IH. intros s1 s2 k ->. rewrite <- app_assoc. now apply (D (c :: s1) s2). }
  destruct P as [(_ & h & A & ->)|[(-> & k & A & _)|(-> & _ & ->)]].
  - now constructor.
  - exfalso. apply (D [] s k); [reflexivity|now rewrite app_nil_r].
  - constructor; [|exact T]. apply k2hc_spec. vm_compute. reflexivity.
Qed.
Lemma plain_fun s : forall h h', Forall2 hiragana_for s h -> Forall2 hiragana_for s h' -> h = h'.
Proof.
  induction s as [|c s IH]; intros h h' H H'; inversion H; inversion H'; subst; [reflexivity|].
  f_equal; [|now apply IH]. match goal with A : hiragana_for c _, B : hiragana_for c _ |- _ => apply k2hc_spec in A, B; congruence end.
Qed.
Lemma no_long_mark_app x y : no_long_mark (x ++ y) -> no_long_mark x /\ no_long_mark y.
Proof.
  intro H. split; intros a b k ->.
  - apply (H a (b ++ y)). now rewrite <- app_assoc.
  - intro L. apply (H (x ++ a) b k); [now rewrite app_assoc|]. now apply lengthens_more.
Qed.

(** ** Types of kana *)
Definition kana_letter (c : N) : Prop := 0x3041 <= c <= 0x3096 \/ 0x30A1 <= c <= 0x30FA.
Definition from (a : N) (n : nat) : list N := map (fun i => a + N.of_nat i) (seq 0 n).
Lemma in_from a n c : a <= c < a + N.of_nat n -> In c (from a n).
Proof. intro H. apply in_map_iff. exists (N.to_nat (c - a)). split; [lia|]. apply in_seq. lia. Qed.
Definition script (c : N) : token_type := if c <=? 0x3096 then Hiragana else Katakana.
Lemma type_of_kana c : kana_letter c -> get_type c true = Ja /\ get_type c false = script c.
Proof.
  intro K.
  assert (forallb (fun c => token_type_eqb (get_type c true) Ja && token_type_eqb (get_type c false) (script c))
                  (from 0x3041 86 ++ from 0x30A1 90) = true) as T by (vm_compute; reflexivity).
  rewrite forallb_forall in T. specialize (T c).
  assert (In c (from 0x3041 86 ++ from 0x30A1 90)) as I by (apply in_or_app; destruct K; [left|right]; apply in_from; lia).
  specialize (T I). apply andb_prop in T. destruct T as [T1 T2]. split; now apply token_type_eqb_eq.
Qed.
Lemma mark_type compact : get_type long_mark compact = if compact then Other else JaPunc.
Proof. destruct compact; vm_compute; reflexivity. Qed.
(** a token with a long mark has no katakana letter *)
Lemma mark_token compact s y y1 y2 k : In y (tokenize_with_opt s compact) -> y = y1 ++ long_mark :: y2 -> ~ lengthens y1 k.
Proof.
  intros I -> (a & run & -> & K & _). destruct (tokenize_tokenisation s compact) as (_ & _ & H & _).
  specialize (H _ I k long_mark). unfold ty in H. rewrite mark_type in H.
  destruct (type_of_kana k (or_intror K)) as [T1 T2].
  assert (get_type k compact = if compact then Other else JaPunc) as Z.
  { apply H; [|apply in_or_app; right; now left]. apply in_or_app. left. apply in_or_app. right. now left. }
  destruct compact; rewrite ?T1, ?T2 in Z; [discriminate Z|]. unfold script in Z. destruct (k <=? 0x3096); discriminate Z.
Qed.

(** hiragana that fuses comes from letters *)
Lemma fused_letters rv rtv x y : fuses rv rtv x y ->
  exists x' a b y', x = x' ++ [a] /\ y = b :: y' /\ 0x3041 <= a <= 0x3094 /\ 0x3041 <= b <= 0x3094.
Proof.
  set (all := ch "っ" :: ch "ん" :: ch "ゔ" :: doublable ++ after_n ++ bases ++ smalls).
  assert (forallb (fun c => (0x3041 <=? c) && (c <=? 0x3094)) all = true) as T by (vm_compute; reflexivity).
  rewrite forallb_forall in T.
  assert (forall c, In c all -> 0x3041 <= c <= 0x3094) as H.
  { intros c I. specialize (T c I). apply andb_prop in T. destruct T as [T1 T2]. apply N.leb_le in T1. apply N.leb_le in T2. auto. }
  assert (forall c, In c doublable \/ In c after_n \/ In c bases \/ In c smalls -> In c all) as I.
  { intros c I. do 3 right. rewrite !in_app_iff. exact I. }
  assert (In (ch "っ") all /\ In (ch "ん") all /\ In (ch "ゔ") all) as (It & In' & Iv)
    by (split; [now left|]; split; [right; now left|right; right; now left]).
  intro F. destruct F as [x b y B|x b y B|x b y X B|x a b y A B|x b y V X B|x b y V B].
  - exists x, (ch "っ"), b, y. split; [reflexivity|]. split; [reflexivity|]. auto 8.
  - exists x, (ch "っ"), (ch "ん"), (b :: y). auto.
  - exists x, (ch "ん"), b, y. split; [reflexivity|]. split; [reflexivity|]. auto 8.
  - exists x, a, b, y. split; [reflexivity|]. split; [reflexivity|]. auto 8.
  - exists x, (ch "ゔ"), b, y. split; [reflexivity|]. split; [reflexivity|]. auto 8.
  - exists (x ++ [ch "っ"]), (ch "ゔ"), b, y. rewrite <- app_assoc. split; [reflexivity|]. split; [reflexivity|]. auto 8.
Qed.
Lemma letter_of_hiragana c h : hiragana_for c h -> 0x3041 <= h <= 0x3094 -> kana_letter c.
Proof.
  unfold hiragana_for, kana_letter. change (ch "ヷ") with 0x30F7. change (ch "ヸ") with 0x30F8. change (ch "ヹ") with 0x30F9. change (ch "ヺ") with 0x30FA.
  intros H R. lia.
Qed.

(** the letters at a boundary between tokens that fuse: one hiragana, one katakana *)
Lemma fused_boundary rv rtv compact s pre y post hx hy : tokenize_with_opt s compact = pre ++ y :: post ->
  Forall2 hiragana_for (concat pre) hx -> Forall2 hiragana_for y hy -> fuses rv rtv hx hy ->
  compact = false /\ exists x' a b y', concat pre = x' ++ [a] /\ y = b :: y' /\ kana_letter a /\ kana_letter b /\ script a <> script b.
Proof.
  intros Q Hx Hy F. destruct (fused_letters _ _ _ _ F) as (hx' & ha & hb & hy' & -> & -> & Ra & Rb).
  apply Forall2_app_inv_r in Hx. destruct Hx as (x' & xa & _ & Ha & Qx). inversion Ha as [|a ? ? ? A Z]; subst. inversion Z; subst.
  inversion Hy as [|b ? y' ? B Hy']; subst.
  pose proof (letter_of_hiragana _ _ A Ra) as Ka. pose proof (letter_of_hiragana _ _ B Rb) as Kb.
  destruct (tokenize_tokenisation s compact) as (_ & NE & _ & Sep).
  destruct (list_eq_dec (list_eq_dec N.eq_dec) pre []) as [->|Np]; [destruct x'; discriminate Qx|].
  destruct (exists_last Np) as (pre' & t & ->).
  assert (t <> []) as Nt by (apply NE; rewrite Q; apply in_or_app; left; apply in_or_app; right; now left).
  destruct (exists_last Nt) as (t' & a' & ->).
  rewrite concat_app in Qx. cbn [concat] in Qx. rewrite app_nil_r, app_assoc in Qx. apply app_inj_tail in Qx. destruct Qx as [Qx ->].
  assert (ty compact a <> ty compact b) as D.
  { apply (Sep pre' (t' ++ [a]) (b :: y') post) with (a' := t') (b' := y'); [|reflexivity|reflexivity].
    rewrite Q, <- app_assoc. reflexivity. }
  unfold ty in D. destruct (type_of_kana a Ka) as [A1 A2], (type_of_kana b Kb) as [B1 B2].
  destruct compact; [rewrite A1, B1 in D; congruence|]. rewrite A2, B2 in D. split; [reflexivity|].
  exists x', a, b, y'. split; [|auto]. rewrite concat_app. cbn [concat]. rewrite app_nil_r, app_assoc. now rewrite Qx.
Qed.

Lemma romaji_exists E o s : std_ok E -> exists r, to_romaji_with_opt E s o = Ok r.
Proof. intro HE. rewrite to_romaji_with_opt_eq by exact HE. eauto. Qed.
(** no token depends on what stands before it *)
Lemma tokens_depend E rv rtv s compact : std_ok E ->
  ((forall pre y post, tokenize_with_opt s compact = pre ++ y :: post -> ~ depends rv rtv (concat pre) y) <->
   no_long_mark s /\
     (compact = false -> forall pre y post hx hy, tokenize_with_opt s compact = pre ++ y :: post ->
        Forall2 hiragana_for (concat pre) hx -> Forall2 hiragana_for y hy -> ~ fuses rv rtv hx hy)).
Proof.
  intro HE. destruct (tokenize_tokenisation s compact) as (Qs & NE & _).
  split.
  - intro H. assert (no_long_mark s) as NL.
    { intros a b k Q L. rewrite <- Qs in Q. destruct (in_part _ _ _ _ Q) as (pre & y1 & y2 & post & Qt & ->).
      apply (H pre _ post Qt). left. exists y1, y2, k. split; [reflexivity|]. split; [exact L|].
      intros [k' L']. revert L'. apply (mark_token compact s (y1 ++ long_mark :: y2) y1 y2 k'); [|reflexivity].
      rewrite Qt. apply in_or_app. right. now left. }
    split; [exact NL|]. intros _ pre y post hx hy Qt Hx Hy F. apply (H pre y post Qt). right.
    exists (k2h E true (concat pre)), (k2h E true y). pose proof (k2h_text E true (concat pre) HE) as Tx. pose proof (k2h_text E true y HE) as Ty.
    split; [exact Tx|]. split; [exact Ty|].
    assert (no_long_mark (concat pre) /\ no_long_mark y) as [N1 N2].
    { rewrite <- Qs, Qt, concat_app in NL. apply no_long_mark_app in NL. destruct NL as [N1 N2]. split; [exact N1|].
      cbn [concat] in N2. now apply no_long_mark_app in N2. }
    rewrite (plain_fun _ _ hx (plain_text _ _ _ _ Tx N1) Hx), (plain_fun _ _ hy (plain_text _ _ _ _ Ty N2) Hy). exact F.
  - intros [NL H] pre y post Qt [(y1 & y2 & k & -> & L & _)|(hx & hy & Hx & Hy & F)].
    + apply (NL (concat pre ++ y1) (y2 ++ concat post) k); [|exact L].
      rewrite <- Qs, Qt, concat_app. cbn [concat]. now rewrite <- !app_assoc.
    + assert (no_long_mark (concat pre) /\ no_long_mark y) as [N1 N2].
      { rewrite <- Qs, Qt, concat_app in NL. apply no_long_mark_app in NL. destruct NL as [N1 N2]. split; [exact N1|].
        cbn [concat] in N2. now apply no_long_mark_app in N2. }
      pose proof (plain_text _ _ _ _ Hx N1) as Px. pose proof (plain_text _ _ _ _ Hy N2) as Py.
      destruct (fused_boundary rv rtv compact s pre y post hx hy Qt Px Py F) as [C _]. exact (H C pre y post hx hy Qt Px Py F).
Qed.
Theorem tokens_exact E o rv rtv s compact : std_ok E -> upcase_katakana o = false ->
  to_romaji_with_opt E (u "ゔ") o = Ok rv -> to_romaji_with_opt E (u "っゔ") o = Ok rtv ->
  exists r rs, to_romaji_with_opt E s o = Ok r /\
    Forall2 (fun t q => to_romaji_with_opt E t o = Ok q) (tokenize_with_opt s compact) rs /\
    (r = concat rs <-> no_long_mark s /\
       (compact = false -> forall pre y post hx hy, tokenize_with_opt s compact = pre ++ y :: post ->
          Forall2 hiragana_for (concat pre) hx -> Forall2 hiragana_for y hy -> ~ fuses rv rtv hx hy)).
Proof.
  intros HE Up Rv Rtv. destruct (tokenize_tokenisation s compact) as (Qs & NE & _).
  assert (Forall (fun y => y <> []) (tokenize_with_opt s compact)) as NE' by now apply Forall_forall.
  destruct (parts_exact E o rv rtv (tokenize_with_opt s compact) HE Up Rv Rtv NE') as (r & rs & R1 & R2 & X).
  exists r, rs. rewrite Qs in R1. split; [exact R1|]. split; [exact R2|]. rewrite X. clear X R1 R2 r rs. apply (tokens_depend E rv rtv s compact HE).
Qed.
Theorem tokens_apart E o s compact : std_ok E -> upcase_katakana o = false ->
  no_long_mark s -> compact = true \/ scripts_apart s ->
  exists r rs, to_romaji_with_opt E s o = Ok r /\
    Forall2 (fun t q => to_romaji_with_opt E t o = Ok q) (tokenize_with_opt s compact) rs /\ r = concat rs.
Proof.
  intros HE Up NL A. destruct (romaji_exists E o (u "ゔ") HE) as [rv Rv], (romaji_exists E o (u "っゔ") HE) as [rtv Rtv].
  destruct (tokens_exact E o rv rtv s compact HE Up Rv Rtv) as (r & rs & R1 & R2 & X).
  exists r, rs. split; [exact R1|]. split; [exact R2|]. apply X. split; [exact NL|].
  intros C pre y post hx hy Qt Hx Hy F. destruct A as [A|A]; [congruence|].
  destruct (fused_boundary rv rtv compact s pre y post hx hy Qt Hx Hy F) as (_ & x' & a & b & y' & Qx & -> & Ka & Kb & D).
  destruct (tokenize_tokenisation s compact) as (Qs & _).
  destruct (A x' a b (y' ++ concat post)) as [A1 A2].
  { rewrite <- Qs, Qt, concat_app, Qx, <- app_assoc. reflexivity. }
  unfold script in D. unfold kana_letter, hiragana_letter, katakana_letter in *.
  destruct (N.leb_spec a 0x3096), (N.leb_spec b 0x3096); try congruence; [apply A1|apply A2]; lia.
Qed.
