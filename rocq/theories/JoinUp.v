(** * Romanising in parts with [upcase_katakana]: C75, C76 *)
From Coq Require Import Bool.
From Verif Require Import Tac Base Std StdInstances Constants Chars Trees KanaTree RomajiTree Strings Tokenize Convert
  KanaPure RomajiPure KanaSpec KanaDict KanaProofs Predicates ScriptSpec ScriptProofs ScriptIdem RomajiSpec RomajiProofs MoraProofs Splits TokenSpec TokenizeProofs
  LibraryProofs ChoiceSpec ChoiceProofs JoinSpec Joins JoinText TokenJoin JoinUpSpec Round RoundUp.

Local Opaque rdict.
(** ** Lower case *)
Lemma lower_high c d : 0x80 <= d -> ascii_lower c = d -> c = d.
Proof. intros H Q. destruct (lower_inv c d Q) as [->|[_ B]]; [reflexivity|lia]. Qed.
Lemma lengthens_low a k : lengthens (low a) k <-> lengthens a k.
Proof.
  assert (forall c, In c (u "ー・ヵヶ") -> 0x80 <= c) as H.
  { intros c I. assert (forallb (fun c => 0x80 <=? c) (u "ー・ヵヶ") = true) as F by (vm_compute; reflexivity). rewrite forallb_forall in F. apply N.leb_le, F, I. }
  split.
  - intros (a' & run & Q & K & N & F). destruct (low_split _ _ _ Q) as (p & r & -> & <- & Q'). destruct r as [|c r]; [discriminate Q'|].
    cbn [low map] in Q'. injection Q' as Qc Qr. fold (low r) in Qr. apply lower_high in Qc; [|unfold katakana_letter in K; lia]. subst c.
    exists p, r. split; [reflexivity|]. split; [exact K|]. split; [exact N|]. clear - F Qr H. revert r Qr. induction F as [|c run I F IH]; intros [|d r] Q; try discriminate Q; constructor.
    + cbn [low map] in Q. injection Q as Q _. apply lower_high in Q; [now subst|now apply H].
    + apply IH. cbn [low map] in Q. now injection Q.
  - intros (a' & run & -> & K & N & F). exists (low a'), (low run). rewrite low_app. cbn [low map]. rewrite lower_small by (unfold katakana_letter in K; lia).
    split; [reflexivity|]. split; [exact K|]. split; [exact N|]. clear - F H. induction F as [|c run I F IH]; cbn [low map]; constructor; [|exact IH].
    now rewrite lower_small by now apply H.
Qed.
Lemma hiragana_low c h : hiragana_for c h -> hiragana_for (ascii_lower c) (ascii_lower h).
Proof.
  intro A. destruct (lower_inv c _ eq_refl) as [Q|[B _]].
  - assert (ascii_lower h = h) as ->; [|now rewrite <- Q]. unfold hiragana_for in A. unfold ascii_lower, is_AZ in *.
    change (ch "わ") with 0x308F in A. change (ch "ゐ") with 0x3090 in A. change (ch "ゑ") with 0x3091 in A. change (ch "を") with 0x3092 in A.
    change (ch "ヷ") with 0x30F7 in A. change (ch "ヸ") with 0x30F8 in A. change (ch "ヹ") with 0x30F9 in A. change (ch "ヺ") with 0x30FA in A.
    revert Q. ifs; lia.
  - unfold is_AZ in B. assert (h = c) as ->.
    { unfold hiragana_for in A. change (ch "ヷ") with 0x30F7 in A. change (ch "ヸ") with 0x30F8 in A. change (ch "ヹ") with 0x30F9 in A. change (ch "ヺ") with 0x30FA in A. lia. }
    unfold hiragana_for. right. right. right. right. right. unfold ascii_lower. ifs; lia.
Qed.
Lemma vowel_low k p : mark_vowel (u "お") k p -> low p = p.
Proof.
  intros (row & I & _). assert (forallb (fun r => str_eqb (low (snd r)) (snd r)) (mark_table (u "お")) = true) as T by (vm_compute; reflexivity).
  rewrite forallb_forall in T. specialize (T _ I). now apply str_eqb_eq in T.
Qed.
Lemma vowel_short k p : mark_vowel (u "お") k p -> (length p <= 1)%nat.
Proof.
  intros (row & I & _). assert (forallb (fun r => Nat.leb (length (snd r)) 1) (mark_table (u "お")) = true) as T by (vm_compute; reflexivity).
  rewrite forallb_forall in T. specialize (T _ I). now apply Nat.leb_le in T.
Qed.
Lemma piece_low a c p : hiragana_piece (u "お") a c p -> hiragana_piece (u "お") (low a) (ascii_lower c) (low p).
Proof.
  intros [(N & h & A & ->)|[(-> & k & A & B)|(-> & A & ->)]].
  - left. split; [intro Q; apply lower_high in Q; [contradiction|vm_compute; discriminate]|]. exists (ascii_lower h). split; [now apply hiragana_low|reflexivity].
  - right. left. split; [reflexivity|]. exists k. split; [now apply lengthens_low|]. now rewrite (vowel_low k p B).
  - right. right. split; [reflexivity|]. split; [|reflexivity]. intros [k K]. apply A. exists k. now apply lengthens_low.
Qed.
Lemma text_low a s h : hiragana_text (u "お") a s h -> hiragana_text (u "お") (low a) (low s) (low h).
Proof.
  induction 1 as [a|a c s p t P H IH]; [constructor|]. rewrite low_app. rewrite low_app in IH. cbn [low map]. constructor; [now apply piece_low|exact IH].
Qed.
Lemma chosen_low r a s h : (r < 5)%nat -> chosen_text r (u "お") a s h -> chosen_text r (u "お") (low a) (low s) (low h).
Proof.
  intros B. induction 1 as [a|a c s p t P PV H IH]; [constructor|]. rewrite low_app. rewrite low_app in IH. cbn [low map]. constructor; [now apply piece_low| |exact IH].
  intros Q K. apply lower_high in Q; [|vm_compute; discriminate]. apply (lengthens_low a) in K. rewrite (PV Q K). clear - B.
  do 5 (destruct r as [|r]; [vm_compute; reflexivity|]). lia.
Qed.
Lemma fuses_low rv rtv x y : fuses rv rtv x y -> fuses rv rtv (low x) (low y).
Proof.
  set (all := doublable ++ after_n ++ bases ++ smalls).
  assert (forallb (fun c => 0x80 <=? c) all = true) as T by (vm_compute; reflexivity). rewrite forallb_forall in T.
  assert (forall c, In c doublable \/ In c after_n \/ In c bases \/ In c smalls -> ascii_lower c = c) as H.
  { intros c I. apply lower_small, N.leb_le, T. unfold all. rewrite !in_app_iff. exact I. }
  assert (forall x, (forall x', x <> x' ++ [ch "っ"]) -> forall x', low x <> x' ++ [ch "っ"]) as X'.
  { intros z X z' Q. destruct (low_split _ _ _ Q) as (p & r & -> & _ & Q'). destruct r as [|c [|d r]]; try discriminate Q'. cbn [low map] in Q'. injection Q' as Q'.
    apply lower_high in Q'; [|vm_compute; discriminate]. subst c. exact (X p eq_refl). }
  intros [x' b y' B|x' b y' B|x' b y' X B|x' a b y' A B|x' b y' V X B|x' b y' V B]; rewrite low_app; cbn [low map].
  - rewrite (H b) by auto. now apply fuses_tsu.
  - rewrite (H b) by auto. now apply fuses_tsu_n.
  - rewrite (H b) by auto. apply fuses_n; [now apply X'|exact B].
  - rewrite (H a), (H b) by auto. now apply fuses_small.
  - rewrite (H b) by auto. apply fuses_v; [exact V|now apply X'|exact B].
  - rewrite (H b) by auto. now apply fuses_tsu_v.
Qed.
Lemma depends_low rv rtv x y : depends rv rtv x y -> depends rv rtv (low x) (low y).
Proof.
  intros [(y1 & y2 & k & -> & K & K')|(hx & hy & Hx & Hy & F)].
  - left. exists (low y1), (low y2), k. split; [rewrite low_app; reflexivity|]. rewrite <- low_app. split; [now apply lengthens_low|].
    intros [k' J]. apply K'. exists k'. now apply lengthens_low.
  - right. exists (low hx), (low hy). split; [exact (text_low [] x hx Hx)|]. split; [exact (text_low [] y hy Hy)|]. now apply fuses_low.
Qed.
Lemma low_concat ts : low (concat ts) = concat (map low ts).
Proof. induction ts as [|t ts IH]; [reflexivity|]. cbn [concat map]. now rewrite low_app, IH. Qed.
Lemma k2h_low E s : std_ok E -> k2h E true (low s) = low (k2h E true s).
Proof.
  intro HE. destruct (library_exists E HE) as (r & r' & L & _ & _ & HK).
  exact (chosen_det r _ _ _ _ _ (HK (low s)) (chosen_low r [] s _ (lib_r _ _ _ L) (HK s))).
Qed.

(** ** Text and its hiragana, character by character *)
Lemma piece_short a c p : hiragana_piece (u "お") a c p -> (length p <= 1)%nat.
Proof. intros [(_ & h & _ & ->)|[(_ & k & _ & B)|(_ & _ & ->)]]; [cbn; lia|now apply vowel_short in B|cbn; lia]. Qed.
Lemma text_length a s h : hiragana_text (u "お") a s h -> (length h <= length s)%nat.
Proof. induction 1 as [a|a c s p t P H IH]; [cbn; lia|]. rewrite app_length. apply piece_short in P. cbn [length]. lia. Qed.
Lemma text_app s t : forall a h, hiragana_text (u "お") a (s ++ t) h ->
  exists h1 h2, h = h1 ++ h2 /\ hiragana_text (u "お") a s h1 /\ hiragana_text (u "お") (a ++ s) t h2.
Proof.
  induction s as [|c s IH]; intros a h H.
  - exists [], h. rewrite app_nil_r. split; [reflexivity|]. split; [constructor|exact H].
  - cbn [app] in H. inversion H as [|? ? ? p q P T]; subst. destruct (IH _ _ T) as (h1 & h2 & -> & T1 & T2).
    exists (p ++ h1), h2. split; [now rewrite app_assoc|]. split; [now constructor|]. now rewrite <- app_assoc in T2.
Qed.
Lemma text_cons a c s h : hiragana_text (u "お") a (c :: s) h -> exists p t, h = p ++ t /\ hiragana_piece (u "お") a c p /\ hiragana_text (u "お") (a ++ [c]) s t.
Proof. intro H. inversion H as [|? ? ? p t P T]; subst. exists p, t. auto. Qed.
Lemma text_empty a h : hiragana_text (u "お") a [] h -> h = [].
Proof. intro H. now inversion H. Qed.
Lemma text_snoc x c h : hiragana_text (u "お") [] (x ++ [c]) h -> length h = length (x ++ [c]) ->
  exists h1 d, h = h1 ++ [d] /\ hiragana_piece (u "お") x c [d].
Proof.
  intros H Q. destruct (text_app x [c] [] h H) as (h1 & h2 & -> & T1 & T2). cbn [app] in T2. inversion T2 as [|? ? ? p q P T]; subst. inversion T; subst.
  rewrite app_nil_r in *. apply text_length in T1. pose proof (piece_short _ _ _ P) as B. rewrite !app_length in Q. cbn [length] in Q.
  destruct p as [|d [|e p]]; cbn [length] in *; [lia| |lia]. exists h1, d. auto.
Qed.
Lemma piece_plain a c p : c <> long_mark -> hiragana_piece (u "お") a c p -> p = [k2hc c].
Proof. intros N [(_ & h & A & ->)|[(-> & _)|(-> & _)]]; [apply k2hc_spec in A; now subst|contradiction|contradiction]. Qed.
Lemma mark_not_tsu a : ~ hiragana_piece (u "お") a long_mark [ch "っ"].
Proof.
  intros [(N & _)|[(_ & k & _ & row & I & _)|(_ & _ & Q)]]; [now apply N| |discriminate Q].
  assert (forallb (fun r => negb (str_eqb (snd r) (u "っ"))) (mark_table (u "お")) = true) as T by (vm_compute; reflexivity).
  rewrite forallb_forall in T. specialize (T _ I). cbn [snd] in T. rewrite str_eqb_refl in T. discriminate T.
Qed.
Lemma mark_not_small a d : hiragana_piece (u "お") a long_mark [d] -> ~ In d smalls.
Proof.
  intros [(N & _)|[(_ & k & _ & row & I & _)|(_ & _ & Q)]]; [now contradiction N| |injection Q as ->; apply mem_not; vm_compute; reflexivity].
  assert (forallb (fun r => match snd r with [d] => negb (mem d smalls) | _ => true end) (mark_table (u "お")) = true) as T by (vm_compute; reflexivity).
  rewrite forallb_forall in T. specialize (T _ I). cbn [snd] in T. now apply mem_not, negb_true_iff.
Qed.
Lemma k2hc_range c : hiragana_for c (k2hc c).
Proof. now apply k2hc_spec. Qed.
Lemma k2hc_tsu c : k2hc c = ch "っ" -> c = ch "っ" \/ c = ch "ッ".
Proof.
  intro Q. pose proof (k2hc_range c) as A. rewrite Q in A. unfold hiragana_for in A. change (ch "っ") with 0x3063 in *. change (ch "ッ") with 0x30C3.
  change (ch "ヷ") with 0x30F7 in A. change (ch "ヸ") with 0x30F8 in A. change (ch "ヹ") with 0x30F9 in A. change (ch "ヺ") with 0x30FA in A.
  change (ch "わ") with 0x308F in A. change (ch "ゐ") with 0x3090 in A. change (ch "ゑ") with 0x3091 in A. change (ch "を") with 0x3092 in A. lia.
Qed.
Lemma k2hc_hira c : 0x3041 <= c <= 0x3096 -> k2hc c = c.
Proof. intro B. apply k2hc_spec. unfold hiragana_for. right. right. right. right. right. lia. Qed.
Lemma k2hc_kata c : 0x3041 <= k2hc c <= 0x3096 -> k2hc c <> c -> katakana_letter c.
Proof.
  intros B N. pose proof (k2hc_range c) as A. unfold hiragana_for in A. unfold katakana_letter.
  change (ch "ヷ") with 0x30F7 in A. change (ch "ヸ") with 0x30F8 in A. change (ch "ヹ") with 0x30F9 in A. change (ch "ヺ") with 0x30FA in A. lia.
Qed.
Lemma kata_letter c : katakana_letter c -> is_char_katakana c = true.
Proof. intro K. apply katakana_spec. unfold S_katakana, Predicates.between. unfold katakana_letter in K. lia. Qed.
Lemma hira_not_kata c : 0x3041 <= c <= 0x3096 -> is_char_katakana c = false.
Proof. intro B. destruct (is_char_katakana c) eqn:K; [|reflexivity]. apply katakana_spec in K. unfold S_katakana, Predicates.between in K. lia. Qed.
Lemma small_range d : In d smalls -> 0x3041 <= d <= 0x3096.
Proof.
  intro I. assert (forallb (fun c => (0x3041 <=? c) && (c <=? 0x3096)) smalls = true) as T by (vm_compute; reflexivity).
  rewrite forallb_forall in T. specialize (T d I). lia.
Qed.
Lemma undoubled_range d : In d undoubled -> 0x3041 <= d <= 0x3096 /\ d <> tsu /\ d <> vu /\ ~ In d doublable.
Proof.
  intro I. assert (forallb (fun c => (0x3041 <=? c) && (c <=? 0x3096) && negb (c =? tsu) && negb (c =? vu) && negb (mem c doublable)) undoubled = true) as T by (vm_compute; reflexivity).
  rewrite forallb_forall in T. specialize (T d I). apply andb_prop in T. destruct T as [T T3]. apply negb_true_iff, mem_not in T3.
  apply andb_prop in T. destruct T as [T T2]. apply negb_true_iff, N.eqb_neq in T2. apply andb_prop in T. destruct T as [T T1]. apply negb_true_iff, N.eqb_neq in T1.
  split; [lia|auto].
Qed.
(** what the keys of っ with a kana that is not doubled look like *)
Definition undoubled_b (e : str * str) : bool :=
  match fst e with
  | t :: b :: k => negb (t =? tsu) || mem b doublable ||
      (if mem b undoubled then negb (str_eqb (map ascii_upper (snd e)) (snd e)) && match k with [] => true | [d] => (b =? ch "に") && mem d smalls | _ => false end
       else str_eqb (map ascii_upper (snd e)) (snd e))
  | _ => true
  end.
Lemma undoubled_true : forallb undoubled_b rdict = true.
Proof. vm_compute. reflexivity. Qed.
Lemma undoubled_key b k v : r_entry (tsu :: b :: k) v -> ~ In b doublable ->
  (In b undoubled -> map ascii_upper v <> v /\ (k = [] \/ exists d, b = ch "に" /\ k = [d] /\ In d smalls)) /\ (~ In b undoubled -> map ascii_upper v = v).
Proof.
  intros I D. pose proof undoubled_true as F. rewrite forallb_forall in F. specialize (F _ I). unfold undoubled_b in F. cbn [fst snd] in F.
  rewrite N.eqb_refl in F. apply mem_not in D. rewrite D in F. cbn [negb orb] in F. split.
  - intro U. apply mem_In in U. rewrite U in F. apply andb_prop in F. destruct F as [F1 F2]. split.
    + intro Q. rewrite Q, str_eqb_refl in F1. discriminate F1.
    + destruct k as [|d [|? ?]]; [now left|right|discriminate F2]. apply andb_prop in F2. destruct F2 as [F2 F3]. apply N.eqb_eq in F2. apply mem_In in F3. exists d. exact (conj F2 (conj eq_refl F3)).
  - intro U. apply mem_not in U. rewrite U in F. now apply str_eqb_eq.
Qed.

(** ** Unit by unit *)
Section JoinUp.
  Context (E : std) (r r' : nat) (L : library E r r').
  Notation ent := (ent r r').
  Notation closed := (closed r r').
  Notation unit := (unit r r').
  Lemma hit_alone up o k v : ent k v -> rconv E up o k = remit up (firstn (length k) o) v.
  Proof.
    intro I. assert (closed k []) as C0 by (intros d q w Q; discriminate Q).
    pose proof (lib_hit_up _ _ _ L up o k v [] I C0) as H. now rewrite rconv_nil, !app_nil_r in H.
  Qed.
  Lemma split_unit up o k v rest : unit k v -> closed k rest -> rconv E up o (k ++ rest) = rconv E up o k ++ rconv E up (skipn (length k) o) rest.
  Proof.
    intros [I|(c & -> & -> & X)] C.
    - rewrite (lib_hit_up _ _ _ L up o k v rest I C), (hit_alone up o k v I). reflexivity.
    - cbn [app length]. rewrite !(lib_miss_up _ _ _ L) by exact X. reflexivity.
  Qed.
  Lemma rconv_local up h : forall o, rconv E up o h = rconv E up (firstn (length h) o) h.
  Proof.
    induction h as [h IH] using str_ind_len. intro o. destruct h as [|c h]; [reflexivity|].
    destruct (first_unit E r r' L c h) as (k & v & rest & Sp & U & C). rewrite Sp in *. pose proof (unit_nonempty r r' _ _ U) as Nk.
    destruct rest as [|d rest].
    - rewrite app_nil_r in *. destruct U as [I|(x & -> & -> & X)].
      + rewrite !(hit_alone up _ k v I), firstn_firstn, Nat.min_id. reflexivity.
      + rewrite !(lib_miss_up _ _ _ L) by exact X. reflexivity.
    - assert (length k < length (k ++ d :: rest))%nat as B1 by (rewrite app_length; cbn; lia).
      assert (length (d :: rest) < length (k ++ d :: rest))%nat as B2 by (rewrite app_length; destruct k; [congruence|cbn; lia]).
      rewrite !(split_unit up _ k v _ U C). f_equal.
      + rewrite (IH k B1 o), (IH k B1 (firstn (length (k ++ d :: rest)) o)), firstn_firstn. f_equal. f_equal. rewrite app_length. lia.
      + rewrite (IH _ B2 (skipn (length k) o)), (IH _ B2 (skipn (length k) (firstn (length (k ++ d :: rest)) o))). f_equal. rewrite skipn_firstn_comm, firstn_firstn. f_equal. rewrite app_length. lia.
  Qed.
  Lemma rconv_exact up h o o' : length o = length h -> rconv E up (o ++ o') h = rconv E up o h.
  Proof. intro Q. rewrite rconv_local, <- Q, firstn_app, Nat.sub_diag, firstn_all, app_nil_r. reflexivity. Qed.
  Definition parted (h x1 k v : str) : Prop :=
    h = x1 ++ k /\ unit k v /\ (k = [nn] \/ k = [vu] -> forall x', x1 <> x' ++ [tsu]) /\
    forall up o z, rconv E up o (h ++ z) = rconv E up o x1 ++ rconv E up (skipn (length x1) o) (k ++ z).
  Lemma last_parted h : h <> [] -> exists x1 k v, parted h x1 k v.
  Proof.
    induction h as [h IH] using str_ind_len. intro N. destruct h as [|c h]; [congruence|].
    destruct (first_unit E r r' L c h) as (k & v & rest & Sp & U & C). rewrite Sp in *. pose proof (unit_nonempty r r' _ _ U) as Nk.
    destruct rest as [|d rest].
    - rewrite app_nil_r in *. exists [], k, v. split; [reflexivity|]. split; [exact U|]. split; [intros _ x' Q; destruct x'; discriminate Q|]. reflexivity.
    - destruct (IH (d :: rest)) as (x1 & k2 & v2 & Q & U2 & X & S); [rewrite app_length; destruct k; [congruence|cbn; lia]|discriminate|].
      exists (k ++ x1), k2, v2. split; [rewrite Q; apply app_assoc|]. split; [exact U2|]. split.
      + intros K x' J. destruct x1 as [|e x1].
        * rewrite app_nil_r in J. pose proof (tsu_unit r r' _ _ U x' J) as T. rewrite T in C.
          assert (exists e, k2 = [e] /\ (e = nn \/ e = vu)) as (e & -> & Ke) by (destruct K; eauto).
          destruct (tsu_keys E r r' L e Ke) as [w T']. apply (C e [] w); [exact Q|exact T'].
        * destruct (snoc_end k (e :: x1) x' tsu ltac:(discriminate) J) as [k' K']. exact (X K k' K').
      + intros up o z. rewrite <- app_assoc, (split_unit up o k v _ U (closed_more r r' k (d :: rest) z ltac:(discriminate) C)), S.
        rewrite app_assoc, app_length. f_equal; [|f_equal; apply skipn_add].
        symmetry. apply (split_unit up o k v x1 U). destruct x1 as [|e x1]; [intros e q w Z; discriminate Z|].
        injection Q as <- _. intros e q w Z. injection Z as <- _. now apply (C d rest).
  Qed.
  Context (rv rtv : str) (Hv : rv = u "vu" <-> r = 0%nat) (Hv' : rtv = u "vvu" <-> r' = 0%nat).
  Notation U := (rconv E true).
  Lemma undoubled_ent b : In b undoubled -> exists w, ent [tsu; b] w.
  Proof.
    intro I. assert (forallb (fun b => key_b [tsu; b]) undoubled = true) as T by (vm_compute; reflexivity). rewrite forallb_forall in T. specialize (T b I).
    apply key_b_true in T. destruct T as [w W]. exists w. apply entry_ent; [exact W|]. destruct (undoubled_range b I) as (_ & _ & N & _). intros [Z|[Z|[]]]; [discriminate Z|congruence].
  Qed.
  Lemma ni_ent d : In d smalls -> exists w, ent [ch "に"; d] w.
  Proof.
    intro I. assert (forallb (fun d => key_b [ch "に"; d] && negb (d =? vu)) smalls = true) as T by (vm_compute; reflexivity). rewrite forallb_forall in T. specialize (T d I).
    apply andb_prop in T. destruct T as [T N]. apply key_b_true in T. destruct T as [w W]. exists w. apply entry_ent; [exact W|].
    apply negb_true_iff, N.eqb_neq in N. intros [Z|[Z|[]]]; [discriminate Z|congruence].
  Qed.
  (** a key of っ and one without it, for the same kana *)
  Lemma mixed_value t x y c b k v rest : hiragana_text (u "お") [] y (b :: k ++ rest) -> ent (b :: k) v -> ent (tsu :: b :: k) v -> closed (b :: k) rest ->
    ~ In b doublable -> x <> [] -> x = removelast x ++ [t] -> t = ch "っ" \/ t = ch "ッ" -> c = length (b :: k) ->
    (remit true (t :: firstn c y) v = remit true (firstn c y) v <-> ~ mixes x y).
  Proof.
    intros Hy I I' C D Nx Qx Ht ->. unfold remit. rewrite !andb_true_r. cbn [forallb].
    destruct (undoubled_key b k v (ent_entry _ _ _ _ I') D) as [Ku Kn].
    destruct Ht as [->| ->].
    2:{ change (is_char_katakana (ch "ッ")) with true. cbn [andb]. split; [|reflexivity]. intros _ [[x' Q] _].
        rewrite Qx in Q. apply app_inj_tail in Q. destruct Q as [_ Q]. discriminate Q. }
    change (is_char_katakana (ch "っ")) with false. cbn [andb].
    destruct (in_dec N.eq_dec b undoubled) as [Ub|Ub].
    2:{ rewrite (Kn Ub). split; [|intros _; now destruct (forallb _ _)]. intros _ [_ (d & b0 & y' & -> & Kd & Hd & Ib & _)].
        destruct (text_cons _ _ _ _ Hy) as (p & q & Z2 & P & T).
        assert (d <> long_mark) as Nd by (intros ->; unfold katakana_letter in Kd; change long_mark with 0x30FC in Kd; lia).
        rewrite (piece_plain _ _ _ Nd P) in Z2. injection Z2 as Z2 _. apply k2hc_spec in Hd. congruence. }
    destruct (Ku Ub) as [Nv Sk]. clear Ku Kn. destruct (undoubled_range b Ub) as (Rb & _).
    destruct y as [|d y']; [apply text_empty in Hy; discriminate Hy|]. destruct (text_cons _ _ _ _ Hy) as (p & q & Z2 & P & T).
    assert (d <> long_mark) as Nd.
    { intros ->. destruct P as [(N & _)|[(_ & k' & K & _)|(_ & _ & ->)]]; [now apply N|exact (lengthens_nil k' K)|]. cbn [app] in Z2. injection Z2 as Z2 _.
      change long_mark with 0x30FC in Z2. lia. }
    rewrite (piece_plain _ _ _ Nd P) in Z2. cbn [app] in Z2. injection Z2 as Qd Q. symmetry in Qd. clear P p. subst q. cbn [length firstn forallb].
    (* the second character *)
    assert (forall e z, b = ch "に" -> k ++ rest = e :: z -> In e smalls -> exists d' z', y' = d' :: z' /\ d' <> long_mark /\ k2hc d' = e) as Snd.
    { intros e z Qb Q Ie. rewrite Q in T. destruct y' as [|d' y2]; [apply text_empty in T; discriminate T|]. destruct (text_cons _ _ _ _ T) as (p & q & Z2 & P & T'). exists d', y2. split; [reflexivity|].
      assert (d' <> long_mark) as Nd'.
      { intros ->. destruct p as [|e' [|? ?]]; [| |apply piece_short in P; cbn in P; lia].
        - destruct P as [(N & _)|[(_ & k' & K & B)|(_ & _ & P)]]; [now apply N| |discriminate P].
          apply lengthens_snoc in K. destruct K as [(-> & _)|(_ & K)]; [|exact (lengthens_nil _ K)].
          assert (forallb (fun r => match snd r with [] => forallb (fun k => negb (k2hc k =? ch "に")) (fst r) | _ => true end) (mark_table (u "お")) = true) as F by (vm_compute; reflexivity).
          rewrite forallb_forall in F. destruct B as (row & Ir & Ik). specialize (F _ Ir). cbn [fst snd] in F. rewrite forallb_forall in F. specialize (F _ Ik).
          rewrite Qd, Qb in F. discriminate F.
        - cbn [app] in Z2. injection Z2 as -> _. exact (mark_not_small _ _ P Ie). }
      split; [exact Nd'|]. rewrite (piece_plain _ _ _ Nd' P) in Z2. cbn [app] in Z2. now injection Z2. }
    split.
    - intros Q [_ (d0 & b0 & y0 & Qy & Kd & Hd & Ib & S)]. injection Qy as <- <-. apply k2hc_spec in Hd. rewrite (kata_letter d Kd) in Q.
      destruct Sk as [->|(e & Qb & -> & Ie)].
      + apply Nv. symmetry. exact Q.
      + destruct (Snd e rest Qb eq_refl Ie) as (d' & z' & -> & Nd' & Qe). cbn [length firstn forallb andb] in Q.
        rewrite (kata_letter d') in Q; [apply Nv; symmetry; exact Q|]. apply k2hc_kata; [rewrite Qe; now apply small_range|].
        intro Z. apply (S ltac:(congruence) d' z' eq_refl). congruence.
    - intro M. destruct (is_char_katakana d && forallb is_char_katakana (firstn (length k) y')) eqn:F; [|reflexivity]. exfalso. apply M.
      apply andb_prop in F. destruct F as [F1 F2]. split; [now exists (removelast x)|]. exists d, b, y'. split; [reflexivity|].
      split; [|split; [now apply k2hc_spec|split; [exact Ub|]]].
      + apply k2hc_kata; [now rewrite Qd|]. intro Z. rewrite hira_not_kata in F1; [discriminate F1|]. rewrite <- Z, Qd. exact Rb.
      + intros Qb e z -> Ie. pose proof (small_range e Ie) as Re.
        assert (exists q, k ++ rest = e :: q) as [q Qk].
        { destruct (text_cons _ _ _ _ T) as (p & q & Z2 & P & T'). assert (e <> long_mark) as Ne by (intros ->; change long_mark with 0x30FC in Re; lia). rewrite (piece_plain _ _ _ Ne P), (k2hc_hira e Re) in Z2. now exists q. }
        destruct Sk as [->|(e' & _ & -> & Ie')].
        * destruct (ni_ent e Ie) as [w W]. apply (C e q w Qk). rewrite Qb. exact W.
        * injection Qk as -> _. cbn [length firstn forallb] in F2. rewrite (hira_not_kata e Re) in F2. discriminate F2.
  Qed.
  Lemma ends_tsu x hx : hiragana_text (u "お") [] x hx -> length hx = length x ->
    (forall x', x = x' ++ [ch "っ"] -> exists h, hx = h ++ [tsu]) /\
    (forall h, hx = h ++ [tsu] -> exists x' t, x = x' ++ [t] /\ (t = ch "っ" \/ t = ch "ッ")).
  Proof.
    intros T Q. split.
    - intros x' ->. destruct (text_snoc _ _ _ T Q) as (h1 & d & -> & P). exists h1. apply piece_plain in P; [|discriminate]. now rewrite P.
    - intros h ->. destruct (list_eq_dec N.eq_dec x []) as [->|Nx]; [apply text_empty in T; destruct h; discriminate T|].
      destruct (exists_last Nx) as (x' & t & ->). destruct (text_snoc _ _ _ T Q) as (h1 & d & Qh & P). apply app_inj_tail in Qh. destruct Qh as [_ <-].
      exists x', t. split; [reflexivity|]. destruct (N.eq_dec t long_mark) as [->|Nt]; [now apply mark_not_tsu in P|].
      apply piece_plain in P; [|exact Nt]. injection P as P. apply k2hc_tsu. symmetry. exact P.
  Qed.
  Lemma mixes_heads x y hx hy : hiragana_text (u "お") [] x hx -> hiragana_text (u "お") [] y hy -> length hx = length x -> mixes x y ->
    exists h b z, hx = h ++ [tsu] /\ hy = b :: z /\ In b undoubled.
  Proof.
    intros Tx Ty Q [[x' Qx] (c & b & y' & -> & K & Hc & I & _)]. destruct (proj1 (ends_tsu x hx Tx Q) x' Qx) as [h ->].
    destruct (text_cons _ _ _ _ Ty) as (p & q & -> & P & _). apply k2hc_spec in Hc. subst b.
    apply piece_plain in P; [|intros ->; unfold katakana_letter in K; change long_mark with 0x30FC in K; lia]. rewrite P. exists h, (k2hc c), q. auto.
  Qed.
  Lemma join_up x y hx hy : hiragana_text (u "お") [] x hx -> hiragana_text (u "お") [] y hy -> length hx = length x ->
    hx <> [] -> hy <> [] -> ~ fuses rv rtv hx hy ->
    exists B, U (x ++ y) (hx ++ hy) = U x hx ++ B /\ length B = length (U y hy) /\ (B = U y hy <-> ~ mixes x y).
  Proof.
    intros Tx Ty Lx Nx Ny F. destruct (last_parted hx Nx) as (x1 & k & v & Q & Un & X & S). pose proof (unit_nonempty _ _ _ _ Un) as Nk.
    set (xa := firstn (length x1) x). set (xk := skipn (length x1) x).
    assert (x = xa ++ xk) as Qx by (symmetry; apply firstn_skipn).
    assert (length xa = length x1) as La by (unfold xa; apply firstn_length_le; rewrite <- Lx, Q, app_length; lia).
    assert (length xk = length k) as Lk by (apply (f_equal (@length N)) in Qx; rewrite Q, app_length in Lx; rewrite app_length in Qx; lia).
    assert (forall z, skipn (length x1) (xa ++ z) = z) as Sk by (intro z; rewrite <- La, skipn_app, skipn_all, Nat.sub_diag; reflexivity).
    assert (exists B, U (xk ++ y) (k ++ hy) = U xk k ++ B /\ length B = length (U y hy) /\ (B = U y hy <-> ~ mixes x y)) as (B & H1 & H2).
    2:{ exists B. split; [|exact H2]. pose proof (S true x []) as S0. rewrite !app_nil_r in S0. rewrite S0, S. fold xk. rewrite Qx at 1 2 3.
        rewrite <- app_assoc, Sk, H1, !rconv_exact by exact La. apply app_assoc. }
    clearbody xa xk. destruct hy as [|b hy]; [congruence|].
    pose proof (key_in_spec r r' (k ++ [b])) as Kb. destruct (key_in r r' (k ++ [b])).
    2:{ exists (U y (b :: hy)). assert (closed k (b :: hy)) as C by (intros d q w Qd; injection Qd as <- _; apply Kb).
        split; [|split; [reflexivity|]].
        - rewrite (split_unit true _ k v _ Un C), rconv_exact, <- Lk, skipn_app, skipn_all, Nat.sub_diag by exact Lk. reflexivity.
        - split; [|reflexivity]. intros _ M. destruct (mixes_heads _ _ _ _ Tx Ty Lx M) as (h & b0 & z & Qh & Qb & I). injection Qb as <- <-.
          rewrite Q in Qh. destruct (snoc_end _ _ _ _ Nk Qh) as [k' Qk]. rewrite (tsu_unit _ _ _ _ Un _ Qk) in Kb. destruct (undoubled_ent b I) as [w W]. exact (Kb w W). }
    destruct Kb as [w Kb].
    destruct (crossing E r r' L k b w Kb Nk) as [(-> & B1 & B3 & w' & I)|[(-> & B)|[(a & Ka & Aa & B)|[(-> & R0 & B)|(-> & R0 & B)]]]].
    2:{ exfalso. apply F. rewrite Q. apply fuses_n; [exact (X (or_introl eq_refl))|exact B]. }
    2:{ exfalso. apply F. rewrite Q. destruct Ka as [->| ->].
        - now apply fuses_small.
        - change [tsu; a] with ([tsu] ++ [a]). rewrite app_assoc. now apply fuses_small. }
    2:{ exfalso. apply F. rewrite Q. apply fuses_v; [now apply Hv|exact (X (or_intror eq_refl))|exact B]. }
    2:{ exfalso. apply F. rewrite Q. apply fuses_tsu_v; [now apply Hv'|exact B]. }
    assert (~ In b doublable) as O by (intro B; apply F; rewrite Q; now apply fuses_tsu).
    assert (b <> vu) as Bv by (intros ->; apply O, mem_In; vm_compute; reflexivity).
    destruct (proj2 (ends_tsu x hx Tx Lx) _ Q) as (x' & t & Qt & Ht).
    assert (xk = [t]) as ->.
    { destruct xk as [|t' [|? ?]]; try discriminate Lk. rewrite Qx in Qt. apply app_inj_tail in Qt. destruct Qt as [_ ->]. reflexivity. }
    assert (U [t] [tsu] = []) as ->.
    { rewrite (hit_alone true [t] [tsu] []); [|apply entry_b_ent; vm_compute; reflexivity]. unfold remit. now destruct (_ && _). }
    assert (exists k0 v0 rest, hy = k0 ++ rest /\ ent (b :: k0) v0 /\ ent (tsu :: b :: k0) v0 /\ closed (b :: k0) rest) as (k0 & v0 & rest & Qh & I0 & G & C0).
    { destruct (N.eq_dec b nn) as [->|B2].
      - exists [], (u "n"), hy. split; [reflexivity|]. split; [apply entry_b_ent; vm_compute; reflexivity|]. split; [apply entry_b_ent; vm_compute; reflexivity|].
        intros d q w1 -> J. destruct (crossing E r r' L [nn] d w1 J) as [[Z _]|[[_ Z]|[(a & [Z|Z] & Ba & _)|[[Z _]|[Z _]]]]]; try discriminate Z; try discriminate.
        + apply F. rewrite Q. now apply fuses_tsu_n.
        + injection Z as <-. exact (nn_base Ba).
      - destruct (first_unit E r r' L b hy) as (k0 & v0 & rest & Sp & U0 & C0). pose proof (unit_of_entry _ _ _ _ _ _ _ _ U0 Sp I) as I0.
        destruct k0 as [|b0 k0]; [now apply unit_nonempty in U0|]. injection Sp as <- Sp.
        destruct (gem_entry r r' b k0 v0 I0 B1 Bv B2 B3) as [G D]. rewrite (D O) in G. exists k0, v0, rest. auto. }
    pose proof (gem_closed r r' b k0 rest Bv C0) as CG.
    exists (U ([t] ++ y) ([tsu] ++ b :: hy)). split; [reflexivity|].
    change ([tsu] ++ b :: hy) with (tsu :: b :: hy). rewrite Qh. change (tsu :: b :: k0 ++ rest) with ((tsu :: b :: k0) ++ rest). change (b :: k0 ++ rest) with ((b :: k0) ++ rest).
    rewrite (lib_hit_up _ _ _ L true _ _ v0 _ G CG), (lib_hit_up _ _ _ L true _ _ v0 _ I0 C0).
    change (firstn (length (tsu :: b :: k0)) ([t] ++ y)) with (t :: firstn (length (b :: k0)) y).
    change (skipn (length (tsu :: b :: k0)) ([t] ++ y)) with (skipn (length (b :: k0)) y).
    split; [rewrite !app_length, !remit_length; reflexivity|].
    rewrite <- (mixed_value t x y (length (b :: k0)) b k0 v0 rest); try assumption; try reflexivity.
    - split; [intro Z; apply app_inv_tail in Z; exact Z|now intros ->].
    - rewrite Qh in Ty. exact Ty.
    - rewrite Qt. destruct x'; discriminate.
    - rewrite Qt at 2. rewrite removelast_last. exact Qt.
  Qed.
End JoinUp.

(** ** C75 *)
(** the text has as many characters in hiragana *)
Definition keeps_length (t : str) : Prop := forall h, hiragana_text (u "お") [] t h -> length h = length t.
Lemma drops_keeps t : drops_no_mark t -> keeps_length t.
Proof.
  assert (forall a s h, hiragana_text (u "お") a s h -> (forall x y k, s = x ++ long_mark :: y -> lengthens (a ++ x) k -> ~ In k (u "ッン")) -> length h = length s) as G.
  { induction 1 as [a|a c s p h P H IH]; intro D; [reflexivity|]. rewrite app_length. cbn [length].
    rewrite IH by (intros x y k -> K; rewrite <- app_assoc in K; exact (D (c :: x) y k eq_refl K)).
    destruct P as [(_ & x & _ & ->)|[(-> & k & A & row & I & J)|(_ & _ & ->)]]; [reflexivity| |reflexivity].
    specialize (D [] s k eq_refl). rewrite app_nil_r in D. specialize (D A).
    assert (forallb (fun r => Nat.eqb (length (snd r)) 1 || forallb (fun k => mem k (u "ッン")) (fst r)) (mark_table (u "お")) = true) as F by (vm_compute; reflexivity).
    rewrite forallb_forall in F. specialize (F _ I). cbn [fst snd] in F. apply orb_prop in F. destruct F as [F|F]; [apply Nat.eqb_eq in F; lia|].
    rewrite forallb_forall in F. specialize (F _ J). apply mem_In in F. contradiction. }
  intros D h H. exact (G [] t h H D).
Qed.
Definition upper_romaji (E : std) (s : str) : str := rconv E true s (k2h E true s).
Definition plain_romaji (E : std) (s : str) : str := R E (k2h E true s).
Lemma rom_up E o s : std_ok E -> to_romaji_with_opt E s o = Ok (if upcase_katakana o then upper_romaji E s else plain_romaji E s).
Proof.
  intro HE. rewrite to_romaji_with_opt_eq by exact HE. destruct (upcase_katakana o); [reflexivity|]. f_equal. unfold plain_romaji, R. now apply rconv_noup.
Qed.
Lemma upper_low_plain E s : std_ok E -> low (upper_romaji E s) = low (plain_romaji E s).
Proof. intro HE. unfold upper_romaji, plain_romaji. rewrite (rconv_low E HE _ _ true false). f_equal. unfold R. now apply rconv_noup. Qed.
Lemma v_romaji E o : std_ok E -> to_romaji_with_opt E (u "ゔ") o = Ok (R E [vu]) /\ to_romaji_with_opt E (u "っゔ") o = Ok (R E [tsu; vu]).
Proof.
  intro HE. assert (forall P, forallb (fun c => negb (is_char_katakana c)) P = true -> rconv E true P P = R E P) as Plain.
  { intros P F. rewrite (rconv_no_kata E HE P P (le_n _)); [unfold R; now apply rconv_noup|]. intros c J K. apply katakana_spec in K.
    rewrite forallb_forall in F. apply F in J. now rewrite K in J. }
  rewrite !rom_up by exact HE. unfold upper_romaji, plain_romaji.
  change (k2h E true (u "ゔ")) with [vu]. change (k2h E true (u "っゔ")) with [tsu; vu].
  rewrite !Plain by (vm_compute; reflexivity). destruct (upcase_katakana o); auto.
Qed.
Definition independent (rv rtv : str) (ts : list str) : Prop := forall pre y post, ts = pre ++ y :: post -> ~ depends rv rtv (concat pre) y.
Definition unmixed (ts : list str) : Prop := forall pre y post, ts = pre ++ y :: post -> ~ mixes (concat pre) y.
Lemma Forall2_fun {A B} (f : A -> B) l l' : Forall2 (fun a b => b = f a) l l' -> l' = map f l.
Proof. induction 1 as [|a b l l' -> _ IH]; [reflexivity|]. cbn [map]. now rewrite IH. Qed.
Lemma parts_plain E ts : std_ok E -> Forall (fun y => y <> []) ts ->
  (plain_romaji E (concat ts) = concat (map (plain_romaji E) ts) <-> independent (R E [vu]) (R E [tsu; vu]) ts).
Proof.
  intros HE NE. destruct (v_romaji E default_options HE) as [Rv Rtv].
  destruct (parts_exact E default_options _ _ ts HE eq_refl Rv Rtv NE) as (r & rs & R1 & R2 & X).
  rewrite rom_up in R1 by exact HE. cbn [upcase_katakana default_options] in R1. injection R1 as <-.
  assert (rs = map (plain_romaji E) ts) as ->; [|exact X]. apply Forall2_fun.
  clear - R2 HE. induction R2 as [|t q ts rs H _ IH]; constructor; [|exact IH]. rewrite rom_up in H by exact HE. cbn [upcase_katakana default_options] in H. now injection H.
Qed.
Lemma upper_independent E ts : std_ok E -> Forall (fun y => y <> []) ts ->
  upper_romaji E (concat ts) = concat (map (upper_romaji E) ts) -> independent (R E [vu]) (R E [tsu; vu]) ts.
Proof.
  intros HE NE Q. destruct (library_exists E HE) as (r & r' & L & Hv & Hv' & _).
  assert (forall s, plain_romaji E (low s) = low (plain_romaji E s)) as Pl.
  { intro s. unfold plain_romaji. rewrite k2h_low by exact HE. exact (R_low E r r' L _ _ Hv Hv' _). }
  assert (independent (R E [vu]) (R E [tsu; vu]) (map low ts)) as I.
  { apply (parts_plain E); [exact HE| |].
    - clear - NE. induction NE as [|y ts N _ IH]; constructor; [|exact IH]. now destruct y.
    - rewrite <- low_concat, Pl, <- upper_low_plain, Q by exact HE. rewrite low_concat, !map_map. f_equal. apply map_ext. intro s. now rewrite Pl, <- upper_low_plain by exact HE. }
  intros pre y post -> D. apply depends_low in D. rewrite low_concat in D. apply (I (map low pre) (low y) (map low post)); [|exact D]. now rewrite map_app.
Qed.
Lemma concat_snoc (ts : list str) y : concat (ts ++ [y]) = concat ts ++ y.
Proof. rewrite concat_app. cbn [concat]. now rewrite app_nil_r. Qed.
Lemma snoc_parts (P : str -> str -> Prop) (ts : list str) y : (forall pre t post, ts ++ [y] = pre ++ t :: post -> P (concat pre) t) <->
  (forall pre t post, ts = pre ++ t :: post -> P (concat pre) t) /\ P (concat ts) y.
Proof.
  split.
  - intro H. split; [|exact (H ts y [] eq_refl)]. intros pre t post ->. apply (H pre t (post ++ [y])). now rewrite <- app_assoc.
  - intros [H1 H2] pre t post Q. destruct (list_eq_dec (list_eq_dec N.eq_dec) post []) as [->|Np].
    + apply app_inj_tail in Q. destruct Q as [-> ->]. exact H2.
    + destruct (exists_last Np) as (post' & z & ->). rewrite app_comm_cons, app_assoc in Q. apply app_inj_tail in Q. destruct Q as [-> _]. now apply (H1 pre t post').
Qed.
Lemma parts_upper E ts : std_ok E -> Forall (fun y => y <> []) ts -> independent (R E [vu]) (R E [tsu; vu]) ts ->
  (forall pre y post, ts = pre ++ y :: post -> post <> [] -> keeps_length y) ->
  (upper_romaji E (concat ts) = concat (map (upper_romaji E) ts) <-> unmixed ts).
Proof.
  intro HE. destruct (library_exists E HE) as (r & r' & L & Hv & Hv' & HK).
  induction ts as [|y ts IH] using rev_ind; intros NE I K.
  { split; [|reflexivity]. intros _ [|? ?] y post Q; discriminate Q. }
  apply Forall_app in NE. destruct NE as [NE Ny]. inversion Ny as [|? ? Ny' _]; subst. clear Ny.
  unfold independent in I. rewrite (snoc_parts (fun x y => ~ depends (R E [vu]) (R E [tsu; vu]) x y)) in I. destruct I as [I Iy]. fold (independent (R E [vu]) (R E [tsu; vu]) ts) in I.
  unfold unmixed. rewrite (snoc_parts (fun x y => ~ mixes x y)). fold (unmixed ts).
  assert (Forall keeps_length ts) as Ks.
  { apply Forall_forall. intros t J. apply in_split in J. destruct J as (pre & post & ->). apply (K pre t (post ++ [y])); [now rewrite <- app_assoc|destruct post; discriminate]. }
  specialize (IH NE I). rewrite <- IH; clear IH.
  2:{ intros pre t post -> _. rewrite Forall_forall in Ks. apply Ks, in_or_app. right. now left. }
  rewrite map_app. cbn [map]. rewrite !concat_snoc.
  destruct (list_eq_dec (list_eq_dec N.eq_dec) ts []) as [->|Nts].
  { cbn [concat map app]. split; [|reflexivity]. intros _. split; [reflexivity|]. intros [[x' Q] _]. destruct x'; discriminate Q. }
  set (x := concat ts) in *.
  assert (k2h E true (x ++ y) = k2h E true x ++ k2h E true y) as Qh.
  { destruct (text_parts E r true [x; y] HK [] _ (HK (concat [x; y]))) as [(Q & _)|(_ & pre & t & post & Q & Re)].
    - cbn [concat map] in Q. now rewrite !app_nil_r in Q.
    - exfalso. destruct pre as [|a [|b [|c pre]]]; injection Q.
      + intros _ <-. destruct Re as (s1 & s2 & k & Z & K1 & K2). cbn [app concat] in *. apply K2. now exists k.
      + intros _ <- <-. cbn [app concat] in Re. rewrite app_nil_r in Re. apply Iy, reaches_depends. exact Re.
      + intros Z _ _. discriminate Z.
      + intros Z _ _. discriminate Z. }
  assert (k2h E true x = concat (map (k2h E true) ts)) as Qx.
  { destruct (text_parts E r true ts HK [] _ (HK (concat ts))) as [(Q & _)|(_ & pre & t & post & Q & Re)]; [exact Q|].
    exfalso. apply (I pre t post Q). apply reaches_depends. exact Re. }
  assert (length (k2h E true x) = length x) as Lx.
  { rewrite Qx. unfold x. clear - Ks HE. induction Ks as [|t ts Kt _ IH]; [reflexivity|]. cbn [map concat]. rewrite !app_length, IH. f_equal.
    apply Kt. exact (k2h_text E true t HE). }
  assert (x <> []) as Nx by (destruct ts as [|t ts]; [congruence|]; inversion NE; subst; unfold x; cbn [concat]; destruct t; [congruence|discriminate]).
  pose proof (k2h_text E true x HE) as Tx. pose proof (k2h_text E true y HE) as Ty.
  assert (forall s, s <> [] -> k2h E true s <> []) as Ne.
  { intros s Ns Q. apply Ns, text_nonempty. pose proof (k2h_text E true s HE) as T. rewrite Q in T. exact T. }
  assert (~ fuses (R E [vu]) (R E [tsu; vu]) (k2h E true x) (k2h E true y)) as F by (intro F; apply Iy; right; eauto).
  destruct (join_up E r r' L _ _ Hv Hv' x y _ _ Tx Ty Lx (Ne x Nx) (Ne y Ny') F) as (B & H1 & H2 & H3).
  assert (upper_romaji E (x ++ y) = upper_romaji E x ++ B) as -> by (unfold upper_romaji; rewrite Qh; exact H1).
  assert (length (upper_romaji E x) = length (concat (map (upper_romaji E) ts))) as Lu.
  { assert (forall s, length (upper_romaji E s) = length (plain_romaji E s)) as Same.
    { intro s. rewrite <- (low_length (upper_romaji E s)), upper_low_plain by exact HE. apply low_length. }
    rewrite Same. unfold x. rewrite (proj2 (parts_plain E ts HE NE) I). clear - Same. induction ts as [|t ts IH]; [reflexivity|]. cbn [map concat]. now rewrite !app_length, IH, Same. }
  rewrite <- H3. fold (upper_romaji E y). split.
  - intro Q. exact (prefix_eq _ _ _ _ Q Lu).
  - now intros [-> ->].
Qed.
Theorem parts_exact_all E o rv rtv ts : std_ok E ->
  (upcase_katakana o = true -> forall pre y post, ts = pre ++ y :: post -> post <> [] -> drops_no_mark y) ->
  to_romaji_with_opt E (u "ゔ") o = Ok rv -> to_romaji_with_opt E (u "っゔ") o = Ok rtv -> Forall (fun y => y <> []) ts ->
  exists r rs, to_romaji_with_opt E (concat ts) o = Ok r /\ Forall2 (fun y q => to_romaji_with_opt E y o = Ok q) ts rs /\
    (r = concat rs <-> forall pre y post, ts = pre ++ y :: post ->
       ~ depends rv rtv (concat pre) y /\ (upcase_katakana o = true -> ~ mixes (concat pre) y)).
Proof.
  intros HE K' Rv Rtv NE. assert (upcase_katakana o = true -> forall pre y post, ts = pre ++ y :: post -> post <> [] -> keeps_length y) as K
    by (intros Up pre y post Q N; exact (drops_keeps y (K' Up pre y post Q N))). clear K'.
  destruct (v_romaji E o HE) as [Rv' Rtv']. rewrite Rv' in Rv. rewrite Rtv' in Rtv. injection Rv as <-. injection Rtv as <-. clear Rv' Rtv'.
  set (rom := fun s => if upcase_katakana o then upper_romaji E s else plain_romaji E s).
  assert (forall s, to_romaji_with_opt E s o = Ok (rom s)) as Rom by (intro s; now apply rom_up).
  exists (rom (concat ts)), (map rom ts). split; [apply Rom|]. split; [clear - Rom; induction ts; constructor; auto|].
  assert ((rom (concat ts) = concat (map rom ts)) <-> independent (R E [vu]) (R E [tsu; vu]) ts /\ (upcase_katakana o = true -> unmixed ts)) as ->.
  { unfold rom. destruct (upcase_katakana o).
    - split.
      + intro Q. pose proof (upper_independent E ts HE NE Q) as I. split; [exact I|]. intros _. now apply (parts_upper E ts HE NE I (K eq_refl)).
      + intros [I M]. apply (parts_upper E ts HE NE I (K eq_refl)). now apply M.
    - rewrite (parts_plain E ts HE NE). split; [|now intros [I _]]. intro I. split; [exact I|discriminate]. }
  split.
  - intros [I M] pre y post Q. split; [exact (I pre y post Q)|]. intro Up. exact (M Up pre y post Q).
  - intro H. split; [intros pre y post Q; exact (proj1 (H pre y post Q))|]. intros Up pre y post Q. exact (proj2 (H pre y post Q) Up).
Qed.

(** ** C76 *)
Lemma no_mark_keeps t : no_long_mark t -> keeps_length t.
Proof. intros N h T. rewrite (no_mark_text true [] t h T N). apply map_length. Qed.
Lemma mixes_boundary compact s pre y post : tokenize_with_opt s compact = pre ++ y :: post -> mixes (concat pre) y ->
  compact = false /\ exists x' c y', concat pre = x' ++ [ch "っ"] /\ y = c :: y' /\ katakana_letter c.
Proof.
  intros Q [[x' Qx] (c & b & y' & -> & K & _)].
  destruct (tokenize_tokenisation s compact) as (_ & NE & _ & Sep).
  destruct (list_eq_dec (list_eq_dec N.eq_dec) pre []) as [->|Np]; [destruct x'; discriminate Qx|].
  destruct (exists_last Np) as (pre' & t & ->).
  assert (t <> []) as Nt by (apply NE; rewrite Q; apply in_or_app; left; apply in_or_app; right; now left).
  destruct (exists_last Nt) as (t' & a' & ->). pose proof Qx as Qx'.
  rewrite concat_snoc, app_assoc in Qx. apply app_inj_tail in Qx. destruct Qx as [Qx ->].
  assert (ty compact (ch "っ") <> ty compact c) as D.
  { apply (Sep pre' (t' ++ [ch "っ"]) (c :: y') post) with (a' := t') (b' := y'); [|reflexivity|reflexivity].
    rewrite Q, <- app_assoc. reflexivity. }
  unfold ty in D. destruct (type_of_kana c (or_intror K)) as [B1 B2].
  destruct compact; [rewrite B1 in D; contradiction D; vm_compute; reflexivity|]. split; [reflexivity|]. exists x', c, y'. auto.
Qed.
Theorem tokens_exact_all E o rv rtv s compact : std_ok E ->
  to_romaji_with_opt E (u "ゔ") o = Ok rv -> to_romaji_with_opt E (u "っゔ") o = Ok rtv ->
  exists r rs, to_romaji_with_opt E s o = Ok r /\
    Forall2 (fun t q => to_romaji_with_opt E t o = Ok q) (tokenize_with_opt s compact) rs /\
    (r = concat rs <-> no_long_mark s /\
       (compact = false -> forall pre y post, tokenize_with_opt s compact = pre ++ y :: post ->
          (forall hx hy, Forall2 hiragana_for (concat pre) hx -> Forall2 hiragana_for y hy -> ~ fuses rv rtv hx hy) /\
          (upcase_katakana o = true -> ~ mixes (concat pre) y))).
Proof.
  intros HE Rv Rtv. destruct (v_romaji E o HE) as [Rv' Rtv']. rewrite Rv' in Rv. rewrite Rtv' in Rtv. injection Rv as <-. injection Rtv as <-. clear Rv' Rtv'.
  destruct (tokenize_tokenisation s compact) as (Qs & NE & _). set (ts := tokenize_with_opt s compact) in *.
  assert (Forall (fun y => y <> []) ts) as NE' by now apply Forall_forall.
  set (rom := fun s => if upcase_katakana o then upper_romaji E s else plain_romaji E s).
  assert (forall s, to_romaji_with_opt E s o = Ok (rom s)) as Rom by (intro z; now apply rom_up).
  exists (rom s), (map rom ts). split; [apply Rom|]. split; [generalize ts; clear - Rom; intro ts; induction ts; constructor; auto|].
  assert ((rom s = concat (map rom ts)) <-> independent (R E [vu]) (R E [tsu; vu]) ts /\ (upcase_katakana o = true -> unmixed ts)) as ->.
  { unfold rom. rewrite <- Qs. assert (independent (R E [vu]) (R E [tsu; vu]) ts -> forall pre y post, ts = pre ++ y :: post -> post <> [] -> keeps_length y) as K.
    { intros I pre y post Q _. apply no_mark_keeps. apply (tokens_depend E _ _ s compact HE) in I. destruct I as [NL _]. rewrite <- Qs, Q, concat_app in NL.
      apply no_long_mark_app in NL. destruct NL as [_ NL]. cbn [concat] in NL. now apply no_long_mark_app in NL. }
    destruct (upcase_katakana o).
    - split.
      + intro Q. pose proof (upper_independent E ts HE NE' Q) as I. split; [exact I|]. intros _. now apply (parts_upper E ts HE NE' I (K I)).
      + intros [I M]. apply (parts_upper E ts HE NE' I (K I)). now apply M.
    - rewrite (parts_plain E ts HE NE'). split; [|now intros [I _]]. intro I. split; [exact I|discriminate]. }
  unfold independent. unfold ts at 1. rewrite (tokens_depend E _ _ s compact HE). fold ts. split.
  - intros [[NL H] M]. split; [exact NL|]. intros C pre y post Q. split; [intros hx hy; exact (H C pre y post hx hy Q)|]. intro Up. exact (M Up pre y post Q).
  - intros [NL H]. split; [split; [exact NL|intros C pre y post hx hy Q; exact (proj1 (H C pre y post Q) hx hy)]|].
    intros Up pre y post Q Mx. destruct (mixes_boundary compact s pre y post Q Mx) as [C _]. exact (proj2 (H C pre y post Q) Up Mx).
Qed.
Theorem tokens_apart_all E o s compact : std_ok E -> no_long_mark s -> compact = true \/ scripts_apart s ->
  exists r rs, to_romaji_with_opt E s o = Ok r /\
    Forall2 (fun t q => to_romaji_with_opt E t o = Ok q) (tokenize_with_opt s compact) rs /\ r = concat rs.
Proof.
  intros HE NL A. destruct (v_romaji E o HE) as [Rv Rtv].
  destruct (tokens_exact_all E o _ _ s compact HE Rv Rtv) as (r & rs & R1 & R2 & X).
  exists r, rs. split; [exact R1|]. split; [exact R2|]. apply X. split; [exact NL|].
  destruct (tokenize_tokenisation s compact) as (Qs & _).
  intros C pre y post Qt. destruct A as [A|A]; [congruence|]. split.
  - intros hx hy Hx Hy F.
    destruct (fused_boundary _ _ compact s pre y post hx hy Qt Hx Hy F) as (_ & x' & a & b & y' & Qx & -> & Ka & Kb & D).
    destruct (A x' a b (y' ++ concat post)) as [A1 A2].
    { rewrite <- Qs, Qt, concat_app, Qx, <- app_assoc. reflexivity. }
    unfold script in D. unfold kana_letter, hiragana_letter, katakana_letter in *.
    destruct (N.leb_spec a 0x3096), (N.leb_spec b 0x3096); try congruence; [apply A1|apply A2]; lia.
  - intros _ Mx. destruct (mixes_boundary compact s pre y post Qt Mx) as (_ & x' & c & y' & Qx & -> & K).
    destruct (A x' (ch "っ") c (y' ++ concat post)) as [A1 _].
    { rewrite <- Qs, Qt, concat_app, Qx, <- app_assoc. reflexivity. }
    apply A1. split; [vm_compute; split; discriminate|exact K].
Qed.
