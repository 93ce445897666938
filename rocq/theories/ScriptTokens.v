(** * Converting to hiragana and katakana token by token (C88, C89) *)
From Coq Require Import PeanoNat.
From Verif Require Import Tac Base Std Constants Chars Trees KanaTree RomajiTree Strings Tokenize Convert
  KanaPure KanaSpec KanaDict KanaProofs MoraProofs Predicates ScriptSpec ScriptProofs ScriptIdem RomajiPure RomajiSpec RomajiProofs
  TokenSpec TokenizeProofs Splits KanaJoinSpec KanaJoin KanaTokens JoinSpec JoinText TokenJoin Exact ExactScript LowerTwice
  FixedSpec Fixed ComposeSpec Compose RoundUp ScriptTokenSpec.

(** ** Letters across a boundary *)
Lemma joins_sep m X Y :
  (forall x' a d y', X = x' ++ [a] -> Y = d :: y' -> In (ascii_lower a) letters -> In (ascii_lower d) letters -> False) ->
  joins m X Y -> open_n m X /\ exists d y', Y = d :: y' /\ (d = 0x27 \/ (m = Ime /\ d = 0x20)).
Proof.
  intro D.
  assert (NL : forall c, n_letter c -> In (ascii_lower c) letters).
  { intros c C. apply n_letter_low in C. rewrite C. apply existsb_In. vm_compute. reflexivity. }
  intros [(x1 & b & b' & y' & k & v & P & -> & N & N' & Nn & C & J)|[(O & M & d & y' & -> & e & L & I)|(O & -> & b' & y' & k & v & -> & C & J)]].
  - exfalso. apply casing_low in C. subst k. destruct (exists_last N) as (b0 & a & ->). rewrite app_assoc in P.
    destruct b' as [|d b']; [congruence|]. cbn [app] in *. rewrite <- app_assoc in J. cbn [app] in J.
    assert (A : In (ascii_lower a) letters) by (apply cons_letter, (key_inner m b0 a (d :: b') v J); discriminate).
    apply (D _ a d (b' ++ y') P eq_refl A). destruct b' as [|f b'].
    + change (b0 ++ [a; d]) with (b0 ++ [a] ++ [d]) in J. rewrite app_assoc, low_snoc in J.
      destruct (key_last _ _ _ _ J) as [H|[H _]]; [rewrite low_snoc; now destruct (low b0)|exact H|]. exfalso.
      apply low_one in H. destruct H as (c & H & H'). apply (Nn c H). now apply n_letter_low.
    + apply cons_letter. apply (key_inner m (b0 ++ [a]) d (f :: b') v); [rewrite <- app_assoc; exact J|discriminate].
  - split; [exact O|]. exists d, y'. split; [reflexivity|]. destruct (open_ends _ _ O) as (x' & c & P & Nc). left. apply lowers_lower in L.
    assert (Dd := D x' c d y' P eq_refl (NL c Nc)).
    change (u "'aiueoy") with (0x27 :: u "aiueoy") in I. destruct I as [I|I].
    + rewrite <- L in I. revert I. unfold ascii_lower. ifs; lia.
    + exfalso. apply Dd. rewrite L. apply existsb_In. revert e I L.
      assert (forallb (fun e => existsb (N.eqb e) letters) (u "aiueoy") = true) as F by reflexivity. rewrite forallb_forall in F.
      intros e I _. exact (F e I).
  - split; [exact O|]. destruct (open_ends _ _ O) as (x' & c & P & Nc). apply casing_low in C. subst k.
    destruct b' as [|d b']; [now apply ime_no_n in J|]. exists d, (b' ++ y'). split; [reflexivity|].
    assert (Dd := D x' c d (b' ++ y') P eq_refl (NL c Nc)). destruct b' as [|f b'].
    + change (ch "n" :: low [d]) with (u "n" ++ [ascii_lower d]) in J.
      destruct (key_last _ _ _ _ J) as [H|[_ H]]; [discriminate|exfalso; exact (Dd H)|].
      destruct H as [H|[_ H]]; [left|right; split; [reflexivity|]]; revert H; unfold ascii_lower; ifs; lia.
    + exfalso. apply Dd, cons_letter. apply (key_inner Ime [ch "n"] d (f :: b') v); [exact J|discriminate].
Qed.
Lemma stop_joins m X d y : open_n m X -> d = 0x27 \/ (m = Ime /\ d = 0x20) -> joins m X (d :: y).
Proof.
  intros O S. destruct m.
  1,2: right; left; split; [exact O|]; split; [discriminate|]; exists d, y; split; [reflexivity|]; destruct S as [->|[S _]]; [|discriminate];
    exists 0x27; split; [now apply lowers_lower|]; vm_compute; auto.
  right; right. split; [exact O|]. split; [reflexivity|]. exists [d], y, [d], (u "ん"). split; [reflexivity|]. split.
  - apply casing_low. destruct S as [->|(_ & ->)]; reflexivity.
  - destruct S as [->|(_ & ->)]; apply pair_mem_In; vm_compute; reflexivity.
Qed.
Lemma token_at compact x' c d y : get_type c compact <> get_type d compact ->
  exists t' post, tokenize_with_opt ((x' ++ [c]) ++ d :: y) compact = tokenize_with_opt (x' ++ [c]) compact ++ (d :: t') :: post.
Proof.
  intro T. pose proof (tokenize_app_diff compact x' c d y T) as A.
  destruct (tokenize_with_opt (d :: y) compact) as [|t post] eqn:B.
  { destruct (tokenize_tokenisation (d :: y) compact) as (Z & _). rewrite B in Z. discriminate. }
  destruct t as [|e t'].
  { exfalso. destruct (tokenize_tokenisation (d :: y) compact) as (_ & NE2 & _). rewrite B in NE2. now apply (NE2 []); [left|]. }
  assert (e = d) as ->.
  { destruct (tokenize_tokenisation (d :: y) compact) as (Z & _). rewrite B in Z. cbn in Z. now injection Z as -> _. }
  exists t', post. rewrite <- app_assoc in *. exact A.
Qed.

(** ** Texts that are rewritten character by character before they are read *)
Definition good (f : N -> str) (c : N) : Prop :=
  (c < 128 /\ f c = [ascii_lower c]) \/ (128 <= c /\ f c <> [] /\ Forall (fun d => 128 <= d) (f c)).
Section Rewritten.
  Variable f : N -> str.
  Lemma last_rewritten x : Forall (good f) x -> forall x' a, flat_map f x = x' ++ [a] -> a < 128 ->
    exists y c, x = y ++ [c] /\ c < 128 /\ a = ascii_lower c /\ x' = flat_map f y.
  Proof.
    intros G x' a Q A. destruct x as [|c x _] using rev_ind; [destruct x'; discriminate Q|]. apply Forall_app in G. destruct G as [_ G].
    inversion G as [|? ? Gc _]; subst. rewrite flat_map_app in Q. cbn [flat_map] in Q. rewrite app_nil_r in Q.
    destruct Gc as [[L Ec]|(_ & N & F)].
    - rewrite Ec in Q. apply app_inj_tail in Q. destruct Q as [<- <-]. exists x, c. auto.
    - exfalso. destruct (exists_last N) as (l & d & Ed). rewrite Ed, app_assoc in Q. apply app_inj_tail in Q. destruct Q as [_ ->].
      rewrite Ed in F. apply Forall_app in F. destruct F as [_ F]. inversion F. lia.
  Qed.
  Lemma first_rewritten x : Forall (good f) x -> forall a x', flat_map f x = a :: x' -> a < 128 ->
    exists c y, x = c :: y /\ c < 128 /\ a = ascii_lower c.
  Proof.
    intros G a x' Q A. destruct x as [|c x]; [discriminate|]. inversion G as [|? ? Gc _]; subst. cbn [flat_map] in Q.
    destruct Gc as [[L Ec]|(_ & N & F)].
    - rewrite Ec in Q. injection Q as <- _. eauto.
    - exfalso. destruct (f c) as [|d l]; [congruence|]. injection Q as -> _. inversion F. lia.
  Qed.
  Lemma n_low c : n_letter (ascii_lower c) <-> n_letter c.
  Proof. unfold n_letter, ascii_lower. ifs; lia. Qed.
  Lemma ends_rewritten (P : N -> Prop) x : (forall c, P c -> c < 128) -> (forall c, P (ascii_lower c) <-> P c) ->
    Forall (good f) x -> ends_in P (flat_map f x) <-> ends_in P x.
  Proof.
    intros A L G. split.
    - intros (x' & a & Q & H). destruct (last_rewritten x G x' a Q (A a H)) as (y & c & -> & _ & -> & _). apply ends_snoc. now apply L.
    - intros (x' & c & -> & H). rewrite flat_map_app. cbn [flat_map]. rewrite app_nil_r. apply Forall_app in G. destruct G as [_ G].
      inversion G as [|? ? Gc _]; subst. destruct Gc as [[_ ->]|[B _]]; [apply ends_snoc; now apply L|]. specialize (A c H). lia.
  Qed.
  Lemma x_ends x : Forall (good f) x -> ends_in x_letter (flat_map f x) <-> ends_in x_letter x.
  Proof. apply ends_rewritten; [exact x_ascii|]. intro c. unfold x_letter, ascii_lower. ifs; lia. Qed.
  Lemma open_rewritten m x : Forall (good f) x -> open_n m (flat_map f x) <-> open_n m x.
  Proof.
    induction x as [|c x IH] using rev_ind; intro G; [reflexivity|]. apply Forall_app in G. destruct G as [G Gc]. specialize (IH G).
    inversion Gc as [|? ? Hc _]; subst. rewrite flat_map_app. cbn [flat_map]. rewrite app_nil_r. destruct Hc as [[L ->]|(B & N & F)].
    - rewrite !open_snoc, n_low, x_ends by exact G. split; intros (H1 & H2 & H3); (split; [exact H1|]); (split; [exact H2|]); intros -> O; apply (H3 eq_refl), IH, O.
    - destruct (exists_last N) as (l & d & Ed). rewrite Ed, app_assoc, !open_snoc. rewrite Ed in F. apply Forall_app in F. destruct F as [_ F].
      inversion F; subst. split; intros (H & _); exfalso; apply n_ascii in H; lia.
  Qed.

  Lemma concat_rewritten ts : concat (map (flat_map f) ts) = flat_map f (concat ts).
  Proof. induction ts as [|t ts IH]; [reflexivity|]. cbn [map concat]. now rewrite IH, flat_map_app. Qed.

  Theorem tokens_join m g s : harmless g -> Forall (good f) s ->
    map g (conv m (flat_map f s)) = map g (concat (map (fun t => conv m (flat_map f t)) (tokenize s))) <-> n_apart m s.
  Proof.
    intros Hg G. unfold tokenize. destruct (tokenize_tokenisation s false) as (Qs & NE & _ & Sep).
    remember (tokenize_with_opt s false) as ts eqn:Ets.
    assert (Gt : forall t, In t ts -> Forall (good f) t).
    { intros t I. rewrite Forall_forall in *. intros c J. apply G. rewrite <- Qs. apply in_concat. eauto. }
    assert (Gc : forall pre t post, ts = pre ++ t :: post -> Forall (good f) (concat pre)).
    { intros pre t post Q. rewrite Forall_forall in *. intros c J. apply G. rewrite <- Qs, Q, concat_app. apply in_or_app. now left. }
    assert (NE' : Forall (fun t => t <> []) (map (flat_map f) ts)).
    { apply Forall_forall. intros x I. apply in_map_iff in I. destruct I as (t & <- & I). specialize (NE t I). specialize (Gt t I).
      destruct t as [|c t]; [congruence|]. cbn [flat_map]. inversion Gt as [|? ? Gd _]; subst. destruct Gd as [[_ ->]|(_ & N & _)]; [discriminate|]. now destruct (f c). }
    pose proof (parts_conv_map m g _ Hg [] (map (flat_map f) ts) (Nat.lt_succ_diag_r _) NE') as P.
    change (kconv (tree_of m) []) with (@nil N) in P. cbn [app map] in P.
    rewrite concat_rewritten, map_map in P. rewrite Qs in P. rewrite P. clear P. split.
    - intros H x d y Q O. assert (S : d = 0x27 \/ (m = Ime /\ d = 0x20) -> False).
      { intro S. destruct (open_ends _ _ O) as (x' & c & -> & Nc).
        assert (T : get_type c false <> get_type d false).
        { rewrite (n_type c false Nc). destruct S as [->|[_ ->]]; vm_compute; discriminate. }
        destruct (token_at false x' c d y T) as (t' & post & A). rewrite <- Q, <- Ets in A.
        assert (Cx : concat (tokenize_with_opt (x' ++ [c]) false) = x' ++ [c]) by (destruct (tokenize_tokenisation (x' ++ [c]) false) as (Z & _); exact Z).
        pose proof (Gc _ _ _ A) as Gx. rewrite Cx in Gx.
        apply (H (map (flat_map f) (tokenize_with_opt (x' ++ [c]) false)) (flat_map f (d :: t')) (map (flat_map f) post)).
        { rewrite A, map_app. reflexivity. }
        rewrite concat_rewritten, Cx. cbn [flat_map]. assert (f d = [d]) as ->.
        { assert (In (d :: t') ts) as I by (rewrite A; apply in_or_app; right; now left). specialize (Gt _ I). inversion Gt as [|? ? Gd _]; subst.
          destruct Gd as [[_ ->]|[Gd _]]; destruct S as [->|[_ ->]]; try reflexivity; lia. }
        apply stop_joins; [|exact S]. now apply open_rewritten. }
      split; [intros ->; apply S; now left|]. intro Z. apply S. now right.
    - intros H pre t post Q J. apply map_eq_app in Q. destruct Q as (p & q & Q & <- & Qq). apply map_eq_cons in Qq. destruct Qq as (t0 & q' & -> & <- & <-).
      rewrite concat_rewritten in J.
      assert (It : In t0 ts) by (rewrite Q; apply in_or_app; right; now left).
      assert (Sub : s = concat p ++ t0 ++ concat q') by (rewrite <- Qs, Q, concat_app; reflexivity).
      apply joins_sep in J.
      + destruct J as (O & d & y' & Y & S). rewrite (open_rewritten m (concat p) (Gc _ _ _ Q)) in O.
        destruct (first_rewritten t0 (Gt _ It) d y' Y) as (c & y & -> & C & D); [destruct S as [->|[_ ->]]; lia|].
        destruct (H (concat p) c (y ++ concat q')) as [H1 H2]; [exact Sub|exact O|]. change (ch "'") with 0x27 in H1. change (ch " ") with 0x20 in H2.
        clear - C D S H1 H2. revert D. unfold ascii_lower. ifs; intro D; destruct S as [->|[M ->]]; try lia; apply H2; split; auto.
      + intros x' a d y' X Y A D.
        assert (Lt : forall c, In c letters -> c < 128).
        { assert (forallb (fun c => c <? 128) letters = true) as F by reflexivity. rewrite forallb_forall in F. intros c I. apply N.ltb_lt, F, I. }
        assert (Al : forall c, ascii_lower c < 128 -> c < 128) by (intro c; unfold ascii_lower; ifs; lia).
        destruct (last_rewritten _ (Gc _ _ _ Q) x' a X) as (p0 & c & Qp & C & -> & _); [apply Al, Lt, A|].
        destruct (first_rewritten _ (Gt _ It) d y' Y) as (e & y & -> & Ce & ->); [apply Al, Lt, D|].
        rewrite lower_lower in A, D. apply (letter_type c false) in A. apply (letter_type e false) in D.
        destruct (list_eq_dec (list_eq_dec N.eq_dec) p []) as [->|Np]; [destruct p0; discriminate Qp|].
        destruct (exists_last Np) as (p' & w & ->). assert (w <> []) as Nw by (apply NE; rewrite Q; apply in_or_app; left; apply in_or_app; right; now left).
        destruct (exists_last Nw) as (w' & a' & ->). rewrite concat_app in Qp. cbn [concat] in Qp. rewrite app_nil_r, app_assoc in Qp.
        apply app_inj_tail in Qp. destruct Qp as [_ ->].
        refine (Sep p' (w' ++ [c]) (e :: y) q' _ w' c e y eq_refl eq_refl _); [rewrite Q, <- app_assoc; reflexivity|].
        unfold ty. congruence.
  Qed.
End Rewritten.

(** ** Counting characters *)
Definition count (p : N -> bool) (x : str) : nat := length (filter p x).
Lemma count_app p a b : count p (a ++ b) = (count p a + count p b)%nat.
Proof. unfold count. now rewrite filter_app, app_length. Qed.
Lemma count_cons p c s : count p (c :: s) = ((if p c then 1 else 0) + count p s)%nat.
Proof. unfold count. cbn [filter]. now destruct (p c). Qed.
Lemma count_map p g s : (forall c, In c s -> p (g c) = p c) -> count p (map g s) = count p s.
Proof.
  induction s as [|c s IH]; intro H; [reflexivity|]. cbn [map]. rewrite !count_cons, IH by (intros d I; apply H; now right). rewrite H by now left. reflexivity.
Qed.
Lemma count_none p s : count p s = 0%nat <-> forall c, In c s -> p c = false.
Proof.
  induction s as [|c s IH]; [split; [intros _ c []|reflexivity]|]. rewrite count_cons. split.
  - intros H d [<-|I]; [destruct (p c); [lia|reflexivity]|]. apply IH; [lia|exact I].
  - intro H. rewrite (H c) by now left. apply IH. intros d I. apply H. now right.
Qed.
Lemma count_up p (F : str -> str) ts : (forall t, In t ts -> (count p t <= count p (F t))%nat) ->
  count p (concat (map F ts)) = count p (concat ts) -> forall t, In t ts -> count p (F t) = count p t.
Proof.
  induction ts as [|t ts IH]; intros H Q x I; [destruct I|]. cbn [map concat] in Q. rewrite !count_app in Q.
  assert (B : (count p (concat ts) <= count p (concat (map F ts)))%nat).
  { assert (H' : forall t, In t ts -> (count p t <= count p (F t))%nat) by (intros; apply H; now right). clear - H'.
    induction ts as [|t ts IH]; [reflexivity|]. cbn [map concat]. rewrite !count_app. pose proof (H' t (or_introl eq_refl)).
    assert (count p (concat ts) <= count p (concat (map F ts)))%nat by (apply IH; intros; apply H'; now right). lia. }
  pose proof (H t (or_introl eq_refl)). destruct I as [<-|I]; [lia|]. apply IH; [intros; apply H; now right|lia|exact I].
Qed.
Lemma count_down p (F : str -> str) ts : (forall t, In t ts -> (count p (F t) <= count p t)%nat) ->
  count p (concat (map F ts)) = count p (concat ts) -> forall t, In t ts -> count p (F t) = count p t.
Proof.
  induction ts as [|t ts IH]; intros H Q x I; [destruct I|]. cbn [map concat] in Q. rewrite !count_app in Q.
  assert (B : (count p (concat (map F ts)) <= count p (concat ts))%nat).
  { assert (H' : forall t, In t ts -> (count p (F t) <= count p t)%nat) by (intros; apply H; now right). clear - H'.
    induction ts as [|t ts IH]; [reflexivity|]. cbn [map concat]. rewrite !count_app. pose proof (H' t (or_introl eq_refl)).
    assert (count p (concat (map F ts)) <= count p (concat ts))%nat by (apply IH; intros; apply H'; now right). lia. }
  pose proof (H t (or_introl eq_refl)). destruct I as [<-|I]; [lia|]. apply IH; [intros; apply H; now right|lia|exact I].
Qed.
Lemma count_sum p (F : str -> str) ts : (forall t, In t ts -> count p (F t) = count p t) -> count p (concat (map F ts)) = count p (concat ts).
Proof.
  induction ts as [|t ts IH]; intro H; [reflexivity|]. cbn [map concat]. rewrite !count_app, IH, (H t); [reflexivity|now left|]. intros; apply H; now right.
Qed.

(** Japanese characters: every value of the dictionary has some *)
Definition big (c : N) : bool := 0x3000 <=? c.
Definition big_value (e : str * str) : bool :=
  existsb big (snd e) && existsb (fun c => big (h2k_char c)) (snd e) && negb (existsb big (fst e)).
Lemma big_values m : forallb big_value (dict m) = true.
Proof. destruct m; vm_compute; reflexivity. Qed.
Lemma count_some p s : existsb p s = true -> (1 <= count p s)%nat.
Proof. induction s as [|c s IH]; [discriminate|]. cbn [existsb]. rewrite count_cons. destruct (p c); [lia|]. cbn [orb]. intro H. apply IH in H. lia. Qed.
Lemma existsb_map {A B} (p : B -> bool) (g : A -> B) s : existsb p (map g s) = existsb (fun c => p (g c)) s.
Proof. induction s as [|c s IH]; [reflexivity|]. cbn. now rewrite IH. Qed.
Lemma big_entry m q v : entry m (low q) v -> (1 <= count big (emit q v))%nat /\ count big q = 0%nat.
Proof.
  intro I. pose proof (big_values m) as F. rewrite forallb_forall in F. specialize (F _ I). unfold big_value in F. cbn [fst snd] in F.
  apply andb_prop in F. destruct F as [F F3]. apply andb_prop in F. destruct F as [F1 F2]. split.
  - apply count_some. unfold emit. destruct (forallb is_AZ q); [|exact F1]. unfold h2k. now rewrite existsb_map.
  - apply count_none. intros c J. apply negb_true_iff, not_true_iff_false in F3. apply not_true_iff_false. intro B. apply F3.
    apply existsb_exists. exists (ascii_lower c). split; [unfold low; now apply in_map|]. revert B. unfold big, ascii_lower. ifs; lia.
Qed.
Lemma big_conv m y : (count big y <= count big (conv m y))%nat /\ (count big (conv m y) = count big y -> conv m y = y).
Proof.
  induction y as [y IH] using str_ind_len. destruct y as [|c y]; [assert (conv m [] = []) as K by apply kconv_nil; rewrite K; auto|].
  destruct (longest_exists m (c :: y)) as (q & Lq). destruct (entry_dec m (low q)) as [[v I]|I].
  - destruct (proj1 Lq) as (r & Q). rewrite Q in *. rewrite (conv_hit m q r v Lq I), !count_app. destruct (big_entry m q v I) as [B1 B2].
    destruct (IH r) as [IH1 _]; [rewrite app_length; pose proof (keys_nonempty _ _ _ I); destruct q; [now contradiction H|cbn; lia]|]. split; lia.
  - rewrite (conv_miss m q c y Lq I), !count_cons. destruct (IH y) as [IH1 IH2]; [cbn; lia|]. split; [lia|]. intro H. f_equal. apply IH2. lia.
Qed.
Lemma big_h2k s : count big (h2k s) = count big s.
Proof.
  apply count_map. intros c _. destruct (h2k_char_cases c) as [->|[Q ->]]; [reflexivity|]. unfold big, hiragana_letter in *. lia.
Qed.

(** ** The kinds of tokens *)
Lemma label_kinds k c d : label_spec k c -> label_spec k d -> S_romaji c ->
  S_romaji d \/ (k = Space /\ d = 0x3000) \/ (k = EnPunc /\ smart_quote d).
Proof.
  intros Lc Ld C. destruct (is_char_romaji d) eqn:R; [left; now apply romaji_spec|right].
  assert (Nd : ~ S_romaji d) by (rewrite <- romaji_spec; congruence).
  destruct k; cbn [label_spec] in Lc, Ld.
  all: try (exfalso; tauto).
  all: try (exfalso; clear - C Lc; revert C; unfold S_romaji, S_japanese, S_ja_punct, S_ja_number, S_kanji, Predicates.between in *; change (u "ĀāĒēĪīŌōŪū") with [0x100; 0x101; 0x112; 0x113; 0x12A; 0x12B; 0x14C; 0x14D; 0x16A; 0x16B]; cbn [In]; lia).
  - exfalso. apply Nd. left. unfold Predicates.between in Ld. lia.
  - right. split; [reflexivity|]. apply ep_not_romaji; [apply en_punct_spec; tauto|exact R].
  - left. split; [reflexivity|]. destruct Ld as [->|Ld]; [exfalso; apply Nd; left; lia|exact Ld].
Qed.

Lemma token_label s t c d : In t (tokenize s) -> In c t -> In d t -> exists k, label_spec k c /\ label_spec k d.
Proof.
  intros I C D. destruct (tokenize_tokenisation s false) as (_ & _ & H & _). specialize (H t I c d C D). unfold ty in H.
  exists (get_type c false). split; [apply detailed_label|]. rewrite H. apply detailed_label.
Qed.
Lemma kana_romaji c : S_hiragana c \/ S_katakana c -> ~ S_romaji c.
Proof.
  intros H R. apply romaji_low in R. unfold S_hiragana, S_katakana, Predicates.between in H. lia.
Qed.
Lemma token_not_mixed s t : In t (tokenize s) -> ~ mixed_text t.
Proof.
  intros I [(c & C & Kc) (d & D & Rd)]. destruct (token_label s t d c I D C) as (k & Lc & Ld).
  destruct (label_kinds k d c Lc Ld Rd) as [R|[[_ R]|[_ R]]]; [exact (kana_romaji c Kc R)| |].
  - subst. unfold S_hiragana, S_katakana, Predicates.between in Kc. lia.
  - revert R. unfold smart_quote. change (u "‘’“”") with [0x2018; 0x2019; 0x201C; 0x201D]. cbn [In].
    unfold S_hiragana, S_katakana, Predicates.between in Kc. lia.
Qed.
(** a token is all romaji, or has no romaji at all, or consists of spaces or of punctuation *)
Lemma token_kinds s t : In t (tokenize s) ->
  Forall S_romaji t \/ Forall (fun c => ~ S_romaji c) t \/
  Forall (fun c => c = 0x20 \/ c = 0x3000) t \/ Forall S_en_punct t.
Proof.
  intro I. destruct (forallb is_char_romaji t) eqn:R.
  { left. apply Forall_forall. intros c J. rewrite forallb_forall in R. now apply romaji_spec, R. }
  right. destruct (existsb is_char_romaji t) eqn:X.
  2: { left. apply Forall_forall. intros c J Rc. apply romaji_spec in Rc. apply not_true_iff_false in X. apply X. apply existsb_exists. eauto. }
  right. apply existsb_exists in X. destruct X as (c & C & Rc). apply romaji_spec in Rc.
  assert (exists d, In d t /\ ~ S_romaji d) as (d & D & Rd).
  { clear - R. induction t as [|a t IH]; [discriminate|]. cbn [forallb] in R. destruct (is_char_romaji a) eqn:A.
    - destruct (IH R) as (d & D & H). exists d. split; [now right|exact H].
    - exists a. split; [now left|]. rewrite <- romaji_spec. congruence. }
  assert (K : exists k, (k = Space \/ k = EnPunc) /\ forall x, In x t -> label_spec k x).
  { exists (get_type c false). destruct (tokenize_tokenisation s false) as (_ & _ & H & _). specialize (H t I).
    assert (L : forall x, In x t -> label_spec (get_type c false) x).
    { intros x Jx. specialize (H c x C Jx). unfold ty in H. rewrite H. apply detailed_label. }
    split; [|exact L]. destruct (label_kinds _ c d (L c C) (L d D) Rc) as [Z|[[Z _]|[Z _]]]; [contradiction|auto|auto]. }
  destruct K as (k & [-> | ->] & L); [left|right]; apply Forall_forall; intros x Jx; specialize (L x Jx); cbn [label_spec] in L; tauto.
Qed.

(** ** Text that is not read *)
Definition quiet (c : N) : Prop := c = 0x20 \/ (0x80 <= c /\ ~ smart_quote c).
Definition quiet_b (c : N) : bool := (c =? 0x20) || ((0x80 <=? c) && negb (existsb (N.eqb c) (u "‘’“”"))).
Lemma first_not_quiet m : forallb (fun e => match fst e with c :: _ => negb (quiet_b c) | [] => false end) (dict m) = true.
Proof. destruct m; vm_compute; reflexivity. Qed.
Lemma quiet_conv m t : (forall c, In c t -> quiet c) -> conv m t = t.
Proof.
  intro H. apply kana_fixed. intros x b k v y -> C J. exfalso. apply casing_low in C. subst k.
  pose proof (first_not_quiet m) as F. rewrite forallb_forall in F. specialize (F _ J). cbn [fst] in F.
  destruct b as [|c b]; [discriminate F|]. cbn [low map] in F. apply negb_true_iff, not_true_iff_false in F. apply F.
  assert (Q : quiet c) by (apply H; apply in_or_app; right; now left). unfold quiet_b. destruct Q as [->|[B Q]]; [reflexivity|].
  assert (ascii_lower c = c) as -> by (unfold ascii_lower; ifs; lia). apply orb_true_iff. right. apply andb_true_iff. split; [now apply N.leb_le|].
  apply negb_true_iff, not_true_iff_false. intro Z. apply Q. now apply existsb_In.
Qed.
Lemma big_lists : forallb (fun c => negb (big c)) (u "ĀāĒēĪīŌōŪū" ++ u " !""#$%&'()*+,-./:;<=>?[\]^_`{|}~‘’“”") = true.
Proof. vm_compute. reflexivity. Qed.

(** ** Lower case *)
Section Lib.
  Variable E : std.
  Hypothesis HE : std_ok E.
  Lemma lower_one c : to_lowercase E [c] = lower_char E c.
  Proof.
    unfold to_lowercase. cbn [to_lowercase_from case_ignorable_then_cased andb]. rewrite app_nil_r. destruct (c =? SIGMA) eqn:Z; [|reflexivity].
    apply N.eqb_eq in Z. subst c. now rewrite (proj1 (ok_lower_sigma E HE)).
  Qed.
  Lemma lower_chars s : ~ In SIGMA s -> to_lowercase E s = flat_map (lower_char E) s.
  Proof.
    unfold to_lowercase. generalize (@nil N) as b. induction s as [|c s IH]; intros b H; [reflexivity|]. cbn [to_lowercase_from flat_map].
    rewrite IH by (intro I; apply H; now right). destruct (c =? SIGMA) eqn:Z; [|reflexivity]. exfalso. apply H. left. now apply N.eqb_eq in Z.
  Qed.
  Lemma sigma_not_romaji : ~ S_romaji SIGMA.
  Proof. rewrite <- romaji_spec. vm_compute. discriminate. Qed.
  Lemma tame_sigma s : others_lower (to_lowercase E) s -> ~ In SIGMA s.
  Proof. intros T I. specialize (T _ I sigma_not_romaji). rewrite lower_one, (proj1 (ok_lower_sigma E HE)) in T. discriminate T. Qed.
  Lemma tame_part s t : others_lower (to_lowercase E) s -> (forall c, In c t -> In c s) -> others_lower (to_lowercase E) t.
  Proof. intros T H c I. apply T. now apply H. Qed.
  Lemma macrons c : S_romaji c -> c <> 0x130 /\ c <> 0x212A.
  Proof. intro R. apply romaji_spec in R. split; intros ->; vm_compute in R; discriminate R. Qed.
  Lemma good_lower s : others_lower (to_lowercase E) s -> Forall (good (lower_char E)) s.
  Proof.
    intro T. apply Forall_forall. intros c I. destruct (N.lt_ge_cases c 128) as [L|L]; [left; split; [exact L|now apply ok_lower_ascii]|].
    right. split; [exact L|]. split; [now apply ok_lower_some|]. apply Forall_forall. intros d D. destruct (N.lt_ge_cases d 128) as [L'|L']; [exfalso|exact L'].
    destruct (is_char_romaji c) eqn:R.
    - apply romaji_spec, macrons in R. destruct (ok_lower_to_ascii E HE c d L D L'); tauto.
    - assert (~ S_romaji c) as R' by (rewrite <- romaji_spec; congruence). specialize (T c I R'). rewrite lower_one in T. rewrite T in D.
      destruct D as [<-|[]]. lia.
  Qed.
  Lemma tame_same t : others_lower (to_lowercase E) t -> (forall c, In c t -> ~ S_romaji c) -> to_lowercase E t = t.
  Proof.
    intros T R. apply lowered_same; [exact HE|]. intros c I. rewrite <- lower_one. now apply T; [|apply R].
  Qed.

  (** upper-case romaji *)
  Definition up_b (c : N) : bool := is_char_romaji c && negb (str_eqb (lower_char E c) [c]).
  Lemma up_lowered y : lowered E y -> count up_b y = 0%nat.
  Proof.
    intro L. apply count_none. intros c I. unfold up_b. specialize (L c I). apply str_eqb_eq in L. rewrite L. apply andb_false_r.
  Qed.
  Lemma up_romaji t : Forall S_romaji t -> count up_b t = 0%nat -> to_lowercase E t = t.
  Proof.
    intros F C. apply lowered_same; [exact HE|]. intros c I. rewrite Forall_forall in F. specialize (F c I). apply romaji_spec in F.
    pose proof (proj1 (count_none _ _) C c I) as U. unfold up_b in U. rewrite F in U. cbn [andb] in U. apply negb_false_iff in U. now apply str_eqb_eq.
  Qed.
  Lemma up_kana c d : S_hiragana c \/ S_katakana c -> S_hiragana d \/ S_katakana d -> up_b c = up_b d.
  Proof.
    intros C D. unfold up_b. assert (is_char_romaji c = false) as -> by (apply not_true_iff_false; rewrite romaji_spec; now apply kana_romaji).
    assert (is_char_romaji d = false) as -> by (apply not_true_iff_false; rewrite romaji_spec; now apply kana_romaji). reflexivity.
  Qed.
  Lemma up_h2k s : count up_b (h2k s) = count up_b s.
  Proof.
    apply count_map. intros c _. destruct (h2k_char_cases c) as [->|[Q ->]]; [reflexivity|]. unfold hiragana_letter in Q.
    apply up_kana; [right; unfold S_katakana, Predicates.between; lia|left; left; unfold Predicates.between; lia].
  Qed.
  Lemma harmless_h2k : harmless h2k_char.
  Proof.
    split; [|split].
    - intros c L. destruct (h2k_char_cases c) as [Q|[Q _]]; [exact Q|]. unfold hiragana_letter in Q. lia.
    - intros c L. destruct (h2k_char_cases c) as [Q|[Q ->]]; [now rewrite Q|]. unfold hiragana_letter in Q. lia.
    - intros h k I Q. assert (h2k_char k = 0x30F3) as K by (destruct I as [<-|[<-|[]]]; vm_compute; reflexivity). rewrite K in Q.
      change (u "んン") with [0x3093; 0x30F3]. destruct (h2k_char_cases h) as [Z|[_ Z]]; rewrite Z in Q; cbn [In]; lia.
  Qed.
End Lib.

Lemma in_token s t c : In t (tokenize s) -> In c t -> In c s.
Proof.
  intros I C. destruct (tokenize_tokenisation s false) as (Q & _). rewrite <- Q. apply in_concat. exists t. split; [exact I|exact C].
Qed.
Lemma token_of s c : In c s -> exists t, In t (tokenize s) /\ In c t.
Proof.
  intro I. destruct (tokenize_tokenisation s false) as (Q & _). rewrite <- Q in I. apply in_concat in I. destruct I as (t & J & K). exists t. auto.
Qed.
Lemma token_some s t : In t (tokenize s) -> t <> [].
Proof. destruct (tokenize_tokenisation s false) as (_ & H & _). exact (H t). Qed.
Lemma tokens_concat s : concat (tokenize s) = s.
Proof. destruct (tokenize_tokenisation s false) as (H & _). exact H. Qed.
Lemma romaji_token s t : In t (tokenize s) -> is_romaji t = true <-> Forall S_romaji t.
Proof.
  intro I. rewrite romaji_text_spec. unfold all_nonempty. rewrite Forall_forall. split; [tauto|]. intro H. split; [exact (token_some s t I)|exact H].
Qed.
Lemma mixed_token s t : In t (tokenize s) -> is_mixed t = false.
Proof. intro I. apply not_true_iff_false. rewrite mixed_spec. exact (token_not_mixed s t I). Qed.
Lemma map_ext_tokens {B} (F G : str -> B) ts : (forall t, In t ts -> F t = G t) -> map F ts = map G ts.
Proof. apply map_ext_in. Qed.
Lemma quote_number d : smart_quote d -> 0x2018 <= d <= 0x201D.
Proof. unfold smart_quote. change (u "‘’“”") with [0x2018; 0x2019; 0x201C; 0x201D]. cbn [In]. lia. Qed.
Lemma conv_no_quote m y d : In d (conv m y) -> ~ smart_quote d.
Proof.
  revert d. induction y as [y IH] using str_ind_len. destruct y as [|c y]; [assert (conv m [] = []) as K by apply kconv_nil; rewrite K; intros d []|].
  intros d I Q. destruct (longest_exists m (c :: y)) as (q & Lq). destruct (entry_dec m (low q)) as [[v J]|J].
  - destruct (proj1 Lq) as (r & Er). rewrite Er in *. rewrite (conv_hit m q r v Lq J) in I. apply in_app_or in I. destruct I as [I|I].
    + apply (emit_inert m q v J) in I. destruct (Fixed.quote_entry m d Q) as (w & W). apply (I [d] w d W); [|now left].
      apply lowers_lower. pose proof (quote_number d Q). unfold ascii_lower. ifs; lia.
    + revert I Q. apply IH. rewrite app_length. pose proof (keys_nonempty _ _ _ J). destruct q; [now contradiction H|cbn; lia].
  - rewrite (conv_miss m q c y Lq J) in I. destruct I as [<-|I]; [|revert I Q; apply IH; cbn; lia].
    destruct (Fixed.quote_entry m c Q) as (w & W). pose proof (quote_number c Q) as Nc.
    assert (low [c] = [c]) as Lc by (cbn; f_equal; unfold ascii_lower; ifs; lia).
    assert (V : viable m [c]) by (apply (entry_viable m [c] w); now rewrite Lc).
    destruct Lq as ((r & Er) & Vq & M). specialize (M [c] y eq_refl V). destruct q as [|c' q]; [cbn in M; lia|]. injection Er as <- Er.
    destruct q as [|e q]; [apply (J w); now rewrite Lc|]. apply viable_cons_low in Vq; [lia|discriminate].
Qed.

Section Kata.
  Variables (E : std) (o : options).
  Hypotheses (HE : std_ok E) (P : pass_romaji o = false).
  Notation m := (mode_of o).
  Notation K := (kata_pure E o).
  Lemma kata_read t : is_romaji t || is_mixed t = true -> K t = h2k (conv m (to_lowercase E t)).
  Proof. intro R. unfold kata_pure. now rewrite P, R, k_tree_mode. Qed.
  Lemma kata_kept t : is_romaji t || is_mixed t = false -> K t = h2k t.
  Proof. intro R. unfold kata_pure. now rewrite P, R. Qed.
  Lemma kata_romaji_token s t : In t (tokenize s) -> Forall S_romaji t -> K t = h2k (conv m (to_lowercase E t)).
  Proof. intros I F. apply kata_read. apply (romaji_token s t I) in F. now rewrite F. Qed.
  Lemma kata_other_token s t : In t (tokenize s) -> ~ Forall S_romaji t -> K t = h2k t.
  Proof.
    intros I F. apply kata_kept. rewrite (mixed_token s t I). rewrite <- (romaji_token s t I) in F. apply not_true_iff_false in F. now rewrite F.
  Qed.
  Lemma romaji_dec t : Forall S_romaji t \/ ~ Forall S_romaji t.
  Proof.
    destruct (forallb is_char_romaji t) eqn:R.
    - left. apply Forall_forall. intros c I. rewrite forallb_forall in R. now apply romaji_spec, R.
    - right. intro F. apply not_true_iff_false in R. apply R. apply forallb_forall. intros c I. rewrite Forall_forall in F. now apply romaji_spec, F.
  Qed.

  Theorem kata_tokens_read s : all_nonempty S_romaji s \/ mixed_text s ->
    (K s = concat (map K (tokenize s)) <->
     n_apart m s /\ others_lower (to_lowercase E) s /\ forall c, In c s -> ~ smart_quote c).
  Proof.
    intro B. assert (B' : is_romaji s || is_mixed s = true) by (apply orb_true_iff; rewrite romaji_text_spec, mixed_spec; exact B).
    assert (J : others_lower (to_lowercase E) s -> (forall c, In c s -> ~ smart_quote c) -> (K s = concat (map K (tokenize s)) <-> n_apart m s)).
    { intros T Q. rewrite (kata_read s B'), (lower_chars E s (tame_sigma E HE s T)).
      rewrite <- (tokens_join (lower_char E) m h2k_char s harmless_h2k (good_lower E HE s T)). unfold h2k at 1.
      assert (map K (tokenize s) = map (fun t => h2k (conv m (flat_map (lower_char E) t))) (tokenize s)) as ->.
      { apply map_ext_tokens. intros t I. assert (Tt : others_lower (to_lowercase E) t) by (apply (tame_part E s t T); intro c; now apply in_token).
        rewrite <- (lower_chars E t (tame_sigma E HE t Tt)).
        destruct (romaji_dec t) as [R|R]; [now apply (kata_romaji_token s t)|]. rewrite (kata_other_token s t I R). f_equal.
        assert (Z : to_lowercase E t = t /\ forall c, In c t -> quiet c).
        { destruct (token_kinds s t I) as [Z|[Z|[Z|Z]]]; [contradiction| | |].
          - rewrite Forall_forall in Z. split; [now apply tame_same|]. intros c C. right. split; [|apply Q; now apply (in_token s t)].
            destruct (N.lt_ge_cases c 0x80) as [L|L]; [|exact L]. exfalso. apply (Z c C). left. lia.
          - rewrite Forall_forall in Z. split.
            + apply lowered_same; [exact HE|]. intros c C. destruct (Z c C) as [-> | ->]; [now apply ok_lower_ascii|now apply ok_lower_caseless].
            + intros c C. destruct (Z c C) as [-> | ->]; [now left|]. right. split; [lia|]. intro X. apply quote_number in X. lia.
          - exfalso. apply R. rewrite Forall_forall in *. intros c C. destruct (is_char_romaji c) eqn:Rc; [now apply romaji_spec|]. exfalso.
            apply (Q c (in_token s t c I C)). apply ep_not_romaji; [apply en_punct_spec; now apply Z|exact Rc]. }
        destruct Z as [-> Z]. symmetry. now apply quiet_conv. }
      assert (forall ts, concat (map (fun t => h2k (conv m (flat_map (lower_char E) t))) ts) = map h2k_char (concat (map (fun t => conv m (flat_map (lower_char E) t)) ts))) as ->; [|reflexivity].
      intro ts. induction ts as [|t ts IH]; [reflexivity|]. cbn [map concat]. rewrite IH, map_app. reflexivity. }
    split; [|intros (A & T & Q); now apply J].
    intro Q. assert (Low : lowered E (K s)).
    { rewrite (kata_read s B'). apply h2k_lowered; [exact HE|]. apply conv_lowered; [exact HE|]. now apply to_lowercase_lowered. }
    assert (Keep : forall c, In c s -> ~ S_romaji c -> h2k_char c = c -> In c (K s)).
    { intros c I R H. destruct (token_of s c I) as (t & It & C). rewrite Q. apply in_concat. exists (K t). split; [now apply in_map|].
      rewrite (kata_other_token s t It). 2: { intro F. rewrite Forall_forall in F. exact (R (F c C)). }
      rewrite <- H. unfold h2k. now apply in_map. }
    assert (T : others_lower (to_lowercase E) s).
    { intros c I R. rewrite lower_one by exact HE. destruct (h2k_char_cases c) as [H|[H _]].
      - now apply Low, Keep.
      - apply ok_lower_caseless; [exact HE|]. unfold caseless, hiragana_letter in *. lia. }
    assert (Nq : forall c, In c s -> ~ smart_quote c).
    { intros c I S. pose proof (quote_number c S) as Nc. assert (H : h2k_char c = c).
      { destruct (h2k_char_cases c) as [H|[H _]]; [exact H|]. unfold hiragana_letter in H. lia. }
      assert (~ S_romaji c) as R by (intro R; apply romaji_spec in R; revert S; intro S; pose proof (quote_punct c S) as U; clear - R S;
        unfold smart_quote in S; cbn [In] in S; repeat (destruct S as [<-|S]; [vm_compute in R; discriminate R|]); destruct S).
      pose proof (Keep c I R H) as Z. rewrite (kata_read s B') in Z. unfold h2k in Z. apply in_map_iff in Z. destruct Z as (d & D & Z).
      assert (d = c) as ->.
      { destruct (h2k_char_cases d) as [X|[X Y]]; [congruence|]. unfold hiragana_letter in X. lia. }
      exact (conv_no_quote m _ c Z S). }
    split; [|split; [exact T|exact Nq]]. now apply J.
  Qed.

  Theorem kata_tokens_kept s : ~ (all_nonempty S_romaji s \/ mixed_text s) ->
    (K s = concat (map K (tokenize s)) <->
     forall t, In t (tokenize s) -> Forall S_romaji t -> to_lowercase E t = t /\ untouched m t).
  Proof.
    intro B. assert (B' : is_romaji s || is_mixed s = false).
    { apply not_true_iff_false. rewrite orb_true_iff, romaji_text_spec, mixed_spec. exact B. }
    rewrite (kata_kept s B'). split.
    - intro Q.
      assert (R1 : forall t, In t (tokenize s) -> count big (K t) = count big t).
      { apply count_up; [|rewrite tokens_concat, <- Q; apply big_h2k]. intros t I. destruct (romaji_dec t) as [R|R].
        - assert (count big t = 0%nat) as ->; [|lia]. apply count_none. intros c C. rewrite Forall_forall in R. specialize (R c C).
          apply romaji_low in R. unfold big. apply N.leb_gt. lia.
        - rewrite (kata_other_token s t I R), big_h2k. lia. }
      assert (R2 : forall t, In t (tokenize s) -> count (up_b E) (K t) = count (up_b E) t).
      { apply count_down; [|rewrite tokens_concat, <- Q; apply up_h2k]. intros t I. destruct (romaji_dec t) as [R|R].
        - rewrite (kata_romaji_token s t I R), up_h2k. rewrite up_lowered; [lia|]. apply conv_lowered; [exact HE|]. now apply to_lowercase_lowered.
        - rewrite (kata_other_token s t I R), up_h2k. lia. }
      intros t I R. specialize (R1 t I). specialize (R2 t I). rewrite (kata_romaji_token s t I R) in R1, R2. rewrite big_h2k in R1. rewrite up_h2k in R2.
      assert (Z : count big t = 0%nat).
      { apply count_none. intros c C. rewrite Forall_forall in R. specialize (R c C). apply romaji_low in R. unfold big. apply N.leb_gt. lia. }
      assert (L : to_lowercase E t = t).
      { apply up_romaji; [exact HE|exact R|]. rewrite <- R2. apply up_lowered. apply conv_lowered; [exact HE|]. now apply to_lowercase_lowered. }
      split; [exact L|]. rewrite L in R1. apply kana_fixed. now apply big_conv.
    - intro H. assert (map K (tokenize s) = map h2k (tokenize s)) as ->.
      { apply map_ext_tokens. intros t I. destruct (romaji_dec t) as [R|R]; [|now apply (kata_other_token s t)].
        rewrite (kata_romaji_token s t I R). destruct (H t I R) as [-> U]. now rewrite (untouched_conv m t U). }
      rewrite <- (tokens_concat s) at 1. unfold h2k. apply concat_map.
  Qed.
End Kata.

Lemma dashes_count x : dashes x = count dash_b x.
Proof. reflexivity. Qed.
Lemma dash_k2hc c : dash_b (k2hc c) = dash_b c.
Proof.
  assert (hiragana_for c (k2hc c)) as A by now apply k2hc_spec. unfold hiragana_for in A. unfold dash_b. change long_mark with 0x30FC in *. change (ch "-") with 0x2D.
  change (ch "ヷ") with 0x30F7 in A. change (ch "ヸ") with 0x30F8 in A. change (ch "ヹ") with 0x30F9 in A. change (ch "ヺ") with 0x30FA in A.
  change (ch "わ") with 0x308F in A. change (ch "ゐ") with 0x3090 in A. change (ch "ゑ") with 0x3091 in A. change (ch "を") with 0x3092 in A.
  destruct (N.eqb_spec (k2hc c) 0x30FC), (N.eqb_spec (k2hc c) 0x2D), (N.eqb_spec c 0x30FC), (N.eqb_spec c 0x2D); cbn [orb]; try reflexivity; lia.
Qed.
Lemma token_no_mark s t : In t (tokenize s) -> no_long_mark t.
Proof. intros I a b k Q. exact (mark_token false s t a b k I Q). Qed.

Section Hira.
  Variables (E : std) (o : options).
  Hypothesis (HE : std_ok E).
  Notation m := (mode_of o).
  Notation H := (hira_pure E o).

  Lemma k2h_token s t : In t (tokenize s) -> k2h E false t = map k2hc t.
  Proof. intro I. apply marks_aligned; [exact HE|exact (token_no_mark s t I)]. Qed.
  Lemma dashes_map t : dashes (map k2hc t) = dashes t.
  Proof. apply count_map. intros c _. apply dash_k2hc. Qed.
  Lemma dashes_lower y : dashes (to_lowercase E y) = dashes y.
  Proof.
    destruct (lower_pieces E y) as (ls & F & ->). induction F as [|c l y ls Pc F IH]; [reflexivity|]. cbn [concat].
    change (c :: y) with ([c] ++ y). rewrite !dashes_app, IH. f_equal.
    destruct (N.lt_ge_cases c 128) as [L|L].
    - rewrite (piece_low E c l HE Pc L). unfold dashes. cbn [filter]. assert (dash_b (ascii_lower c) = dash_b c) as ->; [|now destruct (dash_b c)].
      unfold dash_b, ascii_lower. change long_mark with 0x30FC. change (ch "-") with 0x2D. ifs; lia.
    - destruct (N.eq_dec c long_mark) as [->|Nc].
      + destruct Pc as [[_ ->]|[Z _]]; [|discriminate Z]. now rewrite ok_lower_caseless by (exact HE || reflexivity).
      + assert (dashes [c] = 0%nat) as ->.
        { apply count_none. intros x [<-|[]]. unfold dash_b. change (ch "-") with 0x2D. change long_mark with 0x30FC in *. lia. }
        apply count_none. intros d D. apply not_true_iff_false. intro B. unfold dash_b in B. change (ch "-") with 0x2D in B. change long_mark with 0x30FC in *.
        apply orb_prop in B. destruct B as [B|B]; apply N.eqb_eq in B; subst d.
        * destruct (caseless c) eqn:Cc.
          -- destruct Pc as [[_ ->]|[-> _]]; [|vm_compute in Cc; discriminate Cc]. rewrite (ok_lower_caseless E HE c Cc) in D. destruct D as [D|[]]. congruence.
          -- destruct Pc as [[_ ->]|[_ [-> | ->]]]; [|destruct D as [D|[]]; discriminate D|destruct D as [D|[]]; discriminate D].
             pose proof (ok_lower_other E HE c Cc) as Z. rewrite forallb_forall in Z. specialize (Z _ D). discriminate Z.
        * destruct (piece_ascii E c l 0x2D HE Pc D) as [[Z _]|[(_ & _ & Z)|(_ & _ & Z)]]; [lia|lia|discriminate Z|discriminate Z].
  Qed.

  Theorem hira_tokens_pass s : pass_romaji o = true -> (H s = concat (map H (tokenize s)) <-> no_long_mark s).
  Proof.
    intro P. assert (Q : forall t, H t = k2h E false t) by (intro t; unfold hira_pure; now rewrite P).
    rewrite Q, (map_ext _ _ Q).
    assert (map (k2h E false) (tokenize s) = map (map k2hc) (tokenize s)) as -> by (apply map_ext_tokens; intro t; apply k2h_token).
    rewrite <- concat_map, tokens_concat. split.
    - intro Z. apply (marks_aligned E false s HE). rewrite Z. apply dashes_map.
    - apply (marks_aligned E false s HE).
  Qed.

  Section NoPass.
  Hypothesis P : pass_romaji o = false.
  Lemma hira_token_read s t : In t (tokenize s) -> Forall S_romaji t \/ starts_with_punct t -> H t = conv m (to_lowercase E t).
  Proof.
    intros I R. unfold hira_pure. rewrite P, (mixed_token s t I), k_tree_mode.
    assert (is_romaji t || first_punct t = true) as ->; [|reflexivity]. apply orb_true_iff. rewrite (romaji_token s t I), first_punct_spec. exact R.
  Qed.
  Lemma hira_token_kept s t : In t (tokenize s) -> ~ (Forall S_romaji t \/ starts_with_punct t) -> H t = map k2hc t.
  Proof.
    intros I R. unfold hira_pure. rewrite P, (mixed_token s t I). assert (is_romaji t || first_punct t = false) as ->; [|exact (k2h_token s t I)].
    apply not_true_iff_false. rewrite orb_true_iff, (romaji_token s t I), first_punct_spec. exact R.
  Qed.
  Lemma read_dec t : (Forall S_romaji t \/ starts_with_punct t) \/ ~ (Forall S_romaji t \/ starts_with_punct t).
  Proof.
    destruct (romaji_dec t) as [R|R]; [left; now left|]. destruct (first_punct t) eqn:F; [left; right; now apply first_punct_spec|].
    right. intros [X|X]; [contradiction|]. apply first_punct_spec in X. congruence.
  Qed.
  Lemma punct_kinds c : S_en_punct c -> S_romaji c \/ smart_quote c.
  Proof.
    intro Pc. destruct (is_char_romaji c) eqn:R; [left; now apply romaji_spec|right]. apply ep_not_romaji; [now apply en_punct_spec|exact R].
  Qed.
  Lemma quote_label k c : smart_quote c -> label_spec k c -> k = EnPunc.
  Proof.
    intros Q L. pose proof (quote_punct c Q) as Pc. apply en_punct_spec in Pc. apply quote_number in Q.
    assert (~ S_romaji c) as R by (intro X; revert X; unfold S_romaji; change (u "ĀāĒēĪīŌōŪū") with [0x100; 0x101; 0x112; 0x113; 0x12A; 0x12B; 0x14C; 0x14D; 0x16A; 0x16B]; cbn [In]; lia).
    destruct k; cbn [label_spec] in L; try reflexivity; exfalso; try tauto.
    all: clear - Q L; unfold S_japanese, S_ja_number, S_ja_punct, S_kanji, Predicates.between in L; try lia.
  Qed.
  (** the characters of a token that is read, besides romaji *)
  Lemma read_chars s t : In t (tokenize s) -> Forall S_romaji t \/ starts_with_punct t ->
    forall c, In c t -> S_romaji c \/ smart_quote c \/ c = 0x3000.
  Proof.
    intros I [R|(a & r & -> & A)] c C; [left; rewrite Forall_forall in R; now apply R|].
    destruct (token_kinds s (a :: r) I) as [Z|[Z|[Z|Z]]].
    - left. rewrite Forall_forall in Z. now apply Z.
    - destruct (punct_kinds a A) as [Ra|Qa]; [inversion Z; contradiction|].
      destruct (token_label s (a :: r) a c I (or_introl eq_refl) C) as (k & La & Lc).
      assert (k = EnPunc) as ->.
      { exact (quote_label k a Qa La). }
      cbn [label_spec] in Lc. destruct (punct_kinds c (proj1 Lc)); auto.
    - rewrite Forall_forall in Z. destruct (Z c C) as [-> | ->]; [left; left; lia|auto].
    - rewrite Forall_forall in Z. destruct (punct_kinds c (Z c C)); auto.
  Qed.
  Lemma read_k2hc s t : In t (tokenize s) -> Forall S_romaji t \/ starts_with_punct t -> map k2hc t = t.
  Proof.
    intros I R. rewrite <- (map_id t) at 2. apply map_ext_in. intros c C. destruct (k2hc_cases c) as [Z|[Z _]]; [exact Z|exfalso].
    unfold katakana_letter in Z. destruct (read_chars s t I R c C) as [X|[X| ->]]; [apply romaji_low in X; lia|apply quote_number in X; lia|lia].
  Qed.
  (** the characters of a token that is not read *)
  Lemma kept_quiet s t : In t (tokenize s) -> ~ (Forall S_romaji t \/ starts_with_punct t) ->
    forall c, In c t -> c = 0x20 \/ (0x80 <= c /\ ~ S_romaji c /\ ~ smart_quote c).
  Proof.
    intros I R c C. destruct (token_kinds s t I) as [Z|[Z|[Z|Z]]].
    - exfalso. auto.
    - right. rewrite Forall_forall in Z. assert (0x80 <= c) as B.
      { destruct (N.lt_ge_cases c 0x80) as [L|L]; [|exact L]. exfalso. apply (Z c C). left. lia. }
      split; [exact B|]. split; [exact (Z c C)|]. intro Q. apply R. right. destruct t as [|a r]; [destruct C|]. exists a, r. split; [reflexivity|].
      destruct (token_label s (a :: r) c a I C (or_introl eq_refl)) as (k & Lc & La).
      assert (k = EnPunc) as ->; [|exact (proj1 La)]. exact (quote_label k c Q Lc).
    - rewrite Forall_forall in Z. destruct (Z c C) as [-> | ->]; [now left|]. right. split; [lia|]. split.
      + intro X. apply romaji_low in X. lia.
      + intro X. apply quote_number in X. lia.
    - exfalso. apply R. right. destruct t as [|a r]; [destruct C|]. exists a, r. split; [reflexivity|]. now inversion Z.
  Qed.
  Lemma quiet_k2hc c : c = 0x20 \/ (0x80 <= c /\ ~ S_romaji c /\ ~ smart_quote c) -> quiet (k2hc c).
  Proof.
    intros [->|(A & B & C)]; [left; vm_compute; reflexivity|]. right. destruct (k2hc_cases c) as [->|[_ Z]]; [auto|].
    unfold hiragana_letter in Z. split; [lia|]. intro Q. apply quote_number in Q. lia.
  Qed.
  Lemma caseless_kana c : S_hiragana c \/ S_katakana c -> lower_char E c = [c].
  Proof.
    intro K. apply ok_lower_caseless; [exact HE|]. unfold caseless, S_hiragana, S_katakana, Predicates.between in *. lia.
  Qed.
  Lemma k2hc_tame s t : others_lower (to_lowercase E) s -> (forall c, In c t -> In c s) -> ~ In SIGMA (map k2hc t).
  Proof.
    intros T I J. apply in_map_iff in J. destruct J as (c & Q & C). destruct (k2hc_cases c) as [Z|[_ Z]].
    - rewrite Z in Q. subst c. exact (tame_sigma E HE s T (I _ C)).
    - rewrite Q in Z. unfold hiragana_letter, SIGMA in Z. lia.
  Qed.
  Lemma good_k2hc s : others_lower (to_lowercase E) s -> Forall (good (fun c => lower_char E (k2hc c))) s.
  Proof.
    intro T. apply Forall_forall. intros c I. destruct (k2hc_cases c) as [Z|[Z Z']].
    - pose proof (good_lower E HE s T) as G. rewrite Forall_forall in G. specialize (G c I). unfold good in *. now rewrite Z.
    - right. unfold katakana_letter, hiragana_letter in *. split; [lia|]. rewrite caseless_kana; [|left; left; unfold Predicates.between; lia].
      split; [discriminate|]. repeat constructor. lia.
  Qed.
  Lemma flat_map_map {A B C} (g : A -> B) (f : B -> list C) l : flat_map f (map g l) = flat_map (fun c => f (g c)) l.
  Proof. induction l as [|a l IH]; [reflexivity|]. cbn. now rewrite IH. Qed.
  Lemma kept_lower s t : In t (tokenize s) -> others_lower (to_lowercase E) s -> ~ (Forall S_romaji t \/ starts_with_punct t) ->
    lowered E (map k2hc t).
  Proof.
    intros I T R d D. apply in_map_iff in D. destruct D as (c & <- & C). destruct (k2hc_cases c) as [->|[_ Z]].
    - destruct (kept_quiet s t I R c C) as [->|(_ & N & _)]; [now apply ok_lower_ascii|]. rewrite <- lower_one by exact HE. apply T; [exact (in_token s t c I C)|exact N].
    - apply caseless_kana. left. left. unfold hiragana_letter, Predicates.between in *. lia.
  Qed.
  (** every token is read as within a text that is read as a whole *)
  Lemma hira_token_inside s t : In t (tokenize s) -> others_lower (to_lowercase E) s ->
    H t = conv m (flat_map (fun c => lower_char E (k2hc c)) t).
  Proof.
    intros I T. rewrite <- flat_map_map, <- lower_chars by (apply (k2hc_tame s t T); intro c; now apply in_token).
    destruct (read_dec t) as [R|R].
    - rewrite (read_k2hc s t I R). now apply (hira_token_read s).
    - rewrite (hira_token_kept s t I R). rewrite (lowered_same E _ HE (kept_lower s t I T R)). symmetry. apply quiet_conv.
      intros d D. apply in_map_iff in D. destruct D as (c & <- & C). apply quiet_k2hc. exact (kept_quiet s t I R c C).
  Qed.
  (** if the result is in lower case, so are the characters other than romaji *)
  Lemma tame_result s : lowered E (concat (map H (tokenize s))) -> others_lower (to_lowercase E) s.
  Proof.
    intros L c I R. rewrite lower_one by exact HE. destruct (token_of s c I) as (t & It & C). destruct (read_dec t) as [Rt|Rt].
    - destruct (read_chars s t It Rt c C) as [X|[X| ->]]; [contradiction| |now apply ok_lower_caseless].
      apply ok_lower_caseless; [exact HE|]. apply quote_number in X. unfold caseless. lia.
    - destruct (k2hc_cases c) as [Z|[Z _]].
      + apply L. apply in_concat. exists (H t). split; [now apply in_map|]. rewrite (hira_token_kept s t It Rt), <- Z. now apply in_map.
      + apply caseless_kana. right. unfold katakana_letter, S_katakana, Predicates.between in *. lia.
  Qed.
  Lemma token_dashes s t : In t (tokenize s) -> dashes (H t) = dashes t.
  Proof.
    intro I. destruct (read_dec t) as [R|R]; [rewrite (hira_token_read s t I R)|rewrite (hira_token_kept s t I R)].
    - now rewrite dashes_conv, dashes_lower.
    - apply dashes_map.
  Qed.
  Lemma tokens_dashes s : dashes (concat (map H (tokenize s))) = dashes s.
  Proof. rewrite <- (tokens_concat s) at 2. apply count_sum. intro t. apply token_dashes. Qed.

  Theorem hira_tokens_mixed s : mixed_text s ->
    (H s = concat (map H (tokenize s)) <-> no_long_mark s /\ n_apart m s /\ others_lower (to_lowercase E) s).
  Proof.
    intro M. assert (Hs : H s = conv m (to_lowercase E (k2h E false s))).
    { unfold hira_pure. apply mixed_spec in M. now rewrite P, M, k_tree_mode. }
    assert (J : no_long_mark s -> others_lower (to_lowercase E) s -> (H s = concat (map H (tokenize s)) <-> n_apart m s)).
    { intros N T. pose proof (tokens_join (fun c => lower_char E (k2hc c)) m (fun c => c) s harmless_id (good_k2hc s T)) as X. rewrite !map_id_eq in X. rewrite <- X.
      rewrite Hs, (proj2 (marks_aligned E false s HE) N), lower_chars by (apply (k2hc_tame s s T); auto). rewrite flat_map_map.
      rewrite (map_ext_tokens H (fun t => conv m (flat_map (fun c => lower_char E (k2hc c)) t)) (tokenize s)); [reflexivity|].
      intros t I. exact (hira_token_inside s t I T). }
    split; [|intros (N & A & T); now apply J].
    intro Q. assert (T : others_lower (to_lowercase E) s).
    { apply tame_result. rewrite <- Q, Hs. apply conv_lowered; [exact HE|]. now apply to_lowercase_lowered. }
    assert (N : no_long_mark s).
    { apply (marks_aligned E false s HE). rewrite <- (tokens_dashes s), <- Q, Hs. now rewrite dashes_conv, dashes_lower. }
    split; [exact N|]. split; [|exact T]. now apply J.
  Qed.

  Lemma no_kata_k2hc t : no_katakana t -> map k2hc t = t.
  Proof.
    intro N. rewrite <- (map_id t) at 2. apply map_ext_in. intros c C. destruct (k2hc_cases c) as [Z|[Z Z']]; [exact Z|exfalso].
    destruct (N c C) as [X|[-> | ->]]; [contradiction| |]; vm_compute in Z'; destruct Z' as [_ Z']; exact (Z' eq_refl).
  Qed.
  Theorem hira_tokens_read s : ~ mixed_text s -> all_nonempty S_romaji s \/ starts_with_punct s ->
    (H s = concat (map H (tokenize s)) <-> n_apart m s /\ others_lower (to_lowercase E) s /\ no_katakana s).
  Proof.
    intros M B. assert (Hs : H s = conv m (to_lowercase E s)).
    { unfold hira_pure. rewrite <- mixed_spec in M. apply not_true_iff_false in M. rewrite P, M, k_tree_mode.
      assert (is_romaji s || first_punct s = true) as ->; [|reflexivity]. apply orb_true_iff. now rewrite romaji_text_spec, first_punct_spec. }
    assert (J : others_lower (to_lowercase E) s -> no_katakana s -> (H s = concat (map H (tokenize s)) <-> n_apart m s)).
    { intros T N. pose proof (tokens_join (fun c => lower_char E (k2hc c)) m (fun c => c) s harmless_id (good_k2hc s T)) as X. rewrite !map_id_eq in X. rewrite <- X.
      rewrite <- flat_map_map, (no_kata_k2hc s N). rewrite Hs, lower_chars by exact (tame_sigma E HE s T).
      rewrite (map_ext_tokens H (fun t => conv m (flat_map (fun c => lower_char E (k2hc c)) t)) (tokenize s)); [reflexivity|].
      intros t I. exact (hira_token_inside s t I T). }
    split; [|intros (A & T & N); now apply J].
    intro Q. assert (T : others_lower (to_lowercase E) s).
    { apply tame_result. rewrite <- Q, Hs. apply conv_lowered; [exact HE|]. now apply to_lowercase_lowered. }
    assert (N : no_katakana s).
    { destruct (katakana_dec s) as [K|(c & I & [Kc Nc])]; [exact K|exfalso].
      assert (Ir : In c (H s)).
      { rewrite Hs. apply conv_keeps; [apply kana_letter_in_no_key; unfold katakana_letter in Kc; lia|]. apply lower_keeps; [exact HE| |exact I].
        unfold caseless, katakana_letter in *. lia. }
      rewrite Q in Ir. apply in_concat in Ir. destruct Ir as (x & X & Cx). apply in_map_iff in X. destruct X as (t & <- & It).
      destruct (read_dec t) as [R|R].
      - rewrite (hira_token_read s t It R), <- k_tree_mode in Cx. apply (plain_not c (conj Kc Nc)). revert Cx. apply r2h_no_katakana; [exact HE|]. intros d D. left.
        destruct (read_chars s t It R d D) as [Y|[Y| ->]]; unfold katakana_letter; [apply romaji_low in Y; lia|apply quote_number in Y; lia|lia].
      - rewrite (hira_token_kept s t It R), <- (k2h_token s t It) in Cx. apply (plain_not c (conj Kc Nc)). exact (k2h_not_katakana _ _ _ _ Cx). }
    split; [|split; [exact T|exact N]]. now apply J.
  Qed.

  Lemma big_k2hc t : count big (map k2hc t) = count big t.
  Proof. apply count_map. intros c _. destruct (k2hc_cases c) as [->|[A B]]; [reflexivity|]. unfold big, katakana_letter, hiragana_letter in *. lia. Qed.
  Lemma up_k2hc t : count (up_b E) (map k2hc t) = count (up_b E) t.
  Proof.
    apply count_map. intros c _. destruct (k2hc_cases c) as [->|[A B]]; [reflexivity|]. unfold katakana_letter, hiragana_letter in *.
    apply up_kana; [left; left; unfold Predicates.between; lia|right; unfold S_katakana, Predicates.between; lia].
  Qed.
  Lemma big_lower s t : In t (tokenize s) -> Forall S_romaji t \/ starts_with_punct t -> (count big t <= count big (to_lowercase E t))%nat.
  Proof.
    intros I R. assert (F : forall c, In c t -> big c = true -> c = 0x3000).
    { intros c C B. destruct (read_chars s t I R c C) as [X|[X|X]]; [apply romaji_low in X|apply quote_number in X|exact X]; unfold big in B; lia. }
    clear I R. destruct (lower_pieces E t) as (ls & Fl & ->). induction Fl as [|c l t ls Pc Fl IH]; [cbn; lia|]. cbn [concat].
    rewrite count_cons, count_app. specialize (IH (fun d D => F d (or_intror D))). destruct (big c) eqn:B; [|lia].
    apply (F c (or_introl eq_refl)) in B. subst c. destruct Pc as [[_ ->]|[Z _]]; [|discriminate Z]. rewrite ok_lower_caseless by (exact HE || reflexivity).
    rewrite count_cons. change (big 0x3000) with true. cbv iota. lia.
  Qed.
  Theorem hira_tokens_kept s : ~ mixed_text s -> ~ (all_nonempty S_romaji s \/ starts_with_punct s) ->
    (H s = concat (map H (tokenize s)) <->
     no_long_mark s /\
     forall t, In t (tokenize s) -> Forall S_romaji t \/ starts_with_punct t -> to_lowercase E t = t /\ untouched m t).
  Proof.
    intros M B. assert (Hs : H s = k2h E false s).
    { unfold hira_pure. rewrite <- mixed_spec in M. apply not_true_iff_false in M. rewrite P, M.
      assert (is_romaji s || first_punct s = false) as ->; [|reflexivity]. apply not_true_iff_false. now rewrite orb_true_iff, romaji_text_spec, first_punct_spec. }
    rewrite Hs. split.
    - intro Q. assert (N : no_long_mark s).
      { apply (marks_aligned E false s HE). rewrite Q. apply tokens_dashes. }
      split; [exact N|]. rewrite (proj2 (marks_aligned E false s HE) N) in Q.
      assert (R1 : forall t, In t (tokenize s) -> count big (H t) = count big t).
      { apply count_up; [|rewrite tokens_concat, <- Q; apply big_k2hc]. intros t I. destruct (read_dec t) as [R|R].
        - rewrite (hira_token_read s t I R). pose proof (big_lower s t I R). pose proof (proj1 (big_conv m (to_lowercase E t))). lia.
        - rewrite (hira_token_kept s t I R), big_k2hc. lia. }
      assert (R2 : forall t, In t (tokenize s) -> count (up_b E) (H t) = count (up_b E) t).
      { apply count_down; [|rewrite tokens_concat, <- Q; apply up_k2hc]. intros t I. destruct (read_dec t) as [R|R].
        - rewrite (hira_token_read s t I R). rewrite up_lowered; [lia|]. apply conv_lowered; [exact HE|]. now apply to_lowercase_lowered.
        - rewrite (hira_token_kept s t I R), up_k2hc. lia. }
      intros t I R. specialize (R1 t I). specialize (R2 t I). rewrite (hira_token_read s t I R) in R1, R2.
      assert (L : to_lowercase E t = t).
      { apply lowered_same; [exact HE|]. intros c C. destruct (read_chars s t I R c C) as [X|[X| ->]].
        - rewrite up_lowered in R2 by (apply conv_lowered; [exact HE|]; now apply to_lowercase_lowered). symmetry in R2.
          pose proof (proj1 (count_none _ _) R2 c C) as U. unfold up_b in U. apply romaji_spec in X. rewrite X in U. cbn [andb] in U. apply negb_false_iff in U. now apply str_eqb_eq.
        - apply ok_lower_caseless; [exact HE|]. apply quote_number in X. unfold caseless. lia.
        - now apply ok_lower_caseless. }
      split; [exact L|]. rewrite L in R1. apply kana_fixed. now apply big_conv.
    - intros [N U]. rewrite (proj2 (marks_aligned E false s HE) N). assert (map H (tokenize s) = map (map k2hc) (tokenize s)) as ->.
      { apply map_ext_tokens. intros t I. destruct (read_dec t) as [R|R]; [|now apply (hira_token_kept s t)].
        rewrite (hira_token_read s t I R). destruct (U t I R) as [-> Z]. rewrite (untouched_conv m t Z). symmetry. exact (read_k2hc s t I R). }
      rewrite <- (tokens_concat s) at 1. apply concat_map.
  Qed.
  End NoPass.
End Hira.

Lemma few_katakana s : no_katakana s <-> forall c, In c s -> katakana_letter c -> In c (u "ヵヶ").
Proof.
  change (u "ヵヶ") with [0x30F5; 0x30F6]. unfold no_katakana, katakana_letter. cbn [In]. split; intros H c I; specialize (H c I); lia.
Qed.
Lemma Forall2_map_r {A B} (R : A -> B -> Prop) (f : A -> B) l : (forall t, R t (f t)) -> Forall2 R l (map f l).
Proof. intro H. induction l; constructor; auto. Qed.
