(** * Proofs about tokenize.rs (C40-C45) *)
From Verif Require Import Tac Base Std Chars Strings Tokenize Predicates TokenSpec.

Lemma token_type_eqb_eq a b : token_type_eqb a b = true <-> a = b.
Proof. destruct a, b; cbn; split; congruence. Qed.

(** ** Generic grouping *)
Section Group.
  Context {A K : Type} (eqb : K -> K -> bool) (key : A -> K)
    (eqb_eq : forall a b, eqb a b = true <-> a = b).
  Let G := group_by eqb key.

  Lemma eqb_refl a : eqb a a = true.
  Proof. now apply eqb_eq. Qed.
  Lemma eqb_neq a b : a <> b -> eqb a b = false.
  Proof. intro H. destruct (eqb a b) eqn:E; [|reflexivity]. apply eqb_eq in E. contradiction. Qed.

  Lemma group_concat l : concat (map snd (G l)) = l.
  Proof.
    unfold G. induction l as [|x l IH]; [reflexivity|]. cbn.
    destruct (group_by eqb key l) as [|[k g] gs].
    - cbn in *. now rewrite <- IH.
    - destruct (eqb (key x) k); cbn in *; now rewrite IH.
  Qed.

  Lemma group_nil l : G l = [] -> l = [].
  Proof. intro H. rewrite <- (group_concat l), H. reflexivity. Qed.

  (** a homogeneous run followed by something of another type is one group *)
  Lemma group_run k t rest : t <> [] -> (forall x, In x t -> key x = k) ->
    match G rest with [] => True | (k', _) :: _ => k <> k' end ->
    G (t ++ rest) = (k, t) :: G rest.
  Proof.
    unfold G. induction t as [|x t IH]; intros N H B; [congruence|].
    cbn. assert (Hx : key x = k) by (apply H; now left). rewrite Hx.
    destruct t as [|y t].
    - cbn. destruct (group_by eqb key rest) as [|[k' g] gs]; [reflexivity|].
      rewrite eqb_neq by assumption. reflexivity.
    - rewrite IH; [|discriminate|intros z I; apply H; now right|assumption].
      rewrite eqb_refl. reflexivity.
  Qed.

  Lemma group_head_key l k g gs : G l = (k, g) :: gs ->
    exists x l', l = x :: l' /\ key x = k.
  Proof.
    unfold G. destruct l as [|x l]; [discriminate|]. cbn. intro H. exists x, l. split; [reflexivity|].
    destruct (group_by eqb key l) as [|[k' g'] gs'].
    - inversion H. reflexivity.
    - destruct (eqb (key x) k') eqn:E; inversion H; subst; [now apply eqb_eq|reflexivity].
  Qed.

  (** ** Properties of the groups *)
  Definition good (gs : list (K * list A)) : Prop :=
    (forall k t, In (k, t) gs -> t <> [] /\ forall x, In x t -> key x = k)
    /\ forall pre k1 t1 k2 t2 post, gs = pre ++ (k1, t1) :: (k2, t2) :: post -> k1 <> k2.

  Lemma good_nil : good [].
  Proof. split; [intros k t []|]. intros [|? ?]; discriminate. Qed.

  Lemma good_cons k t gs : t <> [] -> (forall x, In x t -> key x = k) ->
    match gs with [] => True | (k', _) :: _ => k <> k' end -> good gs -> good ((k, t) :: gs).
  Proof.
    intros N H B [G1 G2]. split.
    - intros k' t' [E|I]; [inversion E; subst; auto|]. now apply G1.
    - intros pre k1 t1 k2 t2 post E. destruct pre as [|p pre]; cbn in E; inversion E; subst.
      + exact B.
      + eapply G2. reflexivity.
  Qed.
  Lemma good_tail p gs : good (p :: gs) -> good gs.
  Proof.
    intros [G1 G2]. split.
    - intros k t I. apply G1. now right.
    - intros pre k1 t1 k2 t2 post E. subst. apply (G2 (p :: pre) k1 t1 k2 t2 post). reflexivity.
  Qed.

  Lemma group_good l : good (G l).
  Proof.
    unfold G. induction l as [|x l IH]; [exact good_nil|]. cbn.
    destruct (group_by eqb key l) as [|[k g] gs] eqn:E.
    - apply good_cons; [discriminate| |exact I|exact good_nil].
      intros y [->|[]]. reflexivity.
    - destruct (eqb (key x) k) eqn:Q.
      + apply eqb_eq in Q. assert (Hg := IH). destruct Hg as [G1 G2].
        apply good_cons.
        * discriminate.
        * intros y [->|Iy]; [exact Q|]. apply (G1 k g); [now left|exact Iy].
        * destruct gs as [|[k2 t2] gs]; [exact I|]. apply (G2 [] k g k2 t2 gs). reflexivity.
        * eapply good_tail, IH.
      + apply good_cons; [discriminate| | |exact IH].
        * intros y [->|[]]. reflexivity.
        * intro Z. apply eqb_eq in Z. congruence.
  Qed.

  Lemma good_tokenisation gs : good gs -> tokenisation key (map snd gs) (concat (map snd gs)).
  Proof.
    intros [G1 G2]. split; [reflexivity|].
    assert (In1 : forall t, In t (map snd gs) -> exists k, In (k, t) gs).
    { intros t I. apply in_map_iff in I. destruct I as ([k t'] & <- & I). now exists k. }
    split; [|split].
    - intros t I. apply In1 in I. destruct I as [k I]. now apply G1 in I.
    - intros t I. apply In1 in I. destruct I as [k I]. apply G1 in I. destruct I as [_ I].
      intros x y Ix Iy. now rewrite (I x Ix), (I y Iy).
    - intros pre a b post E. intros a' x y b' Ea Eb.
      assert (exists gpre k1 k2 gpost, gs = gpre ++ (k1, a) :: (k2, b) :: gpost) as (gp & k1 & k2 & gq & Eg).
      { clear - E. revert gs E. induction pre as [|p pre IH]; intros gs E.
        - destruct gs as [|[k1 t1] [|[k2 t2] gs]]; cbn in E; inversion E; subst.
          exists [], k1, k2, gs. reflexivity.
        - destruct gs as [|g gs]; cbn in E; inversion E; subst.
          destruct (IH gs H1) as (gp & k1 & k2 & gq & ->). exists (g :: gp), k1, k2, gq. reflexivity. }
      pose proof (G2 _ _ _ _ _ _ Eg) as N.
      assert (I1 : In (k1, a) gs) by (rewrite Eg; apply in_elt).
      assert (I2 : In (k2, b) gs) by (rewrite Eg; apply in_or_app; right; right; now left).
      apply G1 in I1, I2. destruct I1 as [_ I1], I2 as [_ I2].
      rewrite (I1 x), (I2 y); auto.
      + subst b. now left.
      + subst a. apply in_or_app. right. now left.
  Qed.

  Lemma group_tokenisation l : tokenisation key (map snd (G l)) l.
  Proof.
    pose proof (good_tokenisation _ (group_good l)) as H. now rewrite group_concat in H.
  Qed.

  Lemma tokenisation_tail t ts l : tokenisation key (t :: ts) l -> tokenisation key ts (concat ts).
  Proof.
    intros (H1 & H2 & H3 & H4). split; [reflexivity|]. split; [|split].
    - intros t' I. apply H2. now right.
    - intros t' I. apply H3. now right.
    - intros pre a b post E. apply (H4 (t :: pre) a b post). now rewrite E.
  Qed.

  (** uniqueness *)
  Lemma tokenisation_unique ts : forall l, tokenisation key ts l -> map snd (G l) = ts.
  Proof.
    induction ts as [|t ts IH]; intros l H.
    - destruct H as [<- _]. reflexivity.
    - pose proof (IH _ (tokenisation_tail _ _ _ H)) as IH'.
      destruct H as (H1 & H2 & H3 & H4). subst l. cbn [concat].
      assert (N : t <> []) by (apply H2; now left).
      destruct t as [|x0 t0] eqn:Et; [congruence|]. rewrite <- Et in *.
      assert (Hk : forall x, In x t -> key x = key x0).
      { intros x I. apply (H3 t); [now left|exact I|rewrite Et; now left]. }
      rewrite (group_run (key x0) t (concat ts)).
      + cbn [map snd]. now rewrite IH'.
      + exact N.
      + exact Hk.
      + destruct (G (concat ts)) as [|[k g] gs] eqn:Eg; [exact I|].
        destruct (group_head_key _ _ _ _ Eg) as (y & l' & El & Ky).
        destruct ts as [|t1 ts']; [discriminate|].
        assert (N1 : t1 <> []) by (apply H2; right; now left).
        destruct t1 as [|y1 t1']; [congruence|]. cbn in El. inversion El; subst y1.
        assert (exists t' z, t = t' ++ [z]) as (t' & z & Ez).
        { exists (removelast t), (last t x0). apply app_removelast_last. exact N. }
        rewrite <- Ky. rewrite <- (Hk z).
        * eapply (H4 [] t (y :: t1') ts' eq_refl); [exact Ez|reflexivity].
        * rewrite Ez. apply in_or_app. right. now left.
  Qed.

  Lemma group_label k t l : In (k, t) (G l) -> t <> [] /\ forall x, In x t -> key x = k.
  Proof. apply group_good. Qed.
End Group.

(** ** Refinement between two groupings *)
Section Merge.
  Context {A K1 K2 : Type} (eqb1 : K1 -> K1 -> bool) (eqb2 : K2 -> K2 -> bool)
    (k1 : A -> K1) (k2 : A -> K2)
    (eqb1_eq : forall a b, eqb1 a b = true <-> a = b)
    (eqb2_eq : forall a b, eqb2 a b = true <-> a = b).

  (** if neighbours with equal fine type have equal coarse type, coarse groups are
      unions of fine groups *)
  Lemma group_merges l :
    (forall pre x y post, l = pre ++ x :: y :: post -> k1 x = k1 y -> k2 x = k2 y) ->
    merges (map snd (group_by eqb1 k1 l)) (map snd (group_by eqb2 k2 l)).
  Proof.
    induction l as [|x l IH]; intro H.
    - exists []. split; reflexivity.
    - destruct IH as (blocks & B1 & B2).
      { intros pre a b post E. apply (H (x :: pre) a b post). now rewrite E. }
      destruct l as [|y l].
      + exists [[[x]]]. split; reflexivity.
      + pose proof (H [] x y l eq_refl) as Hxy. clear H.
        (* heads of both groupings of y :: l *)
        destruct (group_by eqb1 k1 (y :: l)) as [|[a g] gs] eqn:E1.
        { apply (group_nil eqb1 k1) in E1. discriminate. }
        destruct (group_by eqb2 k2 (y :: l)) as [|[b h] hs] eqn:E2.
        { apply (group_nil eqb2 k2) in E2. discriminate. }
        assert (Ka : k1 y = a).
        { destruct (group_head_key eqb1 k1 eqb1_eq _ _ _ _ E1) as (z & l' & Ez & Kz).
          inversion Ez; subst; reflexivity. }
        assert (Kb : k2 y = b).
        { destruct (group_head_key eqb2 k2 eqb2_eq _ _ _ _ E2) as (z & l' & Ez & Kz).
          inversion Ez; subst; reflexivity. }
        cbn [group_by] in E1, E2 |- *. rewrite E1, E2.
        cbn [map snd] in B1, B2. destruct blocks as [|bl blocks]; [discriminate|].
        destruct bl as [|f bl].
        { cbn in B2. inversion B2; subst h.
          destruct (group_label eqb2 k2 eqb2_eq b [] (y :: l)) as [N _]; [|congruence].
          cbn [group_by]. rewrite E2. now left. }
        cbn in B1. inversion B1; subst f. cbn [map concat] in B2. inversion B2; subst h.
        destruct (eqb1 (k1 x) a) eqn:Q1.
        * apply eqb1_eq in Q1. rewrite <- Ka in Q1. apply Hxy in Q1. rewrite Kb in Q1.
          assert (Q2 : eqb2 (k2 x) b = true) by now apply eqb2_eq. rewrite Q2.
          exists (((x :: g) :: bl) :: blocks). cbn. split; congruence.
        * destruct (eqb2 (k2 x) b) eqn:Q2.
          -- exists (([x] :: g :: bl) :: blocks). cbn. split; congruence.
          -- exists ([[x]] :: (g :: bl) :: blocks). cbn. split; congruence.
  Qed.
End Merge.

(** ** The tokenizer *)
Definition ty (compact : bool) (c : N) : token_type := get_type c compact.

Lemma tokenize_tokenisation s compact : tokenisation (ty compact) (tokenize_with_opt s compact) s.
Proof. apply (group_tokenisation token_type_eqb _ token_type_eqb_eq). Qed.
Lemma tokenize_unique s compact ts :
  tokenisation (ty compact) ts s -> ts = tokenize_with_opt s compact.
Proof.
  intro H. symmetry. apply (tokenisation_unique token_type_eqb _ token_type_eqb_eq), H.
Qed.

(** ** C44: relation between the two modes *)
Definition coarse (k : token_type) : token_type :=
  match k with
  | JaNum | EnNum | EnPunc | JaPunc | Other => Other
  | Kanji | Hiragana | Katakana | Ja => Ja
  | En => En
  | Space => Space
  end.
Lemma kanji_japanese c : is_char_kanji c = true -> is_char_japanese c = true.
Proof.
  rewrite kanji_spec, japanese_spec. unfold S_kanji, S_japanese, between. lia.
Qed.
Lemma kana_japanese c : is_char_hiragana c = true \/ is_char_katakana c = true ->
  is_char_japanese c = true.
Proof.
  rewrite hiragana_spec, katakana_spec, japanese_spec.
  unfold S_hiragana, S_katakana, S_japanese, between. lia.
Qed.
Lemma compact_of_detailed c : c <> 0x20 -> c <> 0x3000 ->
  get_type c true = coarse (get_type c false).
Proof.
  intros H1 H2. unfold get_type. change (ch " ") with 0x20.
  destruct (c =? 0x20) eqn:A; [lia|]. destruct (c =? 0x3000) eqn:B; [lia|].
  destruct (is_char_japanese_number c); [reflexivity|].
  destruct (is_char_latin_number c); [reflexivity|].
  destruct (is_char_english_punctuation c); [reflexivity|].
  destruct (is_char_japanese_punctuation c); [reflexivity|]. cbn [orb].
  destruct (is_char_kanji c) eqn:K1; [rewrite kanji_japanese by assumption; reflexivity|].
  destruct (is_char_hiragana c) eqn:K2; [rewrite kana_japanese by (left; assumption); reflexivity|].
  destruct (is_char_katakana c) eqn:K3; [rewrite kana_japanese by (right; assumption); reflexivity|].
  destruct (is_char_japanese c); [reflexivity|].
  destruct (is_char_romaji c); reflexivity.
Qed.
Lemma space_type c : get_type c false = Space -> c = 0x20 \/ c = 0x3000.
Proof.
  unfold get_type. change (ch " ") with 0x20.
  destruct (c =? 0x20) eqn:A; [lia|]. destruct (c =? 0x3000) eqn:B; [lia|]. ifs; discriminate.
Qed.
Lemma type_space : get_type 0x20 false = Space /\ get_type 0x3000 false = Space.
Proof. split; reflexivity. Qed.

Lemma detailed_determines_compact x y :
  get_type x false = get_type y false ->
  (x = 0x20 -> y <> 0x3000) -> (x = 0x3000 -> y <> 0x20) ->
  get_type x true = get_type y true.
Proof.
  intros E H1 H2.
  destruct (N.eq_dec x 0x20) as [X|X]; [|destruct (N.eq_dec x 0x3000) as [X'|X']].
  - subst x. rewrite (proj1 type_space) in E. symmetry in E. apply space_type in E.
    destruct E as [->| ->]; [reflexivity|]. now destruct (H1 eq_refl).
  - subst x. rewrite (proj2 type_space) in E. symmetry in E. apply space_type in E.
    destruct E as [->| ->]; [|reflexivity]. now destruct (H2 eq_refl).
  - destruct (N.eq_dec y 0x20) as [Y|Y]; [|destruct (N.eq_dec y 0x3000) as [Y'|Y']].
    + subst y. rewrite (proj1 type_space) in E. apply space_type in E. tauto.
    + subst y. rewrite (proj2 type_space) in E. apply space_type in E. tauto.
    + rewrite !compact_of_detailed by assumption. now rewrite E.
Qed.

Lemma compact_merges s : no_space_clash s ->
  merges (tokenize_with_opt s false) (tokenize_with_opt s true).
Proof.
  intro H. apply (group_merges token_type_eqb token_type_eqb _ _ token_type_eqb_eq token_type_eqb_eq).
  intros pre x y post E K. destruct (H _ _ _ _ E) as [H1 H2].
  apply detailed_determines_compact; tauto.
Qed.

(** neighbours of one type are in one token *)
Lemma neighbours_together {A K} (key : A -> K) x y : key x = key y -> forall ts pre post,
  tokenisation key ts (pre ++ x :: y :: post) -> exists t, In t ts /\ In x t /\ In y t.
Proof.
  intro Q. induction ts as [|t ts IH]; intros pre post T.
  - destruct T as [T _]. destruct pre; discriminate.
  - pose proof (tokenisation_tail key _ _ _ T) as T'. destruct T as (T1 & T2 & T3 & T4). cbn [concat] in T1.
    revert t T1 T2 T3 T4. induction pre as [|p pre IHp]; intros t T1 T2 T3 T4.
    + destruct t as [|a t]; [now destruct (T2 [] (or_introl eq_refl))|]. injection T1 as -> T1.
      destruct t as [|b t].
      * cbn in T1. destruct ts as [|t1 ts]; [discriminate|].
        destruct t1 as [|b t1]; [now destruct (T2 [] (or_intror (or_introl eq_refl)))|].
        injection T1 as -> _. exfalso. exact (T4 [] [x] (y :: t1) ts eq_refl [] x y t1 eq_refl eq_refl Q).
      * injection T1 as -> T1. exists (x :: y :: t). cbn. auto.
    + destruct t as [|a t]; [now destruct (T2 [] (or_introl eq_refl))|]. injection T1 as -> T1.
      destruct t as [|b t].
      * cbn in T1. rewrite T1 in T'. destruct (IH _ _ T') as (t & I & H). exists t. split; [now right|exact H].
      * destruct (IHp (b :: t) T1) as (t' & I & H).
        -- intros z [<-|I]; [discriminate|]. apply T2. now right.
        -- intros z [<-|I]; [|apply T3; now right]. intros u v Iu Iv. apply (T3 (p :: b :: t)); cbn in *; tauto.
        -- intros q u v r Z. destruct q as [|t0 q].
           ++ injection Z as <- Z. intros a' u' v' b' Ea Eb.
              apply (T4 [] (p :: b :: t) v r) with (a' := p :: a') (b' := b'); cbn; congruence.
           ++ injection Z as <- Z. apply (T4 ((p :: b :: t) :: q) u v r). cbn. now rewrite Z.
        -- destruct I as [<-|I].
           ++ exists (p :: b :: t). split; [now left|]. cbn in *. tauto.
           ++ exists t'. split; [now right|exact H].
Qed.
Lemma merged_no_clash s : merges (tokenize_with_opt s false) (tokenize_with_opt s true) -> no_space_clash s.
Proof.
  intros (blocks & B1 & B2).
  assert (H : forall pre x y post, s = pre ++ x :: y :: post -> get_type x false = get_type y false ->
              get_type x true = get_type y true).
  { intros pre x y post Z Q. pose proof (tokenize_tokenisation s false) as F. rewrite Z in F at 2.
    destruct (neighbours_together (ty false) x y Q _ _ _ F) as (t & I & Ix & Iy).
    rewrite <- B1 in I. apply in_concat in I. destruct I as (bl & Ibl & I).
    apply (in_map (@concat N)) in Ibl. rewrite B2 in Ibl.
    destruct (tokenize_tokenisation s true) as (_ & _ & T3 & _).
    apply (T3 _ Ibl); apply in_concat; exists t; auto. }
  intros pre x y post Z. specialize (H _ _ _ _ Z).
  split; intros [-> ->]; vm_compute in H; now specialize (H eq_refl).
Qed.

Lemma compact_merges_refuted : exists s, ~ merges (tokenize_with_opt s false) (tokenize_with_opt s true).
Proof.
  exists [0x20; 0x3000]. intros (blocks & B1 & B2).
  change (tokenize_with_opt [0x20; 0x3000] false) with [[0x20; 0x3000]] in B1.
  change (tokenize_with_opt [0x20; 0x3000] true) with [[0x20]; [0x3000]] in B2.
  assert (L : length (concat (map (@concat N) blocks)) = 2%nat) by (rewrite B2; reflexivity).
  destruct blocks as [|b1 [|b2 [|b3 bs]]]; try discriminate.
  cbn [map] in B2. inversion B2 as [[C1 C2]]. cbn in B1. rewrite app_nil_r in B1.
  destruct b1 as [|x1 b1]; [discriminate|]. destruct b2 as [|x2 b2]; [discriminate|].
  destruct b1; discriminate.
Qed.

(** ** C43: labels and character classes *)
Lemma latin_number_spec c : is_char_latin_number c = true <-> between 0x30 0x39 c.
Proof. unf. lia. Qed.

Lemma not_iff {P : Prop} {b : bool} : (b = true <-> P) -> b = false -> ~ P.
Proof. intros H E Q. apply H in Q. congruence. Qed.

Lemma detailed_label c : label_spec (get_type c false) c.
Proof.
  unfold get_type. change (ch " ") with 0x20.
  destruct (c =? 0x20) eqn:A0; [cbn [label_spec compact_spec]; lia|].
  destruct (c =? 0x3000) eqn:A1; [cbn [label_spec compact_spec]; lia|].
  destruct (is_char_japanese_number c) eqn:A2; [now apply ja_number_spec|].
  destruct (is_char_latin_number c) eqn:A3; [now apply latin_number_spec|].
  destruct (is_char_english_punctuation c) eqn:A4.
  { cbn [label_spec compact_spec]. split; [now apply en_punct_spec|lia]. }
  destruct (is_char_japanese_punctuation c) eqn:A5.
  { cbn [label_spec compact_spec]. split; [now apply ja_punct_spec|lia]. }
  destruct (is_char_kanji c) eqn:A6; [now apply kanji_spec|].
  apply (not_iff (ja_punct_spec c)) in A5.
  destruct (is_char_hiragana c) eqn:A7.
  { apply hiragana_spec in A7. cbn [label_spec compact_spec]. clear - A5 A7. unf. lia. }
  destruct (is_char_katakana c) eqn:A8.
  { apply katakana_spec in A8. cbn [label_spec compact_spec]. clear - A5 A8. unf. lia. }
  apply (not_iff (kanji_spec c)) in A6. apply (not_iff (hiragana_spec c)) in A7.
  apply (not_iff (katakana_spec c)) in A8. apply (not_iff (ja_number_spec c)) in A2.
  apply (not_iff (latin_number_spec c)) in A3. apply (not_iff (en_punct_spec c)) in A4.
  destruct (is_char_japanese c) eqn:A9; [apply japanese_spec in A9; cbn [label_spec compact_spec]; tauto|].
  apply (not_iff (japanese_spec c)) in A9.
  destruct (is_char_romaji c) eqn:A10; [apply romaji_spec in A10; cbn [label_spec compact_spec]; tauto|].
  apply (not_iff (romaji_spec c)) in A10. cbn [label_spec compact_spec]. tauto.
Qed.

Lemma compact_label c : In (get_type c true) [En; Ja; Other].
Proof. unfold get_type. ifs; cbn; tauto. Qed.

Lemma compact_label_spec c : compact_spec (get_type c true) c.
Proof.
  unfold get_type. change (ch " ") with 0x20.
  destruct (c =? 0x20) eqn:A0; [cbn [label_spec compact_spec]; lia|].
  destruct (c =? 0x3000) eqn:A1; [cbn [label_spec compact_spec]; lia|].
  destruct (is_char_japanese_number c) eqn:A2.
  { apply ja_number_spec in A2. cbn [label_spec compact_spec]. split; [lia|]. split; [lia|tauto]. }
  destruct (is_char_latin_number c) eqn:A3.
  { apply latin_number_spec in A3. cbn [label_spec compact_spec]. split; [lia|]. split; [lia|tauto]. }
  destruct (is_char_english_punctuation c) eqn:A4.
  { apply en_punct_spec in A4. cbn [label_spec compact_spec]. split; [lia|]. split; [lia|tauto]. }
  destruct (is_char_japanese_punctuation c) eqn:A5.
  { apply ja_punct_spec in A5. cbn [label_spec compact_spec]. split; [lia|]. split; [lia|tauto]. }
  cbn [orb].
  apply (not_iff (ja_punct_spec c)) in A5. apply (not_iff (ja_number_spec c)) in A2.
  apply (not_iff (latin_number_spec c)) in A3. apply (not_iff (en_punct_spec c)) in A4.
  destruct (is_char_japanese c) eqn:A9; [apply japanese_spec in A9; cbn [label_spec compact_spec]; tauto|].
  apply (not_iff (japanese_spec c)) in A9.
  destruct (is_char_romaji c) eqn:A10; [apply romaji_spec in A10; cbn [label_spec compact_spec]; tauto|].
  apply (not_iff (romaji_spec c)) in A10. cbn [label_spec compact_spec]. split; [lia|]. split; [lia|tauto].
Qed.

(** ** C45: concatenation *)
Lemma in_inv_app {A} (a b : list (list A)) t : In t (a ++ b) -> In t a \/ In t b.
Proof. apply in_app_or. Qed.

Lemma separated_app {A K} (f : A -> K) ts us :
  separated f ts -> separated f us ->
  (forall ts' t u us', ts = ts' ++ [t] -> us = u :: us' -> boundary f t u) ->
  separated f (ts ++ us).
Proof.
  intros H1 H2 HB pre a b post E.
  revert ts H1 HB E. induction pre as [|p pre IH]; intros ts H1 HB E.
  - destruct ts as [|t0 [|t1 ts]]; cbn in E.
    + apply (H2 [] a b post E).
    + inversion E; subst. apply (HB [] a b post); reflexivity.
    + inversion E; subst. apply (H1 [] a b ts). reflexivity.
  - destruct ts as [|t0 ts]; cbn in E.
    + apply (H2 (p :: pre) a b post E).
    + inversion E; subst. apply (IH ts).
      * intros pre' a' b' post' E'. apply (H1 (p :: pre') a' b' post'). now rewrite E'.
      * intros ts' t u us' Et Eu. apply (HB (p :: ts') t u us'); [now rewrite Et|exact Eu].
      * assumption.
Qed.

Lemma tokenisation_app {A K} (f : A -> K) ts us a b :
  tokenisation f ts a -> tokenisation f us b ->
  (forall ts' t u us', ts = ts' ++ [t] -> us = u :: us' -> boundary f t u) ->
  tokenisation f (ts ++ us) (a ++ b).
Proof.
  intros (A1 & A2 & A3 & A4) (B1 & B2 & B3 & B4) HB. split; [|split; [|split]].
  - rewrite concat_app. congruence.
  - intros t I. apply in_app_or in I. destruct I; auto.
  - intros t I. apply in_app_or in I. destruct I; auto.
  - now apply separated_app.
Qed.

Lemma app_last_inv {A} (l1 l2 : list A) x y : l1 ++ [x] = l2 ++ [y] -> l1 = l2 /\ x = y.
Proof. apply app_inj_tail. Qed.

(** last character of the text is the last character of the last token *)
Lemma tokenisation_last {A K} (f : A -> K) ts t s t' x :
  tokenisation f (ts ++ [t]) s -> t = t' ++ [x] -> s = (concat ts ++ t') ++ [x].
Proof.
  intros (H & _) ->. rewrite <- H, concat_app. cbn. rewrite app_nil_r, app_assoc. reflexivity.
Qed.

Lemma tokenize_app_diff compact a x y b : ty compact x <> ty compact y ->
  tokenize_with_opt ((a ++ [x]) ++ y :: b) compact
  = tokenize_with_opt (a ++ [x]) compact ++ tokenize_with_opt (y :: b) compact.
Proof.
  intro N. symmetry. apply tokenize_unique.
  pose proof (tokenize_tokenisation (a ++ [x]) compact) as Ta.
  pose proof (tokenize_tokenisation (y :: b) compact) as Tb.
  apply tokenisation_app; [exact Ta|exact Tb|].
  intros ts' t z us' Et Eu t' x' y' u' Ex Ey.
  rewrite Et in Ta. rewrite Eu in Tb.
  pose proof (tokenisation_last _ _ _ _ _ _ Ta Ex) as La. apply app_inj_tail in La.
  destruct La as [_ La]. subst x'.
  destruct Tb as (Tb & _). subst z. cbn in Tb. inversion Tb; subst. exact N.
Qed.

Lemma tokenize_app_same compact a x y b ts t z us : ty compact x = ty compact y ->
  tokenize_with_opt (a ++ [x]) compact = ts ++ [t] ->
  tokenize_with_opt (y :: b) compact = z :: us ->
  tokenize_with_opt ((a ++ [x]) ++ y :: b) compact = ts ++ [t ++ z] ++ us.
Proof.
  intros Q Ea Eb. symmetry. apply tokenize_unique.
  pose proof (tokenize_tokenisation (a ++ [x]) compact) as Ta. rewrite Ea in Ta.
  pose proof (tokenize_tokenisation (y :: b) compact) as Tb. rewrite Eb in Tb.
  destruct Ta as (A1 & A2 & A3 & A4). destruct Tb as (B1 & B2 & B3 & B4).
  assert (Nt : t <> []) by (apply A2, in_elt).
  assert (Nz : z <> []) by (apply B2; now left).
  assert (exists t', t = t' ++ [x]) as (t' & Et).
  { destruct (exists_last Nt) as (t' & x' & Et). exists t'. rewrite Et in *.
    rewrite concat_app in A1. cbn in A1. rewrite app_nil_r, app_assoc in A1.
    apply app_inj_tail in A1. destruct A1 as [_ ->]. reflexivity. }
  assert (exists z', z = y :: z') as (z' & Ez).
  { destruct z as [|y' z']; [congruence|]. cbn in B1. inversion B1; subst. now exists z'. }
  assert (Ht : forall c, In c t -> ty compact c = ty compact x).
  { intros c I. apply (A3 t); [apply in_elt|exact I|rewrite Et; apply in_elt]. }
  assert (Hz : forall c, In c z -> ty compact c = ty compact y).
  { intros c I. apply (B3 z); [now left|exact I|rewrite Ez; now left]. }
  split; [|split; [|split]].
  - rewrite !concat_app. cbn. rewrite app_nil_r. rewrite <- A1, <- B1, concat_app. cbn.
    rewrite app_nil_r, <- !app_assoc. reflexivity.
  - intros w I. apply in_app_or in I. destruct I as [I|I]; [apply A2, in_or_app; now left|].
    cbn in I. destruct I as [<-|I]; [destruct t; [congruence|discriminate]|]. apply B2. now right.
  - intros w I. apply in_app_or in I. destruct I as [I|I]; [apply A3, in_or_app; now left|].
    cbn in I. destruct I as [<-|I]; [|apply B3; now right].
    intros c d Ic Id. apply in_app_or in Ic, Id.
    assert (Hc : ty compact c = ty compact x) by (destruct Ic as [Ic|Ic]; [auto|rewrite Q; auto]).
    assert (Hd : ty compact d = ty compact x) by (destruct Id as [Id|Id]; [auto|rewrite Q; auto]).
    congruence.
  - apply separated_app.
    + intros pre p q post E. apply (A4 pre p q (post ++ [t])).
      rewrite E. rewrite <- app_assoc. reflexivity.
    + apply (separated_app (ty compact) [t ++ z] us).
      * intros pre p q post E. destruct pre as [|? [|? ?]]; discriminate.
      * intros pre p q post E. apply (B4 (z :: pre) p q post). now rewrite E.
      * intros ts' w v us' Ew Ev a' x1 y1 b' Ex1 Ey1.
        destruct ts' as [|? [|? ?]]; try discriminate. cbn in Ew. assert (Ew' : w = t ++ z) by congruence. rewrite Ew' in Ex1.
        destruct (exists_last Nz) as (z1 & zx & Ezl).
        assert (zx = x1).
        { rewrite Ezl, app_assoc in Ex1. apply app_inj_tail in Ex1. tauto. }
        subst zx. apply (B4 [] z v us') with (a' := z1) (b' := b'); auto.
        cbn. now rewrite Ev.
    + intros ts' w v us' Ew Ev a' x1 y1 b' Ex1 Ey1. cbn in Ev. assert (Ev' : v = t ++ z) by congruence. rewrite Ev' in Ey1.
      destruct t as [|t0 t1] eqn:Et0; [congruence|]. cbn in Ey1. inversion Ey1; subst y1.
      apply (A4 ts' w (t0 :: t1) []) with (a' := a') (b' := t1); auto.
      rewrite Ew, <- app_assoc. reflexivity.
Qed.

Lemma tokenize_token compact s t : In t (tokenize_with_opt s compact) ->
  tokenize_with_opt t compact = [t].
Proof.
  intro I. symmetry. apply tokenize_unique.
  destruct (tokenize_tokenisation s compact) as (A1 & A2 & A3 & A4).
  split; [|split; [|split]].
  - cbn. apply app_nil_r.
  - intros w [<-|[]]. now apply A2.
  - intros w [<-|[]]. now apply A3.
  - intros pre p q post E. destruct pre as [|? [|? ?]]; discriminate.
Qed.

Lemma en_punct_range c : S_en_punct c -> c <= 0x7F /\ ~ between 0x30 0x39 c \/ between 0x2018 0x201D c.
Proof.
  unfold S_en_punct, between.
  match goal with |- context [u ?x] => let l := eval vm_compute in (u x) in change (u x) with l end. cbn [In]. lia.
Qed.
Lemma romaji_range c : S_romaji c -> c <= 0x7F \/ between 0x100 0x16B c.
Proof.
  unfold S_romaji, between.
  match goal with |- context [u ?x] => let l := eval vm_compute in (u x) in change (u x) with l end. cbn [In]. lia.
Qed.
Lemma low_romaji c : c <= 0x7F -> S_romaji c.
Proof. now left. Qed.

Ltac ranges := unfold S_japanese, S_ja_number, S_ja_punct, S_kanji, S_hiragana, S_katakana, between in *; lia.
Section Labels.
  Variable c : N.
  Let LO : S_romaji c \/ S_en_punct c -> ~ S_japanese c.
  Proof. intros [H|H] J; [apply romaji_range in H|apply en_punct_range in H]; ranges. Qed.
  Let NR : between 0x30 0x39 c -> S_romaji c.
  Proof. intro H. apply low_romaji. ranges. Qed.
  Let SP : c = 0x20 -> S_en_punct c /\ S_romaji c.
  Proof. intros ->. split; [left; reflexivity|left; lia]. Qed.
  Let NE : between 0x30 0x39 c -> ~ S_en_punct c.
  Proof. intros H G. apply en_punct_range in G. ranges. Qed.
  Let JP : S_ja_punct c -> S_japanese c.
  Proof. ranges. Qed.
  Let JN : S_ja_number c -> S_japanese c.
  Proof. ranges. Qed.
  Let FS : c = 0x3000 -> S_ja_punct c.
  Proof. intros ->. ranges. Qed.

  (** which of the classes a labelled character is in *)
  Definition cls (k : token_type) : Prop :=
    match k with
    | Space => c = 0x20 \/ c = 0x3000
    | EnNum => between 0x30 0x39 c
    | JaNum | Kanji | Hiragana | Katakana => S_japanese c /\ ~ S_ja_punct c
    | JaPunc => S_ja_punct c /\ c <> 0x3000
    | EnPunc => S_en_punct c /\ c <> 0x20
    | En => S_romaji c /\ ~ between 0x30 0x39 c /\ ~ S_en_punct c
    | Ja => S_japanese c /\ ~ S_ja_punct c
    | Other => ~ S_japanese c /\ ~ S_romaji c /\ ~ S_en_punct c
    end.
  Lemma label_cls k : label_spec k c -> cls k.
  Proof. destruct k; cbn [label_spec cls]; try tauto; intro; split; ranges. Qed.
  Lemma label_unique k k' : label_spec k c -> label_spec k' c -> k = k'.
  Proof.
    intros A B. pose proof (label_cls _ A) as A'. pose proof (label_cls _ B) as B'.
    destruct k; cbn [cls] in A'; destruct k'; cbn [cls] in B'; try reflexivity; exfalso;
      cbn [label_spec] in A, B;
      first [ clear - A' B' LO NR SP NE JP FS; tauto | clear A' B' LO NR SP NE JP JN FS; first [ tauto | ranges ]
            | clear LO NR SP NE JP JN FS; destruct A' as [_ A']; destruct B' as [_ B']; first [tauto | ranges] ].
  Qed.
  Lemma compact_unique k k' : compact_spec k c -> compact_spec k' c -> k = k'.
  Proof.
    assert (X1 : compact_spec En c -> compact_spec Ja c -> False).
    { cbn [compact_spec]. intros [A|A] [B|B]; try lia; tauto. }
    assert (X2 : compact_spec En c -> compact_spec Other c -> False).
    { cbn [compact_spec]. intros [A|A] (B1 & B2 & [B|[B|[B|[B|B]]]]); tauto. }
    assert (X3 : compact_spec Ja c -> compact_spec Other c -> False).
    { cbn [compact_spec]. intros [A|A] (B1 & B2 & [B|[B|[B|[B|B]]]]); tauto. }
    destruct k; try (now intros []); destruct k'; try (now intros ? []); intros A B; try reflexivity; exfalso; auto.
  Qed.
End Labels.

(** any classification that meets the description is [get_type] *)
Lemma labels_eq compact f : labels compact f -> forall c, f c = get_type c compact.
Proof.
  intros H c. specialize (H c). destruct compact.
  - exact (compact_unique c _ _ H (compact_label_spec c)).
  - exact (label_unique c _ _ H (detailed_label c)).
Qed.
Lemma labels_get_type compact : labels compact (fun c => get_type c compact).
Proof. intro c. destruct compact; [apply compact_label_spec|apply detailed_label]. Qed.
Lemma tokenisation_ext {A K} (f g : A -> K) ts s : (forall c, f c = g c) ->
  tokenisation f ts s -> tokenisation g ts s.
Proof.
  intros H (T1 & T2 & T3 & T4). split; [exact T1|]. split; [exact T2|]. split.
  - intros t I x y Ix Iy. rewrite <- !H. exact (T3 t I x y Ix Iy).
  - intros pre a b post Z a' x y b' Ea Eb. rewrite <- !H. exact (T4 pre a b post Z a' x y b' Ea Eb).
Qed.
Lemma tokenize_labels compact f s ts : labels compact f ->
  ts = tokenize_with_opt s compact <-> tokenisation f ts s.
Proof.
  intro L. pose proof (labels_eq compact f L) as Q. split.
  - intros ->. apply (tokenisation_ext (ty compact)); [intro c; symmetry; apply Q|apply tokenize_tokenisation].
  - intro T. apply tokenize_unique. exact (tokenisation_ext f _ _ _ Q T).
Qed.
