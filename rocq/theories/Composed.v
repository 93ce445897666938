(** * Composed text in the conversions (proofs for C108) *)
From Verif Require Import Tac Base Std Constants Chars Trees KanaTree RomajiTree Strings Tokenize Convert
  KanaPure RomajiPure KanaSpec KanaDict KanaProofs Predicates ScriptSpec ScriptProofs RomajiSpec RomajiProofs ScriptIdem NormSpec Norm MoraProofs TypingSpec Splits ComposedSpec.

Lemma composes_mark b v : composes b v -> combining v.
Proof.
  intros (c & I). pose proof (table (fun e => match snd e with [_; v] => (v =? voicing) || (v =? semivoicing) | _ => false end) ltac:(vm_compute; reflexivity) c _ I) as T.
  cbn [snd] in T. unfold combining. lia.
Qed.
Lemma split_mark (s : str) : Forall (fun c => ~ combining c) s \/ exists a v b, s = a ++ v :: b /\ combining v /\ Forall (fun c => ~ combining c) a.
Proof.
  induction s as [|c s IH]; [now left|].
  assert (D : combining c \/ ~ combining c) by (unfold combining; lia). destruct D as [D|D].
  - right. exists [], c, s. repeat split; auto.
  - destruct IH as [IH|(a & v & b & -> & V & F)]; [left; now constructor|]. right. exists (c :: a), v, b. repeat split; auto.
Qed.
(** two texts compared at their first marks *)
Lemma first_mark (p r a b : str) v w : p ++ v :: r = a ++ w :: b -> combining v -> Forall (fun c => ~ combining c) a ->
  (p = a /\ v = w /\ r = b) \/ exists p', p = a ++ w :: p' /\ b = p' ++ v :: r.
Proof.
  intros Q V. revert p Q. induction a as [|c a IH]; intros p Q F.
  - destruct p as [|d p]; cbn in Q; injection Q as -> Q; [left; auto|]. right. exists p. auto.
  - apply Forall_cons_iff in F as [F1 F2]. destruct p as [|d p]; cbn in Q; injection Q as -> Q; [contradiction|].
    destruct (IH p Q F2) as [(-> & -> & ->)|(p' & -> & ->)]; [left; auto|]. right. exists p'. auto.
Qed.

(** functions that leave the marks where they are *)
Section Marks.
  Variables F G : str -> str.
  Hypothesis FM : forall a v b, combining v -> F (a ++ v :: b) = F a ++ v :: G b.
  Hypothesis GM : forall a v b, combining v -> G (a ++ v :: b) = G a ++ v :: G b.
  Hypothesis FN : forall a, Forall (fun c => ~ combining c) a -> Forall (fun c => ~ combining c) (F a).
  Hypothesis GN : forall a, Forall (fun c => ~ combining c) a -> Forall (fun c => ~ combining c) (G a).
  Lemma no_mark_in (p r : str) v : combining v -> ~ Forall (fun c => ~ combining c) (p ++ v :: r).
  Proof. intros V H. apply Forall_app in H as [_ H]. inversion H. contradiction. Qed.
  Lemma G_back : forall s p v r, combining v -> G s = p ++ v :: r -> exists a b, s = a ++ v :: b /\ G a = p.
  Proof.
    induction s as [s IH] using str_ind_len. intros p v r V Q.
    destruct (split_mark s) as [N|(a & w & b & -> & W & N)]; [exfalso; apply GN in N; rewrite Q in N; now apply no_mark_in in N|].
    rewrite GM in Q by exact W. symmetry in Q. destruct (first_mark _ _ _ _ _ _ Q V (GN _ N)) as [(-> & -> & ->)|(p' & -> & Q2)]; [eauto|].
    destruct (IH b) with (p := p') (v := v) (r := r) as (a2 & b2 & -> & X); [rewrite app_length; cbn; lia|exact V|exact Q2|].
    exists (a ++ w :: a2), b2. split; [now rewrite <- app_assoc|]. now rewrite GM, X.
  Qed.
  Lemma F_back : forall s p v r, combining v -> F s = p ++ v :: r -> exists a b, s = a ++ v :: b /\ F a = p.
  Proof.
    intros s p v r V Q.
    destruct (split_mark s) as [N|(a & w & b & -> & W & N)]; [exfalso; apply FN in N; rewrite Q in N; now apply no_mark_in in N|].
    rewrite FM in Q by exact W. symmetry in Q. destruct (first_mark _ _ _ _ _ _ Q V (FN _ N)) as [(-> & -> & ->)|(p' & -> & Q2)]; [eauto|].
    destruct (G_back b p' v r V Q2) as (a2 & b2 & -> & X). exists (a ++ w :: a2), b2. split; [now rewrite <- app_assoc|]. now rewrite FM, X.
  Qed.
  Lemma F_composed s : in_composed_form (F s) <-> forall a v b p x, s = a ++ v :: b -> F a = p ++ [x] -> ~ composes x v.
  Proof.
    split.
    - intros H a v b p x -> Q C. apply (H p x v (G b)); [|exact C]. rewrite FM by exact (composes_mark _ _ C). now rewrite Q, <- app_assoc.
    - intros H p x v r Q C. change (p ++ x :: v :: r) with (p ++ [x] ++ v :: r) in Q. rewrite app_assoc in Q.
      destruct (F_back _ _ _ _ (composes_mark _ _ C) Q) as (a & b & -> & X). exact (H a v b p x eq_refl X C).
  Qed.
End Marks.

(** ** to_kana *)
Lemma conv_mark m v a b : combining v -> conv m (a ++ v :: b) = conv m a ++ v :: conv m b.
Proof. intro V. apply conv_boundary, kana_in_no_key. unfold combining, voicing, semivoicing in V. lia. Qed.
Lemma values_no_mark m k v seg : entry m k v -> Forall (fun c => ~ combining c) (emit seg v).
Proof.
  intros I. assert (T : forallb (fun e => forallb (fun c => negb ((c =? voicing) || (c =? semivoicing))) (snd e ++ h2k (snd e))) (dict m) = true)
    by (destruct m; vm_compute; reflexivity).
  rewrite forallb_forall in T. specialize (T _ I). cbn [snd] in T. rewrite forallb_forall in T.
  apply Forall_forall. intros x J. specialize (T x). unfold combining. enough (Y : In x (v ++ h2k v)) by (specialize (T Y); lia).
  apply in_or_app. unfold emit in J. destruct (forallb is_AZ seg); auto.
Qed.
Lemma conv_no_mark m : forall s, Forall (fun c => ~ combining c) s -> Forall (fun c => ~ combining c) (conv m s).
Proof.
  induction s as [s IH] using str_ind_len. intros H. destruct s as [|a s]; [rewrite kconv_nil; constructor|].
  destruct (kconv_step m a s) as [(seg & rest & n & v & Sp & N & K & A & O & R & ->)|[O ->]].
  - rewrite Sp in H. apply Forall_app in H as [_ H]. apply Forall_app. split.
    + apply (values_no_mark m (low seg)). apply entry_node. eauto.
    + apply IH; [|exact H]. rewrite Sp, app_length. destruct seg; [congruence|cbn; lia].
  - apply Forall_cons_iff in H as [H1 H2]. constructor; [exact H1|]. apply IH; [cbn; lia|exact H2].
Qed.
Lemma conv_composed m s : in_composed_form (conv m s) <-> forall a v b p x, s = a ++ v :: b -> conv m a = p ++ [x] -> ~ composes x v.
Proof.
  apply (F_composed (conv m) (conv m)); intros.
  - now apply conv_mark.
  - now apply conv_mark.
  - now apply conv_no_mark.
  - now apply conv_no_mark.
Qed.

(** ** katakana_to_hiragana *)
Lemma k2h_go_mark E d v b : combining v -> forall a pc pk,
  k2h_go E d pc pk (a ++ v :: b) = k2h_go E d pc pk a ++ v :: k2h_go E d (Some voicing) None b.
Proof.
  intros V. assert (S : forall w, k2h_go E d (Some w) None b = k2h_go E d (Some voicing) None b) by (intro w; destruct b; reflexivity).
  induction a as [|c a IH]; intros pc pk.
  - cbn [app]. rewrite <- (S v). destruct V as [-> | ->]; destruct pc, pk; reflexivity.
  - cbn [app k2h_go]. destruct (_ || _ || _); [now rewrite IH|].
    destruct pc, pk; destruct (is_char_long_dash c); cbn [negb andb]; try destruct (is_char_katakana c); rewrite ?IH, ?app_assoc; reflexivity.
Qed.
Lemma k2hc_mark c : combining (k2hc c) -> combining c.
Proof. destruct (k2hc_cases c) as [->|[_ H]]; [auto|]. unfold hiragana_letter in H. unfold combining, voicing, semivoicing. lia. Qed.
Lemma k2h_go_no_mark E d pc pk s : Forall (fun c => ~ combining c) s -> Forall (fun c => ~ combining c) (k2h_go E d pc pk s).
Proof.
  rewrite !Forall_forall. intros H x I V. apply k2h_go_In in I as [I|[_ I]].
  - apply in_map_iff in I as (c & <- & I). apply (H c I). now apply k2hc_mark.
  - vm_compute in I. unfold combining, voicing, semivoicing in V. destruct I as [<-|[<-|[<-|[<-|[<-|[]]]]]]; lia.
Qed.
Lemma k2h_composed E d s : in_composed_form (k2h E d s) <-> forall a v b p x, s = a ++ v :: b -> k2h E d a = p ++ [x] -> ~ composes x v.
Proof.
  apply (F_composed (k2h E d) (k2h_go E d (Some voicing) None)); intros; unfold k2h; auto using k2h_go_mark, k2h_go_no_mark.
Qed.

(** ** hiragana_to_katakana *)
Definition composes_b (b v : N) : bool := existsb (fun e => str_eqb (snd e) [b; v]) composed.
Lemma composes_b_spec b v : composes_b b v = true <-> composes b v.
Proof.
  unfold composes_b, composes. rewrite existsb_exists. split.
  - intros ([c p] & I & Q). apply str_eqb_eq in Q. cbn in Q. subst p. eauto.
  - intros (c & I). exists (c, [b; v]). split; [exact I|]. apply str_eqb_eq. reflexivity.
Qed.
Lemma h2k_composes b v : composes (h2k_char b) v <-> composes b v \/ (In b (u "わゐゑを") /\ v = voicing).
Proof.
  destruct (h2k_char_cases b) as [Q|[H Q]].
  - rewrite Q. split; [auto|]. intros [C|[I ->]]; [exact C|]. exfalso. revert Q. vm_compute in I.
    destruct I as [<-|[<-|[<-|[<-|[]]]]]; vm_compute; discriminate.
  - assert (T : forallb (fun d => Bool.eqb (composes_b (h2k_char d) voicing) (composes_b d voicing || existsb (N.eqb d) (u "わゐゑを"))
        && Bool.eqb (composes_b (h2k_char d) semivoicing) (composes_b d semivoicing)) (map (fun n => 0x3041 + N.of_nat n) (seq 0 86)) = true) by (vm_compute; reflexivity).
    rewrite forallb_forall in T. specialize (T b).
    assert (I : In b (map (fun n => 0x3041 + N.of_nat n) (seq 0 86))).
    { apply in_map_iff. unfold hiragana_letter in H. exists (N.to_nat (b - 0x3041)). split; [lia|]. apply in_seq. lia. }
    specialize (T I). andbs.
    repeat match goal with X : Bool.eqb _ _ = true |- _ => apply eqb_prop in X end.
    split.
    + intro C. destruct (composes_mark _ _ C) as [-> | ->]; apply composes_b_spec in C.
      * match goal with X : composes_b (h2k_char b) voicing = _ || _ |- _ => rewrite X in C end. apply orb_prop in C as [C|C].
        -- left. now apply composes_b_spec.
        -- right. apply existsb_In in C. auto.
      * match goal with X : composes_b (h2k_char b) semivoicing = composes_b _ _ |- _ => rewrite X in C end. left. now apply composes_b_spec.
    + intros [C|[J ->]].
      * destruct (composes_mark _ _ C) as [-> | ->]; apply composes_b_spec in C; apply composes_b_spec;
          match goal with X : ?l = _ |- ?l = true => rewrite X, C end; reflexivity.
      * apply composes_b_spec. match goal with X : ?l = _ |- ?l = true => rewrite X end. apply existsb_In in J. rewrite J. apply orb_true_r.
Qed.
Lemma h2k_mark v : combining (h2k_char v) -> h2k_char v = v.
Proof. intro C. destruct (h2k_char_cases v) as [Q|[H Q]]; [exact Q|]. unfold combining, voicing, semivoicing, hiragana_letter in *. lia. Qed.
Lemma h2k_composed s : in_composed_form (h2k s) <->
  in_composed_form s /\ forall a b r, s = a ++ b :: voicing :: r -> ~ In b (u "わゐゑを").
Proof.
  assert (M : forall v, combining v -> h2k_char v = v) by (intros v [-> | ->]; reflexivity).
  split.
  - intros H. split.
    + intros a b v r -> C. apply (H (h2k a) (h2k_char b) v (h2k r)).
      * unfold h2k. rewrite map_app. cbn [map]. now rewrite (M v) by exact (composes_mark _ _ C).
      * apply h2k_composes. now left.
    + intros a b r -> I. apply (H (h2k a) (h2k_char b) voicing (h2k r)).
      * unfold h2k. rewrite map_app. cbn [map]. now rewrite (M voicing) by now left.
      * apply h2k_composes. auto.
  - intros [H1 H2] a b v r Q C. unfold h2k in Q. apply map_eq_app in Q as (a' & r1 & -> & <- & Q).
    destruct r1 as [|b' [|v' r']]; try discriminate Q. cbn [map] in Q. injection Q as <- Qv <-.
    pose proof (composes_mark _ _ C) as V. rewrite <- Qv in V. rewrite (h2k_mark _ V) in Qv. subst v'.
    apply h2k_composes in C as [C|[I ->]]; [exact (H1 _ _ _ _ eq_refl C)|exact (H2 _ _ _ eq_refl I)].
Qed.

(** ** to_romaji *)
Lemma romaji_base E o s x v : std_ok E -> composes x v -> In x (rconv E o s (k2h E true s)) -> In x (u "ゝヽ") /\ In x s.
Proof.
  intros HE (c & C) I.
  assert (T : forallb (fun e => match snd e with [b; v] => negb (k2hc b =? b) && negb (existsb (N.eqb b) (u "ゝヽ")) && (0x3041 <=? b)
      || existsb (fun e => str_eqb (fst e) [b]) rdict && (0x3041 <=? b)
      || existsb (N.eqb b) (u "ゝヽ") | _ => false end) composed = true) by (vm_compute; reflexivity).
  apply (table _ T) in C. cbn [snd] in C. clear T.
  destruct (rconv_In E o HE _ _ _ I) as [[J N]|(seg & oseg & w & _ & R & J)].
  - apply orb_prop in C as [C|C]; [apply orb_prop in C as [C|C]|].
    + exfalso. andbs. destruct (k2h_go_In _ _ _ _ _ _ J) as [K|[_ K]].
      * apply in_map_iff in K as (d & Q & K). destruct (k2hc_cases d) as [Q2|[_ Q2]].
        -- rewrite Q2 in Q. subst d. rewrite Q2, N.eqb_refl in H. discriminate H.
        -- rewrite Q in Q2. destruct (k2hc_cases x) as [Q3|[Q3 _]].
           ++ rewrite Q3, N.eqb_refl in H. discriminate H.
           ++ unfold hiragana_letter, katakana_letter in *. lia.
      * vm_compute in K. destruct K as [<-|[<-|[<-|[<-|[<-|[]]]]]]; vm_compute in H; discriminate H.
    + exfalso. andbs. apply existsb_exists in H as ([k w] & R & Q). apply str_eqb_eq in Q. cbn in Q. subst k. exact (N _ R).
    + apply existsb_In in C. split; [exact C|]. destruct (k2h_go_In _ _ _ _ _ _ J) as [K|[_ K]].
      * apply in_map_iff in K as (d & Q & K). destruct (k2hc_cases d) as [Q2|[_ Q2]]; [congruence|]. exfalso. rewrite Q in Q2.
        unfold hiragana_letter in Q2. vm_compute in C. destruct C as [<-|[<-|[]]]; lia.
      * exfalso. vm_compute in C, K. destruct C as [<-|[<-|[]]]; destruct K as [K|[K|[K|[K|[K|[]]]]]]; discriminate K.
  - exfalso. pose proof (r_outputs (fun c => c <? 0x3041) ltac:(vm_compute; reflexivity) _ _ _ _ _ R J) as L. cbn beta in L.
    assert (B : 0x3041 <= x).
    { apply orb_prop in C as [C|C]; [apply orb_prop in C as [C|C]; andbs; lia|]. apply existsb_In in C. vm_compute in C. destruct C as [<-|[<-|[]]]; lia. }
    lia.
Qed.
(** the conversion restarts at combining marks and at iteration marks *)
Definition stop (c : N) : Prop := combining c \/ In c (u "ゝヽ").
Lemma stop_range c : stop c <-> c = 0x3099 \/ c = 0x309A \/ c = 0x309D \/ c = 0x30FD.
Proof.
  unfold stop, combining, voicing, semivoicing. change (In c (u "ゝヽ")) with (0x309D = c \/ 0x30FD = c \/ False). lia.
Qed.
Lemma stop_no_entry k v c : r_entry k v -> In c k -> ~ stop c.
Proof.
  intros R I S. assert (T : forallb (fun e => forallb (fun c => negb ((c =? 0x3099) || (c =? 0x309A) || (c =? 0x309D) || (c =? 0x30FD))) (fst e)) rdict = true) by (vm_compute; reflexivity).
  rewrite forallb_forall in T. specialize (T _ R). cbn [fst] in T. rewrite forallb_forall in T. specialize (T c I). apply stop_range in S. lia.
Qed.
Lemma k2h_go_start E d v s : k2h_go E d (Some v) None s = k2h_go E d None None s.
Proof.
  destruct s as [|c s]; [reflexivity|]. cbn [k2h_go is_none]. rewrite !andb_false_r, !andb_true_r.
  destruct (is_char_slash_dot c), (is_char_long_dash c), (is_kana_as_symbol c); cbn [orb andb negb]; reflexivity.
Qed.
Lemma k2h_go_stop E d v b : stop v -> forall a pc pk, k2h_go E d pc pk (a ++ v :: b) = k2h_go E d pc pk a ++ v :: k2h E d b.
Proof.
  intros V. apply stop_range in V. induction a as [|c a IH]; intros pc pk.
  - cbn [app]. unfold k2h. rewrite <- (k2h_go_start E d v). destruct V as [-> |[-> |[-> | ->]]]; destruct pc, pk; reflexivity.
  - cbn [app k2h_go]. destruct (_ || _ || _); [now rewrite IH|].
    destruct pc, pk; destruct (is_char_long_dash c); cbn [negb andb]; try destruct (is_char_katakana c); rewrite ?IH, ?app_assoc; reflexivity.
Qed.
Section Romaji.
  Variable E : std.
  Hypothesis HE : std_ok E.
  Let F (s : str) : str := rconv E false [] (k2h E true s).
  Lemma rconv_stop v b a : stop v -> rconv E false [] (a ++ v :: b) = rconv E false [] a ++ v :: rconv E false [] b.
  Proof.
    intros V. rewrite rconv_split; [|exact HE|].
    - rewrite skipn_nil. f_equal. rewrite rconv_copy; [now rewrite skipn_nil|exact HE|]. intros w R. exact (stop_no_entry _ _ v R (or_introl eq_refl) V).
    - intros a' b' c y w _ _ Q R. injection Q as <- _. apply (stop_no_entry _ _ v R); [|exact V]. apply in_or_app. right. now left.
  Qed.
  Lemma F_stop a v b : stop v -> F (a ++ v :: b) = F a ++ v :: F b.
  Proof. intros V. unfold F. unfold k2h at 1. rewrite k2h_go_stop by exact V. now rewrite rconv_stop. Qed.
  Lemma F_no_stop a : Forall (fun c => ~ stop c) a -> Forall (fun c => ~ stop c) (F a).
  Proof.
    rewrite !Forall_forall. intros H x I V. destruct (rconv_In E false HE _ _ _ I) as [[J _]|(seg & oseg & w & _ & R & J)].
    - apply k2h_go_In in J as [J|[_ J]].
      + apply in_map_iff in J as (c & Q & J). destruct (k2hc_cases c) as [Q2|[_ Q2]]; [rewrite Q2 in Q; subst c; exact (H x J V)|].
        rewrite Q in Q2. apply stop_range in V. unfold hiragana_letter in Q2. lia.
      + apply stop_range in V. vm_compute in J. destruct J as [<-|[<-|[<-|[<-|[<-|[]]]]]]; lia.
    - pose proof (r_outputs (fun c => c <? 0x3041) ltac:(vm_compute; reflexivity) _ _ _ _ _ R J) as L. cbn beta in L. apply stop_range in V. lia.
  Qed.
  Lemma split_stop (s : str) : Forall (fun c => ~ stop c) s \/ exists a v b, s = a ++ v :: b /\ stop v /\ Forall (fun c => ~ stop c) a.
  Proof.
    induction s as [|c s IH]; [now left|].
    assert (D : stop c \/ ~ stop c) by (rewrite stop_range; lia). destruct D as [D|D].
    - right. exists [], c, s. repeat split; auto.
    - destruct IH as [IH|(a & v & b & -> & V & N)]; [left; now constructor|]. right. exists (c :: a), v, b. repeat split; auto.
  Qed.
  Lemma first_stop (p r a b : str) v w : p ++ v :: r = a ++ w :: b -> stop v -> Forall (fun c => ~ stop c) a ->
    (p = a /\ v = w /\ r = b) \/ exists p', p = a ++ w :: p' /\ b = p' ++ v :: r.
  Proof.
    intros Q V. revert p Q. induction a as [|c a IH]; intros p Q N.
    - destruct p as [|d p]; cbn in Q; injection Q as -> Q; [left; auto|]. right. exists p. auto.
    - apply Forall_cons_iff in N as [F1 F2]. destruct p as [|d p]; cbn in Q; injection Q as -> Q; [contradiction|].
      destruct (IH p Q F2) as [(-> & -> & ->)|(p' & -> & ->)]; [left; auto|]. right. exists p'. auto.
  Qed.
  Lemma stop_back : forall s p v r, stop v -> F s = p ++ v :: r -> exists a b, s = a ++ v :: b /\ F a = p /\ F b = r.
  Proof.
    induction s as [s IH] using str_ind_len. intros p v r V Q.
    destruct (split_stop s) as [N|(a & w & b & -> & W & N)].
    - exfalso. apply F_no_stop in N. rewrite Q in N. apply Forall_app in N as [_ N]. inversion N. contradiction.
    - rewrite F_stop in Q by exact W. symmetry in Q. destruct (first_stop _ _ _ _ _ _ Q V (F_no_stop _ N)) as [(-> & -> & ->)|(p' & -> & Q2)]; [eauto|].
      destruct (IH b) with (p := p') (v := v) (r := r) as (a2 & b2 & -> & X & Y); [rewrite app_length; cbn; lia|exact V|exact Q2|].
      exists (a ++ w :: a2), b2. split; [now rewrite <- app_assoc|]. split; [now rewrite F_stop, X|exact Y].
  Qed.
  Lemma iter_composes x v : In x (u "ゝヽ") -> (composes x v <-> v = voicing).
  Proof.
    intros I. split.
    - intros (c & C).
      pose proof (table (fun e => match snd e with [b; v] => negb (existsb (N.eqb b) (u "ゝヽ")) || (v =? voicing) | _ => false end)
        ltac:(vm_compute; reflexivity) _ _ C) as T. cbn [snd] in T. apply existsb_In in I. rewrite I in T. cbn [negb orb] in T. lia.
    - intros ->. apply composes_b_spec. vm_compute in I. destruct I as [<-|[<-|[]]]; vm_compute; reflexivity.
  Qed.
  Lemma F_exact s : in_composed_form (F s) <-> forall a x w b, s = a ++ x :: w ++ voicing :: b -> In x (u "ゝヽ") -> F w <> [].
  Proof.
    assert (VS : stop voicing) by (left; now left). split.
    - intros H a x w b -> I Q. apply (H (F a) x voicing (F b)); [|now apply iter_composes].
      rewrite F_stop by now right. rewrite F_stop by exact VS. now rewrite Q.
    - intros H p x v r Q C. destruct (romaji_base E false s x v HE C) as [I _]; [rewrite (rconv_noup E _ HE s []); fold (F s); rewrite Q; apply in_or_app; right; now left|].
      apply (iter_composes x v I) in C. subst v. destruct (stop_back _ _ _ _ (or_intror I) Q) as (a & c & -> & _ & X).
      destruct (stop_back c [] _ _ VS X) as (w & b & -> & Y & _). exact (H a x w b eq_refl I Y).
  Qed.
End Romaji.
Lemma low_kana x y : ascii_lower x = ascii_lower y -> 0x3041 <= x -> x = y.
Proof. unfold ascii_lower. ifs; lia. Qed.
Lemma composes_kana b v : composes b v -> 0x3041 <= b /\ 0x3041 <= v.
Proof.
  intros (c & C). pose proof (table (fun e => match snd e with [b; v] => (0x3041 <=? b) && (0x3041 <=? v) | _ => false end) ltac:(vm_compute; reflexivity) _ _ C) as T.
  cbn [snd] in T. lia.
Qed.
Lemma low_composed s t : low s = low t -> in_composed_form s -> in_composed_form t.
Proof.
  intros L H a b v r -> C. unfold low in L. rewrite map_app in L. symmetry in L. apply eq_sym, map_eq_app in L as (a' & s' & -> & _ & L).
  destruct s' as [|b' [|v' r']]; try discriminate L. injection L as L1 L2 _. destruct (composes_kana _ _ C) as [B V].
  symmetry in L1, L2. apply low_kana in L1; [|exact B]. apply low_kana in L2; [|exact V]. subst b' v'. exact (H a' b v r' eq_refl C).
Qed.
Lemma romaji_exact E up s : std_ok E ->
  (in_composed_form (rconv E up s (k2h E true s)) <->
   forall a x w b, s = a ++ x :: w ++ voicing :: b -> In x (u "ゝヽ") -> rconv E up w (k2h E true w) <> []).
Proof.
  intros HE.
  assert (L : forall w, low (rconv E up w (k2h E true w)) = low (rconv E false [] (k2h E true w))).
  { intro w. rewrite (rconv_low E HE _ w up false). f_equal. now apply rconv_noup. }
  assert (Z : forall w, rconv E up w (k2h E true w) = [] <-> rconv E false [] (k2h E true w) = []).
  { intro w. specialize (L w). split; intro Q; rewrite Q in L; [symmetry in L|]; now apply map_eq_nil in L. }
  transitivity (in_composed_form (rconv E false [] (k2h E true s))); [split; apply low_composed; now rewrite L|].
  rewrite F_exact by exact HE. split; intros H a x w b Q I; [rewrite Z|rewrite <- Z]; exact (H a x w b Q I).
Qed.
