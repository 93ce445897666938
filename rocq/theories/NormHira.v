(** * Decomposed kana in to_hiragana (proofs for C106) *)
From Verif Require Import Tac Base Std Constants Chars Trees KanaTree RomajiTree Strings Tokenize Convert
  KanaPure RomajiPure KanaSpec KanaDict KanaProofs Predicates ScriptSpec ScriptProofs MoraProofs TokenSpec TokenizeProofs NormSpec Norm.

(** the hiragana of a composed text and of its decomposition, with the number of marks (ー) that were only replaced in the first
    and of voicing marks that were lost there *)
Inductive pieces : nat -> nat -> str -> str -> Prop :=
| P_nil : pieces 0 0 [] []
| P_same n m c p q : ~ is_composed c -> pieces n m p q -> pieces n m (c :: p) (c :: q)
| P_dec n m c p q : is_composed c -> pieces n m p q -> pieces n m (c :: p) (decompose_char c ++ q)
| P_lost n m h p q : In h (u "わゐゑを") -> pieces n m p q -> pieces n (S m) (h :: p) (h :: voicing :: q)
| P_mark n m v p q : In v (u "あいうえ") -> pieces n m p q -> pieces (S n) m (v :: p) (long_mark :: q).

Lemma pieces_app_same n m p q l : (forall c, In c l -> ~ is_composed c) -> pieces n m p q -> pieces n m (l ++ p) (l ++ q).
Proof. intros H P. induction l as [|c l IH]; [exact P|]. cbn. apply P_same; [apply H; now left|]. apply IH. intros d D. apply H. now right. Qed.

Lemma vowel_any_pc E q q' p c : k2h_vowel E false q p c = k2h_vowel E false q' p c.
Proof. unfold k2h_vowel. destruct (rfind E RT p); [|reflexivity]. destruct (last_char _); [|reflexivity]. now rewrite !andb_false_r. Qed.

(** what the loop does with a composed kana and with its two characters *)
Definition kata_b (c : N) : bool := (0x30A1 <=? c) && (c <=? 0x30FA).
Lemma go_composed E d c pc pk s : is_composed c ->
  k2h_go E d pc pk (c :: s) = k2hc c :: k2h_go E d (Some c) (if kata_b c then Some (k2hc c) else None) s.
Proof.
  intros C. cbn [k2h_go].
  assert (T : forallb (fun c => negb (is_char_slash_dot c) && negb (is_char_long_dash c) && negb (is_kana_as_symbol c)
     && Bool.eqb (is_char_katakana c) (kata_b c) && (k2hc c =? if kata_b c then hira_of_kata c else c)) (map fst composed) = true) by (vm_compute; reflexivity).
  rewrite forallb_forall in T. specialize (T c C). andbs.
  repeat match goal with H : negb _ = true |- _ => apply negb_true_iff in H; rewrite H end.
  match goal with H : Bool.eqb _ _ = true |- _ => apply eqb_prop in H; rewrite H end.
  match goal with H : (_ =? _) = true |- _ => apply N.eqb_eq in H; rewrite H end.
  cbn [orb andb negb]. destruct (kata_b c); destruct pc, pk; reflexivity.
Qed.
Lemma go_decomposed E d c p pc pk s : In (c, p) composed -> exists b v, p = [b; v] /\
  k2h_go E d pc pk (b :: v :: s) = k2hc b :: v :: k2h_go E d (Some v) None s.
Proof.
  intros I.
  pose proof (table (fun e => match snd e with [b; v] => negb (is_char_slash_dot b) && negb (is_char_long_dash b) && negb (is_kana_as_symbol b)
     && (k2hc b =? if is_char_katakana b then hira_of_kata b else b) && negb (is_char_slash_dot v) && negb (is_char_long_dash v) && negb (is_kana_as_symbol v) && negb (is_char_katakana v)
     | _ => false end) ltac:(vm_compute; reflexivity) c p I) as T.
  cbn [snd] in T. destruct p as [|b [|v [|]]]; try discriminate. exists b, v. split; [reflexivity|]. andbs.
  repeat match goal with H : negb _ = true |- _ => apply negb_true_iff in H end.
  match goal with H : (_ =? _) = true |- _ => apply N.eqb_eq in H; rewrite H end.
  cbn [k2h_go]. repeat match goal with H : _ = false |- _ => rewrite H end. cbn [orb andb negb].
  destruct (is_char_katakana b); destruct pc, pk; reflexivity.
Qed.
Lemma lost_b c p : In (c, p) composed -> forall b v, p = [b; v] ->
  (In c (u "ヷヸヹヺ") /\ v = voicing /\ k2hc b = k2hc c /\ In (k2hc c) (u "わゐゑを"))
  \/ (~ In c (u "ヷヸヹヺ") /\ is_composed (k2hc c) /\ decompose_char (k2hc c) = [k2hc b; v]).
Proof.
  intros I b v ->.
  pose proof (table (fun e => match snd e with [b; v] =>
      if existsb (N.eqb (fst e)) (u "ヷヸヹヺ") then (v =? voicing) && (k2hc b =? k2hc (fst e)) && existsb (N.eqb (k2hc (fst e))) (u "わゐゑを")
      else existsb (N.eqb (k2hc (fst e))) (map fst composed) && str_eqb (decompose_char (k2hc (fst e))) [k2hc b; v]
     | _ => false end) ltac:(vm_compute; reflexivity) c _ I) as T.
  cbn [snd fst] in T. destruct (existsb (N.eqb c) (u "ヷヸヹヺ")) eqn:X.
  - left. andbs. apply existsb_In in X. split; [exact X|]. repeat match goal with H : (_ =? _) = true |- _ => apply N.eqb_eq in H end.
    match goal with H : existsb _ _ = true |- _ => apply existsb_In in H end. auto.
  - right. andbs. split. { intro J. apply existsb_In in J. congruence. }
    match goal with H : str_eqb _ _ = true |- _ => apply str_eqb_eq in H end.
    match goal with H : existsb _ _ = true |- _ => apply existsb_In in H end. auto.
Qed.
Lemma k2hc_other c : ~ is_composed c -> ~ is_composed (k2hc c).
Proof.
  intros N C. destruct (proj2 (k2hc_spec c (k2hc c)) eq_refl) as [[-> Q]|[[-> Q]|[[-> Q]|[[-> Q]|[[B Q]|(_ & _ & Q)]]]]];
    try (apply N; apply existsb_In; reflexivity); rewrite Q in C; [|exact (N C)].
  assert (T : forallb (fun d => negb (existsb (N.eqb (d - 96)) keys) || existsb (N.eqb d) keys) (map (fun n => 0x30A1 + N.of_nat n) (seq 0 84)) = true) by (vm_compute; reflexivity).
  rewrite forallb_forall in T. specialize (T c). change keys with (map fst composed) in T.
  assert (I : In c (map (fun n => 0x30A1 + N.of_nat n) (seq 0 84))).
  { apply in_map_iff. exists (N.to_nat (c - 0x30A1)). split; [lia|]. apply in_seq. lia. }
  specialize (T I). apply orb_prop in T as [T|T].
  - apply existsb_In in C. apply negb_true_iff in T. congruence.
  - apply existsb_In in T. exact (N T).
Qed.
Lemma voiced_vowel k v : is_composed k -> mark_vowel (u "う") k v -> exists x, v = [x] /\ In x (u "あいうえ").
Proof.
  intros C (row & I & J). vm_compute in I. destruct I as [I|[I|[I|[I|[I|[I|[]]]]]]]; injection I as <- <-;
    try (eexists; split; [reflexivity|vm_compute; tauto]).
  exfalso. apply existsb_In in C. destruct J as [<-|[<-|[]]]; discriminate C.
Qed.
Lemma vowels_not_composed x : In x (u "あいうえお") \/ x = long_mark -> ~ is_composed x.
Proof. intros [I| ->] C; apply existsb_In in C; [|discriminate]. vm_compute in I. repeat destruct I as [<-|I]; try contradiction; discriminate. Qed.

(** ** Both loops *)
Definition state (a : str) (pk pk' : option N) : Prop :=
  (pk' = pk /\ forall k, lengthens a k -> ~ is_composed k) \/ (pk' = None /\ exists k, lengthens a k /\ is_composed k).
Definition long_bad (a s : str) : Prop := exists x y k, s = x ++ long_mark :: y /\ lengthens (a ++ x) k /\ is_composed k.
Lemma long_bad_cons a c s : long_bad a (c :: s) <-> (c = long_mark /\ exists k, lengthens a k /\ is_composed k) \/ long_bad (a ++ [c]) s.
Proof.
  split.
  - intros ([|d x] & y & k & Q & L & C).
    + injection Q as -> ->. rewrite app_nil_r in L. left. eauto.
    + injection Q as -> ->. right. exists x, y, k. rewrite <- app_assoc. auto.
  - intros [(-> & k & L & C)|(x & y & k & -> & L & C)].
    + exists [], s, k. rewrite app_nil_r. auto.
    + exists (c :: x), y, k. rewrite <- app_assoc in L. auto.
Qed.
Lemma go_pc E pc pc' pk s : is_none pc = is_none pc' -> k2h_go E false pc pk s = k2h_go E false pc' pk s.
Proof.
  destruct s as [|c s]; [reflexivity|]. intros H. cbn [k2h_go]. rewrite H.
  destruct pc as [q|], pc' as [q'|]; try discriminate; [|reflexivity]. destruct pk; [|reflexivity]. now rewrite (vowel_any_pc E q q').
Qed.
Lemma sim E : std_ok E -> forall s a pk pk' pc', pk_state a pk -> state a pk pk' -> is_none pc' = is_none (last_char a) ->
  exists n m, pieces n m (k2h_go E false (last_char a) pk s) (k2h_go E false pc' pk' (decompose s))
    /\ (n = 0%nat <-> ~ long_bad a s) /\ (m = 0%nat <-> forall c, In c s -> ~ In c (u "ヷヸヹヺ")).
Proof.
  intros HE. induction s as [|c s IH]; intros a pk pk' pc' P St Pc.
  { exists 0%nat, 0%nat. split; [constructor|]. split; split; try reflexivity; [|intros _ c []]. intros _ (x & y & k & Q & _). destruct x; discriminate. }
  assert (W : forall m, (m = 0%nat <-> forall d, In d s -> ~ In d (u "ヷヸヹヺ")) -> ~ In c (u "ヷヸヹヺ") ->
     (m = 0%nat <-> forall d, In d (c :: s) -> ~ In d (u "ヷヸヹヺ"))).
  { intros m H Nc. rewrite H. split; [intros G d [<-|D]; auto|intros G d D; apply G; now right]. }
  assert (L : forall n, (n = 0%nat <-> ~ long_bad (a ++ [c]) s) -> ~ (c = long_mark /\ exists k, lengthens a k /\ is_composed k) ->
     (n = 0%nat <-> ~ long_bad a (c :: s))).
  { intros n H G. rewrite H, long_bad_cons. tauto. }
  destruct (dec1_cases c) as [[N X]|(p & I & X)].
  - (* not composed *)
    cbn [decompose flat_map]. rewrite X. cbn [app]. fold (decompose s).
    assert (Nw : ~ In c (u "ヷヸヹヺ")).
    { intro J. apply N. vm_compute in J. apply existsb_In. repeat destruct J as [<-|J]; try contradiction; reflexivity. }
    (* the next step *)
    assert (Step : forall x pk1 pk1', (forall y, In y x -> ~ is_composed y) -> pk_state (a ++ [c]) pk1 -> state (a ++ [c]) pk1 pk1' ->
       ~ (c = long_mark /\ exists k, lengthens a k /\ is_composed k) ->
       exists n m, pieces n m (x ++ k2h_go E false (Some c) pk1 s) (x ++ k2h_go E false (Some c) pk1' (decompose s))
         /\ (n = 0%nat <-> ~ long_bad a (c :: s)) /\ (m = 0%nat <-> forall d, In d (c :: s) -> ~ In d (u "ヷヸヹヺ"))).
    { intros x pk1 pk1' Hx P1 S1 Hn. destruct (IH (a ++ [c]) pk1 pk1' (Some c) P1 S1) as (n & m & Pi & Hn' & Hm'); [now rewrite last_char_snoc|].
      rewrite last_char_snoc in Pi. exists n, m. split; [now apply pieces_app_same|]. auto. }
    assert (Keep : In c (u "ー・ヵヶ") -> pk_state (a ++ [c]) pk /\ state (a ++ [c]) pk pk').
    { intro J. assert (Le : forall k, lengthens (a ++ [c]) k <-> lengthens a k).
      { intro k. rewrite lengthens_snoc. split; [|auto]. intros [(-> & K1 & K2)|[_ K]]; [|exact K]. exfalso.
        revert J K1 K2. change (u "ー・ヵヶ") with [0x30FC; 0x30FB; 0x30F5; 0x30F6]. change (u "ヵヶ") with [0x30F5; 0x30F6]. unfold katakana_letter. cbn [In]. lia. }
      split.
      - destruct pk as [h|]; cbn in *; [destruct P as (k & K & ->); exists k; now rewrite Le|]. intros (k & K). apply P. exists k. now apply Le.
      - destruct St as [[-> H]|[-> (k & K & C)]]; [left|right].
        + split; [reflexivity|]. intros k K. apply H. now apply Le.
        + split; [reflexivity|]. exists k. now rewrite Le. }
    cbn [k2h_go]. rewrite Pc.
    destruct (is_char_long_dash c) eqn:D.
    + assert (c = long_mark) as -> by (unfold is_char_long_dash, PROLONGED_SOUND_MARK in D; apply N.eqb_eq in D; exact D).
      destruct (Keep ltac:(now left)) as [K1 K2].
      change (is_char_slash_dot long_mark) with false. change (is_kana_as_symbol long_mark) with false.
      cbn [orb andb negb]. rewrite orb_false_r.
      assert (Nl : ~ is_composed long_mark) by (apply vowels_not_composed; now right).
      destruct (is_none (last_char a)) eqn:Nn.
      * apply (Step [long_mark] pk pk'); auto; [intros y [<-|[]]; exact Nl|].
        intros (_ & k & K & _). destruct a as [|x a _] using rev_ind; [|rewrite last_char_snoc in Nn; discriminate]. now apply lengthens_nil in K.
      * destruct (last_char a) as [q|] eqn:La; [|discriminate]. destruct pc' as [q'|]; [|discriminate].
        destruct St as [[-> H]|[-> (k & K & C)]].
        -- destruct pk as [h|].
           ++ rewrite (vowel_any_pc E q q'). apply Step; auto.
              ** intros y Y. apply k2h_vowel_In in Y as [->|Y]; apply vowels_not_composed; auto.
              ** intros (_ & k & K & C). exact (H k K C).
           ++ apply (Step [long_mark] None None); auto; [intros y [<-|[]]; exact Nl|]. intros (_ & k & K & C). exact (H k K C).
        -- destruct pk as [h|]; [|exfalso; apply P; eauto]. destruct P as (k' & K' & ->). rewrite (lengthens_det _ _ _ K' K).
           destruct (voiced_vowel k (k2h_vowel E false q (k2hc k) long_mark) C) as (x & Vx & Ix).
           { destruct K as (? & ? & ? & ? & ? & ?) eqn:KK. apply (k2h_vowel_spec E false); auto. eapply last_katakana; [exact K|exact La]. }
           rewrite Vx. cbn [app].
           rewrite (lengthens_det _ _ _ K' K) in *.
           destruct (IH (a ++ [long_mark]) (Some (k2hc k)) None (Some long_mark) K1 K2) as (n & m & Pi & Hn' & Hm'); [now rewrite last_char_snoc|].
           rewrite last_char_snoc in Pi. exists (S n), m. split; [now apply P_mark|]. split; [|apply W; auto].
           split; [discriminate|]. intros B. exfalso. apply B. apply long_bad_cons. left. eauto.
    + assert (Nc : c <> long_mark) by (unfold is_char_long_dash, PROLONGED_SOUND_MARK in D; apply N.eqb_neq in D; exact D).
      assert (Hx : forall y, In y [k2hc c] -> ~ is_composed y) by (intros y [<-|[]]; now apply k2hc_other).
      assert (Hl : ~ (c = long_mark /\ exists k, lengthens a k /\ is_composed k)) by tauto.
      cbn [andb]. rewrite orb_false_r. unfold k2hc in Hx. rewrite D, orb_false_r in Hx.
      destruct (is_char_slash_dot c || is_kana_as_symbol c) eqn:S1.
      * destruct Keep as [K1 K2]; [|now apply (Step [c] pk pk')]. symspec. charspec.
        change (u "ー・ヵヶ") with [0x30FC; 0x30FB; 0x30F5; 0x30F6]. cbn [In]. lia.
      * assert (G : exists n m, pieces n m
            (if is_char_katakana c then hira_of_kata c :: k2h_go E false (Some c) (Some (hira_of_kata c)) s else c :: k2h_go E false (Some c) None s)
            (if is_char_katakana c then hira_of_kata c :: k2h_go E false (Some c) (Some (hira_of_kata c)) (decompose s) else c :: k2h_go E false (Some c) None (decompose s))
            /\ (n = 0%nat <-> ~ long_bad a (c :: s)) /\ (m = 0%nat <-> forall d, In d (c :: s) -> ~ In d (u "ヷヸヹヺ"))).
        { assert (Le : forall k, lengthens (a ++ [c]) k <-> k = c /\ is_char_katakana c = true).
          { intro k. rewrite lengthens_snoc. symspec. change (u "ー・ヵヶ") with [0x30FC; 0x30FB; 0x30F5; 0x30F6]. change (u "ヵヶ") with [0x30F5; 0x30F6].
            rewrite katakana_spec. unfold S_katakana, between, katakana_letter, long_mark in *. cbn [In]. charspec. lia. }
          destruct (is_char_katakana c) eqn:B.
          - apply (Step [hira_of_kata c] (Some (hira_of_kata c)) (Some (hira_of_kata c))); auto.
            + exists c. split; [now apply Le|]. unfold k2hc. now rewrite S1, D, B.
            + left. split; [reflexivity|]. intros k K. apply Le in K as [-> _]. exact N.
          - apply (Step [c] None None); auto.
            + cbn. intros (k & K). apply Le in K as [_ K]. discriminate.
            + left. split; [reflexivity|]. intros k K. apply Le in K as [_ K]. discriminate. }
        destruct (last_char a), pc', pk, pk'; exact G.
  - (* composed *)
    assert (C : is_composed c) by (apply in_map_iff; now exists (c, p)).
    rewrite (go_composed E false c _ _ _ C). cbn [decompose flat_map]. rewrite X. fold (decompose s).
    destruct (go_decomposed E false c p pc' pk' (decompose s) I) as (b & v & -> & Q). cbn [app]. rewrite Q.
    assert (Bc : kata_b c = true <-> katakana_letter c) by (unfold kata_b, katakana_letter; lia).
    assert (Nk : ~ In c (u "ー・ヵヶ")) by (intro J; apply existsb_In in C; vm_compute in J; repeat destruct J as [<-|J]; try contradiction; discriminate).
    assert (Nk' : ~ In c (u "ヵヶ")) by (intro J; apply Nk; vm_compute in J |- *; tauto).
    assert (Le : forall k, lengthens (a ++ [c]) k <-> k = c /\ kata_b c = true).
    { intro k. rewrite lengthens_snoc, Bc. tauto. }
    destruct (IH (a ++ [c]) (if kata_b c then Some (k2hc c) else None) None (Some v)) as (n & m & Pi & Hn & Hm).
    { destruct (kata_b c); cbn; [exists c; split; [now apply Le|reflexivity]|]. intros (k & K). apply Le in K as [_ K]. discriminate. }
    { destruct (kata_b c) eqn:B; [right|left].
      - split; [reflexivity|]. exists c. split; [now apply Le|exact C].
      - split; [reflexivity|]. intros k K. apply Le in K as [_ K]. discriminate. }
    { now rewrite last_char_snoc. }
    rewrite last_char_snoc in Pi.
    assert (Nl : ~ (c = long_mark /\ exists k, lengthens a k /\ is_composed k)).
    { intros [-> _]. apply Nk. now left. }
    destruct (lost_b c _ I b v eq_refl) as [(J & -> & -> & Jh)|(J & Ch & Dh)].
    + exists n, (S m). split; [now apply P_lost|]. split; [now apply L|]. split; [discriminate|]. intros H. exfalso. exact (H c ltac:(now left) J).
    + exists n, m. split; [|split; [now apply L|now apply W]].
      pose proof (P_dec n m (k2hc c) _ _ Ch Pi) as Z. rewrite Dh in Z. exact Z.
Qed.
