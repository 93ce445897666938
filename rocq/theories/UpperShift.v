(** * With upcase_katakana a mark that disappears shifts the upper case in all the rest (C95) *)
From Verif Require Import Tac Base Std Constants Chars Trees KanaTree RomajiTree Strings Convert KanaPure RomajiPure KanaSpec ScriptSpec Predicates ScriptProofs FixedSpec LocalSpec.

Definition ki : str := u "アあ".
Definition row (n : nat) : str := concat (repeat ki n).
Lemma row_S n : row (S n) = ch "ア" :: ch "あ" :: row n.
Proof. reflexivity. Qed.
Lemma row_end n : row (S n) = row n ++ ki.
Proof. induction n as [|n IH]; [reflexivity|]. rewrite row_S, IH at 1. rewrite row_S. reflexivity. Qed.
Lemma row_In n c : In c (row n) -> c = ch "ア" \/ c = ch "あ".
Proof. induction n as [|n IH]; [intros []|]. rewrite row_S. intros [<-|[<-|I]]; auto. Qed.
Lemma row_length n : length (row n) = (2 * n)%nat.
Proof. induction n as [|n IH]; [reflexivity|]. rewrite row_S. cbn [length]. lia. Qed.
Lemma row_map n : map k2hc (row n) = repeat (ch "あ") (2 * n).
Proof. induction n as [|n IH]; [reflexivity|]. rewrite row_S. replace (2 * S n)%nat with (S (S (2 * n))) by lia. cbn [map repeat]. rewrite IH. reflexivity. Qed.
Lemma row_others a n : others (a ++ row n) = (others a + 2 * n)%nat.
Proof.
  induction a as [|c a IH]; cbn [app].
  - induction n as [|n IH]; [reflexivity|]. rewrite row_S. replace (2 * S n)%nat with (S (S (2 * n))) by lia.
    change (others (ch "ア" :: ch "あ" :: row n)) with (S (S (others (row n)))). rewrite IH. cbn. lia.
  - unfold others in *. cbn [filter]. destruct (negb _); cbn [length]; lia.
Qed.

Section Shift.
  Context (E : std) (HE : std_ok E).
  Lemma rw_at d c o : existsb (N.eqb c) (map fst (rts RT)) = true ->
    forallb (fun q => negb (fst q =? c) || (str_eqb (rout (snd q)) o && forallb (fun p => negb (fst p =? d)) (rts (snd q)))) (rts RT) = true ->
    forall rest, (rest = [] \/ exists r, rest = d :: r) -> exists m, rw E RT (c :: rest) = (m, 1%nat) /\ rout m = o.
  Proof.
    intros X Y rest Hr. cbn [rw]. destruct (rfind E RT c) as [x|] eqn:F.
    - pose proof (rfind_node E [] RT c x HE r_root F) as Hx.
      apply (rfind_Some E [] RT c x HE r_root) in F. rewrite forallb_forall in Y. specialize (Y _ F). cbn [fst snd] in Y. rewrite N.eqb_refl in Y.
      cbn [negb orb] in Y. apply andb_prop in Y. destruct Y as [Y1 Y2]. apply str_eqb_eq in Y1. exists x. split; [|exact Y1].
      destruct Hr as [->|(r & ->)]; [reflexivity|]. cbn [rw]. destruct (rfind E x d) as [y|] eqn:G; [|reflexivity].
      apply (rfind_Some E _ _ _ _ HE Hx) in G. rewrite forallb_forall in Y2. specialize (Y2 _ G). cbn [fst] in Y2. now rewrite N.eqb_refl in Y2.
    - exfalso. apply (rfind_None E [] RT c HE r_root) in F. apply F. apply existsb_exists in X. destruct X as (e & I & Q). apply N.eqb_eq in Q. now subst e.
  Qed.
  Lemma rw_a r : (r = [] \/ exists r', r = ch "あ" :: r') -> exists m, rw E RT (ch "あ" :: r) = (m, 1%nat) /\ rout m = u "a".
  Proof. apply rw_at; vm_compute; reflexivity. Qed.
  Lemma rw_tsu r : exists m, rw E RT (ch "っ" :: ch "漢" :: r) = (m, 1%nat) /\ rout m = u "".
  Proof. apply (rw_at (ch "漢")); [vm_compute; reflexivity|vm_compute; reflexivity|right; now eexists]. Qed.
  Lemma rw_kan r : rw E RT (ch "漢" :: r) = (RT, 0%nat).
  Proof.
    cbn [rw]. destruct (rfind E RT (ch "漢")) as [x|] eqn:F; [|reflexivity]. exfalso. apply (rfind_Some E [] RT _ x HE r_root) in F.
    assert (Q : forallb (fun q => negb (fst q =? ch "漢")) (rts RT) = true) by (vm_compute; reflexivity). rewrite forallb_forall in Q. specialize (Q _ F). discriminate Q.
  Qed.
  Definition shade (c : char) : char := if is_char_katakana c then ch "A" else ch "a".
  Lemma rconv_a : forall m orig, (m <= length orig)%nat -> rconv E true orig (repeat (ch "あ") m) = map shade (firstn m orig).
  Proof.
    induction m as [|m IH]; intros orig H; [reflexivity|]. destruct orig as [|c orig]; [cbn in H; lia|].
    cbn [repeat]. rewrite rconv_cons. unfold rstep. destruct (rw_a (repeat (ch "あ") m)) as (x & -> & O); [destruct m; [now left|right; now eexists]|].
    cbn [fst snd skipn]. rewrite IH by (cbn in H; lia). cbn [firstn map]. rewrite O. unfold remit, shade at 2. cbn [forallb]. rewrite andb_true_r, andb_true_r.
    destruct (is_char_katakana c); reflexivity.
  Qed.
  Lemma shifted n : k2h E true (u "ッー漢" ++ row n) = ch "っ" :: ch "漢" :: repeat (ch "あ") (2 * n).
  Proof.
    pose proof (k2h_text E true (u "ッー漢" ++ row n) HE) as T. change (u "ッー漢" ++ row n) with (ch "ッ" :: long_mark :: ch "漢" :: row n) in *.
    remember (k2h E true _) as t eqn:Z. clear Z. inversion T as [|? ? ? p1 t1 P1 T1]; subst. inversion T1 as [|? ? ? p2 t2 P2 T2]; subst. inversion T2 as [|? ? ? p3 t3 P3 T3]; subst. clear T T1 T2.
    assert (Q1 : p1 = [ch "っ"]).
    { destruct P1 as [(_ & h & Hh & ->)|[(Q & _)|(Q & _)]]; [|discriminate Q|discriminate Q]. f_equal. revert Hh. unfold hiragana_for.
      change (ch "ヷ") with 0x30F7. change (ch "ヸ") with 0x30F8. change (ch "ヹ") with 0x30F9. change (ch "ヺ") with 0x30FA. change (ch "ッ") with 0x30C3. change (ch "っ") with 0x3063. lia. }
    assert (Q2 : p2 = []).
    { assert (L : forall k, lengthens [ch "ッ"] k -> k = ch "ッ") by (intros k (a & run & Q & _); destruct a as [|? [|? ?]]; [now injection Q as -> _|discriminate Q|discriminate Q]).
      destruct P2 as [(Q & _)|[(_ & k & K & rw' & I & J)|(_ & K & _)]]; [now destruct Q| |].
      - apply L in K. subst k. repeat (destruct I as [I|I]; [injection I as <- <-; try reflexivity; exfalso; revert J; clear; vm_compute; intuition discriminate|]). destruct I.
      - exfalso. apply K. exists (ch "ッ"). exists [], []. repeat split; [discriminate|discriminate| |constructor]. now intros [Q|[Q|[]]]. }
    assert (Q3 : p3 = [ch "漢"]).
    { destruct P3 as [(_ & h & Hh & ->)|[(Q & _)|(Q & _)]]; [|discriminate Q|discriminate Q]. f_equal. revert Hh. unfold hiragana_for.
      change (ch "ヷ") with 0x30F7. change (ch "ヸ") with 0x30F8. change (ch "ヹ") with 0x30F9. change (ch "ヺ") with 0x30FA. change (ch "漢") with 0x6F22. lia. }
    subst p1 p2 p3. cbn [app]. f_equal. f_equal. rewrite <- row_map. clear - T3. revert T3. generalize ((([] ++ [ch "ッ"]) ++ [long_mark]) ++ [ch "漢"]) as a. intro a.
    assert (G : forall s a t, (forall c, In c s -> c = ch "ア" \/ c = ch "あ") -> hiragana_text (o_vowel true) a s t -> t = map k2hc s); [|apply G; intros c; apply row_In].
    clear. induction s as [|c s IH]; intros a t H T; inversion T as [|? ? ? p t' P T']; subst; [reflexivity|]. rewrite (IH _ _ (fun d I => H d (or_intror I)) T'). cbn [map].
    specialize (H c (or_introl eq_refl)). change (k2hc c :: map k2hc s) with ([k2hc c] ++ map k2hc s). f_equal.
    destruct P as [(_ & h & Hh & ->)|[(Q & _)|(Q & _)]]; [|subst c; destruct H; discriminate|subst c; destruct H; discriminate]. f_equal.
    revert Hh. unfold hiragana_for. change (ch "ヷ") with 0x30F7. change (ch "ヸ") with 0x30F8. change (ch "ヹ") with 0x30F9. change (ch "ヺ") with 0x30FA.
    destruct H as [->| ->]; change (k2hc (ch "ア")) with 0x3042; change (k2hc (ch "あ")) with 0x3042; change (ch "ア") with 0x30A2; change (ch "あ") with 0x3042; lia.
  Qed.
  Lemma end_shifted n : exists z, rconv E true (u "ッー漢" ++ row (S n)) (k2h E true (u "ッー漢" ++ row (S n))) = z ++ [ch "A"].
  Proof.
    rewrite shifted, rconv_cons. unfold rstep. destruct (rw_tsu (repeat (ch "あ") (2 * S n))) as (x & -> & O). cbn [fst snd]. rewrite O.
    change (skipn 1 (u "ッー漢" ++ row (S n))) with (ch "ー" :: ch "漢" :: row (S n)). cbn [skipn]. rewrite rconv_cons. unfold rstep. rewrite rw_kan. cbn [fst snd skipn].
    rewrite rconv_a by (cbn [length]; rewrite row_length; lia). set (p := remit _ _ _). exists (p ++ ch "漢" :: map shade (ch "漢" :: row n)).
    rewrite row_end. change (ch "漢" :: row n ++ ki) with ((ch "漢" :: row n) ++ [ch "ア"; ch "あ"]).
    replace (2 * S n)%nat with (length (ch "漢" :: row n) + 1)%nat by (cbn [length]; rewrite row_length; lia).
    rewrite firstn_app_2, map_app, <- app_assoc. reflexivity.
  Qed.
  Lemma end_unshifted n q r : row n = q ++ r -> r <> [] -> exists z, rconv E true r (k2h E true r) = z ++ [ch "a"].
  Proof.
    intros H NE. assert (Sub : forall c, In c r -> c = ch "ア" \/ c = ch "あ") by (intros c I; apply (row_In n); rewrite H; apply in_or_app; now right).
    assert (K : ~ In long_mark r) by (intro I; apply Sub in I; destruct I; discriminate).
    rewrite (k2h_no_dash E true r K). assert (M : map k2hc r = repeat (ch "あ") (length r)) by (clear - Sub; induction r as [|c r IH]; [reflexivity|]; cbn [map length repeat]; rewrite IH by (intros d I; apply Sub; now right); destruct (Sub c (or_introl eq_refl)) as [->| ->]; reflexivity).
    rewrite M, rconv_a, firstn_all by lia. destruct r as [|e r] using rev_ind; [easy|]. exists (map shade r). rewrite map_app. f_equal. cbn [map].
    destruct n as [|n]; [destruct q; [destruct r|]; discriminate|]. rewrite row_end in H. change ki with ([ch "ア"] ++ [ch "あ"]) in H. rewrite !app_assoc in H. apply app_inj_tail in H. now destruct H as [_ <-].
  Qed.
End Shift.
