(** * On which texts conforming libraries differ (C30, C63, C69) *)
From Verif Require Import Tac Base Std StdInstances Constants Chars Trees RomajiTree Strings Convert
  KanaPure RomajiPure KanaSpec KanaDict KanaProofs Predicates ScriptSpec ScriptProofs RomajiSpec RomajiProofs
  MoraProofs Splits LibrarySpec.

(** ** The searches conform *)
Lemma matches_In k keys : forall i j, In j (matches i keys k) -> (i <= j)%nat /\ nth_error keys (j - i) = Some k.
Proof.
  induction keys as [|c keys IH]; intros i j I; [destruct I|]. cbn [matches] in I. apply in_app_or in I.
  destruct I as [I|I].
  - destruct (N.eqb_spec c k) as [->|]; [|destruct I]. destruct I as [<-|[]]. now rewrite Nat.sub_diag.
  - apply IH in I. destruct I as [L I]. split; [lia|]. replace (j - i)%nat with (S (j - S i)) by lia. exact I.
Qed.
Lemma matches_nil k keys : forall i, matches i keys k = [] -> ~ In k keys.
Proof.
  induction keys as [|c keys IH]; intros i H; [tauto|]. cbn [matches] in H. apply app_eq_nil in H. destruct H as [H1 H2].
  destruct (N.eqb_spec c k) as [->|Q]; [discriminate|]. intros [I|I]; [contradiction|]. exact (IH _ H2 I).
Qed.
Lemma pick_ok n : search_ok (pick n).
Proof.
  intros keys k _. unfold pick. destruct (matches 0 keys k) as [|i l] eqn:M; [cbn [length Nat.sub]; rewrite Nat.min_0_r; cbn; eapply matches_nil; eauto|].
  destruct (nth_error (i :: l) (Nat.min n (length (i :: l) - 1))) as [j|] eqn:Q.
  - apply nth_error_In in Q. rewrite <- M in Q. apply matches_In in Q. destruct Q as [_ Q]. now rewrite Nat.sub_0_r in Q.
  - apply nth_error_None in Q. cbn [length] in Q. lia.
Qed.
Lemma std_pick_ok n : std_ok (std_pick n).
Proof. apply unicode14_std_ok, pick_ok. Qed.

(** ** What a conversion begins with *)
Fixpoint r_at (E : std) (n : rnode) (s : str) : option rnode :=
  match s with
  | [] => Some n
  | c :: s' => match rfind E n c with Some m => r_at E m s' | None => None end
  end.
Lemma rw_at E s r : forall n m, r_at E n s = Some m ->
  rw E n (s ++ r) = (fst (rw E m r), (length s + snd (rw E m r))%nat).
Proof.
  induction s as [|c s IH]; intros n m H; cbn in *.
  - inversion H; subst. now destruct (rw E m r).
  - destruct (rfind E n c) as [x|]; [|discriminate]. rewrite (IH x m H). reflexivity.
Qed.
Lemma r_at_node E : std_ok E -> forall s k n m, r_node k n -> r_at E n s = Some m -> r_node (k ++ s) m.
Proof.
  intros HE s. induction s as [|c s IH]; intros k n m R H; cbn in H.
  - inversion H; subst. now rewrite app_nil_r.
  - destruct (rfind E n c) as [x|] eqn:F; [|discriminate]. replace (k ++ c :: s) with ((k ++ [c]) ++ s) by now rewrite <- app_assoc.
    eapply IH; [|exact H]. eapply rfind_node; eauto.
Qed.
Lemma rw_flat E : std_ok E -> forall s k n, r_node k n -> exists key, In (key, fst (rw E n s)) (r_flat n).
Proof.
  intros HE s. induction s as [|c s IH]; intros k n R; cbn.
  - exists []. apply r_flat_here.
  - destruct (rfind E n c) as [m|] eqn:F.
    + destruct (IH (k ++ [c]) m) as (key & I); [eapply rfind_node; eauto|]. destruct (rw E m s) as [x i]. cbn in *.
      exists (c :: key). eapply r_flat_step; [eapply rfind_Some; eauto|exact I].
    + exists []. apply r_flat_here.
Qed.

Definition lower_letterb (c : N) : bool := (0x61 <=? c) && (c <=? 0x7A).
(** the letter at position [p], ignoring case *)
Definition at_pos (p : nat) (s : str) : option N := option_map ascii_lower (nth_error s p).
Lemma remit_at up seg v p : forallb lower_letterb v = true -> at_pos p (remit up seg v) = nth_error v p.
Proof.
  intro L. unfold at_pos, remit. rewrite forallb_forall in L. destruct (_ && _).
  - rewrite nth_error_map. destruct (nth_error v p) as [c|] eqn:Q; [|reflexivity]. cbn. f_equal.
    apply nth_error_In in Q. specialize (L c Q). unfold lower_letterb in L. apply andb_prop in L.
    rewrite !N.leb_le in L. unfold ascii_lower, ascii_upper. ifs; lia.
  - destruct (nth_error v p) as [c|] eqn:Q; [|reflexivity]. cbn. f_equal.
    apply nth_error_In in Q. specialize (L c Q). unfold lower_letterb in L. apply andb_prop in L.
    rewrite !N.leb_le in L. unfold ascii_lower. ifs; lia.
Qed.

Definition head_check (E : std) (pre : str) (p : nat) (x : N) : bool :=
  match r_at E RT pre with
  | Some n => forallb (fun q => forallb lower_letterb (rout (snd q))
                && match nth_error (rout (snd q)) p with Some y => x =? y | None => false end) (r_flat n)
  | None => false
  end.
Lemma rconv_head E up o pre r p x : std_ok E -> pre <> [] -> head_check E pre p x = true ->
  at_pos p (rconv E up o (pre ++ r)) = Some x.
Proof.
  intros HE N H. unfold head_check in H. destruct (r_at E RT pre) as [n|] eqn:A; [|discriminate].
  pose proof (rw_at E pre r RT n A) as W. pose proof (r_at_node E HE pre [] RT n r_root A) as R. cbn [app] in R.
  destruct (rw_flat E HE r pre n R) as (key & I). rewrite forallb_forall in H. specialize (H _ I). cbn [snd] in H.
  apply andb_prop in H. destruct H as [H1 H2].
  destruct pre as [|c pre]; [congruence|]. cbn [app] in *. rewrite rconv_cons. unfold rstep. rewrite W. cbn [length Nat.add fst].
  unfold at_pos. rewrite nth_error_app1.
  - pose proof (remit_at up (firstn (S (length pre + snd (rw E n r))) o) _ p H1) as Q. unfold at_pos in Q. rewrite Q.
    destruct (nth_error _ p) as [y|]; [|discriminate]. apply N.eqb_eq in H2. now subst.
  - rewrite remit_length. apply nth_error_Some. intro Q. rewrite Q in H2. discriminate.
Qed.

(** ** C30 *)
Definition inner_keys : bool := forallb (fun e => match rev (fst e) with
  | c :: d :: r => negb (c =? ch "っ") && (negb (c =? vu) || ((d =? ch "っ") && match r with [] => true | _ => false end))
  | _ => true end) rdict.
Lemma inner_keys_ok : inner_keys = true.
Proof. vm_compute. reflexivity. Qed.
Lemma inner_key b c v : r_entry (b ++ [c]) v -> b <> [] -> c <> ch "っ" /\ (c = vu -> b = u "っ").
Proof.
  intros I N. destruct (exists_last N) as (b' & d & ->). pose proof inner_keys_ok as F. unfold inner_keys in F.
  rewrite forallb_forall in F. specialize (F _ I). cbn [fst] in F. rewrite !rev_app_distr in F. cbn [rev app] in F.
  apply andb_prop in F. destruct F as [F1 F2]. apply negb_true_iff, N.eqb_neq in F1. split; [exact F1|]. intros ->.
  rewrite N.eqb_refl in F2. cbn [negb orb] in F2. apply andb_prop in F2. destruct F2 as [F2 F3]. apply N.eqb_eq in F2. subst d.
  destruct (rev b') as [|x l] eqn:R; [|discriminate]. apply (f_equal (@rev _)) in R. rewrite rev_involutive in R. now subst b'.
Qed.

Lemma first_In {A} (P : A -> Prop) (dec : forall c, {P c} + {~ P c}) s : (exists c, In c s /\ P c) ->
  exists x c y, s = x ++ c :: y /\ P c /\ forall d, In d x -> ~ P d.
Proof.
  induction s as [|a s IH]; intros (c & I & Pc); [destruct I|]. destruct (dec a) as [D|D].
  - exists [], a, s. split; [reflexivity|]. split; [exact D|]. intros d [].
  - destruct IH as (x & e & y & -> & B & C).
    + destruct I as [->|I]; [contradiction|]. eauto.
    + exists (a :: x), e, y. split; [reflexivity|]. split; [exact B|]. intros d [<-|J]; auto.
Qed.

Lemma app_inv_head_neq (p a b : str) (k : nat) : at_pos k a <> at_pos k b -> p ++ a <> p ++ b.
Proof. intros H Q. apply app_inv_head in Q. now rewrite Q in H. Qed.

Lemma rom_differs up s : In (ch "ヴ") s \/ In (ch "ゔ") s ->
  rconv (std_pick 1) up s (k2h (std_pick 1) true s) <> rconv (std_pick 4) up s (k2h (std_pick 4) true s).
Proof.
  intro H.
  destruct (first_In (fun c => In c (u "ヴゔ")) (fun c => in_dec N.eq_dec c (u "ヴゔ")) s) as (x & v & y & -> & V & F).
  { destruct H as [H|H]; [exists (ch "ヴ")|exists (ch "ゔ")]; (split; [exact H|]); [left|right; left]; reflexivity. }
  pose proof (std_pick_ok 1) as H1. pose proof (std_pick_ok 4) as H4.
  assert (NV : ~ In v (u "ー・ヵヶ") /\ v <> long_mark /\ hiragana_for v vu).
  { change (u "ヴゔ") with [0x30F4; 0x3094] in V. cbn [In] in V.
    change (u "ー・ヵヶ") with [0x30FC; 0x30FB; 0x30F5; 0x30F6]. cbn [In]. unfold long_mark, hiragana_for, vu.
    destruct V as [<-|[<-|[]]]; (split; [lia|]); (split; [lia|]).
    - do 4 right. left. lia.
    - do 5 right. lia. }
  destruct NV as (N1 & N2 & N3). rewrite !k2h_split by exact N1.
  destruct (k2h_head (std_pick 1) true v vu y H1 N2 N3) as (r1 & ->).
  destruct (k2h_head (std_pick 4) true v vu y H4 N2 N3) as (r4 & ->).
  assert (X1 : ~ In (ch "ヴ") x) by (intro I; apply (F _ I); left; reflexivity).
  assert (X2 : ~ In (ch "ゔ") x) by (intro I; apply (F _ I); right; left; reflexivity).
  rewrite <- (k2h_indep (std_pick 1) (std_pick 4) true x H1 H4 X1).
  pose proof (k2h_no_vu (std_pick 1) true x X1 X2) as NU. pose proof (k2h_length (std_pick 1) true x) as L.
  set (h := k2h (std_pick 1) true x) in *. clearbody h.
  assert (G : forall h0 pre, h = h0 ++ pre -> pre = [] \/ pre = u "っ" ->
    (forall a b, h0 = a ++ b -> b <> [] -> forall w, ~ r_entry (b ++ [hd vu pre]) w) ->
    rconv (std_pick 1) up (x ++ v :: y) (h ++ vu :: r1) <> rconv (std_pick 4) up (x ++ v :: y) (h ++ vu :: r4)).
  { intros h0 pre Q P K. rewrite Q, <- !app_assoc.
    rewrite (rconv_split (std_pick 1) up H1 h0), (rconv_split (std_pick 4) up H4 h0).
    2,3: intros a b c y' w Q1 Q2 Q3; destruct P as [->| ->]; cbn in Q3; inversion Q3; subst c; exact (K a b Q1 Q2 w).
    replace (rconv (std_pick 4) up (x ++ v :: y) h0) with (rconv (std_pick 1) up (x ++ v :: y) h0).
    2:{ apply (romanises_rconv (std_pick 4) up H4).
        - apply rconv_romanises; [exact H1|]. rewrite Q, app_length in L. rewrite app_length. lia.
        - intro I. apply NU. rewrite Q. apply in_or_app. now left. }
    destruct P as [->| ->].
    - apply (app_inv_head_neq _ _ _ 1). cbn [app].
      rewrite (rconv_head (std_pick 1) up _ [vu] r1 1 (ch "a") H1), (rconv_head (std_pick 4) up _ [vu] r4 1 (ch "o") H4);
        try discriminate; vm_compute; reflexivity.
    - apply (app_inv_head_neq _ _ _ 2). change (u "っ" ++ vu :: ?r) with ([ch "っ"; vu] ++ r).
      rewrite (rconv_head (std_pick 1) up _ [ch "っ"; vu] r1 2 (ch "a") H1), (rconv_head (std_pick 4) up _ [ch "っ"; vu] r4 2 (ch "o") H4);
        try discriminate; vm_compute; reflexivity. }
  destruct h as [|h1 h2] eqn:Hh using rev_ind.
  - apply (G [] []); auto. intros a b Q. destruct a; [|discriminate]. cbn in Q. congruence.
  - clear IHh2. destruct (N.eq_dec h1 (ch "っ")) as [->|D].
    + apply (G h2 (u "っ")); auto. intros a b Q B w I. apply inner_key in I; [|exact B]. now apply (proj1 I).
    + apply (G (h2 ++ [h1]) []); [now rewrite app_nil_r|auto|]. intros a b Q B w I. cbn [hd] in I.
      apply inner_key in I; [|exact B]. destruct I as [_ I]. rewrite (I eq_refl) in Q.
      change (u "っ") with [ch "っ"] in Q. apply app_inj_tail in Q. now apply D.
Qed.

(** ** C63: to_hiragana *)
Lemma hiragana_text_det_v o a s t t' : (forall x y, s = x ++ long_mark :: y -> ~ lengthens (a ++ x) (ch "ヴ")) ->
  hiragana_text o a s t -> hiragana_text o a s t' -> t = t'.
Proof.
  intros H HT. revert t' H. induction HT as [a|a c s p t Hp HT IH]; intros t' NV H'; inversion H' as [|? ? ? p' t2 Hp' HT']; subst; [reflexivity|].
  rewrite (IH t2); [| |exact HT'].
  2:{ intros x y -> L. apply (NV (c :: x) y eq_refl). now rewrite <- app_assoc in L. }
  f_equal. destruct Hp as [(N1 & h & A & ->)|[(E1 & k & A & B)|(E1 & A & ->)]],
    Hp' as [(N2 & h' & A' & ->)|[(E2 & k' & A' & B')|(E2 & A' & ->)]]; try contradiction; auto.
  - apply k2hc_spec in A, A'. congruence.
  - assert (k = k') by (eapply lengthens_det; eauto). subst k'. eapply mark_vowel_det; eauto.
    intros ->. subst c. apply (NV [] s eq_refl). now rewrite app_nil_r.
  - exfalso. eauto.
  - exfalso. eauto.
Qed.
Lemma k2h_indep_v E E' d s : std_ok E -> std_ok E' -> ~ long_v s -> k2h E d s = k2h E' d s.
Proof.
  intros HE HE' V. apply (hiragana_text_det_v (o_vowel d) [] s); [|now apply k2h_text|now apply k2h_text].
  intros x y -> L. apply V. exists x, y. auto.
Qed.

Lemma k2h_vowel_other d q p c : p <> vu -> k2h_vowel (std_pick 1) d q p c = k2h_vowel (std_pick 4) d q p c.
Proof.
  intro N. unfold k2h_vowel. replace (rfind (std_pick 4) RT p) with (rfind (std_pick 1) RT p); [reflexivity|].
  destruct (rfind (std_pick 1) RT p) as [n|] eqn:F1, (rfind (std_pick 4) RT p) as [m|] eqn:F4; [| | |reflexivity].
  - apply (rfind_Some _ [] _ _ _ (std_pick_ok _) r_root) in F1, F4. f_equal. exact (rts_fun [] RT p n m r_root N F1 F4).
  - apply (rfind_Some _ [] _ _ _ (std_pick_ok _) r_root) in F1. apply (rfind_None _ [] _ _ (std_pick_ok _) r_root) in F4.
    exfalso. apply F4. apply in_map_iff. now exists (p, n).
  - apply (rfind_Some _ [] _ _ _ (std_pick_ok _) r_root) in F4. apply (rfind_None _ [] _ _ (std_pick_ok _) r_root) in F1.
    exfalso. apply F1. apply in_map_iff. now exists (p, m).
Qed.
Lemma k2h_vowel_vu q c : k2h_vowel (std_pick 1) false q vu c = u "あ" /\ k2h_vowel (std_pick 4) false q vu c = u "う".
Proof.
  unfold k2h_vowel.
  assert (A : option_map (fun n => last_char (rout n)) (rfind (std_pick 1) RT vu) = Some (Some (ch "a"))) by (vm_compute; reflexivity).
  assert (B : option_map (fun n => last_char (rout n)) (rfind (std_pick 4) RT vu) = Some (Some (ch "o"))) by (vm_compute; reflexivity).
  destruct (rfind (std_pick 1) RT vu) as [n|]; [|discriminate]. destruct (rfind (std_pick 4) RT vu) as [m|]; [|discriminate].
  cbn [option_map] in A, B. inversion A as [A']. inversion B as [B']. rewrite A', B', !andb_false_r. split; reflexivity.
Qed.
Lemma lengthens_vu a k : lengthens a k -> k2hc k = vu -> k = ch "ヴ".
Proof.
  intros (a' & run & _ & K1 & K2 & _) Q. apply k2hc_spec in Q. unfold hiragana_for in Q. symspec.
  unfold katakana_letter, vu in *. change (ch "ヴ") with 0x30F4. lia.
Qed.
Definition vu_split (x y : str) : Prop := exists p r r', x = p ++ ch "あ" :: r /\ y = p ++ ch "う" :: r'.
Lemma vu_split_app q x y : vu_split x y -> vu_split (q ++ x) (q ++ y).
Proof. intros (p & r & r' & -> & ->). exists (q ++ p), r, r'. now rewrite <- !app_assoc. Qed.
(** one character of the loop *)
Lemma k2h_go_step d c a pk : pk_state a pk -> exists pk', pk_state (a ++ [c]) pk' /\
  (((c = long_mark -> ~ exists k, lengthens a k) /\
    exists h, forall E s, k2h_go E d (last_char a) pk (c :: s) = h :: k2h_go E d (Some c) pk' s)
   \/ (c = long_mark /\ exists k q, lengthens a k /\ last_char a = Some q /\
       forall E s, k2h_go E d (last_char a) pk (c :: s) = k2h_vowel E d q (k2hc k) c ++ k2h_go E d (Some c) pk' s)).
Proof.
  intro P.
  assert (Keep : In c (u "ー・ヵヶ") -> pk_state (a ++ [c]) pk).
  { intro I. destruct pk as [h|]; cbn in *.
    - destruct P as (k & K & ->). exists k. split; [|reflexivity]. apply lengthens_snoc. auto.
    - intros (k & K). apply lengthens_snoc in K. destruct K as [(-> & K1 & K2)|(_ & K)]; [|eauto].
      revert I K1 K2. change (u "ー・ヵヶ") with [0x30FC; 0x30FB; 0x30F5; 0x30F6].
      change (u "ヵヶ") with [0x30F5; 0x30F6]. unfold katakana_letter. cbn [In]. lia. }
  cbn [k2h_go]. destruct (is_char_long_dash c) eqn:L.
  - assert (Ec : c = long_mark) by (unfold is_char_long_dash, PROLONGED_SOUND_MARK in L; apply N.eqb_eq in L; exact L).
    subst c. change (is_char_slash_dot long_mark) with false. change (is_kana_as_symbol long_mark) with false.
    cbn [orb andb negb]. rewrite orb_false_r. specialize (Keep ltac:(now left)).
    destruct (last_char a) as [q|] eqn:La; cbn [is_none].
    + destruct pk as [h|].
      * exists (Some h). split; [exact Keep|]. right. split; [reflexivity|]. cbn in P. destruct P as (k & K & ->).
        exists k, q. split; [exact K|]. split; reflexivity.
      * exists None. split; [exact Keep|]. left. split; [intros _; exact P|]. exists long_mark. reflexivity.
    + exists pk. split; [exact Keep|]. left. split; [|exists long_mark; reflexivity]. intros _ (k & K).
      destruct a as [|x a _] using rev_ind; [now apply lengthens_nil in K|]. rewrite last_char_snoc in La. discriminate.
  - assert (Nc : c <> long_mark) by (unfold is_char_long_dash, PROLONGED_SOUND_MARK in L; apply N.eqb_neq in L; exact L).
    cbn [andb negb]. rewrite orb_false_r.
    destruct (is_char_slash_dot c || is_kana_as_symbol c) eqn:S1.
    + exists pk. split; [|left; split; [contradiction|exists c; reflexivity]]. apply Keep. symspec. charspec.
      change (u "ー・ヵヶ") with [0x30FC; 0x30FB; 0x30F5; 0x30F6]. cbn [In]. lia.
    + destruct (is_char_katakana c) eqn:B.
      * exists (Some (hira_of_kata c)). split.
        -- exists c. split.
           ++ apply lengthens_snoc. left. split; [reflexivity|]. symspec. unfold katakana_letter.
              change (u "ヵヶ") with [0x30F5; 0x30F6]. cbn [In]. charspec. lia.
           ++ unfold k2hc. now rewrite S1, L, B.
        -- left. split; [contradiction|]. exists (hira_of_kata c). intros. destruct (last_char a), pk; reflexivity.
      * exists None. split.
        -- cbn. intros (k & K). apply lengthens_snoc in K. destruct K as [(-> & K1 & _)|(K & _)].
           ++ apply not_true_iff_false in B. apply B. apply katakana_spec. unfold katakana_letter, S_katakana, between in *. lia.
           ++ revert K. change (u "ー・ヵヶ") with [0x30FC; 0x30FB; 0x30F5; 0x30F6]. cbn [In]. symspec. charspec. lia.
        -- left. split; [contradiction|]. exists c. intros. destruct (last_char a), pk; reflexivity.
Qed.

Lemma k2h_go_differs s : forall a pk, pk_state a pk ->
  (exists x y, s = x ++ long_mark :: y /\ lengthens (a ++ x) (ch "ヴ")) ->
  vu_split (k2h_go (std_pick 1) false (last_char a) pk s) (k2h_go (std_pick 4) false (last_char a) pk s).
Proof.
  induction s as [|c s IH]; intros a pk P (x & y & Q & L); [destruct x; discriminate|].
  assert (Step : forall h pk', pk_state (a ++ [c]) pk' -> x <> [] ->
    vu_split (h ++ k2h_go (std_pick 1) false (Some c) pk' s) (h ++ k2h_go (std_pick 4) false (Some c) pk' s)).
  { intros h pk' P' Nx. apply vu_split_app. rewrite <- (last_char_snoc a c). apply IH; [exact P'|].
    destruct x as [|b x]; [congruence|]. cbn in Q. inversion Q; subst. exists x, y. split; [reflexivity|].
    now rewrite <- app_assoc. }
  destruct (k2h_go_step false c a pk P) as (pk' & P' & [(Nk & h & Q1)|(-> & k & q & K & _ & Q1)]); rewrite !Q1.
  - apply (Step [h] pk' P'). intros ->. cbn in Q. inversion Q; subst. apply Nk; [reflexivity|].
    rewrite app_nil_r in L. eauto.
  - destruct (N.eq_dec k (ch "ヴ")) as [->|D].
    + change (k2hc (ch "ヴ")) with vu. destruct (k2h_vowel_vu q long_mark) as [-> ->]. exists [].
      eexists. eexists. split; reflexivity.
    + rewrite (k2h_vowel_other false q (k2hc k) long_mark) by (intro Z; exact (D (lengthens_vu a k K Z))).
      apply (Step _ pk' P'). intros ->. rewrite app_nil_r in L. apply D. eapply lengthens_det; eauto.
Qed.
Lemma k2h_differs s : long_v s -> vu_split (k2h (std_pick 1) false s) (k2h (std_pick 4) false s).
Proof.
  intros (a & b & -> & L). apply (k2h_go_differs _ [] None).
  - cbn. intros (k & K). now apply lengthens_nil in K.
  - exists a, b. auto.
Qed.

Lemma vu_split_neq x y : vu_split x y -> x <> y.
Proof. intros (p & r & r' & -> & ->) Q. apply app_inv_head in Q. discriminate. Qed.

(** to_hiragana is determined unless katakana is rewritten and a mark lengthens ヴ *)
Lemma hira_determined s o : ascii_or_caseless s ->
  (forall E E', std_ok E -> std_ok E' -> hira_pure E o s = hira_pure E' o s) <->
  ~ (long_v s /\ (pass_romaji o = true \/ mixed_text s \/ ~ starts_with_punct s)).
Proof.
  intro A. split.
  - intros D (V & B). specialize (D (std_pick 1) (std_pick 4) (std_pick_ok 1) (std_pick_ok 4)).
    pose proof (k2h_differs s V) as K. revert D. unfold hira_pure. destruct (pass_romaji o); [exact (vu_split_neq _ _ K)|].
    rewrite <- mixed_spec, <- first_punct_spec in B.
    destruct (is_mixed s).
    + rewrite !lower_low by (apply std_pick_ok || now apply ScriptProofs.ascii_k2h). destruct K as (p & r & r' & -> & ->).
      rewrite !low_app, k_tree_mode.
      change (low (ch "あ" :: r)) with (ch "あ" :: low r). change (low (ch "う" :: r')) with (ch "う" :: low r').
      rewrite (conv_boundary (mode_of o) (ch "あ")), (conv_boundary (mode_of o) (ch "う"));
        try (apply not_key_char_in_no_key; vm_compute; reflexivity).
      intro Q. apply app_inv_head in Q. discriminate.
    + assert (R : is_romaji s = false).
      { destruct (is_romaji s) eqn:R; [|reflexivity]. exfalso. apply romaji_text_spec in R. destruct R as [_ R].
        destruct V as (a & b & -> & _). specialize (R long_mark ltac:(apply in_or_app; right; now left)).
        apply romaji_spec in R. discriminate. }
      destruct (first_punct s); [exfalso; destruct B as [B|[B|B]]; congruence|]. rewrite R. exact (vu_split_neq _ _ K).
  - intros B E E' HE HE'. unfold hira_pure.
    assert (L : is_mixed s = true \/ pass_romaji o = true \/ first_punct s = false -> k2h E false s = k2h E' false s).
    { intro C. apply k2h_indep_v; auto. intro V. apply B. split; [exact V|]. rewrite <- mixed_spec, <- first_punct_spec.
      destruct C as [C|[C|C]]; rewrite C; auto. }
    destruct (pass_romaji o); [auto|]. destruct (is_mixed s).
    + rewrite !lower_low by (assumption || now apply ScriptProofs.ascii_k2h). now rewrite L by auto.
    + rewrite !lower_low by assumption. destruct (first_punct s); [now rewrite orb_true_r|].
      destruct (is_romaji s); [reflexivity|]. apply L. auto.
Qed.

(** ** C69: the libraries of Rust 1.52-1.81 and since 1.82 *)
Notation E52 := std_1_52.
Notation E82 := std_1_82.
Definition tsu : N := Eval vm_compute in ch "っ".
Lemma vu_children k n : r_node k n -> In vu (map fst (rts n)) -> k = [] \/ k = [tsu].
Proof.
  intros R I. pose proof (romaji_tree_check (fun p => negb (existsb (N.eqb vu) (map fst (rts (snd p))))
     || str_eqb (fst p) [] || str_eqb (fst p) [tsu]) ltac:(vm_compute; reflexivity) k n R) as H.
  cbn [fst snd] in H. apply existsb_In in I. rewrite I in H. cbn [negb orb] in H. apply orb_prop in H.
  rewrite !str_eqb_eq in H. exact H.
Qed.
Lemma rfind_releases k n c : r_node k n -> (k <> [tsu] \/ c <> vu) -> rfind E52 n c = rfind E82 n c.
Proof.
  intros R H.
  assert (G : (forall x y, In (c, x) (rts n) -> In (c, y) (rts n) -> x = y) -> rfind E52 n c = rfind E82 n c).
  { intro U. destruct (rfind E52 n c) as [x|] eqn:F1, (rfind E82 n c) as [y|] eqn:F2; [| | |reflexivity].
    - f_equal. apply (rfind_Some _ k _ _ _ std_1_52_ok R) in F1. apply (rfind_Some _ k _ _ _ std_1_82_ok R) in F2. now apply U.
    - apply (rfind_Some _ k _ _ _ std_1_52_ok R) in F1. apply (rfind_None _ k _ _ std_1_82_ok R) in F2.
      exfalso. apply F2, in_map_iff. now exists (c, x).
    - apply (rfind_Some _ k _ _ _ std_1_82_ok R) in F2. apply (rfind_None _ k _ _ std_1_52_ok R) in F1.
      exfalso. apply F1, in_map_iff. now exists (c, y). }
  destruct (N.eq_dec c vu) as [->|D]; [|apply G; intros x y; now apply (rts_fun k n c)].
  destruct H as [H|H]; [|congruence].
  destruct (in_dec N.eq_dec vu (map fst (rts n))) as [I|I].
  - destruct (vu_children k n R I) as [->|Q]; [|contradiction]. apply r_flat_nil in R. subst n. vm_compute. reflexivity.
  - apply G. intros x y J. exfalso. apply I, in_map_iff. now exists (vu, x).
Qed.
Lemma k2h_releases d s : k2h E52 d s = k2h E82 d s.
Proof.
  unfold k2h. generalize (@None N) at 1 3 as pc. generalize (@None N) as pk.
  induction s as [|c s IH]; intros pk pc; [reflexivity|]. cbn [k2h_go].
  destruct (_ || _ || _); [now rewrite IH|].
  assert (V : forall q p, k2h_vowel E52 d q p c = k2h_vowel E82 d q p c).
  { intros q p. unfold k2h_vowel.
    assert (F : rfind E52 RT p = rfind E82 RT p) by (apply (rfind_releases []); [apply r_root|left; discriminate]).
    rewrite F. reflexivity. }
  destruct pc as [q|], pk as [p|]; [destruct (is_char_long_dash c); [now rewrite V, IH|]| | |];
    destruct (_ && _); now rewrite IH.
Qed.

Definition at_tsu_vu (s : str) : bool := match s with a :: b :: _ => (a =? tsu) && (b =? vu) | _ => false end.
Lemma rw_releases s : forall k n, r_node k n -> (k = [tsu] -> hd 0 s <> vu) -> (k = [] -> at_tsu_vu s = false) ->
  rw E52 n s = rw E82 n s.
Proof.
  induction s as [|c s IH]; intros k n R H1 H2; [reflexivity|]. cbn [rw].
  rewrite (rfind_releases k n c R).
  2:{ destruct (list_eq_dec N.eq_dec k [tsu]) as [Q|Q]; [right; exact (H1 Q)|now left]. }
  destruct (rfind E82 n c) as [m|] eqn:F; [|reflexivity]. rewrite (IH (k ++ [c]) m); [reflexivity| | |].
  - eapply rfind_node; eauto using std_1_82_ok.
  - intro Q. destruct k as [|x k]; [|destruct k; discriminate]. cbn in Q. inversion Q; subst c.
    specialize (H2 eq_refl). destruct s as [|b s]; [cbn; discriminate|]. cbn in H2 |- *. now apply N.eqb_neq in H2.
  - intro Q. destruct k; discriminate.
Qed.

(** the places where the two libraries differ *)
Definition tsu_vu (h : str) : Prop := exists a b, h = a ++ tsu :: vu :: b.
Lemma at_tsu_vu_spec h : at_tsu_vu h = true -> exists r, h = [tsu; vu] ++ r.
Proof.
  destruct h as [|a [|b h]]; try discriminate. cbn. intro H. apply andb_prop in H. rewrite !N.eqb_eq in H.
  destruct H as [-> ->]. now exists h.
Qed.
Lemma tsu_first k n : r_node k n -> ~ In tsu (tl k).
Proof.
  intros R I. pose proof (romaji_tree_check (fun p => negb (existsb (N.eqb tsu) (tl (fst p)))) ltac:(vm_compute; reflexivity) k n R) as H.
  cbn [fst] in H. apply existsb_In in I. rewrite I in H. discriminate.
Qed.
Lemma tsu_vu_skip i h a b : h = a ++ tsu :: vu :: b -> (i <= length a)%nat -> tsu_vu (skipn i h).
Proof.
  intros -> L. rewrite skipn_app. replace (i - length a)%nat with 0%nat by lia. exists (skipn i a), b. reflexivity.
Qed.
Lemma rconv_releases up : forall h o,
  (tsu_vu h -> rconv E52 up o h <> rconv E82 up o h) /\ (~ tsu_vu h -> rconv E52 up o h = rconv E82 up o h).
Proof.
  induction h as [h IH] using str_ind_len. intro o. destruct (at_tsu_vu h) eqn:A.
  - apply at_tsu_vu_spec in A. destruct A as (r & ->). split.
    + intros _ Q. apply (f_equal (at_pos 2)) in Q.
      assert (N : [tsu; vu] <> []) by discriminate.
      rewrite (rconv_head E52 up o [tsu; vu] r 2 (ch "e") std_1_52_ok N ltac:(vm_compute; reflexivity)) in Q.
      rewrite (rconv_head E82 up o [tsu; vu] r 2 (ch "o") std_1_82_ok N ltac:(vm_compute; reflexivity)) in Q.
      discriminate.
    + intro H. exfalso. apply H. exists [], r. reflexivity.
  - destruct h as [|c s]; [split; [intros (a & b & Q); destruct a; discriminate|reflexivity]|].
    rewrite !rconv_cons. unfold rstep. rewrite (rw_releases (c :: s) [] RT r_root) by (discriminate || auto).
    destruct (rw E82 RT (c :: s)) as [m i] eqn:W.
    destruct (rw_spec E82 std_1_82_ok _ _ _ _ _ r_root W) as (B1 & B2 & _). cbn [app] in B2.
    assert (G : forall j, (1 <= j <= length (c :: s))%nat -> ~ In tsu (tl (firstn j (c :: s))) -> forall w o',
      (tsu_vu (c :: s) -> w ++ rconv E52 up o' (skipn j (c :: s)) <> w ++ rconv E82 up o' (skipn j (c :: s))) /\
      (~ tsu_vu (c :: s) -> w ++ rconv E52 up o' (skipn j (c :: s)) = w ++ rconv E82 up o' (skipn j (c :: s)))).
    { intros j J T w o'. destruct (IH (skipn j (c :: s)) ltac:(rewrite skipn_length; lia) o') as [I1 I2]. split.
      - intros (a & b & Q) Z. apply app_inv_head in Z. revert Z. apply I1. eapply tsu_vu_skip; [exact Q|].
        destruct (Nat.le_gt_cases j (length a)) as [Le|Gt]; [exact Le|]. exfalso. rewrite Q in T, A.
        destruct a as [|x a]; [cbn in A; discriminate A|]. apply T. rewrite firstn_app. cbn [length] in Gt |- *.
        destruct j as [|j]; [lia|]. cbn [firstn]. cbn [app tl]. apply in_or_app. right.
        replace (S j - S (length a))%nat with (S (j - S (length a))) by lia. now left.
      - intro H. f_equal. apply I2. intros (a & b & Q). apply H. exists (firstn j (c :: s) ++ a), b.
        rewrite <- app_assoc, <- Q. now rewrite firstn_skipn. }
    destruct i as [|i]; cbn [fst snd].
    + apply G; [cbn; lia|]. cbn. tauto.
    + apply G; [lia|]. exact (tsu_first _ _ B2).
Qed.

(** where っゔ comes from *)
Lemma mark_vowel_chars o k v x : mark_vowel o k v -> In x v -> In x o \/ In x (u "あいうえ").
Proof.
  intros (row & I & _) J. cbn [mark_table In] in I.
  repeat (destruct I as [I|I]; [inversion I; subst; try (now left); right; revert J; cbn; tauto|]). destruct I.
Qed.
Lemma hiragana_for_vu c : hiragana_for c vu -> In c (u "ゔヴ").
Proof.
  unfold hiragana_for, vu. symspec. change (u "ゔヴ") with [0x3094; 0x30F4]. cbn [In]. lia.
Qed.
Lemma text_vu o : ~ In vu o -> forall a s h, hiragana_text o a s h -> forall x y, h = x ++ vu :: y ->
  exists s1 v s2, s = s1 ++ v :: s2 /\ In v (u "ゔヴ") /\ hiragana_text o a s1 x.
Proof.
  intros No a s h HT. induction HT as [a|a c s p t Hp HT IH]; intros x y Q; [destruct x; discriminate|].
  destruct (app_split_cases _ _ _ _ Q) as [(z & l & Q1 & Q2)|[(z & l & Q1 & Q2)|[Q1 Q2]]].
  - (* inside the piece *)
    cbn in Q2. inversion Q2; subst z. assert (J : In vu p) by (rewrite Q1; apply in_or_app; right; now left).
    destruct Hp as [(_ & h & A & ->)|[(_ & k & _ & B)|(_ & _ & ->)]].
    + destruct J as [->|[]]. destruct x as [|x1 x]; [|destruct x; discriminate].
      exists [], c, s. split; [reflexivity|]. split; [now apply hiragana_for_vu|constructor].
    + exfalso. destruct (mark_vowel_chars o k p vu B J) as [Z|Z]; [contradiction|]. revert Z. vm_compute. intuition discriminate.
    + exfalso. destruct J as [J|[]]. discriminate.
  - subst x. destruct (IH (z :: l) y Q2) as (s1 & v & s2 & -> & V & T). exists (c :: s1), v, s2.
    split; [reflexivity|]. split; [exact V|]. now constructor.
  - subst x. destruct (IH [] y Q2) as (s1 & v & s2 & -> & V & T). exists (c :: s1), v, s2.
    split; [reflexivity|]. split; [exact V|]. rewrite <- (app_nil_r p). now constructor.
Qed.
Lemma text_snoc_piece o s c : forall a h, hiragana_text o a (s ++ [c]) h ->
  exists h0 p, h = h0 ++ p /\ hiragana_text o a s h0 /\ hiragana_piece o (a ++ s) c p.
Proof.
  induction s as [|d s IH]; intros a h T; inversion T as [|? ? ? p t Hp HT Q1 Q2]; subst.
  - inversion HT; subst. exists [], p. rewrite !app_nil_r. split; [reflexivity|]. split; [constructor|exact Hp].
  - apply IH in HT. destruct HT as (h0 & q & -> & A & B). exists (p ++ h0), q. rewrite <- app_assoc in *.
    split; [reflexivity|]. split; [now constructor|exact B].
Qed.
Definition sokuon_end (s : str) : Prop := exists a q m, s = a ++ q :: m /\
  (q = ch "っ" /\ m = [] \/ q = ch "ッ" /\ Forall (eq long_mark) m).
Lemma hiragana_for_tsu c : hiragana_for c tsu -> c = ch "っ" \/ c = ch "ッ".
Proof. unfold hiragana_for, tsu. symspec. change (ch "っ") with 0x3063. change (ch "ッ") with 0x30C3. lia. Qed.
Lemma text_tsu s : forall x, hiragana_text (u "お") [] s (x ++ [tsu]) -> sokuon_end s.
Proof.
  induction s as [|c s IH] using rev_ind; intros x T.
  { inversion T as [? Q|]. destruct x; discriminate. }
  apply text_snoc_piece in T. destruct T as (h0 & p & Q & T & P). cbn [app] in P.
  destruct P as [(_ & h & A & ->)|[(-> & k & A & B)|(-> & _ & ->)]].
  - apply app_inj_tail in Q. destruct Q as [_ <-]. destruct (hiragana_for_tsu c A) as [-> | ->].
    + exists s, (ch "っ"), []. auto.
    + exists s, (ch "ッ"), []. auto.
  - destruct p as [|p1 p2] eqn:Ep.
    + rewrite app_nil_r in Q. subst h0. destruct (IH x T) as (a & q & m & -> & [(-> & ->)|(-> & F)]).
      * exfalso. apply lengthens_snoc in A. destruct A as [(-> & A1 & _)|(A & _)].
        -- unfold katakana_letter in A1. change (ch "っ") with 0x3063 in A1. lia.
        -- revert A. vm_compute. intuition discriminate.
      * exists a, (ch "ッ"), (m ++ [long_mark]). rewrite <- app_assoc. split; [reflexivity|]. right. split; [reflexivity|].
        apply Forall_app. auto.
    + exfalso. rewrite <- Ep in *. assert (J : In tsu p).
      { assert (N : p <> []) by (rewrite Ep; discriminate). destruct (exists_last N) as (p' & e & ->).
        rewrite app_assoc in Q. apply app_inj_tail in Q. destruct Q as [_ <-]. apply in_or_app. right. now left. }
      destruct (mark_vowel_chars _ k p tsu B J) as [Z|Z]; revert Z; vm_compute; intuition discriminate.
  - exfalso. apply app_inj_tail in Q. destruct Q as [_ Q]. discriminate.
Qed.
Lemma k2h_vowel_tsu q : k2h_vowel E52 true q tsu long_mark = [].
Proof.
  unfold k2h_vowel.
  assert (A : option_map (fun n => last_char (rout n)) (rfind E52 RT tsu) = Some None) by (vm_compute; reflexivity).
  destruct (rfind E52 RT tsu) as [n|]; [|discriminate A]. cbn [option_map] in A. inversion A as [A']. rewrite A'. reflexivity.
Qed.
Lemma k2h_sokuon m : Forall (eq long_mark) m -> k2h E52 true (ch "ッ" :: m) = [tsu].
Proof.
  intro F. unfold k2h. cbn [k2h_go]. change (is_char_slash_dot (ch "ッ") || _ || _) with false. cbn [andb].
  assert (G : forall m q, Forall (eq long_mark) m -> k2h_go E52 true (Some q) (Some tsu) m = []).
  { clear. induction m as [|c m IH]; intros q F; [reflexivity|]. inversion F; subst. cbn [k2h_go is_none].
    change (is_char_slash_dot long_mark || (is_char_long_dash long_mark && false) || is_kana_as_symbol long_mark) with false.
    change (is_char_long_dash long_mark) with true. cbn iota.
    rewrite k2h_vowel_tsu.
    cbn [app]. now apply IH. }
  change (is_char_long_dash (ch "ッ")) with false. change (is_char_katakana (ch "ッ")) with true. cbn [negb andb].
  change (hira_of_kata (ch "ッ")) with tsu. now rewrite G.
Qed.
Lemma double_v_text s : tsu_vu (k2h E52 true s) <-> double_v s.
Proof.
  pose proof (k2h_text E52 true s std_1_52_ok) as T. split.
  - intros (a & b & Q). rewrite Q in T. change (a ++ tsu :: vu :: b) with (a ++ [tsu] ++ vu :: b) in T. rewrite app_assoc in T.
    destruct (text_vu (u "お") ltac:(vm_compute; intuition discriminate) _ _ _ T _ _ eq_refl) as (s1 & v & s2 & -> & V & T1).
    destruct (text_tsu s1 a T1) as (x & q & m & -> & D). exists x, q, m, v, s2. rewrite <- app_assoc. auto.
  - intros (a & q & m & v & b & -> & V & D).
    assert (NV : ~ In v (u "ー・ヵヶ") /\ v <> long_mark /\ hiragana_for v vu).
    { change (u "ゔヴ") with [0x3094; 0x30F4] in V. cbn [In] in V.
      change (u "ー・ヵヶ") with [0x30FC; 0x30FB; 0x30F5; 0x30F6]. cbn [In]. unfold long_mark, hiragana_for, vu.
      destruct V as [<-|[<-|[]]]; (split; [lia|]); (split; [lia|]).
      - do 5 right. lia.
      - do 4 right. left. lia. }
    destruct NV as (N1 & N2 & N3). rewrite k2h_split.
    2:{ destruct D as [(-> & _)|(-> & _)]; vm_compute; intuition discriminate. }
    rewrite app_comm_cons, k2h_split by exact N1.
    destruct (k2h_head E52 true v vu b std_1_52_ok N2 N3) as (r & ->).
    exists (k2h E52 true a), r. f_equal. destruct D as [(-> & ->)|(-> & F)]; [|now rewrite k2h_sokuon].
    reflexivity.
Qed.
Theorem releases_agree s o :
  to_romaji_with_opt E52 s o = to_romaji_with_opt E82 s o <-> ~ double_v s.
Proof.
  rewrite !to_romaji_with_opt_eq by (apply std_1_52_ok || apply std_1_82_ok). rewrite <- k2h_releases, <- double_v_text.
  destruct (rconv_releases (upcase_katakana o) (k2h E52 true s) s) as [A B]. split.
  - intros Q D. apply (A D). congruence.
  - intro D. f_equal. exact (B D).
Qed.
