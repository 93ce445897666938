(** * Proof of C70: every standard library is a choice of readings of ゔ *)
From Verif Require Import Base Tac Std StdInstances Chars Trees Convert KanaPure RomajiPure KanaSpec KanaProofs ScriptSpec ScriptProofs RomajiSpec
  RomajiProofs MoraProofs LibrarySpec LibraryProofs ChoiceSpec.

(** ** Walks *)
Fixpoint walk (E : std) (n : rnode) (k : str) : option rnode :=
  match k with
  | [] => Some n
  | c :: k => match rfind E n c with Some m => walk E m k | None => None end
  end.
Lemma walk_node E : std_ok E -> forall k k0 n x, r_node k0 n -> walk E n k = Some x -> In (k, x) (r_flat n).
Proof.
  intro HE. induction k as [|c k IH]; intros k0 n x R W; cbn [walk] in W.
  - injection W as <-. apply r_flat_here.
  - destruct (rfind E n c) as [m|] eqn:F; [|discriminate W]. eapply r_flat_step; [eapply rfind_Some; eauto|].
    eapply IH; [|exact W]. eapply rfind_node; eauto.
Qed.
Lemma walk_flat E : std_ok E -> forall k k0 n x, r_node k0 n -> ~ In vu k -> In (k, x) (r_flat n) -> walk E n k = Some x.
Proof.
  intro HE. induction k as [|c k IH]; intros k0 n x R V I; cbn [walk].
  - apply r_flat_nil in I. now subst.
  - apply r_flat_inv in I. destruct I as (m & I & J). destruct (rfind E n c) as [m'|] eqn:F.
    + assert (m' = m) as -> by (apply (rts_fun k0 n c); [exact R|intros ->; apply V; now left|eapply rfind_Some; eauto|exact I]).
      apply (IH (k0 ++ [c])); [|intro; apply V; now right|exact J]. eapply r_flat_snoc; eauto.
    + exfalso. apply (rfind_None E k0 n c HE R) in F. apply F, in_map_iff. now exists (c, m).
Qed.
Lemma walk_snoc E k : forall n c, walk E n (k ++ [c]) = match walk E n k with Some m => rfind E m c | None => None end.
Proof.
  induction k as [|d k IH]; intros n c; cbn [walk app].
  - destruct (rfind E n c); reflexivity.
  - destruct (rfind E n d); [apply IH|reflexivity].
Qed.
Lemma rw_walk E s : forall n m i, rw E n s = (m, i) -> (i <= length s)%nat /\ walk E n (firstn i s) = Some m /\
  forall c r, skipn i s = c :: r -> rfind E m c = None.
Proof.
  induction s as [|c s IH]; intros n m i W; cbn [rw] in W.
  - injection W as <- <-. split; [cbn; lia|]. split; [reflexivity|]. discriminate.
  - destruct (rfind E n c) as [x|] eqn:F.
    + destruct (rw E x s) as [y j] eqn:W2. injection W as <- <-. destruct (IH x y j W2) as (A & B & C).
      split; [cbn; lia|]. split; [cbn; now rewrite F|exact C].
    + injection W as <- <-. split; [lia|]. split; [reflexivity|]. cbn. now intros d r [= <- _].
Qed.
Lemma walk_rw E s : forall n seg m, walk E n seg = Some m -> (forall c r, s = c :: r -> rfind E m c = None) ->
  rw E n (seg ++ s) = (m, length seg).
Proof.
  intros n seg. revert n. induction seg as [|c seg IH]; intros n m W H; cbn [walk app length] in *.
  - injection W as ->. destruct s as [|c s]; [reflexivity|]. cbn [rw]. now rewrite (H c s eq_refl).
  - cbn [rw]. destruct (rfind E n c) as [x|]; [|discriminate W]. now rewrite (IH x m W H).
Qed.

(** ** The five nodes *)
Definition v_nodes (n : rnode) : list rnode := map snd (filter (fun t => fst t =? vu) (rts n)).
Definition tsu_node : rnode := match rfind std_1_82 RT tsu with Some t => t | None => RT end.
Definition spell (k : str) (n : rnode) : list (str * str) := map (fun p => (k ++ fst p, rout (snd p))) (r_flat n).
Lemma spell_root : map (spell [vu]) (v_nodes RT) = map v_entries (seq 0 5).
Proof. vm_compute. reflexivity. Qed.
Lemma spell_tsu : map (spell [tsu; vu]) (v_nodes tsu_node) = map (fun r => map sokuon (v_entries r)) (seq 0 5).
Proof. vm_compute. reflexivity. Qed.
Lemma nth_spell {A} (f : rnode -> A) (g : nat -> A) l r n : map f l = map g (seq 0 5) -> nth_error l r = Some n ->
  (r < 5)%nat /\ f n = g r.
Proof.
  intros H Q. assert (L : length l = 5%nat) by (apply (f_equal (@length _)) in H; now rewrite !map_length, seq_length in H).
  assert (B : (r < 5)%nat) by (rewrite <- L; apply nth_error_Some; congruence). split; [exact B|].
  apply (f_equal (fun l => nth_error l r)) in H. rewrite !nth_error_map, Q in H.
  assert (S : nth_error (seq 0 5) r = Some r) by (do 5 (destruct r as [|r]; [reflexivity|]); lia).
  rewrite S in H. cbn [option_map] in H. congruence.
Qed.
Lemma tsu_found : rfind std_1_82 RT tsu = Some tsu_node.
Proof.
  unfold tsu_node. assert (H : option_map (fun _ => tt) (rfind std_1_82 RT tsu) = Some tt) by (vm_compute; reflexivity).
  destruct (rfind std_1_82 RT tsu); [reflexivity|discriminate H].
Qed.
Lemma tsu_is_node : r_node [tsu] tsu_node.
Proof. exact (rfind_node std_1_82 [] RT tsu tsu_node std_1_82_ok r_root tsu_found). Qed.
Lemma find_tsu E : std_ok E -> rfind E RT tsu = Some tsu_node.
Proof.
  intro HE. assert (V : ~ In vu [tsu]) by (unfold vu, tsu; intros [H|[]]; discriminate H).
  pose proof (walk_flat E HE [tsu] [] RT tsu_node r_root V tsu_is_node) as W. cbn [walk] in W.
  destruct (rfind E RT tsu) as [m|]; [exact W|discriminate W].
Qed.
Lemma find_v E k n : std_ok E -> r_node k n -> In vu (map fst (rts n)) -> exists r m, rfind E n vu = Some m /\ nth_error (v_nodes n) r = Some m.
Proof.
  intros HE R I. destruct (rfind E n vu) as [m|] eqn:F; [|exfalso; now apply (rfind_None E k n vu HE R) in F].
  apply (rfind_Some E k n vu m HE R) in F. assert (J : In m (v_nodes n)).
  { apply in_map_iff. exists (vu, m). split; [reflexivity|]. apply filter_In. split; [exact F|reflexivity]. }
  apply In_nth_error in J. destruct J as (r & J). eauto.
Qed.
Lemma vu_keys k n : r_node k n -> In vu k -> exists k', (k = vu :: k' \/ k = tsu :: vu :: k') /\ ~ In vu k'.
Proof.
  intros R I. pose proof (romaji_tree_check (fun p => negb (existsb (N.eqb vu) (fst p))
     || match fst p with
        | a :: k' => (a =? vu) && negb (existsb (N.eqb vu) k') ||
            match k' with b :: k'' => (a =? tsu) && (b =? vu) && negb (existsb (N.eqb vu) k'') | [] => false end
        | [] => false end) ltac:(vm_compute; reflexivity) k n R) as H.
  cbn [fst] in H. apply existsb_In in I. rewrite I in H. cbn [negb orb] in H. clear I.
  assert (D : forall l, negb (existsb (N.eqb vu) l) = true -> ~ In vu l).
  { intros l Z Y. apply existsb_In in Y. rewrite Y in Z. discriminate Z. }
  destruct k as [|a k']; [discriminate H|]. apply orb_prop in H. destruct H as [H|H].
  - apply andb_prop in H. destruct H as [H1 H2]. apply N.eqb_eq in H1. subst a. exists k'. auto.
  - destruct k' as [|b k'']; [discriminate H|]. apply andb_prop in H. destruct H as [H H2]. apply andb_prop in H. destruct H as [H H1].
    apply N.eqb_eq in H, H1. subst a b. exists k''. auto.
Qed.

Lemma dict_keys r r' v : (r < 5)%nat -> (r' < 5)%nat -> ~ In ([], v) (chosen_dict r r').
Proof.
  intros B B' I.
  assert (H : forallb (fun r => forallb (fun r' => forallb (fun e => match fst e with [] => false | _ => true end) (chosen_dict r r')) (seq 0 5)) (seq 0 5) = true)
    by (vm_compute; reflexivity).
  rewrite forallb_forall in H. assert (J : In r (seq 0 5)) by (apply in_seq; lia). specialize (H r J).
  rewrite forallb_forall in H. assert (J' : In r' (seq 0 5)) by (apply in_seq; lia). specialize (H r' J').
  rewrite forallb_forall in H. specialize (H _ I). discriminate H.
Qed.
Lemma vowel_table d r : (r < 5)%nat ->
  match nth r [Some (ch "u"); Some (ch "a"); Some (ch "i"); Some (ch "e"); Some (ch "o")] None with
  | Some c => if (c =? ch "o") && d then [ch "お"] else match LONG_VOWELS c with Some h => [h] | None => [] end
  | None => []
  end = v_vowel (o_vowel d) r.
Proof. intro L. do 5 (destruct r as [|r]; [destruct d; reflexivity|]). lia. Qed.
Section Choice.
  Context (E : std) (HE : std_ok E) (r r' : nat) (m m' : rnode)
    (F : rfind E RT vu = Some m) (F' : rfind E tsu_node vu = Some m')
    (Q : nth_error (v_nodes RT) r = Some m) (Q' : nth_error (v_nodes tsu_node) r' = Some m').
  Lemma chosen_nodes : r_node [vu] m /\ r_node [tsu; vu] m'.
  Proof. split; [exact (rfind_node E [] RT vu m HE r_root F)|exact (rfind_node E [tsu] tsu_node vu m' HE tsu_is_node F')]. Qed.
  Lemma chosen_spell : spell [vu] m = v_entries r /\ spell [tsu; vu] m' = map sokuon (v_entries r').
  Proof.
    split; [exact (proj2 (nth_spell _ _ _ r m spell_root Q))|].
    exact (proj2 (nth_spell _ (fun r => map sokuon (v_entries r)) _ r' m' spell_tsu Q')).
  Qed.
  Lemma in_spell k k0 n v : r_node k0 n -> ~ In vu k -> In (k0 ++ k, v) (spell k0 n) <-> exists x, walk E n k = Some x /\ rout x = v.
  Proof.
    intros R V. unfold spell. rewrite in_map_iff. split.
    - intros ([k1 x] & Z & I). cbn [fst snd] in Z. injection Z as Z1 Z2. apply app_inv_head in Z1. subst k1. exists x.
      split; [|exact Z2]. exact (walk_flat E HE k k0 n x R V I).
    - intros (x & W & <-). exists (k, x). split; [reflexivity|]. exact (walk_node E HE k k0 n x R W).
  Qed.
  Lemma spell_keys k0 n k v : r_node k0 n -> In (k, v) (spell k0 n) -> exists k1 x, k = k0 ++ k1 /\ r_node k x.
  Proof.
    intros R I. apply in_map_iff in I. destruct I as ([k1 x] & Z & I). cbn [fst snd] in Z. injection Z as <- _.
    exists k1, x. split; [reflexivity|]. exact (r_flat_app k0 RT n k1 x R I).
  Qed.
  Lemma walk_dict k v : k <> [] -> (exists x, walk E RT k = Some x /\ rout x = v) <-> In (k, v) (chosen_dict r r').
  Proof.
    intro N. destruct chosen_nodes as [R1 R2], chosen_spell as [S1 S2].
    unfold chosen_dict. rewrite !in_app_iff, filter_In, <- S1, <- S2. cbn [fst]. change (ch "ゔ") with vu.
    assert (D : negb (existsb (N.eqb vu) k) = true <-> ~ In vu k).
    { rewrite negb_true_iff, <- not_true_iff_false, existsb_In. reflexivity. }
    rewrite D. clear D.
    assert (K1 : forall k', ~ In vu k' -> k = vu :: k' -> (exists x, walk E RT k = Some x /\ rout x = v) <-> In (k, v) (spell [vu] m)).
    { intros k' V ->. change (vu :: k') with ([vu] ++ k') at 2. rewrite (in_spell k' [vu] m v R1 V). cbn [walk]. rewrite F. reflexivity. }
    assert (K2 : forall k', ~ In vu k' -> k = tsu :: vu :: k' -> (exists x, walk E RT k = Some x /\ rout x = v) <-> In (k, v) (spell [tsu; vu] m')).
    { intros k' V ->. change (tsu :: vu :: k') with ([tsu; vu] ++ k') at 2. rewrite (in_spell k' [tsu; vu] m' v R2 V).
      cbn [walk]. rewrite (find_tsu E HE), F'. reflexivity. }
    split.
    - intro W. pose proof W as (x & W1 & W2). pose proof (walk_node E HE k [] RT x r_root W1) as R.
      destruct (in_dec N.eq_dec vu k) as [V|V].
      + destruct (vu_keys k x R V) as (k' & [Z|Z] & V'); [right; left; now apply (K1 k')|right; right; now apply (K2 k')].
      + left. split; [|exact V]. apply (r_entry_node k v). split; [exact N|]. exists x. auto.
    - intros [[I V]|[I|I]].
      + apply (r_entry_node k v) in I. destruct I as [_ (x & R & <-)]. exists x. split; [|reflexivity].
        exact (walk_flat E HE k [] RT x r_root V R).
      + pose proof (spell_keys [vu] m k v R1 I) as (k' & x & Z & R).
        assert (V : ~ In vu k').
        { destruct (vu_keys k x R) as (k2 & [Z2|Z2] & V2); [rewrite Z; now left| |]; rewrite Z in Z2; cbn in Z2;
            [injection Z2 as ->; exact V2|injection Z2 as Z2 _; vm_compute in Z2; discriminate Z2]. }
        now apply (K1 k' V).
      + pose proof (spell_keys [tsu; vu] m' k v R2 I) as (k' & x & Z & R).
        assert (V : ~ In vu k').
        { destruct (vu_keys k x R) as (k2 & [Z2|Z2] & V2); [rewrite Z; right; now left| |]; rewrite Z in Z2; cbn in Z2;
            [injection Z2 as Z2 _; vm_compute in Z2; discriminate Z2|injection Z2 as ->; exact V2]. }
        now apply (K2 k' V).
  Qed.

  (** ** to_romaji *)
  Lemma rconv_chosen up : forall s orig, (length s <= length orig)%nat -> substitutes (chosen_dict r r') up orig s (rconv E up orig s).
  Proof.
    induction s as [s IH] using str_ind_len. intros orig L. destruct s as [|c s]; [rewrite rconv_nil; constructor|].
    rewrite rconv_cons. unfold rstep. destruct (rw E RT (c :: s)) as [x i] eqn:W.
    destruct (rw_walk E _ _ _ _ W) as (A & B & C). destruct i as [|i]; cbn [fst snd].
    - destruct orig as [|d orig]; [exfalso; cbn [length] in L; lia|]. cbn [skipn app]. constructor; [|apply IH; cbn [length] in L |- *; lia].
      intros v I. cbn [firstn walk] in B. injection B as <-. specialize (C c s eq_refl).
      apply walk_dict in I; [|discriminate]. destruct I as (y & I & _). cbn [walk] in I. now rewrite C in I.
    - set (seg := firstn (S i) (c :: s)) in *. set (rest := skipn (S i) (c :: s)) in *.
      assert (Ls : length seg = S i) by (unfold seg; rewrite firstn_length; lia).
      assert (Sp : seg ++ rest = c :: s) by apply firstn_skipn.
      rewrite <- (firstn_skipn (S i) orig) at 1. rewrite <- Sp. apply SB_hit with (rout x).
      + apply walk_dict; [unfold seg; discriminate|]. eauto.
      + rewrite Ls, firstn_length. lia.
      + intros d s' w Es I. apply walk_dict in I; [|intro Z; apply app_eq_nil in Z; destruct Z; discriminate].
        destruct I as (y & I & _). rewrite walk_snoc, B in I. rewrite (C d s' Es) in I. discriminate I.
      + now apply remit_output.
      + apply IH; [rewrite <- Sp, app_length; lia|]. rewrite skipn_length. apply (f_equal (@length _)) in Sp.
        rewrite app_length in Sp. lia.
  Qed.
  Lemma choice_bounds : (r < 5 /\ r' < 5)%nat.
  Proof.
    split; [exact (proj1 (nth_spell _ _ _ r m spell_root Q))|].
    exact (proj1 (nth_spell _ (fun r => map sokuon (v_entries r)) _ r' m' spell_tsu Q')).
  Qed.
  Lemma dict_nonempty v : ~ In ([], v) (chosen_dict r r').
  Proof. destruct choice_bounds as [B B']. now apply dict_keys. Qed.
  Lemma snoc_nonempty {A} (l : list A) c : l ++ [c] <> [].
  Proof. intro Y. apply app_eq_nil in Y. destruct Y as [_ Y]. discriminate Y. Qed.
  Lemma rw_hit seg s v : In (seg, v) (chosen_dict r r') -> (forall c s' w, s = c :: s' -> ~ In (seg ++ [c], w) (chosen_dict r r')) ->
    exists x, rw E RT (seg ++ s) = (x, length seg) /\ rout x = v.
  Proof.
    intros I X. assert (N : seg <> []) by (intros ->; exact (dict_nonempty v I)).
    apply (walk_dict seg v N) in I. destruct I as (x & W & Ev). exists x. split; [|exact Ev].
    apply walk_rw; [exact W|]. intros d s' Es. destruct (rfind E x d) as [y|] eqn:Z; [|reflexivity].
    exfalso. apply (X d s' (rout y) Es). apply walk_dict; [apply snoc_nonempty|].
    exists y. rewrite walk_snoc, W. auto.
  Qed.
  Lemma rw_miss c s : (forall v, ~ In ([c], v) (chosen_dict r r')) -> rw E RT (c :: s) = (RT, 0%nat).
  Proof.
    intro X. cbn [rw]. destruct (rfind E RT c) as [y|] eqn:Z; [|reflexivity].
    exfalso. apply (X (rout y)). apply walk_dict; [discriminate|]. exists y. cbn [walk]. rewrite Z. auto.
  Qed.
  Lemma rstep_hit up orig c seg s x : rw E RT ((c :: seg) ++ s) = (x, length (c :: seg)) ->
    rconv E up orig ((c :: seg) ++ s) = remit up (firstn (length (c :: seg)) orig) (rout x) ++ rconv E up (skipn (length (c :: seg)) orig) s.
  Proof.
    intro RW. cbn [app] in *. rewrite rconv_cons. unfold rstep. rewrite RW. cbn [length fst snd skipn].
    rewrite skipn_app, Nat.sub_diag, skipn_all. reflexivity.
  Qed.
  Lemma rstep_miss up orig c s : rw E RT (c :: s) = (RT, 0%nat) -> rconv E up orig (c :: s) = c :: rconv E up (skipn 1 orig) s.
  Proof. intro RW. rewrite rconv_cons. unfold rstep. rewrite RW. reflexivity. Qed.
  Lemma chosen_rconv up orig s t : substitutes (chosen_dict r r') up orig s t -> t = rconv E up orig s.
  Proof.
    induction 1 as [orig|oseg orig seg s v out out' I L X O HS IH|d orig c s out X HS IH].
    - now rewrite rconv_nil.
    - destruct (rw_hit seg s v I X) as (x & RW & <-).
      destruct seg as [|c seg]; [exfalso; exact (dict_nonempty _ I)|].
      rewrite (rstep_hit up _ c seg s x RW), <- L, firstn_app, skipn_app, Nat.sub_diag, firstn_all, skipn_all. cbn [firstn skipn app].
      rewrite app_nil_r, <- IH. f_equal. now apply remit_output.
    - rewrite (rstep_miss up _ c s (rw_miss c s X)). cbn [skipn]. now rewrite <- IH.
  Qed.

  (** ** Long marks *)
  Lemma chosen_vowel d q c : is_char_katakana q = true -> k2h_vowel E d q vu c = v_vowel (o_vowel d) r.
  Proof.
    intro K. unfold k2h_vowel. rewrite F, K. cbn [andb].
    assert (H : map (fun n => last_char (rout n)) (v_nodes RT) = map (fun r => nth r [Some (ch "u"); Some (ch "a"); Some (ch "i"); Some (ch "e"); Some (ch "o")] None) (seq 0 5))
      by (vm_compute; reflexivity).
    destruct (nth_spell _ _ _ r m H Q) as [L Z]. cbn beta in Z. rewrite Z.
    exact (vowel_table d r L).
  Qed.
  Lemma k2h_chosen d s : forall a pk, pk_state a pk -> chosen_text r (o_vowel d) a s (k2h_go E d (last_char a) pk s).
  Proof.
    induction s as [|c s IH]; intros a pk P; [constructor|].
    pose proof (k2h_go_text E d HE (c :: s) a pk P) as T.
    destruct (k2h_go_step d c a pk P) as (pk' & P' & [(Nk & h & Q1)|(-> & k & q & K & La & Q1)]); rewrite Q1 in *.
    - rewrite <- (last_char_snoc a c). change (h :: k2h_go E d (last_char (a ++ [c])) pk' s) with ([h] ++ k2h_go E d (last_char (a ++ [c])) pk' s).
      constructor; [| |now apply IH].
      + inversion T as [|? ? ? p t Hp HT0 Z1 Z0 Z2]; subst. destruct Hp as [(N1 & h' & A & ->)|[(E1 & k & A & B)|(E1 & A & ->)]].
        * cbn in Z2. injection Z2 as -> _. left. eauto.
        * exfalso. apply (Nk E1). eauto.
        * cbn in Z2. injection Z2 as <- _. right. right. auto.
      + intros Z L. exfalso. apply (Nk Z). eauto.
    - rewrite <- (last_char_snoc a long_mark). constructor; [| |now apply IH].
      + right. left. split; [reflexivity|]. exists k. split; [exact K|]. apply k2h_vowel_spec; auto.
        * eapply last_katakana; eauto.
        * destruct K as (? & ? & ? & ? & ? & ?). assumption.
        * destruct K as (? & ? & ? & ? & ? & ?). assumption.
      + intros _ L. rewrite (lengthens_det a k (ch "ヴ") K L). change (k2hc (ch "ヴ")) with vu. apply chosen_vowel.
        eapply last_katakana; eauto.
  Qed.
  Lemma chosen_det o a s t t' : chosen_text r o a s t -> chosen_text r o a s t' -> t = t'.
  Proof.
    intro H. revert t'. induction H as [a|a c s p t Hp HV HT IH]; intros t' H'; inversion H' as [|? ? ? p' t2 Hp' HV' HT']; subst; [reflexivity|].
    rewrite (IH t2 HT'). f_equal. destruct Hp as [(N1 & h & A & ->)|[(E1 & k & A & B)|(E1 & A & ->)]],
      Hp' as [(N2 & h' & A' & ->)|[(E2 & k' & A' & B')|(E2 & A' & ->)]]; try contradiction; auto.
    - apply k2hc_spec in A, A'. congruence.
    - assert (k = k') by (eapply lengthens_det; eauto). subst k'.
      destruct (N.eq_dec k (ch "ヴ")) as [->|D]; [rewrite HV, HV' by assumption; reflexivity|eapply mark_vowel_det; eauto].
    - exfalso. eauto.
    - exfalso. eauto.
  Qed.
  Lemma chosen_text_k2h d s h : chosen_text r (o_vowel d) [] s h <-> h = k2h E d s.
  Proof.
    assert (T : chosen_text r (o_vowel d) [] s (k2h E d s)).
    { apply (k2h_chosen d s [] None). cbn. intros (k & K). now apply lengthens_nil in K. }
    split; [intro H; exact (chosen_det _ _ _ _ _ H T)|intros ->; exact T].
  Qed.
  Lemma romaji_chosen s o t : to_romaji_with_opt E s o = Ok t <->
    exists h, chosen_text r (u "お") [] s h /\ substitutes (chosen_dict r r') (upcase_katakana o) s h t.
  Proof.
    rewrite to_romaji_with_opt_eq by exact HE. change (u "お") with (o_vowel true). split.
    - intros [= <-]. exists (k2h E true s). split; [now apply chosen_text_k2h|]. apply rconv_chosen. apply k2h_length.
    - intros (h & H & S). apply chosen_text_k2h in H. subst h. apply chosen_rconv in S. now subst t.
  Qed.
  Lemma hiragana_chosen s t : katakana_to_hiragana E s = Ok t <-> chosen_text r (u "う") [] s t.
  Proof.
    unfold katakana_to_hiragana. rewrite katakana_to_hiragana_with_opt_eq by exact HE.
    rewrite (chosen_text_k2h false s t). split; [now intros [= <-]|now intros ->].
  Qed.
End Choice.

(** ** Every choice occurs *)
Lemma choice_exists E : std_ok E -> exists r r' m m', rfind E RT vu = Some m /\ rfind E tsu_node vu = Some m' /\
  nth_error (v_nodes RT) r = Some m /\ nth_error (v_nodes tsu_node) r' = Some m'.
Proof.
  intro HE. destruct (find_v E [] RT HE r_root) as (r & m & F & Q).
  { apply existsb_In. vm_compute. reflexivity. }
  destruct (find_v E [tsu] tsu_node HE tsu_is_node) as (r' & m' & F' & Q').
  { apply existsb_In. vm_compute. reflexivity. }
  exists r, r', m, m'. auto.
Qed.
Definition pick_at (r r' : nat) (keys : list char) (k : char) : option nat :=
  pick (if existsb (N.eqb (ch "っ")) keys then r else r') keys k.
Definition std_choice (r r' : nat) : std := unicode14_std (pick_at r r').
Lemma std_choice_ok r r' : std_ok (std_choice r r').
Proof. apply unicode14_std_ok. intros keys k S. unfold pick_at. now apply pick_ok. Qed.


Lemma choice_of E r r' : std_ok E -> rfind E RT vu = nth_error (v_nodes RT) r -> rfind E tsu_node vu = nth_error (v_nodes tsu_node) r' ->
  exists m m', rfind E RT vu = Some m /\ rfind E tsu_node vu = Some m' /\
    nth_error (v_nodes RT) r = Some m /\ nth_error (v_nodes tsu_node) r' = Some m'.
Proof.
  intros HE A B. destruct (choice_exists E HE) as (_ & _ & m & m' & F & F' & _). exists m, m'. rewrite <- A, <- B. auto.
Qed.
Lemma choice_releases :
  (rfind std_1_52 RT vu = nth_error (v_nodes RT) 4 /\ rfind std_1_52 tsu_node vu = nth_error (v_nodes tsu_node) 3) /\
  (rfind std_1_82 RT vu = nth_error (v_nodes RT) 4 /\ rfind std_1_82 tsu_node vu = nth_error (v_nodes tsu_node) 4).
Proof. repeat split; vm_compute; reflexivity. Qed.
Lemma choice_all r r' : (r < 5)%nat -> (r' < 5)%nat ->
  rfind (std_choice r r') RT vu = nth_error (v_nodes RT) r /\ rfind (std_choice r r') tsu_node vu = nth_error (v_nodes tsu_node) r'.
Proof.
  intros L L'. do 5 (destruct r as [|r]; [do 5 (destruct r' as [|r']; [split; vm_compute; reflexivity|]); lia|]). lia.
Qed.
