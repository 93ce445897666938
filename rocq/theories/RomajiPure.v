(** * katakana_to_hiragana and to_romaji without panics and fuel *)
From Verif Require Export Tac.
From Coq Require Import Sorted.
From Verif Require Import Base Std Constants Chars Trees RomajiTree Convert KanaPure.

(** ** Nodes of the romaji tree *)
Definition rts (n : rnode) : list (char * rnode) :=
  match rtrans n with Some t => t | None => [] end.

Fixpoint r_flat (n : rnode) : list (str * rnode) :=
  ([], n) ::
  match n with
  | RNode (Some ts) o =>
    flat_map (fun t => match t with (c, m) =>
                map (fun p => (c :: fst p, snd p)) (r_flat m) end) ts
  | RNode None _ => []
  end.

Lemma r_flat_here n : In ([], n) (r_flat n).
Proof. destruct n. cbn. now left. Qed.
Lemma r_flat_step n c m key x :
  In (c, m) (rts n) -> In (key, x) (r_flat m) -> In (c :: key, x) (r_flat n).
Proof.
  destruct n as [[ts|] o]; cbn; [|tauto]. intros H1 H2. right. apply in_flat_map.
  exists (c, m). split; [exact H1|]. apply in_map_iff. exists (key, x). auto.
Qed.
Lemma r_flat_inv n c key x : In (c :: key, x) (r_flat n) ->
  exists m, In (c, m) (rts n) /\ In (key, x) (r_flat m).
Proof.
  destruct n as [[ts|] o]; cbn; intros [H|H]; try discriminate; try tauto.
  apply in_flat_map in H. destruct H as [[d m] [H1 H2]]. apply in_map_iff in H2.
  destruct H2 as [[k y] [H2 H3]]. cbn in H2. inversion H2; subst. eauto.
Qed.
Lemma r_flat_nil n x : In ([], x) (r_flat n) -> x = n.
Proof.
  destruct n as [[ts|] o]; cbn; intros [H|H]; try congruence; try tauto.
  apply in_flat_map in H. destruct H as [[d m] [H1 H2]]. apply in_map_iff in H2.
  destruct H2 as [[k y] [H2 H3]]. discriminate.
Qed.
Lemma r_flat_app k1 : forall n m k2 x,
  In (k1, m) (r_flat n) -> In (k2, x) (r_flat m) -> In (k1 ++ k2, x) (r_flat n).
Proof.
  induction k1 as [|c k1 IH]; intros n m k2 x H1 H2; cbn.
  - apply r_flat_nil in H1. now subst.
  - apply r_flat_inv in H1. destruct H1 as (y & A & B).
    eapply r_flat_step; [exact A|]. eapply IH; eauto.
Qed.
Lemma r_flat_snoc n m k c x :
  In (k, m) (r_flat n) -> In (c, x) (rts m) -> In (k ++ [c], x) (r_flat n).
Proof.
  intros H1 H2. eapply r_flat_app; [exact H1|].
  eapply r_flat_step; [exact H2|apply r_flat_here].
Qed.

Notation RT := TO_ROMAJI_NODE_TREE.
(** [n] is the node of the romaji tree at path [k] *)
Definition r_node (k : str) (n : rnode) : Prop := In (k, n) (r_flat RT).

Lemma r_root : r_node [] RT.
Proof. apply r_flat_here. Qed.

Lemma romaji_tree_check (P : str * rnode -> bool) :
  forallb P (r_flat RT) = true -> forall k n, r_node k n -> P (k, n) = true.
Proof. intros H k n I. rewrite forallb_forall in H. exact (H _ I). Qed.

(** ** Lookup *)
Definition rfind (E : std) (n : rnode) (c : char) : option rnode :=
  match rtrans n with
  | Some t => match bsearch E (map fst t) c with
              | Some i => option_map snd (nth_error t i)
              | None => None
              end
  | None => None
  end.

Fixpoint sortedb (l : list N) : bool :=
  match l with
  | a :: (b :: _) as l' => (a <=? b) && sortedb l'
  | _ => true
  end.
Lemma sortedb_ok l : sortedb l = true -> sorted_keys l.
Proof.
  unfold sorted_keys. induction l as [|a l IH]; intro H; [constructor|].
  destruct l as [|b l]; [repeat constructor|].
  change ((a <=? b) && sortedb (b :: l) = true) in H.
  apply andb_prop in H. destruct H as [H1 H2]. constructor; [auto|].
  constructor. now apply N.leb_le.
Qed.

Lemma romaji_sorted k n : r_node k n -> sorted_keys (map fst (rts n)).
Proof.
  intro H. apply sortedb_ok.
  exact (romaji_tree_check (fun p => sortedb (map fst (rts (snd p))))
           ltac:(vm_compute; reflexivity) k n H).
Qed.

Lemma rts_sorted k n ts : r_node k n -> rtrans n = Some ts -> sorted_keys (map fst ts).
Proof. intros H E. apply romaji_sorted in H. unfold rts in H. now rewrite E in H. Qed.

Lemma r_find_ok E k n c : std_ok E -> r_node k n -> r_find E n c = Ok (rfind E n c).
Proof.
  intros HE Hn. unfold r_find, rfind. destruct (rtrans n) as [ts|] eqn:T; [|reflexivity].
  pose proof (ok_bsearch E HE _ c (rts_sorted _ _ _ Hn T)) as B.
  destruct (bsearch E (map fst ts) c) as [i|]; [|reflexivity].
  rewrite nth_error_map in B. unfold index. destruct (nth_error ts i); [reflexivity|discriminate].
Qed.

Lemma rfind_Some E k n c m : std_ok E -> r_node k n -> rfind E n c = Some m -> In (c, m) (rts n).
Proof.
  intros HE Hn H. unfold rfind, rts in *. destruct (rtrans n) as [ts|] eqn:T; [|discriminate].
  pose proof (ok_bsearch E HE _ c (rts_sorted _ _ _ Hn T)) as B.
  destruct (bsearch E (map fst ts) c) as [i|]; [|discriminate].
  rewrite nth_error_map in B. destruct (nth_error ts i) as [[d x]|] eqn:Q; [|discriminate].
  cbn in *. inversion H; inversion B; subst. now apply nth_error_In in Q.
Qed.
Lemma rfind_None E k n c : std_ok E -> r_node k n -> rfind E n c = None -> ~ In c (map fst (rts n)).
Proof.
  intros HE Hn H. unfold rfind, rts in *. destruct (rtrans n) as [ts|] eqn:T; [|cbn; tauto].
  pose proof (ok_bsearch E HE _ c (rts_sorted _ _ _ Hn T)) as B.
  destruct (bsearch E (map fst ts) c) as [i|]; [|exact B].
  rewrite nth_error_map in B. destruct (nth_error ts i) as [[d x]|] eqn:Q; discriminate.
Qed.
Lemma rfind_node E k n c m : std_ok E -> r_node k n -> rfind E n c = Some m -> r_node (k ++ [c]) m.
Proof. intros HE Hn H. eapply r_flat_snoc; [exact Hn|]. eapply rfind_Some; eauto. Qed.

(** ** The walk of [get] *)
Fixpoint rw (E : std) (n : rnode) (s : str) : rnode * nat :=
  match s with
  | [] => (n, 0%nat)
  | c :: rest =>
    match rfind E n c with
    | Some m => let (x, i) := rw E m rest in (x, S i)
    | None => (n, 0%nat)
    end
  end.

Lemma r_walk_rw E (HE : std_ok E) s : forall k n i, r_node k n ->
  r_walk E n s i = Ok (fst (rw E n s), (i + snd (rw E n s))%nat).
Proof.
  induction s as [|c s IH]; intros k n i Hn; cbn.
  - f_equal. f_equal. lia.
  - rewrite (r_find_ok E k n c HE Hn). cbn [bind].
    destruct (rfind E n c) as [m|] eqn:F.
    + rewrite (IH (k ++ [c]) m (S i)) by (eapply rfind_node; eauto).
      destruct (rw E m s). cbn. f_equal. f_equal. lia.
    + cbn. f_equal. f_equal. lia.
Qed.

Lemma rw_spec E (HE : std_ok E) s : forall k n m i, r_node k n -> rw E n s = (m, i) ->
  (i <= length s)%nat /\ r_node (k ++ firstn i s) m /\
  match skipn i s with [] => True | c :: _ => rfind E m c = None end.
Proof.
  induction s as [|c s IH]; intros k n m i Hn H; cbn in H.
  - inversion H; subst. cbn. rewrite app_nil_r. auto.
  - destruct (rfind E n c) as [x|] eqn:F.
    + destruct (rw E x s) as [y j] eqn:K. inversion H; subst.
      destruct (IH (k ++ [c]) x m j) as (A & B & C); auto.
      { eapply rfind_node; eauto. }
      rewrite <- app_assoc in B. cbn in *. split; [lia|]. auto.
    + inversion H; subst. cbn. rewrite app_nil_r, F. split; [lia|auto].
Qed.

(** ** katakana_to_hiragana *)
(** what an inner ー becomes: [pk] last converted kana, [pc] previous character *)
Definition k2h_vowel (E : std) (d : bool) (pc pk c : char) : str :=
  match rfind E RT pk with
  | None => [c]
  | Some node =>
    match last_char (rout node) with
    | Some r =>
      if is_char_katakana pc && (r =? ch "o") && d then [ch "お"]
      else match LONG_VOWELS r with Some h => [h] | None => [] end
    | None => []
    end
  end.

Definition is_none {A} (o : option A) : bool := match o with None => true | _ => false end.

(** [pc]: previous character ([None] at the start), [pk]: previous_kana *)
Fixpoint k2h_go (E : std) (d : bool) (pc pk : option char) (s : str) : str :=
  match s with
  | [] => []
  | c :: s' =>
    if is_char_slash_dot c || (is_char_long_dash c && is_none pc) || is_kana_as_symbol c
    then c :: k2h_go E d (Some c) pk s'
    else match pc, pk, is_char_long_dash c with
    | Some q, Some p, true => k2h_vowel E d q p c ++ k2h_go E d (Some c) pk s'
    | _, _, _ =>
      if negb (is_char_long_dash c) && is_char_katakana c
      then hira_of_kata c :: k2h_go E d (Some c) (Some (hira_of_kata c)) s'
      else c :: k2h_go E d (Some c) None s'
    end
  end.
Definition k2h (E : std) (d : bool) (s : str) : str := k2h_go E d None None s.

Lemma last_char_snoc (l : str) c : last_char (l ++ [c]) = Some c.
Proof. unfold last_char. rewrite rev_app_distr. reflexivity. Qed.

Lemma k2h_loop_ok E d (HE : std_ok E) : forall rest pre pk out,
  (pre = [] -> pk = None) ->
  k2h_loop E (pre ++ rest) d (length pre) pk rest out
  = Ok (out ++ k2h_go E d (last_char pre) pk rest).
Proof.
  induction rest as [|c rest IH]; intros pre pk out Hp; cbn [k2h_loop k2h_go].
  - now rewrite app_nil_r.
  - assert (Step : forall pk' out',
       k2h_loop E (pre ++ c :: rest) d (S (length pre)) pk' rest out'
       = Ok (out' ++ k2h_go E d (Some c) pk' rest)).
    { intros pk' out'. replace (pre ++ c :: rest) with ((pre ++ [c]) ++ rest)
        by (now rewrite <- app_assoc).
      replace (S (length pre)) with (length (pre ++ [c])) by (rewrite app_length; cbn; lia).
      rewrite IH.
      - now rewrite last_char_snoc.
      - intro Z. apply app_eq_nil in Z. destruct Z; discriminate. }
    assert (I : is_char_initial_long_dash c (length pre)
                = is_char_long_dash c && is_none (last_char pre)).
    { unfold is_char_initial_long_dash. f_equal. destruct pre as [|x pre] using rev_ind; [reflexivity|].
      rewrite last_char_snoc, app_length. cbn. destruct (length pre); reflexivity. }
    rewrite I.
    destruct (is_char_slash_dot c || _ || _) eqn:A.
    { rewrite Step, <- app_assoc. reflexivity. }
    destruct pre as [|x pre _] using rev_ind.
    + rewrite (Hp eq_refl) in *. cbn [last_char rev nth_error].
      destruct (negb _ && _); rewrite Step, <- app_assoc; reflexivity.
    + rewrite last_char_snoc.
      assert (J : is_char_inner_long_dash c (length (pre ++ [x])) = is_char_long_dash c).
      { unfold is_char_inner_long_dash. rewrite app_length. cbn.
        rewrite Nat.add_1_r. cbn. apply andb_true_r. }
      rewrite J. destruct pk as [p|].
      2:{ destruct (is_char_long_dash c); cbn [negb andb]; [|destruct (is_char_katakana c)];
            rewrite Step, <- app_assoc; reflexivity. }
      destruct (is_char_long_dash c) eqn:L.
      2:{ cbn [negb andb]. destruct (is_char_katakana c);
            rewrite Step, <- app_assoc; reflexivity. }
      rewrite (r_find_ok E [] _ p HE r_root). cbn [bind].
      unfold k2h_vowel. destruct (rfind E RT p) as [node|].
      2:{ rewrite Step, <- app_assoc. reflexivity. }
      replace (checked_sub (length (pre ++ [x])) 1) with (Ok (length pre)).
      2:{ unfold checked_sub. rewrite app_length. cbn. rewrite Nat.add_1_r. cbn. f_equal. lia. }
      cbn [bind]. rewrite <- app_assoc. cbn [app].
      rewrite nth_error_app2, Nat.sub_diag by lia. cbn [nth_error].
      replace (pre ++ x :: c :: rest) with ((pre ++ [x]) ++ c :: rest) by (now rewrite <- app_assoc).
      destruct (last_char (rout node)) as [r|].
      * destruct (is_char_katakana x && (r =? ch "o") && d).
        { rewrite Step, <- app_assoc. reflexivity. }
        destruct (LONG_VOWELS r); rewrite Step; [rewrite <- app_assoc|]; reflexivity.
      * rewrite andb_false_r. cbn [andb]. rewrite Step. reflexivity.
Qed.

Theorem katakana_to_hiragana_with_opt_eq E d s : std_ok E ->
  katakana_to_hiragana_with_opt E s d = Ok (k2h E d s).
Proof.
  intro HE. unfold katakana_to_hiragana_with_opt.
  apply (k2h_loop_ok E d HE s [] None []). reflexivity.
Qed.
Theorem katakana_to_hiragana_eq E s : std_ok E -> katakana_to_hiragana E s = Ok (k2h E false s).
Proof. apply katakana_to_hiragana_with_opt_eq. Qed.

(** every character yields at most one character *)
Lemma k2h_vowel_length E d pc pk c : (length (k2h_vowel E d pc pk c) <= 1)%nat.
Proof.
  unfold k2h_vowel. destruct (rfind E RT pk) as [n|]; [|cbn; lia].
  destruct (last_char (rout n)) as [r|]; [|cbn; lia].
  destruct (_ && d); [cbn; lia|]. destruct (LONG_VOWELS r); cbn; lia.
Qed.
Lemma k2h_go_length E d s : forall pc pk, (length (k2h_go E d pc pk s) <= length s)%nat.
Proof.
  induction s as [|c s IH]; intros pc pk; cbn [k2h_go length]; [lia|].
  destruct (_ || _ || _); [cbn; specialize (IH (Some c) pk); lia|].
  assert (X : (length (if negb (is_char_long_dash c) && is_char_katakana c
        then hira_of_kata c :: k2h_go E d (Some c) (Some (hira_of_kata c)) s
        else c :: k2h_go E d (Some c) None s) <= S (length s))%nat).
  { destruct (_ && _); cbn; apply le_n_S, IH. }
  destruct pc as [q|]; [|exact X]. destruct pk as [p|]; [|exact X].
  destruct (is_char_long_dash c); [|exact X].
  rewrite app_length. pose proof (k2h_vowel_length E d q p c). specialize (IH (Some c) (Some p)). lia.
Qed.
Lemma k2h_length E d s : (length (k2h E d s) <= length s)%nat.
Proof. apply k2h_go_length. Qed.

(** ** to_romaji *)
Definition remit (up : bool) (seg o : str) : str :=
  if forallb is_char_katakana seg && up then map ascii_upper o else o.

(** [orig]: remaining original text, [c :: rest]: remaining converted text *)
Definition rstep (E : std) (up : bool) (orig : str) (c : char) (rest : str) : str * nat :=
  match rw E RT (c :: rest) with
  | (m, S i) => (remit up (firstn (S i) orig) (rout m), S i)
  | (_, O) => ([c], 1%nat)
  end.

Fixpoint rconv_f (fuel : nat) (E : std) (up : bool) (orig s : str) : str :=
  match fuel, s with
  | S f, c :: rest =>
    let (out, n) := rstep E up orig c rest in
    out ++ rconv_f f E up (skipn n orig) (skipn n s)
  | _, _ => []
  end.
Definition rconv (E : std) (up : bool) (orig s : str) : str := rconv_f (length s) E up orig s.
Arguments rconv : simpl never.

Lemma rstep_pos E up orig c rest : (1 <= snd (rstep E up orig c rest))%nat.
Proof. unfold rstep. destruct (rw E RT (c :: rest)) as [m [|i]]; cbn; lia. Qed.

Lemma rconv_f_enough E up : forall f orig s, (length s <= f)%nat ->
  rconv_f f E up orig s = rconv E up orig s.
Proof.
  unfold rconv.
  assert (H : forall n f g orig s, (length s <= n)%nat -> (length s <= f)%nat -> (length s <= g)%nat ->
              rconv_f f E up orig s = rconv_f g E up orig s).
  { induction n as [|n IH]; intros f g orig s Hn Hf Hg.
    - destruct s; [|cbn in Hn; lia]. destruct f, g; reflexivity.
    - destruct s as [|c s]; [destruct f, g; reflexivity|].
      destruct f as [|f]; [cbn in Hf; lia|]. destruct g as [|g]; [cbn in Hg; lia|].
      cbn [rconv_f]. pose proof (rstep_pos E up orig c s) as P.
      destruct (rstep E up orig c s) as [out k]. cbn [snd] in P. f_equal.
      cbn [length] in *. apply IH; rewrite skipn_length; cbn [length]; lia. }
  intros f orig s Hf. apply (H (length s)); lia.
Qed.

Lemma rconv_nil E up orig : rconv E up orig [] = [].
Proof. reflexivity. Qed.
Lemma rconv_cons E up orig c s : rconv E up orig (c :: s) =
  fst (rstep E up orig c s)
  ++ rconv E up (skipn (snd (rstep E up orig c s)) orig) (skipn (snd (rstep E up orig c s)) (c :: s)).
Proof.
  unfold rconv at 1. cbn [length rconv_f]. pose proof (rstep_pos E up orig c s) as P.
  destruct (rstep E up orig c s) as [out k]. cbn [fst snd] in *. f_equal.
  apply rconv_f_enough. rewrite skipn_length. cbn [length]. lia.
Qed.

(** outputs consist of ASCII and caseless characters, so upper-casing is the ASCII one *)
Lemma romaji_outputs_caseable k n : r_node k n ->
  forallb (fun c => (c <? 128) || caseless c) (rout n) = true.
Proof.
  apply (romaji_tree_check (fun p => forallb (fun c => (c <? 128) || caseless c) (rout (snd p)))).
  vm_compute. reflexivity.
Qed.
Lemma caseless_not_ascii c : caseless c = true -> ascii_upper c = c /\ ascii_lower c = c.
Proof.
  unfold caseless, ascii_upper, ascii_lower. intro H.
  split; ifs; lia.
Qed.
Lemma to_uppercase_out E k n : std_ok E -> r_node k n ->
  to_uppercase E (rout n) = map ascii_upper (rout n).
Proof.
  intros HE Hn. apply romaji_outputs_caseable in Hn. unfold to_uppercase.
  induction (rout n) as [|c l IH]; [reflexivity|]. cbn in Hn |- *.
  apply andb_prop in Hn. destruct Hn as [H1 H2]. rewrite (IH H2).
  apply orb_prop in H1. destruct H1 as [H1|H1].
  - apply N.ltb_lt in H1. now rewrite (ok_upper_ascii E HE c H1).
  - rewrite (ok_upper_caseless E HE c H1). destruct (caseless_not_ascii c H1) as [-> _]. reflexivity.
Qed.

Lemma to_romaji_loop_ok E o (HE : std_ok E) : forall fuel opre orest pre rest out,
  length opre = length pre -> (length rest <= length orest)%nat ->
  (length rest < fuel)%nat ->
  to_romaji_loop fuel E o (opre ++ orest) (pre ++ rest) (length pre) out
  = Ok (out ++ rconv E (upcase_katakana o) orest rest).
Proof.
  induction fuel as [|fuel IH]; intros opre orest pre rest out Hl Hr Hf; [lia|].
  cbn [to_romaji_loop]. destruct rest as [|c rest].
  - rewrite app_length. cbn [length]. rewrite Nat.add_0_r, Nat.eqb_refl, rconv_nil, !app_nil_r. reflexivity.
  - replace (Nat.eqb (length pre) (length (pre ++ c :: rest))) with false.
    2:{ symmetry. apply Nat.eqb_neq. rewrite app_length. cbn. lia. }
    rewrite slice_from_app. cbn [bind]. unfold r_get.
    rewrite (r_walk_rw E HE (c :: rest) [] RT 0 r_root). cbn [bind].
    rewrite rconv_cons. unfold rstep.
    destruct (rw E RT (c :: rest)) as [m i] eqn:K. cbn [fst snd Nat.add].
    destruct (rw_spec E HE _ _ _ _ _ r_root K) as (B1 & B2 & _).
    assert (Step : forall n out', (1 <= n <= length (c :: rest))%nat ->
       to_romaji_loop fuel E o (opre ++ orest) (pre ++ c :: rest) (length pre + n) out'
       = Ok (out' ++ rconv E (upcase_katakana o) (skipn n orest) (skipn n (c :: rest)))).
    { intros n out' Hn.
      rewrite <- (firstn_skipn n (c :: rest)) at 1.
      rewrite <- (firstn_skipn n orest) at 1. rewrite !app_assoc.
      replace (length pre + n)%nat with (length (pre ++ firstn n (c :: rest))).
      2:{ rewrite app_length, firstn_length. lia. }
      apply IH.
      - rewrite !app_length, !firstn_length. lia.
      - rewrite !skipn_length. lia.
      - rewrite skipn_length. cbn [length] in *. lia. }
    destruct i as [|i].
    + cbn [Nat.eqb fst snd]. rewrite index_app. cbn [bind].
      rewrite Step by (cbn; lia). rewrite <- app_assoc. reflexivity.
    + cbn [Nat.eqb fst snd]. rewrite <- Hl. rewrite slice_app by lia. cbn [bind]. rewrite Hl.
      rewrite Step by lia. rewrite <- app_assoc. repeat f_equal.
      unfold remit. rewrite (to_uppercase_out E _ _ HE B2).
      destruct (forallb is_char_katakana _), (upcase_katakana o); reflexivity.
Qed.

Theorem to_romaji_with_opt_eq E o s : std_ok E ->
  to_romaji_with_opt E s o = Ok (rconv E (upcase_katakana o) s (k2h E true s)).
Proof.
  intro HE. unfold to_romaji_with_opt.
  rewrite katakana_to_hiragana_with_opt_eq by exact HE. cbn [bind].
  apply (to_romaji_loop_ok E o HE _ [] s [] (k2h E true s) []); auto.
  apply k2h_length.
Qed.
