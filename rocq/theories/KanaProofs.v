(** * Proofs about to_kana (C06-C15) *)
From Verif Require Import Tac Base Std Constants Chars Trees KanaTree Convert KanaPure KanaSpec KanaDict.

Notation conv m := (kconv (tree_of m)).

(** ** C06 *)
Lemma in_no_key_low m c : in_no_key m c <-> forall k v, entry m k v -> ~ In (ascii_lower c) k.
Proof.
  unfold in_no_key. split; intros H k v.
  - intro I. eapply H; [exact I|]. now apply lowers_lower.
  - intros d I L. apply lowers_lower in L. subst d. eauto.
Qed.
Lemma begins_no_key_root m c : begins_no_key m c <-> k_find (tree_of m) (ascii_lower c) = None.
Proof.
  unfold begins_no_key. split.
  - intro H. destruct (k_find (tree_of m) (ascii_lower c)) as [n|] eqn:F; [|reflexivity].
    exfalso. destruct (node_viable m [ascii_lower c] n) as (k & v & I); [cbn; now rewrite F|].
    apply (H k v (ascii_lower c) I). now apply lowers_lower.
  - intros H k v d I L. apply lowers_lower in L. subst d. apply entry_node in I.
    destruct I as (n & A & _). cbn in A. rewrite H in A. discriminate.
Qed.
Lemma in_no_key_begins m c : in_no_key m c -> begins_no_key m c.
Proof. intros H k v d I L. apply (H _ _ d I L). now left. Qed.
Lemma in_no_key_find m c q n : in_no_key m c -> k_at (tree_of m) q = Some n ->
  k_find n (ascii_lower c) = None.
Proof.
  intros H A. destruct (k_find n (ascii_lower c)) as [x|] eqn:F; [|reflexivity].
  exfalso. destruct (node_viable m (q ++ [ascii_lower c]) x) as (k & v & I).
  { rewrite k_at_app, A. cbn. now rewrite F. }
  rewrite in_no_key_low in H. apply (H _ _ I). apply in_or_app. left. apply in_or_app. right. now left.
Qed.

Lemma conv_begins_no_key m c s : begins_no_key m c -> conv m (c :: s) = c :: conv m s.
Proof.
  intro H. apply begins_no_key_root in H. rewrite kconv_cons. unfold kstep. cbn [kw]. now rewrite H.
Qed.
Lemma conv_inert_app m x s : Forall (begins_no_key m) x -> conv m (x ++ s) = x ++ conv m s.
Proof.
  induction 1 as [|c x H _ IH]; [reflexivity|]. cbn. rewrite conv_begins_no_key by exact H. now rewrite IH.
Qed.
Lemma conv_inert m x : Forall (begins_no_key m) x -> conv m x = x.
Proof. intro H. rewrite <- (app_nil_r x) at 1. rewrite conv_inert_app by exact H. apply app_nil_r. Qed.

Lemma conv_boundary m c y : in_no_key m c -> forall x, conv m (x ++ c :: y) = conv m x ++ c :: conv m y.
Proof.
  intro H. induction x as [x IH] using str_ind_len. destruct x as [|a x].
  { cbn. apply conv_begins_no_key, in_no_key_begins, H. }
  destruct (kconv_step m a x) as [(seg & rest & n & v & Sp & N & K & A & O & R & ->)|[O ->]].
  - rewrite Sp, <- app_assoc. rewrite (kconv_hit m seg (rest ++ c :: y) n v); auto.
    + rewrite IH; [now rewrite app_assoc|]. rewrite Sp, app_length. destruct seg; [congruence|]. cbn. lia.
    + destruct rest as [|d rest]; cbn; [|exact R]. eapply in_no_key_find; eauto.
  - assert (K : kw (tree_of m) ((a :: x) ++ c :: y) = kw (tree_of m) (a :: x)).
    { destruct (kw (tree_of m) (a :: x)) as [n i] eqn:K. destruct (kw_spec _ _ _ _ K) as (L & A & R).
      rewrite <- (firstn_skipn i (a :: x)), <- app_assoc.
      rewrite (kw_intro (tree_of m) (firstn i (a :: x)) _ n A).
      - now rewrite firstn_length_le.
      - destruct (skipn i (a :: x)); cbn; [|exact R]. eapply in_no_key_find; eauto. }
    destruct (kconv_step m a (x ++ c :: y)) as [(seg & rest & n & v & Sp & N & K' & A & O' & R & _)|[_ E]].
    + change (a :: x ++ c :: y) with ((a :: x) ++ c :: y) in K'. rewrite K in K'. rewrite K' in O.
      cbn in O. congruence.
    + change ((a :: x) ++ c :: y) with (a :: (x ++ c :: y)). rewrite E, IH by (cbn; lia). reflexivity.
Qed.

(** every character outside ASCII other than ‘ ’ “ ” is in no key *)
Definition key_char (c : N) : bool := (c <? 128) || char_in c (u "‘’“”").
Lemma keys_chars m k v : entry m k v -> forallb key_char k = true.
Proof.
  assert (H : forallb (fun e => forallb key_char (fst e)) (dict m) = true)
    by (destruct m; vm_compute; reflexivity).
  rewrite forallb_forall in H. intro I. apply (H (k, v) I).
Qed.
Lemma char_in_In c l : char_in c l = true <-> In c l.
Proof.
  unfold char_in. rewrite existsb_exists. split.
  - intros (x & I & E). apply N.eqb_eq in E. now subst.
  - intro I. exists c. split; [exact I|apply N.eqb_refl].
Qed.
Lemma non_ascii_in_no_key m c : 128 <= c -> ~ In c (u "‘’“”") -> in_no_key m c.
Proof.
  intros H1 H2. apply in_no_key_low. intros k v I J. apply keys_chars in I.
  rewrite forallb_forall in I. specialize (I _ J). unfold key_char in I. apply orb_prop in I.
  destruct I as [I|I].
  - apply N.ltb_lt in I. apply ascii_lower_small in I. lia.
  - apply char_in_In in I. apply H2. unfold ascii_lower in I.
    replace ((0x41 <=? c) && (c <=? 0x5A)) with false in I by lia. exact I.
Qed.

(** ** C07 *)
Lemma leaf_unextended m k : unextended m k -> forall n d, k_at (tree_of m) k = Some n ->
  k_find n d = None.
Proof.
  intros H n d A. destruct (k_find n d) as [x|] eqn:F; [|reflexivity]. exfalso.
  destruct (node_viable m (k ++ [d]) x) as (e & v & I).
  { rewrite k_at_app, A. cbn. now rewrite F. }
  rewrite <- app_assoc in I. apply H in I. discriminate.
Qed.
Lemma keys_nonempty m k v : entry m k v -> k <> [].
Proof.
  rewrite entry_node. intros (n & A & O) ->. cbn in A. inversion A; subst.
  rewrite (root_no_output _ (tree_of_is m)) in O. discriminate.
Qed.
Lemma conv_entry m seg k v rest : entry m k v -> unextended m k -> casing seg k ->
  conv m (seg ++ rest) = emit seg v ++ conv m rest.
Proof.
  intros I U C. apply casing_low in C. subst k. pose proof (keys_nonempty _ _ _ I) as N.
  pose proof I as I'. apply entry_node in I'. destruct I' as (n & A & O).
  apply kconv_hit with (n := n); auto.
  - intros ->. now apply N.
  - destruct rest as [|c rest]; [exact Logic.I|]. eapply leaf_unextended; eauto.
Qed.
Lemma conv_entry_cased m seg k v out rest : entry m k v -> unextended m k -> casing seg k ->
  cased_output seg v out -> conv m (seg ++ rest) = out ++ conv m rest.
Proof. intros I U C O. apply cased_output_emit in O. subst. eapply conv_entry; eauto. Qed.

(** all keys but the single n are unextended; in IME mode all keys are *)
Definition unextendedb (m : mode) (k : str) : bool :=
  forallb (fun e => negb (prefixb k (fst e)) || str_eqb k (fst e)) (dict m).
Lemma unextendedb_ok m k : unextendedb m k = true -> unextended m k.
Proof.
  unfold unextendedb, unextended. rewrite forallb_forall. intros H e v I.
  specialize (H _ I). cbn [fst] in H. apply orb_prop in H. destruct H as [H|H].
  - apply negb_true_iff in H. assert (prefixb k (k ++ e) = true) by (apply prefixb_spec; eauto). congruence.
  - apply str_eqb_eq in H. rewrite <- (app_nil_r k) in H at 1. apply app_inv_head in H. now subst.
Qed.
Definition leaf_keys (m : mode) : bool :=
  forallb (fun p => match kout (snd p) with
                    | Some _ => str_eqb (fst p) (u "n") || match ktrans (snd p) with [] => true | _ => false end
                    | None => true end) (k_flat (tree_of m)).
Lemma leaf_keys_ok m : leaf_keys m = true.
Proof. destruct m; vm_compute; reflexivity. Qed.
Lemma only_n_extended m k v : entry m k v -> k <> u "n" -> unextended m k.
Proof.
  intros I N e w J. apply entry_node in I, J. destruct I as (n & A & O), J as (n' & A' & O').
  rewrite k_at_app, A in A'. apply k_at_flat in A. pose proof (leaf_keys_ok m) as H.
  unfold leaf_keys in H. rewrite forallb_forall in H. specialize (H _ A). cbn [fst snd] in H.
  rewrite O in H. apply orb_prop in H. destruct H as [H|H]; [apply str_eqb_eq in H; congruence|].
  destruct e as [|d e]; [reflexivity|]. cbn in A'. unfold k_find in A'.
  destruct (ktrans n); [discriminate|discriminate].
Qed.
Lemma ime_no_n v : ~ entry Ime (u "n") v.
Proof.
  rewrite entry_node. intros (n & A & O).
  assert (match k_at (tree_of Ime) (u "n") with Some n => kout n | None => None end = None)
    by (vm_compute; reflexivity).
  rewrite A in H. congruence.
Qed.
Lemma ime_unextended k v : entry Ime k v -> unextended Ime k.
Proof. intro I. eapply only_n_extended; [exact I|]. intros ->. now apply ime_no_n in I. Qed.

(** ** C08 *)
Lemma emit_upper_no_hiragana seg v c : forallb is_AZ seg = true -> In c (emit seg v) -> ~ hiragana_letter c.
Proof.
  unfold emit. intros ->. unfold h2k. rewrite in_map_iff. intros (h & <- & _).
  unfold hiragana_letter, h2k_char, is_char_hiragana.
  destruct (is_char_long_dash h) eqn:A; cbn [orb]; charspec; ifs; lia.
Qed.
(** keys whose kana contains hiragana are made of letters, but for two spellings of ん *)
Definition no_hira (v : str) : bool := forallb (fun c => negb ((0x3041 <=? c) && (c <=? 0x3096))) v.
Definition is_az (c : N) : bool := (0x61 <=? c) && (c <=? 0x7A).
Definition n_mark (m : mode) (k : str) : bool :=
  str_eqb k (u "n'") || match m with Ime => str_eqb k (u "n ") | _ => false end.
Lemma keys_with_hiragana m k v : entry m k v ->
  no_hira v = true \/ forallb is_az k = true \/ (n_mark m k = true /\ v = u "ん").
Proof.
  assert (H : forallb (fun e => no_hira (snd e) || (forallb is_az (fst e) || n_mark m (fst e) && str_eqb (snd e) (u "ん"))) (dict m) = true)
    by (destruct m; vm_compute; reflexivity).
  rewrite forallb_forall in H. intro I. specialize (H _ I). cbn [fst snd] in H.
  apply orb_prop in H. destruct H as [H|H]; [auto|]. apply orb_prop in H. destruct H as [H|H]; [auto|].
  apply andb_prop in H. destruct H as [H1 H2]. apply str_eqb_eq in H2. auto.
Qed.
Lemma no_hira_h2k v c : no_hira v = true -> In c v -> ~ hiragana_letter c.
Proof.
  unfold no_hira. rewrite forallb_forall. intros H I. specialize (H _ I). unfold hiragana_letter. lia.
Qed.
Definition has_n_mark (m : mode) (s : str) : Prop :=
  exists a b, s = a ++ u "N'" ++ b \/ (m = Ime /\ s = a ++ u "N " ++ b).
Lemma has_n_mark_app m p s : has_n_mark m s -> has_n_mark m (p ++ s).
Proof.
  intros (a & b & H). exists (p ++ a), b. destruct H as [->|[M ->]]; [left|right; split; [exact M|]]; apply app_assoc.
Qed.
Lemma low_upper_eq seg k : (forall c, In c seg -> ~ lower_letter c) -> low seg = k ->
  forall x, k = [0x6E; x] -> ~ (0x61 <= x <= 0x7A) -> seg = [0x4E; x].
Proof.
  intros H <- x E X. unfold low in E. destruct seg as [|a [|b [|? ?]]]; try discriminate. cbn [map] in E.
  injection E as E1 E2. pose proof (H a (or_introl eq_refl)) as A. unfold lower_letter in A.
  unfold ascii_lower in *. ifs_in E1; ifs_in E2; repeat f_equal; lia.
Qed.
Lemma upper_text_hiragana m : forall s,
  (forall c, In c s -> ~ lower_letter c /\ ~ hiragana_letter c) ->
  forall c, In c (conv m s) -> hiragana_letter c -> c = ch "ん" /\ has_n_mark m s.
Proof.
  induction s as [s IH] using str_ind_len. intros H c. destruct s as [|a s]; [intros []|].
  destruct (kconv_step m a s) as [(seg & rest & n & v & Sp & N & K & A & O & R & ->)|[O ->]].
  - intros I Hc. apply in_app_or in I. rewrite Sp in H |- *.
    destruct I as [I|I].
    + assert (En : entry m (low seg) v) by (apply entry_node; eauto).
      apply keys_with_hiragana in En. destruct En as [En|[En|[En Ev]]].
      * exfalso. revert Hc. unfold emit in I. destruct (forallb is_AZ seg) eqn:U.
        -- eapply emit_upper_no_hiragana; [exact U|]. unfold emit. rewrite U. exact I.
        -- eapply no_hira_h2k; eauto.
      * exfalso. revert Hc. apply (emit_upper_no_hiragana seg v); [|exact I].
        rewrite forallb_forall. intros d J. rewrite forallb_forall in En.
        assert (Jl : In (ascii_lower d) (low seg)) by (apply in_map; exact J).
        specialize (En _ Jl). destruct (H d (in_or_app _ _ _ (or_introl J))) as (H1 & H2).
        unfold is_az in En. unfold is_AZ, lower_letter in *. unfold ascii_lower in En.
        destruct ((0x41 <=? d) && (d <=? 0x5A)) eqn:G; lia.
      * assert (Lw : forall d, In d seg -> ~ lower_letter d)
          by (intros d J; apply H, in_or_app; auto).
        assert (Sg : seg = u "N'" \/ (m = Ime /\ seg = u "N ")).
        { unfold n_mark in En. apply orb_prop in En. destruct En as [En|En].
          - apply str_eqb_eq in En. left. apply (low_upper_eq seg _ Lw En 0x27); [reflexivity|lia].
          - destruct m; try discriminate. apply str_eqb_eq in En. right. split; [reflexivity|].
            apply (low_upper_eq seg _ Lw En 0x20); [reflexivity|lia]. }
        split.
        -- unfold emit in I. subst v. destruct Sg as [->|[_ ->]]; vm_compute in I; destruct I as [<-|[]]; reflexivity.
        -- exists [], rest. destruct Sg as [->|[M ->]]; auto.
    + destruct (IH rest) with (c := c) as [Q1 Q2]; auto using has_n_mark_app.
      * rewrite Sp, app_length. destruct seg; [congruence|]. cbn. lia.
      * intros d J. apply H, in_or_app. auto.
  - intros [<-|I] Hc; [exfalso; revert Hc; apply H; now left|].
    destruct (IH s) with (c := c) as [Q1 Q2]; [cbn; lia|intros d J; apply H; now right|exact I|exact Hc|].
    split; [exact Q1|]. exact (has_n_mark_app m [a] s Q2).
Qed.

(** ** C09 *)
Lemma emit_length seg v : length (emit seg v) = length v.
Proof. unfold emit, h2k. destruct (forallb is_AZ seg); [apply map_length|reflexivity]. Qed.
Lemma outputs_short m k v : entry m k v -> (length v <= length k)%nat.
Proof.
  assert (H : forallb (fun e => Nat.leb (length (snd e)) (length (fst e))) (dict m) = true)
    by (destruct m; vm_compute; reflexivity).
  rewrite forallb_forall in H. intro I. specialize (H _ I). cbn in H. lia.
Qed.
Lemma conv_length m : forall s, (length (conv m s) <= length s)%nat.
Proof.
  induction s as [s IH] using str_ind_len. destruct s as [|a s]; [rewrite kconv_nil; cbn; lia|].
  destruct (kconv_step m a s) as [(seg & rest & n & v & Sp & N & K & A & O & R & ->)|[O ->]].
  - rewrite Sp, !app_length, emit_length.
    assert (L : (length v <= length (low seg))%nat) by (apply (outputs_short m), entry_node; eauto).
    rewrite low_length in L.
    assert (length rest < length (a :: s))%nat
      by (rewrite Sp, app_length; destruct seg; [congruence|]; cbn; lia).
    specialize (IH rest H). lia.
  - cbn [length]. specialize (IH s). cbn [length] in IH. lia.
Qed.

(** ** C10 *)
Lemma obsolete_entries k v : entry Obsolete k v <->
  (k = u "wi" /\ v = u "ゐ") \/ (k = u "we" /\ v = u "ゑ")
  \/ (k <> u "wi" /\ k <> u "we" /\ entry Default k v).
Proof.
  unfold entry, dict. rewrite in_app_iff. cbn [In]. rewrite filter_In. cbn [fst].
  rewrite negb_true_iff, orb_false_iff.
  assert (Q : forall w, str_eqb k w = false <-> k <> w).
  { intro w. split; [intros H E; apply str_eqb_eq in E; congruence|].
    intro H. destruct (str_eqb k w) eqn:G; [apply str_eqb_eq in G; contradiction|reflexivity]. }
  rewrite !Q. split.
  - intros [[H|[H|[H|[]]]]|H].
    + inversion H; subst. right. right. split; [discriminate|]. split; [discriminate|]. now left.
    + inversion H; subst. now left.
    + inversion H; subst. right. now left.
    + tauto.
  - intros [[-> ->]|[[-> ->]|(H1 & H2 & [H|H])]]; [tauto|tauto| |tauto].
    inversion H; subst. tauto.
Qed.

Definition wnode (t : knode) : knode := match k_find t (ch "w") with Some n => n | None => t end.
Lemma k_find_filter t1 t2 (P : N -> bool) c :
  filter (fun e => P (fst e)) (ktrans t1) = filter (fun e => P (fst e)) (ktrans t2) ->
  P c = true -> k_find t1 c = k_find t2 c.
Proof.
  intros H Pc. unfold k_find. f_equal.
  assert (F : forall l : list (N * knode), find (fun t => fst t =? c) l
    = find (fun t => fst t =? c) (filter (fun e => P (fst e)) l)).
  { induction l as [|[k x] l IH]; [reflexivity|]. cbn [find filter fst].
    destruct (k =? c) eqn:E.
    - apply N.eqb_eq in E. subst k. rewrite Pc. cbn [find fst]. now rewrite N.eqb_refl.
    - destruct (P k); [cbn [find fst]; now rewrite E|exact IH]. }
  rewrite F, H, <- F. reflexivity.
Qed.
Lemma obsolete_root c : c <> ch "w" ->
  k_find TO_KANA_NODE_TREE_OBSOLETE c = k_find TO_KANA_NODE_TREE c.
Proof.
  intro H. apply (k_find_filter _ _ (fun x => negb (x =? ch "w"))); [vm_compute; reflexivity|].
  apply negb_true_iff, N.eqb_neq. exact H.
Qed.
Lemma obsolete_w : k_find TO_KANA_NODE_TREE_OBSOLETE (ch "w") = Some (wnode TO_KANA_NODE_TREE_OBSOLETE)
  /\ k_find TO_KANA_NODE_TREE (ch "w") = Some (wnode TO_KANA_NODE_TREE)
  /\ kout (wnode TO_KANA_NODE_TREE_OBSOLETE) = None /\ kout (wnode TO_KANA_NODE_TREE) = None.
Proof. repeat split; vm_compute; reflexivity. Qed.
Lemma obsolete_w_find c : c <> ch "i" -> c <> ch "e" ->
  k_find (wnode TO_KANA_NODE_TREE_OBSOLETE) c = k_find (wnode TO_KANA_NODE_TREE) c.
Proof.
  intros H1 H2.
  apply (k_find_filter _ _ (fun x => negb (x =? ch "i") && negb (x =? ch "e"))); [vm_compute; reflexivity|].
  apply andb_true_iff. split; apply negb_true_iff, N.eqb_neq; assumption.
Qed.
Lemma lower_is c d : ascii_lower c = d -> lower_letter d -> c = d \/ c = d - 32.
Proof. unfold ascii_lower, lower_letter. ifs; lia. Qed.

Lemma obsolete_kstep c s :
  ((c = 0x77 \/ c = 0x57) -> match s with x :: _ => ~ (x = 0x69 \/ x = 0x49 \/ x = 0x65 \/ x = 0x45) | [] => True end) ->
  kstep TO_KANA_NODE_TREE_OBSOLETE c s = kstep TO_KANA_NODE_TREE c s.
Proof.
  intro H. unfold kstep. cbn [kw].
  destruct (N.eq_dec (ascii_lower c) (ch "w")) as [E|E].
  - rewrite E. destruct obsolete_w as (-> & -> & O1 & O2).
    assert (Hc : c = 0x77 \/ c = 0x57).
    { apply lower_is in E; [|unfold lower_letter; change (ch "w") with 0x77; lia].
      change (ch "w") with 0x77 in E. lia. }
    specialize (H Hc). destruct s as [|x s].
    + cbn [kw]. rewrite O1, O2. reflexivity.
    + cbn [kw]. rewrite obsolete_w_find.
      * destruct (k_find (wnode TO_KANA_NODE_TREE) (ascii_lower x)); [reflexivity|].
        rewrite O1, O2. reflexivity.
      * intro Q. apply H. apply lower_is in Q; [|unfold lower_letter; change (ch "i") with 0x69; lia].
        change (ch "i") with 0x69 in Q. lia.
      * intro Q. apply H. apply lower_is in Q; [|unfold lower_letter; change (ch "e") with 0x65; lia].
        change (ch "e") with 0x65 in Q. lia.
  - rewrite obsolete_root by exact E. destruct (k_find TO_KANA_NODE_TREE (ascii_lower c)); [reflexivity|].
    reflexivity.
Qed.
Lemma kstep_suffix t c s : exists a, c :: s = a ++ snd (kstep t c s).
Proof.
  unfold kstep. destruct (kw t (c :: s)) as [n [|i]]; cbn [snd]; [now exists [c]|].
  destruct (kout n); cbn [snd]; [|now exists [c]]. exists (firstn (S i) (c :: s)).
  symmetry. apply firstn_skipn.
Qed.
Lemma obsolete_conv : forall s, ~ has_wi_we s -> conv Obsolete s = conv Default s.
Proof.
  induction s as [s IH] using str_ind_len. intro H. destruct s as [|c s]; [reflexivity|].
  cbn [tree_of] in *. rewrite !kconv_cons, obsolete_kstep.
  - f_equal. apply IH; [pose proof (kstep_shorter TO_KANA_NODE_TREE c s); cbn; lia|].
    intros (a & w & x & b & Es & Hw & Hx). apply H.
    destruct (kstep_suffix TO_KANA_NODE_TREE c s) as [p P]. rewrite Es in P.
    exists (p ++ a), w, x, b. rewrite P, <- app_assoc. auto.
  - intro Hc. destruct s as [|x s]; [exact I|]. intro Hx. apply H. now exists [], c, x, s.
Qed.

(** ** C12: IME mode *)
Lemma outputs_nonempty m k v : entry m k v -> v <> [].
Proof.
  assert (H : forallb (fun e => match snd e with [] => false | _ => true end) (dict m) = true)
    by (destruct m; vm_compute; reflexivity).
  rewrite forallb_forall in H. intros I ->. specialize (H _ I). discriminate.
Qed.
Lemma outputs_not_keys m k v : entry m k v -> forallb (fun c => negb (key_char c)) v = true /\
  forallb (fun c => negb (key_char c)) (h2k v) = true.
Proof.
  assert (H : forallb (fun e => forallb (fun c => negb (key_char c)) (snd e) &&
                                forallb (fun c => negb (key_char c)) (h2k (snd e))) (dict m) = true)
    by (destruct m; vm_compute; reflexivity).
  rewrite forallb_forall in H. intro I. specialize (H _ I). cbn in H. now apply andb_prop in H.
Qed.
Lemma not_key_char_in_no_key m c : key_char c = false -> in_no_key m c.
Proof.
  unfold key_char. intro H. apply orb_false_iff in H. destruct H as [H1 H2].
  apply non_ascii_in_no_key; [lia|]. intro I. apply char_in_In in I. congruence.
Qed.
Lemma emit_inert m seg v : entry m (low seg) v -> forall c, In c (emit seg v) -> in_no_key m c.
Proof.
  intros I c J. apply outputs_not_keys in I. destruct I as [I1 I2].
  apply not_key_char_in_no_key. apply negb_true_iff.
  unfold emit in J. destruct (forallb is_AZ seg); rewrite forallb_forall in I1, I2; auto.
Qed.
Lemma emit_inert_begins m seg v : entry m (low seg) v -> Forall (begins_no_key m) (emit seg v).
Proof.
  intro I. apply Forall_forall. intros c J. apply in_no_key_begins. eapply emit_inert; eauto.
Qed.

(** a beginning of the converted text that is made of key characters was there before *)
Lemma conv_prefix_back m : forall a b p r, conv m a ++ b = p ++ r ->
  (forall c, In c p -> ~ in_no_key m c) -> exists r', a ++ b = p ++ r'.
Proof.
  induction a as [a IH] using str_ind_len. intros b p r E K.
  destruct a as [|c a]; [cbn in *; eauto|]. destruct p as [|d p]; [now exists ((c :: a) ++ b)|].
  destruct (kconv_step m c a) as [(seg & rest & n & v & Sp & N & _ & A & O & R & Ec)|[O Ec]].
  - rewrite Ec in E. assert (En : entry m (low seg) v) by (apply entry_node; eauto).
    pose proof (outputs_nonempty _ _ _ En) as Nv.
    destruct (emit seg v) as [|e em] eqn:Em.
    { exfalso. apply (f_equal (@length _)) in Em. rewrite emit_length in Em. destruct v; [congruence|discriminate]. }
    cbn in E. inversion E; subst d. exfalso. apply (K e); [now left|].
    apply (emit_inert m seg v En). rewrite Em. now left.
  - rewrite Ec in E. cbn in E. inversion E; subst d.
    destruct (IH a ltac:(cbn; lia) b p r) as [r' Er]; [assumption|intros x J; apply K; now right|].
    exists r'. cbn. now rewrite Er.
Qed.

Lemma low_in_key m seg k v : entry m (low seg ++ k) v -> forall c, In c seg -> ~ in_no_key m c.
Proof.
  intros I c J H. rewrite in_no_key_low in H. apply (H _ _ I). apply in_or_app. left.
  now apply in_map.
Qed.

(** no key occurs inside a proper beginning of another key, except at its start *)
Definition factor_free (m : mode) : bool :=
  forallb (fun e =>
    match fst e with
    | [] => true
    | _ :: p => (* every proper prefix of p, every start *)
      let q := removelast p in
      forallb (fun i => forallb (fun e' => negb (prefixb (fst e') (skipn i q))) (dict m)) (seq 0 (length q))
    end) (dict m).
Lemma factor_free_ime : factor_free Ime = true.
Proof. vm_compute. reflexivity. Qed.

Lemma conv_no_key m : forall x, (forall a seg b v, x = a ++ seg ++ b -> ~ entry m (low seg) v) -> conv m x = x.
Proof.
  induction x as [x IH] using str_ind_len. intro H. destruct x as [|c x]; [reflexivity|].
  destruct (kconv_step m c x) as [(seg & rest & n & v & Sp & N & _ & A & O & R & Ec)|[O ->]].
  - exfalso. apply (H [] seg rest v); [exact Sp|]. apply entry_node. eauto.
  - f_equal. apply IH; [cbn; lia|]. intros a seg b v E. apply (H (c :: a) seg b v). cbn. now rewrite E.
Qed.

(** a proper beginning of a key, minus its first character, is not converted *)
Lemma conv_inside_key c a z p v : entry Ime (ascii_lower c :: low a ++ low (z :: p)) v -> conv Ime a = a.
Proof.
  intro I. apply conv_no_key. intros x seg y w Ea J.
  pose proof factor_free_ime as F. unfold factor_free in F. rewrite forallb_forall in F.
  specialize (F _ I). cbn [fst] in F. rewrite forallb_forall in F.
  set (q := removelast (low a ++ low (z :: p))) in *.
  assert (exists q', q = low a ++ q') as [q' Eq].
  { unfold q. exists (removelast (low (z :: p))). apply removelast_app. discriminate. }
  assert (Ns : low seg <> []) by (eapply keys_nonempty; eauto).
  specialize (F (length x)). rewrite forallb_forall in F.
  assert (In (length x) (seq 0 (length q))) as Iq.
  { apply in_seq. rewrite Eq, Ea, app_length, !low_app, !app_length, !low_length.
    destruct seg; [now destruct Ns|]. cbn [length]. lia. }
  specialize (F Iq (low seg, w) J). cbn [fst] in F. apply negb_true_iff in F.
  assert (T : prefixb (low seg) (skipn (length x) q) = true); [|congruence].
  apply prefixb_spec. exists (low y ++ q'). rewrite Eq, Ea, !low_app, <- !app_assoc.
  rewrite <- (low_length x). rewrite skipn_app, skipn_all, Nat.sub_diag. reflexivity.
Qed.

Lemma ime_incremental : forall a b, conv Ime (conv Ime a ++ b) = conv Ime (a ++ b).
Proof.
  induction a as [a IH] using str_ind_len. intro b. destruct a as [|c a]; [reflexivity|].
  destruct (kconv_step Ime c a) as [(seg & rest & n & v & Sp & N & K & A & O & R & Ec)|[O Ec]].
  - assert (En : entry Ime (low seg) v) by (apply entry_node; eauto).
    rewrite Ec, Sp, <- !app_assoc. rewrite conv_inert_app by (apply emit_inert_begins, En).
    rewrite (conv_entry Ime seg (low seg) v (rest ++ b)); [|exact En|eapply ime_unextended; eauto|now apply casing_low].
    rewrite IH; [reflexivity|]. rewrite Sp, app_length. destruct seg; [congruence|]. cbn. lia.
  - rewrite Ec. cbn [app].
    destruct (kconv_step Ime c (a ++ b)) as [(seg & rest & n & v & Sp & N & K & A & O' & R & Ec')|[O' Ec']].
    + (* a key matches only together with b: nothing in a was converted *)
      assert (En : entry Ime (low seg) v) by (apply entry_node; eauto).
      destruct seg as [|c' p]; [congruence|]. cbn in Sp. inversion Sp as [[Ec0 Ep]]. subst c'.
      assert (exists z p2, p = a ++ z :: p2) as (z & p2 & Ep2).
      { (* otherwise the key lies within c :: a, contradicting the miss *)
        destruct (Nat.leb (length p) (length a)) eqn:Lp.
        - exfalso. assert (exists a2, a = p ++ a2) as [a2 Ea2].
          { clear - Ep Lp. revert p Ep Lp. induction a as [|x a IHa]; intros p Ep Lp.
            - destruct p; [now exists []|discriminate].
            - destruct p as [|y p]; [now exists (x :: a)|]. cbn in Ep. inversion Ep; subst.
              destruct (IHa p) as [a2 ->]; auto. now exists a2. }
          assert (Z : conv Ime (c :: a) = emit (c :: p) v ++ conv Ime a2).
          { rewrite Ea2. change (c :: p ++ a2) with ((c :: p) ++ a2).
            apply (conv_entry Ime (c :: p) (low (c :: p)) v); [exact En|eapply ime_unextended; eauto|now apply casing_low]. }
          rewrite Ec in Z. pose proof (emit_length (c :: p) v) as Le.
          pose proof (outputs_nonempty _ _ _ En) as Nv.
          destruct (emit (c :: p) v) as [|e em] eqn:Em; [destruct v; [congruence|discriminate]|].
          cbn in Z. inversion Z; subst e.
          assert (X : in_no_key Ime c) by (apply (emit_inert Ime (c :: p) v En); rewrite Em; now left).
          apply in_no_key_low with (k := low (c :: p)) (v := v) in X; [|exact En]. apply X. now left.
        - clear - Ep Lp. revert p Ep Lp. induction a as [|x a IHa]; intros p Ep Lp.
          + destruct p as [|z p2]; [discriminate|]. now exists z, p2.
          + destruct p as [|y p]; [discriminate|]. cbn in Ep. inversion Ep; subst.
            destruct (IHa p) as (z & p2 & ->); auto. now exists z, p2. }
      subst p. cbn [low map] in En. fold (low (a ++ z :: p2)) in En. rewrite low_app in En.
      rewrite (conv_inside_key c a z p2 v En). reflexivity.
    + rewrite Ec'.
      destruct (kconv_step Ime c (conv Ime a ++ b)) as [(seg & rest & n & v & Sp & N & K & A & O2 & R & _)|[_ ->]].
      * exfalso. assert (En : entry Ime (low seg) v) by (apply entry_node; eauto).
        destruct seg as [|c' p]; [congruence|]. cbn in Sp. inversion Sp as [[Ec0 Ep]]. subst c'.
        destruct (conv_prefix_back Ime a b p rest Ep) as [r' Er].
        { intros x J. apply (low_in_key Ime (c :: p) [] v); [now rewrite app_nil_r|now right]. }
        assert (Z : conv Ime (c :: a ++ b) = emit (c :: p) v ++ conv Ime r').
        { rewrite Er. change (c :: p ++ r') with ((c :: p) ++ r').
          apply (conv_entry Ime (c :: p) (low (c :: p)) v); [exact En|eapply ime_unextended; eauto|now apply casing_low]. }
        rewrite Ec' in Z. pose proof (emit_length (c :: p) v) as Le.
        pose proof (outputs_nonempty _ _ _ En) as Nv.
        destruct (emit (c :: p) v) as [|e em] eqn:Em; [destruct v; [congruence|discriminate]|].
        cbn in Z. inversion Z; subst e.
        assert (X : in_no_key Ime c) by (apply (emit_inert Ime (c :: p) v En); rewrite Em; now left).
        apply in_no_key_low with (k := low (c :: p)) (v := v) in X; [|exact En]. apply X. now left.
      * f_equal. apply IH. cbn. lia.
Qed.

Lemma ime_typing chunks : forall acc,
  fold_left (fun shown typed => conv Ime (shown ++ typed)) chunks (conv Ime acc)
  = conv Ime (acc ++ concat chunks).
Proof.
  induction chunks as [|x chunks IH]; intro acc; cbn; [now rewrite app_nil_r|].
  rewrite ime_incremental, IH, <- app_assoc. reflexivity.
Qed.
Lemma ime_idempotent s : conv Ime (conv Ime s) = conv Ime s.
Proof. pose proof (ime_incremental s []) as H. now rewrite !app_nil_r in H. Qed.

(** ** C13 *)
Lemma idempotent_without_n m : forall s, (forall c, In c (conv m s) -> ~ n_letter c) ->
  conv m (conv m s) = conv m s.
Proof.
  induction s as [s IH] using str_ind_len. intro H. destruct s as [|c s]; [reflexivity|].
  destruct (kconv_step m c s) as [(seg & rest & n & v & Sp & N & K & A & O & R & Ec)|[O Ec]]; rewrite Ec in *.
  - assert (En : entry m (low seg) v) by (apply entry_node; eauto).
    rewrite conv_inert_app by (apply emit_inert_begins, En). f_equal. apply IH.
    + rewrite Sp, app_length. destruct seg; [congruence|]. cbn. lia.
    + intros d J. apply H. apply in_or_app. now right.
  - destruct (kconv_step m c (conv m s)) as [(seg & rest & n & v & Sp & N & K & A & O2 & R & _)|[_ ->]].
    + exfalso. assert (En : entry m (low seg) v) by (apply entry_node; eauto).
      destruct seg as [|c' p]; [congruence|]. cbn in Sp. inversion Sp as [[Ec0 Ep]]. subst c'.
      destruct (conv_prefix_back m s [] p rest) as [r' Er].
      { now rewrite app_nil_r. }
      { intros x J. apply (low_in_key m (c :: p) [] v); [now rewrite app_nil_r|now right]. }
      rewrite app_nil_r in Er.
      assert (Un : unextended m (low (c :: p))).
      { eapply only_n_extended; [exact En|]. intro Z. cbn in Z. inversion Z as [[Z1 Z2]].
        apply (H c); [now left|]. apply lower_is in Z1; [|unfold lower_letter; change (ch "n") with 0x6E; lia].
        unfold n_letter. lia. }
      assert (Z : conv m (c :: s) = emit (c :: p) v ++ conv m r').
      { rewrite Er. change (c :: p ++ r') with ((c :: p) ++ r').
        apply (conv_entry m (c :: p) (low (c :: p)) v); [exact En|exact Un|now apply casing_low]. }
      rewrite Ec in Z. pose proof (emit_length (c :: p) v) as Le.
      pose proof (outputs_nonempty _ _ _ En) as Nv.
      destruct (emit (c :: p) v) as [|e em] eqn:Em; [destruct v; [congruence|discriminate]|].
      cbn in Z. inversion Z; subst e.
      assert (X : in_no_key m c) by (apply (emit_inert m (c :: p) v En); rewrite Em; now left).
      apply in_no_key_low with (k := low (c :: p)) (v := v) in X; [|exact En]. apply X. now left.
    + f_equal. apply IH; [cbn; lia|]. intros d J. apply H. now right.
Qed.

(** what a second conversion does *)
Definition y_next (t : str) : bool := match t with d :: _ => ascii_lower d =? 0x79 | [] => false end.
Fixpoint nfix (t : str) : str :=
  match t with
  | [] => []
  | c :: r => (if (ascii_lower c =? 0x6E) && negb (y_next r) then if c =? 0x4E then 0x30F3 else 0x3093 else c) :: nfix r
  end.
Definition n_children (m : mode) : bool :=
  match k_at (tree_of m) (u "n") with
  | Some n => match kout n with Some v => str_eqb v (u "ん") | None => false end &&
    forallb (fun e => (fst e =? 0x79) || match ktrans (snd e), kout (snd e) with [], Some _ => true | _, _ => false end) (ktrans n)
    && match k_find n 0x79 with Some _ => true | None => false end
  | None => false
  end.
Lemma n_children_ok m : m <> Ime -> n_children m = true.
Proof. destruct m; intro H; [vm_compute; reflexivity..|congruence]. Qed.
Lemma n_node m : m <> Ime -> exists n, k_at (tree_of m) (u "n") = Some n /\ kout n = Some (u "ん") /\
  k_find n 0x79 <> None /\
  forall d x, k_find n d = Some x -> d = 0x79 \/ (ktrans x = [] /\ exists v, kout x = Some v).
Proof.
  intro M. pose proof (n_children_ok m M) as H. unfold n_children in H.
  destruct (k_at (tree_of m) (u "n")) as [n|]; [|discriminate]. exists n.
  apply andb_prop in H. destruct H as [H Y]. apply andb_prop in H. destruct H as [H1 H2].
  split; [reflexivity|]. split; [destruct (kout n); [apply str_eqb_eq in H1; now subst|discriminate]|].
  split; [destruct (k_find n 0x79); [discriminate|congruence]|].
  intros d x F. unfold k_find in F. destruct (find _ (ktrans n)) as [[e y]|] eqn:G; [|discriminate].
  apply find_some in G. destruct G as [G1 G2]. cbn in F, G2. apply N.eqb_eq in G2. inversion F; subst.
  rewrite forallb_forall in H2. specialize (H2 _ G1). cbn [fst snd] in H2. apply orb_prop in H2.
  destruct H2 as [H2|H2]; [left; now apply N.eqb_eq|]. right.
  destruct (ktrans x); [|discriminate]. split; [reflexivity|]. destruct (kout x); [eauto|discriminate].
Qed.
Lemma n_lower c : ascii_lower c = 0x6E <-> n_letter c.
Proof. unfold ascii_lower, n_letter. ifs; lia. Qed.
Lemma y_lower c : ascii_lower c = 0x79 <-> y_letter c.
Proof. unfold ascii_lower, y_letter. ifs; lia. Qed.
Lemma emit_n c : ascii_lower c = 0x6E -> emit [c] (u "ん") = [if c =? 0x4E then 0x30F3 else 0x3093].
Proof. intro H. apply n_lower in H. destruct H as [->| ->]; vm_compute; reflexivity. Qed.

Lemma conv_conv m : m <> Ime -> forall s, conv m (conv m s) = nfix (conv m s).
Proof.
  intro M. destruct (n_node m M) as (nn & An & On & Yn & Ch).
  induction s as [s IH] using str_ind_len. destruct s as [|c s]; [reflexivity|].
  destruct (kconv_step m c s) as [(seg & rest & n & v & Sp & N & K & A & O & R & Ec)|[O Ec]]; rewrite Ec.
  - assert (En : entry m (low seg) v) by (apply entry_node; eauto).
    rewrite conv_inert_app by (apply emit_inert_begins, En).
    rewrite IH by (rewrite Sp, app_length; destruct seg; [congruence|]; cbn; lia).
    assert (In' : forall d, In d (emit seg v) -> ascii_lower d <> 0x6E).
    { intros d J Z. apply (emit_inert m seg v En) in J. rewrite in_no_key_low in J.
      apply (J (u "n") (u "ん")); [apply entry_node; eauto|]. rewrite Z. now left. }
    revert In'. generalize (emit seg v) (conv m rest). clear. intros l q In'.
    induction l as [|d e IHe]; [reflexivity|]. cbn [app nfix].
    rewrite (proj2 (N.eqb_neq _ _) (In' d (or_introl eq_refl))). cbn [andb]. f_equal. apply IHe.
    intros x J. apply In'. now right.
  - cbn [nfix].
    destruct (kconv_step m c (conv m s)) as [(seg & rest & n & v & Sp & N & K & A & O2 & R & E2)|[O2 E2]].
    + assert (En : entry m (low seg) v) by (apply entry_node; eauto).
      destruct seg as [|c' p]; [congruence|]. cbn in Sp. inversion Sp as [[Ec0 Ep]]. subst c'.
      destruct (conv_prefix_back m s [] p rest) as [r' Er].
      { now rewrite app_nil_r. }
      { intros x J. apply (low_in_key m (c :: p) [] v); [now rewrite app_nil_r|now right]. }
      rewrite app_nil_r in Er.
      destruct (list_eq_dec N.eq_dec (low (c :: p)) (u "n")) as [Z|Z].
      * destruct p as [|? ?]; [|discriminate]. cbn in Z. inversion Z as [Zc].
        assert (n = nn) by (cbn in An, A; rewrite Zc in A; congruence). subst n.
        assert (v = u "ん") by congruence. subst v. cbn [app] in Ep. subst rest.
        rewrite E2, emit_n by exact Zc. cbn [app]. f_equal; [|apply IH; cbn; lia].
        rewrite ?Zc, ?N.eqb_refl. cbn [andb].
        destruct (y_next (conv m s)) eqn:Y; [|reflexivity]. exfalso.
        destruct (conv m s) as [|d t]; [discriminate|]. cbn in Y. apply N.eqb_eq in Y. rewrite Y in R. congruence.
      * exfalso.
        assert (Un : unextended m (low (c :: p))) by (eapply only_n_extended; [exact En|exact Z]).
        assert (Q : conv m (c :: s) = emit (c :: p) v ++ conv m r').
        { rewrite Er. change (c :: p ++ r') with ((c :: p) ++ r').
          apply (conv_entry m (c :: p) (low (c :: p)) v); [exact En|exact Un|now apply casing_low]. }
        rewrite Ec in Q. pose proof (outputs_nonempty _ _ _ En) as Nv. pose proof (emit_length (c :: p) v) as Le.
        destruct (emit (c :: p) v) as [|e em] eqn:Em; [destruct v; [congruence|discriminate]|].
        cbn in Q. inversion Q; subst e.
        assert (X : in_no_key m c) by (apply (emit_inert m (c :: p) v En); rewrite Em; now left).
        apply in_no_key_low with (k := low (c :: p)) (v := v) in X; [|exact En]. apply X. now left.
    + rewrite E2, IH by (cbn; lia). f_equal.
      destruct (ascii_lower c =? 0x6E) eqn:Zc; [|reflexivity]. apply N.eqb_eq in Zc. cbn [andb].
      destruct (y_next (conv m s)) eqn:Y; [reflexivity|]. exfalso.
      assert (Lc : low [c] = u "n") by (cbn; now rewrite Zc).
      destruct (conv m s) as [|d t] eqn:Ct.
      * assert (kw (tree_of m) ([c] ++ []) = (nn, 1%nat)) as Kc by (apply kw_intro; [rewrite Lc; exact An|exact I]).
        cbn [app] in Kc. rewrite Kc in O2. cbn in O2. congruence.
      * destruct (k_find nn (ascii_lower d)) as [x|] eqn:Fd.
        -- destruct (Ch _ _ Fd) as [Yd|[Tx [v Ox]]].
           { cbn in Y. rewrite Yd in Y. discriminate. }
           assert (Ax : k_at (tree_of m) (low [c; d]) = Some x).
           { change (low [c; d]) with (low [c] ++ [ascii_lower d]). rewrite Lc, k_at_app, An. cbn. now rewrite Fd. }
           destruct (conv_prefix_back m s [] [d] t) as [r' Er].
           { now rewrite app_nil_r, Ct. }
           { intros y [<-|[]]. apply (low_in_key m [c; d] [] v); [|right; now left]. rewrite app_nil_r. apply entry_node. eauto. }
           rewrite app_nil_r in Er.
           assert (kw (tree_of m) ([c; d] ++ r') = (x, 2%nat)) as Kc.
           { apply kw_intro; [exact Ax|]. destruct r'; [exact I|]. unfold k_find. now rewrite Tx. }
           rewrite Er in O. cbn [app] in O, Kc. rewrite Kc in O. cbn in O. congruence.
        -- assert (kw (tree_of m) ([c] ++ d :: t) = (nn, 1%nat)) as Kc by (apply kw_intro; [rewrite Lc; exact An|exact Fd]).
           cbn [app] in Kc. rewrite Kc in O2. cbn in O2. congruence.
Qed.
Lemma nfix_spec t : second_pass t (nfix t).
Proof.
  induction t as [|c t IH]; [constructor|]. cbn [nfix].
  destruct (ascii_lower c =? 0x6E) eqn:N; cbn [andb].
  - apply N.eqb_eq, n_lower in N. destruct (y_next t) eqn:Y; cbn [negb].
    + apply sp_keep; [|exact IH]. intros _. destruct t as [|y q]; [discriminate|]. exists y, q. split; [reflexivity|].
      apply y_lower. now apply N.eqb_eq.
    + apply sp_n; [destruct N as [->| ->]; vm_compute; auto| |exact IH].
      intros y q -> Z. apply y_lower in Z. cbn in Y. rewrite Z in Y. discriminate.
  - apply sp_keep; [|exact IH]. intro Z. apply n_lower in Z. apply N.eqb_neq in N. congruence.
Qed.
Lemma nfix_y t : y_next (nfix t) = y_next t.
Proof.
  destruct t as [|c t]; [reflexivity|]. cbn [nfix y_next]. destruct (ascii_lower c =? 0x6E) eqn:N; [|reflexivity].
  apply N.eqb_eq in N. cbn [andb]. destruct (y_next t); cbn [negb]; [reflexivity|].
  rewrite N. destruct (c =? 0x4E); reflexivity.
Qed.
Lemma nfix_nfix t : nfix (nfix t) = nfix t.
Proof.
  induction t as [|c t IH]; [reflexivity|]. cbn [nfix]. rewrite IH, nfix_y. f_equal.
  destruct (ascii_lower c =? 0x6E) eqn:N; cbn [andb]; [|now rewrite N].
  destruct (y_next t) eqn:Y; cbn [negb]; [rewrite N; reflexivity|].
  destruct (c =? 0x4E); reflexivity.
Qed.
Lemma second_pass_fun t t1 t2 : second_pass t t1 -> second_pass t t2 -> t1 = t2.
Proof.
  intro H. revert t2. induction H as [|c k r r' Hc Hy _ IH|c r r' Hk _ IH]; intros t2 K; inversion K; subst.
  - reflexivity.
  - f_equal; [lia|auto].
  - exfalso. destruct H1 as (y & q & -> & Y); [unfold n_letter; lia|]. now apply (Hy y q).
  - exfalso. destruct Hk as (y & q & -> & Y); [unfold n_letter; lia|]. now apply (H2 y q).
  - f_equal. auto.
Qed.

(** ** C14 *)
Lemma geminate_entry m k c v : entry m (c :: k) v -> In c geminable ->
  (forall k', k <> c :: k') -> (m = Obsolete -> c :: k <> u "wi" /\ c :: k <> u "we") ->
  entry m (c :: c :: k) (0x3063 :: v).
Proof.
  intros I G NG OB.
  assert (H : forallb (fun e =>
     match fst e with
     | a :: k1 =>
       negb (existsb (N.eqb a) geminable)
       || (match k1 with b :: _ => a =? b | [] => false end)
       || (match m with Obsolete => str_eqb (fst e) (u "wi") || str_eqb (fst e) (u "we") | _ => false end)
       || pair_mem (a :: fst e, 0x3063 :: snd e) (dict m)
     | [] => false
     end) (dict m) = true) by (destruct m; vm_compute; reflexivity).
  rewrite forallb_forall in H. specialize (H _ I). cbn [fst snd] in H.
  apply orb_prop in H. destruct H as [H|H]; [|now apply pair_mem_In].
  apply orb_prop in H. destruct H as [H|H].
  - apply orb_prop in H. destruct H as [H|H].
    + apply negb_true_iff in H. assert (existsb (N.eqb c) geminable = true); [|congruence].
      apply existsb_exists. exists c. split; [exact G|apply N.eqb_refl].
    + destruct k as [|b k]; [discriminate|]. apply N.eqb_eq in H. subst b. now destruct (NG k).
  - destruct m; try discriminate. destruct (OB eq_refl) as [O1 O2].
    apply orb_prop in H. destruct H as [H|H]; apply str_eqb_eq in H; contradiction.
Qed.

(** ** C15 *)
Lemma n_node_default m : m <> Ime -> exists n, k_at (tree_of m) (u "n") = Some n /\ kout n = Some (u "ん")
  /\ map fst (ktrans n) = u "'aeiouy".
Proof.
  intro H. assert (X : match k_at (tree_of m) (u "n") with
    | Some n => kout n = Some (u "ん") /\ map fst (ktrans n) = u "'aeiouy" | None => False end).
  { destruct m; [| |congruence]; vm_compute; split; reflexivity. }
  destruct (k_at (tree_of m) (u "n")) as [n|]; [|contradiction]. exists n. tauto.
Qed.
Lemma k_find_keys n c : k_find n c = None <-> ~ In c (map fst (ktrans n)).
Proof.
  split; [apply k_find_None|]. intro H. destruct (k_find n c) as [x|] eqn:F; [|reflexivity].
  exfalso. apply H. apply k_find_In in F. apply in_map_iff. now exists (c, x).
Qed.
Lemma conv_n m seg rest : m <> Ime -> casing seg (u "n") ->
  match rest with [] => True | c :: _ => ~ n_follow c end ->
  conv m (seg ++ rest) = emit seg (u "ん") ++ conv m rest.
Proof.
  intros Hm C R. apply casing_low in C. destruct (n_node_default m Hm) as (n & A & O & T).
  apply kconv_hit with (n := n); auto.
  - intros ->. discriminate.
  - now rewrite C.
  - destruct rest as [|c rest]; [exact I|]. apply k_find_keys. rewrite T. intro J. apply R.
    exists (ascii_lower c). split; [now apply lowers_lower|].
    revert J. generalize (ascii_lower c) as d. intro d.
    change (u "'aeiouy") with [0x27; 0x61; 0x65; 0x69; 0x6F; 0x75; 0x79].
    change (u "'aiueoy") with [0x27; 0x61; 0x69; 0x75; 0x65; 0x6F; 0x79]. cbn [In]. tauto.
Qed.
Lemma keys_low m k v : entry m k v -> low k = k.
Proof.
  intro I. assert (H : forallb (fun e => str_eqb (low (fst e)) (fst e)) (dict m) = true)
    by (destruct m; vm_compute; reflexivity).
  rewrite forallb_forall in H. specialize (H _ I). now apply str_eqb_eq in H.
Qed.
Lemma emit_with seg c v : In c seg -> is_AZ c = false -> emit seg v = v.
Proof.
  intros I A. unfold emit. destruct (forallb is_AZ seg) eqn:F; [|reflexivity].
  rewrite forallb_forall in F. rewrite (F c I) in A. discriminate.
Qed.
Lemma casing_snoc seg k d : casing seg (k ++ [d]) -> ~ lower_letter d -> In d seg.
Proof.
  intros C N. apply Forall2_app_inv_r in C. destruct C as (a & b & _ & Cb & ->).
  inversion Cb as [|x y l l' L Cl]; subst. inversion Cl; subst. apply in_or_app. right.
  destruct L as [[U ->]|[_ ->]]; [|now left]. exfalso. apply N. unfold upper_letter, lower_letter in *. lia.
Qed.
Lemma emit_apostrophe seg k v : casing seg (k ++ u "'") -> emit seg v = v.
Proof.
  intro C. apply (emit_with seg 0x27); [|reflexivity].
  apply (casing_snoc seg k 0x27 C). unfold lower_letter. lia.
Qed.
Lemma emit_space seg k v : casing seg (k ++ u " ") -> emit seg v = v.
Proof.
  intro C. apply (emit_with seg 0x20); [|reflexivity].
  apply (casing_snoc seg k 0x20 C). unfold lower_letter. lia.
Qed.
Lemma n_apostrophe m : entry m (u "n'") (u "ん").
Proof. apply pair_mem_In. destruct m; vm_compute; reflexivity. Qed.

Lemma n_letter_low x : n_letter x <-> ascii_lower x = ch "n".
Proof.
  unfold n_letter. split; [intros [-> | ->]; reflexivity|].
  unfold ascii_lower. change (ch "n") with 0x6E. intro H. ifs_in H; lia.
Qed.

(** keys n + vowel or y: the kana does not start with ん *)
Lemma n_row_values m k v d : m <> Ime -> entry m (ch "n" :: d :: k) v -> d <> ch "'" ->
  exists e v', v = e :: v' /\ ~ In e (u "んン") /\ ~ In (h2k_char e) (u "んン").
Proof.
  intros M I D.
  assert (H : forallb (fun e => match e with
      | (a :: b :: _, x) => negb (a =? ch "n") || (b =? ch "'")
         || match x with e :: _ => negb (existsb (N.eqb e) (u "んン")) && negb (existsb (N.eqb (h2k_char e)) (u "んン")) | [] => false end
      | _ => true end) (dict m) = true) by (destruct m; [| |congruence]; vm_compute; reflexivity).
  rewrite forallb_forall in H. specialize (H _ I). cbn beta iota in H.
  rewrite N.eqb_refl in H. cbn [negb orb] in H.
  destruct (d =? ch "'") eqn:X; [apply N.eqb_eq in X; congruence|]. cbn [orb] in H.
  destruct v as [|e v']; [discriminate|]. exists e, v'. split; [reflexivity|].
  apply andb_true_iff in H. destruct H as [A B].
  assert (P : forall x, negb (existsb (N.eqb x) (u "んン")) = true -> ~ In x (u "んン")).
  { intros x Y J. apply negb_true_iff in Y. assert (Z : existsb (N.eqb x) (u "んン") = true); [|congruence].
    apply existsb_exists. exists x. split; [exact J|apply N.eqb_refl]. }
  split; apply P; assumption.
Qed.
Lemma conv_n_follow m x c rest : m <> Ime -> n_letter x -> n_follow c -> c <> ch "'" ->
  exists d r, conv m (x :: c :: rest) = d :: r /\ ~ In d (u "んン").
Proof.
  intros M X F A.
  destruct (kconv_step m x (c :: rest)) as [(seg & r & n & v & Sp & N & _ & K & O & R & Ec)|[O Ec]].
  2:{ exists x, (conv m (c :: rest)). split; [exact Ec|]. destruct X as [-> | ->]; vm_compute; intuition discriminate. }
  destruct seg as [|x' seg]; [congruence|]. cbn [app] in Sp. injection Sp as <- Sp.
  apply n_letter_low in X. destruct seg as [|c' seg].
  - exfalso. cbn [app] in Sp. subst r. cbn [low map] in K. rewrite X in K.
    destruct (n_node_default m M) as (n' & K' & _ & T). change [ch "n"] with (u "n") in K.
    rewrite K in K'. injection K' as <-. apply k_find_keys in R. apply R. rewrite T.
    destruct F as (d & L & I). apply lowers_lower in L. rewrite L. revert I.
    change (u "'aeiouy") with [0x27; 0x61; 0x65; 0x69; 0x6F; 0x75; 0x79].
    change (u "'aiueoy") with [0x27; 0x61; 0x69; 0x75; 0x65; 0x6F; 0x79]. cbn [In]. tauto.
  - cbn [app] in Sp. injection Sp as <- _.
    assert (En : entry m (low (x :: c :: seg)) v) by (apply entry_node; eauto).
    cbn [low map] in En. rewrite X in En.
    destruct (n_row_values m _ _ _ M En) as (e & v' & -> & I1 & I2).
    { intro L. apply A. unfold ascii_lower in L. change (ch "'") with 0x27 in *. revert L. ifs; lia. }
    rewrite Ec. unfold emit. destruct (forallb is_AZ (x :: c :: seg)); cbn [h2k map app]; do 2 eexists; eauto.
Qed.

Lemma n_node_ime : exists n, k_at (tree_of Ime) (u "n") = Some n /\ kout n = None
  /\ map fst (ktrans n) = u " 'aeinouy".
Proof.
  assert (X : match k_at (tree_of Ime) (u "n") with
    | Some n => kout n = None /\ map fst (ktrans n) = u " 'aeinouy" | None => False end)
  by (vm_compute; split; reflexivity).
  destruct (k_at (tree_of Ime) (u "n")) as [n|]; [|contradiction]. exists n. tauto.
Qed.
Lemma ime_n_stays x rest : n_letter x ->
  match rest with [] => True | c :: _ => ~ n_follow c /\ ~ n_letter c /\ c <> ch " " end ->
  conv Ime (x :: rest) = x :: conv Ime rest.
Proof.
  intros X F.
  destruct (kconv_step Ime x rest) as [(seg & r & n & v & Sp & N & _ & K & O & R & Ec)|[O Ec]]; [|exact Ec].
  exfalso. destruct seg as [|x' seg]; [congruence|]. cbn [app] in Sp. injection Sp as <- Sp.
  apply n_letter_low in X. destruct n_node_ime as (n' & K' & O' & T).
  cbn [low map] in K. rewrite X in K. change (ch "n" :: map ascii_lower seg) with (u "n" ++ low seg) in K.
  rewrite k_at_app, K' in K. destruct seg as [|c seg].
  - cbn [low map k_at] in K. congruence.
  - cbn [app] in Sp. subst rest. cbn [low map k_at] in K.
    destruct (k_find n' (ascii_lower c)) as [n2|] eqn:Fd; [|discriminate].
    apply k_find_In in Fd. assert (J : In (ascii_lower c) (u " 'aeinouy")).
    { rewrite <- T. apply in_map_iff. eexists. split; [|exact Fd]. reflexivity. }
    destruct F as (F1 & F2 & F3).
    assert (Q : In (ascii_lower c) (u "'aiueoy") \/ ascii_lower c = ch "n" \/ ascii_lower c = ch " ").
    { revert J. generalize (ascii_lower c). intro d.
      change (u " 'aeinouy") with [0x20; 0x27; 0x61; 0x65; 0x69; 0x6E; 0x6F; 0x75; 0x79].
      change (u "'aiueoy") with [0x27; 0x61; 0x69; 0x75; 0x65; 0x6F; 0x79]. change (ch "n") with 0x6E. change (ch " ") with 0x20.
      cbn [In]. intuition auto. }
    destruct Q as [Q|[Q|Q]].
    + apply F1. exists (ascii_lower c). split; [now apply lowers_lower|exact Q].
    + apply F2. now apply n_letter_low.
    + apply F3. unfold ascii_lower in Q. change (ch " ") with 0x20 in *. revert Q. ifs; lia.
Qed.
