(** * Proofs of the theorems of Props_Kana.v *)
From Verif Require Import Base Tac Std StdInstances Strings Convert Trees KanaTree KanaPure KanaSpec
  KanaDict KanaProofs ScriptProofs ExactSpec Exact.

Lemma to_kana_conv E s o : std_ok E -> to_kana_with_opt E s o = Ok (conv (mode_of o) s).
Proof. intro HE. rewrite to_kana_with_opt_eq by exact HE. now rewrite k_tree_mode. Qed.

Lemma C05_to_kana_converts_proof :
  forall E, std_ok E -> forall s o t,
    to_kana_with_opt E s o = Ok t <-> converts (mode_of o) s t.
Proof.
  intros E HE s o t. now apply to_kana_converts.
Qed.

Lemma C06_foreign_text_proof :
  forall E, std_ok E -> forall o,
    (forall x c y tx ty, in_no_key (mode_of o) c ->
       to_kana_with_opt E x o = Ok tx -> to_kana_with_opt E y o = Ok ty ->
       to_kana_with_opt E (x ++ [c] ++ y) o = Ok (tx ++ [c] ++ ty)) /\
    (forall x y ty, Forall (begins_no_key (mode_of o)) x -> to_kana_with_opt E y o = Ok ty ->
       to_kana_with_opt E (x ++ y) o = Ok (x ++ ty)) /\
    (forall c, 128 <= c -> ~ In c (u "‘’“”") -> in_no_key (mode_of o) c) /\
    (forall c, in_no_key (mode_of o) c -> begins_no_key (mode_of o) c).
Proof.
  intros E HE o. repeat split.
  - intros x c y tx ty N X Y. rewrite to_kana_conv in * by exact HE. injection X as <-. injection Y as <-.
    cbn [app]. now rewrite conv_boundary by exact N.
  - intros x y ty F Y. rewrite to_kana_conv in * by exact HE. injection Y as <-.
    now rewrite conv_inert_app by exact F.
  - intros. now apply non_ascii_in_no_key.
  - intros. now apply in_no_key_begins.
Qed.

Lemma C07_case_selects_script_proof :
  forall E, std_ok E -> forall o,
    (forall k v seg out rest t,
       entry (mode_of o) k v -> unextended (mode_of o) k -> casing seg k -> cased_output seg v out ->
       to_kana_with_opt E rest o = Ok t -> to_kana_with_opt E (seg ++ rest) o = Ok (out ++ t)) /\
    (forall k v, entry (mode_of o) k v -> k <> u "n" -> unextended (mode_of o) k) /\
    (forall k v v', entry (mode_of o) k v -> entry (mode_of o) k v' -> v = v').
Proof.
  intros E HE o. repeat split.
  - intros k v seg out rest t N U C O T. rewrite to_kana_conv in * by exact HE. injection T as <-.
    now rewrite (conv_entry_cased _ _ _ _ _ _ N U C O).
  - intros. eapply only_n_extended; eauto.
  - intros. eapply entry_functional; eauto.
Qed.

Lemma C08_upper_case_text_partial_proof :
  forall E, std_ok E -> forall s o t,
    (forall c, In c s -> ~ lower_letter c /\ ~ hiragana_letter c) ->
    to_kana_with_opt E s o = Ok t ->
    (forall c, In c t -> hiragana_letter c -> c = ch "ん") /\
    ((exists c, In c t /\ hiragana_letter c) <-> reads_n_mark (mode_of o) s).
Proof.
  intros E HE s o t H T. rewrite to_kana_conv in T by exact HE. injection T as <-. split.
  - intros c I Hc. exact (proj1 (upper_text_hiragana (mode_of o) s H c I Hc)).
  - exact (upper_text_exact (mode_of o) s H).
Qed.

Lemma C08_upper_case_text_refuted_proof :
  forall E, std_ok E -> exists s t, (forall c, In c s -> ~ lower_letter c /\ ~ hiragana_letter c) /\
    to_kana E s = Ok t /\ exists c, In c t /\ hiragana_letter c.
Proof.
  intros E HE. exists (u "SHIN'YOU"), (u "シんヨウ"). split; [|split].
  - intros c I. vm_compute in I. unfold lower_letter, hiragana_letter.
    repeat (destruct I as [<-|I]; [lia|]). destruct I.
  - unfold to_kana. rewrite to_kana_conv by exact HE. vm_compute. reflexivity.
  - exists (ch "ん"). split; [vm_compute; auto|]. unfold hiragana_letter. vm_compute. intuition discriminate.
Qed.

Lemma C09_never_longer_proof :
  forall E, std_ok E -> forall s o,
    (forall t, to_kana_with_opt E s o = Ok t -> (length t <= length s)%nat) /\
    ((forall c, In c s -> c < 128 \/ caseless c = true) ->
       (forall t, to_hiragana_with_opt E s o = Ok t -> (length t <= length s)%nat) /\
       (forall t, to_katakana_with_opt E s o = Ok t -> (length t <= length s)%nat)).
Proof.
  intros E HE s o. split.
  - intros t T. rewrite to_kana_conv in T by exact HE. injection T as <-. apply conv_length.
  - intro H. pose proof (script_length E o s HE H) as [A B].
    rewrite to_hiragana_with_opt_eq, to_katakana_with_opt_eq by exact HE.
    split; intros t [= <-]; assumption.
Qed.

Lemma C10_obsolete_kana_proof :
  (forall k v, entry Obsolete k v <->
     (k = u "wi" /\ v = u "ゐ") \/ (k = u "we" /\ v = u "ゑ")
     \/ (k <> u "wi" /\ k <> u "we" /\ entry Default k v)) /\
  (forall E, std_ok E -> forall s a b c, ~ has_wi_we s ->
     to_kana_with_opt E s (Build_options true a b c) = to_kana_with_opt E s (Build_options false a b false)).
Proof.
  split; [exact obsolete_entries|]. intros E HE s a b c N.
  rewrite !to_kana_conv by exact HE. unfold mode_of; cbn [use_obsolete_kana imemode].
  now rewrite obsolete_conv by exact N.
Qed.

Lemma C11_irrelevant_options_proof :
  forall E, std_ok E -> forall s o o',
    (use_obsolete_kana o = use_obsolete_kana o' ->
     (use_obsolete_kana o = true \/ imemode o = imemode o') ->
     to_kana_with_opt E s o = to_kana_with_opt E s o') /\
    (upcase_katakana o = upcase_katakana o' -> to_romaji_with_opt E s o = to_romaji_with_opt E s o') /\
    (pass_romaji o = true -> pass_romaji o' = true ->
     to_hiragana_with_opt E s o = to_hiragana_with_opt E s o' /\
     to_katakana_with_opt E s o = to_katakana_with_opt E s o') /\
    (pass_romaji o = pass_romaji o' -> use_obsolete_kana o = use_obsolete_kana o' ->
     (use_obsolete_kana o = true \/ imemode o = imemode o') ->
     to_hiragana_with_opt E s o = to_hiragana_with_opt E s o' /\
     to_katakana_with_opt E s o = to_katakana_with_opt E s o').
Proof.
  intros E HE s o o'. repeat split.
  - intros A B. rewrite !to_kana_conv by exact HE. f_equal. f_equal. unfold mode_of. rewrite <- A.
    destruct (use_obsolete_kana o); [reflexivity|]. destruct B as [B|B]; [discriminate|]. now rewrite B.
  - intros A. rewrite !RomajiPure.to_romaji_with_opt_eq by exact HE. now rewrite A.
  - rewrite !to_hiragana_with_opt_eq by exact HE. unfold hira_pure. now rewrite H, H0.
  - rewrite !to_katakana_with_opt_eq by exact HE. unfold kata_pure. now rewrite H, H0.
  - rewrite !to_hiragana_with_opt_eq by exact HE. unfold hira_pure, k_tree.
    rewrite H, H0 in *. destruct H1 as [->| ->]; reflexivity.
  - rewrite !to_katakana_with_opt_eq by exact HE. unfold kata_pure, k_tree.
    rewrite H, H0 in *. destruct H1 as [->| ->]; reflexivity.
Qed.

Lemma C12_ime_incremental_proof :
  forall E, std_ok E -> forall o, imemode o = true -> use_obsolete_kana o = false ->
    (forall a b ta t, to_kana_with_opt E a o = Ok ta ->
       (to_kana_with_opt E (ta ++ b) o = Ok t <-> to_kana_with_opt E (a ++ b) o = Ok t)) /\
    (forall chunks t,
       fold_left (fun shown typed => match shown with
                                     | Ok text => to_kana_with_opt E (text ++ typed) o
                                     | failed => failed
                                     end) chunks (Ok []) = Ok t
       <-> to_kana_with_opt E (concat chunks) o = Ok t) /\
    (forall a t, to_kana_with_opt E a o = Ok t -> to_kana_with_opt E t o = Ok t).
Proof.
  intros E HE o I O. assert (M : mode_of o = Ime) by (unfold mode_of; now rewrite O, I).
  assert (C : forall s, to_kana_with_opt E s o = Ok (conv Ime s)) by (intro s; rewrite to_kana_conv by exact HE; now rewrite M).
  repeat split.
  - rewrite C in H. injection H as <-. rewrite !C. now rewrite ime_incremental.
  - rewrite C in H. injection H as <-. rewrite !C. now rewrite ime_incremental.
  - revert t. assert (G : forall acc, fold_left (fun shown typed => match shown with
       | Ok text => to_kana_with_opt E (text ++ typed) o | failed => failed end) chunks (Ok acc)
       = Ok (fold_left (fun shown typed => conv Ime (shown ++ typed)) chunks acc)).
    { induction chunks as [|x l IH]; intro acc; [reflexivity|]. cbn [fold_left]. rewrite C. apply IH. }
    rewrite G, C. pose proof (ime_typing chunks []) as T. rewrite kconv_nil in T.
    cbn [app] in T. rewrite T. auto.
  - revert t. assert (G : forall acc, fold_left (fun shown typed => match shown with
       | Ok text => to_kana_with_opt E (text ++ typed) o | failed => failed end) chunks (Ok acc)
       = Ok (fold_left (fun shown typed => conv Ime (shown ++ typed)) chunks acc)).
    { induction chunks as [|x l IH]; intro acc; [reflexivity|]. cbn [fold_left]. rewrite C. apply IH. }
    rewrite G, C. pose proof (ime_typing chunks []) as T. rewrite kconv_nil in T.
    cbn [app] in T. rewrite T. auto.
  - intros a t H. rewrite C in *. injection H as <-. now rewrite ime_idempotent.
Qed.

Lemma C13_idempotent_partial_proof :
  forall E, std_ok E -> forall s o t, to_kana_with_opt E s o = Ok t ->
    exists t', to_kana_with_opt E t o = Ok t' /\ to_kana_with_opt E t' o = Ok t' /\
      (t' = t <-> mode_of o = Ime \/ ~ reads_nyy (mode_of o) s) /\
      (imemode o = false \/ use_obsolete_kana o = true -> second_pass t t').
Proof.
  intros E HE s o t T. rewrite to_kana_conv in T by exact HE. injection T as <-.
  exists (conv (mode_of o) (conv (mode_of o) s)). rewrite !to_kana_conv by exact HE.
  assert (D : mode_of o = Ime \/ mode_of o <> Ime) by (destruct (mode_of o); auto; right; discriminate).
  split; [reflexivity|]. split; [|split].
  - f_equal. destruct D as [->|D]; [now rewrite !ime_idempotent|].
    rewrite (conv_conv _ D (conv (mode_of o) s)), (conv_conv _ D s). apply nfix_nfix.
  - apply idempotent_exact.
  - intro H. assert (M : mode_of o <> Ime).
    { unfold mode_of. destruct (use_obsolete_kana o), (imemode o); try discriminate. destruct H; discriminate. }
    rewrite (conv_conv _ M s). apply nfix_spec.
Qed.

Lemma C13_idempotent_refuted_proof :
  forall E, std_ok E -> exists s t t', to_kana E s = Ok t /\ to_kana E t = Ok t' /\ t' <> t.
Proof.
  intros E HE. exists (u "nyya"), (u "nっや"), (u "んっや"). unfold to_kana.
  rewrite !to_kana_conv by exact HE. repeat split; try (vm_compute; reflexivity). vm_compute. discriminate.
Qed.

Lemma C14_doubled_consonant_partial_proof :
  forall E, std_ok E -> forall o c k v,
    entry (mode_of o) (c :: k) v -> In c geminable -> (forall k', k <> c :: k') ->
    let old := use_obsolete_kana o = true /\ (c :: k = u "wi" \/ c :: k = u "we") in
    forall rest t, to_kana_with_opt E rest o = Ok t ->
      to_kana_with_opt E (c :: k ++ rest) o = Ok (v ++ t) /\
      (to_kana_with_opt E (c :: c :: k ++ rest) o = Ok (ch "っ" :: v ++ t) <-> ~ old) /\
      (forall x seg out w, lowers x c -> casing seg (c :: k) ->
         (old -> w = if list_eq_dec N.eq_dec (c :: k) (u "wi") then u "うぃ" else u "うぇ") -> (~ old -> w = v) ->
         cased_output (x :: seg) (ch "っ" :: w) out ->
         to_kana_with_opt E (x :: seg ++ rest) o = Ok (out ++ t)).
Proof.
  intros E HE o c k v N G D old rest t T.
  assert (OD : {old} + {~ old}).
  { subst old. destruct (use_obsolete_kana o); [|right; intros [H _]; discriminate H].
    destruct (list_eq_dec N.eq_dec (c :: k) (u "wi")) as [A|A]; [left; auto|].
    destruct (list_eq_dec N.eq_dec (c :: k) (u "we")) as [B|B]; [left; auto|]. right. intros [_ [H|H]]; auto. }
  assert (W : ~ old -> mode_of o = Obsolete -> c :: k <> u "wi" /\ c :: k <> u "we").
  { intros H M. unfold mode_of in M. destruct (use_obsolete_kana o) eqn:U; [|destruct (imemode o); discriminate M].
    split; intro Q; apply H; subst old; auto. }
  assert (W2 : old -> v = u "ゐ" /\ entry (mode_of o) (c :: c :: k) (u "っうぃ") /\ c :: k = u "wi" \/
                      v = u "ゑ" /\ entry (mode_of o) (c :: c :: k) (u "っうぇ") /\ c :: k = u "we").
  { intros [U Q]. assert (M : mode_of o = Obsolete) by (unfold mode_of; now rewrite U). rewrite M in *.
    destruct Q as [Q|Q]; [left|right]; rewrite Q in N; injection Q as -> ->; (split; [|split; [|reflexivity]]);
      try (eapply entry_functional; [exact N|]); unfold entry; apply pair_mem_In; vm_compute; reflexivity. }
  assert (L : forall c', In c' geminable -> is_AZ c' = false /\ c' <> ch "n").
  { intros c' I. change geminable with (u "bcdfghjkmpqrstvwyz") in I. vm_compute in I.
    repeat (destruct I as [<-|I]; [vm_compute; split; [reflexivity|discriminate]|]). destruct I. }
  assert (Lk : forall k' v', entry (mode_of o) k' v' -> low k' = k').
  { intros k' v' N'. exact (keys_low _ _ _ N'). }
  assert (Q : forall k' v' seg out, entry (mode_of o) (c :: k') v' -> casing seg (c :: k') ->
            cased_output seg v' out -> to_kana_with_opt E (seg ++ rest) o = Ok (out ++ t)).
  { intros k' v' seg out N' C O. rewrite to_kana_conv in * by exact HE. injection T as <-.
    assert (U : unextended (mode_of o) (c :: k')).
    { apply (only_n_extended _ _ _ N'). intro X. injection X as X _. now apply (proj2 (L c G)). }
    now rewrite (conv_entry_cased _ _ _ _ _ _ N' U C O). }
  assert (P : forall k' v', entry (mode_of o) (c :: k') v' -> cased_output (c :: k') v' v').
  { intros k' v' N'. right. split; [|reflexivity]. intro A. specialize (A c (or_introl eq_refl)).
    apply is_AZ_spec in A. rewrite (proj1 (L c G)) in A. discriminate A. }
  assert (Q2 : forall w, entry (mode_of o) (c :: c :: k) w -> to_kana_with_opt E (c :: c :: k ++ rest) o = Ok (w ++ t)).
  { intros w N2. apply (Q (c :: k) w (c :: c :: k) w N2); auto. apply casing_low. exact (Lk _ _ N2). }
  split; [|split].
  - apply (Q k v (c :: k) v); auto. apply casing_low. exact (Lk _ _ N).
  - split.
    + intros H O. destruct (W2 O) as [(-> & N2 & _)|(-> & N2 & _)]; rewrite (Q2 _ N2) in H; vm_compute in H; discriminate H.
    + intro H. exact (Q2 (ch "っ" :: v) (geminate_entry _ k c v N G D (W H))).
  - intros x seg out w X C O1 O2 O. apply (Q (c :: k) (ch "っ" :: w) (x :: seg) out); auto; [|constructor; auto].
    destruct OD as [H|H].
    + rewrite (O1 H). destruct (W2 H) as [(_ & N2 & Z)|(_ & N2 & Z)]; rewrite Z in *; exact N2.
    + rewrite (O2 H). exact (geminate_entry _ k c v N G D (W H)).
Qed.

Lemma C14_obsolete_wwi_refuted_proof :
  forall E, std_ok E -> let o := Build_options true false false false in
    to_kana_with_opt E (u "wi") o = Ok (u "ゐ") /\ to_kana_with_opt E (u "wwi") o = Ok (u "っうぃ") /\
    to_kana_with_opt E (u "we") o = Ok (u "ゑ") /\ to_kana_with_opt E (u "wwe") o = Ok (u "っうぇ").
Proof.
  intros E HE o. subst o. rewrite !to_kana_conv by exact HE. vm_compute. auto.
Qed.

Lemma C15_rules_for_n_proof :
  forall E, std_ok E -> forall o rest t, to_kana_with_opt E rest o = Ok t ->
    (mode_of o <> Ime ->
       (forall seg out, casing seg (u "n") -> cased_output seg (u "ん") out ->
          match rest with [] => True | c :: _ => ~ n_follow c end ->
          to_kana_with_opt E (seg ++ rest) o = Ok (out ++ t)) /\
       (forall seg, casing seg (u "n'") -> to_kana_with_opt E (seg ++ rest) o = Ok (u "ん" ++ t)) /\
       (forall x c, n_letter x -> n_follow c -> c <> ch "'" ->
          exists d r, to_kana_with_opt E (x :: c :: rest) o = Ok (d :: r) /\ ~ In d (u "んン"))) /\
    (mode_of o = Ime ->
       (forall seg out, casing seg (u "nn") -> cased_output seg (u "ん") out ->
          to_kana_with_opt E (seg ++ rest) o = Ok (out ++ t)) /\
       (forall seg, casing seg (u "n'") \/ casing seg (u "n ") ->
          to_kana_with_opt E (seg ++ rest) o = Ok (u "ん" ++ t)) /\
       (forall x, n_letter x ->
          match rest with [] => True
          | c :: _ => ~ n_follow c /\ ~ n_letter c /\ c <> ch " " end ->
          to_kana_with_opt E (x :: rest) o = Ok (x :: t))).
Proof.
  intros E HE o rest t T. rewrite to_kana_conv in T by exact HE. injection T as <-. split; intro M.
  - repeat split.
    + intros seg out C O F. rewrite to_kana_conv by exact HE. rewrite conv_n by auto.
      apply cased_output_emit in O. now rewrite O.
    + intros seg C. rewrite to_kana_conv by exact HE.
      rewrite (conv_entry _ seg (u "n'") (u "ん")); [| |apply (only_n_extended _ _ (u "ん")) |exact C].
      * now rewrite (emit_apostrophe seg (u "n")).
      * apply (n_apostrophe (mode_of o)).
      * apply (n_apostrophe (mode_of o)).
      * vm_compute. discriminate.
    + intros x c X F A. destruct (conv_n_follow (mode_of o) x c rest M X F A) as (d & r & Q & D).
      exists d, r. rewrite to_kana_conv by exact HE. now rewrite Q.
  - rewrite M. assert (C : forall s, to_kana_with_opt E s o = Ok (conv Ime s)).
    { intro s. rewrite to_kana_conv by exact HE. now rewrite M. }
    assert (N : entry Ime (u "nn") (u "ん") /\ entry Ime (u "n'") (u "ん") /\ entry Ime (u "n ") (u "ん")).
    { repeat split; apply pair_mem_In; vm_compute; reflexivity. }
    destruct N as (N1 & N2 & N3). repeat split.
    + intros seg out S O. rewrite C. now rewrite (conv_entry_cased _ _ _ _ _ _ N1 (ime_unextended _ _ N1) S O).
    + intros seg [S|S]; rewrite C.
      * rewrite (conv_entry _ _ _ _ _ N2 (ime_unextended _ _ N2) S). now rewrite (emit_apostrophe seg (u "n")).
      * rewrite (conv_entry _ _ _ _ _ N3 (ime_unextended _ _ N3) S). now rewrite (emit_space seg (u "n")).
    + intros x X F. rewrite C. now rewrite ime_n_stays.
Qed.
