(** * Proof of C101: entries of the tables that can be dropped *)
From Coq Require Import Sorted.
From Verif Require Import Base Tac Std StdInstances Constants Chars Trees KanaTree RomajiTree Strings Convert KanaPure RomajiPure KanaSpec KanaProofs KanaDict
  ScriptSpec ScriptProofs RomajiSpec RomajiProofs MoraProofs LibrarySpec LibraryProofs ChoiceSpec ChoiceProofs Table TableSpec.

(** ** The kana trees *)
Definition under (t t0 : knode) : Prop :=
  forall x m o, k_at t x = Some m -> kout m = Some o -> exists m0, k_at t0 x = Some m0 /\ kout m0 = Some o.
Lemma under_refl t : under t t.
Proof. intros x m o A B. eauto. Qed.
Lemma k_find_map f ts o c : k_find (KNode (map (fun q : char * knode => if fst q =? c then (fst q, f (snd q)) else q) ts) o) c
  = option_map f (k_find (KNode ts o) c).
Proof.
  unfold k_find. cbn [ktrans]. induction ts as [|[d m] ts IH]; [reflexivity|]. cbn [map find fst].
  destruct (d =? c) eqn:Q; cbn [fst]; rewrite Q; [reflexivity|exact IH].
Qed.
Lemma k_find_map_other f ts o c d : d <> c ->
  k_find (KNode (map (fun q : char * knode => if fst q =? c then (fst q, f (snd q)) else q) ts) o) d = k_find (KNode ts o) d.
Proof.
  intro H. unfold k_find. cbn [ktrans]. induction ts as [|[e m] ts IH]; [reflexivity|]. cbn [map find fst].
  destruct (e =? c) eqn:Q; cbn [fst snd].
  - apply N.eqb_eq in Q. subst e. assert (Z : c =? d = false) by (apply N.eqb_neq; congruence). rewrite Z. exact IH.
  - destruct (e =? d); [reflexivity|exact IH].
Qed.
Lemma without_under : forall k t, under (without k t) t.
Proof.
  induction k as [|c k IH]; intros t x m o A B.
  - destruct x as [|d x]; cbn [without k_at] in A.
    + injection A as <-. discriminate B.
    + exists m. split; [|exact B]. destruct t as [ts o']. exact A.
  - destruct t as [ts o']. destruct x as [|d x].
    + cbn [without k_at] in A. injection A as <-. cbn [kout] in B. exists (KNode ts o'). split; [reflexivity|exact B].
    + cbn [without k_at ktrans kout] in A |- *. destruct (N.eq_dec d c) as [->|Hd].
      * rewrite k_find_map in A. destruct (k_find (KNode ts o') c) as [n|]; cbn [option_map] in A; [|discriminate A].
        exact (IH n x m o A B).
      * rewrite (k_find_map_other _ _ _ _ _ Hd) in A. exists m. split; [exact A|exact B].
Qed.

Lemma to_kana_loop_in_ok E t t0 (HE : std_ok E) (K0 : is_kana_tree t0) (U : under t t0) : forall fuel pre rest out,
  (length rest < fuel)%nat ->
  to_kana_loop_in t fuel E (pre ++ rest) (length pre) out = Ok (out ++ kconv t rest).
Proof.
  induction fuel as [|fuel IH]; intros pre rest out Hf; [lia|].
  cbn [to_kana_loop_in]. destruct rest as [|c rest].
  - rewrite app_length. cbn. rewrite Nat.add_0_r, Nat.eqb_refl, kconv_nil, !app_nil_r. reflexivity.
  - replace (Nat.eqb (length pre) (length (pre ++ c :: rest))) with false.
    2:{ symmetry. apply Nat.eqb_neq. rewrite app_length. cbn. lia. }
    rewrite slice_from_app. cbn [bind].
    rewrite k_get_kw, kconv_cons. unfold kstep.
    destruct (kw t (c :: rest)) as [m i] eqn:K. cbn [fst snd].
    destruct (kw_spec _ _ _ _ K) as (B1 & B2 & B3).
    assert (Step1 : forall out', to_kana_loop_in t fuel E (pre ++ c :: rest) (length pre + 1) out'
                     = Ok (out' ++ kconv t rest)).
    { intro out'. replace (pre ++ c :: rest) with ((pre ++ [c]) ++ rest) by (now rewrite <- app_assoc).
      replace (length pre + 1)%nat with (length (pre ++ [c])) by (rewrite app_length; reflexivity).
      apply IH. cbn in Hf. lia. }
    destruct (kout m) as [oo|] eqn:KO; cbn [fst snd].
    + destruct (U _ _ _ B2 KO) as (m0 & C1 & C2). destruct i as [|i].
      { cbn in C1. inversion C1; subst. rewrite (root_no_output _ K0) in C2. discriminate C2. }
      cbn [Nat.eqb orb]. rewrite slice_app by exact B1. cbn [bind unwrap].
      set (seg := firstn (S i) (c :: rest)) in *.
      set (rest' := skipn (S i) (c :: rest)) in *.
      assert (Sp : c :: rest = seg ++ rest') by (symmetry; apply firstn_skipn).
      assert (Ls : length seg = S i) by (apply firstn_length_le; exact B1).
      assert (Step2 : forall out', to_kana_loop_in t fuel E (pre ++ c :: rest) (length pre + S i) out'
                     = Ok (out' ++ kconv t rest')).
      { intro out'. rewrite Sp, app_assoc.
        replace (length pre + S i)%nat with (length (pre ++ seg)) by (rewrite app_length; lia).
        apply IH. apply (f_equal (@length N)) in Sp. rewrite app_length in Sp. cbn [length] in Sp, Hf. lia. }
      rewrite <- (emit_std E t0 seg m0 oo HE K0 C1 C2).
      rewrite hiragana_to_katakana_ok. cbn [bind].
      destruct (forallb (is_upper E) seg); rewrite Step2, <- app_assoc; reflexivity.
    + cbn [Nat.eqb orb]. rewrite index_app. cbn [bind]. rewrite Step1.
      destruct i; cbn [fst snd]; rewrite <- app_assoc; reflexivity.
Qed.
Lemma to_kana_in_eq E t t0 s : std_ok E -> is_kana_tree t0 -> under t t0 -> to_kana_in t E s = Ok (kconv t s).
Proof. intros HE K U. unfold to_kana_in. apply (to_kana_loop_in_ok E t t0 HE K U _ [] s []). lia. Qed.

Definition needed (m : mode) : bool :=
  forallb (fun e => str_eqb (kconv (tree_of m) (fst e)) (snd e)
                    && negb (str_eqb (kconv (without (fst e) (tree_of m)) (fst e)) (snd e))) (dict m).
Lemma needed_ok m : needed m = true.
Proof. destruct m; vm_compute; reflexivity. Qed.

Lemma str_eqb_refl s : str_eqb s s = true.
Proof. now apply str_eqb_eq. Qed.
Lemma kana_same E o s : std_ok E -> to_kana_in (tree_of (mode_of o)) E s = to_kana_with_opt E s o.
Proof.
  intro HE. rewrite (to_kana_in_eq E _ _ s HE (tree_of_is (mode_of o)) (under_refl _)).
  now rewrite (to_kana_with_opt_eq E o s HE), k_tree_mode.
Qed.
Lemma kana_needed E o k v : std_ok E -> entry (mode_of o) k v ->
  to_kana_with_opt E k o = Ok v /\ exists w, to_kana_in (without k (tree_of (mode_of o))) E k = Ok w /\ w <> v.
Proof.
  intros HE I. rewrite (to_kana_with_opt_eq E o k HE), k_tree_mode. rewrite (to_kana_in_eq E _ _ k HE (tree_of_is (mode_of o)) (without_under _ _)).
  pose proof (needed_ok (mode_of o)) as H. unfold needed in H. rewrite forallb_forall in H. specialize (H _ I). cbn [fst snd] in H.
  apply andb_prop in H. destruct H as [H1 H2]. apply str_eqb_eq in H1. split; [now rewrite H1|].
  eexists. split; [reflexivity|]. intro Q. rewrite Q, str_eqb_refl in H2. discriminate H2.
Qed.

(** ** Lookups by uniqueness *)
Lemma sorted_filter (f : N -> bool) l : sorted_keys l -> sorted_keys (filter f l).
Proof.
  unfold sorted_keys. intro H. apply Sorted_StronglySorted in H; [|intros a b c; apply N.le_trans].
  apply StronglySorted_Sorted. induction H as [|a l H IH F]; [constructor|]. cbn [filter].
  destruct (f a); [|exact IH]. constructor; [exact IH|]. rewrite Forall_forall in F |- *.
  intros x I. apply filter_In in I. now apply F.
Qed.
Lemma keys_filter {A} (f : N -> bool) (ts : list (N * A)) : map fst (filter (fun q => f (fst q)) ts) = filter f (map fst ts).
Proof. induction ts as [|[c m] ts IH]; [reflexivity|]. cbn [filter map fst]. destruct (f c); cbn [map fst]; now rewrite IH. Qed.
Lemma r_find_unique E n c r : std_ok E -> sorted_keys (map fst (rts n)) -> (forall y, In (c, y) (rts n) <-> r = Some y) ->
  r_find E n c = Ok r.
Proof.
  intros HE Hs U. unfold r_find, rts in *. destruct (rtrans n) as [ts|].
  2:{ destruct r as [y|]; [|reflexivity]. destruct (proj2 (U y) eq_refl). }
  pose proof (ok_bsearch E HE _ c Hs) as B. destruct (bsearch E (map fst ts) c) as [i|].
  - rewrite nth_error_map in B. unfold index. destruct (nth_error ts i) as [[d x]|] eqn:Q; [|discriminate B].
    cbn [option_map fst] in B. injection B as ->. cbn [bind snd]. apply nth_error_In, U in Q. now subst.
  - destruct r as [y|]; [|reflexivity]. exfalso. apply B. apply in_map_iff. exists (c, y). split; [reflexivity|now apply U].
Qed.
Lemma rfind_iff E k n c y : std_ok E -> r_node k n -> c <> vu -> In (c, y) (rts n) <-> rfind E n c = Some y.
Proof.
  intros HE R V. split; [|now apply (rfind_Some E k)]. intro I. destruct (rfind E n c) as [x|] eqn:F.
  - apply (rfind_Some E k n c x HE R) in F. f_equal. eapply rts_fun; eauto.
  - exfalso. apply (rfind_None E k n c HE R) in F. apply F. apply in_map_iff. now exists (c, y).
Qed.

(** ** The thinned tree *)
Definition va : N := Eval vm_compute in ch "ヷ".
Definition inl (c : N) (l : list N) : bool := existsb (N.eqb c) l.
Lemma inl_In c l : inl c l = true <-> In c l.
Proof.
  unfold inl. rewrite existsb_exists. split.
  - intros (x & I & Q). apply N.eqb_eq in Q. now subst.
  - intro I. exists c. split; [exact I|apply N.eqb_refl].
Qed.
Lemma rts_prune l n : rts (prune l n) = filter (fun q => negb (inl (fst q) l)) (rts n).
Proof. destruct n as [[ts|] o]; reflexivity. Qed.
Definition swap (l : list char) (c : N) (n : rnode) : rnode := if c =? tsu then prune l n else n.
Lemma rts_thin w l : rts (thin w l) = map (fun q => (fst q, swap l (fst q) (snd q)))
  (if w then filter (fun q => negb (fst q =? va)) (rts RT) else rts RT).
Proof.
  unfold thin, rts at 1. cbn [rtrans]. assert (H : exists ts, rtrans RT = Some ts).
  { destruct (rtrans RT) as [ts|] eqn:Q; [eauto|]. assert (Z : option_map (fun _ => tt) (rtrans RT) = Some tt) by (vm_compute; reflexivity).
    rewrite Q in Z. discriminate Z. }
  destruct H as (ts & H). unfold rts. rewrite H. cbn [option_map]. apply map_ext. intros [c n]. unfold swap. cbn [fst snd].
  change (ch "っ") with tsu. destruct (c =? tsu); reflexivity.
Qed.
Lemma thin_sorted w l : sorted_keys (map fst (rts (thin w l))).
Proof.
  rewrite rts_thin, map_map. cbn [fst]. change (fun x : N * rnode => fst x) with (@fst N rnode).
  pose proof (romaji_sorted [] RT r_root) as H. destruct w; [|exact H].
  rewrite (keys_filter (fun c => negb (c =? va))). now apply sorted_filter.
Qed.
Lemma thin_find E w l c : std_ok E -> c <> vu -> c <> va -> r_find E (thin w l) c = Ok (option_map (swap l c) (rfind E RT c)).
Proof.
  intros HE V A. apply r_find_unique; [exact HE|apply thin_sorted|]. intro y. rewrite rts_thin, in_map_iff.
  pose proof (rfind_iff E [] RT c) as U. split.
  - intros ([d n] & Q & I). cbn [fst snd] in Q. injection Q as -> <-.
    assert (J : In (c, n) (rts RT)) by (destruct w; [apply filter_In in I; tauto|exact I]).
    apply (U n HE r_root V) in J. now rewrite J.
  - intro Q. destruct (rfind E RT c) as [n|] eqn:F; [|discriminate Q]. cbn [option_map] in Q. injection Q as <-.
    apply (rfind_Some E [] RT c n HE r_root) in F. exists (c, n). split; [reflexivity|]. destruct w; [|exact F]. apply filter_In. split; [exact F|].
    cbn [fst]. now apply negb_true_iff, N.eqb_neq.
Qed.
Lemma prune_find E l d : std_ok E -> d <> vu ->
  r_find E (prune l tsu_node) d = Ok (if inl d l then None else rfind E tsu_node d).
Proof.
  intros HE V. apply r_find_unique; [exact HE| |].
  - rewrite rts_prune. rewrite (keys_filter (fun c => negb (inl c l))). apply sorted_filter. exact (romaji_sorted _ _ tsu_is_node).
  - intro y. rewrite rts_prune, filter_In. cbn [fst]. rewrite (rfind_iff E [tsu] tsu_node d y HE tsu_is_node V).
    destruct (inl d l); cbn [negb]; split; intuition (discriminate || congruence).
Qed.
Lemma tsu_silent : rout tsu_node = [].
Proof. vm_compute. reflexivity. Qed.
Lemma tsu_not : tsu <> vu /\ tsu <> va.
Proof. split; discriminate. Qed.
Definition at_removed (l : list char) (s : str) : bool :=
  match s with c :: d :: _ => (c =? tsu) && inl d l | _ => false end.

Lemma thin_get E w l c rest : std_ok E -> ~ In vu (c :: rest) -> ~ In va (c :: rest) ->
  r_get E (thin w l) (c :: rest)
  = Ok (if at_removed l (c :: rest) then ([], 1%nat) else (rout (fst (rw E RT (c :: rest))), snd (rw E RT (c :: rest)))).
Proof.
  intros HE V A. unfold r_get. cbn [r_walk].
  assert (V1 : c <> vu) by (intros ->; apply V; now left). assert (A1 : c <> va) by (intros ->; apply A; now left).
  rewrite (thin_find E w l c HE V1 A1). cbn [bind]. unfold swap. cbn [rw]. destruct (N.eq_dec c tsu) as [->|Hc].
  - rewrite N.eqb_refl, (find_tsu E HE). cbn [option_map]. destruct rest as [|d rest].
    + cbn [at_removed r_walk bind rw fst snd]. reflexivity.
    + cbn [at_removed r_walk]. assert (V2 : d <> vu) by (intros ->; apply V; right; now left).
      rewrite (prune_find E l d HE V2), N.eqb_refl. cbn [bind andb rw]. destruct (inl d l).
      * cbn [bind fst snd]. cbn [prune rout]. rewrite tsu_silent. reflexivity.
      * destruct (rfind E tsu_node d) as [m|] eqn:F.
        -- rewrite (r_walk_rw E HE rest [tsu; d] m 2) by exact (rfind_node E [tsu] _ _ _ HE tsu_is_node F).
           cbn [bind fst snd]. destruct (rw E m rest) as [x i]. reflexivity.
        -- reflexivity.
  - assert (Q : c =? tsu = false) by now apply N.eqb_neq. rewrite Q.
    assert (Z : at_removed l (c :: rest) = false) by (destruct rest; [reflexivity|]; cbn [at_removed]; now rewrite Q). rewrite Z.
    destruct (rfind E RT c) as [m|] eqn:F; cbn [option_map].
    + rewrite (r_walk_rw E HE rest [c] m 1) by exact (rfind_node E [] _ _ _ HE r_root F).
      cbn [bind fst snd]. destruct (rw E m rest) as [x i]. reflexivity.
    + cbn [bind fst snd]. unfold thin. cbn [rout]. reflexivity.
Qed.

(** ** One round of the loop *)
Lemma thin_step E o w l fuel opre orest pre c rest out : std_ok E -> ~ In vu (c :: rest) -> ~ In va (c :: rest) ->
  length opre = length pre -> (length (c :: rest) <= length orest)%nat ->
  to_romaji_loop_in (thin w l) (S fuel) E o (opre ++ orest) (pre ++ c :: rest) (length pre) out
  = let x := if at_removed l (c :: rest) then ([], 1%nat) else rstep E (upcase_katakana o) orest c rest in
    to_romaji_loop_in (thin w l) fuel E o (opre ++ orest) (pre ++ c :: rest) (length pre + snd x) (out ++ fst x).
Proof.
  intros HE V A Hl Hr. cbn [to_romaji_loop_in].
  replace (Nat.eqb (length pre) (length (pre ++ c :: rest))) with false.
  2:{ symmetry. apply Nat.eqb_neq. rewrite app_length. cbn. lia. }
  rewrite slice_from_app. cbn [bind]. rewrite (thin_get E w l c rest HE V A). cbn [bind].
  destruct (at_removed l (c :: rest)).
  - cbn [fst snd Nat.eqb]. rewrite <- Hl, slice_app by (cbn [length] in *; lia). cbn [bind].
    destruct (forallb _ _); [destruct (upcase_katakana o)|]; reflexivity.
  - unfold rstep. destruct (rw E RT (c :: rest)) as [m i] eqn:K. cbn [fst snd].
    destruct (rw_spec E HE _ _ _ _ _ r_root K) as (B1 & B2 & _).
    destruct i as [|i].
    + cbn [Nat.eqb fst snd]. rewrite index_app. reflexivity.
    + cbn [Nat.eqb fst snd]. rewrite <- Hl, slice_app by lia. cbn [bind]. f_equal. f_equal.
      unfold remit. rewrite (to_uppercase_out E _ _ HE B2).
      destruct (forallb is_char_katakana _), (upcase_katakana o); reflexivity.
Qed.

(** ** A superfluous kana after っ *)
Definition sup (up : bool) : list N := Eval vm_compute in if up then undoubled_symbols else undoubled_symbols ++ undoubled_kana.
Lemma sup_In up d : superfluous up d <-> In d (sup up).
Proof.
  unfold superfluous. destruct up.
  - change (sup true) with undoubled_symbols. intuition discriminate.
  - change (sup false) with (undoubled_symbols ++ undoubled_kana). rewrite in_app_iff. tauto.
Qed.
Definition look (n : rnode) (c : N) : option rnode := option_map snd (find (fun q => fst q =? c) (rts n)).
Lemma look_rfind E k n c : std_ok E -> r_node k n -> c <> vu -> rfind E n c = look n c.
Proof.
  intros HE R V. unfold look. destruct (find (fun q => fst q =? c) (rts n)) as [[d m]|] eqn:F; cbn [option_map snd].
  - apply find_some in F. cbn [fst] in F. destruct F as [I Q]. apply N.eqb_eq in Q. subst d. now apply (rfind_iff E k n c m HE R V).
  - destruct (rfind E n c) as [m|] eqn:G; [|reflexivity]. apply (rfind_Some E k n c m HE R) in G.
    pose proof (find_none _ _ F (c, m) G) as Z. cbn [fst] in Z. rewrite N.eqb_refl in Z. discriminate Z.
Qed.
Lemma same_below : map (look tsu_node) (sup false) = map (look RT) (sup false) /\ forallb (fun d => negb (d =? vu)) (sup false) = true
  /\ forallb (fun d => match look RT d with Some _ => true | None => false end) (sup false) = true.
Proof. split; [|split]; vm_compute; reflexivity. Qed.
Lemma map_eq_In {A B} (f g : A -> B) l x : map f l = map g l -> In x l -> f x = g x.
Proof. induction l as [|a l IH]; intros H I; [destruct I|]. injection H as H1 H2. destruct I as [->|I]; auto. Qed.
Lemma sup_false up d : In d (sup up) -> In d (sup false).
Proof.
  destruct up; [|auto]. intro I. apply sup_In. left. apply sup_In in I. destruct I as [I|[Q _]]; [exact I|discriminate Q].
Qed.
Lemma symbols_caseless k n : r_node k n -> (exists d k', k = d :: k' /\ In d (sup true)) -> map ascii_upper (rout n) = rout n.
Proof.
  intros R (d & k' & -> & I). pose proof (romaji_tree_check (fun p => match fst p with d :: _ => negb (inl d (sup true))
    || str_eqb (map ascii_upper (rout (snd p))) (rout (snd p)) | [] => true end) ltac:(vm_compute; reflexivity) _ _ R) as H.
  cbn [fst snd] in H. apply inl_In in I. rewrite I in H. now apply str_eqb_eq.
Qed.
Lemma rconv_superfluous E up orest d rest : std_ok E -> In d (sup up) ->
  rconv E up orest (tsu :: d :: rest) = rconv E up (skipn 1 orest) (d :: rest).
Proof.
  intros HE I. pose proof (sup_false up d I) as J. destruct same_below as (B1 & B2 & B3).
  rewrite forallb_forall in B2, B3. pose proof (B2 d J) as V. apply negb_true_iff, N.eqb_neq in V.
  pose proof (B3 d J) as L. pose proof (map_eq_In _ _ _ d B1 J) as Q.
  destruct (look RT d) as [x|] eqn:LR; [|discriminate L].
  rewrite <- (look_rfind E [tsu] tsu_node d HE tsu_is_node V) in Q. rewrite <- (look_rfind E [] RT d HE r_root V) in LR.
  rewrite !rconv_cons. unfold rstep. cbn [rw]. rewrite (find_tsu E HE), Q, LR.
  destruct (rw E x rest) as [m j] eqn:K. cbn [fst snd].
  assert (R : forall seg, remit up seg (rout m) = rout m).
  { intro seg. unfold remit. destruct up; [|now rewrite andb_false_r]. destruct (forallb is_char_katakana seg); [|reflexivity]. cbn [andb].
    destruct (rw_spec E HE rest [d] x m j (rfind_node E [] _ _ _ HE r_root LR) K) as (_ & C & _).
    eapply symbols_caseless; [exact C|]. exists d, (firstn j rest). split; [reflexivity|exact I]. }
  rewrite !R. f_equal. destruct orest as [|a orest]; reflexivity.
Qed.
Lemma rconv_no_child E up orest d rest : std_ok E -> rfind E tsu_node d = None ->
  rconv E up orest (tsu :: d :: rest) = rconv E up (skipn 1 orest) (d :: rest).
Proof.
  intros HE F. rewrite rconv_cons at 1. unfold rstep. cbn [rw]. rewrite (find_tsu E HE), F. cbn [fst snd].
  rewrite tsu_silent. unfold remit. destruct (_ && up); reflexivity.
Qed.

(** ** The loop *)
Definition harmless (up : bool) (l : list N) (s : str) : Prop :=
  forall a d b, s = a ++ tsu :: d :: b -> In d l -> is_key [tsu; d] -> In d (sup up).
Lemma harmless_skip up l s n : harmless up l s -> harmless up l (skipn n s).
Proof.
  intros H a d b Q. apply (H (firstn n s ++ a) d b). rewrite <- app_assoc, <- Q. symmetry. apply firstn_skipn.
Qed.
Lemma In_skipn {A} (x : A) n l : In x (skipn n l) -> In x l.
Proof. intro H. rewrite <- (firstn_skipn n l). apply in_app_iff. now right. Qed.
Lemma thin_loop E o w l (HE : std_ok E) : forall fuel opre orest pre rest out,
  length opre = length pre -> (length rest <= length orest)%nat -> (length rest < fuel)%nat ->
  ~ In vu rest -> ~ In va rest -> harmless (upcase_katakana o) l rest ->
  to_romaji_loop_in (thin w l) fuel E o (opre ++ orest) (pre ++ rest) (length pre) out
  = Ok (out ++ rconv E (upcase_katakana o) orest rest).
Proof.
  induction fuel as [|fuel IH]; intros opre orest pre rest out Hl Hr Hf V A H; [lia|].
  destruct rest as [|c rest].
  - cbn [to_romaji_loop_in]. rewrite app_length. cbn [length]. rewrite Nat.add_0_r, Nat.eqb_refl, rconv_nil, !app_nil_r. reflexivity.
  - rewrite (thin_step E o w l fuel opre orest pre c rest out HE V A Hl Hr). cbv zeta.
    assert (Step : forall n out', (1 <= n <= length (c :: rest))%nat ->
       to_romaji_loop_in (thin w l) fuel E o (opre ++ orest) (pre ++ c :: rest) (length pre + n) out'
       = Ok (out' ++ rconv E (upcase_katakana o) (skipn n orest) (skipn n (c :: rest)))).
    { intros n out' Hn.
      rewrite <- (firstn_skipn n (c :: rest)) at 1.
      rewrite <- (firstn_skipn n orest) at 1. rewrite !app_assoc.
      replace (length pre + n)%nat with (length (pre ++ firstn n (c :: rest))).
      2:{ rewrite app_length, firstn_length. lia. }
      apply IH.
      - rewrite !app_length, !firstn_length. lia.
      - rewrite !skipn_length. lia.
      - rewrite skipn_length. cbn [length] in *. lia.
      - intro I. apply V. eapply In_skipn; eauto.
      - intro I. apply A. eapply In_skipn; eauto.
      - now apply harmless_skip. }
    destruct (at_removed l (c :: rest)) eqn:R.
    + destruct rest as [|d rest]; [discriminate R|]. cbn [at_removed] in R. apply andb_prop in R. destruct R as [R1 R2].
      apply N.eqb_eq in R1. subst c. apply inl_In in R2. cbn [fst snd]. rewrite Step by (cbn [length]; lia). rewrite app_nil_r.
      cbn [skipn]. do 2 f_equal. change (match orest with [] => [] | _ :: l => l end) with (skipn 1 orest).
      destruct (rfind E tsu_node d) as [m|] eqn:F.
      * symmetry. apply rconv_superfluous; [exact HE|]. apply (H [] d rest eq_refl R2). exists (rout m). apply r_entry_node.
        split; [discriminate|]. exists m. split; [|reflexivity]. exact (rfind_node E [tsu] _ _ _ HE tsu_is_node F).
      * symmetry. now apply rconv_no_child.
    + rewrite rconv_cons. rewrite Step.
      * now rewrite <- app_assoc.
      * split; [apply rstep_pos|]. unfold rstep. destruct (rw E RT (c :: rest)) as [m [|i]] eqn:K; cbn [snd length]; [lia|].
        destruct (rw_spec E HE _ _ _ _ _ r_root K) as (B1 & _). exact B1.
Qed.

(** ** katakana_to_hiragana looks only at entries that stay *)
Lemma shifted c : c <> ch "ヴ" -> is_char_slash_dot c = false -> is_kana_as_symbol c = false ->
  negb (is_char_long_dash c) && is_char_katakana c = true -> hira_of_kata c <> vu /\ hira_of_kata c <> va.
Proof.
  intros V S1 S2 H. apply andb_prop in H. destruct H as [H1 H2]. apply negb_true_iff in H1.
  assert (Q : k2hc c = hira_of_kata c) by (unfold k2hc; now rewrite S1, S2, H1, H2).
  apply k2hc_spec in Q. revert V Q H2. unfold hiragana_for. generalize (hira_of_kata c) as h. intros h V Q H2.
  unfold vu, va. symspec. change (ch "ヴ") with 0x30F4 in V. unfold is_char_katakana, is_char_in_range in H2. change KATAKANA_START with 0x30A1 in H2. change KATAKANA_END with 0x30FC in H2.
  apply andb_prop in H2. destruct H2 as [H2 H3]. apply N.leb_le in H2, H3. clear S1 S2 H1. split; lia.
Qed.
Lemma k2h_loop_same T E E' d input (H : forall p, p <> vu -> p <> va -> exists f r, (forall n, rout (f n) = rout n)
    /\ r_find E T p = Ok (option_map f r) /\ r_find E' RT p = Ok r) :
  forall rest index pk out, ~ In (ch "ヴ") rest -> (forall p, pk = Some p -> p <> vu /\ p <> va) ->
  k2h_loop_in T E input d index pk rest out = k2h_loop E' input d index pk rest out.
Proof.
  induction rest as [|c rest IH]; intros index pk out V P; [reflexivity|]. cbn [k2h_loop_in k2h_loop].
  assert (V' : ~ In (ch "ヴ") rest) by (intro I; apply V; now right).
  assert (Hc : c <> ch "ヴ") by (intros ->; apply V; now left).
  assert (N : forall p : N, None = Some p -> p <> vu /\ p <> va) by discriminate.
  destruct (is_char_slash_dot c || is_char_initial_long_dash c index || is_kana_as_symbol c) eqn:S; [now apply IH|].
  apply orb_false_iff in S. destruct S as [S S2]. apply orb_false_iff in S. destruct S as [S1 _].
  assert (X : (if negb (is_char_long_dash c) && is_char_katakana c
     then k2h_loop_in T E input d (Datatypes.S index) (Some (hira_of_kata c)) rest (out ++ [hira_of_kata c])
     else k2h_loop_in T E input d (Datatypes.S index) None rest (out ++ [c]))
     = (if negb (is_char_long_dash c) && is_char_katakana c
     then k2h_loop E' input d (Datatypes.S index) (Some (hira_of_kata c)) rest (out ++ [hira_of_kata c])
     else k2h_loop E' input d (Datatypes.S index) None rest (out ++ [c]))).
  { destruct (negb (is_char_long_dash c) && is_char_katakana c) eqn:K; [|now apply IH].
    apply IH; [exact V'|]. intros p [= <-]. now apply shifted. }
  destruct pk as [p|]; [|exact X]. destruct (is_char_inner_long_dash c index); [|exact X].
  destruct (P p eq_refl) as [P1 P2]. destruct (H p P1 P2) as (f & r & F & Q1 & Q2). rewrite Q1, Q2. cbn [bind].
  destruct r as [n|]; cbn [option_map]; [|now apply IH]. rewrite F.
  destruct (checked_sub index 1) as [i| |]; cbn [bind]; [|reflexivity|reflexivity].
  destruct (match nth_error input i with Some _ => _ | None => false end); [now apply IH|].
  destruct (last_char (rout n)) as [r|]; [|now apply IH]. destruct (LONG_VOWELS r); now apply IH.
Qed.
Lemma thin_k2h E w l s : std_ok E -> ~ In (ch "ヴ") s -> k2h_loop_in (thin w l) E s true 0 None s [] = Ok (k2h E true s).
Proof.
  intros HE V. rewrite (k2h_loop_same (thin w l) E E true s) with (rest := s); [|intros p V1 A1|exact V|discriminate].
  - exact (katakana_to_hiragana_with_opt_eq E true s HE).
  - exists (swap l p), (rfind E RT p). split; [|split].
    + intro n. unfold swap. destruct (p =? tsu); reflexivity.
    + now apply thin_find.
    + now apply (r_find_ok E []), r_root.
Qed.
Lemma k2h_no_va E d s : ~ In va (k2h E d s).
Proof.
  intro I. apply k2h_go_In in I. destruct I as [I|[_ I]].
  - apply in_map_iff in I. destruct I as (c & Q & I). apply k2hc_spec in Q. unfold hiragana_for in Q. symspec. unfold va in Q. lia.
  - revert I. change (u "あいうえお") with [0x3042; 0x3044; 0x3046; 0x3048; 0x304A]. unfold va. cbn [In]. lia.
Qed.

Lemma thin_enough E o w l s : std_ok E -> no_v s -> drops (upcase_katakana o) l -> to_romaji_in (thin w l) E s o = to_romaji_with_opt E s o.
Proof.
  intros HE [V1 V2] H. rewrite (to_romaji_with_opt_eq E o s HE). unfold to_romaji_in. rewrite (thin_k2h E w l s HE V2). cbn [bind].
  apply (thin_loop E o w l HE _ [] s [] (k2h E true s) []); auto.
  - apply k2h_length.
  - now apply k2h_no_vu.
  - apply k2h_no_va.
  - intros a d b _ I K. apply sup_In. now apply H.
Qed.

(** ** The other direction *)
Definition witness (up : bool) (d : N) : str :=
  if d =? ch "ん" then u "っんあ"
  else if up && inl d undoubled_kana then [tsu; h2k_char d]
  else [tsu; d].
Definition differs (up : bool) (d : N) : bool :=
  let E := std_1_82 in let s := witness up d in
  match k2h E true s with
  | a :: b :: r => (a =? tsu) && (b =? d) && negb (inl tsu (b :: r)) && negb (inl vu (b :: r)) && negb (inl va (b :: r))
      && negb (inl (ch "ヴ") s) && negb (inl (ch "ゔ") s)
      && str_eqb (k2h E true (tl s)) (b :: r)
      && negb (str_eqb (rconv E up s (a :: b :: r)) (rconv E up (tl s) (b :: r)))
  | _ => false
  end.
Definition differ_all (up : bool) : bool :=
  forallb (fun e => match fst e with
                    | a :: b :: [] => negb (a =? tsu) || (b =? vu) || inl b (sup up) || differs up b
                    | _ => true end) rdict.
Lemma differ_all_ok up : differ_all up = true.
Proof. destruct up; vm_compute; reflexivity. Qed.
Lemma inl_false c l : inl c l = false -> ~ In c l.
Proof. intros H I. apply inl_In in I. congruence. Qed.

Lemma thin_needed E o w l d : std_ok E -> In d l -> d <> vu -> is_key [tsu; d] -> ~ superfluous (upcase_katakana o) d ->
  exists s, no_v s /\ to_romaji_in (thin w l) E s o <> to_romaji_with_opt E s o.
Proof.
  intros HE I V (v & K) S. pose proof (differ_all_ok (upcase_katakana o)) as H. unfold differ_all in H. rewrite forallb_forall in H.
  specialize (H _ K). cbn [fst] in H. rewrite N.eqb_refl in H. cbn [negb orb] in H.
  assert (Q : d =? vu = false) by now apply N.eqb_neq. rewrite Q in H. cbn [orb] in H.
  destruct (inl d (sup (upcase_katakana o))) eqn:J; [exfalso; apply S, sup_In, inl_In, J|]. cbn [orb] in H.
  unfold differs in H. cbv zeta in H. set (s := witness (upcase_katakana o) d) in *.
  destruct (k2h std_1_82 true s) as [|a [|b r]] eqn:KS; try discriminate H.
  repeat (apply andb_prop in H; let Z := fresh "Z" in destruct H as [H Z]).
  apply N.eqb_eq in H, Z6. subst a b. apply negb_true_iff in Z, Z1, Z2, Z3, Z4, Z5. apply str_eqb_eq in Z0.
  apply inl_false in Z1, Z2, Z3, Z4, Z5.
  exists s. split; [split; [exact Z1|exact Z2]|].
  assert (T1 : ~ In (ch "ヴ") (tl s)) by (intro B; apply Z2; destruct s; [destruct B|now right]).
  assert (T2 : ~ In (ch "ゔ") (tl s)) by (intro B; apply Z1; destruct s; [destruct B|now right]).
  rewrite (to_romaji_with_opt_eq E o s HE). unfold to_romaji_in. rewrite (thin_k2h E w l s HE Z2). cbn [bind].
  assert (KE : k2h E true s = tsu :: d :: r) by (rewrite (k2h_indep E std_1_82 true s HE std_1_82_ok Z2); exact KS).
  assert (KT : k2h E true (tl s) = d :: r) by (rewrite (k2h_indep E std_1_82 true (tl s) HE std_1_82_ok T1); exact Z0).
  pose proof (k2h_length E true s) as Len. rewrite KE in Len.
  assert (SE : exists x s', s = x :: s') by (destruct s as [|x s']; [cbn in Len; lia|eauto]). destruct SE as (x & s' & SE).
  intro B. rewrite KE in B.
  assert (NV : ~ In vu (tsu :: d :: r)) by (intros [X|X]; [discriminate X|contradiction]).
  assert (NA : ~ In va (tsu :: d :: r)) by (intros [X|X]; [discriminate X|contradiction]).
  pose proof (thin_step E o w l (length (tsu :: d :: r)) [] s [] tsu (d :: r) [] HE NV NA eq_refl Len) as W.
  cbn [app length] in W, B. cbn [app length] in *. rewrite W in B. clear W.
  assert (R : at_removed l (tsu :: d :: r) = true) by (cbn [at_removed]; rewrite N.eqb_refl; now apply inl_In).
  rewrite R in B. cbv zeta in B. cbn [fst snd Nat.add app] in B.
  pose proof (thin_loop E o w l HE (Datatypes.S (Datatypes.S (length r))) [x] s' [tsu] (d :: r) [] eq_refl) as W.
  cbn [app length] in W. rewrite <- SE in W. rewrite W in B; clear W.
  - injection B as B. change s' with (tl (x :: s')) in B. rewrite <- SE, <- KT in B at 1. rewrite <- KE in B.
    rewrite (rom_indep E std_1_82 _ s HE std_1_82_ok Z2 Z1) in B.
    rewrite (rom_indep E std_1_82 _ (tl s) HE std_1_82_ok T1 T2) in B. rewrite KS, Z0 in B. rewrite B, str_eqb_refl in Z. discriminate Z.
  - rewrite SE in Len. cbn [length] in Len |- *. lia.
  - lia.
  - exact Z4.
  - exact Z3.
  - intros a e b Q1 _ _. exfalso. apply Z5. rewrite Q1. apply in_app_iff. right. now left.
Qed.

Lemma thin_iff E o w l : std_ok E -> ~ In (ch "ゔ") l ->
  ((forall s, no_v s -> to_romaji_in (thin w l) E s o = to_romaji_with_opt E s o) <-> drops (upcase_katakana o) l).
Proof.
  intros HE V. split.
  - intros H d I K. destruct (inl d (sup (upcase_katakana o))) eqn:J; [apply sup_In, inl_In, J|exfalso].
    destruct (thin_needed E o w l d HE I) as (s & A & B); [intros ->; now apply V|exact K| |].
    + intro S. apply sup_In in S. now apply (inl_false _ _ J).
    + apply B, H, A.
  - intros H s A. now apply thin_enough.
Qed.

(** ** A single entry *)
Lemma cut_va : cut [va] RT = thin true [].
Proof. vm_compute. reflexivity. Qed.
Lemma cut_tsu d : cut [tsu; d] RT = thin false [d].
Proof.
  unfold thin. cbn [cut]. f_equal. destruct (rtrans RT) as [ts|]; [|reflexivity]. cbn [option_map]. f_equal.
  apply map_ext. intros [c n]. cbn [fst snd]. change (ch "っ") with tsu. destruct (c =? tsu); [|reflexivity]. f_equal.
  unfold prune. destruct n as [[l|] o]; cbn [rtrans rout option_map]; [|reflexivity]. do 2 f_equal.
  apply filter_ext. intros [e m]. cbn [fst existsb]. now rewrite orb_false_r.
Qed.

(** the conversion in any tree does not depend on the library when there is no ゔ *)
Definition tidy (t : rnode) : bool :=
  forallb (fun p => let ks := map fst (rts (snd p)) in sortedb ks && distinctb (filter (fun c => negb (c =? vu)) ks)
                    && forallb (fun c => (c <? 128) || caseless c) (rout (snd p))) (r_flat t).
Section Tidy.
  Context (t : rnode) (Ht : tidy t = true).
  Lemma tidy_node k n : In (k, n) (r_flat t) -> sorted_keys (map fst (rts n))
    /\ NoDup (filter (fun c => negb (c =? vu)) (map fst (rts n))) /\ forallb (fun c => (c <? 128) || caseless c) (rout n) = true.
  Proof.
    intro I. unfold tidy in Ht. rewrite forallb_forall in Ht. specialize (Ht _ I). cbv zeta in Ht. cbn [snd] in Ht.
    apply andb_prop in Ht. destruct Ht as [H H3]. apply andb_prop in H. destruct H as [H1 H2].
    split; [now apply sortedb_ok|]. split; [now apply distinctb_ok|exact H3].
  Qed.
  Lemma tidy_find E k n c : std_ok E -> In (k, n) (r_flat t) -> c <> vu -> r_find E n c = Ok (look n c).
  Proof.
    intros HE I V. destruct (tidy_node k n I) as (S1 & S2 & _). apply r_find_unique; [exact HE|exact S1|]. intro y. unfold look.
    destruct (find (fun q => fst q =? c) (rts n)) as [[d m]|] eqn:F; cbn [option_map snd].
    - apply find_some in F. cbn [fst] in F. destruct F as [J Q]. apply N.eqb_eq in Q. subst d. split.
      + intro K. f_equal. refine (distinct_fun (rts n) (fun c => negb (c =? vu)) c m y S2 _ J K). now apply negb_true_iff, N.eqb_neq.
      + now intros [= <-].
    - split; [|discriminate]. intro K. pose proof (find_none _ _ F (c, y) K) as Z. cbn [fst] in Z. rewrite N.eqb_refl in Z. discriminate Z.
  Qed.
  Lemma look_In n c m : look n c = Some m -> In (c, m) (rts n).
  Proof.
    unfold look. destruct (find _ (rts n)) as [[d x]|] eqn:F; [|discriminate]. cbn [option_map snd]. intros [= <-].
    apply find_some in F. cbn [fst] in F. destruct F as [J Q]. apply N.eqb_eq in Q. now subst d.
  Qed.
  Context (E E' : std) (HE : std_ok E) (HE' : std_ok E').
  Lemma walk_same s : forall k n i, In (k, n) (r_flat t) -> ~ In vu s ->
    exists k' m j, r_walk E n s i = Ok (m, j) /\ r_walk E' n s i = Ok (m, j) /\ In (k', m) (r_flat t).
  Proof.
    induction s as [|c s IH]; intros k n i I V; cbn [r_walk].
    - exists k, n, i. auto.
    - assert (Vc : c <> vu) by (intros ->; apply V; now left).
      rewrite (tidy_find E k n c HE I Vc), (tidy_find E' k n c HE' I Vc). cbn [bind].
      destruct (look n c) as [m|] eqn:L; [|now exists k, n, i].
      apply (IH (k ++ [c]) m (S i)); [|intro J; apply V; now right].
      eapply r_flat_snoc; [exact I|]. now apply look_In.
  Qed.
  Lemma upper_same x : forallb (fun c => (c <? 128) || caseless c) x = true -> to_uppercase E x = to_uppercase E' x.
  Proof.
    unfold to_uppercase. induction x as [|c l IH]; [reflexivity|]. cbn [forallb flat_map]. intro H.
    apply andb_prop in H. destruct H as [H1 H2]. cbn [map concat]. rewrite (IH H2). f_equal.
    apply orb_prop in H1. destruct H1 as [H1|H1].
    - apply N.ltb_lt in H1. now rewrite (ok_upper_ascii E HE c H1), (ok_upper_ascii E' HE' c H1).
    - now rewrite (ok_upper_caseless E HE c H1), (ok_upper_caseless E' HE' c H1).
  Qed.
  Lemma loop_same o o' orig chars : upcase_katakana o = upcase_katakana o' -> ~ In vu chars -> forall fuel pos out,
    to_romaji_loop_in t fuel E o orig chars pos out = to_romaji_loop_in t fuel E' o' orig chars pos out.
  Proof.
    intros U V. induction fuel as [|fuel IH]; intros pos out; [reflexivity|]. cbn [to_romaji_loop_in].
    destruct (Nat.eqb pos (length chars)); [reflexivity|].
    unfold slice_from. destruct (Nat.leb pos (length chars)); [|reflexivity]. cbn [bind]. unfold r_get.
    destruct (walk_same (skipn pos chars) [] t 0 (r_flat_here t)) as (k & m & j & W1 & W2 & I).
    { intro J. apply V. eapply In_skipn; eauto. }
    rewrite W1, W2. cbn [bind fst snd]. destruct (Nat.eqb j 0).
    - destruct (index chars pos) as [c| |]; cbn [bind]; [apply IH|reflexivity|reflexivity].
    - destruct (slice orig pos (pos + j)) as [seg| |]; cbn [bind]; [|reflexivity|reflexivity].
      rewrite U. destruct (tidy_node k m I) as (_ & _ & C). rewrite (upper_same (rout m) C). apply IH.
  Qed.
  Lemma k2h_in_same d input : forall rest index pk out, ~ In (ch "ヴ") rest -> (forall p, pk = Some p -> p <> vu) ->
    k2h_loop_in t E input d index pk rest out = k2h_loop_in t E' input d index pk rest out.
  Proof.
    induction rest as [|c rest IH]; intros index pk out V P; [reflexivity|]. cbn [k2h_loop_in].
    assert (V' : ~ In (ch "ヴ") rest) by (intro I; apply V; now right).
    assert (Hc : c <> ch "ヴ") by (intros ->; apply V; now left).
    assert (N : forall p : N, None = Some p -> p <> vu) by discriminate.
    destruct (is_char_slash_dot c || is_char_initial_long_dash c index || is_kana_as_symbol c) eqn:S; [now apply IH|].
    apply orb_false_iff in S. destruct S as [S S2]. apply orb_false_iff in S. destruct S as [S1 _].
    assert (X : (if negb (is_char_long_dash c) && is_char_katakana c
       then k2h_loop_in t E input d (Datatypes.S index) (Some (hira_of_kata c)) rest (out ++ [hira_of_kata c])
       else k2h_loop_in t E input d (Datatypes.S index) None rest (out ++ [c]))
       = (if negb (is_char_long_dash c) && is_char_katakana c
       then k2h_loop_in t E' input d (Datatypes.S index) (Some (hira_of_kata c)) rest (out ++ [hira_of_kata c])
       else k2h_loop_in t E' input d (Datatypes.S index) None rest (out ++ [c]))).
    { destruct (negb (is_char_long_dash c) && is_char_katakana c) eqn:K; [|now apply IH].
      apply IH; [exact V'|]. intros p [= <-]. now apply shifted. }
    destruct pk as [p|]; [|exact X]. destruct (is_char_inner_long_dash c index); [|exact X].
    rewrite (tidy_find E [] t p HE (r_flat_here t) (P p eq_refl)), (tidy_find E' [] t p HE' (r_flat_here t) (P p eq_refl)). cbn [bind].
    destruct (look t p) as [n|]; [|now apply IH].
    destruct (checked_sub index 1) as [i| |]; cbn [bind]; [|reflexivity|reflexivity].
    destruct (match nth_error input i with Some _ => _ | None => false end); [now apply IH|].
    destruct (last_char (rout n)) as [r|]; [|now apply IH]. destruct (LONG_VOWELS r); now apply IH.
  Qed.
End Tidy.

Definition clean_opt (up : bool) : options := Build_options false false up false.
Definition wit (up : bool) (k : str) : str :=
  match k with
  | [a; d] => if a =? tsu then witness up d else k
  | _ => k
  end.
Definition spared (up : bool) (k : str) : bool :=
  match k with
  | [a] => a =? va
  | [a; d] => (a =? tsu) && inl d (sup up)
  | _ => false
  end.
Definition entry_needed (up : bool) (k : str) : bool :=
  let t := cut k RT in let s := wit up k in
  match k2h_loop_in t std_1_82 s true 0 None s [] with
  | Ok h => negb (inl vu h) && negb (inl (ch "ヴ") s) && negb (inl (ch "ゔ") s)
      && match to_romaji_loop_in t (S (length h)) std_1_82 (clean_opt up) s h 0 [] with
         | Ok r => negb (str_eqb r (rconv std_1_82 up s (k2h std_1_82 true s)))
         | _ => false
         end
  | _ => false
  end.
Lemma cuts_tidy : forallb (fun e => inl vu (fst e) || tidy (cut (fst e) RT)) rdict = true.
Proof. vm_compute. reflexivity. Qed.
Lemma entries_needed up : forallb (fun e => inl vu (fst e) || spared up (fst e) || entry_needed up (fst e)) rdict = true.
Proof. destruct up; vm_compute; reflexivity. Qed.

Lemma spared_ok up k : spared up k = true <-> dead up k.
Proof.
  unfold spared, dead. change (u "ヷ") with [va]. change (ch "っ") with tsu. destruct k as [|a [|d [|e k]]].
  - split; [discriminate|]. intros [Q|(d & Q & _)]; discriminate Q.
  - rewrite N.eqb_eq. split; [intros ->; now left|]. intros [Q|(d & Q & _)]; [congruence|discriminate Q].
  - rewrite andb_true_iff, N.eqb_eq, inl_In. split.
    + intros [-> I]. right. exists d. split; [reflexivity|now apply sup_In].
    + intros [Q|(x & Q & S)]; [discriminate Q|]. injection Q as -> ->. split; [reflexivity|now apply sup_In].
  - split; [discriminate|]. intros [Q|(x & Q & _)]; discriminate Q.
Qed.

Lemma entry_iff E o k : std_ok E -> is_key k -> ~ In (ch "ゔ") k ->
  ((forall s, no_v s -> to_romaji_in (cut k RT) E s o = to_romaji_with_opt E s o) <-> dead (upcase_katakana o) k).
Proof.
  intros HE (v & K) V. split.
  - intro H. apply spared_ok. destruct (spared (upcase_katakana o) k) eqn:S; [reflexivity|exfalso].
    pose proof cuts_tidy as C. rewrite forallb_forall in C. specialize (C _ K). cbn [fst] in C.
    pose proof (entries_needed (upcase_katakana o)) as D. rewrite forallb_forall in D. specialize (D _ K). cbn [fst] in D.
    destruct (inl vu k) eqn:J; [apply V; now apply inl_In in J|]. cbn [orb] in C, D. rewrite S in D. cbn [orb] in D.
    unfold entry_needed in D. cbv zeta in D. set (s := wit (upcase_katakana o) k) in *.
    destruct (k2h_loop_in (cut k RT) std_1_82 s true 0 None s []) as [h| |] eqn:KH; try discriminate D.
    repeat (apply andb_prop in D; let Z := fresh "Z" in destruct D as [D Z]).
    apply negb_true_iff in D, Z0, Z1. apply inl_false in D, Z0, Z1.
    assert (NV : no_v s) by (split; assumption). specialize (H s NV). rewrite (to_romaji_with_opt_eq E o s HE) in H.
    unfold to_romaji_in in H.
    rewrite (k2h_in_same (cut k RT) C E std_1_82 HE std_1_82_ok true s s 0 None [] Z1 ltac:(discriminate)), KH in H. cbn [bind] in H.
    rewrite (loop_same (cut k RT) C E std_1_82 HE std_1_82_ok o (clean_opt (upcase_katakana o)) s h eq_refl D) in H.
    rewrite H in Z. rewrite (rom_indep E std_1_82 _ s HE std_1_82_ok Z1 Z0), str_eqb_refl in Z. discriminate Z.
  - intros [->|(d & -> & S)] s A.
    + change (u "ヷ") with [va]. rewrite cut_va. apply thin_enough; [exact HE|exact A|]. intros d [].
    + change (ch "っ") with tsu. rewrite cut_tsu. apply thin_enough; [exact HE|exact A|]. intros e [<-|[]] _. exact S.
Qed.

Lemma romaji_same E o s : to_romaji_in RT E s o = to_romaji_with_opt E s o.
Proof. reflexivity. Qed.
