(** * Proofs about to_romaji (C03, C23-C31, C52-C55) *)
From Verif Require Import Tac Base Std Constants Chars Trees KanaTree RomajiTree Strings Convert
  KanaPure RomajiPure KanaSpec KanaDict KanaProofs Predicates ScriptSpec ScriptProofs RomajiSpec.

Definition vu : N := Eval vm_compute in ch "ゔ".

(** ** The dictionary and the tree *)
Definition r_pairs : list (str * str) := map (fun p => (fst p, rout (snd p))) (tl (r_flat RT)).
Lemma r_flat_head : exists l, r_flat RT = ([], RT) :: l.
Proof. destruct (r_flat RT) as [|p l] eqn:F.
  - pose proof r_root as H. unfold r_node in H. rewrite F in H. destruct H.
  - exists l. f_equal. assert (H : hd ([], RT) (r_flat RT) = ([], RT)) by (vm_compute; reflexivity).
    rewrite F in H. exact H.
Qed.
Lemma r_pairs_nonempty : forallb (fun p => match fst p with [] => false | _ => true end) (tl (r_flat RT)) = true.
Proof. vm_compute. reflexivity. Qed.
Lemma r_entry_node k v : r_entry k v <-> k <> [] /\ exists n, r_node k n /\ rout n = v.
Proof.
  destruct r_flat_head as [l F].
  assert (T : tl (r_flat RT) = l) by (rewrite F; reflexivity).
  split.
  - intro I.
    assert (H : forallb (fun e => pair_mem e r_pairs) rdict = true) by (vm_compute; reflexivity).
    rewrite forallb_forall in H. specialize (H _ I). apply pair_mem_In in H.
    unfold r_pairs in H. apply in_map_iff in H. destruct H as ([k' n] & Q & J). cbn in Q. inversion Q; subst.
    pose proof r_pairs_nonempty as B. rewrite forallb_forall in B. specialize (B _ J). cbn in B.
    split; [intros ->; discriminate|]. exists n. split; [|reflexivity].
    unfold r_node. rewrite F. right. exact J.
  - intros [Nk (n & Hn & <-)]. unfold r_node in Hn. rewrite F in Hn. destruct Hn as [Hn|Hn]; [congruence|].
    assert (H : forallb (fun e => pair_mem e rdict) r_pairs = true) by (vm_compute; reflexivity).
    rewrite forallb_forall in H. apply pair_mem_In. apply H. unfold r_pairs. apply in_map_iff.
    exists (k, n). split; [reflexivity|]. rewrite F. exact Hn.
Qed.

Lemma r_flat_split a : forall n b x, In (a ++ b, x) (r_flat n) -> exists m, In (a, m) (r_flat n) /\ In (b, x) (r_flat m).
Proof.
  induction a as [|c a IH]; intros n b x I.
  - exists n. split; [apply r_flat_here|exact I].
  - cbn in I. apply r_flat_inv in I. destruct I as (y & A & B). apply IH in B. destruct B as (m & B & C).
    exists m. split; [|exact C]. eapply r_flat_step; eauto.
Qed.
Lemma r_entry_prefix a b v : r_entry (a ++ b) v -> a <> [] -> exists w, r_entry a w.
Proof.
  rewrite r_entry_node. intros [_ (n & Hn & _)] Na. apply r_flat_split in Hn. destruct Hn as (m & Hm & _).
  exists (rout m). apply r_entry_node. split; [exact Na|]. exists m. auto.
Qed.

(** apart from ゔ, the children of a node have distinct keys *)
Fixpoint distinctb (l : list N) : bool :=
  match l with a :: l' => negb (existsb (N.eqb a) l') && distinctb l' | [] => true end.
Lemma distinctb_ok l : distinctb l = true -> NoDup l.
Proof.
  induction l as [|a l IH]; [constructor|]. cbn [distinctb]. intro H. apply andb_prop in H. destruct H as [H1 H2].
  constructor; [|auto]. intro I. apply negb_true_iff in H1.
  assert (existsb (N.eqb a) l = true) by (apply existsb_exists; exists a; split; [exact I|apply N.eqb_refl]). congruence.
Qed.
Lemma romaji_distinct k n : r_node k n -> NoDup (filter (fun c => negb (c =? vu)) (map fst (rts n))).
Proof.
  intro H. apply distinctb_ok.
  exact (romaji_tree_check (fun p => distinctb (filter (fun c => negb (c =? vu)) (map fst (rts (snd p)))))
           ltac:(vm_compute; reflexivity) k n H).
Qed.
Lemma distinct_fun {A} (l : list (N * A)) (P : N -> bool) c x y :
  NoDup (filter P (map fst l)) -> P c = true -> In (c, x) l -> In (c, y) l -> x = y.
Proof.
  induction l as [|[d z] l IH]; intros ND Pc I J; [destruct I|]. cbn [map filter fst] in ND.
  assert (X : forall w, In (c, w) l -> In c (filter P (map fst l))).
  { intros w K. apply filter_In. split; [|exact Pc]. apply in_map_iff. now exists (c, w). }
  destruct I as [I|I], J as [J|J].
  - congruence.
  - inversion I; subst. rewrite Pc in ND. inversion ND; subst. exfalso. eauto.
  - inversion J; subst. rewrite Pc in ND. inversion ND; subst. exfalso. eauto.
  - apply IH; auto. destruct (P d); [inversion ND; subst|]; assumption.
Qed.
Lemma rts_fun k n c x y : r_node k n -> c <> vu -> In (c, x) (rts n) -> In (c, y) (rts n) -> x = y.
Proof.
  intros H Nc. apply (distinct_fun (rts n) (fun c => negb (c =? vu))); [eapply romaji_distinct; eauto|].
  apply negb_true_iff, N.eqb_neq, Nc.
Qed.
Lemma r_node_fun k : forall n n', ~ In vu k -> r_node k n -> r_node k n' -> n = n'.
Proof.
  induction k as [|c k IH] using rev_ind; intros n n' V H H'.
  - apply r_flat_nil in H, H'. congruence.
  - unfold r_node in *. apply r_flat_split in H, H'. destruct H as (m & H1 & H2), H' as (m' & H1' & H2').
    rewrite in_app_iff in V.
    assert (m = m') by (apply IH; tauto). subst m'.
    apply r_flat_inv in H2, H2'. destruct H2 as (x & A & B), H2' as (x' & A' & B').
    apply r_flat_nil in B, B'. subst x x'. eapply rts_fun; [exact H1| |exact A|exact A'].
    intros ->. apply V. right. now left.
Qed.
Lemma r_entry_fun k v w : ~ In vu k -> r_entry k v -> r_entry k w -> v = w.
Proof.
  rewrite !r_entry_node. intros V [_ (n & H & <-)] [_ (n' & H' & <-)].
  now rewrite (r_node_fun k n n' V H H').
Qed.

(** ** One step *)
Lemma entry_child seg m c : r_node seg m -> ~ In vu seg -> seg <> [] ->
  (exists w, r_entry (seg ++ [c]) w) <-> In c (map fst (rts m)).
Proof.
  intros H V Ns. split.
  - intros [w I]. apply r_entry_node in I. destruct I as [_ (x & I & _)]. apply r_flat_split in I.
    destruct I as (m' & I1 & I2). assert (m' = m) by (eapply r_node_fun; eauto). subst m'.
    apply r_flat_inv in I2. destruct I2 as (y & I2 & _). apply in_map_iff. now exists (c, y).
  - intro I. apply in_map_iff in I. destruct I as ([d x] & Q & I). cbn in Q. subst d.
    exists (rout x). apply r_entry_node. split; [intro Z; apply app_eq_nil in Z; destruct Z; discriminate|].
    exists x. split; [|reflexivity]. eapply r_flat_snoc; eauto.
Qed.

Lemma rconv_step E up orig c s : std_ok E ->
  (exists seg rest v, c :: s = seg ++ rest /\ seg <> [] /\ r_entry seg v
     /\ (forall d rest' w, rest = d :: rest' -> r_entry (seg ++ [d]) w -> In vu seg)
     /\ rconv E up orig (c :: s) = remit up (firstn (length seg) orig) v ++ rconv E up (skipn (length seg) orig) rest)
  \/ ((forall v, ~ r_entry [c] v) /\ rconv E up orig (c :: s) = c :: rconv E up (skipn 1 orig) s).
Proof.
  intro HE. rewrite rconv_cons. unfold rstep.
  destruct (rw E RT (c :: s)) as [m i] eqn:K.
  destruct (rw_spec E HE _ _ _ _ _ r_root K) as (B1 & B2 & B3). cbn [app] in B2.
  destruct i as [|i].
  - right. split; [|reflexivity]. intros v I. apply r_entry_node in I. destruct I as [_ (n & I & _)].
    cbn [firstn] in B2. apply r_flat_nil in B2. subst m. cbn [skipn] in B3.
    apply (rfind_None E [] RT c HE r_root) in B3. apply B3.
    apply r_flat_inv in I. destruct I as (y & I & _). apply in_map_iff. now exists (c, y).
  - left. exists (firstn (S i) (c :: s)), (skipn (S i) (c :: s)), (rout m).
    assert (L : length (firstn (S i) (c :: s)) = S i) by (rewrite firstn_length; lia).
    split; [symmetry; apply firstn_skipn|]. split; [discriminate|].
    split; [apply r_entry_node; split; [discriminate|]; eauto|]. rewrite L. split; [|reflexivity].
    intros d rest' w Er I. rewrite Er in B3.
    destruct (in_dec N.eq_dec vu (firstn (S i) (c :: s))) as [V|V]; [exact V|]. exfalso.
    apply (rfind_None E _ m d HE B2) in B3. apply B3.
    apply (entry_child _ m d B2 V); [discriminate|]. eauto.
Qed.

Lemma app_split_cases {A} (a b c d : list A) : a ++ b = c ++ d ->
  (exists x l, a = c ++ x :: l /\ d = (x :: l) ++ b) \/ (exists x l, c = a ++ x :: l /\ b = (x :: l) ++ d) \/ (a = c /\ b = d).
Proof.
  revert c. induction a as [|x a IH]; intros [|y c] H; cbn in H.
  - auto.
  - right. left. exists y, c. auto.
  - left. exists x, a. auto.
  - inversion H; subst. destruct (IH c H2) as [(z & l & -> & ->)|[(z & l & -> & ->)|[-> ->]]].
    + left. exists z, l. auto.
    + right. left. exists z, l. auto.
    + auto.
Qed.

Lemma rconv_seg E up orig seg v rest : std_ok E -> r_entry seg v -> ~ In vu seg ->
  (forall d rest' w, rest = d :: rest' -> ~ r_entry (seg ++ [d]) w) ->
  rconv E up orig (seg ++ rest) = remit up (firstn (length seg) orig) v ++ rconv E up (skipn (length seg) orig) rest.
Proof.
  intros HE I V X. pose proof I as I'. apply r_entry_node in I'. destruct I' as [Ns _].
  destruct seg as [|c seg]; [congruence|]. cbn [app].
  destruct (rconv_step E up orig c (seg ++ rest) HE) as [(seg' & rest' & w & Sp & N' & I' & M & ->)|[O _]].
  - change (c :: seg ++ rest) with ((c :: seg) ++ rest) in Sp.
    destruct (app_split_cases _ _ _ _ Sp) as [(x & l & Q & R)|[(x & l & Q & R)|[Q R]]].
    + (* the longer one is the given one *)
      rewrite Q in I, V. exfalso. apply V. apply in_or_app. left.
      replace (seg' ++ x :: l) with ((seg' ++ [x]) ++ l) in I by (rewrite <- app_assoc; reflexivity).
      apply r_entry_prefix in I; [|intro Z; apply app_eq_nil in Z; destruct Z; discriminate].
      destruct I as [w' I]. eapply M; [exact R|exact I].
    + exfalso. rewrite Q in I'.
      replace ((c :: seg) ++ x :: l) with (((c :: seg) ++ [x]) ++ l) in I' by (rewrite <- app_assoc; reflexivity).
      apply r_entry_prefix in I'; [|discriminate]. destruct I' as [w' I']. eapply X; [exact R|exact I'].
    + subst seg' rest'. now rewrite (r_entry_fun _ w v V I' I).
  - exfalso. change (c :: seg) with ([c] ++ seg) in I. apply r_entry_prefix in I; [|discriminate].
    destruct I as [w I]. eapply O, I.
Qed.
Lemma rconv_copy E up orig c s : std_ok E -> (forall v, ~ r_entry [c] v) ->
  rconv E up orig (c :: s) = c :: rconv E up (skipn 1 orig) s.
Proof.
  intros HE O. destruct (rconv_step E up orig c s HE) as [(seg & rest & v & Sp & Ns & I & _)|[_ H]]; [|exact H].
  exfalso. destruct seg as [|d seg]; [congruence|]. cbn in Sp. inversion Sp; subst.
  change (d :: seg) with ([d] ++ seg) in I. apply r_entry_prefix in I; [|discriminate].
  destruct I as [w I]. eapply O, I.
Qed.

(** ** C55: the relation *)
Lemma uppers_upper a b : uppers a b <-> ascii_upper a = b.
Proof. unfold uppers, lower_letter, ascii_upper. ifs; lia. Qed.
Lemma uppers_map v w : Forall2 uppers v w <-> map ascii_upper v = w.
Proof.
  split.
  - induction 1 as [|a b v w H _ IH]; [reflexivity|]. cbn. apply uppers_upper in H. congruence.
  - revert w. induction v as [|a v IH]; intros w H; cbn in H; subst; [constructor|].
    constructor; [now apply uppers_upper|]. now apply IH.
Qed.
Lemma all_kata_spec s : forallb is_char_katakana s = true <-> Forall S_kata s.
Proof.
  rewrite forallb_forall, Forall_forall. unfold S_kata. split; intros H c I; specialize (H c I).
  - apply katakana_spec in H. exact H.
  - apply katakana_spec. exact H.
Qed.
Lemma remit_output up oseg v out : r_output up oseg v out <-> out = remit up oseg v.
Proof.
  unfold r_output, remit. rewrite uppers_map, <- all_kata_spec.
  destruct (forallb is_char_katakana oseg), up; cbn [andb]; intuition congruence.
Qed.

Lemma rconv_romanises E up : std_ok E -> forall s orig, (length s <= length orig)%nat ->
  romanises up orig s (rconv E up orig s).
Proof.
  intro HE. induction s as [s IH] using str_ind_len. intros orig L.
  destruct s as [|c s]; [rewrite rconv_nil; constructor|].
  destruct (rconv_step E up orig c s HE) as [(seg & rest & v & Sp & Ns & I & M & ->)|[O ->]].
  - rewrite <- (firstn_skipn (length seg) orig) at 1. rewrite Sp in *. rewrite app_length in L.
    eapply RM_hit; eauto.
    + rewrite firstn_length. lia.
    + apply remit_output. reflexivity.
    + apply IH; [rewrite app_length; destruct seg; [congruence|cbn; lia]|]. rewrite skipn_length. lia.
  - destruct orig as [|d orig]; [cbn in L; lia|]. cbn [skipn]. constructor; [exact O|].
    apply IH; cbn in *; lia.
Qed.
Lemma romanises_rconv E up : std_ok E -> forall orig s out, romanises up orig s out -> ~ In vu s ->
  out = rconv E up orig s.
Proof.
  intros HE orig s out H. induction H as [orig|oseg orig seg s v out out' I L M O H IH|d orig c s out O H IH]; intro V.
  - now rewrite rconv_nil.
  - rewrite in_app_iff in V. rewrite (rconv_seg E up (oseg ++ orig) seg v s HE I).
    + rewrite <- L, firstn_app, Nat.sub_diag, firstn_all, app_nil_r, skipn_app, Nat.sub_diag, skipn_all. cbn [app skipn].
      apply remit_output in O. subst out. f_equal. apply IH. tauto.
    + tauto.
    + intros x s' w Es J. apply V. left. eapply M; eauto.
  - rewrite rconv_copy by assumption. f_equal. apply IH. intro J. apply V. now right.
Qed.

(** ** Without upper-casing the original does not matter *)
Lemma rconv_noup E s : std_ok E -> forall o o', rconv E false o s = rconv E false o' s.
Proof.
  intro HE. induction s as [s IH] using str_ind_len. intros o o'. destruct s as [|c s]; [reflexivity|].
  rewrite !rconv_cons. unfold rstep. pose proof (rstep_pos E false o c s) as P. unfold rstep in P.
  destruct (rw E RT (c :: s)) as [m [|i]]; cbn [fst snd] in *.
  - f_equal. apply IH. rewrite skipn_length. cbn [length]. lia.
  - f_equal; [unfold remit; rewrite !andb_false_r; reflexivity|].
    apply IH. rewrite skipn_length. cbn [length]. lia.
Qed.

(** ** C27 *)
Lemma rconv_inert E up s : std_ok E -> (forall c, In c s -> forall v, ~ r_entry [c] v) ->
  forall o, rconv E up o s = s.
Proof.
  intro HE. induction s as [|c s IH]; intros H o; [reflexivity|].
  rewrite rconv_copy; [|exact HE|apply H; now left]. f_equal. apply IH. intros d I. apply H. now right.
Qed.
Lemma rconv_In E up : std_ok E -> forall s o x, In x (rconv E up o s) ->
  (In x s /\ forall v, ~ r_entry [x] v) \/ exists seg oseg v, (forall c, In c seg -> In c s) /\ r_entry seg v /\ In x (remit up oseg v).
Proof.
  intro HE. induction s as [s IH] using str_ind_len. intros o x. destruct s as [|c s]; [intros []|].
  destruct (rconv_step E up o c s HE) as [(seg & rest & v & Sp & Ns & I & M & ->)|[O ->]].
  - intro J. apply in_app_or in J. destruct J as [J|J].
    + right. exists seg, (firstn (length seg) o), v. split; [|auto]. intros d K. rewrite Sp. apply in_or_app. now left.
    + apply IH in J.
      * rewrite Sp. destruct J as [[J1 J2]|(seg' & oseg & w & J1 & J2 & J3)].
        -- left. split; [apply in_or_app; now right|exact J2].
        -- right. exists seg', oseg, w. split; [|auto]. intros d K. apply in_or_app. right. auto.
      * rewrite Sp, app_length. destruct seg; [congruence|cbn; lia].
  - intros [<-|J]; [left; split; [now left|exact O]|]. apply IH in J; [|cbn; lia].
    destruct J as [[J1 J2]|(seg' & oseg & w & J1 & J2 & J3)].
    + left. split; [now right|exact J2].
    + right. exists seg', oseg, w. split; [|auto]. intros d K. right. auto.
Qed.
Lemma remit_In up oseg v x : In x (remit up oseg v) -> In x v \/ exists y, In y v /\ x = ascii_upper y.
Proof.
  unfold remit. destruct (_ && _); [|auto]. rewrite in_map_iff. intros (y & <- & I). eauto.
Qed.
Lemma r_outputs (P : N -> bool) : forallb (fun e => forallb (fun c => P c && P (ascii_upper c)) (snd e)) rdict = true ->
  forall k v up oseg x, r_entry k v -> In x (remit up oseg v) -> P x = true.
Proof.
  intros H k v up oseg x I J. rewrite forallb_forall in H. specialize (H _ I). cbn [snd] in H.
  rewrite forallb_forall in H. apply remit_In in J. destruct J as [J|(y & J & ->)]; specialize (H _ J);
    apply andb_prop in H; tauto.
Qed.
Definition root_key (c : N) : bool := existsb (fun e => str_eqb (fst e) [c]) rdict.
Lemma root_key_spec c : root_key c = false <-> forall v, ~ r_entry [c] v.
Proof.
  unfold root_key. rewrite <- not_true_iff_false, existsb_exists. split.
  - intros H v I. apply H. exists ([c], v). split; [exact I|]. cbn [fst]. apply str_eqb_eq. reflexivity.
  - intros H ([k v] & I & Q). cbn [fst] in Q. apply str_eqb_eq in Q. subst k. eapply H, I.
Qed.
Lemma r_out_inert k v up oseg x : r_entry k v -> In x (remit up oseg v) ->
  (forall w, ~ r_entry [x] w) /\ ~ katakana_letter x /\ x <> long_mark.
Proof.
  intros I J.
  pose proof (r_outputs (fun c => negb (root_key c) && negb ((0x30A1 <=? c) && (c <=? 0x30FC)))
    ltac:(vm_compute; reflexivity) k v up oseg x I J) as H.
  cbv beta in H. apply andb_prop in H. destruct H as [H1 H2]. apply negb_true_iff in H1.
  split; [now apply root_key_spec|]. unfold katakana_letter, long_mark. lia.
Qed.
Lemma rom_idempotent E up up' s : std_ok E ->
  let r := rconv E up s (k2h E true s) in rconv E up' r (k2h E true r) = r.
Proof.
  intros HE r.
  assert (H : forall c, In c r -> (forall w, ~ r_entry [c] w) /\ (~ katakana_letter c \/ c = 0x30F5 \/ c = 0x30F6)).
  { intros c I. apply rconv_In in I; [|exact HE]. destruct I as [[I1 I2]|(seg & oseg & v & I1 & I2 & I3)].
    - split; [exact I2|]. eapply k2h_not_katakana, I1.
    - destruct (r_out_inert _ _ _ _ _ I2 I3) as (A & B & _). auto. }
  rewrite k2h_no_katakana by (intros c I; now apply H). apply rconv_inert; [exact HE|]. intros c I. now apply H.
Qed.
Lemma root_keys_kana c v : r_entry [c] v -> S_hiragana c \/ S_katakana c \/ S_ja_punct c.
Proof.
  intro I. assert (H : forallb (fun e => match fst e with
     | [c] => (0x3041 <=? c) && (c <=? 0x3096) || (0x30A1 <=? c) && (c <=? 0x30FC) || (0x3000 <=? c) && (c <=? 0x303F)
       || (0xFF01 <=? c) && (c <=? 0xFF0F) || (0xFF1A <=? c) && (c <=? 0xFF1F) || (0xFF3B <=? c) && (c <=? 0xFF3F)
       || (0xFF5B <=? c) && (c <=? 0xFF60)
     | _ => true end) rdict = true) by (vm_compute; reflexivity).
  rewrite forallb_forall in H. specialize (H _ I). cbn [fst] in H.
  unfold S_hiragana, S_katakana, S_ja_punct, between. lia.
Qed.
Lemma rom_foreign E up s : std_ok E ->
  (forall c, In c s -> ~ S_hiragana c /\ ~ S_katakana c /\ ~ S_ja_punct c) ->
  rconv E up s (k2h E true s) = s.
Proof.
  intros HE H. rewrite k2h_no_katakana.
  - apply rconv_inert; [exact HE|]. intros c I v J. apply root_keys_kana in J. destruct (H c I) as (A & B & C). tauto.
  - intros c I. left. destruct (H c I) as (_ & B & _). unfold katakana_letter, S_katakana, between in *. lia.
Qed.

(** ** C26 *)
Lemma kana_roots c : 0x3041 <= c <= 0x3094 \/ c = 0x30FB \/ c = 0x30FC -> exists v, r_entry [c] v.
Proof.
  intro H.
  assert (B : forallb (fun i => root_key (0x3041 + N.of_nat i)) (seq 0 84) && root_key 0x30FB && root_key 0x30FC = true)
    by (vm_compute; reflexivity).
  assert (X : root_key c = true).
  { apply andb_prop in B. destruct B as [B B3]. apply andb_prop in B. destruct B as [B1 B2].
    destruct H as [H|[->| ->]]; [|exact B2|exact B3]. rewrite forallb_forall in B1.
    specialize (B1 (N.to_nat (c - 0x3041))). rewrite in_seq in B1.
    replace (0x3041 + N.of_nat (N.to_nat (c - 0x3041))) with c in B1 by lia. apply B1. lia. }
  unfold root_key in X. apply existsb_exists in X. destruct X as ([k v] & I & Q). cbn [fst] in Q.
  apply str_eqb_eq in Q. subst k. now exists v.
Qed.
Definition kana_char (c : N) : bool := (0x3041 <=? c) && (c <=? 0x3094) || (c =? 0x30FB) || (c =? 0x30FC).
Lemma kana_keys_ascii k v : r_entry k v -> (forall c, In c k -> kana_char c = true) ->
  forall x, In x v -> x < 128.
Proof.
  intros I H x J.
  assert (B : forallb (fun e => negb (forallb kana_char (fst e)) || forallb (fun x => x <? 128) (snd e)) rdict = true)
    by (vm_compute; reflexivity).
  rewrite forallb_forall in B. specialize (B _ I). cbn [fst snd] in B.
  replace (forallb kana_char k) with true in B by (symmetry; now apply forallb_forall). cbn [negb orb] in B.
  rewrite forallb_forall in B. specialize (B _ J). lia.
Qed.
Lemma k2h_kana E d s : (forall c, In c s -> (S_hiragana c \/ S_katakana c) /\ ~ In c (u "ゕゖヵヶ")) ->
  forall x, In x (k2h E d s) -> kana_char x = true.
Proof.
  intros H x I. apply k2h_go_In in I. unfold kana_char. destruct I as [I|[_ I]].
  - apply in_map_iff in I. destruct I as (c & <- & I). destruct (H c I) as [A B].
    revert B. change (u "ゕゖヵヶ") with [0x3095; 0x3096; 0x30F5; 0x30F6]. cbn [In]. intro B.
    assert (Q : hiragana_for c (k2hc c)) by now apply k2hc_spec. unfold hiragana_for in Q. symspec.
    unfold S_hiragana, S_katakana, between in A. lia.
  - revert I. change (u "あいうえお") with [0x3042; 0x3044; 0x3046; 0x3048; 0x304A]. cbn [In]. lia.
Qed.
Lemma rom_ascii E up s : std_ok E ->
  (forall c, In c s -> (S_hiragana c \/ S_katakana c) /\ ~ In c (u "ゕゖヵヶ")) ->
  forall x, In x (rconv E up s (k2h E true s)) -> x < 128.
Proof.
  intros HE H x I. apply rconv_In in I; [|exact HE]. destruct I as [[I1 I2]|(seg & oseg & v & I1 & I2 & I3)].
  - exfalso. apply (k2h_kana E true s H) in I1. destruct (kana_roots x) as [v I]; [unfold kana_char in I1; lia|].
    eapply I2, I.
  - assert (K : forall c, In c seg -> kana_char c = true) by (intros c J; eapply k2h_kana; eauto).
    apply remit_In in I3. destruct I3 as [I3|(y & I3 & ->)].
    + eapply kana_keys_ascii; eauto.
    + pose proof (kana_keys_ascii seg v I2 K y I3). unfold ascii_upper. ifs; lia.
Qed.

(** ** C28 *)
Lemma remit_low up oseg v : low (remit up oseg v) = low v.
Proof.
  unfold remit. destruct (_ && _); [|reflexivity]. unfold low. rewrite map_map. apply map_ext.
  intro c. unfold ascii_lower, ascii_upper. ifs; lia.
Qed.
Lemma rconv_low E : std_ok E -> forall s o up up', low (rconv E up o s) = low (rconv E up' o s).
Proof.
  intro HE. induction s as [s IH] using str_ind_len. intros o up up'. destruct s as [|c s]; [reflexivity|].
  rewrite !rconv_cons. unfold rstep.
  destruct (rw E RT (c :: s)) as [m [|i]]; cbn [fst snd]; rewrite !low_app, ?remit_low; f_equal;
    apply IH; rewrite skipn_length; cbn [length]; lia.
Qed.
Lemma rconv_all_kata E : std_ok E -> forall s o, Forall S_kata o -> (forall c, In c s -> ascii_upper c = c) ->
  rconv E true o s = map ascii_upper (rconv E false o s).
Proof.
  intro HE. induction s as [s IH] using str_ind_len. intros o K H. destruct s as [|c s]; [reflexivity|].
  assert (Sk : forall n, Forall S_kata (skipn n o)).
  { intro n. rewrite <- (firstn_skipn n o) in K. apply Forall_app in K. tauto. }
  assert (Ss : forall n d, In d (skipn n (c :: s)) -> ascii_upper d = d).
  { intros n d I. apply H. rewrite <- (firstn_skipn n (c :: s)). apply in_or_app. now right. }
  rewrite !rconv_cons. unfold rstep.
  destruct (rw E RT (c :: s)) as [m [|i]]; cbn [fst snd]; rewrite map_app; f_equal.
  - cbn. rewrite H by now left. reflexivity.
  - apply IH; [rewrite skipn_length; cbn [length]; lia|apply Sk|apply Ss].
  - unfold remit. rewrite andb_false_r.
    replace (forallb is_char_katakana (firstn (S i) o)) with true; [reflexivity|]. symmetry.
    apply all_kata_spec. rewrite <- (firstn_skipn (S i) o) in K. apply Forall_app in K. tauto.
  - apply IH; [rewrite skipn_length; cbn [length]; lia|apply Sk|apply Ss].
Qed.
Lemma rom_katakana E s : std_ok E -> Forall S_kata s ->
  rconv E true s (k2h E true s) = map ascii_upper (rconv E false s (k2h E true s)).
Proof.
  intros HE H. apply rconv_all_kata; auto. intros x I. apply k2h_go_In in I. destruct I as [I|[_ I]].
  - apply in_map_iff in I. destruct I as (c & <- & I). rewrite Forall_forall in H. specialize (H c I).
    assert (Q : hiragana_for c (k2hc c)) by now apply k2hc_spec. unfold hiragana_for in Q. symspec.
    unfold S_kata in H. unfold ascii_upper. ifs; lia.
  - apply vowel_not_katakana in I. unfold ascii_upper. ifs; lia.
Qed.
Lemma rconv_no_kata E : std_ok E -> forall s o, (length s <= length o)%nat -> (forall c, In c o -> ~ S_kata c) ->
  rconv E true o s = rconv E false o s.
Proof.
  intro HE. induction s as [s IH] using str_ind_len. intros o L H. destruct s as [|c s]; [reflexivity|].
  assert (Sk : forall n d, In d (skipn n o) -> ~ S_kata d).
  { intros n d I. apply H. rewrite <- (firstn_skipn n o). apply in_or_app. now right. }
  rewrite !rconv_cons. unfold rstep.
  destruct (rw E RT (c :: s)) as [m [|i]] eqn:K; cbn [fst snd]; f_equal.
  - apply IH; [rewrite skipn_length; cbn [length]; lia|rewrite !skipn_length; cbn [length] in *; lia|apply Sk].
  - unfold remit. rewrite andb_false_r. destruct o as [|d o]; [cbn in L; lia|]. cbn [firstn forallb].
    replace (is_char_katakana d) with false; [reflexivity|]. symmetry. apply not_true_iff_false.
    rewrite katakana_spec. apply (H d). now left.
  - apply IH; [rewrite skipn_length; cbn [length]; lia|rewrite !skipn_length; cbn [length] in *; lia|apply Sk].
Qed.
Lemma rom_no_katakana E s : std_ok E -> (forall c, In c s -> ~ S_kata c) ->
  rconv E true s (k2h E true s) = rconv E false s (k2h E true s).
Proof. intros HE H. apply rconv_no_kata; auto. apply k2h_length. Qed.

(** ** C29: if no mark disappears, the original and its hiragana are aligned *)
Lemma mark_vowel_one k v : mark_vowel (u "お") k v -> ~ In k (u "ッン") -> length v = 1%nat.
Proof.
  intros (row & I & J) N. unfold mark_table in I. cbn [In] in I.
  repeat (destruct I as [I|I]; [injection I as <- <-; try reflexivity; now destruct N|]). destruct I.
Qed.
Lemma text_length a s h : hiragana_text (u "お") a s h ->
  (forall x b k, a ++ s = x ++ long_mark :: b -> (length a <= length x)%nat -> lengthens x k -> ~ In k (u "ッン")) ->
  length h = length s.
Proof.
  induction 1 as [a|a c s p t Hp Ht IH]; intro N; [reflexivity|]. rewrite app_length. cbn [length].
  rewrite IH.
  - replace (length p) with 1%nat; [reflexivity|]. symmetry.
    destruct Hp as [(_ & h & _ & ->)|[(-> & k & K & V)|(_ & _ & ->)]]; [reflexivity| |reflexivity].
    apply (mark_vowel_one k); [exact V|]. eapply N; [reflexivity| |exact K]. lia.
  - intros x b k Q L. rewrite <- app_assoc in Q. apply (N x b k Q). rewrite app_length in L. lia.
Qed.
Lemma piece_one a c p : hiragana_piece (u "お") a c p -> (length p <= 1)%nat.
Proof.
  intros [(_ & h & _ & ->)|[(-> & k & K & row & I & J)|(_ & _ & ->)]]; [cbn; lia| |cbn; lia].
  unfold mark_table in I. cbn [In] in I.
  repeat (destruct I as [I|I]; [injection I as <- <-; cbn; lia|]). destruct I.
Qed.
Lemma text_shorter a s h : hiragana_text (u "お") a s h -> (length h <= length s)%nat.
Proof.
  induction 1 as [a|a c s p t Hp Ht IH]; [apply le_n|]. apply piece_one in Hp. rewrite app_length. cbn [length]. lia.
Qed.
(** a text whose hiragana is cut; marks that disappear go to the part before *)
Lemma text_cut a s h : hiragana_text (u "お") a s h -> forall k h', h = k ++ h' -> exists seg s',
  s = seg ++ s' /\ hiragana_text (u "お") a seg k /\ hiragana_text (u "お") (a ++ seg) s' h' /\ (h' = [] -> s' = []).
Proof.
  intro H. induction H as [a|a c s p t Hp Ht IH]; intros k h' Q.
  - symmetry in Q. apply app_eq_nil in Q. destruct Q as [-> ->]. exists [], []. rewrite app_nil_r.
    repeat split; constructor.
  - pose proof (piece_one _ _ _ Hp) as L.
    assert (Take : forall k', k = p ++ k' -> t = k' ++ h' -> exists seg s', c :: s = seg ++ s' /\
       hiragana_text (u "お") a seg k /\ hiragana_text (u "お") (a ++ seg) s' h' /\ (h' = [] -> s' = [])).
    { intros k' -> Q'. destruct (IH k' h' Q') as (seg & s' & A & B & C & D). exists (c :: seg), s'.
      split; [cbn; now rewrite A|]. split; [now constructor|]. rewrite <- app_assoc in C. auto. }
    destruct p as [|x p]; [exact (Take k eq_refl Q)|].
    destruct p as [|y p]; [|cbn in L; lia].
    destruct k as [|y k].
    + cbn [app] in Q. subst h'. exists [], (c :: s). rewrite app_nil_r. split; [reflexivity|].
      split; [constructor|]. split; [exact (HT_cons _ a c s [x] t Hp Ht)|]. intro Z. discriminate Z.
    + cbn [app] in Q. injection Q as -> Q. exact (Take k eq_refl Q).
Qed.
Lemma text_nonempty s : hiragana_text (u "お") [] s [] -> s = [].
Proof.
  intro H. inversion H as [|? c s' p t Hp Ht Q1 Q2 Q3]; [reflexivity|]. exfalso.
  apply app_eq_nil in Q3. destruct Q3 as [-> ->].
  destruct Hp as [(_ & h & _ & Z)|[(_ & k & (a' & run & Z & _) & _)|(_ & _ & Z)]];
    [discriminate Z|destruct a'; discriminate Z|discriminate Z].
Qed.
Lemma romanises_pieces up orig s out : romanises up orig s out -> forall a w,
  hiragana_text (u "お") a w s -> (s = [] -> w = []) -> (length s <= length orig)%nat ->
  exists ps rest, concat (map p_text ps) = w /\ concat (map p_kana ps) = s /\ concat (map p_shown ps) = out /\
    concat (map p_seen ps) ++ rest = orig /\ pieces_of a ps /\ Forall (cut_piece up) ps.
Proof.
  induction 1 as [orig|oseg orig seg s v out out' I L M O H IH|d orig c s out O H IH]; intros a w T E Q.
  - exists [], orig. rewrite (E eq_refl). cbn. auto 10 using Forall_nil.
  - rewrite !app_length, L in Q. destruct (text_cut _ _ _ T seg s eq_refl) as (sg & s' & -> & T1 & T2 & Z).
    destruct (IH _ _ T2 Z) as (ps & rest & A & B & C & D & F & G); [lia|].
    exists (Piece sg seg v oseg out :: ps), rest.
    cbn [map concat p_text p_kana p_romaji p_seen p_shown pieces_of]. rewrite A, B, C, <- app_assoc, D.
    do 4 (split; [reflexivity|]). split; [split; [exact T1|exact F]|].
    constructor; [|exact G]. split; [exact L|]. right. auto.
  - destruct (text_cut _ _ _ T [c] s eq_refl) as (sg & s' & -> & T1 & T2 & Z).
    destruct (IH _ _ T2 Z) as (ps & rest & A & B & C & D & F & G); [cbn in Q; lia|].
    exists (Piece sg [c] [c] [d] [c] :: ps), rest.
    cbn [map concat p_text p_kana p_romaji p_seen p_shown pieces_of]. rewrite A, B, C, <- app_assoc, D.
    do 4 (split; [reflexivity|]). split; [split; [exact T1|exact F]|].
    constructor; [|exact G]. split; [reflexivity|]. left. split; [intros [v V]; exact (O v V)|]. exists c. auto.
Qed.
Lemma app_split {A} (a b c d : list A) : length a = length c -> a ++ b = c ++ d -> a = c /\ b = d.
Proof.
  revert c. induction a as [|x a IH]; intros [|y c] L Q; try discriminate L; [auto|].
  cbn [app] in Q. injection Q as -> Q. injection L as L. destruct (IH c L Q) as [-> ->]. auto.
Qed.
(** if no mark disappears, the pieces stand where they are looked at *)
Lemma pieces_shorter ps : forall a, pieces_of a ps ->
  (length (concat (map p_kana ps)) <= length (concat (map p_text ps)))%nat.
Proof.
  induction ps as [|p ps IH]; intros a H; [apply le_n|]. destruct H as [H1 H2]. apply text_shorter in H1.
  apply IH in H2. cbn [map concat]. rewrite !app_length. lia.
Qed.
Lemma pieces_aligned up ps : forall a rest, pieces_of a ps -> Forall (cut_piece up) ps ->
  length (concat (map p_kana ps)) = length (concat (map p_text ps)) ->
  concat (map p_seen ps) ++ rest = concat (map p_text ps) -> Forall (fun p => p_seen p = p_text p) ps.
Proof.
  induction ps as [|p ps IH]; intros a rest H F L Q; constructor; destruct H as [H1 H2]; apply Forall_inv in F as F1;
    apply Forall_inv_tail in F; destruct F1 as [F1 _]; pose proof (text_shorter _ _ _ H1) as L1;
    pose proof (pieces_shorter _ _ H2) as L2; cbn [map concat] in L, Q; rewrite !app_length in L;
    rewrite <- app_assoc in Q; (apply app_split in Q as [Q1 Q2]; [|lia]); [exact Q1|].
  apply (IH _ rest H2 F); [lia|exact Q2].
Qed.
Lemma uppers_same v : Forall2 uppers v v -> forall c, In c v -> ~ lower_letter c.
Proof.
  intros H c I L. induction v as [|d v IH]; [destruct I|]. inversion H as [|? ? ? ? U H' Q1 Q2]; subst.
  destruct I as [->|I]; [|now apply IH]. destruct U as [[_ U]|[U _]]; [|exact (U L)].
  unfold lower_letter in L. lia.
Qed.
Lemma uppers_none v w : (forall c, In c v -> ~ lower_letter c) -> Forall2 uppers v w -> w = v.
Proof.
  intros N H. induction H as [|a b v w U H IH]; [reflexivity|]. rewrite IH by (intros c I; apply N; now right).
  destruct U as [[U _]|[_ ->]]; [|reflexivity]. destruct (N a (or_introl eq_refl) U).
Qed.
Lemma uppers_none' v : (forall c, In c v -> ~ lower_letter c) -> Forall2 uppers v v.
Proof.
  intro N. induction v as [|a v IH]; constructor; [right; split; [apply N; now left|reflexivity]|].
  apply IH. intros c I. apply N. now right.
Qed.
Lemma kata_dec (s : str) : Forall S_kata s \/ ~ Forall S_kata s.
Proof.
  induction s as [|c s IH]; [left; constructor|].
  assert (D : S_kata c \/ ~ S_kata c) by (unfold S_kata; lia).
  destruct D as [D|D]; [|right; intro H; inversion H; auto].
  destruct IH as [IH|IH]; [left; now constructor|right; intro H; inversion H; auto].
Qed.
Lemma right_case_iff up p : cut_piece up p -> right_case up p <->
  up = false \/ ~ is_key (p_kana p) \/ (forall c, In c (p_romaji p) -> ~ lower_letter c) \/
  (Forall S_kata (p_seen p) <-> Forall S_kata (p_text p)).
Proof.
  intros [_ [[N _]|[I O]]].
  { split; [auto|]. intros _ K. destruct (N K). }
  assert (K : is_key (p_kana p)) by (eexists; exact I).
  unfold right_case, r_output in *. destruct (kata_dec (p_seen p)) as [S|S], (kata_dec (p_text p)) as [T|T].
  - split; [|tauto]. intros _. right. right. right. tauto.
  - split.
    + intro R. destruct (R K) as [(_ & Z & _)|[_ R']]; [tauto|]. destruct O as [(U & _ & O)|[O _]].
      * right. right. left. apply uppers_same. rewrite R' in O; exact O.
      * left. destruct up; [tauto|reflexivity].
    + intros [->|[Z|[Z|Z]]] _; [|tauto| |tauto]; right; (split; [tauto|]); destruct O as [(U & _ & O)|[_ O]]; try exact O.
      * discriminate U.
      * exact (uppers_none _ _ Z O).
  - split.
    + intro R. destruct (R K) as [(U & _ & R')|[Z R']].
      * right. right. left. destruct O as [(_ & Z & _)|[_ O]]; [tauto|]. apply uppers_same. rewrite O in R'. exact R'.
      * left. destruct up; [tauto|reflexivity].
    + intros [->|[Z|[Z|Z]]] _; [|tauto| |tauto]; destruct O as [(_ & Y & _)|[_ O]]; try tauto.
      * right. split; [|exact O]. intros [Y _]. discriminate Y.
      * destruct up; [left|right].
        -- split; [reflexivity|]. split; [exact T|]. rewrite O. now apply uppers_none'.
        -- split; [|exact O]. intros [Y _]. discriminate Y.
  - split; [|tauto]. intros _. right. right. right. tauto.
Qed.

(** ** C30 *)
Lemma k2h_indep E E' d s : std_ok E -> std_ok E' -> ~ In (ch "ヴ") s -> k2h E d s = k2h E' d s.
Proof. intros HE HE' V. eapply hiragana_text_det; [|apply k2h_text, HE|apply k2h_text, HE']. exact V. Qed.
Lemma k2h_no_vu E d s : ~ In (ch "ヴ") s -> ~ In (ch "ゔ") s -> ~ In vu (k2h E d s).
Proof.
  intros V1 V2 I. apply k2h_go_In in I. destruct I as [I|[_ I]].
  - apply in_map_iff in I. destruct I as (c & Q & I). apply k2hc_spec in Q. unfold hiragana_for in Q. symspec.
    unfold vu in Q. assert (c = 0x30F4 \/ c = 0x3094) as [->| ->] by lia; [apply V1|apply V2]; exact I.
  - revert I. change (u "あいうえお") with [0x3042; 0x3044; 0x3046; 0x3048; 0x304A]. unfold vu. cbn [In]. lia.
Qed.
Lemma rom_indep E E' up s : std_ok E -> std_ok E' -> ~ In (ch "ヴ") s -> ~ In (ch "ゔ") s ->
  rconv E up s (k2h E true s) = rconv E' up s (k2h E' true s).
Proof.
  intros HE HE' V1 V2. rewrite <- (k2h_indep E E' true s HE HE' V1).
  apply (romanises_rconv E' up HE'); [|now apply k2h_no_vu].
  apply rconv_romanises; [exact HE|apply k2h_length].
Qed.

(** ** C31 *)
Lemma r_entry_length k v : r_entry k v -> (length v <= 3 * length k)%nat.
Proof.
  assert (H : forallb (fun e => Nat.leb (length (snd e)) (3 * length (fst e))) rdict = true) by (vm_compute; reflexivity).
  rewrite forallb_forall in H. intro I. specialize (H _ I). cbn [fst snd] in H. apply Nat.leb_le in H. exact H.
Qed.
Lemma remit_length up oseg v : length (remit up oseg v) = length v.
Proof. unfold remit. destruct (_ && _); [apply map_length|reflexivity]. Qed.
Lemma rconv_length E up : std_ok E -> forall s o, (length (rconv E up o s) <= 3 * length s)%nat.
Proof.
  intro HE. induction s as [s IH] using str_ind_len. intro o. destruct s as [|c s]; [rewrite rconv_nil; cbn; lia|].
  destruct (rconv_step E up o c s HE) as [(seg & rest & v & Sp & Ns & I & M & ->)|[O ->]].
  - rewrite Sp, !app_length, remit_length. pose proof (r_entry_length seg v I).
    specialize (IH rest). rewrite Sp, app_length in IH. destruct seg; [congruence|]. cbn [length] in *.
    specialize (IH ltac:(lia) (skipn (S (length seg)) o)). lia.
  - cbn [length]. specialize (IH s ltac:(cbn; lia) (skipn 1 o)). lia.
Qed.

(** ** C54 *)
Lemma rom_scalar E up s : std_ok E -> (forall c, In c s -> is_scalar c = true) ->
  forall c, In c (rconv E up s (k2h E true s)) -> is_scalar c = true.
Proof.
  intros HE H c I. apply rconv_In in I; [|exact HE]. destruct I as [[I1 _]|(seg & oseg & v & I1 & I2 & I3)].
  - eapply k2h_scalar; eauto.
  - exact (r_outputs is_scalar ltac:(vm_compute; reflexivity) seg v up oseg c I2 I3).
Qed.

(** ** C25 *)
Lemma rom_script E s s' : std_ok E -> ~ In long_mark s -> ~ In long_mark s' -> map k2hc s = map k2hc s' ->
  rconv E false s (k2h E true s) = rconv E false s' (k2h E true s').
Proof. intros HE H H' Q. rewrite !k2h_no_dash, Q by assumption. now apply rconv_noup. Qed.
