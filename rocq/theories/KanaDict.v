(** * The kana trees hold exactly the specified dictionary; to_kana satisfies its
    specification (C05) *)
From Verif Require Import Tac Base Std Constants Chars Trees KanaTree Convert KanaPure KanaSpec.

Definition mode_of (o : options) : mode :=
  if use_obsolete_kana o then Obsolete else if imemode o then Ime else Default.
Definition tree_of (m : mode) : knode :=
  match m with
  | Default => TO_KANA_NODE_TREE
  | Obsolete => TO_KANA_NODE_TREE_OBSOLETE
  | Ime => TO_KANA_NODE_TREE_IMEMODE
  end.
Lemma k_tree_mode o : k_tree o = tree_of (mode_of o).
Proof. unfold k_tree, mode_of. destruct (use_obsolete_kana o), (imemode o); reflexivity. Qed.
Lemma tree_of_is m : is_kana_tree (tree_of m).
Proof. destruct m; constructor. Qed.

(** ** Boolean membership *)
Definition pair_mem (e : str * str) (l : list (str * str)) : bool :=
  existsb (fun x => str_eqb (fst x) (fst e) && str_eqb (snd x) (snd e)) l.
Lemma pair_mem_In k v l : pair_mem (k, v) l = true -> In (k, v) l.
Proof.
  unfold pair_mem. rewrite existsb_exists. intros ([k' v'] & I & H). cbn in H.
  apply andb_prop in H. destruct H as [H1 H2]. apply str_eqb_eq in H1, H2. now subst.
Qed.
Fixpoint prefixb (p s : str) : bool :=
  match p, s with
  | [], _ => true
  | a :: p', b :: s' => (a =? b) && prefixb p' s'
  | _ :: _, [] => false
  end.
Lemma prefixb_spec p : forall s, prefixb p s = true <-> exists r, s = p ++ r.
Proof.
  induction p as [|a p IH]; intro s; cbn.
  - split; [|reflexivity]. intros _. now exists s.
  - destruct s as [|b s]; [split; [discriminate|intros [r H]; discriminate]|].
    rewrite andb_true_iff, IH, N.eqb_eq. split.
    + intros [-> [r ->]]. now exists r.
    + intros [r H]. inversion H; subst. split; [reflexivity|]. now exists r.
Qed.

(** ** Tree = dictionary *)

Definition dict_in_tree (m : mode) : bool :=
  forallb (fun e => match k_at (tree_of m) (fst e) with
                    | Some n => match kout n with Some o => str_eqb o (snd e) | None => false end
                    | None => false
                    end) (dict m).
Lemma dict_in_tree_ok m : dict_in_tree m = true.
Proof. destruct m; vm_compute; reflexivity. Qed.

Definition tree_in_dict (m : mode) : bool :=
  forallb (fun p => match kout (snd p) with Some o => pair_mem (fst p, o) (dict m) | None => true end)
    (k_flat (tree_of m)).
Lemma tree_in_dict_ok m : tree_in_dict m = true.
Proof. destruct m; vm_compute; reflexivity. Qed.

Definition tree_viable (m : mode) : bool :=
  forallb (fun p => existsb (fun e => prefixb (fst p) (fst e)) (dict m)) (k_flat (tree_of m)).
Lemma tree_viable_ok m : tree_viable m = true.
Proof. destruct m; vm_compute; reflexivity. Qed.

Lemma entry_node m k v :
  entry m k v <-> exists n, k_at (tree_of m) k = Some n /\ kout n = Some v.
Proof.
  split.
  - intro H. pose proof (dict_in_tree_ok m) as D. unfold dict_in_tree in D.
    rewrite forallb_forall in D. specialize (D _ H). cbn [fst snd] in D.
    destruct (k_at (tree_of m) k) as [n|]; [|discriminate]. exists n. split; [reflexivity|].
    destruct (kout n); [|discriminate]. apply str_eqb_eq in D. now subst.
  - intros (n & A & O). apply k_at_flat in A. pose proof (tree_in_dict_ok m) as D.
    unfold tree_in_dict in D. rewrite forallb_forall in D. specialize (D _ A). cbn [fst snd] in D.
    rewrite O in D. now apply pair_mem_In.
Qed.
Lemma node_viable m q n : k_at (tree_of m) q = Some n -> exists k v, entry m (q ++ k) v.
Proof.
  intro A. apply k_at_flat in A. pose proof (tree_viable_ok m) as D.
  unfold tree_viable in D. rewrite forallb_forall in D. specialize (D _ A). cbn [fst] in D.
  apply existsb_exists in D. destruct D as ([k v] & I & P). apply prefixb_spec in P.
  destruct P as [r P]. cbn in P. exists r, v. unfold entry. now rewrite <- P.
Qed.
Lemma entry_functional m k v v' : entry m k v -> entry m k v' -> v = v'.
Proof.
  rewrite !entry_node. intros (n & A & O) (n' & A' & O'). congruence.
Qed.

(** ** Casing *)
Lemma lowers_lower c d : lowers c d <-> ascii_lower c = d.
Proof. unfold lowers, upper_letter, ascii_lower. ifs; split; intro; lia. Qed.
Lemma casing_low p k : casing p k <-> low p = k.
Proof.
  unfold casing, low. split.
  - induction 1 as [|c d p k H _ IH]; [reflexivity|]. cbn. apply lowers_lower in H. congruence.
  - revert k. induction p as [|c p IH]; intros k H; cbn in H; subst; [constructor|].
    constructor; [now apply lowers_lower|]. now apply IH.
Qed.
Lemma is_AZ_spec c : is_AZ c = true <-> upper_letter c.
Proof. unfold is_AZ, upper_letter. lia. Qed.
Lemma all_upper_spec seg : forallb is_AZ seg = true <-> forall c, In c seg -> upper_letter c.
Proof.
  rewrite forallb_forall. split; intros H c I; apply is_AZ_spec, H, I.
Qed.
Lemma h2k_char_spec h k : katakana_for h k <-> h2k_char h = k.
Proof.
  unfold katakana_for, h2k_char, is_char_hiragana.
  destruct (is_char_long_dash h) eqn:A; cbn [orb]; charspec; ifs; split; intro; lia.
Qed.
Lemma h2k_spec v out : Forall2 katakana_for v out <-> h2k v = out.
Proof.
  unfold h2k. split.
  - induction 1 as [|c d p k H _ IH]; [reflexivity|]. cbn. apply h2k_char_spec in H. congruence.
  - revert out. induction v as [|c v IH]; intros out H; cbn in H; subst; [constructor|].
    constructor; [now apply h2k_char_spec|]. now apply IH.
Qed.
Lemma cased_output_emit seg v out : cased_output seg v out <-> out = emit seg v.
Proof.
  unfold cased_output, emit. rewrite h2k_spec.
  pose proof (all_upper_spec seg) as A. destruct (forallb is_AZ seg).
  - assert (U := proj1 A eq_refl). split; [intros [[_ H]|[H _]]; [now symmetry|contradiction]|].
    intros ->. left. auto.
  - assert (~ (forall c, In c seg -> upper_letter c)) by (intro U; apply A in U; discriminate).
    split; [intros [[H' _]|[_ H']]; [contradiction|exact H']|]. intros ->. right. auto.
Qed.

(** ** Conversion lemmas *)
Lemma low_app a b : low (a ++ b) = low a ++ low b.
Proof. apply map_app. Qed.
Lemma low_length a : length (low a) = length a.
Proof. apply map_length. Qed.

Lemma kconv_hit m seg rest n v : seg <> [] ->
  k_at (tree_of m) (low seg) = Some n -> kout n = Some v ->
  match rest with [] => True | c :: _ => k_find n (ascii_lower c) = None end ->
  kconv (tree_of m) (seg ++ rest) = emit seg v ++ kconv (tree_of m) rest.
Proof.
  intros N A O R. destruct seg as [|c seg]; [congruence|].
  change ((c :: seg) ++ rest) with (c :: (seg ++ rest)). rewrite kconv_cons.
  assert (K : kw (tree_of m) (c :: seg ++ rest) = (n, length (c :: seg)))
    by (apply (kw_intro _ (c :: seg) rest); assumption).
  unfold kstep. rewrite K. cbn [length]. rewrite O. cbn [fst snd].
  change (c :: seg ++ rest) with ((c :: seg) ++ rest).
  change (S (length seg)) with (length (c :: seg)).
  rewrite firstn_app, firstn_all, Nat.sub_diag, skipn_app, skipn_all, Nat.sub_diag.
  cbn [firstn skipn app]. now rewrite app_nil_r.
Qed.

(** the two possible steps *)
Lemma kconv_step m c s :
  (exists seg rest n v, c :: s = seg ++ rest /\ seg <> [] /\
     kw (tree_of m) (c :: s) = (n, length seg) /\
     k_at (tree_of m) (low seg) = Some n /\ kout n = Some v /\
     match rest with [] => True | d :: _ => k_find n (ascii_lower d) = None end /\
     kconv (tree_of m) (c :: s) = emit seg v ++ kconv (tree_of m) rest)
  \/ (kout (fst (kw (tree_of m) (c :: s))) = None /\
      kconv (tree_of m) (c :: s) = c :: kconv (tree_of m) s).
Proof.
  destruct (kw (tree_of m) (c :: s)) as [n i] eqn:K.
  destruct (kw_spec _ _ _ _ K) as (L & A & R).
  destruct (kout n) as [v|] eqn:O.
  - left. destruct i as [|i].
    { cbn in A. inversion A; subst. rewrite (root_no_output _ (tree_of_is m)) in O. discriminate. }
    set (seg := firstn (S i) (c :: s)) in *. set (rest := skipn (S i) (c :: s)) in *.
    assert (Sp : c :: s = seg ++ rest) by (symmetry; apply firstn_skipn).
    assert (Ls : length seg = S i) by (apply firstn_length_le; exact L).
    exists seg, rest, n, v. split; [exact Sp|]. split; [intro Z; rewrite Z in Ls; discriminate|].
    split; [now rewrite Ls|]. split; [exact A|]. split; [exact O|]. split; [exact R|].
    rewrite Sp. apply (kconv_hit m seg rest n v); auto. intro Z; rewrite Z in Ls; discriminate.
  - right. split; [exact O|]. rewrite kconv_cons. unfold kstep. rewrite K, O. destruct i; reflexivity.
Qed.

(** ** C05 *)
Lemma viable_spec m p : viable m p <-> exists n, k_at (tree_of m) (low p) = Some n.
Proof.
  unfold viable. split.
  - intros (q & k & v & C & I). apply casing_low in C. subst q. apply entry_node in I.
    destruct I as (n & A & _). rewrite k_at_app in A.
    destruct (k_at (tree_of m) (low p)) as [x|]; [eauto|discriminate].
  - intros [n A]. destruct (node_viable m _ _ A) as (k & v & I).
    exists (low p), k, v. split; [now apply casing_low|exact I].
Qed.

Lemma longest_spec m p s : longest m p s <-> p = firstn (snd (kw (tree_of m) s)) s.
Proof.
  destruct (kw (tree_of m) s) as [n i] eqn:K. cbn [snd].
  destruct (kw_spec _ _ _ _ K) as (L & A & R).
  assert (Max : forall p' r', s = p' ++ r' -> viable m p' -> (length p' <= i)%nat).
  { intros p' r' E V. apply viable_spec in V. destruct V as [x V].
    destruct (Nat.leb (length p') i) eqn:G; [lia|]. exfalso.
    rewrite <- (firstn_skipn i s) in E. destruct (skipn i s) as [|d r] eqn:Q.
    { apply (f_equal (@length _)) in E. rewrite !app_length, firstn_length in E. cbn in E. lia. }
    assert (exists p2, p' = firstn i s ++ d :: p2) as [p2 ->].
    { clear - E G L. assert (Lf : length (firstn i s) = i) by (apply firstn_length_le; lia).
      set (f := firstn i s) in *. clearbody f. clear L. revert p' E G Lf. revert i.
      induction f as [|a f IH]; intros i p' E G Lf.
      - destruct p' as [|b p']; [cbn in *; lia|]. cbn in E. inversion E; subst. now exists p'.
      - destruct i as [|i]; [discriminate|]. destruct p' as [|b p']; [cbn in *; lia|].
        cbn in E. inversion E; subst.
        destruct (IH i p') as [p2 ->]; [assumption|exact G|cbn in Lf; lia|]. now exists p2. }
    rewrite low_app, k_at_app, A in V. cbn in V. rewrite R in V. discriminate. }
  assert (V0 : viable m (firstn i s)) by (apply viable_spec; eauto).
  split.
  - intros ((r & E) & V & M). specialize (M (firstn i s) (skipn i s)).
    rewrite firstn_skipn in M. specialize (M eq_refl V0).
    pose proof (Max _ _ E V) as B. rewrite firstn_length_le in M by exact L.
    assert (length p = i) by lia. subst s. rewrite <- H. rewrite firstn_app, firstn_all, Nat.sub_diag.
    cbn. now rewrite app_nil_r.
  - intros ->. split; [exists (skipn i s); symmetry; apply firstn_skipn|]. split; [exact V0|].
    intros p' r' E V. rewrite firstn_length_le by exact L. eapply Max; eauto.
Qed.

Lemma converts_kconv m s : converts m s (kconv (tree_of m) s).
Proof.
  induction s as [s IH] using str_ind_len. destruct s as [|c s]; [constructor|].
  destruct (kconv_step m c s) as [(seg & rest & n & v & Sp & N & K & A & O & R & ->)|[O ->]].
  - rewrite Sp. apply cv_hit with (k := low seg) (v := v).
    + rewrite <- Sp. apply longest_spec. rewrite K, Sp. cbn [snd].
      rewrite firstn_app, firstn_all, Nat.sub_diag. cbn. now rewrite app_nil_r.
    + now apply casing_low.
    + apply entry_node. eauto.
    + now apply cased_output_emit.
    + apply IH. rewrite Sp, app_length. destruct seg; [congruence|]. cbn. lia.
  - apply cv_miss; [|apply IH; cbn; lia].
    intros p k v Lp Cp I. apply casing_low in Cp. subst k. apply longest_spec in Lp.
    destruct (kw (tree_of m) (c :: s)) as [n i] eqn:K. cbn [fst snd] in *.
    destruct (kw_spec _ _ _ _ K) as (_ & A & _). subst p. apply entry_node in I.
    destruct I as (n' & A' & O'). congruence.
Qed.

Lemma converts_unique m s out : converts m s out -> out = kconv (tree_of m) s.
Proof.
  induction 1 as [|p rest k v out out' Lp Cp I Co _ IH|c rest out Ms _ IH]; [reflexivity| |].
  - apply casing_low in Cp. subst k. apply cased_output_emit in Co. subst out out'.
    apply longest_spec in Lp. destruct (kw (tree_of m) (p ++ rest)) as [n i] eqn:K.
    destruct (kw_spec _ _ _ _ K) as (L & A & R). cbn [snd] in Lp.
    apply entry_node in I. destruct I as (n' & A' & O'). rewrite <- Lp in A.
    assert (n' = n) by congruence. subst n'.
    assert (i = length p).
    { apply (f_equal (@length _)) in Lp. rewrite firstn_length_le in Lp by exact L. congruence. }
    subst i. rewrite skipn_app, skipn_all, Nat.sub_diag in R. cbn in R.
    symmetry. apply kconv_hit with (n := n); auto.
    intros ->. cbn in A. inversion A; subst. rewrite (root_no_output _ (tree_of_is m)) in O'. discriminate.
  - destruct (kconv_step m c rest) as [(seg & rest' & n & v & Sp & N & K & A & O & R & E)|[_ ->]].
    + exfalso. apply (Ms seg (low seg) v).
      * apply longest_spec. rewrite K, Sp. cbn [snd].
        rewrite firstn_app, firstn_all, Nat.sub_diag. cbn. now rewrite app_nil_r.
      * now apply casing_low.
      * apply entry_node. eauto.
    + now rewrite IH.
Qed.

Theorem converts_iff m s out : converts m s out <-> out = kconv (tree_of m) s.
Proof. split; [apply converts_unique|intros ->; apply converts_kconv]. Qed.

Theorem to_kana_converts E s o out : std_ok E ->
  (to_kana_with_opt E s o = Ok out <-> converts (mode_of o) s out).
Proof.
  intro HE. rewrite to_kana_with_opt_eq by exact HE. rewrite converts_iff, k_tree_mode.
  split; congruence.
Qed.
