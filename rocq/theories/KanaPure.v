(** * to_kana without panics and fuel

    Pure, standard-library-independent forms of the kana walk and of to_kana, and
    the proof that the model of the code computes them. *)
From Verif Require Export Tac.
From Coq Require Import List.
From Verif Require Import Base Std Constants Chars Trees KanaTree Convert.

(** ** Nodes at a path *)
Fixpoint k_at (n : knode) (key : str) : option knode :=
  match key with
  | [] => Some n
  | c :: key' => match k_find n c with Some m => k_at m key' | None => None end
  end.

(** all (path, node) pairs of a tree *)
Fixpoint k_flat (n : knode) : list (str * knode) :=
  match n with
  | KNode ts o =>
    ([], n) :: flat_map (fun t => match t with (c, m) =>
                           map (fun p => (c :: fst p, snd p)) (k_flat m) end) ts
  end.

Lemma k_find_In n c m : k_find n c = Some m -> In (c, m) (ktrans n).
Proof.
  unfold k_find. destruct (find _ _) as [[d x]|] eqn:F; cbn; [|discriminate].
  intro H. inversion H; subst. apply find_some in F. destruct F as [F1 F2].
  cbn in F2. apply N.eqb_eq in F2. now subst.
Qed.

Lemma k_find_None n c : k_find n c = None -> ~ In c (map fst (ktrans n)).
Proof.
  unfold k_find. destruct (find _ _) as [[d x]|] eqn:F; cbn; [discriminate|].
  intros _ I. apply in_map_iff in I. destruct I as [[d x] [E I]]. cbn in E. subst.
  apply (find_none _ _ F) in I. cbn in I. rewrite N.eqb_refl in I. discriminate.
Qed.

Lemma k_flat_here n : In ([], n) (k_flat n).
Proof. destruct n. cbn. now left. Qed.

Lemma k_flat_step n c m key x :
  In (c, m) (ktrans n) -> In (key, x) (k_flat m) -> In (c :: key, x) (k_flat n).
Proof.
  destruct n as [ts o]. cbn. intros H1 H2. right. apply in_flat_map.
  exists (c, m). split; [exact H1|]. apply in_map_iff. exists (key, x). auto.
Qed.

Lemma k_at_flat key : forall n m, k_at n key = Some m -> In (key, m) (k_flat n).
Proof.
  induction key as [|c key IH]; cbn; intros n m H.
  - inversion H; subst. apply k_flat_here.
  - destruct (k_find n c) as [x|] eqn:F; [|discriminate].
    eapply k_flat_step; [apply k_find_In, F|]. auto.
Qed.

Lemma k_at_app n k1 : forall k2,
  k_at n (k1 ++ k2) = match k_at n k1 with Some m => k_at m k2 | None => None end.
Proof.
  revert n. induction k1 as [|c k1 IH]; intros n k2; cbn; [reflexivity|].
  destruct (k_find n c); auto.
Qed.

(** ** The walk of [get] *)
Definition low (s : str) : str := map ascii_lower s.

(** longest descent: node reached, characters consumed *)
Fixpoint kw (n : knode) (s : str) : knode * nat :=
  match s with
  | [] => (n, 0%nat)
  | c :: rest =>
    match k_find n (ascii_lower c) with
    | Some m => let (x, i) := kw m rest in (x, S i)
    | None => (n, 0%nat)
    end
  end.

Lemma k_walk_kw s : forall n i, k_walk n s i = (fst (kw n s), (i + snd (kw n s))%nat).
Proof.
  induction s as [|c s IH]; intros n i; cbn.
  - f_equal. lia.
  - destruct (k_find n (ascii_lower c)) as [m|]; cbn.
    + rewrite IH. destruct (kw m s). cbn. f_equal. lia.
    + f_equal. lia.
Qed.

Lemma kw_spec s : forall n m i, kw n s = (m, i) ->
  (i <= length s)%nat /\ k_at n (low (firstn i s)) = Some m /\
  match skipn i s with [] => True | c :: _ => k_find m (ascii_lower c) = None end.
Proof.
  induction s as [|c s IH]; intros n m i H; cbn in H.
  - inversion H; subst. cbn. auto.
  - destruct (k_find n (ascii_lower c)) as [x|] eqn:F.
    + destruct (kw x s) as [y j] eqn:K. inversion H; subst.
      destruct (IH _ _ _ K) as (A & B & C). cbn. rewrite F. split; [lia|]. auto.
    + inversion H; subst. cbn. rewrite F. split; [lia|auto].
Qed.

(** conversely, a path that cannot be extended is the walk *)
Lemma kw_intro n s rest m :
  k_at n (low s) = Some m ->
  match rest with [] => True | c :: _ => k_find m (ascii_lower c) = None end ->
  kw n (s ++ rest) = (m, length s).
Proof.
  revert n. induction s as [|c s IH]; intros n H R; cbn in *.
  - inversion H; subst. destruct rest as [|d rest]; cbn; [reflexivity|]. now rewrite R.
  - destruct (k_find n (ascii_lower c)) as [x|]; [|discriminate].
    rewrite (IH x H R). reflexivity.
Qed.

Lemma k_get_kw n s : k_get n s =
  match kout (fst (kw n s)) with
  | Some o => (Some o, snd (kw n s))
  | None => (None, 0%nat)
  end.
Proof.
  unfold k_get. rewrite k_walk_kw. cbn. destruct (kout (fst (kw n s))); reflexivity.
Qed.

(** ** Katakana shift *)
Definition h2k_char (c : char) : char :=
  if is_char_long_dash c || is_char_slash_dot c then c
  else if is_char_hiragana c then c + 96 else c.
Definition h2k (s : str) : str := map h2k_char s.

Ltac charspec :=
  unfold is_char_long_dash, is_char_slash_dot, is_char_hiragana, is_char_katakana,
    is_char_in_range, PROLONGED_SOUND_MARK, KANA_SLASH_DOT, HIRAGANA_START, HIRAGANA_END,
    KATAKANA_START, KATAKANA_END in *.

Lemma hiragana_to_katakana_ok s : hiragana_to_katakana s = Ok (h2k s).
Proof.
  induction s as [|c s IH]; [reflexivity|]. cbn [hiragana_to_katakana h2k map].
  rewrite IH. unfold h2k_char.
  destruct (is_char_long_dash c || is_char_slash_dot c) eqn:A; [reflexivity|].
  destruct (is_char_hiragana c) eqn:B; [|reflexivity].
  change (KATAKANA_START - HIRAGANA_START) with 96.
  assert (S : is_scalar (c + 96) = true).
  { apply orb_false_iff in A. destruct A as [A _]. unfold is_char_hiragana in B. rewrite A in B.
    charspec. unfold is_scalar. apply andb_prop in B. destruct B as [B1 B2].
    apply N.leb_le in B1, B2. apply orb_true_iff. left. apply N.ltb_lt. lia. }
  unfold from_u32. rewrite S. reflexivity.
Qed.

(** ** Pure conversion *)
Definition is_AZ (c : char) : bool := (0x41 <=? c) && (c <=? 0x5A).
(** text emitted for a matched segment *)
Definition emit (seg o : str) : str := if forallb is_AZ seg then h2k o else o.

Definition kstep (t : knode) (c : char) (rest : str) : str * str :=
  let s := c :: rest in
  match kw t s with
  | (m, S i) =>
    match kout m with
    | Some o => (emit (firstn (S i) s) o, skipn (S i) s)
    | None => ([c], rest)
    end
  | (_, O) => ([c], rest)
  end.

Fixpoint kconv_f (fuel : nat) (t : knode) (s : str) : str :=
  match fuel, s with
  | S f, c :: rest => fst (kstep t c rest) ++ kconv_f f t (snd (kstep t c rest))
  | _, _ => []
  end.
Definition kconv (t : knode) (s : str) : str := kconv_f (length s) t s.
Arguments kconv : simpl never.

Lemma kstep_shorter t c rest : (length (snd (kstep t c rest)) <= length rest)%nat.
Proof.
  unfold kstep. destruct (kw t (c :: rest)) as [m [|i]]; cbn; [lia|].
  destruct (kout m); cbn; [|lia]. rewrite skipn_length. lia.
Qed.

Lemma kconv_f_enough t : forall f s, (length s <= f)%nat -> kconv_f f t s = kconv t s.
Proof.
  unfold kconv.
  assert (H : forall n f g s, (length s <= n)%nat -> (length s <= f)%nat -> (length s <= g)%nat ->
              kconv_f f t s = kconv_f g t s).
  { induction n as [|n IH]; intros f g s Hn Hf Hg.
    - destruct s; [|cbn in Hn; lia]. destruct f, g; reflexivity.
    - destruct s as [|c s]; [destruct f, g; reflexivity|].
      destruct f as [|f]; [cbn in Hf; lia|]. destruct g as [|g]; [cbn in Hg; lia|].
      cbn [kconv_f]. f_equal. pose proof (kstep_shorter t c s). cbn in Hn, Hf, Hg.
      apply IH; lia. }
  intros f s Hf. apply (H (length s)); lia.
Qed.

Lemma kconv_nil t : kconv t [] = [].
Proof. reflexivity. Qed.

Lemma kconv_cons t c s : kconv t (c :: s) = fst (kstep t c s) ++ kconv t (snd (kstep t c s)).
Proof.
  unfold kconv at 1. cbn [length kconv_f]. f_equal.
  apply kconv_f_enough. apply kstep_shorter.
Qed.

(** strong induction on a text *)
Lemma str_ind_len (P : str -> Prop) :
  (forall s, (forall s', (length s' < length s)%nat -> P s') -> P s) -> forall s, P s.
Proof.
  intros H s. remember (length s) as n eqn:E.
  assert (L : (length s <= n)%nat) by lia. clear E. revert s L.
  induction n as [|n IH]; intros s L; apply H; intros s' L'.
  - lia.
  - apply IH. lia.
Qed.

Lemma kconv_ind t (P : str -> Prop) :
  P [] -> (forall c s, P (snd (kstep t c s)) -> P (c :: s)) -> forall s, P s.
Proof.
  intros H0 H1. apply str_ind_len. intros [|c s] IH; [exact H0|].
  apply H1, IH. pose proof (kstep_shorter t c s). cbn. lia.
Qed.

(** ** Finite facts about the three trees *)
Definition k_tree (o : options) : knode :=
  if use_obsolete_kana o then TO_KANA_NODE_TREE_OBSOLETE
  else if imemode o then TO_KANA_NODE_TREE_IMEMODE
  else TO_KANA_NODE_TREE.

Inductive is_kana_tree : knode -> Prop :=
| kt_default : is_kana_tree TO_KANA_NODE_TREE
| kt_obsolete : is_kana_tree TO_KANA_NODE_TREE_OBSOLETE
| kt_ime : is_kana_tree TO_KANA_NODE_TREE_IMEMODE.

Lemma k_tree_is o : is_kana_tree (k_tree o).
Proof. unfold k_tree. destruct (use_obsolete_kana o), (imemode o); constructor. Qed.

Lemma kana_tree_ok o : kana_tree o = Ok (k_tree o).
Proof.
  unfold kana_tree, k_tree. destruct (use_obsolete_kana o); [apply obsolete_init_ok|].
  destruct (imemode o); [apply imemode_init_ok|reflexivity].
Qed.

(** a boolean fact about every (path, node) pair of the three trees *)
Lemma kana_trees_check (P : str * knode -> bool) :
  forallb P (k_flat TO_KANA_NODE_TREE) = true ->
  forallb P (k_flat TO_KANA_NODE_TREE_OBSOLETE) = true ->
  forallb P (k_flat TO_KANA_NODE_TREE_IMEMODE) = true ->
  forall t key m, is_kana_tree t -> k_at t key = Some m -> P (key, m) = true.
Proof.
  intros H1 H2 H3 t key m K A. apply k_at_flat in A.
  rewrite forallb_forall in H1, H2, H3. destruct K; auto.
Qed.

(** keys are ASCII, except for the four quotes, whose output has no hiragana *)
Definition ascii_or_fixed (p : str * knode) : bool :=
  forallb (fun c => c <? 128) (fst p)
  || match kout (snd p) with Some o => str_eqb (h2k o) o | None => true end.
Lemma ascii_or_fixed_ok t key m : is_kana_tree t -> k_at t key = Some m ->
  ascii_or_fixed (key, m) = true.
Proof. apply kana_trees_check; vm_compute; reflexivity. Qed.

Lemma ascii_lower_small c : ascii_lower c < 128 -> c < 128.
Proof.
  unfold ascii_lower. destruct (_ && _) eqn:A; [|auto].
  apply andb_prop in A. destruct A as [_ A]. apply N.leb_le in A. lia.
Qed.

(** the root has no output in any tree *)
Lemma root_no_output t : is_kana_tree t -> kout t = None.
Proof. intros []; vm_compute; reflexivity. Qed.

Lemma emit_std E t seg m o : std_ok E -> is_kana_tree t ->
  k_at t (low seg) = Some m -> kout m = Some o ->
  (if forallb (is_upper E) seg then h2k o else o) = emit seg o.
Proof.
  intros HE HT A O. pose proof (ascii_or_fixed_ok t _ _ HT A) as Q.
  unfold ascii_or_fixed in Q. cbn in Q. rewrite O in Q. apply orb_prop in Q.
  unfold emit. destruct Q as [Q|Q].
  - replace (forallb is_AZ seg) with (forallb (is_upper E) seg); [reflexivity|].
    clear A. induction seg as [|c seg IH]; [reflexivity|].
    cbn in Q |- *. apply andb_prop in Q. destruct Q as [Q1 Q2].
    rewrite (IH Q2). apply N.ltb_lt in Q1. apply ascii_lower_small in Q1.
    rewrite (ok_is_upper E HE c Q1). reflexivity.
  - apply str_eqb_eq in Q. rewrite Q. destruct (forallb _ seg), (forallb _ seg); reflexivity.
Qed.

Lemma slice_from_app {A} (pre rest : list A) : slice_from (pre ++ rest) (length pre) = Ok rest.
Proof.
  unfold slice_from. rewrite app_length. replace (Nat.leb _ _) with true.
  - rewrite skipn_app, skipn_all, Nat.sub_diag. reflexivity.
  - symmetry. apply Nat.leb_le. lia.
Qed.
Lemma slice_app {A} (pre rest : list A) n : (n <= length rest)%nat ->
  slice (pre ++ rest) (length pre) (length pre + n) = Ok (firstn n rest).
Proof.
  intro H. unfold slice. rewrite app_length.
  replace (_ && _) with true.
  - rewrite skipn_app, skipn_all, Nat.sub_diag. cbn.
    replace (length pre + n - length pre)%nat with n by lia. reflexivity.
  - symmetry. apply andb_true_iff. split; apply Nat.leb_le; lia.
Qed.
Lemma index_app {A} (pre rest : list A) a : index (pre ++ a :: rest) (length pre) = Ok a.
Proof.
  unfold index. rewrite nth_error_app2, Nat.sub_diag by lia. reflexivity.
Qed.

(** ** The code computes [kconv] *)
Lemma to_kana_loop_ok E o (HE : std_ok E) : forall fuel pre rest out,
  (length rest < fuel)%nat ->
  to_kana_loop fuel E o (pre ++ rest) (length pre) out = Ok (out ++ kconv (k_tree o) rest).
Proof.
  induction fuel as [|fuel IH]; intros pre rest out Hf; [lia|].
  cbn [to_kana_loop]. destruct rest as [|c rest].
  - rewrite app_length. cbn. rewrite Nat.add_0_r, Nat.eqb_refl, kconv_nil, !app_nil_r. reflexivity.
  - replace (Nat.eqb (length pre) (length (pre ++ c :: rest))) with false.
    2:{ symmetry. apply Nat.eqb_neq. rewrite app_length. cbn. lia. }
    rewrite kana_tree_ok. cbn [bind]. rewrite slice_from_app. cbn [bind].
    rewrite k_get_kw, kconv_cons. unfold kstep.
    destruct (kw (k_tree o) (c :: rest)) as [m i] eqn:K. cbn [fst snd].
    destruct (kw_spec _ _ _ _ K) as (B1 & B2 & B3).
    pose proof (root_no_output _ (k_tree_is o)) as R0.
    assert (Step1 : forall out', to_kana_loop fuel E o (pre ++ c :: rest) (length pre + 1) out'
                     = Ok (out' ++ kconv (k_tree o) rest)).
    { intro out'. replace (pre ++ c :: rest) with ((pre ++ [c]) ++ rest) by (now rewrite <- app_assoc).
      replace (length pre + 1)%nat with (length (pre ++ [c])) by (rewrite app_length; reflexivity).
      apply IH. cbn in Hf. lia. }
    destruct (kout m) as [oo|] eqn:KO; cbn [fst snd].
    + destruct i as [|i].
      { cbn in B2. inversion B2; subst. congruence. }
      cbn [Nat.eqb orb]. rewrite slice_app by exact B1. cbn [bind unwrap].
      set (seg := firstn (S i) (c :: rest)) in *.
      set (rest' := skipn (S i) (c :: rest)) in *.
      assert (Sp : c :: rest = seg ++ rest') by (symmetry; apply firstn_skipn).
      assert (Ls : length seg = S i) by (apply firstn_length_le; exact B1).
      assert (Step2 : forall out', to_kana_loop fuel E o (pre ++ c :: rest) (length pre + S i) out'
                     = Ok (out' ++ kconv (k_tree o) rest')).
      { intro out'. rewrite Sp, app_assoc.
        replace (length pre + S i)%nat with (length (pre ++ seg)) by (rewrite app_length; lia).
        apply IH. apply (f_equal (@length N)) in Sp. rewrite app_length in Sp. cbn [length] in Sp, Hf. lia. }
      rewrite <- (emit_std E (k_tree o) seg m oo HE (k_tree_is o) B2 KO).
      rewrite hiragana_to_katakana_ok. cbn [bind].
      destruct (forallb (is_upper E) seg); rewrite Step2, <- app_assoc; reflexivity.
    + cbn [Nat.eqb orb]. rewrite index_app. cbn [bind]. rewrite Step1.
      destruct i; cbn [fst snd]; rewrite <- app_assoc; reflexivity.
Qed.

Theorem to_kana_with_opt_eq E o s : std_ok E -> to_kana_with_opt E s o = Ok (kconv (k_tree o) s).
Proof.
  intro HE. unfold to_kana_with_opt. apply (to_kana_loop_ok E o HE _ [] s []). lia.
Qed.
