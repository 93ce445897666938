(** * The counted loops are the loops of the model, and how much they do (C90) *)
From Verif Require Export Tac.
From Verif Require Import Base Std Constants Chars Trees KanaTree RomajiTree Strings Convert
  KanaPure RomajiPure KanaSpec ScriptSpec Predicates ScriptProofs Cost CostSpec.

(** ** to_kana *)
Definition steps (i n : nat) : nat := if Nat.eqb i n then i else S i.
Lemma k_walk_count_kw s : forall n i l, k_walk_count n s i l =
  (fst (kw n s), (i + snd (kw n s))%nat, (l + steps (snd (kw n s)) (length s))%nat).
Proof.
  unfold steps. induction s as [|c s IH]; intros n i l; cbn.
  - f_equal; [f_equal|]; lia.
  - destruct (k_find n (ascii_lower c)) as [m|]; cbn.
    + rewrite IH. destruct (kw m s) as [x j]. cbn. destruct (Nat.eqb j (length s)); f_equal; try f_equal; lia.
    + f_equal; [f_equal|]; lia.
Qed.
Lemma steps_bounds i n : (i <= n)%nat -> (1 <= n)%nat -> (i <= steps i n <= S i)%nat /\ (1 <= steps i n)%nat.
Proof. unfold steps. destruct (Nat.eqb i n) eqn:Q; [apply Nat.eqb_eq in Q|]; lia. Qed.

(** the lookups of the whole text *)
Definition klook_step (t : knode) (c : char) (rest : str) : nat := steps (snd (kw t (c :: rest))) (length (c :: rest)).
Fixpoint klook_f (fuel : nat) (t : knode) (s : str) : nat :=
  match fuel, s with
  | S f, c :: rest => klook_step t c rest + klook_f f t (snd (kstep t c rest))
  | _, _ => 0
  end.
Definition klook (t : knode) (s : str) : nat := klook_f (length s) t s.
Lemma klook_f_enough t : forall f s, (length s <= f)%nat -> klook_f f t s = klook t s.
Proof.
  unfold klook.
  assert (H : forall n f g s, (length s <= n)%nat -> (length s <= f)%nat -> (length s <= g)%nat ->
              klook_f f t s = klook_f g t s).
  { induction n as [|n IH]; intros f g s Hn Hf Hg.
    - destruct s; [|cbn in Hn; lia]. destruct f, g; reflexivity.
    - destruct s as [|c s]; [destruct f, g; reflexivity|].
      destruct f as [|f]; [cbn in Hf; lia|]. destruct g as [|g]; [cbn in Hg; lia|].
      cbn [klook_f]. f_equal. pose proof (kstep_shorter t c s). cbn in Hn, Hf, Hg.
      apply IH; lia. }
  intros f s Hf. apply (H (length s)); lia.
Qed.
Lemma klook_cons t c s : klook t (c :: s) = (klook_step t c s + klook t (snd (kstep t c s)))%nat.
Proof.
  unfold klook at 1. cbn [length klook_f]. f_equal. apply klook_f_enough. apply kstep_shorter.
Qed.
Arguments klook : simpl never.

Lemma to_kana_loop_count_ok E o (HE : std_ok E) : forall fuel pre rest out l0,
  (length rest < fuel)%nat ->
  to_kana_loop_count fuel E o (pre ++ rest) (length pre) out l0
    = Ok (out ++ kconv (k_tree o) rest, (l0 + klook (k_tree o) rest)%nat).
Proof.
  induction fuel as [|fuel IH]; intros pre rest out l0 Hf; [lia|].
  cbn [to_kana_loop_count]. destruct rest as [|c rest].
  - rewrite app_length. cbn. rewrite Nat.add_0_r, Nat.eqb_refl, kconv_nil, !app_nil_r.
    f_equal. f_equal. unfold klook. cbn. lia.
  - replace (Nat.eqb (length pre) (length (pre ++ c :: rest))) with false.
    2:{ symmetry. apply Nat.eqb_neq. rewrite app_length. cbn. lia. }
    rewrite kana_tree_ok. cbn [bind]. rewrite slice_from_app. cbn [bind].
    rewrite kconv_cons, klook_cons. unfold klook_step, kstep, k_get_count. rewrite k_walk_count_kw.
    destruct (kw (k_tree o) (c :: rest)) as [m i] eqn:K. cbn [fst snd Nat.add].
    destruct (kw_spec _ _ _ _ K) as (B1 & B2 & B3).
    pose proof (root_no_output _ (k_tree_is o)) as R0.
    set (sb := steps i (length (c :: rest))) in *. clearbody sb.
    assert (Step1 : forall out' l1, to_kana_loop_count fuel E o (pre ++ c :: rest) (length pre + 1) out' l1
                     = Ok (out' ++ kconv (k_tree o) rest, (l1 + klook (k_tree o) rest)%nat)).
    { intros out' l1. replace (pre ++ c :: rest) with ((pre ++ [c]) ++ rest) by (now rewrite <- app_assoc).
      replace (length pre + 1)%nat with (length (pre ++ [c])) by (rewrite app_length; reflexivity).
      apply IH. cbn in Hf. lia. }
    destruct (kout m) as [oo|] eqn:KO; cbn [fst snd].
    + destruct i as [|i].
      { cbn in B2. inversion B2; subst. congruence. }
      cbn [Nat.eqb orb]. rewrite slice_app by exact B1. cbn [bind unwrap].
      set (seg := firstn (S i) (c :: rest)) in *.
      set (rest' := skipn (S i) (c :: rest)) in *.
      assert (Sp : c :: rest = seg ++ rest') by (symmetry; apply firstn_skipn).
      assert (Ls : length seg = S i) by (apply firstn_length_le; exact B1).
      assert (Lr : S (length rest) = (S i + length rest')%nat).
      { apply (f_equal (@length N)) in Sp. rewrite app_length in Sp. cbn [length] in Sp. lia. }
      assert (Step2 : forall out' l1, to_kana_loop_count fuel E o (pre ++ c :: rest) (length pre + S i) out' l1
                     = Ok (out' ++ kconv (k_tree o) rest', (l1 + klook (k_tree o) rest')%nat)).
      { intros out' l1. rewrite Sp, app_assoc.
        replace (length pre + S i)%nat with (length (pre ++ seg)) by (rewrite app_length; lia).
        apply IH. cbn [length] in Hf. lia. }
      rewrite <- (emit_std E (k_tree o) seg m oo HE (k_tree_is o) B2 KO).
      rewrite hiragana_to_katakana_ok. cbn [bind fst snd].
      destruct (forallb (is_upper E) seg); rewrite Step2, <- app_assoc; f_equal; f_equal; lia.
    + cbn [Nat.eqb orb]. rewrite index_app. cbn [bind]. rewrite Step1.
      destruct i; cbn [fst snd]; rewrite <- app_assoc; f_equal; f_equal; lia.
Qed.

(** *** Bounds *)
(** how a step ends: with [i] characters read, at [m] *)
Lemma klook_step_spec t c s : is_kana_tree t -> exists m i, kw t (c :: s) = (m, i) /\
  (i <= S (length s))%nat /\ k_at t (low (firstn i (c :: s))) = Some m /\
  (klook t (c :: s) <= S i + klook t (snd (kstep t c s)))%nat /\ (i <= klook_step t c s)%nat /\ (1 <= klook_step t c s)%nat /\
  ((exists o, kout m = Some o /\ (1 <= i)%nat /\ snd (kstep t c s) = skipn i (c :: s)) \/ (kout m = None /\ snd (kstep t c s) = s)).
Proof.
  intro T. pose proof (klook_cons t c s) as Q. unfold klook_step in *. unfold kstep in *.
  destruct (kw t (c :: s)) as [m i] eqn:K. exists m, i. cbn [snd] in *.
  destruct (kw_spec _ _ _ _ K) as (B1 & B2 & _). pose proof (steps_bounds i (length (c :: s)) B1 ltac:(cbn; lia)) as SB.
  split; [reflexivity|]. split; [exact B1|]. split; [exact B2|]. split; [lia|]. split; [lia|]. split; [lia|].
  destruct (kout m) as [o|] eqn:O.
  - left. exists o. split; [reflexivity|]. destruct i as [|i]; [|split; [lia|reflexivity]].
    cbn in B2. injection B2 as <-. now rewrite (root_no_output t T) in O.
  - right. split; [reflexivity|]. destruct i; reflexivity.
Qed.
Lemma klook_lower t s : is_kana_tree t -> (length s <= klook t s)%nat.
Proof.
  intro T. induction s as [s IH] using str_ind_len. destruct s as [|c s]; [cbn; lia|].
  rewrite klook_cons. destruct (klook_step_spec t c s T) as (m & i & _ & L & _ & _ & A & B & [(o & _ & P & R)|(_ & R)]);
    rewrite R in *.
  - specialize (IH (skipn i (c :: s))). rewrite skipn_length in IH. cbn [length] in *. specialize (IH ltac:(lia)). lia.
  - specialize (IH s). cbn [length] in *. specialize (IH ltac:(lia)). lia.
Qed.

(** Seven lookups for two characters.  [room] is what is left over of that for the texts in which
    the walk ends at the node of the key [k]. *)
Definition room (k : str) (m : knode) : nat :=
  match kout m with
  | Some _ => 5 * length k - 2
  | None => if str_eqb k (u "hy") then 4
            else if existsb (str_eqb k) [u "chy"; u "shy"; u "yy"] then 3
            else match length k with 0 | 1 => 3 | 2 => 1 | _ => 0 end
  end%nat.
Definition starts (a b : str) : bool := str_eqb a (firstn (length a) b).
(** after a walk that ended at [m], one character later, the walk can end at [k2], [m2] *)
Definition stops (m : knode) (r : str) : bool := match r with [] => true | x :: _ => is_none (k_find m x) end.
Definition next_ok (k : str) (m : knode) (k2 : str) (m2 : knode) : bool :=
  (starts k2 (tl k) && stops m2 (skipn (length k2) (tl k)))
  || (starts (tl k) k2 && stops m (skipn (length (tl k)) k2)).
Definition room_check (t : knode) (p : str * knode) : bool :=
  match kout (snd p) with
  | Some _ => true
  | None =>
    (Nat.leb (length (fst p)) 1 || forallb (fun q => negb (next_ok (fst p) (snd p) (fst q) (snd q))
      || Nat.leb (room (fst p) (snd p) + 2 * S (length (fst p))) (7 + room (fst q) (snd q))) (k_flat t))
  end.
Lemma room_checked t : is_kana_tree t -> forallb (room_check t) (k_flat t) = true.
Proof. intros []; vm_compute; reflexivity. Qed.
Lemma starts_firstn i j (l : str) : (i <= j)%nat -> starts (low (firstn i l)) (low (firstn j l)) = true.
Proof.
  intro H. unfold starts, low. apply str_eqb_eq. rewrite map_length, firstn_map, firstn_length, firstn_firstn. f_equal.
  destruct (Nat.le_gt_cases i (length l)).
  - rewrite !Nat.min_l by lia. reflexivity.
  - rewrite (firstn_all2 l) by lia. symmetry. apply firstn_all2. lia.
Qed.
Lemma klook_room t : is_kana_tree t -> forall s m i, kw t s = (m, i) -> s <> [] ->
  (2 * klook t s + room (low (firstn i s)) m <= 7 * length s)%nat.
Proof.
  intro T. induction s as [s IH] using str_ind_len. intros m i K NE. destruct s as [|c s]; [contradiction|].
  destruct (klook_step_spec t c s T) as (m' & i' & K' & L & A & B & _ & _ & C). rewrite K in K'. injection K' as <- <-.
  destruct (kw_spec _ _ _ _ K) as (_ & _ & Stop).
  assert (LK : length (low (firstn i (c :: s))) = i) by (unfold low; rewrite map_length; apply firstn_length_le; exact L).
  assert (Whole : forall r, (length r < length (c :: s))%nat -> (2 * klook t r <= 7 * length r)%nat).
  { intros [|d r] Hr; [unfold klook; cbn; lia|]. destruct (kw t (d :: r)) as [m2 j] eqn:K2.
    specialize (IH _ Hr _ _ K2 ltac:(discriminate)). lia. }
  destruct C as [(o & O & Pi & R)|(O & R)]; rewrite R in B.
  - unfold room. rewrite O, LK. specialize (Whole (skipn i (c :: s))). rewrite skipn_length in Whole.
    cbn [length] in *. specialize (Whole ltac:(lia)). lia.
  - assert (Small : (i <= 1)%nat -> (room (low (firstn i (c :: s))) m <= 3)%nat).
    { intro Hi. unfold room. rewrite O, LK. destruct (str_eqb _ (u "hy")) eqn:Q.
      { apply str_eqb_eq in Q. rewrite Q in LK. cbn in LK. lia. }
      destruct (existsb _ _); [lia|]. destruct i as [|[|]]; lia. }
    assert (Dec : (i <= 1)%nat \/ (2 <= i)%nat) by lia. destruct Dec as [Hi|Hi].
    + specialize (Small Hi). specialize (Whole s ltac:(cbn; lia)). cbn [length]. lia.
    + clear Small. destruct s as [|d s]; [cbn in L; lia|].
      destruct (kw t (d :: s)) as [m2 j] eqn:K2. pose proof (IH (d :: s) ltac:(cbn; lia) _ _ K2 ltac:(discriminate)) as H2.
      destruct (kw_spec _ _ _ _ K2) as (L2 & A2 & Stop2).
      pose proof (room_checked t T) as RC. rewrite forallb_forall in RC. specialize (RC _ (k_at_flat _ _ _ A)).
      unfold room_check in RC. cbn [fst snd] in RC. rewrite O, LK in RC.
      replace (Nat.leb i 1) with false in RC by (symmetry; apply Nat.leb_gt; lia). cbn [orb] in RC.
      rewrite forallb_forall in RC. specialize (RC _ (k_at_flat _ _ _ A2)). cbn [fst snd] in RC.
      replace (next_ok _ _ _ _) with true in RC.
      * cbn [negb orb] in RC. apply Nat.leb_le in RC. cbn [length] in *. lia.
      * symmetry. unfold next_ok. destruct i as [|i]; [lia|]. cbn [firstn low map tl]. change (map ascii_lower (firstn i (d :: s))) with (low (firstn i (d :: s))).
        assert (St : forall n a b, (a <= b)%nat -> (b <= length (d :: s))%nat ->
          match skipn a (d :: s) with [] => True | x :: _ => k_find n (ascii_lower x) = None end ->
          stops n (skipn (length (low (firstn a (d :: s)))) (low (firstn b (d :: s)))) = true).
        { intros n a b Hab Hb F. replace (length (low (firstn a (d :: s)))) with a by (unfold low; rewrite map_length, firstn_length_le; lia).
          unfold low. rewrite skipn_map, skipn_firstn_comm. destruct (skipn a (d :: s)) as [|x r]; [now rewrite firstn_nil|].
          destruct (b - a)%nat; cbn [firstn map stops]; [reflexivity|]. now rewrite F. }
        apply orb_true_iff. destruct (Nat.le_gt_cases j i) as [J|J]; [left|right]; rewrite starts_firstn by lia; cbn [andb].
        -- apply St; [exact J|cbn [length] in *; lia|exact Stop2].
        -- apply St; [lia|exact L2|exact Stop].
Qed.
Lemma klook_upper t s : is_kana_tree t -> (2 * klook t s <= 7 * length s)%nat.
Proof.
  intro T. destruct s as [|c s]; [unfold klook; cbn; lia|]. destruct (kw t (c :: s)) as [m i] eqn:K.
  pose proof (klook_room t T _ _ _ K ltac:(discriminate)). lia.
Qed.
(** the bound is reached up to the end of the text *)
Lemma klook_cchy t r : is_kana_tree t -> klook t (u "cchy" ++ ch "c" :: r) = (14 + klook t (ch "c" :: r))%nat.
Proof.
  intro T. change (u "cchy") with [99; 99; 104; 121]. change (ch "c") with 99. cbn [app].
  do 4 (rewrite klook_cons; match goal with |- context [kstep t ?a ?b] =>
    replace (snd (kstep t a b)) with b by (destruct T; vm_compute; reflexivity);
    match goal with |- context [klook_step t a b] =>
      let v := eval vm_compute in (klook_step TO_KANA_NODE_TREE a b) in
      replace (klook_step t a b) with v by (destruct T; vm_compute; reflexivity) end end).
  lia.
Qed.
Lemma klook_many t m : is_kana_tree t -> klook t (concat (repeat (u "cchy") (S m))) = (14 * m + 10)%nat.
Proof.
  intro T. induction m as [|m IH]; [destruct T; vm_compute; reflexivity|].
  change (concat (repeat (u "cchy") (S (S m)))) with (u "cchy" ++ ch "c" :: (tl (u "cchy") ++ concat (repeat (u "cchy") m))).
  rewrite klook_cchy by exact T. change (ch "c" :: tl (u "cchy") ++ concat (repeat (u "cchy") m)) with (concat (repeat (u "cchy") (S m))).
  rewrite IH. lia.
Qed.
Lemma to_kana_count_many E o m : std_ok E -> exists r, to_kana_count E (concat (repeat (u "cchy") (S m))) o = Ok (r, (14 * m + 10)%nat).
Proof.
  intro HE. exists (kconv (k_tree o) (concat (repeat (u "cchy") (S m)))).
  rewrite <- (klook_many (k_tree o) m (k_tree_is o)). unfold to_kana_count.
  apply (to_kana_loop_count_ok E o HE _ [] _ [] 0). apply Nat.lt_succ_diag_r.
Qed.
Lemma to_kana_count_ok E o s : std_ok E -> exists l, to_kana_count E s o = Ok (kconv (k_tree o) s, l) /\
  (length s <= l)%nat /\ (2 * l <= 7 * length s)%nat.
Proof.
  intro HE. exists (klook (k_tree o) s). split.
  - unfold to_kana_count. apply (to_kana_loop_count_ok E o HE _ [] s [] 0). lia.
  - split; [apply klook_lower, k_tree_is|apply klook_upper, k_tree_is].
Qed.

(** ** katakana_to_hiragana *)
Lemma letter_has_node E k : std_ok E -> katakana_letter k -> ~ In k (u "ヵヶ") -> rfind E RT (k2hc k) <> None.
Proof.
  intros HE K1 K2 F.
  assert (V : k2h_vowel E false (ch "ア") (k2hc k) long_mark = [long_mark]) by (unfold k2h_vowel; now rewrite F).
  assert (M : mark_vowel (o_vowel false) k (k2h_vowel E false (ch "ア") (k2hc k) long_mark)).
  { apply k2h_vowel_spec; auto. }
  rewrite V in M. destruct M as (row & I & _).
  assert (B : forallb (fun r => negb (str_eqb (snd r) [long_mark])) (mark_table (o_vowel false)) = true) by (vm_compute; reflexivity).
  rewrite forallb_forall in B. specialize (B _ I). discriminate.
Qed.

Lemma k2h_loop_count_ok E d (HE : std_ok E) : forall rest pre pk out l0 p0, pk_state pre pk ->
  exists l p, k2h_loop_count E (pre ++ rest) d (length pre) pk rest out l0 p0
    = Ok (out ++ k2h_go E d (last_char pre) pk rest, (l0 + l)%nat, (p0 + p)%nat) /\ lengthening pre rest l p.
Proof.
  induction rest as [|c rest IH]; intros pre pk out l0 p0 P; cbn [k2h_loop_count k2h_go].
  - exists 0%nat, 0%nat. rewrite app_nil_r, !Nat.add_0_r. split; [reflexivity|constructor].
  - assert (Step : forall pk' out' l1 p1, pk_state (pre ++ [c]) pk' ->
       exists l p, k2h_loop_count E (pre ++ c :: rest) d (S (length pre)) pk' rest out' l1 p1
       = Ok (out' ++ k2h_go E d (Some c) pk' rest, (l1 + l)%nat, (p1 + p)%nat) /\ lengthening (pre ++ [c]) rest l p).
    { intros pk' out' l1 p1 P'. replace (pre ++ c :: rest) with ((pre ++ [c]) ++ rest)
        by (now rewrite <- app_assoc).
      replace (S (length pre)) with (length (pre ++ [c])) by (rewrite app_length; cbn; lia).
      rewrite <- (last_char_snoc pre c). now apply IH. }
    assert (Keep : In c (u "ー・ヵヶ") -> pk_state (pre ++ [c]) pk).
    { intro I. destruct pk as [h|]; cbn in *.
      - destruct P as (k & K & ->). exists k. split; [|reflexivity]. apply lengthens_snoc. auto.
      - intros (k & K). apply lengthens_snoc in K. destruct K as [(-> & K1 & K2)|(_ & K)]; [|eauto].
        revert I K1 K2. change (u "ー・ヵヶ") with [0x30FC; 0x30FB; 0x30F5; 0x30F6].
        change (u "ヵヶ") with [0x30F5; 0x30F6]. unfold katakana_letter. cbn [In]. lia. }
    assert (I0 : is_char_initial_long_dash c (length pre)
                = is_char_long_dash c && is_none (last_char pre)).
    { unfold is_char_initial_long_dash. f_equal. destruct pre as [|x pre] using rev_ind; [reflexivity|].
      rewrite last_char_snoc, app_length. cbn. destruct (length pre); reflexivity. }
    assert (J : is_char_inner_long_dash c (length pre) = is_char_long_dash c && negb (is_none (last_char pre))).
    { unfold is_char_inner_long_dash. f_equal. destruct pre as [|x pre] using rev_ind; [reflexivity|].
      rewrite last_char_snoc, app_length. cbn. rewrite Nat.add_1_r. reflexivity. }
    rewrite I0, J. clear I0 J.
    destruct (is_char_long_dash c) eqn:L.
    + assert (Ec : c = long_mark) by (unfold is_char_long_dash, PROLONGED_SOUND_MARK in L; apply N.eqb_eq in L; exact L).
      subst c. change (is_char_slash_dot long_mark) with false. change (is_kana_as_symbol long_mark) with false.
      cbn [orb andb negb]. rewrite orb_false_r. specialize (Keep ltac:(now left)).
      destruct (is_none (last_char pre)) eqn:Nn.
      * destruct (Step pk (out ++ [long_mark]) l0 p0 Keep) as (l & p & -> & Lp). exists l, p.
        rewrite <- app_assoc. split; [reflexivity|]. apply L_other; [|exact Lp].
        destruct pre as [|x pre _] using rev_ind; [|rewrite last_char_snoc in Nn; discriminate].
        intros (_ & k & K). now apply lengthens_nil in K.
      * destruct (last_char pre) as [q|] eqn:La; [|discriminate]. destruct pk as [h|]; cbn [negb].
        -- cbn in P. destruct P as (k & K & ->).
           assert (KL : katakana_letter k /\ ~ In k (u "ヵヶ")) by (destruct K as (? & ? & ? & ? & ? & ?); auto).
           destruct KL as [K1 K2]. pose proof (letter_has_node E k HE K1 K2) as F.
           rewrite (r_find_ok E [] _ (k2hc k) HE r_root). cbn [bind]. unfold k2h_vowel.
           destruct (rfind E RT (k2hc k)) as [node|]; [|contradiction]. clear F.
           destruct pre as [|x pre' _] using rev_ind; [discriminate|].
           rewrite last_char_snoc in La. inversion La; subst x. clear La.
           replace (checked_sub (length (pre' ++ [q])) 1) with (Ok (length pre')).
           2:{ unfold checked_sub. rewrite app_length. cbn. rewrite Nat.add_1_r. cbn. f_equal. lia. }
           cbn [bind].
           assert (Nt : nth_error ((pre' ++ [q]) ++ long_mark :: rest) (length pre') = Some q).
           { rewrite <- app_assoc. cbn [app]. rewrite nth_error_app2, Nat.sub_diag by lia. reflexivity. }
           rewrite Nt.
           assert (Fin : forall out' v, out' = out ++ v -> exists l p,
              k2h_loop_count E ((pre' ++ [q]) ++ long_mark :: rest) d (S (length (pre' ++ [q]))) (Some (k2hc k)) rest out' (S l0) (p0 + S (length pre'))%nat
              = Ok (out ++ v ++ k2h_go E d (Some long_mark) (Some (k2hc k)) rest, (l0 + l)%nat, (p0 + p)%nat)
              /\ lengthening (pre' ++ [q]) (long_mark :: rest) l p).
           { intros out' v ->. destruct (Step (Some (k2hc k)) (out ++ v) (S l0) (p0 + S (length pre'))%nat Keep) as (l & p & -> & Lp).
             exists (S l), (length (pre' ++ [q]) + p)%nat. split.
             - rewrite <- app_assoc. rewrite app_length. cbn [length]. f_equal. f_equal; [f_equal; lia|lia].
             - eapply L_mark; [exact K|exact Lp]. }
           destruct (last_char (rout node)) as [r|].
           ++ destruct (is_char_katakana q && (r =? ch "o") && d); [now apply Fin|].
              destruct (LONG_VOWELS r) as [h|]; [now apply Fin|]. apply Fin. now rewrite app_nil_r.
           ++ rewrite andb_false_r. cbn [andb]. apply Fin. now rewrite app_nil_r.
        -- destruct (Step None (out ++ [long_mark]) l0 p0 Keep) as (l & p & -> & Lp). exists l, p.
           rewrite <- app_assoc. split; [reflexivity|]. apply L_other; [|exact Lp]. intros (_ & K). exact (P K).
    + assert (Nc : c <> long_mark) by (unfold is_char_long_dash, PROLONGED_SOUND_MARK in L; apply N.eqb_neq in L; exact L).
      assert (Go : forall pk' h, pk_state (pre ++ [c]) pk' -> exists l p,
         k2h_loop_count E (pre ++ c :: rest) d (S (length pre)) pk' rest (out ++ [h]) l0 p0
         = Ok (out ++ h :: k2h_go E d (Some c) pk' rest, (l0 + l)%nat, (p0 + p)%nat) /\ lengthening pre (c :: rest) l p).
      { intros pk' h P'. destruct (Step pk' (out ++ [h]) l0 p0 P') as (l & p & -> & Lp). exists l, p.
        rewrite <- app_assoc. split; [reflexivity|]. apply L_other; [|exact Lp]. intros (Q & _). contradiction. }
      cbn [andb]. rewrite orb_false_r.
      destruct (is_char_slash_dot c || is_kana_as_symbol c) eqn:S1.
      * apply Go. apply Keep. symspec. charspec.
        change (u "ー・ヵヶ") with [0x30FC; 0x30FB; 0x30F5; 0x30F6]. cbn [In]. lia.
      * assert (G : exists l p, (if negb false && is_char_katakana c
            then k2h_loop_count E (pre ++ c :: rest) d (S (length pre)) (Some (hira_of_kata c)) rest (out ++ [hira_of_kata c]) l0 p0
            else k2h_loop_count E (pre ++ c :: rest) d (S (length pre)) None rest (out ++ [c]) l0 p0)
          = Ok (out ++ (if negb false && is_char_katakana c
            then hira_of_kata c :: k2h_go E d (Some c) (Some (hira_of_kata c)) rest
            else c :: k2h_go E d (Some c) None rest), (l0 + l)%nat, (p0 + p)%nat) /\ lengthening pre (c :: rest) l p).
        { cbn [negb andb]. destruct (is_char_katakana c) eqn:B; apply Go.
          - exists c. split.
            + apply lengthens_snoc. left. split; [reflexivity|]. symspec. unfold katakana_letter.
              change (u "ヵヶ") with [0x30F5; 0x30F6]. cbn [In]. charspec. lia.
            + unfold k2hc. now rewrite S1, L, B.
          - cbn. intros (k & K). apply lengthens_snoc in K.
            destruct K as [(-> & K1 & _)|(K & _)].
            + apply not_true_iff_false in B. apply B. apply katakana_spec. unfold katakana_letter, S_katakana, between in *. lia.
            + revert K. change (u "ー・ヵヶ") with [0x30FC; 0x30FB; 0x30F5; 0x30F6]. cbn [In]. symspec. charspec. lia. }
        destruct (last_char pre), pk; exact G.
Qed.
Lemma k2h_count_ok E d s : std_ok E -> exists l p, k2h_count E s d = Ok (k2h E d s, l, p) /\ lengthening [] s l p.
Proof.
  intro HE. unfold k2h_count. apply (k2h_loop_count_ok E d HE s [] None [] 0 0).
  cbn. intros (k & K). now apply lengthens_nil in K.
Qed.

(** ** to_romaji *)
Lemma r_walk_count_rw E (HE : std_ok E) s : forall k n i l, r_node k n ->
  r_walk_count E n s i l = Ok (fst (rw E n s), (i + snd (rw E n s))%nat, (l + steps (snd (rw E n s)) (length s))%nat).
Proof.
  unfold steps. induction s as [|c s IH]; intros k n i l Hn; cbn.
  - f_equal. f_equal; [f_equal|]; lia.
  - rewrite (r_find_ok E k n c HE Hn). cbn [bind].
    destruct (rfind E n c) as [m|] eqn:F.
    + rewrite (IH (k ++ [c]) m (S i) (S l)) by (eapply rfind_node; eauto).
      destruct (rw E m s) as [x j]. cbn. destruct (Nat.eqb j (length s)); f_equal; f_equal; try f_equal; lia.
    + cbn. f_equal. f_equal; [f_equal|]; lia.
Qed.

Lemma to_romaji_loop_count_ok E o (HE : std_ok E) : forall fuel opre orest pre rest out l0,
  length opre = length pre -> (length rest <= length orest)%nat ->
  (length rest < fuel)%nat ->
  exists l, to_romaji_loop_count fuel E o (opre ++ orest) (pre ++ rest) (length pre) out l0
  = Ok (out ++ rconv E (upcase_katakana o) orest rest, (l0 + l)%nat) /\ (length rest <= l <= 2 * length rest)%nat.
Proof.
  induction fuel as [|fuel IH]; intros opre orest pre rest out l0 Hl Hr Hf; [lia|].
  cbn [to_romaji_loop_count]. destruct rest as [|c rest].
  - exists 0%nat. rewrite app_length. cbn [length]. rewrite !Nat.add_0_r, Nat.eqb_refl, rconv_nil, !app_nil_r. split; [reflexivity|lia].
  - replace (Nat.eqb (length pre) (length (pre ++ c :: rest))) with false.
    2:{ symmetry. apply Nat.eqb_neq. rewrite app_length. cbn. lia. }
    rewrite slice_from_app. cbn [bind].
    rewrite (r_walk_count_rw E HE (c :: rest) [] RT 0 l0 r_root). cbn [bind].
    rewrite rconv_cons. unfold rstep.
    destruct (rw E RT (c :: rest)) as [m i] eqn:K. cbn [fst snd Nat.add].
    destruct (rw_spec E HE _ _ _ _ _ r_root K) as (B1 & B2 & _).
    assert (SB : (i <= steps i (length (c :: rest)) <= S i)%nat /\ (1 <= steps i (length (c :: rest)))%nat).
    { unfold steps. destruct (Nat.eqb i _) eqn:Q; [apply Nat.eqb_eq in Q; cbn [length] in *; lia|lia]. }
    set (sb := steps i (length (c :: rest))) in *. clearbody sb.
    assert (Step : forall n out' l1, (1 <= n <= length (c :: rest))%nat -> exists l,
       to_romaji_loop_count fuel E o (opre ++ orest) (pre ++ c :: rest) (length pre + n) out' l1
       = Ok (out' ++ rconv E (upcase_katakana o) (skipn n orest) (skipn n (c :: rest)), (l1 + l)%nat)
       /\ (length (c :: rest) - n <= l <= 2 * (length (c :: rest) - n))%nat).
    { intros n out' l1 Hn. rewrite <- (skipn_length n (c :: rest)).
      replace (pre ++ c :: rest) with ((pre ++ firstn n (c :: rest)) ++ skipn n (c :: rest)) by (now rewrite <- app_assoc, firstn_skipn).
      replace (opre ++ orest) with ((opre ++ firstn n orest) ++ skipn n orest) by (now rewrite <- app_assoc, firstn_skipn).
      replace (length pre + n)%nat with (length (pre ++ firstn n (c :: rest))).
      2:{ rewrite app_length, firstn_length. lia. }
      apply IH.
      - rewrite !app_length, !firstn_length. lia.
      - rewrite !skipn_length. lia.
      - rewrite skipn_length. cbn [length] in *. lia. }
    destruct i as [|i].
    + cbn [Nat.eqb fst snd]. rewrite index_app. cbn [bind].
      destruct (Step 1%nat (out ++ [c]) (l0 + sb)%nat) as (l & -> & Bl); [cbn; lia|].
      exists (sb + l)%nat. rewrite <- app_assoc. split; [f_equal; f_equal; lia|]. cbn [length] in *. lia.
    + cbn [Nat.eqb fst snd]. rewrite <- Hl. rewrite slice_app by lia. cbn [bind]. rewrite Hl.
      match goal with |- context [to_romaji_loop_count _ _ _ _ _ _ ?a ?b] => destruct (Step (S i) a b) as (l & -> & Bl); [lia|] end.
      exists (sb + l)%nat. split; [|cbn [length] in *; lia]. rewrite <- app_assoc.
      unfold remit. rewrite (to_uppercase_out E _ _ HE B2).
      destruct (forallb is_char_katakana _), (upcase_katakana o); cbn [andb]; f_equal; f_equal; lia.
Qed.

(** ** The marks *)
Lemma lengthening_count a s n p : lengthening a s n p -> (n <= length s)%nat.
Proof. induction 1; cbn [length]; lia. Qed.
Lemma lengthening_covers d a s n p : lengthening a s n p -> forall t, hiragana_text (o_vowel d) a s t ->
  (length s <= n + length t)%nat.
Proof.
  intro H. induction H as [a|a s k n p K H IH|a c s n p K H IH]; intros t T; inversion T as [|? ? ? q t' P T']; subst.
  - cbn. lia.
  - rewrite app_length. cbn [length]. specialize (IH _ T'). lia.
  - rewrite app_length. cbn [length]. specialize (IH _ T').
    destruct P as [(_ & h & _ & ->)|[(Q & k' & A & _)|(_ & _ & ->)]]; [cbn; lia|exfalso; eauto|cbn; lia].
Qed.
(** twice the sum of the positions of the characters of [s] standing after [a] *)
Lemma lengthening_bound a s n p : lengthening a s n p ->
  (2 * p + length a * (length a - 1) <= (length a + length s) * (length a + length s - 1))%nat.
Proof.
  induction 1 as [a|a s k n p K H IH|a c s n p K H IH]; cbn [length].
  - rewrite Nat.add_0_r. lia.
  - rewrite app_length in IH. cbn [length] in IH.
    replace (length a + 1 + length s)%nat with (length a + S (length s))%nat in IH by lia.
    destruct (length a) as [|j]; [lia|].
    replace (S j + 1 - 1)%nat with (S j) in IH by lia. replace (S j - 1)%nat with j by lia. nia.
  - rewrite app_length in IH. cbn [length] in IH.
    replace (length a + 1 + length s)%nat with (length a + S (length s))%nat in IH by lia.
    destruct (length a) as [|j]; [lia|].
    replace (S j + 1 - 1)%nat with (S j) in IH by lia. replace (S j - 1)%nat with j by lia. nia.
Qed.
Lemma lengthening_total s n p : lengthening [] s n p -> (2 * p <= length s * (length s - 1))%nat.
Proof. intro H. apply lengthening_bound in H. cbn in H. lia. Qed.
Lemma lengthening_zero a s n p : lengthening a s n p ->
  (p = 0%nat <-> forall x y k, s = x ++ long_mark :: y -> ~ lengthens (a ++ x) k).
Proof.
  induction 1 as [a|a s k n p K H IH|a c s n p K H IH].
  - split; [|reflexivity]. intros _ x y k Q. destruct x; discriminate.
  - split.
    + intro Z. exfalso. destruct a as [|z a]; [now apply lengthens_nil in K|cbn in Z; lia].
    + intro Z. exfalso. apply (Z [] s k eq_refl). now rewrite app_nil_r.
  - rewrite IH. split.
    + intros Z x y k Q. destruct x as [|z x]; cbn in Q; injection Q as -> Q.
      * rewrite app_nil_r. intro L. apply K. eauto.
      * specialize (Z x y k Q). now rewrite <- app_assoc in Z.
    + intros Z x y k ->. rewrite <- app_assoc. cbn. now apply (Z (c :: x) y).
Qed.
Lemma lengthening_det a s n p : lengthening a s n p -> forall n' p', lengthening a s n' p' -> n = n' /\ p = p'.
Proof.
  induction 1 as [a|a s k n p K H IH|a c s n p K H IH]; intros n' p' H'; inversion H' as [|? ? k' n2 p2 K' H2|? c' ? n2 p2 K' H2]; subst.
  - auto.
  - destruct (IH _ _ H2). split; congruence.
  - exfalso. eauto.
  - exfalso. eauto.
  - apply (IH _ _ H2).
Qed.

(** ** The four conversions *)
Lemma to_romaji_count_ok E o s : std_ok E -> exists l n p,
  to_romaji_count E s o = Ok (rconv E (upcase_katakana o) s (k2h E true s), l, p) /\ lengthening [] s n p
  /\ (length s <= l <= 3 * length s)%nat.
Proof.
  intro HE. unfold to_romaji_count. destruct (k2h_count_ok E true s HE) as (n & p & -> & Lp). cbn [bind].
  pose proof (k2h_length E true s) as KL.
  destruct (to_romaji_loop_count_ok E o HE (S (length (k2h E true s))) [] s [] (k2h E true s) [] n eq_refl KL ltac:(lia)) as (l & Q & Bl).
  cbn [app length] in Q. rewrite Q. cbn [bind fst snd].
  exists (n + l)%nat, n, p. split; [reflexivity|]. split; [exact Lp|].
  pose proof (lengthening_count _ _ _ _ Lp). pose proof (lengthening_covers true _ _ _ _ Lp _ (k2h_text E true s HE)). lia.
Qed.
Lemma lengthening_unread s n p : lengthening [] s n p -> is_romaji s = true -> p = 0%nat.
Proof.
  intros H R. apply (lengthening_zero _ _ _ _ H). intros x y k -> (a' & run & Q & K & _).
  cbn [app] in Q. subst x. apply romaji_text_spec in R. destruct R as [_ R].
  assert (I : In k ((a' ++ k :: run) ++ long_mark :: y)) by (rewrite !in_app_iff; left; right; now left).
  apply R in I. unfold S_romaji in I. change (u "ĀāĒēĪīŌōŪū") with [256;257;274;275;298;299;332;333;362;363] in I.
  unfold katakana_letter in K. cbn [In] in I. lia.
Qed.
Lemma to_hiragana_count_ok E o s : std_ok E -> exists l n p q,
  to_hiragana_count E s o = Ok (hira_pure E o s, l, q) /\ lengthening [] s n p
  /\ (q = p \/ (q = 0%nat /\ pass_romaji o = false /\ ~ mixed_text s /\ starts_with_punct s))
  /\ (ascii_or_caseless s -> (2 * l <= 9 * length s)%nat).
Proof.
  intro HE. unfold to_hiragana_count, hira_pure. destruct (k2h_count_ok E false s HE) as (n & p & -> & Lp). cbn [bind].
  pose proof (lengthening_count _ _ _ _ Lp) as Ln. pose proof (k2h_length E false s) as KL.
  destruct (pass_romaji o); [exists n, n, p, p; split; [reflexivity|]; split; [exact Lp|]; split; [auto|lia]|].
  destruct (is_mixed s) eqn:M.
  - destruct (to_kana_count_ok E o (to_lowercase E (k2h E false s)) HE) as (l & -> & Bl). cbn [bind fst snd].
    exists (n + l)%nat, n, p, p. split; [reflexivity|]. split; [exact Lp|]. split; [auto|]. intro H.
    rewrite (lower_length E _ HE) in Bl; [lia|]. intros c I. eapply k2h_case; eauto.
  - change (match option_map is_char_english_punctuation (nth_error s 0) with Some b => b | None => false end) with (first_punct s).
    destruct (is_romaji s || first_punct s) eqn:R.
    + destruct (to_kana_count_ok E o (to_lowercase E s) HE) as (l & -> & Bl). cbn [bind fst snd].
      exists l, n, p, 0%nat. split; [reflexivity|]. split; [exact Lp|]. split.
      * destruct (is_romaji s) eqn:R1.
        -- left. symmetry. now apply (lengthening_unread s n p).
        -- right. split; [reflexivity|]. split; [reflexivity|]. split.
           ++ rewrite <- mixed_spec. congruence.
           ++ apply first_punct_spec. exact R.
      * intro H. rewrite (lower_length E _ HE H) in Bl. lia.
    + exists n, n, p, p. split; [reflexivity|]. split; [exact Lp|]. split; [auto|lia].
Qed.
Lemma to_katakana_count_ok E o s : std_ok E -> exists l,
  to_katakana_count E s o = Ok (kata_pure E o s, l) /\ (ascii_or_caseless s -> (2 * l <= 7 * length s)%nat).
Proof.
  intro HE. unfold to_katakana_count, kata_pure. rewrite !hiragana_to_katakana_ok. cbn [bind].
  destruct (pass_romaji o); [exists 0%nat; split; [reflexivity|lia]|].
  destruct (is_romaji s || is_mixed s); [|exists 0%nat; split; [reflexivity|lia]].
  destruct (to_kana_count_ok E o (to_lowercase E s) HE) as (l & -> & Bl). cbn [bind fst snd].
  rewrite hiragana_to_katakana_ok. cbn [bind]. exists l. split; [reflexivity|].
  intro H. rewrite (lower_length E _ HE H) in Bl. lia.
Qed.

(** ** A letter and nothing but marks *)
Lemma only_marks k : katakana_letter k -> ~ In k (u "ヵヶ") -> forall m j,
  exists p, lengthening (k :: repeat long_mark j) (repeat long_mark m) m p /\ (2 * p = m * (2 * j + m + 1))%nat.
Proof.
  intros K1 K2. induction m as [|m IH]; intro j; cbn [repeat].
  - exists 0%nat. split; [constructor|lia].
  - destruct (IH (S j)) as (p & A & B). exists (S j + p)%nat. split; [|nia].
    replace (S j) with (length (k :: repeat long_mark j)) at 1 by (cbn; now rewrite repeat_length).
    apply (L_mark _ _ k).
    + exists [], (repeat long_mark j). split; [reflexivity|]. split; [exact K1|]. split; [exact K2|].
      apply Forall_forall. intros c I. apply repeat_spec in I. subst. now left.
    + replace ((k :: repeat long_mark j) ++ [long_mark]) with (k :: repeat long_mark (S j)); [exact A|].
      cbn [repeat app]. now rewrite repeat_cons.
Qed.
Lemma marks_after_letter k m : katakana_letter k -> ~ In k (u "ヵヶ") ->
  exists p, lengthening [] (k :: repeat long_mark m) m p /\ (2 * p = m * (m + 1))%nat.
Proof.
  intros K1 K2. destruct (only_marks k K1 K2 m 0%nat) as (p & A & B). exists p. split; [|lia].
  apply L_other; [|exact A]. intros (-> & _). unfold katakana_letter, long_mark in K1. lia.
Qed.
