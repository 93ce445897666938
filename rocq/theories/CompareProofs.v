(** * The comparing loops are the loops of the model, and how much they compare (C100) *)
From Verif Require Export Tac.
From Verif Require Import Base Std Constants Chars Trees KanaTree RomajiTree Strings Convert
  KanaPure RomajiPure KanaSpec ScriptSpec Predicates ScriptProofs LowerTwice Cost CostSpec CostProofs Compare.

(** ** The linear search *)
Definition place {A} (l : list (char * A)) (c : char) : nat := snd (find_cmp l c 0).
Lemma find_cmp_acc {A} (l : list (char * A)) c : forall n,
  find_cmp l c n = (option_map snd (find (fun t => fst t =? c) l), (n + place l c)%nat).
Proof.
  unfold place. induction l as [|t l IH]; intro n; cbn.
  - f_equal. lia.
  - destruct (fst t =? c); cbn; [f_equal; lia|]. rewrite (IH (S n)), (IH 1%nat). cbn. f_equal. lia.
Qed.
Lemma place_bound {A} (l : list (char * A)) c : (place l c <= length l)%nat.
Proof.
  unfold place. induction l as [|t l IH]; cbn; [lia|]. destruct (fst t =? c); cbn; [lia|].
  rewrite find_cmp_acc. cbn. unfold place. lia.
Qed.
Lemma place_none {A} (l : list (char * A)) c : find (fun t => fst t =? c) l = None -> place l c = length l.
Proof.
  unfold place. induction l as [|t l IH]; cbn; [reflexivity|]. destruct (fst t =? c); [discriminate|]. intro F.
  rewrite find_cmp_acc. cbn. unfold place. rewrite IH; auto.
Qed.
Lemma place_pos {A} (l : list (char * A)) c : l <> [] -> (1 <= place l c)%nat.
Proof.
  unfold place. destruct l as [|t l]; [easy|]. intros _. cbn. destruct (fst t =? c); cbn; [lia|].
  rewrite find_cmp_acc. cbn. lia.
Qed.

(** ** to_kana *)
Fixpoint kwc (n : knode) (s : str) : nat :=
  match s with
  | [] => 0
  | c :: r => place (ktrans n) (ascii_lower c) + match k_find n (ascii_lower c) with Some m => kwc m r | None => 0 end
  end.
Lemma k_walk_cmp_kw s : forall n i l, k_walk_cmp n s i l = (fst (kw n s), (i + snd (kw n s))%nat, (l + kwc n s)%nat).
Proof.
  induction s as [|c s IH]; intros n i l; cbn.
  - f_equal; [f_equal|]; lia.
  - unfold k_find_cmp. rewrite find_cmp_acc. change (option_map snd _) with (k_find n (ascii_lower c)).
    destruct (k_find n (ascii_lower c)) as [m|]; cbn.
    + rewrite IH. destruct (kw m s) as [x j]. cbn. f_equal; [f_equal|]; lia.
    + f_equal; [f_equal|]; lia.
Qed.

(** the comparisons of the whole text *)
Fixpoint kcmp_f (fuel : nat) (t : knode) (s : str) : nat :=
  match fuel, s with
  | S f, c :: rest => kwc t (c :: rest) + kcmp_f f t (snd (kstep t c rest))
  | _, _ => 0
  end.
Definition kcmp (t : knode) (s : str) : nat := kcmp_f (length s) t s.
Lemma kcmp_f_enough t : forall f s, (length s <= f)%nat -> kcmp_f f t s = kcmp t s.
Proof.
  unfold kcmp.
  assert (H : forall n f g s, (length s <= n)%nat -> (length s <= f)%nat -> (length s <= g)%nat ->
              kcmp_f f t s = kcmp_f g t s).
  { induction n as [|n IH]; intros f g s Hn Hf Hg.
    - destruct s; [|cbn in Hn; lia]. destruct f, g; reflexivity.
    - destruct s as [|c s]; [destruct f, g; reflexivity|].
      destruct f as [|f]; [cbn in Hf; lia|]. destruct g as [|g]; [cbn in Hg; lia|].
      cbn [kcmp_f]. f_equal. pose proof (kstep_shorter t c s). cbn in Hn, Hf, Hg.
      apply IH; lia. }
  intros f s Hf. apply (H (length s)); lia.
Qed.
Lemma kcmp_cons t c s : kcmp t (c :: s) = (kwc t (c :: s) + kcmp t (snd (kstep t c s)))%nat.
Proof.
  unfold kcmp at 1. cbn [length kcmp_f]. f_equal. apply kcmp_f_enough. apply kstep_shorter.
Qed.
Arguments kcmp : simpl never.
Arguments kwc : simpl never.

Lemma to_kana_loop_cmp_ok E o (HE : std_ok E) : forall fuel pre rest out l0,
  (length rest < fuel)%nat ->
  to_kana_loop_cmp fuel E o (pre ++ rest) (length pre) out l0
    = Ok (out ++ kconv (k_tree o) rest, (l0 + kcmp (k_tree o) rest)%nat).
Proof.
  induction fuel as [|fuel IH]; intros pre rest out l0 Hf; [lia|].
  cbn [to_kana_loop_cmp]. destruct rest as [|c rest].
  - rewrite app_length. cbn. rewrite Nat.add_0_r, Nat.eqb_refl, kconv_nil, !app_nil_r.
    f_equal. f_equal. unfold kcmp. cbn. lia.
  - replace (Nat.eqb (length pre) (length (pre ++ c :: rest))) with false.
    2:{ symmetry. apply Nat.eqb_neq. rewrite app_length. cbn. lia. }
    rewrite kana_tree_ok. cbn [bind]. rewrite slice_from_app. cbn [bind].
    rewrite kconv_cons, kcmp_cons. unfold kstep, k_get_cmp. rewrite k_walk_cmp_kw.
    destruct (kw (k_tree o) (c :: rest)) as [m i] eqn:K. cbn [fst snd Nat.add].
    destruct (kw_spec _ _ _ _ K) as (B1 & B2 & B3).
    pose proof (root_no_output _ (k_tree_is o)) as R0.
    set (sb := kwc (k_tree o) (c :: rest)) in *. clearbody sb.
    assert (Step1 : forall out' l1, to_kana_loop_cmp fuel E o (pre ++ c :: rest) (length pre + 1) out' l1
                     = Ok (out' ++ kconv (k_tree o) rest, (l1 + kcmp (k_tree o) rest)%nat)).
    { intros out' l1. replace (pre ++ c :: rest) with ((pre ++ [c]) ++ rest) by (now rewrite <- app_assoc).
      replace (length pre + 1)%nat with (length (pre ++ [c])) by (rewrite app_length; reflexivity).
      apply IH. cbn in Hf. lia. }
    destruct (kout m) as [oo|] eqn:KO; cbn [fst snd].
    + destruct i as [|i].
      { cbn in B2. inversion B2; subst. congruence. }
      cbn [Nat.eqb orb]. rewrite slice_app by exact B1. cbn [bind unwrap].
      set (seg := firstn (S i) (c :: rest)) in *.
      set (rest' := skipn (S i) (c :: rest)) in *.
      assert (Sp : c :: rest = seg ++ rest') by (symmetry; apply firstn_skipn).
      assert (Ls : length seg = S i) by (apply firstn_length_le; exact B1).
      assert (Lr : S (length rest) = (S i + length rest')%nat).
      { apply (f_equal (@length N)) in Sp. rewrite app_length in Sp. cbn [length] in Sp. lia. }
      assert (Step2 : forall out' l1, to_kana_loop_cmp fuel E o (pre ++ c :: rest) (length pre + S i) out' l1
                     = Ok (out' ++ kconv (k_tree o) rest', (l1 + kcmp (k_tree o) rest')%nat)).
      { intros out' l1. rewrite Sp, app_assoc.
        replace (length pre + S i)%nat with (length (pre ++ seg)) by (rewrite app_length; lia).
        apply IH. cbn [length] in Hf. lia. }
      rewrite <- (emit_std E (k_tree o) seg m oo HE (k_tree_is o) B2 KO).
      rewrite hiragana_to_katakana_ok. cbn [bind fst snd].
      destruct (forallb (is_upper E) seg); rewrite Step2, <- app_assoc; f_equal; f_equal; lia.
    + cbn [Nat.eqb orb]. rewrite index_app. cbn [bind]. rewrite Step1.
      destruct i; cbn [fst snd]; rewrite <- app_assoc; f_equal; f_equal; lia.
Qed.
Lemma to_kana_cmp_ok E o s : std_ok E -> to_kana_cmp E s o = Ok (kconv (k_tree o) s, kcmp (k_tree o) s).
Proof. intro HE. unfold to_kana_cmp. apply (to_kana_loop_cmp_ok E o HE _ [] s [] 0). lia. Qed.

(** *** Bounds *)
Fixpoint pathc (n : knode) (k : str) : nat :=
  match k with
  | [] => 0
  | c :: r => place (ktrans n) c + match k_find n c with Some m => pathc m r | None => 0 end
  end.
Lemma kwc_path s : forall n m i, kw n s = (m, i) ->
  kwc n s = (pathc n (low (firstn i s)) + if Nat.ltb i (length s) then length (ktrans m) else 0)%nat.
Proof.
  induction s as [|c s IH]; intros n m i H; cbn in H; unfold kwc; fold kwc.
  - injection H as <- <-. reflexivity.
  - destruct (k_find n (ascii_lower c)) as [x|] eqn:F.
    + destruct (kw x s) as [y j] eqn:K. injection H as <- <-. cbn [firstn low map pathc length]. rewrite F, (IH _ _ _ K).
      fold (low (firstn j s)). change (S j <? S (length s))%nat with (j <? length s)%nat. lia.
    + injection H as <- <-. cbn [firstn low map pathc length]. change (0 <? S (length s))%nat with true. cbn iota.
      rewrite place_none; [lia|]. unfold k_find in F. now destruct (find _ _).
Qed.
(** a character that begins no key *)
Definition foreign (t : knode) (c : char) : nat := match k_find t (ascii_lower c) with None => 1 | Some _ => 0 end.
Definition foreigns (t : knode) (s : str) : nat := list_sum (map (foreign t) s).
Lemma foreigns_app t a b : foreigns t (a ++ b) = (foreigns t a + foreigns t b)%nat.
Proof. unfold foreigns. now rewrite map_app, list_sum_app. Qed.
Lemma foreigns_cons t c s : foreigns t (c :: s) = (foreign t c + foreigns t s)%nat.
Proof. reflexivity. Qed.
Lemma foreigns_low t s : foreigns t (low s) = foreigns t s.
Proof.
  unfold foreigns, low. rewrite map_map. f_equal. apply map_ext. intro c. unfold foreign. now rewrite LowerTwice.lower_lower.
Qed.
Definition whole (t : knode) (k : str) (m : knode) : nat := pathc t k + length (ktrans m).
(** Fifty comparisons for each character, 44 for one that begins no key.  [spare] is what is left over of that
    for the texts in which the walk ends at the node of the key [k]. *)
Definition spare (t : knode) (k : str) (m : knode) : nat :=
  match kout m with
  | Some _ => 50 * length k - (whole t k m + 6 * foreigns t k)
  | None => if str_eqb k (u "zy") then 5 else if str_eqb k (u "yy") || str_eqb k (u "y") then 3
            else if str_eqb k (u "ty") then 2 else if str_eqb k (u "tw") then 1 else 0
  end%nat.
Definition spare_check (t : knode) (p : str * knode) : bool :=
  match kout (snd p) with
  | Some _ => Nat.leb 1 (length (fst p)) && Nat.leb (whole t (fst p) (snd p) + 6 * foreigns t (fst p)) (50 * length (fst p))
  | None =>
    Nat.leb (foreigns t (firstn 1 (fst p))) 0 &&
    if Nat.leb (length (fst p)) 1
    then Nat.leb (whole t (fst p) (snd p) + spare t (fst p) (snd p) + 6 * (1 - length (fst p))) 50
    else forallb (fun q => if next_ok (fst p) (snd p) (fst q) (snd q)
      then Nat.leb (spare t (fst p) (snd p) + whole t (fst p) (snd p)) (50 + spare t (fst q) (snd q)) else true) (k_flat t)
  end.
Lemma spare_checked t : is_kana_tree t -> forallb (spare_check t) (k_flat t) = true.
Proof. intros []; vm_compute; reflexivity. Qed.

Lemma kcmp_step t c s : is_kana_tree t -> exists m i, kw t (c :: s) = (m, i) /\
  (i <= S (length s))%nat /\ k_at t (low (firstn i (c :: s))) = Some m /\
  (kcmp t (c :: s) <= whole t (low (firstn i (c :: s))) m + kcmp t (snd (kstep t c s)))%nat /\
  ((exists o, kout m = Some o /\ (1 <= i)%nat /\ snd (kstep t c s) = skipn i (c :: s)) \/ (kout m = None /\ snd (kstep t c s) = s)).
Proof.
  intro T. destruct (klook_step_spec t c s T) as (m & i & K & L & A & _ & _ & _ & D). exists m, i.
  split; [exact K|]. split; [exact L|]. split; [exact A|]. split; [|exact D].
  rewrite kcmp_cons, (kwc_path _ _ _ _ K). unfold whole. destruct (Nat.ltb _ _); lia.
Qed.
Lemma kcmp_spare t : is_kana_tree t -> forall s m i, kw t s = (m, i) -> s <> [] ->
  (kcmp t s + 6 * foreigns t s + spare t (low (firstn i s)) m <= 50 * length s)%nat.
Proof.
  intro T. induction s as [s IH] using str_ind_len. intros m i K NE. destruct s as [|c s]; [contradiction|].
  destruct (kcmp_step t c s T) as (m' & i' & K' & L & A & B & C). rewrite K in K'. injection K' as <- <-.
  destruct (kw_spec _ _ _ _ K) as (_ & _ & Stop).
  assert (LK : length (low (firstn i (c :: s))) = i) by (unfold low; rewrite map_length; apply firstn_length_le; exact L).
  assert (Whole : forall r, (length r < length (c :: s))%nat -> (kcmp t r + 6 * foreigns t r <= 50 * length r)%nat).
  { intros [|d r] Hr; [unfold kcmp; cbn; lia|]. destruct (kw t (d :: r)) as [m2 j] eqn:K2.
    specialize (IH _ Hr _ _ K2 ltac:(discriminate)). lia. }
  pose proof (spare_checked t T) as RC. rewrite forallb_forall in RC. specialize (RC _ (k_at_flat _ _ _ A)).
  unfold spare_check in RC. cbn [fst snd] in RC. rewrite LK in RC.
  set (k := low (firstn i (c :: s))) in *.
  destruct C as [(o & O & Pi & R)|(O & R)]; rewrite R in B; rewrite O in RC; apply andb_prop in RC; destruct RC as [RC0 RC].
  - unfold spare. rewrite O, LK. specialize (Whole (skipn i (c :: s))). rewrite skipn_length in Whole.
    apply Nat.leb_le in RC. rewrite <- (firstn_skipn i (c :: s)) at 2. rewrite foreigns_app, <- (foreigns_low t (firstn i _)). fold k.
    cbn [length] in *. specialize (Whole ltac:(lia)). lia.
  - assert (F : foreigns t (c :: s) = (foreign t c + foreigns t s)%nat) by reflexivity.
    assert (F1 : (foreign t c <= 1 - i)%nat).
    { destruct i as [|i]; [unfold foreign; destruct (k_find _ _); lia|]. apply Nat.leb_le in RC0.
      change (firstn 1 k) with (low [c]) in RC0. rewrite foreigns_low in RC0. unfold foreigns in RC0. cbn in RC0. lia. }
    destruct (Nat.leb i 1) eqn:Hi.
    + apply Nat.leb_le in RC, Hi. specialize (Whole s ltac:(cbn; lia)). cbn [length]. lia.
    + apply Nat.leb_gt in Hi. destruct s as [|d s]; [cbn in L; lia|].
      destruct (kw t (d :: s)) as [m2 j] eqn:K2. pose proof (IH (d :: s) ltac:(cbn; lia) _ _ K2 ltac:(discriminate)) as H2.
      destruct (kw_spec _ _ _ _ K2) as (L2 & A2 & Stop2).
      rewrite forallb_forall in RC. specialize (RC _ (k_at_flat _ _ _ A2)). cbn [fst snd] in RC.
      replace (next_ok _ _ _ _) with true in RC.
      * apply Nat.leb_le in RC. cbn [length] in *. lia.
      * symmetry. unfold next_ok, k. destruct i as [|i]; [lia|]. cbn [firstn low map tl]. change (map ascii_lower (firstn i (d :: s))) with (low (firstn i (d :: s))).
        assert (St : forall n a b, (a <= b)%nat -> (b <= length (d :: s))%nat ->
          match skipn a (d :: s) with [] => True | x :: _ => k_find n (ascii_lower x) = None end ->
          stops n (skipn (length (low (firstn a (d :: s)))) (low (firstn b (d :: s)))) = true).
        { intros n a b Hab Hb Fa. replace (length (low (firstn a (d :: s)))) with a by (unfold low; rewrite map_length, firstn_length_le; lia).
          unfold low. rewrite skipn_map, skipn_firstn_comm. destruct (skipn a (d :: s)) as [|x r]; [now rewrite firstn_nil|].
          destruct (b - a)%nat; cbn [firstn map stops]; [reflexivity|]. now rewrite Fa. }
        apply orb_true_iff. destruct (Nat.le_gt_cases j i) as [J|J]; [left|right]; rewrite starts_firstn by lia; cbn [andb].
        -- apply St; [exact J|cbn [length] in *; lia|exact Stop2].
        -- apply St; [lia|exact L2|exact Stop].
Qed.
Lemma kcmp_upper t s : is_kana_tree t -> (kcmp t s + 6 * foreigns t s <= 50 * length s)%nat.
Proof.
  intro T. destruct s as [|c s]; [unfold kcmp; cbn; lia|]. destruct (kw t (c :: s)) as [m i] eqn:K.
  pose proof (kcmp_spare t T _ _ _ K ltac:(discriminate)). lia.
Qed.
(** at least one comparison for each character, and more if it is not the first one of the root *)
Lemma pathc_lower k : forall n m, k_at n k = Some m -> (length k <= pathc n k)%nat.
Proof.
  induction k as [|c k IH]; intros n m A; cbn in *; [lia|]. destruct (k_find n c) as [x|] eqn:F; [|discriminate].
  specialize (IH _ _ A). assert (ktrans n <> []) by (intro Q; unfold k_find in F; now rewrite Q in F).
  pose proof (place_pos (ktrans n) c H). lia.
Qed.
Lemma first_place t c : is_kana_tree t -> (place (ktrans t) c = 1%nat <-> c = ch "!") /\ (1 <= place (ktrans t) c)%nat.
Proof.
  intro T. split; [|apply place_pos; destruct T; vm_compute; discriminate].
  assert (H : exists n r, ktrans t = (ch "!", n) :: r /\ r <> []) by (destruct T; eexists _, _; (split; [vm_compute; reflexivity|discriminate])).
  destruct H as (n & r & -> & NE). unfold place. cbn [find_cmp fst snd]. destruct (N.eqb_spec (ch "!") c) as [<-|D]; [easy|].
  rewrite find_cmp_acc. cbn [snd]. pose proof (place_pos r c NE). split; [lia|congruence].
Qed.
Lemma kcmp_lower t s : is_kana_tree t -> (length s <= kcmp t s)%nat /\ (kcmp t s = length s -> Forall (eq (ch "!")) s).
Proof.
  intro T. induction s as [s IH] using str_ind_len. destruct s as [|c s]; [split; [cbn; lia|constructor]|].
  rewrite kcmp_cons. destruct (klook_step_spec t c s T) as (m & i & K & L & A & _ & _ & _ & C).
  pose proof (kwc_path _ _ _ _ K) as P.
  destruct (first_place t (ascii_lower c) T) as [P1 P2].
  assert (Hk : (Nat.max 1 i <= kwc t (c :: s))%nat /\ (kwc t (c :: s) = Nat.max 1 i -> ascii_lower c = ch "!")).
  { rewrite P. destruct i as [|i].
    - cbn [firstn low map pathc length Nat.add]. replace (0 <? S (length s))%nat with true by reflexivity.
      cbn in A. injection A as <-. assert (2 <= length (ktrans t))%nat by (destruct T; apply Nat.leb_le; vm_compute; reflexivity). lia.
    - cbn [firstn low map pathc k_at] in *. destruct (k_find t (ascii_lower c)) as [x|]; [|discriminate].
      apply pathc_lower in A. unfold low in A. rewrite map_length, firstn_length_le in A by (cbn in L; lia).
      fold (low (firstn i s)) in *. split; [lia|]. intro Q. apply P1. lia. }
  destruct Hk as [H1 H2]. assert (Bang : ascii_lower c = ch "!" -> c = ch "!").
  { unfold ascii_lower. destruct (_ && _) eqn:U; [|auto]. change (ch "!") with 33. apply andb_prop in U. destruct U as [U _]. apply N.leb_le in U. lia. }
  destruct C as [(o & O & Pi & R)|(O & R)]; rewrite R.
  - destruct (IH (skipn i (c :: s))) as [I1 I2]; [rewrite skipn_length; cbn [length]; lia|]. rewrite skipn_length in I1, I2. cbn [length] in *. split; [lia|].
    intro Q. specialize (H2 ltac:(lia)). specialize (Bang H2). subst c. specialize (I2 ltac:(lia)).
    destruct i as [|i]; [lia|]. destruct i as [|i]; [constructor; [reflexivity|exact I2]|].
    exfalso. cbn [firstn low map k_at] in A. destruct (k_find t (ascii_lower (ch "!"))) as [x|] eqn:F; [|discriminate].
    assert (Lf : ktrans x = []) by (destruct T; vm_compute in F; injection F as <-; reflexivity).
    destruct s as [|d s]; [cbn in L; lia|]. cbn [firstn map k_at] in A. unfold k_find in A. rewrite Lf in A. discriminate.
  - destruct (IH s) as [I1 I2]; [cbn; lia|]. cbn [length] in *. split; [lia|]. intro Q. specialize (H2 ltac:(lia)). specialize (Bang H2). subst c.
    constructor; [reflexivity|]. apply I2. lia.
Qed.
Lemma kcmp_bangs t m : is_kana_tree t -> kcmp t (repeat (ch "!") m) = m.
Proof.
  intro T. induction m as [|m IH]; [reflexivity|]. cbn [repeat]. rewrite kcmp_cons.
  replace (snd (kstep t (ch "!") (repeat (ch "!") m))) with (repeat (ch "!") m) by (destruct T, m; vm_compute; reflexivity).
  replace (kwc t (ch "!" :: repeat (ch "!") m)) with 1%nat by (destruct T, m; vm_compute; reflexivity). now rewrite IH.
Qed.
(** the bound is reached up to the end of the text *)
Lemma kcmp_z t m : is_kana_tree t -> kcmp t (repeat (ch "z") (S (S m))) = (50 * m + 81)%nat.
Proof.
  intro T. induction m as [|m IH]; [destruct T; vm_compute; reflexivity|]. cbn [repeat] in *. rewrite kcmp_cons.
  replace (snd (kstep t (ch "z") _)) with (ch "z" :: ch "z" :: repeat (ch "z") m) by (destruct T; vm_compute; reflexivity).
  replace (kwc t (ch "z" :: _)) with 50%nat by (destruct T; vm_compute; reflexivity). rewrite IH. lia.
Qed.
Lemma kcmp_foreign t s : is_kana_tree t -> foreigns t s = length s -> kcmp t s = (44 * length s)%nat.
Proof.
  intro T. assert (B : forall z, (foreigns t z <= length z)%nat).
  { intro z. induction z as [|c z IHz]; [cbn; lia|]. rewrite foreigns_cons. cbn [length]. unfold foreign. destruct (k_find _ _); lia. }
  induction s as [|c s IH]; intro F; [reflexivity|]. rewrite kcmp_cons. assert (F1 : k_find t (ascii_lower c) = None /\ foreigns t s = length s).
  { specialize (B s). rewrite foreigns_cons in F. cbn [length] in F. unfold foreign in F. destruct (k_find _ _); [lia|]. split; [reflexivity|]. lia. }
  destruct F1 as [F1 F2]. assert (St : snd (kstep t c s) = s) by (unfold kstep; cbn [kw]; rewrite F1; destruct (kout t); reflexivity).
  rewrite St. unfold kwc. rewrite F1.
  rewrite (IH F2), place_none by (unfold k_find in F1; now destruct (find _ _)).
  assert (length (ktrans t) = 44%nat) by (destruct T; vm_compute; reflexivity). cbn [length]. lia.
Qed.
