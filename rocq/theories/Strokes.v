(** * Proof of C104: the fewest keystrokes for a kana text *)
From Coq Require Import PeanoNat.
From Verif Require Import Tac Base Std Constants Chars Trees KanaTree Strings Convert
  KanaPure KanaSpec KanaDict KanaProofs TypingSpec Splits StrokeSpec.

(** ** The characters of a typeable text *)
Definition marks : str := Eval vm_compute in u "、。〜！（）：？［］｛｝".
Definition alphabet : str := Eval vm_compute in all_kana ++ marks.
Definition typeable_bb (m : mode) (c : N) : bool := typeable_b m c || among c marks.
Definition letters (m : mode) : str := filter (typeable_bb m) alphabet.
Lemma letters_In m c : typeable m c -> In c (letters m).
Proof.
  intro H. apply filter_In. unfold typeable_bb. change alphabet with (all_kana ++ marks). destruct H as [H|H].
  - split; [apply in_or_app; left; apply in_all_kana, (typeable_is_kana m), H|]. apply typeable_spec in H. now rewrite H.
  - split; [apply in_or_app; right; exact H|]. apply orb_true_intro. right. apply existsb_exists. exists c. split; [exact H|apply N.eqb_refl].
Qed.

(** ** What is looked at *)
Lemma pairs_first m a r : pairs_with m a r = pairs_with m a (firstn 1 r).
Proof. destruct r; reflexivity. Qed.
Lemma tsu_first m t r : tsu_keys m t r = tsu_keys m t (firstn 2 r).
Proof. destruct r as [|a [|b r]]; reflexivity. Qed.
Lemma n_first m r : n_keys m r = n_keys m (firstn 2 r).
Proof. destruct r as [|a [|b r]]; reflexivity. Qed.
Definition plain (c : N) : bool := negb (among (hira_of c) (n_kana ++ tsu_kana)).
Lemma plain_split c : plain c = true -> among (hira_of c) n_kana = false /\ among (hira_of c) tsu_kana = false.
Proof. unfold plain, among. rewrite existsb_app. destruct (existsb _ n_kana), (existsb _ tsu_kana); now intros. Qed.
Lemma keys_first m p c r : plain c = true -> keys m p c r = keys m p c (firstn 1 r).
Proof. intro H. apply plain_split in H as [A B]. unfold keys. rewrite A, B. destruct r; reflexivity. Qed.
Lemma keys_two m p c r : keys m p c r = keys m p c (firstn 2 r).
Proof. unfold keys. rewrite tsu_first, n_first. destruct r as [|a [|b r]]; reflexivity. Qed.

(** ** Second members of pairs begin no pair, are not ん or っ and cost at most 3 alone *)
Definition firsts : str := Eval vm_compute in u "いうくふゔじきぎしちぢてでにひびぴみりぐすとどつ".
Definition seconds : str := Eval vm_compute in u "ぁぃぅぇぉゃゅょ".
Definition first_of_pair (c : N) : bool := among (hira_of c) firsts.
Definition second_of_pair (c : N) : bool := among (hira_of c) seconds.
Definition rules_fine (l : list (str * str * nat)) : bool :=
  forallb (fun r => forallb (fun a => among a firsts) (fst (fst r)) && forallb (fun b => among b seconds) (snd (fst r))) l.
Lemma among_In c l : among c l = true <-> In c l.
Proof.
  unfold among. rewrite existsb_exists. split; [intros (x & I & Q); apply N.eqb_eq in Q; now subst|intro I; exists c; split; [exact I|apply N.eqb_refl]].
Qed.
Lemma pair_sides m a b k : pair m a b = Some k -> first_of_pair a = true /\ second_of_pair b = true.
Proof.
  unfold pair, first_of_pair, second_of_pair. destruct (Bool.eqb (katakana a) (katakana b)); [|discriminate]. unfold two.
  generalize (hira_of a) (hira_of b). clear. intros a b.
  assert (F : rules_fine (match m with Obsolete => rules_obsolete | _ => rules end) = true) by (destruct m; vm_compute; reflexivity).
  destruct (find _ _) as [r|] eqn:Q; [|discriminate]. intros _. apply find_some in Q as [I Q]. apply andb_prop in Q as [A B].
  unfold rules_fine in F. rewrite forallb_forall in F. specialize (F r I). apply andb_prop in F as [F1 F2]. rewrite forallb_forall in F1, F2.
  apply among_In in A, B. split; [now apply F1|now apply F2].
Qed.
Lemma not_first m a b : first_of_pair a = false -> pair m a b = None.
Proof. intro H. destruct (pair m a b) as [k|] eqn:P; [|reflexivity]. apply pair_sides in P. destruct P. congruence. Qed.
Lemma second_plain b : second_of_pair b = true -> plain b = true /\ first_of_pair b = false.
Proof.
  unfold second_of_pair, plain, first_of_pair. generalize (hira_of b). intros h H. apply among_In in H. vm_compute in H.
  repeat destruct H as [<-|H]; try contradiction; split; vm_compute; reflexivity.
Qed.

(** ** Sums *)
Lemma after_none m p r : pairs_with m p r = false -> strokes_after m (Some p) r = strokes m r.
Proof.
  intro H. unfold strokes. destruct r as [|c r]; [reflexivity|]. cbn [strokes_after]. f_equal. unfold keys.
  change (pairs_with m p [c]) with (pairs_with m p (c :: r)). now rewrite H.
Qed.
Lemma after_first m p r : first_of_pair p = false -> strokes_after m (Some p) r = strokes m r.
Proof. intro H. apply after_none. destruct r as [|c r]; [reflexivity|]. unfold pairs_with. now rewrite (not_first m p c H). Qed.
Lemma after_pair m p x r : pairs_with m p [x] = true ->
  strokes_after m (Some p) (x :: r) = strokes m r /\ strokes m (x :: r) = (alone x + strokes m r)%nat.
Proof.
  intro H. unfold pairs_with in H. destruct (pair m p x) as [k|] eqn:P; [|discriminate H]. pose proof (pair_sides m p x k P) as [_ S2].
  apply second_plain in S2 as [S3 S4]. split.
  - cbn [strokes_after]. unfold keys. unfold pairs_with. rewrite P. now rewrite (after_first m x r S4).
  - unfold strokes at 1. cbn [strokes_after]. rewrite (after_first m x r S4). f_equal. apply plain_split in S3 as [A B]. unfold keys. rewrite A, B.
    destruct r as [|y r]; [reflexivity|]. now rewrite (not_first m x y S4).
Qed.
Fixpoint cost (m : mode) (p : option N) (o r : str) : nat :=
  match o with [] => 0 | c :: o' => keys m p c (o' ++ r) + cost m (Some c) o' r end%nat.
Lemma cost_app m o : forall p r, o <> [] -> strokes_after m p (o ++ r) = (cost m p o r + strokes_after m (Some (last o 0%N)) r)%nat.
Proof.
  induction o as [|c o IH]; intros p r H; [congruence|]. cbn [app strokes_after cost]. destruct o as [|d o]; [cbn [app cost last]; lia|].
  rewrite (IH (Some c) r) by discriminate. change (last (c :: d :: o) 0) with (last (d :: o) 0). lia.
Qed.
Lemma first_two (o r : str) : o <> [] -> firstn 2 (o ++ r) = firstn 2 (o ++ firstn 1 r).
Proof. intro H. destruct o as [|a [|b o]]; [congruence| |]; destruct r as [|x r]; reflexivity. Qed.
Lemma cost_first m o : forall p r, o <> [] -> plain (last o 0) = true -> cost m p o r = cost m p o (firstn 1 r).
Proof.
  induction o as [|c o IH]; intros p r H P; [congruence|]. cbn [cost]. destruct o as [|d o].
  - cbn [app cost]. now rewrite keys_first.
  - rewrite (IH (Some c) r) by (try discriminate; exact P). f_equal. rewrite keys_two, (keys_two m p c (_ ++ firstn 1 r)).
    now rewrite first_two.
Qed.
Lemma n_keys_front m o r : o <> [] -> n_keys m (o ++ r) = n_keys m (o ++ firstn 1 r).
Proof. intro H. rewrite n_first, (n_first m (o ++ firstn 1 r)). now rewrite first_two. Qed.

(** ** No text is shorter *)
Definition follows : str := Eval vm_compute in u "'aiueoy".
Definition follow_b (c : N) : bool := among (ascii_lower c) follows.
Lemma follow_spec c : follow_b c = true <-> n_follow c.
Proof.
  unfold follow_b, n_follow. rewrite among_In. split.
  - intro H. exists (ascii_lower c). split; [now apply lowers_lower|exact H].
  - intros (d & L & I). apply lowers_lower in L. now rewrite L.
Qed.
Definition not_ime (m : mode) : bool := match m with Ime => false | _ => true end.
Definition check (m : mode) (k o x : str) : bool :=
  let gain := match x with y :: _ => if pairs_with m (last o 0) [y] then alone y else 0%nat | [] => 0%nat end in
  let extra := if not_ime m && Nat.eqb (n_keys m (o ++ x)) 2 && negb (follow_b (hd 0 k)) then 1%nat else 0%nat in
  Nat.leb (cost m None o x + extra) (length k + gain).
(** only the second members of pairs matter behind *)
Definition behind : str := seconds ++ map (fun c => c + 0x60) seconds.
Definition check_all (m : mode) (k o : str) : bool :=
  if negb (match o with [] => true | _ => false end) && plain (last o 0) then check m k o [] && forallb (fun y => check m k o [y]) behind
  else str_eqb k [110] || (match o with [c] => if among (hira_of c) tsu_kana then Nat.leb 3 (length k) else Nat.leb 2 (length k) | _ => false end).
Definition enough (m : mode) : bool :=
  forallb (fun e => check_all m (fst e) (snd e) && check_all m (fst e) (h2k (snd e))) (dict m).
Lemma enough_ok m : enough m = true.
Proof. destruct m; vm_cast_no_check (eq_refl true). Qed.
Lemma behind_In y : second_of_pair y = true -> In y behind.
Proof.
  unfold second_of_pair, behind, hira_of. intro H. apply among_In in H. apply in_or_app. destruct (katakana y) eqn:K; [right|left; exact H].
  apply in_map_iff. exists (y - 0x60). split; [|exact H]. unfold katakana in K. lia.
Qed.
Lemma not_second m a y : second_of_pair y = false -> pair m a y = None.
Proof. intro H. destruct (pair m a y) as [k|] eqn:P; [|reflexivity]. apply pair_sides in P. destruct P. congruence. Qed.
Lemma keys_behind m p c o y : second_of_pair y = false -> plain (last (c :: o) 0) = true -> keys m p c (o ++ [y]) = keys m p c o.
Proof.
  intros H P. destruct o as [|a [|b o]].
  - cbn [last] in P. apply plain_split in P as [A B]. unfold keys. cbn [app]. now rewrite A, B, (not_second m c y H).
  - cbn [last] in P. apply plain_split in P as [A B]. unfold keys. cbn [app]. unfold n_keys, tsu_keys, pairs_with. rewrite (not_second m a y H), B. reflexivity.
  - rewrite keys_two, (keys_two m p c (a :: b :: o)). reflexivity.
Qed.
Lemma cost_behind m y : second_of_pair y = false -> forall o p, plain (last o 0) = true -> cost m p o [y] = cost m p o [].
Proof.
  intro H. induction o as [|c o IH]; intros p P; [reflexivity|]. cbn [cost]. rewrite (keys_behind m p c o y H P), app_nil_r. f_equal.
  destruct o as [|d o]; [reflexivity|]. now apply IH.
Qed.
Lemma n_behind m o y : second_of_pair y = false -> o <> [] -> plain (last o 0) = true -> n_keys m (o ++ [y]) = n_keys m o.
Proof.
  intros H Q P. destruct o as [|a [|b o]]; [congruence| |].
  - cbn [last] in P. apply plain_split in P as [A B]. cbn [app]. unfold n_keys, pairs_with. now rewrite (not_second m a y H), B.
  - rewrite n_first, (n_first m (a :: b :: o)). reflexivity.
Qed.
Lemma check_any m k o r : o <> [] -> plain (last o 0) = true -> check_all m k o = true -> check m k o (firstn 1 r) = true.
Proof.
  intros Q P H. unfold check_all in H. rewrite P in H. destruct o as [|c o]; [congruence|]. cbn [negb andb] in H. apply andb_prop in H as [H0 H1].
  destruct r as [|y r]; [exact H0|]. cbn [firstn]. destruct (second_of_pair y) eqn:S2.
  - rewrite forallb_forall in H1. apply H1, behind_In, S2.
  - unfold check in *. rewrite (cost_behind m y S2 _ None P), (n_behind m _ y S2 Q P), app_nil_r in *. unfold pairs_with.
    rewrite (not_second m _ y S2). exact H0.
Qed.

(** one key *)
Lemma first_of_tsu_n c : plain c = false -> first_of_pair c = false.
Proof.
  unfold plain, first_of_pair. generalize (hira_of c). intros h H. apply negb_false_iff, among_In in H. vm_compute in H.
  destruct H as [<-|[<-|[]]]; reflexivity.
Qed.
Lemma n_le m r : (1 <= n_keys m r <= 2)%nat.
Proof. unfold n_keys. destruct m; try lia; destruct r as [|a r]; try lia; ifs; try lia; destruct r; ifs; lia. Qed.
Lemma tsu_le m t r : (tsu_keys m t r <= 3)%nat.
Proof. unfold tsu_keys. destruct r as [|a r]; [lia|]. ifs; try lia; destruct m; ifs; lia. Qed.
Lemma n_of_n m c r : m <> Ime -> among (hira_of c) n_kana = true -> n_keys m (c :: r) = 1%nat.
Proof.
  intros M H. assert (Q : hira_of c = hd 0 n_kana) by (apply among_In in H; vm_compute in H; destruct H as [H|[]]; now symmetry).
  unfold n_keys. rewrite Q. destruct m; [reflexivity|reflexivity|congruence].
Qed.
Lemma n_of_tsu m c r : m <> Ime -> among (hira_of c) tsu_kana = true -> n_keys m (c :: r) = 2%nat -> (tsu_keys m c r <= 2)%nat.
Proof.
  intros M H. assert (Q : hira_of c = hd 0 tsu_kana) by (apply among_In in H; vm_compute in H; destruct H as [H|[]]; now symmetry).
  assert (Z : n_keys m (c :: r) = match r with b :: _ => if Bool.eqb (katakana c) (katakana b) && among (hira_of b) i_y then 2 else 1 | [] => 1 end%nat)
    by (unfold n_keys; rewrite Q; destruct m; [reflexivity|reflexivity|congruence]).
  rewrite Z. destruct r as [|b r]; [discriminate|]. destruct (Bool.eqb (katakana c) (katakana b)) eqn:K; [|discriminate]. cbn [andb].
  destruct (among (hira_of b) i_y) eqn:Y; [|discriminate]. intros _. unfold tsu_keys. rewrite K. cbn [negb].
  destruct (among (hira_of b) doubled) eqn:D; [lia|].
  assert (I : among (hira_of b) i_u = true).
  { apply among_In in Y. revert D. generalize dependent (hira_of b). intros h I D. vm_compute in I.
    repeat destruct I as [<-|I]; try contradiction; try (vm_compute in D; discriminate D). reflexivity. }
  rewrite I. destruct (pairs_with m b r); [|lia]. destruct m; ifs; lia.
Qed.
Lemma step_le m k v o r : entry m k v -> o = v \/ o = h2k v -> k <> u "n" ->
  (strokes m (o ++ r) <= length k + strokes m r)%nat
  /\ (m <> Ime -> follow_b (hd 0 k) = false -> (n_keys m (o ++ r) + strokes m (o ++ r) <= 1 + length k + strokes m r)%nat).
Proof.
  intros I O K. assert (C : check_all m k o = true).
  { pose proof (enough_ok m) as H. unfold enough in H. rewrite forallb_forall in H. specialize (H _ I). cbn [fst snd] in H.
    apply andb_prop in H as [H1 H2]. destruct O as [-> | ->]; assumption. }
  destruct o as [|c0 o0] eqn:Eo.
  { unfold check_all in C. cbn [negb andb] in C. rewrite orb_false_r in C. apply str_eqb_eq in C. now contradiction K. }
  rewrite <- Eo in *. assert (Q : o <> []) by (rewrite Eo; discriminate). clear Eo O I v.
  destruct (plain (last o 0)) eqn:P.
  - pose proof (check_any m k o r Q P C) as H. unfold check in H. apply Nat.leb_le in H. rewrite <- (cost_first m o None r Q P) in H.
    rewrite <- (n_keys_front m o r Q) in H. unfold strokes at 1 3. rewrite (cost_app m o None r Q).
    assert (G : (strokes_after m (Some (last o 0%N)) r + match firstn 1 r with y :: _ => if pairs_with m (last o 0%N) [y] then alone y else 0 | [] => 0 end = strokes m r)%nat).
    { destruct r as [|y r]; [reflexivity|]. cbn [firstn]. destruct (pairs_with m (last o 0) [y]) eqn:PW.
      - destruct (after_pair m _ y r PW) as [-> ->]. lia.
      - rewrite (after_none m _ (y :: r) PW). lia. }
    split.
    + lia.
    + intros M F. rewrite F in H. replace (not_ime m) with true in H by (destruct m; (reflexivity || congruence)). pose proof (n_le m (o ++ r)) as L. cbn [andb negb] in H.
      rewrite andb_true_r in H. destruct (Nat.eqb (n_keys m (o ++ r)) 2) eqn:E2; [apply Nat.eqb_eq in E2; lia|apply Nat.eqb_neq in E2; lia].
  - unfold check_all in C. rewrite P, andb_false_r in C. apply orb_prop in C as [C|C]; [apply str_eqb_eq in C; now contradiction K|].
    destruct o as [|c [|d o]]; [congruence| |discriminate C]. cbn [last] in P. cbn [app].
    assert (Z : strokes m (c :: r) = (keys m None c r + strokes m r)%nat)
      by (unfold strokes at 1; cbn [strokes_after]; now rewrite (after_first m c r (first_of_tsu_n c P))).
    rewrite Z. unfold keys. unfold plain in P. apply negb_false_iff in P. unfold among in P. rewrite existsb_app in P.
    fold (among (hira_of c) n_kana) in P. fold (among (hira_of c) tsu_kana) in P.
    destruct (among (hira_of c) n_kana) eqn:N1.
    + pose proof (n_le m r). replace (among (hira_of c) tsu_kana) with false in C.
      * apply Nat.leb_le in C. split; [lia|]. intros M _. rewrite (n_of_n m c r M N1). lia.
      * apply among_In in N1. revert N1. generalize (hira_of c). intros h J. vm_compute in J. destruct J as [<-|[]]. reflexivity.
    + cbn [orb] in P. rewrite P in *. apply Nat.leb_le in C. pose proof (tsu_le m c r). split; [lia|]. intros M _.
      pose proof (n_le m (c :: r)). destruct (Nat.eq_dec (n_keys m (c :: r)) 2) as [E2|E2]; [pose proof (n_of_tsu m c r M P E2)|]; lia.
Qed.

Lemma n_walk m seg rest n : low seg = u "n" -> k_at (tree_of m) (low seg) = Some n -> kout n <> None ->
  match rest with [] => True | c :: _ => k_find n (ascii_lower c) = None end -> m <> Ime /\ match rest with [] => True | c :: _ => follow_b c = false end.
Proof.
  intros L A O R. rewrite L in A. assert (M : m <> Ime).
  { intros ->. destruct (kout n) as [v|] eqn:Q; [|congruence]. apply (ime_no_n v). apply entry_node. eauto. }
  split; [exact M|]. destruct (n_node_default m M) as (n' & A' & _ & T). rewrite A in A'. injection A' as <-.
  destruct rest as [|c rest]; [exact I|]. apply k_find_None in R. rewrite T in R. destruct (follow_b c) eqn:F; [|reflexivity]. exfalso. apply R.
  unfold follow_b in F. apply among_In in F. revert F. generalize (ascii_lower c). intros d F. vm_compute in F. vm_compute. tauto.
Qed.
Definition big (l : str) : bool := forallb (fun c => 128 <=? c) l.
Lemma alphabet_big : big alphabet = true.
Proof. vm_cast_no_check (eq_refl true). Qed.
Lemma big_not_ascii l c : big l = true -> In c l -> ~ ascii c.
Proof. unfold big, ascii. rewrite forallb_forall. intros F I. specialize (F c I). lia. Qed.
Lemma letters_alphabet m c : In c (letters m) -> In c alphabet.
Proof. unfold letters. rewrite filter_In. now intros [H _]. Qed.
Lemma typeable_not_ascii m c : typeable m c -> ~ ascii c.
Proof. intro H. exact (big_not_ascii alphabet c alphabet_big (letters_alphabet m c (letters_In m c H))). Qed.
Lemma hd_low (seg : str) c s rest : c :: s = seg ++ rest -> seg <> [] -> hd 0 (low seg) = ascii_lower c.
Proof. destruct seg as [|d seg]; [congruence|]. cbn [app low map hd]. intro H. now injection H as <- _. Qed.
Lemma lower_idem c : follow_b (ascii_lower c) = follow_b c.
Proof. unfold follow_b. f_equal. unfold ascii_lower. ifs; lia. Qed.
Lemma emit_n seg : emit seg (u "ん") = [if forallb is_AZ seg then ch "ン" else ch "ん"].
Proof. unfold emit. destruct (forallb is_AZ seg); vm_compute; reflexivity. Qed.
Lemma lower_bound m : forall s, Forall ascii s -> Forall (typeable m) (conv m s) ->
  (strokes m (conv m s) <= length s)%nat
  /\ (m <> Ime -> match s with [] => True | c :: _ => follow_b c = false end -> (n_keys m (conv m s) + strokes m (conv m s) <= 1 + length s)%nat).
Proof.
  induction s as [s IH] using str_ind_len. intros A T. destruct s as [|c s].
  { cbn [length]. change (conv m []) with (@nil N). split; [cbn; lia|]. intros M _. destruct m; cbn; (lia || congruence). }
  destruct (kconv_step m c s) as [(seg & rest & n & v & Sp & N & K & At & O & R & Q)|[O Q]].
  2:{ exfalso. rewrite Q in T. apply Forall_inv in T, A. exact (typeable_not_ascii m c T A). }
  rewrite Q in *. rewrite Sp in A. apply Forall_app in A as [A1 A2]. apply Forall_app in T as [T1 T2].
  assert (L : (length (c :: s) = length seg + length rest)%nat) by (rewrite Sp; apply app_length).
  assert (Ls : (1 <= length seg)%nat) by (destruct seg; [congruence|cbn; lia]).
  destruct (IH rest ltac:(rewrite L; lia) A2 T2) as [I1 I2].
  assert (En : entry m (low seg) v) by (apply entry_node; eauto).
  assert (Ll : length (low seg) = length seg) by apply map_length.
  destruct (list_eq_dec N.eq_dec (low seg) (u "n")) as [Z|Z].
  - assert (O' : kout n <> None) by congruence. destruct (n_walk m seg rest n Z At O' R) as [M F]. specialize (I2 M F).
    assert (V : v = u "ん"). { destruct (n_node_default m M) as (n' & A' & O2 & _). rewrite <- Z, At in A'. injection A' as <-. congruence. }
    subst v. rewrite emit_n. cbn [app]. set (d := if forallb is_AZ seg then ch "ン" else ch "ん").
    assert (Hd : among (hira_of d) n_kana = true /\ plain d = false) by (subst d; destruct (forallb is_AZ seg); split; vm_compute; reflexivity).
    destruct Hd as [Hn Hp].
    assert (Y : strokes m (d :: conv m rest) = (n_keys m (conv m rest) + strokes m (conv m rest))%nat).
    { unfold strokes at 1. cbn [strokes_after]. rewrite (after_first m d _ (first_of_tsu_n d Hp)). unfold keys. now rewrite Hn. }
    rewrite Y, (n_of_n m d _ M Hn). split; [lia|]. intros _ _. lia.
  - destruct (step_le m (low seg) v (emit seg v) (conv m rest) En) as [S1 S2].
    { unfold emit. destruct (forallb is_AZ seg); auto. }
    { exact Z. }
    split; [lia|]. intros M F. rewrite (hd_low seg c s rest Sp N), lower_idem in S2. specialize (S2 M F). lia.
Qed.
