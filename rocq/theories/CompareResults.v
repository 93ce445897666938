(** * The two versions of the search, and the characters that begin no key (C100) *)
From Verif Require Import Tac Base Std Constants Chars Trees KanaTree RomajiTree Strings Convert
  KanaPure RomajiPure KanaSpec KanaDict ScriptSpec Predicates ScriptProofs FixedSpec Cost CostSpec CostProofs Compare CompareSpec CompareSearch CompareProofs CompareRomaji.

Lemma begins_find m c : begins m c <-> k_find (tree_of m) (ascii_lower c) <> None.
Proof.
  split.
  - intros (d & k & v & L & H). apply lowers_lower in L. subst d. apply entry_node in H. destruct H as (n & A & _). cbn in A.
    intro F. now rewrite F in A.
  - intro H. destruct (k_find (tree_of m) (ascii_lower c)) as [n|] eqn:F; [|easy].
    destruct (node_viable m [ascii_lower c] n) as (k & v & A); [cbn; now rewrite F|]. exists (ascii_lower c), k, v. split; [now apply lowers_lower|exact A].
Qed.
Lemma begin_none_count m s : begin_none m s (foreigns (tree_of m) s).
Proof.
  induction s as [|c s IH]; [constructor|]. rewrite foreigns_cons. unfold foreign at 1. destruct (k_find _ _) eqn:F.
  - apply BN_key; [apply begins_find; now rewrite F|exact IH].
  - apply BN_other; [rewrite begins_find, F; auto|exact IH].
Qed.
Lemma begin_none_det m s n : begin_none m s n -> n = foreigns (tree_of m) s.
Proof.
  induction 1 as [|c s n B H IH|c s n B H IH]; [reflexivity| |]; rewrite foreigns_cons; unfold foreign at 1; rewrite begins_find in B;
    destruct (k_find _ _); subst n; try reflexivity; exfalso; [now apply B|apply B; discriminate].
Qed.

(** ** to_romaji *)
Lemma top_182_mono n m : (n <= m)%nat -> (top_182 n <= top_182 m)%nat.
Proof. intro H. destruct n as [|n]; [cbn; lia|]. destruct m as [|m]; [lia|]. unfold top_182. apply le_n_S, Nat.log2_up_le_mono, H. Qed.
Lemma b_152 : b top_152 = 7%nat.
Proof. vm_compute. reflexivity. Qed.
Lemma b_182 : b top_182 = 8%nat.
Proof. vm_compute. reflexivity. Qed.
Lemma rcmp_repeat B E c x : rfind E RT c = Some x -> rfind E x c = None -> forall m,
  rcmp_f B E (S m) (repeat c (S m)) = ((rcost B RT c + rcost B x c) * m + rcost B RT c)%nat.
Proof.
  intros F1 F2. induction m as [|m IH].
  - cbn. rewrite F1. cbn. lia.
  - assert (N1 : forall f d r, rcmp_f B E (S f) (d :: r) = (rwc B E RT (d :: r) + rcmp_f B E f (skipn (Nat.max 1 (snd (rw E RT (d :: r)))) (d :: r)))%nat) by reflexivity.
    change (repeat c (S (S m))) with (c :: repeat c (S m)). rewrite N1.
    assert (W : rwc B E RT (c :: repeat c (S m)) = (rcost B RT c + rcost B x c)%nat) by (cbn; rewrite F1, F2; lia).
    assert (R : snd (rw E RT (c :: repeat c (S m))) = 1%nat) by (cbn; now rewrite F1, F2).
    rewrite W, R. cbn [Nat.max skipn]. rewrite IH. lia.
Qed.
Section Version.
  Context (E : std) (HE : std_ok E).
  (** Rust 1.52: は stands in the middle of the root and is found at once *)
  Definition ha : char := ch "は".
  Definition lo_152 (c : char) : nat := if c =? ha then 2 else 3.
  Definition F_152 (k : str) : nat :=
    match k with
    | [] => 0
    | [x] => 2 * rcost bsearch_152_cmp RT x
    | [x; _] => 2 * rcost bsearch_152_cmp RT x + 2
    | _ => los lo_152 k
    end.
  Definition lo_182 (c : char) : nat := 6.
  Definition F_182 (k : str) : nat :=
    match k with
    | [] => 0
    | [x] => 8
    | [x; _] => if x =? ch "っ" then 16 else 12
    | _ => los lo_182 k
    end.
  Lemma miss_152 keys k : (3 <= length keys)%nat -> bsearch_152 keys k = None -> (2 <= snd (bsearch_152_cmp keys k))%nat.
  Proof.
    unfold bsearch_152, bsearch_152_cmp. intros L H. remember (length keys) as size eqn:Z. clear Z.
    pose proof (half_lt size ltac:(lia)) as H1. assert (H2 : (1 <= Nat.div2 size)%nat) by (destruct size as [|[|size]]; cbn; lia).
    assert (H3 : (size - Nat.div2 size >= 2)%nat) by (pose proof (Nat.div2_odd size); destruct (Nat.odd size); cbn [Nat.b2n] in *; lia).
    cbn [bsearch_152_loop_cmp bsearch_152_loop] in *. destruct size as [|sz]; [lia|]. set (size := S sz) in *. clearbody size. cbn zeta in *.
    destruct (N.compare _ k); [discriminate| |]; apply loop_152; lia.
  Qed.
  Lemma root_keys : exists t, rtrans RT = Some t /\ length (map fst t) = 108%nat.
  Proof. eexists. split; vm_compute; reflexivity. Qed.
  Lemma root_miss c : (forall keys k, bsearch E keys k = bsearch_152 keys k) -> rfind E RT c = None -> (lo_152 c <= 2 * rcost bsearch_152_cmp RT c)%nat.
  Proof.
    intros V H. destruct root_keys as (t & R & L). assert (2 <= rcost bsearch_152_cmp RT c)%nat; [|unfold lo_152; destruct (c =? ha); lia].
    unfold rcost. rewrite R. apply miss_152; [rewrite L; lia|].
    pose proof (r_find_ok E [] RT c HE r_root) as Q. unfold r_find in Q. rewrite H, R in Q. rewrite <- V.
    destruct (bsearch E (map fst t) c) as [i|]; [|reflexivity]. unfold index in Q. destruct (nth_error t i); discriminate.
  Qed.
  Lemma root_182 c : rcost bsearch_182_cmp RT c = 8%nat.
  Proof. destruct root_keys as (t & R & L). unfold rcost. rewrite R, search_182, L. vm_compute. reflexivity. Qed.
  Lemma romaji_152 o s : (forall keys k, bsearch E keys k = bsearch_152 keys k) -> exists n p x l,
    to_romaji_cmp bsearch_152_cmp E s o = Ok (rconv E (upcase_katakana o) s (k2h E true s), (x + l)%nat) /\
    lengthening [] s n p /\ (1 * n <= x <= 7 * n)%nat /\ (length s <= n + length (k2h E true s))%nat /\ (x + l <= 2 * 7 * length s)%nat /\
    (length (k2h E true s) <= l)%nat /\ (los lo_152 (k2h E true s) <= 2 * l)%nat /\
    l = rcmp_f bsearch_152_cmp E (length (k2h E true s)) (k2h E true s).
  Proof.
    intro V. rewrite <- b_152. apply (to_romaji_cmp_ok bsearch_152_cmp E HE top_152) with (F := F_152).
    - intros keys k; rewrite V; apply search_152.
    - intros keys k; apply search_152.
    - intros keys k; apply search_152.
    - apply top_mono.
    - intros c; apply search_152; vm_compute; discriminate.
    - vm_compute; reflexivity.
    - reflexivity.
    - vm_compute; reflexivity.
    - vm_compute; reflexivity.
    - intros c; now apply root_miss.
  Qed.
  Lemma romaji_182 o s : (forall keys k, bsearch E keys k = bsearch_182 keys k) -> exists n p x l,
    to_romaji_cmp bsearch_182_cmp E s o = Ok (rconv E (upcase_katakana o) s (k2h E true s), (x + l)%nat) /\
    lengthening [] s n p /\ (8 * n <= x <= 8 * n)%nat /\ (length s <= n + length (k2h E true s))%nat /\ (x + l <= 2 * 8 * length s)%nat /\
    (length (k2h E true s) <= l)%nat /\ (los lo_182 (k2h E true s) <= 1 * l)%nat /\
    l = rcmp_f bsearch_182_cmp E (length (k2h E true s)) (k2h E true s).
  Proof.
    intro V. rewrite <- b_182. apply (to_romaji_cmp_ok bsearch_182_cmp E HE top_182) with (F := F_182).
    - intros keys k; rewrite V; now rewrite search_182.
    - intros keys k; now rewrite search_182.
    - intros keys k NE; rewrite search_182; cbn [snd]; destruct keys; [easy|]; cbn; lia.
    - apply top_182_mono.
    - intros c; rewrite search_182; vm_compute; lia.
    - vm_compute; reflexivity.
    - reflexivity.
    - vm_compute; reflexivity.
    - vm_compute; reflexivity.
    - intros c _; rewrite root_182; unfold lo_182; lia.
  Qed.
  Lemma marked_152 o s : (forall keys k, bsearch E keys k = bsearch_152 keys k) -> exists n p x l l',
    lengthening [] s n p /\ (1 * n <= x <= 7 * n)%nat /\
    to_romaji_cmp bsearch_152_cmp E s o = Ok (rconv E (upcase_katakana o) s (k2h E true s), (x + l)%nat) /\
    to_romaji_cmp bsearch_152_cmp E (k2h E true s) o = Ok (rconv E (upcase_katakana o) (k2h E true s) (k2h E true s), l') /\ l = l'.
  Proof.
    intro V. rewrite <- b_152. apply (k2h_cmp_marked bsearch_152_cmp E HE top_152) with (F := F_152) (lo := lo_152) (sc := 2%nat).
    - intros keys k; rewrite V; apply search_152.
    - intros keys k; apply search_152.
    - intros keys k; apply search_152.
    - apply top_mono.
    - intros c; apply search_152; vm_compute; discriminate.
    - vm_compute; reflexivity.
    - reflexivity.
    - vm_compute; reflexivity.
    - vm_compute; reflexivity.
    - intros c; now apply root_miss.
  Qed.
  Lemma marked_182 o s : (forall keys k, bsearch E keys k = bsearch_182 keys k) -> exists n p x l l',
    lengthening [] s n p /\ (8 * n <= x <= 8 * n)%nat /\
    to_romaji_cmp bsearch_182_cmp E s o = Ok (rconv E (upcase_katakana o) s (k2h E true s), (x + l)%nat) /\
    to_romaji_cmp bsearch_182_cmp E (k2h E true s) o = Ok (rconv E (upcase_katakana o) (k2h E true s) (k2h E true s), l') /\ l = l'.
  Proof.
    intro V. rewrite <- b_182. apply (k2h_cmp_marked bsearch_182_cmp E HE top_182) with (F := F_182) (lo := lo_182) (sc := 1%nat).
    - intros keys k; rewrite V; now rewrite search_182.
    - intros keys k; now rewrite search_182.
    - intros keys k NE; rewrite search_182; cbn [snd]; destruct keys; [easy|]; cbn; lia.
    - apply top_182_mono.
    - intros c; rewrite search_182; vm_compute; lia.
    - vm_compute; reflexivity.
    - reflexivity.
    - vm_compute; reflexivity.
    - vm_compute; reflexivity.
    - intros c _; rewrite root_182; unfold lo_182; lia.
  Qed.
  Lemma los_152 t : los lo_152 t = (2 * length t)%nat -> Forall (eq ha) t.
  Proof.
    assert (G : forall t, (2 * length t <= los lo_152 t)%nat) by (clear; induction t as [|c t IH]; [cbn; lia|]; change (los lo_152 (c :: t)) with (lo_152 c + los lo_152 t)%nat; unfold lo_152 at 1; cbn [length]; destruct (c =? ha); lia).
    induction t as [|c t IH]; intro H; [constructor|]. change (los lo_152 (c :: t)) with (lo_152 c + los lo_152 t)%nat in H. specialize (G t).
    unfold lo_152 in H at 1. cbn [length] in H. destruct (c =? ha) eqn:Q; [|lia]. apply N.eqb_eq in Q. constructor; [easy|]. apply IH. lia.
  Qed.
  Lemma los_182 t : los lo_182 t = (6 * length t)%nat.
  Proof. induction t as [|c t IH]; [reflexivity|]. change (los lo_182 (c :: t)) with (6 + los lo_182 t)%nat. cbn [length]. lia. Qed.
  Definition is_ha (c : char) : Prop := c = ch "は" \/ c = ch "ハ".
  Lemma all_ha d a s t : hiragana_text (o_vowel d) a s t -> Forall is_ha a -> Forall (eq ha) t -> Forall is_ha s.
  Proof.
    intro H. induction H as [a|a c s q t P H IH]; intros A T; [constructor|]. apply Forall_app in T. destruct T as [Q T].
    assert (C : is_ha c).
    { destruct P as [(Nc & h & Hh & ->)|[(_ & k & (a1 & a2 & -> & K & _) & row & I & J)|(_ & _ & ->)]].
      - inversion_clear Q as [|? ? Q' _]. unfold is_ha. subst h. revert Hh. unfold hiragana_for, ha.
        change (ch "は") with 0x306F. change (ch "ハ") with 0x30CF. change (ch "わ") with 0x308F. change (ch "ゐ") with 0x3090. change (ch "ゑ") with 0x3091. change (ch "を") with 0x3092. lia.
      - exfalso. apply Forall_app in A. destruct A as [_ A]. inversion_clear A as [|? ? B _].
        assert (k = ch "ハ") by (destruct B as [->|B]; [revert K; unfold katakana_letter; change (ch "は") with 0x306F; lia|exact B]). subst k.
        assert (W : forallb (fun r => negb (existsb (N.eqb (ch "ハ")) (fst r)) || str_eqb (snd r) (u "あ")) (mark_table (o_vowel d)) = true) by (destruct d; vm_compute; reflexivity).
        rewrite forallb_forall in W. specialize (W _ I). cbn [fst snd] in W. apply orb_prop in W. destruct W as [W|W].
        + apply negb_true_iff in W. apply not_true_iff_false in W. apply W. apply existsb_exists. exists (ch "ハ"). split; [exact J|reflexivity].
        + apply str_eqb_eq in W. subst q. inversion_clear Q as [|? ? Q' _]. discriminate Q'.
      - inversion_clear Q as [|? ? Q' _]. discriminate Q'. }
    constructor; [exact C|]. apply IH; [|exact T]. apply Forall_app. split; [exact A|now constructor].
  Qed.
  Definition found (bs : list char -> char -> option nat) (n : rnode) (c : char) : option rnode :=
    match rtrans n with
    | Some t => match bs (map fst t) c with Some i => option_map snd (nth_error t i) | None => None end
    | None => None
    end.
  Lemma rfind_found bs : (forall keys k, bsearch E keys k = bs keys k) -> forall n c, rfind E n c = found bs n c.
  Proof. intros V n c. unfold rfind, found. destruct (rtrans n) as [t|]; [now rewrite V|reflexivity]. Qed.
  Lemma small_tsu bs : (forall keys k, bsearch E keys k = bs keys k) ->
    forall x, found bs RT (ch "っ") = Some x -> found bs x (ch "っ") = None -> rfind E RT (ch "っ") = Some x /\ rfind E x (ch "っ") = None.
  Proof. intros V x Q1 Q2. now rewrite !(rfind_found bs V). Qed.
  Lemma tsu_152 m : (forall keys k, bsearch E keys k = bsearch_152 keys k) ->
    rcmp_f bsearch_152_cmp E (S m) (repeat (ch "っ") (S m)) = (14 * m + 7)%nat.
  Proof.
    intro V. destruct (small_tsu _ V _ ltac:(vm_compute; reflexivity) ltac:(vm_compute; reflexivity)) as [F1 F2].
    rewrite (rcmp_repeat _ _ _ _ F1 F2). match goal with |- context [((?a + ?c) * m)%nat] => replace a with 7%nat by (vm_compute; reflexivity); replace c with 7%nat by (vm_compute; reflexivity) end. lia.
  Qed.
  Lemma tsu_182 m : (forall keys k, bsearch E keys k = bsearch_182 keys k) ->
    rcmp_f bsearch_182_cmp E (S m) (repeat (ch "っ") (S m)) = (16 * m + 8)%nat.
  Proof.
    intro V. destruct (small_tsu _ V _ ltac:(vm_compute; reflexivity) ltac:(vm_compute; reflexivity)) as [F1 F2].
    rewrite (rcmp_repeat _ _ _ _ F1 F2). match goal with |- context [((?a + ?c) * m)%nat] => replace a with 8%nat by (vm_compute; reflexivity); replace c with 8%nat by (vm_compute; reflexivity) end. lia.
  Qed.
  Lemma no_marks s n p : lengthening [] s n p -> ~ In long_mark s -> n = 0%nat.
  Proof.
    intro H. induction H as [a|a s k n p Kl L IH|a c s n p Kl L IH]; intro K; [reflexivity|exfalso; apply K; now left|]. apply IH. intro I. apply K. now right.
  Qed.
  Lemma ha_152 m : (forall keys k, bsearch E keys k = bsearch_152 keys k) -> rcmp_f bsearch_152_cmp E m (repeat ha m) = m.
  Proof.
    intro V. destruct m as [|m]; [reflexivity|].
    assert (Q : exists x, found bsearch_152 RT ha = Some x /\ found bsearch_152 x ha = None /\ rcost bsearch_152_cmp RT ha = 1%nat /\ rcost bsearch_152_cmp x ha = 0%nat)
      by (eexists; repeat split; vm_compute; reflexivity).
    destruct Q as (x & F1 & F2 & C1 & C2). rewrite <- (rfind_found _ V) in F1, F2. rewrite (rcmp_repeat _ _ _ _ F1 F2), C1, C2. lia.
  Qed.
  Lemma kya_182 m : (forall keys k, bsearch E keys k = bsearch_182 keys k) -> forall f, (m <= f)%nat ->
    rcmp_f bsearch_182_cmp E f (concat (repeat (u "きゃ") m)) = (12 * m)%nat.
  Proof.
    intro V. assert (Q : exists x y, found bsearch_182 RT (ch "き") = Some x /\ found bsearch_182 x (ch "ゃ") = Some y /\ rtrans y = None /\
      rcost bsearch_182_cmp RT (ch "き") = 8%nat /\ rcost bsearch_182_cmp x (ch "ゃ") = 4%nat)
      by (eexists; eexists; repeat split; vm_compute; reflexivity).
    destruct Q as (x & y & F1 & F2 & T & C1 & C2). rewrite <- (rfind_found _ V) in F1, F2.
    induction m as [|m IH]; intros [|f] Hf; [reflexivity|reflexivity|lia|].
    change (concat (repeat (u "きゃ") (S m))) with (ch "き" :: ch "ゃ" :: concat (repeat (u "きゃ") m)). set (r := concat _) in *.
    assert (N0 : rwc bsearch_182_cmp E y r = 0%nat).
    { destruct r as [|c r']; [reflexivity|]. cbn [rwc]. unfold rcost, rfind. rewrite T. reflexivity. }
    assert (N1 : rw E y r = (y, 0%nat)).
    { destruct r as [|c r']; [reflexivity|]. cbn [rw]. unfold rfind. now rewrite T. }
    assert (W : rwc bsearch_182_cmp E RT (ch "き" :: ch "ゃ" :: r) = 12%nat) by (cbn [rwc]; rewrite F1, F2, C1, C2, N0; reflexivity).
    assert (R : snd (rw E RT (ch "き" :: ch "ゃ" :: r)) = 2%nat) by (cbn [rw]; rewrite F1, F2, N1; reflexivity).
    assert (N2 : forall f d r, rcmp_f bsearch_182_cmp E (S f) (d :: r) = (rwc bsearch_182_cmp E RT (d :: r) + rcmp_f bsearch_182_cmp E f (skipn (Nat.max 1 (snd (rw E RT (d :: r)))) (d :: r)))%nat) by reflexivity.
    rewrite N2, W, R. cbn [Nat.max skipn]. rewrite IH by lia. lia.
  Qed.
End Version.
