(** * Proofs of the theorems of Props_Compare.v *)
From Verif Require Import Tac Base Std Convert KanaPure KanaSpec KanaDict ScriptSpec Predicates ScriptProofs RomajiPure FixedSpec Cost CostSpec CostProofs Compare CompareSpec CompareSearch CompareProofs CompareRomaji CompareResults.

Lemma bangs s : Forall (eq (ch "!")) s -> s = repeat (ch "!") (length s).
Proof. induction 1 as [|c s <- _ IH]; [reflexivity|]. cbn [length repeat]. now rewrite <- IH. Qed.

Lemma C100_kana_proof :
  forall E, std_ok E -> forall o s, exists r l n,
    to_kana_with_opt E s o = Ok r /\ to_kana_cmp E s o = Ok (r, l) /\
    begin_none (mode_of o) s n /\ (forall n', begin_none (mode_of o) s n' -> n' = n) /\
    (length s <= l /\ l + 6 * n <= 50 * length s)%nat /\
    (n = length s -> l = 44 * length s)%nat /\
    (l = length s <-> s = repeat (ch "!") (length s)).
Proof.
  intros E HE o s. rewrite to_kana_with_opt_eq, to_kana_cmp_ok by exact HE. pose proof (k_tree_is o) as T. rewrite k_tree_mode in *.
  set (t := tree_of (mode_of o)) in *. exists (kconv t s), (kcmp t s), (foreigns t s).
  split; [reflexivity|]. split; [reflexivity|]. split; [apply begin_none_count|]. split; [intros n'; apply begin_none_det|].
  destruct (kcmp_lower t s T) as [L1 L2]. split; [split; [exact L1|now apply kcmp_upper]|]. split; [now apply kcmp_foreign|].
  split; [intro Q; now apply bangs, L2|]. intro Q. rewrite Q at 1. now apply kcmp_bangs.
Qed.

Lemma C100_search_proof :
  forall keys k, keys <> [] ->
    (exists n, bsearch_152_cmp keys k = (bsearch_152 keys k, n) /\ (1 <= n <= 1 + Nat.log2 (length keys))%nat /\
       ((forall x, In x keys -> k < x) -> n = (1 + Nat.log2 (length keys))%nat)) /\
    bsearch_182_cmp keys k = (bsearch_182 keys k, (1 + Nat.log2_up (length keys))%nat).
Proof.
  intros keys k NE. destruct (search_152 keys k) as (A & B & C). specialize (C NE). assert (Q : top_152 (length keys) = S (Nat.log2 (length keys))) by (destruct keys; [easy|reflexivity]).
  split.
  - exists (snd (bsearch_152_cmp keys k)). rewrite Q in B. split; [rewrite <- A; apply surjective_pairing|]. split; [cbn [Nat.add]; split; [exact C|exact B]|].
    intro L. rewrite (search_152_low keys k L). exact Q.
  - rewrite search_182. destruct keys; [easy|reflexivity].
Qed.

Lemma C100_romaji_proof :
  forall E, std_ok E -> forall o s,
    ((forall keys k, bsearch E keys k = bsearch_152 keys k) -> exists r l,
       to_romaji_with_opt E s o = Ok r /\ to_romaji_cmp bsearch_152_cmp E s o = Ok (r, l) /\
       (length s <= l <= 14 * length s)%nat /\
       (l = length s <-> Forall (fun c => c = ch "は" \/ c = ch "ハ") s)) /\
    ((forall keys k, bsearch E keys k = bsearch_182 keys k) -> exists r l,
       to_romaji_with_opt E s o = Ok r /\ to_romaji_cmp bsearch_182_cmp E s o = Ok (r, l) /\
       (6 * length s <= l <= 16 * length s)%nat).
Proof.
  intros E HE o s. rewrite to_romaji_with_opt_eq by exact HE. split; intro V.
  - destruct (romaji_152 E HE o s V) as (n & p & x & l & -> & L & Bx & Cv & Up & Lo & Los & R). eexists; eexists. split; [reflexivity|]. split; [reflexivity|].
    split; [lia|]. split.
    + intro Q. apply (all_ha true [] s (k2h E true s)); [now apply k2h_text|constructor|]. apply los_152.
      assert (G : forall t, (2 * length t <= los lo_152 t)%nat) by (clear; induction t as [|c t IH]; [cbn; lia|]; change (los lo_152 (c :: t)) with (lo_152 c + los lo_152 t)%nat; unfold lo_152 at 1; cbn [length]; destruct (c =? ha); lia).
      specialize (G (k2h E true s)). lia.
    + intro H. assert (K : ~ In long_mark s) by (intro I; rewrite Forall_forall in H; destruct (H _ I) as [Q|Q]; discriminate Q).
      apply no_marks in L; [|exact K]. subst n. rewrite (k2h_no_dash E true s K) in R. rewrite map_length in R.
      assert (M : map k2hc s = repeat ha (length s)) by (clear - H; induction H as [|c s [->| ->] H IH]; [reflexivity| |]; cbn [map length repeat]; rewrite IH; reflexivity).
      rewrite M, ha_152 in R by exact V. lia.
  - destruct (romaji_182 E HE o s V) as (n & p & x & l & -> & L & Bx & Cv & Up & Lo & Los & R). eexists; eexists. split; [reflexivity|]. split; [reflexivity|].
    rewrite los_182 in Los. lia.
Qed.

Lemma C100_marks_proof :
  forall E, std_ok E -> forall o s, exists t n p,
    katakana_to_hiragana_with_opt E s true = Ok t /\ lengthening [] s n p /\
    ((forall keys k, bsearch E keys k = bsearch_152 keys k) -> exists r l r' l',
       to_romaji_cmp bsearch_152_cmp E s o = Ok (r, l) /\ to_romaji_cmp bsearch_152_cmp E t o = Ok (r', l') /\
       (l' + n <= l <= l' + 7 * n)%nat) /\
    ((forall keys k, bsearch E keys k = bsearch_182 keys k) -> exists r l r' l',
       to_romaji_cmp bsearch_182_cmp E s o = Ok (r, l) /\ to_romaji_cmp bsearch_182_cmp E t o = Ok (r', l') /\
       l = (l' + 8 * n)%nat).
Proof.
  intros E HE o s. destruct (k2h_count_ok E true s HE) as (n & p & _ & L). exists (k2h E true s), n, p.
  split; [now apply katakana_to_hiragana_with_opt_eq|]. split; [exact L|].
  split; intro V.
  - destruct (marked_152 E HE o s V) as (n' & p' & x & l & l' & L' & Bx & -> & -> & ->). destruct (lengthening_det _ _ _ _ L _ _ L') as [<- <-].
    do 4 eexists. split; [reflexivity|]. split; [reflexivity|]. lia.
  - destruct (marked_182 E HE o s V) as (n' & p' & x & l & l' & L' & Bx & -> & -> & ->). destruct (lengthening_det _ _ _ _ L _ _ L') as [<- <-].
    do 4 eexists. split; [reflexivity|]. split; [reflexivity|]. lia.
Qed.

Lemma C100_worst_proof :
  forall E, std_ok E -> forall o m,
    (exists r, to_kana_cmp E (repeat (ch "z") (m + 2)) o = Ok (r, 50 * m + 81)%nat) /\
    ((forall keys k, bsearch E keys k = bsearch_152 keys k) ->
       exists r, to_romaji_cmp bsearch_152_cmp E (repeat (ch "っ") (m + 1)) o = Ok (r, 14 * m + 7)%nat) /\
    ((forall keys k, bsearch E keys k = bsearch_182 keys k) ->
       (exists r, to_romaji_cmp bsearch_182_cmp E (repeat (ch "っ") (m + 1)) o = Ok (r, 16 * m + 8)%nat) /\
       (exists r, to_romaji_cmp bsearch_182_cmp E (concat (repeat (u "きゃ") m)) o = Ok (r, 12 * m)%nat)).
Proof.
  intros E HE o m. replace (m + 2)%nat with (S (S m)) by lia. replace (m + 1)%nat with (S m) by lia.
  assert (D : ~ In long_mark (repeat (ch "っ") (S m))) by (intro I; apply repeat_spec in I; discriminate).
  assert (M : map k2hc (repeat (ch "っ") (S m)) = repeat (ch "っ") (S m)) by (clear; induction (S m) as [|j IH]; [reflexivity|]; cbn [repeat map]; now rewrite IH).
  split; [|split; intro V; [|split]].
  - rewrite to_kana_cmp_ok, kcmp_z by (exact HE || apply k_tree_is). eauto.
  - destruct (romaji_152 E HE o (repeat (ch "っ") (S m)) V) as (n & p & x & l & -> & L & Bx & _ & _ & _ & _ & R).
    apply no_marks in L; [|exact D]. subst n. rewrite (k2h_no_dash E true _ D), M, repeat_length, tsu_152 in R by exact V. replace (x + l)%nat with (14 * m + 7)%nat by lia. eauto.
  - destruct (romaji_182 E HE o (repeat (ch "っ") (S m)) V) as (n & p & x & l & -> & L & Bx & _ & _ & _ & _ & R).
    apply no_marks in L; [|exact D]. subst n. rewrite (k2h_no_dash E true _ D), M, repeat_length, tsu_182 in R by exact V. replace (x + l)%nat with (16 * m + 8)%nat by lia. eauto.
  - assert (D' : ~ In long_mark (concat (repeat (u "きゃ") m))) by (intro I; apply in_concat in I; destruct I as (y & I & J); apply repeat_spec in I; subst y; destruct J as [J|[J|[]]]; discriminate J).
    assert (M' : map k2hc (concat (repeat (u "きゃ") m)) = concat (repeat (u "きゃ") m)) by (clear; induction m as [|j IH]; [reflexivity|]; change (concat (repeat (u "きゃ") (S j))) with (ch "き" :: ch "ゃ" :: concat (repeat (u "きゃ") j)); cbn [map]; rewrite IH; reflexivity).
    destruct (romaji_182 E HE o (concat (repeat (u "きゃ") m)) V) as (n & p & x & l & -> & L & Bx & _ & _ & _ & _ & R).
    apply no_marks in L; [|exact D']. subst n. rewrite (k2h_no_dash E true _ D'), M', kya_182 in R; [|exact V|].
    + replace (x + l)%nat with (12 * m)%nat by lia. eauto.
    + clear. induction m as [|j IH]; [cbn; lia|]. change (concat (repeat (u "きゃ") (S j))) with (ch "き" :: ch "ゃ" :: concat (repeat (u "きゃ") j)). cbn [length]. lia.
Qed.
