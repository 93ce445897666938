(** * Proofs of the theorems of Props_Strokes.v *)
From Coq Require Import PeanoNat.
From Verif Require Import Tac Base Std Constants Chars Trees KanaTree Strings Convert
  KanaPure KanaSpec KanaDict KanaProofs TypingSpec Splits StrokeSpec Strokes StrokesUp ScriptSpec ScriptProofs StrokesScript.

Lemma keys_le3 m p c r : (keys m p c r <= 3)%nat.
Proof.
  assert (R : forall a b k, pair m a b = Some k -> (k <= 3)%nat).
  { intros a b k. unfold pair, two. destruct (Bool.eqb _ _); [|discriminate]. generalize (hira_of a) (hira_of b). clear. intros a b.
    assert (F : forallb (fun x => Nat.leb (snd x) 3) (match m with Obsolete => rules_obsolete | _ => rules end) = true) by (destruct m; vm_compute; reflexivity).
    destruct (find _ _) as [x|] eqn:Q; [|discriminate]. apply find_some in Q as [I _]. rewrite forallb_forall in F. specialize (F x I).
    apply Nat.leb_le in F. cbn. intro H. now injection H as <-. }
  assert (A : forall x, (alone x <= 3)%nat) by (intro x; unfold alone; destruct (among _ three_keys); [lia|destruct (among _ one_key); lia]).
  unfold keys. pose proof (n_le m r). pose proof (tsu_le m c r). destruct (match p with Some b => pairs_with m b [c] | None => false end); [lia|].
  destruct (among _ n_kana); [lia|]. destruct (among _ tsu_kana); [lia|]. destruct r as [|b r]; [apply A|]. destruct (pair m c b) eqn:P; [now apply (R c b)|apply A].
Qed.
Lemma strokes_le3 m : forall r p, (strokes_after m p r <= 3 * length r)%nat.
Proof. induction r as [|c r IH]; intro p; [cbn; lia|]. cbn [strokes_after length]. specialize (IH (Some c)). pose proof (keys_le3 m p c r). lia. Qed.

Lemma C104_fewest_proof :
  forall E, std_ok E -> forall o r, Forall (typeable (mode_of o)) r ->
    (exists s, Forall ascii s /\ to_kana_with_opt E s o = Ok r /\ length s = strokes (mode_of o) r)
    /\ (forall s, Forall ascii s -> to_kana_with_opt E s o = Ok r -> (strokes (mode_of o) r <= length s)%nat).
Proof.
  intros E HE o r T. split.
  - destruct (type_shortest (mode_of o) r T) as (s & A & C & L & _). exists s. split; [exact A|]. split; [|exact L].
    rewrite (to_kana_with_opt_eq E o s HE), k_tree_mode. now f_equal.
  - intros s A Q. rewrite (to_kana_with_opt_eq E o s HE), k_tree_mode in Q. injection Q as <-. exact (proj1 (lower_bound (mode_of o) s A T)).
Qed.

Lemma C104_scripts_proof :
  forall E, std_ok E -> forall o r, pass_romaji o = false ->
    Forall (typeable (mode_of o)) r -> Forall (fun c => ~ (ch "ァ" <= c <= ch "ヴ")) r ->
    ((exists s, Forall ascii s /\ to_hiragana_with_opt E s o = Ok r /\ length s = strokes (mode_of o) r)
     /\ (forall s, Forall ascii s -> to_hiragana_with_opt E s o = Ok r -> (strokes (mode_of o) r <= length s)%nat))
    /\ forall t, Forall2 katakana_for r t ->
      (exists s, Forall ascii s /\ to_katakana_with_opt E s o = Ok t /\ length s = strokes (mode_of o) r)
      /\ (forall s, Forall ascii s -> to_katakana_with_opt E s o = Ok t -> (strokes (mode_of o) r <= length s)%nat).
Proof.
  intros E HE o r P T K.
  assert (K' : Forall (fun c => katakana c = false) r).
  { apply Forall_forall. intros c I. rewrite Forall_forall in K. specialize (K c I). change (ch "ァ") with 0x30A1 in K. change (ch "ヴ") with 0x30F4 in K.
    unfold katakana. lia. }
  split; [exact (hiragana_strokes E o r HE P T K')|]. intros t F. apply h2k_spec in F. subst t. exact (katakana_strokes E o r HE P T K').
Qed.

Lemma C104_bounds_proof :
  forall m r, Forall (typeable m) r ->
    (length r <= strokes m r <= 3 * length r)%nat
    /\ strokes m (repeat (ch "あ") (length r)) = length r
    /\ strokes m (repeat (ch "ゃ") (length r)) = (3 * length r)%nat.
Proof.
  intros m r T. destruct (type_shortest m r T) as (s & _ & C & L & _). pose proof (conv_length m s) as H. rewrite C, L in H.
  split; [split; [exact H|apply strokes_le3]|]. clear. generalize (length r) as n. intro n.
  assert (G : forall c k, keys m None c [] = k -> keys m None c [c] = k -> plain c = true -> first_of_pair c = false ->
    strokes m (repeat c n) = (k * n)%nat).
  { intros c k K1 K2 P F. induction n as [|n IH]; [cbn; lia|]. cbn [repeat]. unfold strokes. cbn [strokes_after].
    rewrite (after_first m c _ F), IH, (keys_first m None c _ P). destruct n as [|n]; cbn [repeat firstn]; [rewrite K1|rewrite K2]; lia. }
  split; [rewrite (G (ch "あ") 1%nat); [lia|..]|apply (G (ch "ゃ") 3%nat)]; destruct m; vm_compute; reflexivity.
Qed.
