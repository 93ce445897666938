(** * Romanised kana typed back (proofs for C112) *)
From Verif Require Import Tac Base Std Constants Chars Trees KanaTree RomajiTree Strings Convert
  KanaPure RomajiPure KanaSpec KanaDict KanaProofs Predicates ScriptSpec ScriptProofs RomajiSpec RomajiProofs MoraProofs TokenSpec KanaJoinSpec CompleteSpec Complete SyllablesSpec Syllables.

(** [x] directly followed by [y] *)
Fixpoint adj (x y : N) (s : str) : bool :=
  match s with
  | c :: ((d :: _) as r) => ((c =? x) && (d =? y)) || adj x y r
  | _ => false
  end.
Lemma adj_cons x y c d r : adj x y (c :: d :: r) = ((c =? x) && (d =? y)) || adj x y (d :: r).
Proof. reflexivity. Qed.
Lemma adj_app x y w r : adj x y w = false -> last w 0 <> x -> adj x y r = false -> adj x y (w ++ r) = false.
Proof.
  intros W L R. induction w as [|c w IH]; [exact R|]. destruct w as [|d w].
  - cbn [app]. destruct r as [|e r]; [reflexivity|]. cbn [last] in L. rewrite adj_cons, R. lia.
  - change ((c :: d :: w) ++ r) with (c :: d :: (w ++ r)). rewrite adj_cons in *. apply orb_false_iff in W as [W1 W2]. rewrite W1. cbn [orb].
    apply IH; [exact W2|exact L].
Qed.
Lemma adj_concat x y ws : Forall (fun w => adj x y w = false /\ last w 0 <> x) ws -> adj x y (concat ws) = false.
Proof. induction 1 as [|w ws [A B] _ IH]; [reflexivity|]. cbn [concat]. now apply adj_app. Qed.
Lemma adj_true x y a b : adj x y (a ++ x :: y :: b) = true.
Proof.
  induction a as [|c a IH]; [cbn [app adj]; now rewrite !N.eqb_refl|]. cbn [app]. destruct (a ++ x :: y :: b) as [|d r] eqn:Q; [destruct a; discriminate Q|].
  rewrite adj_cons, IH. apply orb_true_r.
Qed.
Definition has_tch (w : str) : Prop := exists a b, w = a ++ u "tch" ++ b.
Fixpoint has_tch_b (w : str) : bool := prefixb (u "tch") w || match w with [] => false | _ :: r => has_tch_b r end.
Lemma has_tch_b_true w : has_tch_b w = true -> has_tch w.
Proof.
  induction w as [|c w IH]; cbn [has_tch_b]; intros H; apply orb_prop in H as [H|H]; try discriminate H.
  - apply prefixb_spec in H as (r & Q). exists [], r. exact Q.
  - destruct (IH H) as (a & b & ->). exists (c :: a), b. reflexivity.
Qed.
Definition words : list str := u "-" :: syllables.
Lemma words_kana m w : m <> Ime -> In w words -> ~ has_tch w -> exists ps, w = concat ps /\ Forall (kana_piece m) ps.
Proof.
  intros M I H. assert (T : forallb (fun w => has_tch_b w || forallb kana_b (conv m w)) words = true) by (destruct m; [vm_compute; reflexivity|vm_compute; reflexivity|congruence]).
  rewrite forallb_forall in T. specialize (T w I). apply orb_prop in T as [T|T]; [exfalso; exact (H (has_tch_b_true _ T))|].
  apply (forallb_Forall kana_b S_kana _ kana_b_spec) in T. apply complete_iff in T as [T _]. exact T.
Qed.
Lemma words_low ws : Forall (fun w => In w words) ws -> low (concat ws) = concat ws.
Proof.
  assert (T : forallb (fun w => str_eqb (low w) w) words = true) by (vm_compute; reflexivity). rewrite forallb_forall in T.
  induction 1 as [|w ws I _ IH]; [reflexivity|]. cbn [concat]. rewrite low_app, IH. f_equal. apply str_eqb_eq, (T w I).
Qed.
Lemma words_yy w : In w words -> adj (ch "y") (ch "y") w = false /\ last w 0 <> ch "y".
Proof.
  intros I. assert (T : forallb (fun w => negb (adj (ch "y") (ch "y") w) && negb (last w 0 =? ch "y")) words = true) by (vm_compute; reflexivity).
  rewrite forallb_forall in T. specialize (T w I). apply andb_prop in T as [A B]. split; [now destruct (adj _ _ w)|]. now apply N.eqb_neq, negb_true_iff.
Qed.
Lemma keys_tc m k v : entry m k v -> adj (ch "t") (ch "c") k = false /\ last k 0 <> ch "t".
Proof.
  intros I. assert (T : forallb (fun e => negb (adj (ch "t") (ch "c") (fst e)) && negb (last (fst e) 0 =? ch "t")) (dict m) = true) by (destruct m; vm_compute; reflexivity).
  rewrite forallb_forall in T. specialize (T _ I). cbn [fst] in T. clear I. apply andb_prop in T as [A B]. split; [now destruct (adj _ _ k)|]. now apply N.eqb_neq, negb_true_iff.
Qed.
Lemma complete_tc m s : complete m s -> ~ has_tch (low s).
Proof.
  intros [(ps & -> & P) _] (a & b & Q). assert (A : adj (ch "t") (ch "c") (low (concat ps)) = false).
  { unfold low. rewrite concat_map. apply adj_concat. apply Forall_map. revert P. apply Forall_impl. intros p [(c & -> & K)|(k & v & C & I & _)].
    - split; [reflexivity|]. cbn [map last]. rewrite kana_ascii_lower by exact K. intros ->. apply kana_b_spec in K. vm_compute in K. discriminate K.
    - apply casing_low in C. unfold low in C. rewrite C. exact (keys_tc m k v I). }
  rewrite Q in A. change (a ++ u "tch" ++ b) with (a ++ ch "t" :: ch "c" :: (ch "h" :: b)) in A. rewrite adj_true in A. discriminate A.
Qed.
Lemma syllabic_complete m t : m <> Ime -> syllabic t -> ~ has_tch t -> complete m t.
Proof.
  intros M (ws & -> & W) H. assert (W' : Forall (fun w => In w words) ws).
  { revert W. apply Forall_impl. intros w [I| ->]; [now right|now left]. }
  clear W. split.
  - revert H. induction W' as [|w ws I _ IH]; intros H; [exists []; now split|]. cbn [concat] in *.
    destruct (words_kana m w M I) as (ps & -> & P).
    { intros (a & b & ->). apply H. exists a, (b ++ concat ws). now rewrite <- !app_assoc. }
    destruct IH as (qs & -> & Q).
    { intros (a & b & X). apply H. exists (concat ps ++ a), b. now rewrite X, <- app_assoc. }
    exists (ps ++ qs). split; [now rewrite concat_app|]. now apply Forall_app.
  - intros _ x y y' z Q _ Y Y'. assert (A : adj (ch "y") (ch "y") (low (concat ws)) = false).
    { rewrite (words_low ws W'). apply adj_concat. revert W'. apply Forall_impl. exact words_yy. }
    rewrite Q, low_app in A. cbn [low map] in A. apply y_letter_low in Y, Y'. rewrite Y, Y', adj_true in A. discriminate A.
Qed.
Lemma typed_back E o o' s : std_ok E -> Forall sounded s -> imemode o' = false \/ use_obsolete_kana o' = true ->
  let t := rconv E (upcase_katakana o) s (k2h E true s) in
  (t <> [] /\ complete (mode_of o') t) <-> (t <> [] /\ ~ has_tch (low t)).
Proof.
  intros HE S M t. destruct (romaji_words E (upcase_katakana o) s HE S) as [W L]. fold t in L.
  assert (N : mode_of o' <> Ime) by (unfold mode_of; destruct (use_obsolete_kana o'), (imemode o'); try discriminate; destruct M; discriminate).
  split; intros [Z H]; (split; [exact Z|]).
  - exact (complete_tc _ _ H).
  - apply complete_low. apply syllabic_complete; [exact N| |exact H]. rewrite L. exact W.
Qed.
