(** * Proofs of the theorems of Props_Tokenize.v *)
From Verif Require Import Base Tac Std Chars Strings Tokenize Predicates TokenSpec TokenizeProofs.

Lemma detailed_labels s compact f : labels compact f ->
  map snd (tokenize_detailed s compact) = tokenize_with_opt s compact /\
  tokenize s = tokenize_with_opt s false /\
  (forall k t, In (k, t) (tokenize_detailed s compact) -> t <> [] /\ forall c, In c t -> f c = k).
Proof.
  intro L. split; [reflexivity|]. split; [reflexivity|]. intros k t H.
  destruct (group_label token_type_eqb _ token_type_eqb_eq _ _ _ H) as [A B]. split; [exact A|].
  intros c I. rewrite (labels_eq compact f L). now apply B.
Qed.

Lemma C40_tokenize_lossless_proof :
  forall s compact,
    concat (tokenize_with_opt s compact) = s /\
    (forall t, In t (tokenize_with_opt s compact) -> t <> []) /\
    (tokenize_with_opt s compact = [] <-> s = []).
Proof.
  intros s compact. pose proof (tokenize_tokenisation s compact) as (A & B & _). split; [exact A|]. split; [exact B|].
  split; [intro Q; rewrite Q in A; now symmetry|intros ->; reflexivity].
Qed.

Lemma C41_maximal_runs_proof :
  forall s compact ty ts, labels compact ty ->
    (ts = tokenize_with_opt s compact <-> tokenisation ty ts s).
Proof.
  intros s compact ty ts L. exact (tokenize_labels compact ty s ts L).
Qed.

Lemma C42_detailed_proof :
  forall s compact ty, labels compact ty ->
    map snd (tokenize_detailed s compact) = tokenize_with_opt s compact /\
    tokenize s = tokenize_with_opt s false /\
    (forall k t, In (k, t) (tokenize_detailed s compact) -> t <> [] /\ forall c, In c t -> ty c = k).
Proof.
  exact detailed_labels.
Qed.

Lemma C43_labels_proof :
  (forall c k, get_type c false = k <-> label_spec k c) /\
  (forall c k, get_type c true = k <-> compact_spec k c) /\
  (forall c, In (get_type c true) [En; Ja; Other]).
Proof.
  split; [|split; [|exact compact_label]]; intros c k.
  - split; [intros <-; apply detailed_label|]. intro H. exact (label_unique c _ _ (detailed_label c) H).
  - split; [intros <-; apply compact_label_spec|]. intro H. exact (compact_unique c _ _ (compact_label_spec c) H).
Qed.

Lemma C44_compact_merges_partial_proof :
  forall s, merges (tokenize_with_opt s false) (tokenize_with_opt s true) <-> no_space_clash s.
Proof.
  intro s. split; [apply merged_no_clash|apply compact_merges].
Qed.

Lemma C44_compact_merges_refuted_proof :
  exists s, ~ merges (tokenize_with_opt s false) (tokenize_with_opt s true).
Proof.
  exact compact_merges_refuted.
Qed.

Lemma C45_concatenation_proof :
  forall compact ty, labels compact ty ->
  (forall a x y b, ty x <> ty y ->
     tokenize_with_opt ((a ++ [x]) ++ y :: b) compact
     = tokenize_with_opt (a ++ [x]) compact ++ tokenize_with_opt (y :: b) compact) /\
  (forall a x y b, ty x = ty y ->
     exists ts t z us, tokenize_with_opt (a ++ [x]) compact = ts ++ [t] /\
       tokenize_with_opt (y :: b) compact = z :: us /\
       tokenize_with_opt ((a ++ [x]) ++ y :: b) compact = ts ++ [t ++ z] ++ us) /\
  (forall s t, In t (tokenize_with_opt s compact) -> tokenize_with_opt t compact = [t]).
Proof.
  intros compact f L. pose proof (labels_eq compact f L) as LE.
  split; [intros a x y b; rewrite !LE; apply tokenize_app_diff|]. split; [|intros s t; apply tokenize_token].
  intros a x y b H. rewrite !LE in H.
  pose proof (tokenize_tokenisation (a ++ [x]) compact) as (A & _).
  pose proof (tokenize_tokenisation (y :: b) compact) as (B & _).
  destruct (tokenize_with_opt (a ++ [x]) compact) as [|t0 l] eqn:TA; [destruct a; discriminate|].
  destruct (tokenize_with_opt (y :: b) compact) as [|z us] eqn:TB; [discriminate|].
  destruct (exists_last (l := t0 :: l)) as (ts & t & Q); [discriminate|]. rewrite Q in *.
  exists ts, t, z, us. split; [reflexivity|]. split; [reflexivity|]. eapply tokenize_app_same; eauto.
Qed.
