(** * Proofs of the theorems of Props_System.v *)
From Coq Require Import Sorted.
From Verif Require Import Base Tac Std StdInstances Trees KanaTree RomajiTree Strings Convert Cli KanaPure RomajiPure KanaSpec KanaDict
  ScriptProofs RomajiProofs CliSpec CliProofs TreeSpec Bindings BindingsSpec BindingsProofs Utf8Proofs Results_Kana.

Lemma k_flat_snoc : forall key n m c x, In (key, m) (k_flat n) -> In (c, x) (ktrans m) -> In (key ++ [c], x) (k_flat n).
Proof.
  induction key as [|d key IH]; intros n m c x H I.
  - destruct n as [ts o]. cbn [k_flat In] in H. destruct H as [H|H].
    + inversion H; subst. cbn [app]. eapply k_flat_step; [exact I|apply k_flat_here].
    + exfalso. apply in_flat_map in H. destruct H as [[e y] [_ H]]. apply in_map_iff in H. destruct H as [p [H _]]. discriminate.
  - destruct n as [ts o]. cbn [k_flat In] in H. destruct H as [H|H]; [discriminate|].
    apply in_flat_map in H. destruct H as [[e y] [H1 H2]]. apply in_map_iff in H2. destruct H2 as [[k z] [H2 H3]].
    cbn [fst snd] in H2. inversion H2; subst. cbn [app]. eapply k_flat_step; [exact H1|]. eapply IH; eauto.
Qed.
Lemma k_inside_flat t n : k_inside t n -> exists key, In (key, n) (k_flat t).
Proof.
  induction 1 as [|n c m H (key & K) I]; [exists []; apply k_flat_here|]. exists (key ++ [c]). eapply k_flat_snoc; eauto.
Qed.
Lemma r_inside_flat n : r_inside TO_ROMAJI_NODE_TREE n -> exists key, r_node key n.
Proof.
  induction 1 as [|n c m H (key & K) I]; [exists []; apply r_root|]. exists (key ++ [c]). eapply r_flat_snoc; eauto.
Qed.

Fixpoint ascb (l : list N) : bool :=
  match l with
  | a :: (b :: _) as l' => (a <? b) && ascb l'
  | _ => true
  end.
Lemma ascb_ok l : ascb l = true -> ascending l.
Proof.
  intro H. apply Sorted_StronglySorted; [intros x y z; apply N.lt_trans|].
  induction l as [|a l IH]; [constructor|]. destruct l as [|b l]; [repeat constructor|].
  change ((a <? b) && ascb (b :: l) = true) in H. apply andb_prop in H. destruct H as [H1 H2].
  constructor; [auto|]. constructor. now apply N.ltb_lt.
Qed.
Lemma ascending_In {A} (l : list (N * A)) c x y : ascending (map fst l) -> In (c, x) l -> In (c, y) l -> x = y.
Proof.
  induction l as [|[d z] l IH]; intros S I J; [destruct I|]. cbn [map fst] in S. inversion S as [|? ? S1 S2]; subst.
  rewrite Forall_forall in S2.
  assert (X : forall w, In (d, w) l -> False).
  { intros w K. assert (d < d) by (apply S2; apply in_map_iff; exists (d, w); auto). lia. }
  destruct I as [I|I], J as [J|J]; [congruence| | |auto]; exfalso; [inversion I|inversion J]; subst; eauto.
Qed.

Definition kasc (t : knode) : bool := forallb (fun p => ascb (map fst (ktrans (snd p)))) (k_flat t).
Lemma kana_ascending m n : k_inside (tree_of m) n -> ascending (map fst (ktrans n)).
Proof.
  intro H. apply k_inside_flat in H. destruct H as (key & K). apply ascb_ok.
  assert (X : kasc (tree_of m) = true) by (destruct m; vm_compute; reflexivity).
  unfold kasc in X. rewrite forallb_forall in X. exact (X _ K).
Qed.

Lemma C51_command_line_proof :
  forall E, std_ok E ->
    command (to_kana E) (main_to_kana E) /\ command (to_romaji E) (main_to_romaji E).
Proof.
  exact C51_holds.
Qed.

Lemma C52_trees_proof :
  (forall m n, k_inside (tree_of m) n ->
     ascending (map fst (ktrans n)) /\
     (forall c x, k_find n c = Some x <-> In (c, x) (ktrans n))) /\
  (forall n, r_inside TO_ROMAJI_NODE_TREE n -> weakly_ascending (map fst (r_edges n))) /\
  (forall E n c, std_ok E -> r_inside TO_ROMAJI_NODE_TREE n ->
     (exists x, r_find E n c = Ok (Some x) /\ In (c, x) (r_edges n)) \/
     (r_find E n c = Ok None /\ forall x, ~ In (c, x) (r_edges n))).
Proof.
  split; [|split].
  - intros m n H. pose proof (kana_ascending m n H) as A. split; [exact A|]. intros c x. split; [apply k_find_In|].
    intro I. destruct (k_find n c) as [y|] eqn:F.
    + apply k_find_In in F. f_equal. exact (ascending_In _ c y x A F I).
    + apply k_find_None in F. exfalso. apply F. apply in_map_iff. now exists (c, x).
  - intros n H. apply r_inside_flat in H. destruct H as (k & K). apply romaji_sorted in K.
    apply Sorted_StronglySorted; [intros x y z; apply N.le_trans|exact K].
  - intros E n c HE H. apply r_inside_flat in H. destruct H as (k & K).
    rewrite (r_find_ok E k n c HE K). destruct (rfind E n c) as [x|] eqn:F.
    + left. exists x. split; [reflexivity|]. eapply rfind_Some; eauto.
    + right. split; [reflexivity|]. intros x I. apply (rfind_None E k n c HE K F). apply in_map_iff. now exists (c, x).
Qed.

Lemma C53_distinct_partial_proof :
  forall n c x y, r_inside TO_ROMAJI_NODE_TREE n -> c <> ch "ゔ" ->
    In (c, x) (r_edges n) -> In (c, y) (r_edges n) -> x = y.
Proof.
  intros n c x y H Nc. apply r_inside_flat in H. destruct H as (k & K). exact (rts_fun k n c x y K Nc).
Qed.

Lemma C53_distinct_refuted_proof :
  (exists x y z, In (ch "ゔ", x) (r_edges TO_ROMAJI_NODE_TREE) /\ In (ch "ゔ", y) (r_edges TO_ROMAJI_NODE_TREE) /\
     In (ch "ゔ", z) (r_edges TO_ROMAJI_NODE_TREE) /\ rout x = u "va" /\ rout y = u "vi" /\ rout z = u "vo") /\
  (to_romaji std_1_52 (u "っゔ") = Ok (u "vve") /\ to_romaji std_1_82 (u "っゔ") = Ok (u "vvo")).
Proof.
  split; [|vm_compute; auto].
  assert (X : forall v, existsb (fun p => (fst p =? ch "ゔ") && str_eqb (rout (snd p)) v) (r_edges TO_ROMAJI_NODE_TREE) = true ->
    exists x, In (ch "ゔ", x) (r_edges TO_ROMAJI_NODE_TREE) /\ rout x = v).
  { intros v H. apply existsb_exists in H. destruct H as [[c x] [I H]]. cbn [fst snd] in H. apply andb_prop in H.
    destruct H as [H1 H2]. apply N.eqb_eq in H1. apply str_eqb_eq in H2. subst. eauto. }
  destruct (X (u "va") ltac:(vm_compute; reflexivity)) as (x & X1 & X2).
  destruct (X (u "vi") ltac:(vm_compute; reflexivity)) as (y & Y1 & Y2).
  destruct (X (u "vo") ltac:(vm_compute; reflexivity)) as (z & Z1 & Z2).
  exists x, y, z. auto 10.
Qed.

Lemma C54_valid_proof :
  forall E s o t, std_ok E -> valid_str s ->
    to_kana_with_opt E s o = Ok t \/ to_hiragana_with_opt E s o = Ok t \/
    to_katakana_with_opt E s o = Ok t \/ to_romaji_with_opt E s o = Ok t -> valid_str t.
Proof.
  intros E s o t HE V H. rewrite valid_In in *. destruct H as [H|[H|[H|H]]].
  - rewrite (to_kana_conv E s o HE) in H. inversion H. now apply conv_scalar.
  - rewrite (to_hiragana_with_opt_eq E o s HE) in H. inversion H. now apply script_scalar.
  - rewrite (to_katakana_with_opt_eq E o s HE) in H. inversion H. now apply script_scalar.
  - rewrite (to_romaji_with_opt_eq E o s HE) in H. inversion H. now apply rom_scalar.
Qed.

Lemma C85_bindings_proof :
  forall E value, std_ok E -> (forall x s, well_formed x -> js_text x s -> value x = s) ->
    (forall name lib wasm node,
       In (name, lib, wasm, node)
         [(u "to_romaji", to_romaji E, wasm_to_romaji E, node_to_romaji value E);
          (u "to_kana", to_kana E, wasm_to_kana E, node_to_kana value E);
          (u "to_hiragana", to_hiragana E, wasm_to_hiragana E, node_to_hiragana value E);
          (u "to_katakana", to_katakana E, wasm_to_katakana E, node_to_katakana value E)] ->
       (forall f, In (name, f) (node_exports value E) <-> f = node) /\
       (forall x, Forall (fun c => c < 0x10000) x ->
          exists s r y, js_text x s /\ lib s = Ok r /\ js_text y r /\ well_formed y /\ wasm x = Ok y /\
            (well_formed x -> forall args, node (JsString x :: args) = Ok (Returns y)) /\
            (forall s', js_text x s' -> s' = s) /\ (forall y', js_text y' r -> well_formed y' -> y' = y)) /\
       node [] = Ok Throws /\ (forall args, node (JsOther :: args) = Ok Throws)) /\
    length (node_exports value E) = 4%nat.
Proof.
  intros E value HE V. split; [|reflexivity]. intros name lib wasm node I. split; [|split; [|split]].
  - intro f. cbn [In] in I. unfold node_exports.
    destruct I as [I|[I|[I|[I|[]]]]]; injection I as <- <- <- <-; cbn [In]; split;
      first [intros [H|[H|[H|[H|[]]]]]; first [discriminate H|now injection H as <-] | intros ->; auto 6].
  - intros x F. pose proof (from_utf16_text (length x) x (le_n _) F) as T. set (s := from_utf16 x) in *.
    pose proof (js_text_valid x s T) as VS.
    assert (exists r, lib s = Ok r /\ valid_str r) as (r & L & VR).
    { cbn [In] in I. destruct I as [I|[I|[I|[I|[]]]]]; injection I as <- <- <- <-; eexists; split.
      - apply (to_romaji_with_opt_eq E _ s HE).
      - eapply (C54_valid_proof E s _ _ HE VS). right. right. right. apply (to_romaji_with_opt_eq E _ s HE).
      - apply (to_kana_conv E s _ HE).
      - eapply (C54_valid_proof E s _ _ HE VS). left. apply (to_kana_conv E s _ HE).
      - apply (to_hiragana_with_opt_eq E _ s HE).
      - eapply (C54_valid_proof E s _ _ HE VS). right. left. apply (to_hiragana_with_opt_eq E _ s HE).
      - apply (to_katakana_with_opt_eq E _ s HE).
      - eapply (C54_valid_proof E s _ _ HE VS). right. right. left. apply (to_katakana_with_opt_eq E _ s HE). }
    assert (W : wasm x = Ok (to_utf16 r)).
    { transitivity (wasm_call lib x); [cbn [In] in I; destruct I as [I|[I|[I|[I|[]]]]]; injection I as <- <- <- <-; reflexivity|].
      unfold wasm_call. fold s. rewrite (memory_ok s VS). cbn [bind]. rewrite L. cbn [bind]. now rewrite (memory_ok r VR). }
    assert (ND : forall args, node (JsString x :: args) = node_call value lib (JsString x :: args))
      by (cbn [In] in I; destruct I as [I|[I|[I|[I|[]]]]]; injection I as <- <- <- <-; reflexivity).
    destruct (to_utf16_ok r VR) as (T1 & T2 & _). exists s, r, (to_utf16 r).
    split; [exact T|]. split; [exact L|]. split; [exact T1|]. split; [exact T2|]. split; [exact W|].
    split; [intros WF args; rewrite ND; unfold node_call; rewrite (V x s WF T), (memory_ok s VS); cbn [bind]; rewrite L; cbn [bind]; now rewrite (memory_ok r VR)|].
    split; [exact (js_text_fun x s T)|]. exact (fun y' J K => js_text_units y' r J K).
  - cbn [In] in I. destruct I as [I|[I|[I|[I|[]]]]]; injection I as <- <- <- <-; reflexivity.
  - intro args. cbn [In] in I. destruct I as [I|[I|[I|[I|[]]]]]; injection I as <- <- <- <-; reflexivity.
Qed.

Lemma C85_add_proof :
  forall checks a b, a < 2 ^ 32 -> b < 2 ^ 32 ->
    (a + b < 2 ^ 32 -> wasm_add checks a b = Ok (a + b)) /\
    (2 ^ 32 <= a + b -> wasm_add true a b = Panic /\ exists c, wasm_add false a b = Ok c /\ c + 2 ^ 32 = a + b).
Proof.
  intros checks a b A B. unfold wasm_add. change (2 ^ 32) with 4294967296 in *. destruct (N.ltb_spec (a + b) 4294967296) as [H|H]; split; intro K; try lia.
  - reflexivity.
  - split; [reflexivity|]. exists ((a + b) mod 4294967296). split; [reflexivity|].
    assert (a + b = 4294967296 * 1 + (a + b - 4294967296)) as Q by lia. rewrite <- (N.mod_unique (a + b) 4294967296 1 (a + b - 4294967296)); lia.
Qed.
