(** * The order of texts (proofs for C110) *)
From Verif Require Import Tac Base Std Chars Strings Convert KanaPure RomajiPure KanaSpec KanaDict Predicates ScriptSpec ScriptProofs ScriptIdem Utf8Proofs
  Trees Json Upstream UpstreamProofs InKatakanaSpec OrderSpec.

Lemma lex_compare a : forall b, lex a b <-> bytes_compare a b = Lt.
Proof.
  induction a as [|x a IH]; intros [|y b]; cbn.
  - split; [intro H; inversion H|discriminate].
  - split; [reflexivity|constructor].
  - split; [intro H; inversion H|discriminate].
  - split.
    + intro H. inversion H; subst; [now replace (x ?= y) with Lt by (symmetry; now apply N.compare_lt_iff)|]. rewrite N.compare_refl. now apply IH.
    + destruct (N.compare_spec x y); try discriminate.
      * subst. intro H. apply lex_later. now apply IH.
      * intros _. now apply lex_here.
Qed.
Lemma lex_irrefl a : ~ lex a a.
Proof. intro H. apply lex_compare in H. assert (E : bytes_compare a a = Eq) by now apply bytes_compare_eq. congruence. Qed.
Lemma lex_asym a b : lex a b -> lex b a -> False.
Proof. rewrite !lex_compare. intros A B. pose proof (bytes_compare_trans _ _ _ A B) as C. apply lex_compare in C. now apply lex_irrefl in C. Qed.
Lemma lex_app p a b : lex (p ++ a) (p ++ b) <-> lex a b.
Proof.
  induction p as [|x p IH]; [tauto|]. cbn. rewrite <- IH. split; [intro H; inversion H; subst; [lia|assumption]|apply lex_later].
Qed.
(** the order is that of the code points *)
Lemma text_lex : forall s t, valid_str s -> valid_str t -> (text_lt s t <-> lex s t).
Proof.
  unfold text_lt. induction s as [|x s IH]; intros t V W.
  - destruct t as [|y t]; [tauto|]. split; [constructor|]. intros _. cbn. destruct (encode_char_head y) as (b & l & -> & _). constructor.
  - destruct t as [|y t].
    + split; [|intro H; inversion H]. cbn. destruct (encode_char_head x) as (b & l & -> & _). intro H. inversion H.
    + apply Forall_cons_iff in V as [V1 V2]. apply Forall_cons_iff in W as [W1 W2]. cbn [encode flat_map]. fold (encode s) (encode t).
      destruct (N.lt_trichotomy x y) as [L|[->|L]].
      * split; [intros _; now apply lex_here|]. intros _. apply lex_compare. now apply encode_char_lt.
      * rewrite lex_app, IH by assumption. split; [apply lex_later|]. intro H. inversion H; subst; [lia|assumption].
      * split; [|intro H; inversion H; subst; lia]. intro H. exfalso. eapply lex_asym; [exact H|]. apply lex_compare. now apply encode_char_lt.
Qed.

(** ** Functions on characters *)
Section Map.
  Variable f : N -> N.
  Variable P : N -> Prop.
  Lemma map_order : (forall x y, P x -> P y -> x < y -> f x < f y) -> forall s t, over P s -> over P t -> lex s t -> lex (map f s) (map f t).
  Proof.
    intros H s t S T L. induction L as [y b|x y a b L|x a b L IH]; cbn.
    - constructor.
    - apply Forall_inv in S, T. apply lex_here. now apply H.
    - apply lex_later. apply Forall_inv_tail in S, T. now apply IH.
  Qed.
End Map.

Lemma h2k_scalar c : is_scalar c = true -> is_scalar (h2k_char c) = true.
Proof. intro H. destruct (h2k_char_cases c) as [->|[L ->]]; [exact H|]. unfold hiragana_letter in L. apply is_scalar_spec. lia. Qed.
Lemma h2k_valid s : valid_str s -> valid_str (h2k s).
Proof. unfold valid_str. rewrite !Forall_forall. intros H c I. apply in_map_iff in I as (d & <- & I). now apply h2k_scalar, H. Qed.
Lemma h2k_exact (x y : N) : x < y -> (h2k_char x < h2k_char y <-> ~ (hira_letter x /\ 0x3096 < y <= x + 96)).
Proof.
  intros L. assert (X : katakana_for x (h2k_char x)) by now apply h2k_char_spec. assert (Y : katakana_for y (h2k_char y)) by now apply h2k_char_spec.
  unfold katakana_for, hira_letter, between in *. lia.
Qed.
Lemma h2k_order (P : N -> Prop) : (forall c, P c -> is_scalar c = true) ->
  (forall s t, over P s -> over P t -> text_lt s t -> text_lt (h2k s) (h2k t))
  <-> ~ exists x y, P x /\ P y /\ hira_letter x /\ 0x3096 < y <= x + 96.
Proof.
  intros V. assert (VS : forall s, over P s -> valid_str s) by (intros s; apply Forall_impl, V). split.
  - intros H (x & y & X & Y & L & B). specialize (H [x] [y]).
    assert (OX : over P [x]) by (repeat constructor; exact X). assert (OY : over P [y]) by (repeat constructor; exact Y).
    specialize (H OX OY). rewrite !text_lex in H by auto using h2k_valid.
    assert (Q : x < y) by (unfold hira_letter, between in L; lia).
    specialize (H (lex_here _ _ _ _ Q)). cbn in H.
    assert (Z : h2k_char x < h2k_char y) by (inversion H; subst; [assumption|match goal with H : lex [] [] |- _ => inversion H end]).
    apply (h2k_exact x y Q) in Z. tauto.
  - intros H s t S T. rewrite !text_lex by auto using h2k_valid. apply map_order with (P := P); [|exact S|exact T].
    intros x y X Y L. apply h2k_exact; [exact L|]. intros [A B]. apply H. exists x, y. auto.
Qed.

(** ** To hiragana *)
Definition plain_kata (c : N) : Prop := 0x30A1 <= c <= 0x30F4.
Lemma k2h_plain E d s : over plain_kata s -> k2h E d s = map k2hc s.
Proof.
  unfold k2h. generalize (None (A := N)) at 1 as pc. generalize (None (A := N)) as pk. induction s as [|c s IH]; intros pk pc O; [reflexivity|].
  apply Forall_cons_iff in O as [C O]. unfold plain_kata in C. cbn [k2h_go map].
  assert (A : is_char_slash_dot c = false /\ is_char_long_dash c = false /\ is_kana_as_symbol c = false).
  { symspec. repeat split; charspec; lia. }
  destruct A as (A1 & A2 & A3). assert (A4 : is_char_katakana c = true) by (apply katakana_spec; unfold S_katakana, between; lia).
  unfold k2hc at 1. rewrite A1, A2, A3, A4. cbn [orb andb negb].
  destruct pc, pk; cbn [is_none]; now rewrite IH.
Qed.
Lemma k2hc_plain c : plain_kata c -> k2hc c = c - 96.
Proof.
  intros C. assert (H : hiragana_for c (k2hc c)) by now apply k2hc_spec. unfold hiragana_for, plain_kata in *. symspec. lia.
Qed.
Lemma k2h_order E d s t : over plain_kata s -> over plain_kata t -> (text_lt (k2h E d s) (k2h E d t) <-> text_lt s t).
Proof.
  intros S T. rewrite !k2h_plain by assumption.
  assert (V : forall s, over plain_kata s -> valid_str s).
  { intros w. apply Forall_impl. intros c C. unfold plain_kata in C. apply is_scalar_spec. lia. }
  assert (W : forall s, over plain_kata s -> valid_str (map k2hc s)).
  { intros w. unfold over, valid_str. rewrite !Forall_forall. intros H c I. apply in_map_iff in I as (e & <- & I). specialize (H e I).
    rewrite k2hc_plain by exact H. unfold plain_kata in H. apply is_scalar_spec. lia. }
  rewrite !text_lex by auto.
  assert (M : forall s t, over plain_kata s -> over plain_kata t -> lex s t -> lex (map k2hc s) (map k2hc t)).
  { intros a b A B. apply (map_order k2hc plain_kata); auto. intros x y X Y L. rewrite !k2hc_plain by assumption. unfold plain_kata in *. lia. }
  split; [|now apply M]. intro L.
  destruct (bytes_compare s t) eqn:C.
  - apply bytes_compare_eq in C. subst t. now apply lex_irrefl in L.
  - now apply lex_compare.
  - exfalso. assert (R : lex t s).
    { clear -C. revert t C. induction s as [|x s IH]; intros [|y t] C; cbn in C; try discriminate; [constructor|].
      destruct (N.compare_spec x y); try discriminate; [subst; apply lex_later; auto|now apply lex_here]. }
    apply M in R; [|assumption|assumption]. eapply lex_asym; eassumption.
Qed.
