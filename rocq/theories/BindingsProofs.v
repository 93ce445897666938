(** * Strings of JavaScript: C85 *)
From Verif Require Import Base Tac Bindings BindingsSpec Utf8Proofs.

Lemma high_spec c : is_high c = true <-> high c.
Proof. unfold is_high, high. rewrite andb_true_iff, !N.leb_le. lia. Qed.
Lemma low_spec c : is_low c = true <-> low c.
Proof. unfold is_low, low. rewrite andb_true_iff, !N.leb_le. lia. Qed.
Lemma high_not c : is_high c = false <-> ~ high c.
Proof. rewrite <- high_spec. destruct (is_high c); intuition congruence. Qed.
Lemma low_not c : is_low c = false <-> ~ low c.
Proof. rewrite <- low_spec. destruct (is_low c); intuition congruence. Qed.

Lemma from_utf16_text n : forall x, (length x <= n)%nat -> Forall (fun c => c < 0x10000) x -> js_text x (from_utf16 x).
Proof.
  induction n as [|n IH]; intros [|c x] B F; try (cbn in B; lia); try constructor. inversion F as [|? ? Bc Fx]; subst. cbn [length] in B. cbn [from_utf16].
  destruct (is_high c) eqn:Hc.
  - apply high_spec in Hc. destruct x as [|d x].
    { apply JT_lone; [now left|discriminate|constructor]. }
    destruct (is_low d) eqn:Ld.
    + apply low_spec in Ld. inversion Fx as [|? ? Bd Fx']; subst. apply JT_pair; [exact Hc|exact Ld| |apply IH; [cbn in B; lia|exact Fx']].
      unfold high, low in *. lia.
    + apply low_not in Ld. apply JT_lone; [now left| |apply IH; [lia|exact Fx]]. intros _ d' x' Q. injection Q as <- _. exact Ld.
  - apply high_not in Hc. destruct (is_low c) eqn:Lc.
    + apply low_spec in Lc. apply JT_lone; [now right|intro; contradiction|apply IH; [lia|exact Fx]].
    + apply low_not in Lc. apply JT_unit; auto. apply IH; [lia|exact Fx].
Qed.
Lemma high_low c : high c -> low c -> False.
Proof. unfold high, low. lia. Qed.
Lemma js_text_fun x s : js_text x s -> forall s', js_text x s' -> s' = s.
Proof.
  induction 1 as [|c x s B H L T IH|h l c x s H L Q T IH|c x s S N T IH]; intros s' T'; inversion T' as [|c' x' t B' H' L' U|h' l' c' x' t H' L' Q' U|c' x' t S' N' U]; subst.
  - reflexivity.
  - f_equal. now apply IH.
  - contradiction.
  - destruct S'; contradiction.
  - contradiction.
  - f_equal; [lia|now apply IH].
  - exfalso. exact (N' H l x eq_refl L).
  - destruct S; contradiction.
  - exfalso. exact (N H' l' x' eq_refl L').
  - f_equal. now apply IH.
Qed.
Lemma js_text_valid x s : js_text x s -> valid_str s.
Proof.
  induction 1 as [|c x s B H L T IH|h l c x s H L Q T IH|c x s S N T IH]; constructor; try exact IH; try reflexivity; unfold high, low in *; unfold is_scalar.
  - apply orb_true_iff. rewrite andb_true_iff, !N.ltb_lt, N.leb_le. lia.
  - apply orb_true_iff. rewrite andb_true_iff, !N.ltb_lt, N.leb_le. lia.
Qed.

(** ** Well-formed strings *)
Lemma wf_nil : well_formed [].
Proof. intros [|? a] c b Q; discriminate Q. Qed.
Lemma wf_unit c x : ~ high c -> ~ low c -> well_formed (c :: x) <-> well_formed x.
Proof.
  intros H L. split; intros W a d b Q.
  - subst x. destruct (W (c :: a) d b eq_refl) as [W1 W2]. split; [exact W1|]. intro D. destruct (W2 D) as (a' & e & Q & E).
    destruct a' as [|f a']; [injection Q as -> _; contradiction|]. injection Q as _ Q. exists a', e. auto.
  - destruct a as [|e a]; [injection Q as <- _; split; intro; contradiction|]. injection Q as <- ->. destruct (W a d b eq_refl) as [W1 W2].
    split; [exact W1|]. intro D. destruct (W2 D) as (a' & f & -> & E). exists (c :: a'), f. auto.
Qed.
Lemma wf_pair h l x : high h -> low l -> well_formed (h :: l :: x) <-> well_formed x.
Proof.
  intros H L. split; intros W a d b Q.
  - subst x. destruct (W (h :: l :: a) d b eq_refl) as [W1 W2]. split; [exact W1|]. intro D. destruct (W2 D) as (a' & e & Q & E).
    destruct a' as [|f [|g a']]; [discriminate Q|injection Q as _ -> _; exfalso; exact (high_low _ E L)|]. injection Q as _ _ Q. exists a', e. auto.
  - destruct a as [|e [|f a]].
    + injection Q as <- <-. split; [intros _; exists l, x; auto|]. intro D. exfalso. exact (high_low _ H D).
    + injection Q as <- <- <-. split; [intro D; exfalso; exact (high_low _ D L)|]. intros _. exists [], h. auto.
    + injection Q as <- <- ->. destruct (W a d b eq_refl) as [W1 W2]. split; [exact W1|]. intro D. destruct (W2 D) as (a' & g & -> & E).
      exists (h :: l :: a'), g. auto.
Qed.
Lemma wf_lone c x : high c \/ low c -> (high c -> forall d x', x = d :: x' -> ~ low d) -> ~ well_formed (c :: x).
Proof.
  intros S N W. destruct (W [] c x eq_refl) as [W1 W2]. destruct S as [S|S].
  - destruct (W1 S) as (d & x' & -> & L). exact (N S d x' eq_refl L).
  - destruct (W2 S) as (a & d & Q & _). destruct a; discriminate Q.
Qed.
Lemma js_text_units x s : js_text x s -> well_formed x -> x = to_utf16 s.
Proof.
  induction 1 as [|c x s B H L T IH|h l c x s H L Q T IH|c x s S N T IH]; intro W.
  - reflexivity.
  - apply wf_unit in W; [|assumption|assumption]. cbn [to_utf16 flat_map]. unfold units. apply N.ltb_lt in B. rewrite B. cbn [app]. f_equal. now apply IH.
  - apply wf_pair in W; [|assumption|assumption]. cbn [to_utf16 flat_map]. unfold units. unfold high, low in H, L.
    destruct (N.ltb_spec c 0x10000) as [B|B]; [lia|].
    assert (c - 0x10000 = (h - 0xD800) * 0x400 + (l - 0xDC00)) as -> by lia.
    rewrite N.div_add_l, N.div_small, N.add_0_r by lia. rewrite (N.add_comm (_ * _)), N.mod_add, N.mod_small by lia.
    cbn [app]. f_equal; [lia|]. f_equal; [lia|]. now apply IH.
  - exfalso. exact (wf_lone c x S N W).
Qed.
Lemma to_utf16_ok s : valid_str s -> js_text (to_utf16 s) s /\ well_formed (to_utf16 s) /\ Forall (fun c => c < 0x10000) (to_utf16 s).
Proof.
  induction 1 as [|c s V F (T & W & B)]; [split; [constructor|split; [apply wf_nil|constructor]]|].
  unfold is_scalar in V. apply orb_true_iff in V. rewrite andb_true_iff, !N.ltb_lt, N.leb_le in V.
  cbn [to_utf16 flat_map]. fold (to_utf16 s). unfold units. destruct (N.ltb_spec c 0x10000) as [L|L]; cbn [app].
  - assert (~ high c /\ ~ low c) as [H1 H2] by (unfold high, low; lia).
    split; [now constructor|]. split; [now apply wf_unit|now constructor].
  - set (d := c - 0x10000). assert (d < 0x100000) as D by (unfold d; lia).
    pose proof (N.div_mod d 0x400 ltac:(discriminate)) as Q. pose proof (N.mod_lt d 0x400 ltac:(discriminate)) as M.
    assert (d / 0x400 < 0x400) as M' by (apply N.div_lt_upper_bound; [discriminate|exact D]).
    assert (high (0xD800 + d / 0x400)) as H by (unfold high; lia). assert (low (0xDC00 + d mod 0x400)) as H' by (unfold low; lia).
    split; [apply JT_pair; auto; unfold d in *; lia|]. split; [now apply wf_pair|]. unfold high, low in *. repeat constructor; [lia|lia|exact B].
Qed.
Lemma js_text_small x s : js_text x s -> Forall (fun c => c < 0x10000) x.
Proof. induction 1 as [|c x s B H L T IH|h l c x s H L Q T IH|c x s S N T IH]; repeat constructor; auto; unfold high, low in *; lia. Qed.
Lemma from_utf16_value x s : js_text x s -> from_utf16 x = s.
Proof. intro T. apply (js_text_fun x s T). apply (from_utf16_text (length x)); [constructor|]. exact (js_text_small x s T). Qed.

Lemma memory_ok s : valid_str s -> through_memory s = Ok s.
Proof. intro V. unfold through_memory. now rewrite decode_encode. Qed.
