(** * Texts that are converted to kana completely (C79) *)
From Coq Require Import Bool PeanoNat.
From Verif Require Import Tac Base Std Constants Chars Trees KanaTree Strings Convert
  KanaPure KanaSpec KanaDict KanaProofs MoraProofs Predicates ScriptProofs RomajiProofs Splits TokenSpec KanaJoinSpec KanaJoin TypingSpec CompleteSpec.

Definition kana_b (c : N) : bool := (0x3041 <=? c) && (c <=? 0x3096) || (0x30A1 <=? c) && (c <=? 0x30FC).
Lemma kana_b_spec c : kana_b c = true <-> S_kana c.
Proof. unfold kana_b, S_kana, S_hiragana, S_katakana, between. lia. Qed.
Lemma h2k_kana c : S_kana (h2k_char c) <-> S_kana c.
Proof.
  rewrite <- !kana_b_spec. pose proof (proj2 (h2k_char_spec c (h2k_char c)) eq_refl) as K. revert K. unfold katakana_for, kana_b. lia.
Qed.
Lemma emit_all_kana q v : Forall S_kana (emit q v) <-> Forall S_kana v.
Proof.
  unfold emit. destruct (forallb is_AZ q); [|reflexivity]. unfold h2k. rewrite Forall_map. split; apply Forall_impl; intro; apply h2k_kana.
Qed.

(** finite facts *)
Definition head_ok (m : mode) : bool := forallb (fun e => match fst e with c :: _ => negb (kana_b c) | [] => false end) (dict m).
Lemma head_ok_true m : head_ok m = true.
Proof. destruct m; vm_compute; reflexivity. Qed.
Lemma kana_ascii_lower c : S_kana c -> ascii_lower c = c.
Proof. rewrite <- kana_b_spec. unfold kana_b, ascii_lower. ifs; lia. Qed.
Lemma kana_not_viable m c q : S_kana c -> ~ viable m (c :: q).
Proof.
  intros K V. change (c :: q) with ([c] ++ q) in V. apply viable_app, viable_entry in V. destruct V as (k & v & I).
  pose proof (head_ok_true m) as F. unfold head_ok in F. rewrite forallb_forall in F. specialize (F _ I). cbn [fst low map app] in F.
  rewrite (kana_ascii_lower c K) in F. apply kana_b_spec in K. rewrite K in F. discriminate.
Qed.
Lemma kana_stays m c s : S_kana c -> conv m (c :: s) = c :: conv m s.
Proof.
  intro K. destruct (longest_exists m (c :: s)) as (q & L). apply (conv_miss m q); [exact L|]. intros v I.
  destruct L as ((r & Q) & V & _). destruct q as [|d q]; [now apply keys_nonempty in I|]. injection Q as <- _. exact (kana_not_viable m c q K V).
Qed.
Lemma kana_not_letter c : S_kana c -> ~ n_letter c /\ ~ x_letter c.
Proof. rewrite <- kana_b_spec. unfold kana_b, n_letter, x_letter. lia. Qed.
Definition inner_n (m : mode) : bool :=
  forallb (fun e => match fst e with _ :: t => negb (existsb (N.eqb (ch "n")) t) || str_eqb (fst e) (u "xn") || str_eqb (fst e) (u "nn") | [] => true end) (dict m).
Lemma inner_n_true m : inner_n m = true.
Proof. destruct m; vm_compute; reflexivity. Qed.
Lemma key_inner_n m a x b v : entry m (a :: x ++ ch "n" :: b) v -> b = [].
Proof.
  intro I. pose proof (inner_n_true m) as F. unfold inner_n in F. rewrite forallb_forall in F. specialize (F _ I). cbn [fst] in F.
  assert (G : forall c, a :: x ++ ch "n" :: b = [c; ch "n"] -> b = []).
  { intros c Q. injection Q as _ Q. destruct x as [|? x]; [now injection Q|]. injection Q as _ Q. destruct x; discriminate. }
  apply orb_prop in F. destruct F as [F|F]; [apply orb_prop in F; destruct F as [F|F]|].
  - apply negb_true_iff, not_true_iff_false in F. exfalso. apply F. apply existsb_In. apply in_or_app. right. now left.
  - apply str_eqb_eq in F. exact (G _ F).
  - apply str_eqb_eq in F. exact (G _ F).
Qed.
Definition no_nyy (m : mode) : bool := forallb (fun e => negb (prefixb (u "nyy") (fst e))) (dict m).
Lemma no_nyy_true m : no_nyy m = true.
Proof. destruct m; vm_compute; reflexivity. Qed.
Lemma key_nyy m k v : ~ entry m (ch "n" :: ch "y" :: ch "y" :: k) v.
Proof.
  intro I. pose proof (no_nyy_true m) as F. unfold no_nyy in F. rewrite forallb_forall in F. specialize (F _ I). cbn [fst] in F.
  apply negb_true_iff, not_true_iff_false in F. apply F, prefixb_spec. now exists k.
Qed.
Definition n_more (m : mode) : bool :=
  forallb (fun e => match fst e with
    | c :: t => negb (existsb (N.eqb c) (u "'aiueoy")) || (c =? ch "y") && match t with d :: _ => d =? ch "y" | [] => false end
                || existsb (fun e' => str_eqb (fst e') (ch "n" :: fst e) && forallb kana_b (snd e')) (dict m)
    | [] => true end) (dict m).
Lemma n_more_true m : n_more m = true.
Proof. destruct m; vm_cast_no_check (eq_refl true). Qed.
Lemma key_n_more m c t v : entry m (c :: t) v -> In c (u "'aiueoy") ->
  (c = ch "y" /\ exists t', t = ch "y" :: t') \/ exists w, entry m (ch "n" :: c :: t) w /\ Forall S_kana w.
Proof.
  intros I J. pose proof (n_more_true m) as F. unfold n_more in F. rewrite forallb_forall in F. specialize (F _ I). cbn [fst] in F.
  apply existsb_In in J. rewrite J in F. cbn [negb orb] in F. apply orb_prop in F. destruct F as [F|F].
  - left. apply andb_prop in F. destruct F as [F1 F2]. apply N.eqb_eq in F1. split; [exact F1|]. destruct t as [|d t]; [discriminate|].
    apply N.eqb_eq in F2. subst d. eauto.
  - right. apply existsb_exists in F. destruct F as ([k w] & K & F). cbn [fst snd] in F. apply andb_prop in F. destruct F as [F1 F2].
    apply str_eqb_eq in F1. subst k. exists w. split; [exact K|]. apply Forall_forall. rewrite forallb_forall in F2. intros x X. apply kana_b_spec, F2, X.
Qed.
Lemma y_letter_low c : y_letter c <-> ascii_lower c = ch "y".
Proof.
  unfold y_letter. split; [intros [-> | ->]; reflexivity|]. unfold ascii_lower. change (ch "y") with 0x79. intro H. ifs_in H; lia.
Qed.
Lemma y_follow c : y_letter c -> n_follow c.
Proof. intro Y. apply y_letter_low in Y. exists (ch "y"). split; [now apply lowers_lower|]. apply existsb_In. vm_compute. reflexivity. Qed.

Definition quiet (m : mode) (s : str) : Prop :=
  m <> Ime -> forall x y y' z, s = x ++ y :: y' :: z -> open_n m x -> y_letter y -> ~ y_letter y'.

Lemma quiet_key m q v r : longest m q (q ++ r) -> entry m (low q) v -> quiet m (q ++ r) <-> quiet m r.
Proof.
  intros L I. split.
  - intros H M x y y' z -> O Y. refine (H M (q ++ x) y y' z _ _ Y); [now rewrite <- app_assoc|].
    apply (open_drop_key m q v x I); [|exact O]. intros ->. now apply open_nil in O.
  - intros H M x y y' z Q O Y Y'. destruct (Nat.leb (length q) (length x)) eqn:Le.
    + apply Nat.leb_le in Le. destruct (app_cut q r x _ Q Le) as (x' & -> & ->). destruct x' as [|a x0] eqn:X.
      * rewrite app_nil_r in O. destruct (open_key _ _ _ I O) as (_ & c & -> & C).
        refine (longer m [c] [y] (y' :: z) L ltac:(discriminate) _). pose proof (n_follows m y M (y_follow y Y)) as V.
        apply viable_entry in V. apply viable_entry. cbn [app low map] in *. apply n_letter_low in C. rewrite C. exact V.
      * rewrite <- X in *. refine (H M x' y y' z eq_refl _ Y Y'). apply (open_drop_key m q v x' I); [rewrite X; discriminate|exact O].
    + apply Nat.leb_gt in Le. symmetry in Q. destruct (app_cut x _ q r Q) as (e & -> & Q2); [lia|].
      destruct e as [|d e]; [rewrite app_nil_r in Le; lia|]. cbn [app] in Q2. injection Q2 as <- Q2.
      assert (Nx : x <> []) by (intros ->; now apply open_nil in O). destruct (exists_last Nx) as (x' & c & ->).
      apply open_snoc in O. destruct O as (C & _). apply n_letter_low in C. rewrite <- app_assoc in I. cbn [app] in I. rewrite low_app in I. cbn [low map] in I. rewrite C in I.
      destruct x' as [|a x'].
      * cbn [app map] in I. apply y_letter_low in Y, Y'. rewrite Y in I. destruct e as [|f e].
        -- assert (existsb (fun e => str_eqb (fst e) (u "ny")) (dict m) = false) as F by (destruct m; vm_compute; reflexivity).
           apply not_true_iff_false in F. apply F. apply existsb_exists. eexists. split; [exact I|reflexivity].
        -- cbn [app] in Q2. injection Q2 as <- _. cbn [map] in I. rewrite Y' in I. exact (key_nyy _ _ _ I).
      * cbn [app map] in I. apply key_inner_n in I. discriminate I.
Qed.
Lemma quiet_kana m c r : S_kana c -> quiet m (c :: r) <-> quiet m r.
Proof.
  intro K. destruct (kana_not_letter c K) as [K1 K2].
  assert (O : forall x, x <> [] -> open_n m (c :: x) <-> open_n m x).
  { intros x N. destruct x as [|d x]; [congruence|]. eapply open_drop_char; [reflexivity|]. auto. }
  split; intros H M x y y' z Q Op Y.
  - apply (H M (c :: x) y y' z); [now rewrite Q|apply O; [|exact Op]; intros ->; now apply open_nil in Op|exact Y].
  - destruct x as [|d x]; [now apply open_nil in Op|]. injection Q as <- ->. destruct x as [|d' x0] eqn:X.
    + apply open_one in Op. contradiction.
    + rewrite <- X in *. apply (H M x y y' z eq_refl); [|exact Y]. apply O; [rewrite X; discriminate|exact Op].
Qed.
Lemma quiet_nil m : quiet m [].
Proof. intros _ x y y' z Q. destruct x; discriminate. Qed.

Lemma kana_complete m s : Forall S_kana (conv m s) -> complete m s.
Proof.
  induction s as [s IH] using str_ind_len. intro F. destruct s as [|c s].
  { split; [exists []; auto|apply quiet_nil]. }
  destruct (longest_exists m (c :: s)) as (q & L). destruct (entry_dec m (low q)) as [[v I]|I].
  - destruct (proj1 L) as (r & Q). rewrite Q in L, F, IH |- *. rewrite (conv_hit m q r v L I) in F. apply Forall_app in F. destruct F as [F1 F2].
    destruct (IH r) as [(ps & -> & P) H].
    { rewrite app_length. destruct q; [now apply keys_nonempty in I|]. cbn. lia. }
    { exact F2. }
    split; [|apply (quiet_key m q v _ L I); exact H]. exists (q :: ps). split; [reflexivity|]. constructor; [|exact P].
    right. exists (low q), v. split; [now apply casing_low|]. split; [exact I|]. now apply emit_all_kana in F1.
  - rewrite (conv_miss m q c s L I) in F. inversion F as [|? ? K F2]; subst. destruct (IH s) as [(ps & -> & P) H]; [cbn; lia|exact F2|].
    split; [|now apply quiet_kana]. exists ([c] :: ps). split; [reflexivity|]. constructor; [left; eauto|exact P].
Qed.

Lemma complete_kana m ps : Forall (kana_piece m) ps -> quiet m (concat ps) -> Forall S_kana (conv m (concat ps)).
Proof.
  remember (length ps) as n eqn:Ln. revert ps Ln. induction n as [n IH] using (well_founded_induction lt_wf). intros ps -> P H.
  destruct ps as [|p ps]; [constructor|]. inversion P as [|? ? Pp P']; subst. cbn [concat] in *.
  destruct Pp as [(c & -> & K)|(k & v & C & I & K)].
  - cbn [app] in *. rewrite kana_stays by exact K. constructor; [exact K|]. apply (IH (length ps)); [cbn; lia|reflexivity|exact P'|]. now apply (quiet_kana m c).
  - pose proof C as C'. apply casing_low in C'. subst k.
    assert (Hit : longest m p (p ++ concat ps) -> Forall S_kana (conv m (p ++ concat ps))).
    { intro L. rewrite (conv_hit m p _ v L I). apply Forall_app. split; [now apply emit_all_kana|].
      apply (IH (length ps)); [cbn; lia|reflexivity|exact P'|]. now apply (quiet_key m p v). }
    assert (Unext : forall q w r, unextended m (low q) -> entry m (low q) w -> longest m q (q ++ r)).
    { intros q w r U J. split; [eauto|]. split; [eapply entry_viable; eauto|]. intros p' r' Q V.
      destruct (Nat.leb (length p') (length q)) eqn:Le; [now apply Nat.leb_le in Le|]. apply Nat.leb_gt in Le.
      destruct (app_cut q r p' r' Q) as (e & -> & _); [lia|]. apply viable_entry in V. destruct V as (k & x & V).
      rewrite low_app, <- app_assoc in V. apply U in V. apply app_eq_nil in V. destruct V as [V _]. rewrite app_length. destruct e; [cbn; lia|discriminate]. }
    destruct (list_eq_dec N.eq_dec (low p) (u "n")) as [Pn|Pn].
    2: { apply Hit. apply (Unext p v); [|exact I]. eapply only_n_extended; eauto. }
    apply low_one in Pn. destruct Pn as (c & -> & Cn). assert (Nc : n_letter c) by now apply n_letter_low.
    assert (M : m <> Ime). { intros ->. cbn [low map] in I. rewrite Cn in I. now apply ime_no_n in I. }
    (* what follows n *)
    assert (D : (exists d r, concat ps = d :: r /\ n_follow d) \/ (match concat ps with [] => True | d :: _ => ~ n_follow d end)).
    { destruct (concat ps) as [|d r]; [now right|]. destruct (existsb (N.eqb (ascii_lower d)) (u "'aiueoy")) eqn:X.
      - left. exists d, r. split; [reflexivity|]. exists (ascii_lower d). split; [now apply lowers_lower|now apply existsb_In].
      - right. intros (e & Le & Ie). apply lowers_lower in Le. subst e. apply existsb_In in Ie. congruence. }
    destruct D as [(d & r & Q & F)|D].
    2: { assert (Cs : casing [c] (u "n")) by (apply casing_low; cbn [low map]; rewrite Cn; reflexivity).
         rewrite (conv_n m [c] (concat ps) M Cs D). apply Forall_app. split.
         - apply emit_all_kana. constructor; [apply kana_b_spec; reflexivity|constructor].
         - apply (IH (length ps)); [cbn; lia|reflexivity|exact P'|]. intros _ x y y' z Qz O Y. refine (H M ([c] ++ x) y y' z _ _ Y); [now rewrite Qz|].
           apply (open_drop_key m [c] v x I); [|exact O]. intros ->. now apply open_nil in O. }
    assert (exists p2 ps', concat ps = p2 ++ concat ps' /\ (exists e, p2 = d :: e) /\ kana_piece m p2 /\ Forall (kana_piece m) ps' /\ (length ps' < length ps)%nat) as (p2 & ps' & Q2 & (e & ->) & K2 & P2 & Len).
    { clear - Q P'. induction ps as [|p2 ps IH]; [discriminate|]. inversion P'; subst. cbn [concat] in Q. destruct p2 as [|d' e].
      - destruct (IH H2 Q) as (p2 & ps' & E1 & E2 & E3 & E4 & E5). exists p2, ps'. cbn. repeat split; auto; lia.
      - injection Q as -> _. exists (d :: e), ps. cbn. repeat split; eauto. }
    destruct K2 as [(c2 & E2 & K2)|(k2 & v2 & C2 & I2 & K2)].
    { exfalso. injection E2 as -> ->. destruct F as (f & Lf & If). apply lowers_lower in Lf. rewrite kana_ascii_lower in Lf by exact K2. subst f.
      apply kana_b_spec in K2. assert (forallb (fun c => negb (kana_b c)) (u "'aiueoy") = true) as G by reflexivity. rewrite forallb_forall in G.
      specialize (G _ If). rewrite K2 in G. discriminate. }
    apply casing_low in C2. subst k2. cbn [low map] in I2. destruct F as (f & Lf & If). apply lowers_lower in Lf.
    destruct (key_n_more m _ _ _ I2 ltac:(rewrite Lf; exact If)) as [(Y & t' & T)|(w & W & Kw)].
    + exfalso. destruct e as [|g e]; [discriminate T|]. cbn [map] in T. injection T as T _.
      apply (H M [c] d g (e ++ concat ps')); [cbn [app]; rewrite Q2; reflexivity|now apply open_one|now apply y_letter_low|now apply y_letter_low].
    + assert (J : entry m (low (c :: d :: e)) w) by (cbn [low map]; rewrite Cn; exact W).
      assert (L : longest m (c :: d :: e) ((c :: d :: e) ++ concat ps')).
      { apply (Unext _ w); [|exact J]. eapply only_n_extended; [exact J|]. cbn [low map]. discriminate. }
      cbn [app]. rewrite Q2. change (c :: (d :: e) ++ concat ps') with ((c :: d :: e) ++ concat ps'). rewrite (conv_hit m _ _ w L J).
      apply Forall_app. split; [now apply emit_all_kana|]. apply (IH (length ps')); [cbn; lia|reflexivity|exact P2|].
      apply (quiet_key m (c :: d :: e) w _ L J). cbn [app] in *. rewrite Q2 in H. exact H.
Qed.

Lemma complete_iff m s : Forall S_kana (conv m s) <-> complete m s.
Proof. split; [apply kana_complete|]. intros [(ps & -> & P) H]. now apply complete_kana. Qed.

Lemma all_nonempty_iff (P : N -> Prop) s : all_nonempty P s <-> s <> [] /\ Forall P s.
Proof. unfold all_nonempty. rewrite Forall_forall. tauto. Qed.

(** ** Case does not matter *)
Lemma letter_low_n c : n_letter (ascii_lower c) <-> n_letter c.
Proof. unfold n_letter, ascii_lower. ifs; lia. Qed.
Lemma letter_low_x c : x_letter (ascii_lower c) <-> x_letter c.
Proof. unfold x_letter, ascii_lower. ifs; lia. Qed.
Lemma ends_low_x x : ends_in x_letter (low x) <-> ends_in x_letter x.
Proof.
  destruct x as [|c x _] using rev_ind; [reflexivity|]. rewrite low_app. cbn [low map]. rewrite !ends_snoc. apply letter_low_x.
Qed.
Lemma open_low m x : open_n m (low x) <-> open_n m x.
Proof.
  revert m. induction x as [|c x IH] using rev_ind; intro m; [reflexivity|]. rewrite low_app. cbn [low map]. rewrite !open_snoc.
  fold (low x). rewrite letter_low_n, ends_low_x, (IH Ime). reflexivity.
Qed.
Lemma low_low x : low (low x) = low x.
Proof. unfold low. rewrite map_map. apply map_ext. intro. apply ascii_lower_twice. Qed.
Lemma quiet_low m s : quiet m (low s) <-> quiet m s.
Proof.
  split; intros H M x y y' z Q O Y.
  - rewrite Q in H. rewrite low_app in H. cbn [low map] in H. fold (low z) in H.
    intro Y'. apply (H M _ _ _ _ eq_refl); [now apply open_low| |]; apply y_letter_low; rewrite ascii_lower_twice; now apply y_letter_low.
  - unfold low in Q. apply map_eq_app in Q. destruct Q as (x0 & r & -> & <- & Q). fold (low x0) in O. apply (proj1 (open_low m x0)) in O.
    destruct r as [|a [|b r]]; try discriminate. cbn [map] in Q. injection Q as <- <- _. apply y_letter_low in Y. rewrite ascii_lower_twice in Y. apply y_letter_low in Y.
    intro Y'. apply y_letter_low in Y'. rewrite ascii_lower_twice in Y'. apply y_letter_low in Y'. exact (H M x0 a b r eq_refl O Y Y').
Qed.
Lemma piece_low m p : kana_piece m (low p) <-> kana_piece m p.
Proof.
  unfold kana_piece. split; intros [(c & Q & K)|(k & v & C & I)].
  - left. destruct p as [|a [|]]; try discriminate. cbn [low map] in Q. injection Q as <-. exists a. split; [reflexivity|].
    revert K. rewrite <- !kana_b_spec. unfold kana_b, ascii_lower. ifs; lia.
  - right. exists k, v. split; [|exact I]. apply casing_low in C. rewrite low_low in C. now apply casing_low.
  - left. subst p. exists c. split; [|exact K]. cbn [low map]. now rewrite kana_ascii_lower.
  - right. exists k, v. split; [|exact I]. apply casing_low in C. subst k. apply casing_low. apply low_low.
Qed.
Lemma low_concat s ps : low s = concat ps -> exists qs, s = concat qs /\ ps = map low qs.
Proof.
  revert s. induction ps as [|p ps IH]; intros s Q; cbn [concat] in Q.
  - apply map_eq_nil in Q. subst s. now exists [].
  - unfold low in Q. apply map_eq_app in Q. destruct Q as (a & b & -> & <- & Q). destruct (IH b Q) as (qs & -> & ->). now exists (a :: qs).
Qed.
Lemma complete_low m s : complete m (low s) <-> complete m s.
Proof.
  unfold complete. fold (quiet m (low s)) (quiet m s). rewrite quiet_low. split; intros [(ps & Q & P) H]; (split; [|exact H]).
  - apply low_concat in Q. destruct Q as (qs & -> & ->). exists qs. split; [reflexivity|]. rewrite Forall_map in P.
    revert P. apply Forall_impl. intro. apply piece_low.
  - exists (map low ps). subst s. split; [unfold low; now rewrite concat_map|]. rewrite Forall_map. revert P. apply Forall_impl. intro. apply piece_low.
Qed.

(** ** to_hiragana and to_katakana *)
Lemma h2k_katakana c : S_katakana (h2k_char c) <-> S_kana c.
Proof.
  rewrite <- kana_b_spec. pose proof (proj2 (h2k_char_spec c (h2k_char c)) eq_refl) as K. revert K.
  unfold katakana_for, kana_b, S_katakana, between. lia.
Qed.
Lemma h2k_all_katakana s : Forall S_katakana (h2k s) <-> Forall S_kana s.
Proof. unfold h2k. rewrite Forall_map. split; apply Forall_impl; intro; apply h2k_katakana. Qed.

Fixpoint slash_in (s : str) : bool :=
  existsb (fun k => prefixb k s) not_hiragana || match s with [] => false | _ :: t => slash_in t end.
Lemma slash_in_spec s : slash_in s = true <-> exists x k y, s = x ++ k ++ y /\ In k not_hiragana.
Proof.
  induction s as [|c s IH].
  - split; [discriminate|]. intros (x & k & y & Q & I). symmetry in Q. apply app_eq_nil in Q. destruct Q as [_ Q]. apply app_eq_nil in Q.
    destruct Q as [-> _]. exfalso. revert I. cbn. intuition discriminate.
  - cbn [slash_in]. rewrite orb_true_iff, IH, existsb_exists. split.
    + intros [(k & I & P)|(x & k & y & -> & I)]; [|now exists (c :: x), k, y]. apply prefixb_spec in P. destruct P as (r & ->). now exists [], k, r.
    + intros (x & k & y & Q & I). destruct x as [|d x].
      * left. exists k. split; [exact I|]. apply prefixb_spec. now exists y.
      * right. injection Q as _ ->. now exists x, k, y.
Qed.
Lemma has_slash_low s : has_not_hiragana s <-> slash_in (low s) = true.
Proof.
  unfold has_not_hiragana. rewrite slash_in_spec. split.
  - intros (x & b & k & y & -> & C & I). apply casing_low in C. exists (low x), k, (low y). split; [|exact I]. now rewrite !low_app, C.
  - intros (x & k & y & Q & I). unfold low in Q. apply map_eq_app in Q. destruct Q as (x0 & r & -> & <- & Q). apply map_eq_app in Q.
    destruct Q as (b & y0 & -> & Q & <-). exists x0, b, k, y0. split; [reflexivity|]. split; [now apply casing_low|exact I].
Qed.
Definition slash_only (m : mode) : bool :=
  forallb (fun e => (negb (forallb kana_b (snd e)) || Bool.eqb (forallb is_char_hiragana (snd e)) (negb (slash_in (fst e))))
    && negb (existsb (N.eqb (last (fst e) 0)) (u "lxck"))) (dict m).
Lemma slash_only_true m : slash_only m = true.
Proof. destruct m; vm_cast_no_check (eq_refl true). Qed.
Lemma forallb_Forall {A} (f : A -> bool) (P : A -> Prop) l : (forall a, f a = true <-> P a) -> forallb f l = true <-> Forall P l.
Proof.
  intro H. rewrite forallb_forall, Forall_forall. split; intros G a I; apply H, G, I.
Qed.
Lemma key_slash m k v : entry m k v -> Forall S_kana v -> (Forall S_hiragana v <-> ~ slash_in k = true).
Proof.
  intros I K. pose proof (slash_only_true m) as F. unfold slash_only in F. rewrite forallb_forall in F. specialize (F _ I). cbn [fst snd] in F.
  apply andb_prop in F. destruct F as [F _].
  apply (forallb_Forall kana_b S_kana v kana_b_spec) in K. rewrite K in F. cbn [negb orb] in F. apply Bool.eqb_prop in F.
  rewrite <- (forallb_Forall is_char_hiragana S_hiragana v hiragana_spec), F, negb_true_iff, <- not_true_iff_false. reflexivity.
Qed.
Definition prefixes_end : bool :=
  forallb (fun k => forallb (fun i => let q := firstn i k in Nat.eqb i 0 || Nat.leb (length k) i || existsb (N.eqb (last q 0)) (u "lxck")) [0; 1; 2; 3]%nat) not_hiragana.
Lemma last_app_r (q q' : str) d : q' <> [] -> last (q ++ q') d = last q' d.
Proof. intro H. destruct (exists_last H) as (x & c & ->). now rewrite app_assoc, !last_last. Qed.
Lemma slash_over q r : ~ In (last q 0) (u "lxck") -> slash_in (q ++ r) = slash_in q || slash_in r.
Proof.
  intro L. induction q as [|c q IH]; [reflexivity|]. cbn [app slash_in].
  assert (IH' : slash_in (q ++ r) = slash_in q || slash_in r).
  { destruct q as [|d q']; [reflexivity|]. apply IH. exact L. }
  rewrite IH', orb_assoc. f_equal. f_equal. clear IH IH'.
  apply eq_true_iff_eq. rewrite !existsb_exists. split; intros (k & I & P); exists k; (split; [exact I|]); apply prefixb_spec in P; destruct P as (t & Q); apply prefixb_spec.
  2: { exists (t ++ r). change (c :: q ++ r) with ((c :: q) ++ r). now rewrite Q, <- app_assoc. }
  change (c :: q ++ r) with ((c :: q) ++ r) in Q. destruct (Nat.leb (length k) (length (c :: q))) eqn:Le.
  - apply Nat.leb_le in Le. symmetry in Q. destruct (app_cut k t _ _ Q Le) as (e & E & _). now exists e.
  - apply Nat.leb_gt in Le. destruct (app_cut (c :: q) r k t Q ltac:(lia)) as (e & E & _). exfalso. apply L. apply existsb_In.
    assert (F : prefixes_end = true) by (vm_compute; reflexivity). unfold prefixes_end in F. rewrite forallb_forall in F. specialize (F _ I).
    rewrite forallb_forall in F. assert (length k <= 3)%nat as Lk. { clear -I. revert k I. apply Forall_forall. repeat constructor. }
    specialize (F (length (c :: q))). rewrite E, firstn_app, Nat.sub_diag, firstn_O, app_nil_r, firstn_all in F. rewrite <- E in F.
    rewrite (proj2 (Nat.leb_gt _ _) Le) in F. cbn [orb] in F. apply F. clear -Le Lk. cbn [length] in *.
    assert (X : (S (length q) = 1 \/ S (length q) = 2 \/ S (length q) = 3)%nat) by lia. cbn [In]. destruct X as [-> |[-> | ->]]; auto.
Qed.
Lemma low_upper c : is_AZ (ascii_lower c) = false.
Proof. unfold is_AZ, ascii_lower. ifs; lia. Qed.
Lemma emit_low_text q v : q <> [] -> (forall c, In c q -> is_AZ c = false) -> emit q v = v.
Proof. intros N H. unfold emit. destruct q as [|c q]; [congruence|]. cbn [forallb]. now rewrite (H c (or_introl eq_refl)). Qed.
Lemma hiragana_slash m s : Forall ascii s -> (forall c, In c s -> is_AZ c = false) ->
  Forall S_hiragana (conv m s) <-> Forall S_kana (conv m s) /\ ~ slash_in s = true.
Proof.
  induction s as [s IH] using str_ind_len. intros A U. destruct s as [|c s].
  { split; [split; [constructor|discriminate]|constructor]. }
  destruct (longest_exists m (c :: s)) as (q & L). destruct (entry_dec m (low q)) as [[v I]|I].
  - destruct (proj1 L) as (r & Q). rewrite Q in L, A, U, IH |- *. rewrite (conv_hit m q r v L I).
    assert (Nq : q <> []) by (intros ->; now apply keys_nonempty in I). apply Forall_app in A. destruct A as [A1 A2].
    assert (Uq : forall c, In c q -> is_AZ c = false) by (intros d D; apply U, in_or_app; now left).
    assert (Lq : low q = q). { unfold low. rewrite <- (map_id q) at 2. apply map_ext_in. intros d D. specialize (Uq d D). revert Uq. unfold is_AZ, ascii_lower. ifs; lia. }
    rewrite Lq in I.
    assert (Lst : ~ In (last q 0) (u "lxck")).
    { pose proof (slash_only_true m) as F. unfold slash_only in F. rewrite forallb_forall in F. specialize (F _ I). cbn [fst] in F.
      apply andb_prop in F. destruct F as [_ F]. apply negb_true_iff, not_true_iff_false in F. intro X. apply F. now apply existsb_In. }
    rewrite slash_over, orb_true_iff by exact Lst.
    rewrite emit_low_text, !Forall_app by assumption. rewrite (IH r); [|rewrite app_length; destruct q; [congruence|cbn; lia]|exact A2|intros d D; apply U, in_or_app; now right].
    pose proof (key_slash m q v I) as G.
    assert (HK : Forall S_hiragana v -> Forall S_kana v) by (apply Forall_impl; intros ? ?; now left). tauto.
  - rewrite (conv_miss m q c s L I). inversion A as [|? ? Ac _]; subst. unfold ascii in Ac.
    split; [intro F|intros [F _]]; inversion F as [|? ? K _]; exfalso; revert K; unfold S_kana, S_hiragana, S_katakana, between; lia.
Qed.
Lemma conv_nil m s : conv m s = [] <-> s = [].
Proof.
  split; [|intros ->; reflexivity]. intro H. destruct s as [|c s]; [reflexivity|].
  destruct (longest_exists m (c :: s)) as (q & L). destruct (entry_dec m (low q)) as [[v I]|I].
  - destruct (proj1 L) as (r & Q). rewrite Q in L, H. rewrite (conv_hit m q r v L I) in H. apply app_eq_nil in H. destruct H as [H _].
    exfalso. assert (F : forallb (fun e => negb (is_empty (snd e))) (dict m) = true) by (destruct m; vm_compute; reflexivity).
    rewrite forallb_forall in F. specialize (F _ I). cbn [snd] in F. destruct v as [|a v]; [discriminate|]. unfold emit, h2k in H. destruct (forallb is_AZ q); discriminate.
  - rewrite (conv_miss m q c s L I) in H. discriminate.
Qed.

Theorem complete_text E o s : std_ok E ->
  exists r, to_kana_with_opt E s o = Ok r /\ (is_kana r = true <-> s <> [] /\ complete (mode_of o) s).
Proof.
  intro HE. rewrite to_kana_with_opt_eq by exact HE. rewrite k_tree_mode. eexists. split; [reflexivity|].
  fold (conv (mode_of o) s). rewrite (proj1 (proj2 (proj2 C36_holds))).
  change (all_nonempty _ (conv (mode_of o) s)) with (all_nonempty S_kana (conv (mode_of o) s)).
  rewrite all_nonempty_iff, complete_iff, conv_nil. reflexivity.
Qed.
Theorem complete_ascii E o s : std_ok E -> pass_romaji o = false -> Forall ascii s ->
  exists h k, to_hiragana_with_opt E s o = Ok h /\ to_katakana_with_opt E s o = Ok k /\
    (is_katakana k = true <-> s <> [] /\ complete (mode_of o) s) /\
    (is_hiragana h = true <-> s <> [] /\ complete (mode_of o) s /\ ~ has_not_hiragana s).
Proof.
  intros HE P A. rewrite to_hiragana_with_opt_eq, to_katakana_with_opt_eq by exact HE. do 2 eexists. split; [reflexivity|]. split; [reflexivity|].
  rewrite hira_ascii, kata_ascii, P by assumption.
  assert (Lz : low s = [] <-> s = []) by (unfold low; split; [apply map_eq_nil|intros ->; reflexivity]).
  split.
  - rewrite (proj1 (proj2 C36_holds)), all_nonempty_iff, h2k_all_katakana, complete_iff, complete_low.
    enough (h2k (conv (mode_of o) (low s)) = [] <-> s = []) by tauto. rewrite <- Lz, <- (conv_nil (mode_of o) (low s)). unfold h2k. split; [apply map_eq_nil|intros ->; reflexivity].
  - rewrite (proj1 C36_holds), all_nonempty_iff, hiragana_slash, complete_iff, complete_low, conv_nil, <- has_slash_low, Lz; [tauto| |].
    + unfold low. rewrite Forall_map. revert A. apply Forall_impl. intros c. unfold ascii, ascii_lower. ifs; lia.
    + intros c I. unfold low in I. apply in_map_iff in I. destruct I as (d & <- & _). apply low_upper.
Qed.
