(** * Upper case and katakana, there and back: C87 *)
From Coq Require Import Bool.
From Verif Require Import Tac Base Std StdInstances Constants Chars Trees KanaTree RomajiTree Strings Convert
  KanaPure RomajiPure KanaSpec KanaDict KanaProofs Predicates ScriptSpec ScriptProofs ScriptIdem RomajiSpec RomajiProofs MoraProofs Splits TokenSpec
  LibraryProofs ChoiceSpec ChoiceProofs JoinSpec Joins JoinText KanaJoinSpec KanaJoin CompleteSpec Complete FixedSpec Fixed RoundSpec Round.

Local Opaque rdict.
(** ** Casing *)
Lemma viable_low m p : viable m (low p) <-> viable m p.
Proof. rewrite !viable_entry, low_low. reflexivity. Qed.
Lemma low_split T a b : low T = a ++ b -> exists p r, T = p ++ r /\ low p = a /\ low r = b.
Proof.
  revert T. induction a as [|x a IH]; intros T Q; [exists [], T; auto|].
  destruct T as [|c T]; [discriminate Q|]. cbn [low map app] in Q. injection Q as <- Q. destruct (IH T Q) as (p & r & -> & <- & <-). exists (c :: p), r. auto.
Qed.
Lemma longest_low m q s : longest m q s -> longest m (low q) (low s).
Proof.
  intros ((r & ->) & V & M). split; [exists (low r); apply low_app|]. split; [now apply viable_low|].
  intros p' r' Q V'. destruct (low_split _ _ _ Q) as (p & r0 & Q' & <- & <-). apply (proj1 (viable_low m p)) in V'.
  unfold low. rewrite !map_length. exact (M p r0 Q' V').
Qed.
Lemma longest_unlow m T q : longest m q (low T) -> exists p, low p = q /\ longest m p T.
Proof.
  intro Lq. destruct (longest_exists m T) as (p & Lp). exists p. split; [|exact Lp]. exact (longest_unique m _ _ _ (longest_low m p T Lp) Lq).
Qed.
Lemma lower_small c : 0x80 <= c -> ascii_lower c = c.
Proof. unfold ascii_lower, is_AZ. intro. ifs; lia. Qed.
Lemma lower_inv c d : ascii_lower c = d -> c = d \/ (is_AZ c = true /\ 0x61 <= d <= 0x7A).
Proof. unfold ascii_lower, is_AZ. ifs; intros; lia. Qed.

(** ** Finite facts *)
Definition values_b (m : mode) : bool := forallb (fun e => str_eqb (map k2hc (snd e)) (snd e) && str_eqb (map k2hc (h2k (snd e))) (snd e)
  && forallb (fun c => 0x80 <=? c) (snd e) && Nat.eqb (dashes (snd e)) (dashes (fst e)) && Nat.eqb (dashes (h2k (snd e))) (dashes (fst e))) (dict m).
Lemma values_b_true m : values_b m = true.
Proof. destruct m; vm_compute; reflexivity. Qed.
Lemma value_facts m k v q : entry m k v ->
  map k2hc (emit q v) = v /\ low v = v /\ dashes (emit q v) = dashes k.
Proof.
  intro I. pose proof (values_b_true m) as F. unfold values_b in F. rewrite forallb_forall in F. specialize (F _ I). cbn [fst snd] in F.
  apply andb_prop in F. destruct F as [F F5]. apply andb_prop in F. destruct F as [F F4]. apply andb_prop in F. destruct F as [F F3]. apply andb_prop in F. destruct F as [F1 F2].
  apply str_eqb_eq in F1, F2. apply Nat.eqb_eq in F4, F5. split; [|split].
  - unfold emit. destruct (forallb is_AZ q); assumption.
  - rewrite forallb_forall in F3. clear -F3. induction v as [|c v IH]; [reflexivity|]. cbn [low map]. f_equal.
    + apply lower_small, N.leb_le, F3. now left.
    + apply IH. intros x J. apply F3. now right.
  - unfold emit. destruct (forallb is_AZ q); assumption.
Qed.
Lemma low_emit m q v : entry m (low q) v -> emit (low q) v = v.
Proof.
  intro I. pose proof (keys_nonempty _ _ _ I) as K. apply emit_low_text; [exact K|]. intros c J. unfold low in J. apply in_map_iff in J. destruct J as (d & <- & _).
  unfold ascii_lower, is_AZ. ifs; lia.
Qed.

Lemma inert_k2hc c : inert c -> k2hc c = c.
Proof. intros [_ H]. apply k2hc_spec. unfold hiragana_for. unfold katakana_letter in H. lia. Qed.
(** the lower case text has the same kana in hiragana *)
Lemma conv_hira m T : (forall c, In c T -> inert c) -> low (map k2hc (conv m T)) = conv m (low T).
Proof.
  induction T as [T IH] using str_ind_len. intro N. destruct T as [|c T]; [assert (conv m [] = []) as K by apply kconv_nil; cbn [low map]; now rewrite K|].
  destruct (longest_exists m (c :: T)) as (q & Lq). pose proof (longest_low m q _ Lq) as Lq'. destruct (entry_dec m (low q)) as [[v I]|I].
  - destruct (proj1 Lq) as (r & Q). rewrite Q in *. rewrite (conv_hit m q r v Lq I), low_app. rewrite low_app in Lq'.
    rewrite (conv_hit m (low q) (low r) v Lq'), (low_emit m q v I) by now rewrite low_low.
    rewrite map_app, low_app. destruct (value_facts m _ v q I) as (A & B & _). rewrite A, B. f_equal. apply IH.
    + rewrite app_length. pose proof (keys_nonempty _ _ _ I). destruct q; [now contradiction H|cbn; lia].
    + intros x J. apply N, in_or_app. now right.
  - rewrite (conv_miss m q c T Lq I). cbn [low map] in Lq' |- *. fold (low T) in Lq' |- *.
    rewrite (conv_miss m (low q) (ascii_lower c) (low T) Lq') by (intros v J; rewrite low_low in J; exact (I v J)).
    rewrite inert_k2hc by (apply N; now left). f_equal. fold (low (map k2hc (conv m T))). apply IH; [cbn; lia|]. intros x J. apply N. now right.
Qed.
Lemma dashes_low s : dashes (low s) = dashes s.
Proof.
  unfold dashes. induction s as [|c s IH]; [reflexivity|]. cbn [low map filter]. fold (low s).
  assert (dash_b (ascii_lower c) = dash_b c) as ->; [|destruct (dash_b c); cbn [length]; now rewrite IH].
  unfold dash_b, ascii_lower. change long_mark with 0x30FC. change (ch "-") with 0x2D. ifs; lia.
Qed.
Lemma dashes_conv m T : dashes (conv m T) = dashes T.
Proof.
  induction T as [T IH] using str_ind_len. destruct T as [|c T]; [assert (conv m [] = []) as K by apply kconv_nil; now rewrite K|].
  destruct (longest_exists m (c :: T)) as (q & Lq). destruct (entry_dec m (low q)) as [[v I]|I].
  - destruct (proj1 Lq) as (r & Q). rewrite Q in *. rewrite (conv_hit m q r v Lq I), !dashes_app. destruct (value_facts m _ v q I) as (_ & _ & ->). rewrite dashes_low.
    f_equal. apply IH. rewrite app_length. pose proof (keys_nonempty _ _ _ I). destruct q; [now contradiction H|cbn; lia].
  - rewrite (conv_miss m q c T Lq I). change (c :: conv m T) with ([c] ++ conv m T). change (c :: T) with ([c] ++ T). rewrite !dashes_app. f_equal. apply IH. cbn; lia.
Qed.

(** ** Marks that lengthen nothing *)
Lemma vowel_dash d k v : mark_vowel (o_vowel d) k v -> dashes v = 0%nat.
Proof.
  intros (row & I & _).
  assert (forallb (fun r => Nat.eqb (dashes (snd r)) 0) (mark_table (o_vowel d)) = true) as T by (destruct d; vm_compute; reflexivity).
  rewrite forallb_forall in T. specialize (T _ I). now apply Nat.eqb_eq in T.
Qed.
Lemma text_dashes d a s h : hiragana_text (o_vowel d) a s h -> (dashes h <= dashes s)%nat /\
  (dashes h = dashes s -> h = map k2hc s /\ forall x y k, s = x ++ long_mark :: y -> ~ lengthens (a ++ x) k).
Proof.
  induction 1 as [a|a c s p h P H [B IH]]; [split; [lia|]; intros _; split; [reflexivity|]; intros [|? ?] ? ? Q; discriminate Q|].
  change (c :: s) with ([c] ++ s) at 1 2. rewrite !dashes_app.
  assert ((dashes p <= dashes [c])%nat /\ (dashes p = dashes [c] -> p = [k2hc c] /\ (c = long_mark -> forall k, ~ lengthens a k))) as [B' D].
  { destruct P as [(Nc & x & A & ->)|[(-> & k & A & M)|(-> & A & ->)]].
    - apply k2hc_spec in A. subst x. assert (dashes [k2hc c] = dashes [c]) as ->; [|split; [lia|]; intros _; split; [reflexivity|contradiction]].
      unfold dashes. cbn [filter]. assert (dash_b (k2hc c) = dash_b c) as ->; [|now destruct (dash_b c)].
      assert (hiragana_for c (k2hc c)) as A by now apply k2hc_spec. unfold hiragana_for in A. unfold dash_b. change long_mark with 0x30FC in *. change (ch "-") with 0x2D.
      change (ch "ヷ") with 0x30F7 in A. change (ch "ヸ") with 0x30F8 in A. change (ch "ヹ") with 0x30F9 in A. change (ch "ヺ") with 0x30FA in A.
      change (ch "わ") with 0x308F in A. change (ch "ゐ") with 0x3090 in A. change (ch "ゑ") with 0x3091 in A. change (ch "を") with 0x3092 in A.
      clear - A Nc. destruct (N.eqb_spec (k2hc c) 0x30FC), (N.eqb_spec (k2hc c) 0x2D), (N.eqb_spec c 0x30FC), (N.eqb_spec c 0x2D); cbn [orb]; try reflexivity; lia.
    - apply vowel_dash in M. change (dashes [long_mark]) with 1%nat. split; [lia|]. intro Z. lia.
    - split; [lia|]. intros _. split; [reflexivity|]. intros _ k K. apply A. now exists k. }
  split; [lia|]. intro Q. destruct D as [-> D]; [lia|]. destruct IH as [-> IH]; [lia|]. split; [reflexivity|].
  intros [|e x] y k Q' K.
  - injection Q' as -> ->. rewrite app_nil_r in K. exact (D eq_refl k K).
  - injection Q' as -> ->. apply (IH x y k eq_refl). now rewrite <- app_assoc.
Qed.
Lemma no_mark_text d a s h : hiragana_text (o_vowel d) a s h -> (forall x y k, s = x ++ long_mark :: y -> ~ lengthens (a ++ x) k) -> h = map k2hc s.
Proof.
  induction 1 as [a|a c s p h P H IH]; intro N; [reflexivity|]. cbn [map].
  rewrite IH by (intros x y k -> K; apply (N (c :: x) y k eq_refl); now rewrite <- app_assoc in K).
  change (k2hc c :: map k2hc s) with ([k2hc c] ++ map k2hc s). f_equal.
  destruct P as [(Nc & x & A & ->)|[(-> & k & A & M)|(-> & A & ->)]].
  - apply k2hc_spec in A. now subst.
  - exfalso. apply (N [] s k eq_refl). now rewrite app_nil_r.
  - reflexivity.
Qed.
Lemma marks_aligned E d s : std_ok E -> (dashes (k2h E d s) = dashes s -> no_long_mark s) /\ (no_long_mark s -> k2h E d s = map k2hc s).
Proof.
  intro HE. pose proof (k2h_text E d s HE) as T. split.
  - intro Q. exact (proj2 (proj2 (text_dashes d [] s _ T) Q)).
  - intro N. exact (no_mark_text d [] s _ T N).
Qed.

Definition v_value (e : str * str) : bool :=
  negb (mem vu (snd e)) || negb (entry_b (snd e) (fst e)) ||
  (match snd e with b :: _ => b =? vu | [] => false end && existsb (fun x => str_eqb (fst x) (snd e) && str_eqb (snd x) (fst e)) (v_entries 0)
   || match snd e with b :: c :: _ => (b =? tsu) && (c =? vu) | _ => false end && existsb (fun x => str_eqb (fst x) (snd e) && str_eqb (snd x) (fst e)) (map sokuon (v_entries 0))).
Definition v_values (m : mode) : bool := forallb v_value (dict m).
Lemma v_values_true m : v_values m = true.
Proof. destruct m; vm_compute; reflexivity. Qed.

Definition kept_b (e : str * str) : bool :=
  negb (forallb is_char_katakana (fst e)) || existsb (fun c => negb (not_katakana_b c)) (fst e) || str_eqb (map ascii_upper (snd e)) (snd e).
Lemma kept_true : forallb kept_b rdict = true.
Proof. vm_compute. reflexivity. Qed.
Definition az (c : N) : bool := (0x61 <=? c) && (c <=? 0x7A).
Definition kata_b (m : mode) : bool := forallb (fun e => negb (forallb az (fst e)) || forallb is_char_katakana (h2k (snd e))) (dict m).
Lemma kata_b_true m : kata_b m = true.
Proof. destruct m; vm_compute; reflexivity. Qed.
Definition vowel_b (e : str * str) : bool :=
  match fst e with b :: y => negb (mem b after_n) || match y with [] => entry_b [nn; b] (u "n'" ++ snd e) | _ => false end | [] => true end.
Lemma vowel_true : forallb vowel_b rdict = true.
Proof. vm_compute. reflexivity. Qed.
Lemma inert_ascii c : c < 0x80 -> inert c.
Proof.
  intro B. split.
  - intros v I. assert (F : forallb (fun e => forallb (fun c => 0x80 <=? c) (fst e)) rdict = true) by (vm_compute; reflexivity).
    rewrite forallb_forall in F. specialize (F _ I). cbn [fst forallb] in F. lia.
  - left. unfold katakana_letter. lia.
Qed.
Lemma inert_unlow d : inert (ascii_lower d) -> inert d.
Proof. intro I. destruct (lower_inv d _ eq_refl) as [Q|[A _]]; [now rewrite Q|]. apply inert_ascii. unfold is_AZ in A. lia. Qed.
Lemma inert_low d : inert d -> inert (ascii_lower d).
Proof. intro I. destruct (lower_inv d _ eq_refl) as [Q|[_ A]]; [now rewrite <- Q|]. apply inert_ascii. lia. Qed.
Lemma AZ_low p : p <> [] -> forallb is_AZ p = true -> low p <> p.
Proof. destruct p as [|c p]; [contradiction|]. intros _ F Q. cbn [low map forallb] in *. injection Q as Q _. apply andb_prop in F. destruct F as [F _]. unfold ascii_lower in Q. unfold is_AZ in F. revert Q. ifs; lia. Qed.
Lemma uppers_upper k q : Forall2 uppers k q <-> map ascii_upper k = q.
Proof.
  split.
  - induction 1 as [|c d k q H _ IH]; [reflexivity|]. cbn [map]. rewrite IH. f_equal. unfold uppers, lower_letter in H. unfold ascii_upper. ifs; lia.
  - intros <-. induction k as [|c k IH]; [constructor|]. cbn [map]. constructor; [|exact IH]. unfold uppers, lower_letter, ascii_upper. ifs; lia.
Qed.
Lemma remit_length up o v : length (remit up o v) = length v.
Proof. unfold remit. destruct (_ && _); [apply map_length|reflexivity]. Qed.
Lemma prefix_eq {A} (a b c d : list A) : a ++ b = c ++ d -> length a = length c -> a = c /\ b = d.
Proof.
  revert c. induction a as [|x a IH]; intros [|y c] Q H; try discriminate H; [auto|]. injection Q as -> Q. injection H as H.
  destruct (IH c Q H) as [-> ->]. auto.
Qed.
Lemma low_length q : length (low q) = length q.
Proof. apply map_length. Qed.

Section Up.
  Context (E : std) (a a' : nat) (L : library E a a').
  Context (rv rtv : str) (Hv : rv = u "vu" <-> a = 0%nat) (Hv' : rtv = u "vvu" <-> a' = 0%nat).
  Notation R := (R E).
  Notation ent := (ent a a').
  Notation closed := (closed a a').
  Notation unit := (unit a a').
  Lemma ent_no_letter k v : ent k v -> low k = k /\ forall c, In c k -> ~ (is_AZ c = true \/ 0x61 <= c <= 0x7A).
  Proof.
    intro I. apply ent_entry in I.
    assert (F : forallb (fun e => forallb (fun c => 0x80 <=? c) (fst e)) rdict = true) by (vm_compute; reflexivity).
    rewrite forallb_forall in F. specialize (F _ I). cbn [fst] in F. rewrite forallb_forall in F.
    assert (forall c, In c k -> 0x80 <= c) as G by (intros c J; now apply N.leb_le, F). clear F I. split.
    - induction k as [|c k IH]; [reflexivity|]. cbn [low map]. rewrite lower_small by (apply G; now left). f_equal. apply IH. intros x J. apply G. now right.
    - intros c J [H|H]; apply G in J; unfold is_AZ in H; lia.
  Qed.
  Lemma ent_value_low k v : ent k v -> low v = v.
  Proof.
    intro I. apply ent_entry in I.
    assert (F : forallb (fun e => str_eqb (low (snd e)) (snd e)) rdict = true) by (vm_compute; reflexivity).
    rewrite forallb_forall in F. specialize (F _ I). now apply str_eqb_eq in F.
  Qed.
  Lemma closed_low k rest : closed k rest -> closed k (low rest).
  Proof.
    intros C d r w Q I. destruct rest as [|c rest]; [discriminate Q|]. cbn [low map] in Q. injection Q as Q _.
    destruct (ent_no_letter _ _ I) as [_ G]. destruct (lower_inv c d Q) as [->|[_ B]].
    - exact (C d rest w eq_refl I).
    - apply (G d); [apply in_or_app; right; now left|now right].
  Qed.
  Lemma R_low h : R (low h) = low (R h).
  Proof.
    induction h as [h IH] using str_ind_len. destruct h as [|c h]; [unfold Joins.R; now rewrite !rconv_nil|].
    destruct (first_unit E a a' L c h) as (k & v & rest & Sp & U & C). rewrite Sp in *. rewrite (unit_step E a a' L k v rest U C), !low_app.
    assert (length rest < length (k ++ rest))%nat as B by (rewrite app_length; apply unit_nonempty in U; destruct k; [congruence|cbn; lia]).
    destruct U as [I|(d & -> & -> & X)].
    - rewrite (proj1 (ent_no_letter k v I)), (ent_value_low k v I), (unit_step E a a' L k v (low rest) (or_introl I) (closed_low k rest C)). f_equal. now apply IH.
    - cbn [low map app]. rewrite (lib_miss _ _ _ L); [f_equal; now apply IH|]. intros v I. destruct (ent_no_letter _ _ I) as [_ G].
      destruct (lower_inv d _ eq_refl) as [Q|[_ Q]]; [rewrite <- Q in I; exact (X v I)|]. apply (G (ascii_lower d)); [now left|now right].
  Qed.

  (** ** Romaji of aligned text *)
  Definition V (P : str) : str := rconv E true P (map k2hc P).
  Lemma V_nil : V [] = [].
  Proof. apply rconv_nil. Qed.
  Lemma V_unit p P v : ent (map k2hc p) v -> closed (map k2hc p) (map k2hc P) -> V (p ++ P) = remit true p v ++ V P.
  Proof.
    intros I C. unfold V. rewrite map_app, (lib_hit_up _ _ _ L true _ _ v _ I C), map_length.
    rewrite firstn_app, skipn_app, Nat.sub_diag, firstn_all, skipn_all. cbn [firstn skipn app]. now rewrite app_nil_r.
  Qed.
  Lemma V_left c P : inert c -> V (c :: P) = c :: V P.
  Proof.
    intro I. unfold V. cbn [map]. rewrite (inert_k2hc c I), (lib_miss_up _ _ _ L); [reflexivity|]. intros v J. apply ent_entry in J. exact (proj1 I v J).
  Qed.
  Lemma closed_key v w rest : ent v w -> v <> [nn] -> (forall x, v <> x ++ [tsu]) -> (forall d r, rest = d :: r -> ~ In d smalls) -> closed v rest.
  Proof.
    intros I Nn Nt S d r x -> J. specialize (S d r eq_refl). assert (v <> []) as N by exact (entry_nonempty a a' v w I).
    destruct (crossing E a a' L v d x J N) as [[-> _]|[[-> _]|[(y & _ & _ & B)|[(_ & _ & B)|(_ & _ & B)]]]]; try contradiction.
    now apply (Nt []).
  Qed.
  Lemma two_way_ent m k v : two_way m rv rtv k v -> k <> u "n" -> ent v k.
  Proof.
    intros T N. pose proof (two_way_clean rv rtv m k v T) as Z. pose proof (two_way_n rv rtv m k v T N) as V. pose proof (proj1 T) as I.
    destruct (in_dec N.eq_dec vu v) as [Vu|Vu]; [|apply entry_ent; [exact (proj1 (proj2 T))|exact Vu]].
    pose proof (v_values_true m) as F. unfold v_values in F. rewrite forallb_forall in F. specialize (F _ I). unfold v_value in F. cbn [fst snd] in F.
    assert (entry_b v k = true) as Eb.
    { apply existsb_exists. exists (v, k). split; [exact (proj1 (proj2 T))|]. cbn [fst snd]. now rewrite !str_eqb_refl. }
    apply mem_In in Vu. rewrite Vu, Eb in F. cbn [negb orb] in F. destruct T as (_ & _ & T1 & T2). apply ent_cases.
    assert (forall l : list (str * str), existsb (fun e => str_eqb (fst e) v && str_eqb (snd e) k) l = true -> In (v, k) l) as G.
    { intros l H. apply existsb_exists in H. destruct H as ([x y] & J & H). cbn [fst snd] in H. apply andb_prop in H. destruct H as [A B].
      apply str_eqb_eq in A. apply str_eqb_eq in B. now subst. }
    apply orb_prop in F. destruct F as [F|F]; apply andb_prop in F; destruct F as [F F'].
    - right. left. assert (a = 0%nat) as -> by (apply Hv, T1; destruct v as [|b y]; [discriminate F|]; apply N.eqb_eq in F; subst b; now exists y). now apply G.
    - right. right. assert (a' = 0%nat) as -> by (apply Hv', T2; destruct v as [|b [|c y]]; try discriminate F; apply andb_prop in F; destruct F as [Fb Fc]; apply N.eqb_eq in Fb; apply N.eqb_eq in Fc; subst b c; now exists y).
      apply G in F'. apply in_map_iff in F'. destruct F' as ([k' v'] & Q & J). unfold sokuon in Q. cbn [fst snd] in Q. injection Q as <- <-. exists k', v'. auto.
  Qed.

  (** ** The beginning of the kana *)
  Lemma head_low P (l : str) : Forall (fun c => 0x80 <= c) l -> (forall b t, low P = b :: t -> ~ In b l) -> forall b t, P = b :: t -> ~ In b l.
  Proof.
    intros F H b t -> I. apply (H (ascii_lower b) (low t) eq_refl). rewrite Forall_forall in F. rewrite lower_small by now apply F. exact I.
  Qed.
  Lemma kana_high l : forallb (fun c => 0x80 <=? c) l = true -> Forall (fun c => 0x80 <= c) l.
  Proof. intro H. apply Forall_forall. intros c I. rewrite forallb_forall in H. now apply N.leb_le, H. Qed.
  Lemma heads m T : survives m rv rtv (low T) -> (forall c, In c T -> inert c) ->
    (forall b t, map k2hc (conv m T) = b :: t -> ~ In b smalls) /\
    ((forall c s, T = c :: s -> ~ n_follow c) -> forall b t, map k2hc (conv m T) = b :: t -> ~ In b after_n).
  Proof.
    intros S N. pose proof (conv_hira m T N) as Q. split.
    - apply head_low; [apply kana_high; vm_compute; reflexivity|]. rewrite Q. intros b t. eapply clean_head; [eapply survives_clean; eassumption|].
      exact (survives_inert rv rtv m _ S).
    - intro H. apply head_low; [apply kana_high; vm_compute; reflexivity|]. rewrite Q. eapply survives_head; [eassumption| |exact S|]; [eassumption|].
      intros c s Q' (d & Ld & Id). destruct T as [|e T]; [discriminate Q'|]. cbn [low map] in Q'. injection Q' as Q' _.
      apply (H e T eq_refl). exists d. split; [|exact Id]. apply lowers_lower. apply lowers_lower in Ld. rewrite <- Q' in Ld.
      rewrite <- Ld. unfold ascii_lower. ifs; lia.
  Qed.
  Lemma survives_unlow m T : survives m rv rtv (low T) -> forall c, In c T -> inert c.
  Proof. intros S c I. apply inert_unlow. apply (survives_inert rv rtv m _ S). unfold low. apply in_map, I. Qed.
  Lemma longest_cased m k v q T : entry m k v -> k <> u "n" -> count k = 0%nat -> low q = k -> longest m q (q ++ T).
  Proof.
    intros I N Z Q. assert (longest m k (low (q ++ T))) as Lk by (rewrite low_app, Q; eapply alone; eassumption).
    destruct (longest_unlow m _ _ Lk) as (p & P & Lp). destruct (proj1 Lp) as (r & Qr).
    destruct (prefix_eq q T p r Qr) as [-> _]; [rewrite <- (low_length q), <- (low_length p); congruence|exact Lp].
  Qed.
  Lemma n_cased m d T : ascii_lower d = ch "n" -> m <> Ime -> (forall c s, T = c :: s -> ~ n_follow c) -> longest m [d] (d :: T).
  Proof.
    intros Q M H. assert (longest m (u "n") (low (d :: T))) as Lk.
    { cbn [low map]. rewrite Q. fold (low T). change (ch "n" :: low T) with (u "n" ++ low T). eapply n_alone; [eassumption|eassumption|exact M|].
      intros c s Q' (e & Le & Ie). destruct T as [|f T]; [discriminate Q'|]. cbn [low map] in Q'. injection Q' as Q' _.
      apply (H f T eq_refl). exists e. split; [|exact Ie]. apply lowers_lower. apply lowers_lower in Le. rewrite <- Q' in Le.
      rewrite <- Le. unfold ascii_lower. ifs; lia. }
    destruct (longest_unlow m _ _ Lk) as (p & P & Lp). destruct p as [|x [|y p]]; try discriminate P. destruct (proj1 Lp) as (r & Qr). injection Qr as <- _. exact Lp.
  Qed.
  Lemma plain_value m k v : two_way m rv rtv k v -> remit true v k = k.
  Proof.
    intro T. pose proof (two_way_clean rv rtv m k v T) as Z. unfold remit. rewrite andb_true_r. destruct (forallb is_char_katakana v) eqn:F; [|reflexivity].
    pose proof kept_true as K. rewrite forallb_forall in K. specialize (K _ (proj1 (proj2 T))). unfold kept_b in K. cbn [fst snd] in K. rewrite F in K.
    cbn [negb orb] in K. apply orb_prop in K. destruct K as [K|K]; [|now apply str_eqb_eq].
    exfalso. apply existsb_exists in K. destruct K as (c & I & K). destruct (key_shape m k v (proj1 T) Z) as (_ & _ & G & _). apply (G c I).
    unfold not_katakana_b in K. rewrite negb_involutive in K. unfold katakana_letter. apply andb_prop in K. rewrite !N.leb_le in K. exact K.
  Qed.
  Lemma V_key m k v p P : two_way m rv rtv k v -> k <> u "n" -> map k2hc p = v -> (forall b t, map k2hc P = b :: t -> ~ In b smalls) ->
    V (p ++ P) = remit true p k ++ V P.
  Proof.
    intros T N Q H. pose proof (two_way_clean rv rtv m k v T) as Z. pose proof (two_way_ent m k v T N) as I. apply V_unit; rewrite Q; [exact I|].
    apply (closed_key v k); [exact I|exact (two_way_n rv rtv m k v T N)| |exact H].
    exact (proj1 (proj2 (key_shape m k v (proj1 T) Z))).
  Qed.
  Lemma V_n p P : map k2hc p = [nn] -> (forall b t, map k2hc P = b :: t -> ~ In b after_n) -> V (p ++ P) = remit true p (u "n") ++ V P.
  Proof.
    intros Q H. assert (ent [nn] (u "n")) as I by (apply entry_b_ent; vm_compute; reflexivity). apply V_unit; rewrite Q; [exact I|].
    intros d t w Qd J. apply (H d t Qd). destruct (crossing E a a' L [nn] d w J) as [[K _]|[[_ K]|[(x & [K|K] & B & _)|[[K _]|[K _]]]]]; try discriminate K; try discriminate.
    - exact K.
    - injection K as <-. now apply nn_base in B.
  Qed.
  Lemma vowel_key m k b y : two_way m rv rtv k (b :: y) -> In b after_n -> y = [] /\ ent [nn; b] (u "n'" ++ k).
  Proof.
    intros T B. pose proof vowel_true as F. rewrite forallb_forall in F. specialize (F _ (proj1 (proj2 T))). unfold vowel_b in F. cbn [fst snd] in F.
    apply mem_In in B. rewrite B in F. cbn [negb orb] in F. destruct y; [|discriminate F]. split; [reflexivity|]. apply entry_ent; [now apply entry_b_true|].
    apply mem_In in B. intros [Q|[Q|[]]]; [discriminate Q|]. subst b. revert B. vm_compute. intuition discriminate.
  Qed.
  Lemma V_n' m k b p P : two_way m rv rtv k [b] -> In b after_n -> map k2hc p = [b] -> (forall c t, map k2hc P = c :: t -> ~ In c smalls) ->
    V (nn :: p ++ P) = u "n'" ++ k ++ V P.
  Proof.
    intros T B Q H. destruct (vowel_key m k b [] T B) as [_ I].
    change (nn :: p ++ P) with ((nn :: p) ++ P). rewrite (V_unit (nn :: p) P (u "n'" ++ k)).
    - rewrite app_assoc. reflexivity.
    - cbn [map]. rewrite Q. exact I.
    - cbn [map]. rewrite Q. apply (closed_key _ _ _ I); [discriminate| |exact H]. intros [|x [|? ?]] Z; try discriminate Z.
      + injection Z as _ ->. revert B. vm_compute. intuition discriminate.
      + destruct l; discriminate Z.
  Qed.

  Lemma back_up m lt : survives m rv rtv lt -> forall T, low T = lt -> V (conv m T) = T -> spells_up m rv rtv (conv m T) T.
  Proof.
    induction 1 as [|c p r Lp Np Nc S IH|k v r T N S IH|r M H S IH|k b y r T B S IH]; intros X Q F.
    - destruct X; [|discriminate Q]. assert (conv m [] = []) as -> by apply kconv_nil. constructor.
    - destruct X as [|d X]; [discriminate Q|]. rewrite <- Q in Lp. destruct (longest_unlow m _ _ Lp) as (q & Qq & Lq).
      cbn [low map] in Q. injection Q as Qd Qr. fold (low X) in Qr.
      assert (forall v, ~ entry m (low q) v) as Nq by (intros v I; rewrite Qq in I; apply (Np p v); [|exact I]; apply casing_low; rewrite <- Qq; apply low_low).
      assert (inert d) as Id by (apply inert_unlow; rewrite Qd; now apply inert_spec).
      rewrite (conv_miss m q d X Lq Nq) in *. rewrite (V_left d _ Id) in F. injection F as F.
      apply (SU_left m rv rtv d q); [exact Lq| |now apply inert_spec|now apply IH].
      intros k v C. apply casing_low in C. rewrite <- C. apply Nq.
    - pose proof (two_way_clean rv rtv m k v T) as Z. destruct (low_split _ _ _ Q) as (q & X' & -> & Qk & Qr). clear Q.
      pose proof (longest_cased m k v q X' (proj1 T) N Z Qk) as Lq. assert (entry m (low q) v) as I by (rewrite Qk; exact (proj1 T)).
      assert (survives m rv rtv (low X')) as S' by now rewrite Qr.
      rewrite (conv_hit m q X' v Lq I) in *. destruct (value_facts m _ v q I) as (A & _).
      rewrite (V_key m k v _ _ T N A (proj1 (heads m X' S' (survives_unlow m X' S')))) in F.
      destruct (prefix_eq _ _ _ _ F) as [F1 F2]; [rewrite remit_length, <- Qk; apply low_length|]. specialize (IH X' Qr F2).
      assert (q <> []) as Nq by (intros ->; exact (keys_nonempty _ _ _ I eq_refl)).
      unfold emit in *. destruct (forallb is_AZ q) eqn:AZ.
      + unfold remit in F1. destruct (_ && _); [|exfalso; apply (AZ_low q Nq AZ); congruence].
        apply (SU_upper m rv rtv k v); [exact T|exact N| |now apply uppers_upper|now apply h2k_spec|exact IH].
        intros c J. rewrite <- Qk in J. unfold low in J. apply in_map_iff in J. destruct J as (d & <- & J). rewrite forallb_forall in AZ. apply AZ in J.
        unfold lower_letter, ascii_lower. unfold is_AZ in J. ifs; lia.
      + rewrite (plain_value m k v T) in F1. subst q. now apply SU_key.
    - destruct X as [|d X]; [discriminate Q|]. cbn [low map] in Q. injection Q as Qd Qr. fold (low X) in Qr.
      assert (forall c s, X = c :: s -> ~ n_follow c) as H'.
      { intros c s -> (e & Le & Ie). cbn [low map] in Qr. apply (H (ascii_lower c) (low s) (eq_sym Qr)). exists e. split; [|exact Ie].
        apply lowers_lower. apply lowers_lower in Le. rewrite <- Le. unfold ascii_lower, is_AZ. ifs; lia. }
      assert (survives m rv rtv (low X)) as S' by now rewrite Qr.
      pose proof (n_cased m d X Qd M H') as Ln. change (d :: X) with ([d] ++ X) in *.
      assert (entry m (low [d]) (u "ん")) as I by (cbn [low map]; rewrite Qd; apply KanaJoin.n_key; exact M).
      rewrite (conv_hit m [d] X _ Ln I) in *. destruct (value_facts m _ _ [d] I) as (A & _).
      rewrite (V_n _ _ A (proj2 (heads m X S' (survives_unlow m X S')) H')) in F.
      destruct (prefix_eq _ _ _ _ F) as [F1 F2]; [rewrite remit_length; reflexivity|]. specialize (IH X Qr F2).
      assert (d = ch "n" \/ d = ch "N") as [-> | ->].
      { unfold ascii_lower, is_AZ in Qd. change (ch "n") with 0x6E in *. change (ch "N") with 0x4E. revert Qd. ifs; lia. }
      + exact (SU_n m rv rtv false _ X M H' IH).
      + exact (SU_n m rv rtv true _ X M H' IH).
    - pose proof (two_way_clean rv rtv m k _ T) as Z. pose proof (two_way_vowel rv rtv m k b y T B) as Vw.
      destruct (low_split _ _ _ Q) as (q1 & X1 & -> & Q1 & Q2). destruct (low_split _ _ _ Q2) as (q & X & -> & Qk & Qr). clear Q Q2.
      rename Vw into N.
      pose proof (longest_cased m k _ q X (proj1 T) N Z Qk) as Lq. assert (entry m (low q) (b :: y)) as I by (rewrite Qk; exact (proj1 T)).
      assert (entry m (u "n'") (u "ん")) as I1 by apply apostrophe_key.
      assert (longest m q1 (q1 ++ q ++ X)) as L1 by (apply (longest_cased m _ _ q1 _ I1); [discriminate|reflexivity|exact Q1]).
      assert (survives m rv rtv (low X)) as S' by now rewrite Qr.
      assert (entry m (low q1) (u "ん")) as I1' by now rewrite Q1.
      destruct (vowel_key m k b y T B) as [-> _].
      rewrite (conv_hit m q1 _ _ L1 I1') in *. rewrite (conv_hit m q X _ Lq I) in *. destruct (value_facts m _ _ q I) as (A & _).
      assert (emit q1 (u "ん") = [nn]) as E1.
      { destruct q1 as [|x [|y [|? ?]]]; try discriminate Q1. cbn [low map] in Q1. injection Q1 as _ Qy. unfold emit. cbn [forallb].
        assert (is_AZ y = false) as ->; [|now rewrite andb_false_r]. unfold ascii_lower, is_AZ in *. change (ch "'") with 0x27 in Qy. revert Qy. ifs; lia. }
      rewrite E1 in *. change ([nn] ++ emit q [b] ++ conv m X) with (nn :: emit q [b] ++ conv m X) in F.
      rewrite (V_n' m k b _ _ T B A (proj1 (heads m X S' (survives_unlow m X S')))) in F.
      destruct (prefix_eq _ _ _ _ F) as [F1 F2]; [rewrite <- Q1; apply low_length|]. destruct (prefix_eq _ _ _ _ F2) as [F3 F4]; [rewrite <- Qk; apply low_length|].
      subst q q1. specialize (IH X Qr F4). 
      assert (emit k [b] = [b]) as -> by (rewrite <- Qk; apply (low_emit m); exact I).
      exact (SU_n' m rv rtv k b [] _ X T B IH).
  Qed.

  Lemma upper_low k q : (forall c, In c k -> lower_letter c) -> map ascii_upper k = q -> low q = k /\ forallb is_AZ q = true /\ forallb az k = true.
  Proof.
    intros H <-. induction k as [|c k IH]; [repeat split|]. destruct IH as (I1 & I2 & I3); [intros x J; apply H; now right|].
    cbn [low map forallb]. fold (low (map ascii_upper k)). rewrite I1, I2, I3. specialize (H c (or_introl eq_refl)). unfold lower_letter in H.
    assert (ascii_upper c = c - 32) as -> by (unfold ascii_upper; ifs; lia). unfold ascii_lower, is_AZ, az.
    split; [f_equal; ifs; lia|]. split; rewrite andb_true_r; lia.
  Qed.
  Lemma forth_low m s t : spells_up m rv rtv s t -> survives m rv rtv (low t) /\ conv m t = s.
  Proof.
    induction 1 as [|c p s t Lp Np Nc S [IH Q]|k v s t T N S [IH Q]|k v q w s t T N Lo U W S [IH Q]|b s t M H S [IH Q]|k b y s t T B S [IH Q]].
    - split; [constructor|apply kconv_nil].
    - assert (forall v, ~ entry m (low p) v) as Nq by (intro v; apply (Np (low p) v); now apply casing_low).
      split; [|rewrite (conv_miss m p c t Lp Nq); now rewrite Q].
      apply (SV_left m rv rtv (ascii_lower c) (low p)); [exact (longest_low m _ _ Lp)| |apply inert_spec, inert_low; now apply inert_spec|exact IH].
      intros k v C. apply casing_low in C. rewrite low_low in C. rewrite <- C. apply Nq.
    - pose proof (two_way_clean rv rtv m k v T) as Z. assert (low k = k) as Lk by exact (keys_low m k v (proj1 T)).
      split; [rewrite low_app, Lk; now apply (SV_key m rv rtv k v)|].
      rewrite (conv_hit m k t v (longest_cased m k v k t (proj1 T) N Z Lk)), Q by (rewrite Lk; exact (proj1 T)). f_equal.
      rewrite <- Lk. apply (low_emit m). rewrite Lk. exact (proj1 T).
    - pose proof (two_way_clean rv rtv m k v T) as Z. apply uppers_upper in U. destruct (upper_low k q Lo U) as (Lq & AZ & _).
      split; [rewrite low_app, Lq; now apply (SV_key m rv rtv k v)|].
      rewrite (conv_hit m q t v (longest_cased m k v q t (proj1 T) N Z Lq)), Q by (rewrite Lq; exact (proj1 T)). f_equal.
      unfold emit. rewrite AZ. now apply h2k_spec.
    - assert (forall c t', low t = c :: t' -> ~ n_follow c) as H'.
      { intros c s' Qc (e & Le & Ie). destruct t as [|f t]; [discriminate Qc|]. cbn [low map] in Qc. injection Qc as Qc _.
        apply (H f t eq_refl). exists e. split; [|exact Ie]. apply lowers_lower. apply lowers_lower in Le. rewrite <- Qc in Le.
        rewrite <- Le. unfold ascii_lower. ifs; lia. }
      split; [destruct b; exact (SV_n m rv rtv _ M H' IH)|].
      destruct b.
      + change (u "N" ++ t) with ([ch "N"] ++ t). rewrite (conv_hit m [ch "N"] t (u "ん") (n_cased m (ch "N") t eq_refl M H) (KanaJoin.n_key m M)), Q. reflexivity.
      + change (u "n" ++ t) with ([ch "n"] ++ t). rewrite (conv_hit m [ch "n"] t (u "ん") (n_cased m (ch "n") t eq_refl M H) (KanaJoin.n_key m M)), Q. reflexivity.
    - pose proof (two_way_clean rv rtv m k _ T) as Z. pose proof (two_way_vowel rv rtv m k b y T B) as N. assert (low k = k) as Lk by exact (keys_low m k _ (proj1 T)).
      split; [rewrite !low_app, Lk; now apply (SV_n' m rv rtv k b y)|].
      rewrite (conv_hit m (u "n'") (k ++ t) (u "ん")); [|apply (longest_cased m _ _ _ _ (apostrophe_key m)); [discriminate|reflexivity|reflexivity]|apply apostrophe_key].
      rewrite (conv_hit m k t _ (longest_cased m k _ k t (proj1 T) N Z Lk)), Q by (rewrite Lk; exact (proj1 T)).
      rewrite <- Lk at 1. rewrite (low_emit m k (b :: y)) by (rewrite Lk; exact (proj1 T)). reflexivity.
  Qed.
  Lemma forth_up m s t : spells_up m rv rtv s t -> V s = t.
  Proof.
    induction 1 as [|c p s t Lp Np Nc S IH|k v s t T N S IH|k v q w s t T N Lo U W S IH|b s t M H S IH|k b y s t T B S IH]; [apply V_nil|..];
      destruct (forth_low m s t S) as [S' Q]; destruct (heads m t S' (survives_unlow m t S')) as [H1 H2]; rewrite Q in H1, H2.
    - rewrite V_left by now apply inert_spec. now rewrite IH.
    - rewrite (V_key m k v v s T N), (plain_value m k v T), IH; [reflexivity| |exact H1].
      assert (low k = k) as Lk by exact (keys_low m k v (proj1 T)). assert (entry m (low k) v) as I by (rewrite Lk; exact (proj1 T)).
      destruct (value_facts m _ v (low k) I) as (A & _). now rewrite (low_emit m k v I) in A.
    - apply uppers_upper in U. destruct (upper_low k q Lo U) as (Lq & AZ & Az). apply h2k_spec in W. subst w.
      rewrite (V_key m k v _ s T N), IH; [|destruct (value_facts m _ v q (proj1 T)) as (A & _); unfold emit in A; now rewrite AZ in A|exact H1].
      f_equal. unfold remit. pose proof (kata_b_true m) as K. unfold kata_b in K. rewrite forallb_forall in K. specialize (K _ (proj1 T)). cbn [fst snd] in K.
      rewrite Az in K. cbn [negb orb] in K. rewrite K. exact U.
    - destruct b.
      + change (u "ン" ++ s) with ([ch "ン"] ++ s). rewrite (V_n [ch "ン"] s eq_refl (H2 H)), IH. reflexivity.
      + change (u "ん" ++ s) with ([ch "ん"] ++ s). rewrite (V_n [ch "ん"] s eq_refl (H2 H)), IH. reflexivity.
    - destruct (vowel_key m k b y T B) as [-> _]. change (u "ん" ++ [b] ++ s) with (nn :: [b] ++ s).
      assert (low k = k) as Lk by exact (keys_low m k _ (proj1 T)). assert (entry m (low k) [b]) as I by (rewrite Lk; exact (proj1 T)).
      rewrite (V_n' m k b [b] s T B), IH; [reflexivity| |exact H1].
      destruct (value_facts m _ [b] (low k) I) as (A & _). now rewrite (low_emit m k _ I) in A.
  Qed.
End Up.

Theorem each_other_up E o o' rv rtv s t : std_ok E -> upcase_katakana o' = true ->
  to_romaji_with_opt E (u "ゔ") o' = Ok rv -> to_romaji_with_opt E (u "っゔ") o' = Ok rtv ->
  (to_romaji_with_opt E s o' = Ok t /\ to_kana_with_opt E t o = Ok s <-> spells_up (mode_of o) rv rtv s t /\ no_long_mark s).
Proof.
  intros HE Up Rv Rtv. destruct (library_exists E HE) as (a & a' & L & Hv & Hv' & _).
  assert (forall s, to_romaji_with_opt E s o' = Ok (rconv E true s (k2h E true s))) as Rom by (intro x; now rewrite to_romaji_with_opt_eq, Up by exact HE).
  rewrite Rom in Rv, Rtv. injection Rv as Rv. injection Rtv as Rtv.
  change (k2h E true (u "ゔ")) with [vu] in Rv. change (k2h E true (u "っゔ")) with [tsu; vu] in Rtv.
  assert (forall P, forallb (fun c => negb (is_char_katakana c)) P = true -> rconv E true P P = R E P) as Plain.
  { intros P F. rewrite (rconv_no_kata E HE P P (le_n _)); [unfold R; now apply rconv_noup|]. intros c J K. apply katakana_spec in K.
    rewrite forallb_forall in F. apply F in J. now rewrite K in J. }
  rewrite Plain in Rv, Rtv by (vm_compute; reflexivity). rewrite Rv in Hv. rewrite Rtv in Hv'. clear Rv Rtv Plain.
  rewrite Rom, to_kana_with_opt_eq, k_tree_mode by exact HE. set (m := mode_of o). fold (conv m t). split.
  - intros [A B]. injection A as A. injection B as B. 
    assert (forall c, In c t -> inert c) as N by (intros c J; rewrite <- A in J; exact (romaji_inert E true _ c HE J)).
    assert (low t = low (R E (k2h E true s))) as Lt by (rewrite <- A, (rconv_low E HE _ _ true false); f_equal; unfold R; now apply rconv_noup).
    assert (dashes (k2h E true s) = dashes s) as D.
    { rewrite <- B at 2. rewrite dashes_conv, <- (dashes_low t), Lt, dashes_low. symmetry. exact (R_dashes E a a' L _ _ (le_n _)). }
    destruct (marks_aligned E true s HE) as [M1 M2]. specialize (M1 D). specialize (M2 M1). split; [|exact M1].
    rewrite M2 in A, Lt. rewrite <- (R_low E a a' L rv rtv Hv Hv') in Lt. rewrite <- B, conv_hira in Lt by exact N.
    assert (clean m (low t)) as C.
    { apply (proj2 (count_conv m (low t))). rewrite Lt at 2. symmetry. unfold R. now apply count_rconv. }
    assert (survives m rv rtv (low t)) as S.
    { apply (back_survives E a a' L rv rtv Hv Hv' m (low t) C); [|now symmetry]. intros c J. unfold low in J. apply in_map_iff in J. destruct J as (d & <- & J). now apply inert_low, N. }
    rewrite <- B. apply (back_up E a a' L rv rtv Hv Hv' m (low t) S t eq_refl). rewrite B. exact A.
  - intros [S M]. destruct (forth_low a a' rv rtv Hv Hv' m s t S) as [_ Q]. split; [|now rewrite Q].
    rewrite (proj2 (marks_aligned E true s HE) M). f_equal. exact (forth_up E a a' L rv rtv Hv Hv' m s t S).
Qed.
