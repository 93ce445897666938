(** * [to_romaji] with comparisons (C100) *)
From Verif Require Export Tac.
From Verif Require Import Base Std Constants Chars Trees KanaTree RomajiTree Strings Convert
  KanaPure RomajiPure KanaSpec ScriptSpec Predicates ScriptProofs FixedSpec ScriptIdem Cost CostSpec CostProofs Compare.

(** the number of transitions of the node of [k] (of the largest one: ゔ stands in the tree more than once) *)
Definition width (k : str) : nat :=
  list_max (map (fun q => length (rts (snd q))) (filter (fun q => str_eqb (fst q) k) (r_flat RT))).
Lemma width_ok k n : r_node k n -> (length (rts n) <= width k)%nat.
Proof.
  intro Hn. unfold width. pose proof (proj1 (list_max_le (map (fun q => length (rts (snd q))) (filter (fun q => str_eqb (fst q) k) (r_flat RT))) _) (le_n _)) as H.
  rewrite Forall_forall in H. apply H. apply in_map_iff. exists (k, n). split; [reflexivity|]. apply filter_In. split; [exact Hn|]. apply str_eqb_eq. reflexivity.
Qed.

Section Romaji.
  Context (B : search) (E : std) (HE : std_ok E) (top : nat -> nat).
  Context (B_is : forall keys k, fst (B keys k) = bsearch E keys k)
    (B_top : forall keys k, (snd (B keys k) <= top (length keys))%nat)
    (B_one : forall keys k, keys <> [] -> (1 <= snd (B keys k))%nat)
    (top_mono : forall n m, (n <= m)%nat -> (top n <= top m)%nat).
  (** [bot]: at least so many comparisons for a lookup in the root *)
  Context (bot : nat) (B_bot : forall c, (bot <= snd (B (map fst (rts RT)) c))%nat).
  Definition rcost (n : rnode) (c : char) : nat := match rtrans n with Some t => snd (B (map fst t) c) | None => 0 end.
  Lemma r_find_cmp_ok k n c l : r_node k n -> r_find_cmp B n c l = Ok (rfind E n c, (l + rcost n c)%nat).
  Proof.
    intro Hn. pose proof (r_find_ok E k n c HE Hn) as Q. unfold r_find, rfind, r_find_cmp, rcost in *.
    destruct (rtrans n) as [ts|]; [|f_equal; f_equal; lia]. rewrite <- B_is in *. destruct (B (map fst ts) c) as [[i|] x]; cbn [fst snd] in *; [|reflexivity].
    unfold index in *. destruct (nth_error ts i) as [y|]; [reflexivity|discriminate].
  Qed.
  Definition b : nat := top (length (rts RT)).
  Lemma rcost_root c : (1 <= rcost RT c <= b)%nat.
  Proof.
    unfold rcost, b, rts. assert (R : exists t, rtrans RT = Some t /\ t <> []) by (eexists; split; [vm_compute; reflexivity|discriminate]).
    destruct R as (t & -> & NE). split; [apply B_one; destruct t; easy|]. rewrite <- (map_length fst t). apply B_top.
  Qed.
  Lemma rcost_bot c : (bot <= rcost RT c)%nat.
  Proof.
    pose proof (B_bot c) as Q. unfold rcost, rts in *. assert (R : exists t, rtrans RT = Some t) by (eexists; vm_compute; reflexivity).
    destruct R as (t & R). rewrite R in *. exact Q.
  Qed.
  Lemma rcost_top n c : rts n <> [] -> (1 <= rcost n c <= top (length (rts n)))%nat.
  Proof.
    unfold rcost, rts. destruct (rtrans n) as [t|]; [|easy]. intro NE. split; [apply B_one; now destruct t|]. rewrite <- (map_length fst t). apply B_top.
  Qed.
  Lemma rcost_none n c : rts n = [] -> (rcost n c <= top 0)%nat.
  Proof. unfold rcost, rts. destruct (rtrans n) as [t|]; [intros ->; apply (B_top [] c)|lia]. Qed.

  (** the lookups of the marks of [s] after [a] *)
  Definition marks (a s : str) (l : nat) : Prop := exists n p, lengthening a s n p /\ (bot * n <= l <= b * n)%nat.
  Lemma marks_nil a : marks a [] 0.
  Proof. exists 0%nat, 0%nat. split; [constructor|lia]. Qed.
  Lemma marks_mark a s k c l : lengthens a k -> marks (a ++ [long_mark]) s l -> marks a (long_mark :: s) (rcost RT c + l).
  Proof.
    intros K (n & p & L & Q). exists (S n), (length a + p)%nat. split; [eapply L_mark; eauto|]. pose proof (rcost_root c). pose proof (rcost_bot c). lia.
  Qed.
  Lemma marks_other a c s l : ~ (c = long_mark /\ exists k, lengthens a k) -> marks (a ++ [c]) s l -> marks a (c :: s) l.
  Proof. intros K (n & p & L & Q). exists n, p. split; [now apply L_other|exact Q]. Qed.

Lemma k2h_loop_cmp_ok d : forall rest pre pk out l0, pk_state pre pk ->
  exists l, k2h_loop_cmp B (pre ++ rest) d (length pre) pk rest out l0
    = Ok (out ++ k2h_go E d (last_char pre) pk rest, (l0 + l)%nat) /\ marks pre rest l.
Proof.
  induction rest as [|c rest IH]; intros pre pk out l0 P; cbn [k2h_loop_cmp k2h_go].
  - exists 0%nat. rewrite app_nil_r, !Nat.add_0_r. split; [reflexivity|apply marks_nil].
  - assert (Step : forall pk' out' l1, pk_state (pre ++ [c]) pk' ->
       exists l, k2h_loop_cmp B (pre ++ c :: rest) d (S (length pre)) pk' rest out' l1
       = Ok (out' ++ k2h_go E d (Some c) pk' rest, (l1 + l)%nat) /\ marks (pre ++ [c]) rest l).
    { intros pk' out' l1 P'. replace (pre ++ c :: rest) with ((pre ++ [c]) ++ rest)
        by (now rewrite <- app_assoc).
      replace (S (length pre)) with (length (pre ++ [c])) by (rewrite app_length; cbn; lia).
      rewrite <- (last_char_snoc pre c). now apply IH. }
    assert (Keep : In c (u "ー・ヵヶ") -> pk_state (pre ++ [c]) pk).
    { intro I. destruct pk as [h|]; cbn in *.
      - destruct P as (k & K & ->). exists k. split; [|reflexivity]. apply lengthens_snoc. auto.
      - intros (k & K). apply lengthens_snoc in K. destruct K as [(-> & K1 & K2)|(_ & K)]; [|eauto].
        revert I K1 K2. change (u "ー・ヵヶ") with [0x30FC; 0x30FB; 0x30F5; 0x30F6].
        change (u "ヵヶ") with [0x30F5; 0x30F6]. unfold katakana_letter. cbn [In]. lia. }
    assert (I0 : is_char_initial_long_dash c (length pre)
                = is_char_long_dash c && is_none (last_char pre)).
    { unfold is_char_initial_long_dash. f_equal. destruct pre as [|x pre] using rev_ind; [reflexivity|].
      rewrite last_char_snoc, app_length. cbn. destruct (length pre); reflexivity. }
    assert (J : is_char_inner_long_dash c (length pre) = is_char_long_dash c && negb (is_none (last_char pre))).
    { unfold is_char_inner_long_dash. f_equal. destruct pre as [|x pre] using rev_ind; [reflexivity|].
      rewrite last_char_snoc, app_length. cbn. rewrite Nat.add_1_r. reflexivity. }
    rewrite I0, J. clear I0 J.
    destruct (is_char_long_dash c) eqn:L.
    + assert (Ec : c = long_mark) by (unfold is_char_long_dash, PROLONGED_SOUND_MARK in L; apply N.eqb_eq in L; exact L).
      subst c. change (is_char_slash_dot long_mark) with false. change (is_kana_as_symbol long_mark) with false.
      cbn [orb andb negb]. rewrite orb_false_r. specialize (Keep ltac:(now left)).
      destruct (is_none (last_char pre)) eqn:Nn.
      * destruct (Step pk (out ++ [long_mark]) l0 Keep) as (l & -> & Lp). exists l.
        rewrite <- app_assoc. split; [reflexivity|]. apply marks_other; [|exact Lp].
        destruct pre as [|x pre _] using rev_ind; [|rewrite last_char_snoc in Nn; discriminate].
        intros (_ & k & K). now apply lengthens_nil in K.
      * destruct (last_char pre) as [q|] eqn:La; [|discriminate]. destruct pk as [h|]; cbn [negb].
        -- cbn in P. destruct P as (k & K & ->).
           assert (KL : katakana_letter k /\ ~ In k (u "ヵヶ")) by (destruct K as (? & ? & ? & ? & ? & ?); auto).
           destruct KL as [K1 K2]. pose proof (letter_has_node E k HE K1 K2) as F.
           rewrite (r_find_cmp_ok [] _ (k2hc k) l0 r_root). cbn [bind]. unfold k2h_vowel.
           destruct (rfind E RT (k2hc k)) as [node|]; [|contradiction]. clear F.
           destruct pre as [|x pre' _] using rev_ind; [discriminate|].
           rewrite last_char_snoc in La. inversion La; subst x. clear La.
           replace (checked_sub (length (pre' ++ [q])) 1) with (Ok (length pre')).
           2:{ unfold checked_sub. rewrite app_length. cbn. rewrite Nat.add_1_r. cbn. f_equal. lia. }
           cbn [bind].
           assert (Nt : nth_error ((pre' ++ [q]) ++ long_mark :: rest) (length pre') = Some q).
           { rewrite <- app_assoc. cbn [app]. rewrite nth_error_app2, Nat.sub_diag by lia. reflexivity. }
           rewrite Nt.
           assert (Fin : forall out' v, out' = out ++ v -> exists l,
              k2h_loop_cmp B ((pre' ++ [q]) ++ long_mark :: rest) d (S (length (pre' ++ [q]))) (Some (k2hc k)) rest out' (l0 + rcost RT (k2hc k))
              = Ok (out ++ v ++ k2h_go E d (Some long_mark) (Some (k2hc k)) rest, (l0 + l)%nat)
              /\ marks (pre' ++ [q]) (long_mark :: rest) l).
           { intros out' v ->. destruct (Step (Some (k2hc k)) (out ++ v) (l0 + rcost RT (k2hc k))%nat Keep) as (l & -> & Lp).
             exists (rcost RT (k2hc k) + l)%nat. split.
             - rewrite <- app_assoc. f_equal. f_equal. lia.
             - eapply marks_mark; [exact K|exact Lp]. }
           destruct (last_char (rout node)) as [r|].
           ++ destruct (is_char_katakana q && (r =? ch "o") && d); [now apply Fin|].
              destruct (LONG_VOWELS r) as [h|]; [now apply Fin|]. apply Fin. now rewrite app_nil_r.
           ++ rewrite andb_false_r. cbn [andb]. apply Fin. now rewrite app_nil_r.
        -- destruct (Step None (out ++ [long_mark]) l0 Keep) as (l & -> & Lp). exists l.
           rewrite <- app_assoc. split; [reflexivity|]. apply marks_other; [|exact Lp]. intros (_ & K). exact (P K).
    + assert (Nc : c <> long_mark) by (unfold is_char_long_dash, PROLONGED_SOUND_MARK in L; apply N.eqb_neq in L; exact L).
      assert (Go : forall pk' h, pk_state (pre ++ [c]) pk' -> exists l,
         k2h_loop_cmp B (pre ++ c :: rest) d (S (length pre)) pk' rest (out ++ [h]) l0
         = Ok (out ++ h :: k2h_go E d (Some c) pk' rest, (l0 + l)%nat) /\ marks pre (c :: rest) l).
      { intros pk' h P'. destruct (Step pk' (out ++ [h]) l0 P') as (l & -> & Lp). exists l.
        rewrite <- app_assoc. split; [reflexivity|]. apply marks_other; [|exact Lp]. intros (Q & _). contradiction. }
      cbn [andb]. rewrite orb_false_r.
      destruct (is_char_slash_dot c || is_kana_as_symbol c) eqn:S1.
      * apply Go. apply Keep. symspec. charspec.
        change (u "ー・ヵヶ") with [0x30FC; 0x30FB; 0x30F5; 0x30F6]. cbn [In]. lia.
      * assert (G : exists l, (if negb false && is_char_katakana c
            then k2h_loop_cmp B (pre ++ c :: rest) d (S (length pre)) (Some (hira_of_kata c)) rest (out ++ [hira_of_kata c]) l0
            else k2h_loop_cmp B (pre ++ c :: rest) d (S (length pre)) None rest (out ++ [c]) l0)
          = Ok (out ++ (if negb false && is_char_katakana c
            then hira_of_kata c :: k2h_go E d (Some c) (Some (hira_of_kata c)) rest
            else c :: k2h_go E d (Some c) None rest), (l0 + l)%nat) /\ marks pre (c :: rest) l).
        { cbn [negb andb]. destruct (is_char_katakana c) eqn:Bk; apply Go.
          - exists c. split.
            + apply lengthens_snoc. left. split; [reflexivity|]. symspec. unfold katakana_letter.
              change (u "ヵヶ") with [0x30F5; 0x30F6]. cbn [In]. charspec. lia.
            + unfold k2hc. now rewrite S1, L, Bk.
          - cbn. intros (k & K). apply lengthens_snoc in K.
            destruct K as [(-> & K1 & _)|(K & _)].
            + apply not_true_iff_false in Bk. apply Bk. apply katakana_spec. unfold katakana_letter, S_katakana, Predicates.between in *. lia.
            + revert K. change (u "ー・ヵヶ") with [0x30FC; 0x30FB; 0x30F5; 0x30F6]. cbn [In]. symspec. charspec. lia. }
        destruct (last_char pre), pk; exact G.
Qed.
Lemma k2h_cmp_ok d s : exists l, k2h_cmp B s d = Ok (k2h E d s, l) /\ marks [] s l.
Proof.
  unfold k2h_cmp. apply (k2h_loop_cmp_ok d s [] None [] 0).
  cbn. intros (k & K). now apply lengthens_nil in K.
Qed.

(** ** The walk *)
Fixpoint rwc (n : rnode) (s : str) : nat :=
  match s with
  | [] => 0
  | c :: r => rcost n c + match rfind E n c with Some m => rwc m r | None => 0 end
  end.
Lemma r_walk_cmp_rw s : forall k n i l, r_node k n ->
  r_walk_cmp B n s i l = Ok (fst (rw E n s), (i + snd (rw E n s))%nat, (l + rwc n s)%nat).
Proof.
  induction s as [|c s IH]; intros k n i l Hn; cbn.
  - f_equal. f_equal; [f_equal|]; lia.
  - rewrite (r_find_cmp_ok k n c l Hn). cbn [bind].
    destruct (rfind E n c) as [m|] eqn:F.
    + rewrite (IH (k ++ [c]) m (S i) _) by (eapply rfind_node; eauto).
      destruct (rw E m s) as [x j]. cbn. f_equal. f_equal; [f_equal|]; lia.
    + cbn. f_equal. f_equal; [f_equal|]; lia.
Qed.
(** the most that the walk along the key [s] can cost, from the node of [k] on *)
Fixpoint widths (k s : str) : nat := top (width k) + match s with [] => 0 | c :: r => widths (k ++ [c]) r end.
Lemma rwc_bound s : forall k n m i, r_node k n -> rw E n s = (m, i) -> (i <= rwc n s <= widths k (firstn i s))%nat.
Proof.
  assert (W : forall k n c, r_node k n -> (rcost n c <= top (width k))%nat).
  { intros k n c Hn. etransitivity; [|apply top_mono, (width_ok k n Hn)]. destruct (rts n) eqn:T; [now apply rcost_none|]. rewrite <- T. apply rcost_top. now rewrite T. }
  induction s as [|c s IH]; intros k n m i Hn H; cbn in H.
  - injection H as <- <-. cbn. lia.
  - specialize (W k n c Hn). cbn [rwc]. destruct (rfind E n c) as [x|] eqn:F.
    + destruct (rw E x s) as [y j] eqn:K. injection H as <- <-. cbn [firstn widths].
      pose proof (rfind_node E k n c x HE Hn F) as Hx. specialize (IH _ _ _ _ Hx K).
      assert (1 <= rcost n c)%nat; [|lia]. apply rcost_top. intro T. apply (rfind_Some E k n c x HE Hn) in F. rewrite T in F. destruct F.
    + injection H as <- <-. cbn [firstn widths]. lia.
Qed.
(** what a character may cost *)
Definition w (c : char) : nat := if existsb (N.eqb c) (u "あいうえお") then b else (2 * b)%nat.
Definition ws (s : str) : nat := list_sum (map w s).
Lemma ws_cons c s : ws (c :: s) = (w c + ws s)%nat.
Proof. reflexivity. Qed.
Lemma ws_app x y : ws (x ++ y) = (ws x + ws y)%nat.
Proof. unfold ws. now rewrite map_app, list_sum_app. Qed.
Lemma w_bounds c : (b <= w c <= 2 * b)%nat.
Proof. unfold w. destruct (existsb _ _); lia. Qed.
Context (Enough : forallb (fun p => Nat.leb (length (fst p)) 0 || Nat.leb (widths [] (fst p)) (ws (fst p))) (r_flat RT) = true).
(** [lo c]: what a character costs at least, times [sc]; [F]: what the walk along a key costs at least *)
Context (sc : nat) (lo : char -> nat) (F : str -> nat).
Definition los (s : str) : nat := list_sum (map lo s).
Lemma los_app x y : los (x ++ y) = (los x + los y)%nat.
Proof. unfold los. now rewrite map_app, list_sum_app. Qed.
Context (F_nil : F [] = 0%nat)
  (F_step : forallb (fun p => forallb (fun q => Nat.leb (F (fst p ++ [fst q])) (F (fst p) + sc * rcost (snd p) (fst q))) (rts (snd p))) (r_flat RT) = true)
  (F_end : forallb (fun p => Nat.leb (length (fst p)) 0 || Nat.leb (los (fst p)) (F (fst p))) (r_flat RT) = true)
  (F_miss : forall c, rfind E RT c = None -> (lo c <= sc * rcost RT c)%nat).
Lemma rwc_low s : forall k n m i, r_node k n -> rw E n s = (m, i) -> (F (k ++ firstn i s) <= F k + sc * rwc n s)%nat.
Proof.
  induction s as [|c s IH]; intros k n m i Hn H; cbn in H.
  - injection H as <- <-. cbn [firstn rwc]. rewrite app_nil_r. lia.
  - cbn [rwc]. destruct (rfind E n c) as [x|] eqn:Q.
    + destruct (rw E x s) as [y j] eqn:K. injection H as <- <-. cbn [firstn].
      pose proof (rfind_node E k n c x HE Hn Q) as Hx. specialize (IH _ _ _ _ Hx K). rewrite <- app_assoc in IH. cbn [app] in IH.
      pose proof F_step as St. rewrite forallb_forall in St. specialize (St _ Hn). cbn [fst snd] in St. rewrite forallb_forall in St.
      specialize (St _ (rfind_Some E k n c x HE Hn Q)). cbn [fst] in St. apply Nat.leb_le in St. lia.
    + injection H as <- <-. cbn [firstn]. rewrite app_nil_r. lia.
Qed.
Lemma rwc_los c rest m i : rw E RT (c :: rest) = (m, i) -> (los (firstn (Nat.max 1 i) (c :: rest)) <= sc * rwc RT (c :: rest))%nat.
Proof.
  intro K. destruct (rw_spec E HE _ _ _ _ _ r_root K) as (_ & B2 & _). cbn [app] in B2.
  pose proof (rwc_low _ _ _ _ _ r_root K) as Q. cbn [app] in Q. rewrite F_nil in Q. destruct i as [|i].
  - cbn [Nat.max firstn]. cbn in K. cbn [rwc]. destruct (rfind E RT c) eqn:R; [now destruct (rw E r rest)|]. specialize (F_miss c R). cbn. lia.
  - rewrite Nat.max_r by lia. etransitivity; [|apply Q].
    pose proof F_end as En. rewrite forallb_forall in En. specialize (En _ B2). cbn [fst] in En.
    apply orb_prop in En. destruct En as [En|En]; apply Nat.leb_le in En; [cbn in En; lia|exact En].
Qed.
Lemma rwc_step c rest m i : rw E RT (c :: rest) = (m, i) ->
  (Nat.max 1 i <= rwc RT (c :: rest) <= ws (firstn (Nat.max 1 i) (c :: rest)))%nat.
Proof.
  intro K. destruct (rw_spec E HE _ _ _ _ _ r_root K) as (_ & B2 & _). cbn [app] in B2.
  pose proof (rwc_bound _ _ _ _ _ r_root K) as Q. pose proof (rcost_root c) as R. destruct i as [|i].
  - cbn [Nat.max firstn]. rewrite ws_cons. pose proof (w_bounds c). cbn [rwc] in *. cbn in K.
    destruct (rfind E RT c); [now destruct (rw E r rest)|]. lia.
  - rewrite Nat.max_r by lia. split; [apply Q|]. etransitivity; [apply Q|].
    pose proof Enough as En. rewrite forallb_forall in En. specialize (En _ B2). cbn [fst] in En.
    apply orb_prop in En. destruct En as [En|En]; apply Nat.leb_le in En; [cbn in En; lia|exact En].
Qed.
(** the comparisons of the second loop *)
Fixpoint rcmp_f (fuel : nat) (s : str) : nat :=
  match fuel, s with
  | S f, c :: rest => rwc RT (c :: rest) + rcmp_f f (skipn (Nat.max 1 (snd (rw E RT (c :: rest)))) (c :: rest))
  | _, _ => 0
  end.
Lemma to_romaji_loop_cmp_ok o : forall fuel opre orest pre rest out l0,
  length opre = length pre -> (length rest <= length orest)%nat ->
  (length rest < fuel)%nat ->
  exists l, to_romaji_loop_cmp B E fuel o (opre ++ orest) (pre ++ rest) (length pre) out l0
  = Ok (out ++ rconv E (upcase_katakana o) orest rest, (l0 + l)%nat) /\ (length rest <= l <= ws rest)%nat /\ (los rest <= sc * l)%nat /\
  forall f, (length rest <= f)%nat -> l = rcmp_f f rest.
Proof.
  induction fuel as [|fuel IH]; intros opre orest pre rest out l0 Hl Hr Hf; [lia|].
  cbn [to_romaji_loop_cmp]. destruct rest as [|c rest].
  - exists 0%nat. rewrite app_length. cbn [length]. rewrite !Nat.add_0_r, Nat.eqb_refl, rconv_nil, !app_nil_r. split; [reflexivity|]. split; [cbn; lia|]. split; [cbn; lia|]. intros [|f] _; reflexivity.
  - replace (Nat.eqb (length pre) (length (pre ++ c :: rest))) with false.
    2:{ symmetry. apply Nat.eqb_neq. rewrite app_length. cbn. lia. }
    rewrite slice_from_app. cbn [bind].
    rewrite (r_walk_cmp_rw (c :: rest) [] RT 0 l0 r_root). cbn [bind].
    rewrite rconv_cons. unfold rstep.
    destruct (rw E RT (c :: rest)) as [m i] eqn:K. cbn [fst snd Nat.add].
    destruct (rw_spec E HE _ _ _ _ _ r_root K) as (B1 & B2 & _).
    pose proof (rwc_step c rest m i K) as SB. pose proof (rwc_los c rest m i K) as LB.
    assert (Next : forall f, rcmp_f (S f) (c :: rest) = (rwc RT (c :: rest) + rcmp_f f (skipn (Nat.max 1 i) (c :: rest)))%nat) by (intro f; cbn [rcmp_f]; now rewrite K).
    set (sb := rwc RT (c :: rest)) in *. clearbody sb.
    assert (Step : forall n out' l1, (1 <= n <= length (c :: rest))%nat -> exists l,
       to_romaji_loop_cmp B E fuel o (opre ++ orest) (pre ++ c :: rest) (length pre + n) out' l1
       = Ok (out' ++ rconv E (upcase_katakana o) (skipn n orest) (skipn n (c :: rest)), (l1 + l)%nat)
       /\ (length (c :: rest) - n <= l <= ws (skipn n (c :: rest)))%nat /\ (los (skipn n (c :: rest)) <= sc * l)%nat
       /\ forall f, (length (c :: rest) - n <= f)%nat -> l = rcmp_f f (skipn n (c :: rest))).
    { intros n out' l1 Hn. rewrite <- (skipn_length n (c :: rest)).
      replace (pre ++ c :: rest) with ((pre ++ firstn n (c :: rest)) ++ skipn n (c :: rest)) by (now rewrite <- app_assoc, firstn_skipn).
      replace (opre ++ orest) with ((opre ++ firstn n orest) ++ skipn n orest) by (now rewrite <- app_assoc, firstn_skipn).
      replace (length pre + n)%nat with (length (pre ++ firstn n (c :: rest))).
      2:{ rewrite app_length, firstn_length. lia. }
      apply IH.
      - rewrite !app_length, !firstn_length. lia.
      - rewrite !skipn_length. lia.
      - rewrite skipn_length. cbn [length] in *. lia. }
    destruct i as [|i].
    + cbn [Nat.eqb fst snd]. rewrite index_app. cbn [bind].
      destruct (Step 1%nat (out ++ [c]) (l0 + sb)%nat) as (l & -> & Bl & Ll & Rf); [cbn; lia|].
      exists (sb + l)%nat. rewrite <- app_assoc. split; [f_equal; f_equal; lia|].
      split; [|split; [|intros [|f] Hf'; [cbn in Hf'; lia|]; rewrite Next; f_equal; apply Rf; cbn in *; lia]].
      2:{ change (c :: rest) with ([c] ++ rest). rewrite los_app. cbn [Nat.max skipn firstn] in *. lia. }
      cbn [length skipn firstn Nat.max] in *. rewrite ws_cons in *. change (ws []) with 0%nat in *. lia.
    + cbn [Nat.eqb fst snd]. rewrite <- Hl. rewrite slice_app by lia. cbn [bind]. rewrite Hl.
      match goal with |- context [to_romaji_loop_cmp _ _ _ _ _ _ _ ?a ?b] => destruct (Step (S i) a b) as (l & -> & Bl & Ll & Rf); [lia|] end.
      rewrite Nat.max_r in SB, LB, Next by lia. exists (sb + l)%nat. split; [|split; [rewrite <- (firstn_skipn (S i) (c :: rest)) at 2; rewrite ws_app; cbn [length] in *; lia|split; [rewrite <- (firstn_skipn (S i) (c :: rest)); rewrite los_app; lia|]]].
      2:{ intros [|f] Hf'; [cbn in Hf'; lia|]. rewrite Next. f_equal. apply Rf. cbn [length] in *. lia. } rewrite <- app_assoc.
      unfold remit. rewrite (to_uppercase_out E _ _ HE B2).
      destruct (forallb is_char_katakana _), (upcase_katakana o); cbn [andb]; f_equal; f_equal; lia.
Qed.


Lemma marks_weight d a s n p : lengthening a s n p -> forall t, hiragana_text (o_vowel d) a s t -> (ws t + b * n <= 2 * b * length s)%nat.
Proof.
  intro H. induction H as [a|a s k n p K H IH|a c s n p K H IH]; intros t T; inversion T as [|? ? ? q t' P T']; subst.
  - cbn. lia.
  - rewrite ws_app. cbn [length]. specialize (IH _ T'). assert (ws q <= b)%nat; [|lia].
    destruct P as [(Q & _)|[(_ & k' & A & row & I & _)|(_ & Q & _)]]; [now destruct Q| |exfalso; eauto].
    assert (V : In q [u "あ"; u "い"; u "う"; u "え"; u "お"; u ""]).
    { destruct d; repeat (destruct I as [I|I]; [injection I as _ <-; vm_compute; auto 10|]); destruct I. }
    destruct V as [<-|[<-|[<-|[<-|[<-|[<-|[]]]]]]]; cbn; lia.
  - rewrite ws_app. cbn [length]. specialize (IH _ T'). assert (ws q <= 2 * b)%nat; [|lia].
    destruct P as [(_ & h & _ & ->)|[(Q & k' & A & _)|(_ & _ & ->)]]; [|exfalso; eauto|]; rewrite ws_cons; [pose proof (w_bounds h)|pose proof (w_bounds long_mark)]; cbn; lia.
Qed.
Lemma unmarked a s n p : lengthening a s n p -> no_katakana (a ++ s) -> n = 0%nat.
Proof.
  induction 1 as [a|a s k n p K H IH|a c s n p K H IH]; intro Q; [reflexivity| |apply IH; now rewrite <- app_assoc].
  exfalso. destruct K as (a1 & a2 & -> & K & K2 & _). specialize (Q k ltac:(rewrite <- app_assoc; apply in_or_app; right; now left)).
  destruct Q as [Q|Q]; [contradiction|]. apply K2. change (u "ヵヶ") with [0x30F5; 0x30F6]. cbn [In]. destruct Q; auto.
Qed.
Theorem to_romaji_cmp_ok o s : exists n p x l,
  to_romaji_cmp B E s o = Ok (rconv E (upcase_katakana o) s (k2h E true s), (x + l)%nat) /\
  lengthening [] s n p /\ (bot * n <= x <= b * n)%nat /\ (length s <= n + length (k2h E true s))%nat /\ (x + l <= 2 * b * length s)%nat /\
  (length (k2h E true s) <= l)%nat /\ (los (k2h E true s) <= sc * l)%nat /\ l = rcmp_f (length (k2h E true s)) (k2h E true s).
Proof.
  unfold to_romaji_cmp. destruct (k2h_cmp_ok true s) as (x & -> & n & p & Lp & Bl). cbn [bind].
  pose proof (k2h_length E true s) as KL.
  destruct (to_romaji_loop_cmp_ok o (S (length (k2h E true s))) [] s [] (k2h E true s) [] x eq_refl KL ltac:(lia)) as (l & Q & Bl' & Ll & Rf).
  cbn [app length] in Q. rewrite Q. exists n, p, x, l. split; [reflexivity|]. split; [exact Lp|]. split; [exact Bl|].
  pose proof (lengthening_covers true _ _ _ _ Lp _ (k2h_text E true s HE)).
  pose proof (marks_weight true _ _ _ _ Lp _ (k2h_text E true s HE)). repeat split; try lia. apply Rf. lia.
Qed.
(** without marks *)
Lemma k2h_cmp_marked o s : exists n p x l l', lengthening [] s n p /\ (bot * n <= x <= b * n)%nat /\
  to_romaji_cmp B E s o = Ok (rconv E (upcase_katakana o) s (k2h E true s), (x + l)%nat) /\
  to_romaji_cmp B E (k2h E true s) o = Ok (rconv E (upcase_katakana o) (k2h E true s) (k2h E true s), l') /\ l = l'.
Proof.
  destruct (to_romaji_cmp_ok o s) as (n & p & x & l & Q & L & Bx & _ & _ & _ & _ & R).
  destruct (to_romaji_cmp_ok o (k2h E true s)) as (n' & p' & x' & l' & Q' & L' & Bx' & _ & _ & _ & _ & R').
  rewrite k2h_k2h in Q', R'. apply unmarked in L'; [|intro c; apply k2h_not_katakana]. subst n'. replace x' with 0%nat in Q' by lia.
  exists n, p, x, l, l'. rewrite Q, Q'. cbn [Nat.add]. rewrite R, R'. repeat split; auto; lia.
Qed.
End Romaji.
