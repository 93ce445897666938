(** * Converting to kana token by token (C78) *)
From Verif Require Import Tac Base Std Constants Chars Trees KanaTree Strings Tokenize Convert
  KanaPure KanaSpec KanaDict KanaProofs MoraProofs TokenSpec TokenizeProofs KanaJoinSpec KanaJoin.

Definition letters : str := u "abcdefghijklmnopqrstuvwxyz".
Definition letters_en : bool :=
  forallb (fun c => forallb (fun d => token_type_eqb (get_type d true) En && token_type_eqb (get_type d false) En) [c; c - 32]) letters.
Lemma letter_type c compact : In (ascii_lower c) letters -> get_type c compact = En.
Proof.
  intro I. assert (letters_en = true) as F by (vm_compute; reflexivity). unfold letters_en in F. rewrite forallb_forall in F. specialize (F _ I).
  rewrite forallb_forall in F.
  assert (In c [ascii_lower c; ascii_lower c - 32]) as J by (unfold ascii_lower; ifs; cbn [In]; lia).
  specialize (F _ J). apply andb_prop in F. destruct F as [F1 F2]. apply token_type_eqb_eq in F1, F2. now destruct compact.
Qed.
Lemma cons_letter c : In c cons -> In c letters.
Proof.
  intro I. assert (forallb (fun c => existsb (N.eqb c) letters) cons = true) as F by (vm_compute; reflexivity).
  rewrite forallb_forall in F. apply existsb_In, F, I.
Qed.
Definition ends_ok (m : mode) : bool :=
  forallb (fun e => match fst e with [] | [_] => true | k => existsb (N.eqb (last k 0)) letters
    || existsb (str_eqb k) match m with Ime => [u "n'"; u "n "] | _ => [u "n'"] end end) (dict m).
Lemma ends_ok_true m : ends_ok m = true.
Proof. destruct m; vm_compute; reflexivity. Qed.
Lemma key_last m b d v : entry m (b ++ [d]) v -> b <> [] -> In d letters \/ (b = u "n" /\ (d = 0x27 \/ (m = Ime /\ d = 0x20))).
Proof.
  intros I N. pose proof (ends_ok_true m) as F. unfold ends_ok in F. rewrite forallb_forall in F. specialize (F _ I). cbn [fst] in F.
  assert (exists x y l, b ++ [d] = x :: y :: l) as (x & y & l & Q) by (destruct b as [|x [|y b]]; [congruence| |]; cbn; eauto).
  rewrite Q in F. rewrite <- Q in F. rewrite last_last in F. apply orb_prop in F. destruct F as [F|F]; [left; now apply existsb_In|].
  right. apply existsb_exists in F. destruct F as (k & K & E). apply str_eqb_eq in E.
  assert (b ++ [d] = u "n" ++ [0x27] \/ (m = Ime /\ b ++ [d] = u "n" ++ [0x20])) as [H|[M H]].
  { rewrite E. destruct m; cbn [In] in K; [left|left|]; destruct K as [<-|K]; try (now destruct K); [reflexivity|reflexivity|now left|].
    destruct K as [<-|[]]. now right. }
  - apply app_inj_tail in H. tauto.
  - apply app_inj_tail in H. tauto.
Qed.

Definition n_stop (m : mode) (compact : bool) (d : N) : Prop := d = 0x27 \/ (m = Ime /\ compact = false /\ d = 0x20).

Lemma open_ends m x : open_n m x -> exists x' c, x = x' ++ [c] /\ n_letter c.
Proof.
  intro O. destruct x as [|a x0] eqn:X; [now apply open_nil in O|]. rewrite <- X in *. assert (x <> []) as N by (rewrite X; discriminate).
  clear X. destruct (exists_last N) as (x' & c & ->). apply open_snoc in O. exists x', c. tauto.
Qed.
Lemma n_type c compact : n_letter c -> get_type c compact = En.
Proof. intro N. apply letter_type. apply n_letter_low in N. rewrite N. apply existsb_In. vm_compute. reflexivity. Qed.
Lemma stop_type m compact d : n_stop m compact d -> get_type d compact <> En.
Proof. intros [->|(_ & -> & ->)]; [destruct compact|]; vm_compute; discriminate. Qed.

Lemma joins_token m compact s pre t post : tokenize_with_opt s compact = pre ++ t :: post ->
  joins m (concat pre) t <-> open_n m (concat pre) /\ exists d t', t = d :: t' /\ n_stop m compact d.
Proof.
  intro Q. destruct (tokenize_tokenisation s compact) as (_ & NE & _ & Sep).
  assert (D : forall x' a d t', concat pre = x' ++ [a] -> t = d :: t' -> get_type a compact = En -> get_type d compact <> En).
  { intros x' a d t' P -> A B. destruct (list_eq_dec (list_eq_dec N.eq_dec) pre []) as [->|Np]; [destruct x'; discriminate P|].
    destruct (exists_last Np) as (pre' & p & ->).
    assert (p <> []) as Nt by (apply NE; rewrite Q; apply in_or_app; left; apply in_or_app; right; now left).
    destruct (exists_last Nt) as (p' & a' & ->). rewrite concat_app in P. cbn [concat] in P. rewrite app_nil_r, app_assoc in P.
    apply app_inj_tail in P. destruct P as [_ ->].
    refine (Sep pre' (p' ++ [a]) (d :: t') post _ p' a d t' eq_refl eq_refl _); [rewrite Q, <- app_assoc; reflexivity|].
    unfold ty. congruence. }
  assert (St : forall x' a d t', concat pre = x' ++ [a] -> t = d :: t' -> get_type a compact = En -> d = 0x27 \/ (m = Ime /\ d = 0x20) -> n_stop m compact d).
  { intros x' a d t' P T A [->|[M ->]]; [now left|]. right. split; [exact M|]. split; [|reflexivity]. destruct compact; [|reflexivity].
    exfalso. apply (D x' a 0x20 t' P T A). vm_compute. reflexivity. }
  split.
  - intros [(x1 & b & b' & y' & k & v & P & -> & N & N' & Nn & C & J)|[(O & M & d & y' & -> & e & L & I)|(O & -> & b' & y' & k & v & -> & C & J)]].
    + exfalso. apply casing_low in C. subst k. destruct (exists_last N) as (b0 & a & ->). rewrite app_assoc in P.
      destruct b' as [|d b']; [congruence|]. cbn [app] in *. rewrite <- app_assoc in J. cbn [app] in J.
      assert (A : get_type a compact = En) by (apply letter_type, cons_letter, (key_inner m b0 a (d :: b') v J); discriminate).
      apply (D _ a d (b' ++ y') P eq_refl A). apply letter_type. destruct b' as [|f b'].
      * change (b0 ++ [a; d]) with (b0 ++ [a] ++ [d]) in J. rewrite app_assoc, low_snoc in J.
        destruct (key_last _ _ _ _ J) as [H|[H _]]; [rewrite low_snoc; now destruct (low b0)|exact H|]. exfalso.
        apply low_one in H. destruct H as (c & H & H'). apply (Nn c H). now apply n_letter_low.
      * apply cons_letter. apply (key_inner m (b0 ++ [a]) d (f :: b') v); [rewrite <- app_assoc; exact J|discriminate].
    + split; [exact O|]. exists d, y'. split; [reflexivity|]. destruct (open_ends _ _ O) as (x' & c & P & Nc).
      apply (St x' c d y' P eq_refl (n_type c compact Nc)). left. apply lowers_lower in L.
      assert (Dd := D x' c d y' P eq_refl (n_type c compact Nc)).
      change (u "'aiueoy") with (0x27 :: u "aiueoy") in I. destruct I as [I|I].
      * rewrite <- L in I. revert I. unfold ascii_lower. ifs; lia.
      * exfalso. apply Dd, letter_type. rewrite L. apply existsb_In. revert e I L.
        assert (forallb (fun e => existsb (N.eqb e) letters) (u "aiueoy") = true) as F by reflexivity. rewrite forallb_forall in F.
        intros e I _. exact (F e I).
    + split; [exact O|]. destruct (open_ends _ _ O) as (x' & c & P & Nc). apply casing_low in C. subst k.
      destruct b' as [|d b']; [now apply ime_no_n in J|]. exists d, (b' ++ y'). split; [reflexivity|].
      assert (Dd := D x' c d (b' ++ y') P eq_refl (n_type c compact Nc)).
      apply (St x' c d (b' ++ y') P eq_refl (n_type c compact Nc)). destruct b' as [|f b'].
      * change (ch "n" :: low [d]) with (u "n" ++ [ascii_lower d]) in J.
        destruct (key_last _ _ _ _ J) as [H|[_ H]]; [discriminate|exfalso; now apply Dd, letter_type|].
        destruct H as [H|[_ H]]; [left|right; split; [reflexivity|]]; revert H; unfold ascii_lower; ifs; lia.
      * exfalso. apply Dd, letter_type, cons_letter. apply (key_inner Ime [ch "n"] d (f :: b') v); [exact J|discriminate].
  - intros (O & d & t' & -> & S). destruct m.
    1,2: right; left; split; [exact O|]; split; [discriminate|]; exists d, t'; split; [reflexivity|]; destruct S as [->|[S _]]; [|discriminate];
      exists 0x27; split; [now apply lowers_lower|]; vm_compute; auto.
    right; right. split; [exact O|]. split; [reflexivity|]. exists [d], t', [d], (u "ん"). split; [reflexivity|]. split.
    + apply casing_low. destruct S as [->|(_ & _ & ->)]; reflexivity.
    + destruct S as [->|(_ & _ & ->)]; apply pair_mem_In; vm_compute; reflexivity.
Qed.

Theorem kana_tokens E o s compact : std_ok E ->
  exists r rs, to_kana_with_opt E s o = Ok r /\
    Forall2 (fun t q => to_kana_with_opt E t o = Ok q) (tokenize_with_opt s compact) rs /\
    (r = concat rs <-> forall x d y, s = x ++ d :: y -> open_n (mode_of o) x ->
       d <> 0x27 /\ ~ (mode_of o = Ime /\ compact = false /\ d = 0x20)).
Proof.
  intro HE. destruct (tokenize_tokenisation s compact) as (Qs & NE & _).
  assert (Forall (fun y => y <> []) (tokenize_with_opt s compact)) as NE' by now apply Forall_forall.
  destruct (kana_parts E o (tokenize_with_opt s compact) HE NE') as (r & rs & R1 & R2 & X).
  exists r, rs. rewrite Qs in R1. split; [exact R1|]. split; [exact R2|]. rewrite X. clear X R1 R2 r rs. split.
  - intros H x d y Q O.
    assert (S : n_stop (mode_of o) compact d -> False).
    { intro S. destruct (open_ends _ _ O) as (x' & c & P & Nc).
      assert (T : ty compact c <> ty compact d).
      { unfold ty. rewrite (n_type c compact Nc). intro Z. symmetry in Z. exact (stop_type _ _ _ S Z). }
      pose proof (tokenize_app_diff compact x' c d y T) as A.
      destruct (tokenize_with_opt (d :: y) compact) as [|t post] eqn:B.
      { destruct (tokenize_tokenisation (d :: y) compact) as (Z & _). rewrite B in Z. discriminate. }
      assert (exists t', t = d :: t') as [t' ->].
      { destruct (tokenize_tokenisation (d :: y) compact) as (Z & NE2 & _). rewrite B in *. destruct t as [|e t']; [exfalso; now apply (NE2 []); [left|]|].
        cbn in Z. injection Z as -> _. eauto. }
      assert (Q' : tokenize_with_opt s compact = tokenize_with_opt x compact ++ (d :: t') :: post).
      { rewrite Q, P. rewrite <- app_assoc in *. cbn [app] in *. exact A. }
      assert (Cx : concat (tokenize_with_opt x compact) = x) by (destruct (tokenize_tokenisation x compact) as (Z & _); exact Z).
      apply (H _ _ _ Q'). apply (joins_token (mode_of o) compact s _ _ _ Q'). rewrite Cx. split; [exact O|]. eauto. }
    split; [intros ->; apply S; now left|]. intro Z. apply S. now right.
  - intros H pre t post Q J. apply (joins_token _ _ _ _ _ _ Q) in J. destruct J as (O & d & t' & -> & S).
    destruct (H (concat pre) d (t' ++ concat post)) as [H1 H2]; [|exact O|].
    + rewrite <- Qs, Q, concat_app. reflexivity.
    + destruct S as [S|S]; contradiction.
Qed.
