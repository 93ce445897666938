(** * Where the spelling tch comes from (proofs for C112) *)
From Verif Require Import Tac Base Std Constants Chars Trees KanaTree RomajiTree Strings Convert
  KanaPure RomajiPure KanaSpec KanaDict KanaProofs Predicates ScriptSpec ScriptProofs RomajiSpec RomajiProofs MoraProofs TypingSpec Splits
  TokenSpec KanaJoinSpec CompleteSpec Complete SyllablesSpec Syllables TypedBackSpec TypedBack TableProofs.

Notation chi_b c := ((c =? 0x3061) || (c =? 0x30C1)).
Definition hd_is (x : N) (s : str) : bool := match s with c :: _ => c =? x | [] => false end.
Definition st0 (s : str) : bool := match s with y :: _ => chi_b y | [] => false end.
Fixpoint st1 (s : str) : bool := match s with c :: r => ((c =? 0x30FC) && st1 r) || chi_b c | [] => false end.
Fixpoint pat (s : str) : bool :=
  match s with c :: r => ((c =? 0x3063) && st0 r) || ((c =? 0x30C3) && st1 r) || pat r | [] => false end.
Lemma adj_hd x y c s : adj x y (c :: s) = ((c =? x) && hd_is y s) || adj x y s.
Proof. destruct s as [|d s]; [cbn; now rewrite andb_false_r|reflexivity]. Qed.

Lemma tsu_found : match look RT 0x3063 with Some n => match last_char (rout n) with None => true | _ => false end | None => false end = true.
Proof. vm_compute. reflexivity. Qed.
Lemma tsu_vowel E d q c : std_ok E -> k2h_vowel E d q 0x3063 c = [].
Proof.
  intro HE. unfold k2h_vowel. rewrite (look_rfind E [] RT 0x3063 HE r_root) by discriminate.
  pose proof tsu_found as F. destruct (look RT 0x3063) as [n|]; [|discriminate F]. destruct (last_char (rout n)); [discriminate F|]. reflexivity.
Qed.
Section Go.
  Variable E : std.
  Hypothesis HE : std_ok E.
  (** one step on sounded kana *)
  Lemma go_step c r pc pk : sounded c -> (pc = None -> pk = None) ->
    (c = 0x30FC /\ ((pk = None /\ k2h_go E true pc pk (c :: r) = c :: k2h_go E true (Some c) None r)
       \/ exists q p, pc = Some q /\ pk = Some p /\ k2h_go E true pc pk (c :: r) = k2h_vowel E true q p c ++ k2h_go E true (Some c) pk r))
    \/ (c <> 0x30FC /\ kata_b c = true /\ k2h_go E true pc pk (c :: r) = k2hc c :: k2h_go E true (Some c) (Some (k2hc c)) r)
    \/ (c <> 0x30FC /\ kata_b c = false /\ k2h_go E true pc pk (c :: r) = c :: k2h_go E true (Some c) None r).
  Proof.
    intros S P. apply sounded_b in S. unfold k2hc. cbn [k2h_go].
    assert (K : is_char_slash_dot c = false /\ is_kana_as_symbol c = false /\ is_char_long_dash c = (c =? 0x30FC) /\ (c <> 0x30FC -> is_char_katakana c = kata_b c)).
    { unfold hira_b, kata_b in *. symspec. repeat split; try intro; apply eq_true_iff_eq; charspec; lia. }
    destruct K as (-> & -> & -> & K). cbn [orb]. destruct (c =? 0x30FC) eqn:D.
    - left. split; [lia|]. destruct pc as [q|], pk as [p|]; cbn [is_none andb orb negb].
      + right. exists q, p. auto.
      + left. auto.
      + specialize (P eq_refl). discriminate P.
      + left. auto.
    - cbn [andb orb negb]. right. rewrite K by lia. destruct (kata_b c); [left|right]; (split; [lia|]; split; [reflexivity|]); destruct pc, pk; reflexivity.
  Qed.
  Lemma kata_tsu c : kata_b c = true -> (k2hc c =? 0x3063) = (c =? 0x30C3) /\ (k2hc c =? 0x3061) = (c =? 0x30C1).
  Proof.
    intros K. pose proof (k2hc_spec c (k2hc c)) as [_ X]. specialize (X eq_refl). unfold hiragana_for in X. symspec. unfold kata_b in K.
    split; apply eq_true_iff_eq; lia.
  Qed.
  Lemma kata_range c : kata_b c = true -> c <> 0x3061 /\ c <> 0x3063 /\ c <> 0x30FC.
  Proof. unfold kata_b. lia. Qed.
  Lemma hira_range c : sounded c -> kata_b c = false -> c <> 0x30C1 /\ c <> 0x30C3.
  Proof. rewrite sounded_b. unfold hira_b, kata_b. lia. Qed.
  Lemma go_hd0 pc r : Forall sounded r -> hd_is 0x3061 (k2h_go E true pc None r) = st0 r.
  Proof.
    destruct r as [|c r]; [reflexivity|]. intros F. apply Forall_cons_iff in F as [S _].
    destruct (go_step c r pc None S (fun _ => eq_refl)) as [(-> & [[_ ->]|(q & p & _ & X & _)])|[(N & K & ->)|(N & K & ->)]]; try discriminate X; cbn [hd_is st0].
    - reflexivity.
    - destruct (kata_tsu c K) as [_ ->]. pose proof (kata_range c K). lia.
    - pose proof (hira_range c S K). lia.
  Qed.
  Lemma go_hd1 r : forall q, Forall sounded r -> hd_is 0x3061 (k2h_go E true (Some q) (Some 0x3063) r) = st1 r.
  Proof.
    induction r as [|c r IH]; intros q0 F; [reflexivity|]. apply Forall_cons_iff in F as [S F].
    destruct (go_step c r (Some q0) (Some 0x3063) S ltac:(discriminate)) as [(-> & [[X _]|(q & p & Q1 & Q2 & ->)])|[(N & K & ->)|(N & K & ->)]]; try discriminate X; cbn [hd_is st1].
    - injection Q2 as <-. rewrite tsu_vowel by exact HE. cbn [app]. rewrite IH by exact F. rewrite orb_false_r. reflexivity.
    - destruct (kata_tsu c K) as [_ ->]. pose proof (kata_range c K). replace (c =? 0x30FC) with false by lia. cbn [andb orb]. lia.
    - pose proof (hira_range c S K). replace (c =? 0x30FC) with false by lia. cbn [andb orb]. lia.
  Qed.
  Lemma go_adj r : forall pc pk, (pc = None -> pk = None) -> Forall sounded r -> adj 0x3063 0x3061 (k2h_go E true pc pk r) = pat r.
  Proof.
    induction r as [|c r IH]; intros pc pk P F; [reflexivity|]. apply Forall_cons_iff in F as [S F]. cbn [pat].
    destruct (go_step c r pc pk S P) as [(-> & [[_ ->]|(q & p & Q1 & Q2 & ->)])|[(N & K & ->)|(N & K & ->)]].
    - rewrite adj_hd. cbn [N.eqb andb orb]. now apply IH.
    - cbn [N.eqb andb orb]. pose proof (k2h_vowel_length E true q p 0x30FC) as L.
      assert (V : k2h_vowel E true q p 0x30FC = [] \/ exists v, k2h_vowel E true q p 0x30FC = [v] /\ (v =? 0x3063) = false).
      { destruct (k2h_vowel E true q p 0x30FC) as [|v [|v' l]] eqn:X; [now left| |cbn in L; lia]. right. exists v. split; [reflexivity|].
        destruct (k2h_vowel_In E true q p 0x30FC v) as [->|I]; [rewrite X; now left|reflexivity|].
        vm_compute in I. destruct I as [<-|[<-|[<-|[<-|[<-|[]]]]]]; reflexivity. }
      destruct V as [->|(v & -> & V)]; cbn [app]; [|rewrite adj_hd, V; cbn [andb orb]]; (rewrite IH; [reflexivity|discriminate|exact F]).
    - rewrite adj_hd. destruct (kata_tsu c K) as [-> _]. pose proof (kata_range c K). replace (c =? 0x3063) with false by lia. cbn [andb orb].
      rewrite IH by (discriminate || exact F). f_equal. destruct (c =? 0x30C3) eqn:T; [|reflexivity]. cbn [andb].
      destruct (kata_tsu c K) as [T2 _]. rewrite T in T2. apply N.eqb_eq in T2. rewrite T2. now apply go_hd1.
    - rewrite adj_hd. pose proof (hira_range c S K). replace (c =? 0x30C3) with false by lia. cbn [andb]. rewrite orb_false_r.
      rewrite IH by (reflexivity || exact F). f_equal. rewrite go_hd0 by exact F. reflexivity.
  Qed.
End Go.

(** ** the romaji of hiragana *)
Lemma key_tch k v : r_entry k v -> Forall (fun c => hira_b c = true) k ->
  (adj 0x3063 0x3061 k = true <-> adj (ch "t") (ch "c") v = true) /\ last v 0 <> ch "t" /\ (adj 0x3063 0x3061 k = true -> hd_is (ch "t") v = true /\ prefixb (u "tch") v = true).
Proof.
  intros R F. assert (T : forallb (fun e => negb (forallb hira_b (fst e)) || (Bool.eqb (adj 0x3063 0x3061 (fst e)) (adj (ch "t") (ch "c") (snd e)) && negb (last (snd e) 0 =? ch "t")
     && (negb (adj 0x3063 0x3061 (fst e)) || prefixb (u "tch") (snd e) && hd_is (ch "t") (snd e)))) rdict = true) by (vm_compute; reflexivity).
  rewrite forallb_forall in T. specialize (T _ R). cbn [fst snd] in T. clear R.
  assert (F2 : forallb hira_b k = true) by (apply forallb_forall; now apply Forall_forall). rewrite F2 in T. cbn [negb orb] in T.
  apply andb_prop in T as [T T3]. apply andb_prop in T as [T1 T2]. apply Bool.eqb_prop in T1. rewrite T1. split; [reflexivity|]. split; [now apply N.eqb_neq, negb_true_iff|].
  rewrite T1 in T3. intros Q. rewrite Q in T3. cbn [negb orb] in T3. apply andb_prop in T3 as [A B]. auto.
Qed.
Lemma key_end k v : r_entry k v -> last k 0 = 0x3063 -> k = [0x3063].
Proof.
  intros R L. assert (T : forallb (fun e => negb (last (fst e) 0 =? 0x3063) || str_eqb (fst e) [0x3063]) rdict = true) by (vm_compute; reflexivity).
  rewrite forallb_forall in T. specialize (T _ R). cbn [fst] in T. rewrite L, N.eqb_refl in T. now apply str_eqb_eq.
Qed.
Lemma chi_key : exists v, r_entry [0x3063; 0x3061] v.
Proof.
  assert (T : existsb (fun e => str_eqb (fst e) [0x3063; 0x3061]) rdict = true) by (vm_compute; reflexivity).
  apply existsb_exists in T as ([k v] & I & Q). apply str_eqb_eq in Q. cbn [fst] in Q. subst k. now exists v.
Qed.
Lemma adj_app_r x y w r : adj x y (w ++ r) = adj x y w || ((last w 0 =? x) && negb (str_eqb w []) && hd_is y r) || adj x y r.
Proof.
  induction w as [|c w IH]; [cbn [app adj last str_eqb negb]; now rewrite andb_false_r|]. destruct w as [|d w].
  - cbn [app]. rewrite adj_hd. cbn. destruct (c =? x); reflexivity.
  - change ((c :: d :: w) ++ r) with (c :: (d :: w) ++ r). rewrite adj_hd, IH. rewrite (adj_hd x y c (d :: w)). change (last (c :: d :: w) 0) with (last (d :: w) 0). cbn [hd_is app].
    change (str_eqb (c :: d :: w) []) with false. change (str_eqb (d :: w) []) with false. rewrite !orb_assoc. reflexivity.
Qed.
Lemma prefix_tch v r : prefixb (u "tch") v = true -> has_tch (v ++ r).
Proof. intros P. apply prefixb_spec in P as (q & ->). exists [], (q ++ r). now rewrite <- app_assoc. Qed.
Lemma has_tch_r v r : has_tch r -> has_tch (v ++ r).
Proof. intros (a & b & ->). exists (v ++ a), b. now rewrite <- app_assoc. Qed.
Lemma has_tch_adj s : has_tch s -> adj (ch "t") (ch "c") s = true.
Proof. intros (a & b & ->). exact (adj_true (ch "t") (ch "c") a (ch "h" :: b)). Qed.
Lemma rconv_tch E : std_ok E -> forall h, Forall (fun c => hira_b c = true) h ->
  (adj (ch "t") (ch "c") (rconv E false [] h) = true -> adj 0x3063 0x3061 h = true) /\ (adj 0x3063 0x3061 h = true -> has_tch (rconv E false [] h)).
Proof.
  intros HE. induction h as [h IH] using str_ind_len. intros F. destruct h as [|c h]; [split; discriminate|].
  destruct (rconv_step E false [] c h HE) as [(seg & rest & w & Sp & Ns & R & M & Q)|[N _]];
    [|exfalso; apply Forall_cons_iff in F as [F _]; destruct (hira_entry c F) as [v R]; exact (N v R)].
  rewrite Sp in *. apply Forall_app in F as [F1 F2]. rewrite Q, skipn_nil. clear Q.
  assert (RM : remit false (firstn (length seg) []) w = w) by (unfold remit; now rewrite andb_false_r). rewrite RM. clear RM.
  destruct (IH rest) as [A B]; [rewrite app_length; destruct seg; [congruence|cbn; lia]|exact F2|].
  destruct (key_tch _ _ R F1) as (K1 & K2 & K3). rewrite !adj_app_r.
  assert (Z : (last seg 0 =? 0x3063) && negb (str_eqb seg []) && hd_is 0x3061 rest = false).
  { destruct (last seg 0 =? 0x3063) eqn:L; [|reflexivity]. destruct rest as [|d rest]; [now rewrite andb_false_r|]. cbn [hd_is].
    destruct (d =? 0x3061) eqn:D; [|now rewrite andb_false_r]. exfalso. apply N.eqb_eq in L, D. pose proof (key_end _ _ R L) as ->. subst d.
    destruct chi_key as [v C]. pose proof (M 0x3061 rest v eq_refl C) as I. vm_compute in I. destruct I as [I|[]]. discriminate I. }
  rewrite Z, orb_false_r. apply N.eqb_neq in K2. rewrite K2. cbn [andb]. rewrite orb_false_r. split; intros H; apply orb_prop in H as [H|H].
  - apply K1 in H. now rewrite H.
  - rewrite (A H). apply orb_true_r.
  - apply prefix_tch. exact (proj2 (K3 H)).
  - apply has_tch_r. exact (B H).
Qed.
Lemma romaji_tch E up s : std_ok E -> Forall sounded s -> (has_tch (low (rconv E up s (k2h E true s))) <-> pat s = true).
Proof.
  intros HE S. destruct (romaji_words E up s HE S) as [_ ->]. rewrite (rconv_noup E _ HE s []).
  destruct (rconv_tch E HE _ (k2h_sounded E s S)) as [A B]. unfold k2h in *. rewrite go_adj in * by (auto || exact S).
  split; [intro H; apply A; now apply has_tch_adj|exact B].
Qed.
(** ** the shape of the text *)
Lemma chi_In y : In y (u "ちチ") <-> chi_b y = true.
Proof. change (In y (u "ちチ")) with (0x3061 = y \/ 0x30C1 = y \/ False). lia. Qed.
Lemma st1_spec s : st1 s = true <-> exists w y b, s = w ++ y :: b /\ In y (u "ちチ") /\ Forall (eq (ch "ー")) w.
Proof.
  induction s as [|c s IH]; cbn [st1].
  - split; [discriminate|]. intros (w & y & b & Q & _). destruct w; discriminate Q.
  - split.
    + intros H. apply orb_prop in H as [H|H].
      * apply andb_prop in H as [C H]. apply N.eqb_eq in C. subst c. destruct (proj1 IH H) as (w & y & b & -> & Y & W). exists (0x30FC :: w), y, b. repeat split; auto.
      * exists [], c, s. repeat split; auto. now apply chi_In.
    + intros (w & y & b & Q & Y & W). destruct w as [|d w]; injection Q as -> ->.
      * apply chi_In in Y. rewrite Y. apply orb_true_r.
      * apply Forall_cons_iff in W as [<- W]. change (ch "ー" =? 0x30FC) with true. cbn [andb]. assert (H : st1 (w ++ y :: b) = true) by (apply IH; exists w, y, b; auto). rewrite H. reflexivity.
Qed.
Lemma pat_spec s : pat s = true <-> tch_text s.
Proof.
  induction s as [|c s IH]; cbn [pat].
  - split; [discriminate|]. intros (a & x & w & y & b & Q & _). destruct a; discriminate Q.
  - split.
    + intros H. apply orb_prop in H as [H|H]; [apply orb_prop in H as [H|H]|].
      * apply andb_prop in H as [C H]. apply N.eqb_eq in C. subst c. destruct s as [|y b]; [discriminate H|]. exists [], 0x3063, [], y, b. split; [reflexivity|].
        split; [now apply chi_In|]. left. split; reflexivity.
      * apply andb_prop in H as [C H]. apply N.eqb_eq in C. subst c. apply st1_spec in H as (w & y & b & -> & Y & W). exists [], 0x30C3, w, y, b. auto.
      * apply IH in H as (a & x & w & y & b & -> & Y & X). exists (c :: a), x, w, y, b. auto.
    + intros (a & x & w & y & b & Q & Y & X). destruct a as [|d a]; injection Q as -> ->.
      * destruct X as [[-> ->]|[-> W]].
        -- cbn [app st0]. apply chi_In in Y. rewrite Y. reflexivity.
        -- assert (H : st1 (w ++ y :: b) = true) by (apply st1_spec; exists w, y, b; auto). rewrite H. change (ch "ッ" =? 0x30C3) with true. cbn [andb]. rewrite orb_true_r. reflexivity.
      * rewrite (proj2 IH); [apply orb_true_r|]. exists a, x, w, y, b. auto.
Qed.
