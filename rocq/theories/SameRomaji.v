(** * Which texts have the same romaji: C74 *)
From Verif Require Import Tac Base Std Constants Chars RomajiTree Convert
  RomajiPure KanaSpec KanaDict KanaProofs Predicates ScriptSpec ScriptProofs RomajiSpec RomajiProofs MoraProofs ReadBack LibraryProofs SameSpec.

(** ** Hepburn spelling is read uniquely *)
(** syllables and geminates with their spelling *)
Definition codes : list (mora * str) := 
  map (fun e => (Syl (fst e) (snd e), snd e)) syllables
  ++ map (fun e => (Gem (fst e) (snd e), gem_spelling (snd e))) (filter (fun e => negb (first_in (u "aiueony") (snd e))) syllables).
(** じ for ぢ, ず for づ *)
Definition plain1 (c : N) : N := if c =? ch "ぢ" then ch "じ" else if c =? ch "づ" then ch "ず" else c.
Definition plain (s : str) : str := map plain1 s.
Fixpoint prefixb (a b : str) : bool :=
  match a, b with
  | [], _ => true
  | _, [] => false
  | x :: a', y :: b' => (x =? y) && prefixb a' b'
  end.
Lemma prefixb_app a : forall b r r', a ++ r = b ++ r' -> prefixb a b = true \/ prefixb b a = true.
Proof.
  induction a as [|x a IH]; intros [|y b] r r' Q; cbn [prefixb app] in *; auto.
  injection Q as -> Q. rewrite N.eqb_refl. cbn [andb]. eauto.
Qed.
Definition codes_ok : bool :=
  forallb (fun e => forallb (fun f =>
    negb (prefixb (snd e) (snd f)) || (str_eqb (snd e) (snd f) && str_eqb (plain (mora_kana (fst e))) (plain (mora_kana (fst f))))) codes) codes.
Lemma codes_ok_true : codes_ok = true.
Proof. vm_cast_no_check (eq_refl true). Qed.
Definition heads_ok : bool :=
  forallb (fun e => match snd e with
                    | c :: d :: _ => negb (c =? 0x27) && (negb (c =? ch "n") || existsb (N.eqb d) (u "aiueoy"))
                    | [c] => negb (c =? 0x27) && negb (c =? ch "n")
                    | [] => false
                    end) codes.
Lemma heads_ok_true : heads_ok = true.
Proof. vm_cast_no_check (eq_refl true). Qed.

Lemma code_of m f : standard m -> (exists s, In (m, s) codes /\ mora_spelling m f = s) \/ m = Nn.
Proof.
  destruct m as [k r|k r|]; cbn [standard mora_spelling]; intro S; [left|left|now right].
  - exists r. split; [|reflexivity]. apply in_or_app. left. apply in_map_iff. exists (k, r). auto.
  - destruct S as [S G]. eexists. split; [|reflexivity]. apply in_or_app. right. apply in_map_iff. exists (k, r). split; [reflexivity|].
    apply filter_In. split; [exact S|]. cbn [snd]. now rewrite G.
Qed.
Lemma code_prefix m s m' s' r r' : In (m, s) codes -> In (m', s') codes -> s ++ r = s' ++ r' ->
  s = s' /\ plain (mora_kana m) = plain (mora_kana m').
Proof.
  intros I I' Q.
  assert (forall m s m' s', In (m, s) codes -> In (m', s') codes -> prefixb s s' = true ->
    s = s' /\ plain (mora_kana m) = plain (mora_kana m')) as P.
  { clear. intros m s m' s' I I' P. pose proof codes_ok_true as K. unfold codes_ok in K. rewrite forallb_forall in K.
    specialize (K _ I). rewrite forallb_forall in K. specialize (K _ I'). cbn [fst snd] in K. rewrite P in K. cbn [negb orb] in K.
    apply andb_prop in K as [A B]. split; now apply str_eqb_eq. }
  destruct (prefixb_app _ _ _ _ Q) as [X|X]; [exact (P _ _ _ _ I I' X)|].
  destruct (P _ _ _ _ I' I X) as [-> ->]. auto.
Qed.
Lemma code_head m s : In (m, s) codes -> exists c s', s = c :: s' /\ c <> 0x27 /\
  (c = ch "n" -> exists d s'', s' = d :: s'' /\ existsb (N.eqb d) (u "aiueoy") = true).
Proof.
  intro I. pose proof heads_ok_true as K. unfold heads_ok in K. rewrite forallb_forall in K. specialize (K _ I). cbn [snd] in K.
  destruct s as [|c [|d s]]; [discriminate K| |]; apply andb_prop in K as [A B]; apply negb_true_iff in A;
    apply N.eqb_neq in A.
  - exists c, []. split; [reflexivity|]. split; [exact A|]. intros ->. apply negb_true_iff in B. apply N.eqb_neq in B. now elim B.
  - exists c, (d :: s). split; [reflexivity|]. split; [exact A|]. intros ->. apply orb_prop in B as [B|B].
    + apply negb_true_iff in B. apply N.eqb_neq in B. now elim B.
    + eauto.
Qed.
Lemma hepburn_quote ms : Forall standard ms -> forall r, hepburn ms <> 0x27 :: r.
Proof.
  intros F r. destruct F as [|m ms S F]; [discriminate|]. cbn [hepburn].
  destruct (code_of m (hepburn ms) S) as [(s & I & ->)| ->].
  - destruct (code_head m s I) as (c & s' & -> & Nq & _). intro Q. injection Q as Q _. contradiction.
  - cbn [mora_spelling]. destruct (first_in (u "aiueoy") (hepburn ms)); discriminate.
Qed.
Lemma n_code ms m' s' r' : In (m', s') codes -> mora_spelling Nn (hepburn ms) ++ hepburn ms <> s' ++ r'.
Proof.
  intros I Q. destruct (code_head m' s' I) as (c & s & -> & _ & H). cbn [mora_spelling] in Q.
  destruct (first_in (u "aiueoy") (hepburn ms)) eqn:V.
  - change (u "n'") with [ch "n"; 0x27] in Q. cbn [app] in Q. injection Q as <- Q.
    destruct (H eq_refl) as (d & s'' & -> & D). cbn [app] in Q. injection Q as <- _. vm_compute in D. discriminate D.
  - change (u "n") with [ch "n"] in Q. cbn [app] in Q. injection Q as <- Q.
    destruct (H eq_refl) as (d & s'' & -> & D). rewrite Q in V. cbn [app first_in] in V. congruence.
Qed.
Lemma hepburn_unique ms : forall ms', Forall standard ms -> Forall standard ms' -> hepburn ms = hepburn ms' ->
  plain (kana_text ms) = plain (kana_text ms').
Proof.
  induction ms as [|m ms IH]; intros [|m' ms'] F F' Q; [reflexivity| | |].
  - exfalso. cbn [hepburn] in Q. destruct (code_of m' (hepburn ms') (Forall_inv F')) as [(s & I & X)|X].
    + rewrite X in Q. destruct (code_head m' s I) as (c & s' & -> & _). discriminate Q.
    + subst m'. cbn [mora_spelling] in Q. destruct (first_in (u "aiueoy") (hepburn ms')); discriminate Q.
  - exfalso. cbn [hepburn] in Q. destruct (code_of m (hepburn ms) (Forall_inv F)) as [(s & I & X)|X].
    + rewrite X in Q. destruct (code_head m s I) as (c & s' & -> & _). discriminate Q.
    + subst m. cbn [mora_spelling] in Q. destruct (first_in (u "aiueoy") (hepburn ms)); discriminate Q.
  - pose proof (Forall_inv_tail F) as T. pose proof (Forall_inv_tail F') as T'. cbn [hepburn] in Q.
    assert (plain (mora_kana m) = plain (mora_kana m') /\ hepburn ms = hepburn ms') as [A B].
    { destruct (code_of m (hepburn ms) (Forall_inv F)) as [(s & I & X)|X], (code_of m' (hepburn ms') (Forall_inv F')) as [(s' & I' & X')|X'].
      - rewrite X, X' in Q. destruct (code_prefix _ _ _ _ _ _ I I' Q) as [<- P]. apply app_inv_head in Q. auto.
      - subst m'. rewrite X in Q. symmetry in Q. now apply (n_code ms' m s _ I) in Q.
      - subst m. rewrite X' in Q. now apply (n_code ms m' s' _ I') in Q.
      - subst m m'. split; [reflexivity|]. cbn [mora_spelling] in Q.
        destruct (first_in (u "aiueoy") (hepburn ms)) eqn:V, (first_in (u "aiueoy") (hepburn ms')) eqn:V';
          first [apply app_inv_head in Q; exact Q|exfalso].
        + change (u "n'") with [ch "n"; 0x27] in Q. cbn [app] in Q. injection Q as Q. symmetry in Q. now apply (hepburn_quote ms' T') in Q.
        + change (u "n'") with [ch "n"; 0x27] in Q. cbn [app] in Q. injection Q as Q. now apply (hepburn_quote ms T) in Q. }
    cbn [kana_text flat_map]. unfold plain in *. rewrite !map_app. f_equal; [exact A|]. now apply IH.
Qed.

(** ** The other direction: じ and ず for ぢ and づ change nothing *)
Definition plain_mora (m : mora) : mora :=
  match m with Syl k r => Syl (plain k) r | Gem k r => Gem (plain k) r | Nn => Nn end.
Lemma plain_syllable k r : In (k, r) syllables -> In (plain k, r) syllables.
Proof.
  assert (forallb (fun e => pair_mem (plain (fst e), snd e) syllables) syllables = true) as H by (vm_compute; reflexivity).
  intro I. rewrite forallb_forall in H. apply pair_mem_In. exact (H _ I).
Qed.
Lemma plain_standard m : standard m -> standard (plain_mora m).
Proof.
  destruct m; cbn [standard plain_mora]; [apply plain_syllable| |auto]. intros [S G]. split; [now apply plain_syllable|exact G].
Qed.
Lemma plain_kana_text ms : kana_text (map plain_mora ms) = plain (kana_text ms).
Proof.
  unfold kana_text, plain. induction ms as [|m ms IH]; [reflexivity|]. cbn [map flat_map]. rewrite map_app, IH. f_equal.
  now destruct m.
Qed.
Lemma plain_hepburn ms : hepburn (map plain_mora ms) = hepburn ms.
Proof. induction ms as [|m ms IH]; [reflexivity|]. cbn [map hepburn]. rewrite IH. now destruct m. Qed.

(** texts in hiragana *)
Lemma text_no_vu s h : hiragana_text (u "お") [] s h -> ~ In vu h -> ~ In (ch "ヴ") s /\ ~ In vu s.
Proof.
  generalize (@nil N). intros a H. induction H as [a|a c s p t P _ IH]; intro NV; [auto|].
  destruct IH as [A B]; [intro I; apply NV, in_or_app; now right|].
  assert (~ In vu p) as NP by (intro I; apply NV, in_or_app; now left).
  destruct P as [(NL & x & X & ->)|[(-> & _)|(-> & _)]];
    [|split; (intros [I|I]; [discriminate I|contradiction])|split; (intros [I|I]; [discriminate I|contradiction])].
  split; (intros [->|I]; [|contradiction]); apply NP; left; unfold hiragana_for in X;
    change (ch "ヴ") with 0x30F4 in *; change vu with 0x3094 in *;
    change (ch "ヷ") with 0x30F7 in X; change (ch "ヸ") with 0x30F8 in X; change (ch "ヹ") with 0x30F9 in X; change (ch "ヺ") with 0x30FA in X;
    intuition lia.
Qed.
Lemma standard_no_vu ms : Forall standard ms -> ~ In vu (kana_text ms).
Proof.
  intros F I. apply in_flat_map in I as (m & Im & I). rewrite Forall_forall in F. specialize (F _ Im).
  destruct m as [k r|k r|]; cbn [standard mora_kana] in *.
  - exact (sf_vu _ _ (syllable_facts _ _ F) I).
  - destruct I as [I|I]; [discriminate I|]. exact (sf_vu _ _ (syllable_facts _ _ (proj1 F)) I).
  - destruct I as [I|[]]; discriminate I.
Qed.
Lemma rom_standard E o s ms : std_ok E -> upcase_katakana o = false -> Forall standard ms ->
  hiragana_text (u "お") [] s (kana_text ms) -> to_romaji_with_opt E s o = Ok (hepburn ms).
Proof.
  intros HE Up F H. rewrite to_romaji_with_opt_eq, Up by exact HE. f_equal.
  destruct (text_no_vu s _ H (standard_no_vu ms F)) as [NV _].
  rewrite (hiragana_text_det (u "お") [] s (k2h E true s) (kana_text ms)); [|exact NV|exact (k2h_text E true s HE)|exact H].
  rewrite (rconv_noup E _ HE _ (kana_text ms)). now apply (rconv_morae E HE (length ms)).
Qed.

Lemma plain1_same c d : plain1 c = plain1 d <-> alike c d.
Proof.
  unfold plain1, alike. cbn [u In].
  change (u "じぢ") with [0x3058; 0x3062]. change (u "ずづ") with [0x305A; 0x3065].
  change (ch "ぢ") with 0x3062. change (ch "じ") with 0x3058. change (ch "ず") with 0x305A. change (ch "づ") with 0x3065. cbn [In].
  destruct (N.eqb_spec c 0x3062), (N.eqb_spec d 0x3062), (N.eqb_spec c 0x3065), (N.eqb_spec d 0x3065); lia.
Qed.
Lemma plain_same h h' : plain h = plain h' <-> Forall2 alike h h'.
Proof.
  unfold plain. revert h'. induction h as [|c h IH]; intros [|d h']; cbn [map].
  - split; constructor.
  - split; [discriminate|intro X; inversion X].
  - split; [discriminate|intro X; inversion X].
  - split.
    + intro Q. injection Q as Q R. constructor; [now apply plain1_same|now apply IH].
    + intro X. inversion X; subst. f_equal; [now apply plain1_same|now apply IH].
Qed.
Theorem same_romaji E o s s' h h' : std_ok E -> upcase_katakana o = false ->
  hiragana_text (u "お") [] s h -> hiragana_text (u "お") [] s' h' -> standard_text h -> standard_text h' ->
  (to_romaji_with_opt E s o = to_romaji_with_opt E s' o <-> Forall2 alike h h').
Proof.
  intros HE Up H H' (ms & F & <-) (ms' & F' & <-).
  rewrite (rom_standard E o s ms), (rom_standard E o s' ms') by assumption. rewrite <- plain_same. split.
  - intro Q. injection Q as Q. now apply hepburn_unique.
  - intro Q. f_equal. rewrite <- (plain_hepburn ms), <- (plain_hepburn ms').
    assert (Forall standard (map plain_mora ms)) as P by (apply Forall_map; revert F; apply Forall_impl, plain_standard).
    assert (Forall standard (map plain_mora ms')) as P' by (apply Forall_map; revert F'; apply Forall_impl, plain_standard).
    rewrite <- (rconv_morae E HE (length (map plain_mora ms)) (map plain_mora ms) [] (le_n _) P).
    rewrite <- (rconv_morae E HE (length (map plain_mora ms')) (map plain_mora ms') [] (le_n _) P').
    now rewrite !plain_kana_text, Q.
Qed.
