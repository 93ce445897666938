(** * Results of to_katakana and to_hiragana (C93) *)
From Coq Require Import Bool PeanoNat.
From Verif Require Import Tac Base Std Constants Chars Trees KanaTree Strings Convert
  KanaPure RomajiPure KanaSpec KanaDict KanaProofs MoraProofs Predicates ScriptSpec ScriptProofs ScriptIdem Splits TokenSpec ExactSpec Exact ExactScript LowerTwice
  KanaJoinSpec KanaJoin Complete FixedSpec Fixed Image ScriptResultSpec.

(** ** The text apart from っや etc. after n *)
Definition group (c a b : N) : bool := (ascii_lower c =? ch "n") && existsb (str_eqb [a; b]) after_nyy.
Fixpoint lo (t : str) : str :=
  match t with
  | [] => []
  | c :: r => match r with
              | a :: b :: r' => if group c a b then c :: lo r' else c :: lo r
              | _ => c :: lo r
              end
  end.
Lemma after_two p : In p after_nyy -> exists a b, p = [a; b].
Proof. intro I. repeat (destruct I as [<-|I]; [do 2 eexists; reflexivity|]). destruct I. Qed.
Lemma after_b a b : existsb (str_eqb [a; b]) after_nyy = true <-> In [a; b] after_nyy.
Proof.
  rewrite existsb_exists. split; [|intro I; exists [a; b]; split; [exact I|now apply str_eqb_eq]].
  intros (p & I & Q). apply str_eqb_eq in Q. now subst p.
Qed.
Lemma group_spec c a b : group c a b = true <-> n_letter c /\ In [a; b] after_nyy.
Proof. unfold group. now rewrite andb_true_iff, after_b, N.eqb_eq, n_letter_low. Qed.
Lemma lo_nyy n p t : n_letter n -> In p after_nyy -> lo (n :: p ++ t) = n :: lo t.
Proof.
  intros Nn I. destruct (after_two p I) as (a & b & ->). cbn [lo app]. now rewrite (proj2 (group_spec n a b) (conj Nn I)).
Qed.
Lemma lo_char c t : ~ (n_letter c /\ exists p t', In p after_nyy /\ t = p ++ t') -> lo (c :: t) = c :: lo t.
Proof.
  intro H. cbn [lo]. destruct t as [|a [|b t]]; [reflexivity..|]. destruct (group c a b) eqn:G; [|reflexivity].
  exfalso. apply group_spec in G. destruct G as [Nn I]. apply H. split; [exact Nn|]. exists [a; b], t. auto.
Qed.
Lemma lo_cases c t : (exists p t', n_letter c /\ In p after_nyy /\ t = p ++ t') \/ ~ (n_letter c /\ exists p t', In p after_nyy /\ t = p ++ t').
Proof.
  destruct t as [|a [|b t]].
  1,2: right; intros (_ & p & t' & I & Q); destruct (after_two p I) as (x & y & ->); discriminate Q.
  destruct (group c a b) eqn:G.
  - left. apply group_spec in G. destruct G as [Nn I]. exists [a; b], t. auto.
  - right. intros (Nn & p & t' & I & Q). destruct (after_two p I) as (x & y & ->). injection Q as <- <- _.
    apply not_true_iff_false in G. apply G. now apply group_spec.
Qed.
Lemma lo_ind (P : str -> Prop) : P [] -> (forall n p t, n_letter n -> In p after_nyy -> P t -> P (n :: p ++ t)) ->
  (forall c t, ~ (n_letter c /\ exists p t', In p after_nyy /\ t = p ++ t') -> P t -> P (c :: t)) -> forall t, P t.
Proof.
  intros H0 H1 H2. induction t as [t IH] using str_ind_len. destruct t as [|c t]; [exact H0|].
  destruct (lo_cases c t) as [(p & t' & Nn & I & ->)|G].
  - apply H1; [exact Nn|exact I|]. apply IH. cbn [length]. rewrite app_length. lia.
  - apply H2; [exact G|]. apply IH. cbn. lia.
Qed.
Lemma apart_lo t : apart_from_nyy t (lo t).
Proof.
  induction t as [|n p t Nn I IH|c t G IH] using lo_ind; [constructor| |].
  - rewrite lo_nyy by assumption. now constructor.
  - rewrite lo_char by assumption. now constructor.
Qed.
Lemma apart_fun t r : apart_from_nyy t r -> r = lo t.
Proof.
  induction 1 as [|n p t r Nn I A IH|c t r G A IH]; [reflexivity| |].
  - rewrite lo_nyy by assumption. now rewrite IH.
  - rewrite lo_char by assumption. now rewrite IH.
Qed.
Lemma lo_sub x t : In x (lo t) -> In x t.
Proof.
  induction t as [|n p t Nn I IH|c t G IH] using lo_ind; [auto| |].
  - rewrite lo_nyy by assumption. intros [->|J]; [now left|]. right. apply in_or_app. auto.
  - rewrite lo_char by assumption. intros [->|J]; [now left|]. right. auto.
Qed.
Lemma after_kana p x : In p after_nyy -> In x p -> S_kana x.
Proof.
  intros I J. assert (F : forallb (forallb kana_b) after_nyy = true) by (vm_compute; reflexivity).
  rewrite forallb_forall in F. specialize (F p I). rewrite forallb_forall in F. now apply kana_b_spec, F.
Qed.
Lemma lo_keeps x t : In x t -> ~ S_kana x -> In x (lo t).
Proof.
  intros J K. induction t as [|n p t Nn I IH|c t G IH] using lo_ind; [auto| |].
  - rewrite lo_nyy by assumption. destruct J as [->|J]; [now left|]. right. apply in_app_or in J. destruct J as [J|J]; [|auto].
    exfalso. exact (K (after_kana p x I J)).
  - rewrite lo_char by assumption. destruct J as [->|J]; [now left|]. right. auto.
Qed.
Lemma lo_head c t : exists r, lo (c :: t) = c :: r.
Proof. cbn [lo]. destruct t as [|a [|b t]]; [eauto..|]. destruct (group c a b); eauto. Qed.
Lemma lo_inert e t : (forall c, In c e -> ~ n_letter c) -> lo (e ++ t) = e ++ lo t.
Proof.
  induction e as [|c e IH]; intro H; [reflexivity|]. cbn [app]. rewrite lo_char; [|intros [Nn _]; exact (H c (or_introl eq_refl) Nn)].
  f_equal. apply IH. intros x I. apply H. now right.
Qed.

(** ** A kana of the text that is read stays *)
(** changes of script *)
Record rescript (g : N -> N) : Prop := {
  rs_same : forall c, ~ S_kana c -> g c = c;
  rs_kana : forall c, S_kana c -> S_kana (g c);
  rs_small : forall c, In (g c) (u "っッ") -> In c (u "っッ") }.
Lemma kana_3041 c : S_kana c -> 0x3041 <= c.
Proof. unfold S_kana, S_hiragana, S_katakana, between. lia. Qed.
Lemma rs_back g c : rescript g -> S_kana (g c) -> S_kana c.
Proof. intros R K. destruct (kana_b c) eqn:B; [now apply kana_b_spec|]. assert (N : ~ S_kana c) by (rewrite <- kana_b_spec; congruence). now rewrite (rs_same g R c N) in K. Qed.
Lemma rs_n g c : rescript g -> n_letter (g c) <-> n_letter c.
Proof.
  intro R. destruct (kana_b c) eqn:B.
  - apply kana_b_spec in B. pose proof (kana_3041 _ (rs_kana g R c B)). pose proof (kana_3041 _ B). unfold n_letter. lia.
  - assert (N : ~ S_kana c) by (rewrite <- kana_b_spec; congruence). now rewrite (rs_same g R c N).
Qed.
Lemma rs_h2k : rescript h2k_char.
Proof.
  split.
  - intros c K. destruct (h2k_char_cases c) as [->|[H _]]; [reflexivity|]. exfalso. apply K. left. unfold hiragana_letter in H. unfold S_hiragana, between. lia.
  - intros c. now rewrite h2k_kana.
  - intros c. change (u "っッ") with [0x3063; 0x30C3]. destruct (h2k_char_cases c) as [->|[H ->]]; [auto|]. unfold hiragana_letter in H. cbn [In]. lia.
Qed.
Lemma rs_id : rescript (fun c => c).
Proof. split; auto. Qed.

Lemma n_letter_key c : n_letter c -> ascii_lower c = ch "n".
Proof. now apply n_letter_low. Qed.
Lemma key_no_kana m q v c : entry m (low q) v -> In c q -> ~ S_kana c.
Proof.
  intros I J K. apply (low_in_key m q [] v ltac:(now rewrite app_nil_r) c J). apply kana_letter_in_no_key. now apply kana_3041.
Qed.
Lemma emit_no_n m q v c : m <> Ime -> entry m (low q) v -> In c (emit q v) -> ~ n_letter c.
Proof.
  intros M I J Nn. apply (emit_inert m q v I c) in J. rewrite in_no_key_low in J. apply n_letter_low in Nn.
  assert (X : exists w, entry m (u "n") w).
  { assert (B : existsb (fun e => str_eqb (fst e) (u "n")) (dict m) = true) by (destruct m; [vm_compute; reflexivity..|congruence]).
    apply existsb_exists in B. destruct B as ([k w] & B & Q). apply str_eqb_eq in Q. cbn [fst] in Q. subst k. eauto. }
  destruct X as (w & W). apply (J _ _ W). rewrite Nn. now left.
Qed.
Definition small_keys (m : mode) : bool :=
  forallb (fun e => match fst e with
    | c :: t => negb (c =? ch "y") || forallb (fun w => match w with h :: _ => negb (existsb (N.eqb h) (u "っッ")) | [] => true end
        || existsb (fun p => prefixb p w) after_nyy) [snd e; h2k (snd e)]
    | [] => true end) (dict m).
Lemma small_keys_true m : small_keys m = true.
Proof. destruct m; vm_compute; reflexivity. Qed.
Lemma small_key m d t v q h r : entry m (d :: t) v -> d = ch "y" -> emit q v = h :: r -> In h (u "っッ") -> exists p y', In p after_nyy /\ emit q v = p ++ y'.
Proof.
  intros I -> Q S. pose proof (small_keys_true m) as F. unfold small_keys in F. rewrite forallb_forall in F. specialize (F _ I). cbn [fst snd] in F.
  rewrite N.eqb_refl in F. cbn [negb orb] in F. assert (W : In (emit q v) [v; h2k v]) by (unfold emit; destruct (forallb is_AZ q); cbn; auto).
  rewrite forallb_forall in F. specialize (F _ W). rewrite Q in F at 1. apply orb_prop in F. destruct F as [F|F].
  - exfalso. apply negb_true_iff, not_true_iff_false in F. apply F. apply existsb_exists. exists h. split; [exact S|apply N.eqb_refl].
  - apply existsb_exists in F. destruct F as (p & J & F). apply prefixb_spec in F. destruct F as [y' F]. eauto.
Qed.
Lemma after_small p t : In p after_nyy -> exists h r, p ++ t = h :: r /\ In h (u "っッ").
Proof.
  intro I. assert (F : forallb (fun p => match p with h :: _ => existsb (N.eqb h) (u "っッ") | [] => false end) after_nyy = true) by (vm_compute; reflexivity).
  rewrite forallb_forall in F. specialize (F p I). destruct p as [|h r]; [discriminate F|]. exists h, (r ++ t). split; [reflexivity|]. now apply existsb_In.
Qed.

Lemma has_app P (a b : str) : has P (a ++ b) <-> has P a \/ has P b.
Proof.
  unfold has. split.
  - intros (c & I & K). apply in_app_or in I. destruct I; [left|right]; eauto.
  - intros [(c & I & K)|(c & I & K)]; exists c; split; auto; apply in_or_app; auto.
Qed.
Lemma has_cons P c (b : str) : has P (c :: b) <-> P c \/ has P b.
Proof.
  unfold has. split.
  - intros (x & [->|I] & K); eauto.
  - intros [K|(x & I & K)]; [exists c|exists x]; split; auto; [now left|now right].
Qed.
Lemma kana_stays m g : rescript g -> m <> Ime -> forall y, has S_kana y -> has S_kana (lo (map g (conv m y))).
Proof.
  intros G M. induction y as [y IH] using str_ind_len. intro K. destruct y as [|c s]; [destruct K as (? & [] & _)|].
  assert (E : forall q v x, entry m (low q) v -> In x (map g (emit q v)) -> ~ n_letter x).
  { intros q v x I J. apply in_map_iff in J. destruct J as (z & <- & J). rewrite (rs_n g z G). now apply (emit_no_n m q v). }
  destruct (longest_exists m (c :: s)) as (q & L). destruct (entry_dec m (low q)) as [[v I]|I].
  - destruct (proj1 L) as (r & Q). rewrite Q in L, K |- *. rewrite (conv_hit m q r v L I), map_app, lo_inert by (intros x J; now apply (E q v)).
    apply has_app. right. apply IH.
    + rewrite Q, app_length. destruct q; [now apply keys_nonempty in I|]. cbn. lia.
    + apply has_app in K. destruct K as [(x & J & K)|K]; [|exact K]. exfalso. exact (key_no_kana m q v x I J K).
  - rewrite (conv_miss m q c s L I). cbn [map]. destruct (lo_cases (g c) (map g (conv m s))) as [(p & t' & Nn & J & Q)|Hn].
    2: { rewrite lo_char by exact Hn. apply has_cons. apply has_cons in K. destruct K as [K|K]; [left; now apply rs_kana|right]. apply IH; [cbn; lia|exact K]. }
    rewrite Q, lo_nyy by assumption. apply has_cons. right. apply rs_n in Nn; [|exact G].
    apply has_cons in K. destruct K as [K|K]; [exfalso; apply kana_3041 in K; unfold n_letter in Nn; lia|].
    (* what follows the n *)
    destruct (after_small p t' J) as (h & r & Qh & S). rewrite Qh in Q.
    destruct s as [|d s]; [rewrite kconv_nil in Q; discriminate Q|].
    assert (Y : ascii_lower d = ch "y").
    { apply n_letter_low in Nn. destruct (proj1 L) as (r2 & Q2). destruct q as [|c' q].
      - exfalso. pose proof (n_follows m d M) as _. assert (V : viable m [c]).
        { assert (B : existsb (fun e => str_eqb (fst e) (u "n")) (dict m) = true) by (destruct m; [vm_compute; reflexivity..|congruence]).
          apply existsb_exists in B. destruct B as ([k w] & B & Q'). apply str_eqb_eq in Q'. cbn [fst] in Q'. subst k.
          apply (entry_viable m [c] w). cbn [low map]. now rewrite Nn. }
        pose proof (proj2 (proj2 L) [c] (d :: s) eq_refl V) as Le. cbn in Le. lia.
      - injection Q2 as <- Q2. destruct q as [|d' q].
        + exfalso. cbn [low map] in I. rewrite Nn in I.
          assert (B : existsb (fun e => str_eqb (fst e) (u "n")) (dict m) = true) by (destruct m; [vm_compute; reflexivity..|congruence]).
          apply existsb_exists in B. destruct B as ([k w] & B & Q'). apply str_eqb_eq in Q'. cbn [fst] in Q'. subst k. exact (I w B).
        + cbn [app] in Q2. injection Q2 as <- Q2. pose proof (proj1 (proj2 L)) as V. apply viable_entry in V. destruct V as (k & w & V).
          cbn [low map app] in V. rewrite Nn in V. destruct (n_key _ _ _ _ V) as [Y|Y]; [exact Y|]. exfalso.
          apply app_eq_nil in Y. destruct Y as [Y ->]. destruct q; [|discriminate Y]. apply (I w). cbn [low map]. rewrite Nn. exact V. }
    destruct (longest_exists m (d :: s)) as (q' & L'). destruct (entry_dec m (low q')) as [[v' I']|I'].
    2: { exfalso. rewrite (conv_miss m q' d s L' I') in Q. cbn [map] in Q. injection Q as Q _. rewrite <- Q in S. apply (rs_small g G) in S.
         apply y_letter_low in Y. unfold y_letter in Y. revert S. change (u "っッ") with [0x3063; 0x30C3]. cbn [In]. lia. }
    destruct (proj1 L') as (r' & Q'). rewrite Q' in L', Q, K. rewrite (conv_hit m q' r' v' L' I') in Q.
    destruct (emit_kana m _ v' q' I') as (h' & e & Em & _).
    assert (S' : In h' (u "っッ")).
    { rewrite Em in Q. cbn [map app] in Q. injection Q as Q _. apply (rs_small g G). now rewrite Q. }
    destruct q' as [|d' q']; [now apply keys_nonempty in I'|]. cbn [app] in Q'. injection Q' as <- Q'.
    destruct (small_key m (ascii_lower d) (low q') v' (d :: q') h' e I' Y Em S') as (p2 & y' & J2 & Em2).
    assert (t' = map g y' ++ map g (conv m r')) as ->.
    { rewrite <- Qh, Em2, !map_app, <- app_assoc in Q. destruct (after_two p J) as (a & b & ->), (after_two p2 J2) as (a2 & b2 & ->).
      cbn [map app] in Q. now injection Q as _ _ <-. }
    rewrite lo_inert.
    + apply has_app. right. apply IH.
      * rewrite Q'. cbn [length]. rewrite app_length. lia.
      * apply has_app in K. destruct K as [(x & X & K)|K]; [|exact K]. exfalso. exact (key_no_kana m (d :: q') v' x I' X K).
    + intros x X. apply (E (d :: q') v' x I'). rewrite Em2, map_app. apply in_or_app. now right.
Qed.

(** ** Change of script and results *)
Lemma map_app_inv {A B} (f : A -> B) l a b : map f l = a ++ b -> exists a0 b0, l = a0 ++ b0 /\ map f a0 = a /\ map f b0 = b.
Proof.
  revert l. induction a as [|x a IH]; intros l Q; [exists [], l; auto|]. destruct l as [|z l]; [discriminate Q|]. cbn in Q. injection Q as <- Q.
  destruct (IH l Q) as (a0 & b0 & -> & <- & <-). exists (z :: a0), b0. auto.
Qed.
Lemma rs_fixed g b : rescript g -> (forall c, In c (map g b) -> ~ S_kana c) -> map g b = b.
Proof.
  intros G. induction b as [|c b IH]; intro H; [reflexivity|]. cbn [map] in *. f_equal.
  - apply (rs_same g G). intro K. exact (H (g c) (or_introl eq_refl) (rs_kana g G c K)).
  - apply IH. intros x I. apply H. now right.
Qed.
Lemma result_map m g t : rescript g -> (forall p, In p after_nyy -> In (map g p) after_nyy) -> kana_result m t -> kana_result m (map g t).
Proof.
  intros G A R x b k v y Q C I. destruct (map_app_inv g t x _ Q) as (x0 & z & -> & <- & Q1). destruct (map_app_inv g z b y Q1) as (b0 & y0 & -> & Q2 & <-).
  assert (b0 = b) as ->.
  { rewrite <- Q2. symmetry. apply (rs_fixed g b0 G). intros c J. rewrite Q2 in J. apply casing_low in C. subst k. exact (key_no_kana m b v c I J). }
  destruct (R x0 b k v y0 eq_refl C I) as [K F]. split; [exact K|]. destruct F as [(c & y' & -> & Y)|(p & y' & P & ->)].
  - left. exists (g c), (map g y'). split; [reflexivity|]. rewrite (rs_same g G); [exact Y|]. intro Kc. apply kana_3041 in Kc. unfold y_letter in Y. lia.
  - right. exists (map g p), (map g y'). split; [now apply A|apply map_app].
Qed.
Lemma h2k_after p : In p after_nyy -> In (h2k p) after_nyy.
Proof.
  intro I. assert (F : forallb (fun p => existsb (str_eqb (h2k p)) after_nyy) after_nyy = true) by (vm_compute; reflexivity).
  rewrite forallb_forall in F. specialize (F p I). apply existsb_exists in F. destruct F as (q & J & Q). apply str_eqb_eq in Q. now rewrite Q.
Qed.
Lemma lo_map g t : (forall c, n_letter (g c) <-> n_letter c) ->
  (forall a b, In a t -> In b t -> (In [g a; g b] after_nyy <-> In [a; b] after_nyy)) -> lo (map g t) = map g (lo t).
Proof.
  intro Gn. induction t as [t IH] using str_ind_len. intro A. destruct t as [|c [|a [|b t]]]; [reflexivity..|].
  cbn [map lo]. assert (group (g c) (g a) (g b) = group c a b) as ->.
  { apply eq_true_iff_eq. rewrite !group_spec, Gn, A; [reflexivity|right; now left|right; right; now left]. }
  destruct (group c a b); cbn [map]; f_equal.
  - apply IH; [cbn; lia|]. intros x y X Y. apply A; right; right; right; assumption.
  - apply (IH (a :: b :: t)); [cbn; lia|]. intros x y X Y. apply A; right; assumption.
Qed.

(** ッヤ etc. in hiragana *)
Definition hi (c : N) : N := if existsb (N.eqb c) (u "ッヤイユヨ") then c - 96 else c.
Lemma hi_cases c : (hi c = c /\ ~ In c (u "ッヤイユヨ")) \/ (In c (u "ッヤイユヨ") /\ hi c = c - 96 /\ S_kana c /\ S_hiragana (hi c) /\ h2k_char (hi c) = c).
Proof.
  unfold hi. destruct (existsb (N.eqb c) (u "ッヤイユヨ")) eqn:B.
  - right. apply existsb_In in B. split; [exact B|]. split; [reflexivity|]. revert B. change (u "ッヤイユヨ") with [0x30C3; 0x30E4; 0x30A4; 0x30E6; 0x30E8]. cbn [In].
    unfold S_kana, S_katakana, S_hiragana, between. intro B. split; [lia|]. split; [lia|]. repeat (destruct B as [<-|B]; [vm_compute; reflexivity|]). destruct B.
  - left. split; [reflexivity|]. rewrite <- existsb_In. congruence.
Qed.
Lemma rs_hi : rescript hi.
Proof.
  split.
  - intros c K. destruct (hi_cases c) as [[Q _]|(_ & _ & Kc & _)]; [exact Q|contradiction].
  - intros c K. destruct (hi_cases c) as [[-> _]|(_ & _ & _ & H & _)]; [exact K|now left].
  - intros c. destruct (hi_cases c) as [[-> _]|(I & -> & _)]; [auto|]. revert I. change (u "っッ") with [0x3063; 0x30C3].
    change (u "ッヤイユヨ") with [0x30C3; 0x30E4; 0x30A4; 0x30E6; 0x30E8]. cbn [In]. lia.
Qed.
Lemma hi_after p : In p after_nyy -> In (map hi p) after_nyy.
Proof.
  intro I. assert (F : forallb (fun p => existsb (str_eqb (map hi p)) after_nyy) after_nyy = true) by (vm_compute; reflexivity).
  rewrite forallb_forall in F. specialize (F p I). apply existsb_exists in F. destruct F as (q & J & Q). apply str_eqb_eq in Q. now rewrite Q.
Qed.
Lemma h2k_hi c : h2k_char (hi c) = h2k_char c.
Proof.
  destruct (hi_cases c) as [[-> _]|(I & _ & _ & _ & ->)]; [reflexivity|]. destruct (h2k_char_cases c) as [->|[H _]]; [reflexivity|].
  exfalso. revert I. unfold hiragana_letter in H. change (u "ッヤイユヨ") with [0x30C3; 0x30E4; 0x30A4; 0x30E6; 0x30E8]. cbn [In]. lia.
Qed.
Lemma lo_hi t : (forall c, In c t -> ~ hiragana_letter c) -> lo (map hi t) = map hi (lo t).
Proof.
  intro H. apply lo_map; [intro c; apply rs_n, rs_hi|]. intros a b Ia Ib. split; [|intro I; exact (hi_after _ I)].
  intro I. apply h2k_after in I. cbn [h2k map] in I. rewrite !h2k_hi in I.
  destruct (h2k_char_cases a) as [Qa|[Z _]]; [|exfalso; exact (H a Ia Z)]. destruct (h2k_char_cases b) as [Qb|[Z _]]; [|exfalso; exact (H b Ib Z)].
  now rewrite Qa, Qb in I.
Qed.

(** ** The text that was read *)
Lemma preimage_nyy n p t : n_letter n -> In p after_nyy -> exists w, unread p = Some w /\ preimage (n :: p ++ t) = n :: w ++ preimage t.
Proof.
  intros Nn I. destruct (unread_some p I) as (w & W). exists w. split; [exact W|]. destruct (after_two p I) as (a & b & ->). cbn [preimage app].
  apply n_letter_low in Nn. now rewrite Nn, N.eqb_refl, W.
Qed.
Lemma preimage_char c t : ~ (n_letter c /\ exists p t', In p after_nyy /\ t = p ++ t') -> preimage (c :: t) = c :: preimage t.
Proof.
  intro H. cbn [preimage]. destruct t as [|a [|b t]]; [reflexivity..|]. destruct (ascii_lower c =? ch "n") eqn:B; [|reflexivity].
  destruct (unread [a; b]) as [w|] eqn:W; [|reflexivity]. exfalso. apply H. apply N.eqb_eq, n_letter_low in B. split; [exact B|].
  exists [a; b], t. split; [|reflexivity]. apply unread_In in W. exact (in_combine_l _ _ _ _ W).
Qed.
Lemma preimage_lo x t : In x (lo t) -> In x (preimage t).
Proof.
  induction t as [|n p t Nn I IH|c t G IH] using lo_ind; [auto| |].
  - rewrite lo_nyy by assumption. destruct (preimage_nyy n p t Nn I) as (w & _ & ->). intros [->|J]; [now left|]. right. apply in_or_app. auto.
  - rewrite lo_char, preimage_char by assumption. intros [->|J]; [now left|]. right. auto.
Qed.
Lemma unread_lower p w x : unread p = Some w -> ~ In (ch "ッ") p -> In x w -> In x (u "yaiuo").
Proof.
  intros W S J. apply unread_In in W.
  assert (F : forallb (fun e => existsb (N.eqb (ch "ッ")) (fst e) || forallb (fun x => existsb (N.eqb x) (u "yaiuo")) (snd e))
     (combine after_nyy [u "yya"; u "yyi"; u "yyu"; u "yyo"; u "YYA"; u "YYI"; u "YYU"; u "YYO"]) = true) by (vm_compute; reflexivity).
  rewrite forallb_forall in F. specialize (F _ W). cbn [fst snd] in F. apply orb_prop in F. destruct F as [F|F].
  - exfalso. now apply existsb_In in F.
  - rewrite forallb_forall in F. now apply existsb_In, F.
Qed.
Lemma preimage_chars x t : ~ In (ch "ッ") t -> In x (preimage t) -> In x (lo t) \/ In x (u "yaiuo").
Proof.
  induction t as [|n p t Nn I IH|c t G IH] using lo_ind; [auto| |]; intros S J.
  - rewrite lo_nyy by assumption. destruct (preimage_nyy n p t Nn I) as (w & W & Q). rewrite Q in J. destruct J as [->|J]; [left; now left|].
    apply in_app_or in J. destruct J as [J|J].
    + right. apply (unread_lower p w x W); [|exact J]. intro Z. apply S. right. apply in_or_app. now left.
    + destruct IH as [K|K]; [intro Z; apply S; right; apply in_or_app; now right|exact J|left; now right|now right].
  - rewrite lo_char by assumption. rewrite preimage_char in J by assumption. destruct J as [->|J]; [left; now left|].
    destruct IH as [K|K]; [intro Z; apply S; now right|exact J|left; now right|now right].
Qed.
Lemma preimage_head c t : exists r, preimage (c :: t) = c :: r.
Proof. cbn [preimage]. destruct t as [|a [|b t]]; [eauto..|]. destruct (if ascii_lower c =? ch "n" then unread [a; b] else None); eauto. Qed.

(** ** Punctuation *)
Definition marks : list (N * N) := combine (u "。、：！？〜［］（）｛｝「」『』") (u ".,:!?~[](){}‘’“”").
Definition dp (c : N) : N := match find (fun e => fst e =? c) marks with Some e => snd e | None => c end.
Lemma dp_cases c : (In (c, dp c) marks /\ In c (u "。、：！？〜［］（）｛｝「」『』")) \/ (dp c = c /\ ~ In c (u "。、：！？〜［］（）｛｝「」『』")).
Proof.
  unfold dp. destruct (find (fun e => fst e =? c) marks) as [[a b]|] eqn:F.
  - left. apply find_some in F. destruct F as [I Q]. apply N.eqb_eq in Q. cbn [fst] in Q. subst a. cbn [snd]. split; [exact I|].
    exact (in_combine_l _ _ _ _ I).
  - right. split; [reflexivity|]. intro I. pose proof (find_none _ _ F) as Z.
    assert (T : forallb (fun c => existsb (fun e => fst e =? c) marks) (u "。、：！？〜［］（）｛｝「」『』") = true) by (vm_compute; reflexivity).
    rewrite forallb_forall in T. specialize (T c I). apply existsb_exists in T. destruct T as (e & J & Q). rewrite (Z e J) in Q. discriminate Q.
Qed.
Definition marks_keys (m : mode) : bool :=
  forallb (fun e => existsb (fun e' => str_eqb (fst e') [snd e] && str_eqb (snd e') [fst e]) (dict m) && (ascii_lower (snd e) =? snd e) && negb (is_AZ (snd e))
    && forallb (fun e' => negb (existsb (N.eqb (snd e)) (tl (fst e')))) (dict m)) marks.
Lemma marks_keys_true m : marks_keys m = true.
Proof. destruct m; vm_compute; reflexivity. Qed.
Lemma conv_mark m c d a b : In (c, d) marks -> conv m (a ++ d :: b) = conv m a ++ c :: conv m b.
Proof.
  intro I. pose proof (marks_keys_true m) as F. unfold marks_keys in F. rewrite forallb_forall in F. specialize (F _ I). cbn [fst snd] in F.
  apply andb_prop in F. destruct F as [F F4]. apply andb_prop in F. destruct F as [F F3]. apply andb_prop in F. destruct F as [F1 F2].
  apply N.eqb_eq in F2. apply negb_true_iff in F3. rewrite forallb_forall in F4.
  apply existsb_exists in F1. destruct F1 as ([k v] & J & Q). cbn [fst snd] in Q. apply andb_prop in Q. destruct Q as [Qk Qv]. apply str_eqb_eq in Qk, Qv. subst k v.
  rewrite conv_split.
  - f_equal. change (d :: b) with ([d] ++ b). assert (Z : low [d] = [d]) by (cbn; now rewrite F2).
    rewrite (conv_hit m [d] b [c]); [unfold emit; cbn; now rewrite F3| |now rewrite Z]. apply (whole_key m [d] [c]); [now rewrite Z|]. rewrite Z. intro X. injection X as ->.
    assert (W : existsb (fun e => snd e =? ch "n") marks = false) by (vm_compute; reflexivity). apply not_true_iff_false in W. apply W.
    apply existsb_exists. exists (c, ch "n"). split; [exact I|reflexivity].
  - intros x z d' y' -> Nz Q V. injection Q as <- _. apply viable_entry in V. destruct V as (k & w & V). rewrite low_app, <- app_assoc in V.
    specialize (F4 _ V). cbn [fst] in F4. apply negb_true_iff, not_true_iff_false in F4. apply F4. apply existsb_In.
    change (low [d]) with [ascii_lower d]. rewrite F2. cbn [app]. apply in_tl. destruct z; [congruence|discriminate].
Qed.
Lemma conv_same m c a b : In c (u "。、：！？〜［］（）｛｝「」『』") -> conv m (a ++ c :: b) = conv m a ++ c :: conv m b.
Proof.
  intro I. apply conv_boundary. apply non_ascii_in_no_key.
  - assert (T : forallb (fun c => 128 <=? c) (u "。、：！？〜［］（）｛｝「」『』") = true) by (vm_compute; reflexivity). rewrite forallb_forall in T. specialize (T c I). lia.
  - intro J. assert (T : forallb (fun c => negb (existsb (N.eqb c) (u "‘’“”"))) (u "。、：！？〜［］（）｛｝「」『』") = true) by (vm_compute; reflexivity).
    rewrite forallb_forall in T. specialize (T c I). apply negb_true_iff, not_true_iff_false in T. apply T. now apply existsb_In.
Qed.
Lemma conv_dp m s : conv m (map dp s) = conv m s.
Proof.
  induction s as [s IH] using str_ind_len. destruct (existsb (fun c => existsb (N.eqb c) (u "。、：！？〜［］（）｛｝「」『』")) s) eqn:B.
  - apply existsb_exists in B. destruct B as (c & I & B). apply existsb_In in B. apply in_split in I. destruct I as (a & b & ->).
    rewrite map_app. cbn [map]. destruct (dp_cases c) as [[J _]|[_ J]]; [|contradiction].
    rewrite (conv_mark m c _ _ _ J), (conv_same m c _ _ B), !IH; [reflexivity|rewrite app_length; cbn; lia..].
  - f_equal. rewrite <- map_id. apply map_ext_in. intros c I. destruct (dp_cases c) as [[_ J]|[Q _]]; [|exact Q]. exfalso.
    apply not_true_iff_false in B. apply B. apply existsb_exists. exists c. split; [exact I|now apply existsb_In].
Qed.
Lemma mark_kind c d : In (c, d) marks -> (d < 128 \/ smart_quote d) /\ S_en_punct d /\ ascii_lower d = d /\ ~ S_kana c /\ ~ S_romaji c /\ ~ S_en_punct c.
Proof.
  intro I. assert (T : forallb (fun e => ((snd e <? 128) || existsb (N.eqb (snd e)) (u "‘’“”")) && is_char_english_punctuation (snd e) && (ascii_lower (snd e) =? snd e)
    && negb (kana_b (fst e)) && negb (is_char_romaji (fst e)) && negb (is_char_english_punctuation (fst e))) marks = true) by (vm_compute; reflexivity).
  rewrite forallb_forall in T. specialize (T _ I). cbn [fst snd] in T. rewrite !andb_true_iff, !negb_true_iff, <- !not_true_iff_false in T.
  destruct T as (((((T1 & T2) & T3) & T4) & T5) & T6). rewrite kana_b_spec in T4. rewrite romaji_spec in T5. rewrite en_punct_spec in T6, T2. apply N.eqb_eq in T3.
  split; [|auto]. apply orb_prop in T1. destruct T1 as [T1|T1]; [left; now apply N.ltb_lt|right; now apply existsb_In].
Qed.

(** ** What texts of romaji and texts with punctuation in front become *)
Definition romaji_outputs (m : mode) : bool :=
  forallb (fun e => existsb (fun c => existsb (N.eqb c) (u "‘’“”")) (fst e)
    || forallb (fun x => kana_b x || existsb (N.eqb x) (u "。、：！？〜［］（）｛｝")) (snd e)) (dict m).
Lemma romaji_outputs_true m : romaji_outputs m = true.
Proof. destruct m; vm_compute; reflexivity. Qed.
Lemma quote_low c : In (ascii_lower c) (u "‘’“”") -> smart_quote c.
Proof. unfold smart_quote. change (u "‘’“”") with [0x2018; 0x2019; 0x201C; 0x201D]. unfold ascii_lower. cbn [In]. ifs; lia. Qed.
Lemma quote_not_romaji c : smart_quote c -> ~ S_romaji c.
Proof.
  unfold smart_quote, S_romaji. change (u "‘’“”") with [0x2018; 0x2019; 0x201C; 0x201D]. change (u "ĀāĒēĪīŌōŪū") with [256;257;274;275;298;299;332;333;362;363].
  cbn [In]. lia.
Qed.
Lemma romaji_becomes m y x : Forall S_romaji y -> (forall c, In c y -> is_AZ c = false) -> In x (conv m y) ->
  (S_romaji x \/ In x (u "。、：！？〜［］（）｛｝")) \/ S_kana x.
Proof.
  intros R Z I. rewrite Forall_forall in R. apply conv_In in I. destruct I as [I|(seg & v & H1 & H2 & H3)]; [left; left; now apply R|].
  pose proof (romaji_outputs_true m) as F. unfold romaji_outputs in F. rewrite forallb_forall in F. specialize (F _ H1). cbn [fst snd] in F.
  apply orb_prop in F. destruct F as [F|F].
  - exfalso. apply existsb_exists in F. destruct F as (c & J & F). apply existsb_In in F. apply in_map_iff in J. destruct J as (d & <- & J).
    apply quote_low in F. exact (quote_not_romaji d F (R d (H3 d J))).
  - rewrite forallb_forall in F. assert (J : In x v).
    { unfold emit in H2. destruct seg as [|d seg]; [now apply keys_nonempty in H1|]. cbn [forallb] in H2. now rewrite (Z d (H3 d (or_introl eq_refl))) in H2. }
    specialize (F x J). apply orb_prop in F. destruct F as [F|F]; [right; now apply kana_b_spec|left; right; now apply existsb_In].
Qed.
Lemma kana_or (P : N -> Prop) r : (forall c, In c r -> P c \/ S_kana c) -> has S_kana r \/ forall c, In c r -> P c.
Proof.
  induction r as [|c r IH]; intro H; [right; intros c []|]. destruct IH as [K|K]; [intros x I; apply H; now right|left; apply has_cons; now right|].
  destruct (H c (or_introl eq_refl)) as [Q|Q]; [|left; apply has_cons; now left]. right. intros x [<-|I]; auto.
Qed.
Definition punct_outputs (m : mode) : bool :=
  forallb (fun e => match fst e with
    | c :: _ => negb (is_char_english_punctuation c) || match snd e with
        | x :: _ => kana_b x || existsb (N.eqb x) (u "。、：！？〜［］（）｛｝「」『』") | [] => false end
    | [] => true end) (dict m).
Lemma punct_outputs_true m : punct_outputs m = true.
Proof. destruct m; vm_compute; reflexivity. Qed.
Lemma punct_kind c : S_en_punct c -> ascii_lower c = c /\ is_AZ c = false /\ (c < 128 \/ caseless c = true) /\ (S_romaji c \/ smart_quote c) /\ c <> SIGMA /\ ~ In c (u "。、：！？〜［］（）｛｝「」『』").
Proof.
  unfold S_en_punct. intro I.
  assert (T : forallb (fun c => (ascii_lower c =? c) && negb (is_AZ c) && ((c <? 128) || caseless c) && (is_char_romaji c || existsb (N.eqb c) (u "‘’“”")) && negb (c =? SIGMA)
     && negb (existsb (N.eqb c) (u "。、：！？〜［］（）｛｝「」『』"))) (u " !""#$%&'()*+,-./:;<=>?[\]^_`{|}~‘’“”") = true) by (vm_compute; reflexivity).
  rewrite forallb_forall in T. specialize (T c I). rewrite !andb_true_iff, !orb_true_iff, !negb_true_iff in T. destruct T as (((((T1 & T2) & T3) & T4) & T5) & T6).
  apply N.eqb_eq in T1. apply N.eqb_neq in T5. rewrite N.ltb_lt in T3. rewrite romaji_spec, existsb_In in T4. rewrite <- not_true_iff_false, existsb_In in T6. auto 10.
Qed.
Lemma punct_becomes m c y : S_en_punct c -> exists x r, conv m (c :: y) = x :: r /\
  (S_kana x \/ S_en_punct x \/ In x (u "。、：！？〜［］（）｛｝「」『』")).
Proof.
  intro P. destruct (punct_kind c P) as (L & Z & _). destruct (longest_exists m (c :: y)) as (q & Lq). destruct (entry_dec m (low q)) as [[v I]|I].
  2: { exists c, (conv m y). split; [exact (conv_miss m q c y Lq I)|auto]. }
  destruct (proj1 Lq) as (r & Q). destruct q as [|c' q]; [now apply keys_nonempty in I|]. injection Q as <- Q. subst y.
  change (c :: q ++ r) with ((c :: q) ++ r) in *. rewrite (conv_hit m (c :: q) r v Lq I).
  assert (emit (c :: q) v = v) as -> by (unfold emit; cbn [forallb]; now rewrite Z).
  pose proof (punct_outputs_true m) as F. unfold punct_outputs in F. rewrite forallb_forall in F. specialize (F _ I). cbn [low map fst snd] in F.
  rewrite L in F. apply en_punct_spec in P. rewrite P in F. cbn [negb orb] in F. destruct v as [|x v]; [discriminate F|].
  exists x, (v ++ conv m r). split; [reflexivity|]. apply orb_prop in F. destruct F as [F|F]; [left; now apply kana_b_spec|right; right; now apply existsb_In].
Qed.

(** ** The theorems *)
Section Results.
  Context (E : std) (HE : std_ok E).
  Context (o : options) (P : pass_romaji o = false).
  Let m := mode_of o.
  Let L := to_lowercase E.

  Lemma lower_macron c d : In c (u "ĀāĒēĪīŌōŪū") -> In d (lower_char E c) -> In d (u "ĀāĒēĪīŌōŪū").
  Proof.
    change (u "ĀāĒēĪīŌōŪū") with [0x100; 0x100 + 1; 0x112; 0x112 + 1; 0x12A; 0x12A + 1; 0x14C; 0x14C + 1; 0x16A; 0x16A + 1]. intros I J.
    assert (H : forall x, In x [0x100; 0x112; 0x12A; 0x14C; 0x16A] -> lower_char E x = [x + 1] /\ lower_char E (x + 1) = [x + 1]).
    { intros x X. pose proof (ok_lower_macron E HE x X) as Q. split; [exact Q|]. apply (ok_lower_fixed E HE x). rewrite Q. now left. }
    assert (D : exists x, In x [0x100; 0x112; 0x12A; 0x14C; 0x16A] /\ (c = x \/ c = x + 1)).
    { cbn [In] in I. destruct I as [I|[I|[I|[I|[I|[I|[I|[I|[I|[I|[]]]]]]]]]]]; subst c;
      [exists 0x100|exists 0x100|exists 0x112|exists 0x112|exists 0x12A|exists 0x12A|exists 0x14C|exists 0x14C|exists 0x16A|exists 0x16A]; (split; [cbn [In]; auto 10|]); auto. }
    destruct D as (x & X & Z). destruct (H x X) as [H1 H2]. assert (d = x + 1) as ->.
    { destruct Z as [-> | ->]; [rewrite H1 in J|rewrite H2 in J]; destruct J as [J|[]]; congruence. }
    cbn [In] in X. repeat (destruct X as [X|X]; [subst x; cbn [In]; auto 12|]). destruct X.
  Qed.
  Lemma lower_romaji s : Forall S_romaji s -> Forall S_romaji (L s).
  Proof.
    unfold L. intro F. apply Forall_forall. intros d I. destruct (lower_pieces E s) as (ls & Fl & Q). rewrite Q in I. clear Q.
    induction Fl as [|c l s ls Pc Fl IH]; [destruct I|]. inversion F as [|? ? Rc Fs]; subst. cbn [concat] in I. apply in_app_or in I.
    destruct I as [I|I]; [|now apply IH]. destruct Rc as [Rc|Rc].
    - rewrite (LowerTwice.piece_low E c l HE Pc) in I by lia. destruct I as [<-|[]]. left. unfold ascii_lower. ifs; lia.
    - destruct Pc as [[_ ->]|[-> _]]; [right; now apply (lower_macron c)|]. exfalso. revert Rc. vm_compute. intuition discriminate.
  Qed.
  Lemma lower_cons c s : c <> SIGMA -> exists r, L (c :: s) = lower_char E c ++ r.
  Proof.
    intro N. unfold L. destruct (lower_pieces E (c :: s)) as (ls & F & ->). inversion F as [|? l ? ls' Pc F']; subst. destruct Pc as [[_ ->]|[Z _]]; [|contradiction].
    exists (concat ls'). reflexivity.
  Qed.
  Lemma lower_kana s : has S_kana s -> has S_kana (L s).
  Proof.
    intros (c & I & K). exists c. split; [|exact K]. apply lower_keeps; [exact HE| |exact I]. revert K. unfold S_kana, S_hiragana, S_katakana, between, caseless. lia.
  Qed.
  Lemma L_low s : forall c, In c (L s) -> is_AZ c = false.
  Proof. intros c I. now apply (lower_In E s c HE). Qed.
  Lemma romaji_no_kana t : Forall S_romaji t -> ~ has S_kana t.
  Proof. intros F (c & I & K). rewrite Forall_forall in F. apply kana_3041 in K. pose proof (romaji_small c (F c I)). lia. Qed.

  (** what is read has the form *)
  Lemma read_form g s : rescript g -> (forall c, In c (u "。、：！？〜［］（）｛｝「」『』") -> g c = c) ->
    has S_kana s \/ Forall S_romaji s -> m <> Ime -> forall r, apart_from_nyy (map g (conv m (L s))) r -> has S_kana r \/ from_romaji r.
  Proof.
    intros G Gm H M r A. apply apart_fun in A. subst r. destruct H as [K|R].
    - left. apply kana_stays; [exact G|exact M|now apply lower_kana].
    - apply kana_or. intros c I. apply lo_sub, in_map_iff in I. destruct I as (x & <- & I).
      destruct (romaji_becomes m (L s) x (lower_romaji s R) (L_low s) I) as [[X|X]|X].
      + left. left. rewrite (rs_same g G); [exact X|]. intro K. apply kana_3041 in K. pose proof (romaji_small x X). lia.
      + left. right. rewrite Gm; [exact X|]. revert X. change (u "。、：！？〜［］（）｛｝「」『』") with (u "。、：！？〜［］（）｛｝" ++ u "「」『』"). intro X. apply in_or_app. now left.
      + right. now apply rs_kana.
  Qed.
  Lemma marks_h2k c : In c (u "。、：！？〜［］（）｛｝「」『』") -> h2k_char c = c.
  Proof.
    intro I. assert (T : forallb (fun c => h2k_char c =? c) (u "。、：！？〜［］（）｛｝「」『』") = true) by (vm_compute; reflexivity).
    rewrite forallb_forall in T. now apply N.eqb_eq, T.
  Qed.
  Lemma kana_or_romaji t : all_nonempty S_romaji t \/ mixed_text t -> has S_kana t \/ Forall S_romaji t.
  Proof. intros [[_ H]|[H _]]; [right; now apply Forall_forall|now left]. Qed.

  Theorem kata_necessary s : let t := kata_pure E o s in
    (forall c, In c t -> ~ hiragana_letter c) /\
    (all_nonempty S_romaji t \/ mixed_text t -> L t = t /\ read_result m from_romaji t).
  Proof.
    cbv zeta. unfold kata_pure. rewrite P, k_tree_mode. fold m. fold (conv m (to_lowercase E s)). fold (L s).
    destruct (is_romaji s || is_mixed s) eqn:R.
    - split; [intros c; apply h2k_no_hiragana|]. intros _. split.
      { apply lowered_same; [exact HE|]. apply h2k_lowered; [exact HE|]. apply conv_lowered; [exact HE|]. now apply to_lowercase_lowered. }
      split.
      + apply (result_map m h2k_char); [exact rs_h2k|exact h2k_after|apply conv_result].
      + apply (read_form h2k_char); [exact rs_h2k|exact marks_h2k|]. apply kana_or_romaji.
        apply orb_prop in R. destruct R as [R|R]; [left; now apply romaji_text_spec|right; now apply mixed_spec].
    - split; [intros c; apply h2k_no_hiragana|]. intro R'. exfalso. apply not_true_iff_false in R. apply R. apply orb_true_iff.
      rewrite <- h2k_romaji, <- h2k_mixed, romaji_text_spec, mixed_spec. exact R'.
  Qed.

  (** the source *)
  Let D t := map dp (preimage t).
  Lemma D_conv t : m <> Ime -> kana_result m t -> conv m (D t) = t.
  Proof. intros M R. unfold D. rewrite conv_dp. now apply preimage_conv. Qed.
  Lemma yaiuo_kind x : In x (u "yaiuo") -> x < 128 /\ ascii_lower x = x /\ dp x = x.
  Proof.
    intro I. assert (T : forallb (fun x => (x <? 128) && (ascii_lower x =? x) && (dp x =? x)) (u "yaiuo") = true) by (vm_compute; reflexivity).
    rewrite forallb_forall in T. specialize (T x I). rewrite !andb_true_iff in T. destruct T as ((T1 & T2) & T3). apply N.ltb_lt in T1. apply N.eqb_eq in T2, T3. auto.
  Qed.
  Lemma D_chars t x : ~ In (ch "ッ") t -> In x (D t) ->
    (In x (lo t) /\ ~ In x (u "。、：！？〜［］（）｛｝「」『』")) \/ (exists c, In c (lo t) /\ In (c, x) marks) \/ In x (u "yaiuo").
  Proof.
    intros S I. apply in_map_iff in I. destruct I as (c & <- & I). destruct (preimage_chars c t S I) as [J|J].
    - destruct (dp_cases c) as [[X _]|[-> X]]; [right; left; eauto|left; auto].
    - right. right. now rewrite (proj2 (proj2 (yaiuo_kind c J))).
  Qed.
  Lemma quote_caseless d : smart_quote d -> caseless d = true.
  Proof. unfold smart_quote, caseless. change (u "‘’“”") with [0x2018; 0x2019; 0x201C; 0x201D]. cbn [In]. lia. Qed.
  Lemma D_lowered t : ~ In (ch "ッ") t -> lowered E t -> lowered E (D t).
  Proof.
    intros S Lt x I. destruct (D_chars t x S I) as [[J _]|[(c & J & K)|J]].
    - apply Lt. now apply lo_sub.
    - destruct (mark_kind c x K) as (A & _ & B & _). apply caseless_lowered; [exact HE| |exact B]. destruct A as [A|A]; [now left|right; now apply quote_caseless].
    - destruct (yaiuo_kind x J) as (A & B & _). apply caseless_lowered; auto.
  Qed.
  Lemma L_lowered t : L t = t -> lowered E t.
  Proof. intros Q c I. rewrite <- Q in I. revert c I. apply to_lowercase_lowered, HE. Qed.
  Lemma D_keeps t x : In x (lo t) -> ~ In x (u "。、：！？〜［］（）｛｝「」『』") -> In x (D t).
  Proof.
    intros I N. destruct (dp_cases x) as [[_ X]|[Q _]]; [contradiction|]. unfold D. rewrite <- Q. apply in_map. now apply preimage_lo.
  Qed.
  Lemma kana_no_mark x : S_kana x -> ~ In x (u "。、：！？〜［］（）｛｝「」『』").
  Proof.
    intros K I. assert (T : forallb (fun x => negb (kana_b x)) (u "。、：！？〜［］（）｛｝「」『』") = true) by (vm_compute; reflexivity).
    rewrite forallb_forall in T. specialize (T x I). apply kana_b_spec in K. rewrite K in T. discriminate T.
  Qed.
  Lemma romaji_no_mark x : S_romaji x -> ~ In x (u "。、：！？〜［］（）｛｝「」『』").
  Proof.
    intros K I. assert (T : forallb (fun x => negb (is_char_romaji x)) (u "。、：！？〜［］（）｛｝「」『』") = true) by (vm_compute; reflexivity).
    rewrite forallb_forall in T. specialize (T x I). apply romaji_spec in K. rewrite K in T. discriminate T.
  Qed.
  Lemma romaji_no_kana1 x : S_romaji x -> ~ S_kana x.
  Proof. intros R K. apply kana_3041 in K. pose proof (romaji_small x R). lia. Qed.
  Lemma D_mixed t : has S_kana (lo t) -> has S_romaji t -> mixed_text (D t).
  Proof.
    intros (a & A & Ka) (b & B & Kb). split.
    - exists a. split; [|exact Ka]. apply D_keeps; [exact A|now apply kana_no_mark].
    - exists b. split; [|exact Kb]. apply D_keeps; [|now apply romaji_no_mark]. apply lo_keeps; [exact B|now apply romaji_no_kana1].
  Qed.
  Lemma D_some t : t <> [] -> D t <> [].
  Proof. destruct t as [|c t]; [congruence|]. intros _. unfold D. destruct (preimage_head c t) as (r & ->). discriminate. Qed.
  Lemma D_romaji t : ~ In (ch "ッ") t -> t <> [] -> from_romaji (lo t) -> all_nonempty S_romaji (D t).
  Proof.
    intros S N F. split; [now apply D_some|]. intros x I. destruct (D_chars t x S I) as [[J X]|[(c & J & K)|J]].
    - destruct (F x J) as [R|R]; [exact R|]. exfalso. apply X. change (u "。、：！？〜［］（）｛｝「」『』") with (u "。、：！？〜［］（）｛｝" ++ u "「」『』"). apply in_or_app. now left.
    - destruct (F c J) as [R|R].
      + exfalso. destruct (mark_kind c x K) as (_ & _ & _ & _ & Z & _). contradiction.
      + left. assert (T : forallb (fun e => negb (existsb (N.eqb (fst e)) (u "。、：！？〜［］（）｛｝")) || (snd e <=? 0x7F)) marks = true) by (vm_compute; reflexivity).
        rewrite forallb_forall in T. specialize (T _ K). cbn [fst snd] in T. rewrite (proj2 (existsb_In _ _) R) in T. now apply N.leb_le in T.
    - left. destruct (yaiuo_kind x J) as (A & _). lia.
  Qed.

  Lemma ime_result t : m = Ime -> kana_result m t -> untouched m t.
  Proof.
    intros M R x b k v y Q C I. destruct (R x b k v y Q C I) as [K _]. exfalso. rewrite M, K in I. exact (ime_no_n _ I).
  Qed.
  Lemma read_dec_kata t : (all_nonempty S_romaji t \/ mixed_text t) \/ ~ (all_nonempty S_romaji t \/ mixed_text t).
  Proof.
    destruct (is_romaji t || is_mixed t) eqn:R; [left|right]; rewrite <- romaji_text_spec, <- mixed_spec, <- orb_true_iff; congruence.
  Qed.
  Theorem kata_sufficient t : (forall c, In c t -> ~ hiragana_letter c) ->
    (all_nonempty S_romaji t \/ mixed_text t -> L t = t /\ read_result m from_romaji t) -> exists s, kata_pure E o s = t.
  Proof.
    intros H R. destruct (read_dec_kata t) as [Rt|Rt].
    2: { exists t. apply kata_fixed_exact; [exact HE|exact P|]. split; [exact H|]. intro Z. contradiction. }
    destruct (R Rt) as (Lt & K & A). assert (m = Ime \/ m <> Ime) as [M|M] by (destruct m; auto; right; discriminate).
    { exists t. apply kata_fixed_exact; [exact HE|exact P|]. split; [exact H|]. intros _. split; [exact Lt|]. fold m. now apply ime_result. }
    assert (Hi : h2k (map hi t) = t).
    { unfold h2k. rewrite map_map. rewrite (map_ext _ h2k_char h2k_hi). now apply h2k_fixed. }
    assert (Kh : kana_result m (map hi t)) by (apply result_map; [exact rs_hi|exact hi_after|exact K]).
    assert (S : ~ In (ch "ッ") (map hi t)).
    { intro I. apply in_map_iff in I. destruct I as (c & Q & I). destruct (hi_cases c) as [[Z X]|(X & Z & _)].
      - apply X. rewrite <- Z, Q. now left.
      - rewrite Z in Q. revert X Q. change (u "ッヤイユヨ") with [0x30C3; 0x30E4; 0x30A4; 0x30E6; 0x30E8]. change (ch "ッ") with 0x30C3. cbn [In]. lia. }
    assert (Lh : lowered E (map hi t)).
    { intros x I. apply in_map_iff in I. destruct I as (c & <- & I). destruct (hi_cases c) as [[-> _]|(_ & _ & _ & Z & _)]; [now apply L_lowered with (t := t)|].
      apply ok_lower_caseless; [exact HE|]. revert Z. unfold S_hiragana, between, caseless. lia. }
    exists (D (map hi t)).
    assert (Rd : all_nonempty S_romaji (D (map hi t)) \/ mixed_text (D (map hi t))).
    { specialize (A M (lo t) (apart_lo t)). destruct A as [A|A].
      - right. apply D_mixed.
        + rewrite lo_hi by exact H. destruct A as (c & I & Kc). exists (hi c). split; [now apply in_map|]. now apply (rs_kana hi rs_hi).
        + assert (Rs : has S_romaji t).
          { destruct Rt as [[N F]|[_ F]]; [|exact F]. destruct t as [|c t]; [congruence|]. exists c. split; [now left|]. apply F. now left. }
          destruct Rs as (c & I & Rc). exists c. split; [|exact Rc]. rewrite <- (rs_same hi rs_hi c) by now apply romaji_no_kana1. now apply in_map.
      - left. apply D_romaji; [exact S| |].
        + assert (N : t <> []). { intros ->. destruct Rt as [[N _]|[(c & [] & _) _]]. now apply N. } destruct t; [congruence|discriminate].
        + rewrite lo_hi by exact H. intros x I. apply in_map_iff in I. destruct I as (c & <- & I). destruct (hi_cases c) as [[-> _]|(_ & _ & Z & _)]; [now apply A|].
          exfalso. destruct (A c I) as [X|X]; [exact (romaji_no_kana1 c X Z)|]. apply (kana_no_mark c Z).
          change (u "。、：！？〜［］（）｛｝「」『』") with (u "。、：！？〜［］（）｛｝" ++ u "「」『』"). apply in_or_app. now left. }
    unfold kata_pure. rewrite P, k_tree_mode. fold m.
    assert (is_romaji (D (map hi t)) || is_mixed (D (map hi t)) = true) as -> by (apply orb_true_iff; now rewrite romaji_text_spec, mixed_spec).
    fold (conv m (to_lowercase E (D (map hi t)))). rewrite (lowered_same E _ HE) by now apply D_lowered. rewrite D_conv by assumption. exact Hi.
  Qed.

  (** to_hiragana *)
  Let reads t := mixed_text t \/ all_nonempty S_romaji t \/ starts_with_punct t.
  Lemma reads_dec t : reads t \/ ~ reads t.
  Proof.
    unfold reads. destruct (is_mixed t || (is_romaji t || first_punct t)) eqn:R; [left|right];
      rewrite <- first_punct_spec, <- romaji_text_spec, <- mixed_spec, <- !orb_true_iff; congruence.
  Qed.
  Lemma conv_L_lowered s : L (conv m (L s)) = conv m (L s).
  Proof. apply lowered_same; [exact HE|]. apply conv_lowered; [exact HE|]. now apply to_lowercase_lowered. Qed.
  Theorem hira_necessary s : let t := hira_pure E o s in reads t -> L t = t /\ read_result m from_hiragana t.
  Proof.
    cbv zeta. unfold hira_pure. rewrite P, k_tree_mode. fold m. fold (conv m (to_lowercase E s)). fold (conv m (to_lowercase E (k2h E false s))).
    fold (L s). fold (L (k2h E false s)).
    assert (F : forall x, has S_kana x \/ Forall S_romaji x -> L (conv m (L x)) = conv m (L x) /\ read_result m from_hiragana (conv m (L x))).
    { intros x K. split; [apply conv_L_lowered|]. split; [apply conv_result|]. intros M r A.
      destruct (read_form (fun c => c) x rs_id (fun c _ => eq_refl) K M r) as [Z|Z]; [now rewrite map_id|now left|right; now left]. }
    destruct (is_mixed s) eqn:Mx.
    - intros _. apply F. left. apply mixed_spec in Mx. destruct Mx as [(a & A & Ka) _].
      destruct (N.eq_dec a long_mark) as [->|Na].
      + destruct (existsb kana_b (k2h E false s)) eqn:B.
        { apply existsb_exists in B. destruct B as (x & X & B). exists x. split; [exact X|now apply kana_b_spec]. }
        exfalso. assert (Z : forall x, In x s -> x = long_mark \/ ~ S_kana x).
        { intros x X. destruct (N.eq_dec x long_mark) as [->|Nx]; [now left|]. right. intro K.
          apply not_true_iff_false in B. apply B. apply existsb_exists. exists (k2hc x). split; [now apply k2h_keeps|].
          apply kana_b_spec. now apply (proj2 (k2hc_kana x)). }
        assert (Q : k2h E false s = s).
        { apply k2h_no_katakana. intros x X. left. intro K. destruct (Z x X) as [->|N]; [unfold katakana_letter, long_mark in K; lia|].
          apply N. right. unfold katakana_letter in K. unfold S_katakana, between. lia. }
        rewrite Q in B. apply not_true_iff_false in B. apply B. apply existsb_exists. exists long_mark. split; [exact A|reflexivity].
      + exists (k2hc a). split; [now apply k2h_keeps|]. now apply (proj2 (k2hc_kana a)).
    - destruct (is_romaji s || first_punct s) eqn:R.
      + intros _. apply orb_prop in R. destruct R as [R|R].
        * apply F. right. apply romaji_text_spec in R. apply Forall_forall. exact (proj2 R).
        * apply first_punct_spec in R. destruct R as (c & r & -> & Pc). split; [apply conv_L_lowered|]. split; [apply conv_result|].
          intros M x A. apply apart_fun in A. subst x. destruct (punct_kind c Pc) as (Lc & _ & Cc & _ & Sc & _).
          destruct (lower_cons c r Sc) as (r' & ->). rewrite (caseless_lowered E c HE Cc Lc). cbn [app].
          destruct (punct_becomes m c r' Pc) as (x & y & -> & K). destruct (lo_head x y) as (z & ->). destruct K as [K|K].
          -- left. apply has_cons. now left.
          -- right. right. exists x, z. auto.
      + intro R'. exfalso. assert (Z : ScriptIdem.plain s = true) by (unfold ScriptIdem.plain; now rewrite Mx, R).
        apply (k2h_plain E false) in Z. unfold ScriptIdem.plain in Z. apply negb_true_iff, not_true_iff_false in Z. apply Z.
        rewrite !orb_true_iff, mixed_spec, romaji_text_spec, first_punct_spec. exact R'.
  Qed.

  Lemma no_small t : no_katakana t -> ~ In (ch "ッ") t.
  Proof. intros N I. destruct (N _ I) as [Z|[Z|Z]]; [|discriminate Z..]. apply Z. unfold katakana_letter. change (ch "ッ") with 0x30C3. lia. Qed.
  Lemma D_no_katakana t : no_katakana t -> no_katakana (D t).
  Proof.
    intros N x I. destruct (D_chars t x (no_small t N) I) as [[J _]|[(c & J & K)|J]]; [apply N; now apply lo_sub| |].
    - left. destruct (mark_kind c x K) as (A & _). unfold katakana_letter. destruct A as [A|A]; [lia|]. revert A. unfold smart_quote.
      change (u "‘’“”") with [0x2018; 0x2019; 0x201C; 0x201D]. cbn [In]. lia.
    - left. destruct (yaiuo_kind x J) as (A & _). unfold katakana_letter. lia.
  Qed.
  Lemma D_punct t : from_punct (lo t) -> starts_with_punct (D t).
  Proof.
    intros (c & r & Q & K). destruct t as [|a t]; [discriminate Q|]. destruct (lo_head a t) as (r' & Q'). rewrite Q' in Q. injection Q as -> _.
    destruct (preimage_head c t) as (z & Qz). unfold D. rewrite Qz. cbn [map]. exists (dp c), (map dp z). split; [reflexivity|].
    destruct (dp_cases c) as [[X _]|[-> X]]; [now apply (mark_kind c)|]. destruct K as [K|K]; [exact K|contradiction].
  Qed.
  Theorem hira_sufficient t : no_katakana t -> (reads t -> L t = t /\ read_result m from_hiragana t) -> exists s, hira_pure E o s = t.
  Proof.
    intros N R. destruct (reads_dec t) as [Rt|Rt].
    2: { exists t. apply hira_fixed_exact; [exact HE|exact P|]. split; [exact N|]. intro Z. contradiction. }
    destruct (R Rt) as (Lt & K & A). assert (m = Ime \/ m <> Ime) as [M|M] by (destruct m; auto; right; discriminate).
    { exists t. apply hira_fixed_exact; [exact HE|exact P|]. split; [exact N|]. intros _. split; [exact Lt|]. fold m. now apply ime_result. }
    pose proof (no_small t N) as S. exists (D t).
    assert (Ld : L (D t) = D t) by (apply lowered_same; [exact HE|]; apply D_lowered; [exact S|now apply L_lowered]).
    assert (Rd : reads (D t)).
    { destruct (A M (lo t) (apart_lo t)) as [Z|[Z|Z]].
      - left. apply D_mixed; [exact Z|]. destruct Rt as [[_ Y]|[[Y X]|(c & r & -> & Y)]]; [exact Y| |].
        + destruct t as [|c t]; [congruence|]. exists c. split; [now left|]. apply X. now left.
        + exists c. split; [now left|]. destruct (punct_kind c Y) as (Lc & _ & _ & [X|X] & _); [exact X|]. exfalso.
          destruct (Fixed.quote_entry m c X) as (v & I). destruct (K [] [c] [c] v r eq_refl) as [Q _]; [apply casing_low; cbn; now rewrite Lc|exact I|].
          injection Q as ->. revert X. vm_compute. intuition discriminate.
      - right. left. apply D_romaji; [exact S| |exact Z]. intros ->. destruct Rt as [[(c & [] & _) _]|[[Y _]|(c & r & Y & _)]]; [now apply Y|discriminate Y].
      - right. right. now apply D_punct. }
    unfold hira_pure. rewrite P, k_tree_mode. fold m. rewrite (k2h_no_katakana E false (D t)) by now apply D_no_katakana.
    fold (conv m (to_lowercase E (D t))). fold (L (D t)). rewrite Ld, D_conv by assumption.
    destruct (is_mixed (D t)) eqn:Mx; [reflexivity|].
    assert (is_romaji (D t) || first_punct (D t) = true) as ->; [|reflexivity].
    rewrite orb_true_iff, romaji_text_spec, first_punct_spec. destruct Rd as [Rd|Rd]; [|exact Rd]. exfalso. apply mixed_spec in Rd. congruence.
  Qed.

  (** ** With katakana in it *)
  Definition unquote (c : N) : N := match find (fun e => snd e =? c) marks with Some e => fst e | None => c end.
  Lemma quote_marks c : smart_quote c -> In (unquote c, c) marks /\ In (unquote c) (u "「」『』").
  Proof.
    intro I. assert (T : forallb (fun c => existsb (fun e => (fst e =? unquote c) && (snd e =? c)) marks && existsb (N.eqb (unquote c)) (u "「」『』")) (u "‘’“”") = true) by (vm_compute; reflexivity).
    rewrite forallb_forall in T. specialize (T c I). apply andb_prop in T. destruct T as [T1 T2]. apply existsb_In in T2. split; [|exact T2].
    apply existsb_exists in T1. destruct T1 as ([a b] & J & Q). cbn [fst snd] in Q. apply andb_prop in Q. destruct Q as [Q1 Q2]. apply N.eqb_eq in Q1, Q2. now subst a b.
  Qed.
  Definition uq (c : N) : N := if existsb (N.eqb c) (u "‘’“”") then unquote c else c.
  Lemma caseless_128 c : caseless c = true -> 128 <= c.
  Proof. unfold caseless. lia. Qed.
  Lemma conv_caseless y : (forall c, In c y -> caseless c = true) -> conv m y = map uq y.
  Proof.
    induction y as [|c y IH]; intro H; [apply kconv_nil|]. specialize (IH (fun x I => H x (or_intror I))). cbn [map]. unfold uq at 1.
    destruct (existsb (N.eqb c) (u "‘’“”")) eqn:B.
    - apply existsb_In in B. destruct (quote_marks c B) as [J _]. pose proof (conv_mark m (unquote c) c [] y J) as Q. cbn [app] in Q. rewrite Q, kconv_nil, IH. reflexivity.
    - rewrite <- not_true_iff_false, existsb_In in B. assert (Nk : in_no_key m c) by (apply non_ascii_in_no_key; [apply caseless_128, H; now left|exact B]).
      pose proof (conv_boundary m c y Nk []) as Q. cbn [app] in Q. rewrite Q, kconv_nil, IH. reflexivity.
  Qed.
  Lemma uq_caseless c : caseless c = true -> caseless (uq c) = true /\ ~ smart_quote (uq c).
  Proof.
    intro C. unfold uq. destruct (existsb (N.eqb c) (u "‘’“”")) eqn:B.
    - apply existsb_In in B. destruct (quote_marks c B) as [_ J]. revert J. generalize (unquote c). intros d J.
      assert (T : forallb (fun d => caseless d && negb (existsb (N.eqb d) (u "‘’“”"))) (u "「」『』") = true) by (vm_compute; reflexivity).
      rewrite forallb_forall in T. specialize (T d J). apply andb_prop in T. destruct T as [T1 T2]. apply negb_true_iff in T2.
      rewrite <- not_true_iff_false, existsb_In in T2. auto.
    - rewrite <- not_true_iff_false, existsb_In in B. auto.
  Qed.
  Theorem hira_katakana_image t : (exists c, In c t /\ plain_katakana c) ->
    (exists s, ascii_or_caseless s /\ hira_pure E o s = t) <->
    (exists q r, t = q :: r /\ In q (u "「」『』")) /\ forall c, In c t -> caseless c = true /\ ~ smart_quote c.
  Proof.
    intros K. split.
    - intros (s & A & Q). rewrite <- Q in K. apply (proj1 (hira_katakana_exact E o s HE)) in K. destruct K as (_ & Nm & (q & r & -> & Sq) & a & Ia & Ka).
      assert (C : forall c, In c (q :: r) -> caseless c = true).
      { intros c I. destruct (A c I) as [Z|Z]; [|exact Z]. exfalso. apply Nm. split.
        - exists a. split; [exact Ia|]. right. destruct Ka as [Ka _]. unfold katakana_letter in Ka. unfold S_katakana, between. lia.
        - exists c. split; [exact I|]. left. lia. }
      assert (F : first_punct (q :: r) = true) by (unfold first_punct; cbn; now apply quote_punct).
      unfold hira_pure in Q. rewrite <- mixed_spec in Nm. apply not_true_iff_false in Nm. rewrite P, Nm, F, orb_true_r, k_tree_mode in Q. fold m in Q.
      fold (conv m (to_lowercase E (q :: r))) in Q. rewrite (lowered_same E _ HE) in Q by (intros c I; apply ok_lower_caseless; auto).
      rewrite conv_caseless in Q by exact C. subst t. split.
      + exists (uq q), (map uq r). split; [reflexivity|]. unfold uq. assert (existsb (N.eqb q) (u "‘’“”") = true) as -> by now apply existsb_In. now apply quote_marks.
      + intros c I. apply in_map_iff in I. destruct I as (x & <- & I). apply uq_caseless. now apply C.
    - intros [(q & r & -> & Iq) C].
      assert (exists q', smart_quote q' /\ unquote q' = q /\ caseless q' = true) as (q' & Sq & Q & Cq).
      { assert (T : forallb (fun q => existsb (fun q' => (unquote q' =? q) && caseless q') (u "‘’“”")) (u "「」『』") = true) by (vm_compute; reflexivity).
        rewrite forallb_forall in T. specialize (T q Iq). apply existsb_exists in T. destruct T as (q' & J & T). apply andb_prop in T. destruct T as [T1 T2].
        apply N.eqb_eq in T1. exists q'. auto. }
      assert (C' : forall c, In c (q' :: r) -> caseless c = true) by (intros c [<-|I]; [exact Cq|now apply C; right]).
      exists (q' :: r). split; [intros c I; right; now apply C'|].
      assert (Nm : is_mixed (q' :: r) = false).
      { apply not_true_iff_false. rewrite mixed_spec. intros [_ (c & I & R)]. apply C' in I. revert R. unfold S_romaji.
        change (u "ĀāĒēĪīŌōŪū") with [256;257;274;275;298;299;332;333;362;363]. unfold caseless in I. cbn [In]. lia. }
      assert (F : first_punct (q' :: r) = true) by (unfold first_punct; cbn; now apply quote_punct).
      unfold hira_pure. rewrite P, Nm, F, orb_true_r, k_tree_mode. fold m. fold (conv m (to_lowercase E (q' :: r))).
      rewrite (lowered_same E _ HE) by (intros c I; apply ok_lower_caseless; auto). rewrite conv_caseless by exact C'. cbn [map]. f_equal.
      + unfold uq. assert (existsb (N.eqb q') (u "‘’“”") = true) as -> by now apply existsb_In. exact Q.
      + rewrite <- (map_id r) at 2. apply map_ext_in. intros c I. unfold uq. destruct (existsb (N.eqb c) (u "‘’“”")) eqn:B; [|reflexivity].
        exfalso. apply existsb_In in B. exact (proj2 (C c (or_intror I)) B).
  Qed.
End Results.
