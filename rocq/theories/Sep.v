(** * Words that separate the conversion of a text to kana (C98) *)
From Verif Require Import Tac Base Std Constants Chars Trees KanaTree Strings Convert
  KanaPure KanaSpec KanaDict KanaProofs MoraProofs Splits KanaJoinSpec KanaJoin Local Predicates TokenSpec FixedSpec Fixed SepSpec.

Definition vowels : str := u "aiueo".
Definition long_ends (m : mode) : bool :=
  forallb (fun e => match fst e with
     | [] | [_] => true
     | k => existsb (N.eqb (last k 0)) vowels || existsb (str_eqb k) [u "xn"; u "n'"] ||
            match m with Ime => existsb (str_eqb k) [u "nn"; u "n "] | _ => false end end) (dict m).
Lemma long_ends_true m : long_ends m = true.
Proof. destruct m; vm_compute; reflexivity. Qed.
(** how keys of two and more characters end *)
Lemma key_last m a k c v : entry m (a :: k ++ [c]) v ->
  In c vowels \/ (a = ch "x" /\ k = [] /\ c = ch "n") \/ (a = ch "n" /\ k = [] /\ c = ch "'") \/
  (m = Ime /\ a = ch "n" /\ k = [] /\ (c = ch "n" \/ c = ch " ")).
Proof.
  intro I. pose proof (long_ends_true m) as F. unfold long_ends in F. rewrite forallb_forall in F. specialize (F _ I). cbn [fst] in F.
  assert (T : forall a0 c0, str_eqb (a :: k ++ [c]) [a0; c0] = true -> a = a0 /\ k = [] /\ c = c0).
  { intros a0 c0 Q. apply str_eqb_eq in Q. injection Q as -> Q. destruct k as [|d k]; [now injection Q as ->|]. destruct k; discriminate. }
  destruct (k ++ [c]) as [|d r] eqn:Q; [now destruct k|]. change (a :: d :: r) with ((a :: []) ++ d :: r) in F. rewrite <- Q in F.
  rewrite app_assoc, last_last, <- app_assoc in F. cbn [app existsb] in F. rewrite !orb_false_r in F.
  rewrite <- Q in T. apply orb_prop in F. destruct F as [F|F].
  - apply orb_prop in F. destruct F as [F|F]; [left; now apply existsb_In in F|]. apply orb_prop in F.
    destruct F as [F|F]; apply T in F; auto.
  - destruct m; try discriminate. apply orb_prop in F. right; right; right. destruct F as [F|F]; apply T in F; destruct F as (-> & -> & ->); auto.
Qed.
Lemma vowel_key m c : In c vowels -> exists v, entry m [c] v.
Proof.
  intro I. assert (F : forallb (fun c => existsb (fun e => str_eqb (fst e) [c]) (dict m)) vowels = true) by (destruct m; vm_compute; reflexivity).
  rewrite forallb_forall in F. specialize (F c I). apply existsb_exists in F. destruct F as ((k & v) & J & K). apply str_eqb_eq in K. cbn in K. subst k. now exists v.
Qed.
Lemma untouched_vowel m w c : untouched m w -> In c w -> ~ In (ascii_lower c) vowels.
Proof.
  intros U I V. apply in_split in I. destruct I as (x & y & ->). destruct (vowel_key m _ V) as (v & K).
  destruct (U x [c] [ascii_lower c] v y eq_refl) as [Q _]; [now apply casing_low|exact K|]. injection Q as Q. rewrite Q in V.
  apply existsb_In in V. discriminate.
Qed.
Lemma cons_key m c : In c cons -> c <> ch "n" -> exists k v, k <> [] /\ entry m (c :: k) v.
Proof.
  intros I N. assert (F : forallb (fun c => (c =? ch "n") || existsb (fun e => match fst e with a :: _ :: _ => a =? c | _ => false end) (dict m)) cons = true) by (destruct m; vm_compute; reflexivity).
  rewrite forallb_forall in F. specialize (F c I). apply orb_prop in F. destruct F as [F|F]; [apply N.eqb_eq in F; contradiction|].
  apply existsb_exists in F. destruct F as ((k & v) & J & K). cbn in K. destruct k as [|a [|d k]]; try discriminate. apply N.eqb_eq in K. subst a.
  exists (d :: k), v. split; [discriminate|exact J].
Qed.
Lemma entry_low m k v : entry m k v -> low k = k.
Proof.
  intro I. assert (F : forallb (fun e => str_eqb (low (fst e)) (fst e)) (dict m) = true) by (destruct m; vm_compute; reflexivity).
  rewrite forallb_forall in F. specialize (F _ I). now apply str_eqb_eq.
Qed.
Lemma consonant_isc c : consonant c <-> isc c.
Proof.
  unfold consonant, isc. split; [intros (d & L & I); apply lowers_lower in L; now rewrite L|]. intro I. exists (ascii_lower c). split; [now apply lowers_lower|exact I].
Qed.
Lemma quote_low c : ascii_lower c = ch "'" -> c = ch "'".
Proof. unfold ascii_lower. change (ch "'") with 0x27. intro H. ifs_in H; lia. Qed.
Lemma space_low c : ascii_lower c = ch " " -> c = ch " ".
Proof. unfold ascii_lower. change (ch " ") with 0x20. intro H. ifs_in H; lia. Qed.

Lemma y_low c : y_letter c <-> ascii_lower c = ch "y".
Proof.
  unfold y_letter. split; [intros [-> | ->]; reflexivity|]. unfold ascii_lower. change (ch "y") with 0x79. intro H. ifs_in H; lia.
Qed.

(** ** Nothing goes on into the word *)
Lemma no_join_into m x c w : untouched m (c :: w) -> ~ goes_on m c -> ~ joins m x (c :: w).
Proof.
  intros U G [(x1 & b & b' & y' & k & v & -> & Q & N & N' & Nn & K & I)|[(O & M & d & z' & Q & D)|(O & -> & b' & z' & k & v & Q & K & I)]].
  - apply casing_low in K. subst k. destruct (exists_last N') as (b1 & e & ->). destruct b as [|a b]; [congruence|]. rewrite app_assoc, low_snoc in I.
    cbn [app low map] in I. apply key_last in I. destruct I as [V|[(A & B & C)|[(A & B & _)|(_ & A & B & _)]]].
    + apply (untouched_vowel m (c :: w) e U); [|exact V]. rewrite Q. apply in_or_app. left. apply in_or_app. right. now left.
    + apply map_eq_nil in B. apply app_eq_nil in B. destruct B as [-> ->]. injection Q as -> _. apply G. left. now apply n_letter_low.
    + apply map_eq_nil in B. apply app_eq_nil in B. destruct B as [-> ->]. apply (Nn a eq_refl). now apply n_letter_low.
    + apply map_eq_nil in B. apply app_eq_nil in B. destruct B as [-> ->]. apply (Nn a eq_refl). now apply n_letter_low.
  - injection Q as -> ->. destruct D as (e & L & I). apply lowers_lower in L. subst e. destruct I as [I|I]; [apply G; right; left; now apply quote_low|].
    destruct (existsb (N.eqb (ascii_lower d)) vowels) eqn:B.
    + apply existsb_In in B. now apply (untouched_vowel m (d :: z') d U); [left|].
    + apply G. right; right. assert (ascii_lower d = ch "y") as Y.
      { repeat (destruct I as [I|I]; [rewrite <- I in B; discriminate B || exact (eq_sym I)|]). destruct I. }
      destruct m; [| |congruence]; now apply y_low.
  - apply casing_low in K. subst k. assert (N' : b' <> []). { intros ->. now apply ime_no_n in I. } destruct (exists_last N') as (b1 & e & ->).
    rewrite low_snoc in I. apply key_last in I. destruct I as [V|[(A & _)|[(_ & B & C)|(_ & _ & B & C)]]]; [|discriminate| |].
    + apply (untouched_vowel Ime (c :: w) e U); [|exact V]. rewrite Q. apply in_or_app. left. apply in_or_app. right. now left.
    + apply map_eq_nil in B. subst b1. injection Q as -> _. apply G. right; left. now apply quote_low.
    + apply map_eq_nil in B. subst b1. injection Q as -> _. apply G. destruct C as [C|C]; [left; now apply n_letter_low|right; right; now apply space_low].
Qed.

(** ** The words *)
Lemma conv_join m q s : q <> [] -> s <> [] -> joins m q s -> conv m (q ++ s) <> conv m q ++ conv m s.
Proof.
  intros Nq Ns J Q. assert (F : Forall (fun t : str => t <> []) [s]) by (constructor; [exact Ns|constructor]).
  pose proof (proj1 (parts_conv m q [s] F)) as H. cbn [concat map] in H. rewrite !app_nil_r in H. specialize (H Q [] s [] eq_refl). cbn [concat] in H.
  rewrite app_nil_r in H. contradiction.
Qed.
Theorem conv_separates m w : (forall x y, conv m (x ++ w ++ y) = conv m x ++ w ++ conv m y) <->
  w <> [] /\ untouched m w /\ (forall c w', w = c :: w' -> ~ goes_on m c) /\ (forall w' c, w = w' ++ [c] -> ~ consonant c).
Proof.
  split.
  - intro H. assert (W : conv m w = w) by (specialize (H [] []); cbn [app] in H; change (conv m []) with (@nil N) in H; rewrite !app_nil_r in H; exact H).
    assert (L : forall x, conv m (x ++ w) = conv m x ++ w) by (intro x; specialize (H x []); change (conv m []) with (@nil N) in H; rewrite !app_nil_r in H; exact H).
    assert (R : forall y, conv m (w ++ y) = w ++ conv m y) by (intro y; exact (H [] y)). assert (U : untouched m w) by now apply kana_fixed.
    assert (NE : w <> []). { intros ->. specialize (H (u "k") (u "a")). destruct m; vm_compute in H; discriminate H. }
    split; [exact NE|]. split; [exact U|].
    assert (JL : forall x, x <> [] -> ~ joins m x w).
    { intros x Nx J. apply (conv_join m x w Nx NE J). now rewrite L, W. }
    assert (JR : forall y, y <> [] -> ~ joins m w y).
    { intros y Ny J. apply (conv_join m w y NE Ny J). now rewrite R, W. }
    split.
    + intros c w' -> G. assert (On : open_n m (u "n")) by (apply open_one; now left). destruct G as [G|[->|G]].
      * apply (JL (u "x")); [discriminate|]. left. exists [], (u "x"), [c], w', (u "xn"), (u "ん"). split; [reflexivity|]. split; [reflexivity|].
        split; [discriminate|]. split; [discriminate|]. split; [intros d [= <-] [Z|Z]; discriminate Z|]. split; [|apply xn_key].
        apply casing_low. apply n_letter_low in G. change (low (u "x" ++ [c])) with [ch "x"; ascii_lower c]. now rewrite G.
      * apply (JL (u "n")); [discriminate|]. destruct m.
        1,2: right; left; split; [exact On|]; split; [discriminate|]; exists (ch "'"), w'; split; [reflexivity|]; exists (ch "'"); split; [now apply lowers_lower|now left].
        right; right. split; [exact On|]. split; [reflexivity|]. exists (u "'"), w', (u "'"), (u "ん"). split; [reflexivity|]. split; [now apply casing_low|].
        apply pair_mem_In. vm_compute. reflexivity.
      * apply (JL (u "n")); [discriminate|]. destruct m.
        1,2: right; left; split; [exact On|]; split; [discriminate|]; exists c, w'; split; [reflexivity|]; exists (ch "y"); split; [apply lowers_lower; now apply y_low|vm_compute; auto 10].
        right; right. subst c. split; [exact On|]. split; [reflexivity|]. exists (u " "), w', (u " "), (u "ん"). split; [reflexivity|]. split; [now apply casing_low|].
        apply pair_mem_In. vm_compute. reflexivity.
    + intros w' c -> C. apply consonant_isc in C. destruct (n_dec c) as [Nc|Nc].
      * (* an n at the end begins a key *)
        destruct (open_dec m (w' ++ [c])) as [O|O].
        -- apply (JR (u "a")); [discriminate|]. destruct m.
           1,2: right; left; split; [exact O|]; split; [discriminate|]; exists (ch "a"), []; split; [reflexivity|]; exists (ch "a"); split; [now apply lowers_lower|vm_compute; auto].
           right; right. split; [exact O|]. split; [reflexivity|]. exists (u "a"), [], (u "a"), (u "な"). split; [reflexivity|]. split; [now apply casing_low|].
           apply pair_mem_In. vm_compute. reflexivity.
        -- assert (C' := Nc). apply n_letter_low in C'. rewrite open_snoc in O. destruct (ends_dec x_letter w' x_dec) as [(w1 & d & -> & X)|X].
           ++ apply x_letter_low in X. destruct (U w1 [d; c] (u "xn") (u "ん") []) as [Z _]; [now rewrite <- app_assoc, app_nil_r| |apply xn_key|discriminate].
              apply casing_low. cbn [low map]. now rewrite X, C'.
           ++ destruct m; [exfalso; apply O; repeat split; auto; discriminate..|]. destruct (open_dec Ime w') as [(x0 & run & -> & Nr & Fr & _)|O'].
              ** destruct (exists_last Nr) as (r & d & ->). apply Forall_app in Fr. destruct Fr as [_ Fr]. inversion Fr as [|? ? D _]; subst. apply n_letter_low in D.
                 destruct (U (x0 ++ r) [d; c] (u "nn") (u "ん") []) as [Z _]; [now rewrite <- !app_assoc| |apply nn_key|discriminate].
                 apply casing_low. cbn [low map]. now rewrite D, C'.
              ** apply O. auto.
      * destruct (cons_key m (ascii_lower c) C) as (k & v & Nk & I); [intro Z; apply Nc; now apply n_letter_low|].
        assert (Lk : low k = k). { pose proof (entry_low _ _ _ I) as Q. cbn in Q. now injection Q. }
        apply (JR k Nk). left. exists w', [c], k, [], (ascii_lower c :: k), v. split; [reflexivity|]. split; [now rewrite app_nil_r|]. split; [discriminate|].
        split; [exact Nk|]. split; [intros d [= <-]; exact Nc|]. split; [|exact I]. apply casing_low. cbn [app low map]. f_equal. exact Lk.
  - intros (NE & U & F & La) x y. assert (W : conv m w = w) by now apply kana_fixed.
    destruct (exists_last NE) as (w' & c & Q). specialize (La _ _ Q).
    rewrite app_assoc. rewrite (conv_cut m (x ++ w) y).
    + rewrite (conv_cut m x w); [now rewrite W, app_assoc|]. destruct w as [|d w0]; [congruence|]. apply no_join_into; [exact U|]. now apply (F d w0).
    + rewrite Q, app_assoc. apply cut_after. intro C. apply La. now apply consonant_isc.
Qed.
