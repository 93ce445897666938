(** * Exact conditions (C08, C13) *)
From Verif Require Import Tac Base Std Constants Chars Trees KanaTree Strings Convert
  KanaPure KanaSpec KanaDict KanaProofs Predicates ScriptSpec ScriptProofs MoraProofs Splits ExactSpec.

Lemma x_lower c : ascii_lower c = 0x78 <-> x_letter c.
Proof. unfold ascii_lower, x_letter. ifs; lia. Qed.

(** ** Keys with n or x after the first character *)
Definition n_inside (m : mode) : bool :=
  forallb (fun e => negb (existsb (N.eqb 0x6E) (tl (fst e))) || str_eqb (fst e) (u "xn")
                    || match m with Ime => str_eqb (fst e) (u "nn") | _ => false end) (dict m).
Lemma n_inside_ok m : n_inside m = true.
Proof. destruct m; vm_compute; reflexivity. Qed.
Definition x_inside (m : mode) : bool :=
  forallb (fun e => negb (existsb (N.eqb 0x78) (tl (fst e))) && negb (str_eqb (fst e) (u "x"))) (dict m).
Lemma x_inside_ok m : x_inside m = true.
Proof. destruct m; vm_compute; reflexivity. Qed.

Lemma in_tl {A} (b : list A) c r : b <> [] -> In c (tl (b ++ c :: r)).
Proof. destruct b as [|a b]; [congruence|]. intros _. cbn. apply in_or_app. right. now left. Qed.
Lemma key_n m b r v : b <> [] -> entry m (b ++ 0x6E :: r) v -> r = [] /\ (b = u "x" \/ m = Ime /\ b = u "n").
Proof.
  intros B I. pose proof (n_inside_ok m) as F. unfold n_inside in F. rewrite forallb_forall in F.
  specialize (F _ I). cbn [fst] in F. apply orb_prop in F. destruct F as [F|F]; [apply orb_prop in F; destruct F as [F|F]|].
  - exfalso. apply negb_true_iff in F. assert (T : existsb (N.eqb 0x6E) (tl (b ++ 0x6E :: r)) = true).
    { apply existsb_exists. exists 0x6E. split; [now apply in_tl|reflexivity]. }
    rewrite T in F. discriminate F.
  - apply str_eqb_eq in F. destruct b as [|a [|a' b]]; [congruence| |].
    + cbn in F. injection F as -> ->. auto.
    + cbn in F. injection F as _ _ F. destruct b; discriminate F.
  - destruct m; try discriminate F. apply str_eqb_eq in F. destruct b as [|a [|a' b]]; [congruence| |].
    + cbn in F. injection F as -> ->. auto.
    + cbn in F. injection F as _ _ F. destruct b; discriminate F.
Qed.
Lemma key_x m b r v : entry m (b ++ 0x78 :: r) v -> b = [] /\ r <> [].
Proof.
  intros I. pose proof (x_inside_ok m) as F. unfold x_inside in F. rewrite forallb_forall in F.
  specialize (F _ I). cbn [fst] in F. apply andb_prop in F. destruct F as [F1 F2].
  assert (B : b = []).
  { destruct b as [|a b]; [reflexivity|]. exfalso. apply negb_true_iff in F1.
    assert (T : existsb (N.eqb 0x78) (tl ((a :: b) ++ 0x78 :: r)) = true).
    { apply existsb_exists. exists 0x78. split; [now apply in_tl|reflexivity]. }
    rewrite T in F1. discriminate F1. }
  split; [exact B|]. subst b. intros ->. discriminate F2.
Qed.

Lemma viable_n m b n : n_letter n -> b <> [] -> viable m (b ++ [n]) ->
  exists c, b = [c] /\ (x_letter c \/ m = Ime /\ n_letter c).
Proof.
  intros N B (q & k & v & C & I). apply casing_low in C. subst q. apply n_lower in N.
  rewrite low_app in I. change (low [n]) with [ascii_lower n] in I. rewrite N, <- app_assoc in I.
  assert (B' : low b <> []) by (destruct b; [congruence|discriminate]).
  destruct (key_n m _ _ _ B' I) as [_ K].
  destruct b as [|c [|c' b]]; [congruence| |destruct K as [K|[_ K]]; discriminate K].
  exists c. split; [reflexivity|]. destruct K as [K|[-> K]]; cbn in K; injection K as K.
  - left. now apply x_lower.
  - right. split; [reflexivity|]. now apply n_lower.
Qed.

(** ** Splitting before n and x *)
Lemma split_n m p n y : n_letter n -> (forall p' c, p = p' ++ [c] -> ~ x_letter c /\ (m = Ime -> ~ n_letter c)) ->
  conv m (p ++ n :: y) = conv m p ++ conv m (n :: y).
Proof.
  intros N H. apply conv_split. intros a b c y' Q B E V. injection E as <- <-.
  destruct (viable_n m b n N B V) as (c & -> & K). destruct (H a c Q) as [H1 H2].
  destruct K as [K|[M K]]; [now apply H1|now apply H2].
Qed.
Lemma split_x m p x y : x_letter x -> conv m (p ++ x :: y) = conv m p ++ conv m (x :: y).
Proof.
  intros X. apply conv_split. intros a b c y' Q B E (q & k & v & C & I). injection E as <- <-.
  apply casing_low in C. subst q. apply x_lower in X. rewrite low_app in I. change (low [x]) with [ascii_lower x] in I.
  rewrite X, <- app_assoc in I. apply key_x in I. destruct I as [I _]. destruct b; [congruence|discriminate I].
Qed.
Lemma entry_xn m : entry m (u "xn") (u "ん") /\ unextended m (u "xn").
Proof.
  split; [|apply unextendedb_ok; destruct m; vm_compute; reflexivity].
  apply pair_mem_In. destruct m; vm_compute; reflexivity.
Qed.
Lemma entry_nn : entry Ime (u "nn") (u "ん") /\ unextended Ime (u "nn").
Proof. split; [|apply unextendedb_ok; vm_compute; reflexivity]. apply pair_mem_In. vm_compute. reflexivity. Qed.
Lemma casing2 a b k l : ascii_lower a = k -> ascii_lower b = l -> casing [a; b] [k; l].
Proof. intros <- <-. now apply casing_low. Qed.
Lemma conv_xn m x n y : x_letter x -> n_letter n -> conv m (x :: n :: y) = emit [x; n] (u "ん") ++ conv m y.
Proof.
  intros X N. destruct (entry_xn m) as [I U]. apply (conv_entry m [x; n] _ _ y I U).
  apply casing2; [now apply x_lower|now apply n_lower].
Qed.
Lemma conv_nn n n' y : n_letter n -> n_letter n' -> conv Ime (n :: n' :: y) = emit [n; n'] (u "ん") ++ conv Ime y.
Proof.
  intros X N. destruct entry_nn as [I U]. apply (conv_entry Ime [n; n'] _ _ y I U).
  apply casing2; now apply n_lower.
Qed.
Lemma conv_nns ns : Forall n_letter ns -> (exists j, length ns = 2 * j)%nat ->
  forall y, conv Ime (ns ++ y) = conv Ime ns ++ conv Ime y.
Proof.
  induction ns as [ns IH] using str_ind_len. intros F V y. destruct ns as [|n [|n' ns]]; [reflexivity| |].
  - exfalso. destruct V as [k V]. cbn in V. lia.
  - inversion F as [|? ? N F']; subst. inversion F' as [|? ? N' F'']; subst. cbn [app].
    rewrite !conv_nn by assumption. rewrite IH; [now rewrite app_assoc|cbn; lia|exact F''|].
    destruct V as [k V]. exists (k - 1)%nat. cbn [length] in V. lia.
Qed.
Lemma split_n_starts m p n y : n_starts m p -> n_letter n -> conv m (p ++ n :: y) = conv m p ++ conv m (n :: y).
Proof.
  intros H N. assert (D : m <> Ime -> (forall p' c, p = p' ++ [c] -> ~ x_letter c) -> conv m (p ++ n :: y) = conv m p ++ conv m (n :: y)).
  { intros M K. apply split_n; [exact N|]. intros p' c Q. split; [exact (K p' c Q)|contradiction]. }
  destruct m; [apply D; [discriminate|exact H]|apply D; [discriminate|exact H]|].
  destruct H as (q & ns & -> & F & V & H).
  assert (S : forall ns' y', Forall n_letter ns' -> (exists j, length ns' = 2 * j)%nat -> (ns' <> [] \/ exists n' y'', y' = n' :: y'' /\ n_letter n') ->
    conv Ime (q ++ ns' ++ y') = conv Ime q ++ conv Ime (ns' ++ y')).
  { intros ns' y' F' V' Z. assert (exists n' y'', ns' ++ y' = n' :: y'' /\ n_letter n') as (n' & y'' & -> & N').
    { destruct ns' as [|n' ns']; [destruct Z as [Z|Z]; [congruence|exact Z]|]. inversion F'; subst. exists n', (ns' ++ y'). auto. }
    destruct H as [(q' & x & n0 & -> & X & N0)|H].
    - rewrite <- app_assoc. cbn [app]. rewrite !(split_x Ime q' x) by exact X.
      rewrite !conv_xn by assumption. change (conv Ime []) with (@nil char). rewrite app_nil_r. now rewrite app_assoc.
    - apply split_n; [exact N'|]. intros p' c Q. destruct (H p' c Q). auto. }
  rewrite <- app_assoc, S by eauto. rewrite conv_nns by assumption.
  destruct ns as [|n0 ns]; [now rewrite app_nil_r|].
  assert (Z : n0 :: ns <> []) by (intro Z; discriminate Z).
  pose proof (S (n0 :: ns) [] F V (or_introl Z)) as S'. rewrite !app_nil_r in S'.
  now rewrite S', app_assoc.
Qed.

(** ** [n_starts] after a converted piece *)
Lemma snoc_cases {A} (p q q' : list A) c : p ++ q = q' ++ [c] ->
  (q = [] /\ p = q' ++ [c]) \/ exists q'', q = q'' ++ [c] /\ q' = p ++ q''.
Proof.
  destruct q as [|d q] using rev_ind.
  - rewrite app_nil_r. auto.
  - clear IHq. rewrite app_assoc. intro H. apply app_inj_tail in H. destruct H as [<- <-]. eauto.
Qed.
Lemma n_starts_nil m : n_starts m [].
Proof.
  destruct m; cbn; try (intros [|? p'] c Q; discriminate Q).
  exists [], []. split; [reflexivity|]. split; [constructor|]. split; [now exists 0%nat|]. right. intros [|? q'] c Q; discriminate Q.
Qed.
Lemma n_starts_app m seg p : n_starts m p ->
  (forall q c, seg = q ++ [c] -> p = [] \/ m = Ime /\ Forall n_letter p -> ~ x_letter c) ->
  (m = Ime -> Forall n_letter p -> forall q c, seg = q ++ [c] -> n_letter c ->
     (exists q' x, q = q' ++ [x] /\ x_letter x) \/ exists n, q = [n] /\ n_letter n) ->
  n_starts m (seg ++ p).
Proof.
  intros P X Nn. destruct m.
  - intros p' c Q. apply snoc_cases in Q. destruct Q as [[-> Q]|(q & Q & _)]; [apply (X p' c Q); auto|exact (P q c Q)].
  - intros p' c Q. apply snoc_cases in Q. destruct Q as [[-> Q]|(q & Q & _)]; [apply (X p' c Q); auto|exact (P q c Q)].
  - destruct P as (q & ns & -> & F & V & H). specialize (Nn eq_refl).
    destruct H as [(q' & x & n & -> & Hx & Hn)|H].
    + exists (seg ++ q' ++ [x; n]), ns. rewrite <- !app_assoc. split; [reflexivity|]. split; [exact F|]. split; [exact V|].
      left. exists (seg ++ q'), x, n. rewrite <- app_assoc. auto.
    + destruct q as [|d q] using rev_ind.
      * cbn [app] in *. specialize (Nn F). destruct seg as [|e seg] using rev_ind; [|].
        -- exists [], ns. split; [reflexivity|]. split; [exact F|]. split; [exact V|]. right. intros [|? q'] c Q; discriminate Q.
        -- clear IHseg. destruct (N.eq_dec (ascii_lower e) 0x6E) as [En|En].
           ++ apply n_lower in En. destruct (Nn seg e eq_refl En) as [(q' & x & -> & Hx)|(n & -> & Hn)].
              ** exists (q' ++ [x; e]), ns. split; [now rewrite <- !app_assoc|]. split; [exact F|]. split; [exact V|]. left. eauto 6.
              ** exists [], (n :: e :: ns). split; [reflexivity|]. split; [auto|]. split.
                 { destruct V as [k V]. exists (S k). cbn [length]. lia. }
                 right. intros [|? q'] c Q; discriminate Q.
           ++ exists (seg ++ [e]), ns. split; [reflexivity|]. split; [exact F|]. split; [exact V|]. right. intros q' c Q.
              pose proof Q as Q'. apply app_inj_tail in Q. destruct Q as [-> ->]. split; [apply (X q' c eq_refl); auto|].
              now rewrite <- n_lower.
      * clear IHq. exists (seg ++ q ++ [d]), ns. split; [now rewrite <- !app_assoc|]. split; [exact F|]. split; [exact V|].
        right. intros q' c Q. rewrite app_assoc in Q. apply app_inj_tail in Q. destruct Q as [_ ->]. apply (H q c eq_refl).
Qed.
Lemma n_starts_hit m seg v p : entry m (low seg) v -> n_starts m p -> n_starts m (seg ++ p).
Proof.
  intros I P. apply n_starts_app; [exact P| |].
  - intros q c -> _ X. apply x_lower in X. rewrite low_app in I. change (low [c]) with [ascii_lower c] in I. rewrite X in I.
    apply key_x in I. now destruct I.
  - intros -> _ q c -> N. apply n_lower in N. rewrite low_app in I. change (low [c]) with [ascii_lower c] in I. rewrite N in I.
    assert (q <> []).
    { intros ->. revert I. assert (T : existsb (fun e => str_eqb (fst e) (u "n")) (dict Ime) = false) by (vm_compute; reflexivity).
      intro I. assert (existsb (fun e => str_eqb (fst e) (u "n")) (dict Ime) = true) by (apply existsb_exists; eexists; split; [exact I|reflexivity]).
      congruence. }
    assert (B' : low q <> []) by (destruct q; [congruence|discriminate]).
    destruct (key_n Ime _ _ _ B' I) as [_ K].
    destruct q as [|d [|d' q]]; [congruence| |destruct K as [K|[_ K]]; discriminate K].
    destruct K as [K|[_ K]]; cbn in K; injection K as K.
    + left. exists [], d. split; [reflexivity|now apply x_lower].
    + right. exists d. split; [reflexivity|now apply n_lower].
Qed.
Lemma emit_one seg c r r' : emit seg (u "ん") ++ r = c :: r' -> c = 0x3093 \/ c = 0x30F3.
Proof. unfold emit. destruct (forallb is_AZ seg); intro H; injection H as <- _; auto. Qed.
Lemma n_starts_miss m c p n y : conv m (c :: p ++ n :: y) = c :: conv m (p ++ n :: y) -> n_letter n ->
  n_starts m p -> n_starts m (c :: p).
Proof.
  intros Q N P.
  assert (D : p = [] \/ m = Ime /\ Forall n_letter p -> exists n' y', p ++ n :: y = n' :: y' /\ n_letter n').
  { intro H. destruct p as [|d p]; [cbn; eauto|]. destruct H as [H|[_ F]]; [discriminate H|].
    inversion F; subst. cbn. eauto. }
  change (c :: p) with ([c] ++ p). apply n_starts_app; [exact P| |].
  - intros q c' S H X. destruct q as [|? [|? ?]]; try discriminate S. injection S as <-.
    destruct (D H) as (n' & y' & Q' & N'). rewrite Q', conv_xn in Q by assumption.
    apply emit_one in Q. unfold x_letter in X. lia.
  - intros -> F q c' S X. destruct q as [|? [|? ?]]; try discriminate S. injection S as <-. exfalso.
    destruct D as (n' & y' & Q' & N'); [auto|]. rewrite Q', conv_nn in Q by assumption.
    apply emit_one in Q. unfold n_letter in X. lia.
Qed.

(** ** C08 *)
Lemma entry_n_mark m d : d = ch "'" \/ m = Ime /\ d = ch " " ->
  entry m [0x6E; d] (u "ん") /\ unextended m [0x6E; d].
Proof.
  intros [->|[-> ->]]; (split; [|apply unextendedb_ok]); try (apply pair_mem_In); try destruct m; vm_compute; reflexivity.
Qed.
Lemma upper_text_exact m s : (forall c, In c s -> ~ lower_letter c /\ ~ hiragana_letter c) ->
  (exists c, In c (conv m s) /\ hiragana_letter c) <-> reads_n_mark m s.
Proof.
  intro H. split.
  - intros (c & I & Hc). revert c I Hc. induction s as [s IH] using str_ind_len. intro c. destruct s as [|a s]; [intros []|].
    destruct (kconv_step m a s) as [(seg & rest & n & v & Sp & N & K & A & O & R & Q)|[O Q]]; rewrite Q.
    + intros I Hc. apply in_app_or in I. rewrite Sp in *.
      assert (En : entry m (low seg) v) by (apply entry_node; eauto). destruct I as [I|I].
      * destruct (keys_with_hiragana _ _ _ En) as [E1|[E1|[E1 Ev]]].
        -- exfalso. revert Hc. unfold emit in I. destruct (forallb is_AZ seg) eqn:U.
           ++ eapply emit_upper_no_hiragana; [exact U|]. unfold emit. rewrite U. exact I.
           ++ eapply no_hira_h2k; eauto.
        -- exfalso. revert Hc. apply (emit_upper_no_hiragana seg v); [|exact I].
           rewrite forallb_forall. intros d J. rewrite forallb_forall in E1.
           assert (Jl : In (ascii_lower d) (low seg)) by (apply in_map; exact J).
           specialize (E1 _ Jl). destruct (H d (in_or_app _ _ _ (or_introl J))) as (H1 & H2).
           unfold is_az in E1. unfold is_AZ, lower_letter in *. unfold ascii_lower in E1.
           destruct ((0x41 <=? d) && (d <=? 0x5A)) eqn:G; lia.
        -- assert (Lw : forall d, In d seg -> ~ lower_letter d)
             by (intros d J; apply H, in_or_app; auto).
           assert (Sg : exists d, seg = [ch "N"; d] /\ (d = ch "'" \/ m = Ime /\ d = ch " ")).
           { unfold n_mark in E1. apply orb_prop in E1. destruct E1 as [E1|E1].
             - apply str_eqb_eq in E1. exists (ch "'"). split; [|auto]. apply (low_upper_eq seg _ Lw E1 0x27); [reflexivity|lia].
             - destruct m; try discriminate E1. apply str_eqb_eq in E1. exists (ch " "). split; [|auto].
               apply (low_upper_eq seg _ Lw E1 0x20); [reflexivity|lia]. }
           destruct Sg as (d & -> & D). exists [], d, rest. split; [reflexivity|]. split; [exact D|apply n_starts_nil].
      * destruct (IH rest) with (c := c) as (p & d & b & -> & D & P); auto.
        -- rewrite app_length. destruct seg; [congruence|]. cbn. lia.
        -- intros e J. apply H, in_or_app. auto.
        -- exists (seg ++ p), d, b. split; [now rewrite app_assoc|]. split; [exact D|]. eapply n_starts_hit; eauto.
    + intros [<-|I] Hc; [exfalso; revert Hc; apply H; now left|].
      destruct (IH s) with (c := c) as (p & d & b & -> & D & P); [cbn; lia|intros e J; apply H; now right|exact I|exact Hc|].
      exists (a :: p), d, b. split; [reflexivity|]. split; [exact D|].
      eapply (n_starts_miss m a p _ _ Q); [now right|exact P].
  - intros (p & d & b & -> & D & P). exists (ch "ん"). split; [|vm_compute; split; discriminate].
    rewrite (split_n_starts m p) by (exact P || now right). apply in_or_app. right.
    destruct (entry_n_mark m d D) as [I U].
    change (ch "N" :: d :: b) with ([ch "N"; d] ++ b). rewrite (conv_entry m [ch "N"; d] _ _ b I U).
    + destruct D as [->|[_ ->]]; left; reflexivity.
    + apply casing2; destruct D as [->|[_ ->]]; reflexivity.
Qed.

(** ** C13 *)
Lemma nfix_app_id a r : (forall c, In c a -> ~ n_letter c) -> nfix (a ++ r) = a ++ nfix r.
Proof.
  induction a as [|c a IH]; intro H; [reflexivity|]. cbn [app nfix].
  assert (N : ascii_lower c =? 0x6E = false).
  { apply N.eqb_neq. rewrite n_lower. apply H. now left. }
  rewrite N. cbn [andb]. f_equal. apply IH. intros d I. apply H. now right.
Qed.
Lemma nfix_length t : length (nfix t) = length t.
Proof. induction t as [|c t IH]; [reflexivity|]. cbn. now rewrite IH. Qed.
Lemma nfix_changes a n r : n_letter n -> y_next r = false -> nfix (a ++ n :: r) <> a ++ n :: r.
Proof.
  intros N Y. induction a as [|c a IH].
  - cbn [app nfix]. apply n_lower in N. rewrite N, Y. cbn. apply n_lower in N. intro Q. injection Q as Q _.
    revert Q. destruct N as [->| ->]; discriminate.
  - cbn [app nfix]. intro Q. injection Q as _ Q. exact (IH Q).
Qed.
(** the children of n and y, and the keys with y *)
Definition y_keys (m : mode) : bool :=
  forallb (fun e => match fst e with
                    | 0x79 :: c :: k => (existsb (N.eqb c) (u "aiueo") && is_empty k && existsb (fun e' => str_eqb (fst e') [0x6E; 0x79; c]) (dict m))
                        || (c =? 0x79) && match k with [v] => existsb (N.eqb v) (u "aiueo") | _ => false end
                    | [0x79] => false
                    | _ => true end) (dict m).
Lemma y_keys_ok m : y_keys m = true.
Proof. destruct m; vm_compute; reflexivity. Qed.
Lemma emit_head m seg v r c r' : entry m (low seg) v -> emit seg v ++ r = c :: r' -> In (ascii_lower c) (low seg) -> False.
Proof.
  intros En Z J. pose proof (outputs_nonempty _ _ _ En) as V.
  destruct (emit seg v) as [|e em] eqn:Em; [apply V; destruct v; [reflexivity|unfold emit, h2k in Em; destruct (forallb is_AZ seg); discriminate Em]|].
  cbn in Z. injection Z as -> _.
  assert (X : in_no_key m c) by (apply (emit_inert m seg v En); rewrite Em; now left).
  apply in_no_key_low with (k := low seg) (v := v) in X; [|exact En]. contradiction.
Qed.
Lemma left_over_n m n s : m <> Ime -> n_letter n -> conv m (n :: s) = n :: conv m s -> y_next (conv m s) = false ->
  exists seg v b, s = seg ++ b /\ casing seg (u "yy" ++ [v]) /\ In v (u "aiueo").
Proof.
  intros M N Q Y. pose proof N as L. apply n_lower in L. destruct (n_node m M) as (nn & An & On & Yn & Ch).
  assert (En : entry m (u "n") (u "ん")) by (apply entry_node; eauto).
  assert (One : match s with [] => True | c :: _ => k_find nn (ascii_lower c) = None end -> False).
  { intro R. assert (H : conv m ([n] ++ s) = emit [n] (u "ん") ++ conv m s).
    { apply (kconv_hit m [n] s nn (u "ん")); [discriminate|cbn [low map]; rewrite L; exact An|exact On|exact R]. }
    cbn [app] in H. rewrite Q in H. symmetry in H. refine (emit_head m _ _ _ _ _ _ H _).
    - cbn [low map]. rewrite L. exact En.
    - left. reflexivity. }
  destruct s as [|d s]; [exfalso; now apply One|].
  destruct (k_find nn (ascii_lower d)) as [x|] eqn:F; [|exfalso; now apply One].
  assert (At : k_at (tree_of m) [0x6E; ascii_lower d] = Some x).
  { change [0x6E; ascii_lower d] with (u "n" ++ [ascii_lower d]). rewrite k_at_app, An. cbn. now rewrite F. }
  destruct (Ch _ _ F) as [D|(Lf & v & Ov)].
  2:{ exfalso. assert (H : conv m ([n; d] ++ s) = emit [n; d] v ++ conv m s).
      { apply (kconv_hit m [n; d] s x v); [discriminate|cbn [low map]; rewrite L; exact At|exact Ov|].
        destruct s as [|e s]; [exact I|]. unfold k_find. now rewrite Lf. }
      cbn [app] in H. rewrite Q in H. symmetry in H. refine (emit_head m _ _ _ _ _ _ H _).
      - cbn [low map]. rewrite L. apply entry_node. eauto.
      - left. reflexivity. }
  destruct (kconv_step m d s) as [(seg & rest & n' & v & Sp & Ne & K & A & O & R & Q')|[O Q']].
  2:{ exfalso. rewrite Q' in Y. cbn in Y. rewrite D in Y. discriminate Y. }
  assert (E2 : entry m (low seg) v) by (apply entry_node; eauto).
  pose proof (y_keys_ok m) as T. unfold y_keys in T. rewrite forallb_forall in T. specialize (T _ E2). cbn [fst] in T.
  destruct seg as [|d' seg]; [congruence|]. injection Sp as <- Sp. cbn [low map] in T. rewrite D in T.
  destruct seg as [|c seg]; [discriminate T|]. cbn [map] in T. apply orb_prop in T. destruct T as [T|T].
  - exfalso. apply andb_prop in T. destruct T as [T T3]. apply andb_prop in T. destruct T as [T1 T2].
    destruct seg; [|discriminate T2]. apply existsb_exists in T3. destruct T3 as ([k w] & I & E). cbn [fst] in E. apply str_eqb_eq in E. subst k.
    assert (Lw : low [n; d; c] = [0x6E; 0x79; ascii_lower c]) by (cbn [low map]; now rewrite L, D).
    assert (H : conv m ([n; d; c] ++ rest) = emit [n; d; c] w ++ conv m rest).
    { apply (conv_entry m [n; d; c] [0x6E; 0x79; ascii_lower c] w rest); [exact I| |now apply casing_low].
      eapply only_n_extended; [exact I|]. intro Z. discriminate Z. }
    cbn [app] in H. rewrite Sp in Q. cbn [app] in Q. rewrite Q in H. symmetry in H. refine (emit_head m _ _ _ _ _ _ H _).
    + rewrite Lw. exact I.
    + left. reflexivity.
  - apply andb_prop in T. destruct T as [T1 T2]. apply N.eqb_eq in T1. destruct seg as [|e [|? ?]]; try discriminate T2.
    cbn [map] in T2. exists [d; c; e], (ascii_lower e), rest. rewrite Sp. split; [reflexivity|]. split.
    + apply casing_low. cbn [low map]. now rewrite D, T1.
    + apply existsb_In. exact T2.
Qed.
Lemma entry_yyv m v : In v (u "aiueo") -> exists k, entry m (u "yy" ++ [v]) k.
Proof.
  intro I. assert (T : forallb (fun v => existsb (fun e => str_eqb (fst e) (u "yy" ++ [v])) (dict m)) (u "aiueo") = true)
    by (destruct m; vm_compute; reflexivity).
  rewrite forallb_forall in T. specialize (T v I). apply existsb_exists in T. destruct T as ([k w] & J & E).
  cbn [fst] in E. apply str_eqb_eq in E. subst k. now exists w.
Qed.
Lemma conv_nyy m n seg v b : n_letter n -> casing seg (u "yy" ++ [v]) -> In v (u "aiueo") ->
  conv m (n :: seg ++ b) = n :: conv m (seg ++ b) /\ y_next (conv m (seg ++ b)) = false.
Proof.
  intros N C V. destruct (entry_yyv m v V) as (k & I). split.
  - destruct (kconv_step m n (seg ++ b)) as [(sg & rest & n' & w & Sp & Ne & K & A & O & R & Q)|[_ Q]]; [|exact Q].
    exfalso. assert (E2 : entry m (low sg) w) by (apply entry_node; eauto).
    apply casing_low in C. destruct seg as [|y1 [|y2 [|v1 [|? ?]]]]; try discriminate C. cbn in C. injection C as C1 C2 C3.
    apply n_lower in N.
    (* the walk goes to ny and stops there *)
    assert (W : k_at (tree_of m) [0x6E; 0x79] <> None /\ k_at (tree_of m) [0x6E; 0x79; 0x79] = None
      /\ match k_at (tree_of m) [0x6E; 0x79] with Some x => kout x = None | None => True end).
    { assert (B : match k_at (tree_of m) [0x6E; 0x79], k_at (tree_of m) [0x6E; 0x79; 0x79] with
                  | Some x, None => match kout x with None => true | _ => false end | _, _ => false end = true)
        by (destruct m; vm_compute; reflexivity).
      destruct (k_at (tree_of m) [0x6E; 0x79]) as [x|]; [|discriminate B].
      destruct (k_at (tree_of m) [0x6E; 0x79; 0x79]); [discriminate B|]. destruct (kout x); [discriminate B|].
      split; [discriminate|]. auto. }
    destruct W as (W1 & W2 & W3). destruct (k_at (tree_of m) [0x6E; 0x79]) as [x|] eqn:Ax; [|congruence].
    assert (K' : kw (tree_of m) ([n; y1] ++ y2 :: v1 :: b) = (x, length [n; y1])).
    { apply kw_intro.
      - cbn [low map]. rewrite N, C1. exact Ax.
      - change [0x6E; 0x79; 0x79] with ([0x6E; 0x79] ++ [0x79]) in W2. rewrite k_at_app, Ax in W2. cbn in W2. rewrite C2.
        destruct (k_find x 0x79); [discriminate W2|reflexivity]. }
    cbn [app] in K', K. rewrite K in K'. injection K' as -> _. congruence.
  - assert (U : unextended m (u "yy" ++ [v])) by (eapply only_n_extended; [exact I|intro Z; discriminate Z]).
    rewrite (conv_entry m seg _ k b I U C). apply casing_low in C.
    assert (I' : entry m (low seg) k) by (rewrite C; exact I).
    destruct (emit seg k ++ conv m b) as [|e r] eqn:Z; [reflexivity|]. cbn [y_next].
    apply N.eqb_neq. intro E. apply (emit_head m seg k (conv m b) e r I' Z). rewrite C, E. left. reflexivity.
Qed.
Theorem idempotent_exact m s : conv m (conv m s) = conv m s <-> m = Ime \/ ~ reads_nyy m s.
Proof.
  assert (D : m = Ime \/ m <> Ime) by (destruct m; auto; right; discriminate).
  destruct D as [->|M]; [split; [auto|intros _; apply ime_idempotent]|]. rewrite (conv_conv m M s). split.
  - intro H. right. intros (p & n & seg & v & b & -> & N & C & V & P). revert H.
    rewrite (split_n_starts m p n) by assumption. destruct (conv_nyy m n seg v b N C V) as [-> Y].
    now apply nfix_changes.
  - intros [H|H]; [contradiction|].
    induction s as [s IH] using str_ind_len. destruct s as [|a s]; [reflexivity|].
    destruct (kconv_step m a s) as [(seg & rest & n & v & Sp & Ne & K & A & O & R & Q)|[O Q]].
    + rewrite Q. assert (En : entry m (low seg) v) by (apply entry_node; eauto). rewrite nfix_app_id.
      * f_equal. apply IH.
        -- rewrite Sp, app_length. destruct seg; [congruence|]. cbn. lia.
        -- intros (p & n' & sg & w & b & -> & N & C & V & P). apply H. rewrite Sp. exists (seg ++ p), n', sg, w, b.
           split; [now rewrite app_assoc|]. split; [exact N|]. split; [exact C|]. split; [exact V|]. eapply n_starts_hit; eauto.
      * intros c J N. apply n_lower in N. apply (emit_inert m seg v En) in J. apply in_no_key_low with (k := u "n") (v := u "ん") in J.
        -- apply J. left. symmetry. exact N.
        -- destruct (n_node m M) as (nn & An & On & _). apply entry_node. eauto.
    + rewrite Q. cbn [nfix]. f_equal.
      * destruct (ascii_lower a =? 0x6E) eqn:L; [|reflexivity]. apply N.eqb_eq, n_lower in L. cbn [andb].
        destruct (y_next (conv m s)) eqn:Y; [reflexivity|]. exfalso. apply H.
        destruct (left_over_n m a s M L Q Y) as (seg & v & b & -> & C & V). exists [], a, seg, v, b.
        split; [reflexivity|]. split; [exact L|]. split; [exact C|]. split; [exact V|]. apply n_starts_nil.
      * apply IH; [cbn; lia|]. intros (p & n' & sg & w & b & -> & N & C & V & P). apply H. exists (a :: p), n', sg, w, b.
        split; [reflexivity|]. split; [exact N|]. split; [exact C|]. split; [exact V|]. eapply n_starts_miss; eauto.
Qed.
