(** * Converting to katakana and hiragana in parts (C91, C92) *)
From Coq Require Import PeanoNat.
From Verif Require Import Tac Base Std Constants Chars Trees KanaTree RomajiTree Strings Tokenize Convert
  KanaPure KanaSpec KanaDict KanaProofs MoraProofs Predicates ScriptSpec ScriptProofs ScriptIdem RomajiPure RomajiSpec RomajiProofs
  TokenSpec TokenizeProofs Splits KanaJoinSpec KanaJoin KanaTokens JoinSpec JoinText TokenJoin Exact ExactScript LowerTwice
  Complete FixedSpec Fixed ComposeSpec Compose RoundUp ScriptTokenSpec ScriptTokens ScriptPartSpec.

(** ** Parts, some of which are converted and the others kept *)
Definition txt (ws : list (bool * str)) : str := concat (map snd ws).
Definition shown (m : mode) (e : bool * str) : str := if fst e then conv m (snd e) else snd e.
Fixpoint fine (m : mode) (z : str) (ws : list (bool * str)) : Prop :=
  match ws with
  | [] => True
  | (a, x) :: post => (if a then ~ joins m (z ++ x) (txt post) else spared m x (txt post)) /\ fine m (z ++ x) post
  end.
(** what is compared may be rewritten character by character *)
Definition gentle (g : N -> N) : Prop :=
  harmless g /\ (forall c, 0x3000 <= c -> 0x3000 <= g c) /\ forall c, smart_quote c -> g c = c.

Lemma joins_nil m y : ~ joins m [] y.
Proof.
  intros [(x1 & b & b' & y' & k & v & X & _ & N & _)|[(O & _)|(O & _)]]; [|now apply open_nil in O|now apply open_nil in O].
  symmetry in X. apply app_eq_nil in X. destruct X; congruence.
Qed.
Lemma spared_nil m y : spared m [] y.
Proof. intros x b k v r _ L. cbn in L. lia. Qed.
Lemma spared_untouched m t : spared m t [] <-> untouched m t.
Proof.
  unfold spared, untouched. split; intros H x b k v r Q.
  - intros C J. refine (H x b k v r _ _ C J); [now rewrite app_nil_r|]. rewrite Q, app_length, app_length.
    assert (b <> []) as N by (intros ->; apply casing_low in C; subst k; now apply keys_nonempty in J). destruct b; [congruence|]. cbn. lia.
  - intros _ C J. rewrite app_nil_r in Q. exact (H x b k v r Q C J).
Qed.
Lemma fine_drop_char m q c : (forall v, ~ entry m (low q) v) -> forall ws z, longest m q (c :: z ++ txt ws) ->
  Forall (fun e => snd e <> []) ws -> fine m (c :: z) ws <-> fine m z ws.
Proof.
  intro I. induction ws as [|[a x] ws IH]; intros z L F; [reflexivity|]. inversion F as [|? ? Nx F']; subst. cbn [fine snd] in *.
  change ((c :: z) ++ x) with (c :: (z ++ x)). rewrite (IH (z ++ x)); [| |exact F'].
  2: { unfold txt in L. cbn [map concat snd] in L. rewrite <- app_assoc. exact L. }
  destruct a; [|reflexivity].
  assert (joins m (c :: z ++ x) (txt ws) <-> joins m (z ++ x) (txt ws)) as ->; [|reflexivity].
  apply (joins_drop_char m q c (z ++ x) (txt ws) []); [| exact I|].
  - unfold txt in L |- *. cbn [map concat snd] in L. rewrite app_nil_r, <- app_assoc. exact L.
  - intros _ _ X. apply app_eq_nil in X. destruct X; congruence.
Qed.
Lemma fine_drop_key m q v : entry m (low q) v -> forall ws z, longest m q (q ++ z ++ txt ws) -> fine m (q ++ z) ws <-> fine m z ws.
Proof.
  intro I. induction ws as [|[a x] ws IH]; intros z L; [reflexivity|]. cbn [fine] in *. rewrite <- app_assoc.
  rewrite (IH (z ++ x)). 2: { unfold txt in L. cbn [map concat snd] in L. rewrite <- app_assoc. exact L. }
  destruct a; [|reflexivity].
  assert (joins m (q ++ z ++ x) (txt ws) <-> joins m (z ++ x) (txt ws)) as ->; [|reflexivity].
  apply (joins_drop_key m q v (z ++ x) (txt ws) []); [|exact I].
  unfold txt in L |- *. cbn [map concat snd] in L. rewrite app_nil_r, <- app_assoc. exact L.
Qed.
(** a character at which nothing is converted *)
Lemma spared_here m q c s : longest m q (c :: s) -> (forall v, ~ entry m (low q) v) ->
  forall b k v r, c :: s = b ++ r -> casing b k -> entry m k v -> k = u "n" /\ exists d r', r = d :: r' /\ y_letter d.
Proof.
  intros L I b k v y Q C J. apply casing_low in C. subst k.
  pose proof (proj2 (proj2 L) b y Q (entry_viable m b v J)) as Le. destruct (proj1 L) as (r & Q2). rewrite Q2 in Q. symmetry in Q.
  destruct (app_cut b y q r Q Le) as (e & -> & ->). destruct e as [|d e]; [rewrite app_nil_r in I; exfalso; exact (I v J)|].
  pose proof (proj1 (proj2 L)) as V. apply viable_entry in V. destruct V as (k & w & V). rewrite low_app, <- app_assoc in V.
  destruct (list_eq_dec N.eq_dec (low b) (u "n")) as [K|K].
  2: { apply (only_n_extended m _ v J K) in V. discriminate V. }
  split; [exact K|]. exists d, (e ++ r). split; [reflexivity|]. rewrite K in V. cbn [low map app] in V.
  destruct (Fixed.n_key _ _ _ _ V) as [Y|Y]; [now apply Complete.y_letter_low|]. exfalso. apply app_eq_nil in Y. destruct Y as [Y ->].
  destruct e; [|discriminate Y]. apply (I w). rewrite low_app, K. exact V.
Qed.
Lemma spared_drop m q c t y : longest m q (c :: t ++ y) -> (forall v, ~ entry m (low q) v) -> spared m (c :: t) y <-> spared m t y.
Proof.
  intros L I. split; intros H x b k v r Q Lt C J.
  - apply (H (c :: x) b k v r); [cbn; now f_equal|cbn; lia|exact C|exact J].
  - destruct x as [|d x].
    + exact (spared_here m q c (t ++ y) L I b k v r Q C J).
    + cbn in Q. injection Q as _ Q. apply (H x b k v r Q); [cbn in Lt; lia|exact C|exact J].
Qed.
Lemma spared_hit m q v c t y : longest m q (c :: t ++ y) -> entry m (low q) v -> ~ spared m (c :: t) y.
Proof.
  intros L I H. destruct (proj1 L) as (r & Q). destruct (H [] q (low q) v r) as (K & d & y' & -> & Y); [exact Q|cbn; lia|now apply casing_low|exact I|].
  rewrite Q in L. refine (longer m q [d] y' L ltac:(discriminate) _). rewrite K in I.
  assert (M : m <> Ime) by (intros ->; exact (Fixed.ime_no_n _ I)). pose proof (n_follows m d M (Complete.y_follow d Y)) as V.
  apply viable_entry in V. apply viable_entry. rewrite low_app, K. exact V.
Qed.
(** keys beyond ASCII are the quotation marks *)
Lemma wide_keys m : forallb (fun e => match fst e with
    | c :: _ => (c <? 0x80) || (existsb (N.eqb c) (u "‘’“”") && match snd e with h :: _ => (0x3000 <=? h) && (0x3000 <=? h2k_char h) | [] => false end)
    | [] => false end) (dict m) = true.
Proof. destruct m; vm_compute; reflexivity. Qed.
Lemma hit_shows m g q c s v : gentle g -> longest m q (c :: s) -> entry m (low q) v ->
  exists h r, conv m (c :: s) = h :: r /\ g h <> g c.
Proof.
  intros ((G1 & G2 & _) & G4 & G5) L I. destruct (proj1 L) as (r & Q). rewrite Q in *. rewrite (conv_hit m q r v L I).
  destruct (emit_kana m _ _ q I) as (h & t & Eh & Hh). exists h, (t ++ conv m r). rewrite Eh. split; [reflexivity|].
  destruct q as [|c' q]; [now apply keys_nonempty in I|]. injection Q as <- Q.
  pose proof (wide_keys m) as F. rewrite forallb_forall in F. specialize (F _ I). cbn [fst snd low map] in F. apply orb_prop in F.
  destruct F as [F|F].
  - apply N.ltb_lt in F. assert (c < 0x80) as C by (revert F; unfold ascii_lower; ifs; lia). rewrite (G1 c C). specialize (G2 h Hh). lia.
  - apply andb_prop in F. destruct F as [F1 F2]. apply existsb_In in F1.
    assert (smart_quote c) as S.
    { unfold smart_quote. assert (ascii_lower c = c) as <-; [|exact F1]. pose proof (quote_number _ F1). revert H. unfold ascii_lower. ifs; lia. }
    rewrite (G5 c S). pose proof (quote_number c S). assert (0x3000 <= h) as B.
    { destruct v as [|h0 v]; [discriminate F2|]. apply andb_prop in F2. destruct F2 as [B1 B2]. apply N.leb_le in B1, B2.
      unfold emit in Eh. destruct (forallb is_AZ (c :: q)); [unfold h2k in Eh; cbn [map] in Eh|]; injection Eh as <- _; assumption. }
    specialize (G4 h B). lia.
Qed.
Lemma shown_first m c w a : exists r, shown m (a, 0x27 :: w) = 0x27 :: r /\ (c = 0x27 -> r = shown m (a, w)).
Proof. destruct a; cbn [shown fst snd]; [rewrite apostrophe_stays|]; eauto. Qed.
Lemma apostrophe_apart_shown m g rest : harmless g -> forall ws, txt ws = 0x27 :: rest -> map g (conv m rest) <> map g (concat (map (shown m) ws)).
Proof.
  intros (G1 & G2 & _). induction rest as [rest IH] using str_ind_len. intros ws. induction ws as [|[a w] ws IHw]; [discriminate|]. unfold txt in *. cbn [concat map snd].
  destruct w as [|c w].
  { assert (shown m (a, []) = []) as -> by (destruct a; [apply kconv_nil|reflexivity]). exact IHw. }
  intros Q. cbn [app] in Q. injection Q as -> Q. destruct (shown_first m 0x27 w a) as (r' & -> & Er). rewrite (Er eq_refl).
  cbn [app map]. rewrite (G1 0x27) by lia. intro Eq.
  destruct rest as [|d rest]; [discriminate|]. destruct (conv_first m d rest) as [F|(h & r & F & H)]; rewrite F in Eq; cbn [map] in Eq; injection Eq as E1 E2.
  - assert (d = 0x27) as ->.
    { destruct (N.lt_ge_cases d 0x80) as [D|D]; [rewrite (G1 d D) in E1; exact E1|]. specialize (G2 d D). lia. }
    apply (IH rest ltac:(cbn; lia) ((a, w) :: ws)); [exact Q|exact E2].
  - specialize (G2 h H). lia.
Qed.

Lemma parts_shown m g n : gentle g -> forall a w ws, (length (w ++ txt ws) + length ws < n)%nat -> Forall (fun e => snd e <> []) ws ->
  (map g (conv m (w ++ txt ws)) = map g (shown m (a, w)) ++ map g (concat (map (shown m) ws)) <-> fine m [] ((a, w) :: ws)).
Proof.
  intro GG. pose proof GG as (G & _ & _). pose proof G as (G1 & G2 & G3). induction n as [|n IH]; [lia|]. intros a w ws Len F. destruct w as [|c w].
  - destruct ws as [|[b t] ws].
    { assert (shown m (a, []) = []) as -> by (destruct a; [apply kconv_nil|reflexivity]). change (conv m ([] ++ txt [])) with (conv m []).
      assert (conv m [] = []) as -> by apply kconv_nil. cbn. split; [intros _|reflexivity]. split; [|exact I]. destruct a; [apply joins_nil|apply spared_nil]. }
    inversion F as [|? ? Nt F']; subst. assert (shown m (a, []) = []) as -> by (destruct a; [apply kconv_nil|reflexivity]).
    unfold txt. cbn [concat map app snd]. change (concat (map snd ws)) with (txt ws). rewrite map_app.
    rewrite (IH b t ws); [|unfold txt in Len |- *; cbn in Len; lia|exact F']. cbn [fine app].
    split; [intro H; split; [destruct a; [apply joins_nil|apply spared_nil]|exact H]|intros [_ H]; exact H].
  - destruct (longest_exists m ((c :: w) ++ txt ws)) as (q & L). destruct a.
    2: { (* a part that is kept *)
         cbn [shown fst snd app map fine]. destruct (entry_dec m (low q)) as [[v J]|J].
         - destruct (hit_shows m g q c (w ++ txt ws) v GG L J) as (h & r & -> & Ng). cbn [map]. split; [congruence|].
           intros [S _]. destruct (spared_hit m q v c w (txt ws) L J S).
         - rewrite (conv_miss m q c (w ++ txt ws) L J). cbn [map].
           rewrite (spared_drop m q c w (txt ws) L J), (fine_drop_char m q c J ws w L F).
           specialize (IH false w ws ltac:(cbn in Len; lia) F). cbn [shown fst snd fine app] in IH. rewrite <- IH. split; [intro H; now injection H|congruence]. }
    cbn [shown fst snd fine app].
    assert (Miss : (forall v, ~ entry m (low q) v) -> conv m (c :: w) = c :: conv m w -> (m <> Ime -> n_letter c -> w <> []) ->
      (map g (conv m ((c :: w) ++ txt ws)) = map g (conv m (c :: w)) ++ map g (concat (map (shown m) ws)) <->
       ~ joins m (c :: w) (txt ws) /\ fine m (c :: w) ws)).
    { intros J K Nc. rewrite K. cbn [app] in *. rewrite (conv_miss m q c (w ++ txt ws) L J). cbn [map app].
      rewrite (fine_drop_char m q c J ws w L F).
      assert (joins m (c :: w) (txt ws) <-> joins m w (txt ws)) as ->.
      { apply (joins_drop_char m q c w (txt ws) []); [rewrite app_nil_r; exact L|exact J|exact Nc]. }
      specialize (IH true w ws ltac:(cbn in Len; lia) F). cbn [shown fst snd fine app] in IH. rewrite <- IH. split; [intro H; now injection H|congruence]. }
    destruct (longest_part m q (c :: w) (txt ws) L) as [(w' & W & L')|(e & -> & Ne & L')].
    + destruct (entry_dec m (low q)) as [[v J]|J].
      * rewrite W in *. rewrite <- app_assoc in *. change (c :: w ++ txt ws) with ((c :: w) ++ txt ws). rewrite W, <- app_assoc.
        rewrite (conv_hit m q _ v L J), (conv_hit m q _ v L' J), !map_app, <- app_assoc.
        rewrite (fine_drop_key m q v J ws w' L).
        assert (joins m (q ++ w') (txt ws) <-> joins m w' (txt ws)) as ->.
        { apply (joins_drop_key m q v w' (txt ws) []); [rewrite app_nil_r; exact L|exact J]. }
        assert (Nq : q <> []) by (intros ->; now apply keys_nonempty in J).
        specialize (IH true w' ws). cbn [shown fst snd fine app] in IH. rewrite <- IH; [| |exact F].
        -- split; [apply app_inv_head|congruence].
        -- rewrite !app_length in *. destruct q; [congruence|]. cbn in Len. lia.
      * apply Miss; [exact J|eapply conv_miss; eauto|]. intros M C ->. destruct L' as (_ & _ & L').
        assert (V : entry m (low [c]) (u "ん")).
        { apply n_letter_low in C. cbn [low map]. rewrite C. now apply KanaJoin.n_key. }
        specialize (L' [c] [] eq_refl (entry_viable _ _ _ V)). destruct q as [|d [|]]; cbn in L', W; [lia| |discriminate].
        injection W as <- _. exact (J _ V).
    + pose proof L as ((r & Q) & V & _). rewrite <- app_assoc in Q. apply app_inv_head in Q.
      assert (C80 : c < 0x80).
      { apply (viable_cons_low m c (w ++ e)); [exact V|]. intro X. apply app_eq_nil in X. destruct X; congruence. }
      destruct (entry_dec m (low (c :: w))) as [[x X]|X].
      * (* the part ends with n *)
        assert (NW : exists k y, entry m (low (c :: w) ++ low e ++ k) y) by (apply viable_entry in V; destruct V as (k & y & V); exists k, y; rewrite low_app, <- app_assoc in V; exact V).
        assert (w = [] /\ m <> Ime /\ n_letter c) as (-> & M & C).
        { destruct NW as (k & y & NW). destruct (list_eq_dec N.eq_dec (low (c :: w)) (u "n")) as [P|P].
          - cbn [low map] in P. injection P as P1 P2. destruct w; [|discriminate]. split; [reflexivity|]. split; [|now apply n_letter_low].
            intros ->. cbn [low map] in X. rewrite P1 in X. now apply Fixed.ime_no_n in X.
          - exfalso. pose proof (only_n_extended m _ _ X P) as U. apply U in NW. apply app_eq_nil in NW. destruct NW as [NW _]. destruct e; [congruence|discriminate]. }
        cbn [app] in *. destruct e as [|d e]; [congruence|]. cbn [app] in Q.
        assert (Fd : n_follow d).
        { destruct NW as (k & y & NW). pose proof C as C'. apply n_letter_low in C'. cbn [low map app] in NW. rewrite C' in NW. apply key_n_follow in NW; [|exact M].
          exists (ascii_lower d). split; [now apply lowers_lower|exact NW]. }
        assert (Cn : conv m [c] = emit [c] (u "ん")).
        { change [c] with ([c] ++ []) at 1. rewrite (conv_n m [c] [] M); [apply app_nil_r| |exact I].
          apply casing_low. apply n_letter_low in C. cbn [low map]. now rewrite C. }
        assert (Ek : exists k, emit [c] (u "ん") = [k] /\ In k (u "んン")).
        { destruct C as [-> | ->]; eexists; (split; [vm_compute; reflexivity|vm_compute; auto]). }
        destruct Ek as (k & Ek & Ik).
        split.
        { intro H. exfalso. rewrite Cn, Ek, <- map_app in H. cbn [app map] in H. rewrite Q in H. destruct (N.eq_dec d 0x27) as [->|D].
          - assert (Ho : conv m (c :: 0x27 :: e ++ r) = u "ん" ++ conv m (e ++ r)).
            { assert (Cs : casing [c; 0x27] (u "n'")).
              { apply casing_low. apply n_letter_low in C. cbn [low map]. rewrite C. reflexivity. }
              pose proof (n_apostrophe m) as J. assert (U : unextended m (u "n'")) by (eapply only_n_extended; [exact J|discriminate]).
              pose proof (conv_entry m [c; 0x27] _ _ (e ++ r) J U Cs) as Y. rewrite (emit_apostrophe [c; 0x27] (u "n") (u "ん") Cs) in Y. exact Y. }
            rewrite Ho in H. change (u "ん") with [ch "ん"] in H. cbn [app map] in H. injection H as _ H.
            exact (apostrophe_apart_shown m g (e ++ r) G ws Q H).
          - destruct (conv_n_follow m c d (e ++ r) M C Fd D) as (h & y & Y & Ih). rewrite Y in H. cbn [map] in H. injection H as H _. apply Ih. exact (G3 h k Ik H). }
        { intros [H _]. exfalso. apply H. right; left. split; [now apply open_one|]. split; [exact M|]. eauto. }
      * assert (K : conv m (c :: w) = c :: conv m w) by (eapply conv_miss; eauto).
        destruct (entry_dec m (low ((c :: w) ++ e))) as [[v J]|J].
        -- split.
           ++ intro H. exfalso. pose proof L as L2. change (c :: w ++ txt ws) with ((c :: w) ++ txt ws) in H. rewrite Q in L2, H. rewrite app_assoc in L2, H. rewrite (conv_hit m _ r v L2 J), K in H.
              destruct (emit_kana m _ _ ((c :: w) ++ e) J) as (h & y & Y & Hh). rewrite Y in H. cbn [app map] in H. injection H as H _. rewrite (G1 c C80) in H. specialize (G2 h Hh). lia.
           ++ intros [H _]. exfalso. apply H. destruct (n_dec c) as [C|C].
              2: { left. exists [], (c :: w), e, r, (low ((c :: w) ++ e)), v. split; [reflexivity|].
                   split; [exact Q|]. split; [discriminate|]. split; [exact Ne|]. split; [|split; [now apply casing_low|exact J]].
                   intros d D. injection D as <- _. exact C. }
              destruct w as [|a l] eqn:Wl.
              2: { left. exists [], (c :: a :: l), e, r, (low ((c :: a :: l) ++ e)), v. split; [reflexivity|].
                   split; [exact Q|]. split; [discriminate|]. split; [exact Ne|]. split; [|split; [now apply casing_low|exact J]].
                   intros d D. discriminate D. }
              assert (O : open_n m [c]) by now apply open_one.
              apply n_letter_low in C. cbn [app low map] in J. rewrite C in J.
              destruct e as [|d e]; [congruence|]. destruct m.
              1,2: right; left; split; [exact O|]; split; [discriminate|]; exists d, (e ++ r); split; [exact Q|];
                   exists (ascii_lower d); split; [now apply lowers_lower|]; cbn [map] in J; apply key_n_follow in J; [exact J|discriminate].
              right; right. split; [exact O|]. split; [reflexivity|]. exists (d :: e), r, (low (d :: e)), v. split; [exact Q|].
              split; [now apply casing_low|exact J].
        -- apply Miss; [exact J|exact K|]. intros M C ->. apply n_letter_low in C. apply (X (u "ん")). cbn [low map]. rewrite C. now apply KanaJoin.n_key.
Qed.
Theorem parts_read m g ws : gentle g -> Forall (fun e => snd e <> []) ws ->
  (map g (conv m (txt ws)) = map g (concat (map (shown m) ws)) <-> fine m [] ws).
Proof.
  intros G F. pose proof (parts_shown m g _ G true [] ws (Nat.lt_succ_diag_r _) F) as H. cbn [shown fst snd app fine] in H.
  assert (conv m [] = []) as K by apply kconv_nil. rewrite K in H. cbn [map app] in H. rewrite H. split; [now intros [_ ?]|]. intro Q. split; [apply joins_nil|exact Q].
Qed.

(** ** The conditions part by part *)
Lemma fine_all m ws : forall z, fine m z ws <->
  forall pre a x post, ws = pre ++ (a, x) :: post ->
    if a : bool then ~ joins m (z ++ txt pre ++ x) (txt post) else spared m x (txt post).
Proof.
  induction ws as [|[b y] ws IH]; intro z; cbn [fine].
  { split; [|trivial]. intros _ [|] ? ? ? Q; discriminate Q. }
  rewrite IH. split.
  - intros [H K] [|e pre] a x post Q.
    + injection Q as <- <- <-. exact H.
    + injection Q as <- Q. specialize (K pre a x post Q). unfold txt in *. cbn [map concat snd]. rewrite <- !app_assoc in *. exact K.
  - intro H. split; [exact (H [] b y ws eq_refl)|]. intros pre a x post ->. specialize (H ((b, y) :: pre) a x post eq_refl).
    unfold txt in *. cbn [map concat snd] in H. rewrite <- !app_assoc in *. exact H.
Qed.

(** ** The two forms of the sigma *)
Definition sg (c : N) : N := if c =? 0x3C2 then 0x3C3 else c.
Lemma sg_cases c d : sg c = sg d -> c = d \/ ((c = 0x3C2 \/ c = 0x3C3) /\ (d = 0x3C2 \/ d = 0x3C3)).
Proof. unfold sg. destruct (c =? 0x3C2) eqn:C, (d =? 0x3C2) eqn:D; lia. Qed.
Lemma sigma_no_key m c : c = 0x3C2 \/ c = 0x3C3 -> in_no_key m c.
Proof.
  intro H. apply non_ascii_in_no_key; [lia|]. change (u "‘’“”") with [0x2018; 0x2019; 0x201C; 0x201D]. cbn [In]. lia.
Qed.
Lemma split_differ (x y : str) : map sg x = map sg y ->
  x = y \/ exists p c d x' y', x = p ++ c :: x' /\ y = p ++ d :: y' /\ (c = 0x3C2 \/ c = 0x3C3) /\ (d = 0x3C2 \/ d = 0x3C3) /\ c <> d /\ map sg x' = map sg y'.
Proof.
  revert y. induction x as [|c x IH]; intros [|d y] Q; try discriminate Q; [now left|]. cbn [map] in Q. injection Q as Q1 Q2.
  destruct (N.eq_dec c d) as [->|Nd].
  - destruct (IH y Q2) as [->|(p & c' & d' & x' & y' & -> & -> & H)]; [now left|right]. exists (d :: p), c', d', x', y'. auto.
  - right. destruct (sg_cases c d Q1) as [|[C D]]; [contradiction|]. exists [], c, d, x, y. auto 8.
Qed.
Lemma sigma_conv m x : forall y, map sg x = map sg y -> map sg (conv m x) = map sg (conv m y).
Proof.
  induction x as [x IH] using str_ind_len. intros y Q. destruct (split_differ x y Q) as [->|(p & c & d & x' & y' & -> & -> & C & D & _ & Q')]; [reflexivity|].
  rewrite !conv_boundary by now apply sigma_no_key. rewrite !map_app. cbn [map]. rewrite (IH x') with (y := y'); [|rewrite app_length; cbn; lia|exact Q'].
  f_equal. f_equal. destruct C as [-> | ->], D as [-> | ->]; reflexivity.
Qed.
Lemma sigma_same m (g : N -> N) x y : g 0x3C2 <> g 0x3C3 -> map sg x = map sg y -> map g (conv m x) = map g (conv m y) -> x = y.
Proof.
  intros G Q K. destruct (split_differ x y Q) as [->|(p & c & d & x' & y' & -> & -> & C & D & N & Q')]; [reflexivity|exfalso].
  rewrite !conv_boundary in K by now apply sigma_no_key. rewrite !map_app in K. apply app_inv_head in K. cbn [map] in K. injection K as K _.
  destruct C as [-> | ->], D as [-> | ->]; congruence.
Qed.

Section Parts.
  Variables (E : std) (o : options).
  Hypothesis HE : std_ok E.
  Notation m := (mode_of o).
  Notation lower := (to_lowercase E).
  Lemma lower_sg s : map sg (lower s) = map sg (flat_map (lower_char E) s).
  Proof.
    unfold to_lowercase. generalize (@nil N) as b. induction s as [|c s IH]; intro b; [reflexivity|]. cbn [to_lowercase_from flat_map].
    rewrite !map_app, IH. f_equal. destruct (c =? SIGMA) eqn:Z; [|reflexivity]. apply N.eqb_eq in Z. subst c.
    rewrite (proj1 (ok_lower_sigma E HE)). now destruct (_ && _).
  Qed.
  Lemma lower_parts ts : map sg (lower (concat ts)) = map sg (concat (map lower ts)).
  Proof.
    induction ts as [|t ts IH]; [reflexivity|]. cbn [concat map]. rewrite lower_sg, flat_map_app, !map_app, <- !lower_sg. now rewrite IH.
  Qed.
  Lemma lower_nonempty t : t <> [] -> lower t <> [].
  Proof.
    destruct (lower_pieces E t) as (ls & F & ->). destruct F as [|c l t ls Pc F]; [congruence|]. intros _. cbn [concat].
    pose proof (piece_some E c l HE Pc). now destruct l.
  Qed.

  (** [rd]: the parts that are read; the others come out as [keep] has them *)
  Variables (rd : str -> bool) (g : N -> N).
  Hypotheses (Gg : gentle g) (G1 : forall c, g (sg c) = sg (g c)) (G2 : g 0x3C2 <> g 0x3C3).
  Definition flag (t : str) : bool * str := (rd t, if rd t then lower t else t).
  Lemma flags_nonempty ts : Forall (fun t => t <> []) ts -> Forall (fun e => snd e <> []) (map flag ts).
  Proof.
    intro F. apply Forall_map. revert F. apply Forall_impl. intros t N. cbn. destruct (rd t); [now apply lower_nonempty|exact N].
  Qed.
  Lemma flags_lower ts : (forall t, In t ts -> rd t = false -> lower t = t) -> txt (map flag ts) = concat (map lower ts).
  Proof.
    unfold txt. rewrite map_map. intro H. f_equal. apply map_ext_in. intros t I. cbn. destruct (rd t) eqn:R; [reflexivity|]. now rewrite H.
  Qed.
  Lemma gentle_sg : gentle (fun c => sg (g c)).
  Proof.
    destruct Gg as ((A & B & C) & D & Q). split; [split; [|split]|split].
    - intros c L. rewrite A by exact L. unfold sg. ifs; lia.
    - intros c L. specialize (B c L). unfold sg. ifs; lia.
    - intros h k I H. apply (C h k I). destruct (sg_cases _ _ H) as [|[_ K]]; [assumption|exfalso]. assert (0x3000 <= k) as L by (destruct I as [<-|[<-|[]]]; vm_compute; discriminate).
      specialize (D k L). lia.
    - intros c L. specialize (D c L). unfold sg. ifs; lia.
    - intros c S. rewrite (Q c S). apply quote_number in S. unfold sg. ifs; lia.
  Qed.

  Definition part_cond (ts : list str) : Prop :=
    forall pre t post, ts = pre ++ t :: post ->
      (rd t = true -> ~ joins m (concat (map lower (pre ++ [t]))) (concat (map lower post))) /\
      (rd t = false -> lower t = t /\ spared m t (concat (map lower post))).
  Lemma part_cond_lower ts : part_cond ts -> forall t, In t ts -> rd t = false -> lower t = t.
  Proof. intros H t I R. apply in_split in I. destruct I as (pre & post & ->). now apply (H pre t post). Qed.
  Lemma part_cond_fine ts : part_cond ts <-> (forall t, In t ts -> rd t = false -> lower t = t) /\ fine m [] (map flag ts).
  Proof.
    split.
    - intro H. pose proof (part_cond_lower ts H) as L. split; [exact L|]. apply fine_all. intros pre a x post Q.
      apply map_eq_app in Q. destruct Q as (p & q & -> & <- & Q). apply map_eq_cons in Q. destruct Q as (t & q' & -> & Ef & <-).
      unfold flag in Ef. injection Ef as <- <-.
      assert (Lp : txt (map flag p) = concat (map lower p)) by (apply flags_lower; intros w I; apply L; apply in_or_app; now left).
      assert (Lq : txt (map flag q') = concat (map lower q')) by (apply flags_lower; intros w I; apply L; apply in_or_app; right; now right).
      rewrite Lp, Lq. destruct (H p t q' eq_refl) as [H1 H2]. destruct (rd t).
      + specialize (H1 eq_refl). rewrite map_app, concat_app in H1. cbn [map concat] in H1. rewrite app_nil_r in H1. exact H1.
      + now apply H2.
    - intros [L F] pre t post ->. rewrite fine_all in F. specialize (F (map flag pre) (rd t) (snd (flag t)) (map flag post)).
      rewrite map_app in F. specialize (F eq_refl).
      assert (Lp : txt (map flag pre) = concat (map lower pre)) by (apply flags_lower; intros w I; apply L; apply in_or_app; now left).
      assert (Lq : txt (map flag post) = concat (map lower post)) by (apply flags_lower; intros w I; apply L; apply in_or_app; right; now right).
      rewrite Lp, Lq in F. assert (It : In t (pre ++ t :: post)) by (apply in_or_app; right; now left). specialize (L t It). cbn [flag snd] in F.
      split; intro R; rewrite R in F.
      + rewrite map_app, concat_app. cbn [map concat]. rewrite app_nil_r. exact F.
      + split; [now apply L|exact F].
  Qed.
  Theorem parts_lower ts : Forall (fun t => t <> []) ts -> (forall t, In t ts -> rd t = false -> lower t = t) ->
    (map g (conv m (lower (concat ts))) = map g (concat (map (fun t => if rd t then conv m (lower t) else t) ts)) <->
     lower (concat ts) = concat (map lower ts) /\ part_cond ts).
  Proof.
    intros F L. pose proof (flags_nonempty ts F) as NE. pose proof (flags_lower ts L) as T.
    assert (Sh : concat (map (fun t => if rd t then conv m (lower t) else t) ts) = concat (map (shown m) (map flag ts))).
    { rewrite map_map. f_equal. apply map_ext. intro t. unfold shown, flag. cbn. now destruct (rd t). }
    rewrite Sh, part_cond_fine. clear Sh.
    assert (Y : forall x, map g (conv m (lower (concat ts))) = map g x -> map (fun c => sg (g c)) (conv m (concat (map lower ts))) = map (fun c => sg (g c)) x).
    { assert (Z : forall y, map (fun c => sg (g c)) y = map g (map sg y)) by (intro y; rewrite map_map; apply map_ext; intro; symmetry; apply G1).
      intros x Q. rewrite <- (map_map g sg x), <- Q, map_map, !Z. f_equal. apply sigma_conv. symmetry. apply lower_parts. }
    split.
    - intro Q. assert (Fi : fine m [] (map flag ts)).
      { apply (parts_read m (fun c => sg (g c)) (map flag ts) gentle_sg NE). rewrite T. now apply Y. }
      split; [|split; [exact L|exact Fi]]. apply (sigma_same m g _ _ G2 (lower_parts ts)).
      apply (parts_read m g (map flag ts) Gg NE) in Fi. rewrite T in Fi. now rewrite Q, <- Fi.
    - intros [W [_ Fi]]. apply (parts_read m g (map flag ts) Gg NE) in Fi. rewrite T in Fi. rewrite W. exact Fi.
  Qed.
End Parts.

(** ** to_katakana *)
Lemma gentle_h2k : gentle h2k_char.
Proof.
  split; [exact harmless_h2k|]. split.
  - intros c L. destruct (h2k_char_cases c) as [->|[_ ->]]; lia.
  - intros c S. apply quote_number in S. destruct (h2k_char_cases c) as [Q|[Q _]]; [exact Q|]. unfold hiragana_letter in Q. lia.
Qed.
Lemma h2k_sg c : h2k_char (sg c) = sg (h2k_char c).
Proof.
  unfold sg. destruct (c =? 0x3C2) eqn:C.
  - apply N.eqb_eq in C. subst c. reflexivity.
  - apply N.eqb_neq in C. destruct (h2k_char_cases c) as [Q|[Q Z]].
    + rewrite Q. apply N.eqb_neq in C. now rewrite C.
    + rewrite Z. unfold hiragana_letter in Q. ifs; lia.
Qed.
Lemma part_mixed ts t : In t ts -> mixed_text t -> mixed_text (concat ts).
Proof.
  intros I [(c & C & Kc) (d & D & Rd)]. split; [exists c|exists d]; (split; [|assumption]); apply in_concat; eauto.
Qed.
Section KataParts.
  Variables (E : std) (o : options).
  Hypotheses (HE : std_ok E) (P : pass_romaji o = false).
  Notation m := (mode_of o).
  Notation K := (kata_pure E o).
  Definition kata_rd (t : str) : bool := is_romaji t || is_mixed t.
  Lemma kata_rd_spec t : kata_rd t = true <-> all_nonempty S_romaji t \/ mixed_text t.
  Proof. unfold kata_rd. now rewrite orb_true_iff, romaji_text_spec, mixed_spec. Qed.
  Lemma kata_rd_not t : kata_rd t = false <-> ~ (all_nonempty S_romaji t \/ mixed_text t).
  Proof. now rewrite <- kata_rd_spec, not_true_iff_false. Qed.
  Lemma kata_show t : K t = h2k (if kata_rd t then conv m (to_lowercase E t) else t).
  Proof. destruct (kata_rd t) eqn:R; [now apply kata_read|now apply kata_kept]. Qed.
  Lemma kata_shows ts : concat (map K ts) = map h2k_char (concat (map (fun t => if kata_rd t then conv m (to_lowercase E t) else t) ts)).
  Proof. induction ts as [|t ts IH]; [reflexivity|]. cbn [map concat]. now rewrite map_app, IH, kata_show. Qed.

  Theorem kata_parts_read ts : Forall (fun t => t <> []) ts -> all_nonempty S_romaji (concat ts) \/ mixed_text (concat ts) ->
    (K (concat ts) = concat (map K ts) <->
     to_lowercase E (concat ts) = concat (map (to_lowercase E) ts) /\ part_cond E o kata_rd ts).
  Proof.
    intros F B. apply kata_rd_spec in B. rewrite (kata_read E o P (concat ts) B).
    assert (X : (forall t, In t ts -> kata_rd t = false -> to_lowercase E t = t) ->
      (h2k (conv m (to_lowercase E (concat ts))) = concat (map K ts) <->
       to_lowercase E (concat ts) = concat (map (to_lowercase E) ts) /\ part_cond E o kata_rd ts)).
    { intro L. rewrite kata_shows. apply (parts_lower E o HE kata_rd h2k_char gentle_h2k h2k_sg); [vm_compute; discriminate|exact F|exact L]. }
    split.
    - intro Q. apply X; [|exact Q]. intros t I R. apply lowered_same; [exact HE|]. intros c C.
      destruct (h2k_char_cases c) as [H|[H _]].
      + assert (Low : lowered E (h2k (conv m (to_lowercase E (concat ts))))).
        { apply h2k_lowered; [exact HE|]. apply conv_lowered; [exact HE|]. now apply to_lowercase_lowered. }
        apply Low. rewrite Q. apply in_concat. exists (K t). split; [now apply in_map|]. rewrite kata_show, R, <- H. unfold h2k. now apply in_map.
      + apply ok_lower_caseless; [exact HE|]. unfold caseless, hiragana_letter in *. lia.
    - intros [W H]. apply X; [|now split]. exact (part_cond_lower E o kata_rd ts H).
  Qed.

  Theorem kata_parts_kept ts : ~ (all_nonempty S_romaji (concat ts) \/ mixed_text (concat ts)) ->
    (K (concat ts) = concat (map K ts) <->
     forall t, In t ts -> all_nonempty S_romaji t -> to_lowercase E t = t /\ untouched m t).
  Proof.
    intro B. pose proof B as B'. apply kata_rd_not in B'. rewrite (kata_kept E o P (concat ts) B').
    assert (R : forall t, In t ts -> kata_rd t = true -> Forall S_romaji t).
    { intros t I R. apply kata_rd_spec in R. destruct R as [[_ R]|R]; [now apply Forall_forall|]. exfalso. apply B. right. now apply (part_mixed ts t I). }
    split.
    - intro Q.
      assert (R1 : forall t, In t ts -> count big (K t) = count big t).
      { apply count_up; [|rewrite <- Q; apply big_h2k]. intros t I. rewrite kata_show, big_h2k. destruct (kata_rd t) eqn:Rt; [|lia].
        assert (count big t = 0%nat) as ->; [|lia]. apply count_none. intros c C. specialize (R t I Rt). rewrite Forall_forall in R. specialize (R c C).
        apply romaji_low in R. unfold big. apply N.leb_gt. lia. }
      assert (R2 : forall t, In t ts -> count (up_b E) (K t) = count (up_b E) t).
      { apply count_down; [|rewrite <- Q; apply up_h2k; exact HE]. intros t I. rewrite kata_show, up_h2k by exact HE. destruct (kata_rd t) eqn:Rt; [|lia].
        rewrite up_lowered; [lia|]. apply conv_lowered; [exact HE|]. now apply to_lowercase_lowered. }
      intros t I A. assert (Rt : kata_rd t = true) by (apply kata_rd_spec; now left). specialize (R t I Rt).
      specialize (R1 t I). specialize (R2 t I). rewrite kata_show, Rt in R1, R2. rewrite big_h2k in R1. rewrite up_h2k in R2 by exact HE.
      assert (L : to_lowercase E t = t).
      { apply up_romaji; [exact HE|exact R|]. rewrite <- R2. apply up_lowered. apply conv_lowered; [exact HE|]. now apply to_lowercase_lowered. }
      split; [exact L|]. rewrite L in R1. apply kana_fixed. now apply big_conv.
    - intro H. assert (map K ts = map h2k ts) as ->.
      { apply map_ext_tokens. intros t I. rewrite kata_show. destruct (kata_rd t) eqn:Rt; [|reflexivity].
        apply kata_rd_spec in Rt. destruct Rt as [Rt|Rt]; [|exfalso; apply B; right; now apply (part_mixed ts t I)].
        destruct (H t I Rt) as [-> U]. now rewrite (untouched_conv m t U). }
      unfold h2k. apply concat_map.
  Qed.
End KataParts.
