(** * Converting to kana in parts (C77) *)
From Coq Require Import PeanoNat.
From Verif Require Import Tac Base Std Constants Chars Trees KanaTree Strings Convert
  KanaPure KanaSpec KanaDict KanaProofs MoraProofs Splits KanaJoinSpec.

Lemma viable_entry m q : viable m q <-> exists k v, entry m (low q ++ k) v.
Proof.
  split.
  - intros (q' & k & v & C & I). apply casing_low in C. subst. eauto.
  - intros (k & v & I). exists (low q), k, v. split; [now apply casing_low|exact I].
Qed.
Lemma viable_app m a b : viable m (a ++ b) -> viable m a.
Proof. rewrite !viable_entry, low_app. intros (k & v & I). exists (low b ++ k), v. now rewrite app_assoc. Qed.
Lemma entry_viable m q v : entry m (low q) v -> viable m q.
Proof. intro I. apply viable_entry. exists [], v. now rewrite app_nil_r. Qed.

Lemma longest_exists m s : exists q, longest m q s.
Proof. exists (firstn (snd (kw (tree_of m) s)) s). apply longest_spec. reflexivity. Qed.
Lemma longest_unique m q q' s : longest m q s -> longest m q' s -> q = q'.
Proof. rewrite !longest_spec. congruence. Qed.
Lemma app_cut {A} (a b c d : list A) : a ++ b = c ++ d -> (length a <= length c)%nat -> exists e, c = a ++ e /\ b = e ++ d.
Proof.
  revert c. induction a as [|x a IH]; intros c Q L; [exists c; auto|]. destruct c as [|y c]; [cbn in L; lia|].
  injection Q as -> Q. destruct (IH c Q) as (e & -> & ->); [cbn in L; lia|]. now exists e.
Qed.
(** the longest beginning of a text and of its first part *)
Lemma longest_part m q w z : longest m q (w ++ z) ->
  (exists w', w = q ++ w' /\ longest m q w) \/ (exists e, q = w ++ e /\ e <> [] /\ longest m w w).
Proof.
  intros ((r & Q) & V & M). destruct (Nat.leb (length q) (length w)) eqn:L.
  - apply Nat.leb_le in L. left. destruct (app_cut q r w z (eq_sym Q) L) as (e & -> & ->). exists e. split; [reflexivity|].
    split; [eauto|]. split; [exact V|]. intros p r' P. apply (M p (r' ++ z)). now rewrite app_assoc, <- P.
  - apply Nat.leb_gt in L. right. destruct (app_cut w z q r Q) as (e & -> & ->); [lia|]. exists e. split; [reflexivity|].
    split; [intros ->; rewrite app_length in L; cbn in L; lia|]. apply viable_app in V.
    split; [exists []; now rewrite app_nil_r|]. split; [exact V|]. intros p r' P _. rewrite P, app_length. lia.
Qed.

Lemma conv_hit m q r v : longest m q (q ++ r) -> entry m (low q) v -> conv m (q ++ r) = emit q v ++ conv m r.
Proof.
  intros M I. symmetry. apply converts_iff. apply cv_hit with (k := low q) (v := v); auto.
  - now apply casing_low.
  - now apply cased_output_emit.
  - now apply converts_iff.
Qed.
Lemma conv_miss m q c s : longest m q (c :: s) -> (forall v, ~ entry m (low q) v) -> conv m (c :: s) = c :: conv m s.
Proof.
  intros M I. symmetry. apply converts_iff. apply cv_miss; [|now apply converts_iff].
  intros p k v L C J. rewrite (longest_unique _ _ _ _ L M) in C.
  apply casing_low in C. subst. exact (I v J).
Qed.
Lemma entry_dec m k : (exists v, entry m k v) \/ forall v, ~ entry m k v.
Proof.
  destruct (existsb (fun e => str_eqb (fst e) k) (dict m)) eqn:X.
  - left. apply existsb_exists in X. destruct X as ([k' v] & I & Q). apply str_eqb_eq in Q. cbn in Q. subst. eauto.
  - right. intros v I. apply not_true_iff_false in X. apply X. apply existsb_exists. exists (k, v). split; [exact I|].
    now apply str_eqb_eq.
Qed.

(** ** Facts about the dictionaries *)
Definition cons : str := u "bcdfghjklmnpqrstvwxyz".
Definition last_ok (m : mode) : bool :=
  forallb (fun e => negb (existsb (N.eqb (last (fst e) 0)) cons)
    || existsb (str_eqb (fst e)) match m with Ime => [u "xn"; u "nn"] | _ => [u "n"; u "xn"] end) (dict m).
Lemma last_ok_true m : last_ok m = true.
Proof. destruct m; vm_compute; reflexivity. Qed.
Lemma key_ends m k c v : entry m (k ++ [c]) v -> In c cons ->
  k ++ [c] = u "xn" \/ (m <> Ime /\ k ++ [c] = u "n") \/ (m = Ime /\ k ++ [c] = u "nn").
Proof.
  intros I J. pose proof (last_ok_true m) as F. unfold last_ok in F. rewrite forallb_forall in F. specialize (F _ I).
  cbn [fst] in F. rewrite last_last in F. apply orb_prop in F. destruct F as [F|F].
  - apply negb_true_iff, not_true_iff_false in F. exfalso. apply F. apply existsb_exists. exists c. split; [exact J|apply N.eqb_refl].
  - apply existsb_exists in F. destruct F as (k' & K & Q). apply str_eqb_eq in Q. rewrite Q. clear -K.
    destruct m; cbn [In] in K; destruct K as [<-|[<-|[]]]; auto; right; left; (split; [discriminate|reflexivity]).
Qed.
Definition n_tail (m : mode) : bool :=
  forallb (fun e => match fst e with a :: b :: c :: t => negb (a =? ch "n") || existsb (fun e' => str_eqb (fst e') (b :: c :: t)) (dict m)
                                   | _ => true end) (dict m).
Lemma n_tail_true m : n_tail m = true.
Proof. destruct m; vm_compute; reflexivity. Qed.
Lemma key_after_n m a b v : entry m (ch "n" :: a ++ b) v -> a <> [] -> b <> [] -> exists w, entry m (a ++ b) w.
Proof.
  intros I A B. destruct a as [|x a]; [congruence|]. assert (exists y t, a ++ b = y :: t) as (y & t & Q).
  { destruct a; [destruct b; [congruence|]|]; cbn; eauto. }
  cbn [app] in *. rewrite Q in *. pose proof (n_tail_true m) as F. unfold n_tail in F. rewrite forallb_forall in F. specialize (F _ I).
  cbn [fst] in F. rewrite N.eqb_refl in F. cbn [negb orb] in F. apply existsb_exists in F. destruct F as ([k w] & J & E).
  apply str_eqb_eq in E. cbn in E. subst. eauto.
Qed.
Definition values_ok (m : mode) : bool :=
  forallb (fun e => match snd e with h :: _ => (0x80 <=? h) && (0x80 <=? h2k_char h) | [] => false end) (dict m).
Lemma values_ok_true m : values_ok m = true.
Proof. destruct m; vm_compute; reflexivity. Qed.
Lemma emit_kana m k v q : entry m k v -> exists h r, emit q v = h :: r /\ 0x80 <= h.
Proof.
  intro I. pose proof (values_ok_true m) as F. unfold values_ok in F. rewrite forallb_forall in F. specialize (F _ I). cbn [snd] in F.
  destruct v as [|h v]; [discriminate|]. apply andb_true_iff in F. destruct F as [A B]. apply N.leb_le in A, B.
  unfold emit. destruct (forallb is_AZ q); cbn [h2k map]; eauto.
Qed.
Definition follow_ok (m : mode) : bool :=
  forallb (fun e => match fst e with a :: b :: _ => negb (a =? ch "n") || existsb (N.eqb b) (match m with Ime => u "'aiueoyn " | _ => u "'aiueoy" end)
                                   | _ => true end) (dict m).
Lemma follow_ok_true m : follow_ok m = true.
Proof. destruct m; vm_compute; reflexivity. Qed.
Lemma key_n_follow m d k v : m <> Ime -> entry m (ch "n" :: d :: k) v -> In d (u "'aiueoy").
Proof.
  intros Hm I. pose proof (follow_ok_true m) as F. unfold follow_ok in F. rewrite forallb_forall in F. specialize (F _ I).
  cbn [fst] in F. rewrite N.eqb_refl in F. cbn [negb orb] in F. apply existsb_In in F. destruct m; [exact F|exact F|congruence].
Qed.
Lemma n_key m : m <> Ime -> entry m (u "n") (u "ん").
Proof. intro H. apply pair_mem_In. destruct m; [| |congruence]; vm_compute; reflexivity. Qed.
Lemma nn_key : entry Ime (u "nn") (u "ん").
Proof. apply pair_mem_In. vm_compute. reflexivity. Qed.
Lemma xn_key m : entry m (u "xn") (u "ん").
Proof. apply pair_mem_In. destruct m; vm_compute; reflexivity. Qed.
Lemma n_follows m d : m <> Ime -> n_follow d -> viable m [ch "n"; d].
Proof.
  intros Hm (e & L & I). apply lowers_lower in L. apply viable_entry.
  cbn [low map]. rewrite L. change (ascii_lower (ch "n")) with (ch "n").
  assert (existsb (fun x => prefixb [ch "n"; e] (fst x)) (dict m) = true) as F.
  { revert e I L. assert (forallb (fun e => existsb (fun x => prefixb [ch "n"; e] (fst x)) (dict m)) (u "'aiueoy") = true) as G
      by (destruct m; vm_compute; reflexivity).
    rewrite forallb_forall in G. intros e I _. exact (G e I). }
  apply existsb_exists in F. destruct F as ([k v] & J & P). apply prefixb_spec in P. destruct P as [r P]. cbn [fst] in P. subst k. exists r, v. exact J.
Qed.

Lemma x_letter_low c : x_letter c <-> ascii_lower c = ch "x".
Proof.
  unfold x_letter. split; [intros [-> | ->]; reflexivity|]. unfold ascii_lower. change (ch "x") with 0x78. intro H. ifs_in H; lia.
Qed.
Lemma low_snoc x c : low (x ++ [c]) = low x ++ [ascii_lower c].
Proof. apply low_app. Qed.
Lemma ends_snoc P x c : ends_in P (x ++ [c]) <-> P c.
Proof.
  split; [|intro H; exists x, c; auto]. intros (x' & d & Q & H). apply app_inj_tail in Q. destruct Q as [_ ->]. exact H.
Qed.
Lemma ends_nil P : ~ ends_in P [].
Proof. intros (x' & d & Q & _). destruct x'; discriminate. Qed.
Lemma ends_app P a x : x <> [] -> ends_in P (a ++ x) <-> ends_in P x.
Proof. intro N. destruct (exists_last N) as (x' & c & ->). rewrite app_assoc, !ends_snoc. reflexivity. Qed.

(** ** An n that begins a key *)
Lemma n_not_x c : n_letter c -> ~ x_letter c.
Proof. unfold n_letter, x_letter. lia. Qed.
Lemma n_dec c : n_letter c \/ ~ n_letter c.
Proof. unfold n_letter. lia. Qed.
Lemma ends_dec (P : N -> Prop) x : (forall c, P c \/ ~ P c) -> ends_in P x \/ ~ ends_in P x.
Proof.
  intro D. destruct x as [|a x]; [right; apply ends_nil|]. assert (a :: x <> []) as N by discriminate.
  destruct (exists_last N) as (x' & c & ->). rewrite ends_snoc. apply D.
Qed.
Lemma x_dec c : x_letter c \/ ~ x_letter c.
Proof. unfold x_letter. lia. Qed.
Lemma run_exists x : exists x0 run, x = x0 ++ run /\ Forall n_letter run /\ ~ ends_in n_letter x0.
Proof.
  induction x as [|c x IH] using rev_ind; [exists [], []; repeat split; [constructor|apply ends_nil]|].
  destruct (n_dec c) as [C|C].
  - destruct IH as (x0 & run & -> & F & E). exists x0, (run ++ [c]). rewrite app_assoc. repeat split; [|exact E].
    apply Forall_app. split; [exact F|]. constructor; [exact C|constructor].
  - exists (x ++ [c]), []. rewrite app_nil_r. repeat split; [constructor|]. now rewrite ends_snoc.
Qed.
Lemma run_unique run : forall x0 x1 run', x0 ++ run = x1 ++ run' -> Forall n_letter run -> Forall n_letter run' ->
  ~ ends_in n_letter x0 -> ~ ends_in n_letter x1 -> x0 = x1 /\ run = run'.
Proof.
  induction run as [|c run IH] using rev_ind; intros x0 x1 run' Q F F' E E'.
  - rewrite app_nil_r in Q. subst x0. destruct run' as [|a r] eqn:R; [now rewrite app_nil_r|]. exfalso. apply E.
    rewrite ends_app by discriminate. rewrite <- R in *. assert (run' <> []) as N by (rewrite R; discriminate).
    destruct (exists_last N) as (r' & c & ->). apply ends_snoc. apply Forall_app in F'. destruct F' as [_ F']. now inversion F'.
  - apply Forall_app in F. destruct F as [F C]. inversion C as [|? ? C' _]; subst. destruct run' as [|a r].
    + exfalso. apply E'. rewrite app_nil_r in Q. subst x1. rewrite app_assoc. now apply ends_snoc.
    + assert (a :: r <> []) as N by discriminate. destruct (exists_last N) as (r' & d & R). rewrite R in *.
      rewrite !app_assoc in Q. apply app_inj_tail in Q. destruct Q as [Q ->]. apply Forall_app in F'. destruct F' as [F' _].
      destruct (IH _ _ _ Q F F' E E') as [-> ->]. auto.
Qed.
Lemma open_nil m : ~ open_n m [].
Proof.
  destruct m; cbn.
  - intros (x0 & c & Q & _). destruct x0; discriminate.
  - intros (x0 & c & Q & _). destruct x0; discriminate.
  - intros (x0 & run & Q & N & _). apply N. symmetry in Q. now apply app_eq_nil in Q.
Qed.
Lemma open_snoc_ime x c : open_n Ime (x ++ [c]) <-> n_letter c /\ ~ ends_in x_letter x /\ ~ open_n Ime x.
Proof.
  cbn. split.
  - intros (x0 & run & Q & N & F & E & P). destruct (exists_last N) as (run' & d & ->). rewrite app_assoc in Q.
    apply app_inj_tail in Q. destruct Q as [-> <-]. apply Forall_app in F. destruct F as [F C]. inversion C as [|? ? C' _]; subst.
    split; [exact C'|]. rewrite app_length in P. cbn [length] in P. rewrite Nat.add_1_r, Nat.Even_succ, Nat.Odd_succ in P. destruct run' as [|a r].
    + rewrite app_nil_r. cbn [length] in P. destruct P as [[_ P]|[P _]]; [destruct P as [? P]; lia|]. split; [exact P|].
      intros (x1 & run1 & -> & N1 & F1 & E1 & _). destruct (exists_last N1) as (r1 & d & ->). apply E. rewrite app_assoc. apply ends_snoc.
      apply Forall_app in F1. destruct F1 as [_ F1]. now inversion F1.
    + split.
      * rewrite ends_app by discriminate. assert (a :: r <> []) as N' by discriminate. destruct (exists_last N') as (r' & d & R).
        rewrite R in *. rewrite ends_snoc. apply n_not_x. apply Forall_app in F. destruct F as [_ F]. now inversion F.
      * intros (x1 & run1 & Q1 & N1 & F1 & E1 & P1). destruct (run_unique _ _ _ _ Q1 F F1 E E1) as [<- <-].
        destruct P as [[P P']|[P P']], P1 as [[P1 P1']|[P1 P1']]; try contradiction; eapply Nat.Even_Odd_False; eauto.
  - intros (C & E & O). destruct (run_exists x) as (x0 & run & -> & F & E0). exists x0, (run ++ [c]). rewrite app_assoc.
    split; [reflexivity|]. split; [now destruct run|]. split; [apply Forall_app; split; [exact F|constructor; [exact C|constructor]]|].
    split; [exact E0|]. rewrite app_length. cbn [length]. rewrite Nat.add_1_r, Nat.Even_succ, Nat.Odd_succ.
    destruct run as [|a r] eqn:R.
    + rewrite app_nil_r in E. right. split; [exact E|]. exists 0%nat. reflexivity.
    + rewrite <- R in *. assert (run <> []) as N by (rewrite R; discriminate).
      destruct (ends_dec x_letter x0 x_dec) as [X|X]; [left|right]; (split; [exact X|]);
        destruct (Nat.Even_or_Odd (length run)) as [Y|Y]; auto; exfalso; apply O; exists x0, run; auto 8.
Qed.
Lemma open_snoc m x c : open_n m (x ++ [c]) <-> n_letter c /\ ~ ends_in x_letter x /\ (m = Ime -> ~ open_n Ime x).
Proof.
  destruct m.
  3: { rewrite open_snoc_ime. intuition. }
  1,2: cbn; split; [intros (x0 & d & Q & N & E); apply app_inj_tail in Q; destruct Q as [-> ->]; repeat split; auto; discriminate
                   |intros (N & E & _); exists x, c; auto].
Qed.
Lemma open_one m c : open_n m [c] <-> n_letter c.
Proof.
  change [c] with ([] ++ [c]). rewrite open_snoc. split; [tauto|]. intro N. split; [exact N|]. split; [apply ends_nil|]. intros _. apply open_nil.
Qed.

(** a key does not end with a letter that waits for more, but for n itself outside of IME mode *)
Lemma low_one q c : low q = [c] -> exists d, q = [d] /\ ascii_lower d = c.
Proof. destruct q as [|d [|]]; cbn; try discriminate. intros [= <-]. eauto. Qed.
Lemma low_two q c e : low q = [c; e] -> exists d f, q = [d; f] /\ ascii_lower d = c /\ ascii_lower f = e.
Proof. destruct q as [|d [|f [|]]]; cbn; try discriminate. intros [= <- <-]. eauto 6. Qed.
Lemma n_in_cons : In (ch "n") cons.
Proof. apply existsb_In. vm_compute. reflexivity. Qed.
Lemma x_in_cons : In (ch "x") cons.
Proof. apply existsb_In. vm_compute. reflexivity. Qed.
Lemma key_not_x m q v : entry m (low q) v -> ~ ends_in x_letter q.
Proof.
  intros I (x' & c & -> & X). apply x_letter_low in X. rewrite low_snoc, X in I. apply key_ends in I; [|exact x_in_cons].
  destruct I as [I|[[_ I]|[_ I]]].
  - change (u "xn") with ([ch "x"] ++ [ch "n"]) in I. apply app_inj_tail in I. destruct I as [_ I]. discriminate.
  - change (u "n") with ([] ++ [ch "n"]) in I. apply app_inj_tail in I. destruct I as [_ I]. discriminate.
  - change (u "nn") with ([ch "n"] ++ [ch "n"]) in I. apply app_inj_tail in I. destruct I as [_ I]. discriminate.
Qed.
Lemma open_key m q v : entry m (low q) v -> open_n m q -> m <> Ime /\ exists c, q = [c] /\ n_letter c.
Proof.
  intros I O. destruct q as [|a q0] eqn:Q; [now apply open_nil in O|]. rewrite <- Q in *. assert (q <> []) as N by (rewrite Q; discriminate). clear Q.
  destruct (exists_last N) as (q' & c & ->). apply open_snoc in O. destruct O as (C & E & O).
  pose proof C as C'. apply n_letter_low in C'. pose proof I as J. rewrite low_snoc, C' in J. apply key_ends in J; [|exact n_in_cons].
  destruct J as [J|[[M J]|[-> J]]].
  - exfalso. change (u "xn") with ([ch "x"] ++ [ch "n"]) in J. apply app_inj_tail in J. destruct J as [J _]. apply low_one in J.
    destruct J as (d & -> & D). apply E. change [d] with ([] ++ [d]). apply ends_snoc. now apply x_letter_low.
  - split; [exact M|]. change (u "n") with ([] ++ [ch "n"]) in J. apply app_inj_tail in J. destruct J as [J _].
    destruct q'; [|discriminate]. exists c. auto.
  - exfalso. change (u "nn") with ([ch "n"] ++ [ch "n"]) in J. apply app_inj_tail in J. destruct J as [J _]. apply low_one in J.
    destruct J as (d & -> & D). apply (O eq_refl). apply open_one. now apply n_letter_low.
Qed.
Lemma open_drop_key m q v x : entry m (low q) v -> x <> [] -> open_n m (q ++ x) <-> open_n m x.
Proof.
  intros I N. induction x as [|c x IH] using rev_ind; [congruence|]. rewrite app_assoc, !open_snoc. destruct x as [|a x0] eqn:X.
  - rewrite app_nil_r. split; intros (C & E & O); (split; [exact C|]).
    + split; [apply ends_nil|]. intros _. apply open_nil.
    + split; [eapply key_not_x; eauto|]. intros -> O'. destruct (open_key _ _ _ I O') as [M _]. congruence.
  - rewrite <- X in *. assert (x <> []) as Nx by (rewrite X; discriminate). specialize (IH Nx). rewrite (ends_app _ q x Nx).
    split; intros (C & E & O); repeat split; auto; intros ->; rewrite IH in * || rewrite <- IH in *; auto.
Qed.
Lemma open_drop_char m c x d x' : x = d :: x' -> (n_letter d -> ~ x_letter c /\ (m = Ime -> ~ n_letter c)) ->
  open_n m (c :: x) <-> open_n m x.
Proof.
  intros Q H. assert (N : x <> []) by (rewrite Q; discriminate). revert x' Q N. induction x as [|e x IH] using rev_ind; [congruence|]. intros x' Q _.
  change (c :: x ++ [e]) with ((c :: x) ++ [e]). rewrite !open_snoc. destruct x as [|a x0] eqn:X.
  - injection Q as -> _. change [c] with ([] ++ [c]). rewrite ends_snoc. cbn [app]. split; intros (C & E & O); (split; [exact C|]).
    + split; [apply ends_nil|]. intros _. apply open_nil.
    + destruct (H C) as [H1 H2]. split; [exact H1|]. intros M O'. apply open_one in O'. exact (H2 M O').
  - rewrite <- X in *. assert (x <> []) as Nx by (rewrite X; discriminate). rewrite X in Q. cbn [app] in Q. injection Q as -> Q.
    specialize (IH x0 X Nx). change (c :: x) with ([c] ++ x) at 1. rewrite (ends_app _ [c] x Nx).
    split; intros (C & E & O); repeat split; auto; intros ->; rewrite IH in * || rewrite <- IH in *; auto.
Qed.

(** ** What was read before does not matter *)
Lemma no_nn m b v : entry m (ch "n" :: ch "n" :: b) v -> b = [].
Proof.
  intro I. destruct m.
  1,2: exfalso; apply key_n_follow in I; [|discriminate]; vm_compute in I; intuition discriminate.
  pose proof (ime_unextended _ _ nn_key) as U. exact (U b v I).
Qed.
Lemma longer m q e r : longest m q (q ++ e ++ r) -> e <> [] -> ~ viable m (q ++ e).
Proof.
  intros (_ & _ & M) N V. specialize (M (q ++ e) r). rewrite <- app_assoc in M. specialize (M eq_refl V). rewrite app_length in M.
  destruct e; [congruence|]. cbn in M. lia.
Qed.
Lemma key_inner m a d b v : entry m (low (a ++ d :: b)) v -> b <> [] -> In (ascii_lower d) cons.
Proof.
  intros I N. destruct b as [|c b]; [congruence|]. apply (viable_inner m a d c). apply viable_entry. exists (low b), v.
  rewrite <- low_app, <- !app_assoc. exact I.
Qed.

Lemma joins_drop_key m q v x y z : longest m q (q ++ x ++ y ++ z) -> entry m (low q) v ->
  joins m (q ++ x) y <-> joins m x y.
Proof.
  intros L I.
  assert (O : forall d y', y = d :: y' -> open_n m (q ++ x) -> (m <> Ime -> n_follow d) -> open_n m x).
  { intros d y' Y O F. destruct x as [|a x0] eqn:X; [|rewrite <- X in *; apply (open_drop_key m q v x I); [rewrite X; discriminate|exact O]].
    exfalso. rewrite app_nil_r in O. destruct (open_key _ _ _ I O) as (M & c & -> & C). specialize (F M). subst y.
    refine (longer m [c] [d] (y' ++ z) L ltac:(discriminate) _). pose proof (n_follows m d M F) as V. apply viable_entry in V. apply viable_entry.
    cbn [app low map] in *. apply n_letter_low in C. rewrite C. exact V. }
  assert (O' : open_n m x -> open_n m (q ++ x)).
  { intro H. apply (open_drop_key m q v x I); [|exact H]. intros ->. now apply open_nil in H. }
  split.
  - intros [(x1 & b & b' & y' & k & w & Q & -> & N & N' & Nn & C & J)|[(H & M & d & y' & -> & F)|(H & -> & b' & y' & k & w & -> & C & J)]].
    + apply casing_low in C. subst k. symmetry in Q. destruct (Nat.leb (length q) (length x1)) eqn:Le.
      { apply Nat.leb_le in Le. destruct (app_cut q x x1 b (eq_sym Q) Le) as (e & -> & ->).
        left. exists e, b, b', y', (low (b ++ b')), w. repeat split; auto. now apply casing_low. }
      apply Nat.leb_gt in Le. destruct (app_cut x1 b q x Q) as (p & -> & ->); [lia|].
      assert (Np : p <> []) by (intros ->; rewrite app_nil_r in Le; lia). clear Le Q N.
      assert (x1 <> []) as N1.
      { intros ->. cbn [app] in L. rewrite <- !app_assoc in L. rewrite (app_assoc x b') in L.
        refine (longer m p (x ++ b') (y' ++ z) L _ _); [now destruct x|]. rewrite app_assoc. eapply entry_viable; eauto. }
      destruct (exists_last Np) as (p' & d & ->).
      assert (D : In (ascii_lower d) cons).
      { apply (key_inner m p' d (x ++ b') w); [|now destruct x]. rewrite <- !app_assoc in J. exact J. }
      pose proof I as K. rewrite app_assoc, low_snoc in K. apply key_ends in K; [|exact D].
      assert (P : p' = [] /\ ascii_lower d = ch "n").
      { destruct K as [K|[[_ K]|[_ K]]].
        - change (u "xn") with ([ch "x"] ++ [ch "n"]) in K. apply app_inj_tail in K. destruct K as [K ->]. split; [|reflexivity].
          destruct x1 as [|? [|]], p'; try discriminate; congruence.
        - change (u "n") with ([] ++ [ch "n"]) in K. apply app_inj_tail in K. destruct K as [K ->]. split; [|reflexivity].
          destruct x1 as [|? [|]], p'; try discriminate; congruence.
        - change (u "nn") with ([ch "n"] ++ [ch "n"]) in K. apply app_inj_tail in K. destruct K as [K ->]. split; [|reflexivity].
          destruct x1 as [|? [|]], p'; try discriminate; congruence. }
      destruct P as [-> P]. cbn [app] in *.
      destruct x as [|a x0] eqn:X; [exfalso; apply (Nn d eq_refl); now apply n_letter_low|]. rewrite <- X in *.
      assert (x <> []) as Nx by (rewrite X; discriminate).
      change (low (d :: x ++ b')) with (ascii_lower d :: low (x ++ b')) in J. rewrite P, low_app in J.
      destruct (key_after_n _ _ _ _ J) as [w' W]; [now destruct x|now destruct b'|].
      left. exists [], x, b', y', (low (x ++ b')), w'. split; [reflexivity|]. split; [reflexivity|]. split; [exact Nx|]. split; [exact N'|].
      split; [|split; [now apply casing_low|now rewrite low_app]].
      intros c Q C. rewrite Q in J. apply n_letter_low in C. cbn [low map app] in J. rewrite C in J. apply no_nn in J. now destruct b'.
    + right; left. split; [|split; [exact M|eauto]]. eapply O; eauto.
    + right; right. assert (b' <> []) as N'.
      { intros ->. apply casing_low in C. subst k. apply ime_no_n in J. exact J. }
      split; [|split; [reflexivity|exists b', y', k, w; auto]]. destruct b' as [|d b']; [congruence|]. eapply O; [reflexivity|exact H|congruence].
  - intros [(x1 & b & b' & y' & k & w & -> & H)|[(H & H')|(H & H')]].
    + left. exists (q ++ x1), b, b', y', k, w. now rewrite app_assoc.
    + right; left. auto.
    + right; right. auto.
Qed.

Lemma joins_drop_char m q c x y z : longest m q (c :: x ++ y ++ z) -> (forall v, ~ entry m (low q) v) ->
  (m <> Ime -> n_letter c -> x <> []) -> joins m (c :: x) y <-> joins m x y.
Proof.
  intros L I Nc.
  assert (Hit : forall p r k v, c :: x ++ y ++ z = p ++ r -> low p = k -> entry m k v -> k <> u "n" -> False).
  { intros p r k v Q P J K. subst k. pose proof (only_n_extended m _ _ J K) as U. apply (I v).
    destruct L as ((r0 & Q0) & V & M). specialize (M p r Q (entry_viable _ _ _ J)). rewrite Q in Q0.
    destruct (app_cut p r q r0 Q0 M) as (e & -> & _). apply viable_entry in V. destruct V as (k & w & W). rewrite low_app in *.
    rewrite <- app_assoc in W. apply U in W. apply app_eq_nil in W. destruct W as [-> ->]. now rewrite app_nil_r. }
  assert (O : x <> [] -> open_n m (c :: x) <-> open_n m x).
  { intro N. destruct x as [|d x']; [congruence|]. eapply open_drop_char; [reflexivity|]. intro D. apply n_letter_low in D.
    split.
    - intro C. apply x_letter_low in C. apply (Hit [c; d] (x' ++ y ++ z) (u "xn") (u "ん")); [reflexivity| |apply xn_key|discriminate].
      cbn [low map]. rewrite C, D. reflexivity.
    - intros -> C. apply n_letter_low in C. apply (Hit [c; d] (x' ++ y ++ z) (u "nn") (u "ん")); [reflexivity| |exact nn_key|discriminate].
      cbn [low map]. rewrite C, D. reflexivity. }
  split.
  - intros [(x1 & b & b' & y' & k & w & Q & -> & N & N' & Nn & C & J)|[(H & M & d & y' & -> & F)|(H & -> & b' & y' & k & w & -> & C & J)]].
    + destruct x1 as [|e x1].
      * exfalso. cbn in Q. subst b. apply casing_low in C. apply (Hit ((c :: x) ++ b') (y' ++ z) k w); auto.
        -- cbn. now rewrite <- !app_assoc.
        -- intros ->. apply (f_equal (@length _)) in C. rewrite low_length, app_length in C. destruct b'; [congruence|]. cbn in C. lia.
      * injection Q as <- ->. left. exists x1, b, b', y', k, w. auto 8.
    + right; left. split; [|split; [exact M|eauto]]. destruct x as [|a x0] eqn:X; [|rewrite <- X in *; apply O; [rewrite X; discriminate|exact H]].
      exfalso. apply open_one in H. now apply (Nc M H).
    + right; right. split; [|split; [reflexivity|exists b', y', k, w; auto]].
      destruct x as [|a x0] eqn:X; [|rewrite <- X in *; apply O; [rewrite X; discriminate|exact H]].
      exfalso. apply open_one in H. apply casing_low in C. apply n_letter_low in H.
      apply (Hit ([c] ++ b') (y' ++ z) (ch "n" :: k) w); [cbn; now rewrite <- app_assoc| |exact J|].
      * cbn [app low map]. rewrite H. f_equal. exact C.
      * intros [= ->]. apply ime_no_n in J. exact J.
  - intros [(x1 & b & b' & y' & k & w & -> & H)|[(H & H')|(H & H')]].
    + left. exists (c :: x1), b, b', y', k, w. auto.
    + right; left. split; [|exact H']. apply O; [|exact H]. intros ->. now apply open_nil in H.
    + right; right. split; [|exact H']. apply O; [|exact H]. intros ->. now apply open_nil in H.
Qed.

(** ** The apostrophe *)
Lemma apostrophe_no_key m : ~ viable m [0x27].
Proof.
  rewrite viable_spec. intros [n A]. assert (match k_at (tree_of m) [0x27] with Some _ => false | None => true end = true)
    by (destruct m; vm_compute; reflexivity). change (low [0x27]) with [0x27] in A. rewrite A in H. discriminate.
Qed.
Lemma apostrophe_stays m s : conv m (0x27 :: s) = 0x27 :: conv m s.
Proof.
  apply (conv_miss m []).
  - split; [now exists (0x27 :: s)|]. split.
    + destruct (longest_exists m []) as (q & (r & Q) & V & _). symmetry in Q. apply app_eq_nil in Q. destruct Q as [-> _]. exact V.
    + intros p r Q V. destruct p as [|c p]; [cbn; lia|]. injection Q as <- Q. exfalso. apply (apostrophe_no_key m).
      change (0x27 :: p) with ([0x27] ++ p) in V. exact (viable_app m _ _ V).
  - intros v J. now apply (keys_nonempty m [] v).
Qed.
Lemma conv_first m c s : conv m (c :: s) = c :: conv m s \/ exists h r, conv m (c :: s) = h :: r /\ 0x80 <= h.
Proof.
  destruct (longest_exists m (c :: s)) as (q & L). destruct (entry_dec m (low q)) as [[v J]|J]; [|left; eapply conv_miss; eauto].
  right. pose proof L as ((r & Q) & _). rewrite Q in *. rewrite (conv_hit _ _ _ _ L J). destruct (emit_kana m _ _ q J) as (h & t & -> & H).
  exists h, (t ++ conv m r). auto.
Qed.
(** what is compared may be rewritten character by character, as in katakana *)
Definition harmless (g : N -> N) : Prop :=
  (forall c, c < 0x80 -> g c = c) /\ (forall c, 0x80 <= c -> 0x80 <= g c) /\
  (forall h k, In k (u "んン") -> g h = g k -> In h (u "んン")).
Lemma harmless_id : harmless (fun c => c).
Proof. split; [auto|]. split; [auto|]. intros h k I ->. exact I. Qed.
Lemma map_id_eq (s : str) : map (fun c : N => c) s = s.
Proof. apply map_id. Qed.
Lemma apostrophe_apart m g rest : harmless g -> forall ws, concat ws = 0x27 :: rest -> map g (conv m rest) <> map g (concat (map (conv m) ws)).
Proof.
  intros (G1 & G2 & _). induction rest as [rest IH] using str_ind_len. intros ws. induction ws as [|w ws IHw]; [discriminate|]. cbn [concat map].
  destruct w as [|c w]; [exact IHw|]. intros Q. cbn [app] in Q. injection Q as -> Q. rewrite apostrophe_stays. cbn [app map]. rewrite (G1 0x27) by lia. intro Eq.
  destruct rest as [|d rest]; [discriminate|]. destruct (conv_first m d rest) as [F|(h & r & F & H)]; rewrite F in Eq; cbn [map] in Eq; injection Eq as E1 E2.
  - assert (d = 0x27) as ->.
    { destruct (N.lt_ge_cases d 0x80) as [D|D]; [rewrite (G1 d D) in E1; exact E1|]. specialize (G2 d D). lia. }
    apply (IH rest ltac:(cbn; lia) (w :: ws)); [exact Q|exact E2].
  - specialize (G2 h H). lia.
Qed.

(** ** The parts *)
Lemma boundary (ws : list str) : forall e r, concat ws = e ++ r -> e <> [] ->
  exists pre b' t' post, ws = pre ++ (b' ++ t') :: post /\ e = concat pre ++ b' /\ b' <> [].
Proof.
  induction ws as [|t ws IH]; intros e r Q N; [symmetry in Q; apply app_eq_nil in Q; destruct Q; congruence|]. cbn [concat] in Q.
  destruct (Nat.leb (length e) (length t)) eqn:L.
  - apply Nat.leb_le in L. destruct (app_cut e r t (concat ws) (eq_sym Q) L) as (f & -> & _). exists [], e, f, ws. auto.
  - apply Nat.leb_gt in L. destruct (app_cut t (concat ws) e r Q) as (f & -> & Q'); [lia|].
    destruct (IH f r Q') as (pre & b' & t' & post & -> & -> & Nb); [intros ->; rewrite app_nil_r in L; lia|].
    exists (t :: pre), b', t', post. cbn. now rewrite app_assoc.
Qed.

Lemma viable_cons_low m c s : viable m (c :: s) -> s <> [] -> c < 0x80.
Proof.
  intros V N. apply viable_entry in V. destruct V as (k & v & J). destruct s as [|d s]; [congruence|].
  assert (In (ascii_lower c) cons) as I.
  { apply (viable_inner m [] c d). apply viable_entry. exists (low s ++ k), v. exact J. }
  assert (forallb (fun d => (0x61 <=? d) && (d <=? 0x7A)) cons = true) as F by reflexivity. rewrite forallb_forall in F. specialize (F _ I).
  revert F. unfold ascii_lower. ifs; lia.
Qed.

Lemma parts_conv_map m g n : harmless g -> forall w ws, (length (w ++ concat ws) + length ws < n)%nat -> Forall (fun t => t <> []) ws ->
  (map g (conv m (w ++ concat ws)) = map g (conv m w) ++ map g (concat (map (conv m) ws)) <->
   forall pre t post, ws = pre ++ t :: post -> ~ joins m (w ++ concat pre) t).
Proof.
  intro G. pose proof G as (G1 & G2 & G3). induction n as [|n IH]; [lia|]. intros w ws Len F. destruct w as [|c w].
  - destruct ws as [|t ws]; [split; [intros _ [|] ? ? Q; discriminate|reflexivity]|]. inversion F as [|? ? Nt F']; subst.
    cbn [concat map app]. rewrite map_app. rewrite (IH t ws); [|cbn in Len; lia|exact F'].
    change (kconv (tree_of m) []) with (@nil N). cbn [app].
    split; intros H pre t' post Q.
    + destruct pre as [|p pre].
      * cbn. intros [(x1 & b & b' & y' & k & v & X & _ & N & _)|[(O & _)|(O & _)]]; [|now apply open_nil in O|now apply open_nil in O].
        symmetry in X. apply app_eq_nil in X. destruct X; congruence.
      * injection Q as <- ->. cbn. exact (H pre t' post eq_refl).
    + specialize (H (t :: pre) t' post). cbn in H. apply H. now rewrite Q.
  - destruct (longest_exists m ((c :: w) ++ concat ws)) as (q & L).
    assert (Sub : forall pre t post, ws = pre ++ t :: post -> (c :: w) ++ concat ws = (c :: w ++ concat pre) ++ t ++ concat post).
    { intros pre t post ->. rewrite concat_app. cbn [concat app]. now rewrite <- !app_assoc. }
    assert (Miss : (forall v, ~ entry m (low q) v) -> conv m (c :: w) = c :: conv m w -> (m <> Ime -> n_letter c -> w <> []) ->
      (map g (conv m ((c :: w) ++ concat ws)) = map g (conv m (c :: w)) ++ map g (concat (map (conv m) ws)) <->
       forall pre t post, ws = pre ++ t :: post -> ~ joins m ((c :: w) ++ concat pre) t)).
    { intros J K Nc. rewrite K. cbn [app] in *. rewrite (conv_miss m q c (w ++ concat ws) L J).
      cbn [map app].
      assert (A : g c :: map g (conv m (w ++ concat ws)) = g c :: map g (conv m w) ++ map g (concat (map (conv m) ws)) <->
                  map g (conv m (w ++ concat ws)) = map g (conv m w) ++ map g (concat (map (conv m) ws))) by (split; congruence).
      rewrite A, (IH w ws); [|cbn in Len; lia|exact F].
      assert (B : forall pre t post, ws = pre ++ t :: post -> joins m (c :: w ++ concat pre) t <-> joins m (w ++ concat pre) t).
      { intros pre t post Q. apply (joins_drop_char m q c (w ++ concat pre) t (concat post)); [|exact J|].
        - specialize (Sub pre t post Q). cbn [app] in Sub. rewrite Sub in L. exact L.
        - intros M C X. apply app_eq_nil in X. destruct X as [X _]. now apply (Nc M C). }
      split; intros H pre t post Q; specialize (H pre t post Q); specialize (B pre t post Q); tauto. }
    destruct (longest_part m q (c :: w) (concat ws) L) as [(w' & W & L')|(e & -> & Ne & L')].
    + destruct (entry_dec m (low q)) as [[v J]|J].
      * rewrite W in *. rewrite <- app_assoc in *. rewrite (conv_hit m q _ v L J), (conv_hit m q _ v L' J), !map_app, <- app_assoc.
        assert (Nq : q <> []) by (intros ->; now apply keys_nonempty in J).
        assert (A : forall x y : str, map g (emit q v) ++ x = map g (emit q v) ++ y <-> x = y) by (intros; split; [apply app_inv_head|congruence]).
        rewrite A, (IH w' ws); [| |exact F].
        2: { rewrite !app_length in *. destruct q; [congruence|]. cbn in Len. lia. }
        assert (B : forall pre t post, ws = pre ++ t :: post -> joins m ((q ++ w') ++ concat pre) t <-> joins m (w' ++ concat pre) t).
        { intros pre t post Q. rewrite <- app_assoc. apply (joins_drop_key m q v (w' ++ concat pre) t (concat post)); [|exact J].
          rewrite Q, concat_app in L. cbn [concat] in L. now rewrite <- !app_assoc. }
        split; intros H pre t post Q; specialize (H pre t post Q); specialize (B pre t post Q); tauto.
      * apply Miss; [exact J|eapply conv_miss; eauto|]. intros M C ->. destruct L' as (_ & _ & L').
        assert (V : entry m (low [c]) (u "ん")).
        { apply n_letter_low in C. cbn [low map]. rewrite C. now apply n_key. }
        specialize (L' [c] [] eq_refl (entry_viable _ _ _ V)). destruct q as [|d [|]]; cbn in L', W; [lia| |discriminate].
        injection W as <- _. exact (J _ V).
    + pose proof L as ((r & Q) & V & _). rewrite <- app_assoc in Q. apply app_inv_head in Q.
      assert (C80 : c < 0x80).
      { apply (viable_cons_low m c (w ++ e)); [exact V|]. intro X. apply app_eq_nil in X. destruct X; congruence. }
      destruct (entry_dec m (low (c :: w))) as [[x X]|X].
      * (* the part ends with n *)
        assert (NW : exists k y, entry m (low (c :: w) ++ low e ++ k) y) by (apply viable_entry in V; destruct V as (k & y & V); exists k, y; rewrite low_app, <- app_assoc in V; exact V).
        assert (w = [] /\ m <> Ime /\ n_letter c) as (-> & M & C).
        { destruct NW as (k & y & NW). destruct (list_eq_dec N.eq_dec (low (c :: w)) (u "n")) as [P|P].
          - cbn [low map] in P. injection P as P1 P2. destruct w; [|discriminate]. split; [reflexivity|]. split; [|now apply n_letter_low].
            intros ->. cbn [low map] in X. rewrite P1 in X. now apply ime_no_n in X.
          - exfalso. pose proof (only_n_extended m _ _ X P) as U. apply U in NW. apply app_eq_nil in NW. destruct NW as [NW _]. destruct e; [congruence|discriminate]. }
        cbn [app] in *. destruct ws as [|t ws]; [cbn in Q; symmetry in Q; apply app_eq_nil in Q; destruct Q; congruence|].
        inversion F as [|? ? Nt F']; subst. destruct t as [|d t]; [congruence|]. destruct e as [|d' e]; [congruence|].
        cbn [concat app] in Q. injection Q as <- Q.
        assert (Fd : n_follow d).
        { destruct NW as (k & y & NW). pose proof C as C'. apply n_letter_low in C'. cbn [low map app] in NW. rewrite C' in NW. apply key_n_follow in NW; [|exact M].
          exists (ascii_lower d). split; [now apply lowers_lower|exact NW]. }
        assert (Cn : conv m [c] = emit [c] (u "ん")).
        { change [c] with ([c] ++ []) at 1. rewrite (conv_n m [c] [] M); [apply app_nil_r| |exact I].
          apply casing_low. apply n_letter_low in C. cbn [low map]. now rewrite C. }
        assert (Ek : exists k, emit [c] (u "ん") = [k] /\ In k (u "んン")).
        { destruct C as [-> | ->]; eexists; (split; [vm_compute; reflexivity|vm_compute; auto]). }
        destruct Ek as (k & Ek & Ik).
        split.
        { intro H. exfalso. rewrite Cn, Ek, <- map_app in H. cbn [app concat map] in H. destruct (N.eq_dec d 0x27) as [->|D].
          - assert (Ho : conv m (c :: 0x27 :: t ++ concat ws) = u "ん" ++ conv m (t ++ concat ws)).
            { assert (Cs : casing [c; 0x27] (u "n'")).
              { apply casing_low. apply n_letter_low in C. cbn [low map]. rewrite C. reflexivity. }
              pose proof (n_apostrophe m) as J. assert (U : unextended m (u "n'")) by (eapply only_n_extended; [exact J|discriminate]).
              pose proof (conv_entry m [c; 0x27] _ _ (t ++ concat ws) J U Cs) as Y. rewrite (emit_apostrophe [c; 0x27] (u "n") (u "ん") Cs) in Y. exact Y. }
            rewrite Ho in H. cbn [app] in H. change (u "ん") with [ch "ん"] in H. cbn [app map] in H. injection H as _ H.
            refine (apostrophe_apart m g (t ++ concat ws) G ((0x27 :: t) :: ws) eq_refl _). exact H.
          - destruct (conv_n_follow m c d (t ++ concat ws) M C Fd D) as (h & y & Y & Ih). cbn [concat app] in Y. rewrite Y in H. cbn [map] in H. injection H as H _. apply Ih. exact (G3 h k Ik H). }
        { intro H. exfalso. apply (H [] (d :: t) ws eq_refl). right; left. cbn. split; [now apply open_one|]. split; [exact M|]. eauto. }
      * assert (K : conv m (c :: w) = c :: conv m w) by (eapply conv_miss; eauto).
        destruct (entry_dec m (low ((c :: w) ++ e))) as [[v J]|J].
        -- split.
           ++ intro H. exfalso. pose proof L as L2. rewrite Q in L2, H. rewrite app_assoc in L2, H. rewrite (conv_hit m _ r v L2 J), K in H.
              destruct (emit_kana m _ _ ((c :: w) ++ e) J) as (h & y & Y & Hh). rewrite Y in H. cbn [app map] in H. injection H as H _. rewrite (G1 c C80) in H. specialize (G2 h Hh). lia.
           ++ intro H. exfalso. destruct (boundary ws e r Q Ne) as (pre & b' & t' & post & -> & -> & Nb).
              apply (H pre (b' ++ t') post eq_refl). rewrite app_assoc in J. destruct (n_dec c) as [C|C].
              2: { left. exists [], ((c :: w) ++ concat pre), b', t', (low (((c :: w) ++ concat pre) ++ b')), v. split; [reflexivity|].
                   split; [reflexivity|]. split; [discriminate|]. split; [exact Nb|]. split; [|split; [now apply casing_low|exact J]].
                   intros d D. cbn in D. injection D as <- _. exact C. }
              destruct (w ++ concat pre) as [|a l] eqn:Wl.
              2: { left. exists [], ((c :: w) ++ concat pre), b', t', (low (((c :: w) ++ concat pre) ++ b')), v. split; [reflexivity|].
                   split; [reflexivity|]. split; [discriminate|]. split; [exact Nb|]. split; [|split; [now apply casing_low|exact J]].
                   intros d D. cbn in D. rewrite Wl in D. discriminate. }
              assert (O : open_n m ((c :: w) ++ concat pre)) by (cbn [app]; rewrite Wl; now apply open_one).
              apply n_letter_low in C. cbn [app] in J. rewrite Wl in J. cbn [app low map] in J. rewrite C in J.
              destruct b' as [|d b']; [congruence|]. destruct m.
              1,2: right; left; split; [exact O|]; split; [discriminate|]; exists d, (b' ++ t'); split; [reflexivity|];
                   exists (ascii_lower d); split; [now apply lowers_lower|]; cbn [map] in J; apply key_n_follow in J; [exact J|discriminate].
              right; right. split; [exact O|]. split; [reflexivity|]. exists (d :: b'), t', (low (d :: b')), v. split; [reflexivity|].
              split; [now apply casing_low|exact J].
        -- apply Miss; [exact J|exact K|]. intros M C ->. apply n_letter_low in C. apply (X (u "ん")). cbn [low map]. rewrite C. now apply n_key.
Qed.

Lemma parts_conv m w ws : Forall (fun t => t <> []) ws ->
  (conv m (w ++ concat ws) = conv m w ++ concat (map (conv m) ws) <->
   forall pre t post, ws = pre ++ t :: post -> ~ joins m (w ++ concat pre) t).
Proof.
  intro F. pose proof (parts_conv_map m (fun c => c) _ harmless_id w ws (Nat.lt_succ_diag_r _) F) as H. rewrite !map_id_eq in H. exact H.
Qed.

Theorem kana_parts E o ts : std_ok E -> Forall (fun t => t <> []) ts ->
  exists r rs, to_kana_with_opt E (concat ts) o = Ok r /\ Forall2 (fun t q => to_kana_with_opt E t o = Ok q) ts rs /\
    (r = concat rs <-> forall pre t post, ts = pre ++ t :: post -> ~ joins (mode_of o) (concat pre) t).
Proof.
  intros HE F. exists (conv (mode_of o) (concat ts)), (map (conv (mode_of o)) ts).
  split; [rewrite to_kana_with_opt_eq by exact HE; now rewrite k_tree_mode|]. split.
  - induction ts as [|t ts IH]; [constructor|]. inversion F; subst. constructor; [|auto]. rewrite to_kana_with_opt_eq by exact HE. now rewrite k_tree_mode.
  - exact (parts_conv (mode_of o) [] ts F).
Qed.
