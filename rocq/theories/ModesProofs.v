(** * Where the modes of to_kana differ (C71) *)
From Verif Require Import Tac Base Std Constants Chars Trees KanaTree Strings Convert
  KanaPure KanaSpec KanaDict KanaProofs Predicates ScriptSpec ScriptProofs MoraProofs Splits ExactSpec Exact ModesSpec.

Lemma kstep_cases m c s :
  (exists seg rest v, c :: s = seg ++ rest /\ seg <> [] /\ entry m (low seg) v /\ kstep (tree_of m) c s = (emit seg v, rest))
  \/ kstep (tree_of m) c s = ([c], s).
Proof.
  unfold kstep. destruct (kw (tree_of m) (c :: s)) as [n i] eqn:K. destruct (kw_spec _ _ _ _ K) as (L & A & R).
  destruct i as [|i]; [now right|]. destruct (kout n) as [v|] eqn:O; [|now right]. left.
  exists (firstn (S i) (c :: s)), (skipn (S i) (c :: s)), v. split; [symmetry; apply firstn_skipn|].
  split; [intro Z; discriminate Z|]. split; [apply entry_node; eauto|reflexivity].
Qed.
Lemma conv_kstep m c s : conv m (c :: s) = fst (kstep (tree_of m) c s) ++ conv m (snd (kstep (tree_of m) c s)).
Proof. apply kconv_cons. Qed.

(** a step does not go beyond [p] if no key does *)
Lemma app_cmp {A} (a b c d : list A) : a ++ b = c ++ d ->
  (exists e, c = a ++ e /\ b = e ++ d) \/ (exists x e, a = c ++ x :: e /\ d = x :: e ++ b).
Proof.
  revert c. induction a as [|x a IH]; intros c H; [left; now exists c|].
  destruct c as [|y c]; [right; exists x, a; auto|]. injection H as <- H.
  destruct (IH c H) as [(e & -> & ->)|(x' & e & -> & ->)]; [left; now exists e|right; now exists x', e].
Qed.
Lemma step_past m c s p w y : c :: s = p ++ w :: y -> p <> [] ->
  (forall r r' v, y = r ++ r' -> ~ entry m (low (p ++ w :: r)) v) ->
  exists p1 p2, p = p1 ++ p2 /\ p1 <> [] /\ snd (kstep (tree_of m) c s) = p2 ++ w :: y.
Proof.
  intros Q P H. destruct (kstep_cases m c s) as [(seg & rest & v & S & N & I & ->)| ->]; cbn [snd].
  - rewrite S in Q. destruct (app_cmp _ _ _ _ Q) as [(e & -> & ->)|(x & e & -> & D)].
    + exists seg, e. auto.
    + injection D as <- ->. exfalso. now apply (H e rest v).
  - destruct p as [|c' p]; [congruence|]. injection Q as <- ->. exists [c], p. split; [reflexivity|]. split; [discriminate|reflexivity].
Qed.

(** ** IME mode *)
Definition nnode (t : knode) : knode := match k_find t (ch "n") with Some n => n | None => t end.
Lemma ime_root c : c <> ch "n" -> k_find TO_KANA_NODE_TREE_IMEMODE c = k_find TO_KANA_NODE_TREE c.
Proof.
  intro H. apply (k_find_filter _ _ (fun x => negb (x =? ch "n"))); [vm_compute; reflexivity|].
  apply negb_true_iff, N.eqb_neq. exact H.
Qed.
Lemma ime_n : k_find TO_KANA_NODE_TREE_IMEMODE (ch "n") = Some (nnode TO_KANA_NODE_TREE_IMEMODE)
  /\ k_find TO_KANA_NODE_TREE (ch "n") = Some (nnode TO_KANA_NODE_TREE).
Proof. split; vm_compute; reflexivity. Qed.
Lemma ime_n_find c : In c (u "'aiueoy") ->
  exists x, k_find (nnode TO_KANA_NODE_TREE) c = Some x /\ k_find (nnode TO_KANA_NODE_TREE_IMEMODE) c = Some x.
Proof.
  intro H.
  assert (Q : k_find (nnode TO_KANA_NODE_TREE_IMEMODE) c = k_find (nnode TO_KANA_NODE_TREE) c).
  { apply (k_find_filter _ _ (fun x => existsb (N.eqb x) (u "'aiueoy"))); [vm_compute; reflexivity|].
    apply existsb_exists. exists c. split; [exact H|apply N.eqb_refl]. }
  assert (F : forallb (fun c => match k_find (nnode TO_KANA_NODE_TREE) c with Some _ => true | None => false end) (u "'aiueoy") = true)
    by (vm_compute; reflexivity).
  rewrite forallb_forall in F. specialize (F c H). rewrite Q.
  destruct (k_find (nnode TO_KANA_NODE_TREE) c) as [x|]; [now exists x|discriminate F].
Qed.
Lemma ime_kstep c s : (n_letter c -> exists x r, s = x :: r /\ n_follow x) ->
  kstep TO_KANA_NODE_TREE_IMEMODE c s = kstep TO_KANA_NODE_TREE c s.
Proof.
  intro H. unfold kstep. cbn [kw].
  destruct (N.eq_dec (ascii_lower c) (ch "n")) as [E|E].
  - rewrite E. destruct ime_n as [-> ->]. destruct (H (proj1 (n_lower c) E)) as (x & r & -> & d & L & I).
    apply lowers_lower in L. subst d. cbn [kw]. destruct (ime_n_find _ I) as (y & -> & ->). reflexivity.
  - rewrite ime_root by exact E. destruct (k_find TO_KANA_NODE_TREE (ascii_lower c)); reflexivity.
Qed.

Lemma n_followb (s : str) : {exists x r, s = x :: r /\ n_follow x} + {forall x r, s = x :: r -> ~ n_follow x}.
Proof.
  destruct s as [|x r]; [right; intros x r Q; discriminate Q|].
  destruct (existsb (N.eqb (ascii_lower x)) (u "'aiueoy")) eqn:E.
  - left. exists x, r. split; [reflexivity|]. exists (ascii_lower x). split; [now apply lowers_lower|].
    apply existsb_exists in E. destruct E as (y & I & E). apply N.eqb_eq in E. now rewrite E.
  - right. intros x' r' Q (d & L & I). injection Q as <- <-. apply lowers_lower in L. subst d.
    assert (T : existsb (N.eqb (ascii_lower x)) (u "'aiueoy") = true); [|congruence].
    apply existsb_exists. exists (ascii_lower x). split; [exact I|apply N.eqb_refl].
Qed.
(** the next step agrees, or the text starts with n on its own *)
Lemma step_or_alone c s : (kstep TO_KANA_NODE_TREE_IMEMODE c s = kstep TO_KANA_NODE_TREE c s /\ (n_letter c -> exists x r, s = x :: r /\ n_follow x))
  \/ (n_letter c /\ forall x r, s = x :: r -> ~ n_follow x).
Proof.
  destruct (N.eq_dec (ascii_lower c) 0x6E) as [E|E].
  - apply n_lower in E. destruct (n_followb s) as [F|F]; [|auto]. left. split; [now apply ime_kstep|auto].
  - left. assert (X : ~ n_letter c) by now rewrite <- n_lower. split; [|contradiction]. now apply ime_kstep.
Qed.

Lemma alone_step c s : n_alone (snd (kstep TO_KANA_NODE_TREE c s)) -> n_alone (c :: s).
Proof.
  intros (p & n & b & Q & N & P & F). destruct (kstep_cases Default c s) as [(seg & rest & v & S & Ne & I & K)|K];
    cbn [tree_of] in K; rewrite K in Q; cbn [snd] in Q.
  - subst rest. exists (seg ++ p), n, b. rewrite <- app_assoc. split; [exact S|]. split; [exact N|].
    split; [|exact F]. now apply (n_starts_hit Default seg v).
  - subst s. exists (c :: p), n, b. split; [reflexivity|]. split; [exact N|]. split; [|exact F].
    apply (n_starts_miss Default c p n b); [|exact N|exact P].
    rewrite conv_kstep. cbn [tree_of]. now rewrite K.
Qed.
Lemma ime_conv : forall s, ~ n_alone s -> conv Ime s = conv Default s.
Proof.
  induction s as [s IH] using str_ind_len. intro H. destruct s as [|c s]; [reflexivity|].
  destruct (step_or_alone c s) as [[K _]|[N F]].
  - rewrite !conv_kstep. cbn [tree_of] in *. rewrite K. f_equal.
    apply IH; [pose proof (kstep_shorter TO_KANA_NODE_TREE c s); cbn [length]; lia|].
    intro A. apply H. now apply alone_step.
  - exfalso. apply H. exists [], c, s. split; [reflexivity|]. split; [exact N|]. split; [apply n_starts_nil|exact F].
Qed.

Lemma conv_default_n n b : n_letter n -> (forall c b', b = c :: b' -> ~ n_follow c) ->
  exists k, (k = 0x3093 \/ k = 0x30F3) /\ conv Default (n :: b) = k :: conv Default b.
Proof.
  intros N F. assert (C : casing [n] (u "n")) by (apply casing_low; cbn; f_equal; now apply n_lower).
  assert (Q : conv Default ([n] ++ b) = emit [n] (u "ん") ++ conv Default b).
  { apply conv_n; [discriminate|exact C|]. destruct b as [|c b']; [exact I|]. now apply (F c b'). }
  cbn [app] in Q. rewrite Q, emit_n by now apply n_lower. destruct (n =? 0x4E); eexists; (split; [|reflexivity]); auto.
Qed.

(** first characters *)
Definition n_heads : str := u "なにぬねのんナニヌネノンnN".
Definition heads_ok (m : mode) : bool :=
  forallb (fun e => match e with
    | (c :: _, d :: _) => 
      if c =? 0x6E then existsb (N.eqb d) n_heads && existsb (N.eqb (h2k_char d)) n_heads
      else negb (existsb (N.eqb c) (u "'aiueoy")) || (negb (existsb (N.eqb d) n_heads) && negb (existsb (N.eqb (h2k_char d)) n_heads))
    | _ => false end) (dict m).
Lemma heads_all m : heads_ok m = true.
Proof. destruct m; vm_compute; reflexivity. Qed.
Lemma existsb_eqb c l : existsb (N.eqb c) l = true <-> In c l.
Proof.
  rewrite existsb_exists. split; [intros (x & I & E); apply N.eqb_eq in E; now subst|].
  intro I. exists c. split; [exact I|apply N.eqb_refl].
Qed.
Lemma emit_head seg d v : exists v', emit seg (d :: v) = d :: v' \/ emit seg (d :: v) = h2k_char d :: v'.
Proof. unfold emit. destruct (forallb is_AZ seg); eexists; [right|left]; reflexivity. Qed.
Lemma conv_head_n m n b : n_letter n -> exists d r, conv m (n :: b) = d :: r /\ In d n_heads.
Proof.
  intro N. destruct (kstep_cases m n b) as [(seg & rest & v & S & Ne & I & K)|K]; rewrite conv_kstep, K; cbn [fst snd].
  - destruct seg as [|n' seg]; [congruence|]. injection S as <- S. pose proof (heads_all m) as H. unfold heads_ok in H.
    rewrite forallb_forall in H. specialize (H _ I). cbn [low map] in H. rewrite (proj2 (n_lower n) N), N.eqb_refl in H.
    destruct v as [|d v]; [discriminate H|]. apply andb_prop in H. destruct H as [H1 H2].
    destruct (emit_head (n :: seg) d v) as (v' & [-> | ->]); cbn [app]; do 2 eexists; (split; [reflexivity|]); now apply existsb_eqb.
  - cbn [app]. do 2 eexists. split; [reflexivity|]. destruct N as [-> | ->]; apply existsb_eqb; reflexivity.
Qed.
Lemma conv_head_follow m c b : n_follow c -> exists d r, conv m (c :: b) = d :: r /\ ~ In d n_heads.
Proof.
  intros (c' & L & C). apply lowers_lower in L.
  assert (X : c' <> 0x6E) by (intros ->; apply existsb_eqb in C; discriminate C).
  destruct (kstep_cases m c b) as [(seg & rest & v & S & Ne & I & K)|K]; rewrite conv_kstep, K; cbn [fst snd].
  - destruct seg as [|c0 seg]; [congruence|]. injection S as <- S. pose proof (heads_all m) as H. unfold heads_ok in H.
    rewrite forallb_forall in H. specialize (H _ I). cbn [low map] in H. rewrite L in H.
    rewrite (proj2 (N.eqb_neq _ _) X), (proj2 (existsb_eqb _ _) C) in H. destruct v as [|d v]; [discriminate H|]. cbn [negb orb] in H.
    apply andb_prop in H. destruct H as [H1 H2]. apply negb_true_iff in H1, H2.
    destruct (emit_head (c :: seg) d v) as (v' & [-> | ->]); cbn [app]; do 2 eexists; (split; [reflexivity|]);
      intro J; apply existsb_eqb in J; congruence.
  - cbn [app]. do 2 eexists. split; [reflexivity|]. intro J.
    assert (T : forallb (fun d => negb (existsb (N.eqb (ascii_lower d)) (u "'aiueoy"))) n_heads = true) by (vm_compute; reflexivity).
    rewrite forallb_forall in T. specialize (T c J). rewrite L, (proj2 (existsb_eqb _ _) C) in T. discriminate T.
Qed.

(** lengths *)
Definition n_lengths : bool :=
  forallb (fun e => match e with
    | (c :: k, v) => negb (c =? 0x6E) || match k with [] => true | d :: k' =>
        ((d =? 0x27) && is_empty k' && (length v =? 1)%nat)
        || existsb (fun e' => str_eqb (fst e') k && (length (snd e') <=? length v)%nat) (dict Default) && unextendedb Default k end
    | _ => false end) (dict Default).
Lemma n_lengths_ok : n_lengths = true.
Proof. vm_compute. reflexivity. Qed.
Lemma apostrophe_inert s : conv Default (0x27 :: s) = 0x27 :: conv Default s.
Proof.
  apply conv_begins_no_key. apply begins_no_key_root. vm_compute. reflexivity.
Qed.
Lemma n_longer n r : n_letter n -> (length (conv Default r) <= length (conv Default (n :: r)))%nat.
Proof.
  intro N. destruct (n_followb r) as [F|F].
  2:{ destruct (conv_default_n n r N F) as (k & _ & ->). cbn [length]. lia. }
  destruct (kstep_cases Default n r) as [(seg & rest & v & S & Ne & I & K)|K]; rewrite (conv_kstep Default n r), K; cbn [fst snd].
  2:{ cbn [app length]. lia. }
  destruct seg as [|n' seg]; [congruence|]. injection S as <- ->. rewrite app_length, emit_length.
  pose proof n_lengths_ok as H. unfold n_lengths in H.
  rewrite forallb_forall in H. specialize (H _ I). cbn [low map] in H. rewrite (proj2 (n_lower n) N), N.eqb_refl in H. cbn [negb orb] in H.
  destruct seg as [|d seg].
  { cbn [app]. lia. }
  cbn [map] in H. apply orb_prop in H. destruct H as [H|H].
  - apply andb_prop in H. destruct H as [H L]. apply andb_prop in H. destruct H as [D E].
    apply Nat.eqb_eq in L. apply N.eqb_eq in D. destruct seg as [|? ?]; [|discriminate E].
    assert (d = 0x27) as -> by (revert D; unfold ascii_lower; ifs; lia).
    cbn [app]. rewrite apostrophe_inert. cbn [length]. lia.
  - apply andb_prop in H. destruct H as [H U]. apply unextendedb_ok in U. apply existsb_exists in H.
    destruct H as ([k' v'] & I' & H). cbn [fst snd] in H. apply andb_prop in H. destruct H as [H L].
    apply str_eqb_eq in H. subst k'. apply Nat.leb_le in L.
    rewrite (conv_entry Default (d :: seg) (low (d :: seg)) v' rest I' U) by now apply casing_low.
    rewrite app_length, emit_length. lia.
Qed.
Lemma entry_n_space : entry Ime (u "n ") (u "ん") /\ unextended Ime (u "n ").
Proof. split; [|apply unextendedb_ok; vm_compute; reflexivity]. apply pair_mem_In. vm_compute. reflexivity. Qed.
Lemma conv_n_space n r : n_letter n -> conv Ime (n :: ch " " :: r) = 0x3093 :: conv Ime r.
Proof.
  intro N. assert (C : casing [n; ch " "] (u "n ")) by (apply casing_low; cbn [low map]; now rewrite (proj2 (n_lower n) N)).
  destruct entry_n_space as [I U].
  pose proof (conv_entry Ime [n; ch " "] (u "n ") (u "ん") r I U C) as Q. cbn [app] in Q. rewrite Q.
  rewrite (emit_with _ (ch " ")); [reflexivity|right; now left|reflexivity].
Qed.
(** n on its own in IME mode *)
Lemma ime_n_cases n b : n_letter n -> (forall c b', b = c :: b' -> ~ n_follow c) ->
  (exists n' r, b = n' :: r /\ n_letter n' /\ exists k, conv Ime (n :: b) = k :: conv Ime r)
  \/ (exists r, b = ch " " :: r /\ conv Ime (n :: b) = 0x3093 :: conv Ime r)
  \/ conv Ime (n :: b) = n :: conv Ime b.
Proof.
  intros N F. destruct b as [|c r].
  { right. right. apply (ime_n_stays n []); [exact N|exact I]. }
  destruct (N.eq_dec (ascii_lower c) 0x6E) as [E|E].
  { apply n_lower in E. left. exists c, r. split; [reflexivity|]. split; [exact E|]. rewrite conv_nn by assumption.
    unfold emit. destruct (forallb is_AZ [n; c]); eexists; reflexivity. }
  right. destruct (N.eq_dec c (ch " ")) as [->|S].
  { left. exists r. split; [reflexivity|]. now apply conv_n_space. }
  right. apply (ime_n_stays n (c :: r)); [exact N|]. split; [now apply (F c r)|]. split; [now rewrite <- n_lower|exact S].
Qed.
Lemma ime_not_longer : forall s, (length (conv Ime s) <= length (conv Default s))%nat.
Proof.
  induction s as [s IH] using str_ind_len. destruct s as [|c s]; [apply le_n|].
  destruct (step_or_alone c s) as [[K _]|[N F]].
  - rewrite !conv_kstep. cbn [tree_of] in *. rewrite K, !app_length.
    pose proof (kstep_shorter TO_KANA_NODE_TREE c s) as Ls. specialize (IH (snd (kstep TO_KANA_NODE_TREE c s))).
    cbn [length] in IH. lia.
  - destruct (conv_default_n c s N F) as (k & _ & ->).
    destruct (ime_n_cases c s N F) as [(n' & r & -> & N' & k' & ->)|[(r & -> & ->)| ->]].
    + cbn [length]. pose proof (n_longer n' r N'). specialize (IH r). cbn [length] in IH. lia.
    + cbn [length]. specialize (IH (ch " " :: r)). cbn [length] in IH.
      assert (Q : conv Ime (ch " " :: r) = ch " " :: conv Ime r) by (apply conv_begins_no_key, begins_no_key_root; vm_compute; reflexivity).
      rewrite Q in IH. cbn [length] in IH. lia.
    + cbn [length]. specialize (IH s). cbn [length] in IH. lia.
Qed.

Lemma ime_differs_here n b : n_letter n -> (forall c b', b = c :: b' -> ~ n_follow c) ->
  conv Ime (n :: b) <> conv Default (n :: b).
Proof.
  intros N F. destruct (conv_default_n n b N F) as (k & K & ->).
  destruct (ime_n_cases n b N F) as [(n' & r & -> & N' & k' & ->)|[(r & -> & ->)| ->]].
  - intro Q. apply (f_equal (@tl char)) in Q. cbn [tl] in Q. destruct (n_followb r) as [(x & r' & -> & X)|G].
    + destruct (conv_head_n Default n' (x :: r') N') as (d & t & E1 & D1).
      destruct (conv_head_follow Ime x r' X) as (d' & t' & E2 & D2). rewrite E1, E2 in Q. injection Q as -> _. contradiction.
    + destruct (conv_default_n n' r N' G) as (k2 & _ & E). rewrite E in Q.
      apply (f_equal (@length _)) in Q. cbn [length] in Q. pose proof (ime_not_longer r). lia.
  - intro Q. apply (f_equal (@tl char)) in Q. cbn [tl] in Q. assert (E : conv Default (ch " " :: r) = ch " " :: conv Default r)
      by (apply conv_begins_no_key, begins_no_key_root; vm_compute; reflexivity).
    rewrite E in Q. apply (f_equal (@length _)) in Q. cbn [length] in Q. pose proof (ime_not_longer r). lia.
  - intro Q. injection Q as Q _. subst k. destruct N as [-> | ->]; destruct K as [K|K]; discriminate K.
Qed.
Lemma ime_differs : forall s, n_alone s -> conv Ime s <> conv Default s.
Proof.
  induction s as [s IH] using str_ind_len. intros A. destruct s as [|c s].
  { destruct A as ([|? ?] & n & b & Q & _); discriminate Q. }
  destruct (step_or_alone c s) as [[K G]|[N F]]; [|now apply ime_differs_here].
  rewrite !conv_kstep. cbn [tree_of] in *. rewrite K. intro Q. apply app_inv_head in Q. revert Q.
  apply IH; [pose proof (kstep_shorter TO_KANA_NODE_TREE c s); cbn [length]; lia|].
  destruct A as (p & n & b & Q & N & P & F). destruct p as [|c' p].
  { injection Q as -> ->. exfalso. destruct (G N) as (x & r & -> & X). now apply (F x r). }
  destruct (step_past Default c s (c' :: p) n b Q) as (p1 & p2 & E & _ & St).
  - intro Z; discriminate Z.
  - intros r r' v -> I. destruct (viable_n Default (c' :: p) n N) as (x & X & H).
    + intro Z; discriminate Z.
    + exists (low ((c' :: p) ++ [n])), (low r), v. split; [now apply casing_low|].
      rewrite <- low_app, <- app_assoc. exact I.
    + destruct H as [H|[H _]]; [|discriminate H]. apply (P [] x X H).
  - cbn [tree_of] in St. rewrite St. exists p2, n, b. split; [reflexivity|]. split; [exact N|]. split; [|exact F].
    intros q x ->. apply (P (p1 ++ q) x). now rewrite <- app_assoc.
Qed.

(** ** Obsolete kana *)
Definition in_w (c : N) : bool := existsb (N.eqb c) (u "dfgqstw").
Fixpoint wscan (prev : option N) (k : str) : bool :=
  match k with
  | [] => true
  | c :: r => (if c =? 0x77 then
                 match prev with
                 | None => true
                 | Some q => match r with [] => false | x :: _ => negb (existsb (N.eqb x) (u "ie")) || in_w q end
                 end
               else true) && wscan (Some c) r
  end.
Lemma wscan_spec b : forall prev q r, wscan prev (b ++ q :: 0x77 :: r) = true ->
  exists x r', r = x :: r' /\ (In x (u "ie") -> In q (u "dfgqstw")).
Proof.
  induction b as [|c b IH]; intros prev q r H; cbn [app wscan] in H.
  - apply andb_prop in H. destruct H as [_ H]. change (0x77 =? 0x77) with true in H. cbn beta iota in H.
    apply andb_prop in H. destruct H as [H _]. destruct r as [|x r']; [discriminate H|]. exists x, r'. split; [reflexivity|].
    intro J. rewrite (proj2 (existsb_eqb _ _) J) in H. now apply existsb_eqb.
  - apply andb_prop in H. destruct H as [_ H]. now apply (IH (Some c)).
Qed.
Lemma wscan_keys : forallb (fun e => wscan None (fst e)) (dict Default) = true.
Proof. vm_compute. reflexivity. Qed.
Lemma key_ends : forallb (fun e => match rev (fst e) with c :: _ => negb (in_w c) | [] => false end) (dict Default) = true.
Proof. vm_compute. reflexivity. Qed.
Lemma w_keys : forallb (fun c => forallb (fun x => existsb (fun e => str_eqb (fst e) [c; 0x77; x]) (dict Default)
   && unextendedb Default [c; 0x77; x]) (u "ie")) (u "dfgqstw") = true.
Proof. vm_compute. reflexivity. Qed.

Definition w_letter (w : N) : Prop := w = 0x77 \/ w = 0x57.
Definition ie_letter (x : N) : Prop := x = 0x69 \/ x = 0x49 \/ x = 0x65 \/ x = 0x45.
Lemma w_lower c : ascii_lower c = 0x77 <-> w_letter c.
Proof. unfold ascii_lower, w_letter. ifs; lia. Qed.
Lemma ie_lower c : In (ascii_lower c) (u "ie") <-> ie_letter c.
Proof.
  unfold ascii_lower, ie_letter. change (u "ie") with [0x69; 0x65]. cbn [In]. ifs; lia.
Qed.
Definition w_starts (p : str) : Prop := forall p' c d, p = p' ++ [c] -> lowers c d -> ~ In d (u "dfgqstw").

Lemma wi_step c s : wi_we_alone (snd (kstep TO_KANA_NODE_TREE c s)) -> wi_we_alone (c :: s).
Proof.
  intros (p & w & x & b & Q & W & X & P). destruct (kstep_cases Default c s) as [(seg & rest & v & S & Ne & I & K)|K];
    cbn [tree_of] in K; rewrite K in Q; cbn [snd] in Q.
  - subst rest. exists (seg ++ p), w, x, b. rewrite <- app_assoc. split; [exact S|]. split; [exact W|]. split; [exact X|].
    intros p' c' d E L J. apply snoc_cases in E. destruct E as [[-> E]|(q & E & _)]; [|now apply (P q c' d)].
    pose proof key_ends as T. rewrite forallb_forall in T. specialize (T _ I). cbn [fst] in T.
    rewrite E, low_app, rev_app_distr in T. cbn [low map rev app] in T. apply lowers_lower in L. rewrite L in T.
    unfold in_w in T. rewrite (proj2 (existsb_eqb _ _) J) in T. discriminate T.
  - subst s. exists (c :: p), w, x, b. split; [reflexivity|]. split; [exact W|]. split; [exact X|].
    intros p' c' d E L J. destruct p as [|e p] using rev_ind.
    + destruct p' as [|? [|? ?]]; try discriminate E. injection E as <-. apply lowers_lower in L.
      pose proof w_keys as T. rewrite forallb_forall in T. specialize (T d J). rewrite forallb_forall in T.
      specialize (T (ascii_lower x) (proj2 (ie_lower x) X)). apply andb_prop in T. destruct T as [T U].
      apply unextendedb_ok in U. apply existsb_exists in T. destruct T as ([k v] & I & T). cbn [fst] in T. apply str_eqb_eq in T. subst k.
      assert (C : casing [c; w; x] [d; 0x77; ascii_lower x]).
      { apply casing_low. cbn [low map]. now rewrite L, (proj2 (w_lower w) W). }
      pose proof (conv_entry Default [c; w; x] _ v b I U C) as H. cbn [app] in H.
      cbn [app] in K. rewrite conv_kstep in H. cbn [tree_of] in H. rewrite K in H. cbn [fst snd app] in H.
      pose proof (outputs_nonempty _ _ _ I) as Nv. destruct v as [|v0 v]; [congruence|].
      assert (In0 : entry Default (low [c; w; x]) (v0 :: v)).
      { cbn [low map]. rewrite L, (proj2 (w_lower w) W). exact I. }
      pose proof (emit_inert Default [c; w; x] (v0 :: v) In0) as Ei. pose proof (emit_length [c; w; x] (v0 :: v)) as Le.
      destruct (emit [c; w; x] (v0 :: v)) as [|e0 em]; [discriminate Le|]. cbn [app] in H. injection H as <- _.
      specialize (Ei c (or_introl eq_refl)). apply in_no_key_low with (k := low [c; w; x]) (v := v0 :: v) in Ei; [|exact In0].
      apply Ei. now left.
    + clear IHp. change (c :: p ++ [e]) with ((c :: p) ++ [e]) in E. apply app_inj_tail in E. destruct E as [_ <-].
      now apply (P p e d).
Qed.
Lemma obsolete_conv_exact : forall s, ~ wi_we_alone s -> conv Obsolete s = conv Default s.
Proof.
  induction s as [s IH] using str_ind_len. intro H. destruct s as [|c s]; [reflexivity|].
  rewrite !conv_kstep. cbn [tree_of] in *. rewrite obsolete_kstep.
  - f_equal. apply IH; [pose proof (kstep_shorter TO_KANA_NODE_TREE c s); cbn [length]; lia|].
    intro A. apply H. now apply wi_step.
  - intro Hc. destruct s as [|x s]; [exact I|]. intro Hx. apply H. exists [], c, x, s. split; [reflexivity|].
    split; [exact Hc|]. split; [exact Hx|]. intros [|? ?] ? ? Q; discriminate Q.
Qed.
Lemma obsolete_differs_here w x b : w_letter w -> ie_letter x -> conv Obsolete (w :: x :: b) <> conv Default (w :: x :: b).
Proof.
  intros W X.
  assert (L : low [w; x] = [0x77; ascii_lower x]) by (cbn [low map]; now rewrite (proj2 (w_lower w) W)).
  assert (T : forallb (fun y => existsb (fun e => str_eqb (fst e) [0x77; y] && existsb (fun e' => str_eqb (fst e') [0x77; y]
      && match snd e, snd e' with a :: _, a' :: _ =>
           negb (a =? a') && negb (a =? h2k_char a') && negb (h2k_char a =? a') && negb (h2k_char a =? h2k_char a') | _, _ => false end) (dict Default)) (dict Obsolete)
      && unextendedb Default [0x77; y] && unextendedb Obsolete [0x77; y]) (u "ie") = true) by (vm_compute; reflexivity).
  rewrite forallb_forall in T. specialize (T _ (proj2 (ie_lower x) X)). apply andb_prop in T. destruct T as [T U2].
  apply andb_prop in T. destruct T as [T U1]. apply unextendedb_ok in U1, U2. rewrite <- L in *.
  apply existsb_exists in T. destruct T as ([k v] & I & T). cbn [fst snd] in T. apply andb_prop in T. destruct T as [E T].
  apply str_eqb_eq in E. subst k. apply existsb_exists in T. destruct T as ([k v'] & I' & T). cbn [fst snd] in T.
  apply andb_prop in T. destruct T as [E T]. apply str_eqb_eq in E. subst k.
  assert (C : casing [w; x] (low [w; x])) by now apply casing_low.
  pose proof (conv_entry Obsolete [w; x] _ v b I U2 C) as Q1. pose proof (conv_entry Default [w; x] _ v' b I' U1 C) as Q2.
  cbn [app] in Q1, Q2. rewrite Q1, Q2. destruct v as [|a v]; [discriminate T|]. destruct v' as [|a' v']; [discriminate T|].
  apply andb_prop in T. destruct T as [T T4]. apply andb_prop in T. destruct T as [T T3]. apply andb_prop in T. destruct T as [T1 T2].
  apply negb_true_iff, N.eqb_neq in T1, T2, T3, T4.
  unfold emit. destruct (forallb is_AZ [w; x]); cbn [h2k map app]; intro Q; injection Q as Q _; congruence.
Qed.
Lemma starts_wi c s : {exists y r, s = y :: r /\ w_letter c /\ ie_letter y} + {forall y r, s = y :: r -> w_letter c -> ~ ie_letter y}.
Proof.
  destruct s as [|y r]; [right; intros y r Q; discriminate Q|].
  destruct (N.eq_dec (ascii_lower c) 0x77) as [W|W].
  - destruct (existsb (N.eqb (ascii_lower y)) (u "ie")) eqn:E.
    + left. exists y, r. split; [reflexivity|]. split; [now apply w_lower|]. apply ie_lower. now apply existsb_eqb.
    + right. intros y' r' Q _ Y. injection Q as <- <-. apply ie_lower, existsb_eqb in Y. congruence.
  - right. intros y' r' Q Z. apply w_lower in Z. congruence.
Qed.
Lemma obsolete_differs : forall s, wi_we_alone s -> conv Obsolete s <> conv Default s.
Proof.
  induction s as [s IH] using str_ind_len. intros (p & w & x & b & Q & W & X & P). destruct p as [|c p].
  { cbn [app] in Q. subst s. now apply obsolete_differs_here. }
  cbn [app] in Q. destruct s as [|c' s]; [discriminate Q|]. injection Q as -> Q.
  assert (Sp : c :: s = (c :: p) ++ w :: x :: b) by (cbn [app]; congruence).
  destruct (step_past Default c s (c :: p) w (x :: b) Sp) as (p1 & p2 & E & N1 & St).
  { intro Z; discriminate Z. }
  { intros r r' v E I. destruct (exists_last (l := c :: p)) as (p' & q & Z); [intro Z; discriminate Z|]. rewrite Z in I.
    pose proof wscan_keys as T. rewrite forallb_forall in T. specialize (T _ I). cbn [fst] in T.
    rewrite low_app, low_app, <- app_assoc in T. cbn [low map app] in T. rewrite (proj2 (w_lower w) W) in T.
    apply wscan_spec in T. destruct T as (y & r2 & Er & T). destruct r as [|x' r]; [discriminate Er|]. injection E as <- _.
    cbn [map] in Er. injection Er as <- _. apply (P p' q (ascii_lower q) Z); [now apply lowers_lower|].
    apply T. now apply ie_lower. }
  assert (A : wi_we_alone (snd (kstep TO_KANA_NODE_TREE c s))).
  { cbn [tree_of] in St. rewrite St. exists p2, w, x, b. split; [reflexivity|]. split; [exact W|]. split; [exact X|].
    intros q e d ->. apply (P (p1 ++ q) e d). rewrite E. now rewrite <- app_assoc. }
  destruct (starts_wi c s) as [(y & r & -> & C & Y)|H]; [now apply obsolete_differs_here|].
  rewrite !conv_kstep. cbn [tree_of]. rewrite obsolete_kstep.
  - intro Z. apply app_inv_head in Z. revert Z. apply IH; [pose proof (kstep_shorter TO_KANA_NODE_TREE c s); cbn [length]; lia|exact A].
  - intro Hc. destruct s as [|y s]; [exact I|]. intro Hy. now apply (H y s).
Qed.
