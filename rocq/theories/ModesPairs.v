(** * IME mode and use_obsolete_kana compared (C71) *)
From Coq Require Import Bool.
From Verif Require Import Tac Base Std Constants Chars Trees KanaTree Strings Convert
  KanaPure KanaSpec KanaDict KanaProofs Predicates ScriptSpec ScriptProofs MoraProofs Splits ExactSpec Exact ModesSpec ModesProofs.

(** The number of characters other than those for wi and we *)
Definition light : str := u "うぃぇウィェゐゑヰヱ".
Definition w (c : N) : nat := if existsb (N.eqb c) light then 0%nat else 1%nat.
Definition wt (s : str) : nat := list_sum (map w s).
Lemma wt_app a b : wt (a ++ b) = (wt a + wt b)%nat.
Proof. unfold wt. now rewrite map_app, list_sum_app. Qed.
Lemma wt_cons c s : wt (c :: s) = (w c + wt s)%nat.
Proof. reflexivity. Qed.
Lemma w_le c : (w c <= 1)%nat.
Proof. unfold w. destruct (existsb _ _); lia. Qed.
Definition weights (m : mode) : bool := forallb (fun e => Nat.eqb (wt (h2k (snd e))) (wt (snd e))) (dict m).
Lemma weights_ok m : weights m = true.
Proof. destruct m; vm_compute; reflexivity. Qed.
Lemma wt_emit m k v seg : entry m k v -> wt (emit seg v) = wt v.
Proof.
  intro I. pose proof (weights_ok m) as H. unfold weights in H. rewrite forallb_forall in H. specialize (H _ I). cbn [snd] in H. apply Nat.eqb_eq in H.
  unfold emit. now destruct (forallb is_AZ seg).
Qed.
Lemma n_weight k : k = 0x3093 \/ k = 0x30F3 -> w k = 1%nat.
Proof. intros [-> | ->]; reflexivity. Qed.

Definition n_weights : bool :=
  forallb (fun e => match e with
    | (c :: k, v) => negb (c =? 0x6E) || match k with [] => true | d :: k' =>
        ((d =? 0x27) && is_empty k' && (wt v =? 1)%nat)
        || existsb (fun e' => str_eqb (fst e') k && (wt (snd e') <=? wt v)%nat) (dict Default) && unextendedb Default k end
    | _ => false end) (dict Default).
Lemma n_weights_ok : n_weights = true.
Proof. vm_compute. reflexivity. Qed.
Lemma n_heavier n r : n_letter n -> (wt (conv Default r) <= wt (conv Default (n :: r)))%nat.
Proof.
  intro N. destruct (n_followb r) as [F|F].
  2:{ destruct (conv_default_n n r N F) as (k & _ & ->). rewrite wt_cons. lia. }
  destruct (kstep_cases Default n r) as [(seg & rest & v & S & Ne & I & K)|K]; rewrite (conv_kstep Default n r), K; cbn [fst snd].
  2:{ rewrite wt_app. lia. }
  destruct seg as [|n' seg]; [congruence|]. injection S as <- ->. rewrite wt_app, (wt_emit Default _ v _ I).
  pose proof n_weights_ok as H. unfold n_weights in H.
  rewrite forallb_forall in H. specialize (H _ I). cbn [low map] in H. rewrite (proj2 (n_lower n) N), N.eqb_refl in H. cbn [negb orb] in H.
  destruct seg as [|d seg].
  { cbn [app]. lia. }
  cbn [map] in H. apply orb_prop in H. destruct H as [H|H].
  - apply andb_prop in H. destruct H as [H L]. apply andb_prop in H. destruct H as [D E].
    apply Nat.eqb_eq in L. apply N.eqb_eq in D. destruct seg as [|? ?]; [|discriminate E].
    assert (d = 0x27) as -> by (revert D; unfold ascii_lower; ifs; lia).
    cbn [app]. rewrite apostrophe_inert, wt_cons. pose proof (w_le 0x27). lia.
  - apply andb_prop in H. destruct H as [H U]. apply unextendedb_ok in U. apply existsb_exists in H.
    destruct H as ([k' v'] & I' & H). cbn [fst snd] in H. apply andb_prop in H. destruct H as [H L].
    apply str_eqb_eq in H. subst k'. apply Nat.leb_le in L.
    rewrite (conv_entry Default (d :: seg) (low (d :: seg)) v' rest I' U) by now apply casing_low.
    rewrite wt_app, (wt_emit Default _ v' _ I'). lia.
Qed.
Lemma space_inert m r : conv m (ch " " :: r) = ch " " :: conv m r.
Proof. apply conv_begins_no_key, begins_no_key_root. destruct m; vm_compute; reflexivity. Qed.
Lemma ime_not_heavier : forall s, (wt (conv Ime s) <= wt (conv Default s))%nat.
Proof.
  induction s as [s IH] using str_ind_len. destruct s as [|c s]; [apply le_n|].
  destruct (step_or_alone c s) as [[K _]|[N F]].
  - rewrite !conv_kstep. cbn [tree_of] in *. rewrite K, !wt_app.
    pose proof (kstep_shorter TO_KANA_NODE_TREE c s) as Ls. specialize (IH (snd (kstep TO_KANA_NODE_TREE c s))).
    cbn [length] in IH. lia.
  - destruct (conv_default_n c s N F) as (k & Wk & ->). rewrite wt_cons, (n_weight k Wk).
    destruct (ime_n_cases c s N F) as [(n' & r & -> & N' & k' & ->)|[(r & -> & ->)| ->]]; rewrite !wt_cons.
    + pose proof (n_heavier n' r N'). pose proof (w_le k'). specialize (IH r). cbn [length] in IH. lia.
    + specialize (IH (ch " " :: r)). cbn [length] in IH. rewrite !space_inert, !wt_cons in IH. rewrite space_inert, wt_cons.
      change (w 0x3093) with 1%nat. lia.
    + specialize (IH s). cbn [length] in IH. pose proof (w_le c). lia.
Qed.
Lemma wi_weight a x b : w_letter a -> ie_letter x ->
  exists v v' i o, conv Obsolete (a :: x :: b) = v ++ conv Obsolete b /\ conv Default (a :: x :: b) = v' ++ conv Default b /\ conv Ime (a :: x :: b) = v' ++ conv Ime b
    /\ wt v = wt v' /\ hd_error v = Some o /\ hd_error v' = Some i /\ o <> i.
Proof.
  intros W X.
  assert (L : low [a; x] = [0x77; ascii_lower x]) by (cbn [low map]; now rewrite (proj2 (w_lower a) W)).
  assert (T : forallb (fun y => existsb (fun e => str_eqb (fst e) [0x77; y] && (if str_eqb (fst e) [0x77; y] then existsb (fun e' => str_eqb (fst e') [0x77; y] && (if str_eqb (fst e') [0x77; y] then pair_mem e' (dict Ime) else false)
      && Nat.eqb (wt (snd e)) (wt (snd e')) && match snd e, snd e' with a :: _, a' :: _ => negb (a =? a') && negb (h2k_char a =? h2k_char a') | _, _ => false end) (dict Default) else false)) (dict Obsolete)
      && unextendedb Default [0x77; y] && unextendedb Obsolete [0x77; y] && unextendedb Ime [0x77; y]) (u "ie") = true) by (vm_compute; reflexivity).
  rewrite forallb_forall in T. specialize (T _ (proj2 (ie_lower x) X)). apply andb_prop in T. destruct T as [T U3]. apply andb_prop in T. destruct T as [T U2].
  apply andb_prop in T. destruct T as [T U1]. apply unextendedb_ok in U1, U2, U3. rewrite <- L in *.
  apply existsb_exists in T. destruct T as ([k v] & I & T). cbn [fst snd] in T. apply andb_prop in T. destruct T as [E T].
  rewrite E in T. apply str_eqb_eq in E. subst k. apply existsb_exists in T. destruct T as ([k v'] & I' & T). cbn [fst snd] in T.
  apply andb_prop in T. destruct T as [T T1]. apply andb_prop in T. destruct T as [T T2]. apply andb_prop in T. destruct T as [E T3].
  rewrite E in T3. apply str_eqb_eq in E. subst k. apply Nat.eqb_eq in T2. apply pair_mem_In in T3.
  assert (C : casing [a; x] (low [a; x])) by now apply casing_low.
  exists (emit [a; x] v), (emit [a; x] v').
  pose proof (conv_entry Obsolete [a; x] _ v b I U2 C) as Q1. pose proof (conv_entry Default [a; x] _ v' b I' U1 C) as Q2.
  pose proof (conv_entry Ime [a; x] _ v' b T3 U3 C) as Q3. cbn [app] in Q1, Q2, Q3.
  destruct v as [|y v]; [discriminate T1|]. destruct v' as [|y' v']; [discriminate T1|].
  apply andb_prop in T1. destruct T1 as [T1 T4]. apply negb_true_iff, N.eqb_neq in T1, T4.
  rewrite (wt_emit Obsolete _ _ _ I), (wt_emit Default _ _ _ I').
  unfold emit in *. destruct (forallb is_AZ [a; x]).
  - exists (h2k_char y'), (h2k_char y). repeat split; assumption || congruence.
  - exists y', y. repeat split; assumption || congruence.
Qed.
Lemma no_wi_step c s : (forall y r, s = y :: r -> w_letter c -> ~ ie_letter y) -> kstep TO_KANA_NODE_TREE_OBSOLETE c s = kstep TO_KANA_NODE_TREE c s.
Proof. intro H. apply obsolete_kstep. intro Hc. destruct s as [|y s]; [exact I|]. intro Hy. now apply (H y s). Qed.
Lemma obsolete_weight : forall s, wt (conv Obsolete s) = wt (conv Default s).
Proof.
  induction s as [s IH] using str_ind_len. destruct s as [|c s]; [reflexivity|]. destruct (starts_wi c s) as [(y & r & -> & C & Y)|H].
  - destruct (wi_weight c y r C Y) as (v & v' & i & o & -> & -> & _ & Q & _). rewrite !wt_app, Q. f_equal. apply IH. cbn [length]. lia.
  - rewrite !conv_kstep. cbn [tree_of] in *. rewrite (no_wi_step c s H), !wt_app. f_equal. apply IH.
    pose proof (kstep_shorter TO_KANA_NODE_TREE c s); cbn [length]; lia.
Qed.
Lemma conv_obsolete_n n b : n_letter n -> (forall c b', b = c :: b' -> ~ n_follow c) ->
  exists k, (k = 0x3093 \/ k = 0x30F3) /\ conv Obsolete (n :: b) = k :: conv Obsolete b.
Proof.
  intros N F. assert (C : casing [n] (u "n")) by (apply casing_low; cbn; f_equal; now apply n_lower).
  assert (Q : conv Obsolete ([n] ++ b) = emit [n] (u "ん") ++ conv Obsolete b).
  { apply conv_n; [discriminate|exact C|]. destruct b as [|c b']; [exact I|]. now apply (F c b'). }
  cbn [app] in Q. rewrite Q, emit_n by now apply n_lower. destruct (n =? 0x4E); eexists; (split; [|reflexivity]); auto.
Qed.
Lemma pair_differs_here n b : n_letter n -> (forall c b', b = c :: b' -> ~ n_follow c) ->
  conv Ime (n :: b) <> conv Obsolete (n :: b).
Proof.
  intros N F. destruct (conv_obsolete_n n b N F) as (k & K & ->).
  destruct (ime_n_cases n b N F) as [(n' & r & -> & N' & k' & ->)|[(r & -> & ->)| ->]].
  - intro Q. apply (f_equal (@tl char)) in Q. cbn [tl] in Q. destruct (n_followb r) as [(x & r' & -> & X)|G].
    + destruct (conv_head_n Obsolete n' (x :: r') N') as (d & t & E1 & D1).
      destruct (conv_head_follow Ime x r' X) as (d' & t' & E2 & D2). rewrite E1, E2 in Q. injection Q as -> _. contradiction.
    + destruct (conv_obsolete_n n' r N' G) as (k2 & K2 & E). rewrite E in Q.
      apply (f_equal wt) in Q. rewrite wt_cons, (n_weight k2 K2), obsolete_weight in Q. pose proof (ime_not_heavier r). lia.
  - intro Q. apply (f_equal (@tl char)) in Q. cbn [tl] in Q. rewrite space_inert in Q. apply (f_equal wt) in Q.
    rewrite wt_cons, obsolete_weight in Q. change (w (ch " ")) with 1%nat in Q. pose proof (ime_not_heavier r). lia.
  - intro Q. injection Q as Q _. subst k. destruct N as [-> | ->]; destruct K as [K|K]; discriminate K.
Qed.
Lemma pair_same : forall s, conv Ime s = conv Obsolete s -> conv Ime s = conv Default s.
Proof.
  induction s as [s IH] using str_ind_len. intro Q. destruct s as [|c s]; [reflexivity|].
  destruct (step_or_alone c s) as [[K _]|[N F]]; [|exfalso; now apply (pair_differs_here c s N F)].
  destruct (starts_wi c s) as [(y & r & -> & C & Y)|H].
  - exfalso. destruct (wi_weight c y r C Y) as (v & v' & i & o & E1 & _ & E2 & _ & Ho & Hi & D). rewrite E1, E2 in Q.
    destruct v; [discriminate Ho|]. destruct v'; [discriminate Hi|]. injection Ho as ->. injection Hi as ->. injection Q as Q _. congruence.
  - rewrite !conv_kstep in *. cbn [tree_of] in *. rewrite K, (no_wi_step c s H) in *. apply app_inv_head in Q. f_equal. apply IH; [|exact Q].
    pose proof (kstep_shorter TO_KANA_NODE_TREE c s); cbn [length]; lia.
Qed.
Theorem ime_obsolete s : conv Ime s = conv Obsolete s <-> ~ n_alone s /\ ~ wi_we_alone s.
Proof.
  split.
  - intro Q. pose proof (pair_same s Q) as Q'. split; intro A; [now apply (ime_differs s A)|]. apply (obsolete_differs s A). congruence.
  - intros [A B]. now rewrite (ime_conv s A), (obsolete_conv_exact s B).
Qed.
