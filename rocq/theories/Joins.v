(** * Romanising in parts: C75 *)
From Verif Require Import Tac Base Std Constants Chars RomajiTree Convert
  RomajiPure KanaSpec KanaDict KanaProofs Predicates ScriptSpec ScriptProofs RomajiSpec RomajiProofs MoraProofs
  LibraryProofs ChoiceSpec ChoiceProofs JoinSpec.

Local Opaque rdict.
(** ** Finite facts about the dictionary *)
Definition nn : N := Eval vm_compute in ch "ん".
Definition mem (c : N) (l : str) : bool := existsb (N.eqb c) l.
Lemma mem_In c l : mem c l = true <-> In c l.
Proof. apply existsb_In. Qed.
Lemma mem_not c l : mem c l = false <-> ~ In c l.
Proof. rewrite <- mem_In. destruct (mem c l); intuition congruence. Qed.
Lemma key_b_true k : key_b k = true -> exists v, r_entry k v.
Proof.
  unfold key_b. intro H. apply existsb_exists in H. destruct H as ([k' v] & I & Q). cbn in Q. apply str_eqb_eq in Q.
  subst k'. now exists v.
Qed.
Definition entry_b (k v : str) : bool := existsb (fun e => str_eqb (fst e) k && str_eqb (snd e) v) rdict.
Lemma entry_b_true k v : entry_b k v = true -> r_entry k v.
Proof.
  unfold entry_b. intro H. apply existsb_exists in H. destruct H as ([k' v'] & I & Q). cbn in Q. apply andb_prop in Q.
  destruct Q as [Q Q']. apply str_eqb_eq in Q. apply str_eqb_eq in Q'. now subst.
Qed.
(** the texts differ at some position *)
Fixpoint diverge (a b : str) : bool :=
  match a, b with x :: a, y :: b => if x =? y then diverge a b else true | _, _ => false end.
Lemma diverge_app a : forall b s t, diverge a b = true -> a ++ s <> b ++ t.
Proof.
  induction a as [|x a IH]; intros [|y b] s t; cbn; try discriminate.
  destruct (N.eqb_spec x y) as [->|D]; intros H Q; injection Q; intros; [now apply (IH b s t H)|contradiction].
Qed.

Definition crossing_b (k : str) : bool :=
  mem vu k ||
  match k with
  | [_] => true
  | [a; b] => (a =? tsu) && key_b [b] && negb (b =? tsu) && (if b =? nn then true else negb (mem b (u "ゎヷ")))
              || (a =? nn) && mem b after_n || mem a bases && mem b smalls
  | [a; b; c] => (a =? tsu) && mem b bases && mem c smalls
  | _ => false
  end.
Definition tails_b (k : str) : bool :=
  mem vu k || match rev k with
              | [] => false
              | [_] => true
              | a :: l => negb (a =? tsu) && (if mem a (nn :: bases) then match l with [b] => b =? tsu | _ => false end else true)
              end.
Definition gem_b (e : str * str) : bool :=
  mem vu (fst e) || match fst e with
  | [] => false
  | b :: _ => mem b (tsu :: nn :: u "ゎヷ")
              || entry_b (tsu :: fst e) (doubled (snd e)) && (if mem b doublable then true else str_eqb (doubled (snd e)) (snd e))
  end.
Definition ungem_b (k : str) : bool :=
  mem vu k || match k with a :: (b :: _ :: _) as k' => negb (a =? tsu) || key_b k' | _ => true end.
Definition vowels_b (e : str * str) : bool :=
  match fst e with c :: _ => negb (mem c after_n) || first_in (u "aiueoy") (snd e) | [] => false end.
Definition facts : bool :=
  forallb (fun e => crossing_b (fst e) && tails_b (fst e) && gem_b e && ungem_b (fst e) && vowels_b e) rdict.
Lemma facts_ok : facts = true.
Proof. vm_cast_no_check (eq_refl true). Qed.
Lemma entry_facts k v : r_entry k v ->
  crossing_b k = true /\ tails_b k = true /\ gem_b (k, v) = true /\ ungem_b k = true /\ vowels_b (k, v) = true.
Proof.
  intro I. pose proof facts_ok as H. unfold facts in H. rewrite forallb_forall in H. specialize (H _ I). cbn [fst] in H.
  apply andb_prop in H. destruct H as [H H5]. apply andb_prop in H. destruct H as [H H4].
  apply andb_prop in H. destruct H as [H H3]. apply andb_prop in H. destruct H as [H1 H2]. auto.
Qed.
(** a doubled consonant is noticed at the second letter *)
Definition obs_rows : list (str * str) := filter (fun e => match fst e with b :: _ => mem b doublable | [] => false end) rdict.
Definition obs_b : bool :=
  forallb (fun e => forallb (fun e' => negb (hd 0 (fst e) =? hd 0 (fst e')) || diverge (doubled (snd e)) (snd e')) obs_rows) obs_rows.
Lemma obs_ok : obs_b = true.
Proof. vm_cast_no_check (eq_refl true). Qed.
Lemma obs_rows_In b k v : In b doublable -> r_entry (b :: k) v -> In (b :: k, v) obs_rows.
Proof.
  intros B I. apply mem_In in B.
  exact (proj2 (filter_In (fun e : str * str => match fst e with b :: _ => mem b doublable | [] => false end) (b :: k, v) rdict) (conj I B)).
Qed.
Lemma obs_diverge b k v k' v' : In b doublable -> r_entry (b :: k) v -> r_entry (b :: k') v' -> diverge (doubled v) v' = true.
Proof.
  intros B I I'. pose proof obs_ok as H. unfold obs_b in H. rewrite forallb_forall in H.
  specialize (H _ (obs_rows_In b k v B I)). rewrite forallb_forall in H. specialize (H _ (obs_rows_In b k' v' B I')).
  cbn [fst snd hd] in H. rewrite N.eqb_refl in H. exact H.
Qed.
Definition small_b : bool :=
  forallb (fun a => forallb (fun b => forallb (fun k =>
    match find (fun e => str_eqb (fst e) k) rdict, find (fun e => str_eqb (fst e) (k ++ [b])) rdict with
    | Some e, Some e' => diverge (snd e') (snd e)
    | _, _ => false
    end) [[a]; [tsu; a]]) smalls) bases.
Lemma small_ok : small_b = true.
Proof. vm_cast_no_check (eq_refl true). Qed.
Lemma small_diverge a b k : In a bases -> In b smalls -> k = [a] \/ k = [tsu; a] ->
  exists v w, r_entry k v /\ r_entry (k ++ [b]) w /\ diverge w v = true.
Proof.
  intros A B K. pose proof small_ok as H. unfold small_b in H. rewrite forallb_forall in H. specialize (H _ A).
  rewrite forallb_forall in H. specialize (H _ B). rewrite forallb_forall in H.
  assert (In k [[a]; [tsu; a]]) as I by (destruct K; cbn; auto). specialize (H _ I).
  destruct (find (fun e => str_eqb (fst e) k) rdict) as [[k1 v]|] eqn:F1; [|discriminate].
  destruct (find (fun e => str_eqb (fst e) (k ++ [b])) rdict) as [[k2 w]|] eqn:F2; [|discriminate].
  apply find_some in F1. apply find_some in F2. cbn [fst snd] in *. destruct F1 as [F1 Q1], F2 as [F2 Q2].
  apply str_eqb_eq in Q1. apply str_eqb_eq in Q2. subst. exists v, w. exact (conj F1 (conj F2 H)).
Qed.

Lemma in_app_not {A} (x : A) a b : ~ In x (a ++ b) -> ~ In x a /\ ~ In x b.
Proof. intro H. split; intro I; apply H, in_or_app; auto. Qed.

(** ** The dictionary of a choice *)
Definition ent (r r' : nat) (k v : str) : Prop := In (k, v) (chosen_dict r r').
Definition from_v (r : nat) (k : str) : Prop :=
  k = [vu] \/ exists b, r = 0%nat /\ In b smalls /\ k = [vu; b].
Lemma from_v_spec r k v : In (k, v) (v_entries r) -> from_v r k.
Proof.
  assert (forallb (fun r => forallb (fun e => match fst e with
    | [a] => a =? vu | [a; b] => (a =? vu) && Nat.eqb r 0 && mem b smalls | _ => false end) (v_entries r)) (seq 0 5) = true) as H
    by (vm_compute; reflexivity).
  intro I. rewrite forallb_forall in H. destruct (Nat.lt_ge_cases r 5) as [L|L].
  2:{ exfalso. unfold v_entries in I. rewrite nth_overflow in I; [exact I|cbn; lia]. }
  specialize (H r ltac:(apply in_seq; lia)). rewrite forallb_forall in H. specialize (H _ I). cbn [fst] in H. unfold from_v.
  destruct k as [|a [|b [|c k]]]; try discriminate H.
  - apply N.eqb_eq in H. subst a. now left.
  - apply andb_prop in H. destruct H as [H B]. apply andb_prop in H. destruct H as [H Z]. apply N.eqb_eq in H. apply Nat.eqb_eq in Z.
    apply mem_In in B. subst a. right. exists b. auto.
Qed.
Lemma ent_cases r r' k v : ent r r' k v <-> (r_entry k v /\ ~ In vu k) \/ In (k, v) (v_entries r)
  \/ exists k' v', k = tsu :: k' /\ v = doubled v' /\ In (k', v') (v_entries r').
Proof.
  unfold ent, chosen_dict. rewrite !in_app_iff, filter_In, in_map_iff. cbn [fst]. change (ch "ゔ") with vu.
  assert (negb (existsb (N.eqb vu) k) = true <-> ~ In vu k) as ->.
  { rewrite negb_true_iff, <- not_true_iff_false, existsb_In. reflexivity. }
  assert ((exists x, sokuon x = (k, v) /\ In x (v_entries r')) <-> exists k' v', k = tsu :: k' /\ v = doubled v' /\ In (k', v') (v_entries r')) as ->; [|reflexivity].
  split.
  - intros ([k' v'] & Q & I). unfold sokuon in Q. cbn [fst snd] in Q. injection Q as <- <-. exists k', v'. auto.
  - intros (k' & v' & -> & -> & I). exists (k', v'). auto.
Qed.
Lemma v_in_rdict : forallb (fun r => forallb (fun e => entry_b (fst e) (snd e) && entry_b (tsu :: fst e) (doubled (snd e))) (v_entries r)) (seq 0 5) = true.
Proof. vm_compute. reflexivity. Qed.
Lemma v_entry r k v : In (k, v) (v_entries r) -> r_entry k v /\ r_entry (tsu :: k) (doubled v).
Proof.
  intro I. pose proof v_in_rdict as H. rewrite forallb_forall in H. destruct (Nat.lt_ge_cases r 5) as [L|L].
  - specialize (H r). rewrite forallb_forall in H. specialize (H ltac:(apply in_seq; lia) _ I). apply andb_prop in H.
    destruct H as [H1 H2]. split; now apply entry_b_true.
  - exfalso. unfold v_entries in I. rewrite nth_overflow in I; [exact I|cbn; lia].
Qed.
Lemma ent_entry r r' k v : ent r r' k v -> r_entry k v.
Proof.
  intro I. apply ent_cases in I. destruct I as [[I _]|[I|(k' & v' & -> & -> & I)]]; [exact I|apply (v_entry _ _ _ I)|apply (v_entry _ _ _ I)].
Qed.
Lemma entry_ent r r' k v : r_entry k v -> ~ In vu k -> ent r r' k v.
Proof. intros I V. apply ent_cases. auto. Qed.
Lemma entry_b_ent r r' k v : entry_b k v = true -> mem vu k = false -> ent r r' k v.
Proof. intros I V. apply entry_ent; [now apply entry_b_true|now apply mem_not]. Qed.
(** where ゔ stands in a key *)
Lemma vu_key r r' k v : ent r r' k v -> In vu k ->
  k = [vu] \/ (exists b, r = 0%nat /\ In b smalls /\ k = [vu; b]) \/ k = [tsu; vu] \/ exists b, r' = 0%nat /\ In b smalls /\ k = [tsu; vu; b].
Proof.
  intros I V. apply ent_cases in I. destruct I as [[_ I]|[I|(k' & v' & -> & -> & I)]]; [contradiction| |]; apply from_v_spec in I.
  - destruct I as [I|I]; auto.
  - right. right. destruct I as [->|(b & Z & B & ->)]; [now left|right]. exists b. auto.
Qed.
Lemma head_no_vu r r' b k v : ent r r' (b :: k) v -> b <> vu -> b <> tsu -> ~ In vu (b :: k).
Proof.
  intros I B1 B2 V. destruct (vu_key _ _ _ _ I V) as [Z|[(c & _ & _ & Z)|[Z|(c & _ & _ & Z)]]]; injection Z as Z; congruence.
Qed.
Lemma ent_v r r' : (r < 5)%nat -> (r' < 5)%nat -> (exists w, ent r r' [vu] w) /\ (exists w, ent r r' [tsu; vu] w).
Proof.
  intros L L'. assert (forall r, (r < 5)%nat -> exists w, In ([vu], w) (v_entries r)) as H.
  { intros q Lq. do 5 (destruct q as [|q]; [eexists; left; reflexivity|]). lia. }
  destruct (H r L) as [w W], (H r' L') as [w' W']. split.
  - exists w. apply ent_cases. auto.
  - exists (doubled w'). apply ent_cases. right. right. eauto.
Qed.
Lemma v_diverge b : In b smalls ->
  exists v w, In ([vu], v) (v_entries 0) /\ In ([vu; b], w) (v_entries 0) /\ diverge w v = true /\ diverge (doubled w) (doubled v) = true.
Proof.
  intro B.
  assert (forallb (fun b => existsb (fun e => existsb (fun e' => str_eqb (fst e) [vu] && str_eqb (fst e') [vu; b]
      && diverge (snd e') (snd e) && diverge (doubled (snd e')) (doubled (snd e))) (v_entries 0)) (v_entries 0)) smalls = true) as H
    by (vm_compute; reflexivity).
  rewrite forallb_forall in H. specialize (H b B). apply existsb_exists in H. destruct H as ([k v] & I & H).
  apply existsb_exists in H. destruct H as ([k' w] & I' & H). cbn [fst snd] in H. apply andb_prop in H. destruct H as [H D2].
  apply andb_prop in H. destruct H as [H D1]. apply andb_prop in H. destruct H as [H1 H2]. apply str_eqb_eq in H1, H2. subst k k'.
  exists v, w. auto.
Qed.

Lemma snoc_end {A} (x1 k x' : list A) c : k <> [] -> x1 ++ k = x' ++ [c] -> exists k', k = k' ++ [c].
Proof.
  intros Nk Q. destruct (exists_last Nk) as (k' & c' & ->). rewrite app_assoc in Q. apply app_inj_tail in Q.
  destruct Q as [_ ->]. now exists k'.
Qed.
Lemma nn_base : ~ In nn bases.
Proof. apply mem_not. vm_compute. reflexivity. Qed.
Lemma quote_vowel : ~ In (ch "'") (u "aiueoy").
Proof. apply mem_not. vm_compute. reflexivity. Qed.
Lemma apostrophe b : In b after_n -> exists w, r_entry [nn; b] (u "n'" ++ w).
Proof.
  intro B.
  assert (forallb (fun c => existsb (fun w => entry_b [nn; c] (u "n'" ++ w)) (words (u "a i u e o ya yu yo"))) after_n = true) as K
    by (vm_compute; reflexivity).
  rewrite forallb_forall in K. specialize (K _ B). apply existsb_exists in K. destruct K as (w & _ & K). exists w. now apply entry_b_true.
Qed.

(** ** Units *)
Definition R (E : std) (h : str) : str := rconv E false [] h.
Definition closed (r r' : nat) (k rest : str) : Prop := forall d rest' w, rest = d :: rest' -> ~ ent r r' (k ++ [d]) w.
Definition unit (r r' : nat) (k v : str) : Prop := ent r r' k v \/ (exists c, k = [c] /\ v = [c] /\ forall w, ~ ent r r' [c] w).
Record library (E : std) (r r' : nat) : Prop := {
  lib_r : (r < 5)%nat;
  lib_r' : (r' < 5)%nat;
  lib_hit : forall k v rest, ent r r' k v -> closed r r' k rest -> R E (k ++ rest) = v ++ R E rest;
  lib_miss : forall c s, (forall v, ~ ent r r' [c] v) -> R E (c :: s) = c :: R E s;
  lib_hit_up : forall up o k v rest, ent r r' k v -> closed r r' k rest ->
    rconv E up o (k ++ rest) = remit up (firstn (length k) o) v ++ rconv E up (skipn (length k) o) rest;
  lib_miss_up : forall up o c s, (forall v, ~ ent r r' [c] v) -> rconv E up o (c :: s) = c :: rconv E up (skipn 1 o) s;
  lib_first : forall c s, exists k v rest, c :: s = k ++ rest /\ unit r r' k v /\ closed r r' k rest }.

Section Joins.
  Context (E : std) (r r' : nat) (L : library E r r').
  Notation ent := (ent r r').
  Notation closed := (closed r r').
  Notation unit := (unit r r').
  Notation R := (R E).
  Lemma entry_nonempty k v : ent k v -> k <> [].
  Proof. intro I. apply ent_entry, r_entry_node in I. tauto. Qed.
  Lemma unit_nonempty k v : unit k v -> k <> [].
  Proof. intros [I|(c & -> & _)]; [now apply entry_nonempty in I|discriminate]. Qed.
  Lemma ent_prefix a b w : ent (a ++ b) w -> a <> [] -> exists w', ent a w'.
  Proof.
    intros I Na. destruct (in_dec N.eq_dec vu (a ++ b)) as [V|V].
    - destruct (ent_v r r' (lib_r _ _ _ L) (lib_r' _ _ _ L)) as [E1 E2].
      assert (ent [tsu] []) as E3 by (apply entry_b_ent; vm_compute; reflexivity).
      destruct (list_eq_dec N.eq_dec b []) as [->|Nb]; [rewrite app_nil_r in I; eauto|].
      destruct (vu_key _ _ _ _ I V) as [Z|[(c & _ & _ & Z)|[Z|(c & _ & _ & Z)]]].
      + destruct a as [|x [|y a]]; [congruence| |discriminate Z]. destruct b; [congruence|discriminate Z].
      + destruct a as [|x [|y [|z a]]]; [congruence| | |discriminate Z]; inversion Z; subst; [exact E1|congruence].
      + destruct a as [|x [|y [|z a]]]; [congruence| | |discriminate Z]; inversion Z; subst; [eauto|congruence].
      + destruct a as [|x [|y [|z [|z' a]]]]; [congruence| | | |discriminate Z]; inversion Z; subst; [eauto|exact E2|congruence].
    - apply ent_entry in I. destruct (r_entry_prefix a b w I Na) as [w' I']. exists w'. apply entry_ent; [exact I'|].
      intro Z. apply V, in_or_app. now left.
  Qed.
  Lemma unit_step k v rest : unit k v -> closed k rest -> R (k ++ rest) = v ++ R rest.
  Proof. intros [I|(c & -> & -> & X)] C; [exact (lib_hit _ _ _ L k v rest I C)|exact (lib_miss _ _ _ L c rest X)]. Qed.
  Lemma unit_alone k v : unit k v -> R k = v.
  Proof.
    intro U. assert (closed k []) as C by (intros d q w Q; discriminate Q).
    pose proof (unit_step k v [] U C) as H. rewrite app_nil_r in H. rewrite H. unfold Joins.R. now rewrite rconv_nil, app_nil_r.
  Qed.
  Lemma ent_fun k v w : unit k v -> ent k w -> v = w.
  Proof. intros U I. rewrite <- (unit_alone k v U). apply unit_alone. now left. Qed.
  Lemma closed_more k rest z : rest <> [] -> closed k rest -> closed k (rest ++ z).
  Proof. intros N C d q w Q. destruct rest as [|e rest]; [congruence|]. injection Q as -> _. now apply (C d rest). Qed.
  Lemma first_unit c s : exists k v rest, c :: s = k ++ rest /\ unit k v /\ closed k rest.
  Proof. exact (lib_first _ _ _ L c s). Qed.

  (** what stands before the end of a unit *)
  Lemma unit_tail k a v : unit (k ++ [a]) v ->
    (a = tsu -> k = []) /\ (a = nn \/ a = vu \/ In a bases -> k = [] \/ k = [tsu]).
  Proof.
    intros [I|(c & Q & _)].
    2:{ destruct k as [|x [|y k]]; try discriminate Q. auto. }
    destruct (in_dec N.eq_dec vu (k ++ [a])) as [V|V].
    { assert (forall b, In b smalls -> b <> tsu /\ b <> nn /\ b <> vu /\ ~ In b bases) as Sm.
      { intros b B. assert (forallb (fun b => negb (mem b (tsu :: nn :: vu :: bases))) smalls = true) as H by (vm_compute; reflexivity).
        rewrite forallb_forall in H. specialize (H b B). apply negb_true_iff, mem_not in H.
        split; [intros ->; apply H; now left|]. split; [intros ->; apply H; right; now left|].
        split; [intros ->; apply H; right; right; now left|]. intro Z. apply H. do 3 right. exact Z. }
      destruct (vu_key _ _ _ _ I V) as [Z|[(c & _ & B & Z)|[Z|(c & _ & B & Z)]]].
      - change [vu] with ([] ++ [vu]) in Z. apply app_inj_tail in Z. destruct Z as [-> ->]. auto.
      - change [vu; c] with ([vu] ++ [c]) in Z. apply app_inj_tail in Z. destruct Z as [-> ->]. destruct (Sm c B) as (S1 & S2 & S3 & S4).
        split; [contradiction|]. intros [Z|[Z|Z]]; contradiction.
      - change [tsu; vu] with ([tsu] ++ [vu]) in Z. apply app_inj_tail in Z. destruct Z as [-> ->]. split; [discriminate|auto].
      - change [tsu; vu; c] with ([tsu; vu] ++ [c]) in Z. apply app_inj_tail in Z. destruct Z as [-> ->]. destruct (Sm c B) as (S1 & S2 & S3 & S4).
        split; [contradiction|]. intros [Z|[Z|Z]]; contradiction. }
    assert (a <> vu) as Va by (intros ->; apply V, in_or_app; right; now left).
    apply ent_entry in I. destruct (entry_facts _ _ I) as (_ & T & _). unfold tails_b in T. apply mem_not in V. rewrite V in T. cbn [orb] in T.
    rewrite rev_unit in T. destruct (rev k) as [|b l] eqn:Rk.
    { apply (f_equal (@rev N)) in Rk. rewrite rev_involutive in Rk. cbn in Rk. subst k. auto. }
    apply andb_prop in T. destruct T as [T1 T2]. apply negb_true_iff, N.eqb_neq in T1.
    split; [intro; contradiction|].
    assert (mem a (nn :: bases) = true -> k = [tsu]) as Z.
    { intro M. rewrite M in T2. destruct l; [|discriminate T2]. apply N.eqb_eq in T2. subst b.
      apply (f_equal (@rev N)) in Rk. now rewrite rev_involutive in Rk. }
    intros [H|[H|H]]; [right|contradiction|right]; apply Z, mem_In; [left; now symmetry|now right].
  Qed.
  Lemma crossing k b w : ent (k ++ [b]) w -> k <> [] ->
    (k = [tsu] /\ b <> tsu /\ ~ In b (u "ゎヷ") /\ exists w', ent [b] w')
    \/ (k = [nn] /\ In b after_n)
    \/ (exists a, (k = [a] \/ k = [tsu; a]) /\ In a bases /\ In b smalls)
    \/ (k = [vu] /\ r = 0%nat /\ In b smalls)
    \/ (k = [tsu; vu] /\ r' = 0%nat /\ In b smalls).
  Proof.
    intros I Nk. destruct (in_dec N.eq_dec vu (k ++ [b])) as [V|V].
    { destruct (vu_key _ _ _ _ I V) as [Z|[(c & Z0 & B & Z)|[Z|(c & Z0 & B & Z)]]].
      - change [vu] with ([] ++ [vu]) in Z. apply app_inj_tail in Z. destruct Z as [-> _]. congruence.
      - change [vu; c] with ([vu] ++ [c]) in Z. apply app_inj_tail in Z. destruct Z as [-> ->]. right; right; right; left. auto.
      - change [tsu; vu] with ([tsu] ++ [vu]) in Z. apply app_inj_tail in Z. destruct Z as [-> ->]. left.
        split; [reflexivity|]. split; [discriminate|]. split; [apply mem_not; vm_compute; reflexivity|].
        exact (proj1 (ent_v r r' (lib_r _ _ _ L) (lib_r' _ _ _ L))).
      - change [tsu; vu; c] with ([tsu; vu] ++ [c]) in Z. apply app_inj_tail in Z. destruct Z as [-> ->]. right; right; right; right. auto. }
    assert (b <> vu) as Vb by (intros ->; apply V, in_or_app; right; now left).
    apply ent_entry in I. destruct (entry_facts _ _ I) as (C & _). unfold crossing_b in C. apply mem_not in V. rewrite V in C. clear V I. cbn [orb] in C.
    destruct k as [|a [|a' [|a'' k]]]; [congruence| | |].
    - cbn [app] in C. apply orb_prop in C. destruct C as [C|C]; [apply orb_prop in C; destruct C as [C|C]|].
      + left. apply andb_prop in C. destruct C as [C C4]. apply andb_prop in C. destruct C as [C C3]. apply andb_prop in C. destruct C as [C1 C2].
        apply N.eqb_eq in C1. subst a. apply negb_true_iff, N.eqb_neq in C3. split; [reflexivity|]. split; [exact C3|].
        split; [destruct (N.eqb_spec b nn) as [->|_]; [vm_compute; intuition discriminate|]; now apply mem_not, negb_true_iff|].
        apply key_b_true in C2. destruct C2 as [w' C2]. exists w'. apply entry_ent; [exact C2|]. intros [Z|[]]. congruence.
      + right. left. apply andb_prop in C. destruct C as [C1 C2]. apply N.eqb_eq in C1. subst a. split; [reflexivity|now apply mem_In].
      + right. right. left. exists a. apply andb_prop in C. destruct C as [C1 C2]. apply mem_In in C1. apply mem_In in C2. auto.
    - cbn [app] in C. right. right. left. exists a'. apply andb_prop in C. destruct C as [C C2]. apply andb_prop in C. destruct C as [C0 C1].
      apply N.eqb_eq in C0. subst a. apply mem_In in C1. apply mem_In in C2. auto.
    - destruct k; discriminate C.
  Qed.
  Lemma gem_entry b k v : ent (b :: k) v -> b <> tsu -> b <> vu -> b <> nn -> ~ In b (u "ゎヷ") ->
    ent (tsu :: b :: k) (doubled v) /\ (~ In b doublable -> doubled v = v).
  Proof.
    intros I T Bv Nn G. pose proof (head_no_vu _ _ _ _ _ I Bv T) as V.
    apply ent_entry in I. destruct (entry_facts _ _ I) as (_ & _ & H & _). unfold gem_b in H. cbn [fst snd] in H.
    pose proof V as V'. apply mem_not in V'. rewrite V' in H. cbn [orb] in H.
    assert (mem b (tsu :: nn :: u "ゎヷ") = false) as M by (apply mem_not; intros [X|[X|X]]; congruence).
    rewrite M in H. cbn [orb] in H. apply andb_prop in H. destruct H as [H1 H2]. split.
    - apply entry_ent; [now apply entry_b_true|]. intros [Z|Z]; [discriminate Z|contradiction].
    - intro O. apply mem_not in O. rewrite O in H2. now apply str_eqb_eq.
  Qed.
  Lemma gem_closed b k rest : b <> vu -> closed (b :: k) rest -> closed (tsu :: b :: k) rest.
  Proof.
    intros Bv C d q w Q I. subst rest. cbn [app] in I.
    assert (~ In vu (tsu :: b :: k ++ [d])) as V.
    { intro V. destruct (vu_key _ _ _ _ I V) as [Z|[(c & _ & _ & Z)|[Z|(c & _ & _ & Z)]]].
      - discriminate Z.
      - discriminate Z.
      - injection Z as Z _. contradiction.
      - injection Z as Z _. contradiction. }
    apply ent_entry in I. destruct (entry_facts _ _ I) as (_ & _ & _ & U & _). unfold ungem_b in U.
    pose proof V as M. apply mem_not in M. rewrite M in U. cbn [orb] in U.
    destruct (k ++ [d]) as [|x l] eqn:Q; [destruct k; discriminate Q|]. cbn [N.eqb negb orb] in U.
    apply orb_prop in U. destruct U as [U|U]; [discriminate U|]. rewrite <- Q in U, V.
    apply key_b_true in U. destruct U as [w' U]. apply (C d q w' eq_refl). apply entry_ent; [exact U|].
    intro Z. apply V. right. exact Z.
  Qed.
  Lemma after_n_entry c s : In c after_n -> exists x l, R (c :: s) = x :: l /\ In x (u "aiueoy").
  Proof.
    intro A. destruct (first_unit c s) as (k & v & rest & Sp & U & C). rewrite Sp, (unit_step k v rest U C).
    pose proof (unit_nonempty _ _ U) as Nk. destruct k as [|c' k]; [congruence|]. injection Sp as <- _.
    destruct U as [I|(c' & Q & _ & X)].
    - apply ent_entry in I. destruct (entry_facts _ _ I) as (_ & _ & _ & _ & H). unfold vowels_b in H. cbn [fst snd] in H.
      apply mem_In in A. rewrite A in H. cbn [negb orb] in H. destruct v as [|x v]; [discriminate H|].
      exists x, (v ++ R rest). split; [reflexivity|]. cbn [first_in] in H. now apply existsb_In.
    - exfalso. injection Q as -> ->.
      assert (forallb (fun c => key_b [c] && negb (c =? vu)) after_n = true) as K by (vm_compute; reflexivity).
      rewrite forallb_forall in K. specialize (K _ A). apply andb_prop in K. destruct K as [K K']. apply key_b_true in K. destruct K as [w K].
      apply (X w), entry_ent; [exact K|]. apply negb_true_iff, N.eqb_neq in K'. intros [Z|[]]. congruence.
  Qed.

  (** ** The last unit of a text *)
  (** a text ending in [k] whose earlier part is settled, whatever follows *)
  Definition settled (x k v A : str) : Prop :=
    unit k v /\ (forall z, R (x ++ z) = A ++ R (k ++ z)) /\
    exists x1, x = x1 ++ k /\ (k = [nn] \/ k = [vu] -> forall x', x1 <> x' ++ [tsu]).
  Lemma settled_alone x k v A : settled x k v A -> R x = A ++ v.
  Proof. intros (U & H & _). specialize (H []). rewrite !app_nil_r in H. rewrite H. f_equal. now apply unit_alone. Qed.
  Lemma tsu_unit k v : unit k v -> forall x, k = x ++ [tsu] -> k = [tsu].
  Proof. intros U x ->. destruct (unit_tail x tsu v U) as [H _]. now rewrite (H eq_refl). Qed.
  Lemma tsu_keys c : c = nn \/ c = vu -> exists w, ent [tsu; c] w.
  Proof.
    intros [->| ->]; [|exact (proj2 (ent_v r r' (lib_r _ _ _ L) (lib_r' _ _ _ L)))].
    exists (u "n"). apply entry_b_ent; vm_compute; reflexivity.
  Qed.
  Lemma tsu_value v : unit [tsu] v -> v = [].
  Proof. intro U. apply (ent_fun [tsu] v [] U). apply entry_b_ent; vm_compute; reflexivity. Qed.
  Lemma settle_first k0 v0 rest k v A : unit k0 v0 -> closed k0 rest -> rest <> [] -> settled rest k v A ->
    settled (k0 ++ rest) k v (v0 ++ A).
  Proof.
    intros U C Nr (Uk & H & x1 & Q & X). split; [exact Uk|]. split.
    - intro z. rewrite <- app_assoc, (unit_step k0 v0 (rest ++ z) U (closed_more _ _ _ Nr C)), H. apply app_assoc.
    - exists (k0 ++ x1). split; [rewrite Q; apply app_assoc|]. intros K x' J.
      destruct x1 as [|c x1].
      + rewrite app_nil_r in J. pose proof (tsu_unit _ _ U x' J) as T. rewrite T in C.
        assert (exists c, k = [c] /\ (c = nn \/ c = vu)) as (c & -> & Kc) by (destruct K; eauto).
        destruct (tsu_keys c Kc) as [w T']. apply (C c [] w); [exact Q|exact T'].
      + destruct (snoc_end k0 (c :: x1) x' tsu ltac:(discriminate) J) as [k' K']. exact (X K k' K').
  Qed.
  Lemma last_unit : forall n x, (length x <= n)%nat -> x <> [] -> exists k v A, settled x k v A.
  Proof.
    induction n as [|n IH]; intros x Lx Nx.
    { destruct x; [congruence|cbn in Lx; lia]. }
    destruct x as [|c s]; [congruence|].
    destruct (first_unit c s) as (k & v & rest & Sp & U & C). rewrite Sp in Lx |- *.
    pose proof (unit_nonempty _ _ U) as Nk.
    destruct rest as [|d rest].
    - exists k, v, []. rewrite app_nil_r. split; [exact U|]. split; [reflexivity|]. exists []. split; [reflexivity|].
      intros _ x' Q. destruct x'; discriminate Q.
    - destruct (IH (d :: rest)) as (k' & v' & A & S); [|discriminate|].
      { rewrite app_length in Lx. destruct k; [congruence|]. cbn [length] in *. lia. }
      exists k', v', (v ++ A). apply settle_first; try assumption. discriminate.
  Qed.

  (** ** One more part *)
  Lemma unit_of_entry c k v rest s w : unit k v -> c :: s = k ++ rest -> ent [c] w -> ent k v.
  Proof. intros [I|(d & -> & _ & X)] Q J; [exact I|]. injection Q as -> _. exfalso. exact (X w J). Qed.
  Lemma apostrophe_ent b : In b after_n -> exists w, ent [nn; b] (u "n'" ++ w).
  Proof.
    intro B. destruct (apostrophe b B) as [w K]. exists w. apply entry_ent; [exact K|]. intros [Z|[Z|[]]]; [discriminate Z|].
    rewrite Z in B. revert B. apply mem_not. vm_compute. reflexivity.
  Qed.
  Lemma closed_small k a b rest : k = [a] \/ k = [tsu; a] -> In b smalls -> closed (k ++ [b]) rest.
  Proof.
    intros Ka B d q w Qd J.
    assert (negb (mem b (tsu :: nn :: vu :: bases)) = true) as H.
    { assert (forallb (fun b => negb (mem b (tsu :: nn :: vu :: bases))) smalls = true) as H by (vm_compute; reflexivity).
      rewrite forallb_forall in H. exact (H b B). }
    apply negb_true_iff, mem_not in H.
    destruct (crossing (k ++ [b]) d w J) as [[Z _]|[[Z _]|[(a' & Z & Ba & _)|[[Z _]|[Z _]]]]].
    - intro Z. apply app_eq_nil in Z. destruct Z as [_ Z]. discriminate Z.
    - destruct Ka as [->| ->]; discriminate Z.
    - destruct Ka as [->| ->]; discriminate Z.
    - assert (a' = b) as ->.
      { destruct Z as [Z|Z]; [change [a'] with ([] ++ [a']) in Z|change [tsu; a'] with ([tsu] ++ [a']) in Z];
          apply app_inj_tail in Z; destruct Z; congruence. }
      apply H. do 3 right. exact Ba.
    - destruct Ka as [->| ->]; discriminate Z.
    - change [tsu; vu] with ([tsu] ++ [vu]) in Z. apply app_inj_tail in Z. destruct Z as [_ ->]. apply H. right; right; now left.
  Qed.

  Context (rv rtv : str) (Hv : rv = u "vu" <-> r = 0%nat) (Hv' : rtv = u "vvu" <-> r' = 0%nat).
  Notation fuses := (fuses rv rtv).
  Lemma fuses_inv x y : fuses x y ->
    (exists x' b y', x = x' ++ [tsu] /\ y = b :: y' /\ In b doublable)
    \/ (exists x' b y', x = x' ++ [tsu] /\ y = nn :: b :: y' /\ In b after_n)
    \/ (exists x' b y', x = x' ++ [nn] /\ (forall x'', x' <> x'' ++ [tsu]) /\ y = b :: y' /\ In b after_n)
    \/ (exists x' a b y', x = x' ++ [a] /\ y = b :: y' /\ In a bases /\ In b smalls)
    \/ (exists x' b y', x = x' ++ [vu] /\ (forall x'', x' <> x'' ++ [tsu]) /\ y = b :: y' /\ In b smalls /\ r = 0%nat)
    \/ (exists x' b y', x = (x' ++ [tsu]) ++ [vu] /\ y = b :: y' /\ In b smalls /\ r' = 0%nat).
  Proof.
    intros [x' b y' B|x' b y' B|x' b y' X B|x' a b y' A B|x' b y' V X B|x' b y' V B].
    - left. exists x', b, y'. exact (conj eq_refl (conj eq_refl B)).
    - right. left. exists x', b, y'. exact (conj eq_refl (conj eq_refl B)).
    - right. right. left. exists x', b, y'. exact (conj eq_refl (conj X (conj eq_refl B))).
    - right. right. right. left. exists x', a, b, y'. exact (conj eq_refl (conj eq_refl (conj A B))).
    - do 4 right. left. exists x', b, y'. exact (conj eq_refl (conj X (conj eq_refl (conj B (proj1 Hv V))))).
    - do 5 right. exists x', b, y'. rewrite <- app_assoc. exact (conj eq_refl (conj eq_refl (conj B (proj1 Hv' V)))).
  Qed.
  (** a part that fuses: the romaji differ, whatever follows *)
  Lemma small_differs k b y v v1 w z z' : (exists a, k = [a] \/ k = [tsu; a]) -> In b smalls -> unit k v -> ent k v1 -> ent (k ++ [b]) w ->
    diverge w v1 = true -> R (k ++ b :: y ++ z) <> v ++ z'.
  Proof.
    intros [a Ka] B U I1 I2 D. rewrite (ent_fun k v v1 U I1).
    assert (k ++ b :: y ++ z = (k ++ [b]) ++ y ++ z) as -> by (rewrite <- app_assoc; reflexivity).
    rewrite (unit_step _ w (y ++ z) (or_introl I2) (closed_small k a b _ Ka B)). now apply diverge_app.
  Qed.
  Lemma fuse_differs x k v A y z z' : settled x k v A -> fuses x y -> R (k ++ y ++ z) <> v ++ R y ++ z'.
  Proof.
    intros (U & _ & x1 & Q & X) F. pose proof (unit_nonempty _ _ U) as Nk.
    destruct (fuses_inv x y F) as [(x' & b & y' & Qx & -> & B)|[(x' & b & y' & Qx & -> & B)|[(x' & b & y' & Qx & NX & -> & B)|[(x' & a & b & y' & Qx & -> & Aa & B)|[(x' & b & y' & Qx & NX & -> & B & R0)|(x' & b & y' & Qx & -> & B & R0)]]]]].
    - rewrite Q in Qx. destruct (snoc_end _ _ _ _ Nk Qx) as [k' Qk]. pose proof (tsu_unit _ _ U _ Qk) as ->.
      rewrite (tsu_value v U).
      assert (exists w, ent [b] w) as [w Kb].
      { destruct (N.eq_dec b vu) as [->|Bv]; [exact (proj1 (ent_v r r' (lib_r _ _ _ L) (lib_r' _ _ _ L)))|].
        assert (forallb (fun c => key_b [c]) doublable = true) as K by (vm_compute; reflexivity).
        rewrite forallb_forall in K. specialize (K _ B). apply key_b_true in K. destruct K as [w K]. exists w.
        apply entry_ent; [exact K|]. intros [Z|[]]. congruence. }
      destruct (first_unit b y') as (k2 & v2 & r2 & S2 & U2 & C2).
      pose proof (unit_of_entry _ _ _ _ _ _ U2 S2 Kb) as I2. destruct k2 as [|b2 k2]; [now apply unit_nonempty in U2|].
      pose proof S2 as S2'. injection S2' as <- _.
      assert (b <> tsu /\ b <> nn /\ ~ In b (u "ゎヷ")) as (B1 & B2 & B3).
      { assert (forallb (fun c => negb (mem c (tsu :: nn :: u "ゎヷ"))) doublable = true) as K by (vm_compute; reflexivity).
        rewrite forallb_forall in K. specialize (K _ B). apply negb_true_iff, mem_not in K.
        repeat split; intro Z; apply K; [left|right; left|right; right]; congruence. }
      assert (exists k1 v1 r1, b :: y' ++ z = (b :: k1) ++ r1 /\ r_entry (b :: k1) v1 /\ ent (tsu :: b :: k1) (doubled v1) /\ closed (tsu :: b :: k1) r1)
        as (k1 & v1 & r1 & S1 & I1 & G & CG).
      { destruct (N.eq_dec b vu) as [->|Bv].
        - destruct (first_unit tsu (vu :: y' ++ z)) as (k1 & v1 & r1 & S1 & U1 & C1).
          destruct (ent_v r r' (lib_r _ _ _ L) (lib_r' _ _ _ L)) as [_ [w2 K2]].
          destruct U1 as [I1|(c & -> & _)].
          2:{ exfalso. injection S1 as <- <-. exact (C1 vu _ w2 eq_refl K2). }
          destruct k1 as [|c1 [|c2 k1]]; [now apply entry_nonempty in I1| |].
          { exfalso. injection S1 as <- <-. exact (C1 vu _ w2 eq_refl K2). }
          injection S1 as <- <- S1. apply ent_cases in I1. destruct I1 as [[_ Z]|[Z|(k3 & v3 & Z & -> & I3)]].
          + exfalso. apply Z. right. now left.
          + exfalso. apply from_v_spec in Z. destruct Z as [Z|(c & _ & _ & Z)]; discriminate Z.
          + injection Z as <-. exists k1, v3, r1. split; [cbn [app]; now rewrite S1|]. split; [exact (proj1 (v_entry _ _ _ I3))|].
            split; [|exact C1]. apply ent_cases. right. right. eauto.
        - destruct (first_unit b (y' ++ z)) as (k1 & v1 & r1 & S1 & U1 & C1).
          pose proof (unit_of_entry _ _ _ _ _ _ U1 S1 Kb) as I1.
          destruct k1 as [|b1 k1]; [now apply unit_nonempty in U1|]. pose proof S1 as S1'. injection S1' as <- _.
          exists k1, v1, r1. split; [exact S1|]. split; [now apply ent_entry in I1|].
          split; [exact (proj1 (gem_entry b k1 v1 I1 B1 Bv B2 B3))|now apply gem_closed]. }
      change ((b :: y') ++ z) with (b :: y' ++ z). rewrite S1, S2.
      cbn [app]. change (tsu :: b :: k1 ++ r1) with ((tsu :: b :: k1) ++ r1).
      rewrite (unit_step _ _ _ (or_introl G) CG). change (b :: k2 ++ r2) with ((b :: k2) ++ r2). rewrite (unit_step _ _ _ U2 C2), <- app_assoc.
      apply diverge_app. apply (obs_diverge b k1 v1 k2 v2 B I1). now apply ent_entry in I2.
    - rewrite Q in Qx. destruct (snoc_end _ _ _ _ Nk Qx) as [k' Qk]. pose proof (tsu_unit _ _ U _ Qk) as ->.
      rewrite (tsu_value v U).
      cbn [app]. change (tsu :: nn :: b :: y' ++ z) with ([tsu; nn] ++ b :: y' ++ z).
      assert (ent [tsu; nn] (u "n")) as U2 by (apply entry_b_ent; vm_compute; reflexivity).
      rewrite (unit_step [tsu; nn] (u "n") _ (or_introl U2)).
      2:{ intros d q w Qd J. destruct (crossing [tsu; nn] d w J) as [[Z _]|[[Z _]|[(a & [Z|Z] & Ba & _)|[[Z _]|[Z _]]]]]; try discriminate Z; try discriminate.
          injection Z as <-. exact (nn_base Ba). }
      destruct (apostrophe_ent b B) as [w Kn].
      change (nn :: b :: y') with ([nn; b] ++ y'). rewrite (unit_step [nn; b] _ y' (or_introl Kn)).
      2:{ intros d q w' Qd J. destruct (crossing [nn; b] d w' J) as [[Z _]|[[Z _]|[(a & [Z|Z] & Ba & _)|[[Z _]|[Z _]]]]]; try discriminate Z; try discriminate. }
      destruct (after_n_entry b (y' ++ z) B) as (x0 & l & -> & Ix). intro Z. cbn in Z. injection Z as Z _. subst x0.
      exact (quote_vowel Ix).
    - rewrite Q in Qx. destruct (snoc_end _ _ _ _ Nk Qx) as [k' Qk]. subst k. destruct (unit_tail k' nn v U) as (_ & T).
      assert (k' = []) as ->.
      { destruct (T (or_introl eq_refl)) as [->| ->]; [reflexivity|]. exfalso. rewrite app_assoc in Qx. apply app_inj_tail in Qx. destruct Qx as [Qx _].
        apply (NX x1). now symmetry. }
      cbn [app] in *.
      assert (v = u "n") as -> by (apply (ent_fun [nn] v (u "n") U); apply entry_b_ent; vm_compute; reflexivity).
      destruct (apostrophe_ent b B) as [w Kn].
      change (nn :: b :: y' ++ z) with ([nn; b] ++ y' ++ z). rewrite (unit_step [nn; b] _ (y' ++ z) (or_introl Kn)).
      2:{ intros d q w' Qd J. destruct (crossing [nn; b] d w' J) as [[Z _]|[[Z _]|[(a & [Z|Z] & Ba & _)|[[Z _]|[Z _]]]]]; try discriminate Z; try discriminate. }
      destruct (after_n_entry b y' B) as (x0 & l & -> & Ix). intro Z. cbn in Z. injection Z as Z _. subst x0.
      exact (quote_vowel Ix).
    - rewrite Q in Qx. destruct (snoc_end _ _ _ _ Nk Qx) as [k' Qk]. subst k. destruct (unit_tail k' a v U) as (_ & T).
      assert (k' ++ [a] = [a] \/ k' ++ [a] = [tsu; a]) as Ka by (destruct (T (or_intror (or_intror Aa))) as [->| ->]; auto).
      destruct (small_diverge a b (k' ++ [a]) Aa B Ka) as (v1 & w & I1 & I2 & D).
      assert (mem vu (bases ++ smalls) = false) as NV by (vm_compute; reflexivity). apply mem_not, in_app_not in NV. destruct NV as [NV1 NV2].
      assert (~ In vu (k' ++ [a])) as V1.
      { intro Z. apply NV1. destruct Ka as [Ka|Ka]; rewrite Ka in Z; cbn in Z; destruct Z as [Z|Z]; try discriminate Z.
        - now rewrite <- Z.
        - destruct Z.
        - destruct Z as [Z|[]]. now rewrite <- Z. }
      apply (small_differs _ b y' v v1 w z _ (ex_intro _ a Ka) B U); [now apply entry_ent| |exact D].
      apply entry_ent; [exact I2|]. intro Z. apply in_app_or in Z. destruct Z as [Z|[Z|[]]]; [contradiction|]. apply NV2. now rewrite <- Z.
    - rewrite Q in Qx. destruct (snoc_end _ _ _ _ Nk Qx) as [k' Qk]. subst k. destruct (unit_tail k' vu v U) as (_ & T).
      assert (k' = []) as ->.
      { destruct (T (or_intror (or_introl eq_refl))) as [->| ->]; [reflexivity|]. exfalso. rewrite app_assoc in Qx. apply app_inj_tail in Qx. destruct Qx as [Qx _].
        apply (NX x1). now symmetry. }
      destruct (v_diverge b B) as (v1 & w & I1 & I2 & D & _). cbn [app].
      apply (small_differs [vu] b y' v v1 w z _ (ex_intro _ vu (or_introl eq_refl)) B U); [| |exact D]; apply ent_cases; right; left; now rewrite R0.
    - rewrite Q in Qx. destruct (snoc_end _ _ _ _ Nk Qx) as [k' Qk]. subst k. destruct (unit_tail k' vu v U) as (_ & T).
      rewrite app_assoc in Qx. apply app_inj_tail in Qx. destruct Qx as [Qx _].
      assert (k' = [tsu]) as ->.
      { destruct (T (or_intror (or_introl eq_refl))) as [->| ->]; [|reflexivity]. exfalso. rewrite app_nil_r in Qx.
        exact (X (or_intror eq_refl) x' Qx). }
      destruct (v_diverge b B) as (v1 & w & I1 & I2 & _ & D). cbn [app].
      apply (small_differs [tsu; vu] b y' v (doubled v1) (doubled w) z _ (ex_intro _ vu (or_intror eq_refl)) B U); [| |exact D];
        apply ent_cases; right; right; rewrite R0; [exists [vu], v1|exists [vu; b], w]; auto.
  Qed.

  Definition key_in (k : str) : bool := existsb (fun e => str_eqb (fst e) k) (chosen_dict r r').
  Lemma key_in_spec k : if key_in k then exists w, ent k w else forall w, ~ ent k w.
  Proof.
    unfold key_in. destruct (existsb _ _) eqn:H.
    - apply existsb_exists in H. destruct H as ([k' v] & I & Q). apply str_eqb_eq in Q. cbn in Q. subst k'. now exists v.
    - intros w I. apply not_true_iff_false in H. apply H. apply existsb_exists. exists (k, w). split; [exact I|]. now apply str_eqb_eq.
  Qed.
  (** a part that does not fuse *)
  Lemma no_fuse_step x k v A y : settled x k v A -> y <> [] -> ~ fuses x y ->
    exists k2 v2 A2, R y = A2 ++ v2 /\ settled (x ++ y) k2 v2 (A ++ v ++ A2) /\ forall z, R (k ++ y ++ z) = v ++ A2 ++ R (k2 ++ z).
  Proof.
    intros S Ny F. pose proof S as (U & H & x1 & Q & X). pose proof (unit_nonempty _ _ U) as Nk.
    assert (forall k2 v2 A2, unit k2 v2 -> (forall z, R (k ++ y ++ z) = v ++ A2 ++ R (k2 ++ z)) -> R y = A2 ++ v2 ->
              (exists x2, x ++ y = x2 ++ k2 /\ (k2 = [nn] \/ k2 = [vu] -> forall x', x2 <> x' ++ [tsu])) ->
              exists k2 v2 A2, R y = A2 ++ v2 /\ settled (x ++ y) k2 v2 (A ++ v ++ A2) /\ forall z, R (k ++ y ++ z) = v ++ A2 ++ R (k2 ++ z)) as Done.
    { intros k2 v2 A2 U2 H2 Ry X2. exists k2, v2, A2. split; [exact Ry|]. split; [|exact H2]. split; [exact U2|]. split; [|exact X2].
      intro z. rewrite <- app_assoc, H, H2. now rewrite !app_assoc. }
    destruct y as [|b y]; [congruence|].
    (* does a key go across the boundary? *)
    pose proof (key_in_spec (k ++ [b])) as Kb. destruct (key_in (k ++ [b])).
    2:{ assert (closed k (b :: y)) as C by (intros d q w Qd; injection Qd as <- _; apply Kb).
        destruct (last_unit _ (b :: y) (le_n _) Ny) as (k2 & v2 & A2 & S2).
        apply (Done k2 v2 A2); [exact (proj1 S2)| |now apply (settled_alone _ k2)|].
        - intro z. rewrite (unit_step k v _ U (closed_more _ _ z Ny C)). f_equal. exact (proj1 (proj2 S2) z).
        - destruct S2 as (U2 & _ & y1 & Qy & Xy). exists (x ++ y1). split; [rewrite Qy; apply app_assoc|].
          intros K2 x' Z. destruct y1 as [|c y1].
          + rewrite app_nil_r in Z. rewrite Q in Z. destruct (snoc_end _ _ _ _ Nk Z) as [k' Qk]. pose proof (tsu_unit _ _ U _ Qk) as ->.
            assert (b = nn \/ b = vu) as Bb by (destruct K2 as [->| ->]; injection Qy as -> _; auto).
            destruct (tsu_keys b Bb) as [w W]. exact (Kb w W).
          + destruct (snoc_end x (c :: y1) x' tsu ltac:(discriminate) Z) as [k' K']. exact (Xy K2 k' K'). }
    destruct Kb as [w Kb].
    destruct (crossing k b w Kb Nk) as [(-> & B1 & B3 & w' & I)|[(-> & B)|[(a & Ka & Aa & B)|[(-> & R0 & B)|(-> & R0 & B)]]]].
    2:{ exfalso. apply F. rewrite Q. apply fuses_n; [exact (X (or_introl eq_refl))|exact B]. }
    2:{ exfalso. apply F. rewrite Q. destruct Ka as [->| ->].
        - now apply fuses_small.
        - change [tsu; a] with ([tsu] ++ [a]). rewrite app_assoc. now apply fuses_small. }
    2:{ exfalso. apply F. rewrite Q. apply fuses_v; [now apply Hv|exact (X (or_intror eq_refl))|exact B]. }
    2:{ exfalso. apply F. rewrite Q. apply fuses_tsu_v; [now apply Hv'|exact B]. }
    assert (~ In b doublable) as O by (intro B; apply F; rewrite Q; now apply fuses_tsu).
    assert (b <> vu) as Bv by (intros ->; apply O, mem_In; vm_compute; reflexivity).
    rewrite (tsu_value v U) in *. clear U.
    destruct (N.eq_dec b nn) as [->|B2].
    { assert (unit [nn] (u "n")) as U1 by (left; apply entry_b_ent; vm_compute; reflexivity).
      assert (unit [tsu; nn] (u "n")) as U2 by (left; apply entry_b_ent; vm_compute; reflexivity).
      destruct y as [|c y].
      - apply (Done [tsu; nn] (u "n") []); [exact U2|reflexivity|now apply unit_alone|].
        exists x1. split; [rewrite Q, <- app_assoc; reflexivity|intros [Z|Z]; discriminate Z].
      - assert (closed [nn] (c :: y)) as C1.
        { intros d q w1 Qd J. injection Qd as <- _. destruct (crossing [nn] c w1 J) as [[Z _]|[[_ Z]|[(a & [Z|Z] & Ba & _)|[[Z _]|[Z _]]]]]; try discriminate Z; try discriminate.
          - apply F. rewrite Q. now apply fuses_tsu_n.
          - injection Z as <-. exact (nn_base Ba). }
        assert (closed [tsu; nn] (c :: y)) as C2 by (apply gem_closed; [discriminate|exact C1]).
        destruct (last_unit _ (c :: y) (le_n _) ltac:(discriminate)) as (k2 & v2 & A2 & S2).
        apply (Done k2 v2 (u "n" ++ A2)); [exact (proj1 S2)| | |].
        + intro z. change ([tsu] ++ (nn :: c :: y) ++ z) with ([tsu; nn] ++ ((c :: y) ++ z)).
          rewrite (unit_step _ _ _ U2 (closed_more [tsu; nn] (c :: y) z ltac:(discriminate) C2)), (proj1 (proj2 S2) z). cbn [app]. apply app_assoc.
        + change (nn :: c :: y) with ([nn] ++ c :: y). rewrite (unit_step _ _ _ U1 C1), (settled_alone _ k2 v2 A2 S2). apply app_assoc.
        + destruct (settle_first [nn] (u "n") (c :: y) k2 v2 A2 U1 C1 ltac:(discriminate) S2) as (_ & _ & y1 & Qy & Xy).
          exists (x ++ y1). split; [change (nn :: c :: y) with ([nn] ++ c :: y); rewrite Qy; apply app_assoc|].
          intros K2 x' Z. destruct y1 as [|e y1].
          * destruct K2 as [-> | ->]; discriminate Qy.
          * destruct (snoc_end x (e :: y1) x' tsu ltac:(discriminate) Z) as [k' K']. exact (Xy K2 k' K'). }
    destruct (first_unit b y) as (k0 & v0 & rest & Sp & U0 & C0). pose proof (unit_of_entry _ _ _ _ _ _ U0 Sp I) as I0.
    destruct k0 as [|b0 k0]; [now apply unit_nonempty in U0|]. pose proof Sp as Sp'. injection Sp' as <- _.
    destruct (gem_entry b k0 v0 I0 B1 Bv B2 B3) as [G D]. rewrite (D O) in G. clear D.
    assert (unit (tsu :: b :: k0) v0) as UG by (left; exact G).
    assert (closed (tsu :: b :: k0) rest) as CG by (apply gem_closed; [exact Bv|exact C0]).
    destruct rest as [|d rest].
    - rewrite app_nil_r in Sp. apply (Done (tsu :: b :: k0) v0 []); [exact UG| | |].
      + intro z. now rewrite Sp.
      + rewrite Sp. now apply unit_alone.
      + exists x1. split; [rewrite Q, <- app_assoc, Sp; reflexivity|intros [Z|Z]; discriminate Z].
    - destruct (last_unit _ (d :: rest) (le_n _) ltac:(discriminate)) as (k2 & v2 & A2 & S2).
      apply (Done k2 v2 (v0 ++ A2)); [exact (proj1 S2)| | |].
      + intro z. rewrite Sp. replace ([tsu] ++ ((b :: k0) ++ d :: rest) ++ z) with ((tsu :: b :: k0) ++ ((d :: rest) ++ z)) by (rewrite <- !app_assoc; reflexivity).
        rewrite (unit_step _ _ _ UG (closed_more (tsu :: b :: k0) (d :: rest) z ltac:(discriminate) CG)), (proj1 (proj2 S2) z). cbn [app]. apply app_assoc.
      + rewrite Sp, (unit_step _ _ _ U0 C0), (settled_alone _ k2 v2 A2 S2). apply app_assoc.
      + destruct (settle_first (b :: k0) v0 (d :: rest) k2 v2 A2 U0 C0 ltac:(discriminate) S2) as (_ & _ & y1 & Qy & Xy).
        exists (x ++ y1). split; [rewrite Sp, Qy; apply app_assoc|].
        intros K2 x' Z. destruct y1 as [|e y1].
        * destruct K2 as [-> | ->]; injection Qy as Qy _; congruence.
        * destruct (snoc_end x (e :: y1) x' tsu ltac:(discriminate) Z) as [k' K']. exact (Xy K2 k' K').
  Qed.

  Lemma fuse_dec x k v A y : settled x k v A -> fuses x y \/ ~ fuses x y.
  Proof.
    intros (U & _ & x1 & Q & X). pose proof (unit_nonempty _ _ U) as Nk. destruct (exists_last Nk) as (k' & a & Qk).
    destruct y as [|b y]. { right. intro F. inversion F. }
    assert (x = (x1 ++ k') ++ [a]) as Qx by (rewrite Q, Qk; apply app_assoc).
    destruct (mem a bases && mem b smalls) eqn:M.
    { apply andb_prop in M. destruct M as [M1 M2]. left. rewrite Qx. apply fuses_small; now apply mem_In. }
    destruct ((a =? tsu) && mem b doublable) eqn:M1.
    { apply andb_prop in M1. destruct M1 as [M1 M2]. apply N.eqb_eq in M1. subst a. left. rewrite Qx. apply fuses_tsu. now apply mem_In. }
    destruct ((a =? tsu) && (b =? nn) && first_in after_n y) eqn:M2.
    { apply andb_prop in M2. destruct M2 as [M2 M3]. apply andb_prop in M2. destruct M2 as [M2 M4].
      apply N.eqb_eq in M2. apply N.eqb_eq in M4. subst a b. destruct y as [|c y]; [discriminate M3|]. cbn [first_in] in M3.
      left. rewrite Qx. apply fuses_tsu_n. now apply existsb_In. }
    destruct ((a =? nn) && mem b after_n) eqn:M3.
    { apply andb_prop in M3. destruct M3 as [M3 M4]. apply N.eqb_eq in M3. apply mem_In in M4. subst a.
      destruct k' as [|c k'].
      - left. rewrite Qx, app_nil_r. apply fuses_n; [exact (X (or_introl Qk))|exact M4].
      - right. subst k. destruct (unit_tail (c :: k') nn v U) as (_ & T). destruct (T (or_introl eq_refl)) as [T'|T']; [discriminate T'|].
        injection T' as -> ->. intro F. destruct (fuses_inv _ _ F) as [(x' & b' & y' & Z & _)|[(x' & b' & y' & Z & _)|[(x' & b' & y' & Z & NX & _)|[(x' & a' & b' & y' & Z & _ & A' & _)|[(x' & b' & y' & Z & _)|(x' & b' & y' & Z & _)]]]]];
          rewrite Qx in Z; apply app_inj_tail in Z; destruct Z as [Z1 Z2]; try discriminate Z2.
        + exact (NX x1 (eq_sym Z1)).
        + subst a'. exact (nn_base A'). }
    destruct ((a =? vu) && mem b smalls) eqn:M4.
    { apply andb_prop in M4. destruct M4 as [M4 M5]. apply N.eqb_eq in M4. apply mem_In in M5. subst a k.
      destruct (unit_tail k' vu v U) as (_ & T). destruct (T (or_intror (or_introl eq_refl))) as [-> | ->].
      - destruct (Nat.eq_dec r 0) as [R0|R0].
        + left. rewrite Qx, app_nil_r. apply fuses_v; [now apply Hv|exact (X (or_intror eq_refl))|exact M5].
        + right. intro F. destruct (fuses_inv _ _ F) as [(x' & b' & y' & Z & _)|[(x' & b' & y' & Z & _)|[(x' & b' & y' & Z & NX & _)|[(x' & a' & b' & y' & Z & _ & A' & _)|[(x' & b' & y' & Z & _ & _ & _ & R1)|(x' & b' & y' & Z & _)]]]]];
            rewrite Qx in Z; apply app_inj_tail in Z; destruct Z as [Z1 Z2]; try discriminate Z2.
          * subst a'. exfalso. revert A'. apply mem_not. vm_compute. reflexivity.
          * contradiction.
          * rewrite app_nil_r in Z1. exact (X (or_intror eq_refl) x' Z1).
      - destruct (Nat.eq_dec r' 0) as [R0|R0].
        + left. rewrite Q. apply fuses_tsu_v; [now apply Hv'|exact M5].
        + right. intro F. destruct (fuses_inv _ _ F) as [(x' & b' & y' & Z & _)|[(x' & b' & y' & Z & _)|[(x' & b' & y' & Z & NX & _)|[(x' & a' & b' & y' & Z & _ & A' & _)|[(x' & b' & y' & Z & NX & _)|(x' & b' & y' & Z & _ & _ & R1)]]]]];
            rewrite Qx in Z; apply app_inj_tail in Z; destruct Z as [Z1 Z2]; try discriminate Z2.
          * subst a'. exfalso. revert A'. apply mem_not. vm_compute. reflexivity.
          * exact (NX x1 (eq_sym Z1)).
          * contradiction. }
    right. intro F. destruct (fuses_inv _ _ F) as [(x' & b' & y' & Z & Zy & B')|[(x' & b' & y' & Z & Zy & B')|[(x' & b' & y' & Z & NX & Zy & B')|[(x' & a' & b' & y' & Z & Zy & A' & B')|[(x' & b' & y' & Z & _ & Zy & B' & _)|(x' & b' & y' & Z & Zy & B' & _)]]]]];
      rewrite Qx in Z; apply app_inj_tail in Z; destruct Z as [_ Z2]; injection Zy as -> ->.
    - apply mem_In in B'. subst a. rewrite N.eqb_refl, B' in M1. discriminate M1.
    - apply mem_In in B'. subst a. cbn [first_in] in M2. unfold mem in B'. rewrite !N.eqb_refl, B' in M2. discriminate M2.
    - apply mem_In in B'. subst a. rewrite N.eqb_refl, B' in M3. discriminate M3.
    - apply mem_In in A'. apply mem_In in B'. subst a. rewrite A', B' in M. discriminate M.
    - apply mem_In in B'. subst a. rewrite N.eqb_refl, B' in M4. discriminate M4.
    - apply mem_In in B'. subst a. rewrite N.eqb_refl, B' in M4. discriminate M4.
  Qed.

  Lemma parts_from : forall hs x k v A, settled x k v A -> Forall (fun y => y <> []) hs ->
    (R (k ++ concat hs) = v ++ concat (map R hs) <->
     forall pre y post, hs = pre ++ y :: post -> ~ fuses (x ++ concat pre) y).
  Proof.
    induction hs as [|y hs IH]; intros x k v A S NE.
    - split.
      + intros _ pre y post Q. destruct pre; discriminate Q.
      + intros _. cbn [concat map]. rewrite !app_nil_r. exact (unit_alone k v (proj1 S)).
    - cbn [concat map] in *. inversion NE as [|? ? Ny NE']; subst.
      destruct (fuse_dec x k v A y S) as [F|F].
      + split; intro H; exfalso.
        * revert H. exact (fuse_differs x k v A y (concat hs) _ S F).
        * apply (H [] y hs eq_refl). now rewrite app_nil_r.
      + destruct (no_fuse_step x k v A y S Ny F) as (k2 & v2 & A2 & Ry & S2 & H2). rewrite H2, Ry.
        assert (v ++ A2 ++ R (k2 ++ concat hs) = v ++ (A2 ++ v2) ++ concat (map R hs) <->
                R (k2 ++ concat hs) = v2 ++ concat (map R hs)) as ->.
        { rewrite <- (app_assoc A2). split; [intro Z; now apply app_inv_head, app_inv_head in Z|now intros ->]. }
        rewrite (IH (x ++ y) k2 v2 _ S2); [|exact NE'].
        split; intros H pre y' post Q.
        * destruct pre as [|y0 pre].
          { injection Q as <- <-. now rewrite app_nil_r. }
          injection Q as <- Q. cbn [concat]. rewrite app_assoc. now apply (H pre y' post).
        * specialize (H (y :: pre) y' post). cbn [concat] in H. rewrite app_assoc in H. apply H. now rewrite Q.
  Qed.
  Lemma parts_hiragana hs : Forall (fun y => y <> []) hs ->
    (R (concat hs) = concat (map R hs) <-> forall pre y post, hs = pre ++ y :: post -> ~ fuses (concat pre) y).
  Proof.
    intro NE. destruct hs as [|y hs].
    { split; [|reflexivity]. intros _ pre y post Q. destruct pre; discriminate Q. }
    inversion NE as [|? ? Ny NE']; subst. cbn [concat map] in *.
    destruct (last_unit _ y (le_n _) Ny) as (k & v & A & S).
    rewrite (proj1 (proj2 S)), (settled_alone y k v A S).
    assert (A ++ R (k ++ concat hs) = (A ++ v) ++ concat (map R hs) <-> R (k ++ concat hs) = v ++ concat (map R hs)) as ->.
    { rewrite <- app_assoc. split; [apply app_inv_head|now intros ->]. }
    rewrite (parts_from hs y k v A S NE'). split; intros H pre y' post Q.
    - destruct pre as [|y0 pre].
      + cbn. intro F. inversion F as [x b ? B Z|x b ? B Z|x b ? X B Z|x a b ? A' B Z|x b ? V X B Z|x b ? V B Z]; destruct x; discriminate Z.
      + injection Q as <- Q. cbn [concat]. now apply (H pre y' post).
    - specialize (H (y :: pre) y' post). cbn [concat] in H. apply H. now rewrite Q.
  Qed.
End Joins.
