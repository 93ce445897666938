(** * The table generators of upstream_conversions (C57-C60) *)
From Coq Require Import ZArith Sorted.
From Verif Require Import Tac Base Trees Utf8Proofs Json Upstream UpstreamSpec TreeSpec.

Ltac Zify.zify_post_hook ::= Z.div_mod_to_equations.

(** ** The order of the keys *)
Lemma bytes_compare_eq a : forall b, bytes_compare a b = Eq <-> a = b.
Proof.
  induction a as [|x a IH]; intros [|y b]; cbn; split; intro H; try congruence; try reflexivity.
  - destruct (N.compare_spec x y); try discriminate. subst. f_equal. now apply IH.
  - inversion H; subst. rewrite N.compare_refl. now apply IH.
Qed.
Lemma bytes_compare_gt a : forall b, bytes_compare a b = Gt -> bytes_compare b a = Lt.
Proof.
  induction a as [|x a IH]; intros [|y b]; cbn; intro H; try congruence.
  destruct (N.compare_spec x y); try discriminate.
  - subst. rewrite N.compare_refl. now apply IH.
  - now replace (y ?= x) with Lt by (symmetry; now apply N.compare_lt_iff).
Qed.
Lemma bytes_compare_trans a : forall b c,
  bytes_compare a b = Lt -> bytes_compare b c = Lt -> bytes_compare a c = Lt.
Proof.
  induction a as [|x a IH]; intros [|y b] [|z c]; cbn; intros H1 H2; try congruence.
  destruct (N.compare_spec x y); try discriminate; destruct (N.compare_spec y z); try discriminate; subst.
  - rewrite N.compare_refl. eauto.
  - now replace (y ?= z) with Lt by (symmetry; now apply N.compare_lt_iff).
  - now replace (x ?= z) with Lt by (symmetry; now apply N.compare_lt_iff).
  - now replace (x ?= z) with Lt by (symmetry; apply N.compare_lt_iff; lia).
Qed.

Lemma encode_inj a b : valid_str a -> valid_str b -> encode a = encode b -> a = b.
Proof.
  intros A B H. apply decode_encode in A, B. congruence.
Qed.
Lemma key_compare_eq a b : valid_str a -> valid_str b -> (key_compare a b = Eq <-> a = b).
Proof.
  intros A B. unfold key_compare. rewrite bytes_compare_eq. split; [now apply encode_inj|congruence].
Qed.

(** UTF-8 keeps the order of the code points *)
Lemma bytes_lt x y a b : x < y -> bytes_compare (x :: a) (y :: b) = Lt.
Proof. intro H. cbn. now replace (x ?= y) with Lt by (symmetry; now apply N.compare_lt_iff). Qed.
Lemma bytes_le x y a b : x <= y -> (x = y -> bytes_compare a b = Lt) -> bytes_compare (x :: a) (y :: b) = Lt.
Proof.
  intros H K. destruct (N.eq_dec x y) as [->|]; [cbn; rewrite N.compare_refl; now apply K|].
  apply bytes_lt. lia.
Qed.
Lemma encode_char_lt c d x y : c < d -> is_scalar c = true -> is_scalar d = true ->
  bytes_compare (encode_char c ++ x) (encode_char d ++ y) = Lt.
Proof.
  rewrite !is_scalar_spec. intros L C D. unfold encode_char.
  destruct (c <? 0x80) eqn:A1; destruct (d <? 0x80) eqn:B1; cbn [app];
    try (apply bytes_lt; ifs; cbn [app]; lia); try lia.
  - destruct (d <? 0x800); [|destruct (d <? 0x10000)]; cbn [app]; apply bytes_lt; lia.
  - destruct (c <? 0x800) eqn:A2; destruct (d <? 0x800) eqn:B2; cbn [app]; try lia.
    + apply bytes_le; [lia|intro]. apply bytes_lt. lia.
    + destruct (d <? 0x10000); cbn [app]; apply bytes_lt; lia.
    + destruct (c <? 0x10000) eqn:A3; destruct (d <? 0x10000) eqn:B3; cbn [app]; try lia.
      * apply bytes_le; [lia|intro]. apply bytes_le; [lia|intro]. apply bytes_lt. lia.
      * apply bytes_lt. lia.
      * apply bytes_le; [lia|intro]. apply bytes_le; [lia|intro]. apply bytes_le; [lia|intro].
        apply bytes_lt. lia.
Qed.
Lemma key_lt_first c r d s : valid_str (c :: r) -> valid_str (d :: s) ->
  key_compare (c :: r) (d :: s) = Lt -> c <= d.
Proof.
  intros A B H. inversion A; inversion B; subst. destruct (N.le_gt_cases c d) as [|L]; [assumption|].
  unfold key_compare in H. cbn [encode flat_map] in H.
  pose proof (encode_char_lt d c (flat_map encode_char s) (flat_map encode_char r) L
    ltac:(assumption) ltac:(assumption)) as K.
  pose proof (bytes_compare_trans _ _ _ H K) as Q.
  assert (forall l, bytes_compare l l <> Lt) as N.
  { intros l E. assert (bytes_compare l l = Eq) by now apply bytes_compare_eq. congruence. }
  now apply N in Q.
Qed.

(** ** Maps *)
Definition key_sorted {A} (m : list (str * A)) : Prop :=
  StronglySorted (fun a b => key_compare (fst a) (fst b) = Lt) m.
Definition valid_keys {A} (m : list (str * A)) : Prop := Forall (fun e => valid_str (fst e)) m.

Lemma map_insert_In {A} k (v : A) m k' v' : valid_str k -> valid_keys m -> key_sorted m ->
  (In (k', v') (map_insert k v m) <-> (k' = k /\ v' = v) \/ (k' <> k /\ In (k', v') m)).
Proof.
  intros V M S. induction S as [|[k1 v1] m S IH F]; cbn [map_insert In].
  { split; [intros [E|[]]; inversion E; auto|]. intros [[-> ->]|[_ []]]. auto. }
  inversion M as [|? ? V1 M']; subst. cbn [fst] in V1.
  destruct (key_compare k k1) eqn:C.
  - apply key_compare_eq in C; try assumption. subst k1. cbn [In].
    assert (forall w, ~ In (k, w) m) as Fr.
    { intros w I. rewrite Forall_forall in F. specialize (F _ I). cbn [fst] in F.
      assert (key_compare k k = Eq) by (apply key_compare_eq; auto). congruence. }
    split.
    + intros [E|I]; [inversion E; auto|]. right. split; [|auto]. intros ->. now apply Fr in I.
    + intros [[-> ->]|[N [E|I]]]; auto. inversion E; congruence.
  - cbn [In]. split.
    + intros [E|I]; [inversion E; auto|]. right. split; [|exact I]. intros ->. destruct I as [E|I].
      * inversion E; subst. assert (key_compare k k = Eq) by (apply key_compare_eq; auto). congruence.
      * rewrite Forall_forall in F. specialize (F _ I). cbn [fst] in F.
        pose proof (bytes_compare_trans _ _ _ C F) as Q.
        assert (bytes_compare (encode k) (encode k) = Eq) by now apply bytes_compare_eq. congruence.
    + intros [[-> ->]|[_ I]]; auto.
  - cbn [In]. rewrite (IH M'). split.
    + intros [E|[|[]]]; auto. inversion E; subst. right. split; [|auto]. intros ->.
      assert (key_compare k k = Eq) by (apply key_compare_eq; auto). congruence.
    + intros [|[N [|]]]; auto.
Qed.
Lemma map_insert_valid {A} k (v : A) m : valid_str k -> valid_keys m -> valid_keys (map_insert k v m).
Proof.
  intros V M. induction M as [|[k1 v1] m V1 M IH]; cbn [map_insert]; [now repeat constructor|].
  destruct (key_compare k k1); repeat constructor; auto.
Qed.
Lemma map_insert_keys {A} k (v : A) m e : In e (map_insert k v m) -> fst e = k \/ In (fst e) (map fst m).
Proof.
  induction m as [|[k1 v1] m IH]; cbn [map_insert map In].
  - intros [<-|[]]; auto.
  - destruct (key_compare k k1); cbn [In]; intros [<-|I]; cbn [fst]; auto.
    + right. right. now apply in_map.
    + destruct I as [<-|I]; [cbn [fst]; auto|]. right. right. now apply in_map.
    + destruct (IH I); auto.
Qed.
Lemma map_insert_sorted {A} k (v : A) m : key_sorted m -> key_sorted (map_insert k v m).
Proof.
  induction 1 as [|[k1 v1] m S IH F]; cbn [map_insert]; [repeat constructor|].
  destruct (key_compare k k1) eqn:C.
  - constructor; [exact S|]. exact F.
  - constructor; [now constructor|]. constructor; [exact C|].
    revert F. apply Forall_impl. intros e. apply (bytes_compare_trans _ _ _ C).
  - constructor; [exact IH|]. apply Forall_forall. intros e I.
    apply map_insert_keys in I. cbn [fst]. destruct I as [->|I].
    + now apply bytes_compare_gt.
    + apply in_map_iff in I. destruct I as (e' & <- & I). rewrite Forall_forall in F. now apply F in I.
Qed.

(** the last member with the key *)
Definition last_member {A} (ms : list (str * A)) (k : str) (v : A) : Prop :=
  exists b a, ms = b ++ (k, v) :: a /\ ~ In k (map fst a).

Lemma map_of_app {A} (ms : list (str * A)) e : map_of (ms ++ [e]) = map_insert (fst e) (snd e) (map_of ms).
Proof. unfold map_of. now rewrite fold_left_app. Qed.
Lemma last_member_app {A} (ms : list (str * A)) e k v :
  last_member (ms ++ [e]) k v <-> (k, v) = e \/ (k <> fst e /\ last_member ms k v).
Proof.
  split.
  - intros (b & a & E & N). destruct a as [|x a] using rev_ind.
    + apply app_inj_tail in E. destruct E as [_ E]. auto.
    + clear IHa. change ((k, v) :: a ++ [x]) with (((k, v) :: a) ++ [x]) in E. rewrite app_assoc in E.
      apply app_inj_tail in E. destruct E as [E <-]. rewrite map_app in N.
      right. split; [intros ->; apply N, in_or_app; cbn; auto|].
      exists b, a. split; [exact E|]. intro I. apply N, in_or_app. auto.
  - intros [<-|[N (b & a & -> & I)]].
    + exists ms, []. auto.
    + exists b, (a ++ [e]). rewrite <- app_assoc. split; [reflexivity|].
      rewrite map_app. intro J. apply in_app_or in J. cbn in J. destruct J as [J|[J|[]]]; auto.
Qed.
Lemma map_of_spec {A} (ms : list (str * A)) : valid_keys ms ->
  key_sorted (map_of ms) /\ valid_keys (map_of ms) /\
  forall k v, In (k, v) (map_of ms) <-> last_member ms k v.
Proof.
  induction ms as [|e ms IH] using rev_ind; intro V.
  { split; [constructor|]. split; [constructor|]. intros k v. split; [intros []|].
    intros ([|] & a & E & _); discriminate. }
  apply Forall_app in V. destruct V as [V Ve]. inversion Ve; subst.
  destruct (IH V) as (S & K & I). rewrite map_of_app.
  split; [now apply map_insert_sorted|]. split; [now apply map_insert_valid|].
  intros k v. rewrite map_insert_In, I, last_member_app by assumption.
  destruct e as [k1 v1]. cbn [fst snd]. split; (intros [H0|]; [left|auto]).
  - destruct H0; congruence.
  - inversion H0; auto.
Qed.

Lemma map_get_In {A} (m : list (str * A)) k v : valid_keys m -> key_sorted m ->
  (map_get m k = Some v <-> In (k, v) m).
Proof.
  intros V S. unfold map_get. induction S as [|[k1 v1] m S IH F]; cbn [find In].
  { split; [discriminate|intros []]. }
  inversion V as [|? ? V1 V']; subst. cbn [fst] in V1. cbn [fst].
  destruct (str_eqb k1 k) eqn:E.
  - apply str_eqb_eq in E. subst k1. cbn. split; [intro H; inversion H; auto|].
    intros [H|H]; [inversion H; auto|]. rewrite Forall_forall in F. specialize (F _ H). cbn [fst] in F.
    assert (key_compare k k = Eq) by (apply key_compare_eq; auto). congruence.
  - rewrite (IH V'). split; [auto|]. intros [H|H]; [|exact H]. inversion H; subst.
    assert (str_eqb k k = true) by now apply str_eqb_eq. congruence.
Qed.

(** ** Values *)
Lemma json_ind' (P : json -> Prop) :
  (forall j, ~ is_object j -> P j) -> (forall ms, Forall (fun e => P (snd e)) ms -> P (JObj ms)) -> forall j, P j.
Proof.
  intros HS HO. fix F 1. intros [s|ms|l|n|b|]; try (apply HS; intros [? ?]; discriminate). apply HO.
  induction ms as [|[k v] ms IH]; constructor; [apply F|exact IH].
Qed.
Lemma object_dec j : {ms | j = JObj ms} + {~ is_object j}.
Proof. destruct j as [s|ms|l|n|b|]; [right|left; eauto|right..]; intros [? ?]; discriminate. Qed.
Lemma value_object j : is_object (value_of j) -> is_object j.
Proof. destruct j; intros [? H]; try discriminate H. now eexists. Qed.
Definition val_map (ms : list (str * json)) : list (str * json) :=
  map_of (map (fun e => match e with (k, v) => (k, value_of v) end) ms).
Lemma value_of_JObj ms : value_of (JObj ms) = JObj (val_map ms).
Proof. reflexivity. Qed.

Lemma val_map_spec ms : valid_json (JObj ms) ->
  key_sorted (val_map ms) /\ valid_keys (val_map ms) /\
  forall k v', In (k, v') (val_map ms) <-> exists v, member (JObj ms) k v /\ v' = value_of v.
Proof.
  intro V. inversion V as [|? F| | | |]; subst. unfold val_map.
  destruct (map_of_spec (map (fun e => match e with (k, v) => (k, value_of v) end) ms)) as (S & K & I).
  { apply Forall_map. revert F. apply Forall_impl. intros [k v] [H _]. exact H. }
  split; [exact S|]. split; [exact K|]. intros k v'. rewrite I. split.
  - intros (b & a & E & N). apply map_eq_app in E. destruct E as (b' & a' & -> & <- & E).
    destruct a' as [|[k1 v1] a']; [discriminate|]. cbn [map] in E. inversion E; subst.
    exists v1. split; [|reflexivity]. exists b', a'. split; [reflexivity|].
    intro J. apply N. rewrite map_map. apply in_map_iff in J. destruct J as ([k2 v2] & <- & J).
    apply in_map_iff. exists (k2, v2). auto.
  - intros (v & (b & a & E & N) & ->). inversion E; subst.
    exists (map (fun e => match e with (k, v) => (k, value_of v) end) b), (map (fun e => match e with (k, v) => (k, value_of v) end) a).
    rewrite map_app. split; [reflexivity|]. rewrite map_map. intro J. apply N.
    apply in_map_iff in J. destruct J as ([k2 v2] & <- & J). apply in_map_iff. exists (k2, v2). auto.
Qed.
Lemma member_valid j k v : valid_json j -> member j k v -> valid_str k /\ valid_json v.
Proof.
  intros V (b & a & -> & _). inversion V as [|? F| | | |]; subst. apply Forall_app in F. destruct F as [_ F].
  inversion F; subst. assumption.
Qed.
Lemma member_in (P : json -> Prop) ms k v : Forall (fun e => P (snd e)) ms -> member (JObj ms) k v -> P v.
Proof.
  intros F (b & a & E & _). inversion E; subst. apply Forall_app in F. destruct F as [_ F]. now inversion F.
Qed.

(** ** The loop *)
Lemma collect_ok {A} (node : json -> res A) obj :
  (exists t, collect node obj = Ok t) <->
  (forall c r v, In (c :: r, v) obj -> exists n, node v = Ok n).
Proof.
  induction obj as [|[[|c r] v] obj IH]; cbn [collect].
  - split; [intros _ ? ? ? []|]. intros _. eauto.
  - fold (collect node). rewrite IH. cbn [In]. split.
    + intros H c r w [E|I]; [discriminate|]. eauto.
    + intros H c r w I. eauto.
  - fold (collect node). split.
    + intros [t E]. destruct (node v) as [n| |] eqn:N; try discriminate. cbn in E.
      destruct (collect node obj) as [t'| |] eqn:T; try discriminate.
      intros c' r' v' [Q|I]; [inversion Q; subst; eauto|].
      apply (proj1 IH (ex_intro _ t' eq_refl) _ _ _ I).
    + intro H. destruct (H c r v (or_introl eq_refl)) as [n ->]. cbn.
      destruct (proj2 IH) as [t ->]; [intros c' r' v' I; apply (H c' r' v'); now right|]. cbn. eauto.
Qed.
Lemma collect_In {A} (node : json -> res A) obj : forall t, collect node obj = Ok t ->
  forall c n, In (c, n) t <-> exists r v, In (c :: r, v) obj /\ node v = Ok n.
Proof.
  induction obj as [|[[|d r] v] obj IH]; cbn [collect]; intros t E c n.
  - inversion E. split; [intros []|intros (? & ? & [] & _)].
  - fold (collect node) in E. rewrite (IH _ E). cbn [In]. split; intros (r & w & I & N); exists r, w; auto.
    destruct I as [I|I]; [discriminate|auto].
  - fold (collect node) in E. destruct (node v) as [m| |] eqn:N; try discriminate. cbn in E.
    destruct (collect node obj) as [t'| |] eqn:T; try discriminate. cbn in E. inversion E; subst t.
    cbn [In]. rewrite (IH _ eq_refl). split.
    + intros [Q|(r' & w & I & Nw)]; [inversion Q; subst; exists r, v; auto|exists r', w; auto].
    + intros (r' & w & [Q|I] & Nw); [inversion Q; subst; left; congruence|right; eauto].
Qed.
Lemma collect_nofuel {A} (node : json -> res A) obj :
  Forall (fun e => node (snd e) <> NoFuel) obj -> collect node obj <> NoFuel.
Proof.
  induction 1 as [|[[|c r] v] obj H _ IH]; cbn [collect]; fold (collect node); try discriminate; [exact IH|].
  cbn [snd] in H. destruct (node v); try congruence; cbn; try discriminate.
  destruct (collect node obj); try congruence; discriminate.
Qed.
(** the keys come out in the order of the map *)
Lemma collect_keys {A} (node : json -> res A) obj : forall t, collect node obj = Ok t ->
  key_sorted obj -> valid_keys obj ->
  weakly_ascending (map fst t) /\
  (Forall (fun e => (length (fst e) <= 1)%nat) obj -> ascending (map fst t)).
Proof.
  induction obj as [|[[|d r] v] obj IH]; cbn [collect]; intros t E S V.
  - inversion E. split; [constructor|intros _; constructor].
  - fold (collect node) in E. inversion S; inversion V; subst.
    destruct (IH _ E ltac:(assumption) ltac:(assumption)) as [A1 A2]. split; [exact A1|].
    intro F. inversion F; auto.
  - fold (collect node) in E. destruct (node v) as [m| |]; try discriminate. cbn in E.
    destruct (collect node obj) as [t'| |] eqn:T; try discriminate. cbn in E. inversion E; subst t.
    inversion S as [|? ? S' F]; inversion V as [|? ? V1 V']; subst. cbn [fst] in V1.
    destruct (IH _ eq_refl S' V') as [A1 A2]. rewrite Forall_forall in F.
    assert (K : forall c n, In (c, n) t' -> exists r' w, In (c :: r', w) obj /\ d <= c).
    { intros c n I. apply (collect_In _ _ _ T) in I. destruct I as (r' & w & I & _).
      exists r', w. split; [exact I|]. specialize (F _ I). cbn [fst] in F.
      unfold valid_keys in V'. rewrite Forall_forall in V'. specialize (V' _ I). cbn [fst] in V'.
      now apply key_lt_first in F. }
    split.
    + constructor; [exact A1|]. apply Forall_forall. intros c I. apply in_map_iff in I.
      destruct I as ([c' n] & <- & I). cbn [fst]. now destruct (K _ _ I) as (? & ? & _ & L).
    + intro Sh. inversion Sh as [|? ? L1 Sh']; subst. constructor; [now apply A2|].
      apply Forall_forall. intros c I. apply in_map_iff in I.
      destruct I as ([c' n] & <- & I). cbn [fst]. destruct (K _ _ I) as (r' & w & J & L).
      destruct (N.eq_dec d c') as [<-|]; [|lia]. exfalso.
      rewrite Forall_forall in Sh'. specialize (Sh' _ J). cbn in L1, Sh'.
      destruct r; [|cbn in L1; lia]. destruct r'; [|cbn in Sh'; lia].
      specialize (F _ J). cbn [fst] in F.
      assert (key_compare [d] [d] = Eq) by now apply key_compare_eq. congruence.
Qed.

(** ** Objects *)
Lemma last_member_fun {A} (ms : list (str * A)) k v w : last_member ms k v -> last_member ms k w -> v = w.
Proof.
  induction ms as [|e ms IH] using rev_ind.
  - intros ([|] & a & E & _); discriminate.
  - rewrite !last_member_app. intros [<-|[N H]] [Q|[M K]]; cbn [fst] in *; try congruence; [|now apply IH].
    subst e. cbn [fst] in N. congruence.
Qed.
Lemma member_last j k v : member j k v <-> exists ms, j = JObj ms /\ last_member ms k v.
Proof.
  split.
  - intros (b & a & -> & N). eexists. split; [reflexivity|]. now exists b, a.
  - intros (ms & -> & b & a & -> & N). now exists b, a.
Qed.
Lemma member_fun j k v w : member j k v -> member j k w -> v = w.
Proof.
  rewrite !member_last. intros (ms & -> & H) (ms' & E & K). inversion E; subst. now apply last_member_fun with (ms := ms') (k := k).
Qed.
Lemma text_is_fun j o o' : text_is j o -> text_is j o' -> o = o'.
Proof.
  destruct o as [s|], o' as [s'|]; cbn; unfold text, without_text; intros H K; try reflexivity.
  - pose proof (member_fun _ _ _ _ H K). congruence.
  - now apply K in H.
  - now apply H in K.
Qed.
(** the lookup of the text *)
Lemma get_text ms : valid_json (JObj ms) ->
  match map_get (val_map ms) [] with
  | None => without_text (JObj ms)
  | Some x => exists y, member (JObj ms) [] y /\ x = value_of y
  end.
Proof.
  intro V. destruct (val_map_spec ms V) as (S & K & I).
  destruct (map_get (val_map ms) []) as [x|] eqn:G.
  - apply map_get_In in G; try assumption. now apply I in G.
  - intros v M. assert (In ([], value_of v) (val_map ms)) as J by (apply I; eauto).
    apply (map_get_In _ _ _ K S) in J. congruence.
Qed.
Lemma as_str_value y s : as_str (value_of y) = Some s <-> y = JStr s.
Proof. destruct y; cbn; split; intro H; inversion H; reflexivity. Qed.

(** ** A generator in general *)
Section Generator.
  Context {A : Type} (node : json -> res A) (edges : A -> list (char * A)) (out : A -> option str)
    (allowed : option str -> Prop).
  Hypothesis node_obj : forall v n, node v = Ok n -> is_object v.
  Hypothesis node_ok : forall ms, valid_json (JObj ms) ->
    ((exists n, node (JObj (val_map ms)) = Ok n) <->
     (exists t, collect node (val_map ms) = Ok t) /\ exists o, allowed o /\ text_is (JObj ms) o).
  Hypothesis node_is : forall ms n, valid_json (JObj ms) -> node (JObj (val_map ms)) = Ok n ->
    collect node (val_map ms) = Ok (edges n) /\ text_is (JObj ms) (out n).

  Definition table (d : json) : Prop :=
    is_object d /\
    forall ks v, ks <> [] -> Forall (fun k => k <> []) ks -> leads d ks v ->
      is_object v /\ exists o, allowed o /\ text_is v o.
  Inductive gpath : list (char * A) -> str -> A -> Prop :=
  | g_one t c m : In (c, m) t -> gpath t [c] m
  | g_more t c p m n : In (c, m) t -> gpath (edges m) p n -> gpath t (c :: p) n.

  Lemma table_obj ms : table (JObj ms) <->
    forall k v, k <> [] -> member (JObj ms) k v -> table v /\ exists o, allowed o /\ text_is v o.
  Proof.
    split.
    - intros [_ T] k v K M. split.
      + split.
        * apply (T [k] v); [discriminate|now repeat constructor|]. exact (leads_down _ _ _ _ _ M (leads_here _)).
        * intros ks w _ F L. apply (T (k :: ks) w); [discriminate|now constructor|]. econstructor; eassumption.
      + apply (T [k] v); [discriminate|now repeat constructor|]. exact (leads_down _ _ _ _ _ M (leads_here _)).
    - intro H. split; [now eexists|]. intros ks v N F L. inversion L as [|? k ks' w ? M L']; subst; [congruence|].
      inversion F; subst. destruct (H k w ltac:(assumption) M) as [[O T] X].
      inversion L'; subst; [auto|]. apply (T (k0 :: ks) v); [discriminate|assumption|assumption].
  Qed.
  Lemma run_members ms : valid_json (JObj ms) ->
    ((exists t, collect node (val_map ms) = Ok t) <->
     forall k v, k <> [] -> member (JObj ms) k v -> exists n, node (value_of v) = Ok n).
  Proof.
    intro V. destruct (val_map_spec ms V) as (_ & _ & I). rewrite collect_ok. split.
    - intros H [|c r] v N M; [congruence|]. apply (H c r). apply I. eauto.
    - intros H c r v J. apply I in J. destruct J as (w & M & ->). apply (H (c :: r) w); [discriminate|exact M].
  Qed.
  Lemma run_ok d : valid_json d -> forall ms, d = JObj ms ->
    ((exists t, collect node (val_map ms) = Ok t) <-> table d).
  Proof.
    induction d as [d NO|ms IH] using json_ind'; intros V ms' E; [exfalso; apply NO; now exists ms'|]. inversion E; subst ms'.
    rewrite run_members, table_obj by exact V.
    assert (Q : forall k v, member (JObj ms) k v ->
      ((exists n, node (value_of v) = Ok n) <-> table v /\ exists o, allowed o /\ text_is v o)).
    { intros k v M. pose proof (member_in (fun x => valid_json x -> forall ms, x = JObj ms ->
        ((exists t, collect node (val_map ms) = Ok t) <-> table x)) _ _ _ IH M) as IHv. cbv beta in IHv.
      destruct (member_valid _ _ _ V M) as [_ Vv]. destruct (object_dec v) as [[vs ->]|NO].
      2: { split; [intros [n H]; now apply node_obj, value_object in H|]. now intros [[H _] _]. }
      rewrite value_of_JObj, node_ok by exact Vv. now rewrite (IHv Vv vs eq_refl). }
    split; intros H k v N M; apply (Q k v M); now apply H with (k := k).
  Qed.
  Lemma run_In ms t : valid_json (JObj ms) -> collect node (val_map ms) = Ok t ->
    forall c n, In (c, n) t <-> exists r v, member (JObj ms) (c :: r) v /\ node (value_of v) = Ok n.
  Proof.
    intros V E c n. destruct (val_map_spec ms V) as (_ & _ & I). rewrite (collect_In _ _ _ E). split.
    - intros (r & v & J & N). apply I in J. destruct J as (w & M & ->). eauto.
    - intros (r & v & M & N). exists r, (value_of v). split; [apply I; eauto|exact N].
  Qed.
  Lemma node_value v n : valid_json v -> node (value_of v) = Ok n ->
    exists ms, v = JObj ms /\ collect node (val_map ms) = Ok (edges n) /\ text_is v (out n).
  Proof.
    intros V N. destruct (value_object _ (node_obj _ _ N)) as [ms ->]. exists ms. split; [reflexivity|].
    now apply node_is.
  Qed.
  Lemma run_path p : forall ms t, valid_json (JObj ms) -> collect node (val_map ms) = Ok t ->
    forall o, (exists n, gpath t p n /\ out n = o) <->
      p <> [] /\ exists ks v, first_chars ks p /\ leads (JObj ms) ks v /\ text_is v o.
  Proof.
    induction p as [|c p IH]; intros ms t V E o.
    { split; [intros (n & G & _); inversion G|]. now intros [? _]. }
    split.
    - intros (n & G & O). split; [discriminate|]. inversion G as [? ? ? I|? ? ? m ? I G']; subst.
      + apply (run_In _ _ V E) in I. destruct I as (r & v & M & N).
        destruct (member_valid _ _ _ V M) as [_ Vv]. destruct (node_value _ _ Vv N) as (vs & -> & _ & T).
        exists [c :: r], (JObj vs). split; [constructor; [eauto|constructor]|]. split; [exact (leads_down _ _ _ _ _ M (leads_here _))|exact T].
      + apply (run_In _ _ V E) in I. destruct I as (r & v & M & N).
        destruct (member_valid _ _ _ V M) as [_ Vv]. destruct (node_value _ _ Vv N) as (vs & -> & C & _).
        destruct (proj1 (IH vs _ Vv C (out n)) (ex_intro _ n (conj G' eq_refl))) as (_ & ks & w & F & L & T).
        exists ((c :: r) :: ks), w. split; [constructor; [eauto|exact F]|]. split; [econstructor; eassumption|exact T].
    - intros (_ & ks & w & F & L & T). inversion F as [|k ? ks' ? [r ->] F']; subst.
      inversion L as [|? ? ? v ? M L']; subst.
      destruct (proj1 (run_members _ V) (ex_intro _ t E) (c :: r) v ltac:(discriminate) M) as [m N].
      assert (In (c, m) t) as I by (apply (run_In _ _ V E); eauto).
      destruct (member_valid _ _ _ V M) as [_ Vv]. destruct (node_value _ _ Vv N) as (vs & -> & C & T').
      destruct p as [|d p].
      + inversion F'; subst. inversion L'; subst. exists m. split; [now constructor|].
        now apply text_is_fun with (JObj vs).
      + destruct (proj2 (IH vs _ Vv C o)) as (n & G & O).
        { split; [discriminate|]. eauto. }
        exists n. split; [|exact O]. econstructor; eassumption.
  Qed.
  Lemma run_sorted p : forall ms t n, valid_json (JObj ms) -> collect node (val_map ms) = Ok t -> gpath t p n ->
    weakly_ascending (map fst (edges n)) /\ (short_keys (JObj ms) -> ascending (map fst (edges n))).
  Proof.
    induction p as [|c p IH]; intros ms t n V E G; [inversion G|].
    assert (X : forall m, In (c, m) t -> exists vs, valid_json (JObj vs) /\
       collect node (val_map vs) = Ok (edges m) /\ (short_keys (JObj ms) -> short_keys (JObj vs))).
    { intros m I. apply (run_In _ _ V E) in I. destruct I as (r & v & M & N).
      destruct (member_valid _ _ _ V M) as [_ Vv]. destruct (node_value _ _ Vv N) as (vs & -> & C & _).
      exists vs. split; [exact Vv|]. split; [exact C|]. intros Sh ks w L.
      specialize (Sh ((c :: r) :: ks) w). assert (Forall (fun k => (length k <= 1)%nat) ((c :: r) :: ks)) as F.
      { apply Sh. econstructor; eassumption. }
      now inversion F. }
    inversion G as [? ? ? I|? ? ? m ? I G']; subst; destruct (X _ I) as (vs & Vv & C & Sh).
    - destruct (val_map_spec vs Vv) as (S & K & J).
      destruct (collect_keys _ _ _ C S K) as [W A2]. split; [exact W|]. intro H. apply A2.
      apply Forall_forall. intros [k v] B. apply J in B. destruct B as (w & M & _).
      assert (Forall (fun k => (length k <= 1)%nat) [k]) as F
        by (apply (Sh H [k] w); econstructor; [exact M|constructor]).
      now inversion F.
    - destruct (IH _ _ _ Vv C G') as [W A2]. auto.
  Qed.
  Lemma run_root_sorted ms t : valid_json (JObj ms) -> collect node (val_map ms) = Ok t ->
    weakly_ascending (map fst t) /\ (short_keys (JObj ms) -> ascending (map fst t)).
  Proof.
    intros V C. destruct (val_map_spec ms V) as (S & K & J).
    destruct (collect_keys _ _ _ C S K) as [W A2]. split; [exact W|]. intro H. apply A2.
    apply Forall_forall. intros [k v] B. apply J in B. destruct B as (w & M & _).
    assert (Forall (fun k => (length k <= 1)%nat) [k]) as F
      by (apply (H [k] w); econstructor; [exact M|constructor]).
    now inversion F.
  Qed.
End Generator.

(** ** The kana table *)
Definition kana_node (v : json) : res knode :=
  ts <- kana_transitions v ;;
  m <- unwrap (as_object v) ;;
  o <- match map_get m [] with
       | Some out => s <- unwrap (as_str out) ;; Ok (Some s)
       | None => Ok None
       end ;;
  Ok (KNode ts o).
Lemma kana_transitions_obj m : kana_transitions (JObj m) = collect kana_node m.
Proof. reflexivity. Qed.
Lemma kana_node_obj v n : kana_node v = Ok n -> is_object v.
Proof. destruct v; try discriminate. now eexists. Qed.
Lemma kana_node_is ms n : valid_json (JObj ms) -> kana_node (JObj (val_map ms)) = Ok n ->
  collect kana_node (val_map ms) = Ok (ktrans n) /\ text_is (JObj ms) (kout n).
Proof.
  intros V H. unfold kana_node in H. rewrite kana_transitions_obj in H.
  destruct (collect kana_node (val_map ms)) as [t| |]; try discriminate. cbn [bind as_object unwrap] in H.
  pose proof (get_text ms V) as G. destruct (map_get (val_map ms) []) as [x|].
  - destruct G as (y & M & ->). destruct (as_str (value_of y)) as [s|] eqn:S; [|discriminate].
    cbn in H. inversion H; subst. split; [reflexivity|]. apply as_str_value in S. subst y. exact M.
  - cbn in H. inversion H; subst. split; [reflexivity|exact G].
Qed.
Lemma kana_node_ok ms : valid_json (JObj ms) ->
  ((exists n, kana_node (JObj (val_map ms)) = Ok n) <->
   (exists t, collect kana_node (val_map ms) = Ok t) /\ exists o, True /\ text_is (JObj ms) o).
Proof.
  intro V. split.
  - intros [n H]. apply kana_node_is in H; [|exact V]. destruct H. eauto.
  - intros [[t H] (o & _ & T)]. unfold kana_node. rewrite kana_transitions_obj, H. cbn [bind as_object unwrap].
    pose proof (get_text ms V) as G. destruct (map_get (val_map ms) []) as [x|]; [|cbn; eauto].
    destruct G as (y & M & ->). destruct o as [s|]; [|now apply T in M].
    rewrite (member_fun _ _ _ _ M T). cbn. eauto.
Qed.
Lemma kana_nofuel j : kana_transitions j <> NoFuel.
Proof.
  induction j as [j NO|ms IH] using json_ind'; [destruct j; try discriminate; now destruct NO; eexists|]. rewrite kana_transitions_obj.
  apply collect_nofuel. revert IH. apply Forall_impl. intros [k v] H. cbn [snd] in *. unfold kana_node.
  destruct (kana_transitions v); try congruence; try discriminate. cbn.
  destruct (as_object v) as [m|]; [|discriminate]. cbn.
  destruct (map_get m []) as [x|]; [|discriminate]. destruct (as_str x); discriminate.
Qed.
Lemma kana_table_spec d : kana_table d <-> table (fun _ => True) d.
Proof.
  unfold kana_table, table. split; intros [O H]; (split; [exact O|]); intros ks v N F L;
    destruct (H ks v N F L) as [P Q]; (split; [exact P|]).
  - destruct Q as [Q|[s Q]]; [exists None|exists (Some s)]; auto.
  - destruct Q as ([s|] & _ & Q); [right; eauto|now left].
Qed.
Lemma k_path_gpath t o p n : p <> [] -> (k_path (KNode t o) p n <-> gpath ktrans t p n).
Proof.
  revert t o. induction p as [|c p IH]; intros t o N; [congruence|]. split.
  - intro H. inversion H as [|? ? m ? I H']; subst. cbn [ktrans] in I. destruct p as [|d p].
    + inversion H'; subst. now constructor.
    + apply g_more with m; [exact I|]. destruct m as [tm om]. apply IH in H'; [exact H'|discriminate].
  - intro H. inversion H as [? ? ? I|? ? ? m ? I H']; subst.
    + apply k_path_cons with n; [exact I|constructor].
    + apply k_path_cons with m; [exact I|]. destruct m as [tm om]. apply IH; [|exact H'].
      destruct p; [inversion H'|discriminate].
Qed.
Lemma k_path_snoc t p n c m : k_path t p n -> In (c, m) (ktrans n) -> k_path t (p ++ [c]) m.
Proof.
  induction 1; intro I; cbn; [apply k_path_cons with m; [exact I|constructor]|].
  eapply k_path_cons; eauto.
Qed.
Lemma k_inside_path t n : k_inside t n -> exists p, k_path t p n.
Proof.
  induction 1 as [|n c m _ [p IH] I]; [exists []; constructor|]. eexists. eapply k_path_snoc; eassumption.
Qed.

Theorem kana_generator_spec d : valid_json d ->
  (kana_table d /\ exists t, kana_generator d = Ok t) \/ (~ kana_table d /\ kana_generator d = Panic).
Proof.
  intro V. destruct (kana_generator d) as [t| |] eqn:E.
  - left. split; [|eauto]. destruct d as [s|ms| | | |]; try discriminate. apply kana_table_spec.
    apply (run_ok kana_node (fun _ => True)) with (ms := ms); eauto using kana_node_obj, kana_node_ok.
  - right. split; [|reflexivity]. intro T. pose proof T as [[ms ->] _]. apply kana_table_spec in T.
    apply (run_ok kana_node (fun _ => True) kana_node_obj kana_node_ok _ V ms eq_refl) in T.
    destruct T as [t T]. unfold kana_generator in E. rewrite value_of_JObj, kana_transitions_obj in E. congruence.
  - now apply kana_nofuel in E.
Qed.
Theorem kana_generator_content d t : valid_json d -> kana_generator d = Ok t ->
  forall p o, p <> [] ->
    ((exists n, k_path (KNode t None) p n /\ kout n = o) <->
     exists ks v, first_chars ks p /\ leads d ks v /\ text_is v o).
Proof.
  intros V E p o N. destruct d as [s|ms| | | |]; try discriminate.
  pose proof (run_path kana_node ktrans kout kana_node_obj kana_node_is p ms t V E o) as R.
  split.
  - intros (n & P & O). apply k_path_gpath in P; [|exact N]. now apply R; eauto.
  - intro H. destruct (proj2 R (conj N H)) as (n & P & O). exists n. split; [now apply k_path_gpath|exact O].
Qed.
Theorem kana_generator_order d t : valid_json d -> kana_generator d = Ok t ->
  forall n, k_inside (KNode t None) n ->
    weakly_ascending (map fst (ktrans n)) /\ (short_keys d -> ascending (map fst (ktrans n))).
Proof.
  intros V E n I. destruct d as [s|ms| | | |]; try discriminate. apply k_inside_path in I. destruct I as [p P].
  destruct p as [|c p].
  - inversion P; subst.
    exact (run_root_sorted kana_node ms t V E).
  - apply k_path_gpath in P; [|discriminate].
    exact (run_sorted kana_node ktrans kout kana_node_obj kana_node_is _ ms t n V E P).
Qed.

(** ** The romaji table *)
Definition romaji_node (v : json) : res rnode :=
  ts <- romaji_transitions v ;;
  m <- unwrap (as_object v) ;;
  out <- unwrap (map_get m []) ;;
  s <- unwrap (as_str out) ;;
  Ok (RNode ts s).
Definition some_out (o : option str) : Prop := o <> None.
Definition edges_opt (t : list (char * rnode)) : option (list (char * rnode)) :=
  match t with [] => None | _ => Some t end.
Definition r_text (n : rnode) : option str := Some (rout n).
Lemma romaji_transitions_obj m : romaji_transitions (JObj m) = (t <- collect romaji_node m ;; Ok (edges_opt t)).
Proof. reflexivity. Qed.
Lemma edges_opt_inv t s : r_edges (RNode (edges_opt t) s) = t.
Proof. now destruct t. Qed.
Lemma romaji_node_obj v n : romaji_node v = Ok n -> is_object v.
Proof. destruct v; try discriminate. now eexists. Qed.
Lemma romaji_node_is ms n : valid_json (JObj ms) -> romaji_node (JObj (val_map ms)) = Ok n ->
  collect romaji_node (val_map ms) = Ok (r_edges n) /\ text_is (JObj ms) (r_text n).
Proof.
  intros V H. unfold romaji_node in H. rewrite romaji_transitions_obj in H.
  destruct (collect romaji_node (val_map ms)) as [t| |]; try discriminate. cbn [bind as_object unwrap] in H.
  pose proof (get_text ms V) as G. destruct (map_get (val_map ms) []) as [x|]; [|discriminate].
  destruct G as (y & M & ->). cbn [bind unwrap] in H.
  destruct (as_str (value_of y)) as [s|] eqn:S; [|discriminate].
  cbn [bind unwrap] in H. inversion H; subst. rewrite edges_opt_inv. split; [reflexivity|].
  apply as_str_value in S. subst y. exact M.
Qed.
Lemma romaji_node_ok ms : valid_json (JObj ms) ->
  ((exists n, romaji_node (JObj (val_map ms)) = Ok n) <->
   (exists t, collect romaji_node (val_map ms) = Ok t) /\ exists o, some_out o /\ text_is (JObj ms) o).
Proof.
  intro V. split.
  - intros [n H]. apply romaji_node_is in H; [|exact V]. destruct H. split; [eauto|].
    exists (r_text n). split; [discriminate|assumption].
  - intros [[t H] (o & N & T)]. unfold romaji_node. rewrite romaji_transitions_obj, H. cbn [bind as_object unwrap].
    pose proof (get_text ms V) as G. destruct o as [s|]; [|now contradiction N].
    destruct (map_get (val_map ms) []) as [x|]; [|now apply G in T].
    destruct G as (y & M & ->). rewrite (member_fun _ _ _ _ M T). cbn. eauto.
Qed.
Lemma romaji_nofuel j : romaji_transitions j <> NoFuel.
Proof.
  induction j as [j NO|ms IH] using json_ind'; [destruct j; try discriminate; now destruct NO; eexists|]. rewrite romaji_transitions_obj.
  assert (collect romaji_node ms <> NoFuel) as C.
  { apply collect_nofuel. revert IH. apply Forall_impl. intros [k v] H. cbn [snd] in *. unfold romaji_node.
    destruct (romaji_transitions v); try congruence; try discriminate. cbn.
    destruct (as_object v) as [m|]; [|discriminate]. cbn.
    destruct (map_get m []) as [x|]; [|discriminate]. cbn. destruct (as_str x); discriminate. }
  destruct (collect romaji_node ms); try congruence; discriminate.
Qed.
Lemma romaji_table_spec d : romaji_table d <-> table some_out d.
Proof.
  unfold romaji_table, table. split; intros [O H]; (split; [exact O|]); intros ks v N F L.
  - destruct (H ks v N F L) as [s Q]. split.
    + destruct Q as (b & a & -> & _). now eexists.
    + exists (Some s). split; [discriminate|exact Q].
  - destruct (H ks v N F L) as [_ ([s|] & X & Q)]; [eauto|now contradiction X].
Qed.
Lemma r_edges_eq t o : r_edges (RNode (edges_opt t) o) = t.
Proof. now destruct t. Qed.
Lemma r_path_gpath p : forall t n, p <> [] -> (r_path t p n <-> gpath r_edges (r_edges t) p n).
Proof.
  induction p as [|c p IH]; intros t n N; [congruence|]. split.
  - intro H. inversion H as [|? ? m ? I H']; subst. destruct p as [|d p].
    + inversion H'; subst. now constructor.
    + apply g_more with m; [exact I|]. apply IH in H'; [exact H'|discriminate].
  - intro H. inversion H as [? ? ? I|? ? ? m ? I H']; subst.
    + apply r_path_cons with n; [exact I|constructor].
    + apply r_path_cons with m; [exact I|]. apply IH; [|exact H'].
      destruct p; [inversion H'|discriminate].
Qed.
Lemma r_path_snoc t p n c m : r_path t p n -> In (c, m) (r_edges n) -> r_path t (p ++ [c]) m.
Proof.
  induction 1; intro I; cbn; [apply r_path_cons with m; [exact I|constructor]|].
  eapply r_path_cons; eauto.
Qed.
Lemma r_inside_path t n : r_inside t n -> exists p, r_path t p n.
Proof.
  induction 1 as [|n c m _ [p IH] I]; [exists []; constructor|]. eexists. eapply r_path_snoc; eassumption.
Qed.
Lemma romaji_run ms t : romaji_generator (JObj ms) = Ok t ->
  exists l, collect romaji_node (val_map ms) = Ok l /\ r_edges (RNode t []) = l /\ t = edges_opt l.
Proof.
  unfold romaji_generator. rewrite value_of_JObj, romaji_transitions_obj.
  destruct (collect romaji_node (val_map ms)) as [l| |]; try discriminate. cbn. intro H. inversion H; subst.
  exists l. rewrite edges_opt_inv. auto.
Qed.

Theorem romaji_generator_spec d : valid_json d ->
  (romaji_table d /\ exists t, romaji_generator d = Ok t) \/ (~ romaji_table d /\ romaji_generator d = Panic).
Proof.
  intro V. destruct (romaji_generator d) as [t| |] eqn:E.
  - left. split; [|eauto]. destruct d as [s|ms| | | |]; try discriminate. apply romaji_table_spec.
    destruct (romaji_run _ _ E) as (l & C & _).
    apply (run_ok romaji_node some_out) with (ms := ms); eauto using romaji_node_obj, romaji_node_ok.
  - right. split; [|reflexivity]. intro T. pose proof T as [[ms ->] _]. apply romaji_table_spec in T.
    apply (run_ok romaji_node some_out romaji_node_obj romaji_node_ok _ V ms eq_refl) in T.
    destruct T as [t T]. unfold romaji_generator in E. rewrite value_of_JObj, romaji_transitions_obj, T in E. discriminate.
  - now apply romaji_nofuel in E.
Qed.
Theorem romaji_generator_content d t : valid_json d -> romaji_generator d = Ok t ->
  forall p s, p <> [] ->
    ((exists n, r_path (RNode t []) p n /\ rout n = s) <->
     exists ks v, first_chars ks p /\ leads d ks v /\ text v s).
Proof.
  intros V E p s N. destruct d as [x|ms| | | |]; try discriminate.
  destruct (romaji_run _ _ E) as (l & C & R & _).
  pose proof (run_path romaji_node r_edges r_text romaji_node_obj romaji_node_is p ms l V C (Some s)) as Q.
  split.
  - intros (n & P & O). apply r_path_gpath in P; [|exact N]. rewrite R in P. apply Q. exists n. unfold r_text. now rewrite O.
  - intro H. destruct (proj2 Q (conj N H)) as (n & P & O). inversion O. exists n. split; [|reflexivity].
    apply r_path_gpath; [exact N|]. now rewrite R.
Qed.
Theorem romaji_generator_order d t : valid_json d -> romaji_generator d = Ok t ->
  forall n, r_inside (RNode t []) n ->
    rtrans n <> Some [] /\
    weakly_ascending (map fst (r_edges n)) /\ (short_keys d -> ascending (map fst (r_edges n))).
Proof.
  intros V E n I. destruct d as [s|ms| | | |]; try discriminate. apply r_inside_path in I. destruct I as [p P].
  destruct (romaji_run _ _ E) as (l & C & R & T).
  assert (X : forall q t' n' ms', valid_json (JObj ms') -> collect romaji_node (val_map ms') = Ok t' ->
    gpath r_edges t' q n' -> rtrans n' <> Some []).
  { induction q as [|c q IH]; intros t' n' ms' V' C' G; [inversion G|].
    inversion G as [? ? ? J|? ? ? m ? J G']; subst; apply (run_In _ _ _ V' C') in J;
      destruct J as (r & v & M & Nd); destruct (member_valid _ _ _ V' M) as [_ Vv].
    - destruct v as [|vs| | | |]; try discriminate. unfold romaji_node in Nd. rewrite value_of_JObj, romaji_transitions_obj in Nd.
      destruct (collect romaji_node (val_map vs)) as [ts| |]; try discriminate. cbn [bind as_object unwrap] in Nd.
      destruct (map_get (val_map vs) []) as [x|]; [|discriminate]. cbn [bind unwrap] in Nd.
      destruct (as_str x); [|discriminate]. cbn [bind unwrap] in Nd. inversion Nd. cbn. now destruct ts.
    - destruct v as [|vs| | | |]; try discriminate. rewrite value_of_JObj in Nd.
      apply romaji_node_is in Nd; [|exact Vv]. destruct Nd as [Cm _]. exact (IH _ _ _ Vv Cm G'). }
  destruct p as [|c p].
  - inversion P; subst n. rewrite R. split; [cbn; subst t; now destruct l|]. exact (run_root_sorted romaji_node ms l V C).
  - apply r_path_gpath in P; [|discriminate]. rewrite R in P. split; [exact (X _ _ _ _ V C P)|].
    exact (run_sorted romaji_node r_edges r_text romaji_node_obj romaji_node_is _ ms l n V C P).
Qed.

(** ** Looking up keys in a JSON text *)
Fixpoint lookup (d : json) (ks : list str) : option json :=
  match ks with
  | [] => Some d
  | k :: ks' =>
    match d with
    | JObj ms => match map_get (rev ms) k with Some v => lookup v ks' | None => None end
    | _ => None
    end
  end.
Lemma map_get_member ms k v : map_get (rev ms) k = Some v -> member (JObj ms) k v.
Proof.
  induction ms as [|e ms IH] using rev_ind; [discriminate|]. rewrite rev_app_distr. cbn [rev app].
  unfold map_get. cbn [find]. rewrite member_last. intro H. exists (ms ++ [e]). split; [reflexivity|].
  apply last_member_app. destruct (str_eqb (fst e) k) eqn:Q.
  - apply str_eqb_eq in Q. cbn in H. inversion H; subst. left. now destruct e.
  - right. split; [intros ->; assert (str_eqb (fst e) (fst e) = true) by (now apply str_eqb_eq); congruence|].
    apply IH in H. apply member_last in H. destruct H as (ms' & X & H). now inversion X; subst.
Qed.
Lemma lookup_leads ks : forall d v, lookup d ks = Some v -> leads d ks v.
Proof.
  induction ks as [|k ks IH]; intros d v H; cbn in H; [inversion H; constructor|].
  destruct d as [|ms| | | |]; try discriminate. destruct (map_get (rev ms) k) as [w|] eqn:G; [|discriminate].
  econstructor; [apply map_get_member; exact G|auto].
Qed.
Lemma lookup_text d ks s : lookup d (ks ++ [[]]) = Some (JStr s) -> exists v, leads d ks v /\ text v s.
Proof.
  revert d. induction ks as [|k ks IH]; intros d H.
  - exists d. split; [constructor|]. apply lookup_leads in H. inversion H as [|? ? ? w ? M L]; subst.
    inversion L; subst. exact M.
  - cbn in H. destruct d as [|ms| | | |]; try discriminate. destruct (map_get (rev ms) k) as [w|] eqn:G; [|discriminate].
    destruct (IH _ H) as (v & L & T). exists v. split; [|exact T]. econstructor; [apply map_get_member; exact G|exact L].
Qed.
