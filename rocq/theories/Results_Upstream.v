(** * Proofs of the theorems of Props_Upstream.v *)
From Verif Require Import Base Tac Std StdInstances Trees KanaTree RomajiTree Convert KanaPure KanaSpec KanaDict
  Json UpstreamData Upstream UpstreamSpec UpstreamProofs Debug DebugSpec DebugProofs CliSpec TreeSpec Results_Kana Results_Romaji.

(** all paths of a value *)
Fixpoint flat (j : json) : list (list str * json) :=
  match j with
  | JStr _ | JArr _ | JNum _ | JBool _ | JNull => [([], j)]
  | JObj m => ([], j) :: flat_map (fun e => match e with (k, v) => map (fun x => (k :: fst x, snd x)) (flat v) end) m
  end.
Lemma flat_here j : In ([], j) (flat j).
Proof. destruct j; cbn; auto. Qed.
Lemma leads_flat d ks v : valid_json d -> leads d ks v -> In (ks, value_of v) (flat (value_of d)).
Proof.
  intros V L. induction L as [j|j k ks v w M L IH]; [apply flat_here|].
  pose proof M as (b & a & -> & _). destruct (member_valid _ _ _ V M) as [_ Vv].
  rewrite value_of_JObj. cbn [flat]. right. apply in_flat_map. exists (k, value_of v). split.
  - apply val_map_spec; eauto.
  - apply in_map_iff. exists (ks, value_of w). split; [reflexivity|auto].
Qed.
Lemma leads_app d ks v ks' w : leads d ks v -> leads v ks' w -> leads d (ks ++ ks') w.
Proof. induction 1; intro L; cbn [app]; [exact L|]. econstructor; eauto. Qed.
Lemma text_flat d ks v s : valid_json d -> leads d ks v -> text v s -> In (ks ++ [[]], JStr s) (flat (value_of d)).
Proof.
  intros V L T. apply (leads_flat d (ks ++ [[]]) (JStr s)); [exact V|].
  apply leads_app with v; [exact L|]. exact (leads_down _ _ _ _ _ T (leads_here _)).
Qed.
Lemma concat_snoc (ks : list str) : concat (ks ++ [[]]) = concat ks.
Proof. rewrite concat_app. cbn. now rewrite app_nil_r. Qed.

Fixpoint validb (j : json) : bool :=
  match j with
  | JStr s => forallb is_scalar s
  | JObj ms => forallb (fun e => match e with (k, v) => forallb is_scalar k && validb v end) ms
  | JNum n => forallb is_scalar n
  | JBool _ | JNull => true
  | JArr _ => false
  end.
Lemma validb_ok j : validb j = true -> valid_json j.
Proof.
  induction j as [j NO|ms IH] using json_ind'; [|cbn [validb]; intro H; constructor].
  - destruct j; cbn [validb]; intro H; try discriminate; constructor; try now destruct NO; eexists. all: apply Forall_forall; now apply forallb_forall.
  - rewrite forallb_forall in H. rewrite Forall_forall in IH |- *. intros [k v] I. specialize (H _ I). cbv beta iota in H.
    apply andb_prop in H. destruct H as [H1 H2]. split; [|exact (IH _ I H2)].
    apply Forall_forall. now apply forallb_forall.
Qed.
Lemma kana_document_valid : valid_json kana_document.
Proof. apply validb_ok. vm_compute. reflexivity. Qed.
Lemma romaji_document_valid : valid_json romaji_document.
Proof. apply validb_ok. vm_compute. reflexivity. Qed.

Definition kana_check : bool :=
  forallb (fun e => match snd e with JStr s => str_eqb (kconv (tree_of Default) (concat (fst e))) s | _ => true end)
    (flat (value_of kana_document)).
Lemma kana_check_ok : kana_check = true.
Proof. vm_compute. reflexivity. Qed.
Definition has_vu (s : str) : bool := existsb (fun c => (c =? ch "ヴ") || (c =? ch "ゔ")) s.
Definition romaji_check : bool :=
  forallb (fun e => match snd e with
    | JStr s => has_vu (concat (fst e)) || match to_romaji std_1_82 (concat (fst e)) with Ok t => str_eqb t s | _ => false end
    | _ => true end)
    (flat (value_of romaji_document)).
Lemma romaji_check_ok : romaji_check = true.
Proof. vm_compute. reflexivity. Qed.
Definition vu_check (E : std) : bool :=
  forallb (fun e => match snd e with
    | JStr s => negb (has_vu (concat (fst e))) || match to_romaji E (concat (fst e)) with Ok t => negb (str_eqb t s) | _ => false end
    | _ => true end)
    (flat (value_of romaji_document)).
Lemma vu_check_52 : vu_check std_1_52 = true.
Proof. vm_compute. reflexivity. Qed.
Lemma vu_check_82 : vu_check std_1_82 = true.
Proof. vm_compute. reflexivity. Qed.
Lemma has_vu_false s : has_vu s = false <-> ~ In (ch "ヴ") s /\ ~ In (ch "ゔ") s.
Proof.
  unfold has_vu. split.
  - intro H. split; intro I; rewrite <- not_true_iff_false in H; apply H, existsb_exists; eexists; (split; [exact I|reflexivity]).
  - intros [A B]. apply not_true_iff_false. rewrite existsb_exists. intros (c & I & H).
    apply orb_prop in H. destruct H as [H|H]; apply N.eqb_eq in H; now subst c.
Qed.

Lemma C57_kana_generator_proof :
  forall d, valid_json d ->
    ((kana_table d /\ exists t, kana_generator d = Ok t) \/ (~ kana_table d /\ kana_generator d = Panic)) /\
    forall t, kana_generator d = Ok t ->
      (forall p o, p <> [] ->
         ((exists n, k_path (KNode t None) p n /\ kout n = o) <->
          exists ks v, first_chars ks p /\ leads d ks v /\ text_is v o)) /\
      forall n, k_inside (KNode t None) n ->
        weakly_ascending (map fst (ktrans n)) /\ (short_keys d -> ascending (map fst (ktrans n))).
Proof.
  intros d V. split; [now apply kana_generator_spec|]. intros t T. split.
  - exact (kana_generator_content d t V T).
  - exact (kana_generator_order d t V T).
Qed.

Lemma C58_romaji_generator_proof :
  forall d, valid_json d ->
    ((romaji_table d /\ exists t, romaji_generator d = Ok t) \/ (~ romaji_table d /\ romaji_generator d = Panic)) /\
    forall t, romaji_generator d = Ok t ->
      (forall p s, p <> [] ->
         ((exists n, r_path (RNode t []) p n /\ rout n = s) <->
          exists ks v, first_chars ks p /\ leads d ks v /\ text v s)) /\
      forall n, r_inside (RNode t []) n ->
        rtrans n <> Some [] /\
        weakly_ascending (map fst (r_edges n)) /\ (short_keys d -> ascending (map fst (r_edges n))).
Proof.
  intros d V. split; [now apply romaji_generator_spec|]. intros t T. split.
  - exact (romaji_generator_content d t V T).
  - exact (romaji_generator_order d t V T).
Qed.

Lemma C59_tables_proof :
  valid_json kana_document /\ valid_json romaji_document /\
  (exists t, kana_generator kana_document = Ok t /\ TO_KANA_NODE_TREE = KNode t None) /\
  (exists t, romaji_generator romaji_document = Ok (Some t) /\ rout TO_ROMAJI_NODE_TREE = [] /\
     t = filter (fun e => negb (existsb (N.eqb (fst e)) (u "ヷゎ"))) (r_edges TO_ROMAJI_NODE_TREE)) /\
  In (ch "ヷ", RNode None (u "va")) (r_edges TO_ROMAJI_NODE_TREE) /\
  In (ch "ゎ", RNode None (u "wa")) (r_edges TO_ROMAJI_NODE_TREE).
Proof.
  split; [exact kana_document_valid|]. split; [exact romaji_document_valid|].
  split; [eexists; split; vm_compute; reflexivity|].
  split; [eexists; split; [|split]; vm_compute; reflexivity|].
  split.
  - vm_compute. repeat (first [left; reflexivity | right]).
  - vm_compute. repeat (first [left; reflexivity | right]).
Qed.

Lemma C60_table_spellings_partial_proof :
  forall E, std_ok E ->
    (forall ks v s, leads kana_document ks v -> text v s -> to_kana E (concat ks) = Ok s) /\
    (forall ks v s, leads romaji_document ks v -> text v s ->
       ~ In (ch "ヴ") (concat ks) -> ~ In (ch "ゔ") (concat ks) -> to_romaji E (concat ks) = Ok s).
Proof.
  intros E EO. split.
  - intros ks v s L T. pose proof (text_flat _ _ _ _ kana_document_valid L T) as I.
    pose proof kana_check_ok as C. unfold kana_check in C. rewrite forallb_forall in C. specialize (C _ I).
    cbn [fst snd] in C. rewrite concat_snoc in C. apply str_eqb_eq in C.
    unfold to_kana. rewrite to_kana_conv by exact EO. now f_equal.
  - intros ks v s L T A B. pose proof (text_flat _ _ _ _ romaji_document_valid L T) as I.
    pose proof romaji_check_ok as C. unfold romaji_check in C. rewrite forallb_forall in C. specialize (C _ I).
    cbn [fst snd] in C. rewrite concat_snoc in C. rewrite (proj2 (has_vu_false _) (conj A B)) in C. cbn [orb] in C.
    unfold to_romaji in *. rewrite (proj2 (C30_determined_partial_proof _ _) (conj A B) E std_1_82 EO std_1_82_ok).
    destruct (to_romaji_with_opt std_1_82 (concat ks) _) as [t| |]; try discriminate. apply str_eqb_eq in C. now subst t.
Qed.

Lemma C60_table_spellings_refuted_proof :
  (forall E ks v s, E = std_1_52 \/ E = std_1_82 -> leads romaji_document ks v -> text v s ->
     In (ch "ゔ") (concat ks) -> exists t, to_romaji E (concat ks) = Ok t /\ t <> s) /\
  (exists v w, leads romaji_document [u "ゔ"] v /\ text v (u "vu") /\
     leads romaji_document [u "ゔぁ"] w /\ text w (u "va") /\
     to_romaji std_1_82 (u "ゔ") = Ok (u "vo") /\ to_romaji std_1_82 (u "ゔぁ") = Ok (u "voa")).
Proof.
  split.
  - intros E ks v s EE L T A. pose proof (text_flat _ _ _ _ romaji_document_valid L T) as I.
    assert (vu_check E = true) as C by (destruct EE as [->| ->]; [exact vu_check_52|exact vu_check_82]).
    unfold vu_check in C. rewrite forallb_forall in C. specialize (C _ I).
    cbn [fst snd] in C. rewrite concat_snoc in C.
    assert (has_vu (concat ks) = true) as H.
    { destruct (has_vu (concat ks)) eqn:H; [reflexivity|]. apply has_vu_false in H. now destruct H. }
    rewrite H in C. cbn [negb orb] in C.
    destruct (to_romaji E (concat ks)) as [t| |]; try discriminate. exists t. split; [reflexivity|].
    intros ->. assert (str_eqb s s = true) by now apply str_eqb_eq. rewrite H0 in C. discriminate.
  - destruct (lookup_text romaji_document [u "ゔ"] (u "vu")) as (v & A & B); [vm_compute; reflexivity|].
    destruct (lookup_text romaji_document [u "ゔぁ"] (u "va")) as (w & C & D); [vm_compute; reflexivity|].
    exists v, w. repeat (split; [first [assumption | vm_compute; reflexivity]|]). vm_compute. reflexivity.
Qed.

Lemma C73_printed_proof :
  forall hidden d, valid_json d ->
    ((exists t, kana_table d /\ kana_generator d = Ok t /\
        exists out, kana_program hidden d = Ok out /\ utf8 out (kana_text (escape hidden) t)) \/
     (~ kana_table d /\ kana_program hidden d = Panic)) /\
    ((exists t, romaji_table d /\ romaji_generator d = Ok t /\
        exists out, romaji_program hidden d = Ok out /\ utf8 out (romaji_text (escape hidden) t)) \/
     (~ romaji_table d /\ romaji_program hidden d = Panic)) /\
    forall q c, q = ch "'" \/ q = quote -> is_scalar c = true -> writes hidden q c (escape hidden q c).
Proof.
  intros hidden d V. split; [|split].
  - destruct (kana_program_spec hidden d V) as [E W]. rewrite E.
    destruct (kana_generator_spec d V) as [[T [t G]]|[T G]]; rewrite G; [left|right; auto].
    exists t. cbn [bind]. split; [exact T|]. split; [reflexivity|]. eexists. split; [reflexivity|]. split; [now apply W|reflexivity].
  - destruct (romaji_program_spec hidden d V) as [E W]. rewrite E.
    destruct (romaji_generator_spec d V) as [[T [t G]]|[T G]]; rewrite G; [left|right; auto].
    exists t. cbn [bind]. split; [exact T|]. split; [reflexivity|]. eexists. split; [reflexivity|]. split; [now apply W|reflexivity].
  - intros q c _ S. now apply escape_writes.
Qed.

Lemma C73_read_back_proof :
  forall h1 h2 d1 d2 out, valid_json d1 -> valid_json d2 ->
    (kana_program h1 d1 = Ok out -> kana_program h2 d2 = Ok out ->
       exists t, kana_generator d1 = Ok t /\ kana_generator d2 = Ok t) /\
    (romaji_program h1 d1 = Ok out -> romaji_program h2 d2 = Ok out ->
       exists t, romaji_generator d1 = Ok t /\ romaji_generator d2 = Ok t).
Proof.
  intros h1 h2 d1 d2 out V1 V2. split; [now apply kana_program_back|now apply romaji_program_back].
Qed.
