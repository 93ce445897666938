(** * Proofs about the printed tables (C73) *)
From Coq Require Import Lia.
From Verif Require Import Base Tac Trees Json Debug Upstream UpstreamSpec UpstreamProofs Utf8Proofs CliSpec DebugSpec.

(** ** Induction on the trees *)
Section Ind.
  Variable P : knode -> Prop.
  Hypothesis H : forall ts o, Forall (fun t => P (snd t)) ts -> P (KNode ts o).
  Fixpoint knode_ind' (n : knode) : P n :=
    match n with KNode ts o => H ts o
      ((fix go l : Forall (fun t => P (snd t)) l :=
          match l with [] => Forall_nil _ | (c, m) :: r => Forall_cons (c, m) (knode_ind' m) (go r) end) ts)
    end.
End Ind.
Section IndR.
  Variable P : rnode -> Prop.
  Hypothesis H : forall ts o, Forall (fun t => P (snd t)) (match ts with Some l => l | None => [] end) -> P (RNode ts o).
  Fixpoint rnode_ind' (n : rnode) : P n :=
    match n with RNode ts o => H ts o
      (match ts return Forall (fun t => P (snd t)) (match ts with Some l => l | None => [] end) with
       | None => Forall_nil _
       | Some l =>
         (fix go l : Forall (fun t => P (snd t)) l :=
            match l with [] => Forall_nil _ | (c, m) :: r => Forall_cons (c, m) (rnode_ind' m) (go r) end) l
       end)
    end.
End IndR.

(** ** The adapters: [nest d s] is [s] with [d] levels of spaces after every newline *)
Definition nest (d : nat) (s : str) : str := flat_map (fun c => if c =? 10 then 10 :: deep d else [c]) s.
Lemma nest_app d a b : nest d (a ++ b) = nest d a ++ nest d b.
Proof. apply flat_map_app. Qed.
Definition flat_text (s : str) : Prop := ~ In 10 s.
Lemma nest_flat d s : flat_text s -> nest d s = s.
Proof.
  unfold flat_text. induction s as [|c s IH]; intro H; [reflexivity|]. cbn [nest flat_map] in *.
  destruct (N.eqb_spec c 10) as [->|]; [elim H; now left|].
  cbn [app]. f_equal. apply IH. intro I. apply H. now right.
Qed.
Lemma deep_flat d : flat_text (deep d).
Proof. induction d as [|d IH]; [now intros []|]. cbn. intros [|[|[|[|I]]]]; try discriminate. now apply IH. Qed.
Lemma deep_add a b : deep (a + b) = deep a ++ deep b.
Proof. induction a as [|a IH]; [reflexivity|]. cbn. now rewrite IH. Qed.
Lemma nest_nest a b s : nest a (nest b s) = nest (a + b) s.
Proof.
  induction s as [|c s IH]; [reflexivity|].
  change (c :: s) with ([c] ++ s). rewrite !(nest_app _ [c]), nest_app, IH. f_equal.
  unfold nest at 2 3. cbn [flat_map]. destruct (N.eqb_spec c 10) as [->|Nc].
  - rewrite !app_nil_r. change (10 :: deep b) with ([10] ++ deep b). rewrite nest_app, (nest_flat a (deep b)) by apply deep_flat.
    unfold nest. cbn [flat_map]. rewrite N.eqb_refl. cbn [app]. now rewrite app_nil_r, deep_add.
  - unfold nest. cbn [flat_map app]. destruct (N.eqb_spec c 10); [contradiction|reflexivity].
Qed.
Lemma nest_0 s : nest 0 s = s.
Proof.
  induction s as [|c s IH]; [reflexivity|]. unfold nest in *. cbn [flat_map]. rewrite IH.
  destruct (N.eqb_spec c 10) as [->|]; reflexivity.
Qed.
Lemma pad_nest s : forall b, pad b (s ++ [0x2C; 10]) = (if b then deep 1 else []) ++ nest 1 s ++ [0x2C; 10].
Proof.
  induction s as [|c s IH]; intro b; [destruct b; reflexivity|].
  unfold nest in *. cbn [app pad flat_map]. rewrite IH. f_equal.
  destruct (c =? 10) eqn:E; cbn [app]; [|reflexivity]. apply N.eqb_eq in E. subst c. now rewrite <- !app_assoc.
Qed.
Lemma nest_newline d : nest d [10] = 10 :: deep d.
Proof. unfold nest. cbn. now rewrite app_nil_r. Qed.
(** an entry [d] levels down *)
Lemma nest_entry d s : nest d (10 :: entry_line s) ++ [] = 10 :: deep d ++ deep 1 ++ nest (S d) s ++ u "," ++ 10 :: deep d.
Proof.
  unfold entry_line. rewrite pad_nest, app_nil_r. change (10 :: ?x) with ([10] ++ x) at 1.
  rewrite !nest_app, nest_nest, (nest_flat d (deep 1)) by apply deep_flat.
  rewrite nest_newline. replace (d + 1)%nat with (S d) by apply (eq_sym (PeanoNat.Nat.add_1_r d)).
  cbn [app]. do 3 f_equal. change [0x2C; 10] with (u "," ++ [10]). rewrite nest_app, nest_newline. reflexivity.
Qed.
Lemma deep_comm d : deep d ++ deep 1 = deep (S d).
Proof. rewrite <- deep_add. now rewrite PeanoNat.Nat.add_1_r. Qed.
Lemma nest_entries d items :
  deep d ++ nest d (flat_map entry_line items) = flat_map (fun s => item (S d) (nest (S d) s)) items ++ deep d.
Proof.
  induction items as [|s r IH]; [cbn; now rewrite app_nil_r|].
  cbn [flat_map]. rewrite nest_app, <- app_assoc, <- IH. unfold item at 1.
  pose proof (nest_entry d s) as E. rewrite app_nil_r in E. change (10 :: entry_line s) with ([10] ++ entry_line s) in E.
  rewrite nest_app, nest_newline in E. cbn [app] in E. injection E as E.
  rewrite app_assoc, E. rewrite <- deep_comm, <- !app_assoc. cbn. now rewrite <- !app_assoc.
Qed.

Lemma nest_list d items : nest d (debug_list items) =
  match items with
  | [] => u "[]"
  | _ => line 0 (u "[") ++ flat_map (fun s => item (S d) (nest (S d) s)) items ++ deep d ++ u "]"
  end.
Proof.
  unfold debug_list. destruct items as [|i r]; [reflexivity|].
  rewrite !nest_app, nest_newline, (app_assoc _ (deep d)), <- nest_entries. unfold line, deep at 2.
  cbn [app]. rewrite <- !app_assoc. reflexivity.
Qed.
Lemma nest_tuple d name items : flat_text name -> items <> [] -> nest d (debug_tuple name items) =
  line 0 (name ++ u "(") ++ flat_map (fun s => item (S d) (nest (S d) s)) items ++ deep d ++ u ")".
Proof.
  intros F NE. unfold debug_tuple. destruct items as [|i r]; [contradiction|].
  rewrite !nest_app, nest_newline, (app_assoc _ (deep d)), <- nest_entries, (nest_flat d name F). unfold line, deep at 2.
  cbn [app]. rewrite <- !app_assoc. reflexivity.
Qed.
Lemma nest_struct d name a x b y : flat_text name -> flat_text a -> flat_text b ->
  nest d (debug_struct name [(a, x); (b, y)]) =
  line 0 (name ++ u " {") ++ item (S d) (a ++ u ": " ++ nest (S d) x) ++ item (S d) (b ++ u ": " ++ nest (S d) y) ++ deep d ++ u "}".
Proof.
  intros F Fa Fb. unfold debug_struct.
  replace (flat_map (fun f => entry_line (fst f ++ u ": " ++ snd f)) [(a, x); (b, y)])
    with (flat_map entry_line [a ++ u ": " ++ x; b ++ u ": " ++ y]) by reflexivity.
  transitivity (line 0 (name ++ u " {") ++
    flat_map (fun s => item (S d) (nest (S d) s)) [a ++ u ": " ++ x; b ++ u ": " ++ y] ++ deep d ++ u "}").
  - rewrite !nest_app, nest_newline, (app_assoc _ (deep d)), <- nest_entries, (nest_flat d name F). unfold line, deep at 2.
    cbn [app]. rewrite <- !app_assoc. reflexivity.
  - cbn [flat_map]. rewrite app_nil_r, <- app_assoc, !(nest_app (S d)), (nest_flat _ a Fa), (nest_flat _ b Fb). reflexivity.
Qed.

(** ** Characters *)
Lemma hex_digit_spec d : d < 16 -> hex_digit_is (hex_digit d) d.
Proof. intro L. unfold hex_digit, hex_digit_is. change (ch "0") with 0x30. change (ch "9") with 0x39.
  change (ch "a") with 0x61. change (ch "f") with 0x66. destruct (N.ltb_spec d 10); lia. Qed.
Lemma hex_digits_spec f : forall n, n < 16 ^ (N.of_nat f + 1) -> hex_value (hex_digits f n) n.
Proof.
  induction f as [|f IH]; intros n L.
  - constructor. apply hex_digit_spec. exact L.
  - cbn [hex_digits]. destruct (N.ltb_spec n 16) as [S|G]; [constructor; now apply hex_digit_spec|].
    assert (n / 16 <> 0) as NZ. { intro Z. apply N.div_small_iff in Z; lia. }
    assert (n = 16 * (n / 16) + n mod 16) as D by (apply N.div_mod; discriminate).
    rewrite D at 3. apply hex_more; [|exact NZ|apply hex_digit_spec, N.mod_lt; discriminate].
    apply IH. apply N.div_lt_upper_bound; [discriminate|].
    replace (N.of_nat (S f) + 1) with (N.succ (N.of_nat f + 1)) in L by lia. now rewrite N.pow_succ_r' in L.
Qed.
Lemma scalar_lt c : is_scalar c = true -> c < 0x110000.
Proof.
  unfold is_scalar. intro H. apply orb_prop in H as [H|H].
  - apply N.ltb_lt in H. lia.
  - apply andb_prop in H as [_ H]. now apply N.ltb_lt in H.
Qed.
Lemma hex_spec c : is_scalar c = true -> hex_value (hex c) c.
Proof.
  intro S. apply scalar_lt in S. apply hex_digits_spec. eapply N.lt_trans; [exact S|]. vm_compute. reflexivity.
Qed.
Lemma escape_writes hidden q c : is_scalar c = true -> writes hidden q c (escape hidden q c).
Proof.
  intro S. unfold escape.
  destruct (N.eqb_spec c 0) as [->|N0]; [apply writes_short; cbn; auto 10|].
  destruct (N.eqb_spec c 9) as [->|N1]; [apply writes_short; cbn; auto 10|].
  destruct (N.eqb_spec c 13) as [->|N2]; [apply writes_short; cbn; auto 10|].
  destruct (N.eqb_spec c 10) as [->|N3]; [apply writes_short; cbn; auto 10|].
  destruct (N.eqb_spec c 0x5C) as [->|N4]; cbn [orb]; [apply (writes_short _ _ (ch "\") (ch "\")); cbn; auto 10|].
  destruct (N.eqb_spec c q) as [->|N5]; [apply (writes_short _ _ q q); cbn; auto 10|].
  assert (~ In c [0; 9; 10; 13; ch "\"; q]) as NI by (cbn; intuition congruence).
  destruct (hidden c) eqn:Hc; [now apply writes_number; [| |apply hex_spec]|now apply writes_itself].
Qed.

(** hexadecimal numerals are read back *)
Definition hex_read (s : str) : N := fold_left (fun n c => 16 * n + (if c <? 0x40 then c - 0x30 else c - 0x57)) s 0.
Lemma hex_digit_read c v : hex_digit_is c v -> (if c <? 0x40 then c - 0x30 else c - 0x57) = v.
Proof. unfold hex_digit_is. change (ch "0") with 0x30. change (ch "9") with 0x39.
  change (ch "a") with 0x61. change (ch "f") with 0x66. intros [[A ->]|[A ->]]; destruct (N.ltb_spec c 0x40); lia. Qed.
Lemma hex_value_read s n : hex_value s n -> hex_read s = n.
Proof.
  induction 1 as [c v D|s n c v V IH NZ D].
  - unfold hex_read. cbn [fold_left]. rewrite (hex_digit_read _ _ D). reflexivity.
  - unfold hex_read in *. rewrite fold_left_app, IH. cbn [fold_left]. now rewrite (hex_digit_read _ _ D).
Qed.
Definition hex_char (c : char) : Prop := 0x30 <= c <= 0x39 \/ 0x61 <= c <= 0x66.
Lemma hex_value_chars s n : hex_value s n -> Forall hex_char s.
Proof.
  assert (forall c v, hex_digit_is c v -> hex_char c) as D by (intros c v [[A _]|[A _]]; [left|right]; exact A).
  induction 1; [constructor; eauto|]. apply Forall_app. split; [assumption|constructor; eauto].
Qed.
Lemma until_brace a : forall b r1 r2, Forall hex_char a -> Forall hex_char b ->
  a ++ 0x7D :: r1 = b ++ 0x7D :: r2 -> a = b /\ r1 = r2.
Proof.
  assert (~ hex_char 0x7D) as NB by (unfold hex_char; lia).
  induction a as [|x a IH]; intros [|y b] r1 r2 FA FB E; cbn [app] in E.
  - now injection E as ->.
  - injection E as <- _. inversion FB. contradiction.
  - injection E as -> _. inversion FA. contradiction.
  - injection E as -> E. destruct (IH _ _ _ (Forall_inv_tail FA) (Forall_inv_tail FB) E) as [-> ->]. auto.
Qed.

Lemma writes_back h q c s x r : writes h q c s -> s ++ r = 0x5C :: x ->
  (exists y, x = y :: r /\ In (c, y) [(0, ch "0"); (9, ch "t"); (10, ch "n"); (13, ch "r"); (ch "\", ch "\"); (q, q)]) \/
  (exists ds, x = ch "u" :: ch "{" :: ds ++ 0x7D :: r /\ hex_value ds c).
Proof.
  intros W E. destruct W as [c y I|c ds NI H V|c NI H]; cbn in E; injection E as E.
  - left. eauto.
  - right. exists ds. split; [|exact V]. rewrite <- E, <- app_assoc. reflexivity.
  - elim NI. subst c. cbn. auto 10.
Qed.
(** two oracles, one text: the same character *)
Lemma writes_prefix h1 h2 q c1 c2 s1 s2 r1 r2 : q = ch "'" \/ q = quote ->
  writes h1 q c1 s1 -> writes h2 q c2 s2 -> s1 ++ r1 = s2 ++ r2 -> c1 = c2 /\ r1 = r2.
Proof.
  intros Q W1 W2 E.
  assert (forall h c s r, writes h q c s -> (s = [c] /\ c <> 0x5C /\ ~ In c [q]) \/ exists x, s ++ r = 0x5C :: x) as C.
  { intros h c s r [c' y I|c' ds NI H V|c' NI H]; [right; eexists; reflexivity|right; eexists; reflexivity|].
    left. split; [reflexivity|]. split; [intros ->; apply NI; cbn; auto 10|intros [->|[]]; apply NI; cbn; auto 10]. }
  destruct (C _ _ _ r1 W1) as [(S1 & N1 & _)|(x & X1)], (C _ _ _ r2 W2) as [(S2 & N2 & _)|(y & X2)].
  - subst. injection E as -> ->. auto.
  - rewrite X2, S1 in E. injection E as E _. contradiction.
  - rewrite X1, S2 in E. injection E as E _. congruence.
  - assert (x = y) as -> by congruence.
    destruct (writes_back _ _ _ _ _ _ W1 X1) as [(a & Ea & Ia)|(a & Ea & Va)],
      (writes_back _ _ _ _ _ _ W2 X2) as [(b & Eb & Ib)|(b & Eb & Vb)].
    + rewrite Ea in Eb. injection Eb as -> ->. split; [|reflexivity].
      cbn in Ia, Ib. destruct Q as [-> | ->];
      repeat (destruct Ia as [Ia|Ia]; [injection Ia as <- <-|]); try contradiction;
      repeat (destruct Ib as [Ib|Ib]; [first [injection Ib as <- Z; first [reflexivity|discriminate Z]|injection Ib as <-; reflexivity|discriminate Ib]|]); contradiction.
    + rewrite Ea in Eb. injection Eb as -> _. exfalso. destruct Q as [-> | ->]; cbn in Ia;
      repeat (destruct Ia as [Ia|Ia]; [discriminate Ia|]); contradiction.
    + rewrite Ea in Eb. injection Eb as <- _. exfalso. destruct Q as [-> | ->]; cbn in Ib;
      repeat (destruct Ib as [Ib|Ib]; [discriminate Ib|]); contradiction.
    + rewrite Ea in Eb. injection Eb as Eb.
      destruct (until_brace a b r1 r2 (hex_value_chars _ _ Va) (hex_value_chars _ _ Vb) Eb) as [-> ->].
      split; [|reflexivity]. rewrite <- (hex_value_read _ _ Va). now apply hex_value_read.
Qed.
Lemma writes_not_quote h q c s r : q = ch "'" \/ q = quote -> writes h q c s -> exists x y, s ++ r = x :: y /\ x <> q.
Proof.
  intros Q [c' y I|c' ds NI H V|c' NI H]; cbn [app u]; [| |exists c', r; split; [reflexivity|intros ->; apply NI; cbn; auto 10]];
  cbn; eexists _, _; (split; [reflexivity|]); destruct Q as [-> | ->]; discriminate.
Qed.

(** ** The layout *)
Lemma hex_digits_low f : forall n, Forall (fun c => 0x30 <= c) (hex_digits f n).
Proof.
  assert (forall d, 0x30 <= hex_digit d) as D by (intro d; unfold hex_digit; destruct (d <? 10); lia).
  induction f as [|f IH]; intro n; cbn [hex_digits]; [repeat constructor; apply D|].
  destruct (n <? 16); [repeat constructor; apply D|]. apply Forall_app. split; [apply IH|repeat constructor; apply D].
Qed.
Lemma flat_app a b : flat_text a -> flat_text b -> flat_text (a ++ b).
Proof. unfold flat_text. intros A B I. apply in_app_iff in I as [I|I]; auto. Qed.
Ltac flat_const := let F := fresh in intro F; cbn in F; repeat (destruct F as [F|F]; [discriminate F|]); exact F.
Lemma escape_flat h q c : flat_text (escape h q c).
Proof.
  unfold escape. destruct (c =? 0); [flat_const|]. destruct (c =? 9); [flat_const|]. destruct (c =? 13); [flat_const|].
  destruct (N.eqb_spec c 10) as [->|Nc]; [flat_const|].
  destruct ((c =? 0x5C) || (c =? q)); [intros [I|[I|[]]]; [discriminate I|contradiction]|].
  destruct (h c); [|intros [I|[]]; contradiction].
  apply flat_app; [flat_const|]. apply flat_app; [|flat_const].
  intro I. pose proof (hex_digits_low 6 c) as L. rewrite Forall_forall in L. specialize (L _ I). lia.
Qed.
Lemma debug_char_text h c : debug_char h c = char_text (escape h) c.
Proof. reflexivity. Qed.
Lemma debug_str_text h s : debug_str h s = str_text (escape h) s.
Proof. reflexivity. Qed.
Lemma char_text_flat h c : flat_text (char_text (escape h) c).
Proof. apply flat_app; [flat_const|]. apply flat_app; [apply escape_flat|flat_const]. Qed.
Lemma str_text_flat h s : flat_text (str_text (escape h) s).
Proof.
  apply flat_app; [flat_const|]. apply flat_app; [|flat_const].
  intro I. apply in_flat_map in I as (c & _ & I). now apply escape_flat in I.
Qed.

Lemma nest_some d s : nest d (debug_option (Some s)) = some_text d (nest (S d) s).
Proof.
  unfold debug_option. rewrite nest_tuple; [|flat_const|discriminate]. cbn [flat_map]. rewrite app_nil_r. reflexivity.
Qed.
Lemma nest_pairs {A} h (show : A -> str) d (ts : list (char * A)) :
  nest d (debug_list (map (fun t => debug_tuple [] [debug_char h (fst t); show (snd t)]) ts)) =
  pairs_text (escape h) d (map (fun t => (fst t, nest (S (S d)) (show (snd t)))) ts).
Proof.
  assert (forall l, flat_map (fun s => item (S d) (nest (S d) s)) (map (fun t => debug_tuple [] [debug_char h (fst t); show (snd t)]) l) =
    flat_map (fun t => line (S d) (u "(") ++ item (S (S d)) (char_text (escape h) (fst t)) ++ item (S (S d)) (snd t) ++
                              line (S d) (u "),")) (map (fun t => (fst t, nest (S (S d)) (show (snd t)))) l)) as B.
  { induction l as [|t r IH]; [reflexivity|]. cbn [map flat_map]. rewrite IH. f_equal.
    rewrite nest_tuple; [|flat_const|discriminate]. cbn [flat_map fst snd].
    rewrite (nest_flat _ (debug_char h (fst t))) by apply char_text_flat.
    unfold item at 1, line. cbn [deep app]. rewrite !app_nil_r. repeat (rewrite <- !app_assoc; cbn [app]). reflexivity. }
  rewrite nest_list. unfold pairs_text. destruct ts as [|t0 r0]; [reflexivity|].
  specialize (B (t0 :: r0)). cbn [map] in B |- *. now rewrite B.
Qed.
Lemma map_pair {A B} (f : char -> A -> B) l : map (fun t => match t with (c, m) => f c m end) l = map (fun t => f (fst t) (snd t)) l.
Proof. apply map_ext. now intros []. Qed.
Lemma debug_knode_text h n : forall d, nest d (debug_knode h n) = knode_text (escape h) d n.
Proof.
  induction n as [ts o IH] using knode_ind'. intro d. cbn [debug_knode knode_text].
  rewrite nest_struct by flat_const. rewrite !map_pair, (nest_pairs h (debug_knode h)).
  replace (map (fun t => (fst t, nest (S (S (S d))) (debug_knode h (snd t)))) ts)
    with (map (fun t => (fst t, knode_text (escape h) (3 + d) (snd t))) ts).
  2: { apply map_ext_in. intros t I. f_equal. rewrite Forall_forall in IH. symmetry. exact (IH _ I _). }
  replace (nest (S d) (debug_option (option_map (debug_str h) o)))
    with (match o with Some s => some_text (S d) (str_text (escape h) s) | None => u "None" end); [reflexivity|].
  destruct o as [s|]; cbn [option_map]; [|reflexivity]. rewrite nest_some, nest_flat by apply str_text_flat. reflexivity.
Qed.
Lemma debug_rnode_text h n : forall d, nest d (debug_rnode h n) = rnode_text (escape h) d n.
Proof.
  induction n as [ts o IH] using rnode_ind'. intro d. cbn [debug_rnode rnode_text].
  rewrite nest_struct by flat_const. rewrite (nest_flat _ (debug_str h o)) by apply str_text_flat.
  destruct ts as [l|]; cbn [option_map]; [|reflexivity].
  rewrite nest_some, !map_pair, (nest_pairs h (debug_rnode h)).
  replace (map (fun t => (fst t, nest (S (S (S (S d)))) (debug_rnode h (snd t)))) l)
    with (map (fun t => (fst t, rnode_text (escape h) (4 + d) (snd t))) l); [reflexivity|].
  apply map_ext_in. intros t I. f_equal. rewrite Forall_forall in IH. symmetry. exact (IH _ I _).
Qed.
Lemma kana_text_eq h ts : debug_ktransitions h ts ++ [10] = kana_text (escape h) ts.
Proof.
  unfold debug_ktransitions, kana_text, line. cbn [deep app]. f_equal.
  rewrite <- (nest_0 (debug_list _)), (nest_pairs h (debug_knode h)). f_equal. apply map_ext. intro t. f_equal. apply debug_knode_text.
Qed.
Lemma romaji_text_eq h ts : debug_rtransitions h ts ++ [10] = romaji_text (escape h) ts.
Proof.
  unfold debug_rtransitions, romaji_text, line. cbn [deep app]. f_equal.
  destruct ts as [l|]; cbn [option_map]; [|reflexivity].
  rewrite <- (nest_0 (debug_option _)), nest_some, (nest_pairs h (debug_rnode h)).
  do 2 f_equal. apply map_ext. intro t. f_equal. apply debug_rnode_text.
Qed.

(** ** Reading the text back *)
Inductive valid_kn : knode -> Prop :=
| valid_KNode ts o : Forall (fun t => is_scalar (fst t) = true /\ valid_kn (snd t)) ts ->
    (forall s, o = Some s -> valid_str s) -> valid_kn (KNode ts o).
Inductive valid_rn : rnode -> Prop :=
| valid_RNode ts o : (forall l, ts = Some l -> Forall (fun t => is_scalar (fst t) = true /\ valid_rn (snd t)) l) ->
    valid_str o -> valid_rn (RNode ts o).

Section Back.
  Variables h1 h2 : char -> bool.
  Notation w1 := (escape h1).
  Notation w2 := (escape h2).

  Lemma escape_prefix q c1 c2 r1 r2 : q = ch "'" \/ q = quote -> is_scalar c1 = true -> is_scalar c2 = true ->
    w1 q c1 ++ r1 = w2 q c2 ++ r2 -> c1 = c2 /\ r1 = r2.
  Proof. intros Q S1 S2 E. eapply writes_prefix; eauto using escape_writes. Qed.

  Lemma char_back c1 c2 r1 r2 : is_scalar c1 = true -> is_scalar c2 = true ->
    char_text w1 c1 ++ r1 = char_text w2 c2 ++ r2 -> c1 = c2 /\ r1 = r2.
  Proof.
    intros S1 S2 E. unfold char_text in E. rewrite <- !app_assoc in E. apply app_inv_head in E.
    apply escape_prefix in E as [-> E]; auto. apply app_inv_head in E. auto.
  Qed.
  Lemma str_back s1 : forall s2 r1 r2, valid_str s1 -> valid_str s2 ->
    str_text w1 s1 ++ r1 = str_text w2 s2 ++ r2 -> s1 = s2 /\ r1 = r2.
  Proof.
    assert (forall s1 s2 r1 r2, valid_str s1 -> valid_str s2 ->
      flat_map (w1 quote) s1 ++ quote :: r1 = flat_map (w2 quote) s2 ++ quote :: r2 -> s1 = s2 /\ r1 = r2) as B.
    { clear s1. induction s1 as [|c s1 IH]; intros [|c' s2] r1 r2 V1 V2 E; cbn [flat_map app] in E; try rewrite <- !app_assoc in E.
      - now injection E as ->.
      - destruct (writes_not_quote h2 quote c' (w2 quote c') (flat_map (w2 quote) s2 ++ quote :: r2)) as (x & y & X & Nx);
          [auto|apply escape_writes; exact (Forall_inv V2)|]. rewrite X in E. injection E as <- _. now elim Nx.
      - destruct (writes_not_quote h1 quote c (w1 quote c) (flat_map (w1 quote) s1 ++ quote :: r1)) as (x & y & X & Nx);
          [auto|apply escape_writes; exact (Forall_inv V1)|]. rewrite X in E. injection E as -> _. now elim Nx.
      - apply escape_prefix in E as [-> E]; [|auto|exact (Forall_inv V1)|exact (Forall_inv V2)].
        apply IH in E as [-> ->]; [auto|exact (Forall_inv_tail V1)|exact (Forall_inv_tail V2)]. }
    intros s2 r1 r2 V1 V2 E. unfold str_text in E. rewrite <- !app_assoc in E. apply app_inv_head in E. cbn [app] in E. eauto.
  Qed.

  Lemma deep_head d : forall s, deep (S d) ++ s = deep d ++ u "    " ++ s.
  Proof. intro s. now rewrite <- deep_comm, <- app_assoc. Qed.

  (** values of type [A], with the texts [f1] and [f2] at the same depth *)
  Definition back {A} (valid : A -> Prop) (f1 f2 : A -> str) (a : A) : Prop :=
    forall b r1 r2, valid a -> valid b -> f1 a ++ r1 = f2 b ++ r2 -> a = b /\ r1 = r2.

  Definition pair_text (w : char -> char -> str) (d : nat) (t : char * str) : str :=
    line (S d) (u "(") ++ item (S (S d)) (char_text w (fst t)) ++ item (S (S d)) (snd t) ++ line (S d) (u "),").
  Lemma pair_text_eq w d c s r : pair_text w d (c, s) ++ r =
    deep d ++ u "    " ++ u "(" ++ [10] ++ deep (S (S d)) ++ char_text w c ++ u "," ++ [10] ++
    deep (S (S d)) ++ s ++ u "," ++ [10] ++ deep (S d) ++ u ")," ++ [10] ++ r.
  Proof. unfold pair_text, line, item. cbn [fst snd]. rewrite <- !app_assoc. apply deep_head. Qed.
  Lemma pairs_back {A} (valid : A -> Prop) (f1 f2 : A -> str) d ts1 :
    Forall (fun t => back valid f1 f2 (snd t)) ts1 ->
    back (fun ts => Forall (fun t => is_scalar (fst t) = true /\ valid (snd t)) ts)
      (fun ts => pairs_text w1 d (map (fun t => (fst t, f1 (snd t))) ts))
      (fun ts => pairs_text w2 d (map (fun t => (fst t, f2 (snd t))) ts)) ts1.
  Proof.
    intros FB ts2 r1 r2 V1 V2 E.
    assert (forall l1 l2 r1 r2, Forall (fun t => back valid f1 f2 (snd t)) l1 ->
      Forall (fun t => is_scalar (fst t) = true /\ valid (snd t)) l1 ->
      Forall (fun t => is_scalar (fst t) = true /\ valid (snd t)) l2 ->
      flat_map (pair_text w1 d) (map (fun t => (fst t, f1 (snd t))) l1) ++ deep d ++ u "]" ++ r1 =
      flat_map (pair_text w2 d) (map (fun t => (fst t, f2 (snd t))) l2) ++ deep d ++ u "]" ++ r2 -> l1 = l2 /\ r1 = r2) as L.
    { clear. induction l1 as [|[c1 a1] l1 IH]; intros [|[c2 a2] l2] r1 r2 FB V1 V2 E; cbn [map flat_map fst snd] in E;
        try rewrite <- !(app_assoc (pair_text _ _ _)) in E; try rewrite !pair_text_eq in E; rewrite ?app_nil_l in E; apply app_inv_head in E.
      - now injection E as ->.
      - discriminate E.
      - discriminate E.
      - do 4 apply app_inv_head in E.
        pose proof (Forall_inv V1) as [S1 A1]. pose proof (Forall_inv V2) as [S2 A2]. cbn [fst snd] in *.
        apply char_back in E as [-> E]; [|assumption|assumption].
        do 3 apply app_inv_head in E.
        pose proof (Forall_inv FB) as B1. cbn [snd] in B1. apply B1 in E as [-> E]; [|assumption|assumption].
        do 5 apply app_inv_head in E.
        destruct (IH l2 r1 r2 (Forall_inv_tail FB) (Forall_inv_tail V1) (Forall_inv_tail V2) E) as [-> ->]. auto. }
    unfold pairs_text in E. destruct ts1 as [|t1 l1], ts2 as [|t2 l2]; cbn [map] in E.
    - apply app_inv_head in E. auto.
    - discriminate E.
    - discriminate E.
    - unfold line at 1 in E. unfold line at 3 in E. rewrite <- !app_assoc in E. do 3 apply app_inv_head in E.
      exact (L (t1 :: l1) (t2 :: l2) r1 r2 FB V1 V2 E).
  Qed.
  Lemma node_text_eq d a b r : node_text d a b ++ r =
    line 0 (u "Node {") ++ deep (S d) ++ u "transitions: " ++ a ++ u "," ++ [10] ++
    deep (S d) ++ u "output: " ++ b ++ u "," ++ [10] ++ deep d ++ u "}" ++ r.
  Proof. unfold node_text, item. now rewrite <- !app_assoc. Qed.
  Lemma some_text_eq d s r : some_text d s ++ r =
    line 0 (u "Some(") ++ deep (S d) ++ s ++ u "," ++ [10] ++ deep d ++ u ")" ++ r.
  Proof. unfold some_text, item. now rewrite <- !app_assoc. Qed.
  (** an optional value; its text does not begin like None *)
  Lemma option_back {A} (valid : A -> Prop) (f1 f2 : A -> str) d o :
    (forall a, o = Some a -> back valid f1 f2 a) ->
    back (fun o => forall a, o = Some a -> valid a)
      (fun o => match o with Some a => some_text d (f1 a) | None => u "None" end)
      (fun o => match o with Some a => some_text d (f2 a) | None => u "None" end) o.
  Proof.
    intros B [b|] r1 r2 V1 V2 E; destruct o as [a|].
    - rewrite !some_text_eq in E. do 2 apply app_inv_head in E.
      apply (B a eq_refl) in E as [-> E]; [|now apply V1|now apply V2]. do 4 apply app_inv_head in E. auto.
    - discriminate E.
    - discriminate E.
    - apply app_inv_head in E. auto.
  Qed.

  Lemma knode_back n : forall d, back valid_kn (knode_text w1 d) (knode_text w2 d) n.
  Proof.
    induction n as [ts o IH] using knode_ind'. intros d [ts' o'] r1 r2 V1 V2 E. cbn [knode_text] in E.
    inversion V1 as [? ? VT VO]; subst. inversion V2 as [? ? VT' VO']; subst.
    rewrite !map_pair, !node_text_eq in E. do 3 apply app_inv_head in E.
    apply (pairs_back valid_kn (knode_text w1 (3 + d)) (knode_text w2 (3 + d))) in E as [-> E];
      [|eapply Forall_impl; [|exact IH]; intros t Ht; apply Ht|exact VT|exact VT'].
    do 4 apply app_inv_head in E.
    apply (option_back valid_str (str_text w1) (str_text w2)) in E as [-> E];
      [|intros a _ b x y; apply str_back|exact VO|exact VO'].
    do 4 apply app_inv_head in E. auto.
  Qed.
  Lemma rnode_back n : forall d, back valid_rn (rnode_text w1 d) (rnode_text w2 d) n.
  Proof.
    induction n as [ts o IH] using rnode_ind'. intros d [ts' o'] r1 r2 V1 V2 E. cbn [rnode_text] in E.
    inversion V1 as [? ? VT VO]; subst. inversion V2 as [? ? VT' VO']; subst.
    rewrite !node_text_eq in E. do 3 apply app_inv_head in E.
    apply (option_back (fun l => Forall (fun t => is_scalar (fst t) = true /\ valid_rn (snd t)) l)
      (fun l => pairs_text w1 (2 + d) (map (fun t => match t with (c, m) => (c, rnode_text w1 (4 + d) m) end) l))
      (fun l => pairs_text w2 (2 + d) (map (fun t => match t with (c, m) => (c, rnode_text w2 (4 + d) m) end) l))) in E as [-> E];
      [| |exact VT|exact VT'].
    - do 4 apply app_inv_head in E. apply str_back in E as [-> E]; [|exact VO|exact VO'].
      do 4 apply app_inv_head in E. auto.
    - intros l -> l' x y W1 W2 E'. rewrite !map_pair in E'.
      apply (pairs_back valid_rn (rnode_text w1 (4 + d)) (rnode_text w2 (4 + d))) in E' as [-> E']; auto.
      eapply Forall_impl; [|exact IH]. intros t Ht. apply Ht.
  Qed.
  Lemma kana_back ts1 ts2 : valid_kn (KNode ts1 None) -> valid_kn (KNode ts2 None) ->
    kana_text w1 ts1 = kana_text w2 ts2 -> ts1 = ts2.
  Proof.
    intros V1 V2 E. inversion V1 as [? ? VT _]; subst. inversion V2 as [? ? VT' _]; subst.
    unfold kana_text, line in E. cbn [deep app] in E.
    apply (pairs_back valid_kn (knode_text w1 2) (knode_text w2 2)) in E as [-> _]; auto.
    apply Forall_forall. intros t _. apply knode_back.
  Qed.
  Lemma romaji_back ts1 ts2 : valid_rn (RNode ts1 []) -> valid_rn (RNode ts2 []) ->
    romaji_text w1 ts1 = romaji_text w2 ts2 -> ts1 = ts2.
  Proof.
    intros V1 V2 E. inversion V1 as [? ? VT _]; subst. inversion V2 as [? ? VT' _]; subst.
    unfold romaji_text, line in E. cbn [deep app] in E.
    apply (option_back (fun l => Forall (fun t => is_scalar (fst t) = true /\ valid_rn (snd t)) l)
      (fun l => pairs_text w1 1 (map (fun t => (fst t, rnode_text w1 3 (snd t))) l))
      (fun l => pairs_text w2 1 (map (fun t => (fst t, rnode_text w2 3 (snd t))) l))) in E as [-> _]; auto.
    intros l -> l' x y W1 W2 E'.
    apply (pairs_back valid_rn (rnode_text w1 3) (rnode_text w2 3)) in E' as [-> E']; auto.
    apply Forall_forall. intros t _. apply rnode_back.
  Qed.
End Back.

(** ** The texts are Unicode *)
Lemma escape_valid h q c : is_scalar q = true -> is_scalar c = true -> valid_str (escape h q c).
Proof.
  intros Q S. unfold escape. repeat match goal with |- context [if ?x then _ else _] => destruct x end;
    try (repeat constructor; assumption).
  apply Forall_app. split; [repeat constructor|]. apply Forall_app. split; [|repeat constructor].
  eapply Forall_impl; [|exact (hex_value_chars _ _ (hex_spec c S))]. intros x Hx. unfold hex_char in Hx.
  unfold is_scalar. apply orb_true_intro. left. apply N.ltb_lt. lia.
Qed.
Lemma valid_app a b : valid_str a -> valid_str b -> valid_str (a ++ b).
Proof. intros A B. now apply Forall_app. Qed.
Ltac valid_const := repeat (apply Forall_cons; [reflexivity|]); apply Forall_nil.
Lemma deep_valid d : valid_str (deep d).
Proof. induction d; [constructor|]. cbn [deep]. apply valid_app; [valid_const|assumption]. Qed.
Lemma char_text_valid h c : is_scalar c = true -> valid_str (char_text (escape h) c).
Proof. intro S. repeat apply valid_app; try valid_const. now apply escape_valid. Qed.
Lemma str_text_valid h s : valid_str s -> valid_str (str_text (escape h) s).
Proof.
  intro V. repeat apply valid_app; try valid_const. induction V; [constructor|]. cbn [flat_map]. apply valid_app; [|assumption].
  now apply escape_valid.
Qed.
Lemma some_text_valid d s : valid_str s -> valid_str (some_text d s).
Proof. intro V. unfold some_text, line, item. repeat apply valid_app; try valid_const; try apply deep_valid. exact V. Qed.
Lemma node_text_valid d a b : valid_str a -> valid_str b -> valid_str (node_text d a b).
Proof. intros A B. unfold node_text, line, item. repeat apply valid_app; try valid_const; try apply deep_valid; assumption. Qed.
Lemma pairs_text_valid h d ts : Forall (fun t => is_scalar (fst t) = true /\ valid_str (snd t)) ts ->
  valid_str (pairs_text (escape h) d ts).
Proof.
  intro F. unfold pairs_text. destruct ts as [|t0 r]; [valid_const|].
  apply valid_app; [unfold line; cbn [deep]; valid_const|]. apply valid_app; [|apply valid_app; [apply deep_valid|valid_const]].
  induction F as [|t l [S V] F IH]; [constructor|]. cbn [flat_map]. apply valid_app; [|exact IH].
  unfold line, item. repeat apply valid_app; try valid_const; try apply deep_valid; try exact V. now apply escape_valid.
Qed.
Lemma knode_text_valid h n : forall d, valid_kn n -> valid_str (knode_text (escape h) d n).
Proof.
  induction n as [ts o IH] using knode_ind'. intros d V. inversion V as [? ? VT VO]; subst. cbn [knode_text].
  apply node_text_valid.
  - apply pairs_text_valid. rewrite map_pair. apply Forall_map. cbn [fst snd]. rewrite Forall_forall in *.
    intros t I. destruct (VT _ I). split; [assumption|]. now apply IH.
  - destruct o; [apply some_text_valid, str_text_valid; auto|valid_const].
Qed.
Lemma rnode_text_valid h n : forall d, valid_rn n -> valid_str (rnode_text (escape h) d n).
Proof.
  induction n as [ts o IH] using rnode_ind'. intros d V. inversion V as [? ? VT VO]; subst. cbn [rnode_text].
  apply node_text_valid.
  - destruct ts as [l|]; [|valid_const]. apply some_text_valid, pairs_text_valid. rewrite map_pair. apply Forall_map. cbn [fst snd].
    specialize (VT l eq_refl). rewrite Forall_forall in *.
    intros t I. destruct (VT _ I). split; [assumption|]. now apply IH.
  - now apply str_text_valid.
Qed.
Lemma kana_text_valid h ts : valid_kn (KNode ts None) -> valid_str (kana_text (escape h) ts).
Proof.
  intro V. inversion V as [? ? VT _]; subst. unfold kana_text, line. apply valid_app; [constructor|]. apply valid_app; [|valid_const].
  apply pairs_text_valid, Forall_map. cbn [fst snd]. eapply Forall_impl; [|exact VT]. cbn. intros t [S W].
  split; [exact S|now apply knode_text_valid].
Qed.
Lemma romaji_text_valid h ts : valid_rn (RNode ts []) -> valid_str (romaji_text (escape h) ts).
Proof.
  intro V. inversion V as [? ? VT _]; subst. unfold romaji_text, line. apply valid_app; [constructor|]. apply valid_app; [|valid_const].
  destruct ts as [l|]; [|valid_const]. apply some_text_valid, pairs_text_valid, Forall_map. cbn [fst snd].
  eapply Forall_impl; [|exact (VT l eq_refl)]. cbn. intros t [S W]. split; [exact S|now apply rnode_text_valid].
Qed.

(** ** The trees of valid documents *)
Lemma kana_pairs_valid ms t : valid_json (JObj ms) ->
  Forall (fun e => valid_json (snd e) -> forall n, kana_node (value_of (snd e)) = Ok n -> valid_kn n) ms ->
  collect kana_node (val_map ms) = Ok t -> Forall (fun t => is_scalar (fst t) = true /\ valid_kn (snd t)) t.
Proof.
  intros V IH C. apply Forall_forall. intros [c m] I. apply (collect_In _ _ _ C) in I as (r & v' & I & K).
  apply (val_map_spec ms V) in I as (v & M & ->). destruct (member_valid _ _ _ V M) as [Vk Vv]. cbn [fst snd].
  split; [exact (Forall_inv Vk)|]. exact (member_in (fun v => valid_json v -> forall n, kana_node (value_of v) = Ok n -> valid_kn n) _ _ _ IH M Vv _ K).
Qed.
Lemma kana_node_valid d : valid_json d -> forall n, kana_node (value_of d) = Ok n -> valid_kn n.
Proof.
  induction d as [d NO|ms IH] using json_ind'; intros V n K; [destruct d; try discriminate K; now destruct NO; eexists|].
  rewrite value_of_JObj in K. apply kana_node_is in K as [C T]; [|exact V]. destruct n as [ts o]. cbn [ktrans kout] in *. constructor.
  - exact (kana_pairs_valid ms ts V IH C).
  - intros s ->. destruct (member_valid _ _ _ V T) as [_ W]. now inversion W.
Qed.
Lemma kana_generator_valid d t : valid_json d -> kana_generator d = Ok t -> valid_kn (KNode t None).
Proof.
  intros V G. destruct d as [s|ms| | | |]; try discriminate G. constructor; [|discriminate].
  apply (kana_pairs_valid ms t V); [|exact G]. apply Forall_forall. intros e _. apply kana_node_valid.
Qed.
Lemma romaji_pairs_valid ms t : valid_json (JObj ms) ->
  Forall (fun e => valid_json (snd e) -> forall n, romaji_node (value_of (snd e)) = Ok n -> valid_rn n) ms ->
  collect romaji_node (val_map ms) = Ok t -> Forall (fun t => is_scalar (fst t) = true /\ valid_rn (snd t)) t.
Proof.
  intros V IH C. apply Forall_forall. intros [c m] I. apply (collect_In _ _ _ C) in I as (r & v' & I & K).
  apply (val_map_spec ms V) in I as (v & M & ->). destruct (member_valid _ _ _ V M) as [Vk Vv]. cbn [fst snd].
  split; [exact (Forall_inv Vk)|]. exact (member_in (fun v => valid_json v -> forall n, romaji_node (value_of v) = Ok n -> valid_rn n) _ _ _ IH M Vv _ K).
Qed.
Lemma romaji_node_valid d : valid_json d -> forall n, romaji_node (value_of d) = Ok n -> valid_rn n.
Proof.
  induction d as [d NO|ms IH] using json_ind'; intros V n K; [destruct d; try discriminate K; now destruct NO; eexists|].
  rewrite value_of_JObj in K. apply romaji_node_is in K as [C T]; [|exact V]. destruct n as [ts o]. constructor.
  - intros l ->. exact (romaji_pairs_valid ms l V IH C).
  - destruct (member_valid _ _ _ V T) as [_ W]. now inversion W.
Qed.
Lemma romaji_generator_valid d t : valid_json d -> romaji_generator d = Ok t -> valid_rn (RNode t []).
Proof.
  intros V G. destruct d as [s|ms| | | |]; try discriminate G. apply romaji_run in G as (l & C & _ & ->). constructor; [|constructor].
  intros l' E. assert (l' = l) as -> by (destruct l; [discriminate E|now inversion E]).
  apply (romaji_pairs_valid ms l V); [|exact C]. apply Forall_forall. intros e _. apply romaji_node_valid.
Qed.

(** ** The programs *)
Theorem kana_program_spec h d : valid_json d ->
  kana_program h d = (t <- kana_generator d ;; Ok (encode (kana_text (escape h) t))) /\
  forall t, kana_generator d = Ok t -> valid_str (kana_text (escape h) t).
Proof.
  intro V. split.
  - unfold kana_program. destruct (kana_generator d); [|reflexivity|reflexivity]. cbn [bind]. now rewrite kana_text_eq.
  - intros t G. apply kana_text_valid. exact (kana_generator_valid d t V G).
Qed.
Theorem romaji_program_spec h d : valid_json d ->
  romaji_program h d = (t <- romaji_generator d ;; Ok (encode (romaji_text (escape h) t))) /\
  forall t, romaji_generator d = Ok t -> valid_str (romaji_text (escape h) t).
Proof.
  intro V. split.
  - unfold romaji_program. destruct (romaji_generator d); [|reflexivity|reflexivity]. cbn [bind]. now rewrite romaji_text_eq.
  - intros t G. apply romaji_text_valid. exact (romaji_generator_valid d t V G).
Qed.
Theorem kana_program_back h1 h2 d1 d2 out : valid_json d1 -> valid_json d2 ->
  kana_program h1 d1 = Ok out -> kana_program h2 d2 = Ok out ->
  exists t, kana_generator d1 = Ok t /\ kana_generator d2 = Ok t.
Proof.
  intros V1 V2 P1 P2. destruct (kana_program_spec h1 d1 V1) as [E1 W1], (kana_program_spec h2 d2 V2) as [E2 W2].
  rewrite E1 in P1. rewrite E2 in P2.
  destruct (kana_generator d1) as [t1| |] eqn:G1; try discriminate. destruct (kana_generator d2) as [t2| |] eqn:G2; try discriminate.
  cbn [bind] in P1, P2. exists t1. split; [reflexivity|]. f_equal. symmetry.
  apply (kana_back h1 h2); [exact (kana_generator_valid _ _ V1 G1)|exact (kana_generator_valid _ _ V2 G2)|].
  apply encode_inj; [now apply W1|now apply W2|congruence].
Qed.
Theorem romaji_program_back h1 h2 d1 d2 out : valid_json d1 -> valid_json d2 ->
  romaji_program h1 d1 = Ok out -> romaji_program h2 d2 = Ok out ->
  exists t, romaji_generator d1 = Ok t /\ romaji_generator d2 = Ok t.
Proof.
  intros V1 V2 P1 P2. destruct (romaji_program_spec h1 d1 V1) as [E1 W1], (romaji_program_spec h2 d2 V2) as [E2 W2].
  rewrite E1 in P1. rewrite E2 in P2.
  destruct (romaji_generator d1) as [t1| |] eqn:G1; try discriminate. destruct (romaji_generator d2) as [t2| |] eqn:G2; try discriminate.
  cbn [bind] in P1, P2. exists t1. split; [reflexivity|]. f_equal. symmetry.
  apply (romaji_back h1 h2); [exact (romaji_generator_valid _ _ V1 G1)|exact (romaji_generator_valid _ _ V2 G2)|].
  apply encode_inj; [now apply W1|now apply W2|congruence].
Qed.
