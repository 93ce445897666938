(** * Romaji that survives the way through kana and back: C84 *)
From Coq Require Import Bool.
From Verif Require Import Tac Base Std StdInstances Constants Chars Trees KanaTree RomajiTree Strings Convert
  KanaPure RomajiPure KanaSpec KanaDict KanaProofs Predicates ScriptSpec ScriptProofs ScriptIdem RomajiSpec RomajiProofs MoraProofs Splits TokenSpec
  LibraryProofs ChoiceSpec ChoiceProofs JoinSpec Joins JoinText KanaJoinSpec KanaJoin CompleteSpec Complete FixedSpec Fixed RoundSpec.

Local Opaque rdict.
(** ** The romaji depend on the library by its choice only *)
Lemma R_same E E' a a' : library E a a' -> library E' a a' -> forall h, R E h = R E' h.
Proof.
  intros L L'. induction h as [h IH] using str_ind_len. destruct h as [|c s]; [reflexivity|].
  destruct (first_unit E a a' L c s) as (k & v & rest & Sp & U & C). rewrite Sp in IH |- *.
  rewrite (unit_step E a a' L k v rest U C), (unit_step E' a a' L' k v rest U C). f_equal. apply IH.
  rewrite app_length; apply unit_nonempty in U; destruct k; [congruence|cbn [length]; lia].
Qed.
Lemma choice_library a a' : (a < 5)%nat -> (a' < 5)%nat -> library (std_choice a a') a a'.
Proof.
  intros B B'. destruct (choice_all a a' B B') as [F F'].
  destruct (choice_of _ a a' (std_choice_ok a a') F F') as (m & m' & G & G' & Q & Q').
  exact (library_at _ a a' m m' (std_choice_ok a a') G G' Q Q').
Qed.

(** ** Upper case letters, x and l: they are in no romaji reading *)
Definition dirty (c : N) : bool := is_AZ c || mem c (u "xl").
Definition count (s : str) : nat := length (filter dirty s).
Lemma count_app a b : count (a ++ b) = (count a + count b)%nat.
Proof. unfold count. now rewrite filter_app, app_length. Qed.
Lemma count_zero s : count s = 0%nat <-> forall c, In c s -> dirty c = false.
Proof.
  unfold count. induction s as [|c s IH]; [split; [intros _ c []|reflexivity]|]. cbn [filter]. destruct (dirty c) eqn:D; cbn [length].
  - split; [discriminate|]. intro H. rewrite (H c (or_introl eq_refl)) in D. discriminate D.
  - rewrite IH. split; [|auto using in_cons]. intros H x [<-|I]; auto.
    all: try (intros x I; apply H; now right).
Qed.
Lemma dirty_ascii c : 0x80 <= c -> dirty c = false.
Proof.
  intro H. unfold dirty, is_AZ, mem. change (u "xl") with [0x78; 0x6C]. cbn [existsb]. repeat (rewrite orb_false_iff || split); try reflexivity.
  - apply andb_false_iff. right. apply N.leb_gt. lia.
  - apply N.eqb_neq. lia.
  - apply N.eqb_neq. lia.
Qed.
Definition readings_clean : bool := forallb (fun e => Nat.eqb (count (fst e)) 0 && Nat.eqb (count (snd e)) 0) rdict.
Lemma readings_clean_true : readings_clean = true.
Proof. vm_compute. reflexivity. Qed.
Lemma reading_clean k v : r_entry k v -> count k = 0%nat /\ count v = 0%nat.
Proof.
  intro I. pose proof readings_clean_true as F. unfold readings_clean in F. rewrite forallb_forall in F. specialize (F _ I). cbn [fst snd] in F.
  apply andb_prop in F. destruct F as [F G]. apply Nat.eqb_eq in F, G. auto.
Qed.
Lemma count_rconv E : std_ok E -> forall s o, count (rconv E false o s) = count s.
Proof.
  intro HE. induction s as [s IH] using str_ind_len. intro o. destruct s as [|c s]; [now rewrite rconv_nil|].
  destruct (rconv_step E false o c s HE) as [(seg & rest & v & Sp & Ns & I & M & ->)|[O ->]].
  - rewrite Sp, !count_app. destruct (reading_clean _ _ I) as [-> Cv]. rewrite noup, Cv. apply IH.
    rewrite Sp, app_length. destruct seg; [congruence|cbn [length]; lia].
  - change (c :: rconv E false (skipn 1 o) s) with ([c] ++ rconv E false (skipn 1 o) s). change (c :: s) with ([c] ++ s).
    rewrite !count_app. f_equal. apply IH. cbn; lia.
Qed.
Lemma mark_clean o k p : (o = u "お" \/ o = u "う") -> mark_vowel o k p -> count p = 0%nat.
Proof.
  intros O (row & I & _). assert (F : forallb (fun e => Nat.eqb (count (snd e)) 0) (mark_table o) = true) by (destruct O; subst o; vm_compute; reflexivity).
  rewrite forallb_forall in F. specialize (F _ I). now apply Nat.eqb_eq in F.
Qed.
Lemma count_text o a s t : (o = u "お" \/ o = u "う") -> hiragana_text o a s t -> (count t <= count s)%nat.
Proof.
  intros O H. induction H as [|a c s p t P H IH]; [reflexivity|]. change (c :: s) with ([c] ++ s). rewrite !count_app.
  assert (count p <= count [c])%nat; [|lia]. destruct P as [(_ & h & F & ->)|[(_ & k & _ & M)|(-> & _ & ->)]].
  - unfold count. cbn [filter]. destruct (dirty h) eqn:D; [|cbn; lia]. destruct (dirty c) eqn:D'; [reflexivity|]. exfalso.
    unfold hiragana_for in F. assert (h = c \/ 0x80 <= h) as [->|B]; [|congruence|rewrite dirty_ascii in D by exact B; discriminate D].
    revert F. change (ch "わ") with 0x308F. change (ch "ゐ") with 0x3090. change (ch "ゑ") with 0x3091. change (ch "を") with 0x3092. clear. lia.
  - apply (mark_clean o k p O) in M. lia.
  - reflexivity.
Qed.
Lemma count_romaji E s : std_ok E -> (count (rconv E false s (k2h E true s)) <= count s)%nat.
Proof.
  intro HE. rewrite count_rconv by exact HE. apply (count_text (o_vowel true) []); [now left|]. now apply k2h_text.
Qed.

(** ** Texts read without such letters *)
Inductive clean (m : mode) : str -> Prop :=
| CL_nil : clean m []
| CL_left c q s : longest m q (c :: s) -> (forall v, ~ entry m (low q) v) -> clean m s -> clean m (c :: s)
| CL_key q v s : longest m q (q ++ s) -> entry m q v -> count q = 0%nat -> clean m s -> clean m (q ++ s).
Lemma clean_low q : count q = 0%nat -> low q = q /\ forall v, q <> [] -> emit q v = v.
Proof.
  intro H. rewrite count_zero in H.
  assert (A : forall c, In c q -> is_AZ c = false) by (intros c I; specialize (H c I); unfold dirty in H; now apply orb_false_elim in H).
  split; [apply casing_low; now apply casing_lower|]. intros v N. now apply emit_low_text.
Qed.
Lemma emit_count m k v q : entry m k v -> count (emit q v) = 0%nat.
Proof.
  intro I. apply count_zero. intros c J. apply dirty_ascii.
  assert (F : forallb (fun e => forallb (fun c => 0x80 <=? c) (snd e)) (dict m) = true) by (destruct m; vm_compute; reflexivity).
  rewrite forallb_forall in F. specialize (F _ I). rewrite forallb_forall in F. cbn [snd] in F.
  unfold emit in J. destruct (forallb is_AZ q); [|now apply N.leb_le, F].
  unfold h2k in J. apply in_map_iff in J. destruct J as (d & <- & J). apply F, N.leb_le in J.
  destruct (h2k_char_cases d) as [->|[_ ->]]; [exact J|lia].
Qed.
Lemma count_conv m s : (count (conv m s) <= count s)%nat /\ (count (conv m s) = count s -> clean m s).
Proof.
  induction s as [s IH] using str_ind_len. destruct s as [|c s]; [split; [|constructor]; assert (conv m [] = []) as -> by apply kconv_nil; lia|].
  destruct (longest_exists m (c :: s)) as (q & L). destruct (entry_dec m (low q)) as [[v I]|I].
  - destruct (proj1 L) as (t & Q). rewrite Q in IH, L |- *. rewrite (conv_hit m q t v L I), !count_app, (emit_count m _ v q I).
    pose proof (keys_nonempty _ _ _ I) as Nq. destruct (IH t) as [B C].
    { rewrite app_length. destruct q; [now contradiction Nq|cbn [length]; lia]. }
    split; [lia|]. intro K. assert (Z : count q = 0%nat) by lia. apply (CL_key m q v t L).
    + destruct (clean_low q Z) as [Lq _]. now rewrite Lq in I.
    + exact Z.
    + apply C. lia.
  - rewrite (conv_miss m q c s L I).
    assert (forall t, count (c :: t) = (count [c] + count t)%nat) as K by (intro t; exact (count_app [c] t)). rewrite (K (conv m s)), (K s). clear K.
    destruct (IH s) as [B C]; [cbn; lia|]. split; [lia|]. intro K. apply (CL_left m c q s L I), C. lia.
Qed.
Lemma clean_conv_key m q v s : longest m q (q ++ s) -> entry m q v -> count q = 0%nat -> conv m (q ++ s) = v ++ conv m s.
Proof.
  intros L I Z. destruct (clean_low q Z) as [Lq Em]. rewrite (conv_hit m q s v L); [|now rewrite Lq].
  rewrite Em; [reflexivity|]. now apply keys_nonempty in I.
Qed.

(** ** Finite facts about the keys *)
Definition n_keys4 : list str := [u "n"; u "n'"; u "nn"; u "n "].
Definition n_rest : str := u "n' ".
Definition last_is (c : N) (v : str) : bool := last v 0 =? c.
Definition not_katakana_b (c : N) : bool := negb ((0x30A1 <=? c) && (c <=? 0x30FA)).
Definition shape_b (e : str * str) : bool :=
  negb (Nat.eqb (count (fst e)) 0) ||
  (match snd e with b :: _ => negb (mem b smalls) && (negb (mem b after_n) || negb (entry_b (snd e) (fst e)) || first_in (u "aiueoy") (fst e)) | [] => false end
   && negb (last_is tsu (snd e)) && forallb not_katakana_b (snd e)
   && (if str_eqb (snd e) [nn] then existsb (str_eqb (fst e)) n_keys4 else negb (last_is nn (snd e)))).
Definition shapes (m : mode) : bool := forallb shape_b (dict m).
Lemma shapes_true m : shapes m = true.
Proof. destruct m; vm_compute; reflexivity. Qed.
Definition two_way_b (a a' : nat) (t : bool) (e : str * str) : bool :=
  t && (match snd e with
   | b :: y => (negb (b =? vu) || Nat.eqb a 0) && (negb (b =? tsu) || match y with c :: _ => negb (c =? vu) || Nat.eqb a' 0 | [] => true end)
   | [] => true end).
Definition reads_b (a a' : nat) (e : str * str) (t : bool) : bool :=
  let q := fst e in let x := R (std_choice a a') (snd e) in
  negb (Nat.eqb (count q) 0) || str_eqb (snd e) [nn] ||
  (Bool.eqb (str_eqb x q) (two_way_b a a' t e)
   && (str_eqb x q || diverge x q || existsb (fun c => str_eqb x (q ++ [c])) (u "aieo"))
   && match x with
      | [] => false
      | [b] => negb (mem b n_rest)
      | b :: c :: _ => negb (mem b n_rest) || (negb (mem c n_rest) && first_in n_rest q)
      end
   && (negb (first_in (u "aieo") q) || (match q with [_] => str_eqb x q | _ => false end))).
Definition reads_ok (m : mode) : bool :=
  let d := map (fun e => (e, entry_b (snd e) (fst e))) (dict m) in
  forallb (fun a => forallb (fun a' => forallb (fun x => reads_b a a' (fst x) (snd x)) d) (seq 0 5)) (seq 0 5).
Lemma reads_ok_true m : reads_ok m = true.
Proof. destruct m; vm_cast_no_check (eq_refl true). Qed.

Lemma str_eqb_refl s : str_eqb s s = true.
Proof. now apply str_eqb_eq. Qed.
Lemma mem_false c l : negb (mem c l) = true <-> ~ In c l.
Proof. rewrite negb_true_iff. apply mem_not. Qed.
Lemma or_zero n b : negb (Nat.eqb n 0) || b = true -> n = 0%nat -> b = true.
Proof. intros H ->. exact H. Qed.
Lemma key_shape m q v : entry m q v -> count q = 0%nat ->
  (exists b y, v = b :: y /\ ~ In b smalls /\ (In b after_n -> r_entry v q -> exists c q', q = c :: q' /\ In c (u "aiueoy"))) /\
  (forall x, v <> x ++ [tsu]) /\ (forall c, In c v -> ~ katakana_letter c) /\
  ((v = [nn] /\ In q n_keys4) \/ (v <> [nn] /\ forall x, v <> x ++ [nn])).
Proof.
  intros I Z. pose proof (shapes_true m) as F. unfold shapes in F. rewrite forallb_forall in F. specialize (F _ I).
  unfold shape_b in F. cbn [fst snd] in F. apply or_zero in F; [|exact Z].
  apply andb_prop in F. destruct F as [F F4]. apply andb_prop in F. destruct F as [F F3]. apply andb_prop in F. destruct F as [F1 F2].
  split; [|split; [|split]].
  - destruct v as [|b y]; [discriminate F1|]. apply andb_prop in F1. destruct F1 as [A B]. exists b, y. split; [reflexivity|].
    split; [now apply mem_false|]. intros J K. apply orb_prop in B. destruct B as [B|B].
    + apply orb_prop in B. destruct B as [B|B]; [apply mem_false in B; contradiction|]. apply negb_true_iff in B.
      assert (entry_b (b :: y) q = true); [|congruence]. apply existsb_exists. exists (b :: y, q). split; [exact K|]. cbn [fst snd]. now rewrite !str_eqb_refl.
    + destruct q as [|c q]; [discriminate B|]. exists c, q. split; [reflexivity|]. now apply existsb_In.
  - intros x ->. unfold last_is in F2. rewrite last_last, N.eqb_refl in F2. discriminate F2.
  - intros c J. rewrite forallb_forall in F3. apply F3 in J. unfold not_katakana_b in J. apply negb_true_iff, andb_false_iff in J.
    unfold katakana_letter. rewrite !N.leb_gt in J. lia.
  - destruct (str_eqb v [nn]) eqn:V.
    + left. apply str_eqb_eq in V. split; [exact V|]. apply existsb_exists in F4. destruct F4 as (k & J & K). apply str_eqb_eq in K. now subst.
    + right. split; [intros ->; now rewrite str_eqb_refl in V|]. intros x ->. unfold last_is in F4. rewrite last_last, N.eqb_refl in F4. discriminate F4.
Qed.

Section Round.
  Context (E : std) (a a' : nat) (L : library E a a').
  Context (rv rtv : str) (Hv : rv = u "vu" <-> a = 0%nat) (Hv' : rtv = u "vvu" <-> a' = 0%nat).
  Notation R := (R E).
  Lemma R_nil : R [] = [].
  Proof. apply rconv_nil. Qed.
  Lemma key_reads m q v : entry m q v -> count q = 0%nat -> v <> [nn] ->
    (R v = q <-> two_way m rv rtv q v) /\
    (R v = q \/ diverge (R v) q = true \/ exists c, In c (u "aieo") /\ R v = q ++ [c]) /\
    (exists b x, R v = b :: x /\ (In b n_rest -> exists c x', x = c :: x' /\ ~ In c n_rest /\ exists d q', q = d :: q' /\ In d n_rest)) /\
    (forall c q', q = c :: q' -> In c (u "aieo") -> q' = [] /\ R v = [c]).
  Proof.
    intros I Z V. pose proof (reads_ok_true m) as F. unfold reads_ok in F.
    pose proof (lib_r _ _ _ L) as Ba. pose proof (lib_r' _ _ _ L) as Ba'.
    rewrite forallb_forall in F. specialize (F a ltac:(apply in_seq; lia)). rewrite forallb_forall in F. specialize (F a' ltac:(apply in_seq; lia)).
    rewrite forallb_forall in F. specialize (F ((q, v), entry_b v q)). cbn [fst snd] in F.
    assert (reads_b a a' (q, v) (entry_b v q) = true) as G.
    { apply F. apply in_map_iff. exists (q, v). split; [reflexivity|exact I]. }
    clear F. unfold reads_b in G. cbn [fst snd] in G. rewrite <- (R_same E _ a a' L (choice_library a a' Ba Ba') v) in G.
    rewrite <- orb_assoc in G. apply or_zero in G; [|exact Z]. apply orb_prop in G. destruct G as [G|G]; [apply str_eqb_eq in G; contradiction|].
    apply andb_prop in G. destruct G as [G G4]. apply andb_prop in G. destruct G as [G G3]. apply andb_prop in G. destruct G as [G1 G2].
    split; [|split; [|split]].
    - apply eqb_prop in G1.
      assert (R v = q <-> two_way_b a a' (entry_b v q) (q, v) = true) as -> by (rewrite <- G1; symmetry; apply str_eqb_eq).
      clear G1 G2 G3 G4. unfold two_way_b, two_way. cbn [snd]. rewrite andb_true_iff.
      assert (entry_b v q = true <-> r_entry v q) as ->.
      { split; [apply entry_b_true|]. intro K. apply existsb_exists. exists (v, q). split; [exact K|]. cbn [fst snd]. now rewrite !str_eqb_refl. }
      change (ch "ゔ") with vu. change (ch "っ") with tsu. rewrite Hv, Hv'.
      assert (forall X Y Y' : Prop, (Y <-> Y') -> (X /\ Y <-> entry m q v /\ X /\ Y')) as K by (clear -I; tauto). apply K. clear K I Z V.
      destruct v as [|b y]; [split; [intros _; split; intros [y Q]; discriminate Q|reflexivity]|].
      rewrite andb_true_iff, !orb_true_iff, !negb_true_iff, !N.eqb_neq, Nat.eqb_eq.
      assert (b <> vu \/ a = 0%nat <-> ((exists y0, b :: y = vu :: y0) -> a = 0%nat)) as ->.
      { split; [intros [H|H] [y0 Q]; congruence|]. intro H. destruct (N.eq_dec b vu) as [->|]; [right; apply H; now exists y|now left]. }
      assert (b <> tsu \/ match y with [] => true | c :: _ => negb (c =? vu) || Nat.eqb a' 0 end = true
        <-> ((exists y0, b :: y = tsu :: vu :: y0) -> a' = 0%nat)) as ->; [|reflexivity].
      split.
      + intros [H|H] [y0 Q]; [congruence|]. injection Q as -> ->. rewrite N.eqb_refl in H. now apply Nat.eqb_eq.
      + intro H. destruct (N.eq_dec b tsu) as [->|]; [right|now left]. destruct y as [|c y]; [reflexivity|].
        destruct (N.eqb_spec c vu) as [->|]; [|reflexivity]. cbn [negb orb]. apply Nat.eqb_eq, H. now exists y.
    - apply orb_prop in G2. destruct G2 as [G2|G2]; [apply orb_prop in G2; destruct G2 as [G2|G2]; [left; now apply str_eqb_eq|right; now left]|].
      right. right. apply existsb_exists in G2. destruct G2 as (c & Ic & Q). apply str_eqb_eq in Q. now exists c.
    - destruct (R v) as [|b [|c x]]; [discriminate G3| |].
      + exists b, []. split; [reflexivity|]. intro K. apply mem_false in G3. contradiction.
      + exists b, (c :: x). split; [reflexivity|]. intro K. apply orb_prop in G3. destruct G3 as [G3|G3]; [apply mem_false in G3; contradiction|].
        apply andb_prop in G3. destruct G3 as [G3 G5]. exists c, x. split; [reflexivity|]. split; [now apply mem_false|].
        destruct q as [|d q]; [discriminate G5|]. exists d, q. split; [reflexivity|]. now apply existsb_In.
    - intros c q' -> Ic. apply orb_prop in G4. destruct G4 as [G4|G4].
      + apply negb_true_iff in G4. cbn [first_in] in G4. apply mem_not in G4. contradiction.
      + destruct q'; [|discriminate G4]. apply str_eqb_eq in G4. auto.
  Qed.

  (** ** One step of the way back *)
  Lemma inert_not_kana c : inert c -> ~ In c smalls /\ ~ In c after_n.
  Proof.
    intro H. assert (F : forallb romanised_b (smalls ++ after_n) = true) by (vm_compute; reflexivity). rewrite forallb_forall in F.
    apply inert_spec in H. split; intro J; apply H, romanised_spec, F, in_or_app; auto.
  Qed.
  (** what stands at the beginning of the kana *)
  Lemma clean_head m s : clean m s -> (forall c, In c s -> inert c) -> forall b t, conv m s = b :: t -> ~ In b smalls.
  Proof.
    intros C N b t Q. destruct C as [|c q s Lq I C|q v s Lq I Z C].
    - assert (conv m [] = []) as K by apply kconv_nil. congruence.
    - rewrite (conv_miss m q c s Lq I) in Q. injection Q as <- _. apply inert_not_kana, N. now left.
    - rewrite (clean_conv_key m q v s Lq I Z) in Q. destruct (key_shape m q v I Z) as ((b0 & y & -> & Sm & _) & _).
      injection Q as <- _. exact Sm.
  Qed.
  Lemma R_key m q v t : entry m q v -> count q = 0%nat -> v <> [nn] -> (forall b t', t = b :: t' -> ~ In b smalls) -> R (v ++ t) = R v ++ R t.
  Proof.
    intros I Z V T. destruct t as [|b t]; [now rewrite R_nil, !app_nil_r|].
    specialize (T b t eq_refl). destruct (key_shape m q v I Z) as ((b0 & y & Q & _) & S1 & _ & S2).
    pose proof (parts_hiragana E a a' L rv rtv Hv Hv' [v; b :: t]) as P.
    cbn [concat map] in P. rewrite !app_nil_r in P. apply P; clear P.
    - repeat constructor; [rewrite Q|]; discriminate.
    - intros pre z post K F. assert (pre = [v] /\ z = b :: t \/ pre = []) as [[-> ->]| ->].
      { destruct pre as [|p [|p' pre]]; [now right| |].
        - injection K as <- <- _. now left.
        - injection K as _ _ K. destruct pre; discriminate K. }
      2:{ cbn in F. inversion F as [x c ? B X|x c ? B X|x c ? X' B X|x d c ? A' B X|x c ? X' X'' B X|x c ? X' B X]; destruct x; discriminate X. }
      cbn [concat] in F. rewrite app_nil_r in F. apply (fuses_inv a a' rv rtv Hv Hv') in F.
      destruct F as [(x & c & y' & X & _)|[(x & c & y' & X & _)|[(x & c & y' & X & _)|[(x & d & c & y' & _ & X & _ & B)|[(x & c & y' & _ & _ & X & B & _)|(x & c & y' & _ & X & B & _)]]]]].
      + exact (S1 x X).
      + exact (S1 x X).
      + destruct S2 as [[S2 _]|[_ S2]]; [contradiction|exact (S2 x X)].
      + injection X as -> _. contradiction.
      + injection X as -> _. contradiction.
      + injection X as -> _. contradiction.
  Qed.
  Lemma R_left c t : inert c -> R (c :: t) = c :: R t.
  Proof. intros [H _]. apply (lib_miss _ _ _ L). intros v J. apply ent_entry in J. exact (H v J). Qed.
  Lemma R_n_alone t : (forall b t', t = b :: t' -> ~ In b after_n) -> R (nn :: t) = ch "n" :: R t.
  Proof.
    intro H. assert (ent a a' [nn] (u "n")) as I by (apply entry_b_ent; vm_compute; reflexivity).
    change (nn :: t) with ([nn] ++ t). rewrite (unit_step E a a' L [nn] (u "n") t (or_introl I)); [reflexivity|].
    intros d t' w Q J. apply (H d t' Q). destruct (crossing E a a' L [nn] d w J) as [[K _]|[[_ K]|[(x & [K|K] & B & _)|[[K _]|[K _]]]]]; try discriminate K; try discriminate.
    - exact K.
    - injection K as <-. now apply nn_base in B.
  Qed.
  Lemma R_n_vowel b t : In b after_n -> R (nn :: b :: t) = u "n'" ++ R (b :: t) /\ exists x l, R (b :: t) = x :: l /\ In x (u "aiueoy").
  Proof.
    intro B. split; [|exact (after_n_entry E a a' L b t B)].
    assert (forallb (fun b => existsb (fun w => entry_b [nn; b] (u "n'" ++ w) && entry_b [b] w && negb (mem b (tsu :: nn :: vu :: bases))) (words (u "a i u e o ya yu yo"))) after_n = true) as K
      by (vm_compute; reflexivity).
    rewrite forallb_forall in K. specialize (K _ B). apply existsb_exists in K. destruct K as (w & _ & K).
    apply andb_prop in K. destruct K as [K K3]. apply andb_prop in K. destruct K as [K1 K2]. apply mem_false in K3.
    assert (b <> vu) as Vb by (intros ->; apply K3; right; right; now left).
    assert (ent a a' [nn; b] (u "n'" ++ w)) as I1.
    { apply entry_ent; [now apply entry_b_true|]. intros [Z|[Z|[]]]; [discriminate Z|congruence]. }
    assert (ent a a' [b] w) as I2 by (apply entry_ent; [now apply entry_b_true|intros [Z|[]]; congruence]).
    change (nn :: b :: t) with ([nn; b] ++ t). change (b :: t) with ([b] ++ t).
    rewrite (unit_step E a a' L [nn; b] _ t (or_introl I1)), (unit_step E a a' L [b] w t (or_introl I2)); [now rewrite app_assoc| |].
    - intros d q w' Qd J. destruct (crossing E a a' L [b] d w' J) as [[Z _]|[[Z _]|[(x & [Z|Z] & Bx & _)|[[Z _]|[Z _]]]]]; try discriminate Z; try discriminate;
        injection Z as ->; apply K3; cbn [In]; auto.
    - intros d q w' Qd J. destruct (crossing E a a' L [nn; b] d w' J) as [[Z _]|[[Z _]|[(x & [Z|Z] & Bx & _)|[[Z _]|[Z _]]]]]; try discriminate Z; try discriminate.
  Qed.
  Lemma after_n_dec (t : str) : (exists b t', t = b :: t' /\ In b after_n) \/ forall b t', t = b :: t' -> ~ In b after_n.
  Proof.
    destruct t as [|b t]; [right; discriminate|]. destruct (in_dec N.eq_dec b after_n) as [I|I]; [left; eauto|right]. intros ? ? [= <- _]. exact I.
  Qed.

  Lemma n_key_letters q : In q n_keys4 -> exists w, q = ch "n" :: w /\ Forall (fun c => In c n_rest) w /\ Forall (fun c => In c n_rest) q.
  Proof.
    assert (F : forallb (fun q => match q with c :: w => (c =? ch "n") && forallb (fun c => mem c n_rest) (c :: w) | [] => false end) n_keys4 = true) by (vm_compute; reflexivity).
    rewrite forallb_forall in F. intro I. specialize (F q I). destruct q as [|c w]; [discriminate F|]. apply andb_prop in F. destruct F as [F G].
    apply N.eqb_eq in F. subst c. exists w. split; [reflexivity|].
    assert (Forall (fun c => In c n_rest) (ch "n" :: w)) as K by (apply Forall_forall; intros x J; rewrite forallb_forall in G; now apply mem_In, G).
    split; [now inversion K|exact K].
  Qed.
  Lemma vowel_not_rest x : In x (u "aiueoy") -> ~ In x n_rest.
  Proof.
    assert (F : forallb (fun c => negb (mem c n_rest)) (u "aiueoy") = true) by (vm_compute; reflexivity).
    rewrite forallb_forall in F. intro I. now apply mem_false, F.
  Qed.
  Lemma clean_inert_tail (P : N -> Prop) x y : (forall c : N, In c (x ++ y) -> P c) -> forall c, In c y -> P c.
  Proof. intros H c I. apply H, in_or_app. now right. Qed.
  (** the romaji can't be ahead of the text by ', n or a space ... *)
  Lemma not_ahead m s : clean m s -> (forall c, In c s -> inert c) -> forall w, w <> [] -> Forall (fun c => In c n_rest) w -> R (conv m s) <> w ++ s.
  Proof.
    induction 1 as [|c q s Lq I C IH|q v s Lq I Z C IH]; intros N w Nw W Q.
    - assert (conv m [] = []) as K by apply kconv_nil. rewrite K, R_nil, app_nil_r in Q. congruence.
    - rewrite (conv_miss m q c s Lq I), R_left in Q by (apply N; now left). destruct w as [|x w]; [congruence|]. injection Q as -> Q.
      inversion W as [|? ? W1 W2]; subst. refine (IH (fun c J => N c (or_intror J)) (w ++ [x]) _ _ _).
      + now destruct w.
      + apply Forall_app. split; [exact W2|]. now constructor.
      + rewrite <- app_assoc. exact Q.
    - specialize (IH (clean_inert_tail _ q s N)). rewrite (clean_conv_key m q v s Lq I Z) in Q.
      destruct (key_shape m q v I Z) as (_ & _ & _ & [[-> Nq]|[V _]]).
      + destruct (n_key_letters q Nq) as (q' & Q' & Wq' & Wq). cbn [app] in Q. destruct (after_n_dec (conv m s)) as [(b & t & T & B)|T].
        * rewrite T in Q. destruct (R_n_vowel b t B) as [K (x & l & X & Ix)]. rewrite K, X in Q. clear K.
          apply vowel_not_rest in Ix. destruct w as [|w1 [|w2 [|w3 w]]]; [congruence| | |].
          -- rewrite Q' in Q. injection Q as _ Q _. discriminate Q.
          -- rewrite Q' in Q. injection Q as _ _ Q _. apply Ix. rewrite Q. now left.
          -- injection Q as _ _ Q _. apply Ix. rewrite Q. inversion W as [|? ? _ W2]. inversion W2 as [|? ? _ W3]. now inversion W3.
        * rewrite (R_n_alone _ T) in Q. destruct w as [|x w]; [congruence|]. injection Q as _ Q. rewrite app_assoc in Q. revert Q. apply IH.
          -- rewrite Q'. now destruct w.
          -- apply Forall_app. split; [now inversion W|exact Wq].
      + rewrite (R_key m q v _ I Z V) in Q by (apply (clean_head m s C), (clean_inert_tail _ q s N)).
        destruct (key_reads m q v I Z V) as (_ & _ & (b & x & X & H) & _). rewrite X in Q. destruct w as [|w1 w]; [congruence|].
        inversion W as [|? ? W1 W2]; subst. injection Q as -> Q. destruct (H W1) as (c & x' & -> & Nc & d & q' & -> & Id).
        cbn [app] in Q. destruct w as [|w2 w]; injection Q as -> Q; [contradiction|]. apply Nc. now inversion W2.
  Qed.
  (** ... or behind it by a vowel *)
  Lemma vowel_key m c s q : In c (u "aieo") -> longest m q (c :: s) -> exists v, entry m (low q) v.
  Proof.
    intros Ic Lq.
    assert (F : forallb (fun c => existsb (fun e => str_eqb (fst e) [c]) (dict m) && (ascii_lower c =? c) && negb (c =? ch "n")) (u "aieo") = true) by (destruct m; vm_compute; reflexivity).
    rewrite forallb_forall in F. specialize (F c Ic). apply andb_prop in F. destruct F as [F Nn]. apply andb_prop in F. destruct F as [F Lc].
    apply N.eqb_eq in Lc. apply negb_true_iff, N.eqb_neq in Nn. apply existsb_exists in F. destruct F as ([k v] & I & K). cbn [fst] in K. apply str_eqb_eq in K. subst k.
    assert (low [c] = [c]) as Lw by (cbn; now rewrite Lc).
    assert (viable m [c]) as V by (apply (entry_viable m [c] v); now rewrite Lw).
    pose proof (proj2 (proj2 Lq) [c] s eq_refl V) as B. destruct (proj1 Lq) as (t & Q).
    destruct q as [|c' q]; [cbn in B; lia|]. injection Q as <- Q. pose proof (proj1 (proj2 Lq)) as Vq. apply viable_entry in Vq.
    destruct Vq as (k & v' & J). change (c :: q) with ([c] ++ q) in J. rewrite low_app, Lw, <- app_assoc in J.
    apply (only_n_extended m _ v I) in J; [|intros [= K]; contradiction]. apply app_eq_nil in J. destruct J as [J _].
    destruct q; [|discriminate J]. exists v. now rewrite Lw.
  Qed.
  Lemma not_behind m s : clean m s -> (forall c, In c s -> inert c) -> forall c, In c (u "aieo") -> s <> c :: R (conv m s).
  Proof.
    induction 1 as [|d q s Lq I C IH|q v s Lq I Z C IH]; intros N c Ic Q.
    - discriminate Q.
    - injection Q as -> _. destruct (vowel_key m c s q Ic Lq) as [v J]. exact (I v J).
    - specialize (IH (clean_inert_tail _ q s N)). rewrite (clean_conv_key m q v s Lq I Z) in Q.
      pose proof (keys_nonempty _ _ _ I) as Nq. destruct q as [|d q]; [congruence|]. injection Q as -> Q.
      destruct (key_shape m (c :: q) v I Z) as (_ & _ & _ & [[_ Kq]|[V _]]).
      { destruct (n_key_letters _ Kq) as (q' & [= -> _] & _). revert Ic. vm_compute. intuition discriminate. }
      destruct (key_reads m _ v I Z V) as (_ & _ & _ & H). destruct (H c q eq_refl Ic) as [-> Rv].
      rewrite (R_key m _ v _ I Z V), Rv in Q by (apply (clean_head m s C), (clean_inert_tail _ [c] s N)).
      cbn [app] in Q. exact (IH c Ic Q).
  Qed.

  (** ** There and back *)
  Lemma two_way_clean m k v : two_way m rv rtv k v -> count k = 0%nat.
  Proof. intros (_ & I & _). now apply reading_clean in I. Qed.
  Lemma two_way_n m k v : two_way m rv rtv k v -> k <> u "n" -> v <> [nn].
  Proof.
    intros (_ & I & _) N ->. assert (F : forallb (fun e => negb (str_eqb (fst e) [nn]) || str_eqb (snd e) (u "n")) rdict = true) by (vm_compute; reflexivity).
    rewrite forallb_forall in F. specialize (F _ I). cbn [fst snd] in F. rewrite str_eqb_refl in F. cbn in F. apply str_eqb_eq in F. contradiction.
  Qed.
  Lemma two_way_vowel m k b y : two_way m rv rtv k (b :: y) -> In b after_n -> k <> u "n".
  Proof.
    intros (_ & I & _) B ->. revert B.
    assert (F : forallb (fun e => negb (str_eqb (snd e) (u "n")) || negb (first_in after_n (fst e))) rdict = true) by (vm_compute; reflexivity).
    rewrite forallb_forall in F. specialize (F _ I). cbn [fst snd] in F. rewrite str_eqb_refl in F. cbn [negb orb first_in] in F. now apply mem_false.
  Qed.
  Lemma alone m k s v : entry m k v -> k <> u "n" -> count k = 0%nat -> longest m k (k ++ s).
  Proof.
    intros I N Z. destruct (clean_low k Z) as [Lk _]. split; [now exists s|]. split; [apply (entry_viable m k v); now rewrite Lk|].
    intros p' r' Q V. destruct (Nat.le_gt_cases (length p') (length k)) as [B|B]; [exact B|].
    destruct (app_cut k s p' r' Q ltac:(lia)) as (e & -> & _). apply viable_entry in V. destruct V as (x & w & J).
    rewrite low_app, Lk, <- app_assoc in J. apply (only_n_extended m k v I N) in J. apply app_eq_nil in J. destruct J as [J _].
    destruct e; [|discriminate J]. rewrite app_nil_r. lia.
  Qed.
  Lemma n_alone m s : m <> Ime -> (forall c s', s = c :: s' -> ~ n_follow c) -> longest m (u "n") (u "n" ++ s).
  Proof.
    intros Hm H. split; [now exists s|]. split; [apply (entry_viable m (u "n") (u "ん")); now apply KanaJoin.n_key|].
    intros p' r' Q V. destruct (Nat.le_gt_cases (length p') 1) as [B|B]; [exact B|]. exfalso.
    destruct p' as [|x [|d p']]; [cbn in B; lia|cbn in B; lia|]. injection Q as <- ->. apply (H d _ eq_refl).
    apply viable_entry in V. destruct V as (k & w & J). cbn [low map app] in J. exists (ascii_lower d). split; [now apply lowers_lower|].
    exact (key_n_follow m _ _ _ Hm J).
  Qed.
  Lemma apostrophe_key m : entry m (u "n'") (u "ん").
  Proof. apply pair_mem_In. destruct m; vm_compute; reflexivity. Qed.
  Lemma survives_clean m s : survives m rv rtv s -> clean m s.
  Proof.
    induction 1 as [|c p s Lp I Nc S IH|k v s T N S IH|s Hm H S IH|k b y s T B S IH].
    - constructor.
    - apply (CL_left m c p s Lp); [|exact IH]. intros v J. exact (I (low p) v (proj2 (casing_low _ _) eq_refl) J).
    - pose proof (two_way_clean m k v T) as Z. destruct T as (I & _). exact (CL_key m k v s (alone m k s v I N Z) I Z IH).
    - apply (CL_key m (u "n") (u "ん") s); [now apply n_alone|now apply KanaJoin.n_key|reflexivity|exact IH].
    - pose proof (two_way_clean m k _ T) as Z. pose proof (two_way_vowel m k b y T B) as N.
      destruct T as (I & _). apply (CL_key m (u "n'") (u "ん")); [|apply apostrophe_key|reflexivity|].
      + apply (alone m _ _ _ (apostrophe_key m)); [discriminate|reflexivity].
      + exact (CL_key m k _ s (alone m k s _ I N Z) I Z IH).
  Qed.
  Lemma survives_inert m s : survives m rv rtv s -> forall c, In c s -> inert c.
  Proof.
    assert (K : forall k v, r_entry v k -> forall c, In c k -> inert c).
    { intros k v I c J. destruct (r_out_inert v k false [] c I) as (A & B & _); [now rewrite noup|]. split; [exact A|now left]. }
    assert (F : forall c, In c (u "n'") -> inert c).
    { intros c J. apply inert_spec. intro H. apply romanised_spec in H. revert c J H.
      assert (G : forallb (fun c => negb (romanised_b c)) (u "n'") = true) by (vm_compute; reflexivity). rewrite forallb_forall in G.
      intros c J H. apply G in J. rewrite H in J. discriminate J. }
    induction 1 as [|c p s Lp I Nc S IH|k v s T N S IH|s Hm H S IH|k b y s T B S IH]; intros x J.
    - contradiction.
    - destruct J as [<-|J]; [now apply inert_spec|exact (IH x J)].
    - apply in_app_or in J. destruct J as [J|J]; [|exact (IH x J)]. destruct T as (_ & T & _). exact (K k v T x J).
    - destruct J as [<-|J]; [apply F; now left|exact (IH x J)].
    - apply in_app_or in J. destruct J as [J|J]; [exact (F x J)|]. apply in_app_or in J. destruct J as [J|J]; [|exact (IH x J)].
      destruct T as (_ & T & _). exact (K k _ T x J).
  Qed.
  Lemma survives_head m s : survives m rv rtv s -> (forall c s', s = c :: s' -> ~ n_follow c) -> forall b t, conv m s = b :: t -> ~ In b after_n.
  Proof.
    intros S H b t Q B. destruct S as [|c p s Lp I Nc S|k v s T Nk S|s Hm' Hn S|k b' y s T B' S].
    - assert (conv m [] = []) as K by apply kconv_nil. congruence.
    - rewrite (conv_miss m p c s Lp) in Q by (intros v J; exact (I (low p) v (proj2 (casing_low _ _) eq_refl) J)).
      injection Q as -> _. apply inert_spec in Nc. apply inert_not_kana in Nc. tauto.
    - pose proof (two_way_clean m k v T) as Z. pose proof (proj1 T) as I. rewrite (clean_conv_key m k v s (alone m k s v I Nk Z) I Z) in Q.
      destruct (key_shape m k v I Z) as ((b0 & y & -> & _ & G) & _). injection Q as -> _.
      destruct (G B (proj1 (proj2 T))) as (c & k' & -> & Ic). apply (H c (k' ++ s) eq_refl). exists c. split.
      + apply lowers_lower. destruct (clean_low _ Z) as [Lk _]. injection Lk as Lk _. exact Lk.
      + cbn [In u] in Ic |- *. right. exact Ic.
    - rewrite (clean_conv_key m (u "n") (u "ん") s) in Q; [|now apply n_alone|now apply KanaJoin.n_key|reflexivity].
      injection Q as <- _. revert B. vm_compute. intuition discriminate.
    - rewrite (clean_conv_key m (u "n'") (u "ん") (k ++ s)) in Q; [|apply (alone m _ _ _ (apostrophe_key m)); [discriminate|reflexivity]|apply apostrophe_key|reflexivity].
      injection Q as <- _. revert B. vm_compute. intuition discriminate.
  Qed.
  Lemma survives_back m s : survives m rv rtv s -> R (conv m s) = s.
  Proof.
    intro S. pose proof (survives_inert m s S) as N. revert N.
    induction S as [|c p s Lp I Nc S IH|k v s T Nk S IH|s Hm H S IH|k b y s T B S IH]; intro N.
    - assert (conv m [] = []) as -> by apply kconv_nil. apply R_nil.
    - rewrite (conv_miss m p c s Lp), R_left, IH; [reflexivity| | |].
      + intros d J. apply N. now right.
      + apply N. now left.
      + intros v J. exact (I (low p) v (proj2 (casing_low _ _) eq_refl) J).
    - pose proof (two_way_clean m k v T) as Z. pose proof (two_way_n m k v T Nk) as V. pose proof (proj1 T) as I.
      rewrite (clean_conv_key m k v s (alone m k s v I Nk Z) I Z), (R_key m k v _ I Z V).
      + rewrite (proj2 (proj1 (key_reads m k v I Z V)) T), IH; [reflexivity|exact (clean_inert_tail _ k s N)].
      + apply (clean_head m s (survives_clean m s S)), (clean_inert_tail _ k s N).
    - rewrite (clean_conv_key m (u "n") (u "ん") s (n_alone m s Hm H) (KanaJoin.n_key m Hm) eq_refl).
      change (u "ん" ++ conv m s) with (nn :: conv m s). rewrite R_n_alone.
      + rewrite IH; [reflexivity|exact (clean_inert_tail _ (u "n") s N)].
      + exact (survives_head m s S H).
    - pose proof (two_way_clean m k _ T) as Z. pose proof (two_way_vowel m k b y T B) as Nk. pose proof (two_way_n m k _ T Nk) as V. pose proof (proj1 T) as I.
      rewrite (clean_conv_key m (u "n'") (u "ん") (k ++ s)); [|apply (alone m _ _ _ (apostrophe_key m)); [discriminate|reflexivity]|apply apostrophe_key|reflexivity].
      rewrite (clean_conv_key m k _ s (alone m k s _ I Nk Z) I Z).
      change (u "ん" ++ (b :: y) ++ conv m s) with (nn :: b :: y ++ conv m s). rewrite (proj1 (R_n_vowel b (y ++ conv m s) B)). f_equal.
      change (b :: y ++ conv m s) with ((b :: y) ++ conv m s).
      pose proof (clean_inert_tail _ k s (clean_inert_tail _ (u "n'") (k ++ s) N)) as Ns.
      rewrite (R_key m k _ _ I Z V) by exact (clean_head m s (survives_clean m s S) Ns).
      now rewrite (proj2 (proj1 (key_reads m k _ I Z V)) T), (IH Ns).
  Qed.
  Lemma back_survives m s : clean m s -> (forall c, In c s -> inert c) -> R (conv m s) = s -> survives m rv rtv s.
  Proof.
    induction 1 as [|c q s Lq I C IH|q v s Lq I Z C IH]; intros N Q.
    - constructor.
    - rewrite (conv_miss m q c s Lq I), R_left in Q by (apply N; now left). injection Q as Q. apply (SV_left m rv rtv c q s Lq).
      + intros k v K J. apply casing_low in K. subst k. exact (I v J).
      + apply inert_spec, N. now left.
      + apply IH; [|exact Q]. intros d J. apply N. now right.
    - pose proof (clean_inert_tail _ q s N) as Ns. specialize (IH Ns). rewrite (clean_conv_key m q v s Lq I Z) in Q.
      destruct (key_shape m q v I Z) as (_ & _ & _ & [[-> Nq]|[V _]]).
      + cbn [app] in Q. destruct (n_key_letters q Nq) as (w & -> & W & _). destruct (after_n_dec (conv m s)) as [(b & t & T & B)|T].
        * rewrite T in Q. destruct (R_n_vowel b t B) as [K (x & l & X & Ix)]. rewrite K in Q. clear K. rewrite <- T in Q. injection Q as Q.
          destruct Nq as [Nq|[Nq|[Nq|[Nq|[]]]]]; injection Nq as <-.
          -- exfalso. cbn [app] in Q.
             rewrite <- Q in Lq. refine (longer m (u "n") (u "'") _ Lq _ _); [discriminate|].
             apply (entry_viable m (u "n'") (u "ん")), apostrophe_key.
          -- injection Q as Q. pose proof (IH Q) as S. clear IH Lq N I. 
             destruct S as [|c p s Lp I Nc S|k v s K Nk S|s Hm Hn S|k b' y s K B' S].
             ++ assert (conv m [] = []) as K by apply kconv_nil. congruence.
             ++ exfalso. rewrite (conv_miss m p c s Lp) in T by (intros v J; exact (I (low p) v (proj2 (casing_low _ _) eq_refl) J)).
                injection T as -> _. apply inert_spec in Nc. apply inert_not_kana in Nc. tauto.
             ++ pose proof (two_way_clean m k v K) as Zk. pose proof (proj1 K) as I. rewrite (clean_conv_key m k v s (alone m k s v I Nk Zk) I Zk) in T.
                destruct (key_shape m k v I Zk) as ((b0 & y & -> & _) & _). injection T as -> _. exact (SV_n' m rv rtv k b y s K B S).
             ++ exfalso. rewrite (clean_conv_key m (u "n") (u "ん") s) in T; [|now apply n_alone|now apply KanaJoin.n_key|reflexivity].
                injection T as <- _. revert B. vm_compute. intuition discriminate.
             ++ exfalso. rewrite (clean_conv_key m (u "n'") (u "ん") (k ++ s)) in T; [|apply (alone m _ _ _ (apostrophe_key m)); [discriminate|reflexivity]|apply apostrophe_key|reflexivity].
                injection T as <- _. revert B. vm_compute. intuition discriminate.
          -- discriminate Q.
          -- discriminate Q.
        * rewrite (R_n_alone _ T) in Q. injection Q as Q. destruct w as [|x w].
          -- apply SV_n; [intros ->; now apply ime_no_n in I| |now apply IH].
             intros c s' -> F. assert (m <> Ime) as Hm by (intros ->; now apply ime_no_n in I).
             refine (longer m (u "n") [c] s' Lq _ _); [discriminate|]. exact (n_follows m c Hm F).
          -- exfalso. refine (not_ahead m s C Ns (x :: w) _ W Q). discriminate.
      + rewrite (R_key m q v _ I Z V) in Q by exact (clean_head m s C Ns).
        destruct (key_reads m q v I Z V) as (K & [D|[D|(c & Ic & D)]] & _).
        * rewrite D in Q. apply app_inv_head in Q. apply (SV_key m rv rtv q v s); [now apply K| |now apply IH].
          intros ->. assert (entry m (u "n") v -> v = [nn]) as G; [|apply V, G, I]. clear.
          intro I. assert (F : forallb (fun e => negb (str_eqb (fst e) (u "n")) || str_eqb (snd e) [nn]) (dict m) = true) by (destruct m; vm_compute; reflexivity).
          rewrite forallb_forall in F. specialize (F _ I). cbn [fst snd] in F. rewrite str_eqb_refl in F. now apply str_eqb_eq in F.
        * exfalso. revert Q. now apply diverge_app.
        * exfalso. rewrite D, <- app_assoc in Q. apply app_inv_head in Q. symmetry in Q. exact (not_behind m s C Ns c Ic Q).
  Qed.
  Lemma survives_spells m t : survives m rv rtv t -> spells m rv rtv (conv m t) t.
  Proof.
    induction 1 as [|c p s Lp I Nc S IH|k v s T Nk S IH|s Hm H S IH|k b y s T B S IH].
    - assert (conv m [] = []) as -> by apply kconv_nil. constructor.
    - rewrite (conv_miss m p c s Lp) by (intros v J; exact (I (low p) v (proj2 (casing_low _ _) eq_refl) J)). now apply (SP_left m rv rtv c p).
    - pose proof (two_way_clean m k v T) as Z. pose proof (proj1 T) as I. rewrite (clean_conv_key m k v s (alone m k s v I Nk Z) I Z). now apply SP_key.
    - rewrite (clean_conv_key m (u "n") (u "ん") s (n_alone m s Hm H) (KanaJoin.n_key m Hm) eq_refl). now apply SP_n.
    - pose proof (two_way_clean m k _ T) as Z. pose proof (two_way_vowel m k b y T B) as Nk. pose proof (proj1 T) as I.
      rewrite (clean_conv_key m (u "n'") (u "ん") (k ++ s)); [|apply (alone m _ _ _ (apostrophe_key m)); [discriminate|reflexivity]|apply apostrophe_key|reflexivity].
      rewrite (clean_conv_key m k _ s (alone m k s _ I Nk Z) I Z). now apply SP_n'.
  Qed.
  Lemma spells_survives m s t : spells m rv rtv s t -> survives m rv rtv t /\ conv m t = s.
  Proof.
    induction 1 as [|c p s t Lp I Nc S [IH Q]|k v s t T Nk S [IH Q]|s t Hm H S [IH Q]|k b y s t T B S [IH Q]].
    - split; [constructor|apply kconv_nil].
    - split; [now apply (SV_left m rv rtv c p)|]. rewrite (conv_miss m p c t Lp) by (intros v J; exact (I (low p) v (proj2 (casing_low _ _) eq_refl) J)). now rewrite Q.
    - split; [now apply (SV_key m rv rtv k v)|]. pose proof (two_way_clean m k v T) as Z. pose proof (proj1 T) as I.
      rewrite (clean_conv_key m k v t (alone m k t v I Nk Z) I Z). now rewrite Q.
    - split; [now apply SV_n|]. rewrite (clean_conv_key m (u "n") (u "ん") t (n_alone m t Hm H) (KanaJoin.n_key m Hm) eq_refl). now rewrite Q.
    - split; [now apply (SV_n' m rv rtv k b y)|]. pose proof (two_way_clean m k _ T) as Z. pose proof (two_way_vowel m k b y T B) as Nk. pose proof (proj1 T) as I.
      rewrite (clean_conv_key m (u "n'") (u "ん") (k ++ t)); [|apply (alone m _ _ _ (apostrophe_key m)); [discriminate|reflexivity]|apply apostrophe_key|reflexivity].
      rewrite (clean_conv_key m k _ t (alone m k t _ I Nk Z) I Z). now rewrite Q.
  Qed.
End Round.
Lemma clean_no_katakana m s : clean m s -> (forall c, In c s -> inert c) -> no_katakana (conv m s).
Proof.
  induction 1 as [|c q s Lq I C IH|q v s Lq I Z C IH]; intros N x J.
  - assert (conv m [] = []) as K by apply kconv_nil. rewrite K in J. contradiction.
  - rewrite (conv_miss m q c s Lq I) in J. destruct J as [<-|J]; [apply N; now left|]. apply IH; [|exact J]. intros d K. apply N. now right.
  - rewrite (clean_conv_key m q v s Lq I Z) in J. apply in_app_or in J. destruct J as [J|J].
    + left. destruct (key_shape m q v I Z) as (_ & _ & K & _). exact (K x J).
    + apply IH; [exact (clean_inert_tail _ q s N)|exact J].
Qed.
Theorem round_trip E o o' rv rtv s : std_ok E -> upcase_katakana o' = false ->
  to_romaji_with_opt E (u "ゔ") o' = Ok rv -> to_romaji_with_opt E (u "っゔ") o' = Ok rtv ->
  exists t, to_kana_with_opt E s o = Ok t /\ (to_romaji_with_opt E t o' = Ok s <-> survives (mode_of o) rv rtv s).
Proof.
  intros HE Up Rv Rtv.
  assert (forall s, to_romaji_with_opt E s o' = Ok (R E (k2h E true s))) as Rom.
  { intro x. rewrite to_romaji_with_opt_eq, Up by exact HE. f_equal. unfold R. now apply rconv_noup. }
  destruct (library_exists E HE) as (a & a' & L & Hv & Hv' & _).
  rewrite Rom in Rv, Rtv. injection Rv as Rv. injection Rtv as Rtv.
  change (k2h E true (u "ゔ")) with [vu] in Rv. change (k2h E true (u "っゔ")) with [tsu; vu] in Rtv. rewrite Rv in Hv. rewrite Rtv in Hv'. clear Rv Rtv.
  exists (conv (mode_of o) s). split; [rewrite to_kana_with_opt_eq by exact HE; now rewrite k_tree_mode|]. rewrite Rom. set (m := mode_of o).
  split.
  - intro Q. injection Q as Q.
    assert (rconv E false (conv m s) (k2h E true (conv m s)) = s) as Q' by (rewrite <- Q at 3; unfold R; now apply rconv_noup).
    assert (forall c, In c s -> inert c) as N by (intros c J; rewrite <- Q' in J; exact (romaji_inert E false _ c HE J)).
    assert (clean m s) as C.
    { destruct (count_conv m s) as [B K]. apply K. pose proof (count_romaji E (conv m s) HE) as G. rewrite Q' in G. lia. }
    apply (back_survives E a a' L rv rtv Hv Hv' m s C N). rewrite <- Q at 2. f_equal. symmetry. apply k2h_no_katakana. now apply clean_no_katakana.
  - intro S. assert (clean m s) as C by (eapply survives_clean; eassumption). assert (forall c, In c s -> inert c) as N by (eapply survives_inert; eassumption).
    rewrite k2h_no_katakana by now apply clean_no_katakana. f_equal. exact (survives_back E a a' L rv rtv Hv Hv' m s S).
Qed.
Theorem each_other E o o' rv rtv s t : std_ok E -> upcase_katakana o' = false ->
  to_romaji_with_opt E (u "ゔ") o' = Ok rv -> to_romaji_with_opt E (u "っゔ") o' = Ok rtv ->
  (to_romaji_with_opt E s o' = Ok t /\ to_kana_with_opt E t o = Ok s <-> spells (mode_of o) rv rtv s t).
Proof.
  intros HE Up Rv Rtv. destruct (round_trip E o o' rv rtv t HE Up Rv Rtv) as (s' & K & H).
  assert (s' = conv (mode_of o) t) as E' by (rewrite to_kana_with_opt_eq, k_tree_mode in K by exact HE; now injection K as <-). subst s'.
  destruct (library_exists E HE) as (a & a' & L & Hv & Hv' & _).
  assert (forall s, to_romaji_with_opt E s o' = Ok (R E (k2h E true s))) as Rom.
  { intro x. rewrite to_romaji_with_opt_eq, Up by exact HE. f_equal. unfold R. now apply rconv_noup. }
  rewrite Rom in Rv, Rtv. injection Rv as Rv. injection Rtv as Rtv.
  change (k2h E true (u "ゔ")) with [vu] in Rv. change (k2h E true (u "っゔ")) with [tsu; vu] in Rtv. rewrite Rv in Hv. rewrite Rtv in Hv'. clear Rv Rtv.
  rewrite K. split.
  - intros [A B]. injection B as B. rewrite <- B in A. apply H in A. rewrite <- B. eapply survives_spells; eassumption.
  - intro S. eapply spells_survives in S; [|eassumption ..]. destruct S as [S Q]. rewrite <- Q. split; [now apply H|reflexivity].
Qed.
