(** * Proof of C104: a shortest way of typing exists *)
From Coq Require Import PeanoNat.
From Verif Require Import Tac Base Std Constants Chars Trees KanaTree Strings Convert
  KanaPure KanaSpec KanaDict KanaProofs TypingSpec Splits StrokeSpec Strokes.

Definition n_string : str := Eval vm_compute in u "n".
(** [seg] types [o] with [n] keys; with [f] it does not begin with a letter n would combine with *)
Definition types (o : str) (n : nat) (f : bool) (k v seg : str) : bool :=
  str_eqb (emit seg v) o && Nat.eqb (length seg) n && str_eqb (low seg) k && forallb (fun d => d <? 128) seg && (negb f || negb (follow_b (hd 0 seg))).
Definition has (d : list (str * str)) (o : str) (n : nat) (f : bool) : bool :=
  existsb (fun e =>
    if str_eqb (snd e) o || str_eqb (snd e) (map hira_of o) then
      if negb (str_eqb (fst e) n_string) then types o n f (fst e) (snd e) (fst e) || types o n f (fst e) (snd e) (up_key (fst e)) else false
    else false) d.
Definition spelled (m : mode) (o : str) (n : nat) (f : bool) (seg : str) : Prop :=
  Forall ascii seg /\ (forall rest, conv m (seg ++ rest) = o ++ conv m rest) /\ length seg = n /\ (f = true -> follow_b (hd 0 seg) = false) /\ seg <> [].
Lemma types_spec m o n f k v seg : entry m k v -> k <> n_string -> types o n f k v seg = true -> spelled m o n f seg.
Proof.
  unfold types. intros I K H. repeat apply andb_prop in H as [H ?H]. apply str_eqb_eq in H, H2. apply Nat.eqb_eq in H3. unfold spelled.
  split; [|split; [|split; [exact H3|split]]].
  - apply Forall_forall. intros d D. rewrite forallb_forall in H1. specialize (H1 d D). unfold ascii. lia.
  - intro rest. rewrite <- H. apply (conv_entry m seg k v rest I (only_n_extended m k v I K)). now apply casing_low.
  - intros ->. now apply negb_true_iff in H0.
  - intros ->. cbn in H2. subst k. now apply (keys_nonempty _ _ _ I).
Qed.
Lemma has_spec m o n f : has (dict m) o n f = true -> exists seg, spelled m o n f seg.
Proof.
  unfold has. rewrite existsb_exists. intros ([k v] & I & H). cbn [fst snd] in H. destruct (_ || _) in H; [|discriminate H].
  destruct (str_eqb k n_string) eqn:K; [discriminate H|]. cbn [negb] in H. rename H into T.
  assert (K' : k <> n_string) by (intros ->; discriminate K). apply orb_prop in T as [T|T].
  - exists k. now apply (types_spec m o n f k v k).
  - exists (up_key k). now apply (types_spec m o n f k v (up_key k)).
Qed.

(** ** The finite checks *)
Definition tsus : str := Eval vm_compute in u "っッ".
Definition ns : str := Eval vm_compute in u "んン".
Definition one (x : nat) : bool := Nat.eqb x 1.
Definition singles (m : mode) (di : list (str * str)) (le : str) : bool :=
  forallb (fun c => if plain c then has di [c] (alone c) (one (n_keys m [c])) else true) le.
Definition marks_alone (di : list (str * str)) : bool := forallb (fun c => has di [c] 3 true) tsus && forallb (fun c => has di [c] 2 true) ns.
Definition doubles (m : mode) (di : list (str * str)) (le : str) : bool :=
  forallb (fun c => if first_of_pair c then forallb (fun d => match pair m c d with Some k => has di [c; d] k (one (n_keys m [c; d])) | None => true end) behind else true) le.
Definition tsu_singles (m : mode) (di : list (str * str)) (le : str) : bool :=
  forallb (fun t => forallb (fun a => if Nat.eqb (tsu_keys m t [a]) 3 then true else has di [t; a] (tsu_keys m t [a] + alone a) (one (n_keys m [t; a]))) le) tsus.
Definition tsu_doubles (m : mode) (di : list (str * str)) (le : str) : bool :=
  forallb (fun t => forallb (fun a => if first_of_pair a then forallb (fun b => match pair m a b with
    Some k => if Nat.eqb (tsu_keys m t [a; b]) 3 then true else has di [t; a; b] (tsu_keys m t [a; b] + k) (one (n_keys m [t; a])) | None => true end) behind else true) le) tsus.
Lemma singles_ok m : singles m (dict m) (letters m) = true.
Proof. destruct m; vm_cast_no_check (eq_refl true). Qed.
Lemma marks_alone_ok m : marks_alone (dict m) = true.
Proof. destruct m; vm_cast_no_check (eq_refl true). Qed.
Lemma doubles_ok m : doubles m (dict m) (letters m) = true.
Proof. destruct m; vm_cast_no_check (eq_refl true). Qed.
Lemma tsu_singles_ok m : tsu_singles m (dict m) (letters m) = true.
Proof. destruct m; vm_cast_no_check (eq_refl true). Qed.
Lemma tsu_doubles_ok m : tsu_doubles m (dict m) (letters m) = true.
Proof. destruct m; vm_cast_no_check (eq_refl true). Qed.
Lemma singles_spec m di le c : singles m di le = true -> In c le -> plain c = true -> has di [c] (alone c) (one (n_keys m [c])) = true.
Proof. unfold singles. rewrite forallb_forall. intros F L P. specialize (F c L). now rewrite P in F. Qed.
Lemma marks_spec di c : marks_alone di = true -> (In c tsus -> has di [c] 3 true = true) /\ (In c ns -> has di [c] 2 true = true).
Proof. unfold marks_alone. intro F. apply andb_prop in F as [F1 F2]. rewrite forallb_forall in F1, F2. split; auto. Qed.
Lemma doubles_spec m di le c d k : doubles m di le = true -> In c le -> pair m c d = Some k -> has di [c; d] k (one (n_keys m [c; d])) = true.
Proof.
  unfold doubles. rewrite forallb_forall. intros F L P. specialize (F c L). destruct (pair_sides m c d k P) as [F1 F2]. apply behind_In in F2.
  rewrite F1 in F. rewrite forallb_forall in F. specialize (F d F2). now rewrite P in F.
Qed.
Lemma tsu_singles_spec m di le t a : tsu_singles m di le = true -> In t tsus -> In a le -> tsu_keys m t [a] <> 3%nat ->
  has di [t; a] (tsu_keys m t [a] + alone a) (one (n_keys m [t; a])) = true.
Proof.
  unfold tsu_singles. rewrite forallb_forall. intros F T L P. specialize (F t T). rewrite forallb_forall in F. specialize (F a L).
  apply Nat.eqb_neq in P. now rewrite P in F.
Qed.
Lemma tsu_doubles_spec m di le t a b k : tsu_doubles m di le = true -> In t tsus -> In a le -> pair m a b = Some k -> tsu_keys m t [a; b] <> 3%nat ->
  has di [t; a; b] (tsu_keys m t [a; b] + k) (one (n_keys m [t; a])) = true.
Proof.
  unfold tsu_doubles. rewrite forallb_forall. intros F T L P Q. specialize (F t T). rewrite forallb_forall in F. specialize (F a L).
  destruct (pair_sides m a b k P) as [F1 F2]. apply behind_In in F2. rewrite F1 in F. rewrite forallb_forall in F.
  specialize (F b F2). rewrite P in F. apply Nat.eqb_neq in Q. now rewrite Q in F.
Qed.

(** ** Typing a text *)
Lemma strokes_single m c r : plain c = true -> pairs_with m c r = false -> strokes m (c :: r) = (alone c + strokes m r)%nat.
Proof.
  intros P W. unfold strokes at 1. cbn [strokes_after]. rewrite (after_none m c r W). f_equal. apply plain_split in P as [A B]. unfold keys.
  rewrite A, B. destruct r as [|b r]; [reflexivity|]. unfold pairs_with in W. now destruct (pair m c b).
Qed.
Lemma first_plain c : first_of_pair c = true -> plain c = true.
Proof. intro H. destruct (plain c) eqn:P; [reflexivity|]. rewrite (first_of_tsu_n c P) in H. discriminate. Qed.
Lemma strokes_pair m c d r k : pair m c d = Some k -> strokes m (c :: d :: r) = (k + strokes m r)%nat.
Proof.
  intro P. unfold strokes at 1. cbn [strokes_after].
  assert (W : pairs_with m c [d] = true) by (unfold pairs_with; now rewrite P).
  destruct (after_pair m c d r W) as [Z _]. cbn [strokes_after] in Z. rewrite Z. f_equal.
  destruct (pair_sides m c d k P) as [F _]. apply first_plain, plain_split in F as [A B]. unfold keys. now rewrite A, B, P.
Qed.
Lemma strokes_tsu m t r : among (hira_of t) tsu_kana = true -> strokes m (t :: r) = (tsu_keys m t r + strokes m r)%nat.
Proof.
  intro T. assert (P : plain t = false) by (unfold plain, among; rewrite existsb_app; fold (among (hira_of t) tsu_kana); rewrite T; now rewrite orb_true_r).
  assert (Nn : among (hira_of t) n_kana = false).
  { apply among_In in T. revert T. generalize (hira_of t). intros h J. vm_compute in J. destruct J as [<-|[]]. reflexivity. }
  unfold strokes at 1. cbn [strokes_after]. rewrite (after_first m t r (first_of_tsu_n t P)). unfold keys. now rewrite Nn, T.
Qed.
Lemma strokes_n m d r : among (hira_of d) n_kana = true -> strokes m (d :: r) = (n_keys m r + strokes m r)%nat.
Proof.
  intro T. assert (P : plain d = false) by (unfold plain, among; rewrite existsb_app; fold (among (hira_of d) n_kana); now rewrite T).
  unfold strokes at 1. cbn [strokes_after]. rewrite (after_first m d r (first_of_tsu_n d P)). unfold keys. now rewrite T.
Qed.
Lemma hira_back t h : hira_of t = h -> t = h \/ t = h + 0x60.
Proof. unfold hira_of, katakana. destruct (_ && _) eqn:K; [|now left]. intro. right. apply andb_prop in K as [A B]. lia. Qed.
Lemma hira_tsu t : among (hira_of t) tsu_kana = true -> In t tsus.
Proof. intro T. apply among_In in T. vm_compute in T. destruct T as [T|[]]. symmetry in T. apply hira_back in T. vm_compute. destruct T; subst; auto. Qed.
Lemma hira_n t : among (hira_of t) n_kana = true -> In t ns.
Proof. intro T. apply among_In in T. vm_compute in T. destruct T as [T|[]]. symmetry in T. apply hira_back in T. vm_compute. destruct T; subst; auto. Qed.
Lemma not_plain c : plain c = false -> among (hira_of c) n_kana = true \/ among (hira_of c) tsu_kana = true.
Proof. unfold plain, among. rewrite existsb_app. intro H. apply negb_false_iff, orb_prop in H. exact H. Qed.
Lemma tsu_after m t a r : pairs_with m a r = false -> tsu_keys m t (a :: r) = tsu_keys m t [a].
Proof. intro W. unfold tsu_keys. now rewrite W. Qed.
Lemma n_after m a r : plain a = true -> pairs_with m a r = false -> n_keys m (a :: r) = n_keys m [a].
Proof. intros P W. apply plain_split in P as [_ P]. unfold n_keys. rewrite W, P. reflexivity. Qed.
Lemma tsu_plain m t a r : tsu_keys m t (a :: r) <> 3%nat -> plain a = true.
Proof.
  intro H. destruct (plain a) eqn:P; [reflexivity|]. exfalso. apply H. unfold tsu_keys.
  apply negb_false_iff, among_In in P. destruct (negb _); [reflexivity|]. revert P. clear H. generalize (hira_of a). intros h P. vm_compute in P.
  destruct P as [<-|[<-|[]]]; reflexivity.
Qed.

Definition starts_well (s : str) : Prop := match s with [] => True | c :: _ => follow_b c = false end.
Definition shortest (m : mode) (r s : str) : Prop :=
  Forall ascii s /\ conv m s = r /\ length s = strokes m r /\ (n_keys m r = 1%nat -> starts_well s).
Lemma prepend m o n r seg s : spelled m o n (one (n_keys m (o ++ r))) seg -> shortest m r s ->
  strokes m (o ++ r) = (n + strokes m r)%nat -> shortest m (o ++ r) (seg ++ s).
Proof.
  intros (A & C & L & F & Q) (A' & C' & L' & _) Z. unfold shortest. rewrite C, C', app_length, L, L', Z.
  split; [now apply Forall_app|]. split; [reflexivity|]. split; [reflexivity|]. intro O. unfold one in F. rewrite O in F.
  destruct seg as [|c seg]; [congruence|]. exact (F eq_refl).
Qed.
Lemma stronger m o n f seg : spelled m o n true seg -> spelled m o n f seg.
Proof. intros (A & C & L & F & Q). unfold spelled. auto 6. Qed.
Lemma type_shortest m : forall r, Forall (typeable m) r -> exists s, shortest m r s.
Proof.
  induction r as [r IH] using str_ind_len. intro T. destruct r as [|c r].
  { exists []. split; [constructor|]. split; [reflexivity|]. split; [reflexivity|]. intros _. exact I. }
  inversion T as [|? ? Tc Tr]; subst. apply letters_In in Tc as Lc.
  destruct (plain c) eqn:P.
  - destruct (pairs_with m c r) eqn:W.
    + destruct r as [|d r]; [discriminate W|]. unfold pairs_with in W. destruct (pair m c d) as [k|] eqn:Pr; [|discriminate W]. clear W.
      pose proof (doubles_spec m _ _ c d k (doubles_ok m) Lc Pr) as U. apply has_spec in U as (seg & U).
      inversion Tr as [|? ? _ Tr']; subst. destruct (IH r ltac:(cbn; lia) Tr') as (s & Hs). exists (seg ++ s).
      apply (prepend m [c; d] k r seg s); [|exact Hs|exact (strokes_pair m c d r k Pr)].
      cbn [app]. rewrite n_first. exact U.
    + pose proof (singles_spec m _ _ c (singles_ok m) Lc P) as U1. apply has_spec in U1 as (seg & U).
      destruct (IH r ltac:(cbn; lia) Tr) as (s & Hs). exists (seg ++ s).
      apply (prepend m [c] (alone c) r seg s); [|exact Hs|exact (strokes_single m c r P W)].
      cbn [app]. rewrite (n_after m c r P W). exact U.
  - apply not_plain in P as [Pn|Pt].
    + destruct (IH r ltac:(cbn; lia) Tr) as (s & Hs). pose proof (proj2 (marks_spec _ c (marks_alone_ok m)) (hira_n c Pn)) as U1n. apply has_spec in U1n as (xn & U).
      pose proof (n_le m r) as B. destruct (Nat.eq_dec (n_keys m r) 1) as [E1|E1].
      * assert (M : m <> Ime) by (intros ->; discriminate E1).
        assert (S0 : exists x, ascii x /\ casing [x] (u "n") /\ emit [x] (u "ん") = [c] /\ follow_b x = false).
        { pose proof (hira_n c Pn) as Hc. vm_compute in Hc. destruct Hc as [<-|[<-|[]]];
            [exists (ch "n")|exists (ch "N")]; (split; [reflexivity|split; [apply casing_low; reflexivity|split; reflexivity]]). }
        destruct S0 as (x & Ax & Cx & Ex & Fx). destruct Hs as (A & C & L & F). exists ([x] ++ s). split; [now constructor|]. split; [|split].
        -- rewrite (conv_n m [x] s M Cx), Ex, C; [reflexivity|]. specialize (F E1). destruct s as [|y s]; [exact I|].
           intro Q. apply follow_spec in Q. cbn [starts_well] in F. congruence.
        -- cbn [app length]. rewrite L, (strokes_n m c r Pn). lia.
        -- intros _. exact Fx.
      * exists (xn ++ s). apply (prepend m [c] 2 r xn s); [now apply stronger|exact Hs|]. cbn [app]. rewrite (strokes_n m c r Pn). lia.
    + pose proof (proj1 (marks_spec _ c (marks_alone_ok m)) (hira_tsu c Pt)) as U1t. apply has_spec in U1t as (xtu & U).
      destruct (Nat.eq_dec (tsu_keys m c r) 3) as [E3|E3].
      * destruct (IH r ltac:(cbn; lia) Tr) as (s & Hs). exists (xtu ++ s).
        apply (prepend m [c] 3 r xtu s); [now apply stronger|exact Hs|]. cbn [app]. rewrite (strokes_tsu m c r Pt). lia.
      * destruct r as [|a r]; [contradiction E3; reflexivity|]. pose proof (tsu_plain m c a r E3) as Pa.
        inversion Tr as [|? ? Ta Tr']; subst. apply letters_In in Ta as La.
        destruct (pairs_with m a r) eqn:W.
        -- destruct r as [|b r]; [discriminate W|]. unfold pairs_with in W. destruct (pair m a b) as [k|] eqn:Pr; [|discriminate W]. clear W.
           rewrite tsu_first in E3. cbn [firstn] in E3. pose proof (tsu_doubles_spec m _ _ c a b k (tsu_doubles_ok m) (hira_tsu c Pt) La Pr E3) as V.
           apply has_spec in V as (seg & V). inversion Tr' as [|? ? _ Tr'']; subst. destruct (IH r ltac:(cbn; lia) Tr'') as (s & Hs).
           exists (seg ++ s). apply (prepend m [c; a; b] (tsu_keys m c [a; b] + k) r seg s).
           ++ cbn [app]. rewrite n_first. exact V.
           ++ exact Hs.
           ++ cbn [app]. rewrite (strokes_tsu m c _ Pt), tsu_first, (strokes_pair m a b r k Pr). cbn [firstn]. lia.
        -- rewrite (tsu_after m c a r W) in E3. pose proof (tsu_singles_spec m _ _ c a (tsu_singles_ok m) (hira_tsu c Pt) La E3) as V.
           apply has_spec in V as (seg & V). destruct (IH r ltac:(cbn; lia) Tr') as (s & Hs). exists (seg ++ s).
           apply (prepend m [c; a] (tsu_keys m c [a] + alone a) r seg s).
           ++ cbn [app]. rewrite n_first. exact V.
           ++ exact Hs.
           ++ cbn [app]. rewrite (strokes_tsu m c _ Pt), (tsu_after m c a r W), (strokes_single m a r Pa W). lia.
Qed.
