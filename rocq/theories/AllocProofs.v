(** * Growing buffers (C97) *)
From Coq Require Import PeanoNat.
From Verif Require Import Tac Base Std Constants Chars Trees KanaTree RomajiTree Strings Convert
  KanaPure RomajiPure KanaSpec KanaDict KanaProofs ScriptSpec RomajiSpec ScriptProofs RomajiProofs BytesSpec Bytes Alloc AllocSpec.

(** ** Writing pieces *)
Section Pieces.
  Context (grow : nat -> nat -> nat) (size : str -> nat) (size_app : forall s t, size (s ++ t) = (size s + size t)%nat).
  Definition pour (ps : list str) (b : buffer) : buffer := fold_left (extend grow size) ps b.
  Lemma extend_contents b s : contents (extend grow size b s) = contents b ++ s.
  Proof. unfold extend. destruct (Nat.leb _ _); reflexivity. Qed.
  Lemma pour_contents ps : forall b, contents (pour ps b) = contents b ++ concat ps.
  Proof. induction ps as [|p ps IH]; intro b; cbn [pour fold_left concat]; [now rewrite app_nil_r|]. unfold pour in IH. rewrite IH, extend_contents. now rewrite app_assoc. Qed.

  (** nothing happens while there is room *)
  Lemma pour_fits ps : forall b, (size (contents b) + size (concat ps) <= capacity b)%nat ->
    pour ps b = Build_buffer (contents b ++ concat ps) (capacity b) (grown b).
  Proof.
    induction ps as [|p ps IH]; intros b H; cbn [pour fold_left concat] in *; [rewrite app_nil_r; now destruct b|].
    rewrite size_app in H. unfold pour in IH. unfold extend at 2. replace (Nat.leb (size (contents b) + size p) (capacity b)) with true by (symmetry; apply Nat.leb_le; lia).
    rewrite IH; cbn [contents capacity grown]; [now rewrite app_assoc|]. rewrite size_app. lia.
  Qed.
  Lemma extend_grown b p : (grown b <= grown (extend grow size b p) /\ (capacity b < size (contents b) + size p -> grown b < grown (extend grow size b p)))%nat.
  Proof. unfold extend. destruct (Nat.leb _ _) eqn:L; cbn [grown]; [apply Nat.leb_le in L|]; lia. Qed.
  Lemma pour_grown ps : forall b, (grown b <= grown (pour ps b) /\ (size (contents b) <= capacity b -> capacity b < size (contents b) + size (concat ps) -> grown b < grown (pour ps b)))%nat.
  Proof.
    induction ps as [|p ps IH]; intro b; cbn [pour fold_left concat].
    - split; [lia|]. intros L H. rewrite <- size_app, app_nil_r in H. lia.
    - unfold pour in IH. destruct (IH (extend grow size b p)) as [A B]. destruct (extend_grown b p) as [C D]. split; [lia|].
      intros L H. destruct (Nat.le_gt_cases (size (contents b) + size p) (capacity b)) as [F|F]; [|specialize (D F); lia].
      enough (grown (extend grow size b p) < grown (pour ps (extend grow size b p)))%nat by (unfold pour in *; lia).
      rewrite size_app in H. unfold pour. apply B; rewrite extend_contents, size_app; unfold extend; rewrite (proj2 (Nat.leb_le _ _) F); cbn [capacity]; lia.
  Qed.

  (** at least doubling each time *)
  Lemma pour_twice (D : doubles grow) n ps : forall b, (grown b = 0 /\ n <= capacity b \/ grown b = 1 /\ 2 * n <= capacity b \/ grown b = 2 /\ 4 * n <= capacity b)%nat ->
    (size (contents b) + size (concat ps) <= 4 * n)%nat ->
    (grown (pour ps b) <= 2 /\ (size (contents b) + size (concat ps) <= 2 * n -> grown b <= 1 -> grown (pour ps b) <= 1))%nat.
  Proof.
    induction ps as [|p ps IH]; intros b G H; cbn [pour fold_left concat] in *; [lia|].
    rewrite size_app in H. unfold pour in IH. rewrite size_app.
    assert (Q : (grown (extend grow size b p) = grown b /\ capacity (extend grow size b p) = capacity b
               \/ capacity b < size (contents b) + size p /\ grown (extend grow size b p) = S (grown b) /\ 2 * capacity b <= capacity (extend grow size b p))%nat).
    { unfold extend. destruct (Nat.leb _ _) eqn:L; cbn [grown capacity]; [now left|right]. apply Nat.leb_gt in L. split; [exact L|]. split; [reflexivity|]. now apply D. }
    specialize (IH (extend grow size b p)). rewrite extend_contents, size_app in IH. destruct IH as [A B]; [lia|lia|]. split; [exact A|].
    intros H2 G1. apply B; [lia|]. lia.
  Qed.
End Pieces.

Section Loops.
  Context (gc gb : nat -> nat -> nat).
  Let pchars := pour gc (@length _).
  Let pbytes := pour gb bytes.

  (** ** The loops write what the model computes *)
  Lemma kana_pieces E o chars fuel : forall pos out r, to_kana_loop fuel E o chars pos out = Ok r ->
    exists ps, r = out ++ concat ps /\ forall b, contents b = out -> to_kana_loop_alloc gb fuel E o chars pos b = Ok (pbytes ps b).
  Proof.
    induction fuel as [|fuel IH]; intros pos out r; cbn [to_kana_loop to_kana_loop_alloc]; [discriminate|].
    destruct (Nat.eqb pos (length chars)); [intros [= <-]; exists []; split; [now rewrite app_nil_r|reflexivity]|].
    assert (Go : forall pos' p, to_kana_loop fuel E o chars pos' (out ++ p) = Ok r ->
      exists ps, r = out ++ concat ps /\ forall b, contents b = out -> to_kana_loop_alloc gb fuel E o chars pos' (push_str gb b p) = Ok (pbytes ps b)).
    { intros pos' p H. destruct (IH _ _ _ H) as (ps & -> & K). exists (p :: ps). split; [cbn [concat]; now rewrite app_assoc|].
      intros b Q. rewrite K; [reflexivity|]. unfold push_str. rewrite extend_contents. now rewrite Q. }
    destruct (kana_tree o) as [tree| |]; cbn [bind]; try discriminate.
    destruct (slice_from chars pos) as [sl| |]; cbn [bind]; try discriminate.
    destruct (_ || _).
    - destruct (index chars pos) as [c| |]; cbn [bind]; try discriminate. apply Go.
    - destruct (slice chars pos _) as [seg| |]; cbn [bind]; try discriminate.
      destruct (unwrap _) as [v| |]; cbn [bind]; try discriminate.
      destruct (forallb _ _); [|apply Go].
      destruct (hiragana_to_katakana v) as [k| |]; cbn [bind]; try discriminate. apply Go.
  Qed.
  Lemma romaji_pieces E o orig chars fuel : forall pos out r, to_romaji_loop fuel E o orig chars pos out = Ok r ->
    exists ps, r = out ++ concat ps /\ forall b, contents b = out -> to_romaji_loop_alloc gb fuel E o orig chars pos b = Ok (pbytes ps b).
  Proof.
    induction fuel as [|fuel IH]; intros pos out r; cbn [to_romaji_loop to_romaji_loop_alloc]; [discriminate|].
    destruct (Nat.eqb pos (length chars)); [intros [= <-]; exists []; split; [now rewrite app_nil_r|reflexivity]|].
    assert (Go : forall pos' p, to_romaji_loop fuel E o orig chars pos' (out ++ p) = Ok r ->
      exists ps, r = out ++ concat ps /\ forall b, contents b = out -> to_romaji_loop_alloc gb fuel E o orig chars pos' (push_str gb b p) = Ok (pbytes ps b)).
    { intros pos' p H. destruct (IH _ _ _ H) as (ps & -> & K). exists (p :: ps). split; [cbn [concat]; now rewrite app_assoc|].
      intros b Q. rewrite K; [reflexivity|]. unfold push_str. rewrite extend_contents. now rewrite Q. }
    destruct (slice_from chars pos) as [sl| |]; cbn [bind]; try discriminate.
    destruct (r_get _ _ _) as [g| |]; cbn [bind]; try discriminate.
    destruct (Nat.eqb (snd g) 0).
    - destruct (index chars pos) as [c| |]; cbn [bind]; try discriminate. apply Go.
    - destruct (slice orig pos _) as [seg| |]; cbn [bind]; try discriminate. apply Go.
  Qed.
  Lemma k2h_pieces E input d rest : forall i prev out r, k2h_loop E input d i prev rest out = Ok r ->
    exists ps, r = out ++ concat ps /\ forall b, contents b = out -> k2h_loop_alloc gc E input d i prev rest b = Ok (pchars ps b).
  Proof.
    induction rest as [|c rest IH]; intros i prev out r; cbn [k2h_loop k2h_loop_alloc].
    - intros [= <-]. exists []. split; [now rewrite app_nil_r|reflexivity].
    - assert (Go : forall prev' p, k2h_loop E input d (S i) prev' rest (out ++ [p]) = Ok r ->
        exists ps, r = out ++ concat ps /\ forall b, contents b = out -> k2h_loop_alloc gc E input d (S i) prev' rest (push_char gc b p) = Ok (pchars ps b)).
      { intros prev' p H. destruct (IH _ _ _ _ H) as (ps & -> & K). exists ([p] :: ps). split; [cbn [concat]; now rewrite app_assoc|].
        intros b Q. rewrite K; [reflexivity|]. unfold push_char. rewrite extend_contents. now rewrite Q. }
      destruct (_ || _ || _); [apply Go|].
      assert (Last : (if negb (is_char_long_dash c) && is_char_katakana c
         then k2h_loop E input d (S i) (Some (hira_of_kata c)) rest (out ++ [hira_of_kata c])
         else k2h_loop E input d (S i) None rest (out ++ [c])) = Ok r ->
        exists ps, r = out ++ concat ps /\ forall b, contents b = out ->
          (if negb (is_char_long_dash c) && is_char_katakana c
           then k2h_loop_alloc gc E input d (S i) (Some (hira_of_kata c)) rest (push_char gc b (hira_of_kata c))
           else k2h_loop_alloc gc E input d (S i) None rest (push_char gc b c)) = Ok (pchars ps b))
        by (destruct (_ && _); apply Go).
      destruct prev as [pk|]; [|exact Last]. destruct (is_char_inner_long_dash c i); [|exact Last].
      destruct (r_find E TO_ROMAJI_NODE_TREE pk) as [q| |]; cbn [bind]; try discriminate.
      destruct q as [node|]; [|apply Go]. destruct (checked_sub i 1) as [j| |]; cbn [bind]; try discriminate.
      destruct (match nth_error input j with Some _ => _ | None => _ end); [apply Go|].
      destruct (last_char (rout node)) as [e|]; [|apply IH]. destruct (LONG_VOWELS e) as [hit|]; [apply Go|apply IH].
  Qed.
  Lemma h2k_pieces s : forall b, exists ps, h2k_loop_alloc gc s b = Ok (pchars ps b) /\ concat ps = h2k s /\ Forall (fun p => length p = 1%nat) ps.
  Proof.
    induction s as [|c s IH]; intro b; cbn [h2k_loop_alloc].
    - exists []. split; [reflexivity|]. split; [reflexivity|constructor].
    - assert (K : (if is_char_long_dash c || is_char_slash_dot c then Ok c
          else if is_char_hiragana c then unwrap (from_u32 (c + (KATAKANA_START - HIRAGANA_START))) else Ok c) = Ok (h2k_char c)).
      { pose proof (hiragana_to_katakana_ok [c]) as H. cbn [hiragana_to_katakana] in H.
        destruct (if _ || _ then _ else _) as [k| |]; cbn [bind] in H; try discriminate. injection H as H. now rewrite H. }
      rewrite K. cbn [bind]. destruct (IH (push_char gc b (h2k_char c))) as (ps & -> & Q & F). exists ([h2k_char c] :: ps).
      split; [reflexivity|]. split; [cbn [concat]; rewrite Q; reflexivity|now constructor].
  Qed.

  (** ** [collect] *)
  Lemma bytes_four s : (bytes s <= 4 * length s)%nat.
  Proof. induction s as [|c s IH]; [reflexivity|]. rewrite bytes_cons. cbn [length]. unfold len_utf8. ifs; lia. Qed.
  Lemma concat_single (s : str) : concat (map (fun c => [c]) s) = s.
  Proof. induction s as [|c s IH]; [reflexivity|]. cbn. now rewrite IH. Qed.
  Lemma collect_pour s : collect_string gb s = pbytes (map (fun c => [c]) s) (with_capacity (match s with [] => 0%nat | _ => gb 0 (length s) end)).
  Proof.
    unfold collect_string, pbytes, pour. generalize (with_capacity (match s with [] => 0%nat | _ => gb 0 (length s) end)).
    induction s as [|c s IH]; intro b; [reflexivity|]. cbn [map fold_left]. apply IH.
  Qed.
  Lemma collect_contents s : contents (collect_string gb s) = s.
  Proof. rewrite collect_pour. unfold pbytes. rewrite pour_contents. apply concat_single. Qed.
  Lemma collect_twice s : doubles gb -> (grown (collect_string gb s) <= 2)%nat.
  Proof.
    intro D. rewrite collect_pour. apply (pour_twice gb bytes bytes_app D (length s)).
    - left. split; [reflexivity|]. destruct s as [|c s]; [cbn; lia|]. apply D. cbn. lia.
    - cbn [with_capacity contents]. rewrite bytes_nil, concat_single. apply bytes_four.
  Qed.

  Theorem kana_alloc E s o : std_ok E -> doubles gb -> exists b t, to_kana_alloc gb E s o = Ok b /\ to_kana_with_opt E s o = Ok t /\
    contents b = t /\ (grown b <= 2)%nat /\ (grown b = 0%nat <-> (bytes t <= bytes s)%nat) /\ (bytes t <= 2 * bytes s -> grown b <= 1)%nat.
  Proof.
    intros HE D. assert (T : to_kana_with_opt E s o = Ok (conv (mode_of o) s)) by (rewrite to_kana_with_opt_eq by exact HE; now rewrite k_tree_mode).
    destruct (kana_pieces E o s _ _ _ _ T) as (ps & Q & K). exists (pbytes ps (with_capacity (bytes s))), (conv (mode_of o) s).
    split; [now apply K|]. split; [exact T|]. cbn [app] in Q. pose proof (conv_bytes (mode_of o) s) as [B _]. rewrite Q in B |- *.
    split; [apply pour_contents|].
    destruct (pour_twice gb bytes bytes_app D (bytes s) ps (with_capacity (bytes s))) as [A C]; [left; split; [reflexivity|cbn [with_capacity capacity]; lia]|cbn [with_capacity contents]; rewrite bytes_nil; lia|].
    cbn [with_capacity contents grown] in A, C. rewrite bytes_nil in C. fold pbytes in A, C.
    split; [exact A|]. split; [|intro H; apply C; lia]. split.
    - intro G. destruct (Nat.le_gt_cases (bytes (concat ps)) (bytes s)) as [H|H]; [exact H|].
      destruct (pour_grown gb bytes bytes_app ps (with_capacity (bytes s))) as [_ Z]. cbn [with_capacity contents grown capacity] in Z. rewrite bytes_nil in Z.
      fold pbytes in Z. specialize (Z ltac:(lia) ltac:(lia)). unfold pbytes in *. lia.
    - intro H. unfold pbytes. rewrite (pour_fits gb bytes bytes_app); [reflexivity|]. cbn [with_capacity contents capacity]. rewrite bytes_nil. lia.
  Qed.
  Theorem k2h_alloc E s d : std_ok E -> doubles gb -> exists v b t, katakana_to_hiragana_alloc gc gb E s d = Ok (v, b) /\
    katakana_to_hiragana_with_opt E s d = Ok t /\ never_grown v t (length s) /\ contents b = t /\ (grown b <= 2)%nat.
  Proof.
    intros HE D. pose proof (katakana_to_hiragana_with_opt_eq E d s HE) as T. pose proof T as T'. unfold katakana_to_hiragana_with_opt in T'.
    destruct (k2h_pieces E s d s _ _ _ _ T') as (ps & Q & K). cbn [app] in Q.
    assert (F : pchars ps (with_capacity (length s)) = Build_buffer (k2h E d s) (length s) 0).
    { unfold pchars. rewrite (pour_fits gc (@length _) (@app_length _)); [cbn; now rewrite Q|]. cbn [with_capacity contents capacity]. rewrite <- Q. apply k2h_length. }
    exists (Build_buffer (k2h E d s) (length s) 0), (collect_string gb (k2h E d s)), (k2h E d s).
    unfold katakana_to_hiragana_alloc. rewrite K by reflexivity. rewrite F. cbn [bind contents]. split; [reflexivity|]. split; [exact T|].
    split; [now split|]. split; [apply collect_contents|now apply collect_twice].
  Qed.
  Theorem romaji_alloc E s o : std_ok E -> exists b t, to_romaji_alloc gc gb E s o = Ok b /\ to_romaji_with_opt E s o = Ok t /\ never_grown b t (bytes s).
  Proof.
    intros HE. pose proof (katakana_to_hiragana_with_opt_eq E true s HE) as T. pose proof T as T'. unfold katakana_to_hiragana_with_opt in T'.
    destruct (k2h_pieces E s true s _ _ _ _ T') as (ps & Q & K). cbn [app] in Q.
    pose proof (to_romaji_with_opt_eq E o s HE) as R. pose proof R as R'. unfold to_romaji_with_opt in R'. rewrite T in R'. cbn [bind] in R'.
    destruct (romaji_pieces E o s _ _ _ _ _ R') as (qs & Qr & Kr). cbn [app] in Qr.
    eexists. eexists. split.
    - unfold to_romaji_alloc, katakana_to_hiragana_alloc. rewrite K by reflexivity. cbn [bind snd].
      unfold pchars. rewrite pour_contents. cbn [with_capacity contents app]. rewrite <- Q, collect_contents. now apply Kr.
    - split; [exact R|]. rewrite Qr. unfold pbytes. rewrite (pour_fits gb bytes bytes_app); [now split|]. cbn [with_capacity contents capacity]. rewrite bytes_nil, <- Qr. now apply rom_bytes.
  Qed.
  Theorem h2k_alloc s : doubles gb -> exists v b t, hiragana_to_katakana_alloc gc gb s = Ok (v, b) /\
    hiragana_to_katakana s = Ok t /\ contents v = t /\ contents b = t /\ (grown b <= 2)%nat.
  Proof.
    intro D. destruct (h2k_pieces s (with_capacity 0)) as (ps & K & Q & _). exists (pchars ps (with_capacity 0)), (collect_string gb (h2k s)), (h2k s).
    unfold hiragana_to_katakana_alloc. rewrite K. cbn [bind].
    assert (C : contents (pchars ps (with_capacity 0)) = h2k s) by (unfold pchars; now rewrite pour_contents, Q).
    rewrite C. split; [reflexivity|]. split; [apply hiragana_to_katakana_ok|]. split; [reflexivity|]. split; [apply collect_contents|now apply collect_twice].
  Qed.
End Loops.

(** ** The growth of the standard library *)
Lemma amortized_doubles least : doubles (amortized least).
Proof. intros cap need _. unfold amortized. lia. Qed.

(** one character at a time, starting with nothing *)
Lemma pour_single ps : Forall (fun p : str => length p = 1%nat) ps -> forall b,
  let ok b := (length (contents b) <= capacity b /\ (grown b = 0 /\ capacity b = 0 \/ 1 <= grown b /\ capacity b = 2 ^ (grown b + 1) /\ (1 < grown b -> 2 ^ grown b < length (contents b)) /\ 1 <= length (contents b)))%nat in
  ok b -> ok (pour (amortized 4) (@length _) ps b).
Proof.
  induction 1 as [|p ps L _ IH]; intros b ok H; [exact H|]. cbn [pour fold_left]. apply IH.
  subst ok. cbv beta in *. unfold extend. rewrite L.
  destruct (Nat.leb (length (contents b) + 1) (capacity b)) eqn:G; cbn [contents capacity grown]; rewrite app_length, L.
  - apply Nat.leb_le in G. lia.
  - apply Nat.leb_gt in G. destruct H as [H [[G0 C0]|(G1 & C & M & P)]].
    + assert (length (contents b) = 0%nat) as -> by lia. rewrite G0, C0. cbn. lia.
    + assert (E : length (contents b) = capacity b) by lia. rewrite E in *. rewrite C in *.
      assert (W : (2 ^ (S (grown b) + 1) = 2 * 2 ^ (grown b + 1))%nat) by (cbn [Nat.add Nat.pow]; lia).
      assert (V : (2 ^ S (grown b) = 2 ^ (grown b + 1))%nat) by (f_equal; lia).
      assert (Z : (4 <= 2 ^ (grown b + 1))%nat) by (change 4%nat with (2 ^ 2)%nat; apply Nat.pow_le_mono_r; lia).
      rewrite W, V. unfold amortized. lia.
Qed.
Theorem h2k_grown gb s : exists v b, hiragana_to_katakana_alloc (amortized 4) gb s = Ok (v, b) /\
  (grown v = 0%nat <-> s = []) /\ (s <> [] -> length s <= 2 ^ (grown v + 1))%nat /\ (1 < grown v -> 2 ^ grown v < length s)%nat.
Proof.
  destruct (h2k_pieces (amortized 4) s (with_capacity 0)) as (ps & K & Q & F). pose proof (pour_single ps F (with_capacity 0)) as P.
  cbv zeta beta in P. cbn [with_capacity contents capacity grown length] in P. specialize (P ltac:(lia)).
  unfold hiragana_to_katakana_alloc. rewrite K. cbn [bind]. do 2 eexists. split; [reflexivity|].
  rewrite pour_contents, Q in P. cbn [with_capacity contents app] in P. assert (L : length (h2k s) = length s) by apply map_length. rewrite L in P.
  destruct P as [P [[G C]|(G & C & M & N1)]].
  - rewrite G. rewrite C in P. destruct s; [|cbn in P; lia]. split; [now split|]. split; [congruence|lia].
  - rewrite C in P. split; [|split; [intros _; exact P|exact M]]. split; [lia|]. intros ->. cbn in N1. lia.
Qed.
