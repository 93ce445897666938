(** * No addition or subtraction of the conversions overflows (proofs for C105) *)
From Coq Require Import ZArith Lia.
From Verif Require Import Base Std Unicode14 StdInstances Constants Chars Trees KanaTree RomajiTree Strings Tokenize Convert Machine.

Local Open Scope N_scope.

Lemma add_ok b um x y : x + y <= um -> usize_add b um x y = Ok (x + y).
Proof. intros H. unfold usize_add. apply N.leb_le in H. now rewrite H. Qed.
Lemma sub_ok b um x y : y <= x -> usize_sub b um x y = Ok (x - y).
Proof. intros H. unfold usize_sub. apply N.leb_le in H. now rewrite H. Qed.
Lemma add_nat b um x y : N.of_nat (x + y) <= um -> usize_add b um (N.of_nat x) (N.of_nat y) = Ok (N.of_nat (x + y)).
Proof. intros H. rewrite add_ok; [f_equal|]; lia. Qed.
Lemma add_1 b um x : N.of_nat (x + 1) <= um -> usize_add b um (N.of_nat x) 1 = Ok (N.of_nat (x + 1)).
Proof. exact (add_nat b um x 1). Qed.
Lemma of_nat_eqb x y : (N.of_nat x =? N.of_nat y) = Nat.eqb x y.
Proof. destruct (Nat.eqb_spec x y); [subst; apply N.eqb_refl|]. apply N.eqb_neq. lia. Qed.
Lemma i32_ok b z : (-0x80000000 <= z < 0x80000000)%Z -> i32 b z = Ok z.
Proof.
  intros [H1 H2]. unfold i32. apply Z.leb_le in H1. apply Z.ltb_lt in H2. now rewrite H1, H2.
Qed.
Lemma as_i32_low x : x < 0x80000000 -> as_i32 x = Z.of_N x.
Proof. intros H. unfold as_i32. apply N.ltb_lt in H. now rewrite H. Qed.
Lemma as_u32_low z : (0 <= z < 0x100000000)%Z -> as_u32 z = Z.to_N z.
Proof. intros H. unfold as_u32. now rewrite Z.mod_small. Qed.

(** ** The shifts *)
Lemma hira_bound c : is_char_hiragana c = true -> is_char_long_dash c = false -> 0x3041 <= c <= 0x3096.
Proof.
  unfold is_char_hiragana. intros H D. rewrite D in H. unfold is_char_in_range in H.
  apply andb_true_iff in H. rewrite !N.leb_le in H. exact H.
Qed.
Lemma kata_bound c : is_char_katakana c = true -> 0x30A1 <= c <= 0x30FC.
Proof.
  unfold is_char_katakana, is_char_in_range. intros H.
  apply andb_true_iff in H. rewrite !N.leb_le in H. exact H.
Qed.
Lemma h2k_m_ok b : forall s, hiragana_to_katakana_m b s = hiragana_to_katakana s.
Proof.
  induction s as [|c s IH]; [reflexivity|]. cbn [hiragana_to_katakana_m hiragana_to_katakana]. rewrite IH.
  destruct (is_char_long_dash c) eqn:D; [reflexivity|].
  destruct (is_char_slash_dot c); [reflexivity|]. cbn [orb].
  destruct (is_char_hiragana c) eqn:H; [|reflexivity]. pose proof (hira_bound _ H D) as B.
  change (i32_sub b (as_i32 KATAKANA_START) (as_i32 HIRAGANA_START)) with (@Ok Z 0x60%Z). cbn [bind].
  rewrite as_i32_low by lia. unfold i32_add. rewrite i32_ok by lia. cbn [bind]. rewrite as_u32_low by lia.
  change (KATAKANA_START - HIRAGANA_START) with 0x60.
  now replace (Z.to_N (Z.of_N c + 0x60)%Z) with (c + 0x60) by lia.
Qed.
Lemma hira_of_kata_m_ok b c : is_char_katakana c = true -> hira_of_kata_m b c = Ok (hira_of_kata c).
Proof.
  intros H. pose proof (kata_bound _ H) as B. unfold hira_of_kata_m, hira_of_kata.
  destruct (c =? ch "ヷ"); [reflexivity|]. destruct (c =? ch "ヸ"); [reflexivity|].
  destruct (c =? ch "ヹ"); [reflexivity|]. destruct (c =? ch "ヺ"); [reflexivity|].
  change (i32_sub b (as_i32 HIRAGANA_START) (as_i32 KATAKANA_START)) with (@Ok Z (-0x60)%Z). cbn [bind].
  rewrite as_i32_low by lia. unfold i32_add. rewrite i32_ok by lia. cbn [bind]. rewrite as_u32_low by lia.
  change (KATAKANA_START - HIRAGANA_START) with 0x60.
  now replace (Z.to_N (Z.of_N c + -0x60)%Z) with (c - 0x60) by lia.
Qed.

(** ** Katakana to hiragana *)
Lemma k2h_loop_m_ok b um E input d : forall rest i prev hira, N.of_nat (i + length rest) <= um ->
  k2h_loop_m b um E input d (N.of_nat i) prev rest hira = k2h_loop E input d i prev rest hira.
Proof.
  induction rest as [|c rest IH]; intros i prev hira L; [reflexivity|]. cbn [length] in L.
  assert (G : forall prev hira, k2h_loop_m b um E input d (N.of_nat (i + 1)) prev rest hira = k2h_loop E input d (S i) prev rest hira)
    by (intros; rewrite Nat.add_1_r; apply IH; lia).
  cbn [k2h_loop_m k2h_loop]. rewrite add_1 by lia. cbn [bind].
  unfold is_char_initial_long_dash_m, is_char_initial_long_dash, is_char_inner_long_dash_m, is_char_inner_long_dash.
  change 0 with (N.of_nat 0) at 1. rewrite !of_nat_eqb.
  change (N.of_nat i =? 0) with (N.of_nat i =? N.of_nat 0). rewrite of_nat_eqb.
  destruct (is_char_slash_dot c || is_char_long_dash c && Nat.eqb i 0 || is_kana_as_symbol c); [apply G|].
  assert (K : (if negb (is_char_long_dash c) && is_char_katakana c
     then h <- hira_of_kata_m b c ;; k2h_loop_m b um E input d (N.of_nat (i + 1)) (Some h) rest (hira ++ [h])
     else k2h_loop_m b um E input d (N.of_nat (i + 1)) None rest (hira ++ [c])) =
    (if negb (is_char_long_dash c) && is_char_katakana c
     then k2h_loop E input d (S i) (Some (hira_of_kata c)) rest (hira ++ [hira_of_kata c])
     else k2h_loop E input d (S i) None rest (hira ++ [c]))).
  { destruct (is_char_katakana c) eqn:Kc.
    - rewrite hira_of_kata_m_ok by assumption. cbn [bind]. destruct (negb (is_char_long_dash c)); apply G.
    - rewrite andb_false_r. apply G. }
  destruct prev as [pk|]; [|exact K].
  destruct (is_char_long_dash c && negb (Nat.eqb i 0)) eqn:I; [|exact K].
  apply andb_true_iff in I as [_ I]. apply negb_true_iff, Nat.eqb_neq in I.
  destruct (r_find E TO_ROMAJI_NODE_TREE pk) as [[node|]| |]; cbn [bind]; [|apply G|reflexivity|reflexivity].
  rewrite sub_ok by lia. unfold checked_sub. replace (Nat.leb 1 i) with true by (symmetry; apply Nat.leb_le; lia).
  cbn [bind]. replace (N.to_nat (N.of_nat i - 1)) with (i - 1)%nat by lia.
  destruct (nth_error input (i - 1)) as [p|].
  - destruct (is_char_katakana p && _ && d); [apply G|].
    destruct (last_char (rout node)) as [r|]; [|apply G]. destruct (LONG_VOWELS r); apply G.
  - destruct (last_char (rout node)) as [r|]; [|apply G]. destruct (LONG_VOWELS r); apply G.
Qed.
Lemma k2h_m_ok b um E s d : N.of_nat (length s) <= um ->
  katakana_to_hiragana_with_opt_m b um E s d = katakana_to_hiragana_with_opt E s d.
Proof. intros L. exact (k2h_loop_m_ok b um E s d s 0 None [] L). Qed.
(** the result is not longer *)
Lemma k2h_loop_le E input d : forall rest i prev hira out, k2h_loop E input d i prev rest hira = Ok out ->
  (length out <= length hira + length rest)%nat.
Proof.
  induction rest as [|c rest IH]; intros i prev hira out; cbn [k2h_loop length].
  { intros [= <-]. lia. }
  assert (G : forall x prev, k2h_loop E input d (S i) prev rest (hira ++ [x]) = Ok out -> (length out <= length hira + S (length rest))%nat)
    by (intros x p H; apply IH in H; rewrite app_length in H; cbn in H; lia).
  assert (G' : forall prev, k2h_loop E input d (S i) prev rest hira = Ok out -> (length out <= length hira + S (length rest))%nat)
    by (intros p H; apply IH in H; lia).
  destruct (_ || _ || _); [apply G|].
  assert (K : (if negb (is_char_long_dash c) && is_char_katakana c
     then k2h_loop E input d (S i) (Some (hira_of_kata c)) rest (hira ++ [hira_of_kata c])
     else k2h_loop E input d (S i) None rest (hira ++ [c])) = Ok out -> (length out <= length hira + S (length rest))%nat)
    by (destruct (_ && _); apply G).
  destruct prev as [pk|]; [|exact K]. destruct (is_char_inner_long_dash c i); [|exact K].
  destruct (r_find E TO_ROMAJI_NODE_TREE pk) as [[node|]| |]; cbn [bind]; [|apply G|discriminate|discriminate].
  destruct (checked_sub i 1); cbn [bind]; [|discriminate|discriminate].
  destruct (match nth_error input _ with Some _ => _ | None => _ end); [apply G|].
  destruct (last_char (rout node)) as [r|]; [|apply G']. destruct (LONG_VOWELS r); [apply G|apply G'].
Qed.
Lemma k2h_le E s d out : katakana_to_hiragana_with_opt E s d = Ok out -> (length out <= length s)%nat.
Proof. intros H. apply k2h_loop_le in H. exact H. Qed.

(** ** Romaji to kana *)
Lemma k_walk_le : forall chars n i, (snd (k_walk n chars i) <= i + length chars)%nat.
Proof.
  induction chars as [|c chars IH]; intros n i; cbn [k_walk length snd]; [lia|].
  destruct (k_find n (ascii_lower c)) as [m|]; cbn [snd]; [specialize (IH m (S i))|]; lia.
Qed.
Lemma k_walk_m_ok b um : forall chars n i, N.of_nat (i + length chars) <= um ->
  k_walk_m b um n chars (N.of_nat i) = Ok (fst (k_walk n chars i), N.of_nat (snd (k_walk n chars i))).
Proof.
  induction chars as [|c chars IH]; intros n i L; cbn [k_walk k_walk_m length] in *; [reflexivity|].
  destruct (k_find n (ascii_lower c)) as [m|]; [|reflexivity].
  rewrite add_1 by lia. cbn [bind]. rewrite Nat.add_1_r. apply IH. lia.
Qed.
Lemma k_get_m_ok b um n chars : N.of_nat (length chars) <= um ->
  k_get_m b um n chars = Ok (fst (k_get n chars), N.of_nat (snd (k_get n chars))).
Proof.
  intros L. unfold k_get_m, k_get. pose proof (k_walk_m_ok b um chars n 0 L) as W. cbn [N.of_nat] in W. rewrite W. cbn [bind fst snd].
  destruct (k_walk n chars 0) as [m i]. cbn [fst snd]. destruct (kout m); reflexivity.
Qed.
Lemma k_get_le n chars : (snd (k_get n chars) <= length chars)%nat.
Proof.
  unfold k_get. pose proof (k_walk_le chars n 0) as H. destruct (k_walk n chars 0) as [m i]. cbn [snd] in H.
  destruct (kout m); cbn [snd]; lia.
Qed.
Lemma to_kana_loop_m_ok b um E o chars : N.of_nat (length chars) <= um -> forall fuel p out, (p <= length chars)%nat ->
  to_kana_loop_m b um fuel E o chars (N.of_nat p) out = to_kana_loop fuel E o chars p out.
Proof.
  intros L. induction fuel as [|fuel IH]; intros p out P; [reflexivity|]. cbn [to_kana_loop_m to_kana_loop].
  rewrite of_nat_eqb. destruct (Nat.eqb_spec p (length chars)) as [|Ne]; [reflexivity|].
  destruct (kana_tree o) as [tree| |]; cbn [bind]; [|reflexivity|reflexivity].
  rewrite Nnat.Nat2N.id. unfold slice_from at 1 2. replace (Nat.leb p (length chars)) with true by (symmetry; apply Nat.leb_le; lia).
  cbn [bind]. pose proof (skipn_length p chars) as SL. rewrite k_get_m_ok by lia. cbn [bind fst snd].
  pose proof (k_get_le tree (skipn p chars)) as G. set (r := k_get tree (skipn p chars)) in *.
  change 0 with (N.of_nat 0). rewrite of_nat_eqb.
  destruct (Nat.eqb (snd r) 0 || _).
  - destruct (index chars p); cbn [bind]; [|reflexivity|reflexivity]. rewrite add_1 by lia. cbn [bind]. apply IH. lia.
  - rewrite add_nat by lia. cbn [bind]. rewrite Nnat.Nat2N.id.
    destruct (slice chars p (p + snd r)); cbn [bind]; [|reflexivity|reflexivity].
    destruct (unwrap (fst r)) as [v| |]; cbn [bind]; [|reflexivity|reflexivity].
    destruct (forallb (is_upper E) a).
    + rewrite h2k_m_ok. destruct (hiragana_to_katakana v); cbn [bind]; [|reflexivity|reflexivity]. apply IH. lia.
    + cbn [bind]. apply IH. lia.
Qed.
Lemma to_kana_m_ok b um E s o : N.of_nat (length s) <= um -> to_kana_with_opt_m b um E s o = to_kana_with_opt E s o.
Proof. intros L. exact (to_kana_loop_m_ok b um E o s L (S (length s)) 0 [] ltac:(lia)). Qed.

(** ** To hiragana, to katakana *)
(** lower case of texts not longer than [n] fits into [um] characters *)
Definition lower_fits (um : N) (E : std) (n : nat) : Prop :=
  forall t, (length t <= n)%nat -> N.of_nat (length (to_lowercase E t)) <= um.
Lemma to_hiragana_m_ok b um E s o : N.of_nat (length s) <= um -> lower_fits um E (length s) ->
  to_hiragana_with_opt_m b um E s o = to_hiragana_with_opt E s o.
Proof.
  intros L F. unfold to_hiragana_with_opt_m, to_hiragana_with_opt, katakana_to_hiragana, romaji_to_hiragana_m, romaji_to_hiragana.
  rewrite k2h_m_ok by assumption. destruct (pass_romaji o); [reflexivity|].
  destruct (is_mixed s).
  - destruct (katakana_to_hiragana_with_opt E s false) as [r| |] eqn:R; cbn [bind]; [|reflexivity|reflexivity].
    apply to_kana_m_ok, F. now apply k2h_le in R.
  - destruct (is_romaji s || _); [|reflexivity]. apply to_kana_m_ok, F. lia.
Qed.
Lemma to_katakana_m_ok b um E s o : N.of_nat (length s) <= um -> lower_fits um E (length s) ->
  to_katakana_with_opt_m b um E s o = to_katakana_with_opt E s o.
Proof.
  intros L F. unfold to_katakana_with_opt_m, to_katakana_with_opt, romaji_to_hiragana_m, romaji_to_hiragana.
  rewrite h2k_m_ok, to_kana_m_ok by (apply F; lia).
  destruct (to_kana_with_opt E (to_lowercase E s) o); cbn [bind]; rewrite ?h2k_m_ok; reflexivity.
Qed.

(** ** To romaji *)
Lemma r_walk_m_ok b um E : forall chars n i, N.of_nat (i + length chars) <= um ->
  r_walk_m b um E n chars (N.of_nat i) = (x <- r_walk E n chars i ;; Ok (fst x, N.of_nat (snd x))).
Proof.
  induction chars as [|c chars IH]; intros n i L; cbn [r_walk r_walk_m length] in *; [reflexivity|].
  destruct (r_find E n c) as [[m|]| |]; cbn [bind]; [|reflexivity|reflexivity|reflexivity].
  rewrite add_1 by lia. cbn [bind]. rewrite Nat.add_1_r. apply IH. lia.
Qed.
Lemma r_walk_le E : forall chars n i x, r_walk E n chars i = Ok x -> (snd x <= i + length chars)%nat.
Proof.
  induction chars as [|c chars IH]; intros n i x; cbn [r_walk length].
  { intros [= <-]. cbn [snd]. lia. }
  destruct (r_find E n c) as [[m|]| |]; cbn [bind]; [|intros [= <-]; cbn [snd]; lia|discriminate|discriminate].
  intros H. apply IH in H. lia.
Qed.
Lemma r_get_m_ok b um E n chars : N.of_nat (length chars) <= um ->
  r_get_m b um E n chars = (x <- r_get E n chars ;; Ok (fst x, N.of_nat (snd x))).
Proof.
  intros L. unfold r_get_m, r_get. pose proof (r_walk_m_ok b um E chars n 0 L) as W. cbn [N.of_nat] in W. rewrite W.
  destruct (r_walk E n chars 0); reflexivity.
Qed.
Lemma r_get_le E n chars x : r_get E n chars = Ok x -> (snd x <= length chars)%nat.
Proof.
  unfold r_get. destruct (r_walk E n chars 0) as [y| |] eqn:W; cbn [bind]; [|discriminate|discriminate].
  intros [= <-]. apply r_walk_le in W. exact W.
Qed.
Lemma to_romaji_loop_m_ok b um E o orig chars : N.of_nat (length chars) <= um -> forall fuel p out, (p <= length chars)%nat ->
  to_romaji_loop_m b um fuel E o orig chars (N.of_nat p) out = to_romaji_loop fuel E o orig chars p out.
Proof.
  intros L. induction fuel as [|fuel IH]; intros p out P; [reflexivity|]. cbn [to_romaji_loop_m to_romaji_loop].
  rewrite of_nat_eqb. destruct (Nat.eqb_spec p (length chars)) as [|Ne]; [reflexivity|].
  rewrite Nnat.Nat2N.id. unfold slice_from at 1 2. replace (Nat.leb p (length chars)) with true by (symmetry; apply Nat.leb_le; lia).
  cbn [bind]. pose proof (skipn_length p chars) as SL. rewrite r_get_m_ok by lia.
  destruct (r_get E TO_ROMAJI_NODE_TREE (skipn p chars)) as [r| |] eqn:R; cbn [bind fst snd]; [|reflexivity|reflexivity].
  apply r_get_le in R.
  change 0 with (N.of_nat 0). rewrite of_nat_eqb. destruct (Nat.eqb (snd r) 0).
  - destruct (index chars p); cbn [bind]; [|reflexivity|reflexivity]. rewrite add_1 by lia. cbn [bind]. apply IH. lia.
  - rewrite add_nat by lia. cbn [bind]. rewrite Nnat.Nat2N.id.
    destruct (slice orig p (p + snd r)); cbn [bind]; [|reflexivity|reflexivity]. apply IH. lia.
Qed.
Lemma to_romaji_m_ok b um E s o : N.of_nat (length s) <= um -> to_romaji_with_opt_m b um E s o = to_romaji_with_opt E s o.
Proof.
  intros L. unfold to_romaji_with_opt_m, to_romaji_with_opt. rewrite k2h_m_ok by assumption.
  destruct (katakana_to_hiragana_with_opt E s true) as [k| |] eqn:K; cbn [bind]; [|reflexivity|reflexivity].
  apply k2h_le in K. apply (to_romaji_loop_m_ok b um E o s k ltac:(lia) (S (length k)) 0 [] ltac:(lia)).
Qed.

(** ** With overflow checks a result means that the text fits *)
Lemma add_debug um x y z : usize_add Debug um x y = Ok z -> z = x + y /\ x + y <= um.
Proof. unfold usize_add. destruct (N.leb_spec (x + y) um); [|discriminate]. intros [= <-]. split; [reflexivity|assumption]. Qed.
Lemma k2h_loop_fits um E input d : forall rest i prev hira out, i <= um ->
  k2h_loop_m Debug um E input d i prev rest hira = Ok out -> i + N.of_nat (length rest) <= um.
Proof.
  induction rest as [|c rest IH]; intros i prev hira out I; cbn [k2h_loop_m length]; [lia|].
  destruct (usize_add Debug um i 1) as [j| |] eqn:A; cbn [bind]; [|discriminate|discriminate]. apply add_debug in A as [-> A].
  assert (G : forall prev hira, k2h_loop_m Debug um E input d (i + 1) prev rest hira = Ok out -> i + N.of_nat (S (length rest)) <= um)
    by (intros p h H; apply IH in H; lia).
  destruct (_ || _ || _); [apply G|].
  assert (K : (if negb (is_char_long_dash c) && is_char_katakana c
     then h <- hira_of_kata_m Debug c ;; k2h_loop_m Debug um E input d (i + 1) (Some h) rest (hira ++ [h])
     else k2h_loop_m Debug um E input d (i + 1) None rest (hira ++ [c])) = Ok out -> i + N.of_nat (S (length rest)) <= um).
  { destruct (_ && _); [|apply G]. destruct (hira_of_kata_m Debug c); cbn [bind]; [apply G|discriminate|discriminate]. }
  destruct prev as [pk|]; [|exact K]. destruct (is_char_inner_long_dash_m c i); [|exact K].
  destruct (r_find E TO_ROMAJI_NODE_TREE pk) as [[node|]| |]; cbn [bind]; [|apply G|discriminate|discriminate].
  destruct (usize_sub Debug um i 1); cbn [bind]; [|discriminate|discriminate].
  destruct (match nth_error input _ with Some _ => _ | None => _ end); [apply G|].
  destruct (last_char (rout node)) as [r|]; [|apply G]. destruct (LONG_VOWELS r); apply G.
Qed.
Lemma k2h_fits um E s d out : katakana_to_hiragana_with_opt_m Debug um E s d = Ok out -> N.of_nat (length s) <= um.
Proof. intros H. apply k2h_loop_fits in H; lia. Qed.
Lemma to_kana_loop_fits um E o chars : forall fuel p out t, p <= um ->
  to_kana_loop_m Debug um fuel E o chars p out = Ok t -> N.of_nat (length chars) <= um.
Proof.
  induction fuel as [|fuel IH]; intros p out t P; cbn [to_kana_loop_m]; [discriminate|].
  destruct (N.eqb_spec p (N.of_nat (length chars))) as [<-|_]; [intros _; exact P|].
  destruct (kana_tree o); cbn [bind]; [|discriminate|discriminate].
  destruct (slice_from chars (N.to_nat p)); cbn [bind]; [|discriminate|discriminate].
  destruct (k_get_m _ _ _ _) as [r| |]; cbn [bind]; [|discriminate|discriminate].
  destruct (_ || _).
  - destruct (index chars (N.to_nat p)); cbn [bind]; [|discriminate|discriminate].
    destruct (usize_add Debug um p 1) as [j| |] eqn:A; cbn [bind]; [|discriminate|discriminate]. apply add_debug in A as [-> A]. now apply IH.
  - destruct (usize_add Debug um p (snd r)) as [j| |] eqn:A; cbn [bind]; [|discriminate|discriminate]. apply add_debug in A as [-> A].
    destruct (slice chars _ _); cbn [bind]; [|discriminate|discriminate].
    destruct (unwrap (fst r)); cbn [bind]; [|discriminate|discriminate].
    destruct (if forallb (is_upper E) _ then _ else _); cbn [bind]; [|discriminate|discriminate]. now apply IH.
Qed.
Lemma to_kana_fits um E s o t : to_kana_with_opt_m Debug um E s o = Ok t -> N.of_nat (length s) <= um.
Proof. apply to_kana_loop_fits. lia. Qed.
Lemma to_romaji_fits um E s o t : to_romaji_with_opt_m Debug um E s o = Ok t -> N.of_nat (length s) <= um.
Proof.
  unfold to_romaji_with_opt_m. destruct (katakana_to_hiragana_with_opt_m Debug um E s true) as [k| |] eqn:K; cbn [bind]; [|discriminate|discriminate].
  intros _. now apply k2h_fits in K.
Qed.

(** ** Lower case *)
Lemma lower_three E : (forall c, (length (lower_char E c) <= 3)%nat) -> forall t, (length (to_lowercase E t) <= 3 * length t)%nat.
Proof.
  intros H t. unfold to_lowercase. generalize (@nil N). induction t as [|c t IH]; intros before; cbn [to_lowercase_from length]; [lia|].
  rewrite app_length. specialize (IH (c :: before)). specialize (H c).
  destruct (c =? SIGMA); [destruct (_ && _); cbn [length]|]; lia.
Qed.
Lemma three_fits um E (s : str) : (forall c, (length (lower_char E c) <= 3)%nat) -> 3 * N.of_nat (length s) <= um -> lower_fits um E (length s).
Proof. intros H L t T. pose proof (lower_three E H t). lia. Qed.
Lemma unicode_three bs c : (length (lower_char (unicode14_std bs) c) <= 3)%nat.
Proof.
  cbn [lower_char unicode14_std]. unfold map_char.
  assert (F : forallb (fun x => Nat.leb (length (snd x)) 3) lower_multi = true) by (vm_compute; reflexivity).
  destruct (find _ lower_multi) as [x|] eqn:X.
  - apply find_some in X as [X _]. rewrite forallb_forall in F. specialize (F x X). now apply Nat.leb_le in F.
  - destruct (find _ lower_ranges) as [[[[[? ?] ?] ?] ?]|]; cbn [length]; lia.
Qed.
