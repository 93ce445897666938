(** * Proof of C103, continued: from characters to texts *)
From Verif Require Import Base Tac Std Constants Chars Strings Tokenize Convert KanaPure Predicates TokenSpec Work WorkProofs.

(** ** Texts *)
Lemma any_tests {A} (p : A -> W bool) k l : (forall a, (tests (p a) <= k)%nat) -> (tests (any_w p l) <= k * length l)%nat.
Proof.
  intro H. induction l as [|a l IH]; [cbn; lia|]. cbn [any_w andthen tests length]. specialize (H a). destruct (value (p a)); cbn [ret tests]; lia.
Qed.
Lemma all_tests {A} (p : A -> W bool) k l : (forall a, (tests (p a) <= k)%nat) -> (tests (all_w p l) <= k * length l)%nat.
Proof.
  intro H. induction l as [|a l IH]; [cbn; lia|]. cbn [all_w andthen tests length]. specialize (H a). destruct (value (p a)); cbn [ret tests]; lia.
Qed.
Lemma nonempty_tests p k s : (forall a, (tests (p a) <= k)%nat) -> (tests (nonempty_all_w p s) <= k * length s)%nat.
Proof. intro H. unfold nonempty_all_w. destruct (is_empty s); [cbn; lia|]. now apply all_tests. Qed.
Lemma all_stop {A} (p : A -> W bool) a x w : value (p x) = false -> all_w p (a ++ x :: w) = all_w p (a ++ [x]).
Proof.
  intro H. induction a as [|y a IH]; cbn [app all_w].
  - unfold andthen. now rewrite H.
  - now rewrite IH.
Qed.
Lemma any_stop {A} (p : A -> W bool) a x w : value (p x) = true -> any_w p (a ++ x :: w) = any_w p (a ++ [x]).
Proof.
  intro H. induction a as [|y a IH]; cbn [app any_w].
  - unfold andthen. now rewrite H.
  - now rewrite IH.
Qed.
Lemma nonempty_stop p a x w : value (p x) = false -> nonempty_all_w p (a ++ x :: w) = nonempty_all_w p (a ++ [x]).
Proof.
  intro H. unfold nonempty_all_w. replace (is_empty (a ++ x :: w)) with false by (destruct a; reflexivity).
  replace (is_empty (a ++ [x])) with false by (destruct a; reflexivity). now apply all_stop.
Qed.
Lemma all_exact {A} (p : A -> W bool) l : forallb (fun a => value (p a)) l = true -> tests (all_w p l) = list_sum (map (fun a => tests (p a)) l).
Proof.
  induction l as [|a l IH]; [reflexivity|]. cbn [forallb all_w andthen tests map]. intro H. apply andb_prop in H as [H1 H2].
  rewrite H1, (IH H2). reflexivity.
Qed.
Lemma all_exact_fail {A} (p : A -> W bool) a x : forallb (fun a => value (p a)) a = true -> value (p x) = false ->
  tests (all_w p (a ++ [x])) = (list_sum (map (fun a => tests (p a)) a) + tests (p x))%nat.
Proof.
  intros H1 H2. induction a as [|y a IH]; cbn [app all_w andthen tests map].
  - rewrite H2. cbn. lia.
  - cbn [forallb] in H1. apply andb_prop in H1 as [H1 H3]. rewrite H1, (IH H3). unfold list_sum. cbn [fold_right]. lia.
Qed.
Lemma kana_tests c : (tests (is_char_kana_w c) <= 2)%nat.
Proof.
  unfold is_char_kana_w. rewrite or_tests. destruct (hira_tests c) as [H _]. destruct (value (is_char_hiragana_w c)); cbn; lia.
Qed.
Lemma keys_tests {A K} (key : A -> W K) l : tests (keys_w key l) = list_sum (map (fun a => tests (key a)) l) /\ runs (keys_w key l) = list_sum (map (fun a => runs (key a)) l).
Proof.
  induction l as [|a l [I1 I2]]; [now split|]. cbn [keys_w andthen ret tests runs map]. rewrite I1, I2. unfold list_sum. cbn [fold_right]. lia.
Qed.
Lemma detailed_tests s b : tests (tokenize_detailed_w s b) = list_sum (map (fun c => tests (get_type_w c b)) s).
Proof. unfold tokenize_detailed_w. cbn [andthen ret tests]. rewrite (proj1 (keys_tests _ s)). lia. Qed.
Lemma token_tests s b : tests (tokenize_with_opt_w s b) = list_sum (map (fun c => tests (get_type_w c b)) s).
Proof. unfold tokenize_with_opt_w. cbn [andthen ret tests]. rewrite (proj1 (keys_tests _ s)). lia. Qed.

(** ** No regex *)
Lemma arms_runs {A} g (a : A) l d : runs g = 0%nat -> runs (arms_w l d) = 0%nat -> runs (arms_w ((g, a) :: l) d) = 0%nat.
Proof. cbn [arms_w andthen runs]. intros -> H. destruct (value g); [reflexivity|exact H]. Qed.
Lemma or_runs x y : runs x = 0%nat -> runs y = 0%nat -> runs (or_w x y) = 0%nat.
Proof. unfold or_w. cbn [andthen runs]. intros -> H. destruct (value x); [reflexivity|exact H]. Qed.
Lemma ranges_runs c rs : runs (in_ranges_w c rs) = 0%nat.
Proof. apply ranges_tests. Qed.
Lemma hira_runs c : runs (is_char_hiragana_w c) = 0%nat.
Proof. unfold is_char_hiragana_w. destruct (is_char_long_dash c); reflexivity. Qed.
Lemma type_runs c b : runs (get_type_w c b) = 0%nat.
Proof.
  unfold get_type_w. destruct b; repeat (apply arms_runs || apply or_runs || apply ranges_runs || apply hira_runs || reflexivity).
Qed.
Lemma sum_zero {A} (f : A -> nat) l : (forall a, f a = 0%nat) -> list_sum (map f l) = 0%nat.
Proof. intro H. induction l as [|a l IH]; [reflexivity|]. unfold list_sum in *. cbn [map fold_right]. rewrite H, IH. reflexivity. Qed.
Lemma detailed_runs s b : runs (tokenize_detailed_w s b) = 0%nat /\ runs (tokenize_with_opt_w s b) = 0%nat.
Proof.
  unfold tokenize_detailed_w, tokenize_with_opt_w. cbn [andthen ret runs]. rewrite (proj2 (keys_tests _ s)).
  rewrite sum_zero by (intro; apply type_runs). now split.
Qed.

(** ** The tokenizer *)
Lemma sum_le {A} (f : A -> nat) k l : (forall a, (f a <= k)%nat) ->
  (list_sum (map f l) <= k * length l)%nat /\ (list_sum (map f l) = (k * length l)%nat <-> Forall (fun a => f a = k) l).
Proof.
  intro H. induction l as [|a l [I1 I2]]; [cbn; split; [lia|split; [constructor|lia]]|]. unfold list_sum in *. cbn [map fold_right length].
  specialize (H a). split; [lia|]. split; intro Q.
  - constructor; [lia|]. apply I2. lia.
  - inversion Q; subst. apply I2 in H3. lia.
Qed.
Lemma sum_nil {A} (f : A -> nat) l : list_sum (map f l) = 0%nat <-> Forall (fun a => f a = 0%nat) l.
Proof.
  induction l as [|a l IH]; [split; [constructor|reflexivity]|]. unfold list_sum in *. cbn [map fold_right].
  split; intro H; [constructor; [lia|apply IH; lia]|inversion H; subst; apply IH in H3; lia].
Qed.
Lemma sum_const {A} (f : A -> nat) (k : nat) l : Forall (fun a => f a = k) l -> list_sum (map f l) = (k * length l)%nat.
Proof. unfold list_sum. induction 1 as [|a l H _ IH]; [cbn; lia|]. cbn [map fold_right length]. lia. Qed.
Lemma Forall_iff {A} (P Q : A -> Prop) l : (forall a, P a <-> Q a) -> Forall P l <-> Forall Q l.
Proof. intro H. split; apply Forall_impl; intros a; apply H. Qed.
Lemma tokenizer (s : str) (b : bool) :
  let k := (if b then 39 else 42)%nat in let t := tests (tokenize_detailed_w s b) in
  tests (tokenize_with_opt_w s b) = t /\ (t <= k * length s)%nat /\ (t = (k * length s)%nat <-> Forall dear s)
  /\ (t = 0%nat <-> Forall (fun c => c = 0x20 \/ c = 0x3000) s) /\ runs (tokenize_detailed_w s b) = 0%nat /\ runs (tokenize_with_opt_w s b) = 0%nat.
Proof.
  cbv zeta. rewrite token_tests, detailed_tests.
  destruct (sum_le (fun c => tests (get_type_w c b)) (if b then 39 else 42)%nat s (fun c => proj1 (type_tests c b))) as [A B].
  split; [reflexivity|]. split; [exact A|]. split.
  - rewrite B. apply Forall_iff. intro c. apply type_tests.
  - split; [|apply detailed_runs]. rewrite sum_nil. apply Forall_iff. intro c. apply type_tests.
Qed.
Lemma tokenizer_app s t b : tests (tokenize_detailed_w (s ++ t) b) = (tests (tokenize_detailed_w s b) + tests (tokenize_detailed_w t b))%nat.
Proof. rewrite !detailed_tests, map_app, list_sum_app. reflexivity. Qed.

(** ** Texts of one kind *)
Lemma any_app {A} (p : A -> W bool) a b : tests (any_w p (a ++ b)) = (tests (any_w p a) + if value (any_w p a) then 0 else tests (any_w p b))%nat.
Proof.
  induction a as [|x a IH]; [reflexivity|]. cbn [app any_w andthen tests value]. destruct (value (p x)); cbn [ret tests value]; [lia|]. rewrite IH. lia.
Qed.
Lemma ranges_at c pre lo hi post : in_ranges c pre = false -> is_char_in_range c lo hi = true ->
  tests (in_ranges_w c (pre ++ (lo, hi) :: post)) = S (length pre).
Proof.
  intros H1 H2. unfold in_ranges_w. rewrite any_app. fold (in_ranges_w c pre). rewrite ranges_value, H1.
  destruct (ranges_tests c pre) as (_ & E & _). rewrite (E H1). cbn [any_w andthen fst snd value tests is_char_in_range_w]. rewrite H2. cbn. lia.
Qed.
Lemma ranges_none c rs : in_ranges c rs = false -> tests (in_ranges_w c rs) = length rs.
Proof. apply ranges_tests. Qed.
Definition plain c := is_char_japanese_number c = false /\ is_char_latin_number c = false /\ is_char_english_punctuation c = false
  /\ is_char_japanese_punctuation c = false /\ c =? ch " " = false /\ c =? 0x3000 = false.
Lemma plain_compact c : plain c -> tests (get_type_w c true) = (16 + (tests (is_char_japanese_w c) + if is_char_japanese c then 0 else tests (is_char_romaji_w c)))%nat.
Proof.
  intros (A & B & C & D & F & G). unfold get_type_w. guards c. cbn [ret value tests]. change (tests (arms_w [] Other)) with 0%nat.
  rewrite A, B, C, D, F, G. cbn [orb]. rewrite (ranges_none c EN_PUNCTUATION_RANGES C), (ranges_none c JA_PUNCTUATION_RANGES D).
  change (length EN_PUNCTUATION_RANGES) with 6%nat. change (length JA_PUNCTUATION_RANGES) with 8%nat. unfold is_char_japanese_w. destruct (is_char_romaji c), (is_char_japanese c); lia.
Qed.
Lemma plain_detailed c : plain c -> tests (get_type_w c false) =
  (17 + if is_char_kanji c then 0 else tests (is_char_hiragana_w c) + if is_char_hiragana c then 0 else
     1 + if is_char_katakana c then 0 else tests (is_char_japanese_w c) + if is_char_japanese c then 0 else tests (is_char_romaji_w c))%nat.
Proof.
  intros (A & B & C & D & F & G). unfold get_type_w. guards c. cbn [ret value tests]. change (tests (arms_w [] Other)) with 0%nat.
  rewrite A, B, C, D, F, G. cbn [orb]. rewrite (ranges_none c EN_PUNCTUATION_RANGES C), (ranges_none c JA_PUNCTUATION_RANGES D).
  change (length EN_PUNCTUATION_RANGES) with 6%nat. change (length JA_PUNCTUATION_RANGES) with 8%nat. unfold is_char_japanese_w.
  destruct (is_char_romaji c), (is_char_japanese c), (is_char_katakana c), (is_char_hiragana c), (is_char_kanji c); lia.
Qed.
Ltac decided := unf; ifs; lia.
Lemma letter_cost c : 65 <= c <= 90 \/ 97 <= c <= 122 -> tests (get_type_w c false) = 37%nat /\ tests (get_type_w c true) = 34%nat.
Proof.
  intro H. assert (P : plain c) by (unfold plain; change (ch " ") with 32; repeat split; decided). rewrite (plain_compact c P), (plain_detailed c P).
  assert (J : is_char_japanese c = false) by decided. assert (K : is_char_kanji c = false) by decided.
  assert (Hi : is_char_hiragana c = false) by decided. assert (Ka : is_char_katakana c = false) by decided.
  rewrite K, Hi, Ka, J. rewrite (proj2 (hira_tests c) Hi). unfold is_char_japanese_w. rewrite (ranges_none c JAPANESE_RANGES J).
  assert (R : tests (is_char_romaji_w c) = 1%nat) by (apply (ranges_at c [] 0 127 HEPBURN_MACRON_RANGES); [reflexivity|decided]).
  rewrite R. split; reflexivity.
Qed.
Definition cjk_before := [ZENKAKU_UPPERCASE; ZENKAKU_LOWERCASE; ZENKAKU_NUMBERS].
Lemma kanji_cost c : 0x4E00 <= c <= 0x9FAF -> tests (get_type_w c false) = 17%nat /\ tests (get_type_w c true) = 20%nat.
Proof.
  intro H. assert (P : plain c) by (unfold plain; change (ch " ") with 32; repeat split; decided). rewrite (plain_compact c P), (plain_detailed c P).
  assert (J : is_char_japanese c = true) by decided. assert (K : is_char_kanji c = true) by decided. rewrite K, J.
  unfold is_char_japanese_w. split; [reflexivity|].
  assert (R : tests (in_ranges_w c JAPANESE_RANGES) = 4%nat)
    by (apply (ranges_at c cjk_before (fst COMMON_CJK) (snd COMMON_CJK) ([RARE_CJK] ++ KANA_RANGES ++ JA_PUNCTUATION_RANGES)); [unfold cjk_before; decided|decided]).
  rewrite R. reflexivity.
Qed.
Lemma hiragana_cost c : 0x3041 <= c <= 0x3096 -> tests (get_type_w c false) = 18%nat /\ tests (get_type_w c true) = 22%nat.
Proof.
  intro H. assert (P : plain c) by (unfold plain; change (ch " ") with 32; repeat split; decided). rewrite (plain_compact c P), (plain_detailed c P).
  assert (J : is_char_japanese c = true) by decided. assert (K : is_char_kanji c = false) by decided. rewrite K, J.
  assert (Hi : is_char_hiragana c = true) by decided. rewrite Hi.
  assert (T : tests (is_char_hiragana_w c) = 1%nat) by (unfold is_char_hiragana_w; replace (is_char_long_dash c) with false by (symmetry; decided); reflexivity).
  rewrite T. unfold is_char_japanese_w. split; [reflexivity|].
  assert (R : tests (in_ranges_w c JAPANESE_RANGES) = 6%nat)
    by (apply (ranges_at c (cjk_before ++ [COMMON_CJK; RARE_CJK]) (fst HIRAGANA_CHARS) (snd HIRAGANA_CHARS) (tl KANA_RANGES ++ JA_PUNCTUATION_RANGES)); [unfold cjk_before; decided|decided]).
  rewrite R. reflexivity.
Qed.
Lemma katakana_cost c : 0x30A1 <= c <= 0x30FA -> tests (get_type_w c false) = 19%nat /\ tests (get_type_w c true) = 23%nat.
Proof.
  intro H. assert (P : plain c) by (unfold plain; change (ch " ") with 32; repeat split; decided). rewrite (plain_compact c P), (plain_detailed c P).
  assert (J : is_char_japanese c = true) by decided. assert (K : is_char_kanji c = false) by decided. rewrite K, J.
  assert (Hi : is_char_hiragana c = false) by decided. rewrite Hi. assert (Ka : is_char_katakana c = true) by decided. rewrite Ka.
  rewrite (proj2 (hira_tests c) Hi). unfold is_char_japanese_w. split; [reflexivity|].
  assert (R : tests (in_ranges_w c JAPANESE_RANGES) = 7%nat)
    by (apply (ranges_at c (cjk_before ++ [COMMON_CJK; RARE_CJK; HIRAGANA_CHARS]) (fst KATAKANA_CHARS) (snd KATAKANA_CHARS) (tl (tl KANA_RANGES) ++ JA_PUNCTUATION_RANGES)); [unfold cjk_before; decided|decided]).
  rewrite R. reflexivity.
Qed.
Lemma uniform (P : N -> Prop) k b s : (forall c, P c -> tests (get_type_w c b) = k) -> Forall P s -> tests (tokenize_detailed_w s b) = (k * length s)%nat.
Proof. intros H F. rewrite detailed_tests. apply sum_const. revert F. apply Forall_impl. exact H. Qed.

(** ** The whitelists *)
Lemma whitelist_runs p q s r : (forall c, value (p c) = q c) -> (forall c, runs (p c) = 0%nat) ->
  runs (whitelist_w p s (Some r)) = (if r s then length (filter (fun c => negb (q c)) s) else Nat.min 1 (length (filter (fun c => negb (q c)) s))).
Proof.
  intros H R. unfold whitelist_w, nonempty_all_w. destruct s as [|c0 s0]; [cbn [is_empty ret runs filter length]; now destruct (r [])|].
  cbn [is_empty]. set (w := c0 :: s0). enough (G : forall l,
    runs (all_w (fun c => is_jap <~ p c ;; if negb is_jap then run_w r w else ret is_jap) l)
    = if r w then length (filter (fun c => negb (q c)) l) else Nat.min 1 (length (filter (fun c => negb (q c)) l))) by apply G.
  clearbody w. induction l as [|c l IH]; [cbn; now destruct (r w)|]. cbn [all_w andthen runs value]. rewrite H, R. cbn [filter].
  destruct (q c) eqn:Q; cbn [negb run_w runs value ret Nat.add].
  - exact IH.
  - destruct (r w); cbn [length Nat.add]; [now rewrite IH|reflexivity].
Qed.
Lemma whitelist_none p s : (forall c, runs (p c) = 0%nat) -> runs (whitelist_w p s None) = 0%nat.
Proof.
  intro R. unfold whitelist_w, nonempty_all_w. destruct (is_empty s); [reflexivity|].
  induction s as [|c l IH]; [reflexivity|]. cbn [all_w andthen runs value]. rewrite R. destruct (value (p c)); cbn [negb ret value runs]; [exact IH|reflexivity].
Qed.

(** ** Trimming *)
Lemma japanese_first c : is_char_japanese c = true -> is_char_japanese_punctuation c = false -> (tests (is_char_japanese_w c) <= 9)%nat.
Proof.
  intros J P. unfold is_char_japanese_w. set (pre := [ZENKAKU_UPPERCASE; ZENKAKU_LOWERCASE; ZENKAKU_NUMBERS; COMMON_CJK; RARE_CJK] ++ KANA_RANGES).
  change JAPANESE_RANGES with (pre ++ JA_PUNCTUATION_RANGES). unfold in_ranges_w. rewrite any_app. fold (in_ranges_w c pre). rewrite ranges_value.
  assert (E : in_ranges c pre = true).
  { unfold is_char_japanese in J. change JAPANESE_RANGES with (pre ++ JA_PUNCTUATION_RANGES) in J. unfold in_ranges in J. rewrite existsb_app in J.
    apply orb_prop in J as [J|J]; [exact J|]. exact (False_ind _ (Bool.diff_true_false (eq_trans (eq_sym J) P))). }
  rewrite E. destruct (ranges_tests c pre) as (H & _). change (length pre) with 9%nat in H. lia.
Qed.
Lemma japanese_cost c : is_char_japanese c = true ->
  (tests (is_char_japanese_w c) + tests (get_type_w c false) + (if is_char_kana c then 2 else 0) <= 37)%nat.
Proof.
  intro J. pose proof (japanese_first c J) as F. unfold is_char_kana.
  destruct (ranges_tests c EN_PUNCTUATION_RANGES) as (e1 & _). destruct (ranges_tests c JA_PUNCTUATION_RANGES) as (p1 & _).
  destruct (ranges_tests c JAPANESE_RANGES) as (j1 & _). destruct (hira_tests c) as (h1 & _).
  change (length EN_PUNCTUATION_RANGES) with 6%nat in *. change (length JA_PUNCTUATION_RANGES) with 8%nat in *.
  change (length JAPANESE_RANGES) with 17%nat in *. unfold is_char_japanese_w in F.
  unfold get_type_w. guards c. cbn [ret value tests]. change (tests (arms_w [] Other)) with 0%nat. rewrite J.
  generalize dependent (tests (in_ranges_w c JAPANESE_RANGES)). generalize dependent (tests (in_ranges_w c JA_PUNCTUATION_RANGES)).
  generalize dependent (tests (in_ranges_w c EN_PUNCTUATION_RANGES)). generalize dependent (tests (is_char_hiragana_w c)). intros.
  destruct (is_char_japanese_punctuation c).
  - clear F. destruct (c =? ch " "), (c =? 0x3000), (is_char_japanese_number c), (is_char_latin_number c), (is_char_english_punctuation c), (is_char_hiragana c || is_char_katakana c); lia.
  - specialize (F eq_refl).
    destruct (is_char_hiragana c); cbn [orb]; [|destruct (is_char_katakana c); cbn [orb]].
    all: destruct (c =? ch " "); [lia|]; destruct (c =? 0x3000); [lia|]; destruct (is_char_japanese_number c); [lia|]; destruct (is_char_latin_number c); [lia|];
      destruct (is_char_english_punctuation c); [lia|]; destruct (is_char_kanji c); lia.
Qed.
Lemma all_kana_tests s : (tests (all_w is_char_kana_w s) <= 2 + list_sum (map (fun c => if is_char_kana c then 2 else 0) s))%nat.
Proof.
  induction s as [|c s IH]; [cbn; lia|]. cbn [all_w andthen tests map]. rewrite kana_value. pose proof (kana_tests c). unfold list_sum in *. cbn [fold_right].
  destruct (is_char_kana c); cbn [ret tests]; lia.
Qed.
Lemma trim_sum s : forallb is_char_japanese s = true ->
  (list_sum (map (fun c => tests (is_char_japanese_w c)) s) + list_sum (map (fun c => tests (get_type_w c false)) s)
    + list_sum (map (fun c => if is_char_kana c then 2 else 0) s) <= 37 * length s)%nat.
Proof.
  induction s as [|c s IH]; [cbn; lia|]. cbn [forallb]. intro H. apply andb_prop in H as [H1 H2]. specialize (IH H2). pose proof (japanese_cost c H1).
  unfold list_sum in *. cbn [map fold_right length]. lia.
Qed.
Lemma without_tests b s f : (tests (without_kana_w b s f) <= if b then 2 else 0)%nat.
Proof.
  unfold without_kana_w. destruct (is_empty s); [destruct b; cbn; lia|]. destruct b; [|cbn; lia]. destruct f as [c|]; [|cbn; lia].
  cbn [andthen ret tests]. pose proof (kana_tests c). lia.
Qed.
Lemma trim_tests s b m : (tests (trim_okurigana_with_opt_w s b m) <= match m with None => 37 * length s + 4 | Some w => 17 * length s + 43 * length w + 2 end)%nat.
Proof.
  assert (J0 : (tests (is_japanese_w s) <= 17 * length s)%nat) by (apply nonempty_tests; intro c; apply ranges_tests).
  unfold trim_okurigana_with_opt_w. cbn [andthen tests].
  assert (V : value (is_japanese_w s) = is_japanese s) by (unfold is_japanese_w; apply nonempty_value; intro; apply ranges_value). rewrite V.
  pose proof (without_tests b s (nth_error s 0)) as L. pose proof (without_tests (negb b) s (nth_error (rev s) 0)) as T.
  destruct (is_japanese s) eqn:J; cbn [negb].
  2: { cbn [ret tests]. destruct m; lia. }
  assert (FA : forallb is_char_japanese s = true) by (unfold is_japanese in J; destruct (is_empty s); [discriminate J|exact J]).
  assert (J1 : tests (is_japanese_w s) = list_sum (map (fun c => tests (is_char_japanese_w c)) s)).
  { unfold is_japanese_w, nonempty_all_w. destruct (is_empty s) eqn:E; [destruct s; [reflexivity|discriminate E]|]. apply all_exact.
    rewrite <- FA. clear. induction s as [|c s IH]; [reflexivity|]. cbn [forallb]. rewrite IH. unfold is_char_japanese_w. now rewrite ranges_value. }
  pose proof (trim_sum s FA) as Q. pose proof (all_kana_tests s) as K.
  assert (M : (tests (is_invalid_matcher_w s m) + tests (tokenize_with_opt_w (match m with Some w => w | None => s end) false)
    <= match m with None => 2 + list_sum (map (fun c => if is_char_kana c then 2 else 0) s) + list_sum (map (fun c => tests (get_type_w c false)) s) | Some w => 43 * length w end)%nat).
  { rewrite token_tests. unfold is_invalid_matcher_w. destruct m as [w|].
    - pose proof (all_tests is_char_kanji_w 1 w ltac:(intro; apply le_n)). destruct (sum_le (fun c => tests (get_type_w c false)) 42 w (fun c => proj1 (type_tests c false))). lia.
    - unfold is_kana_w, nonempty_all_w. destruct (is_empty s); cbn [ret tests]; lia. }
  cbn [andthen tests]. destruct (value (without_kana_w b s (nth_error s 0))) as [[]| |]; cbn [andthen ret tests]; try (destruct b, m; cbn [negb] in *; lia).
  destruct (value (without_kana_w (negb b) s (nth_error (rev s) 0))) as [[]| |]; cbn [andthen ret tests]; try (destruct b, m; cbn [negb] in *; lia).
  destruct (value (is_invalid_matcher_w s m)); cbn [andthen ret tests]; destruct b, m; cbn [negb] in *; lia.
Qed.

(** ** The branches of the conversions *)
Lemma romaji_tests c : (tests (is_char_romaji_w c) <= 6)%nat.
Proof. apply ranges_tests. Qed.
Lemma romaji_pair s : (tests (is_romaji_w s) + tests (any_w is_char_romaji_w s) <= 6 * length s + match s with [] => 0 | _ => 6 end)%nat.
Proof.
  unfold is_romaji_w, nonempty_all_w. destruct s as [|c s]; [cbn; lia|]. cbn [is_empty all_w any_w andthen tests length].
  pose proof (romaji_tests c). pose proof (all_tests is_char_romaji_w 6 s romaji_tests). pose proof (any_tests is_char_romaji_w 6 s romaji_tests).
  destruct (value (is_char_romaji_w c)); cbn [ret tests]; lia.
Qed.
Lemma mixed_tests s b : (tests (is_mixed_pass_kanji_w s b) <= (if b then 2 else 3) * length s + tests (any_w is_char_romaji_w s))%nat.
Proof.
  unfold is_mixed_pass_kanji_w. cbn [andthen tests]. rewrite !and_tests, or_tests. cbn [ret tests].
  pose proof (any_tests is_char_hiragana_w 1 s ltac:(intro; apply hira_tests)). pose proof (any_tests is_char_katakana_w 1 s ltac:(intro; apply le_n)).
  pose proof (any_tests is_char_kanji_w 1 s ltac:(intro; apply le_n)).
  destruct b; cbn [negb ret tests]; repeat match goal with |- context [if ?x then _ else _] => destruct x end; cbn [tests ret]; lia.
Qed.
Lemma kata_tests s o : (tests (katakana_branch_w s o) <= 8 * length s + 6)%nat.
Proof.
  unfold katakana_branch_w. destruct (pass_romaji o); [cbn; lia|]. rewrite or_tests. unfold is_mixed_w.
  pose proof (romaji_pair s). pose proof (mixed_tests s true). destruct (value (is_romaji_w s)), s; cbn [length] in *; lia.
Qed.
Lemma hira_branch_tests s o : (tests (hiragana_branch_w s o) <= 8 * length s + 12)%nat.
Proof.
  unfold hiragana_branch_w. destruct (pass_romaji o); [cbn; lia|]. rewrite !or_tests. unfold is_mixed_w.
  pose proof (romaji_pair s). pose proof (mixed_tests s true).
  assert (P : (tests match nth_error s 0 with Some c => is_char_english_punctuation_w c | None => ret false end <= 6)%nat)
    by (destruct (nth_error s 0) as [c|]; [apply (ranges_tests c EN_PUNCTUATION_RANGES)|cbn; lia]).
  destruct (value (is_mixed_pass_kanji_w s true)), (value (is_romaji_w s)), s; cbn [length] in *; lia.
Qed.
(** reached by kanji before a katakana letter *)
Lemma repeat_any {A} (p : A -> W bool) x n w k : value (p x) = false -> tests (p x) = k -> tests (any_w p (repeat x n ++ w)) = (k * n + tests (any_w p w))%nat.
Proof. intros H <-. induction n as [|n IH]; cbn [repeat app any_w andthen tests]; [lia|]. rewrite H, IH. lia. Qed.
Lemma repeat_value {A} (p : A -> W bool) x n w : value (p x) = false -> value (any_w p (repeat x n ++ w)) = value (any_w p w).
Proof. intro H. induction n as [|n IH]; [reflexivity|]. cbn [repeat app any_w andthen value]. now rewrite H. Qed.
Definition worst n := repeat (ch "漢") n ++ u "ア".
Lemma worst_mixed n : tests (is_mixed_w (worst n)) = (8 * S n)%nat /\ value (is_mixed_w (worst n)) = false.
Proof.
  unfold is_mixed_w, worst. split.
  - unfold is_mixed_pass_kanji_w. cbn [negb andthen ret tests]. rewrite !and_tests, or_tests, and_value, or_value. cbn [ret tests].
    rewrite (repeat_value is_char_hiragana_w), (repeat_value is_char_katakana_w), (repeat_value is_char_romaji_w) by reflexivity.
    rewrite (repeat_any is_char_hiragana_w _ _ _ 1), (repeat_any is_char_katakana_w _ _ _ 1), (repeat_any is_char_romaji_w _ _ _ 6) by reflexivity.
    cbn - [Nat.mul Nat.add]. lia.
  - unfold is_mixed_pass_kanji_w. cbn [negb andthen ret value]. rewrite !and_value, or_value.
    rewrite (repeat_value is_char_hiragana_w), (repeat_value is_char_katakana_w), (repeat_value is_char_romaji_w) by reflexivity. reflexivity.
Qed.
Lemma worst_romaji n : tests (is_romaji_w (worst n)) = 6%nat /\ value (is_romaji_w (worst n)) = false.
Proof. destruct n; split; reflexivity. Qed.
Lemma worst_branches n o : pass_romaji o = false ->
  length (worst n) = S n /\ tests (katakana_branch_w (worst n) o) = (8 * S n + 6)%nat /\ tests (hiragana_branch_w (worst n) o) = (8 * S n + 12)%nat.
Proof.
  intro P. destruct (worst_mixed n) as [A B]. destruct (worst_romaji n) as [C D]. split.
  { unfold worst. rewrite app_length, repeat_length. cbn. lia. }
  unfold katakana_branch_w, hiragana_branch_w. rewrite P, !or_tests, A, B, C, D. split; [lia|].
  assert (F : tests match nth_error (worst n) 0 with Some c => is_char_english_punctuation_w c | None => ret false end = 6%nat) by (destruct n; reflexivity).
  rewrite F. lia.
Qed.

(** ** Exact numbers *)
Lemma nonempty_exact p q (P : N -> Prop) (f : N -> nat) k s : (forall c, value (p c) = q c) -> (forall c, q c = true <-> P c) ->
  (forall c, P c -> tests (p c) = f c) -> (forall c, ~ P c -> tests (p c) = k) -> Forall P s ->
  tests (nonempty_all_w p s) = list_sum (map f s) /\ forall x, ~ P x -> tests (nonempty_all_w p (s ++ [x])) = (list_sum (map f s) + k)%nat.
Proof.
  intros V Q F K A.
  assert (B : forallb (fun c => value (p c)) s = true) by (apply forallb_forall; intros c I; rewrite V; apply Q; rewrite Forall_forall in A; auto).
  assert (M : map (fun c => tests (p c)) s = map f s) by (apply map_ext_in; intros c I; apply F; rewrite Forall_forall in A; auto).
  split.
  - destruct s as [|c s]; [reflexivity|]. unfold nonempty_all_w. cbn [is_empty]. rewrite (all_exact p _ B). now rewrite M.
  - intros x X. unfold nonempty_all_w. replace (is_empty (s ++ [x])) with false by (destruct s; reflexivity).
    rewrite (all_exact_fail p s x B); [rewrite M, (K x X); reflexivity|]. rewrite V. destruct (q x) eqn:Z; [exfalso; now apply X, Q|reflexivity].
Qed.
Lemma sum_split (f : N -> nat) (g : N -> bool) k j s : (forall c, In c s -> (f c + (if g c then j else 0) = k)%nat) ->
  (list_sum (map f s) + j * length (filter g s) = k * length s)%nat.
Proof.
  induction s as [|c s IH]; intro H; [cbn; lia|]. specialize (IH (fun d I => H d (or_intror I))). specialize (H c (or_introl eq_refl)).
  unfold list_sum in *. cbn [map fold_right filter length]. destruct (g c); cbn [length]; lia.
Qed.
Lemma exact_tests s :
  let dashes := length (filter (N.eqb (ch "ー")) s) in
  (Forall S_hiragana s -> (tests (is_hiragana_w s) + dashes)%nat = length s
     /\ forall x, ~ S_hiragana x -> (tests (is_hiragana_w (s ++ [x])) + dashes = length s + 1)%nat)
  /\ (Forall S_katakana s -> tests (is_katakana_w s) = length s
     /\ forall x, ~ S_katakana x -> tests (is_katakana_w (s ++ [x])) = (length s + 1)%nat)
  /\ (Forall S_kana s -> (tests (is_kana_w s) + 2 * dashes + length (filter (fun c => (ch "ぁ" <=? c)%N && (c <=? ch "ゖ")%N) s))%nat = (2 * length s)%nat
     /\ forall x, ~ S_kana x -> tests (is_kana_w (s ++ [x])) = (tests (is_kana_w s) + 2)%nat)
  /\ (Forall S_kanji s -> tests (is_kanji_w s) = length s
     /\ forall x, ~ S_kanji x -> tests (is_kanji_w (s ++ [x])) = (length s + 1)%nat).
Proof.
  change (ch "ー") with 0x30FC. change (ch "ぁ") with 0x3041. change (ch "ゖ") with 0x3096. intro dashes. subst dashes.
  assert (O : forall c, tests (is_char_hiragana_w c) = if c =? 0x30FC then 0%nat else 1%nat).
  { intro c. unfold is_char_hiragana_w, is_char_long_dash, PROLONGED_SOUND_MARK. destruct (c =? 0x30FC); reflexivity. }
  split; [|split; [|split]]; intro F.
  - destruct (nonempty_exact is_char_hiragana_w is_char_hiragana S_hiragana (fun c => if c =? 0x30FC then 0%nat else 1%nat) 1 s hiragana_value hiragana_spec) as [A B]; [now intros|..|exact F|].
    { intros c H. rewrite O. destruct (c =? 0x30FC) eqn:Z; [|reflexivity]. apply N.eqb_eq in Z. exfalso. apply H. now right. }
    pose proof (sum_split (fun c => if c =? 0x30FC then 0%nat else 1%nat) (N.eqb 0x30FC) 1 1 s) as C. unfold is_hiragana_w. rewrite A.
    assert (C' := C ltac:(intros c _; rewrite (N.eqb_sym 0x30FC c); destruct (c =? 0x30FC); reflexivity)). split; [lia|]. intros x X. rewrite (B x X). lia.
  - destruct (nonempty_exact is_char_katakana_w is_char_katakana S_katakana (fun _ => 1%nat) 1 s (fun _ => eq_refl) katakana_spec (fun _ _ => eq_refl) (fun _ _ => eq_refl) F) as [A B].
    unfold is_katakana_w. rewrite A. assert (C : list_sum (map (fun _ => 1%nat) s) = length s) by (clear; induction s; [reflexivity|unfold list_sum in *; cbn; congruence]).
    split; [exact C|]. intros x X. rewrite (B x X). lia.
  - set (f := fun c => if c =? 0x30FC then 0%nat else if (0x3041 <=? c) && (c <=? 0x3096) then 1%nat else 2%nat).
    assert (KS : forall c, is_char_kana c = true <-> S_kana c) by (intro c; unfold is_char_kana, S_kana; rewrite orb_true_iff, hiragana_spec, katakana_spec; tauto).
    assert (HV : forall c, is_char_hiragana c = (c =? 0x30FC) || ((0x3041 <=? c) && (c <=? 0x3096))).
    { intro c. apply eq_true_iff_eq. rewrite hiragana_spec, orb_true_iff, andb_true_iff, N.eqb_eq, !N.leb_le. unfold S_hiragana, Predicates.between. tauto. }
    assert (T : forall c, tests (is_char_kana_w c) = f c).
    { intro c. unfold is_char_kana_w, f. rewrite or_tests, hiragana_value, O, HV. change (tests (is_char_katakana_w c)) with 1%nat.
      destruct (c =? 0x30FC); [reflexivity|]. cbn [orb]. destruct ((0x3041 <=? c) && (c <=? 0x3096)); reflexivity. }
    destruct (nonempty_exact is_char_kana_w is_char_kana S_kana f 2 s kana_value KS) as [A B]; [intros; apply T|..|exact F|].
    { intros c H. rewrite T. unfold f. rewrite <- KS in H. unfold is_char_kana in H. rewrite HV in H. destruct (c =? 0x30FC); [now contradiction H|].
      cbn [orb] in H. destruct ((0x3041 <=? c) && (c <=? 0x3096)); [now contradiction H|reflexivity]. }
    unfold is_kana_w. rewrite A. split; [|exact B]. clear. unfold f. induction s as [|c s IH]; [reflexivity|]. unfold list_sum in *. cbn [map fold_right filter length].
    rewrite (N.eqb_sym 0x30FC c). destruct (c =? 0x30FC) eqn:Z.
    + apply N.eqb_eq in Z. subst c. cbn. cbn in IH. lia.
    + destruct ((0x3041 <=? c) && (c <=? 0x3096)); cbn [length]; lia.
  - destruct (nonempty_exact is_char_kanji_w is_char_kanji S_kanji (fun _ => 1%nat) 1 s (fun _ => eq_refl) kanji_spec (fun _ _ => eq_refl) (fun _ _ => eq_refl) F) as [A B].
    unfold is_kanji_w. rewrite A. assert (C : list_sum (map (fun _ => 1%nat) s) = length s) by (clear; induction s; [reflexivity|unfold list_sum in *; cbn; congruence]).
    split; [exact C|]. intros x X. rewrite (B x X). lia.
Qed.
